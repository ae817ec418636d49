(** The values of integer expressions, in C and in Rust (C40, C56).

    [None] is an expression without a value: one whose evaluation is undefined
    or implementation-defined in C, panics in Rust, or is not an expression on
    integers. *)
From Verif Require Import Base Utf Lex LexFloat Token Ast Rust Codegen SpecRustExpr SpecTree SpecFold.
From Coq Require Import String List ZArith.
Import ListNotations.
Local Open Scope string_scope.
Local Open Scope list_scope.
Local Open Scope Z_scope.

(** ** C *)

(** An integer type is a signedness and a width, see SpecFold. *)
Definition holds (t : int_ty) (z : Z) : bool :=
  if fst t then (- 2 ^ (snd t - 1) <=? z) && (z <? 2 ^ (snd t - 1)) else (0 <=? z) && (z <? 2 ^ snd t).
(** The result of an operation, and of a conversion (6.3.1.3): unsigned types
    wrap, a signed type has to hold it. *)
Definition represent (t : int_ty) (z : Z) : option Z :=
  if fst t then if holds t z then Some z else None else Some (z mod 2 ^ snd t).
Definition bit (b : bool) : Z := if b then 1 else 0.

(** C23 6.5.6 to 6.5.13, on operands of type [t]. *)
Definition c_binary (t : int_ty) (op : binop) (a b : Z) : option Z :=
  match op with
  | OMul => represent t (a * b)
  | ODiv => if b =? 0 then None else represent t (Z.quot a b)
  | ORem => if b =? 0 then None else if represent t (Z.quot a b) then Some (Z.rem a b) else None
  | OAdd => represent t (a + b)
  | OSub => represent t (a - b)
  | OBitAnd => Some (Z.land a b)
  | OBitXor => Some (Z.lxor a b)
  | OBitOr => Some (Z.lor a b)
  | OLt => Some (bit (a <? b))
  | OLte => Some (bit (a <=? b))
  | OGt => Some (bit (b <? a))
  | OGte => Some (bit (b <=? a))
  | OEq => Some (bit (a =? b))
  | ONeq => Some (bit (negb (a =? b)))
  | _ => None
  end.
(** Shifts have the type of the left operand.  Shifting a negative number to the
    right propagates the sign, as compilers do. *)
Definition is_shift (op : binop) : bool := match op with OShl | OShr => true | _ => false end.
Definition c_shift (t : int_ty) (op : binop) (a b : Z) : option Z :=
  if (0 <=? b) && (b <? snd t) then
    match op with
    | OShl => if fst t && (a <? 0) then None else represent t (a * 2 ^ b)
    | OShr => Some (a / 2 ^ b)
    | _ => None
    end
  else None.

Section C.
(** The integer types of the platform, the width of [int], the types of
    literals, and the types and values of variables. *)
Variable model : builtin -> option int_ty.
Variable int : Z.
Variable lit_ty : lit_int -> int_ty.
Variable vars : ident_expr -> option (int_ty * Z).

(** The integer promotions, 6.3.1.1. *)
Definition promote (t : int_ty) : int_ty := if snd t <? int then (true, int) else t.
Definition c_arith (a b : option int_ty) : option int_ty :=
  obind a (fun a => omap (fun b => common (promote a) (promote b)) b).
Fixpoint c_type (e : expr) : option int_ty :=
  match e with
  | EVar n => omap fst (vars n)
  | ELit (LInt i) => Some (lit_ty i)
  | ECast (TyBuiltIn b) e => model b
  | EUnary (UPlus | UMinus | UComp) e => omap promote (c_type e)
  | EUnary UNot _ => Some (true, int)
  | EBinary l op r =>
    match op with
    | OShl | OShr => omap promote (c_type l)
    | OLt | OLte | OGt | OGte | OEq | ONeq | OAnd | OOr => Some (true, int)
    | OMul | ODiv | ORem | OAdd | OSub | OBitAnd | OBitXor | OBitOr => c_arith (c_type l) (c_type r)
    | _ => None
    end
  | ETernary _ b d => c_arith (c_type b) (c_type d)
  | _ => None
  end.
Fixpoint c_val (e : expr) : option Z :=
  match e with
  | EVar n => obind (vars n) (fun x => if holds (fst x) (snd x) then Some (snd x) else None)
  | ELit (LInt i) => if holds (lit_ty i) (int_value i) then Some (int_value i) else None
  | ECast (TyBuiltIn b) e => obind (model b) (fun t => obind (c_val e) (represent t))
  | EUnary UPlus e => c_val e
  | EUnary UMinus e => obind (omap promote (c_type e)) (fun t => obind (c_val e) (fun v => represent t (- v)))
  | EUnary UComp e => obind (omap promote (c_type e)) (fun t => obind (c_val e) (fun v => represent t (Z.lnot v)))
  | EUnary UNot e => omap (fun v => bit (v =? 0)) (c_val e)
  | EBinary l OAnd r => obind (c_val l) (fun a => if a =? 0 then Some 0 else omap (fun b => bit (negb (b =? 0))) (c_val r))
  | EBinary l OOr r => obind (c_val l) (fun a => if a =? 0 then omap (fun b => bit (negb (b =? 0))) (c_val r) else Some 1)
  | EBinary l op r => obind (c_val l) (fun a => obind (c_val r) (fun b =>
      if is_shift op then obind (omap promote (c_type l)) (fun t => c_shift t op a b)
      else obind (c_arith (c_type l) (c_type r)) (fun t => obind (represent t a) (fun a => obind (represent t b) (fun b => c_binary t op a b)))))
  | ETernary a b d => obind (c_val a) (fun x => obind (c_arith (c_type b) (c_type d)) (fun t =>
      obind (if x =? 0 then c_val d else c_val b) (represent t)))
  | _ => None
  end.
End C.

(** ** Rust *)

(** All numbers have one integer type [T]: Rust never converts. *)
Section Rust.
Variable T : int_ty.
Let w := snd T.
Definition fits (z : Z) : option Z := if holds T z then Some z else None.

Inductive rval := VInt (z : Z) | VBool (b : bool).
Inductive kind := KInt | KBool.
(** The value that stands for the C value [v]. *)
Definition stands_for (k : kind) (v : Z) : rval := match k with KInt => VInt v | KBool => VBool (negb (v =? 0)) end.

Definition look {A} (l : list (string * A)) (s : str) : option A :=
  omap snd (find (fun x => str_eqb s (st (fst x))) l).

(** The low [w] bits, as a number of the type. *)
Definition low (z : Z) : Z := if fst T then (z + 2 ^ (w - 1)) mod 2 ^ w - 2 ^ (w - 1) else z mod 2 ^ w.
(** Arithmetic, with overflow checks. *)
Definition r_arith : str -> option (Z -> Z -> option Z) := look
  [("*", fun a b => fits (a * b));
   ("/", fun a b => if b =? 0 then None else fits (Z.quot a b));
   ("%", fun a b => if b =? 0 then None else if fits (Z.quot a b) then Some (Z.rem a b) else None);
   ("+", fun a b => fits (a + b));
   ("-", fun a b => fits (a - b));
   ("<<", fun a b => if (0 <=? b) && (b <? w) then Some (low (a * 2 ^ b)) else None);
   (">>", fun a b => if (0 <=? b) && (b <? w) then Some (a / 2 ^ b) else None);
   ("&", fun a b => Some (Z.land a b));
   ("^", fun a b => Some (Z.lxor a b));
   ("|", fun a b => Some (Z.lor a b))].
Definition r_bool : str -> option (bool -> bool -> bool) := look [("&", andb); ("^", xorb); ("|", orb)].
(** Comparisons; of two booleans, [false < true]. *)
Definition r_compare : str -> option (Z -> Z -> bool) := look
  [("<", Z.ltb); ("<=", Z.leb); (">", fun a b => b <? a); (">=", fun a b => b <=? a);
   ("==", Z.eqb); ("!=", fun a b => negb (a =? b))].
Definition as_int (v : rval) : Z := match v with VInt z => z | VBool b => bit b end.

Definition r_binary (op : str) (a b : rval) : option rval :=
  match r_compare op with
  | Some f => match a, b with
              | VInt _, VInt _ | VBool _, VBool _ => Some (VBool (f (as_int a) (as_int b)))
              | _, _ => None
              end
  | None =>
    match a, b with
    | VInt x, VInt y => obind (r_arith op) (fun f => omap VInt (f x y))
    | VBool x, VBool y => omap (fun f => VBool (f x y)) (r_bool op)
    | _, _ => None
    end
  end.

(** [vars] are the values of paths, and [int] recognises the tokens of the type. *)
Fixpoint r_val (int : list rtok -> bool) (vars : list rtok -> option Z) (x : rx) : option rval :=
  match x with
  | XPath p => omap VInt (obind (vars p) fits)
  | XLit (RlInt v _) => omap VInt (fits v)
  | XCast x t =>
    if int t then omap (fun v => VInt (as_int v)) (r_val int vars x) else None
  | XUn op x =>
    if str_eqb op (st "-") then
      if negb (fst T) then None else
      match x with
      | XLit (RlInt v _) => omap VInt (fits (- v))
      | _ => match r_val int vars x with Some (VInt v) => omap VInt (fits (- v)) | _ => None end
      end
    else if str_eqb op (st "!") then
      match r_val int vars x with
      | Some (VInt v) => Some (VInt (low (Z.lnot v)))
      | Some (VBool b) => Some (VBool (negb b))
      | None => None
      end
    else None
  | XBin op x y =>
    if str_eqb op (st "&&") then
      match r_val int vars x with Some (VBool true) => r_val int vars y | Some (VBool false) => Some (VBool false) | _ => None end
    else if str_eqb op (st "||") then
      match r_val int vars x with Some (VBool false) => r_val int vars y | Some (VBool true) => Some (VBool true) | _ => None end
    else obind (r_val int vars x) (fun a => obind (r_val int vars y) (fun b => r_binary op a b))
  | XIf x (RB [] (Some y)) (Some (RB [] (Some z))) =>
    match r_val int vars x with Some (VBool true) => r_val int vars y | Some (VBool false) => r_val int vars z | _ => None end
  | _ => None
  end.

(** The types of Rust: [r_kind x = None] if the expression is rejected; unsigned
    numbers cannot be negated. *)
Definition kind_eqb (a b : kind) : bool := match a, b with KInt, KInt | KBool, KBool => true | _, _ => false end.
Definition both (a b : option kind) : option kind :=
  match a, b with Some x, Some y => if kind_eqb x y then Some x else None | _, _ => None end.
Fixpoint r_kind (int : list rtok -> bool) (x : rx) : option kind :=
  match x with
  | XPath _ | XLit (RlInt _ _) => Some KInt
  | XCast x t => if int t then omap (fun _ => KInt) (r_kind int x) else None
  | XUn op x =>
    if str_eqb op (st "-") then if negb (fst T) then None else match r_kind int x with Some KInt => Some KInt | _ => None end
    else if str_eqb op (st "!") then r_kind int x
    else None
  | XBin op x y =>
    match both (r_kind int x) (r_kind int y) with
    | None => None
    | Some k =>
      if str_eqb op (st "&&") || str_eqb op (st "||") then if kind_eqb k KBool then Some KBool else None
      else match r_compare op, r_arith op, r_bool op with
           | Some _, _, _ => Some KBool
           | _, Some _, None => if kind_eqb k KInt then Some KInt else None
           | _, Some _, Some _ => Some k
           | _, None, _ => None
           end
    end
  | XIf x (RB [] (Some y)) (Some (RB [] (Some z))) =>
    match r_kind int x with Some KBool => both (r_kind int y) (r_kind int z) | _ => None end
  | _ => None
  end.
End Rust.

(** ** Conditions *)

(** The expression is a truth value: a comparison or a logical operation. *)
Definition is_truth (e : expr) : bool :=
  match e with
  | EUnary UNot _ => true
  | EBinary _ (OLt | OLte | OGt | OGte | OEq | ONeq | OAnd | OOr) _ => true
  | _ => false
  end.
(** The expression may be a truth value in Rust. *)
Fixpoint may_be_truth (e : expr) : bool :=
  match e with
  | EUnary UNot _ => true
  | EUnary UPlus e => may_be_truth e
  | EBinary _ (OLt | OLte | OGt | OGte | OEq | ONeq | OAnd | OOr) _ => true
  | EBinary a (OBitAnd | OBitXor | OBitOr) b => may_be_truth a && may_be_truth b
  | ETernary _ b d => may_be_truth b || may_be_truth d
  | _ => false
  end.
(** Every [!] negates a truth value, or a number without suffix, and every [~] a
    number. *)
Fixpoint well_negated (e : expr) : Prop :=
  match e with
  | EUnary op e =>
    well_negated e /\
    match op with
    | UNot => is_truth e = true \/ exists v, e = ELit (LInt (mk_int v None))
    | UComp => may_be_truth e = false
    | _ => True
    end
  | ECast _ e => well_negated e
  | EBinary a _ b => well_negated a /\ well_negated b
  | ETernary a b d => well_negated a /\ well_negated b /\ well_negated d
  | _ => True
  end.

(** A name that is not one of the predefined macros. *)
Definition ordinary (n : ident_expr) : Prop :=
  match n with
  | IPlain s => one_of ["__LINE__"; "__FILE__"; "__SCHAR_MAX__"; "__SHRT_MAX__"; "__INT_MAX__"; "__LONG_MAX__"; "__LONG_LONG_MAX__"] s = false
  | IArg _ => True
  | IConcat _ => False
  end.
(** Expressions on integers, with casts to types that are [ok] only. *)
Fixpoint int_expr (ok : builtin -> Prop) (e : expr) : Prop :=
  match e with
  | EVar n => ordinary n
  | ELit (LInt _) => True
  | ECast (TyBuiltIn b) e => ok b /\ int_expr ok e
  | EUnary (UPlus | UMinus | UNot | UComp) e => int_expr ok e
  | EBinary a op b => is_plain op = true /\ int_expr ok a /\ int_expr ok b
  | ETernary a b d => int_expr ok a /\ int_expr ok b /\ int_expr ok d
  | _ => False
  end.
(** Every literal satisfies [P]. *)
Fixpoint literals (P : lit_int -> Prop) (e : expr) : Prop :=
  match e with
  | ELit (LInt i) => P i
  | EUnary _ e | ECast _ e => literals P e
  | EBinary a _ b => literals P a /\ literals P b
  | ETernary a b d => literals P a /\ literals P b /\ literals P d
  | _ => True
  end.
(** Every [~] is applied to an operand of the type [T], not to one of a narrower
    type like [int]. *)
Fixpoint full_complements (type : expr -> option int_ty) (T : int_ty) (e : expr) : Prop :=
  match e with
  | EUnary op e => full_complements type T e /\ match op with UComp => type e = Some T | _ => True end
  | ECast _ e => full_complements type T e
  | EBinary a _ b => full_complements type T a /\ full_complements type T b
  | ETernary a b d => full_complements type T a /\ full_complements type T b /\ full_complements type T d
  | _ => True
  end.
(** The variables of C have the type [T], and the paths of Rust have the same values. *)
Definition same_vars {U : Unicode} (T : int_ty) (cx : cgctx) (c : lctx) (vars : ident_expr -> option (int_ty * Z)) (rvars : list rtok -> option Z) : Prop :=
  forall n t v, vars n = Some (t, v) -> t = T /\
    ordinary n /\ (forall i, n = IArg i -> arg_name c i <> Some (st "...")) /\
    forall ts, var_toks cx c n = Some ts -> rvars ts = Some v.
