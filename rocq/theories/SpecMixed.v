(** The values of expressions on integers of several types (C70).

    SpecValue has the values of C, for any types, and those of Rust for one
    type.  Here are those of Rust for several. *)
From Verif Require Import Base Utf Lex LexFloat Token Ast Rust Codegen SpecRustExpr SpecTree SpecFold SpecValue.
From Coq Require Import String List ZArith.
Import ListNotations.
Local Open Scope string_scope.
Local Open Scope list_scope.
Local Open Scope Z_scope.

(** ** Rust *)

Inductive rty := RInt (t : int_ty) | RBool.
(** The value of this type that stands for the C value [v]. *)
Definition value_of (k : rty) (v : Z) : rval := match k with RInt _ => VInt v | RBool => VBool (negb (v =? 0)) end.

(** The type of an operator other than a shift, on operands of one type. *)
Definition rust_op_ty (op : str) (k : rty) : option rty :=
  if one_of ["<"; "<="; ">"; ">="; "=="; "!="] op then Some RBool
  else if one_of ["*"; "/"; "%"; "+"; "-"] op then match k with RInt _ => Some k | RBool => None end
  else if one_of ["&"; "^"; "|"] op then Some k
  else None.
(** Arithmetic on booleans does not depend on an integer type. *)
Definition int_of (k : rty) : int_ty := match k with RInt t => t | RBool => (true, 32) end.

Section Rust.
(** The integer types that tokens name, the types and values of paths, and the
    types that a number without suffix may have: that of the number it is
    combined with, or [i32]. *)
Variable named : list rtok -> option int_ty.
Variable vars : list rtok -> option (int_ty * Z).
Variable numbers : int_ty -> Prop.

Definition literal_ty (sfx : str) (t : int_ty) : Prop :=
  sfx = [] /\ numbers t \/ exists name, sfx = st name /\ In (name, t) suffix_types.

(** [evals x k o]: the expression may be given the type [k], and then evaluates
    to [o]; [None] is a panic, or a number that its type does not have. *)
Inductive evals : rx -> rty -> option rval -> Prop :=
| E_path p t v : vars p = Some (t, v) -> evals (XPath p) (RInt t) (omap VInt (fits t v))
| E_number v sfx t : literal_ty sfx t -> evals (XLit (RlInt v sfx)) (RInt t) (omap VInt (fits t v))
| E_cast x ts k o t : evals x k o -> named ts = Some t ->
    evals (XCast x ts) (RInt t) (omap (fun r => VInt (low t (as_int r))) o)
(** Only signed numbers can be negated; a negative literal need not be the
    opposite of a literal. *)
| E_minus_number v sfx t : literal_ty sfx t -> fst t = true -> evals (XUn (st "-") (XLit (RlInt v sfx))) (RInt t) (omap VInt (fits t (- v)))
| E_minus x t o : (forall l, x <> XLit l) -> evals x (RInt t) o -> fst t = true ->
    evals (XUn (st "-") x) (RInt t) (obind o (fun r => omap VInt (fits t (- as_int r))))
| E_complement x t o : evals x (RInt t) o -> evals (XUn (st "!") x) (RInt t) (omap (fun r => VInt (low t (Z.lnot (as_int r)))) o)
| E_not x o : evals x RBool o -> evals (XUn (st "!") x) RBool (omap (fun r => VBool (as_int r =? 0)) o)
| E_and x y o o' : evals x RBool o -> evals y RBool o' ->
    evals (XBin (st "&&") x y) RBool (match o with Some (VBool true) => o' | _ => o end)
| E_or x y o o' : evals x RBool o -> evals y RBool o' ->
    evals (XBin (st "||") x y) RBool (match o with Some (VBool false) => o' | _ => o end)
(** The right operand of a shift may have any integer type. *)
| E_shift op x y t t' o o' : one_of ["<<"; ">>"] op = true -> evals x (RInt t) o -> evals y (RInt t') o' ->
    evals (XBin op x y) (RInt t) (obind o (fun a => obind o' (fun b => r_binary t op a b)))
| E_binary op x y k k' o o' : rust_op_ty op k = Some k' -> evals x k o -> evals y k o' ->
    evals (XBin op x y) k' (obind o (fun a => obind o' (fun b => r_binary (int_of k) op a b)))
| E_if x y z k o o' o'' : evals x RBool o -> evals y k o' -> evals z k o'' ->
    evals (XIf x (RB [] (Some y)) (Some (RB [] (Some z)))) k
      (match o with Some (VBool true) => o' | Some (VBool false) => o'' | _ => None end)
(** A character can be cast to any integer type. *)
| E_char n ts t : named ts = Some t -> evals (XCast (XLit (RlChar n)) ts) (RInt t) (Some (VInt (low t (Z.of_N n)))).
End Rust.

(** ** Conditions *)

(** Expressions on integers.  [model] has the types that are cast to, and they
    are at least as wide as [int]; a cast that is not an operand of an operator
    may be to a narrower type.  If [signed], they are signed. *)
Fixpoint mixed (model : builtin -> option int_ty) (int : Z) (signed alone : bool) (e : expr) : Prop :=
  match e with
  | EVar n => ordinary n
  | ELit (LInt _) => True
  | ECast (TyBuiltIn b) e =>
    (exists t, model b = Some t /\ 1 <= snd t <= 64 /\ (alone = true \/ int <= snd t) /\ (signed = true -> fst t = true)) /\
    mixed model int signed true e
  | EUnary (UPlus | UMinus | UNot | UComp) e => mixed model int signed false e
  | EBinary a op b => is_plain op = true /\ mixed model int signed false a /\ mixed model int signed false b
  | ETernary a b d => mixed model int signed false a /\ mixed model int signed false b /\ mixed model int signed false d
  | _ => False
  end.
(** The type of the expression is that of a variable or a cast, not that of its
    literals only. *)
Fixpoint anchored (e : expr) : bool :=
  match e with
  | EVar _ | ECast _ _ => true
  | EUnary (UPlus | UMinus | UComp) e => anchored e
  | EBinary a op b =>
    match op with
    | OShl | OShr => anchored a
    | OLt | OLte | OGt | OGte | OEq | ONeq | OAnd | OOr => false
    | _ => anchored a || anchored b
    end
  | ETernary _ b d => anchored b || anchored d
  | _ => false
  end.
(** Every [~] is applied to such an expression. *)
Fixpoint anchored_complements (e : expr) : Prop :=
  match e with
  | EUnary op e => anchored_complements e /\ match op with UComp => anchored e = true | _ => True end
  | ECast _ e => anchored_complements e
  | EBinary a _ b => anchored_complements a /\ anchored_complements b
  | ETernary a b d => anchored_complements a /\ anchored_complements b /\ anchored_complements d
  | _ => True
  end.
(** The paths of Rust have the types and values of the variables of C, at least
    as wide as [int], and signed if [signed]. *)
Definition same_typed_vars {U : Unicode} (int : Z) (signed : bool) (cx : cgctx) (c : lctx)
  (vars : ident_expr -> option (int_ty * Z)) (rvars : list rtok -> option (int_ty * Z)) : Prop :=
  forall n t v, vars n = Some (t, v) ->
    int <= snd t <= 64 /\ (signed = true -> fst t = true) /\
    ordinary n /\ (forall i, n = IArg i -> arg_name c i <> Some (st "...")) /\
    forall ts, var_toks cx c n = Some ts -> rvars ts = Some (t, v).
