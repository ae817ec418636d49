(** The Rust operator tree of a C expression (C36, C39, C40).

    [tree e x]: the Rust expression [x] has the operators of [e], applied to the
    same operands.  Names, types, and the literals that are printed as a block
    are the tokens printed for them; everything else is stated here. *)
From Verif Require Import Base Utf Lex LexFloat Token Ast ParseStmt Rust Codegen SpecRustExpr.
From Coq Require Import String List ZArith.
Import ListNotations.
Local Open Scope string_scope.
Local Open Scope list_scope.

(** ** Operators *)

Definition is_plain (op : binop) : bool :=
  match op with
  | OMul | ODiv | ORem | OAdd | OSub | OShl | OShr | OLt | OLte | OGt | OGte | OEq | ONeq
  | OBitAnd | OBitXor | OBitOr | OAnd | OOr => true
  | _ => false
  end.
(** The Rust operator of a C operator; for an assignment, the operator that
    assigns. *)
Definition rust_op (op : binop) : str :=
  st match op with
     | OMul => "*" | ODiv => "/" | ORem => "%" | OAdd => "+" | OSub => "-" | OShl => "<<" | OShr => ">>"
     | OLt => "<" | OLte => "<=" | OGt => ">" | OGte => ">=" | OEq => "==" | ONeq => "!="
     | OBitAnd => "&" | OBitXor => "^" | OBitOr => "|" | OAnd => "&&" | OOr => "||"
     | OAssign => "=" | OAddAssign => "+=" | OSubAssign => "-=" | OMulAssign => "*=" | ODivAssign => "/="
     | ORemAssign => "%=" | OShlAssign => "<<=" | OShrAssign => ">>=" | OBitAndAssign => "&="
     | OBitXorAssign => "^=" | OBitOrAssign => "|=" | OMember => "."
     end.
(** The operator that a compound assignment applies. *)
Definition applied (op : binop) : option str :=
  match op with
  | OAddAssign => Some (st "+")
  | OSubAssign => Some (st "-")
  | OMulAssign => Some (st "*")
  | ODivAssign => Some (st "/")
  | ORemAssign => Some (st "%")
  | OShlAssign => Some (st "<<")
  | OShrAssign => Some (st ">>")
  | OBitAndAssign => Some (st "&")
  | OBitXorAssign => Some (st "^")
  | OBitOrAssign => Some (st "|")
  | _ => None
  end.
(** Assignments that are generated as a block, to have the value assigned; the
    others are plain Rust assignments. *)
Definition valued (op : binop) : bool :=
  match op with OAssign | OAddAssign | OSubAssign | OBitAndAssign | OBitXorAssign | OBitOrAssign => true | _ => false end.
Definition is_assignment (op : binop) : bool := match applied op, op with Some _, _ => true | _, OAssign => true | _, _ => false end.
Definition step_op (op : unop) : option string :=
  match op with UInc | UPostInc => Some "+" | UDec | UPostDec => Some "-" | _ => None end.
Definition is_post (op : unop) : bool := match op with UPostInc | UPostDec => true | _ => false end.

(** The pointer expression of a volatile access: [p] of [*p] where [p] is a cast
    to a pointer to a volatile type. *)
Definition volatile_access (e p : expr) : Prop :=
  e = EUnary UDeref p /\ exists t q e', p = ECast (TyPtr (TyQual t q)) e' /\ q_is_volatile q = true.

(** ** Trees *)

Definition number (v : Z) (suffix : str) : rx :=
  if (v <? 0)%Z then XUn (st "-") (XLit (RlInt (- v) suffix)) else XLit (RlInt v suffix).
(** The integer types of Rust that a suffix names: signedness and width. *)
Definition suffix_types : list (string * (bool * Z)) :=
  [("i8", (true, 8)); ("u8", (false, 8)); ("i16", (true, 16)); ("u16", (false, 16)); ("i32", (true, 32)); ("u32", (false, 32));
   ("i64", (true, 64)); ("u64", (false, 64)); ("i128", (true, 128)); ("u128", (false, 128))]%Z.
(** The suffix names a type that has the number [v]. *)
Definition suffix_has (sfx : str) (v : Z) : Prop :=
  exists name (sg : bool) w, In (name, (sg, w)) suffix_types /\ sfx = st name /\
    (- 2 ^ 127 <= v < 2 ^ 127 -> if sg then - 2 ^ (w - 1) <= v < 2 ^ (w - 1) else 0 <= v < 2 ^ w)%Z.
(** The code of a character constant, and the width of the code units of its
    prefix (6.4.4.4). *)
Definition char_code (x : lit_char) : N := match x with COrdinary n | CUtf8 n | CUtf16 n | CUtf32 n | CWide n => n end.
Definition char_width (x : lit_char) : Z := (match x with COrdinary _ | CUtf8 _ => 8 | CUtf16 _ => 16 | CUtf32 _ | CWide _ => 32 end)%Z.
(** The Rust literal of a character constant: the character of that code, or for
    a code that is no character, the number in the unsigned type of that width. *)
Definition is_character (n : N) : Prop := (n < 0xD800 \/ 0xE000 <= n < 0x110000)%N.
Definition char_literal_of (x : lit_char) (l : rlit) : Prop :=
  is_character (char_code x) /\ l = RlChar (char_code x) \/
  ~ is_character (char_code x) /\ exists name, l = RlInt (Z.of_N (char_code x)) (st name) /\ In (name, (false, char_width x)) suffix_types.
Definition x_name (s : string) : rx := XPath [ri s].
Definition x_one : rx := XLit (RlInt 1 []).
Definition x_let (s : string) (x : rx) : rstmt := RsLet [ri "let"] (st s) None x.

Section Tree.
Context `{Unicode}.
Variables (cx : cgctx) (c : lctx).

(** A path of the standard library. *)
Definition std_path (l : list string) : list rtok := pfx (cx_trait cx) ++ sep_by (rp "::") (map (fun s => [ri s]) l).
Definition x_read (p : rx) : rx := XCall (XPath (std_path ["ptr"; "read_volatile"])) [p].
Definition x_write (p v : rx) : rstmt := RsExpr (XCall (XPath (std_path ["ptr"; "write_volatile"])) [p; v]).
(** [{ let value = v; write_volatile(p, w); value }]. *)
Definition x_write_block (v p w : rx) : rx := XBlock (RB [x_let "value" v; x_write p w] (Some (x_name "value"))).
Definition is_null (t : ctype) (e : expr) : option string :=
  match t, e with
  | TyPtr _, ELit (LInt i) => if (int_value i =? 0)%Z then Some "null_mut" else None
  | TyQual (TyPtr _) q, ELit (LInt i) => if q_is_const q && (int_value i =? 0)%Z then Some "null" else None
  | _, _ => None
  end.
Definition is_offsetof (n : ident_expr) (args : list expr) : bool :=
  match n with IPlain s => str_eqb s (st "__builtin_offsetof") && Nat.eqb (length args) 2 | _ => false end.

(** Forms whose tokens are taken as they are. *)
Definition is_leaf (e : expr) : bool :=
  match e with
  | EVar (IPlain s) => one_of ["__LINE__"; "__FILE__"] s
  | ELit (LInt _) | ELit (LChar _) => false
  | ELit _ | EStringify _ | EConcat _ => true
  | ECall n args => is_offsetof n args
  | _ => false
  end.

(** How the argument [e] of a call is passed.  As it is: literals; null pointers
    (zero as a pointer, with any qualifiers), of which the conversion does not
    have one type; the rest of the arguments; and the parameters of generated
    functions, whose types are known.  Any other argument is converted. *)
Fixpoint is_pointer (t : ctype) : bool := match t with TyPtr _ => true | TyQual t _ => is_pointer t | _ => false end.
Definition unconverted (e : expr) : Prop :=
  match e with
  | ELit _ => True
  | ECast t (ELit (LInt i)) => is_pointer t = true /\ int_value i = 0%Z
  | EVar (IArg i) => arg_name c i = Some (st "...") \/ lc_macro c = false
  | _ => False
  end.
Definition passed (e : expr) (x y : rx) : Prop :=
  (unconverted e -> y = x) /\ (~ unconverted e -> y = XMethod x (st "into") []).

Inductive tree : expr -> rx -> Prop :=
| T_leaf e ts x : is_leaf e = true -> etoks cx c e = Some ts -> reads ts x -> tree e x
| T_var n ts : is_leaf (EVar n) = false -> var_toks cx c n = Some ts -> (forall l, n <> IConcat l) -> tree (EVar n) (XPath ts)
| T_paste l ts : ident_toks cx c (IConcat l) = Some (std_path ["concat_idents"] ++ [rp "!"; parens ts]) ->
    tree (EVar (IConcat l)) (XMac (std_path ["concat_idents"]) DParen ts)
| T_rest i : arg_name c i = Some (st "...") -> tree (EVar (IArg i)) (XRepeat [rp "$"; ri "__VA_ARGS__"])
| T_int i : tree (ELit (LInt i)) (number (int_value i) [])
| T_char x l : char_literal_of x l -> tree (ELit (LChar x)) (XLit l)
| T_call n args f ys :
    is_offsetof n args = false -> tree_name n f ->
    Forall2 (fun e y => exists x, tree e x /\ passed e x y) args ys ->
    tree (ECall n args) (XCall f ys)
| T_null t e s : is_null t e = Some s -> tree (ECast t e) (XCall (XPath (std_path ["ptr"; s])) [])
| T_discard t e x : ty_is_void t = true -> is_null t e = None -> tree e x ->
    tree (ECast t e) (XBlock (RB [x_let "_" x] None))
| T_cast_int t i ts sfx : ty_is_void t = false -> is_null t (ELit (LInt i)) = None -> ty_toks cx c t = Some ts ->
    suffix_has sfx (int_value i) ->
    tree (ECast t (ELit (LInt i))) (XCast (number (int_value i) sfx) ts)
| T_cast t e x ts : ty_is_void t = false -> is_null t e = None -> (forall i, e <> ELit (LInt i)) ->
    tree e x -> ty_toks cx c t = Some ts ->
    tree (ECast t e) (XCast x ts)
| T_sizeof t ts : ty_toks cx c t = Some ts ->
    tree (ESizeOf t)
      (XCast (XCall (XPath (std_path ["mem"; "size_of"] ++ [rp "::"; rp "<"] ++ ts ++ [rp ">"])) []) (builtin_toks cx BSizeT))
| T_not op e x : op = UNot \/ op = UComp -> tree e x -> tree (EUnary op e) (XUn (st "!") x)
| T_minus e x : tree e x -> tree (EUnary UMinus e) (XUn (st "-") x)
| T_addr e x : tree e x -> tree (EUnary UAddrOf e) (XAddrOf x)
| T_read e p x : volatile_access e p -> tree p x -> tree e (x_read x)
| T_offset l op r x y : op = OAdd \/ op = OSub -> tree l x -> tree r y ->
    tree (EUnary UDeref (EBinary l op r)) (XUn (st "*") (XMethod x (st match op with OAdd => "add" | _ => "sub" end) [y]))
| T_deref_step op s e x :
    step_op op = Some s -> tree e x ->
    let advance := RsExpr (XAssign (st "=") x (XMethod x (st (if String.eqb s "+" then "add" else "sub")) [x_one])) in
    tree (EUnary UDeref (EUnary op e))
      (XUn (st "*") (XBlock (if is_post op then RB [x_let "prev" x; advance] (Some (x_name "prev")) else RB [advance] (Some x))))
| T_deref e x :
    (forall l op r, e = EBinary l op r -> op <> OAdd /\ op <> OSub) ->
    (forall op e', e = EUnary op e' -> step_op op = None) ->
    (forall p, ~ volatile_access (EUnary UDeref e) p) ->
    tree e x -> tree (EUnary UDeref e) (XUn (st "*") x)
| T_step op s e x :
    step_op op = Some s -> (forall p, ~ volatile_access e p) -> tree e x ->
    let advance := RsExpr (XAssign (st (s ++ "=")) x x_one) in
    tree (EUnary op e)
      (XBlock (if is_post op then RB [x_let "prev" x; advance] (Some (x_name "prev")) else RB [advance] (Some x)))
| T_step_volatile op s e p x :
    step_op op = Some s -> volatile_access e p -> tree p x ->
    tree (EUnary op e)
      (if is_post op then x_write_block (x_read x) x (XBin (st s) (x_name "value") x_one)
       else x_write_block (XBin (st s) (x_read x) x_one) x (x_name "value"))
| T_binary l op r x y : is_plain op = true -> tree l x -> tree r y -> tree (EBinary l op r) (XBin (rust_op op) x y)
| T_member l r x f : tree l x -> etoks cx c r = Some f -> tree (EBinary l OMember r) (XField x f)
| T_assign l op r x y : is_assignment op = true -> valued op = false -> tree l x -> tree r y ->
    tree (EBinary l op r) (XAssign (rust_op op) x y)
| T_assign_block l op r x y :
    valued op = true -> (forall p, ~ volatile_access l p) -> tree l x -> tree r y ->
    tree (EBinary l op r) (XBlock (RB [RsExpr (XAssign (rust_op op) x y)] (Some x)))
| T_write l r p x y : volatile_access l p -> tree p x -> tree r y ->
    tree (EBinary l OAssign r) (x_write_block y x (x_name "value"))
| T_update l op r p x y s : volatile_access l p -> valued op = true -> applied op = Some s -> tree p x -> tree r y ->
    tree (EBinary l op r) (x_write_block (XBin s (x_read x) y) x (x_name "value"))
| T_if a b d x y z : tree a x -> tree b y -> tree d z ->
    tree (ETernary a b d) (XIf x (RB [] (Some y)) (Some (RB [] (Some z))))
(** The function of a call. *)
with tree_name : ident_expr -> rx -> Prop :=
| TN_path n ts : ident_toks cx c n = Some ts -> (forall l, n <> IConcat l) -> tree_name n (XPath ts)
| TN_paste l ts : ident_toks cx c (IConcat l) = Some (std_path ["concat_idents"] ++ [rp "!"; parens ts]) ->
    tree_name (IConcat l) (XMac (std_path ["concat_idents"]) DParen ts).

(** ** Where the theorem applies

    The expressions whose tokens are shown to be read as their tree.  What is
    left out is either not Rust (names that are keywords, unary plus) or is not
    read as its tree; see the theorems named [C36_..._refuted]. *)

(** The level at which the printed expression binds. *)
Definition binop_lvl (op : binop) : nat :=
  match op with
  | OMul | ODiv | ORem => 12
  | OAdd | OSub => 11
  | OShl | OShr => 10
  | OBitAnd => 9
  | OBitXor => 8
  | OBitOr => 7
  | OLt | OLte | OGt | OGte | OEq | ONeq => 6
  | OAnd => 5
  | OOr => 4
  | OMember => 15
  | _ => if valued op then 15 else 2
  end.
Definition negative (l : lit) : bool :=
  match l with
  | LInt i => (int_value i <? 0)%Z
  | LFloat (FFloat f | FDouble f | FLongDouble f) =>
    match f with SpecFloat.S754_zero true | SpecFloat.S754_finite true _ _ => true | _ => false end
  | _ => false
  end.
Definition lvl (e : expr) : nat :=
  match e with
  | EVar (IPlain s) => if str_eqb s (st "__LINE__") then 13 else 15
  | EVar _ | EStringify _ | EConcat _ | ECall _ _ | ETernary _ _ _ => 15
  | ELit l => if negative l then 14 else 15
  | ESizeOf _ => 13
  | ECast t e => match is_null t e with Some _ => 15 | None => if ty_is_void t then 15 else 13 end
  | EUnary (UNot | UComp | UPlus | UMinus) _ => 14
  | EUnary UDeref e => if volatile_ptr e then 15 else 14
  | EUnary _ _ => 15
  | EBinary _ op _ => binop_lvl op
  end.
(** The printed expression ends with a type: a [<] or [<<] after it would be
    read as part of the type. *)
Fixpoint ends_in_type (e : expr) : bool :=
  match e with
  | EVar (IPlain s) => str_eqb s (st "__LINE__")
  | ESizeOf _ => true
  | ECast t e => match is_null t e with Some _ => false | None => negb (ty_is_void t) end
  | EBinary l op r =>
    match op with OMember => false | _ => if valued op then false else negb (snd (binary_parens l op r)) && ends_in_type r end
  | _ => false
  end.
(** The printed expression is a block, or an [if] with blocks. *)
Definition is_block (e : expr) : bool :=
  match e with
  | EVar (IPlain s) => str_eqb s (st "__FILE__")
  | ELit (LString _) | EStringify _ | EConcat _ | ETernary _ _ _ => true
  | ECast t e => match is_null t e with Some _ => false | None => ty_is_void t end
  | EUnary op _ => match step_op op with Some _ => true | None => false end
  | EBinary _ op _ => valued op
  | _ => false
  end.
(** The first token does not start a block: the expression can start a
    statement. *)
Definition starts_stmt (e : expr) : Prop := forall ts, etoks cx c e = Some ts -> blocklike ts = false.
Definition is_tail (e : expr) : Prop := starts_stmt e \/ is_block e = true.

(** Names that are Rust names. *)
Definition plain_path (o : option spath) : Prop :=
  match o with
  | Some p => sp_segs p <> [] /\ Forall (fun s => keyword (fst s) = false /\ snd s = []) (sp_segs p)
  | None => True
  end.
Definition plain_name (n : ident_expr) : Prop :=
  match n with
  | IPlain s => keyword s = false
  | IArg i => forall s, arg_name c i = Some s -> s <> st "..." /\ (lc_macro c = true \/ keyword s = false)
  | IConcat _ => True
  end.
Definition plain_var (n : ident_expr) : Prop :=
  plain_name n /\
  match n with
  | IPlain s => forall t ts, cx_enum cx s = Some (t, ts) -> rd_path ts = Some (ts, [])
  | _ => True
  end.
(** Tokens that are a type of the fragment. *)
Definition plain_type (t : ctype) : Prop := forall ts, ty_toks cx c t = Some ts -> rd_ty ts = Some (ts, []).
Definition plain_builtin (b : builtin) : Prop := rd_ty (builtin_toks cx b) = Some (builtin_toks cx b, []).

(** An operand that is printed without parentheses. *)
Definition tight (k : nat) (e : expr) : Prop := k <= lvl e.

Fixpoint fine (e : expr) : Prop :=
  match e with
  | EVar n => plain_var n
  | ELit (LString (SWide _)) => False
  | ELit _ | EStringify _ | EConcat _ => True
  | ESizeOf t => plain_type t /\ plain_builtin BSizeT
  | ECast t e =>
    match is_null t e with
    | Some _ => True
    | None => fine e /\ (ty_is_void t = false -> plain_type t)
    end
  | ECall n args =>
    is_offsetof n args = false -> plain_name n /\
    (fix all (l : list expr) : Prop :=
      match l with
      | [] => True
      | e :: l' => (match e with EVar (IArg i) => arg_name c i = Some (st "...") \/ fine e | _ => fine e end) /\ all l'
      end) args
  | EUnary op e =>
    fine e /\
    match op with
    | UPlus => False
    | UNot | UComp | UMinus => expr_prec e <= 2 -> tight 14 e
    | UAddrOf => True
    | UDeref =>
      match e with
      | ECast _ _ => True
      | EBinary l (OAdd | OSub) _ => expr_prec l <= 1 -> tight 15 l
      | EUnary (UInc | UDec | UPostInc | UPostDec) e' => tight 15 e' /\ starts_stmt e'
      | _ => expr_prec e <= 2 -> tight 14 e
      end
    | UInc | UDec | UPostInc | UPostDec => volatile_deref e = false -> tight 3 e /\ starts_stmt e
    end
  | EBinary l op r =>
    fine l /\
    if valued op then
      fine r /\
      if volatile_deref l then op = OAssign \/ op = OAddAssign /\ tight 12 r
      else tight 3 l /\ starts_stmt l
    else
      match op with
      | OMember =>
        (expr_prec l <= 1 -> tight 15 l) /\
        exists n, r = EVar n /\ forall ts, etoks cx c r = Some ts ->
          exists f, keyword f = false /\ (ts = [RId f] \/ ts = [rp "$"; RId f])
      | OLt | OShl => fine r /\ (fst (binary_parens l op r) = false -> ends_in_type l = false)
      | _ => fine r
      end
  | ETernary a b d => fine a /\ fine b /\ fine d /\ is_tail b /\ is_tail d
  end.

(** A context whose prefixes are paths without generic arguments. *)
Definition plain_context : Prop := plain_path (cx_trait cx) /\ plain_path (cx_ffi cx).
End Tree.
