(** The types of Rust expressions (C61).

    [has_type g x t]: in the scope [g] Rust gives the expression [x] the type
    [t], or may give it, if the type of [x] depends on where it is used.  An
    expression that Rust rejects has no type.  Names of types that are not
    primitive are aliases: what they stand for is a parameter, so that nothing
    depends on the platform. *)
From Verif Require Import Base Utf Lex LexFloat Token Ast Rust SpecRustExpr.
From Coq Require Import String List ZArith.
Import ListNotations.
Local Open Scope string_scope.
Local Open Scope list_scope.

(** ** Types *)

(** The width of [usize] and [isize], which are no other type, is 0. *)
Inductive rtype :=
| RtBool
| RtChar
| RtUnit
| RtInt (signed : bool) (width : Z)
| RtFloat (width : Z)
| RtPtr (mutable : bool) (t : rtype)
| RtRef (t : rtype)
| RtArray (t : rtype)
| RtOther (n : nat).
Definition u8 : rtype := RtInt false 8.
Definition usize : rtype := RtInt false 0.

Definition primitives : list (string * rtype) :=
  [("bool", RtBool); ("char", RtChar); ("f32", RtFloat 32); ("f64", RtFloat 64); ("usize", usize); ("isize", RtInt true 0);
   ("u8", u8); ("u16", RtInt false 16); ("u32", RtInt false 32); ("u64", RtInt false 64); ("u128", RtInt false 128);
   ("i8", RtInt true 8); ("i16", RtInt true 16); ("i32", RtInt true 32); ("i64", RtInt true 64); ("i128", RtInt true 128)].
Definition primitive_type (s : str) : option rtype := omap snd (find (fun x => str_eqb s (st (fst x))) primitives).

(** ** Scopes *)

(** What type names, variables and constants, functions (parameters and result),
    fields and macros stand for, and the modules of the standard library. *)
Record scope := mk_scope {
  sc_alias : list rtok -> rtype;
  sc_path : list rtok -> option rtype;
  sc_fn : list rtok -> option (list rtype * rtype);
  sc_field : rtype -> list rtok -> option rtype;
  sc_macro : list rtok -> list rtok -> option rtype;
  sc_std : list rtok }.
Definition bind (g : scope) (name : str) (t : rtype) : scope :=
  mk_scope (sc_alias g)
    (fun p => match p with [RId s] => if str_eqb s name then Some t else sc_path g p | _ => sc_path g p end)
    (sc_fn g) (sc_field g) (sc_macro g) (sc_std g).

(** The type that tokens denote: pointers, the empty tuple, references to arrays
    and slices, names.  [elem] is for the elements of arrays. *)
Fixpoint denoted (elem : list rtok -> rtype) (g : scope) (ts : list rtok) : rtype :=
  match ts with
  | RPunct p :: RId q :: r =>
    if str_eqb p (st "*") then
      if str_eqb q (st "mut") then RtPtr true (denoted elem g r)
      else if str_eqb q (st "const") then RtPtr false (denoted elem g r)
      else sc_alias g ts
    else sc_alias g ts
  | [RPunct p; RGroup DBracket l] | [RPunct p; RLife _; RGroup DBracket l] =>
    if str_eqb p (st "&") then RtRef (RtArray (elem l)) else sc_alias g ts
  | [RGroup DParen []] => RtUnit
  | [RId s] => match primitive_type s with Some t => t | None => sc_alias g ts end
  | _ => sc_alias g ts
  end.
(** [T] of [[T; n]] and of [[T]]. *)
Fixpoint before_semicolon (ts : list rtok) : list rtok :=
  match ts with
  | [] => []
  | t :: r => if is_p ";" t then [] else t :: before_semicolon r
  end.
Definition element_type (g : scope) (l : list rtok) : rtype := denoted (fun l => sc_alias g l) g (before_semicolon l).
Definition type_of_tokens (g : scope) : list rtok -> rtype := denoted (element_type g) g.

(** ** Expressions *)

Definition is_number (t : rtype) : bool := match t with RtInt _ _ | RtFloat _ => true | _ => false end.
Definition is_signed (t : rtype) : bool := match t with RtInt s _ => s | RtFloat _ => true | _ => false end.
Definition is_bits (t : rtype) : bool := match t with RtInt _ _ | RtBool => true | _ => false end.
Definition std_function (g : scope) (module name : string) : list rtok := sc_std g ++ [ri module; rp "::"; ri name].
Arguments std_function g module%string name%string.
(** Functions of the standard library have types of their own. *)
Definition is_std (p : list rtok) : bool :=
  match p with [_] => false | _ => existsb (is_id "ptr") p || existsb (is_id "mem") p end.

(** [binary op a b t]: [op] on operands of types [a] and [b] has type [t]. *)
Inductive binary : str -> rtype -> rtype -> rtype -> Prop :=
| B_arith op t : one_of ["*"; "/"; "%"; "+"; "-"] op = true -> is_number t = true -> binary op t t t
| B_shift op s w s' w' : one_of ["<<"; ">>"] op = true -> binary op (RtInt s w) (RtInt s' w') (RtInt s w)
| B_bits op t : one_of ["&"; "^"; "|"] op = true -> is_bits t = true -> binary op t t t
| B_compare op t : one_of ["=="; "!="; "<"; ">"; "<="; ">="] op = true -> binary op t t RtBool
| B_logic op : one_of ["&&"; "||"] op = true -> binary op RtBool RtBool RtBool.
Inductive unary : str -> rtype -> rtype -> Prop :=
| U_neg t : is_signed t = true -> unary (st "-") t t
| U_not t : is_bits t = true -> unary (st "!") t t
| U_deref m t : unary (st "*") (RtPtr m t) t
| U_ref t : unary (st "&") t (RtRef t).

Inductive has_type (g : scope) : rx -> rtype -> Prop :=
| H_path p t : sc_path g p = Some t -> has_type g (XPath p) t
(** A number without suffix has any integer type. *)
| H_number v s w : has_type g (XLit (RlInt v [])) (RtInt s w)
| H_suffix v sfx t : primitive_type sfx = Some t -> has_type g (XLit (RlInt v sfx)) t
| H_float w f : has_type g (XLit (RlFloat w f)) (RtFloat w)
| H_char n : has_type g (XLit (RlChar n)) RtChar
| H_bytes b : has_type g (XLit (RlBytes b)) (RtRef (RtArray u8))
| H_unit : has_type g XUnit RtUnit
| H_unary op x t t' : has_type g x t -> unary op t t' -> has_type g (XUn op x) t'
| H_binary op x y a b t : has_type g x a -> has_type g y b -> binary op a b t -> has_type g (XBin op x y) t
| H_assign x y t : has_type g x t -> has_type g y t -> has_type g (XAssign (st "=") x y) RtUnit
| H_update op x y t : has_type g x t -> has_type g (XBin op x y) t -> has_type g (XAssign (op ++ st "=") x y) RtUnit
| H_cast x t ts : has_type g x t -> has_type g (XCast x ts) (type_of_tokens g ts)
| H_call f l ts t : is_std f = false -> sc_fn g f = Some (ts, t) -> Forall2 (has_type g) l ts -> has_type g (XCall (XPath f) l) t
| H_read p m t : has_type g p (RtPtr m t) -> has_type g (XCall (XPath (std_function g "ptr" "read_volatile")) [p]) t
| H_write p v t : has_type g p (RtPtr true t) -> has_type g v t ->
    has_type g (XCall (XPath (std_function g "ptr" "write_volatile")) [p; v]) RtUnit
| H_null t : has_type g (XCall (XPath (std_function g "ptr" "null")) []) (RtPtr false t)
| H_null_mut t : has_type g (XCall (XPath (std_function g "ptr" "null_mut")) []) (RtPtr true t)
| H_size_of ts : has_type g (XCall (XPath (std_function g "mem" "size_of" ++ [rp "::"; rp "<"] ++ ts ++ [rp ">"])) []) usize
| H_offset f p n m t : f = st "add" \/ f = st "sub" -> has_type g p (RtPtr m t) -> has_type g n usize ->
    has_type g (XMethod p f [n]) (RtPtr m t)
| H_into x t t' : has_type g x t -> has_type g (XMethod x (st "into") []) t'
| H_as_bytes x t : has_type g x t -> has_type g (XMethod x (st "as_bytes") []) (RtRef (RtArray u8))
| H_as_ptr x t : has_type g x (RtRef (RtArray t)) -> has_type g (XMethod x (st "as_ptr") []) (RtPtr false t)
| H_field x f t t' : has_type g x t -> sc_field g t f = Some t' -> has_type g (XField x f) t'
| H_macro p d ts t : sc_macro g p ts = Some t -> has_type g (XMac p d ts) t
| H_addr x t : has_type g x t -> has_type g (XAddrOf x) (RtPtr true t)
| H_array l t : Forall (fun x => has_type g x t) l -> has_type g (XArray l) (RtArray t)
| H_if c a b t : has_type g c RtBool -> block_type g a t -> block_type g b t -> has_type g (XIf c a (Some b)) t
| H_block b t : block_type g b t -> has_type g (XBlock b) t
with block_type (g : scope) : rblock -> rtype -> Prop :=
| K_value x t : has_type g x t -> block_type g (RB [] (Some x)) t
| K_unit : block_type g (RB [] None) RtUnit
| K_expr x t l e u : has_type g x t -> block_type g (RB l e) u -> block_type g (RB (RsExpr x :: l) e) u
| K_let k n x t l e u : has_type g x t -> block_type (bind g n t) (RB l e) u -> block_type g (RB (RsLet k n None x :: l) e) u
| K_typed k n ts x l e u : has_type g x (type_of_tokens g ts) -> block_type (bind g n (type_of_tokens g ts)) (RB l e) u ->
    block_type g (RB (RsLet k n (Some ts) x :: l) e) u.

(** ** The scope of generated code *)

(** The types of a user's context that are understood as they are written: not
    [f128] and [c_size_t], which have no C type that is printed like them, not
    paths with generic arguments. *)
Definition c_names : list string :=
  ["c_char"; "c_schar"; "c_uchar"; "c_short"; "c_ushort"; "c_int"; "c_uint"; "c_long"; "c_ulong"; "c_longlong"; "c_ulonglong";
   "c_ssize_t"; "c_void"].
Inductive kept (cx : cgctx) : sty -> Prop :=
| k_ptr m t : kept cx t -> kept cx (STPtr m t)
| k_ffi n : In n c_names -> kept cx (ffi_ty cx n)
| k_primitive n : In n ["f32"; "f64"; "bool"; "u8"; "u16"; "u32"] -> kept cx (plain_ty n)
| k_named p : sp_segs p <> [] -> Forall (fun s => snd s = [] /\ rust_name rust_names (fst s) = None) (sp_segs p) -> kept cx (STPath None p).

(** The scope has what the context promises: the constants of the standard
    library, enumeration constants and functions. *)
Record agrees (cx : cgctx) (g : scope) : Prop := {
  ag_std : sc_std g = pfx (cx_trait cx);
  ag_max : forall s, In s ["c_schar"; "c_short"; "c_int"; "c_long"; "c_longlong"] ->
    sc_path g (pfx (cx_ffi cx) ++ [ri s; rp "::"; ri "MAX"]) = Some (type_of_tokens g (pfx (cx_ffi cx) ++ [ri s]));
  ag_float : forall f w s, In (f, w) [("f32", 32%Z); ("f64", 64%Z)] -> In s ["NAN"; "INFINITY"; "NEG_INFINITY"] ->
    sc_path g (pfx (cx_trait cx) ++ [ri f; rp "::"; ri s]) = Some (RtFloat w);
  ag_enum : forall s t ts, cx_enum cx s = Some (t, ts) -> kept cx t /\ sc_path g ts = Some (type_of_tokens g (sty_toks t));
  ag_offsetof : cx_fn cx (st "__builtin_offsetof") = None;
  ag_fn : forall s tys t, cx_fn cx s = Some (tys, t) ->
    (t = STUnit \/ kept cx t) /\ sc_fn g [RId s] = Some (map (fun t => type_of_tokens g (sty_toks t)) tys, type_of_tokens g (sty_toks t)) }.

(** ** Where the theorem applies *)

(** A truth value: a comparison or a logical operation. *)
Definition is_truth (e : expr) : bool :=
  match e with
  | EUnary UNot _ => true
  | EBinary _ (OLt | OLte | OGt | OGte | OEq | ONeq | OAnd | OOr) _ => true
  | _ => false
  end.
(** Every [!] negates a truth value. *)
Fixpoint truths_negated (e : expr) : Prop :=
  match e with
  | EVar _ | ELit _ | ESizeOf _ => True
  | ECall _ l | EConcat l => (fix all (l : list expr) : Prop := match l with [] => True | e :: l' => truths_negated e /\ all l' end) l
  | ECast _ e | EStringify e => truths_negated e
  | EUnary op e => truths_negated e /\ (op = UNot -> is_truth e = true)
  | EBinary a _ b => truths_negated a /\ truths_negated b
  | ETernary a b d => truths_negated a /\ truths_negated b /\ truths_negated d
  end.
(** The type of the expression is found: it is that of a constant, of a parameter
    whose type the context gives, or of a cast. *)
Fixpoint sure (given : nat -> Prop) (e : expr) : Prop :=
  match e with
  | EVar (IArg i) => given i
  | EVar (IPlain _) | ECast _ _ | ESizeOf _ => True
  | EUnary UNot _ => False
  | EUnary _ e => sure given e
  | _ => False
  end.
Definition is_number_literal (e : expr) : Prop := match e with ELit (LInt _) => True | _ => False end.
(** The type does not depend on a null pointer, which is a pointer to any type in
    Rust, nor on a function without result, nor on an assignment that is not a
    value in Rust; that of a shift and of an assignment is the type of the left
    operand.  Members (which are generated as macros) and wide strings are left
    out. *)
Definition is_null_cast (t : ctype) (e : expr) : bool :=
  match e with ELit (LInt i) => ty_is_ptr t && (int_value i =? 0)%Z | _ => false end.
Fixpoint settled (cx : cgctx) (given : nat -> Prop) (e : expr) : Prop :=
  match e with
  | ELit (LString (SWide _)) => False
  | ECast t e => is_null_cast t e = false /\ ty_is_void t = false
  | ECall (IPlain s) _ => forall tys, cx_fn cx s <> Some (tys, STUnit)
  | EUnary _ e => settled cx given e
  | EBinary a op b =>
    match op with
    | OLt | OLte | OGt | OGte | OEq | ONeq | OAnd | OOr => True
    | OMul | ODiv | ORem | OAdd | OSub | OBitAnd | OBitXor | OBitOr => settled cx given a /\ settled cx given b
    | OShl | OShr | OAssign | OAddAssign | OSubAssign | OBitAndAssign | OBitXorAssign | OBitOrAssign =>
      settled cx given a /\ (sure given a \/ is_number_literal b)
    | OMulAssign | ODivAssign | ORemAssign | OShlAssign | OShrAssign | OMember => False
    end
  | ETernary _ a b => settled cx given a /\ settled cx given b
  | _ => True
  end.
