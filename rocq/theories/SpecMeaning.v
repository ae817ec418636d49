(** What generation may make of an expression (C63).

    [means approx e e']: [e'] is [e] rewritten by steps that keep its meaning in
    C, anywhere in the expression: constants are evaluated, names of types are
    replaced by the types, adjacent strings are joined, character literals are
    given their type, conditions are compared with zero, and what could not be
    told from a cast without knowing the names of types is made an operation.
    Integers are mathematical integers; when this is what C computes is C37.
    [approx] are further steps, see [approximation]. *)
From Verif Require Import Base Utf Lex LexFloat Token Ast Rust.
From Coq Require Import String List ZArith SpecFloat.
Import ListNotations.
Local Open Scope string_scope.
Local Open Scope list_scope.
Local Open Scope Z_scope.

Section Means.
Variable cx : cgctx.

(** A name of a type stands for the type that the context gives it. *)
Inductive type_means : ctype -> ctype -> Prop :=
| tm_refl t : type_means t t
| tm_name id s r t : cx_ty cx id = Some r -> from_rust_ty (cx_ffi cx) r = ROk t -> type_means (TyIdent (IPlain id) s) t
| tm_ptr t t' : type_means t t' -> type_means (TyPtr t) (TyPtr t')
| tm_qual t t' q : type_means t t' -> type_means (TyQual t q) (TyQual t' q).

(** The type of a character literal (C23 6.4.4.4), with [char] for [int]: a
    character literal is used as a [char]. *)
Inductive char_type : lit_char -> ctype -> Prop :=
| ct_plain b : char_type (COrdinary b) (TyBuiltIn BChar)
| ct_u8 b : char_type (CUtf8 b) (TyBuiltIn BChar8T)
| ct_u16 x : char_type (CUtf16 x) (TyBuiltIn BChar16T)
| ct_u32 x : char_type (CUtf32 x) (TyBuiltIn BChar32T)
| ct_wide x r t : cx_ty cx (st "wchar_t") = Some r -> from_rust_ty (cx_ffi cx) r = ROk t -> char_type (CWide x) t.

(** ** Constants *)

(** A result that does not fit is reduced modulo [2^128]. *)
Definition stored (w v : Z) : Prop := (- 2 ^ 127 <= w < 2 ^ 127 -> v = w) /\ exists k, v = w + k * 2 ^ 128.
Inductive int_result : binop -> Z -> Z -> Z -> Prop :=
| ir_add a b v : stored (a + b) v -> int_result OAdd a b v
| ir_sub a b v : stored (a - b) v -> int_result OSub a b v
| ir_mul a b v : stored (a * b) v -> int_result OMul a b v
| ir_div a b q r v : b <> 0 -> a = b * q + r -> Z.abs r < Z.abs b -> (r = 0 \/ Z.sgn r = Z.sgn a) -> stored q v -> int_result ODiv a b v
| ir_rem a b q r : b <> 0 -> a = b * q + r -> Z.abs r < Z.abs b -> (r = 0 \/ Z.sgn r = Z.sgn a) -> int_result ORem a b r
| ir_and a b v : (forall i, 0 <= i -> Z.testbit v i = (Z.testbit a i && Z.testbit b i)%bool) -> int_result OBitAnd a b v
| ir_or a b v : (forall i, 0 <= i -> Z.testbit v i = (Z.testbit a i || Z.testbit b i)%bool) -> int_result OBitOr a b v
| ir_xor a b v : (forall i, 0 <= i -> Z.testbit v i = xorb (Z.testbit a i) (Z.testbit b i)) -> int_result OBitXor a b v
| ir_shl a b v : 0 <= b < 128 -> stored (a * 2 ^ b) v -> int_result OShl a b v
| ir_shr a b v : 0 <= b < 128 -> v * 2 ^ b <= a < (v + 1) * 2 ^ b -> int_result OShr a b v
(** C gives no meaning to other shifts. *)
| ir_far op a b v : op = OShl \/ op = OShr -> ~ 0 <= b < 128 -> int_result op a b v.

(** The suffix of a result: the one that the operands agree on. *)
Inductive kept_suffix : option builtin -> option builtin -> option builtin -> Prop :=
| ks_left s : kept_suffix s None s
| ks_right s : kept_suffix None s s
| ks_same s : kept_suffix s s s
| ks_clash x y : x <> y -> kept_suffix (Some x) (Some y) None.
(** That of a negated literal: the signed type of the same rank. *)
Definition ranks : list (builtin * builtin) :=
  [(BUChar, BSChar); (BUInt, BInt); (BULong, BLong); (BULongLong, BLongLong)].
Inductive signed_suffix : option builtin -> option builtin -> Prop :=
| ss_none : signed_suffix None None
| ss_rank u i b : In (u, i) ranks -> b = u \/ b = i -> signed_suffix (Some b) (Some i)
| ss_other b : (forall u i, In (u, i) ranks -> b <> u /\ b <> i) -> signed_suffix (Some b) None.

Definition single (f : lit_float) : option spec_float := match f with FFloat x => Some x | _ => None end.
Definition as_double (f : lit_float) : spec_float :=
  match f with FFloat x => f32_to_f64 x | FDouble x | FLongDouble x => x end.
Definition ieee (op : binop) : option (Z -> Z -> spec_float -> spec_float -> spec_float) :=
  match op with OAdd => Some SFadd | OSub => Some SFsub | OMul => Some SFmul | ODiv => Some SFdiv | _ => None end.
(** Two [float] operands give a [float], others a [double]. *)
Inductive float_result : binop -> lit_float -> lit_float -> lit_float -> Prop :=
| fr_single op f x y : ieee op = Some f -> float_result op (FFloat x) (FFloat y) (FFloat (f 24 128 x y))
| fr_double op f a b : ieee op = Some f -> single a = None \/ single b = None ->
    float_result op a b (FDouble (f 53 1024 (as_double a) (as_double b))).
Definition negated (f : lit_float) : lit_float :=
  match f with FFloat x => FFloat (SFopp x) | FDouble x => FDouble (SFopp x) | FLongDouble x => FLongDouble (SFopp x) end.
Definition zero_float (f : lit_float) : Prop := exists s, f = FFloat (S754_zero s) \/ f = FDouble (S754_zero s) \/ f = FLongDouble (S754_zero s).

Definition int_lit (v : Z) (s : option builtin) : expr := ELit (LInt (mk_int v s)).

(** ** Strings *)

(** The text of adjacent pieces: bytes, and pieces that are not literals. *)
Definition piece (e : expr) : list (N + expr) :=
  match e with
  | ELit (LString (SOrdinary b)) => map inl b
  | ELit (LString (SUtf8 s)) => map inl (utf8_encode s)
  | _ => [inr e]
  end.
Definition content (l : list expr) : list (N + expr) := concat (map piece l).

(** ** Casts *)

(** [(n) - e] is a difference if [n] is no type: neither one that the context
    knows nor one that it gives to another name. *)
Definition given_type (id : str) : Prop := exists id' r, cx_ty cx id' = Some r /\ from_rust_ty (cx_ffi cx) r = ROk (TyIdent (IPlain id) false).
Definition not_a_type (n : ident_expr) : Prop :=
  match n with IPlain id => cx_ty cx id = None /\ ~ given_type id | _ => True end.
(** Every type that the context gives to a name is one that it knows. *)
Definition closed_context : Prop := forall id, given_type id -> cx_ty cx id <> None.
Inductive either : unop -> binop -> Prop :=
| ei_plus : either UPlus OAdd
| ei_minus : either UMinus OSub
| ei_times : either UDeref OMul
| ei_and : either UAddrOf OBitAnd.

(** ** Meaning *)

Variable approx : expr -> expr -> Prop.

Inductive means : expr -> expr -> Prop :=
| me_refl e : means e e
| me_trans a b d : means a b -> means b d -> means a d
| me_approx e e' : approx e e' -> means e e'
(** anywhere in the expression *)
| me_call n l e e' r : means e e' -> means (ECall n (l ++ e :: r)) (ECall n (l ++ e' :: r))
| me_cast t e e' : means e e' -> means (ECast t e) (ECast t e')
| me_unary op e e' : means e e' -> means (EUnary op e) (EUnary op e')
| me_left e e' op r : means e e' -> means (EBinary e op r) (EBinary e' op r)
| me_right l op e e' : means e e' -> means (EBinary l op e) (EBinary l op e')
| me_if e e' a b : means e e' -> means (ETernary e a b) (ETernary e' a b)
| me_then a e e' b : means e e' -> means (ETernary a e b) (ETernary a e' b)
| me_else a b e e' : means e e' -> means (ETernary a b e) (ETernary a b e')
| me_piece l e e' r : means e e' -> means (EConcat (l ++ e :: r)) (EConcat (l ++ e' :: r))
(** types *)
| me_type t t' e : type_means t t' -> means (ECast t e) (ECast t' e)
| me_sizeof t t' : type_means t t' -> means (ESizeOf t) (ESizeOf t')
| me_char x t : char_type x t -> means (ELit (LChar x)) (ECast t (ELit (LChar x)))
(** a cast of a string literal to the type that it has *)
| me_same b q : q = QConst \/ q = QConstVolatile ->
    means (ECast (TyQual (TyPtr (TyBuiltIn BChar)) q) (ELit (LString (SOrdinary b)))) (ELit (LString (SOrdinary b)))
(** constants *)
| me_plus_int i : means (EUnary UPlus (ELit (LInt i))) (ELit (LInt i))
| me_plus_float f : means (EUnary UPlus (ELit (LFloat f))) (ELit (LFloat f))
| me_minus_int v s v' s' : stored (- v) v' -> signed_suffix s s' -> means (EUnary UMinus (int_lit v s)) (int_lit v' s')
| me_minus_float f : means (EUnary UMinus (ELit (LFloat f))) (ELit (LFloat (negated f)))
| me_not_zero v s : v = 0 -> means (EUnary UNot (int_lit v s)) (int_lit 1 None)
| me_not_int v s : v <> 0 -> means (EUnary UNot (int_lit v s)) (int_lit 0 None)
| me_not_zero_float f : zero_float f -> means (EUnary UNot (ELit (LFloat f))) (int_lit 1 None)
| me_not_float f : ~ zero_float f -> means (EUnary UNot (ELit (LFloat f))) (int_lit 0 None)
| me_ints op a b v s t u : int_result op a b v -> kept_suffix s t u -> means (EBinary (int_lit a s) op (int_lit b t)) (int_lit v u)
| me_floats op a b f : float_result op a b f -> means (EBinary (ELit (LFloat a)) op (ELit (LFloat b))) (ELit (LFloat f))
(** truth *)
| me_condition e a b : means (ETernary e a b) (ETernary (EBinary e ONeq (int_lit 0 None)) a b)
(** adjacent strings *)
| me_join l l' : content l = content l' -> means (EConcat l) (EConcat l')
| me_alone e : means (EConcat [e]) e
(** not a cast *)
| me_operation n op op' e : not_a_type n -> either op op' ->
    means (ECast (TyIdent n false) (EUnary op e)) (EBinary (EVar n) op' e)
| me_product t n e : not_a_type n ->
    means (ECast t (ECast (TyIdent n false) (EUnary UDeref (ECast t e)))) (EBinary (ECast t (EVar n)) OMul (ECast t e)).

(** Statements: each expression is rewritten, conditions may be compared with
    zero; nothing else changes. *)
Inductive condition_means : expr -> expr -> Prop :=
| cm_same e e' : means e e' -> condition_means e e'
| cm_zero e e' : means e e' -> condition_means e (EBinary e' ONeq (int_lit 0 None)).
Inductive stmt_means : stmt -> stmt -> Prop :=
| sm_asm a a' : asm_template a' = asm_template a -> asm_clobbers a' = asm_clobbers a ->
    Forall2 (fun o o' => fst o' = fst o /\ means (snd o) (snd o')) (asm_outputs a) (asm_outputs a') ->
    Forall2 (fun i i' => fst i' = fst i /\ means (snd i) (snd i')) (asm_inputs a) (asm_inputs a') ->
    stmt_means (SAsm a) (SAsm a')
| sm_expr e e' : means e e' -> stmt_means (SExpr e) (SExpr e')
| sm_fn d d' : fd_name d' = fd_name d -> type_means (fd_ret d) (fd_ret d') ->
    Forall2 (fun p p' => snd p' = snd p /\ type_means (fst p) (fst p')) (fd_args d) (fd_args d') -> stmt_means (SFnDecl d) (SFnDecl d')
| sm_var d d' : vd_name d' = vd_name d -> vd_static d' = vd_static d -> type_means (vd_ty d) (vd_ty d') -> means (vd_rhs d) (vd_rhs d') ->
    stmt_means (SVarDecl d) (SVarDecl d')
| sm_block l l' : stmts_mean l l' -> stmt_means (SBlock l) (SBlock l')
| sm_if e e' a a' b b' : condition_means e e' -> stmts_mean a a' -> stmts_mean b b' -> stmt_means (SIf e a b) (SIf e' a' b')
| sm_do l l' e e' : stmts_mean l l' -> condition_means e e' -> stmt_means (SDoWhile l e) (SDoWhile l' e')
with stmts_mean : list stmt -> list stmt -> Prop :=
| sm_nil : stmts_mean [] []
| sm_cons s s' l l' : stmt_means s s' -> stmts_mean l l' -> stmts_mean (s :: l) (s' :: l').

(** The uses of parameters, variables and functions in an expression, in the
    order in which they are written. *)
Definition used (n : ident_expr) : list ident_expr :=
  match n with IPlain id => match cx_ty cx id with None => [n] | Some _ => [] end | _ => [n] end.
Fixpoint uses (e : expr) : list ident_expr :=
  match e with
  | EVar n => [n]
  | ECall n l => n :: flat_map uses l
  | ECast (TyIdent n false) e => used n ++ uses e
  | ECast _ e => uses e
  | ELit _ => []
  | EStringify e => uses e
  | EConcat l => flat_map uses l
  | ESizeOf _ => []
  | EUnary _ e => uses e
  | EBinary a _ b => uses a ++ uses b
  | ETernary a b d => uses a ++ uses b ++ uses d
  end.

End Means.

Definition exactly : expr -> expr -> Prop := fun _ _ => False.

(** Steps that do not always keep the meaning (the refuted parts of C63): an
    integer next to a floating-point constant becomes a [float], whatever the
    type of the other; the limit of a type, multiplied or increased by a number,
    is converted to the unsigned type; a string with a prefix loses it when it
    is joined; [(T)(n)*(T)e] is a product even if [n] is a type, when what is
    dereferenced is not plainly a pointer. *)
Definition limits : list (string * builtin) :=
  [("__SCHAR_MAX__", BUChar); ("__SHRT_MAX__", BUShort); ("__INT_MAX__", BUInt); ("__LONG_MAX__", BULong);
   ("__LONG_LONG_MAX__", BULongLong)].
Inductive approximation (cx : cgctx) : expr -> expr -> Prop :=
| ap_left v op f : approximation cx (EBinary (int_lit v None) op (ELit (LFloat f)))
    (EBinary (ELit (LFloat (FFloat (binary_normalize 24 128 v 0 false)))) op (ELit (LFloat f)))
| ap_right f op v : approximation cx (EBinary (ELit (LFloat f)) op (int_lit v None))
    (EBinary (ELit (LFloat f)) op (ELit (LFloat (FFloat (binary_normalize 24 128 v 0 false)))))
| ap_limit_left s b op i : In (s, b) limits -> op = OMul \/ op = OAdd ->
    approximation cx (EBinary (EVar (IPlain (st s))) op (ELit (LInt i))) (EBinary (ECast (TyBuiltIn b) (EVar (IPlain (st s)))) op (ELit (LInt i)))
| ap_limit_right s b op i : In (s, b) limits -> op = OMul \/ op = OAdd ->
    approximation cx (EBinary (ELit (LInt i)) op (EVar (IPlain (st s)))) (EBinary (ELit (LInt i)) op (ECast (TyBuiltIn b) (EVar (IPlain (st s)))))
| ap_prefix l x s r : x = SUtf16 s \/ x = SUtf32 s ->
    approximation cx (EConcat (l ++ ELit (LString x) :: r)) (EConcat (l ++ ELit (LString (SUtf8 s)) :: r))
| ap_product t id e : cx_ty cx id <> None ->
    approximation cx (ECast t (ECast (TyIdent (IPlain id) false) (EUnary UDeref (ECast t e))))
      (EBinary (ECast t (EVar (IPlain id))) OMul (ECast t e)).

(** Expressions in which none of these occurs: without floating-point constants,
    limits, strings with the prefix [u] or [U], and without dereferences or
    without casts to the name of a type ([wchar_t] for wide characters). *)
Definition is_limit (n : ident_expr) : Prop := exists s b, In (s, b) limits /\ n = IPlain (st s).
Definition may_cast (cx : cgctx) (derefs : bool) (t : ctype) : Prop :=
  match t with
  | TyIdent n _ =>
    (is_limit n -> exists id, n = IPlain id /\ cx_ty cx id <> None) /\
    (derefs = true -> forall id, n = IPlain id -> cx_ty cx id = None)
  | _ => True
  end.
Fixpoint no_approximation (cx : cgctx) (derefs : bool) (e : expr) : Prop :=
  match e with
  | EVar n => ~ is_limit n
  | ECall _ l => fold_right (fun x p => no_approximation cx derefs x /\ p) True l
  | ECast t e => no_approximation cx derefs e /\ may_cast cx derefs t
  | ELit (LFloat _ | LString (SUtf16 _ | SUtf32 _)) => False
  | ELit (LChar (CWide _)) => derefs = false
  | ELit _ => True
  | EStringify e => no_approximation cx derefs e
  | EConcat l => fold_right (fun x p => no_approximation cx derefs x /\ p) True l
  | ESizeOf _ => True
  | EUnary op e => no_approximation cx derefs e /\ (op = UDeref -> derefs = true)
  | EBinary a _ b => no_approximation cx derefs a /\ no_approximation cx derefs b
  | ETernary a b d => no_approximation cx derefs a /\ no_approximation cx derefs b /\ no_approximation cx derefs d
  end.
