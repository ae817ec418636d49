(** Syntax trees built by the parsers of src/ast (data types only). *)
From Verif Require Import Base Utf Lex LexFloat Token.
From Coq Require Import String List.
Local Open Scope list_scope.

(** [IdentifierContinuationExpr], src/ast/identifier_expr.rs:148-152.  The
    [LitInt] of [Int] is always built without suffix (line 46), so only its
    value is kept. *)
Inductive idpart := IpArg (i : nat) | IpPlain (id : str) | IpInt (v : Z).

(** [IdentifierExpr], src/ast/identifier_expr.rs:23-30. *)
Inductive ident_expr := IArg (i : nat) | IPlain (id : str) | IConcat (l : list idpart).

(** [TypeQualifier], src/ast/ty.rs:325-332. *)
Inductive tyqual := QConst | QVolatile | QConstVolatile.

(** [Type], src/ast/ty.rs:364-379. *)
Inductive ctype :=
| TyBuiltIn (b : builtin)
| TyIdent (name : ident_expr) (is_struct : bool)
| TyPath (leading_colon : bool) (segments : list str)
| TyPtr (t : ctype)
| TyQual (t : ctype) (q : tyqual).

(** [UnaryOp], src/ast/unary_expr.rs:10-31. *)
Inductive unop := UPostInc | UPostDec | UInc | UDec | UPlus | UMinus | UNot | UComp | UDeref | UAddrOf.

(** [BinaryOp], src/ast/binary_expr.rs:19-80. *)
Inductive binop :=
| OMul | ODiv | ORem | OAdd | OSub | OShl | OShr | OLt | OLte | OGt | OGte | OEq | ONeq
| OBitAnd | OBitXor | OBitOr | OAnd | OOr
| OAssign | OAddAssign | OSubAssign | OMulAssign | ODivAssign | ORemAssign
| OShlAssign | OShrAssign | OBitAndAssign | OBitXorAssign | OBitOrAssign | OMember.

(** [Expr], src/ast/expr.rs:19-30, with [Var], [FunctionCall], [Cast],
    [Stringify], [UnaryExpr], [BinaryExpr] and [TernaryExpr] inlined. *)
Inductive expr :=
| EVar (name : ident_expr)
| ECall (name : ident_expr) (args : list expr)
| ECast (ty : ctype) (e : expr)
| ELit (l : lit)
| EStringify (arg : expr)
| EConcat (parts : list expr)
| ESizeOf (ty : ctype)
| EUnary (op : unop) (e : expr)
| EBinary (lhs : expr) (op : binop) (rhs : expr)
| ETernary (c a b : expr).

(** [Dir] and [RegConstraint], src/ast/asm.rs:21-42. *)
Inductive asm_dir := DOut | DInOut.
Inductive reg_constraint := RcReg | RcRegAbcd | RcRegByte | RcFreg | RcDigit (d : N).

(** [Asm], src/ast/asm.rs:70-76. *)
Record asm_stmt := mk_asm {
  asm_template : list str;
  asm_outputs : list (asm_dir * reg_constraint * expr);
  asm_inputs : list (reg_constraint * expr);
  asm_clobbers : list str }.

(** [FunctionDecl], src/ast/function_decl.rs:25-29. *)
Record fn_decl := mk_fn_decl { fd_ret : ctype; fd_name : ident_expr; fd_args : list (ctype * ident_expr) }.

(** [VarDecl], src/ast/var_decl.rs:17-22. *)
Record var_decl := mk_var_decl { vd_ty : ctype; vd_name : ident_expr; vd_rhs : expr; vd_static : bool }.

(** [Statement], src/ast/statement.rs:29-50. *)
Inductive stmt :=
| SAsm (a : asm_stmt)
| SExpr (e : expr)
| SFnDecl (f : fn_decl)
| SVarDecl (d : var_decl)
| SBlock (l : list stmt)
| SIf (c : expr) (a b : list stmt)
| SDoWhile (body : list stmt) (c : expr).

(** [MacroBody], src/macro_body.rs:16-37. *)
Inductive macro_body := MbStatement (s : stmt) | MbExpr (e : expr).

(** Equality of types ([PartialEq] derived at src/ast/ty.rs:363). *)
Definition idpart_eq_dec (a b : idpart) : {a = b} + {a <> b}.
Proof. decide equality; first [apply Z.eq_dec | apply Nat.eq_dec | apply list_eq_dec, N.eq_dec]. Defined.
Definition ident_expr_eq_dec (a b : ident_expr) : {a = b} + {a <> b}.
Proof. decide equality; first [apply Nat.eq_dec | apply list_eq_dec; first [apply N.eq_dec | apply idpart_eq_dec]]. Defined.
Definition tyqual_eq_dec (a b : tyqual) : {a = b} + {a <> b}.
Proof. decide equality. Defined.
Definition ctype_eq_dec (a b : ctype) : {a = b} + {a <> b}.
Proof.
  decide equality; first [apply builtin_eq_dec | apply bool_dec | apply ident_expr_eq_dec | apply tyqual_eq_dec
    | apply list_eq_dec, list_eq_dec, N.eq_dec].
Defined.
Definition ctype_eqb (a b : ctype) : bool := if ctype_eq_dec a b then true else false.
(** [Option<Type> == Option<Type>]. *)
Definition oty_eqb (a b : option ctype) : bool :=
  match a, b with Some x, Some y => ctype_eqb x y | None, None => true | _, _ => false end.

(** [TypeQualifier::is_const], [is_volatile], [or], src/ast/ty.rs:336-351. *)
Definition q_is_const (q : tyqual) : bool := match q with QConst | QConstVolatile => true | QVolatile => false end.
Definition q_is_volatile (q : tyqual) : bool := match q with QVolatile | QConstVolatile => true | QConst => false end.
Definition q_or (a b : tyqual) : tyqual :=
  match a, b with
  | QConst, QConst => QConst
  | QVolatile, QVolatile => QConst
  | _, _ => QConstVolatile
  end.

(** [Type::qualify], src/ast/ty.rs:405-412. *)
Definition ty_qualify (t : ctype) (q : tyqual) : ctype :=
  match t with
  | TyQual t0 q0 => TyQual t0 (q_or q0 q)
  | _ => TyQual t q
  end.
(** [if let Some(qualifier) = q { ty.qualify(qualifier) } else { ty }]. *)
Definition ty_qualify_opt (t : ctype) (q : option tyqual) : ctype :=
  match q with Some q => ty_qualify t q | None => t end.

(** [Type::is_void], src/ast/ty.rs:415-417; [Type::is_ptr], 420-426. *)
Definition ty_is_void (t : ctype) : bool := match t with TyBuiltIn BVoid => true | _ => false end.
Fixpoint ty_is_ptr (t : ctype) : bool :=
  match t with TyPtr _ => true | TyQual t0 _ => ty_is_ptr t0 | _ => false end.

(** Induction on expressions through the nested lists. *)
Section ExprInd.
  Variable P : expr -> Prop.
  Hypothesis HVar : forall n, P (EVar n).
  Hypothesis HCall : forall n args, Forall P args -> P (ECall n args).
  Hypothesis HCast : forall t e, P e -> P (ECast t e).
  Hypothesis HLit : forall l, P (ELit l).
  Hypothesis HStringify : forall e, P e -> P (EStringify e).
  Hypothesis HConcat : forall l, Forall P l -> P (EConcat l).
  Hypothesis HSizeOf : forall t, P (ESizeOf t).
  Hypothesis HUnary : forall o e, P e -> P (EUnary o e).
  Hypothesis HBinary : forall a o b, P a -> P b -> P (EBinary a o b).
  Hypothesis HTernary : forall c a b, P c -> P a -> P b -> P (ETernary c a b).
  Fixpoint expr_ind' (e : expr) : P e :=
    let all := fix all (l : list expr) : Forall P l :=
      match l with [] => Forall_nil P | x :: l' => Forall_cons x (expr_ind' x) (all l') end in
    match e with
    | EVar n => HVar n
    | ECall n args => HCall n args (all args)
    | ECast t e => HCast t e (expr_ind' e)
    | ELit l => HLit l
    | EStringify e => HStringify e (expr_ind' e)
    | EConcat l => HConcat l (all l)
    | ESizeOf t => HSizeOf t
    | EUnary o e => HUnary o e (expr_ind' e)
    | EBinary a o b => HBinary a o b (expr_ind' a) (expr_ind' b)
    | ETernary c a b => HTernary c a b (expr_ind' c) (expr_ind' a) (expr_ind' b)
    end.
End ExprInd.
