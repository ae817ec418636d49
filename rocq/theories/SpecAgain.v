(** Macros that can be generated again: the trees that generation leaves as they
    are once it has rewritten them. *)
From Verif Require Import Base Utf Lex LexFloat Token Ast ParseStmt Rust SpecAccept.
From Coq Require Import String List.
Import ListNotations.
Local Open Scope list_scope.

(** Expressions that may be replaced by a number, respectively by a
    floating-point number. *)
Fixpoint may_fold (e : expr) : bool :=
  match e with
  | ELit (LInt _) | ELit (LFloat _) => true
  | EUnary (UPlus | UMinus | UNot) e => may_fold e
  | EBinary a _ b => may_fold a && may_fold b
  | _ => false
  end.
Fixpoint may_float (e : expr) : bool :=
  match e with
  | ELit (LFloat _) => true
  | EUnary (UPlus | UMinus) e => may_float e
  | EBinary a _ b => may_fold a && may_fold b && (may_float a || may_float b)
  | _ => false
  end.

Definition deref_cast (e : expr) : Prop := exists t x, e = ECast t (EUnary UDeref x).

Section Again.
(** Whether the context gives the type of the parameter with this number. *)
Variable known : nat -> bool.

(** Names: numbers are not pasted to them, nor parameters of a known type. *)
Definition good_name (n : ident_expr) : Prop :=
  match n with
  | IConcat l => all (fun p => match p with IpArg i => known i = false | IpPlain _ => True | IpInt _ => False end) l
  | _ => True
  end.
Fixpoint good_type (t : ctype) : Prop :=
  match t with
  | TyIdent n _ => good_name n
  | TyPtr t | TyQual t _ => good_type t
  | _ => True
  end.
(** Either no parameter, or one whose type is known, respectively not known. *)
Definition parameter_known (k : bool) (e : expr) : Prop :=
  match e with EVar (IArg i) => known i = k | _ => True end.
Definition parameters_known (k : bool) (e : expr) : Prop :=
  parameter_known k e /\ match e with EConcat l => all (parameter_known k) l | _ => True end.
(** A part of a sequence of strings. *)
Definition string_item (e : expr) : Prop :=
  match e with
  | ELit (LString _) => True
  | EVar n => good_name n
  | EStringify a => parameter_known false a
  | _ => False
  end.

(** No character literals, logical negation of numbers, floating-point
    conditions, or products of casts ((T)(n)*(T)e).  Parameters that are arguments
    of calls have a known type; operands of # and ## and members have none. *)
Fixpoint repeatable (e : expr) : Prop :=
  match e with
  | EVar n => good_name n
  | ECall n l => good_name n /\ all repeatable l /\ all (parameters_known true) l
  | ECast t e => good_type t /\ repeatable e /\ ~ deref_cast e
  | ELit l => match l with LChar _ => False | _ => True end
  | EStringify a => parameter_known false a
  | EConcat l => all string_item l
  | EUnary o e => repeatable e /\ (o = UNot -> may_fold e = false)
  | EBinary a o b => repeatable a /\ repeatable b /\ (o = OMember -> parameters_known false b)
  | ETernary a b d => repeatable a /\ repeatable b /\ repeatable d /\ may_float a = false
  | ESizeOf t => good_type t
  end.
Definition repeatable_condition (e : expr) : Prop := repeatable e /\ may_float e = false.
Fixpoint repeatable_stmt (s : stmt) : Prop :=
  match s with
  | SExpr e => repeatable e
  | SAsm a => all (fun x => repeatable (snd x)) (asm_outputs a) /\ all (fun x => repeatable (snd x)) (asm_inputs a)
  | SVarDecl d => good_type (vd_ty d) /\ good_name (vd_name d) /\ repeatable (vd_rhs d)
  | SFnDecl d => good_type (fd_ret d) /\ parameter_known false (EVar (fd_name d)) /\ all (fun a => good_type (fst a)) (fd_args d)
  | SBlock l => all repeatable_stmt l
  | SIf c a b => repeatable_condition c /\ all repeatable_stmt a /\ all repeatable_stmt b
  | SDoWhile l c => all repeatable_stmt l /\ repeatable_condition c
  end.
Definition repeatable_body (b : macro_body) : Prop :=
  match b with MbExpr e => repeatable e | MbStatement s => repeatable_stmt s end.
End Again.

(** The types that the context gives to names stay the same when their own names
    are looked up. *)
Fixpoint settled_type (cx : cgctx) (t : ctype) : Prop :=
  match t with
  | TyIdent (IPlain x) _ => exists s, cx_ty cx x = Some s /\ from_rust_ty (cx_ffi cx) s = ROk t
  | TyIdent _ _ => False
  | TyPtr t | TyQual t _ => settled_type cx t
  | _ => True
  end.
Definition settled (cx : cgctx) : Prop :=
  forall x s t, cx_ty cx x = Some s -> from_rust_ty (cx_ffi cx) s = ROk t -> settled_type cx t.
