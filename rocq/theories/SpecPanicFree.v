(** When code generation is expected not to panic. *)
From Verif Require Import Base Utf Lex LexFloat Token Ast ParseStmt Rust SpecFold.
From Coq Require Import String List ZArith.
Import ListNotations.
Local Open Scope list_scope.

(** ** The input *)

(** Every identifier token is an identifier, and every parameter token is one
    of the [k] parameters. *)
Definition token_ok `{Unicode} (k : nat) (t : mtoken) : Prop :=
  match t with
  | MArg i => i < k
  | MIdent s => is_identifier s = true
  | _ => True
  end.

(** The names in a Rust type are identifiers, not raw ones. *)
Fixpoint rust_type_ok `{Unicode} (t : sty) : Prop :=
  match t with
  | STPtr _ t => rust_type_ok t
  | STUnit | STOther _ _ => True
  | STPath _ p => Forall (fun s => is_identifier (fst s) = true) (sp_segs p)
  | STVerbatim text _ => is_identifier text = true
  end.

(** So are the names in all types that the context returns. *)
Definition context_ok `{Unicode} (cx : cgctx) : Prop :=
  (forall m a t, cx_arg_ty cx m a = Some t -> rust_type_ok t) /\
  (forall n t v, cx_enum cx n = Some (t, v) -> rust_type_ok t) /\
  (forall n t, cx_ty cx n = Some t -> rust_type_ok t) /\
  (forall n f t, cx_field cx n f = Some t -> rust_type_ok t) /\
  (forall n l t, cx_fn cx n = Some (l, t) -> rust_type_ok t /\ Forall rust_type_ok l).

(** ** The macro body *)

(** [P] holds of an expression and all its subexpressions. *)
Definition everys (f : expr -> Prop) : list expr -> Prop :=
  fix everys l := match l with [] => True | e :: l' => f e /\ everys l' end.
Fixpoint every (P : expr -> Prop) (e : expr) : Prop :=
  P e /\
  match e with
  | EVar _ | ELit _ | ESizeOf _ => True
  | ECast _ e | EStringify e | EUnary _ e => every P e
  | ECall _ l | EConcat l => everys (every P) l
  | EBinary a _ b => every P a /\ every P b
  | ETernary a b d => every P a /\ every P b /\ every P d
  end.

(** Expressions of number literals, and those of them that are integers, as far
    as constant folding goes. *)
Fixpoint number (e : expr) : bool :=
  match e with
  | ELit (LInt _) | ELit (LFloat _) => true
  | EUnary (UPlus | UMinus | UNot) e => number e
  | EBinary a (OMul | ODiv | ORem | OAdd | OSub | OShl | OShr | OBitAnd | OBitOr | OBitXor) b => number a && number b
  | EConcat l => existsb number l
  | _ => false
  end.
Fixpoint integer (e : expr) : bool :=
  match e with
  | ELit (LInt _) => true
  | EUnary (UPlus | UMinus) e => integer e
  | EUnary UNot e => number e
  | EBinary a (OMul | ODiv | ORem | OAdd | OSub | OShl | OShr | OBitAnd | OBitOr | OBitXor) b => integer a && integer b
  | EConcat l => existsb integer l
  | _ => false
  end.

(** A divisor is no integer constant, or one other than zero. *)
Definition divisor_ok (d : expr) : Prop :=
  integer d = false \/
  (exists i, d = ELit (LInt i) /\ int_value i <> 0%Z) \/
  (exists t v, c_value d t v /\ v <> 0%Z).

(** The integer constants by which an expression divides are not zero, and it
    does not stringify the variable arguments. *)
Definition harmless_node (params : list str) (e : expr) : Prop :=
  match e with
  | EBinary _ (ODiv | ORem) d => divisor_ok d
  | EStringify (EVar (IArg i)) => nth_error params i <> Some (st "...")
  | _ => True
  end.
Definition harmless_expr (params : list str) : expr -> Prop := every (harmless_node params).

(** The [k]-th matching constraint that names an output, counting from zero,
    stays below the number of inputs by more than [k]. *)
Fixpoint matching_ok (outs ins k : nat) (l : list reg_constraint) : Prop :=
  match l with
  | [] => True
  | RcDigit d :: l' =>
    (N.to_nat d < outs -> N.to_nat d + k < ins /\ matching_ok outs ins (S k) l') /\
    (outs <= N.to_nat d -> matching_ok outs ins k l')
  | _ :: l' => matching_ok outs ins k l'
  end.
Definition asm_ok (a : asm_stmt) : Prop :=
  matching_ok (length (asm_outputs a)) (length (asm_inputs a)) 0 (map fst (asm_inputs a)).

Definition harmless_stmts (f : stmt -> Prop) : list stmt -> Prop :=
  fix go l := match l with [] => True | s :: l' => f s /\ go l' end.
Fixpoint harmless_stmt (params : list str) (s : stmt) : Prop :=
  match s with
  | SAsm a => asm_ok a /\ Forall (harmless_expr params) (map snd (asm_outputs a)) /\
              Forall (harmless_expr params) (map snd (asm_inputs a))
  | SExpr e => harmless_expr params e
  | SFnDecl _ => True
  | SVarDecl d => harmless_expr params (vd_rhs d)
  | SBlock l => harmless_stmts (harmless_stmt params) l
  | SIf e a b => harmless_expr params e /\ harmless_stmts (harmless_stmt params) a /\
                 harmless_stmts (harmless_stmt params) b
  | SDoWhile l e => harmless_stmts (harmless_stmt params) l /\ harmless_expr params e
  end.
Definition harmless (params : list str) (b : macro_body) : Prop :=
  match b with MbStatement s => harmless_stmt params s | MbExpr e => harmless_expr params e end.
