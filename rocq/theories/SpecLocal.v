(** The names that a macro is about, and contexts that agree on them. *)
From Verif Require Import Base Utf Lex LexFloat Token Ast ParseStmt Rust SpecAccept.
From Coq Require Import String List.
Import ListNotations.
Local Open Scope list_scope.

Section Names.
(** A set of names. *)
Variable S : str -> Prop.

Definition name_in (n : ident_expr) : Prop := match n with IPlain x => S x | _ => True end.
Fixpoint type_in (t : ctype) : Prop :=
  match t with
  | TyIdent n _ => name_in n
  | TyPtr t | TyQual t _ => type_in t
  | _ => True
  end.
Fixpoint expr_in (e : expr) : Prop :=
  match e with
  | EVar n => name_in n
  | ECall n l => name_in n /\ all expr_in l
  | ECast t e => type_in t /\ expr_in e
  | ELit _ => True
  | EStringify e => expr_in e
  | EConcat l => all expr_in l
  | EUnary _ e => expr_in e
  | EBinary a _ b => expr_in a /\ expr_in b
  | ETernary a b d => expr_in a /\ expr_in b /\ expr_in d
  | ESizeOf t => type_in t
  end.
(** The names of declared variables, functions and their parameters are not looked up. *)
Fixpoint stmt_in (s : stmt) : Prop :=
  match s with
  | SExpr e => expr_in e
  | SAsm a => all (fun x => expr_in (snd x)) (asm_outputs a) /\ all (fun x => expr_in (snd x)) (asm_inputs a)
  | SVarDecl d => type_in (vd_ty d) /\ expr_in (vd_rhs d)
  | SFnDecl d => type_in (fd_ret d) /\ all (fun a => type_in (fst a)) (fd_args d)
  | SBlock l => all stmt_in l
  | SIf c a b => expr_in c /\ all stmt_in a /\ all stmt_in b
  | SDoWhile l c => all stmt_in l /\ expr_in c
  end.
Definition body_in (b : macro_body) : Prop := match b with MbExpr e => expr_in e | MbStatement s => stmt_in s end.

(** The types that a context states are about names of the set. *)
Definition rust_in (cx : cgctx) (s : sty) : Prop := forall t, from_rust_ty (cx_ffi cx) s = ROk t -> type_in t.
Definition closed (cx : cgctx) : Prop :=
  (forall x s, S x -> cx_ty cx x = Some s -> rust_in cx s) /\
  (forall x s v, S x -> cx_enum cx x = Some (s, v) -> rust_in cx s) /\
  (forall x f s, S x -> S f -> cx_field cx x f = Some s -> rust_in cx s) /\
  (forall x l s, S x -> cx_fn cx x = Some (l, s) -> all (rust_in cx) l /\ rust_in cx s) /\
  (forall x a s, S x -> S a -> cx_arg_ty cx x a = Some s -> rust_in cx s).

(** Two contexts that agree on the names of the set, and on everything that is not
    about names. *)
Definition agree (cx cx' : cgctx) : Prop :=
  cx_target cx = cx_target cx' /\ cx_ffi cx = cx_ffi cx' /\ cx_trait cx = cx_trait cx' /\
  forall x, S x ->
    cx_ty cx x = cx_ty cx' x /\ cx_enum cx x = cx_enum cx' x /\ cx_fn cx x = cx_fn cx' x /\
    forall y, S y -> cx_field cx x y = cx_field cx' x y /\ cx_arg_ty cx x y = cx_arg_ty cx' x y.
End Names.
