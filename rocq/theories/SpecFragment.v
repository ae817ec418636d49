(** How a macro body uses its parameters (C66): as part of a name, as text, as a
    type, as the name of a field, as the argument of a known function.  Any other
    use is as a value. *)
From Verif Require Import Base Utf Lex LexFloat Token Ast ParseStmt Rust.
From Coq Require Import String List.
Import ListNotations.
Local Open Scope string_scope.
Local Open Scope list_scope.

Inductive use :=
| AsName (* part of a pasted name, a member that is selected, a function that is declared *)
| AsText (* #x *)
| AsType (* the type of [__builtin_offsetof] *)
| AsField (* its member *)
| Passed (t : sty) (* the argument of a function whose parameter has this type *).

(** A parameter between ##. *)
Definition pasted (i : nat) (n : ident_expr) : Prop := exists l, n = IConcat l /\ In (IpArg i) l.
(** The name in a type: that of [const struct name *]. *)
Fixpoint type_head (t : ctype) : option ident_expr :=
  match t with
  | TyIdent n _ => Some n
  | TyPtr t | TyQual t _ => type_head t
  | _ => None
  end.
Definition pasted_type (i : nat) (t : ctype) : Prop := exists n, type_head t = Some n /\ pasted i n.
(** The parameter itself; a single piece of text is not a concatenation. *)
Fixpoint param (i : nat) (e : expr) : Prop :=
  match e with
  | EVar n => n = IArg i
  | EConcat [e] => param i e
  | _ => False
  end.

Section Uses.
Variable cx : cgctx.

(** An argument that is a parameter of the macro. *)
Inductive call_use : use -> nat -> ident_expr -> list expr -> Prop :=
| cu_passed id tys ret args j a t i : cx_fn cx id = Some (tys, ret) -> length tys = length args ->
    nth_error args j = Some a -> nth_error tys j = Some t -> param i a -> call_use (Passed t) i (IPlain id) args
| cu_type a b i : cx_fn cx (st "__builtin_offsetof") = None -> param i a ->
    call_use AsType i (IPlain (st "__builtin_offsetof")) [a; b]
| cu_field a b i : cx_fn cx (st "__builtin_offsetof") = None -> param i b ->
    call_use AsField i (IPlain (st "__builtin_offsetof")) [a; b].

Definition any (P : expr -> Prop) : list expr -> Prop :=
  fix any (l : list expr) : Prop := match l with [] => False | e :: l' => P e \/ any l' end.
Fixpoint uses (k : use) (i : nat) (e : expr) : Prop :=
  match e with
  | EVar n => k = AsName /\ pasted i n
  | ECall n args => k = AsName /\ pasted i n \/ call_use k i n args \/ any (uses k i) args
  | ECast t e => k = AsName /\ pasted_type i t \/ uses k i e
  | ELit _ => False
  | EStringify a => k = AsText /\ a = EVar (IArg i)
  | EConcat l => any (uses k i) l
  | ESizeOf t => k = AsName /\ pasted_type i t
  | EUnary _ e => uses k i e
  | EBinary l op r => k = AsName /\ op = OMember /\ param i r \/ uses k i l \/ uses k i r
  | ETernary a b d => uses k i a \/ uses k i b \/ uses k i d
  end.

(** In statements.  The code does not look at a parameter that is declared as a
    variable, see [C66_declared_refuted], nor at the pasted names of a declared
    function and its parameters. *)
Definition any_stmt (P : stmt -> Prop) : list stmt -> Prop :=
  fix any (l : list stmt) : Prop := match l with [] => False | s :: l' => P s \/ any l' end.
Fixpoint stmt_uses (k : use) (i : nat) (s : stmt) : Prop :=
  match s with
  | SAsm a => any (uses k i) (map snd (asm_outputs a)) \/ any (uses k i) (map snd (asm_inputs a))
  | SExpr e => uses k i e
  | SFnDecl d => k = AsName /\ (pasted_type i (fd_ret d) \/ fd_name d = IArg i \/ exists t n, In (t, n) (fd_args d) /\ pasted_type i t)
  | SVarDecl d => k = AsName /\ (pasted_type i (vd_ty d) \/ pasted i (vd_name d)) \/ uses k i (vd_rhs d)
  | SBlock l => any_stmt (stmt_uses k i) l
  | SIf e a b => uses k i e \/ any_stmt (stmt_uses k i) a \/ any_stmt (stmt_uses k i) b
  | SDoWhile l e => any_stmt (stmt_uses k i) l \/ uses k i e
  end.
Definition body_uses (k : use) (i : nat) (b : macro_body) : Prop :=
  match b with MbStatement s => stmt_uses k i s | MbExpr e => uses k i e end.

(** ** What a generated macro accepts for a parameter *)

(** [$x:kind] in the macro that is generated for [m], where [x] is parameter [i].
    An identifier is demanded exactly for what is used as a name.  A type or a
    token is demanded only for what is used as the type or the field of
    [__builtin_offsetof], not as text, and if the context does not state the type
    of the parameter; and it is demanded if this is the only use. *)
Definition fragment_for (m : fn_macro) (i : nat) (x : str) (kind : string) : Prop :=
  let used k := body_uses k i (fm_body m) in
  let stated := cx_arg_ty cx (fm_name m) x <> None in
  let passed := exists t, used (Passed t) in
  In kind ["ident"; "expr"; "ty"; "tt"] /\
  (kind = "ident" <-> used AsName) /\
  (kind = "ty" -> used AsType /\ ~ used AsText /\ ~ stated) /\
  (kind = "tt" -> used AsField /\ ~ used AsText /\ ~ stated) /\
  (used AsType -> ~ used AsField -> ~ used AsName -> ~ used AsText -> ~ passed -> ~ stated -> kind = "ty") /\
  (used AsField -> ~ used AsType -> ~ used AsName -> ~ used AsText -> ~ passed -> ~ stated -> kind = "tt").
(** The type of a parameter of a generated function: what the context states, and
    otherwise that of a parameter that it is passed for. *)
Definition type_for (m : fn_macro) (i : nat) (x : str) (t : ctype) : Prop :=
  match cx_arg_ty cx (fm_name m) x with
  | Some r => from_rust_ty (cx_ffi cx) r = ROk t
  | None => exists r, body_uses (Passed r) i (fm_body m) /\ from_rust_ty (cx_ffi cx) r = ROk t
  end.
End Uses.
