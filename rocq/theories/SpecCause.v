(** The causes of errors of code generation: what in a macro and in a context they are about. *)
From Verif Require Import Base Utf Lex LexFloat Token Ast ParseStmt Rust.
From Coq Require Import String List.
Import ListNotations.
Local Open Scope string_scope.
Local Open Scope list_scope.

(** ** What occurs in a macro *)

(** The expressions in an expression; the operand of # is not one that is generated. *)
Fixpoint parts (e : expr) : list expr :=
  e :: match e with
       | ECall _ l | EConcat l => flat_map parts l
       | ECast _ e | EUnary _ e => parts e
       | EBinary a _ b => parts a ++ parts b
       | ETernary a b d => parts a ++ parts b ++ parts d
       | EVar _ | ELit _ | EStringify _ | ESizeOf _ => []
       end.
Fixpoint stmt_parts (s : stmt) : list expr :=
  match s with
  | SExpr e => parts e
  | SAsm a => flat_map (fun x => parts (snd x)) (asm_outputs a) ++ flat_map (fun x => parts (snd x)) (asm_inputs a)
  | SVarDecl d => parts (vd_rhs d)
  | SFnDecl _ => []
  | SBlock l => flat_map stmt_parts l
  | SIf c a b => parts c ++ flat_map stmt_parts a ++ flat_map stmt_parts b
  | SDoWhile l c => flat_map stmt_parts l ++ parts c
  end.
Definition body_parts (b : macro_body) : list expr := match b with MbExpr e => parts e | MbStatement s => stmt_parts s end.

(** The types: of casts, of sizeof, and of declarations. *)
Definition part_types (l : list expr) : list ctype := flat_map (fun e => match e with ECast t _ | ESizeOf t => [t] | _ => [] end) l.
Fixpoint declared (s : stmt) : list ctype :=
  match s with
  | SVarDecl d => [vd_ty d]
  | SFnDecl d => fd_ret d :: map fst (fd_args d)
  | SBlock l | SDoWhile l _ => flat_map declared l
  | SIf _ a b => flat_map declared a ++ flat_map declared b
  | SExpr _ | SAsm _ => []
  end.
Definition body_types (b : macro_body) : list ctype :=
  part_types (body_parts b) ++ match b with MbStatement s => declared s | MbExpr _ => [] end.
(** The name in a type. *)
Fixpoint type_name (t : ctype) : option ident_expr :=
  match t with TyIdent n _ => Some n | TyPtr t | TyQual t _ => type_name t | TyBuiltIn _ | TyPath _ _ => None end.
(** The names of declared variables. *)
Fixpoint declared_names (s : stmt) : list ident_expr :=
  match s with
  | SVarDecl d => [vd_name d]
  | SBlock l | SDoWhile l _ => flat_map declared_names l
  | SIf _ a b => flat_map declared_names a ++ flat_map declared_names b
  | SExpr _ | SAsm _ | SFnDecl _ => []
  end.
(** The names of variables, called functions, types and declared variables. *)
Definition body_names (b : macro_body) : list ident_expr :=
  flat_map (fun e => match e with EVar n | ECall n _ => [n] | _ => [] end) (body_parts b) ++
  flat_map (fun t => match type_name t with Some n => [n] | None => [] end) (body_types b) ++
  match b with MbStatement s => declared_names s | MbExpr _ => [] end.

Definition wide (l : lit) : Prop := match l with LChar (CWide _) | LString (SWide _) => True | _ => False end.
Definition assigns (op : binop) : Prop :=
  match op with
  | OAssign | OAddAssign | OSubAssign | OMulAssign | ODivAssign | ORemAssign
  | OShlAssign | OShrAssign | OBitAndAssign | OBitXorAssign | OBitOrAssign => True
  | _ => False
  end.
(** The variables with a value of their own wherever they are. *)
Definition line_or_file (x : str) : Prop := x = st "__LINE__" \/ x = st "__FILE__".
Definition limits : list string := ["__SCHAR_MAX__"; "__SHRT_MAX__"; "__INT_MAX__"; "__LONG_MAX__"; "__LONG_LONG_MAX__"].
(** What # can be applied to. *)
Definition stringifiable (e : expr) : Prop := match e with EVar (IArg _) => True | EVar (IPlain x) => line_or_file x | _ => False end.

(** ** What the context states *)

(** The name that a Rust type is or points to. *)
Fixpoint stated_name (s : sty) : option str :=
  match s with
  | STPtr _ s => stated_name s
  | STVerbatim n _ => Some n
  | STPath _ p => match sp_segs p with [x] => Some (fst x) | _ => None end
  | STUnit | STOther _ _ => None
  end.
(** The type in a Rust type that is neither a pointer, (), a path nor tokens. *)
Fixpoint refused (s : sty) : option str :=
  match s with STPtr _ s => refused s | STOther n _ => Some n | _ => None end.

Section Cause.
Variable cx : cgctx.
Variable name : str.
Variable args : list str.
Variable b : macro_body.

(** The type names that are looked up: those written, wchar_t if there is a wide
    literal, and those in the types that the context states for them. *)
Inductive type_used : str -> Prop :=
| used_written t x : In t (body_types b) -> type_name t = Some (IPlain x) -> type_used x
| used_wide l : In (ELit l) (body_parts b) -> wide l -> type_used (st "wchar_t")
| used_stated x s y : type_used x -> cx_ty cx x = Some s -> stated_name s = Some y -> type_used y.

(** The names that may be read as variables: a cast of a unary operator to an unknown
    type is read as a binary operator. *)
Definition value_used (x : str) : Prop := In (EVar (IPlain x)) (body_parts b) \/ type_used x.
Definition call_used (x : str) : Prop := exists l, In (ECall (IPlain x) l) (body_parts b).

(** The Rust types that the context states for what is used. *)
Definition stated (s : sty) : Prop :=
  (exists x, type_used x /\ cx_ty cx x = Some s) \/
  (exists x v, value_used x /\ cx_enum cx x = Some (s, v)) \/
  (exists x l r, call_used x /\ cx_fn cx x = Some (l, r) /\ (s = r \/ In s l)) \/
  (exists t x, value_used x /\ cx_field cx t x = Some s) \/
  (exists a, In a args /\ cx_arg_ty cx name a = Some s).

(** A variable that is no constant. *)
Definition unknown (x : str) : Prop := line_or_file x \/ cx_enum cx x = None /\ ~ In x (map st limits).

(** The causes of an error, in a variable-like macro or not. *)
Definition unsupported_cause (v : bool) (s : str) : Prop :=
  s = st "concatenation of identifiers and literals" /\ (exists l z, In (IConcat l) (body_names b) /\ In (IpInt z) l) \/
  s = st "stringification" /\ (exists e, In (EStringify e) (body_parts b) /\ ~ stringifiable e) \/
  s = st "dereference in variable-like macro" /\ v = true /\ (exists e, In (EUnary UDeref e) (body_parts b)) \/
  s = st "dereference of non-pointer" /\ v = false /\ (exists e, In (EUnary UDeref e) (body_parts b)) \/
  s = st "complement of float or string" /\ (exists e, In (EUnary UComp e) (body_parts b)) \/
  s = st "concatenation of wide strings" /\ (exists l x, In (EConcat l) (body_parts b) /\ In (ELit (LString (SWide x))) l) \/
  s = st "concatenation of variables" /\ (exists l x, In (EConcat l) (body_parts b) /\ In (EVar (IPlain x)) l /\ x <> st "__FILE__") \/
  s = st "function call in variable-like macro" /\ v = true /\ (exists n l, In (ECall n l) (body_parts b)).
Definition cause (v : bool) (e : cgerr) : Prop :=
  match e with
  | RecursiveDefinition _ => False
  | NonExpressionVarMacro => v = true /\ exists s, b = MbStatement s
  | NonConstantVarMacro => v = true /\
      ((exists x, value_used x /\ unknown x) \/
       (exists x, In (EStringify (EVar (IPlain x))) (body_parts b) /\ line_or_file x) \/
       (exists l op r, In (EBinary l op r) (body_parts b) /\ assigns op))
  | UnsupportedType t => type_used t /\ cx_ty cx t = None \/ exists s, stated s /\ refused s = Some t
  | UnsupportedExpression s => unsupported_cause v s
  end.
End Cause.

(** ** What is never generated *)

Definition concatenable (e : expr) : Prop := match e with EVar (IPlain x) => x = st "__FILE__" | ELit (LString (SWide _)) => False | _ => True end.
Definition float_or_string (e : expr) : Prop := match e with ELit (LFloat _) | ELit (LString _) => True | _ => False end.
(** The context knows the types, #, ##, ~ and strings next to each other are of what they can be
    of, and in a variable-like macro there is no call. *)
Definition generable (cx : cgctx) (v : bool) (b : macro_body) : Prop :=
  (forall t x, In t (body_types b) -> type_name t = Some (IPlain x) -> cx_ty cx x <> None) /\
  (forall l, In (ELit l) (body_parts b) -> wide l -> cx_ty cx (st "wchar_t") <> None) /\
  (forall e, In (EStringify e) (body_parts b) -> stringifiable e) /\
  (forall l z, In (IConcat l) (body_names b) -> ~ In (IpInt z) l) /\
  (forall l e, In (EConcat l) (body_parts b) -> In e l -> concatenable e) /\
  (forall e, In (EUnary UComp e) (body_parts b) -> ~ float_or_string e) /\
  (v = true -> (exists e, b = MbExpr e) /\ forall n l, ~ In (ECall n l) (body_parts b)).
