(** What an expression mentions, and what forces a macro: the vocabulary of C45
    and C46. *)
From Verif Require Import Base Utf Lex LexFloat Token Ast ParseStmt Rust.
From Coq Require Import String List.
Import ListNotations.
Local Open Scope string_scope.
Local Open Scope list_scope.

(** The names an expression mentions and what it does with them: a variable, a
    called function, a stringified operand, an assignment to a parameter, the
    template of an assembly statement. *)
Inductive mention := MVar (n : ident_expr) | MCall (n : ident_expr) | MStr (a : expr) | MAssign (i : nat)
| MAsm (template : list str).

Definition assigns (op : binop) : bool :=
  match op with
  | OAssign | OAddAssign | OSubAssign | OMulAssign | ODivAssign | ORemAssign
  | OShlAssign | OShrAssign | OBitAndAssign | OBitXorAssign | OBitOrAssign => true
  | _ => false
  end.
Definition assigned (l : expr) (op : binop) : list mention :=
  match l with EVar (IArg i) => if assigns op then [MAssign i] else [] | _ => [] end.
Fixpoint mentions (e : expr) : list mention :=
  match e with
  | EVar n => [MVar n]
  | ECall n args => MCall n :: flat_map mentions args
  | EStringify a => [MStr a]
  | ELit _ | ESizeOf _ => []
  | ECast _ e | EUnary _ e => mentions e
  | EConcat l => flat_map mentions l
  | EBinary l op r => assigned l op ++ mentions l ++ mentions r
  | ETernary a b d => mentions a ++ mentions b ++ mentions d
  end.

Fixpoint stmt_mentions (s : stmt) : list mention :=
  match s with
  | SAsm a => MAsm (asm_template a) :: flat_map mentions (map snd (asm_outputs a)) ++ flat_map mentions (map snd (asm_inputs a))
  | SExpr e => mentions e
  | SFnDecl _ => []
  | SVarDecl d => mentions (vd_rhs d)
  | SBlock l => flat_map stmt_mentions l
  | SIf e a b => mentions e ++ flat_map stmt_mentions a ++ flat_map stmt_mentions b
  | SDoWhile l e => flat_map stmt_mentions l ++ mentions e
  end.
Definition body_mentions (b : macro_body) : list mention :=
  match b with MbStatement s => stmt_mentions s | MbExpr e => mentions e end.

(** The predefined macros. *)
Definition source_location (s : str) : Prop := s = st "__LINE__" \/ s = st "__FILE__".
Definition limit_macro (s : str) : Prop :=
  In s (map st ["__SCHAR_MAX__"; "__SHRT_MAX__"; "__INT_MAX__"; "__LONG_MAX__"; "__LONG_LONG_MAX__"]).
(** A variable that the context resolves: a limit or an enumeration constant. *)
Definition resolved (cx : cgctx) (s : str) : Prop := ~ source_location s /\ (limit_macro s \/ cx_enum cx s <> None).

(** A line of assembly that is not inside a function. *)
Definition global_line (s : str) : Prop :=
  exists rest, s = st ".globl" ++ rest \/ s = st ".global" ++ rest \/ s = st ".section" ++ rest.

(** What cannot be expressed by a function or a constant. *)
Definition needs_macro (cx : cgctx) (m : mention) : Prop :=
  match m with
  | MVar (IPlain s) => ~ resolved cx s
  | MCall (IPlain s) => cx_fn cx s = None
  | MStr (EVar (IPlain s)) => source_location s
  | MAssign _ => True
  | MAsm t => Exists global_line t
  | _ => False
  end.

(** No dereference. *)
Fixpoint no_deref (e : expr) : Prop :=
  match e with
  | EVar _ | EStringify _ | ELit _ | ESizeOf _ => True
  | ECall _ args => fold_right (fun e p => no_deref e /\ p) True args
  | ECast _ e => no_deref e
  | EUnary op e => op <> UDeref /\ no_deref e
  | EConcat l => fold_right (fun e p => no_deref e /\ p) True l
  | EBinary l _ r => no_deref l /\ no_deref r
  | ETernary a b d => no_deref a /\ no_deref b /\ no_deref d
  end.
