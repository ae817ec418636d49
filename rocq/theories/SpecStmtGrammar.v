(** The statement grammar of C11 6.8 and 6.7, over macro tokens, restricted to
    what the syntax trees can hold.

    [statement types supported ts s r] says: [ts] begins with a statement whose
    tree is [s], and [r] is what follows it.  As in SpecGrammar.v, the premises
    marked "supported" restrict the grammar to the part that the theorems cover. *)
From Verif Require Import Base Utf Lex LexFloat Token Ast ParseStmt SpecType SpecGrammar SpecAsmGrammar.
From Coq Require Import String List.
Import ListNotations.
Local Open Scope string_scope.
Local Open Scope list_scope.

(** The keywords of statements and declarations (6.4.1), and the ones for inline
    assembly. *)
Definition statement_keywords : list string :=
  ["if"; "else"; "do"; "while"; "static"; "asm"; "__asm"; "__asm__"].
Definition starts_with_keyword (ts : list mtoken) : Prop :=
  match ts with MIdent x :: _ => In x (map st statement_keywords) | _ => False end.
(** [x * ...] or [x y ...], where [x] may be pasted: what could be the beginning
    of a declaration. *)
Definition declaring (ts : list mtoken) : Prop :=
  exists n t r, names ts n (t :: r) /\ match t with MPunct p => p = st "*" | MIdent _ | MArg _ => True | _ => False end.
Definition next_is (t : mtoken) (ts : list mtoken) : Prop := exists r, uncomment ts = t :: r.

(** The statements that make up a branch or a loop body: those of a block, or
    the single statement. *)
Definition branch (s : stmt) : list stmt := match s with SBlock l => l | _ => [s] end.

Section Grammar.
Variable types : str -> bool.
Variable supported : bool.
Notation expression := (derives types supported Comma).

(** What ends an expression statement or a declaration: a semicolon.  A macro
    leaves the last one to its user, so the end of the tokens ends it as well. *)
Definition ended (r1 r : list mtoken) : Prop :=
  (uncomment r1 = P ";" :: r \/ uncomment r1 = [] /\ r = []) /\
  (* supported: no comment before the semicolon *)
  (supported = true -> uncomment r1 = r1).

Inductive statement : list mtoken -> stmt -> list mtoken -> Prop :=
(* 6.8.3 *)
| s_expression ts e r1 r :
    expression ts e r1 -> ~ starts_with_keyword ts -> ended r1 r ->
    (* supported: nothing that looks like a declaration *)
    (supported = true -> ~ declaring ts) ->
    statement ts (SExpr e) r
(* 6.8.2; a semicolon after a block is dropped *)
| s_block ts l r1 r :
    statements ts l r1 -> uncomment r1 = P "}" :: r -> (forall r', r <> P ";" :: r') -> statement (P "{" :: ts) (SBlock l) r
| s_block_semicolon ts l r1 r :
    statements ts l r1 -> uncomment r1 = P "}" :: P ";" :: r -> statement (P "{" :: ts) (SBlock l) r
(* 6.8.4.1; an else belongs to the nearest if that can take it *)
| s_if ts ts1 c r1 r2 s r :
    uncomment ts = P "(" :: ts1 -> expression (uncomment ts1) c r1 -> uncomment r1 = P ")" :: r2 ->
    statement (uncomment r2) s r -> ~ next_is (kw "else") r ->
    (* supported: no comment after the condition *)
    (supported = true -> uncomment r2 = r2) ->
    statement (kw "if" :: ts) (SIf c (branch s) []) r
| s_if_else ts ts1 c r1 r2 s1 r3 r4 s2 r :
    uncomment ts = P "(" :: ts1 -> expression (uncomment ts1) c r1 -> uncomment r1 = P ")" :: r2 ->
    statement (uncomment r2) s1 r3 -> uncomment r3 = kw "else" :: r4 -> statement (uncomment r4) s2 r ->
    (* supported: no comment after the condition *)
    (supported = true -> uncomment r2 = r2) ->
    statement (kw "if" :: ts) (SIf c (branch s1) (branch s2)) r
(* 6.8.5.2, at the end of the macro, without the semicolon *)
| s_do ts s r1 r2 r3 c r4 r :
    statement (uncomment ts) s r1 -> uncomment r1 = kw "while" :: r2 -> uncomment r2 = P "(" :: r3 ->
    expression (uncomment r3) c r4 -> uncomment r4 = P ")" :: r -> uncomment r = [] ->
    (* supported: no comments around while or at the end *)
    (supported = true -> uncomment r1 = r1 /\ uncomment r2 = r2 /\ r = []) ->
    statement (kw "do" :: ts) (SDoWhile (branch s) c) r
(* 6.8.5.2, with its semicolon; not in the supported part, the parser rejects it *)
| s_do_semicolon ts s r1 r2 r3 c r4 r5 r :
    statement (uncomment ts) s r1 -> uncomment r1 = kw "while" :: r2 -> uncomment r2 = P "(" :: r3 ->
    expression (uncomment r3) c r4 -> uncomment r4 = P ")" :: r5 -> uncomment r5 = P ";" :: r ->
    supported = false ->
    statement (kw "do" :: ts) (SDoWhile (branch s) c) r
(* 6.7 with one initialised variable; supported: without comments *)
| s_declaration T t x ts e r1 r :
    type_name types T t -> ~ starts_with_keyword T -> ~ In x (map st (keywords ++ statement_keywords)) ->
    derives types supported Assignment ts e r1 -> ended r1 r ->
    statement (T ++ MIdent x :: P "=" :: ts) (SVarDecl (mk_var_decl t (IPlain x) e false)) r
| s_static T t x ts e r1 r :
    type_name types T t -> ~ starts_with_keyword T -> ~ In x (map st (keywords ++ statement_keywords)) ->
    derives types supported Assignment ts e r1 -> ended r1 r ->
    statement (kw "static" :: T ++ MIdent x :: P "=" :: ts) (SVarDecl (mk_var_decl t (IPlain x) e true)) r
(* 6.7.6.3, with names for the parameters; static is dropped *)
| s_function (static : bool) T t x ts l r1 r :
    type_name types T t -> ~ starts_with_keyword T -> ~ In x (map st (keywords ++ statement_keywords)) ->
    parameters types supported ts l r1 -> ended r1 r ->
    statement ((if static then [kw "static"] else []) ++ T ++ MIdent x :: ts) (SFnDecl (mk_fn_decl t (IPlain x) l)) r
(* inline assembly *)
| s_assembly ts a r1 r : assembly types supported ts a r1 -> ended r1 r -> statement ts (SAsm a) r
with statements : list mtoken -> list stmt -> list mtoken -> Prop :=
| q_none r : statements r [] r
| q_some ts s r1 l r : statement (uncomment ts) s r1 -> statements r1 l r -> statements ts (s :: l) r.
End Grammar.

(** [body] is a list of C statements with the trees [l]. *)
Definition c_statements (types : str -> bool) (body : list mtoken) (l : list stmt) : Prop :=
  exists r, statements types false body l r /\ uncomment r = [].
(** ... within the supported part, with a semicolon or a brace somewhere, or
    with assembly that has a qualifier at the beginning. *)
Definition qualified_assembly (body : list mtoken) : Prop :=
  exists k q r, In k asm_keywords /\ In q asm_qualifiers /\ uncomment body = kw k :: kw q :: P "(" :: r.
Definition supported_statements (types : str -> bool) (body : list mtoken) (l : list stmt) : Prop :=
  (exists r, statements types true body l r /\ uncomment r = []) /\
  (In (P ";") body \/ In (P "{") body \/ qualified_assembly body).
(** The tree of a whole body. *)
Definition body_tree (l : list stmt) : stmt := match l with [s] => s | _ => SBlock l end.
