(** The grammar of inline assembly (GCC manual, 6.47.2) and of function
    declarations, over macro tokens, restricted to what the syntax trees can
    hold.  As in SpecGrammar.v, the premises marked "supported" restrict the
    grammar to the part that the theorems cover. *)
From Verif Require Import Base Utf Lex LexFloat Token Ast SpecInt SpecString SpecAsm SpecType SpecGrammar.
From Coq Require Import String List.
Import ListNotations.
Local Open Scope string_scope.
Local Open Scope list_scope.

Definition string_token (b : list N) : mtoken := MLit (LString (SOrdinary b)).
Definition a_string (ts : list mtoken) : Prop := exists s r, ts = MLit (LString s) :: r.

(** The register classes that satisfy a constraint letter: any general register
    (r, and g, which also allows memory and constants), a, b, c or d (Q), one
    with a lowest byte (q), a floating-point register (f). *)
Definition letter_classes : list (N * reg_constraint) :=
  [(114, RcReg); (81, RcRegAbcd); (113, RcRegByte); (102, RcFreg); (103, RcReg)]%N.

Section Grammar.
Variable types : str -> bool.
Variable supported : bool.
Notation expression := (derives types supported Comma).

(** ** Lists *)

Section List.
(** [tight]: no comment after a comma. *)
Context {A : Type} (tight : bool) (item : list mtoken -> A -> list mtoken -> Prop).
(** Items after the first, each after a comma. *)
Inductive more_items : list mtoken -> list A -> list mtoken -> Prop :=
| mi_none r : more_items r [] r
| mi_some r1 r2 x r3 l r : uncomment r1 = P "," :: r2 -> item (uncomment r2) x r3 -> more_items r3 l r ->
    (tight = true -> uncomment r2 = r2) -> more_items r1 (x :: l) r.
Inductive items : list mtoken -> list A -> list mtoken -> Prop :=
| it_none r : items r [] r
| it_some ts x r1 l r : item ts x r1 -> more_items r1 l r -> items ts (x :: l) r.
(** Items after a colon, or nothing. *)
Inductive section : list mtoken -> list A -> list mtoken -> Prop :=
| se_absent ts : (forall r, uncomment ts <> P ":" :: r) -> section ts [] ts
| se_present ts ts1 l r : uncomment ts = P ":" :: ts1 -> items (uncomment ts1) l r -> section ts l r.
End List.

(** ** Strings *)

(** Adjacent string literals are one string (C11 5.1.1.2, phase 6). *)
Inductive literals : list mtoken -> list N -> list mtoken -> Prop :=
| li_one b r : ~ a_string (uncomment r) -> literals (string_token b :: r) b r
| li_more b ts bs r : literals (uncomment ts) bs r ->
    (* supported: no comment between them *)
    (supported = true -> uncomment ts = ts) ->
    literals (string_token b :: ts) (b ++ bs) r.
(** A string literal with the text [s]. *)
Definition text_literal (ts : list mtoken) (s : str) (r : list mtoken) : Prop :=
  Forall scalar s /\ literals ts (utf8_encode s) r.

(** ** Inline assembly *)

(** The lines of the Rust template for the template [s] (see SpecAsm.v). *)
Definition template (s : str) (l : list str) : Prop :=
  exists ps out, pieces ps /\ text ps = s /\ rust_template ps out /\ trimmed_lines out l /\
  (* supported: small numbers, and no brace after a plain character *)
  (supported = true -> small_refs ps /\ run_braces false ps).

(** A constraint: letters, each of them an alternative, or the number of an
    operand. *)
Inductive constraint : str -> reg_constraint -> Prop :=
| co_letters w l1 c k l2 : Forall ascii_letter w -> letter_classes = l1 ++ (c, k) :: l2 -> In c w ->
    (* supported: the first alternative of [letter_classes] *)
    (supported = true -> forall x, In x l1 -> ~ In (fst x) w) ->
    constraint w k
| co_number w n : numeral 10 w (Z.of_N n) ->
    (* supported: small numbers *)
    (supported = true -> (n < 256)%N) ->
    constraint w (RcDigit n).

(** An expression in parentheses. *)
Definition in_parentheses (r : list mtoken) (e : expr) (r' : list mtoken) : Prop :=
  exists ts r1, uncomment r = P "(" :: ts /\ expression (uncomment ts) e r1 /\ uncomment r1 = P ")" :: r' /\
  (* supported: no comment before it *)
  (supported = true -> uncomment r = r).

(** [ "=r" (e) ] is written, [ "+r" (e) ] read and written. *)
Inductive output_operand : list mtoken -> asm_dir * reg_constraint * expr -> list mtoken -> Prop :=
| oo_write ts w r1 k e r : text_literal ts (61%N :: w) r1 -> constraint w k -> in_parentheses r1 e r ->
    output_operand ts (DOut, k, e) r
| oo_both ts w r1 k e r : text_literal ts (43%N :: w) r1 -> constraint w k -> in_parentheses r1 e r ->
    output_operand ts (DInOut, k, e) r.
Inductive input_operand : list mtoken -> reg_constraint * expr -> list mtoken -> Prop :=
| io ts w r1 k e r : text_literal ts w r1 -> constraint w k -> in_parentheses r1 e r -> input_operand ts (k, e) r.

(** The qualifiers, which the syntax tree does not hold. *)
Definition asm_keywords : list string := ["asm"; "__asm"; "__asm__"].
Definition asm_qualifiers : list string := ["volatile"; "__volatile"; "__volatile__"; "inline"; "__inline"; "__inline__"; "goto"].
Definition qualifiers (q : list mtoken) : Prop :=
  Forall (fun t => In t (map kw asm_qualifiers)) q /\
  (* supported: at most one, without underscores *)
  (supported = true -> q = [] \/ exists k, In k ["volatile"; "inline"; "goto"] /\ q = [kw k]).

Inductive assembly : list mtoken -> asm_stmt -> list mtoken -> Prop :=
| assembly_intro k q ts s lines r1 outs r2 ins r3 clobbers r4 r :
    In k asm_keywords -> qualifiers q ->
    text_literal (uncomment ts) s r1 -> template s lines ->
    section false output_operand r1 outs r2 -> section false input_operand r2 ins r3 -> section false text_literal r3 clobbers r4 ->
    uncomment r4 = P ")" :: r ->
    assembly (kw k :: q ++ P "(" :: ts) (mk_asm lines outs ins clobbers) r.

(** ** Function declarations *)

(** [T x]; supported: without comments. *)
Inductive parameter : list mtoken -> ctype * ident_expr -> list mtoken -> Prop :=
| pa T t x r : type_name types T t -> ~ In x (map st keywords) -> parameter (T ++ MIdent x :: r) (t, IPlain x) r.
(** [(T1 x1, T2 x2)]; supported: no comment after a comma. *)
Inductive parameters : list mtoken -> list (ctype * ident_expr) -> list mtoken -> Prop :=
| ps ts l r1 r : items supported parameter (uncomment ts) l r1 -> uncomment r1 = P ")" :: r -> parameters (P "(" :: ts) l r
(* not supported: [(void)] *)
| ps_void ts r1 r : supported = false -> uncomment ts = kw "void" :: r1 -> uncomment r1 = P ")" :: r -> parameters (P "(" :: ts) [] r.
End Grammar.
