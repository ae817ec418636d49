(** Specification of object-like macro replacement: the C rescanning rule. *)
From Verif Require Import Base Token SpecPaste.
From Coq Require Import List String.
Local Open Scope list_scope.

Section S.
(** What two tokens paste to (C17), and the defined object-like macros. *)
Variable paste : token -> token -> res xerr token.
Variable macro : str -> option (list token).

(** An expansion that did not succeed. *)
Definition failed {A B} (r : res xerr A) : res xerr B :=
  match r with ROk _ => RFuel | RErr e => RErr e | RPanic => RPanic | RFuel => RFuel end.
Definition succeeded {A} (r : res xerr A) : Prop := exists a, r = ROk a.

(** The replacement list of a macro: [##] applied; [__VA_ARGS__] is not allowed. *)
Inductive replacement (body : list token) : res xerr (list token) -> Prop :=
| rp_var_args : In TVarArgs body -> replacement body (RErr NonVariadicVarArgs)
| rp_body r : ~ In TVarArgs body -> pasted paste body r -> replacement body r.

(** [rescan hide l r]: [l] is replaced while the macros in [hide] are being
    replaced.  A macro name not in [hide] is replaced by its replacement list,
    rescanned with that macro hidden; every other token is kept. *)
Inductive rescan : list str -> list token -> res xerr (list token) -> Prop :=
| rs_nil hide : rescan hide [] (ROk [])
| rs_keep hide t l r :
    (forall id, t = TIdent id -> In id hide \/ macro id = None) ->
    rescan hide l r -> rescan hide (t :: l) (rmap (cons t) r)
| rs_replace hide id body b e l r :
    ~ In id hide -> macro id = Some body -> replacement body (ROk b) ->
    rescan (id :: hide) b (ROk e) -> rescan hide l r ->
    rescan hide (TIdent id :: l) (rmap (app e) r)
| rs_bad_body hide id body p l :
    ~ In id hide -> macro id = Some body -> replacement body p -> ~ succeeded p ->
    rescan hide (TIdent id :: l) (failed p)
| rs_bad_replacement hide id body b p l :
    ~ In id hide -> macro id = Some body -> replacement body (ROk b) ->
    rescan (id :: hide) b p -> ~ succeeded p ->
    rescan hide (TIdent id :: l) (failed p).
End S.
