(** Texts in which every call is written out: brackets are matched, every name
    of a function-like macro is followed by an opening parenthesis, and [##]
    does not occur. *)
From Verif Require Import Base Token SpecCall SpecPaste SpecSet SpecTokens.
From Coq Require Import String List.
Local Open Scope list_scope.

Definition complete (function_like : str -> Prop) (l : list token) : Prop :=
  balanced l /\ ~ In hashhash l /\
  forall pre id post, l = pre ++ TIdent id :: post -> function_like id ->
  exists rest, post = TPunct (st "(") :: rest.

(** The names of the function-like macros after a history. *)
Definition names_function (h : list call) (id : str) : Prop :=
  exists ps b, defined (rev h) id = Some (DFn ps b).
