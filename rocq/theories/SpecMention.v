(** The names that an expansion is about, and macro sets that agree on them. *)
From Verif Require Import Base Lex LexFloat Token MacroSet SpecTokens SpecLexical SpecRename.
From Coq Require Import String List.
Import ListNotations.
Local Open Scope list_scope.

Section S.
Context `{Unicode}.

(** A set of names. *)
Variable R : str -> Prop.

(** The same macros have these names. *)
Definition agree_on (m1 m2 : macro_set) : Prop := forall n, R n ->
  sm_get (var_macros m2) n = sm_get (var_macros m1) n /\ sm_get (fn_macros m2) n = sm_get (fn_macros m1) n.

(** The tokens of the macros with these names satisfy [W], except for the parameters. *)
Definition all_tokens (W : str -> Prop) (m : macro_set) : Prop := forall n, R n ->
  (forall body t, sm_get (var_macros m) n = Some body -> In t body -> W t) /\
  (forall params body t, sm_get (fn_macros m) n = Some (params, body) -> In t body ->
     ~ (In t params /\ parameter_name t) -> W t).

(** A token of a text without [##] whose names are in the set.  ([##] may be written
    after line continuations.) *)
Definition in_set (t : str) : Prop :=
  (forall id, c_identifier t id -> R id) /\ forall before, t <> before ++ st "##".

(** A token of any text whose names are in the set, and that does not begin with a
    universal character name. *)
Definition plainly_in_set (t : str) : Prop :=
  (well_formed_identifier t -> R t) /\ exists c r, t = c :: r /\ c <> 92%N.

(** With a name, all the longer names that begin with it are in the set. *)
Definition prefix_closed : Prop := forall a b, R a -> R (a ++ b).
End S.
