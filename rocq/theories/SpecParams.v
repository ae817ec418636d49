(** What a list of macro parameters is: identifiers, then an optional ellipsis,
    with comments anywhere. *)
From Verif Require Import Base Utf Lex LexFloat Token.
From Coq Require Import String List.
Import ListNotations.
Local Open Scope list_scope.

Definition no_comment (t : mtoken) : bool := match t with MComment _ => false | _ => true end.

Definition is_params (ts : list mtoken) (names : list str) : Prop :=
  exists ids dots,
    filter no_comment ts = map MIdent ids ++ (if dots : bool then [MPunct (st "...")] else []) /\
    names = ids ++ (if dots then [st "..."] else []).
