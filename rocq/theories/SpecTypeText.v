(** Types given as text (the argument of [Type::from_str]): the words of a text
    and the type names of C written with them. *)
From Verif Require Import Base Utf Lex LexFloat Token Ast SpecType.
From Coq Require Import String List.
Import ListNotations.
Local Open Scope string_scope.
Local Open Scope list_scope.

(** [written s ws]: the text [s] consists of the words [ws].  A star is a word of
    its own wherever it stands; the other words are the longest runs without
    white space and stars. *)
Definition star : N := 42.
Definition word_char (c : N) : Prop := is_white c = false /\ c <> star.
Definition word_ends (s : str) : Prop :=
  match s with [] => True | c :: _ => is_white c = true \/ c = star end.
Inductive written : str -> list str -> Prop :=
| w_end : written [] []
| w_space c s ws : is_white c = true -> written s ws -> written (c :: s) ws
| w_star s ws : written s ws -> written (star :: s) ([star] :: ws)
| w_word w s ws : w <> [] -> Forall word_char w -> word_ends s -> written s ws -> written (w ++ s) (w :: ws).

(** The words of the qualifiers, of a pointer declarator and of a name. *)
Definition quals_words (q : quals) : list str :=
  match q with QNone => [] | QC => [st "const"] | QV => [st "volatile"]
             | QCV => [st "const"; st "volatile"] | QVC => [st "volatile"; st "const"] end.
Definition star_words (q : quals) : list str := [star] :: quals_words q.

(** The type with the given pointers around it, the innermost first. *)
Definition point_q (t : ctype) (q : quals) : ctype := qualified (has_const q) (has_volatile q) (TyPtr t).

(** A name of a user-defined type: an identifier that is none of the keywords of
    type names. *)
Definition type_name `{Unicode} (n : str) : Prop :=
  is_identifier n = true /\ ~ In n (map st ("struct" :: type_keywords)).
