(** Specification of identifiers and comments as text. *)
From Verif Require Import Base Lex SpecInt SpecString SpecTokens.
From Coq Require Import String List.
Local Open Scope string_scope.
Local Open Scope list_scope.

(** A character of an identifier: itself, or a universal character name
    (C11 6.4.3), that is a backslash, [u] and four hexadecimal digits, or a
    backslash, [U] and eight of them. *)
Inductive character : str -> N -> Prop :=
| ch_itself c : c <> 92%N -> character [c] c
| ch_short ds v : numeral 16 ds (Z.of_N v) -> length ds = 4 -> scalar v -> character (92%N :: 117%N :: ds) v
| ch_long ds v : numeral 16 ds (Z.of_N v) -> length ds = 8 -> scalar v -> character (92%N :: 85%N :: ds) v.

(** The text [s] spells the characters [t]. *)
Definition spells (s t : str) : Prop := exists parts, Forall2 character parts t /\ s = concat parts.

(** An identifier of C (C11 6.4.2.1): [s] is its text and [id] the identifier. *)
Definition c_identifier `{Unicode} (s id : str) : Prop := well_formed_identifier id /\ spells s id.

(** What may follow the first character of an identifier. *)
Definition c_continuation `{Unicode} (s id : str) : Prop :=
  id <> [] /\ Forall (fun c => is_xid_continue c = true) id /\ spells s id.

(** Universal character names stand nowhere, or already at the beginning. *)
Definition names_first (s id : str) : Prop := s = id \/ exists r, s = 92%N :: r.

(** A comment (C11 6.4.9): it ends with the first terminator, and nothing follows. *)
Definition c_comment (s c : str) : Prop :=
  s = st "/*" ++ c ++ st "*/" /\ ~ exists a b, c = a ++ st "*/" ++ b.
