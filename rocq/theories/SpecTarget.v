(** Versions of Rust (C64): SemVer 2.0.0, and what a target provides. *)
From Verif Require Import Base Lex SpecInt.
From Coq Require Import String List ZArith.
Import ListNotations.
Local Open Scope string_scope.
Local Open Scope list_scope.

(** [a.b.c]. *)
Fixpoint dotted (l : list str) : str :=
  match l with
  | [] => []
  | [x] => x
  | x :: l' => x ++ st "." ++ dotted l'
  end.
(** A number without leading zeros, of at most 64 bits. *)
Definition no_leading_zero (s : str) : Prop := forall s', s = st "0" ++ s' -> s' = [].
Definition number (s : str) (v : Z) : Prop := numeral 10 s v /\ no_leading_zero s /\ (v < 2 ^ 64)%Z.
(** Letters, digits and hyphens. *)
Definition word_char (c : N) : Prop :=
  (48 <= c <= 57 \/ 65 <= c <= 90 \/ 97 <= c <= 122 \/ c = 45)%N.
Definition all_digits (s : str) : Prop := Forall (fun c => (48 <= c <= 57)%N) s.
Definition build_id (s : str) : Prop := s <> [] /\ Forall word_char s.
Definition pre_id (s : str) : Prop := build_id s /\ (all_digits s -> no_leading_zero s).
(** [version t x y pre]: [t] is a version [x.y._], a pre-release if [pre]. *)
Inductive version : str -> Z -> Z -> bool -> Prop :=
| version_intro a b c x y z pre build :
    number a x -> number b y -> number c z ->
    (pre = [] \/ Forall pre_id pre) -> (build = [] \/ Forall build_id build) ->
    version (dotted [a; b; c] ++ match pre with [] => [] | _ => st "-" ++ dotted pre end
                              ++ match build with [] => [] | _ => st "+" ++ dotted build end)
            x y (match pre with [] => false | _ => true end).

(** What was released with Rust [1.n] is there from that release on, and for
    targets that are not stated or not versions. *)
Definition provides (target : option str) (n : Z) : Prop :=
  match target with
  | None => True
  | Some t => forall x y pre, version t x y pre -> pre = false /\ (x > 1 \/ x = 1 /\ y >= n)%Z
  end.
