(** Decimal numerals and [dec_val]. *)
From Verif Require Import Base Lex LexFloat SpecInt IntFacts.
From Coq Require Import String List ZArith Lia Bool.
Local Open Scope list_scope.

Lemma digit10 c d : digit 10 c d <-> is_digit c = true /\ d = (Z.of_N c - 48)%Z.
Proof. unfold digit, is_digit. rewrite andb_true_iff, !N.leb_le. lia. Qed.

Lemma numeral10 s v : numeral 10 s v <-> s <> [] /\ forallb is_digit s = true /\ v = dec_val s.
Proof.
  rewrite numeral_from_iff. unfold dec_val.
  assert (H : forall s a v, numeral_from 10 a s v <-> forallb is_digit s = true /\
    v = fold_left (fun a c => a * 10 + (Z.of_N c - 48))%Z s a).
  { clear. induction s as [|c s IH]; intros a v; simpl.
    - split; [now inversion 1|]. intros [_ ->]. constructor.
    - split.
      + inversion 1 as [|? ? d ? ? Hd Hn]; subst. apply digit10 in Hd. destruct Hd as [-> ->]. apply IH in Hn. exact Hn.
      + intros [Hc Hv]. apply andb_prop in Hc. destruct Hc as [Hc Hs]. econstructor; [apply digit10; eauto|]. now apply IH. }
  now rewrite H.
Qed.
