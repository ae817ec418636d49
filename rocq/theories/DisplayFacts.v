(** Lemmas about the messages of errors (Display.v). *)
From Verif Require Import Base Token ParseStmt Rust Display.
From Coq Require Import NArith String List Lia Bool.
Import ListNotations.
Local Open Scope list_scope.
Local Open Scope N_scope.

Definition digit_val (c : N) : N := if c <? 58 then c - 48 else c - 87.
Definition value (b : N) (s : str) : N := fold_left (fun a c => a * b + digit_val c) s 0.

Lemma digit_char_val d : digit_val (digit_char d) = d.
Proof.
  unfold digit_val, digit_char. destruct (N.ltb_spec d 10).
  - destruct (N.ltb_spec (48 + d) 58); lia.
  - destruct (N.ltb_spec (87 + d) 58); lia.
Qed.

Definition is_digit_char (c : N) : Prop := 48 <= c < 58 \/ 97 <= c < 103.

Lemma digit_char_is d : d < 16 -> is_digit_char (digit_char d).
Proof. unfold is_digit_char, digit_char. destruct (N.ltb_spec d 10); lia. Qed.

Lemma fold_value b s a : fold_left (fun a c => a * b + digit_val c) s a = a * b ^ N.of_nat (List.length s) + value b s.
Proof.
  unfold value. revert a. induction s as [|c s IH]; intro a; cbn [fold_left List.length].
  - rewrite N.pow_0_r. lia.
  - rewrite IH, (IH (0 * b + digit_val c)), Nnat.Nat2N.inj_succ, N.pow_succ_r'. ring.
Qed.

Lemma digits_value b f : 2 <= b -> forall n acc, n < b ^ N.of_nat f ->
  value b (digits b f n acc) = n * b ^ N.of_nat (List.length acc) + value b acc.
Proof.
  intro Hb. induction f as [|f IH]; intros n acc H.
  - cbn in H. assert (n = 0) by lia. subst. reflexivity.
  - cbn [digits].
    assert (Q : n = b * (n / b) + n mod b) by (apply N.div_mod; lia).
    assert (V : value b (digit_char (n mod b) :: acc) = (n mod b) * b ^ N.of_nat (List.length acc) + value b acc).
    { unfold value at 1. cbn [fold_left]. rewrite fold_value, digit_char_val. reflexivity. }
    destruct (N.eqb_spec (n / b) 0) as [E | E].
    + rewrite V. rewrite E in Q. rewrite Q at 2. rewrite N.mul_0_r, N.add_0_l. reflexivity.
    + rewrite IH.
      * rewrite V. cbn [List.length]. rewrite Nnat.Nat2N.inj_succ, N.pow_succ_r'. rewrite Q at 3. ring.
      * apply N.div_lt_upper_bound; [lia|]. rewrite Nnat.Nat2N.inj_succ, N.pow_succ_r' in H. exact H.
Qed.

Lemma number_value b n : 2 <= b -> value b (number b n) = n.
Proof.
  intro Hb. unfold number. rewrite digits_value.
  - cbn. lia.
  - exact Hb.
  - rewrite Nnat.Nat2N.inj_succ, Nnat.N2Nat.id.
    apply N.lt_le_trans with (2 ^ N.size n); [apply N.size_gt|].
    transitivity (b ^ N.size n); [apply N.pow_le_mono_l; exact Hb|]. apply N.pow_le_mono_r; lia.
Qed.

Lemma number_inj b n m : 2 <= b -> number b n = number b m -> n = m.
Proof. intros Hb E. rewrite <- (number_value b n Hb), <- (number_value b m Hb), E. reflexivity. Qed.

Lemma digits_chars b f : 2 <= b <= 16 -> forall n acc, Forall is_digit_char acc -> Forall is_digit_char (digits b f n acc).
Proof.
  intro Hb. induction f as [|f IH]; intros n acc H; cbn [digits]; [exact H|].
  assert (D : Forall is_digit_char (digit_char (n mod b) :: acc)).
  { constructor; [|exact H]. apply digit_char_is. pose proof (N.mod_lt n b). lia. }
  destruct (n / b =? 0); [exact D | apply IH, D].
Qed.

Lemma number_chars b n : 2 <= b <= 16 -> Forall is_digit_char (number b n).
Proof. intro H. apply digits_chars; [exact H | constructor]. Qed.

(** What stands before a character that occurs in neither. *)
Lemma split_at (P : N -> Prop) x a a' r r' : Forall P a -> Forall P a' -> ~ P x ->
  a ++ x :: r = a' ++ x :: r' -> a = a' /\ r = r'.
Proof.
  intros H H' Hx. revert a' H'. induction H as [|c a Hc H IH]; intros a' H' E.
  - destruct H' as [|c' a' Hc' H']; cbn in E; [injection E as E; auto|]. injection E as E _. subst. contradiction.
  - destruct H' as [|c' a' Hc' H']; cbn in E.
    + injection E as E _. subst. contradiction.
    + injection E as E1 E2. destruct (IH _ H' E2). subst. auto.
Qed.

Lemma split_at_end (P : N -> Prop) x a a' r r' : Forall P a -> Forall P a' -> ~ P x ->
  r ++ x :: a = r' ++ x :: a' -> a = a' /\ r = r'.
Proof.
  intros H H' Hx E. apply (f_equal (@rev N)) in E. rewrite !rev_app_distr in E. cbn [rev] in E.
  rewrite <- !app_assoc in E. cbn [app] in E.
  apply (split_at P x) in E; [|apply Forall_rev; assumption|apply Forall_rev; assumption|exact Hx].
  destruct E as [E1 E2]. split.
  - rewrite <- (rev_involutive a), E1. apply rev_involutive.
  - rewrite <- (rev_involutive r), E2. apply rev_involutive.
Qed.

Section Debug.
Variable pr : N -> bool.

Lemma debug_char_cases c :
  (c = 0 /\ debug_char pr c = [92; 48]) \/ (c = 9 /\ debug_char pr c = [92; 116]) \/
  (c = 13 /\ debug_char pr c = [92; 114]) \/ (c = 10 /\ debug_char pr c = [92; 110]) \/
  ((c = 34 \/ c = 92) /\ debug_char pr c = [92; c]) \/
  (c <> 34 /\ c <> 92 /\ pr c = true /\ debug_char pr c = [c]) \/
  (c <> 34 /\ c <> 92 /\ pr c = false /\ debug_char pr c = 92 :: 117 :: 123 :: number 16 c ++ [125]).
Proof.
  unfold debug_char.
  destruct (N.eqb_spec c 0); [tauto|]. destruct (N.eqb_spec c 9); [tauto|].
  destruct (N.eqb_spec c 13); [tauto|]. destruct (N.eqb_spec c 10); [tauto|].
  destruct (N.eqb_spec c 34); [cbn; tauto|]. destruct (N.eqb_spec c 92); [cbn; tauto|]. cbn [orb].
  destruct (pr c) eqn:E; [tauto|]. do 6 right. repeat split; auto.
Qed.

(** No code is the beginning of another one. *)
Lemma debug_char_code c d r s : debug_char pr c ++ r = debug_char pr d ++ s -> c = d /\ r = s.
Proof.
  intro E.
  destruct (debug_char_cases c) as [[? Ec]|[[? Ec]|[[? Ec]|[[? Ec]|[[[?|?] Ec]|[[? [? [? Ec]]]|[? [? [? Ec]]]]]]]]];
  destruct (debug_char_cases d) as [[? Ed]|[[? Ed]|[[? Ed]|[[? Ed]|[[[?|?] Ed]|[[? [? [? Ed]]]|[? [? [? Ed]]]]]]]]];
  rewrite Ec, Ed in E; cbn [app] in E; subst;
    try (injection E as E; subst; repeat match goal with H : ?x <> ?x |- _ => destruct H end; auto; fail);
    try discriminate E;
    try (injection E; intros; subst; congruence).
  injection E as E. rewrite <- !app_assoc in E. cbn [app] in E.
  apply (split_at is_digit_char) in E; [|apply number_chars; lia|apply number_chars; lia|unfold is_digit_char; lia].
  destruct E as [E1 E2]. apply number_inj in E1; [auto|lia].
Qed.

Lemma debug_char_nonquote c r s : debug_char pr c ++ r <> 34 :: s.
Proof.
  destruct (debug_char_cases c) as [[? Ec]|[[? Ec]|[[? Ec]|[[? Ec]|[[[?|?] Ec]|[[? [? [? Ec]]]|[? [? [? Ec]]]]]]]]];
    rewrite Ec; cbn; congruence.
Qed.

Lemma debug_inj s : forall t r q, concat (map (debug_char pr) s) ++ 34 :: r = concat (map (debug_char pr) t) ++ 34 :: q -> s = t.
Proof.
  induction s as [|c s IH]; intros [|d t] r q E; cbn [map concat] in E; rewrite ?app_nil_l, <- ?app_assoc in E.
  - reflexivity.
  - symmetry in E. apply debug_char_nonquote in E. destruct E.
  - apply debug_char_nonquote in E. destruct E.
  - apply debug_char_code in E. destruct E as [-> E]. f_equal. exact (IH _ _ _ E).
Qed.

Lemma debug_str_inj s t : debug_str pr s = debug_str pr t -> s = t.
Proof. intro E. unfold debug_str in E. injection E as E. exact (debug_inj _ _ _ _ E). Qed.

Lemma debug_char_visible c : Forall (fun x => pr x = true \/ 32 < x < 127) (debug_char pr c).
Proof.
  assert (K : forall l, Forall (fun x => 32 < x < 127) l -> Forall (fun x => pr x = true \/ 32 < x < 127) l).
  { intros l. apply Forall_impl. auto. }
  destruct (debug_char_cases c) as [[? Ec]|[[? Ec]|[[? Ec]|[[? Ec]|[[[?|?] Ec]|[[? [? [? Ec]]]|[? [? [? Ec]]]]]]]]];
    rewrite Ec; subst; try (apply K; repeat constructor; lia).
  - constructor; [left; assumption | constructor].
  - apply K. constructor; [lia|]. constructor; [lia|]. constructor; [lia|]. apply Forall_app. split.
    + eapply Forall_impl; [|apply number_chars; lia]. unfold is_digit_char. intros. cbn in *. lia.
    + constructor; [lia | constructor].
Qed.

End Debug.
