(** Rounding: the standard library's [spec_float] operations, as used by the
    model, round to nearest even.  Uses Flocq, and with it the axioms of the
    standard library's real numbers. *)
From Verif Require Import Base LexFloat SpecFloatLit.
From Coq Require Import ZArith Reals Lia Lra SpecFloat.
From Flocq Require Import Core BinarySingleNaN.
Local Open Scope R_scope.

Lemma bpow2 e : bpow radix2 e = powerRZ 2 e.
Proof. apply (bpow_powerRZ radix2). Qed.

Section Round.
Variable prec emax : Z.
Context {Hp : Prec_gt_0 prec} {Hpe : Prec_lt_emax prec emax}.
Hypothesis Hp1 : (1 < prec)%Z.
Notation fexp := (SpecFloat.fexp prec emax).
Notation emin := (SpecFloat.emin prec emax).

Lemma fp_number_format y : fp_number prec emax y <-> generic_format radix2 fexp y.
Proof.
  split.
  - intros (m & e & Hm & He & ->). apply (generic_format_FLT radix2 emin prec). exists (Float radix2 m e); simpl.
    + unfold F2R. simpl. now rewrite bpow2.
    + exact Hm.
    + exact He.
  - intros H. apply (FLT_format_generic radix2 emin prec) in H. destruct H as [[m e] E Hm He]. exists m, e. split; [exact Hm|].
    split; [exact He|]. rewrite E. unfold F2R. simpl. now rewrite bpow2.
Qed.

Lemma round_nearest_even_R x : nearest_even prec emax x (round radix2 fexp ZnearestE x).
Proof.
  assert (Hv : Valid_exp fexp) by exact (FLT_exp_valid emin prec).
  assert (Hex : Exists_NE radix2 fexp) by exact (exists_NE_FLT radix2 emin prec (or_intror Hp1)).
  pose proof (round_NE_pt radix2 fexp x) as [[Hf Hn] Hne].
  split; [now apply fp_number_format|]. split.
  - intros y Hy. apply fp_number_format in Hy. now apply Hn.
  - intros y Hy Hd Hx. apply fp_number_format in Hy. destruct Hne as [Hne|Hu].
    + destruct Hne as ([m e] & E & Hc & Hev). simpl in Hev. exists m, e. split; [easy|].
      assert (Hg : generic_format radix2 fexp (F2R (Float radix2 m e))) by (apply generic_format_canonical; exact Hc).
      split; [|split].
      * pose proof (FLT_format_generic radix2 emin prec _ Hg) as [[m' e'] E' Hm' He']. simpl in Hm', He'.
        destruct (Z.eq_dec m 0) as [-> |Hm0]; [simpl; apply (Zpower_gt_0 radix2); apply Zlt_le_weak; exact Hp|].
        apply lt_IZR. rewrite (IZR_Zpower radix2) by (apply Zlt_le_weak; exact Hp). rewrite abs_IZR.
        assert (Hce : e = cexp radix2 fexp (F2R (Float radix2 m e))) by exact Hc.
        assert (Hb : Rabs (F2R (Float radix2 m e)) < bpow radix2 (e + prec)).
        { pose proof (bpow_mag_gt radix2 (F2R (Float radix2 m e))) as Hg'.
          eapply Rlt_le_trans; [exact Hg'|]. apply bpow_le. unfold cexp, SpecFloat.fexp in Hce. lia. }
        unfold F2R in Hb. simpl in Hb. rewrite Rabs_mult, (Rabs_pos_eq (bpow _ _)) in Hb by apply bpow_ge_0.
        rewrite Z.add_comm, bpow_plus in Hb. apply Rmult_lt_reg_r in Hb; [exact Hb|apply bpow_gt_0].
      * assert (Hce : e = cexp radix2 fexp (F2R (Float radix2 m e))) by exact Hc. unfold cexp, SpecFloat.fexp, SpecFloat.emin in Hce. lia.
      * rewrite E. unfold F2R. simpl. now rewrite bpow2.
    + exfalso. apply Hd. apply Hu. split; [easy|]. intros g Hg. rewrite Hx. now apply Hn.
Qed.

Lemma round_aux_same sx mx ex lx :
  SpecFloat.binary_round_aux prec emax sx mx ex lx = BinarySingleNaN.binary_round_aux prec emax mode_NE sx mx ex lx.
Proof.
  unfold SpecFloat.binary_round_aux, BinarySingleNaN.binary_round_aux.
  destruct (shr_fexp prec emax mx ex lx) as [mrs e]. simpl.
  assert (E : forall m l, round_nearest_even m l = choice_mode mode_NE sx m l).
  { intros m [|[| |]]; try reflexivity. simpl. unfold Round.cond_incr. now destruct (Z.even m). }
  now rewrite E.
Qed.

Lemma rounded_of x z : (if Rlt_bool (Rabs (round radix2 fexp (round_mode mode_NE) x)) (bpow radix2 emax) then
    SF2R radix2 z = round radix2 fexp (round_mode mode_NE) x /\ is_finite_SF z = true
  else z = binary_overflow prec emax mode_NE (Rlt_bool x 0)) -> rounded prec emax x z.
Proof.
  intros H. exists (round radix2 fexp ZnearestE x). split; [apply round_nearest_even_R|].
  simpl round_mode in H. revert H. case Rlt_bool_spec; intros Hb H; rewrite bpow2 in Hb.
  - destruct H as [E Hf]. destruct z as [s|s| |s m e]; try discriminate Hf; [now rewrite <- E|]. split; [|easy].
    rewrite <- E. simpl. unfold F2R. simpl. rewrite bpow2. now destruct s.
  - rewrite H. simpl. split; [easy|]. case Rlt_bool_spec; intros Hx; split; intros; try easy; lra.
Qed.

Lemma binary_round_rounded (s : bool) (m : positive) (e : Z) : 
  rounded prec emax ((if s then - IZR (Zpos m) else IZR (Zpos m)) * powerRZ 2 e) (SpecFloat.binary_round prec emax s m e) /\
  (forall b, SpecFloat.binary_round prec emax s m e = S754_zero b -> b = s).
Proof.
  assert (E : SpecFloat.binary_round prec emax s m e = BinarySingleNaN.binary_round prec emax mode_NE s m e).
  { unfold SpecFloat.binary_round, BinarySingleNaN.binary_round, shl_align_fexp. destruct (shl_align _ _ _). apply round_aux_same. }
  rewrite E. pose proof (binary_round_correct prec emax Hp Hpe mode_NE s m e) as [_ H]. cbv zeta in H.
  assert (Ex : F2R (Float radix2 (cond_Zopp s (Zpos m)) e) = (if s then - IZR (Zpos m) else IZR (Zpos m)) * powerRZ 2 e).
  { unfold F2R. simpl. rewrite bpow2. now destruct s. }
  rewrite Ex in H. split.
  - apply rounded_of. revert H. case Rlt_bool_spec; [intuition|]. intros _ ->. f_equal.
    assert (Hpos : 0 < IZR (Zpos m) * powerRZ 2 e) by (apply Rmult_lt_0_compat; [now apply IZR_lt|apply powerRZ_lt; lra]).
    symmetry. destruct s; [apply Rlt_bool_true; lra|apply Rlt_bool_false; lra].
  - intros b Hb. rewrite Hb in H. revert H. case Rlt_bool_spec; [now intros _ (_ & _ & H)|discriminate].
Qed.

Lemma div_rounded (m d : positive) : 
  let '(q, e, l) := SFdiv_core_binary prec emax (Zpos m) 0 (Zpos d) 0 in
  rounded prec emax (IZR (Zpos m) / IZR (Zpos d)) (SpecFloat.binary_round_aux prec emax false q e l) /\
  (forall b, SpecFloat.binary_round_aux prec emax false q e l = S754_zero b -> b = false).
Proof.
  pose proof (Bdiv_correct_aux prec emax Hp Hpe mode_NE false m 0 false d 0) as H. cbv zeta in H.
  destruct (SFdiv_core_binary prec emax (Zpos m) 0 (Zpos d) 0) as [[q e] l]. rewrite round_aux_same. destruct H as [_ H].
  simpl cond_Zopp in H. simpl xorb in H. unfold F2R in H. simpl Fnum in H. simpl Fexp in H. simpl bpow in H. rewrite !Rmult_1_r in H. split.
  - apply rounded_of. revert H. case Rlt_bool_spec; [intuition|]. intros _ ->. f_equal. symmetry. apply Rlt_bool_false.
    apply Rmult_le_pos; [now apply IZR_le|]. left. apply Rinv_0_lt_compat. now apply IZR_lt.
  - intros b Hb. rewrite Hb in H. revert H. case Rlt_bool_spec; [now intros _ (_ & _ & H)|discriminate].
Qed.

Lemma nearest_zero : nearest_even prec emax 0 0.
Proof.
  pose proof (round_nearest_even_R 0) as H. rewrite round_0 in H; [exact H|]. apply valid_rnd_N.
Qed.

Lemma IZR_pow10 k : (0 <= k)%Z -> IZR (10 ^ k) = powerRZ 10 k.
Proof.
  intros Hk. rewrite <- (Z2Nat.id k) by easy. generalize (Z.to_nat k). intros n. rewrite <- pow_powerRZ, <- pow_IZR. reflexivity.
Qed.

(** Reading a decimal. *)
Lemma round_decimal_rounded m k : (0 <= m)%Z ->
  rounded prec emax (decimal_value m k) (round_decimal prec emax m k) /\
  (forall b, round_decimal prec emax m k = S754_zero b -> b = false).
Proof.
  intros Hm. unfold round_decimal, decimal_value. destruct m as [|p|p]; [| |lia].
  - split; [|intros b; now intros [= <-]]. exists 0. rewrite Rmult_0_l. split; [apply nearest_zero|easy].
  - destruct (Z.leb_spec 0 k) as [Hk|Hk].
    + assert (Hpos : (0 < Zpos p * 10 ^ k)%Z) by (apply Z.mul_pos_pos; [easy|now apply Z.pow_pos_nonneg]).
      rewrite <- IZR_pow10, <- mult_IZR by easy. destruct (Zpos p * 10 ^ k)%Z as [|q|q] eqn:E; try lia. simpl.
      pose proof (binary_round_rounded false q 0) as H. simpl powerRZ in H. rewrite Rmult_1_r in H. exact H.
    + assert (Hpos : (0 < 10 ^ (- k))%Z) by (apply Z.pow_pos_nonneg; lia). assert (Hv : powerRZ 10 k = / IZR (10 ^ (- k))).
      { rewrite IZR_pow10 by lia. rewrite <- powerRZ_neg', Z.opp_involutive. reflexivity. }
      rewrite Hv. destruct (10 ^ (- k))%Z as [|d|d] eqn:E; try lia.
      pose proof (div_rounded p d) as H. destruct (SFdiv_core_binary prec emax (Zpos p) 0 (Zpos d) 0) as [[q e] l]. exact H.
Qed.
End Round.

Global Instance prec24 : Prec_gt_0 24 := eq_refl.
Global Instance prec53 : Prec_gt_0 53 := eq_refl.
Global Instance emax128 : Prec_lt_emax 24 128 := eq_refl.
Global Instance emax1024 : Prec_lt_emax 53 1024 := eq_refl.
