(** The arithmetic of the standard library's [spec_float], as used for folding,
    gives the result rounded to nearest even. *)
From Verif Require Import Base LexFloat SpecFloatLit FloatFacts.
From Coq Require Import ZArith Reals Lia Lra SpecFloat.
From Flocq Require Import Core BinarySingleNaN.
Local Open Scope R_scope.

Section Ops.
Variable prec emax : Z.
Context {Hp : Prec_gt_0 prec} {Hpe : Prec_lt_emax prec emax}.
Hypothesis Hp1 : (1 < prec)%Z.
Notation fexp := (SpecFloat.fexp prec emax).
Notation emin := (SpecFloat.emin prec emax).
Notation round_ne := (round radix2 fexp ZnearestE).

(** ** Rounding is unique *)

Lemma even_canonical y m e : fp_repr prec emax y m e -> Z.even m = true -> forall f, y = F2R f -> canonical radix2 fexp f -> Z.even (Fnum f) = true.
Proof.
  intros (Hm & He & Ey) Ev [mf ef] Ef C. cbn [Fnum]. unfold canonical in C. cbn [Fexp] in C.
  assert (Ey' : y = F2R (Float radix2 m e)) by (rewrite Ey; unfold F2R; cbn; now rewrite bpow2).
  destruct (Z.eq_dec m 0) as [-> |M0].
  { assert (Z0 : F2R (Float radix2 mf ef) = 0) by (rewrite <- Ef, Ey'; apply F2R_0). apply eq_0_F2R in Z0. cbn in Z0. now rewrite Z0. }
  assert (Mg : (mag radix2 y <= prec + e)%Z).
  { apply mag_le_bpow; [rewrite Ey'; intro Q; apply eq_0_F2R in Q; exact (M0 Q)|]. rewrite Ey'. rewrite <- F2R_Zabs. rewrite bpow_plus.
    unfold F2R. cbn [Fnum Fexp]. apply Rmult_lt_compat_r; [apply bpow_gt_0|]. rewrite <- (IZR_Zpower radix2) by lia. now apply IZR_lt. }
  assert (L : (ef <= e)%Z).
  { rewrite C. rewrite <- Ef. unfold cexp, SpecFloat.fexp, SpecFloat.emin. lia. }
  assert (Q : F2R (Float radix2 mf ef) = F2R (Float radix2 (m * 2 ^ (e - ef)) ef)).
  { rewrite <- Ef, Ey'. rewrite (F2R_change_exp radix2 ef m e L). reflexivity. }
  apply eq_F2R in Q. rewrite Q, Z.even_mul, Ev. reflexivity.
Qed.
Lemma nearest_unique x r : nearest_even prec emax x r -> r = round_ne x.
Proof.
  intros (Fr & Nr & Tr).
  assert (Hv : Valid_exp fexp) by exact (FLT_exp_valid emin prec).
  assert (Hex : Exists_NE radix2 fexp) by exact (exists_NE_FLT radix2 emin prec (or_intror Hp1)).
  pose proof (round_nearest_even_R prec emax Hp1 x) as (Fr' & Nr' & Tr').
  destruct (Req_dec r (round_ne x)) as [E|D]; [exact E|exfalso].
  set (r' := round_ne x) in *.
  assert (E : Rabs (r - x) = Rabs (r' - x)) by (apply Rle_antisym; auto).
  destruct (Tr r' Fr' (not_eq_sym D) (eq_sym E)) as (m & e & Em & Rm).
  destruct (Tr' r Fr D E) as (m' & e' & Em' & Rm').
  apply fp_number_format in Fr as Gr; [|exact Hp]. apply fp_number_format in Fr' as Gr'; [|exact Hp].
  assert (NF : ~ generic_format radix2 fexp x).
  { intros G. apply fp_number_format in G; [|exact Hp]. pose proof (Nr x G) as A. rewrite (Rminus_diag_eq x x), Rabs_R0 in A by reflexivity.
    pose proof (Rabs_pos (r - x)). assert (Rabs (r - x) = 0) by lra. assert (r - x = 0) by (destruct (Req_dec (r - x) 0); [assumption|]; exfalso; eapply Rabs_no_R0; eauto).
    assert (Rabs (r' - x) = 0) by lra. assert (r' - x = 0) by (destruct (Req_dec (r' - x) 0); [assumption|]; exfalso; eapply Rabs_no_R0; eauto). lra. }
  assert (Hr : Rnd_N_pt (generic_format radix2 fexp) x r) by (split; [exact Gr|intros g Hg; apply Nr, fp_number_format; assumption]).
  assert (Hr' : Rnd_N_pt (generic_format radix2 fexp) x r') by (split; [exact Gr'|intros g Hg; apply Nr', fp_number_format; assumption]).
  destruct (canonical_generic_format radix2 fexp r Gr) as (f & Ef & Cf). destruct (canonical_generic_format radix2 fexp r' Gr') as (f' & Ef' & Cf').
  pose proof (even_canonical r m e Rm Em f Ef Cf) as Vf. pose proof (even_canonical r' m' e' Rm' Em' f' Ef' Cf') as Vf'.
  assert (DU : (r = round radix2 fexp Zfloor x /\ r' = round radix2 fexp Zceil x) \/ (r' = round radix2 fexp Zfloor x /\ r = round radix2 fexp Zceil x)).
  { assert (A : r = round radix2 fexp Zfloor x \/ r = round radix2 fexp Zceil x).
    { destruct (Rnd_N_pt_DN_or_UP _ _ _ Hr) as [A|A]; [left; eapply Rnd_DN_pt_unique; [exact A|apply round_DN_pt; exact Hv]|right; eapply Rnd_UP_pt_unique; [exact A|apply round_UP_pt; exact Hv]]. }
    assert (B : r' = round radix2 fexp Zfloor x \/ r' = round radix2 fexp Zceil x).
    { destruct (Rnd_N_pt_DN_or_UP _ _ _ Hr') as [B|B]; [left; eapply Rnd_DN_pt_unique; [exact B|apply round_DN_pt; exact Hv]|right; eapply Rnd_UP_pt_unique; [exact B|apply round_UP_pt; exact Hv]]. }
    destruct A as [A|A], B as [B|B]; auto; exfalso; apply D; congruence. }
  destruct DU as [[A B]|[A B]].
  - pose proof (DN_UP_parity_generic radix2 fexp x f f' NF Cf Cf') as P. rewrite <- Ef, <- Ef' in P. specialize (P A B). rewrite Vf, Vf' in P. discriminate P.
  - pose proof (DN_UP_parity_generic radix2 fexp x f' f NF Cf' Cf) as P. rewrite <- Ef, <- Ef' in P. specialize (P A B). rewrite Vf, Vf' in P. discriminate P.
Qed.

(** ** Operations *)

Lemma mul_same (x y : binary_float prec emax) : SFmul prec emax (B2SF x) (B2SF y) = B2SF (Bmult mode_NE x y).
Proof. destruct x, y; try reflexivity. cbn. rewrite B2SF_SF2B. apply round_aux_same. Qed.
Lemma normalize_same m e sz : SpecFloat.binary_normalize prec emax m e sz = B2SF (BinarySingleNaN.binary_normalize prec emax Hp Hpe mode_NE m e sz).
Proof.
  assert (E : forall s p, SpecFloat.binary_round prec emax s p e = BinarySingleNaN.binary_round prec emax mode_NE s p e).
  { intros s p. unfold SpecFloat.binary_round, BinarySingleNaN.binary_round, shl_align_fexp. destruct (shl_align _ _ _). apply round_aux_same. }
  destruct m; cbn; [reflexivity| |]; rewrite B2SF_SF2B; apply E.
Qed.
Lemma add_same (x y : binary_float prec emax) : SFadd prec emax (B2SF x) (B2SF y) = B2SF (Bplus mode_NE x y).
Proof. destruct x, y; try reflexivity; try (cbn; destruct (Bool.eqb _ _); reflexivity). apply normalize_same. Qed.
Lemma sub_same (x y : binary_float prec emax) : SFsub prec emax (B2SF x) (B2SF y) = B2SF (Bminus mode_NE x y).
Proof.
  destruct x, y; try reflexivity; try (cbn; destruct (Bool.eqb _ _); reflexivity). cbn. unfold Zminus. rewrite <- cond_Zopp_negb. apply normalize_same.
Qed.
Lemma div_same (x y : binary_float prec emax) : SFdiv prec emax (B2SF x) (B2SF y) = B2SF (Bdiv mode_NE x y).
Proof.
  destruct x, y; try reflexivity; try (cbn; destruct (Bool.eqb _ _); reflexivity). cbn. rewrite B2SF_SF2B.
  destruct (SFdiv_core_binary _ _ _ _ _ _) as [[mz ez] lz]. apply round_aux_same.
Qed.

(** The value of a finite number of the format. *)
Definition value (f : spec_float) (x : R) : Prop :=
  valid_binary prec emax f = true /\
  match f with
  | S754_zero _ => x = 0
  | S754_finite s m e => x = (if s then - IZR (Zpos m) else IZR (Zpos m)) * powerRZ 2 e
  | _ => False
  end.
Lemma value_B f x : value f x -> exists b : binary_float prec emax, f = B2SF b /\ is_finite b = true /\ B2R b = x.
Proof.
  intros [V H]. exists (SF2B f V). rewrite B2SF_SF2B. split; [reflexivity|].
  destruct f as [s|s| |s m e]; try contradiction; cbn.
  - split; [reflexivity|]. now rewrite H.
  - split; [reflexivity|]. rewrite H. unfold F2R. cbn. rewrite bpow2. now destruct s.
Qed.
Lemma B_value (b : binary_float prec emax) : is_finite b = true -> value (B2SF b) (B2R b).
Proof.
  intros F. split; [apply valid_binary_B2SF|]. destruct b as [s|s| |s m e B]; try discriminate F; cbn; [reflexivity|].
  unfold F2R. cbn. rewrite bpow2. now destruct s.
Qed.
Lemma small_round z r : nearest_even prec emax z r -> Rabs r < powerRZ 2 emax -> r = round_ne z /\ Rlt_bool (Rabs (round radix2 fexp (round_mode mode_NE) z)) (bpow radix2 emax) = true.
Proof. intros N B. apply nearest_unique in N. split; [exact N|]. apply Rlt_bool_true. rewrite bpow2. cbn. now rewrite <- N. Qed.

Lemma add_value a b x y r : value a x -> value b y -> nearest_even prec emax (x + y) r -> Rabs r < powerRZ 2 emax -> value (SFadd prec emax a b) r.
Proof.
  intros A B N L. destruct (value_B _ _ A) as (u & -> & Fu & <-). destruct (value_B _ _ B) as (v & -> & Fv & <-).
  destruct (small_round _ _ N L) as [E T]. rewrite add_same. pose proof (Bplus_correct prec emax Hp Hpe mode_NE u v Fu Fv) as C. rewrite T in C. destruct C as (C1 & C2 & _).
  cbn [round_mode] in C1. rewrite E, <- C1. now apply B_value.
Qed.
Lemma sub_value a b x y r : value a x -> value b y -> nearest_even prec emax (x - y) r -> Rabs r < powerRZ 2 emax -> value (SFsub prec emax a b) r.
Proof.
  intros A B N L. destruct (value_B _ _ A) as (u & -> & Fu & <-). destruct (value_B _ _ B) as (v & -> & Fv & <-).
  destruct (small_round _ _ N L) as [E T]. rewrite sub_same. pose proof (Bminus_correct prec emax Hp Hpe mode_NE u v Fu Fv) as C. rewrite T in C. destruct C as (C1 & C2 & _).
  cbn [round_mode] in C1. rewrite E, <- C1. now apply B_value.
Qed.
Lemma mul_value a b x y r : value a x -> value b y -> nearest_even prec emax (x * y) r -> Rabs r < powerRZ 2 emax -> value (SFmul prec emax a b) r.
Proof.
  intros A B N L. destruct (value_B _ _ A) as (u & -> & Fu & <-). destruct (value_B _ _ B) as (v & -> & Fv & <-).
  destruct (small_round _ _ N L) as [E T]. rewrite mul_same. pose proof (Bmult_correct prec emax Hp Hpe mode_NE u v) as C. rewrite T in C. destruct C as (C1 & C2 & _).
  cbn [round_mode] in C1. rewrite E, <- C1. apply B_value. now rewrite C2, Fu, Fv.
Qed.
Lemma div_value a b x y r : value a x -> value b y -> y <> 0 -> nearest_even prec emax (x / y) r -> Rabs r < powerRZ 2 emax -> value (SFdiv prec emax a b) r.
Proof.
  intros A B Y N L. destruct (value_B _ _ A) as (u & -> & Fu & <-). destruct (value_B _ _ B) as (v & -> & Fv & <-).
  destruct (small_round _ _ N L) as [E T]. rewrite div_same. pose proof (Bdiv_correct prec emax Hp Hpe mode_NE u v Y) as C. rewrite T in C. destruct C as (C1 & C2 & _).
  cbn [round_mode] in C1. rewrite E, <- C1. apply B_value. now rewrite C2, Fu.
Qed.
Lemma opp_value a x : value a x -> value (SFopp a) (- x).
Proof.
  intros [V H]. destruct a as [s|s| |s m e]; try contradiction; split; try exact V; cbn.
  - rewrite H. lra.
  - rewrite H. destruct s; cbn; lra.
Qed.
Lemma value_number f x : value f x -> fp_number prec emax x /\ Rabs x < powerRZ 2 emax.
Proof.
  intros H. destruct (value_B _ _ H) as (b & -> & F & <-). split.
  - apply fp_number_format; [exact Hp|]. apply generic_format_B2R.
  - rewrite <- bpow2. apply abs_B2R_lt_emax.
Qed.
Lemma number_nearest x : fp_number prec emax x -> nearest_even prec emax x x.
Proof.
  intros F. split; [exact F|]. split.
  - intros y _. rewrite Rminus_diag_eq, Rabs_R0 by reflexivity. apply Rabs_pos.
  - intros y _ D E. rewrite (Rminus_diag_eq x x), Rabs_R0 in E by reflexivity. destruct (Req_dec (y - x) 0) as [Q|Q]; [exfalso; apply D; lra|]. destruct (Rabs_no_R0 _ Q E).
Qed.
Lemma normalize_value m e sz r : nearest_even prec emax (IZR m * powerRZ 2 e) r -> Rabs r < powerRZ 2 emax -> value (SpecFloat.binary_normalize prec emax m e sz) r.
Proof.
  intros N L. destruct (small_round _ _ N L) as [E T]. rewrite normalize_same.
  pose proof (binary_normalize_correct prec emax Hp Hpe mode_NE m e sz) as C. cbv zeta in C.
  assert (X : F2R (Float radix2 m e) = IZR m * powerRZ 2 e) by (unfold F2R; cbn; now rewrite bpow2).
  rewrite X, T in C. destruct C as (C1 & C2 & _). cbn [round_mode] in C1. rewrite E, <- C1. now apply B_value.
Qed.

(** Reading a decimal gives a number of the format. *)
Lemma decimal_valid m k : valid_binary prec emax (round_decimal prec emax m k) = true.
Proof.
  unfold round_decimal. destruct m as [|p|p]; try reflexivity. destruct (Z.leb_spec 0 k) as [Hk|Hk].
  - rewrite normalize_same. apply valid_binary_B2SF.
  - assert (Hpos : (0 < 10 ^ (- k))%Z) by (apply Z.pow_pos_nonneg; lia). destruct (10 ^ (- k))%Z as [|d|d] eqn:E; try lia.
    pose proof (Bdiv_correct_aux prec emax Hp Hpe mode_NE false p 0 false d 0) as H. cbv zeta in H.
    destruct (SFdiv_core_binary prec emax (Zpos p) 0 (Zpos d) 0) as [[q e] l]. rewrite round_aux_same. exact (proj1 H).
Qed.
Lemma decimal_value_is m k r : (0 <= m)%Z -> nearest_even prec emax (decimal_value m k) r -> Rabs r < powerRZ 2 emax -> value (round_decimal prec emax m k) r.
Proof.
  intros M N L. split; [apply decimal_valid|]. destruct (round_decimal_rounded prec emax Hp1 m k M) as [(r' & N' & H) _].
  assert (E : r' = r) by (apply nearest_unique in N, N'; congruence). subst r'. destruct (round_decimal prec emax m k) as [s|s| |s q e]; try exact H; try tauto.
  - lra.
Qed.

End Ops.

(** A [float] is a [double] with the same value. *)
Lemma widen_value f x : value 24 128 f x -> value 53 1024 (f32_to_f64 f) x.
Proof.
  intros H. destruct (value_number 24 128 f x H) as [(m & e & Hm & He & E) L]. destruct f as [s|s| |s p k]; try (destruct (proj2 H)).
  - split; [reflexivity|]. exact (proj2 H).
  - destruct H as [_ Ex]. cbn [f32_to_f64]. apply (normalize_value 53 1024); [reflexivity| |].
    + replace (IZR (cond_Zopp s (Z.pos p)) * powerRZ 2 k) with x by (rewrite Ex; destruct s; cbn [cond_Zopp]; [rewrite <- opp_IZR|]; reflexivity).
      apply number_nearest. exists m, e. split; [|split; [lia|exact E]]. assert (2 ^ 24 < 2 ^ 53)%Z by reflexivity. lia.
    + apply Rlt_trans with (1 := L). rewrite <- !bpow2. now apply bpow_lt.
Qed.
