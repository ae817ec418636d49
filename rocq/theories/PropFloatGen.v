(** C65: floating-point constants are generated with their value. *)
From Verif Require Import Base Utf Lex LexFloat Token Ast Nom ParseTok ParseExpr ParseStmt Rust Finish Codegen FinishFacts
  SpecInt IntFacts SpecFloatLit FloatFacts PropFloat FloatOpFacts SpecFloatGen PropFnGen.
From Coq Require Import String List ZArith SpecFloat Reals Lra Lia.
From Flocq Require Import Core BinarySingleNaN.
Import ListNotations.
Local Open Scope string_scope.
Local Open Scope list_scope.

Lemma float_value f ty m k r s : float_constant s ty m k -> float_try_from s = Some f -> rounds (is_float f) (decimal_value m k) r ->
  exists x, f = ft_lit ty x /\ is_float f = (ft_prec ty =? 24)%Z /\ value (prec (is_float f)) (emax (is_float f)) x r.
Proof.
  intros C E [N L]. rewrite (constant_read s ty m k C) in E. injection E as <-.
  assert (Hm : (0 <= m)%Z).
  { destruct C as [s sx m k ss ty Hd _ _]. destruct Hd as [i f x m k Hm _|i x m k Hm _];
      apply numeral_from_iff in Hm; destruct Hm as [_ Hm]; apply numeral_from_mono in Hm; lia. }
  exists (round_decimal (ft_prec ty) (ft_emax ty) m k). split; [reflexivity|].
  destruct C as [s sx m k ss ty _ Hi _].
  destruct Hi as [Hi|[Hi|[Hi|[]]]]; injection Hi as <- <-; cbn [is_float ft_lit ft_prec ft_emax prec emax] in *; (split; [reflexivity|]).
  - apply (decimal_value_is 53 1024); auto. reflexivity.
  - apply (decimal_value_is 24 128); auto. reflexivity.
  - apply (decimal_value_is 53 1024); auto. reflexivity.
Qed.
Definition lit_value (f : lit_float) : spec_float := match f with FFloat x | FDouble x | FLongDouble x => x end.

Section Gen.
Context {U : Unicode}.
Variable cx : cgctx.

Definition fits (t : bool) (ty : builtin) : Prop := if t then ty = BFloat else ty = BDouble \/ ty = BLongDouble.
Lemma lit_fits f c : exists ty, lit_finish cx (LFloat f) c = FOk (ty_b ty) /\ fits (is_float f) ty.
Proof. destruct f; eexists; (split; [reflexivity|]); cbn; auto. Qed.
Lemma arith_value op g a b x y z v : float_op op = Some g -> exact_result op x y z ->
  value (prec (is_float a)) (emax (is_float a)) (lit_value a) x -> value (prec (is_float b)) (emax (is_float b)) (lit_value b) y ->
  rounds (is_float a && is_float b) z v ->
  is_float (float_arith g a b) = is_float a && is_float b /\
  value (prec (is_float a && is_float b)) (emax (is_float a && is_float b)) (lit_value (float_arith g a b)) v.
Proof.
  intros G Ex A B [N L].
  assert (S : forall p q f h, (p = 24 /\ q = 128 \/ p = 53 /\ q = 1024)%Z -> value p q f x -> value p q h y -> nearest_even p q z v -> (Rabs v < powerRZ 2 q)%R -> value p q (g p q f h) v).
  { intros p q f h [[-> ->]|[-> ->]] Vf Vh N' L'; destruct Ex as [x y|x y|x y|x y Y]; injection G as <-;
      first [eapply add_value|eapply sub_value|eapply mul_value|eapply div_value]; eauto; reflexivity. }
  destruct a as [a|a|a], b as [b|b|b]; cbn [is_float lit_value float_arith andb prec emax] in *; (split; [reflexivity|]);
    (apply S; [auto| | |assumption|assumption]); try assumption; now apply widen_value.
Qed.
Lemma fold_float n c e t x : c_float e t x ->
  exists f ty, finish cx n e c = (ELit (LFloat f), c, FOk (ty_b ty)) /\ fits t ty /\ is_float f = t /\ value (prec t) (emax t) (lit_value f) x.
Proof.
  induction 1 as [s f ty m k r C E R|e t x H IH|e t x H IH|op l r t1 t2 x y z v H1 IH1 H2 IH2 Ex R]; rewrite finish_eq; cbn [finish_step].
  - destruct (float_value f ty m k r s C E R) as (q & Ef & _ & V). destruct (lit_fits f c) as (b & Lf & Fb).
    exists f, b. rewrite Lf. split; [reflexivity|]. split; [exact Fb|]. split; [reflexivity|]. subst f.
    destruct C as [s sx m k ss ty _ Hi _]. destruct Hi as [Hi|[Hi|[Hi|[]]]]; injection Hi as <- <-; exact V.
  - destruct IH as (f & ty & E & F & T & V). rewrite E. cbn [fbind unary_type unary_fold]. exists f, ty. auto.
  - destruct IH as (f & ty & E & F & T & V). rewrite E. cbn [fbind unary_type unary_fold]. exists (float_neg f), ty.
    split; [reflexivity|]. split; [exact F|]. split; [subst t; now destruct f|].
    replace (lit_value (float_neg f)) with (SFopp (lit_value f)) by now destruct f. now apply opp_value.
  - destruct IH1 as (a & ty1 & E1 & F1 & T1 & V1). destruct IH2 as (b & ty2 & E2 & F2 & T2 & V2). rewrite E1. cbn [fbind]. rewrite E2. cbn [fbind].
    assert (Bt : binary_types cx (ELit (LFloat a)) op (ELit (LFloat b)) (ty_b ty1) (ty_b ty2) c = ((ELit (LFloat a), ELit (LFloat b)), c, FOk (join_ty (ty_b ty1) (ty_b ty2)))) by (destruct Ex; reflexivity).
    rewrite Bt. cbn [fbind fst snd]. unfold binary_fold.
    assert (G : exists g, float_op op = Some g) by (destruct Ex; eexists; reflexivity). destruct G as [g G]. rewrite G.
    subst t1 t2. destruct (arith_value op g a b x y z v G Ex V1 V2 R) as [T V]. destruct (lit_fits (float_arith g a b) c) as (ty & Lf & Ft).
    exists (float_arith g a b), ty. rewrite Lf. split; [reflexivity|]. rewrite T in Ft. auto.
Qed.

(** ** Printing *)

Lemma float_denotes f : denotes (pfx (cx_trait cx)) (is_float f) (float_toks cx f) (lit_value f).
Proof.
  assert (G : forall t x, denotes (pfx (cx_trait cx)) t (float_toks_w cx (float_width t) (float_name t) x) x).
  { intros t x. destruct x as [[]|[]| |[] m e]; cbn [float_toks_w].
    - apply (dn_negative _ _ _ (S754_zero false)). apply dn_zero.
    - apply dn_zero.
    - apply dn_special. cbn. auto.
    - apply dn_special. cbn. auto.
    - apply dn_special. cbn. auto.
    - apply (dn_negative _ _ _ (S754_finite false m e)). apply dn_finite.
    - apply dn_finite. }
  destruct f as [x|x|x]; [apply (G true)|apply (G false)|apply (G false)].
Qed.
End Gen.

(** ** The theorems *)

(** Every floating-point literal, in a constant or in a function, is generated as
    the number that it is, also an infinity. *)
Theorem C65_literal {U : Unicode} cx name f : exists lit,
  snd (var_generate cx (mk_var_macro name (MbExpr (ELit (LFloat f))))) = ROk (lit, Some [ri (float_name (is_float f))]) /\
  denotes (pfx (cx_trait cx)) (is_float f) lit (lit_value f).
Proof.
  exists (float_toks cx f). split; [destruct f; reflexivity|apply float_denotes].
Qed.
(** A macro that is an expression of floating-point constants with signs and the
    operators [+], [-], [*], [/] is generated as one number, which has the value
    of the expression. *)
Theorem C65_value {U : Unicode} cx name e t x : c_float e t x ->
  exists lit f, snd (var_generate cx (mk_var_macro name (MbExpr e))) = ROk (lit, Some [ri (float_name t)]) /\
    denotes (pfx (cx_trait cx)) t lit f /\ real_value f x.
Proof.
  intros H. unfold var_generate. cbn [vm_body]. unfold expr_finish.
  destruct (fold_float cx (weight e) (var_lctx cx) e t x H) as (f & ty & E & F & T & V). rewrite E. cbn [snd ofres etoks lit_toks opanic rbind ty_b ty_toks].
  exists (float_toks cx f), (lit_value f). split.
  - unfold fits in F. destruct t; [subst ty; reflexivity|]. destruct F as [-> | ->]; reflexivity.
  - split; [subst t; apply float_denotes|exact (proj2 V)].
Qed.
(** The same anywhere in an expression. *)
Theorem C65_anywhere {U : Unicode} cx c e t x : c_float e t x ->
  exists f ty, expr_finish cx e c = (ELit (LFloat f), c, FOk ty) /\ real_value (lit_value f) x /\
    forall lit, etoks cx c (ELit (LFloat f)) = Some lit -> denotes (pfx (cx_trait cx)) t lit (lit_value f).
Proof.
  intros H. destruct (fold_float cx (weight e) c e t x H) as (f & ty & E & _ & T & V). exists f, (ty_b ty). split; [exact E|]. split; [exact (proj2 V)|].
  intros lit L. injection L as <-. subst t. apply float_denotes.
Qed.

(** ** Cases *)

Section Demo.
#[local] Existing Instance demo_unicode.
Local Open Scope R_scope.
Lemma exact_round (s : bool) (m e : Z) z : z = IZR m * powerRZ 2 e -> (Z.abs m < 2 ^ 20)%Z -> (-20 <= e <= 20)%Z -> rounds s z z.
Proof.
  intros -> M E. split.
  - apply number_nearest. exists m, e. split; [|split; [|reflexivity]]; destruct s; cbn [prec emax].
    + assert (2 ^ 20 < 2 ^ 24)%Z by reflexivity. lia.
    + assert (2 ^ 20 < 2 ^ 53)%Z by reflexivity. lia.
    + lia.
    + lia.
  - rewrite Rabs_mult, (Rabs_pos_eq (powerRZ 2 e)) by (left; apply powerRZ_lt; lra). rewrite <- !bpow2.
    apply Rlt_le_trans with (bpow radix2 20 * bpow radix2 20).
    + apply Rle_lt_trans with (Rabs (IZR m) * bpow radix2 20).
      * apply Rmult_le_compat_l; [apply Rabs_pos|]. apply bpow_le. lia.
      * apply Rmult_lt_compat_r; [apply bpow_gt_0|]. rewrite <- abs_IZR, <- (IZR_Zpower radix2) by lia. now apply IZR_lt.
    + rewrite <- bpow_plus. apply bpow_le. destruct s; cbn; lia.
Qed.
Definition three_halves : lit_float := FFloat (S754_finite false 12582912 (-23)).
Definition one_half : lit_float := FDouble (S754_finite false 4503599627370496 (-53)).
(** [-1.5f / 0.5] is the [double] -3. *)
Example C65_case : c_float (EBinary (EUnary UMinus (ELit (LFloat three_halves))) ODiv (ELit (LFloat one_half))) false (-3).
Proof.
  assert (A : c_float (ELit (LFloat three_halves)) true (3 / 2)).
  { apply (cf_constant (st "1.5f") three_halves (mk_type 24 128 FFloat) 15 (-1) (3 / 2)); [|vm_compute; reflexivity|].
    - change (st "1.5f") with ((st "1" ++ st "." ++ st "5" ++ []) ++ st "f"). eapply flc; [|right; left; reflexivity|left; reflexivity].
      apply (dec_point (st "1") (st "5") [] 15 0); [|auto]. apply DecFacts.numeral10. split; [discriminate|split; reflexivity].
    - replace (decimal_value 15 (-1)) with (3 / 2) by (unfold decimal_value, powerRZ; change (Pos.to_nat 1) with 1%nat; rewrite pow_1; lra). apply (exact_round _ 3 (-1)); [unfold powerRZ; change (Pos.to_nat 1) with 1%nat; rewrite pow_1; lra| |]; lia. }
  assert (B : c_float (ELit (LFloat one_half)) false (1 / 2)).
  { apply (cf_constant (st "0.5") one_half (mk_type 53 1024 FDouble) 5 (-1) (1 / 2)); [|vm_compute; reflexivity|].
    - change (st "0.5") with ((st "0" ++ st "." ++ st "5" ++ []) ++ []). eapply flc; [|left; reflexivity|left; reflexivity].
      apply (dec_point (st "0") (st "5") [] 5 0); [|auto]. apply DecFacts.numeral10. split; [discriminate|split; reflexivity].
    - replace (decimal_value 5 (-1)) with (1 / 2) by (unfold decimal_value, powerRZ; change (Pos.to_nat 1) with 1%nat; rewrite pow_1; lra). apply (exact_round _ 1 (-1)); [unfold powerRZ; change (Pos.to_nat 1) with 1%nat; rewrite pow_1; lra| |]; lia. }
  apply (cf_op ODiv _ _ true false (- (3 / 2)) (1 / 2) (- (3 / 2) / (1 / 2))); [now apply cf_minus|exact B|apply er_div; lra|].
  replace (- (3 / 2) / (1 / 2)) with (-3) by lra. apply (exact_round _ (-3) 0); [cbn; lra| |]; lia.
Qed.
Example C65_generated : snd (var_generate cx_unit (mk_var_macro (st "X") (MbExpr (EBinary (EUnary UMinus (ELit (LFloat three_halves))) ODiv (ELit (LFloat one_half)))))) =
  ROk ([rp "-"; RLit (RlFloat 64 (S754_finite false 6755399441055744 (-51)))], Some [ri "f64"]).
Proof. vm_compute. reflexivity. Qed.
Example C65_infinity : snd (var_generate cx_unit (mk_var_macro (st "X") (MbExpr (EUnary UMinus (ELit (LFloat (FFloat (S754_infinity false)))))))) =
  ROk ([ri "f32"; rp "::"; ri "NEG_INFINITY"], Some [ri "f32"]).
Proof. vm_compute. reflexivity. Qed.

(** Refuted for mixed constants (see also C63_double_refuted): next to a
    [double], an integer is rounded to a [float], so [16777217 * 1.0] is off by
    one. *)
Theorem C65_mixed_refuted : exists f,
  snd (var_generate cx_unit (mk_var_macro (st "X") (MbExpr (EBinary (ELit (LInt (mk_int 16777217 None))) OMul (ELit (LFloat (FDouble (S754_finite false 4503599627370496 (-52))))))))) =
    ROk ([RLit (RlFloat 64 f)], Some [ri "f64"]) /\ real_value f 16777216.
Proof.
  eexists. split; [vm_compute; reflexivity|]. cbn [real_value].
  replace (powerRZ 2 (-28)) with (/ IZR (2 ^ 28)); [|cbn [powerRZ]; rewrite pow_IZR; f_equal; f_equal; reflexivity].
  apply Rmult_eq_reg_r with (IZR (2 ^ 28)); [|apply not_0_IZR; discriminate].
  rewrite Rmult_assoc, Rinv_l by (apply not_0_IZR; discriminate). rewrite <- mult_IZR, Rmult_1_r. f_equal.
Qed.
End Demo.

Print Assumptions C65_literal.
Print Assumptions C65_value.
Print Assumptions C65_anywhere.
Print Assumptions C65_mixed_refuted.
