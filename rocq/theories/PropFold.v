(** C37: constant folding. *)
From Verif Require Import Base Utf Lex LexFloat Token Ast Nom ParseTok ParseExpr ParseStmt Rust Finish Codegen FinishFacts SpecFold SpecRust PropGenCast.
From Coq Require Import String List ZArith Zquot Lia.
Import ListNotations.
Local Open Scope string_scope.
Local Open Scope list_scope.
Local Open Scope Z_scope.

Lemma common_promoted a b : promoted a -> promoted b -> promoted (common a b).
Proof. destruct a as [[] x], b as [[] y]; unfold promoted, common; cbn [snd]; intros; try destruct (_ <? _); cbn [snd]; lia. Qed.
Lemma range_64 t v : promoted t -> in_range t v -> - 2 ^ 64 <= v < 2 ^ 64.
Proof.
  destruct t as [[] w]; unfold promoted, in_range; cbn [fst snd]; intros P R.
  - assert (2 ^ (w - 1) <= 2 ^ 64) by (apply Z.pow_le_mono_r; lia). lia.
  - assert (2 ^ w <= 2 ^ 64) by (apply Z.pow_le_mono_r; lia). lia.
Qed.
Lemma wrap_id v : - 2 ^ 64 <= v <= 2 ^ 64 -> wrap v = v.
Proof. intros R. unfold wrap. rewrite Z.mod_small; lia. Qed.
Lemma shift_id b : 0 <= b < 64 -> shift_count b = b.
Proof. intros R. unfold shift_count. rewrite Z.min_l by lia. rewrite (Z.mod_small b (2 ^ 32)) by lia. apply Z.mod_small. lia. Qed.

Lemma quot_rem_unique a b q r : b <> 0 -> a = b * q + r -> Z.abs r < Z.abs b -> (r = 0 \/ Z.sgn r = Z.sgn a) -> q = Z.quot a b /\ r = Z.rem a b.
Proof. intros N E L S. apply Zquot_mod_unique_full; [|exact E]. unfold Remainder. lia. Qed.

Lemma math_op t op a b v : - 2 ^ 64 <= v < 2 ^ 64 -> math t op a b v -> int_folds op = true /\ int_op op a b = Some v.
Proof.
  intros R M. destruct M as [a b|a b|a b|a b q r N E L S|a b q r N E L S|a b r T|a b r T|a b r T]; (split; [reflexivity|]); cbn [int_op].
  - now rewrite wrap_id by lia.
  - now rewrite wrap_id by lia.
  - now rewrite wrap_id by lia.
  - replace (b =? 0) with false by (symmetry; now apply Z.eqb_neq).
    destruct (quot_rem_unique a b q r N E L S) as [Q _].
    rewrite <- Q, wrap_id by lia. reflexivity.
  - replace (b =? 0) with false by (symmetry; now apply Z.eqb_neq).
    f_equal. destruct (quot_rem_unique a b q r N E L S) as [_ Q]. symmetry. exact Q.
  - f_equal. apply Z.bits_inj'. intros i I. rewrite Z.land_spec, T by exact I. reflexivity.
  - f_equal. apply Z.bits_inj'. intros i I. rewrite Z.lor_spec, T by exact I. reflexivity.
  - f_equal. apply Z.bits_inj'. intros i I. rewrite Z.lxor_spec, T by exact I. reflexivity.
Qed.

Lemma value_range e t v : c_value e t v -> promoted t /\ in_range t v.
Proof.
  induction 1 as [i t P Z0 R|e t v V IH|e t v V IH R|e t v n V IH Us P S|op l r t1 t2 a b v V1 IH1 V2 IH2 R1 R2 M R|l r t1 t2 a b V1 IH1 V2 IH2 A B R|l r t1 t2 a b q V1 IH1 V2 IH2 B Q].
  - auto.
  - auto.
  - split; [apply IH|exact R].
  - split; [exact P|]. destruct n as [s w]. cbn [fst] in S. subst s. unfold promoted, in_range in *. cbn [fst snd] in *.
    assert (2 ^ 1 <= 2 ^ (w - 1)) by (apply Z.pow_le_mono_r; lia). destruct (v =? 0); lia.
  - split; [apply common_promoted; tauto|exact R].
  - split; [tauto|exact R].
  - split; [tauto|]. destruct IH1 as [P R]. destruct t1 as [s w]. unfold promoted, in_range in *. cbn [fst snd] in *.
    assert (X : 1 <= 2 ^ b) by (assert (0 < 2 ^ b) by (apply Z.pow_pos_nonneg; lia); lia).
    destruct s; nia.
Qed.

Section Fold.
Context {U : Unicode}.
Variable cx : cgctx.

Lemma fold_value n c e t v : c_value e t v ->
  exists s ty, finish cx n e c = (ELit (LInt (mk_int v s)), c, FOk ty) /\ (unsuffixed e -> s = None) /\
    (ty = None \/ ty = ty_b BBool).
Proof.
  induction 1 as [i t P Z0 R|e t v V IH|e t v V IH R|e t v m V IH Us P S|op l r t1 t2 a b v V1 IH1 V2 IH2 R1 R2 M R|l r t1 t2 a b V1 IH1 V2 IH2 A B R|l r t1 t2 a b q V1 IH1 V2 IH2 B Q];
    rewrite finish_eq; cbn [finish_step].
  - exists (int_suffix i), None. destruct i as [v s]. split; [reflexivity|]. split; auto.
  - destruct IH as (s & ty & E & N & Ty). rewrite E. exists s, ty. auto.
  - destruct IH as (s & ty & E & N & Ty). rewrite E. cbn [fbind unary_type unary_fold int_value int_suffix].
    exists (neg_suffix s), ty. destruct (value_range _ _ _ V) as [Pr Rv]. pose proof (range_64 _ _ Pr Rv). pose proof (range_64 _ _ Pr R).
    rewrite wrap_id by lia. split; [reflexivity|]. split; [|exact Ty]. intros X. rewrite (N X). reflexivity.
  - destruct IH as (s & ty & E & N & Ty). rewrite E. cbn [fbind unary_type unary_fold]. rewrite (N Us).
    exists None, (ty_b BBool). split; [reflexivity|]. split; auto.
  - destruct IH1 as (s1 & ty1 & E1 & N1 & _). destruct IH2 as (s2 & ty2 & E2 & N2 & _). rewrite E1. cbn [fbind]. rewrite E2. cbn [fbind].
    assert (Pr : promoted (common t1 t2)).
    { apply common_promoted; [apply (value_range _ _ _ V1)|apply (value_range _ _ _ V2)]. }
    destruct (math_op _ _ _ _ _ (range_64 _ _ Pr R) M) as [F O].
    assert (B : binary_types cx (ELit (LInt (mk_int a s1))) op (ELit (LInt (mk_int b s2))) ty1 ty2 c =
      ((ELit (LInt (mk_int a s1)), ELit (LInt (mk_int b s2))), c, FOk (join_ty ty1 ty2))).
    { destruct op; try discriminate F; destruct s1; reflexivity. }
    rewrite B. cbn [fbind fst snd]. unfold binary_fold. cbn [int_value int_suffix]. rewrite F, O.
    exists (join_suffix s1 s2), None. split; [reflexivity|]. split; [|auto]. intros [X1 X2]. rewrite (N1 X1), (N2 X2). reflexivity.
  - destruct IH1 as (s1 & ty1 & E1 & N1 & _). destruct IH2 as (s2 & ty2 & E2 & N2 & _). rewrite E1. cbn [fbind]. rewrite E2. cbn [fbind].
    destruct (value_range _ _ _ V1) as [Pr Rv].
    assert (B' : binary_types cx (ELit (LInt (mk_int a s1))) OShl (ELit (LInt (mk_int b s2))) ty1 ty2 c =
      ((ELit (LInt (mk_int a s1)), ELit (LInt (mk_int b s2))), c, FOk (join_ty ty1 ty2))) by (destruct s1; reflexivity).
    rewrite B'. cbn [fbind fst snd]. unfold binary_fold. cbn [int_value int_suffix int_folds int_op].
    rewrite shift_id by (unfold promoted in Pr; lia). pose proof (range_64 _ _ Pr R). rewrite wrap_id by lia.
    exists (join_suffix s1 s2), None. split; [reflexivity|]. split; [|auto]. intros [X1 X2]. rewrite (N1 X1), (N2 X2). reflexivity.
  - destruct IH1 as (s1 & ty1 & E1 & N1 & _). destruct IH2 as (s2 & ty2 & E2 & N2 & _). rewrite E1. cbn [fbind]. rewrite E2. cbn [fbind].
    destruct (value_range _ _ _ V1) as [Pr Rv].
    assert (B' : binary_types cx (ELit (LInt (mk_int a s1))) OShr (ELit (LInt (mk_int b s2))) ty1 ty2 c =
      ((ELit (LInt (mk_int a s1)), ELit (LInt (mk_int b s2))), c, FOk (join_ty ty1 ty2))) by (destruct s1; reflexivity).
    rewrite B'. cbn [fbind fst snd]. unfold binary_fold. cbn [int_value int_suffix int_folds int_op].
    rewrite shift_id by (unfold promoted in Pr; lia).
    assert (Dq : a / 2 ^ b = q).
    { symmetry. apply Z.div_unique with (r := a - q * 2 ^ b); [|lia]. left. assert (0 < 2 ^ b) by (apply Z.pow_pos_nonneg; lia). lia. }
    rewrite Dq. exists (join_suffix s1 s2), None. split; [reflexivity|]. split; [|auto]. intros [X1 X2]. rewrite (N1 X1), (N2 X2). reflexivity.
Qed.

End Fold.

(** A macro that is an expression of integer constants (built with [+], [-],
    [!], [+], [-], [*], [/], [%], [<<], [>>], [&], [|] and [^]) whose evaluation
    stays in range is generated as one literal with the value of the
    expression. *)
Theorem C37_fold_partial {U : Unicode} cx name e t v : c_value e t v ->
  exists lit ty, snd (var_generate cx (mk_var_macro name (MbExpr e))) = ROk (lit, ty) /\ read_int lit = Some (v, []).
Proof.
  intros V. unfold var_generate. cbn [vm_body]. unfold expr_finish.
  destruct (fold_value cx (weight e) (var_lctx cx) e t v V) as (s & ty & E & _ & Ty). rewrite E. cbn [snd ofres].
  cbn [etoks lit_toks opanic rbind int_value]. exists (int_toks v "").
  destruct Ty as [-> | ->]; cbn [ty_b ty_toks opanic rbind lc_macro var_lctx]; eexists; (split; [reflexivity|apply read_int_toks]).
Qed.

(** The same inside a function-like macro: a constant subexpression is replaced
    by the literal. *)
Theorem C37_fold_anywhere_partial {U : Unicode} cx c e t v : c_value e t v ->
  exists s ty, expr_finish cx e c = (ELit (LInt (mk_int v s)), c, FOk ty).
Proof. intros V. destruct (fold_value cx (weight e) c e t v V) as (s & ty & E & _). eauto. Qed.

(** Refuted: other operators on constants are not folded ([~0], [1 == 2]), nor
    is [!] on a literal with a suffix. *)
Theorem C37_fold_refuted : exists e, (exists i, e = EUnary UComp (ELit (LInt i))) /\
  forall lit ty, snd (@var_generate demo_unicode cx_unit (mk_var_macro (st "X") (MbExpr e))) = ROk (lit, ty) -> read_int lit = None.
Proof.
  exists (EUnary UComp (ELit (LInt (mk_int 0 None)))). split; [eexists; reflexivity|]. intros lit ty E. vm_compute in E. injection E as <- <-. reflexivity.
Qed.

(** The range is needed: [1u - 2u] and [-1u], which are [UINT_MAX] in C, are
    generated as -1, whatever the size of [int]. *)
Theorem C37_wrap_refuted : forall e, In e [EBinary (ELit (LInt (mk_int 1 (Some BUInt)))) OSub (ELit (LInt (mk_int 2 (Some BUInt)))); EUnary UMinus (ELit (LInt (mk_int 1 (Some BUInt))))] ->
  exists lit ty s, snd (@var_generate demo_unicode cx_unit (mk_var_macro (st "X") (MbExpr e))) = ROk (lit, ty) /\ read_int lit = Some (-1, s) /\
  forall n, ~ in_range (false, n) (-1).
Proof.
  intros e [<-|[<-|[]]]; do 3 eexists; (split; [vm_compute; reflexivity|]); (split; [vm_compute; reflexivity|]); intros n [H _]; cbn in H; lia.
Qed.

(** Not vacuous: [-(7 / 2) * 3 + (1 << 4)], which is 7 in C; and its value as
    generated from the tokens. *)
Definition klit (v : Z) (s : option builtin) : expr := ELit (LInt (mk_int v s)).
Definition fold_example : expr :=
  EBinary (EBinary (EUnary UMinus (EBinary (klit 7 None) ODiv (klit 2 None))) OMul (klit 3 None)) OAdd
          (EBinary (klit 1 None) OShl (klit 4 None)).
Example C37_case : c_value fold_example (true, 32) 7.
Proof.
  assert (L : forall k, 0 <= k < 100 -> c_value (klit k None) (true, 32) k).
  { intros k K. change k with (int_value (mk_int k None)) at 2. apply cv_lit; [unfold promoted; cbn; lia|exact (proj1 K)|unfold in_range; cbn; lia]. }
  assert (R : forall k, -100 < k < 100 -> in_range (true, 32) k) by (intros k K; unfold in_range; cbn; lia).
  unfold fold_example. change (true, 32) with (common (true, 32) (true, 32)).
  apply cv_arith with (a := -9) (b := 16); try (apply R; lia); [| |exact (m_add _ (-9) 16)].
  - change (true, 32) with (common (true, 32) (true, 32)).
    apply cv_arith with (a := -3) (b := 3); try (apply R; lia); [|apply L; lia|exact (m_mul _ (-3) 3)].
    apply (cv_minus _ _ 3); [|apply R; lia]. change (true, 32) with (common (true, 32) (true, 32)).
    apply cv_arith with (a := 7) (b := 2); try (apply L; lia); try (apply R; lia).
    apply m_div with (r := 1); lia.
  - change 16 with (1 * 2 ^ 4). apply cv_shl with (t2 := (true, 32)); try (apply L; lia); cbn [snd]; try lia. apply R. lia.
Qed.
Example C37_generated : snd (@var_generate demo_unicode cx_unit (mk_var_macro (st "X") (MbExpr fold_example))) = ROk ([RLit (RlInt 7 [])], None).
Proof. vm_compute. reflexivity. Qed.

Print Assumptions C37_fold_partial.
Print Assumptions C37_fold_anywhere_partial.
Print Assumptions C37_fold_refuted.
Print Assumptions C37_wrap_refuted.
