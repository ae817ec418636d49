(** C40, C56: generated integer expressions have the value of the C expression. *)
From Verif Require Import Base Utf Lex LexFloat Token Ast Nom ParseTok ParseStmt Rust Finish Codegen SpecRustExpr SpecTree SpecGen SpecFold SpecValue StrFacts FinishFacts FinishEq RustExprFacts TreeFacts PropFold PropFnGen PropTree.
From Coq Require Import String List Lia Bool ZArith.
Import ListNotations.
Local Open Scope string_scope.
Local Open Scope list_scope.
Local Open Scope Z_scope.

(** ** Ranges *)

Lemma holds_iff t z : holds t z = true <-> in_range t z.
Proof.
  unfold holds, in_range. destruct (fst t); rewrite andb_true_iff, Z.leb_le, Z.ltb_lt; lia.
Qed.
Lemma holds_false t z : holds t z = false <-> ~ in_range t z.
Proof. rewrite <- holds_iff. destruct (holds t z); split; congruence. Qed.
Definition inside (w z : Z) : Prop := - 2 ^ (w - 1) <= z < 2 ^ (w - 1).
Lemma half_double w : 1 <= w -> 2 ^ w = 2 * 2 ^ (w - 1).
Proof. intro W. replace w with (1 + (w - 1)) at 1 by lia. rewrite Z.pow_add_r by lia. reflexivity. Qed.

(** Numbers of [w] bits: all higher bits are the sign. *)
Lemma inside_bits w z : 1 <= w -> inside w z <-> forall i, w - 1 <= i -> Z.testbit z i = (z <? 0).
Proof.
  intro W. unfold inside. split.
  - intros [A B] i I. destruct (Z.ltb_spec z 0) as [N|N].
    + rewrite <- (Z.lnot_involutive z), Z.lnot_spec by lia.
      destruct (Z.eq_dec (Z.lnot z) 0) as [->|D]; [now rewrite Z.testbit_0_l|].
      rewrite (Z.bits_above_log2 (Z.lnot z)); [reflexivity|unfold Z.lnot; lia|].
      assert (Z.log2 (Z.lnot z) < w - 1); [|lia]. apply Z.log2_lt_pow2; unfold Z.lnot in *; lia.
    + destruct (Z.eq_dec z 0) as [->|D]; [apply Z.testbit_0_l|].
      apply Z.bits_above_log2; [lia|]. assert (Z.log2 z < w - 1); [|lia]. apply Z.log2_lt_pow2; lia.
  - intro H. destruct (Z.ltb_spec z 0) as [N|N].
    + assert (Z.lnot z < 2 ^ (w - 1)); [|unfold Z.lnot in *; lia].
      destruct (Z.eq_dec (Z.lnot z) 0) as [->|D]; [pose proof (Z.pow_pos_nonneg 2 (w - 1)); lia|].
      apply Z.log2_lt_pow2; [unfold Z.lnot in *; lia|]. apply Z.lt_nge. intro G.
      specialize (H (Z.log2 (Z.lnot z)) G). rewrite <- (Z.lnot_involutive z) in H at 1. rewrite Z.lnot_spec in H by lia.
      rewrite Z.bit_log2 in H by (unfold Z.lnot in *; lia). discriminate.
    + assert (z < 2 ^ (w - 1)); [|lia]. destruct (Z.eq_dec z 0) as [->|D]; [pose proof (Z.pow_pos_nonneg 2 (w - 1)); lia|].
      apply Z.log2_lt_pow2; [lia|]. apply Z.lt_nge. intro G. specialize (H (Z.log2 z) G). rewrite Z.bit_log2 in H by lia. discriminate.
Qed.
Lemma neg_sign w z : 1 <= w -> inside w z -> (z <? 0) = Z.testbit z (w - 1).
Proof. intros W I. symmetry. apply inside_bits with (w := w); [lia|assumption|lia]. Qed.
Lemma bitop_in w (f : bool -> bool -> bool) (g : Z -> Z -> Z) a b : 1 <= w ->
  (forall a b i, 0 <= i -> Z.testbit (g a b) i = f (Z.testbit a i) (Z.testbit b i)) -> inside w a -> inside w b -> inside w (g a b).
Proof.
  intros W G A B. assert (S : (g a b <? 0) = f (a <? 0) (b <? 0)).
  { destruct (Z.ltb_spec (g a b) 0) as [N|N].
    - apply Z.bits_iff_neg_ex in N as (k & N). specialize (N (Z.max k (w - 1) + 1) ltac:(lia)). rewrite G in N by lia.
      rewrite (proj1 (inside_bits w a W) A) in N by lia. rewrite (proj1 (inside_bits w b W) B) in N by lia. now rewrite N.
    - apply Z.bits_iff_nonneg_ex in N as (k & N). specialize (N (Z.max k (w - 1) + 1) ltac:(lia)). rewrite G in N by lia.
      rewrite (proj1 (inside_bits w a W) A) in N by lia. rewrite (proj1 (inside_bits w b W) B) in N by lia. now rewrite N. }
  apply inside_bits; [exact W|]. intros i I. rewrite G by lia. rewrite S. f_equal; [apply (proj1 (inside_bits w a W) A)|apply (proj1 (inside_bits w b W) B)]; lia.
Qed.
Lemma pow_mono a b : a <= b -> 2 ^ a <= 2 ^ b.
Proof. intro H. destruct (Z.neg_nonneg_cases a) as [N|N]; [rewrite (Z.pow_neg_r 2 a) by lia; apply Z.pow_nonneg; lia|apply Z.pow_le_mono_r; lia]. Qed.

Lemma obind_inv {A B} (o : option A) (k : A -> option B) b : obind o k = Some b -> exists a, o = Some a /\ k a = Some b.
Proof. destruct o; [eauto|discriminate]. Qed.
Lemma omap_inv {A B} (f : A -> B) (o : option A) b : omap f o = Some b -> exists a, o = Some a /\ f a = b.
Proof. destruct o; [intro E; injection E as <-; eauto|discriminate]. Qed.

Lemma represent_in t z v : 0 <= snd t -> represent t z = Some v -> in_range t v.
Proof.
  intro W. unfold represent. destruct (fst t) eqn:S.
  - destruct (holds t z) eqn:H; [|discriminate]. intro E; injection E as <-. now apply holds_iff.
  - intro E; injection E as <-. unfold in_range. rewrite S. apply Z.mod_pos_bound. apply Z.pow_pos_nonneg; lia.
Qed.
Lemma represent_id t z : in_range t z -> represent t z = Some z.
Proof.
  intro H. unfold represent. rewrite (proj2 (holds_iff t z) H). unfold in_range in H. destruct (fst t); [reflexivity|]. now rewrite Z.mod_small.
Qed.
Lemma represent_signed t z v : fst t = true -> represent t z = Some v -> v = z.
Proof. unfold represent. intros ->. destruct (holds t z); [|discriminate]. intro E; now injection E as <-. Qed.

(** The operators that evaluate both operands. *)
Lemma c_val_binary model int lit_ty vars l op r : op <> OAnd -> op <> OOr ->
  c_val model int lit_ty vars (EBinary l op r) =
  obind (c_val model int lit_ty vars l) (fun a => obind (c_val model int lit_ty vars r) (fun b =>
      if is_shift op then obind (omap (promote int) (c_type model int lit_ty vars l)) (fun t => c_shift t op a b)
      else obind (c_arith int (c_type model int lit_ty vars l) (c_type model int lit_ty vars r)) (fun t =>
        obind (represent t a) (fun a => obind (represent t b) (fun b => c_binary t op a b))))).
Proof. intros N1 N2. destruct op; try reflexivity; congruence. Qed.

Section Values.
Variables (T : int_ty) (bt : builtin) (model : builtin -> option int_ty) (vars : ident_expr -> option (int_ty * Z)).
Notation sg := (fst T).
Notation w := (snd T).
Hypothesis W : 16 <= w <= 64.
Hypothesis Model : model bt = Some T.
Hypothesis Typed : forall n t v, vars n = Some (t, v) -> t = T.

(** Literals have the signed type of the same width. *)
Notation Small := (true, w).
Notation C := (c_val model w (fun _ => Small) vars).
Notation Ct := (c_type model w (fun _ => Small) vars).
Definition wide (t : int_ty) : Prop := t = T \/ t = Small.

Lemma half_64 : 2 ^ 15 <= 2 ^ (w - 1) <= 2 ^ 63.
Proof. split; apply Z.pow_le_mono_r; lia. Qed.
Lemma full_64 : 2 ^ w = 2 * 2 ^ (w - 1).
Proof. apply half_double. lia. Qed.
Lemma bit_in b t : wide t -> in_range t (bit b).
Proof. pose proof half_64. pose proof full_64. unfold in_range. intros [-> | ->]; cbn [fst snd]; destruct b; try destruct sg; cbn [bit]; lia. Qed.
Lemma small_T : sg = true -> T = Small.
Proof. clear. destruct T as [b z]. cbn [fst snd]. now intros ->. Qed.
Lemma signed_wide t : sg = true -> wide t -> t = T.
Proof. intros S [-> | ->]; [reflexivity|]. now rewrite small_T. Qed.
Lemma wide_common a b : wide a -> wide b -> wide (common a b).
Proof.
  clear. unfold wide. destruct T as [s z]. cbn [snd]. intros [-> | ->] [-> | ->]; destruct s; cbn [common]; rewrite ?Z.max_id, ?Z.ltb_irrefl; auto.
Qed.
Lemma wide_promote t : wide t -> promote w t = t.
Proof. unfold promote, wide. intros [-> | ->]; cbn [snd]; now rewrite Z.ltb_irrefl. Qed.
Lemma wide_w t : wide t -> snd t = w.
Proof. intros [-> | ->]; reflexivity. Qed.
Lemma arith_wide a b t : (forall x, a = Some x -> wide x) -> (forall x, b = Some x -> wide x) -> c_arith w a b = Some t -> wide t.
Proof.
  intros A B E. unfold c_arith in E. apply obind_inv in E as (x & Ex & E). apply omap_inv in E as (y & Ey & <-).
  specialize (A _ Ex). specialize (B _ Ey). rewrite !wide_promote by assumption. now apply wide_common.
Qed.
Lemma type_wide e t : int_expr (eq bt) e -> Ct e = Some t -> wide t.
Proof.
  revert t. induction e as [n|n l IHl|t e IHe|l|a IHa|l IHl|t|op e IHe|l op r IHa IHb|a b d IHa IHb IHd] using expr_ind'; intros t0 I; cbn [c_type]; try discriminate; try (destruct I; fail).
  - intro E. apply omap_inv in E as ([t v] & E & <-). left. now apply Typed in E.
  - destruct t as [b| | | |]; try discriminate. destruct I as [<- I]. rewrite Model. intro E; injection E as <-. now left.
  - destruct l; try discriminate. intro E; injection E as <-. now right.
  - destruct op; try discriminate; try (intro E; apply omap_inv in E as (x & E & <-); cbn in I; specialize (IHe _ I E); now rewrite wide_promote).
    intro E; injection E as <-. now right.
  - destruct I as (_ & I1 & I2). destruct op; try discriminate; try (intro E; injection E as <-; now right); try (apply arith_wide; auto).
    all: intro E; apply omap_inv in E as (x & E & <-); specialize (IHa _ I1 E); now rewrite wide_promote.
  - destruct I as (_ & I1 & I2). apply arith_wide; auto.
Qed.

Lemma shr_in t a b : wide t -> in_range t a -> 0 <= b -> in_range t (a / 2 ^ b).
Proof.
  intros Wt A B. pose proof (Z.pow_pos_nonneg 2 b ltac:(lia) B) as P.
  assert (0 <= a -> 0 <= a / 2 ^ b <= a) by (intro; split; [apply Z.div_pos; lia|apply Z.div_le_upper_bound; nia]).
  assert (a < 0 -> a <= a / 2 ^ b < 0) by (intro; split; [apply Z.div_le_lower_bound; nia|apply Z.div_lt_upper_bound; lia]).
  unfold in_range in *. destruct (fst t); lia.
Qed.
Lemma rem_in t a b : wide t -> in_range t a -> b <> 0 -> in_range t (Z.rem a b).
Proof.
  intros Wt A N. pose proof half_64. pose proof full_64. rewrite <- (wide_w t Wt) in *.
  assert (H1 : Z.abs (Z.rem a b) <= Z.abs a).
  { rewrite <- Z.rem_abs by exact N. apply Z.rem_le; lia. }
  unfold in_range in *. destruct (Z.le_ge_cases 0 a) as [P|P]; [pose proof (Z.rem_nonneg a b N P)|pose proof (Z.rem_nonpos a b N ltac:(lia))]; destruct (fst t); lia.
Qed.
Lemma bits_in t (f : bool -> bool -> bool) (g : Z -> Z -> Z) a b : wide t ->
  (forall a b i, 0 <= i -> Z.testbit (g a b) i = f (Z.testbit a i) (Z.testbit b i)) ->
  (forall a b, 0 <= a -> 0 <= b -> 0 <= g a b) -> in_range t a -> in_range t b -> in_range t (g a b).
Proof.
  intros Wt G P A B. pose proof (wide_w t Wt) as Ew. unfold in_range in *. destruct (fst t).
  - apply (bitop_in (snd t) f); auto. lia.
  - split; [apply P; lia|]. assert (I : inside (snd t + 1) (g a b)); [|unfold inside in I; replace (snd t + 1 - 1) with (snd t) in I by lia; lia].
    apply (bitop_in _ f); auto; [lia| |]; unfold inside; replace (snd t + 1 - 1) with (snd t) by lia; lia.
Qed.
Lemma binary_in t op a b v : wide t -> in_range t a -> in_range t b -> c_binary t op a b = Some v -> in_range t v.
Proof.
  intros Wt A B. assert (0 <= snd t) by (rewrite wide_w by assumption; lia). destruct op; cbn [c_binary]; try discriminate; try (intro F; now apply represent_in in F);
    try (intro F; injection F as <-; now apply bit_in).
  - destruct (b =? 0); [discriminate|]. intro F; now apply represent_in in F.
  - destruct (Z.eqb_spec b 0) as [|N]; [discriminate|]. destruct (represent t _); [|discriminate]. intro F; injection F as <-. now apply rem_in.
  - intro F; injection F as <-. apply (bits_in t andb); auto; intros; [apply Z.land_spec|apply Z.land_nonneg; auto].
  - intro F; injection F as <-. apply (bits_in t xorb); auto; intros; [apply Z.lxor_spec|apply Z.lxor_nonneg; split; auto].
  - intro F; injection F as <-. apply (bits_in t orb); auto; intros; [apply Z.lor_spec|apply Z.lor_nonneg; auto].
Qed.
Lemma shift_in t op a b v : wide t -> in_range t a -> c_shift t op a b = Some v -> in_range t v.
Proof.
  intros Wt A. assert (0 <= snd t) by (rewrite wide_w by assumption; lia). unfold c_shift. destruct ((0 <=? b) && (b <? snd t)) eqn:E; [|discriminate].
  apply andb_true_iff in E as [E _]. apply Z.leb_le in E. destruct op; try discriminate.
  - destruct (fst t && (a <? 0)); [discriminate|]. intro F; now apply represent_in in F.
  - intro F; injection F as <-. now apply shr_in.
Qed.

(** The value of an expression is in the range of its type. *)
Lemma c_val_in e : forall v, int_expr (eq bt) e -> C e = Some v -> exists t, Ct e = Some t /\ wide t /\ in_range t v.
Proof.
  assert (HS : wide Small) by now right.
  assert (Rep : forall t z v, wide t -> represent t z = Some v -> in_range t v).
  { intros t z v Wt. apply represent_in. rewrite wide_w by assumption. lia. }
  induction e as [n|n l IHl|t e IHe|l|a IHa|l IHl|t|op e IHe|l op r IHa IHb|a b d IHa IHb IHd] using expr_ind'; intros v I; cbn [c_val]; try discriminate; try (destruct I; fail).
  - intro E. apply obind_inv in E as ([t x] & V & E). cbn [fst snd] in E. destruct (holds t x) eqn:H; [|discriminate]. injection E as <-. cbn [c_type]. rewrite V.
    exists t. split; [reflexivity|]. split; [left; now apply Typed in V|now apply holds_iff].
  - destruct t as [b| | | |]; try discriminate. destruct I as [<- I]. cbn [c_type]. rewrite Model. cbn [obind]. intro E. apply obind_inv in E as (x & _ & E).
    exists T. split; [reflexivity|]. assert (wide T) by now left. split; [assumption|]. eapply Rep; eassumption.
  - destruct l as [| | |i]; try discriminate. destruct (holds Small (int_value i)) eqn:H; [|discriminate]. intro E; injection E as <-.
    exists Small. split; [reflexivity|]. split; [assumption|now apply holds_iff].
  - destruct op; try discriminate; cbn in I.
    + intro E. destruct (IHe _ I E) as (t & Et & Wt & Rt). cbn [c_type]. rewrite Et. cbn [omap]. rewrite wide_promote by assumption. eauto.
    + intro E. apply obind_inv in E as (t & Et & E). apply obind_inv in E as (x & Ex & E). cbn [c_type]. rewrite Et. exists t. split; [reflexivity|].
      apply omap_inv in Et as (t' & Et & <-). assert (Wt : wide t') by (eapply type_wide; eauto). rewrite wide_promote in * by assumption. split; [assumption|]. eapply Rep; eassumption.
    + intro E. apply omap_inv in E as (x & _ & <-). exists Small. split; [reflexivity|]. split; [assumption|]. now apply bit_in.
    + intro E. apply obind_inv in E as (t & Et & E). apply obind_inv in E as (x & Ex & E). cbn [c_type]. rewrite Et. exists t. split; [reflexivity|].
      apply omap_inv in Et as (t' & Et & <-). assert (Wt : wide t') by (eapply type_wide; eauto). rewrite wide_promote in * by assumption. split; [assumption|]. eapply Rep; eassumption.
  - destruct I as (P & I1 & I2).
    assert (Lg : forall v, (v = 0 \/ v = 1) -> exists t, Some Small = Some t /\ wide t /\ in_range t v).
    { intros z Hz. exists Small. split; [reflexivity|]. split; [assumption|]. destruct Hz as [-> | ->]; [apply (bit_in false)|apply (bit_in true)]; assumption. }
    destruct (bool_dec (match op with OAnd | OOr => true | _ => false end) true) as [Lo|Lo].
    { assert (Hb : forall b, bit b = 0 \/ bit b = 1) by (intros []; auto).
      destruct op; try discriminate Lo; cbn [c_type]; intro E; apply obind_inv in E as (x & E1 & E); destruct (x =? 0);
        try (injection E as <-; apply Lg; now auto); apply omap_inv in E as (y & _ & <-); apply Lg; auto. }
    intro E. change (C (EBinary l op r) = Some v) in E. rewrite c_val_binary in E by (intros ->; now apply Lo).
    apply obind_inv in E as (x & E1 & E). apply obind_inv in E as (y & E2 & E).
    destruct (IHa _ I1 E1) as (t1 & T1 & W1 & R1). destruct (IHb _ I2 E2) as (t2 & T2 & W2 & R2).
    destruct (is_shift op) eqn:Sh.
    + rewrite T1 in E. cbn [omap obind] in E. rewrite wide_promote in E by assumption.
      exists t1. split; [destruct op; try discriminate Sh; cbn [c_type]; rewrite T1; cbn [omap]; now rewrite wide_promote by assumption|].
      split; [assumption|]. eapply shift_in; eassumption.
    + apply obind_inv in E as (t & Et & E). apply obind_inv in E as (x' & Ex & E). apply obind_inv in E as (y' & Ey & E).
      assert (Wt : wide t) by (eapply arith_wide; [| |exact Et]; intros z Ez; [rewrite T1 in Ez|rewrite T2 in Ez]; injection Ez as <-; assumption).
      assert (In : in_range t v) by (apply (binary_in t op x' y'); eauto).
      destruct op; try discriminate Sh; try discriminate P; try (exfalso; now apply Lo); cbn [c_type c_binary] in *; try (exists t; auto; fail);
        injection E as <-; apply Lg; match goal with |- bit ?b = 0 \/ _ => destruct b; auto end.
  - destruct I as (I0 & I1 & I2). intro E. apply obind_inv in E as (x & E0 & E). apply obind_inv in E as (t & Et & E). apply obind_inv in E as (y & Ey & E).
    cbn [c_type]. exists t. split; [assumption|].
    assert (Wt : wide t) by (eapply arith_wide; [| |exact Et]; intros z Ez; [exact (type_wide b z I1 Ez)|exact (type_wide d z I2 Ez)]). split; [assumption|]. eapply Rep; eassumption.
Qed.

(** ** Trees *)

(** As [well_negated], without literals, and [full_complements]. *)
Fixpoint strict (e : expr) : Prop :=
  match e with
  | EUnary op e => strict e /\ match op with UNot => is_truth e = true | UComp => may_be_truth e = false /\ (sg = false -> Ct e = Some T) | _ => True end
  | ECast _ e => strict e
  | EBinary a _ b => strict a /\ strict b
  | ETernary a b d => strict a /\ strict b /\ strict d
  | _ => True
  end.

Context {U : Unicode}.
Variables (cx : cgctx) (c : lctx) (rvars : list rtok -> option Z) (int : list rtok -> bool).
Hypothesis Vars : same_vars T cx c vars rvars.
Hypothesis Int : int (builtin_toks cx bt) = true.

Notation Rk := (r_kind T int).
Notation Rv := (r_val T int rvars).
(** A result of Rust is the one of C; unsigned operations may panic where C wraps. *)
Definition agrees (o : option rval) (k : kind) (v : Z) : Prop :=
  match o with Some r => r = stands_for k v /\ in_range T v | None => sg = false end.
Definition sound (e : expr) : Prop := forall x v k, int_expr (eq bt) e -> strict e -> tree cx c e x -> C e = Some v -> Rk x = Some k ->
  agrees (Rv x) k v /\ (k = KBool -> (v = 0 \/ v = 1) /\ may_be_truth e = true) /\ (is_truth e = true -> k = KBool).

Lemma T_w : wide T.
Proof. now left. Qed.
Lemma fits_in z : in_range T z -> fits T z = Some z.
Proof. intro H. unfold fits. now rewrite (proj2 (holds_iff T z) H). Qed.
Lemma fits_inv z v : fits T z = Some v -> v = z /\ in_range T v.
Proof. unfold fits. destruct (holds T z) eqn:H; [|discriminate]. intro E; injection E as <-. split; [reflexivity|]. now apply holds_iff. Qed.
(** Representing a result in C, and checking it in Rust. *)
Lemma rep_fits t z v : wide t -> represent t z = Some v -> match fits T z with Some r => r = v /\ in_range T v | None => sg = false end.
Proof.
  intros Wt E. destruct (fits T z) as [r|] eqn:F.
  - apply fits_inv in F as [-> R]. assert (v = z); [|subst; auto]. destruct Wt as [-> | ->].
    + rewrite represent_id in E by assumption. now injection E as <-.
    + now apply represent_signed in E.
  - destruct sg eqn:S; [|reflexivity]. rewrite (signed_wide t S Wt) in E. unfold represent in E. unfold fits in F. rewrite S in *. destruct (holds _ z); discriminate.
Qed.
Lemma rep_same t z v : wide t -> in_range T z -> represent t z = Some v -> v = z.
Proof. intros Wt R E. apply (rep_fits t z v Wt) in E. rewrite fits_in in E by assumption. now destruct E. Qed.
Lemma rep_bit t z v : wide t -> (z = 0 \/ z = 1) -> represent t z = Some v -> v = z.
Proof. intros Wt R E. rewrite represent_id in E; [now injection E as <-|]. destruct R as [-> | ->]; [apply (bit_in false)|apply (bit_in true)]; assumption. Qed.
Lemma low_id z : in_range T z -> low T z = z.
Proof.
  intro R. pose proof full_64. unfold low, in_range in *. destruct sg; [|now apply Z.mod_small].
  rewrite Z.mod_small by lia. lia.
Qed.
Lemma bit_T b : in_range T (bit b).
Proof. apply bit_in. now left. Qed.
Lemma truth_T v : (v = 0 \/ v = 1) -> in_range T v.
Proof. intros [-> | ->]; [apply (bit_T false)|apply (bit_T true)]. Qed.
Lemma agrees_some k v : in_range T v -> agrees (Some (stands_for k v)) k v.
Proof. intro H. split; auto. Qed.
Lemma agrees_fits t z v : wide t -> represent t z = Some v -> agrees (omap VInt (fits T z)) KInt v.
Proof. intros Wt E. apply (rep_fits t z v Wt) in E. destruct (fits T z) as [r|]; cbn [omap agrees]; [|exact E]. destruct E as [-> R]. split; [reflexivity|exact R]. Qed.

Lemma number_val v s k : Rk (number v s) = Some k -> k = KInt /\ Rv (number v s) = omap VInt (fits T v).
Proof.
  unfold number. intros K. destruct (v <? 0) eqn:N; cbn [r_kind] in K.
  - change (str_eqb (st "-") (st "-")) with true in K. cbv iota in K. destruct (negb (fst T)) eqn:S; [discriminate|]. injection K as <-. split; [reflexivity|].
    cbn [r_val]. change (str_eqb (st "-") (st "-")) with true. cbv iota. rewrite S. now rewrite Z.opp_involutive.
  - injection K as <-. split; reflexivity.
Qed.
Lemma number_agrees v s k : Rk (number v s) = Some k -> in_range Small v -> k = KInt /\ agrees (Rv (number v s)) KInt v.
Proof.
  intros K R. apply number_val in K as [-> ->]. split; [reflexivity|]. apply (agrees_fits Small); [now right|]. now apply represent_id.
Qed.

Ltac no_access := match goal with K : volatile_access _ _ |- _ => destruct K as [K _]; discriminate end.
Lemma var_sound n : sound (EVar n).
Proof.
  intros x v k _ _ Tr E K. cbn [c_val] in E. apply obind_inv in E as ([t z] & Vn & E). cbn [fst snd] in E. destruct (holds t z) eqn:H; [|discriminate]. injection E as <-.
  destruct (Vars _ _ _ Vn) as (-> & O & R & P). apply holds_iff in H as I. inversion Tr; subst; try no_access.
  - destruct n as [i|s|l]; try discriminate. match goal with Y : is_leaf _ = true |- _ => rename Y into L end. cbn in O, L. cbn [is_leaf] in L. unfold one_of in O, L. cbn [existsb] in O, L.
    apply orb_false_iff in O as [O1 O]. apply orb_false_iff in O as [O2 O]. rewrite O1, O2 in L. discriminate.
  - cbn [r_kind] in K. injection K as <-. cbn [r_val]. match goal with Y : var_toks _ _ _ = Some _ |- _ => rewrite (P _ Y) end. cbn [obind].
    rewrite fits_in by assumption. split; [now split|]. split; discriminate.
  - destruct O.
  - now destruct (R _ eq_refl).
Qed.
Lemma int_sound l : sound (ELit l).
Proof.
  intros x v k _ _ Tr E K. cbn [c_val] in E. destruct l as [| | |i]; try discriminate. destruct (holds Small (int_value i)) eqn:H; [|discriminate]. injection E as <-. apply holds_iff in H.
  inversion Tr; subst; try discriminate; try no_access.
  apply number_agrees in K as [-> K]; [|exact H]. split; [exact K|]. split; discriminate.
Qed.
Lemma cast_sound t e : sound e -> sound (ECast t e).
Proof.
  intros IH x v k I S Tr E K. cbn [int_expr] in I. destruct t as [b| | | |]; try (destruct I; fail). destruct I as [<- I]. cbn [strict] in S.
  cbn [c_val] in E. rewrite Model in E. cbn [obind] in E. apply obind_inv in E as (u & E & Ru).
  assert (G : forall y k', Rk y = Some k' -> agrees (Rv y) k' u -> (k' = KBool -> u = 0 \/ u = 1) -> agrees (omap (fun v => VInt (as_int v)) (Rv y)) KInt v).
  { intros y k' Ky A B. destruct (Rv y) as [r|]; [|exact A]. destruct A as [-> A]. cbn [omap]. apply rep_same in Ru; [|exact T_w|exact A]. subst v. split; [|exact A].
    destruct k'; cbn [stands_for as_int]; [reflexivity|]. destruct (B eq_refl) as [-> | ->]; reflexivity. }
  inversion Tr; subst; try discriminate; try no_access.
  - cbn [c_val] in E. destruct (holds Small _) eqn:H; [|discriminate]. injection E as <-. apply holds_iff in H.
    match goal with Y : ty_toks _ _ _ = Some _ |- _ => cbn [ty_toks] in Y; injection Y as <- end. cbn [r_kind r_val] in *. rewrite Int in *. apply omap_inv in K as (k' & K & <-).
    pose proof K as K'. apply number_agrees in K as [-> K]; [|exact H]. split; [|split; discriminate]. apply (G _ _ K' K). discriminate.
  - match goal with Y : ty_toks _ _ _ = Some _ |- _ => cbn [ty_toks] in Y; injection Y as <- end. match goal with Y : tree _ _ e _ |- _ => rename Y into T' end. cbn [r_kind r_val] in *. rewrite Int in *. apply omap_inv in K as (k' & K & <-).
    destruct (IH _ _ _ I S T' E K) as (V & B & _). split; [|split; discriminate]. apply (G _ _ K V). intro Kb. apply (B Kb).
Qed.
Lemma truth_bit v : (v = 0 \/ v = 1) -> bit (negb (v =? 0)) = v.
Proof. intros [-> | ->]; reflexivity. Qed.
Lemma unary_sound op e : sound e -> sound (EUnary op e).
Proof.
  intros IH x v k I [S N] Tr E K. assert (I' : int_expr (eq bt) e) by (cbn in I; destruct op; try destruct I; exact I). clear I. rename I' into I.
  cbn [c_val] in E. destruct op; try discriminate.
  - inversion Tr; subst; try discriminate; try no_access. all: match goal with Y : _ = UNot \/ _ = UComp |- _ => destruct Y; discriminate end.
  - apply obind_inv in E as (t & Et & E). apply obind_inv in E as (a & E & F).
    apply omap_inv in Et as (t' & Et & <-). assert (Wt : wide t') by exact (type_wide e t' I Et). rewrite wide_promote in F by assumption.
    inversion Tr; subst; try discriminate; try no_access; try (match goal with Y : _ = UNot \/ _ = UComp |- _ => destruct Y; discriminate end).
    cbn [r_kind] in K. change (str_eqb (st "-") (st "-")) with true in K. cbv iota in K. destruct (negb (fst T)) eqn:Sg; [discriminate|].
    match goal with Y : tree _ _ e ?x |- _ => rename Y into T'; rename x into y end.
    destruct (Rk y) as [[]|] eqn:K'; try discriminate. injection K as <-.
    destruct (IH _ _ _ I S T' E K') as (V & _ & _). split; [|split; discriminate].
    cbn [r_val]. change (str_eqb (st "-") (st "-")) with true. cbv iota. rewrite Sg.
    apply (agrees_fits _ _ _ Wt) in F.
    assert (V' : forall z, Rv y = Some (VInt z) -> z = a) by (intros z Y; rewrite Y in V; destruct V as [V _]; cbn [stands_for] in V; now injection V).
    destruct y as [|[z s| | | |]| | | | | | | | | | | | | | | | |];
      try (destruct (Rv _) as [[?|?]|]; [rewrite (V' _ eq_refl); exact F|destruct V as [V _]; discriminate|exact V]).
    cbn [r_val] in V, V'. destruct (fits T z) as [z'|] eqn:Fz.
    + apply fits_inv in Fz as [-> _]. rewrite (V' _ eq_refl). exact F.
    + cbn in V. rewrite V in Sg. discriminate.
  - apply omap_inv in E as (a & E & <-). inversion Tr; subst; try discriminate; try no_access.
    match goal with Y : tree _ _ e ?x |- _ => rename Y into T'; rename x into y end.
    cbn [r_kind] in K. change (str_eqb (st "!") (st "-")) with false in K. change (str_eqb (st "!") (st "!")) with true in K. cbv iota in K.
    destruct (IH _ _ _ I S T' E K) as (V & B & Tt). specialize (Tt N). subst k. destruct (B eq_refl) as [B' _].
    split; [|split; [intros _; split; [destruct (a =? 0); auto|reflexivity]|reflexivity]].
    cbn [r_val]. change (str_eqb (st "!") (st "-")) with false. change (str_eqb (st "!") (st "!")) with true. cbv iota.
    destruct (Rv y) as [r|]; [|exact V]. destruct V as [-> V]. cbn [stands_for]. split; [|apply bit_T]. destruct (a =? 0); reflexivity.
  - apply obind_inv in E as (t & Et & E). apply obind_inv in E as (a & E & F).
    apply omap_inv in Et as (t' & Et & <-). assert (Wt : wide t') by exact (type_wide e t' I Et). rewrite wide_promote in F by assumption.
    inversion Tr; subst; try discriminate; try no_access.
    match goal with Y : tree _ _ e ?x |- _ => rename Y into T'; rename x into y end.
    cbn [r_kind] in K. change (str_eqb (st "!") (st "-")) with false in K. change (str_eqb (st "!") (st "!")) with true in K. cbv iota in K.
    destruct N as [N1 N2]. destruct (IH _ _ _ I S T' E K) as (V & B & Tt). destruct k; [|destruct (B eq_refl); congruence].
    split; [|split; discriminate].
    cbn [r_val]. change (str_eqb (st "!") (st "-")) with false. change (str_eqb (st "!") (st "!")) with true. cbv iota.
    destruct (Rv y) as [r|]; [|exact V]. destruct V as [-> V]. cbn [stands_for]. unfold agrees.
    assert (X : v = low T (Z.lnot a)).
    { destruct sg eqn:Sg.
      - rewrite (signed_wide t' Sg Wt) in F.
        assert (R : in_range T (Z.lnot a)) by (unfold in_range in V |- *; rewrite Sg in V |- *; unfold Z.lnot; lia).
        rewrite low_id by exact R. exact (rep_same T _ _ T_w R F).
      - rewrite N2 in Et by reflexivity. injection Et as <-. unfold represent, low in *. rewrite Sg in *. now injection F as <-. }
    rewrite <- X. split; [reflexivity|].
    assert (R : in_range t' v) by (apply represent_in in F; [exact F|rewrite wide_w by assumption; lia]).
    destruct sg eqn:Sg; [|rewrite N2 in Et by reflexivity; injection Et as <-; exact R].
    now rewrite (signed_wide t' Sg Wt) in R.
Qed.
Lemma both_inv a b k : both a b = Some k -> a = Some k /\ b = Some k.
Proof. destruct a as [[]|], b as [[]|]; cbn; try discriminate; intro E; injection E as <-; auto. Qed.
(** The type of the result of an operator on operands of one type. *)
Definition op_kind (op : binop) (k : kind) : option kind :=
  match op with
  | OLt | OLte | OGt | OGte | OEq | ONeq => Some KBool
  | OAnd | OOr => match k with KBool => Some KBool | KInt => None end
  | OBitAnd | OBitXor | OBitOr => Some k
  | _ => match k with KInt => Some KInt | KBool => None end
  end.
Lemma kind_binary op x y k : is_plain op = true -> Rk (XBin (rust_op op) x y) = Some k ->
  exists k0, Rk x = Some k0 /\ Rk y = Some k0 /\ op_kind op k0 = Some k.
Proof.
  intros P K. cbn [r_kind] in K. destruct (both (Rk x) (Rk y)) as [k0|] eqn:B; [|discriminate].
  apply both_inv in B as [B1 B2]. exists k0. split; [exact B1|]. split; [exact B2|].
  destruct op; try discriminate P; destruct k0; vm_compute in K; exact K.
Qed.
Lemma val_binary op x y : is_plain op = true -> op <> OAnd -> op <> OOr ->
  Rv (XBin (rust_op op) x y) = obind (Rv x) (fun a => obind (Rv y) (fun b => r_binary T (rust_op op) a b)).
Proof. intros P N1 N2. destruct op; try discriminate P; try congruence; reflexivity. Qed.
(** An operator on operands that C and Rust agree on. *)
Lemma op_sound op t a b v k0 k : wide t -> in_range T a -> in_range T b -> is_plain op = true -> is_shift op = false -> op <> OAnd -> op <> OOr ->
  (k0 = KBool -> (a = 0 \/ a = 1) /\ (b = 0 \/ b = 1)) ->
  c_binary t op a b = Some v -> op_kind op k0 = Some k ->
  agrees (r_binary T (rust_op op) (stands_for k0 a) (stands_for k0 b)) k v.
Proof.
  intros Wt IA IB P Sh N1 N2 B E K.
  assert (Cmp : forall f, r_compare (rust_op op) = Some f -> v = bit (f a b) -> k = KBool ->
    agrees (r_binary T (rust_op op) (stands_for k0 a) (stands_for k0 b)) k v).
  { intros f F -> ->. unfold r_binary. rewrite F.
    assert (R : as_int (stands_for k0 a) = a /\ as_int (stands_for k0 b) = b).
    { destruct k0; cbn [stands_for as_int]; [auto|]. destruct (B eq_refl). now rewrite !truth_bit. }
    destruct R as [R1 R2]. rewrite R1, R2. assert (X : VBool (f a b) = stands_for KBool (bit (f a b))) by (destruct (f a b); reflexivity).
    rewrite X. destruct k0; cbn [stands_for]; apply (agrees_some KBool), bit_T. }
  assert (Bits : forall (g : Z -> Z -> Z) (f : bool -> bool -> bool),
    (forall a b i, 0 <= i -> Z.testbit (g a b) i = f (Z.testbit a i) (Z.testbit b i)) -> (forall a b, 0 <= a -> 0 <= b -> 0 <= g a b) ->
    agrees (Some (VInt (g a b))) KInt (g a b)).
  { intros g f G Pg. apply (agrees_some KInt). apply (bits_in T f); auto. exact T_w. }
  destruct op; try discriminate P; try discriminate Sh; try congruence;
    try (apply (Cmp _ eq_refl); [injection E as <-; reflexivity|injection K as <-; reflexivity]); clear Cmp.
  - destruct k0; [|discriminate K]. injection K as <-. change (agrees (omap VInt (fits T (a * b))) KInt v). apply (agrees_fits t); assumption.
  - destruct k0; [|discriminate K]. injection K as <-. change (agrees (omap VInt (if b =? 0 then None else fits T (Z.quot a b))) KInt v).
    cbn [c_binary] in E. destruct (b =? 0); [discriminate|]. apply (agrees_fits t); assumption.
  - destruct k0; [|discriminate K]. injection K as <-.
    change (agrees (omap VInt (if b =? 0 then None else if fits T (Z.quot a b) then Some (Z.rem a b) else None)) KInt v).
    cbn [c_binary] in E. destruct (Z.eqb_spec b 0) as [|Nb]; [discriminate|]. destruct (represent t (Z.quot a b)) as [q|] eqn:Q; [|discriminate]. injection E as <-.
    apply (rep_fits t _ _ Wt) in Q. destruct (fits T (Z.quot a b)); [|exact Q]. apply (agrees_some KInt). apply rem_in; auto. exact T_w.
  - destruct k0; [|discriminate K]. injection K as <-. change (agrees (omap VInt (fits T (a + b))) KInt v). apply (agrees_fits t); assumption.
  - destruct k0; [|discriminate K]. injection K as <-. change (agrees (omap VInt (fits T (a - b))) KInt v). apply (agrees_fits t); assumption.
  - cbn [c_binary] in E. injection E as <-. injection K as <-. destruct k0; [apply (Bits Z.land andb); intros; [apply Z.land_spec|apply Z.land_nonneg; auto]|].
    destruct (B eq_refl) as [[-> | ->] [-> | ->]]; (apply (agrees_some KBool 0) || apply (agrees_some KBool 1)); (apply (bit_T false) || apply (bit_T true)).
  - cbn [c_binary] in E. injection E as <-. injection K as <-. destruct k0; [apply (Bits Z.lxor xorb); intros; [apply Z.lxor_spec|apply Z.lxor_nonneg; split; auto]|].
    destruct (B eq_refl) as [[-> | ->] [-> | ->]]; (apply (agrees_some KBool 0) || apply (agrees_some KBool 1)); (apply (bit_T false) || apply (bit_T true)).
  - cbn [c_binary] in E. injection E as <-. injection K as <-. destruct k0; [apply (Bits Z.lor orb); intros; [apply Z.lor_spec|apply Z.lor_nonneg; auto]|].
    destruct (B eq_refl) as [[-> | ->] [-> | ->]]; (apply (agrees_some KBool 0) || apply (agrees_some KBool 1)); (apply (bit_T false) || apply (bit_T true)).
Qed.
Lemma shift_sound op t a b v : wide t -> in_range T a -> in_range t a -> is_shift op = true -> c_shift t op a b = Some v ->
  agrees (r_binary T (rust_op op) (VInt a) (VInt b)) KInt v.
Proof.
  intros Wt IA IA' Sh E. unfold c_shift in E. rewrite (wide_w t Wt) in E. destruct op; try discriminate Sh.
  - change (agrees (omap VInt (if (0 <=? b) && (b <? w) then Some (low T (a * 2 ^ b)) else None)) KInt v).
    destruct ((0 <=? b) && (b <? w)) eqn:G; [|discriminate]. apply andb_true_iff in G as [G _]. apply Z.leb_le in G. cbn [omap].
    assert (P : 0 < 2 ^ b) by (apply Z.pow_pos_nonneg; lia).
    destruct (fst t && (a <? 0)) eqn:N; [discriminate|].
    assert (X : in_range T v /\ low T (a * 2 ^ b) = v).
    { destruct Wt as [-> | ->].
      - assert (R : in_range T v) by (apply represent_in in E; [exact E|lia]). split; [exact R|].
        destruct sg eqn:S; [rewrite (represent_signed T _ _ S E) in R |- *; now apply low_id|].
        unfold represent, low in *. rewrite S in *. now injection E as <-.
      - cbn [fst andb] in N. apply Z.ltb_ge in N. pose proof (represent_in Small _ _ ltac:(cbn; lia) E) as R.
        apply represent_signed in E; [|reflexivity]. subst v.
        assert (R' : in_range T (a * 2 ^ b)).
        { pose proof full_64. unfold in_range in *. cbn [fst snd] in R. destruct sg; nia. }
        split; [exact R'|]. now apply low_id. }
    destruct X as [R ->]. now apply (agrees_some KInt).
  - change (agrees (omap VInt (if (0 <=? b) && (b <? w) then Some (a / 2 ^ b) else None)) KInt v).
    destruct ((0 <=? b) && (b <? w)) eqn:G; [|discriminate]. apply andb_true_iff in G as [G _]. apply Z.leb_le in G. injection E as <-. cbn [omap].
    apply (agrees_some KInt). apply shr_in; auto. exact T_w.
Qed.

Lemma binary_sound l op r : sound l -> sound r -> sound (EBinary l op r).
Proof.
  intros IHl IHr x v k (P & I1 & I2) [S1 S2] Tr E K.
  assert (T' : exists y z, x = XBin (rust_op op) y z /\ tree cx c l y /\ tree cx c r z).
  { inversion Tr; subst; try discriminate; try no_access; eauto;
      match goal with Y : valued _ = true |- _ => destruct op; discriminate | Y : is_assignment _ = true |- _ => destruct op; discriminate end. }
  destruct T' as (y & z & -> & T1 & T2). apply kind_binary in K as (k0 & K1 & K2 & K); [|exact P].
  assert (Tt : k = KBool -> may_be_truth (EBinary l op r) = true \/ k0 = KBool /\ may_be_truth (EBinary l op r) = may_be_truth l && may_be_truth r).
  { intros ->. destruct op; try discriminate P; cbn [op_kind] in K; try (destruct k0; discriminate); try (left; reflexivity); right; injection K as ->; split; reflexivity. }
  assert (Go : op <> OAnd -> op <> OOr -> agrees (Rv (XBin (rust_op op) y z)) k v /\ (k = KBool -> (v = 0 \/ v = 1) /\ may_be_truth (EBinary l op r) = true) /\ (is_truth (EBinary l op r) = true -> k = KBool)).
  { intros N1 N2. rewrite c_val_binary in E by assumption. apply obind_inv in E as (a & E1 & E). apply obind_inv in E as (b & E2 & E).
    destruct (IHl _ _ _ I1 S1 T1 E1 K1) as (V1 & B1 & _). destruct (IHr _ _ _ I2 S2 T2 E2 K2) as (V2 & B2 & _).
    destruct (c_val_in l a I1 E1) as (t1 & Et1 & W1 & R1). destruct (c_val_in r b I2 E2) as (t2 & Et2 & W2 & R2).
    rewrite val_binary by assumption. destruct (is_shift op) eqn:Sh.
    - rewrite Et1 in E. cbn [omap obind] in E. rewrite wide_promote in E by assumption.
      assert (k0 = KInt /\ k = KInt) as [-> ->] by (destruct op; try discriminate Sh; destruct k0; try discriminate K; injection K as <-; auto).
      split; [|split; [discriminate|destruct op; try discriminate Sh; discriminate]].
      destruct (Rv y) as [ra|]; [|exact V1]. destruct (Rv z) as [rb|]; [|exact V2]. destruct V1 as [-> V1]. destruct V2 as [-> V2]. cbn [obind stands_for].
      apply (shift_sound op t1); assumption.
    - apply obind_inv in E as (t & Et & E). apply obind_inv in E as (a' & Ea & E). apply obind_inv in E as (b' & Eb & E).
      assert (Wt : wide t) by (eapply arith_wide; [| |exact Et]; intros u Eu; [rewrite Et1 in Eu|rewrite Et2 in Eu]; injection Eu as <-; assumption).
      split; [|split].
      + destruct (Rv y) as [ra|]; [|exact V1]. destruct (Rv z) as [rb|]; [|exact V2]. destruct V1 as [-> V1]. destruct V2 as [-> V2]. cbn [obind].
        apply rep_same in Ea; [|assumption|assumption]. apply rep_same in Eb; [|assumption|assumption]. subst a' b'.
        apply (op_sound op t); try assumption. intros ->. split; [apply (B1 eq_refl)|apply (B2 eq_refl)].
      + intros ->. split.
        * destruct op; try discriminate P; try discriminate Sh; try (now destruct N1); try (now destruct N2); cbn [op_kind c_binary] in K, E; try (destruct k0; discriminate K);
            try (injection E as <-; match goal with |- bit ?q = 0 \/ _ => destruct q; auto end);
            injection K as ->; destruct (B1 eq_refl) as [Ba _]; destruct (B2 eq_refl) as [Bb _]; apply rep_bit in Ea; try assumption; apply rep_bit in Eb; try assumption; subst a' b'; injection E as <-;
            destruct Ba as [-> | ->], Bb as [-> | ->]; cbn; auto.
        * destruct (Tt eq_refl) as [X|[-> X]]; [exact X|]. rewrite X. destruct (B1 eq_refl) as [_ ->]. destruct (B2 eq_refl) as [_ ->]. reflexivity.
      + destruct op; try discriminate; intros _; injection K as <-; reflexivity. }
  destruct op; try discriminate P; try (apply Go; discriminate); clear Go.
  - destruct k0; [discriminate K|]. injection K as <-. cbn [c_val] in E. apply obind_inv in E as (a & E1 & E).
    destruct (IHl _ _ _ I1 S1 T1 E1 K1) as (V1 & B1 & _). cbn [r_val]. change (str_eqb (rust_op OAnd) (st "&&")) with true. cbv iota.
    assert (V01 : v = 0 \/ v = 1).
    { destruct (a =? 0); [injection E as <-; auto|]. apply omap_inv in E as (b & _ & <-). destruct (b =? 0); auto. }
    split; [|split; [auto|reflexivity]]. destruct (Rv y) as [ra|]; [|exact V1]. destruct V1 as [-> V1]. cbn [stands_for]. destruct (a =? 0); cbn [negb].
    + injection E as <-. apply (agrees_some KBool 0), (bit_T false).
    + apply omap_inv in E as (b & E2 & <-). destruct (IHr _ _ _ I2 S2 T2 E2 K2) as (V2 & B2 & _). destruct (Rv z) as [rb|]; [|exact V2]. destruct V2 as [-> V2].
      split; [|apply bit_T]. cbn [stands_for]. destruct (b =? 0); reflexivity.
  - destruct k0; [discriminate K|]. injection K as <-. cbn [c_val] in E. apply obind_inv in E as (a & E1 & E).
    destruct (IHl _ _ _ I1 S1 T1 E1 K1) as (V1 & B1 & _). cbn [r_val]. change (str_eqb (rust_op OOr) (st "&&")) with false. change (str_eqb (rust_op OOr) (st "||")) with true. cbv iota.
    assert (V01 : v = 0 \/ v = 1).
    { destruct (a =? 0); [|injection E as <-; auto]. apply omap_inv in E as (b & _ & <-). destruct (b =? 0); auto. }
    split; [|split; [auto|reflexivity]]. destruct (Rv y) as [ra|]; [|exact V1]. destruct V1 as [-> V1]. cbn [stands_for]. destruct (a =? 0); cbn [negb].
    + apply omap_inv in E as (b & E2 & <-). destruct (IHr _ _ _ I2 S2 T2 E2 K2) as (V2 & B2 & _). destruct (Rv z) as [rb|]; [|exact V2]. destruct V2 as [-> V2].
      split; [|apply bit_T]. cbn [stands_for]. destruct (b =? 0); reflexivity.
    + injection E as <-. apply (agrees_some KBool 1), (bit_T true).
Qed.
Lemma ternary_sound a b d : sound a -> sound b -> sound d -> sound (ETernary a b d).
Proof.
  intros IHa IHb IHd x v k (I1 & I2 & I3) (S1 & S2 & S3) Tr E K. inversion Tr; subst; try discriminate; try no_access.
  match goal with Y : tree _ _ a ?p, Y' : tree _ _ b ?q, Y'' : tree _ _ d ?r |- _ =>
    rename Y into T1; rename Y' into T2; rename Y'' into T3; rename p into xa; rename q into xb; rename r into xd end.
  cbn [r_kind] in K. destruct (Rk xa) as [[]|] eqn:Ka; try discriminate. apply both_inv in K as [K1 K2].
  cbn [c_val] in E. apply obind_inv in E as (z & Ez & E). destruct (IHa _ _ _ I1 S1 T1 Ez Ka) as (V & _ & _).
  apply obind_inv in E as (t & Et & E). apply obind_inv in E as (u & Eu & E).
  assert (Wt : wide t) by (eapply arith_wide; [| |exact Et]; intros q Eq; [exact (type_wide b q I2 Eq)|exact (type_wide d q I3 Eq)]).
  assert (G : forall y, agrees (Rv y) k u -> (k = KBool -> u = 0 \/ u = 1) -> agrees (Rv y) k v /\ (k = KBool -> v = 0 \/ v = 1)).
  { intros y A B. split.
    - destruct (Rv y) as [r|]; [|exact A]. destruct A as [-> A]. apply rep_same in E; [|assumption|assumption]. subst v. now split.
    - intro Kb. specialize (B Kb). apply rep_bit in E; [|assumption|assumption]. now subst v. }
  cbn [r_val].
  assert (X : exists y, Rk y = Some k /\ agrees (Rv y) k u /\ (k = KBool -> (u = 0 \/ u = 1) /\ may_be_truth (ETernary a b d) = true) /\ y = if z =? 0 then xd else xb).
  { cbn [may_be_truth]. destruct (z =? 0).
    - destruct (IHd _ _ _ I3 S3 T3 Eu K2) as (V3 & B3 & _). exists xd. split; [exact K2|]. split; [exact V3|]. split; [|reflexivity].
      intros Kb. destruct (B3 Kb) as [Bv ->]. split; [exact Bv|apply orb_true_r].
    - destruct (IHb _ _ _ I2 S2 T2 Eu K1) as (V3 & B3 & _). exists xb. split; [exact K1|]. split; [exact V3|]. split; [|reflexivity].
      intros Kb. destruct (B3 Kb) as [Bv ->]. now split. }
  destruct X as (y & Ky & Ay & By & Ey). destruct (G y Ay ltac:(intro; now apply By)) as [G1 G2].
  split; [|split; [|discriminate]].
  - destruct (Rv xa) as [ra|]; [|exact V]. destruct V as [-> V]. cbn [stands_for]. destruct (z =? 0); cbn [negb]; subst y; exact G1.
  - intro Kb. split; [now apply G2|now apply By].
Qed.
Theorem tree_sound e : sound e.
Proof.
  induction e as [n|n l IHl|t e IHe|l|a IHa|l IHl|t|op e IHe|l op r IHa IHb|a b d IHa IHb IHd] using expr_ind'.
  - apply var_sound.
  - intros x v k I. destruct I.
  - now apply cast_sound.
  - apply int_sound.
  - intros x v k I. destruct I.
  - intros x v k I. destruct I.
  - intros x v k I. destruct I.
  - now apply unary_sound.
  - now apply binary_sound.
  - now apply ternary_sound.
Qed.

(** ** Type inference and folding *)

Definition number_lit (e : expr) : Prop := exists v, e = ELit (LInt (mk_int v None)).
(** What inference leaves of an expression. *)
Definition kept (e e' : expr) : Prop :=
  int_expr (eq bt) e' /\ strict e' /\ (may_be_truth e' = true -> may_be_truth e = true) /\
  (is_truth e = true -> is_truth e' = true \/ number_lit e') /\ (number_lit e -> number_lit e') /\
  Ct e' = Ct e /\ forall v, C e = Some v -> C e' = Some v.

Lemma no_limit {ok : builtin -> Prop} e : int_expr ok e -> max_ty_cast e = None.
Proof.
  intro I. destruct e as [[]| | | | | | | | |]; try reflexivity. cbn [int_expr ordinary] in I. cbn [max_ty_cast].
  unfold one_of in I. cbn [existsb] in I. repeat (apply orb_false_iff in I as [? I]).
  unfold rust_name. cbn [find map fst snd]. repeat match goal with H : str_eqb _ _ = false |- _ => rewrite H; clear H end. reflexivity.
Qed.
Lemma types_plain {ok : builtin -> Prop} l op r lt rt c0 : int_expr ok l -> int_expr ok r -> is_plain op = true ->
  binary_types cx l op r lt rt c0 = ((l, r), c0, FOk (join_ty lt rt)).
Proof.
  intros Il Ir P. unfold binary_types. rewrite (no_limit l Il), (no_limit r Ir).
  replace (match op, r with OMember, EVar (IArg i) => set_arg_type c0 i AIdent | _, _ => Some c0 end) with (Some c0)
    by (destruct op; try discriminate P; reflexivity).
  replace (match Finish.is_assignment op, l with true, EVar (IArg _) => set_macro true c0 | _, _ => c0 end) with c0
    by (destruct op; try discriminate P; reflexivity).
  assert (E : match l, r with
      | ELit (LInt (mk_int v None)), ELit (LFloat _) => (ELit (LFloat (FFloat (i128_to_f32 v))), r, ty_b BFloat, rt)
      | ELit (LFloat _), ELit (LInt (mk_int v None)) => (l, ELit (LFloat (FFloat (i128_to_f32 v))), lt, ty_b BFloat)
      | _, ELit (LInt _) => if mul_or_add op then (l, r, lt, rt) else (l, r, lt, rt)
      | ELit (LInt _), _ => if mul_or_add op then (l, r, lt, rt) else (l, r, lt, rt)
      | _, _ => (l, r, lt, rt)
      end = (l, r, lt, rt)).
  { destruct (mul_or_add op); destruct l as [| | |[| | |[vl [sl|]]]| | | | | |]; try destruct Il; destruct r as [| | |[| | |[vr [sr|]]]| | | | | |]; try destruct Ir; reflexivity. }
  rewrite E. destruct op; try discriminate P; reflexivity.
Qed.


Lemma range_small z : in_range Small z -> - 2 ^ 63 <= z < 2 ^ 63.
Proof. intros R. pose proof half_64. unfold in_range in R. cbn [fst snd] in R. lia. Qed.
Lemma small_range z v : represent Small z = Some v -> v = z /\ - 2 ^ 63 <= z < 2 ^ 63.
Proof.
  intro E. pose proof (represent_in Small z v ltac:(cbn; lia) E) as R. apply represent_signed in E; [|reflexivity]. subst v. split; [reflexivity|]. now apply range_small.
Qed.
Lemma fold_op op a b v : int_folds op = true -> is_shift op = false -> c_binary Small op a b = Some v -> int_op op a b = Some v.
Proof.
  intros F Sh E. destruct op; try discriminate F; try discriminate Sh; cbn [c_binary int_op] in *.
  - apply small_range in E as [-> I]. now rewrite wrap_id by lia.
  - destruct (b =? 0); [discriminate|]. apply small_range in E as [-> I]. now rewrite wrap_id by lia.
  - destruct (b =? 0); [discriminate|]. destruct (represent _ _); [|discriminate]. exact E.
  - apply small_range in E as [-> I]. now rewrite wrap_id by lia.
  - apply small_range in E as [-> I]. now rewrite wrap_id by lia.
  - exact E.
  - exact E.
  - exact E.
Qed.
Lemma fold_shift op a b v : is_shift op = true -> c_shift Small op a b = Some v -> int_op op a b = Some v.
Proof.
  intros Sh E. unfold c_shift in E. cbn [snd fst andb] in E. destruct ((0 <=? b) && (b <? w)) eqn:G; [|discriminate].
  apply andb_true_iff in G as [G2 G3]. apply Z.leb_le in G2. apply Z.ltb_lt in G3. destruct op; try discriminate Sh; cbn [int_op].
  - destruct (a <? 0); [discriminate|]. apply small_range in E as [-> I]. rewrite shift_id by lia. now rewrite wrap_id by lia.
  - rewrite shift_id by lia. exact E.
Qed.

Lemma is_number_lit e : {i | e = ELit (LInt i)} + {forall i, e <> ELit (LInt i)}.
Proof. destruct e as [| | |[| | |i]| | | | | |]; try (right; intros i; discriminate). left. now exists i. Qed.
Lemma fold_binary {ok : builtin -> Prop} l op r t c0 : int_expr ok l -> int_expr ok r ->
  (exists i j, l = ELit (LInt i) /\ r = ELit (LInt j) /\ int_folds op = true /\
     binary_fold cx l op r t c0 = match int_op op (int_value i) (int_value j) with
       | Some v => (ELit (LInt (mk_int v (join_suffix (int_suffix i) (int_suffix j)))), FOk None)
       | None => (EBinary l op r, FPanic) end) \/
  fst (binary_fold cx l op r t c0) = EBinary l op r.
Proof.
  intros Il Ir. destruct (is_number_lit l) as [[i ->]|Nl].
  - destruct (is_number_lit r) as [[j ->]|Nr].
    + unfold binary_fold. destruct (int_folds op) eqn:F; [|right; reflexivity]. left. exists i, j. auto.
    + right. destruct r as [| | |[| | |]| | | | | |]; try destruct Ir; try reflexivity. now destruct (Nr i0).
  - right. destruct l as [| | |[| | |]| | | | | |]; try destruct Il; try reflexivity. now destruct (Nl i).
Qed.

Definition no_ident_cast (e : expr) : Prop := forall n s e', e <> ECast (TyIdent n s) e'.
Lemma cast_int b e c0 : forall e1 c1 f, expr_finish cx e c0 = (e1, c1, f) -> no_ident_cast e1 ->
  expr_finish cx (ECast (TyBuiltIn b) e) c0 = (ECast (TyBuiltIn b) e1, c1, match f with FOk _ => FOk (Some (TyBuiltIn b)) | _ => f end).
Proof.
  intros e1 c1 f F N. rewrite expr_finish_eq. cbn [finish_step ty_finish]. rewrite F.
  assert (Bi : cast_as_binary cx (TyBuiltIn b) e1 = None) by (destruct e1; reflexivity).
  assert (D : cast_of_deref (TyBuiltIn b) e1 = None).
  { destruct e1 as [| |[|n s| | |] e1| | | | | | |]; try reflexivity. now destruct (N n s e1). }
  destruct f as [o|[]| |]; try reflexivity.
  - rewrite Bi. replace (redundant_cast (TyBuiltIn b) e1) with false; [reflexivity|]. destruct e1 as [| | |[|[]| |]| | | | | |]; reflexivity.
  - now rewrite D.
Qed.
Lemma int_shape {ok : builtin -> Prop} e : forall c0 e1 c1 f, int_expr ok e -> expr_finish cx e c0 = (e1, c1, f) -> no_ident_cast e1.
Proof.
  induction e as [n|n l IHl|ty e IHe|l|a IHa|l IHl|ty|op e IHe|l op r IHa IHb|a b d IHa IHb IHd] using expr_ind';
    intros c0 e1 c1 f I F; try (destruct I; fail).
  - rewrite expr_finish_eq in F. cbn [finish_step] in F. destruct (var_finish cx n c0). injection F as <- <- <-. discriminate.
  - destruct ty as [b| | | |]; try (destruct I; fail). destruct I as [Ob I]. destruct (expr_finish cx e c0) as [[e2 c2] f2] eqn:F2.
    rewrite (cast_int _ e c0 e2 c2 f2 F2) in F; [|eapply IHe; [exact I|exact F2]]. injection F as <- <- <-. discriminate.
  - destruct l; try (destruct I; fail). rewrite expr_finish_eq in F. cbn [finish_step] in F. injection F as <- <- <-. discriminate.
  - rewrite expr_finish_eq in F. cbn [finish_step] in F. destruct (expr_finish cx e c0) as [[e2 c2] f2]. unfold fbind in F.
    destruct f2 as [o| | |]; try (injection F as <- <- <-; discriminate).
    destruct (unary_type op c2 o) as [t'| | |] eqn:UT; try (injection F as <- <- <-; discriminate).
    unfold unary_fold in F. destruct op; try destruct I; try discriminate UT; destruct e2 as [| | |[| | |[z [u|]]]| | | | | |]; cbn in F; try (destruct (oty_eqb _ _)); injection F as <- <- <-; discriminate.
  - rewrite expr_finish_eq in F. cbn [finish_step] in F. destruct (expr_finish cx l c0) as [[e2 c2] f2]. unfold fbind in F.
    destruct f2 as [o| | |]; try (injection F as <- <- <-; discriminate). destruct (expr_finish cx r c2) as [[e3 c3] f3].
    destruct f3 as [o0| | |]; try (injection F as <- <- <-; discriminate). destruct (binary_types cx e2 op e3 o o0 c3) as [[x c4] f4].
    destruct f4 as [o1| | |]; try (injection F as <- <- <-; discriminate). destruct (binary_fold cx (fst x) op (snd x) o1 c4) as [e5 f5] eqn:B. injection F as <- <- <-.
    unfold binary_fold in B.
    destruct (fst x) as [| | |[| | |]| | | | | |], (snd x) as [| | |[| | |]| | | | | |]; try (injection B as <- <-; discriminate).
    + destruct (float_op op); injection B as <- <-; discriminate.
    + destruct (int_folds op); [|injection B as <- <-; discriminate]. destruct (int_op op _ _); injection B as <- <-; discriminate.
  - rewrite expr_finish_eq in F. cbn [finish_step] in F. destruct (condition_finish (expr_finish cx) a c0) as [[e2 c2] f2]. unfold fbind in F.
    destruct f2 as [o| | |]; try (injection F as <- <- <-; discriminate). destruct (expr_finish cx b c2) as [[e3 c3] f3].
    destruct f3 as [o0| | |]; try (injection F as <- <- <-; discriminate). destruct (expr_finish cx d c3) as [[e4 c4] f4].
    destruct f4; injection F as <- <- <-; discriminate.
Qed.

Lemma int_no_string {ok : builtin -> Prop} e : forall c0 e1 c1 f, int_expr ok e -> expr_finish cx e c0 = (e1, c1, f) -> forall s, e1 <> ELit (LString s).
Proof.
  induction e as [n|n l IHl|ty e IHe|l|a IHa|l IHl|ty|op e IHe|l op r IHa IHb|a b d IHa IHb IHd] using expr_ind';
    intros c0 e1 c1 f I F; try (destruct I; fail).
  - rewrite expr_finish_eq in F. cbn [finish_step] in F. destruct (var_finish cx n c0). injection F as <- <- <-. discriminate.
  - destruct ty as [b| | | |]; try (destruct I; fail). destruct I as [Ob I]. destruct (expr_finish cx e c0) as [[e2 c2] f2] eqn:F2.
    rewrite (cast_int _ e c0 e2 c2 f2 F2) in F; [|eapply int_shape; [exact I|exact F2]]. injection F as <- <- <-. discriminate.
  - destruct l; try (destruct I; fail). rewrite expr_finish_eq in F. cbn [finish_step] in F. injection F as <- <- <-. discriminate.
  - rewrite expr_finish_eq in F. cbn [finish_step] in F. destruct (expr_finish cx e c0) as [[e2 c2] f2]. unfold fbind in F.
    destruct f2 as [o| | |]; try (injection F as <- <- <-; discriminate).
    destruct (unary_type op c2 o) as [t'| | |] eqn:UT; try (injection F as <- <- <-; discriminate).
    unfold unary_fold in F. destruct op; try destruct I; try discriminate UT; destruct e2 as [| | |[| | |[z [u|]]]| | | | | |]; cbn in F; try (destruct (oty_eqb _ _)); injection F as <- <- <-; discriminate.
  - rewrite expr_finish_eq in F. cbn [finish_step] in F. destruct (expr_finish cx l c0) as [[e2 c2] f2]. unfold fbind in F.
    destruct f2 as [o| | |]; try (injection F as <- <- <-; discriminate). destruct (expr_finish cx r c2) as [[e3 c3] f3].
    destruct f3 as [o0| | |]; try (injection F as <- <- <-; discriminate). destruct (binary_types cx e2 op e3 o o0 c3) as [[x c4] f4].
    destruct f4 as [o1| | |]; try (injection F as <- <- <-; discriminate). destruct (binary_fold cx (fst x) op (snd x) o1 c4) as [e5 f5] eqn:B. injection F as <- <- <-.
    unfold binary_fold in B.
    destruct (fst x) as [| | |[| | |]| | | | | |], (snd x) as [| | |[| | |]| | | | | |]; try (injection B as <- <-; discriminate).
    + destruct (float_op op); injection B as <- <-; discriminate.
    + destruct (int_folds op); [|injection B as <- <-; discriminate]. destruct (int_op op _ _); injection B as <- <-; discriminate.
  - rewrite expr_finish_eq in F. cbn [finish_step] in F. destruct (condition_finish (expr_finish cx) a c0) as [[e2 c2] f2]. unfold fbind in F.
    destruct f2 as [o| | |]; try (injection F as <- <- <-; discriminate). destruct (expr_finish cx b c2) as [[e3 c3] f3].
    destruct f3 as [o0| | |]; try (injection F as <- <- <-; discriminate). destruct (expr_finish cx d c3) as [[e4 c4] f4].
    destruct f4; injection F as <- <- <-; discriminate.
Qed.

Lemma lit_val i v : C (ELit (LInt i)) = Some v -> v = int_value i /\ in_range Small v.
Proof. cbn [c_val]. destruct (holds Small (int_value i)) eqn:H; [|discriminate]. intro E; injection E as <-. split; [reflexivity|now apply holds_iff]. Qed.
Lemma val_lit v s : in_range Small v -> C (ELit (LInt (mk_int v s))) = Some v.
Proof. intro R. cbn [c_val int_value]. now rewrite (proj2 (holds_iff Small v) R). Qed.
Lemma small_w : wide Small.
Proof. now right. Qed.
Lemma promote_small : promote w Small = Small.
Proof. apply wide_promote, small_w. Qed.
Lemma common_small a b : Some Small = a -> Some Small = b -> c_arith w a b = Some Small.
Proof. intros <- <-. unfold c_arith. cbn [obind omap]. rewrite promote_small. cbn [common]. now rewrite Z.max_id. Qed.
Lemma kept_plus e e1 : kept e e1 -> kept (EUnary UPlus e) (EUnary UPlus e1).
Proof.
  intros (K1 & K2 & K3 & K4 & K5 & K6 & K7). split; [exact K1|]. split; [split; [exact K2|exact I]|].
  split; [exact K3|]. split; [discriminate|]. split; [intros [v E]; discriminate|].
  split; [cbn [c_type]; now rewrite K6|]. intros v E. cbn [c_val] in *. auto.
Qed.
Lemma kept_minus e e1 : kept e e1 -> kept (EUnary UMinus e) (EUnary UMinus e1).
Proof.
  intros (K1 & K2 & K3 & K4 & K5 & K6 & K7). split; [exact K1|]. split; [split; [exact K2|exact I]|].
  split; [discriminate|]. split; [discriminate|]. split; [intros [v E]; discriminate|].
  split; [cbn [c_type]; now rewrite K6|]. intros v E. cbn [c_val] in *. rewrite K6. apply obind_inv in E as (t & Et & E). rewrite Et. cbn [obind].
  apply obind_inv in E as (a & E & F). now rewrite (K7 _ E).
Qed.

Theorem infer_kept e : forall c0 e' c' t, int_expr (eq bt) e -> well_negated e -> (sg = false -> full_complements Ct T e) -> expr_finish cx e c0 = (e', c', FOk t) -> kept e e'.
Proof.
  induction e as [n|n l IHl|ty e IHe|l|a IHa|l IHl|ty|op e IHe|l op r IHa IHb|a b d IHa IHb IHd] using expr_ind';
    intros c0 e' c' t I N Fc F; try (now destruct I).
  - rewrite expr_finish_eq in F; cbn [finish_step] in F. destruct (var_finish cx n c0) as [c1 f]. injection F as <- <- _.
    repeat split; auto; try discriminate.
  - destruct ty as [b| | | |]; try (destruct I; fail). destruct I as [<- I]. cbn [well_negated full_complements] in N, Fc.
    destruct (expr_finish cx e c0) as [[e1 c1] f1] eqn:F1.
    rewrite (cast_int _ e c0 e1 c1 f1 F1) in F; [|apply (int_shape e c0 e1 c1 f1 I F1)]. injection F as <- <- F.
    destruct f1 as [o| | |]; try discriminate F. destruct (IHe _ _ _ _ I N Fc F1) as (K1 & K2 & K3 & K4 & K5 & K6 & K7).
    split; [now split|]. split; [exact K2|]. split; [discriminate|]. split; [discriminate|]. split; [intros [v E]; discriminate|]. split; [reflexivity|].
    intros v E. cbn [c_val] in *. rewrite Model in *. cbn [obind] in *. apply obind_inv in E as (u & E & Ru). now rewrite (K7 _ E).
  - destruct l; try (destruct I; fail). rewrite expr_finish_eq in F; cbn [finish_step] in F. injection F as <- <- _.
    repeat split; auto; try discriminate.
  - rewrite expr_finish_eq in F; cbn [finish_step] in F. destruct (expr_finish cx e c0) as [[e1 c1] f1] eqn:F1. unfold fbind in F.
    destruct f1 as [o| | |]; try discriminate F. cbn [int_expr] in I. destruct N as [N M].
    assert (I' : int_expr (eq bt) e) by (destruct op; try (destruct I; fail); assumption).
    assert (Fc' : sg = false -> full_complements Ct T e) by (intro S; now destruct (Fc S)).
    pose proof (IHe _ _ _ _ I' N Fc' F1) as Kp. pose proof Kp as (K1 & K2 & K3 & K4 & K5 & K6 & K7).
    destruct op; try (destruct I; fail); cbn [unary_type] in F.
    + (* plus *)
      destruct (is_number_lit e1) as [[i ->]|Ni].
      * cbn [unary_fold] in F. injection F as <- <- <-. split; [exact K1|]. split; [exact K2|]. split; [discriminate|]. split; [discriminate|].
        split; [intros [v E]; discriminate|]. split; [|exact K7]. cbn [c_type] in *. rewrite <- K6. cbn [omap]. now rewrite promote_small.
      * assert (F' : (EUnary UPlus e1, c1, FOk o) = (e', c', FOk t)).
        { destruct e1 as [| | |[| | |]| | | | | |]; try (destruct K1; fail); try exact F. now destruct (Ni i). }
        injection F' as <- <- <-. now apply kept_plus.
    + (* minus *)
      destruct (is_number_lit e1) as [[i ->]|Ni].
      * cbn [unary_fold] in F. injection F as <- <- <-. split; [exact Logic.I|]. split; [exact Logic.I|]. split; [discriminate|]. split; [discriminate|].
        split; [intros [v E]; discriminate|]. cbn [c_type] in K6. split; [cbn [c_type]; rewrite <- K6; cbn [omap]; now rewrite promote_small|].
        intros v E. cbn [c_val] in E. rewrite <- K6 in E. cbn [omap obind] in E. rewrite promote_small in E. apply obind_inv in E as (a & E & G).
        apply K7 in E. apply lit_val in E as [-> E]. pose proof (represent_in Small _ _ ltac:(cbn; lia) G) as R. apply small_range in G as [-> G].
        rewrite wrap_id by lia. now apply val_lit.
      * assert (F' : (EUnary UMinus e1, c1, FOk o) = (e', c', FOk t)).
        { destruct e1 as [| | |[| | |]| | | | | |]; try (destruct K1; fail); try exact F. now destruct (Ni i). }
        injection F' as <- <- <-. now apply kept_minus.
    + (* not *)
      assert (Z : is_truth e1 = true \/ number_lit e1) by (destruct M as [M|M]; auto).
      destruct Z as [Z|[z ->]].
      * assert (F' : (EUnary UNot e1, c1, FOk (ty_b BBool)) = (e', c', FOk t)).
        { destruct e1 as [| | |[| | |]| | | | | |]; try discriminate Z; exact F. }
        injection F' as <- <- <-. split; [exact K1|]. split; [split; [exact K2|exact Z]|]. split; [auto|]. split; [auto|]. split; [intros [v E]; discriminate|]. split; [reflexivity|].
        intros v E. cbn [c_val] in *. apply omap_inv in E as (a & E & <-). now rewrite (K7 _ E).
      * cbn [unary_fold] in F. injection F as <- <- <-. split; [exact Logic.I|]. split; [exact Logic.I|]. split; [discriminate|].
        split; [right; eexists; reflexivity|]. split; [intros [v E]; discriminate|]. split; [reflexivity|].
        intros v E. cbn [c_val] in E. apply omap_inv in E as (a & E & <-). apply K7 in E. apply lit_val in E as [-> E]. cbn [int_value].
        apply (val_lit (bit (z =? 0))). apply bit_in, small_w.
    + (* complement *)
      assert (F' : (EUnary UComp e1, c1, FOk o) = (e', c', FOk t)).
      { destruct e1 as [| | |[| | |]| | | | | |]; try (destruct K1; fail); exact F. }
      injection F' as <- <- <-. split; [exact K1|]. split; [split; [exact K2|]|].
      { split; [destruct (may_be_truth e1); [|reflexivity]; now rewrite K3 in M|]. rewrite K6. intro S. now destruct (Fc S). }
      split; [discriminate|]. split; [discriminate|]. split; [intros [v E]; discriminate|]. split; [cbn [c_type]; now rewrite K6|].
      intros v E. cbn [c_val] in *. rewrite K6. apply obind_inv in E as (t' & Et & E). rewrite Et. cbn [obind]. apply obind_inv in E as (a & E & Fr). now rewrite (K7 _ E).
  - destruct N as [N1 N2]. destruct I as (P & I1 & I2).
    assert (Fc1 : sg = false -> full_complements Ct T l) by (intro S; now destruct (Fc S)).
    assert (Fc2 : sg = false -> full_complements Ct T r) by (intro S; now destruct (Fc S)).
    rewrite expr_finish_eq in F; cbn [finish_step] in F. destruct (expr_finish cx l c0) as [[l1 c1] f1] eqn:F1. unfold fbind in F.
    destruct f1 as [o| | |]; try discriminate F. destruct (expr_finish cx r c1) as [[r1 c2] f2] eqn:F2. destruct f2 as [o0| | |]; try discriminate F.
    destruct (IHa _ _ _ _ I1 N1 Fc1 F1) as (K1 & K2 & K3 & K4 & K5 & K6 & K7). destruct (IHb _ _ _ _ I2 N2 Fc2 F2) as (L1 & L2 & L3 & L4 & L5 & L6 & L7).
    rewrite (types_plain (ok := eq bt)) in F by assumption. cbn [fst snd] in F.
    destruct (fold_binary l1 op r1 (join_ty o o0) c2 K1 L1) as [(i & j & -> & -> & Fo & B)|B].
    + rewrite B in F. destruct (int_op op (int_value i) (int_value j)) as [z|] eqn:O; [|discriminate F]. injection F as <- <- <-.
      split; [exact Logic.I|]. split; [exact Logic.I|]. split; [discriminate|]. split; [destruct op; discriminate|]. split; [intros [v E]; discriminate|].
      cbn [c_type] in K6, L6.
      split; [destruct op; try discriminate Fo; cbn [c_type]; rewrite ?(common_small _ _ K6 L6), <- ?K6; cbn [omap]; rewrite ?promote_small; reflexivity|].
      intros v E. destruct (c_val_in (EBinary l op r) v) as (t0 & Et0 & W0 & R0); [now repeat split|exact E|]. rewrite c_val_binary in E by (destruct op; discriminate).
      apply obind_inv in E as (a & E1 & E). apply obind_inv in E as (b & E2 & E).
      apply K7 in E1. apply L7 in E2. apply lit_val in E1 as [-> Ra]. apply lit_val in E2 as [-> Rb].
      rewrite (common_small _ _ K6 L6), <- K6 in E. cbn [omap obind] in E. rewrite promote_small in E.
      assert (Et : t0 = Small).
      { destruct op; try discriminate Fo; cbn [c_type] in Et0; rewrite ?(common_small _ _ K6 L6), <- ?K6 in Et0; cbn [omap] in Et0; rewrite ?promote_small in Et0; now injection Et0 as <-. }
      subst t0. assert (X : int_op op (int_value i) (int_value j) = Some v).
      { destruct (is_shift op) eqn:Sh; [now apply fold_shift|]. apply fold_op; [exact Fo|exact Sh|].
        rewrite (represent_id Small _ Ra), (represent_id Small _ Rb) in E. exact E. }
      rewrite X in O. injection O as <-. now apply val_lit.
    + destruct (binary_fold cx l1 op r1 (join_ty o o0) c2) as [e5 f5]. cbn [fst] in B. subst e5. injection F as <- <- _.
      split; [split; auto|]. split; [split; auto|].
      split; [|split; [|split; [intros [v E]; discriminate|split]]].
      * destruct op; try discriminate P; cbn [may_be_truth]; auto; intro X; apply andb_true_iff in X as [X1 X2]; now rewrite K3, L3.
      * intros X. left. destruct op; try discriminate P; exact X.
      * cbn [c_type]. rewrite K6, L6. reflexivity.
      * intros v E.
        assert (G : op <> OAnd -> op <> OOr -> C (EBinary l1 op r1) = Some v).
        { intros O1 O2. rewrite c_val_binary in E |- * by assumption. rewrite K6, L6.
          apply obind_inv in E as (a & E1 & E). apply obind_inv in E as (b & E2 & E). rewrite (K7 _ E1). cbn [obind]. now rewrite (L7 _ E2). }
        destruct op; try (apply G; discriminate); cbn [c_val] in E |- *; apply obind_inv in E as (a & E1 & E); rewrite (K7 _ E1); cbn [obind]; destruct (a =? 0); auto;
          apply omap_inv in E as (b & E2 & <-); rewrite (L7 _ E2); reflexivity.
  - destruct N as (N1 & N2 & N3). destruct I as (I0 & I1 & I2).
    assert (Fc1 : sg = false -> full_complements Ct T a) by (intro S; now destruct (Fc S)).
    assert (Fc2 : sg = false -> full_complements Ct T b) by (intro S; now destruct (Fc S)).
    assert (Fc3 : sg = false -> full_complements Ct T d) by (intro S; now destruct (Fc S)).
    rewrite expr_finish_eq in F; cbn [finish_step] in F. unfold condition_finish in F.
    destruct (expr_finish cx a c0) as [[a1 c1] f1] eqn:F1. unfold fbind in F.
    destruct f1 as [o| | |]; try discriminate F. destruct (expr_finish cx b c1) as [[b1 c2] f2] eqn:F2. destruct f2 as [o0| | |]; try discriminate F.
    destruct (expr_finish cx d c2) as [[d1 c3] f3] eqn:F3. destruct f3 as [o1| | |]; try discriminate F. injection F as <- <- <-.
    destruct (IHa _ _ _ _ I0 N1 Fc1 F1) as (K1 & K2 & K3 & K4 & K5 & K6 & K7). destruct (IHb _ _ _ _ I1 N2 Fc2 F2) as (L1 & L2 & L3 & L4 & L5 & L6 & L7).
    destruct (IHd _ _ _ _ I2 N3 Fc3 F3) as (M1 & M2 & M3 & M4 & M5 & M6 & M7).
    split; [|split; [|split; [|split; [discriminate|split; [intros [v E]; discriminate|split]]]]].
    + cbn [int_expr]. split; [|auto]. destruct (oty_eqb o (ty_b BBool)); [exact K1|]. repeat split; auto.
    + cbn [strict]. split; [|auto]. destruct (oty_eqb o (ty_b BBool)); [exact K2|]. repeat split; auto.
    + cbn [may_be_truth]. intro X. apply orb_true_iff in X as [X|X]; apply orb_true_iff; auto.
    + cbn [c_type]. now rewrite L6, M6.
    + intros v E. cbn [c_val] in E |- *. rewrite L6, M6. apply obind_inv in E as (z & E1 & E).
      destruct (c_val_in a z I0 E1) as (tz & Etz & Wz & Rz). apply K7 in E1.
      apply obind_inv in E as (t' & Et & E). rewrite Et. apply obind_inv in E as (u & Eu & E).
      assert (Eu' : (if z =? 0 then C d1 else C b1) = Some u) by (destruct (z =? 0); auto).
      destruct (oty_eqb o (ty_b BBool)).
      * rewrite E1. cbn [obind]. now rewrite Eu'.
      * rewrite c_val_binary by discriminate. rewrite E1. cbn [obind is_shift]. unfold int_zero.
        rewrite (val_lit 0 None) by apply (bit_in false Small small_w). cbn [obind].
        assert (Wc : c_arith w (Ct a1) (Ct (ELit (LInt (mk_int 0 None)))) = Some (common tz Small)).
        { rewrite K6, Etz. cbn [c_type]. unfold c_arith. cbn [obind omap]. rewrite !wide_promote; [reflexivity|exact small_w|assumption]. }
        rewrite Wc. cbn [obind]. assert (Wt : wide (common tz Small)) by (apply wide_common; [assumption|exact small_w]).
        rewrite (represent_id _ 0) by apply (bit_in false _ Wt). 
        assert (Rz' : exists z', represent (common tz Small) z = Some z' /\ (z' =? 0) = (z =? 0)).
        { exists z. split; [|reflexivity]. apply represent_id. destruct Wz as [-> | ->].
          - replace (common T Small) with T; [exact Rz|]. destruct T as [s q]. destruct s; cbn [common snd]; [now rewrite Z.max_id|now rewrite Z.ltb_irrefl].
          - cbn [common]. now rewrite Z.max_id. }
        destruct Rz' as (z' & -> & Hz). cbn [obind c_binary]. rewrite Hz. destruct (z =? 0); cbn [negb bit obind]; now rewrite Eu'.
Qed.
End Values.

(** ** Widening *)

(** An expression keeps its value if its literals have the signed type of the
    width of [T], and [int] that width. *)
Section Widen.
Variables (T : int_ty) (bt : builtin) (model : builtin -> option int_ty) (int : Z) (lit_ty : lit_int -> int_ty) (vars : ident_expr -> option (int_ty * Z)).
Hypothesis IntW : int <= snd T.
Hypothesis Model : model bt = Some T.
Hypothesis Typed : forall n t v, vars n = Some (t, v) -> t = T.
Notation w := (snd T).
Notation Small := (true, w).
Notation C := (c_val model w (fun _ => Small) vars).
Notation Ct := (c_type model w (fun _ => Small) vars).
Notation C1 := (c_val model int lit_ty vars).
Notation Ct1 := (c_type model int lit_ty vars).
Notation narrow := (fun i => fst (lit_ty i) = true /\ snd (lit_ty i) <= w).

Definition rel (t t' : int_ty) : Prop := t = T /\ t' = T \/ fst t = true /\ snd t <= w /\ t' = Small.
Lemma rel_T : rel T T.
Proof. now left. Qed.
Lemma rel_int : rel (true, int) Small.
Proof. right. auto. Qed.
Lemma rel_promote t t' : rel t t' -> rel (promote int t) (promote w t').
Proof.
  unfold promote. intros [[-> ->]|(S & L & ->)].
  - rewrite Z.ltb_irrefl. replace (w <? int) with false by (symmetry; apply Z.ltb_ge; lia). apply rel_T.
  - cbn [snd]. rewrite Z.ltb_irrefl. destruct (snd t <? int); [apply rel_int|right; auto].
Qed.
Lemma rel_common a a' b b' : rel a a' -> rel b b' -> rel (common a b) (common a' b').
Proof.
  assert (R : forall t : int_ty, fst t = true -> exists x, t = (true, x)) by (intros [s x] E; cbn in E; rewrite E; now exists x).
  assert (D : common T T = T) by (destruct T as [[] x]; cbn [common]; now rewrite Z.max_id).
  assert (D2 : forall x, x <= w -> common T (true, x) = T /\ common (true, x) T = T).
  { intros x L. destruct T as [[] y]; cbn [common snd] in *; [now rewrite Z.max_l, Z.max_r by lia|]. now replace (y <? x) with false by (symmetry; apply Z.ltb_ge; lia). }
  intros [[-> ->]|(S & L & ->)] [[-> ->]|(S' & L' & ->)].
  - rewrite D. apply rel_T.
  - destruct (R _ S') as (y & ->). cbn [snd] in L'. destruct (D2 y L') as [-> _]. destruct (D2 w (Z.le_refl w)) as [-> _]. apply rel_T.
  - destruct (R _ S) as (y & ->). cbn [snd] in L. destruct (D2 y L) as [_ ->]. destruct (D2 w (Z.le_refl w)) as [_ ->]. apply rel_T.
  - destruct (R _ S) as (x & ->). destruct (R _ S') as (y & ->). cbn [snd common] in *. right. cbn [fst snd]. rewrite Z.max_id. split; [reflexivity|]. split; [lia|reflexivity].
Qed.
Lemma rel_rep t t' z v : rel t t' -> represent t z = Some v -> represent t' z = Some v.
Proof.
  intros [[-> ->]|(S & L & ->)]; [auto|]. unfold represent. rewrite S. cbn [fst]. destruct (holds t z) eqn:H; [|discriminate]. intro E; injection E as <-.
  apply holds_iff in H. replace (holds Small z) with true; [reflexivity|]. symmetry. apply holds_iff. unfold in_range in *. rewrite S in H. cbn [fst snd].
  pose proof (pow_mono (snd t - 1) (w - 1) ltac:(lia)). lia.
Qed.
Lemma rel_holds t t' z : rel t t' -> holds t z = true -> holds t' z = true.
Proof.
  intros [[-> ->]|(S & L & ->)]; [auto|]. rewrite !holds_iff. unfold in_range. rewrite S. cbn [fst snd]. pose proof (pow_mono (snd t - 1) (w - 1) ltac:(lia)). lia.
Qed.
Lemma rel_arith a a' b b' : (forall t, a = Some t -> exists t', a' = Some t' /\ rel t t') -> (forall t, b = Some t -> exists t', b' = Some t' /\ rel t t') ->
  forall t, c_arith int a b = Some t -> exists t', c_arith w a' b' = Some t' /\ rel t t'.
Proof.
  intros A B t E. unfold c_arith in E. apply obind_inv in E as (x & Ex & E). apply omap_inv in E as (y & Ey & <-).
  destruct (A _ Ex) as (x' & -> & Rx). destruct (B _ Ey) as (y' & -> & Ry). eexists. split; [reflexivity|]. apply rel_common; now apply rel_promote.
Qed.
Lemma rel_omap a a' : (forall t, a = Some t -> exists t', a' = Some t' /\ rel t t') ->
  forall t, omap (promote int) a = Some t -> exists t', omap (promote w) a' = Some t' /\ rel t t'.
Proof.
  intros A t E. apply omap_inv in E as (x & Ex & <-). destruct (A _ Ex) as (x' & -> & Rx). eexists. split; [reflexivity|]. now apply rel_promote.
Qed.
Lemma widen_type e : int_expr (eq bt) e -> literals narrow e -> forall t, Ct1 e = Some t -> exists t', Ct e = Some t' /\ rel t t'.
Proof.
  induction e as [n|n l IHl|t e IHe|l|a IHa|l IHl|t|op e IHe|l op r IHa IHb|a b d IHa IHb IHd] using expr_ind'; intros I Li t0; cbn [c_type]; try discriminate; try (destruct I; fail).
  - intro E. apply omap_inv in E as ([t v] & E & <-). rewrite E. exists t. split; [reflexivity|]. apply Typed in E. cbn [fst]. subst t. apply rel_T.
  - destruct t as [b| | | |]; try discriminate. destruct I as [<- I]. rewrite Model. intro E; injection E as <-. exists T. split; [reflexivity|apply rel_T].
  - destruct l; try discriminate. intro E; injection E as <-. exists Small. split; [reflexivity|]. right. cbn in Li. tauto.
  - cbn in I, Li. destruct op; try discriminate; try (apply rel_omap; now apply IHe). intro E; injection E as <-. exists Small. split; [reflexivity|apply rel_int].
  - destruct I as (_ & I1 & I2). destruct Li as [Li1 Li2].
    destruct op; try discriminate; try (intro E; injection E as <-; exists Small; split; [reflexivity|apply rel_int]); try (apply rel_arith; auto; fail); apply rel_omap; auto.
  - destruct I as (_ & I1 & I2). destruct Li as (_ & Li1 & Li2). apply rel_arith; auto.
Qed.
Lemma widen_binary t t' op a b v : rel t t' -> c_binary t op a b = Some v -> c_binary t' op a b = Some v.
Proof.
  intros R. destruct op; cbn [c_binary]; auto; try (apply rel_rep; assumption).
  - destruct (b =? 0); [discriminate|]. now apply rel_rep.
  - destruct (b =? 0); [discriminate|]. destruct (represent t (Z.quot a b)) as [q|] eqn:Q; [|discriminate]. now rewrite (rel_rep _ _ _ _ R Q).
Qed.
Lemma widen_shift t t' op a b v : rel t t' -> c_shift t op a b = Some v -> c_shift t' op a b = Some v.
Proof.
  intros R. unfold c_shift. destruct ((0 <=? b) && (b <? snd t)) eqn:G; [|discriminate]. apply andb_true_iff in G as [G1 G2]. rewrite G1. apply Z.ltb_lt in G2.
  assert (L : snd t <= snd t') by (destruct R as [[-> ->]|(_ & L & ->)]; [lia|exact L]). replace (b <? snd t') with true by (symmetry; apply Z.ltb_lt; lia). cbn [andb].
  assert (S : fst t' = fst t) by (destruct R as [[-> ->]|(S & _ & ->)]; [reflexivity|now rewrite S]). rewrite S.
  destruct op; try discriminate; auto. destruct (fst t && (a <? 0)); [discriminate|]. now apply rel_rep.
Qed.
Theorem widen e : int_expr (eq bt) e -> literals narrow e -> forall v, C1 e = Some v -> C e = Some v.
Proof.
  induction e as [n|n l IHl|t e IHe|l|a IHa|l IHl|t|op e IHe|l op r IHa IHb|a b d IHa IHb IHd] using expr_ind'; intros I Li v; try (cbn [c_val]; discriminate); try (destruct I; fail).
  - auto.
  - destruct t as [b| | | |]; try (cbn [c_val]; discriminate). destruct I as [<- I]. cbn [c_val]. rewrite Model. cbn [obind]. intro E. apply obind_inv in E as (u & E & R). now rewrite (IHe I Li _ E).
  - destruct l as [| | |i]; try (cbn [c_val]; discriminate). cbn [c_val]. destruct (holds (lit_ty i) (int_value i)) eqn:H; [|discriminate]. intro E.
    rewrite (rel_holds (lit_ty i) Small); [exact E| |exact H]. right. cbn in Li. tauto.
  - assert (I' : int_expr (eq bt) e) by (cbn in I; destruct op; try (destruct I; fail); exact I). cbn [literals] in Li.
    pose proof (rel_omap _ _ (widen_type e I' Li)) as Rt. destruct op; try (cbn [c_val]; discriminate); cbn [c_val].
    + now apply IHe.
    + intro E. apply obind_inv in E as (t & Et & E). apply obind_inv in E as (u & E & R). destruct (Rt _ Et) as (t' & -> & Rel). cbn [obind]. rewrite (IHe I' Li _ E). cbn [obind]. now apply (rel_rep t).
    + intro E. apply omap_inv in E as (u & E & <-). now rewrite (IHe I' Li _ E).
    + intro E. apply obind_inv in E as (t & Et & E). apply obind_inv in E as (u & E & R). destruct (Rt _ Et) as (t' & -> & Rel). cbn [obind]. rewrite (IHe I' Li _ E). cbn [obind]. now apply (rel_rep t).
  - destruct I as (P & I1 & I2). destruct Li as [Li1 Li2].
    assert (G : op <> OAnd -> op <> OOr -> C1 (EBinary l op r) = Some v -> C (EBinary l op r) = Some v).
    { intros N1 N2. rewrite !c_val_binary by assumption. intro E. apply obind_inv in E as (x & E1 & E). apply obind_inv in E as (y & E2 & E).
      rewrite (IHa I1 Li1 _ E1), (IHb I2 Li2 _ E2). cbn [obind]. destruct (is_shift op).
      - apply obind_inv in E as (t & Et & E). destruct (rel_omap _ _ (widen_type l I1 Li1) _ Et) as (t' & -> & Rel). cbn [obind]. now apply (widen_shift t).
      - apply obind_inv in E as (t & Et & E). destruct (rel_arith _ _ _ _ (widen_type l I1 Li1) (widen_type r I2 Li2) _ Et) as (t' & -> & Rel). cbn [obind].
        apply obind_inv in E as (x' & Ex & E). apply obind_inv in E as (y' & Ey & E). rewrite (rel_rep _ _ _ _ Rel Ex), (rel_rep _ _ _ _ Rel Ey). cbn [obind]. now apply (widen_binary t). }
    destruct op; try (apply G; discriminate); clear G; cbn [c_val]; intro E; apply obind_inv in E as (x & E1 & E); rewrite (IHa I1 Li1 _ E1); cbn [obind]; destruct (x =? 0); auto;
      apply omap_inv in E as (y & E2 & <-); now rewrite (IHb I2 Li2 _ E2).
  - destruct I as (I0 & I1 & I2). destruct Li as (Li0 & Li1 & Li2). cbn [c_val]. intro E. apply obind_inv in E as (x & E1 & E). rewrite (IHa I0 Li0 _ E1). cbn [obind].
    apply obind_inv in E as (t & Et & E). destruct (rel_arith _ _ _ _ (widen_type b I1 Li1) (widen_type d I2 Li2) _ Et) as (t' & -> & Rel). cbn [obind].
    apply obind_inv in E as (u & Eu & E). assert (Eu' : (if x =? 0 then C d else C b) = Some u) by (destruct (x =? 0); auto). rewrite Eu'. cbn [obind]. now apply (rel_rep t).
Qed.
Lemma widen_full e : fst T = false -> int_expr (eq bt) e -> literals narrow e -> full_complements Ct1 T e -> full_complements Ct T e.
Proof.
  intro S. induction e as [n|n l IHl|t e IHe|l|a IHa|l IHl|t|op e IHe|l op r IHa IHb|a b d IHa IHb IHd] using expr_ind'; intros I Li; cbn [full_complements]; auto; try (destruct I; fail).
  - destruct t; try (destruct I; fail). destruct I as [_ I]. auto.
  - assert (I' : int_expr (eq bt) e) by (cbn in I; destruct op; try (destruct I; fail); exact I). cbn [literals] in Li. intros [F1 F2]. split; [auto|].
    destruct op; auto. destruct (widen_type e I' Li _ F2) as (t' & Et & [[_ ->]|(S' & _)]); [exact Et|congruence].
  - destruct I as (_ & I1 & I2). destruct Li as [Li1 Li2]. intros [F1 F2]. auto.
  - destruct I as (I0 & I1 & I2). destruct Li as (Li0 & Li1 & Li2). intros (F0 & F1 & F2). auto.
Qed.
End Widen.

(** ** C56 *)

Section Theorems.
Context {U : Unicode}.
(** The type of the variables and casts, its name, the platform, the width of
    [int], the types of literals, and the values of variables. *)
Variables (T : int_ty) (bt : builtin) (model : builtin -> option int_ty) (int : Z) (lit_ty : lit_int -> int_ty).
Notation value vars e := (c_val model int lit_ty vars e).
(** Expressions in which all variables and casts have the type [T], at least as
    wide as [int]; all literals have [T], or a narrower signed type. *)
Definition of_type (e : expr) : Prop :=
  16 <= int <= snd T /\ snd T <= 64 /\ model bt = Some T /\ int_expr (eq bt) e /\
  literals (fun i => fst (lit_ty i) = true /\ snd (lit_ty i) <= snd T) e /\ well_negated e.
(** If the type is unsigned, a [~] has an operand of that type. *)
Definition full vars (e : expr) : Prop := fst T = false -> full_complements (c_type model int lit_ty vars) T e.

Lemma e_sound cx c c' c'' e e' t vars rvars rint v x k :
  rint (builtin_toks cx bt) = true -> same_vars T cx c'' vars rvars ->
  of_type e -> full vars e -> expr_finish cx e c = (e', c', FOk t) -> tree cx c'' e' x -> r_kind T rint x = Some k -> value vars e = Some v ->
  agrees T (r_val T rint rvars x) k v /\ (is_truth e' = true -> k = KBool).
Proof.
  intros Int Vars (W1 & W2 & M & I & L & N) Fu F Tr K V. assert (W : 16 <= snd T <= 64) by lia.
  assert (Ty : forall n t v, vars n = Some (t, v) -> t = T) by (intros n t1 v1 E; now destruct (Vars _ _ _ E)).
  assert (Fu' : fst T = false -> full_complements (c_type model (snd T) (fun _ => (true, snd T)) vars) T e).
  { intro S. apply (widen_full T bt model int lit_ty vars); auto. lia. }
  destruct (infer_kept T bt model vars W M Ty cx c'' rvars Vars e c e' c' t I N Fu' F) as (I' & S & _ & _ & _ & _ & P6).
  destruct (tree_sound T bt model vars W M Ty cx c'' rvars rint Vars Int e' x v k I' S Tr) as (A & _ & Tt); auto.
  apply P6. apply (widen T bt model int lit_ty vars); auto. lia.
Qed.
Lemma agrees_both o k v : agrees T o k v -> (forall r, o = Some r -> r = stands_for k v) /\ (fst T = true -> o = Some (stands_for k v)).
Proof. unfold agrees. destruct o as [r|]; [intros [-> _]; split; auto; intros r E; now injection E|]. intros ->. split; discriminate. Qed.

(** The Rust expression generated for an integer expression has the value of
    the C expression, if Rust accepts it and does not panic; with a signed type
    it does not panic.  [ts] are the tokens, read as [x] of type [k].  Booleans
    stand for the numbers 0 and 1. *)
Theorem C56_value_partial cx c c' c'' e e' t ts vars rvars rint v x k :
  of_type e -> full vars e ->
  plain_context cx -> rint (builtin_toks cx bt) = true -> same_vars T cx c'' vars rvars ->
  expr_finish cx e c = (e', c', FOk t) -> etoks cx c'' e' = Some ts -> fine cx c'' e' ->
  reads ts x -> r_kind T rint x = Some k ->
  value vars e = Some v ->
  (forall r, r_val T rint rvars x = Some r -> r = stands_for k v) /\
  (fst T = true -> r_val T rint rvars x = Some (stands_for k v)).
Proof.
  intros O Fu P Int Vars F Tk Fi R K V. destruct (C36_partial cx c'' e' ts P Fi Tk) as (y & Ty & _ & Uq & _). rewrite (Uq _ R) in *.
  apply agrees_both. now destruct (e_sound cx c c' c'' e e' t vars rvars rint v y k).
Qed.

(** The same for a whole macro: its function, or its macro, has a body with the
    value of the C expression. *)
Lemma fn_expr cx m m' e ts : fm_body m = MbExpr e -> fn_generate cx m = (m', ROk ts) ->
  exists c e' c' t, expr_finish cx e c = (e', c', FOk t) /\ fm_body m' = MbExpr e'.
Proof.
  intros B. unfold fn_generate. destruct (arg_types cx (fm_name m) (fm_args m)) as [tys|er| |] eqn:A;
    try (intros E; apply (f_equal snd) in E; discriminate E).
  rewrite B. cbn [body_finish]. match goal with |- context [expr_finish cx e ?c] => destruct (expr_finish cx e c) as [[e1 c1] f] eqn:F end.
  intros E. pose proof (f_equal fst E) as Em. apply (f_equal snd) in E. cbn [snd fst] in E, Em. subst m'.
  destruct f as [t|er| |]; cbn [ofres] in E; try discriminate E. do 4 eexists. split; [exact F|reflexivity].
Qed.
Theorem C56_generate_partial cx m m' e ts :
  plain_context cx -> fm_body m = MbExpr e -> fn_generate cx m = (m', ROk ts) ->
  of_type e ->
  exists c e' body, lc_names c = fm_args m /\ fm_body m' = MbExpr e' /\
    ((exists params ret, ts = function_item (fm_name m) params ret body) \/
     (exists patterns, ts = macro_item (fm_name m) patterns body)) /\
    (fine cx c e' -> is_tail cx c e' -> exists x, reads_block body (RB [] (Some x)) /\
       forall vars rvars rint v k,
         full vars e -> rint (builtin_toks cx bt) = true -> same_vars T cx c vars rvars ->
         r_kind T rint x = Some k -> value vars e = Some v ->
         (forall r, r_val T rint rvars x = Some r -> r = stands_for k v) /\
         (fst T = true -> r_val T rint rvars x = Some (stands_for k v))).
Proof.
  intros P B G O. destruct (fn_expr cx m m' e ts B G) as (c0 & e' & c1 & t & F & B').
  destruct (C36_generate_partial cx m m' e' ts P G B') as (c & body & Nm & S & H).
  exists c, e', body. split; [exact Nm|]. split; [exact B'|]. split; [destruct S as [[_ S]|[_ S]]; auto|].
  intros Fi Tl. destruct (H Fi) as (x & Tx & R & Tb). exists x. split; [now apply Tb|].
  intros vars rvars rint v k Fu Int Vars K V. apply agrees_both. now destruct (e_sound cx c0 c1 c e e' t vars rvars rint v x k).
Qed.

(** The same for a variable-like macro: the generated value has the value of the
    C expression. *)
Lemma var_expr {ok : builtin -> Prop} cx m m' e ts ty : int_expr ok e -> vm_body m = MbExpr e -> var_generate cx m = (m', ROk (ts, ty)) ->
  exists e' c t, expr_finish cx e (var_lctx cx) = (e', c, FOk t) /\ vm_body m' = MbExpr e' /\ lc_macro c = false /\ etoks cx c e' = Some ts.
Proof.
  intros I B G. unfold var_generate in G. rewrite B in G. destruct (expr_finish cx e (var_lctx cx)) as [[e' c] f] eqn:F.
  assert (S : forall s, e' <> ELit (LString s)) by (eapply int_no_string; eassumption).
  pose proof (f_equal fst G) as Gm. apply (f_equal snd) in G. cbn [fst snd] in G, Gm. subst m'.
  destruct f as [t| | |]; cbn [ofres] in G; try discriminate G. exists e', c, t. split; [reflexivity|]. split; [reflexivity|].
  assert (G' : (x <- (ts <- opanic (etoks cx c e') ;; match t with Some t => y <- opanic (ty_toks cx c t) ;; ROk (ts, Some y) | None => ROk (ts, None) end) ;;
    if lc_macro c then RErr NonConstantVarMacro else ROk x) = ROk (ts, ty)).
  { destruct e' as [| | |[]| | | | | |]; try exact G. exfalso. eapply S. reflexivity. }
  clear G. destruct (etoks cx c e') as [ts'|]; cbn [opanic rbind] in G'; [|discriminate G'].
  destruct t as [t|].
  - destruct (ty_toks cx c t); cbn [opanic rbind] in G'; [|discriminate G']. destruct (lc_macro c); [discriminate G'|]. split; congruence.
  - cbn [rbind] in G'. destruct (lc_macro c); [discriminate G'|]. split; congruence.
Qed.
Theorem C56_constant_partial cx m m' e ts ty :
  plain_context cx -> vm_body m = MbExpr e -> var_generate cx m = (m', ROk (ts, ty)) ->
  of_type e ->
  exists c e', lc_names c = [] /\ vm_body m' = MbExpr e' /\
    (fine cx c e' -> exists x, reads ts x /\ (forall y, reads ts y -> y = x) /\
       forall vars rvars rint v k,
         full vars e -> rint (builtin_toks cx bt) = true -> same_vars T cx c vars rvars ->
         r_kind T rint x = Some k -> value vars e = Some v ->
         (forall r, r_val T rint rvars x = Some r -> r = stands_for k v) /\
         (fst T = true -> r_val T rint rvars x = Some (stands_for k v))).
Proof.
  intros P B G O. pose proof O as (_ & _ & _ & Ie & _). destruct (var_expr cx m m' e ts ty Ie B G) as (e' & c & t & F & B' & M & Tk).
  exists c, e'. split; [|split; [exact B'|]].
  - destruct (expr_sgood cx e (var_lctx cx) _ _ _ F) as (_ & [Nm _] & _). exact Nm.
  - intro Fi. destruct (C36_partial cx c e' ts P Fi Tk) as (x & Tx & R & Uq & _). exists x. split; [exact R|]. split; [exact Uq|].
    intros vars rvars rint v k Fu Int Vars K V. apply agrees_both. now destruct (e_sound cx (var_lctx cx) c c e e' t vars rvars rint v x k).
Qed.

(** ** C40 *)

(** [!e], for a truth value [e], is true exactly when [e] is zero. *)
Theorem C40_truth_partial cx c c' c'' e e' t ts vars rvars rint v x k :
  of_type e -> full vars e ->
  plain_context cx -> rint (builtin_toks cx bt) = true -> same_vars T cx c'' vars rvars ->
  is_truth e = true -> (forall e0, e <> EUnary UNot e0) ->
  expr_finish cx (EUnary UNot e) c = (e', c', FOk t) -> etoks cx c'' e' = Some ts -> fine cx c'' e' ->
  reads ts x -> r_kind T rint x = Some k ->
  value vars e = Some v ->
  (forall r, r_val T rint rvars x = Some r -> r = VBool (v =? 0)) /\
  (fst T = true -> r_val T rint rvars x = Some (VBool (v =? 0))).
Proof.
  intros O Fu P Int Vars Tr Nn F Tk Fi R K V.
  assert (O' : of_type (EUnary UNot e)) by (destruct O as (W1 & W2 & M & I & L & N); repeat split; auto; lia).
  assert (Fu' : full vars (EUnary UNot e)) by (intro S; split; auto).
  assert (V' : value vars (EUnary UNot e) = Some (bit (v =? 0))) by (cbn [c_val]; now rewrite V).
  destruct (C36_partial cx c'' e' ts P Fi Tk) as (y & Ty & _ & Uq & _). rewrite (Uq _ R) in *.
  destruct (e_sound cx c c' c'' (EUnary UNot e) e' t vars rvars rint (bit (v =? 0)) y k) as (X & Kt); auto.
  assert (Te : is_truth e' = true).
  { rewrite expr_finish_eq in F. cbn [finish_step] in F. destruct (expr_finish cx e c) as [[e1 c1] f1] eqn:F1. unfold fbind in F.
    destruct f1 as [o| | |]; try discriminate F. cbn [unary_type] in F.
    assert (Z : is_truth e1 = true).
    { destruct O as (W1 & W2 & M & I & L & N).
      assert (Ty' : forall n t v, vars n = Some (t, v) -> t = T) by (intros n t1 v1 E; now destruct (Vars _ _ _ E)).
      assert (Fw : fst T = false -> full_complements (c_type model (snd T) (fun _ => (true, snd T)) vars) T e).
      { intro S. apply (widen_full T bt model int lit_ty vars); auto. lia. }
      assert (KE : forall e0 c0 e0' c0' t0, int_expr (eq bt) e0 -> well_negated e0 -> (fst T = false -> full_complements (c_type model (snd T) (fun _ => (true, snd T)) vars) T e0) ->
        expr_finish cx e0 c0 = (e0', c0', FOk t0) -> int_expr (eq bt) e0').
      { intros e0 c2 e2 c3 t0 I0 N0 Fu0 F0. now destruct (infer_kept T bt model vars ltac:(lia) M Ty' cx c'' rvars Vars e0 c2 e2 c3 t0 I0 N0 Fu0 F0). }
      destruct e as [| | | | | | |op e0|l op r|]; try discriminate Tr.
      - destruct op; try discriminate Tr. now destruct (Nn e0).
      - clear - F1 Tr I N KE Fw. destruct I as (Pl & I1 & I2). destruct N as [N1 N2]. rewrite expr_finish_eq in F1. cbn [finish_step] in F1.
        destruct (expr_finish cx l c) as [[l1 c2] f2] eqn:Fl. unfold fbind in F1. destruct f2 as [ol| | |]; try discriminate F1.
        destruct (expr_finish cx r c2) as [[r1 c3] f3] eqn:Fr. destruct f3 as [or| | |]; try discriminate F1.
        pose proof (KE _ _ _ _ _ I1 N1 (fun S => proj1 (Fw S)) Fl) as K1. pose proof (KE _ _ _ _ _ I2 N2 (fun S => proj2 (Fw S)) Fr) as K2.
        rewrite (types_plain cx (ok := eq bt)) in F1 by assumption. cbn [fst snd] in F1.
        destruct (fold_binary cx l1 op r1 (join_ty ol or) c3 K1 K2) as [(i & j & _ & _ & Fo & _)|B]; [destruct op; discriminate|].
        destruct (binary_fold cx l1 op r1 (join_ty ol or) c3) as [e5 f5]. cbn [fst] in B. subst e5. injection F1 as <- <- _. destruct op; try discriminate Tr; reflexivity. }
    assert (F' : (EUnary UNot e1, c1, FOk (ty_b BBool)) = (e', c', FOk t)).
    { destruct e1 as [| | |[| | |]| | | | | |]; try discriminate Z; exact F. }
    injection F' as <- <- <-. reflexivity. }
  rewrite (Kt Te) in *. apply agrees_both in X. replace (VBool (v =? 0)) with (stands_for KBool (bit (v =? 0))); [exact X|].
  cbn [stands_for]. destruct (v =? 0); reflexivity.
Qed.
End Theorems.
(** [!n], for a number, is the number 1 if [n] is zero and 0 if not. *)
Theorem C40_number {U : Unicode} cx c v :
  expr_finish cx (EUnary UNot (ELit (LInt (mk_int v None)))) c = (ELit (LInt (mk_int (bit (v =? 0)) None)), c, FOk (ty_b BBool)).
Proof. reflexivity. Qed.
(** Any other operand is printed with Rust's [!]. *)
Theorem C40_finish {U : Unicode} cx e c e' c' t : expr_finish cx (EUnary UNot e) c = (e', c', FOk t) ->
  exists e1 t1, expr_finish cx e c = (e1, c', FOk t1) /\
    ((exists v, e1 = ELit (LInt (mk_int v None)) /\ e' = ELit (LInt (mk_int (bit (v =? 0)) None))) \/
     (exists f, e1 = ELit (LFloat f) /\ e' = ELit (LInt (mk_int (bit (float_is_zero f)) None))) \/
     e' = EUnary UNot e1).
Proof.
  rewrite expr_finish_eq. cbn [finish_step]. destruct (expr_finish cx e c) as [[e1 c1] f1]. unfold fbind. destruct f1 as [o| | |]; try discriminate.
  cbn [unary_type]. intros F. exists e1, o. assert (C : c1 = c').
  { destruct (unary_fold UNot e1 (ty_b BBool)). injection F as _ <- _. reflexivity. }
  subst c1. split; [reflexivity|]. destruct e1 as [| | |[| |f|[v [s|]]]| | | | | |]; cbn in F; injection F as <- <-; eauto 6.
Qed.

(** ** Cases *)

Section Demo.
#[local] Existing Instance demo_unicode.
Let I (s : string) := MIdent (st s).
Let P (s : string) := MPunct (st s).
Let L (z : Z) (s : option builtin) := MLit (LInt (mk_int z s)).
(** A platform with 32-bit [int] and 64-bit [long]. *)
Definition lp64 (b : builtin) : option int_ty :=
  match b with BShort => Some (true, 16) | BInt => Some (true, 32) | BUInt => Some (false, 32) | BLong => Some (true, 64) | BULong => Some (false, 64) | _ => None end.
Definition lit64 (i : lit_int) : int_ty :=
  match int_suffix i with
  | Some b => match lp64 b with Some t => t | None => (true, 64) end
  | None => if holds (true, 32) (int_value i) then (true, 32) else (true, 64)
  end.
Notation c64 vars e := (c_val lp64 32 lit64 vars e).
(** Parameters have this type. *)
Definition args_ty (s : string) : cgctx :=
  mk_cgctx None None None (fun _ _ => Some (plain_ty s)) (fun _ => None) (fun _ => None) (fun _ _ => None) (fun _ => None).
Definition ints : cgctx := args_ty "c_int".
Let params (t : string) (l : list string) : list (list rtok) := map (fun a => [ri "mut"; ri a; rp ":"; ri t]) l.
Definition two (t : ctype) : lctx := mk_lctx [st "x"; st "y"] [AKnown t; AKnown t] false false true false.
Let c0 : lctx := two (TyBuiltIn BInt).
Definition is_ty (t : string) (ts : list rtok) : bool := match ts with [RId s] => str_eqb s (st t) | _ => false end.
(** The first two parameters have these values. *)
Definition args_are (t : int_ty) (a b : Z) (n : ident_expr) : option (int_ty * Z) := match n with IArg O => Some (t, a) | IArg 1%nat => Some (t, b) | _ => None end.
Definition names_are (a b : Z) (ts : list rtok) : option Z :=
  match ts with [RId s] => if str_eqb s (st "x") then Some a else if str_eqb s (st "y") then Some b else None | _ => None end.


Lemma demo_vars T cx t a b : same_vars T cx (two t) (args_are T a b) (names_are a b).
Proof.
  intros n t' v E. destruct n as [[|[|i]]|s|l]; try discriminate E; injection E as <- <-; (split; [reflexivity|]; split; [exact Logic.I|]).
  - split; [intros i Hi; injection Hi as <-; vm_compute; discriminate|]. intros ts Tk. vm_compute in Tk. injection Tk as <-. reflexivity.
  - split; [intros i Hi; injection Hi as <-; vm_compute; discriminate|]. intros ts Tk. vm_compute in Tk. injection Tk as <-. reflexivity.
Qed.
Lemma demo_param cx t i : (i < 2)%nat -> plain_var cx (two t) (IArg i).
Proof. intros Hi. split; [|exact Logic.I]. intros s E. destruct i as [|[|i]]; [| |lia]; injection E as <-; (split; [discriminate|right; reflexivity]). Qed.
Ltac demo_fine := cbn [fine valued]; repeat first [apply demo_param; lia | split];
  try (let Hp := fresh in intro Hp; vm_compute in Hp; exfalso; lia); try (let ts := fresh in let Tk := fresh in left; intros ts Tk; vm_compute in Tk; injection Tk as <-; reflexivity); try discriminate; try (intros _; unfold tight; vm_compute; lia).
Ltac demo_type := unfold of_type; cbn; repeat split; try lia; auto.

(** [!(x < y) ? x * 2 - (y - 1) : ~x << 1], as a function of [int]s. *)
Definition value_body : list mtoken :=
  [P "!"; P "("; MArg 0; P "<"; MArg 1; P ")"; P "?"; MArg 0; P "*"; L 2 None; P "-"; P "("; MArg 1; P "-"; L 1 None; P ")"; P ":";
   P "~"; MArg 0; P "<<"; L 1 None].
Definition value_expr : expr :=
  ETernary (EUnary UNot (EBinary (EVar (IArg 0)) OLt (EVar (IArg 1))))
    (EBinary (EBinary (EVar (IArg 0)) OMul (ELit (LInt (mk_int 2 None)))) OSub (EBinary (EVar (IArg 1)) OSub (ELit (LInt (mk_int 1 None)))))
    (EBinary (EUnary UComp (EVar (IArg 0))) OShl (ELit (LInt (mk_int 1 None)))).
Example C56_case : let T := (true, 32) in
  fn_macro_parse (st "F") [I "x"; I "y"] value_body = ROk (mk_fn_macro (st "F") [st "x"; st "y"] (MbExpr value_expr)) /\
  plain_context ints /\ of_type T BInt lp64 32 lit64 value_expr /\ is_ty "c_int" (builtin_toks ints BInt) = true /\
  (exists m' body, fn_generate ints (mk_fn_macro (st "F") [st "x"; st "y"] (MbExpr value_expr)) =
     (m', ROk (function_item (st "F") (params "c_int" ["x"; "y"]) (Some [ri "c_int"]) body)) /\
     fm_body m' = MbExpr value_expr /\ fine ints c0 value_expr /\ is_tail ints c0 value_expr /\
     exists x, reads body x /\ r_kind T (is_ty "c_int") x = Some KInt /\
       c64 (args_are T 7 5) value_expr = Some 10 /\ r_val T (is_ty "c_int") (names_are 7 5) x = Some (VInt 10) /\
       c64 (args_are T (-7) 5) value_expr = Some 12 /\ r_val T (is_ty "c_int") (names_are (-7) 5) x = Some (VInt 12)).
Proof.
  cbn zeta. split; [vm_compute; reflexivity|]. split; [split; exact Logic.I|]. split; [demo_type|]. split; [reflexivity|].
  do 2 eexists. split; [vm_compute; reflexivity|]. split; [reflexivity|].
  split; [unfold value_expr; demo_fine|].
  split; [right; reflexivity|].
  eexists. split; [exists 30%nat; vm_compute; reflexivity|]. repeat split; vm_compute; reflexivity.
Qed.
(** [(x - 1 & ~y) << 28], as a function of [unsigned int]s: shifting drops high
    bits in both languages, subtracting from 0 wraps in C and panics in Rust. *)
Definition unsigned_expr : expr :=
  EBinary (EBinary (EBinary (EVar (IArg 0)) OSub (ELit (LInt (mk_int 1 None)))) OBitAnd (EUnary UComp (EVar (IArg 1)))) OShl (ELit (LInt (mk_int 28 None))).
Example C56_unsigned_case : let T := (false, 32) in let cx := args_ty "c_uint" in
  fn_macro_parse (st "F") [I "x"; I "y"] [P "("; MArg 0; P "-"; L 1 None; P "&"; P "~"; MArg 1; P ")"; P "<<"; L 28 None] =
    ROk (mk_fn_macro (st "F") [st "x"; st "y"] (MbExpr unsigned_expr)) /\
  plain_context cx /\ of_type T BUInt lp64 32 lit64 unsigned_expr /\ is_ty "c_uint" (builtin_toks cx BUInt) = true /\
  full T lp64 32 lit64 (args_are T 56 2) unsigned_expr /\
  (exists m' ret body, fn_generate cx (mk_fn_macro (st "F") [st "x"; st "y"] (MbExpr unsigned_expr)) =
     (m', ROk (function_item (st "F") (params "c_uint" ["x"; "y"]) ret body)) /\
     fm_body m' = MbExpr unsigned_expr /\ fine cx (two (TyBuiltIn BUInt)) unsigned_expr /\ is_tail cx (two (TyBuiltIn BUInt)) unsigned_expr /\
     exists x, reads body x /\ r_kind T (is_ty "c_uint") x = Some KInt /\
       c64 (args_are T 56 2) unsigned_expr = Some (5 * 2 ^ 28) /\ r_val T (is_ty "c_uint") (names_are 56 2) x = Some (VInt (5 * 2 ^ 28)) /\
       c64 (args_are T 0 7) unsigned_expr = Some (8 * 2 ^ 28) /\ r_val T (is_ty "c_uint") (names_are 0 7) x = None).
Proof.
  cbn zeta. split; [vm_compute; reflexivity|]. split; [split; exact Logic.I|]. split; [demo_type|]. split; [reflexivity|]. split; [intros _; cbn; auto 10|].
  eexists. exists (Some [ri "c_uint"]). eexists. split; [vm_compute; reflexivity|]. split; [reflexivity|].
  split; [unfold unsigned_expr; demo_fine|].
  split; [left; intros ts Tk; vm_compute in Tk; injection Tk as <-; reflexivity|].
  eexists. split; [exists 30%nat; vm_compute; reflexivity|]. repeat split; vm_compute; reflexivity.
Qed.
(** [(long)1 << 40 | 3]. *)
Definition long_expr : expr := EBinary (EBinary (ECast (TyBuiltIn BLong) (ELit (LInt (mk_int 1 None)))) OShl (ELit (LInt (mk_int 40 None)))) OBitOr (ELit (LInt (mk_int 3 None))).
Example C56_long_case : let T := (true, 64) in
  var_macro_parse (st "X") [P "("; I "long"; P ")"; L 1 None; P "<<"; L 40 None; P "|"; L 3 None] = ROk (mk_var_macro (st "X") (MbExpr long_expr)) /\
  of_type T BLong lp64 32 lit64 long_expr /\ is_ty "c_long" (builtin_toks cx_unit BLong) = true /\
  exists m' ts ty x, var_generate cx_unit (mk_var_macro (st "X") (MbExpr long_expr)) = (m', ROk (ts, ty)) /\ reads ts x /\
    r_kind T (is_ty "c_long") x = Some KInt /\ c64 (fun _ => None) long_expr = Some (2 ^ 40 + 3) /\ r_val T (is_ty "c_long") (fun _ => None) x = Some (VInt (2 ^ 40 + 3)).
Proof.
  cbn zeta. split; [vm_compute; reflexivity|]. split; [demo_type|]. split; [reflexivity|].
  do 4 eexists. split; [vm_compute; reflexivity|]. split; [exists 30%nat; vm_compute; reflexivity|]. repeat split; vm_compute; reflexivity.
Qed.

(** [!(x < y)] with 7 and 5. *)
Example C40_case : let e := EBinary (EVar (IArg 0)) OLt (EVar (IArg 1)) in let T := (true, 32) in
  of_type T BInt lp64 32 lit64 e /\ is_truth e = true /\ (forall e0, e <> EUnary UNot e0) /\
  (exists t, expr_finish ints (EUnary UNot e) c0 = (EUnary UNot e, c0, FOk t)) /\
  exists ts x, etoks ints c0 (EUnary UNot e) = Some ts /\ reads ts x /\ r_kind T (is_ty "c_int") x = Some KBool /\
    c64 (args_are T 7 5) e = Some 0 /\ r_val T (is_ty "c_int") (names_are 7 5) x = Some (VBool true).
Proof.
  cbn zeta. split; [demo_type|]. split; [reflexivity|]. split; [discriminate|]. split; [eexists; vm_compute; reflexivity|].
  do 2 eexists. split; [vm_compute; reflexivity|]. split; [exists 20%nat; vm_compute; reflexivity|]. repeat split; vm_compute; reflexivity.
Qed.

(** [!x], for an [int] [x], is generated as [!x], the complement: it is not
    false for 1, nor for any number other than -1. *)
Theorem C40_refuted : exists m m' body x,
  fn_macro_parse (st "F") [I "x"] [P "!"; MArg 0] = ROk m /\
  fn_generate ints m = (m', ROk (function_item (st "F") (params "c_int" ["x"]) (Some [ri "bool"]) body)) /\
  reads body x /\
  forall model int lit_ty w v, 16 <= w <= 64 -> in_range (true, w) v ->
    c_val model int lit_ty (args_are (true, w) v 0) (EUnary UNot (EVar (IArg 0))) = Some (bit (v =? 0)) /\
    r_val (true, w) (is_ty "c_int") (names_are v 0) x = Some (VInt (- v - 1)).
Proof.
  do 4 eexists. split; [vm_compute; reflexivity|]. split; [vm_compute; reflexivity|]. split; [exists 20%nat; vm_compute; reflexivity|].
  intros model int lit_ty w v W Iv. assert (H : holds (true, w) v = true) by now apply holds_iff. split.
  - cbn [c_val args_are obind fst snd]. now rewrite H.
  - cbn. unfold fits. rewrite H. change (Some (VInt (low (true, w) (Z.lnot v))) = Some (VInt (- v - 1))).
    rewrite low_id; [unfold Z.lnot; do 2 f_equal; lia|exact W|unfold in_range in *; cbn [fst snd] in *; unfold Z.lnot; lia].
Qed.
(** [!0u] is generated as [!0]: the number -1, or the largest unsigned number. *)
Theorem C40_suffix_refuted : exists m m' x,
  var_macro_parse (st "X") [P "!"; L 0 (Some BUInt)] = ROk m /\
  var_generate cx_unit m = (m', ROk ([rp "!"; RLit (RlInt 0 [])], Some [ri "bool"])) /\
  reads [rp "!"; RLit (RlInt 0 [])] x /\
  c64 (fun _ => None) (EUnary UNot (ELit (LInt (mk_int 0 (Some BUInt))))) = Some 1 /\
  r_val (true, 32) (is_ty "c_int") (fun _ => None) x = Some (VInt (-1)) /\
  r_val (false, 32) (is_ty "c_uint") (fun _ => None) x = Some (VInt (2 ^ 32 - 1)).
Proof.
  do 3 eexists. split; [vm_compute; reflexivity|]. split; [vm_compute; reflexivity|]. split; [exists 20%nat; vm_compute; reflexivity|].
  repeat split; vm_compute; reflexivity.
Qed.
(** [~(x < y)] is generated as [!(x < y)], which is false when [x < y]; the C
    value is then -2. *)
Theorem C56_complement_refuted : exists m m' ret body x,
  fn_macro_parse (st "F") [I "x"; I "y"] [P "~"; P "("; MArg 0; P "<"; MArg 1; P ")"] = ROk m /\
  fn_generate ints m = (m', ROk (function_item (st "F") (params "c_int" ["x"; "y"]) ret body)) /\
  reads body x /\ r_kind (true, 32) (is_ty "c_int") x = Some KBool /\
  c64 (args_are (true, 32) 0 1) (EUnary UComp (EBinary (EVar (IArg 0)) OLt (EVar (IArg 1)))) = Some (-2) /\
  r_val (true, 32) (is_ty "c_int") (names_are 0 1) x = Some (VBool false).
Proof.
  do 2 eexists. exists (Some [ri "bool"]). do 2 eexists. split; [vm_compute; reflexivity|]. split; [vm_compute; reflexivity|]. split; [exists 20%nat; vm_compute; reflexivity|].
  repeat split; vm_compute; reflexivity.
Qed.
(** The operands of [x + y], of type [short], are promoted to [int] in C; in
    Rust the sum of 30000 and 30000 overflows. *)
Theorem C56_short_refuted : exists m m' ret body x,
  fn_macro_parse (st "F") [I "x"; I "y"] [MArg 0; P "+"; MArg 1] = ROk m /\
  fn_generate (args_ty "c_short") m = (m', ROk (function_item (st "F") (params "c_short" ["x"; "y"]) ret body)) /\
  reads body x /\ r_kind (true, 16) (is_ty "c_short") x = Some KInt /\
  c64 (args_are (true, 16) 30000 30000) (EBinary (EVar (IArg 0)) OAdd (EVar (IArg 1))) = Some 60000 /\
  r_val (true, 16) (is_ty "c_short") (names_are 30000 30000) x = None.
Proof.
  do 2 eexists. exists (Some [ri "c_short"]). do 2 eexists. split; [vm_compute; reflexivity|]. split; [vm_compute; reflexivity|]. split; [exists 20%nat; vm_compute; reflexivity|].
  repeat split; vm_compute; reflexivity.
Qed.
(** [~0 / 2 + x], for an [unsigned int] [x]: in C the quotient is one of [int]s,
    and 0; in Rust all numbers have the type of [x]. *)
Theorem C56_narrow_refuted : let e := EBinary (EBinary (EUnary UComp (ELit (LInt (mk_int 0 None)))) ODiv (ELit (LInt (mk_int 2 None)))) OAdd (EVar (IArg 0)) in
  let T := (false, 32) in exists m' ret body x,
  fn_macro_parse (st "F") [I "x"] [P "~"; L 0 None; P "/"; L 2 None; P "+"; MArg 0] = ROk (mk_fn_macro (st "F") [st "x"] (MbExpr e)) /\
  fn_generate (args_ty "c_uint") (mk_fn_macro (st "F") [st "x"] (MbExpr e)) = (m', ROk (function_item (st "F") (params "c_uint" ["x"]) ret body)) /\
  reads body x /\ r_kind T (is_ty "c_uint") x = Some KInt /\ of_type T BUInt lp64 32 lit64 e /\
  c64 (args_are T 1 0) e = Some 1 /\ r_val T (is_ty "c_uint") (names_are 1 0) x = Some (VInt (2 ^ 31)).
Proof.
  cbn zeta. eexists. exists (Some [ri "c_uint"]). do 2 eexists. split; [vm_compute; reflexivity|]. split; [vm_compute; reflexivity|]. split; [exists 20%nat; vm_compute; reflexivity|].
  split; [vm_compute; reflexivity|]. split; [demo_type|]. split; vm_compute; reflexivity.
Qed.
(** [(0u - 1u) / 2u] is folded to 0; the C value is the largest [int]. *)
Theorem C56_unsigned_refuted : let u z := ELit (LInt (mk_int z (Some BUInt))) in let e := EBinary (EBinary (u 0) OSub (u 1)) ODiv (u 2) in
  exists m' ty,
  var_macro_parse (st "X") [P "("; L 0 (Some BUInt); P "-"; L 1 (Some BUInt); P ")"; P "/"; L 2 (Some BUInt)] = ROk (mk_var_macro (st "X") (MbExpr e)) /\
  var_generate cx_unit (mk_var_macro (st "X") (MbExpr e)) = (m', ROk ([RLit (RlInt 0 [])], ty)) /\
  c64 (fun _ => None) e = Some (2 ^ 31 - 1).
Proof. cbn zeta. do 2 eexists. split; [vm_compute; reflexivity|]. split; vm_compute; reflexivity. Qed.
End Demo.

Print Assumptions C56_value_partial.
Print Assumptions C56_generate_partial.
Print Assumptions C56_constant_partial.
Print Assumptions C40_truth_partial.
Print Assumptions C40_number.
Print Assumptions C40_finish.
Print Assumptions C40_refuted.
Print Assumptions C40_suffix_refuted.
Print Assumptions C56_complement_refuted.
Print Assumptions C56_short_refuted.
Print Assumptions C56_narrow_refuted.
Print Assumptions C56_unsigned_refuted.
