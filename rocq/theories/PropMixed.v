(** C70: generated expressions on integers of several types have the value of
    the C expression. *)
From Verif Require Import Base Utf Lex LexFloat Token Ast Nom ParseTok ParseStmt Rust Finish Codegen SpecRustExpr SpecTree SpecGen SpecFold SpecValue SpecMixed StrFacts FinishFacts FinishEq RustExprFacts TreeFacts PropFold PropFnGen PropTree PropValue.
From Coq Require Import String List Lia Bool ZArith.
Import ListNotations.
Local Open Scope string_scope.
Local Open Scope list_scope.
Local Open Scope Z_scope.

(** ** Values are in the range of their type *)

Section Values.
Variables (int : Z) (signed : bool) (model : builtin -> option int_ty) (vars : ident_expr -> option (int_ty * Z)).
Hypothesis Int : 16 <= int <= 64.
Hypothesis Typed : forall n t v, vars n = Some (t, v) -> int <= snd t <= 64.

(** Literals have the type [int]. *)
Notation Small := (true, int).
Notation C := (c_val model int (fun _ => Small) vars).
Notation Ct := (c_type model int (fun _ => Small) vars).
Notation mix := (mixed model int signed).
Definition good (t : int_ty) : Prop := int <= snd t <= 64.
Definition fair (alone : bool) (t : int_ty) : Prop := 1 <= snd t <= 64 /\ (alone = false -> good t).

Lemma good_small : good Small.
Proof. unfold good. cbn [snd]. lia. Qed.
Lemma good_fair a t : good t -> fair a t.
Proof. unfold good, fair, good. lia. Qed.
Lemma good_w t : good t -> 16 <= snd t <= 64.
Proof. unfold good. lia. Qed.
Lemma good_common a b : good a -> good b -> good (common a b).
Proof.
  unfold good. destruct a as [[] x], b as [[] y]; cbn [common snd]; try lia.
  - destruct (Z.ltb_spec y x); cbn [snd]; lia.
  - destruct (Z.ltb_spec x y); cbn [snd]; lia.
Qed.
Lemma good_promote t : good t -> promote int t = t.
Proof. unfold good, promote. intro G. now replace (snd t <? int) with false by (symmetry; apply Z.ltb_ge; lia). Qed.
Lemma arith_good a b t : (forall x, a = Some x -> good x) -> (forall x, b = Some x -> good x) -> c_arith int a b = Some t -> good t.
Proof.
  intros A B E. unfold c_arith in E. apply obind_inv in E as (x & Ex & E). apply omap_inv in E as (y & Ey & <-).
  specialize (A _ Ex). specialize (B _ Ey). rewrite !good_promote by assumption. now apply good_common.
Qed.
Lemma wide_self t : wide t t.
Proof. now left. Qed.
Lemma bit_good b t : good t -> in_range t (bit b).
Proof. intro G. apply (bit_in t (good_w t G)). apply wide_self. Qed.
Lemma mix_alone e a : mix a e -> mix true e.
Proof.
  intro M. destruct e as [| |[]| | | | |[]| |]; try exact M. destruct M as [(t & E & W & _ & S) M]. split; [|exact M]. exists t. auto.
Qed.

Lemma type_fair e : forall a t, mix a e -> Ct e = Some t -> fair a t.
Proof.
  induction e as [n|n l IHl|t e IHe|l|x IHa|l IHl|t|op e IHe|l op r IHa IHb|x b d IHa IHb IHd] using expr_ind'; intros a t0 I; cbn [c_type]; try discriminate; try (destruct I; fail).
  - intro E. apply omap_inv in E as ([t v] & E & <-). apply Typed in E. now apply good_fair.
  - destruct t as [b| | | |]; try discriminate. destruct I as [(t & M & W & D & _) I]. rewrite M. intro E; injection E as <-. split; [exact W|]. intros ->.
    destruct D as [D|D]; [discriminate|]. unfold good. lia.
  - destruct l; try discriminate. intro E; injection E as <-. apply good_fair, good_small.
  - destruct op; try discriminate; try (intro E; apply omap_inv in E as (x & E & <-); cbn in I; destruct (IHe _ _ I E) as [_ G]; specialize (G eq_refl); rewrite good_promote by assumption; now apply good_fair).
    intro E; injection E as <-. apply good_fair, good_small.
  - destruct I as (_ & I1 & I2).
    assert (G1 : forall x, Ct l = Some x -> good x) by (intros x E; now destruct (IHa _ _ I1 E) as [_ G]; apply G).
    assert (G2 : forall x, Ct r = Some x -> good x) by (intros x E; now destruct (IHb _ _ I2 E) as [_ G]; apply G).
    destruct op; try discriminate; try (intro E; injection E as <-; apply good_fair, good_small); try (intro E; apply good_fair; now apply (arith_good (Ct l) (Ct r))).
    all: intro E; apply omap_inv in E as (x & E & <-); apply G1 in E; rewrite good_promote by assumption; now apply good_fair.
  - destruct I as (_ & I1 & I2). intro E. apply good_fair. apply (arith_good (Ct b) (Ct d)); [| |exact E]; intros q Eq; [destruct (IHb _ _ I1 Eq) as [_ G]|destruct (IHd _ _ I2 Eq) as [_ G]]; now apply G.
Qed.
Lemma type_good e t : mix false e -> Ct e = Some t -> good t.
Proof. intros M E. destruct (type_fair e false t M E) as [_ G]. now apply G. Qed.

Lemma c_val_in e : forall a v, mix a e -> C e = Some v -> exists t, Ct e = Some t /\ fair a t /\ in_range t v.
Proof.
  assert (Rep : forall t z v, 1 <= snd t -> represent t z = Some v -> in_range t v) by (intros t z v L; apply represent_in; lia).
  assert (Gs : forall a t z v, good t -> represent t z = Some v -> fair a t /\ in_range t v).
  { intros a t z v G R. split; [now apply good_fair|]. apply (Rep _ z); [pose proof (good_w t G); lia|exact R]. }
  induction e as [n|n l IHl|t e IHe|l|x IHa|l IHl|t|op e IHe|l op r IHa IHb|x b d IHa IHb IHd] using expr_ind'; intros a v I; cbn [c_val]; try discriminate; try (destruct I; fail).
  - intro E. apply obind_inv in E as ([t x] & V & E). cbn [fst snd] in E. destruct (holds t x) eqn:H; [|discriminate]. injection E as <-. cbn [c_type]. rewrite V.
    exists t. split; [reflexivity|]. split; [apply good_fair; now apply Typed in V|now apply holds_iff].
  - destruct t as [b| | | |]; try discriminate. destruct I as [(t & M & W & D & _) I]. cbn [c_type]. rewrite M. cbn [obind]. intro E. apply obind_inv in E as (x & _ & E).
    exists t. split; [reflexivity|]. split; [|eapply Rep; [|exact E]; lia]. split; [exact W|]. intros ->. destruct D as [D|D]; [discriminate|]. unfold good. lia.
  - destruct l as [| | |i]; try discriminate. destruct (holds Small (int_value i)) eqn:H; [|discriminate]. intro E; injection E as <-.
    exists Small. split; [reflexivity|]. split; [apply good_fair, good_small|now apply holds_iff].
  - assert (I' : mix false e) by (destruct op; try (destruct I; fail); exact I).
    destruct op; try discriminate.
    + intro E. destruct (IHe _ _ I' E) as (t & Et & [_ G] & Rt). specialize (G eq_refl). cbn [c_type]. rewrite Et. cbn [omap]. rewrite good_promote by assumption.
      exists t. split; [reflexivity|]. split; [now apply good_fair|exact Rt].
    + intro E. apply obind_inv in E as (t & Et & E). apply obind_inv in E as (x & Ex & E). cbn [c_type]. rewrite Et. exists t. split; [reflexivity|].
      apply omap_inv in Et as (t' & Et & <-). assert (G : good t') by (eapply type_good; eauto). rewrite good_promote in * by assumption. eapply Gs; eassumption.
    + intro E. apply omap_inv in E as (x & _ & <-). exists Small. split; [reflexivity|]. split; [apply good_fair, good_small|]. apply bit_good, good_small.
    + intro E. apply obind_inv in E as (t & Et & E). apply obind_inv in E as (x & Ex & E). cbn [c_type]. rewrite Et. exists t. split; [reflexivity|].
      apply omap_inv in Et as (t' & Et & <-). assert (G : good t') by (eapply type_good; eauto). rewrite good_promote in * by assumption. eapply Gs; eassumption.
  - destruct I as (P & I1 & I2).
    assert (Lg : forall v, (v = 0 \/ v = 1) -> exists t, Some Small = Some t /\ fair a t /\ in_range t v).
    { intros z Hz. exists Small. split; [reflexivity|]. split; [apply good_fair, good_small|]. destruct Hz as [-> | ->]; [apply (bit_good false)|apply (bit_good true)]; apply good_small. }
    destruct (bool_dec (match op with OAnd | OOr => true | _ => false end) true) as [Lo|Lo].
    { assert (Hb : forall b, bit b = 0 \/ bit b = 1) by (intros []; auto).
      destruct op; try discriminate Lo; cbn [c_type]; intro E; apply obind_inv in E as (x & E1 & E); destruct (x =? 0);
        try (injection E as <-; apply Lg; now auto); apply omap_inv in E as (y & _ & <-); apply Lg; auto. }
    intro E. change (C (EBinary l op r) = Some v) in E. rewrite c_val_binary in E by (intros ->; now apply Lo).
    apply obind_inv in E as (x & E1 & E). apply obind_inv in E as (y & E2 & E).
    destruct (IHa _ _ I1 E1) as (t1 & T1 & [_ W1] & R1). destruct (IHb _ _ I2 E2) as (t2 & T2 & [_ W2] & R2). specialize (W1 eq_refl). specialize (W2 eq_refl).
    destruct (is_shift op) eqn:Sh.
    + rewrite T1 in E. cbn [omap obind] in E. rewrite good_promote in E by assumption.
      exists t1. split; [destruct op; try discriminate Sh; cbn [c_type]; rewrite T1; cbn [omap]; now rewrite good_promote by assumption|].
      split; [now apply good_fair|]. apply (shift_in t1 (good_w t1 W1) t1 op x y); auto. apply wide_self.
    + apply obind_inv in E as (t & Et & E). apply obind_inv in E as (x' & Ex & E). apply obind_inv in E as (y' & Ey & E).
      assert (G : good t) by (eapply arith_good; [| |exact Et]; intros z Ez; [rewrite T1 in Ez|rewrite T2 in Ez]; injection Ez as <-; assumption).
      assert (In : in_range t v).
      { apply (binary_in t (good_w t G) t op x' y'); [apply wide_self| | |exact E]; [eapply (Gs false); [exact G|exact Ex]|eapply (Gs false); [exact G|exact Ey]]. }
      destruct op; try discriminate Sh; try discriminate P; try (exfalso; now apply Lo); cbn [c_type c_binary] in *; try (exists t; split; [assumption|]; split; [now apply good_fair|assumption]);
        injection E as <-; apply Lg; match goal with |- bit ?b = 0 \/ _ => destruct b; auto end.
  - destruct I as (I0 & I1 & I2). intro E. apply obind_inv in E as (x' & E0 & E). apply obind_inv in E as (t & Et & E). apply obind_inv in E as (y & Ey & E).
    cbn [c_type]. exists t. split; [assumption|].
    assert (G : good t) by (eapply arith_good; [| |exact Et]; intros z Ez; [exact (type_good b z I1 Ez)|exact (type_good d z I2 Ez)]). eapply Gs; eassumption.
Qed.

(** ** Trees *)

(** As [well_negated], without literals, and [anchored_complements]. *)
Fixpoint strict (e : expr) : Prop :=
  match e with
  | EUnary op e => strict e /\ match op with UNot => is_truth e = true | UComp => may_be_truth e = false /\ (signed = false -> anchored e = true) | _ => True end
  | ECast _ e => strict e
  | EBinary a _ b => strict a /\ strict b
  | ETernary a b d => strict a /\ strict b /\ strict d
  | _ => True
  end.

Context {U : Unicode}.
Variables (cx : cgctx) (c : lctx) (named : list rtok -> option int_ty) (rvars : list rtok -> option (int_ty * Z)) (numbers : int_ty -> Prop).
Hypothesis Vars : same_typed_vars int signed cx c vars rvars.
Hypothesis Named : forall b t, model b = Some t -> named (builtin_toks cx b) = Some t.
Hypothesis Numbers : forall t, numbers t -> good t /\ (signed = true -> fst t = true).
Notation Ev := (evals named rvars numbers).

(** The type of an expression in C, and in Rust. *)
Definition under (tc t : int_ty) : Prop := tc = t \/ fst tc = true /\ snd tc <= snd t.
Lemma under_wide tc t : under tc t -> exists t', rel t tc t' /\ wide t t'.
Proof.
  intros [->|[S L]]; [exists t; split; [left|left]; auto|]. exists (true, snd t). split; [right|right]; auto.
Qed.
Lemma common_self t : common t t = t.
Proof. destruct t as [[] x]; cbn [common]; now rewrite Z.max_id. Qed.
Lemma common_under t tc : under tc t -> common t tc = t /\ common tc t = t.
Proof.
  intros [->|[S L]]; [split; apply common_self|]. destruct tc as [s x]. cbn [fst snd] in S, L. subst s.
  destruct t as [[] y]; cbn [common snd] in *; [now rewrite Z.max_l, Z.max_r by lia|]. now replace (y <? x) with false by (symmetry; apply Z.ltb_ge; lia).
Qed.
Lemma under_common a b t : under a t -> under b t -> under (common a b) t /\ (a = t \/ b = t -> common a b = t).
Proof.
  intros A B. destruct (common_under t a A) as [Ca Ca']. destruct (common_under t b B) as [Cb Cb'].
  assert (X : a = t \/ b = t -> common a b = t) by (intros [-> | ->]; assumption). split; [|exact X].
  destruct A as [->|[Sa La]]; [left; now apply X; left|]. destruct B as [->|[Sb Lb]]; [left; now apply X; right|].
  right. destruct a as [sa x], b as [sb y]. cbn [fst snd] in *. subst sa sb. cbn [common fst snd]. split; [reflexivity|lia].
Qed.
(** The readings of an operator. *)
Lemma bin_evals op y z k o : is_plain op = true -> Ev (XBin (rust_op op) y z) k o ->
  (op = OAnd /\ k = RBool /\ exists o1 o2, Ev y RBool o1 /\ Ev z RBool o2 /\ o = match o1 with Some (VBool true) => o2 | _ => o1 end) \/
  (op = OOr /\ k = RBool /\ exists o1 o2, Ev y RBool o1 /\ Ev z RBool o2 /\ o = match o1 with Some (VBool false) => o2 | _ => o1 end) \/
  (is_shift op = true /\ exists t t' o1 o2, k = RInt t /\ Ev y (RInt t) o1 /\ Ev z (RInt t') o2 /\
     o = obind o1 (fun a => obind o2 (fun b => r_binary t (rust_op op) a b))) \/
  (is_shift op = false /\ op <> OAnd /\ op <> OOr /\ exists k0 o1 o2, rust_op_ty (rust_op op) k0 = Some k /\ Ev y k0 o1 /\ Ev z k0 o2 /\
     o = obind o1 (fun a => obind o2 (fun b => r_binary (int_of k0) (rust_op op) a b))).
Proof.
  intros P K. remember (rust_op op) as s eqn:Es. inversion K as [| | | | | | |x' y' o1 o2 K1 K2 E1 E2 E3|x' y' o1 o2 K1 K2 E1 E2 E3|op' x' y' t t' o1 o2 Sh K1 K2 E1 E2 E3|op' x' y' k0 k' o1 o2 T K1 K2 E1 E2 E3| |]; subst.
  - left. split; [destruct op; try discriminate P; try discriminate E1; reflexivity|]. split; [reflexivity|]. eauto 6.
  - right; left. split; [destruct op; try discriminate P; try discriminate E1; reflexivity|]. split; [reflexivity|]. eauto 6.
  - right; right; left. split; [destruct op; try discriminate P; try discriminate Sh; reflexivity|]. do 4 eexists. split; [reflexivity|]. eauto.
  - right; right; right. split; [destruct op; try discriminate P; try discriminate T; reflexivity|].
    split; [intros ->; discriminate T|]. split; [intros ->; discriminate T|]. eauto 8.
Qed.
Lemma arith_type l r t1 t2 : Ct l = Some t1 -> Ct r = Some t2 -> good t1 -> good t2 -> c_arith int (Ct l) (Ct r) = Some (common t1 t2).
Proof. intros -> -> G1 G2. unfold c_arith. cbn [obind omap]. now rewrite !good_promote. Qed.
Ltac no_access := match goal with K : volatile_access _ _ |- _ => destruct K as [K _]; discriminate end.
Lemma literal_plain t : literal_ty numbers [] t -> numbers t.
Proof.
  intros [[_ N]|(name & E & In)]; [exact N|]. cbn in In. repeat (destruct In as [In|In]; [injection In as <- _; discriminate E|]). destruct In.
Qed.
Lemma bin_tree l op r x : is_plain op = true -> tree cx c (EBinary l op r) x -> exists y z, x = XBin (rust_op op) y z /\ tree cx c l y /\ tree cx c r z.
Proof.
  intros P Tr. inversion Tr; subst; try discriminate; try no_access; eauto;
    match goal with Y : valued _ = true |- _ => destruct op; discriminate | Y : is_assignment _ = true |- _ => destruct op; discriminate end.
Qed.
Lemma leaf_var n x ts : ordinary n -> is_leaf (EVar n) = true -> etoks cx c (EVar n) = Some ts -> reads ts x -> False.
Proof.
  intros O L _ _. destruct n as [i|s|l]; try discriminate. cbn in O, L.
  apply orb_false_iff in O as [O1 O]. apply orb_false_iff in O as [O2 O]. rewrite O1, O2 in L. discriminate.
Qed.
(** Truth values are booleans. *)
Lemma truth_bool e : forall a x k o, mix a e -> strict e -> is_truth e = true -> tree cx c e x -> Ev x k o -> k = RBool.
Proof.
  induction e as [n|n l IHl|t e IHe|l|x IHa|l IHl|t|op e IHe|l op r IHa IHb|x b d IHa IHb IHd] using expr_ind'; intros a y k o I S Th Tr K; try discriminate Th.
  - destruct op; try discriminate Th. destruct S as [S N]. inversion Tr; subst; try discriminate; try no_access.
    inversion K; subst; try discriminate; [|reflexivity]. match goal with Y : Ev _ (RInt _) _, Y' : tree _ _ e _ |- _ => pose proof (IHe _ _ _ _ I S N Y' Y) as X end. discriminate X.
  - destruct I as (P & I1 & I2). destruct (bin_tree l op r y P Tr) as (y1 & y2 & -> & _). apply bin_evals in K; [|exact P].
    destruct K as [(_ & -> & _)|[(_ & -> & _)|[(Sh & _)|(_ & _ & _ & k0 & o1 & o2 & Ot & _)]]]; try reflexivity.
    + destruct op; discriminate.
    + destruct op; try discriminate Th; vm_compute in Ot; try discriminate Ot; injection Ot as <-; reflexivity.
Qed.
(** The types of C and Rust. *)
Lemma type_sound e : forall a x t o tc, mix a e -> strict e -> tree cx c e x -> Ev x (RInt t) o -> Ct e = Some tc ->
  (signed = true -> fst t = true) /\ fair a t /\ under tc t /\ (anchored e = true -> tc = t).
Proof.
  induction e as [n|n l IHl|t e IHe|l|x IHa|l IHl|t|op e IHe|l op r IHa IHb|x b d IHa IHb IHd] using expr_ind'; intros a y t0 o tc I S Tr K E; try (destruct I; fail).
  - cbn [c_type] in E. apply omap_inv in E as ([t v] & Vn & <-). destruct (Vars _ _ _ Vn) as (G & Sg & O & R & P). inversion Tr; subst; try no_access.
    + exfalso. eapply leaf_var; eassumption.
    + inversion K; subst. match goal with Y : var_toks _ _ _ = Some _, Y' : rvars _ = Some _ |- _ => rewrite (P _ Y) in Y'; injection Y' as <- <- end.
      split; [exact Sg|]. split; [now apply good_fair|]. split; [now left|reflexivity].
    + destruct O.
    + now destruct (R _ eq_refl).
  - destruct t as [b| | | |]; try (destruct I; fail). destruct I as [(t & M & W & D & Sg) I]. cbn [c_type] in E. rewrite M in E. injection E as <-.
    assert (X : forall y ts, ty_toks cx c (TyBuiltIn b) = Some ts -> Ev (XCast y ts) (RInt t0) o -> (signed = true -> fst t0 = true) /\ fair a t0 /\ under t t0 /\ (true = true -> t = t0)).
    { intros z ts Ty K'. cbn [ty_toks] in Ty. injection Ty as <-. inversion K'; subst; match goal with Y : named _ = Some _ |- _ => rewrite (Named _ _ M) in Y; injection Y as <- end;
      (split; [exact Sg|]); (split; [split; [exact W|]; intros ->; destruct D as [D|D]; [discriminate|unfold good; lia]|]); (split; [now left|reflexivity]). }
    inversion Tr; subst; try discriminate; try no_access; try (inversion K; fail); eapply X; eassumption.
  - destruct l as [| | |i]; try (destruct I; fail). cbn [c_type] in E. injection E as <-. inversion Tr; subst; try discriminate; try no_access.
    assert (N : numbers t0).
    { unfold number in K. destruct (_ <? 0) in K; inversion K; subst; try discriminate; try (apply literal_plain; assumption).
      match goal with Y : forall l, XLit _ <> XLit l |- _ => now destruct (Y _ eq_refl) end. }
    destruct (Numbers t0 N) as [G Sg]. split; [exact Sg|]. split; [now apply good_fair|]. split; [|discriminate]. right. split; [reflexivity|]. unfold good in G. cbn [snd]. lia.
  - assert (I' : mix false e) by (destruct op; try (destruct I; fail); exact I). destruct S as [S N].
    destruct (bool_dec (match op with UNot => true | _ => false end) true) as [Nt|Nt].
    { destruct op; try discriminate Nt. pose proof (truth_bool (EUnary UNot e) a y (RInt t0) o I (conj S N) eq_refl Tr K) as X. discriminate X. }
    assert (E' : omap (promote int) (Ct e) = Some tc) by (destruct op; try (destruct I; fail); [exact E|exact E|now destruct Nt|exact E]).
    apply omap_inv in E' as (tc' & Et & <-). pose proof (type_good e tc' I' Et) as Gt. rewrite good_promote by assumption.
    assert (X : exists y' o', tree cx c e y' /\ Ev y' (RInt t0) o').
    { destruct op; try (destruct I; fail); inversion Tr; subst; try discriminate; try no_access; try (now destruct Nt);
        try (match goal with Y : _ = UNot \/ _ = UComp |- _ => destruct Y; discriminate end); inversion K; subst; try discriminate; eauto.
      do 2 eexists. split; [eassumption|]. now apply E_number. }
    destruct X as (y' & o' & T' & K'). destruct (IHe _ _ _ _ _ I' S T' K' Et) as (Sg & [_ G] & Un & An). specialize (G eq_refl).
    split; [exact Sg|]. split; [now apply good_fair|]. split; [exact Un|]. intro A. apply An. destruct op; try (destruct I; fail); try (now destruct Nt); exact A.
  - destruct I as (P & I1 & I2). destruct S as [S1 S2]. destruct (bin_tree l op r y P Tr) as (y1 & y2 & -> & T1 & T2). apply bin_evals in K; [|exact P].
    destruct K as [(_ & X & _)|[(_ & X & _)|[(Sh & t1 & t2 & o1 & o2 & X & K1 & K2 & ->)|(Sh & N1 & N2 & k0 & o1 & o2 & Ot & K1 & K2 & ->)]]]; try discriminate X.
    + injection X as <-. assert (E' : omap (promote int) (Ct l) = Some tc) by (destruct op; try discriminate Sh; exact E).
      apply omap_inv in E' as (tc' & Et & <-). pose proof (type_good l tc' I1 Et) as Gt. rewrite good_promote by assumption.
      destruct (IHa _ _ _ _ _ I1 S1 T1 K1 Et) as (Sg & [_ G] & Un & An). specialize (G eq_refl). split; [exact Sg|]. split; [now apply good_fair|]. split; [exact Un|].
      destruct op; try discriminate Sh; exact An.
    + assert (k0 = RInt t0 /\ c_arith int (Ct l) (Ct r) = Some tc /\ (anchored (EBinary l op r) = anchored l || anchored r)) as (-> & E' & A).
      { destruct op; try discriminate P; try discriminate Sh; try (now destruct N1); try (now destruct N2); destruct k0; vm_compute in Ot; try discriminate Ot; injection Ot as ->; auto. }
      unfold c_arith in E'. apply obind_inv in E' as (u1 & Eu1 & E'). apply omap_inv in E' as (u2 & Eu2 & <-).
      pose proof (type_good l u1 I1 Eu1) as G1. pose proof (type_good r u2 I2 Eu2) as G2. rewrite !good_promote by assumption.
      destruct (IHa _ _ _ _ _ I1 S1 T1 K1 Eu1) as (Sg & [_ G] & Un1 & An1). specialize (G eq_refl). destruct (IHb _ _ _ _ _ I2 S2 T2 K2 Eu2) as (_ & _ & Un2 & An2).
      destruct (under_common u1 u2 t0 Un1 Un2) as [Un Ua]. split; [exact Sg|]. split; [now apply good_fair|]. split; [exact Un|].
      intro An. apply Ua. rewrite A in An. apply orb_true_iff in An as [An|An]; auto.
  - destruct I as (I0 & I1 & I2). destruct S as (S0 & S1 & S2). inversion Tr; subst; try discriminate; try no_access.
    match goal with Y' : tree _ _ b ?q, Y'' : tree _ _ d ?r |- _ => rename Y' into T2; rename Y'' into T3 end.
    inversion K as [| | | | | | | | | | |x' y' z' k' o0 o1 o2 K0 K1 K2 E1 E2 E3|]; subst. cbn [c_type] in E.
    unfold c_arith in E. apply obind_inv in E as (u1 & Eu1 & E). apply omap_inv in E as (u2 & Eu2 & <-).
    pose proof (type_good b u1 I1 Eu1) as G1. pose proof (type_good d u2 I2 Eu2) as G2. rewrite !good_promote by assumption.
    destruct (IHb _ _ _ _ _ I1 S1 T2 K1 Eu1) as (Sg & [_ G] & Un1 & An1). specialize (G eq_refl). destruct (IHd _ _ _ _ _ I2 S2 T3 K2 Eu2) as (_ & _ & Un2 & An2).
    destruct (under_common u1 u2 t0 Un1 Un2) as [Un Ua]. split; [exact Sg|]. split; [now apply good_fair|]. split; [exact Un|].
    intro An. apply Ua. cbn [anchored] in An. apply orb_true_iff in An as [An|An]; auto.
Qed.
Definition agree (k : rty) (o : option rval) (v : Z) : Prop :=
  match o with Some r => r = value_of k v /\ (forall t, k = RInt t -> in_range t v) | None => signed = false end.
Definition sound (e : expr) : Prop := forall a x k o v, mix a e -> strict e -> tree cx c e x -> C e = Some v -> Ev x k o ->
  agree k o v /\ (k = RBool -> (v = 0 \/ v = 1) /\ may_be_truth e = true).

Lemma agrees_int t o v : (signed = true -> fst t = true) -> agrees t o KInt v -> agree (RInt t) o v.
Proof.
  intro S. unfold agrees, agree. destruct o as [r|]; [intros [-> R]; split; [reflexivity|]; intros t' E; now injection E as <-|].
  intro F. destruct signed; [|reflexivity]. rewrite S in F by reflexivity. discriminate.
Qed.
Lemma agrees_bool t o v : (signed = true -> fst t = true) -> agrees t o KBool v -> agree RBool o v.
Proof.
  intro S. unfold agrees, agree. destruct o as [r|]; [intros [-> R]; split; [reflexivity|]; discriminate|].
  intro F. destruct signed; [|reflexivity]. rewrite S in F by reflexivity. discriminate.
Qed.
Lemma agree_fits tc t z v : good t -> under tc t -> (signed = true -> fst t = true) -> represent tc z = Some v -> agree (RInt t) (omap VInt (fits t z)) v.
Proof.
  intros G Un S R. destruct (under_wide tc t Un) as (t' & Rl & Wd). apply agrees_int; [exact S|].
  apply (agrees_fits t t'); [exact Wd|]. exact (rel_rep t tc t' z v Rl R).
Qed.
Lemma under_same tc t z v : good t -> under tc t -> in_range t z -> represent tc z = Some v -> v = z.
Proof.
  intros G Un R E. destruct (under_wide tc t Un) as (t' & Rl & Wd). apply (rep_same t t'); [exact Wd|exact R|]. exact (rel_rep t tc t' z v Rl E).
Qed.
Lemma rep_bits t z v : good t -> (z = 0 \/ z = 1) -> represent t z = Some v -> v = z.
Proof. intros G R E. rewrite represent_id in E; [now injection E as <-|]. destruct R as [-> | ->]; [apply (bit_good false)|apply (bit_good true)]; assumption. Qed.
Lemma var_sound n : sound (EVar n).
Proof.
  intros a x k o v _ _ Tr E K. cbn [c_val] in E. apply obind_inv in E as ([t z] & Vn & E). cbn [fst snd] in E. destruct (holds t z) eqn:H; [|discriminate]. injection E as <-.
  destruct (Vars _ _ _ Vn) as (G & S & O & R & P). apply holds_iff in H as I. inversion Tr; subst; try no_access.
  - exfalso. eapply leaf_var; eassumption.
  - inversion K; subst. match goal with Y : var_toks _ _ _ = Some _, Y' : rvars _ = Some _ |- _ => rewrite (P _ Y) in Y'; injection Y' as <- <- end.
    split; [|discriminate]. unfold fits. rewrite H. split; [reflexivity|]. intros t' E; injection E as <-. exact I.
  - destruct O.
  - now destruct (R _ eq_refl).
Qed.
Lemma number_sound z k o : in_range Small z -> Ev (number z []) k o ->
  exists t, k = RInt t /\ numbers t /\ agree (RInt t) o z.
Proof.
  intros R K. assert (G : forall t, numbers t -> agree (RInt t) (omap VInt (fits t z)) z).
  { intros t N. destruct (Numbers t N) as [G S]. apply (agree_fits Small t z z G); [|exact S|now apply represent_id]. right. split; [reflexivity|]. cbn [snd]. unfold good in G. lia. }
  unfold number in K. destruct (z <? 0).
  - inversion K; subst; try discriminate.
    + match goal with Y : literal_ty _ _ _ |- _ => apply literal_plain in Y end. exists t. rewrite Z.opp_involutive. auto.
    + match goal with Y : forall l, XLit _ <> XLit l |- _ => now destruct (Y _ eq_refl) end.
  - inversion K; subst. match goal with Y : literal_ty _ _ _ |- _ => apply literal_plain in Y end. exists t. auto.
Qed.
Lemma int_sound l : sound (ELit l).
Proof.
  intros a x k o v _ _ Tr E K. cbn [c_val] in E. destruct l as [| | |i]; try discriminate. destruct (holds Small (int_value i)) eqn:H; [|discriminate]. injection E as <-. apply holds_iff in H.
  inversion Tr; subst; try discriminate; try no_access.
  apply number_sound in K as (t & -> & N & A); [|exact H]. split; [exact A|discriminate].
Qed.
(** The number under a cast. *)
Lemma suffix_sound z sfx k o : in_range Small z -> suffix_has sfx z -> Ev (number z sfx) k o -> exists t, k = RInt t /\ o = Some (VInt z).
Proof.
  intros R (name & s & w & In & -> & H) K.
  assert (R' : - 2 ^ 127 <= z < 2 ^ 127).
  { unfold in_range in R. cbn [fst snd] in R. pose proof (pow_mono (int - 1) 127 ltac:(lia)). lia. }
  specialize (H R').
  assert (L : forall t, literal_ty numbers (st name) t -> fits t z = Some z).
  { intros t [[E _]|(name' & E & In')].
    - cbn in In. repeat (destruct In as [In|In]; [injection In as <- _ _; discriminate E|]). destruct In.
    - assert (t = (s, w)).
      { clear - In In' E. cbn in In, In'. repeat (destruct In as [In|In]; [injection In as <- <- <-; repeat (destruct In' as [In'|In']; [injection In' as <- <-; try discriminate E; reflexivity|]); destruct In'|]). destruct In. }
      subst t. unfold fits. replace (holds (s, w) z) with true; [reflexivity|]. symmetry. apply holds_iff. exact H. }
  unfold number in K. destruct (z <? 0).
  - inversion K; subst; try discriminate.
    + rewrite Z.opp_involutive. rewrite L by assumption. eauto.
    + match goal with Y : forall l, XLit _ <> XLit l |- _ => now destruct (Y _ eq_refl) end.
  - inversion K; subst. rewrite L by assumption. eauto.
Qed.
Lemma low_represent t z v : 1 <= snd t -> represent t z = Some v -> low t z = v /\ in_range t v.
Proof.
  intros W R. pose proof (represent_in t z v ltac:(lia) R) as I. split; [|exact I]. unfold represent, low in *. destruct (fst t) eqn:S; [|now injection R].
  destruct (holds t z); [|discriminate]. injection R as <-. unfold in_range in I. rewrite S in I. pose proof (half_double (snd t) W). rewrite Z.mod_small by lia. lia.
Qed.
Lemma not_char e a n : mix a e -> ~ tree cx c e (XLit (RlChar n)).
Proof.
  intros I Tr. destruct e as [v| |t e|l| | | |op e|l op r|]; try (destruct I; fail); inversion Tr; subst; try discriminate; try no_access.
  - destruct v as [i|s|l]; try discriminate. match goal with Y : is_leaf _ = true |- _ => rename Y into L end. cbn in I, L.
    apply orb_false_iff in I as [O1 O]. apply orb_false_iff in O as [O2 O]. rewrite O1, O2 in L. discriminate.
  - destruct l; try discriminate; destruct I.
  - match goal with Y : number _ _ = _ |- _ => unfold number in Y; destruct (_ <? 0) in Y; discriminate end.
  - destruct I.
  - destruct (is_post op); discriminate.
Qed.
Lemma cast_sound t e : sound e -> sound (ECast t e).
Proof.
  intros IH a x k o v I S Tr E K. cbn [mixed] in I. destruct t as [b| | | |]; try (destruct I; fail). destruct I as [(t & M & W & D & Sg) I]. cbn [strict] in S.
  cbn [c_val] in E. rewrite M in E. cbn [obind] in E. apply obind_inv in E as (u & E & Ru). destruct (low_represent t u v ltac:(lia) Ru) as [Lo In].
  assert (Fin : forall k' o', agree k' o' u -> (k' = RBool -> u = 0 \/ u = 1) ->
    agree (RInt t) (omap (fun r => VInt (low t (as_int r))) o') v).
  { intros k' o' A B. destruct o' as [r|]; [|exact A]. destruct A as [-> A]. cbn [omap]. replace (as_int (value_of k' u)) with u.
    - rewrite Lo. split; [reflexivity|]. intros t' Et; injection Et as <-. exact In.
    - destruct k'; cbn [value_of as_int]; [reflexivity|]. destruct (B eq_refl) as [-> | ->]; reflexivity. }
  inversion Tr; subst; try discriminate; try no_access; try (inversion K; fail).
  - cbn [c_val] in E. match type of E with (if holds ?t ?z then _ else _) = _ => destruct (holds t z) eqn:H; [|discriminate] end. injection E as <-. apply holds_iff in H.
    match goal with Y : ty_toks _ _ _ = Some _ |- _ => cbn [ty_toks] in Y; injection Y as <- end.
    inversion K; subst; [|match goal with Y : XLit _ = number _ _ |- _ => unfold number in Y; destruct (_ <? 0) in Y; discriminate end].
    match goal with Y : named _ = Some _ |- _ => rewrite (Named _ _ M) in Y; injection Y as <- end.
    match goal with Y : Ev (number _ _) _ _ |- _ => apply suffix_sound in Y as (t' & -> & ->); [|assumption|assumption] end.
    split; [|discriminate]. cbn [omap as_int]. split; [reflexivity|]. intros t0 Et; injection Et as <-. exact In.
  - match goal with Y : ty_toks _ _ _ = Some _ |- _ => cbn [ty_toks] in Y; injection Y as <- end. match goal with Y : tree _ _ e _ |- _ => rename Y into T' end.
    inversion K; subst; [|match goal with Y : tree _ _ _ _ |- _ => now destruct (not_char _ _ _ I Y) end].
    match goal with Y : named _ = Some _ |- _ => rewrite (Named _ _ M) in Y; injection Y as <- end.
    match goal with Y : Ev _ _ _ |- _ => rename Y into K' end.
    destruct (IH _ _ _ _ _ I S T' E K') as (A & B). split; [|discriminate]. eapply Fin; [exact A|]. intro Kb. now apply B.
Qed.

(** A literal is the tree of a literal only. *)
Lemma literal_tree e a z sfx u : mix a e -> tree cx c e (XLit (RlInt z sfx)) -> C e = Some u -> u = z.
Proof.
  intros I Tr E. destruct e as [n| |t e|l| | | |op e|l op r|]; try (destruct I; fail); inversion Tr; subst; try discriminate; try no_access.
  - destruct n as [i|s|l]; try discriminate. match goal with Y : is_leaf _ = true |- _ => rename Y into L end. cbn in I, L.
    apply orb_false_iff in I as [O1 O]. apply orb_false_iff in O as [O2 O]. rewrite O1, O2 in L. discriminate.
  - destruct l; try discriminate; destruct I.
  - cbn [c_val] in E. match type of E with (if holds ?t ?z then _ else _) = _ => destruct (holds t z) eqn:Hz; [|discriminate] end. injection E as <-.
    match goal with Y : number _ _ = _ |- _ => unfold number in Y; destruct (_ <? 0) in Y; [discriminate|injection Y as <- _] end. reflexivity.
  - destruct (is_post op); discriminate.
Qed.
Lemma unary_sound op e : sound e -> sound (EUnary op e).
Proof.
  intros IH a x k o v I [S N] Tr E K. assert (I' : mix false e) by (cbn in I; destruct op; try destruct I; exact I). clear I. rename I' into I.
  cbn [c_val] in E. destruct op; try discriminate.
  - inversion Tr; subst; try discriminate; try no_access. all: match goal with Y : _ = UNot \/ _ = UComp |- _ => destruct Y; discriminate end.
  - apply obind_inv in E as (t & Et & E). apply obind_inv in E as (u & E & F).
    apply omap_inv in Et as (t' & Et & <-). assert (Gt : good t') by exact (type_good e t' I Et). rewrite good_promote in F by assumption.
    inversion Tr; subst; try discriminate; try no_access; try (match goal with Y : _ = UNot \/ _ = UComp |- _ => destruct Y; discriminate end).
    match goal with Y : tree _ _ e ?x |- _ => rename Y into T'; rename x into y end.
    inversion K; subst; try discriminate; (split; [|discriminate]).
    + match goal with Y : literal_ty _ _ _ |- _ => rename Y into Lt end.
      destruct (type_sound e _ _ _ _ _ I S T' (E_number _ _ _ _ _ _ Lt) Et) as (Sg & [_ G] & Un & An). specialize (G eq_refl).
      rewrite <- (literal_tree e _ _ _ _ I T' E). now apply (agree_fits t').
    + match goal with Y : Ev _ _ _ |- _ => rename Y into K' end.
      destruct (IH _ _ _ _ _ I S T' E K') as (A & _). destruct (type_sound e _ _ _ _ _ I S T' K' Et) as (Sg & [_ G] & Un & An). specialize (G eq_refl).
      match goal with |- agree _ (obind ?o _) _ => destruct o as [r|]; [|exact A] end. destruct A as [-> A]. cbn [obind value_of as_int]. now apply (agree_fits t').
  - apply omap_inv in E as (u & E & <-). inversion Tr; subst; try discriminate; try no_access.
    match goal with Y : tree _ _ e ?x |- _ => rename Y into T'; rename x into y end.
    inversion K; subst; try discriminate; match goal with Y : Ev _ _ _ |- _ => rename Y into K' end; destruct (IH _ _ _ _ _ I S T' E K') as (A & B); pose proof (truth_bool e _ _ _ _ I S N T' K') as Tt; [discriminate Tt|].
    destruct (B eq_refl) as [B' _].
    split; [|intros _; split; [destruct (u =? 0); auto|reflexivity]].
    match goal with |- agree _ (omap _ ?o) _ => destruct o as [r|]; [|exact A] end. destruct A as [-> A]. cbn [omap]. split; [|discriminate]. destruct B' as [-> | ->]; reflexivity.
  - apply obind_inv in E as (t & Et & E). apply obind_inv in E as (u & E & F).
    apply omap_inv in Et as (t' & Et & <-). assert (Gt : good t') by exact (type_good e t' I Et). rewrite good_promote in F by assumption.
    inversion Tr; subst; try discriminate; try no_access.
    match goal with Y : tree _ _ e ?x |- _ => rename Y into T'; rename x into y end. destruct N as [N1 N2].
    inversion K; subst; try discriminate; match goal with Y : Ev _ _ _ |- _ => rename Y into K' end; destruct (IH _ _ _ _ _ I S T' E K') as (A & B).
    2:{ destruct (B eq_refl); congruence. }
    destruct (type_sound e _ _ _ _ _ I S T' K' Et) as (Sg & [_ G] & Un & An). specialize (G eq_refl).
    split; [|discriminate]. match goal with |- agree _ (omap _ ?o) _ => destruct o as [r|]; [|exact A] end. destruct A as [-> A]. cbn [omap value_of as_int]. specialize (A t eq_refl).
    assert (X : v = low t (Z.lnot u) /\ in_range t v).
    { destruct (fst t) eqn:Ft.
      - assert (R : in_range t (Z.lnot u)) by (unfold in_range in A |- *; rewrite Ft in A |- *; unfold Z.lnot; lia).
        rewrite (low_id t (good_w t G)) by exact R. rewrite (under_same t' t _ _ G Un R F). auto.
      - rewrite An in F by (apply N2; apply not_true_is_false; intro Q; specialize (Sg Q); congruence).
        destruct (low_represent t _ _ ltac:(pose proof (good_w t G); lia) F) as [<- R]. auto. }
    destruct X as [<- X]. split; [reflexivity|]. intros t1 E1; injection E1 as <-. exact X.
Qed.
Definition kind_of (k : rty) : kind := match k with RInt _ => KInt | RBool => KBool end.
Lemma op_kinds op k k' : is_plain op = true -> rust_op_ty (rust_op op) k = Some k' -> op_kind op (kind_of k) = Some (kind_of k') /\ (k' = RBool \/ k' = k).
Proof.
  intros P E. destruct op; try discriminate P; destruct k as [t|]; vm_compute in E; try discriminate E; injection E as <-; cbn; auto.
Qed.
Lemma stands k v : stands_for (kind_of k) v = value_of k v.
Proof. destruct k; reflexivity. Qed.
Lemma binary_sound l op r : sound l -> sound r -> sound (EBinary l op r).
Proof.
  intros IHl IHr al x k o v (P & I1 & I2) [S1 S2] Tr E K. destruct (bin_tree l op r x P Tr) as (y & z & -> & T1 & T2). apply bin_evals in K; [|exact P].
  destruct K as [(-> & -> & o1 & o2 & K1 & K2 & ->)|[(-> & -> & o1 & o2 & K1 & K2 & ->)|[(Sh & t & t' & o1 & o2 & -> & K1 & K2 & ->)|(Sh & N1 & N2 & k0 & o1 & o2 & Ot & K1 & K2 & ->)]]].
  - cbn [c_val] in E. apply obind_inv in E as (a & E1 & E). destruct (IHl _ _ _ _ _ I1 S1 T1 E1 K1) as (A1 & B1).
    assert (V01 : v = 0 \/ v = 1).
    { destruct (a =? 0); [injection E as <-; auto|]. apply omap_inv in E as (b & _ & <-). destruct (b =? 0); auto. }
    split; [|auto].
    destruct o1 as [ra|]; [|exact A1]. destruct A1 as [-> _]. cbn [value_of]. destruct (a =? 0); cbn [negb].
    + injection E as <-. split; [reflexivity|discriminate].
    + apply omap_inv in E as (b & E2 & <-). destruct (IHr _ _ _ _ _ I2 S2 T2 E2 K2) as (A2 & _). destruct o2 as [rb|]; [|exact A2]. destruct A2 as [-> _].
      split; [|discriminate]. cbn [value_of]. destruct (b =? 0); reflexivity.
  - cbn [c_val] in E. apply obind_inv in E as (a & E1 & E). destruct (IHl _ _ _ _ _ I1 S1 T1 E1 K1) as (A1 & B1).
    assert (V01 : v = 0 \/ v = 1).
    { destruct (a =? 0); [|injection E as <-; auto]. apply omap_inv in E as (b & _ & <-). destruct (b =? 0); auto. }
    split; [|auto].
    destruct o1 as [ra|]; [|exact A1]. destruct A1 as [-> _]. cbn [value_of]. destruct (a =? 0); cbn [negb].
    + apply omap_inv in E as (b & E2 & <-). destruct (IHr _ _ _ _ _ I2 S2 T2 E2 K2) as (A2 & _). destruct o2 as [rb|]; [|exact A2]. destruct A2 as [-> _].
      split; [|discriminate]. cbn [value_of]. destruct (b =? 0); reflexivity.
    + injection E as <-. split; [reflexivity|discriminate].
  - rewrite c_val_binary in E by (intros ->; discriminate). rewrite Sh in E. apply obind_inv in E as (a & E1 & E). apply obind_inv in E as (b & E2 & E).
    destruct (IHl _ _ _ _ _ I1 S1 T1 E1 K1) as (A1 & _). destruct (IHr _ _ _ _ _ I2 S2 T2 E2 K2) as (A2 & _).
    destruct (c_val_in l _ _ I1 E1) as (tc & Etc & [_ Gc] & Rc). specialize (Gc eq_refl).
    destruct (type_sound l _ _ _ _ _ I1 S1 T1 K1 Etc) as (Sg & [_ G] & Un & _). specialize (G eq_refl).
    rewrite Etc in E. cbn [omap obind] in E. rewrite good_promote in E by assumption. split; [|discriminate].
    destruct o1 as [ra|]; [|exact A1]. destruct A1 as [-> A1]. destruct o2 as [rb|]; [|exact A2]. destruct A2 as [-> A2]. cbn [obind value_of]. apply agrees_int; [exact Sg|].
    destruct (under_wide tc t Un) as (tw & Rl & Wd). apply (shift_sound t (good_w t G) op tw); [exact Wd|now apply A1| |exact Sh|exact (widen_shift t tc tw op a b v Rl E)].
    apply holds_iff. apply (rel_holds t tc tw a Rl). now apply holds_iff.
  - rewrite c_val_binary in E by assumption. rewrite Sh in E. apply obind_inv in E as (a & E1 & E). apply obind_inv in E as (b & E2 & E).
    destruct (IHl _ _ _ _ _ I1 S1 T1 E1 K1) as (A1 & B1). destruct (IHr _ _ _ _ _ I2 S2 T2 E2 K2) as (A2 & B2).
    destruct (c_val_in l _ _ I1 E1) as (t1 & Et1 & [_ G1] & R1). specialize (G1 eq_refl). destruct (c_val_in r _ _ I2 E2) as (t2 & Et2 & [_ G2] & R2). specialize (G2 eq_refl).
    rewrite (arith_type l r t1 t2) in E by assumption. cbn [obind] in E. assert (Gc : good (common t1 t2)) by now apply good_common.
    apply obind_inv in E as (a' & Ea & E). apply obind_inv in E as (b' & Eb & E).
    destruct (op_kinds op k0 k P Ot) as [Ok Kk].
    destruct k0 as [t|].
    + destruct (type_sound l _ _ _ _ _ I1 S1 T1 K1 Et1) as (Sg & [_ G] & Un1 & _). specialize (G eq_refl). destruct (type_sound r _ _ _ _ _ I2 S2 T2 K2 Et2) as (_ & _ & Un2 & _).
      destruct (under_common t1 t2 t Un1 Un2) as [Un _]. destruct (under_wide _ t Un) as (tw & Rl & Wd).
      assert (Ag : agree k (obind o1 (fun a => obind o2 (fun b => r_binary t (rust_op op) a b))) v).
      { destruct o1 as [ra|]; [|exact A1]. destruct A1 as [-> A1]. destruct o2 as [rb|]; [|exact A2]. destruct A2 as [-> A2]. cbn [obind value_of].
        specialize (A1 t eq_refl). specialize (A2 t eq_refl).
        apply (under_same _ t) in Ea; [|assumption..]. apply (under_same _ t) in Eb; [|assumption..]. subst a' b'.
        assert (X : agrees t (r_binary t (rust_op op) (stands_for KInt a) (stands_for KInt b)) (kind_of k) v).
        { apply (op_sound t (good_w t G) op tw); auto; [discriminate|]. exact (widen_binary t _ tw op a b v Rl E). }
        destruct Kk as [-> | ->]; [now apply (agrees_bool t)|now apply agrees_int]. }
      cbn [int_of]. split; [exact Ag|].
      intros ->. assert (T : may_be_truth (EBinary l op r) = true /\ forall x y, c_binary (common t1 t2) op x y = Some v -> v = 0 \/ v = 1).
      { clear - Ot P Sh. destruct op; try discriminate P; try discriminate Sh; try (vm_compute in Ot; discriminate Ot); (split; [reflexivity|]); intros x y Ex; cbn [c_binary] in Ex; injection Ex as <-;
          match goal with |- bit ?q = 0 \/ _ => destruct q; auto end. }
      destruct T as [T1' T2']. split; [eapply T2'; exact E|exact T1'].
    + assert (k = RBool) by (destruct Kk; assumption). subst k.
      destruct (B1 eq_refl) as [Ba Ma]; destruct (B2 eq_refl) as [Bb Mb]; apply rep_bits in Ea; [|assumption..]; apply rep_bits in Eb; [|assumption..]; subst a' b'.
      assert (E' : c_binary (true, 32) op a b = Some v) by (destruct op; try discriminate P; try discriminate Sh; try (now destruct N1); try (now destruct N2); try (vm_compute in Ot; discriminate Ot); exact E).
      assert (Rb : forall q, (q = 0 \/ q = 1) -> in_range (true, 32) q) by (intros q [-> | ->]; unfold in_range; cbn; lia).
      split.
      * destruct o1 as [ra|]; [|exact A1]; destruct A1 as [-> A1]; destruct o2 as [rb|]; [|exact A2]; destruct A2 as [-> A2]; cbn [obind int_of].
        apply (agrees_bool (true, 32)); [reflexivity|]. change (value_of RBool) with (stands_for KBool). apply (op_sound (true, 32) ltac:(cbn; lia) op (true, 32)); auto; now left.
      * intros _; destruct op; try discriminate P; try discriminate Sh; try (now destruct N1); try (now destruct N2); try (vm_compute in Ot; discriminate Ot); cbn [c_binary may_be_truth] in *; injection E as <-; rewrite ?Ma, ?Mb;
        (split; [destruct Ba as [-> | ->], Bb as [-> | ->]; cbn; auto|reflexivity]).
Qed.
Lemma ternary_sound a b d : sound a -> sound b -> sound d -> sound (ETernary a b d).
Proof.
  intros IHa IHb IHd al x k o v I S Tr E K. pose proof I as (I1 & I2 & I3). pose proof S as (S1 & S2 & S3).
  cbn [c_val] in E. apply obind_inv in E as (z & Ez & E). apply obind_inv in E as (t & Et & E). apply obind_inv in E as (u & Eu & E).
  assert (Gt : good t) by (eapply arith_good; [| |exact Et]; intros q Eq; [exact (type_good b q I2 Eq)|exact (type_good d q I3 Eq)]).
  assert (Ty : forall t', k = RInt t' -> good t' /\ under t t').
  { intros t' ->. destruct (type_sound (ETernary a b d) _ _ _ _ t I S Tr K Et) as (_ & _ & Un & _). split; [|exact Un].
    assert (M : mix false (ETernary a b d)) by exact I. destruct (type_sound (ETernary a b d) _ _ _ _ t M S Tr K Et) as (_ & [_ G] & _). now apply G. }
  inversion Tr; subst; try discriminate; try no_access.
  match goal with Y : tree _ _ a ?p, Y' : tree _ _ b ?q, Y'' : tree _ _ d ?r |- _ =>
    rename Y into T1; rename Y' into T2; rename Y'' into T3; rename p into xa; rename q into xb; rename r into xd end.
  inversion K as [| | | | | | | | | | |x' y' z' k' o0 o1 o2 K0 K1 K2 E1 E2 E3|]; subst.
  destruct (IHa _ _ _ _ _ I1 S1 T1 Ez K0) as (A0 & _).
  assert (X : exists o', agree k o' u /\ (k = RBool -> (u = 0 \/ u = 1) /\ may_be_truth (ETernary a b d) = true) /\ o' = if z =? 0 then o2 else o1).
  { cbn [may_be_truth]. destruct (z =? 0).
    - destruct (IHd _ _ _ _ _ I3 S3 T3 Eu K2) as (V3 & B3). exists o2. split; [exact V3|]. split; [|reflexivity].
      intros Kb. destruct (B3 Kb) as [Bv ->]. split; [exact Bv|apply orb_true_r].
    - destruct (IHb _ _ _ _ _ I2 S2 T2 Eu K1) as (V3 & B3). exists o1. split; [exact V3|]. split; [|reflexivity].
      intros Kb. destruct (B3 Kb) as [Bv ->]. now split. }
  destruct X as (o' & Ay & By & Ey). split.
  - destruct o0 as [r0|]; [|exact A0]. destruct A0 as [-> _]. cbn [value_of].
    replace (if negb (z =? 0) then o1 else o2) with o' by (subst o'; destruct (z =? 0); reflexivity).
    assert (Fin : agree k o' v).
    { destruct o' as [r|]; [|exact Ay]. destruct Ay as [-> Ay]. assert (v = u); [|subst v; now split].
      destruct k as [t'|]; [destruct (Ty t' eq_refl) as [G Un]; exact (under_same t t' u v G Un (Ay t' eq_refl) E)|]. now apply (rep_bits t); [|apply By|]. }
    subst o'. destruct (z =? 0); cbn [negb] in *; exact Fin.
  - intros ->. destruct (By eq_refl) as [Bu Mu]. split; [|exact Mu]. now rewrite (rep_bits t u v Gt Bu E).
Qed.
Theorem tree_sound e : sound e.
Proof.
  induction e as [n|n l IHl|t e IHe|l|a IHa|l IHl|t|op e IHe|l op r IHa IHb|a b d IHa IHb IHd] using expr_ind'.
  - apply var_sound.
  - intros a x k o v I. destruct I.
  - now apply cast_sound.
  - apply int_sound.
  - intros x y k o v I. destruct I.
  - intros a x k o v I. destruct I.
  - intros a x k o v I. destruct I.
  - now apply unary_sound.
  - now apply binary_sound.
  - now apply ternary_sound.
Qed.

(** ** Type inference *)

(** Inference keeps the type and the value. *)
Definition kept (e e' : expr) : Prop :=
  (forall a, mix a e -> mix a e') /\ strict e' /\ (may_be_truth e' = true -> may_be_truth e = true) /\
  (is_truth e = true -> is_truth e' = true \/ number_lit e') /\ (number_lit e -> number_lit e') /\
  (anchored e = true -> anchored e' = true) /\
  Ct e' = Ct e /\ forall v, C e = Some v -> C e' = Some v.

Lemma mix_int e : forall a, mix a e -> int_expr (fun _ => True) e.
Proof.
  induction e as [n|n l IHl|ty e IHe|l|x IHa|l IHl|ty|op e IHe|l op r IHa IHb|x b d IHa IHb IHd] using expr_ind'; intros a I; try (destruct I; fail).
  - exact I.
  - destruct ty; try (destruct I; fail). destruct I as [_ I]. split; [exact Logic.I|]. eapply IHe. exact I.
  - exact I.
  - destruct op; try (destruct I; fail); eapply IHe; exact I.
  - destruct I as (P & I1 & I2). repeat split; [exact P|eapply IHa; exact I1|eapply IHb; exact I2].
  - destruct I as (I0 & I1 & I2). repeat split; [eapply IHa; exact I0|eapply IHb; exact I1|eapply IHd; exact I2].
Qed.
Lemma lit_val i v : C (ELit (LInt i)) = Some v -> v = int_value i /\ in_range Small v.
Proof. cbn [c_val]. destruct (holds Small (int_value i)) eqn:H; [|discriminate]. intro E; injection E as <-. split; [reflexivity|now apply holds_iff]. Qed.
Lemma val_lit v s : in_range Small v -> C (ELit (LInt (mk_int v s))) = Some v.
Proof. intro R. cbn [c_val int_value]. now rewrite (proj2 (holds_iff Small v) R). Qed.
Lemma promote_small : promote int Small = Small.
Proof. apply good_promote, good_small. Qed.
Lemma arith_small a b : Some Small = a -> Some Small = b -> c_arith int a b = Some Small.
Proof. intros <- <-. unfold c_arith. cbn [obind omap]. rewrite promote_small. cbn [common]. now rewrite Z.max_id. Qed.
Lemma int_16 : 16 <= snd Small <= 64.
Proof. cbn [snd]. lia. Qed.
Ltac ks := match goal with |- _ /\ _ => split end.

Theorem infer_kept e : forall a c0 e' c' t, mix a e -> well_negated e -> (signed = false -> anchored_complements e) -> expr_finish cx e c0 = (e', c', FOk t) -> kept e e'.
Proof.
  induction e as [n|n l IHl|ty e IHe|l|x IHa|l IHl|ty|op e IHe|l op r IHa IHb|x b d IHa IHb IHd] using expr_ind';
    intros a c0 e' c' t I N Fc F; try (now destruct I).
  - rewrite expr_finish_eq in F; cbn [finish_step] in F. destruct (var_finish cx n c0) as [c1 f]. injection F as <- <- _.
    repeat split; auto; try discriminate.
  - destruct ty as [b| | | |]; try (destruct I; fail). destruct I as [Mb I]. cbn [well_negated anchored_complements] in N, Fc.
    destruct (expr_finish cx e c0) as [[e1 c1] f1] eqn:F1.
    rewrite (cast_int _ _ e c0 e1 c1 f1 F1) in F; [|apply (int_shape cx e c0 e1 c1 f1 (mix_int e _ I) F1)]. injection F as <- <- F.
    destruct f1 as [o| | |]; try discriminate F. destruct (IHe _ _ _ _ _ I N Fc F1) as (K1 & K2 & K3 & K4 & K5 & K8 & K6 & K7).
    split; [intros a' [Mb' I']; split; auto|]. split; [exact K2|]. split; [discriminate|]. split; [discriminate|]. split; [intros [v E]; discriminate|]. split; [reflexivity|]. split; [reflexivity|].
    intros v E. cbn [c_val] in *. apply obind_inv in E as (tb & -> & E). cbn [obind]. apply obind_inv in E as (u & E & Ru). now rewrite (K7 _ E).
  - destruct l; try (destruct I; fail). rewrite expr_finish_eq in F; cbn [finish_step] in F. injection F as <- <- _.
    repeat split; auto; try discriminate.
  - rewrite expr_finish_eq in F; cbn [finish_step] in F. destruct (expr_finish cx e c0) as [[e1 c1] f1] eqn:F1. unfold fbind in F.
    destruct f1 as [o| | |]; try discriminate F. destruct N as [N M].
    assert (I' : mix false e) by (destruct op; try (destruct I; fail); exact I).
    assert (Fc' : signed = false -> anchored_complements e) by (intro S; now destruct (Fc S)).
    destruct (IHe _ _ _ _ _ I' N Fc' F1) as (K1 & K2 & K3 & K4 & K5 & K8 & K6 & K7). pose proof (K1 _ I') as K1'.
    destruct op; try (destruct I; fail); cbn [unary_type] in F.
    + (* plus *)
      destruct (is_number_lit e1) as [[i ->]|Ni].
      * cbn [unary_fold] in F. injection F as <- <- <-. split; [intros a' _; exact Logic.I|]. split; [exact K2|]. split; [discriminate|]. split; [discriminate|].
        split; [intros [v E]; discriminate|]. split; [exact K8|]. split; [|exact K7]. cbn [c_type] in *. rewrite <- K6. cbn [omap]. now rewrite promote_small.
      * assert (F' : (EUnary UPlus e1, c1, FOk o) = (e', c', FOk t)).
        { destruct e1 as [| | |[| | |]| | | | | |]; try (destruct K1'; fail); try exact F. now destruct (Ni i). }
        injection F' as <- <- <-. split; [intros a' I''; exact (K1 _ I'')|]. split; [split; [exact K2|exact Logic.I]|].
        split; [exact K3|]. split; [discriminate|]. split; [intros [v E]; discriminate|]. split; [exact K8|].
        split; [cbn [c_type]; now rewrite K6|]. intros v E. cbn [c_val] in *. auto.
    + (* minus *)
      destruct (is_number_lit e1) as [[i ->]|Ni].
      * cbn [unary_fold] in F. injection F as <- <- <-. split; [intros a' _; exact Logic.I|]. split; [exact Logic.I|]. split; [discriminate|]. split; [discriminate|].
        split; [intros [v E]; discriminate|]. split; [exact K8|]. cbn [c_type] in K6. split; [cbn [c_type]; rewrite <- K6; cbn [omap]; now rewrite promote_small|].
        intros v E. cbn [c_val] in E. rewrite <- K6 in E. cbn [omap obind] in E. rewrite promote_small in E. apply obind_inv in E as (z & E & G).
        apply K7 in E. apply lit_val in E as [-> E]. pose proof (represent_in Small _ _ ltac:(cbn; lia) G) as R. apply (small_range Small int_16) in G as [-> G].
        rewrite wrap_id by lia. now apply val_lit.
      * assert (F' : (EUnary UMinus e1, c1, FOk o) = (e', c', FOk t)).
        { destruct e1 as [| | |[| | |]| | | | | |]; try (destruct K1'; fail); try exact F. now destruct (Ni i). }
        injection F' as <- <- <-. split; [intros a' I''; exact (K1 _ I'')|]. split; [split; [exact K2|exact Logic.I]|].
        split; [discriminate|]. split; [discriminate|]. split; [intros [v E]; discriminate|]. split; [exact K8|].
        split; [cbn [c_type]; now rewrite K6|]. intros v E. cbn [c_val] in *. rewrite K6. apply obind_inv in E as (t' & Et & E). rewrite Et. cbn [obind].
        apply obind_inv in E as (z & E & G). now rewrite (K7 _ E).
    + (* not *)
      assert (Z : is_truth e1 = true \/ number_lit e1) by (destruct M as [M|M]; auto).
      destruct Z as [Z|[z ->]].
      * assert (F' : (EUnary UNot e1, c1, FOk (ty_b BBool)) = (e', c', FOk t)).
        { destruct e1 as [| | |[| | |]| | | | | |]; try discriminate Z; exact F. }
        injection F' as <- <- <-. split; [intros a' I''; exact (K1 _ I'')|]. split; [split; [exact K2|exact Z]|]. split; [auto|]. split; [auto|]. split; [intros [v E]; discriminate|]. split; [discriminate|]. split; [reflexivity|].
        intros v E. cbn [c_val] in *. apply omap_inv in E as (z & E & <-). now rewrite (K7 _ E).
      * cbn [unary_fold] in F. injection F as <- <- <-. split; [intros a' _; exact Logic.I|]. split; [exact Logic.I|]. split; [discriminate|].
        split; [right; eexists; reflexivity|]. split; [intros [v E]; discriminate|]. split; [discriminate|]. split; [reflexivity|].
        intros v E. cbn [c_val] in E. apply omap_inv in E as (q & E & <-). apply K7 in E. apply lit_val in E as [-> E]. cbn [int_value].
        apply (val_lit (bit (z =? 0))). apply bit_good, good_small.
    + (* complement *)
      assert (F' : (EUnary UComp e1, c1, FOk o) = (e', c', FOk t)).
      { destruct e1 as [| | |[| | |]| | | | | |]; try (destruct K1'; fail); exact F. }
      injection F' as <- <- <-. split; [intros a' I''; exact (K1 _ I'')|]. split; [split; [exact K2|]|].
      { split; [destruct (may_be_truth e1); [|reflexivity]; now rewrite K3 in M|]. intro S. apply K8. now destruct (Fc S). }
      split; [discriminate|]. split; [discriminate|]. split; [intros [v E]; discriminate|]. split; [exact K8|]. split; [cbn [c_type]; now rewrite K6|].
      intros v E. cbn [c_val] in *. rewrite K6. apply obind_inv in E as (t' & Et & E). rewrite Et. cbn [obind]. apply obind_inv in E as (z & E & Fr). now rewrite (K7 _ E).
  - destruct N as [N1 N2]. pose proof I as (P & I1 & I2).
    assert (Fc1 : signed = false -> anchored_complements l) by (intro S; now destruct (Fc S)).
    assert (Fc2 : signed = false -> anchored_complements r) by (intro S; now destruct (Fc S)).
    rewrite expr_finish_eq in F; cbn [finish_step] in F. destruct (expr_finish cx l c0) as [[l1 c1] f1] eqn:F1. unfold fbind in F.
    destruct f1 as [o| | |]; try discriminate F. destruct (expr_finish cx r c1) as [[r1 c2] f2] eqn:F2. destruct f2 as [o0| | |]; try discriminate F.
    destruct (IHa _ _ _ _ _ I1 N1 Fc1 F1) as (K1 & K2 & K3 & K4 & K5 & K8 & K6 & K7). destruct (IHb _ _ _ _ _ I2 N2 Fc2 F2) as (L1 & L2 & L3 & L4 & L5 & L8 & L6 & L7).
    pose proof (mix_int _ _ (K1 _ I1)) as Kx. pose proof (mix_int _ _ (L1 _ I2)) as Lx.
    rewrite (types_plain cx (ok := fun _ => True)) in F by assumption. cbn [fst snd] in F.
    destruct (fold_binary cx l1 op r1 (join_ty o o0) c2 Kx Lx) as [(i & j & -> & -> & Fo & B)|B].
    + rewrite B in F. destruct (int_op op (int_value i) (int_value j)) as [z|] eqn:O; [|discriminate F]. injection F as <- <- <-.
      split; [intros a' _; exact Logic.I|]. split; [exact Logic.I|]. split; [discriminate|]. split; [destruct op; discriminate|]. split; [intros [v E]; discriminate|].
      cbn [anchored] in K8, L8.
      split; [destruct op; try discriminate Fo; cbn [anchored]; auto; intro X; apply orb_true_iff in X as [X|X]; auto|].
      cbn [c_type] in K6, L6.
      split; [destruct op; try discriminate Fo; cbn [c_type]; rewrite ?(arith_small _ _ K6 L6), <- ?K6; cbn [omap]; rewrite ?promote_small; reflexivity|].
      intros v E. destruct (c_val_in (EBinary l op r) a v I E) as (t0 & Et0 & W0 & R0). rewrite c_val_binary in E by (destruct op; discriminate).
      apply obind_inv in E as (p & E1 & E). apply obind_inv in E as (q & E2 & E).
      apply K7 in E1. apply L7 in E2. apply lit_val in E1 as [-> Ra]. apply lit_val in E2 as [-> Rb].
      rewrite (arith_small _ _ K6 L6), <- K6 in E. cbn [omap obind] in E. rewrite promote_small in E.
      assert (Et : t0 = Small).
      { destruct op; try discriminate Fo; cbn [c_type] in Et0; rewrite ?(arith_small _ _ K6 L6), <- ?K6 in Et0; cbn [omap] in Et0; rewrite ?promote_small in Et0; now injection Et0 as <-. }
      subst t0. assert (X : int_op op (int_value i) (int_value j) = Some v).
      { destruct (is_shift op) eqn:Sh; [now apply (fold_shift Small int_16)|]. apply (fold_op Small int_16); [exact Fo|exact Sh|].
        rewrite (represent_id Small _ Ra), (represent_id Small _ Rb) in E. exact E. }
      rewrite X in O. injection O as <-. now apply val_lit.
    + destruct (binary_fold cx l1 op r1 (join_ty o o0) c2) as [e5 f5]. cbn [fst] in B. subst e5. injection F as <- <- _.
      split; [intros a' _; split; auto|]. split; [split; auto|].
      split; [|split; [|split; [intros [v E]; discriminate|split; [|split]]]].
      * destruct op; try discriminate P; cbn [may_be_truth]; auto; intro X; apply andb_true_iff in X as [X1 X2]; now rewrite K3, L3.
      * intros X. left. destruct op; try discriminate P; exact X.
      * destruct op; try discriminate P; cbn [anchored]; auto; intro X; apply orb_true_iff in X as [X|X]; apply orb_true_iff; auto.
      * cbn [c_type]. rewrite K6, L6. reflexivity.
      * intros v E.
        assert (G : op <> OAnd -> op <> OOr -> C (EBinary l1 op r1) = Some v).
        { intros O1 O2. rewrite c_val_binary in E |- * by assumption. rewrite K6, L6.
          apply obind_inv in E as (p & E1 & E). apply obind_inv in E as (q & E2 & E). rewrite (K7 _ E1). cbn [obind]. now rewrite (L7 _ E2). }
        destruct op; try (apply G; discriminate); cbn [c_val] in E |- *; apply obind_inv in E as (p & E1 & E); rewrite (K7 _ E1); cbn [obind]; destruct (p =? 0); auto;
          apply omap_inv in E as (q & E2 & <-); rewrite (L7 _ E2); reflexivity.
  - destruct N as (N1 & N2 & N3). destruct I as (I0 & I1 & I2).
    assert (Fc1 : signed = false -> anchored_complements x) by (intro S; now destruct (Fc S)).
    assert (Fc2 : signed = false -> anchored_complements b) by (intro S; now destruct (Fc S)).
    assert (Fc3 : signed = false -> anchored_complements d) by (intro S; now destruct (Fc S)).
    rewrite expr_finish_eq in F; cbn [finish_step] in F. unfold condition_finish in F.
    destruct (expr_finish cx x c0) as [[a1 c1] f1] eqn:F1. unfold fbind in F.
    destruct f1 as [o| | |]; try discriminate F. destruct (expr_finish cx b c1) as [[b1 c2] f2] eqn:F2. destruct f2 as [o0| | |]; try discriminate F.
    destruct (expr_finish cx d c2) as [[d1 c3] f3] eqn:F3. destruct f3 as [o1| | |]; try discriminate F. injection F as <- <- <-.
    destruct (IHa _ _ _ _ _ I0 N1 Fc1 F1) as (K1 & K2 & K3 & K4 & K5 & K8 & K6 & K7). destruct (IHb _ _ _ _ _ I1 N2 Fc2 F2) as (L1 & L2 & L3 & L4 & L5 & L8 & L6 & L7).
    destruct (IHd _ _ _ _ _ I2 N3 Fc3 F3) as (M1 & M2 & M3 & M4 & M5 & M8 & M6 & M7).
    split; [|split; [|split; [|split; [discriminate|split; [intros [v E]; discriminate|split; [|split]]]]]].
    + intros a' _. split; [|auto]. destruct (oty_eqb o (ty_b BBool)); [now apply K1|]. repeat split; auto.
    + cbn [strict]. split; [|auto]. destruct (oty_eqb o (ty_b BBool)); [exact K2|]. repeat split; auto.
    + cbn [may_be_truth]. intro X. apply orb_true_iff in X as [X|X]; apply orb_true_iff; auto.
    + cbn [anchored]. intro X. apply orb_true_iff in X as [X|X]; apply orb_true_iff; auto.
    + cbn [c_type]. now rewrite L6, M6.
    + intros v E. cbn [c_val] in E |- *. rewrite L6, M6. apply obind_inv in E as (z & E1 & E).
      destruct (c_val_in x false z I0 E1) as (tz & Etz & [_ Wz] & Rz). specialize (Wz eq_refl). apply K7 in E1.
      apply obind_inv in E as (t' & Et & E). rewrite Et. apply obind_inv in E as (u & Eu & E).
      assert (Eu' : (if z =? 0 then C d1 else C b1) = Some u) by (destruct (z =? 0); auto).
      destruct (oty_eqb o (ty_b BBool)).
      * rewrite E1. cbn [obind]. now rewrite Eu'.
      * rewrite c_val_binary by discriminate. rewrite E1. cbn [obind is_shift]. unfold int_zero.
        rewrite (val_lit 0 None) by apply (bit_good false Small good_small). cbn [obind].
        assert (Wc : c_arith int (Ct a1) (Ct (ELit (LInt (mk_int 0 None)))) = Some tz).
        { rewrite K6, Etz. cbn [c_type]. unfold c_arith. cbn [obind omap]. rewrite !good_promote; [|exact good_small|assumption].
          destruct (common_under tz Small) as [-> _]; [|reflexivity]. right. split; [reflexivity|]. unfold good in Wz. cbn [snd]. lia. }
        rewrite Wc. cbn [obind].
        rewrite (represent_id _ 0) by apply (bit_good false _ Wz). rewrite (represent_id _ z Rz). cbn [obind c_binary]. destruct (z =? 0); cbn [negb bit obind]; now rewrite Eu'.
Qed.
End Values.

(** The types of literals matter for the literals of the expression only. *)
Lemma lit_type model int f g vars e : literals (fun i => f i = g i) e -> c_type model int f vars e = c_type model int g vars e.
Proof.
  induction e as [n|n l IHl|ty e IHe|l|x IHa|l IHl|ty|op e IHe|l op r IHa IHb|x b d IHa IHb IHd] using expr_ind'; cbn [literals c_type]; intro L; try reflexivity.
  - destruct l; try reflexivity. now rewrite L.
  - now rewrite IHe.
  - destruct L as [L1 L2]. now rewrite (IHa L1), (IHb L2).
  - destruct L as (L0 & L1 & L2). now rewrite (IHb L1), (IHd L2).
Qed.
Lemma lit_value model int f g vars e : literals (fun i => f i = g i) e -> c_val model int f vars e = c_val model int g vars e.
Proof.
  induction e as [n|n l IHl|ty e IHe|l|x IHa|l IHl|ty|op e IHe|l op r IHa IHb|x b d IHa IHb IHd] using expr_ind'; cbn [literals c_val]; intro L; try reflexivity.
  - now rewrite (IHe L).
  - destruct l; try reflexivity. now rewrite L.
  - now rewrite (IHe L), (lit_type model int f g vars e L).
  - destruct L as [L1 L2]. now rewrite (IHa L1), (IHb L2), (lit_type model int f g vars l L1), (lit_type model int f g vars r L2).
  - destruct L as (L0 & L1 & L2). now rewrite (IHa L0), (IHb L1), (IHd L2), (lit_type model int f g vars b L1), (lit_type model int f g vars d L2).
Qed.

(** ** C70 *)

Section Theorems.
Context {U : Unicode}.
(** Whether all types are signed, the platform, the width of [int], and the
    types of literals. *)
Variables (signed : bool) (model : builtin -> option int_ty) (int : Z) (lit_ty : lit_int -> int_ty).
(** Expressions on integers of any types that are at least as wide as [int]; a
    cast that is not an operand of an operator may be to a narrower type.  All
    literals have the type [int].  Unless all types are signed, a [~] has an
    operand that is not a constant of literals. *)
Definition of_types (e : expr) : Prop :=
  16 <= int <= 64 /\ mixed model int signed true e /\ literals (fun i => lit_ty i = (true, int)) e /\ well_negated e /\
  (signed = false -> anchored_complements e).
(** The types of Rust have the names, and paths the types and values, of C; a
    number without suffix has a type that is at least as wide as [int]. *)
Definition in_rust (cx : cgctx) (c : lctx) vars (named : list rtok -> option int_ty) rvars (numbers : int_ty -> Prop) : Prop :=
  (forall b t, model b = Some t -> named (builtin_toks cx b) = Some t) /\
  same_typed_vars int signed cx c vars rvars /\
  (forall t, numbers t -> int <= snd t <= 64 /\ (signed = true -> fst t = true)).
(** The result in Rust has the value in C; with signed types, there is one.  It
    has the type of C, unless the expression is one of literals, or a truth value. *)
Definition same_value vars (e : expr) (v : Z) (k : rty) (o : option rval) : Prop :=
  (forall r, o = Some r -> r = value_of k v) /\ (signed = true -> o = Some (value_of k v)) /\
  (forall t, k = RInt t -> anchored e = true -> c_type model int lit_ty vars e = Some t).

Lemma mixed_sound cx c c' c'' e e' t vars named rvars numbers v x k o :
  of_types e -> in_rust cx c'' vars named rvars numbers ->
  expr_finish cx e c = (e', c', FOk t) -> tree cx c'' e' x -> c_val model int lit_ty vars e = Some v -> evals named rvars numbers x k o ->
  same_value vars e v k o.
Proof.
  intros (W & M & L & N & An) (Nm & Vars & Nb) F Tr V K.
  assert (Ty : forall n t v, vars n = Some (t, v) -> int <= snd t <= 64) by (intros n t1 v1 E; now destruct (Vars _ _ _ E)).
  rewrite (lit_value model int lit_ty (fun _ => (true, int)) vars e L) in V.
  destruct (infer_kept int signed model vars W Ty cx e true c e' c' t M N An F) as (M' & S & _ & _ & _ & A' & T' & V'). specialize (M' _ M). apply V' in V as Ve.
  destruct (tree_sound int signed model vars W Ty cx c'' named rvars numbers Vars Nm Nb e' true x k o v M' S Tr Ve K) as (Ag & _).
  unfold agree in Ag. unfold same_value. destruct o as [r|].
  - destruct Ag as [-> _]. split; [intros r E; now injection E|]. split; [reflexivity|]. intros t0 -> Ae.
    destruct (c_val_in int signed model vars W Ty e' true v M' Ve) as (tc & Etc & _).
    destruct (type_sound int signed model vars W Ty cx c'' named rvars numbers Vars Nm Nb e' true x t0 _ tc M' S Tr K Etc) as (_ & _ & _ & X).
    rewrite (lit_type model int lit_ty (fun _ => (true, int)) vars e L), <- T', Etc. f_equal. auto.
  - split; [discriminate|]. split; [intro; congruence|]. intros t0 -> Ae.
    destruct (c_val_in int signed model vars W Ty e' true v M' Ve) as (tc & Etc & _).
    destruct (type_sound int signed model vars W Ty cx c'' named rvars numbers Vars Nm Nb e' true x t0 _ tc M' S Tr K Etc) as (_ & _ & _ & X).
    rewrite (lit_type model int lit_ty (fun _ => (true, int)) vars e L), <- T', Etc. f_equal. auto.
Qed.

(** The Rust expression generated for an expression on integers of several types
    has the value of the C expression, whenever Rust accepts it.  [ts] are the
    tokens, read as [x], which is given the type [k] and evaluates to [o]. *)
Theorem C70_value_partial cx c c' c'' e e' t ts vars named rvars numbers v x k o :
  of_types e -> plain_context cx -> in_rust cx c'' vars named rvars numbers ->
  expr_finish cx e c = (e', c', FOk t) -> etoks cx c'' e' = Some ts -> fine cx c'' e' ->
  reads ts x -> c_val model int lit_ty vars e = Some v -> evals named rvars numbers x k o ->
  same_value vars e v k o.
Proof.
  intros O P R F Tk Fi Rd V K. destruct (C36_partial cx c'' e' ts P Fi Tk) as (y & Ty & _ & Uq & _). rewrite (Uq _ Rd) in *.
  eapply mixed_sound; eassumption.
Qed.
(** The same for a whole macro, and for a variable-like one. *)
Theorem C70_generate_partial cx m m' e ts :
  plain_context cx -> fm_body m = MbExpr e -> fn_generate cx m = (m', ROk ts) ->
  of_types e ->
  exists c e' body, lc_names c = fm_args m /\ fm_body m' = MbExpr e' /\
    ((exists params ret, ts = function_item (fm_name m) params ret body) \/
     (exists patterns, ts = macro_item (fm_name m) patterns body)) /\
    (fine cx c e' -> is_tail cx c e' -> exists x, reads_block body (RB [] (Some x)) /\
       forall vars named rvars numbers v k o,
         in_rust cx c vars named rvars numbers -> c_val model int lit_ty vars e = Some v ->
         evals named rvars numbers x k o -> same_value vars e v k o).
Proof.
  intros P B G O. destruct (fn_expr cx m m' e ts B G) as (c0 & e' & c1 & t & F & B').
  destruct (C36_generate_partial cx m m' e' ts P G B') as (c & body & Nm & S & H).
  exists c, e', body. split; [exact Nm|]. split; [exact B'|]. split; [destruct S as [[_ S]|[_ S]]; auto|].
  intros Fi Tl. destruct (H Fi) as (x & Tx & R & Tb). exists x. split; [now apply Tb|].
  intros vars named rvars numbers v k o Rs V K. eapply mixed_sound; eassumption.
Qed.
Theorem C70_constant_partial cx m m' e ts ty :
  plain_context cx -> vm_body m = MbExpr e -> var_generate cx m = (m', ROk (ts, ty)) ->
  of_types e ->
  exists c e', lc_names c = [] /\ vm_body m' = MbExpr e' /\
    (fine cx c e' -> exists x, reads ts x /\ (forall y, reads ts y -> y = x) /\
       forall vars named rvars numbers v k o,
         in_rust cx c vars named rvars numbers -> c_val model int lit_ty vars e = Some v ->
         evals named rvars numbers x k o -> same_value vars e v k o).
Proof.
  intros P B G O. pose proof O as (_ & Ie & _). destruct (var_expr cx m m' e ts ty (mix_int _ _ _ _ _ Ie) B G) as (e' & c & t & F & B' & M & Tk).
  exists c, e'. split; [|split; [exact B'|]].
  - destruct (expr_sgood cx e (var_lctx cx) _ _ _ F) as (_ & [Nm _] & _). exact Nm.
  - intro Fi. destruct (C36_partial cx c e' ts P Fi Tk) as (x & Tx & R & Uq & _). exists x. split; [exact R|]. split; [exact Uq|].
    intros vars named rvars numbers v k o Rs V K. eapply mixed_sound; eassumption.
Qed.
End Theorems.

(** ** Cases *)

Section Demo.
#[local] Existing Instance demo_unicode.
Let I (s : string) := MIdent (st s).
Let P (s : string) := MPunct (st s).
Let L (z : Z) := MLit (LInt (mk_int z None)).
(** A platform with 32-bit [int] and 64-bit [long]. *)
Definition platform (b : builtin) : option int_ty :=
  match b with BUChar => Some (false, 8) | BInt => Some (true, 32) | BUInt => Some (false, 32) | BLong => Some (true, 64) | _ => None end.
Definition its_names (ts : list rtok) : option int_ty :=
  match ts with
  | [RId s] => look [("c_uchar", (false, 8)); ("c_int", (true, 32)); ("c_uint", (false, 32)); ("c_long", (true, 64))] s
  | _ => None
  end.
(** The parameter [x] is an [int], and [y] a [long]. *)
Definition int_long : cgctx :=
  mk_cgctx None None None (fun _ a => Some (plain_ty (if str_eqb a (st "x") then "c_int" else "c_long"))) (fun _ => None) (fun _ => None) (fun _ _ => None) (fun _ => None).
Definition il_ctx : lctx := mk_lctx [st "x"; st "y"] [AKnown (TyBuiltIn BInt); AKnown (TyBuiltIn BLong)] false false true false.
Definition il_vars (a b : Z) (n : ident_expr) : option (int_ty * Z) :=
  match n with IArg O => Some ((true, 32), a) | IArg 1%nat => Some ((true, 64), b) | _ => None end.
Definition il_rvars (a b : Z) (ts : list rtok) : option (int_ty * Z) :=
  match ts with [RId s] => if str_eqb s (st "x") then Some ((true, 32), a) else if str_eqb s (st "y") then Some ((true, 64), b) else None | _ => None end.
(** A number is an [i32] or an [i64]. *)
Definition il_numbers (t : int_ty) : Prop := t = (true, 32) \/ t = (true, 64).
Lemma il_rust signed a b : in_rust signed (fun b => match b with BUChar | BUInt => if signed then None else platform b | _ => platform b end) 32 int_long il_ctx (il_vars a b) its_names (il_rvars a b) il_numbers.
Proof.
  split; [|split].
  - intros bt t E. destruct signed, bt; try discriminate E; injection E as <-; reflexivity.
  - intros n t v E. destruct n as [[|[|i]]|s|l]; try discriminate E; injection E as <- <-; (split; [cbn; lia|]; split; [reflexivity|]; split; [exact Logic.I|];
      split; [intros i Hi; injection Hi as <-; vm_compute; discriminate|]; intros ts Tk; vm_compute in Tk; injection Tk as <-; reflexivity).
  - intros t [-> | ->]; cbn; split; auto; lia.
Qed.
Definition signed_only (b : builtin) : option int_ty := match b with BUChar | BUInt => None | _ => platform b end.

(** [x < 0 ? (long)-x * y : (long)(int)(y >> 3) + 1]. *)
Definition mixed_expr : expr :=
  ETernary (EBinary (EVar (IArg 0)) OLt (ELit (LInt (mk_int 0 None))))
    (EBinary (ECast (TyBuiltIn BLong) (EUnary UMinus (EVar (IArg 0)))) OMul (EVar (IArg 1)))
    (EBinary (ECast (TyBuiltIn BLong) (ECast (TyBuiltIn BInt) (EBinary (EVar (IArg 1)) OShr (ELit (LInt (mk_int 3 None)))))) OAdd (ELit (LInt (mk_int 1 None)))).
Let il_params : list (list rtok) := [[ri "mut"; ri "x"; rp ":"; ri "c_int"]; [ri "mut"; ri "y"; rp ":"; ri "c_long"]].
Lemma il_param i : (i < 2)%nat -> plain_var int_long il_ctx (IArg i).
Proof. intros Hi. split; [|exact Logic.I]. intros s E. destruct i as [|[|i]]; [| |lia]; injection E as <-; (split; [discriminate|right; reflexivity]). Qed.
Ltac demo_fine := cbn [fine valued]; repeat first [apply il_param; lia | split];
  try (let Hp := fresh in intro Hp; vm_compute in Hp; exfalso; lia); try (let ts := fresh in let Tk := fresh in left; intros ts Tk; vm_compute in Tk; injection Tk as <-; reflexivity); try discriminate; try (intros _; unfold tight; vm_compute; lia);
  try (let ts := fresh in let Tk := fresh in intros _ ts Tk; vm_compute in Tk; injection Tk as <-; vm_compute; reflexivity).
Ltac demo_types := unfold of_types; cbn; repeat split; try lia; auto; try discriminate; eexists; (split; [reflexivity|]); cbn; repeat split; try lia; auto.
(** Apply a rule, and compute the results. *)
Ltac demo_evals := first
  [ apply E_path; vm_compute; reflexivity
  | apply E_number; left; split; [reflexivity|unfold il_numbers; now auto]
  | eapply E_cast; [demo_evals|vm_compute; reflexivity]
  | eapply E_minus; [discriminate|demo_evals|reflexivity]
  | eapply E_if; demo_evals
  | eapply E_shift; [reflexivity|demo_evals|demo_evals]
  | eapply E_binary; cycle 1; [demo_evals|demo_evals|reflexivity] ].
Lemma evals_eq named rvars numbers x k o o' : evals named rvars numbers x k o -> o = o' -> evals named rvars numbers x k o'.
Proof. intros H <-. exact H. Qed.
Example C70_case :
  fn_macro_parse (st "F") [I "x"; I "y"] [MArg 0; P "<"; L 0; P "?"; P "("; I "long"; P ")"; P "-"; MArg 0; P "*"; MArg 1; P ":";
    P "("; I "long"; P ")"; P "("; I "int"; P ")"; P "("; MArg 1; P ">>"; L 3; P ")"; P "+"; L 1] =
    ROk (mk_fn_macro (st "F") [st "x"; st "y"] (MbExpr mixed_expr)) /\
  plain_context int_long /\ of_types true signed_only 32 lit64 mixed_expr /\
  (exists m' ret body, fn_generate int_long (mk_fn_macro (st "F") [st "x"; st "y"] (MbExpr mixed_expr)) =
     (m', ROk (function_item (st "F") il_params ret body)) /\
     fm_body m' = MbExpr mixed_expr /\ fine int_long il_ctx mixed_expr /\ is_tail int_long il_ctx mixed_expr /\
     exists x, reads body x /\
       (forall a b, in_rust true signed_only 32 int_long il_ctx (il_vars a b) its_names (il_rvars a b) il_numbers) /\
       c_val signed_only 32 lit64 (il_vars (-3) (2 ^ 40)) mixed_expr = Some (3 * 2 ^ 40) /\
       evals its_names (il_rvars (-3) (2 ^ 40)) il_numbers x (RInt (true, 64)) (Some (VInt (3 * 2 ^ 40))) /\
       c_val signed_only 32 lit64 (il_vars 0 80) mixed_expr = Some 11 /\
       evals its_names (il_rvars 0 80) il_numbers x (RInt (true, 64)) (Some (VInt 11))).
Proof.
  split; [vm_compute; reflexivity|]. split; [split; exact Logic.I|]. split; [demo_types|].
  eexists. exists (Some [ri "c_long"]). eexists. split; [vm_compute; reflexivity|]. split; [reflexivity|].
  split; [unfold mixed_expr; demo_fine|]. split; [right; reflexivity|].
  eexists. split; [exists 40%nat; vm_compute; reflexivity|]. split; [intros a b; exact (il_rust true a b)|].
  split; [vm_compute; reflexivity|]. split; [eapply evals_eq; [demo_evals|vm_compute; reflexivity]|].
  split; [vm_compute; reflexivity|]. eapply evals_eq; [demo_evals|vm_compute; reflexivity].
Qed.
(** [(unsigned char)((unsigned int)y + (unsigned int)~x)]. *)
Definition uchar_expr : expr :=
  ECast (TyBuiltIn BUChar) (EBinary (ECast (TyBuiltIn BUInt) (EVar (IArg 1))) OAdd (ECast (TyBuiltIn BUInt) (EUnary UComp (EVar (IArg 0))))).
Example C70_unsigned_case :
  fn_macro_parse (st "F") [I "x"; I "y"] [P "("; I "unsigned"; I "char"; P ")"; P "("; P "("; I "unsigned"; I "int"; P ")"; MArg 1; P "+"; P "("; I "unsigned"; I "int"; P ")"; P "~"; MArg 0; P ")"] =
    ROk (mk_fn_macro (st "F") [st "x"; st "y"] (MbExpr uchar_expr)) /\
  of_types false platform 32 lit64 uchar_expr /\
  (exists m' ret body, fn_generate int_long (mk_fn_macro (st "F") [st "x"; st "y"] (MbExpr uchar_expr)) =
     (m', ROk (function_item (st "F") il_params ret body)) /\
     fm_body m' = MbExpr uchar_expr /\ fine int_long il_ctx uchar_expr /\ is_tail int_long il_ctx uchar_expr /\
     exists x, reads body x /\
       (forall a b, in_rust false platform 32 int_long il_ctx (il_vars a b) its_names (il_rvars a b) il_numbers) /\
       c_val platform 32 lit64 (il_vars (-301) (2 ^ 40 + 7)) uchar_expr = Some 51 /\
       evals its_names (il_rvars (-301) (2 ^ 40 + 7)) il_numbers x (RInt (false, 8)) (Some (VInt 51))).
Proof.
  split; [vm_compute; reflexivity|]. split; [demo_types|].
  eexists. exists (Some [ri "c_uchar"]). eexists. split; [vm_compute; reflexivity|]. split; [reflexivity|].
  split; [unfold uchar_expr; demo_fine|]. split; [left; intros ts Tk; vm_compute in Tk; injection Tk as <-; reflexivity|].
  eexists. split; [exists 40%nat; vm_compute; reflexivity|]. split; [intros a b; destruct (il_rust false a b) as (A & B); split; [|exact B]; intros bt t E; apply A; destruct bt; exact E|].
  split; [vm_compute; reflexivity|]. eapply evals_eq;
    [eapply E_cast; [eapply E_binary; cycle 1; [demo_evals|eapply E_cast; [apply E_complement; demo_evals|vm_compute; reflexivity]|reflexivity]|vm_compute; reflexivity]|vm_compute; reflexivity].
Qed.

(** [(x + 1L) << 20], for an [int] [x]: in C the sum is a [long].  The literal
    has no suffix in Rust, where the shift drops high bits. *)
Theorem C70_suffix_refuted : let e := EBinary (EBinary (EVar (IArg 0)) OAdd (ELit (LInt (mk_int 1 (Some BLong))))) OShl (ELit (LInt (mk_int 20 None))) in
  exists m' ret body x,
  fn_macro_parse (st "F") [I "x"] [P "("; MArg 0; P "+"; MLit (LInt (mk_int 1 (Some BLong))); P ")"; P "<<"; L 20] = ROk (mk_fn_macro (st "F") [st "x"] (MbExpr e)) /\
  fn_generate int_long (mk_fn_macro (st "F") [st "x"] (MbExpr e)) = (m', ROk (function_item (st "F") [[ri "mut"; ri "x"; rp ":"; ri "c_int"]] ret body)) /\
  reads body x /\ c_val signed_only 32 lit64 (il_vars 4095 0) e = Some (2 ^ 32) /\
  evals its_names (il_rvars 4095 0) il_numbers x (RInt (true, 32)) (Some (VInt 0)) /\
  forall numbers k o, evals its_names (il_rvars 4095 0) numbers x k o -> k = RInt (true, 32) /\ (forall r, o = Some r -> r = VInt 0).
Proof.
  cbn zeta. eexists. exists (Some [ri "c_int"]). do 2 eexists. split; [vm_compute; reflexivity|]. split; [vm_compute; reflexivity|]. split; [exists 20%nat; vm_compute; reflexivity|].
  split; [vm_compute; reflexivity|]. split; [eapply evals_eq; [demo_evals|vm_compute; reflexivity]|].
  intros numbers k o K.
  inversion K as [| | | | | | | | |op' x' y' t t' o1 o2 Sh K1 K2 E1 E2 E3|op' x' y' k0 k' o1 o2 Ot| |]; subst; [|vm_compute in Ot; destruct k0; discriminate].
  inversion K1 as [| | | | | | | | |op' x' y' t1 t1' o3 o4 Sh' K3 K4 E1 E2 E3|op' x' y' k0 k' o3 o4 Ot K3 K4 E1 E2 E3| |]; subst; [vm_compute in Sh'; discriminate|].
  assert (k0 = RInt t) by (destruct k0; vm_compute in Ot; [now injection Ot as ->|discriminate]). subst k0.
  inversion K3; subst. match goal with Y : il_rvars _ _ _ = Some _ |- _ => vm_compute in Y; injection Y as <- <- end. split; [reflexivity|].
  inversion K4; subst. inversion K2; subst. intros r E.
  match goal with E : context [fits t' ?z] |- _ => assert (X : fits t' z = Some z \/ fits t' z = None) by (unfold fits; destruct (holds t' z); auto); destruct X as [X|X]; rewrite X in E end.
  - vm_compute in E. now injection E as <-.
  - vm_compute in E. discriminate E.
Qed.
End Demo.

Print Assumptions C70_value_partial.
Print Assumptions C70_generate_partial.
Print Assumptions C70_constant_partial.
Print Assumptions C70_suffix_refuted.
