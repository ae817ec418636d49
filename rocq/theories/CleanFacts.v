(** What is finished without an error has no cause of one. *)
From Verif Require Import Base Utf Lex LexFloat Token Ast ParseStmt Rust Finish Codegen StrFacts FinishFacts SpecAccept SpecCause CauseFacts.
From Coq Require Import String List SpecFloat Lia Bool.
Import ListNotations.
Local Open Scope string_scope.
Local Open Scope list_scope.

Section Clean.
Context {U : Unicode}.
Variable cx : cgctx.
Variable vb : bool.
Definition known_name (x : str) : Prop := cx_ty cx x <> None.
Definition any (x : str) : Prop := True.
Notation nclean := (CauseFacts.name_ok False).
Notation tclean := (type_ok known_name False).
Notation eclean := (elem_ok False False).
Notation clean := (expr_ok known_name any any (known_name (st "wchar_t")) True (vb = false) True False True False False False True).
Notation sclean := (stmt_ok known_name any any (known_name (st "wchar_t")) True (vb = false) True False True False False False True).

Lemma is_any n : is_in any n.
Proof. destruct n; exact I. Qed.
Definition same_var (c c' : lctx) : Prop := lc_var c' = lc_var c.
Lemma step_same c c' : step c c' -> same_var c c'.
Proof. intros (_ & _ & _ & H & _). exact H. Qed.

Lemma ident_clean n c c' f : ident_finish n c = (c', f) -> same_var c c' /\ (isok f -> nclean n) /\ (forall e, f = FErr e -> ~ nclean n).
Proof.
  intro E. destruct (ident_facts _ _ _ _ E) as (Q & _ & N). split; [apply step_same, Q|]. split.
  2: { intros e -> A. destruct n as [i|x|l]; try discriminate. cbn in E, A. clear Q N. revert c E. induction l as [|[i|x|v] l IH]; intros c E; cbn in E; try discriminate.
       - destruct (set_arg_type c i AIdent) as [c1|]; [|discriminate]. apply (IH (fun z Z => A z (or_intror Z)) c1 E).
       - apply (IH (fun z Z => A z (or_intror Z)) c E).
       - apply (A v). now left. }
  intro K. specialize (N K). destruct n as [i|x|l]; try exact I.
  cbn in N |- *. intros z Z. rewrite Forall_forall in N. exact (N _ Z).
Qed.
Lemma ty_clean t : forall c t' c' f, ty_finish cx t c = (t', c', f) -> same_var c c' /\ (isok f -> tclean t) /\ (~ isok f -> t' = t) /\
  (forall s, f = FErr (UnsupportedExpression s) -> ~ tclean t).
Proof.
  induction t as [b|n s|lc l|t IH|t IH q]; cbn [ty_finish]; intros c t' c' f.
  - intros [= <- <- <-]. split; [reflexivity|]. split; [intros _ n; discriminate|]. split; [reflexivity|discriminate].
  - destruct (ident_finish n c) as [c1 r] eqn:E. destruct (ident_clean _ _ _ _ E) as (V & N & B).
    assert (NAME : isok r -> (forall x, n = IPlain x -> known_name x) -> tclean (TyIdent n s)).
    { intros K A m [= <-]. split; [now apply N|]. destruct n; try exact I. now apply A. }
    destruct r as [o|e| |]; try (intros [= <- <- <-]; split; [exact V|]; split; [intros []|]; split; [reflexivity|]; try discriminate).
    2: { intros s0 [= ->] T. apply (B _ eq_refl). apply (T n eq_refl). }
    destruct n as [i|x|ps]; try (intros [= <- <- <-]; split; [exact V|]; split; [intros _; apply NAME; [exact I|discriminate]|]; split; [reflexivity|discriminate]).
    destruct (cx_ty cx x) as [rt|] eqn:Q.
    + destruct (from_rust_ty (cx_ffi cx) rt) as [t1|e| |] eqn:R; intros [= <- <- <-]; (split; [exact V|]).
      * split; [|split; [intros []; exact I|discriminate]]. intros _. apply NAME; [exact I|]. intros y [= <-]. unfold known_name. congruence.
      * split; [intros []|]. split; [reflexivity|]. destruct (from_err _ _ _ R) as (? & _ & ->). discriminate.
      * split; [intros []|]. split; [reflexivity|discriminate].
      * split; [intros []|]. split; [reflexivity|discriminate].
    + intros [= <- <- <-]. split; [exact V|]. split; [intros []|]. split; [reflexivity|discriminate].
  - intros [= <- <- <-]. split; [reflexivity|]. split; [intros _ n; discriminate|]. split; [reflexivity|discriminate].
  - specialize (IH c). destruct (ty_finish cx t c) as [[t1 c1] r]. destruct (IH _ _ _ eq_refl) as (V & K & F & B). intros [= <- <- <-]. split; [exact V|]. split; [exact K|]. split; [intro X; now rewrite F|exact B].
  - specialize (IH c). destruct (ty_finish cx t c) as [[t1 c1] r]. destruct (IH _ _ _ eq_refl) as (V & K & F & B). intros [= <- <- <-]. split; [exact V|]. split; [exact K|]. split; [intro X; now rewrite F|exact B].
Qed.
Lemma wchar_clean c k : isok (wchar_finish cx c k) -> known_name (st "wchar_t").
Proof.
  unfold wchar_finish. destruct (ty_finish cx _ c) as [[t c1] r] eqn:E. destruct (ty_clean _ _ _ _ _ E) as (_ & K & _). destruct r; intro X; try contradiction.
  exact (proj2 (K I _ eq_refl)).
Qed.
Lemma lit_clean l c : isok (lit_finish cx l c) -> clean (ELit l).
Proof.
  intros K W. destruct l as [x|x| |]; try contradiction; destruct x; try contradiction; cbn [lit_finish char_finish string_finish] in K; now apply wchar_clean in K.
Qed.

(** What the result of finishing says about the expression finished. *)
Definition post (e : expr) (c : lctx) (r : fin expr) : Prop :=
  let '(e', c', f) := r in
  same_var c c' /\ (isok f -> clean e) /\ (clean e' -> clean e) /\ (eclean e' -> eclean e) /\
  (forall s n b e1, f = FErr (UnsupportedExpression s) -> e' = ECast (TyIdent n b) e1 -> nclean n -> clean e1 -> clean e).

Lemma post_ok e c e' c' f : same_var c c' -> clean e -> (eclean e' -> eclean e) -> post e c (e', c', f).
Proof. unfold post. intuition. Qed.
Lemma post_self e c c' f : same_var c c' -> (isok f -> clean e) -> (forall t a, e <> ECast t a) -> post e c (e, c', f).
Proof. intros V K N. split; [exact V|]. split; [exact K|]. split; [auto|]. split; [auto|]. intros s n b e1 _ X. exfalso. eapply N, X. Qed.
(** An expression whose part failed. *)
Lemma post_part e c e' c' f : same_var c c' -> ~ isok f -> (clean e' -> clean e) -> eclean e -> (forall t a, e' <> ECast t a) -> post e c (e', c', f).
Proof. intros V K N E X. split; [exact V|]. split; [tauto|]. split; [auto|]. split; [auto|]. intros s n b e1 _ Y. exfalso. eapply X, Y. Qed.
Lemma var_trans a b c : same_var a b -> same_var b c -> same_var a c.
Proof. unfold same_var. congruence. Qed.

Lemma list_clean (f : expr -> lctx -> fin expr) l : Forall (fun e => forall c, lc_var c = vb -> post e c (f e c)) l ->
  forall c l' c' r, lc_var c = vb -> list_finish f l c = (l', c', r) -> same_var c c' /\ (isok r -> all clean l) /\ (all clean l' -> all clean l).
Proof.
  induction 1 as [|e l HE HF IH]; intros c l' c' r V; cbn [list_finish]; [intros [= <- <- <-]; repeat split; auto|].
  pose proof (HE c V) as P. destruct (f e c) as [[e1 c1] r1]. destruct P as (P1 & P2 & P3 & _). unfold fbind.
  destruct r1 as [o| | |]; try (intros [= <- <- <-]; split; [exact P1|]; split; [intros []|]; intros [X1 X2]; cbn; auto).
  destruct (list_finish f l c1) as [[l2 c2] r2] eqn:Q. destruct (IH c1 l2 c2 r2 (eq_trans P1 V) Q) as (I1 & I2 & I3). intros [= <- <- <-].
  split; [eapply var_trans; eauto|]. split; [intro K; split; auto; apply P2; exact I|]. intros [X1 X2]. split; auto.
Qed.
Lemma concat_clean (f : expr -> lctx -> fin expr) l : Forall (fun e => forall c, lc_var c = vb -> post e c (f e c)) l ->
  forall done acc cur c self names c' r, lc_var c = vb -> concat_finish f done l acc cur c = (self, names, c', r) ->
  same_var c c' /\ (isok r -> all eclean l /\ all clean l) /\
  (exists l', self = EConcat (done ++ l') /\ (all eclean l' -> all clean l' -> all eclean l /\ all clean l)).
Proof.
  induction 1 as [|e l HE HF IH]; intros done acc cur c self names c' r V; cbn [concat_finish].
  - intros [= <- <- <- <-]. split; [reflexivity|]. split; [cbn; auto|]. exists []. rewrite app_nil_r. cbn. auto.
  - pose proof (HE c V) as P. destruct (f e c) as [[e1 c1] r1]. destruct P as (P1 & P2 & P3 & P4 & _).
    assert (BAD : forall r0 s0 n0 c0, ~ isok r0 -> (EConcat (done ++ e1 :: l), n0, c1, r0) = (s0, names, c0, r) -> s0 = self -> c0 = c' ->
      same_var c c' /\ (isok r -> all eclean (e :: l) /\ all clean (e :: l)) /\ (exists l', self = EConcat (done ++ l') /\ (all eclean l' -> all clean l' -> all eclean (e :: l) /\ all clean (e :: l)))).
    { intros r0 s0 n0 c0 K [= E1 E2 E3 E4] S C. subst. split; [exact P1|]. split; [tauto|]. exists (e1 :: l). split; [reflexivity|]. intros [X1 X2] [Y1 Y2]. cbn. auto. }
    destruct r1 as [o| | |]; try (intro E; refine (BAD _ _ _ _ _ E eq_refl eq_refl); intros []).
    specialize (P2 I).
    assert (GO : forall acc' cur', eclean e1 -> concat_finish f (done ++ [e1]) l acc' cur' c1 = (self, names, c', r) ->
      same_var c c' /\ (isok r -> all eclean (e :: l) /\ all clean (e :: l)) /\ (exists l', self = EConcat (done ++ l') /\ (all eclean l' -> all clean l' -> all eclean (e :: l) /\ all clean (e :: l)))).
    { intros acc' cur' EC E. destruct (IH _ _ _ _ _ _ _ _ (eq_trans P1 V) E) as (I1 & I2 & l' & I3 & I4). split; [eapply var_trans; eauto|]. split; [intro K; destruct (I2 K); cbn; auto|].
      exists (e1 :: l'). rewrite I3, <- app_assoc. split; [reflexivity|]. intros [X1 X2] [Y1 Y2]. destruct (I4 X2 Y2). cbn. auto. }
    destruct e1 as [[]| | |[]| | | | | |]; try (apply GO; exact I).
    + destruct (str_eqb id _) eqn:Q; [apply GO; apply str_eqb_eq in Q; intro N; contradiction|]. intro E. refine (BAD _ _ _ _ _ E eq_refl eq_refl). intros [].
    + destruct (lit_string_as_bytes _) eqn:Q; [apply GO; destruct s; try discriminate; exact I|]. intro E. refine (BAD _ _ _ _ _ E eq_refl eq_refl). intros [].
Qed.

Lemma finish_clean n : forall e c, lc_var c = vb -> post e c (finish cx n e c).
Proof.
  induction n as [n IHn] using lt_wf_ind.
  assert (AGN : forall e c, lc_var c = vb -> post e c (again_of cx n e c)).
  { intros e c C. destruct n as [|n']; cbn [again_of]; [|apply IHn; auto]. split; [reflexivity|]. split; [intros []|]. split; [auto|]. split; [auto|discriminate]. }
  clear IHn.
  induction e as [v|v l IHl|ty e IHe|l|a IHa|l IHl|ty|op e IHe|a op b IHa IHb|a b d IHa IHb IHd] using expr_ind'; intros c V; rewrite finish_eq; cbn [finish_step].
  - destruct (var_finish cx v c) as [c1 r] eqn:E. destruct (var_facts _ _ _ _ _ E) as (S & _). apply post_self; [now apply step_same| |discriminate]. intro K. split; [|apply is_any].
    unfold var_finish in E. destruct (ident_finish v c) as [c2 r2] eqn:Q. apply ident_clean in Q as (_ & N & _). destruct r2; try (injection E as <- <-; contradiction). apply N. exact I.
  - destruct (lc_var c) eqn:LV; [apply post_self; [reflexivity|intros []|discriminate]|]. rewrite LV in V || idtac.
    destruct (ident_finish v c) as [c1 r] eqn:E. apply ident_clean in E as (S & N & _). destruct r as [o| | |]; try (apply post_self; [exact S|intros []|discriminate]).
    specialize (N I). assert (V1 : lc_var c1 = vb) by (unfold same_var in S; congruence).
    destruct (list_finish (finish cx n) l c1) as [[l1 c2] r] eqn:Q. destruct (list_clean _ l IHl _ _ _ _ V1 Q) as (S2 & K & X). unfold fbind.
    assert (CL : all clean l -> clean (ECall v l)) by (intro A; cbn [expr_ok]; repeat split; auto using is_any; congruence).
    destruct r as [o2| | |]; try (apply post_part; [eapply var_trans; eauto|intros []|intros Y; apply CL, X, Y|exact I|discriminate]).
    destruct (call_types cx v l1 c2) as [c3 r3] eqn:Q3. destruct (call_facts _ _ _ _ _ _ Q3) as (S3 & _). apply post_ok; [eapply var_trans; [|apply step_same, S3]; eapply var_trans; eauto|apply CL, K; exact I|intros; exact I].
  - destruct (ty_finish cx ty c) as [[t1 c1] r1] eqn:T. destruct (ty_clean _ _ _ _ _ T) as (S1 & KT & FT & BT). assert (V1 : lc_var c1 = vb) by (unfold same_var in S1; congruence).
    destruct r1 as [o1| | |].
    2-4: rewrite FT by (intros []).
    3,4: split; [exact S1|]; split; [intros []|]; split; [auto|]; split; [intros; exact I|discriminate].
    2: { assert (SELF : post (ECast ty e) c (ECast ty e, c1, FErr e0)).
      2: { destruct e0 as [x| | |x|x]; try exact SELF. destruct (cast_of_deref ty e) as [b|] eqn:B; [|exact SELF].
        assert (CB : clean b -> False).
        { intro CB. apply (BT _ eq_refl). unfold cast_of_deref in B. destruct e as [| |t2 e2| | | | | | |]; try discriminate. destruct t2 as [|nn []| | |]; try discriminate.
          destruct e2 as [| | | | | | |[] a| |]; try discriminate. destruct a as [| |t3 e3| | | | | | |]; try discriminate. destruct (ctype_eqb ty t3); [|discriminate]. injection B as <-. apply CB. }
        pose proof (AGN b c1 V1) as A. destruct (again_of cx n b c1) as [[y c3] r3]. destruct A as (A1 & A2 & A3 & A4 & A5).
        split; [eapply var_trans; eauto|]. split; [intro; exfalso; auto|]. split; [intro; exfalso; auto|]. split; [intros; exact I|]. intros. exfalso. eapply CB, A5; eauto. }
      split; [exact S1|]; split; [intros []|]; split; [auto|]; split; [intros; exact I|].
      intros s n0 b0 e1 [= ->] [= -> ->] NN C1. split; [|exact C1]. intros m [= <-]. split; [exact NN|]. destruct n0 as [i|x|ps]; try exact I. cbn [ty_finish ident_finish] in T. destruct (cx_ty cx x) eqn:QT; [|discriminate]. unfold known_name. cbn. congruence. }
    specialize (KT I). pose proof (IHe c1 V1) as P. destruct (finish cx n e c1) as [[e2 c2] r2]. destruct P as (P1 & P2 & P3 & P4 & P5).
    assert (S2 : same_var c c2) by (eapply var_trans; eauto). assert (V2 : lc_var c2 = vb) by (unfold same_var in S2; congruence).
    assert (KEEP : (isok r2 -> False) -> post (ECast ty e) c (ECast t1 e2, c2, r2)).
    { intro NK. split; [exact S2|]. split; [tauto|]. split; [intros [X1 X2]; split; auto|]. split; [intros; exact I|]. intros s n0 b0 e1 _ [= _ <-] _ X. split; auto. }
    destruct r2 as [o2|[x| | |x|x]| |]; try (apply KEEP; intros []).
    + specialize (P2 I). assert (CE : clean (ECast ty e)) by (split; auto). destruct (cast_as_binary cx t1 e2) as [b|].
      * pose proof (AGN b c2 V2) as A. destruct (again_of cx n b c2) as [[x c3] r3]. apply post_ok; [eapply var_trans; [exact S2|apply A]|exact CE|intros; exact I].
      * destruct (redundant_cast t1 e2); apply post_ok; auto; intros; exact I.
    + destruct (cast_of_deref t1 e2) as [b|] eqn:B; [|apply KEEP; intros []].
      assert (CB : clean b -> clean (ECast ty e)).
      { unfold cast_of_deref in B. destruct e2 as [| |t2 e2| | | | | | |]; try discriminate. destruct t2 as [|nn []| | |]; try discriminate.
        destruct e2 as [| | | | | | |[] a| |]; try discriminate. destruct a as [| |t3 e3| | | | | | |]; try discriminate. destruct (ctype_eqb t1 t3); [|discriminate]. injection B as <-.
        intros (_ & (_ & NN & _) & X). split; [exact KT|]. apply (P5 x nn false _ eq_refl eq_refl NN). split; [intros; exact I|]. split; [intros; exact I|exact X]. }
      pose proof (AGN b c2 V2) as A. destruct (again_of cx n b c2) as [[y c3] r3]. destruct A as (A1 & A2 & A3 & A4 & A5).
      split; [eapply var_trans; eauto|]. split; [auto|]. split; [auto|]. split; [intros; exact I|]. intros. eapply CB, A5; eauto.
  - destruct l as [x|s|fl|it].
    + destruct (char_finish cx x c) as [[t|]| | |] eqn:Q; try (apply post_self; [reflexivity|intros []|discriminate]).
      apply post_ok; [reflexivity|apply (lit_clean _ c); cbn [lit_finish]; rewrite Q; exact I|intros; exact I].
    + apply post_self; [reflexivity|apply lit_clean|discriminate].
    + apply post_self; [reflexivity|apply lit_clean|discriminate].
    + apply post_self; [reflexivity|apply lit_clean|discriminate].
  - destruct (stringify_finish a c) as [c1 r] eqn:E. destruct (stringify_facts cx _ _ _ _ E) as (S & _). apply post_self; [now apply step_same| |discriminate].
    intro K. split; [left|destruct a as [[]| | | | | | | | |]; auto].
    destruct a as [[i|x|ps]| | | | | | | | |]; try (injection E as <- <-; contradiction); [exact I|]. cbn [stringify_finish] in E.
    destruct (str_eqb x (st "__LINE__")) eqn:E1; [left; now apply str_eqb_eq|]. destruct (str_eqb x (st "__FILE__")) eqn:E2; [right; now apply str_eqb_eq|]. injection E as <- <-. contradiction.
  - destruct (concat_finish (finish cx n) [] l [] None c) as [[[self names] c1] r] eqn:Q. destruct (concat_clean _ l IHl _ _ _ _ _ _ _ _ V Q) as (S & K & l' & -> & X).
    assert (V1 : lc_var c1 = vb) by (unfold same_var in S; congruence).
    assert (PART : ~ isok r -> post (EConcat l) c (EConcat ([] ++ l'), c1, r)) by (intro NK; apply post_part; auto; [intros [Y1 Y2]; apply X; assumption|exact I|discriminate]).
    destruct r as [o| | |]; try (destruct names as [|x1 [|x2 names]]; apply PART; intros []). specialize (K I).
    destruct names as [|x1 [|x2 names]]; try (apply post_ok; [exact S|exact K|intros; exact I]).
    pose proof (AGN x1 c1 V1) as A. destruct (again_of cx n x1 c1) as [[y c3] r3]. apply post_ok; [eapply var_trans; [exact S|apply A]|exact K|intros; exact I].
  - destruct (ty_finish cx ty c) as [[t1 c1] r1] eqn:T. destruct (ty_clean _ _ _ _ _ T) as (S1 & KT & FT & BT). unfold fbind. destruct r1; try (rewrite FT by (intros []); apply post_self; [exact S1|intros []|discriminate]).
    apply post_ok; [exact S1|apply KT; exact I|intros; exact I].
  - pose proof (IHe c V) as P. destruct (finish cx n e c) as [[e1 c1] r1]. destruct P as (P1 & P2 & P3 & _). unfold fbind.
    assert (W : forall x, clean x -> clean (EUnary op x)) by (intros x X; cbn [expr_ok]; auto).
    destruct r1 as [o| | |]; try (apply post_part; [exact P1|intros []|intros (_ & _ & Y); apply W, P3, Y|exact I|discriminate]). specialize (P2 I).
    destruct (unary_type op c1 o) as [t'| | |]; try (apply post_ok; [exact P1|apply W, P2|intros; exact I]). destruct (unary_fold op e1 t'). apply post_ok; [exact P1|apply W, P2|intros; exact I].
  - pose proof (IHa c V) as P. destruct (finish cx n a c) as [[a1 c1] r1]. destruct P as (P1 & P2 & P3 & _). unfold fbind.
    assert (W : forall x y, clean x -> clean y -> clean (EBinary x op y)) by (intros x y X Y; cbn [expr_ok]; auto).
    destruct r1 as [o| | |]; try (apply post_part; [exact P1|intros []|intros (_ & Y & Z); apply W; auto|exact I|discriminate]). specialize (P2 I).
    assert (V1 : lc_var c1 = vb) by (unfold same_var in P1; congruence).
    pose proof (IHb c1 V1) as Q. destruct (finish cx n b c1) as [[b1 c2] r2]. destruct Q as (Q1 & Q2 & Q3 & _). assert (S2 : same_var c c2) by (eapply var_trans; eauto).
    destruct r2 as [o2| | |]; try (apply post_part; [exact S2|intros []|intros (_ & Y & Z); apply W; auto|exact I|discriminate]). specialize (Q2 I).
    destruct (binary_types cx a1 op b1 o o2 c2) as [[[x y] c3] r3] eqn:BTY. apply binary_types_facts in BTY as (_ & _ & _ & _ & _ & _ & _ & S3 & _).
    assert (S4 : same_var c c3) by (eapply var_trans; [exact S2|now apply step_same]).
    destruct r3; try (apply post_ok; auto; intros; exact I). cbn [fst snd]. destruct (binary_fold cx x op y t c3). apply post_ok; auto. intros; exact I.
  - unfold condition_finish. pose proof (IHa c V) as P. destruct (finish cx n a c) as [[a1 c1] r1]. destruct P as (P1 & P2 & P3 & _). unfold fbind.
    assert (W : forall x y z, clean x -> clean y -> clean z -> clean (ETernary x y z)) by (intros x y z X Y Z; cbn [expr_ok]; auto).
    destruct r1 as [o| | |]; try (apply post_part; [exact P1|intros []|intros (X & Y & Z); apply W; auto|exact I|discriminate]). specialize (P2 I).
    assert (V1 : lc_var c1 = vb) by (unfold same_var in P1; congruence).
    pose proof (IHb c1 V1) as Q. destruct (finish cx n b c1) as [[b1 c2] r2]. destruct Q as (Q1 & Q2 & Q3 & _). assert (S2 : same_var c c2) by (eapply var_trans; eauto).
    destruct r2 as [o2| | |]; try (apply post_part; [exact S2|intros []|intros (X & Y & Z); apply W; auto|exact I|discriminate]). specialize (Q2 I).
    assert (V2 : lc_var c2 = vb) by (unfold same_var in S2; congruence).
    pose proof (IHd c2 V2) as R. destruct (finish cx n d c2) as [[d1 c3] r3]. destruct R as (R1 & R2 & R3 & _). assert (S3 : same_var c c3) by (eapply var_trans; eauto).
    destruct r3 as [o3| | |]; try (apply post_part; [exact S3|solve [intros []]|intros (X & Y & Z); apply W; auto|exact I|discriminate]). specialize (R2 I).
    cbv beta iota. apply post_ok; auto; intros; exact I.
Qed.

Lemma exp_clean e c e' c' f : lc_var c = vb -> expr_finish cx e c = (e', c', f) -> same_var c c' /\ (isok f -> clean e).
Proof. intros V E. pose proof (finish_clean (weight e) e c V) as P. unfold expr_finish in E. rewrite E in P. split; apply P. Qed.
Lemma cond_clean e c e' c' f : lc_var c = vb -> condition_finish (expr_finish cx) e c = (e', c', f) -> same_var c c' /\ (isok f -> clean e).
Proof.
  intros V. unfold condition_finish, fbind. destruct (expr_finish cx e c) as [[e1 c1] r] eqn:E. destruct (exp_clean _ _ _ _ _ V E) as [S K].
  destruct r; intros [= <- <- <-];  split; auto.
Qed.
Lemma exps_clean l c l' c' f : lc_var c = vb -> list_finish (expr_finish cx) l c = (l', c', f) -> same_var c c' /\ (isok f -> all clean l).
Proof.
  intros V E. destruct (list_clean (expr_finish cx) l) with (c := c) (l' := l') (c' := c') (r := f) as (S & K & _); auto.
  apply Forall_forall. intros x _ c0 V0. apply finish_clean, V0.
Qed.

(** ** Statements *)

Lemma snd_all {A} (l : list (A * expr)) : all clean (map snd l) -> all (fun x => clean (snd x)) l.
Proof. induction l; cbn; tauto. Qed.
Lemma asm_clean a c a' c' f : lc_var c = vb -> asm_finish cx a c = (a', c', f) -> same_var c c' /\ (isok f -> sclean (SAsm a)).
Proof.
  intros V. unfold asm_finish, fbind. destruct (list_finish _ (map snd (asm_outputs a)) c) as [[l1 c1] r1] eqn:E1. destruct (exps_clean _ _ _ _ _ V E1) as [S1 K1].
  destruct r1; try (intros [= <- <- <-]; split; [exact S1|solve [intros []]]). assert (V1 : lc_var c1 = vb) by (unfold same_var in S1; congruence).
  destruct (list_finish _ (map snd (asm_inputs a)) c1) as [[l2 c2] r2] eqn:E2. destruct (exps_clean _ _ _ _ _ V1 E2) as [S2 K2].
  destruct r2; try (intros [= <- <- <-]; split; [eapply var_trans; eauto|solve [intros []]]).
  intros [= <- <- <-]. split; [eapply var_trans; [exact S1|]; destruct (asm_global a); exact S2|]. intros _. split; apply snd_all; [apply K1|apply K2]; exact I.
Qed.
Lemma var_decl_clean d c d' c' f : lc_var c = vb -> var_decl_finish cx d c = (d', c', f) -> same_var c c' /\ (isok f -> sclean (SVarDecl d)).
Proof.
  intros V. unfold var_decl_finish, fbind. destruct (ty_finish cx (vd_ty d) c) as [[t1 c1] r1] eqn:E1. destruct (ty_clean _ _ _ _ _ E1) as (S1 & K1 & _).
  destruct r1; try (intros [= <- <- <-]; split; [exact S1|solve [intros []]]). assert (V1 : lc_var c1 = vb) by (unfold same_var in S1; congruence).
  destruct (ident_finish (vd_name d) c1) as [c2 r2] eqn:E2. destruct (ident_clean _ _ _ _ E2) as (S2 & K2 & _). assert (S12 : same_var c c2) by (eapply var_trans; eauto).
  destruct r2; try (intros [= <- <- <-]; split; [exact S12|solve [intros []]]). assert (V2 : lc_var c2 = vb) by (unfold same_var in S12; congruence).
  destruct (expr_finish cx (vd_rhs d) c2) as [[e c3] r3] eqn:E3. destruct (exp_clean _ _ _ _ _ V2 E3) as [S3 K3].
  destruct r3; intros [= <- <- <-]; (split; [eapply var_trans; eauto|]); intro K; try contradiction. split; [apply K1|split; [apply K2|apply K3]]; exact I.
Qed.
Lemma fn_args_clean : forall l c l' c' f, fn_args_finish cx l c = (l', c', f) -> same_var c c' /\ (isok f -> all (fun a => tclean (fst a)) l).
Proof.
  induction l as [|[t n] l IH]; intros c l' c' f; cbn [fn_args_finish]; [intros [= <- <- <-]; split; cbn; auto; reflexivity|]. unfold fbind.
  destruct (ty_finish cx t c) as [[t1 c1] r1] eqn:E1. destruct (ty_clean _ _ _ _ _ E1) as (S1 & K1 & _). destruct r1; try (intros [= <- <- <-]; split; [exact S1|solve [intros []]]).
  destruct (fn_args_finish cx l c1) as [[l2 c2] r2] eqn:E2. destruct (IH _ _ _ _ E2) as [S2 K2]. intros [= <- <- <-]. split; [eapply var_trans; eauto|]. intro K. split; [apply K1; exact I|auto].
Qed.
Lemma fn_decl_clean d c d' c' f : fn_decl_finish cx d c = (d', c', f) -> same_var c c' /\ (isok f -> sclean (SFnDecl d)).
Proof.
  unfold fn_decl_finish, fbind. destruct (ty_finish cx (fd_ret d) c) as [[t1 c1] r1] eqn:E1. destruct (ty_clean _ _ _ _ _ E1) as (S1 & K1 & _). destruct r1; try (intros [= <- <- <-]; split; [exact S1|solve [intros []]]).
  cbn zeta. destruct (match fd_name d with IArg i => _ | _ => _ end) as [c2|] eqn:Q; [|intros [= <- <- <-]; split; [exact S1|intros []]].
  assert (S2 : same_var c c2). { destruct (fd_name d); try (injection Q as <-; exact S1). eapply var_trans; [exact S1|]. apply step_same. eapply set_arg_step; eauto. }
  destruct (fn_args_finish cx (fd_args d) c2) as [[l c3] r] eqn:E3. destruct (fn_args_clean _ _ _ _ _ E3) as [S3 K3]. intros [= <- <- <-]. split; [eapply var_trans; eauto|]. intro K. split; [apply K1; exact I|auto].
Qed.
Definition stmt_post (s : stmt) : Prop := forall c s' c' f, lc_var c = vb -> stmt_finish cx s c = (s', c', f) -> same_var c c' /\ (isok f -> sclean s).
Lemma stmts_clean l : Forall stmt_post l -> forall c l' c' f, lc_var c = vb -> stmts_finish (stmt_finish cx) l c = (l', c', f) -> same_var c c' /\ (isok f -> all sclean l).
Proof.
  induction 1 as [|s l HE HF IH]; intros c l' c' f V; cbn [stmts_finish]; [intros [= <- <- <-]; split; cbn; auto; reflexivity|]. unfold fbind.
  destruct (stmt_finish cx s c) as [[s1 c1] r1] eqn:E1. destruct (HE _ _ _ _ V E1) as [S1 K1]. destruct r1; try (intros [= <- <- <-]; split; [exact S1|solve [intros []]]).
  destruct (stmts_finish (stmt_finish cx) l c1) as [[l2 c2] r2] eqn:E2. destruct (IH c1 l2 c2 r2 (eq_trans S1 V) E2) as [S2 K2]. intros [= <- <- <-]. split; [eapply var_trans; eauto|]. intro K. split; [apply K1; exact I|auto].
Qed.
Lemma void_clean {X Y} (r : fin X) (w : X -> Y) c (s : Y) c' f (P : Prop) : (forall x c1 r1, r = (x, c1, r1) -> same_var c c1 /\ (isok r1 -> P)) ->
  fbind r w (fun x c _ => (w x, c, FOk (ty_b BVoid))) = (s, c', f) -> same_var c c' /\ (isok f -> P).
Proof.
  intros H E. destruct r as [[x c1] r1]. destruct (H _ _ _ eq_refl) as [S K]. cbn in E. destruct r1; injection E as <- <- <-; split; auto; try (intros _; apply K; exact I); intros [].
Qed.
Lemma statement_clean s : stmt_post s.
Proof.
  induction s as [a|e|d|d|l IHl|e a b IHa IHb|l e IHl] using stmt_ind'; intros c s' c' f V; cbn [stmt_finish].
  - apply void_clean. intros x c1 r1 E. eapply asm_clean; eauto.
  - apply void_clean. intros x c1 r1 E. eapply exp_clean; eauto.
  - apply void_clean. intros x c1 r1 E. eapply fn_decl_clean; eauto.
  - apply void_clean. intros x c1 r1 E. eapply var_decl_clean; eauto.
  - apply void_clean. intros x c1 r1 E. eapply stmts_clean; eauto.
  - destruct (condition_finish (expr_finish cx) e c) as [[e1 c1] r1] eqn:E1. destruct (cond_clean _ _ _ _ _ V E1) as [S1 K1]. unfold fbind at 1.
    destruct r1; try (intros [= <- <- <-]; split; [exact S1|solve [intros []]]). pose proof (eq_trans S1 V) as V1.
    destruct (stmts_finish (stmt_finish cx) a c1) as [[l2 c2] r2] eqn:E2. destruct (stmts_clean a IHa _ _ _ _ V1 E2) as [S2 K2]. unfold fbind at 1. assert (S12 : same_var c c2) by (eapply var_trans; eauto).
    destruct r2; try (intros [= <- <- <-]; split; [exact S12|solve [intros []]]). pose proof (eq_trans S12 V) as V2.
    apply void_clean. intros x c3 r3 E3. destruct (stmts_clean b IHb _ _ _ _ V2 E3) as [S3 K3]. split; [eapply var_trans; eauto|]. intro K. split; [apply K1; exact I|]. split; [apply K2; exact I|auto].
  - destruct (stmts_finish (stmt_finish cx) l c) as [[l2 c2] r2] eqn:E2. destruct (stmts_clean l IHl _ _ _ _ V E2) as [S2 K2]. unfold fbind at 1.
    destruct r2; try (intros [= <- <- <-]; split; [exact S2|solve [intros []]]). pose proof (eq_trans S2 V) as V2.
    apply void_clean. intros x c3 r3 E3. destruct (cond_clean _ _ _ _ _ V2 E3) as [S3 K3]. split; [eapply var_trans; eauto|]. intro K. split; [apply K2; exact I|auto].
Qed.
Notation bclean := (mbody_ok known_name any any (known_name (st "wchar_t")) True (vb = false) True False True False False False True).
Lemma body_clean b c b' c' f : lc_var c = vb -> body_finish cx b c = (b', c', f) -> isok f -> bclean b.
Proof.
  intros V. destruct b as [s|e]; cbn [body_finish mbody_ok].
  - destruct (stmt_finish cx s c) as [[s1 c1] r] eqn:E. intros [= <- <- <-]. eapply statement_clean; eauto.
  - destruct (expr_finish cx e c) as [[s1 c1] r] eqn:E. intros [= <- <- <-]. eapply exp_clean; eauto.
Qed.
Lemma var_clean m x : vb = true -> snd (var_generate cx m) = ROk x -> exists e, vm_body m = MbExpr e /\ bclean (MbExpr e).
Proof.
  intro V. unfold var_generate. destruct (vm_body m) as [s|e]; [discriminate|]. destruct (expr_finish cx e (var_lctx cx)) as [[e' c] f] eqn:E. cbn [snd]. intro R. exists e. split; [reflexivity|].
  assert (K : isok f) by (destruct f; try discriminate; exact I). eapply (exp_clean e (var_lctx cx)); [symmetry; exact V|exact E|exact K].
Qed.
Lemma fn_clean m x : vb = false -> snd (fn_generate cx m) = ROk x -> bclean (fm_body m).
Proof.
  intro V. unfold fn_generate. destruct (arg_types cx (fm_name m) (fm_args m)) as [tys| | |]; try discriminate.
  destruct (body_finish cx (fm_body m) _) as [[b c] f] eqn:E. cbn [snd]. intro R. assert (K : isok f) by (destruct f; try discriminate; exact I). eapply body_clean; [|exact E|exact K]. symmetry. exact V.
Qed.
End Clean.

(** ** What occurs *)

Section Occurs.
Variables AT AV AG : str -> Prop.
Variables Fwide Fderef Fcall Fcomp Fbad Fdyn Fcw Fcv Fpaste Fassign : Prop.
Notation eok := (expr_ok AT AV AG Fwide Fderef Fcall Fcomp Fbad Fdyn Fcw Fcv Fpaste Fassign).
Notation sok := (stmt_ok AT AV AG Fwide Fderef Fcall Fcomp Fbad Fdyn Fcw Fcv Fpaste Fassign).
Notation bok := (mbody_ok AT AV AG Fwide Fderef Fcall Fcomp Fbad Fdyn Fcw Fcv Fpaste Fassign).
Lemma all_elim {A} (P : A -> Prop) l x : all P l -> In x l -> P x.
Proof. induction l; cbn; [contradiction|]. intros [H1 H2] [->|I]; auto. Qed.
Lemma parts_ok e x : eok e -> In x (parts e) -> eok x.
Proof.
  induction e as [v|v l IHl|ty e IHe|l|a IHa|l IHl|ty|op e IHe|a op b IHa IHb|a b d IHa IHb IHd] using expr_ind'; cbn [parts]; intros E [<-|I]; try exact E; try contradiction.
  - apply in_flat_map in I as (y & Y & I). rewrite Forall_forall in IHl. destruct E as (_ & _ & _ & E). eapply IHl; eauto. eapply all_elim; eauto.
  - apply IHe; [apply E|exact I].
  - apply in_flat_map in I as (y & Y & I). rewrite Forall_forall in IHl. destruct E as (_ & E). eapply IHl; eauto. eapply all_elim; eauto.
  - apply IHe; [apply E|exact I].
  - destruct E as (_ & E1 & E2). apply in_app_or in I as [I|I]; auto.
  - destruct E as (E0 & E1 & E2). apply in_app_or in I as [I|I]; auto. apply in_app_or in I as [I|I]; auto.
Qed.
Lemma stmt_parts_ok s : sok s -> (forall x, In x (stmt_parts s) -> eok x) /\ (forall t, In t (declared s) -> type_ok AT Fpaste t) /\ (forall n, In n (declared_names s) -> name_ok Fpaste n).
Proof.
  induction s as [a|e|d|d|l IHl|e a b IHa IHb|l e IHl] using stmt_ind'; cbn [stmt_ok stmt_parts declared declared_names]; intro S.
  - destruct S as [S1 S2]. split; [|split; intros ? []]. intros x X. apply in_app_or in X as [X|X]; apply in_flat_map in X as (y & Y & X); eapply parts_ok; eauto; [exact (all_elim _ _ _ S1 Y)|exact (all_elim _ _ _ S2 Y)].
  - split; [|split; intros ? []]. intros x X. eapply parts_ok; eauto.
  - destruct S as [S1 S2]. split; [intros ? []|]. split; [|intros ? []]. intros t [<-|T]; [exact S1|]. apply in_map_iff in T as (y & <- & Y). exact (all_elim _ _ _ S2 Y).
  - destruct S as (S1 & S2 & S3). split; [intros x X; eapply parts_ok; eauto|]. split; intros ? [<-|[]]; assumption.
  - rewrite Forall_forall in IHl. (split; [|split]); intros x X; apply in_flat_map in X as (y & Y & X); apply (IHl y Y (all_elim _ _ _ S Y)); exact X.
  - destruct S as (S0 & S1 & S2). rewrite Forall_forall in IHa, IHb. (split; [|split]); intros x X.
    + apply in_app_or in X as [X|X]; [eapply parts_ok; eauto|]. apply in_app_or in X as [X|X]; apply in_flat_map in X as (y & Y & X); [apply (IHa y Y (all_elim _ _ _ S1 Y)); exact X|apply (IHb y Y (all_elim _ _ _ S2 Y)); exact X].
    + apply in_app_or in X as [X|X]; apply in_flat_map in X as (y & Y & X); [apply (IHa y Y (all_elim _ _ _ S1 Y)); exact X|apply (IHb y Y (all_elim _ _ _ S2 Y)); exact X].
    + apply in_app_or in X as [X|X]; apply in_flat_map in X as (y & Y & X); [apply (IHa y Y (all_elim _ _ _ S1 Y)); exact X|apply (IHb y Y (all_elim _ _ _ S2 Y)); exact X].
  - destruct S as (S1 & S0). rewrite Forall_forall in IHl. (split; [|split]); intros x X.
    + apply in_app_or in X as [X|X]; [|eapply parts_ok; eauto]. apply in_flat_map in X as (y & Y & X). apply (IHl y Y (all_elim _ _ _ S1 Y)). exact X.
    + apply in_flat_map in X as (y & Y & X). apply (IHl y Y (all_elim _ _ _ S1 Y)). exact X.
    + apply in_flat_map in X as (y & Y & X). apply (IHl y Y (all_elim _ _ _ S1 Y)). exact X.
Qed.
Lemma body_parts_ok b : bok b -> (forall x, In x (body_parts b) -> eok x) /\ (forall t, In t (body_types b) -> type_ok AT Fpaste t) /\ (forall n, In n (body_names b) -> name_ok Fpaste n).
Proof.
  intro B. assert (P : forall x, In x (body_parts b) -> eok x).
  { destruct b as [s|e]; cbn [body_parts mbody_ok] in *; [now apply stmt_parts_ok|]. intros x. now apply parts_ok. }
  assert (T : forall t, In t (body_types b) -> type_ok AT Fpaste t).
  { intros t H. unfold body_types in H. apply in_app_or in H as [H|H].
    - unfold part_types in H. apply in_flat_map in H as (e & E & H). specialize (P e E). destruct e; try contradiction; destruct H as [<-|[]]; apply P.
    - destruct b as [s|e]; [|contradiction]. now apply (stmt_parts_ok s). }
  split; [exact P|]. split; [exact T|]. intros n H. unfold body_names in H. apply in_app_or in H as [H|H]; [|apply in_app_or in H as [H|H]].
  - apply in_flat_map in H as (e & E & H). specialize (P e E). destruct e; try contradiction; destruct H as [<-|[]]; apply P.
  - apply in_flat_map in H as (t & E & H). specialize (T t E). destruct (type_name t) as [m|] eqn:Q; [|contradiction]. destruct H as [<-|[]]. now apply T.
  - destruct b as [s|e]; [|contradiction]. now apply (stmt_parts_ok s).
Qed.
End Occurs.
