(** Expansion of texts in which every call is written out, read once from left
    to right. *)
From Verif Require Import Base Utf Lex LexFloat Token MacroSet StrFacts LexFacts ExpandFacts ExpandInv TokenFacts
  SpecPaste PasteFacts SpecRescan ObjFacts SpecSet SetFacts SpecCall CallFacts SpecTokens ParamFacts SpecExpand FullFacts
  PropObject PropExpand SpecComplete CompleteFacts PropComplete SpecStringify StringifyFacts SpecCpp.
From Coq Require Import String List.
Local Open Scope list_scope.

Section S.
Context `{Unicode}.
Variable h : list call.
(** Whether [#] is used at all, and what texts then must not contain. *)
Variable strings : Prop.
Definition placed (t : token) : Prop := strip_nr t = TIdent (st "__LINE__") \/ strip_nr t = TIdent (st "__FILE__").
Definition safe (t : token) : Prop := t <> hash /\ (strings -> ~ placed t).
Hypothesis Hs : written_out_set h.
Hypothesis Hfree_var : forall n b, defined (rev h) n = Some (DVar b) -> Forall safe (map from_str b).
Hypothesis Hfree_fn : forall n ps b, defined (rev h) n = Some (DFn ps b) -> Forall (fun t => t = hash \/ safe t) (map from_str b).
Hypothesis Hstrings : forall n ps b, defined (rev h) n = Some (DFn ps b) -> In hash (map from_str b) -> strings.

Notation clean := (Forall ordinary_or_comment).
Notation tidy l := (clean l /\ Forall (thru not_place) l).
Notation E hide l e := (expansion token_concat stringify (macros h) hide l (ROk e)).
Notation pp := (preprocessed (macros h)).

Lemma E_iff hide l e : clean l -> (E hide l e <-> exists F, expand_macro_body (run h) F hide l = ROk e).
Proof.
  intros Hl. split.
  - intros He. apply expansion_iff in He; [|apply run_excl|easy]. destruct He as [_ [F HF]]. exists F. now apply HF.
  - intros [F HF]. apply expansion_iff; [apply run_excl|easy|]. split; [discriminate|]. exists F. intros f Hf.
    rewrite (more_fuel (run h) F f); [easy|easy|congruence].
Qed.

Lemma E_det hide l a b : clean l -> E hide l a -> E hide l b -> a = b.
Proof.
  intros Hl Ha Hb. apply E_iff in Ha, Hb; auto. destruct Ha as [F HF], Hb as [G HG].
  destruct (Nat.le_ge_cases F G) as [Hle|Hle].
  - rewrite (more_fuel (run h) F G) in HG; [congruence|easy|congruence].
  - rewrite (more_fuel (run h) G F) in HF; [congruence|easy|congruence].
Qed.

Lemma E_settled hide p l out : settled (run h) hide p -> clean (p ++ l) ->
  (E hide (p ++ l) out <-> exists o, out = p ++ o /\ E hide l o).
Proof.
  intros Hp Hl. rewrite E_iff by easy. assert (Hl' : clean l) by (apply Forall_app in Hl; easy). split.
  - intros [F HF]. rewrite expand_settled in HF by easy. destruct (expand_macro_body (run h) F hide l) as [o| | |] eqn:Eo; try discriminate.
    injection HF as <-. exists o. split; [easy|]. apply E_iff; [easy|]. now exists F.
  - intros (o & -> & Ho). apply E_iff in Ho; [|easy]. destruct Ho as [F HF]. exists F. rewrite expand_settled by easy. now rewrite HF.
Qed.

Lemma E_excluded hide id l out : In id hide -> clean (TIdent id :: l) ->
  (E hide (TIdent id :: l) out <-> exists o, out = TNonRepl (TIdent id) :: o /\ E hide l o).
Proof.
  intros Hi Hl. rewrite E_iff by easy. assert (Hl' : clean l) by now inversion Hl.
  assert (Hsett : settled (run h) hide [TNonRepl (TIdent id)]). { intros id' [X|[]]. discriminate X. }
  assert (Es : forall f, expand_macro_body (run h) (S f) hide (TIdent id :: l) =
    rmap (app [TNonRepl (TIdent id)]) (expand_macro_body (run h) (S f) hide l)).
  { intros f. cbn [expand_macro_body]. assert (Hm : str_mem id hide = true) by now apply str_mem_In.
    cbn [scan]. rewrite Hm. 
    rewrite <- (scan_prefix (run h) (expand_macro_body (run h) f) hide [TNonRepl (TIdent id)] (expand_settled (run h) hide _ Hsett f) l []).
    reflexivity. }
  split.
  - intros [F HF]. destruct F as [|f]; [discriminate|]. rewrite Es in HF.
    destruct (expand_macro_body (run h) (S f) hide l) as [o| | |] eqn:Eo; try discriminate.
    injection HF as <-. exists o. split; [easy|]. apply E_iff; [easy|]. now exists (S f).
  - intros (o & -> & Ho). apply E_iff in Ho; [|easy]. destruct Ho as [F HF]. destruct F as [|f]; [discriminate|].
    exists (S f). rewrite Es. now rewrite HF.
Qed.

Lemma E_parts hide l1 l2 out : good (run h) l1 -> clean (l1 ++ l2) ->
  (E hide (l1 ++ l2) out <-> exists e1 e2, out = e1 ++ e2 /\ E hide l1 e1 /\ E hide l2 e2).
Proof.
  intros Hg Hc. pose proof (bodies_var h Hs) as Hbv. pose proof (bodies_fn h Hs) as Hbf. pose proof (lines h Hs) as Hl.
  assert (Hc2 : clean l1 /\ clean l2) by now apply Forall_app. destruct Hc2 as [Hc1 Hc2].
  assert (Hfwd : forall e1 e2, E hide l1 e1 -> E hide l2 e2 -> E hide (l1 ++ l2) (e1 ++ e2)).
  { intros e1 e2 H1 H2. apply E_iff in H1, H2; auto. destruct H1 as [F1 E1], H2 as [F2 E2]. apply E_iff; [easy|].
    destruct (expand_parts (run h) (run_excl h) Hbv Hbf Hl F1 hide l1 l2 Hg) as [P1 _]; [congruence|].
    destruct (P1 e1 E1 F2) as [f Ef]; [congruence|]. rewrite E2 in Ef. now exists f. }
  split.
  - intros Ho. pose proof Ho as Ho'. apply E_iff in Ho; [|easy]. destruct Ho as [F HF].
    destruct (rest_ends (run h) (run_excl h) Hbv Hbf Hl F hide _ _ _ Hg HF) as [f2 Hf2].
    destruct (good_terminates (run h) (run_excl h) Hbv Hbf Hl hide _ Hg) as [f1 Hf1]. destruct (Hf1 f1 (le_n f1)) as [_ Hf1'].
    destruct (expand_parts (run h) (run_excl h) Hbv Hbf Hl f1 hide l1 l2 Hg Hf1') as [P1 P2].
    assert (Hdet : forall f r, r <> RFuel -> expand_macro_body (run h) f hide (l1 ++ l2) = r -> r = ROk out).
    { intros f r Hr Er. rewrite <- Er, <- HF. destruct (Nat.le_ge_cases f F).
      - symmetry. apply more_fuel; [easy|congruence].
      - apply more_fuel; [easy|congruence]. }
    destruct (expand_macro_body (run h) f1 hide l1) as [e1| | |] eqn:Ee1; try easy.
    2:{ destruct P2 as [f Ef]; [discriminate|]. apply Hdet in Ef; discriminate. }
    2:{ destruct P2 as [f Ef]; [discriminate|]. apply Hdet in Ef; discriminate. }
    destruct (P1 e1 eq_refl f2 Hf2) as [f Ef]. apply Hdet in Ef; [|now destruct (expand_macro_body (run h) f2 hide l2)].
    destruct (expand_macro_body (run h) f2 hide l2) as [e2| | |] eqn:Ee2; try discriminate.
    cbn [rmap] in Ef. injection Ef as <-. exists e1, e2. split; [easy|]. split; (apply E_iff; [easy|]); eauto.
  - intros (e1 & e2 & -> & H1 & H2). auto.
Qed.

(** The results of good texts are left alone. *)
Lemma E_result hide id b e out : good (run h) b -> tidy b -> E (id :: hide) b e -> (E hide e out <-> out = e).
Proof.
  intros Hg Hb He. pose proof (expansion_tidy h (id :: hide) b e Hb He) as [Hce _].
  assert (Hse : settled (run h) hide e).
  { apply E_iff in He; [|easy]. destruct He as [F HF].
    destruct (expand_keeps (run h) (run_excl h) (bodies_var h Hs) (bodies_fn h Hs) (lines h Hs) F _ _ _ Hg HF) as [_ Hk].
    intros x Hx. destruct (Hk x Hx) as [H1 H2]. split; [easy|]. intros Hi. apply H2. now right. }
  pose proof (E_settled hide e [] out Hse) as X. rewrite app_nil_r in X. rewrite (X Hce). split.
  - intros (o & -> & Ho). assert (o = []); [|subst; apply app_nil_r].
    apply E_iff in Ho; [|constructor]. destruct Ho as [F HF]. destruct F; [discriminate|]. now injection HF.
  - intros ->. exists []. split; [now rewrite app_nil_r|]. change [] with (map (mark hide) []) at 2. apply xp_done.
    intros p q Epq. symmetry in Epq. apply app_eq_nil in Epq. destruct Epq as [-> ->]. intros ? ? ? ? Hi. inversion Hi.
Qed.

Lemma one_invocation hide text id d args : invokes (macros h) hide text id d args [] -> leftmost (macros h) hide text [] id d args [].
Proof.
  intros Hi. exists text. split; [easy|]. split; [easy|]. intros p q Epq Hq. symmetry in Epq. apply app_eq_nil in Epq. now destruct Epq.
Qed.

Lemma processed_plain hide id b e : good (run h) b -> tidy b -> 
  (processed token_concat stringify (macros h) hide id b (ROk e) <-> E (id :: hide) b e).
Proof.
  intros Hg Hb. assert (Hn : ~ In hashhash b) by (eapply not_hashhash; exact Hg). split.
  - intros Hp. inversion Hp; subst.
    + match goal with hp : pasted _ _ (ROk c) |- _ => apply pasted_plain_only in hp; try easy; assert (c = b) by congruence; subst c end.
      now rewrite (tidy_no_place b Hb) in *.
    + match goal with hn : ~ succeeded _ |- _ => exfalso; apply hn; now eexists end.
  - intros He. eapply pr_rescan; [now apply pasted_plain|]. now rewrite (tidy_no_place b Hb).
Qed.

Lemma invocation_only hide text id d args out : invokes (macros h) hide text id d args [] ->
  (E hide text out <-> exists e, replaced token_concat stringify (macros h) hide id d args (ROk e) /\ E hide e out).
Proof.
  intros Hi. pose proof (one_invocation hide text id d args Hi) as Hl. split.
  - intros Ho. inversion Ho; subst.
    + now apply leftmost_some in Hl.
    + match goal with hl : leftmost _ _ _ _ _ _ _ _, hl2 : leftmost _ _ _ _ _ _ _ _ |- _ =>
        destruct (leftmost_det _ _ _ _ _ _ _ _ _ _ _ _ _ hl hl2) as (? & ? & ? & ? & ?) end; subst.
      cbn [map app] in *. rewrite app_nil_r in *. eauto.
    + match goal with hn : ~ succeeded _ |- _ => exfalso; apply hn; now eexists end.
  - intros (e & He & Ho). eapply xp_step; eauto. cbn [map app]. now rewrite app_nil_r.
Qed.

Lemma E_object hide id b out : ~ In id hide -> macros h id = Some (Object b) -> good (run h) b -> (~ In TVarArgs b -> tidy b) ->
  (E hide [TIdent id] out <-> ~ In TVarArgs b /\ E (id :: hide) b out).
Proof.
  intros Hn Hm Hg Hb. rewrite (invocation_only hide [TIdent id] id (Object b) []) by now apply iv_object. split.
  - intros (e & Hr & Ho). inversion Hr; subst. match goal with hv : ~ In TVarArgs b |- _ => specialize (Hb hv) end.
    match goal with hp : processed _ _ _ _ _ _ _ |- _ => apply processed_plain in hp; [|easy|easy]; rename hp into Hp end.
    rewrite (E_result hide id b e out Hg Hb Hp) in Ho. now subst.
  - intros [Hv Ho]. specialize (Hb Hv). exists out. split; [apply rl_object; [easy|]; now apply processed_plain|].
    now apply (E_result hide id b out out Hg Hb Ho).
Qed.

Lemma argument_free k args t a : Forall (Forall safe) args -> argument_for k args t = Some a -> Forall safe a.
Proof.
  intros Hg Ha. destruct t; try discriminate; simpl in Ha.
  - apply nth_error_In in Ha. rewrite Forall_forall in Hg. auto.
  - destruct (Nat.leb k (length args)); [|discriminate]. injection Ha as <-.
    assert (Hsk : Forall (Forall safe) (skipn k args)). { rewrite <- (firstn_skipn k args) in Hg. now apply Forall_app in Hg. }
    induction Hsk as [|x l Hx Hl IH]; [constructor|]. destruct l as [|y l]; [easy|].
    change (comma_separated (x :: y :: l)) with (x ++ [comma] ++ comma_separated (y :: l)).
    apply Forall_app. split; [easy|]. apply Forall_app. split; [|easy]. constructor; [|constructor].
    split; [discriminate|]. intros _ [X|X]; discriminate X.
Qed.

Lemma safe_spellable nested l : strings -> tidy l -> Forall safe l -> Forall (spellable nested) l.
Proof.
  intros Hst [Hc _] Hf. rewrite Forall_forall in *. intros t Ht. specialize (Hc t Ht). specialize (Hf t Ht). destruct Hc as [Hc _], Hf as [_ Hf].
  specialize (Hf Hst). unfold placed in Hf. clear Ht. induction t; try easy.
  - cbn [spellable strip_nr] in *. auto.
  - cbn [spellable strip_nr] in *. intros _. split; intros ->; apply Hf; auto.
Qed.

Lemma substituted_filled hide k args :
  (forall t a e, argument_for k args t = Some a -> E hide a e -> ~ In hash e /\ ~ In hashhash e) ->
  forall n body out s, length body < n ->
  (In hash body -> forall t a, argument_for k args t = Some a -> Forall (spellable (Nat.ltb 1 (length hide))) a) ->
  ~ In hashhash body -> ~ ends_with out hash -> ~ ends_with out hashhash ->
  (substituted token_concat stringify (macros h) hide k args out body (ROk s) <->
   exists b', filled (fun a e => E hide a e) k args body b' /\ s = out ++ b').
Proof.
  intros Hargs. induction n as [|n IH]; intros body out s Hlen Hsp Hb2 Ho1 Ho2; [lia|]. destruct body as [|t body].
  - split.
    + intros Hx. inversion Hx; subst. exists []. split; [constructor|now rewrite app_nil_r].
    + intros (b' & Hp & ->). inversion Hp; subst. rewrite app_nil_r. constructor.
  - cbn [length] in Hlen. assert (Hb2' : ~ In hashhash body) by (intros Hi; apply Hb2; now right).
    assert (Hsp' : In hash body -> forall t a, argument_for k args t = Some a -> Forall (spellable (Nat.ltb 1 (length hide))) a).
    { intros Hi. apply Hsp. now right. }
    assert (Ht2 : t <> hashhash) by (intros ->; apply Hb2; now left).
    assert (Hsw : ~ starts_with body hashhash). { intros [l' ->]. apply Hb2'. now left. }
    assert (Hstr : t = hash -> forall u a l, parameter_token u -> body = u :: l -> argument_for k args u = Some a ->
      (substituted token_concat stringify (macros h) hide k args (out ++ stringify (Nat.ltb 1 (length hide)) a) l (ROk s) <->
       exists b', filled (fun a e => E hide a e) k args l b' /\
         s = out ++ TLit (LString (SOrdinary (utf8_encode (contents a)))) (debug_str (contents a)) :: b')).
    { intros -> u a l Hu -> Ha. rewrite stringify_spec by (eapply Hsp; [now left|eassumption]). rewrite (IH l).
      - split; intros (b' & Hb' & ->); exists b'; (split; [easy|]); now rewrite <- app_assoc.
      - cbn [length] in Hlen. lia.
      - intros Hi. apply Hsp. right. now right.
      - intros Hi. apply Hb2'. now right.
      - apply not_ends_app; auto. intros [X|[]]. discriminate X.
      - apply not_ends_app; auto. intros [X|[]]. discriminate X. }
    assert (Harg : forall a, parameter_token t -> argument_for k args t = Some a -> forall e, E hide a e ->
       (substituted token_concat stringify (macros h) hide k args (out ++ e) body (ROk s) <->
        exists b', filled (fun a e => E hide a e) k args body b' /\ s = (out ++ e) ++ b')).
    { intros a Ht Ha e He. destruct (Hargs t a e Ha He) as [He1 He2]. apply IH; auto using not_ends_app. lia. }
    assert (Hnh : ~ parameter_token hash). { intros [X|[i X]]; discriminate X. }
    split.
    + intros Hx. inversion Hx; subst; try contradiction.
      * match goal with hs : substituted _ _ _ _ _ _ _ _ _ |- _ => apply IH in hs; auto; [|lia|..] end.
        2,3: apply not_ends_app; auto; intros [X|[]]; easy.
        match goal with hs : exists _, _ |- _ => destruct hs as (b' & Hp & ->) end.
        exists (t :: b'). split; [now constructor|]. now rewrite <- app_assoc.
      * match goal with hp : parameter_token ?u, ha : argument_for _ _ ?u = Some ?a, hs : substituted _ _ _ _ _ _ _ ?l _ |- _ =>
          apply (Hstr eq_refl u a l hp eq_refl ha) in hs; destruct hs as (b' & Hp & ->) end.
        eexists. split; [|reflexivity]. now apply fl_string.
      * exfalso. apply Ho1. now eexists.
      * match goal with ha : argument_for _ _ _ = Some ?a, he : expansion _ _ _ _ ?a (ROk ?e) |- _ =>
          match goal with hs : substituted _ _ _ _ _ _ _ _ _ |- _ => apply (Harg a ltac:(easy) ha e he) in hs; destruct hs as (b' & Hp & ->) end;
          exists (e ++ b'); split; [|now rewrite <- app_assoc] end.
        eapply fl_argument; eauto.
      * match goal with ho : _ \/ _ |- _ => destruct ho; contradiction end.
      * match goal with hn : ~ succeeded (ROk _) |- _ => exfalso; apply hn; now eexists end.
    + intros (b' & Hp & ->). inversion Hp; subst.
      * apply sb_keep; auto. apply IH; auto; [lia|..]. 3: { eexists. split; [eassumption|]. now rewrite <- app_assoc. }
        all: apply not_ends_app; auto; intros [X|[]]; easy.
      * eapply sb_stringify; eauto. eapply Hstr; eauto.
      * eapply sb_argument with (a := a); eauto.
        eapply Harg; eauto. eexists. split; [eassumption|]. now rewrite app_assoc.
Qed.

Lemma filled_good hide k args : Forall (good (run h)) args -> Forall clean args -> forall l r x y,
  filled (fun a e => E hide a e) k args l r ->
  run_tokens (run h) x l = Some y -> run_tokens (run h) x r = Some y.
Proof.
  intros Hargs Hclean.
  assert (Hparam : forall t x z, parameter_token t -> step (run h) x t = Some z -> exists s, x = (s, false) /\ z = (s, false)).
  { intros t [s fl] z Ht Ez. unfold step in Ez. destruct Ht as [-> | [i ->]]; cbn [is_punct] in Ez; (destruct fl; [discriminate|]; injection Ez as <-; now exists s). }
  intros l r x y Hp. revert x. induction Hp as [|t l r Ht Hth Hp IH|t a l r Ht Ha Hp IH|t a e l r Ht Ha He Hp IH]; intros x Hr; [easy|..].
  - cbn [run_tokens] in *. destruct (step (run h) x t); [auto|discriminate].
  - cbn [run_tokens] in Hr. destruct (step (run h) x hash) as [z|] eqn:E1; [|discriminate].
    destruct (step (run h) z t) as [w|] eqn:E2; [|discriminate]. apply Hparam in E2; [|easy]. destruct E2 as (s & -> & ->).
    destruct x as [s' fl]. unfold step in E1. cbn in E1. destruct fl; [discriminate|]. injection E1 as ->. cbn [run_tokens]. unfold step at 1. cbn [is_punct]. auto.
  - cbn [run_tokens] in Hr. destruct (step (run h) x t) as [z|] eqn:E1; [|discriminate]. apply Hparam in E1; [|easy]. destruct E1 as (s & -> & ->).
    assert (Hg : good (run h) e).
    { assert (Hga : good (run h) a).
      { destruct Ht as [-> | [i ->]].
        - apply (argument_good (run h) (lines h Hs) (S k) args TVarArgs); [easy|]. simpl in Ha |- *. exact Ha.
        - apply nth_error_In in Ha. rewrite Forall_forall in Hargs. auto. }
      assert (Hca : clean a).
      { destruct Ht as [-> | [i ->]].
        - simpl in Ha. destruct (Nat.leb k (length args)); [|discriminate]. injection Ha as <-.
          assert (Hsk : Forall clean (skipn k args)) by (rewrite <- (firstn_skipn k args) in Hclean; now apply Forall_app in Hclean).
          revert Hsk. generalize (skipn k args). clear. induction l as [|a l IH]; intros Hl; [constructor|]. inversion Hl; subst.
          destruct l as [|b l]; [easy|]. change (comma_separated (a :: b :: l)) with (a ++ comma :: comma_separated (b :: l)).
          apply Forall_app. split; [easy|]. constructor; [|auto]. split; [easy|]. intros [? X]. discriminate X.
        - apply nth_error_In in Ha. rewrite Forall_forall in Hclean. auto. }
      apply E_iff in He; [|easy]. destruct He as [F HF].
      exact (proj1 (expand_keeps (run h) (run_excl h) (bodies_var h Hs) (bodies_fn h Hs) (lines h Hs) F hide a e Hga HF)). }
    rewrite run_app, (good_anywhere (run h) e s Hg). auto.
Qed.

Lemma filled_tidy hide k args body b' : Forall (fun a => tidy a) args ->
  (forall t, In t body -> parameter_token t \/ tidy [t]) ->
  filled (fun a e => E hide a e) k args body b' -> tidy b'.
Proof.
  intros Hargs Hb Hp. induction Hp as [|t l r Ht Hth Hp IH|t a l r Ht Ha Hp IH|t a e l r Ht Ha He Hp IH].
  - split; constructor.
  - change (t :: r) with ([t] ++ r). apply tidy_app; [|apply IH; intros; apply Hb; now right].
    destruct (Hb t) as [?|?]; [now left|contradiction|easy].
  - match goal with |- tidy (?x :: r) => change (x :: r) with ([x] ++ r) end.
    apply tidy_app; [|apply IH; intros; apply Hb; right; now right].
    split; repeat constructor; try discriminate. intros [? X]. discriminate X.
  - apply tidy_app; [|apply IH; intros; apply Hb; now right].
    eapply expansion_tidy; [|eassumption]. eapply argument_for_tidy; eauto.
Qed.

Lemma filled_free (P : list token -> list token -> Prop) k args b b' : (forall t, In t b -> parameter_token t \/ t = hash \/ safe t) ->
  (forall t a e, argument_for k args t = Some a -> P a e -> Forall safe e) -> filled P k args b b' -> Forall safe b'.
Proof.
  intros Hb Hargs Hp. induction Hp as [|t l r Ht Hth Hp IH|t a l r Ht Ha Hp IH|t a e l r Ht Ha He Hp IH].
  - constructor.
  - constructor; [|apply IH; intros; apply Hb; now right]. destruct (Hb t) as [?|[?|?]]; [now left|contradiction..|easy].
  - constructor; [|apply IH; intros; apply Hb; right; now right]. split; [discriminate|]. intros _ [X|X]; discriminate X.
  - apply Forall_app. split; [eauto|]. apply IH; intros; apply Hb; now right.
Qed.

Lemma filled_ext (P Q : list token -> list token -> Prop) k args b b' :
  (forall t a e, argument_for k args t = Some a -> (P a e <-> Q a e)) ->
  (filled P k args b b' <-> filled Q k args b b').
Proof.
  intros HPQ. split; induction 1; try (constructor; now auto).
  - eapply fl_argument; eauto. eapply HPQ; eauto.
  - eapply fl_argument; eauto. eapply HPQ; eauto.
Qed.

Lemma E_function hide id k v b text args out : ~ In id hide -> macros h id = Some (Function k v b) -> call_text text args [] ->
  good (run h) b -> Forall (good (run h)) args -> Forall (fun a => tidy a) args -> (forall t, In t b -> parameter_token t \/ tidy [t]) ->
  (In hash b -> strings) -> Forall (Forall safe) args -> (forall t a e, argument_for k args t = Some a -> E hide a e -> ~ In hash e /\ ~ In hashhash e) ->
  (E hide (TIdent id :: text) out <->
   (v = false -> ~ In TVarArgs b /\ accepted k args) /\
   exists b', filled (fun a e => E hide a e) k args b b' /\ E (id :: hide) b' out).
Proof.
  intros Hn Hm Hc Hg Hga Hta Htb Hh Hsf Hargs.
  rewrite (invocation_only hide (TIdent id :: text) id (Function k v b) args) by (apply iv_function; auto; intros ?; discriminate).
  assert (Hb2 : ~ In hashhash b) by (eapply not_hashhash; exact Hg).
  assert (Hne : forall t, ~ ends_with [] t). { intros t [o Eo]. now destruct o. }
  assert (Hsp : In hash b -> forall t a, argument_for k args t = Some a -> Forall (spellable (Nat.ltb 1 (length hide))) a).
  { intros Hi t a Ha. apply safe_spellable; [auto|eapply argument_for_tidy; eauto|]. eapply argument_free; eauto. }
  pose proof (fun s => substituted_filled hide k args Hargs (S (length b)) b [] s (Nat.lt_succ_diag_r _) Hsp Hb2 (Hne _) (Hne _)) as Hsub.
  assert (Hca : Forall clean args). { revert Hta. apply Forall_impl. now intros a [? _]. }
  assert (Hgt : forall b', filled (fun a e => E hide a e) k args b b' -> good (run h) b' /\ tidy b').
  { intros b' Hb'. split; [exact (filled_good hide k args Hga Hca _ _ _ _ Hb' Hg)|].
    exact (filled_tidy hide k args b b' Hta Htb Hb'). }
  split.
  - intros (e & Hr & Ho). inversion Hr; subst.
    + split; [easy|]. match goal with hsb : substituted _ _ _ _ _ _ _ _ _ |- _ => apply Hsub in hsb; destruct hsb as (b' & Hb' & ->) end.
      cbn [app] in *. exists b'. split; [easy|]. destruct (Hgt b' Hb') as [H1 H2].
      match goal with hp : processed _ _ _ _ _ _ _ |- _ => apply processed_plain in hp; [|easy|easy]; rename hp into Hp end.
      rewrite (E_result hide id b' e out H1 H2 Hp) in Ho. now subst.
    + match goal with hx : ~ succeeded _ |- _ => exfalso; apply hx; now eexists end.
  - intros (Hv & b' & Hb' & Ho). destruct (Hgt b' Hb') as [H1 H2]. exists out. split.
    + eapply rl_function; [easy|apply Hsub; exists b'; now split|]. now apply processed_plain.
    + now apply (E_result hide id b' out out H1 H2 Ho).
Qed.

Lemma left_over_cons id hide : is_macro (run h) id = true -> ~ In id hide -> left_over (run h) (id :: hide) < left_over (run h) hide.
Proof.
  intros Hm Hn. pose proof (left_over_less (run h) id hide Hm Hn) as Hl.
  assert (X : left_over (run h) (id :: hide) = left_over (run h) (set_insert id hide)); [|now rewrite X].
  unfold left_over. f_equal. apply filter_ext. intros n. f_equal.
  destruct (str_mem n (set_insert id hide)) eqn:En.
  - apply str_mem_In. apply str_mem_In in En. apply set_insert_In in En. destruct En as [->|En]; [now left|now right].
  - apply str_mem_not_In. apply str_mem_not_In in En. intros [->|Hi]; apply En, set_insert_In; [now left|now right].
Qed.

(** The bodies of the set. *)
Lemma object_body id b : macros h id = Some (Object b) -> good (run h) b /\ (~ In TVarArgs b -> tidy b) /\ Forall safe b.
Proof.
  intros Hm. pose proof (C52_macros h id) as Hd. destruct (defined (rev h) id) as [[b0|ps b0]|] eqn:Ed.
  - rewrite Hm in Hd. injection Hd as ->. destruct Hs as (Hv & _). split; [apply written_out_good; eauto|]. split; [apply tidy_text|eauto].
  - exfalso. pose proof (macro_of_object (run h) id b Hm) as Hf. apply not_true_iff_false in Hf. apply Hf. apply is_fn_run. now exists ps, b0.
  - rewrite Hm in Hd. discriminate.
Qed.

Lemma function_body id k v b : macros h id = Some (Function k v b) ->
  good (run h) b /\ (forall t, In t b -> parameter_token t \/ tidy [t]) /\ (In hash b -> strings) /\
  (forall t, In t b -> parameter_token t \/ t = hash \/ safe t).
Proof.
  intros Hm. assert (Hf : is_fn (run h) id = true) by (eapply macro_of_fn; [exact Hm|intros ?; discriminate]).
  apply is_fn_run in Hf. destruct Hf as (ps & b0 & Ed). pose proof (C52_macros h id) as Hd. rewrite Ed in Hd. destruct Hd as [H1 H2].
  destruct (tokenize_arg_names_res ps) as [[an Ea]|[e Ea]].
  - apply tokenize_arg_names_iff in Ea. destruct Ea as (_ & ids & v0 & Hp). rewrite (H1 ids v0 Hp) in Hm. injection Hm as <- <- <-.
    destruct Hs as (_ & Hw & _). split; [apply written_out_good; eauto|]. split; [apply body_tidy|].
    split.
    + intros Hi. apply in_map_iff in Hi. destruct Hi as (s & Es & Hi). apply (Hstrings id ps b0 Ed). apply in_map_iff. exists s. split; [|easy].
      unfold body_token in Es. destruct (index_of ids s); [discriminate Es|easy].
    + intros t Hi. apply in_map_iff in Hi. destruct Hi as (s & Es & Hi). unfold body_token in Es. destruct (index_of ids s) as [i|].
      * left. right. now exists i.
      * right. pose proof (Hfree_fn id ps b0 Ed) as X. rewrite Forall_forall in X. apply X. rewrite <- Es. now apply in_map.
  - exfalso. destruct H2 as [e' He'].
    + intros ids v0 Hp. destruct (parameter_list_names ps ids v0 Hp) as (an & Ea' & _). congruence.
    + rewrite He' in Hm. discriminate.
Qed.

Lemma call_parts text args rest : call_text text args rest -> exists c, text = c ++ rest /\ call_text c args [] /\
  length (comma_separated args) + length rest < length text.
Proof.
  intros (H1 & H2 & ->). exists (TPunct (st "(") :: comma_separated args ++ [TPunct (st ")")]). split; [cbn [app]; now rewrite <- app_assoc|].
  split; [now repeat split|]. cbn [length]. rewrite app_length. cbn [length]. lia.
Qed.

Lemma argument_length k args t a : argument_for k args t = Some a -> length a <= length (comma_separated args).
Proof.
  assert (Hin : forall l a, In a l -> length a <= length (comma_separated l)).
  { induction l as [|x l IH]; intros y Hy; [easy|]. destruct l as [|z l].
    - destruct Hy as [->|[]]. easy.
    - change (comma_separated (x :: z :: l)) with (x ++ comma :: comma_separated (z :: l)). rewrite app_length. cbn [length].
      destruct Hy as [->|Hy]; [lia|]. specialize (IH y Hy). lia. }
  assert (Hsk : forall n l, length (comma_separated (skipn n l)) <= length (comma_separated l)).
  { induction n as [|n IH]; intros l; [easy|]. destruct l as [|x l]; [easy|]. cbn [skipn]. specialize (IH l). destruct l as [|z l].
    - destruct n; simpl; lia.
    - change (comma_separated (x :: z :: l)) with (x ++ comma :: comma_separated (z :: l)). rewrite app_length. cbn [length]. lia. }
  intros Ha. destruct t; try discriminate; simpl in Ha.
  - apply Hin. eapply nth_error_In; eauto.
  - destruct (Nat.leb k (length args)); [|discriminate]. injection Ha as <-. apply Hsk.
Qed.

Lemma good_call id text args : is_fn (run h) id = true -> call_text text args [] -> Forall (good (run h)) args ->
  good (run h) (TIdent id :: text).
Proof.
  intros Hf (Hne & _ & ->) Hg. unfold good. cbn [run_tokens]. unfold step at 1. cbn [is_punct]. rewrite Hf.
  cbn [run_tokens]. unfold step at 1. cbn [is_punct]. change (str_eqb (st "(") (st "(")) with true. cbn match.
  assert (Hc : good (run h) (comma_separated args)).
  { clear Hne. induction Hg as [|x l Hx Hl IH]; [reflexivity|]. destruct l as [|y l]; [easy|].
    change (comma_separated (x :: y :: l)) with (x ++ [comma] ++ comma_separated (y :: l)).
    apply good_app; [easy|]. apply good_app; [reflexivity|easy]. }
  rewrite run_app, (good_anywhere (run h) _ [st "("] Hc). reflexivity.
Qed.

Lemma macro_or_not id : macros h id = None <-> is_macro (run h) id = false.
Proof.
  unfold macros, macro_of, is_macro. destruct (sm_get (fn_macros (run h)) id) as [[ps b]|].
  - destruct (tokenize_arg_names ps); easy.
  - destruct (sm_get (var_macros (run h)) id); easy.
Qed.

Definition reads (l : list token) : Prop := exists x, run_tokens (run h) x l = Some ([], false).

Lemma argument_for_good k args t a : Forall (good (run h)) args -> argument_for k args t = Some a -> good (run h) a.
Proof.
  intros Hg Ha. destruct t; try discriminate; simpl in Ha.
  - apply nth_error_In in Ha. rewrite Forall_forall in Hg. auto.
  - destruct (Nat.leb k (length args)); [|discriminate]. injection Ha as <-.
    assert (Hsk : Forall (good (run h)) (skipn k args)). { rewrite <- (firstn_skipn k args) in Hg. now apply Forall_app in Hg. }
    induction Hsk as [|x l Hx Hl IH]; [reflexivity|]. destruct l as [|y l]; [easy|].
    change (comma_separated (x :: y :: l)) with (x ++ [comma] ++ comma_separated (y :: l)).
    apply good_app; [easy|]. apply good_app; [reflexivity|easy].
Qed.

Ltac not_token := try (match goal with hx : forall i, TIdent ?id <> TIdent i |- _ => exfalso; exact (hx id eq_refl) end).

Lemma safe_excluded id : safe (TIdent id) -> safe (TNonRepl (TIdent id)).
Proof. intros [_ Hp]. split; [discriminate|]. exact Hp. Qed.
Lemma safe_no_hash l : Forall safe l -> ~ In hash l.
Proof. intros Hl Hi. rewrite Forall_forall in Hl. destruct (Hl hash Hi) as [X _]. now apply X. Qed.

(** The two readings agree. *)
Lemma pp_iff n : forall hide, left_over (run h) hide < n -> forall k l, length l < k -> tidy l -> reads l -> Forall safe l ->
  (forall out, E hide l out <-> pp hide l out) /\ (forall out, pp hide l out -> Forall safe out).
Proof.
  induction n as [|n IHn]; [lia|]. intros hide Hn. induction k as [|k IHk]; [lia|]. intros l Hlen Ht Hr Hh.
  destruct l as [|t l].
  { split.
    - intros out. split.
      + intros He. assert (X : E hide [] []).
        { change (E hide [] (map (mark hide) [])). apply xp_done. intros p q Epq. symmetry in Epq. apply app_eq_nil in Epq.
          destruct Epq as [-> ->]. intros ? ? ? ? Hi. inversion Hi. }
        rewrite (E_det hide [] out [] (Forall_nil _) He X). constructor.
      + intros Hp. inversion Hp; subst. change (E hide [] (map (mark hide) [])). apply xp_done. intros p q Epq. symmetry in Epq. apply app_eq_nil in Epq.
        destruct Epq as [-> ->]. intros ? ? ? ? Hi. inversion Hi.
    - intros out Hp. inversion Hp; subst. constructor. }
  cbn [length] in Hlen. destruct Ht as [Hc Hpl].
  assert (Htl : tidy l) by (split; [now inversion Hc|now inversion Hpl]).
  assert (Hhl : Forall safe l) by now inversion Hh.
  assert (Hht : safe t) by now inversion Hh.
  assert (Hrl : reads l). { destruct Hr as [x Hx]. cbn [run_tokens] in Hx. destruct (step (run h) x t) as [y|]; [now exists y|discriminate]. }
  destruct (IHk l ltac:(lia) Htl Hrl Hhl) as [IH1 IH2].
  assert (Hid : (exists id, t = TIdent id) \/ forall id, t <> TIdent id) by (destruct t; try (right; intros ? ?; discriminate); left; eauto).
  destruct Hid as [[id ->]|Hid].
  2:{ assert (Hset : settled (run h) hide [t]). { intros id [X|[]]. now apply Hid in X. }
      pose proof (fun out => E_settled hide [t] l out Hset Hc) as Hst. cbn [app] in Hst. split.
      - intros out. rewrite Hst. split.
        + intros (o & -> & Ho). apply pp_token; [easy|]. now apply IH1.
        + intros Hp. inversion Hp; subst; try (exfalso; eapply Hid; reflexivity). eexists. split; [reflexivity|]. now apply IH1.
      - intros out Hp. inversion Hp; subst; try (exfalso; eapply Hid; reflexivity). constructor; [easy|]. eapply IH2; eauto. }
  destruct (in_dec (list_eq_dec N.eq_dec) id hide) as [Hi|Hi].
  { pose proof (fun out => E_excluded hide id l out Hi Hc) as Hst. split.
    - intros out. rewrite Hst. split.
      + intros (o & -> & Ho). apply pp_excluded; [easy|]. now apply IH1.
      + intros Hp. inversion Hp; subst; try contradiction; not_token. eexists. split; [reflexivity|]. now apply IH1.
    - intros out Hp. inversion Hp; subst; try contradiction; not_token. constructor; [|eapply IH2; eauto]. first [exact Hht|apply safe_excluded, Hht]. }
  destruct (macros h id) as [d|] eqn:Hm.
  2:{ assert (Hset : settled (run h) hide [TIdent id]). { intros id' [X|[]]. injection X as <-. split; [now apply macro_or_not|easy]. }
      pose proof (fun out => E_settled hide [TIdent id] l out Hset Hc) as Hst. cbn [app] in Hst. split.
      - intros out. rewrite Hst. split.
        + intros (o & -> & Ho). apply pp_name; [easy|intros d Hd; congruence|]. now apply IH1.
        + intros Hp. inversion Hp; subst; try congruence; try contradiction; not_token. eexists. split; [reflexivity|]. now apply IH1.
      - intros out Hp. inversion Hp; subst; try congruence; try contradiction; not_token. constructor; [|eapply IH2; eauto]. first [exact Hht|apply safe_excluded, Hht]. }
  assert (Hmac : is_macro (run h) id = true). { apply not_false_iff_true. rewrite <- macro_or_not. congruence. }
  pose proof (left_over_cons id hide Hmac Hi) as Hless.
  assert (Hobj : (exists b, d = Object b) \/ function_like d) by (destruct d; [left; eauto|right; intros ? ?; discriminate..]).
  destruct Hobj as [[b ->]|Hfl].
  { destruct (object_body id b Hm) as (Hgb & Htb & Hhb).
    assert (Hgi : good (run h) [TIdent id]). { unfold good. cbn [run_tokens]. unfold step. cbn [is_punct]. now rewrite (macro_of_object (run h) id b Hm). }
    pose proof (fun out => E_parts hide [TIdent id] l out Hgi Hc) as Hst. cbn [app] in Hst.
    assert (IHb : ~ In TVarArgs b -> (forall out, E (id :: hide) b out <-> pp (id :: hide) b out) /\ (forall out, pp (id :: hide) b out -> Forall safe out)).
    { intros Hv. apply (IHn (id :: hide) ltac:(lia) (S (length b)) b); auto. now exists ([], false). }
    split.
    - intros out. rewrite Hst. split.
      + intros (e1 & e2 & -> & He1 & He2). apply (E_object hide id b e1 Hi Hm Hgb Htb) in He1. destruct He1 as [Hv He1].
        apply (pp_object _ hide id b); auto; [now apply (IHb Hv)|now apply IH1].
      + intros Hp. inversion Hp; subst; try contradiction; not_token; try congruence.
        * match goal with hx : forall d, macros h id = Some d -> _ |- _ => destruct (hx _ Hm) as [Hx _]; exfalso; now apply (Hx b) end.
        * match goal with hx : macros h id = Some (Object ?y) |- _ => assert (y = b) by congruence; subst y end.
          eexists _, _. split; [reflexivity|]. split; [|now apply IH1]. apply (E_object hide id b _ Hi Hm Hgb Htb). split; [easy|]. now apply IHb.
    - intros out Hp. inversion Hp; subst; try contradiction; not_token; try congruence.
      * match goal with hx : forall d, macros h id = Some d -> _ |- _ => destruct (hx _ Hm) as [Hx _]; exfalso; now apply (Hx b) end.
      * match goal with hx : macros h id = Some (Object ?y) |- _ => assert (y = b) by congruence; subst y end.
        apply Forall_app. split; [|eapply IH2; eauto]. eapply IHb; eauto. }
  assert (Hf : is_fn (run h) id = true) by (eapply macro_of_fn; eauto).
  destruct Hr as [x Hx]. apply run_ident in Hx. destruct Hx as (s & _ & Hx). rewrite Hf in Hx.
  assert (Hpk : peek_is (is_punct (st "(")) l = true).
  { destruct l as [|t l]; [discriminate|]. cbn [run_tokens] in Hx. unfold step in Hx. cbn [peek_is]. destruct (is_punct (st "(") t); [easy|discriminate]. }
  destruct (collect_good (run h) s true [] l Hpk Hx ltac:(simpl; lia)) as (args & post & Hcol & Hrun & Hga).
  assert (Hct : call_text l args post) by now apply collect_args_iff.
  assert (Hsw : starts_with l (TPunct (st "("))). { destruct Hct as (_ & _ & ->). now eexists. }
  destruct (call_parts l args post Hct) as (c & -> & Hcc & Hlc).
  assert (Hta : Forall (fun a => tidy a) args /\ tidy post).
  { destruct Htl as [H1 H2]. destruct (collect_args_Forall _ _ _ _ Hcol H1) as [A1 B1]. destruct (collect_args_Forall _ _ _ _ Hcol H2) as [A2 B2].
    split; [|easy]. clear - A1 A2. induction A1; inversion A2; subst; constructor; auto. }
  assert (Hfa : Forall (Forall safe) args /\ Forall safe post) by exact (collect_args_Forall _ _ _ _ Hcol Hhl).
  destruct Hta as [Hta Htp], Hfa as [Hfa Hfp].
  assert (Hrp : reads post) by now exists (s, false).
  rewrite app_length in Hlen, Hlc. 
  destruct (IHk post ltac:(lia) Htp Hrp Hfp) as [IHp1 IHp2].
  assert (IHa : forall kk t a, argument_for kk args t = Some a -> (forall out, E hide a out <-> pp hide a out) /\ (forall out, pp hide a out -> Forall safe out)).
  { intros kk t a Ha. apply IHk.
    - pose proof (argument_length kk args t a Ha). lia.
    - eapply argument_for_tidy; eauto.
    - exists ([], false). eapply argument_for_good; eauto.
    - eapply argument_free; eauto. }
  pose proof (good_call id c args Hf Hcc Hga) as Hgc.
  pose proof (fun out => E_parts hide (TIdent id :: c) post out Hgc Hc) as Hst. cbn [app] in Hst.
  assert (Hpar : forall out, pp hide (TIdent id :: c ++ post) out -> exists kk v b b' e o,
    d = Function kk v b /\ (v = false -> ~ In TVarArgs b /\ accepted kk args) /\ filled (pp hide) kk args b b' /\
    pp (id :: hide) b' e /\ pp hide post o /\ out = e ++ o).
  { intros out Hp. inversion Hp; subst; try contradiction; not_token.
    - match goal with hx : forall d, macros h id = Some d -> _ |- _ => destruct (hx _ Hm) as [_ Hxx]; contradiction end.
    - match goal with hx : macros h id = Some (Object _) |- _ => rewrite Hm in hx; injection hx as -> end. exfalso. eapply Hfl; reflexivity.
    - match goal with hx : macros h id = Some _ |- _ => rewrite Hm in hx; injection hx as -> end.
      match goal with hx : call_text _ _ _ |- _ => apply collect_args_iff in hx; rewrite Hcol in hx; injection hx as <- <- end.
      do 6 eexists. split; [reflexivity|]. split; [eassumption|]. eauto. }
  assert (IHb : forall kk v b b', d = Function kk v b -> filled (pp hide) kk args b b' ->
    (forall out, E (id :: hide) b' out <-> pp (id :: hide) b' out) /\ (forall out, pp (id :: hide) b' out -> Forall safe out)).
  { intros kk v b b' -> Hb'. destruct (function_body id kk v b Hm) as (Hgb & Htb & Hst' & Hhb).
    assert (HbE : filled (fun a e => E hide a e) kk args b b').
    { refine (proj1 (filled_ext (pp hide) (fun a e => E hide a e) kk args b b' _) Hb'). intros t a e Ha. exact (iff_sym (proj1 (IHa kk t a Ha) e)). }
    apply (IHn (id :: hide) ltac:(lia) (S (length b')) b'); auto.
    - exact (filled_tidy hide kk args b b' Hta Htb HbE).
    - exists ([], false). refine (filled_good hide kk args Hga _ _ _ _ _ HbE Hgb). revert Hta. apply Forall_impl. now intros a [? _].
    - eapply filled_free; [exact Hhb| |exact Hb']. intros t a e Ha. now apply (IHa kk t a Ha). }
  split.
  - intros out. rewrite Hst. split.
    + intros (e1 & e2 & -> & He1 & He2). destruct d as [b|kk v b|er].
      * exfalso. eapply Hfl. reflexivity.
      * destruct (function_body id kk v b Hm) as (Hgb & Htb & Hst' & Hhb).
        apply (E_function hide id kk v b c args e1) in He1; auto.
        2:{ intros t a e Ha He. split; [apply safe_no_hash; apply (IHa kk t a Ha); now apply (IHa kk t a Ha)|].
            pose proof (argument_for_good kk args t a Hga Ha) as Hgd. pose proof (argument_for_tidy kk args t a Hta Ha) as [Hcd _].
            apply E_iff in He; [|easy]. destruct He as [F HF].
            destruct (expand_keeps (run h) (run_excl h) (bodies_var h Hs) (bodies_fn h Hs) (lines h Hs) F _ _ _ Hgd HF) as [Hge _].
            eapply not_hashhash; exact Hge. }
        destruct He1 as (Hv & b' & Hb' & He1).
        assert (Hb2 : filled (pp hide) kk args b b').
        { refine (proj1 (filled_ext (fun a e => E hide a e) (pp hide) kk args b b' _) Hb'). intros t a e Ha. exact (proj1 (IHa kk t a Ha) e). }
        eapply pp_function; eauto; [now apply (IHb kk v b b' eq_refl Hb2)|now apply IHp1].
      * exfalso. apply invocation_only with (id := id) (d := Malformed er) (args := args) in He1; [|now apply iv_function].
        destruct He1 as (e & He & _). inversion He.
    + intros Hp. destruct (Hpar out Hp) as (kk & v & b & b' & e & o & -> & Hv & Hb' & He & Ho & ->).
      exists e, o. split; [easy|]. split; [|now apply IHp1]. destruct (function_body id kk v b Hm) as (Hgb & Htb & Hst' & Hhb).
      apply (E_function hide id kk v b c args e); auto.
      2:{ split; [easy|]. exists b'. split; [|now apply (IHb kk v b b' eq_refl Hb')].
          refine (proj1 (filled_ext (pp hide) (fun a e => E hide a e) kk args b b' _) Hb'). intros t a e' Ha. exact (iff_sym (proj1 (IHa kk t a Ha) e')). }
      intros t a e' Ha He'. split; [apply safe_no_hash; apply (IHa kk t a Ha); now apply (IHa kk t a Ha)|].
      pose proof (argument_for_good kk args t a Hga Ha) as Hgd. pose proof (argument_for_tidy kk args t a Hta Ha) as [Hcd _].
      apply E_iff in He'; [|easy]. destruct He' as [F HF].
      destruct (expand_keeps (run h) (run_excl h) (bodies_var h Hs) (bodies_fn h Hs) (lines h Hs) F _ _ _ Hgd HF) as [Hge _].
      eapply not_hashhash; exact Hge.
  - intros out Hp. destruct (Hpar out Hp) as (kk & v & b & b' & e & o & Ed & Hv & Hb' & He & Ho & ->).
    apply Forall_app. split; [eapply IHb; eauto|eapply IHp2; eauto].
Qed.

Lemma E_preprocessed hide l out : good (run h) l -> tidy l -> Forall safe l -> (E hide l out <-> pp hide l out).
Proof.
  intros Hg Ht Hh. apply (pp_iff (S (left_over (run h) hide)) hide (Nat.lt_succ_diag_r _) (S (length l)) l (Nat.lt_succ_diag_r _)); auto.
  now exists ([], false).
Qed.
End S.
