(** Expansion of texts without mistakes gives a result. *)
From Verif Require Import Base Utf Lex LexFloat Token MacroSet StrFacts LexFacts ExpandFacts ExpandInv TokenFacts
  SpecPaste PasteFacts SpecRescan ObjFacts SpecSet SetFacts SpecCall CallFacts SelfFacts SpecTokens ParamFacts SpecExpand FullFacts
  PropObject PropExpand SpecComplete CompleteFacts PropComplete SpecStringify StringifyFacts SpecCpp CppFacts SpecProper ProperFacts.
From Coq Require Import String List.
Local Open Scope list_scope.

Section S.
Context `{Unicode}.
Variable h : list call.
Hypothesis Hs : proper_set h.
Notation P := (proper (takes h)).
Notation pp := (preprocessed (macros h)).

Lemma index_of_lt ids s i : index_of ids s = Some i -> i < length ids.
Proof.
  revert i. induction ids as [|id ids IH]; intros i; cbn [index_of]; [discriminate|]. destruct (same_name id s).
  - intro E. injection E as <-. cbn. lia.
  - destruct (index_of ids s) as [j|]; cbn [option_map]; [|discriminate]. intro E. injection E as <-. specialize (IH j eq_refl). cbn. lia.
Qed.
Lemma parameter_list_det ps ids ids' v v' : parameter_list ps ids v -> parameter_list ps ids' v' -> ids = ids' /\ v = v'.
Proof.
  intros H1 H2. destruct (parameter_list_names ps ids v H1) as (an & E1 & E2 & E3 & _).
  destruct (parameter_list_names ps ids' v' H2) as (an' & F1 & F2 & F3 & _). assert (an' = an) by congruence. subst an'. split; congruence.
Qed.

Lemma fn_takes id : names_function h id -> exists k va, takes h id k va.
Proof.
  intros (ps & b & Hd). destruct Hs as (_ & Hf & _). destruct (Hf id ps b Hd) as (ids & v & Hp & _).
  exists (length ids), v. now exists ps, b, ids.
Qed.

Lemma takes_macro id k v : takes h id k v -> exists b, macros h id = Some (Function k v b) /\ P Piece b /\
  (v = false -> ~ In TVarArgs b) /\
  (forall args, (v = false -> length args = k \/ k = 0) -> (v = true -> k <= length args) -> fillable k args b).
Proof.
  intros (ps & b & ids & Hd & Hp & Hk). destruct Hs as (_ & Hf & _). destruct (Hf id ps b Hd) as (ids' & v' & Hp' & Hb & Hw & Hva).
  destruct (parameter_list_det _ _ _ _ _ Hp Hp') as [<- <-]. pose proof (C52_macros h id) as Hm. rewrite Hd in Hm. destruct Hm as [Hm _].
  exists (map (body_token ids) b). specialize (Hm ids v Hp). rewrite Hk in Hm. split; [easy|]. split; [easy|].
  assert (Hno : v = false -> ~ In TVarArgs (map (body_token ids) b)).
  { intros Ev Hi. apply (Hva Ev). apply in_map_iff in Hi. destruct Hi as (s & Es & Hi). unfold body_token in Es.
    destruct (index_of ids s); [discriminate|]. apply from_str_var_args in Es. now subst. }
  split; [easy|]. intros args H1 H2. apply Forall_forall. intros t Ht. pose proof Ht as Ht'. apply in_map_iff in Ht. destruct Ht as (s & Es & Hi).
  unfold body_token in Es. destruct (index_of ids s) as [i|] eqn:Ei.
  - left. subst t. split; [right; now exists i|]. apply index_of_lt in Ei. cbn [argument_for]. intros X. apply nth_error_None in X. destruct v.
    + specialize (H2 eq_refl). lia.
    + destruct (H1 eq_refl) as [E|E]; lia.
  - destruct (list_eq_dec N.eq_dec s (st "__VA_ARGS__")) as [->|Hn].
    + left. rewrite (proj2 (from_str_var_args _) eq_refl) in Es. subst t. split; [now left|]. destruct v; [|exfalso; now apply (Hno eq_refl)].
      cbn [argument_for]. destruct (Nat.leb_spec k (length args)); [discriminate|]. specialize (H2 eq_refl). lia.
    + right. unfold known_words in Hw. rewrite Forall_forall in Hw. specialize (Hw s Hi). subst t.
      assert (Hc : ordinary_or_comment (from_str s)) by now apply clean_spell. destruct Hc as [Hc _].
      split; [intros [X|[i X]]; rewrite X in Hc; discriminate Hc|]. right.
      pose proof (not_place_spell s) as Hnp. unfold deliverable. destruct (from_str s) eqn:Ef; try easy; cbn [strip_nr] in *; try easy.
      * exfalso. eapply (from_str_no_nr s); eauto.
      * now apply (Hw s0).
Qed.

Lemma text_deliverable b : known_words b -> ~ In (st "__VA_ARGS__") b -> Forall deliverable (map from_str b).
Proof.
  intros Hw Hv. apply Forall_forall. intros t Ht. apply in_map_iff in Ht. destruct Ht as (s & <- & Hi).
  unfold known_words in Hw. rewrite Forall_forall in Hw. specialize (Hw s Hi).
  assert (Hn : s <> st "__VA_ARGS__") by (intros ->; contradiction).
  assert (Hc : ordinary_or_comment (from_str s)) by now apply clean_spell. destruct Hc as [Hc _].
  pose proof (not_place_spell s) as Hnp. unfold deliverable. destruct (from_str s) eqn:Ef; try easy; cbn [strip_nr] in *; try easy.
  - exfalso. eapply (from_str_no_nr s); eauto.
  - now apply (Hw s0).
Qed.

Lemma object_proper id b : macros h id = Some (Object b) -> P Piece b /\ Forall deliverable b.
Proof.
  intros Hm. pose proof (C52_macros h id) as Hd. destruct (defined (rev h) id) as [[b0|ps b0]|] eqn:Ed.
  - rewrite Hm in Hd. injection Hd as ->. destruct Hs as (Hv & _). destruct (Hv id b0 Ed) as (H1 & H2 & H3). split; [easy|]. now apply text_deliverable.
  - exfalso. destruct Hd as [H1 _]. destruct Hs as (_ & Hf & _). destruct (Hf id ps b0 Ed) as (ids & v & Hp & _). rewrite (H1 ids v Hp) in Hm. discriminate.
  - rewrite Hm in Hd. discriminate.
Qed.
Lemma not_takes_object id d : macros h id = Some d -> (forall k va, ~ takes h id k va) -> exists b, d = Object b.
Proof.
  intros Hm Hn. pose proof (C52_macros h id) as Hd. destruct (defined (rev h) id) as [[b0|ps b0]|] eqn:Ed.
  - rewrite Hm in Hd. injection Hd as ->. now eexists.
  - exfalso. destruct Hs as (_ & Hf & _). destruct (Hf id ps b0 Ed) as (ids & v & Hp & _). apply (Hn (length ids) v). now exists ps, b0, ids.
  - rewrite Hm in Hd. discriminate.
Qed.
Lemma macro_is id d : macros h id = Some d -> is_macro (run h) id = true.
Proof. intros Hm. apply not_false_iff_true. rewrite <- macro_or_not. congruence. Qed.

Lemma punct_token hide p l out : pp hide l out -> pp hide (TPunct p :: l) (TPunct p :: out).
Proof. apply pp_token. discriminate. Qed.

Lemma progress n : forall hide, left_over (run h) hide < n -> forall m v l rest orest, length l < m -> P v l -> Forall deliverable l ->
  pp hide rest orest -> exists out, pp hide (l ++ rest) (out ++ orest) /\ Forall deliverable out /\ P v out.
Proof.
  induction n as [|n IHn]; [lia|]. intros hide Hn. induction m as [|m IHm]; [lia|]. intros v l rest orest Hm Hl Hd Hrest.
  assert (Hdc : forall t l, Forall deliverable (t :: l) -> Forall deliverable l) by (intros t l0 Hx; now inversion Hx).
  (* A call, replaced. *)
  assert (Hcall : forall id k va args l0, takes h id k va -> args <> [] -> (va = false -> length args = k \/ k = 0 /\ args = [[]]) -> (va = true -> k <= length args) ->
    Forall (P Piece) args -> length (comma_separated args) < m -> Forall (Forall deliverable) args -> P v l0 -> length l0 < m -> Forall deliverable l0 ->
    exists out, pp hide ((TIdent id :: lp :: comma_separated args ++ rp_ :: l0) ++ rest) (out ++ orest) /\ Forall deliverable out /\ P v out).
  { intros id k va args l0 Ht Hne Hx1 Hx2 Hpa Hlen Hda Hpl Hll Hdl.
    destruct (IHm v l0 rest orest Hll Hpl Hdl Hrest) as (o & O1 & O2 & O3).
    destruct (in_dec (list_eq_dec N.eq_dec) id hide) as [Hi|Hi].
    - (* The macro is excluded. *)
      assert (Hpi : P Items (comma_separated args)). { apply proper_list. revert Hpa. apply Forall_impl. intros a. apply proper_any. }
      destruct (IHm Items (comma_separated args) (rp_ :: l0 ++ rest) (rp_ :: o ++ orest) Hlen Hpi) as (oi & I1 & I2 & I3).
      { now apply deliverable_list. } { now apply punct_token. }
      exists (TNonRepl (TIdent id) :: lp :: oi ++ rp_ :: o). split; [|split].
      + cbn [app]. rewrite <- !app_assoc. cbn [app]. apply pp_excluded; [easy|]. now apply punct_token.
      + constructor; [easy|]. constructor; [easy|]. apply Forall_app. split; [easy|now constructor].
      + apply pr_token; try discriminate; [intros [u [Hu|Hu]]; inversion Hu|]. apply pr_group; [constructor|easy|easy].
    - destruct (takes_macro id k va Ht) as (b & Hmac & Hb & Hno & Hfill).
      assert (Hexp : forall t a, argument_for k args t = Some a ->
        exists e, pp hide a e /\ Forall deliverable e /\ P (match t with TVarArgs => Items | _ => Piece end) e).
      { intros t a Ha. assert (Hal : length a < m) by (pose proof (argument_length k args t a Ha); lia).
        assert (Hpd : P (match t with TVarArgs => Items | _ => Piece end) a /\ Forall deliverable a).
        { destruct t; try discriminate Ha; cbn [argument_for] in Ha.
          - apply nth_error_In in Ha. rewrite Forall_forall in Hpa, Hda. auto.
          - destruct (Nat.leb k (length args)); [|discriminate]. injection Ha as <-.
            rewrite <- (firstn_skipn k args) in Hpa, Hda. apply Forall_app in Hpa, Hda. destruct Hpa as [_ Hpa], Hda as [_ Hda].
            split; [|now apply deliverable_list]. apply proper_list. revert Hpa. apply Forall_impl. intros x. apply proper_any. }
        destruct Hpd as [Hp1 Hp2]. destruct (IHm _ a [] [] Hal Hp1 Hp2 (pp_end _ hide)) as (e & E1 & E2 & E3).
        rewrite !app_nil_r in E1. eauto. }
      destruct (fill (takes h) (pp hide) k args Hexp (S (length b)) Piece b (Nat.lt_succ_diag_r _) Hb) as (b' & B1 & B2 & B3).
      { apply Hfill; [|easy]. intros Ev. destruct (Hx1 Ev) as [?|[? _]]; auto. }
      destruct (IHn (id :: hide)) with (m := S (length b')) (v := Piece) (l := b') (rest := @nil token) (orest := @nil token) as (e & E1 & E2 & E3); auto.
      { pose proof (left_over_cons h id hide (macro_is _ _ Hmac) Hi). lia. } { apply pp_end. }
      rewrite !app_nil_r in E1. exists (e ++ o). split; [|split; [now apply Forall_app|apply proper_app; [now apply proper_any|easy]]].
      rewrite <- app_assoc. cbn [app]. rewrite <- app_assoc. cbn [app].
      eapply pp_function; [exact Hi|exact Hmac| | |exact B1|exact E1|exact O1].
      + split; [easy|]. split; [|reflexivity]. revert Hpa. apply Forall_impl. intros a. apply proper_argument.
      + intros ->. split; [auto|]. destruct (Hx1 eq_refl) as [E|[E1' E2']]; [now left|right]. split; [easy|]. exists []. easy. }
  inversion Hl; subst; cbn [length] in Hm; try rewrite app_length in Hm; cbn [length] in Hm.
  - exists []. split; [easy|]. split; constructor.
  - destruct (IHm v l0 rest orest ltac:(lia)) as (o & O1 & O2 & O3); [easy|eauto|easy|].
    assert (Hid : (exists id, t = TIdent id) \/ forall id, t <> TIdent id) by (destruct t; try (right; intros ? ?; discriminate); left; eauto).
    destruct Hid as [[id ->]|Hid].
    2:{ exists (t :: o). split; [cbn [app]; now apply pp_token|]. split; [constructor; [now inversion Hd|easy]|now apply pr_token]. }
    destruct (in_dec (list_eq_dec N.eq_dec) id hide) as [Hi|Hi].
    { exists (TNonRepl (TIdent id) :: o). split; [cbn [app]; now apply pp_excluded|]. split; [now constructor|].
      apply pr_token; try discriminate; [intros [u [Hu|Hu]]; inversion Hu|easy]. }
    destruct (macros h id) as [d|] eqn:Hmac.
    2:{ exists (TIdent id :: o). split; [cbn [app]; apply pp_name; [easy|intros d Hx; congruence|easy]|]. split; [now constructor|]. now apply pr_token. }
    destruct (not_takes_object id d Hmac) as [b ->]; [intros k va; eauto|]. destruct (object_proper id b Hmac) as [Hpb Hdb].
    destruct (IHn (id :: hide)) with (m := S (length b)) (v := Piece) (l := b) (rest := @nil token) (orest := @nil token) as (e & E1 & E2 & E3); auto.
    { pose proof (left_over_cons h id hide (macro_is _ _ Hmac) Hi). lia. } { apply pp_end. }
    rewrite !app_nil_r in E1. exists (e ++ o). split; [|split; [now apply Forall_app|apply proper_app; [now apply proper_any|easy]]].
    rewrite <- app_assoc. cbn [app]. eapply pp_object; eauto. now apply deliverable_no_va.
  - destruct (IHm Items l0 rest orest ltac:(lia)) as (o & O1 & O2 & O3); [easy|eauto|easy|].
    exists (comma :: o). split; [cbn [app]; now apply punct_token|]. split; [now constructor|now apply pr_comma].
  - exfalso. inversion Hd as [|? ? Hx _]. exact Hx.
  - exfalso. inversion Hd as [|? ? _ Hd']; subst. inversion Hd' as [|? ? Hx _]; subst.
    match goal with hp : parameter_token t |- _ => destruct hp as [-> | [i ->]]; exact Hx end.
  - assert (Hpo : exists p q, o = TPunct p /\ c = TPunct q).
    { match goal with hm : matching o c |- _ => destruct hm; do 2 eexists; split; reflexivity end. }
    destruct Hpo as (p & q & -> & ->). apply Hdc in Hd. apply Forall_app in Hd. destruct Hd as [Hd1 Hd2]. apply Hdc in Hd2.
    destruct (IHm v l0 rest orest ltac:(lia)) as (o & O1 & O2 & O3); [easy|easy|easy|].
    destruct (IHm Items inner (TPunct q :: l0 ++ rest) (TPunct q :: o ++ orest) ltac:(lia)) as (oi & I1 & I2 & I3); [easy|easy|now apply punct_token|].
    exists (TPunct p :: oi ++ TPunct q :: o). split; [|split].
    + cbn [app]. rewrite <- !app_assoc. cbn [app]. now apply punct_token.
    + constructor; [easy|]. apply Forall_app. split; [easy|now constructor].
    + now apply pr_group.
  - apply Hdc, Hdc in Hd. apply Forall_app in Hd. destruct Hd as [Hd1 Hd2]. apply Hdc in Hd2. apply deliverable_list in Hd1.
    eapply Hcall; eauto; try lia; discriminate.
  - apply Hdc, Hdc in Hd. apply Forall_app in Hd. destruct Hd as [Hd1 Hd2]. apply Hdc in Hd2. apply deliverable_list in Hd1.
    eapply Hcall; eauto; try lia; try discriminate.
    match goal with ha : Forall (P Item) args |- _ => clear - ha Hd1; induction ha as [|a args Ha Hargs IH]; constructor; inversion Hd1; subst; auto end.
    apply item_piece; [easy|now apply deliverable_no_va].
Qed.

Lemma proper_written_out l v : P v l -> written_out h l.
Proof. intros Hl. exact (proper_complete (takes h) (names_function h) fn_takes v l Hl). Qed.
Lemma proper_written_out_set : written_out_set h.
Proof.
  destruct Hs as (Hv & Hf & H1 & H2). split; [|split; [|now split]].
  - intros n b Hd. destruct (Hv n b Hd) as (Hp & _). eapply proper_written_out; exact Hp.
  - intros n ps b ids v Hd Hp. destruct (Hf n ps b Hd) as (ids' & v' & Hp' & Hb & _). destruct (parameter_list_det _ _ _ _ _ Hp Hp') as [<- <-].
    eapply proper_written_out; exact Hb.
Qed.
End S.
