(** With object-like macros only, expansion computes the rescanning relation
    of SpecRescan.v (in particular it terminates). *)
From Verif Require Import Base Utf Lex LexFloat Token MacroSet StrFacts LexFacts ExpandFacts ExpandInv TokenFacts
  SpecPaste PasteFacts SpecRescan PropPaste.
From Coq Require Import String List.
Local Open Scope list_scope.

(** Painting of the names being replaced. *)
Definition paint (names : list str) (t : token) : token :=
  match t with TIdent id => if str_mem id names then TNonRepl t else t | _ => t end.

Lemma paint_idem names t : paint names (paint names t) = paint names t.
Proof. destruct t; simpl; try easy. destruct (str_mem id names) eqn:E; simpl; [easy|]. now rewrite E. Qed.
Lemma paint_strip names t : strip_nr (paint names t) = strip_nr t.
Proof. destruct t; simpl; try easy. now destruct (str_mem id names). Qed.
Lemma map_paint_idem names l : map (paint names) (map (paint names) l) = map (paint names) l.
Proof. rewrite map_map. apply map_ext. intros t. apply paint_idem. Qed.
Lemma map_paint_strip names l : map strip_nr (map (paint names) l) = map strip_nr l.
Proof. rewrite map_map. apply map_ext. intros t. apply paint_strip. Qed.

Lemma set_insert_In x y s : In y (set_insert x s) <-> y = x \/ In y s.
Proof.
  unfold set_insert. destruct (str_mem x s) eqn:E; simpl; [|intuition].
  apply str_mem_In in E. split; [auto|]. intros [-> | Hy]; auto.
Qed.

Section S.
Context `{Unicode}.
Variable ms : macro_set.
Hypothesis Hobj : forall n, sm_get (fn_macros ms) n = None.

Definition stable (names : list str) (t : token) : Prop :=
  forall id, t = TIdent id -> In id names \/ sm_get (var_macros ms) id = None.
Definition normal (names : list str) (t : token) : Prop :=
  forall id, t = TIdent id -> ~ In id names /\ sm_get (var_macros ms) id = None.

Lemma paint_normal names t : stable names t -> normal names (paint names t).
Proof.
  intros Hs id E. destruct t; simpl in E; try discriminate. destruct (str_mem id0 names) eqn:Em; [discriminate|].
  inversion E; subst. apply str_mem_not_In in Em. destruct (Hs id eq_refl); [contradiction|easy].
Qed.

Lemma normal_stable names t : normal names t -> stable names t.
Proof. intros Hn id E. right. now apply Hn. Qed.

Lemma scan_stable rec names done : forall acc l, Forall (stable names) done ->
  scan ms rec names acc (done ++ l) = scan ms rec names (rev (map (paint names) done) ++ acc) l.
Proof.
  induction done as [|t done IH]; intros acc l Hd; [easy|]. inversion Hd as [|? ? Ht Hd']; subst.
  assert (Hs : scan ms rec names (paint names t :: acc) (done ++ l) =
               scan ms rec names (rev (map (paint names) (t :: done)) ++ acc) l).
  { rewrite IH by easy. simpl. now rewrite <- app_assoc. }
  simpl app. simpl scan. destruct t as [u|i| |p|id|s|lt s|s|c|]; try exact Hs.
  simpl paint in Hs. destruct (str_mem id names) eqn:Em; [exact Hs|].
  rewrite Hobj. apply str_mem_not_In in Em. destruct (Ht id eq_refl) as [Hin|Hv]; [contradiction|].
  rewrite Hv. destruct (peek_is _ _); exact Hs.
Qed.

(** Number of macros that can still be replaced. *)
Definition avail (names : list str) : nat :=
  length (filter (fun e => negb (str_mem (fst e) names)) (var_macros ms)).

Lemma avail_decreases names id b : sm_get (var_macros ms) id = Some b -> ~ In id names ->
  avail (set_insert id names) < avail names.
Proof.
  intros Hg Hn. unfold avail.
  assert (Hle : forall l : smap (list str), length (filter (fun e => negb (str_mem (fst e) (set_insert id names))) l) <=
                length (filter (fun e => negb (str_mem (fst e) names)) l)).
  { induction l as [|e l IH]; simpl; [lia|].
    destruct (str_mem (fst e) names) eqn:E1.
    - assert (E2 : str_mem (fst e) (set_insert id names) = true).
      { apply str_mem_In. apply set_insert_In. right. now apply str_mem_In. }
      rewrite E2. simpl. exact IH.
    - destruct (str_mem (fst e) (set_insert id names)); simpl; lia. }
  revert Hg. generalize (var_macros ms). induction s as [|[k v] s IH]; simpl; [discriminate|].
  destruct (str_eqb_spec id k) as [->|Hne]; intros Hg.
  - assert (E1 : str_mem k names = false) by now apply str_mem_not_In.
    assert (E2 : str_mem k (set_insert k names) = true). { apply str_mem_In. apply set_insert_In. now left. }
    rewrite E1, E2. simpl. specialize (Hle s). lia.
  - specialize (IH Hg). destruct (str_mem k names) eqn:E1.
    + assert (E2 : str_mem k (set_insert id names) = true).
      { apply str_mem_In. apply set_insert_In. right. now apply str_mem_In. }
      rewrite E2. simpl. exact IH.
    + destruct (str_mem k (set_insert id names)); simpl; lia.
Qed.

(** The macros as the specification sees them. *)
Definition obj_macro (id : str) : option (list token) := omap (map from_str) (sm_get (var_macros ms) id).

(** Equal up to painting. *)
Definition same (a b : res xerr (list token)) : Prop := rmap (map strip_nr) a = rmap (map strip_nr) b.

Definition wf (l : list token) : Prop := Forall (thru idents_ok) l.

Lemma wf_app a b : wf (a ++ b) <-> wf a /\ wf b.
Proof. apply Forall_app. Qed.

Definition agree (names hide : list str) : Prop := forall id, id <> [] -> (In id names <-> In id hide).

Lemma agree_insert id names hide : agree names hide -> agree (set_insert id names) (id :: hide).
Proof. intros Ha x Hx. rewrite set_insert_In. simpl. rewrite (Ha x Hx). intuition. Qed.

Lemma from_str_wf b : wf (map from_str b).
Proof.
  apply Forall_forall. intros t Ht. apply in_map_iff in Ht. destruct Ht as (s & <- & _).
  unfold thru. rewrite strip_nr_same by apply from_str_no_nr. apply idents_ok_spell.
Qed.

Lemma concat_wf l o : wf l -> expand_concat l = ROk o -> wf (remove_placemarkers o).
Proof.
  intros Hl Eo.
  pose proof (concat_loop_P True (thru idents_ok)
    (fun a b => paste_closed_concat idents_ok a b (ec_paste _ idents_ok_closed)) l) as Hc.
  assert (Hin : Forall (orplace (thru idents_ok)) l). { revert Hl. apply Forall_impl. now left. }
  specialize (Hc Hin None [] (Forall_nil _)). unfold expand_concat in Eo. rewrite Eo in Hc. simpl in Hc.
  apply remove_placemarkers_P. apply Hc. discriminate.
Qed.

Lemma expand_concat_no_place l o : Forall ordinary_or_comment l -> Forall (fun t => strip_nr t <> TPlacemarker) l ->
  expand_concat l = ROk o -> Forall (fun t => strip_nr t <> TPlacemarker) o.
Proof.
  intros Hl Hp Eo. apply expand_concat_iff in Eo; [|easy]. clear Hl.
  assert (Hchain : forall t l r, chain token_concat t l r -> forall v rest, r = ROk (v, rest) ->
    strip_nr t <> TPlacemarker -> Forall (fun t => strip_nr t <> TPlacemarker) l ->
    strip_nr v <> TPlacemarker /\ Forall (fun t => strip_nr t <> TPlacemarker) rest).
  { induction 1 as [t l0 Hn|t cs l0 u l' v0 r Hcs Hop Hpp Hch IH|t cs l0 u l' e Hcs Hop Hpp|t cs l0 u l' Hcs Hop Hpp|t cs cs' Hcs Hcs'];
      intros v rest Er Ht Hl; try discriminate.
    - inversion Er; subst. auto.
    - apply Forall_app in Hl. destruct Hl as [_ Hl]. inversion Hl as [|? ? _ Hl']; subst.
      pose proof (concat_not_place _ _ _ Ht Hpp) as Hv. apply (IH v rest); auto.
      destruct Hop as [ds q l2 Hds Hq Hqh|l2]; [|easy].
      apply Forall_app in Hl'. destruct Hl' as [_ Hl']. now inversion Hl'. }
  remember (ROk o) as r eqn:Er. revert o Er.
  induction Eo as [|c l r Hc Hpp IH|cs l Hcs|t l v rest r Ht Hth Hch Hpp IH|t l e Ht Hth Hch|t l Ht Hth Hch];
    intros o Er; try discriminate.
  - inversion Er; subst. constructor.
  - destruct r as [o'|e| |]; try discriminate. inversion Er; subst. inversion Hp; subst. constructor; [easy|]. now apply IH.
  - destruct r as [o'|e| |]; try discriminate. inversion Er; subst. inversion Hp; subst.
    destruct (Hchain _ _ _ Hch v rest eq_refl) as [Hv Hrest]; auto.
Qed.

Lemma not_place_remove l : Forall (fun t => strip_nr t <> TPlacemarker) l -> remove_placemarkers l = l.
Proof.
  intros Hl. apply remove_placemarkers_id. revert Hl. apply Forall_impl. intros t Ht ->. now apply Ht.
Qed.

Lemma from_str_not_place b : Forall (fun t => strip_nr t <> TPlacemarker) (map from_str b).
Proof.
  apply Forall_forall. intros t Ht. apply in_map_iff in Ht. destruct Ht as (s & <- & _).
  rewrite strip_nr_same by apply from_str_no_nr. apply not_place_spell.
Qed.

(** The replacement list of a macro in the model and in the specification. *)
Lemma replacement_model b : exists p, replacement token_concat (map from_str b) p /\ p <> RFuel /\
  (forall p', replacement token_concat (map from_str b) p' -> p' = p) /\
  (forall rec names id, expand_var_macro_body rec names id (tokenize [] b) =
     (o <- p ;; rec (set_insert id names) o)) /\
  (forall o, p = ROk o -> wf o).
Proof.
  rewrite tokenize_nil. unfold expand_var_macro_body.
  destruct (contains_var_args (map from_str b)) eqn:Ec.
  - assert (Hin : In TVarArgs (map from_str b)).
    { apply existsb_exists in Ec. destruct Ec as (t & Ht & Hv). destruct t; try discriminate. exact Ht. }
    exists (RErr NonVariadicVarArgs). repeat split; try discriminate.
    + now constructor.
    + intros p' Hp'. inversion Hp'; [easy|contradiction].
  - apply contains_var_args_In in Ec.
    assert (Hord : Forall ordinary_or_comment (map from_str b)).
    { apply body_ordinary. intros Hin. apply Ec. apply in_map_iff. exists (st "__VA_ARGS__").
      split; [now apply from_str_var_args|easy]. }
    exists (expand_concat (map from_str b)).
    assert (Hp : pasted token_concat (map from_str b) (expand_concat (map from_str b))).
    { now apply expand_concat_iff. }
    repeat split.
    + now apply rp_body.
    + destruct (pasted_total (S (length (map from_str b))) (map from_str b)) as (r0 & Hr0 & Hne); auto.
      apply expand_concat_iff in Hr0; [|easy]. congruence.
    + intros p' Hp'. inversion Hp'; subst; [contradiction|]. symmetry. now apply expand_concat_iff.
    + intros rec names id. unfold concat_and_rescan.
      destruct (expand_concat (map from_str b)) as [o|e| |] eqn:Eo; try easy. simpl.
      rewrite not_place_remove; [easy|]. eapply expand_concat_no_place; eauto. apply from_str_not_place.
    + intros o Eo. rewrite <- (not_place_remove o).
      * eapply concat_wf; eauto. apply from_str_wf.
      * eapply expand_concat_no_place; eauto. apply from_str_not_place.
Qed.

Lemma same_refl a : same a a. Proof. easy. Qed.

Lemma rmap_assoc {E A B C} (f : A -> B) (g : B -> C) (r : res E A) : rmap g (rmap f r) = rmap (fun a => g (f a)) r.
Proof. now destruct r. Qed.

(** Main lemma. *)
Lemma obj_main : forall d names hide, avail names <= d -> agree names hide -> forall l, wf l ->
  exists r F, rescan token_concat obj_macro hide l r /\ r <> RFuel /\
    forall done f, Forall (stable names) done -> F <= f ->
      same (expand_macro_body ms f names (done ++ l)) (rmap (app done) r) /\
      (forall out, expand_macro_body ms f names (done ++ l) = ROk out -> Forall (normal names) out).
Proof.
  induction d as [d IHd] using (well_founded_induction lt_wf). intros names hide Hav Hag.
  induction l as [|t l IHl]; intros Hl.
  - exists (ROk []), 1. split; [constructor|]. split; [discriminate|]. intros done f Hd Hf.
    destruct f as [|f]; [lia|]. simpl. rewrite app_nil_r.
    pose proof (scan_stable (expand_macro_body ms f) names done [] [] Hd) as Hs. rewrite !app_nil_r in Hs. rewrite Hs.
    simpl. rewrite rev_involutive. split.
    + unfold same. simpl. now rewrite map_paint_strip.
    + intros out E. inversion E; subst. apply Forall_forall. intros t Ht. apply in_map_iff in Ht.
      destruct Ht as (u & <- & Hu). apply paint_normal. rewrite Forall_forall in Hd. auto.
  - inversion Hl as [|? ? Ht Hl']; subst. destruct (IHl Hl') as (r & F & Hr & Hne & HF).
    assert (Hkeep : stable names t -> (forall id, t = TIdent id -> In id hide \/ obj_macro id = None) ->
      exists r F, rescan token_concat obj_macro hide (t :: l) r /\ r <> RFuel /\
        forall done f, Forall (stable names) done -> F <= f ->
          same (expand_macro_body ms f names (done ++ t :: l)) (rmap (app done) r) /\
          (forall out, expand_macro_body ms f names (done ++ t :: l) = ROk out -> Forall (normal names) out)).
    { intros Hst Hk. exists (rmap (cons t) r), F. split; [now constructor|]. split; [now destruct r|].
      intros done f Hd Hf. change (t :: l) with ([t] ++ l). rewrite app_assoc.
      destruct (HF (done ++ [t]) f) as [H1 H2]; [|easy|].
      { apply Forall_app. split; auto. }
      split; [|exact H2]. unfold same in *. rewrite H1. rewrite !rmap_assoc. destruct r; simpl; try easy.
      now rewrite <- app_assoc. }
    destruct t as [u|i| |p|id|s|lt s|s|c|]; try (apply Hkeep; intros x Ex; discriminate).
    assert (Hid : id <> []). { intros ->. discriminate Ht. }
    destruct (in_dec (list_eq_dec N.eq_dec) id names) as [Hin|Hnin].
    { apply Hkeep; intros x Ex; inversion Ex; subst; left; [easy|]. now apply (Hag x Hid). }
    destruct (sm_get (var_macros ms) id) as [body|] eqn:Eg.
    2:{ apply Hkeep; intros x Ex; inversion Ex; subst; right; [easy|]. unfold obj_macro. now rewrite Eg. }
    clear Hkeep.
    assert (Hnh : ~ In id hide). { intros Hx. apply Hnin. now apply (Hag id Hid). }
    assert (Hm : obj_macro id = Some (map from_str body)). { unfold obj_macro. now rewrite Eg. }
    destruct (replacement_model body) as (p & Hp & Hpne & Hpu & Hmod & Hpwf).
    assert (Hstep : forall f done, Forall (stable names) done ->
      expand_macro_body ms (S f) names (done ++ TIdent id :: l) =
      (e <- (o <- p ;; expand_macro_body ms f (set_insert id names) o) ;;
       expand_macro_body ms f names ((map (paint names) done ++ e) ++ l))).
    { intros f done Hd. simpl. rewrite scan_stable by easy. rewrite app_nil_r. simpl.
      assert (Em : str_mem id names = false) by now apply str_mem_not_In.
      rewrite Em, Hobj, Eg, Hmod. rewrite rev_involutive.
      destruct (peek_is _ l); destruct (rbind p _); simpl; try easy; now rewrite <- app_assoc. }
    assert (Hfail : forall q : res xerr (list token), ~ succeeded q -> q <> RFuel ->
      rescan token_concat obj_macro hide (TIdent id :: l) (failed q) ->
      (exists F, forall f, F <= f -> same (o <- p ;; expand_macro_body ms f (set_insert id names) o) q) ->
      exists r F, rescan token_concat obj_macro hide (TIdent id :: l) r /\ r <> RFuel /\
        forall done f, Forall (stable names) done -> F <= f ->
          same (expand_macro_body ms f names (done ++ TIdent id :: l)) (rmap (app done) r) /\
          (forall out, expand_macro_body ms f names (done ++ TIdent id :: l) = ROk out -> Forall (normal names) out)).
    { intros q Hq Hqf Hrq (F' & HF'). exists (failed q), (S F'). split; [easy|].
      split; [destruct q; simpl; try discriminate; [exfalso; apply Hq; now eexists|easy]|].
      intros done f Hd Hf. destruct f as [|f]; [lia|]. rewrite Hstep by easy.
      specialize (HF' f ltac:(lia)). unfold same in *.
      destruct (o <- p ;; expand_macro_body ms f (set_insert id names) o) as [a|e| |], q; simpl in *; try congruence;
        (split; [congruence|discriminate]) || (exfalso; apply Hq; now eexists). }
    destruct p as [b|e| |]; try easy.
    2:{ apply (Hfail (RErr e)); [now intros [? ?]|discriminate| |exists 0; intros; easy].
        eapply rs_bad_body; eauto. now intros [? ?]. }
    2:{ apply (Hfail RPanic); [now intros [? ?]|discriminate| |exists 0; intros; easy].
        eapply (rs_bad_body _ _ hide id _ RPanic); eauto. now intros [? ?]. }
    pose proof (avail_decreases _ _ _ Eg Hnin) as Hdec.
    destruct (IHd (avail (set_insert id names)) ltac:(lia) (set_insert id names) (id :: hide) (le_n _)
      (agree_insert _ _ _ Hag) b (Hpwf b eq_refl)) as (r1 & F1 & Hr1 & Hne1 & HF1).
    destruct r1 as [e1|e1| |]; try easy.
    2:{ apply (Hfail (RErr e1)); [now intros [? ?]|discriminate|eapply rs_bad_replacement; eauto; now intros [? ?]|].
        exists F1. intros f Hf. simpl. apply (HF1 [] f); [constructor|easy]. }
    2:{ apply (Hfail RPanic); [now intros [? ?]|discriminate|eapply (rs_bad_replacement _ _ hide id _ _ RPanic); eauto; now intros [? ?]|].
        exists F1. intros f Hf. simpl. apply (HF1 [] f); [constructor|easy]. }
    clear Hfail. exists (rmap (app e1) r), (S (max F F1)). split; [eapply rs_replace; eauto|]. split; [now destruct r|].
    intros done f Hd Hf. destruct f as [|f]; [lia|]. rewrite Hstep by easy. simpl.
    destruct (HF1 [] f ltac:(constructor) ltac:(lia)) as [Hs1 Hn1]. simpl in Hs1, Hn1. unfold same in Hs1.
    destruct (expand_macro_body ms f (set_insert id names) b) as [e| | |]; simpl in Hs1; try discriminate.
    simpl. inversion Hs1 as [He]. specialize (Hn1 e eq_refl).
    destruct (HF (map (paint names) done ++ e) f) as [H1 H2]; [|lia|].
    { apply Forall_app. split.
      - apply Forall_forall. intros t Ht'. apply in_map_iff in Ht'. destruct Ht' as (u & <- & Hu).
        apply normal_stable, paint_normal. rewrite Forall_forall in Hd. auto.
      - revert Hn1. apply Forall_impl. intros t Ht' x Ex. right. now apply Ht'. }
    split; [|exact H2]. unfold same. rewrite H1. rewrite !rmap_assoc. destruct r as [o| | |]; simpl; try easy.
    f_equal. rewrite !map_app, map_paint_strip, He. now rewrite <- app_assoc.
Qed.

(** Determinism of the specification on replacement lists used above. *)
Lemma rescan_det hide l r : rescan token_concat obj_macro hide l r -> forall r', rescan token_concat obj_macro hide l r' -> r' = r.
Proof.
  assert (Hrp : forall id body, obj_macro id = Some body -> forall p p', replacement token_concat body p -> replacement token_concat body p' -> p' = p).
  { intros id body Hm p p' H1 H2. unfold obj_macro in Hm. destruct (sm_get (var_macros ms) id) as [b|]; [|discriminate].
    inversion Hm; subst. destruct (replacement_model b) as (q & _ & _ & Hq & _). rewrite (Hq _ H1). now apply Hq. }
  induction 1 as [hide|hide t l r Hk Hr IH|hide id body b e l r Hn Hm Hp Hr1 IH1 Hr IH|hide id body p l Hn Hm Hp Hs
    |hide id body b p l Hn Hm Hp Hr1 IH1 Hs]; intros r' Hr'; inversion Hr'; subst; clear Hr';
    repeat match goal with
    | Hx : forall x, TIdent ?i = TIdent x -> _ \/ _ |- _ => destruct (Hx i eq_refl); clear Hx
    | H1 : obj_macro ?i = Some ?x, H2 : obj_macro ?i = Some ?y |- _ =>
      assert (y = x) by congruence; subst; clear H2
    | Hm : obj_macro ?i = Some ?x, H1 : replacement _ ?x ?p, H2 : replacement _ ?x ?q |- _ =>
      let E := fresh in assert (E : q = p) by exact (Hrp _ _ Hm _ _ H1 H2);
      try (inversion E; subst; clear E); subst; clear H2
    | IH : forall r', rescan _ _ ?h ?l r' -> r' = _, Hx : rescan _ _ ?h ?l _ |- _ =>
      apply IH in Hx; try (inversion Hx; subst; clear Hx); subst
    | Hs : ~ succeeded (ROk _) |- _ => exfalso; apply Hs; now eexists
    end; try congruence; try contradiction; try reflexivity.
Qed.
End S.
