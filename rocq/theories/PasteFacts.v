(** [expand_concat] computes the pasting of SpecPaste.v. *)
From Verif Require Import Base Utf Lex LexFloat Token MacroSet StrFacts LexFacts SpecPaste TokenFacts.
From Coq Require Import String List.
Local Open Scope list_scope.

Lemma comment_spec t : is_comment_token t = true <-> comment t.
Proof.
  unfold comment. destruct t; simpl; split; try discriminate; eauto; intros [u E]; inversion E; easy.
Qed.

Lemma comment_dec t : comment t \/ ~ comment t.
Proof. rewrite <- comment_spec. destruct (is_comment_token t); auto. Qed.

Lemma not_comment_false t : ~ comment t -> is_comment_token t = false.
Proof. rewrite <- comment_spec. destruct (is_comment_token t); congruence. Qed.

Lemma is_hashhash t : is_punct (st "##") t = true <-> t = hashhash.
Proof.
  unfold is_punct, hashhash. destruct t; try (split; discriminate). rewrite str_eqb_eq. split; congruence.
Qed.

Lemma is_hashhash_false t : t <> hashhash -> is_punct (st "##") t = false.
Proof. rewrite <- is_hashhash. destruct (is_punct _ t); congruence. Qed.

Lemma pop_lhs_comments cs acc : Forall comment cs -> pop_lhs (cs ++ acc) = pop_lhs acc.
Proof. induction 1 as [|c cs [s ->] Hcs IH]; simpl; auto. Qed.

Lemma pop_lhs_token t acc : ~ comment t -> pop_lhs (t :: acc) = Some (t, acc).
Proof. intros Ht. destruct t; try easy. destruct Ht. now exists s. Qed.

Definition plain_text (l : list token) : Prop := Forall (fun t => is_arg_token t = false) l.

Lemma peek_arg l : plain_text l -> peek_is is_arg_token l = false.
Proof. now destruct 1. Qed.

Lemma comment_not_arg t : comment t -> is_arg_token t = false.
Proof. intros [s ->]. easy. Qed.

Lemma comments_plain cs : Forall comment cs -> plain_text cs.
Proof. apply Forall_impl. apply comment_not_arg. Qed.

Section S.
Context `{Unicode}.

Lemma loop_push acc t l : t <> hashhash -> concat_loop None acc (t :: l) = concat_loop None (t :: acc) l.
Proof. intros Ht. simpl. now rewrite (is_hashhash_false _ Ht). Qed.

Lemma comment_not_hash t : comment t -> t <> hashhash.
Proof. intros [s ->]. discriminate. Qed.

Lemma loop_comments acc cs l : Forall comment cs ->
  concat_loop None acc (cs ++ l) = concat_loop None (rev cs ++ acc) l.
Proof.
  intros Hcs. revert acc. induction Hcs as [|c cs Hc Hcs IH]; intros acc; [easy|].
  simpl app. rewrite loop_push by now apply comment_not_hash. rewrite IH. simpl. now rewrite <- app_assoc.
Qed.

Lemma pending_comments p acc cs l : Forall comment cs ->
  concat_loop (Some p) acc (cs ++ l) = concat_loop (Some p) acc l.
Proof.
  induction 1 as [|c cs Hc Hcs IH]; [easy|]. simpl. apply comment_spec in Hc. now rewrite Hc.
Qed.

(** A [##] after the operand [t]. *)
Lemma loop_paste t cs acc0 l u l' : Forall comment cs -> ~ comment t -> is_arg_token t = false -> plain_text l ->
  operand l u l' ->
  concat_loop None (t :: acc0) (cs ++ hashhash :: l) = (v <- token_concat t u ;; concat_loop None (v :: acc0) l').
Proof.
  intros Hcs Ht Ha Hl Hop. rewrite loop_comments by easy.
  assert (Hpk : peek_is is_arg_token (rev cs ++ t :: acc0) = false).
  { destruct (rev cs) as [|c cs'] eqn:E; [easy|]. simpl. apply comment_not_arg.
    apply Forall_rev in Hcs. rewrite E in Hcs. now inversion Hcs. }
  simpl. rewrite Hpk, (peek_arg _ Hl). simpl.
  rewrite pop_lhs_comments by now apply Forall_rev. rewrite pop_lhs_token by easy.
  destruct Hop as [ds r l Hds Hr Hrh|l].
  - assert (Hno : peek_is (is_punct (st "##")) (ds ++ r :: l) = false).
    { destruct Hds as [|d ds Hd Hds]; simpl; [now apply is_hashhash_false, Hrh|].
      now apply is_hashhash_false, comment_not_hash. }
    rewrite Hno, pending_comments by easy. simpl. now rewrite (not_comment_false _ Hr).
  - easy.
Qed.

Lemma operand_plain l u l' : operand l u l' -> plain_text l -> is_arg_token u = false /\ plain_text l' /\ ~ comment u.
Proof.
  intros Hop Hl. destruct Hop as [cs r l Hcs Hr _|l].
  - apply Forall_app in Hl. destruct Hl as [_ Hl]. now inversion Hl.
  - repeat split; auto. intros [s E]. discriminate.
Qed.

(** Pasting does not create parameters or comments. *)
Lemma token_concat_result a b r : token_concat a b = ROk r ->
  is_arg_token a = false -> ~ comment a -> is_arg_token b = false -> ~ comment b ->
  is_arg_token (strip_nr a) = false -> ~ comment (strip_nr a) -> is_arg_token (strip_nr b) = false -> ~ comment (strip_nr b) ->
  is_arg_token r = false /\ ~ comment r /\ is_arg_token (strip_nr r) = false /\ ~ comment (strip_nr r).
Proof.
  intros E _ _ _ _ Ha1 Ha2 Hb1 Hb2. unfold token_concat in E.
  set (Q := fun t => is_arg_token t = false /\ ~ comment t /\ is_arg_token (strip_nr t) = false /\ ~ comment (strip_nr t)).
  apply (concat_stripped_cases Q (strip_nr a) (strip_nr b) r); auto; unfold Q; rewrite ?strip_nr_idem; auto;
    intros; simpl; repeat split; auto; intros [? ?]; discriminate.
Qed.

(** Ordinary operands. *)
Definition ordinary (t : token) : Prop := is_arg_token (strip_nr t) = false /\ ~ comment (strip_nr t).
Definition ordinary_or_comment (t : token) : Prop := is_arg_token (strip_nr t) = false /\ (comment (strip_nr t) -> comment t).

Lemma ordinary_top t : ordinary t -> is_arg_token t = false /\ ~ comment t.
Proof. intros [H1 H2]. destruct t; try easy. split; [easy|]. intros [s E]. discriminate. Qed.

Lemma ooc_plain l : Forall ordinary_or_comment l -> plain_text l.
Proof. apply Forall_impl. intros t [Ht _]. destruct t; easy. Qed.

Lemma ooc_ordinary t : ordinary_or_comment t -> ~ comment t -> ordinary t.
Proof. intros [H1 H2] Hn. split; auto. Qed.

Lemma concat_ordinary a b r : token_concat a b = ROk r -> ordinary a -> ordinary b -> ordinary r.
Proof.
  intros E Ha Hb. pose proof (ordinary_top _ Ha) as [? ?]. pose proof (ordinary_top _ Hb) as [? ?].
  destruct Ha, Hb. apply token_concat_result in E; auto. split; apply E.
Qed.

Lemma operand_ordinary l u l' : operand l u l' -> Forall ordinary_or_comment l ->
  ordinary u /\ Forall ordinary_or_comment l'.
Proof.
  intros Hop Hl. destruct Hop as [cs r l Hcs Hr _|l].
  - apply Forall_app in Hl. destruct Hl as [_ Hl]. inversion Hl; subst. split; [now apply ooc_ordinary|easy].
  - split; [|easy]. split; [easy|]. intros [s E]. discriminate.
Qed.

Lemma chain_sound t l r : chain token_concat t l r -> ordinary t -> Forall ordinary_or_comment l -> forall acc0,
  concat_loop None (t :: acc0) l =
  match r with
  | ROk (v, rest) => concat_loop None (v :: acc0) rest
  | RErr e => RErr e
  | RPanic => RPanic
  | RFuel => RFuel
  end.
Proof.
  assert (Hd : forall cs l0 , Forall ordinary_or_comment (cs ++ hashhash :: l0) -> Forall ordinary_or_comment l0).
  { intros cs l0 HF. apply Forall_app in HF. destruct HF as [_ HF]. now inversion HF. }
  induction 1 as [t l Hn|t cs l u l' v r Hcs Hop Hp Hch IH|t cs l u l' e Hcs Hop Hp|t cs l u l' Hcs Hop Hp|t cs cs' Hcs Hcs'];
    intros Ht Hl acc0; pose proof (ordinary_top _ Ht) as [Ht1 Ht2].
  - easy.
  - apply Hd in Hl. rewrite (loop_paste t cs acc0 l u l') by (auto using ooc_plain). rewrite Hp. simpl.
    destruct (operand_ordinary _ _ _ Hop Hl) as [Hu Hl']. apply IH; [|easy]. eapply concat_ordinary; eauto.
  - apply Hd in Hl. rewrite (loop_paste t cs acc0 l u l') by (auto using ooc_plain). now rewrite Hp.
  - apply Hd in Hl. rewrite (loop_paste t cs acc0 l u l') by (auto using ooc_plain). now rewrite Hp.
  - rewrite loop_comments by easy.
    assert (Hpk : peek_is is_arg_token (rev cs ++ t :: acc0) = false).
    { destruct (rev cs) as [|c cs2] eqn:E; [easy|]. simpl. apply comment_not_arg.
      apply Forall_rev in Hcs. rewrite E in Hcs. now inversion Hcs. }
    simpl. rewrite Hpk, (peek_arg cs') by now apply comments_plain. simpl.
    rewrite pop_lhs_comments by now apply Forall_rev. rewrite pop_lhs_token by easy.
    assert (Hno : peek_is (is_punct (st "##")) cs' = false).
    { destruct Hcs' as [|d ds Hd2 Hds]; simpl; [easy|]. now apply is_hashhash_false, comment_not_hash. }
    rewrite Hno. rewrite <- (app_nil_r cs'). now rewrite pending_comments.
Qed.

Lemma chain_rest t l v rest : chain token_concat t l (ROk (v, rest)) ->
  ordinary t -> Forall ordinary_or_comment l ->
  ~ continues rest /\ Forall ordinary_or_comment rest /\ length rest <= length l.
Proof.
  remember (ROk (v, rest)) as r eqn:Er. intros Hch. revert v rest Er.
  induction Hch as [t l Hn|t cs l u l' v0 r Hcs Hop Hp Hch IH|t cs l u l' e Hcs Hop Hp|t cs l u l' Hcs Hop Hp|t cs cs' Hcs Hcs'];
    intros v rest Er Ht Hl; try discriminate.
  - inversion Er; subst. auto.
  - apply Forall_app in Hl. destruct Hl as [_ Hl]. inversion Hl; subst.
    destruct (operand_ordinary _ _ _ Hop H3) as [Hu Hl'].
    destruct (IH v rest eq_refl) as (H4 & H5 & H6); auto. { eapply concat_ordinary; eauto. }
    repeat split; auto. rewrite app_length. simpl. destruct Hop; simpl in *; rewrite ?app_length in *; simpl in *; lia.
Qed.

Lemma pasted_sound l r : pasted token_concat l r -> Forall ordinary_or_comment l -> forall acc,
  Forall comment acc \/ ~ continues l ->
  concat_loop None acc l = rmap (fun o => rev acc ++ o) r.
Proof.
  induction 1 as [|c l r Hc Hp IH|cs l Hcs|t l v rest r Ht Hth Hch Hp IH|t l e Ht Hth Hch|t l Ht Hth Hch]; intros Hl acc Hacc.
  - simpl. now rewrite app_nil_r.
  - inversion Hl; subst. rewrite loop_push by now apply comment_not_hash. rewrite IH; auto.
    + destruct r; simpl; try easy. f_equal. now rewrite <- app_assoc.
    + destruct Hacc as [Ha|Hn]; [left; now constructor|]. right. intros (cs & l' & Hcs & ->).
      apply Hn. exists (c :: cs), l'. split; [now constructor|easy].
  - destruct Hacc as [Ha|Hn].
    2:{ exfalso. apply Hn. now exists cs, l. }
    rewrite loop_comments by easy.
    apply Forall_app in Hl. destruct Hl as [_ Hl]. inversion Hl; subst.
    assert (Hall : Forall comment (rev cs ++ acc)). { apply Forall_app. split; [now apply Forall_rev|easy]. }
    simpl. rewrite (peek_arg (rev cs ++ acc)) by now apply comments_plain.
    rewrite (peek_arg l) by now apply ooc_plain. simpl.
    rewrite <- (app_nil_r (rev cs ++ acc)), pop_lhs_comments by easy. easy.
  - inversion Hl; subst. rewrite loop_push by easy.
    assert (Ho : ordinary t) by now apply ooc_ordinary.
    rewrite (chain_sound _ _ _ Hch) by easy.
    destruct (chain_rest _ _ _ _ Hch) as (Hnc & Hr & _); auto.
    rewrite IH; auto. destruct r; simpl; try easy. f_equal. now rewrite <- app_assoc.
  - inversion Hl; subst. rewrite loop_push by easy.
    rewrite (chain_sound _ _ _ Hch); auto. now apply ooc_ordinary.
  - inversion Hl; subst. rewrite loop_push by easy.
    rewrite (chain_sound _ _ _ Hch); auto. now apply ooc_ordinary.
Qed.

(** ** Totality of the specification *)
Lemma split_comments l : exists cs l', l = cs ++ l' /\ Forall comment cs /\
  match l' with [] => True | t :: _ => ~ comment t end.
Proof.
  induction l as [|t l (cs & l' & -> & Hcs & Hl')]; [now exists [], []|].
  destruct (comment_dec t) as [Ht|Ht].
  - exists (t :: cs), l'. repeat split; auto.
  - exists [], (t :: cs ++ l'). repeat split; auto.
Qed.

Lemma comments_unique cs l' cs2 l2 : cs ++ l' = cs2 ++ l2 -> Forall comment cs -> Forall comment cs2 ->
  match l' with [] => True | t :: _ => ~ comment t end -> match l2 with [] => True | t :: _ => ~ comment t end ->
  cs = cs2 /\ l' = l2.
Proof.
  revert cs2. induction cs as [|c cs IH]; intros [|c2 cs2] E H1 H2 Hn1 Hn2; simpl in E.
  - easy.
  - subst l'. inversion H2; subst. contradiction.
  - subst l2. inversion H1; subst. contradiction.
  - inversion E; subst. inversion H1; inversion H2; subst. destruct (IH cs2 ltac:(assumption)); auto. subst. auto.
Qed.

Lemma hash_not_comment : ~ comment hashhash.
Proof. intros [s E]. discriminate. Qed.

Lemma continues_dec l : continues l \/ ~ continues l.
Proof.
  destruct (split_comments l) as (cs & l' & -> & Hcs & Hl').
  destruct l' as [|t l'].
  - right. intros (cs2 & l2 & Hcs2 & E).
    destruct (comments_unique _ _ _ _ E) as [_ E2]; auto; [apply hash_not_comment|]. discriminate.
  - destruct (is_punct (st "##") t) eqn:Et.
    + left. apply is_hashhash in Et. subst. now exists cs, l'.
    + right. intros (cs2 & l2 & Hcs2 & E).
      destruct (comments_unique _ _ _ _ E) as [_ E2]; auto; [apply hash_not_comment|]. inversion E2; subst. discriminate.
Qed.

Lemma operand_dec l : (exists u l', operand l u l' /\ length l' <= length l) \/ Forall comment l.
Proof.
  destruct l as [|t l]; [now right|]. destruct (is_punct (st "##") t) eqn:Et.
  - apply is_hashhash in Et. subst. left. exists TPlacemarker, (hashhash :: l). split; [constructor|easy].
  - destruct (split_comments (t :: l)) as (cs & l' & E & Hcs & Hl'). destruct l' as [|r l'].
    + right. rewrite E, app_nil_r. easy.
    + left. rewrite E. exists r, l'. split.
      * constructor; auto. intros -> ->. simpl in E. inversion E; subst. discriminate.
      * rewrite app_length. simpl. lia.
Qed.

Lemma token_concat_total a b : token_concat a b <> RFuel.
Proof.
  unfold token_concat, concat_stripped. generalize (strip_nr a) (strip_nr b). intros x y E.
  destruct x, y; simpl in E;
    repeat match type of E with context [match ?x with _ => _ end] => destruct x end; discriminate.
Qed.

Lemma chain_total : forall n t l, length l < n -> exists r, chain token_concat t l r /\ r <> RFuel.
Proof.
  induction n as [|n IH]; intros t l Hn; [lia|].
  destruct (continues_dec l) as [(cs & l' & Hcs & ->)|Hc].
  2:{ exists (ROk (t, l)). split; [now constructor|discriminate]. }
  destruct (operand_dec l') as [(u & l2 & Hop & Hlen)|Hall].
  2:{ exists (RErr ConcatEnd). split; [now constructor|discriminate]. }
  destruct (token_concat t u) as [v|e| |] eqn:Ep.
  - rewrite app_length in Hn. simpl in Hn. destruct (IH v l2) as (r & Hr & Hne); [lia|].
    exists r. split; [|easy]. eapply ch_next; eauto.
  - exists (RErr e). split; [eapply ch_error; eauto|discriminate].
  - exists RPanic. split; [eapply ch_panic; eauto|discriminate].
  - now apply token_concat_total in Ep.
Qed.

Lemma pasted_total : forall n l, length l < n -> Forall ordinary_or_comment l -> exists r, pasted token_concat l r /\ r <> RFuel.
Proof.
  induction n as [|n IH]; intros l Hn Hl; [lia|].
  destruct l as [|t l]; [exists (ROk []); split; [constructor|discriminate]|].
  inversion Hl as [|? ? Ht Hl']; subst. simpl in Hn.
  destruct (comment_dec t) as [Hc|Hc].
  - destruct (IH l) as (r & Hr & Hne); [lia|easy|]. exists (rmap (cons t) r). split; [now constructor|].
    destruct r; simpl; congruence.
  - destruct (is_punct (st "##") t) eqn:Eh.
    + apply is_hashhash in Eh. subst. exists (RErr ConcatBegin). split; [|discriminate].
      apply (pa_begin _ [] l). constructor.
    + assert (Hh : t <> hashhash). { intros ->. discriminate. }
      destruct (chain_total (S (length l)) t l) as (r & Hr & Hne); [lia|].
      destruct r as [[v rest]|e| |]; try easy.
      * destruct (chain_rest _ _ _ _ Hr) as (Hnc & Hrest & Hlen); auto. { now apply ooc_ordinary. }
        destruct (IH rest) as (r2 & Hr2 & Hne2); [lia|easy|].
        exists (rmap (cons v) r2). split; [eapply pa_chain; eauto|]. destruct r2; simpl; congruence.
      * exists (RErr e). split; [eapply pa_error; eauto|discriminate].
      * exists RPanic. split; [eapply pa_panic; eauto|discriminate].
Qed.

Lemma expand_concat_iff l r : Forall ordinary_or_comment l -> (expand_concat l = r <-> pasted token_concat l r).
Proof.
  intros Hl.
  assert (Hs : forall r, pasted token_concat l r -> expand_concat l = r).
  { intros r0 Hp. unfold expand_concat. rewrite (pasted_sound _ _ Hp) by (auto; left; constructor).
    now destruct r0. }
  split; [|apply Hs]. intros <-. destruct (pasted_total (S (length l)) l) as (r0 & Hr0 & _); auto.
  now rewrite (Hs _ Hr0).
Qed.
End S.
