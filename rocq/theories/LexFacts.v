(** Basic facts about the lexical parsers. *)
From Verif Require Import Base Utf Lex LexFloat Token StrFacts.
From Coq Require Import String List.
Local Open Scope list_scope.
Local Open Scope N_scope.

Ltac obind_inv H :=
  repeat match type of H with
  | obind ?o _ = Some _ => let E := fresh "E" in destruct o eqn:E; simpl obind in H; [|discriminate H]
  end.

Lemma all_consuming_some {A} (p : str -> option (str * A)) s a :
  all_consuming p s = Some a <-> p s = Some ([], a).
Proof.
  unfold all_consuming. destruct (p s) as [[[|c r] b]|]; split; intros Heq; inversion Heq; easy.
Qed.

Lemma oor_some {A} (a b : option A) x : oor a b = Some x -> a = Some x \/ (a = None /\ b = Some x).
Proof. destruct a; simpl; auto. Qed.

Lemma char1_some c s r : char1 c s = Some r <-> s = c :: r.
Proof.
  destruct s as [|x s]; simpl; [split; intros; congruence|].
  destruct (N.eqb_spec x c) as [e|Hn]; split; intros Heq; inversion Heq; subst; easy.
Qed.

Lemma take_while1_some p s a b :
  take_while1 p s = Some (b, a) <-> a <> [] /\ s = a ++ b /\ forallb p a = true /\
    match b with [] => True | c :: _ => p c = false end.
Proof.
  unfold take_while1. destruct (take_while p s) as [x y] eqn:E. split.
  - intros Heq. assert (x = a /\ y = b /\ a <> []) as (-> & -> & Ha).
    { destruct x; inversion Heq; subst; repeat split; easy. }
    repeat split; [easy|eapply take_while_app; eauto|eapply take_while_all; eauto|eapply take_while_stop; eauto].
  - intros (Ha & -> & Hp & Hs). rewrite take_while_intro in E by easy. inversion E; subst.
    now destruct x.
Qed.

Section S.
Context `{Unicode}.

Lemma xid_start_continue c : is_xid_start c = true -> is_xid_continue c = true.
Proof.
  unfold is_xid_start, is_xid_continue. destruct (c <? 128).
  - now intros ->.
  - apply u_start_cont.
Qed.

Lemma identifier_start_continue c : is_identifier_start c = true -> is_xid_continue c = true.
Proof.
  unfold is_identifier_start. intros Hc. apply orb_prop in Hc. destruct Hc as [Hc|Hc].
  - now apply xid_start_continue.
  - apply N.eqb_eq in Hc. subst. reflexivity.
Qed.

Lemma identifier_all_continue s : is_identifier s = true -> forallb is_xid_continue s = true.
Proof.
  destruct s as [|c s]; simpl; [easy|]. intros Hs. apply andb_prop in Hs. destruct Hs as [Hc Hs].
  now rewrite (identifier_start_continue _ Hc).
Qed.

Lemma identifier_app a b :
  is_identifier a = true -> forallb is_xid_continue b = true -> is_identifier (a ++ b) = true.
Proof.
  destruct a as [|c a]; simpl; [easy|]. intros Hs Hb. apply andb_prop in Hs. destruct Hs as [Hc Hs].
  rewrite Hc, forallb_app, Hs, Hb. easy.
Qed.

Lemma id_chars_ok f : forall s, forallb is_xid_continue (snd (id_chars f s)) = true.
Proof.
  induction f as [|f IH]; intros s; simpl; [easy|].
  destruct (identifier_char s) as [[s' c]|]; [|easy]. destruct (is_xid_continue c) eqn:Ec; [|easy].
  specialize (IH s'). destruct (id_chars f s'). simpl in *. now rewrite Ec.
Qed.

Lemma identifier_parse_str_ok s r id : identifier_parse_str s = Some (r, id) -> is_identifier id = true.
Proof.
  destruct s as [|c s]; [discriminate|]. simpl. destruct (is_identifier_start c) eqn:Ec.
  - destruct (take_while is_xid_continue s) as [a b] eqn:E. intros Heq. inversion Heq; subst. simpl.
    rewrite Ec. eapply take_while_all; eauto.
  - destruct (identifier_char _) as [[s1 c1]|]; [|discriminate].
    destruct (is_identifier_start c1) eqn:Ec1; [|discriminate].
    pose proof (id_chars_ok (length s1) s1) as Hok. destruct (id_chars _ s1) as [r' cs].
    intros Heq. inversion Heq; subst. simpl in *. now rewrite Ec1.
Qed.

Lemma identifier_try_from_ok s id : identifier_try_from s = Some id -> is_identifier id = true.
Proof. unfold identifier_try_from. rewrite all_consuming_some. apply identifier_parse_str_ok. Qed.

(** An identifier is read as itself. *)
Lemma identifier_try_from_id s : is_identifier s = true -> identifier_try_from s = Some s.
Proof.
  intros Hs. apply all_consuming_some. destruct s as [|c s]; [discriminate|]. simpl in *.
  apply andb_prop in Hs. destruct Hs as [Hc Hs]. rewrite Hc.
  rewrite <- (app_nil_r s) at 1. now rewrite (take_while_intro _ s []).
Qed.

Lemma identifier_continue_try_from_ok s c :
  identifier_continue_try_from s = Some c -> c <> [] /\ forallb is_xid_continue c = true.
Proof.
  unfold identifier_continue_try_from. rewrite all_consuming_some. unfold identifier_continue_parse_str.
  destruct (take_while1 is_xid_continue s) as [[r a]|] eqn:E.
  - intros Heq. inversion Heq; subst. apply take_while1_some in E. tauto.
  - pose proof (id_chars_ok (length s) s) as Hok. destruct (id_chars _ s) as [r cs].
    destruct cs; [discriminate|]. intros Heq. inversion Heq; subst. split; [easy|exact Hok].
Qed.

(** Letters and digits. *)
Definition is_alnum (c : N) : bool := is_digit c || is_upper c || is_lower c.

Lemma alnum_continue c : is_alnum c = true -> is_xid_continue c = true.
Proof.
  unfold is_alnum, is_xid_continue. intros Hc.
  assert (c < 128).
  { unfold is_digit, is_upper, is_lower in Hc.
    repeat (apply orb_prop in Hc; destruct Hc as [Hc|Hc]); apply andb_prop in Hc; destruct Hc as [H1 H2];
      apply N.leb_le in H2; lia. }
  apply N.ltb_lt in H0. rewrite H0.
  destruct (is_digit c), (is_upper c), (is_lower c); simpl in *; easy.
Qed.

Lemma to_digit_alnum r c d : to_digit r c = Some d -> is_alnum c = true.
Proof.
  unfold to_digit, is_alnum. destruct (is_digit c); [easy|]. destruct (is_lower c); [now rewrite orb_true_r|].
  destruct (is_upper c); [easy|discriminate].
Qed.

Lemma radix_digit_alnum r c : is_radix_digit r c = true -> is_alnum c = true.
Proof. unfold is_radix_digit. destruct (to_digit r c) eqn:E; [|easy]. intros _. eapply to_digit_alnum; eauto. Qed.

Lemma forallb_impl {A} (p q : A -> bool) l :
  (forall x, p x = true -> q x = true) -> forallb p l = true -> forallb q l = true.
Proof.
  intros Hpq. induction l as [|x l IH]; simpl; [easy|]. intros Hl. apply andb_prop in Hl.
  destruct Hl as [Hx Hl]. now rewrite (Hpq _ Hx), IH.
Qed.

(** [r] is what remains after [s]'s prefix of letters and digits [a]. *)
Definition eats_alnum (s r : str) : Prop := exists a, s = a ++ r /\ forallb is_alnum a = true.

Lemma eats_refl s : eats_alnum s s.
Proof. now exists []. Qed.
Lemma eats_trans a b c : eats_alnum a b -> eats_alnum b c -> eats_alnum a c.
Proof.
  intros (x & -> & Hx) (y & -> & Hy). exists (x ++ y). rewrite app_assoc, forallb_app, Hx, Hy. easy.
Qed.

Lemma strip_prefix_eats p s r : strip_prefix p s = Some r -> forallb is_alnum p = true -> eats_alnum s r.
Proof. intros Hp Ha. apply strip_prefix_some in Hp. now exists p. Qed.

Lemma lower_alnum c : is_alnum (lower c) = true -> is_alnum c = true.
Proof.
  unfold lower. destruct (is_upper c) eqn:E; [|easy]. intros _. unfold is_alnum. rewrite E. now destruct (is_digit c).
Qed.

Lemma strip_prefix_nc_eats p : forall s r,
  strip_prefix_nc p s = Some r -> forallb is_alnum p = true -> eats_alnum s r.
Proof.
  induction p as [|x p IH]; intros [|y s] r; simpl; try discriminate.
  - intros Heq _. inversion Heq; subst. apply eats_refl.
  - intros Heq _. inversion Heq; subst. apply eats_refl.
  - destruct (N.eqb_spec x (lower y)) as [->|]; [|discriminate]. intros Hs Ha.
    apply andb_prop in Ha. destruct Ha as [Hy Ha]. destruct (IH s r Hs Ha) as (a & -> & Haa).
    exists (y :: a). simpl. now rewrite (lower_alnum _ Hy).
Qed.

Lemma take_while1_eats p s r a : (forall c, p c = true -> is_alnum c = true) ->
  take_while1 p s = Some (r, a) -> eats_alnum s r.
Proof.
  intros Hp Ht. apply take_while1_some in Ht. destruct Ht as (_ & -> & Ha & _). exists a. split; [easy|].
  now apply (forallb_impl p).
Qed.

Lemma int_digits_eats s r v : int_digits s = Some (r, v) -> eats_alnum s r.
Proof.
  unfold int_digits. intros E.
  apply oor_some in E. destruct E as [E|[_ E]]; [|apply oor_some in E; destruct E as [E|[_ E]];
    [|apply oor_some in E; destruct E as [E|[_ E]]]].
  all: obind_inv E; repeat match goal with p : (_ * _)%type |- _ => destruct p end; simpl in *; inversion E; subst.
  - eapply eats_trans; [eapply strip_prefix_nc_eats; eauto|]. eapply take_while1_eats; [|eassumption]. apply radix_digit_alnum.
  - eapply eats_trans; [eapply strip_prefix_nc_eats; eauto|]. eapply take_while1_eats; [|eassumption]. apply radix_digit_alnum.
  - eapply eats_trans; [eapply strip_prefix_eats; eauto|]. eapply take_while1_eats; [|eassumption]. apply radix_digit_alnum.
  - eapply take_while1_eats; [|eassumption]. intros c Hc. unfold is_alnum. now rewrite Hc.
Qed.

Lemma size_suffix_eats s r z : size_suffix_parse s = Some (r, z) -> eats_alnum s r.
Proof.
  unfold size_suffix_parse. intros E.
  destruct (oor (tag "ll" s) (tag "LL" s)) eqn:E1.
  - inversion E; subst. apply oor_some in E1. destruct E1 as [E1|[_ E1]]; eapply strip_prefix_eats; eauto.
  - destruct (tag_no_case "l" s) eqn:E2.
    + inversion E; subst. eapply strip_prefix_nc_eats; eauto.
    + destruct (tag_no_case "z" s) eqn:E3; [|discriminate]. inversion E; subst. eapply strip_prefix_nc_eats; eauto.
Qed.

Lemma int_parse_suffix_eats s z : int_parse_suffix s = Some z -> eats_alnum s [].
Proof.
  unfold int_parse_suffix. rewrite all_consuming_some.
  destruct (tag_no_case "u" s) as [s1|] eqn:E1.
  - pose proof (strip_prefix_nc_eats _ _ _ E1 eq_refl) as H1.
    destruct (size_suffix_parse s1) as [[s2 z2]|] eqn:E2; intros Heq; inversion Heq; subst; [|easy].
    eapply eats_trans; [exact H1|]. eapply size_suffix_eats; eauto.
  - destruct (size_suffix_parse s) as [[s1 z1]|] eqn:E2.
    + pose proof (size_suffix_eats _ _ _ E2) as H2.
      destruct (tag_no_case "u" s1) as [s2|] eqn:E3; intros Heq; inversion Heq; subst; [|easy].
      eapply eats_trans; [exact H2|]. eapply strip_prefix_nc_eats; eauto.
    + destruct s; [|discriminate]. intros _. apply eats_refl.
Qed.

Lemma int_parse_str_alnum s r i : int_parse_str s = Some (r, i) -> forallb is_alnum s = true.
Proof.
  unfold int_parse_str. intros E. obind_inv E. destruct p as [r1 v]. destruct p0 as [u z]. simpl in *.
  apply int_digits_eats in E0. apply int_parse_suffix_eats in E1.
  destruct (eats_trans _ _ _ E0 E1) as (a & -> & Ha). now rewrite app_nil_r.
Qed.

Lemma lit_int_alnum s i : lit_try_from s = Some (LInt i) -> forallb is_alnum s = true.
Proof.
  unfold lit_try_from. rewrite all_consuming_some. unfold lit_parse_str. intros E.
  apply oor_some in E. destruct E as [E|[_ E]]; [destruct (char_parse_str s); inversion E|].
  apply oor_some in E. destruct E as [E|[_ E]]; [destruct (string_parse_str s); inversion E|].
  apply oor_some in E. destruct E as [E|[_ E]]; [destruct (float_parse_str s); inversion E|].
  destruct (int_parse_str s) as [[r j]|] eqn:Ei; [|discriminate]. eapply int_parse_str_alnum; eauto.
Qed.
End S.
