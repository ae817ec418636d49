(** Character and string literals against SpecString.v. *)
From Verif Require Import Base Utf Lex LexFloat StrFacts LexFacts SpecInt IntFacts SpecString UtfFacts.
From Coq Require Import String List.
Local Open Scope list_scope.
Local Open Scope N_scope.

Lemma digits_spec radix : 2 <= radix <= 16 -> forall n m acc s r v, (m <= n)%nat ->
  digits_m_n radix m n acc s = Some (r, v) <->
  exists ds, s = ds ++ r /\ (m <= length ds <= n)%nat /\ numeral_from radix (Z.of_N acc) ds (Z.of_N v) /\
    ((length ds < n)%nat -> match r with [] => True | c :: _ => is_radix_digit radix c = false end).
Proof.
  intros Hr. induction n as [|n IH]; intros m acc s r v Hm.
  - simpl. split.
    + intros [= <- <-]. exists []. repeat split; simpl; try lia. constructor.
    + intros (ds & -> & Hl & Hn & _). destruct ds; [|simpl in Hl; lia]. inversion Hn. now replace v with acc by lia.
  - simpl. destruct s as [|c s].
    + split.
      * destruct m; [|discriminate]. intros [= <- <-]. exists []. repeat split; simpl; try lia. constructor.
      * intros (ds & E & Hl & Hn & _). destruct ds; [|discriminate]. simpl in E. subst r. destruct m; [|simpl in Hl; lia].
        inversion Hn. now replace v with acc by lia.
    + destruct (to_digit radix c) as [d|] eqn:Ed.
      * rewrite IH by lia. apply to_digit_spec in Ed; [|lia]. split.
        -- intros (ds & -> & Hl & Hn & Hs). exists (c :: ds). repeat split; simpl; try lia.
           ++ econstructor; [exact Ed|]. now replace (Z.of_N acc * Z.of_N radix + Z.of_N d)%Z with (Z.of_N (acc * radix + d)) by lia.
           ++ intros Hlt. apply Hs. lia.
        -- intros (ds & E & Hl & Hn & Hs). destruct ds as [|c' ds].
           ++ simpl in E, Hl, Hs. subst r. exfalso. specialize (Hs ltac:(lia)). simpl in Hs.
              assert (is_radix_digit radix c = true) by (apply radix_digit_spec; [lia|eauto]). congruence.
           ++ injection E as <- ->. exists ds. inversion Hn as [|? ? d' ? ? Hd' Hn']; subst.
              rewrite (digit_det _ _ _ _ Hd' Ed) in Hn'. simpl in Hl, Hs. repeat split; try lia.
              ** now replace (Z.of_N (acc * radix + d)) with (Z.of_N acc * Z.of_N radix + Z.of_N d)%Z by lia.
              ** intros Hlt. apply Hs. lia.
      * assert (Hnd : is_radix_digit radix c = false) by (unfold is_radix_digit; now rewrite Ed).
        split.
        -- destruct m; [|discriminate]. intros [= <- <-]. exists []. repeat split; simpl; try lia; [constructor|easy].
        -- intros (ds & E & Hl & Hn & Hs). destruct ds as [|c' ds].
           ++ simpl in E. subst r. destruct m; [|simpl in Hl; lia]. inversion Hn. now replace v with acc by lia.
           ++ injection E as <- ->. inversion Hn as [|? ? d' ? ? Hd' Hn']; subst.
              assert (is_radix_digit radix c = true) by (apply radix_digit_spec; [lia|eauto]). congruence.
Qed.

(** ** Escape sequences *)

Lemma simple_escape_spec s r v : simple_escape s = Some (r, v) <-> exists c, s = c :: r /\ In (c, v) simple_escapes.
Proof.
  split.
  - destruct s as [|c s]; [discriminate|]. unfold simple_escape. intros E. exists c.
    repeat match type of E with
    | (if ?b then _ else _) = _ => destruct b eqn:?
    end; try discriminate; injection E as <- <-; (split; [reflexivity|]);
    repeat match goal with
    | h : (_ =? _) = true |- _ => apply N.eqb_eq in h; subst
    | h : _ || _ = true |- _ => apply orb_prop in h; destruct h
    end; simpl; auto 20.
  - intros (c & -> & Hc). repeat (destruct Hc as [Hc|Hc]; [injection Hc as <- <-; reflexivity|]). destruct Hc.
Qed.

Lemma not_simple c s : (forall v, ~ In (c, v) simple_escapes) -> simple_escape (c :: s) = None.
Proof.
  intros Hn. apply opt_none. intros [r v] E. apply simple_escape_spec in E. destruct E as (c' & E & Hc).
  injection E as <- _. exact (Hn v Hc).
Qed.

Lemma simple_first s r v : simple_escape s = Some (r, v) -> exists c, s = c :: r /\ In c (map fst simple_escapes).
Proof. intros E. apply simple_escape_spec in E. destruct E as (c & -> & Hc). exists c. split; [easy|]. now apply (in_map fst) in Hc. Qed.

Lemma octal_not_simple c s : is_radix_digit 8 c = true -> simple_escape (c :: s) = None.
Proof.
  intros Hc. apply digit_not_letter in Hc; [|lia]. apply not_simple. intros v Hi.
  repeat (destruct Hi as [Hi|Hi]; [injection Hi as <- _; lia|]). destruct Hi.
Qed.

Lemma octal_digits s r v : digits_m_n 8 1 3 0 s = Some (r, v) <->
  exists t, s = t ++ r /\ numeral 8 t (Z.of_N v) /\ (length t <= 3)%nat /\ maximal t r.
Proof.
  rewrite digits_spec by lia. split.
  - intros (t & -> & Hl & Hn & Hs). exists t. split; [easy|]. split; [|split; [lia|]].
    + apply numeral_from_iff. split; [|easy]. intros ->. simpl in Hl. lia.
    + intros w d r' _ Hlt -> [n Hd]. specialize (Hs Hlt). simpl in Hs.
      assert (is_radix_digit 8 d = true) by (apply radix_digit_spec; [lia|eauto]). congruence.
  - intros (t & -> & Hn & Hl & Hm). exists t. split; [easy|]. pose proof (proj1 (numeral_from_iff _ _ _) Hn) as [Hne Hn0].
    split; [destruct t; [easy|simpl in *; lia]|]. split; [easy|]. intros Hlt. destruct r as [|c r]; [easy|].
    destruct (is_radix_digit 8 c) eqn:E; [|easy]. exfalso. apply radix_digit_spec in E; [|lia]. exact (Hm _ c r Hn Hlt eq_refl E).
Qed.

Lemma hex_digits n s r v : (0 < n)%nat -> digits_m_n 16 n n 0 s = Some (r, v) <->
  exists t, s = t ++ r /\ numeral 16 t (Z.of_N v) /\ length t = n.
Proof.
  intros Hn0. rewrite digits_spec by lia. split.
  - intros (t & -> & Hl & Hn & Hs). exists t. split; [easy|]. split; [|lia]. apply numeral_from_iff. split; [|easy].
    intros ->. simpl in Hl. lia.
  - intros (t & -> & Hn & Hl). exists t. apply numeral_from_iff in Hn. split; [easy|]. split; [lia|]. split; [easy|lia].
Qed.

(** An escape that is not octal cannot be lengthened. *)
Lemma maximal_other x t r : is_radix_digit 8 x = false -> maximal (x :: t) r.
Proof.
  intros Hx v d r' Hn. exfalso. apply numeral_from_iff in Hn. destruct Hn as [_ Hn].
  apply (numeral_digits 8) in Hn; [|lia]. simpl in Hn. rewrite Hx in Hn. discriminate.
Qed.

Lemma simple_not_octal c v : In (c, v) simple_escapes -> is_radix_digit 8 c = false.
Proof. intros Hi. repeat (destruct Hi as [Hi|Hi]; [injection Hi as <- _; reflexivity|]). destruct Hi. Qed.

Lemma octal_off x s : is_radix_digit 8 x = false -> digits_m_n 8 1 3 0 (x :: s) = None.
Proof.
  intros Hx. apply opt_none. intros [r v] E. apply octal_digits in E. destruct E as (t & E & Hn & _).
  apply numeral_from_iff in Hn. destruct Hn as [Hne Hn]. apply (numeral_digits 8) in Hn; [|lia].
  destruct t as [|y t]; [easy|]. injection E as <- _. simpl in Hn. rewrite Hx in Hn. discriminate.
Qed.

Lemma escaped_char_spec s r v : escaped_char s = Some (r, v) <-> exists t, s = 92 :: t ++ r /\ escape t v /\ maximal t r.
Proof.
  unfold escaped_char. split.
  - destruct (char1 92 s) as [s1|] eqn:Ec; [|discriminate]. apply char1_some in Ec. subst s. intros E.
    apply oor_some in E. destruct E as [E|[_ E]].
    { apply simple_escape_spec in E. destruct E as (c & -> & Hc). exists [c]. split; [easy|]. split; [now constructor|].
      apply maximal_other. eapply simple_not_octal; eauto. }
    apply oor_some in E. destruct E as [E|[_ E]].
    + unfold numeric_escape in E. destruct (digits_m_n 8 1 3 0 s1) as [[r' v']|] eqn:Eo.
      * injection E as -> ->. apply octal_digits in Eo. destruct Eo as (t & -> & Hn & Hl & Hm). exists t. split; [easy|].
        split; [now apply es_octal|easy].
      * destruct (tag_no_case "x" s1) as [s2|] eqn:Ex; [|discriminate]. apply (letter_tag _ 120) in Ex; [|easy..].
        apply hex_digits in E; [|lia]. destruct E as (t & -> & Hn & Hl).
        assert (exists x, s1 = x :: t ++ r /\ In x [120; 88] /\ is_radix_digit 8 x = false) as (x & -> & Hx & Hx8).
        { destruct Ex as [-> | ->]; eexists; (split; [reflexivity|]); (split; [simpl; auto|reflexivity]). }
        exists (x :: t). split; [easy|]. split; [now apply es_hex|]. now apply maximal_other.
    + unfold universal_char in E. 
      destruct (match char1 117 s1 with Some s' => digits_m_n 16 4 4 0 s' | None => None end) as [[r' v']|] eqn:Eu.
      * injection E as -> ->. destruct (char1 117 s1) as [s2|] eqn:E1; [|discriminate]. apply char1_some in E1. subst s1.
        apply hex_digits in Eu; [|lia]. destruct Eu as (t & -> & Hn & Hl). exists (117 :: t). split; [easy|].
        split; [now apply es_u|]. now apply maximal_other.
      * destruct (char1 85 s1) as [s2|] eqn:E1; [|discriminate]. apply char1_some in E1. subst s1.
        apply hex_digits in E; [|lia]. destruct E as (t & -> & Hn & Hl). exists (85 :: t). split; [easy|].
        split; [now apply es_U|]. now apply maximal_other.
  - intros (t & -> & He & Hm). rewrite (proj2 (char1_some 92 _ _) eq_refl).
    destruct He as [c v Hc|s v Hn Hl|x s v Hx Hn Hl|s v Hn Hl|s v Hn Hl].
    + now rewrite (proj2 (simple_escape_spec ([c] ++ r) r v)) by (exists c; easy).
    + assert (E : digits_m_n 8 1 3 0 (s ++ r) = Some (r, v)). { apply octal_digits. exists s. auto. }
      pose proof (proj1 (numeral_from_iff _ _ _) Hn) as [Hne Hn0]. destruct s as [|c s]; [easy|].
      apply (numeral_digits 8) in Hn0; [|lia]. simpl in Hn0. apply andb_true_iff in Hn0. destruct Hn0 as [Hc _].
      change ((c :: s) ++ r) with (c :: s ++ r) in *. rewrite octal_not_simple by easy. cbn [oor]. unfold numeric_escape. now rewrite E.
    + assert (E : digits_m_n 16 2 2 0 (s ++ r) = Some (r, v)). { apply hex_digits; [lia|]. exists s. auto. }
      assert (Et : tag_no_case "x" (x :: s ++ r) = Some (s ++ r)).
      { apply (letter_tag _ 120); [easy..|]. destruct Hx as [<- |[<- |[]]]; [now left|now right]. }
      assert (Es : simple_escape (x :: s ++ r) = None) by (destruct Hx as [<- |[<- |[]]]; reflexivity).
      cbn [app]. rewrite Es. cbn [oor]. unfold numeric_escape. rewrite octal_off by (destruct Hx as [<- |[<- |[]]]; reflexivity).
      now rewrite Et, E.
    + assert (E : digits_m_n 16 4 4 0 (s ++ r) = Some (r, v)). { apply hex_digits; [lia|]. exists s. auto. }
      cbn [app]. change (simple_escape (117 :: s ++ r)) with (@None (str * N)). cbn [oor].
      unfold numeric_escape. rewrite octal_off by reflexivity. change (tag_no_case "x" (117 :: s ++ r)) with (@None str). cbn [oor].
      unfold universal_char. rewrite (proj2 (char1_some 117 _ _) eq_refl). now rewrite E.
    + assert (E : digits_m_n 16 8 8 0 (s ++ r) = Some (r, v)). { apply hex_digits; [lia|]. exists s. auto. }
      cbn [app]. change (simple_escape (85 :: s ++ r)) with (@None (str * N)). cbn [oor].
      unfold numeric_escape. rewrite octal_off by reflexivity. change (tag_no_case "x" (85 :: s ++ r)) with (@None str). cbn [oor].
      unfold universal_char. change (char1 117 (85 :: s ++ r)) with (@None str). cbn beta iota.
      rewrite (proj2 (char1_some 85 _ _) eq_refl). exact E.
Qed.

Lemma escape_nonempty t v : escape t v -> t <> [].
Proof. destruct 1; try discriminate. apply numeral_from_iff in H. easy. Qed.

(** ** The text between the quotes, for any item parser *)

Definition raw (c : N) : bool := negb ((c =? 92) || (c =? 34) || (c =? 10)).
Lemma raw_spec c : raw c = true <-> ~ In c [92; 34; 10].
Proof.
  unfold raw. rewrite negb_true_iff, !orb_false_iff, !N.eqb_neq. simpl. intuition congruence.
Qed.

Section Items.
Context {A : Type} (item : str -> option (str * A)) (val : A -> list N) (unit : N -> option (list N)) (plain : N -> list N).
Hypothesis Hesc : forall s r v, escaped_char s = Some (r, v) ->
  match unit v with Some us => exists x, item s = Some (r, x) /\ val x = us | None => item s = None end.
Hypothesis Hraw : forall c s, raw c = true -> exists run s' x, item (c :: s) = Some (s', x) /\ c :: s = run ++ s' /\ run <> [] /\
  forallb raw run = true /\ val x = flat_map plain run.
Hypothesis Hstop : forall s, escaped_char s = None -> match s with [] => True | c :: _ => raw c = false end -> item s = None.

Definition eval1 (e : element) : option (list N) := match e with Raw c => Some (plain c) | Escaped v => unit v end.
Fixpoint eval (l : list element) : option (list N) :=
  match l with [] => Some [] | e :: l' => match eval1 e, eval l' with Some a, Some b => Some (a ++ b) | _, _ => None end end.

Lemma elements_raws run : forallb raw run = true -> forall s l, elements s l -> elements (run ++ s) (map Raw run ++ l).
Proof.
  induction run as [|c run IH]; simpl; intros Hr s l Hl; [easy|]. apply andb_true_iff in Hr. destruct Hr as [Hc Hr].
  constructor; [now apply raw_spec|auto].
Qed.
Lemma eval_raws run l us : eval l = Some us -> eval (map Raw run ++ l) = Some (flat_map plain run ++ us).
Proof. intros E. induction run as [|c run IH]; simpl; [easy|]. rewrite IH. now rewrite app_assoc. Qed.

Lemma elements_drop run : forallb raw run = true -> forall s els, elements (run ++ s) els ->
  exists els', els = map Raw run ++ els' /\ elements s els'.
Proof.
  induction run as [|c run IH]; simpl; intros Hr s els He; [eauto|]. apply andb_true_iff in Hr. destruct Hr as [Hc Hr].
  inversion He as [|? ? l Hc' He'|t v s' l Ht Hm He' E]; subst.
  - destruct (IH Hr _ _ He') as (els' & -> & H'). exists els'. easy.
  - discriminate.
Qed.
Lemma eval_drop run els us : eval (map Raw run ++ els) = Some us -> exists us', us = flat_map plain run ++ us' /\ eval els = Some us'.
Proof.
  revert us. induction run as [|c run IH]; simpl; intros us E; [eauto|].
  destruct (eval (map Raw run ++ els)) as [b|] eqn:Eb; [|discriminate]. injection E as <-.
  destruct (IH _ eq_refl) as (us' & -> & Eu). exists us'. now rewrite app_assoc.
Qed.

Lemma elements_head s els : elements s els -> match s with [] => els = [] | c :: _ => raw c = true \/ c = 92 end.
Proof. destruct 1; [easy| |now right]. left. now apply raw_spec. Qed.

Lemma maximal_app t s s' : maximal t (s ++ s') -> maximal t s.
Proof. intros Hm v d r' Hn Hl -> Hd. exact (Hm v d (r' ++ s') Hn Hl eq_refl Hd). Qed.
Lemma maximal_quote t s r : maximal t s -> maximal t (s ++ 34 :: r).
Proof.
  intros Hm v d r' Hn Hl E [n Hd]. destruct s as [|c s].
  - injection E as <- _. unfold digit in Hd. simpl in Hd. lia.
  - injection E as -> _. eapply Hm; eauto.
Qed.

Lemma many_items_sound fuel : forall s s2 l, (length s <= fuel)%nat -> many_items item fuel s = (s2, l) ->
  exists body els, s = body ++ s2 /\ elements body els /\ eval els = Some (flat_map val l).
Proof.
  induction fuel as [|f IH]; intros s s2 l Hf E; cbn [many_items] in E.
  { injection E as <- <-. exists [], []. repeat split; constructor. }
  destruct (item s) as [[s' x]|] eqn:Ei; [|injection E as <- <-; exists [], []; repeat split; constructor].
  destruct (many_items item f s') as [s2' l'] eqn:Em. injection E as <- <-.
  destruct (escaped_char s) as [[r v]|] eqn:Ee.
  - pose proof (Hesc _ _ _ Ee) as He. destruct (unit v) as [us|] eqn:Eu; [|congruence].
    destruct He as (x' & Ei' & Hv). rewrite Ei in Ei'. injection Ei' as <- <-.
    apply escaped_char_spec in Ee. destruct Ee as (t & -> & Ht & Hm). 
    destruct (IH s' s2' l') as (body & els & -> & Hels & Eev); [|easy|].
    { pose proof (escape_nonempty _ _ Ht) as Hne. destruct t; [easy|]. simpl in Hf. rewrite app_length in Hf. lia. }
    exists (92 :: t ++ body), (Escaped v :: els). split; [now rewrite <- app_comm_cons, <- app_assoc|]. split.
    + constructor; [easy|now apply maximal_app in Hm|easy].
    + cbn [eval eval1]. rewrite Eu, Eev. simpl. now rewrite Hv.
  - destruct s as [|c s]; [rewrite Hstop in Ei by easy; discriminate|].
    destruct (raw c) eqn:Er; [|rewrite Hstop in Ei by easy; discriminate].
    destruct (Hraw c s Er) as (run & s'' & x' & Ei' & Es & Hne & Hr & Hv). rewrite Ei in Ei'. injection Ei' as <- <-.
    destruct (IH s' s2' l') as (body & els & -> & Hels & Eev); [|easy|].
    { rewrite Es, app_length in Hf. destruct run; [easy|simpl in Hf; lia]. }
    exists (run ++ body), (map Raw run ++ els). rewrite Es, app_assoc. split; [easy|]. split; [now apply elements_raws|].
    simpl. rewrite Hv. now apply eval_raws.
Qed.

Lemma many_items_complete fuel : forall body els us r, (length body <= fuel)%nat -> elements body els -> eval els = Some us ->
  exists l, many_items item fuel (body ++ 34 :: r) = (34 :: r, l) /\ flat_map val l = us.
Proof.
  assert (Hend : forall r, item (34 :: r) = None) by (intros r; apply Hstop; reflexivity).
  induction fuel as [|f IH]; intros body els us r Hf He Ev.
  { destruct body; [|simpl in Hf; lia]. apply elements_head in He. subst els. injection Ev as <-. now exists []. }
  destruct body as [|c body].
  { apply elements_head in He. subst els. injection Ev as <-. cbn [many_items app]. rewrite Hend. now exists []. }
  cbn [many_items]. destruct (raw c) eqn:Er.
  - destruct (Hraw c (body ++ 34 :: r) Er) as (run & s' & x & Ei & Es & Hne & Hr & Hv).
    change ((c :: body) ++ 34 :: r) with (c :: body ++ 34 :: r). rewrite Ei.
    assert (Hb : exists b', c :: body = run ++ b' /\ s' = b' ++ 34 :: r).
    { assert (Hgen : forall run l, l ++ 34 :: r = run ++ s' -> forallb raw run = true -> exists b', l = run ++ b' /\ s' = b' ++ 34 :: r).
      { clear. intros run. induction run as [|y run IHr]; simpl; intros l E Hr.
        - exists l. split; [easy|]. now symmetry.
        - apply andb_true_iff in Hr. destruct Hr as [Hy Hr]. destruct l as [|z l].
          + injection E as <- _. discriminate.
          + injection E as <- E. destruct (IHr l E Hr) as (b' & -> & Es'). now exists b'. }
      exact (Hgen run (c :: body) Es Hr). }
    destruct Hb as (b' & Eb & ->). rewrite Eb in He. apply elements_drop in He; [|easy]. destruct He as (els' & -> & He').
    apply eval_drop in Ev. destruct Ev as (us' & -> & Ev').
    destruct (IH b' els' us' r) as (l & Em & Hl); [|easy|easy|].
    { apply (f_equal (@length N)) in Eb. rewrite app_length in Eb. destruct run; [easy|]. simpl in Eb, Hf. lia. }
    rewrite Em. exists (x :: l). split; [easy|]. simpl. now rewrite Hv, Hl.
  - inversion He as [|? ? l' Hc' He'|t v s' l' Ht Hm He' E1 E2]; subst.
    { apply raw_spec in Hc'. congruence. }
    assert (Ee : escaped_char (92 :: t ++ s' ++ 34 :: r) = Some (s' ++ 34 :: r, v)).
    { apply escaped_char_spec. exists t. split; [easy|]. split; [easy|]. now apply maximal_quote. }
    change ((92 :: t ++ s') ++ 34 :: r) with (92 :: (t ++ s') ++ 34 :: r). rewrite <- app_assoc.
    pose proof (Hesc _ _ _ Ee) as Hx. cbn [eval eval1] in Ev. destruct (unit v) as [u|]; [|discriminate].
    destruct Hx as (x & Ei & Hv). rewrite Ei. destruct (eval l') as [us'|] eqn:Ev'; [|discriminate]. injection Ev as <-.
    destruct (IH s' l' us' r) as (l & Em & Hl); [|easy|easy|].
    { simpl in Hf. rewrite app_length in Hf. lia. }
    rewrite Em. exists (x :: l). split; [easy|]. simpl. now rewrite Hv, Hl.
Qed.

Lemma quoted_sound s r l : quoted item s = Some (r, l) ->
  exists body els, s = 34 :: body ++ 34 :: r /\ elements body els /\ eval els = Some (flat_map val l).
Proof.
  unfold quoted. destruct (char1 34 s) as [s1|] eqn:E1; [|discriminate]. apply char1_some in E1. subst s. cbn [obind].
  destruct (many_items item (length s1) s1) as [s2 l'] eqn:Em. destruct (char1 34 s2) as [s3|] eqn:E2; [|discriminate].
  apply char1_some in E2. subst s2. intros [= <- <-].
  destruct (many_items_sound _ _ _ _ (le_n _) Em) as (body & els & -> & He & Ev). exists body, els. auto.
Qed.

Lemma quoted_complete body els us r : elements body els -> eval els = Some us ->
  exists l, quoted item (34 :: body ++ 34 :: r) = Some (r, l) /\ flat_map val l = us.
Proof.
  intros He Ev. unfold quoted. rewrite (proj2 (char1_some 34 _ _) eq_refl). cbn [obind].
  destruct (many_items_complete (length (body ++ 34 :: r)) body els us r) as (l & Em & Hl); [rewrite app_length; lia|easy|easy|].
  rewrite Em, (proj2 (char1_some 34 _ _) eq_refl). exists l. auto.
Qed.
End Items.

(** ** The kinds of string literals *)

Definition unit_of (limit : N) (encode : N -> list N) (v : N) : option (list N) :=
  if v <? limit then Some [v] else match char_from_u32 v with Some c => Some (encode c) | None => None end.

Lemma unit_of_spec limit encode v us : unit_of limit encode v = Some us <-> code_units limit encode (Escaped v) us.
Proof.
  unfold unit_of, code_units. destruct (v <? limit); [split; [now intros [= <-]|now intros ->]|].
  destruct (char_from_u32 v) as [c|] eqn:E.
  - apply char_from_u32_spec in E. destruct E as [-> Hs]. split; [intros [= <-]; easy|now intros [_ ->]].
  - split; [discriminate|]. intros [Hs _]. rewrite (proj2 (char_from_u32_spec v v)) in E by easy. discriminate.
Qed.

Lemma eval_spec limit encode l us : eval (unit_of limit encode) encode l = Some us <-> all_units limit encode l us.
Proof.
  unfold all_units. revert us. induction l as [|e l IH]; intros us; cbn [eval].
  - split; [intros [= <-]; exists []; now split|]. intros (uss & Hf & ->). now inversion Hf.
  - assert (He : forall u, eval1 (unit_of limit encode) encode e = Some u <-> code_units limit encode e u).
    { intros u. destruct e as [c|v]; cbn [eval1]; [simpl; split; [now intros [= <-]|now intros ->]|]. apply unit_of_spec. }
    destruct (eval1 (unit_of limit encode) encode e) as [u|] eqn:E1.
    + destruct (eval (unit_of limit encode) encode l) as [b|] eqn:E2.
      * split.
        -- intros [= <-]. destruct (proj1 (IH b) eq_refl) as (uss & Hf & ->). exists (u :: uss). split; [|easy]. constructor; [now apply He|easy].
        -- intros (uss & Hf & ->). inversion Hf as [|? u' ? uss' Hu Hf']; subst. apply He in Hu. injection Hu as <-.
           assert (Eb : Some b = Some (concat uss')) by (apply IH; now exists uss'). injection Eb as ->. easy.
      * split; [discriminate|]. intros (uss & Hf & ->). inversion Hf as [|? u' ? uss' Hu Hf']; subst.
        assert (Eb : None = Some (concat uss')) by (apply IH; now exists uss'). discriminate.
    + split; [discriminate|]. intros (uss & Hf & ->). inversion Hf as [|? u' ? uss' Hu Hf']; subst. apply He in Hu. discriminate.
Qed.

Lemma plain_run_raw c s : raw c = true -> exists run s', plain_run (c :: s) = Some (s', run) /\ c :: s = run ++ s' /\ run <> [] /\ forallb raw run = true.
Proof.
  intros Hc. unfold plain_run. change (fun c => negb ((c =? 92) || (c =? 34) || (c =? 10))) with raw.
  destruct (take_while raw (c :: s)) as [a b] eqn:E. pose proof (take_while_app _ _ _ _ E) as Ea. pose proof (take_while_all _ _ _ _ E) as Hr.
  assert (a <> []). { simpl in E. rewrite Hc in E. destruct (take_while raw s). injection E as <- _. discriminate. }
  exists a, b. unfold take_while1. rewrite E. destruct a; easy.
Qed.
Lemma plain_run_stop s : match s with [] => True | c :: _ => raw c = false end -> plain_run s = None.
Proof.
  intros Hs. unfold plain_run. change (fun c => negb ((c =? 92) || (c =? 34) || (c =? 10))) with raw.
  unfold take_while1. destruct s as [|c s]; [easy|]. simpl. now rewrite Hs.
Qed.
Lemma escape_head s r v : escaped_char s = Some (r, v) -> plain_run s = None.
Proof. intros E. apply escaped_char_spec in E. destruct E as (t & -> & _). now apply plain_run_stop. Qed.
Lemma raw_not_escape c s : raw c = true -> escaped_char (c :: s) = None.
Proof.
  intros Hc. apply opt_none. intros [r v] E. apply escaped_char_spec in E. destruct E as (t & E & _). injection E as -> _. discriminate.
Qed.

(** Ordinary strings. *)
Lemma ordinary_esc s r v : escaped_char s = Some (r, v) ->
  match unit_of 256 utf8_char v with Some us => exists x, ordinary_item s = Some (r, x) /\ x = us | None => ordinary_item s = None end.
Proof.
  intros E. unfold ordinary_item. rewrite E. cbn [obind snd fst]. rewrite (escape_head _ _ _ E). unfold unit_of.
  destruct (v <? 256); [eexists; split; [reflexivity|easy]|]. destruct (char_from_u32 v); cbn; [eexists; split; [reflexivity|easy]|easy].
Qed.
Lemma ordinary_raw c s : raw c = true -> exists run s' x, ordinary_item (c :: s) = Some (s', x) /\ c :: s = run ++ s' /\ run <> [] /\
  forallb raw run = true /\ x = flat_map utf8_char run.
Proof.
  intros Hc. destruct (plain_run_raw c s Hc) as (run & s' & E & Es & Hne & Hr). exists run, s', (utf8_encode run).
  unfold ordinary_item. rewrite raw_not_escape by easy. cbn [obind oor]. rewrite E. easy.
Qed.
Lemma ordinary_stop s : escaped_char s = None -> match s with [] => True | c :: _ => raw c = false end -> ordinary_item s = None.
Proof. intros E Hs. unfold ordinary_item. rewrite E, plain_run_stop by easy. easy. Qed.

Lemma flat_map_id {A} (l : list (list A)) : flat_map (fun x => x) l = concat l.
Proof. induction l as [|x l IH]; simpl; [easy|]. now rewrite IH. Qed.

Lemma ordinary_iff s r bytes : string_parse_ordinary s = Some (r, bytes) <->
  exists body els, s = 34 :: body ++ 34 :: r /\ elements body els /\ all_units 256 utf8_char els bytes.
Proof.
  unfold string_parse_ordinary. split.
  - destruct (quoted ordinary_item s) as [[r' l]|] eqn:E; [|discriminate]. intros [= <- <-].
    apply (quoted_sound ordinary_item (fun x => x) (unit_of 256 utf8_char) utf8_char ordinary_esc ordinary_raw ordinary_stop) in E.
    destruct E as (body & els & -> & He & Ev). exists body, els. split; [easy|]. split; [easy|]. apply eval_spec. now rewrite <- flat_map_id.
  - intros (body & els & -> & He & Ha). apply eval_spec in Ha.
    destruct (quoted_complete ordinary_item (fun x => x) (unit_of 256 utf8_char) utf8_char ordinary_esc ordinary_raw ordinary_stop _ _ _ r He Ha) as (l & -> & Hl).
    cbn [obind fst snd]. now rewrite <- flat_map_id, Hl.
Qed.

Lemma utf8_iff s r t : string_parse_utf8 s = Some (r, t) <->
  exists body els, s = 34 :: body ++ 34 :: r /\ elements body els /\ all_units 256 utf8_char els (utf8_encode t) /\ Forall scalar t.
Proof.
  unfold string_parse_utf8. split.
  - destruct (string_parse_ordinary s) as [[r' bytes]|] eqn:E; [|discriminate]. cbn [obind snd fst].
    destruct (utf8_decode bytes) as [t'|] eqn:Ed; [|discriminate]. intros [= <- <-]. apply utf8_decode_iff in Ed. destruct Ed as [-> Ht].
    apply ordinary_iff in E. destruct E as (body & els & -> & He & Ha). exists body, els. auto.
  - intros (body & els & -> & He & Ha & Ht).
    rewrite (proj2 (ordinary_iff (34 :: body ++ 34 :: r) r (utf8_encode t))) by (exists body, els; auto).
    cbn [obind snd fst]. now rewrite utf8_decode_encode.
Qed.

(** UTF-16 strings. *)
Lemma utf16_esc s r v : escaped_char s = Some (r, v) ->
  match unit_of 65536 utf16_char v with Some us => exists x, utf16_item s = Some (r, x) /\ part_into_vec x = us | None => utf16_item s = None end.
Proof.
  intros E. unfold utf16_item. rewrite E. cbn [obind snd fst]. rewrite (escape_head _ _ _ E). unfold unit_of.
  destruct (v <? 65536); [eexists; split; [reflexivity|easy]|]. destruct (char_from_u32 v); cbn; [eexists; split; [reflexivity|easy]|easy].
Qed.
Lemma utf16_raw c s : raw c = true -> exists run s' x, utf16_item (c :: s) = Some (s', x) /\ c :: s = run ++ s' /\ run <> [] /\
  forallb raw run = true /\ part_into_vec x = flat_map utf16_char run.
Proof.
  intros Hc. destruct (plain_run_raw c s Hc) as (run & s' & E & Es & Hne & Hr). exists run, s', (PartString run).
  unfold utf16_item. rewrite raw_not_escape by easy. cbn [obind oor]. rewrite E. easy.
Qed.
Lemma utf16_stop s : escaped_char s = None -> match s with [] => True | c :: _ => raw c = false end -> utf16_item s = None.
Proof. intros E Hs. unfold utf16_item. rewrite E, plain_run_stop by easy. easy. Qed.

Lemma part_append_vec a b : part_into_vec (part_append a b) = part_into_vec a ++ part_into_vec b.
Proof.
  destruct a as [v|[|c s]]; [now destruct b|reflexivity|]. destruct b as [v|s']; [easy|]. simpl.
  unfold utf16_encode. now rewrite flat_map_app, app_assoc.
Qed.
Lemma fold_part l : forall a, part_into_vec (fold_left part_append l a) = part_into_vec a ++ flat_map part_into_vec l.
Proof. induction l as [|b l IH]; intros a; simpl; [now rewrite app_nil_r|]. now rewrite IH, part_append_vec, app_assoc. Qed.

(** What a part may contain. *)
Definition good_part (p : part) : Prop := match p with PartString s => Forall scalar s | PartVec v => Forall (fun u => u < 0x10000) v end.

Lemma good_vec p : good_part p -> Forall (fun u => u < 0x10000) (part_into_vec p).
Proof.
  destruct p as [v|s]; simpl; [easy|]. induction 1 as [|c s Hc Hs IH]; [constructor|]. apply Forall_app. split; [now apply utf16_char_small|easy].
Qed.
Lemma good_append a b : good_part a -> good_part b -> good_part (part_append a b).
Proof.
  intros Ha Hb. destruct a as [v|[|c s]]; [|easy|].
  - destruct b; simpl; apply Forall_app; split; try easy. now apply (good_vec (PartString s)).
  - destruct b as [v|s']; simpl.
    + apply Forall_app. split; [now apply (good_vec (PartString (c :: s)))|easy].
    + simpl in Ha. inversion Ha; subst. constructor; [easy|]. now apply Forall_app.
Qed.
Lemma good_fold l : Forall good_part l -> forall a, good_part a -> good_part (fold_left part_append l a).
Proof. induction 1 as [|b l Hb Hl IH]; intros a Ha; simpl; [easy|]. apply IH. now apply good_append. Qed.

Lemma utf16_item_good s r x : Forall scalar s -> utf16_item s = Some (r, x) -> good_part x /\ Forall scalar r.
Proof.
  intros Hs E. unfold utf16_item in E. apply oor_some in E. destruct E as [E|[_ E]].
  - destruct (escaped_char s) as [[r' v]|] eqn:Ee; [|discriminate]. cbn [obind snd fst] in E.
    assert (Hr' : Forall scalar r').
    { apply escaped_char_spec in Ee. destruct Ee as (t & -> & _). inversion Hs as [|? ? _ H']; subst. now apply Forall_app in H'. }
    destruct (N.ltb_spec v 65536); [injection E as <- <-; split; [repeat constructor; lia|easy]|].
    destruct (char_from_u32 v) as [c|] eqn:Ec; [|discriminate]. injection E as <- <-. apply char_from_u32_spec in Ec. destruct Ec as [-> Hc].
    split; [now apply utf16_char_small|easy].
  - destruct (plain_run s) as [[r' a]|] eqn:Ep; [|discriminate]. injection E as <- <-. unfold plain_run in Ep.
    apply take_while1_some in Ep. destruct Ep as (_ & -> & _). apply Forall_app in Hs. easy.
Qed.
Lemma utf16_items_good f : forall s r l, Forall scalar s -> many_items utf16_item f s = (r, l) -> Forall good_part l.
Proof.
  induction f as [|f IH]; intros s r l Hs E; cbn [many_items] in E; [injection E as _ <-; constructor|].
  destruct (utf16_item s) as [[s' x]|] eqn:Ei; [|injection E as _ <-; constructor].
  destruct (utf16_item_good _ _ _ Hs Ei) as [Hx Hs'].
  destruct (many_items utf16_item f s') as [r' l'] eqn:Em. injection E as _ <-. constructor; [easy|]. eapply IH; eauto.
Qed.
Lemma utf16_quoted_good s r l : Forall scalar s -> quoted utf16_item s = Some (r, l) -> Forall good_part l.
Proof.
  intros Hs. unfold quoted. destruct (char1 34 s) as [s1|] eqn:E1; [|discriminate]. apply char1_some in E1. subst s. cbn [obind].
  destruct (many_items utf16_item (length s1) s1) as [s2 l'] eqn:Em. destruct (char1 34 s2); [|discriminate]. intros [= _ <-].
  inversion Hs; subst. eapply utf16_items_good; eauto.
Qed.

Lemma utf16_iff s r t : Forall scalar s -> string_parse_utf16 s = Some (r, t) <->
  exists body els, s = 34 :: body ++ 34 :: r /\ elements body els /\ all_units 65536 utf16_char els (utf16_encode t) /\ Forall scalar t.
Proof.
  intros Hs. unfold string_parse_utf16.
  assert (Hfin : forall l, Forall good_part l -> forall r : str,
    match fold_left part_append l (PartString []) with
    | PartString t => Some (r, t) | PartVec v => t <-? utf16_decode v;; Some (r, t) end = Some (r, t) <->
    flat_map part_into_vec l = utf16_encode t /\ Forall scalar t).
  { intros l Hl r0. pose proof (fold_part l (PartString [])) as Ef. simpl in Ef.
    assert (Hg : good_part (fold_left part_append l (PartString []))) by (apply good_fold; [easy|constructor]).
    destruct (fold_left part_append l (PartString [])) as [v|t']; simpl in Ef, Hg.
    - rewrite <- Ef. rewrite <- utf16_decode_iff by easy. destruct (utf16_decode v) as [t'|]; cbn [obind]; [|easy].
      split; intros E; now injection E as ->.
    - rewrite <- Ef. split; [intros [= ->]; easy|]. intros [E Ht]. apply (f_equal utf16_decode) in E.
      rewrite !utf16_decode_encode in E by easy. now injection E as ->. }
  split.
  - destruct (quoted utf16_item s) as [[r' l]|] eqn:E; [|discriminate]. cbn [obind fst snd].
    pose proof (utf16_quoted_good _ _ _ Hs E) as Hl.
    apply (quoted_sound utf16_item part_into_vec (unit_of 65536 utf16_char) utf16_char utf16_esc utf16_raw utf16_stop) in E.
    destruct E as (body & els & -> & He & Ev). intros Hf.
    assert (r' = r) as ->.
    { destruct (fold_left part_append l (PartString [])) as [v|t']; [|now injection Hf].
      destruct (utf16_decode v); [now injection Hf|discriminate]. }
    apply Hfin in Hf; [|easy]. destruct Hf as [Hf Ht]. exists body, els. rewrite Hf in Ev. apply eval_spec in Ev. auto.
  - intros (body & els & -> & He & Ha & Ht). apply eval_spec in Ha.
    destruct (quoted_complete utf16_item part_into_vec (unit_of 65536 utf16_char) utf16_char utf16_esc utf16_raw utf16_stop _ _ _ r He Ha) as (l & E & Hl).
    rewrite E. cbn [obind fst snd]. apply Hfin; [|easy]. now apply (utf16_quoted_good _ _ _ Hs E).
Qed.

(** UTF-32 strings. *)
Lemma utf32_esc s r v : escaped_char s = Some (r, v) ->
  match unit_of 0 (fun c => [c]) v with Some us => exists x, utf32_item s = Some (r, x) /\ x = us | None => utf32_item s = None end.
Proof.
  intros E. unfold utf32_item. rewrite E. cbn [obind snd fst]. rewrite (escape_head _ _ _ E). unfold unit_of.
  destruct (N.ltb_spec v 0); [lia|]. destruct (char_from_u32 v); cbn; [eexists; split; [reflexivity|easy]|easy].
Qed.
Lemma utf32_raw c s : raw c = true -> exists run s' x, utf32_item (c :: s) = Some (s', x) /\ c :: s = run ++ s' /\ run <> [] /\
  forallb raw run = true /\ x = flat_map (fun c => [c]) run.
Proof.
  intros Hc. destruct (plain_run_raw c s Hc) as (run & s' & E & Es & Hne & Hr). exists run, s', run.
  unfold utf32_item. rewrite raw_not_escape by easy. cbn [obind oor]. rewrite E. repeat split; try easy. clear.
  induction run as [|x run IH]; simpl; [easy|]. now rewrite <- IH.
Qed.
Lemma utf32_stop s : escaped_char s = None -> match s with [] => True | c :: _ => raw c = false end -> utf32_item s = None.
Proof. intros E Hs. unfold utf32_item. rewrite E, plain_run_stop by easy. easy. Qed.

Lemma elements_scalar body els : elements body els -> Forall scalar body -> forall t, all_units 0 (fun c => [c]) els t -> Forall scalar t.
Proof.
  induction 1 as [|c s l Hc He IH|e v s l Hv Hm He IH]; intros Hb t (uss & Hf & ->).
  - inversion Hf. constructor.
  - inversion Hb; subst. inversion Hf as [|? u ? uss' Hu Hf']; subst. simpl in Hu. subst u. constructor; [easy|]. apply IH; [easy|now exists uss'].
  - inversion Hb as [|? ? _ Hb']; subst. apply Forall_app in Hb'. inversion Hf as [|? u ? uss' Hu Hf']; subst. simpl in Hu.
    destruct (N.ltb_spec v 0); [lia|]. destruct Hu as [Hs ->]. constructor; [easy|]. apply IH; [easy|now exists uss'].
Qed.

Lemma utf32_iff s r t : Forall scalar s -> string_parse_utf32 s = Some (r, t) <->
  exists body els, s = 34 :: body ++ 34 :: r /\ elements body els /\ all_units 0 (fun c => [c]) els t /\ Forall scalar t.
Proof.
  intros Hs. unfold string_parse_utf32. split.
  - destruct (quoted utf32_item s) as [[r' l]|] eqn:E; [|discriminate]. intros [= <- <-].
    apply (quoted_sound utf32_item (fun x => x) (unit_of 0 (fun c => [c])) (fun c => [c]) utf32_esc utf32_raw utf32_stop) in E.
    destruct E as (body & els & -> & He & Ev). exists body, els.
    assert (Ev' : eval (unit_of 0 (fun c => [c])) (fun c => [c]) els = Some (concat l)) by (rewrite Ev; f_equal; apply flat_map_id).
    clear Ev. rename Ev' into Ev. apply eval_spec in Ev.
    split; [easy|]. split; [easy|]. split; [easy|]. inversion Hs as [|? ? _ Hs']; subst. apply Forall_app in Hs'.
    eapply elements_scalar; eauto. easy.
  - intros (body & els & -> & He & Ha & _). apply eval_spec in Ha.
    destruct (quoted_complete utf32_item (fun x => x) (unit_of 0 (fun c => [c])) (fun c => [c]) utf32_esc utf32_raw utf32_stop _ _ _ r He Ha) as (l & -> & Hl).
    cbn [obind fst snd]. do 2 f_equal. rewrite <- Hl. symmetry. apply flat_map_id.
Qed.

(** Wide strings. *)
Lemma wide_esc s r v : escaped_char s = Some (r, v) ->
  match Some [v] with Some us => exists x, wide_item s = Some (r, x) /\ [x] = us | None => wide_item s = None end.
Proof. intros E. unfold wide_item. rewrite E. cbn. eauto. Qed.
Lemma wide_raw c s : raw c = true -> exists run s' x, wide_item (c :: s) = Some (s', x) /\ c :: s = run ++ s' /\ run <> [] /\
  forallb raw run = true /\ [x] = flat_map (fun c => [c]) run.
Proof.
  intros Hc. exists [c], s, c. unfold wide_item. rewrite raw_not_escape by easy. cbn [oor].
  pose proof Hc as Hc'. unfold raw in Hc'. apply negb_true_iff in Hc'. rewrite Hc'. simpl. rewrite Hc. easy.
Qed.
Lemma wide_stop s : escaped_char s = None -> match s with [] => True | c :: _ => raw c = false end -> wide_item s = None.
Proof.
  intros E Hs. unfold wide_item. rewrite E. cbn [oor]. destruct s as [|c s]; [easy|]. unfold raw in Hs. apply negb_false_iff in Hs. now rewrite Hs.
Qed.

Lemma eval_wide l : eval (fun v => Some [v]) (fun c => [c]) l = Some (map (fun e => match e with Raw c => c | Escaped v => v end) l).
Proof. induction l as [|[c|v] l IH]; cbn [eval eval1]; [easy|now rewrite IH..]. Qed.
Lemma flat_map_single {A} (l : list A) : flat_map (fun x => [x]) l = l.
Proof. induction l as [|x l IH]; simpl; [easy|]. now rewrite IH. Qed.

Lemma wide_iff s r ws : string_parse_wide s = Some (r, ws) <->
  exists body els, s = 34 :: body ++ 34 :: r /\ elements body els /\ ws = map (fun e => match e with Raw c => c | Escaped v => v end) els.
Proof.
  unfold string_parse_wide. split.
  - intros E.
    apply (quoted_sound wide_item (fun x => [x]) (fun v => Some [v]) (fun c => [c]) wide_esc wide_raw wide_stop) in E.
    destruct E as (body & els & -> & He & Ev). exists body, els. rewrite eval_wide, flat_map_single in Ev. injection Ev as <-. auto.
  - intros (body & els & -> & He & ->).
    destruct (quoted_complete wide_item (fun x => [x]) (fun v => Some [v]) (fun c => [c]) wide_esc wide_raw wide_stop _ _ _ r He (eval_wide els)) as (l & -> & Hl).
    now rewrite flat_map_single in Hl; subst.
Qed.
