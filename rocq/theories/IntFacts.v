(** The integer literal parser against SpecInt.v. *)
From Verif Require Import Base Utf Lex LexFloat StrFacts LexFacts SpecInt.
From Coq Require Import String List.
Local Open Scope list_scope.
Local Open Scope N_scope.

Lemma to_digit_spec r c d : r <= 16 -> to_digit r c = Some d <-> digit r c (Z.of_N d).
Proof.
  intros Hr. unfold to_digit, digit, is_digit, is_lower, is_upper.
  destruct (N.leb_spec 48 c), (N.leb_spec c 57); simpl;
  destruct (N.leb_spec 97 c), (N.leb_spec c 122); simpl;
  destruct (N.leb_spec 65 c), (N.leb_spec c 90); simpl; try lia;
  repeat match goal with |- context [?a <? ?b] => destruct (N.ltb_spec a b) end;
  (split; [intros E; try discriminate; injection E as <-; lia|intros [[E|[E|E]] Hl]; try (f_equal; lia); lia]).
Qed.

Lemma radix_digit_spec r c : r <= 16 -> is_radix_digit r c = true <-> exists d, digit r c d.
Proof.
  intros Hr. unfold is_radix_digit. destruct (to_digit r c) eqn:E.
  - split; [|easy]. intros _. apply to_digit_spec in E; eauto.
  - split; [discriminate|]. intros [d Hd].
    assert (Hd' : to_digit r c = Some (Z.to_N d)). { apply to_digit_spec; [easy|]. rewrite Z2N.id; [easy|]. unfold digit in Hd. lia. }
    congruence.
Qed.

Lemma digit_det b c d d' : digit b c d -> digit b c d' -> d = d'.
Proof. unfold digit. lia. Qed.

(** Value with an accumulator. *)
Inductive numeral_from (base : N) : Z -> str -> Z -> Prop :=
| nf_nil a : numeral_from base a [] a
| nf_cons a c d s v : digit base c d -> numeral_from base (a * Z.of_N base + d)%Z s v -> numeral_from base a (c :: s) v.

Lemma numeral_from_snoc b a s v c d : numeral_from b a s v -> digit b c d -> numeral_from b a (s ++ [c]) (v * Z.of_N b + d)%Z.
Proof.
  induction 1 as [a|a c' d' s v Hd Hn IH]; intros Hc; simpl.
  - econstructor; [exact Hc|constructor].
  - econstructor; eauto.
Qed.

Lemma numeral_from_iff b s v : numeral b s v <-> s <> [] /\ numeral_from b 0 s v.
Proof.
  split.
  - induction 1 as [c d Hd|s v c d Hn [Hne IH] Hd].
    + split; [easy|]. econstructor; [exact Hd|]. rewrite Z.mul_0_l, Z.add_0_l. constructor.
    + split; [now destruct s|]. now apply numeral_from_snoc.
  - intros [Hne Hn].
    assert (Hg : forall s' a, numeral b s' a -> forall t v, numeral_from b a t v -> numeral b (s' ++ t) v).
    { intros s' a Hs' t w Ht. revert s' Hs'. induction Ht as [a|a c d t w Hd Ht IH]; intros s' Hs'; [now rewrite app_nil_r|].
      replace (s' ++ c :: t) with ((s' ++ [c]) ++ t) by now rewrite <- app_assoc. apply IH. now constructor. }
    inversion Hn as [|? c d t w Hd Ht]; subst; [easy|]. rewrite Z.mul_0_l, Z.add_0_l in Ht.
    change (c :: t) with ([c] ++ t). eapply Hg; [|exact Ht]. now constructor.
Qed.

Lemma numeral_from_mono b a s v : 2 <= b -> (0 <= a)%Z -> numeral_from b a s v -> (a <= v)%Z.
Proof.
  intros Hb Ha Hn. induction Hn as [a|a c d s v Hd Hn IH]; [lia|].
  assert (Hd0 : (0 <= d)%Z) by (unfold digit in Hd; lia). assert (0 <= a * Z.of_N b + d)%Z by nia. specialize (IH H). nia.
Qed.

Lemma numeral_from_det b a s v w : numeral_from b a s v -> numeral_from b a s w -> v = w.
Proof.
  intros Hv. revert w. induction Hv; intros w Hw; inversion Hw; subst; [easy|].
  match goal with h1 : digit b c _, h2 : digit b c _ |- _ => rewrite (digit_det _ _ _ _ h1 h2) in * end. auto.
Qed.

Lemma parse_i128_spec b s : 2 <= b <= 16 -> forall a v, (0 <= a)%Z ->
  parse_i128_from b a s = Some v <-> numeral_from b a s v /\ ((a <= int_max)%Z \/ s <> [] -> (v <= int_max)%Z).
Proof.
  intros Hb. change i128_max with int_max in *. induction s as [|c s IH]; intros a v Ha.
  - simpl. split; [intros [= <-]|]; [|intros [Hn _]; now inversion Hn]. split; [constructor|]. intros [?|?]; [easy|congruence].
  - simpl. change i128_max with int_max. destruct (to_digit b c) as [d|] eqn:Ed.
    + apply to_digit_spec in Ed; [|lia]. assert (Hd0 : (0 <= Z.of_N d)%Z) by lia.
      assert (Hv1 : (0 <= a * Z.of_N b + Z.of_N d)%Z) by (apply Z.add_nonneg_nonneg; [apply Z.mul_nonneg_nonneg|]; lia).
      destruct (Z.leb_spec (a * Z.of_N b) int_max), (Z.leb_spec (a * Z.of_N b + Z.of_N d) int_max).
      * rewrite IH by easy. split.
        -- intros [Hn Hl]. split; [econstructor; eauto|]. intros _. apply Hl. now left.
        -- intros [Hn Hl]. inversion Hn as [|? ? d' ? ? Hd' Hn']; subst. rewrite (digit_det _ _ _ _ Hd' Ed) in Hn'.
           split; [easy|]. intros _. apply Hl. now right.
      * split; [discriminate|]. intros [Hn Hl]. exfalso. inversion Hn as [|? ? d' ? ? Hd' Hn']; subst.
        rewrite (digit_det _ _ _ _ Hd' Ed) in Hn'. apply numeral_from_mono in Hn'; [|lia|easy].
        assert (Hl' : (v <= int_max)%Z) by (apply Hl; right; discriminate). clear - Hl' Hn' H H0. lia.
      * clear - Hd0 H H0. lia.
      * split; [discriminate|]. intros [Hn Hl]. exfalso. inversion Hn as [|? ? d' ? ? Hd' Hn']; subst.
        rewrite (digit_det _ _ _ _ Hd' Ed) in Hn'. apply numeral_from_mono in Hn'; [|lia|easy].
        assert (Hl' : (v <= int_max)%Z) by (apply Hl; right; discriminate). clear - Hl' Hn' H H0. lia.
    + split; [discriminate|]. intros [Hn _]. inversion Hn as [|? ? d ? ? Hd _]; subst.
      assert (Hr : is_radix_digit b c = true). { apply radix_digit_spec; [lia|eauto]. }
      unfold is_radix_digit in Hr. now rewrite Ed in Hr.
Qed.

(** Digits of a base. *)
Lemma numeral_digits b a s v : 2 <= b <= 16 -> numeral_from b a s v -> forallb (is_radix_digit b) s = true.
Proof.
  intros Hb Hn. induction Hn as [|a c d s v Hd Hn IH]; [easy|]. simpl. rewrite IH, andb_true_r.
  apply radix_digit_spec; [lia|eauto].
Qed.
Lemma digits_numeral b s : 2 <= b <= 16 -> forallb (is_radix_digit b) s = true -> forall a, exists v, numeral_from b a s v.
Proof.
  intros Hb. induction s as [|c s IH]; simpl; intros Hs a; [eexists; constructor|].
  apply andb_true_iff in Hs. destruct Hs as [Hc Hs]. apply radix_digit_spec in Hc; [|lia]. destruct Hc as [d Hd].
  destruct (IH Hs (a * Z.of_N b + d)%Z) as [v Hv]. exists v. econstructor; eauto.
Qed.

(** Tags. *)
Lemma tag_some t s r : tag t s = Some r <-> s = st t ++ r.
Proof. unfold tag. split; [apply strip_prefix_some|intros ->; apply strip_prefix_app]. Qed.

Lemma lower_is c x : is_lower x = true -> (x =? lower c) = true <-> c = x \/ c = x - 32.
Proof.
  unfold lower, is_lower, is_upper. rewrite N.eqb_eq.
  destruct (N.leb_spec 65 c), (N.leb_spec c 90); simpl; rewrite andb_true_iff, !N.leb_le; lia.
Qed.

Lemma strip_nc_letter x s r : is_lower x = true -> strip_prefix_nc [x] s = Some r <-> s = x :: r \/ s = (x - 32) :: r.
Proof.
  intros Hx. destruct s as [|c s]; simpl.
  - split; [discriminate|intros [E|E]; discriminate].
  - destruct (x =? lower c) eqn:E.
    + apply lower_is in E; [|easy]. split; [intros [= <-]|].
      * destruct E as [-> | ->]; auto.
      * intros [E'|E']; injection E' as _ <-; reflexivity.
    + split; [discriminate|]. intros [E'|E']; injection E' as -> ->;
        rewrite (proj2 (lower_is _ x Hx)) in E; auto; discriminate.
Qed.

Lemma strip_nc_zero_letter x s r : is_lower x = true ->
  strip_prefix_nc [48; x] s = Some r <-> s = 48 :: x :: r \/ s = 48 :: (x - 32) :: r.
Proof.
  intros Hx. destruct s as [|c s]; [split; [discriminate|intros [E|E]; discriminate]|].
  change (strip_prefix_nc [48; x] (c :: s)) with (if 48 =? lower c then strip_prefix_nc [x] s else None).
  destruct (48 =? lower c) eqn:E.
  - assert (c = 48) as ->.
    { apply N.eqb_eq in E. unfold lower, is_upper in E. destruct (N.leb_spec 65 c), (N.leb_spec c 90); simpl in E; lia. }
    rewrite strip_nc_letter by easy. split; (intros [E'|E']; [left|right]; congruence).
  - split; [discriminate|]. intros [E'|E']; injection E' as -> ->; discriminate.
Qed.

Lemma letter_tag t x s r : st t = [x] -> is_lower x = true -> tag_no_case t s = Some r <-> s = x :: r \/ s = (x - 32) :: r.
Proof. intros E. unfold tag_no_case. rewrite E. apply strip_nc_letter. Qed.
Lemma zero_letter_tag t x s r : st t = [48; x] -> is_lower x = true ->
  tag_no_case t s = Some r <-> s = 48 :: x :: r \/ s = 48 :: (x - 32) :: r.
Proof. intros E. unfold tag_no_case. rewrite E. apply strip_nc_zero_letter. Qed.

Lemma opt_none {A} (o : option A) : (forall a, o <> Some a) -> o = None.
Proof. destruct o as [a|]; [|easy]. intros Hn. now destruct (Hn a). Qed.

(** Suffixes. *)
Lemma size_suffix_sound s r z : size_suffix_parse s = Some (r, z) ->
  exists x ts tu, In (x, (ts, tu)) size_suffixes /\ s = x ++ r /\ suffix_type false (Some z) = Some ts /\ suffix_type true (Some z) = Some tu.
Proof.
  unfold size_suffix_parse. destruct (oor (tag "ll" s) (tag "LL" s)) as [r1|] eqn:E1.
  { intros [= <- <-]. apply oor_some in E1. destruct E1 as [E1|[_ E1]]; apply tag_some in E1; subst;
      do 3 eexists; (split; [|split; [reflexivity|split; reflexivity]]); simpl; auto 10. }
  destruct (tag_no_case "l" s) as [r1|] eqn:E2.
  { intros [= <- <-]. apply (letter_tag _ 108) in E2; [|easy..]. destruct E2 as [-> | ->].
    - exists (st "l"), BLong, BULong. split; [simpl; auto 10|repeat split; easy].
    - exists (st "L"), BLong, BULong. split; [simpl; auto 10|repeat split; easy]. }
  destruct (tag_no_case "z" s) as [r1|] eqn:E3; [|discriminate].
  intros [= <- <-]. apply (letter_tag _ 122) in E3; [|easy..]. destruct E3 as [-> | ->].
  - exists (st "z"), BSSizeT, BSizeT. split; [simpl; auto 10|repeat split; easy].
  - exists (st "Z"), BSSizeT, BSizeT. split; [simpl; auto 10|repeat split; easy].
Qed.

Lemma u_suffix_sound s r : tag_no_case "u" s = Some r -> exists u, In u u_suffix /\ s = u ++ r.
Proof.
  intros E. apply (letter_tag _ 117) in E; [|easy..]. destruct E as [-> | ->].
  - exists (st "u"). split; [now left|easy].
  - exists (st "U"). split; [now right; left|easy].
Qed.

Lemma int_suffix_sound s u z : int_parse_suffix s = Some (u, z) -> suffixed s (suffix_type u z).
Proof.
  unfold int_parse_suffix. rewrite all_consuming_some. destruct (tag_no_case "u" s) as [s1|] eqn:Eu.
  - apply u_suffix_sound in Eu. destruct Eu as (w & Hw & ->).
    destruct (size_suffix_parse s1) as [[s2 z']|] eqn:Ez; intros [= -> <- <-].
    + apply size_suffix_sound in Ez. destruct Ez as (x & ts & tu & Hx & -> & Hts & Htu). rewrite app_nil_r, Htu. eapply sx_u_size; eauto.
    + rewrite app_nil_r. now constructor.
  - destruct (size_suffix_parse s) as [[s1 z']|] eqn:Ez.
    + apply size_suffix_sound in Ez. destruct Ez as (x & ts & tu & Hx & -> & Hts & Htu).
      destruct (tag_no_case "u" s1) as [s2|] eqn:Eu1; intros [= -> <- <-].
      * apply u_suffix_sound in Eu1. destruct Eu1 as (w & Hw & ->). rewrite app_nil_r, Htu. eapply sx_size_u; eauto.
      * rewrite app_nil_r, Hts. eapply sx_size; eauto.
    + destruct s; [|discriminate]. intros [= <- <-]. constructor.
Qed.

Lemma int_suffix_complete s ty : suffixed s ty -> exists u z, int_parse_suffix s = Some (u, z) /\ suffix_type u z = ty.
Proof.
  destruct 1 as [|u Hu|z ts tu Hz|u z ts tu Hu Hz|u z ts tu Hu Hz];
    try (destruct Hu as [Hu|[Hu|[]]]; subst u);
    try (repeat (destruct Hz as [Hz|Hz]; [injection Hz as <- <- <-|]); [..|destruct Hz]);
    (do 2 eexists; split; reflexivity).
Qed.

(** A suffix does not continue a digit string. *)
Lemma suffix_stops sx ty p : suffixed sx ty -> (forall c, p c = true -> is_radix_digit 16 c = true) ->
  match sx with [] => True | c :: _ => p c = false end.
Proof.
  intros Hs Hp.
  assert (Hq : match sx with [] => True | c :: _ => is_radix_digit 16 c = false end).
  { destruct Hs as [|u Hu|z ts tu Hz|u z ts tu Hu Hz|u z ts tu Hu Hz];
    try (destruct Hu as [Hu|[Hu|[]]]; subst u);
    try (repeat (destruct Hz as [Hz|Hz]; [injection Hz as <- <- <-|]); [..|destruct Hz]); easy. }
  destruct sx as [|c sx]; [easy|]. destruct (p c) eqn:E; [|easy]. apply Hp in E. congruence.
Qed.
Lemma suffix_no_letter sx ty : suffixed sx ty ->
  match sx with [] => True | c :: _ => c <> 120 /\ c <> 88 /\ c <> 98 /\ c <> 66 end.
Proof.
  intros Hs. destruct Hs as [|u Hu|z ts tu Hz|u z ts tu Hu Hz|u z ts tu Hu Hz];
    try (destruct Hu as [Hu|[Hu|[]]]; subst u);
    try (repeat (destruct Hz as [Hz|Hz]; [injection Hz as <- <- <-|]); [..|destruct Hz]);
    [exact I|..]; cbn; repeat split; discriminate.
Qed.

(** Digits. *)
Lemma radix_mono b b' c : b <= b' -> b' <= 16 -> is_radix_digit b c = true -> is_radix_digit b' c = true.
Proof.
  intros Hb Hb'. rewrite !radix_digit_spec by lia. intros [d Hd]. exists d. unfold digit in *. lia.
Qed.
Lemma is_digit_radix c : is_digit c = is_radix_digit 10 c.
Proof.
  apply Bool.eq_true_iff_eq. rewrite radix_digit_spec by lia. unfold is_digit, digit.
  rewrite andb_true_iff, !N.leb_le. split; [|intros [d Hd]; lia].
  intros Hc. exists (Z.of_N c - 48)%Z. lia.
Qed.

(** A digit parser: a run of digits that fits. *)
Definition run_of (b : N) (s r : str) (v : Z) : Prop :=
  exists ds, s = ds ++ r /\ numeral b ds v /\ (v <= int_max)%Z /\ match r with [] => True | c :: _ => is_radix_digit b c = false end.

Lemma run_parse b s r v : 2 <= b <= 16 ->
  (x <-? take_while1 (is_radix_digit b) s ;; v <-? parse_i128 b (snd x) ;; Some (fst x, v)) = Some (r, v) <-> run_of b s r v.
Proof.
  intros Hb. split.
  - intros E. destruct (take_while1 (is_radix_digit b) s) as [[r' ds]|] eqn:Et; [|discriminate].
    simpl in E. destruct (parse_i128 b ds) as [w|] eqn:Ep; [|discriminate]. injection E as -> ->.
    apply take_while1_some in Et. destruct Et as (Hne & -> & Hds & Hr).
    unfold parse_i128 in Ep. apply parse_i128_spec in Ep; [|easy|lia]. destruct Ep as [Hn Hl].
    exists ds. split; [easy|]. split; [now apply numeral_from_iff|]. split; [now apply Hl; right|easy].
  - intros (ds & -> & Hn & Hl & Hr). apply numeral_from_iff in Hn. destruct Hn as [Hne Hn].
    rewrite (proj2 (take_while1_some (is_radix_digit b) (ds ++ r) ds r)).
    + simpl. unfold parse_i128. rewrite (proj2 (parse_i128_spec b ds Hb 0 v ltac:(lia))); [easy|now split].
    + split; [easy|]. split; [easy|]. split; [now apply (numeral_digits b 0 ds v)|easy].
Qed.

Lemma take_while1_ext p q s : (forall c, p c = q c) -> take_while1 p s = take_while1 q s.
Proof.
  intros Hpq. unfold take_while1. assert (E : take_while p s = take_while q s).
  { induction s as [|c s IH]; simpl; [easy|]. now rewrite Hpq, IH. }
  now rewrite E.
Qed.

Lemma run_letter b s r v x : 2 <= b <= 16 -> is_lower x = true ->
  (s1 <-? strip_prefix_nc [48; x] s ;; y <-? take_while1 (is_radix_digit b) s1 ;; v <-? parse_i128 b (snd y) ;; Some (fst y, v)) = Some (r, v) <->
  exists s1, (s = 48 :: x :: s1 \/ s = 48 :: (x - 32) :: s1) /\ run_of b s1 r v.
Proof.
  intros Hb Hx. split.
  - destruct (strip_prefix_nc [48; x] s) as [s1|] eqn:Et; [|discriminate]. simpl obind. intros E.
    apply run_parse in E; [|easy]. apply strip_nc_zero_letter in Et; [|easy]. eauto.
  - intros (s1 & Es & Hr). rewrite (proj2 (strip_nc_zero_letter x s s1 Hx) Es). simpl obind. now apply run_parse.
Qed.

Definition hex_run s r v := exists s1, (s = 48 :: 120 :: s1 \/ s = 48 :: 88 :: s1) /\ run_of 16 s1 r v.
Definition bin_run s r v := exists s1, (s = 48 :: 98 :: s1 \/ s = 48 :: 66 :: s1) /\ run_of 2 s1 r v.
Definition oct_run s r v := exists s1, s = 48 :: s1 /\ run_of 8 s1 r v.

Lemma int_digits_split s : int_digits s =
  let hex := s1 <-? strip_prefix_nc [48; 120] s ;; y <-? take_while1 (is_radix_digit 16) s1 ;; v <-? parse_i128 16 (snd y) ;; Some (fst y, v) in
  let bin := s1 <-? strip_prefix_nc [48; 98] s ;; y <-? take_while1 (is_radix_digit 2) s1 ;; v <-? parse_i128 2 (snd y) ;; Some (fst y, v) in
  let oct := s1 <-? char1 48 s ;; y <-? take_while1 (is_radix_digit 8) s1 ;; v <-? parse_i128 8 (snd y) ;; Some (fst y, v) in
  let dec := y <-? take_while1 (is_radix_digit 10) s ;; v <-? parse_i128 10 (snd y) ;; Some (fst y, v) in
  oor hex (oor bin (oor oct dec)).
Proof.
  unfold int_digits. rewrite (take_while1_ext is_digit (is_radix_digit 10)) by apply is_digit_radix.
  assert (E : tag "0" s = char1 48 s).
  { destruct s as [|c s]; [easy|]. unfold tag. change (st "0") with [48]. cbn [strip_prefix char1]. rewrite N.eqb_sym.
    now destruct (c =? 48). }
  rewrite E. reflexivity.
Qed.

Lemma run_of_head b s r v : 2 <= b <= 16 -> run_of b s r v -> exists c s', s = c :: s' /\ is_radix_digit b c = true.
Proof.
  intros Hb (ds & -> & Hn & _). apply numeral_from_iff in Hn. destruct Hn as [Hne Hn].
  inversion Hn as [|? c d t w Hd Ht]; subst; [easy|]. exists c, (t ++ r). split; [easy|]. apply radix_digit_spec; [lia|eauto].
Qed.

(** The octal reading of octal digits is at most the decimal one. *)
Lemma octal_le_decimal s : forall a b v w, (0 <= a <= b)%Z -> numeral_from 8 a s v -> numeral_from 10 b s w -> (v <= w)%Z.
Proof.
  induction s as [|c s IH]; intros a b v w Hab Hv Hw; inversion Hv; inversion Hw; subst; [lia|].
  match goal with h1 : digit 8 c ?x, h2 : digit 10 c ?y |- _ =>
    assert (x = y) as -> by (unfold digit in *; lia); assert (0 <= y)%Z by (unfold digit in *; lia) end.
  eapply IH; [|eassumption..]. lia.
Qed.

Lemma numeral_from_app b s t : forall a w, numeral_from b a (s ++ t) w -> exists v, numeral_from b a s v /\ numeral_from b v t w.
Proof.
  induction s as [|c s IH]; intros a w Hw; [exists a; split; [constructor|easy]|].
  inversion Hw; subst. edestruct IH as (v & Hv1 & Hv2); [eassumption|]. exists v. split; [econstructor; eauto|easy].
Qed.

(** The decimal reading of digits that start with 0 and an octal digit and that has been reached. *)
Lemma decimal_after_octal ds r v c t : ds = 48 :: c :: t -> is_radix_digit 8 c = true -> numeral 10 ds v -> (v <= int_max)%Z ->
  match r with [] => True | c :: _ => is_radix_digit 10 c = false end ->
  exists r' v', run_of 8 (c :: t ++ r) r' v'.
Proof.
  intros -> Hc Hn Hl Hr.
  destruct (take_while1 (is_radix_digit 8) (c :: t ++ r)) as [[r' o]|] eqn:Et.
  - apply take_while1_some in Et. destruct Et as (Hne & Eo & Ho & Hs). exists r'.
    destruct (digits_numeral 8 o ltac:(lia) Ho 0) as [w Hw]. exists w, o. split; [easy|].
    split; [now apply numeral_from_iff|]. split; [|easy].
    assert (Hp : exists t', c :: t = o ++ t').
    { clear - Eo Ho Hr. change (c :: t ++ r) with ((c :: t) ++ r) in Eo. revert o Eo Ho. generalize (c :: t). intros l.
      induction l as [|x l IH]; intros [|y o] Eo Ho; simpl in *; [eauto| |eauto|].
      - exfalso. subst r. apply andb_true_iff in Ho. destruct Ho as [Hy _].
        apply (radix_mono 8 10) in Hy; [congruence|lia..].
      - injection Eo as -> Eo. apply andb_true_iff in Ho. destruct (IH o Eo) as [t' Ht]; [easy|]. exists t'. now rewrite Ht. }
    destruct Hp as [t' Hp]. rewrite Hp in Hn. apply numeral_from_iff in Hn. destruct Hn as [_ Hn].
    change (48 :: o ++ t') with ((48 :: o) ++ t') in Hn. apply numeral_from_app in Hn. destruct Hn as (u & H1 & H2).
    assert (Hw10 : numeral_from 10 0 o u).
    { inversion H1 as [|? ? d ? ? Hd H1']; subst. assert (d = 0%Z) as -> by (unfold digit in Hd; lia). exact H1'. }
    pose proof (octal_le_decimal _ _ _ _ _ (conj (Z.le_refl 0) (Z.le_refl 0)) Hw Hw10) as Hle.
    assert (Hu0 : (0 <= u)%Z) by (eapply numeral_from_mono; [|apply Z.le_refl|exact Hw10]; lia).
    apply numeral_from_mono in H2; [|lia|easy]. lia.
  - exfalso. unfold take_while1 in Et. simpl in Et. rewrite Hc in Et.
    now destruct (take_while (is_radix_digit 8) (t ++ r)).
Qed.

Lemma hex_off s : (forall s1, s <> 48 :: 120 :: s1 /\ s <> 48 :: 88 :: s1) -> strip_prefix_nc [48; 120] s = None.
Proof. intros Hn. apply opt_none. intros s1 E. apply strip_nc_zero_letter in E; [|easy]. destruct (Hn s1). destruct E; contradiction. Qed.
Lemma bin_off s : (forall s1, s <> 48 :: 98 :: s1 /\ s <> 48 :: 66 :: s1) -> strip_prefix_nc [48; 98] s = None.
Proof. intros Hn. apply opt_none. intros s1 E. apply strip_nc_zero_letter in E; [|easy]. destruct (Hn s1). destruct E; contradiction. Qed.

Lemma digit_not_letter b c : 2 <= b <= 10 -> is_radix_digit b c = true -> 48 <= c <= 57.
Proof. intros Hb Hc. apply radix_digit_spec in Hc; [|lia]. destruct Hc as [d Hd]. unfold digit in Hd. lia. Qed.

Definition as_decimal (c : str) (v : Z) : Prop := exists r, (c = st "08" ++ r \/ c = st "09" ++ r) /\ numeral 10 c v.

Lemma int_digits_sound s r v : int_digits s = Some (r, v) ->
  exists c, s = c ++ r /\ (constant c v \/ as_decimal c v) /\ (v <= int_max)%Z.
Proof.
  rewrite int_digits_split. cbv zeta. intros E. apply oor_some in E. destruct E as [E|[_ E]].
  { apply run_letter in E; [|lia|easy]. destruct E as (s1 & Es & ds & -> & Hn & Hl & _).
    destruct Es as [-> | ->]; [exists (st "0x" ++ ds)|exists (st "0X" ++ ds)]; (split; [reflexivity|]); (split; [left|easy]);
      apply k_hex; simpl; auto. }
  apply oor_some in E. destruct E as [E|[_ E]].
  { apply run_letter in E; [|lia|easy]. destruct E as (s1 & Es & ds & -> & Hn & Hl & _).
    destruct Es as [-> | ->]; [exists (st "0b" ++ ds)|exists (st "0B" ++ ds)]; (split; [reflexivity|]); (split; [left|easy]);
      apply k_binary; simpl; auto. }
  apply oor_some in E. destruct E as [E|[Eo E]].
  { destruct (char1 48 s) as [s1|] eqn:Ec; [|discriminate]. simpl obind in E. apply run_parse in E; [|lia].
    apply char1_some in Ec. subst s. destruct E as (ds & -> & Hn & Hl & _). exists (st "0" ++ ds).
    split; [reflexivity|]. split; [left|easy]. now constructor. }
  apply run_parse in E; [|lia]. destruct E as (ds & -> & Hn & Hl & Hr). exists ds. split; [easy|]. split; [|easy].
  pose proof (proj1 (proj1 (numeral_from_iff _ _ _) Hn)) as Hne. pose proof (proj2 (proj1 (numeral_from_iff _ _ _) Hn)) as Hn0.
  destruct ds as [|c ds]; [easy|]. destruct (N.eq_dec c 48) as [-> |Hc].
  - destruct ds as [|c ds].
    + left. inversion Hn0 as [|? ? d ? ? Hd Ht]; subst. inversion Ht; subst.
      assert (d = 0%Z) as -> by (unfold digit in Hd; lia). apply k_octal_zero.
    + destruct (is_radix_digit 8 c) eqn:E8.
      * exfalso. destruct (decimal_after_octal _ r v c ds eq_refl E8 Hn Hl Hr) as (r' & v' & Hrun).
        assert (Ec : char1 48 ((48 :: c :: ds) ++ r) = Some (c :: ds ++ r)) by reflexivity.
        rewrite Ec in Eo. simpl obind in Eo. apply run_parse in Hrun; [|lia]. simpl app in Eo. congruence.
      * right. exists ds. split; [|easy]. inversion Hn0 as [|? ? d ? ? Hd Ht]; subst. inversion Ht as [|? ? d' ? ? Hd' Ht']; subst.
        assert (Hcs : c = 56 \/ c = 57).
        { destruct (N.eq_dec c 56), (N.eq_dec c 57); auto. exfalso.
          assert (Hx : is_radix_digit 8 c = true); [|congruence]. apply radix_digit_spec; [lia|]. exists d'. unfold digit in *. lia. }
        destruct Hcs as [-> | ->]; [now left|now right].
  - left. constructor; [easy|]. intros t Et. injection Et as -> _. now apply Hc.
Qed.

Lemma int_digits_complete c v sx ty : constant c v \/ as_decimal c v -> (v <= int_max)%Z -> suffixed sx ty ->
  int_digits (c ++ sx) = Some (sx, v).
Proof.
  intros Hc Hl Hs.
  assert (Hstop : forall b, 2 <= b <= 16 -> match sx with [] => True | c :: _ => is_radix_digit b c = false end).
  { intros b Hb. apply (suffix_stops sx ty); [easy|]. intros x. apply radix_mono; lia. }
  assert (Hdec : forall t, numeral 10 (c ++ t) v -> run_of 10 ((c ++ t) ++ sx) sx v).
  { intros t Hn. exists (c ++ t). repeat split; try easy. apply Hstop. lia. }
  rewrite int_digits_split. cbv zeta. destruct Hc as [Hc|Hc].
  - destruct Hc as [c v Hn Hz| |c v Hn|p c v Hp Hn|p c v Hp Hn].
    + assert (Hh : exists x t, c = x :: t /\ x <> 48).
      { apply numeral_from_iff in Hn. destruct c as [|x t]; [easy|]. exists x, t. split; [easy|]. intros ->. now apply (Hz t). }
      destruct Hh as (x & t & -> & Hx).
      rewrite hex_off by (intros s1; split; intros E; injection E; congruence).
      rewrite bin_off by (intros s1; split; intros E; injection E; congruence).
      destruct (char1 48 ((x :: t) ++ sx)) eqn:E1; [apply char1_some in E1; injection E1; congruence|]. simpl obind. simpl oor.
      apply run_parse; [lia|]. exists (x :: t). repeat split; try easy. apply Hstop. lia.
    + pose proof (suffix_no_letter _ _ Hs) as Hlt. change (st "0" ++ sx) with (48 :: sx).
      rewrite hex_off by (intros s1; split; intros E; injection E as ->; lia).
      rewrite bin_off by (intros s1; split; intros E; injection E as ->; lia).
      rewrite (proj2 (char1_some 48 _ _) eq_refl). simpl obind.
      match goal with |- oor None (oor None (oor ?o _)) = _ => assert (o = None) as ->; [|simpl oor] end.
      { apply opt_none. intros [r' v'] E. assert (v' = v') by easy. apply run_parse in E; [|lia].
        apply run_of_head in E; [|lia]. destruct E as (x & t & -> & Hx). rewrite (Hstop 8 ltac:(lia)) in Hx. discriminate. }
      apply run_parse; [lia|]. exists [48]. repeat split; try easy; [|apply Hstop; lia].
      constructor. unfold digit. lia.
    + change (st "0" ++ c) with (48 :: c). simpl app.
      assert (Hrun : run_of 8 (c ++ sx) sx v). { exists c. repeat split; try easy. apply Hstop. lia. }
      destruct (run_of_head 8 _ _ _ ltac:(lia) Hrun) as (x & t & Ex & Hx). apply digit_not_letter in Hx; [|lia].
      rewrite hex_off by (intros s1; rewrite Ex; split; intros E; injection E; intros; lia).
      rewrite bin_off by (intros s1; rewrite Ex; split; intros E; injection E; intros; lia).
      rewrite (proj2 (char1_some 48 _ _) eq_refl). simpl obind. apply run_parse in Hrun; [|lia]. now rewrite Hrun.
    + match goal with |- oor ?o _ = _ => assert (o = Some (sx, v)) as ->; [|easy] end.
      apply run_letter; [lia|easy|]. exists (c ++ sx). split; [|exists c; repeat split; try easy; apply Hstop; lia].
      destruct Hp as [<- |[<- |[]]]; [now left|now right].
    + rewrite hex_off by (intros s1; destruct Hp as [<- |[<- |[]]]; split; discriminate). cbn [obind oor].
      match goal with |- oor ?o _ = _ => assert (o = Some (sx, v)) as ->; [|easy] end.
      apply run_letter; [lia|easy|]. exists (c ++ sx). split; [|exists c; repeat split; try easy; apply Hstop; lia].
      destruct Hp as [<- |[<- |[]]]; [now left|now right].
  - destruct Hc as (t & Ht & Hn).
    assert (Hh : exists x, c = 48 :: x :: t /\ (x = 56 \/ x = 57)) by (destruct Ht as [-> | ->]; eexists; (split; [reflexivity|]); [now left|now right]).
    destruct Hh as (x & -> & Hx). simpl app.
    rewrite hex_off by (intros s1; split; intros E; injection E; intros; lia).
    rewrite bin_off by (intros s1; split; intros E; injection E; intros; lia).
    rewrite (proj2 (char1_some 48 _ _) eq_refl). simpl obind.
    match goal with |- oor None (oor None (oor ?o _)) = _ => assert (o = None) as ->; [|simpl oor] end.
    { apply opt_none. intros [r' v'] E. apply run_parse in E; [|lia].
      apply run_of_head in E; [|lia]. destruct E as (y & t' & Ey & Hy). injection Ey as <- _.
      apply radix_digit_spec in Hy; [|lia]. destruct Hy as [d Hd]. unfold digit in Hd. lia. }
    apply run_parse; [lia|]. exists (48 :: x :: t). repeat split; try easy. apply Hstop. lia.
Qed.

Lemma int_parse_iff s v ty : int_parse_str s = Some ([], mk_int v ty) <-> int_literal s v ty \/ misread_decimal s v ty.
Proof.
  unfold int_parse_str. split.
  - destruct (int_digits s) as [[r v']|] eqn:Ed; [|discriminate]. simpl obind.
    destruct (int_parse_suffix r) as [[u z]|] eqn:Es; [|discriminate]. simpl obind. intros [= <- <-].
    apply int_digits_sound in Ed. apply int_suffix_sound in Es. destruct Ed as (c & -> & [Hc|(t & Ht & Hn)] & Hl).
    + left. exists c, r. auto.
    + right. exists c, r, t. auto.
  - intros Hx. assert (exists c sx, s = c ++ sx /\ (constant c v \/ as_decimal c v) /\ suffixed sx ty /\ (v <= int_max)%Z) as (c & sx & -> & Hc & Hs & Hl).
    { destruct Hx as [(c & sx & -> & Hc & Hs & Hl)|(c & sx & t & -> & Ht & Hn & Hs & Hl)]; exists c, sx; repeat split; auto.
      right. exists t. auto. }
    rewrite (int_digits_complete c v sx ty) by easy. simpl obind. destruct (int_suffix_complete _ _ Hs) as (u & z & -> & <-). reflexivity.
Qed.
