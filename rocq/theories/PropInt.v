(** C25, C26: integer literals. *)
From Verif Require Import Base Utf Lex LexFloat Token StrFacts LexFacts SpecInt IntFacts.
From Coq Require Import String List.
Local Open Scope string_scope.
Local Open Scope list_scope.

(** C25 and C26: what is accepted, with which value and which type. *)
Theorem C25_accepted : forall s v ty,
  int_try_from s = Some (mk_int v ty) <-> int_literal s v ty \/ misread_decimal s v ty.
Proof. intros s v ty. unfold int_try_from. rewrite all_consuming_some. apply int_parse_iff. Qed.

(** Every C integer constant that fits gets its value and its type. *)
Theorem C25_c_constants : forall c sx v ty,
  constant c v -> suffixed sx ty -> (v <= int_max)%Z -> int_try_from (c ++ sx) = Some (mk_int v ty).
Proof. intros c sx v ty Hc Hs Hl. apply C25_accepted. left. exists c, sx. auto. Qed.

(** The reading is unique: a string has at most one value and one type. *)
Theorem C25_unambiguous : forall s v ty v' ty', int_literal s v ty -> int_literal s v' ty' -> v = v' /\ ty = ty'.
Proof.
  intros s v ty v' ty' H1 H2.
  assert (E1 : int_try_from s = Some (mk_int v ty)) by (apply C25_accepted; now left).
  assert (E2 : int_try_from s = Some (mk_int v' ty')) by (apply C25_accepted; now left).
  rewrite E1 in E2. now injection E2.
Qed.

(** A constant that does not fit is rejected. *)
Lemma constant_value_unique c v sx ty w tw : constant c v -> suffixed sx ty -> (v > int_max)%Z ->
  int_try_from (c ++ sx) = Some (mk_int w tw) -> False.
Proof.
  intros Hc Hs Hv E. unfold int_try_from in E. rewrite all_consuming_some in E. unfold int_parse_str in E.
  destruct (int_digits (c ++ sx)) as [[r w']|] eqn:Ed; [|discriminate].
  assert (Hstop : forall b, (2 <= b <= 16)%N -> match sx with [] => True | c :: _ => is_radix_digit b c = false end).
  { intros b Hb. apply (suffix_stops sx ty); [easy|]. intros x. apply radix_mono; lia. }
  assert (Hrun : forall b ds r w, (2 <= b <= 16)%N -> numeral b ds v -> run_of b (ds ++ sx) r w -> False).
  { intros b ds r1 w1 Hb Hn (ds' & E1 & Hn' & Hl & Hr').
    assert (ds' = ds /\ r1 = sx) as [-> _].
    { assert (F1 : take_while (is_radix_digit b) (ds ++ sx) = (ds, sx)).
      { apply take_while_intro; [|now apply Hstop]. apply numeral_from_iff in Hn. destruct Hn as [_ Hn]. now apply (numeral_digits b 0 ds v). }
      assert (F2 : take_while (is_radix_digit b) (ds' ++ r1) = (ds', r1)).
      { apply take_while_intro; [|easy]. apply numeral_from_iff in Hn'. destruct Hn' as [_ Hn']. now apply (numeral_digits b 0 ds' w1). }
      rewrite <- E1, F1 in F2. now injection F2. }
    apply numeral_from_iff in Hn, Hn'. destruct Hn as [_ Hn], Hn' as [_ Hn'].
    rewrite (numeral_from_det _ _ _ _ _ Hn' Hn) in Hl. lia. }
  rewrite int_digits_split in Ed. cbv zeta in Ed. apply oor_some in Ed. destruct Ed as [Ed|[_ Ed]].
  { apply run_letter in Ed; [|lia|easy]. destruct Ed as (s1 & Es & Hr). clear E.
    destruct Hc as [c v Hn Hz| |c v Hn|p c v Hp Hn|p c v Hp Hn].
    - apply numeral_from_iff in Hn. destruct c as [|x t]; [easy|]. apply (Hz t). destruct Es as [Es|Es]; injection Es as -> _; reflexivity.
    - unfold int_max in Hv. lia.
    - assert (Hh : exists x t, c = x :: t /\ (48 <= x <= 57)%N).
      { apply numeral_from_iff in Hn. destruct Hn as [_ Hn]. inversion Hn as [|? x d t ? Hd]; subst; [unfold int_max in Hv; lia|].
        exists x, t. split; [easy|]. unfold digit in Hd. lia. }
      destruct Hh as (x & t & -> & Hx). destruct Es as [Es|Es]; injection Es; intros; lia.
    - assert (s1 = c ++ sx) as -> by (destruct Hp as [<- |[<- |[]]], Es as [Es|Es]; injection Es; congruence).
      exact (Hrun 16%N c r w' ltac:(lia) Hn Hr).
    - destruct Hp as [<- |[<- |[]]], Es as [Es|Es]; discriminate. }
  apply oor_some in Ed. destruct Ed as [Ed|[_ Ed]].
  { apply run_letter in Ed; [|lia|easy]. destruct Ed as (s1 & Es & Hr). clear E.
    destruct Hc as [c v Hn Hz| |c v Hn|p c v Hp Hn|p c v Hp Hn].
    - apply numeral_from_iff in Hn. destruct c as [|x t]; [easy|]. apply (Hz t). destruct Es as [Es|Es]; injection Es as -> _; reflexivity.
    - unfold int_max in Hv. lia.
    - assert (Hh : exists x t, c = x :: t /\ (48 <= x <= 57)%N).
      { apply numeral_from_iff in Hn. destruct Hn as [_ Hn]. inversion Hn as [|? x d t ? Hd]; subst; [unfold int_max in Hv; lia|].
        exists x, t. split; [easy|]. unfold digit in Hd. lia. }
      destruct Hh as (x & t & -> & Hx). destruct Es as [Es|Es]; injection Es; intros; lia.
    - destruct Hp as [<- |[<- |[]]], Es as [Es|Es]; discriminate.
    - assert (s1 = c ++ sx) as -> by (destruct Hp as [<- |[<- |[]]], Es as [Es|Es]; injection Es; congruence).
      exact (Hrun 2%N c r w' ltac:(lia) Hn Hr). }
  apply oor_some in Ed. destruct Ed as [Ed|[_ Ed]].
  { destruct (char1 48 (c ++ sx)) as [s1|] eqn:Ec; [|discriminate]. cbn [obind] in Ed. apply run_parse in Ed; [|lia].
    apply char1_some in Ec. clear E. destruct Hc as [c v Hn Hz| |c v Hn|p c v Hp Hn|p c v Hp Hn].
    - apply numeral_from_iff in Hn. destruct c as [|x t]; [easy|]. apply (Hz t). injection Ec as -> _. reflexivity.
    - unfold int_max in Hv. lia.
    - injection Ec as <-. exact (Hrun 8%N c r w' ltac:(lia) Hn Ed).
    - assert (exists x t, s1 = x :: t /\ (x = 120 \/ x = 88)%N) as (x & t & -> & Hx).
      { destruct Hp as [<- |[<- |[]]]; injection Ec as <-; eauto. }
      apply run_of_head in Ed; [|lia]. destruct Ed as (y & t' & Ey & Hy). injection Ey as <- _.
      destruct Hx as [-> | ->]; discriminate.
    - assert (exists x t, s1 = x :: t /\ (x = 98 \/ x = 66)%N) as (x & t & -> & Hx).
      { destruct Hp as [<- |[<- |[]]]; injection Ec as <-; eauto. }
      apply run_of_head in Ed; [|lia]. destruct Ed as (y & t' & Ey & Hy). injection Ey as <- _.
      destruct Hx as [-> | ->]; discriminate. }
  apply run_parse in Ed; [|lia]. simpl in E. destruct (int_parse_suffix r) as [[u z]|] eqn:Er; [|discriminate].
  apply int_suffix_sound in Er.
  destruct Hc as [c v Hn Hz| |c v Hn|p c v Hp Hn|p c v Hp Hn].
  - exact (Hrun 10%N c r w' ltac:(lia) Hn Ed).
  - unfold int_max in Hv. lia.
  - destruct Ed as (ds & Eds & Hd & Hl & Hr).
    pose proof (proj1 (numeral_from_iff _ _ _) Hn) as [Hne Hn0]. pose proof (proj1 (numeral_from_iff _ _ _) Hd) as [Hne' Hd0].
    assert (F1 : take_while (is_radix_digit 10) ((st "0" ++ c) ++ sx) = (st "0" ++ c, sx)).
    { apply take_while_intro; [|now apply Hstop]. simpl. apply (forallb_impl (is_radix_digit 8)); [intros x; apply radix_mono; lia|].
      now apply (numeral_digits 8 0 c v). }
    assert (F2 : take_while (is_radix_digit 10) (ds ++ r) = (ds, r)).
    { apply take_while_intro; [|easy]. now apply (numeral_digits 10 0 ds w'). }
    rewrite <- Eds, F1 in F2. injection F2 as <- <-.
    inversion Hd0 as [|? ? d ? ? Hdz Hd1]; subst. assert (d = 0%Z) as -> by (unfold digit in Hdz; simpl in Hdz; lia).
    pose proof (octal_le_decimal _ 0 0 _ _ ltac:(lia) Hn0 Hd1). lia.
  - destruct Ed as (ds & Eds & Hd & Hl & Hr).
    assert (F2 : take_while (is_radix_digit 10) (ds ++ r) = (ds, r)).
    { apply take_while_intro; [|easy]. apply numeral_from_iff in Hd. destruct Hd as [_ Hd]. now apply (numeral_digits 10 0 ds w'). }
    rewrite <- Eds in F2. pose proof (suffix_no_letter _ _ Er) as Hlt.
    destruct Hp as [<- |[<- |[]]]; cbn in F2; injection F2 as <- <-; cbn in Hlt; lia.
  - destruct Ed as (ds & Eds & Hd & Hl & Hr).
    assert (F2 : take_while (is_radix_digit 10) (ds ++ r) = (ds, r)).
    { apply take_while_intro; [|easy]. apply numeral_from_iff in Hd. destruct Hd as [_ Hd]. now apply (numeral_digits 10 0 ds w'). }
    rewrite <- Eds in F2. pose proof (suffix_no_letter _ _ Er) as Hlt.
    destruct Hp as [<- |[<- |[]]]; cbn in F2; injection F2 as <- <-; cbn in Hlt; lia.
Qed.

Theorem C25_too_large : forall c sx v ty, constant c v -> suffixed sx ty -> (v > int_max)%Z -> int_try_from (c ++ sx) = None.
Proof.
  intros c sx v ty Hc Hs Hv. destruct (int_try_from (c ++ sx)) as [[w tw]|] eqn:E; [|easy].
  exfalso. exact (constant_value_unique c v sx ty w tw Hc Hs Hv E).
Qed.

(** Not C: a decimal reading of digits that start with 0. *)
Theorem C25_leading_zero_refuted : exists s v, int_try_from s = Some (mk_int v None) /\
  ~ (exists ty, int_literal s v ty) /\ s = st "08" /\ v = 8%Z.
Proof.
  exists (st "08"), 8%Z. split; [reflexivity|]. split; [|easy].
  intros (ty & c & sx & E & Hc & Hs & _).
  destruct Hc as [c v Hn Hz| |c v Hn|p c v Hp Hn|p c v Hp Hn].
  - apply numeral_from_iff in Hn. destruct c as [|x t]; [easy|]. apply (Hz t). injection E as <- _. reflexivity.
  - injection E as <-. pose proof (suffix_stops _ _ (is_radix_digit 16) Hs (fun _ h => h)) as Hst. discriminate.
  - apply numeral_from_iff in Hn. destruct Hn as [Hne Hn]. inversion Hn as [|? x d t ? Hd]; subst; [easy|].
    injection E as <- _. unfold digit in Hd. simpl in Hd. lia.
  - destruct Hp as [<- |[<- |[]]]; discriminate.
  - destruct Hp as [<- |[<- |[]]]; discriminate.
Qed.

(** In a macro, a token is an integer literal exactly when [LitInt::try_from]
    accepts it: no other kind of literal takes precedence. *)
Lemma int_starts_with_digit s i : int_try_from s = Some i -> exists c r, s = c :: r /\ (48 <= c <= 57)%N.
Proof.
  destruct i as [v ty]. rewrite C25_accepted.
  intros [(c & sx & -> & Hc & _)|(c & sx & t & -> & Ht & _)].
  - destruct Hc as [c v Hn Hz| |c v Hn|p c v Hp Hn|p c v Hp Hn].
    + apply numeral_from_iff in Hn. destruct Hn as [Hne Hn]. inversion Hn as [|? x d t ? Hd]; subst; [easy|].
      exists x, (t ++ sx). split; [easy|]. unfold digit in Hd. lia.
    + eexists _, _. split; [reflexivity|]. easy.
    + eexists _, _. split; [reflexivity|]. easy.
    + destruct Hp as [<- |[<- |[]]]; eexists _, _; (split; [reflexivity|easy]).
    + destruct Hp as [<- |[<- |[]]]; eexists _, _; (split; [reflexivity|easy]).
  - destruct Ht as [-> | ->]; eexists _, _; (split; [reflexivity|easy]).
Qed.

(** After the leading decimal digits of an integer literal there is no point and no exponent. *)
Lemma int_no_float s i : int_try_from s = Some i ->
  match snd (take_while is_digit s) with [] => True | c :: _ => is_alnum c = true /\ lower c <> 101%N end.
Proof.
  destruct i as [v ty]. rewrite C25_accepted. intros Hs.
  assert (Htw : forall ds sx ty, suffixed sx ty -> forallb (is_radix_digit 10) ds = true -> 
    match snd (take_while is_digit (ds ++ sx)) with [] => True | c :: _ => is_alnum c = true /\ lower c <> 101%N end).
  { intros ds sx t Hsx Hds. rewrite take_while_intro; simpl.
    - destruct Hsx as [|u Hu|z ts tu Hz|u z ts tu Hu Hz|u z ts tu Hu Hz];
        try (destruct Hu as [Hu|[Hu|[]]]; subst u);
        try (repeat (destruct Hz as [Hz|Hz]; [injection Hz as <- <- <-|]); [..|destruct Hz]); easy.
    - rewrite <- Hds. clear. induction ds as [|x ds IH]; [easy|]. simpl. now rewrite is_digit_radix, IH.
    - apply (suffix_stops _ _ is_digit Hsx). intros x. rewrite is_digit_radix. apply radix_mono; lia. }
  destruct Hs as [(c & sx & -> & Hc & Hx & _)|(c & sx & t & -> & _ & Hn & Hx & _)].
  - destruct Hc as [c v Hn Hz| |c v Hn|p c v Hp Hn|p c v Hp Hn].
    + apply (Htw c sx ty Hx). apply numeral_from_iff in Hn. now apply (numeral_digits 10 0 c v).
    + exact (Htw (st "0") sx ty Hx eq_refl).
    + apply (Htw (st "0" ++ c) sx ty Hx). apply numeral_from_iff in Hn. simpl.
      apply (forallb_impl (is_radix_digit 8)); [intros x; apply radix_mono; lia|]. now apply (numeral_digits 8 0 c v).
    + destruct Hp as [<- |[<- |[]]]; easy.
    + destruct Hp as [<- |[<- |[]]]; easy.
  - apply (Htw c sx ty Hx). apply numeral_from_iff in Hn. now apply (numeral_digits 10 0 c v).
Qed.

Lemma int_not_float s i : int_try_from s = Some i -> float_parse_str s = None.
Proof.
  intros E. pose proof (int_no_float s i E) as Hn. destruct (int_starts_with_digit _ _ E) as (c & r & -> & Hc).
  unfold float_parse_str. assert (Er : float_recognize (c :: r) = None); [|now rewrite Er].
  unfold float_recognize, take_while1. destruct (take_while is_digit (c :: r)) as [ds rest] eqn:Ed. simpl in Hn.
  assert (Hne : ds <> []).
  { simpl in Ed. assert (is_digit c = true) as Hd by (unfold is_digit; rewrite andb_true_iff, !N.leb_le; lia).
    rewrite Hd in Ed. destruct (take_while is_digit r). now injection Ed as <- _. }
  assert (E46 : char1 46 rest = None).
  { destruct rest as [|x rest]; [easy|]. simpl. destruct (N.eqb_spec x 46); [|easy]. subst. destruct Hn as [Hn _]. discriminate. }
  assert (Ee : float_scientific rest = None).
  { unfold float_scientific, tag_no_case. change (st "e") with [101%N]. destruct rest as [|x rest]; [easy|].
    cbn [strip_prefix_nc]. destruct (N.eqb_spec 101 (lower x)); [|easy]. destruct Hn. congruence. }
  unfold float_decimal. rewrite E46. destruct ds; [easy|]. cbn. rewrite E46. cbn. now rewrite Ee.
Qed.

Theorem C25_token_iff : forall s i, lit_try_from s = Some (LInt i) <-> int_try_from s = Some i.
Proof.
  intros s i. split.
  - unfold lit_try_from, int_try_from. rewrite !all_consuming_some. unfold lit_parse_str. intros E.
    apply oor_some in E. destruct E as [E|[_ E]]; [destruct (char_parse_str s); discriminate|].
    apply oor_some in E. destruct E as [E|[_ E]]; [destruct (string_parse_str s); discriminate|].
    apply oor_some in E. destruct E as [E|[_ E]]; [destruct (float_parse_str s); discriminate|].
    destruct (int_parse_str s) as [[r j]|]; [|discriminate]. simpl in E. now injection E as -> ->.
  - intros E. pose proof (int_not_float _ _ E) as Ef. destruct (int_starts_with_digit _ _ E) as (c & r & -> & Hc).
    unfold lit_try_from. rewrite all_consuming_some. unfold lit_parse_str. rewrite Ef.
    unfold int_try_from in E. rewrite all_consuming_some in E. rewrite E.
    assert (Hq : forall x, (x < 48 \/ 57 < x)%N -> char1 x (c :: r) = None).
    { intros x Hx. simpl. destruct (N.eqb_spec c x); [lia|easy]. }
    assert (Ht : forall t x y, st t = x :: y -> (x < 48 \/ 57 < x)%N -> tag t (c :: r) = None).
    { intros t x y Et Hx. unfold tag. rewrite Et. simpl. destruct (N.eqb_spec x c); [lia|easy]. }
    assert (Ech : char_parse_str (c :: r) = None).
    { unfold char_parse_str, char_prefix_parse.
      rewrite (Ht "u8" _ _ eq_refl), (Hq 117%N), (Hq 85%N), (Hq 76%N) by (cbn; lia).
      unfold char_parse_unprefixed. rewrite (Hq 39%N) by lia. reflexivity. }
    assert (Est : string_parse_str (c :: r) = None).
    { unfold string_parse_str.
      rewrite (Ht "u8" _ _ eq_refl), (Ht "u" _ _ eq_refl), (Ht "U" _ _ eq_refl), (Ht "L" _ _ eq_refl) by (cbn; lia).
      unfold string_parse_ordinary, quoted. rewrite (Hq 34%N) by lia. reflexivity. }
    rewrite Ech, Est. reflexivity.
Qed.

(** A concrete instance of each notation. *)
Example C25_example :
  int_literal (st "0x7fUL") 127 (Some BULong) /\ int_literal (st "0b101") 5 None /\ int_literal (st "0177zu") 127 (Some BSizeT) /\
  int_literal (st "170141183460469231731687303715884105727") int_max None /\
  int_try_from (st "170141183460469231731687303715884105728") = None /\
  int_try_from (st "0x7fUL") = Some (mk_int 127 (Some BULong)) /\ int_try_from (st "0778") = None /\
  int_try_from (st "1lL") = None.
Proof.
  assert (Hd : forall b s v, (2 <= b <= 16)%N -> s <> [] -> parse_i128 b s = Some v -> (0 <= v)%Z -> numeral b s v).
  { intros b s v Hb Hs E Hv. apply numeral_from_iff. split; [easy|]. unfold parse_i128 in E. apply parse_i128_spec in E; [easy|easy|lia]. }
  split; [|split; [|split; [|split; [|repeat split; reflexivity]]]].
  - exists (st "0x" ++ st "7f"), (st "U" ++ st "L"). split; [reflexivity|]. split; [|split].
    + apply k_hex; [simpl; auto|]. apply Hd; [lia|discriminate|reflexivity|try unfold int_max; lia].
    + eapply sx_u_size; [simpl; auto|]. right; left. reflexivity.
    + easy.
  - exists (st "0b" ++ st "101"), []. split; [reflexivity|]. split; [|split; [constructor|easy]].
    apply k_binary; [simpl; auto|]. apply Hd; [lia|discriminate|reflexivity|try unfold int_max; lia].
  - exists (st "0" ++ st "177"), (st "z" ++ st "u"). split; [reflexivity|]. split; [|split].
    + apply k_octal. apply Hd; [lia|discriminate|reflexivity|lia].
    + eapply sx_size_u; [simpl; auto|]. do 4 right. left. reflexivity.
    + easy.
  - exists (st "170141183460469231731687303715884105727"), []. split; [reflexivity|]. split; [|split; [constructor|unfold int_max; lia]].
    apply k_decimal; [apply Hd; [lia|discriminate|reflexivity|try unfold int_max; lia]|]. intros r E. discriminate.
Qed.

(** C26: the type of an accepted literal is that of its suffix; it is
    unsigned exactly when the suffix has a [u]. *)
Theorem C26_suffix_types : forall s v ty, int_try_from s = Some (mk_int v ty) ->
  exists c sx, s = c ++ sx /\ suffixed sx ty /\ (constant c v \/ numeral 10 c v) /\
  (ty = None <-> sx = []) /\
  (In ty [Some BUInt; Some BULong; Some BULongLong; Some BSizeT] <-> In 117%N sx \/ In 85%N sx).
Proof.
  intros s v ty E. apply C25_accepted in E.
  assert (exists c sx, s = c ++ sx /\ suffixed sx ty /\ (constant c v \/ numeral 10 c v)) as (c & sx & -> & Hs & Hc).
  { destruct E as [(c & sx & -> & Hc & Hs & _)|(c & sx & t & -> & _ & Hn & Hs & _)]; exists c, sx; auto. }
  exists c, sx. split; [easy|]. split; [easy|]. split; [easy|].
  destruct Hs as [|u Hu|z ts tu Hz|u z ts tu Hu Hz|u z ts tu Hu Hz];
    try (destruct Hu as [Hu|[Hu|[]]]; subst u);
    try (repeat (destruct Hz as [Hz|Hz]; [injection Hz as <- <- <-|]); [..|destruct Hz]); cbn;
    (split; [split; try easy|split; [intros Hi|intros [Hi|Hi]]; repeat (destruct Hi as [Hi|Hi]; try discriminate); try contradiction; auto 10]).
Qed.

Example C26_example : map int_try_from (map st ["1u"; "2LL"; "3Zu"; "4uL"; "5uLl"; "6uu"]) =
  [Some (mk_int 1 (Some BUInt)); Some (mk_int 2 (Some BLongLong)); Some (mk_int 3 (Some BSizeT));
   Some (mk_int 4 (Some BULong)); None; None].
Proof. reflexivity. Qed.

Print Assumptions C25_accepted.
Print Assumptions C25_c_constants.
Print Assumptions C25_unambiguous.
Print Assumptions C25_too_large.
Print Assumptions C25_leading_zero_refuted.
Print Assumptions C26_suffix_types.
Print Assumptions C25_token_iff.
