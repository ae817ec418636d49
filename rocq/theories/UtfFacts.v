(** UTF-8 and UTF-16 encode and decode are inverse to each other. *)
From Verif Require Import Base Utf Lex SpecInt SpecString.
From Coq Require Import List ZifyN ZifyClasses.
Local Open Scope list_scope.
Local Open Scope N_scope.
Ltac Zify.zify_post_hook ::= Z.to_euclidean_division_equations.

Lemma is_scalar_spec c : is_scalar c = true <-> scalar c.
Proof.
  unfold is_scalar, scalar. rewrite orb_true_iff, andb_true_iff, !N.ltb_lt, N.leb_le. lia.
Qed.
Lemma char_from_u32_spec c d : char_from_u32 c = Some d <-> d = c /\ scalar c.
Proof.
  unfold char_from_u32. rewrite <- is_scalar_spec. destruct (is_scalar c).
  - split; [intros [= ->]; easy|intros [-> _]; easy].
  - split; [discriminate|intros [_ ?]; discriminate].
Qed.

Lemma utf8_decode_char c l : scalar c -> utf8_decode (utf8_char c ++ l) = omap (cons c) (utf8_decode l).
Proof.
  intros Hc. unfold utf8_char. unfold scalar in Hc.
  destruct (N.ltb_spec c 0x80).
  { cbn [app utf8_decode]. destruct (N.ltb_spec c 0x80); [easy|lia]. }
  destruct (N.ltb_spec c 0x800).
  { cbn [app utf8_decode].
    destruct (N.ltb_spec (0xC0 + c / 64) 0x80); [lia|].
    destruct (N.leb_spec 0xC2 (0xC0 + c / 64)); [|lia]. destruct (N.ltb_spec (0xC0 + c / 64) 0xE0); [|lia]. cbn [andb].
    unfold is_cont. destruct (N.leb_spec 0x80 (0x80 + c mod 64)); [|lia]. destruct (N.ltb_spec (0x80 + c mod 64) 0xC0); [|lia]. cbn [andb].
    f_equal. f_equal. lia. }
  destruct (N.ltb_spec c 0x10000).
  { cbn [app utf8_decode].
    destruct (N.ltb_spec (0xE0 + c / 4096) 0x80); [lia|].
    destruct (N.ltb_spec (0xE0 + c / 4096) 0xE0); [lia|]. rewrite andb_false_r.
    destruct (N.leb_spec 0xE0 (0xE0 + c / 4096)); [|lia]. destruct (N.ltb_spec (0xE0 + c / 4096) 0xF0); [|lia]. cbn [andb]. cbv zeta.
    assert (E : (0xE0 + c / 4096 - 0xE0) * 4096 + (0x80 + (c / 64) mod 64 - 0x80) * 64 + (0x80 + c mod 64 - 0x80) = c).
    { assert (c / 4096 = c / 64 / 64) by (rewrite N.div_div; easy). lia. }
    rewrite E. unfold is_cont.
    destruct (N.leb_spec 0x80 (0x80 + (c / 64) mod 64)); [|lia]. destruct (N.ltb_spec (0x80 + (c / 64) mod 64) 0xC0); [|lia].
    destruct (N.leb_spec 0x80 (0x80 + c mod 64)); [|lia]. destruct (N.ltb_spec (0x80 + c mod 64) 0xC0); [|lia].
    destruct (N.leb_spec 0x800 c); [|lia]. rewrite (proj2 (is_scalar_spec c)) by exact Hc. reflexivity. }
  cbn [app utf8_decode].
  destruct (N.ltb_spec (0xF0 + c / 262144) 0x80); [lia|].
  destruct (N.ltb_spec (0xF0 + c / 262144) 0xE0); [lia|]. rewrite andb_false_r.
  destruct (N.ltb_spec (0xF0 + c / 262144) 0xF0); [lia|]. rewrite andb_false_r.
  destruct (N.leb_spec 0xF0 (0xF0 + c / 262144)); [|lia]. destruct (N.ltb_spec (0xF0 + c / 262144) 0xF5); [|lia]. cbn [andb]. cbv zeta.
  assert (E : (0xF0 + c / 262144 - 0xF0) * 262144 + (0x80 + (c / 4096) mod 64 - 0x80) * 4096 +
              (0x80 + (c / 64) mod 64 - 0x80) * 64 + (0x80 + c mod 64 - 0x80) = c).
  { assert (c / 4096 = c / 64 / 64) by (rewrite N.div_div; easy).
    assert (c / 262144 = c / 64 / 64 / 64) by (rewrite !N.div_div; easy). lia. }
  rewrite E. unfold is_cont.
  destruct (N.leb_spec 0x80 (0x80 + (c / 4096) mod 64)); [|lia]. destruct (N.ltb_spec (0x80 + (c / 4096) mod 64) 0xC0); [|lia].
  destruct (N.leb_spec 0x80 (0x80 + (c / 64) mod 64)); [|lia]. destruct (N.ltb_spec (0x80 + (c / 64) mod 64) 0xC0); [|lia].
  destruct (N.leb_spec 0x80 (0x80 + c mod 64)); [|lia]. destruct (N.ltb_spec (0x80 + c mod 64) 0xC0); [|lia].
  destruct (N.leb_spec 0x10000 c); [|lia]. rewrite (proj2 (is_scalar_spec c)) by exact Hc. reflexivity.
Qed.

Lemma utf8_decode_encode t : Forall scalar t -> utf8_decode (utf8_encode t) = Some t.
Proof.
  induction 1 as [|c t Hc Ht IH]; [easy|]. cbn [utf8_encode flat_map]. rewrite utf8_decode_char by easy.
  unfold utf8_encode in IH. now rewrite IH.
Qed.

Ltac boolify := repeat match goal with
  | h : _ && _ = true |- _ => apply andb_true_iff in h; destruct h
  | h : (_ <=? _) = true |- _ => apply N.leb_le in h
  | h : (_ <? _) = true |- _ => apply N.ltb_lt in h
  | h : is_cont _ = true |- _ => unfold is_cont in h
  | h : is_scalar _ = true |- _ => apply is_scalar_spec in h
  end.

Lemma utf8_decode_sound n : forall l t, (length l <= n)%nat -> utf8_decode l = Some t -> utf8_encode t = l /\ Forall scalar t.
Proof.
  induction n as [|n IH]; intros l t Hn E.
  { destruct l; [|simpl in Hn; lia]. injection E as <-. easy. }
  destruct l as [|b0 l0]; [injection E as <-; easy|]. cbn [utf8_decode] in E. simpl in Hn.
  assert (Hk : forall l' c x, (length l' <= n)%nat -> omap (cons c) (utf8_decode l') = Some x -> scalar c ->
    exists t', x = c :: t' /\ utf8_encode x = utf8_char c ++ l' /\ Forall scalar x).
  { intros l' c x Hl' Ex Hc. destruct (utf8_decode l') as [t'|] eqn:Ed; [|discriminate]. injection Ex as <-.
    destruct (IH _ _ Hl' Ed) as [E1 E2]. exists t'. split; [easy|]. split; [|now constructor]. simpl. now rewrite <- E1. }
  destruct (N.ltb_spec b0 0x80).
  { destruct (Hk l0 b0 t) as (t' & -> & E1 & E2); [lia|easy|unfold scalar; lia|]. split; [|easy]. rewrite E1.
    unfold utf8_char. destruct (N.ltb_spec b0 0x80); [easy|lia]. }
  destruct ((0xC2 <=? b0) && (b0 <? 0xE0)) eqn:C2.
  { boolify. destruct l0 as [|b1 l1]; [discriminate|]. destruct (is_cont b1) eqn:K1; [|discriminate]. boolify. simpl in Hn.
    destruct (Hk l1 _ t ltac:(lia) E) as (t' & -> & E1 & E2); [unfold scalar; lia|]. split; [|easy]. rewrite E1.
    set (c := (b0 - 0xC0) * 64 + (b1 - 0x80)) in *. unfold utf8_char.
    destruct (N.ltb_spec c 0x80); [lia|]. destruct (N.ltb_spec c 0x800); [|lia]. cbn [app].
    assert (0xC0 + c / 64 = b0) as -> by lia. assert (0x80 + c mod 64 = b1) as -> by lia. easy. }
  destruct ((0xE0 <=? b0) && (b0 <? 0xF0)) eqn:C3.
  { boolify. destruct l0 as [|b1 [|b2 l2]]; [discriminate..|]. cbv zeta in E.
    destruct (is_cont b1 && is_cont b2 && (0x800 <=? (b0 - 0xE0) * 4096 + (b1 - 0x80) * 64 + (b2 - 0x80)) &&
       is_scalar ((b0 - 0xE0) * 4096 + (b1 - 0x80) * 64 + (b2 - 0x80))) eqn:K; [|discriminate]. boolify. simpl in Hn.
    destruct (Hk l2 _ t ltac:(lia) E ltac:(assumption)) as (t' & -> & E1 & E2). split; [|easy]. rewrite E1.
    set (c := (b0 - 0xE0) * 4096 + (b1 - 0x80) * 64 + (b2 - 0x80)) in *. unfold utf8_char.
    destruct (N.ltb_spec c 0x80); [lia|]. destruct (N.ltb_spec c 0x800); [lia|]. destruct (N.ltb_spec c 0x10000); [|lia]. cbn [app].
    assert (c / 64 = (b0 - 0xE0) * 64 + (b1 - 0x80)) as Ec by lia.
    assert (0xE0 + c / 4096 = b0) as -> by lia. assert (0x80 + (c / 64) mod 64 = b1) as -> by (rewrite Ec; lia).
    assert (0x80 + c mod 64 = b2) as -> by lia. easy. }
  destruct ((0xF0 <=? b0) && (b0 <? 0xF5)) eqn:C4; [|discriminate].
  boolify. destruct l0 as [|b1 [|b2 [|b3 l3]]]; [discriminate..|]. cbv zeta in E.
  destruct (is_cont b1 && is_cont b2 && is_cont b3 && (0x10000 <=? (b0 - 0xF0) * 262144 + (b1 - 0x80) * 4096 + (b2 - 0x80) * 64 + (b3 - 0x80)) &&
       is_scalar ((b0 - 0xF0) * 262144 + (b1 - 0x80) * 4096 + (b2 - 0x80) * 64 + (b3 - 0x80))) eqn:K; [|discriminate]. boolify. simpl in Hn.
  destruct (Hk l3 _ t ltac:(lia) E ltac:(assumption)) as (t' & -> & E1 & E2). split; [|easy]. rewrite E1.
  set (c := (b0 - 0xF0) * 262144 + (b1 - 0x80) * 4096 + (b2 - 0x80) * 64 + (b3 - 0x80)) in *. unfold utf8_char.
  destruct (N.ltb_spec c 0x80); [lia|]. destruct (N.ltb_spec c 0x800); [lia|]. destruct (N.ltb_spec c 0x10000); [lia|]. cbn [app].
  assert (c / 64 = (b0 - 0xF0) * 4096 + (b1 - 0x80) * 64 + (b2 - 0x80)) as Ec by lia.
  assert (c / 4096 = (b0 - 0xF0) * 64 + (b1 - 0x80)) as Ec2 by lia.
  assert (0xF0 + c / 262144 = b0) as -> by lia. assert (0x80 + (c / 4096) mod 64 = b1) as -> by (rewrite Ec2; lia).
  assert (0x80 + (c / 64) mod 64 = b2) as -> by (rewrite Ec; lia).
  assert (0x80 + c mod 64 = b3) as -> by lia. easy.
Qed.

Lemma utf8_decode_iff l t : utf8_decode l = Some t <-> l = utf8_encode t /\ Forall scalar t.
Proof.
  split; [|intros [-> Ht]; now apply utf8_decode_encode].
  intros E. destruct (utf8_decode_sound (length l) l t (le_n _) E) as [<- Ht]. easy.
Qed.

Lemma utf16_decode_char c l : scalar c -> utf16_decode (utf16_char c ++ l) = omap (cons c) (utf16_decode l).
Proof.
  intros Hc. unfold scalar in Hc. unfold utf16_char. destruct (N.ltb_spec c 0x10000); cbn [app utf16_decode]; unfold is_high, is_low.
  - destruct (N.leb_spec 0xD800 c), (N.ltb_spec c 0xDC00); cbn [andb]; try lia;
      destruct (N.leb_spec 0xDC00 c), (N.ltb_spec c 0xE000); cbn [andb]; try lia; easy.
  - destruct (N.leb_spec 0xD800 (0xD800 + (c - 0x10000) / 1024)); [|lia].
    destruct (N.ltb_spec (0xD800 + (c - 0x10000) / 1024) 0xDC00); [|lia]. cbn [andb].
    destruct (N.leb_spec 0xDC00 (0xDC00 + (c - 0x10000) mod 1024)); [|lia].
    destruct (N.ltb_spec (0xDC00 + (c - 0x10000) mod 1024) 0xE000); [|lia]. cbn [andb]. do 2 f_equal. lia.
Qed.

Lemma utf16_decode_encode t : Forall scalar t -> utf16_decode (utf16_encode t) = Some t.
Proof.
  induction 1 as [|c t Hc Ht IH]; [easy|]. cbn [utf16_encode flat_map]. rewrite utf16_decode_char by easy.
  unfold utf16_encode in IH. now rewrite IH.
Qed.

Lemma utf16_decode_sound n : forall l t, (length l <= n)%nat -> Forall (fun u => u < 0x10000) l ->
  utf16_decode l = Some t -> utf16_encode t = l /\ Forall scalar t.
Proof.
  induction n as [|n IH]; intros l t Hn Hl E.
  { destruct l; [|simpl in Hn; lia]. injection E as <-. easy. }
  destruct l as [|u0 l0]; [injection E as <-; easy|]. cbn [utf16_decode] in E. simpl in Hn. inversion Hl as [|? ? Hu0 Hl0]; subst.
  assert (Hk : forall l' c x, (length l' <= n)%nat -> Forall (fun u => u < 0x10000) l' -> omap (cons c) (utf16_decode l') = Some x -> scalar c ->
    utf16_encode x = utf16_char c ++ l' /\ Forall scalar x).
  { intros l' c x Hl' Hf Ex Hc. destruct (utf16_decode l') as [t'|] eqn:Ed; [|discriminate]. injection Ex as <-.
    destruct (IH _ _ Hl' Hf Ed) as [E1 E2]. split; [|now constructor]. simpl. now rewrite <- E1. }
  destruct (is_high u0) eqn:Eh.
  - unfold is_high in Eh. boolify. destruct l0 as [|u1 l1]; [discriminate|]. destruct (is_low u1) eqn:El; [|discriminate].
    unfold is_low in El. boolify. inversion Hl0; subst. simpl in Hn.
    destruct (Hk l1 _ t ltac:(lia) ltac:(assumption) E) as [E1 E2]; [unfold scalar; lia|]. split; [|easy]. rewrite E1.
    set (c := 0x10000 + (u0 - 0xD800) * 1024 + (u1 - 0xDC00)) in *. unfold utf16_char.
    destruct (N.ltb_spec c 0x10000); [lia|]. cbn [app].
    assert (0xD800 + (c - 0x10000) / 1024 = u0) as -> by lia. assert (0xDC00 + (c - 0x10000) mod 1024 = u1) as -> by lia. easy.
  - destruct (is_low u0) eqn:El; [discriminate|].
    assert (Hs : scalar u0).
    { unfold is_high in Eh. unfold is_low in El. unfold scalar. apply andb_false_iff in Eh, El. rewrite !N.leb_gt, !N.ltb_ge in Eh, El. lia. }
    destruct (Hk l0 u0 t ltac:(lia) Hl0 E Hs) as [E1 E2]. split; [|easy]. rewrite E1. unfold utf16_char.
    destruct (N.ltb_spec u0 0x10000); [easy|lia].
Qed.

Lemma utf16_decode_iff l t : Forall (fun u => u < 0x10000) l -> utf16_decode l = Some t <-> l = utf16_encode t /\ Forall scalar t.
Proof.
  intros Hl. split; [|intros [-> Ht]; now apply utf16_decode_encode].
  intros E. destruct (utf16_decode_sound (length l) l t (le_n _) Hl E) as [<- Ht]. easy.
Qed.

Lemma utf16_char_small c : scalar c -> Forall (fun u => u < 0x10000) (utf16_char c).
Proof.
  unfold scalar, utf16_char. intros Hc. destruct (N.ltb_spec c 0x10000); repeat constructor; lia.
Qed.
