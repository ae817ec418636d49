(** C32: floating-point literals. *)
From Verif Require Import Base Lex LexFloat StrFacts LexFacts SpecInt IntFacts DecFacts SpecFloatLit FloatFacts.
From Coq Require Import Ascii String List SpecFloat Reals.
Local Open Scope string_scope.
Local Open Scope list_scope.

(** Where a run of digits ends. *)
Definition not_digit (s : str) : Prop := match s with [] => True | c :: _ => is_digit c = false end.

Lemma run1 ds r : ds <> [] -> forallb is_digit ds = true -> not_digit r -> take_while1 is_digit (ds ++ r) = Some (r, ds).
Proof. intros. apply take_while1_some. auto. Qed.

Lemma run1_none s : not_digit s -> take_while1 is_digit s = None.
Proof. intros H. unfold take_while1. destruct s as [|c s]; [easy|]. simpl in *. now rewrite H. Qed.

Lemma e_tag s r : tag_no_case "e" s = Some r <-> exists e, In e (map st ["e"; "E"]) /\ s = e ++ r.
Proof.
  rewrite (letter_tag "e" 101) by reflexivity. split.
  - intros [-> | ->]; [exists (st "e")|exists (st "E")]; simpl; auto.
  - intros (e & [<- |[<- |[]]] & ->); auto.
Qed.

Lemma scientific_sound s r neg ds : float_scientific s = Some (r, (neg, ds)) ->
  exists x, s = x ++ r /\ not_digit r /\ exponent_part x (if neg then - dec_val ds else dec_val ds).
Proof.
  unfold float_scientific. destruct (tag_no_case "e" s) as [s1|] eqn:E; [|discriminate]. apply e_tag in E.
  destruct E as (e & He & ->). cbn [obind].
  assert (Hn : forall s2 a b, take_while1 is_digit s2 = Some (b, a) -> s2 = a ++ b /\ not_digit b /\ numeral 10 a (dec_val a)).
  { intros s2 a b H. apply take_while1_some in H. destruct H as (H1 & H2 & H3 & H4). split; [easy|]. split; [easy|]. now apply numeral10. }
  destruct (char1 43 s1) as [s2|] eqn:E1; [|destruct (char1 45 s1) as [s2|] eqn:E2].
  - apply char1_some in E1. subst s1. destruct (take_while1 is_digit s2) as [[b a]|] eqn:Et; [|discriminate]. cbn [obind fst snd].
    intros [= <- <- <-]. apply Hn in Et. destruct Et as (-> & Hb & Ha). exists (e ++ st "+" ++ a). split; [now rewrite <- !app_assoc|].
    split; [easy|]. constructor; [easy|simpl; auto|easy].
  - apply char1_some in E2. subst s1. destruct (take_while1 is_digit s2) as [[b a]|] eqn:Et; [|discriminate]. cbn [obind fst snd].
    intros [= <- <- <-]. apply Hn in Et. destruct Et as (-> & Hb & Ha). exists (e ++ st "-" ++ a). split; [now rewrite <- !app_assoc|].
    split; [easy|]. now constructor.
  - destruct (take_while1 is_digit s1) as [[b a]|] eqn:Et; [|discriminate]. cbn [obind fst snd].
    intros [= <- <- <-]. apply Hn in Et. destruct Et as (-> & Hb & Ha). exists (e ++ st "" ++ a). split; [now rewrite <- !app_assoc|].
    split; [easy|]. constructor; [easy|simpl; auto|easy].
Qed.

Lemma scientific_complete x k r : exponent_part x k -> not_digit r ->
  exists neg ds, float_scientific (x ++ r) = Some (r, (neg, ds)) /\ k = (if neg then - dec_val ds else dec_val ds)%Z.
Proof.
  intros Hx Hr. destruct Hx as [e sign ds v He Hs Hd|e ds v He Hd]; apply numeral10 in Hd; destruct Hd as (Hne & Hd & ->);
    unfold float_scientific.
  - rewrite (proj2 (e_tag _ ((sign ++ ds) ++ r))) by (exists e; now rewrite <- app_assoc). cbn [obind].
    exists false, ds. split; [|easy]. destruct Hs as [<- |[<- |[]]].
    + cbn [app]. destruct ds as [|c ds]; [easy|]. pose proof Hd as Hd'. simpl in Hd'. apply andb_prop in Hd'. destruct Hd' as [Hc _].
      assert (E1 : char1 43 ((st "" ++ c :: ds) ++ r) = None) by (simpl; destruct (N.eqb_spec c 43) as [-> |]; [discriminate|easy]).
      assert (E2 : char1 45 ((st "" ++ c :: ds) ++ r) = None) by (simpl; destruct (N.eqb_spec c 45) as [-> |]; [discriminate|easy]).
      rewrite E1, E2. change (st "" ++ c :: ds) with (c :: ds). now rewrite run1.
    + change ((st "+" ++ ds) ++ r) with (43%N :: (ds ++ r)). change (char1 43 (43%N :: ds ++ r)) with (Some (ds ++ r)). cbn iota. now rewrite run1.
  - rewrite (proj2 (e_tag _ ((st "-" ++ ds) ++ r))) by (exists e; now rewrite <- app_assoc). cbn [obind].
    exists true, ds. split; [|easy]. change ((st "-" ++ ds) ++ r) with (45%N :: (ds ++ r)).
    change (char1 43 (45%N :: ds ++ r)) with (@None str). change (char1 45 (45%N :: ds ++ r)) with (Some (ds ++ r)). cbn iota. now rewrite run1.
Qed.

(** The exponent that [float_opt_scientific] finds. *)
Definition exp_val (e : option (bool * str)) : Z :=
  match e with None => 0 | Some (neg, d) => if neg then - dec_val d else dec_val d end.

Lemma opt_scientific_sound s r e : float_opt_scientific s = (r, e) -> exists x, s = x ++ r /\ (x = [] /\ exp_val e = 0%Z \/ exponent_part x (exp_val e)).
Proof.
  unfold float_opt_scientific. destruct (float_scientific s) as [[r' [neg ds]]|] eqn:E; intros [= <- <-].
  - apply scientific_sound in E. destruct E as (x & -> & _ & Hx). eauto.
  - exists []. auto.
Qed.

Lemma exponent_head x k : exponent_part x k -> exists c x', x = c :: x' /\ (c = 101 \/ c = 69)%N.
Proof.
  destruct 1 as [e sign ds v He _ _|e ds v He _]; destruct He as [<- |[<- |[]]]; eexists _, _; (split; [reflexivity|auto]).
Qed.

Lemma opt_scientific_complete x k r : (x = [] /\ k = 0%Z \/ exponent_part x k) -> not_digit r ->
  (forall c r', r = c :: r' -> c <> 101%N /\ c <> 69%N) -> exists e, float_opt_scientific (x ++ r) = (r, e) /\ k = exp_val e.
Proof.
  intros [[-> ->]|Hx] Hr Hne; unfold float_opt_scientific.
  - exists None. split; [|easy]. destruct (float_scientific ([] ++ r)) as [[r' [neg ds]]|] eqn:E; [|easy].
    apply scientific_sound in E. destruct E as (x & E & _ & Hx). apply exponent_head in Hx. destruct Hx as (c & x' & -> & Hc).
    simpl in E. apply Hne in E. intuition.
  - destruct (scientific_complete x k r Hx Hr) as (neg & ds & E & ->). rewrite E. exists (Some (neg, ds)). auto.
Qed.

(** The recogniser. *)
Lemma recognize_sound s r rp : float_recognize s = Some (r, rp) ->
  exists t, s = t ++ r /\ decimal t (repr_mantissa rp) (repr_exponent rp).
Proof.
  unfold float_recognize. intros E. apply oor_some in E. destruct E as [E|[_ E]].
  - destruct (take_while is_digit s) as [i s1] eqn:Ei. unfold float_decimal in E.
    destruct (char1 46 s1) as [s2|] eqn:E2; [|discriminate]. cbn [obind] in E. apply char1_some in E2. subst s1.
    destruct (take_while1 is_digit s2) as [[s3 f]|] eqn:Ef; [|discriminate]. cbn [obind fst snd] in E.
    destruct (float_opt_scientific s3) as [s4 e] eqn:Ee. injection E as <- <-. apply opt_scientific_sound in Ee. destruct Ee as (x & -> & Hx).
    apply take_while1_some in Ef. destruct Ef as (Hf & -> & Hfd & _). pose proof (take_while_app _ _ _ _ Ei) as ->.
    apply take_while_all in Ei. exists (i ++ st "." ++ f ++ x). split; [now rewrite <- !app_assoc|].
    apply (dec_point i f x _ (exp_val e)); [|exact Hx]. apply numeral10. split; [now destruct i, f|]. split; [|reflexivity].
    rewrite forallb_app. apply andb_true_intro. auto.
  - apply oor_some in E. destruct E as [E|[_ E]].
    + destruct (take_while1 is_digit s) as [[s1 i]|] eqn:Ei; [|discriminate]. cbn [obind fst snd] in E.
      destruct (char1 46 s1) as [s2|] eqn:E2; [|discriminate]. cbn [obind] in E. apply char1_some in E2. subst s1.
      destruct (float_opt_scientific s2) as [s4 e] eqn:Ee. injection E as <- <-. apply opt_scientific_sound in Ee. destruct Ee as (x & -> & Hx).
      apply take_while1_some in Ei. destruct Ei as (Hi & -> & Hid & _). exists (i ++ st "." ++ [] ++ x). split; [now rewrite <- !app_assoc|].
      apply (dec_point i [] x _ (exp_val e)); [|exact Hx]. apply numeral10. unfold repr_mantissa. simpl. rewrite app_nil_r. auto.
    + destruct (take_while1 is_digit s) as [[s1 i]|] eqn:Ei; [|discriminate]. cbn [obind fst snd] in E.
      destruct (float_scientific s1) as [[s2 [neg ds]]|] eqn:Ee; [|discriminate]. injection E as <- <-.
      apply scientific_sound in Ee. destruct Ee as (x & -> & _ & Hx). apply take_while1_some in Ei. destruct Ei as (Hi & -> & Hid & _).
      exists (i ++ x). split; [now rewrite <- app_assoc|]. unfold repr_mantissa, repr_exponent. simpl. rewrite app_nil_r, Z.sub_0_r.
      constructor; [apply numeral10; auto|easy].
Qed.

(** What may follow: the end or a suffix. *)
Definition suffix_start (r : str) : Prop := match r with [] => True | c :: _ => In c [102; 70; 108; 76]%N end.

Lemma exp_not_digit x k r : (x = [] /\ k = 0%Z \/ exponent_part x k) -> suffix_start r -> not_digit (x ++ r).
Proof.
  intros [[-> _]|Hx] Hr; [|apply exponent_head in Hx; destruct Hx as (c & x' & -> & [-> | ->]); easy].
  destruct r as [|c r]; [easy|]. simpl in Hr. simpl. intuition (subst; easy).
Qed.

Lemma recognize_complete t m k r : decimal t m k -> suffix_start r ->
  exists rp, float_recognize (t ++ r) = Some (r, rp) /\ repr_mantissa rp = m /\ repr_exponent rp = k.
Proof.
  intros Ht Hr.
  assert (Hrd : not_digit r) by (apply (exp_not_digit [] 0%Z); auto).
  assert (Hre : forall c r', r = c :: r' -> c <> 101%N /\ c <> 69%N).
  { intros c r' ->. simpl in Hr. intuition (subst; easy). }
  destruct Ht as [i f x m k Hm Hx|i x m k Hm Hx]; apply numeral10 in Hm; destruct Hm as (Hne & Hd & ->).
  - rewrite forallb_app in Hd. apply andb_prop in Hd. destruct Hd as [Hi Hf].
    destruct (opt_scientific_complete x k r Hx Hrd Hre) as (e & Ee & ->).
    assert (Es : (i ++ st "." ++ f ++ x) ++ r = i ++ 46%N :: f ++ x ++ r) by now rewrite <- !app_assoc.
    rewrite Es. unfold float_recognize. assert (Ei : take_while is_digit (i ++ 46%N :: f ++ x ++ r) = (i, 46%N :: f ++ x ++ r)) by now apply take_while_intro.
    rewrite Ei. unfold float_decimal. rewrite (proj2 (char1_some 46 (46%N :: f ++ x ++ r) (f ++ x ++ r)) eq_refl). cbn [obind].
    destruct f as [|c f].
    + rewrite (run1_none ([] ++ x ++ r)) by (simpl; eapply exp_not_digit; eauto). cbn [obind oor].
      rewrite app_nil_r in Hne. rewrite run1 by easy. cbn [obind fst snd]. rewrite (proj2 (char1_some 46 (46%N :: [] ++ x ++ r) (x ++ r)) eq_refl).
      cbn [obind]. rewrite Ee. cbn [oor]. exists (mk_repr i [] e). split; [reflexivity|]. split; reflexivity.
    + rewrite run1 by (easy || eapply exp_not_digit; eauto). cbn [obind fst snd]. rewrite Ee. cbn [oor].
      exists (mk_repr i (c :: f) e). split; [reflexivity|]. split; reflexivity.
  - destruct (scientific_complete x k r Hx Hrd) as (neg & ds & Ee & ->). rewrite <- app_assoc. unfold float_recognize.
    pose proof (exponent_head _ _ Hx) as (c & x' & Ex & Hc).
    assert (Hxr : not_digit (x ++ r)) by (apply (exp_not_digit _ (if neg then - dec_val ds else dec_val ds)%Z); auto).
    assert (E46 : char1 46 (x ++ r) = None) by (subst x; destruct Hc; subst c; easy).
    assert (Ei : take_while is_digit (i ++ x ++ r) = (i, x ++ r)) by now apply take_while_intro. rewrite Ei. unfold float_decimal. rewrite E46.
    cbn [obind oor]. rewrite run1 by easy. cbn [obind fst snd]. rewrite E46. cbn [obind oor]. rewrite Ee. cbn [obind fst snd].
    exists (mk_repr i [] (Some (neg, ds))). split; [reflexivity|]. unfold repr_mantissa, repr_exponent. simpl. rewrite app_nil_r, Z.sub_0_r. easy.
Qed.

Lemma constant_read s ty m k : float_constant s ty m k ->
  float_try_from s = Some (ft_lit ty (round_decimal (ft_prec ty) (ft_emax ty) m k)).
Proof.
  destruct 1 as [s sx m k ss ty Hd Hi Hs].
  assert (Hst : suffix_start sx).
  { repeat (destruct Hi as [Hi|Hi]; [injection Hi as <- <-; simpl in Hs; intuition (subst; simpl; auto)|]). destruct Hi. }
  destruct (recognize_complete s m k sx Hd Hst) as (rp & Er & <- & <-).
  unfold float_try_from, all_consuming, float_parse_str. rewrite Er. cbn [obind].
  repeat (destruct Hi as [Hi|Hi]; [injection Hi as <- <-; simpl in Hs; repeat (destruct Hs as [<- |Hs]; [reflexivity|]); destruct Hs|]).
  destruct Hi.
Qed.

(** Acceptance: exactly the decimal floating constants. *)
Theorem C32_grammar : forall s, (exists v, float_try_from s = Some v) <-> (exists ty m k, float_constant s ty m k).
Proof.
  intros s. split.
  - intros [v E]. unfold float_try_from in E. rewrite all_consuming_some in E. unfold float_parse_str in E.
    destruct (float_recognize s) as [[s1 rp]|] eqn:Er; [|discriminate]. cbn [obind] in E. apply recognize_sound in Er. destruct Er as (t & -> & Ht).
    unfold float_suffix in E.
    destruct (tag_no_case "f" s1) as [s2|] eqn:Ef.
    { apply (letter_tag "f" 102) in Ef; try reflexivity. injection E as -> _. exists (mk_type 24 128 FFloat), (repr_mantissa rp), (repr_exponent rp).
      eapply flc; [exact Ht|right; left; reflexivity|]. simpl. destruct Ef as [-> | ->]; auto. }
    destruct (tag_no_case "l" s1) as [s2|] eqn:El.
    { apply (letter_tag "l" 108) in El; try reflexivity. injection E as -> _. exists (mk_type 53 1024 FLongDouble), (repr_mantissa rp), (repr_exponent rp).
      eapply flc; [exact Ht|right; right; left; reflexivity|]. simpl. destruct El as [-> | ->]; auto. }
    injection E as -> _. exists (mk_type 53 1024 FDouble), (repr_mantissa rp), (repr_exponent rp).
    eapply flc; [exact Ht|left; reflexivity|]. simpl. auto.
  - intros (ty & m & k & H). eexists. apply constant_read. exact H.
Qed.

(** Value: the constant rounded to nearest even in the type of its suffix;
    zero is positive. *)
Theorem C32_value : forall s ty m k, float_constant s ty m k ->
  exists f, float_try_from s = Some (ft_lit ty f) /\ rounded (ft_prec ty) (ft_emax ty) (decimal_value m k) f /\
    (forall sign, f = S754_zero sign -> sign = false).
Proof.
  intros s ty m k H. exists (round_decimal (ft_prec ty) (ft_emax ty) m k). split; [now apply constant_read|].
  assert (Hm : (0 <= m)%Z).
  { destruct H as [s sx m k ss ty Hd _ _]. destruct Hd as [i f x m k Hm _|i x m k Hm _];
      apply numeral_from_iff in Hm; destruct Hm as [_ Hm]; apply numeral_from_mono in Hm; lia. }
  destruct H as [s sx m k ss ty _ Hi _].
  repeat (destruct Hi as [Hi|Hi]; [injection Hi as <- <-; apply round_decimal_rounded; easy|]). destruct Hi.
Qed.

(** In a macro, a token is a floating-point literal exactly when [try_from] accepts it. *)
Theorem C32_token_iff : forall s f, lit_try_from s = Some (LFloat f) <-> float_try_from s = Some f.
Proof.
  intros s f. split.
  - unfold lit_try_from, float_try_from. rewrite !all_consuming_some. unfold lit_parse_str. intros E.
    apply oor_some in E. destruct E as [E|[_ E]]; [destruct (char_parse_str s); discriminate|].
    apply oor_some in E. destruct E as [E|[_ E]]; [destruct (string_parse_str s) as [[r y]|]; discriminate|].
    apply oor_some in E. destruct E as [E|[_ E]]; [destruct (float_parse_str s) as [[r y]|]; [now injection E as -> ->|discriminate]|].
    destruct (int_parse_str s) as [[r j]|]; discriminate.
  - intros E. destruct (proj1 (C32_grammar s) (ex_intro _ _ E)) as (ty & m & k & H).
    unfold lit_try_from. rewrite all_consuming_some. unfold lit_parse_str. unfold float_try_from in E. rewrite all_consuming_some in E. rewrite E.
    assert (Hh : exists c s', s = c :: s' /\ (is_digit c = true \/ c = 46%N)).
    { destruct H as [s sx m k ss ty Hd _ _].
      destruct Hd as [i f' x m k Hm _|i x m k Hm _]; apply numeral10 in Hm; destruct Hm as (Hne & Hd & _).
      - destruct i as [|c i]; simpl in Hd.
        + eexists _, _. split; [reflexivity|]. now right.
        + apply andb_prop in Hd. eexists _, _. split; [reflexivity|]. now left.
      - destruct i as [|c i]; [easy|]. simpl in Hd. apply andb_prop in Hd. eexists _, _. split; [reflexivity|]. now left. }
    destruct Hh as (c & s' & -> & Hc).
    assert (Hch : c <> 39%N /\ c <> 34%N /\ c <> 117%N /\ c <> 85%N /\ c <> 76%N).
    { destruct Hc as [Hc| ->]; [|easy]. unfold is_digit in Hc. rewrite andb_true_iff, !N.leb_le in Hc. lia. }
    destruct Hch as (H1 & H2 & H3 & H4 & H5). apply N.eqb_neq in H1, H2, H3, H4, H5.
    assert (Ec : char_parse_str (c :: s') = None).
    { unfold char_parse_str, char_prefix_parse, tag, char_parse_unprefixed, char1. cbn [st map list_ascii_of_string strip_prefix].
      change (N_of_ascii "u") with 117%N. rewrite N.eqb_sym in H3. rewrite H3. rewrite N.eqb_sym in H3. rewrite H3, H4, H5, H1. reflexivity. }
    assert (Es : string_parse_str (c :: s') = None).
    { unfold string_parse_str, tag, string_parse_ordinary, quoted, char1. rewrite H2. cbn [st map list_ascii_of_string strip_prefix].
      change (N_of_ascii "u") with 117%N. change (N_of_ascii "U") with 85%N. change (N_of_ascii "L") with 76%N.
      rewrite N.eqb_sym in H3, H4, H5. rewrite H3, H4, H5. reflexivity. }
    rewrite Ec, Es. reflexivity.
Qed.

(** The documentation of [LitFloat] lists [314f]; C requires a point or an exponent, and it is rejected. *)
Theorem C32_integer_with_f_refuted : float_try_from (st "314f") = None /\ lit_try_from (st "314f") = None.
Proof. split; reflexivity. Qed.

(** Hexadecimal floating constants of C are not accepted. *)
Theorem C32_hexadecimal_refuted : float_try_from (st "0x1p3") = None /\ lit_try_from (st "0x1p3") = None.
Proof. split; reflexivity. Qed.

Example C32_example_constant : float_constant (st "1.25e-1F") (mk_type 24 128 FFloat) 125 (-3).
Proof.
  change (st "1.25e-1F") with (st "1.25e-1" ++ st "F"). eapply flc; [|right; left; reflexivity|right; left; reflexivity].
  change (st "1.25e-1") with (st "1" ++ st "." ++ st "25" ++ st "e-1").
  apply (dec_point (st "1") (st "25") (st "e-1") 125 (-1)); [apply numeral10; repeat split; easy|]. right.
  apply (xp_minus (st "e") (st "1") 1); [left; reflexivity|]. apply numeral10. repeat split; easy.
Qed.

Example C32_example : map float_try_from (map st ["1.25e-1F"; ".5"; "1."; "1e400"; "1e-400"; "16777217.0f"; "."; "e5"; "1.5e"]) =
  [Some (FFloat (S754_finite false 8388608 (-26))); Some (FDouble (S754_finite false 4503599627370496 (-53)));
   Some (FDouble (S754_finite false 4503599627370496 (-52))); Some (FDouble (S754_infinity false)); Some (FDouble (S754_zero false));
   Some (FFloat (S754_finite false 8388608 1)); None; None; None].
Proof. vm_compute. reflexivity. Qed.

Print Assumptions C32_grammar.
Print Assumptions C32_value.
Print Assumptions C32_token_iff.
