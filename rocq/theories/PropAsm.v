(** C48: assembly templates. *)
From Verif Require Import Base Utf Lex LexFloat Token Ast ParseStmt Rust StrFacts LexFacts SpecInt IntFacts SpecAsm DecFacts.
From Coq Require Import String List ZArith Lia.
Import ListNotations.
Local Open Scope string_scope.
Local Open Scope list_scope.

(** ** Decimal printing *)

Lemma dec_digits_app fuel : forall n acc, dec_digits fuel n acc = dec_digits fuel n [] ++ acc.
Proof.
  induction fuel as [|f IH]; intros n acc; [reflexivity|]. cbn [dec_digits]. destruct (n <? 10)%N; [reflexivity|].
  rewrite IH, (IH _ [_]), <- app_assoc. reflexivity.
Qed.

Lemma mod10_digit n : digit 10 (48 + n mod 10) (Z.of_N (n mod 10)).
Proof. assert ((n mod 10 < 10)%N) by (apply N.mod_lt; lia). revert H. generalize (n mod 10)%N. intros m Hm. unfold digit. change (Z.of_N 10) with 10%Z. split; [left; lia|lia]. Qed.

Lemma dec_digits_numeral fuel : forall n, (n < 10 ^ N.of_nat fuel)%N -> (0 < fuel)%nat ->
  numeral 10 (dec_digits fuel n []) (Z.of_N n) /\
  (n = 0%N /\ dec_digits fuel n [] = st "0" \/ ~ starts (fun c => c = 48%N) (dec_digits fuel n [])).
Proof.
  induction fuel as [|f IH]; intros n L P; [lia|]. cbn [dec_digits]. destruct (N.ltb_spec n 10) as [S|S].
  - rewrite (N.mod_small n 10) by exact S. split.
    + apply num_digit. unfold digit. lia.
    + destruct (N.eq_dec n 0) as [->|N0]; [left; split; reflexivity|]. right. cbn [starts]. lia.
  - rewrite dec_digits_app. assert (F : (0 < f)%nat).
    { destruct f; [|lia]. cbn in L. lia. }
    assert (D : (n / 10 < 10 ^ N.of_nat f)%N).
    { apply N.div_lt_upper_bound; [lia|]. rewrite Nat2N.inj_succ, N.pow_succ_r' in L. exact L. }
    destruct (IH _ D F) as [Nu St]. split.
    + replace (Z.of_N n) with (Z.of_N (n / 10) * Z.of_N 10 + Z.of_N (n mod 10))%Z.
      * apply num_more; [exact Nu|apply mod10_digit].
      * pose proof (N.div_mod n 10). lia.
    + right. destruct St as [[Z0 _]|St].
      * exfalso. assert (1 <= n / 10)%N by (apply N.div_le_lower_bound; lia). lia.
      * destruct (dec_digits f (n / 10) []) eqn:E; [inversion Nu|exact St].
        match goal with H : _ ++ [_] = [] |- _ => destruct (app_cons_not_nil _ _ _ (eq_sym H)) end.
Qed.

Lemma dec_str_decimal n : decimal (dec_str n) (Z.of_N n).
Proof.
  unfold dec_str, decimal. destruct (dec_digits_numeral (S (N.size_nat n)) n) as [A B].
  - assert (L : (n < 2 ^ N.of_nat (N.size_nat n))%N).
    { destruct n as [|p]; [reflexivity|]. pose proof (N.size_gt (N.pos p)) as G.
      replace (N.of_nat (N.size_nat (N.pos p))) with (N.size (N.pos p)); [exact G|]. simpl.
      clear. induction p as [p IH|p IH|]; cbn [Pos.size Pos.size_nat]; rewrite ?Nat2N.inj_succ, <- ?IH; reflexivity. }
    eapply N.lt_le_trans; [exact L|]. etransitivity; [apply N.pow_le_mono_l with (b := 10%N); lia|].
    apply N.pow_le_mono_r; lia.
  - lia.
  - split; [exact A|]. destruct B as [[_ B]|B]; auto.
Qed.

(** ** Characters *)

Lemma alpha_letter c : is_alpha c = true <-> ascii_letter c.
Proof. unfold is_alpha, ascii_letter. rewrite orb_true_iff, !andb_true_iff, !N.leb_le. lia. Qed.
Lemma digit_ascii c : is_digit c = true <-> ascii_digit c.
Proof. unfold is_digit, ascii_digit. rewrite andb_true_iff, !N.leb_le. lia. Qed.
Lemma forallb_Forall (p : N -> bool) (P : N -> Prop) s : (forall c, p c = true <-> P c) -> (forallb p s = true <-> Forall P s).
Proof.
  intros E. rewrite forallb_forall, Forall_forall. split; intros F c I; apply E, F, I.
Qed.
Lemma starts_not (p : N -> bool) (P : N -> Prop) s : (forall c, p c = true <-> P c) ->
  (match s with [] => True | c :: _ => p c = false end <-> ~ starts P s).
Proof.
  intros E. destruct s as [|c s]; simpl; [tauto|]. rewrite <- E. destruct (p c); split; congruence.
Qed.

(** What the code computes: a brace that follows a plain character in the same
    run stays single. *)
Fixpoint code_out (after_char : bool) (ps : list piece) : str :=
  match ps with
  | [] => []
  | PRef ds :: ps' => [123%N] ++ dec_str (Z.to_N (dec_val ds)) ++ [125%N] ++ code_out false ps'
  | PReg w :: ps' => (percent :: w) ++ code_out false ps'
  | PBrace c :: ps' => (if after_char then [c] else [c; c]) ++ code_out after_char ps'
  | PChar c :: ps' => c :: code_out true ps'
  end.

(** A run without a percent sign. *)
Definition run_piece (c : N) : piece := if (N.eqb c 123 || N.eqb c 125)%bool then PBrace c else PChar c.
Lemma run_text r : text (map run_piece r) = r.
Proof. unfold text. induction r as [|c r IH]; [reflexivity|]. cbn [map concat]. rewrite IH. unfold run_piece at 1. destruct (_ || _); reflexivity. Qed.
Lemma run_pieces r ps : forallb (fun c => negb (N.eqb c 37)) r = true -> pieces ps -> pieces (map run_piece r ++ ps).
Proof.
  induction r as [|c r IH]; intros F P; [exact P|]. cbn [forallb] in F. apply andb_prop in F. destruct F as [C F].
  apply negb_true_iff, N.eqb_neq in C. cbn [map app]. unfold run_piece at 1.
  destruct (N.eqb_spec c 123); [apply ps_brace; [now left|auto]|].
  destruct (N.eqb_spec c 125); [apply ps_brace; [now right|auto]|].
  apply ps_char; auto. unfold brace. intros [?|?]; contradiction.
Qed.
Lemma run_out r ps : match ps with [] | (PRef _ | PReg _) :: _ => True | _ => False end ->
  code_out true (map run_piece r ++ ps) = r ++ code_out false ps.
Proof.
  intros B. induction r as [|c r IH].
  - destruct ps as [|[] ps]; try contradiction; reflexivity.
  - cbn [map app]. assert (run_piece c = PBrace c \/ run_piece c = PChar c) as [-> | ->]
      by (unfold run_piece; destruct (_ || _); auto); cbn [code_out]; rewrite IH; reflexivity.
Qed.
Lemma text_app a b : text (a ++ b) = text a ++ text b.
Proof. unfold text. now rewrite map_app, concat_app. Qed.
Lemma text_cons a b : text (a :: b) = piece_text a ++ text b.
Proof. reflexivity. Qed.

(** ** Soundness *)

Lemma template_sound fuel : forall s l, many_items template_piece fuel s = ([], l) -> (length s <= fuel)%nat ->
  exists ps, pieces ps /\ text ps = s /\ concat l = code_out false ps /\ small_refs ps /\
    (forall r, s = percent :: r -> match ps with (PRef _ | PReg _) :: _ => True | _ => False end).
Proof.
  induction fuel as [|f IH]; intros s l E L.
  - cbn in E. injection E as -> <-. exists []. repeat split; try constructor; try discriminate. intros ? ? [].
  - cbn [many_items] in E. destruct (template_piece s) as [[s' o]|] eqn:P.
    2:{ injection E as -> <-. exists []. repeat split; try constructor; try discriminate. intros ? ? []. }
    destruct (many_items template_piece f s') as [r l'] eqn:M. injection E as -> <-.
    unfold template_piece, oor in P.
    destruct (char1 37 s) as [r|] eqn:C; cbn [obind] in P.
    + apply char1_some in C. subst s. cbn [length] in L.
      destruct (take_while1 is_digit r) as [[r1 ds]|] eqn:D; cbn [obind fst snd] in P.
      * pose proof D as D'. apply take_while1_some in D. destruct D as (Ne & -> & Fd & St).
        destruct (dec_val ds <? 2 ^ 64)%Z eqn:V.
        -- injection P as <- <-. rewrite app_length in L. destruct (IH _ _ M ltac:(lia)) as (ps & W & T & O & SR & _).
           exists (PRef ds :: ps). repeat split.
           ++ apply ps_ref; auto. { now apply (forallb_Forall _ _ _ digit_ascii). } rewrite T. now apply (starts_not _ _ _ digit_ascii).
           ++ rewrite text_cons, T. reflexivity.
           ++ cbn [concat code_out]. rewrite O. cbn [app]. rewrite <- app_assoc. reflexivity.
           ++ intros ds' v [I|I] N; [|exact (SR _ _ I N)]. injection I as <-.
              apply numeral10 in N. destruct N as (_ & _ & ->). now apply Z.ltb_lt.
        -- exfalso. assert (NA : take_while1 is_alpha (ds ++ r1) = None).
           { unfold take_while1. destruct ds as [|d ds]; [contradiction|]. cbn [app take_while]. cbn [forallb] in Fd.
             apply andb_prop in Fd. destruct Fd as [Fd _]. destruct (is_alpha d) eqn:A; [|reflexivity].
             apply alpha_letter in A. apply digit_ascii in Fd. unfold ascii_letter, ascii_digit in *. lia. }
           rewrite NA in P. cbn in P. discriminate P.
      * destruct (take_while1 is_alpha r) as [[r1 w]|] eqn:A; cbn [obind fst snd] in P.
        -- apply take_while1_some in A. destruct A as (Ne & -> & Fa & St). injection P as <- <-.
           rewrite app_length in L. destruct (IH _ _ M ltac:(lia)) as (ps & W & T & O & SR & _).
           exists (PReg w :: ps). repeat split.
           ++ apply ps_reg; auto. { now apply (forallb_Forall _ _ _ alpha_letter). } rewrite T. now apply (starts_not _ _ _ alpha_letter).
           ++ rewrite text_cons, T. reflexivity.
           ++ cbn [concat code_out]. rewrite O. reflexivity.
           ++ intros ds' v [I|I] N; [discriminate I|exact (SR _ _ I N)].
        -- cbn in P. discriminate P.
    + assert (NP : forall r, s <> percent :: r).
      { intros r ->. unfold percent in C. cbn in C. discriminate C. }
      destruct (char1 123 s) as [r|] eqn:C1; [|destruct (char1 125 s) as [r|] eqn:C2]; cbn [obind omap fst snd] in P.
      * apply char1_some in C1. subst s. injection P as <- <-. cbn [length] in L.
        destruct (IH _ _ M ltac:(lia)) as (ps & W & T & O & SR & _).
        exists (PBrace 123 :: ps). repeat split; [apply ps_brace; [now left|exact W]|rewrite text_cons, T; reflexivity|cbn [concat code_out]; now rewrite O| |intros ? X; destruct (NP _ X)].
        intros ds' v [I|I] N; [discriminate I|exact (SR _ _ I N)].
      * apply char1_some in C2. subst s. injection P as <- <-. cbn [length] in L.
        destruct (IH _ _ M ltac:(lia)) as (ps & W & T & O & SR & _).
        exists (PBrace 125 :: ps). repeat split; [apply ps_brace; [now right|exact W]|rewrite text_cons, T; reflexivity|cbn [concat code_out]; now rewrite O| |intros ? X; destruct (NP _ X)].
        intros ds' v [I|I] N; [discriminate I|exact (SR _ _ I N)].
      * apply take_while1_some in P. destruct P as (Ne & -> & Fn & St).
        rewrite app_length in L. assert (length o <> 0%nat) by (destruct o; [contradiction|discriminate]).
        destruct (IH _ _ M ltac:(lia)) as (ps & W & T & O & SR & Hd).
        exists (map run_piece o ++ ps). repeat split.
        -- now apply run_pieces.
        -- now rewrite text_app, run_text, T.
        -- destruct o as [|x o]; [contradiction|]. cbn [map app concat].
           assert (X : run_piece x = PChar x).
           { unfold run_piece. cbn [app char1] in C1, C2. destruct (N.eqb x 123) eqn:?; [discriminate C1|].
             destruct (N.eqb x 125) eqn:?; [discriminate C2|]. reflexivity. }
           rewrite X. cbn [code_out]. rewrite run_out, O; [reflexivity|].
           destruct ps as [|p ps]; [exact I|]. destruct s' as [|y s']; [rewrite text_cons in T; destruct p; discriminate T|].
           apply negb_false_iff, N.eqb_eq in St. subst y. exact (Hd s' eq_refl).
        -- intros ds' v I N. apply in_app_or in I. destruct I as [I|I]; [|exact (SR _ _ I N)].
           apply in_map_iff in I. destruct I as (x & X & _). unfold run_piece in X. destruct (_ || _); discriminate X.
        -- intros ? X. destruct (NP _ X).
Qed.

(** ** Completeness *)

Lemma template_complete fuel : forall ps, pieces ps -> small_refs ps -> (length (text ps) <= fuel)%nat ->
  exists l, many_items template_piece fuel (text ps) = ([], l).
Proof.
  induction fuel as [|f IH]; intros ps P SR L.
  - destruct (text ps); [now eexists|cbn in L; lia].
  - cbn [many_items]. destruct P as [|ds ps Ne Fd St P|w ps Ne Fd St P|c ps B P|c ps NP NB P].
    + exists []. reflexivity.
    + rewrite text_cons in *. cbn [piece_text app] in *.
      assert (V : (dec_val ds < 2 ^ 64)%Z).
      { apply (SR ds); [now left|]. apply numeral10. repeat split; auto. now apply (forallb_Forall _ _ _ digit_ascii). }
      assert (T : take_while1 is_digit (ds ++ text ps) = Some (text ps, ds)).
      { apply take_while1_some. repeat split; auto; [now apply (forallb_Forall _ _ _ digit_ascii)|now apply (starts_not _ _ _ digit_ascii)]. }
      unfold template_piece at 1. unfold percent. cbn [char1]. rewrite N.eqb_refl. cbn [obind]. rewrite T. cbn [obind fst snd].
      apply Z.ltb_lt in V. rewrite V. cbn [oor].
      cbn [length] in L. rewrite app_length in L. destruct (IH ps P) as [l E]; [intros d v I; apply SR; now right|lia|].
      rewrite E. eexists. reflexivity.
    + rewrite text_cons in *. cbn [piece_text app] in *.
      assert (T : take_while1 is_alpha (w ++ text ps) = Some (text ps, w)).
      { apply take_while1_some. repeat split; auto; [now apply (forallb_Forall _ _ _ alpha_letter)|now apply (starts_not _ _ _ alpha_letter)]. }
      assert (D : take_while1 is_digit (w ++ text ps) = None).
      { unfold take_while1. destruct w as [|d w]; [contradiction|]. cbn [app take_while]. destruct (is_digit d) eqn:A; [|reflexivity].
        apply digit_ascii in A. inversion Fd; subst. unfold ascii_letter, ascii_digit in *. lia. }
      unfold template_piece at 1. unfold percent. cbn [char1]. rewrite N.eqb_refl. cbn [obind]. rewrite D, T. cbn [obind fst snd oor].
      cbn [length] in L. rewrite app_length in L. destruct (IH ps P) as [l E]; [intros d v I; apply SR; now right|lia|].
      rewrite E. eexists. reflexivity.
    + rewrite text_cons in *. cbn [piece_text app length] in *.
      destruct (IH ps P) as [l E]; [intros d v I; apply SR; now right|lia|].
      destruct B as [-> | ->]; unfold template_piece at 1; cbn; rewrite E; eexists; reflexivity.
    + (* a run *)
      assert (R : exists r ps', text (PChar c :: ps) = (c :: r) ++ text ps' /\ pieces ps' /\ small_refs ps' /\
          forallb (fun c => negb (N.eqb c 37)) (c :: r) = true /\ match text ps' with [] => True | x :: _ => negb (N.eqb x 37) = false end).
      { assert (SR' : small_refs ps) by (intros d v I; apply SR; now right). clear SR L IH.
        rewrite text_cons. cbn [piece_text app forallb]. replace (N.eqb c 37) with false by (symmetry; now apply N.eqb_neq). cbn [negb andb].
        revert c NP NB. induction P as [|ds ps Ne Fd St P IH|w ps Ne Fd St P IH|d ps B P IH|d ps NP' NB' P IH]; intros c NP NB.
        - exists [], []. repeat split; constructor || (intros ? ? []).
        - exists [], (PRef ds :: ps). repeat split; auto. now apply ps_ref.
        - exists [], (PReg w :: ps). repeat split; auto. now apply ps_reg.
        - destruct (IH (fun d v I => SR' d v (or_intror I)) c NP NB) as (r & ps' & E & W & S & F & X).
          exists (d :: r), ps'. rewrite text_cons. cbn [piece_text app forallb]. injection E as E. rewrite E. repeat split; auto.
          replace (N.eqb d 37) with false by (destruct B as [-> | ->]; reflexivity). exact F.
        - destruct (IH (fun d v I => SR' d v (or_intror I)) c NP NB) as (r & ps' & E & W & S & F & X).
          exists (d :: r), ps'. rewrite text_cons. cbn [piece_text app forallb]. injection E as E. rewrite E. repeat split; auto.
          replace (N.eqb d 37) with false by (symmetry; now apply N.eqb_neq). exact F. }
      destruct R as (r & ps' & E & W & S & F & X). rewrite E in *.
      assert (T : take_while1 (fun c => negb (N.eqb c 37)) ((c :: r) ++ text ps') = Some (text ps', c :: r)).
      { apply take_while1_some. repeat split; auto. discriminate. }
      assert (Tp : template_piece ((c :: r) ++ text ps') = Some (text ps', c :: r)).
      { unfold template_piece. rewrite T. cbn [app char1].
        replace (N.eqb c 37) with false by (symmetry; now apply N.eqb_neq).
        replace (N.eqb c 123) with false by (symmetry; apply N.eqb_neq; intros ->; apply NB; now left).
        replace (N.eqb c 125) with false by (symmetry; apply N.eqb_neq; intros ->; apply NB; now right). reflexivity. }
      rewrite Tp. rewrite app_length in L. cbn [length] in L.
      destruct (IH ps' W S ltac:(lia)) as [l' E']. rewrite E'. eexists. reflexivity.
Qed.

(** ** The specified output *)

Lemma code_out_rust ps : forall b, pieces ps -> run_braces b ps -> rust_template ps (code_out b ps).
Proof.
  intros b P. revert b. induction P as [|ds ps Ne Fd St P IH|w ps Ne Fd St P IH|c ps B P IH|c ps NP NB P IH]; intros b R.
  - constructor.
  - cbn [code_out]. change ([123%N] ++ dec_str (Z.to_N (dec_val ds)) ++ [125%N] ++ code_out false ps)
      with ([123%N] ++ (dec_str (Z.to_N (dec_val ds)) ++ ([125%N] ++ code_out false ps))).
    replace ([123%N] ++ (dec_str (Z.to_N (dec_val ds)) ++ ([125%N] ++ code_out false ps)))
      with (([123%N] ++ dec_str (Z.to_N (dec_val ds)) ++ [125%N]) ++ code_out false ps) by (rewrite <- !app_assoc; reflexivity).
    assert (N : numeral 10 ds (dec_val ds)).
    { apply numeral10. repeat split; auto. now apply (forallb_Forall _ _ _ digit_ascii). }
    constructor; [|apply IH; exact R]. eapply rp_ref; [exact N|].
    replace (dec_val ds) with (Z.of_N (Z.to_N (dec_val ds))) at 2; [apply dec_str_decimal|].
    apply Z2N.id. clear - Fd. unfold dec_val.
    assert (H : forall a, (0 <= a)%Z -> (0 <= fold_left (fun a c => a * 10 + (Z.of_N c - 48)) ds a)%Z); [|apply H; lia].
    induction Fd as [|c ds D Fd IH]; intros a A; [exact A|]. cbn [fold_left]. apply IH. unfold ascii_digit in D. lia.
  - cbn [code_out]. constructor; [constructor|apply IH; exact R].
  - destruct R as [-> R]. cbn [code_out]. constructor; [constructor|apply IH; exact R].
  - cbn [code_out]. change (c :: code_out true ps) with ([c] ++ code_out true ps). constructor; [constructor|apply IH; exact R].
Qed.

Lemma decimal_unique s1 s2 v : decimal s1 v -> decimal s2 v -> length s1 = length s2.
Proof.
  assert (R : forall s v, numeral 10 s v -> (0 <= v < 10 ^ Z.of_nat (length s))%Z /\ (~ starts (fun c => c = 48%N) s -> (10 ^ (Z.of_nat (length s) - 1) <= v)%Z)).
  { induction 1 as [c d D|s v' c d N IH D].
    - apply digit10 in D. destruct D as [D ->]. apply digit_ascii in D. unfold ascii_digit in D. simpl. split; [lia|]. intros S. lia.
    - apply digit10 in D. destruct D as [D ->]. apply digit_ascii in D. unfold ascii_digit in D. rewrite app_length. cbn [length].
      destruct IH as [[A B] C]. rewrite Nat2Z.inj_add, Z.pow_add_r by lia. change (10 ^ Z.of_nat 1)%Z with 10%Z. split; [lia|].
      intros S. assert (X : (10 ^ (Z.of_nat (length s) - 1) <= v')%Z).
      { apply C. destruct s as [|x s]; [|exact S]. inversion N. destruct s; discriminate. }
      replace (Z.of_nat (length s) + Z.of_nat 1 - 1)%Z with (Z.of_nat (length s) - 1 + 1)%Z by lia.
      assert (length s <> 0%nat) by (destruct s; [inversion N; destruct s; discriminate|discriminate]).
      rewrite Z.pow_add_r by lia. lia. }
  assert (NE : forall s v, numeral 10 s v -> (1 <= length s)%nat).
  { intros s w N. inversion N; subst; rewrite ?app_length; simpl; lia. }
  intros [N1 L1] [N2 L2]. destruct (R _ _ N1) as [[A1 B1] C1]. destruct (R _ _ N2) as [[A2 B2] C2].
  pose proof (NE _ _ N1) as P1. pose proof (NE _ _ N2) as P2.
  assert (Z1 : s1 = st "0" -> v = 0%Z).
  { intros ->. inversion N1 as [c d D|s v' c d N D E]; subst; [|destruct s as [|? [|? ?]]; try discriminate; inversion N; destruct s; discriminate].
    apply digit10 in D. destruct D as [_ ->]. reflexivity. }
  assert (Z2 : s2 = st "0" -> v = 0%Z).
  { intros ->. inversion N2 as [c d D|s v' c d N D E]; subst; [|destruct s as [|? [|? ?]]; try discriminate; inversion N; destruct s; discriminate].
    apply digit10 in D. destruct D as [_ ->]. reflexivity. }
  destruct L1 as [L1|L1]; destruct L2 as [L2|L2].
  - subst. reflexivity.
  - specialize (C2 L2). specialize (Z1 L1). assert (0 < 10 ^ (Z.of_nat (length s2) - 1))%Z by (apply Z.pow_pos_nonneg; lia). lia.
  - specialize (C1 L1). specialize (Z2 L2). assert (0 < 10 ^ (Z.of_nat (length s1) - 1))%Z by (apply Z.pow_pos_nonneg; lia). lia.
  - specialize (C1 L1). specialize (C2 L2).
    assert (X1 : (10 ^ (Z.of_nat (length s1) - 1) < 10 ^ Z.of_nat (length s2))%Z) by lia.
    assert (X2 : (10 ^ (Z.of_nat (length s2) - 1) < 10 ^ Z.of_nat (length s1))%Z) by lia.
    apply Z.pow_lt_mono_r_iff in X1; [|lia|lia]. apply Z.pow_lt_mono_r_iff in X2; lia.
Qed.

(** The specified template is longer than the generated one if a brace was not
    doubled. *)
Lemma code_out_short ps : forall b out, pieces ps -> rust_template ps out ->
  (length (code_out b ps) <= length out)%nat /\ (length (code_out b ps) = length out -> run_braces b ps).
Proof.
  intros b out P. revert b out. induction P as [|ds ps Ne Fd St P IH|w ps Ne Fd St P IH|c ps B P IH|c ps NP NB P IH]; intros b out T;
    inversion T as [|p0 ps0 s0 out0 R0 T0]; subst.
  - split; [constructor|reflexivity].
  - destruct (IH false _ T0) as [A Q]. inversion R0 as [ds' v s N D| | |]; subst. cbn [code_out run_braces].
    pose proof (code_out_rust [PRef ds] false ltac:(constructor; auto; try constructor; simpl; tauto) ltac:(simpl; auto)) as X.
    inversion X as [|p1 ps1 s1 out1 R1 T1]; subst. inversion T1; subst. inversion R1 as [ds1 v1 s2 N1 D1| | |]; subst.
    assert (V : v1 = v). { apply numeral10 in N. apply numeral10 in N1. destruct N as (_ & _ & ->), N1 as (_ & _ & ->). reflexivity. }
    subst v1. pose proof (decimal_unique _ _ _ D D1) as Le.
    assert (LL : length s2 = length (dec_str (Z.to_N (dec_val ds)))).
    { assert (Y : length (([123%N] ++ s2 ++ [125%N]) ++ []) = length (code_out false [PRef ds])) by (f_equal; assumption).
      cbn [code_out] in Y. rewrite !app_length in Y. cbn [length] in Y. lia. }
    rewrite !app_length. cbn [length]. split; [lia|]. intros E. apply Q. lia.
  - destruct (IH false _ T0) as [A Q]. inversion R0; subst. cbn [code_out run_braces]. rewrite !app_length. split; [lia|]. intros E. apply Q. lia.
  - destruct (IH b _ T0) as [A Q]. inversion R0; subst. cbn [code_out run_braces]. rewrite !app_length.
    destruct b; cbn [length]; split; try lia. intros E. split; [reflexivity|]. apply Q. lia.
  - destruct (IH true _ T0) as [A Q]. inversion R0; subst. cbn [code_out run_braces app]. cbn [length]. split; [lia|]. intros E. apply Q. lia.
Qed.

(** ** Lines *)

Lemma split_join s : forall cur, join_lines (split_on_aux 10 cur s) = rev cur ++ s /\ split_on_aux 10 cur s <> [].
Proof.
  induction s as [|c s IH]; intros cur; cbn [split_on_aux]; [split; [now rewrite app_nil_r|discriminate]|].
  destruct (N.eqb_spec c 10) as [->|N].
  - split; [|discriminate]. destruct (IH []) as [J X]. destruct (split_on_aux 10 [] s) as [|y l]; [contradiction|].
    change (join_lines (rev cur :: y :: l)) with (rev cur ++ newline :: join_lines (y :: l)). rewrite J. reflexivity.
  - destruct (IH (c :: cur)) as [J X]. split; [|exact X]. rewrite J. cbn [rev]. rewrite <- app_assoc. reflexivity.
Qed.
Lemma split_lines s : forall cur, ~ In newline cur -> Forall (fun s => ~ In newline s) (split_on_aux 10 cur s).
Proof.
  induction s as [|c s IH]; intros cur N; cbn [split_on_aux].
  - constructor; [now rewrite <- in_rev|constructor].
  - destruct (N.eqb_spec c 10) as [->|C].
    + constructor; [now rewrite <- in_rev|]. apply IH. intros [].
    + apply IH. intros [X|X]; [apply C; now rewrite X|contradiction].
Qed.

Lemma white_iff c : is_white c = true <-> white c.
Proof. reflexivity. Qed.
Lemma trim_trimmed s : trimmed s (trim s).
Proof.
  unfold trim, trim_start, trimmed. destruct (take_while is_white s) as [a m] eqn:E1. cbn [snd].
  destruct (take_while is_white (rev m)) as [b r] eqn:E2. cbn [snd].
  pose proof (take_while_app _ _ _ _ E1) as A1. pose proof (take_while_all _ _ _ _ E1) as F1. pose proof (take_while_stop _ _ _ _ E1) as S1.
  pose proof (take_while_app _ _ _ _ E2) as A2. pose proof (take_while_all _ _ _ _ E2) as F2. pose proof (take_while_stop _ _ _ _ E2) as S2.
  assert (M : m = rev r ++ rev b) by (rewrite <- (rev_involutive m), A2, rev_app_distr; reflexivity).
  exists a, (rev b). repeat split.
  - rewrite A1, M. reflexivity.
  - now apply (forallb_Forall _ _ _ white_iff).
  - apply Forall_rev. now apply (forallb_Forall _ _ _ white_iff).
  - destruct (rev r) as [|x r'] eqn:R; [intros []|]. rewrite M in S1. cbn in S1 |- *. unfold white. congruence.
  - rewrite rev_involutive. now apply (starts_not _ _ _ white_iff).
Qed.
Lemma trimmed_split s : trimmed_lines s (map trim (split_on 10 s)).
Proof.
  exists (split_on 10 s). unfold split_on. destruct (split_join s []) as [J N]. repeat split; [now rewrite J|exact N|apply split_lines; intros []|].
  clear. induction (split_on_aux 10 [] s) as [|x l IH]; [constructor|]. constructor; [apply trim_trimmed|exact IH].
Qed.

(** ** The theorems *)

(** A template is accepted exactly when it consists of well-formed pieces; the
    generated lines are as specified if no brace directly follows a plain
    character. *)
Theorem C48_template_partial s l : parse_template s = Some l ->
  exists ps, pieces ps /\ text ps = s /\ small_refs ps /\
    (run_braces false ps -> exists out, rust_template ps out /\ trimmed_lines out l).
Proof.
  unfold parse_template. intros E. destruct (many_items template_piece (length s) s) as [[|] p] eqn:M; [|discriminate E].
  injection E as <-. destruct (template_sound _ _ _ M (le_n _)) as (ps & P & T & O & SR & _).
  exists ps. repeat split; auto. intros R. exists (code_out false ps). split; [now apply code_out_rust|].
  rewrite O. apply trimmed_split.
Qed.
Theorem C48_accepted ps : pieces ps -> small_refs ps -> exists l, parse_template (text ps) = Some l.
Proof.
  intros P SR. unfold parse_template. destruct (template_complete _ ps P SR (le_n _)) as [l E]. rewrite E. eexists. reflexivity.
Qed.

Lemma pieces_unique ps ps' : pieces ps -> pieces ps' -> text ps' = text ps -> ps' = ps.
Proof.
  intros P P' T. revert ps' P' T. assert (TN : forall q qs, text (q :: qs) <> []).
  { intros q qs X. rewrite text_cons in X. destruct q; discriminate X. }
  assert (run : forall (Q : N -> Prop) a x b y, Forall Q a -> Forall Q b -> ~ starts Q x -> ~ starts Q y -> a ++ x = b ++ y -> a = b /\ x = y).
  { clear. intros Q a x b y Fa. revert b. induction Fa as [|u a U Fa IH]; intros b Fb X Y E.
    - destruct Fb as [|w b W Fb]; [now split|]. cbn in E. subst x. destruct (X W).
    - destruct Fb as [|w b W Fb]; [cbn in E; subst y; destruct (Y U)|]. cbn in E. injection E as <- E.
      destruct (IH _ Fb X Y E) as [-> ->]. now split. }
  induction P as [|ds ps Ne Fd St P IH|w ps Ne Fd St P IH|c ps B P IH|c ps NP NB P IH]; intros ps' P' T.
  - destruct ps'; [reflexivity|]. destruct (TN _ _ T).
  - destruct P' as [|ds' ps' Ne' Fd' St' P'|w' ps' Ne' Fd' St' P'|c' ps' B' P'|c' ps' NP' NB' P'];
      rewrite ?text_cons in T; cbn [piece_text app] in T; try discriminate T.
    + injection T as T. destruct (run _ _ _ _ _ Fd' Fd St' St T) as [-> T']. f_equal. now apply IH.
    + exfalso. injection T as T. destruct w' as [|x w']; [contradiction|]. destruct ds as [|d ds]; [contradiction|]. cbn in T. injection T as -> _.
      inversion Fd; inversion Fd'; subst. unfold ascii_digit, ascii_letter in *. lia.
    + exfalso. injection T as -> _. destruct B' as [X|X]; discriminate X.
    + exfalso. injection T as -> _. apply NP'. reflexivity.
  - destruct P' as [|ds' ps' Ne' Fd' St' P'|w' ps' Ne' Fd' St' P'|c' ps' B' P'|c' ps' NP' NB' P'];
      rewrite ?text_cons in T; cbn [piece_text app] in T; try discriminate T.
    + exfalso. injection T as T. destruct w as [|x w]; [contradiction|]. destruct ds' as [|d ds']; [contradiction|]. cbn in T. injection T as -> _.
      inversion Fd; inversion Fd'; subst. unfold ascii_digit, ascii_letter in *. lia.
    + injection T as T. destruct (run _ _ _ _ _ Fd' Fd St' St T) as [-> T']. f_equal. now apply IH.
    + exfalso. injection T as -> _. destruct B' as [X|X]; discriminate X.
    + exfalso. injection T as -> _. apply NP'. reflexivity.
  - destruct P' as [|ds' ps' Ne' Fd' St' P'|w' ps' Ne' Fd' St' P'|c' ps' B' P'|c' ps' NP' NB' P'];
      rewrite ?text_cons in T; cbn [piece_text app] in T; try discriminate T; injection T as T1 T2.
    + exfalso. destruct B as [-> | ->]; discriminate T1.
    + exfalso. destruct B as [-> | ->]; discriminate T1.
    + subst c'. f_equal. now apply IH.
    + exfalso. subst c'. contradiction.
  - destruct P' as [|ds' ps' Ne' Fd' St' P'|w' ps' Ne' Fd' St' P'|c' ps' B' P'|c' ps' NP' NB' P'];
      rewrite ?text_cons in T; cbn [piece_text app] in T; try discriminate T; injection T as T1 T2.
    + exfalso. subst c. now apply NP.
    + exfalso. subst c. now apply NP.
    + exfalso. subst c'. contradiction.
    + subst c'. f_equal. now apply IH.
Qed.

Lemma numeral_text s1 v0 : numeral 10 s1 v0 -> forall s2, numeral 10 s2 v0 -> length s1 = length s2 -> s1 = s2.
Proof.
  assert (DI : forall c c' d, digit 10 c d -> digit 10 c' d -> c = c').
  { intros c c' d D1 D2. inversion D1; inversion D2; subst; lia. }
  assert (DR : forall c d, digit 10 c d -> (0 <= d < 10)%Z) by (intros c d D; inversion D; subst; lia).
  assert (NE : forall s v, numeral 10 s v -> s <> []) by (intros s v K; destruct K; [discriminate|now destruct s]).
  induction 1 as [c d D|s v c d K IH D]; intros s2 K2 L.
  - destruct K2 as [c' d' D'|s' v' c' d' K' D'].
    + f_equal. eapply DI; eassumption.
    + exfalso. rewrite app_length in L. apply NE in K'. destruct s'; [contradiction|]. cbn in L. lia.
  - revert L. remember (v * Z.of_N 10 + d)%Z as w eqn:W. destruct K2 as [c' d' D'|s' v' c' d' K' D']; intros L.
    + exfalso. rewrite app_length in L. apply NE in K. destruct s; [contradiction|]. cbn in L. lia.
    + pose proof (DR _ _ D). pose proof (DR _ _ D'). assert (v' = v) by lia. assert (d' = d) by lia. subst v' d'.
      rewrite !app_length in L. cbn in L. f_equal; [apply IH; [assumption|lia]|]. f_equal. eapply DI; eassumption.
Qed.
Lemma decimal_text s1 s2 v : decimal s1 v -> decimal s2 v -> s1 = s2.
Proof. intros D1 D2. eapply numeral_text; [exact (proj1 D1)|exact (proj1 D2)|]. eapply decimal_unique; eassumption. Qed.
Lemma numeral_value s v w : numeral 10 s v -> numeral 10 s w -> v = w.
Proof. rewrite !numeral_from_iff. intros [_ A] [_ B]. eapply numeral_from_det; eassumption. Qed.
Lemma rust_template_unique ps out : rust_template ps out -> forall out', rust_template ps out' -> out' = out.
Proof.
  induction 1 as [|p ps s out R T IH]; intros out' T'; inversion T'; subst; [reflexivity|]. f_equal; [|now apply IH].
  match goal with Q : rust_piece p _ |- _ => destruct R as [ds v s K D|w|c|c]; inversion Q; subst; try reflexivity end.
  match goal with Q : numeral 10 ds ?w |- _ => assert (w = v) by (eapply numeral_value; eassumption); subst w end.
  do 2 f_equal. eapply decimal_text; eassumption.
Qed.
Lemma trimmed_unique x s s' : trimmed x s -> trimmed x s' -> s = s'.
Proof.
  intros (a & b & E & A & B & N & M) (a' & b' & E' & A' & B' & N' & M').
  assert (lead : forall a s a' s', Forall white a -> Forall white a' -> ~ starts white s -> ~ starts white s' -> a ++ s = a' ++ s' -> s = s').
  { clear. intros a s a' s' A. revert a'. induction A as [|c a C A IH]; intros a' A' N N' E.
    - destruct A' as [|c a' C A']; [exact E|]. cbn in E. subst s. destruct (N C).
    - destruct A' as [|c' a' C' A']; [cbn in E; subst s'; destruct (N' C)|]. injection E as <- E. now apply (IH a'). }
  assert (end1 : forall s b, Forall white b -> ~ starts white s -> ~ starts white (s ++ b) \/ s = []).
  { intros [|c t] u _ Nt; [now right|left; exact Nt]. }
  destruct (end1 s b B N) as [K| ->], (end1 s' b' B' N') as [K'| ->]; try reflexivity.
  - assert (X : s ++ b = s' ++ b') by (apply (lead a _ a'); auto; congruence).
    assert (Y : rev s = rev s'); [|rewrite <- (rev_involutive s), Y; apply rev_involutive].
    apply (lead (rev b) _ (rev b')); [now apply Forall_rev|now apply Forall_rev|exact M|exact M'|]. rewrite <- !rev_app_distr. now f_equal.
  - destruct s as [|c s]; [reflexivity|exfalso]. assert (W : Forall white x) by (rewrite E'; cbn; now apply Forall_app).
    rewrite E in W. apply Forall_app in W as [_ W]. inversion W; subst. now apply N.
  - destruct s' as [|c s']; [reflexivity|exfalso]. assert (W : Forall white x) by (rewrite E; cbn; now apply Forall_app).
    rewrite E' in W. apply Forall_app in W as [_ W]. inversion W; subst. now apply N'.
Qed.
Lemma lines_unique l : l <> [] -> Forall (fun s => ~ In newline s) l ->
  forall l', l' <> [] -> Forall (fun s => ~ In newline s) l' -> join_lines l = join_lines l' -> l = l'.
Proof.
  assert (cut : forall a b x y, ~ In newline a -> ~ In newline b -> a ++ newline :: x = b ++ newline :: y -> a = b /\ x = y).
  { induction a as [|c a IH]; intros [|d b] x y A B E; cbn in E.
    - injection E as <-. auto.
    - injection E as <- _. exfalso. apply B. now left.
    - injection E as -> _. exfalso. apply A. now left.
    - injection E as <- E. apply IH in E as [-> ->]; auto; intros I; [apply A|apply B]; now right. }
  induction l as [|a l IH]; intros Ne F l' Ne' F' E; [contradiction|]. destruct l' as [|a' l']; [contradiction|].
  inversion F as [|? ? A Fl]; inversion F' as [|? ? A' Fl']; subst. destruct l as [|b l], l' as [|b' l'].
  - cbn in E. now subst.
  - exfalso. cbn [join_lines] in E. subst a. apply A, in_app_iff. right. now left.
  - exfalso. cbn [join_lines] in E. subst a'. apply A', in_app_iff. right. now left.
  - cbn [join_lines] in E. apply cut in E as [-> E]; auto. f_equal. apply IH; auto; discriminate.
Qed.
Lemma trimmed_lines_unique out l l' : trimmed_lines out l -> trimmed_lines out l' -> l = l'.
Proof.
  intros (raw & -> & Ne & F & T) (raw' & E & Ne' & F' & T'). apply lines_unique in E; auto. subst raw'.
  clear - T T'. revert l' T'. induction T as [|x y raw l T Ts IH]; intros l' T'; inversion T'; subst; [reflexivity|].
  f_equal; [eapply trimmed_unique; eassumption|now apply IH].
Qed.

(** The lines are determined by the text. *)
Theorem C48_exact ps out l : pieces ps -> small_refs ps -> run_braces false ps -> rust_template ps out -> trimmed_lines out l ->
  parse_template (text ps) = Some l.
Proof.
  intros P SR RB R L. destruct (C48_accepted ps P SR) as (l' & E). destruct (C48_template_partial _ _ E) as (ps' & P' & T & _ & K).
  apply (pieces_unique ps) in T; [|exact P|exact P']. subst ps'. destruct (K RB) as (out' & R' & L').
  rewrite (rust_template_unique _ _ R _ R') in L'. now rewrite (trimmed_lines_unique _ _ _ L L').
Qed.

(** The condition is necessary: in every other template some brace stays
    single. *)
Theorem C48_unescaped ps : pieces ps -> small_refs ps -> ~ run_braces false ps ->
  exists out, parse_template (text ps) = Some (map trim (split_on 10 out)) /\ ~ rust_template ps out.
Proof.
  intros P SR N. unfold parse_template. destruct (template_complete _ ps P SR (le_n _)) as [l E]. rewrite E.
  destruct (template_sound _ _ _ E (le_n _)) as (ps' & P' & T & O & _ & _).
  apply (pieces_unique ps) in T; [|exact P|exact P'].
  subst ps'. exists (code_out false ps). rewrite O. split; [reflexivity|]. intros R. apply N.
  apply (code_out_short ps false _ P R). reflexivity.
Qed.

(** Refuted as stated: the brace in [a{b] is not escaped. *)
Theorem C48_template_refuted : exists ps l, pieces ps /\ small_refs ps /\ parse_template (text ps) = Some l /\
  forall out, rust_template ps out -> ~ trimmed_lines out l.
Proof.
  exists [PChar 97; PBrace 123; PChar 98], [[97; 123; 98]%N]. split.
  { repeat constructor; unfold percent, brace; try lia. }
  split. { intros ds v I. simpl in I. decompose [or] I; try discriminate; contradiction. }
  split; [reflexivity|]. intros out T (raw & -> & _ & Nl & F). inversion F as [|x y raw' ? (a & b & X & Wa & Wb & _) F']; subst.
  inversion F'; subst. cbn [join_lines] in T. inversion T as [|p0 ps0 s0 out0 R0 T0 X1 X2]; subst. inversion R0; subst.
  inversion T0 as [|p1 ps1 s1 out1 R1 T1 X3]; subst. inversion R1; subst.
  inversion T1 as [|p2 ps2 s2 out2 R2 T2 X4]; subst. inversion R2; subst. inversion T2; subst. cbn in X2.
  destruct a as [|u a].
  - cbn in X2. injection X2 as X2. discriminate X2.
  - cbn in X2. injection X2 as <- X2. inversion Wa as [|? ? W]; subst. discriminate W.
Qed.

(** Not vacuous. *)
Example C48_case : exists ps out, pieces ps /\ small_refs ps /\ run_braces false ps /\
  text ps = st "{mov %01, %eax" /\ rust_template ps out /\ out = st "{{mov {1}, %eax" /\
  parse_template (text ps) = Some [out].
Proof.
  exists (PBrace 123 :: map PChar (st "mov ") ++ [PRef (st "01")] ++ map PChar (st ", ") ++ [PReg (st "eax")]), (st "{{mov {1}, %eax").
  assert (P : pieces (PBrace 123 :: map PChar (st "mov ") ++ [PRef (st "01")] ++ map PChar (st ", ") ++ [PReg (st "eax")])).
  { assert (C : forall l ps, forallb (fun c => negb (existsb (N.eqb c) [37; 123; 125]%N)) l = true -> pieces ps -> pieces (map PChar l ++ ps)).
    { clear. induction l as [|c l IH]; intros ps F P; [exact P|]. cbn [forallb] in F. apply andb_prop in F. destruct F as [C F].
      cbn [map app]. apply negb_true_iff in C. cbn in C. apply orb_false_iff in C. destruct C as [C1 C]. apply orb_false_iff in C. destruct C as [C2 C].
      rewrite orb_false_r in C. apply ps_char; [now apply N.eqb_neq| |now apply IH]. intros [-> | ->]; discriminate. }
    apply ps_brace; [now left|]. apply C; [reflexivity|]. apply ps_ref; [discriminate|repeat constructor; discriminate|cbn; unfold ascii_digit; lia|].
    apply C; [reflexivity|]. apply ps_reg; [discriminate| |cbn; tauto|constructor].
    repeat (apply Forall_cons; [right; split; discriminate|]). constructor. }
  split; [exact P|]. split.
  { intros ds v I N. simpl in I. decompose [or] I; try discriminate; try contradiction. match goal with X : PRef _ = _ |- _ => injection X as <- end. apply numeral10 in N.
    destruct N as (_ & _ & ->). reflexivity. }
  split. { simpl. auto. }
  split; [reflexivity|]. split; [|split; reflexivity].
  change (st "{{mov {1}, %eax") with (code_out false (PBrace 123 :: map PChar (st "mov ") ++ [PRef (st "01")] ++ map PChar (st ", ") ++ [PReg (st "eax")])).
  apply code_out_rust; [exact P|]. simpl. auto.
Qed.

Print Assumptions C48_template_partial.
Print Assumptions C48_accepted.
Print Assumptions C48_exact.
Print Assumptions C48_unescaped.
Print Assumptions C48_template_refuted.
