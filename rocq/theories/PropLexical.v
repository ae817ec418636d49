(** C60: identifiers and comments as text. *)
From Verif Require Import Base Utf Lex LexFloat Token MacroSet StrFacts LexFacts TokenFacts SpecInt SpecString StringFacts
  SpecTokens SpecLexical SpecSet SetFacts PropPaste.
From Coq Require Import String List.
Local Open Scope string_scope.
Local Open Scope list_scope.

Section P.
Context `{Unicode}.

Lemma from_u32_iff v c : char_from_u32 v = Some c <-> v = c /\ scalar v.
Proof.
  unfold char_from_u32, is_scalar, scalar.
  destruct (v <? 0xD800)%N eqn:E1; simpl; [apply N.ltb_lt in E1; split; [intros [= ->]; auto|intros [-> _]; easy]|].
  apply N.ltb_ge in E1. destruct (0xDFFF <? v)%N eqn:E2; simpl.
  - apply N.ltb_lt in E2. destruct (v <=? 0x10FFFF)%N eqn:E3.
    + apply N.leb_le in E3. split; [intros [= ->]; split; [easy|right; lia]|intros [-> _]; easy].
    + apply N.leb_gt in E3. split; [discriminate|]. intros [_ Hs]. lia.
  - apply N.ltb_ge in E2. split; [discriminate|]. intros [_ Hs]. lia.
Qed.

Lemma universal_iff s r v : universal_char s = Some (r, v) <->
  exists ds, numeral 16 ds (Z.of_N v) /\ (s = 117%N :: ds ++ r /\ length ds = 4 \/ s = 85%N :: ds ++ r /\ length ds = 8).
Proof.
  unfold universal_char. split.
  - destruct (match char1 117 s with Some s' => digits_m_n 16 4 4 0 s' | None => None end) as [[r' v']|] eqn:Eu.
    + intros [= -> ->]. destruct (char1 117 s) as [s2|] eqn:E1; [|discriminate]. apply char1_some in E1. subst s.
      apply hex_digits in Eu; [|lia]. destruct Eu as (t & -> & Hn & Hl). exists t. auto.
    + destruct (char1 85 s) as [s2|] eqn:E1; [|discriminate]. apply char1_some in E1. subst s. intros E.
      apply hex_digits in E; [|lia]. destruct E as (t & -> & Hn & Hl). exists t. auto.
  - intros (ds & Hn & [[-> Hl]|[-> Hl]]).
    + rewrite (proj2 (char1_some 117 _ _) eq_refl).
      now rewrite (proj2 (hex_digits 4 (ds ++ r) r v (ltac:(lia)))) by (exists ds; auto).
    + change (char1 117 (85%N :: ds ++ r)) with (@None str). cbn beta iota. rewrite (proj2 (char1_some 85 _ _) eq_refl).
      apply hex_digits; [lia|]. exists ds. auto.
Qed.

(** A character is read as itself, and nothing else is, up to backslashes. *)
Lemma character_read s r c : c <> 92%N -> (identifier_char s = Some (r, c) <-> exists t, s = t ++ r /\ character t c).
Proof.
  intros Hc. unfold identifier_char. split.
  - intros E. apply oor_some in E. destruct E as [E|[_ E]].
    + destruct (char1 92 s) as [s1|] eqn:E1; [|discriminate]. apply char1_some in E1. subst s. cbn [obind] in E.
      destruct (universal_char s1) as [[r1 v]|] eqn:E2; [|discriminate]. cbn [obind fst snd] in E.
      destruct (char_from_u32 v) as [c1|] eqn:E3; [|discriminate]. cbn [obind] in E. injection E as -> ->.
      apply from_u32_iff in E3. destruct E3 as [-> Hs]. apply universal_iff in E2.
      destruct E2 as (ds & Hn & [[-> Hl]|[-> Hl]]).
      * exists (92%N :: 117%N :: ds). split; [easy|now constructor].
      * exists (92%N :: 85%N :: ds). split; [easy|now constructor].
    + destruct s as [|x s]; [discriminate|]. injection E as -> ->. exists [c]. split; [easy|now constructor].
  - intros (t & -> & [c0 Hc0|ds v Hn Hl Hs|ds v Hn Hl Hs]).
    + cbn [app char1]. destruct (N.eqb_spec c0 92); [contradiction|]. reflexivity.
    + cbn [app]. rewrite (proj2 (char1_some 92 _ _) eq_refl). cbn [obind].
      rewrite (proj2 (universal_iff (117%N :: ds ++ r) r v)) by (exists ds; auto). cbn [obind fst snd].
      now rewrite (proj2 (from_u32_iff v v)).
    + cbn [app]. rewrite (proj2 (char1_some 92 _ _) eq_refl). cbn [obind].
      rewrite (proj2 (universal_iff (85%N :: ds ++ r) r v)) by (exists ds; auto). cbn [obind fst snd].
      now rewrite (proj2 (from_u32_iff v v)).
Qed.

Lemma continue_no_backslash c : is_xid_continue c = true -> c <> 92%N.
Proof. now intros Hc ->. Qed.

Lemma character_nonempty t c : character t c -> t <> [].
Proof. now destruct 1. Qed.

(** The loop over the characters of an identifier. *)
Lemma id_chars_all : forall f s id, (length s <= f)%nat ->
  (id_chars f s = ([], id) <-> spells s id /\ Forall (fun c => is_xid_continue c = true) id).
Proof.
  induction f as [|f IH]; intros s id Hl.
  - destruct s; [|simpl in Hl; lia]. simpl. split.
    + intros [= <-]. split; [|constructor]. exists []. split; [constructor|easy].
    + intros [(parts & Hp & E) _]. destruct Hp as [|t c parts id Ht Hp]; [easy|]. exfalso.
      apply character_nonempty in Ht. destruct t; [easy|discriminate].
  - cbn [id_chars]. split.
    + destruct (identifier_char s) as [[s' c]|] eqn:Ec.
      * destruct (is_xid_continue c) eqn:Ex.
        -- apply character_read in Ec; [|now apply continue_no_backslash]. destruct Ec as (t & -> & Ht).
           destruct (id_chars f s') as [r cs] eqn:Er. intros [= -> <-].
           apply IH in Er.
           2:{ apply character_nonempty in Ht. destruct t; [easy|]. simpl in Hl. rewrite app_length in Hl. lia. }
           destruct Er as [(parts & Hp & ->) Hcs]. split; [|now constructor].
           exists (t :: parts). split; [now constructor|easy].
        -- intros [= -> <-]. discriminate.
      * intros [= -> <-]. split; [|constructor]. exists []. split; [constructor|easy].
    + intros [(parts & Hp & ->) Hcs]. destruct Hp as [|t c parts id Ht Hp].
      * reflexivity.
      * inversion Hcs as [|? ? Hc Hcs']; subst. cbn [concat] in *.
        rewrite (proj2 (character_read (t ++ concat parts) (concat parts) c (continue_no_backslash _ Hc))) by eauto.
        rewrite Hc.
        assert (E : id_chars f (concat parts) = ([], id)).
        { apply IH.
          - apply character_nonempty in Ht. destruct t; [easy|]. simpl in Hl. rewrite app_length in Hl. lia.
          - split; [exists parts; easy|easy]. }
        now rewrite E.
Qed.

Lemma start_iff c : is_identifier_start c = true <-> is_xid_start c = true \/ c = 95%N.
Proof. unfold is_identifier_start. now rewrite orb_true_iff, N.eqb_eq. Qed.

Lemma well_formed_iff id : is_identifier id = true <-> well_formed_identifier id.
Proof.
  unfold well_formed_identifier. split.
  - destruct id as [|c r]; [discriminate|]. simpl. intros E. apply andb_prop in E. destruct E as [E1 E2].
    exists c, r. split; [easy|]. split; [now apply start_iff|]. apply Forall_forall. now rewrite forallb_forall in E2.
  - intros (c & r & -> & Hc & Hr). simpl. rewrite (proj2 (start_iff c) Hc). simpl. apply forallb_forall.
    now rewrite Forall_forall in Hr.
Qed.

Lemma spells_itself t : ~ In 92%N t -> spells t t.
Proof.
  induction t as [|c t IH]; intros Hn; [exists []; split; [constructor|easy]|].
  destruct IH as (parts & Hp & E); [intros Hi; apply Hn; now right|]. exists ([c] :: parts). split.
  - constructor; [constructor; intros ->; apply Hn; now left|easy].
  - cbn [concat app]. now rewrite <- E.
Qed.

Lemma identifier_no_backslash id : well_formed_identifier id -> ~ In 92%N id.
Proof.
  intros (c & r & -> & Hc & Hr) [-> |Hi].
  - destruct Hc as [Hc|Hc]; discriminate.
  - rewrite Forall_forall in Hr. apply Hr in Hi. discriminate.
Qed.

(** Exactly the identifiers of C whose text has no universal character names,
    or begins with one, are accepted, with the characters they spell. *)
Theorem C60_identifier_partial : forall s id,
  identifier_try_from s = Some id <-> c_identifier s id /\ names_first s id.
Proof.
  intros s id. split.
  - intros E. pose proof (identifier_try_from_ok _ _ E) as Hw. apply well_formed_iff in Hw.
    unfold identifier_try_from in E. apply all_consuming_some in E. destruct s as [|c s]; [discriminate|].
    cbn [identifier_parse_str] in E. destruct (is_identifier_start c) eqn:Ec.
    + destruct (take_while is_xid_continue s) as [a b] eqn:Et. injection E as -> <-.
      apply take_while_app in Et. rewrite app_nil_r in Et. subst a.
      split; [|now left]. split; [easy|]. apply spells_itself. now apply identifier_no_backslash.
    + destruct (identifier_char (c :: s)) as [[s1 c1]|] eqn:Ei; [|discriminate].
      destruct (is_identifier_start c1) eqn:Ec1; [|discriminate].
      destruct (id_chars (length s1) s1) as [r cs] eqn:Er. injection E as -> <-.
      apply id_chars_all in Er; [|lia]. destruct Er as [(parts & Hp & ->) _].
      apply character_read in Ei; [|apply continue_no_backslash; now apply identifier_start_continue].
      destruct Ei as (t & E & Ht). split.
      * split; [easy|]. exists (t :: parts). split; [now constructor|easy].
      * right. destruct Ht as [c0 Hc0|ds v Hn Hl Hs|ds v Hn Hl Hs]; injection E as -> ->; [congruence|eauto|eauto].
  - intros [[Hw (parts & Hp & E)] [-> |[r ->]]].
    + apply identifier_try_from_id. now apply well_formed_iff.
    + unfold identifier_try_from. apply all_consuming_some. destruct Hw as (c & t & -> & Hc & Ht).
      apply start_iff in Hc. inversion Hp as [|p ? ps ? Hpc Hps]; subst. cbn [concat] in E. unfold identifier_parse_str.
      change (is_identifier_start 92) with false. cbn iota. rewrite E.
      rewrite (proj2 (character_read (p ++ concat ps) (concat ps) c (continue_no_backslash _ (identifier_start_continue _ Hc)))) by eauto.
      rewrite Hc. rewrite (proj2 (id_chars_all (length (concat ps)) (concat ps) t (le_n _))); [easy|].
      split; [exists ps; easy|easy].
Qed.

(** The same for what may follow the first character. *)
Theorem C60_continuation_partial : forall s id,
  identifier_continue_try_from s = Some id <-> c_continuation s id /\ names_first s id.
Proof.
  intros s id. unfold identifier_continue_try_from. rewrite all_consuming_some. unfold identifier_continue_parse_str. split.
  - destruct (take_while1 is_xid_continue s) as [[r a]|] eqn:Et.
    + intros [= -> ->]. apply take_while1_some in Et. destruct Et as (Hne & -> & Ha & _). rewrite app_nil_r in *.
      assert (Hf : Forall (fun c => is_xid_continue c = true) id) by (apply Forall_forall; now rewrite forallb_forall in Ha).
      split; [|now left]. split; [easy|]. split; [easy|]. apply spells_itself. intros Hi. rewrite Forall_forall in Hf.
      apply Hf in Hi. discriminate.
    + destruct (id_chars (length s) s) as [r cs] eqn:Er. destruct cs as [|c cs]; [discriminate|]. intros [= -> <-].
      apply id_chars_all in Er; [|lia]. destruct Er as [Hs Hf]. split; [split; [easy|now split]|]. right.
      destruct Hs as (parts & Hp & ->). inversion Hp as [|p ? ps ? Hc Hps]; subst. cbn [concat] in *.
      destruct Hc as [c0 Hc0|ds v Hn Hl Hs|ds v Hn Hl Hs]; cbn [app] in *; [|eauto|eauto]. exfalso.
      inversion Hf as [|? ? Hx _]; subst. unfold take_while1 in Et. cbn [take_while] in Et. rewrite Hx in Et.
      destruct (take_while is_xid_continue (concat ps)); discriminate.
  - intros [(Hne & Hf & Hs) [E|[r ->]]]; [subst s|].
    + assert (E : take_while1 is_xid_continue id = Some ([], id)); [|now rewrite E].
      apply take_while1_some. split; [easy|]. split; [now rewrite app_nil_r|]. split; [|easy].
      apply forallb_forall. now rewrite Forall_forall in Hf.
    + change (take_while1 is_xid_continue (92%N :: r)) with (@None (str * str)). cbn iota.
      rewrite (proj2 (id_chars_all (length (92%N :: r)) (92%N :: r) id (le_n _))) by now split.
      now destruct id.
Qed.

(** ** Comments *)
Lemma take_until_spec : forall s r a, take_until_star_slash s = Some (r, a) <->
  s = a ++ r /\ (exists q, r = st "*/" ++ q) /\ ~ exists x y, a = x ++ st "*/" ++ y.
Proof.
  assert (H42 : forall q, strip_prefix [42; 47]%N (st "*/" ++ q) = Some q) by reflexivity.
  induction s as [|c s IH]; intros r a.
  - cbn. split; [discriminate|]. intros (E & [q ->] & _). now destruct a.
  - unfold take_until_star_slash; fold take_until_star_slash. destruct (strip_prefix [42; 47]%N (c :: s)) as [q|] eqn:Es.
    + apply strip_prefix_some in Es. split.
      * intros [= <- <-]. split; [easy|]. split; [exists q; easy|]. intros (x & y & E). now destruct x.
      * intros (E & [q' ->] & Hn). destruct a as [|x a]; [cbn [app] in E |- *; now rewrite E|]. exfalso.
        rewrite Es in E. destruct a as [|x2 a]; [discriminate E|].
        injection E as <- <- _. apply Hn. exists [], a. reflexivity.
    + destruct (take_until_star_slash s) as [[r1 a1]|] eqn:Et.
      * destruct (proj1 (IH r1 a1) eq_refl) as (E1 & Hq & Hn1). split.
        -- intros [= <- <-]. split; [cbn [app]; now rewrite <- E1|]. split; [easy|]. intros (x & y & E).
           destruct x as [|x0 x]; [|injection E as _ E; apply Hn1; exists x, y; exact E].
           change (c :: a1 = 42%N :: 47%N :: y) in E. injection E as -> ->. rewrite E1 in Es. discriminate.
        -- intros (E & Hq' & Hn). destruct a as [|x a].
           ++ destruct Hq' as [q' ->]. cbn [app] in E. rewrite E in Es. discriminate.
           ++ injection E as <- E.
              assert (E2 : Some (r1, a1) = Some (r, a)); [|now injection E2 as -> ->].
              apply IH. split; [easy|]. split; [easy|].
              intros (x & y & E'). apply Hn. exists (c :: x), y. now rewrite E'.
      * split; [discriminate|]. intros (E & Hq' & Hn). destruct a as [|x a].
        -- destruct Hq' as [q' ->]. cbn [app] in E. rewrite E in Es. discriminate.
        -- injection E as <- E. enough (E2 : None = Some (r, a)) by discriminate. apply IH. split; [easy|]. split; [easy|].
           intros (x & y & E'). apply Hn. exists (c :: x), y. now rewrite E'.
Qed.

(** Exactly the comments of C are accepted; a comment ends with its first terminator. *)
Theorem C60_comment : forall s c, comment_try_from s = Some c <-> c_comment s c.
Proof.
  intros s c. unfold comment_try_from, c_comment, tag. split.
  - destruct (strip_prefix (st "/*") s) as [s1|] eqn:E1; [|discriminate]. apply strip_prefix_some in E1. subst s. cbn [obind].
    destruct (take_until_star_slash s1) as [[r a]|] eqn:E2; [|discriminate]. apply take_until_spec in E2.
    destruct E2 as (-> & [q ->] & Hn). cbn [obind fst snd]. change (strip_prefix (st "*/") (st "*/" ++ q)) with (Some q).
    cbn [obind]. destruct q; [|discriminate]. intros [= <-]. now rewrite app_nil_r.
  - intros [-> Hn]. change (strip_prefix (st "/*") (st "/*" ++ c ++ st "*/")) with (Some (c ++ st "*/")). cbn [obind].
    rewrite (proj2 (take_until_spec (c ++ st "*/") (st "*/") c)).
    + reflexivity.
    + split; [easy|]. split; [now exists []|easy].
Qed.
End P.

(** ** What follows for the expansion of a text *)
Section Q.
Context `{Unicode}.

(** A name that is not defined stays what it is; its universal character
    names are replaced. *)
Theorem C60_identifier_token : forall h fuel s id, c_identifier s id -> names_first s id -> s <> st "__VA_ARGS__" ->
  defined (rev h) id = None -> expand (run h) (S fuel) [s] = ROk [MIdent id].
Proof.
  intros h fuel s id Hi Hf Hv Hd. assert (E : identifier_try_from s = Some id) by now apply C60_identifier_partial.
  apply C11_inert_text_unchanged.
  - constructor; [|constructor]. split; [intros (id' & d & E' & Hd'); congruence|]. split; [|easy].
    intros Hp. destruct Hi as [Hw _]. assert (Ho : s = st "##" \/ s = 92%N :: tl s).
    { unfold punct_try_from in Hp. destruct Hf as [-> |[r ->]]; [|now right]. left.
      destruct Hw as (c & r & -> & Hc & _).
      assert (Hc92 : c <> 92%N) by (intros ->; destruct Hc; discriminate).
      cbn [length punct_try_from_aux] in Hp. destruct (str_mem (c :: r) puncts) eqn:Em; [now injection Hp as -> |].
      cbn [strip_prefix] in Hp. destruct (N.eqb_spec 92 c) as [Ec|Ec]; [congruence|]. discriminate. }
    destruct Ho as [-> |Ho]; [discriminate E|]. destruct s as [|x s]; [discriminate|]. injection Ho as ->.
    unfold identifier_try_from in E. apply all_consuming_some in E. unfold identifier_parse_str in E.
    change (is_identifier_start 92) with false in E. cbn iota in E.
    unfold punct_try_from in Hp. cbn [length punct_try_from_aux] in Hp.
    destruct (str_mem (92%N :: s) puncts) eqn:Em.
    { apply str_mem_In in Em. revert Em. unfold puncts. simpl. intuition discriminate. }
    assert (Hsp : exists r, s = 10%N :: r \/ s = 13%N :: r).
    { destruct s as [|y s]; [discriminate|]. cbn [strip_prefix] in Hp. change (92 =? 92)%N with true in Hp. cbn iota in Hp.
      destruct (N.eqb_spec 10 y) as [<- |_]; [eauto|]. destruct (N.eqb_spec 13 y) as [<- |_]; [eauto|]. discriminate. }
    destruct Hsp as [r [-> | ->]]; discriminate E.
  - constructor; [now constructor|constructor].
Qed.

(** A comment is a comment, whatever is defined. *)
Theorem C60_comment_token : forall h fuel s c, c_comment s c -> expand (run h) (S fuel) [s] = ROk [MComment c].
Proof.
  intros h fuel s c Hc. pose proof (proj2 (C60_comment s c) Hc) as E. destruct Hc as [-> _].
  assert (Ei : identifier_try_from (st "/*" ++ c ++ st "*/") = None) by reflexivity.
  assert (Em : str_mem (st "/*" ++ c ++ st "*/") puncts = false).
  { apply str_mem_not_In. intros Hi. apply (in_map (fun x => match x with 47%N :: 42%N :: _ => true | _ => false end)) in Hi.
    revert Hi. vm_compute. intuition discriminate. }
  assert (Ep : punct_try_from (st "/*" ++ c ++ st "*/") = None).
  { unfold punct_try_from. cbn [length app]. change (st "/*") with [47; 42]%N in *. cbn [app length punct_try_from_aux] in *.
    rewrite Em. reflexivity. }
  assert (El : lit_try_from (st "/*" ++ c ++ st "*/") = None) by reflexivity.
  assert (Ec : identifier_continue_try_from (st "/*" ++ c ++ st "*/") = None) by reflexivity.
  apply C11_inert_text_unchanged.
  - constructor; [|constructor]. split; [intros (id & d & E1 & _); rewrite Ei in E1; discriminate|].
    split; [rewrite Ep; discriminate|]. discriminate.
  - constructor; [now apply v_comment|constructor].
Qed.

(** In C an identifier may contain a universal character name anywhere, but
    after an ordinary character it is not understood. *)
Theorem C60_universal_name_refuted : let s := st "a" ++ 92%N :: st "u03b1" in let id := st "a" ++ [945%N] in
  c_identifier (H := demo_unicode) s id /\ expand (H := demo_unicode) (run []) 9 [s] = RErr (InvalidToken s).
Proof.
  split; [|vm_compute; reflexivity]. split.
  - exists 97%N, [945%N]. split; [easy|]. split; [left; reflexivity|]. repeat constructor.
  - exists [st "a"; 92%N :: st "u03b1"]. split; [|reflexivity].
    constructor; [constructor; discriminate|]. constructor; [|constructor].
    apply (ch_short (st "03b1") 945); [|reflexivity|left; reflexivity].
    change (Z.of_N 945) with (((0 * 16 + 3) * 16 + 11) * 16 + 1)%Z. change (st "03b1") with ((([48%N] ++ [51%N]) ++ [98%N]) ++ [49%N]).
    assert (Hd : forall c d, (48 <= c <= 57)%N -> d = (Z.of_N c - 48)%Z -> (d < 16)%Z -> digit 16 c d).
    { intros c d Hc -> Hl. split; [now left|exact Hl]. }
    change 16%Z with (Z.of_N 16). apply num_more; [apply num_more; [apply num_more; [apply num_digit|]|]|]; try (apply Hd; [lia|reflexivity|lia]).
    split; [right; left; split; [lia|reflexivity]|reflexivity].
Qed.
End Q.

(** Non-vacuity. *)
Example C60_identifier_case : let s := 92%N :: st "u03b1x1" in
  identifier_try_from (H := demo_unicode) s = Some (945%N :: st "x1") /\ names_first s (945%N :: st "x1").
Proof. split; [vm_compute; reflexivity|right; eexists; reflexivity]. Qed.
Example C60_comment_case : c_comment (st "/* a / * b **/") (st " a / * b *").
Proof.
  split; [reflexivity|]. intros (a & b & E).
  assert (Hn : forallb (fun k => negb (str_eqb (firstn 2 (skipn k (st " a / * b *"))) (st "*/"))) (seq 0 10) = true) by reflexivity.
  rewrite forallb_forall in Hn. specialize (Hn (length a)). rewrite E in Hn at 1.
  rewrite skipn_app, skipn_all, Nat.sub_diag in Hn. cbn [app skipn firstn] in Hn.
  assert (Hl : In (length a) (seq 0 10)).
  { apply in_seq. apply (f_equal (@length N)) in E. rewrite !app_length in E. change (length (st " a / * b *")) with 10%nat in E.
    change (length (st "*/")) with 2%nat in E. lia. }
  specialize (Hn Hl). discriminate Hn.
Qed.

Print Assumptions C60_identifier_partial.
Print Assumptions C60_continuation_partial.
Print Assumptions C60_comment.
Print Assumptions C60_identifier_token.
Print Assumptions C60_comment_token.
Print Assumptions C60_universal_name_refuted.
