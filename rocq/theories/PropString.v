(** C27, C28, C29: character and string literals. *)
From Verif Require Import Base Utf Lex LexFloat StrFacts LexFacts SpecInt IntFacts SpecString UtfFacts StringFacts.
From Coq Require Import String List.
Local Open Scope string_scope.
Local Open Scope list_scope.

(** C28: a string literal means what the specification says, for every Rust
    string (a sequence of Unicode scalar values). *)
Theorem C28_meaning : forall s x, Forall scalar s -> string_try_from s = Some x <-> string_literal s x.
Proof.
  intros s x Hs. unfold string_try_from. rewrite all_consuming_some. unfold string_parse_str. split.
  - intros E. apply oor_some in E. destruct E as [E|[_ E]].
    { destruct (string_parse_ordinary s) as [[r b]|] eqn:E1; [|discriminate]. injection E as -> <-.
      apply ordinary_iff in E1. destruct E1 as (body & els & -> & He & Ha). econstructor; [reflexivity|eauto..]. }
    apply oor_some in E. destruct E as [E|[_ E]].
    { destruct (tag "u8" s) as [s1|] eqn:Et; [|discriminate]. apply tag_some in Et. subst s. cbn [obind] in E.
      destruct (string_parse_utf8 s1) as [[r b]|] eqn:E1; [|discriminate]. injection E as -> <-.
      apply utf8_iff in E1. destruct E1 as (body & els & -> & He & Ha & Ht). eapply sl_utf8; [reflexivity|eauto..]. }
    apply oor_some in E. destruct E as [E|[_ E]].
    { destruct (tag "u" s) as [s1|] eqn:Et; [|discriminate]. apply tag_some in Et. subst s. cbn [obind] in E.
      apply Forall_app in Hs. destruct Hs as [_ Hs].
      destruct (string_parse_utf16 s1) as [[r b]|] eqn:E1; [|discriminate]. injection E as -> <-.
      apply utf16_iff in E1; [|easy]. destruct E1 as (body & els & -> & He & Ha & Ht). eapply sl_utf16; [reflexivity|eauto..]. }
    apply oor_some in E. destruct E as [E|[_ E]].
    { destruct (tag "U" s) as [s1|] eqn:Et; [|discriminate]. apply tag_some in Et. subst s. cbn [obind] in E.
      apply Forall_app in Hs. destruct Hs as [_ Hs].
      destruct (string_parse_utf32 s1) as [[r b]|] eqn:E1; [|discriminate]. injection E as -> <-.
      apply utf32_iff in E1; [|easy]. destruct E1 as (body & els & -> & He & Ha & Ht). eapply sl_utf32; [reflexivity|eauto..]. }
    destruct (tag "L" s) as [s1|] eqn:Et; [|discriminate]. apply tag_some in Et. subst s. cbn [obind] in E.
    destruct (string_parse_wide s1) as [[r b]|] eqn:E1; [|discriminate]. injection E as -> <-.
    apply wide_iff in E1. destruct E1 as (body & els & -> & He & Ha). eapply sl_wide; [reflexivity|eauto..].
  - assert (Hord : forall c t, c <> 34%N -> string_parse_ordinary (c :: t) = None).
    { intros c t Hc. unfold string_parse_ordinary, quoted. simpl. destruct (N.eqb_spec c 34); [contradiction|easy]. }
    destruct 1 as [s body l bytes Hq He Ha|s body l t Hq He Ha Ht|s body l t Hq He Ha Ht|s body l t Hq He Ha Ht|s body l ws Hq He Ha];
      unfold quoted_text in Hq; subst s.
    + rewrite (proj2 (ordinary_iff _ [] bytes)) by (exists body, l; auto). easy.
    + assert (Hs' : Forall scalar (34%N :: body ++ [34%N])) by (apply Forall_app in Hs; easy).
      change (st "u8" ++ [34%N] ++ body ++ [34%N]) with (117%N :: 56%N :: 34%N :: body ++ [34%N]). rewrite Hord by easy. cbn [obind oor].
      change (tag "u8" (117%N :: 56%N :: 34%N :: body ++ [34%N])) with (Some (34%N :: body ++ [34%N])). cbn [obind].
      rewrite (proj2 (utf8_iff _ [] t)) by (exists body, l; auto). easy.
    + assert (Hs' : Forall scalar (34%N :: body ++ [34%N])) by (apply Forall_app in Hs; easy).
      change (st "u" ++ [34%N] ++ body ++ [34%N]) with (117%N :: 34%N :: body ++ [34%N]). rewrite Hord by easy. cbn [obind oor].
      change (tag "u8" (117%N :: 34%N :: body ++ [34%N])) with (@None str). cbn [obind oor].
      change (tag "u" (117%N :: 34%N :: body ++ [34%N])) with (Some (34%N :: body ++ [34%N])). cbn [obind].
      rewrite (proj2 (utf16_iff _ [] t Hs')) by (exists body, l; auto). easy.
    + assert (Hs' : Forall scalar (34%N :: body ++ [34%N])) by (apply Forall_app in Hs; easy).
      change (st "U" ++ [34%N] ++ body ++ [34%N]) with (85%N :: 34%N :: body ++ [34%N]). rewrite Hord by easy. cbn [obind oor].
      change (tag "u8" (85%N :: 34%N :: body ++ [34%N])) with (@None str). cbn [obind oor].
      change (tag "u" (85%N :: 34%N :: body ++ [34%N])) with (@None str). cbn [obind oor].
      change (tag "U" (85%N :: 34%N :: body ++ [34%N])) with (Some (34%N :: body ++ [34%N])). cbn [obind].
      rewrite (proj2 (utf32_iff _ [] t Hs')) by (exists body, l; auto). easy.
    + change (st "L" ++ [34%N] ++ body ++ [34%N]) with (76%N :: 34%N :: body ++ [34%N]). rewrite Hord by easy. cbn [obind oor].
      change (tag "u8" (76%N :: 34%N :: body ++ [34%N])) with (@None str). cbn [obind oor].
      change (tag "u" (76%N :: 34%N :: body ++ [34%N])) with (@None str). cbn [obind oor].
      change (tag "U" (76%N :: 34%N :: body ++ [34%N])) with (@None str). cbn [obind oor].
      change (tag "L" (76%N :: 34%N :: body ++ [34%N])) with (Some (34%N :: body ++ [34%N])). cbn [obind].
      rewrite (proj2 (wide_iff _ [] ws)) by (exists body, l; auto). easy.
Qed.

(** C27: character literals. *)
Lemma prefix_parse_spec s : 
  match char_prefix_parse s with
  | Some (r, PUtf8) => s = st "u8" ++ r
  | Some (r, PUtf16) => s = st "u" ++ r /\ forall r', s <> st "u8" ++ r'
  | Some (r, PUtf32) => s = st "U" ++ r
  | Some (r, PWide) => s = st "L" ++ r
  | None => forall c r, s = c :: r -> c <> 117%N /\ c <> 85%N /\ c <> 76%N
  end.
Proof.
  unfold char_prefix_parse. destruct (tag "u8" s) as [r|] eqn:E1; [now apply tag_some in E1|].
  destruct (char1 117 s) as [r|] eqn:E2.
  { apply char1_some in E2. split; [easy|]. intros r' Er. rewrite Er in E1. discriminate. }
  destruct (char1 85 s) as [r|] eqn:E3; [now apply char1_some in E3|].
  destruct (char1 76 s) as [r|] eqn:E4; [now apply char1_some in E4|].
  intros c r -> . simpl in E2, E3, E4. destruct (N.eqb_spec c 117), (N.eqb_spec c 85), (N.eqb_spec c 76); easy.
Qed.

Lemma unescaped_spec s r c : unescaped_char s = Some (r, c) <-> s = c :: r /\ ~ In c [92; 39; 10]%N.
Proof.
  unfold unescaped_char. destruct s as [|x s]; [split; [discriminate|intros [? _]; discriminate]|].
  destruct ((x =? 92) || (x =? 39) || (x =? 10))%N eqn:E.
  - split; [discriminate|]. intros [Ex Hn]. injection Ex as -> ->. exfalso. apply Hn.
    apply orb_prop in E. destruct E as [E|E]; [apply orb_prop in E; destruct E as [E|E]|]; apply N.eqb_eq in E; subst; simpl; auto.
  - apply orb_false_iff in E. destruct E as [E E3]. apply orb_false_iff in E. destruct E as [E1 E2]. apply N.eqb_neq in E1, E2, E3.
    split; [intros [= <- <-]; split; [easy|simpl; intuition congruence]|intros [Ex _]; now injection Ex as -> ->].
Qed.

Lemma char_body_iff s v : char_parse_unprefixed s = Some ([], v) <-> exists body, s = [39%N] ++ body ++ [39%N] /\ char_body body v.
Proof.
  unfold char_parse_unprefixed. split.
  - destruct (char1 39 s) as [s1|] eqn:E1; [|discriminate]. apply char1_some in E1. subst s. cbn [obind].
    destruct (oor (escaped_char s1) (unescaped_char s1)) as [[r c]|] eqn:E2; [|discriminate]. cbn [obind fst snd].
    destruct (char1 39 r) as [s2|] eqn:E3; [|discriminate]. apply char1_some in E3. subst r. intros [= -> ->].
    apply oor_some in E2. destruct E2 as [E2|[_ E2]].
    + apply escaped_char_spec in E2. destruct E2 as (t & -> & He & _). exists (92%N :: t). split; [easy|]. now constructor.
    + apply unescaped_spec in E2. destruct E2 as [-> Hn]. exists [v]. split; [easy|]. now constructor.
  - intros (body & -> & Hb). change (char1 39 ([39%N] ++ body ++ [39%N])) with (Some (body ++ [39%N])). cbn [obind].
    destruct Hb as [c Hn|t v He].
    + assert (E1 : escaped_char ([c] ++ [39%N]) = None).
      { apply opt_none. intros [r w] E. apply escaped_char_spec in E. destruct E as (t & E & _). injection E as -> _. apply Hn. now left. }
      rewrite E1. cbn [oor]. rewrite (proj2 (unescaped_spec ([c] ++ [39%N]) [39%N] c)) by easy. reflexivity.
    + assert (E1 : escaped_char ((92%N :: t) ++ [39%N]) = Some ([39%N], v)).
      { apply escaped_char_spec. exists t. split; [easy|]. split; [easy|]. intros w d r' _ _ E [n Hd]. injection E as <- _.
        unfold digit in Hd. simpl in Hd. lia. }
      rewrite E1. reflexivity.
Qed.

Theorem C27_meaning : forall s l, char_try_from s = Some l <-> char_literal s l.
Proof.
  intros s l. unfold char_try_from. rewrite all_consuming_some. unfold char_parse_str. split.
  - pose proof (prefix_parse_spec s) as Hp.
    destruct (match char_prefix_parse s with Some (r, p) => (r, Some p) | None => (s, None) end) as [s1 p] eqn:Ep.
    destruct (char_parse_unprefixed s1) as [[r v]|] eqn:E; [|discriminate]. cbn [obind fst snd].
    destruct (char_with_prefix p v) as [c|] eqn:Ec; [|discriminate]. intros [= -> ->]. apply char_body_iff in E.
    destruct E as (body & -> & Hb).
    assert (exists prefix max mk, In (prefix, max, mk) char_kinds /\ s = st prefix ++ [39%N] ++ body ++ [39%N] /\
       match max with Some m => (v <= m)%N | None => True end /\ l = mk v) as (prefix & max & mk & Hi & Es & Hm & El); [|exists prefix, max, mk, body, v; auto].
    assert (Hk : forall m (x y : lit_char), (if (v <=? m)%N then Some x else None) = Some y -> (v <= m)%N /\ x = y).
    { intros m x y Ex. destruct (N.leb_spec v m); [|discriminate]. now injection Ex as ->. }
    destruct (char_prefix_parse s) as [[r [| | |]]|]; injection Ep as Er <-; try subst r; cbn [char_with_prefix] in Ec.
    + apply Hk in Ec. destruct Ec as [Hl <-]. exists "u8", (Some 127%N), CUtf8. split; [simpl; auto|]. auto.
    + apply Hk in Ec. destruct Ec as [Hl <-]. exists "u", (Some 65535%N), CUtf16. split; [simpl; auto|]. split; [apply Hp|auto].
    + injection Ec as <-. exists "U", None, CUtf32. split; [simpl; auto|]. auto.
    + injection Ec as <-. exists "L", None, CWide. split; [simpl; auto 10|]. auto.
    + apply Hk in Ec. destruct Ec as [Hl <-]. exists "", (Some 255%N), COrdinary. split; [simpl; auto|]. auto.
  - intros (prefix & max & mk & body & v & Hi & -> & Hb & Hm & ->).
    assert (E : char_parse_unprefixed ([39%N] ++ body ++ [39%N]) = Some ([], v)) by (apply char_body_iff; eauto).
    assert (Hk : forall m (x : lit_char), (v <= m)%N -> (if (v <=? m)%N then Some x else None) = Some x).
    { intros m x Hl. destruct (N.leb_spec v m); [easy|lia]. }
    repeat (destruct Hi as [Hi|Hi]; [injection Hi as <- <- <-|]); [..|destruct Hi].
    + change (char_prefix_parse (st "" ++ [39%N] ++ body ++ [39%N])) with (@None (str * char_prefix)). cbv beta iota.
      change (st "" ++ [39%N] ++ body ++ [39%N]) with ([39%N] ++ body ++ [39%N]). rewrite E. cbn [obind snd fst char_with_prefix]. now rewrite Hk.
    + change (char_prefix_parse (st "u8" ++ [39%N] ++ body ++ [39%N])) with (Some ([39%N] ++ body ++ [39%N], PUtf8)). cbv beta iota.
      rewrite E. cbn [obind snd fst char_with_prefix]. now rewrite Hk.
    + change (char_prefix_parse (st "u" ++ [39%N] ++ body ++ [39%N])) with (Some ([39%N] ++ body ++ [39%N], PUtf16)). cbv beta iota.
      rewrite E. cbn [obind snd fst char_with_prefix]. now rewrite Hk.
    + change (char_prefix_parse (st "U" ++ [39%N] ++ body ++ [39%N])) with (Some ([39%N] ++ body ++ [39%N], PUtf32)). cbv beta iota.
      rewrite E. reflexivity.
    + change (char_prefix_parse (st "L" ++ [39%N] ++ body ++ [39%N])) with (Some ([39%N] ++ body ++ [39%N], PWide)). cbv beta iota.
      rewrite E. reflexivity.
Qed.

(** In a macro, a token is a string or character literal exactly when the corresponding [try_from] accepts it. *)
Theorem C28_token_iff : forall s x, Forall scalar s -> lit_try_from s = Some (LString x) <-> string_try_from s = Some x.
Proof.
  intros s x Hs. split.
  - unfold lit_try_from, string_try_from. rewrite !all_consuming_some. unfold lit_parse_str. intros E.
    apply oor_some in E. destruct E as [E|[_ E]]; [destruct (char_parse_str s); discriminate|].
    apply oor_some in E. destruct E as [E|[_ E]]; [destruct (string_parse_str s) as [[r y]|]; [|discriminate]; now injection E as -> ->|].
    apply oor_some in E. destruct E as [E|[_ E]]; [destruct (float_parse_str s); discriminate|].
    destruct (int_parse_str s) as [[r j]|]; discriminate.
  - intros E. pose proof E as Hm. apply C28_meaning in Hm; [|easy]. unfold lit_try_from. rewrite all_consuming_some. unfold lit_parse_str.
    unfold string_try_from in E. rewrite all_consuming_some in E. rewrite E.
    assert (Hc : char_parse_str s = None).
    { destruct Hm as [s body l bytes Hq He Ha|s body l t Hq He Ha Ht|s body l t Hq He Ha Ht|s body l t Hq He Ha Ht|s body l ws Hq He Ha];
      unfold quoted_text in Hq; subst s; reflexivity. }
    rewrite Hc. reflexivity.
Qed.

Theorem C27_token_iff : forall s x, lit_try_from s = Some (LChar x) <-> char_try_from s = Some x.
Proof.
  intros s x. unfold lit_try_from, char_try_from. rewrite !all_consuming_some. unfold lit_parse_str. split.
  - intros E.
    apply oor_some in E. destruct E as [E|[_ E]]; [destruct (char_parse_str s) as [[r y]|]; [|discriminate]; now injection E as -> ->|].
    apply oor_some in E. destruct E as [E|[_ E]]; [destruct (string_parse_str s) as [[r y]|]; discriminate|].
    apply oor_some in E. destruct E as [E|[_ E]]; [destruct (float_parse_str s); discriminate|].
    destruct (int_parse_str s) as [[r j]|]; discriminate.
  - intros ->. reflexivity.
Qed.

(** C29: every text can be written. *)
Lemma spell_elements t : exists els, elements (spell_text t) els /\
  Forall2 (fun c e => e = Raw c \/ (e = Escaped c /\ (c < 128)%N)) t els.
Proof.
  induction t as [|c t (els & He & Hf)]; [exists []; repeat constructor|]. unfold spell_text in *. cbn [flat_map]. unfold spell_char at 1.
  assert (Hne : forall x v, In (x, v) simple_escapes -> forall s, maximal [x] s).
  { intros x v Hi s. apply maximal_other. eapply simple_not_octal; eauto. }
  destruct (N.eqb_spec c 92) as [-> |H1].
  { exists (Escaped 92 :: els). split.
    - apply (el_escape [92%N] 92 _ els); [constructor|eapply Hne|easy]; simpl; auto 20.
    - constructor; [right; easy|easy]. }
  destruct (N.eqb_spec c 34) as [-> |H2].
  { exists (Escaped 34 :: els). split.
    - apply (el_escape [34%N] 34 _ els); [constructor|eapply Hne|easy]; simpl; auto 20.
    - constructor; [right; easy|easy]. }
  destruct (N.eqb_spec c 10) as [-> |H3].
  { exists (Escaped 10 :: els). split.
    - apply (el_escape [110%N] 10 _ els); [constructor|eapply Hne|easy]; simpl; auto 20.
    - constructor; [right; easy|easy]. }
  exists (Raw c :: els). split; [|constructor; [now left|easy]]. constructor; [simpl; intuition congruence|easy].
Qed.

Lemma spell_units limit encode t : (forall c, (c < 128)%N -> encode c = [c]) -> Forall scalar t ->
  exists els, elements (spell_text t) els /\ all_units limit encode els (flat_map encode t).
Proof.
  intros Henc Ht. destruct (spell_elements t) as (els & He & Hf). exists els. split; [easy|].
  clear He. unfold all_units. induction Hf as [|c e t els Hc Hf IH]; [exists []; repeat constructor|].
  inversion Ht; subst. destruct IH as (uss & Hu & Eu); [easy|]. exists (encode c :: uss). split; [|simpl; now rewrite Eu].
  constructor; [|easy]. destruct Hc as [-> |[-> Hl]]; [easy|]. unfold code_units. rewrite (Henc c Hl).
  destruct (N.ltb_spec c limit); easy.
Qed.

Lemma spelled_scalar t q : scalar q -> Forall scalar t -> Forall scalar (flat_map (spell_char q) t).
Proof.
  intros Hq. induction 1 as [|c t Hc Ht IH]; [constructor|]. simpl. apply Forall_app. split; [|easy]. unfold spell_char.
  assert (Hsm : forall x, (x < 128)%N -> scalar x) by (intros; unfold scalar; lia).
  destruct (N.eqb_spec c 92); [|destruct (N.eqb_spec c q); [|destruct (N.eqb_spec c 10)]]; repeat (apply Forall_cons; [try (apply Hsm; reflexivity); easy|]); apply Forall_nil.
Qed.

Theorem C29_strings : forall t, Forall scalar t ->
  let lit prefix := st prefix ++ [34%N] ++ spell_text t ++ [34%N] in
  string_try_from (lit "") = Some (SOrdinary (utf8_encode t)) /\ string_try_from (lit "u8") = Some (SUtf8 t) /\
  string_try_from (lit "u") = Some (SUtf16 t) /\ string_try_from (lit "U") = Some (SUtf32 t) /\
  string_try_from (lit "L") = Some (SWide t).
Proof.
  intros t Ht lit.
  assert (Hs : forall p, In p [""; "u8"; "u"; "U"; "L"] -> Forall scalar (lit p)).
  { intros p Hp. unfold lit. apply Forall_app. split.
    - assert (Hf : Forall scalar (st p)); [|exact Hf].
      repeat (destruct Hp as [<- |Hp]; [repeat (constructor; [unfold scalar; cbn; lia|]); constructor|]). destruct Hp.
    - assert (H34 : scalar 34) by (unfold scalar; lia). constructor; [exact H34|]. apply Forall_app. split; [|repeat constructor; exact H34].
      now apply spelled_scalar. }
  assert (E8 : forall c, (c < 128)%N -> utf8_char c = [c]).
  { intros c Hc. unfold utf8_char. destruct (N.ltb_spec c 0x80); [easy|lia]. }
  assert (E16 : forall c, (c < 128)%N -> utf16_char c = [c]).
  { intros c Hc. unfold utf16_char. destruct (N.ltb_spec c 0x10000); [easy|lia]. }
  destruct (spell_units 256 utf8_char t E8 Ht) as (l8 & H8 & A8). destruct (spell_units 65536 utf16_char t E16 Ht) as (l16 & H16 & A16).
  destruct (spell_units 0 (fun c => [c]) t (fun c _ => eq_refl) Ht) as (l32 & H32 & A32). rewrite flat_map_single in A32.
  destruct (spell_elements t) as (lw & Hw & Fw).
  repeat split; (apply C28_meaning; [apply Hs; simpl; auto 10|]).
  - eapply sl_ordinary; [reflexivity|exact H8|exact A8].
  - eapply sl_utf8; [reflexivity|exact H8|exact A8|exact Ht].
  - eapply sl_utf16; [reflexivity|exact H16|exact A16|exact Ht].
  - eapply sl_utf32; [reflexivity|exact H32|exact A32|exact Ht].
  - eapply sl_wide; [reflexivity|exact Hw|]. clear -Fw. induction Fw as [|c e t l Hc Hf IH]; [easy|]. simpl. rewrite <- IH.
    destruct Hc as [-> |[-> _]]; easy.
Qed.

Theorem C29_characters : forall c, let lit prefix := st prefix ++ [39%N] ++ spell_char 39 c ++ [39%N] in
  ((c <= 255)%N -> char_try_from (lit "") = Some (COrdinary c)) /\ ((c <= 127)%N -> char_try_from (lit "u8") = Some (CUtf8 c)) /\
  ((c <= 65535)%N -> char_try_from (lit "u") = Some (CUtf16 c)) /\ char_try_from (lit "U") = Some (CUtf32 c) /\
  char_try_from (lit "L") = Some (CWide c).
Proof.
  intros c lit.
  assert (Hb : char_body (spell_char 39 c) c).
  { unfold spell_char. destruct (N.eqb_spec c 92) as [-> |]; [apply (cb_escape [92%N]); constructor; simpl; auto 20|].
    destruct (N.eqb_spec c 39) as [-> |]; [apply (cb_escape [39%N]); constructor; simpl; auto 20|].
    destruct (N.eqb_spec c 10) as [-> |]; [apply (cb_escape [110%N]); constructor; simpl; auto 20|].
    constructor. simpl. intuition congruence. }
  repeat split; intros; apply C27_meaning.
  - exists "", (Some 255%N), COrdinary, (spell_char 39 c), c. split; [simpl; auto 10|]. auto.
  - exists "u8", (Some 127%N), CUtf8, (spell_char 39 c), c. split; [simpl; auto 10|]. auto.
  - exists "u", (Some 65535%N), CUtf16, (spell_char 39 c), c. split; [simpl; auto 10|]. auto.
  - exists "U", None, CUtf32, (spell_char 39 c), c. split; [simpl; auto 10|]. auto.
  - exists "L", None, CWide, (spell_char 39 c), c. split; [simpl; auto 10|]. auto.
Qed.

(** Deviations from C. *)

(** A universal character name below 256 in an ordinary string is one byte,
    not the character's encoding; in a UTF-8 string it makes the literal
    invalid. *)
Theorem C28_universal_name_refuted :
  string_try_from (st """\u00e9""") = Some (SOrdinary [233%N]) /\ utf8_encode [233%N] = [195; 169]%N /\
  string_try_from (st "u8""\u00e9""") = None.
Proof. repeat split; reflexivity. Qed.

(** Hexadecimal escapes have exactly two digits. *)
Theorem C28_hex_escape_refuted :
  string_try_from (st """\x1""") = None /\ string_try_from (st "u""\x0041""") = Some (SUtf16 [0; 52; 49]%N) /\
  char_try_from (st "'\x7'") = None.
Proof. repeat split; reflexivity. Qed.

Example C27_example : map char_try_from (map st ["'a'"; "'\n'"; "L'\777'"; "u8'\x7f'"; "u8'\x80'"; "U'\U0001F600'"; "''"; "'ab'"]) =
  [Some (COrdinary 97); Some (COrdinary 10); Some (CWide 511); Some (CUtf8 127); None; Some (CUtf32 0x1F600); None; None].
Proof. reflexivity. Qed.

Example C28_example : map string_try_from (map st ["""a\n\1012"""; "u""\U0001F600"""; "u""\uD83D"""; "U""\uD83D"""; "L""a\\b"""; """a"]) =
  [Some (SOrdinary [97; 10; 65; 50]%N); Some (SUtf16 [0x1F600%N]); None; None; Some (SWide [97; 92; 98]%N); None].
Proof. reflexivity. Qed.

Example C29_example : Forall scalar [97; 34; 92; 10; 0x1F600]%N /\
  string_try_from (st "u" ++ [34%N] ++ spell_text [97; 34; 92; 10; 0x1F600]%N ++ [34%N]) = Some (SUtf16 [97; 34; 92; 10; 0x1F600]%N).
Proof. split; [repeat constructor; unfold scalar; lia|reflexivity]. Qed.

Print Assumptions C28_meaning.
Print Assumptions C28_token_iff.
Print Assumptions C27_meaning.
Print Assumptions C27_token_iff.
Print Assumptions C29_strings.
Print Assumptions C29_characters.
Print Assumptions C28_universal_name_refuted.
Print Assumptions C28_hex_escape_refuted.
