(** C11, C17, C18: text without macros, and the [##] operator. *)
From Verif Require Import Base Utf Lex LexFloat Token MacroSet StrFacts LexFacts ExpandInv TokenFacts SpecPaste PasteFacts
  SpecSet SetFacts.
From Coq Require Import String List.
Local Open Scope list_scope.

(** ** C11 *)

(** The value of a spelling in the result of an expansion, in terms of the
    [TryFrom<&str>] of the public syntax types, tried in this order. *)
Inductive value_of `{Unicode} (s : str) : mtoken -> Prop :=
| v_ident id : identifier_try_from s = Some id -> value_of s (MIdent id)
| v_lit l : identifier_try_from s = None -> lit_try_from s = Some l -> value_of s (MLit l)
| v_cont c : identifier_try_from s = None -> lit_try_from s = None ->
    identifier_continue_try_from s = Some c -> value_of s (MIdCont c)
| v_punct p : identifier_try_from s = None -> lit_try_from s = None -> identifier_continue_try_from s = None ->
    punct_try_from s = Some p -> value_of s (MPunct p)
| v_comment c : identifier_try_from s = None -> lit_try_from s = None -> identifier_continue_try_from s = None ->
    punct_try_from s = None -> comment_try_from s = Some c -> value_of s (MComment c).

(** [s] names a macro after the history [h] (an identifier may be spelled with
    universal character names, hence [identifier_try_from]). *)
Definition names_macro `{Unicode} (h : list call) (s : str) : Prop :=
  exists id d, identifier_try_from s = Some id /\ defined (rev h) id = Some d.

(** [s] is not affected by expansion. *)
Definition inert `{Unicode} (h : list call) (s : str) : Prop :=
  ~ names_macro h s /\ punct_try_from s <> Some (st "##") /\ s <> st "__VA_ARGS__".

Section C11.
Context `{Unicode}.

Lemma value_of_from_str s m : s <> st "__VA_ARGS__" -> (token_detokenize 0 (from_str s) = ROk (Some m) <-> value_of s m).
Proof.
  intros Hs. unfold from_str. apply str_eqb_neq in Hs. rewrite Hs. split.
  - destruct (identifier_try_from s) eqn:E1; [intros E; inversion E; now constructor|].
    destruct (lit_try_from s) eqn:E2; [intros E; inversion E; subst; now constructor|].
    destruct (identifier_continue_try_from s) eqn:E3; [intros E; inversion E; now constructor|].
    destruct (punct_try_from s) eqn:E4; [intros E; inversion E; now constructor|].
    destruct (comment_try_from s) eqn:E5; [intros E; inversion E; now constructor|discriminate].
  - destruct 1; repeat match goal with E : _ = _ |- _ => rewrite E; clear E end; easy.
Qed.

Lemma scan_inert ms rec names it : forall acc,
  Forall (fun t => forall id, t = TIdent id ->
     ~ In id names /\ sm_get (var_macros ms) id = None /\ sm_get (fn_macros ms) id = None) it ->
  scan ms rec names acc it = ROk (rev acc ++ it).
Proof.
  induction it as [|t it IH]; intros acc Hit; simpl; [now rewrite app_nil_r|].
  inversion Hit as [|? ? Ht Hit']; subst.
  assert (Hs : scan ms rec names (t :: acc) it = ROk (rev acc ++ t :: it)).
  { rewrite IH by easy. simpl. now rewrite <- app_assoc. }
  destruct t as [u|i| |p|id|s|l s|s|c|]; try exact Hs.
  destruct (Ht id eq_refl) as (Hn & Hv & Hf).
  destruct (str_mem id names) eqn:Em; [apply str_mem_In in Em; contradiction|].
  rewrite Hv, Hf. now destruct (peek_is _ it).
Qed.

Lemma concat_loop_inert it : forall acc, Forall (fun t => t <> hashhash) it ->
  concat_loop None acc it = ROk (rev acc ++ it).
Proof.
  induction it as [|t it IH]; intros acc Hit; [simpl; now rewrite app_nil_r|].
  inversion Hit as [|? ? Ht Hit']; subst. rewrite loop_push by easy. rewrite IH by easy. simpl. now rewrite <- app_assoc.
Qed.

Lemma remove_placemarkers_id l : Forall not_place l -> remove_placemarkers l = l.
Proof.
  induction 1 as [|t l Ht Hl IH]; simpl; [easy|]. destruct (is_placemarker t) eqn:E; simpl; [|now rewrite IH].
  destruct t; try discriminate. now destruct Ht.
Qed.

Lemma from_str_ident s id : from_str s = TIdent id -> identifier_try_from s = Some id.
Proof. apply (from_str_cases (fun t => t = TIdent id -> identifier_try_from s = Some id)); intros; congruence. Qed.

Lemma from_str_punct s p : from_str s = TPunct p -> punct_try_from s = Some p.
Proof. apply (from_str_cases (fun t => t = TPunct p -> punct_try_from s = Some p)); intros; congruence. Qed.

Lemma identifier_nonempty s id : identifier_try_from s = Some id -> id <> [].
Proof. intros E. apply identifier_try_from_ok in E. intros ->. discriminate. Qed.

Lemma inert_tokens h body : Forall (inert h) body -> forall fuel,
  expand_var_macro_body (expand_macro_body (run h) (S fuel)) [] [] (tokenize [] body) = ROk (map from_str body).
Proof.
  intros Hb fuel. rewrite tokenize_nil. unfold expand_var_macro_body.
  assert (Hc : contains_var_args (map from_str body) = false).
  { apply contains_var_args_In. intros Hin. apply in_map_iff in Hin. destruct Hin as (s & Es & Hs).
    rewrite Forall_forall in Hb. destruct (Hb s Hs) as (_ & _ & Hv). apply from_str_var_args in Es. contradiction. }
  rewrite Hc. unfold concat_and_rescan, expand_concat. rewrite concat_loop_inert.
  - simpl. rewrite remove_placemarkers_id.
    + apply scan_inert. apply Forall_forall. intros t Ht id ->. apply in_map_iff in Ht. destruct Ht as (s & Es & Hs).
      apply from_str_ident in Es. rewrite Forall_forall in Hb. destruct (Hb s Hs) as (Hn & _ & _).
      split; [|].
      * intros [E|[]]. apply (identifier_nonempty _ _ Es). now symmetry.
      * pose proof (run_holds h id) as Hh.
        destruct (defined (rev h) id) as [d|] eqn:Ed; [|now destruct Hh].
        exfalso. apply Hn. now exists id, d.
    + apply Forall_forall. intros t Ht. apply in_map_iff in Ht. destruct Ht as (s & <- & _). apply not_place_spell.
  - apply Forall_forall. intros t Ht. apply in_map_iff in Ht. destruct Ht as (s & <- & Hs).
    rewrite Forall_forall in Hb. destruct (Hb s Hs) as (_ & Hp & _). intros E. apply from_str_punct in E. contradiction.
Qed.

Lemma detokenize_values body out : Forall (fun s => s <> st "__VA_ARGS__") body ->
  (detokenize 0 (map from_str body) = ROk out <-> Forall2 value_of body out).
Proof.
  intros Hb. revert out. induction Hb as [|s body Hs Hb IH]; intros out; simpl.
  - split; intros E; inversion E; subst; constructor.
  - split.
    + destruct (token_detokenize 0 (from_str s)) as [[m|]|e| |] eqn:E; try discriminate; simpl.
      * destruct (detokenize 0 (map from_str body)) as [l|e| |] eqn:Ed; try discriminate. simpl. intros Eo.
        inversion Eo; subst. constructor; [now apply value_of_from_str|now apply IH].
      * apply token_detokenize_none in E. rewrite strip_nr_same in E by apply from_str_no_nr.
        now apply not_place_spell in E.
    + intros Ho. inversion Ho as [|? m ? l Hm Hl]; subst. apply value_of_from_str in Hm; [|easy]. rewrite Hm. simpl.
      apply IH in Hl. now rewrite Hl.
Qed.

(** C11: text that mentions no macro, no [##] and no [__VA_ARGS__] expands to
    the values of its spellings, one for one and in order. *)
Theorem C11_inert_text_unchanged : forall h body fuel out, Forall (inert h) body ->
  (expand (run h) (S fuel) body = ROk out <-> Forall2 value_of body out).
Proof.
  intros h body fuel out Hb. unfold expand. rewrite inert_tokens by easy. simpl.
  apply detokenize_values. revert Hb. apply Forall_impl. intros s Hs. apply Hs.
Qed.

(** When one of the spellings is no token, the first such one is reported. *)
Lemma detokenize_first_invalid body s : Forall (fun s => s <> st "__VA_ARGS__") body ->
  (detokenize 0 (map from_str body) = RErr (InvalidToken s) <->
   exists pre post outs, body = pre ++ s :: post /\ Forall2 value_of pre outs /\ (forall m, ~ value_of s m)).
Proof.
  induction 1 as [|a body Ha Hb IH]; simpl.
  - split; [discriminate|]. intros (pre & post & outs & E & _). destruct pre; discriminate.
  - split.
    + destruct (token_detokenize 0 (from_str a)) as [[m|]|e| |] eqn:E; try discriminate; simpl.
      * destruct (detokenize 0 (map from_str body)) as [l|e| |] eqn:Ed; try discriminate. simpl. intros Eo.
        inversion Eo; subst. destruct (proj1 IH eq_refl) as (pre & post & outs & -> & Hp & Hn).
        exists (a :: pre), post, (m :: outs). repeat split; auto. constructor; [now apply value_of_from_str|easy].
      * apply token_detokenize_none in E. rewrite strip_nr_same in E by apply from_str_no_nr.
        now apply not_place_spell in E.
      * intros Eo. inversion Eo; subst. exists [], body, []. simpl.
        assert (Es : s = a).
        { revert E. apply (from_str_cases (fun t => token_detokenize 0 t = RErr (InvalidToken s) -> s = a)); simpl; intros;
            try discriminate. congruence. }
        subst. repeat split; auto. intros m Hm. apply value_of_from_str in Hm; [|easy]. rewrite E in Hm. discriminate.
    + intros (pre & post & outs & E & Hp & Hn). destruct pre as [|x pre]; simpl in E; inversion E; subst.
      * clear -Ha Hn. assert (Ht : token_detokenize 0 (from_str s) = RErr (InvalidToken s)); [|now rewrite Ht].
        unfold from_str in *. apply str_eqb_neq in Ha. rewrite Ha.
        destruct (identifier_try_from s) eqn:E1; [exfalso; eapply Hn; econstructor; eauto|].
        destruct (lit_try_from s) eqn:E2; [exfalso; eapply Hn; eapply v_lit; eauto|].
        destruct (identifier_continue_try_from s) eqn:E3; [exfalso; eapply Hn; eapply v_cont; eauto|].
        destruct (punct_try_from s) eqn:E4; [exfalso; eapply Hn; eapply v_punct; eauto|].
        destruct (comment_try_from s) eqn:E5; [exfalso; eapply Hn; eapply v_comment; eauto|easy].
      * inversion Hp as [|? m ? l Hm Hl]; subst. apply value_of_from_str in Hm; [|easy]. rewrite Hm. simpl.
        rewrite (proj2 IH); [easy|]. exists pre, post, l. auto.
Qed.

Theorem C24_inert_text_invalid_exact : forall h body fuel s, Forall (inert h) body ->
  (expand (run h) (S fuel) body = RErr (InvalidToken s) <->
   exists pre post outs, body = pre ++ s :: post /\ Forall2 value_of pre outs /\ (forall m, ~ value_of s m)).
Proof.
  intros h body fuel s Hb. unfold expand. rewrite inert_tokens by easy. simpl.
  apply detokenize_first_invalid. revert Hb. apply Forall_impl. intros x Hx. apply Hx.
Qed.

(** The excluded spellings really matter: a lone [__VA_ARGS__] is an error. *)
Theorem C11_va_args_reported : forall h body fuel, In (st "__VA_ARGS__") body ->
  expand (run h) fuel body = RErr NonVariadicVarArgs.
Proof.
  intros h body fuel Hin. unfold expand, expand_var_macro_body. rewrite tokenize_nil.
  assert (Hc : contains_var_args (map from_str body) = true); [|now rewrite Hc].
  apply existsb_exists. exists TVarArgs. split; [|easy].
  apply in_map_iff. exists (st "__VA_ARGS__"). split; [now apply from_str_var_args|easy].
Qed.
End C11.

Example C11_example :
  let h := [DefineVar (st "X") [st "1"]; DefineFn (st "F") [st "a"] [st "a"]] in
  let body := [st "y"; st "+"; st "7u"; st "/* c */"; st "e1"] in
  Forall (inert h) body /\
  expand (run h) 1 body = ROk [MIdent (st "y"); MPunct (st "+"); MLit (LInt (mk_int 7 (Some BUInt)));
                               MComment (st " c "); MIdent (st "e1")].
Proof.
  split; [|reflexivity].
  repeat constructor; try discriminate; intros (id & d & E1 & E2); vm_compute in E1; inversion E1; subst; vm_compute in E2; discriminate.
Qed.

Example C24_exact_example :
  Forall (inert []) [st "x"; st "@"; st "`"] /\
  expand (run []) 1 [st "x"; st "@"; st "`"] = RErr (InvalidToken (st "@")).
Proof.
  split; [|reflexivity].
  repeat constructor; try discriminate; intros (id & d & E1 & E2); vm_compute in E2; discriminate.
Qed.

(** ** C17 *)

(** The spelling of a token; an empty argument is spelled with no characters.
    Parameters and comments cannot be operands. *)
Definition spelling (t : token) : option str :=
  match strip_nr t with
  | TIdent s | TIdCont s | TLit _ s | TPlain s | TPunct s => Some s
  | TPlacemarker => Some []
  | _ => None
  end.

(** The class of [t] is the class of the spelling [s]. *)
Definition classified `{Unicode} (s : str) (t : token) : Prop :=
  match strip_nr t with
  | TIdent id => identifier_try_from s = Some id
  | TLit l s' => s' = s /\ identifier_try_from s = None /\ lit_try_from s = Some l
  | TIdCont c => identifier_try_from s = None /\ lit_try_from s = None /\ identifier_continue_try_from s = Some c
  | TPlain s' => s' = s /\ identifier_try_from s = None /\ lit_try_from s = None /\ identifier_continue_try_from s = None
  | TPunct p => s = p /\ In p puncts
  | TPlacemarker => s = []
  | _ => False
  end.

(** Tokens as they occur during expansion: classified by their own spelling. *)
Definition token_ok `{Unicode} (t : token) : Prop := exists s, spelling t = Some s /\ classified s t.

Section C17.
Context `{Unicode}.

Lemma table_app : forallb (fun e => str_eqb (st (snd e)) (st (fst (fst e)) ++ st (snd (fst e))) &&
  str_mem (st (snd e)) puncts) punct_concat_table = true.
Proof. reflexivity. Qed.

Lemma punct_concat_app a b r : punct_concat a b = Some r -> r = a ++ b /\ In r puncts.
Proof.
  unfold punct_concat. destruct (find _ _) as [[[x y] z]|] eqn:E; [|discriminate]. intros Er. inversion Er; subst; clear Er.
  apply find_some in E. destruct E as [Hin He]. apply andb_prop in He. simpl in He. rewrite !str_eqb_eq in He.
  destruct He as [-> ->]. pose proof table_app as Ht. rewrite forallb_forall in Ht. apply Ht in Hin.
  apply andb_prop in Hin. cbn [fst snd] in Hin. rewrite str_eqb_eq, str_mem_In in Hin. exact Hin.
Qed.

Lemma reclassify_classified s : classified s (reclassify s).
Proof.
  unfold reclassify, classified. destruct (identifier_try_from s) eqn:E1; simpl; [easy|].
  destruct (lit_try_from s) eqn:E2; simpl; [easy|]. destruct (identifier_continue_try_from s) eqn:E3; simpl; easy.
Qed.

Lemma lit_not_identifier s l : lit_try_from s = Some l -> s <> [].
Proof. intros E ->. vm_compute in E. discriminate. Qed.

(** Quoted and dotted spellings are no identifiers. *)
Lemma identifier_parse_all s c l : identifier_try_from (c :: s) = Some l -> c <> 92%N -> is_identifier (c :: s) = true.
Proof.
  intros E Hc. unfold identifier_try_from in E. apply all_consuming_some in E. simpl in E.
  destruct (is_identifier_start c) eqn:Ec.
  - destruct (take_while is_xid_continue s) as [a b] eqn:Et. inversion E; subst.
    apply take_while_app in Et as Happ. rewrite app_nil_r in Happ. subst. simpl. rewrite Ec. eapply take_while_all; eauto.
  - exfalso. unfold identifier_char in E. simpl in E. destruct (N.eqb_spec c 92) as [->|Hn]; [easy|].
    simpl in E. rewrite Ec in E. discriminate.
Qed.

Lemma identifier_plain s id : identifier_try_from s = Some id -> ~ In 92%N s -> id = s.
Proof.
  intros E Hs. destruct s as [|c s]; [discriminate|].
  assert (Hi : is_identifier (c :: s) = true).
  { eapply identifier_parse_all; eauto. intros ->. apply Hs. now left. }
  apply identifier_try_from_id in Hi. congruence.
Qed.

Lemma continue_plain s c : identifier_continue_try_from s = Some c -> ~ In 92%N s -> c = s.
Proof.
  intros E Hs. unfold identifier_continue_try_from in E. apply all_consuming_some in E.
  unfold identifier_continue_parse_str in E. destruct (take_while1 is_xid_continue s) as [[r a]|] eqn:Et.
  - apply take_while1_some in Et. destruct Et as (_ & -> & _). inversion E; subst. now rewrite app_nil_r.
  - exfalso. destruct s as [|x s]; [discriminate|].
    assert (Hx : is_xid_continue x = false).
    { unfold take_while1 in Et. simpl in Et. destruct (is_xid_continue x); [|easy].
      destruct (take_while is_xid_continue s). discriminate. }
    simpl in E. unfold identifier_char in E. simpl in E. destruct (N.eqb_spec x 92) as [->|Hn].
    + apply Hs. now left.
    + simpl in E. rewrite Hx in E. discriminate.
Qed.

Lemma classified_spelling s t : classified s t -> ~ In 92%N s -> spelling t = Some s.
Proof.
  unfold classified, spelling. pose proof (strip_nr_no t) as Hno.
  destruct (strip_nr t) as [u|i| |p|id|c|l sp|sp|c|]; try easy.
  - now intros [-> _].
  - intros E Hs. now rewrite (identifier_plain _ _ E Hs).
  - intros (_ & _ & E) Hs. now rewrite (continue_plain _ _ E Hs).
  - now intros [-> _].
  - now intros [-> _].
  - now intros ->.
Qed.

Lemma string_ordinary_quote s b : lit_try_from s = Some (LString (SOrdinary b)) -> exists s', s = 34%N :: s'.
Proof.
  unfold lit_try_from. rewrite all_consuming_some. unfold lit_parse_str. intros E.
  apply oor_some in E. destruct E as [E|[_ E]]; [destruct (char_parse_str s); inversion E|].
  apply oor_some in E. destruct E as [E|[_ E]].
  2:{ apply oor_some in E. destruct E as [E|[_ E]]; [destruct (float_parse_str s)|destruct (int_parse_str s)]; inversion E. }
  unfold string_parse_str in E. destruct s as [|c s]; [discriminate|]. 
  destruct (N.eqb_spec c 34) as [->|Hc]; [eauto|]. exfalso.
  assert (E1 : string_parse_ordinary (c :: s) = None).
  { unfold string_parse_ordinary, quoted. simpl. apply N.eqb_neq in Hc. now rewrite Hc. }
  rewrite E1 in E. simpl obind in E. unfold oor at 1 in E.
  destruct (tag "u8" (c :: s)) as [s1|]; simpl obind in E;
    [destruct (string_parse_utf8 s1); [inversion E|]|]; simpl in E;
  (destruct (tag "u" (c :: s)) as [s2|]; simpl obind in E;
    [destruct (string_parse_utf16 s2); [inversion E|]|]; simpl in E;
  (destruct (tag "U" (c :: s)) as [s3|]; simpl obind in E;
    [destruct (string_parse_utf32 s3); [inversion E|]|]; simpl in E;
  (destruct (tag "L" (c :: s)) as [s4|]; simpl obind in E;
    [destruct (string_parse_wide s4); [inversion E|]|]; simpl in E; discriminate))).
Qed.

Lemma char_ordinary_quote s b : lit_try_from s = Some (LChar (COrdinary b)) -> exists s', s = 39%N :: s'.
Proof.
  unfold lit_try_from. rewrite all_consuming_some. unfold lit_parse_str. intros E.
  apply oor_some in E. destruct E as [E|[_ E]].
  2:{ apply oor_some in E. destruct E as [E|[_ E]]; [destruct (string_parse_str s); inversion E|].
      apply oor_some in E. destruct E as [E|[_ E]]; [destruct (float_parse_str s)|destruct (int_parse_str s)]; inversion E. }
  unfold char_parse_str in E. destruct (char_prefix_parse s) as [[s1 pr]|] eqn:Ep.
  - destruct (char_parse_unprefixed s1) as [[s2 c]|]; [|discriminate]. simpl in E.
    destruct pr; simpl in E; try match type of E with context [(?x <=? ?y)%N] => destruct (x <=? y)%N end; simpl in E; discriminate.
  - unfold char_parse_unprefixed in E. destruct (char1 39 s) as [s'|] eqn:Ec; [|discriminate].
    apply char1_some in Ec. eauto.
Qed.

Lemma quote_no_identifier a q s : q = 34%N \/ q = 39%N -> is_encoding_prefix a = true -> identifier_try_from (a ++ q :: s) = None.
Proof.
  intros Hq Ha. destruct (identifier_try_from (a ++ q :: s)) as [id|] eqn:E; [|easy]. exfalso.
  unfold is_encoding_prefix in Ha. apply existsb_exists in Ha. destruct Ha as (x & Hx & Ea). apply str_eqb_eq in Ea. subst x.
  assert (Hi : is_identifier (a ++ q :: s) = true).
  { destruct a as [|c a]; [destruct Hx as [Hx|[Hx|[Hx|[Hx|[]]]]]; discriminate|].
    apply (identifier_parse_all _ c _ E). intros ->. destruct Hx as [Hx|[Hx|[Hx|[Hx|[]]]]]; discriminate. }
  apply identifier_all_continue in Hi. rewrite forallb_app in Hi. apply andb_prop in Hi. destruct Hi as [_ Hi].
  simpl in Hi. destruct Hq as [-> | ->]; discriminate.
Qed.

(** C17: a successful paste gives one token, classified as the concatenation of
    the two spellings is. *)
Theorem C17_paste_classified : forall a b c sa sb,
  token_ok a -> token_ok b -> spelling a = Some sa -> spelling b = Some sb ->
  token_concat a b = ROk c -> classified (sa ++ sb) c.
Proof.
  intros a b c sa sb (s1 & Hs1 & Ha) (s2 & Hs2 & Hb) E1 E2. rewrite E1 in Hs1. rewrite E2 in Hs2.
  inversion Hs1; inversion Hs2; subst s1 s2; clear Hs1 Hs2. unfold token_concat, spelling, classified in *.
  pose proof (strip_nr_no a) as Hna. pose proof (strip_nr_no b) as Hnb.
  assert (Hpunct : forall p, In p puncts -> In p puncts) by auto.
  destruct (strip_nr a) as [u|i| |p|id|k|l sp|sp|k|] eqn:Ea; try easy;
    inversion E1; subst; clear E1;
    (destruct (strip_nr b) as [u'|i'| |p'|id'|k'|l' sp'|sp'|k'|] eqn:Eb; try easy;
     inversion E2; subst; clear E2); simpl; rewrite ?app_nil_r; intros Ec.
  all: try (inversion Ec; subst; simpl; tauto).
  all: try (inversion Ec; subst; apply reclassify_classified).
  all: try (destruct l; try discriminate; inversion Ec; subst; apply reclassify_classified).
  all: repeat match goal with
       | Hx : identifier_try_from ?s = Some ?s |- _ => apply identifier_try_from_ok in Hx
       | Hx : _ /\ _ /\ identifier_continue_try_from ?s = Some ?s |- _ => destruct Hx as (_ & _ & Hx); apply identifier_continue_try_from_ok in Hx
       end.
  - destruct (punct_concat sa sb) as [r|] eqn:Ep; [|discriminate]. inversion Ec; subst. simpl.
    apply punct_concat_app in Ep. destruct Ep as [-> Hin]. auto.
  - destruct (str_eqb_spec sa (st ".")) as [->|Hn]; [|discriminate].
    assert (Hn : identifier_try_from (st "." ++ sb) = None).
    { destruct (identifier_try_from (st "." ++ sb)) as [x|] eqn:Ex; [|easy]. exfalso.
      simpl in Ex. apply identifier_parse_all in Ex; discriminate. }
    destruct l'; try discriminate;
      (destruct (lit_try_from (st "." ++ sb)) as [lt|] eqn:Elt; [|discriminate]; inversion Ec; subst; simpl; auto).
  - inversion Ec; subst. simpl. apply identifier_try_from_id. apply identifier_app; [easy|]. now apply identifier_all_continue.
  - inversion Ec; subst. simpl. apply identifier_try_from_id. now apply identifier_app.
  - destruct Hb as (_ & Hn & Hl). destruct l' as [ch|ls|f|i].
    + destruct ch; try discriminate. destruct (is_encoding_prefix sa) eqn:Ep; [|discriminate].
      destruct (char_ordinary_quote _ _ Hl) as (s' & ->).
      destruct (lit_try_from (sa ++ 39%N :: s')) as [lt|] eqn:Elt; [|discriminate]. inversion Ec; subst. simpl.
      repeat split; auto. apply quote_no_identifier; auto.
    + destruct ls; try discriminate. destruct (is_encoding_prefix sa) eqn:Ep; [|discriminate].
      destruct (string_ordinary_quote _ _ Hl) as (s' & ->).
      destruct (lit_try_from (sa ++ 34%N :: s')) as [lt|] eqn:Elt; [|discriminate]. inversion Ec; subst. simpl.
      repeat split; auto. apply quote_no_identifier; auto.
    + destruct (forallb is_xid_continue sb) eqn:Ef; [|discriminate].
      destruct (identifier_try_from (sa ++ sb)) as [x|] eqn:Ex; [|discriminate]. inversion Ec; subst. simpl. easy.
    + inversion Ec; subst. simpl. apply identifier_try_from_id. apply identifier_app; [easy|]. eapply int_continue; eauto.
  - assert (Ec' : ROk (TLit l sa) = @ROk xerr token c) by now destruct l.
    inversion Ec'; subst. exact Ha.
Qed.

(** ... and is spelled as that concatenation (universal character names, which
    need a backslash, are decoded). *)
Theorem C17_paste_spelling : forall a b c sa sb,
  token_ok a -> token_ok b -> spelling a = Some sa -> spelling b = Some sb ->
  ~ In 92%N sa -> ~ In 92%N sb -> token_concat a b = ROk c -> spelling c = Some (sa ++ sb).
Proof.
  intros a b c sa sb Ha Hb Ea Eb Hna Hnb Ec. apply classified_spelling; [now apply (C17_paste_classified a b)|].
  rewrite in_app_iff. tauto.
Qed.

(** Pasting with an empty argument yields the other operand (a name excluded
    from replacement becomes replaceable again). *)
Theorem C17_paste_empty : forall a,
  token_concat TPlacemarker a = ROk (strip_nr a) /\ token_concat a TPlacemarker = ROk (strip_nr a).
Proof. intros a. unfold token_concat. simpl. split; [easy|]. destruct (strip_nr a) as [| | | | | |[]| | |]; easy. Qed.

(** Two operators are pasted exactly if the result is an operator. *)
Lemma puncts_paste : forallb (fun p => forallb (fun q =>
  Bool.eqb (str_mem (p ++ q) puncts) (match punct_concat p q with Some _ => true | None => false end)) puncts) puncts = true.
Proof. vm_compute. reflexivity. Qed.

Theorem C17_paste_punctuators : forall p q, In p puncts -> In q puncts ->
  token_concat (TPunct p) (TPunct q) =
  if str_mem (p ++ q) puncts then ROk (TNonRepl (TPunct (p ++ q))) else RErr InvalidConcat.
Proof.
  intros p q Hp Hq. pose proof puncts_paste as Ht. rewrite forallb_forall in Ht. specialize (Ht p Hp).
  rewrite forallb_forall in Ht. specialize (Ht q Hq). apply eqb_prop in Ht. rewrite Ht.
  unfold token_concat. simpl. destruct (punct_concat p q) as [r|] eqn:E; [|easy].
  apply punct_concat_app in E. now destruct E as [-> _].
Qed.

(** The only error. *)
Theorem C17_paste_error : forall a b e, token_concat a b = RErr e -> e = InvalidConcat.
Proof.
  intros a b e. unfold token_concat, concat_stripped. generalize (strip_nr a) (strip_nr b). intros x y E.
  destruct x, y; simpl in E;
    repeat match type of E with context [match ?x with _ => _ end] => destruct x end; congruence.
Qed.

(** Identifiers, identifier parts, integers and plain text always paste to
    what the concatenation spells. *)
Theorem C17_paste_words : forall a b sa sb,
  match a with TIdent _ | TIdCont _ | TPlain _ | TLit (LInt _) _ => True | _ => False end ->
  match b with TIdent _ | TIdCont _ | TLit (LInt _) _ => True | _ => False end ->
  token_ok a -> token_ok b -> spelling a = Some sa -> spelling b = Some sb ->
  exists c, token_concat a b = ROk c /\ classified (sa ++ sb) c.
Proof.
  intros a b sa sb Ka Kb Ha Hb Ea Eb.
  assert (Hc : exists c, token_concat a b = ROk c).
  { unfold token_concat. destruct a as [u|i| |p|id|k|[| | |] sp|sp|k|], b as [u'|i'| |p'|id'|k'|[| | |] sp'|sp'|k'|];
      try easy; simpl; eauto. }
  destruct Hc as [c Hc]. exists c. split; [easy|]. now apply (C17_paste_classified a b).
Qed.
End C17.

Example C17_example_ok : token_ok (TIdent (st "ab")) /\ token_ok (TLit (LInt (mk_int 12 None)) (st "12")) /\
  token_concat (TIdent (st "ab")) (TLit (LInt (mk_int 12 None)) (st "12")) = ROk (TIdent (st "ab12")).
Proof. repeat split; [exists (st "ab")|exists (st "12")]; repeat split. Qed.
Example C17_example_prefix : exists c,
  token_concat (TIdent (st "u8")) (TLit (LString (SOrdinary [97%N])) [34; 97; 34]%N) = ROk c /\
  classified (st "u8" ++ [34; 97; 34]%N) c.
Proof. eexists. split; [reflexivity|]. repeat split. Qed.
Example C17_example_error : token_concat (TPunct (st "+")) (TPunct (st "-")) = RErr InvalidConcat.
Proof. reflexivity. Qed.

(** The converse does not hold: [1] [.] spells a floating point literal, but
    pasting them is reported as an error. *)
Theorem C17_paste_complete_refuted : exists a b sa sb l,
  token_ok a /\ token_ok b /\ spelling a = Some sa /\ spelling b = Some sb /\
  lit_try_from (sa ++ sb) = Some l /\ token_concat a b = RErr InvalidConcat.
Proof.
  exists (TLit (LInt (mk_int 1 None)) (st "1")), (TPunct (st ".")), (st "1"), (st ".").
  eexists. split; [|split; [|split; [|split; [|split]]]]; try reflexivity.
  - exists (st "1"). repeat split.
  - exists (st "."). repeat split. simpl. tauto.
Qed.

(** ** C18 *)
Section C18.
Context `{Unicode}.

Lemma from_str_ordinary s : s <> st "__VA_ARGS__" -> ordinary_or_comment (from_str s).
Proof.
  intros Hs. unfold ordinary_or_comment. rewrite strip_nr_same by apply from_str_no_nr. split; [|easy].
  now apply not_arg_spell.
Qed.

Lemma body_ordinary body : ~ In (st "__VA_ARGS__") body -> Forall ordinary_or_comment (map from_str body).
Proof.
  intros Hb. apply Forall_forall. intros t Ht. apply in_map_iff in Ht. destruct Ht as (s & <- & Hs).
  apply from_str_ordinary. congruence.
Qed.

(** C18: the operator step of a replacement list (without parameters left)
    computes exactly the pasting of SpecPaste.v. *)
Theorem C18_pasting : forall l r, Forall ordinary_or_comment l ->
  (expand_concat l = r <-> pasted token_concat l r).
Proof. exact expand_concat_iff. Qed.

(** ... and always gives a result or an error, never both. *)
Theorem C18_pasting_total : forall l, Forall ordinary_or_comment l ->
  exists r, pasted token_concat l r /\ r <> RFuel /\ forall r', pasted token_concat l r' -> r' = r.
Proof.
  intros l Hl. destruct (pasted_total (S (length l)) l) as (r & Hr & Hne); auto. exists r. repeat split; auto.
  intros r' Hr'. apply expand_concat_iff in Hr; auto. apply expand_concat_iff in Hr'; auto. congruence.
Qed.

Lemma body_no_var_args body : ~ In (st "__VA_ARGS__") body -> contains_var_args (map from_str body) = false.
Proof.
  intros Hb. apply contains_var_args_In. intros Hin. apply in_map_iff in Hin. destruct Hin as (s & Es & Hs).
  apply from_str_var_args in Es. congruence.
Qed.

Definition is_operator (s : str) : Prop := from_str s = hashhash.
Definition is_a_comment (s : str) : Prop := comment (from_str s).

Lemma map_comments cs : Forall is_a_comment cs -> Forall comment (map from_str cs).
Proof. induction 1; constructor; auto. Qed.

(** A text starting with [##] is reported as [ConcatBegin], whatever follows. *)
Theorem C18_concat_begin : forall ms fuel cs op rest,
  Forall is_a_comment cs -> is_operator op -> ~ In (st "__VA_ARGS__") (cs ++ op :: rest) ->
  expand ms fuel (cs ++ op :: rest) = RErr ConcatBegin /\
  (forall n, sm_get (var_macros ms) n = Some (cs ++ op :: rest) -> expand_var_macro ms fuel n = RErr ConcatBegin).
Proof.
  intros ms fuel cs op rest Hcs Hop Hb.
  assert (He : forall n, expand_var_macro_body (expand_macro_body ms fuel) [] n (tokenize [] (cs ++ op :: rest)) = RErr ConcatBegin).
  { intros n. unfold expand_var_macro_body. rewrite tokenize_nil, body_no_var_args by easy.
    unfold concat_and_rescan.
    assert (Ep : expand_concat (map from_str (cs ++ op :: rest)) = RErr ConcatBegin); [|now rewrite Ep].
    apply expand_concat_iff; [now apply body_ordinary|]. rewrite map_app. simpl. rewrite Hop. constructor.
    now apply map_comments. }
  split; [unfold expand; now rewrite He|]. intros n Hn. unfold expand_var_macro. rewrite Hn, He. easy.
Qed.


(** *** [##] at the end *)
Lemma concat_hash_fails a out : strip_nr a <> TPlacemarker -> token_concat a hashhash <> ROk out.
Proof.
  unfold token_concat, hashhash. intros Ha. pose proof (strip_nr_no a) as Hno. cbn [strip_nr].
  destruct (strip_nr a) as [u|i| |p|id|k|l sp|sp|k|]; simpl; try discriminate; try easy.
  - destruct (punct_concat p (st "##")) as [r|] eqn:E; [|discriminate]. exfalso.
    unfold punct_concat in E. destruct (find _ _) as [e|] eqn:Ef; [|discriminate]. apply find_some in Ef.
    destruct Ef as [Hin He]. apply andb_prop in He. destruct He as [_ He]. apply str_eqb_eq in He.
    assert (Ht : forallb (fun e => negb (str_eqb (st "##") (st (snd (fst e))))) punct_concat_table = true) by reflexivity.
    rewrite forallb_forall in Ht. apply Ht in Hin. rewrite <- He, str_eqb_refl in Hin. discriminate.
  - now destruct l.
Qed.

Lemma concat_not_place a b r : strip_nr a <> TPlacemarker -> token_concat a b = ROk r -> strip_nr r <> TPlacemarker.
Proof.
  unfold token_concat. intros Ha E. destruct (is_placemarker (strip_nr b)) eqn:Eb.
  - destruct (strip_nr b) eqn:Eb'; try discriminate. destruct (C17_paste_empty a) as [_ E2].
    unfold token_concat in E2. simpl in E2. rewrite E2 in E. inversion E; subst. now rewrite strip_nr_idem.
  - apply (concat_stripped_cases (fun t => strip_nr t <> TPlacemarker) (strip_nr a) (strip_nr b) r); auto;
      rewrite ?strip_nr_idem; auto; intros; simpl; try discriminate.
    + intros Hb. rewrite Hb in Eb. discriminate.
Qed.

Definition solid (t : token) : Prop := strip_nr t <> TPlacemarker /\ is_arg_token (strip_nr t) = false.

Lemma solid_top t : solid t -> is_arg_token t = false.
Proof. intros [_ Ht]. now destruct t. Qed.

Lemma ends_fails cs : Forall comment cs -> forall pre p acc out, Forall solid pre -> Forall solid acc ->
  (forall t, p = Some t -> solid t /\ ~ comment t /\ ~ comment (strip_nr t)) ->
  Forall ordinary_or_comment pre -> Forall ordinary_or_comment acc ->
  concat_loop p acc (pre ++ hashhash :: cs) <> ROk out.
Proof.
  intros Hcs. induction pre as [|t pre IH]; intros p acc out Hpre Hacc Hp Ho Hoa; cbn [app concat_loop].
  - destruct p as [lhs|].
    + destruct (Hp lhs eq_refl) as ([Hl _] & _). simpl. intros E.
      destruct (token_concat lhs hashhash) as [r|e| |] eqn:Ec; try discriminate. now apply concat_hash_fails in Ec.
    + assert (Hpk : peek_is is_arg_token acc = false). { destruct Hacc as [|u l Hu Hl]; [easy|]. now apply solid_top. }
      rewrite Hpk. rewrite (peek_arg cs) by now apply comments_plain. simpl.
      destruct (pop_lhs acc) as [[lhs acc']|]; [|discriminate].
      assert (Hno : peek_is (is_punct (st "##")) cs = false).
      { destruct Hcs as [|d ds Hd Hds]; simpl; [easy|]. now apply is_hashhash_false, comment_not_hash. }
      rewrite Hno. rewrite <- (app_nil_r cs), pending_comments by easy. discriminate.
  - inversion Hpre as [|? ? Ht Hpre']; subst. inversion Ho as [|? ? Hto Ho']; subst.
    destruct p as [lhs|].
    + destruct (Hp lhs eq_refl) as (Hl & Hl2 & Hl3). destruct (is_comment_token t) eqn:Ec; [now apply IH|].
      destruct (token_concat lhs t) as [r|e| |] eqn:Er; try discriminate. simpl.
      assert (Hor : ordinary r).
      { eapply concat_ordinary; eauto; [split; [apply Hl|easy]|]. apply ooc_ordinary; [easy|].
        rewrite <- comment_spec. congruence. }
      apply IH; auto; try discriminate.
      * constructor; [|easy]. split; [eapply concat_not_place; eauto; apply Hl|apply Hor].
      * constructor; [|easy]. destruct Hor as [? Hor]. split; [easy|]. intros Hx. contradiction.
    + assert (Hpush : concat_loop None (t :: acc) (pre ++ hashhash :: cs) <> ROk out).
      { apply IH; auto; try discriminate; now constructor. }
      destruct (_ && _); [|exact Hpush].
      destruct (pop_lhs acc) as [[lhs acc']|] eqn:Epop; [|discriminate].
      assert (Hx : solid lhs /\ Forall solid acc' /\ ordinary lhs /\ Forall ordinary_or_comment acc').
      { clear -Epop Hacc Hoa. induction acc as [|a acc IH]; [discriminate|].
        inversion Hacc; subst. inversion Hoa as [|? ? Hoa1 Hoa2]; subst.
        destruct (comment_dec a) as [[s ->]|Hc]; [now apply IH|]. rewrite pop_lhs_token in Epop by easy.
        inversion Epop; subst. pose proof (ooc_ordinary _ Hoa1 Hc). auto. }
      destruct Hx as (Hx1 & Hx2 & Hx3 & Hx4).
      destruct (peek_is _ _).
      * destruct (token_concat lhs TPlacemarker) as [r|e| |] eqn:Er; try discriminate. simpl.
        assert (Hor : ordinary r).
        { eapply concat_ordinary; eauto. split; [easy|]. intros [s E]. discriminate. }
        apply IH; auto; try discriminate.
        -- constructor; [|easy]. split; [eapply concat_not_place; eauto; apply Hx1|apply Hor].
        -- constructor; [|easy]. destruct Hor as [? Hor]. split; [easy|]. intros Hx. contradiction.
      * apply IH; auto. intros u Eu. inversion Eu; subst. repeat split; auto; try apply Hx1; try apply Hx3.
        now apply ordinary_top.
Qed.

(** A text ending with [##] never expands: [ConcatEnd], unless an error further
    left (or the panic of C16) comes first. *)
Theorem C18_concat_end : forall ms fuel pre op cs out,
  Forall is_a_comment cs -> is_operator op -> ~ In (st "__VA_ARGS__") (pre ++ op :: cs) ->
  expand ms fuel (pre ++ op :: cs) <> ROk out /\
  (forall n, sm_get (var_macros ms) n = Some (pre ++ op :: cs) -> expand_var_macro ms fuel n <> ROk out).
Proof.
  intros ms fuel pre op cs out Hcs Hop Hb.
  assert (He : forall n o, expand_var_macro_body (expand_macro_body ms fuel) [] n (tokenize [] (pre ++ op :: cs)) <> ROk o).
  { intros n o. unfold expand_var_macro_body. rewrite tokenize_nil, body_no_var_args by easy.
    unfold concat_and_rescan, expand_concat. pose proof (body_ordinary _ Hb) as Hord.
    rewrite map_app in *. cbn [map] in *. rewrite Hop in *. apply Forall_app in Hord. destruct Hord as [Hord _].
    destruct (concat_loop None [] _) as [l|e| |] eqn:El; try discriminate. exfalso. revert El.
    apply ends_fails; auto; try discriminate; [now apply map_comments|].
    apply Forall_forall. intros t Ht. pose proof Ht as Ht'. apply in_map_iff in Ht. destruct Ht as (s & <- & Hs).
    rewrite Forall_forall in Hord. destruct (Hord _ Ht') as [Ha _].
    split; [|easy]. rewrite strip_nr_same by apply from_str_no_nr. apply not_place_spell. }
  split.
  - unfold expand. intros E. destruct (expand_var_macro_body _ _ _ _) as [o|e| |] eqn:Eo; try discriminate. now apply He in Eo.
  - intros n Hn. unfold expand_var_macro. rewrite Hn. intros E.
    destruct (expand_var_macro_body _ _ _ _) as [o|e| |] eqn:Eo; try discriminate. now apply He in Eo.
Qed.

(** *** No operator survives *)
Lemma paste_not_hash a b r : token_concat a b = ROk r -> strip_nr a <> TPlacemarker -> strip_nr b <> TPlacemarker ->
  r <> hashhash.
Proof.
  unfold token_concat, concat_stripped, reclassify. pose proof (strip_nr_no a) as Hna. pose proof (strip_nr_no b) as Hnb.
  intros E Ha Hb ->.
  destruct (strip_nr a) as [u|i| |p|id|k|l sp|sp|k|]; try easy; try (exfalso; now apply (Hna u));
  (destruct (strip_nr b) as [u'|i'| |p'|id'|k'|l' sp'|sp'|k'|]; try easy; try (exfalso; now apply (Hnb u'))); simpl in E;
    repeat match type of E with context [match ?x with _ => _ end] => destruct x end; discriminate.
Qed.

Lemma chain_no_hash t l r : chain token_concat t l r -> forall v rest, r = ROk (v, rest) ->
  (t <> hashhash \/ continues l) -> strip_nr t <> TPlacemarker -> Forall (fun u => strip_nr u <> TPlacemarker) l ->
  v <> hashhash /\ Forall (fun u => strip_nr u <> TPlacemarker) rest.
Proof.
  induction 1 as [t l Hn|t cs l u l' v0 r Hcs Hop Hp Hch IH|t cs l u l' e Hcs Hop Hp|t cs l u l' Hcs Hop Hp|t cs cs' Hcs Hcs'];
    intros v rest Er Ht Hpt Hl; try discriminate.
  - inversion Er; subst. split; [|easy]. destruct Ht as [Ht|Ht]; [easy|contradiction].
  - apply Forall_app in Hl. destruct Hl as [_ Hl]. inversion Hl as [|? ? _ Hl']; subst.
    pose proof (concat_not_place _ _ _ Hpt Hp) as Hv.
    destruct Hop as [ds q l2 Hds Hq Hqh|l2].
    + apply Forall_app in Hl'. destruct Hl' as [_ Hl']. inversion Hl' as [|? ? Hq' Hl2]; subst.
      apply (IH v rest); auto. left. eapply paste_not_hash; eauto.
    + apply (IH v rest); auto. right. exists [], l2. split; [constructor|easy].
Qed.

Lemma pasted_no_hash l r : pasted token_concat l r -> forall out, r = ROk out ->
  Forall (fun u => strip_nr u <> TPlacemarker) l -> ~ In hashhash out.
Proof.
  induction 1 as [|c l r Hc Hp IH|cs l Hcs|t l v rest r Ht Hth Hch Hp IH|t l e Ht Hth Hch|t l Ht Hth Hch];
    intros out Eo Hl; try discriminate.
  - inversion Eo; subst. auto.
  - destruct r as [o|e| |]; try discriminate. inversion Eo; subst. inversion Hl; subst. intros [E|Hin].
    + subst. now apply hash_not_comment.
    + eapply IH; eauto.
  - destruct r as [o|e| |]; try discriminate. inversion Eo; subst. inversion Hl; subst.
    destruct (chain_no_hash _ _ _ Hch v rest eq_refl) as [Hv Hrest]; auto.
    intros [E|Hin]; [contradiction|]. eapply IH; eauto.
Qed.

(** After pasting, no [##] operator is left (without empty arguments). *)
Theorem C18_no_operator_left : forall l out, Forall ordinary_or_comment l ->
  Forall (fun u => strip_nr u <> TPlacemarker) l -> expand_concat l = ROk out -> ~ In hashhash out.
Proof.
  intros l out Hl Hp He. apply expand_concat_iff in He; auto. eapply pasted_no_hash; eauto.
Qed.

(** Text without macros: pasting is all that happens. *)
Theorem C18_plain_text : forall fuel body r, ~ In (st "__VA_ARGS__") body ->
  (expand ms_new (S fuel) body = r <->
   exists p, pasted token_concat (map from_str body) p /\
     r = (o <- p ;; detokenize 0 (filter (fun t => negb (is_placemarker t)) o))).
Proof.
  intros fuel body r Hb. unfold expand, expand_var_macro_body. rewrite tokenize_nil, body_no_var_args by easy.
  unfold concat_and_rescan.
  assert (Hrec : forall l, Forall (thru idents_ok) l -> expand_macro_body ms_new (S fuel) (set_insert [] []) l = ROk l).
  { intros l Hl. simpl. rewrite scan_inert; [easy|]. apply Forall_forall. intros t Ht id ->.
    rewrite Forall_forall in Hl. specialize (Hl _ Ht). unfold thru in Hl. simpl in Hl.
    repeat split; auto. intros [<-|[]]. discriminate. }
  pose proof (body_ordinary _ Hb) as Hord.
  assert (Hok : forall o, expand_concat (map from_str body) = ROk o -> Forall (thru idents_ok) (remove_placemarkers o)).
  { intros o Eo.
    pose proof (concat_loop_P True (thru idents_ok)
      (fun a b => paste_closed_concat idents_ok a b (ec_paste _ idents_ok_closed)) (map from_str body)) as Hc.
    assert (Hin : Forall (orplace (thru idents_ok)) (map from_str body)).
    { apply Forall_forall. intros t Ht. apply in_map_iff in Ht. destruct Ht as (s & <- & _). left.
      unfold thru. rewrite strip_nr_same by apply from_str_no_nr. apply idents_ok_spell. }
    specialize (Hc Hin None [] (Forall_nil _)). unfold expand_concat in Eo. rewrite Eo in Hc. simpl in Hc.
    apply remove_placemarkers_P with (P := thru idents_ok). apply Hc. discriminate. }
  destruct (expand_concat (map from_str body)) as [o|e| |] eqn:Eo.
  all: apply expand_concat_iff in Eo as Hp; [|easy].
  - cbn [rbind]. rewrite Hrec by now apply Hok. cbn [rbind]. split.
    + intros <-. exists (ROk o). split; [easy|]. reflexivity.
    + intros (p & Hp' & ->). apply expand_concat_iff in Hp'; [|easy]. apply expand_concat_iff in Hp; [|easy].
      rewrite Hp in Hp'. subst. reflexivity.
  - cbn [rbind]. split.
    + intros <-. eexists. split; [exact Hp|reflexivity].
    + intros (p & Hp' & ->). apply expand_concat_iff in Hp'; [|easy]. apply expand_concat_iff in Hp; [|easy].
      rewrite Hp in Hp'. now subst.
  - cbn [rbind]. split.
    + intros <-. eexists. split; [exact Hp|reflexivity].
    + intros (p & Hp' & ->). apply expand_concat_iff in Hp'; [|easy]. apply expand_concat_iff in Hp; [|easy].
      rewrite Hp in Hp'. now subst.
  - exfalso. destruct (pasted_total (S (length (map from_str body))) (map from_str body)) as (r0 & Hr0 & Hne); auto.
    apply expand_concat_iff in Hr0; [|easy]. congruence.
Qed.
End C18.

Example C18_begin_example : is_operator (st "##") /\ is_a_comment (st "/* c */") /\
  expand ms_new 1 [st "/* c */"; st "##"; st "a"] = RErr ConcatBegin.
Proof. repeat split. now exists (st " c "). Qed.
Example C18_end_example : expand ms_new 1 [st "a"; st "##"; st "/* c */"] = RErr ConcatEnd.
Proof. reflexivity. Qed.
Example C18_run_example :
  expand ms_new 1 [st "a"; st "##"; st "b"; st "##"; st "1"; st "+"; st "<"; st "##"; st "##"; st "<"] =
  ROk [MIdent (st "ab1"); MPunct (st "+"); MPunct (st "<<")].
Proof. reflexivity. Qed.
(** The excluded case: an empty argument and a comment between two [##]
    leave a [##]. *)
Theorem C18_empty_argument_refuted : exists ms body out,
  expand ms 10 body = ROk out /\ In (MPunct (st "##")) out /\ ~ In (st "##") body.
Proof.
  exists (fst (define_fn_macro ms_new (st "f") [st "x"] [st "x"; st "##"; st "/* c */"; st "##"; st "b"])).
  exists [st "f"; st "("; st ")"]. eexists. split; [vm_compute; reflexivity|].
  split; [now left|]. vm_compute. intuition discriminate.
Qed.

Print Assumptions C11_inert_text_unchanged.
Print Assumptions C24_inert_text_invalid_exact.
Print Assumptions C11_va_args_reported.
Print Assumptions C17_paste_classified.
Print Assumptions C17_paste_spelling.
Print Assumptions C17_paste_empty.
Print Assumptions C17_paste_punctuators.
Print Assumptions C17_paste_error.
Print Assumptions C17_paste_words.
Print Assumptions C17_paste_complete_refuted.
Print Assumptions C18_pasting.
Print Assumptions C18_pasting_total.
Print Assumptions C18_concat_begin.
Print Assumptions C18_concat_end.
Print Assumptions C18_no_operator_left.
Print Assumptions C18_plain_text.
Print Assumptions C18_empty_argument_refuted.
