(** Preservation of token properties by expansion, as in ExpandInv.v, where the
    pasting and stringification hypotheses are only needed when [##] / [#] can
    occur.  Used for the absence of panics. *)
From Verif Require Import Base Utf Lex LexFloat Token MacroSet StrFacts LexFacts SpecCall CallFacts ExpandFacts ExpandInv TokenFacts SpecPaste PasteFacts SpecExpand.
From Coq Require Import String List.
Local Open Scope list_scope.

Lemma hash_is t : is_punct (st "#") t = true <-> t = hash.
Proof.
  destruct t; simpl; try (split; discriminate). rewrite str_eqb_eq. unfold hash. split; [now intros ->|now intros [=]].
Qed.

Section Inv.
Context `{Unicode}.
Variable ms : macro_set.
Variable pn : Prop.
Variable P : token -> Prop.
Notation orplace := (ExpandInv.orplace P).

Hypothesis Hpaint : forall id, P (TIdent id) -> P (TNonRepl (TIdent id)).
Hypothesis Hconcat : P hashhash -> forall a b, is_comment_token a = false -> is_comment_token b = false ->
  ((forall c, ~ P (TComment c)) -> is_arg_token a = false /\ is_arg_token b = false) -> orplace a -> orplace b -> sat pn orplace (token_concat a b).
Hypothesis Hstr : P hash -> forall n arg, Forall P arg -> Forall P (stringify n arg).
Hypothesis Hcomma : P comma.
Hypothesis Hvar : forall n b, sm_get (var_macros ms) n = Some b ->
  contains_var_args (tokenize [] b) = false -> Forall P (tokenize [] b).
Hypothesis Hfn : forall n p b an, sm_get (fn_macros ms) n = Some (p, b) -> tokenize_arg_names p = ROk an ->
  forall args, args <> [] -> arity_passed (drop_comments an) args ->
  (is_variadic (drop_comments an) = false -> contains_var_args (tokenize an b) = false) ->
  Forall (fun t => if is_arg_token t then pn \/ argument_of (length (drop_comments an)) args t <> None else P t)
    (tokenize an b).

Lemma concat_loop_G it : Forall orplace it -> forall p acc,
  Forall orplace acc -> (forall l, p = Some l -> orplace l /\ P hashhash /\ is_comment_token l = false /\
     ((forall c, ~ P (TComment c)) -> is_arg_token l = false /\ peek_is is_arg_token it = false)) ->
  sat pn (Forall orplace) (concat_loop p acc it).
Proof.
  induction 1 as [|t it Ht Hit IH]; intros p acc Hacc Hp; simpl.
  - destruct p; simpl; [easy|]. now apply Forall_rev.
  - destruct p as [lhs|].
    + destruct (Hp lhs eq_refl) as (Hp1 & Hp2 & Hp3 & Hp4). destruct (is_comment_token t) eqn:Ec.
      { apply IH; [easy|]. intros l Hl. injection Hl as <-. repeat split; auto; exfalso;
        (destruct t as [u|i| |p|id|s|l s|s|c|]; try discriminate; destruct Ht as [Ht|Ht]; [|discriminate]; now destruct (H0 c)). }
      eapply sat_bind. { apply Hconcat; auto. }
      intros r _ Hr. apply IH; [now constructor|discriminate].
    + destruct (_ && _) eqn:Eh.
      * assert (Hhh : P hashhash).
        { apply andb_true_iff in Eh. destruct Eh as [Eh _]. apply andb_true_iff in Eh. destruct Eh as [Eh _].
          apply is_hashhash in Eh. subst t. destruct Ht as [Ht|Ht]; [easy|discriminate]. }
        destruct (pop_lhs acc) as [[lhs acc']|] eqn:E; [|easy].
        destruct (pop_lhs_P P _ _ _ Hacc E) as [Hl Ha].
        assert (Hlc : is_comment_token lhs = false).
        { clear -E. revert E. induction acc as [|x acc IH]; simpl; [discriminate|].
          destruct x; try (intros [= <- _]; easy). exact IH. }
        assert (Hla : (forall c, ~ P (TComment c)) -> is_arg_token lhs = false /\ peek_is is_arg_token it = false).
        { intros Hc. apply andb_true_iff in Eh. destruct Eh as [Eh1 Eh2]. apply andb_true_iff in Eh1. destruct Eh1 as [_ Eh1].
          apply negb_true_iff in Eh1, Eh2. split; [|easy]. destruct acc as [|x acc]; [discriminate|].
          assert (Hx : is_comment_token x = false).
          { inversion Hacc as [|? ? Hx _]; subst. destruct x as [u|i| |p|id|s|l s|s|c|]; try easy.
            destruct Hx as [Hx|Hx]; [|discriminate]. now destruct (Hc c). }
          assert (lhs = x) as ->; [|exact Eh1]. simpl in E. destruct x; try (injection E as <- _; easy). discriminate. }
        clear Eh. destruct (peek_is (is_punct (st "##")) it).
        -- eapply sat_bind. { apply Hconcat; auto; [intros Hc; split; [now apply Hla|easy]|now right]. }
           intros r _ Hr. apply IH; [now constructor|discriminate].
        -- apply IH; [easy|]. intros l Heq. injection Heq as <-. repeat split; auto; now apply Hla.
      * apply IH; [now constructor|discriminate].
Qed.

Section Rec.
Variable rec : list str -> list token -> res xerr (list token).
Hypothesis Hrec : forall n b, Forall P b -> sat pn (Forall P) (rec n b).

Lemma expand_arguments_loop_G names k args it : Forall (Forall P) args ->
  Forall (fun t => if is_arg_token t then pn \/ argument_of k args t <> None else P t) it ->
  forall acc, Forall orplace acc -> sat pn (Forall orplace) (expand_arguments_loop rec names k args acc it).
Proof.
  intros Hargs. induction 1 as [|t it Ht Hit IH]; intros acc Hacc; simpl; [now apply Forall_rev|].
  destruct (is_punct (st "#") t) eqn:Eh.
  - destruct (peek_is is_arg_token it); [|easy]. apply IH. constructor; [|easy].
    left. destruct t; try discriminate. exact Ht.
  - destruct (is_arg_token t) eqn:Ea.
    2:{ apply IH. constructor; [now left|easy]. }
    destruct (argument_of k args t) as [arg|] eqn:Eo.
    2:{ simpl. destruct Ht as [Ht|Ht]; [easy|congruence]. }
    pose proof (argument_of_Forall P _ _ _ _ Hcomma Hargs Eo) as Harg.
    destruct (peek_is (is_punct (st "#")) acc) eqn:Ep.
    + apply IH. apply Forall_app. split.
      * apply Forall_rev. apply (orplace_P P). apply Hstr; [|easy].
        destruct acc as [|x acc]; [discriminate|]. simpl in Ep. apply hash_is in Ep. subst x.
        inversion Hacc as [|? ? Hx _]; subst. destruct Hx as [Hx|Hx]; [easy|discriminate].
      * destruct acc; simpl; [constructor|]. now inversion Hacc.
    + destruct (_ || _); (eapply sat_bind; [apply Hrec; exact Harg|]; intros e _ He; simpl in He).
      * apply IH. destruct e; [constructor; [now right|easy]|].
        apply Forall_app. split; [|easy]. apply Forall_rev. now apply (orplace_P P).
      * apply IH. apply Forall_app. split; [|easy]. apply Forall_rev. now apply (orplace_P P).
Qed.

Lemma concat_and_rescan_G names name b :
  Forall orplace b -> sat pn (Forall P) (concat_and_rescan rec names name b).
Proof.
  intros Hb. eapply sat_bind. { apply concat_loop_G; [exact Hb|constructor|discriminate]. }
  intros b' _ Hb'. apply Hrec. now apply remove_placemarkers_P.
Qed.

Lemma expand_fn_macro_body_call_G names name an args b :
  Forall (Forall P) args -> args <> [] ->
  (arity_passed (drop_comments an) args ->
   (is_variadic (drop_comments an) = false -> contains_var_args b = false) ->
   Forall (fun t => if is_arg_token t then pn \/ argument_of (length (drop_comments an)) args t <> None else P t) b) ->
  sat pn (Forall P) (expand_fn_macro_body rec names name an (Some args) b).
Proof.
  intros Hargs Hne Hb. unfold expand_fn_macro_body. set (an' := drop_comments an) in *.
  destruct (negb (is_variadic an') && contains_var_args b) eqn:Ec; [easy|].
  destruct (if negb (is_variadic an') then _ else None) as [e|] eqn:Ee; [easy|].
  destruct (first_duplicate _); [easy|].
  eapply sat_bind.
  { apply expand_arguments_loop_G; [easy| |constructor]. apply Hb.
    2:{ intros Hv. rewrite Hv in Ec. exact Ec. }
    intros Hv. rewrite Hv in Ee. simpl in Ee.
    destruct (Nat.eqb_spec (length an') (length args)) as [Heq|Hn]; [now right|]. simpl in Ee.
    destruct an' as [|a0 an'']; [now left|discriminate]. }
  intros b' _ Hb'. now apply concat_and_rescan_G.
Qed.

Lemma scan_G names it : Forall P it -> forall acc, Forall P acc -> sat pn (Forall P) (scan ms rec names acc it).
Proof.
  induction 1 as [|t it Ht Hit IH]; intros acc Hacc; simpl; [now apply Forall_rev|].
  destruct t as [t|i| |p|id|s|l s|s|c|]; try (apply IH; now constructor).
  destruct (str_mem id names). { apply IH. constructor; auto. }
  assert (Hv : sat pn (Forall P) match sm_get (var_macros ms) id with
                 | Some body => e <- expand_var_macro_body rec names id (tokenize [] body) ;; rec names (rev acc ++ e ++ it)
                 | None => scan ms rec names (TIdent id :: acc) it
                 end).
  { destruct (sm_get (var_macros ms) id) as [body|] eqn:E; [|apply IH; now constructor].
    eapply sat_bind with (P := Forall P).
    - unfold expand_var_macro_body. destruct (contains_var_args _) eqn:Ec; [easy|].
      apply concat_and_rescan_G. apply (orplace_P P). eapply Hvar; eauto.
    - intros e _ He. apply Hrec. apply Forall_app. split; [now apply Forall_rev|]. apply Forall_app. now split. }
  destruct (peek_is _ it); [|exact Hv].
  destruct (sm_get (fn_macros ms) id) as [[ps body]|] eqn:Ef; [|exact Hv].
  destruct (collect_args it) as [[args it'']|] eqn:Ec; [|exact Hv].
  destruct (tokenize_arg_names ps) as [an|e| |] eqn:Et; simpl; try easy.
  2:{ exfalso. clear -Et. revert Et. unfold tokenize_arg_names. generalize false, (@nil token).
      induction ps as [|q ps IH]; intros v a; simpl; [discriminate|].
      destruct (from_str q); try discriminate; try apply IH.
      - destruct (str_eqb _ _); [|discriminate]. destruct v; [discriminate|apply IH].
      - destruct v; [discriminate|]. destruct (contains_ident _ _); [discriminate|apply IH]. }
  destruct (collect_args_Forall P _ _ _ Ec Hit) as [Hargs Hrest].
  assert (Hne : args <> []). { apply collect_args_iff in Ec. apply Ec. }
  eapply sat_bind.
  - apply expand_fn_macro_body_call_G; [exact Hargs|exact Hne|]. eapply Hfn; eauto.
  - intros e _ He. apply Hrec. apply Forall_app. split; [now apply Forall_rev|]. apply Forall_app. now split.
Qed.
End Rec.

Lemma expand_macro_body_G fuel : forall names b,
  Forall P b -> sat pn (Forall P) (expand_macro_body ms fuel names b).
Proof.
  induction fuel as [|f IH]; intros names b Hb; simpl; [easy|].
  apply scan_G; [exact IH|exact Hb|constructor].
Qed.

Lemma expand_var_macro_body_G fuel names name b :
  (contains_var_args b = false -> Forall P b) ->
  sat pn (Forall P) (expand_var_macro_body (expand_macro_body ms fuel) names name b).
Proof.
  intros Hb. unfold expand_var_macro_body. destruct (contains_var_args b); [easy|].
  apply concat_and_rescan_G; [apply expand_macro_body_G|]. apply (orplace_P P). auto.
Qed.

(** [expand_fn_macro]: the parameters stay in the body. *)
Lemma expand_fn_macro_body_def_G fuel names name an b :
  (is_variadic (drop_comments an) = false -> contains_var_args b = false -> Forall P b) ->
  (is_variadic (drop_comments an) = true -> Forall P b) ->
  sat pn (Forall P) (expand_fn_macro_body (expand_macro_body ms fuel) names name an None b).
Proof.
  intros Hb1 Hb2. unfold expand_fn_macro_body.
  destruct (is_variadic (drop_comments an)); simpl.
  - destruct (first_duplicate _); [easy|]. simpl. apply concat_and_rescan_G; [apply expand_macro_body_G|].
    apply (orplace_P P). auto.
  - destruct (contains_var_args b); [easy|]. destruct (first_duplicate _); [easy|]. simpl.
    apply concat_and_rescan_G; [apply expand_macro_body_G|]. apply (orplace_P P). auto.
Qed.
End Inv.

(** ** Token predicates that exclude panics *)

Definition prefixes : list str := [st "u8"; st "u"; st "U"; st "L"].

Section Q.
Context `{Unicode}.

(** [fn]: parameters may occur and comments may not; [va]: [__VA_ARGS__] may occur. *)
Definition quiet (fn va : bool) (t : token) : Prop :=
  match t with
  | TIdent id => is_identifier id = true /\ ~ In id prefixes
  | TIdCont c => c <> [] /\ forallb is_xid_continue c = true /\ c <> st "u"
  | TLit l s => s <> [] /\ ((exists b, l = LString (SOrdinary b)) \/ lit_try_from s = Some l)
  | TPlain s => s <> [] /\ (forall r, s <> 92%N :: r) /\ s <> st "u"
  | TArg _ => fn = true
  | TVarArgs => fn = true /\ va = true
  | TComment _ => fn = false
  | TPunct _ => True
  | TPlacemarker | TNonRepl _ => False
  end.

Lemma prefix_is s : is_encoding_prefix s = true <-> In s prefixes.
Proof.
  unfold is_encoding_prefix. rewrite existsb_exists. split.
  - intros (x & Hx & E). apply str_eqb_eq in E. now subst.
  - intros Hi. exists s. split; [exact Hi|apply str_eqb_refl].
Qed.

Lemma prefix_app a b : a <> [] -> b <> [] -> In (a ++ b) prefixes -> a = st "u".
Proof.
  intros Ha Hb Hi. unfold prefixes in Hi. simpl in Hi.
  destruct a as [|x a]; [easy|]. destruct b as [|y b]; [easy|].
  destruct Hi as [E|[E|[E|[E|[]]]]]; cbn in E; injection E as E1 E2; destruct a as [|z a]; cbn in E2; try discriminate;
    try (injection E2 as E3 E4; destruct a; discriminate).
  now subst.
Qed.

Lemma identifier_char_same c s : c <> 92%N -> identifier_char (c :: s) = Some (s, c).
Proof.
  intros Hc. unfold identifier_char. cbn [char1]. destruct (N.eqb_spec c 92); [easy|]. reflexivity.
Qed.

Lemma identifier_try_from_same s id : (forall r, s <> 92%N :: r) -> identifier_try_from s = Some id -> id = s.
Proof.
  intros Hs. unfold identifier_try_from. rewrite all_consuming_some. unfold identifier_parse_str.
  destruct s as [|c s]; [discriminate|]. destruct (is_identifier_start c) eqn:Ec.
  - destruct (take_while is_xid_continue s) as [a b] eqn:E. intros [= -> <-]. f_equal.
    apply take_while_app in E. subst s. now rewrite app_nil_r.
  - rewrite identifier_char_same by (intros ->; now apply (Hs s)). now rewrite Ec.
Qed.

Lemma identifier_continue_same s id : (forall r, s <> 92%N :: r) -> identifier_continue_try_from s = Some id -> id = s.
Proof.
  intros Hs. unfold identifier_continue_try_from. rewrite all_consuming_some. unfold identifier_continue_parse_str.
  destruct (take_while1 is_xid_continue s) as [[r a]|] eqn:E.
  - intros [= -> <-]. apply take_while1_some in E. destruct E as (_ & E & _). rewrite E. symmetry. apply app_nil_r.
  - destruct s as [|c s]; [discriminate|]. cbn [length id_chars].
    rewrite identifier_char_same by (intros ->; now apply (Hs s)).
    destruct (is_xid_continue c) eqn:Ec; [|discriminate].
    unfold take_while1 in E. simpl in E. rewrite Ec in E. now destruct (take_while is_xid_continue s).
Qed.

Lemma reclassify_quiet fn va s : s <> [] -> (forall r, s <> 92%N :: r) -> ~ In s prefixes -> quiet fn va (reclassify s).
Proof.
  intros H1 H2 H3. unfold reclassify.
  assert (Hu : s <> st "u"). { intros ->. apply H3. right. now left. }
  destruct (identifier_try_from s) as [id|] eqn:E1.
  { pose proof (identifier_try_from_ok _ _ E1). apply identifier_try_from_same in E1; [|easy]. subst. now split. }
  destruct (lit_try_from s) as [l|] eqn:E2; [split; [easy|now right]|].
  destruct (identifier_continue_try_from s) as [c|] eqn:E3; [|easy].
  pose proof (identifier_continue_try_from_ok _ _ E3) as [Hc1 Hc2]. apply identifier_continue_same in E3; [|easy]. now subst.
Qed.

(** Spellings of quiet tokens. *)
Lemma quiet_textual fn va t s : quiet fn va t -> textual t = Some s ->
  (forall b sp, t <> TLit (LString b) sp) -> s <> [] /\ (forall r, s <> 92%N :: r) /\ (s = st "u" -> False).
Proof.
  intros Hq Ht Hl.
  assert (Hx : forall r, is_xid_continue 92%N = false \/ r = 92%N) by now left.
  destruct t as [u|i| |p|id|c|l sp|p|c|]; try discriminate; injection Ht as ->; simpl in Hq.
  - destruct Hq as [Hi Hp]. repeat split.
    + intros ->. discriminate.
    + intros r ->. vm_compute in Hi. discriminate.
    + intros ->. apply Hp. right. now left.
  - destruct Hq as (H1 & H2 & H3). repeat split; auto. intros r ->. vm_compute in H2. discriminate.
  - destruct Hq as [_ [[b ->]|Hq]]; [now destruct (Hl (SOrdinary b) s)|]. repeat split.
    + intros ->. discriminate.
    + intros r ->. vm_compute in Hq. discriminate.
    + intros ->. discriminate.
  - destruct Hq as (H1 & H2 & H3). repeat split; auto.
Qed.

(** The same with painted identifiers and pasted punctuation. *)
Definition quiet' (fn va : bool) (t : token) : Prop :=
  match t with
  | TNonRepl (TIdent id) => quiet fn va (TIdent id)
  | TNonRepl (TPunct p) => True
  | t => quiet fn va t
  end.

Lemma quiet_paste fn va a b x y : quiet fn va a -> textual a = Some x -> textual b = Some y ->
  (forall c sp, a <> TLit (LString c) sp) -> y <> [] -> quiet fn va (reclassify (x ++ y)).
Proof.
  intros Ha Hx Hy Hla Hyn. destruct (quiet_textual _ _ _ _ Ha Hx Hla) as (X1 & X2 & X3).
  apply reclassify_quiet.
  - destruct x; easy.
  - intros r E. destruct x as [|c x]; [easy|]. simpl in E. injection E as -> _. now apply (X2 x).
  - intros Hi. apply prefix_app in Hi; auto.
Qed.

Lemma reclassify_no_nr s : no_nr (reclassify s).
Proof. unfold reclassify, no_nr. intros u. destruct (identifier_try_from s), (lit_try_from s), (identifier_continue_try_from s); discriminate. Qed.

Lemma quiet_quiet' fn va t : quiet fn va t -> quiet' fn va t.
Proof. destruct t; simpl; easy. Qed.

Lemma lit_nonempty s l : lit_try_from s = Some l -> s <> [].
Proof. intros E ->. discriminate. Qed.

Lemma quiet_ident_app fn va x y : is_identifier x = true -> ~ In x prefixes -> y <> [] -> forallb is_xid_continue y = true ->
  quiet fn va (TIdent (x ++ y)).
Proof.
  intros Hx Hp Hy Hc. split.
  - now apply identifier_app.
  - intros Hi. apply prefix_app in Hi; auto; [|intros ->; discriminate]. apply Hp. subst. right. now left.
Qed.

Lemma identifier_nonempty s : is_identifier s = true -> s <> [].
Proof. now intros E ->. Qed.

Lemma quiet_concat_stripped fn va a b :
  match a with TComment _ | TArg _ | TVarArgs | TNonRepl _ => False | TPlacemarker => True | _ => quiet fn va a end ->
  match b with TComment _ | TArg _ | TVarArgs | TNonRepl _ => False | TPlacemarker => True | _ => quiet fn va b end ->
  sat False (orplace (quiet' fn va)) (concat_stripped a b).
Proof.
  intros Ha Hb.
  assert (Hq : forall t, quiet fn va t -> orplace (quiet' fn va) t) by (intros; left; now apply quiet_quiet').
  assert (Hre : forall x y, textual a = Some x -> textual b = Some y -> (forall c sp, a <> TLit (LString c) sp) ->
    quiet fn va a -> y <> [] -> orplace (quiet' fn va) (reclassify (x ++ y))).
  { intros x y Hx Hy Hl Hqa Hyn. apply Hq. now apply (quiet_paste fn va a b). }
  assert (Hne : forall y, textual b = Some y -> y <> []).
  { intros y Hy. destruct b as [u|i| |p|id|s|l s|s|c|]; try discriminate; injection Hy as ->; simpl in Hb.
    - now apply identifier_nonempty.
    - easy.
    - easy.
    - easy. }
  assert (Hc : forall y, textual b = Some y -> (forall l sp, b = TLit l sp -> exists i, l = LInt i) ->
    (forall sp, b <> TPlain sp) -> forallb is_xid_continue y = true).
  { intros y Hy Hl Hp. destruct b as [u|i| |p|id|s|l s|s|c|]; try discriminate; injection Hy as ->; simpl in Hb.
    - now apply identifier_all_continue.
    - easy.
    - destruct (Hl l y eq_refl) as [i ->]. destruct Hb as [_ [[s E]|E]]; [discriminate|]. now apply int_continue in E.
    - now destruct (Hp y). }
  destruct a as [u|i| |p|id|s|l s|s|c|]; try contradiction; try (now apply Hq);
  destruct b as [u1|i1| |p1|id1|s1|l1 s1|s1|c1|]; try contradiction; try (now apply Hq); try exact I;
    try (simpl; apply Hre; try easy; now apply Hne).
  - simpl. destruct (punct_concat p p1); [|easy]. now left.
  - simpl. destruct (str_eqb p (st ".")); [|easy].
    destruct l1; try easy; (destruct (lit_try_from _) as [l'|] eqn:El; [|easy]); left; (split; [now apply lit_nonempty in El|now right]).
  - destruct Ha as [Ha1 Ha2]. simpl. left. apply quiet_ident_app; auto. apply Hc; [easy|discriminate|discriminate].
  - destruct Ha as [Ha1 Ha2]. simpl. left. apply quiet_ident_app; auto. apply Hc; [easy|discriminate|discriminate].
  - destruct Ha as [Ha1 Ha2].
    assert (Hpre : is_encoding_prefix id = false).
    { destruct (is_encoding_prefix id) eqn:E; [|easy]. apply prefix_is in E. contradiction. }
    simpl. rewrite Hpre. destruct l1 as [c|c|f|i]; simpl.
    + destruct c; easy.
    + destruct c; easy.
    + destruct (forallb is_xid_continue s1) eqn:Ef; [|easy].
      rewrite identifier_try_from_id by now apply identifier_app.
      left. now apply quiet_ident_app; [| |apply Hne|].
    + left. apply quiet_ident_app; auto. apply Hc; [easy| |discriminate]. intros l sp [= <- _]. eauto.
  - simpl; destruct l; try easy; try (now apply Hq); (apply Hre; try easy; now apply Hne).
  - simpl; destruct l; try easy; try (now apply Hq); (apply Hre; try easy; now apply Hne).
  - simpl; destruct l; try easy; try (now apply Hq); (apply Hre; try easy; now apply Hne).
  - simpl; destruct l; try easy; try (now apply Hq); (apply Hre; try easy; now apply Hne).
  - simpl; destruct l; try easy; try (now apply Hq); (apply Hre; try easy; now apply Hne).
  - simpl; destruct l; try easy; try (now apply Hq); (apply Hre; try easy; now apply Hne).
  - now right.
Qed.

Lemma quiet_concat fn va a b : is_comment_token a = false -> is_comment_token b = false ->
  (fn = true -> is_arg_token a = false /\ is_arg_token b = false) ->
  orplace (quiet' fn va) a -> orplace (quiet' fn va) b ->
  sat False (orplace (quiet' fn va)) (token_concat a b).
Proof.
  intros Hca Hcb Harg Ha Hb. unfold token_concat.
  assert (Hn : forall t, is_comment_token t = false -> (fn = true -> is_arg_token t = false) -> orplace (quiet' fn va) t ->
    match strip_nr t with TComment _ | TArg _ | TVarArgs | TNonRepl _ => False | TPlacemarker => True | _ => quiet fn va (strip_nr t) end).
  { intros t Hc Hf [Ht| ->]; [|easy]. destruct t as [u|i| |p|id|s|l s|s|c|]; simpl in *; try easy.
    - destruct u; simpl in *; easy.
    - specialize (Hf Ht). discriminate.
    - destruct Ht as [Ht _]. specialize (Hf Ht). discriminate. }
  apply quiet_concat_stripped; apply Hn; auto; intros; now apply Harg.
Qed.

Lemma debug_str_nonempty s : debug_str s <> [].
Proof. discriminate. Qed.

Lemma quiet_stringify fn va n arg : Forall (quiet' fn va) arg -> Forall (quiet' fn va) (stringify n arg).
Proof.
  intros Harg. unfold stringify.
  assert (Hk : forall l kept cur sp, Forall (quiet' fn va) l -> Forall (quiet' fn va) kept ->
    Forall (quiet' fn va) (fst (stringify_loop n kept cur sp l))).
  { induction l as [|t l IH]; intros kept cur sp Hl Hkept; simpl; [easy|].
    inversion Hl; subst. destruct (token_stringify n t); auto. apply IH; auto. constructor; [easy|]. now constructor. }
  specialize (Hk arg [] None false Harg (Forall_nil _)).
  destruct (stringify_loop _ _ _ _ _) as [kept cur]. simpl in Hk. apply Forall_rev in Hk.
  assert (Ht : Forall (quiet' fn va) (rev kept ++ match cur with
     | Some s => [TLit (LString (SOrdinary (utf8_encode s))) (debug_str s)] | None => [] end)).
  { apply Forall_app. split; [easy|]. destruct cur; [|constructor]. constructor; [|constructor]. split; [discriminate|left; eauto]. }
  destruct (_ ++ _); [|exact Ht]. constructor; [|constructor]. split; [discriminate|left; eauto].
Qed.

(** Without [##]. *)
Definition glueless (fn va : bool) (t : token) : Prop :=
  match t with
  | TPunct p => p <> st "##"
  | TArg _ => fn = true
  | TVarArgs => fn = true /\ va = true
  | TNonRepl (TIdent _) => True
  | TPlacemarker | TNonRepl _ => False
  | _ => True
  end.

Lemma glueless_stringify fn va n arg : Forall (glueless fn va) arg -> Forall (glueless fn va) (stringify n arg).
Proof. apply stringify_P; [easy|discriminate]. Qed.

(** Body tokens. *)
Lemma quiet_spelled fn va s : s <> [] -> (forall r, s <> 92%N :: r) -> ~ In s prefixes ->
  s <> st "__VA_ARGS__" -> (fn = true -> comment_try_from s = None) -> quiet' fn va (from_str s).
Proof.
  intros H1 H2 H3 Hv Hc. assert (Hu : s <> st "u"). { intros ->. apply H3. right. now left. }
  apply quiet_quiet'. apply from_str_cases; simpl; try easy.
  - intros id E1. pose proof (identifier_try_from_ok _ _ E1). apply identifier_try_from_same in E1; [|easy]. now subst.
  - intros l E. split; [easy|now right].
  - intros c E. pose proof (identifier_continue_try_from_ok _ _ E) as [Hc1 Hc2]. apply identifier_continue_same in E; [|easy]. now subst.
  - intros c E. destruct fn; [|easy]. specialize (Hc eq_refl). congruence.
Qed.

Lemma glueless_spelled fn va s : from_str s <> hashhash -> s <> st "__VA_ARGS__" -> glueless fn va (from_str s).
Proof.
  intros Hh Hv. revert Hh. apply (from_str_cases (fun t => t <> hashhash -> glueless fn va t)); simpl; try easy.
  intros p _ Hp E. apply Hp. now subst.
Qed.
End Q.
