(** Lemmas about macro sets that agree on the names that occur. *)
From Verif Require Import Base Utf Lex LexFloat Token MacroSet SpecCall SpecTokens SpecLexical SpecRename SpecMention
  StrFacts LexFacts CallFacts ExpandFacts ExpandInv TokenFacts PropLexical RenameFacts PropPaste.
From Coq Require Import String List Lia.
Import ListNotations.
Local Open Scope list_scope.

(** The same result, whose tokens satisfy [Q]. *)
Definition both {A} (Q : A -> Prop) (r1 r2 : res xerr A) : Prop := r1 = r2 /\ sat True Q r1.

Lemma both_bind {A B} (P : A -> Prop) (Q : B -> Prop) (r1 r2 : res xerr A) (k1 k2 : A -> res xerr B) :
  both P r1 r2 -> (forall a, P a -> both Q (k1 a) (k2 a)) -> both Q (rbind r1 k1) (rbind r2 k2).
Proof. intros [-> Hs] Hk. destruct r2; cbn in *; try (split; [reflexivity|exact I]). now apply Hk. Qed.
Lemma both_err {A} (Q : A -> Prop) e : both Q (RErr e) (RErr e).
Proof. now split. Qed.
Lemma both_ok {A} (Q : A -> Prop) a : Q a -> both Q (ROk a) (ROk a).
Proof. now split. Qed.
Lemma both_panic {A} (Q : A -> Prop) : both Q (RPanic) (RPanic).
Proof. now split. Qed.
Lemma both_self {A} (Q : A -> Prop) r : sat True Q r -> both Q r r.
Proof. now split. Qed.

Section F.
Context `{Unicode}.
Variables m1 m2 : macro_set.
Variable P : token -> Prop.
Notation orp := (orplace P).
Hypothesis Hpaint : forall id, P (TIdent id) -> P (TNonRepl (TIdent id)).
Hypothesis Hstr : forall n arg, Forall P arg -> Forall P (stringify n arg).
Hypothesis Hcomma : P comma.
Hypothesis Hconcat : forall l, Forall orp l -> sat True (Forall orp) (expand_concat l).
Hypothesis Hagree : forall n, P (TIdent n) ->
  sm_get (var_macros m2) n = sm_get (var_macros m1) n /\ sm_get (fn_macros m2) n = sm_get (fn_macros m1) n.
Hypothesis Hvar : forall n b, P (TIdent n) -> sm_get (var_macros m1) n = Some b ->
  contains_var_args (tokenize [] b) = false -> Forall P (tokenize [] b).
Hypothesis Hfn : forall n p b an, P (TIdent n) -> sm_get (fn_macros m1) n = Some (p, b) -> tokenize_arg_names p = ROk an ->
  Forall (fun t => is_arg_token t = true \/ P t) (tokenize an b).

Section Rec.
Variables rec1 rec2 : list str -> list token -> res xerr (list token).
Hypothesis Hrec : forall n b, Forall P b -> both (Forall P) (rec1 n b) (rec2 n b).

Lemma arguments_both names k args it : Forall (Forall P) args -> Forall (fun t => is_arg_token t = true \/ P t) it ->
  forall acc, Forall orp acc ->
  both (Forall orp) (expand_arguments_loop rec1 names k args acc it) (expand_arguments_loop rec2 names k args acc it).
Proof.
  intros Hargs. induction 1 as [|t it Ht Hit IH]; intros acc Hacc; cbn [expand_arguments_loop].
  { apply both_ok. now apply Forall_rev. }
  destruct (is_punct (st "#") t) eqn:Eh.
  { destruct (peek_is is_arg_token it); [|apply both_err]. apply IH. constructor; [|easy]. left.
    destruct Ht as [Ht|Ht]; [|exact Ht]. destruct t; discriminate. }
  destruct (is_arg_token t) eqn:Ea.
  2:{ apply IH. constructor; [|easy]. left. now destruct Ht. }
  destruct (argument_of k args t) as [arg|] eqn:Eo; [|apply both_panic].
  pose proof (argument_of_Forall P _ _ _ _ Hcomma Hargs Eo) as Harg.
  destruct (peek_is (is_punct (st "#")) acc).
  { apply IH. apply Forall_app. split.
    - apply Forall_rev. apply orplace_P. now apply Hstr.
    - destruct acc; simpl; [constructor|]. now inversion Hacc. }
  destruct (_ || _); (eapply both_bind; [apply Hrec; exact Harg|]; intros e He).
  - apply IH. destruct e; [constructor; [now right|easy]|].
    apply Forall_app. split; [|easy]. apply Forall_rev. now apply orplace_P.
  - apply IH. apply Forall_app. split; [|easy]. apply Forall_rev. now apply orplace_P.
Qed.

Lemma rescan_both names name b : Forall orp b -> both (Forall P) (concat_and_rescan rec1 names name b) (concat_and_rescan rec2 names name b).
Proof.
  intros Hb. unfold concat_and_rescan. eapply both_bind; [apply both_self, Hconcat, Hb|].
  intros b' Hb'. apply Hrec. now apply remove_placemarkers_P.
Qed.

Lemma var_body_both names name b : (contains_var_args b = false -> Forall P b) ->
  both (Forall P) (expand_var_macro_body rec1 names name b) (expand_var_macro_body rec2 names name b).
Proof.
  intros Hb. unfold expand_var_macro_body. destruct (contains_var_args b); [apply both_err|].
  apply rescan_both. apply orplace_P. now apply Hb.
Qed.

Lemma fn_body_both names name an args b : Forall (Forall P) args -> Forall (fun t => is_arg_token t = true \/ P t) b ->
  both (Forall P) (expand_fn_macro_body rec1 names name an (Some args) b) (expand_fn_macro_body rec2 names name an (Some args) b).
Proof.
  intros Hargs Hb. unfold expand_fn_macro_body.
  destruct (negb _ && contains_var_args b); [apply both_err|].
  destruct (if negb _ then _ else None); [apply both_err|].
  destruct (first_duplicate _); [apply both_err|].
  eapply both_bind; [apply arguments_both; [exact Hargs|exact Hb|constructor]|]. intros b'. apply rescan_both.
Qed.

Lemma fn_def_both names name an b : Forall P b ->
  both (Forall P) (expand_fn_macro_body rec1 names name an None b) (expand_fn_macro_body rec2 names name an None b).
Proof.
  intros Hb. unfold expand_fn_macro_body.
  destruct (negb _ && contains_var_args b); [apply both_err|].
  destruct (if negb _ then _ else None); [apply both_err|].
  destruct (first_duplicate _); [apply both_err|]. cbn [rbind]. apply rescan_both. now apply orplace_P.
Qed.

Lemma scan_both names it : Forall P it -> forall acc, Forall P acc -> both (Forall P) (scan m1 rec1 names acc it) (scan m2 rec2 names acc it).
Proof.
  induction 1 as [|t it Ht Hit IH]; intros acc Hacc; cbn [scan]; [apply both_ok; now apply Forall_rev|].
  destruct t as [t|i| |p|id|s|l s|s|c|]; try (apply IH; now constructor).
  destruct (str_mem id names). { apply IH. constructor; auto. }
  destruct (Hagree id Ht) as [Ev Ef]. rewrite Ev, Ef.
  set (v1 := match sm_get (var_macros m1) id with Some _ => _ | None => _ end).
  set (v2 := match sm_get (var_macros m1) id with Some _ => _ | None => _ end).
  assert (Hv : both (Forall P) v1 v2).
  { subst v1 v2. destruct (sm_get (var_macros m1) id) as [body|] eqn:E; [|apply IH; now constructor].
    eapply both_bind; [apply var_body_both; intros Hc; now apply (Hvar id)|].
    intros e He. apply Hrec. apply Forall_app. split; [now apply Forall_rev|]. apply Forall_app. now split. }
  destruct (peek_is _ it); [|exact Hv].
  destruct (sm_get (fn_macros m1) id) as [[ps body]|] eqn:Efn; [|exact Hv].
  destruct (collect_args it) as [[args it'']|] eqn:Ec; [|exact Hv].
  destruct (collect_args_Forall P _ _ _ Ec Hit) as [Hargs Hrest].
  destruct (tokenize_arg_names ps) as [an|e| |] eqn:Et; cbn [rbind]; try (split; [reflexivity|exact I]).
  eapply both_bind; [apply fn_body_both; [exact Hargs|now apply (Hfn id ps body an)]|].
  intros e He. apply Hrec. apply Forall_app. split; [now apply Forall_rev|]. apply Forall_app. now split.
Qed.
End Rec.

Lemma expand_both fuel : forall names b, Forall P b ->
  both (Forall P) (expand_macro_body m1 fuel names b) (expand_macro_body m2 fuel names b).
Proof. induction fuel as [|n IH]; intros names b Hb; cbn [expand_macro_body]; [now split|]. now apply scan_both. Qed.

(** The three entry points. *)
Lemma text_both fuel text : (contains_var_args (tokenize [] text) = false -> Forall P (tokenize [] text)) ->
  expand m1 fuel text = expand m2 fuel text.
Proof.
  intros Ht. unfold expand.
  destruct (var_body_both _ _ (expand_both fuel) [] [] (tokenize [] text) Ht) as [-> _]. reflexivity.
Qed.
Lemma var_both fuel n : P (TIdent n) -> expand_var_macro m1 fuel n = expand_var_macro m2 fuel n.
Proof.
  intros Hn. unfold expand_var_macro. destruct (Hagree n Hn) as [-> _].
  destruct (sm_get (var_macros m1) n) as [b|] eqn:E; [|reflexivity].
  destruct (var_body_both _ _ (expand_both fuel) [] n (tokenize [] b) (Hvar n b Hn E)) as [-> _]. reflexivity.
Qed.
Lemma fn_both fuel n : P (TIdent n) -> (forall t, is_arg_token t = true -> P t) -> expand_fn_macro m1 fuel n = expand_fn_macro m2 fuel n.
Proof.
  intros Hn Ha. unfold expand_fn_macro. destruct (Hagree n Hn) as [_ ->].
  destruct (sm_get (fn_macros m1) n) as [[ps b]|] eqn:E; [|reflexivity].
  destruct (tokenize_arg_names ps) as [an| | |] eqn:Et; cbn [rbind]; try reflexivity.
  assert (Hb : Forall P (tokenize an b)).
  { eapply Forall_impl; [|apply (Hfn n ps b an Hn E Et)]. intros t [Ht|Ht]; [now apply Ha|exact Ht]. }
  destruct (fn_def_both _ _ (expand_both fuel) [] n an (tokenize an b) Hb) as [-> _]. reflexivity.
Qed.
End F.

(** ** Texts without [##] *)
Section NoPaste.
Context `{Unicode}.
Variable R : str -> Prop.

Definition quiet (t : token) : Prop :=
  match t with TIdent id => R id | TPunct p => p <> st "##" | _ => True end.

Lemma concat_quiet l : Forall (orplace quiet) l -> forall acc, concat_loop None acc l = ROk (rev acc ++ l).
Proof.
  induction 1 as [|t l Ht Hl IH]; intros acc; cbn [concat_loop]; [now rewrite app_nil_r|].
  assert (E : is_punct (st "##") t = false).
  { destruct Ht as [Ht| ->]; [|reflexivity]. destruct t; try reflexivity. cbn in *. destruct (str_eqb_spec p [35%N; 35%N]); [contradiction|].
    destruct (str_eqb (st "##") p) eqn:E; [|reflexivity]. apply str_eqb_eq in E. congruence. }
  rewrite E. cbn [andb]. rewrite IH. cbn [rev]. now rewrite <- app_assoc.
Qed.

Lemma quiet_concat l : Forall (orplace quiet) l -> sat True (Forall (orplace quiet)) (expand_concat l).
Proof. intros Hl. unfold expand_concat. rewrite (concat_quiet l Hl []). exact Hl. Qed.

Lemma strip_prefix_app p s r : strip_prefix p s = Some r -> s = p ++ r.
Proof.
  revert s. induction p as [|c p IH]; intros s; cbn; [now intros [= ->]|].
  destruct s as [|d s]; [discriminate|]. destruct (N.eqb_spec c d) as [->|]; [|discriminate]. intros E. now rewrite (IH _ E).
Qed.

Lemma punct_suffix f : forall s p, punct_try_from_aux f s = Some p -> exists before, s = before ++ p.
Proof.
  induction f as [|f IH]; intros s p; cbn [punct_try_from_aux].
  - destruct (str_mem s puncts); [|discriminate]. intros [= ->]. now exists [].
  - destruct (str_mem s puncts). { intros [= ->]. now exists []. }
    destruct (oor _ _) as [s'|] eqn:E; [|discriminate]. intros Hp. apply IH in Hp. destruct Hp as (b & ->).
    unfold oor in E. destruct (strip_prefix [92%N; 10%N] s) as [s1|] eqn:E1.
    + injection E as ->. apply strip_prefix_app in E1. subst. now exists ([92%N; 10%N] ++ b).
    + apply strip_prefix_app in E. subst. now exists ([92%N; 13%N; 10%N] ++ b).
Qed.

Lemma quiet_spell t : in_set R t -> quiet (from_str t).
Proof.
  intros [Hi Hp]. apply from_str_cases; cbn; try (intros; exact I).
  - intros id E. apply Hi. apply C60_identifier_partial in E. now apply E.
  - intros p E. unfold punct_try_from in E. apply punct_suffix in E. destruct E as (b & ->). intros ->. now apply (Hp b).
Qed.
End NoPaste.

(** The tokens of a replacement text. *)
Lemma body_tokens `{Unicode} (W : str -> Prop) (P : token -> Prop) ps an body :
  tokenize_arg_names ps = ROk an -> (forall t, W t -> P (from_str t)) ->
  (forall t, In t body -> ~ (In t ps /\ parameter_name t) -> W t) ->
  Forall (fun t => is_arg_token t = true \/ P t) (tokenize an body).
Proof.
  intros E HP HW. apply Forall_forall. intros t Ht. unfold tokenize in Ht. apply in_map_iff in Ht.
  destruct Ht as (s & <- & Hs). destruct (arg_position s 0 an) as [i|] eqn:Ea; [now left|]. right.
  apply HP, HW; [exact Hs|]. intros [Hp Hn]. apply (position_in s an 0) in Ea; [exact Ea|].
  apply (proj2 (arg_names_all ps ps false [] an (incl_refl _) E)); assumption.
Qed.

(** ** Texts with [##] *)
Section Paste.
Context `{Unicode}.
Variable R : str -> Prop.
Hypothesis HR : prefix_closed R.

Definition visible (s : str) : Prop := exists c r, s = c :: r /\ c <> 92%N.
Definition quoted_text (l : lit) (s : str) : Prop :=
  match l with LString (SOrdinary _) | LChar (COrdinary _) => exists q r, s = q :: r /\ is_xid_continue q = false | _ => True end.
Definition tame (t : token) : Prop :=
  match t with
  | TIdent id => R id /\ visible id
  | TLit l s => (visible s /\ is_identifier s = false) /\ quoted_text l s
  | TIdCont s | TPlain s => visible s /\ is_identifier s = false
  | _ => True
  end.

Lemma identifier_visible s : is_identifier s = true -> visible s.
Proof.
  intros E. apply well_formed_iff in E. pose proof (identifier_no_backslash _ E) as Hn. destruct E as (c & r & -> & _).
  exists c, r. split; [reflexivity|]. intros ->. apply Hn. now left.
Qed.
Lemma identifier_prefix s t : is_identifier (s ++ t) = true -> s <> [] -> is_identifier s = true.
Proof.
  destruct s as [|c s]; [easy|]. cbn. intros E _. apply andb_prop in E. destruct E as [E1 E2]. rewrite E1. cbn.
  rewrite forallb_app in E2. now apply andb_prop in E2.
Qed.
(** A text that does not begin with a backslash is the identifier that it spells. *)
Lemma visible_identifier s id : identifier_try_from s = Some id -> visible s -> id = s.
Proof.
  intros E (c & r & -> & Hc). apply C60_identifier_partial in E. destruct E as [_ [E|(r' & [= -> _])]]; [now symmetry|contradiction].
Qed.
Lemma visible_continue s c : identifier_continue_try_from s = Some c -> visible s -> c = s.
Proof.
  intros E (d & r & -> & Hd). apply C60_continuation_partial in E. destruct E as [_ [E|(r' & [= -> _])]]; [now symmetry|contradiction].
Qed.
Lemma visible_app s t : visible s -> visible (s ++ t).
Proof. intros (c & r & -> & Hc). now exists c, (r ++ t). Qed.

Lemma tame_textual a x : tame a -> textual a = Some x -> visible x.
Proof. destruct a; cbn; try discriminate; intros Ht [= <-]; apply Ht. Qed.
Lemma quoted_read s l : lit_try_from s = Some l -> quoted_text l s.
Proof.
  intros E. destruct l as [[| | | |]|[| | | |]| |]; try exact I.
  - apply char_ordinary_quote in E. destruct E as (r & ->). now exists 39%N, r.
  - apply string_ordinary_quote in E. destruct E as (r & ->). now exists 34%N, r.
Qed.

Lemma not_identifier s : identifier_try_from s = None -> is_identifier s = false.
Proof. intros E. destruct (is_identifier s) eqn:Ei; [|reflexivity]. now rewrite (identifier_try_from_id _ Ei) in E. Qed.

(** The text of two operands, pasted. *)
Lemma tame_reclassify a b x y : tame a -> tame b -> textual a = Some x -> textual b = Some y -> tame (reclassify (x ++ y)).
Proof.
  intros Ha Hb Hx Hy. pose proof (tame_textual _ _ Ha Hx) as Hv. unfold reclassify.
  destruct (identifier_try_from (x ++ y)) as [id|] eqn:E.
  - pose proof (visible_identifier _ _ E (visible_app _ y Hv)) as ->. pose proof (identifier_try_from_ok _ _ E) as Ei. cbn. split; [|now apply visible_app].
    destruct Hv as (c & r & Hxr & Hcc).
    assert (Hxi : is_identifier x = true) by (apply (identifier_prefix _ y Ei); subst x; discriminate).
    destruct a; cbn in *; try discriminate; injection Hx as <-; try (exfalso; destruct Ha; intuition congruence). apply HR. apply Ha.
  - apply not_identifier in E. destruct (lit_try_from (x ++ y)) as [l|] eqn:El.
    { split; [split; [now apply visible_app|exact E]|now apply quoted_read]. }
    destruct (identifier_continue_try_from (x ++ y)) as [c|] eqn:E2.
    + pose proof (visible_continue _ _ E2 (visible_app _ y Hv)) as ->. split; [now apply visible_app|exact E].
    + split; [now apply visible_app|exact E].
Qed.

Lemma tame_concat_stripped a b r : no_nr a -> no_nr b -> tame a -> tame b -> concat_stripped a b = ROk r -> tame (strip_nr r).
Proof.
  intros Hna Hnb Ha Hb. unfold concat_stripped.
  assert (Hre : forall x y, textual a = Some x -> textual b = Some y -> tame (strip_nr (reclassify (x ++ y)))).
  { intros x y Hx Hy. pose proof (tame_reclassify a b x y Ha Hb Hx Hy) as Hg. revert Hg. unfold reclassify.
    destruct (identifier_try_from (x ++ y)); [easy|]. destruct (lit_try_from (x ++ y)); [easy|]. now destruct (identifier_continue_try_from (x ++ y)). }
  destruct a as [t0|i0| |p0|id0|s0|l0 s0|s0|c0|]; try (now destruct (Hna t0));
  destruct b as [t1|i1| |p1|id1|s1|l1 s1|s1|c1|]; try (now destruct (Hnb t1)); cbn [textual] in *;
    try (now intros [= <-]); try discriminate; try (intros [= <-]; now apply Hre);
    try (destruct l0; try discriminate; intros [= <-]; first [exact Ha|now apply Hre]).
  - destruct (punct_concat p0 p1); [|discriminate]. now intros [= <-].
  - destruct (str_eqb p0 (st ".")) eqn:Ep; [|discriminate]. apply str_eqb_eq in Ep. subst p0.
    assert (Hg : forall l, lit_try_from (st "." ++ s1) = Some l -> tame (TLit l (st "." ++ s1))).
    { intros l El. split; [|now apply quoted_read]. split; [now exists 46%N, s1|reflexivity]. }
    destruct l1; try discriminate; (destruct (lit_try_from (st "." ++ s1)) as [l|] eqn:El; [|discriminate]; intros [= <-]; now apply Hg).
  - intros [= <-]. cbn. destruct Ha as [Ha Hv]. split; [now apply HR|now apply visible_app].
  - intros [= <-]. cbn. destruct Ha as [Ha Hv]. split; [now apply HR|now apply visible_app].
  - cbn in Ha, Hb. destruct Ha as [Ha Hv]. destruct Hb as [[Hb1 Hb2] Hq].
    assert (Hlit : forall l, (exists q r, s1 = q :: r /\ is_xid_continue q = false) -> lit_try_from (id0 ++ s1) = Some l -> tame (TLit l (id0 ++ s1))).
    { intros l (q & r' & -> & Hx) El. split; [|now apply quoted_read]. split; [now apply visible_app|].
      destruct Hv as (c & r0 & -> & _). cbn [app is_identifier]. rewrite forallb_app. cbn [forallb]. rewrite Hx. cbn [andb]. now rewrite !andb_false_r. }
    destruct l1 as [[| | | |]|[| | | |]| |]; try discriminate.
    + destruct (is_encoding_prefix id0); [|discriminate]. destruct (lit_try_from (id0 ++ s1)) as [l|] eqn:El; [|discriminate]. intros [= <-]. now apply Hlit.
    + destruct (is_encoding_prefix id0); [|discriminate]. destruct (lit_try_from (id0 ++ s1)) as [l|] eqn:El; [|discriminate]. intros [= <-]. now apply Hlit.
    + destruct (forallb is_xid_continue s1); [|discriminate]. destruct (identifier_try_from (id0 ++ s1)) as [id|] eqn:E; [|discriminate]. intros [= <-].
      pose proof (visible_identifier _ _ E (visible_app _ s1 Hv)) as ->. cbn. split; [now apply HR|now apply visible_app].
    + intros [= <-]. cbn. split; [now apply HR|now apply visible_app].
Qed.

Definition tamed : token -> Prop := thru tame.
Lemma tamed_token_concat a b : orplace tamed a -> orplace tamed b -> sat True (orplace tamed) (token_concat a b).
Proof.
  intros Ha Hb. destruct (token_concat a b) as [r|e| |] eqn:Hr; try exact I. cbn. unfold token_concat in Hr. left. unfold tamed, thru.
  apply (tame_concat_stripped (strip_nr a) (strip_nr b)); try apply strip_nr_no; [| |exact Hr].
  - destruct Ha as [Ha| ->]; [exact Ha|exact I].
  - destruct Hb as [Hb| ->]; [exact Hb|exact I].
Qed.
Lemma tamed_concat l : Forall (orplace tamed) l -> sat True (Forall (orplace tamed)) (expand_concat l).
Proof. intros Hl. apply (concat_loop_P True tamed tamed_token_concat); [exact Hl|constructor|discriminate]. Qed.

Lemma tamed_stringify n arg : Forall tamed arg -> Forall tamed (stringify n arg).
Proof.
  intros Harg. unfold stringify.
  assert (Hk : forall l kept cur sp, Forall tamed l -> Forall tamed kept -> Forall tamed (fst (stringify_loop n kept cur sp l))).
  { induction l as [|t l IH]; intros kept cur sp Hl Hkept; simpl; [easy|].
    inversion Hl; subst. destruct (token_stringify n t); auto. apply IH; [easy|]. constructor; [easy|]. constructor; [exact I|easy]. }
  specialize (Hk arg [] None false Harg (Forall_nil _)).
  assert (Hs : forall b r, tamed (TLit (LString (SOrdinary b)) (34%N :: r))).
  { intros b r. split; [split; [now exists 34%N, r|reflexivity]|]. now exists 34%N, r. }
  destruct (stringify_loop _ _ _ _ _) as [kept cur]. simpl in Hk. apply Forall_rev in Hk.
  assert (Ht : Forall tamed (rev kept ++ match cur with
     | Some s => [TLit (LString (SOrdinary (utf8_encode s))) (debug_str s)] | None => [] end)).
  { apply Forall_app. split; [easy|]. destruct cur; [constructor; [apply Hs|constructor]|constructor]. }
  destruct (_ ++ _); [constructor; [apply Hs|constructor]|exact Ht].
Qed.

Lemma tamed_spell t : plainly_in_set R t -> tamed (from_str t).
Proof.
  intros [Hi Hv]. unfold tamed, thru. rewrite strip_nr_same by apply from_str_no_nr.
  unfold from_str. destruct (str_eqb t _); [exact I|].
  destruct (identifier_try_from t) as [id|] eqn:E.
  - pose proof (visible_identifier _ _ E Hv) as ->. cbn. split; [|exact Hv]. apply Hi. apply well_formed_iff.
    eapply identifier_try_from_ok; eassumption.
  - apply not_identifier in E. destruct (lit_try_from t) as [l|] eqn:El; [split; [now split|now apply quoted_read]|].
    destruct (identifier_continue_try_from t) as [c|] eqn:Ec; [pose proof (visible_continue _ _ Ec Hv) as ->; now split|].
    destruct (punct_try_from t); [exact I|]. destruct (comment_try_from t); [exact I|]. now split.
Qed.
End Paste.
