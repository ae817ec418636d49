(** A macro being replaced might as well be undefined: a simulation between
    expansion with a hidden name and expansion in the set without that name. *)
From Verif Require Import Base Utf Lex LexFloat Token MacroSet StrFacts LexFacts ExpandFacts ExpandInv TokenFacts
  SpecCall CallFacts SpecPaste PasteFacts PropPaste ObjFacts.
From Coq Require Import String List.
Local Open Scope list_scope.

Section S.
Context `{Unicode}.
Variable n : str.

(** Unpaint [n]. *)
Definition up (t : token) : token :=
  match t with TNonRepl (TIdent id) => if str_eqb id n then TIdent id else t | _ => t end.

Lemma up_strip t : strip_nr (up t) = strip_nr t.
Proof.
  destruct t as [u|i| |p|id|s|l s|s|c|]; try easy. destruct u; try easy. simpl. now destruct (str_eqb id n).
Qed.

Lemma up_same t : (forall id, t <> TNonRepl (TIdent id)) -> up t = t.
Proof. intros Ht. destruct t as [u|i| |p|id|s|l s|s|c|]; try easy. destruct u; try easy. now destruct (Ht id). Qed.

Lemma up_pred (p : token -> bool) t : (forall u, p (TNonRepl u) = false) -> (forall id, p (TIdent id) = false) -> p (up t) = p t.
Proof.
  intros H1 H2. destruct t as [u|i| |q|id|s|l s|s|c|]; try easy. destruct u; try easy. simpl.
  destruct (str_eqb id n); [now rewrite H1, H2|easy].
Qed.

Lemma up_peek (p : token -> bool) l : (forall u, p (TNonRepl u) = false) -> (forall id, p (TIdent id) = false) ->
  peek_is p (map up l) = peek_is p l.
Proof. intros H1 H2. destruct l; [easy|]. now apply up_pred. Qed.

Lemma up_punct p l : peek_is (is_punct p) (map up l) = peek_is (is_punct p) l.
Proof. now apply up_peek. Qed.
Lemma up_arg l : peek_is is_arg_token (map up l) = peek_is is_arg_token l.
Proof. now apply up_peek. Qed.

(** ** Pasting *)
Lemma concat_up a b : token_concat (up a) (up b) = token_concat a b.
Proof. unfold token_concat. now rewrite !up_strip. Qed.

Lemma concat_no_paint a b r : token_concat a b = ROk r -> up r = r.
Proof.
  intros E. apply up_same. intros id ->. unfold token_concat, concat_stripped, reclassify in E.
  pose proof (strip_nr_no a) as Hna. pose proof (strip_nr_no b) as Hnb.
  destruct (strip_nr a) as [u|i| |p|x|k|l sp|sp|k|]; try (now destruct (Hna u));
  destruct (strip_nr b) as [u'|i'| |p'|x'|k'|l' sp'|sp'|k'|]; try (now destruct (Hnb u')); simpl in E;
    repeat match type of E with context [match ?x with _ => _ end] => destruct x end; discriminate.
Qed.

Lemma pop_lhs_up acc : pop_lhs (map up acc) = omap (fun r => (up (fst r), map up (snd r))) (pop_lhs acc).
Proof.
  induction acc as [|t acc IH]; [easy|]. destruct t as [u|i| |p|id|s|l s|s|c|]; try easy.
  destruct u; try easy. simpl. now destruct (str_eqb id n).
Qed.

Lemma concat_loop_up it : forall p acc,
  concat_loop (omap up p) (map up acc) (map up it) = rmap (map up) (concat_loop p acc it).
Proof.
  induction it as [|t it IH]; intros p acc.
  - simpl. destruct p; simpl; [easy|]. now rewrite map_rev.
  - cbn [map concat_loop]. destruct p as [lhs|]; cbn [omap].
    + rewrite (up_pred is_comment_token) by easy. destruct (is_comment_token t); [exact (IH (Some lhs) acc)|].
      rewrite concat_up. destruct (token_concat lhs t) as [r|e| |] eqn:E; try easy. simpl.
      rewrite <- (IH None (r :: acc)). simpl. now rewrite (concat_no_paint _ _ _ E).
    + rewrite (up_pred (is_punct (st "##"))) by easy. rewrite !up_arg.
      destruct (_ && _); [|exact (IH None (t :: acc))].
      rewrite pop_lhs_up. destruct (pop_lhs acc) as [[lhs acc']|]; [|easy]. cbn [omap fst snd].
      rewrite up_punct. destruct (peek_is _ it); [|exact (IH (Some lhs) acc')].
      pose proof (concat_up lhs TPlacemarker) as Ec. simpl up in Ec at 2. rewrite Ec.
      destruct (token_concat lhs TPlacemarker) as [r|e| |] eqn:E; try easy. simpl.
      rewrite <- (IH None (r :: acc')). simpl. now rewrite (concat_no_paint _ _ _ E).
Qed.

Lemma expand_concat_up l : expand_concat (map up l) = rmap (map up) (expand_concat l).
Proof. exact (concat_loop_up l None []). Qed.

Lemma remove_placemarkers_up l : remove_placemarkers (map up l) = map up (remove_placemarkers l).
Proof.
  induction l as [|t l IH]; [easy|]. simpl. rewrite (up_pred is_placemarker) by easy.
  destruct (is_placemarker t); simpl; [easy|]. now rewrite IH.
Qed.

(** ** Stringification *)
Lemma token_stringify_strip nested t : token_stringify nested t = token_stringify nested (strip_nr t).
Proof. now induction t. Qed.

Lemma stringify_loop_up nested l : forall kept cur sp,
  stringify_loop nested (map up kept) cur sp (map up l) =
  (fun r => (map up (fst r), snd r)) (stringify_loop nested kept cur sp l).
Proof.
  induction l as [|t l IH]; intros kept cur sp; [easy|]. cbn [map stringify_loop].
  rewrite (token_stringify_strip nested (up t)), up_strip, <- token_stringify_strip.
  destruct (token_stringify nested t); [|apply IH|apply IH].
  rewrite <- IH. reflexivity.
Qed.

Lemma stringify_up nested l : stringify nested (map up l) = map up (stringify nested l).
Proof.
  unfold stringify. pose proof (stringify_loop_up nested l [] None false) as E. simpl in E. rewrite E.
  destruct (stringify_loop nested [] None false l) as [kept cur]. cbn [fst snd].
  assert (Ek : rev (map up kept) ++ match cur with Some s => [TLit (LString (SOrdinary (utf8_encode s))) (debug_str s)] | None => [] end =
    map up (rev kept ++ match cur with Some s => [TLit (LString (SOrdinary (utf8_encode s))) (debug_str s)] | None => [] end)).
  { rewrite map_app, map_rev. f_equal. now destruct cur. }
  rewrite Ek. now destruct (rev kept ++ _).
Qed.

(** ** Arguments *)
Lemma collect_loop_up it : forall stack args cur,
  collect_loop stack (map (map up) args) (map up cur) (map up it) =
  omap (fun r => (map (map up) (fst r), map up (snd r))) (collect_loop stack args cur it).
Proof.
  induction it as [|t it IH]; intros stack args cur; [easy|].
  assert (Hpush : forall s, collect_loop s (map (map up) args) (up t :: map up cur) (map up it) =
    omap (fun r => (map (map up) (fst r), map up (snd r))) (collect_loop s args (t :: cur) it)).
  { intros s. exact (IH s args (t :: cur)). }
  destruct t as [u|i| |p|id|s|lt s|s|c|]; try exact (Hpush stack).
  - specialize (Hpush stack). cbn [map]. simpl collect_loop at 2.
    destruct u; try exact Hpush. simpl up in *. destruct (str_eqb id n); exact Hpush.
  - simpl. destruct (str_eqb p (st "(")); [exact (Hpush (st "(" :: stack))|].
    destruct (str_eqb p (st ")")).
    { destruct stack as [|q stack]; [|destruct (str_eqb q (st "(")); [exact (Hpush stack)|easy]].
      simpl. rewrite !map_app, !map_rev. simpl. now rewrite map_rev. }
    destruct (str_eqb p (st "[")); [exact (Hpush (st "[" :: stack))|].
    destruct (str_eqb p (st "]")). { destruct stack as [|q stack]; [easy|]. destruct (str_eqb q (st "[")); [exact (Hpush stack)|easy]. }
    destruct (str_eqb p (st "{")); [exact (Hpush (st "{" :: stack))|].
    destruct (str_eqb p (st "}")). { destruct stack as [|q stack]; [easy|]. destruct (str_eqb q (st "{")); [exact (Hpush stack)|easy]. }
    destruct (str_eqb p (st ",")); [|exact (Hpush stack)].
    destruct stack; [|exact (Hpush _)]. rewrite <- (IH [] (rev cur :: args) []). simpl. now rewrite map_rev.
Qed.

Lemma collect_args_up it :
  collect_args (map up it) = omap (fun r => (map (map up) (fst r), map up (snd r))) (collect_args it).
Proof.
  destruct it as [|t it]; [easy|]. destruct t as [u|i| |p|id|s|lt s|s|c|]; try easy.
  - destruct u; try easy. simpl. now destruct (str_eqb id n).
  - simpl. destruct (str_eqb p (st "(")); [|easy]. exact (collect_loop_up it [] [] []).
Qed.

Lemma join_args_up args : join_args (map (map up) args) = map up (join_args args).
Proof.
  induction args as [|a args IH]; [easy|]. destruct args as [|b args]; [easy|].
  change (map up a ++ TPunct (st ",") :: join_args (map (map up) (b :: args)) = map up (a ++ TPunct (st ",") :: join_args (b :: args))).
  rewrite IH, map_app. easy.
Qed.

Lemma argument_of_up k args t : argument_of k (map (map up) args) t = omap (map up) (argument_of k args t).
Proof.
  assert (Hr : match k with O => None | S m => if Nat.leb m (length (map (map up) args)) then Some (join_args (skipn m (map (map up) args))) else None end =
    omap (map up) match k with O => None | S m => if Nat.leb m (length args) then Some (join_args (skipn m args)) else None end).
  { destruct k; [easy|]. rewrite map_length. destruct (Nat.leb k (length args)); [|easy]. simpl. f_equal.
    rewrite <- join_args_up. f_equal. now rewrite skipn_map. }
  unfold argument_of. destruct t; try exact Hr. rewrite nth_error_map. now destruct (nth_error args i).
Qed.

(** ** Expansion *)
Variables ms ms' : macro_set.
Hypothesis Hvar : forall id, id <> n -> sm_get (var_macros ms') id = sm_get (var_macros ms) id.
Hypothesis Hfn : forall id, id <> n -> sm_get (fn_macros ms') id = sm_get (fn_macros ms) id.
Hypothesis Hvar_n : sm_get (var_macros ms') n = None.
Hypothesis Hfn_n : sm_get (fn_macros ms') n = None.

(** [names] hides [n], [names'] does not; otherwise they hide the same
    identifiers and are equally many. *)
Definition hides (names names' : list str) : Prop :=
  In n names /\ ~ In n names' /\ length names = length names' /\
  forall id, id <> [] -> id <> n -> (In id names <-> In id names').

Lemma hides_insert id names names' : hides names names' -> id <> n -> id <> [] -> hides (set_insert id names) (set_insert id names').
Proof.
  intros (H1 & H2 & H3 & H4) Hid Hne. repeat split.
  - apply set_insert_In. now right.
  - rewrite set_insert_In. intuition congruence.
  - unfold set_insert. destruct (str_mem id names) eqn:E1, (str_mem id names') eqn:E2; simpl; try congruence.
    + apply str_mem_In in E1. apply str_mem_not_In in E2. exfalso. apply E2. now apply H4.
    + apply str_mem_In in E2. apply str_mem_not_In in E1. exfalso. apply E1. now apply H4.
  - rewrite !set_insert_In. rewrite H4 by easy. auto.
  - rewrite !set_insert_In. rewrite H4 by easy. auto.
Qed.

Section Rec.
Variables rec rec' : list str -> list token -> res xerr (list token).
Hypothesis Hrec : forall names names' b, hides names names' -> wf b -> rec' names' (map up b) = rmap (map up) (rec names b).
Hypothesis Hrec_wf : forall names b, wf b -> sat True wf (rec names b).

Lemma wf_place l : wf l -> Forall (orplace (thru idents_ok)) l.
Proof. apply Forall_impl. now left. Qed.

Lemma expand_arguments_up names names' k args it : hides names names' -> Forall wf args -> forall acc,
  expand_arguments_loop rec' names' k (map (map up) args) (map up acc) (map up it) =
  rmap (map up) (expand_arguments_loop rec names k args acc it).
Proof.
  intros Hh Hargs. induction it as [|t it IH]; intros acc.
  - simpl. now rewrite map_rev.
  - cbn [map expand_arguments_loop]. rewrite (up_pred (is_punct (st "#"))) by easy. rewrite up_arg.
    destruct (is_punct (st "#") t).
    { destruct (peek_is is_arg_token it); [|easy]. exact (IH (t :: acc)). }
    rewrite (up_pred is_arg_token) by easy. destruct (is_arg_token t) eqn:Ea; [|exact (IH (t :: acc))].
    assert (Eu : up t = t) by now destruct t. rewrite Eu, argument_of_up.
    destruct (argument_of k args t) as [arg|] eqn:Eo; [|easy]. cbn [omap].
    assert (Hwf : wf arg). { eapply argument_of_Forall; eauto. easy. }
    rewrite !up_punct. destruct (peek_is (is_punct (st "#")) acc).
    { assert (Hl : length names = length names') by apply Hh. rewrite <- Hl, stringify_up, <- map_rev.
      assert (Et : tl (map up acc) = map up (tl acc)) by now destruct acc. rewrite Et, <- map_app. apply IH. }
    rewrite (Hrec names names' arg) by easy.
    destruct (_ || _); destruct (rec names arg) as [e| | |]; try easy; simpl.
    + destruct e as [|x e]; [exact (IH (TPlacemarker :: acc))|]. rewrite <- (IH (rev (x :: e) ++ acc)).
      rewrite map_app, map_rev. easy.
    + rewrite <- (IH (rev e ++ acc)). now rewrite map_app, map_rev.
Qed.

Lemma expand_arguments_wf names k args it : Forall wf args ->
  Forall (fun t => if is_arg_token t then True else thru idents_ok t) it ->
  forall acc, Forall (orplace (thru idents_ok)) acc ->
  sat True (Forall (orplace (thru idents_ok))) (expand_arguments_loop rec names k args acc it).
Proof.
  intros Hargs Hit acc Hacc. apply (expand_arguments_loop_P True (thru idents_ok)); auto.
  - intros nst arg Ha. apply stringify_P; easy.
  - easy.
  - revert Hit. apply Forall_impl. intros t. destruct (is_arg_token t); auto.
Qed.

Lemma concat_and_rescan_up names names' id b : hides names names' -> id <> n -> id <> [] ->
  Forall (orplace (thru idents_ok)) b ->
  concat_and_rescan rec' names' id (map up b) = rmap (map up) (concat_and_rescan rec names id b).
Proof.
  intros Hh Hid Hne Hb. unfold concat_and_rescan. rewrite expand_concat_up.
  pose proof (concat_loop_P True (thru idents_ok)
    (fun a b => paste_closed_concat idents_ok a b (ec_paste _ idents_ok_closed)) b Hb None [] (Forall_nil _)) as Hc.
  unfold expand_concat. destruct (concat_loop None [] b) as [o| | |]; try easy. simpl.
  rewrite remove_placemarkers_up. apply Hrec; [now apply hides_insert|].
  apply remove_placemarkers_P. apply Hc. discriminate.
Qed.

Lemma body_up an body : (forall t, In t (tokenize an body) -> forall u, t <> TNonRepl u) -> map up (tokenize an body) = tokenize an body.
Proof.
  intros Hb. rewrite <- (map_id (tokenize an body)) at 2. apply map_ext_in. intros t Ht. apply up_same. intros id E.
  now apply (Hb t Ht (TIdent id)).
Qed.

Lemma tokenize_no_nr an body t : In t (tokenize an body) -> forall u, t <> TNonRepl u.
Proof.
  intros Ht u ->. apply tokenize_in in Ht. destruct Ht as (s & _ & [(i & E & _)|E]); [discriminate|].
  symmetry in E. now apply from_str_no_nr in E.
Qed.

Lemma tokenize_wf an body : Forall (fun t => if is_arg_token t then True else thru idents_ok t) (tokenize an body).
Proof.
  apply Forall_forall. intros t Ht. destruct (is_arg_token t) eqn:E; [easy|].
  apply tokenize_in in Ht. destruct Ht as (s & _ & [(i & -> & _) | ->]); [discriminate|].
  unfold thru. rewrite strip_nr_same by apply from_str_no_nr. apply idents_ok_spell.
Qed.

Lemma sat_wf_app (a b c : list token) : wf a -> wf b -> wf c -> wf (a ++ b ++ c).
Proof. intros. unfold wf. rewrite !Forall_app. auto. Qed.

Lemma scan_up names names' it : hides names names' -> wf it -> forall acc, wf acc ->
  scan ms' rec' names' (map up acc) (map up it) = rmap (map up) (scan ms rec names acc it).
Proof.
  intros Hh Hit. pose proof Hh as (H1 & H2 & H3 & H4).
  induction Hit as [|t it Ht Hit IH]; intros acc Hacc.
  { simpl. now rewrite map_rev. }
  assert (Hkeep : scan ms' rec' names' (up t :: map up acc) (map up it) = rmap (map up) (scan ms rec names (t :: acc) it)).
  { apply (IH (t :: acc)). now constructor. }
  destruct t as [u|i| |p|id|s|lt s|s|c|]; try exact Hkeep.
  - (* painted *)
    cbn [map]. simpl scan at 2. destruct u; try exact Hkeep. simpl up in *.
    destruct (str_eqb_spec id n) as [->|Hn]; [|exact Hkeep].
    cbn [scan]. assert (Em : str_mem n names' = false) by now apply str_mem_not_In.
    rewrite Em, Hvar_n, Hfn_n. destruct (peek_is _ _); exact Hkeep.
  - assert (Hid : id <> []). { intros ->. discriminate Ht. }
    cbn [map up scan]. destruct (str_eqb_spec id n) as [->|Hn].
    { assert (Em : str_mem n names' = false) by now apply str_mem_not_In.
      assert (En : str_mem n names = true) by now apply str_mem_In.
      rewrite Em, En, Hvar_n, Hfn_n.
      assert (Hk : scan ms' rec' names' (TIdent n :: map up acc) (map up it) = rmap (map up) (scan ms rec names (TNonRepl (TIdent n) :: acc) it)).
      { rewrite <- (IH (TNonRepl (TIdent n) :: acc)) by now constructor. simpl. now rewrite str_eqb_refl. }
      destruct (peek_is _ _); exact Hk. }
    assert (Em : str_mem id names' = str_mem id names).
    { apply Bool.eq_iff_eq_true. rewrite !str_mem_In. symmetry. now apply H4. }
    rewrite Em. destruct (str_mem id names) eqn:En.
    { rewrite <- (IH (TNonRepl (TIdent id) :: acc)) by now constructor. simpl.
      apply str_eqb_neq in Hn. now rewrite Hn. }
    rewrite Hvar, Hfn by easy.
    set (V' := match sm_get (var_macros ms) id with
           | Some body => e <- expand_var_macro_body rec' names' id (tokenize [] body) ;; rec' names' (rev (map up acc) ++ e ++ map up it)
           | None => scan ms' rec' names' (TIdent id :: map up acc) (map up it)
           end).
    set (V := match sm_get (var_macros ms) id with
           | Some body => e <- expand_var_macro_body rec names id (tokenize [] body) ;; rec names (rev acc ++ e ++ it)
           | None => scan ms rec names (TIdent id :: acc) it
           end).
    assert (HV : V' = rmap (map up) V).
    { subst V V'. destruct (sm_get (var_macros ms) id) as [body|]; [|exact Hkeep].
      unfold expand_var_macro_body. destruct (contains_var_args (tokenize [] body)) eqn:Ec; [easy|].
      assert (Hb : Forall (orplace (thru idents_ok)) (tokenize [] body)).
      { pose proof (tokenize_wf [] body) as Hw. apply contains_var_args_In in Ec.
        apply Forall_forall. intros t Ht'. rewrite Forall_forall in Hw. pose proof (Hw t Ht') as Hx.
        destruct (is_arg_token t) eqn:Ea; [|now left]. exfalso.
        pose proof Ht' as Hy. apply tokenize_in in Hy. destruct Hy as (s & _ & [(i & _ & _ & []) | ->]).
        destruct (from_str s) eqn:Es; try discriminate; [now apply from_str_not_arg in Es|]. now apply Ec. }
      rewrite <- (body_up [] body) at 1 by apply tokenize_no_nr.
      rewrite (concat_and_rescan_up names names') by auto.
      pose proof (concat_and_rescan_P True (thru idents_ok) 
        (fun a b => paste_closed_concat idents_ok a b (ec_paste _ idents_ok_closed)) rec Hrec_wf names id _ Hb) as Hw.
      destruct (concat_and_rescan rec names id (tokenize [] body)) as [e| | |]; try easy. simpl.
      rewrite <- map_rev, <- !map_app. apply Hrec; [easy|]. apply sat_wf_app; auto. now apply Forall_rev. }
    rewrite up_punct. destruct (peek_is (is_punct (st "(")) it); [|exact HV].
    destruct (sm_get (fn_macros ms) id) as [[ps body]|]; [|exact HV].
    rewrite collect_args_up. destruct (collect_args it) as [[args rest]|] eqn:Ec; [|exact HV]. cbn [omap fst snd].
    destruct (tokenize_arg_names ps) as [an| | |]; try easy. cbn [rbind].
    destruct (collect_args_Forall (thru idents_ok) _ _ _ Ec Hit) as [Hargs Hrest].
    assert (HE : expand_fn_macro_body rec' names' id an (Some (map (map up) args)) (tokenize an body) =
      rmap (map up) (expand_fn_macro_body rec names id an (Some args) (tokenize an body)) /\
      sat True wf (expand_fn_macro_body rec names id an (Some args) (tokenize an body))).
    { unfold expand_fn_macro_body. rewrite map_length.
      assert (Em2 : match drop_comments an with
          | [] => match map (map up) args with [] => true | a :: _ => match a with [] => true | _ => false end end
          | _ => false end = match drop_comments an with
          | [] => match args with [] => true | a :: _ => match a with [] => true | _ => false end end
          | _ => false end).
      { destruct (drop_comments an); [|easy]. destruct args as [|a args']; [easy|]. now destruct a. }
      rewrite Em2. destruct (_ && contains_var_args _); [easy|]. destruct (if negb _ then _ else None); [easy|].
      destruct (first_duplicate _); [easy|]. unfold expand_arguments.
      rewrite <- (body_up an body) at 1 by apply tokenize_no_nr.
      pose proof (expand_arguments_up names names' (length (drop_comments an)) args (tokenize an body) Hh Hargs []) as E1.
      change (map up []) with (@nil token) in E1. rewrite E1.
      pose proof (expand_arguments_wf names (length (drop_comments an)) args (tokenize an body) Hargs (tokenize_wf an body) [] (Forall_nil _)) as E2.
      destruct (expand_arguments_loop rec names (length (drop_comments an)) args [] (tokenize an body)) as [b| | |]; try easy.
      simpl. split; [now apply concat_and_rescan_up|].
      apply (concat_and_rescan_P True (thru idents_ok)
        (fun a b => paste_closed_concat idents_ok a b (ec_paste _ idents_ok_closed)) rec Hrec_wf names id _ E2). }
    destruct HE as [HE Hw]. rewrite HE. destruct (expand_fn_macro_body rec names id an (Some args) (tokenize an body)) as [e| | |]; try easy.
    simpl. rewrite <- map_rev, <- !map_app. apply Hrec; [easy|]. apply sat_wf_app; auto. now apply Forall_rev.
Qed.
End Rec.

Lemma expand_macro_body_wf m fuel names b : wf b -> sat True wf (expand_macro_body m fuel names b).
Proof.
  intros Hb. destruct (expand_macro_body m fuel names b) as [o| | |] eqn:E; try easy. simpl.
  eapply macro_body_result; eauto using idents_ok_closed. intros s _. apply idents_ok_spell.
Qed.

Lemma expand_macro_body_up fuel : forall names names' b, hides names names' -> wf b ->
  expand_macro_body ms' fuel names' (map up b) = rmap (map up) (expand_macro_body ms fuel names b).
Proof.
  induction fuel as [|f IH]; intros names names' b Hh Hb; [easy|]. simpl.
  apply (scan_up (expand_macro_body ms f) (expand_macro_body ms' f)) with (acc := []); auto.
  - intros. now apply expand_macro_body_wf.
  - constructor.
Qed.
End S.
