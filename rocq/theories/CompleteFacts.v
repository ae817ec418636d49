(** Expansion of texts in which every call is written out: it ends, and the
    parts of a text are expanded independently. *)
From Verif Require Import Base Utf Lex LexFloat Token MacroSet StrFacts LexFacts ExpandFacts ExpandInv TokenFacts
  SpecPaste PasteFacts SpecRescan ObjFacts SpecSet SetFacts SpecCall CallFacts SpecTokens ParamFacts SpecExpand FullFacts
  SpecComplete.
From Coq Require Import String List.
Local Open Scope list_scope.

Section S.
Context `{Unicode}.
Variable ms : macro_set.
Hypothesis Hexcl : forall id, sm_get (fn_macros ms) id = None \/ sm_get (var_macros ms) id = None.

Definition is_fn (id : str) : bool := match sm_get (fn_macros ms) id with Some _ => true | None => false end.
Definition is_macro (id : str) : bool :=
  match sm_get (fn_macros ms) id, sm_get (var_macros ms) id with None, None => false | _, _ => true end.

(** An automaton: open brackets, and whether a parenthesis must follow. *)
Definition state : Type := list str * bool.
Definition closes (q : str) (s : list str) : option state :=
  match s with x :: s' => if str_eqb x q then Some (s', false) else None | [] => None end.
Definition step (x : state) (t : token) : option state :=
  let '(s, fl) := x in
  if is_punct (st "(") t then Some (st "(" :: s, false)
  else if fl then None
  else match t with
  | TPunct p =>
    if str_eqb p (st ")") then closes (st "(") s
    else if str_eqb p (st "[") then Some (st "[" :: s, false)
    else if str_eqb p (st "]") then closes (st "[") s
    else if str_eqb p (st "{") then Some (st "{" :: s, false)
    else if str_eqb p (st "}") then closes (st "{") s
    else if str_eqb p (st "##") then None
    else Some (s, false)
  | TIdent id => Some (s, is_fn id)
  | _ => Some (s, false)
  end.
Fixpoint run_tokens (x : state) (l : list token) : option state :=
  match l with
  | [] => Some x
  | t :: l' => match step x t with Some y => run_tokens y l' | None => None end
  end.
Definition good (l : list token) : Prop := run_tokens ([], false) l = Some ([], false).

Lemma run_app l1 : forall x l2, run_tokens x (l1 ++ l2) =
  match run_tokens x l1 with Some y => run_tokens y l2 | None => None end.
Proof. induction l1 as [|t l1 IH]; intros x l2; [easy|]. cbn [app run_tokens]. destruct (step x t); auto. Qed.

(** The brackets below do not matter. *)
Lemma step_below s b fl t y : step (s, fl) t = Some y -> step (s ++ b, fl) t = Some (fst y ++ b, snd y).
Proof.
  unfold step. destruct (is_punct (st "(") t); [intros E; now injection E as <-|]. destruct fl; [discriminate|].
  assert (Hc : forall q, closes q s = Some y -> closes q (s ++ b) = Some (fst y ++ b, snd y)).
  { intros q. unfold closes. destruct s as [|z s]; [discriminate|]. cbn [app]. destruct (str_eqb z q); [|discriminate].
    intros E. now injection E as <-. }
  destruct t; try (intros E; now injection E as <-).
  destruct (str_eqb p (st ")")); [apply Hc|]. destruct (str_eqb p (st "[")); [intros E; now injection E as <-|].
  destruct (str_eqb p (st "]")); [apply Hc|]. destruct (str_eqb p (st "{")); [intros E; now injection E as <-|].
  destruct (str_eqb p (st "}")); [apply Hc|]. destruct (str_eqb p (st "##")); [discriminate|].
  intros E; now injection E as <-.
Qed.
Lemma run_below l : forall s b fl y, run_tokens (s, fl) l = Some y -> run_tokens (s ++ b, fl) l = Some (fst y ++ b, snd y).
Proof.
  induction l as [|t l IH]; intros s b fl y; cbn [run_tokens]; [intros E; now injection E as <-|].
  destruct (step (s, fl) t) as [[s' fl']|] eqn:E; [|discriminate]. rewrite (step_below _ b _ _ _ E). simpl. apply IH.
Qed.
Lemma good_anywhere l s : good l -> run_tokens (s, false) l = Some (s, false).
Proof. intros Hl. exact (run_below l [] s false _ Hl). Qed.

Lemma good_app a b : good a -> good b -> good (a ++ b).
Proof. unfold good. intros Ha Hb. now rewrite run_app, Ha. Qed.

(** Tokens that change nothing. *)
Definition neutral (t : token) : Prop := forall s, step (s, false) t = Some (s, false).
Lemma good_neutral l : Forall neutral l -> good l.
Proof.
  intros Hl. unfold good. induction Hl as [|t l Ht Hl IH]; [easy|]. cbn [run_tokens]. now rewrite Ht.
Qed.

Lemma not_hashhash l : forall x y, run_tokens x l = Some y -> ~ In hashhash l.
Proof.
  induction l as [|t l IH]; intros x y Hr; [easy|]. cbn [run_tokens] in Hr. destruct (step x t) as [z|] eqn:E; [|discriminate].
  intros [->|Hi]; [|now apply (IH z y)]. destruct x as [s fl]. unfold step, hashhash in E. simpl in E. now destruct fl.
Qed.

(** A good text from a complete one. *)
Lemma step_open o c s fl : matching o c -> (fl = false \/ o = TPunct (st "(")) ->
  exists q, step (s, fl) o = Some (q :: s, false) /\ forall s', step (q :: s', false) c = Some (s', false).
Proof.
  intros Hm Hf. destruct Hm; (destruct Hf as [-> | Hf]; [|try discriminate Hf]);
   (eexists; split; [reflexivity|intros; reflexivity]).
Qed.
Lemma step_plain t s : ~ bracket t -> t <> hashhash -> 
  step (s, false) t = Some (s, match t with TIdent id => is_fn id | _ => false end).
Proof.
  intros Hb Hh. unfold step. destruct t; try reflexivity. cbn [is_punct].
  assert (E : forall q, bracket (TPunct (st q)) -> str_eqb p (st q) = false).
  { intros q Hq. destruct (str_eqb_spec p (st q)) as [->|]; easy. }
  assert (E2 : str_eqb p (st "##") = false). { destruct (str_eqb_spec p (st "##")) as [->|]; [now destruct Hh|easy]. }
  rewrite (E "("%string), (E ")"%string), (E "["%string), (E "]"%string), (E "{"%string), (E "}"%string), E2; [easy|..]; eexists; first [left; constructor|right; constructor].
Qed.

Lemma complete_run l : balanced l -> forall s, ~ In hashhash l ->
  (forall pre id post, l = pre ++ TIdent id :: post -> is_fn id = true -> exists rest, post = TPunct (st "(") :: rest) ->
  run_tokens (s, false) l = Some (s, false).
Proof.
  induction 1 as [|t l Ht Hl IH|o c inner l Hm Hi IHi Hl IH]; intros s Hh Hf; [easy| |].
  - cbn [run_tokens]. rewrite step_plain by (auto; intros ->; apply Hh; now left).
    assert (IH' : run_tokens (s, false) l = Some (s, false)).
    { apply IH; [intros Hx; apply Hh; now right|]. intros pre id post ->. apply (Hf (t :: pre)). easy. }
    destruct t; auto. destruct (is_fn id) eqn:Ei; [|easy].
    destruct (Hf [] id l eq_refl Ei) as [rest ->]. exact IH'.
  - destruct (step_open o c s false Hm (or_introl eq_refl)) as (q & Ho & Hc). cbn [app run_tokens]. rewrite Ho, run_app.
    rewrite IHi; [cbn [run_tokens]; rewrite Hc; apply IH|..].
    + intros Hx. apply Hh. right. apply in_app_iff. right. now right.
    + intros pre id post ->. apply (Hf (o :: inner ++ c :: pre)). simpl. now rewrite <- app_assoc.
    + intros Hx. apply Hh. right. apply in_app_iff. now left.
    + intros pre id post -> Hfn. destruct (Hf (o :: pre) id (post ++ c :: l)) as [rest E]; auto.
      { simpl. now rewrite <- app_assoc. }
      destruct post as [|x post]; simpl in E; [|injection E as -> _; now eexists].
      injection E as -> _. inversion Hm.
Qed.

Lemma good_complete l : complete (fun id => is_fn id = true) l -> good l.
Proof. intros (Hb & Hh & Hf). now apply complete_run. Qed.

(** ** Calls in good texts *)
Lemma collect_run it : forall q s0 fl y args cur,
  run_tokens (q ++ st "(" :: s0, fl) it = Some (y, false) -> length y <= length s0 ->
  run_tokens ([], false) (rev cur) = Some (q, fl) -> Forall good args ->
  exists args' rest, collect_loop q args cur it = Some (args', rest) /\
    run_tokens (s0, false) rest = Some (y, false) /\ Forall good args'.
Proof.
  induction it as [|t it IH]; intros q s0 fl y args cur Hr Hy Hc Ha.
  { simpl in Hr. injection Hr as <- _. rewrite app_length in Hy. simpl in Hy. lia. }
  cbn [run_tokens] in Hr. destruct (step (q ++ st "(" :: s0, fl) t) as [[s1 fl1]|] eqn:Es; [|discriminate].
  assert (Hpush : forall q' fl', step (q, fl) t = Some (q', fl') -> run_tokens (q' ++ st "(" :: s0, fl') it = Some (y, false) ->
    exists args' rest, collect_loop q' args (t :: cur) it = Some (args', rest) /\
    run_tokens (s0, false) rest = Some (y, false) /\ Forall good args').
  { intros q' fl' Eq Er. apply (IH q' s0 fl'); auto. cbn [rev]. rewrite run_app, Hc. cbn [run_tokens]. now rewrite Eq. }
  unfold step in Es. destruct (is_punct (st "(") t) eqn:E1.
  { destruct t; try discriminate. cbn [is_punct] in E1. cbn [collect_loop]. rewrite E1. injection Es as <- <-.
    apply (Hpush (st "(" :: q) false); [|easy]. unfold step. cbn [is_punct]. now rewrite E1. }
  destruct fl; [discriminate|].
  destruct t; try (cbn [collect_loop]; injection Es as <- <-; eapply Hpush; [reflexivity|exact Hr]).
  cbn [is_punct] in E1. cbn [collect_loop]. rewrite E1.
  assert (Hstep : forall x, step (x, false) (TPunct p) =
    if str_eqb p (st ")") then closes (st "(") x
    else if str_eqb p (st "[") then Some (st "[" :: x, false)
    else if str_eqb p (st "]") then closes (st "[") x
    else if str_eqb p (st "{") then Some (st "{" :: x, false)
    else if str_eqb p (st "}") then closes (st "{") x
    else if str_eqb p (st "##") then None else Some (x, false)).
  { intros x. unfold step. cbn [is_punct]. now rewrite E1. }
  specialize (Hstep q).
  destruct (str_eqb p (st ")")).
  { destruct q as [|z q]; cbn [app closes] in Es.
    - injection Es as <- <-. eexists _, it. split; [reflexivity|]. split; [easy|]. apply Forall_rev. constructor; auto.
    - unfold closes in Hstep. destruct (str_eqb z (st "(")) eqn:Ez; [|discriminate]. injection Es as <- <-. apply (Hpush q false); auto. }
  destruct (str_eqb p (st "[")). { injection Es as <- <-. apply (Hpush (st "[" :: q) false); auto. }
  destruct (str_eqb p (st "]")).
  { destruct q as [|z q]; cbn [app closes] in Es; [discriminate|].
    unfold closes in Hstep. destruct (str_eqb z (st "[")) eqn:Ez; [|discriminate]. injection Es as <- <-. apply (Hpush q false); auto. }
  destruct (str_eqb p (st "{")). { injection Es as <- <-. apply (Hpush (st "{" :: q) false); auto. }
  destruct (str_eqb p (st "}")).
  { destruct q as [|z q]; cbn [app closes] in Es; [discriminate|].
    unfold closes in Hstep. destruct (str_eqb z (st "{")) eqn:Ez; [|discriminate]. injection Es as <- <-. apply (Hpush q false); auto. }
  destruct (str_eqb p (st "##")); [discriminate|]. injection Es as <- <-.
  destruct (str_eqb p (st ",")); [|apply (Hpush q false); auto].
  destruct q as [|z q]; [|apply (Hpush (z :: q) false); auto].
  apply (IH [] s0 false); auto.
Qed.

Lemma collect_good s0 fl y text :
  peek_is (is_punct (st "(")) text = true -> run_tokens (s0, fl) text = Some (y, false) -> length y <= length s0 ->
  exists args rest, collect_args text = Some (args, rest) /\ run_tokens (s0, false) rest = Some (y, false) /\ Forall good args.
Proof.
  intros Hp Hr Hy. destruct text as [|t text]; [discriminate|]. simpl in Hp. destruct t; try discriminate. simpl in Hp.
  cbn [run_tokens] in Hr. unfold step in Hr. cbn [is_punct] in Hr. rewrite Hp in Hr.
  unfold collect_args. rewrite Hp. now apply (collect_run text [] s0 false y [] []).
Qed.

Lemma macro_of_fn id d : macro_of ms id = Some d -> function_like d -> is_fn id = true.
Proof.
  unfold macro_of, is_fn. destruct (sm_get (fn_macros ms) id); [easy|]. destruct (sm_get (var_macros ms) id); [|discriminate].
  simpl. intros E Hf. injection E as <-. exfalso. eapply Hf. reflexivity.
Qed.
Lemma macro_of_object id b : macro_of ms id = Some (Object b) -> is_fn id = false.
Proof.
  unfold macro_of, is_fn. destruct (sm_get (fn_macros ms) id) as [[ps b']|]; [|easy].
  destruct (tokenize_arg_names ps); discriminate.
Qed.
Lemma macro_of_is_macro id d : macro_of ms id = Some d -> is_macro id = true.
Proof.
  unfold macro_of, is_macro. destruct (sm_get (fn_macros ms) id); [easy|]. now destruct (sm_get (var_macros ms) id).
Qed.

Lemma run_ident x id l y : run_tokens x (TIdent id :: l) = Some y ->
  exists s, x = (s, false) /\ run_tokens (s, is_fn id) l = Some y.
Proof.
  destruct x as [s fl]. cbn [run_tokens]. unfold step. cbn [is_punct]. destruct fl; [discriminate|]. intros Hr. now exists s.
Qed.

Lemma good_leftmost hide l pre id d args post : good l -> leftmost (macro_of ms) hide l pre id d args post ->
  Forall good args /\ exists s, run_tokens ([], false) pre = Some (s, false) /\ run_tokens (s, false) post = Some ([], false).
Proof.
  intros Hl (text & -> & Hi & _). unfold good in Hl. rewrite run_app in Hl.
  destruct (run_tokens ([], false) pre) as [x|] eqn:Ep; [|discriminate].
  inversion Hi as [id' b post' Hn Hm|id' d' text' args' post' Hn Hm Hf Hc]; subst.
  - apply run_ident in Hl. destruct Hl as (s & -> & Hl). rewrite (macro_of_object _ _ Hm) in Hl. split; [constructor|].
    now exists s.
  - apply run_ident in Hl. destruct Hl as (s & -> & Hl).
    destruct (collect_good s (is_fn id) [] text') as (args2 & rest2 & Hc2 & Hr2 & Hg); auto.
    + destruct Hc as (_ & _ & ->). reflexivity.
    + simpl. lia.
    + apply collect_args_iff in Hc. rewrite Hc in Hc2. injection Hc2 as <- <-. split; [easy|]. now exists s.
Qed.

(** Marking. *)
Lemma mark_ident hide t : mark hide t = t \/ exists id, t = TIdent id /\ mark hide t = TNonRepl t.
Proof. destruct t; auto. simpl. destruct (in_dec (list_eq_dec N.eq_dec) id hide); [right; now exists id|now left]. Qed.

Lemma mark_run hide l : forall s fl fl' s' r, run_tokens (s, fl) l = Some (s', r) -> (fl' = true -> fl = true) ->
  exists r', run_tokens (s, fl') (map (mark hide) l) = Some (s', r') /\ (r' = true -> r = true).
Proof.
  induction l as [|t l IH]; intros s fl fl' s' r Hr Hfl.
  - simpl in Hr. injection Hr as <- <-. now exists fl'.
  - cbn [run_tokens] in Hr. destruct (step (s, fl) t) as [[s1 fl1]|] eqn:E; [|discriminate]. cbn [map run_tokens].
    assert (Hs : exists fl1', step (s, fl') (mark hide t) = Some (s1, fl1') /\ (fl1' = true -> fl1 = true)).
    { unfold step in E |- *. destruct (mark_ident hide t) as [-> | (id & -> & ->)].
      - destruct (is_punct (st "(") t). { injection E as <- <-. now exists false. }
        destruct fl; [discriminate|]. destruct fl'; [now discriminate Hfl|]. exists fl1. auto.
      - cbn [is_punct] in *. destruct fl; [discriminate|]. destruct fl'; [now discriminate Hfl|]. 
        injection E as <- <-. exists false. split; [easy|discriminate]. }
    destruct Hs as (fl1' & -> & Hf1). now apply (IH _ fl1).
Qed.
Lemma mark_run_false hide l s s' : run_tokens (s, false) l = Some (s', false) ->
  run_tokens (s, false) (map (mark hide) l) = Some (s', false).
Proof.
  intros Hr. destruct (mark_run hide l s false false s' false Hr) as (r' & -> & Hr'); [discriminate|].
  destruct r'; [now discriminate Hr'|easy].
Qed.

(** Results: no name in them is a macro, or excluded. *)
Definition settled (hide : list str) (e : list token) : Prop :=
  forall id, In (TIdent id) e -> is_macro id = false /\ ~ In id hide.

Lemma good_no_invocation hide l : good l -> no_invocation (macro_of ms) hide l -> settled hide (map (mark hide) l).
Proof.
  intros Hl Hn id Hi. apply in_map_iff in Hi. destruct Hi as (t & Ht & Hi).
  assert (E : t = TIdent id /\ ~ In id hide).
  { destruct t; try discriminate Ht. simpl in Ht. destruct (in_dec (list_eq_dec N.eq_dec) id0 hide); [discriminate|]. now injection Ht as ->. }
  destruct E as [-> Hh]. split; [|easy]. destruct (is_macro id) eqn:Em; [|easy]. exfalso.
  apply in_split in Hi. destruct Hi as (p & q & ->). unfold good in Hl. rewrite run_app in Hl.
  destruct (run_tokens ([], false) p) as [x|]; [|discriminate]. apply run_ident in Hl. destruct Hl as (s & _ & Hl).
  destruct (macro_of ms id) as [d|] eqn:Ed.
  2:{ unfold macro_of, is_macro in *. destruct (sm_get (fn_macros ms) id) as [[? ?]|]; [discriminate|]. now destruct (sm_get (var_macros ms) id). }
  destruct (is_fn id) eqn:Ef.
  - destruct q as [|t q]; [discriminate|]. assert (Hp : is_punct (st "(") t = true).
    { cbn [run_tokens step] in Hl. now destruct (is_punct (st "(") t). }
    destruct (collect_good s true [] (t :: q)) as (args & rest & Hc & _); auto. { simpl. lia. }
    apply collect_args_iff in Hc. eapply (Hn p _ eq_refl). eapply iv_function; eauto.
    intros b ->. now rewrite (macro_of_object _ _ Ed) in Ef.
  - destruct d as [b|k v b|e].
    + eapply (Hn p _ eq_refl). eapply iv_object; eauto.
    + rewrite (macro_of_fn _ _ Ed) in Ef; [discriminate|]. intros b0. discriminate.
    + rewrite (macro_of_fn _ _ Ed) in Ef; [discriminate|]. intros b0. discriminate.
Qed.

(** ** The bodies are written out too *)
Hypothesis Hvar : forall id b, sm_get (var_macros ms) id = Some b -> good (tokenize [] b).
Hypothesis Hfn : forall id ps b an, sm_get (fn_macros ms) id = Some (ps, b) -> tokenize_arg_names ps = ROk an -> good (tokenize an b).
Hypothesis Hline : is_fn (st "__LINE__") = false /\ is_fn (st "__FILE__") = false.

Lemma stringify_neutral n l : Forall neutral (stringify n l).
Proof.
  assert (Hk : forall l kept cur sp, Forall neutral kept -> Forall neutral (fst (stringify_loop n kept cur sp l))).
  { clear l. induction l as [|t l IH]; intros kept cur sp Hkept; [easy|]. cbn [stringify_loop].
    destruct (token_stringify n t) as [| |tok] eqn:Et; auto. apply IH. constructor; [|constructor; [now intros|easy]].
    intros s. destruct t; cbn [token_stringify] in Et; try discriminate; try reflexivity.
    destruct n; [|discriminate]. cbn [andb] in Et.
    destruct (str_eqb_spec id (st "__LINE__")) as [->|_]; [unfold step; cbn [is_punct]; now rewrite (proj1 Hline)|].
    destruct (str_eqb_spec id (st "__FILE__")) as [->|_]; [unfold step; cbn [is_punct]; now rewrite (proj2 Hline)|]. discriminate. }
  unfold stringify. specialize (Hk l [] None false (Forall_nil _)). destruct (stringify_loop n [] None false l) as [kept cur].
  cbn [fst] in Hk. assert (Hl : Forall neutral (rev kept ++ match cur with Some s => [TLit (LString (SOrdinary (utf8_encode s))) (debug_str s)] | None => [] end)).
  { apply Forall_app. split; [now apply Forall_rev|]. destruct cur; repeat constructor. }
  destruct (rev kept ++ _); [repeat constructor|easy].
Qed.

Definition keeps_good (rec : list str -> list token -> res xerr (list token)) : Prop :=
  forall hide l e, good l -> rec hide l = ROk e -> good e /\ settled hide e.

Lemma argument_good k args t a : Forall good args -> argument_of k args t = Some a -> good a.
Proof.
  intros Hg Ha. assert (Hj : forall l, Forall good l -> good (join_args l)).
  { clear. induction l as [|x l IH]; intros Hl; [reflexivity|]. inversion Hl; subst. destruct l as [|y l]; [easy|].
    cbn [join_args]. apply good_app; [easy|]. change (TPunct (st ",") :: ?u) with ([TPunct (st ",")] ++ u).
    apply good_app; [reflexivity|]. apply IH. easy. }
  assert (Hs : forall n, match k with O => None | S n => if Nat.leb n (length args) then Some (join_args (skipn n args)) else None end = Some a -> n = 0 -> good a).
  { intros _ E _. destruct k as [|n]; [discriminate|]. destruct (Nat.leb n (length args)); [|discriminate]. injection E as <-.
    apply Hj. rewrite <- (firstn_skipn n args) in Hg. now apply Forall_app in Hg. }
  destruct t; try (now apply (Hs 0)). simpl in Ha. apply nth_error_In in Ha. rewrite Forall_forall in Hg. now apply Hg.
Qed.

Lemma arguments_good rec hide k args : keeps_good rec -> Forall good args -> forall it acc s x y,
  expand_arguments_loop rec hide k args acc it = ROk s -> run_tokens ([], false) (rev acc) = Some x -> run_tokens x it = Some y ->
  run_tokens ([], false) s = Some y.
Proof.
  intros Hrec Hargs. induction it as [|t it IH]; intros acc s x y He Hacc Hit.
  { cbn [expand_arguments_loop] in He. injection He as <-. simpl in Hit. congruence. }
  cbn [expand_arguments_loop] in He. cbn [run_tokens] in Hit. destruct (step x t) as [z|] eqn:Es; [|discriminate].
  assert (Hpush : run_tokens ([], false) (rev (t :: acc)) = Some z).
  { cbn [rev]. rewrite run_app, Hacc. cbn [run_tokens]. now rewrite Es. }
  destruct (is_punct (st "#") t) eqn:Eh.
  { destruct (peek_is is_arg_token it); [|discriminate]. eapply IH; eauto. }
  destruct (is_arg_token t) eqn:Ea; [|eapply IH; eauto].
  assert (Ez : exists q, x = (q, false) /\ z = (q, false)).
  { destruct x as [q fl]. unfold step in Es. destruct t; try discriminate Ea; cbn [is_punct] in Es;
      (destruct fl; [discriminate|]; injection Es as <-; now exists q). }
  destruct Ez as (q & -> & ->). clear Es Hpush.
  destruct (argument_of k args t) as [a|] eqn:Eo; [|discriminate]. pose proof (argument_good _ _ _ _ Hargs Eo) as Hga.
  assert (Happ : forall e acc', good e -> run_tokens ([], false) (rev acc') = Some (q, false) ->
    run_tokens ([], false) (rev (rev e ++ acc')) = Some (q, false)).
  { intros e acc' Hge Hacc'. rewrite rev_app_distr, rev_involutive, run_app, Hacc'. now apply good_anywhere. }
  destruct (peek_is (is_punct (st "#")) acc) eqn:Ep.
  { eapply IH; eauto. apply Happ; [apply good_neutral, stringify_neutral|].
    destruct acc as [|u acc]; [discriminate|]. cbn [peek_is] in Ep. cbn [tl]. destruct u; try discriminate Ep. cbn [is_punct] in Ep.
    destruct (str_eqb_spec p (st "#")) as [->|]; [|discriminate]. cbn [rev] in Hacc. rewrite run_app in Hacc.
    destruct (run_tokens ([], false) (rev acc)) as [[u fl]|]; [|discriminate]. cbn [run_tokens] in Hacc.
    unfold step in Hacc. cbn in Hacc. destruct fl; [discriminate|]. exact Hacc. }
  assert (Hplace : run_tokens ([], false) (rev (TPlacemarker :: acc)) = Some (q, false)).
  { cbn [rev]. rewrite run_app, Hacc. reflexivity. }
  destruct (_ || _).
  - destruct (rec hide a) as [e| | |] eqn:Er; try discriminate. cbn [rbind] in He. destruct (Hrec _ _ _ Hga Er) as [Hge _].
    destruct e as [|u e]; eapply IH; eauto.
  - destruct (rec hide a) as [e| | |] eqn:Er; try discriminate. cbn [rbind] in He. destruct (Hrec _ _ _ Hga Er) as [Hge _].
    eapply IH; eauto.
Qed.

Lemma concat_plain it : forall acc, ~ In hashhash it -> concat_loop None acc it = ROk (rev acc ++ it).
Proof.
  induction it as [|t it IH]; intros acc Hn; cbn [concat_loop]; [now rewrite app_nil_r|].
  assert (E : is_punct (st "##") t = false).
  { destruct t; try easy. cbn [is_punct]. destruct (str_eqb_spec p (st "##")) as [->|]; [|easy]. exfalso. apply Hn. now left. }
  rewrite E. cbn [andb]. rewrite IH; [simpl; now rewrite <- app_assoc|]. intros Hi. apply Hn. now right.
Qed.

Lemma remove_good l : forall x y, run_tokens x l = Some y -> run_tokens x (remove_placemarkers l) = Some y.
Proof.
  induction l as [|t l IH]; intros x y Hr; [easy|]. cbn [run_tokens] in Hr. destruct (step x t) as [z|] eqn:E; [|discriminate].
  unfold remove_placemarkers. cbn [filter]. destruct (is_placemarker t) eqn:Ep; cbn [negb].
  - apply IH in Hr. destruct t; try discriminate. destruct x as [s fl]. unfold step in E. cbn [is_punct] in E. destruct fl; [discriminate|].
    now injection E as <-.
  - cbn [run_tokens]. rewrite E. now apply IH.
Qed.

(** What an invocation is replaced by. *)
Lemma replacement_form id args : is_macro id = true ->
  (exists r, r <> RFuel /\ (forall a, r <> ROk a) /\ forall rec hide, replacement_of ms rec hide id args = r) \/
  (exists b, good b /\ forall rec hide, replacement_of ms rec hide id args = concat_and_rescan rec hide id b) \/
  (exists k b, good b /\ forall rec hide, replacement_of ms rec hide id args =
     (s <- expand_arguments_loop rec hide k args [] b ;; concat_and_rescan rec hide id s)).
Proof.
  intros Hm. unfold replacement_of, is_macro in *. destruct (sm_get (fn_macros ms) id) as [[ps b]|] eqn:Ef.
  - destruct (tokenize_arg_names_res ps) as [[an Ea]|[e Ea]]; rewrite Ea; cbn [rbind].
    2:{ left. exists (RErr e). repeat split; discriminate. }
    pose proof (Hfn _ _ _ _ Ef Ea) as Hb. unfold expand_fn_macro_body. destruct (_ && _).
    { left. eexists. repeat split; discriminate. }
    destruct (if negb _ then _ else None). { left. eexists. repeat split; discriminate. }
    destruct (first_duplicate _). { left. eexists. repeat split; discriminate. }
    right. right. eexists _, _. split; [exact Hb|]. intros. reflexivity.
  - destruct (sm_get (var_macros ms) id) as [b|] eqn:Ev; [|discriminate]. unfold expand_var_macro_body.
    destruct (contains_var_args _). { left. eexists. repeat split; discriminate. }
    right. left. eexists. split; [exact (Hvar _ _ Ev)|]. intros. reflexivity.
Qed.

Lemma rescan_good rec hide id b : good b ->
  concat_and_rescan rec hide id b = rec (set_insert id hide) (remove_placemarkers b) /\ good (remove_placemarkers b).
Proof.
  intros Hb. split; [|now apply remove_good]. unfold concat_and_rescan, expand_concat.
  rewrite concat_plain; [easy|]. eapply not_hashhash. exact Hb.
Qed.

Lemma settled_less id hide e : settled (set_insert id hide) e -> settled hide e.
Proof.
  intros Hs i Hi. destruct (Hs i Hi) as [H1 H2]. split; [easy|]. intros Hx. apply H2. rewrite set_insert_In. now right.
Qed.

Lemma replacement_good rec hide id args e : keeps_good rec -> is_macro id = true -> Forall good args ->
  replacement_of ms rec hide id args = ROk e -> good e /\ settled hide e.
Proof.
  intros Hrec Hm Hargs He.
  destruct (replacement_form id args Hm) as [(r & _ & Hr & E)|[(b & Hb & E)|(k & b & Hb & E)]]; rewrite E in He.
  - now destruct (Hr e).
  - destruct (rescan_good rec hide id b Hb) as [E2 Hg]. rewrite E2 in He. apply Hrec in He; [|easy].
    destruct He. split; [easy|]. eapply settled_less; eauto.
  - destruct (expand_arguments_loop rec hide k args [] b) as [s| | |] eqn:Es; try discriminate. cbn [rbind] in He.
    assert (Hs : good s) by (eapply (arguments_good rec hide k args Hrec Hargs b [] s); eauto; reflexivity).
    destruct (rescan_good rec hide id s Hs) as [E2 Hg]. rewrite E2 in He. apply Hrec in He; [|easy].
    destruct He. split; [easy|]. eapply settled_less; eauto.
Qed.

Lemma leftmost_macro hide l pre id d args post : leftmost (macro_of ms) hide l pre id d args post -> is_macro id = true /\ ~ In id hide.
Proof.
  intros (text & _ & Hi & _). inversion Hi; subst; eauto using macro_of_is_macro.
Qed.

Lemma after_good hide l pre id d args post e : good l -> leftmost (macro_of ms) hide l pre id d args post -> good e ->
  good (map (mark hide) pre ++ e ++ post).
Proof.
  intros Hl Hlm He. destruct (good_leftmost _ _ _ _ _ _ _ Hl Hlm) as (_ & s & Hp & Hq). unfold good.
  rewrite !run_app, (mark_run_false _ _ _ _ Hp), run_app, good_anywhere by easy. exact Hq.
Qed.

Lemma expand_keeps f : keeps_good (expand_macro_body ms f).
Proof.
  induction f as [|f IH]; intros hide l e Hl He; [discriminate|]. cbn [expand_macro_body] in He.
  destruct (scan_leftmost ms Hexcl (expand_macro_body ms f) hide l []) as [[Hn E]|(pre & id & d & args & post & Hlm & _ & E)];
    rewrite E in He.
  - injection He as <-. cbn [rev app]. split; [now apply mark_run_false|now apply good_no_invocation].
  - cbn [rev app] in He. destruct (replacement_of ms _ hide id args) as [x| | |] eqn:Ex; try discriminate. cbn [rbind] in He.
    destruct (good_leftmost _ _ _ _ _ _ _ Hl Hlm) as (Hargs & _). destruct (leftmost_macro _ _ _ _ _ _ _ Hlm).
    destruct (replacement_good _ _ _ _ _ IH H0 Hargs Ex) as [Hx _].
    eapply IH; [exact (after_good _ _ _ _ _ _ _ _ Hl Hlm Hx)|exact He].
Qed.

(** ** Termination *)
Definition domain : list str := map fst (fn_macros ms) ++ map fst (var_macros ms).
Lemma sm_get_In {V} (m : smap V) k v : sm_get m k = Some v -> In k (map fst m).
Proof.
  induction m as [|[k' v'] m IH]; simpl; [discriminate|]. destruct (str_eqb_spec k k') as [->|]; [now left|]. intros E. right. auto.
Qed.
Lemma is_macro_domain id : is_macro id = true -> In id domain.
Proof.
  unfold is_macro, domain. rewrite in_app_iff. destruct (sm_get (fn_macros ms) id) eqn:E; [left; now apply sm_get_In in E|].
  destruct (sm_get (var_macros ms) id) eqn:E2; [|discriminate]. right. now apply sm_get_In in E2.
Qed.

Definition left_over (hide : list str) : nat := length (filter (fun n => negb (str_mem n hide)) domain).
Lemma filter_less {A} (f g : A -> bool) l a : (forall x, g x = true -> f x = true) -> In a l -> f a = true -> g a = false ->
  length (filter g l) < length (filter f l).
Proof.
  intros Hfg. assert (Hle : forall l, length (filter g l) <= length (filter f l)).
  { clear l. induction l as [|x l IH]; simpl; [lia|]. specialize (Hfg x). destruct (g x), (f x); simpl; try lia; now discriminate Hfg. }
  induction l as [|x l IH]; intros Hi Hf Hg; [easy|]. simpl. destruct Hi as [->|Hi].
  - rewrite Hf, Hg. simpl. specialize (Hle l). lia.
  - specialize (IH Hi Hf Hg). specialize (Hfg x). destruct (g x), (f x); simpl; try lia; now discriminate Hfg.
Qed.
Lemma left_over_less id hide : is_macro id = true -> ~ In id hide -> left_over (set_insert id hide) < left_over hide.
Proof.
  intros Hm Hn. unfold left_over. apply filter_less with (a := id).
  - intros x Hx. apply negb_true_iff in Hx. apply negb_true_iff. apply str_mem_not_In. apply str_mem_not_In in Hx.
    intros Hi. apply Hx. rewrite set_insert_In. now right.
  - now apply is_macro_domain.
  - apply negb_true_iff. now apply str_mem_not_In.
  - apply negb_false_iff. apply str_mem_In. rewrite set_insert_In. now left.
Qed.

Definition is_active (hide : list str) (t : token) : bool :=
  match t with TIdent id => is_macro id && negb (str_mem id hide) | _ => false end.
Definition active (hide : list str) (l : list token) : nat := length (filter (is_active hide) l).
Lemma active_app hide a b : active hide (a ++ b) = active hide a + active hide b.
Proof. unfold active. now rewrite filter_app, app_length. Qed.
Lemma active_cons hide t l : active hide (t :: l) = active hide [t] + active hide l.
Proof. apply (active_app hide [t]). Qed.
Lemma active_mark hide l : active hide (map (mark hide) l) <= active hide l.
Proof.
  induction l as [|t l IH]; [easy|]. cbn [map]. rewrite active_cons, (active_cons hide t).
  assert (active hide [mark hide t] <= active hide [t]); [|lia].
  destruct (mark_ident hide t) as [-> | (id & -> & ->)]; [easy|]. unfold active. simpl. lia.
Qed.
Lemma active_settled hide e : settled hide e -> active hide e = 0.
Proof.
  intros Hs. unfold active. assert (E : filter (is_active hide) e = []); [|now rewrite E].
  induction e as [|t e IH]; [easy|]. simpl. rewrite IH by (intros i Hi; apply Hs; now right).
  destruct t; try easy. cbn [is_active]. destruct (Hs id) as [E _]; [now left|]. now rewrite E.
Qed.
Lemma active_join hide l : active hide (join_args l) = active hide (comma_separated l).
Proof. f_equal. Qed.
Lemma active_commas hide l : active hide (comma_separated l) = list_sum (map (active hide) l).
Proof.
  induction l as [|a l IH]; [easy|]. destruct l as [|b l]; [simpl; lia|]. change (comma_separated (a :: b :: l)) with (a ++ comma :: comma_separated (b :: l)).
  rewrite active_app, active_cons, IH. change (active hide [comma]) with 0. simpl. lia.
Qed.

Lemma argument_active hide k args t a : argument_of k args t = Some a -> active hide a <= active hide (comma_separated args).
Proof.
  rewrite active_commas. intros Ha.
  assert (Hs : match k with O => None | S n => if Nat.leb n (length args) then Some (join_args (skipn n args)) else None end = Some a ->
    active hide a <= list_sum (map (active hide) args)).
  { destruct k as [|n]; [discriminate|]. destruct (Nat.leb n (length args)); [|discriminate]. intros E. injection E as <-.
    rewrite active_join, active_commas. rewrite <- (firstn_skipn n args) at 2. rewrite map_app, list_sum_app. lia. }
  destruct t; try (now apply Hs). simpl in Ha. apply nth_error_split in Ha. destruct Ha as (l1 & l2 & -> & _).
  rewrite map_app, list_sum_app. simpl. lia.
Qed.

Lemma leftmost_active hide l pre id d args post : leftmost (macro_of ms) hide l pre id d args post ->
  active hide pre + active hide (comma_separated args) + active hide post < active hide l.
Proof.
  intros Hlm. destruct (leftmost_macro _ _ _ _ _ _ _ Hlm) as [Hm Hn]. destruct Hlm as (text & -> & Hi & _).
  assert (E : active hide [TIdent id] = 1).
  { unfold active. cbn [filter is_active]. rewrite Hm. apply str_mem_not_In in Hn. now rewrite Hn. }
  rewrite active_app. inversion Hi as [id' b post' _ _|id' d' text' args' post' _ _ _ (_ & _ & ->)]; subst; rewrite active_cons, E.
  - cbn [comma_separated]. change (active hide []) with 0. lia.
  - rewrite active_cons. change (active hide [TPunct (st "(")]) with 0. rewrite active_app, (active_cons hide (TPunct (st ")"))).
    change (active hide [TPunct (st ")")]) with 0. lia.
Qed.

Lemma arguments_end rec hide k args : (forall t a, argument_of k args t = Some a -> rec hide a <> RFuel) -> forall it acc,
  expand_arguments_loop rec hide k args acc it <> RFuel.
Proof.
  intros Hr. induction it as [|t it IH]; intros acc; cbn [expand_arguments_loop]; [discriminate|].
  destruct (is_punct (st "#") t). { destruct (peek_is is_arg_token it); [apply IH|discriminate]. }
  destruct (is_arg_token t); [|apply IH]. destruct (argument_of k args t) as [a|] eqn:E; [|discriminate].
  destruct (peek_is (is_punct (st "#")) acc); [apply IH|]. specialize (Hr t a E).
  destruct (_ || _); destruct (rec hide a) as [e| | |]; cbn [rbind]; try apply IH; try discriminate; easy.
Qed.

Lemma le_found {E A} (r1 r2 : res E A) : le_res r1 r2 -> r1 <> RFuel -> r2 = r1.
Proof. now intros [-> | ->]. Qed.
Lemma more_fuel f f' hide l : f <= f' -> expand_macro_body ms f hide l <> RFuel ->
  expand_macro_body ms f' hide l = expand_macro_body ms f hide l.
Proof. intros Hf Hn. apply le_found; [now apply expand_macro_body_le|easy]. Qed.
Lemma more_arguments f f' hide k args acc it : f <= f' -> expand_arguments_loop (expand_macro_body ms f) hide k args acc it <> RFuel ->
  expand_arguments_loop (expand_macro_body ms f') hide k args acc it = expand_arguments_loop (expand_macro_body ms f) hide k args acc it.
Proof. intros Hf Hn. apply le_found; [|easy]. apply expand_arguments_loop_le. intros. now apply expand_macro_body_le. Qed.

Lemma all_end hide L : (forall a, In a L -> exists F, expand_macro_body ms F hide a <> RFuel) ->
  exists F, forall a, In a L -> expand_macro_body ms F hide a <> RFuel.
Proof.
  induction L as [|a L IH]; intros Hl; [now exists 0|]. destruct IH as [F HF]. { intros x Hx. apply Hl. now right. }
  destruct (Hl a) as [G HG]; [now left|]. exists (max F G). intros x [->|Hx].
  - rewrite (more_fuel G); [easy|lia|easy].
  - specialize (HF x Hx). rewrite (more_fuel F); [easy|lia|easy].
Qed.

Lemma good_ends n : forall hide, left_over hide < n -> forall k l, active hide l < k -> good l ->
  exists F, expand_macro_body ms F hide l <> RFuel.
Proof.
  induction n as [|n IHn]; intros hide Hn; [lia|]. induction k as [|k IHk]; intros l Hk Hl; [lia|].
  destruct (scan_leftmost ms Hexcl (expand_macro_body ms 0) hide l []) as [[Hno _]|(pre & id & d & args & post & Hlm & _ & _)].
  { exists 1. cbn [expand_macro_body]. rewrite (scan_no_invocation ms Hexcl) by easy. discriminate. }
  destruct (good_leftmost _ _ _ _ _ _ _ Hl Hlm) as (Hargs & _). destruct (leftmost_macro _ _ _ _ _ _ _ Hlm) as [Hm Hni].
  pose proof (leftmost_active _ _ _ _ _ _ _ Hlm) as Hact.
  pose proof (left_over_less id hide Hm Hni) as Hlo.
  (* the invocation is replaced *)
  assert (Hre : exists F, replacement_of ms (expand_macro_body ms F) hide id args <> RFuel).
  { destruct (replacement_form id args Hm) as [(r & Hr & _ & E)|[(b & Hb & E)|(m & b & Hb & E)]].
    - exists 0. now rewrite E.
    - destruct (IHn (set_insert id hide) ltac:(lia) _ (remove_placemarkers b) (Nat.lt_succ_diag_r _)) as [F HF].
      { now apply (rescan_good (expand_macro_body ms 0) hide id). }
      exists F. rewrite E. now rewrite (proj1 (rescan_good (expand_macro_body ms F) hide id b Hb)).
    - set (L := args ++ match m with S i => [join_args (skipn i args)] | O => [] end).
      assert (HL : forall a, In a L -> exists t, argument_of m args t = Some a \/ (exists i, m = S i /\ Nat.leb i (length args) = false /\ a = join_args (skipn i args))).
      { intros a Ha. unfold L in Ha. apply in_app_iff in Ha. destruct Ha as [Ha|Ha].
        - apply In_nth_error in Ha. destruct Ha as [i Hi]. exists (TArg i). now left.
        - destruct m as [|i]; [easy|]. destruct Ha as [<-|[]]. exists TVarArgs. destruct (Nat.leb i (length args)) eqn:El.
          + left. simpl. now rewrite El.
          + right. now exists i. }
      destruct (all_end hide L) as [F HF].
      { intros a Ha. destruct (HL a Ha) as (t & [Ht|(i & -> & Hi & ->)]).
        - apply (IHk a); [|eapply argument_good; eauto]. pose proof (argument_active hide _ _ _ _ Ht). lia.
        - apply Nat.leb_gt in Hi. rewrite skipn_all2 by lia. exists 1. discriminate. }
      assert (Hen : expand_arguments_loop (expand_macro_body ms F) hide m args [] b <> RFuel).
      { apply arguments_end. intros t a Ha. apply HF. unfold L. apply in_app_iff.
        assert (Hs : match m with O => None | S n => if Nat.leb n (length args) then Some (join_args (skipn n args)) else None end = Some a ->
          In a (match m with S i => [join_args (skipn i args)] | O => [] end)).
        { destruct m as [|i]; [discriminate|]. destruct (Nat.leb i (length args)); [|discriminate]. intros X. injection X as <-. now left. }
        destruct t; try (right; now apply Hs). left. simpl in Ha. now apply nth_error_In in Ha. }
      destruct (expand_arguments_loop (expand_macro_body ms F) hide m args [] b) as [s|e| |] eqn:Es; try easy.
      2,3: exists F; rewrite E, Es; discriminate.
      assert (Hs : good s) by (eapply (arguments_good _ hide m args (expand_keeps F) Hargs b [] s); eauto; reflexivity).
      destruct (rescan_good (expand_macro_body ms F) hide id s Hs) as [_ Hg].
      destruct (IHn (set_insert id hide) ltac:(lia) _ (remove_placemarkers s) (Nat.lt_succ_diag_r _) Hg) as [G HG].
      exists (max F G). rewrite E. rewrite (more_arguments F); [|lia|rewrite Es; discriminate]. rewrite Es. cbn [rbind].
      rewrite (proj1 (rescan_good (expand_macro_body ms (max F G)) hide id s Hs)).
      rewrite (more_fuel G); [easy|lia|easy]. }
  destruct Hre as [F HF].
  assert (Hmore : forall f, F <= f -> replacement_of ms (expand_macro_body ms f) hide id args = replacement_of ms (expand_macro_body ms F) hide id args).
  { intros f Hf. apply le_found; [|easy]. unfold replacement_of. destruct (sm_get (fn_macros ms) id) as [[ps b]|].
    - apply le_bind; [apply le_refl|]. intros an _. apply expand_fn_macro_body_le. intros. now apply expand_macro_body_le.
    - destruct (sm_get (var_macros ms) id); [|now left]. apply expand_var_macro_body_le. intros. now apply expand_macro_body_le. }
  destruct (replacement_of ms (expand_macro_body ms F) hide id args) as [e|e| |] eqn:Er; try easy.
  - destruct (replacement_good _ _ _ _ _ (expand_keeps F) Hm Hargs Er) as [Hge Hse].
    destruct (IHk (map (mark hide) pre ++ e ++ post)) as [G HG].
    + rewrite !active_app, (active_settled _ _ Hse). pose proof (active_mark hide pre). lia.
    + exact (after_good _ _ _ _ _ _ _ _ Hl Hlm Hge).
    + exists (S (max F G)). cbn [expand_macro_body]. rewrite (scan_at_leftmost ms Hexcl _ _ _ _ _ _ _ _ Hlm).
      rewrite Hmore by lia. cbn [rbind]. rewrite (more_fuel G); [easy|lia|easy].
  - exists (S F). cbn [expand_macro_body]. rewrite (scan_at_leftmost ms Hexcl _ _ _ _ _ _ _ _ Hlm), Er. discriminate.
  - exists (S F). cbn [expand_macro_body]. rewrite (scan_at_leftmost ms Hexcl _ _ _ _ _ _ _ _ Hlm), Er. discriminate.
Qed.

Lemma good_terminates hide l : good l -> exists F, forall f, F <= f -> 
  expand_macro_body ms f hide l = expand_macro_body ms F hide l /\ expand_macro_body ms F hide l <> RFuel.
Proof.
  intros Hl. destruct (good_ends _ hide (Nat.lt_succ_diag_r _) _ l (Nat.lt_succ_diag_r _) Hl) as [F HF].
  exists F. intros f Hf. split; [|easy]. now apply more_fuel.
Qed.

(** ** The parts of a text are expanded independently *)
Lemma settled_scan rec hide p : settled hide p -> forall acc l,
  scan ms rec hide acc (p ++ l) = scan ms rec hide (rev p ++ acc) l.
Proof.
  induction p as [|t p IH]; intros Hs acc l; [easy|].
  assert (E : scan ms rec hide acc (t :: p ++ l) = scan ms rec hide (t :: acc) (p ++ l)).
  { destruct t; try reflexivity. destruct (Hs id) as [Hm Hn]; [now left|]. cbn [scan].
    apply str_mem_not_In in Hn. rewrite Hn. unfold is_macro in Hm.
    destruct (sm_get (fn_macros ms) id); [discriminate|]. destruct (sm_get (var_macros ms) id); [discriminate|].
    now destruct (peek_is _ _). }
  cbn [app]. rewrite E, IH by (intros i Hi; apply Hs; now right). cbn [rev]. now rewrite <- app_assoc.
Qed.

Lemma scan_prefix rec hide p : (forall l, rec hide (p ++ l) = rmap (app p) (rec hide l)) -> forall l acc,
  scan ms rec hide (acc ++ rev p) l = rmap (app p) (scan ms rec hide acc l).
Proof.
  intros Hrec. induction l as [|t l IH]; intros acc.
  { cbn [scan rmap]. now rewrite rev_app_distr, rev_involutive. }
  assert (Hk : forall u, scan ms rec hide (u :: acc ++ rev p) l = rmap (app p) (scan ms rec hide (u :: acc) l)).
  { intros u. apply (IH (u :: acc)). }
  assert (Hb : forall (r : res xerr (list token)) rest,
    (e <- r ;; rec hide (rev (acc ++ rev p) ++ e ++ rest)) = rmap (app p) (e <- r ;; rec hide (rev acc ++ e ++ rest))).
  { intros r rest. destruct r; cbn [rbind rmap]; [|easy..]. now rewrite rev_app_distr, rev_involutive, <- app_assoc, Hrec. }
  destruct t; cbn [scan]; try apply Hk. destruct (str_mem id hide); [apply Hk|].
  assert (Hv : match sm_get (var_macros ms) id with
      | Some body => e <- expand_var_macro_body rec hide id (tokenize [] body) ;; rec hide (rev (acc ++ rev p) ++ e ++ l)
      | None => scan ms rec hide (TIdent id :: acc ++ rev p) l end =
    rmap (app p) match sm_get (var_macros ms) id with
      | Some body => e <- expand_var_macro_body rec hide id (tokenize [] body) ;; rec hide (rev acc ++ e ++ l)
      | None => scan ms rec hide (TIdent id :: acc) l end).
  { destruct (sm_get (var_macros ms) id); [apply Hb|apply Hk]. }
  destruct (peek_is _ l); [|exact Hv]. destruct (sm_get (fn_macros ms) id) as [[ps b]|]; [|exact Hv].
  destruct (collect_args l) as [[args rest]|]; [|exact Hv].
  destruct (tokenize_arg_names ps); cbn [rbind rmap]; first [apply Hb|easy].
Qed.

Lemma expand_settled hide p : settled hide p -> forall f l,
  expand_macro_body ms f hide (p ++ l) = rmap (app p) (expand_macro_body ms f hide l).
Proof.
  intros Hs. induction f as [|f IH]; intros l; [easy|]. cbn [expand_macro_body].
  rewrite (settled_scan _ hide p Hs [] l). rewrite app_nil_r. exact (scan_prefix _ hide p IH l []).
Qed.

Lemma no_invocation_scan rec hide l1 : good l1 -> no_invocation (macro_of ms) hide l1 -> forall acc l2,
  scan ms rec hide acc (l1 ++ l2) = scan ms rec hide (rev (map (mark hide) l1) ++ acc) l2.
Proof.
  intros Hg Hn. pose proof (good_no_invocation hide l1 Hg Hn) as Hs. clear Hg Hn.
  induction l1 as [|t l1 IH]; intros acc l2; [easy|].
  assert (E : scan ms rec hide acc (t :: l1 ++ l2) = scan ms rec hide (mark hide t :: acc) (l1 ++ l2)).
  { destruct t; try reflexivity. rewrite mark_paint. cbn [scan paint]. destruct (str_mem id hide) eqn:Em; [easy|].
    destruct (Hs id) as [Hm _]. { cbn [map]. rewrite mark_paint. cbn [paint]. rewrite Em. now left. }
    unfold is_macro in Hm. destruct (sm_get (fn_macros ms) id); [discriminate|]. destruct (sm_get (var_macros ms) id); [discriminate|].
    now destruct (peek_is _ _). }
  cbn [app map]. rewrite E, IH by (intros i Hi; apply Hs; now right). cbn [rev]. now rewrite <- app_assoc.
Qed.

Lemma leftmost_app hide l1 l2 pre id d args post : leftmost (macro_of ms) hide l1 pre id d args post -> good l1 ->
  leftmost (macro_of ms) hide (l1 ++ l2) pre id d args (post ++ l2).
Proof.
  intros (text & -> & Hi & Hb) Hg. exists (text ++ l2). split; [now rewrite <- app_assoc|]. split.
  - inversion Hi as [id' b post' H1 H2|id' d' text' args' post' H1 H2 H3 (H4 & H5 & ->)]; subst.
    + now constructor.
    + cbn [app]. rewrite <- app_assoc. apply iv_function; auto. repeat split; auto.
  - intros p q E Hq id' d' args' post' Hi'.
    destruct q as [|t q]; [easy|]. cbn [app] in Hi'. pose proof (invokes_only_ident ms _ _ _ _ _ _ _ Hi') as Et. subst t.
    assert (Hrun : good (p ++ TIdent id' :: q ++ text)). { rewrite E in Hg. now rewrite <- app_assoc in Hg. }
    inversion Hi' as [i2 b2 p2 H1 H2|i2 d2 text2 args2 post2 H1 H2 H3 H4]; subst.
    + eapply (Hb p (TIdent id' :: q) eq_refl Hq). cbn [app]. eapply iv_object; eassumption.
    + unfold good in Hrun. rewrite run_app in Hrun. destruct (run_tokens ([], false) p) as [x|]; [|discriminate].
      apply run_ident in Hrun. destruct Hrun as (s & _ & Hrun). rewrite (macro_of_fn _ _ H2 H3) in Hrun.
      assert (Hp : peek_is (is_punct (st "(")) (q ++ text) = true).
      { destruct (q ++ text) as [|t u]; [discriminate|]. cbn [run_tokens step peek_is] in *. now destruct (is_punct (st "(") t). }
      destruct (collect_good s true [] (q ++ text) Hp Hrun) as (a3 & r3 & H5 & _). { simpl. lia. }
      apply collect_args_iff in H5. eapply (Hb p (TIdent id' :: q) eq_refl Hq). cbn [app]. now apply iv_function with (args := a3) (post := r3) (d := d').
Qed.

Lemma expand_parts f1 : forall hide l1 l2, good l1 -> expand_macro_body ms f1 hide l1 <> RFuel ->
  (forall e, expand_macro_body ms f1 hide l1 = ROk e -> forall f2, expand_macro_body ms f2 hide l2 <> RFuel ->
   exists f, expand_macro_body ms f hide (l1 ++ l2) = rmap (app e) (expand_macro_body ms f2 hide l2)) /\
  ((forall e, expand_macro_body ms f1 hide l1 <> ROk e) -> exists f, expand_macro_body ms f hide (l1 ++ l2) = expand_macro_body ms f1 hide l1).
Proof.
  induction f1 as [|f1 IH]; intros hide l1 l2 Hg Hne; [easy|]. cbn [expand_macro_body] in Hne |- *.
  destruct (scan_leftmost ms Hexcl (expand_macro_body ms f1) hide l1 []) as [[Hn E]|(pre & id & d & args & post & Hlm & _ & E)];
    rewrite E in Hne |- *.
  - cbn [rev app] in *. split; [|intros Hx; now destruct (Hx (map (mark hide) l1))].
    intros e Ee f2 Hf2. injection Ee as <-. destruct f2 as [|f2]; [easy|]. exists (S f2). cbn [expand_macro_body].
    rewrite (no_invocation_scan _ hide l1 Hg Hn). rewrite app_nil_r.
    apply (scan_prefix _ hide (map (mark hide) l1)  (expand_settled hide _ (good_no_invocation hide l1 Hg Hn) f2) l2 []).
  - cbn [rev app] in *. destruct (good_leftmost _ _ _ _ _ _ _ Hg Hlm) as (Hargs & _). destruct (leftmost_macro _ _ _ _ _ _ _ Hlm) as [Hm Hni].
    pose proof (leftmost_app _ _ l2 _ _ _ _ _ Hlm Hg) as Hlm2.
    assert (Hmore : forall f, f1 <= f -> replacement_of ms (expand_macro_body ms f1) hide id args <> RFuel ->
      replacement_of ms (expand_macro_body ms f) hide id args = replacement_of ms (expand_macro_body ms f1) hide id args).
    { intros f Hf Hx. apply le_found; [|easy]. unfold replacement_of. destruct (sm_get (fn_macros ms) id) as [[ps b]|].
      - apply le_bind; [apply le_refl|]. intros an _. apply expand_fn_macro_body_le. intros. now apply expand_macro_body_le.
      - destruct (sm_get (var_macros ms) id); [|now left]. apply expand_var_macro_body_le. intros. now apply expand_macro_body_le. }
    destruct (replacement_of ms (expand_macro_body ms f1) hide id args) as [x|x| |] eqn:Ex; cbn [rbind] in *; try easy.
    + destruct (replacement_good _ _ _ _ _ (expand_keeps f1) Hm Hargs Ex) as [Hgx _].
      destruct (IH hide _ l2 (after_good _ _ _ _ _ _ _ _ Hg Hlm Hgx) Hne) as [IH1 IH2].
      assert (Hstep : forall f r, r <> RFuel -> expand_macro_body ms f hide ((map (mark hide) pre ++ x ++ post) ++ l2) = r ->
        exists f', expand_macro_body ms f' hide (l1 ++ l2) = r).
      { intros f r Hr Ef. exists (S (max f1 f)). cbn [expand_macro_body]. rewrite (scan_at_leftmost ms Hexcl _ _ _ _ _ _ _ _ Hlm2).
        rewrite Hmore; [|lia|discriminate]. cbn [rbind]. rewrite <- !app_assoc in Ef. rewrite (more_fuel f); [easy|lia|congruence]. }
      split.
      * intros e Ee f2 Hf2. destruct (IH1 e Ee f2 Hf2) as [f Ef]. eapply Hstep; [|exact Ef]. now destruct (expand_macro_body ms f2 hide l2).
      * intros Hx. destruct (IH2 Hx) as [f Ef]. eapply Hstep; [|exact Ef]. easy.
    + split; [discriminate|]. intros _. exists (S f1). cbn [expand_macro_body].
      rewrite (scan_at_leftmost ms Hexcl _ _ _ _ _ _ _ _ Hlm2), Ex. easy.
    + split; [discriminate|]. intros _. exists (S f1). cbn [expand_macro_body].
      rewrite (scan_at_leftmost ms Hexcl _ _ _ _ _ _ _ _ Hlm2), Ex. easy.
Qed.

Lemma rest_ends f : forall hide l1 l2 e, good l1 -> expand_macro_body ms f hide (l1 ++ l2) = ROk e ->
  exists f', expand_macro_body ms f' hide l2 <> RFuel.
Proof.
  induction f as [|f IH]; intros hide l1 l2 e Hg He; [discriminate|]. cbn [expand_macro_body] in He.
  destruct (scan_leftmost ms Hexcl (expand_macro_body ms f) hide l1 []) as [[Hn _]|(pre & id & d & args & post & Hlm & _)].
  - rewrite (no_invocation_scan _ hide l1 Hg Hn), app_nil_r in He.
    pose proof (scan_prefix _ hide (map (mark hide) l1) (expand_settled hide _ (good_no_invocation hide l1 Hg Hn) f) l2 []) as Hp.
    cbn [app] in Hp. rewrite Hp in He. exists (S f). cbn [expand_macro_body]. intros E. rewrite E in He. discriminate.
  - pose proof (leftmost_app _ _ l2 _ _ _ _ _ Hlm Hg) as Hlm2. rewrite (scan_at_leftmost ms Hexcl _ _ _ _ _ _ _ _ Hlm2) in He.
    destruct (good_leftmost _ _ _ _ _ _ _ Hg Hlm) as (Hargs & _). destruct (leftmost_macro _ _ _ _ _ _ _ Hlm) as [Hm Hni].
    destruct (replacement_of ms (expand_macro_body ms f) hide id args) as [x| | |] eqn:Ex; try discriminate. cbn [rbind] in He.
    destruct (replacement_good _ _ _ _ _ (expand_keeps f) Hm Hargs Ex) as [Hgx _].
    apply (IH hide (map (mark hide) pre ++ x ++ post) l2 e); [exact (after_good _ _ _ _ _ _ _ _ Hg Hlm Hgx)|].
    now rewrite <- !app_assoc.
Qed.
End S.
