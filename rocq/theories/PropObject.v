(** C07, C08, C10: object-like expansion, termination, fully expanded results. *)
From Verif Require Import Base Utf Lex LexFloat Token MacroSet StrFacts LexFacts ExpandFacts ExpandInv TokenFacts
  SpecPaste PasteFacts SpecRescan PropPaste ObjFacts SpecSet SetFacts SpecCall CallFacts SpecTokens ParamFacts.
From Coq Require Import String List.
Local Open Scope list_scope.

(** The object-like macros after a history. *)
Definition objects `{Unicode} (h : list call) (id : str) : option (list token) :=
  match defined (rev h) id with Some (DVar b) => Some (map from_str b) | _ => None end.

(** What the C rules prescribe for a text: its [##] are applied, it is
    rescanned, and the tokens are delivered. *)
Inductive object_expansion `{Unicode} (h : list call) (hide : list str) (body : list str) : res xerr (list mtoken) -> Prop :=
| oe_bad p : replacement token_concat (map from_str body) p -> ~ succeeded p -> object_expansion h hide body (failed p)
| oe_rescan b r : replacement token_concat (map from_str body) (ROk b) -> rescan token_concat (objects h) hide b r ->
    object_expansion h hide body (l <- r ;; detokenize 0 l).

Definition no_function_like (h : list call) : Prop := forall n p b, defined (rev h) n <> Some (DFn p b).

Section S.
Context `{Unicode}.

Lemma rescan_ext paste m1 m2 hide l r : (forall id, m1 id = m2 id) -> rescan paste m1 hide l r -> rescan paste m2 hide l r.
Proof.
  intros He. induction 1.
  - constructor.
  - apply rs_keep; [|easy]. intros id E. rewrite <- He. auto.
  - eapply rs_replace; eauto. now rewrite <- He.
  - eapply rs_bad_body; eauto. now rewrite <- He.
  - eapply rs_bad_replacement; eauto. now rewrite <- He.
Qed.

Lemma objects_run h id : obj_macro (run h) id = objects h id.
Proof.
  unfold obj_macro, objects. pose proof (run_holds h id) as Hh.
  destruct (defined (rev h) id) as [[b|p b]|]; simpl in Hh; destruct Hh as [-> _]; easy.
Qed.

Lemma no_function_like_run h : no_function_like h -> forall n, sm_get (fn_macros (run h)) n = None.
Proof.
  intros Hh n. pose proof (run_holds h n) as Hr.
  destruct (defined (rev h) n) as [[b|p b]|] eqn:E; simpl in Hr; try apply Hr. now apply Hh in E.
Qed.

Lemma detokenize_strip k l : detokenize k (map strip_nr l) = detokenize k l.
Proof.
  assert (Ht : forall t, token_detokenize k (strip_nr t) = token_detokenize k t) by (induction t; simpl; auto).
  induction l as [|t l IH]; simpl; [easy|]. now rewrite Ht, IH.
Qed.

Lemma same_detokenize k a b : same a b -> (l <- a ;; detokenize k l) = (l <- b ;; detokenize k l).
Proof.
  unfold same. destruct a, b; simpl; try discriminate; try congruence.
  intros E. rewrite <- (detokenize_strip k a), <- (detokenize_strip k a0). congruence.
Qed.

(** [expand] and [expand_var_macro] share this. *)
Lemma object_result h name body : no_function_like h -> (name = [] \/ name <> []) ->
  exists F r, object_expansion h (match name with [] => [] | _ => [name] end) body r /\ r <> RFuel /\
    (forall r', object_expansion h (match name with [] => [] | _ => [name] end) body r' -> r' = r) /\
    forall fuel, F <= fuel ->
    (t <- expand_var_macro_body (expand_macro_body (run h) fuel) [] name (tokenize [] body) ;; detokenize 0 t) = r.
Proof.
  intros Hh _. set (hide := match name with [] => [] | _ => [name] end).
  destruct (replacement_model body) as (p & Hp & Hpne & Hpu & Hmod & Hpwf).
  assert (Hfail : ~ succeeded p -> exists F r, object_expansion h hide body r /\ r <> RFuel /\
    (forall r', object_expansion h hide body r' -> r' = r) /\
    forall fuel, F <= fuel ->
    (t <- expand_var_macro_body (expand_macro_body (run h) fuel) [] name (tokenize [] body) ;; detokenize 0 t) = r).
  { intros Hs. exists 0, (failed p). split; [now apply oe_bad|].
    split; [destruct p; simpl; try discriminate; try easy; exfalso; apply Hs; now eexists|].
    split.
    - intros r' Hr'. inversion Hr' as [q Hq _|b r Hb Hr]; subst.
      + apply Hpu in Hq. now subst.
      + apply Hpu in Hb. subst. exfalso. apply Hs. now eexists.
    - intros fuel _. rewrite Hmod. destruct p; simpl; try easy. exfalso. apply Hs. now eexists. }
  destruct p as [b|e| |]; try (apply Hfail; now intros [? ?]). clear Hfail.
  assert (Hag : agree (set_insert name []) hide).
  { intros id Hid. rewrite set_insert_In. subst hide. destruct name; simpl; intuition congruence. }
  destruct (obj_main (run h) (no_function_like_run h Hh) _ _ hide (le_n _) Hag b (Hpwf b eq_refl))
    as (r & F & Hr & Hne & HF).
  exists F, (l <- r ;; detokenize 0 l). split; [|split; [|split]].
  - apply (oe_rescan h hide body b r); [easy|]. eapply rescan_ext; [|exact Hr]. apply objects_run.
  - destruct r as [l|e| |]; simpl; try discriminate; try easy.
    clear. induction l as [|t l IH]; simpl; [discriminate|].
    assert (Ht : token_detokenize 0 t <> RFuel) by (induction t; simpl; try discriminate; easy).
    destruct (token_detokenize 0 t); simpl; try discriminate; try easy. destruct (detokenize 0 l); simpl; try discriminate. easy.
  - intros r' Hr'. inversion Hr' as [q Hq Hs|b' r0 Hb Hr0]; subst.
    + apply Hpu in Hq. subst. exfalso. apply Hs. now eexists.
    + apply Hpu in Hb. inversion Hb; subst. assert (Hr1 : rescan token_concat (obj_macro (run h)) hide b r0).
      { eapply rescan_ext; [|exact Hr0]. intros id. symmetry. apply objects_run. }
      now rewrite (rescan_det (run h) _ _ _ Hr _ Hr1).
  - intros fuel Hf. rewrite Hmod. simpl. destruct (HF [] fuel (Forall_nil _) Hf) as [Hs _]. change ([] ++ b) with b in Hs.
    assert (Er : rmap (app []) r = r) by now destruct r. rewrite Er in Hs. now apply same_detokenize.
Qed.

(** C07: with object-like macros only, [expand] gives exactly what the C
    rescanning rule prescribes (a result or an error). *)
Theorem C07_object_like_expansion : forall h body, no_function_like h ->
  exists F, forall fuel r, F <= fuel ->
  (expand (run h) fuel body = r <-> object_expansion h [] body r).
Proof.
  intros h body Hh. destruct (object_result h [] body Hh (or_introl eq_refl)) as (F & r & Hr & Hne & Hu & HF).
  exists F. intros fuel r' Hf. unfold expand. rewrite (HF fuel Hf). split; [now intros <-|]. intros Hr'. symmetry. now apply Hu.
Qed.

(** The same for the body of a macro, whose own name is then hidden. *)
Theorem C07_object_like_macro : forall h n body, no_function_like h -> n <> [] -> defined (rev h) n = Some (DVar body) ->
  exists F, forall fuel r, F <= fuel ->
  (expand_var_macro (run h) fuel n = r <-> object_expansion h [n] body r).
Proof.
  intros h n body Hh Hn Hd. destruct n as [|c0 n0]; [easy|]. set (n := c0 :: n0) in *.
  destruct (object_result h n body Hh (or_intror Hn)) as (F & r & Hr & Hne & Hu & HF).
  exists F. intros fuel r' Hf. unfold expand_var_macro.
  pose proof (run_holds h n) as Hr0. rewrite Hd in Hr0. destruct Hr0 as [Hv _]. rewrite Hv.
  rewrite (HF fuel Hf). split; [now intros <-|]. intros Hr'. symmetry. now apply Hu.
Qed.

(** C08 (object-like macros): expansion ends, with a result or an error, which
    more steps do not change. *)
Theorem C08_object_like_terminates_partial : forall h body, no_function_like h ->
  exists F r, r <> RFuel /\ forall fuel, F <= fuel -> expand (run h) fuel body = r.
Proof.
  intros h body Hh. destruct (object_result h [] body Hh (or_introl eq_refl)) as (F & r & Hr & Hne & Hu & HF).
  exists F, r. split; [easy|]. exact HF.
Qed.
Theorem C08_object_like_macro_terminates_partial : forall h n, no_function_like h ->
  exists F r, r <> RFuel /\ forall fuel, F <= fuel -> expand_var_macro (run h) fuel n = r.
Proof.
  intros h n Hh. unfold expand_var_macro. destruct (sm_get (var_macros (run h)) n) as [body|] eqn:E.
  - destruct (object_result h n body Hh) as (F & r & Hr & Hne & Hu & HF); [destruct n; [now left|now right]|].
    exists F, r. split; [easy|]. exact HF.
  - exists 0, (RErr MacroNotFound). easy.
Qed.
End S.

(** Self- and mutually recursive macros. *)
Definition demo_objects : list call :=
  [DefineVar (st "X") [st "1"; st "+"; st "Y"]; DefineVar (st "Y") [st "X"; st "*"; st "Z"]; DefineVar (st "Z") [st "Z"; st "##"; st "Z"]].
Example C07_example : no_function_like demo_objects /\
  expand (run demo_objects) 10 [st "X"; st ";"; st "Z"] =
  ROk [MLit (LInt (mk_int 1 None)); MPunct (st "+"); MIdent (st "X"); MPunct (st "*"); MIdent (st "ZZ");
       MPunct (st ";"); MIdent (st "ZZ")].
Proof.
  split; [|reflexivity]. intros n p b. unfold demo_objects. simpl.
  destruct (same_name (st "Z") n); [discriminate|]. destruct (same_name (st "Y") n); [discriminate|].
  destruct (same_name (st "X") n); discriminate.
Qed.

(** ** C08 in general: two function-like macros whose expansion does not end *)

(** [a()] is [( ) ( ) c c] and [c()] is [( ) ( ) a a]. *)
Definition loop_body (x : string) : list str := [st "("; st ")"; st "("; st ")"; st x; st x].
Definition loop_set : list call := [DefineFn (st "a") [] (loop_body "c"); DefineFn (st "c") [] (loop_body "a")].
Definition loop_text : list str := [st "a"; st "("; st ")"; st "("; st ")"].


Section C08.
Context `{Unicode}.
Definition LP : token := TPunct (st "(").
Definition RP : token := TPunct (st ")").
Definition loop_name (x : bool) : str := if x then st "a" else st "c".
Definition loop_tokens (x : bool) : list token := [LP; RP; LP; RP; TIdent (loop_name x); TIdent (loop_name x)].
Definition not_ident (t : token) : Prop := forall id, t <> TIdent id.

Lemma loop_get x : sm_get (fn_macros (run loop_set)) (loop_name x) =
  Some ([], loop_body (if x then "c" else "a")).
Proof. now destruct x. Qed.
Lemma loop_var x : sm_get (var_macros (run loop_set)) (loop_name x) = None.
Proof. now destruct x. Qed.
Lemma loop_tokenize (x : bool) : tokenize [] (loop_body (if x then "c" else "a")) = loop_tokens (negb x).
Proof. now destruct x. Qed.

Lemma scan_parens rec names P : forall acc l, Forall not_ident P ->
  scan (run loop_set) rec names acc (P ++ l) = scan (run loop_set) rec names (rev P ++ acc) l.
Proof.
  induction P as [|t P IH]; intros acc l HP; [easy|]. inversion HP as [|? ? Ht HP']; subst.
  simpl app. transitivity (scan (run loop_set) rec names (t :: acc) (P ++ l)).
  - destruct t; try easy. now destruct (Ht id).
  - rewrite IH by easy. simpl. now rewrite <- app_assoc.
Qed.

Lemma loop_call F x acc R :
  scan (run loop_set) (expand_macro_body (run loop_set) F) [@nil N] acc (TIdent (loop_name x) :: LP :: RP :: R) =
  match F with O => RFuel | S _ => expand_macro_body (run loop_set) F [@nil N] (rev acc ++ loop_tokens (negb x) ++ R) end.
Proof.
  assert (Hm : str_mem (loop_name x) [@nil N] = false) by now destruct x.
  cbn [scan]. rewrite Hm, loop_get. cbn [peek_is]. change (is_punct (st "(") LP) with true. cbn match.
  assert (Hc : collect_args (LP :: RP :: R) = Some ([[]], R)) by reflexivity. rewrite Hc.
  change (tokenize_arg_names []) with (@ROk xerr (list token) []). cbn [rbind]. rewrite loop_tokenize.
  assert (Hb : expand_fn_macro_body (expand_macro_body (run loop_set) F) [@nil N] (loop_name x) [] (Some [[]]) (loop_tokens (negb x)) =
               expand_macro_body (run loop_set) F (set_insert (loop_name x) [@nil N]) (loop_tokens (negb x))).
  { now destruct x. }
  rewrite Hb. destruct F as [|f]; [easy|].
  assert (Hr : expand_macro_body (run loop_set) (S f) (set_insert (loop_name x) [@nil N]) (loop_tokens (negb x)) = ROk (loop_tokens (negb x))).
  { now destruct x. }
  rewrite Hr. reflexivity.
Qed.

Definition loop_state (x : bool) (P R : list token) : list token :=
  P ++ TIdent (loop_name x) :: TIdent (loop_name x) :: LP :: RP :: R.

Lemma loop_pass rec x acc l : peek_is (is_punct (st "(")) l = false ->
  scan (run loop_set) rec [@nil N] acc (TIdent (loop_name x) :: l) = scan (run loop_set) rec [@nil N] (TIdent (loop_name x) :: acc) l.
Proof. intros Hl. cbn [scan]. rewrite loop_var, Hl. now destruct x. Qed.

Lemma loop_step1 F x P R : Forall not_ident P ->
  expand_macro_body (run loop_set) (S F) [@nil N] (loop_state x P R) =
  match F with O => RFuel | S _ => expand_macro_body (run loop_set) F [@nil N]
     (P ++ TIdent (loop_name x) :: LP :: RP :: LP :: RP :: TIdent (loop_name (negb x)) :: TIdent (loop_name (negb x)) :: R) end.
Proof.
  intros HP. cbn [expand_macro_body]. unfold loop_state. rewrite scan_parens by easy. rewrite loop_pass by easy.
  rewrite loop_call. rewrite app_nil_r. cbn [rev]. rewrite rev_involutive. unfold loop_tokens. rewrite <- app_assoc. reflexivity.
Qed.

Lemma loop_step2 F x P R : Forall not_ident P ->
  expand_macro_body (run loop_set) (S F) [@nil N] (P ++ TIdent (loop_name x) :: LP :: RP :: R) =
  match F with O => RFuel | S _ => expand_macro_body (run loop_set) F [@nil N] (P ++ loop_tokens (negb x) ++ R) end.
Proof.
  intros HP. cbn [expand_macro_body]. rewrite scan_parens by easy. rewrite loop_call. rewrite app_nil_r, rev_involutive. reflexivity.
Qed.

Lemma loop_never_ends : forall f x P R, Forall not_ident P ->
  expand_macro_body (run loop_set) f [@nil N] (loop_state x P R) = RFuel.
Proof.
  induction f as [f IH] using (well_founded_induction lt_wf). intros x P R HP.
  destruct f as [|f]; [easy|]. rewrite loop_step1 by easy. destruct f as [|f]; [easy|].
  rewrite loop_step2 by easy. destruct f as [|f]; [easy|].
  assert (E : P ++ loop_tokens (negb x) ++ LP :: RP :: TIdent (loop_name (negb x)) :: TIdent (loop_name (negb x)) :: R =
    loop_state (negb x) (P ++ [LP; RP; LP; RP]) (TIdent (loop_name (negb x)) :: TIdent (loop_name (negb x)) :: R)).
  { unfold loop_state, loop_tokens. now rewrite <- app_assoc. }
  rewrite E. apply IH; [lia|]. apply Forall_app. split; [easy|]. repeat constructor; intros id; discriminate.
Qed.

(** C08 does not hold in general: expanding [a ( ) ( )] never ends, whatever
    the number of steps. *)
Theorem C08_termination_refuted : exists h body, forall fuel, expand (run h) fuel body = RFuel.
Proof.
  exists loop_set, loop_text. intros fuel.
  assert (E : expand_var_macro_body (expand_macro_body (run loop_set) fuel) [] [] (tokenize [] loop_text) =
    expand_macro_body (run loop_set) fuel [@nil N] ([] ++ TIdent (loop_name true) :: LP :: RP :: [LP; RP])) by reflexivity.
  unfold expand. rewrite E. destruct fuel as [|f]; [easy|]. rewrite loop_step2 by constructor.
  destruct f as [|f]; [easy|].
  assert (E2 : [] ++ loop_tokens (negb true) ++ [LP; RP] = loop_state false [LP; RP; LP; RP] []) by reflexivity.
  rewrite E2. rewrite loop_never_ends; [easy|]. repeat constructor; intros id; discriminate.
Qed.
End C08.
(** ** C10 *)

(** [l] contains no macro invocation: no identifier (other than those excluded
    from further replacement, which are [TNonRepl]) names an object-like macro,
    and none names a function-like macro and is followed by its arguments. *)
Definition fully_expanded (h : list call) (l : list token) : Prop :=
  forall pre id post, l = pre ++ TIdent id :: post ->
  match defined (rev h) id with
  | None => True
  | Some (DVar _) => False
  | Some (DFn _ _) => forall args rest, ~ call_text post args rest
  end.

Section C10.
Context `{Unicode}.

Lemma is_punct_paint names p t : is_punct p (paint names t) = is_punct p t.
Proof. destruct t; simpl; try easy. now destruct (str_mem id names). Qed.

Lemma collect_loop_paint names it : forall stack args cur,
  collect_loop stack (map (map (paint names)) args) (map (paint names) cur) (map (paint names) it) =
  omap (fun r => (map (map (paint names)) (fst r), map (paint names) (snd r))) (collect_loop stack args cur it).
Proof.
  induction it as [|t it IH]; intros stack args cur; [easy|].
  assert (Hpush : forall s, collect_loop s (map (map (paint names)) args) (paint names t :: map (paint names) cur) (map (paint names) it) =
    omap (fun r => (map (map (paint names)) (fst r), map (paint names) (snd r))) (collect_loop s args (t :: cur) it)).
  { intros s. exact (IH s args (t :: cur)). }
  destruct t as [u|i| |p|id|s|lt s|s|c|]; try exact (Hpush stack).
  - simpl. destruct (str_eqb p (st "(")); [exact (Hpush (st "(" :: stack))|].
    destruct (str_eqb p (st ")")).
    { destruct stack as [|q stack]; [|destruct (str_eqb q (st "(")); [exact (Hpush stack)|easy]].
      simpl. rewrite !map_app, !map_rev. simpl. now rewrite map_rev. }
    destruct (str_eqb p (st "[")); [exact (Hpush (st "[" :: stack))|].
    destruct (str_eqb p (st "]")). { destruct stack as [|q stack]; [easy|]. destruct (str_eqb q (st "[")); [exact (Hpush stack)|easy]. }
    destruct (str_eqb p (st "{")); [exact (Hpush (st "{" :: stack))|].
    destruct (str_eqb p (st "}")). { destruct stack as [|q stack]; [easy|]. destruct (str_eqb q (st "{")); [exact (Hpush stack)|easy]. }
    destruct (str_eqb p (st ",")); [|exact (Hpush stack)].
    destruct stack; [|exact (Hpush _)]. rewrite <- (IH [] (rev cur :: args) []). simpl. now rewrite map_rev.
  - cbn [map]. simpl collect_loop at 2. simpl paint in *. destruct (str_mem id names); exact (Hpush stack).
Qed.

Lemma collect_args_paint names it :
  collect_args (map (paint names) it) =
  omap (fun r => (map (map (paint names)) (fst r), map (paint names) (snd r))) (collect_args it).
Proof.
  destruct it as [|t it]; [easy|]. destruct t as [u|i| |p|id|s|lt s|s|c|]; try easy.
  - simpl. destruct (str_eqb p (st "(")); [|easy]. exact (collect_loop_paint names it [] [] []).
  - simpl. now destruct (str_mem id names).
Qed.

Lemma scan_ok ms rec names it : forall acc out, scan ms rec names acc it = ROk out ->
  (exists l, rec names l = ROk out) \/
  (out = rev acc ++ map (paint names) it /\
   forall pre id post, it = pre ++ TIdent id :: post -> ~ In id names ->
     sm_get (var_macros ms) id = None /\ (sm_get (fn_macros ms) id <> None -> collect_args post = None)).
Proof.
  induction it as [|t it IH]; intros acc out Hs.
  { right. inversion Hs; subst. rewrite app_nil_r. split; [easy|]. intros [|? ?] id post E; discriminate. }
  assert (Hk : scan ms rec names (paint names t :: acc) it = ROk out ->
    (forall id, t = TIdent id -> ~ In id names ->
       sm_get (var_macros ms) id = None /\ (sm_get (fn_macros ms) id <> None -> collect_args it = None)) ->
    (exists l, rec names l = ROk out) \/ (out = rev acc ++ map (paint names) (t :: it) /\
     forall pre id post, t :: it = pre ++ TIdent id :: post -> ~ In id names ->
     sm_get (var_macros ms) id = None /\ (sm_get (fn_macros ms) id <> None -> collect_args post = None))).
  { intros Hs' Ht. destruct (IH _ _ Hs') as [Hl|[-> Hall]]; [now left|]. right. split.
    - simpl. now rewrite <- app_assoc.
    - intros [|x pre] id post E Hn; simpl in E; inversion E; subst; [now apply Ht|]. eapply Hall; eauto. }
  destruct t as [u|i| |p|id|s|lt s|s|c|]; try (apply Hk; [exact Hs|intros; discriminate]).
  simpl in Hs. simpl paint in Hk. destruct (str_mem id names) eqn:Em.
  { apply Hk; [exact Hs|]. intros x E Hn. inversion E; subst. apply str_mem_In in Em. contradiction. }
  assert (Hv : (sm_get (fn_macros ms) id <> None -> collect_args it = None) ->
    match sm_get (var_macros ms) id with
    | Some body => e <- expand_var_macro_body rec names id (tokenize [] body) ;; rec names (rev acc ++ e ++ it)
    | None => scan ms rec names (TIdent id :: acc) it
    end = ROk out -> (exists l, rec names l = ROk out) \/ (out = rev acc ++ map (paint names) (TIdent id :: it) /\
     forall pre id' post, TIdent id :: it = pre ++ TIdent id' :: post -> ~ In id' names ->
     sm_get (var_macros ms) id' = None /\ (sm_get (fn_macros ms) id' <> None -> collect_args post = None))).
  { intros Hc Hs'. destruct (sm_get (var_macros ms) id) as [body|] eqn:Ev.
    - left. destruct (expand_var_macro_body _ _ _ _); simpl in Hs'; try discriminate. eauto.
    - apply Hk; [exact Hs'|]. intros x E Hn. inversion E; subst. auto. }
  destruct (peek_is (is_punct (st "(")) it) eqn:Ep.
  - destruct (sm_get (fn_macros ms) id) as [[ps body]|] eqn:Ef; [|apply Hv; [congruence|exact Hs]].
    destruct (collect_args it) as [[args rest]|] eqn:Ec; [|apply Hv; [easy|exact Hs]].
    left. destruct (tokenize_arg_names ps) as [an| | |]; simpl in Hs; try discriminate.
    destruct (expand_fn_macro_body _ _ _ _ _ _); simpl in Hs; try discriminate. eauto.
  - apply Hv; [|exact Hs]. intros _. destruct it as [|t it]; [easy|]. destruct t; try easy. simpl in *. now rewrite Ep.
Qed.

Lemma expand_macro_body_expanded ms fuel : forall names b out, expand_macro_body ms fuel names b = ROk out ->
  forall pre id post, out = pre ++ TIdent id :: post ->
  ~ In id names /\ sm_get (var_macros ms) id = None /\ (sm_get (fn_macros ms) id <> None -> collect_args post = None).
Proof.
  induction fuel as [|f IH]; intros names b out He; [discriminate|]. simpl in He.
  apply scan_ok in He. destruct He as [[l Hl]|[-> Hall]]; [now apply (IH names l)|].
  simpl. intros pre id post E.
  assert (Hex : exists pre0 post0, b = pre0 ++ TIdent id :: post0 /\ post = map (paint names) post0 /\ ~ In id names).
  { clear Hall. revert pre E. induction b as [|t b IHb]; intros pre E; [destruct pre; discriminate|].
    destruct pre as [|x pre]; simpl in E; inversion E; subst.
    - exists [], b. destruct t; simpl in *; try discriminate. destruct (str_mem id0 names) eqn:Em; [discriminate|].
      inversion H1; subst. apply str_mem_not_In in Em. auto.
    - destruct (IHb pre H2) as (p0 & q0 & -> & -> & Hn). exists (t :: p0), q0. auto. }
  destruct Hex as (pre0 & post0 & Hb & -> & Hn). destruct (Hall pre0 id post0 Hb Hn) as [Hv Hf].
  repeat split; auto. intros Hx. rewrite collect_args_paint. now rewrite (Hf Hx).
Qed.

Lemma expanded_run h fuel names b out : expand_macro_body (run h) fuel names b = ROk out -> fully_expanded h out.
Proof.
  intros He pre id post E. destruct (expand_macro_body_expanded _ _ _ _ _ He _ _ _ E) as (_ & Hv & Hf).
  pose proof (run_holds h id) as Hh. destruct (defined (rev h) id) as [[b'|p b']|]; simpl in Hh; destruct Hh as [H1 H2]; auto.
  - congruence.
  - intros args rest Hc. apply collect_args_iff in Hc. rewrite Hf in Hc; congruence.
Qed.

(** C10: what is delivered contains no remaining invocation. *)
Theorem C10_expand_fully_expanded : forall h fuel body out, expand (run h) fuel body = ROk out ->
  exists toks, detokenize 0 toks = ROk out /\ fully_expanded h toks.
Proof.
  intros h fuel body out. unfold expand, expand_var_macro_body, concat_and_rescan.
  destruct (contains_var_args _); [discriminate|]. destruct (expand_concat _) as [b| | |]; try discriminate. simpl.
  destruct (expand_macro_body _ _ _ _) as [toks| | |] eqn:E; try discriminate. simpl. intros Hd.
  exists toks. split; [easy|]. eapply expanded_run; eauto.
Qed.

Theorem C10_expand_var_macro_fully_expanded : forall h fuel n out, expand_var_macro (run h) fuel n = ROk out ->
  exists toks, detokenize 0 toks = ROk out /\ fully_expanded h toks.
Proof.
  intros h fuel n out. unfold expand_var_macro, expand_var_macro_body, concat_and_rescan.
  destruct (sm_get _ n); [|discriminate].
  destruct (contains_var_args _); [discriminate|]. destruct (expand_concat _) as [b| | |]; try discriminate. simpl.
  destruct (expand_macro_body _ _ _ _) as [toks| | |] eqn:E; try discriminate. simpl. intros Hd.
  exists toks. split; [easy|]. eapply expanded_run; eauto.
Qed.

Theorem C10_expand_fn_macro_fully_expanded : forall h fuel n args out, expand_fn_macro (run h) fuel n = ROk (args, out) ->
  exists toks, detokenize (length args) toks = ROk out /\ fully_expanded h toks.
Proof.
  intros h fuel n args out. unfold expand_fn_macro, expand_fn_macro_body, concat_and_rescan.
  destruct (sm_get _ n) as [[ps body]|]; [|discriminate].
  destruct (tokenize_arg_names ps) as [an| | |] eqn:Et; try discriminate. cbn [rbind].
  destruct (_ && _); [discriminate|]. destruct (if negb _ then _ else None); [discriminate|].
  destruct (first_duplicate _); [discriminate|]. cbn [rbind].
  destruct (expand_concat _) as [b| | |]; try discriminate. cbn [rbind].
  destruct (expand_macro_body _ _ _ _) as [toks| | |] eqn:E; try discriminate. cbn [rbind].
  destruct (detokenize (length an) toks) as [o| | |] eqn:Ed; try discriminate. cbn [rbind].
  destruct (detokenize 0 an) as [a| | |] eqn:Ea; try discriminate. simpl. intros Eo. inversion Eo; subst.
  exists toks. split; [|eapply expanded_run; eauto].
  assert (Hlen : length args = length an); [|now rewrite Hlen].
  apply detokenize_ok in Ea; [symmetry; clear -Ea; induction Ea; simpl; congruence|].
  apply tokenize_arg_names_iff in Et. destruct Et as [-> _].
  apply Forall_forall. intros t Ht. apply in_map_iff in Ht. destruct Ht as (s & <- & _).
  unfold thru. rewrite strip_nr_same by apply from_str_no_nr. apply not_place_spell.
Qed.

End C10.

(** [f] without arguments stays, [f (2)] and [X] are replaced, [X] inside [X] stays. *)
Example C10_example :
  let h := [DefineVar (st "X") [st "X"; st "+"; st "f"]; DefineFn (st "f") [st "y"] [st "y"; st "y"]] in
  expand (run h) 10 [st "X"; st "f"; st "("; st "2"; st ")"] =
  ROk [MIdent (st "X"); MPunct (st "+"); MIdent (st "f"); MLit (LInt (mk_int 2 None)); MLit (LInt (mk_int 2 None))].
Proof. reflexivity. Qed.

Print Assumptions C07_object_like_expansion.
Print Assumptions C07_object_like_macro.
Print Assumptions C08_object_like_terminates_partial.
Print Assumptions C08_object_like_macro_terminates_partial.
Print Assumptions C08_termination_refuted.
Print Assumptions C10_expand_fully_expanded.
Print Assumptions C10_expand_var_macro_fully_expanded.
Print Assumptions C10_expand_fn_macro_fully_expanded.
