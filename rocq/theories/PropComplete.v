(** C08, C62: sets and texts in which every call is written out.  Expansion
    ends, and the parts of a text are expanded independently. *)
From Verif Require Import Base Utf Lex LexFloat Token MacroSet StrFacts LexFacts ExpandFacts ExpandInv TokenFacts
  SpecPaste PasteFacts SpecRescan ObjFacts SpecSet SetFacts SpecCall CallFacts SpecTokens ParamFacts SpecExpand FullFacts
  PropObject PropExpand SpecComplete CompleteFacts.
From Coq Require Import String List.
Local Open Scope list_scope.

(** Every body is written out; [__LINE__] and [__FILE__] are not function-like. *)
Definition written_out `{Unicode} (h : list call) (l : list token) : Prop := complete (names_function h) l.
Definition written_out_set `{Unicode} (h : list call) : Prop :=
  (forall n b, defined (rev h) n = Some (DVar b) -> written_out h (map from_str b)) /\
  (forall n ps b ids v, defined (rev h) n = Some (DFn ps b) -> parameter_list ps ids v ->
     written_out h (map (body_token ids) b)) /\
  ~ names_function h (st "__LINE__") /\ ~ names_function h (st "__FILE__").

Section S.
Context `{Unicode}.

Lemma is_fn_run h id : is_fn (run h) id = true <-> names_function h id.
Proof.
  unfold is_fn, names_function. pose proof (run_holds h id) as Hr.
  destruct (defined (rev h) id) as [[b|ps b]|]; simpl in Hr; destruct Hr as [H1 H2]; rewrite ?H1, ?H2;
    split; intros Hx; try discriminate; try (destruct Hx as (? & ? & ?); discriminate); eauto.
Qed.

Lemma written_out_good h l : written_out h l -> good (run h) l.
Proof.
  intros (H1 & H2 & H3). apply good_complete. split; [easy|]. split; [easy|]. intros pre id post E Hf.
  apply (H3 pre id post E). now apply is_fn_run.
Qed.

Lemma bodies_var h : written_out_set h -> forall id b, sm_get (var_macros (run h)) id = Some b -> good (run h) (tokenize [] b).
Proof.
  intros (Hv & _) id b E. pose proof (run_holds h id) as Hr. rewrite tokenize_nil. apply written_out_good.
  destruct (defined (rev h) id) as [[b'|ps b']|] eqn:Ed; simpl in Hr; destruct Hr as [H1 H2]; rewrite E in *; try discriminate.
  injection H1 as <-. eauto.
Qed.
Lemma bodies_fn h : written_out_set h -> forall id ps b an, sm_get (fn_macros (run h)) id = Some (ps, b) ->
  tokenize_arg_names ps = ROk an -> good (run h) (tokenize an b).
Proof.
  intros (_ & Hv & _) id ps b an E Ea. pose proof (run_holds h id) as Hr.
  assert (Ed : defined (rev h) id = Some (DFn ps b)).
  { destruct (defined (rev h) id) as [[b'|ps' b']|]; simpl in Hr; destruct Hr as [H1 H2]; rewrite E in *; try discriminate. congruence. }
  pose proof Ea as Ea2. apply tokenize_arg_names_iff in Ea. destruct Ea as (_ & ids & v & Hp).
  destruct (parameter_list_names ps ids v Hp) as (an' & E' & _ & _ & Hb). rewrite Ea2 in E'. injection E' as <-. rewrite Hb.
  apply written_out_good. eauto.
Qed.
Lemma lines h : written_out_set h -> is_fn (run h) (st "__LINE__") = false /\ is_fn (run h) (st "__FILE__") = false.
Proof.
  intros (_ & _ & H1 & H2). split; apply not_true_is_false; intros E; apply is_fn_run in E; contradiction.
Qed.

Lemma ends h hide l : written_out_set h -> good (run h) l -> exists F, forall f, F <= f ->
  expand_macro_body (run h) f hide l = expand_macro_body (run h) F hide l /\ expand_macro_body (run h) F hide l <> RFuel.
Proof. intros Hs. exact (good_terminates (run h) (run_excl h) (bodies_var h Hs) (bodies_fn h Hs) (lines h Hs) hide l). Qed.

Lemma rescan_terminates h name b : written_out_set h -> good (run h) b ->
  exists F r, r <> RFuel /\ forall fuel, F <= fuel -> concat_and_rescan (expand_macro_body (run h) fuel) [] name b = r.
Proof.
  intros Hs Hb. destruct (rescan_good (run h) (expand_macro_body (run h) 0) [] name b Hb) as [_ Hg].
  destruct (ends h (set_insert name []) _ Hs Hg) as [F HF]. exists F. eexists. split; [exact (proj2 (HF F (le_n F)))|].
  intros fuel Hf. rewrite (proj1 (rescan_good (run h) (expand_macro_body (run h) fuel) [] name b Hb)). now apply HF.
Qed.

(** C08.  In a set in which every call is written out, the expansion of such a
    text ends, with a result or an error, which more steps do not change. *)
Theorem C08_written_out_text_partial : forall h text, written_out_set h -> written_out h (map from_str text) ->
  exists F r, r <> RFuel /\ forall fuel, F <= fuel -> expand (run h) fuel text = r.
Proof.
  intros h text Hs Ht. unfold expand, expand_var_macro_body. rewrite tokenize_nil. destruct (contains_var_args _).
  { exists 0. eexists. split; [|reflexivity]. discriminate. }
  destruct (rescan_terminates h [] (map from_str text) Hs (written_out_good h _ Ht)) as (F & r & Hr & HF).
  exists F. eexists. split; [|intros fuel Hf; rewrite HF by easy; reflexivity].
  destruct r; simpl; try discriminate; try easy. apply detokenize_no_fuel.
Qed.

(** The same for every macro of the set. *)
Theorem C08_written_out_macros_partial : forall h n, written_out_set h ->
  (exists F r, r <> RFuel /\ forall fuel, F <= fuel -> expand_var_macro (run h) fuel n = r) /\
  (exists F r, r <> RFuel /\ forall fuel, F <= fuel -> expand_fn_macro (run h) fuel n = r).
Proof.
  intros h n Hs. split.
  - unfold expand_var_macro. destruct (sm_get (var_macros (run h)) n) as [b|] eqn:E.
    2:{ exists 0. eexists. split; [|reflexivity]. discriminate. }
    unfold expand_var_macro_body. destruct (contains_var_args _).
    { exists 0. eexists. split; [|reflexivity]. discriminate. }
    destruct (rescan_terminates h n (tokenize [] b) Hs (bodies_var h Hs _ _ E)) as (F & r & Hr & HF).
    exists F. eexists. split; [|intros fuel Hf; rewrite HF by easy; reflexivity].
    destruct r; simpl; try discriminate; try easy. apply detokenize_no_fuel.
  - unfold expand_fn_macro. destruct (sm_get (fn_macros (run h)) n) as [[ps b]|] eqn:E.
    2:{ exists 0. eexists. split; [|reflexivity]. discriminate. }
    destruct (tokenize_arg_names_res ps) as [[an Ea]|[e Ea]]; rewrite Ea; cbn [rbind].
    2:{ exists 0. eexists. split; [|reflexivity]. discriminate. }
    unfold expand_fn_macro_body. destruct (_ && _). { exists 0. eexists. split; [|reflexivity]. discriminate. }
    assert (E2 : forall bb : bool, (if bb then @None xerr else None) = None) by now intros [].
    rewrite E2. destruct (first_duplicate _). { exists 0. eexists. split; [|reflexivity]. discriminate. }
    cbn [rbind]. destruct (rescan_terminates h n (tokenize an b) Hs (bodies_fn h Hs _ _ _ _ E Ea)) as (F & r & Hr & HF).
    exists F. eexists. split; [|intros fuel Hf; rewrite HF by easy; reflexivity].
    destruct r as [t| | |]; simpl; try discriminate; try easy.
    pose proof (detokenize_no_fuel (length an) t). destruct (detokenize (length an) t); simpl; try discriminate; try easy.
    pose proof (detokenize_no_fuel 0 an). destruct (detokenize 0 an); simpl; try discriminate; easy.
Qed.

(** ** C62 *)

(** [expand] eventually gives [r]. *)
Definition gives (h : list call) (text : list str) (r : res xerr (list mtoken)) : Prop :=
  exists F, forall fuel, F <= fuel -> expand (run h) fuel text = r.

Lemma detokenize_app k a b : detokenize k (a ++ b) = (x <- detokenize k a ;; y <- detokenize k b ;; ROk (x ++ y)).
Proof.
  induction a as [|t a IH]; cbn [app detokenize]; [now destruct (detokenize k b)|].
  rewrite IH. destruct (token_detokenize k t) as [[m|]| | |]; cbn [rbind]; auto;
    destruct (detokenize k a); cbn [rbind]; auto; destruct (detokenize k b); cbn [rbind]; auto.
Qed.

Lemma expand_body h fuel text : ~ In TVarArgs (map from_str text) -> ~ In hashhash (map from_str text) ->
  expand (run h) fuel text = (t <- expand_macro_body (run h) fuel [[]] (map from_str text) ;; detokenize 0 t).
Proof.
  intros Hv Hh. unfold expand, expand_var_macro_body. rewrite tokenize_nil. apply contains_var_args_In in Hv. rewrite Hv.
  unfold concat_and_rescan, expand_concat. rewrite concat_plain by easy. cbn [rbind rev app].
  assert (E : remove_placemarkers (map from_str text) = map from_str text); [|now rewrite E].
  apply filter_all. apply Forall_forall. intros t Ht. apply in_map_iff in Ht. destruct Ht as (s & <- & _).
  pose proof (not_place_spell s) as Hp. now destruct (from_str s).
Qed.

(** C62.  In a set in which every call is written out, a text that starts with
    a written-out part is expanded part by part. *)
Theorem C62_parts : forall h t1 t2 out, written_out_set h -> written_out h (map from_str t1) ->
  ~ In (st "__VA_ARGS__") (t1 ++ t2) -> ~ In hashhash (map from_str t2) ->
  (gives h (t1 ++ t2) (ROk out) <-> exists o1 o2, out = o1 ++ o2 /\ gives h t1 (ROk o1) /\ gives h t2 (ROk o2)).
Proof.
  intros h t1 t2 out Hs Ht1 Hva Hh2.
  pose proof (written_out_good h _ Ht1) as Hg. pose proof (bodies_var h Hs) as Hbv. pose proof (bodies_fn h Hs) as Hbf. pose proof (lines h Hs) as Hl.
  assert (Hh1 : ~ In hashhash (map from_str t1)) by apply Ht1.
  assert (Hv1 : ~ In TVarArgs (map from_str t1)). { apply no_va_text. intros Hi. apply Hva. apply in_app_iff. now left. }
  assert (Hv2 : ~ In TVarArgs (map from_str t2)). { apply no_va_text. intros Hi. apply Hva. apply in_app_iff. now right. }
  assert (E12 : forall fuel, expand (run h) fuel (t1 ++ t2) =
    (t <- expand_macro_body (run h) fuel [[]] (map from_str t1 ++ map from_str t2) ;; detokenize 0 t)).
  { intros fuel. rewrite <- map_app. apply expand_body; rewrite map_app, in_app_iff; tauto. }
  assert (E1 : forall fuel, expand (run h) fuel t1 = (t <- expand_macro_body (run h) fuel [[]] (map from_str t1) ;; detokenize 0 t)).
  { intros fuel. now apply expand_body. }
  assert (E2 : forall fuel, expand (run h) fuel t2 = (t <- expand_macro_body (run h) fuel [[]] (map from_str t2) ;; detokenize 0 t)).
  { intros fuel. now apply expand_body. }
  assert (Hmono : forall l f f', f <= f' -> expand_macro_body (run h) f [[]] l <> RFuel ->
    expand_macro_body (run h) f' [[]] l = expand_macro_body (run h) f [[]] l).
  { intros l f f' Hf Hn. now apply more_fuel. }
  split.
  - intros [F HF]. specialize (HF F (le_n F)). rewrite E12 in HF.
    destruct (expand_macro_body (run h) F [[]] (map from_str t1 ++ map from_str t2)) as [e12| | |] eqn:Ee; try discriminate.
    cbn [rbind] in HF.
    destruct (rest_ends (run h) (run_excl h) Hbv Hbf Hl F [[]] _ _ _ Hg Ee) as [f2 Hf2].
    destruct (good_terminates (run h) (run_excl h) Hbv Hbf Hl [[]] _ Hg) as [f1 Hf1]. destruct (Hf1 f1 (le_n f1)) as [_ Hf1'].
    destruct (expand_parts (run h) (run_excl h) Hbv Hbf Hl f1 [[]] _ (map from_str t2) Hg Hf1') as [P1 P2].
    assert (Hdet : forall f r, r <> RFuel -> expand_macro_body (run h) f [[]] (map from_str t1 ++ map from_str t2) = r -> r = ROk e12).
    { intros f r Hr Er. rewrite <- Er, <- Ee. destruct (Nat.le_ge_cases f F).
      - symmetry. apply Hmono; [easy|congruence].
      - apply Hmono; [easy|congruence]. }
    destruct (expand_macro_body (run h) f1 [[]] (map from_str t1)) as [e1| | |] eqn:Ee1; try easy.
    2:{ destruct P2 as [f Ef]; [discriminate|]. apply Hdet in Ef; discriminate. }
    2:{ destruct P2 as [f Ef]; [discriminate|]. apply Hdet in Ef; discriminate. }
    destruct (P1 e1 eq_refl f2 Hf2) as [f Ef]. apply Hdet in Ef; [|now destruct (expand_macro_body (run h) f2 [[]] (map from_str t2))].
    destruct (expand_macro_body (run h) f2 [[]] (map from_str t2)) as [e2| | |] eqn:Ee2; try discriminate.
    cbn [rmap] in Ef. injection Ef as <-. rewrite detokenize_app in HF.
    destruct (detokenize 0 e1) as [o1| | |] eqn:D1; try discriminate. destruct (detokenize 0 e2) as [o2| | |] eqn:D2; try discriminate.
    cbn [rbind] in HF. injection HF as <-. exists o1, o2. split; [easy|]. split.
    + exists f1. intros fuel Hf. rewrite E1. rewrite (Hmono _ f1); [now rewrite Ee1|easy|rewrite Ee1; discriminate].
    + exists f2. intros fuel Hf. rewrite E2. rewrite (Hmono _ f2); [now rewrite Ee2|easy|rewrite Ee2; discriminate].
  - intros (o1 & o2 & -> & [F1 HF1] & [F2 HF2]). specialize (HF1 F1 (le_n _)). specialize (HF2 F2 (le_n _)). rewrite E1 in HF1. rewrite E2 in HF2.
    destruct (expand_macro_body (run h) F1 [[]] (map from_str t1)) as [e1| | |] eqn:Ee1; try discriminate.
    destruct (expand_macro_body (run h) F2 [[]] (map from_str t2)) as [e2| | |] eqn:Ee2; try discriminate. cbn [rbind] in *.
    destruct (expand_parts (run h) (run_excl h) Hbv Hbf Hl F1 [[]] _ (map from_str t2) Hg) as [P1 _]; [rewrite Ee1; discriminate|].
    destruct (P1 e1 Ee1 F2) as [f Ef]; [rewrite Ee2; discriminate|]. rewrite Ee2 in Ef. unfold rmap in Ef. cbn [rbind] in Ef.
    exists f. intros fuel Hf. rewrite E12, (Hmono _ f); [|easy|rewrite Ef; discriminate]. rewrite Ef. cbn [rbind].
    rewrite detokenize_app, HF1. cbn [rbind]. now rewrite HF2.
Qed.

Notation expansion_in h := (expansion token_concat stringify (macros h)).

Lemma replaced_good h hide k args : written_out_set h -> Forall (good (run h)) args -> Forall (Forall ordinary_or_comment) args -> forall l r x y,
  parameters_replaced (fun a e => expansion_in h hide a (ROk e)) k args l r ->
  run_tokens (run h) x l = Some y -> run_tokens (run h) x r = Some y.
Proof.
  intros Hs Hargs Hclean.
  assert (Hexp : forall a e, good (run h) a -> Forall ordinary_or_comment a -> expansion_in h hide a (ROk e) -> good (run h) e).
  { intros a e Ha Hc He. apply expansion_iff in He; [|apply run_excl|easy]. destruct He as [_ [F HF]]. specialize (HF F (le_n F)).
    exact (proj1 (expand_keeps (run h) (run_excl h) (bodies_var h Hs) (bodies_fn h Hs) (lines h Hs) F hide a e Ha HF)). }
  assert (Hput : forall e s y l r, good (run h) e -> (run_tokens (run h) (s, false) l = Some y -> run_tokens (run h) (s, false) r = Some y) ->
    run_tokens (run h) (s, false) l = Some y -> run_tokens (run h) (s, false) (e ++ r) = Some y).
  { intros e s y l r He Hlr Hl. rewrite run_app, (good_anywhere (run h) e s He). auto. }
  assert (Hparam : forall t x z, parameter_token t -> step (run h) x t = Some z -> exists s, x = (s, false) /\ z = (s, false)).
  { intros t [s fl] z Ht Ez. unfold step in Ez. destruct Ht as [-> | [i ->]]; cbn [is_punct] in Ez; (destruct fl; [discriminate|]; injection Ez as <-; now exists s). }
  intros l r x y Hp. revert x. induction Hp as [|t l r Ht Hp IH|i a e l r Ha He Hp IH|e l r Hk He Hp IH]; intros x Hr; [easy|..].
  - cbn [run_tokens] in *. destruct (step (run h) x t); [auto|discriminate].
  - cbn [run_tokens] in Hr. destruct (step (run h) x (TArg i)) as [z|] eqn:E; [|discriminate].
    apply Hparam in E; [|right; now eexists]. destruct E as (s & -> & ->). 
    apply Hput with (l := l); auto. apply nth_error_In in Ha. rewrite Forall_forall in Hargs, Hclean. eauto.
  - cbn [run_tokens] in Hr. destruct (step (run h) x TVarArgs) as [z|] eqn:E; [|discriminate].
    apply Hparam in E; [|now left]. destruct E as (s & -> & ->). 
    apply Hput with (l := l); auto. eapply Hexp; [| |exact He].
    + apply (argument_good (run h) (lines h Hs) (S k) args TVarArgs); [easy|]. simpl. destruct (Nat.leb_spec k (length args)); [easy|lia].
    + assert (Hsk : Forall (Forall ordinary_or_comment) (skipn k args)).
      { rewrite <- (firstn_skipn k args) in Hclean. now apply Forall_app in Hclean. }
      revert Hsk. generalize (skipn k args). clear. induction l as [|a l IH]; intros Hl; [constructor|]. inversion Hl; subst.
      destruct l as [|b l]; [easy|]. change (comma_separated (a :: b :: l)) with (a ++ comma :: comma_separated (b :: l)).
      apply Forall_app. split; [easy|]. constructor; [|auto]. split; [easy|]. intros [? X]. discriminate X.
Qed.

(** A text that is one call (of a macro without operators): the body with the
    parameters replaced by the expanded arguments, expanded with the macro
    excluded; nothing else happens to it. *)
Theorem C62_call : forall h text n ps ids v body args out,
  written_out_set h -> written_out h (map from_str text) ->
  first_call h text [] n (Function (length ids) v (map (body_token ids) body)) args [] ->
  defined (rev h) n = Some (DFn ps body) -> parameter_list ps ids v ->
  (v = false -> ~ In (st "__VA_ARGS__") body /\ accepted (length ids) args) ->
  no_operators (map (body_token ids) body) ->
  (forall t a e, argument_for (length ids) args t = Some a -> expansion_in h [[]] a (ROk e) -> no_operators e) ->
  (gives h text (ROk out) <->
   exists body' e,
     parameters_replaced (fun a e => expansion_in h [[]] a (ROk e)) (length ids) args (map (body_token ids) body) body' /\
     expansion_in h [n; []] body' (ROk e) /\ delivered (ROk e) = ROk out).
Proof.
  intros h text n ps ids v body args out Hs Ht Hfc Hd Hp Hv Hno Hargs.
  unfold gives. rewrite (C14_call h text [] n ps ids v body args [] out Hfc Hd Hp Hv Hno Hargs).
  destruct Hfc as (Hva & Hh & Hl).
  pose proof (good_leftmost (run h) [[]] _ _ _ _ _ _ (written_out_good h _ Ht) Hl) as [Hga _].
  assert (Htidy : Forall (fun a => Forall ordinary_or_comment a /\ Forall (thru not_place) a) args).
  { destruct Hl as (t & E & Hi & _). inversion Hi; subst. eapply text_tidy; eauto using no_va_text. }
  assert (Hc : Forall (Forall ordinary_or_comment) args). { revert Htidy. apply Forall_impl. now intros a [? _]. }
  assert (Hb : good (run h) (map (body_token ids) body)). { apply written_out_good. destruct Hs as (_ & Hf & _). eauto. }
  assert (Hsett : forall b' e, parameters_replaced (fun a e => expansion_in h [[]] a (ROk e)) (length ids) args (map (body_token ids) body) b' ->
    expansion_in h [n; []] b' (ROk e) -> forall x, expansion_in h [[]] ([] ++ e ++ []) x <-> x = ROk e).
  { intros b' e Hb' He x.
    assert (Hgb : good (run h) b') by exact (replaced_good h [[]] (length ids) args Hs Hga Hc _ _ _ _ Hb' Hb).
    destruct (parameters_replaced_tidy h [[]] (length ids) args _ b' Htidy (body_tidy ids body) Hb') as [Hcb _].
    pose proof (expand_keeps (run h) (run_excl h) (bodies_var h Hs) (bodies_fn h Hs) (lines h Hs)) as Hk.
    assert (Hce : Forall ordinary_or_comment e).
    { apply (expansion_tidy h [n; []] b' e); [|easy]. exact (parameters_replaced_tidy h [[]] (length ids) args _ b' Htidy (body_tidy ids body) Hb'). }
    apply expansion_iff in He; [|apply run_excl|easy]. destruct He as [_ [F HF]]. specialize (HF F (le_n F)).
    destruct (Hk F [n; []] b' e Hgb HF) as [_ Hse].
    assert (Hse1 : settled (run h) [[]] e). { intros id Hi. destruct (Hse id Hi) as [H1 H2]. split; [easy|]. intros Hx. apply H2. now right. }
    cbn [app]. rewrite app_nil_r.
    assert (Hev : forall f, expand_macro_body (run h) (S f) [[]] e = ROk e).
    { intros f. pose proof (expand_settled (run h) [[]] e Hse1 (S f) []) as X. rewrite app_nil_r in X. rewrite X. simpl. now rewrite app_nil_r. }
    rewrite (expansion_iff (run h) (run_excl h) [[]] e x Hce : expansion_in h [[]] e x <-> _). split.
    - intros [_ [G HG]]. specialize (HG (S G) (Nat.le_succ_diag_r G)). rewrite Hev in HG. now symmetry.
    - intros ->. split; [discriminate|]. exists 1. intros f Hf. destruct f; [lia|]. apply Hev. }
  split.
  - intros (b' & e & x & Hb' & He & Hx & E). exists b', e. split; [easy|]. split; [easy|]. apply (Hsett b' e Hb' He) in Hx. now subst x.
  - intros (b' & e & Hb' & He & E). exists b', e, (ROk e). split; [easy|]. split; [easy|]. split; [|easy]. now apply (Hsett b' e Hb' He).
Qed.
End S.

(** ** The hypotheses are met *)

(** A macro that calls another one and itself, mutually recursive object-like
    macros, and a variadic macro that stringifies. *)
Definition demo_written : list call :=
  [DefineFn (st "max") [st "a"; st "b"] [st "("; st "a"; st ">"; st "b"; st "?"; st "a"; st ":"; st "b"; st ")"];
   DefineFn (st "square") [st "x"] [st "max"; st "("; st "N"; st ","; st "square"; st "("; st "x"; st ")"; st ")"];
   DefineVar (st "N") [st "M"; st "-"; st "1"];
   DefineVar (st "M") [st "N"; st "+"; st "square"; st "("; st "M"; st ")"];
   DefineFn (st "log") [st "f"; st "..."] [st "f"; st "("; st "#"; st "__VA_ARGS__"; st ")"]].
Definition demo_call : list str := [st "log"; st "("; st "square"; st "("; st "y"; st ")"; st ","; st "("; st "N"; st ")"; st ")"].

(** A decidable form of [complete]. *)
Fixpoint checked (fn : str -> bool) (open : list token) (must : bool) (l : list token) : bool :=
  match l with
  | [] => match open with [] => negb must | _ => false end
  | t :: l' =>
    if is_punct (st "(") t then checked fn (TPunct (st ")") :: open) false l'
    else if must then false
    else if is_punct (st "[") t then checked fn (TPunct (st "]") :: open) false l'
    else if is_punct (st "{") t then checked fn (TPunct (st "}") :: open) false l'
    else if is_punct (st ")") t || is_punct (st "]") t || is_punct (st "}") t then
      match open with
      | TPunct c :: open' => if is_punct c t then checked fn open' false l' else false
      | _ => false
      end
    else if is_punct (st "##") t then false
    else checked fn open match t with TIdent id => fn id | _ => false end l'
  end.
Fixpoint closed_by (open : list token) (l : list token) : Prop :=
  match open with
  | [] => balanced l
  | c :: open' => exists x rest, l = x ++ c :: rest /\ balanced x /\ closed_by open' rest
  end.
Lemma closed_token t open l : ~ bracket t -> closed_by open l -> closed_by open (t :: l).
Proof.
  destruct open as [|c open]; simpl; intros Ht Hl; [now constructor|]. destruct Hl as (x & rest & -> & Hx & Hr).
  exists (t :: x), rest. repeat split; auto. now constructor.
Qed.
Lemma closed_group o c open l : matching o c -> closed_by (c :: open) l -> closed_by open (o :: l).
Proof.
  simpl. intros Hm (x & rest & -> & Hx & Hr). destruct open as [|c' open]; simpl in *; [now constructor|].
  destruct Hr as (y & rest' & -> & Hy & Hr). exists (o :: x ++ c :: y), rest'. split; [simpl; now rewrite <- app_assoc|].
  split; [now constructor|easy].
Qed.
Lemma checked_complete fn l : forall open must, checked fn open must l = true ->
  closed_by open l /\ ~ In hashhash l /\ (must = true -> exists rest, l = TPunct (st "(") :: rest) /\
  forall pre id post, l = pre ++ TIdent id :: post -> fn id = true -> exists rest, post = TPunct (st "(") :: rest.
Proof.
  induction l as [|t l IH]; intros open must Hc.
  { simpl in Hc. destruct open; [|discriminate]. destruct must; [discriminate|]. repeat split; [constructor|easy|discriminate|].
    intros [|] ? ? E; discriminate. }
  cbn [checked] in Hc.
  assert (Hp : forall q u, is_punct (st q) u = true -> u = TPunct (st q)).
  { intros q u Hu. destruct u as [| | |p| | | | | |]; try discriminate Hu. cbn [is_punct] in Hu. destruct (str_eqb_spec p (st q)) as [Ep|]; [now rewrite Ep|discriminate]. }
  assert (Hq : forall c u, is_punct c u = true -> u = TPunct c).
  { intros c u Hu. destruct u as [| | |p| | | | | |]; try discriminate Hu. cbn [is_punct] in Hu. destruct (str_eqb_spec p c) as [Ep|]; [now rewrite Ep|discriminate]. }
  assert (Hrest : forall must', (forall id, t = TIdent id -> fn id = true -> must' = true) -> 
    (must' = true -> exists rest, l = TPunct (st "(") :: rest) ->
    (forall pre id post, l = pre ++ TIdent id :: post -> fn id = true -> exists rest, post = TPunct (st "(") :: rest) ->
    forall pre id post, t :: l = pre ++ TIdent id :: post -> fn id = true -> exists rest, post = TPunct (st "(") :: rest).
  { intros must' H1 H2 H3 [|x pre] id post E Hf.
    - simpl in E. injection E as -> ->. apply H2. eapply H1; eauto.
    - simpl in E. injection E as -> ->. eapply H3; eauto. }
  destruct (is_punct (st "(") t) eqn:E1.
  { apply Hp in E1. subst t. apply IH in Hc. destruct Hc as (H1 & H2 & H3 & H4). split; [eapply closed_group; [apply m_paren|easy]|].
    split; [intros [X|X]; [discriminate X|easy]|]. split; [now eexists|]. apply (Hrest false); auto. intros; discriminate. }
  destruct must; [discriminate|].
  destruct (is_punct (st "[") t) eqn:E2.
  { apply Hp in E2. subst t. apply IH in Hc. destruct Hc as (H1 & H2 & H3 & H4). split; [eapply closed_group; [apply m_square|easy]|].
    split; [intros [X|X]; [discriminate X|easy]|]. split; [discriminate|]. apply (Hrest false); auto. intros; discriminate. }
  destruct (is_punct (st "{") t) eqn:E3.
  { apply Hp in E3. subst t. apply IH in Hc. destruct Hc as (H1 & H2 & H3 & H4). split; [eapply closed_group; [apply m_brace|easy]|].
    split; [intros [X|X]; [discriminate X|easy]|]. split; [discriminate|]. apply (Hrest false); auto. intros; discriminate. }
  destruct (is_punct (st ")") t || is_punct (st "]") t || is_punct (st "}") t) eqn:E4.
  { destruct open as [|c open]; [discriminate|]. destruct c as [| | |c| | | | | |]; try discriminate.
    destruct (is_punct c t) eqn:E5; [|discriminate]. apply Hq in E5. subst t. apply IH in Hc. destruct Hc as (H1 & H2 & H3 & H4).
    split; [exists [], l; repeat split; [constructor|easy]|].
    split. { intros [X|X]; [|easy]. injection X as ->. discriminate E4. }
    split; [discriminate|]. apply (Hrest false); auto. intros; discriminate. }
  destruct (is_punct (st "##") t) eqn:E5; [discriminate|]. apply IH in Hc. destruct Hc as (H1 & H2 & H3 & H4).
  apply orb_false_iff in E4. destruct E4 as [E4 E7]. apply orb_false_iff in E4. destruct E4 as [E4 E6].
  split; [apply closed_token; [|easy]; intros [u [X|X]]; inversion X; subst; discriminate|].
  split; [intros [X|X]; [subst t; discriminate E5|easy]|]. split; [discriminate|].
  eapply Hrest; [|exact H3|exact H4]. intros id -> Hf. exact Hf.
Qed.

Lemma checked_written `{Unicode} h l : checked (is_fn (run h)) [] false l = true -> written_out h l.
Proof.
  intros Hc. apply checked_complete in Hc. destruct Hc as (H1 & H2 & _ & H4). repeat split; auto.
  intros pre id post E Hf. apply (H4 pre id post E). now apply is_fn_run.
Qed.

(** A set is checked body by body. *)
Definition check_set `{Unicode} (s : macro_set) : bool :=
  forallb (fun d => checked (is_fn s) [] false (map from_str (snd d))) (var_macros s) &&
  forallb (fun d => match tokenize_arg_names (fst (snd d)) with
    | ROk an => checked (is_fn s) [] false (tokenize an (snd (snd d)))
    | _ => true
    end) (fn_macros s) &&
  negb (is_fn s (st "__LINE__")) && negb (is_fn s (st "__FILE__")).
Lemma checked_set `{Unicode} h : check_set (run h) = true -> written_out_set h.
Proof.
  assert (Hget : forall V (m : smap V) k v, sm_get m k = Some v -> In (k, v) m).
  { intros V m k v. induction m as [|[k' v'] m IH]; simpl; [discriminate|]. destruct (str_eqb_spec k k') as [->|].
    - intros E. injection E as ->. now left.
    - intros E. right. auto. }
  intros Hs. unfold check_set in Hs. apply andb_true_iff in Hs. destruct Hs as [Hs H2]. apply andb_true_iff in Hs. destruct Hs as [Hs H1].
  apply andb_true_iff in Hs. destruct Hs as [Hv Hf]. rewrite forallb_forall in Hv, Hf. apply negb_true_iff in H1, H2.
  split; [|split; [|split]].
  - intros n b Hd. pose proof (run_holds h n) as Hr. rewrite Hd in Hr. destruct Hr as [Hr _]. apply Hget in Hr.
    apply checked_written. exact (Hv _ Hr).
  - intros n ps b ids v Hd Hp. pose proof (run_holds h n) as Hr. rewrite Hd in Hr. destruct Hr as [_ Hr]. apply Hget in Hr.
    destruct (parameter_list_names ps ids v Hp) as (an & Ea & _ & _ & Hb). apply checked_written. rewrite <- Hb.
    apply Hf in Hr. cbn [fst snd] in Hr. now rewrite Ea in Hr.
  - intros Hn. apply is_fn_run in Hn. congruence.
  - intros Hn. apply is_fn_run in Hn. congruence.
Qed.

Definition word (m : mtoken) : str :=
  match m with MIdent i => i | MPunct p => p | MLit (LString (SOrdinary b)) => [34%N] ++ b ++ [34%N] | MLit _ => st "1" | _ => [] end.
Example C08_written_out_case :
  @written_out_set demo_unicode demo_written /\ @written_out demo_unicode demo_written (map from_str demo_call) /\
  exists out, expand (run demo_written) 20 demo_call = ROk out /\ map word out = map st
    ["("; "N"; "+"; "square"; "("; "M"; ")"; "-"; "1"; ">"; "square"; "("; "y"; ")"; "?"; "N"; "+"; "square"; "("; "M"; ")"; "-"; "1";
     ":"; "square"; "("; "y"; ")"; ")"; "("; """(N)"""; ")"]%string.
Proof.
  split; [|split].
  - apply checked_set. vm_compute. reflexivity.
  - apply checked_written. vm_compute. reflexivity.
  - eexists. split; [vm_compute; reflexivity|]. vm_compute. reflexivity.
Qed.

(** The text [log(square(y), (N)) ; N]. *)
Example C62_case : forall out,
  gives demo_written (demo_call ++ [st ";"; st "N"]) (ROk out) <->
  exists o1 o2, out = o1 ++ o2 /\ gives demo_written demo_call (ROk o1) /\ gives demo_written [st ";"; st "N"] (ROk o2).
Proof.
  intros out. apply C62_parts.
  - apply C08_written_out_case.
  - apply C08_written_out_case.
  - vm_compute. intuition discriminate.
  - vm_compute. intuition discriminate.
Qed.

Local Open Scope string_scope.
Local Open Scope list_scope.
(** The call [f(A, 2)] with [f(x, y)] being [x + g(y)], [g(z)] being [z z]. *)
Example C62_call_case : forall out, gives ex_set (words ["f"; "("; "A"; ","; "2"; ")"]) (ROk out) <->
  exists body' e,
    parameters_replaced (fun a e => expansion token_concat stringify (macros ex_set) [[]] a (ROk e)) 2 [[TIdent (st "A")]; [from_str (st "2")]]
      (map (body_token (words ["x"; "y"])) (words ["x"; "+"; "g"; "("; "y"; ")"])) body' /\
    expansion token_concat stringify (macros ex_set) [st "f"; []] body' (ROk e) /\ delivered (ROk e) = ROk out.
Proof.
  intros out. apply (C62_call ex_set _ (st "f") (words ["x"; "y"]) (words ["x"; "y"]) false _ _ out).
  - apply checked_set. vm_compute. reflexivity.
  - apply checked_written. vm_compute. reflexivity.
  - split; [|split]; try (intros Hi; vm_compute in Hi; intuition discriminate).
    eexists. split; [reflexivity|]. split.
    + apply iv_function; [vm_compute; intuition discriminate|vm_compute; reflexivity|discriminate|].
      split; [discriminate|]. split; [|reflexivity]. repeat constructor; try discriminate; not_bracket.
    + intros p q E Hq. destruct p, q; try discriminate; now destruct Hq.
  - reflexivity.
  - split; [reflexivity|]. repeat constructor; simpl; intuition discriminate.
  - intros _. split; [intros Hi; vm_compute in Hi; intuition discriminate|]. now left.
  - split; intros Hi; vm_compute in Hi; intuition discriminate.
  - intros t a e Ha He.
    assert (Hc : forall s, s = st "A" \/ s = st "2" -> Forall ordinary_or_comment [from_str s]).
    { intros s [-> | ->]; (constructor; [|constructor]); apply clean_spell; discriminate. }
    destruct t; try discriminate; simpl in Ha.
    + destruct i as [|[|i]]; simpl in Ha; [| |destruct i; discriminate]; injection Ha as <-.
      * apply (ex_expansion 20 _ _ (ROk [from_str (st "1")])) in He; [|apply (Hc (st "A")); now left|reflexivity|discriminate].
        injection He as ->. split; intros Hi; vm_compute in Hi; intuition discriminate.
      * apply (ex_expansion 20 _ _ (ROk [from_str (st "2")])) in He; [|apply (Hc (st "2")); now right|reflexivity|discriminate].
        injection He as ->. split; intros Hi; vm_compute in Hi; intuition discriminate.
    + injection Ha as <-. apply (ex_expansion 20 _ _ (ROk [])) in He; [|constructor|reflexivity|discriminate].
      injection He as ->. split; now intros Hi.
Qed.

(** Without the hypothesis it fails: a name and its arguments are no parts. *)
Theorem C62_name_alone_refuted : exists h t1 t2 o1 o2 o, 
  gives h t1 (ROk o1) /\ gives h t2 (ROk o2) /\ gives h (t1 ++ t2) (ROk o) /\ o <> o1 ++ o2.
Proof.
  exists [DefineFn (st "f") [] [st "1"]], [st "f"], [st "("; st ")"].
  eexists _, _, _. repeat split.
  - exists 10. intros fuel Hf. do 10 (destruct fuel as [|fuel]; [lia|]). reflexivity.
  - exists 10. intros fuel Hf. do 10 (destruct fuel as [|fuel]; [lia|]). reflexivity.
  - exists 10. intros fuel Hf. do 10 (destruct fuel as [|fuel]; [lia|]). reflexivity.
  - discriminate.
Qed.

Print Assumptions C08_written_out_text_partial.
Print Assumptions C08_written_out_macros_partial.
Print Assumptions C62_parts.
Print Assumptions C62_call.
Print Assumptions C62_name_alone_refuted.
