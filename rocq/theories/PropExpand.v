(** C13-C15, C52: calls of function-like macros; expansion in general is the
    relation of SpecExpand.v. *)
From Verif Require Import Base Utf Lex LexFloat Token MacroSet StrFacts LexFacts SpecSet SetFacts SpecCall CallFacts
  ExpandFacts ExpandInv TokenFacts SpecTokens ParamFacts SpecPaste PasteFacts SpecRescan SpecExpand ObjFacts FullFacts PropObject.
From Coq Require Import String List.
Local Open Scope list_scope.

(** What the spellings of a replacement list mean when the parameters are [ids]. *)
Fixpoint index_of (ids : list str) (s : str) : option nat :=
  match ids with
  | [] => None
  | id :: ids' => if same_name id s then Some 0 else option_map S (index_of ids' s)
  end.
Definition body_token `{Unicode} (ids : list str) (s : str) : token :=
  match index_of ids s with Some i => TArg i | None => from_str s end.

Section S.
Context `{Unicode}.

(** The macros after a history, in the terms of SpecExpand.v; described by
    [C52_macros]. *)
Definition macros (h : list call) : str -> option macro_def := macro_of (run h).

Lemma run_excl h : forall id, sm_get (fn_macros (run h)) id = None \/ sm_get (var_macros (run h)) id = None.
Proof.
  intros id. pose proof (run_holds h id) as Hh. destruct (defined (rev h) id) as [[b|p b]|]; simpl in Hh; destruct Hh; auto.
Qed.

Lemma tokenize_nil b : tokenize [] b = map from_str b.
Proof. easy. Qed.

Lemma parameter_list_names ps ids v : parameter_list ps ids v ->
  exists an, tokenize_arg_names ps = ROk an /\ ids_of an = ids /\ is_variadic (drop_comments an) = v /\
  forall b, tokenize an b = map (body_token ids) b.
Proof.
  intros Hp. exists (map from_str ps). split; [apply tokenize_arg_names_iff; split; [easy|now exists ids, v]|].
  pose proof (drop_comments_names ps ids v Hp) as Ed. set (an := map from_str ps) in *.
  split; [eapply ids_of_drop; eauto|]. split; [rewrite Ed; apply is_variadic_names|].
  intros b. unfold tokenize. apply map_ext. intros s. unfold body_token.
  assert (Ep : arg_position s 0 an = index_of ids s); [|now rewrite Ep].
  assert (Ec : forall l i, arg_position s i l = arg_position s i (drop_comments l)).
  { unfold drop_comments. induction l as [|t l IH]; intros i; [easy|]. simpl. destruct t; simpl; auto. now rewrite IH. }
  rewrite Ec, Ed. clear.
  assert (Hi : forall i, arg_position s i (map TIdent ids ++ (if v then [TPunct (st "...")] else [])) = option_map (Nat.add i) (index_of ids s)).
  { induction ids as [|x ids IH]; intros i; simpl.
    - destruct v; easy.
    - rewrite same_name_eqb, (str_eqb_sym x s). destruct (str_eqb s x) eqn:Ex; simpl.
      + now rewrite Nat.add_0_r.
      + rewrite IH. destruct (index_of ids s); simpl; [|easy]. now rewrite Nat.add_succ_r. }
  rewrite Hi. now destruct (index_of ids s).
Qed.

(** The macros in terms of the calls that defined them. *)
Theorem C52_macros : forall h n,
  match defined (rev h) n with
  | None => macros h n = None
  | Some (DVar b) => macros h n = Some (Object (map from_str b))
  | Some (DFn ps b) =>
    (forall ids v, parameter_list ps ids v -> macros h n = Some (Function (length ids) v (map (body_token ids) b))) /\
    ((forall ids v, ~ parameter_list ps ids v) -> exists e, macros h n = Some (Malformed e))
  end.
Proof.
  intros h n. pose proof (run_holds h n) as Hh. unfold macros, macro_of.
  destruct (defined (rev h) n) as [[b|ps b]|]; simpl in Hh; destruct Hh as [H1 H2]; rewrite H2.
  - now rewrite H1.
  - split.
    + intros ids v Hp. destruct (parameter_list_names ps ids v Hp) as (an & -> & -> & -> & Hb). now rewrite Hb.
    + intros Hn. destruct (tokenize_arg_names_res ps) as [[an E]|[e E]].
      * apply tokenize_arg_names_iff in E. destruct E as (_ & ids & v & Hp). now apply Hn in Hp.
      * rewrite E. now exists e.
  - now rewrite H1.
Qed.

Notation clean := (Forall ordinary_or_comment).
Notation expansion_in h := (expansion token_concat stringify (macros h)).
Notation replaced_in h := (replaced token_concat stringify (macros h)).

(** The tokens handed to the user. *)
Definition delivered (r : res xerr (list token)) : res xerr (list mtoken) := l <- r ;; detokenize 0 l.

Lemma detokenize_no_fuel k l : detokenize k l <> RFuel.
Proof.
  induction l as [|t l IH]; simpl; [discriminate|].
  assert (Ht : token_detokenize k t <> RFuel). { induction t; simpl; try discriminate; try easy. destruct k; discriminate. }
  destruct (token_detokenize k t); simpl; try discriminate; try easy. destruct (detokenize k l); simpl; try discriminate. easy.
Qed.

(** [expand] and [expand_var_macro] share this. *)
Definition body_result h f name body : res xerr (list token) :=
  expand_var_macro_body (expand_macro_body (run h) f) [] name (tokenize [] body).

Lemma body_result_le h f f' name body : f <= f' -> le_res (body_result h f name body) (body_result h f' name body).
Proof. intros Hf. apply expand_var_macro_body_le. intros n b. now apply expand_macro_body_le. Qed.

Lemma body_result_sound h f name body : body_result h f name body <> RFuel ->
  replaced_in h [] name (Object (map from_str body)) [] (body_result h f name body).
Proof.
  intros Hr. unfold body_result, expand_var_macro_body in *. rewrite tokenize_nil in *.
  destruct (contains_var_args (map from_str body)) eqn:Ec.
  - apply rl_object_va. now apply contains_true.
  - apply contains_var_args_In in Ec. apply rl_object; [easy|].
    apply (processed_sound (run h) (expand_macro_body (run h) f)); auto.
    + intros hide l Hl Hne. apply expansion_sound; auto using run_excl.
    + rewrite <- tokenize_nil in *. now apply clean_object.
Qed.

Lemma body_result_complete h name body x : replaced_in h [] name (Object (map from_str body)) [] x ->
  eventually (fun f => body_result h f name body) x.
Proof.
  intros Hx. inversion Hx; subst.
  - match goal with hp : processed _ _ _ _ _ _ _ |- _ =>
      apply (expansion_complete (run h) (run_excl h)) in hp; [|easy|rewrite <- tokenize_nil in *; now apply clean_object] end.
    eapply eventually_ext; [|eassumption]. intros f. unfold body_result, expand_var_macro_body. rewrite tokenize_nil.
    match goal with hv : ~ In TVarArgs _ |- _ => apply contains_var_args_In in hv; now rewrite hv end.
  - apply eventually_const; [discriminate|]. intros f. unfold body_result, expand_var_macro_body. rewrite tokenize_nil.
    match goal with hv : In TVarArgs _ |- _ => apply contains_true in hv; now rewrite hv end.
Qed.

Lemma delivered_result h name body r : r <> RFuel ->
  ((exists F, forall f, F <= f -> delivered (body_result h f name body) = r) <->
   exists x, replaced_in h [] name (Object (map from_str body)) [] x /\ r = delivered x).
Proof.
  intros Hr. split.
  - intros [F HF]. specialize (HF F (le_n F)). exists (body_result h F name body). split; [|easy].
    apply body_result_sound. intros E. rewrite E in HF. simpl in HF. congruence.
  - intros (x & Hx & ->). destruct (body_result_complete _ _ _ _ Hx) as [_ [F HF]]. exists F. intros f Hf. now rewrite HF.
Qed.

Lemma diverges_result h name body :
  (forall f, delivered (body_result h f name body) = RFuel) <->
  ~ exists x, replaced_in h [] name (Object (map from_str body)) [] x.
Proof.
  split.
  - intros Hf [x Hx]. destruct (body_result_complete _ _ _ _ Hx) as [Hne [F HF]]. specialize (Hf F).
    rewrite HF in Hf by easy. destruct x; simpl in Hf; try congruence. now apply detokenize_no_fuel in Hf.
  - intros Hn f. destruct (body_result h f name body) eqn:E; try easy; exfalso; apply Hn; rewrite <- ?E; eexists;
      apply (body_result_sound h f); congruence.
Qed.

(** C52.  [expand] gives exactly what SpecExpand.v derives for the text, taken
    as the replacement list of a nameless macro: [r] is its eventual result
    iff it is derivable. *)
Theorem C52_expand : forall h text r, r <> RFuel ->
  ((exists F, forall fuel, F <= fuel -> expand (run h) fuel text = r) <->
   exists x, replaced_in h [] [] (Object (map from_str text)) [] x /\ r = delivered x).
Proof. intros h text r Hr. exact (delivered_result h [] text r Hr). Qed.

(** It does not return exactly if nothing is derivable. *)
Theorem C52_expand_diverges : forall h text,
  (forall fuel, expand (run h) fuel text = RFuel) <-> ~ exists x, replaced_in h [] [] (Object (map from_str text)) [] x.
Proof. intros h text. exact (diverges_result h [] text). Qed.

Theorem C52_expand_var_macro : forall h n body r, r <> RFuel -> defined (rev h) n = Some (DVar body) ->
  ((exists F, forall fuel, F <= fuel -> expand_var_macro (run h) fuel n = r) <->
   exists x, replaced_in h [] n (Object (map from_str body)) [] x /\ r = delivered x).
Proof.
  intros h n body r Hr Hd. rewrite <- (delivered_result h n body r Hr). unfold expand_var_macro.
  pose proof (run_holds h n) as Hh. rewrite Hd in Hh. destruct Hh as [-> _]. reflexivity.
Qed.

(** ** Derived: what a call gives *)

(** A text without [##]. *)
Lemma pasted_plain l : ~ In hashhash l -> pasted token_concat l (ROk l).
Proof.
  induction l as [|t l IH]; intros Hn; [constructor|].
  assert (Hl : pasted token_concat l (ROk l)). { apply IH. intros Hi. apply Hn. now right. }
  destruct t as [u|i| |p|id|s|lt s|s|c|].
  9:{ change (ROk (TComment c :: l)) with (@rmap xerr _ _ (cons (TComment c)) (ROk l)). apply pa_comment; [now exists c|easy]. }
  all: match goal with |- pasted _ (?t :: ?l) _ =>
    change (ROk (t :: l)) with (@rmap xerr _ _ (cons t) (ROk l));
    apply pa_chain with (rest := l); [now intros [? ?]|intros E; apply Hn; now left| |easy] end.
  all: apply ch_end; intros (cs & l' & _ & ->); apply Hn; right; apply in_app_iff; right; now left.
Qed.

Lemma filter_all {A} (f : A -> bool) l : Forall (fun x => f x = true) l -> filter f l = l.
Proof. induction 1 as [|x l Hx Hl IH]; simpl; [easy|]. rewrite Hx. now f_equal. Qed.

Lemma no_placeholder s : is_placeholder (from_str s) = false.
Proof. pose proof (not_place_spell s) as Hp. now destruct (from_str s). Qed.

Lemma placeholder_free text : filter (fun t => negb (is_placeholder t)) (map from_str text) = map from_str text.
Proof.
  apply filter_all. apply Forall_forall. intros t Ht. apply in_map_iff in Ht. destruct Ht as (s & <- & _).
  now rewrite no_placeholder.
Qed.

(** The text has the given expansion. *)
Lemma expand_text h text r : r <> RFuel -> ~ In hashhash (map from_str text) -> ~ In TVarArgs (map from_str text) ->
  ((exists F, forall fuel, F <= fuel -> expand (run h) fuel text = r) <->
   exists x, expansion_in h [[]] (map from_str text) x /\ r = delivered x).
Proof.
  intros Hr Hh Hv. rewrite C52_expand by easy. split; intros (x & Hx & E); exists x; split; auto.
  - inversion Hx; subst; try easy.
    match goal with hp : processed _ _ _ _ _ _ _ |- _ => inversion hp; subst end.
    + match goal with hp : pasted _ _ (ROk c) |- _ =>
        apply (expand_concat_iff _ _ (clean_object _ Hv)) in hp;
        rewrite (proj2 (expand_concat_iff _ _ (clean_object _ Hv)) (pasted_plain _ Hh)) in hp; injection hp as <- end.
      now rewrite placeholder_free in *.
    + match goal with hp : pasted _ _ x |- _ =>
        apply (expand_concat_iff _ _ (clean_object _ Hv)) in hp;
        rewrite (proj2 (expand_concat_iff _ _ (clean_object _ Hv)) (pasted_plain _ Hh)) in hp; subst x end.
      match goal with hn : ~ succeeded _ |- _ => exfalso; apply hn; now eexists end.
  - apply rl_object; [easy|]. eapply pr_rescan; [now apply pasted_plain|]. now rewrite placeholder_free.
Qed.

Lemma mark_text text : map (mark [[]]) (map from_str text) = map from_str text.
Proof.
  rewrite map_map. apply map_ext. intros s. unfold mark. destruct (from_str s) eqn:E; try easy.
  destruct (in_dec _ _ _) as [[<-|[]]|_]; [|easy]. exfalso. revert E.
  apply (from_str_cases (fun t => t <> TIdent [])); intros; try discriminate.
  intros E. injection E as ->. match goal with h : identifier_try_from _ = _ |- _ => now apply identifier_try_from_ok in h end.
Qed.

Lemma pasted_plain_only l c : clean l -> ~ In hashhash l -> pasted token_concat l c -> c = ROk l.
Proof.
  intros Hl Hn Hp. apply (expand_concat_iff _ _ Hl) in Hp. 
  now rewrite (proj2 (expand_concat_iff _ _ Hl) (pasted_plain _ Hn)) in Hp.
Qed.

Notation tidy l := (clean l /\ Forall (thru not_place) l).

Lemma expansion_tidy h hide l e : tidy l -> expansion_in h hide l (ROk e) -> tidy e.
Proof.
  intros [Hl Hl2] Hx. apply expansion_iff in Hx; [|apply run_excl|easy]. destruct Hx as [_ [F HF]].
  specialize (HF F (le_n F)). split.
  - pose proof (expand_macro_body_clean (run h) F hide l Hl) as Hs. now rewrite HF in Hs.
  - eapply macro_body_result; [apply not_place_closed|intros; apply not_place_spell|exact Hl2|exact HF].
Qed.

Lemma tidy_no_place l : tidy l -> filter (fun t => negb (is_placeholder t)) l = l.
Proof.
  intros [_ Hl]. apply filter_all. revert Hl. apply Forall_impl. intros t Ht. now destruct t.
Qed.

Lemma tidy_app a b : tidy a -> tidy b -> tidy (a ++ b).
Proof. intros [H1 H2] [H3 H4]. rewrite !Forall_app. auto. Qed.

Lemma tidy_text text : ~ In TVarArgs (map from_str text) -> tidy (map from_str text).
Proof.
  intros Hn. split; [now apply clean_object|]. apply from_str_not_place.
Qed.

Lemma not_ends_app out e t : ~ ends_with out t -> ~ In t e -> ~ ends_with (out ++ e) t.
Proof.
  intros Ho He [o E]. destruct e as [|x e] using rev_ind.
  - rewrite app_nil_r in E. apply Ho. now exists o.
  - rewrite app_assoc in E. apply app_inj_tail in E. destruct E as [_ ->]. apply He. apply in_app_iff. right. now left.
Qed.

(** Substitution in bodies without [#] and [##]. *)
Lemma substituted_plain h hide k args :
  (forall t a e, argument_for k args t = Some a -> expansion_in h hide a (ROk e) -> ~ In hash e /\ ~ In hashhash e) ->
  forall body out s, ~ In hash body -> ~ In hashhash body -> ~ ends_with out hash -> ~ ends_with out hashhash ->
  (substituted token_concat stringify (macros h) hide k args out body (ROk s) <->
   exists b', parameters_replaced (fun a e => expansion_in h hide a (ROk e)) k args body b' /\ s = out ++ b').
Proof.
  intros Hargs. induction body as [|t body IH]; intros out s Hb1 Hb2 Ho1 Ho2.
  - split.
    + intros Hs. inversion Hs; subst. exists []. split; [constructor|now rewrite app_nil_r].
    + intros (b' & Hp & ->). inversion Hp; subst. rewrite app_nil_r. constructor.
  - assert (Hb1' : ~ In hash body) by (intros Hi; apply Hb1; now right).
    assert (Hb2' : ~ In hashhash body) by (intros Hi; apply Hb2; now right).
    assert (Ht1 : t <> hash) by (intros ->; apply Hb1; now left).
    assert (Ht2 : t <> hashhash) by (intros ->; apply Hb2; now left).
    assert (Hsw : ~ starts_with body hashhash). { intros [l' ->]. apply Hb2'. now left. }
    assert (Harg : forall a, parameter_token t -> argument_for k args t = Some a -> forall e, expansion_in h hide a (ROk e) ->
       (substituted token_concat stringify (macros h) hide k args (out ++ e) body (ROk s) <->
        exists b', parameters_replaced (fun a e => expansion_in h hide a (ROk e)) k args body b' /\ s = (out ++ e) ++ b')).
    { intros a Ht Ha e He. destruct (Hargs t a e Ha He) as [He1 He2]. apply IH; auto using not_ends_app. }
    split.
    + intros Hs. inversion Hs; subst; try contradiction.
      * match goal with hs : substituted _ _ _ _ _ _ _ _ _ |- _ => apply IH in hs; auto end.
        2,3: apply not_ends_app; auto; intros [E|[]]; easy.
        match goal with hs : exists _, _ |- _ => destruct hs as (b' & Hp & ->) end.
        exists (t :: b'). split; [now constructor|]. now rewrite <- app_assoc.
      * exfalso. apply Ho1. now eexists.
      * match goal with ha : argument_for _ _ _ = Some ?a, he : expansion _ _ _ _ ?a (ROk ?e) |- _ =>
          match goal with hs : substituted _ _ _ _ _ _ _ _ _ |- _ => apply (Harg a ltac:(easy) ha e he) in hs; destruct hs as (b' & Hp & ->) end;
          exists (e ++ b'); split; [|now rewrite <- app_assoc] end.
        match goal with hp : parameter_token t |- _ => destruct hp as [-> | [i ->]] end; simpl in *.
        -- destruct (Nat.leb_spec k (length args)); [|discriminate].
           match goal with ha : Some _ = Some a |- _ => injection ha as <- end. now apply pm_variadic.
        -- eapply pm_named; eauto.
      * match goal with ho : _ \/ _ |- _ => destruct ho; contradiction end.
      * match goal with hn : ~ succeeded (ROk _) |- _ => exfalso; apply hn; now eexists end.
    + intros (b' & Hp & ->). inversion Hp; subst.
      * apply sb_keep; auto. apply IH; auto. 3: { eexists. split; [eassumption|]. now rewrite <- app_assoc. }
        all: apply not_ends_app; auto; intros [E|[]]; easy.
      * eapply sb_argument with (a := a); eauto. { right. now eexists. }
        eapply Harg; eauto. { right. now eexists. } eexists. split; [eassumption|]. now rewrite app_assoc.
      * assert (Ha : argument_for k args TVarArgs = Some (comma_separated (skipn k args))).
        { simpl. destruct (Nat.leb_spec k (length args)); [easy|lia]. }
        eapply sb_argument; eauto. { now left. } 
        eapply Harg; eauto. { now left. } eexists. split; [eassumption|]. now rewrite app_assoc.
Qed.

Lemma argument_for_tidy k args t a : Forall (fun a => tidy a) args -> argument_for k args t = Some a -> tidy a.
Proof.
  intros Hargs Ha. destruct t; try discriminate; simpl in Ha.
  - apply nth_error_In in Ha. rewrite Forall_forall in Hargs. now apply Hargs.
  - destruct (Nat.leb k (length args)); [|discriminate]. injection Ha as <-.
    assert (Hs : Forall (fun a => tidy a) (skipn k args)).
    { rewrite <- (firstn_skipn k args) in Hargs. now apply Forall_app in Hargs. }
    revert Hs. generalize (skipn k args). clear. induction l as [|x l IH]; intros Hs; [split; constructor|].
    inversion Hs; subst. destruct l; [easy|]. cbn [comma_separated]. apply tidy_app; [easy|].
    change (comma :: ?x) with ([comma] ++ x). apply tidy_app; [|now apply IH]. 
    split; repeat constructor; [now intros [? ?]|easy].
Qed.

Lemma parameters_replaced_tidy h hide k args body b' : Forall (fun a => tidy a) args ->
  (forall t, In t body -> parameter_token t \/ tidy [t]) ->
  parameters_replaced (fun a e => expansion_in h hide a (ROk e)) k args body b' -> tidy b'.
Proof.
  intros Hargs Hb Hp. induction Hp.
  - split; constructor.
  - change (t :: r) with ([t] ++ r). apply tidy_app; [|apply IHHp; intros; apply Hb; now right].
    destruct (Hb t) as [?|?]; [now left|contradiction|easy].
  - apply tidy_app; [|apply IHHp; intros; apply Hb; now right].
    eapply expansion_tidy; [|eassumption]. apply nth_error_In in H0. rewrite Forall_forall in Hargs. now apply Hargs.
  - apply tidy_app; [|apply IHHp; intros; apply Hb; now right].
    eapply expansion_tidy; [|eassumption]. eapply argument_for_tidy with (k := k) (t := TVarArgs); eauto. cbn [argument_for]. idtac.
    destruct (Nat.leb_spec k (length args)); [easy|lia].
Qed.

Lemma parameters_replaced_no t0 h hide k args body b' : ~ In t0 body ->
  (forall t a e, argument_for k args t = Some a -> expansion_in h hide a (ROk e) -> ~ In t0 e) ->
  parameters_replaced (fun a e => expansion_in h hide a (ROk e)) k args body b' -> ~ In t0 b'.
Proof.
  intros Hb Hargs Hp. induction Hp.
  - easy.
  - intros [E|Hi]; [apply Hb; now left|]. apply IHHp; [|easy]. intros Hj. apply Hb. now right.
  - rewrite in_app_iff. intros [Hi|Hi]; [|apply IHHp; [|easy]; intros Hj; apply Hb; now right].
    eapply (Hargs (TArg i)); eauto.
  - rewrite in_app_iff. intros [Hi|Hi]; [|apply IHHp; [|easy]; intros Hj; apply Hb; now right].
    eapply (Hargs TVarArgs); eauto. simpl. destruct (Nat.leb_spec k (length args)); [easy|lia].
Qed.


(** The body of a function-like macro as tokens. *)
Lemma body_tidy ids body t : In t (map (body_token ids) body) -> parameter_token t \/ tidy [t].
Proof.
  intros Ht. apply in_map_iff in Ht. destruct Ht as (s & <- & _). unfold body_token.
  destruct (index_of ids s); [left; right; now eexists|].
  destruct (list_eq_dec N.eq_dec s (st "__VA_ARGS__")) as [->|Hn]; [left; now left|right].
  change [from_str s] with (map from_str [s]). apply tidy_text. intros [E|[]]. apply Hn. now apply from_str_var_args.
Qed.

Lemma text_tidy text pre call post args :
  ~ In TVarArgs (map from_str text) -> map from_str text = pre ++ call -> call_text (tl call) args post ->
  Forall (fun a => tidy a) args /\ tidy pre /\ tidy post.
Proof.
  intros Hv E Hc. destruct (tidy_text _ Hv) as [H1 H2]. rewrite E in H1, H2. apply Forall_app in H1, H2.
  destruct H1 as [H1 H1'], H2 as [H2 H2']. apply collect_args_iff in Hc.
  assert (Htl : forall (P : token -> Prop), Forall P call -> Forall P (tl call)). { intros P Hp. now destruct Hp. }
  destruct (collect_args_Forall _ _ _ _ Hc (Htl _ H1')). destruct (collect_args_Forall _ _ _ _ Hc (Htl _ H2')).
  repeat split; auto. clear - H0 H4. induction H0; inversion H4; subst; constructor; auto.
Qed.

(** Operators in a list of spellings. *)
Definition no_operators (l : list token) : Prop := ~ In hash l /\ ~ In hashhash l.

(** The macro [n] called in a text, [##] not occurring in the text. *)
Definition first_call (h : list call) (text : list str) (pre : list token) (n : str) (d : macro_def)
  (args : list (list token)) (post : list token) : Prop :=
  ~ In (st "__VA_ARGS__") text /\ ~ In hashhash (map from_str text) /\
  leftmost (macros h) [[]] (map from_str text) pre n d args post.

Lemma no_va_text text : ~ In (st "__VA_ARGS__") text -> ~ In TVarArgs (map from_str text).
Proof. intros Hn Hi. apply in_map_iff in Hi. destruct Hi as (s & E & Hs). apply from_str_var_args in E. congruence. Qed.

Lemma first_call_step h text pre n d args post r : r <> RFuel -> first_call h text pre n d args post ->
  ((exists F, forall fuel, F <= fuel -> expand (run h) fuel text = r) <->
   (exists e x, replaced_in h [[]] n d args (ROk e) /\ expansion_in h [[]] (pre ++ e ++ post) x /\ r = delivered x) \/
   (exists x, replaced_in h [[]] n d args x /\ ~ succeeded x /\ r = delivered x)).
Proof.
  intros Hr (Hv & Hh & Hl). rewrite expand_text by auto using no_va_text.
  assert (Hpre : map (mark [[]]) pre = pre).
  { destruct Hl as (t & E & _). pose proof (mark_text text) as Hm. rewrite E, map_app in Hm.
    apply (f_equal (firstn (length pre))) in Hm. rewrite !firstn_app in Hm.
    rewrite !map_length, !Nat.sub_diag, !firstn_O, !app_nil_r in Hm. 
    now rewrite firstn_all, <- (map_length (mark [[]]) pre), firstn_all in Hm. }
  split.
  - intros (x & Hx & ->). inversion Hx; subst.
    + now apply leftmost_some in Hl.
    + match goal with hl : leftmost _ _ _ _ _ _ _ _, hl2 : leftmost _ _ _ _ _ _ _ _ |- _ =>
        destruct (leftmost_det _ _ _ _ _ _ _ _ _ _ _ _ _ hl hl2) as (-> & -> & -> & -> & ->) end.
      left. rewrite Hpre in *. eauto.
    + match goal with hl : leftmost _ _ _ _ _ _ _ _, hl2 : leftmost _ _ _ _ _ _ _ _ |- _ =>
        destruct (leftmost_det _ _ _ _ _ _ _ _ _ _ _ _ _ hl hl2) as (-> & -> & -> & -> & ->) end.
      right. eauto.
  - intros [(e & x & He & Hx & ->)|(x & Hx & Hs & ->)].
    + exists x. split; [|easy]. eapply xp_step; eauto. now rewrite Hpre.
    + exists x. split; [|easy]. eapply xp_fail; eauto.
Qed.

(** C14.  A call of a macro whose body and (expanded) arguments contain no
    operators is replaced by the body with the parameters replaced by the
    expanded arguments, expanded with the macro excluded. *)
Theorem C14_call : forall h text pre n ps ids v body args post out,
  first_call h text pre n (Function (length ids) v (map (body_token ids) body)) args post ->
  defined (rev h) n = Some (DFn ps body) -> parameter_list ps ids v ->
  (v = false -> ~ In (st "__VA_ARGS__") body /\ accepted (length ids) args) ->
  no_operators (map (body_token ids) body) ->
  (forall t a e, argument_for (length ids) args t = Some a -> expansion_in h [[]] a (ROk e) -> no_operators e) ->
  ((exists F, forall fuel, F <= fuel -> expand (run h) fuel text = ROk out) <->
   exists body' e x,
     parameters_replaced (fun a e => expansion_in h [[]] a (ROk e)) (length ids) args (map (body_token ids) body) body' /\
     expansion_in h [n; []] body' (ROk e) /\
     expansion_in h [[]] (pre ++ e ++ post) x /\ delivered x = ROk out).
Proof.
  intros h text pre n ps ids v body args post out Hfc Hd Hp Hv [Hb1 Hb2] Hargs.
  rewrite (first_call_step _ _ _ _ _ _ _ (ROk out) ltac:(discriminate) Hfc). destruct Hfc as (Hva & _ & Hl).
  assert (Htidy : Forall (fun a => tidy a) args).
  { destruct Hl as (t & E & Hi & _). inversion Hi; subst. eapply text_tidy; eauto using no_va_text. }
  pose proof (substituted_plain h [[]] (length ids) args Hargs (map (body_token ids) body) []) as Hs.
  assert (Hne : forall t, ~ ends_with [] t). { intros t [o E]. now destruct o. }
  assert (Hpr : forall b', parameters_replaced (fun a e => expansion_in h [[]] a (ROk e)) (length ids) args (map (body_token ids) body) b' ->
    tidy b' /\ ~ In hashhash b').
  { intros b' Hb'. split; [eapply parameters_replaced_tidy; eauto using body_tidy|].
    eapply parameters_replaced_no; [exact Hb2| |exact Hb']. intros t a e Ha He. eapply Hargs; eauto. }
  split.
  - intros [(e & x & He & Hx & E)|(x & _ & Hn & E)].
    2:{ exfalso. destruct x; try discriminate. apply Hn. now eexists. }
    inversion He; subst.
    + match goal with hs : substituted _ _ _ _ _ _ _ _ _ |- _ => apply Hs in hs; auto; destruct hs as (b' & Hb' & Es) end.
      simpl in Es. subst. destruct (Hpr _ Hb') as [Ht Hh].
      match goal with hp : processed _ _ _ _ _ _ _ |- _ => inversion hp; subst end.
      * match goal with hp : pasted _ _ _ |- _ => apply pasted_plain_only in hp; [|easy..]; injection hp as -> end.
        rewrite tidy_no_place in * by easy. exists b', e, x. auto.
      * match goal with hn : ~ succeeded (ROk _) |- _ => exfalso; apply hn; now eexists end.
    + match goal with hn : ~ succeeded (ROk _) |- _ => exfalso; apply hn; now eexists end.
  - intros (b' & e & x & Hb' & He & Hx & E). left. exists e, x. split; [|auto]. destruct (Hpr _ Hb') as [Ht Hh].
    eapply rl_function with (s := b').
    + intros Ev. destruct (Hv Ev) as [Hv1 Hv2]. split; [|easy]. intros Hi. apply in_map_iff in Hi.
      destruct Hi as (s & Es & Hin). unfold body_token in Es. destruct (index_of ids s); [discriminate|].
      apply from_str_var_args in Es. congruence.
    + apply Hs; auto. now exists b'.
    + eapply pr_rescan; [now apply pasted_plain|]. now rewrite tidy_no_place.
Qed.

(** C13: a call with a wrong number of arguments. *)
Theorem C13_wrong_count : forall h text pre n ids body args post,
  first_call h text pre n (Function (length ids) false (map (body_token ids) body)) args post ->
  ~ In (st "__VA_ARGS__") body -> ~ accepted (length ids) args ->
  exists F, forall fuel, F <= fuel ->
    expand (run h) fuel text = RErr (FnMacroArgumentError n (length ids) (length args)).
Proof.
  intros h text pre n ids body args post Hfc Hva Hacc.
  rewrite (first_call_step _ _ _ _ _ _ _ (RErr (FnMacroArgumentError n (length ids) (length args))) ltac:(discriminate) Hfc). right.
  exists (RErr (FnMacroArgumentError n (length ids) (length args))). split; [|split; [now intros [? ?]|easy]].
  apply rl_count; [|easy]. intros Hi. apply in_map_iff in Hi. destruct Hi as (s & Es & Hin). unfold body_token in Es.
  destruct (index_of ids s); [discriminate|]. apply from_str_var_args in Es. congruence.
Qed.

(** Only a parameter spelled with a universal character name could be called
    [__VA_ARGS__], hence the hypothesis. *)
Lemma index_of_none ids s : ~ In s ids -> index_of ids s = None.
Proof.
  induction ids as [|x ids IH]; intros Hn; [easy|]. cbn [index_of]. unfold same_name.
  destruct (list_eq_dec N.eq_dec x s) as [->|_]; [exfalso; apply Hn; now left|].
  rewrite IH; [easy|]. intros Hi. apply Hn. now right.
Qed.

(** C15: [__VA_ARGS__] in a macro that is not variadic. *)
Theorem C15_non_variadic_function : forall h text pre n ids body args post,
  first_call h text pre n (Function (length ids) false (map (body_token ids) body)) args post ->
  In (st "__VA_ARGS__") body -> ~ In (st "__VA_ARGS__") ids ->
  exists F, forall fuel, F <= fuel -> expand (run h) fuel text = RErr NonVariadicVarArgs.
Proof.
  intros h text pre n ids body args post Hfc Hva Hids.
  rewrite (first_call_step _ _ _ _ _ _ _ (RErr NonVariadicVarArgs) ltac:(discriminate) Hfc). right.
  exists (RErr NonVariadicVarArgs). split; [|split; [now intros [? ?]|easy]].
  apply rl_va. apply in_map_iff. exists (st "__VA_ARGS__"). split; [|easy]. unfold body_token.
  rewrite index_of_none by easy. now apply from_str_var_args.
Qed.

Theorem C15_non_variadic_object : forall h text pre n body post,
  first_call h text pre n (Object (map from_str body)) [] post -> In (st "__VA_ARGS__") body ->
  exists F, forall fuel, F <= fuel -> expand (run h) fuel text = RErr NonVariadicVarArgs.
Proof.
  intros h text pre n body post Hfc Hva.
  rewrite (first_call_step _ _ _ _ _ _ _ (RErr NonVariadicVarArgs) ltac:(discriminate) Hfc). right.
  exists (RErr NonVariadicVarArgs). split; [|split; [now intros [? ?]|easy]].
  apply rl_object_va. apply in_map_iff. exists (st "__VA_ARGS__"). split; [|easy]. now apply from_str_var_args.
Qed.

(** ** The definitions themselves *)
Theorem C15_non_variadic_definition : forall h n fuel,
  (forall b, defined (rev h) n = Some (DVar b) -> In (st "__VA_ARGS__") b ->
     expand_var_macro (run h) fuel n = RErr NonVariadicVarArgs) /\
  (forall ps ids b, defined (rev h) n = Some (DFn ps b) -> parameter_list ps ids false -> ~ In (st "__VA_ARGS__") ids ->
     In (st "__VA_ARGS__") b -> expand_fn_macro (run h) fuel n = RErr NonVariadicVarArgs).
Proof.
  intros h n fuel. pose proof (run_holds h n) as Hh. split.
  - intros b Hd Hin. rewrite Hd in Hh. destruct Hh as [H1 _]. unfold expand_var_macro. rewrite H1.
    unfold expand_var_macro_body. assert (E : contains_var_args (tokenize [] b) = true); [|now rewrite E].
    apply contains_true. rewrite tokenize_nil. apply in_map_iff. exists (st "__VA_ARGS__"). split; [|easy]. now apply from_str_var_args.
  - intros ps ids b Hd Hp Hids Hin. rewrite Hd in Hh. destruct Hh as [_ H2]. unfold expand_fn_macro. rewrite H2.
    destruct (parameter_list_names ps ids false Hp) as (an & -> & _ & Hv & Hb). cbn [rbind].
    unfold expand_fn_macro_body. rewrite Hv, Hb.
    assert (E : contains_var_args (map (body_token ids) b) = true); [|now rewrite E].
    apply contains_true. apply in_map_iff. exists (st "__VA_ARGS__"). split; [|easy]. unfold body_token.
  rewrite index_of_none by easy. now apply from_str_var_args.
Qed.
End S.

(** ** Where calls differ from the C standard *)
Local Open Scope string_scope.
Local Open Scope list_scope.
Definition words (l : list string) : list str := map st l.

(** C13: a macro without parameters accepts any number of arguments as long
    as the first one is empty. *)
Theorem C13_no_parameters_refuted {U : Unicode} : exists h fuel out,
  defined (rev h) (st "f") = Some (DFn [] (words ["7"])) /\
  call_text (map from_str (words ["("; ","; "1"; ","; "2"; ")"])) [[]; [from_str (st "1")]; [from_str (st "2")]] [] /\
  expand (run h) fuel (words ["f"; "("; ","; "1"; ","; "2"; ")"]) = ROk out.
Proof.
  exists [DefineFn (st "f") [] (words ["7"])], 20. eexists. split; [reflexivity|]. split; [|reflexivity].
  split; [easy|]. split; [|reflexivity]. repeat constructor; try discriminate; intros [u [Hm|Hm]]; inversion Hm.
Qed.

(** C14/C53: a [#] or [##] that arrives through an argument acts as an operator. *)
Theorem C53_hash_in_argument_refuted {U : Unicode} : exists h fuel,
  defined (rev h) (st "f") = Some (DFn (words ["x"; "y"]) (words ["x"; "y"])) /\
  expand (run h) fuel (words ["f"; "("; "#"; ","; "b"; ")"]) = ROk [MLit (LString (SOrdinary (st "b")))].
Proof. exists [DefineFn (st "f") (words ["x"; "y"]) (words ["x"; "y"])], 20. split; reflexivity. Qed.

Theorem C53_paste_in_argument_refuted {U : Unicode} : exists h fuel,
  defined (rev h) (st "f") = Some (DFn (words ["x"]) (words ["x"])) /\
  expand (run h) fuel (words ["f"; "("; "a"; "##"; "b"; ")"]) = ROk [MIdent (st "ab")].
Proof. exists [DefineFn (st "f") (words ["x"]) (words ["x"])], 20. split; reflexivity. Qed.

(** C54: operands of [##] are macro-expanded first. *)
Theorem C54_paste_operand_expanded_refuted {U : Unicode} : exists h fuel,
  defined (rev h) (st "A") = Some (DVar (words ["1"])) /\
  defined (rev h) (st "f") = Some (DFn (words ["x"]) (words ["x"; "##"; "2"])) /\
  expand (run h) fuel (words ["f"; "("; "A"; ")"]) = ROk [MLit (LInt (mk_int 12 None))].
Proof.
  exists [DefineVar (st "A") (words ["1"]); DefineFn (st "f") (words ["x"]) (words ["x"; "##"; "2"])], 20.
  split; [|split]; reflexivity.
Qed.

(** ** Instances *)
Definition ex_set := [DefineVar (st "A") (words ["1"]); DefineFn (st "g") (words ["z"]) (words ["z"; "z"]);
  DefineFn (st "f") (words ["x"; "y"]) (words ["x"; "+"; "g"; "("; "y"; ")"]);
  DefineFn (st "v") (words ["x"; "..."]) (words ["x"; "["; "__VA_ARGS__"; "]"])].
Definition ex_text := words ["k"; "f"; "("; "A"; ","; "2"; ")"; ";"].

Lemma ex_plain {U : Unicode} t l : ~ bracket t -> t <> comma -> argument l -> argument (t :: l).
Proof. apply arg_token. Qed.

Ltac not_bracket := let H := fresh in intros [? [H|H]]; inversion H.
Ltac ex_argument := repeat first [apply arg_nil | apply arg_token; [not_bracket|discriminate|]].

Lemma ex_first_call {U : Unicode} : first_call ex_set ex_text [TIdent (st "k")] (st "f")
  (Function 2 false (map (body_token (words ["x"; "y"])) (words ["x"; "+"; "g"; "("; "y"; ")"])))
  [[TIdent (st "A")]; [from_str (st "2")]] [TPunct (st ";")].
Proof.
  split; [|split].
  - intros Hi. vm_compute in Hi. intuition discriminate.
  - intros Hi. vm_compute in Hi. intuition discriminate.
  - eexists. split; [reflexivity|]. split.
    + apply iv_function.
      * vm_compute. intuition discriminate.
      * vm_compute. reflexivity.
      * intros b. discriminate.
      * split; [discriminate|]. split; [|reflexivity]. repeat constructor; try discriminate; not_bracket.
    + intros p q E Hq id d args post Hi. destruct p as [|x p].
      * simpl in E. subst q. inversion Hi; subst; match goal with h : macros _ _ = Some _ |- _ => vm_compute in h; discriminate end.
      * simpl in E. injection E as _ E. destruct p; [simpl in E; subst q; now apply Hq|discriminate].
Qed.

Lemma ex_expansion {U : Unicode} fuel hide l r : Forall ordinary_or_comment l ->
  expand_macro_body (run ex_set) fuel hide l = r -> r <> RFuel ->
  forall r', expansion token_concat stringify (macros ex_set) hide l r' <-> r' = r.
Proof.
  intros Hl E Hr r'. subst r. assert (Hx := expansion_sound (run ex_set) (run_excl ex_set) fuel hide l Hl Hr).
  split; [|now intros ->]. intros Hx'.
  apply expansion_iff in Hx; [|apply run_excl|easy]. apply expansion_iff in Hx'; [|apply run_excl|easy].
  destruct Hx as [_ [F HF]], Hx' as [_ [F' HF']].
  rewrite <- (HF (max F F')), <- (HF' (max F F')) by lia. reflexivity.
Qed.

Example C14_example {U : Unicode} :
  exists F, forall fuel, F <= fuel -> expand (run ex_set) fuel ex_text =
    ROk [MIdent (st "k"); MLit (LInt (mk_int 1 None)); MPunct (st "+"); MLit (LInt (mk_int 2 None)); MLit (LInt (mk_int 2 None)); MPunct (st ";")].
Proof.
  apply (C14_call _ _ _ _ (words ["x"; "y"]) (words ["x"; "y"]) false _ _ _ _ ex_first_call).
  - reflexivity.
  - split; [reflexivity|]. repeat constructor; simpl; intuition discriminate.
  - intros _. split; [intros Hi; vm_compute in Hi; intuition discriminate|]. now left.
  - split; intros Hi; vm_compute in Hi; intuition discriminate.
  - intros t a e Ha He.
    assert (Hc : forall s, s = st "A" \/ s = st "2" -> Forall ordinary_or_comment [from_str s]).
    { intros s [-> | ->]; (constructor; [|constructor]); apply clean_spell; discriminate. }
    destruct t; try discriminate; simpl in Ha.
    + destruct i as [|[|i]]; simpl in Ha; [| |destruct i; discriminate]; injection Ha as <-.
      * apply (ex_expansion 20 _ _ (ROk [from_str (st "1")])) in He; [|apply (Hc (st "A")); now left|reflexivity|discriminate].
        injection He as ->. split; intros Hi; vm_compute in Hi; intuition discriminate.
      * apply (ex_expansion 20 _ _ (ROk [from_str (st "2")])) in He; [|apply (Hc (st "2")); now right|reflexivity|discriminate].
        injection He as ->. split; intros Hi; vm_compute in Hi; intuition discriminate.
    + injection Ha as <-. apply (ex_expansion 20 _ _ (ROk [])) in He; [|constructor|reflexivity|discriminate].
      injection He as ->. split; now intros Hi.
  - exists [from_str (st "1"); TPunct (st "+"); TIdent (st "g"); TPunct (st "("); from_str (st "2"); TPunct (st ")")].
    exists [from_str (st "1"); TPunct (st "+"); from_str (st "2"); from_str (st "2")].
    exists (ROk [TIdent (st "k"); from_str (st "1"); TPunct (st "+"); from_str (st "2"); from_str (st "2"); TPunct (st ";")]).
    assert (Hcl : forall l, ~ In (st "__VA_ARGS__") l -> Forall ordinary_or_comment (map from_str l)).
    { intros l Hl. apply clean_object. now apply no_va_text. }
    split; [|split; [|split]].
    + change (map (body_token (words ["x"; "y"])) (words ["x"; "+"; "g"; "("; "y"; ")"]))
        with [TArg 0; TPunct (st "+"); TIdent (st "g"); TPunct (st "("); TArg 1; TPunct (st ")")].
      change [from_str (st "1"); TPunct (st "+"); TIdent (st "g"); TPunct (st "("); from_str (st "2"); TPunct (st ")")]
        with ([from_str (st "1")] ++ [TPunct (st "+"); TIdent (st "g"); TPunct (st "(")] ++ [from_str (st "2")] ++ [TPunct (st ")")]).
      assert (Hnp : forall t, match t with TPunct _ | TIdent _ => True | _ => False end -> ~ parameter_token t).
      { intros t Ht [-> | [i ->]]; easy. }
      eapply pm_named; [reflexivity| |].
      { apply (ex_expansion 20 _ _ (ROk [from_str (st "1")])); [apply (Hcl (words ["A"])); intros [E|[]]; discriminate|reflexivity|discriminate|reflexivity]. }
      simpl app. apply pm_keep; [now apply Hnp|]. apply pm_keep; [now apply Hnp|]. apply pm_keep; [now apply Hnp|].
      change (from_str (st "2") :: [TPunct (st ")")]) with ([from_str (st "2")] ++ [TPunct (st ")")]).
      eapply pm_named; [reflexivity| |].
      { apply (ex_expansion 20 _ _ (ROk [from_str (st "2")])); [apply (Hcl (words ["2"])); intros [E|[]]; discriminate|reflexivity|discriminate|reflexivity]. }
      apply pm_keep; [now apply Hnp|]. constructor.
    + eapply (ex_expansion 20); [|reflexivity|discriminate|reflexivity].
      apply (Hcl (words ["1"; "+"; "g"; "("; "2"; ")"])). intros Hi. vm_compute in Hi. intuition discriminate.
    + eapply (ex_expansion 20); [|reflexivity|discriminate|reflexivity].
      apply (Hcl (words ["k"; "1"; "+"; "2"; "2"; ";"])). intros Hi. vm_compute in Hi. intuition discriminate.
    + reflexivity.
Qed.

(** [f(A)] and [v(1, A, 3)] at the start of a text. *)
Lemma ex_first_call_few {U : Unicode} : first_call ex_set (words ["f"; "("; "A"; ")"]) [] (st "f")
  (Function 2 false (map (body_token (words ["x"; "y"])) (words ["x"; "+"; "g"; "("; "y"; ")"]))) [[TIdent (st "A")]] [].
Proof.
  split; [|split]; try (intros Hi; vm_compute in Hi; intuition discriminate).
  eexists. split; [reflexivity|]. split.
  - apply iv_function; [vm_compute; intuition discriminate|vm_compute; reflexivity|discriminate|].
    split; [discriminate|]. split; [|reflexivity]. repeat constructor; try discriminate; not_bracket.
  - intros p q E Hq. destruct p, q; try discriminate; now destruct Hq.
Qed.
Example C13_wrong_count_example {U : Unicode} : exists F, forall fuel, F <= fuel ->
  expand (run ex_set) fuel (words ["f"; "("; "A"; ")"]) = RErr (FnMacroArgumentError (st "f") 2 1).
Proof.
  apply (C13_wrong_count _ _ _ _ (words ["x"; "y"]) _ _ _ ex_first_call_few).
  - intros Hi; vm_compute in Hi; intuition discriminate.
  - unfold accepted. simpl. intuition discriminate.
Qed.

Lemma ex_first_call_variadic {U : Unicode} : first_call ex_set (words ["v"; "("; "1"; ","; "A"; ","; "3"; ")"]) [] (st "v")
  (Function 1 true (map (body_token (words ["x"])) (words ["x"; "["; "__VA_ARGS__"; "]"])))
  [[from_str (st "1")]; [TIdent (st "A")]; [from_str (st "3")]] [].
Proof.
  split; [|split]; try (intros Hi; vm_compute in Hi; intuition discriminate).
  eexists. split; [reflexivity|]. split.
  - apply iv_function; [vm_compute; intuition discriminate|vm_compute; reflexivity|discriminate|].
    split; [discriminate|]. split; [|reflexivity]. repeat constructor; try discriminate; not_bracket.
  - intros p q E Hq. destruct p, q; try discriminate; now destruct Hq.
Qed.
Example C14_variadic_example {U : Unicode} :
  expand (run ex_set) 20 (words ["v"; "("; "1"; ","; "A"; ","; "3"; ")"]) =
  ROk [MLit (LInt (mk_int 1 None)); MPunct (st "["); MLit (LInt (mk_int 1 None)); MPunct (st ","); MLit (LInt (mk_int 3 None)); MPunct (st "]")].
Proof. reflexivity. Qed.

Example C15_example {U : Unicode} :
  let h := [DefineVar (st "o") (words ["1"; "__VA_ARGS__"]); DefineFn (st "f") (words ["x"]) (words ["__VA_ARGS__"])] in
  first_call h (words ["o"]) [] (st "o") (Object (map from_str (words ["1"; "__VA_ARGS__"]))) [] [] /\
  first_call h (words ["f"; "("; "2"; ")"]) [] (st "f")
    (Function 1 false (map (body_token (words ["x"])) (words ["__VA_ARGS__"]))) [[from_str (st "2")]] [] /\
  expand (run h) 5 (words ["o"]) = RErr NonVariadicVarArgs /\
  expand (run h) 5 (words ["f"; "("; "2"; ")"]) = RErr NonVariadicVarArgs.
Proof.
  cbv zeta. repeat split; try (intros Hi; vm_compute in Hi; intuition discriminate).
  - eexists. split; [reflexivity|]. split; [|intros p q E Hq; destruct p, q; try discriminate; now destruct Hq].
    apply iv_object; [vm_compute; intuition discriminate|vm_compute; reflexivity].
  - eexists. split; [reflexivity|]. split; [|intros p q E Hq; destruct p, q; try discriminate; now destruct Hq].
    apply iv_function; [vm_compute; intuition discriminate|vm_compute; reflexivity|discriminate|].
    split; [discriminate|]. split; [|reflexivity]. repeat constructor; try discriminate; not_bracket.
Qed.
Print Assumptions C52_macros.
Print Assumptions C52_expand.
Print Assumptions C52_expand_diverges.
Print Assumptions C52_expand_var_macro.
Print Assumptions C14_call.
Print Assumptions C13_wrong_count.
Print Assumptions C15_non_variadic_function.
Print Assumptions C15_non_variadic_object.
Print Assumptions C15_non_variadic_definition.
Print Assumptions C13_no_parameters_refuted.
Print Assumptions C53_hash_in_argument_refuted.
Print Assumptions C53_paste_in_argument_refuted.
Print Assumptions C54_paste_operand_expanded_refuted.
