(** A generic invariant principle for expansion: a token predicate closed
    under pasting, stringification and painting holds of every token of a
    result; with [pn := False] it also excludes panics. *)
From Verif Require Import Base Utf Lex LexFloat Token MacroSet StrFacts SpecCall CallFacts ExpandFacts.
From Coq Require Import String List.
Local Open Scope list_scope.

Definition sat {E A} (pn : Prop) (P : A -> Prop) (r : res E A) : Prop :=
  match r with ROk a => P a | RPanic => pn | RErr _ | RFuel => True end.

Lemma sat_bind {E A B} pn (P : A -> Prop) (Q : B -> Prop) (r : res E A) (k : A -> res E B) :
  sat pn P r -> (forall a, r = ROk a -> P a -> sat pn Q (k a)) -> sat pn Q (rbind r k).
Proof. intros Hr Hk. destruct r; simpl in *; auto. Qed.

Lemma sat_mono {E A} (pn : Prop) (P Q : A -> Prop) (r : res E A) :
  (forall a, P a -> Q a) -> sat pn P r -> sat pn Q r.
Proof. destruct r; simpl; auto. Qed.

Lemma Forall_comma_separated (P : token -> Prop) args :
  Forall P (comma_separated args) -> Forall (Forall P) args.
Proof.
  induction args as [|a args IH]; intros HF; [constructor|].
  destruct args as [|b args].
  - repeat constructor. exact HF.
  - change (Forall P (a ++ comma :: comma_separated (b :: args))) in HF.
    apply Forall_app in HF. destruct HF as [Ha HF]. inversion HF; subst. constructor; auto.
Qed.

Lemma collect_args_Forall (P : token -> Prop) it args rest :
  collect_args it = Some (args, rest) -> Forall P it -> Forall (Forall P) args /\ Forall P rest.
Proof.
  intros Hc HF. apply collect_args_iff in Hc. destruct Hc as (_ & _ & ->).
  inversion HF as [|? ? _ HF']; subst. apply Forall_app in HF'. destruct HF' as [Ha Hr].
  inversion Hr; subst. split; [now apply Forall_comma_separated|easy].
Qed.

Lemma join_args_comma_separated args : join_args args = comma_separated args.
Proof. reflexivity. Qed.

Lemma Forall_join_args (P : token -> Prop) args :
  P comma -> Forall (Forall P) args -> Forall P (join_args args).
Proof.
  intros Hc. induction 1 as [|a args Ha Hargs IH]; [constructor|].
  destruct args as [|b args]; [exact Ha|]. change (Forall P (a ++ comma :: join_args (b :: args))).
  apply Forall_app. split; [easy|]. now constructor.
Qed.

Lemma Forall_skipn' {A} (P : A -> Prop) n l : Forall P l -> Forall P (skipn n l).
Proof. revert n. induction l as [|a l IH]; intros [|n] HF; simpl; auto. inversion HF; auto. Qed.

Lemma argument_of_Forall (P : token -> Prop) k args t arg :
  P comma -> Forall (Forall P) args -> argument_of k args t = Some arg -> Forall P arg.
Proof.
  intros Hc HF. unfold argument_of.
  assert (Hrest : match k with O => None | S n => if Nat.leb n (length args) then Some (join_args (skipn n args)) else None end
    = Some arg -> Forall P arg).
  { destruct k; [discriminate|]. destruct (Nat.leb k (length args)); [|discriminate].
    intros Heq. inversion Heq; subst. apply Forall_join_args; [easy|]. now apply Forall_skipn'. }
  destruct t; try exact Hrest. intros Hn. apply nth_error_In in Hn. rewrite Forall_forall in HF. now apply HF.
Qed.

(** A call that gets past the arity check. *)
Definition arity_passed (an : list token) (args : list (list token)) : Prop :=
  is_variadic an = false -> an = [] \/ length an = length args.

Section Inv.
Context `{Unicode}.
Variable ms : macro_set.
Variable pn : Prop.
Variable P : token -> Prop.
Definition orplace (t : token) : Prop := P t \/ t = TPlacemarker.

Hypothesis Hpaint : forall id, P (TIdent id) -> P (TNonRepl (TIdent id)).
Hypothesis Hconcat : forall a b, orplace a -> orplace b -> sat pn orplace (token_concat a b).
Hypothesis Hstr : forall n arg, Forall P arg -> Forall P (stringify n arg).
Hypothesis Hcomma : P comma.
Hypothesis Hvar : forall n b, sm_get (var_macros ms) n = Some b ->
  contains_var_args (tokenize [] b) = false -> Forall P (tokenize [] b).
Hypothesis Hfn : forall n p b an, sm_get (fn_macros ms) n = Some (p, b) -> tokenize_arg_names p = ROk an ->
  forall args, args <> [] -> arity_passed (drop_comments an) args ->
  Forall (fun t => if is_arg_token t then pn \/ argument_of (length (drop_comments an)) args t <> None else P t)
    (tokenize an b).

Lemma orplace_P l : Forall P l -> Forall orplace l.
Proof. apply Forall_impl. now left. Qed.

Lemma remove_placemarkers_P l : Forall orplace l -> Forall P (remove_placemarkers l).
Proof.
  induction 1 as [|t l Ht Hl IH]; simpl; [constructor|].
  destruct (is_placemarker t) eqn:E; simpl; [easy|]. constructor; [|easy].
  destruct Ht as [Ht|Ht]; [easy|]. subst. discriminate.
Qed.

Lemma pop_lhs_P acc lhs acc' :
  Forall orplace acc -> pop_lhs acc = Some (lhs, acc') -> orplace lhs /\ Forall orplace acc'.
Proof.
  induction 1 as [|t l Ht Hl IH]; simpl; [discriminate|].
  destruct t; try (intros Heq; inversion Heq; subst; now split). exact IH.
Qed.

Lemma concat_loop_P it : Forall orplace it -> forall p acc,
  Forall orplace acc -> (forall l, p = Some l -> orplace l) ->
  sat pn (Forall orplace) (concat_loop p acc it).
Proof.
  induction 1 as [|t it Ht Hit IH]; intros p acc Hacc Hp; simpl.
  - destruct p; simpl; [easy|]. now apply Forall_rev.
  - destruct p as [lhs|].
    + destruct (is_comment_token t); [now apply IH|].
      eapply sat_bind. { apply Hconcat; [now apply Hp|easy]. }
      intros r _ Hr. apply IH; [now constructor|discriminate].
    + destruct (_ && _).
      * destruct (pop_lhs acc) as [[lhs acc']|] eqn:E; [|easy].
        destruct (pop_lhs_P _ _ _ Hacc E) as [Hl Ha].
        destruct (peek_is _ it).
        -- eapply sat_bind. { apply Hconcat; [easy|now right]. }
           intros r _ Hr. apply IH; [now constructor|discriminate].
        -- apply IH; [easy|]. intros l Heq. now inversion Heq; subst.
      * apply IH; [now constructor|discriminate].
Qed.

Section Rec.
Variable rec : list str -> list token -> res xerr (list token).
Hypothesis Hrec : forall n b, Forall P b -> sat pn (Forall P) (rec n b).

Lemma expand_arguments_loop_P names k args it : Forall (Forall P) args ->
  Forall (fun t => if is_arg_token t then pn \/ argument_of k args t <> None else P t) it ->
  forall acc, Forall orplace acc -> sat pn (Forall orplace) (expand_arguments_loop rec names k args acc it).
Proof.
  intros Hargs. induction 1 as [|t it Ht Hit IH]; intros acc Hacc; simpl; [now apply Forall_rev|].
  destruct (is_punct (st "#") t) eqn:Eh.
  - destruct (peek_is is_arg_token it); [|easy]. apply IH. constructor; [|easy].
    left. destruct t; try discriminate. exact Ht.
  - destruct (is_arg_token t) eqn:Ea.
    2:{ apply IH. constructor; [now left|easy]. }
    destruct (argument_of k args t) as [arg|] eqn:Eo.
    2:{ simpl. destruct Ht as [Ht|Ht]; [easy|congruence]. }
    pose proof (argument_of_Forall P _ _ _ _ Hcomma Hargs Eo) as Harg.
    destruct (peek_is (is_punct (st "#")) acc).
    + apply IH. apply Forall_app. split.
      * apply Forall_rev. apply orplace_P. now apply Hstr.
      * destruct acc; simpl; [constructor|]. now inversion Hacc.
    + destruct (_ || _); (eapply sat_bind; [apply Hrec; exact Harg|]; intros e _ He; simpl in He).
      * apply IH. destruct e; [constructor; [now right|easy]|].
        apply Forall_app. split; [|easy]. apply Forall_rev. now apply orplace_P.
      * apply IH. apply Forall_app. split; [|easy]. apply Forall_rev. now apply orplace_P.
Qed.

Lemma concat_and_rescan_P names name b :
  Forall orplace b -> sat pn (Forall P) (concat_and_rescan rec names name b).
Proof.
  intros Hb. eapply sat_bind. { apply concat_loop_P; [exact Hb|constructor|discriminate]. }
  intros b' _ Hb'. apply Hrec. now apply remove_placemarkers_P.
Qed.

Lemma expand_fn_macro_body_call_P names name an args b :
  Forall (Forall P) args -> args <> [] ->
  (arity_passed (drop_comments an) args ->
   Forall (fun t => if is_arg_token t then pn \/ argument_of (length (drop_comments an)) args t <> None else P t) b) ->
  sat pn (Forall P) (expand_fn_macro_body rec names name an (Some args) b).
Proof.
  intros Hargs Hne Hb. unfold expand_fn_macro_body. set (an' := drop_comments an) in *.
  destruct (negb (is_variadic an') && contains_var_args b); [easy|].
  destruct (if negb (is_variadic an') then _ else None) as [e|] eqn:Ee; [easy|].
  destruct (first_duplicate _); [easy|].
  eapply sat_bind.
  { apply expand_arguments_loop_P; [easy| |constructor]. apply Hb.
    intros Hv. rewrite Hv in Ee. simpl in Ee.
    destruct (Nat.eqb_spec (length an') (length args)) as [Heq|Hn]; [now right|]. simpl in Ee.
    destruct an' as [|a0 an'']; [now left|discriminate]. }
  intros b' _ Hb'. now apply concat_and_rescan_P.
Qed.

Lemma scan_P names it : Forall P it -> forall acc, Forall P acc -> sat pn (Forall P) (scan ms rec names acc it).
Proof.
  induction 1 as [|t it Ht Hit IH]; intros acc Hacc; simpl; [now apply Forall_rev|].
  destruct t as [t|i| |p|id|s|l s|s|c|]; try (apply IH; now constructor).
  destruct (str_mem id names). { apply IH. constructor; auto. }
  assert (Hv : sat pn (Forall P) match sm_get (var_macros ms) id with
                 | Some body => e <- expand_var_macro_body rec names id (tokenize [] body) ;; rec names (rev acc ++ e ++ it)
                 | None => scan ms rec names (TIdent id :: acc) it
                 end).
  { destruct (sm_get (var_macros ms) id) as [body|] eqn:E; [|apply IH; now constructor].
    eapply sat_bind with (P := Forall P).
    - unfold expand_var_macro_body. destruct (contains_var_args _) eqn:Ec; [easy|].
      apply concat_and_rescan_P. apply orplace_P. eapply Hvar; eauto.
    - intros e _ He. apply Hrec. apply Forall_app. split; [now apply Forall_rev|]. apply Forall_app. now split. }
  destruct (peek_is _ it); [|exact Hv].
  destruct (sm_get (fn_macros ms) id) as [[ps body]|] eqn:Ef; [|exact Hv].
  destruct (collect_args it) as [[args it'']|] eqn:Ec; [|exact Hv].
  destruct (tokenize_arg_names ps) as [an|e| |] eqn:Et; simpl; try easy.
  2:{ exfalso. clear -Et. revert Et. unfold tokenize_arg_names. generalize false, (@nil token).
      induction ps as [|q ps IH]; intros v a; simpl; [discriminate|].
      destruct (from_str q); try discriminate; try apply IH.
      - destruct (str_eqb _ _); [|discriminate]. destruct v; [discriminate|apply IH].
      - destruct v; [discriminate|]. destruct (contains_ident _ _); [discriminate|apply IH]. }
  destruct (collect_args_Forall P _ _ _ Ec Hit) as [Hargs Hrest].
  assert (Hne : args <> []). { apply collect_args_iff in Ec. apply Ec. }
  eapply sat_bind.
  - apply expand_fn_macro_body_call_P; [exact Hargs|exact Hne|]. eapply Hfn; eauto.
  - intros e _ He. apply Hrec. apply Forall_app. split; [now apply Forall_rev|]. apply Forall_app. now split.
Qed.
End Rec.

Lemma expand_macro_body_P fuel : forall names b,
  Forall P b -> sat pn (Forall P) (expand_macro_body ms fuel names b).
Proof.
  induction fuel as [|f IH]; intros names b Hb; simpl; [easy|].
  apply scan_P; [exact IH|exact Hb|constructor].
Qed.

Lemma expand_var_macro_body_P fuel names name b :
  (contains_var_args b = false -> Forall P b) ->
  sat pn (Forall P) (expand_var_macro_body (expand_macro_body ms fuel) names name b).
Proof.
  intros Hb. unfold expand_var_macro_body. destruct (contains_var_args b); [easy|].
  apply concat_and_rescan_P; [apply expand_macro_body_P|]. apply orplace_P. auto.
Qed.

(** [expand_fn_macro]: the parameters stay in the body. *)
Lemma expand_fn_macro_body_def_P fuel names name an b :
  (is_variadic (drop_comments an) = false -> contains_var_args b = false -> Forall P b) ->
  (is_variadic (drop_comments an) = true -> Forall P b) ->
  sat pn (Forall P) (expand_fn_macro_body (expand_macro_body ms fuel) names name an None b).
Proof.
  intros Hb1 Hb2. unfold expand_fn_macro_body.
  destruct (is_variadic (drop_comments an)); simpl.
  - destruct (first_duplicate _); [easy|]. simpl. apply concat_and_rescan_P; [apply expand_macro_body_P|].
    apply orplace_P. auto.
  - destruct (contains_var_args b); [easy|]. destruct (first_duplicate _); [easy|]. simpl.
    apply concat_and_rescan_P; [apply expand_macro_body_P|]. apply orplace_P. auto.
Qed.
End Inv.
