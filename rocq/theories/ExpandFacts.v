(** General facts about expansion: extensionality, fuel monotonicity, error
    provenance. *)
From Verif Require Import Base Utf Lex LexFloat Token MacroSet StrFacts.
From Coq Require Import String List.
Local Open Scope list_scope.

Section Facts.
Context `{Unicode}.

(** ** Extensionality in the macro set and the recursive call *)
Lemma expand_arguments_loop_ext rec1 rec2 :
  (forall n b, rec1 n b = rec2 n b) ->
  forall names k args it acc,
  expand_arguments_loop rec1 names k args acc it = expand_arguments_loop rec2 names k args acc it.
Proof.
  intros Hr names k args. induction it as [|t it IH]; intros acc; [easy|].
  simpl. destruct (is_punct (st "#") t).
  - destruct (peek_is is_arg_token it); [apply IH|easy].
  - destruct (is_arg_token t); [|apply IH].
    destruct (argument_of k args t) as [arg|]; [|easy].
    destruct (peek_is (is_punct (st "#")) acc); [apply IH|].
    destruct (_ || _); rewrite Hr; destruct (rec2 names arg); simpl; try easy; apply IH.
Qed.

Lemma concat_and_rescan_ext rec1 rec2 :
  (forall n b, rec1 n b = rec2 n b) ->
  forall names name b, concat_and_rescan rec1 names name b = concat_and_rescan rec2 names name b.
Proof.
  intros Hr names name b. unfold concat_and_rescan. destruct (expand_concat b); simpl; auto.
Qed.

Lemma expand_var_macro_body_ext rec1 rec2 :
  (forall n b, rec1 n b = rec2 n b) ->
  forall names name b, expand_var_macro_body rec1 names name b = expand_var_macro_body rec2 names name b.
Proof.
  intros Hr names name b. unfold expand_var_macro_body. destruct (contains_var_args b); [easy|].
  now apply concat_and_rescan_ext.
Qed.

Lemma expand_fn_macro_body_ext rec1 rec2 :
  (forall n b, rec1 n b = rec2 n b) ->
  forall names name a args b,
  expand_fn_macro_body rec1 names name a args b = expand_fn_macro_body rec2 names name a args b.
Proof.
  intros Hr names name a args b. unfold expand_fn_macro_body.
  destruct (_ && _); [easy|]. destruct (if negb _ then _ else None); [easy|].
  destruct (first_duplicate _); [easy|].
  destruct args as [args|]; simpl.
  - unfold expand_arguments. rewrite (expand_arguments_loop_ext _ _ Hr).
    destruct (expand_arguments_loop rec2 _ _ _ _ _); simpl; try easy. now apply concat_and_rescan_ext.
  - now apply concat_and_rescan_ext.
Qed.

Lemma scan_ext ms1 ms2 rec1 rec2 :
  (forall n, sm_get (var_macros ms1) n = sm_get (var_macros ms2) n) ->
  (forall n, sm_get (fn_macros ms1) n = sm_get (fn_macros ms2) n) ->
  (forall n b, rec1 n b = rec2 n b) ->
  forall names it acc, scan ms1 rec1 names acc it = scan ms2 rec2 names acc it.
Proof.
  intros Hv Hf Hr names. induction it as [|t it IH]; intros acc; [easy|].
  simpl. destruct t as [t|i| |p|id|s|l s|s|c|]; try apply IH.
  destruct (str_mem id names); [apply IH|].
  rewrite Hv, Hf.
  assert (Hvar : match sm_get (var_macros ms2) id with
                 | Some body => e <- expand_var_macro_body rec1 names id (tokenize [] body) ;; rec1 names (rev acc ++ e ++ it)
                 | None => scan ms1 rec1 names (TIdent id :: acc) it
                 end = match sm_get (var_macros ms2) id with
                 | Some body => e <- expand_var_macro_body rec2 names id (tokenize [] body) ;; rec2 names (rev acc ++ e ++ it)
                 | None => scan ms2 rec2 names (TIdent id :: acc) it
                 end).
  { destruct (sm_get (var_macros ms2) id) as [body|]; [|apply IH].
    rewrite (expand_var_macro_body_ext _ _ Hr). destruct (expand_var_macro_body rec2 _ _ _); simpl; auto. }
  destruct (peek_is _ it); [|exact Hvar].
  destruct (sm_get (fn_macros ms2) id) as [[ps body]|]; [|exact Hvar].
  destruct (collect_args it) as [[args it'']|]; [|exact Hvar].
  destruct (tokenize_arg_names ps) as [an|e| |]; simpl; try easy.
  rewrite (expand_fn_macro_body_ext _ _ Hr).
  destruct (expand_fn_macro_body rec2 _ _ _ _ _); simpl; auto.
Qed.

Lemma expand_macro_body_ext ms1 ms2 :
  (forall n, sm_get (var_macros ms1) n = sm_get (var_macros ms2) n) ->
  (forall n, sm_get (fn_macros ms1) n = sm_get (fn_macros ms2) n) ->
  forall fuel names b, expand_macro_body ms1 fuel names b = expand_macro_body ms2 fuel names b.
Proof.
  intros Hv Hf. induction fuel as [|f IH]; intros names b; [easy|].
  simpl. now apply scan_ext.
Qed.

(** ** Fuel monotonicity *)
Definition le_res {E A} (r1 r2 : res E A) : Prop := r1 = RFuel \/ r1 = r2.

Lemma le_refl {E A} (r : res E A) : le_res r r.
Proof. now right. Qed.

Lemma le_bind {E A B} (r1 r2 : res E A) (k1 k2 : A -> res E B) :
  le_res r1 r2 -> (forall a, r2 = ROk a -> le_res (k1 a) (k2 a)) -> le_res (rbind r1 k1) (rbind r2 k2).
Proof.
  intros [-> | ->] Hk; [now left|]. destruct r2; simpl; try apply le_refl. now apply Hk.
Qed.

Lemma expand_arguments_loop_le rec1 rec2 :
  (forall n b, le_res (rec1 n b) (rec2 n b)) ->
  forall names k args it acc,
  le_res (expand_arguments_loop rec1 names k args acc it) (expand_arguments_loop rec2 names k args acc it).
Proof.
  intros Hr names k args. induction it as [|t it IH]; intros acc; [apply le_refl|].
  simpl. destruct (is_punct (st "#") t).
  - destruct (peek_is is_arg_token it); [apply IH|apply le_refl].
  - destruct (is_arg_token t); [|apply IH].
    destruct (argument_of k args t) as [arg|]; [|apply le_refl].
    destruct (peek_is (is_punct (st "#")) acc); [apply IH|].
    destruct (_ || _); apply le_bind; auto.
Qed.

Lemma concat_and_rescan_le rec1 rec2 :
  (forall n b, le_res (rec1 n b) (rec2 n b)) ->
  forall names name b, le_res (concat_and_rescan rec1 names name b) (concat_and_rescan rec2 names name b).
Proof. intros Hr names name b. apply le_bind; [apply le_refl|auto]. Qed.

Lemma expand_var_macro_body_le rec1 rec2 :
  (forall n b, le_res (rec1 n b) (rec2 n b)) ->
  forall names name b, le_res (expand_var_macro_body rec1 names name b) (expand_var_macro_body rec2 names name b).
Proof.
  intros Hr names name b. unfold expand_var_macro_body. destruct (contains_var_args b); [apply le_refl|].
  now apply concat_and_rescan_le.
Qed.

Lemma expand_fn_macro_body_le rec1 rec2 :
  (forall n b, le_res (rec1 n b) (rec2 n b)) ->
  forall names name a args b,
  le_res (expand_fn_macro_body rec1 names name a args b) (expand_fn_macro_body rec2 names name a args b).
Proof.
  intros Hr names name a args b. unfold expand_fn_macro_body.
  destruct (_ && _); [apply le_refl|]. destruct (if negb _ then _ else None); [apply le_refl|].
  destruct (first_duplicate _); [apply le_refl|].
  apply le_bind; [|intros; now apply concat_and_rescan_le].
  destruct args as [args|]; [now apply expand_arguments_loop_le|apply le_refl].
Qed.

Lemma scan_le ms rec1 rec2 :
  (forall n b, le_res (rec1 n b) (rec2 n b)) ->
  forall names it acc, le_res (scan ms rec1 names acc it) (scan ms rec2 names acc it).
Proof.
  intros Hr names. induction it as [|t it IH]; intros acc; [apply le_refl|].
  simpl. destruct t as [t|i| |p|id|s|l s|s|c|]; try apply IH.
  destruct (str_mem id names); [apply IH|].
  assert (Hvar : le_res match sm_get (var_macros ms) id with
                 | Some body => e <- expand_var_macro_body rec1 names id (tokenize [] body) ;; rec1 names (rev acc ++ e ++ it)
                 | None => scan ms rec1 names (TIdent id :: acc) it
                 end match sm_get (var_macros ms) id with
                 | Some body => e <- expand_var_macro_body rec2 names id (tokenize [] body) ;; rec2 names (rev acc ++ e ++ it)
                 | None => scan ms rec2 names (TIdent id :: acc) it
                 end).
  { destruct (sm_get (var_macros ms) id) as [body|]; [|apply IH].
    apply le_bind; auto. now apply expand_var_macro_body_le. }
  destruct (peek_is _ it); [|exact Hvar].
  destruct (sm_get (fn_macros ms) id) as [[ps body]|]; [|exact Hvar].
  destruct (collect_args it) as [[args it'']|]; [|exact Hvar].
  apply le_bind; [apply le_refl|]. intros an _. apply le_bind; auto.
  now apply expand_fn_macro_body_le.
Qed.

Lemma expand_macro_body_le ms f names b : forall f', f <= f' ->
  le_res (expand_macro_body ms f names b) (expand_macro_body ms f' names b).
Proof.
  revert names b. induction f as [|f IH]; intros names b f' Hle; [now left|].
  destruct f' as [|f']; [lia|]. simpl. apply scan_le. intros n b'. apply IH. lia.
Qed.

(** ** Where errors come from *)
Definition errs (Q : xerr -> Prop) {A} (r : res xerr A) : Prop := forall e, r = RErr e -> Q e.

Lemma errs_bind Q {A B} (r : res xerr A) (k : A -> res xerr B) :
  errs Q r -> (forall a, r = ROk a -> errs Q (k a)) -> errs Q (rbind r k).
Proof. intros Hr Hk e. destruct r; simpl; intros Heq; try discriminate; [exact (Hk a eq_refl e Heq)|apply Hr; congruence]. Qed.

Lemma errs_ok Q {A} (a : A) : errs Q (ROk a).
Proof. now intros e. Qed.

(** The errors expansion proper can report: everything but [MacroNotFound]
    and [InvalidToken]. *)
Definition expansion_proper (e : xerr) : Prop :=
  match e with MacroNotFound | InvalidToken _ => False | _ => True end.

Ltac err_done := let e := fresh in let He := fresh in intros e He; inversion He; subst; exact I.

Lemma errs_token_concat l r : errs expansion_proper (token_concat l r).
Proof.
  unfold token_concat, concat_stripped. generalize (strip_nr l) (strip_nr r). intros a b e He.
  destruct a, b; simpl in He;
    repeat match type of He with
    | context [match ?x with _ => _ end] => destruct x
    end; inversion He; exact I.
Qed.

Lemma errs_concat_loop it : forall p acc, errs expansion_proper (concat_loop p acc it).
Proof.
  induction it as [|t it IH]; intros p acc; simpl.
  - destruct p; err_done.
  - destruct p as [lhs|].
    + destruct (is_comment_token t); [apply IH|]. apply errs_bind; [apply errs_token_concat|]. auto.
    + destruct (_ && _); [|apply IH]. destruct (pop_lhs acc) as [[lhs acc']|]; [|err_done].
      destruct (peek_is _ it); [|apply IH]. apply errs_bind; [apply errs_token_concat|]. auto.
Qed.

Lemma errs_tokenize_arg_names l : forall v acc, errs expansion_proper (tokenize_arg_names_loop v acc l).
Proof.
  induction l as [|n l IH]; intros v acc; simpl; [apply errs_ok|].
  destruct (from_str n); try err_done.
  - destruct (str_eqb p _); [|err_done]. destruct v; [err_done|apply IH].
  - destruct v; [err_done|]. destruct (contains_ident id acc); [err_done|apply IH].
  - apply IH.
Qed.

Section Errs.
Variable rec : list str -> list token -> res xerr (list token).
Hypothesis Hrec : forall n b, errs expansion_proper (rec n b).

Lemma errs_expand_arguments names k args it : forall acc,
  errs expansion_proper (expand_arguments_loop rec names k args acc it).
Proof.
  induction it as [|t it IH]; intros acc; simpl; [apply errs_ok|].
  destruct (is_punct (st "#") t).
  - destruct (peek_is is_arg_token it); [apply IH|err_done].
  - destruct (is_arg_token t); [|apply IH].
    destruct (argument_of k args t) as [arg|]; [|err_done].
    destruct (peek_is (is_punct (st "#")) acc); [apply IH|].
    destruct (_ || _); apply errs_bind; auto.
Qed.

Lemma errs_concat_and_rescan names name b : errs expansion_proper (concat_and_rescan rec names name b).
Proof. apply errs_bind; [apply errs_concat_loop|auto]. Qed.

Lemma errs_expand_var_macro_body names name b : errs expansion_proper (expand_var_macro_body rec names name b).
Proof. unfold expand_var_macro_body. destruct (contains_var_args b); [err_done|apply errs_concat_and_rescan]. Qed.

Lemma errs_expand_fn_macro_body names name a args b :
  errs expansion_proper (expand_fn_macro_body rec names name a args b).
Proof.
  unfold expand_fn_macro_body. destruct (_ && _); [err_done|].
  destruct (if negb _ then _ else None) as [e|] eqn:E.
  { intros e' He. inversion He; subst. destruct (negb _); [|discriminate].
    destruct args; [|discriminate]. destruct (_ && _); inversion E; exact I. }
  destruct (first_duplicate _); [err_done|].
  apply errs_bind; [|intros; apply errs_concat_and_rescan].
  destruct args; [apply errs_expand_arguments|apply errs_ok].
Qed.

Lemma errs_scan ms names it : forall acc, errs expansion_proper (scan ms rec names acc it).
Proof.
  induction it as [|t it IH]; intros acc; simpl; [apply errs_ok|].
  destruct t as [t|i| |p|id|s|l s|s|c|]; try apply IH.
  destruct (str_mem id names); [apply IH|].
  assert (Hvar : errs expansion_proper match sm_get (var_macros ms) id with
                 | Some body => e <- expand_var_macro_body rec names id (tokenize [] body) ;; rec names (rev acc ++ e ++ it)
                 | None => scan ms rec names (TIdent id :: acc) it
                 end).
  { destruct (sm_get (var_macros ms) id) as [body|]; [|apply IH].
    apply errs_bind; [apply errs_expand_var_macro_body|auto]. }
  destruct (peek_is _ it); [|exact Hvar].
  destruct (sm_get (fn_macros ms) id) as [[ps body]|]; [|exact Hvar].
  destruct (collect_args it) as [[args it'']|]; [|exact Hvar].
  apply errs_bind; [apply errs_tokenize_arg_names|]. intros an _.
  apply errs_bind; [apply errs_expand_fn_macro_body|auto].
Qed.
End Errs.

Lemma errs_expand_macro_body ms f : forall names b, errs expansion_proper (expand_macro_body ms f names b).
Proof.
  induction f as [|f IH]; intros names b; simpl; [err_done|]. now apply errs_scan.
Qed.

Lemma errs_token_detokenize k t : errs (fun e => exists s, e = InvalidToken s) (token_detokenize k t).
Proof.
  induction t; simpl; try (intros e He; inversion He; subst; eauto; fail).
  destruct k; intros e He; inversion He.
Qed.

Lemma errs_detokenize k l : errs (fun e => exists s, e = InvalidToken s) (detokenize k l).
Proof.
  induction l as [|t l IH]; simpl; [apply errs_ok|].
  apply errs_bind; [apply errs_token_detokenize|]. intros o _.
  apply errs_bind; [exact IH|]. intros r _. apply errs_ok.
Qed.
End Facts.
