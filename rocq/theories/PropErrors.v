(** C13, C15, C55: every error of expansion has a cause in the definitions.
    (The errors of [##] are the subject of C17 and C18.) *)
From Verif Require Import Base Utf Lex LexFloat Token MacroSet StrFacts LexFacts SpecSet SetFacts SpecCall CallFacts
  ExpandFacts ExpandInv TokenFacts SpecTokens ParamFacts SpecPaste PasteFacts SpecRescan SpecExpand ObjFacts FullFacts PropObject PropExpand.
From Coq Require Import String List.
Local Open Scope list_scope.

(** What must be wrong for an error to be reported: in the macros after the
    calls [h] or in the expanded body [top]. *)
Definition justified `{Unicode} (h : list call) (top : list str) (e : xerr) : Prop :=
  match e with
  | FnMacroArgumentError n required given =>
    exists ps body ids, defined (rev h) n = Some (DFn ps body) /\ parameter_list ps ids false /\
      required = length ids /\ required <> given /\ 0 < given
  | NonVariadicVarArgs =>
    In (st "__VA_ARGS__") top \/
    (exists n body, defined (rev h) n = Some (DVar body) /\ In (st "__VA_ARGS__") body) \/
    (exists n ps ids body, defined (rev h) n = Some (DFn ps body) /\ parameter_list ps ids false /\ In (st "__VA_ARGS__") body)
  | StringifyNonArgument =>
    exists n ps body, defined (rev h) n = Some (DFn ps body) /\ In hash (map from_str body)
  | InvalidArgumentName | NonUniqueArgument _ =>
    exists n ps body, defined (rev h) n = Some (DFn ps body) /\ forall ids v, ~ parameter_list ps ids v
  | _ => True
  end.

Section S.
Context `{Unicode}.
Variable h : list call.
Variable top : list str.
Notation Q := (justified h top).
Ltac err_done := let e := fresh in let He := fresh in intros e He; inversion He; subst; exact I.

Lemma fn_defined n ps b : sm_get (fn_macros (run h)) n = Some (ps, b) -> defined (rev h) n = Some (DFn ps b).
Proof.
  intros E. pose proof (run_holds h n) as Hh. destruct (defined (rev h) n) as [[b'|p b']|]; simpl in Hh; destruct Hh; congruence.
Qed.
Lemma var_defined n b : sm_get (var_macros (run h)) n = Some b -> defined (rev h) n = Some (DVar b).
Proof.
  intros E. pose proof (run_holds h n) as Hh. destruct (defined (rev h) n) as [[b'|p b']|]; simpl in Hh; destruct Hh; congruence.
Qed.

Lemma justified_concat l r : errs Q (token_concat l r).
Proof.
  unfold token_concat, concat_stripped. generalize (strip_nr l) (strip_nr r). intros a b e He.
  destruct a, b; simpl in He;
    repeat match type of He with
    | context [match ?x with _ => _ end] => destruct x
    end; inversion He; exact I.
Qed.

Lemma justified_concat_loop it : forall p acc, errs Q (concat_loop p acc it).
Proof.
  induction it as [|t it IH]; intros p acc; simpl.
  - destruct p; [err_done|apply errs_ok].
  - destruct p as [lhs|].
    + destruct (is_comment_token t); [apply IH|]. apply errs_bind; [apply justified_concat|]. auto.
    + destruct (_ && _); [|apply IH]. destruct (pop_lhs acc) as [[lhs acc']|]; [|err_done].
      destruct (peek_is _ it); [|apply IH]. apply errs_bind; [apply justified_concat|]. auto.
Qed.

Lemma justified_params n ps b : sm_get (fn_macros (run h)) n = Some (ps, b) -> errs Q (tokenize_arg_names ps).
Proof.
  intros E e He. assert (Hr : forall ids v, ~ parameter_list ps ids v).
  { intros ids v Hp. destruct (parameter_list_names ps ids v Hp) as (an & Ea & _). congruence. }
  pose proof (errs_tokenize_arg_names ps false [] e He) as Hx. apply fn_defined in E. 
  unfold tokenize_arg_names in He. revert He. generalize false as vv, (@nil token) as acc. intros vv acc He.
  assert (Hk : e = InvalidArgumentName \/ exists s, e = NonUniqueArgument s).
  { revert vv acc He. clear. induction ps as [|s ps IH]; intros vv acc He; [discriminate|]. simpl in He.
    destruct (from_str s); try (inversion He; auto; fail).
    - destruct (str_eqb p _); [|inversion He; auto]. destruct vv; [inversion He; eauto|exact (IH _ _ He)].
    - destruct vv; [inversion He; auto|]. destruct (contains_ident id acc); [inversion He; eauto|exact (IH _ _ He)].
    - exact (IH _ _ He). }
  destruct Hk as [-> | [s ->]]; simpl; eauto.
Qed.

Section Rec.
Variable rec : list str -> list token -> res xerr (list token).
Hypothesis Hrec : forall n b, errs Q (rec n b).

Lemma justified_arguments names k args it :
  (In hash it -> exists n ps body, defined (rev h) n = Some (DFn ps body) /\ In hash (map from_str body)) -> forall acc,
  errs Q (expand_arguments_loop rec names k args acc it).
Proof.
  intros Hh. induction it as [|t it IH]; intros acc; simpl; [apply errs_ok|].
  assert (Hh' : In hash it -> exists n ps body, defined (rev h) n = Some (DFn ps body) /\ In hash (map from_str body)).
  { intros Hi. apply Hh. now right. }
  destruct (is_punct (st "#") t) eqn:Eh.
  - destruct (peek_is is_arg_token it); [now apply IH|]. intros e He. injection He as <-. apply Hh. left. now apply hash_is.
  - destruct (is_arg_token t); [|now apply IH].
    destruct (argument_of k args t) as [arg|]; [|err_done].
    destruct (peek_is (is_punct (st "#")) acc); [now apply IH|].
    destruct (_ || _); apply errs_bind; auto.
Qed.

Lemma justified_concat_and_rescan names name b : errs Q (concat_and_rescan rec names name b).
Proof. apply errs_bind; [apply justified_concat_loop|auto]. Qed.

Lemma va_body an b : In TVarArgs (tokenize an b) -> In (st "__VA_ARGS__") b.
Proof.
  intros Hi. apply tokenize_in in Hi. destruct Hi as (s & Hs & [(i & E & _)|E]); [discriminate|].
  symmetry in E. apply from_str_var_args in E. now subst.
Qed.

Lemma justified_var_body names name b : (In (st "__VA_ARGS__") b -> Q NonVariadicVarArgs) ->
  errs Q (expand_var_macro_body rec names name (tokenize [] b)).
Proof.
  intros Hb. unfold expand_var_macro_body. destruct (contains_var_args _) eqn:E; [|apply justified_concat_and_rescan].
  intros e He. injection He as <-. apply Hb. apply contains_true in E. now apply va_body in E.
Qed.

Lemma hash_body an b : In hash (tokenize an b) -> In hash (map from_str b).
Proof.
  intros Hi. apply tokenize_in in Hi. destruct Hi as (s & Hs & [(i & E & _)|E]); [discriminate|].
  rewrite E. now apply in_map.
Qed.

Lemma justified_fn_body names name ps an args b :
  sm_get (fn_macros (run h)) name = Some (ps, b) -> tokenize_arg_names ps = ROk an -> (forall a, args = Some a -> a <> []) ->
  errs Q (expand_fn_macro_body rec names name an args (tokenize an b)).
Proof.
  intros Hg Ha Hne. pose proof (fn_defined _ _ _ Hg) as Hd.
  destruct (proj1 (tokenize_arg_names_iff _ _) Ha) as (-> & ids & v & Hp).
  destruct (parameter_list_names ps ids v Hp) as (an & Ea & Ei & Ev & _). rewrite Ea in Ha. injection Ha as Ha. subst an.
  set (an := map from_str ps) in *.
  assert (Evn : is_variadic (drop_comments an) = false -> parameter_list ps ids false). { rewrite Ev. now intros ->. }
  assert (Hhash : In hash (tokenize an b) -> exists n ps body, defined (rev h) n = Some (DFn ps body) /\ In hash (map from_str body)).
  { intros Hi. exists name, ps, b. split; [easy|]. eapply hash_body; eauto. }
  assert (Hva : is_variadic (drop_comments an) = false -> contains_var_args (tokenize an b) = true -> Q NonVariadicVarArgs).
  { intros E Hc. right. right. exists name, ps, ids, b. repeat split; auto. apply Evn, E. apply Evn, E. apply contains_true in Hc. now apply va_body in Hc. }
  destruct args as [args|].
  - rewrite (expand_fn_macro_body_call rec names name ps an (tokenize an b) args Ea (Hne _ eq_refl)).
    destruct (is_variadic (drop_comments an)); cbn [negb andb].
    + apply errs_bind; [now apply justified_arguments|]. intros; apply justified_concat_and_rescan.
    + destruct (contains_var_args _) eqn:Ec. { intros e He. injection He as <-. now apply Hva. }
      destruct (negb _) eqn:En.
      * intros e He. injection He as <-. exists ps, b, ids. repeat split; auto; try apply Evn; auto.
        -- now rewrite Ei.
        -- intros E. apply negb_true_iff, orb_false_iff in En. destruct En as [En _]. apply Nat.eqb_neq in En. contradiction.
        -- specialize (Hne _ eq_refl). destruct args; simpl; [easy|lia].
      * apply errs_bind; [now apply justified_arguments|]. intros; apply justified_concat_and_rescan.
  - unfold expand_fn_macro_body. destruct (_ && _) eqn:Ec.
    + intros e He. injection He as <-. apply andb_true_iff in Ec. destruct Ec as [E1 E2]. apply negb_true_iff in E1. now apply Hva.
    + destruct (if negb _ then None else None) eqn:En. { exfalso. destruct (negb _); discriminate. }
      destruct (first_duplicate _) as [d|] eqn:Ed; [|cbn [rbind]; apply justified_concat_and_rescan].
      exfalso. destruct (accepted_names _ _ Ea) as (ids' & v' & Ed' & Hd' & Hi'). rewrite Ed' in Ed.
      rewrite no_duplicate in Ed; [discriminate|easy|easy].
Qed.

Lemma justified_scan names it : forall acc, errs Q (scan (run h) rec names acc it).
Proof.
  induction it as [|t it IH]; intros acc; simpl; [apply errs_ok|].
  destruct t as [t|i| |p|id|s|l s|s|c|]; try apply IH.
  destruct (str_mem id names); [apply IH|].
  assert (Hvar : errs Q match sm_get (var_macros (run h)) id with
                 | Some body => e <- expand_var_macro_body rec names id (tokenize [] body) ;; rec names (rev acc ++ e ++ it)
                 | None => scan (run h) rec names (TIdent id :: acc) it
                 end).
  { destruct (sm_get (var_macros (run h)) id) as [body|] eqn:Ev; [|apply IH].
    apply errs_bind; [|auto]. apply justified_var_body. intros Hi. right. left. exists id, body. split; [now apply var_defined|easy]. }
  destruct (peek_is _ it); [|exact Hvar].
  destruct (sm_get (fn_macros (run h)) id) as [[ps body]|] eqn:Ef; [|exact Hvar].
  destruct (collect_args it) as [[args it'']|] eqn:Ec; [|exact Hvar].
  apply errs_bind; [now apply (justified_params id ps body)|]. intros an Ea.
  apply errs_bind; [|auto]. apply (justified_fn_body names id ps); auto.
  intros a Eq. injection Eq as <-. apply collect_args_iff in Ec. apply Ec.
Qed.
End Rec.

Lemma justified_macro_body f : forall names b, errs Q (expand_macro_body (run h) f names b).
Proof. induction f as [|f IH]; intros names b; simpl; [err_done|]. now apply justified_scan. Qed.

Lemma justified_detokenize k l : errs Q (detokenize k l).
Proof. intros e He. apply errs_detokenize in He. destruct He as [s ->]. exact I. Qed.
End S.

(** C13/C55: whatever error [expand] reports, its cause is there. *)
Theorem C55_expand_errors : forall `{Unicode} h fuel text e, expand (run h) fuel text = RErr e -> justified h text e.
Proof.
  intros U h fuel text e. apply (errs_bind (justified h text)); [|intros; apply justified_detokenize].
  apply justified_var_body; [apply justified_macro_body|]. intros Hi. now left.
Qed.

Theorem C55_expand_var_macro_errors : forall `{Unicode} h fuel n e,
  expand_var_macro (run h) fuel n = RErr e -> justified h [] e.
Proof.
  intros U h fuel n e. unfold expand_var_macro. destruct (sm_get (var_macros (run h)) n) as [b|] eqn:E.
  2:{ intros He. injection He as <-. exact I. }
  apply (errs_bind (justified h [])); [|intros; apply justified_detokenize].
  apply justified_var_body; [apply justified_macro_body|]. intros Hi. right. left. exists n, b. split; [now apply var_defined|easy].
Qed.

Theorem C55_expand_fn_macro_errors : forall `{Unicode} h fuel n e,
  expand_fn_macro (run h) fuel n = RErr e -> justified h [] e.
Proof.
  intros U h fuel n e. unfold expand_fn_macro. destruct (sm_get (fn_macros (run h)) n) as [[ps b]|] eqn:E.
  2:{ intros He. injection He as <-. exact I. }
  apply (errs_bind (justified h [])); [now apply (justified_params h [] n ps b)|]. intros an Ea.
  apply (errs_bind (justified h [])); [apply (justified_fn_body h [] _ (justified_macro_body h [] fuel) _ _ ps); auto; discriminate|].
  intros t _. apply (errs_bind (justified h [])); [apply justified_detokenize|]. intros b' _.
  apply (errs_bind (justified h [])); [apply justified_detokenize|]. intros a' _. apply errs_ok.
Qed.

(** C13, the other direction: an arity error is only reported when the numbers differ. *)
Corollary C13_right_count_never_rejected : forall `{Unicode} h fuel text n required given,
  expand (run h) fuel text = RErr (FnMacroArgumentError n required given) ->
  exists ps body ids, defined (rev h) n = Some (DFn ps body) /\ parameter_list ps ids false /\
    required = length ids /\ given <> required /\ 0 < given.
Proof.
  intros U h fuel text n k g E. apply C55_expand_errors in E. simpl in E.
  destruct E as (ps & b & ids & ? & ? & ? & ? & ?). exists ps, b, ids. auto.
Qed.

Local Open Scope string_scope.
Local Open Scope list_scope.
Example C55_example {U : Unicode} :
  let h := [DefineVar (st "X") (words ["f"; "("; "1"; ","; "2"; ")"]); DefineFn (st "f") (words ["a"]) (words ["a"]);
            DefineFn (st "g") (words ["a"; "a"]) []; DefineFn (st "k") (words ["a"]) (words ["#"; "b"])] in
  expand (run h) 20 (words ["1"; "X"]) = RErr (FnMacroArgumentError (st "f") 1 2) /\
  expand_var_macro (run h) 20 (st "X") = RErr (FnMacroArgumentError (st "f") 1 2) /\
  expand_fn_macro (run h) 20 (st "g") = RErr (NonUniqueArgument (st "a")) /\
  expand (run h) 20 (words ["k"; "("; ")"]) = RErr StringifyNonArgument /\
  expand (run h) 20 (words ["f"; "("; "1"; ")"]) = ROk [MLit (LInt (mk_int 1 None))].
Proof. cbv zeta. repeat split. Qed.

Print Assumptions C55_expand_errors.
Print Assumptions C55_expand_var_macro_errors.
Print Assumptions C55_expand_fn_macro_errors.
Print Assumptions C13_right_count_never_rejected.
