(** Properties C12, C19, C21-C24: calls, parameter lists and the tokens of a
    result. *)
From Verif Require Import Base Utf Lex LexFloat Token MacroSet StrFacts LexFacts SpecSet SetFacts SpecCall CallFacts
  ExpandFacts ExpandInv TokenFacts SpecTokens ParamFacts.
From Coq Require Import String List.
Local Open Scope list_scope.

(** C12.  Argument lists are recognised exactly as specified: [text] starts
    with [( a1 , ... , an )] where each [ai] is balanced and has no comma
    outside of brackets; in particular the split is unique and no token is
    lost. *)
Theorem C12_arguments_split : forall text args rest,
  collect_args text = Some (args, rest) <-> call_text text args rest.
Proof. exact collect_args_iff. Qed.

Theorem C12_not_a_call : forall text,
  collect_args text = None <-> ~ exists args rest, call_text text args rest.
Proof.
  intros text. split.
  - intros Hn (args & rest & Hc). apply collect_args_iff in Hc. congruence.
  - intros Hn. destruct (collect_args text) as [[args rest]|] eqn:E; [|easy].
    exfalso. apply Hn. exists args, rest. now apply collect_args_iff.
Qed.

Theorem C12_split_unique : forall text args rest args' rest',
  call_text text args rest -> call_text text args' rest' -> args = args' /\ rest = rest'.
Proof.
  intros text args rest args' rest' H1 H2. apply collect_args_iff in H1, H2. rewrite H1 in H2. now inversion H2.
Qed.

(** Non-vacuity: [( (a , b) , [ , ] c ) d]. *)
Example C12_example : call_text
  [TPunct (st "("); TPunct (st "("); TIdent (st "a"); TPunct (st ","); TIdent (st "b"); TPunct (st ")");
   TPunct (st ","); TPunct (st "["); TPunct (st ","); TPunct (st "]"); TIdent (st "c"); TPunct (st ")"); TIdent (st "d")]
  [[TPunct (st "("); TIdent (st "a"); TPunct (st ","); TIdent (st "b"); TPunct (st ")")];
   [TPunct (st "["); TPunct (st ","); TPunct (st "]"); TIdent (st "c")]] [TIdent (st "d")].
Proof. apply collect_args_iff. reflexivity. Qed.
Example C12_example_unbalanced : forall args rest,
  ~ call_text [TPunct (st "("); TPunct (st "["); TPunct (st ")")] args rest.
Proof. intros args rest Hc. apply collect_args_iff in Hc. discriminate. Qed.

(** C21. *)
Theorem C21_parameter_list_accepted : forall `{Unicode} names an,
  tokenize_arg_names names = ROk an <-> an = map from_str names /\ exists ids v, parameter_list names ids v.
Proof. intros U. exact tokenize_arg_names_iff. Qed.

(** A rejected list has a first offending entry [x] after an acceptable prefix. *)
Theorem C21_parameter_list_rejected : forall `{Unicode} names e,
  tokenize_arg_names names = RErr e <->
  exists pre x post ids v, names = pre ++ x :: post /\ parameter_list pre ids v /\
    match parameter_kind x with
    | PName id => (v = true /\ e = InvalidArgumentName) \/ (v = false /\ In id ids /\ e = NonUniqueArgument id)
    | PEllipsis => v = true /\ e = NonUniqueArgument (st "...")
    | PComment => False
    | POther => e = InvalidArgumentName
    end.
Proof.
  intros U names e.
  assert (Hids : forall l ids v, parameter_list l ids v -> ids_of (map from_str l) = ids).
  { intros l ids v [Hk _]. revert ids Hk. fold (kinds l). induction l as [|n l IH]; intros ids Hk.
    - destruct ids; [easy|]. destruct v; discriminate.
    - change (map from_str (n :: l)) with ([from_str n] ++ map from_str l).
      rewrite ids_of_app, ids_of_from_str. unfold kinds in Hk. simpl in Hk. fold (kinds l) in Hk.
      destruct (parameter_kind n) as [id| | |] eqn:Ek; simpl in Hk.
      + destruct ids as [|i ids]; [destruct v; discriminate|]. inversion Hk; subst. simpl. f_equal. now apply IH.
      + destruct ids as [|i ids]; [|discriminate]. destruct v; [|discriminate]. simpl in *. inversion Hk as [Hk'].
        clear -Hk'. induction l as [|m l IHl]; [easy|].
        change (map from_str (m :: l)) with ([from_str m] ++ map from_str l). rewrite ids_of_app, ids_of_from_str.
        unfold kinds in Hk'. simpl in Hk'. fold (kinds l) in Hk'. destruct (parameter_kind m); try discriminate.
        simpl in *. auto.
      + simpl. now apply IH.
      + destruct ids; [destruct v|]; discriminate. }
  assert (Hell : forall l ids v, parameter_list l ids v ->
    existsb (fun p => match p with PEllipsis => true | _ => false end) (map parameter_kind l) = v).
  { intros l ids v [Hk _].
    assert (Hf : existsb (fun p => match p with PEllipsis => true | _ => false end) (map parameter_kind l) =
                 existsb (fun p => match p with PEllipsis => true | _ => false end)
                   (filter (fun p => negb (is_pcomment p)) (map parameter_kind l))).
    { clear. induction (map parameter_kind l) as [|p l' IH]; [easy|]. destruct p; simpl; auto. }
    rewrite Hf, Hk. rewrite existsb_app. clear. induction ids; simpl; [now destruct v|easy]. }
  split.
  - unfold tokenize_arg_names. intros E. apply arg_names_loop_err in E.
    destruct E as (pre & x & post & acc' & -> & Hok & Hx).
    change (tokenize_arg_names pre = ROk acc') in Hok. apply tokenize_arg_names_iff in Hok.
    destruct Hok as (-> & ids & v & Hp). exists pre, x, post, ids, v. split; [easy|]. split; [easy|].
    simpl in Hx. rewrite (Hell _ _ _ Hp), (Hids _ _ _ Hp) in Hx. exact Hx.
  - intros (pre & x & post & ids & v & -> & Hp & Hx).
    assert (Hok : tokenize_arg_names pre = ROk (map from_str pre)).
    { apply tokenize_arg_names_iff. split; [easy|]. now exists ids, v. }
    assert (Happ : forall l v0 acc acc', tokenize_arg_names_loop v0 acc l = ROk acc' -> forall l',
      tokenize_arg_names_loop v0 acc (l ++ l') =
      tokenize_arg_names_loop (orb v0 (existsb (fun p => match p with PEllipsis => true | _ => false end) (map parameter_kind l))) acc' l').
    { clear. induction l as [|n l IH]; intros v0 acc acc' E l'.
      - simpl in E. inversion E; subst. simpl. now rewrite orb_false_r.
      - rewrite arg_names_step in E. simpl app. rewrite arg_names_step. simpl map. simpl existsb.
        destruct (parameter_kind n) as [id| | |]; try discriminate.
        + destruct v0; [discriminate|]. destruct (str_mem id (ids_of acc)); [discriminate|].
          rewrite (IH _ _ _ E). reflexivity.
        + destruct v0; [discriminate|]. rewrite (IH _ _ _ E). reflexivity.
        + rewrite (IH _ _ _ E). reflexivity. }
    unfold tokenize_arg_names in *. rewrite (Happ _ _ _ _ Hok), (Hell _ _ _ Hp). simpl orb.
    rewrite arg_names_step, (Hids _ _ _ Hp).
    destruct (parameter_kind x) as [id| | |].
    + destruct Hx as [[-> ->]|(-> & Hin & ->)]; [easy|]. apply str_mem_In in Hin. now rewrite Hin.
    + destruct Hx as [-> ->]. easy.
    + easy.
    + now subst.
Qed.

(** ... and calls never panic or fail otherwise: every list is one or the other. *)
Theorem C21_parameter_list_total : forall `{Unicode} names,
  (exists an, tokenize_arg_names names = ROk an) \/ (exists e, tokenize_arg_names names = RErr e).
Proof.
  intros U names. unfold tokenize_arg_names.
  assert (Hg : forall v acc, (exists an, tokenize_arg_names_loop v acc names = ROk an) \/
                             (exists e, tokenize_arg_names_loop v acc names = RErr e)); [|apply Hg].
  induction names as [|n names IH]; intros v acc; [left; simpl; eauto|]. rewrite arg_names_step.
  destruct (parameter_kind n); eauto; destruct v; eauto. destruct (str_mem _ _); eauto.
Qed.

Example C21_example : parameter_list [st "a"; st "/* x */"; st "b"; st "..."] [st "a"; st "b"] true.
Proof. split; [reflexivity|]. repeat constructor; simpl; intuition; discriminate. Qed.
Example C21_example_rejected :
  tokenize_arg_names [st "a"; st "b"; st "a"] = RErr (NonUniqueArgument (st "a")) /\
  tokenize_arg_names [st "..."; st "a"] = RErr InvalidArgumentName /\
  tokenize_arg_names [st "..."; st "..."] = RErr (NonUniqueArgument (st "...")).
Proof. repeat split. Qed.

(** ** Tokens of a result *)
Section Results.
Context `{Unicode}.

Lemma expand_result Q ms fuel b out : expand_closed Q -> (forall s, s <> st "__VA_ARGS__" -> Q (from_str s)) ->
  expand ms fuel b = ROk out ->
  exists toks, detokenize 0 toks = ROk out /\ Forall (thru Q) toks /\ Forall (thru not_place) toks.
Proof.
  intros HQ Hs E. unfold expand in E.
  destruct (expand_var_macro_body _ _ _ _) as [toks|e| |] eqn:Et; try discriminate. simpl in E.
  exists toks. split; [easy|]. split; (eapply var_macro_body_result; [..|exact Et]); auto.
  - apply not_place_closed.
  - intros s _. apply not_place_spell.
Qed.

Lemma expand_var_macro_result Q ms fuel n out : expand_closed Q -> (forall s, s <> st "__VA_ARGS__" -> Q (from_str s)) ->
  expand_var_macro ms fuel n = ROk out ->
  exists toks, detokenize 0 toks = ROk out /\ Forall (thru Q) toks /\ Forall (thru not_place) toks.
Proof.
  intros HQ Hs E. unfold expand_var_macro in E. destruct (sm_get _ n) as [b|]; [|discriminate].
  destruct (expand_var_macro_body _ _ _ _) as [toks|e| |] eqn:Et; try discriminate. simpl in E.
  exists toks. split; [easy|]. split; (eapply var_macro_body_result; [..|exact Et]); auto.
  - apply not_place_closed.
  - intros s _. apply not_place_spell.
Qed.

Lemma expand_fn_macro_result Q ms fuel n ps body a out :
  expand_closed Q -> (forall s, s <> st "__VA_ARGS__" -> Q (from_str s)) ->
  sm_get (fn_macros ms) n = Some (ps, body) ->
  (forall an t, tokenize_arg_names ps = ROk an ->
     In t (tokenize an body) -> is_arg_token t = true -> (t = TVarArgs -> is_variadic (drop_comments an) = true) -> Q t) ->
  expand_fn_macro ms fuel n = ROk (a, out) ->
  exists an toks, tokenize_arg_names ps = ROk an /\ detokenize 0 an = ROk a /\ detokenize (length an) toks = ROk out /\
    Forall (thru Q) toks /\ Forall (thru not_place) toks.
Proof.
  intros HQ Hs Hd Hq E. unfold expand_fn_macro in E. rewrite Hd in E.
  destruct (tokenize_arg_names ps) as [an|e| |] eqn:Ea; try discriminate. simpl in E.
  destruct (expand_fn_macro_body _ _ _ _ _ _) as [toks|e| |] eqn:Et; try discriminate. simpl in E.
  destruct (detokenize (length an) toks) as [b'|e| |] eqn:Eb; try discriminate. simpl in E.
  destruct (detokenize 0 an) as [a'|e| |] eqn:Ea'; try discriminate. simpl in E. inversion E; subst.
  exists an, toks. repeat split; auto.
  - eapply fn_macro_body_result; [exact HQ|exact Hs| |exact Et]. intros t. now apply Hq.
  - eapply fn_macro_body_result; [apply not_place_closed|intros; apply not_place_spell| |exact Et].
    intros t _ Ht _ Hn. subst. discriminate.
Qed.

Lemma Forall2_In_r {A B} (R : A -> B -> Prop) l l' b : Forall2 R l l' -> In b l' -> exists a, In a l /\ R a b.
Proof.
  induction 1 as [|x y l l' Hxy Hl IH]; simpl; [easy|].
  intros [->|Hb]; [eauto|]. destruct (IH Hb) as (a & Ha & Hr). eauto.
Qed.

Lemma shows_thru k t m : shows k t = Some m <-> shows k (strip_nr t) = Some m.
Proof. induction t; simpl; auto; easy. Qed.

(** C23. *)
Lemma is_identifier_wf id : is_identifier id = true -> well_formed_identifier id.
Proof.
  destruct id as [|c r]; simpl; [easy|]. intros Hi. apply andb_prop in Hi. destruct Hi as [Hc Hr].
  exists c, r. split; [easy|]. split.
  - unfold is_identifier_start in Hc. apply orb_prop in Hc. destruct Hc as [Hc|Hc]; [now left|right; now apply N.eqb_eq].
  - apply Forall_forall. intros x Hx. rewrite forallb_forall in Hr. auto.
Qed.

Lemma shown_ident k toks out id :
  Forall (thru idents_ok) toks -> Forall (thru not_place) toks -> detokenize k toks = ROk out ->
  In (MIdent id) out -> well_formed_identifier id.
Proof.
  intros Hok Hnp Hd Hin. apply detokenize_ok in Hd; [|easy].
  destruct (Forall2_In_r _ _ _ _ Hd Hin) as (t & Ht & Hs).
  rewrite Forall_forall in Hok. specialize (Hok t Ht). apply shows_thru in Hs. unfold thru in Hok.
  pose proof (strip_nr_no t) as Hno.
  destruct (strip_nr t) as [u|i| |p|id'|s|l s|s|c|]; [now destruct (Hno u)|..]; simpl in Hs; try discriminate.
  - destruct k; discriminate.
  - inversion Hs; subst. now apply is_identifier_wf.
Qed.
End Results.

Theorem C23_expand_identifiers : forall `{Unicode} ms fuel b out id,
  expand ms fuel b = ROk out -> In (MIdent id) out -> well_formed_identifier id.
Proof.
  intros U ms fuel b out id E Hin.
  apply (expand_result idents_ok) in E; [|apply idents_ok_closed|intros; apply idents_ok_spell].
  destruct E as (toks & Hd & Hok & Hnp). eapply shown_ident; eauto.
Qed.

Theorem C23_expand_var_macro_identifiers : forall `{Unicode} ms fuel n out id,
  expand_var_macro ms fuel n = ROk out -> In (MIdent id) out -> well_formed_identifier id.
Proof.
  intros U ms fuel n out id E Hin.
  apply (expand_var_macro_result idents_ok) in E; [|apply idents_ok_closed|intros; apply idents_ok_spell].
  destruct E as (toks & Hd & Hok & Hnp). eapply shown_ident; eauto.
Qed.

Theorem C23_expand_fn_macro_identifiers : forall `{Unicode} ms fuel n a out id,
  expand_fn_macro ms fuel n = ROk (a, out) -> In (MIdent id) a \/ In (MIdent id) out -> well_formed_identifier id.
Proof.
  intros U ms fuel n a out id E Hin. pose proof E as E0. unfold expand_fn_macro in E0.
  destruct (sm_get (fn_macros ms) n) as [[ps body]|] eqn:Ed; [|discriminate]. clear E0.
  eapply (expand_fn_macro_result idents_ok) in E; eauto; [|apply idents_ok_closed|intros; apply idents_ok_spell|].
  2:{ intros an t _ _ Ht _. destruct t; try discriminate; exact I. }
  destruct E as (an & toks & Han & Ha & Hd & Hok & Hnp). destruct Hin as [Hin|Hin].
  - eapply (shown_ident 0 an); eauto.
    + apply tokenize_arg_names_iff in Han. destruct Han as [-> _]. apply Forall_map. apply Forall_forall.
      intros s _. unfold thru. rewrite strip_nr_same by apply from_str_no_nr. apply idents_ok_spell.
    + apply tokenize_arg_names_iff in Han. destruct Han as [-> _]. apply Forall_map. apply Forall_forall.
      intros s _. unfold thru. rewrite strip_nr_same by apply from_str_no_nr. apply not_place_spell.
  - eapply shown_ident; eauto.
Qed.

(** Non-vacuity: identifiers that come from the text, from pasting and from an
    escape. *)
Example C23_example :
  expand (run [DefineFn (st "CAT") [st "x"; st "y"] [st "x"; st "##"; st "y"]]) 9
    [st "CAT"; st "("; st "a"; st ","; st "1"; st ")"; st "_b"; st "\u0411c"] =
  ROk [MIdent (st "a1"); MIdent (st "_b"); MIdent (0x411%N :: st "c")].
Proof. vm_compute. reflexivity. Qed.

(** C19.  Every token of the result is shown as exactly one output token: there
    is an internal token list without placemarkers of the same length. *)
Theorem C19_expand_no_markers : forall `{Unicode} ms fuel b out,
  expand ms fuel b = ROk out ->
  exists toks, expand_var_macro_body (expand_macro_body ms fuel) [] [] (tokenize [] b) = ROk toks /\
    ~ In TPlacemarker toks /\ Forall2 (fun t m => shows 0 t = Some m) toks out.
Proof.
  intros U ms fuel b out E. unfold expand in E.
  destruct (expand_var_macro_body _ _ _ _) as [toks|e| |] eqn:Et; try discriminate. simpl in E.
  assert (Hnp : Forall (thru not_place) toks).
  { eapply var_macro_body_result; [apply not_place_closed|intros; apply not_place_spell|exact Et]. }
  exists toks. split; [easy|]. split.
  - intros Hin. rewrite Forall_forall in Hnp. now apply (Hnp _ Hin).
  - now apply detokenize_ok.
Qed.

(** No macro argument reaches the result of [expand] / [expand_var_macro]. *)
Lemma shown_no_arg `{Unicode} toks out i :
  Forall (thru not_arg) toks -> Forall (thru not_place) toks -> detokenize 0 toks = ROk out -> ~ In (MArg i) out.
Proof.
  intros Hok Hnp Hd Hin. apply detokenize_ok in Hd; [|easy].
  destruct (Forall2_In_r _ _ _ _ Hd Hin) as (t & Ht & Hs).
  rewrite Forall_forall in Hok. specialize (Hok t Ht). apply shows_thru in Hs. unfold thru in Hok.
  pose proof (strip_nr_no t) as Hno.
  destruct (strip_nr t) as [u|i'| |p|id'|s|l s|s|c|]; [now destruct (Hno u)|..]; simpl in Hs; discriminate.
Qed.

Theorem C19_expand_no_arguments : forall `{Unicode} ms fuel b out i,
  expand ms fuel b = ROk out -> ~ In (MArg i) out.
Proof.
  intros U ms fuel b out i E.
  apply (expand_result not_arg) in E; [|apply not_arg_closed|apply not_arg_spell].
  destruct E as (toks & Hd & Hok & Hnp). eapply shown_no_arg; eauto.
Qed.

Theorem C19_expand_var_macro_no_arguments : forall `{Unicode} ms fuel n out i,
  expand_var_macro ms fuel n = ROk out -> ~ In (MArg i) out.
Proof.
  intros U ms fuel n out i E.
  apply (expand_var_macro_result not_arg) in E; [|apply not_arg_closed|apply not_arg_spell].
  destruct E as (toks & Hd & Hok & Hnp). eapply shown_no_arg; eauto.
Qed.

(** Empty arguments leave nothing behind. *)
Example C19_example :
  expand (run [DefineFn (st "T") [st "x"; st "y"; st "z"] [st "x"; st "##"; st "y"; st "##"; st "z"]]) 9
    [st "T"; st "("; st ","; st ","; st ")"; st "+"; st "T"; st "("; st "a"; st ","; st ","; st "c"; st ")"] =
  ROk [MPunct (st "+"); MIdent (st "ac")].
Proof. vm_compute. reflexivity. Qed.

(** C22. *)
Section C22.
Context `{Unicode}.

(** Where an argument reference of the body of [n] may come from. *)
Definition named_arg (ps body : list str) (i : nat) : Prop :=
  exists s, nth_error (param_names (map from_str ps)) i = Some s /\ In (TIdent s) (map from_str ps) /\ In s body.

Definition arg_ok (ps body : list str) (t : token) : Prop :=
  match t with
  | TArg i => named_arg ps body i
  | TVarArgs => In (st "__VA_ARGS__") body /\ is_variadic (drop_comments (map from_str ps)) = true
  | _ => True
  end.
Lemma arg_ok_closed ps body : expand_closed (arg_ok ps body).
Proof. split; [split|..]; simpl; easy. Qed.
Lemma arg_ok_spell ps body s : s <> st "__VA_ARGS__" -> arg_ok ps body (from_str s).
Proof. intros Hs. apply from_str_cases; simpl; easy. Qed.

Lemma filter_all {A} (f : A -> bool) l : (forall x, In x l -> f x = true) -> filter f l = l.
Proof. induction l as [|x l IH]; simpl; intros Hf; [easy|]. rewrite Hf by auto. f_equal. auto. Qed.

(** Parameters as tokens, as returned, and their names. *)
Lemma param_shape ps ids v : parameter_list ps ids v ->
  forall a, detokenize 0 (map from_str ps) = ROk a ->
  parameters a = map MIdent ids ++ (if v then [MPunct (st "...")] else []) /\
  param_names (map from_str ps) = ids ++ (if v then [st "..."] else []).
Proof.
  intros [Hk _]. revert ids Hk. induction ps as [|p ps IH]; intros ids Hk a Hd.
  - simpl in Hd. inversion Hd; subst. destruct ids; [destruct v; [discriminate|easy]|discriminate].
  - simpl in Hk, Hd. pose proof (eq_refl (parameter_kind p)) as Epk; unfold parameter_kind at 2 in Epk; rewrite Epk in Hk; clear Epk.
    unfold param_names, parameters in *. simpl map. simpl drop_comments.
    destruct (from_str p) as [t|i| |q|id|s|l s|s|c|] eqn:Ef; simpl in Hd, Hk;
      try (destruct ids; [destruct v|]; discriminate).
    + destruct (list_eq_dec N.eq_dec q (st "...")) as [->|]; [|simpl in Hk; destruct ids; [destruct v|]; discriminate].
      simpl in Hk. destruct ids as [|i ids]; [|discriminate]. destruct v; [|discriminate]. simpl in Hk. inversion Hk as [Hk'].
      destruct (detokenize 0 (map from_str ps)) as [r|e| |] eqn:Er; try discriminate. simpl in Hd. inversion Hd; subst.
      assert (Hrest : filter not_mcomment r = [] /\ MacroSet.filter_map param_name (drop_comments (map from_str ps)) = []).
      { clear -Hk' Er. revert r Er. induction ps as [|p ps IHp]; intros r Er.
        - simpl in Er. inversion Er; subst. easy.
        - simpl in Hk', Er. pose proof (eq_refl (parameter_kind p)) as Epk; unfold parameter_kind at 2 in Epk; rewrite Epk in Hk'; clear Epk. simpl map. simpl drop_comments.
          destruct (from_str p) as [t|i| |q|id|s|l s|s|c|] eqn:Ef; simpl in Hk'; try discriminate.
          + destruct (list_eq_dec _ _ _); discriminate.
          + simpl in Er. destruct (detokenize 0 (map from_str ps)) as [r'|e| |]; try discriminate.
            simpl in Er. inversion Er; subst. simpl. now apply IHp. }
      destruct Hrest as [Hr1 Hr2]. simpl. now rewrite Hr1, Hr2.
    + destruct ids as [|i ids]; [destruct v; discriminate|]. simpl in Hk. inversion Hk; subst.
      destruct (detokenize 0 (map from_str ps)) as [r|e| |] eqn:Er; try discriminate. simpl in Hd. inversion Hd; subst.
      destruct (IH ids H2 r eq_refl) as [Hr1 Hr2]. simpl. now rewrite Hr1, Hr2.
    + destruct (detokenize 0 (map from_str ps)) as [r|e| |] eqn:Er; try discriminate. simpl in Hd. inversion Hd; subst.
      simpl. now apply IH.
Qed.
End C22.

(** Every argument reference [i] of the result is below the number of
    parameters and stands for the [i]-th: either the body mentions the name of
    that parameter, or it mentions [__VA_ARGS__] and the parameter is [...].
    Parameter lists with comments are excluded for [__VA_ARGS__]. *)
Theorem C22_argument_references : forall `{Unicode} ms fuel n ps body a out i,
  sm_get (fn_macros ms) n = Some (ps, body) ->
  expand_fn_macro ms fuel n = ROk (a, out) -> In (MArg i) out ->
  (forall s, In s ps -> parameter_kind s <> PComment) ->
  exists m, nth_error (parameters a) i = Some m /\
    ((exists s, m = MIdent s /\ In s body) \/
     (m = MPunct (st "...") /\ In (st "__VA_ARGS__") body)).
Proof.
  intros U ms fuel n ps body a out i Hd E Hin Hnc.
  eapply (expand_fn_macro_result (arg_ok ps body)) in E; [|apply arg_ok_closed|apply arg_ok_spell|eauto|].
  2:{ intros an t Han Ht Harg Hv. apply tokenize_arg_names_iff in Han. destruct Han as [-> _].
      destruct t; try discriminate; simpl.
      - apply tokenize_in in Ht. destruct Ht as (s & Hs & [(j & Ej & Hn)|Ej]).
        + inversion Ej; subst. destruct Hn as [Hn Hn']. exists s. auto.
        + symmetry in Ej. now apply from_str_not_arg in Ej.
      - apply tokenize_in in Ht. destruct Ht as (s & Hs & [(j & Ej & Hn)|Ej]); [discriminate|].
        symmetry in Ej. apply from_str_var_args in Ej. subst. auto. }
  destruct E as (an & toks & Han & Ha & Hdt & Hok & Hnp).
  apply tokenize_arg_names_iff in Han. destruct Han as (-> & ids & v & Hpl).
  destruct (param_shape _ _ _ Hpl a Ha) as [Hpa Hpn].
  apply detokenize_ok in Hdt; [|easy].
  destruct (Forall2_In_r _ _ _ _ Hdt Hin) as (t & Ht & Hs).
  rewrite Forall_forall in Hok. specialize (Hok t Ht). apply shows_thru in Hs. unfold thru in Hok.
  assert (Hname : forall j, named_arg ps body j -> exists m, nth_error (parameters a) j = Some m /\
    ((exists s, m = MIdent s /\ In s body) \/
     (m = MPunct (st "...") /\ In (st "__VA_ARGS__") body))).
  { intros j (s & Hj & Hi & Hs'). rewrite Hpn in Hj. rewrite Hpa.
    destruct (Nat.lt_ge_cases j (length ids)) as [Hlt|Hge].
    - rewrite nth_error_app1 in Hj by easy. exists (MIdent s). split.
      + rewrite nth_error_app1 by now rewrite map_length. rewrite nth_error_map, Hj. easy.
      + left. eauto.
    - rewrite nth_error_app2 in Hj by easy. destruct v; [|destruct (j - length ids); discriminate].
      destruct (j - length ids) as [|k] eqn:Ek; [|destruct k; discriminate]. inversion Hj; subst.
      apply in_map_iff in Hi. destruct Hi as (q & Hq & _). pose proof (idents_ok_spell q) as Hok'. rewrite Hq in Hok'.
      discriminate. }
  pose proof (strip_nr_no t) as Hno.
  destruct (strip_nr t) as [u|i'| |p|id'|s|l s|s|c|]; [now destruct (Hno u)|..]; simpl in Hs; try discriminate.
  - inversion Hs; subst. now apply Hname.
  - (* __VA_ARGS__ *)
    destruct Hok as [Hva Hvar]. destruct (length (map from_str ps)) as [|k] eqn:El; [discriminate|].
    assert (Hki : k = i) by congruence. subst k. clear Hs. rewrite map_length in El.
    assert (Hlen : length ps = length (ids ++ (if v then [st "..."] else []))).
    { rewrite <- Hpn. destruct Hpl as [Hk _].
      assert (Hf : filter (fun p => negb (is_pcomment p)) (map parameter_kind ps) = map parameter_kind ps).
      { apply filter_all. intros x Hx. apply in_map_iff in Hx. destruct Hx as (s & <- & Hsx).
        specialize (Hnc s Hsx). destruct (parameter_kind s); try easy. }
      rewrite Hf in Hk. rewrite Hpn. apply (f_equal (@length _)) in Hk. rewrite map_length in Hk. rewrite Hk.
      rewrite !app_length, map_length. destruct v; easy. }
    assert (Hv : v = true).
    { destruct v; [easy|]. exfalso. destruct Hpl as [Hk _]. rewrite app_nil_r in Hk.
      unfold is_variadic in Hvar. revert Hvar.
      assert (Hall : Forall (fun t => is_punct (st "...") t = false) (drop_comments (map from_str ps))).
      { apply Forall_forall. intros x Hx. unfold drop_comments in Hx. apply filter_In in Hx. destruct Hx as [Hx Hcx].
        apply in_map_iff in Hx. destruct Hx as (s & <- & Hsx).
        destruct (is_punct (st "...") (from_str s)) eqn:Ep; [|easy]. exfalso.
        assert (Hpk : parameter_kind s = PEllipsis).
        { unfold parameter_kind. destruct (from_str s); try discriminate. simpl in Ep. apply str_eqb_eq in Ep. subst.
          destruct (list_eq_dec _ _ _); easy. }
        assert (Hin' : In PEllipsis (map PName ids)).
        { rewrite <- Hk. apply filter_In. split; [|easy]. rewrite <- Hpk. now apply in_map. }
        apply in_map_iff in Hin'. destruct Hin' as (? & ? & _). discriminate. }
      apply Forall_rev in Hall. destruct Hall; simpl; congruence. }
    subst v. rewrite app_length in Hlen. simpl in Hlen.
    exists (MPunct (st "...")). split; [|right; auto].
    rewrite Hpa. rewrite nth_error_app2 by (rewrite map_length; lia). rewrite map_length.
    replace (i - length ids) with 0 by lia. easy.
Qed.

(** With a comment among the parameters, [__VA_ARGS__] refers past the end. *)
Theorem C22_argument_references_refuted : exists (h : list call) n a out i,
  expand_fn_macro (run h) 9 n = ROk (a, out) /\ In (MArg i) out /\ nth_error (parameters a) i = None.
Proof.
  exists [DefineFn (st "F") [st "a"; st "/*c*/"; st "..."] [st "__VA_ARGS__"]], (st "F").
  do 2 eexists. exists 2. vm_compute. repeat split; eauto.
Qed.

(** A parameter spelled with an escape is not recognised in the body. *)
Theorem C22_escaped_parameter_refuted : exists (h : list call) n a out ps body s,
  sm_get (fn_macros (run h)) n = Some (ps, body) /\ In s ps /\ In s body /\
  expand_fn_macro (run h) 9 n = ROk (a, out) /\ (forall i, ~ In (MArg i) out).
Proof.
  exists [DefineFn (st "F") [st "\u0411"] [st "\u0411"]], (st "F").
  do 2 eexists. do 3 eexists. vm_compute. repeat split.
  - left. reflexivity.
  - left. reflexivity.
  - intros i [Hc|Hc]; [discriminate|easy].
Qed.

Example C22_example :
  expand_fn_macro (run [DefineFn (st "F") [st "a"; st "b"; st "..."] [st "b"; st "-"; st "G"; st "("; st "a"; st ")"; st "__VA_ARGS__"];
                        DefineFn (st "G") [st "x"] [st "x"; st "+"; st "x"]]) 9 (st "F") =
  ROk ([MIdent (st "a"); MIdent (st "b"); MPunct (st "...")],
       [MArg 1; MPunct (st "-"); MArg 0; MPunct (st "+"); MArg 0; MArg 2]).
Proof. vm_compute. reflexivity. Qed.

(** C24. *)
Lemma shown_invalid `{Unicode} k toks s : Forall (thru plain_ok) toks -> detokenize k toks = RErr (InvalidToken s) ->
  identifier_try_from s = None /\ lit_try_from s = None /\ identifier_continue_try_from s = None.
Proof.
  intros Hok Hd. apply detokenize_err in Hd. destruct Hd as (pre & t & s' & post & -> & Ht & He & _).
  inversion He; subst. apply Forall_app in Hok. destruct Hok as [_ Hok]. inversion Hok as [|? ? Hp _]; subst.
  unfold thru in Hp. rewrite Ht in Hp. exact Hp.
Qed.

Theorem C24_invalid_token_is_no_token : forall `{Unicode} ms fuel b s,
  expand ms fuel b = RErr (InvalidToken s) ->
  identifier_try_from s = None /\ lit_try_from s = None /\ identifier_continue_try_from s = None.
Proof.
  intros U ms fuel b s E. unfold expand in E.
  destruct (expand_var_macro_body _ _ _ _) as [toks|e| |] eqn:Et; try discriminate; simpl in E.
  - eapply shown_invalid; [|exact E].
    eapply var_macro_body_result; [apply plain_ok_closed|intros; apply plain_ok_spell|exact Et].
  - inversion E; subst. apply (errs_expand_var_macro_body _ (errs_expand_macro_body ms fuel)) in Et. easy.
Qed.

Theorem C24_invalid_token_is_no_token_var : forall `{Unicode} ms fuel n s,
  expand_var_macro ms fuel n = RErr (InvalidToken s) ->
  identifier_try_from s = None /\ lit_try_from s = None /\ identifier_continue_try_from s = None.
Proof.
  intros U ms fuel n s E. unfold expand_var_macro in E. destruct (sm_get _ n) as [b|]; [|discriminate].
  destruct (expand_var_macro_body _ _ _ _) as [toks|e| |] eqn:Et; try discriminate; simpl in E.
  - eapply shown_invalid; [|exact E].
    eapply var_macro_body_result; [apply plain_ok_closed|intros; apply plain_ok_spell|exact Et].
  - inversion E; subst. apply (errs_expand_var_macro_body _ (errs_expand_macro_body ms fuel)) in Et. easy.
Qed.

Theorem C24_invalid_token_is_no_token_fn : forall `{Unicode} ms fuel n s,
  expand_fn_macro ms fuel n = RErr (InvalidToken s) ->
  identifier_try_from s = None /\ lit_try_from s = None /\ identifier_continue_try_from s = None.
Proof.
  intros U ms fuel n s E. unfold expand_fn_macro in E. destruct (sm_get _ n) as [[ps b]|]; [|discriminate].
  destruct (tokenize_arg_names ps) as [an|e| |] eqn:Ea; try discriminate; simpl in E.
  2:{ inversion E; subst. now apply errs_tokenize_arg_names in Ea. }
  destruct (expand_fn_macro_body _ _ _ _ _ _) as [toks|e| |] eqn:Et; try discriminate; simpl in E.
  2:{ inversion E; subst. apply (errs_expand_fn_macro_body _ (errs_expand_macro_body ms fuel)) in Et. easy. }
  destruct (detokenize (length an) toks) as [b'|e| |] eqn:Eb; try discriminate; simpl in E.
  2:{ inversion E; subst. eapply shown_invalid; [|exact Eb].
      eapply fn_macro_body_result; [apply plain_ok_closed|intros; apply plain_ok_spell| |exact Et].
      intros t _ Ht _. destruct t; try discriminate; exact I. }
  destruct (detokenize 0 an) as [a'|e| |] eqn:Ea'; try discriminate. simpl in E. inversion E; subst.
  eapply shown_invalid; [|exact Ea']. apply tokenize_arg_names_iff in Ea. destruct Ea as [-> _].
  apply Forall_map, Forall_forall. intros x _. unfold thru. rewrite strip_nr_same by apply from_str_no_nr. apply plain_ok_spell.
Qed.

(** A token without meaning in the expanded text always makes it fail. *)
Theorem C24_invalid_token_fails : forall `{Unicode} ms fuel b toks,
  expand_var_macro_body (expand_macro_body ms fuel) [] [] (tokenize [] b) = ROk toks ->
  ((exists s, expand ms fuel b = RErr (InvalidToken s)) <-> exists t s, In t toks /\ strip_nr t = TPlain s).
Proof.
  intros U ms fuel b toks Et. unfold expand. rewrite Et. simpl. split.
  - intros [s E]. apply detokenize_err in E. destruct E as (pre & t & s' & post & -> & Ht & _).
    exists t, s'. split; [|easy]. apply in_or_app. right. now left.
  - intros Hex.
    assert (Hna : Forall (thru not_arg) toks).
    { eapply var_macro_body_result; [apply not_arg_closed|apply not_arg_spell|exact Et]. }
    assert (Hnr : forall l, Forall (thru not_arg) l -> (exists r, detokenize 0 l = ROk r) \/ exists e, detokenize 0 l = RErr e).
    { clear. induction 1 as [|t l Ht Hl IH]; simpl; [eauto|].
      assert (Htd : (exists o, token_detokenize 0 t = ROk o) \/ exists e, token_detokenize 0 t = RErr e).
      { unfold thru, not_arg in Ht. induction t; simpl in *; eauto. discriminate. }
      destruct Htd as [[o ->]|[e ->]]; simpl; [|eauto].
      destruct IH as [[r ->]|[e ->]]; simpl; eauto. }
    destruct (Hnr _ Hna) as [[r E]|[e E]].
    + exfalso. eapply detokenize_plain_fails; eauto.
    + rewrite E. apply errs_detokenize in E. destruct E as [s ->]. eauto.
Qed.

(** A comment or punctuator that only results from pasting is rejected too. *)
Theorem C24_pasted_comment_refuted : exists (h : list call) s c,
  expand (run h) 9 [st "/*a"; st "##"; st "b*/"] = RErr (InvalidToken s) /\ comment_try_from s = Some c.
Proof. exists [], (st "/*ab*/"), (st "ab"). vm_compute. split; reflexivity. Qed.

Example C24_example : expand (run []) 9 [st "a"; st "@"; st "b"] = RErr (InvalidToken (st "@")).
Proof. vm_compute. reflexivity. Qed.

Print Assumptions C12_arguments_split.
Print Assumptions C12_not_a_call.
Print Assumptions C12_split_unique.
Print Assumptions C21_parameter_list_accepted.
Print Assumptions C21_parameter_list_rejected.
Print Assumptions C21_parameter_list_total.
Print Assumptions C23_expand_identifiers.
Print Assumptions C23_expand_var_macro_identifiers.
Print Assumptions C23_expand_fn_macro_identifiers.
Print Assumptions C19_expand_no_markers.
Print Assumptions C19_expand_no_arguments.
Print Assumptions C19_expand_var_macro_no_arguments.
Print Assumptions C22_argument_references.
Print Assumptions C22_argument_references_refuted.
Print Assumptions C22_escaped_parameter_refuted.
Print Assumptions C24_invalid_token_is_no_token.
Print Assumptions C24_invalid_token_is_no_token_var.
Print Assumptions C24_invalid_token_is_no_token_fn.
Print Assumptions C24_invalid_token_fails.
Print Assumptions C24_pasted_comment_refuted.
