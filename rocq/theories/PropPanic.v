(** C16: when expansion cannot panic, and when it does. *)
From Verif Require Import Base Utf Lex LexFloat Token MacroSet StrFacts LexFacts SpecSet SetFacts SpecCall CallFacts
  ExpandFacts ExpandInv TokenFacts SpecTokens ParamFacts SpecPaste PasteFacts SpecExpand FullFacts PropExpand PropErrors PanicFacts.
From Coq Require Import String List.
Local Open Scope string_scope.
Local Open Scope list_scope.

(** [s] is a spelling in [top] or in a replacement list in force. *)
Definition spelled (h : list call) (top : list str) (s : str) : Prop :=
  In s top \/ (exists n body, defined (rev h) n = Some (DVar body) /\ In s body) \/
  (exists n ps body, defined (rev h) n = Some (DFn ps body) /\ In s body).

(** Variadic macros have at most one named parameter. *)
Definition one_named `{Unicode} (h : list call) : Prop := forall n ps body ids,
  defined (rev h) n = Some (DFn ps body) -> parameter_list ps ids true -> length ids <= 1.

(** No encoding prefix, no empty token, no token that starts with a backslash. *)
Definition no_prefix (s : str) : Prop :=
  ~ In s (words ["u8"; "u"; "U"; "L"]) /\ s <> [] /\ (forall r, s <> 92%N :: r).

Definition no_glue `{Unicode} (s : str) : Prop := from_str s <> hashhash.

Section S.
Context `{Unicode}.

Lemma detokenize_quiet (P : token -> Prop) k toks :
  (forall t, P t -> token_detokenize k t <> RPanic) -> Forall P toks -> detokenize k toks <> RPanic.
Proof.
  intros HP. induction 1 as [|t l Ht Hl IH]; simpl; [discriminate|].
  specialize (HP t Ht). destruct (token_detokenize k t); simpl; try easy.
  destruct (detokenize k l); simpl; easy.
Qed.

Lemma glueless_detok fn va k t : glueless fn va t -> (va = true -> k <> 0) -> token_detokenize k t <> RPanic.
Proof.
  intros Ht Hk. destruct t as [u|i| |p|id|s|l s|s|c|]; simpl in *; try easy.
  - destruct u; simpl in *; easy.
  - destruct k; [|easy]. now destruct (Hk (proj2 Ht)).
Qed.
Lemma quiet_detok fn va k t : quiet' fn va t -> (va = true -> k <> 0) -> token_detokenize k t <> RPanic.
Proof.
  intros Ht Hk. destruct t as [u|i| |p|id|s|l s|s|c|]; simpl in *; try easy.
  - destruct u; simpl in *; easy.
  - destruct k; [|easy]. now destruct (Hk (proj2 Ht)).
Qed.

(** Calls always find their arguments. *)
Lemma fn_args h : one_named h -> forall n p b an, sm_get (fn_macros (run h)) n = Some (p, b) ->
  tokenize_arg_names p = ROk an -> forall args : list (list token), args <> [] -> arity_passed (drop_comments an) args ->
  forall t, In t (tokenize an b) -> is_arg_token t = true ->
  (t = TVarArgs -> is_variadic (drop_comments an) = true) ->
  argument_of (length (drop_comments an)) args t <> None.
Proof.
  intros Hone n p b an Hf Ha args Hne Hp t Ht Harg Hva.
  pose proof (proj1 (tokenize_arg_names_iff _ _) Ha) as (_ & ids & v & Hpl).
  destruct (parameter_list_names _ _ _ Hpl) as (an' & Ea' & Eid & Ev & Etok). rewrite Ha in Ea'. injection Ea' as <-.
  pose proof (proj1 (tokenize_arg_names_iff _ _) Ha) as (Ean & _).
  assert (Ed := drop_comments_names _ _ _ Hpl). rewrite <- Ean in Ed.
  rewrite Etok in Ht. apply in_map_iff in Ht. destruct Ht as (s & <- & _).
  assert (Hl : length args >= 1) by (destruct args; [easy|simpl; lia]).
  unfold body_token in *. destruct (index_of ids s) as [i|] eqn:Ei.
  - assert (Hi : i < length ids).
    { clear -Ei. revert i Ei. induction ids as [|x ids IH]; simpl; [discriminate|]. intros i.
      destruct (same_name x s); [intros [= <-]; lia|]. destruct (index_of ids s); [|discriminate]. intros [= <-]. specialize (IH _ eq_refl). lia. }
    simpl. apply nth_error_Some. destruct v.
    + specialize (Hone n p b ids (fn_defined h n p b Hf) Hpl). lia.
    + destruct (Hp Ev) as [E|E]; rewrite Ed in E; rewrite app_nil_r in E.
      * destruct ids; [simpl in Hi; lia|discriminate].
      * rewrite map_length in E. lia.
  - destruct (from_str s) eqn:Es; try discriminate.
    + exfalso. now apply from_str_not_arg in Es.
    + specialize (Hva eq_refl). rewrite Hva in Ev. subst v.
      specialize (Hone n p b ids (fn_defined h n p b Hf) Hpl).
      simpl. rewrite Ed, app_length, map_length. simpl. replace (length ids + 1) with (S (length ids)) by lia.
      destruct (Nat.leb_spec (length ids) (length args)); [easy|lia].
Qed.

Section Generic.
Variable h : list call.
Variable top : list str.
Variable P : token -> Prop.
Hypothesis Hone : one_named h.
Hypothesis Hpaint : forall id, P (TIdent id) -> P (TNonRepl (TIdent id)).
Hypothesis Hconcat : P hashhash -> forall a b, is_comment_token a = false -> is_comment_token b = false ->
  ((forall c, ~ P (TComment c)) -> is_arg_token a = false /\ is_arg_token b = false) ->
  orplace P a -> orplace P b -> sat False (orplace P) (token_concat a b).
Hypothesis Hstr : forall n arg, Forall P arg -> Forall P (stringify n arg).
Hypothesis Hcomma : P comma.
Hypothesis Hspelled : forall s, spelled h top s -> s <> st "__VA_ARGS__" -> P (from_str s).

Lemma generic_body b : (forall s, In s b -> spelled h top s) -> contains_var_args (tokenize [] b) = false -> Forall P (tokenize [] b).
Proof.
  intros Hs Hc. apply contains_var_args_In in Hc. apply Forall_forall. intros t Ht. unfold tokenize in Ht.
  apply in_map_iff in Ht. destruct Ht as (s & <- & Hi). apply Hspelled; [auto|]. intros ->. apply Hc.
  apply in_map_iff. now exists (st "__VA_ARGS__").
Qed.

Lemma generic_var n b : sm_get (var_macros (run h)) n = Some b -> contains_var_args (tokenize [] b) = false -> Forall P (tokenize [] b).
Proof. intros E. apply generic_body. intros s Hs. right. left. exists n, b. split; [now apply var_defined|easy]. Qed.

Lemma generic_fn n p b an : sm_get (fn_macros (run h)) n = Some (p, b) -> tokenize_arg_names p = ROk an ->
  forall args, args <> [] -> arity_passed (drop_comments an) args ->
  (is_variadic (drop_comments an) = false -> contains_var_args (tokenize an b) = false) ->
  Forall (fun t => if is_arg_token t then False \/ argument_of (length (drop_comments an)) args t <> None else P t) (tokenize an b).
Proof.
  intros Hf Ha args Hne Hp Hv. apply Forall_forall. intros t Ht. destruct (is_arg_token t) eqn:E.
  - right. apply (fn_args h Hone n p b an Hf Ha args Hne Hp t Ht E). intros ->.
    destruct (is_variadic (drop_comments an)); [easy|]. specialize (Hv eq_refl). apply contains_var_args_In in Hv. contradiction.
  - apply in_map_iff in Ht. destruct Ht as (s & <- & Hi). destruct (arg_position s 0 an); [discriminate|].
    apply Hspelled; [right; right; exists n, p, b; split; [now apply fn_defined|easy]|]. intros ->. discriminate.
Qed.

Lemma generic_expand fuel : (forall t, P t -> token_detokenize 0 t <> RPanic) -> (forall s, In s top -> spelled h top s) ->
  expand (run h) fuel top <> RPanic.
Proof.
  intros Hd Ht. unfold expand.
  pose proof (expand_var_macro_body_G (run h) False P Hpaint Hconcat (fun _ => Hstr) Hcomma generic_var generic_fn
    fuel [] [] (tokenize [] top) (generic_body top Ht)) as Hs.
  destruct (expand_var_macro_body _ _ _ _) as [l|e| |]; simpl in *; try easy.
  now apply (detokenize_quiet P).
Qed.

Lemma generic_expand_var fuel n : (forall t, P t -> token_detokenize 0 t <> RPanic) -> expand_var_macro (run h) fuel n <> RPanic.
Proof.
  intros Hd. unfold expand_var_macro. destruct (sm_get (var_macros (run h)) n) as [b|] eqn:E; [|discriminate].
  pose proof (expand_var_macro_body_G (run h) False P Hpaint Hconcat (fun _ => Hstr) Hcomma generic_var generic_fn
    fuel [] n (tokenize [] b) (generic_var n b E)) as Hs.
  destruct (expand_var_macro_body _ _ _ _) as [l|e| |]; simpl in *; try easy.
  now apply (detokenize_quiet P).
Qed.

Lemma generic_expand_fn fuel n ps b ids v : sm_get (fn_macros (run h)) n = Some (ps, b) -> parameter_list ps ids v ->
  (forall i, P (TArg i)) -> (v = true -> P TVarArgs) ->
  (forall k t, P t -> (v = true -> k <> 0) -> token_detokenize k t <> RPanic) ->
  expand_fn_macro (run h) fuel n <> RPanic.
Proof.
  intros E Hpl Harg Hva Hd. unfold expand_fn_macro. rewrite E.
  destruct (parameter_list_names _ _ _ Hpl) as (an & Ea & Eid & Ev & Etok). rewrite Ea. cbn [rbind].
  pose proof (proj1 (tokenize_arg_names_iff _ _) Ea) as (Ean & _).
  assert (Hbody : (v = false -> contains_var_args (tokenize an b) = false) -> Forall P (tokenize an b)).
  { intros Hc. apply Forall_forall. intros t Ht. pose proof Ht as Ht'. rewrite Etok in Ht'.
    apply in_map_iff in Ht'. destruct Ht' as (s & Es & Hi). unfold body_token in Es. destruct (index_of ids s); subst t; [apply Harg|].
    destruct (str_eqb_spec s (st "__VA_ARGS__")) as [->|Hs].
    - change (from_str (st "__VA_ARGS__")) with TVarArgs in *. destruct v; [now apply Hva|].
      specialize (Hc eq_refl). apply contains_var_args_In in Hc. contradiction.
    - apply Hspelled; [|easy]. right. right. exists n, ps, b. split; [now apply fn_defined|easy]. }
  pose proof (expand_fn_macro_body_def_G (run h) False P Hpaint Hconcat (fun _ => Hstr) Hcomma generic_var generic_fn
    fuel [] n an (tokenize an b)) as Hs.
  rewrite Ev in Hs. specialize (Hs (fun e1 e2 => Hbody (fun _ => e2))).
  assert (Hs' := Hs (fun e => Hbody (fun e' => ltac:(congruence)))). clear Hs.
  destruct (expand_fn_macro_body _ _ _ _ _ _) as [l|e| |]; cbn [rbind]; try easy.
  assert (Hk : v = true -> length an <> 0).
  { intros ->. rewrite Ean. destruct (map from_str ps) as [|x y] eqn:Em; [|discriminate]. subst an. discriminate. }
  pose proof (detokenize_quiet P (length an) l (fun t Ht => Hd (length an) t Ht Hk) Hs') as Hl.
  destruct (detokenize (length an) l) as [l'|e| |]; cbn [rbind]; try easy.
  assert (Hn : detokenize 0 an <> RPanic).
  { apply (detokenize_quiet (fun t => t <> TVarArgs /\ no_nr t)).
    - intros t [Ht Hn]. destruct t; simpl; try easy. now destruct (Hn t).
    - apply Forall_forall. intros t Ht. split.
      + intros ->. pose proof (drop_comments_names _ _ _ Hpl) as Ed. rewrite <- Ean in Ed.
        assert (Hi : In TVarArgs (drop_comments an)). { unfold drop_comments. apply filter_In. now split. }
        rewrite Ed in Hi. apply in_app_iff in Hi. destruct Hi as [Hi|Hi]; [apply in_map_iff in Hi; destruct Hi as (? & ? & _); discriminate|].
        destruct v; [|easy]. destruct Hi as [Hi|[]]. discriminate.
      + rewrite Ean in Ht. apply in_map_iff in Ht. destruct Ht as (s & <- & _). apply from_str_no_nr. }
  destruct (detokenize 0 an); cbn [rbind]; easy.
Qed.
End Generic.

Lemma fn_case h fuel n :
  (forall ps b ids v, sm_get (fn_macros (run h)) n = Some (ps, b) -> parameter_list ps ids v -> expand_fn_macro (run h) fuel n <> RPanic) ->
  expand_fn_macro (run h) fuel n <> RPanic.
Proof.
  intros Hc. destruct (sm_get (fn_macros (run h)) n) as [[ps b]|] eqn:E; [|unfold expand_fn_macro; rewrite E; discriminate].
  destruct (tokenize_arg_names ps) as [an|e| |] eqn:Ea.
  - pose proof (proj1 (tokenize_arg_names_iff _ _) Ea) as (_ & ids & v & Hpl). eauto.
  - unfold expand_fn_macro. rewrite E, Ea. discriminate.
  - exfalso. clear -Ea. revert Ea. unfold tokenize_arg_names. generalize false, (@nil token).
    induction ps as [|q ps IH]; intros v a; simpl; [discriminate|].
    destruct (from_str q); try discriminate; try apply IH.
    * destruct (str_eqb _ _); [|discriminate]. destruct v; [discriminate|apply IH].
    * destruct v; [discriminate|]. destruct (contains_ident _ _); [discriminate|apply IH].
  - unfold expand_fn_macro. rewrite E, Ea. discriminate.
Qed.

(** C16.  Without [##], expansion never panics. *)
Theorem C16_without_pasting_partial : forall h, one_named h -> forall fuel n text,
  (forall s, spelled h text s -> no_glue s) ->
  expand (run h) fuel text <> RPanic /\ expand_var_macro (run h) fuel n <> RPanic /\ expand_fn_macro (run h) fuel n <> RPanic.
Proof.
  intros h Hone fuel n text Hs.
  assert (Hg : forall fn va top, (forall s, In s top -> In s text) ->
    forall s, spelled h top s -> s <> st "__VA_ARGS__" -> glueless fn va (from_str s)).
  { intros fn va top Ht s Hsp Hv. apply glueless_spelled; [|easy]. apply Hs. destruct Hsp as [Hsp|Hsp]; [left; auto|now right]. }
  assert (Hc : forall fn va, glueless fn va hashhash -> forall a b, is_comment_token a = false -> is_comment_token b = false ->
    ((forall c, ~ glueless fn va (TComment c)) -> is_arg_token a = false /\ is_arg_token b = false) ->
    orplace (glueless fn va) a -> orplace (glueless fn va) b -> sat False (orplace (glueless fn va)) (token_concat a b)).
  { intros fn va Hh. now destruct Hh. }
  assert (Hp : forall fn va id, glueless fn va (TIdent id) -> glueless fn va (TNonRepl (TIdent id))) by easy.
  assert (Hco : forall fn va, glueless fn va comma) by discriminate.
  split; [|split].
  - refine (generic_expand h text (glueless false false) Hone (Hp _ _) (Hc _ _) (glueless_stringify _ _) (Hco _ _) (Hg _ _ _ _) fuel _ _); auto.
    + intros t Ht. now apply (glueless_detok false false).
    + intros s Hi. now left.
  - refine (generic_expand_var h [] (glueless false false) Hone (Hp _ _) (Hc _ _) (glueless_stringify _ _) (Hco _ _) (Hg _ _ _ _) fuel n _); [easy|].
    intros t Ht. now apply (glueless_detok false false).
  - apply fn_case. intros ps b ids v E Hpl.
    refine (generic_expand_fn h [] (glueless true v) Hone (Hp _ _) (Hc _ _) (glueless_stringify _ _) (Hco _ _) (Hg _ _ _ _) fuel n ps b ids v E Hpl _ _ _); try easy.
    intros k t Ht Hk. now apply (glueless_detok true v).
Qed.

(** C16.  With [##], expansion never panics unless an encoding prefix occurs;
    for [expand_fn_macro] also no comments may occur. *)
Theorem C16_without_prefix_partial : forall h, one_named h -> forall fuel n text,
  (forall s, spelled h text s -> no_prefix s) ->
  expand (run h) fuel text <> RPanic /\ expand_var_macro (run h) fuel n <> RPanic /\
  ((forall s c, spelled h [] s -> from_str s <> TComment c) -> expand_fn_macro (run h) fuel n <> RPanic).
Proof.
  intros h Hone fuel n text Hs.
  assert (Hg : forall fn va top, (forall s, In s top -> In s text) ->
    (fn = true -> forall s c, spelled h top s -> from_str s <> TComment c) ->
    forall s, spelled h top s -> s <> st "__VA_ARGS__" -> quiet' fn va (from_str s)).
  { intros fn va top Ht Hcom s Hsp Hv.
    assert (Hn : no_prefix s). { apply Hs. destruct Hsp as [Hsp|Hsp]; [left; auto|now right]. }
    destruct Hn as (H1 & H2 & H3). destruct fn.
    - specialize (Hcom eq_refl s). pose proof (fun c => Hcom c Hsp) as Hc.
      pose proof (quiet_spelled false va s H2 H3 H1 Hv ltac:(discriminate)) as Hq.
      pose proof (from_str_no_nr s) as Hnr. pose proof (from_str_not_arg s) as Hna.
      destruct (from_str s) as [u|i| |p|id|c|l sp|p|c|]; simpl in *; try easy; try (now destruct (Hnr u)); try (now destruct (Hna i)).
      + now destruct (Hc c).
    - now apply quiet_spelled. }
  assert (Hc : forall fn va, quiet' fn va hashhash -> forall a b, is_comment_token a = false -> is_comment_token b = false ->
    ((forall c, ~ quiet' fn va (TComment c)) -> is_arg_token a = false /\ is_arg_token b = false) ->
    orplace (quiet' fn va) a -> orplace (quiet' fn va) b -> sat False (orplace (quiet' fn va)) (token_concat a b)).
  { intros fn va _ a b Ha Hb Hn. apply quiet_concat; auto. intros ->. apply Hn. discriminate. }
  assert (Hp : forall fn va id, quiet' fn va (TIdent id) -> quiet' fn va (TNonRepl (TIdent id))) by easy.
  assert (Hco : forall fn va, quiet' fn va comma) by easy.
  split; [|split].
  - refine (generic_expand h text (quiet' false false) Hone (Hp _ _) (Hc _ _) (quiet_stringify _ _) (Hco _ _) (Hg _ _ _ _ _) fuel _ _); auto; try discriminate.
    + intros t Ht. now apply (quiet_detok false false).
    + intros s Hi. now left.
  - refine (generic_expand_var h [] (quiet' false false) Hone (Hp _ _) (Hc _ _) (quiet_stringify _ _) (Hco _ _) (Hg _ _ _ _ _) fuel n _); try easy; try discriminate.
    intros t Ht. now apply (quiet_detok false false).
  - intros Hcom. apply fn_case. intros ps b ids v E Hpl.
    refine (generic_expand_fn h [] (quiet' true v) Hone (Hp _ _) (Hc _ _) (quiet_stringify _ _) (Hco _ _) (Hg _ _ _ _ _) fuel n ps b ids v E Hpl _ _ _); try easy.
    intros k t Ht Hk. now apply (quiet_detok true v).
Qed.
End S.

(** The remaining cases do panic. *)

(** A variadic macro called with fewer arguments than named parameters. *)
Theorem C16_missing_argument_refuted {U : Unicode} : exists h, forall fuel, 3 <= fuel ->
  defined (rev h) (st "f") = Some (DFn (words ["a"; "b"; "..."]) (words ["b"])) /\
  expand (run h) fuel (words ["f"; "("; "1"; ")"]) = RPanic.
Proof.
  exists [DefineFn (st "f") (words ["a"; "b"; "..."]) (words ["b"])]. intros fuel Hf.
  destruct fuel as [|[|[|fuel]]]; try lia. split; reflexivity.
Qed.

(** An encoding prefix pasted to a literal that is not valid with it. *)
Theorem C16_prefix_refuted {U : Unicode} : exists h, forall fuel, 2 <= fuel ->
  expand (run h) fuel [st "u8"; st "##"; 34%N :: st "\xff" ++ [34%N]] = RPanic /\
  lit_try_from (34%N :: st "\xff" ++ [34%N]) = Some (LString (SOrdinary [255%N])).
Proof. exists []. intros fuel Hf. destruct fuel as [|[|fuel]]; try lia. split; reflexivity. Qed.

(** A comment between a parameter and [##] in [expand_fn_macro]. *)
Theorem C16_comment_refuted {U : Unicode} : exists h, forall fuel, 2 <= fuel ->
  defined (rev h) (st "f") = Some (DFn (words ["a"]) (words ["a"; "/* c */"; "##"; "b"])) /\
  expand_fn_macro (run h) fuel (st "f") = RPanic.
Proof.
  exists [DefineFn (st "f") (words ["a"]) (words ["a"; "/* c */"; "##"; "b"])]. intros fuel Hf.
  destruct fuel as [|[|fuel]]; try lia. split; reflexivity.
Qed.

(** An instance: function-like macros, pasting and stringification. *)
Example C16_example {U : Unicode} :
  let h := [DefineFn (st "cat") (words ["x"; "y"]) (words ["x"; "##"; "y"]);
            DefineFn (st "s") (words ["..."]) (words ["#"; "__VA_ARGS__"]); DefineVar (st "A") (words ["1"; "##"; "2"])] in
  one_named h /\ (forall s, spelled h (words ["cat"; "("; "a"; ","; "A"; ")"; "s"; "("; "b"; ","; "c"; ")"]) s -> no_prefix s).
Proof.
  cbv zeta. split.
  - intros n ps body ids Hd Hp. destruct (parameter_list_names _ _ _ Hp) as (an & Ea & <- & _).
    assert (Hps : In ps [words ["x"; "y"]; words ["..."]]).
    { unfold defined in Hd. simpl in Hd.
      repeat match type of Hd with context [if ?x then _ else _] => destruct x; simpl in Hd end; try discriminate;
        injection Hd as <- _; simpl; auto. }
    destruct Hps as [<-|[<-|[]]].
    + destruct Hp as [Hp _]. exfalso. apply (f_equal (@length _)) in Hp as Hl. apply (f_equal (@rev _)) in Hp.
      rewrite rev_app_distr in Hp. vm_compute in Hp. discriminate.
    + vm_compute in Ea. injection Ea as <-. simpl. lia.
  - intros s Hs.
    assert (Hi : In s (words ["cat"; "("; "a"; ","; "A"; ")"; "s"; "("; "b"; ","; "c"; ")"; "x"; "##"; "y"; "#"; "__VA_ARGS__"; "1"; "##"; "2"])).
    { destruct Hs as [Hs|[(n & b & Hd & Hs)|(n & ps & b & Hd & Hs)]].
      - simpl in *. intuition.
      - simpl in Hd. repeat match type of Hd with context [if ?x then _ else _] => destruct x; simpl in Hd end; try discriminate;
          injection Hd as <-; simpl in *; intuition.
      - simpl in Hd. repeat match type of Hd with context [if ?x then _ else _] => destruct x; simpl in Hd end; try discriminate;
          injection Hd as <- <-; simpl in *; intuition. }
    unfold words in Hi. apply in_map_iff in Hi. destruct Hi as (w & <- & Hi). clear Hs.
    simpl in Hi. repeat (destruct Hi as [<-|Hi]); [..|easy];
      (split; [intros Hp; vm_compute in Hp; intuition discriminate|split; [discriminate|intros r; discriminate]]).
Qed.

Print Assumptions C16_without_pasting_partial.
Print Assumptions C16_without_prefix_partial.
Print Assumptions C16_missing_argument_refuted.
Print Assumptions C16_prefix_refuted.
Print Assumptions C16_comment_refuted.
