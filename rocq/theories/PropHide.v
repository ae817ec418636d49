(** C09: inside its own expansion a macro might as well be undefined. *)
From Verif Require Import Base Utf Lex LexFloat Token MacroSet StrFacts SpecSet SetFacts LexFacts ExpandFacts ExpandInv
  TokenFacts SpecCall CallFacts SpecPaste PasteFacts PropPaste ObjFacts HideFacts.
From Coq Require Import String List.
Local Open Scope list_scope.

Section C09.
Context `{Unicode}.

Lemma detokenize_up n k l : detokenize k (map (up n) l) = detokenize k l.
Proof.
  induction l as [|t l IH]; [easy|]. cbn [map detokenize]. rewrite IH.
  assert (E : token_detokenize k (up n t) = token_detokenize k t); [|now rewrite E].
  destruct t as [u|i| |p|id|s|lt s|s|c|]; try easy. destruct u; try easy. simpl. now destruct (str_eqb id n).
Qed.

Lemma hides_single n m : n <> [] -> m = [] -> hides n [n] [m].
Proof.
  intros Hn ->. repeat split; simpl; auto.
  - intros [E|[]]; congruence.
  - intros [E|[]]; congruence.
  - intros [E|[]]; congruence.
Qed.

(** What a set holds away from [n] once [n] is undefined. *)
Lemma without_get h n id : 
  let h' := h ++ [UndefineVar n; UndefineFn n] in
  (id <> n -> sm_get (var_macros (run h')) id = sm_get (var_macros (run h)) id /\
              sm_get (fn_macros (run h')) id = sm_get (fn_macros (run h)) id) /\
  sm_get (var_macros (run h')) n = None /\ sm_get (fn_macros (run h')) n = None.
Proof.
  intros h'. assert (E : run h' = fst (undefine_fn_macro (fst (undefine_var_macro (run h) n)) n)).
  { unfold h', run. now rewrite fold_left_app. }
  rewrite E. simpl. rewrite !sm_get_remove, str_eqb_refl. split; [|easy].
  intros Hne. apply str_eqb_neq in Hne. now rewrite Hne.
Qed.

Lemma body_ok an body : Forall (orplace (thru idents_ok)) (tokenize an body).
Proof.
  pose proof (tokenize_wf an body) as Hw. revert Hw. apply Forall_impl. intros t Ht. left.
  destruct (is_arg_token t) eqn:E; [|easy]. now destruct t.
Qed.

(** Expansion of a body under its own name equals expansion under the empty
    name in the set without it. *)
Lemma rescan_hidden h n fuel b : n <> [] -> wf b -> 
  rmap (map (up n)) (expand_macro_body (run h) fuel [n] b) =
  expand_macro_body (run (h ++ [UndefineVar n; UndefineFn n])) fuel [[]] (map (up n) b).
Proof.
  intros Hn Hb. symmetry.
  apply expand_macro_body_up with (ms := run h); auto using hides_single;
    intros; try (now apply (without_get h n n)); now apply (without_get h n id).
Qed.

Lemma concat_wf b o : Forall (orplace (thru idents_ok)) b -> expand_concat b = ROk o -> wf (remove_placemarkers o).
Proof.
  intros Hb E. pose proof (concat_loop_P True (thru idents_ok)
    (fun a b => paste_closed_concat idents_ok a b (ec_paste _ idents_ok_closed)) b Hb None [] (Forall_nil _)) as Hc.
  unfold expand_concat in E. rewrite E in Hc. apply remove_placemarkers_P. apply Hc. discriminate.
Qed.

Lemma concat_and_rescan_hidden h n fuel an body k : n <> [] ->
  (t <- concat_and_rescan (expand_macro_body (run h) fuel) [] n (tokenize an body) ;; detokenize k t) =
  (t <- concat_and_rescan (expand_macro_body (run (h ++ [UndefineVar n; UndefineFn n])) fuel) [] [] (tokenize an body) ;;
   detokenize k t).
Proof.
  intros Hn. unfold concat_and_rescan. pose proof (body_ok an body) as Hb.
  destruct (expand_concat (tokenize an body)) as [o| | |] eqn:Eo; try easy. cbn [rbind].
  pose proof (concat_wf _ _ Hb Eo) as Hw.
  change (set_insert n []) with [n]. change (set_insert [] []) with [@nil N].
  pose proof (rescan_hidden h n fuel _ Hn Hw) as E.
  assert (Eu : map (up n) (remove_placemarkers o) = remove_placemarkers o).
  { assert (E1 : map (up n) (tokenize an body) = tokenize an body) by (apply body_up, tokenize_no_nr).
    pose proof (expand_concat_up n (tokenize an body)) as E2. rewrite E1, Eo in E2. simpl in E2. injection E2 as E3.
    rewrite <- remove_placemarkers_up. f_equal. symmetry. exact E3. }
  rewrite Eu in E. rewrite <- E.
  destruct (expand_macro_body (run h) fuel [n] _) as [l| | |]; try easy. simpl. now rewrite detokenize_up.
Qed.

(** An object-like macro expands to what its body expands to as plain text
    when the macro does not exist: its own name is an ordinary identifier
    there, however it is reached. *)
Theorem C09_own_name_not_expanded : forall h n body fuel, n <> [] ->
  defined (rev h) n = Some (DVar body) ->
  expand_var_macro (run h) fuel n = expand (run (h ++ [UndefineVar n; UndefineFn n])) fuel body.
Proof.
  intros h n body fuel Hn Hd. unfold expand_var_macro, expand, expand_var_macro_body.
  pose proof (run_holds h n) as Hh. rewrite Hd in Hh. destruct Hh as [-> _].
  destruct (contains_var_args _) eqn:Ec; [easy|]. now apply concat_and_rescan_hidden.
Qed.

(** Sets with the same definitions expand alike. *)
Lemma expand_macro_body_same m1 m2 : 
  (forall id, sm_get (var_macros m1) id = sm_get (var_macros m2) id) ->
  (forall id, sm_get (fn_macros m1) id = sm_get (fn_macros m2) id) ->
  forall fuel names b, expand_macro_body m1 fuel names b = expand_macro_body m2 fuel names b.
Proof. intros. now apply expand_macro_body_ext. Qed.

(** A function-like macro expands as it does under another unused name when
    its own name is undefined: recursive invocations in its body are ordinary
    text. *)
Theorem C09_own_name_not_called : forall h n m params body fuel, n <> [] -> m <> [] ->
  defined (rev h) n = Some (DFn params body) -> defined (rev h) m = None ->
  expand_fn_macro (run h) fuel n =
  expand_fn_macro (run (h ++ [UndefineVar n; UndefineFn n; DefineFn m params body])) fuel m.
Proof.
  intros h n m ps body fuel Hn Hm Hd Hdm.
  assert (Hnm : n <> m) by congruence.
  set (g := h ++ [UndefineVar n; UndefineFn n]).
  assert (Eg : h ++ [UndefineVar n; UndefineFn n; DefineFn m ps body] = g ++ [DefineFn m ps body]).
  { unfold g. now rewrite <- app_assoc. }
  rewrite Eg. unfold expand_fn_macro.
  pose proof (run_holds h n) as Hh. rewrite Hd in Hh. destruct Hh as [_ ->].
  assert (Hg : forall id, defined (rev (g ++ [DefineFn m ps body])) id = if same_name m id then Some (DFn ps body) else defined (rev g) id).
  { intros id. now rewrite rev_app_distr. }
  pose proof (run_holds (g ++ [DefineFn m ps body]) m) as Hh. rewrite Hg in Hh.
  rewrite same_name_eqb, str_eqb_refl in Hh. destruct Hh as [_ ->].
  destruct (tokenize_arg_names ps) as [an| | |]; try easy. cbn [rbind].
  unfold expand_fn_macro_body. destruct (_ && contains_var_args _); [easy|].
  destruct (if negb _ then _ else None); [easy|]. destruct (first_duplicate _); [easy|]. cbn [rbind].
  pose proof (concat_and_rescan_hidden h n fuel an body (length an) Hn) as E1.
  pose proof (concat_and_rescan_hidden (g ++ [DefineFn m ps body]) m fuel an body (length an) Hm) as E2.
  fold g in E1. set (r1 := concat_and_rescan _ _ n _) in *. set (r2 := concat_and_rescan _ _ m _) in *.
  assert (Es : (t <- r1 ;; detokenize (length an) t) = (t <- r2 ;; detokenize (length an) t)).
  { rewrite E1, E2. unfold concat_and_rescan. destruct (expand_concat _) as [o| | |]; try easy. cbn [rbind].
    assert (Ee : forall id, defined (rev g) id = defined (rev ((g ++ [DefineFn m ps body]) ++ [UndefineVar m; UndefineFn m])) id).
    { intros id. rewrite rev_app_distr. cbn [rev app defined]. fold (rev (g ++ [DefineFn m ps body])). rewrite !Hg.
      destruct (same_name m id) eqn:Es; [|easy].
      rewrite same_name_eqb in Es. apply str_eqb_eq in Es. subst id.
      unfold g. rewrite rev_app_distr. cbn [rev app defined].
      rewrite same_name_eqb. assert (En : str_eqb m n = false) by (apply str_eqb_neq; congruence). now rewrite En. }
    f_equal. apply expand_macro_body_same; intros id.
    - pose proof (run_holds g id) as A. pose proof (run_holds ((g ++ [DefineFn m ps body]) ++ [UndefineVar m; UndefineFn m]) id) as B.
      rewrite <- Ee in B. destruct (defined (rev g) id) as [[]|]; simpl in A, B; destruct A, B; congruence.
    - pose proof (run_holds g id) as A. pose proof (run_holds ((g ++ [DefineFn m ps body]) ++ [UndefineVar m; UndefineFn m]) id) as B.
      rewrite <- Ee in B. destruct (defined (rev g) id) as [[]|]; simpl in A, B; destruct A, B; congruence. }
  assert (Ef : forall X (r : res xerr (list token)) (k : list mtoken -> res xerr X),
    (t <- r ;; b <- detokenize (length an) t ;; k b) = (b <- (t <- r ;; detokenize (length an) t) ;; k b)).
  { intros X r k. now destruct r. }
  rewrite !Ef, Es. easy.
Qed.
End C09.

(** The exclusion is lost when the name is the operand of a paste with an
    empty argument: [f] inside [f]'s own expansion is expanded once more. *)
Theorem C09_painted_name_pasted_refuted {U : Unicode} : exists h fuel body,
  defined (rev h) (st "f") = Some (DVar [st "1"; st "f"]) /\
  body = [st "g"; st "("; st "f"; st ","; st ")"] /\
  expand (run h) fuel [st "f"] = ROk [MLit (LInt (mk_int 1 None)); MIdent (st "f")] /\
  expand (run h) fuel body = ROk [MLit (LInt (mk_int 1 None)); MLit (LInt (mk_int 1 None)); MIdent (st "f")].
Proof.
  exists [DefineVar (st "f") [st "1"; st "f"]; DefineFn (st "g") [st "x"; st "y"] [st "x"; st "##"; st "y"]], 20.
  eexists. split; [reflexivity|]. split; [reflexivity|]. split; reflexivity.
Qed.

(** Mutual recursion between an object-like and a function-like macro. *)
Example C09_example {U : Unicode} :
  let h := [DefineVar (st "X") [st "f"; st "("; st "X"; st ")"; st "1"]; DefineFn (st "f") [st "y"] [st "X"; st "+"; st "y"; st "f"; st "("; st "y"; st ")"]] in
  defined (rev h) (st "X") = Some (DVar [st "f"; st "("; st "X"; st ")"; st "1"]) /\
  expand_var_macro (run h) 20 (st "X") =
    ROk [MIdent (st "X"); MPunct (st "+"); MIdent (st "X"); MIdent (st "f"); MPunct (st "("); MIdent (st "X"); MPunct (st ")"); MLit (LInt (mk_int 1 None))] /\
  expand_fn_macro (run h) 20 (st "f") = 
    expand_fn_macro (run (h ++ [UndefineVar (st "f"); UndefineFn (st "f"); DefineFn (st "k") [st "y"] [st "X"; st "+"; st "y"; st "f"; st "("; st "y"; st ")"]])) 20 (st "k") /\
  exists r, expand_fn_macro (run h) 20 (st "f") = ROk r.
Proof. cbv zeta. split; [reflexivity|]. split; [reflexivity|]. split; [reflexivity|]. eexists. reflexivity. Qed.

Print Assumptions C09_own_name_not_expanded.
Print Assumptions C09_own_name_not_called.
Print Assumptions C09_painted_name_pasted_refuted.
