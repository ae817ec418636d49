(** Properties C01-C06: the macro set as a state machine. *)
From Verif Require Import Base Utf Lex LexFloat Token MacroSet StrFacts SpecSet SetFacts ExpandFacts.
From Verif Require SpecAsm PropAsm.
From Coq Require Import String List NArith Lia.
Import ListNotations.
Local Open Scope string_scope.
Local Open Scope list_scope.

(** C01. *)
Theorem C01_kinds_exclusive : forall (h : list call) (n : str),
  ~ (sm_get (var_macros (run h)) n <> None /\ sm_get (fn_macros (run h)) n <> None).
Proof.
  intros h n [H1 H2]. pose proof (run_holds h n) as Hh.
  destruct (defined (rev h) n) as [[b|p b]|]; simpl in Hh; intuition.
Qed.

(** ... observed through the API: the two lookups cannot both succeed. *)
Theorem C01_not_both_found : forall `{Unicode} (h : list call) (n : str) fuel,
  expand_var_macro (run h) fuel n = RErr MacroNotFound \/ expand_fn_macro (run h) fuel n = RErr MacroNotFound.
Proof.
  intros U h n fuel. pose proof (run_holds h n) as Hh. unfold expand_var_macro, expand_fn_macro.
  destruct (defined (rev h) n) as [[b|p b]|]; simpl in Hh; destruct Hh as [H1 H2]; rewrite H1, H2; auto.
Qed.

(** C02: the set holds exactly what the last relevant call left. *)
Theorem C02_refines_map_var : forall h n b,
  sm_get (var_macros (run h)) n = Some b <-> defined (rev h) n = Some (DVar b).
Proof. intros h n b. apply holds_var. apply run_holds. Qed.

Theorem C02_refines_map_fn : forall h n p b,
  sm_get (fn_macros (run h)) n = Some (p, b) <-> defined (rev h) n = Some (DFn p b).
Proof. intros h n p b. apply holds_fn. apply run_holds. Qed.

(** ** C03 *)

Lemma white_space_iff c : white_space c <-> is_white c = true.
Proof.
  unfold white_space, is_white. split.
  - cbn [In]. intros X. repeat destruct X as [<- | X]; try reflexivity. destruct X.
  - rewrite !orb_true_iff, !andb_true_iff, !N.leb_le, !N.eqb_eq. cbn [In]. lia.
Qed.
Lemma white_spaces a : Forall white_space a <-> Forall SpecAsm.white a.
Proof. split; apply Forall_impl; intros c; apply white_space_iff. Qed.
Lemma starts_with_app s p : starts_with s p = true <-> exists r, s = p ++ r.
Proof.
  unfold starts_with. split.
  - destruct (strip_prefix p s) as [r|] eqn:E; [|discriminate]. intros _. exists r. now apply strip_prefix_some.
  - intros [r ->]. now rewrite strip_prefix_app.
Qed.
Lemma ends_with_app s p : ends_with s p = true <-> exists r, s = r ++ p.
Proof.
  unfold ends_with. rewrite starts_with_app. split; intros [r E]; exists (rev r).
  - rewrite <- (rev_involutive s), E, rev_app_distr, rev_involutive. reflexivity.
  - rewrite E. apply rev_app_distr.
Qed.
Lemma is_comment_iff s : is_comment s = true <-> comment_text s.
Proof. unfold is_comment, comment_text. rewrite orb_true_iff, andb_true_iff, !starts_with_app, ends_with_app. tauto. Qed.
(** What is left of a text that begins with a character that is not white. *)
Lemma trim_white a s b c s' s'' d : Forall white_space a -> Forall white_space b -> s = c :: s' -> is_white c = false ->
  s = s'' ++ [d] -> is_white d = false -> trim (a ++ s ++ b) = s.
Proof.
  intros A B E C E2 D. eapply PropAsm.trimmed_unique; [apply PropAsm.trim_trimmed|]. exists a, b. split; [reflexivity|].
  split; [now apply white_spaces|]. split; [now apply white_spaces|]. split.
  - rewrite E. cbn. unfold SpecAsm.white. congruence.
  - rewrite E2, rev_app_distr. cbn. unfold SpecAsm.white. congruence.
Qed.
Lemma trim_none a : Forall white_space a -> trim a = [].
Proof.
  intros A. eapply PropAsm.trimmed_unique; [apply PropAsm.trim_trimmed|]. exists a, []. rewrite app_nil_r. cbn.
  split; [reflexivity|]. split; [now apply white_spaces|]. repeat split; auto.
Qed.
(** The longest ending of white space. *)
Lemma white_end s : exists x b, s = x ++ b /\ Forall white_space b /\ (x = [] \/ exists y d, x = y ++ [d] /\ is_white d = false).
Proof.
  induction s as [|c s IH] using rev_ind; [exists [], []; auto|]. destruct (is_white c) eqn:C.
  - destruct IH as (x & b & -> & B & X). exists x, (b ++ [c]). rewrite app_assoc. split; [reflexivity|]. split; [|exact X].
    apply Forall_app. split; [exact B|]. constructor; [|constructor]. now apply white_space_iff.
  - exists (s ++ [c]), []. rewrite app_nil_r. split; [reflexivity|]. split; [constructor|]. right. now exists s, c.
Qed.
Lemma is_whitespace_iff t : is_whitespace t = true <-> ignored t.
Proof.
  unfold is_whitespace, ignored. split.
  - intros E. destruct (PropAsm.trim_trimmed t) as (a & b & T & A & B & _). exists a, (trim t), b.
    split; [exact T|]. split; [now apply white_spaces|]. split; [now apply white_spaces|].
    destruct (trim t) as [|c s] eqn:Es; [now left|right]. now apply is_comment_iff.
  - intros (a & s & b & -> & A & B & [->|[(x & ->)|((x & X) & (y & Y))]]).
    + rewrite trim_none; [reflexivity|]. apply Forall_app. now split.
    + destruct (white_end (st "//" ++ x)) as (u & w & E & W & U). rewrite E, <- app_assoc.
      assert (K : exists v, u = st "//" ++ v).
      { destruct u as [|c1 [|c2 u]]; cbn in E.
        - rewrite <- E in W. inversion W as [|? ? F]. apply white_space_iff in F. discriminate F.
        - injection E as _ E. rewrite <- E in W. inversion W as [|? ? F]. apply white_space_iff in F. discriminate F.
        - injection E as <- <- _. now exists u. }
      destruct K as (v & K). destruct U as [->|(z & d & Ez & D)]; [discriminate K|].
      rewrite (trim_white a u (w ++ b) 47%N (47%N :: v) z d A); try assumption; [|apply Forall_app; now split|reflexivity].
      rewrite K. cbn [st app]. apply (proj2 (is_comment_iff (st "//" ++ v))). left. now exists v.
    + rewrite (trim_white a s b 47%N (42%N :: x) (y ++ [42%N]) 47%N A B X eq_refl); [|rewrite Y, <- app_assoc; reflexivity|reflexivity].
      assert (C : is_comment s = true) by (apply is_comment_iff; right; eauto).
      rewrite C. now destruct s.
Qed.
Lemma significant_iff l : forall r, significant l r <-> r = non_white l.
Proof.
  induction l as [|t l IH]; intros r.
  - split; [inversion 1; reflexivity|intros ->; constructor].
  - unfold non_white. cbn [filter]. fold (non_white l). split.
    + inversion 1 as [|? ? ? I S|? ? ? I S]; subst.
      * apply is_whitespace_iff in I. rewrite I. now apply IH.
      * destruct (is_whitespace t) eqn:W; [apply is_whitespace_iff in W; contradiction|]. cbn. f_equal. now apply IH.
    + destruct (is_whitespace t) eqn:W; cbn; intros ->.
      * apply sg_ignored; [now apply is_whitespace_iff|]. now apply IH.
      * apply sg_kept; [intros I; apply is_whitespace_iff in I; congruence|]. now apply IH.
Qed.

(** The value returned by a define call, exactly.  [differ a b] is how the
    code compares: without white space and comments, some position present in
    both differs. *)
Definition differ (a b : list str) : Prop :=
  exists a' b' i x y, significant a a' /\ significant b b' /\ nth_error a' i = Some x /\ nth_error b' i = Some y /\ x <> y.
Lemma differ_iff a b : differ a b <-> same_tokens a b = false.
Proof.
  unfold differ, same_tokens. rewrite zip_all_equal_spec. split.
  - intros (a' & b' & i & x & y & A & B & K). apply significant_iff in A, B. subst. eauto.
  - intros (i & x & y & K). exists (non_white a), (non_white b), i, x, y. rewrite !significant_iff. tauto.
Qed.

Theorem C03_define_var_reports : forall h n b,
  snd (define_var_macro (run h) n b) = true <->
  match defined (rev h) n with
  | None => False
  | Some (DFn _ _) => True
  | Some (DVar old) => differ old b
  end.
Proof.
  intros h n b. pose proof (run_holds h n) as Hh. unfold define_var_macro.
  destruct (defined (rev h) n) as [[old|p old]|]; simpl in Hh; destruct Hh as [H1 H2]; rewrite H1, ?H2; simpl.
  - rewrite negb_true_iff. symmetry. apply differ_iff.
  - easy.
  - easy.
Qed.

Theorem C03_define_fn_reports : forall h n p b,
  snd (define_fn_macro (run h) n p b) = true <->
  match defined (rev h) n with
  | None => False
  | Some (DVar _) => True
  | Some (DFn oldp oldb) => differ oldp p \/ differ oldb b
  end.
Proof.
  intros h n p b. pose proof (run_holds h n) as Hh. unfold define_fn_macro.
  destruct (defined (rev h) n) as [[old|oldp old]|]; simpl in Hh; destruct Hh as [H1 H2]; rewrite H2, ?H1; simpl.
  - easy.
  - rewrite negb_true_iff, andb_false_iff. now rewrite !differ_iff.
  - easy.
Qed.

(** The documented meaning ("true iff redefined", i.e. the tokens changed)
    holds when old and new have equally many tokens ... *)
Theorem C03_redefined_same_length_partial : forall h n b old old' b',
  defined (rev h) n = Some (DVar old) -> significant old old' -> significant b b' -> length old' = length b' ->
  (snd (define_var_macro (run h) n b) = true <-> old' <> b').
Proof.
  intros h n b old old' b' Hd S1 S2 Hl. rewrite C03_define_var_reports, Hd, differ_iff. unfold same_tokens.
  apply significant_iff in S1, S2. subst.
  destruct (zip_all_equal_same_length _ _ Hl) as [H1 H2].
  destruct (zip_all_equal (non_white old) (non_white b)).
  - split; [discriminate|]. intros Hn. destruct Hn. auto.
  - split; [|easy]. intros _ Heq. specialize (H2 Heq). discriminate.
Qed.

Lemma same_length_differ a b a' b' : significant a a' -> significant b b' -> length a' = length b' -> (differ a b <-> a' <> b').
Proof.
  intros S1 S2 L. rewrite differ_iff. unfold same_tokens. apply significant_iff in S1, S2. subst.
  destruct (zip_all_equal_same_length _ _ L) as [H1 H2]. destruct (zip_all_equal (non_white a) (non_white b)).
  - split; [discriminate|]. intros N. destruct N. auto.
  - split; [|easy]. intros _ E. specialize (H2 E). discriminate.
Qed.
Theorem C03_redefined_fn_same_length_partial : forall h n p b oldp oldb p' b' oldp' oldb',
  defined (rev h) n = Some (DFn oldp oldb) ->
  significant p p' -> significant b b' -> significant oldp oldp' -> significant oldb oldb' ->
  length oldp' = length p' -> length oldb' = length b' ->
  (snd (define_fn_macro (run h) n p b) = true <-> (oldp', oldb') <> (p', b')).
Proof.
  intros h n p b oldp oldb p' b' oldp' oldb' D S1 S2 S3 S4 L1 L2. rewrite C03_define_fn_reports, D.
  rewrite (same_length_differ _ _ _ _ S3 S1 L1), (same_length_differ _ _ _ _ S4 S2 L2). split.
  - intros [N|N] E; injection E as E1 E2; auto.
  - intros N. destruct (list_eq_dec (list_eq_dec N.eq_dec) oldp' p') as [->|]; [|now left]. right. intros ->. now apply N.
Qed.

(** ... and fails in general: extending or emptying a body is not reported. *)
Theorem C03_redefined_refuted : exists h n old b old' b',
  defined (rev h) n = Some (DVar old) /\ significant old old' /\ significant b b' /\ old' <> b' /\
  snd (define_var_macro (run h) n b) = false.
Proof.
  exists [DefineVar (st "X") [st "1"]], (st "X"), [st "1"], [st "1"; st "+"; st "1"], [st "1"], [st "1"; st "+"; st "1"].
  rewrite !significant_iff. vm_compute. repeat split; congruence.
Qed.
Theorem C03_redefined_fn_refuted : exists h n oldp oldb p b p' b' oldp' oldb',
  defined (rev h) n = Some (DFn oldp oldb) /\
  significant p p' /\ significant b b' /\ significant oldp oldp' /\ significant oldb oldb' /\ (oldp', oldb') <> (p', b') /\
  snd (define_fn_macro (run h) n p b) = false.
Proof.
  exists [DefineFn (st "F") [st "x"] [st "x"]], (st "F"), [st "x"], [st "x"], [st "x"; st "y"], [st "x"], [st "x"; st "y"], [st "x"], [st "x"], [st "x"].
  rewrite !significant_iff. vm_compute. repeat split; congruence.
Qed.
Example C03_fn_case : snd (define_fn_macro (run [DefineFn (st "F") [st "x"] [st "x"; st " "; st "+"; st "1"]]) (st "F") [st "x"] [st "x"; st "-"; st "/* one */"; st "1"]) = true.
Proof. vm_compute. reflexivity. Qed.
Example C03_ignored_case : significant [st " "; []; st "1"; st "/* one */"; st " // end"] [st "1"].
Proof. apply significant_iff. reflexivity. Qed.

(** C04. *)
Theorem C04_undefine_var : forall h n,
  (snd (undefine_var_macro (run h) n) = true <-> exists b, defined (rev h) n = Some (DVar b)) /\
  (forall m, defined (rev (h ++ [UndefineVar n])) m =
             match defined (rev h) m with
             | Some (DVar b) => if same_name n m then None else Some (DVar b)
             | d => d
             end).
Proof.
  intros h n. split.
  - pose proof (run_holds h n) as Hh. unfold undefine_var_macro. simpl.
    destruct (defined (rev h) n) as [[b|p b]|]; simpl in Hh; destruct Hh as [-> _];
      split; try congruence; try (intros [b' Hb]; congruence); eauto.
  - intros m. rewrite rev_app_distr. simpl. destruct (same_name n m), (defined (rev h) m) as [[b|p b]|]; easy.
Qed.

Theorem C04_undefine_fn : forall h n,
  (snd (undefine_fn_macro (run h) n) = true <-> exists p b, defined (rev h) n = Some (DFn p b)) /\
  (forall m, defined (rev (h ++ [UndefineFn n])) m =
             match defined (rev h) m with
             | Some (DFn p b) => if same_name n m then None else Some (DFn p b)
             | d => d
             end).
Proof.
  intros h n. split.
  - pose proof (run_holds h n) as Hh. unfold undefine_fn_macro. simpl.
    destruct (defined (rev h) n) as [[b|p b]|]; simpl in Hh; destruct Hh as [_ ->];
      split; try congruence; try (intros (p' & b' & Hb); congruence); eauto.
  - intros m. rewrite rev_app_distr. simpl. destruct (same_name n m), (defined (rev h) m) as [[b|p b]|]; easy.
Qed.

Theorem C04_undefine_twice : forall h n,
  snd (undefine_var_macro (run (h ++ [UndefineVar n])) n) = false /\
  snd (undefine_fn_macro (run (h ++ [UndefineFn n])) n) = false.
Proof.
  intros h n. rewrite !run_app. simpl.
  rewrite !sm_get_remove, str_eqb_refl. easy.
Qed.

(** C05. *)
Theorem C05_var_not_found : forall `{Unicode} h n fuel,
  expand_var_macro (run h) fuel n = RErr MacroNotFound <-> ~ exists b, defined (rev h) n = Some (DVar b).
Proof.
  intros U h n fuel. pose proof (run_holds h n) as Hh. unfold expand_var_macro.
  assert (Hex : forall b, expand_var_macro_body (expand_macro_body (run h) fuel) [] n (tokenize [] b)
      <> RErr MacroNotFound).
  { intros b E. apply (errs_expand_var_macro_body _ (errs_expand_macro_body (run h) fuel)) in E. exact E. }
  destruct (defined (rev h) n) as [[b|p b]|]; simpl in Hh; destruct Hh as [-> _].
  - split; [|intros Hn; destruct Hn; eauto].
    intros E. exfalso. specialize (Hex b).
    destruct (expand_var_macro_body _ _ _ _) as [t|e| |]; simpl in E; try discriminate.
    + apply errs_detokenize in E. destruct E as [s E]. discriminate.
    + inversion E; subst. now apply Hex.
  - split; [|easy]. intros _ [b' Hb]. discriminate.
  - split; [|easy]. intros _ [b' Hb]. discriminate.
Qed.

Theorem C05_fn_not_found : forall `{Unicode} h n fuel,
  expand_fn_macro (run h) fuel n = RErr MacroNotFound <-> ~ exists p b, defined (rev h) n = Some (DFn p b).
Proof.
  intros U h n fuel. pose proof (run_holds h n) as Hh. unfold expand_fn_macro.
  destruct (defined (rev h) n) as [[b|p b]|]; simpl in Hh; destruct Hh as [_ ->].
  - split; [|easy]. intros _ (p' & b' & Hb). discriminate.
  - split; [|intros Hn; destruct Hn; eauto].
    intros E. exfalso.
    destruct (tokenize_arg_names p) as [an|e| |] eqn:Et; simpl in E; try discriminate.
    2:{ inversion E; subst. now apply errs_tokenize_arg_names in Et. }
    destruct (expand_fn_macro_body _ _ _ _ _ _) as [t|e| |] eqn:Ee; simpl in E; try discriminate.
    2:{ inversion E; subst. now apply (errs_expand_fn_macro_body _ (errs_expand_macro_body (run h) fuel)) in Ee. }
    destruct (detokenize (length an) t) as [b'|e| |] eqn:Ed; simpl in E; try discriminate.
    2:{ inversion E; subst. apply errs_detokenize in Ed. destruct Ed as [s Ed]. discriminate. }
    destruct (detokenize 0 an) as [a'|e| |] eqn:Ea; simpl in E; try discriminate.
    inversion E; subst. apply errs_detokenize in Ea. destruct Ea as [s Ea]. discriminate.
  - split; [|easy]. intros _ (p' & b' & Hb). discriminate.
Qed.

(** C06. *)
Theorem C06_history_independent : forall `{Unicode} h1 h2,
  (forall n, defined (rev h1) n = defined (rev h2) n) ->
  (forall fuel b, expand (run h1) fuel b = expand (run h2) fuel b) /\
  (forall fuel n, expand_var_macro (run h1) fuel n = expand_var_macro (run h2) fuel n) /\
  (forall fuel n, expand_fn_macro (run h1) fuel n = expand_fn_macro (run h2) fuel n).
Proof.
  intros U h1 h2 Heq.
  assert (Hv : forall n, sm_get (var_macros (run h1)) n = sm_get (var_macros (run h2)) n).
  { intros n. pose proof (run_holds h1 n) as H1. pose proof (run_holds h2 n) as H2. rewrite Heq in H1.
    destruct (defined (rev h2) n) as [[b|p b]|]; simpl in *; intuition congruence. }
  assert (Hf : forall n, sm_get (fn_macros (run h1)) n = sm_get (fn_macros (run h2)) n).
  { intros n. pose proof (run_holds h1 n) as H1. pose proof (run_holds h2 n) as H2. rewrite Heq in H1.
    destruct (defined (rev h2) n) as [[b|p b]|]; simpl in *; intuition congruence. }
  pose proof (expand_macro_body_ext _ _ Hv Hf) as Hx.
  split; [|split].
  - intros fuel b. unfold expand. now rewrite (expand_var_macro_body_ext _ _ (Hx fuel)).
  - intros fuel n. unfold expand_var_macro. rewrite Hv.
    destruct (sm_get _ n); [|easy]. now rewrite (expand_var_macro_body_ext _ _ (Hx fuel)).
  - intros fuel n. unfold expand_fn_macro. rewrite Hf.
    destruct (sm_get _ n) as [[p b]|]; [|easy]. destruct (tokenize_arg_names p); simpl; try easy.
    now rewrite (expand_fn_macro_body_ext _ _ (Hx fuel)).
Qed.

(** Non-vacuity: a history that defines a name as a variable, then as a
    function, undefines it as a variable (no effect) and touches another name. *)
Definition ex_history : list call :=
  [DefineVar (st "F") [st "1"]; DefineFn (st "F") [st "x"] [st "x"; st "+"; st "G"];
   DefineVar (st "G") [st "2"]; UndefineVar (st "F")].
Example ex_history_F : defined (rev ex_history) (st "F") = Some (DFn [st "x"] [st "x"; st "+"; st "G"]).
Proof. reflexivity. Qed.
Example ex_history_G : defined (rev ex_history) (st "G") = Some (DVar [st "2"]).
Proof. reflexivity. Qed.
Example ex_history_found :
  expand_fn_macro (run ex_history) 5 (st "F") =
  ROk ([MIdent (st "x")], [MArg 0; MPunct (st "+"); MLit (LInt (mk_int 2 None))]).
Proof. vm_compute. reflexivity. Qed.
Example ex_history_order : forall n,
  defined (rev [DefineVar (st "A") [st "1"]; DefineVar (st "B") [st "2"]]) n =
  defined (rev [DefineVar (st "B") [st "7"]; UndefineVar (st "B"); DefineVar (st "B") [st "2"];
                DefineVar (st "A") [st "1"]]) n.
Proof. intros n. simpl. rewrite !same_name_eqb.
  destruct (str_eqb_spec n (st "A")) as [e|]; destruct (str_eqb_spec n (st "B")); subst; try reflexivity; discriminate. Qed.

Print Assumptions C01_kinds_exclusive.
Print Assumptions C01_not_both_found.
Print Assumptions C02_refines_map_var.
Print Assumptions C02_refines_map_fn.
Print Assumptions C03_define_var_reports.
Print Assumptions C03_define_fn_reports.
Print Assumptions C03_redefined_same_length_partial.
Print Assumptions C03_redefined_refuted.
Print Assumptions C03_redefined_fn_same_length_partial.
Print Assumptions C03_redefined_fn_refuted.
Print Assumptions C04_undefine_var.
Print Assumptions C04_undefine_fn.
Print Assumptions C04_undefine_twice.
Print Assumptions C05_var_not_found.
Print Assumptions C05_fn_not_found.
Print Assumptions C06_history_independent.
