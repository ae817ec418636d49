(** C81 for function-like macros expanded by themselves. *)
From Verif Require Import Base Utf Lex LexFloat Token MacroSet StrFacts LexFacts ExpandFacts ExpandInv TokenFacts
  SpecPaste PasteFacts SpecRescan ObjFacts SpecSet SetFacts SpecCall CallFacts SpecTokens ParamFacts SpecExpand FullFacts HideFacts
  PropObject PropTokens PropExpand SpecComplete CompleteFacts PropComplete SelfFacts PropSelf SpecStringify SpecCpp CppFacts PropCpp
  SpecProper ProperFacts ProgressFacts PropProper RenameFacts.
From Coq Require Import String List Bool Lia.
Import ListNotations.
Local Open Scope list_scope.

Section S.
Context `{Unicode}.

(** Names in place of the parameters, as tokens and as delivered. *)
Definition as_names (names : list str) : list (list token) := map (fun id => [TIdent id]) names.
Definition as_words (names : list str) : list (list mtoken) := map (fun id => [MIdent id]) names.
(** Names that are no macros. *)
Definition plain_names (h : list call) (names : list str) : Prop :=
  Forall (fun id => is_identifier id = true /\ id <> st "__VA_ARGS__" /\ defined (rev h) id = None) names.
(** The words of a text with the words [news] in place of [olds]. *)
Definition in_place (olds news : list str) (s : str) : str :=
  match index_of olds s with Some i => nth i news s | None => s end.
(** [expand_fn_macro] returns [out] as the replacement text. *)
Definition alone (h : list call) (n : str) (out : list mtoken) : Prop :=
  exists ps F, forall fuel, F <= fuel -> expand_fn_macro (run h) fuel n = ROk (ps, out).

Lemma index_nth l s i : index_of l s = Some i -> nth_error l i = Some s.
Proof.
  revert i. induction l as [|x l IH]; intros i; cbn [index_of]; [discriminate|]. rewrite same_name_eqb. destruct (str_eqb_spec s x) as [-> | Nx].
  - intro E. injection E as <-. reflexivity.
  - destruct (index_of l s) as [j|]; cbn [option_map]; [|discriminate]. intro E. injection E as <-. now apply IH.
Qed.
Lemma index_app l r s : index_of (l ++ r) s = match index_of l s with Some i => Some i | None => option_map (Nat.add (length l)) (index_of r s) end.
Proof.
  induction l as [|x l IH]; cbn [app index_of]; [now destruct (index_of r s)|]. destruct (same_name x s); [reflexivity|]. rewrite IH.
  destruct (index_of l s); [reflexivity|]. now destruct (index_of r s).
Qed.

Section One.
Variables (h : list call) (n : str) (params ids body : list str) (v : bool) (names : list str).
Hypothesis OF : operator_free h.
Hypothesis D : defined (rev h) n = Some (DFn params body).
Hypothesis PL : parameter_list params ids v.
Hypothesis NV : v = false -> ~ In (st "__VA_ARGS__") body.
Hypothesis PN : plain_names h names.
Hypothesis Ln : length names = length (parameter_words ids v).
Notation toks := (map (body_token ids) body).
Notation text := (map (in_place (parameter_words ids v) names) body).
Notation sg := (PropSelf.fill (as_names names)).
Notation sv := (PropSelf.fill (as_names names) (length ids)).

Lemma fill_names i id : nth_error names i = Some id -> sg i = [TIdent id].
Proof. intro E. unfold PropSelf.fill, as_names. now rewrite (map_nth_error _ _ _ E). Qed.
Lemma name_token id : In id names -> from_str id = TIdent id.
Proof.
  intro I. unfold plain_names in PN. rewrite Forall_forall in PN. destruct (PN id I) as (Is & Na & _). unfold from_str.
  destruct (str_eqb_spec id (st "__VA_ARGS__")) as [-> | _]; [contradiction|]. now rewrite identifier_try_from_id.
Qed.
Lemma named i s : i < length names -> sg i = [from_str (nth i names s)].
Proof.
  clear Ln. intro L. destruct (nth_error names i) as [id|] eqn:E; [|apply nth_error_None in E; lia].
  rewrite (nth_error_nth _ _ s E), (fill_names i id E), name_token; [reflexivity|]. eapply nth_error_In; exact E.
Qed.
Lemma sub_body : sub sg sv toks = map from_str text.
Proof.
  assert (K : forall b, incl b body -> sub sg sv (map (body_token ids) b) = map from_str (map (in_place (parameter_words ids v) names) b)); [|now apply K].
  induction b as [|s b IH]; [reflexivity|]. intro NV'. cbn [map].
  change (sub sg sv (body_token ids s :: map (body_token ids) b)) with (sub1 sg sv (body_token ids s) ++ sub sg sv (map (body_token ids) b)).
  rewrite IH by (intros x I; apply NV'; now right). unfold body_token, in_place, parameter_words. rewrite index_app.
  assert (Ln' := Ln). unfold parameter_words in Ln'. rewrite app_length in Ln'. destruct (index_of ids s) as [i|] eqn:Ei.
  - pose proof (PropSelf.index_of_lt _ _ _ Ei). cbn [sub1]. rewrite (named i s) by lia. reflexivity.
  - destruct (str_eqb_spec s (st "__VA_ARGS__")) as [-> | Ns].
    + destruct v; [|exfalso; apply NV; [reflexivity|apply NV'; now left]]. change (from_str (st "__VA_ARGS__")) with TVarArgs. cbn [sub1].
      cbn [length] in Ln'. change (index_of [st "__VA_ARGS__"] (st "__VA_ARGS__")) with (Some 0). cbn [option_map]. rewrite Nat.add_0_r.
      rewrite (named (length ids) (st "__VA_ARGS__")) by lia. reflexivity.
    + replace (index_of (if v then [st "__VA_ARGS__"] else []) s) with (@None nat).
      * cbn [option_map]. destruct (from_str s) eqn:Ef; try reflexivity; [now apply from_str_not_arg in Ef|]. now apply TokenFacts.from_str_var_args in Ef.
      * destruct v; [|reflexivity]. cbn [index_of]. rewrite same_name_eqb. now destruct (str_eqb_spec s (st "__VA_ARGS__")).
Qed.
Lemma Range i : In (TArg i) toks -> i < length ids.
Proof.
  intro I. apply in_map_iff in I as (s & Es & _). unfold body_token in Es. destruct (index_of ids s) eqn:Ei.
  - injection Es as <-. eapply PropSelf.index_of_lt; exact Ei.
  - now apply from_str_not_arg in Es.
Qed.
Lemma Rest : In TVarArgs toks -> v = true.
Proof.
  intro I. apply not_false_iff_true. intro Ev. apply NV; [exact Ev|]. apply in_map_iff in I as (s & Es & I). unfold body_token in Es.
  destruct (index_of ids s); [discriminate Es|]. apply TokenFacts.from_str_var_args in Es. now subst s.
Qed.
Lemma Ot : Forall okb toks.
Proof. exact (body_ok ids body (OF _ _ D)). Qed.
Lemma Inert i : inert (run h) (sg i).
Proof.
  unfold PropSelf.fill. destruct (nth_error (as_names names) i) as [e|] eqn:E.
  - unfold as_names in E. apply nth_error_In in E. apply in_map_iff in E as (id & <- & I). unfold plain_names in PN. rewrite Forall_forall in PN.
    destruct (PN id I) as (I1 & _ & I2). split; [discriminate|]. split; [|split; [reflexivity|split]].
    + apply arg_token; [intros [u [K|K]]; inversion K|discriminate|constructor].
    + constructor; [|constructor]. cbn. intros ->. discriminate I1.
    + intros id' [K|[]]. injection K as <-. now apply quiet_run.
  - split; [discriminate|]. split; [|split; [reflexivity|split; [|intros id [K|[]]; discriminate K]]].
    + apply arg_token; [intros [u [K|K]]; inversion K|discriminate|constructor].
    + constructor; [exact Logic.I|constructor].
Qed.
Lemma bodies_ok :
  (forall id b, sm_get (var_macros (run h)) id = Some b -> Forall okb (tokenize [] b)) /\
  (forall id ps b an, sm_get (fn_macros (run h)) id = Some (ps, b) -> tokenize_arg_names ps = ROk an -> Forall okb (tokenize an b)).
Proof.
  split.
  - intros id b0 E. pose proof (run_holds h id) as R. destruct (defined (rev h) id) as [[b1|ps1 b1]|] eqn:D1; destruct R as [R1 R2]; rewrite E in R1; try discriminate R1.
    injection R1 as <-. rewrite tokenize_nil. exact (body_ok [] b0 (OF _ _ D1)).
  - intros id ps0 b0 an E T. pose proof (run_holds h id) as R. destruct (defined (rev h) id) as [[b1|ps1 b1]|] eqn:D1; destruct R as [R1 R2]; rewrite E in R2; try discriminate R2.
    injection R2 as <- <-. pose proof T as T2. apply tokenize_arg_names_iff in T as (_ & ids1 & v1 & Hp).
    destruct (parameter_list_names ps0 ids1 v1 Hp) as (an' & E' & _ & _ & Hb). rewrite T2 in E'. injection E' as <-. rewrite Hb. exact (body_ok ids1 b0 (OF _ _ D1)).
Qed.

(** The same steps, with names for parameters. *)
Lemma same_steps fuel : related sg sv (expand_macro_body (run h) fuel [n] (map from_str text)) (expand_macro_body (run h) fuel [n] toks).
Proof.
  rewrite <- sub_body. destruct bodies_ok as [Hv Hf]. apply (expand_sub (run h) sg sv Inert (Inert _) Hv Hf).
  - intros id _. reflexivity.
  - intros id I [<-|[]]. assert (J : exists i, In (TIdent n) (sg i)) by (destruct I as [I|I]; [exact I|now exists (length ids)]).
    destruct J as [i J]. destruct (Inert i) as (_ & _ & _ & _ & Q). destruct (Q n J) as [_ Q2].
    pose proof (run_holds h n) as R. rewrite D in R. destruct R as [_ R]. congruence.
  - exact Ot.
Qed.

Lemma params_deliver l : forall ids', filter (fun p => negb (is_pcomment p)) (map parameter_kind l) = map PName ids' ++ (if v then [PEllipsis] else []) ->
  exists a, detokenize 0 (map from_str l) = ROk a.
Proof.
  clear PL NV Ln. induction l as [|s l IH]; intros ids' E; [now exists []|]. cbn [map filter] in E. cbn [map detokenize].
  assert (Ea : forall r, [] = r -> filter (fun p => negb (is_pcomment p)) (map parameter_kind l) = r -> exists a, detokenize 0 (map from_str l) = ROk a).
  { clear. intros r <- . induction l as [|s l IH]; [now exists []|]. cbn [map filter detokenize]. unfold parameter_kind at 1 2.
    destruct (from_str s) as [u|i| |p|id|c|lt c|c|c|]; cbn [is_pcomment negb]; try discriminate.
    - destruct (list_eq_dec N.eq_dec p (st "...")); discriminate.
    - intro E. destruct (IH E) as [a ->]. cbn. now eexists. }
  unfold parameter_kind at 1 2 in E. destruct (from_str s) as [u|i| |p|id|c|lt c|c|c|]; cbn [is_pcomment negb] in E;
    try (destruct ids', v; discriminate E).
  - destruct (list_eq_dec N.eq_dec p (st "...")); cbn [is_pcomment negb] in E; destruct ids'; try discriminate E; destruct v; try discriminate E.
    injection E as E. destruct (Ea [] eq_refl E) as [a ->]. cbn. now eexists.
  - destruct ids' as [|i ids']; [destruct v; discriminate E|]. injection E as _ E. destruct (IH ids' E) as [a ->]. cbn. now eexists.
  - destruct (IH ids' E) as [a ->]. cbn. now eexists.
Qed.

(** If no token is pasted. *)
Lemma alone_steps : (forall rec names name, concat_and_rescan rec names name toks = rec (set_insert name names) toks) -> exists a, forall fuel, expand_fn_macro (run h) fuel n =
  (e <- expand_macro_body (run h) fuel [n] toks ;; b <- detokenize (length params) e ;; ROk (a, b)).
Proof.
  clear Ln. intro Kept. destruct (parameter_list_names params ids v PL) as (an & Ean & Eids & Ev & Etok).
  assert (Ean' : an = map from_str params). { apply tokenize_arg_names_iff in Ean. apply Ean. }
  destruct (params_deliver params ids (proj1 PL)) as [a Ha].
  exists a. intro fuel. pose proof (run_holds h n) as R. rewrite D in R. destruct R as [_ R].
  unfold expand_fn_macro. rewrite R, Ean. cbn [rbind]. unfold expand_fn_macro_body. cbn zeta. rewrite Ev, Etok.
  assert (Cv : negb v && contains_var_args toks = false).
  { apply andb_false_iff. destruct (bool_dec v false) as [E|E]; [right; apply contains_var_args_In; intro I; apply Rest in I; congruence|left].
    apply not_false_iff_true in E. now rewrite E. }
  rewrite Cv, (no_dup_names params an Ean). cbn [rbind]. replace (if negb v then None else None) with (@None xerr) by (now case v).
  rewrite Kept. change (set_insert n []) with [n].
  destruct (expand_macro_body (run h) fuel [n] toks); cbn [rbind]; try reflexivity.
  rewrite Ean', map_length. rewrite Ha. reflexivity.
Qed.

Lemma detokenize_back k l : forall w, Forall okb l -> (In TVarArgs l -> k <> 0) -> detokenize 0 (sub sg sv l) = ROk w -> exists b, detokenize k l = ROk b.
Proof.
  induction l as [|t l IH]; intros w O I E; [now exists []|]. inversion O as [|? ? O1 O3]; subst.
  change (sub sg sv (t :: l)) with (sub1 sg sv t ++ sub sg sv l) in E. rewrite detokenize_app in E.
  destruct (detokenize 0 (sub1 sg sv t)) as [x| | |] eqn:Ex; try discriminate E. cbn [rbind] in E.
  destruct (detokenize 0 (sub sg sv l)) as [y| | |] eqn:Ey; try discriminate E.
  destruct (IH y O3 (fun J => I (or_intror J)) eq_refl) as [b Eb]. cbn [detokenize]. rewrite Eb.
  assert (Et : exists o, token_detokenize k t = ROk o).
  { destruct t as [u|i| |p|id|s|lt s|s|c|]; cbn [sub1 detokenize] in Ex; try (cbn [token_detokenize]; eexists; reflexivity); try discriminate Ex.
    - cbn [okb] in O1. revert Ex. assert (Q : token_detokenize k (TNonRepl u) = token_detokenize 0 (TNonRepl u)).
      { cbn [token_detokenize]. clear -O1. induction u; try reflexivity; try discriminate O1. cbn [token_detokenize]. now apply IHu. }
      rewrite Q. destruct (token_detokenize 0 (TNonRepl u)) as [o| | |]; cbn [rbind]; try discriminate. intros _. now exists o.
    - cbn [token_detokenize]. destruct k as [|k]; [now destruct (I (or_introl eq_refl))|]. eexists. reflexivity. }
  destruct Et as [o ->]. cbn [rbind]. eexists. reflexivity.
Qed.

Lemma results_in_range F e : expand_macro_body (run h) F [n] toks = ROk e ->
  (forall i, In (TArg i) e -> i < length ids) /\ (In TVarArgs e -> v = true).
Proof.
  intros E. assert (Rg : Forall (thru (in_range (length ids) v)) e).
  { eapply macro_body_result; [apply in_range_closed|apply in_range_spell| |exact E]. apply Forall_forall. intros t J.
    destruct t; try exact Logic.I; [|now apply Range|now apply Rest].
    exfalso. apply in_map_iff in J as (s & Es & _). unfold body_token in Es. destruct (index_of ids s); [discriminate Es|]. now apply from_str_no_nr in Es. }
  rewrite Forall_forall in Rg. split; [intros i I|intro I]; exact (Rg _ I).
Qed.
Lemma params_some : v = true -> length params <> 0.
Proof. clear Ln. intros Ev L. destruct params; [|discriminate L]. destruct PL as [PL' _]. rewrite Ev in PL'. now destruct ids. Qed.

(** If the text with names is expanded, so is the macro. *)
Lemma alone_exists F e w : expand_macro_body (run h) F [n] (map from_str text) = ROk e -> delivered (ROk e) = ROk w ->
  exists e0 b, expand_macro_body (run h) F [n] toks = ROk e0 /\ e = sub sg sv e0 /\ Forall okb e0 /\ detokenize (length params) e0 = ROk b /\ alone h n b.
Proof.
  destruct (alone_steps (fun rec names name => rescan_id rec names name _ Ot)) as (a & St). intros E Ed. destruct (same_steps F) as [S1 S2]. rewrite E in S1.
  destruct (expand_macro_body (run h) F [n] toks) as [e0| | |] eqn:Ee; try discriminate S1. injection S1 as ->. unfold delivered in Ed. cbn [rbind] in Ed.
  destruct (results_in_range F e0 Ee) as [_ Rv].
  destruct (detokenize_back (length params) e0 w) as [b Eb]; [now apply S2|intro I; now apply params_some, Rv|exact Ed|].
  exists e0, b. split; [reflexivity|]. split; [reflexivity|]. split; [now apply S2|]. split; [exact Eb|].
  exists a, F. intros f L. rewrite St. rewrite (more_fuel (run h) F f) by (try exact L; congruence). rewrite Ee. cbn [rbind]. now rewrite Eb.
Qed.

Hypothesis NC : v = true -> length params = length (parameter_words ids v).
Lemma alone_iff w : (exists out, alone h n out /\ filled_in (as_words names) out = w) <->
  exists F e, expand_macro_body (run h) F [n] (map from_str text) = ROk e /\ delivered (ROk e) = ROk w.
Proof.
  assert (Dn : Forall2 (fun e w => detokenize 0 e = ROk w) (as_names names) (as_words names)).
  { unfold as_names, as_words. clear. induction names; constructor; auto. }
  assert (Ds : forall F e b, expand_macro_body (run h) F [n] toks = ROk e -> Forall okb e -> detokenize (length params) e = ROk b ->
    detokenize 0 (sub sg sv e) = ROk (filled_in (as_words names) b)).
  { intros F e b E O Eb. destruct (results_in_range F e E) as [Ra Rv]. unfold parameter_words in *. rewrite app_length in Ln.
    eapply detokenize_sub; [exact Dn|exact O| | |exact Eb].
    - intros i I. unfold as_names. rewrite map_length. specialize (Ra i I). lia.
    - intro I. specialize (Rv I). specialize (NC Rv). rewrite app_length in NC. rewrite Rv in *. cbn [length] in *. exists (length ids). split; [lia|].
      unfold PropSelf.fill. destruct (nth_error (as_names names) (length ids)) eqn:En; [reflexivity|].
      apply nth_error_None in En. unfold as_names in En. rewrite map_length in En. lia. }
  split.
  - destruct (alone_steps (fun rec names name => rescan_id rec names name _ Ot)) as (a & St). intros (out & (ps & F & E) & Ew). specialize (E F (le_n F)). rewrite St in E.
    destruct (same_steps F) as [S1 S2]. destruct (expand_macro_body (run h) F [n] toks) as [e| | |] eqn:Ee; try discriminate E. cbn [rbind] in E.
    destruct (detokenize (length params) e) as [b| | |] eqn:Eb; try discriminate E. cbn [rbind] in E. injection E as <- <-.
    exists F, (sub sg sv e). split; [exact S1|]. unfold delivered. cbn [rbind]. rewrite <- Ew. eapply Ds; [exact Ee|now apply S2|exact Eb].
  - intros (F & e & E & Ed). destruct (alone_exists F e w E Ed) as (e0 & b & Ee & -> & O & Eb & Al). exists b. split; [exact Al|].
    unfold delivered in Ed. cbn [rbind] in Ed. rewrite (Ds F e0 b Ee O Eb) in Ed. now injection Ed.
Qed.
End One.

Lemma free_apart h : operator_free h -> operators_apart h /\ ~ strings_made h.
Proof.
  intro OF. assert (Ns : ~ strings_made h). { intros (n & ps & b & Hd & Hi). exact (proj1 (OF n _ Hd) Hi). }
  split; [|exact Ns]. split.
  - intros n b Hd. split; [exact (proj1 (OF n _ Hd))|]. intro K. now destruct Ns.
  - intros n ps b Hd K. now destruct Ns.
Qed.

(** Whatever names are put in place of the parameters, they are not in the way. *)
Lemma no_va_names h ids (v : bool) names body : plain_names h names -> length names = length (parameter_words ids v) ->
  (v = false -> ~ In (st "__VA_ARGS__") body) -> ~ In (st "__VA_ARGS__") (map (in_place (parameter_words ids v) names) body).
Proof.
  intros PN Ln NV I. apply in_map_iff in I as (s & Es & I). unfold in_place in Es. destruct (index_of (parameter_words ids v) s) as [i|] eqn:Ei.
  - pose proof (PropSelf.index_of_lt _ _ _ Ei) as L. rewrite <- Ln in L. unfold plain_names in PN. rewrite Forall_forall in PN.
    destruct (PN _ (nth_In names s L)) as (_ & K & _). contradiction.
  - subst s. destruct v; [|now apply NV]. unfold parameter_words in Ei. rewrite index_app in Ei. destruct (index_of ids _); [discriminate Ei|].
    change (index_of [st "__VA_ARGS__"] (st "__VA_ARGS__")) with (Some 0) in Ei. discriminate Ei.
Qed.
Lemma no_hash_names h ids (v : bool) names body : plain_names h names -> length names = length (parameter_words ids v) ->
  ~ In hash (map from_str body) -> ~ In hash (map from_str (map (in_place (parameter_words ids v) names) body)).
Proof.
  intros PN Ln NH I. apply in_map_iff in I as (s' & Es & I). apply in_map_iff in I as (s & <- & I). unfold in_place in Es.
  destruct (index_of (parameter_words ids v) s) as [i|] eqn:Ei.
  - pose proof (PropSelf.index_of_lt _ _ _ Ei) as L. rewrite <- Ln in L. rewrite (name_token h names PN) in Es by now apply nth_In. discriminate Es.
  - apply NH. apply in_map_iff. now exists s.
Qed.

(** C81: a function-like macro expanded by itself gives what the C preprocessor
    makes of its replacement text, with any names that are no macros in place
    of the parameters and of [__VA_ARGS__].  Missing: [#] and [##]. *)
Theorem C81_fn_macro_partial : forall h n params ids variadic body names w,
  written_out_set h -> operator_free h -> defined (rev h) n = Some (DFn params body) -> parameter_list params ids variadic ->
  (variadic = false -> ~ In (st "__VA_ARGS__") body) ->
  (* without comments in the parameter list of a variadic macro, see C22 *)
  (variadic = true -> length params = length (parameter_words ids variadic)) ->
  plain_names h names -> length names = length (parameter_words ids variadic) ->
  let text := map (in_place (parameter_words ids variadic) names) body in
  written_out h (map from_str text) ->
  ((exists out, alone h n out /\ filled_in (as_words names) out = w) <->
   exists e, preprocessed (macros h) [n] (map from_str text) e /\ delivered (ROk e) = ROk w).
Proof.
  intros h n params ids v body names w Hs OF D PL NV NC PN Ln text Wb. destruct (free_apart h OF) as [Ap Ns].
  pose proof (no_va_text _ (no_va_names h ids v names body PN Ln NV)) as Hv. fold text in Hv.
  rewrite (alone_iff h n params ids body v names OF D PL NV PN Ln NC w). fold text.
  pose proof (fun e => apart_preprocessed h Hs Ap [n] (map from_str text) e (written_out_good h _ Wb) (tidy_text _ Hv)
    (safe_text h text (no_hash_names h ids v names body PN Ln (proj1 (OF n _ D))) (fun K => False_ind _ (Ns K)))) as He.
  split.
  - intros (F & e & E & Ed). exists e. split; [|exact Ed]. apply He. apply E_iff; [exact (proj1 (tidy_text _ Hv))|]. now exists F.
  - intros (e & Hx & Ed). apply He in Hx. apply E_iff in Hx; [|exact (proj1 (tidy_text _ Hv))]. destruct Hx as [F E]. now exists F, e.
Qed.

End S.

(** ** The hypotheses are met *)

(** [max(a, b)] is [(a > b ? a : b)], [clamp(x)] is [max(x, N) + clamp(x)],
    [N] is [M - 1], [M] is [N + 1], [log(x, ...)] is [(x, __VA_ARGS__)] and
    [warn(c, ...)] is [c && log(N, __VA_ARGS__)]. *)
Definition demo_alone : list call :=
  [DefineFn (st "max") [st "a"; st "b"] (map st ["("; "a"; ">"; "b"; "?"; "a"; ":"; "b"; ")"]%string);
   DefineFn (st "clamp") [st "x"] (map st ["max"; "("; "x"; ","; "N"; ")"; "+"; "clamp"; "("; "x"; ")"]%string);
   DefineVar (st "N") [st "M"; st "-"; st "1"];
   DefineVar (st "M") [st "N"; st "+"; st "1"];
   DefineFn (st "log") [st "x"; st "..."] (map st ["("; "x"; ","; "__VA_ARGS__"; ")"]%string);
   DefineFn (st "warn") [st "c"; st "..."] (map st ["c"; "&&"; "log"; "("; "N"; ","; "__VA_ARGS__"; ")"]%string)].

Section Demo.
#[local] Existing Instance demo_unicode.
Lemma alone_defined n d : defined (rev demo_alone) n = Some d ->
  n = st "M" \/ n = st "N" \/ n = st "clamp" \/ n = st "max" \/ n = st "log" \/ n = st "warn".
Proof.
  cbn [demo_alone rev app defined]. rewrite !same_name_eqb. intros E.
  destruct (str_eqb_spec n (st "warn")); [tauto|]. destruct (str_eqb_spec n (st "log")); [tauto|].
  destruct (str_eqb_spec n (st "M")); [auto|]. destruct (str_eqb_spec n (st "N")); [auto|]. destruct (str_eqb_spec n (st "clamp")); [auto|].
  destruct (str_eqb_spec n (st "max")); [tauto|discriminate].
Qed.
Lemma alone_takes n k v : takes demo_alone n k v -> n = st "clamp" \/ n = st "max" \/ n = st "log" \/ n = st "warn".
Proof. intros (ps & b & ids & Hd & _). destruct (alone_defined n _ Hd) as [-> | [-> | ?]]; [discriminate Hd..|easy]. Qed.
Ltac plain := apply pr_token; [intros [? [X|X]]; inversion X|discriminate..|
  intros ? ? ? X Ht; injection X as <-; apply alone_takes in Ht; destruct Ht as [Ht|[Ht|[Ht|Ht]]]; discriminate Ht|] ||
  (apply pr_token; [intros [? [X|X]]; inversion X|discriminate..|intros ? ? ? X; discriminate X|]).
Lemma names_ab : parameter_list [st "a"; st "b"] [st "a"; st "b"] false.
Proof. split; [reflexivity|]. repeat constructor; intros Hi; repeat destruct Hi as [Hi|Hi]; try discriminate; contradiction. Qed.
Lemma name_x : parameter_list [st "x"] [st "x"] false.
Proof. split; [reflexivity|]. repeat constructor. intros []. Qed.
Lemma names_more s : st s = st "x" \/ st s = st "c" -> parameter_list [st s; st "..."] [st s] true.
Proof. intros [-> | ->]; (split; [reflexivity|]; repeat constructor; intros []). Qed.

Example C81_fn_macro_case : proper_set demo_alone /\ operator_free demo_alone /\
  plain_names demo_alone [st "x"] /\ plain_names demo_alone [st "cond"; st "rest"] /\
  written_out demo_alone (map from_str (map st ["max"; "("; "x"; ","; "N"; ")"; "+"; "clamp"; "("; "x"; ")"]%string)) /\
  written_out demo_alone (map from_str (map (in_place (parameter_words [st "c"] true) [st "cond"; st "rest"])
    (map st ["c"; "&&"; "log"; "("; "N"; ","; "__VA_ARGS__"; ")"]%string))) /\
  (exists out, expand_fn_macro (run demo_alone) 30 (st "clamp") = ROk ([MIdent (st "x")], out) /\
    map word (filled_in (as_words [st "x"]) out) = map st
      ["("; "x"; ">"; "N"; "+"; "1"; "-"; "1"; "?"; "x"; ":"; "N"; "+"; "1"; "-"; "1"; ")"; "+"; "clamp"; "("; "x"; ")"]%string) /\
  exists out, expand_fn_macro (run demo_alone) 30 (st "warn") = ROk ([MIdent (st "c"); MPunct (st "...")], out) /\
    map word (filled_in (as_words [st "cond"; st "rest"]) out) = map st
      ["cond"; "&&"; "("; "N"; "+"; "1"; "-"; "1"; ","; "rest"; ")"]%string.
Proof.
  split; [|split; [|split; [|split; [|split; [|split; [|split]]]]]].
  - assert (Tm : takes demo_alone (st "max") 2 false) by (exists [st "a"; st "b"]; eexists; exists [st "a"; st "b"]; split; [reflexivity|]; split; [apply names_ab|reflexivity]).
    assert (Tc : takes demo_alone (st "clamp") 1 false) by (exists [st "x"]; eexists; exists [st "x"]; split; [reflexivity|]; split; [apply name_x|reflexivity]).
    assert (Tl : takes demo_alone (st "log") 1 true) by (exists [st "x"; st "..."]; eexists; exists [st "x"]; split; [reflexivity|]; split; [apply names_more; auto|reflexivity]).
    split; [|split; [|split]].
    + intros n b Hd. destruct (alone_defined n _ Hd) as [-> | [-> | [-> | [-> | [-> | ->]]]]]; try discriminate Hd; vm_compute in Hd; injection Hd as <-;
        (split; [|split; [apply demo_words; vm_compute; reflexivity|intros Hi; vm_compute in Hi; intuition discriminate]]);
        vm_compute map; do 3 plain; apply pr_nil.
    + intros n ps b Hd. destruct (alone_defined n _ Hd) as [-> | [-> | [-> | [-> | [-> | ->]]]]]; try discriminate Hd; vm_compute in Hd; injection Hd as <- <-.
      * exists [st "x"], false. split; [apply name_x|]. split; [|split; [apply demo_words; vm_compute; reflexivity|intros _ Hi; vm_compute in Hi; intuition discriminate]].
        match goal with |- proper_in _ _ ?l => change l with (TIdent (st "max") :: lp :: comma_separated [[TArg 0]; [TIdent (st "N")]] ++ rp_ ::
          TPunct (st "+") :: TIdent (st "clamp") :: lp :: comma_separated [[TArg 0]] ++ rp_ :: []) end.
        apply pr_call with (k := 2); [easy|discriminate|now left|apply Forall_cons; [plain; apply pr_nil|apply Forall_cons; [plain; apply pr_nil|apply Forall_nil]]|].
        plain. apply pr_call with (k := 1); [easy|discriminate|now left|apply Forall_cons; [plain; apply pr_nil|apply Forall_nil]|apply pr_nil].
      * exists [st "a"; st "b"], false. split; [apply names_ab|]. split; [|split; [apply demo_words; vm_compute; reflexivity|intros _ Hi; vm_compute in Hi; intuition discriminate]].
        match goal with |- proper_in _ _ ?l => change l with
          (lp :: (TArg 0 :: TPunct (st ">") :: TArg 1 :: TPunct (st "?") :: TArg 0 :: TPunct (st ":") :: TArg 1 :: []) ++ rp_ :: []) end.
        apply pr_group; [constructor| |apply pr_nil]. do 7 plain. apply pr_nil.
      * exists [st "x"], true. split; [apply (names_more "x"); auto|]. split; [|split; [apply demo_words; vm_compute; reflexivity|discriminate]].
        match goal with |- proper_in _ _ ?l => change l with (lp :: (TArg 0 :: comma :: TVarArgs :: []) ++ rp_ :: []) end.
        apply pr_group; [constructor| |apply pr_nil]. plain. apply pr_comma. apply pr_rest; [discriminate|]. apply pr_nil.
      * exists [st "c"], true. split; [apply (names_more "c"); auto|]. split; [|split; [apply demo_words; vm_compute; reflexivity|discriminate]].
        match goal with |- proper_in _ _ ?l => change l with (TArg 0 :: TPunct (st "&&") :: TIdent (st "log") :: lp :: comma_separated [[TIdent (st "N")]; [TVarArgs]] ++ rp_ :: []) end.
        do 2 plain. apply pr_variadic with (k := 1); [easy|discriminate|cbn; lia| |apply pr_nil].
        apply Forall_cons; [plain; apply pr_nil|apply Forall_cons; [apply pr_rest; [discriminate|apply pr_nil]|apply Forall_nil]].
    + intros (ps & b & Hd). vm_compute in Hd. discriminate.
    + intros (ps & b & Hd). vm_compute in Hd. discriminate.
  - intros n d Hd. destruct (alone_defined n _ Hd) as [-> | [-> | [-> | [-> | [-> | ->]]]]]; vm_compute in Hd; injection Hd as <-; split; intro I; vm_compute in I; intuition discriminate.
  - repeat constructor; discriminate.
  - repeat constructor; discriminate.
  - apply checked_written. vm_compute. reflexivity.
  - apply checked_written. vm_compute. reflexivity.
  - eexists. split; vm_compute; reflexivity.
  - eexists. split; vm_compute; reflexivity.
Qed.
End Demo.

Print Assumptions C81_fn_macro_partial.
