(** Expansion computes the relation of SpecExpand.v. *)
From Verif Require Import Base Utf Lex LexFloat Token MacroSet StrFacts LexFacts ExpandFacts ExpandInv TokenFacts
  SpecCall CallFacts SpecPaste PasteFacts SpecRescan SpecTokens ParamFacts SpecExpand ObjFacts.
From Coq Require Import String List.
Local Open Scope list_scope.

Scheme expansion_mut := Minimality for expansion Sort Prop
  with replaced_mut := Minimality for replaced Sort Prop
  with processed_mut := Minimality for processed Sort Prop
  with substituted_mut := Minimality for substituted Sort Prop.
Combined Scheme expansion_ind' from expansion_mut, replaced_mut, processed_mut, substituted_mut.

Section S.
Context `{Unicode}.

(** ** Parameter lists *)
Lemma drop_comments_names ps ids (v : bool) : parameter_list ps ids v ->
  drop_comments (map from_str ps) = map TIdent ids ++ (if v then [TPunct (st "...")] else []).
Proof.
  intros [Hk _]. unfold drop_comments.
  assert (Hm : Forall (fun s => parameter_kind s <> POther) ps).
  { apply Forall_forall. intros s Hs Hn.
    assert (Hi : In POther (filter (fun p => negb (is_pcomment p)) (map parameter_kind ps))).
    { apply filter_In. split; [|easy]. rewrite <- Hn. now apply in_map. }
    rewrite Hk in Hi. apply in_app_iff in Hi. destruct Hi as [Hi|Hi].
    - apply in_map_iff in Hi. destruct Hi as (? & ? & _). discriminate.
    - destruct v; [|easy]. destruct Hi as [Hi|[]]. discriminate. }
  assert (Hf : filter (fun t => negb (is_comment_token t)) (map from_str ps) =
    map (fun p => match p with PName id => TIdent id | _ => TPunct (st "...") end)
      (filter (fun p => negb (is_pcomment p)) (map parameter_kind ps))).
  { clear Hk. induction Hm as [|s ps Hs Hps IH]; [easy|]. simpl. unfold parameter_kind in *.
    destruct (from_str s) eqn:Es; simpl; try (now destruct Hs); try (now rewrite IH).
    destruct (list_eq_dec N.eq_dec p (st "...")) as [->|Hn]; [|now destruct Hs]. simpl. now rewrite IH. }
  rewrite Hf, Hk, map_app, map_map. now destruct v.
Qed.

Lemma accepted_names ps an : tokenize_arg_names ps = ROk an -> exists ids v,
  drop_comments an = map TIdent ids ++ (if v : bool then [TPunct (st "...")] else []) /\ NoDup ids /\
  Forall (fun id => is_identifier id = true) ids.
Proof.
  intros E. apply tokenize_arg_names_iff in E. destruct E as [-> (ids & v & Hp)].
  exists ids, v. split; [now apply drop_comments_names|]. destruct Hp as [Hk Hd]. split; [easy|].
  apply Forall_forall. intros id Hid.
  assert (Hi : In (PName id) (filter (fun p => negb (is_pcomment p)) (map parameter_kind ps))).
  { rewrite Hk. apply in_app_iff. left. now apply in_map. }
  apply filter_In in Hi. destruct Hi as [Hi _]. apply in_map_iff in Hi. destruct Hi as (s & Es & _).
  unfold parameter_kind in Es. pose proof (idents_ok_spell s) as Hok.
  destruct (from_str s); try discriminate.
  - destruct (list_eq_dec _ _ _); discriminate.
  - inversion Es; subst. exact Hok.
Qed.

Lemma first_duplicate_None l : NoDup l -> first_duplicate l = None.
Proof.
  induction 1 as [|x l Hx Hl IH]; [easy|]. simpl. assert (E : str_mem x l = false) by now apply str_mem_not_In.
  now rewrite E.
Qed.

Lemma no_duplicate ids (v : bool) : NoDup ids -> Forall (fun id => is_identifier id = true) ids ->
  first_duplicate (MacroSet.filter_map param_name (map TIdent ids ++ (if v then [TPunct (st "...")] else []))) = None.
Proof.
  intros Hd Hi. apply first_duplicate_None. rewrite filter_map_app.
  assert (E : MacroSet.filter_map param_name (map TIdent ids) = ids). { clear. induction ids; simpl; congruence. }
  rewrite E. destruct v; simpl; [|now rewrite app_nil_r]. apply NoDup_snoc; [easy|].
  intros Hin. rewrite Forall_forall in Hi. specialize (Hi _ Hin). discriminate.
Qed.

Lemma is_variadic_names ids (v : bool) : is_variadic (map TIdent ids ++ (if v then [TPunct (st "...")] else [])) = v.
Proof.
  unfold is_variadic. rewrite rev_app_distr. destruct v; simpl; [easy|].
  rewrite <- map_rev. now destruct (rev ids).
Qed.

(** ** The macros as the specification sees them *)
Definition macro_of (ms : macro_set) (id : str) : option macro_def :=
  match sm_get (fn_macros ms) id with
  | Some (ps, b) =>
    Some match tokenize_arg_names ps with
         | ROk an => Function (length (ids_of an)) (is_variadic (drop_comments an)) (tokenize an b)
         | RErr e => Malformed e
         | _ => Malformed InvalidArgumentName
         end
  | None => omap (fun b => Object (tokenize [] b)) (sm_get (var_macros ms) id)
  end.

Variable ms : macro_set.
Hypothesis Hexcl : forall id, sm_get (fn_macros ms) id = None \/ sm_get (var_macros ms) id = None.

Notation expansion' := (expansion token_concat stringify (macro_of ms)).
Notation replaced' := (replaced token_concat stringify (macro_of ms)).
Notation processed' := (processed token_concat stringify (macro_of ms)).
Notation substituted' := (substituted token_concat stringify (macro_of ms)).
Notation invokes' := (invokes (macro_of ms)).

Lemma tokenize_arg_names_res ps : (exists an, tokenize_arg_names ps = ROk an) \/ (exists e, tokenize_arg_names ps = RErr e).
Proof.
  unfold tokenize_arg_names. generalize false, (@nil token).
  induction ps as [|q ps IH]; intros v a; simpl; [eauto|].
  destruct (from_str q); eauto.
  - destruct (str_eqb _ _); eauto. destruct v; eauto.
  - destruct v; eauto. destruct (contains_ident _ _); eauto.
Qed.

(** ** Scanning for the leftmost invocation *)
Lemma mark_paint hide t : mark hide t = paint hide t.
Proof.
  destruct t; try easy. simpl. destruct (in_dec (list_eq_dec N.eq_dec) id hide) as [Hi|Hn].
  - apply str_mem_In in Hi. now rewrite Hi.
  - assert (E : str_mem id hide = false) by now apply str_mem_not_In. now rewrite E.
Qed.

Definition replacement_of (rec : list str -> list token -> res xerr (list token)) (hide : list str) (id : str)
  (args : list (list token)) : res xerr (list token) :=
  match sm_get (fn_macros ms) id with
  | Some (ps, b) => an <- tokenize_arg_names ps ;; expand_fn_macro_body rec hide id an (Some args) (tokenize an b)
  | None => match sm_get (var_macros ms) id with
            | Some b => expand_var_macro_body rec hide id (tokenize [] b)
            | None => RFuel
            end
  end.

Lemma invokes_only_ident hide t l id d args post : invokes' hide (t :: l) id d args post -> t = TIdent id.
Proof. inversion 1; subst; easy. Qed.

Lemma invokes_ident hide id l :
  (exists d args post, invokes' hide (TIdent id :: l) id d args post) ->
  str_mem id hide = false /\
  ((exists b, sm_get (fn_macros ms) id = None /\ sm_get (var_macros ms) id = Some b) \/
   (exists p args post, sm_get (fn_macros ms) id = Some p /\ collect_args l = Some (args, post))).
Proof.
  intros (d & args & post & Hi). inversion Hi; subst.
  - split; [now apply str_mem_not_In|]. left. unfold macro_of in *.
    destruct (sm_get (fn_macros ms) id) as [[ps bb]|] eqn:E. { destruct (tokenize_arg_names ps); discriminate. }
    destruct (sm_get (var_macros ms) id) as [b0|] eqn:E0; [|discriminate]. now exists b0.
  - split; [now apply str_mem_not_In|]. right. unfold macro_of in *.
    destruct (sm_get (fn_macros ms) id) as [q|] eqn:E.
    + exists q, args, post. split; [easy|]. now apply collect_args_iff.
    + destruct (sm_get (var_macros ms) id); [|discriminate]. simpl in *.
      match goal with h : Some _ = Some d |- _ => inversion h; subst end.
      match goal with h : function_like _ |- _ => exfalso; eapply h; reflexivity end.
Qed.

Lemma scan_leftmost rec hide it : forall acc,
  (no_invocation (macro_of ms) hide it /\ scan ms rec hide acc it = ROk (rev acc ++ map (mark hide) it)) \/
  (exists pre id d args post, leftmost (macro_of ms) hide it pre id d args post /\
     macro_of ms id = Some d /\ 
     scan ms rec hide acc it = (e <- replacement_of rec hide id args ;; rec hide ((rev acc ++ map (mark hide) pre) ++ e ++ post))).
Proof.
  induction it as [|t it IH]; intros acc.
  { left. split; [|now rewrite app_nil_r]. intros p q E. symmetry in E. apply app_eq_nil in E. destruct E as [-> ->].
    intros id d args post Hi. inversion Hi. }
  (* [t] is not an invocation *)
  assert (Hkeep : (forall id d args post, ~ invokes' hide (t :: it) id d args post) ->
    scan ms rec hide acc (t :: it) = scan ms rec hide (mark hide t :: acc) it ->
    (no_invocation (macro_of ms) hide (t :: it) /\ scan ms rec hide acc (t :: it) = ROk (rev acc ++ map (mark hide) (t :: it))) \/
    (exists pre id d args post, leftmost (macro_of ms) hide (t :: it) pre id d args post /\
     macro_of ms id = Some d /\ 
     scan ms rec hide acc (t :: it) = (e <- replacement_of rec hide id args ;; rec hide ((rev acc ++ map (mark hide) pre) ++ e ++ post)))).
  { intros Hno Hs. rewrite Hs. destruct (IH (mark hide t :: acc)) as [[Hn He]|(pre & id & d & args & post & Hl & Hm & He)].
    - left. split.
      + intros [|x p] q E.
        * simpl in E. subst q. exact Hno.
        * inversion E; subst. now apply (Hn p q).
      + rewrite He. simpl. now rewrite <- app_assoc.
    - right. exists (t :: pre), id, d, args, post. split; [|split; [easy|]].
      + destruct Hl as (text & -> & Hi & Hb). exists text. repeat split; [easy|].
        intros [|x p] q E Hq.
        * simpl in E. subst q. exact Hno.
        * inversion E; subst. now apply (Hb p q).
      + rewrite He. simpl. now rewrite <- app_assoc. }
  destruct t as [u|i| |p|id|s|lt s|s|c|];
    try (apply Hkeep; [intros ? ? ? ? Hi; apply invokes_only_ident in Hi; discriminate|reflexivity]).
  assert (Ep : mark hide (TIdent id) = if str_mem id hide then TNonRepl (TIdent id) else TIdent id) by apply mark_paint.
  rewrite Ep in Hkeep. cbn [scan] in Hkeep |- *.
  destruct (str_mem id hide) eqn:Em.
  { apply Hkeep; [|reflexivity].
    intros id' d args post Hi. pose proof (invokes_only_ident _ _ _ _ _ _ _ Hi) as E. inversion E; subst id'.
    assert (Hi' : exists d args post, invokes' hide (TIdent id :: it) id d args post) by eauto.
    apply invokes_ident in Hi'. destruct Hi'. congruence. }
  assert (Hnin : ~ In id hide) by now apply str_mem_not_In.
  (* object-like *)
  assert (Hobj : forall b, sm_get (fn_macros ms) id = None -> sm_get (var_macros ms) id = Some b ->
    exists pre id' d args post, leftmost (macro_of ms) hide (TIdent id :: it) pre id' d args post /\
     macro_of ms id' = Some d /\
     (e <- expand_var_macro_body rec hide id (tokenize [] b) ;; rec hide (rev acc ++ e ++ it)) =
     (e <- replacement_of rec hide id' args ;; rec hide ((rev acc ++ map (mark hide) pre) ++ e ++ post))).
  { intros b Ef Ev. exists [], id, (Object (tokenize [] b)), [], it.
    assert (Hm : macro_of ms id = Some (Object (tokenize [] b))) by (unfold macro_of; now rewrite Ef, Ev).
    split; [|split; [easy|]].
    - exists (TIdent id :: it). repeat split; [now constructor|].
      intros p q E Hq. symmetry in E. apply app_eq_nil in E. now destruct E.
    - unfold replacement_of. rewrite Ef, Ev. simpl. now rewrite app_nil_r. }
  assert (Hno : sm_get (fn_macros ms) id = None \/ collect_args it = None -> sm_get (var_macros ms) id = None ->
    forall id' d args post, ~ invokes' hide (TIdent id :: it) id' d args post).
  { intros Hf Hv id' d args post Hi. pose proof (invokes_only_ident _ _ _ _ _ _ _ Hi) as E. inversion E; subst id'.
    assert (Hi' : exists d args post, invokes' hide (TIdent id :: it) id d args post) by eauto.
    apply invokes_ident in Hi'. destruct Hi' as [_ [(b & _ & E2)|(q & a & p' & E1 & E2)]]; [congruence|].
    destruct Hf; congruence. }
  destruct (peek_is (is_punct (st "(")) it) eqn:Epk.
  - destruct (sm_get (fn_macros ms) id) as [[ps b]|] eqn:Ef.
    + assert (Ev : sm_get (var_macros ms) id = None) by (destruct (Hexcl id); congruence).
      rewrite Ev in *. destruct (collect_args it) as [[args rest]|] eqn:Ec.
      2:{ apply Hkeep; auto. }
      right. exists [], id.
      eexists. exists args, rest. split; [|split].
      * exists (TIdent id :: it). repeat split.
        -- apply iv_function; [easy|unfold macro_of; now rewrite Ef| |now apply collect_args_iff].
           intros b'. destruct (tokenize_arg_names ps); discriminate.
        -- intros p q E Hq. symmetry in E. apply app_eq_nil in E. now destruct E.
      * unfold macro_of. now rewrite Ef.
      * unfold replacement_of. rewrite Ef. simpl. rewrite app_nil_r. destruct (tokenize_arg_names ps); easy.
    + destruct (sm_get (var_macros ms) id) as [b|] eqn:Ev; [right; now apply Hobj|]. apply Hkeep; auto.
  - destruct (sm_get (fn_macros ms) id) as [[ps b]|] eqn:Ef.
    + assert (Ev : sm_get (var_macros ms) id = None) by (destruct (Hexcl id); congruence).
      rewrite Ev in *. apply Hkeep; [|easy]. apply Hno; [|easy]. right.
      destruct it as [|[| | |p| | | | | |] it']; try easy. simpl in *. now rewrite Epk.
    + destruct (sm_get (var_macros ms) id) as [b|] eqn:Ev; [right; now apply Hobj|]. apply Hkeep; auto.
Qed.

(** The leftmost invocation is unique. *)
Lemma invokes_det hide l id1 d1 a1 p1 id2 d2 a2 p2 :
  invokes' hide l id1 d1 a1 p1 -> invokes' hide l id2 d2 a2 p2 -> id1 = id2 /\ d1 = d2 /\ a1 = a2 /\ p1 = p2.
Proof.
  intros H1 H2. inversion H1; subst; inversion H2; subst.
  - split; [easy|]. split; [congruence|]. easy.
  - exfalso. match goal with h : function_like d2 |- _ => apply (h b); congruence end.
  - exfalso. match goal with h : function_like d1 |- _ => apply (h b); congruence end.
  - split; [easy|]. split; [congruence|].
    match goal with h1 : call_text text a1 p1, h2 : call_text text a2 p2 |- _ =>
      apply collect_args_iff in h1; apply collect_args_iff in h2; rewrite h1 in h2; inversion h2; subst; easy end.
Qed.

Lemma leftmost_det hide l pre1 id1 d1 a1 p1 pre2 id2 d2 a2 p2 :
  leftmost (macro_of ms) hide l pre1 id1 d1 a1 p1 -> leftmost (macro_of ms) hide l pre2 id2 d2 a2 p2 ->
  pre1 = pre2 /\ id1 = id2 /\ d1 = d2 /\ a1 = a2 /\ p1 = p2.
Proof.
  intros (t1 & E1 & H1 & B1) (t2 & E2 & H2 & B2). rewrite E1 in E2.
  assert (Hp : pre1 = pre2 /\ t1 = t2).
  { apply app_eq_app in E2. destruct E2 as (q & [[-> ->]|[-> ->]]).
    - destruct q as [|x q]; [now rewrite app_nil_r|]. exfalso. eapply (B1 pre2 (x :: q)); eauto. discriminate.
    - destruct q as [|x q]; [now rewrite app_nil_r|]. exfalso. eapply (B2 pre1 (x :: q)); eauto. discriminate. }
  destruct Hp as [-> ->]. destruct (invokes_det _ _ _ _ _ _ _ _ _ _ H1 H2) as (-> & -> & -> & ->). easy.
Qed.

Lemma leftmost_some hide l pre id d args post : leftmost (macro_of ms) hide l pre id d args post -> ~ no_invocation (macro_of ms) hide l.
Proof. intros (text & -> & Hi & _) Hn. eapply Hn; eauto. Qed.

(** ** Invariant: no parameter tokens, comments are never painted *)
Notation clean := (Forall ordinary_or_comment).

Lemma clean_place l : Forall (orplace ordinary_or_comment) l <-> clean l.
Proof.
  split; apply Forall_impl.
  - intros t [Ht | ->]; [easy|]. split; [easy|]. now intros [s E].
  - now left.
Qed.

Lemma clean_concat a b : orplace ordinary_or_comment a -> orplace ordinary_or_comment b ->
  sat True (orplace ordinary_or_comment) (token_concat a b).
Proof.
  intros Ha Hb.
  assert (Hp : forall t, orplace ordinary_or_comment t -> ordinary_or_comment t).
  { intros t Ht. assert (Hc : clean [t]) by (apply clean_place; now constructor). now inversion Hc. }
  apply Hp in Ha. apply Hp in Hb. destruct (token_concat a b) as [r| | |] eqn:E; try easy. simpl. left.
  unfold token_concat in E. apply (concat_stripped_cases ordinary_or_comment (strip_nr a) (strip_nr b) r); auto;
    try (intros; split; [easy|now intros [? ?]]).
  - destruct Ha as [H1 H2]. split; rewrite strip_nr_idem; auto.
  - destruct Hb as [H1 H2]. split; rewrite strip_nr_idem; auto.
Qed.

Lemma clean_stringify n arg : clean arg -> clean (stringify n arg).
Proof. apply stringify_P; [intros|]; (split; [easy|]); now intros [? ?]. Qed.

Lemma clean_spell s : s <> st "__VA_ARGS__" -> ordinary_or_comment (from_str s).
Proof.
  intros Hs. pose proof (from_str_no_nr s) as Hn. split.
  - rewrite strip_nr_same by easy. now apply not_arg_spell.
  - now rewrite strip_nr_same.
Qed.

Lemma from_str_var_args s : from_str s = TVarArgs <-> s = st "__VA_ARGS__".
Proof.
  split; [|now intros ->]. intros E. destruct (list_eq_dec N.eq_dec s (st "__VA_ARGS__")) as [Hs|Hs]; [easy|].
  pose proof (not_arg_spell s Hs) as Hn. rewrite E in Hn. discriminate.
Qed.

Lemma clean_body an b : Forall (fun t => parameter_token t \/ ordinary_or_comment t) (tokenize an b).
Proof.
  apply Forall_forall. intros t Ht. apply tokenize_in in Ht. destruct Ht as (s & _ & [(i & -> & _) | ->]).
  - left. right. now exists i.
  - destruct (list_eq_dec N.eq_dec s (st "__VA_ARGS__")) as [->|Hs]; [now left; left|]. right. now apply clean_spell.
Qed.

Lemma clean_object b : ~ In TVarArgs (tokenize [] b) -> clean (tokenize [] b).
Proof.
  intros Hn. apply Forall_forall. intros t Ht. pose proof Ht as Hy. apply tokenize_in in Hy.
  destruct Hy as (s & _ & [(i & _ & _ & []) | ->]). apply clean_spell. intros ->. now apply Hn.
Qed.

Lemma is_arg_token_iff t : is_arg_token t = true <-> parameter_token t.
Proof.
  unfold parameter_token. destruct t; simpl; split; intros E; try discriminate; try (destruct E as [E|[? E]]; discriminate); eauto.
Qed.

Lemma expand_macro_body_clean fuel names b : clean b -> sat True clean (expand_macro_body ms fuel names b).
Proof.
  apply expand_macro_body_P.
  - intros id _. split; [easy|]. now intros [? ?].
  - apply clean_concat.
  - apply clean_stringify.
  - split; [easy|]. now intros [? ?].
  - intros n b' _ Hc. apply clean_object. now apply contains_var_args_In.
  - intros n p b' an _ _ args _ _. pose proof (clean_body an b') as Hb. revert Hb. apply Forall_impl.
    intros t [Ht|Ht].
    + apply is_arg_token_iff in Ht. rewrite Ht. now left.
    + destruct (is_arg_token t); [now left|easy].
Qed.

Lemma contains_true b : contains_var_args b = true <-> In TVarArgs b.
Proof.
  unfold contains_var_args. rewrite existsb_exists. split.
  - intros (t & Ht & E). destruct t; try discriminate. easy.
  - intros Ht. exists TVarArgs. easy.
Qed.

Section Rec.
Variable rec : list str -> list token -> res xerr (list token).
Hypothesis Hclean : forall hide l, clean l -> sat True clean (rec hide l).
Hypothesis Hrec : forall hide l, clean l -> rec hide l <> RFuel -> expansion' hide l (rec hide l).

Lemma not_succeeded {A} (p : res xerr A) : ~ succeeded p <-> (forall a, p <> ROk a).
Proof. split; [intros Hn a ->; apply Hn; now exists a|intros Hn [a ->]; now apply (Hn a)]. Qed.

Lemma processed_sound hide id b : ~ In id hide -> clean b -> concat_and_rescan rec hide id b <> RFuel ->
  processed' hide id b (concat_and_rescan rec hide id b).
Proof.
  intros Hn Hb. unfold concat_and_rescan.
  pose proof (proj1 (expand_concat_iff b _ Hb) eq_refl) as Hp.
  pose proof (concat_loop_P True ordinary_or_comment clean_concat b (proj2 (clean_place b) Hb) None [] (Forall_nil _)) as Hc.
  change (concat_loop None [] b) with (expand_concat b) in Hc.
  destruct (expand_concat b) as [c|e| |]; simpl; intros Hr; try contradiction.
  - assert (Es : set_insert id hide = id :: hide).
    { unfold set_insert. assert (E : str_mem id hide = false) by now apply str_mem_not_In. now rewrite E. }
    rewrite Es in *. apply pr_rescan with (c := c); [easy|].
    change (filter (fun t => negb (is_placeholder t)) c) with (remove_placemarkers c).
    apply Hrec; [|easy]. apply remove_placemarkers_P. apply Hc. discriminate.
  - apply pr_fail; [easy|]. now intros [a E].
  - apply pr_fail; [easy|]. now intros [a E].
Qed.

Lemma argument_of_for named (v : bool) args t : parameter_token t -> (t = TVarArgs -> v = true) ->
  argument_of (named + (if v then 1 else 0)) args t = argument_for named args t.
Proof.
  intros [-> | [i ->]] Hv; [|easy]. rewrite (Hv eq_refl). simpl. now rewrite Nat.add_1_r.
Qed.

Lemma ends_with_rev acc p : ends_with (rev acc) (TPunct p) <-> peek_is (is_punct p) acc = true.
Proof.
  split.
  - intros [o E]. rewrite <- (rev_involutive acc), E, rev_app_distr. simpl. apply str_eqb_refl.
  - destruct acc as [|[| | |q| | | | | |] acc]; try discriminate. simpl. intros E. apply str_eqb_eq in E. subst.
    exists (rev acc). easy.
Qed.
Lemma starts_with_peek l p : starts_with l (TPunct p) <-> peek_is (is_punct p) l = true.
Proof.
  split.
  - intros [o ->]. simpl. apply str_eqb_refl.
  - destruct l as [|[| | |q| | | | | |] l]; try discriminate. simpl. intros E. apply str_eqb_eq in E. subst.
    now exists l.
Qed.
Lemma hash_is t : is_punct (st "#") t = true <-> t = hash.
Proof. split; [|now intros ->]. destruct t; try discriminate. simpl. intros E. apply str_eqb_eq in E. now subst. Qed.

Lemma sub_shift hide k args acc s it r :
  substituted' hide k args (rev (rev s ++ acc)) it r -> substituted' hide k args (rev acc ++ s) it r.
Proof. now rewrite rev_app_distr, rev_involutive. Qed.

Lemma substituted_sound hide named (v : bool) args : Forall clean args -> forall n it acc, length it <= n ->
  (v = false -> ~ In TVarArgs it) ->
  expand_arguments_loop rec hide (named + (if v then 1 else 0)) args acc it <> RFuel ->
  substituted' hide named args (rev acc) it
    (expand_arguments_loop rec hide (named + (if v then 1 else 0)) args acc it).
Proof.
  intros Hargs. set (k := named + (if v then 1 else 0)).
  assert (Hof : forall t l, parameter_token t -> (v = false -> ~ In TVarArgs (t :: l)) ->
    argument_of k args t = argument_for named args t).
  { intros t l Ht Hv. apply argument_of_for; [easy|]. intros ->. destruct v; [easy|]. exfalso. apply (Hv eq_refl); now left. }
  induction n as [|n IH]; intros it acc Hlen Hv Hr.
  { destruct it; [|simpl in Hlen; lia]. apply sb_end. }
  destruct it as [|t it]; [apply sb_end|].
  assert (Hv' : v = false -> ~ In TVarArgs it) by (intros E Hi; apply (Hv E); now right).
  simpl in Hlen. cbn [expand_arguments_loop] in Hr |- *.
  destruct (is_punct (st "#") t) eqn:Eh.
  { apply hash_is in Eh. subst t. destruct (peek_is is_arg_token it) eqn:Ep.
    - destruct it as [|t it]; [discriminate|]. simpl in Ep. cbn [expand_arguments_loop] in Hr |- *.
      assert (Et : is_punct (st "#") t = false) by (destruct t; easy). rewrite Et, Ep in Hr |- *.
      pose proof Ep as Ht. apply is_arg_token_iff in Ht.
      rewrite (Hof t it Ht Hv') in Hr |- *.
      destruct (argument_for named args t) as [a|] eqn:Ea.
      + cbn [peek_is tl] in Hr |- *. change (is_punct (st "#") hash) with true in Hr |- *. cbv iota in Hr |- *.
        eapply sb_stringify; eauto. apply sub_shift.
        apply IH; [simpl in Hlen; lia| |exact Hr]. intros E Hi. apply (Hv' E). now right.
      + now apply sb_stringify_missing.
    - apply sb_stringify_other. intros t Ht [l ->]. simpl in Ep. apply is_arg_token_iff in Ht. congruence. }
  destruct (is_arg_token t) eqn:Ea.
  2:{ apply sb_keep.
      - intros Ht. apply is_arg_token_iff in Ht. congruence.
      - intros ->. discriminate.
      - apply (IH it (t :: acc)); auto; lia. }
  pose proof Ea as Ht. apply is_arg_token_iff in Ht. rewrite (Hof t it Ht Hv) in Hr |- *.
  destruct (argument_for named args t) as [a|] eqn:Ear; [|now apply sb_missing].
  assert (Ha : clean a).
  { eapply (argument_of_Forall ordinary_or_comment k args t); eauto.
    - split; [easy|]. now intros [? ?].
    - now rewrite (Hof t it Ht Hv). }
  destruct (peek_is (is_punct (st "#")) acc) eqn:Eph.
  { destruct acc as [|x acc]; [discriminate|]. simpl in Eph. apply hash_is in Eph. subst x. cbn [tl rev] in Hr |- *.
    eapply sb_stringify_stray; eauto. apply sub_shift.
    apply IH; auto; lia. }
  assert (Hnh : ~ ends_with (rev acc) hash) by (intros Hw; apply ends_with_rev in Hw; congruence).
  destruct (peek_is (is_punct (st "##")) acc || peek_is (is_punct (st "##")) it) eqn:Epp.
  - destruct (rec hide a) as [e|e| |] eqn:Er; simpl in Hr |- *; try contradiction.
    + assert (Hx : expansion' hide a (ROk e)). { rewrite <- Er. apply Hrec; [easy|congruence]. }
      eapply sb_operand; eauto.
      { apply orb_true_iff in Epp. destruct Epp as [E|E]; [left; now apply ends_with_rev|right; now apply starts_with_peek]. }
      destruct e as [|x e].
      * apply (IH it (TPlacemarker :: acc)); auto; lia.
      * apply sub_shift. apply IH; auto; lia.
    + eapply sb_argument_fail; eauto; [|now intros [? ?]]. rewrite <- Er. apply Hrec; [easy|congruence].
    + eapply sb_argument_fail; eauto; [|now intros [? ?]]. rewrite <- Er. apply Hrec; [easy|congruence].
  - apply orb_false_iff in Epp. destruct Epp as [E1 E2].
    destruct (rec hide a) as [e|e| |] eqn:Er; simpl in Hr |- *; try contradiction.
    + assert (Hx : expansion' hide a (ROk e)). { rewrite <- Er. apply Hrec; [easy|congruence]. }
      eapply sb_argument; eauto.
      * intros Hw. apply ends_with_rev in Hw. congruence.
      * intros Hw. apply starts_with_peek in Hw. congruence.
      * apply sub_shift. apply IH; auto; lia.
    + eapply sb_argument_fail; eauto; [|now intros [? ?]]. rewrite <- Er. apply Hrec; [easy|congruence].
    + eapply sb_argument_fail; eauto; [|now intros [? ?]]. rewrite <- Er. apply Hrec; [easy|congruence].
Qed.

Lemma ids_of_drop an ids (v : bool) : drop_comments an = map TIdent ids ++ (if v then [TPunct (st "...")] else []) -> ids_of an = ids.
Proof.
  intros E. assert (E2 : ids_of an = ids_of (drop_comments an)).
  { clear. unfold ids_of, drop_comments. induction an as [|t an IH]; [easy|]. simpl.
    destruct t; simpl; auto. now rewrite IH. }
  rewrite E2, E, ids_of_app. assert (E3 : forall l, ids_of (map TIdent l) = l). { induction l as [|x l IHl]; [easy|]. unfold ids_of in *. simpl. now rewrite IHl. }
  rewrite E3. destruct v; simpl; now rewrite app_nil_r.
Qed.

(** A call of a function-like macro with an accepted parameter list. *)
Lemma expand_fn_macro_body_call hide id ps an b args : tokenize_arg_names ps = ROk an -> args <> [] ->
  let k := length (ids_of an) in let v := is_variadic (drop_comments an) in
  expand_fn_macro_body rec hide id an (Some args) b =
  if negb v && contains_var_args b then RErr NonVariadicVarArgs
  else if negb v && negb (Nat.eqb k (length args) || (Nat.eqb k 0 && match args with a :: _ => match a with [] => true | _ => false end | [] => true end))
  then RErr (FnMacroArgumentError id k (length args))
  else s <- expand_arguments_loop rec hide (k + (if v then 1 else 0)) args [] b ;; concat_and_rescan rec hide id s.
Proof.
  intros E Hne k v. destruct (accepted_names _ _ E) as (ids & v' & Ed & Hd & Hi).
  assert (Ek : k = length ids) by (unfold k; now rewrite (ids_of_drop _ _ _ Ed)).
  assert (Ev : v = v') by (unfold v; rewrite Ed; apply is_variadic_names).
  assert (El : length (drop_comments an) = k + (if v then 1 else 0)).
  { rewrite Ed, app_length, map_length, Ek, Ev. now destruct v'. }
  unfold expand_fn_macro_body. fold v. rewrite El.
  destruct (negb v && contains_var_args b); [easy|].
  assert (Hdup : first_duplicate (MacroSet.filter_map param_name (drop_comments an)) = None).
  { rewrite Ed. now apply no_duplicate. }
  rewrite Hdup. destruct v eqn:Evv; simpl; [reflexivity|].
  rewrite Nat.add_0_r in *.
  assert (En : match drop_comments an with [] => match args with [] => true | a :: _ => match a with [] => true | _ => false end end | _ => false end =
    (Nat.eqb k 0 && match args with a :: _ => match a with [] => true | _ => false end | [] => true end)).
  { rewrite Ek. rewrite Ed, <- Ev. rewrite app_nil_r. destruct ids; simpl; [|easy]. now destruct args. }
  rewrite En, negb_orb. destruct (Nat.eqb k (length args)); simpl; [easy|]. destruct (Nat.eqb k 0 && _); easy.
Qed.

Lemma accepted_iff k args : args <> [] ->
  (Nat.eqb k (length args) || (Nat.eqb k 0 && match args with a :: _ => match a with [] => true | _ => false end | [] => true end)) = true
  <-> accepted k args.
Proof.
  intros Hne. rewrite orb_true_iff, andb_true_iff, !Nat.eqb_eq. unfold accepted.
  destruct args as [|a args]; [easy|]. split; intros [E|[E1 E2]]; auto.
  - right. split; [easy|]. destruct a; [|discriminate]. now exists args.
  - right. split; [easy|]. destruct E2 as [rest E2]. now inversion E2.
Qed.

Lemma replacement_sound hide id d args : ~ In id hide -> macro_of ms id = Some d -> 
  (function_like d -> args <> []) -> Forall clean args ->
  replacement_of rec hide id args <> RFuel -> replaced' hide id d args (replacement_of rec hide id args).
Proof.
  intros Hn Hm Hne Hargs. unfold replacement_of, macro_of in Hm |- *.
  destruct (sm_get (fn_macros ms) id) as [[ps b]|].
  - injection Hm as <-.
    assert (Ha : args <> []). { apply Hne. intros b'. destruct (tokenize_arg_names ps); discriminate. }
    destruct (tokenize_arg_names ps) as [an|e| |] eqn:Et; cbn [rbind]; try contradiction; intros Hr.
    2:{ apply rl_malformed. }
    2:{ exfalso. destruct (tokenize_arg_names_res ps) as [[? E]|[? E]]; congruence. }
    rewrite (expand_fn_macro_body_call _ _ ps) in Hr |- * by easy.
    set (k := length (ids_of an)) in *. set (v := is_variadic (drop_comments an)) in *.
    destruct (negb v && contains_var_args (tokenize an b)) eqn:Ec.
    { apply andb_true_iff in Ec. destruct Ec as [E1 E2]. apply negb_true_iff in E1. rewrite E1. apply rl_va.
      now apply contains_true. }
    destruct (negb v && negb _) eqn:Eac.
    { apply andb_true_iff in Eac. destruct Eac as [E1 E2]. apply negb_true_iff in E1, E2. rewrite E1 in *. apply rl_count.
      - simpl in Ec. now apply contains_var_args_In.
      - intros Hacc. apply accepted_iff in Hacc; [|easy]. congruence. }
    assert (Hok : v = false -> ~ In TVarArgs (tokenize an b) /\ accepted k args).
    { intros E. rewrite E in *. simpl in *. split; [now apply contains_var_args_In|].
      apply accepted_iff; [easy|]. now apply negb_false_iff in Eac. }
    pose proof (substituted_sound hide k v args Hargs (length (tokenize an b)) (tokenize an b) [] (Nat.le_refl _) 
      (fun E => proj1 (Hok E))) as Hs.
    assert (Hsc : sat True (Forall (orplace ordinary_or_comment)) (expand_arguments_loop rec hide (k + (if v then 1 else 0)) args [] (tokenize an b))).
    { apply (expand_arguments_loop_P True ordinary_or_comment); auto using clean_stringify.
      - split; [easy|]. now intros [? ?].
      - pose proof (clean_body an b) as Hb. revert Hb. apply Forall_impl. intros t [Ht|Ht].
        + apply is_arg_token_iff in Ht. rewrite Ht. now left.
        + destruct (is_arg_token t); [now left|easy]. }
    destruct (expand_arguments_loop rec hide (k + (if v then 1 else 0)) args [] (tokenize an b)) as [s0|e| |]; cbn [rbind] in *; try contradiction.
    + eapply rl_function; eauto. { apply Hs. discriminate. } apply processed_sound; auto. now apply clean_place.
    + apply rl_function_fail; [easy|apply Hs; discriminate|now intros [? ?]].
    + apply rl_function_fail; [easy|apply Hs; discriminate|now intros [? ?]].
  - destruct (sm_get (var_macros ms) id) as [b|]; [|discriminate]. simpl in Hm. injection Hm as <-.
    unfold expand_var_macro_body. destruct (contains_var_args (tokenize [] b)) eqn:Ec; intros Hr.
    + apply rl_object_va. now apply contains_true.
    + apply contains_var_args_In in Ec. apply rl_object; [easy|]. apply processed_sound; auto. now apply clean_object.
Qed.

Lemma replacement_clean hide id d args : macro_of ms id = Some d -> (function_like d -> args <> []) -> Forall clean args ->
  sat True clean (replacement_of rec hide id args).
Proof.
  intros Hm Hne Hargs. unfold replacement_of, macro_of in Hm |- *.
  destruct (sm_get (fn_macros ms) id) as [[ps b]|].
  - injection Hm as <-. assert (Ha : args <> []). { apply Hne. intros b'. destruct (tokenize_arg_names ps); discriminate. }
    destruct (tokenize_arg_names ps) as [an| | |]; try easy. cbn [rbind].
    apply (expand_fn_macro_body_call_P True ordinary_or_comment); auto using clean_concat, clean_stringify.
    + split; [easy|]. now intros [? ?].
    + intros _. pose proof (clean_body an b) as Hb. revert Hb. apply Forall_impl. intros t [Ht|Ht].
      * apply is_arg_token_iff in Ht. rewrite Ht. now left.
      * destruct (is_arg_token t); [now left|easy].
  - destruct (sm_get (var_macros ms) id) as [b|]; [|easy].
    unfold expand_var_macro_body. destruct (contains_var_args (tokenize [] b)) eqn:Ec; [easy|].
    apply (concat_and_rescan_P True ordinary_or_comment); auto using clean_concat.
    apply clean_place. apply clean_object. now apply contains_var_args_In.
Qed.
End Rec.

Lemma expansion_sound fuel : forall hide l, clean l -> expand_macro_body ms fuel hide l <> RFuel ->
  expansion' hide l (expand_macro_body ms fuel hide l).
Proof.
  induction fuel as [|f IH]; intros hide l Hl Hr; [now destruct Hr|]. simpl in Hr |- *.
  destruct (scan_leftmost (expand_macro_body ms f) hide l []) as [[Hn E]|(pre & id & d & args & post & Hlm & Hm & E)].
  - rewrite E. simpl. now apply xp_done.
  - rewrite E in Hr |- *. cbn [rev app] in Hr |- *.
    pose proof Hlm as (text & -> & Hi & _).
    apply Forall_app in Hl. destruct Hl as [Hpre Htext].
    assert (Hd : ~ In id hide /\ (function_like d -> args <> []) /\ Forall clean args /\ clean post).
    { inversion Hi; subst.
      - inversion Htext; subst. repeat split; auto. intros Hf. now destruct (Hf b).
      - match goal with h : call_text _ _ _ |- _ => pose proof h as Hct end.
        inversion Htext; subst. apply collect_args_iff in Hct as Hca.
        destruct (collect_args_Forall ordinary_or_comment _ _ _ Hca) as [Hca1 Hca2]; [easy|].
        repeat split; auto. intros _. apply Hct. }
    destruct Hd as (Hn & Hne & Hargs & Hpost).
    assert (Hc : forall hide l, clean l -> sat True clean (expand_macro_body ms f hide l)) by (intros; now apply expand_macro_body_clean).
    pose proof (replacement_sound (expand_macro_body ms f) Hc IH hide id d args Hn Hm Hne Hargs) as Hs.
    pose proof (replacement_clean (expand_macro_body ms f) Hc hide id d args Hm Hne Hargs) as Hec.
    destruct (replacement_of (expand_macro_body ms f) hide id args) as [e|e| |]; cbn [rbind] in *; try contradiction.
    + eapply xp_step; eauto. { apply Hs. discriminate. } apply IH; [|exact Hr].
      rewrite !Forall_app. repeat split; auto. apply Forall_forall. intros t Ht. apply in_map_iff in Ht.
      destruct Ht as (u & <- & Hu). rewrite Forall_forall in Hpre. specialize (Hpre u Hu). destruct Hpre as [H1 H2].
      rewrite mark_paint. split; rewrite paint_strip; auto. intros Hcm. specialize (H2 Hcm). destruct H2 as [s ->].
      simpl. now exists s.
    + eapply xp_fail; [exact Hlm|apply Hs; discriminate|now intros [? ?]].
    + eapply xp_fail; [exact Hlm|apply Hs; discriminate|now intros [? ?]].
Qed.

(** ** Completeness: every expansion of the specification is computed *)
Definition eventually {A} (X : nat -> res xerr A) (r : res xerr A) : Prop :=
  r <> RFuel /\ exists F, forall f, F <= f -> X f = r.

Lemma eventually_bind {A B} (X : nat -> res xerr A) (a : A) (K : nat -> A -> res xerr B) r :
  eventually X (ROk a) -> eventually (fun f => K f a) r -> eventually (fun f => x <- X f ;; K f x) r.
Proof.
  intros [_ [F HF]] [Hr [G HG]]. split; [easy|]. exists (F + G). intros f Hf.
  rewrite HF by lia. simpl. apply HG. lia.
Qed.

Lemma eventually_bind_fail {A B} (X : nat -> res xerr A) (p : res xerr A) (q : res xerr B) (K : nat -> A -> res xerr B) :
  eventually X p -> ~ succeeded p -> q = failed p -> eventually (fun f => x <- X f ;; K f x) q.
Proof.
  intros [Hp [F HF]] Hn ->. split.
  - destruct p; simpl; try easy. exfalso. apply Hn. now exists a.
  - exists F. intros f Hf. rewrite HF by lia. destruct p; try easy. exfalso. apply Hn. now exists a.
Qed.

Lemma eventually_const {A} (X : nat -> res xerr A) r : r <> RFuel -> (forall f, X f = r) -> eventually X r.
Proof. intros Hr HX. split; [easy|]. now exists 0. Qed.

Lemma eventually_ext {A} (X Y : nat -> res xerr A) r : (forall f, X f = Y f) -> eventually Y r -> eventually X r.
Proof. intros E [Hr [F HF]]. split; [easy|]. exists F. intros f Hf. rewrite E. now apply HF. Qed.

Lemma failed_id (p : res xerr (list token)) : ~ succeeded p -> p = failed p.
Proof. intros Hn. destruct p; try easy. exfalso. apply Hn. now exists a. Qed.

Notation rec_at f := (expand_macro_body ms f).

Lemma rec_clean f : forall hide l, clean l -> sat True clean (rec_at f hide l).
Proof. intros. now apply expand_macro_body_clean. Qed.

Lemma eventually_sat {A} (P : A -> Prop) X r : eventually X r -> (forall f, sat True P (X f)) -> sat True P r.
Proof. intros [_ [F HF]] Hs. rewrite <- (HF F (Nat.le_refl _)). apply Hs. Qed.

Lemma leftmost_facts hide l pre id d args post : leftmost (macro_of ms) hide l pre id d args post -> clean l ->
  ~ In id hide /\ macro_of ms id = Some d /\ (function_like d -> args <> []) /\ Forall clean args /\ clean pre /\ clean post.
Proof.
  intros (text & -> & Hi & _) Hl. apply Forall_app in Hl. destruct Hl as [Hpre Htext].
  inversion Hi; subst.
  - inversion Htext; subst. repeat split; auto. intros Hf. now destruct (Hf b).
  - match goal with h : call_text _ _ _ |- _ => pose proof h as Hct end.
    inversion Htext; subst. apply collect_args_iff in Hct as Hca.
    destruct (collect_args_Forall ordinary_or_comment _ _ _ Hca) as [Hca1 Hca2]; [easy|].
    repeat split; auto. intros _. apply Hct.
Qed.

Lemma clean_mark hide l : clean l -> clean (map (mark hide) l).
Proof.
  intros Hl. apply Forall_forall. intros t Ht. apply in_map_iff in Ht.
  destruct Ht as (u & <- & Hu). rewrite Forall_forall in Hl. specialize (Hl u Hu). destruct Hl as [H1 H2].
  rewrite mark_paint. split; rewrite paint_strip; auto. intros Hcm. specialize (H2 Hcm). destruct H2 as [s ->].
  simpl. now exists s.
Qed.

Definition clean_or_param (t : token) : Prop := parameter_token t \/ ordinary_or_comment t.

Lemma scan_no_invocation rec hide l acc : no_invocation (macro_of ms) hide l ->
  scan ms rec hide acc l = ROk (rev acc ++ map (mark hide) l).
Proof.
  intros Hn. destruct (scan_leftmost rec hide l acc) as [[_ E]|(pre & id & d & args & post & Hl & _)]; [easy|].
  now apply leftmost_some in Hl.
Qed.

Lemma scan_at_leftmost rec hide l pre id d args post : leftmost (macro_of ms) hide l pre id d args post ->
  scan ms rec hide [] l = (e <- replacement_of rec hide id args ;; rec hide (map (mark hide) pre ++ e ++ post)).
Proof.
  intros Hl. destruct (scan_leftmost rec hide l []) as [[Hn _]|(pre' & id' & d' & args' & post' & Hl' & _ & E)].
  - now apply leftmost_some in Hl.
  - destruct (leftmost_det _ _ _ _ _ _ _ _ _ _ _ _ Hl Hl') as (-> & -> & -> & -> & ->). exact E.
Qed.

Lemma sub_step (rec : list str -> list token -> res xerr (list token)) hide k args acc t it a : parameter_token t -> argument_of k args t = Some a ->
  expand_arguments_loop rec hide k args acc (t :: it) =
  if peek_is (is_punct (st "#")) acc then
    expand_arguments_loop rec hide k args (rev (stringify (Nat.ltb 1 (length hide)) a) ++ tl acc) it
  else if peek_is (is_punct (st "##")) acc || peek_is (is_punct (st "##")) it then
    e <- rec hide a ;; expand_arguments_loop rec hide k args (match e with [] => TPlacemarker :: acc | _ => rev e ++ acc end) it
  else e <- rec hide a ;; expand_arguments_loop rec hide k args (rev e ++ acc) it.
Proof.
  intros Ht Ha. cbn [expand_arguments_loop]. pose proof Ht as Ht2. apply is_arg_token_iff in Ht2.
  assert (E : is_punct (st "#") t = false) by now destruct t. now rewrite E, Ht2, Ha.
Qed.

Lemma expansion_complete :
  (forall hide l r, expansion' hide l r -> clean l -> eventually (fun f => rec_at f hide l) r) /\
  (forall hide id d args r, replaced' hide id d args r -> ~ In id hide -> macro_of ms id = Some d ->
     (function_like d -> args <> []) -> Forall clean args ->
     eventually (fun f => replacement_of (rec_at f) hide id args) r) /\
  (forall hide id b r, processed' hide id b r -> ~ In id hide -> clean b ->
     eventually (fun f => concat_and_rescan (rec_at f) hide id b) r) /\
  (forall hide k args out l r, substituted' hide k args out l r -> Forall clean args ->
     forall v : bool, (v = false -> ~ In TVarArgs l) ->
     eventually (fun f => expand_arguments_loop (rec_at f) hide (k + (if v then 1 else 0)) args (rev out) l) r).
Proof.
  apply expansion_ind'.
  - (* done *) intros hide l Hn Hl. split; [discriminate|]. exists 1. intros [|f] Hf; [lia|]. simpl.
    now apply scan_no_invocation.
  - (* step *) intros hide l pre id d args post e r Hlm _ IHr _ IHe Hl.
    destruct (leftmost_facts _ _ _ _ _ _ _ Hlm Hl) as (Hn & Hm & Hne & Hargs & Hpre & Hpost).
    specialize (IHr Hn Hm Hne Hargs).
    assert (He : clean e).
    { apply (eventually_sat clean) in IHr; [exact IHr|]. intros f. eapply replacement_clean; eauto using rec_clean. }
    assert (Hcl : clean (map (mark hide) pre ++ e ++ post)). { rewrite !Forall_app. auto using clean_mark. }
    specialize (IHe Hcl). 
    destruct (eventually_bind _ e (fun f x => rec_at f hide (map (mark hide) pre ++ x ++ post)) r IHr IHe) as [Hr [F HF]].
    split; [easy|]. exists (S F). intros [|f] Hf; [lia|]. simpl. rewrite (scan_at_leftmost _ _ _ _ _ _ _ _ Hlm).
    apply HF. lia.
  - (* fail *) intros hide l pre id d args post p Hlm _ IHr Hns Hl.
    destruct (leftmost_facts _ _ _ _ _ _ _ Hlm Hl) as (Hn & Hm & Hne & Hargs & Hpre & Hpost).
    specialize (IHr Hn Hm Hne Hargs).
    destruct (eventually_bind_fail _ p p (fun f x => rec_at f hide (map (mark hide) pre ++ x ++ post)) IHr Hns (failed_id _ Hns)) as [Hr [F HF]].
    split; [easy|]. exists (S F). intros [|f] Hf; [lia|]. simpl. rewrite (scan_at_leftmost _ _ _ _ _ _ _ _ Hlm).
    apply HF. lia.
  - (* object *) intros hide id b args r Hva _ IH Hn Hm _ _. unfold macro_of in Hm.
    destruct (sm_get (fn_macros ms) id) as [[ps bb]|] eqn:Ef. { destruct (tokenize_arg_names ps); discriminate. }
    destruct (sm_get (var_macros ms) id) as [b0|] eqn:Ev; [|discriminate]. simpl in Hm. injection Hm as <-.
    specialize (IH Hn (clean_object _ Hva)). eapply eventually_ext; [|exact IH]. intros f. unfold replacement_of.
    rewrite Ef, Ev. unfold expand_var_macro_body. apply contains_var_args_In in Hva. now rewrite Hva.
  - intros hide id b args Hva Hn Hm _ _. unfold macro_of in Hm.
    destruct (sm_get (fn_macros ms) id) as [[ps bb]|] eqn:Ef. { destruct (tokenize_arg_names ps); discriminate. }
    destruct (sm_get (var_macros ms) id) as [b0|] eqn:Ev; [|discriminate]. simpl in Hm. injection Hm as <-.
    apply eventually_const; [discriminate|]. intros f. unfold replacement_of. rewrite Ef, Ev. unfold expand_var_macro_body.
    apply contains_true in Hva. now rewrite Hva.
  - (* malformed *) intros hide id e args Hn Hm _ _. unfold macro_of in Hm.
    destruct (sm_get (fn_macros ms) id) as [[ps bb]|] eqn:Ef.
    2:{ destruct (sm_get (var_macros ms) id); discriminate. }
    apply eventually_const; [discriminate|]. intros f. unfold replacement_of. rewrite Ef.
    destruct (tokenize_arg_names_res ps) as [[an E]|[e' E]]; rewrite E in *; [discriminate|]. now injection Hm as <-.
  - (* va *) intros hide id k b args Hva Hn Hm Hne Hargs. unfold macro_of in Hm.
    destruct (sm_get (fn_macros ms) id) as [[ps bb]|] eqn:Ef.
    2:{ destruct (sm_get (var_macros ms) id); discriminate. }
    assert (Ha : args <> []) by (apply Hne; discriminate).
    destruct (tokenize_arg_names_res ps) as [[an E]|[e' E]]; rewrite E in *; [|discriminate]. injection Hm as <- Ev <-.
    apply eventually_const; [discriminate|]. intros f. unfold replacement_of. rewrite Ef, E. cbn [rbind].
    rewrite (expand_fn_macro_body_call _ _ _ ps) by easy. rewrite Ev. apply contains_true in Hva. now rewrite Hva.
  - (* count *) intros hide id k b args Hva Hac Hn Hm Hne Hargs. unfold macro_of in Hm.
    destruct (sm_get (fn_macros ms) id) as [[ps bb]|] eqn:Ef.
    2:{ destruct (sm_get (var_macros ms) id); discriminate. }
    assert (Ha : args <> []) by (apply Hne; discriminate).
    destruct (tokenize_arg_names_res ps) as [[an E]|[e' E]]; rewrite E in *; [|discriminate]. injection Hm as <- Ev <-.
    apply eventually_const; [discriminate|]. intros f. unfold replacement_of. rewrite Ef, E. cbn [rbind].
    rewrite (expand_fn_macro_body_call _ _ _ ps) by easy. rewrite Ev. apply contains_var_args_In in Hva. rewrite Hva. simpl.
    rewrite <- accepted_iff in Hac by easy. apply not_true_is_false in Hac. now rewrite Hac.
  - (* function *) intros hide id k v b args s r Hok _ IHs _ IHp Hn Hm Hne Hargs. unfold macro_of in Hm.
    destruct (sm_get (fn_macros ms) id) as [[ps bb]|] eqn:Ef.
    2:{ destruct (sm_get (var_macros ms) id); discriminate. }
    assert (Ha : args <> []) by (apply Hne; discriminate).
    destruct (tokenize_arg_names_res ps) as [[an E]|[e' E]]; rewrite E in *; [|discriminate]. injection Hm as <- Ev <-.
    specialize (IHs Hargs v (fun e => proj1 (Hok e))). simpl rev in IHs.
    assert (Hs : clean s).
    { apply (eventually_sat (Forall (orplace ordinary_or_comment))) in IHs; [now apply clean_place|]. intros f.
      apply (expand_arguments_loop_P True ordinary_or_comment); auto using clean_stringify, rec_clean.
      - split; [easy|]. now intros [? ?].
      - pose proof (clean_body an bb) as Hb. revert Hb. apply Forall_impl. intros t [Ht|Ht].
        + apply is_arg_token_iff in Ht. rewrite Ht. now left.
        + destruct (is_arg_token t); [now left|easy]. }
    specialize (IHp Hn Hs).
    pose proof (eventually_bind _ s (fun f x => concat_and_rescan (rec_at f) hide id x) r IHs IHp) as Hb.
    eapply eventually_ext; [|exact Hb]. intros f. cbv beta. unfold replacement_of. rewrite Ef, E. cbn [rbind].
    rewrite (expand_fn_macro_body_call _ _ _ ps) by easy. rewrite Ev.
    destruct v; [easy|]. destruct (Hok eq_refl) as [Hva Hac]. apply contains_var_args_In in Hva. rewrite Hva.
    apply accepted_iff in Hac; [|easy]. now rewrite Hac.
  - intros hide id k v b args p Hok _ IHs Hns Hn Hm Hne Hargs. unfold macro_of in Hm.
    destruct (sm_get (fn_macros ms) id) as [[ps bb]|] eqn:Ef.
    2:{ destruct (sm_get (var_macros ms) id); discriminate. }
    assert (Ha : args <> []) by (apply Hne; discriminate).
    destruct (tokenize_arg_names_res ps) as [[an E]|[e' E]]; rewrite E in *; [|discriminate]. injection Hm as <- Ev <-.
    specialize (IHs Hargs v (fun e => proj1 (Hok e))). simpl rev in IHs.
    pose proof (eventually_bind_fail _ p p (fun f x => concat_and_rescan (rec_at f) hide id x) IHs Hns (failed_id _ Hns)) as Hb.
    eapply eventually_ext; [|exact Hb]. intros f. cbv beta. unfold replacement_of. rewrite Ef, E. cbn [rbind].
    rewrite (expand_fn_macro_body_call _ _ _ ps) by easy. rewrite Ev.
    destruct v; [easy|]. destruct (Hok eq_refl) as [Hva Hac]. apply contains_var_args_In in Hva. rewrite Hva.
    apply accepted_iff in Hac; [|easy]. now rewrite Hac.
  - (* rescan *) intros hide id b c r Hp _ IH Hn Hb. apply (expand_concat_iff b _ Hb) in Hp.
    pose proof (concat_loop_P True ordinary_or_comment clean_concat b (proj2 (clean_place b) Hb) None [] (Forall_nil _)) as Hc.
    change (concat_loop None [] b) with (expand_concat b) in Hc. rewrite Hp in Hc.
    assert (Hrc : clean (filter (fun t => negb (is_placeholder t)) c)).
    { change (filter (fun t => negb (is_placeholder t)) c) with (remove_placemarkers c).
      apply remove_placemarkers_P. apply Hc. discriminate. }
    eapply eventually_ext; [|exact (IH Hrc)]. intros f. cbv beta. unfold concat_and_rescan. rewrite Hp. simpl.
    unfold set_insert. assert (E : str_mem id hide = false) by now apply str_mem_not_In. now rewrite E.
  - intros hide id b p Hp Hns Hn Hb. destruct (pasted_total (S (length b)) b) as (r0 & Hr0 & Hne); auto.
    apply (expand_concat_iff b _ Hb) in Hp. apply (expand_concat_iff b _ Hb) in Hr0.
    assert (Hf : p <> RFuel) by congruence.
    apply eventually_const; [easy|]. intros f. unfold concat_and_rescan. rewrite Hp. destruct p; try easy.
    exfalso. apply Hns. now exists a.
  - (* end *) intros hide k args out Hargs v _. apply eventually_const; [discriminate|]. intros f. simpl.
    now rewrite rev_involutive.
  - (* keep *) intros hide k args out t l r Hp Hh _ IH Hargs v Hv.
    eapply eventually_ext; [|apply (IH Hargs v)].
    + intros f. cbv beta. rewrite rev_app_distr. cbn [rev app expand_arguments_loop].
      assert (E1 : is_punct (st "#") t = false). { destruct (is_punct (st "#") t) eqn:E; [|easy]. now apply hash_is in E. }
      assert (E2 : is_arg_token t = false). { destruct (is_arg_token t) eqn:E; [|easy]. now apply is_arg_token_iff in E. }
      now rewrite E1, E2.
    + intros E Hi. apply (Hv E). now right.
  - (* stringify *) intros hide k args out t a l r Hp Ha _ IH Hargs v Hv.
    assert (Hv' : v = false -> ~ In TVarArgs l) by (intros E Hi; apply (Hv E); now right; right).
    eapply eventually_ext; [|apply (IH Hargs v Hv')].
    intros f. cbv beta. rewrite rev_app_distr. change (hash :: t :: l) with ([hash] ++ t :: l). cbn [app].
    transitivity (expand_arguments_loop (rec_at f) hide (k + (if v then 1 else 0)) args (hash :: rev out) (t :: l)).
    { cbn [expand_arguments_loop]. change (is_punct (st "#") hash) with true. cbv iota. cbn [peek_is].
      pose proof Hp as Hp2. apply is_arg_token_iff in Hp2. now rewrite Hp2. }
    rewrite (sub_step _ _ _ _ _ _ _ a) by (easy || (rewrite argument_of_for; [easy|easy|]; intros ->; destruct v; [easy|]; exfalso; apply (Hv eq_refl); now right; left)).
    reflexivity.
  - intros hide k args out t l Hp Ha Hargs v Hv. apply eventually_const; [discriminate|]. intros f.
    cbn [expand_arguments_loop]. change (is_punct (st "#") hash) with true. cbv iota. cbn [peek_is].
    pose proof Hp as Hp2. apply is_arg_token_iff in Hp2. rewrite Hp2.
    assert (E1 : is_punct (st "#") t = false) by now destruct t. rewrite E1.
    rewrite argument_of_for; [now rewrite Ha|easy|]. intros ->. destruct v; [easy|]. exfalso. apply (Hv eq_refl). now right; left.
  - intros hide k args out l Hn Hargs v Hv. apply eventually_const; [discriminate|]. intros f.
    cbn [expand_arguments_loop]. change (is_punct (st "#") hash) with true. cbv iota.
    destruct l as [|t l]; [easy|]. cbn [peek_is]. destruct (is_arg_token t) eqn:E; [|easy].
    apply is_arg_token_iff in E. exfalso. apply (Hn t E). now exists l.
  - (* stray *) intros hide k args out t a l r Hp Ha _ IH Hargs v Hv.
    assert (Hv' : v = false -> ~ In TVarArgs l) by (intros E Hi; apply (Hv E); now right).
    eapply eventually_ext; [|apply (IH Hargs v Hv')].
    intros f. cbv beta. rewrite !rev_app_distr.
    rewrite (sub_step _ _ _ _ _ _ _ a) by (easy || (rewrite argument_of_for; [easy|easy|]; intros ->; destruct v; [easy|]; exfalso; apply (Hv eq_refl); now left)).
    reflexivity.
  - (* argument *) intros hide k args out t a e l r Hp Ha H1 H2 H3 _ IHe _ IH Hargs v Hv.
    assert (Hv' : v = false -> ~ In TVarArgs l) by (intros E Hi; apply (Hv E); now right).
    assert (Hao : argument_of (k + (if v then 1 else 0)) args t = Some a).
    { rewrite argument_of_for; [easy|easy|]. intros ->. destruct v; [easy|]. exfalso. apply (Hv eq_refl). now left. }
    assert (Hac : clean a). { eapply (argument_of_Forall ordinary_or_comment); eauto. split; [easy|]. now intros [? ?]. }
    pose proof (eventually_bind _ e (fun f x => expand_arguments_loop (rec_at f) hide (k + (if v then 1 else 0)) args (rev x ++ rev out) l) r (IHe Hac)) as Hb.
    eapply eventually_ext; [|apply Hb].
    + intros f. cbv beta. rewrite (sub_step _ _ _ _ _ _ _ a) by easy.
      assert (E1 : peek_is (is_punct (st "#")) (rev out) = false).
      { apply not_true_is_false. rewrite <- ends_with_rev. now rewrite rev_involutive. }
      assert (E2 : peek_is (is_punct (st "##")) (rev out) = false).
      { apply not_true_is_false. rewrite <- ends_with_rev. now rewrite rev_involutive. }
      assert (E3 : peek_is (is_punct (st "##")) l = false).
      { apply not_true_is_false. now rewrite <- starts_with_peek. }
      now rewrite E1, E2, E3.
    + eapply eventually_ext; [|apply (IH Hargs v Hv')]. intros f. cbv beta. now rewrite rev_app_distr.
  - (* operand *) intros hide k args out t a e l r Hp Ha H1 H2 _ IHe _ IH Hargs v Hv.
    assert (Hv' : v = false -> ~ In TVarArgs l) by (intros E Hi; apply (Hv E); now right).
    assert (Hao : argument_of (k + (if v then 1 else 0)) args t = Some a).
    { rewrite argument_of_for; [easy|easy|]. intros ->. destruct v; [easy|]. exfalso. apply (Hv eq_refl). now left. }
    assert (Hac : clean a). { eapply (argument_of_Forall ordinary_or_comment); eauto. split; [easy|]. now intros [? ?]. }
    pose proof (eventually_bind _ e (fun f x => expand_arguments_loop (rec_at f) hide (k + (if v then 1 else 0)) args
      (match x with [] => TPlacemarker :: rev out | _ => rev x ++ rev out end) l) r (IHe Hac)) as Hb.
    eapply eventually_ext; [|apply Hb].
    + intros f. cbv beta. rewrite (sub_step _ _ _ _ _ _ _ a) by easy.
      assert (E1 : peek_is (is_punct (st "#")) (rev out) = false).
      { apply not_true_is_false. rewrite <- ends_with_rev. now rewrite rev_involutive. }
      assert (E2 : peek_is (is_punct (st "##")) (rev out) || peek_is (is_punct (st "##")) l = true).
      { apply orb_true_iff. destruct H2 as [H2|H2]; [left|right; now apply starts_with_peek].
        apply ends_with_rev. now rewrite rev_involutive. }
      now rewrite E1, E2.
    + eapply eventually_ext; [|apply (IH Hargs v Hv')]. intros f. cbv beta. rewrite rev_app_distr. now destruct e.
  - (* argument fails *) intros hide k args out t a p l Hp Ha H1 _ IHe Hns Hargs v Hv.
    assert (Hao : argument_of (k + (if v then 1 else 0)) args t = Some a).
    { rewrite argument_of_for; [easy|easy|]. intros ->. destruct v; [easy|]. exfalso. apply (Hv eq_refl). now left. }
    assert (Hac : clean a). { eapply (argument_of_Forall ordinary_or_comment); eauto. split; [easy|]. now intros [? ?]. }
    assert (E1 : peek_is (is_punct (st "#")) (rev out) = false).
    { apply not_true_is_false. rewrite <- ends_with_rev. now rewrite rev_involutive. }
    destruct (IHe Hac) as [Hne [F HF]]. split; [easy|]. exists F. intros f Hf.
    rewrite (sub_step _ _ _ _ _ _ _ a) by easy. rewrite E1, (HF f Hf).
    destruct p; try (now destruct (_ || _)). exfalso. apply Hns. now exists a0.
  - intros hide k args out t l Hp Ha Hargs v Hv. apply eventually_const; [discriminate|]. intros f.
    cbn [expand_arguments_loop]. pose proof Hp as Hp2. apply is_arg_token_iff in Hp2. rewrite Hp2.
    assert (E1 : is_punct (st "#") t = false) by now destruct t. rewrite E1.
    rewrite argument_of_for; [now rewrite Ha|easy|]. intros ->. destruct v; [easy|]. exfalso. apply (Hv eq_refl). now left.
Qed.

(** The two together. *)
Lemma expansion_iff hide l r : clean l ->
  (expansion' hide l r <-> eventually (fun f => expand_macro_body ms f hide l) r).
Proof.
  intros Hl. split.
  - intros Hx. now apply expansion_complete.
  - intros [Hr [F HF]]. rewrite <- (HF F (Nat.le_refl _)). apply expansion_sound; [easy|]. now rewrite HF.
Qed.
End S.
