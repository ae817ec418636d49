(** Token invariants: predicates closed under pasting hold of all tokens of a
    result. *)
From Verif Require Import Base Utf Lex LexFloat Token MacroSet StrFacts LexFacts SpecCall CallFacts
  ExpandFacts ExpandInv.
From Coq Require Import String List.
Local Open Scope list_scope.

Lemma strip_nr_idem t : strip_nr (strip_nr t) = strip_nr t.
Proof. induction t; simpl; auto. Qed.

Definition no_nr (t : token) : Prop := forall u, t <> TNonRepl u.
Lemma strip_nr_no t : no_nr (strip_nr t).
Proof. induction t; simpl; try exact IHt; intros u; discriminate. Qed.
Lemma strip_nr_same t : no_nr t -> strip_nr t = t.
Proof. intros Ht. destruct t; try easy. now destruct (Ht t). Qed.

(** [Q] holds of the token inside any [NonReplacable] wrappers. *)
Definition thru (Q : token -> Prop) (t : token) : Prop := Q (strip_nr t).

Section S.
Context `{Unicode}.

(** What [concat_stripped] can produce, as a closure condition. *)
Lemma concat_stripped_cases (Q : token -> Prop) a b r :
  Q a -> Q b -> concat_stripped a b = ROk r ->
  (forall x y, a = TIdent x -> (b = TIdent y \/ b = TIdCont y \/ exists i, b = TLit (LInt i) y) ->
     Q (TIdent (x ++ y))) ->
  (forall x y p, a = TPunct x -> b = TPunct y -> punct_concat x y = Some p -> Q (TNonRepl (TPunct p))) ->
  (forall s l, lit_try_from s = Some l -> Q (TLit l s)) ->
  (forall s id, identifier_try_from s = Some id -> Q (TIdent id)) ->
  (forall s c, identifier_continue_try_from s = Some c -> Q (TIdCont c)) ->
  (forall x y, textual a = Some x -> textual b = Some y -> reclassify (x ++ y) = TPlain (x ++ y) -> Q (TPlain (x ++ y))) ->
  Q r.
Proof.
  intros Ha Hb Hr Hid Hp Hl Hi Hc Hpl.
  assert (Hre : forall x y, textual a = Some x -> textual b = Some y -> Q (reclassify (x ++ y))).
  { intros x y Hx Hy. specialize (Hpl x y Hx Hy). unfold reclassify in *.
    destruct (identifier_try_from _) eqn:E1; [eauto|]. destruct (lit_try_from _) eqn:E2; [eauto|].
    destruct (identifier_continue_try_from _) eqn:E3; eauto. }
  destruct a as [t0|i0| |p0|id0|s0|l0 s0|s0|c0|], b as [t1|i1| |p1|id1|s1|l1 s1|s1|c1|];
    simpl in Hr; try discriminate;
    repeat match type of Hr with
    | (match ?x with _ => _ end) = _ => let E := fresh "E" in destruct x eqn:E; try discriminate
    | (if ?x then _ else _) = _ => let E := fresh "E" in destruct x eqn:E; try discriminate
    end;
    inversion Hr; subst; eauto 6.
Qed.

(** Closure of [Q] under pasting, for operands without wrappers. *)
Record paste_closed (Q : token -> Prop) : Prop := {
  pc_ident : forall x b y, Q (TIdent x) -> Q b ->
    (b = TIdent y \/ b = TIdCont y \/ exists i, b = TLit (LInt i) y) -> Q (TIdent (x ++ y));
  pc_punct : forall x y p, Q (TPunct x) -> Q (TPunct y) -> punct_concat x y = Some p -> Q (TPunct p);
  pc_lit : forall s l, lit_try_from s = Some l -> Q (TLit l s);
  pc_id : forall s id, identifier_try_from s = Some id -> Q (TIdent id);
  pc_cont : forall s c, identifier_continue_try_from s = Some c -> Q (TIdCont c);
  pc_plain : forall a b x y, Q a -> Q b -> textual a = Some x -> textual b = Some y ->
    reclassify (x ++ y) = TPlain (x ++ y) -> Q (TPlain (x ++ y))
}.

Lemma concat_result_shape a b r : no_nr a -> no_nr b -> concat_stripped a b = ROk r ->
  no_nr r \/ exists p, r = TNonRepl (TPunct p).
Proof.
  intros Ha Hb Hr.
  apply (concat_stripped_cases (fun t => no_nr t \/ exists p, t = TNonRepl (TPunct p)) a b r); auto;
    try (intros; left; intros u; discriminate); eauto.
Qed.

Lemma paste_closed_concat Q a b :
  paste_closed Q -> orplace (thru Q) a -> orplace (thru Q) b -> sat True (orplace (thru Q)) (token_concat a b).
Proof.
  intros HQ Ha Hb. destruct (token_concat a b) as [r|e| |] eqn:Hr; try easy. simpl. unfold token_concat in Hr.
  assert (Hn : forall t, orplace (thru Q) t -> Q (strip_nr t) \/ strip_nr t = TPlacemarker).
  { intros t [Ht|Ht]; [now left|]. subst. now right. }
  apply Hn in Ha. apply Hn in Hb. clear Hn.
  pose proof (strip_nr_no a) as Hna. pose proof (strip_nr_no b) as Hnb.
  revert Ha Hb Hr Hna Hnb. generalize (strip_nr a) (strip_nr b). clear a b. intros a b Ha Hb Hr Hna Hnb.
  assert (Hshape := concat_result_shape _ _ _ Hna Hnb Hr).
  assert (Hgoal : Q (strip_nr r) \/ strip_nr r = TPlacemarker).
  { destruct HQ. apply (concat_stripped_cases (fun t => Q (strip_nr t) \/ strip_nr t = TPlacemarker) a b r); auto;
      try (rewrite strip_nr_same; auto); simpl.
    - intros x y -> Hy. left. destruct Ha as [Ha|]; [|discriminate].
      destruct Hb as [Hb|Hb]; [|exfalso; subst; destruct Hy as [?|[?|[i ?]]]; discriminate].
      exact (pc_ident0 x b y Ha Hb Hy).
    - intros x y p -> -> Hp. left. destruct Ha as [Ha|]; [|discriminate]. destruct Hb as [Hb|]; [|discriminate].
      exact (pc_punct0 x y p Ha Hb Hp).
    - intros. left. auto.
    - intros. left. eauto.
    - intros. left. eauto.
    - intros x y Hx Hy Hre. left. destruct Ha as [Ha|]; [|subst; discriminate].
      destruct Hb as [Hb|]; [|subst; discriminate]. exact (pc_plain0 a b x y Ha Hb Hx Hy Hre). }
  destruct Hgoal as [Hg|Hg]; [now left|]. right.
  destruct Hshape as [Hs|[p ->]]; [|discriminate]. now rewrite strip_nr_same in Hg.
Qed.

(** Closure under everything else. *)
Record expand_closed (Q : token -> Prop) : Prop := {
  ec_paste : paste_closed Q;
  ec_string : forall s sp, Q (TLit (LString (SOrdinary s)) sp);
  ec_punct : forall p, Q (TPunct p)
}.

Lemma stringify_P (P : token -> Prop) nested arg :
  (forall s sp, P (TLit (LString (SOrdinary s)) sp)) -> P (TPunct (st "#")) ->
  Forall P arg -> Forall P (stringify nested arg).
Proof.
  intros Hs Hh Harg. unfold stringify.
  assert (Hk : forall l kept cur sp, Forall P l -> Forall P kept ->
    Forall P (fst (stringify_loop nested kept cur sp l))).
  { induction l as [|t l IH]; intros kept cur sp Hl Hkept; simpl; [easy|].
    inversion Hl; subst. destruct (token_stringify nested t); auto. }
  specialize (Hk arg [] None false Harg (Forall_nil _)).
  destruct (stringify_loop _ _ _ _ _) as [kept cur]. simpl in Hk. apply Forall_rev in Hk.
  assert (Ht : Forall P (rev kept ++ match cur with
     | Some s => [TLit (LString (SOrdinary (utf8_encode s))) (debug_str s)] | None => [] end)).
  { apply Forall_app. split; [easy|]. destruct cur; repeat constructor. apply Hs. }
  destruct (_ ++ _); [repeat constructor; apply Hs|exact Ht].
Qed.

(** Body tokens other than parameters come from their spelling. *)
Lemma tokenize_nil b : tokenize [] b = map from_str b.
Proof. reflexivity. Qed.

Lemma from_str_cases (Q : token -> Prop) s :
  (s = st "__VA_ARGS__" -> Q TVarArgs) ->
  (forall id, identifier_try_from s = Some id -> Q (TIdent id)) ->
  (forall l, lit_try_from s = Some l -> Q (TLit l s)) ->
  (forall c, identifier_continue_try_from s = Some c -> Q (TIdCont c)) ->
  (forall p, punct_try_from s = Some p -> Q (TPunct p)) ->
  (forall c, comment_try_from s = Some c -> Q (TComment c)) ->
  (from_str s = TPlain s -> identifier_try_from s = None -> lit_try_from s = None ->
   identifier_continue_try_from s = None -> Q (TPlain s)) ->
  Q (from_str s).
Proof.
  intros. unfold from_str in *. destruct (str_eqb_spec s (st "__VA_ARGS__")); [auto|].
  destruct (identifier_try_from s); auto. destruct (lit_try_from s); auto.
  destruct (identifier_continue_try_from s); auto. destruct (punct_try_from s); auto.
  destruct (comment_try_from s); auto.
Qed.

Lemma from_str_no_nr s : no_nr (from_str s).
Proof. apply from_str_cases; intros; intros u; discriminate. Qed.

Lemma from_str_not_arg s i : from_str s <> TArg i.
Proof.
  apply (from_str_cases (fun t => t <> TArg i)); intros; discriminate.
Qed.

Lemma from_str_var_args s : from_str s = TVarArgs <-> s = st "__VA_ARGS__".
Proof.
  split; [|now intros ->].
  apply (from_str_cases (fun t => t = TVarArgs -> s = st "__VA_ARGS__")); intros; easy.
Qed.

(** The parameter names, in order, comments dropped. *)
Definition param_names (an : list token) : list str := MacroSet.filter_map param_name (drop_comments an).

Lemma arg_position_spec t an : forall k i, arg_position t k an = Some i ->
  (k <= i)%nat /\ nth_error (param_names an) (i - k) = Some t.
Proof.
  unfold param_names. induction an as [|a an IH]; intros k i; simpl; [discriminate|].
  destruct a; simpl; try apply IH.
  - intros E. apply IH in E. destruct E as [Hle E]. split; [lia|].
    replace (i - k)%nat with (S (i - S k)) by lia. exact E.
  - destruct (str_eqb_spec id t) as [->|Hn].
    + intros E. inversion E; subst. split; [lia|]. now rewrite Nat.sub_diag.
    + intros E. apply IH in E. destruct E as [Hle E]. split; [lia|].
      replace (i - k)%nat with (S (i - S k)) by lia. exact E.
Qed.

Lemma arg_position_ident t an : forall k i, arg_position t k an = Some i -> In (TIdent t) an.
Proof.
  induction an as [|a an IH]; intros k i; simpl; [discriminate|].
  destruct a; simpl; try (intros E; right; eapply IH; exact E).
  destruct (str_eqb_spec id t) as [->|Hn]; [now left|]. intros E. right. eapply IH; exact E.
Qed.

Lemma tokenize_in an b t : In t (tokenize an b) ->
  exists s, In s b /\ ((exists i, t = TArg i /\ nth_error (param_names an) i = Some s /\ In (TIdent s) an) \/
                        t = from_str s).
Proof.
  unfold tokenize. rewrite in_map_iff. intros (s & Ht & Hs). exists s. split; [easy|].
  destruct (arg_position s 0 an) as [i|] eqn:E.
  - left. exists i. pose proof (arg_position_ident _ _ _ _ E).
    apply arg_position_spec in E. rewrite Nat.sub_0_r in E. now repeat split.
  - now right.
Qed.

Lemma contains_var_args_In b : contains_var_args b = false <-> ~ In TVarArgs b.
Proof.
  unfold contains_var_args. split.
  - intros He Hin. assert (existsb is_var_args b = true); [|congruence].
    apply existsb_exists. now exists TVarArgs.
  - intros Hn. destruct (existsb is_var_args b) eqn:E; [|easy]. apply existsb_exists in E.
    destruct E as (t & Ht & Hv). destruct t; try discriminate. contradiction.
Qed.

(** Results of expansion for predicates closed under everything, which hold of
    all ordinary spellings. *)
Section Results.
Variable ms : macro_set.
Variable Q : token -> Prop.
Hypothesis HQ : expand_closed Q.
Hypothesis Hspell : forall s, s <> st "__VA_ARGS__" -> Q (from_str s).

Lemma spelled_thru s : s <> st "__VA_ARGS__" -> thru Q (from_str s).
Proof. intros Hs. unfold thru. rewrite strip_nr_same by apply from_str_no_nr. auto. Qed.

Lemma body_closed an b t : In t (tokenize an b) -> is_arg_token t = false -> thru Q t.
Proof.
  intros Ht Ha. apply tokenize_in in Ht. destruct Ht as (s & Hs & [(i & -> & _) | ->]); [discriminate|].
  apply spelled_thru. intros E. apply from_str_var_args in E. rewrite E in Ha. discriminate.
Qed.

Lemma var_body_closed b : contains_var_args (tokenize [] b) = false -> Forall (thru Q) (tokenize [] b).
Proof.
  intros Hc. rewrite contains_var_args_In in Hc. apply Forall_forall. intros t Ht.
  pose proof Ht as Ht'. apply tokenize_in in Ht'. destruct Ht' as (s & Hs & [(i & -> & Hn) | ->]).
  - destruct Hn as [_ []].
  - apply spelled_thru. intros E. apply from_str_var_args in E. congruence.
Qed.

Let Hpaint : forall id, thru Q (TIdent id) -> thru Q (TNonRepl (TIdent id)) := fun id Hid => Hid.
Let Hconcat := fun a b => paste_closed_concat Q a b (ec_paste _ HQ).
Lemma stringify_closed n arg : Forall (thru Q) arg -> Forall (thru Q) (stringify n arg).
Proof. apply stringify_P; [intros; apply (ec_string _ HQ)|apply (ec_punct _ HQ)]. Qed.
Lemma fn_body_closed n p b an : sm_get (fn_macros ms) n = Some (p, b) -> tokenize_arg_names p = ROk an ->
  forall args, args <> [] -> arity_passed (drop_comments an) args ->
  Forall (fun t => if is_arg_token t then True \/ argument_of (length (drop_comments an)) args t <> None
                   else thru Q t) (tokenize an b).
Proof.
  intros _ _ args _ _. apply Forall_forall. intros t Ht. destruct (is_arg_token t) eqn:E; [now left|].
  eapply body_closed; eauto.
Qed.

Lemma macro_body_result fuel names b out :
  Forall (thru Q) b -> expand_macro_body ms fuel names b = ROk out -> Forall (thru Q) out.
Proof.
  intros Hb Ho.
  pose proof (expand_macro_body_P ms True (thru Q) Hpaint Hconcat stringify_closed (ec_punct _ HQ _)
    (fun n b _ => var_body_closed b) fn_body_closed fuel names b Hb) as Hs.
  now rewrite Ho in Hs.
Qed.

Lemma var_macro_body_result fuel names name b out :
  expand_var_macro_body (expand_macro_body ms fuel) names name (tokenize [] b) = ROk out -> Forall (thru Q) out.
Proof.
  intros Ho.
  pose proof (expand_var_macro_body_P ms True (thru Q) Hpaint Hconcat stringify_closed (ec_punct _ HQ _)
    (fun n b _ => var_body_closed b) fn_body_closed fuel names name (tokenize [] b) (var_body_closed b)) as Hs.
  now rewrite Ho in Hs.
Qed.

Lemma fn_macro_body_result fuel names name an b out :
  (forall t, In t (tokenize an b) -> is_arg_token t = true ->
     (t = TVarArgs -> is_variadic (drop_comments an) = true) -> Q t) ->
  expand_fn_macro_body (expand_macro_body ms fuel) names name an None (tokenize an b) = ROk out ->
  Forall (thru Q) out.
Proof.
  intros Hargs Ho.
  assert (Hb : forall t, In t (tokenize an b) -> (t = TVarArgs -> is_variadic (drop_comments an) = true) -> thru Q t).
  { intros t Ht Hv. destruct (is_arg_token t) eqn:E; [|eapply body_closed; eauto].
    unfold thru. rewrite strip_nr_same by (intros u ->; discriminate). now apply Hargs. }
  pose proof (expand_fn_macro_body_def_P ms True (thru Q) Hpaint Hconcat stringify_closed (ec_punct _ HQ _)
    (fun n b _ => var_body_closed b) fn_body_closed fuel names name an (tokenize an b)) as Hs.
  rewrite Ho in Hs. apply Hs.
  - intros _ Hc. rewrite contains_var_args_In in Hc. apply Forall_forall. intros t Ht. apply Hb; [easy|].
    intros ->. contradiction.
  - intros Hv. apply Forall_forall. intros t Ht. now apply Hb.
Qed.
End Results.

(** ** Instances *)

(** Well-formed identifiers (and what can be glued to them). *)
Definition idents_ok (t : token) : Prop :=
  match t with
  | TIdent id => is_identifier id = true
  | TIdCont c => c <> [] /\ forallb is_xid_continue c = true
  | TLit (LInt _) s => forallb is_xid_continue s = true
  | _ => True
  end.

Lemma int_continue s i : lit_try_from s = Some (LInt i) -> forallb is_xid_continue s = true.
Proof. intros Hl. apply lit_int_alnum in Hl. now apply (forallb_impl is_alnum); [apply alnum_continue|]. Qed.

Lemma idents_ok_closed : expand_closed idents_ok.
Proof.
  split; [split|..]; simpl; try easy.
  - intros x b y Hx Hb Hy. apply identifier_app; [exact Hx|].
    destruct Hy as [->|[->|[i ->]]]; simpl in Hb; [now apply identifier_all_continue|apply Hb|exact Hb].
  - intros s l Hl. destruct l; try easy. eapply int_continue; eauto.
  - intros s id. apply identifier_try_from_ok.
  - intros s c. apply identifier_continue_try_from_ok.
Qed.

Lemma idents_ok_spell s : idents_ok (from_str s).
Proof.
  apply from_str_cases; simpl; try easy.
  - intros id. apply identifier_try_from_ok.
  - intros l Hl. destruct l; try easy. eapply int_continue; eauto.
  - intros c. apply identifier_continue_try_from_ok.
Qed.

(** No placemarkers. *)
Definition not_place (t : token) : Prop := t <> TPlacemarker.
Lemma not_place_closed : expand_closed not_place.
Proof. split; [split|..]; unfold not_place; try easy. Qed.
Lemma not_place_spell s : not_place (from_str s).
Proof. apply from_str_cases; unfold not_place; easy. Qed.

(** No macro arguments. *)
Definition not_arg (t : token) : Prop := is_arg_token t = false.
Lemma not_arg_closed : expand_closed not_arg.
Proof. split; [split|..]; unfold not_arg; easy. Qed.
Lemma not_arg_spell s : s <> st "__VA_ARGS__" -> not_arg (from_str s).
Proof. intros Hs. apply from_str_cases; unfold not_arg; easy. Qed.

(** Plain tokens are not spelled like an identifier, a literal, ... *)
Definition plain_ok (t : token) : Prop :=
  match t with
  | TPlain s => identifier_try_from s = None /\ lit_try_from s = None /\ identifier_continue_try_from s = None
  | _ => True
  end.
Lemma plain_ok_closed : expand_closed plain_ok.
Proof.
  split; [split|..]; simpl; try easy. intros _ _ x y _ _ _ _. unfold reclassify.
  destruct (identifier_try_from _); [discriminate|]. destruct (lit_try_from _); [discriminate|].
  destruct (identifier_continue_try_from _); [discriminate|easy].
Qed.
Lemma plain_ok_spell s : plain_ok (from_str s).
Proof. apply from_str_cases; simpl; easy. Qed.

(** ** Leaving the expansion *)
Fixpoint shows (k : nat) (t : token) : option mtoken :=
  match t with
  | TNonRepl t => shows k t
  | TArg i => Some (MArg i)
  | TVarArgs => match k with O => None | S n => Some (MArg n) end
  | TIdent id => Some (MIdent id)
  | TIdCont s => Some (MIdCont s)
  | TLit l _ => Some (MLit l)
  | TPunct p => Some (MPunct p)
  | TComment c => Some (MComment c)
  | TPlain _ | TPlacemarker => None
  end.

Lemma token_detokenize_ok k t m : token_detokenize k t = ROk (Some m) <-> shows k t = Some m.
Proof.
  induction t; simpl; auto; try (split; intros E; inversion E; subst; easy).
  destruct k; split; intros E; inversion E; subst; easy.
Qed.

Lemma token_detokenize_none k t : token_detokenize k t = ROk None <-> strip_nr t = TPlacemarker.
Proof.
  induction t; simpl; auto; try (split; intros E; inversion E; subst; easy).
  destruct k; split; intros E; inversion E; subst; easy.
Qed.

Lemma detokenize_ok k toks out : Forall (thru not_place) toks -> detokenize k toks = ROk out ->
  Forall2 (fun t m => shows k t = Some m) toks out.
Proof.
  revert out. induction toks as [|t toks IH]; simpl; intros out Hp Hd.
  - inversion Hd; subst. constructor.
  - inversion Hp; subst. destruct (token_detokenize k t) as [o|e| |] eqn:E; try discriminate. simpl in Hd.
    destruct (detokenize k toks) as [r|e| |]; try discriminate. simpl in Hd. destruct o as [m|].
    + inversion Hd; subst. apply token_detokenize_ok in E. constructor; auto.
    + apply token_detokenize_none in E. contradiction.
Qed.

(** The first token that has no meaning decides. *)
Lemma detokenize_err k toks e : detokenize k toks = RErr e ->
  exists pre t s post, toks = pre ++ t :: post /\ strip_nr t = TPlain s /\ e = InvalidToken s /\
    Forall (fun t => forall s, strip_nr t <> TPlain s) pre.
Proof.
  assert (Hp : forall t, match token_detokenize k t with
                         | RErr e => exists s, strip_nr t = TPlain s /\ e = InvalidToken s
                         | _ => forall s, strip_nr t <> TPlain s end).
  { induction t; simpl; auto; try (intros; discriminate). - destruct k; intros; discriminate. - eauto. }
  revert e. induction toks as [|t toks IH]; simpl; intros e Hd; [discriminate|].
  specialize (Hp t). destruct (token_detokenize k t) as [o|e'| |]; try discriminate; simpl in Hd.
  - destruct (detokenize k toks) as [r|e'| |] eqn:E; try discriminate. simpl in Hd. inversion Hd; subst.
    destruct (IH e eq_refl) as (pre & t' & s & post & -> & Ht & He & Hpre).
    exists (t :: pre), t', s, post. repeat split; auto.
  - inversion Hd; subst. destruct Hp as (s & Hs & ->). exists [], t, s, toks. repeat split; auto.
Qed.

Lemma detokenize_plain_fails k toks : (exists t s, In t toks /\ strip_nr t = TPlain s) ->
  forall out, detokenize k toks <> ROk out.
Proof.
  intros (t & s & Hin & Ht). revert Hin. induction toks as [|u toks IH]; simpl; [easy|].
  intros [->|Hin] out Hd.
  - assert (Hp : forall t, strip_nr t = TPlain s -> token_detokenize k t = RErr (InvalidToken s)).
    { clear. induction t; simpl; auto; intros E; inversion E; easy. }
    rewrite (Hp _ Ht) in Hd. discriminate.
  - destruct (token_detokenize k u); try discriminate. simpl in Hd.
    destruct (detokenize k toks); try discriminate. eapply IH; eauto.
Qed.
End S.
