(** Expansion goes the same way if runs of tokens that are left alone, such as
    parameters and names that are no macros, are exchanged for each other. *)
From Verif Require Import Base Utf Lex LexFloat Token MacroSet StrFacts SpecCall CallFacts SpecExpand TokenFacts ExpandFacts ExpandInv ObjFacts.
From Coq Require Import String List Bool Lia.
Import ListNotations.
Local Open Scope list_scope.

Section S.
Context `{Unicode}.
Variable ms : macro_set.
(** Strings are made of arguments by [#]. *)
Variable strings : Prop.

Definition quiet (id : str) : Prop := sm_get (var_macros ms) id = None /\ sm_get (fn_macros ms) id = None.
Definition no_place (id : str) : Prop := id <> st "__LINE__" /\ id <> st "__FILE__".
(** A token that is the same on both sides. *)
Definition okt (t : token) : Prop :=
  match t with
  | TPunct p => p <> st "#" /\ p <> st "##"
  | TIdent id => id <> [] /\ (strings -> no_place id)
  | TNonRepl (TIdent id) => strings -> no_place id
  | TNonRepl _ | TArg _ | TVarArgs | TPlacemarker => False
  | _ => True
  end.
(** A token that is left alone. *)
Definition dull (t : token) : Prop :=
  match t with
  | TArg _ | TVarArgs | TLit _ _ => True
  | TPunct p => p = st "#"
  | TIdent id => id <> [] /\ quiet id /\ (strings -> no_place id)
  | _ => False
  end.
Definition block (b : list token) : Prop := b <> [] /\ Forall dull b /\ forall a, b <> a ++ [hash].

Inductive sim : list token -> list token -> Prop :=
| sim_nil : sim [] []
| sim_tok t l1 l2 : okt t -> sim l1 l2 -> sim (t :: l1) (t :: l2)
| sim_block b1 b2 l1 l2 : block b1 -> block b2 -> sim l1 l2 -> sim (b1 ++ l1) (b2 ++ l2).

Hypothesis Hvar : forall id b, sm_get (var_macros ms) id = Some b -> ~ contains_var_args (tokenize [] b) = true -> Forall okt (tokenize [] b).
(** A token of a function-like macro. *)
Definition bok (t : token) : Prop := is_arg_token t = true \/ t = hash /\ strings \/ okt t.
Hypothesis Hfn : forall id ps b an, sm_get (fn_macros ms) id = Some (ps, b) -> tokenize_arg_names ps = ROk an -> Forall bok (tokenize an b).

Lemma sim_app a1 a2 b1 b2 : sim a1 a2 -> sim b1 b2 -> sim (a1 ++ b1) (a2 ++ b2).
Proof. intros A B. induction A; cbn [app]; [exact B|now apply sim_tok|]. rewrite <- !app_assoc. now apply sim_block. Qed.
Lemma sim_one t : okt t -> sim [t] [t].
Proof. intro T. now repeat constructor. Qed.
Lemma sim_blocks b1 b2 : block b1 -> block b2 -> sim b1 b2.
Proof. intros B1 B2. rewrite <- (app_nil_r b1), <- (app_nil_r b2). now apply sim_block; [..|constructor]. Qed.
Lemma sim_nil_iff l1 l2 : sim l1 l2 -> (l1 = [] <-> l2 = []).
Proof.
  intros [|t a b|b1 b2 a b [N1 _] [N2 _]]; [easy|easy|]. split; intro E; apply app_eq_nil in E as [E _]; contradiction.
Qed.
Definition token_ok (t : token) : Prop := okt t \/ dull t.
Lemma sim_ok l1 l2 : sim l1 l2 -> Forall token_ok l1 /\ Forall token_ok l2.
Proof.
  induction 1 as [|t a b T _ [IH1 IH2]|b1 b2 a b (_ & B1 & _) (_ & B2 & _) _ [IH1 IH2]]; [now split|split; constructor; auto; now left|].
  split; apply Forall_app; (split; [|assumption]); (eapply Forall_impl; [|eassumption]); intros t T; now right.
Qed.
Lemma sim_same l : Forall okt l -> sim l l.
Proof. induction 1; now constructor. Qed.
Lemma ok_not_hash t : okt t -> t <> hash.
Proof. intros T ->. now destruct T. Qed.
Lemma sim_ends l1 l2 : sim l1 l2 -> (forall a, l1 <> a ++ [hash]) /\ (forall a, l2 <> a ++ [hash]).
Proof.
  assert (K : forall b l a, (forall a, b <> a ++ [hash]) -> (forall a, l <> a ++ [hash]) -> b ++ l = a ++ [hash] -> False).
  { intros b l a B L E. destruct l as [|t l _] using rev_ind; [rewrite app_nil_r in E; exact (B a E)|].
    rewrite app_assoc in E. apply app_inj_tail in E as [_ ->]. exact (L l eq_refl). }
  induction 1 as [|t a b T _ [IH1 IH2]|b1 b2 a b (_ & _ & B1) (_ & _ & B2) _ [IH1 IH2]].
  - split; intros [|] E; discriminate E.
  - assert (N : forall c, [t] <> c ++ [hash]).
    { intros c E. destruct c as [|? [|]]; try discriminate E. injection E as ->. now apply (ok_not_hash hash). }
    split; intros c E; [apply (K [t] a c)|apply (K [t] b c)]; auto.
  - split; intros c E; [apply (K b1 a c)|apply (K b2 b c)]; auto.
Qed.
Lemma rev_hash acc : (forall a, rev acc <> a ++ [hash]) -> peek_is (is_punct (st "#")) acc = false.
Proof.
  destruct acc as [|t acc]; [reflexivity|]. intro N. cbn [peek_is]. destruct t; try reflexivity. cbn [is_punct]. apply str_eqb_neq. intros ->.
  apply (N (rev acc)). reflexivity.
Qed.

(** ** Pasting and placeholders *)
Lemma no_paste t : token_ok t -> is_punct (st "##") t = false /\ is_placemarker t = false.
Proof.
  intros [T|T]; destruct t as [u|i| |p|id|s|lt s|s|c|]; try (split; reflexivity); try contradiction T.
  - split; [|reflexivity]. destruct T as [_ T]. cbn [is_punct]. now apply str_eqb_neq.
  - cbn in T. subst p. split; reflexivity.
Qed.
Lemma concat_id l : Forall token_ok l -> forall acc, concat_loop None acc l = ROk (rev acc ++ l).
Proof.
  induction 1 as [|t l T L IH]; intro acc; cbn [concat_loop]; [now rewrite app_nil_r|].
  rewrite (proj1 (no_paste t T)). cbn [andb]. rewrite IH. cbn [rev]. now rewrite <- app_assoc.
Qed.
Lemma remove_id l : Forall token_ok l -> remove_placemarkers l = l.
Proof.
  induction 1 as [|t l T L IH]; [reflexivity|]. unfold remove_placemarkers. cbn [filter]. rewrite (proj2 (no_paste t T)). cbn [negb]. f_equal. exact IH.
Qed.
Lemma rescan_id rec names name l : Forall token_ok l -> concat_and_rescan rec names name l = rec (set_insert name names) l.
Proof. intro F. unfold concat_and_rescan, expand_concat. rewrite concat_id by exact F. cbn [rbind rev app]. now rewrite remove_id. Qed.

(** ** Arguments of calls *)
Lemma collect_dull b : Forall dull b -> forall stack args cur it, collect_loop stack args cur (b ++ it) = collect_loop stack args (rev b ++ cur) it.
Proof.
  induction 1 as [|t b T _ IH]; intros stack args cur it; [reflexivity|]. cbn [rev app]. rewrite <- app_assoc. cbn [app]. rewrite <- IH.
  destruct t; try reflexivity. cbn in T. subst p. reflexivity.
Qed.
Definition orel (x1 x2 : option (list (list token) * list token)) : Prop :=
  match x1, x2 with
  | Some (a1, r1), Some (a2, r2) => Forall2 sim a1 a2 /\ sim r1 r2
  | None, None => True
  | _, _ => False
  end.
Lemma Forall2_rev {A B} (R : A -> B -> Prop) l1 l2 : Forall2 R l1 l2 -> Forall2 R (rev l1) (rev l2).
Proof. induction 1; cbn [rev]; [constructor|]. apply Forall2_app; auto. Qed.
Lemma collect_sim it1 it2 : sim it1 it2 -> forall stack args1 args2 cur1 cur2, Forall2 sim args1 args2 -> sim (rev cur1) (rev cur2) ->
  orel (collect_loop stack args1 cur1 it1) (collect_loop stack args2 cur2 it2).
Proof.
  induction 1 as [|t l1 l2 T L IH|b1 b2 l1 l2 B1 B2 L IH]; intros stack args1 args2 cur1 cur2 A C.
  - exact Logic.I.
  - assert (K : forall s, orel (collect_loop s args1 (t :: cur1) l1) (collect_loop s args2 (t :: cur2) l2)).
    { intro s. apply IH; [exact A|]. cbn [rev]. apply sim_app; [exact C|now apply sim_one]. }
    destruct t as [u|i| |p|id|s|lt s|s|c|]; try apply K. cbn [collect_loop].
    destruct (str_eqb p (st "(")); [apply K|]. destruct (str_eqb p (st ")")).
    { destruct stack as [|q stack]; [|destruct (str_eqb q (st "(")); [apply K|exact Logic.I]].
      split; [|exact L]. apply Forall2_rev. now constructor. }
    destruct (str_eqb p (st "[")); [apply K|]. destruct (str_eqb p (st "]")).
    { destruct stack as [|q stack]; [exact Logic.I|]. destruct (str_eqb q (st "[")); [apply K|exact Logic.I]. }
    destruct (str_eqb p (st "{")); [apply K|]. destruct (str_eqb p (st "}")).
    { destruct stack as [|q stack]; [exact Logic.I|]. destruct (str_eqb q (st "{")); [apply K|exact Logic.I]. }
    destruct (str_eqb p (st ",")); [|apply K]. destruct stack as [|q stack]; [|apply K].
    apply IH; [now constructor|constructor].
  - rewrite !collect_dull by (apply B1 || apply B2). apply IH; [exact A|]. rewrite !rev_app_distr, !rev_involutive. apply sim_app; [exact C|now apply sim_blocks].
Qed.
Lemma block_head b l : block b -> exists t r, b ++ l = t :: r /\ is_punct (st "(") t = false.
Proof.
  intros (N & D & _). destruct D as [|t b T _]; [contradiction|]. exists t, (b ++ l). split; [reflexivity|]. destruct t; try reflexivity. cbn in T. now subst p.
Qed.
Lemma peek_sim l1 l2 : sim l1 l2 -> peek_is (is_punct (st "(")) l1 = peek_is (is_punct (st "(")) l2.
Proof.
  intros [|t a b|b1 b2 a b B1 B2]; [reflexivity|reflexivity|].
  destruct (block_head b1 a B1) as (t1 & r1 & -> & E1), (block_head b2 b B2) as (t2 & r2 & -> & E2). cbn [peek_is]. congruence.
Qed.
Lemma collect_args_sim l1 l2 : sim l1 l2 -> orel (collect_args l1) (collect_args l2).
Proof.
  intros [|t a b T L|b1 b2 a b B1 B2 _]; [exact Logic.I| |].
  - destruct t; try exact Logic.I. cbn [collect_args]. destruct (str_eqb p (st "(")); [|exact Logic.I]. apply collect_sim; [exact L|constructor..].
  - assert (K : forall b l, block b -> collect_args (b ++ l) = None).
    { intros c l C. destruct (block_head c l C) as (t & r & -> & E). cbn [collect_args]. destruct t; try reflexivity. cbn [is_punct] in E. now rewrite E. }
    now rewrite !K.
Qed.

(** ** Strings *)
Lemma kept_ok nested t : strings -> token_ok t -> token_stringify nested t = SKeep -> is_arg_token t = true.
Proof.
  intros S T E. assert (N : forall id, no_place id -> nested && (str_eqb id (st "__LINE__") || str_eqb id (st "__FILE__")) = false).
  { intros id [N1 N2]. apply str_eqb_neq in N1, N2. rewrite N1, N2. apply andb_false_r. }
  destruct t as [u|i| |p|id|s|lt s|s|c|]; try discriminate E; try reflexivity.
  - destruct T as [T|[]]. destruct u; try contradiction. cbn [token_stringify] in E. rewrite N in E by now apply T. discriminate E.
  - cbn [token_stringify] in E. rewrite N in E; [discriminate E|]. destruct T as [[_ T]|(_ & _ & T)]; auto.
Qed.
Lemma stringify_dull nested l : strings -> Forall token_ok l -> forall kept cur sp, Forall dull kept -> (forall a, rev kept <> a ++ [hash]) ->
  Forall dull (fst (stringify_loop nested kept cur sp l)) /\ forall a, rev (fst (stringify_loop nested kept cur sp l)) <> a ++ [hash].
Proof.
  intros S. induction 1 as [|t l T _ IH]; intros kept cur sp D N; [now split|]. cbn [stringify_loop]. destruct (token_stringify nested t) eqn:E.
  - pose proof (kept_ok nested t S T E) as At. apply IH.
    + constructor; [now destruct t|]. now constructor.
    + intros a K. cbn [rev] in K. apply app_inj_tail in K as [_ ->]. discriminate At.
  - now apply IH.
  - now apply IH.
Qed.
Lemma stringify_block nested l : strings -> Forall token_ok l -> block (stringify nested l).
Proof.
  intros S F. unfold stringify. destruct (stringify_dull nested l S F [] None false) as [D N]; [constructor|intros [|] E; discriminate E|].
  destruct (stringify_loop nested [] None false l) as [kept cur]. cbn [fst] in D, N.
  assert (Lit : forall lt s a (r : list token), r ++ [TLit lt s] <> a ++ [hash]) by (intros lt s a r E; apply app_inj_tail in E as [_ E]; discriminate E).
  assert (K : forall r, Forall dull r -> (forall a, r <> a ++ [hash]) ->
    block (match r with [] => [TLit (LString (SOrdinary [])) (st """""")] | _ => r end)).
  { intros [|t r] Dr Nr; [|now split]. split; [discriminate|]. split; [now repeat constructor|]. exact (fun a => Lit _ _ a []). }
  apply K.
  - apply Forall_app. split; [now apply Forall_rev|]. destruct cur; now repeat constructor.
  - destruct cur; [intro a; apply Lit|]. now rewrite app_nil_r.
Qed.

(** ** The steps *)
Definition fresh (names : list str) : Prop := forall id, quiet id -> id <> [] -> ~ In id names.
Definition related (r1 r2 : res xerr (list token)) : Prop :=
  match r1, r2 with
  | ROk a, ROk b => sim a b
  | RErr e, RErr e' => e = e'
  | RPanic, RPanic | RFuel, RFuel => True
  | _, _ => False
  end.
Lemma related_bind r1 r2 k1 k2 : related r1 r2 -> (forall a b, sim a b -> related (k1 a) (k2 b)) -> related (rbind r1 k1) (rbind r2 k2).
Proof. intros R K. destruct r1, r2; try contradiction R; cbn [rbind]; auto. Qed.
Lemma fresh_insert names id : fresh names -> ~ quiet id -> fresh (set_insert id names).
Proof. intros F Q x X N. rewrite set_insert_In. intros [-> |I2]; [contradiction|]. now apply (F x). Qed.

Section Rec.
Variable rec : list str -> list token -> res xerr (list token).
Hypothesis Hrec : forall names l1 l2, fresh names -> sim l1 l2 -> related (rec names l1) (rec names l2).

Lemma comma_ok : okt (TPunct (st ",")).
Proof. split; discriminate. Qed.
Lemma join_sim a1 a2 : Forall2 sim a1 a2 -> sim (join_args a1) (join_args a2).
Proof.
  induction 1 as [|x y a1 a2 X A IH]; [constructor|]. destruct A as [|x' y' a1 a2 X' A]; [exact X|]. cbn [join_args]. cbn [join_args] in IH.
  apply sim_app; [exact X|]. apply sim_tok; [apply comma_ok|exact IH].
Qed.
Lemma Forall2_skipn {A B} (R : A -> B -> Prop) k l1 l2 : Forall2 R l1 l2 -> Forall2 R (skipn k l1) (skipn k l2).
Proof. intro F. revert k. induction F; intros [|k]; cbn [skipn]; auto. Qed.
Lemma Forall2_same {A B} (R : A -> B -> Prop) l1 l2 : Forall2 R l1 l2 -> length l1 = length l2.
Proof. induction 1; cbn [length]; congruence. Qed.
Lemma argument_sim k a1 a2 t : Forall2 sim a1 a2 ->
  match argument_of k a1 t, argument_of k a2 t with Some x, Some y => sim x y | None, None => True | _, _ => False end.
Proof.
  intro A. assert (L : length a1 = length a2) by (eapply Forall2_same; exact A).
  destruct t; try (cbn [argument_of]; rewrite L; destruct k as [|k]; [exact Logic.I|]; destruct (Nat.leb k (length a2)); [|exact Logic.I]; now apply join_sim, Forall2_skipn).
  cbn [argument_of]. clear L. revert i. induction A as [|x y a1 a2 X A IH]; intros [|i]; cbn [nth_error]; [exact Logic.I|exact Logic.I|exact X|apply IH].
Qed.
Lemma peek_paste l : Forall token_ok l -> peek_is (is_punct (st "##")) l = false.
Proof. intros F. destruct F as [|t l T _]; [reflexivity|]. now apply no_paste. Qed.
Lemma peek_paste_b l : Forall bok l -> peek_is (is_punct (st "##")) l = false.
Proof.
  intros F. destruct F as [|t l T _]; [reflexivity|]. cbn [peek_is]. destruct T as [T|[[-> _]|T]]; [now destruct t|reflexivity|]. apply no_paste. now left.
Qed.

Lemma arguments_sim names k a1 a2 it : fresh names -> Forall2 sim a1 a2 -> Forall bok it -> forall acc1 acc2, sim (rev acc1) (rev acc2) ->
  related (expand_arguments_loop rec names k a1 acc1 it) (expand_arguments_loop rec names k a2 acc2 it) /\
  (peek_is is_arg_token it = true -> strings ->
   related (expand_arguments_loop rec names k a1 (hash :: acc1) it) (expand_arguments_loop rec names k a2 (hash :: acc2) it)).
Proof.
  intros F A. induction 1 as [|t it T Tt IH]; intros acc1 acc2 C.
  { split; [exact C|discriminate]. }
  cbn [expand_arguments_loop]. pose proof (argument_sim k a1 a2 t A) as Ax. destruct (sim_ends _ _ C) as [N1 N2]. destruct (sim_ok _ _ C) as [O1 O2].
  split.
  - destruct T as [T|[[-> S]|T]].
    + replace (is_punct (st "#") t) with false by (now destruct t). rewrite T.
      destruct (argument_of k a1 t) as [x|], (argument_of k a2 t) as [y|]; try contradiction Ax; [|exact Logic.I].
      rewrite (rev_hash acc1 N1), (rev_hash acc2 N2).
      rewrite (peek_paste acc1), (peek_paste acc2), (peek_paste_b it) by (auto; rewrite <- (rev_involutive acc1) || rewrite <- (rev_involutive acc2); now apply Forall_rev).
      cbn [orb]. apply related_bind; [now apply Hrec|]. intros e1 e2 E. apply IH. rewrite !rev_app_distr, !rev_involutive. now apply sim_app.
    + change (is_punct (st "#") hash) with true. cbn iota. destruct (peek_is is_arg_token it) eqn:P; [|reflexivity]. now apply IH.
    + assert (Nh : is_punct (st "#") t = false). { destruct t; try reflexivity. destruct T as [T _]. cbn [is_punct]. now apply str_eqb_neq. }
      assert (Na : is_arg_token t = false) by (destruct t; try reflexivity; contradiction). rewrite Nh, Na. apply IH. cbn [rev]. apply sim_app; [exact C|now apply sim_one].
  - cbn [peek_is]. intros P S. replace (is_punct (st "#") t) with false by (now destruct t). rewrite P.
    destruct (argument_of k a1 t) as [x|], (argument_of k a2 t) as [y|]; try contradiction Ax; [|exact Logic.I].
    change (peek_is (is_punct (st "#")) (hash :: acc1)) with true. change (peek_is (is_punct (st "#")) (hash :: acc2)) with true. cbn iota. cbn [tl].
    apply IH. rewrite !rev_app_distr, !rev_involutive. apply sim_app; [exact C|]. destruct (sim_ok _ _ Ax). apply sim_blocks; now apply stringify_block.
Qed.

Lemma rescan_sim names id l1 l2 : fresh names -> ~ quiet id -> sim l1 l2 ->
  related (concat_and_rescan rec names id l1) (concat_and_rescan rec names id l2).
Proof.
  intros F Q C. destruct (sim_ok _ _ C). rewrite !rescan_id by assumption. apply Hrec; auto using fresh_insert.
Qed.
Lemma fn_body_sim names id an a1 a2 b : fresh names -> ~ quiet id -> Forall2 sim a1 a2 -> Forall bok b ->
  related (expand_fn_macro_body rec names id an (Some a1) b) (expand_fn_macro_body rec names id an (Some a2) b).
Proof.
  intros F Q A Fb. unfold expand_fn_macro_body. cbn zeta. rewrite (Forall2_same _ _ _ A).
  replace (match drop_comments an with [] => match a1 with [] => true | a :: _ => match a with [] => true | _ => false end end | _ => false end)
    with (match drop_comments an with [] => match a2 with [] => true | a :: _ => match a with [] => true | _ => false end end | _ => false end).
  - destruct (_ && contains_var_args b); [reflexivity|]. destruct (if negb (is_variadic _) then _ else None); [reflexivity|].
    destruct (first_duplicate _); [reflexivity|]. apply related_bind.
    + unfold expand_arguments. now apply (arguments_sim names _ a1 a2 b F A Fb [] [] sim_nil).
    + intros l1 l2 C. now apply rescan_sim.
  - destruct (drop_comments an); [|reflexivity]. destruct A as [|x y a1 a2 X A]; [reflexivity|]. pose proof (sim_nil_iff x y X) as E.
    destruct x, y; try reflexivity; [discriminate (proj1 E eq_refl)|discriminate (proj2 E eq_refl)].
Qed.
Lemma var_body_sim names id b : fresh names -> sm_get (var_macros ms) id = Some b ->
  related (expand_var_macro_body rec names id (tokenize [] b)) (expand_var_macro_body rec names id (tokenize [] b)).
Proof.
  intros F E. unfold expand_var_macro_body. pose proof (Hvar id b E) as V. destruct (contains_var_args (tokenize [] b)); [reflexivity|].
  apply rescan_sim; [exact F|intros [Q _]; congruence|]. apply sim_same, V. discriminate.
Qed.

Lemma scan_dull names b : fresh names -> Forall dull b -> forall it acc, scan ms rec names acc (b ++ it) = scan ms rec names (rev b ++ acc) it.
Proof.
  intros F. induction 1 as [|t b T _ IH]; intros it acc; [reflexivity|]. cbn [app rev]. rewrite <- app_assoc. cbn [app]. rewrite <- IH.
  destruct t as [u|i| |p|id|s|lt s|s|c|]; try reflexivity. destruct T as (N & [V Fn] & _). cbn [scan].
  replace (str_mem id names) with false; [rewrite V, Fn; now destruct (peek_is _ _)|]. symmetry. apply str_mem_not_In. now apply F.
Qed.

Lemma scan_sim names l1 l2 : fresh names -> sim l1 l2 -> forall acc1 acc2, sim (rev acc1) (rev acc2) ->
  related (scan ms rec names acc1 l1) (scan ms rec names acc2 l2).
Proof.
  intros F. induction 1 as [|t l1 l2 T L IH|b1 b2 l1 l2 B1 B2 L IH]; intros acc1 acc2 C.
  - exact C.
  - assert (K : forall u, okt u -> related (scan ms rec names (u :: acc1) l1) (scan ms rec names (u :: acc2) l2)).
    { intros u U. apply IH. cbn [rev]. apply sim_app; [exact C|now apply sim_one]. }
    destruct t as [u|i| |p|id|s|lt s|s|c|]; try (now apply K). cbn [scan]. destruct (str_mem id names).
    { apply K. exact (proj2 T). }
    assert (V : related
      match sm_get (var_macros ms) id with
      | Some body => e <- expand_var_macro_body rec names id (tokenize [] body) ;; rec names (rev acc1 ++ e ++ l1)
      | None => scan ms rec names (TIdent id :: acc1) l1 end
      match sm_get (var_macros ms) id with
      | Some body => e <- expand_var_macro_body rec names id (tokenize [] body) ;; rec names (rev acc2 ++ e ++ l2)
      | None => scan ms rec names (TIdent id :: acc2) l2 end).
    { destruct (sm_get (var_macros ms) id) as [b|] eqn:E; [|now apply K]. apply related_bind; [now apply var_body_sim|].
      intros e1 e2 Ee. apply Hrec; [exact F|]. auto using sim_app. }
    rewrite <- (peek_sim l1 l2 L). destruct (peek_is _ l1); [|exact V]. destruct (sm_get (fn_macros ms) id) as [[ps b]|] eqn:E; [|exact V].
    pose proof (collect_args_sim l1 l2 L) as Ca. destruct (collect_args l1) as [[a1 r1]|], (collect_args l2) as [[a2 r2]|]; try contradiction Ca; [|exact V].
    destruct Ca as [A R]. destruct (tokenize_arg_names ps) as [an| | |] eqn:En; cbn [rbind]; try reflexivity; try exact Logic.I.
    apply related_bind.
    + apply fn_body_sim; eauto. intros [_ Q]. congruence.
    + intros e1 e2 Ee. apply Hrec; [exact F|]. auto using sim_app.
  - rewrite !scan_dull by (exact F || apply B1 || apply B2). apply IH. rewrite !rev_app_distr, !rev_involutive. apply sim_app; [exact C|now apply sim_blocks].
Qed.
End Rec.

Theorem expand_sim fuel : forall names l1 l2, fresh names -> sim l1 l2 ->
  related (expand_macro_body ms fuel names l1) (expand_macro_body ms fuel names l2).
Proof.
  induction fuel as [|f IH]; intros names l1 l2 F C; [exact Logic.I|].
  exact (scan_sim _ IH names l1 l2 F C [] [] sim_nil).
Qed.
End S.
