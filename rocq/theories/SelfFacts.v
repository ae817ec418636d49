(** Expansion commutes with replacing parameters by inert tokens, in sets of
    macros without [#] and [##]. *)
From Verif Require Import Base Utf Lex LexFloat Token MacroSet StrFacts SpecCall CallFacts TokenFacts ExpandFacts ExpandInv ObjFacts.
From Coq Require Import String List Bool Lia.
Import ListNotations.
Local Open Scope list_scope.

Section S.
Context `{Unicode}.
Variable ms : macro_set.
(** The replacement of each parameter, and of [__VA_ARGS__]. *)
Variable sg : nat -> list token.
Variable sv : list token.

Definition okb (t : token) : Prop :=
  match t with
  | TPunct p => p <> st "#" /\ p <> st "##"
  | TIdent id => id <> []
  | TPlacemarker => False
  | TNonRepl u => is_arg_token (strip_nr u) = false
  | _ => True
  end.
Notation okt := okb (only parsing).
Definition quiet (id : str) : Prop := sm_get (var_macros ms) id = None /\ sm_get (fn_macros ms) id = None.
Definition inert (a : list token) : Prop :=
  a <> [] /\ argument a /\ peek_is (is_punct (st "(")) a = false /\ Forall okt a /\ forall id, In (TIdent id) a -> quiet id.
Hypothesis Hsg : forall i, inert (sg i).
Hypothesis Hsv : inert sv.
Hypothesis Hvar : forall id b, sm_get (var_macros ms) id = Some b -> Forall okb (tokenize [] b).
Hypothesis Hfn : forall id ps b an, sm_get (fn_macros ms) id = Some (ps, b) -> tokenize_arg_names ps = ROk an -> Forall okb (tokenize an b).

Definition sub1 (t : token) : list token := match t with TArg i => sg i | TVarArgs => sv | _ => [t] end.
Definition sub (l : list token) : list token := flat_map sub1 l.

Lemma sub_app a b : sub (a ++ b) = sub a ++ sub b.
Proof. apply flat_map_app. Qed.
Lemma sub_nil l : sub l = [] <-> l = [].
Proof.
  split; [|now intros ->]. destruct l as [|t l]; [easy|]. unfold sub. cbn [flat_map]. intro E. apply app_eq_nil in E as [E _].
  destruct t; try discriminate E; [now destruct (Hsg i)|now destruct Hsv].
Qed.
Lemma sub_ok l : Forall okt l -> Forall okt (sub l).
Proof.
  induction 1 as [|t l T L IH]; [constructor|]. unfold sub. cbn [flat_map]. apply Forall_app. split; [|exact IH].
  destruct t; try (constructor; [exact T|constructor]); [apply (Hsg i)|apply Hsv].
Qed.

(** ** Pasting and placeholders *)
Lemma concat_id l : Forall okt l -> forall acc, concat_loop None acc l = ROk (rev acc ++ l).
Proof.
  induction 1 as [|t l T L IH]; intro acc; cbn [concat_loop]; [now rewrite app_nil_r|].
  replace (is_punct (st "##") t) with false.
  - cbn [andb]. rewrite IH. cbn [rev]. now rewrite <- app_assoc.
  - destruct t; try reflexivity. destruct T as [_ T]. cbn [is_punct]. symmetry. now apply str_eqb_neq.
Qed.
Lemma remove_id l : Forall okt l -> remove_placemarkers l = l.
Proof.
  induction 1 as [|t l T L IH]; [reflexivity|]. unfold remove_placemarkers. cbn [filter]. destruct t; cbn [is_placemarker negb]; try now (f_equal; exact IH).
  now destruct T.
Qed.
Lemma rescan_id rec names name l : Forall okt l -> concat_and_rescan rec names name l = rec (set_insert name names) l.
Proof. intro F. unfold concat_and_rescan, expand_concat. rewrite concat_id by exact F. cbn [rbind rev app]. now rewrite remove_id. Qed.

(** ** Arguments of calls *)
Lemma argument_balanced a : argument a -> balanced a.
Proof. induction 1; [constructor|now apply bal_token|now apply bal_group]. Qed.
Lemma collect_sub_arg a stack args cur it : inert a -> collect_loop stack args cur (a ++ it) = collect_loop stack args (rev a ++ cur) it.
Proof.
  intros (_ & A & _). destruct stack as [|q stack]; [now apply collect_argument|]. apply collect_balanced. now apply argument_balanced.
Qed.
Definition sub_call (x : list (list token) * list token) : list (list token) * list token := (map sub (fst x), sub (snd x)).
Lemma rev_sub t cur : sub1 t = [t] -> t :: rev (sub (rev cur)) = rev (sub (rev (t :: cur))).
Proof. intro E. cbn [rev]. rewrite sub_app, rev_app_distr. unfold sub at 2. cbn [flat_map]. rewrite E. reflexivity. Qed.
Lemma collect_sub it : forall stack args cur,
  collect_loop stack (map sub args) (rev (sub (rev cur))) (sub it) = omap sub_call (collect_loop stack args cur it).
Proof.
  induction it as [|t it IH]; intros stack args cur; [reflexivity|].
  assert (K : forall s, sub1 t = [t] -> collect_loop s (map sub args) (t :: rev (sub (rev cur))) (sub it) = omap sub_call (collect_loop s args (t :: cur) it)).
  { intros s E. rewrite rev_sub by exact E. apply IH. }
  change (sub (t :: it)) with (sub1 t ++ sub it). destruct t as [u|i| |p|id|s|lt s|s|c|]; try (cbn [sub1 app collect_loop]; apply K; reflexivity).
  1, 2: cbn [sub1 collect_loop]; rewrite collect_sub_arg by auto; rewrite <- IH; f_equal; cbn [rev]; rewrite sub_app, rev_app_distr; unfold sub at 2; cbn [flat_map sub1]; now rewrite app_nil_r.
  - cbn [sub1 app collect_loop]. specialize (fun s => K s eq_refl).
    destruct (str_eqb p (st "(")); [apply K|]. destruct (str_eqb p (st ")")).
    + destruct stack as [|q stack]; [|destruct (str_eqb q (st "(")); [apply K|reflexivity]].
      cbn [omap sub_call fst snd]. unfold sub_call. cbn [fst snd]. f_equal. f_equal. rewrite rev_involutive. cbn [rev]. rewrite map_app, map_rev. reflexivity.
    + destruct (str_eqb p (st "[")); [apply K|]. destruct (str_eqb p (st "]")).
      { destruct stack as [|q stack]; [reflexivity|]. destruct (str_eqb q (st "[")); [apply K|reflexivity]. }
      destruct (str_eqb p (st "{")); [apply K|]. destruct (str_eqb p (st "}")).
      { destruct stack as [|q stack]; [reflexivity|]. destruct (str_eqb q (st "{")); [apply K|reflexivity]. }
      destruct (str_eqb p (st ",")); [|apply K]. destruct stack as [|q stack]; [|apply K].
      rewrite rev_involutive. specialize (IH [] (rev cur :: args) []). cbn [map rev sub flat_map] in IH. exact IH.
Qed.
Lemma peek_sub it : peek_is (is_punct (st "(")) (sub it) = peek_is (is_punct (st "(")) it.
Proof.
  destruct it as [|t it]; [reflexivity|]. change (sub (t :: it)) with (sub1 t ++ sub it). destruct t; try reflexivity; cbn [sub1 peek_is is_punct].
  - destruct (Hsg i) as (N & _ & P & _). destruct (sg i) as [|u a]; [easy|]. exact P.
  - destruct Hsv as (N & _ & P & _). destruct sv as [|u a]; [easy|]. exact P.
Qed.
Lemma collect_args_sub it : collect_args (sub it) = omap sub_call (collect_args it).
Proof.
  destruct it as [|t it]; [reflexivity|]. pose proof (peek_sub (t :: it)) as P.
  change (sub (t :: it)) with (sub1 t ++ sub it) in *. destruct t; try reflexivity.
  - cbn [sub1] in *. destruct (sg i) as [|u a] eqn:E; [now destruct (Hsg i)|]. cbn [app peek_is is_punct] in P.
    cbn [app collect_args omap]. destruct u; try reflexivity. cbn [is_punct] in P. now rewrite P.
  - cbn [sub1] in *. destruct sv as [|u a] eqn:E; [now destruct Hsv|]. cbn [app peek_is is_punct] in P.
    cbn [app collect_args omap]. destruct u; try reflexivity. cbn [is_punct] in P. now rewrite P.
  - cbn [sub1 app collect_args]. destruct (str_eqb p (st "(")); [|reflexivity]. exact (collect_sub it [] [] []).
Qed.

(** ** Parameters of the inner macros *)
Definition fresh (names : list str) : Prop := forall id, (exists i, In (TIdent id) (sg i)) \/ In (TIdent id) sv -> ~ In id names.
Definition related (r1 r2 : res xerr (list token)) : Prop := r1 = rmap sub r2 /\ forall out, r2 = ROk out -> Forall okt out.
Lemma related_ok l : Forall okt l -> related (ROk (sub l)) (ROk l).
Proof. intro F. split; [reflexivity|]. intros out E. now injection E as <-. Qed.
Lemma related_err e : related (RErr e) (RErr e).
Proof. split; [reflexivity|discriminate]. Qed.
Lemma related_bind r1 r2 k1 k2 : related r1 r2 -> (forall l, Forall okt l -> related (k1 (sub l)) (k2 l)) -> related (rbind r1 k1) (rbind r2 k2).
Proof. intros [-> F] K. destruct r2 as [l| | |]; cbn [rmap rbind]; try (split; [reflexivity|discriminate]). apply K. now apply F. Qed.

Lemma fresh_insert names id : fresh names -> ~ quiet id -> fresh (set_insert id names).
Proof. intros F Q x I. rewrite set_insert_In. intros [-> |I2]; [|now apply (F x)]. apply Q. destruct I as [[i I]|I]; [now apply (Hsg i)|now apply Hsv]. Qed.
Lemma agree_sets id n1 n2 : agree n1 n2 -> agree (set_insert id n1) (set_insert id n2).
Proof. intros A x X. rewrite !set_insert_In. now rewrite (A x X). Qed.
Lemma agree_mem id n1 n2 : agree n1 n2 -> id <> [] -> str_mem id n1 = str_mem id n2.
Proof.
  intros A N. destruct (str_mem id n1) eqn:E1, (str_mem id n2) eqn:E2; try reflexivity.
  - apply str_mem_In in E1. apply str_mem_not_In in E2. now apply A in E1.
  - apply str_mem_In in E2. apply str_mem_not_In in E1. now apply A in E2.
Qed.

Section Rec.
Variables rec1 rec2 : list str -> list token -> res xerr (list token).
Hypothesis Hrec : forall n1 n2 l, agree n1 n2 -> fresh n1 -> Forall okt l -> related (rec1 n1 (sub l)) (rec2 n2 l).

Lemma sub_join args : sub (join_args args) = join_args (map sub args).
Proof.
  induction args as [|a args IH]; [reflexivity|]. destruct args as [|b args]; [reflexivity|].
  cbn [join_args map]. cbn [join_args map] in IH. rewrite sub_app. f_equal. change (sub (TPunct (st ",") :: ?l)) with (TPunct (st ",") :: sub l). now rewrite IH.
Qed.
Lemma argument_sub k args t : argument_of k (map sub args) t = omap sub (argument_of k args t).
Proof.
  destruct t; try (cbn [argument_of]; destruct k as [|k]; [reflexivity|]; rewrite map_length; destruct (Nat.leb k (length args)); [|reflexivity];
    cbn [omap]; rewrite sub_join; now rewrite skipn_map).
  cbn [argument_of]. apply nth_error_map.
Qed.
Lemma comma_ok : okt (TPunct (st ",")).
Proof. split; discriminate. Qed.
Lemma argument_ok k args t a : Forall (Forall okt) args -> argument_of k args t = Some a -> Forall okt a.
Proof. intros F E. eapply argument_of_Forall; eauto using comma_ok. Qed.
Lemma not_hash p t : okb t -> p = st "#" \/ p = st "##" -> is_punct p t = false.
Proof. destruct t; try reflexivity. intros [A B] [-> | ->]; cbn [is_punct]; now apply str_eqb_neq. Qed.
Lemma peek_hash p l : Forall okt l -> p = st "#" \/ p = st "##" -> peek_is (is_punct p) l = false.
Proof. intros F P. destruct F as [|t l T _]; [reflexivity|]. now apply not_hash. Qed.
Lemma peek_hash_b p l : Forall okb l -> p = st "#" \/ p = st "##" -> peek_is (is_punct p) l = false.
Proof. intros F P. destruct F as [|t l T _]; [reflexivity|]. now apply not_hash. Qed.

Lemma arguments_sub n1 n2 k args it : agree n1 n2 -> fresh n1 -> Forall (Forall okt) args -> Forall okb it -> forall acc, Forall okt acc ->
  related (expand_arguments_loop rec1 n1 k (map sub args) (rev (sub (rev acc))) it) (expand_arguments_loop rec2 n2 k args acc it).
Proof.
  intros A F Fa. induction 1 as [|t it T Tt IH]; intros acc Ac; cbn [expand_arguments_loop].
  - rewrite rev_involutive. apply related_ok. now apply Forall_rev.
  - rewrite (not_hash (st "#") t T) by auto. destruct (is_arg_token t) eqn:Ta.
    + rewrite argument_sub. destruct (argument_of k args t) as [a|] eqn:E; cbn [omap]; [|split; [reflexivity|discriminate]].
      assert (Oa : Forall okt a) by (eapply argument_ok; eassumption).
      assert (Os : Forall okt (rev (sub (rev acc)))) by (apply Forall_rev, sub_ok, Forall_rev, Ac).
      rewrite (peek_hash (st "#") _ Os), (peek_hash (st "#") _ Ac), (peek_hash (st "##") _ Os), (peek_hash (st "##") _ Ac), (peek_hash_b (st "##") _ Tt) by auto. cbn [orb].
      apply related_bind; [now apply Hrec|]. intros e Oe. replace (rev (sub e) ++ rev (sub (rev acc))) with (rev (sub (rev (rev e ++ acc)))).
      * apply IH. apply Forall_app. split; [now apply Forall_rev|exact Ac].
      * rewrite rev_app_distr, rev_involutive, sub_app. now rewrite rev_app_distr.
    + replace (t :: rev (sub (rev acc))) with (rev (sub (rev (t :: acc)))).
      * apply IH. now constructor.
      * symmetry. apply rev_sub. now destruct t.
Qed.

Lemma rescan_sub n1 n2 id l : agree n1 n2 -> fresh n1 -> ~ quiet id -> Forall okt l ->
  related (concat_and_rescan rec1 n1 id (sub l)) (concat_and_rescan rec2 n2 id l).
Proof.
  intros A F Q O. rewrite !rescan_id by auto using sub_ok. apply Hrec; auto using agree_sets, fresh_insert.
Qed.
Lemma fn_body_sub n1 n2 id an args b : agree n1 n2 -> fresh n1 -> ~ quiet id -> Forall (Forall okt) args -> Forall okb b ->
  related (expand_fn_macro_body rec1 n1 id an (Some (map sub args)) b) (expand_fn_macro_body rec2 n2 id an (Some args) b).
Proof.
  intros A F Q Fa Fb. unfold expand_fn_macro_body. cbn zeta. rewrite map_length.
  replace (match drop_comments an with [] => match map sub args with [] => true | a :: _ => match a with [] => true | _ => false end end | _ => false end)
    with (match drop_comments an with [] => match args with [] => true | a :: _ => match a with [] => true | _ => false end end | _ => false end).
  - destruct (_ && contains_var_args b); [apply related_err|]. destruct (if negb (is_variadic _) then _ else None); [apply related_err|].
    destruct (first_duplicate _); [apply related_err|]. apply related_bind.
    + unfold expand_arguments. apply (arguments_sub n1 n2 _ args b A F Fa Fb []). constructor.
    + intros l O. now apply rescan_sub.
  - destruct (drop_comments an); [|reflexivity]. destruct args as [|a args]; [reflexivity|]. cbn [map]. pose proof (sub_nil a) as E.
    destruct a; [reflexivity|]. destruct (sub (t :: a)); [|reflexivity]. discriminate (proj1 E eq_refl).
Qed.
Lemma var_body_sub n1 n2 id b : agree n1 n2 -> fresh n1 -> ~ quiet id -> Forall okb (tokenize [] b) ->
  related (expand_var_macro_body rec1 n1 id (tokenize [] b)) (expand_var_macro_body rec2 n2 id (tokenize [] b)).
Proof.
  intros A F Q Fb. unfold expand_var_macro_body. destruct (contains_var_args (tokenize [] b)) eqn:V; [apply related_err|].
  assert (O : Forall okt (tokenize [] b) /\ sub (tokenize [] b) = tokenize [] b).
  { unfold tokenize in *. clear -Fb V. induction b as [|s b IH]; [split; [constructor|reflexivity]|]. cbn [map arg_position contains_var_args existsb] in *.
    apply orb_false_iff in V as [V1 V2]. inversion Fb as [|? ? B1 B2]. subst. destruct (IH B2 V2) as [I1 I2].
    assert (E : sub1 (from_str s) = [from_str s]).
    { pose proof (from_str_not_arg s) as X. destruct (from_str s); try reflexivity; [now destruct (X i)|discriminate V1]. }
    split.
    - now constructor.
    - unfold sub. cbn [flat_map]. rewrite E. cbn [app]. f_equal. exact I2. }
  destruct O as [O E]. rewrite <- E at 1. now apply rescan_sub.
Qed.

Lemma scan_inert names a it acc : (forall id, In (TIdent id) a -> quiet id /\ ~ In id names) ->
  scan ms rec1 names acc (a ++ it) = scan ms rec1 names (rev a ++ acc) it.
Proof.
  revert acc. induction a as [|t a IH]; intros acc Q; [reflexivity|]. cbn [app rev]. rewrite <- app_assoc. cbn [app].
  rewrite <- IH by (intros id I; apply Q; now right). destruct t as [u|i| |p|id|s|lt s|s|c|]; try reflexivity.
  destruct (Q id (or_introl eq_refl)) as [[V Fn] N]. cbn [scan]. apply str_mem_not_In in N. rewrite N, V, Fn. now destruct (peek_is _ _).
Qed.

Lemma scan_sub n1 n2 it : agree n1 n2 -> fresh n1 -> Forall okt it -> forall acc, Forall okt acc ->
  related (scan ms rec1 n1 (rev (sub (rev acc))) (sub it)) (scan ms rec2 n2 acc it).
Proof.
  intros A F. induction 1 as [|t it T O IH]; intros acc Ac.
  { cbn [sub flat_map scan]. rewrite rev_involutive. apply related_ok. now apply Forall_rev. }
  assert (K : sub1 t = [t] -> related (scan ms rec1 n1 (t :: rev (sub (rev acc))) (sub it)) (scan ms rec2 n2 (t :: acc) it)).
  { intro E. rewrite rev_sub by exact E. apply IH. now constructor. }
  change (sub (t :: it)) with (sub1 t ++ sub it). destruct t as [u|i| |p|id|s|lt s|s|c|]; try (cbn [sub1 app scan]; apply K; reflexivity).
  - cbn [sub1 scan]. rewrite scan_inert.
    + replace (rev (sg i) ++ rev (sub (rev acc))) with (rev (sub (rev (TArg i :: acc)))); [apply IH; now constructor|].
      cbn [rev]. rewrite sub_app, rev_app_distr. unfold sub at 1. cbn [flat_map sub1]. now rewrite app_nil_r.
    + intros id I. split; [now apply (Hsg i)|apply F; eauto].
  - cbn [sub1 scan]. rewrite scan_inert.
    + replace (rev sv ++ rev (sub (rev acc))) with (rev (sub (rev (TVarArgs :: acc)))); [apply IH; now constructor|].
      cbn [rev]. rewrite sub_app, rev_app_distr. unfold sub at 1. cbn [flat_map sub1]. now rewrite app_nil_r.
    + intros id I. split; [now apply Hsv|apply F; auto].
  - cbn [sub1 app scan]. specialize (K eq_refl). pose proof T as N. rewrite (agree_mem id n1 n2 A N).
    destruct (str_mem id n2).
    { replace (TNonRepl (TIdent id) :: rev (sub (rev acc))) with (rev (sub (rev (TNonRepl (TIdent id) :: acc)))) by (symmetry; now apply rev_sub).
      apply IH. now constructor. }
    rewrite peek_sub.
    assert (V : related
      match sm_get (var_macros ms) id with
      | Some body => e <- expand_var_macro_body rec1 n1 id (tokenize [] body) ;; rec1 n1 (rev (rev (sub (rev acc))) ++ e ++ sub it)
      | None => scan ms rec1 n1 (TIdent id :: rev (sub (rev acc))) (sub it) end
      match sm_get (var_macros ms) id with
      | Some body => e <- expand_var_macro_body rec2 n2 id (tokenize [] body) ;; rec2 n2 (rev acc ++ e ++ it)
      | None => scan ms rec2 n2 (TIdent id :: acc) it end).
    { destruct (sm_get (var_macros ms) id) as [b|] eqn:E; [|exact K]. apply related_bind.
      - apply var_body_sub; eauto. intros [Q _]. congruence.
      - intros e Oe. rewrite rev_involutive, <- !sub_app. apply Hrec; auto. rewrite !Forall_app. auto using Forall_rev. }
    destruct (peek_is _ it); [|exact V]. destruct (sm_get (fn_macros ms) id) as [[ps b]|] eqn:E; [|exact V].
    rewrite collect_args_sub. destruct (collect_args it) as [[args rest]|] eqn:Ec; cbn [omap sub_call fst snd]; [|exact V].
    unfold sub_call. cbn [fst snd]. destruct (tokenize_arg_names ps) as [an| | |] eqn:En; cbn [rbind]; try (split; [reflexivity|discriminate]).
    destruct (collect_args_Forall okt _ _ _ Ec O) as [Fa Fr].
    apply related_bind.
    + apply fn_body_sub; eauto. intros [_ Q]. congruence.
    + intros e Oe. rewrite rev_involutive, <- !sub_app. apply Hrec; auto. rewrite !Forall_app. auto using Forall_rev.
Qed.
End Rec.

Theorem expand_sub fuel : forall n1 n2 l, agree n1 n2 -> fresh n1 -> Forall okt l ->
  related (expand_macro_body ms fuel n1 (sub l)) (expand_macro_body ms fuel n2 l).
Proof.
  induction fuel as [|f IH]; intros n1 n2 l A F O; [split; [reflexivity|discriminate]|].
  exact (scan_sub _ _ IH n1 n2 l A F O [] (Forall_nil _)).
Qed.
End S.
