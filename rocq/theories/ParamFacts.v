(** [tokenize_arg_names] accepts exactly the parameter lists of SpecTokens.v. *)
From Verif Require Import Base Utf Lex LexFloat Token MacroSet StrFacts LexFacts TokenFacts SpecTokens.
From Coq Require Import String List.
Local Open Scope list_scope.

Section S.
Context `{Unicode}.

(** Meaning of the accumulator. *)
Definition ids_of (l : list token) : list str :=
  MacroSet.filter_map (fun t => match t with TIdent id => Some id | _ => None end) l.

Lemma filter_map_app {A B} (f : A -> option B) a b :
  MacroSet.filter_map f (a ++ b) = MacroSet.filter_map f a ++ MacroSet.filter_map f b.
Proof. induction a as [|x a IH]; simpl; [easy|]. destruct (f x); simpl; now rewrite IH. Qed.

Lemma contains_ident_ids id l : contains_ident id l = true <-> In id (ids_of l).
Proof.
  induction l as [|t l IH]; simpl; [easy|]. rewrite orb_true_iff, IH.
  destruct t; simpl; try (split; [intros [?|?]; easy|now right]).
  rewrite str_eqb_eq. split; intros [?|?]; auto.
Qed.

Definition kinds (names : list str) : list parameter :=
  filter (fun p => negb (is_pcomment p)) (map parameter_kind names).

(** One step of the loop in terms of parameter kinds. *)
Lemma arg_names_step v acc n names :
  tokenize_arg_names_loop v acc (n :: names) =
  match parameter_kind n with
  | PName id => if v then RErr InvalidArgumentName
                else if str_mem id (ids_of acc) then RErr (NonUniqueArgument id)
                else tokenize_arg_names_loop v (acc ++ [from_str n]) names
  | PEllipsis => if v then RErr (NonUniqueArgument (st "...")) else tokenize_arg_names_loop true (acc ++ [from_str n]) names
  | PComment => tokenize_arg_names_loop v (acc ++ [from_str n]) names
  | POther => RErr InvalidArgumentName
  end.
Proof.
  unfold parameter_kind. simpl. destruct (from_str n); try reflexivity.
  - destruct (list_eq_dec N.eq_dec p (st "...")) as [->|Hn].
    + now rewrite str_eqb_refl.
    + apply str_eqb_neq in Hn. now rewrite Hn.
  - destruct v; [easy|]. destruct (contains_ident id acc) eqn:E.
    + apply contains_ident_ids in E. apply str_mem_In in E. now rewrite E.
    + destruct (str_mem id (ids_of acc)) eqn:E2; [|easy].
      apply str_mem_In in E2. apply contains_ident_ids in E2. congruence.
Qed.

Lemma ids_of_app a b : ids_of (a ++ b) = ids_of a ++ ids_of b.
Proof. apply filter_map_app. Qed.

Lemma ids_of_from_str n : ids_of [from_str n] = match parameter_kind n with PName id => [id] | _ => [] end.
Proof. unfold parameter_kind. simpl. destruct (from_str n); try easy. now destruct (list_eq_dec _ _ _). Qed.

Lemma NoDup_snoc {A} (l : list A) x : NoDup l -> ~ In x l -> NoDup (l ++ [x]).
Proof.
  intros Hl Hx. apply NoDup_rev in Hl. rewrite <- (rev_involutive (l ++ [x])). apply NoDup_rev.
  rewrite rev_app_distr. simpl. constructor; [|easy]. now rewrite <- in_rev.
Qed.

(** Success. *)
Lemma arg_names_loop_ok names : forall v acc out,
  NoDup (ids_of acc) ->
  (tokenize_arg_names_loop v acc names = ROk out <->
   out = acc ++ map from_str names /\
   exists ids (v' : bool), kinds names = map PName ids ++ (if v' then [PEllipsis] else []) /\
     (v = true -> ids = [] /\ v' = false) /\ NoDup (ids_of acc ++ ids)).
Proof.
  induction names as [|n names IH]; intros v acc out Hnd.
  - simpl. rewrite app_nil_r. split.
    + intros E. inversion E; subst. split; [easy|]. exists [], false. repeat split; auto. now rewrite app_nil_r.
    + now intros [-> _].
  - rewrite arg_names_step. pose proof (ids_of_from_str n) as Hids.
    unfold kinds. simpl map. simpl filter. fold (kinds names).
    assert (Hassoc : acc ++ from_str n :: map from_str names = (acc ++ [from_str n]) ++ map from_str names).
    { now rewrite <- app_assoc. }
    destruct (parameter_kind n) as [id| | |] eqn:Ek; simpl.
    + destruct v.
      * split; [discriminate|]. intros (_ & ids & v' & Hk & Hv & _). destruct Hv as [-> ->]; [easy|]. discriminate.
      * destruct (str_mem id (ids_of acc)) eqn:Em.
        { apply str_mem_In in Em. split; [discriminate|]. intros (_ & ids & v' & Hk & _ & Hd).
          destruct ids as [|i ids]; [destruct v'; discriminate|]. simpl in Hk. inversion Hk; subst.
          apply NoDup_remove_2 in Hd. destruct Hd. apply in_or_app. now left. }
        { apply str_mem_not_In in Em. rewrite IH, <- Hassoc.
          2:{ rewrite ids_of_app, Hids. apply NoDup_snoc; auto. }
          rewrite ids_of_app, Hids. split.
          - intros (-> & ids & v' & Hk & Hv & Hd). split; [easy|]. exists (id :: ids), v'. simpl. rewrite Hk.
            repeat split; auto; try discriminate. now rewrite <- app_assoc in Hd.
          - intros (-> & ids & v' & Hk & Hv & Hd). split; [easy|].
            destruct ids as [|i ids]; [destruct v'; discriminate|]. simpl in Hk. inversion Hk; subst.
            exists ids, v'. repeat split; auto; try discriminate. now rewrite <- app_assoc. }
    + destruct v.
      * split; [discriminate|]. intros (_ & ids & v' & Hk & Hv & _). destruct Hv as [-> ->]; [easy|]. discriminate.
      * rewrite IH, <- Hassoc; [|now rewrite ids_of_app, Hids, app_nil_r].
        rewrite ids_of_app, Hids, app_nil_r. split.
        -- intros (-> & ids & v' & Hk & Hv & Hd). split; [easy|]. destruct Hv as [-> ->]; [easy|].
           exists [], true. simpl in *. rewrite Hk. repeat split; auto; discriminate.
        -- intros (-> & ids & v' & Hk & Hv & Hd). split; [easy|].
           destruct ids as [|i ids]; [|discriminate]. destruct v'; [|discriminate]. simpl in Hk.
           exists [], false. inversion Hk. repeat split; auto.
    + rewrite IH, <- Hassoc; [|now rewrite ids_of_app, Hids, app_nil_r].
      rewrite ids_of_app, Hids, app_nil_r. reflexivity.
    + split; [discriminate|]. intros (_ & ids & v' & Hk & _). destruct ids; [destruct v'|]; discriminate.
Qed.

(** Failure: the first offending entry. *)
Lemma arg_names_loop_err names : forall v acc e,
  tokenize_arg_names_loop v acc names = RErr e ->
  exists pre x post acc', names = pre ++ x :: post /\
    tokenize_arg_names_loop v acc pre = ROk acc' /\
    let v' := orb v (existsb (fun p => match p with PEllipsis => true | _ => false end) (map parameter_kind pre)) in
    match parameter_kind x with
    | PName id => (v' = true /\ e = InvalidArgumentName) \/
                  (v' = false /\ In id (ids_of acc') /\ e = NonUniqueArgument id)
    | PEllipsis => v' = true /\ e = NonUniqueArgument (st "...")
    | PComment => False
    | POther => e = InvalidArgumentName
    end.
Proof.
  induction names as [|n names IH]; intros v acc e; [discriminate|]. rewrite arg_names_step.
  assert (Hhere : forall (P : bool -> list token -> Prop), P v acc ->
    exists pre x post acc', n :: names = pre ++ x :: post /\ tokenize_arg_names_loop v acc pre = ROk acc' /\ pre = [] /\ x = n /\ P v acc').
  { intros P HP. exists [], n, names, acc. auto. }
  assert (Hnext : forall v1, v1 = orb v (match parameter_kind n with PEllipsis => true | _ => false end) ->
    tokenize_arg_names_loop v acc (n :: names) = tokenize_arg_names_loop v1 (acc ++ [from_str n]) names ->
    (forall l, tokenize_arg_names_loop v acc (n :: l) = tokenize_arg_names_loop v1 (acc ++ [from_str n]) l) ->
    tokenize_arg_names_loop v1 (acc ++ [from_str n]) names = RErr e ->
    exists pre x post acc', n :: names = pre ++ x :: post /\
    tokenize_arg_names_loop v acc pre = ROk acc' /\
    let v' := orb v (existsb (fun p => match p with PEllipsis => true | _ => false end) (map parameter_kind pre)) in
    match parameter_kind x with
    | PName id => (v' = true /\ e = InvalidArgumentName) \/
                  (v' = false /\ In id (ids_of acc') /\ e = NonUniqueArgument id)
    | PEllipsis => v' = true /\ e = NonUniqueArgument (st "...")
    | PComment => False
    | POther => e = InvalidArgumentName
    end).
  { intros v1 Hv1 _ Hl He. apply IH in He. destruct He as (pre & x & post & acc' & -> & Hok & Hx).
    exists (n :: pre), x, post, acc'. split; [easy|]. split; [now rewrite Hl|].
    simpl existsb in *. rewrite Hv1 in Hx. rewrite orb_assoc. exact Hx. }
  destruct (parameter_kind n) as [id| | |] eqn:Ek.
  - destruct v.
    + intros E. inversion E; subst. exists [], n, names, acc. repeat split. rewrite Ek. left. easy.
    + destruct (str_mem id (ids_of acc)) eqn:Em.
      * intros E. inversion E; subst. exists [], n, names, acc. repeat split. rewrite Ek. right.
        apply str_mem_In in Em. easy.
      * intros E. apply (Hnext false); auto; intros; rewrite arg_names_step, Ek, Em; auto.
  - destruct v.
    + intros E. inversion E; subst. exists [], n, names, acc. repeat split. now rewrite Ek.
    + intros E. apply (Hnext true); auto; intros; rewrite arg_names_step, Ek; auto.
  - intros E. apply (Hnext v); auto; try (intros; rewrite arg_names_step, Ek; auto). now rewrite orb_false_r.
  - intros E. inversion E; subst. exists [], n, names, acc. repeat split. now rewrite Ek.
Qed.

Lemma tokenize_arg_names_iff names an :
  tokenize_arg_names names = ROk an <->
  an = map from_str names /\ exists ids v, parameter_list names ids v.
Proof.
  unfold tokenize_arg_names. rewrite arg_names_loop_ok by constructor. simpl.
  unfold parameter_list. fold (kinds names). split.
  - intros (-> & ids & v & Hk & _ & Hd). split; [easy|]. now exists ids, v.
  - intros (-> & ids & v & Hk & Hd). split; [easy|]. exists ids, v. repeat split; auto; discriminate.
Qed.
End S.
