(** Facts about type inference: unfolding, enough fuel, what happens to the
    context and to what an expression mentions. *)
From Verif Require Import Base Utf Lex LexFloat Token Ast ParseStmt Rust Finish SpecGen StrFacts.
From Coq Require Import String List Lia.
Import ListNotations.
Local Open Scope list_scope.

Section F.
Context {U : Unicode}.
Variable cx : cgctx.

Definition again_of (n : nat) : expr -> lctx -> fin expr :=
  match n with O => fun e c => (e, c, FFuel) | S n' => finish cx n' end.
Lemma finish_eq n e c : finish cx n e c = finish_step cx (again_of n) (finish cx n) e c.
Proof. destruct n; destruct e; reflexivity. Qed.

(** ** The context *)

(** Only the types of the arguments and the macro flag change, the flag only
    from unset to set. *)
Definition step (c c' : lctx) : Prop :=
  lc_names c' = lc_names c /\ lc_cstr c' = lc_cstr c /\ lc_elide c' = lc_elide c /\ lc_var c' = lc_var c /\
  length (lc_types c') = length (lc_types c) /\ (lc_macro c = true -> lc_macro c' = true).
Lemma step_refl c : step c c.
Proof. unfold step; tauto. Qed.
Lemma step_trans a b c : step a b -> step b c -> step a c.
Proof. unfold step; intuition congruence. Qed.
Lemma step_macro c : step c (set_macro true c).
Proof. unfold step; cbn; tauto. Qed.
Lemma set_nth_length {A} (l : list A) : forall i x l', set_nth l i x = Some l' -> length l' = length l /\ i < length l.
Proof.
  induction l as [|a l IH]; intros [|i] x l'; cbn; try discriminate.
  - intros H; injection H as <-; cbn; lia.
  - destruct (set_nth l i x) as [l1|] eqn:E; cbn; [|discriminate]. intros H; injection H as <-.
    apply IH in E. cbn; lia.
Qed.
Lemma set_arg_step c i t c' : set_arg_type c i t = Some c' ->
  step c c' /\ lc_macro c' = lc_macro c /\ i < length (lc_types c).
Proof.
  unfold set_arg_type. destruct (set_nth (lc_types c) i t) as [l|] eqn:E; cbn; [|discriminate].
  intros H; injection H as <-. apply set_nth_length in E as [E1 E2]. unfold step; cbn. tauto.
Qed.
Lemma arg_type_lt c i t : arg_type c i = Some t -> i < length (lc_types c).
Proof. intros E. apply nth_error_Some. unfold arg_type in E. congruence. Qed.

Definition quiet (c c' : lctx) : Prop := step c c' /\ lc_macro c' = lc_macro c.
Lemma quiet_refl c : quiet c c.
Proof. split; [apply step_refl | reflexivity]. Qed.
Lemma quiet_trans a b c : quiet a b -> quiet b c -> quiet a c.
Proof. intros [A1 A2] [B1 B2]. split; [eapply step_trans; eauto | congruence]. Qed.
Lemma set_arg_quiet c i t c' : set_arg_type c i t = Some c' -> quiet c c'.
Proof. intros E. apply set_arg_step in E as (A & B & _). split; assumption. Qed.

Definition isok (f : fres) : Prop := match f with FOk _ => True | _ => False end.

(** The parts of a name are arguments that exist, or plain. *)
Definition name_ok (c : lctx) (n : ident_expr) : Prop :=
  match n with
  | IConcat l => Forall (fun p => match p with IpArg i => i < length (lc_types c) | IpPlain _ => True | IpInt _ => False end) l
  | _ => True
  end.
Lemma idparts_facts l : forall c c' f, idparts_finish l c = (c', f) ->
  quiet c c' /\ f <> FFuel /\ (isok f -> name_ok c' (IConcat l)).
Proof.
  induction l as [|[i|s|v] l IH]; intros c c' f; cbn [idparts_finish].
  - intros H; injection H as <- <-. split; [apply quiet_refl|]. split; [discriminate|]. constructor.
  - destruct (set_arg_type c i AIdent) as [c1|] eqn:E.
    + intros H. apply IH in H as (H1 & H2 & H3). split; [eapply quiet_trans; [eapply set_arg_quiet, E | exact H1]|].
      split; [assumption|]. intros F. constructor; [|apply H3; exact F].
      apply set_arg_step in E as (E1 & _ & E2). destruct E1 as (_ & _ & _ & _ & E1 & _).
      destruct H1 as [(_ & _ & _ & _ & H1 & _) _]. lia.
    + intros H; injection H as <- <-. split; [apply quiet_refl|]. split; [discriminate|]. intros [].
  - intros H. apply IH in H as (H1 & H2 & H3). split; [assumption|]. split; [assumption|].
    intros F. constructor; [exact I | apply H3; exact F].
  - destruct (0 <=? v)%Z; intros H; injection H as <- <-; (split; [apply quiet_refl|]); (split; [discriminate|]); intros [].
Qed.
Lemma ident_facts n c c' f : ident_finish n c = (c', f) -> quiet c c' /\ f <> FFuel /\ (isok f -> name_ok c' n).
Proof.
  destruct n as [i|s|l]; cbn [ident_finish].
  - intros H; injection H as <- <-. split; [apply quiet_refl|]. split; [discriminate|]. intros _; exact I.
  - intros H; injection H as <- <-. split; [apply quiet_refl|]. split; [discriminate|]. intros _; exact I.
  - apply idparts_facts.
Qed.

Lemma from_rust_ty_fuel p t : from_rust_ty p t <> RFuel.
Proof.
  induction t as [m t IH| |q pa|s ts|s ts]; cbn [from_rust_ty]; try discriminate.
  - destruct (from_rust_ty p t); cbn; try discriminate. congruence.
  - destruct (builtin_from_rust q pa p); [discriminate|]. destruct (sp_colon pa); [discriminate|].
    destruct (sp_segs pa) as [|x [|y l]]; discriminate.
Qed.
Lemma from_rust_ty_panic p t : from_rust_ty p t <> RPanic.
Proof.
  induction t as [m t IH| |q pa|s ts|s ts]; cbn [from_rust_ty]; try discriminate.
  - destruct (from_rust_ty p t); cbn; try discriminate. congruence.
  - destruct (builtin_from_rust q pa p); [discriminate|]. destruct (sp_colon pa); [discriminate|].
    destruct (sp_segs pa) as [|x [|y l]]; discriminate.
Qed.
Lemma from_rust_fuel t k : (forall t', k t' <> FFuel) -> from_rust cx t k <> FFuel.
Proof.
  unfold from_rust. intros Hk. pose proof (from_rust_ty_fuel (cx_ffi cx) t). destruct (from_rust_ty (cx_ffi cx) t); try discriminate.
  - apply Hk.
  - congruence.
Qed.

Lemma ty_facts t : forall c t' c' f, ty_finish cx t c = (t', c', f) -> quiet c c' /\ f <> FFuel.
Proof.
  induction t as [b|n s|co l|t IH|t IH q]; intros c t' c' f; cbn [ty_finish].
  - intros H; injection H as <- <- <-. split; [apply quiet_refl | discriminate].
  - destruct (ident_finish n c) as [c1 r] eqn:E. apply ident_facts in E as (E & F & _).
    destruct r as [o|e| |]; [|intros H; injection H as <- <- <-; split; [exact E | discriminate]..|congruence].
    destruct n as [i|id|l0]; try (intros H; injection H as <- <- <-; split; [exact E | discriminate]).
    destruct (cx_ty cx id) as [rt|]; [|intros H; injection H as <- <- <-; split; [exact E | discriminate]].
    pose proof (from_rust_ty_fuel (cx_ffi cx) rt).
    destruct (from_rust_ty (cx_ffi cx) rt); intros H1; injection H1 as <- <- <-; split; try exact E; try discriminate; congruence.
  - intros H; injection H as <- <- <-. split; [apply quiet_refl | discriminate].
  - destruct (ty_finish cx t c) as [[t1 c1] f1] eqn:E. intros H; injection H as <- <- <-. eapply IH, E.
  - destruct (ty_finish cx t c) as [[t1 c1] f1] eqn:E. intros H; injection H as <- <- <-. eapply IH, E.
Qed.

Lemma wchar_fuel c k : (forall t, k t <> FFuel) -> wchar_finish cx c k <> FFuel.
Proof.
  intros Hk. unfold wchar_finish. destruct (ty_finish cx _ c) as [[t c'] f] eqn:E. apply ty_facts in E as [_ E].
  destruct f; try discriminate; [apply Hk | congruence].
Qed.
Lemma lit_fuel l c : lit_finish cx l c <> FFuel.
Proof.
  destruct l as [x|x|x|x]; cbn [lit_finish].
  - destruct x; cbn; try discriminate. apply wchar_fuel; discriminate.
  - destruct x; cbn; try discriminate. apply wchar_fuel; discriminate.
  - destruct x; discriminate.
  - discriminate.
Qed.

(** ** Mentions *)

(** What a mention guarantees once its expression has been finished. *)
Definition mention_ok (c : lctx) (m : mention) : Prop :=
  (needs_macro cx m -> lc_macro c = true) /\
  match m with
  | MVar (IArg i) => i < length (lc_types c)
  | MVar n => name_ok c n
  | MCall n => lc_var c = false /\ name_ok c n
  | MStr (EVar (IArg i)) => i < length (lc_types c)
  | MStr (EVar (IPlain s)) => source_location s
  | MStr _ => False
  | MAssign _ | MAsm _ => True
  end.
Lemma name_ok_step c c' n : step c c' -> name_ok c n -> name_ok c' n.
Proof.
  intros (_ & _ & _ & _ & E & _). destruct n as [i|s|l]; cbn; try tauto.
  apply Forall_impl. intros [i|s|v]; lia.
Qed.
Lemma mention_ok_step c c' m : step c c' -> mention_ok c m -> mention_ok c' m.
Proof.
  intros S [A B]. pose proof S as (_ & _ & _ & Hv & E & M). split; [intros H; apply M, A, H|].
  destruct m as [n|n|a|i|t]; try exact I.
  - destruct n; [lia|exact B|]. eapply name_ok_step; eauto.
  - destruct B as [B1 B2]. split; [congruence | eapply name_ok_step; eauto].
  - destruct a as [n| | | | | | | | |]; try exact B. destruct n; [lia | exact B | exact B].
Qed.

Definition ment (l : list expr) := flat_map mentions l.

(** The invariants of finishing: *)
Definition good (g : fin expr) (e : expr) (c : lctx) : Prop :=
  let '(e', c', f) := g in
  incl (mentions e) (mentions e') /\ step c c' /\
  (lc_macro c' = true -> lc_macro c = true \/ Exists (needs_macro cx) (mentions e')) /\
  (isok f -> Forall (mention_ok c') (mentions e') /\ (lc_var c = true -> no_deref e')).
Definition fuelok (g : fin expr) (e : expr) : Prop := let '(e', _, f) := g in f <> FFuel /\ weight e' <= weight e.

Lemma var_facts n c c' f : var_finish cx n c = (c', f) ->
  step c c' /\ (lc_macro c' = true -> lc_macro c = true \/ needs_macro cx (MVar n)) /\
  (isok f -> mention_ok c' (MVar n)) /\ f <> FFuel.
Proof.
  unfold var_finish. destruct (ident_finish n c) as [c1 r] eqn:E. apply ident_facts in E as ([E1 E2] & F & G).
  destruct r as [o|e| |];
    [|intros H; injection H as <- <-; (split; [exact E1|]); (split; [rewrite E2; tauto|]); (split; [intros []|]); discriminate..|congruence].
  specialize (G I).
  destruct n as [i|s|l].
  - destruct (arg_type c1 i) as [a|] eqn:A.
    + assert (X : forall o, (c1, FOk o) = (c', f) -> step c c' /\ (lc_macro c' = true -> lc_macro c = true \/ needs_macro cx (MVar (IArg i))) /\
        (isok f -> mention_ok c' (MVar (IArg i))) /\ f <> FFuel).
      { intros o0 H; injection H as <- <-. split; [exact E1|]. split; [rewrite E2; tauto|]. split; [|discriminate].
        intros _. split; [intros []|]. apply arg_type_lt in A. exact A. }
      destruct a; apply X.
    + intros H; injection H as <- <-. (split; [exact E1|]); (split; [rewrite E2; tauto|]); (split; [intros []|]); discriminate.
  - assert (M : forall o, ~ resolved cx s -> (set_macro true c1, FOk o) = (c', f) ->
      step c c' /\ (lc_macro c' = true -> lc_macro c = true \/ needs_macro cx (MVar (IPlain s))) /\
      (isok f -> mention_ok c' (MVar (IPlain s))) /\ f <> FFuel).
    { intros o0 R H; injection H as <- <-. split; [eapply step_trans; [exact E1 | apply step_macro]|].
      split; [intros _; right; exact R|]. split; [|discriminate]. intros _. split; [reflexivity | exact I]. }
    assert (K : forall r, resolved cx s -> r <> FFuel -> (c1, r) = (c', f) ->
      step c c' /\ (lc_macro c' = true -> lc_macro c = true \/ needs_macro cx (MVar (IPlain s))) /\
      (isok f -> mention_ok c' (MVar (IPlain s))) /\ f <> FFuel).
    { intros r R N H; injection H as <- <-. split; [exact E1|]. split; [rewrite E2; tauto|]. split; [|exact N].
      intros _. split; [|exact I]. intros H; destruct (H R). }
    destruct (str_eqb s (st "__LINE__")) eqn:S1; [apply M; apply str_eqb_eq in S1; subst; intros [H _]; apply H; left; reflexivity|].
    destruct (str_eqb s (st "__FILE__")) eqn:S2; [apply M; apply str_eqb_eq in S2; subst; intros [H _]; apply H; right; reflexivity|].
    assert (NS : ~ source_location s).
    { intros [E0|E0]; subst s; [rewrite str_eqb_refl in S1; discriminate S1 | rewrite str_eqb_refl in S2; discriminate S2]. }
    destruct (rust_name limit_types s) as [b|] eqn:L.
    + apply K; [|discriminate]. split; [exact NS|]. left. unfold limit_macro, limit_types in *. cbn [rust_name map] in *.
      repeat match type of L with context [if str_eqb s ?x then _ else _] =>
        destruct (str_eqb s x) eqn:Q; [apply str_eqb_eq in Q; subst s; cbn; tauto|clear Q] end. discriminate L.
    + destruct (cx_enum cx s) as [[t ts]|] eqn:En.
      * apply K; [|apply from_rust_fuel; discriminate]. split; [exact NS|]. right; congruence.
      * apply M. intros [_ [H|H]]; [|congruence]. unfold limit_macro, limit_types in *. cbn [rust_name map In] in *.
        destruct H as [<-|[<-|[<-|[<-|[<-|[]]]]]]; discriminate L.
  - intros H; injection H as <- <-. split; [exact E1|]. split; [rewrite E2; tauto|]. split; [|discriminate].
    intros _. split; [intros [] | exact G].
Qed.

Lemma stringify_facts a c c' f : stringify_finish a c = (c', f) ->
  step c c' /\ (lc_macro c' = true -> lc_macro c = true \/ needs_macro cx (MStr a)) /\
  (isok f -> mention_ok c' (MStr a)) /\ f <> FFuel.
Proof.
  assert (X : forall a, (c, unsupported "stringification") = (c', f) ->
    step c c' /\ (lc_macro c' = true -> lc_macro c = true \/ needs_macro cx (MStr a)) /\
    (isok f -> mention_ok c' (MStr a)) /\ f <> FFuel).
  { intros a0 H; injection H as <- <-. split; [apply step_refl|]. split; [tauto|]. split; [intros [] | discriminate]. }
  unfold stringify_finish. destruct a as [n| | | | | | | | |]; try (apply X). destruct n as [i|s|l]; [| |apply X].
  - destruct (arg_type c i) as [t|] eqn:A.
    + assert (L := arg_type_lt _ _ _ A).
      assert (Y : match set_arg_type c i AExpr with Some c'0 => (c'0, FOk (Some ty_const_char_ptr)) | None => (c, FPanic) end = (c', f) ->
        step c c' /\ (lc_macro c' = true -> lc_macro c = true \/ needs_macro cx (MStr (EVar (IArg i)))) /\
        (isok f -> mention_ok c' (MStr (EVar (IArg i)))) /\ f <> FFuel).
      { destruct (set_arg_type c i AExpr) as [c1|] eqn:S.
        - intros H; injection H as <- <-. apply set_arg_step in S as (S1 & S2 & S3). split; [exact S1|].
          split; [rewrite S2; tauto|]. split; [|discriminate]. intros _. split; [intros []|].
          destruct S1 as (_ & _ & _ & _ & S1 & _). lia.
        - intros H; injection H as <- <-. split; [apply step_refl|]. split; [tauto|]. split; [intros [] | discriminate]. }
      destruct t; try exact Y. intros H; injection H as <- <-. split; [apply step_refl|]. split; [tauto|]. split; [|discriminate].
      intros _. split; [intros [] | exact L].
    + intros H; injection H as <- <-. split; [apply step_refl|]. split; [tauto|]. split; [intros [] | discriminate].
  - destruct (str_eqb s (st "__LINE__") || str_eqb s (st "__FILE__")) eqn:S; [|apply X].
    assert (L : source_location s).
    { apply Bool.orb_true_iff in S as [S|S]; apply str_eqb_eq in S; [left | right]; exact S. }
    intros H; injection H as <- <-. split; [apply step_macro|]. split; [intros _; right; exact L|]. split; [|discriminate].
    intros _. split; [reflexivity | exact L].
Qed.

Lemma infer_arg_facts e t c c' f : infer_arg e t c = (c', f) -> (fst t <> FFuel \/ snd t <> None) -> quiet c c' /\ f <> FFuel.
Proof.
  unfold infer_arg. intros H T.
  assert (X : forall r, (c, r) = (c', f) -> r <> FFuel -> quiet c c' /\ f <> FFuel).
  { intros r E N; injection E as <- <-. split; [apply quiet_refl | exact N]. }
  destruct e as [n| | | | | | | | |]; try (eapply X; [exact H | discriminate]).
  destruct n as [i|s|l]; try (eapply X; [exact H | discriminate]).
  destruct (arg_type c i) as [[| | | | |]|]; try (eapply X; [exact H | discriminate]).
  destruct t as [r [a|]].
  - destruct (set_arg_type c i a) as [c1|] eqn:S; [|eapply X; [exact H | discriminate]].
    injection H as <- <-. split; [eapply set_arg_quiet, S | discriminate].
  - eapply X; [exact H|]. cbn in T. tauto.
Qed.
Lemma known_arg_facts t : fst (known_arg cx t) <> FFuel \/ snd (known_arg cx t) <> None.
Proof.
  unfold known_arg. pose proof (from_rust_ty_fuel (cx_ffi cx) t). destruct (from_rust_ty (cx_ffi cx) t); cbn; try (left; discriminate).
  congruence.
Qed.
Lemma infer_args_facts args : forall tys c c' f, infer_args cx args tys c = (c', f) -> quiet c c' /\ f <> FFuel.
Proof.
  induction args as [|e args IH]; intros [|t tys] c c' f; cbn [infer_args];
    try (intros H; injection H as <- <-; split; [apply quiet_refl | discriminate]).
  destruct (infer_arg e (known_arg cx t) c) as [c1 r] eqn:E. apply infer_arg_facts in E as [E F]; [|apply known_arg_facts].
  destruct r as [o|x| |]; try (intros H; injection H as <- <-; split; [exact E | exact F]).
  intros H. apply IH in H as [H1 H2]. split; [eapply quiet_trans; eauto | exact H2].
Qed.
Lemma call_facts n args c c' f : call_types cx n args c = (c', f) ->
  step c c' /\ (lc_macro c' = true -> lc_macro c = true \/ needs_macro cx (MCall n)) /\
  (needs_macro cx (MCall n) -> lc_macro c' = true) /\ f <> FFuel.
Proof.
  assert (X : forall r (c1 : lctx) n, (c1, r) = (c', f) -> quiet c c1 -> r <> FFuel -> ~ needs_macro cx (MCall n) ->
    step c c' /\ (lc_macro c' = true -> lc_macro c = true \/ needs_macro cx (MCall n)) /\
    (needs_macro cx (MCall n) -> lc_macro c' = true) /\ f <> FFuel).
  { intros r c1 n0 E [Q1 Q2] N M; injection E as <- <-. split; [exact Q1|]. split; [rewrite Q2; tauto|]. tauto. }
  unfold call_types. destruct n as [i|id|l]; try (intros H; apply (X _ _ _ H); [apply quiet_refl | discriminate | intros []]).
  destruct (cx_fn cx id) as [[tys ret]|] eqn:E.
  - assert (NN : ~ needs_macro cx (MCall (IPlain id))) by (cbn; congruence).
    destruct (Nat.eqb (length tys) (length args)); [|intros H; apply (X _ _ _ H); [apply quiet_refl | discriminate | exact NN]].
    pose proof (from_rust_ty_fuel (cx_ffi cx) ret).
    destruct (from_rust_ty (cx_ffi cx) ret); try (intros Hx; apply (X _ _ _ Hx); [apply quiet_refl | discriminate | exact NN]); [|congruence].
    destruct (infer_args cx args tys c) as [c1 r] eqn:I. apply infer_args_facts in I as [I1 I2].
    destruct r; intros Hx; apply (X _ _ _ Hx); try exact I1; try exact NN; try discriminate; congruence.
  - assert (NN : needs_macro cx (MCall (IPlain id))) by exact E.
    assert (Y : forall r c1, (c1, r) = (c', f) -> quiet (set_macro true c) c1 -> r <> FFuel ->
      step c c' /\ (lc_macro c' = true -> lc_macro c = true \/ needs_macro cx (MCall (IPlain id))) /\
      (needs_macro cx (MCall (IPlain id)) -> lc_macro c' = true) /\ f <> FFuel).
    { intros r c1 H [Q1 Q2] N; injection H as <- <-. split; [eapply step_trans; [apply step_macro | exact Q1]|].
      split; [intros _; right; exact NN|]. split; [intros _; exact Q2 | exact N]. }
    destruct (str_eqb id (st "__builtin_offsetof")); [|intros H; apply (Y _ _ H); [apply quiet_refl | discriminate]].
    destruct args as [|a [|b [|]]]; try (intros H; apply (Y _ _ H); [apply quiet_refl | discriminate]).
    destruct (infer_arg a (FOk None, Some ATy) (set_macro true c)) as [c1 r] eqn:A.
    apply infer_arg_facts in A as [A1 A2]; [|right; discriminate].
    destruct r; try (intros H; apply (Y _ _ H); [exact A1 | first [discriminate | congruence]]).
    intros H. pose proof H as H0. apply infer_arg_facts in H0 as [B1 B2]; [|right; discriminate].
    destruct (infer_arg b (FOk None, Some ATt) c1) as [c2 r2] eqn:B. apply (Y _ _ H); injection H as -> ->.
    + eapply quiet_trans; eauto.
    + exact B2.
Qed.

(** ** The invariants hold *)

Lemma list_good (go : expr -> lctx -> fin expr) l :
  Forall (fun e => forall c, good (go e c) e c) l -> forall c l' c' f, list_finish go l c = (l', c', f) ->
  incl (ment l) (ment l') /\ step c c' /\
  (lc_macro c' = true -> lc_macro c = true \/ Exists (needs_macro cx) (ment l')) /\
  (isok f -> Forall (mention_ok c') (ment l') /\ (lc_var c = true -> fold_right (fun e p => no_deref e /\ p) True l')).
Proof.
  induction 1 as [|e l H HF IH]; intros c l' c' f; cbn [list_finish].
  - intros E; injection E as <- <- <-. split; [apply incl_refl|]. split; [apply step_refl|]. split; [tauto|].
    intros _. split; [constructor | cbn; tauto].
  - specialize (H c). destruct (go e c) as [[e1 c1] r] eqn:G. cbn in H. destruct H as (I1 & S1 & M1 & O1).
    unfold fbind. destruct r as [t|x| |].
    + destruct (list_finish go l c1) as [[l2 c2] r2] eqn:L. intros E; injection E as <- <- <-.
      specialize (IH _ _ _ _ L). destruct IH as (I2 & S2 & M2 & O2). unfold ment in *. cbn [flat_map].
      split; [apply incl_app; [apply incl_appl; exact I1 | apply incl_appr; exact I2]|].
      split; [eapply step_trans; eauto|]. split.
      * intros M. apply M2 in M as [M|M]; [apply M1 in M as [M|M]; [left; exact M | right; apply Exists_app; left; exact M]|].
        right; apply Exists_app; right; exact M.
      * intros F. destruct (O1 I) as [A1 A2]. destruct (O2 F) as [B1 B2]. split.
        -- apply Forall_app; split; [|exact B1]. eapply Forall_impl; [|exact A1]. intros m; apply mention_ok_step, S2.
        -- intros V. cbn. split; [apply A2; exact V|]. apply B2. destruct S1 as (_ & _ & _ & S1 & _). congruence.
    + intros E; injection E as <- <- <-. unfold ment; cbn [flat_map].
      split; [apply incl_app; [apply incl_appl; exact I1 | apply incl_appr, incl_refl]|]. split; [exact S1|].
      split; [|intros []]. intros M. apply M1 in M as [M|M]; [left; exact M | right; apply Exists_app; left; exact M].
    + intros E; injection E as <- <- <-. unfold ment; cbn [flat_map].
      split; [apply incl_app; [apply incl_appl; exact I1 | apply incl_appr, incl_refl]|]. split; [exact S1|].
      split; [|intros []]. intros M. apply M1 in M as [M|M]; [left; exact M | right; apply Exists_app; left; exact M].
    + intros E; injection E as <- <- <-. unfold ment; cbn [flat_map].
      split; [apply incl_app; [apply incl_appl; exact I1 | apply incl_appr, incl_refl]|]. split; [exact S1|].
      split; [|intros []]. intros M. apply M1 in M as [M|M]; [left; exact M | right; apply Exists_app; left; exact M].
Qed.

Definition all_no_deref (l : list expr) : Prop := fold_right (fun e p => no_deref e /\ p) True l.
Lemma all_no_deref_app a b : all_no_deref (a ++ b) <-> all_no_deref a /\ all_no_deref b.
Proof. induction a as [|x a IH]; cbn; [tauto|]. unfold all_no_deref in *. rewrite IH. tauto. Qed.
Lemma ment_app a b : ment (a ++ b) = ment a ++ ment b.
Proof. apply flat_map_app. Qed.
Lemma ment_push acc cur : ment (push_string acc cur) = ment acc.
Proof. destruct cur; cbn; [|reflexivity]. rewrite ment_app. cbn. apply app_nil_r. Qed.
Lemma no_deref_push acc cur : all_no_deref (push_string acc cur) <-> all_no_deref acc.
Proof. destruct cur; cbn; [|tauto]. rewrite all_no_deref_app. cbn. tauto. Qed.

Definition concat_post done l acc c self names c' f : Prop :=
  step c c' /\
  (isok f -> incl (ment acc) (ment names) /\ incl (ment l) (ment names) /\
    (lc_macro c' = true -> lc_macro c = true \/ Exists (needs_macro cx) (ment names)) /\
    (Forall (mention_ok c) (ment acc) -> Forall (mention_ok c') (ment names)) /\
    (lc_var c = true -> all_no_deref acc -> all_no_deref names)) /\
  (~ isok f -> exists l', self = EConcat (done ++ l') /\ incl (ment l) (ment l') /\
    (lc_macro c' = true -> lc_macro c = true \/ Exists (needs_macro cx) (ment l'))).
Lemma concat_good (go : expr -> lctx -> fin expr) l :
  Forall (fun e => forall c, good (go e c) e c) l -> forall done acc cur c self names c' f,
  concat_finish go done l acc cur c = (self, names, c', f) -> concat_post done l acc c self names c' f.
Proof.
  induction 1 as [|e l H HF IH]; intros done acc cur c self names c' f; cbn [concat_finish].
  - intros E; injection E as <- <- <- <-. split; [apply step_refl|]. split; [|intros X; destruct (X I)].
    intros _. rewrite ment_push. split; [apply incl_refl|]. split; [intros x []|]. split; [tauto|]. split; [tauto|].
    intros _. apply no_deref_push.
  - specialize (H c). destruct (go e c) as [[e1 c1] r] eqn:G. cbn in H. destruct H as (I1 & S1 & M1 & O1).
    (* an error here *)
    assert (X : forall r names0, (EConcat (done ++ e1 :: l), names0, c1, r) = (self, names, c', f) -> ~ isok r ->
      concat_post done (e :: l) acc c self names c' f).
    { intros r0 n0 E N; injection E as <- <- <- <-. split; [exact S1|]. split; [intros Y; destruct (N Y)|].
      intros _. exists (e1 :: l). split; [reflexivity|]. cbn [ment flat_map].
      split; [apply incl_app; [apply incl_appl; exact I1 | apply incl_appr, incl_refl]|].
      intros M. apply M1 in M as [M|M]; [left; exact M | right; apply Exists_app; left; exact M]. }
    (* the loop goes on *)
    assert (Y : forall acc' cur', isok r -> incl (ment acc) (ment acc') -> incl (mentions e1) (ment acc') ->
      (Forall (mention_ok c1) (ment acc) -> Forall (mention_ok c1) (mentions e1) -> Forall (mention_ok c1) (ment acc')) ->
      (all_no_deref acc -> no_deref e1 -> all_no_deref acc') ->
      concat_finish go (done ++ [e1]) l acc' cur' c1 = (self, names, c', f) ->
      concat_post done (e :: l) acc c self names c' f).
    { intros acc' cur' R A1 A2 A3 A4 E. apply IH in E as (S2 & K & N). destruct (O1 R) as [O1a O1b].
      split; [eapply step_trans; eauto|]. split.
      - intros F. destruct (K F) as (K1 & K2 & K3 & K4 & K5). cbn [ment flat_map].
        split; [eapply incl_tran; eauto|].
        split; [apply incl_app; [eapply incl_tran; [exact I1 | eapply incl_tran; [exact A2 | exact K1]] | exact K2]|].
        split.
        { intros M. apply K3 in M as [M|M]; [|right; exact M]. apply M1 in M as [M|M]; [left; exact M|].
          right. apply Exists_exists in M as (m & M & B). apply Exists_exists. exists m. split; [apply K1, A2, M | exact B]. }
        split.
        { intros M. apply K4. apply A3; [|exact O1a]. eapply Forall_impl; [|exact M]. intros m; apply mention_ok_step, S1. }
        intros V D. apply K5; [destruct S1 as (_ & _ & _ & S1 & _); congruence|]. apply A4; [exact D | apply O1b, V].
      - intros F. destruct (N F) as (l' & -> & N1 & N2). exists (e1 :: l'). rewrite <- app_assoc. split; [reflexivity|].
        cbn [ment flat_map]. split; [apply incl_app; [apply incl_appl; exact I1 | apply incl_appr; exact N1]|].
        intros M. apply N2 in M as [M|M]; [|right; apply Exists_app; right; exact M].
        apply M1 in M as [M|M]; [left; exact M | right; apply Exists_app; left; exact M]. }
    destruct r as [t|x| |]; try (intros E; apply (X _ _ E); intros []).
    assert (Z : forall cur', concat_finish go (done ++ [e1]) l (push_string acc cur' ++ [e1]) None c1 = (self, names, c', f) -> concat_post done (e :: l) acc c self names c' f)
      by (intros cur' E; apply (Y _ None I) in E; [exact E | rewrite ment_app, ment_push; apply incl_appl, incl_refl |
        rewrite ment_app; apply incl_appr; cbn [ment flat_map]; rewrite app_nil_r; apply incl_refl |
        intros B1 B2; rewrite ment_app, ment_push; apply Forall_app; split; [exact B1 | cbn [ment flat_map]; rewrite app_nil_r; exact B2] |
        intros B1 B2; apply all_no_deref_app; split; [apply no_deref_push; exact B1 | cbn; tauto]]).
    assert (W : forall s, e1 = ELit (LString s) ->
      (forall cur', concat_finish go (done ++ [e1]) l acc cur' c1 = (self, names, c', f) -> concat_post done (e :: l) acc c self names c' f)).
    { intros s -> cur' E. apply (Y _ cur' I) in E; [exact E | apply incl_refl | intros x [] | auto | auto]. }
    destruct e1 as [n| | |lt| | | | | |]; try exact (Z cur).
    + destruct n as [i|id|li]; try exact (Z cur). destruct (str_eqb id (st "__FILE__")); [exact (Z cur)|].
      intros E; apply (X _ _ E); intros [].
    + destruct lt as [ch|s|fl|it]; try exact (Z cur).
      destruct (lit_string_as_bytes s); [apply (W s eq_refl) | intros E; apply (X _ _ E); intros []].
Qed.

Lemma assigned_neq e op : assigns op = false -> assigned e op = [].
Proof. intros H. unfold assigned. destruct e as [[i|s|l]| | | | | | | | |]; try reflexivity. rewrite H. reflexivity. Qed.
Lemma unary_fold_facts op e t e' r : unary_fold op e t = (e', r) ->
  mentions e' = mentions e /\ (op <> UDeref -> no_deref e -> no_deref e') /\ weight e' <= S (weight e) /\ r <> FFuel.
Proof.
  assert (X : forall r, r <> FFuel -> (EUnary op e, r) = (e', r) ->
    mentions e' = mentions e /\ (op <> UDeref -> no_deref e -> no_deref e') /\ weight e' <= S (weight e) /\ r <> FFuel).
  { intros r0 N E; injection E as <-. cbn. repeat split; auto. }
  unfold unary_fold.
  destruct op; try (intros E; injection E as <- <-; apply (X (FOk t)); [discriminate | reflexivity]).
  - destruct e as [n| | |l| | | | | |]; try (intros E; injection E as <- <-; apply (X (FOk t)); [discriminate | reflexivity]).
    destruct l as [ch|s|fl|[v sfx]]; intros E; injection E as <- <-; cbn; repeat split; auto; discriminate.
  - destruct e as [n| | |l| | | | | |]; try (intros E; injection E as <- <-; apply (X (FOk t)); [discriminate | reflexivity]).
    destruct l as [ch|s|fl|[v sfx]]; intros E; injection E as <- <-; cbn; repeat split; auto; discriminate.
  - assert (Y : forall e0, (if oty_eqb t (ty_b BBool) then (EUnary UNot e, FOk t) else
        (EBinary e OEq match t with
        | Some (TyBuiltIn BFloat) => ELit (LFloat (FFloat (SpecFloat.S754_zero false)))
        | Some (TyBuiltIn BDouble) => ELit (LFloat (FDouble (SpecFloat.S754_zero false)))
        | Some (TyBuiltIn BLongDouble) => ELit (LFloat (FLongDouble (SpecFloat.S754_zero false)))
        | _ => int_zero
        end, FOk t)) = (e', r) -> e0 = e -> 
       mentions e' = mentions e /\ (UNot <> UDeref -> no_deref e -> no_deref e') /\ weight e' <= S (weight e) /\ r <> FFuel).
    { intros e0 E _. destruct (oty_eqb t (ty_b BBool)); injection E as <- <-; [apply (X (FOk t)); [discriminate | reflexivity]|].
      set (z := match t with Some _ => _ | None => _ end).
      assert (mentions z = [] /\ no_deref z /\ weight z = 0) as (Z1 & Z2 & Z3)
        by (subst z; destruct t as [[b| | | |]|]; try (cbn; auto; fail); destruct b; cbn; auto).
      cbn [mentions no_deref weight]. rewrite (assigned_neq e OEq), Z1, Z3, app_nil_r by reflexivity.
      split; [reflexivity|]. split; [tauto|]. split; [lia | discriminate]. }
    destruct e as [n| | |l| | | | | |]; try (intros E; exact (Y _ E eq_refl)).
    destruct l as [ch|s|fl|[v [sfx|]]]; try (intros E; exact (Y _ E eq_refl));
      intros E; injection E as <- <-; cbn; repeat split; auto; discriminate.
  - destruct e as [n| | |l| | | | | |]; try (intros E; injection E as <- <-; apply (X (FOk t)); [discriminate | reflexivity]).
    destruct l as [ch|s|fl|[v sfx]]; intros E; injection E as <- <-; cbn; repeat split; auto; discriminate.
Qed.
Lemma unary_type_facts op c t : unary_type op c t <> FFuel /\ (isok (unary_type op c t) -> lc_var c = true -> op <> UDeref).
Proof.
  destruct op; cbn; try (split; [discriminate|]; discriminate); try (split; [discriminate|]; intros _ _; discriminate).
  destruct (lc_var c).
  - split; [discriminate | intros []].
  - split; [|discriminate]. destruct t as [[| | | |]|]; discriminate.
Qed.

Lemma assigns_is op : is_assignment op = assigns op.
Proof. destruct op; reflexivity. Qed.
Lemma binary_types_facts l op r lt rt c l' r' c' f : binary_types cx l op r lt rt c = ((l', r'), c', f) ->
  mentions l' = mentions l /\ mentions r' = mentions r /\ assigned l' op = assigned l op /\
  (no_deref l -> no_deref l') /\ (no_deref r -> no_deref r') /\ weight l' = weight l /\ weight r' = weight r /\
  step c c' /\ (lc_macro c' = true -> lc_macro c = true \/ assigned l op <> []) /\
  (isok f -> assigned l op <> [] -> lc_macro c' = true) /\ f <> FFuel.
Proof.
  unfold binary_types.
  assert (C1 : forall c1, match op, r with OMember, EVar (IArg i) => set_arg_type c i AIdent | _, _ => Some c end = Some c1 -> quiet c c1).
  { intros c1. assert (X : Some c = Some c1 -> quiet c c1) by (intros E; injection E as <-; apply quiet_refl).
    destruct op; try exact X. destruct r as [n| | | | | | | | |]; try exact X. destruct n; try exact X. apply set_arg_quiet. }
  destruct (match op, r with OMember, EVar (IArg i) => set_arg_type c i AIdent | _, _ => Some c end) as [c1|].
  2: { intros E; injection E as <- <- <- <-. repeat (split; [solve [auto using step_refl]|]). discriminate. }
  destruct (C1 _ eq_refl) as [Q1 Q2]. clear C1.
  set (c2 := match is_assignment op with true => match l with EVar (IArg _) => set_macro true c1 | _ => c1 end | false => c1 end).
  assert (K : step c c2 /\ (lc_macro c2 = true -> lc_macro c = true \/ assigned l op <> []) /\ (assigned l op <> [] -> lc_macro c2 = true)).
  { subst c2. rewrite assigns_is.
    assert (D : step c c1 /\ (lc_macro c1 = true -> lc_macro c = true \/ assigned l op <> [])) by (split; [exact Q1 | rewrite Q2; tauto]).
    unfold assigned. destruct (assigns op); [|split; [apply D|]; split; [rewrite Q2; tauto|]; destruct l as [[i|s|li]| | | | | | | | |]; intros X; congruence].
    destruct l as [[i|s|li]| | | | | | | | |]; try (split; [apply D|]; split; [rewrite Q2; tauto | intros X; congruence]).
    split; [eapply step_trans; [exact Q1 | apply step_macro]|]. split; [right; discriminate | reflexivity]. }
  destruct K as (K1 & K2 & K3).
  set (q := match l with EVar _ => _ | _ => _ end).
  assert (Q : let '(l1, r1, _, _) := q in mentions l1 = mentions l /\ mentions r1 = mentions r /\ assigned l1 op = assigned l op /\
     (no_deref l -> no_deref l1) /\ (no_deref r -> no_deref r1) /\ weight l1 = weight l /\ weight r1 = weight r).
  { assert (G : forall l r, let '(l1, r1, _, _) := match max_ty_cast l with Some t => (ECast t l, r, Some t, rt) | None => (l, r, lt, rt) end in
        mul_or_add op = true ->
        mentions l1 = mentions l /\ mentions r1 = mentions r /\ assigned l1 op = assigned l op /\
        (no_deref l -> no_deref l1) /\ (no_deref r -> no_deref r1) /\ weight l1 = weight l /\ weight r1 = weight r).
    { intros l0 r0. destruct (max_ty_cast l0) eqn:E; intros Mu; [|auto 10]. cbn.
      assert (assigned l0 op = []) as -> by (apply assigned_neq; destruct op; try discriminate; reflexivity). auto 10. }
    assert (G2 : forall l r, let '(l1, r1, _, _) := match max_ty_cast r with Some t => (l, ECast t r, lt, Some t) | None => (l, r, lt, rt) end in
        mentions l1 = mentions l /\ mentions r1 = mentions r /\ assigned l1 op = assigned l op /\
        (no_deref l -> no_deref l1) /\ (no_deref r -> no_deref r1) /\ weight l1 = weight l /\ weight r1 = weight r).
    { intros l0 r0. destruct (max_ty_cast r0) eqn:E; cbn; auto 10. }
    subst q.
    destruct (mul_or_add op) eqn:Mu.
    - assert (G' : forall l r, let '(l1, r1, _, _) := match max_ty_cast l with Some t => (ECast t l, r, Some t, rt) | None => (l, r, lt, rt) end in
        mentions l1 = mentions l /\ mentions r1 = mentions r /\ assigned l1 op = assigned l op /\
        (no_deref l -> no_deref l1) /\ (no_deref r -> no_deref r1) /\ weight l1 = weight l /\ weight r1 = weight r).
      { intros l0 r0. specialize (G l0 r0). destruct (max_ty_cast l0); apply G; reflexivity. }
      clear G.
      destruct l as [n|n la|t e|[ch|s|fl|[v [sf|]]]|a|li|t|o e|a o b|a b d];
      destruct r as [n'|n' la'|t' e'|[ch'|s'|fl'|[v' [sf'|]]]|a'|li'|t'|o' e'|a' o' b'|a' b' d'];
      try (apply G'); try (apply G2); cbn; auto 10.
    - clear G G2.
      destruct l as [n|n la|t e|[ch|s|fl|[v [sf|]]]|a|li|t|o e|a o b|a b d];
      destruct r as [n'|n' la'|t' e'|[ch'|s'|fl'|[v' [sf'|]]]|a'|li'|t'|o' e'|a' o' b'|a' b' d'];
      cbn; auto 10. }
  destruct q as [[[l1 r1] lt1] rt1]. destruct Q as (A1 & A2 & A3 & A4 & A5 & A6 & A7).
  intros E; injection E as <- <- <- <-.
  repeat (split; [assumption|]). split; [intros _; exact K3|].
  destruct op; try discriminate. destruct lt1 as [[| [| |] | | |]|]; try discriminate. destruct r1 as [[| |]| | | | | | | | |]; try discriminate.
  destruct (cx_field cx _ _); [apply from_rust_fuel; discriminate | discriminate].
Qed.
Lemma binary_fold_facts l op r t c e' f : binary_fold cx l op r t c = (e', f) ->
  mentions e' = assigned l op ++ mentions l ++ mentions r /\ (no_deref l -> no_deref r -> no_deref e') /\
  weight e' <= weight l + weight r /\ f <> FFuel.
Proof.
  unfold binary_fold.
  assert (X : forall g, (EBinary l op r, g) = (e', f) -> g <> FFuel ->
    mentions e' = assigned l op ++ mentions l ++ mentions r /\ (no_deref l -> no_deref r -> no_deref e') /\
    weight e' <= weight l + weight r /\ f <> FFuel).
  { intros g E N; injection E as <- <-. cbn. auto. }
  destruct l as [n|n la|t1 e1|[ch|s|fl|i]|a|li|t1|o e1|a o b|a b d]; try (intros E; apply (X _ E); discriminate);
  destruct r as [n'|n' la'|t1' e1'|[ch'|s'|fl'|i']|a'|li'|t1'|o' e1'|a' o' b'|a' b' d']; try (intros E; apply (X _ E); discriminate).
  - destruct (float_op op); [|intros E; apply (X _ E); discriminate].
    intros E. pose proof (f_equal fst E) as E1. pose proof (f_equal snd E) as E2. cbn [fst snd] in E1, E2. subst e' f.
    split; [reflexivity|]. split; [intros _ _; exact I|]. split; [cbn; lia | apply lit_fuel].
  - destruct (int_folds op); [|intros E; apply (X _ E); discriminate].
    destruct (int_op op _ _); [|intros E; apply (X _ E); discriminate].
    intros E; injection E as <- <-. cbn. repeat split; auto; discriminate.
Qed.


Lemma cast_as_binary_facts t e b : cast_as_binary cx t e = Some b ->
  incl (mentions e) (mentions b) /\ S (weight b) = weight e.
Proof.
  unfold cast_as_binary. destruct e as [| | | | | | |op e0| |]; try discriminate. destruct t as [|n [|]| | |]; try discriminate.
  destruct (match n with IPlain _ => _ | _ => _ end); [|discriminate].
  destruct op; try discriminate; intros H; injection H as <-; cbn [mentions weight];
    rewrite assigned_neq by reflexivity; cbn [app]; (split; [apply incl_tl, incl_refl | cbn; lia]).
Qed.
Lemma cast_of_deref_facts t e b : cast_of_deref t e = Some b ->
  incl (mentions e) (mentions b) /\ S (weight b) = weight e.
Proof.
  unfold cast_of_deref. destruct e as [| |t2 e| | | | | | |]; try discriminate. destruct t2 as [|n [|]| | |]; try discriminate.
  destruct e as [| | | | | | |op e| |]; try discriminate. destruct op; try discriminate.
  destruct e as [| |t3 e3| | | | | | |]; try discriminate. destruct (ctype_eqb t t3); [|discriminate].
  intros H; injection H as <-. cbn. split; [apply incl_tl, incl_refl | lia].
Qed.

Lemma good_refl e c f : ~ isok f -> good (e, c, f) e c.
Proof. intros N. cbn. split; [apply incl_refl|]. split; [apply step_refl|]. split; [tauto | intros Y; destruct (N Y)]. Qed.
(** Rewriting, then finishing again. *)
Lemma good_again e c e1 c1 b g :
  incl (mentions e) (mentions e1) -> step c c1 ->
  (lc_macro c1 = true -> lc_macro c = true \/ Exists (needs_macro cx) (mentions e1)) ->
  incl (mentions e1) (mentions b) -> good g b c1 -> good g e c.
Proof.
  intros I1 S1 M1 I2. destruct g as [[e2 c2] f]. cbn. intros (I3 & S3 & M3 & O3).
  split; [eapply incl_tran; [exact I1 | eapply incl_tran; eauto]|]. split; [eapply step_trans; eauto|]. split.
  - intros M. apply M3 in M as [M|M]; [|right; exact M]. apply M1 in M as [M|M]; [left; exact M|]. right.
    apply Exists_exists in M as (m & M & B). apply Exists_exists. exists m. split; [apply I3, I2, M | exact B].
  - intros F. destruct (O3 F) as [A B]. split; [exact A|]. intros V. apply B. destruct S1 as (_ & _ & _ & S1 & _). congruence.
Qed.
(** Rewriting that keeps the mentions. *)
Lemma good_same e c e1 c1 f e2 f2 : good (e1, c1, f) e c -> incl (mentions e1) (mentions e2) -> (incl (mentions e2) (mentions e1)) ->
  (isok f2 -> isok f /\ (lc_var c = true -> no_deref e1 -> no_deref e2)) -> good (e2, c1, f2) e c.
Proof.
  cbn. intros (I1 & S1 & M1 & O1) I2 I3 O. split; [eapply incl_tran; eauto|]. split; [exact S1|]. split.
  - intros M. apply M1 in M as [M|M]; [left; exact M | right]. apply Exists_exists in M as (m & M & B).
    apply Exists_exists. exists m. split; [apply I2, M | exact B].
  - intros F. destruct (O F) as [F1 D]. destruct (O1 F1) as [A B]. split; [|intros V; apply D; auto].
    rewrite Forall_forall in *. intros m Hm. apply A, I3, Hm.
Qed.
(** Two subexpressions in sequence. *)
Lemma step_var c c' : step c c' -> lc_var c = true -> lc_var c' = true.
Proof. intros (_ & _ & _ & S1 & _). congruence. Qed.
Lemma oks_step c c' l : step c c' -> Forall (mention_ok c) l -> Forall (mention_ok c') l.
Proof. intros S. apply Forall_impl. intros m; apply mention_ok_step, S. Qed.

Lemma condition_good go e : (forall c, good (go e c) e c) -> forall c, good (condition_finish go e c) e c.
Proof.
  intros H c. specialize (H c). unfold condition_finish, fbind. destruct (go e c) as [[e1 c1] f] eqn:G.
  destruct f as [t|x| |]; try exact H. destruct (oty_eqb t (ty_b BBool)); [exact H|].
  eapply good_same; [exact H| | |].
  - cbn [mentions]. rewrite assigned_neq by reflexivity. cbn. rewrite app_nil_r. apply incl_refl.
  - cbn [mentions]. rewrite assigned_neq by reflexivity. cbn. rewrite app_nil_r. apply incl_refl.
  - intros _. split; [exact I|]. cbn. tauto.
Qed.
Lemma condition_fuel go e : (forall c, fuelok (go e c) e) -> forall c, fuelok (condition_finish go e c) e.
Proof.
  intros H c. specialize (H c). unfold condition_finish, fbind. destruct (go e c) as [[e1 c1] f] eqn:G.
  destruct f as [t|x| |]; try exact H. cbn in *. split; [discriminate|]. destruct (oty_eqb t (ty_b BBool)); [tauto|].
  cbn. lia.
Qed.

Ltac inex := apply Exists_app; auto.

Theorem finish_good n : forall e c, good (finish cx n e c) e c.
Proof.
  induction n as [n IHn] using lt_wf_ind.
  assert (AG : forall e c, good (again_of n e c) e c).
  { intros e c. destruct n as [|n']; [apply good_refl; intros [] | apply IHn; lia]. }
  clear IHn.
  induction e as [v|v l IHl|t e IHe|l|a IHa|l IHl|t|op e IHe|a op b IHa IHb|a b d IHa IHb IHd] using expr_ind'; intros c;
    rewrite finish_eq; cbn [finish_step].
  - (* EVar *)
    destruct (var_finish cx v c) as [c1 r] eqn:V. apply var_facts in V as (S1 & M1 & O1 & _).
    cbn. split; [apply incl_refl|]. split; [exact S1|]. split.
    + intros M. apply M1 in M as [M|M]; [left; exact M | right; constructor; exact M].
    + intros F. split; [|tauto]. repeat constructor; apply O1, F.
  - (* ECall *)
    destruct (lc_var c) eqn:V; [apply good_refl; intros []|].
    destruct (ident_finish v c) as [c1 r] eqn:E. apply ident_facts in E as ([S1 M1] & F1 & N1).
    assert (X : forall r, ~ isok r -> good (ECall v l, c1, r) (ECall v l) c).
    { intros r0 N. cbn. split; [apply incl_refl|]. split; [exact S1|]. split; [rewrite M1; tauto | intros Y; destruct (N Y)]. }
    destruct r as [t|x| |]; try (apply X; intros []). clear X.
    destruct (list_finish (finish cx n) l c1) as [[l2 c2] r2] eqn:L. apply (list_good _ _ IHl) in L as (I2 & S2 & M2 & O2).
    unfold fbind.
    assert (X : forall r, ~ isok r -> good (ECall v l2, c2, r) (ECall v l) c).
    { intros r0 N. cbn [good mentions]. split; [apply incl_cons; [left; reflexivity | apply incl_tl; exact I2]|].
      split; [eapply step_trans; eauto|]. split; [|intros Y; destruct (N Y)].
      intros M. apply M2 in M as [M|M]; [left; congruence | right; apply Exists_cons_tl; exact M]. }
    destruct r2 as [t2|x| |]; try (apply X; intros []). clear X. destruct (O2 I) as [O2a O2b].
    destruct (call_types cx v l2 c2) as [c3 r3] eqn:C. apply call_facts in C as (S3 & M3 & N3 & _).
    cbn [good mentions]. split; [apply incl_cons; [left; reflexivity | apply incl_tl; exact I2]|].
    assert (S : step c c3) by (eapply step_trans; [exact S1|]; eapply step_trans; eauto).
    split; [exact S|]. split.
    + intros M. apply M3 in M as [M|M]; [|right; apply Exists_cons_hd; exact M].
      apply M2 in M as [M|M]; [left; congruence | right; apply Exists_cons_tl; exact M].
    + intros F. split; [|rewrite V; discriminate]. constructor; [|eapply oks_step; [exact S3 | exact O2a]].
      split; [exact N3|]. split; [destruct S as (_ & _ & _ & S & _); congruence|].
      eapply name_ok_step; [|apply N1; exact I]. eapply step_trans; eauto.
  - (* ECast *)
    destruct (ty_finish cx t c) as [[t1 c1] r1] eqn:T. apply ty_facts in T as [[S1 M1] F1].
    assert (G : forall e2 c2 r2, match r1 with FOk _ => finish cx n e c1 | _ => (e, c1, r1) end = (e2, c2, r2) ->
       good (e2, c2, r2) e c /\ (isok r2 -> isok r1)).
    { intros e2 c2 r2 Q.
      assert (Z : good (e, c1, r1) e c \/ isok r1).
      { destruct r1; [right; exact I | left..]; cbn; (split; [apply incl_refl|]; split; [exact S1|]; split; [rewrite M1; tauto | intros []]). }
      destruct r1 as [o|x| |]; try (injection Q as <- <- <-; split; [destruct Z as [Z|[]]; exact Z | intros []]).
      split; [|intros _; exact I]. specialize (IHe c1). rewrite Q in IHe.
      eapply (good_again e c e c1); [apply incl_refl | exact S1 | rewrite M1; tauto | apply incl_refl | exact IHe]. }
    destruct (match r1 with FOk _ => finish cx n e c1 | _ => (e, c1, r1) end) as [[e2 c2] r2] eqn:Q.
    destruct (G _ _ _ eq_refl) as [G1 G2]. clear G.
    assert (X : forall r3, (isok r3 -> isok r2) -> good (ECast t1 e2, c2, r3) (ECast t e) c).
    { intros r3 N. change (good (ECast t1 e2, c2, r3) e c) with (good (ECast t1 e2, c2, r3) e c).
      pose proof (good_same e c e2 c2 r2 (ECast t1 e2) r3 G1 (incl_refl _) (incl_refl _)) as Y. apply Y. intros F. split; [apply N, F | cbn; tauto]. }
    assert (A : forall b, incl (mentions e2) (mentions b) -> good (again_of n b c2) (ECast t e) c).
    { intros b B. destruct G1 as (I1 & S2 & M2 & O2).
      pose proof (good_again e c e2 c2 b (again_of n b c2) I1 S2 M2 B (AG b c2)) as Y.
      exact Y. }
    destruct r2 as [o|[x| | |x|x]| |]; try (apply X; intros []; fail).
    + destruct (cast_as_binary cx t1 e2) as [b|] eqn:B; [apply A; apply (cast_as_binary_facts _ _ _ B)|].
      destruct (redundant_cast t1 e2); [|apply X; tauto].
      pose proof (good_same e c e2 c2 (FOk o) e2 (FOk (Some ty_const_char_ptr)) G1 (incl_refl _) (incl_refl _)) as Y.
      apply Y. intros _. split; [exact I | auto].
    + destruct (cast_of_deref t1 e2) as [b|] eqn:B; [apply A; apply (cast_of_deref_facts _ _ _ B) | apply X; intros []].
  - (* ELit *)
    assert (X : forall r, good (ELit l, c, r) (ELit l) c).
    { intros r. cbn. split; [apply incl_refl|]. split; [apply step_refl|]. split; [tauto|]. intros _; split; [constructor | auto]. }
    destruct l as [x|x|x|x]; try apply X. destruct (char_finish cx x c) as [[t|]|e| |]; try apply X.
  - (* EStringify *)
    destruct (stringify_finish a c) as [c1 r] eqn:V. apply stringify_facts in V as (S1 & M1 & O1 & _).
    cbn [good mentions]. split; [apply incl_refl|]. split; [exact S1|]. split.
    + intros M. apply M1 in M as [M|M]; [left; exact M | right; constructor; exact M].
    + intros F. split; [|cbn; tauto]. constructor; [apply O1, F | constructor].
  - (* EConcat *)
    destruct (concat_finish (finish cx n) [] l [] None c) as [[[self names] c1] r] eqn:Q.
    apply (concat_good _ _ IHl) in Q as (S1 & K & N).
    destruct r as [o|x| |].
    + destruct (K I) as (_ & K2 & K3 & K4 & K5). specialize (K4 ltac:(constructor)).
      assert (K6 : lc_var c = true -> all_no_deref names) by (intros V; apply (K5 V); exact I). clear K5.
      assert (D : good (EConcat names, c1, FOk (Some ty_const_char_ptr)) (EConcat l) c).
      { cbn. split; [exact K2|]. split; [exact S1|]. split; [exact K3|]. intros _. split; [exact K4 | exact K6]. }
      destruct names as [|x1 [|x2 names]]; try exact D.
      unfold ment in *. cbn [flat_map] in K2, K3. rewrite app_nil_r in K2, K3.
      apply (good_again (EConcat l) c x1 c1 x1); [exact K2 | exact S1 | exact K3 | apply incl_refl | apply AG].
    + destruct (N ltac:(intros [])) as (l' & -> & N1 & N2). cbn. destruct names as [|? [|? ?]]; split; auto; split; auto; split; auto; intros [].
    + destruct (N ltac:(intros [])) as (l' & -> & N1 & N2). cbn. destruct names as [|? [|? ?]]; split; auto; split; auto; split; auto; intros [].
    + destruct (N ltac:(intros [])) as (l' & -> & N1 & N2). cbn. destruct names as [|? [|? ?]]; split; auto; split; auto; split; auto; intros [].
  - (* ESizeOf *)
    destruct (ty_finish cx t c) as [[t1 c1] r1] eqn:T. apply ty_facts in T as [[S1 M1] F1].
    unfold fbind. destruct r1; cbn; (split; [apply incl_refl|]; split; [exact S1|]; split; [rewrite M1; tauto|]); try intros [].
    split; [constructor | auto].
  - (* EUnary *)
    specialize (IHe c). destruct (finish cx n e c) as [[e1 c1] r1]. unfold fbind.
    assert (X : forall r, ~ isok r -> good (EUnary op e1, c1, r) (EUnary op e) c).
    { intros r N. pose proof (good_same e c e1 c1 r1 (EUnary op e1) r IHe (incl_refl _) (incl_refl _)) as Y. apply Y.
      intros F; destruct (N F). }
    destruct r1 as [t|x| |]; try (apply X; intros []).
    pose proof (unary_type_facts op c1 t) as [_ UT]. destruct (unary_type op c1 t) as [t2|x| |]; try (apply X; intros []).
    destruct (unary_fold op e1 t2) as [e2 r2] eqn:F. apply unary_fold_facts in F as (F1 & F2 & _).
    pose proof (good_same e c e1 c1 (FOk t) e2 r2 IHe) as Y. apply Y.
    + rewrite F1; apply incl_refl.
    + rewrite F1; apply incl_refl.
    + intros _. split; [exact I|]. intros V. apply F2. apply UT; [exact I|]. cbn in IHe. eapply step_var; [apply IHe | exact V].
  - (* EBinary *)
    specialize (IHa c). pose proof (fun c => IHb c) as IHb'.
    assert (AR : forall a1 c1 r1, finish cx n a c = (a1, c1, r1) -> incl (assigned a op) (assigned a1 op)).
    { intros a1 c1 r1. rewrite finish_eq. destruct a as [v| | | | | | | | |]; try (intros; intros x []).
      cbn [finish_step]. destruct (var_finish cx v c) as [c0 r0]. intros H; injection H as <- <- <-. apply incl_refl. }
    destruct (finish cx n a c) as [[a1 c1] r1]. specialize (AR _ _ _ eq_refl). destruct IHa as (I1 & S1 & M1 & O1). unfold fbind.
    assert (X1 : forall r, ~ isok r -> good (EBinary a1 op b, c1, r) (EBinary a op b) c).
    { intros r N. cbn [good mentions]. split.
      { apply incl_app; [apply incl_appl; exact AR|]. apply incl_appr. apply incl_app; [apply incl_appl; exact I1 | apply incl_appr, incl_refl]. }
      split; [exact S1|]. split; [|intros F; destruct (N F)].
      intros M. apply M1 in M as [M|M]; [left; exact M|]. right. apply Exists_app; right. apply Exists_app; left; exact M. }
    destruct r1 as [lt|x| |]; try (apply X1; intros []). clear X1. destruct (O1 I) as [O1a O1b].
    specialize (IHb' c1). destruct (finish cx n b c1) as [[b1 c2] r2]. destruct IHb' as (I2 & S2 & M2 & O2).
    assert (X2 : forall r, ~ isok r -> good (EBinary a1 op b1, c2, r) (EBinary a op b) c).
    { intros r N. cbn [good mentions]. split.
      { apply incl_app; [apply incl_appl; exact AR|]. apply incl_appr. apply incl_app; [apply incl_appl; exact I1 | apply incl_appr; exact I2]. }
      split; [eapply step_trans; eauto|]. split; [|intros F; destruct (N F)].
      intros M. apply M2 in M as [M|M]; [apply M1 in M as [M|M]; [left; exact M|] |]; right; apply Exists_app; right; apply Exists_app; [left | right]; exact M. }
    destruct r2 as [rt|x| |]; try (apply X2; intros []). clear X2. destruct (O2 I) as [O2a O2b].
    destruct (binary_types cx a1 op b1 lt rt c2) as [[[a3 b3] c3] r3] eqn:T.
    apply binary_types_facts in T as (T1 & T2 & T3 & T4 & T5 & _ & _ & S3 & M3 & N3 & _).
    cbn [fst snd].
    assert (S : step c c3) by (eapply step_trans; [exact S1|]; eapply step_trans; eauto).
    assert (IM : incl (mentions (EBinary a op b)) (assigned a3 op ++ mentions a3 ++ mentions b3)).
    { rewrite T1, T2, T3. apply incl_app; [apply incl_appl; exact AR|]. apply incl_appr.
      apply incl_app; [apply incl_appl; exact I1 | apply incl_appr; exact I2]. }
    assert (MM : lc_macro c3 = true -> lc_macro c = true \/ Exists (needs_macro cx) (assigned a3 op ++ mentions a3 ++ mentions b3)).
    { rewrite T1, T2, T3. intros M. apply M3 in M as [M|M].
      - apply M2 in M as [M|M]; [apply M1 in M as [M|M]; [left; exact M|] |]; right; apply Exists_app; right; apply Exists_app; [left | right]; exact M.
      - right. apply Exists_app; left. unfold assigned in *. destruct a1 as [[i|s|li]| | | | | | | | |]; try congruence.
        destruct (assigns op); [|congruence]. constructor; exact I. }
    destruct r3 as [t|x| |].
    2,3,4: cbn [good mentions]; (split; [exact IM|]); (split; [exact S|]); (split; [exact MM | intros []]).
    destruct (binary_fold cx a3 op b3 t c3) as [e' f'] eqn:F. apply binary_fold_facts in F as (F1 & F2 & _).
    cbn [good]. rewrite F1. split; [exact IM|]. split; [exact S|]. split; [exact MM|].
    intros _. split.
    + rewrite T1, T2, T3. apply Forall_app; split; [|apply Forall_app; split].
      * unfold assigned in *. destruct a1 as [[i|s|li]| | | | | | | | |]; try constructor.
        destruct (assigns op); constructor; [|constructor]. split; [intros _; apply N3; [exact I | discriminate] | exact I].
      * eapply oks_step; [|exact O1a]. eapply step_trans; eauto.
      * eapply oks_step; [exact S3 | exact O2a].
    + intros V. apply F2; [apply T4, O1b, V | apply T5, O2b]. eapply step_var; eauto.
  - (* ETernary *)
    pose proof (condition_good _ _ IHa c) as HA. destruct (condition_finish (finish cx n) a c) as [[a1 c1] r1].
    destruct HA as (I1 & S1 & M1 & O1). unfold fbind.
    assert (X1 : forall r, ~ isok r -> good (ETernary a1 b d, c1, r) (ETernary a b d) c).
    { intros r N. cbn [good mentions]. split.
      { apply incl_app; [apply incl_appl; exact I1 | apply incl_appr, incl_refl]. }
      split; [exact S1|]. split; [|intros F; destruct (N F)].
      intros M. apply M1 in M as [M|M]; [left; exact M|]. right. inex. }
    destruct r1 as [lt|x| |]; try (apply X1; intros []). clear X1. destruct (O1 I) as [O1a O1b].
    specialize (IHb c1). destruct (finish cx n b c1) as [[b1 c2] r2]. destruct IHb as (I2 & S2 & M2 & O2).
    assert (M12 : lc_macro c2 = true -> lc_macro c = true \/ Exists (needs_macro cx) (mentions a1 ++ mentions b1)).
    { intros M. apply M2 in M as [M|M]; [apply M1 in M as [M|M]; [left; exact M|] |]; right; inex. }
    assert (X2 : forall r, ~ isok r -> good (ETernary a1 b1 d, c2, r) (ETernary a b d) c).
    { intros r N. cbn [good mentions]. split.
      { apply incl_app; [apply incl_appl; exact I1|]. apply incl_appr. apply incl_app; [apply incl_appl; exact I2 | apply incl_appr, incl_refl]. }
      split; [eapply step_trans; eauto|]. split; [|intros F; destruct (N F)].
      intros M. apply M12 in M as [M|M]; [left; exact M | right]. rewrite app_assoc. inex. }
    destruct r2 as [rt|x| |]; try (apply X2; intros []). clear X2. destruct (O2 I) as [O2a O2b].
    specialize (IHd c2). destruct (finish cx n d c2) as [[d1 c3] r3]. destruct IHd as (I3 & S3 & M3 & O3).
    assert (S12 : step c c2) by (eapply step_trans; eauto).
    assert (M123 : lc_macro c3 = true -> lc_macro c = true \/ Exists (needs_macro cx) (mentions a1 ++ mentions b1 ++ mentions d1)).
    { intros M. rewrite app_assoc. apply M3 in M as [M|M]; [apply M12 in M as [M|M]; [left; exact M|] |]; right; inex. }
    assert (II : incl (mentions (ETernary a b d)) (mentions (ETernary a1 b1 d1))).
    { cbn [mentions]. apply incl_app; [apply incl_appl; exact I1|]. apply incl_appr. apply incl_app; [apply incl_appl; exact I2 | apply incl_appr; exact I3]. }
    destruct r3 as [dt|x| |].
    2,3,4: cbn [good]; (split; [exact II|]); (split; [eapply step_trans; eauto|]); (split; [exact M123 | intros []]).
    destruct (O3 I) as [O3a O3b]. cbn [good]. split; [exact II|]. split; [eapply step_trans; eauto|]. split; [exact M123|].
    intros _. cbn [mentions]. split.
    + apply Forall_app; split; [eapply oks_step; [|exact O1a]; eapply step_trans; eauto|].
      apply Forall_app; split; [eapply oks_step; [exact S3 | exact O2a] | exact O3a].
    + intros V. cbn [no_deref]. split; [apply O1b, V|]. split; [apply O2b; eapply step_var; eauto | apply O3b; eapply step_var; eauto].
Qed.


(** ** Enough fuel *)

Lemma list_fuel go l : Forall (fun e => forall c, fuelok (go e c) e) l ->
  forall c l' c' f, list_finish go l c = (l', c', f) -> f <> FFuel /\ weights weight l' <= weights weight l.
Proof.
  induction 1 as [|e l H HF IH]; intros c l' c' f; cbn [list_finish].
  - intros E; injection E as <- <- <-. split; [discriminate | lia].
  - specialize (H c). destruct (go e c) as [[e1 c1] r]. destruct H as [H1 H2]. unfold fbind. destruct r as [t|x| |].
    + destruct (list_finish go l c1) as [[l2 c2] r2] eqn:L. intros E; injection E as <- <- <-.
      apply IH in L as [L1 L2]. cbn. split; [assumption | lia].
    + intros E; injection E as <- <- <-. cbn. split; [discriminate | lia].
    + intros E; injection E as <- <- <-. cbn. split; [discriminate | lia].
    + congruence.
Qed.
Lemma weights_app a b : weights weight (a ++ b) = weights weight a + weights weight b.
Proof. induction a as [|x a IH]; cbn; [reflexivity|]. rewrite IH. lia. Qed.
Lemma weights_push acc cur : weights weight (push_string acc cur) = weights weight acc.
Proof. destruct cur; cbn; [|reflexivity]. rewrite weights_app. cbn. lia. Qed.
Lemma concat_fuel go l : Forall (fun e => forall c, fuelok (go e c) e) l ->
  forall done acc cur c self names c' f, concat_finish go done l acc cur c = (self, names, c', f) ->
  f <> FFuel /\ (isok f -> weights weight names <= weights weight acc + weights weight l) /\
  weight self <= S (weights weight done + weights weight l).
Proof.
  induction 1 as [|e l H HF IH]; intros done acc cur c self names c' f; cbn [concat_finish].
  - intros E; injection E as <- <- <- <-. rewrite weights_push. cbn. split; [discriminate|]. split; [intros; lia | lia].
  - specialize (H c). destruct (go e c) as [[e1 c1] r]. destruct H as [H1 H2].
    assert (X : forall r names0, (EConcat (done ++ e1 :: l), names0, c1, r) = (self, names, c', f) -> ~ isok r -> r <> FFuel ->
      f <> FFuel /\ (isok f -> weights weight names <= weights weight acc + weights weight (e :: l)) /\
      weight self <= S (weights weight done + weights weight (e :: l))).
    { intros r0 n0 E N1 N2; injection E as <- <- <- <-. split; [exact N2|]. split; [intros Y; destruct (N1 Y)|].
      cbn. rewrite weights_app. cbn. lia. }
    assert (Y : forall acc' cur', weights weight acc' <= weights weight acc + weight e1 ->
      concat_finish go (done ++ [e1]) l acc' cur' c1 = (self, names, c', f) ->
      f <> FFuel /\ (isok f -> weights weight names <= weights weight acc + weights weight (e :: l)) /\
      weight self <= S (weights weight done + weights weight (e :: l))).
    { intros acc' cur' W E. apply IH in E as (E1 & E2 & E3). split; [exact E1|]. split; [intros F; specialize (E2 F); cbn; lia|].
      rewrite weights_app in E3. cbn in *. lia. }
    destruct r as [t|x| |]; try (intros E; apply (X _ _ E); [intros [] | discriminate]); [|congruence].
    assert (Z : concat_finish go (done ++ [e1]) l (push_string acc cur ++ [e1]) None c1 = (self, names, c', f) ->
      f <> FFuel /\ (isok f -> weights weight names <= weights weight acc + weights weight (e :: l)) /\
      weight self <= S (weights weight done + weights weight (e :: l))).
    { intros E. apply (Y _ None) in E; [exact E|]. rewrite weights_app, weights_push. cbn. lia. }
    destruct e1 as [n| | |lt| | | | | |]; try exact Z.
    + destruct n as [i|id|li]; try exact Z. destruct (str_eqb id (st "__FILE__")); [exact Z|].
      intros E; apply (X _ _ E); [intros [] | discriminate].
    + destruct lt as [ch|s|fl|it]; try exact Z.
      destruct (lit_string_as_bytes s); [intros E; apply Y in E; [exact E | cbn; lia] | intros E; apply (X _ _ E); [intros [] | discriminate]].
Qed.

Theorem finish_fuel n : forall e c, weight e <= n -> fuelok (finish cx n e c) e.
Proof.
  induction n as [n IHn] using lt_wf_ind.
  assert (AG : forall e c, S (weight e) <= n -> fuelok (again_of n e c) e).
  { intros e c W. destruct n as [|n']; [lia | apply IHn; lia]. }
  clear IHn.
  induction e as [v|v l IHl|t e IHe|l|a IHa|l IHl|t|op e IHe|a op b IHa IHb|a b d IHa IHb IHd] using expr_ind'; intros c W;
    rewrite finish_eq; cbn [finish_step]; cbn [weight] in W.
  - destruct (var_finish cx v c) as [c1 r] eqn:V. apply var_facts in V as (_ & _ & _ & V). cbn. split; [exact V | lia].
  - assert (HL : Forall (fun e => forall c, fuelok (finish cx n e c) e) l).
    { clear - IHl W. revert W. induction IHl as [|x l H HF IH]; intros W; constructor; cbn in W; [intros; apply H; lia | apply IH; lia]. }
    destruct (lc_var c); [cbn; split; [discriminate | lia]|].
    destruct (ident_finish v c) as [c1 r] eqn:E. apply ident_facts in E as (_ & F1 & _).
    destruct r as [t|x| |]; try (cbn; split; [discriminate | lia]); [|congruence].
    destruct (list_finish (finish cx n) l c1) as [[l2 c2] r2] eqn:L. apply (list_fuel _ _ HL) in L as [L1 L2].
    unfold fbind. destruct r2; try (cbn; split; [discriminate | lia]); [|congruence].
    destruct (call_types cx v l2 c2) as [c3 r3] eqn:C. apply call_facts in C as (_ & _ & _ & C). cbn. split; [exact C | lia].
  - destruct (ty_finish cx t c) as [[t1 c1] r1] eqn:T. apply ty_facts in T as [_ T].
    assert (G : fuelok match r1 with FOk _ => finish cx n e c1 | _ => (e, c1, r1) end e).
    { destruct r1; [apply IHe; exact W | cbn; split; [exact T | lia]..]. }
    destruct (match r1 with FOk _ => finish cx n e c1 | _ => (e, c1, r1) end) as [[e2 c2] r2]. destruct G as [G1 G2].
    assert (A : forall b, S (weight b) = weight e2 -> fuelok (again_of n b c2) (ECast t e)).
    { intros b B. specialize (AG b c2 ltac:(lia)). destruct (again_of n b c2) as [[b' c3] r3]. cbn in *. split; [apply AG | lia]. }
    destruct r2 as [o|[x| | |x|x]| |]; try (cbn; split; [discriminate | lia]); [| |congruence].
    + destruct (cast_as_binary cx t1 e2) as [b|] eqn:B; [apply A; apply (cast_as_binary_facts _ _ _ B)|].
      destruct (redundant_cast t1 e2); cbn; split; try discriminate; lia.
    + destruct (cast_of_deref t1 e2) as [b|] eqn:B; [apply A; apply (cast_of_deref_facts _ _ _ B)|]. cbn; split; [discriminate | lia].
  - assert (X : forall r, r <> FFuel -> fuelok (ELit l, c, r) (ELit l)) by (intros r N; cbn; split; [exact N | lia]).
    destruct l as [x|x|x|x]; try (apply X, lit_fuel).
    pose proof (lit_fuel (LChar x) c) as L. cbn [lit_finish] in L.
    destruct (char_finish cx x c) as [[t|]|e| |]; try (apply X; discriminate). congruence.
  - destruct (stringify_finish a c) as [c1 r] eqn:V. apply stringify_facts in V as (_ & _ & _ & V). cbn. split; [exact V | lia].
  - assert (HL : Forall (fun e => forall c, fuelok (finish cx n e c) e) l).
    { clear - IHl W. assert (W' : weights weight l <= n) by lia. clear W. revert W'.
      induction IHl as [|x l H HF IH]; intros W; constructor; cbn in W; [intros; apply H; lia | apply IH; lia]. }
    destruct (concat_finish (finish cx n) [] l [] None c) as [[[self names] c1] r] eqn:Q.
    apply (concat_fuel _ _ HL) in Q as (Q1 & Q2 & Q3). cbn in Q2, Q3.
    destruct r as [o|x| |].
    + specialize (Q2 I). destruct names as [|x1 [|x2 names]]; try (cbn in *; split; [discriminate | lia]).
      cbn in Q2. specialize (AG x1 c1 ltac:(lia)). destruct (again_of n x1 c1) as [[x' c3] r3]. cbn in *. split; [apply AG | lia].
    + destruct names as [|? [|? ?]]; cbn; split; try discriminate; lia.
    + destruct names as [|? [|? ?]]; cbn; split; try discriminate; lia.
    + congruence.
  - destruct (ty_finish cx t c) as [[t1 c1] r1] eqn:T. apply ty_facts in T as [_ T].
    unfold fbind. destruct r1; cbn; split; try discriminate; try lia; congruence.
  - specialize (IHe c ltac:(lia)). destruct (finish cx n e c) as [[e1 c1] r1]. destruct IHe as [E1 E2]. unfold fbind.
    destruct r1 as [t|x| |]; try (cbn; split; [discriminate | lia]); [|congruence].
    pose proof (unary_type_facts op c1 t) as [UT _]. destruct (unary_type op c1 t) as [t2|x| |]; try (cbn; split; [discriminate | lia]); [|congruence].
    destruct (unary_fold op e1 t2) as [e2 r2] eqn:F. apply unary_fold_facts in F as (_ & _ & F1 & F2). cbn. split; [exact F2 | lia].
  - specialize (IHa c ltac:(lia)). destruct (finish cx n a c) as [[a1 c1] r1]. destruct IHa as [A1 A2]. unfold fbind.
    destruct r1 as [lt|x| |]; try (cbn; split; [discriminate | lia]); [|congruence].
    specialize (IHb c1 ltac:(lia)). destruct (finish cx n b c1) as [[b1 c2] r2]. destruct IHb as [B1 B2].
    destruct r2 as [rt|x| |]; try (cbn; split; [discriminate | lia]); [|congruence].
    destruct (binary_types cx a1 op b1 lt rt c2) as [[[a3 b3] c3] r3] eqn:T.
    apply binary_types_facts in T as (_ & _ & _ & _ & _ & T6 & T7 & _ & _ & _ & T8). cbn [fst snd].
    destruct r3 as [t|x| |]; try (cbn; split; [discriminate | lia]); [|congruence].
    destruct (binary_fold cx a3 op b3 t c3) as [e' f'] eqn:F. apply binary_fold_facts in F as (_ & _ & F1 & F2).
    cbn. split; [exact F2 | lia].
  - assert (HA : fuelok (condition_finish (finish cx n) a c) a) by (apply condition_fuel; intros; apply IHa; lia).
    destruct (condition_finish (finish cx n) a c) as [[a1 c1] r1]. destruct HA as [A1 A2]. unfold fbind.
    destruct r1 as [lt|x| |]; try (cbn; split; [discriminate | lia]); [|congruence].
    specialize (IHb c1 ltac:(lia)). destruct (finish cx n b c1) as [[b1 c2] r2]. destruct IHb as [B1 B2].
    destruct r2 as [rt|x| |]; try (cbn; split; [discriminate | lia]); [|congruence].
    specialize (IHd c2 ltac:(lia)). destruct (finish cx n d c2) as [[d1 c3] r3]. destruct IHd as [D1 D2].
    destruct r3 as [dt|x| |]; try (cbn; split; [discriminate | lia]). congruence.
Qed.

Theorem expr_good e c : good (expr_finish cx e c) e c.
Proof. apply finish_good. Qed.
Theorem expr_fuel e c e' c' f : expr_finish cx e c = (e', c', f) -> f <> FFuel.
Proof. intros E. pose proof (finish_fuel (weight e) e c (le_n _)) as H. unfold expr_finish in E. rewrite E in H. apply H. Qed.

(** ** Statements *)

Section StmtInd.
  Variable P : stmt -> Prop.
  Hypothesis HAsm : forall a, P (SAsm a).
  Hypothesis HExpr : forall e, P (SExpr e).
  Hypothesis HFn : forall d, P (SFnDecl d).
  Hypothesis HVar : forall d, P (SVarDecl d).
  Hypothesis HBlock : forall l, Forall P l -> P (SBlock l).
  Hypothesis HIf : forall e a b, Forall P a -> Forall P b -> P (SIf e a b).
  Hypothesis HDo : forall l e, Forall P l -> P (SDoWhile l e).
  Fixpoint stmt_ind' (s : stmt) : P s :=
    let all := fix all (l : list stmt) : Forall P l :=
      match l with [] => Forall_nil P | x :: l' => Forall_cons x (stmt_ind' x) (all l') end in
    match s with
    | SAsm a => HAsm a
    | SExpr e => HExpr e
    | SFnDecl d => HFn d
    | SVarDecl d => HVar d
    | SBlock l => HBlock l (all l)
    | SIf e a b => HIf e a b (all a) (all b)
    | SDoWhile l e => HDo l e (all l)
    end.
End StmtInd.

(** The invariants, for the mentions [m] of what has been finished. *)
Definition sgood (m : list mention) (c c' : lctx) (f : fres) : Prop :=
  f <> FFuel /\ step c c' /\
  (isok f -> (lc_macro c' = true -> lc_macro c = true \/ Exists (needs_macro cx) m) /\ Forall (mention_ok c') m).
Lemma sgood_seq m1 m2 c c1 c2 f1 f2 m : sgood m1 c c1 f1 -> isok f1 -> sgood m2 c1 c2 f2 ->
  (forall x, In x m <-> In x m1 \/ In x m2) -> sgood m c c2 f2.
Proof.
  intros (A1 & A2 & A3) F (B1 & B2 & B3) E. destruct (A3 F) as [A4 A5]. split; [exact B1|]. split; [eapply step_trans; eauto|].
  intros F2. destruct (B3 F2) as [B4 B5]. split.
  - intros M. assert (X : forall x, needs_macro cx x -> In x m1 \/ In x m2 -> Exists (needs_macro cx) m).
    { intros x N I0. apply Exists_exists. exists x. split; [apply E; exact I0 | exact N]. }
    apply B4 in M as [M|M]; [apply A4 in M as [M|M]; [left; exact M|] |]; right; apply Exists_exists in M as (x & M & N);
      apply (X x N); auto.
  - rewrite Forall_forall in *. intros x I0. apply E in I0 as [I0|I0]; [eapply mention_ok_step; [exact B2|] | ]; auto.
Qed.
Lemma sgood_weak m1 m c c1 f : sgood m1 c c1 f -> ~ isok f -> sgood m c c1 f.
Proof. intros (A & B & _) N. split; [exact A|]. split; [exact B|]. intros F; destruct (N F). Qed.
Lemma expr_sgood e c e' c' f : expr_finish cx e c = (e', c', f) -> sgood (mentions e') c c' f.
Proof.
  intros E. pose proof (expr_good e c) as G. rewrite E in G. destruct G as (_ & S & M & O). split; [eapply expr_fuel, E|].
  split; [exact S|]. intros F. split; [exact M | apply O, F].
Qed.
Lemma condition_sgood e c e' c' f : condition_finish (expr_finish cx) e c = (e', c', f) -> sgood (mentions e') c c' f.
Proof.
  intros E. pose proof (condition_good (expr_finish cx) e (expr_good e) c) as G. rewrite E in G. destruct G as (_ & S & M & O).
  split; [|split; [exact S|]; intros F; split; [exact M | apply O, F]].
  revert E. unfold condition_finish, fbind. destruct (expr_finish cx e c) as [[e1 c1] f1] eqn:E1. apply expr_fuel in E1.
  destruct f1; intros E; injection E as <- <- <-; try discriminate; exact E1.
Qed.
Lemma list_sgood l : forall c l' c' f, list_finish (expr_finish cx) l c = (l', c', f) ->
  sgood (flat_map mentions l') c c' f /\ length l' = length l.
Proof.
  induction l as [|e l IH]; intros c l' c' f; cbn [list_finish].
  - intros E; injection E as <- <- <-. split; [|reflexivity]. split; [discriminate|]. split; [apply step_refl|].
    intros _. split; [tauto | constructor].
  - destruct (expr_finish cx e c) as [[e1 c1] r1] eqn:E1. apply expr_sgood in E1. unfold fbind.
    destruct r1 as [t|x| |]; try (intros E; injection E as <- <- <-; split; [eapply sgood_weak; [exact E1 | intros []] | reflexivity]).
    destruct (list_finish (expr_finish cx) l c1) as [[l2 c2] r2] eqn:L. intros E; injection E as <- <- <-. apply IH in L as [L1 L2].
    split; [|cbn; congruence]. eapply sgood_seq; [exact E1 | exact I | exact L1|]. intros x. cbn. apply in_app_iff.
Qed.
Lemma quiet_sgood c c' f : quiet c c' -> f <> FFuel -> sgood [] c c' f.
Proof. intros [Q1 Q2] N. split; [exact N|]. split; [exact Q1|]. intros _. split; [rewrite Q2; tauto | constructor]. Qed.

Lemma snd_outs (outs : list (asm_dir * reg_constraint * expr)) (l : list expr) : length l = length outs ->
  map snd (map (fun '((d, r, _), e) => (d, r, e)) (combine outs l)) = l.
Proof.
  revert l. induction outs as [|[[d r] e0] outs IH]; intros [|e l]; cbn; try discriminate; [reflexivity|].
  intros H; injection H as H. rewrite IH by exact H. reflexivity.
Qed.
Lemma snd_ins (ins : list (reg_constraint * expr)) (l : list expr) : length l = length ins ->
  map snd (map (fun '((r, _), e) => (r, e)) (combine ins l)) = l.
Proof.
  revert l. induction ins as [|[r e0] ins IH]; intros [|e l]; cbn; try discriminate; [reflexivity|].
  intros H; injection H as H. rewrite IH by exact H. reflexivity.
Qed.
Lemma starts_with_iff s p : starts_with s p = true <-> exists r, s = p ++ r.
Proof.
  unfold starts_with. split.
  - destruct (strip_prefix p s) as [r|] eqn:E; [|discriminate]. intros _. exists r. now apply strip_prefix_some.
  - intros [r ->]. now rewrite strip_prefix_app.
Qed.
Lemma asm_global_iff a : asm_global a = true <-> Exists global_line (asm_template a).
Proof.
  unfold asm_global. rewrite existsb_exists, Exists_exists. split; intros (s & I0 & H); exists s; (split; [exact I0|]).
  - apply Bool.orb_true_iff in H as [H|H]; [apply Bool.orb_true_iff in H as [H|H]|];
      apply starts_with_iff in H as [r ->]; exists r; tauto.
  - destruct H as [r H]. rewrite !Bool.orb_true_iff, !starts_with_iff. destruct H as [-> | [-> | ->]]; eauto.
Qed.

Lemma asm_sgood a c a' c' f : asm_finish cx a c = (a', c', f) -> sgood (stmt_mentions (SAsm a')) c c' f.
Proof.
  unfold asm_finish.
  destruct (list_finish (expr_finish cx) (map snd (asm_outputs a)) c) as [[lo c1] r1] eqn:E1. apply list_sgood in E1 as [E1 L1].
  unfold fbind. destruct r1; try (intros E; injection E as <- <- <-; eapply sgood_weak; [exact E1 | intros []]).
  destruct (list_finish (expr_finish cx) (map snd (asm_inputs a)) c1) as [[li c2] r2] eqn:E2. apply list_sgood in E2 as [E2 L2].
  pose proof (sgood_seq _ _ _ _ _ _ _ (flat_map mentions lo ++ flat_map mentions li) E1 I E2 (fun x => in_app_iff _ _ x)) as G.
  destruct r2; try (intros E; injection E as <- <- <-; eapply sgood_weak; [exact G | intros []]).
  intros E; injection E as <- <- <-. cbn [stmt_mentions asm_template asm_outputs asm_inputs]. rewrite map_length in L1, L2.
  rewrite snd_outs, snd_ins by assumption.
  destruct G as (_ & G2 & G3). destruct (G3 I) as [G4 G5]. pose proof (asm_global_iff a) as Q.
  split; [discriminate|]. destruct (asm_global a).
  - split; [eapply step_trans; [exact G2 | apply step_macro]|]. intros _. split.
    + intros _. right. apply Exists_cons_hd. apply Q. reflexivity.
    + constructor; [split; [reflexivity | exact I]|]. eapply oks_step; [apply step_macro | exact G5].
  - split; [exact G2|]. intros _. split.
    + intros M. apply G4 in M as [M|M]; [left; exact M | right; apply Exists_cons_tl; exact M].
    + constructor; [split; [|exact I] | exact G5]. intros H. apply Q in H. discriminate.
Qed.

Lemma stmts_sgood l : Forall (fun s => forall c s' c' f, stmt_finish cx s c = (s', c', f) -> sgood (stmt_mentions s') c c' f) l ->
  forall c l' c' f, stmts_finish (stmt_finish cx) l c = (l', c', f) -> sgood (flat_map stmt_mentions l') c c' f.
Proof.
  induction 1 as [|s l H HF IH]; intros c l' c' f; cbn [stmts_finish].
  - intros E; injection E as <- <- <-. apply quiet_sgood; [apply quiet_refl | discriminate].
  - destruct (stmt_finish cx s c) as [[s1 c1] r1] eqn:E1. apply H in E1. unfold fbind.
    destruct r1; try (intros E; injection E as <- <- <-; eapply sgood_weak; [exact E1 | intros []]).
    destruct (stmts_finish (stmt_finish cx) l c1) as [[l2 c2] r2] eqn:L. intros E; injection E as <- <- <-. apply IH in L.
    eapply sgood_seq; [exact E1 | exact I | exact L|]. intros x. cbn. apply in_app_iff.
Qed.
Lemma fn_args_sgood l : forall c l' c' f, fn_args_finish cx l c = (l', c', f) -> quiet c c' /\ f <> FFuel.
Proof.
  induction l as [|[t n] l IH]; intros c l' c' f; cbn [fn_args_finish].
  - intros E; injection E as <- <- <-. split; [apply quiet_refl | discriminate].
  - destruct (ty_finish cx t c) as [[t1 c1] r1] eqn:T. apply ty_facts in T as [T1 T2]. unfold fbind.
    destruct r1; try (intros E; injection E as <- <- <-; split; [exact T1 | exact T2]).
    destruct (fn_args_finish cx l c1) as [[l2 c2] r2] eqn:L. intros E; injection E as <- <- <-. apply IH in L as [L1 L2].
    split; [eapply quiet_trans; eauto | exact L2].
Qed.

Lemma isok_void {X} (r : fin X) (w : X -> stmt) m s' c c' f :
  (let '(x, c1, f1) := r in sgood (m x) c c1 f1) -> (forall x, stmt_mentions (w x) = m x) ->
  fbind r w (fun x c' _ => (w x, c', FOk (ty_b BVoid))) = (s', c', f) -> sgood (stmt_mentions s') c c' f.
Proof.
  destruct r as [[x c1] f1]. intros G W. unfold fbind. destruct f1; intros E; injection E as <- <- <-; rewrite W; try exact G.
  destruct G as (G1 & G2 & G3). split; [discriminate|]. split; [exact G2|]. intros _. apply G3; exact I.
Qed.

Theorem stmt_sgood s : forall c s' c' f, stmt_finish cx s c = (s', c', f) -> sgood (stmt_mentions s') c c' f.
Proof.
  induction s as [a|e|d|d|l IHl|e a b IHa IHb|l e IHl] using stmt_ind'; intros c s' c' f; cbn [stmt_finish].
  - apply (isok_void _ _ (fun a => stmt_mentions (SAsm a))); [|reflexivity].
    destruct (asm_finish cx a c) as [[a1 c1] f1] eqn:E. eapply asm_sgood, E.
  - apply (isok_void _ _ mentions); [|reflexivity].
    destruct (expr_finish cx e c) as [[a1 c1] f1] eqn:E. eapply expr_sgood, E.
  - apply (isok_void _ _ (fun _ => [])); [|reflexivity].
    destruct (fn_decl_finish cx d c) as [[a1 c1] f1] eqn:E. revert E. unfold fn_decl_finish.
    destruct (ty_finish cx (fd_ret d) c) as [[t1 c2] r1] eqn:T. apply ty_facts in T as [T1 T2]. unfold fbind.
    destruct r1; try (intros E; injection E as <- <- <-; apply quiet_sgood; [exact T1 | exact T2]).
    assert (Q : forall c3, match fd_name d with IArg i => set_arg_type c2 i AIdent | _ => Some c2 end = Some c3 -> quiet c c3).
    { intros c3. destruct (fd_name d); try (intros E; injection E as <-; exact T1).
      intros E. apply set_arg_quiet in E. eapply quiet_trans; eauto. }
    destruct (match fd_name d with IArg i => set_arg_type c2 i AIdent | _ => Some c2 end) as [c3|].
    + destruct (fn_args_finish cx (fd_args d) c3) as [[l3 c4] r4] eqn:L. apply fn_args_sgood in L as [L1 L2].
      intros E; injection E as <- <- <-. apply quiet_sgood; [eapply quiet_trans; [apply Q; reflexivity | exact L1] | exact L2].
    + intros E; injection E as <- <- <-. apply quiet_sgood; [exact T1 | discriminate].
  - apply (isok_void _ _ (fun d => mentions (vd_rhs d))); [|reflexivity].
    destruct (var_decl_finish cx d c) as [[a1 c1] f1] eqn:E. revert E. unfold var_decl_finish.
    destruct (ty_finish cx (vd_ty d) c) as [[t1 c2] r1] eqn:T. apply ty_facts in T as [T1 T2]. unfold fbind.
    destruct r1; try (intros E; injection E as <- <- <-; eapply sgood_weak; [eapply (quiet_sgood _ _ _ T1 T2) | intros []]).
    destruct (ident_finish (vd_name d) c2) as [c3 r3] eqn:N. apply ident_facts in N as (N1 & N2 & _).
    pose proof (quiet_trans _ _ _ T1 N1) as Q.
    destruct r3; try (intros E; injection E as <- <- <-; eapply sgood_weak; [eapply (quiet_sgood _ _ _ Q N2) | intros []]).
    destruct (expr_finish cx (vd_rhs d) c3) as [[e4 c4] r4] eqn:X. apply expr_sgood in X.
    assert (G : sgood (mentions e4) c c4 r4).
    { eapply sgood_seq; [eapply (quiet_sgood _ _ (FOk None) Q); discriminate | exact I | exact X | intros x; cbn; tauto]. }
    destruct r4; intros E; injection E as <- <- <-; try exact G.
    destruct G as (G1 & G2 & G3). split; [discriminate|]. split; [exact G2|]. intros _; apply G3; exact I.
  - apply (isok_void _ _ (flat_map stmt_mentions)); [|reflexivity].
    destruct (stmts_finish (stmt_finish cx) l c) as [[a1 c1] f1] eqn:E. eapply stmts_sgood; [exact IHl | exact E].
  - destruct (condition_finish (expr_finish cx) e c) as [[e1 c1] r1] eqn:E1. apply condition_sgood in E1.
    destruct r1; try (intros E; injection E as <- <- <-; eapply sgood_weak; [exact E1 | intros []]).
    cbn [fbind]. destruct (stmts_finish (stmt_finish cx) a c1) as [[a2 c2] r2] eqn:E2. apply (stmts_sgood _ IHa) in E2.
    pose proof (sgood_seq _ _ _ _ _ _ _ (mentions e1 ++ flat_map stmt_mentions a2) E1 I E2 (fun x => in_app_iff _ _ x)) as G2.
    destruct r2; try (intros E; injection E as <- <- <-; eapply sgood_weak; [exact G2 | intros []]).
    apply (isok_void _ _ (fun b2 => mentions e1 ++ flat_map stmt_mentions a2 ++ flat_map stmt_mentions b2)); [|reflexivity].
    destruct (stmts_finish (stmt_finish cx) b c2) as [[b3 c3] r3] eqn:E3. apply (stmts_sgood _ IHb) in E3.
    eapply sgood_seq; [exact G2 | exact I | exact E3|]. intros x. rewrite !in_app_iff. tauto.
  - destruct (stmts_finish (stmt_finish cx) l c) as [[l1 c1] r1] eqn:E1. apply (stmts_sgood _ IHl) in E1.
    destruct r1; try (intros E; injection E as <- <- <-; eapply sgood_weak; [exact E1 | intros []]).
    apply (isok_void _ _ (fun e => flat_map stmt_mentions l1 ++ mentions e)); [|reflexivity].
    destruct (condition_finish (expr_finish cx) e c1) as [[e2 c2] r2] eqn:E2. apply condition_sgood in E2.
    eapply sgood_seq; [exact E1 | exact I | exact E2|]. intros x. apply in_app_iff.
Qed.

Theorem body_sgood b c b' c' f : body_finish cx b c = (b', c', f) -> sgood (body_mentions b') c c' f.
Proof.
  destruct b as [s|e]; cbn [body_finish].
  - destruct (stmt_finish cx s c) as [[s1 c1] f1] eqn:E. intros H; injection H as <- <- <-. eapply stmt_sgood, E.
  - destruct (expr_finish cx e c) as [[s1 c1] f1] eqn:E. intros H; injection H as <- <- <-. eapply expr_sgood, E.
Qed.

End F.
