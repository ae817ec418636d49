(** Inference only adds to what is known about the parameters of a macro: a type
    that is known is never replaced by another one. *)
From Verif Require Import Base Utf Lex LexFloat Token Ast ParseStmt Rust Finish SpecGen StrFacts FinishFacts.
From Coq Require Import String List Lia.
Import ListNotations.
Local Open Scope list_scope.

(** A fragment of a macro. *)
Definition fragment (a : arg_ty) : Prop := match a with AKnown _ | AUnknown => False | _ => True end.
Definition later (a b : arg_ty) : Prop :=
  match a with
  | AUnknown => True
  | AKnown t => b = AKnown t \/ fragment b
  | _ => fragment b
  end.
Lemma later_refl a : later a a.
Proof. destruct a; cbn; auto. Qed.
Lemma later_trans a b c : later a b -> later b c -> later a c.
Proof. destruct a; cbn; auto; destruct b; cbn; intuition (try discriminate; try congruence); auto; match goal with K : AKnown _ = AKnown _ |- _ => injection K as -> end; auto. Qed.
Lemma later_fragment a b : fragment b -> later a b.
Proof. destruct a; cbn; auto. Qed.

Definition advances (c c' : lctx) : Prop :=
  lc_names c' = lc_names c /\ (lc_macro c = true -> lc_macro c' = true) /\
  forall i, match arg_type c i with
            | Some a => exists b, arg_type c' i = Some b /\ later a b
            | None => arg_type c' i = None
            end.
Lemma adv_refl c : advances c c.
Proof. split; [reflexivity|]. split; [auto|]. intro i. destruct (arg_type c i) as [a|]; eauto using later_refl. Qed.
Lemma adv_trans a b c : advances a b -> advances b c -> advances a c.
Proof.
  intros (N1 & M1 & T1) (N2 & M2 & T2). split; [congruence|]. split; [auto|]. intro i. specialize (T1 i). specialize (T2 i).
  destruct (arg_type a i) as [x|].
  - destruct T1 as (y & E & L). rewrite E in T2. destruct T2 as (z & E2 & L2). eauto using later_trans.
  - now rewrite T1 in T2.
Qed.
Lemma adv_macro c : advances c (set_macro true c).
Proof. split; [reflexivity|]. split; [reflexivity|]. intro i. change (arg_type (set_macro true c) i) with (arg_type c i). destruct (arg_type c i); eauto using later_refl. Qed.
Lemma set_nth_same {A} (l : list A) : forall i x l', set_nth l i x = Some l' -> forall j, nth_error l' j = if Nat.eqb i j then Some x else nth_error l j.
Proof.
  induction l as [|a l IH]; intros [|i] x l'; cbn; try discriminate.
  - intros E j; injection E as <-. destruct j; reflexivity.
  - destruct (set_nth l i x) as [l1|] eqn:S; cbn; [|discriminate]. intros E j; injection E as <-. destruct j as [|j]; cbn; [reflexivity|]. now apply IH.
Qed.
Lemma adv_set c i t c' : set_arg_type c i t = Some c' -> (forall a, arg_type c i = Some a -> later a t) -> advances c c'.
Proof.
  unfold set_arg_type. destruct (set_nth (lc_types c) i t) as [l|] eqn:S; cbn; [|discriminate]. intros E L; injection E as <-.
  split; [reflexivity|]. split; [auto|]. intro j. unfold arg_type, set_types; cbn. rewrite (set_nth_same _ _ _ _ S j).
  destruct (Nat.eqb i j) eqn:J.
  - apply PeanoNat.Nat.eqb_eq in J as <-. fold (arg_type c i). destruct (arg_type c i) as [a|] eqn:Q; [eauto|].
    exfalso. apply set_nth_length in S as [_ S]. unfold arg_type in Q. apply nth_error_None in Q. lia.
  - destruct (nth_error (lc_types c) j); eauto using later_refl.
Qed.
Lemma adv_fragment c i t c' : fragment t -> set_arg_type c i t = Some c' -> advances c c'.
Proof. intros F E. eapply adv_set; [exact E|]. intros a _. now apply later_fragment. Qed.

Section F.
Context {U : Unicode}.
Variable cx : cgctx.

Lemma idparts_adv l : forall c c' f, idparts_finish l c = (c', f) -> advances c c'.
Proof.
  induction l as [|[i|s|v] l IH]; intros c c' f; cbn [idparts_finish].
  - intro E; injection E as <- <-. apply adv_refl.
  - destruct (set_arg_type c i AIdent) as [c1|] eqn:S.
    + intro E. apply IH in E. eapply adv_trans; [|exact E]. now apply (adv_fragment _ _ AIdent _ I S).
    + intro E; injection E as <- <-. apply adv_refl.
  - apply IH.
  - destruct (0 <=? v)%Z; intro E; injection E as <- <-; apply adv_refl.
Qed.
Lemma ident_adv n c c' f : ident_finish n c = (c', f) -> advances c c'.
Proof. destruct n; cbn; try (intro E; injection E as <- <-; apply adv_refl). apply idparts_adv. Qed.
Lemma ty_adv t : forall c t' c' f, ty_finish cx t c = (t', c', f) -> advances c c'.
Proof.
  induction t as [b|n sp|k l|t IH|t IH q]; intros c t' c' f; cbn [ty_finish].
  - intro E; injection E as <- <- <-. apply adv_refl.
  - destruct (ident_finish n c) as [c1 r] eqn:E. apply ident_adv in E. intro H.
    enough (c1 = c') by now subst.
    destruct r; [|injection H; auto..]. destruct n as [i|id|il]; try (injection H; auto; fail).
    destruct (cx_ty cx id) as [rt|]; [|injection H; auto]. destruct (from_rust_ty _ rt); injection H; auto.
  - intro E; injection E as <- <- <-. apply adv_refl.
  - destruct (ty_finish cx t c) as [[t1 c1] r] eqn:E. intro H; injection H as <- <- <-. eauto.
  - destruct (ty_finish cx t c) as [[t1 c1] r] eqn:E. intro H; injection H as <- <- <-. eauto.
Qed.
Lemma var_adv n c c' f : var_finish cx n c = (c', f) -> advances c c'.
Proof.
  unfold var_finish. destruct (ident_finish n c) as [c1 r] eqn:E. apply ident_adv in E. intro H.
  assert (M : advances c (set_macro true c1)) by (eapply adv_trans; [exact E|apply adv_macro]).
  destruct r; [|injection H as <- <-; exact E..]. destruct n as [i|s|l].
  - destruct (arg_type c1 i) as [[]|]; injection H as <- <-; exact E.
  - destruct (str_eqb s _); [injection H as <- <-; exact M|]. destruct (str_eqb s _); [injection H as <- <-; exact M|].
    destruct (rust_name limit_types s); [injection H as <- <-; exact E|].
    destruct (cx_enum cx s) as [[]|]; [|injection H as <- <-; exact M]. injection H as <- _. exact E.
  - injection H as <- <-. exact E.
Qed.
Lemma stringify_adv a c c' f : stringify_finish a c = (c', f) -> advances c c'.
Proof.
  assert (X : forall r, (c, r) = (c', f) -> advances c c') by (intros r E; injection E as <- <-; apply adv_refl).
  unfold stringify_finish. destruct a as [n| | | | | | | | |]; try apply X. destruct n as [i|s|l]; [| |apply X].
  - destruct (arg_type c i) as [t|]; [|apply X].
    assert (Y : match set_arg_type c i AExpr with Some c'0 => (c'0, FOk (Some ty_const_char_ptr)) | None => (c, FPanic) end = (c', f) -> advances c c').
    { destruct (set_arg_type c i AExpr) as [c1|] eqn:S; [|apply X]. intro E; injection E as <- <-. now apply (adv_fragment _ _ AExpr _ I S). }
    destruct t; try exact Y. apply X.
  - destruct (_ || _); [|apply X]. intro E; injection E as <- <-. apply adv_macro.
Qed.
Lemma infer_arg_adv e t c c' f : infer_arg e t c = (c', f) -> advances c c'.
Proof.
  assert (X : forall r, (c, r) = (c', f) -> advances c c') by (intros r E; injection E as <- <-; apply adv_refl).
  unfold infer_arg. destruct e as [n| | | | | | | | |]; try apply X. destruct n as [i|s|l]; try apply X.
  destruct (arg_type c i) as [[| | | | |]|] eqn:A; try apply X. destruct t as [r [a|]]; [|apply X].
  destruct (set_arg_type c i a) as [c1|] eqn:S; [|apply X]. intro E; injection E as <- <-.
  eapply adv_set; [exact S|]. intros b B. assert (b = AUnknown) as -> by congruence. exact I.
Qed.
Lemma infer_args_adv args : forall tys c c' f, infer_args cx args tys c = (c', f) -> advances c c'.
Proof.
  induction args as [|e args IH]; intros [|t tys] c c' f; cbn [infer_args]; try (intro E; injection E as <- <-; apply adv_refl).
  destruct (infer_arg e (known_arg cx t) c) as [c1 r] eqn:E. apply infer_arg_adv in E.
  destruct r; try (intro H; injection H as <- <-; exact E). intro H. apply IH in H. eapply adv_trans; eauto.
Qed.
Lemma call_adv n args c c' f : call_types cx n args c = (c', f) -> advances c c'.
Proof.
  assert (X : forall r, (c, r) = (c', f) -> advances c c') by (intros r E; injection E as <- <-; apply adv_refl).
  unfold call_types. destruct n as [i|id|l]; try apply X. destruct (cx_fn cx id) as [[tys ret]|].
  - destruct (Nat.eqb _ _); [|apply X]. destruct (from_rust_ty _ ret); try apply X.
    destruct (infer_args cx args tys c) as [c1 r] eqn:I. apply infer_args_adv in I.
    destruct r; intro E; injection E as <- <-; exact I.
  - assert (Y : forall r, (set_macro true c, r) = (c', f) -> advances c c') by (intros r E; injection E as <- <-; apply adv_macro).
    destruct (str_eqb id _); [|apply Y]. destruct args as [|a [|b [|]]]; try apply Y.
    destruct (infer_arg a _ (set_macro true c)) as [c1 r] eqn:A. apply infer_arg_adv in A.
    assert (A' : advances c c1) by (eapply adv_trans; [apply adv_macro|exact A]).
    destruct r; try (intro E; injection E as <- <-; exact A'). intro E. apply infer_arg_adv in E. eapply adv_trans; eauto.
Qed.
Lemma list_adv (go : expr -> lctx -> fin expr) l : Forall (fun e => forall c e' c' f, go e c = (e', c', f) -> advances c c') l ->
  forall c l' c' f, list_finish go l c = (l', c', f) -> advances c c'.
Proof.
  induction 1 as [|e l H HF IH]; intros c l' c' f; cbn [list_finish].
  - intro E; injection E as <- <- <-. apply adv_refl.
  - destruct (go e c) as [[e1 c1] r] eqn:E. apply H in E. unfold fbind. destruct r; try (intro X; injection X as <- <- <-; exact E).
    destruct (list_finish go l c1) as [[l2 c2] r2] eqn:L. intro X; injection X as <- <- <-. apply IH in L. eapply adv_trans; eauto.
Qed.
Lemma concat_adv (go : expr -> lctx -> fin expr) l : Forall (fun e => forall c e' c' f, go e c = (e', c', f) -> advances c c') l ->
  forall done acc cur c self names c' f, concat_finish go done l acc cur c = (self, names, c', f) -> advances c c'.
Proof.
  induction 1 as [|e l H HF IH]; intros done acc cur c self names c' f; cbn [concat_finish].
  - intro E; injection E as <- <- <- <-. apply adv_refl.
  - destruct (go e c) as [[e1 c1] r] eqn:E. apply H in E.
    assert (X : forall s n g, (s, n, c1, g) = (self, names, c', f) -> advances c c') by (intros s n g X; injection X as <- <- <- <-; exact E).
    assert (Y : forall d a u, concat_finish go d l a u c1 = (self, names, c', f) -> advances c c').
    { intros d a u Y. apply IH in Y. eapply adv_trans; eauto. }
    destruct r; try apply X.
    destruct e1 as [n| | |lt| | | | | |]; try apply Y.
    + destruct n as [i|s|li]; try apply Y. destruct (str_eqb s _); [apply Y|apply X].
    + destruct lt as [ch|s|fl|it]; try apply Y. destruct (lit_string_as_bytes s); [apply Y|apply X].
Qed.
Lemma binary_types_adv l op r lt rt c x c' f : binary_types cx l op r lt rt c = (x, c', f) -> advances c c'.
Proof.
  unfold binary_types.
  assert (C1 : forall c1, match op, r with OMember, EVar (IArg i) => set_arg_type c i AIdent | _, _ => Some c end = Some c1 -> advances c c1).
  { intros c1. assert (X : Some c = Some c1 -> advances c c1) by (intros E; injection E as <-; apply adv_refl).
    destruct op; try exact X. destruct r as [n| | | | | | | | |]; try exact X. destruct n; try exact X. now apply adv_fragment. }
  destruct (match op, r with OMember, EVar (IArg i) => set_arg_type c i AIdent | _, _ => Some c end) as [c1|].
  2: { intros E; injection E as <- <- <-. apply adv_refl. }
  specialize (C1 _ eq_refl).
  set (q := match l with EVar _ => _ | _ => _ end). destruct q as [[[l1 r1] lt1] rt1].
  intro E; injection E as _ <- _.
  assert (M : advances c (set_macro true c1)) by (eapply adv_trans; [exact C1|apply adv_macro]).
  destruct (is_assignment op); [|exact C1]. destruct l as [[]| | | | | | | | |]; try exact C1. exact M.
Qed.

Theorem finish_adv n : forall e c e' c' f, finish cx n e c = (e', c', f) -> advances c c'.
Proof.
  induction n as [n IHn] using lt_wf_ind.
  assert (AG : forall e c e' c' f, again_of cx n e c = (e', c', f) -> advances c c').
  { intros e c e' c' f. destruct n as [|n']; [intro E; injection E as <- <- <-; apply adv_refl | apply IHn; lia]. }
  clear IHn.
  induction e as [v|v l IHl|t e IHe|l|a IHa|l IHl|t|op e IHe|a op b IHa IHb|a b d IHa IHb IHd] using expr_ind'; intros c e' c' f;
    rewrite finish_eq; cbn [finish_step].
  - destruct (var_finish cx v c) as [c1 r] eqn:V. intro E; injection E as <- <- <-. eapply var_adv; eauto.
  - destruct (lc_var c); [intro E; injection E as <- <- <-; apply adv_refl|].
    destruct (ident_finish v c) as [c1 r] eqn:E. apply ident_adv in E.
    destruct r; try (intro X; injection X as <- <- <-; exact E).
    destruct (list_finish (finish cx n) l c1) as [[l2 c2] r2] eqn:L. apply (list_adv _ _ IHl) in L.
    assert (S : advances c c2) by (eapply adv_trans; eauto).
    unfold fbind. destruct r2; try (intro X; injection X as <- <- <-; exact S).
    destruct (call_types cx v l2 c2) as [c3 r3] eqn:C. apply call_adv in C. intro X; injection X as <- <- <-. eapply adv_trans; eauto.
  - destruct (ty_finish cx t c) as [[t1 c1] r1] eqn:T. apply ty_adv in T.
    destruct (match r1 with FOk _ => finish cx n e c1 | _ => (e, c1, r1) end) as [[e2 c2] r2] eqn:Q.
    assert (S : advances c c2).
    { destruct r1; try (injection Q as <- <- <-; exact T). eapply adv_trans; [exact T|]. eapply IHe; exact Q. }
    assert (A : forall b, again_of cx n b c2 = (e', c', f) -> advances c c') by (intros b B; eapply adv_trans; [exact S|]; eapply AG; exact B).
    destruct r2 as [o|[x| | |x|x]| |]; try (intro X; injection X as <- <- <-; exact S).
    + destruct (cast_as_binary cx t1 e2); [apply A|]. destruct (redundant_cast t1 e2); intro X; injection X as <- <- <-; exact S.
    + destruct (cast_of_deref t1 e2); [apply A|]. intro X; injection X as <- <- <-; exact S.
  - destruct l as [x|x|x|x]; try (intro E; injection E as <- <- <-; apply adv_refl).
    destruct (char_finish cx x c) as [[t|]| | |]; intro E; injection E as <- <- <-; apply adv_refl.
  - destruct (stringify_finish a c) as [c1 r] eqn:V. apply stringify_adv in V. intro E; injection E as <- <- <-. exact V.
  - destruct (concat_finish (finish cx n) [] l [] None c) as [[[self names] c1] r] eqn:Q.
    apply (concat_adv _ _ IHl) in Q.
    destruct r; destruct names as [|x1 [|x2 names]]; try (intro E; injection E as <- <- <-; exact Q).
    intro E. eapply adv_trans; [exact Q|]. eapply AG; exact E.
  - destruct (ty_finish cx t c) as [[t1 c1] r1] eqn:T. apply ty_adv in T.
    unfold fbind. destruct r1; intro E; injection E as <- <- <-; exact T.
  - destruct (finish cx n e c) as [[e1 c1] r1] eqn:F. apply IHe in F. unfold fbind.
    destruct r1; try (intro E; injection E as <- <- <-; exact F).
    destruct (unary_type op c1 t); try (intro E; injection E as <- <- <-; exact F).
    destruct (unary_fold op e1 t0) as [e2 r2]. intro E; injection E as <- <- <-; exact F.
  - destruct (finish cx n a c) as [[a1 c1] r1] eqn:F1. apply IHa in F1. unfold fbind.
    destruct r1; try (intro E; injection E as <- <- <-; exact F1).
    destruct (finish cx n b c1) as [[b1 c2] r2] eqn:F2. apply IHb in F2.
    assert (S : advances c c2) by (eapply adv_trans; eauto).
    destruct r2; try (intro E; injection E as <- <- <-; exact S).
    destruct (binary_types cx a1 op b1 t t0 c2) as [[x c3] r3] eqn:T. apply binary_types_adv in T.
    assert (S3 : advances c c3) by (eapply adv_trans; eauto).
    destruct r3; try (intro E; injection E as <- <- <-; exact S3).
    destruct (binary_fold cx _ op _ t1 c3) as [e2 f2]. intro E; injection E as <- <- <-; exact S3.
  - unfold condition_finish.
    destruct (finish cx n a c) as [[a1 c1] r1] eqn:F1. apply IHa in F1. unfold fbind.
    destruct r1; try (intro E; injection E as <- <- <-; exact F1).
    destruct (finish cx n b c1) as [[b1 c2] r2] eqn:F2. apply IHb in F2.
    assert (S : advances c c2) by (eapply adv_trans; eauto).
    destruct r2; try (intro E; injection E as <- <- <-; exact S).
    destruct (finish cx n d c2) as [[d1 c3] r3] eqn:F3. apply IHd in F3.
    destruct r3; intro E; injection E as <- <- <-; eapply adv_trans; eauto.
Qed.
End F.
