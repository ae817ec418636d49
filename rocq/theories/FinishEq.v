(** Type inference as an equation without fuel. *)
From Verif Require Import Base Utf Lex LexFloat Token Ast ParseStmt Rust Finish SpecGen StrFacts FinishFacts.
From Coq Require Import String List Lia.
Import ListNotations.
Local Open Scope list_scope.

Section F.
Context {U : Unicode}.
Variable cx : cgctx.

Lemma list_ext (f g : expr -> lctx -> fin expr) l : Forall (fun e => forall c, f e c = g e c) l ->
  forall c, list_finish f l c = list_finish g l c.
Proof.
  induction 1 as [|e l H HF IH]; intros c; cbn [list_finish]; [reflexivity|]. rewrite H. destruct (g e c) as [[e1 c1] []]; try reflexivity.
  unfold fbind. now rewrite IH.
Qed.
Lemma concat_ext (f g : expr -> lctx -> fin expr) l : Forall (fun e => forall c, f e c = g e c) l ->
  forall done acc cur c, concat_finish f done l acc cur c = concat_finish g done l acc cur c.
Proof.
  induction 1 as [|e l H HF IH]; intros done acc cur c; cbn [concat_finish]; [reflexivity|]. rewrite H.
  destruct (g e c) as [[e1 c1] []]; try reflexivity.
  destruct e1 as [[]| | |[]| | | | | |]; try apply IH.
  - destruct (str_eqb _ _); [apply IH|reflexivity].
  - destruct (lit_string_as_bytes _); [apply IH|reflexivity].
Qed.

Lemma finish_stable n : forall m e c, weight e <= n -> weight e <= m -> finish cx n e c = finish cx m e c.
Proof.
  induction n as [n IHn] using lt_wf_ind. intros m.
  assert (AG : forall e c, S (weight e) <= n -> S (weight e) <= m -> again_of cx n e c = again_of cx m e c).
  { intros e c W W'. destruct n as [|n'], m as [|m']; try lia. apply IHn; lia. }
  clear IHn.
  induction e as [v|v l IHl|t e IHe|l|a IHa|l IHl|t|op e IHe|a op b IHa IHb|a b d IHa IHb IHd] using expr_ind'; intros c W W';
    rewrite !finish_eq; cbn [finish_step]; cbn [weight] in W, W'; try reflexivity.
  - destruct (lc_var c); [reflexivity|]. destruct (ident_finish v c) as [c1 []]; try reflexivity.
    rewrite (list_ext (finish cx n) (finish cx m)) with (l := l); [reflexivity|].
    clear - IHl W W'. revert W W'. induction IHl as [|x l H HF IH]; intros W W'; constructor; cbn in W, W'; [intros; apply H; lia | apply IH; lia].
  - destruct (ty_finish cx t c) as [[t1 c1] r1].
    assert (E : forall c, finish cx n e c = finish cx m e c) by (intro; apply IHe; lia). rewrite E.
    pose proof (finish_fuel cx m e c1 W') as G.
    destruct r1 as [o|x| |].
    2:{ destruct x; try reflexivity. destruct (cast_of_deref t1 e) as [b|] eqn:B; [|reflexivity].
        apply cast_of_deref_facts in B. apply AG; lia. }
    2:{ reflexivity. }
    2:{ reflexivity. }
    destruct (finish cx m e c1) as [[e2 c2] r2]. destruct G as [G1 G2].
    destruct r2 as [o2|[x| | |x|x]| |]; try reflexivity.
    + destruct (cast_as_binary cx t1 e2) as [b|] eqn:B; [|reflexivity].
      apply cast_as_binary_facts in B. apply AG; lia.
    + destruct (cast_of_deref t1 e2) as [b|] eqn:B; [|reflexivity].
      apply cast_of_deref_facts in B. apply AG; lia.
  - assert (HL : Forall (fun e => forall c, finish cx n e c = finish cx m e c) l).
    { clear - IHl W W'. assert (V : weights weight l <= n) by lia. assert (V' : weights weight l <= m) by lia. clear W W'. revert V V'.
      induction IHl as [|x l H HF IH]; intros V V'; constructor; cbn in V, V'; [intros; apply H; lia | apply IH; lia]. }
    rewrite (concat_ext _ _ _ HL).
    assert (HF : Forall (fun e => forall c, fuelok (finish cx m e c) e) l).
    { clear - W'. assert (V' : weights weight l <= m) by lia. clear W'. revert V'.
      induction l as [|x l IH]; intros V'; constructor; cbn in V'; [intros; apply finish_fuel; lia | apply IH; lia]. }
    destruct (concat_finish (finish cx m) [] l [] None c) as [[[self names] c1] r] eqn:Q.
    apply (concat_fuel _ _ HF) in Q as (Q1 & Q2 & Q3). cbn in Q2.
    destruct names as [|x1 [|x2 names]]; destruct r as [o|x| |]; try reflexivity. specialize (Q2 I). cbn in Q2. apply AG; lia.
  - now rewrite IHe by lia.
  - rewrite IHa by lia. destruct (finish cx m a c) as [[a1 c1] []]; try reflexivity. unfold fbind. now rewrite IHb by lia.
  - unfold condition_finish. rewrite IHa by lia. destruct (finish cx m a c) as [[a1 c1] []]; try reflexivity. unfold fbind.
    rewrite IHb by lia. destruct (finish cx m b c1) as [[b1 c2] []]; try reflexivity. now rewrite IHd by lia.
Qed.
Lemma finish_enough n e c : weight e <= n -> finish cx n e c = expr_finish cx e c.
Proof. intro W. now apply finish_stable. Qed.

Lemma expr_weight e c e' c' f : expr_finish cx e c = (e', c', f) -> weight e' <= weight e.
Proof. intro E. pose proof (finish_fuel cx (weight e) e c (le_n _)) as F. unfold expr_finish in E. rewrite E in F. apply F. Qed.

(** [Expr::finish] calls itself, on subexpressions and on rewritten
    expressions. *)
Theorem expr_finish_eq e c : expr_finish cx e c = finish_step cx (expr_finish cx) (expr_finish cx) e c.
Proof.
  set (n := S (weight e)).
  rewrite <- (finish_enough n) by (unfold n; lia). rewrite finish_eq. change (again_of cx n) with (finish cx (weight e)).
  destruct e as [v|v l|t e|l|a|l|t|op e|a op b|a b d]; cbn [finish_step]; cbn [weight] in *; try reflexivity.
  - destruct (lc_var c); [reflexivity|]. destruct (ident_finish v c) as [c1 []]; try reflexivity.
    rewrite (list_ext (finish cx n) (expr_finish cx)); [reflexivity|]. apply Forall_forall. intros e I c0. apply finish_enough.
    assert (weight e <= weights weight l); [|unfold n; lia]. clear - I. induction l as [|x l IH]; [destruct I|]. cbn. destruct I as [<-|I]; [lia|]. specialize (IH I). lia.
  - destruct (ty_finish cx t c) as [[t1 c1] r1]. rewrite finish_enough by (unfold n; lia).
    assert (K : forall e2 c2 b, weight e2 <= weight e -> S (weight b) <= weight e2 -> finish cx (weight e) b c2 = expr_finish cx b c2).
    { intros. apply finish_enough. lia. }
    destruct r1 as [o|x| |]; try reflexivity.
    + destruct (expr_finish cx e c1) as [[e2 c2] r2] eqn:E. apply expr_weight in E. destruct r2 as [o2|[x| | |x|x]| |]; try reflexivity.
      * destruct (cast_as_binary cx t1 e2) as [b|] eqn:B; [|reflexivity]. apply cast_as_binary_facts in B. apply (K e2); lia.
      * destruct (cast_of_deref t1 e2) as [b|] eqn:B; [|reflexivity]. apply cast_of_deref_facts in B. apply (K e2); lia.
    + destruct x; try reflexivity. destruct (cast_of_deref t1 e) as [b|] eqn:B; [|reflexivity]. apply cast_of_deref_facts in B. apply (K e); lia.
  - assert (HL : forall m, S (weights weight l) <= S m -> Forall (fun e => forall c, finish cx m e c = expr_finish cx e c) l).
    { intros m M. apply Forall_forall. intros e I c0. apply finish_enough.
      assert (weight e <= weights weight l); [|lia]. clear - I. induction l as [|x l IH]; [destruct I|]. cbn. destruct I as [<-|I]; [lia|]. specialize (IH I). lia. }
    rewrite (concat_ext _ _ _ (HL n ltac:(unfold n; lia))).
    assert (HF : Forall (fun e => forall c, fuelok (expr_finish cx e c) e) l).
    { apply Forall_forall. intros e I c0. apply finish_fuel. lia. }
    destruct (concat_finish (expr_finish cx) [] l [] None c) as [[[self names] c1] r] eqn:Q.
    apply (concat_fuel _ _ HF) in Q as (Q1 & Q2 & Q3). cbn in Q2.
    destruct names as [|x1 [|x2 names]]; destruct r as [o|x| |]; try reflexivity. specialize (Q2 I). cbn in Q2. apply finish_enough; lia.
  - now rewrite finish_enough by (unfold n; lia).
  - rewrite finish_enough by (unfold n; lia). destruct (expr_finish cx a c) as [[a1 c1] []]; try reflexivity. unfold fbind. now rewrite finish_enough by (unfold n; lia).
  - unfold condition_finish. rewrite finish_enough by (unfold n; lia). destruct (expr_finish cx a c) as [[a1 c1] []]; try reflexivity. unfold fbind.
    rewrite finish_enough by (unfold n; lia). destruct (expr_finish cx b c1) as [[b1 c2] []]; try reflexivity. now rewrite finish_enough by (unfold n; lia).
Qed.
End F.
