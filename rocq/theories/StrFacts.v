(** Basic facts about strings and maps. *)
From Verif Require Import Base Utf Lex LexFloat Token MacroSet.
From Coq Require Import String List.
Local Open Scope list_scope.

Lemma str_eqb_spec a b : reflect (a = b) (str_eqb a b).
Proof.
  revert b. induction a as [|x a IH]; intros [|y b]; simpl; try (constructor; congruence).
  destruct (N.eqb_spec x y) as [->|Hn]; simpl.
  - destruct (IH b) as [->|Hn]; constructor; congruence.
  - constructor; congruence.
Qed.

Lemma str_eqb_eq a b : str_eqb a b = true <-> a = b.
Proof. destruct (str_eqb_spec a b); split; congruence. Qed.

Lemma str_eqb_refl a : str_eqb a a = true.
Proof. now apply str_eqb_eq. Qed.

Lemma str_eqb_sym a b : str_eqb a b = str_eqb b a.
Proof. destruct (str_eqb_spec a b), (str_eqb_spec b a); congruence. Qed.

Lemma str_eqb_neq a b : str_eqb a b = false <-> a <> b.
Proof. destruct (str_eqb_spec a b); split; congruence. Qed.

Lemma str_mem_In x l : str_mem x l = true <-> In x l.
Proof.
  unfold str_mem. rewrite existsb_exists. split.
  - intros (y & Hy & He). apply str_eqb_eq in He. now subst.
  - intros Hi. exists x. split; [easy|apply str_eqb_refl].
Qed.

Lemma str_mem_not_In x l : str_mem x l = false <-> ~ In x l.
Proof. rewrite <- str_mem_In. destruct (str_mem x l); split; congruence. Qed.

Definition str_eq_dec (a b : str) : {a = b} + {a <> b} := list_eq_dec N.eq_dec a b.

(** ** maps *)
Lemma sm_get_remove {V} (m : smap V) k k' :
  sm_get (sm_remove m k) k' = if str_eqb k' k then None else sm_get m k'.
Proof.
  induction m as [|[k1 v] m IH]; simpl.
  - now destruct (str_eqb k' k).
  - destruct (str_eqb_spec k k1) as [e|Hn]; simpl; rewrite IH.
    + subst k. destruct (str_eqb k' k1); easy.
    + destruct (str_eqb_spec k' k1) as [e'|Hn']; [|easy].
      destruct (str_eqb_spec k' k); [congruence|easy].
Qed.

Lemma sm_get_insert {V} (m : smap V) k v k' :
  sm_get (sm_insert m k v) k' = if str_eqb k' k then Some v else sm_get m k'.
Proof.
  unfold sm_insert. simpl. rewrite sm_get_remove. now destruct (str_eqb k' k).
Qed.

(** ** take_while *)
Lemma take_while_app {A} (p : A -> bool) s a b : take_while p s = (a, b) -> s = a ++ b.
Proof.
  revert a b. induction s as [|c s IH]; simpl; intros a b Heq.
  - now inversion Heq.
  - destruct (p c).
    + destruct (take_while p s) as [a' b'] eqn:E. inversion Heq; subst.
      simpl. f_equal. now apply IH.
    + now inversion Heq.
Qed.

Lemma take_while_all {A} (p : A -> bool) s a b : take_while p s = (a, b) -> forallb p a = true.
Proof.
  revert a b. induction s as [|c s IH]; simpl; intros a b Heq.
  - now inversion Heq.
  - destruct (p c) eqn:Ep.
    + destruct (take_while p s) as [a' b'] eqn:E. inversion Heq; subst. simpl. rewrite Ep.
      simpl. now apply (IH a' b).
    + now inversion Heq.
Qed.

Lemma take_while_stop {A} (p : A -> bool) s a b :
  take_while p s = (a, b) -> match b with [] => True | c :: _ => p c = false end.
Proof.
  revert a b. induction s as [|c s IH]; simpl; intros a b Heq.
  - now inversion Heq.
  - destruct (p c) eqn:Ep.
    + destruct (take_while p s) as [a' b'] eqn:E. inversion Heq; subst. now apply (IH a' b).
    + inversion Heq; subst. exact Ep.
Qed.

Lemma take_while_intro {A} (p : A -> bool) a b :
  forallb p a = true -> match b with [] => True | c :: _ => p c = false end ->
  take_while p (a ++ b) = (a, b).
Proof.
  induction a as [|x a IH]; simpl; intros Ha Hb.
  - destruct b as [|c b]; simpl; [easy|]. now rewrite Hb.
  - apply andb_prop in Ha. destruct Ha as [Hx Ha]. rewrite Hx, (IH Ha Hb). easy.
Qed.

Lemma strip_prefix_app p s : strip_prefix p (p ++ s) = Some s.
Proof. induction p as [|x p IH]; simpl; [easy|]. now rewrite N.eqb_refl. Qed.

Lemma strip_prefix_some p s r : strip_prefix p s = Some r -> s = p ++ r.
Proof.
  revert s r. induction p as [|x p IH]; intros [|y s] r; simpl; try congruence.
  destruct (N.eqb_spec x y) as [->|]; [|congruence]. intros Heq. f_equal. now apply IH.
Qed.
