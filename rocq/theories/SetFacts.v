(** Proofs about the define/undefine state machine. *)
From Verif Require Import Base Utf Lex LexFloat Token MacroSet StrFacts SpecSet.
From Coq Require Import String List.
Local Open Scope list_scope.
Local Arguments sm_insert : simpl never.
Local Arguments sm_remove : simpl never.
Local Arguments sm_get : simpl never.

(** The model of one API call and of a history (oldest call first). *)
Definition do_call (m : macro_set) (c : call) : macro_set * bool :=
  match c with
  | DefineVar n b => define_var_macro m n b
  | DefineFn n p b => define_fn_macro m n p b
  | UndefineVar n => undefine_var_macro m n
  | UndefineFn n => undefine_fn_macro m n
  end.
Definition run (h : list call) : macro_set := fold_left (fun m c => fst (do_call m c)) h ms_new.

(** What the set holds under a name. *)
Definition holds (m : macro_set) (n : str) (d : option definition) : Prop :=
  match d with
  | None => sm_get (var_macros m) n = None /\ sm_get (fn_macros m) n = None
  | Some (DVar b) => sm_get (var_macros m) n = Some b /\ sm_get (fn_macros m) n = None
  | Some (DFn p b) => sm_get (var_macros m) n = None /\ sm_get (fn_macros m) n = Some (p, b)
  end.

Lemma same_name_eqb a b : same_name a b = str_eqb b a.
Proof.
  unfold same_name. destruct (list_eq_dec N.eq_dec a b) as [->|Hn].
  - now rewrite str_eqb_refl.
  - symmetry. apply str_eqb_neq. congruence.
Qed.

Lemma holds_step m c h :
  (forall n, holds m n (defined h n)) -> forall n, holds (fst (do_call m c)) n (defined (c :: h) n).
Proof.
  intros Hinv n. destruct c as [x b|x p b|x|x]; simpl; rewrite same_name_eqb.
  - unfold define_var_macro. pose proof (Hinv x) as Hx. pose proof (Hinv n) as Hn.
    destruct (sm_get (var_macros m) x) as [old|] eqn:Ev; simpl.
    + destruct (str_eqb_spec n x) as [->|Hne].
      * simpl. rewrite sm_get_insert, str_eqb_refl. split; [easy|].
        destruct (defined h x) as [[b'|p' b']|]; simpl in Hx; rewrite Ev in Hx; intuition congruence.
      * apply str_eqb_neq in Hne.
        destruct (defined h n) as [[b'|p' b']|]; simpl in *;
          rewrite sm_get_insert, Hne, sm_get_remove, Hne; exact Hn.
    + destruct (str_eqb_spec n x) as [->|Hne].
      * simpl. rewrite sm_get_insert, str_eqb_refl, sm_get_remove, str_eqb_refl. easy.
      * apply str_eqb_neq in Hne.
        destruct (defined h n) as [[b'|p' b']|]; simpl in *;
          rewrite sm_get_insert, Hne, sm_get_remove, Hne; exact Hn.
  - unfold define_fn_macro. pose proof (Hinv x) as Hx. pose proof (Hinv n) as Hn.
    destruct (sm_get (fn_macros m) x) as [[op ob]|] eqn:Ev; simpl.
    + destruct (str_eqb_spec n x) as [->|Hne].
      * simpl. rewrite sm_get_insert, str_eqb_refl. split; [|easy].
        destruct (defined h x) as [[b'|p' b']|]; simpl in Hx; rewrite Ev in Hx; intuition congruence.
      * apply str_eqb_neq in Hne.
        destruct (defined h n) as [[b'|p' b']|]; simpl in *;
          rewrite sm_get_insert, Hne, sm_get_remove, Hne; exact Hn.
    + destruct (str_eqb_spec n x) as [->|Hne].
      * simpl. rewrite sm_get_insert, str_eqb_refl, sm_get_remove, str_eqb_refl. easy.
      * apply str_eqb_neq in Hne.
        destruct (defined h n) as [[b'|p' b']|]; simpl in *;
          rewrite sm_get_insert, Hne, sm_get_remove, Hne; exact Hn.
  - pose proof (Hinv n) as Hn. unfold undefine_var_macro.
    destruct (defined h n) as [[b'|p' b']|]; simpl in *;
      destruct (str_eqb n x) eqn:E; simpl; rewrite sm_get_remove, E; try exact Hn; intuition.
  - pose proof (Hinv n) as Hn. unfold undefine_fn_macro.
    destruct (defined h n) as [[b'|p' b']|]; simpl in *;
      destruct (str_eqb n x) eqn:E; simpl; rewrite sm_get_remove, E; try exact Hn; intuition.
Qed.

Lemma run_app h c : run (h ++ [c]) = fst (do_call (run h) c).
Proof. unfold run. now rewrite fold_left_app. Qed.

Lemma run_holds h n : holds (run h) n (defined (rev h) n).
Proof.
  revert n. induction h as [|c h IH] using rev_ind.
  - intros n. simpl. easy.
  - intros n. rewrite run_app, rev_app_distr. simpl rev. simpl app. now apply holds_step.
Qed.

Lemma holds_var m n d b : holds m n d -> (sm_get (var_macros m) n = Some b <-> d = Some (DVar b)).
Proof. destruct d as [[b'|p' b']|]; simpl; intros [H1 H2]; rewrite H1; split; congruence. Qed.

Lemma holds_fn m n d p b : holds m n d -> (sm_get (fn_macros m) n = Some (p, b) <-> d = Some (DFn p b)).
Proof. destruct d as [[b'|p' b']|]; simpl; intros [H1 H2]; rewrite H2; split; congruence. Qed.

(** The comparison of two definitions, position by position. *)
Lemma zip_all_equal_spec a b :
  zip_all_equal a b = false <-> exists i x y, nth_error a i = Some x /\ nth_error b i = Some y /\ x <> y.
Proof.
  revert b. induction a as [|x a IH]; intros [|y b]; simpl.
  - split; [congruence|]. intros (i & x & y & H1 & _). destruct i; discriminate.
  - split; [congruence|]. intros (i & x' & y' & H1 & _). destruct i; discriminate.
  - split; [congruence|]. intros (i & x' & y' & _ & H1 & _). destruct i; discriminate.
  - destruct (str_eqb_spec x y) as [->|Hn]; simpl.
    + rewrite IH. split.
      * intros (i & u & v & H1 & H2 & H3). now exists (S i), u, v.
      * intros (i & u & v & H1 & H2 & H3). destruct i; simpl in *; [congruence|].
        now exists i, u, v.
    + split; [|easy]. intros _. now exists 0, x, y.
Qed.

Lemma zip_all_equal_same_length a b : length a = length b -> (zip_all_equal a b = true <-> a = b).
Proof.
  revert b. induction a as [|x a IH]; intros [|y b]; simpl; try discriminate; [easy|].
  intros Hl. rewrite andb_true_iff, str_eqb_eq. rewrite IH by congruence.
  split; [intros [-> ->]; easy|intros Heq; inversion Heq; easy].
Qed.
