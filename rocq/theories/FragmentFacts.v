(** What inference makes of the parameters, step by step: every change is
    explained by a use, and every use has its effect. *)
From Verif Require Import Base Utf Lex LexFloat Token Ast ParseStmt Rust Finish SpecGen StrFacts FinishFacts InferFacts SpecFragment.
From Coq Require Import String List Lia.
Import ListNotations.
Local Open Scope list_scope.

Section F.
Context {U : Unicode}.
Variable cx : cgctx.
Notation uses := (uses cx).

Definition explained (S : use -> Prop) (a b : arg_ty) : Prop :=
  b = a \/ b = AIdent /\ S AsName \/ b = AExpr /\ a <> AIdent /\ S AsText \/
  a = AUnknown /\ (b = ATy /\ S AsType \/ b = ATt /\ S AsField \/
                   exists t t', b = AKnown t' /\ S (Passed t) /\ from_rust_ty (cx_ffi cx) t = ROk t').
Definition changes (S : use -> nat -> Prop) (c c' : lctx) : Prop :=
  forall i, match arg_type c i, arg_type c' i with
            | Some a, Some b => explained (fun k => S k i) a b
            | None, None => True
            | _, _ => False
            end.
Definition settles (k : use) (a : arg_ty) : Prop :=
  match k with AsName => a = AIdent | AsText => a = AIdent \/ a = AExpr | _ => a <> AUnknown end.
Definition settled (S : use -> nat -> Prop) (c : lctx) : Prop :=
  forall k i, S k i -> exists a, arg_type c i = Some a /\ settles k a.
Definition none : use -> nat -> Prop := fun _ _ => False.

Lemma explained_trans S a b d : explained S a b -> explained S b d -> explained S a d.
Proof.
  unfold explained. intros H1 H2.
  destruct H2 as [-> | [H2 | [(-> & H2 & H3) | (-> & H2)]]]; auto.
  - right; right; left. split; [reflexivity|]. split; [|exact H3]. intros ->.
    destruct H1 as [-> | [[-> _] | [(_ & H1 & _) | (H1 & _)]]]; try contradiction. discriminate.
  - destruct H1 as [<- | [[H1 _] | [(H1 & _) | (-> & [[H1 _]|[[H1 _]|(t & t' & H1 & _)]])]]]; try discriminate. auto.
Qed.
Lemma explained_weak (S T : use -> Prop) a b : (forall k, S k -> T k) -> explained S a b -> explained T a b.
Proof.
  intros W [H|[[H X]|[(H & Y & X)|(H & [[H1 X]|[[H1 X]|(t & t' & H1 & X & Y)]])]]]; unfold explained.
  - now left.
  - right; left. auto.
  - right; right; left. auto.
  - right; right; right. split; [exact H|]. left. auto.
  - right; right; right. split; [exact H|]. right; left. auto.
  - right; right; right. split; [exact H|]. right; right. exists t, t'. auto.
Qed.
Lemma settles_kept S k a b : settles k a -> explained S a b -> settles k b.
Proof.
  intros H [->|[[-> _]|[(-> & N & _)|(-> & E)]]]; auto.
  - destruct k; cbn; auto; discriminate.
  - destruct k; cbn in *; auto; try discriminate. contradiction.
  - destruct k; cbn in H; try discriminate; try contradiction. destruct H; discriminate.
Qed.

Lemma changes_refl S c : changes S c c.
Proof. intro i. destruct (arg_type c i); [now left|exact I]. Qed.
Lemma changes_weak (S T : use -> nat -> Prop) c c' : (forall k i, S k i -> T k i) -> changes S c c' -> changes T c c'.
Proof.
  intros W H i. specialize (H i). destruct (arg_type c i), (arg_type c' i); auto. revert H. apply explained_weak. auto.
Qed.
Lemma changes_trans S a b c : changes S a b -> changes S b c -> changes S a c.
Proof.
  intros H1 H2 i. specialize (H1 i). specialize (H2 i).
  destruct (arg_type a i), (arg_type b i), (arg_type c i); try contradiction; auto. eapply explained_trans; eauto.
Qed.
Lemma changes_macro S b c : changes S c (set_macro b c).
Proof. exact (changes_refl S c). Qed.
Lemma settled_kept S T c c' : settled S c -> changes T c c' -> settled S c'.
Proof.
  intros H C k i X. destruct (H k i X) as (a & A & B). specialize (C i). rewrite A in C.
  destruct (arg_type c' i) as [b|]; [|contradiction]. exists b. split; [reflexivity|]. eapply settles_kept; eauto.
Qed.
Lemma settled_weak (S T : use -> nat -> Prop) c : (forall k i, T k i -> S k i) -> settled S c -> settled T c.
Proof. intros W H k i X. apply H. auto. Qed.
Lemma settled_or (S T : use -> nat -> Prop) c : settled S c -> settled T c -> settled (fun k i => S k i \/ T k i) c.
Proof. intros H1 H2 k i [X|X]; auto. Qed.
Lemma settled_none S c : (forall k i, ~ S k i) -> settled S c.
Proof. intros H k i X. destruct (H k i X). Qed.

Lemma changes_set (S : use -> nat -> Prop) c i t c' : set_arg_type c i t = Some c' ->
  (forall a, arg_type c i = Some a -> explained (fun k => S k i) a t) -> changes S c c' /\ arg_type c' i = Some t.
Proof.
  unfold set_arg_type. destruct (set_nth (lc_types c) i t) as [l|] eqn:E; cbn; [|discriminate]. intros X L; injection X as <-.
  split.
  - intro j. unfold arg_type, set_types; cbn. rewrite (set_nth_same _ _ _ _ E j).
    destruct (Nat.eqb i j) eqn:J.
    + apply PeanoNat.Nat.eqb_eq in J as <-. fold (arg_type c i). destruct (arg_type c i) as [a|] eqn:Q; [eauto|].
      exfalso. apply set_nth_length in E as [_ E]. unfold arg_type in Q. apply nth_error_None in Q. lia.
    + destruct (nth_error (lc_types c) j); [now left|exact I].
  - unfold arg_type, set_types; cbn. rewrite (set_nth_same _ _ _ _ E i), PeanoNat.Nat.eqb_refl. reflexivity.
Qed.

(** ** Names and types *)

Definition name_use (n : ident_expr) : use -> nat -> Prop := fun k i => k = AsName /\ pasted i n.
Definition type_use (t : ctype) : use -> nat -> Prop := fun k i => k = AsName /\ pasted_type i t.

Lemma parts_frag (S : use -> nat -> Prop) l : (forall i, In (IpArg i) l -> S AsName i) -> forall c c' f, idparts_finish l c = (c', f) ->
  changes S c c' /\ (isok f -> forall i, In (IpArg i) l -> arg_type c' i = Some AIdent).
Proof.
  induction l as [|[i|s|v] l IH]; intros W c c' f; cbn [idparts_finish].
  - intro E; injection E as <- <-. split; [apply changes_refl|intros _ i []].
  - destruct (set_arg_type c i AIdent) as [c1|] eqn:Q.
    + intro E. destruct (changes_set S _ _ _ _ Q) as [C A].
      { intros a _. right; left. split; [reflexivity|]. apply W. now left. }
      destruct (IH (fun j J => W j (or_intror J)) _ _ _ E) as [C' O].
      split; [eapply changes_trans; eauto|]. intros F j [J|J]; [|auto]. injection J as <-.
      specialize (C' i). rewrite A in C'. destruct (arg_type c' i) as [b|]; [|contradiction]. f_equal.
      apply (settles_kept _ AsName _ _ eq_refl C').
    + intro E; injection E as <- <-. split; [apply changes_refl|intro K; exfalso; exact K].
  - intro E. destruct (IH (fun j J => W j (or_intror J)) _ _ _ E) as [C' O]. split; [exact C'|].
    intros F j [J|J]; [discriminate|auto].
  - destruct (0 <=? v)%Z; intro E; injection E as <- <-; (split; [apply changes_refl|intro K; exfalso; exact K]).
Qed.
Lemma ident_frag n c c' f : ident_finish n c = (c', f) -> changes (name_use n) c c' /\ (isok f -> settled (name_use n) c').
Proof.
  destruct n as [i|s|l]; cbn [ident_finish].
  1-2: intro E; injection E as <- <-; split; [apply changes_refl|]; intros _; apply settled_none; intros k j (_ & l & X & _); discriminate.
  intro E. destruct (parts_frag (name_use (IConcat l)) l) with (c := c) (c' := c') (f := f) as [C O]; auto.
  { intros i I. split; [reflexivity|]. exists l. auto. }
  split; [exact C|]. intros F k i (-> & l' & X & I). injection X as <-. exists AIdent. split; [auto|reflexivity].
Qed.

Lemma from_rust_head p t : forall t' n, from_rust_ty p t = ROk t' -> type_head t' = Some n -> exists id, n = IPlain id.
Proof.
  induction t as [m t IH| |q pa|s o|s o]; cbn [from_rust_ty]; intros t' n.
  - unfold rbind. destruct (from_rust_ty p t) as [t1| | |]; try discriminate. intro E; injection E as <-. intro H. apply (IH t1); [reflexivity|].
    destruct m; exact H.
  - intro E; injection E as <-. discriminate.
  - destruct (builtin_from_rust q pa p); [intro E; injection E as <-; discriminate|].
    destruct (sp_colon pa), (sp_segs pa) as [|x [|y l]]; intro E; injection E as <-; cbn; try discriminate.
    intro E; injection E as <-. eauto.
  - intro E; injection E as <-. cbn. intro E; injection E as <-. eauto.
  - discriminate.
Qed.
Lemma from_rust_nopaste p t t' i : from_rust_ty p t = ROk t' -> ~ pasted_type i t'.
Proof.
  intros E (n & H & l & -> & _). destruct (from_rust_head _ _ _ _ E H) as [id X]. discriminate.
Qed.

Lemma ty_frag t : forall c t' c' f, ty_finish cx t c = (t', c', f) ->
  (forall i, pasted_type i t <-> pasted_type i t') /\ changes (type_use t) c c' /\ (isok f -> settled (type_use t) c').
Proof.
  induction t as [b|n sp|k l|t IH|t IH q]; intros c t' c' f; cbn [ty_finish].
  - intro E; injection E as <- <- <-. split; [reflexivity|]. split; [apply changes_refl|]. intros _. apply settled_none.
    intros k i (_ & n & X & _). discriminate.
  - destruct (ident_finish n c) as [c1 r] eqn:E. apply ident_frag in E as [C O].
    assert (W : forall k i, name_use n k i <-> type_use (TyIdent n sp) k i).
    { intros k i. unfold name_use, type_use, pasted_type; cbn. split.
      - intros [-> P]. eauto.
      - intros (-> & n' & X & P). injection X as <-. auto. }
    assert (C' : changes (type_use (TyIdent n sp)) c c1) by (eapply changes_weak; [|exact C]; apply W).
    assert (O' : isok r -> settled (type_use (TyIdent n sp)) c1) by (intro F; eapply settled_weak; [|exact (O F)]; apply W).
    assert (Same : forall f0, (f0 = r \/ ~ isok f0 \/ isok r) -> (TyIdent n sp, c1, f0) = (t', c', f) ->
      (forall i, pasted_type i (TyIdent n sp) <-> pasted_type i t') /\ changes (type_use (TyIdent n sp)) c c' /\ (isok f -> settled (type_use (TyIdent n sp)) c')).
    { intros f0 D X; injection X as <- <- <-. split; [reflexivity|]. split; [exact C'|]. intro F. apply O'. destruct D as [->|[D|D]]; auto. contradiction. }
    destruct r as [o|e| |].
    2-4: apply Same; auto.
    destruct n as [i|id|il]; try (apply Same; right; right; exact I).
    destruct (cx_ty cx id) as [rt|]; [|apply Same; right; right; exact I].
    destruct (from_rust_ty (cx_ffi cx) rt) as [t1| | |] eqn:R; try (apply Same; right; right; exact I).
    intro X; injection X as <- <- <-. split; [|split; [exact C'|intros _; apply O'; exact I]].
    intro i. split; [intros (n & X & l & -> & _); discriminate|]. intro X. destruct (from_rust_nopaste _ _ _ _ R X).
  - intro E; injection E as <- <- <-. split; [reflexivity|]. split; [apply changes_refl|]. intros _. apply settled_none.
    intros k0 i (_ & n & X & _). discriminate.
  - destruct (ty_finish cx t c) as [[t1 c1] r] eqn:E. intro H; injection H as <- <- <-. exact (IH _ _ _ _ E).
  - destruct (ty_finish cx t c) as [[t1 c1] r] eqn:E. intro H; injection H as <- <- <-. exact (IH _ _ _ _ E).
Qed.

Lemma var_frag n c c' f : var_finish cx n c = (c', f) -> changes (name_use n) c c' /\ (isok f -> settled (name_use n) c').
Proof.
  unfold var_finish. destruct (ident_finish n c) as [c1 r] eqn:E. apply ident_frag in E as [C O]. intro H.
  destruct r as [o|e| |]; [|injection H as <- <-; auto..]. specialize (O I).
  assert (X : forall c2 f2, (c1, f2) = (c2, f) -> c2 = c' -> changes (name_use n) c c' /\ (isok f -> settled (name_use n) c'))
    by (intros c2 f2 E X; injection E as <- _; subst; auto).
  assert (Y : forall f2, (set_macro true c1, f2) = (c', f) -> changes (name_use n) c c' /\ (isok f -> settled (name_use n) c')).
  { intros f2 E. injection E as <- _. split; [exact C|]. intros _. exact O. }
  destruct n as [i|s|l].
  - destruct (arg_type c1 i) as [[]|]; eapply X; eauto.
  - destruct (str_eqb s _); [eapply Y; eauto|]. destruct (str_eqb s _); [eapply Y; eauto|].
    destruct (rust_name limit_types s); [eapply X; eauto|].
    destruct (cx_enum cx s) as [[]|]; [eapply X; eauto | eapply Y; eauto].
  - eapply X; eauto.
Qed.

Definition text_use (a : expr) : use -> nat -> Prop := fun k i => k = AsText /\ a = EVar (IArg i).
Lemma stringify_frag a c c' f : stringify_finish a c = (c', f) -> changes (text_use a) c c' /\ (isok f -> settled (text_use a) c').
Proof.
  assert (X : forall r, ~ isok r -> (c, r) = (c', f) -> changes (text_use a) c c' /\ (isok f -> settled (text_use a) c')).
  { intros r N E; injection E as <- <-. split; [apply changes_refl|contradiction]. }
  unfold stringify_finish. destruct a as [n| | | | | | | | |]; try (apply X; exact (fun x => x)).
  destruct n as [i|s|l]; [| |apply X; exact (fun x => x)].
  - destruct (arg_type c i) as [t|] eqn:A; [|apply X; exact (fun x => x)].
    assert (Y : t <> AIdent -> match set_arg_type c i AExpr with Some c'0 => (c'0, FOk (Some ty_const_char_ptr)) | None => (c, FPanic) end = (c', f) ->
                changes (text_use (EVar (IArg i))) c c' /\ (isok f -> settled (text_use (EVar (IArg i))) c')).
    { intro N. destruct (set_arg_type c i AExpr) as [c1|] eqn:Q; [|apply X; exact (fun x => x)]. intro E; injection E as <- <-.
      destruct (changes_set (text_use (EVar (IArg i))) _ _ _ _ Q) as [C T].
      { intros b B. assert (b = t) as -> by congruence. right; right; left. split; [reflexivity|]. split; [exact N|]. split; reflexivity. }
      split; [exact C|]. intros _ k j (-> & J). injection J as <-. exists AExpr. split; [exact T|right; reflexivity]. }
    destruct t; try (apply Y; discriminate). intro E; injection E as <- <-. split; [apply changes_refl|].
    intros _ k j (-> & J). injection J as <-. exists AIdent. split; [exact A|left; reflexivity].
  - destruct (_ || _)%bool; [|apply X; exact (fun x => x)]. intro E; injection E as <- <-. split; [apply changes_macro|].
    intros _. apply settled_none. intros k j (_ & J). discriminate.
Qed.

(** ** Calls *)

Lemma param_var i e : param i e -> (exists l, e = EConcat l) \/ e = EVar (IArg i).
Proof. destruct e as [n| | | | |l| | | |]; cbn; try contradiction; eauto. intros ->. auto. Qed.

Definition direct (e : expr) : Prop := forall i, param i e -> e = EVar (IArg i).

Lemma infer_frag (S : use -> nat -> Prop) e t c c' f : infer_arg e t c = (c', f) ->
  (forall i a, e = EVar (IArg i) -> snd t = Some a -> explained (fun k => S k i) AUnknown a) ->
  (forall a, snd t = Some a -> a <> AUnknown) ->
  (snd t = None -> ~ isok (fst t)) ->
  changes S c c' /\ (isok f -> forall i, e = EVar (IArg i) -> exists a, arg_type c' i = Some a /\ a <> AUnknown).
Proof.
  intros H W NU NK. revert H.
  assert (X : forall r, (forall i, e <> EVar (IArg i)) -> (c, r) = (c', f) ->
    changes S c c' /\ (isok f -> forall i, e = EVar (IArg i) -> exists a, arg_type c' i = Some a /\ a <> AUnknown)).
  { intros r N E; injection E as <- <-. split; [apply changes_refl|]. intros _ i J. destruct (N i J). }
  unfold infer_arg. destruct e as [n| | | | | | | | |]; try (apply X; discriminate). destruct n as [i|s|l]; try (apply X; discriminate).
  destruct (arg_type c i) as [t0|] eqn:A.
  2: { intro E; injection E as <- <-. split; [apply changes_refl|intro K; exfalso; exact K]. }
  assert (Y : t0 <> AUnknown -> (c, FOk None) = (c', f) ->
    changes S c c' /\ (isok f -> forall j, EVar (IArg i) = EVar (IArg j) -> exists a, arg_type c' j = Some a /\ a <> AUnknown)).
  { intros N E; injection E as <- <-. split; [apply changes_refl|]. intros _ j J. injection J as <-. eauto. }
  destruct t0; try (apply Y; discriminate).
  destruct t as [r [a|]]; cbn [fst snd] in *.
  - destruct (set_arg_type c i a) as [c1|] eqn:Q.
    + intro E; injection E as <- <-. destruct (changes_set S _ _ _ _ Q) as [C T].
      { intros b B. assert (b = AUnknown) as -> by congruence. auto. }
      split; [exact C|]. intros _ j J. injection J as <-. eauto.
    + intro E; injection E as <- <-. split; [apply changes_refl|intro K; exfalso; exact K].
  - intro E; injection E as <- <-. split; [apply changes_refl|]. intro F. destruct (NK eq_refl F).
Qed.
Lemma known_arg_frag t : (forall a, snd (known_arg cx t) = Some a -> exists t', a = AKnown t' /\ from_rust_ty (cx_ffi cx) t = ROk t') /\
  (snd (known_arg cx t) = None -> ~ isok (fst (known_arg cx t))).
Proof.
  unfold known_arg. destruct (from_rust_ty (cx_ffi cx) t) as [t'|e| |]; cbn; split; try discriminate; auto.
  intros a E; injection E as <-. eauto.
Qed.
Lemma infer_args_frag (S : use -> nat -> Prop) args : forall tys c c' f,
  (forall j i t, nth_error args j = Some (EVar (IArg i)) -> nth_error tys j = Some t -> S (Passed t) i) ->
  infer_args cx args tys c = (c', f) ->
  changes S c c' /\ (isok f -> forall j i t, nth_error args j = Some (EVar (IArg i)) -> nth_error tys j = Some t ->
    exists a, arg_type c' i = Some a /\ a <> AUnknown).
Proof.
  induction args as [|e args IH]; intros [|t tys] c c' f W; cbn [infer_args].
  1-3: intro E; injection E as <- <-; split; [apply changes_refl|]; intros _ [|j] i t0; cbn; discriminate.
  destruct (infer_arg e (known_arg cx t) c) as [c1 r] eqn:E.
  destruct (known_arg_frag t) as [K1 K2].
  apply (infer_frag S) in E as [C O].
  2: { intros i a -> A. right; right; right. split; [reflexivity|]. right; right. destruct (K1 a A) as (t' & -> & R).
       exists t, t'. split; [reflexivity|]. split; [apply (W 0); reflexivity|exact R]. }
  2: { intros a A. destruct (K1 a A) as (t' & -> & _). discriminate. }
  2: exact K2.
  destruct r as [o|e0| |]; try (intro H; injection H as <- <-; split; [exact C|intro K; exfalso; exact K]).
  intro H. apply IH in H as [C' O'].
  2: { intros j i t0 J T. apply (W (Datatypes.S j)); auto. }
  split; [eapply changes_trans; eauto|]. intros F [|j] i t0; cbn [nth_error].
  - intros J T. injection J as ->. destruct (O I i eq_refl) as (a & A & N). specialize (C' i). rewrite A in C'.
    destruct (arg_type c' i) as [b|]; [|contradiction]. exists b. split; [reflexivity|].
    apply (settles_kept _ AsType _ _ N C').
  - apply O'. exact F.
Qed.

(** The arguments of a call that is finished: none is a concatenation of one
    piece. *)
Lemma call_frag n args c c' f : Forall direct args -> call_types cx n args c = (c', f) ->
  changes (fun k i => call_use cx k i n args) c c' /\ (isok f -> settled (fun k i => call_use cx k i n args) c').
Proof.
  intro D. set (S := fun k i => call_use cx k i n args).
  assert (Dn : forall j a i, nth_error args j = Some a -> param i a -> a = EVar (IArg i)).
  { intros j a i J P. rewrite Forall_forall in D. apply (D a); [eapply nth_error_In; eauto|exact P]. }
  unfold call_types. destruct n as [i|id|l].
  1,3: intro E; injection E as <- <-; split; [apply changes_refl|]; intros _; apply settled_none; intros k j X; inversion X.
  destruct (cx_fn cx id) as [[tys ret]|] eqn:Fn.
  - assert (NS : ~ length tys = length args -> settled S c).
    { intro N. apply settled_none. intros k j X. inversion X; subst; try congruence.
      all: match goal with H : cx_fn _ _ = Some (?a, _) |- _ => assert (a = tys) by congruence end; subst; contradiction. }
    destruct (Nat.eqb (length tys) (length args)) eqn:L.
    2: { intro E; injection E as <- <-. split; [apply changes_refl|]. intros _. apply NS. now apply PeanoNat.Nat.eqb_neq. }
    apply PeanoNat.Nat.eqb_eq in L.
    destruct (from_rust_ty (cx_ffi cx) ret) as [t|e| |]; try (intro E; injection E as <- <-; split; [apply changes_refl|intro K; exfalso; exact K]).
    destruct (infer_args cx args tys c) as [c1 r] eqn:A. apply (infer_args_frag S) in A as [C O].
    2: { intros j i t0 J T. eapply cu_passed; eauto. reflexivity. }
    destruct r as [o|e| |]; try (intro E; injection E as <- <-; split; [exact C|intro K; exfalso; exact K]).
    intro E; injection E as <- <-. split; [exact C|]. intros _ k i X. inversion X; subst; try congruence.
    assert (tys0 = tys) by congruence. subst tys0. destruct (O I j i t0) as (b & B & N); auto.
    { match goal with H : nth_error args j = Some ?a, P : param i ?a |- _ => now rewrite (Dn _ _ _ H P) in H end. }
    exists b. auto.
  - destruct (str_eqb_spec id (st "__builtin_offsetof")) as [->|N].
    2: { intro E; injection E as <- <-. split; [apply changes_macro|]. intros _. apply settled_none. intros k i X. inversion X; subst; congruence. }
    assert (NS : (forall a b, args <> [a; b]) -> settled S (set_macro true c)).
    { intro N. apply settled_none. intros k j X. inversion X; subst; try congruence; eapply N; reflexivity. }
    assert (Z : (forall a b, args <> [a; b]) -> (set_macro true c, FOk None) = (c', f) -> changes S c c' /\ (isok f -> settled S c')).
    { intros N E. injection E as <- <-. split; [apply changes_macro|]. intros _. auto. }
    destruct args as [|a [|b [|]]]; try (apply Z; intros; discriminate).
    destruct (infer_arg a (FOk None, Some ATy) (set_macro true c)) as [c1 r] eqn:A. apply (infer_frag S) in A as [C O].
    2: { intros i x -> X. cbn in X. injection X as <-. right; right; right. split; [reflexivity|]. left. split; [reflexivity|]. now apply cu_type. }
    2: { intros x X; cbn in X; injection X as <-; discriminate. }
    2: discriminate.
    destruct r as [o|e| |]; try (intro E; injection E as <- <-; split; [exact C|intro K; exfalso; exact K]).
    intro B. apply (infer_frag S) in B as [C2 O2].
    2: { intros i x -> X. cbn in X. injection X as <-. right; right; right. split; [reflexivity|]. right; left. split; [reflexivity|]. now apply cu_field. }
    2: { intros x X; cbn in X; injection X as <-; discriminate. }
    2: discriminate.
    split; [eapply changes_trans; [exact C|exact C2]|]. intros F k i X. inversion X; subst; try congruence.
    + match goal with P : param i a |- _ => pose proof (Dn 0 a i eq_refl P) as -> end.
      destruct (O I i eq_refl) as (x & A1 & N). specialize (C2 i). rewrite A1 in C2. destruct (arg_type c' i) as [y|]; [|contradiction].
      exists y. split; [reflexivity|]. exact (settles_kept _ AsType _ _ N C2).
    + match goal with P : param i b |- _ => pose proof (Dn 1 b i eq_refl P) as -> end.
      destruct (O2 F i eq_refl) as (x & A1 & N). exists x. auto.
Qed.

(** ** Expressions *)

Definition same_param (a b : expr) : Prop := forall i, param i a <-> param i b.
Definition same_uses (a b : expr) : Prop := forall k i, uses k i a <-> uses k i b.
Definition frag (e : expr) (c : lctx) (g : fin expr) : Prop :=
  let '(e', c', f) := g in
  same_param e e' /\ (isok f -> direct e') /\ same_uses e e' /\ changes (fun k i => uses k i e) c c' /\
  (isok f -> settled (fun k i => uses k i e) c').
Definition any_use (l : list expr) : use -> nat -> Prop := fun k i => any (uses k i) l.

Lemma same_param_refl e : same_param e e.
Proof. intro; reflexivity. Qed.
Lemma same_param_trans a b c : same_param a b -> same_param b c -> same_param a c.
Proof. intros H1 H2 i. rewrite (H1 i). apply H2. Qed.
Lemma same_uses_refl e : same_uses e e.
Proof. intros k i; reflexivity. Qed.
Lemma same_uses_trans a b c : same_uses a b -> same_uses b c -> same_uses a c.
Proof. intros H1 H2 k i. rewrite (H1 k i). apply H2. Qed.

Lemma any_app l l' k i : any_use (l ++ l') k i <-> any_use l k i \/ any_use l' k i.
Proof. unfold any_use. induction l as [|e l IH]; cbn; [tauto|]. rewrite IH. tauto. Qed.
Lemma any_same l l' : Forall2 same_uses l l' -> forall k i, any_use l k i <-> any_use l' k i.
Proof. unfold any_use. induction 1 as [|a b l l' H F IH]; intros k i; cbn; [tauto|]. rewrite (H k i), (IH k i). tauto. Qed.
Lemma same_refl l : Forall2 same_uses l l.
Proof. induction l; constructor; auto using same_uses_refl. Qed.
Lemma samep_refl l : Forall2 same_param l l.
Proof. induction l; constructor; auto using same_param_refl. Qed.

Lemma frag_fail e c c' f : ~ isok f -> changes (fun k i => uses k i e) c c' -> frag e c (e, c', f).
Proof.
  intros N C. split; [apply same_param_refl|]. split; [contradiction|]. split; [apply same_uses_refl|]. split; [exact C|contradiction].
Qed.

Lemma call_use_same n l l' k i : Forall2 same_param l l' -> call_use cx k i n l -> call_use cx k i n l'.
Proof.
  intros F H. destruct H as [id tys ret args j a t i C L A T P|a b i C P|a b i C P].
  - assert (X : exists a', nth_error l' j = Some a' /\ same_param a a').
    { clear - F A. revert j A. induction F as [|x y l l' H F IH]; intros [|j]; cbn; try discriminate; [|apply IH].
      intro E; injection E as <-. eauto. }
    destruct X as (a' & A' & X). eapply cu_passed; eauto; [|apply X; exact P]. rewrite L. clear - F. induction F; cbn; auto.
  - inversion F as [|? a' ? l1 H1 F1]; subst. inversion F1 as [|? b' ? l2 H2 F2]; subst. inversion F2; subst.
    apply cu_type; [exact C|]. now apply H1.
  - inversion F as [|? a' ? l1 H1 F1]; subst. inversion F1 as [|? b' ? l2 H2 F2]; subst. inversion F2; subst.
    apply cu_field; [exact C|]. now apply H2.
Qed.
Lemma samep_sym l l' : Forall2 same_param l l' -> Forall2 same_param l' l.
Proof. induction 1; constructor; auto. intro i. symmetry. auto. Qed.

Lemma list_frag go l : Forall (fun e => forall c, frag e c (go e c)) l -> forall c l' c' f, list_finish go l c = (l', c', f) ->
  Forall2 same_param l l' /\ (isok f -> Forall direct l') /\ Forall2 same_uses l l' /\ changes (any_use l) c c' /\
  (isok f -> settled (any_use l) c').
Proof.
  induction 1 as [|e l H HF IH]; intros c l' c' f; cbn [list_finish].
  - intro E; injection E as <- <- <-. split; [constructor|]. split; [constructor|]. split; [constructor|]. split; [apply changes_refl|].
    intros _. apply settled_none. intros k i [].
  - specialize (H c). destruct (go e c) as [[e1 c1] r] eqn:E. destruct H as (P & D & V & C & O). unfold fbind.
    assert (C1 : changes (any_use (e :: l)) c c1) by (eapply changes_weak; [|exact C]; intros k i X; left; exact X).
    destruct r as [o|er| |]; try (intro X; injection X as <- <- <-; split; [constructor; [exact P|apply samep_refl]|];
      split; [intro K; exfalso; exact K|]; split; [constructor; [exact V|apply same_refl]|]; split; [exact C1|intro K; exfalso; exact K]).
    destruct (list_finish go l c1) as [[l2 c2] r2] eqn:L. intro X; injection X as <- <- <-.
    apply IH in L as (P2 & D2 & V2 & C2 & O2).
    split; [constructor; auto|]. split; [constructor; auto; now apply D|]. split; [constructor; auto|].
    split; [eapply changes_trans; [exact C1|eapply changes_weak; [|exact C2]; intros k i X; right; exact X]|].
    intro F. eapply settled_weak; [|apply settled_or; [eapply settled_kept; [exact (O I)|exact C2]|exact (O2 F)]].
    intros k i X. exact X.
Qed.

Definition merged (names acc : list expr) (l : list expr) (cur : option (list N)) : Prop :=
  (forall k i, any_use names k i <-> any_use acc k i \/ any_use l k i) /\
  (forall i x, names = [x] -> param i x -> acc = [x] /\ l = [] /\ cur = None \/ acc = [] /\ cur = None /\ exists e, l = [e] /\ param i e) /\
  (forall i e, acc = [] -> cur = None -> l = [e] -> param i e -> exists x, names = [x] /\ param i x) /\
  (l = [] -> names = push_string acc cur).

Lemma any_push acc cur k i : any_use (push_string acc cur) k i <-> any_use acc k i.
Proof. destruct cur; cbn [push_string]; [|reflexivity]. rewrite any_app. cbn. tauto. Qed.
Lemma push_nil acc cur : push_string acc cur = [] -> acc = [] /\ cur = None.
Proof. destruct cur; cbn; [|auto]. intro E. now apply app_eq_nil in E as [_ E]. Qed.

Lemma concat_frag go l : Forall (fun e => forall c, frag e c (go e c)) l -> forall done acc cur c self names c' f,
  concat_finish go done l acc cur c = (self, names, c', f) ->
  (exists l', self = EConcat (done ++ l') /\ Forall2 same_param l l' /\ Forall2 same_uses l l') /\
  changes (any_use l) c c' /\ (isok f -> settled (any_use l) c' /\ merged names acc l cur).
Proof.
  induction 1 as [|e l H HF IH]; intros done acc cur c self names c' f; cbn [concat_finish].
  - intro E; injection E as <- <- <- <-. split; [exists []; rewrite app_nil_r; auto|]. split; [apply changes_refl|].
    intros _. split; [apply settled_none; intros k i []|]. split; [|split; [|split]].
    + intros k i. rewrite any_push. cbn. tauto.
    + intros i x N P. destruct cur as [b|]; cbn in N; [|left; auto].
      destruct acc as [|y [|]]; cbn in N; try discriminate. injection N as <-. destruct P.
    + intros i e _ _ X. discriminate.
    + reflexivity.
  - specialize (H c). destruct (go e c) as [[e1 c1] r] eqn:E. destruct H as (P & D & V & C & O).
    assert (C1 : changes (any_use (e :: l)) c c1) by (eapply changes_weak; [|exact C]; intros k i X; left; exact X).
    assert (X : forall n g, ~ isok g -> (EConcat (done ++ e1 :: l), n, c1, g) = (self, names, c', f) ->
      (exists l', self = EConcat (done ++ l') /\ Forall2 same_param (e :: l) l' /\ Forall2 same_uses (e :: l) l') /\
      changes (any_use (e :: l)) c c' /\ (isok f -> settled (any_use (e :: l)) c' /\ merged names acc (e :: l) cur)).
    { intros n g N X; injection X as <- <- <- <-. split.
      - exists (e1 :: l). split; [reflexivity|]. split; constructor; auto using samep_refl, same_refl.
      - split; [exact C1|contradiction]. }
    destruct r as [o|er| |]; try (apply X; exact (fun x => x)).
    specialize (D I). specialize (O I).
    assert (Y : forall a u, concat_finish go (done ++ [e1]) l a u c1 = (self, names, c', f) ->
      (isok f -> merged names a l u -> merged names acc (e :: l) cur) ->
      (exists l', self = EConcat (done ++ l') /\ Forall2 same_param (e :: l) l' /\ Forall2 same_uses (e :: l) l') /\
      changes (any_use (e :: l)) c c' /\ (isok f -> settled (any_use (e :: l)) c' /\ merged names acc (e :: l) cur)).
    { intros a u Y M. apply IH in Y as ((l' & -> & P2 & V2) & C2 & O2). split.
      - exists (e1 :: l'). rewrite <- app_assoc. split; [reflexivity|]. split; constructor; auto.
      - split; [eapply changes_trans; [exact C1|eapply changes_weak; [|exact C2]; intros k i Z; right; exact Z]|].
        intro F. destruct (O2 F) as [S2 M2]. split; [|auto].
        eapply settled_weak; [|apply settled_or; [eapply settled_kept; [exact O|exact C2]|exact S2]]. intros k i Z. exact Z. }
    assert (Y1 : forall s b, e1 = ELit (LString s) -> merged names acc l (Some b) -> merged names acc (e :: l) cur).
    { intros s b -> (M1 & M2 & M3 & M4). split; [|split; [|split; [|discriminate]]].
      - intros k i. rewrite M1. assert (~ uses k i e) by (intro Z; apply V in Z; exact Z). cbn. tauto.
      - intros i x N Q. destruct (M2 i x N Q) as [(_ & _ & Z)|(_ & Z & _)]; discriminate.
      - intros i e2 -> -> Z Q. injection Z as -> ->. apply P in Q. destruct Q. }
    assert (Y2 : merged names (push_string acc cur ++ [e1]) l None -> merged names acc (e :: l) cur).
    { intros (M1 & M2 & M3 & M4). split; [|split; [|split; [|discriminate]]].
      - intros k i. rewrite M1, any_app, any_push. pose proof (V k i). cbn. tauto.
      - intros i x N Q. destruct (M2 i x N Q) as [(Z & -> & _)|(Z & _)].
        + destruct (push_string acc cur) as [|y [|]] eqn:B; cbn in Z; try discriminate. injection Z as <-.
          apply push_nil in B as [-> ->]. right. split; [reflexivity|]. split; [reflexivity|]. exists e. split; [reflexivity|]. now apply P.
        + now apply app_eq_nil in Z as [_ Z].
      - intros i e2 -> -> Z Q. injection Z as -> ->. apply P in Q. exists e1. split; [|exact Q].
        apply M4. reflexivity. }
    destruct e1 as [n| | |lt| | | | | |]; try (intro Z; eapply Y; [exact Z|auto]).
    + destruct n as [i|s|li]; try (intro Z; eapply Y; [exact Z|auto]). destruct (str_eqb s _); [intro Z; eapply Y; [exact Z|auto]|apply X; exact (fun x => x)].
    + destruct lt as [ch|s|fl|it]; try (intro Z; eapply Y; [exact Z|auto]).
      destruct (lit_string_as_bytes s); [intro Z; eapply Y; [exact Z|]; intros _; eapply Y1; reflexivity|apply X; exact (fun x => x)].
Qed.

Definition member_use (op : binop) (r : expr) : use -> nat -> Prop := fun k i => k = AsName /\ op = OMember /\ param i r.
Lemma types_frag l op r lt rt c l' r' c' f : direct r -> binary_types cx l op r lt rt c = ((l', r'), c', f) ->
  same_param r r' /\ same_uses l l' /\ same_uses r r' /\ changes (member_use op r) c c' /\ (isok f -> settled (member_use op r) c').
Proof.
  intro D. unfold binary_types.
  set (c1 := match op with OMember => match r with EVar (IArg i) => set_arg_type c i AIdent | _ => Some c end | _ => Some c end).
  assert (C1 : match c1 with Some c1 => changes (member_use op r) c c1 /\ settled (member_use op r) c1 | None => True end).
  { assert (X : (forall i, ~ (op = OMember /\ r = EVar (IArg i))) -> changes (member_use op r) c c /\ settled (member_use op r) c).
    { intro N. split; [apply changes_refl|]. apply settled_none. intros k i (_ & Q & P). apply (N i). auto. }
    subst c1. destruct op; try (apply X; intros i [Q _]; discriminate).
    destruct r as [n| | | | | | | | |]; try (apply X; intros i [_ Q]; discriminate). destruct n as [i|s|x]; try (apply X; intros j [_ Q]; discriminate).
    destruct (set_arg_type c i AIdent) as [c1|] eqn:Q; [|exact I].
    destruct (changes_set (member_use OMember (EVar (IArg i))) _ _ _ _ Q) as [C A].
    { intros a _. right; left. split; [reflexivity|]. split; [reflexivity|]. split; reflexivity. }
    split; [exact C|]. intros k j (-> & _ & P). cbn in P. injection P as <-. exists AIdent. split; [exact A|reflexivity]. }
  destruct c1 as [c1|].
  2: { intro E; injection E as <- <- <- <-. split; [apply same_param_refl|]. split; [apply same_uses_refl|]. split; [apply same_uses_refl|].
       split; [apply changes_refl|intro K; exfalso; exact K]. }
  destruct C1 as [C1 S1].
  set (q := match l with EVar _ => _ | _ => _ end).
  assert (Q : let '(l1, r1, _, _) := q in same_param r r1 /\ same_uses l l1 /\ same_uses r r1).
  { assert (R : same_param r r /\ same_uses l l /\ same_uses r r) by (repeat split; auto).
    assert (CastL : forall t, max_ty_cast l = Some t -> same_uses l (ECast t l)).
    { intros t M k i. cbn. unfold max_ty_cast in M. destruct l as [n| | | | | | | | |]; try discriminate. destruct n as [|s|]; try discriminate.
      assert (N : type_head t = None) by (destruct (rust_name _ s) as [b|]; cbn in M; [injection M as <-; reflexivity|discriminate]).
      split; [auto|]. intros [[_ (n & Z & _)]|Z]; [congruence|exact Z]. }
    assert (CastR : forall t, max_ty_cast r = Some t -> same_uses r (ECast t r) /\ same_param r (ECast t r)).
    { intros t M. unfold max_ty_cast in M. destruct r as [n| | | | | | | | |]; try discriminate. destruct n as [|s|]; try discriminate.
      assert (N : type_head t = None) by (destruct (rust_name _ s) as [b|]; cbn in M; [injection M as <-; reflexivity|discriminate]).
      split; intros; cbn; [|split; intro Z; [discriminate|destruct Z]].
      intro i. cbn. split; [auto|]. intros [[_ (n & Z & _)]|Z]; [congruence|exact Z]. }
    assert (ML : let '(l1, r1, _, _) := (if mul_or_add op then match max_ty_cast l with Some t => (ECast t l, r, Some t, rt) | None => (l, r, lt, rt) end else (l, r, lt, rt)) in
      same_param r r1 /\ same_uses l l1 /\ same_uses r r1).
    { destruct (mul_or_add op); [|exact R]. destruct (max_ty_cast l) as [t|]; [|exact R]. destruct R as (R1 & _ & R3). split; [exact R1|]. split; [now apply CastL|exact R3]. }
    assert (MR : let '(l1, r1, _, _) := (if mul_or_add op then match max_ty_cast r with Some t => (l, ECast t r, lt, Some t) | None => (l, r, lt, rt) end else (l, r, lt, rt)) in
      same_param r r1 /\ same_uses l l1 /\ same_uses r r1).
    { destruct (mul_or_add op); [|exact R]. destruct (max_ty_cast r) as [t|]; [|exact R]. destruct R as (R1 & R2 & R3). destruct (CastR t eq_refl) as [Z1 Z2]. auto. }
    assert (L1 : forall x y, same_uses (ELit x) (ELit y)) by (intros x y k i; cbn; tauto).
    assert (L2 : forall x y, same_param (ELit x) (ELit y)) by (intros x y i; cbn; tauto).
    subst q.
    destruct l as [ln| | |ll| | | | | |], r as [rn| | |rl| | | | | |]; try exact R; try exact ML; try exact MR;
      try (destruct rl as [?|?|?|ri]; first [exact R | exact ML]);
      try (destruct ll as [?|?|?|[lv [ls|]]]; first [exact R | exact MR]).
    destruct ll as [?|?|?|[lv [ls|]]], rl as [?|?|?|[rv [rs|]]]; first [exact R | exact ML | exact MR | (split; [|split]; auto)]. }
  destruct q as [[[l1 r1] lt1] rt1]. destruct Q as (Q1 & Q2 & Q3).
  intro E; injection E as <- <- <- _. split; [exact Q1|]. split; [exact Q2|]. split; [exact Q3|].
  destruct (is_assignment op); [|auto]. destruct l as [[]| | | | | | | | |]; auto.
Qed.

Lemma ulit_frag e op t e' f : unary_fold op e t = (e', f) -> same_uses (EUnary op e) e' /\ forall i, ~ param i e'.
Proof.
  assert (A : forall g, (EUnary op e, g) = (e', f) -> same_uses (EUnary op e) e' /\ forall i, ~ param i e').
  { intros g E; injection E as <- <-. split; [apply same_uses_refl|intros i []]. }
  assert (B : forall x y g, e = ELit x -> (ELit y, g) = (e', f) -> same_uses (EUnary op e) e' /\ forall i, ~ param i e').
  { intros x y g -> E; injection E as <- <-. split; [intros k i; cbn; tauto|intros i []]. }
  assert (B' : forall x g, e = ELit x -> (e, g) = (e', f) -> same_uses (EUnary op e) e' /\ forall i, ~ param i e').
  { intros x g -> E; injection E as <- <-. split; [intros k i; cbn; tauto|intros i []]. }
  assert (Z : forall x g, (EBinary e OEq (ELit x), g) = (e', f) -> same_uses (EUnary op e) e' /\ forall i, ~ param i e').
  { intros x g E; injection E as <- <-. split; [|intros i []]. intros k i. cbn. split; [auto|]. intros [(_ & Y & _)|[Y|[]]]; [discriminate|exact Y]. }
  unfold unary_fold. destruct op; try apply A.
  - destruct e as [| | |[]| | | | | |]; first [apply A | eapply B'; reflexivity].
  - destruct e as [| | |[]| | | | | |]; first [apply A | eapply B; reflexivity].
  - assert (N : (if oty_eqb t (ty_b BBool) then (EUnary UNot e, FOk t) else
      (EBinary e OEq match t with
        | Some (TyBuiltIn BFloat) => ELit (LFloat (FFloat (SpecFloat.S754_zero false)))
        | Some (TyBuiltIn BDouble) => ELit (LFloat (FDouble (SpecFloat.S754_zero false)))
        | Some (TyBuiltIn BLongDouble) => ELit (LFloat (FLongDouble (SpecFloat.S754_zero false)))
        | _ => int_zero end, FOk t)) = (e', f) -> same_uses (EUnary UNot e) e' /\ forall i, ~ param i e').
    { destruct (oty_eqb t (ty_b BBool)); [apply A|]. destruct t as [[[]| | | |]|]; apply Z. }
    destruct e as [| | |[x|x|x|[v [s|]]]| | | | | |]; first [exact N | eapply B; reflexivity].
  - destruct e as [| | |[]| | | | | |]; apply A.
Qed.
Lemma blit_frag l op r t c e' f : binary_fold cx l op r t c = (e', f) -> same_uses (EBinary l op r) e' /\ forall i, ~ param i e'.
Proof.
  assert (A : forall g, (EBinary l op r, g) = (e', f) -> same_uses (EBinary l op r) e' /\ forall i, ~ param i e').
  { intros g E; injection E as <- <-. split; [apply same_uses_refl|intros i []]. }
  assert (B : forall x y z g, l = ELit x -> r = ELit y -> (ELit z, g) = (e', f) -> same_uses (EBinary l op r) e' /\ forall i, ~ param i e').
  { intros x y z g -> -> E; injection E as <- <-. split; [intros k i; cbn; tauto|intros i []]. }
  unfold binary_fold. destruct l as [| | |[]| | | | | |]; try apply A; destruct r as [| | |[]| | | | | |]; try apply A.
  - destruct (float_op op); [eapply B; reflexivity|apply A].
  - destruct (int_folds op); [|apply A]. destruct (int_op op _ _); [eapply B; reflexivity|apply A].
Qed.
Lemma as_binary_frag t e b : cast_as_binary cx t e = Some b -> same_uses (ECast t e) b /\ forall i, ~ param i b.
Proof.
  unfold cast_as_binary. destruct e as [| | | | | | |op e0| |]; try discriminate.
  destruct t as [|n s| | |]; try discriminate. destruct s; try discriminate.
  assert (X : forall bop x, bop <> OMember -> Some (EBinary (EVar n) bop e0) = Some x -> same_uses (ECast (TyIdent n false) (EUnary op e0)) x /\ forall i, ~ param i x).
  { intros bop x N E; injection E as <-. split; [|intros i []]. intros k i. cbn. unfold pasted_type; cbn. split.
    - intros [(-> & m & Y & P)|Y]; [|auto]. injection Y as <-. auto.
    - intros [(_ & Y & _)|[(-> & P)|Y]]; [contradiction| |auto]. left. split; [reflexivity|]. eauto. }
  destruct n as [i|id|l].
  2: destruct (cx_ty cx id); [discriminate|].
  all: destruct op; try discriminate; apply X; discriminate.
Qed.
Lemma of_deref_frag t e b : cast_of_deref t e = Some b -> same_uses (ECast t e) b /\ forall i, ~ param i b.
Proof.
  unfold cast_of_deref. destruct e as [| |t2 e2| | | | | | |]; try discriminate. destruct t2 as [|n s| | |]; try discriminate. destruct s; try discriminate.
  destruct e2 as [| | | | | | |op e3| |]; try discriminate. destruct op; try discriminate. destruct e3 as [| |t3 e3| | | | | | |]; try discriminate.
  destruct (ctype_eqb t t3) eqn:Q; [|discriminate]. intro E; injection E as <-. split; [|intros i []].
  assert (t = t3) as <- by (unfold ctype_eqb in Q; destruct (ctype_eq_dec t t3); congruence).
  assert (X : forall i, pasted_type i (TyIdent n false) <-> pasted i n).
  { intro i. unfold pasted_type; cbn. split; [intros (m & Y & P); injection Y as <-; exact P|eauto]. }
  intros k i. cbn. rewrite X. split; [|intros [(_ & Y & _)|Y]; [discriminate|]]; tauto.
Qed.

Theorem finish_frag n : forall e c, frag e c (finish cx n e c).
Proof.
  induction n as [n IHn] using lt_wf_ind.
  assert (AG : forall e c, frag e c (again_of cx n e c)).
  { intros e c. destruct n as [|n']; [|apply IHn; lia]. apply (frag_fail e c c FFuel); [exact (fun x => x)|apply changes_refl]. }
  clear IHn.
  assert (AG' : forall e c0 c1 b, (same_param e b) -> same_uses e b -> changes (fun k i => uses k i e) c0 c1 -> frag e c0 (again_of cx n b c1)).
  { intros e c0 c1 b P V C. specialize (AG b c1). destruct (again_of cx n b c1) as [[e' c'] f]. destruct AG as (P2 & D2 & V2 & C2 & O2).
    split; [eapply same_param_trans; eauto|]. split; [exact D2|]. split; [eapply same_uses_trans; eauto|].
    split; [eapply changes_trans; [exact C|eapply changes_weak; [|exact C2]; intros k i X; now apply V]|].
    intro F. eapply settled_weak; [|exact (O2 F)]. intros k i X. now apply V. }
  induction e as [v|v l IHl|t e IHe|l|a IHa|l IHl|t|op e IHe|a op b IHa IHb|a b d IHa IHb IHd] using expr_ind'; intros c;
    rewrite finish_eq; cbn [finish_step].
  - destruct (var_finish cx v c) as [c1 r] eqn:V. apply var_frag in V as [C O].
    split; [apply same_param_refl|]. split; [intros _ i P; cbn in P; now rewrite P|]. split; [apply same_uses_refl|]. split; [exact C|exact O].
  - destruct (lc_var c); [apply frag_fail; [exact (fun x => x)|apply changes_refl]|].
    destruct (ident_finish v c) as [c1 r] eqn:E. apply ident_frag in E as [C O].
    assert (C1 : changes (fun k i => uses k i (ECall v l)) c c1) by (eapply changes_weak; [|exact C]; intros k i X; left; exact X).
    destruct r as [o|er| |]; try (apply frag_fail; [exact (fun x => x)|exact C1]). specialize (O I).
    destruct (list_finish (finish cx n) l c1) as [[l2 c2] r2] eqn:L. apply (list_frag _ _ IHl) in L as (P2 & D2 & V2 & C2 & O2).
    assert (S2 : changes (fun k i => uses k i (ECall v l)) c c2).
    { eapply changes_trans; [exact C1|eapply changes_weak; [|exact C2]; intros k i X; right; right; exact X]. }
    assert (V : same_uses (ECall v l) (ECall v l2)).
    { intros k i. cbn. rewrite (any_same _ _ V2 k i : any (uses k i) l <-> any (uses k i) l2).
      assert (Q : call_use cx k i v l <-> call_use cx k i v l2) by (split; apply call_use_same; auto using samep_sym). rewrite Q. tauto. }
    unfold fbind. destruct r2 as [o2|er| |].
    2-4: split; [intro i; cbn; tauto|]; split; [intro K; exfalso; exact K|]; split; [exact V|]; split; [exact S2|intro K; exfalso; exact K].
    destruct (call_types cx v l2 c2) as [c3 r3] eqn:K. apply call_frag in K as [C3 O3]; [|auto].
    2: exact (D2 I).
    split; [intro i; cbn; tauto|]. split; [intros _ i []|]. split; [exact V|].
    assert (W : forall k i, call_use cx k i v l2 -> call_use cx k i v l) by (intros k i; apply call_use_same; now apply samep_sym).
    split; [eapply changes_trans; [exact S2|eapply changes_weak; [|exact C3]; intros k i X; right; left; auto]|].
    intro F. specialize (O3 F).
    assert (X1 : settled (name_use v) c3) by (eapply settled_kept; [eapply settled_kept; [exact O|exact C2]|exact C3]).
    assert (X2 : settled (any_use l) c3) by (eapply settled_kept; [exact (O2 I)|exact C3]).
    intros k i [X|[X|X]]; [apply X1; exact X| |apply X2; exact X]. apply O3. revert X. apply call_use_same. exact P2.
  - destruct (ty_finish cx t c) as [[t1 c1] r1] eqn:T. apply ty_frag in T as (T1 & C1 & O1).
    assert (C1' : changes (fun k i => uses k i (ECast t e)) c c1) by (eapply changes_weak; [|exact C1]; intros k i X; left; exact X).
    destruct (match r1 with FOk _ => finish cx n e c1 | _ => (e, c1, r1) end) as [[e2 c2] r2] eqn:Q.
    assert (R : same_uses (ECast t e) (ECast t1 e2) /\ changes (fun k i => uses k i (ECast t e)) c c2 /\
      (isok r2 -> same_param e e2 /\ direct e2 /\ settled (fun k i => uses k i (ECast t e)) c2)).
    { assert (Ty : same_uses (ECast t e) (ECast t1 e)) by (intros k i; cbn; rewrite (T1 i); tauto).
      destruct r1 as [o1|er| |]; try (injection Q as <- <- <-; split; [exact Ty|split; [exact C1'|intro K; exfalso; exact K]]).
      specialize (IHe c1). rewrite Q in IHe. destruct IHe as (P2 & D2 & V2 & C2 & O2). specialize (O1 I).
      split; [intros k i; cbn; rewrite (T1 i), (V2 k i); tauto|].
      split; [eapply changes_trans; [exact C1'|eapply changes_weak; [|exact C2]; intros k i X; right; exact X]|].
      intro F. split; [exact P2|]. split; [auto|]. intros k i [X|X]; [|apply (O2 F); exact X].
      apply (settled_kept _ _ _ _ O1 C2). exact X. }
    destruct R as (V & C & O).
    assert (Fail : ~ isok r2 -> frag (ECast t e) c (ECast t1 e2, c2, r2)).
    { intro N. split; [intro i; cbn; tauto|]. split; [contradiction|]. split; [exact V|]. split; [exact C|contradiction]. }
    destruct r2 as [o|[x| | |x|x]| |]; try (apply Fail; exact (fun x => x)).
    + destruct (O I) as (P2 & D2 & O2). destruct (cast_as_binary cx t1 e2) as [b|] eqn:B.
      { destruct (as_binary_frag _ _ _ B) as [BV BP]. apply AG'; [intro i; split; [intros []|apply BP]| |exact C].
        eapply same_uses_trans; eauto. }
      destruct (redundant_cast t1 e2) eqn:RC.
      * assert (E : forall k i, ~ uses k i (ECast t1 e2)).
        { unfold redundant_cast in RC. destruct e2 as [| | |[|s| |]| | | | | |]; try discriminate. destruct s; try discriminate.
          destruct t1 as [| | | |t1 q]; try discriminate. destruct t1 as [| | |t1|]; try discriminate. destruct t1 as [[]| | | |]; try discriminate.
          intros k i [[_ (m & X & _)]|[]]. discriminate. }
        assert (L : exists s, e2 = ELit s) by (unfold redundant_cast in RC; destruct e2 as [| | |s| | | | | |]; try discriminate; eauto).
        destruct L as [s ->]. split; [intro i; cbn; tauto|]. split; [intros _ i []|]. split; [|split; [exact C|auto]].
        intros k i. split; [intro X; apply V in X; destruct (E k i X)|intros []].
      * split; [intro i; cbn; tauto|]. split; [intros _ i []|]. split; [exact V|]. split; [exact C|auto].
    + destruct (cast_of_deref t1 e2) as [b|] eqn:B; [|apply Fail; exact (fun x => x)].
      destruct (of_deref_frag _ _ _ B) as [BV BP]. apply AG'; [intro i; split; [intros []|apply BP]| |exact C].
      eapply same_uses_trans; eauto.
  - assert (X : forall r, frag (ELit l) c (ELit l, c, r)).
    { intro r. split; [apply same_param_refl|]. split; [intros _ i []|]. split; [apply same_uses_refl|]. split; [apply changes_refl|].
      intros _. apply settled_none. intros k i []. }
    destruct l as [x|x|x|x]; try apply X.
    destruct (char_finish cx x c) as [[t|]| | |] eqn:Ch; try apply X.
    split; [intro i; cbn; tauto|]. split; [intros _ i []|]. split; [|split; [apply changes_refl|intros _; apply settled_none; intros k i []]].
    intros k i. cbn. split; [intros []|]. intros [[_ T]|[]]. exfalso. revert T.
    unfold char_finish in Ch. destruct x; try (injection Ch as <-; intros (m & X0 & _); discriminate).
    unfold wchar_finish in Ch. cbn [ty_finish ident_finish] in Ch.
    destruct (cx_ty cx (st "wchar_t")) as [rt|]; [|discriminate]. destruct (from_rust_ty (cx_ffi cx) rt) as [t'| | |] eqn:R; try discriminate.
    injection Ch as <-. eapply from_rust_nopaste; eauto.
  - destruct (stringify_finish a c) as [c1 r] eqn:V. apply stringify_frag in V as [C O].
    split; [apply same_param_refl|]. split; [intros _ i []|]. split; [apply same_uses_refl|]. split; [exact C|exact O].
  - destruct (concat_finish (finish cx n) [] l [] None c) as [[[self names] c1] r] eqn:Q.
    apply (concat_frag _ _ IHl) in Q as ((l' & -> & P & V) & C & O). cbn [app].
    assert (SP : same_param (EConcat l) (EConcat l')).
    { intro i. inversion P as [|a b l1 l2 H1 H2]; subst; [cbn; tauto|]. inversion H2; subst; [apply H1|cbn; tauto]. }
    assert (SV : same_uses (EConcat l) (EConcat l')) by (intros k i; exact (any_same _ _ V k i)).
    destruct r as [o|er| |].
    + destruct (O I) as (S & M1 & M2 & M3 & M4).
      assert (N : forall i, param i (EConcat l) -> exists x, names = [x] /\ param i x).
      { intros i X. destruct l as [|e1 [|]]; try destruct X. apply (M3 i e1); auto. }
      assert (NV : forall k i, any_use l k i <-> any_use names k i) by (intros k i; rewrite M1; cbn; tauto).
      destruct names as [|x1 [|x2 names]].
      * split; [intro i; split; [intro X; destruct (N i X) as (x & Y & _); discriminate|intros []]|]. split; [intros _ i []|].
        split; [exact NV|]. split; [exact C|intros _; exact S].
      * apply AG'; [| |exact C].
        -- intro i. split; [intro X; destruct (N i X) as (x & Y & Z); injection Y as <-; exact Z|].
           intro X. destruct (M2 i x1 eq_refl X) as [(Y & _)|(_ & _ & e1 & -> & Y)]; [discriminate|exact Y].
        -- intros k i. change (any_use l k i <-> uses k i x1). rewrite NV. cbn. tauto.
      * split; [intro i; split; [intro X; destruct (N i X) as (x & Y & _); discriminate|intros []]|]. split; [intros _ i []|].
        split; [exact NV|]. split; [exact C|intros _; exact S].
    + destruct names as [|? []]; (split; [exact SP|]; split; [intro K; exfalso; exact K|]; split; [exact SV|]; split; [exact C|intro K; exfalso; exact K]).
    + destruct names as [|? []]; (split; [exact SP|]; split; [intro K; exfalso; exact K|]; split; [exact SV|]; split; [exact C|intro K; exfalso; exact K]).
    + destruct names as [|? []]; (split; [exact SP|]; split; [intro K; exfalso; exact K|]; split; [exact SV|]; split; [exact C|intro K; exfalso; exact K]).
  - destruct (ty_finish cx t c) as [[t1 c1] r1] eqn:T. apply ty_frag in T as (T1 & C1 & O1).
    assert (V : same_uses (ESizeOf t) (ESizeOf t1)) by (intros k i; cbn; rewrite (T1 i); tauto).
    unfold fbind. destruct r1; (split; [intro i; cbn; tauto|]; split; [intros _ i []|]; split; [exact V|]; split; [exact C1|]; first [intros _; exact (O1 I) | intro K; exfalso; exact K]).
  - specialize (IHe c). destruct (finish cx n e c) as [[e1 c1] r1] eqn:F. destruct IHe as (P & D & V & C & O). unfold fbind.
    assert (VU : same_uses (EUnary op e) (EUnary op e1)) by exact V.
    assert (Fail : forall r, ~ isok r -> frag (EUnary op e) c (EUnary op e1, c1, r)).
    { intros r N. split; [intro i; cbn; tauto|]. split; [contradiction|]. split; [exact VU|]. split; [exact C|contradiction]. }
    destruct r1 as [o|er| |]; try (apply Fail; exact (fun x => x)).
    destruct (unary_type op c1 o) as [o2|er| |]; try (apply Fail; exact (fun x => x)).
    destruct (unary_fold op e1 o2) as [e2 r2] eqn:Z. apply ulit_frag in Z as [ZV ZP].
    split; [intro i; split; [intros []|apply ZP]|]. split; [intros _ i X; destruct (ZP i X)|].
    split; [eapply same_uses_trans; [exact VU|exact ZV]|]. split; [exact C|intros _; exact (O I)].
  - specialize (IHa c). destruct (finish cx n a c) as [[a1 c1] r1] eqn:F1. destruct IHa as (P1 & D1 & V1 & C1 & O1). unfold fbind.
    assert (C1' : changes (fun k i => uses k i (EBinary a op b)) c c1) by (eapply changes_weak; [|exact C1]; intros k i X; right; left; exact X).
    assert (Fail : forall b' c0 r, ~ isok r -> same_param b b' -> same_uses b b' -> changes (fun k i => uses k i (EBinary a op b)) c c0 ->
              frag (EBinary a op b) c (EBinary a1 op b', c0, r)).
    { intros b' c0 r N P V C. split; [intro i; cbn; tauto|]. split; [contradiction|]. split; [|split; [exact C|contradiction]].
      intros k i. cbn. rewrite (P i), (V1 k i), (V k i). tauto. }
    destruct r1 as [o1|er| |]; try (apply Fail; [exact (fun x => x)|apply same_param_refl|apply same_uses_refl|exact C1']).
    specialize (IHb c1). destruct (finish cx n b c1) as [[b1 c2] r2] eqn:F2. destruct IHb as (P2 & D2 & V2 & C2 & O2).
    assert (C2' : changes (fun k i => uses k i (EBinary a op b)) c c2).
    { eapply changes_trans; [exact C1'|eapply changes_weak; [|exact C2]; intros k i X; right; right; exact X]. }
    destruct r2 as [o2|er| |]; try (apply Fail; [exact (fun x => x)|exact P2|exact V2|exact C2']).
    specialize (O1 I). specialize (O2 I). specialize (D2 I).
    destruct (binary_types cx a1 op b1 o1 o2 c2) as [[[l3 r3] c3] f3] eqn:T. apply types_frag in T as (P3 & VL & VR & C3 & O3); [|exact D2].
    assert (W : forall k i, member_use op b1 k i <-> member_use op b k i) by (intros k i; unfold member_use; rewrite (P2 i); tauto).
    assert (C3' : changes (fun k i => uses k i (EBinary a op b)) c c3).
    { eapply changes_trans; [exact C2'|eapply changes_weak; [|exact C3]; intros k i X; left; now apply W]. }
    assert (V3 : same_uses (EBinary a op b) (EBinary l3 op r3)).
    { intros k i. cbn. rewrite (P2 i), (P3 i), (V1 k i), (VL k i), (V2 k i), (VR k i). tauto. }
    cbn [fst snd]. destruct f3 as [o3|er| |]; try (split; [intro i; cbn; tauto|]; split; [intro K; exfalso; exact K|]; split; [exact V3|]; split; [exact C3'|intro K; exfalso; exact K]).
    destruct (binary_fold cx l3 op r3 o3 c3) as [e4 f4] eqn:Z. apply blit_frag in Z as [ZV ZP].
    split; [intro i; split; [intros []|apply ZP]|]. split; [intros _ i X; destruct (ZP i X)|].
    split; [eapply same_uses_trans; [exact V3|exact ZV]|]. split; [exact C3'|]. intros _. specialize (O3 I).
    intros k i [X|[X|X]]; [apply O3; now apply W| |].
    + apply (settled_kept _ _ _ _ (settled_kept _ _ _ _ O1 C2) C3). exact X.
    + apply (settled_kept _ _ _ _ O2 C3). exact X.
  - unfold condition_finish.
    specialize (IHa c). destruct (finish cx n a c) as [[a1 c1] r1] eqn:F1. destruct IHa as (P1 & D1 & V1 & C1 & O1). unfold fbind.
    assert (C1' : changes (fun k i => uses k i (ETernary a b d)) c c1) by (eapply changes_weak; [|exact C1]; intros k i X; left; exact X).
    assert (Cond : forall o : option ctype, same_uses a (if oty_eqb o (ty_b BBool) then a1 else EBinary a1 ONeq int_zero)).
    { intro o. destruct (oty_eqb o (ty_b BBool)); [exact V1|]. intros k i. cbn. rewrite (V1 k i). split; [auto|]. intros [(_ & X & _)|[X|[]]]; [discriminate|exact X]. }
    assert (Fail : forall a' b' d' c0 r, same_uses a a' -> same_uses b b' -> same_uses d d' -> changes (fun k i => uses k i (ETernary a b d)) c c0 ->
              (isok r -> settled (fun k i => uses k i (ETernary a b d)) c0) -> frag (ETernary a b d) c (ETernary a' b' d', c0, r)).
    { intros a' b' d' c0 r X Y Z C O. split; [intro i; cbn; tauto|]. split; [intros _ i []|]. split; [|split; [exact C|exact O]].
      intros k i. cbn. rewrite (X k i), (Y k i), (Z k i). tauto. }
    destruct r1 as [o1|er| |]; try (apply Fail; [exact V1|apply same_uses_refl|apply same_uses_refl|exact C1'|intro K; exfalso; exact K]).
    specialize (IHb c1). destruct (finish cx n b c1) as [[b1 c2] r2] eqn:F2. destruct IHb as (P2 & D2 & V2 & C2 & O2).
    assert (C2' : changes (fun k i => uses k i (ETernary a b d)) c c2).
    { eapply changes_trans; [exact C1'|eapply changes_weak; [|exact C2]; intros k i X; right; left; exact X]. }
    destruct r2 as [o2|er| |]; try (apply Fail; [apply Cond|exact V2|apply same_uses_refl|exact C2'|intro K; exfalso; exact K]).
    specialize (IHd c2). destruct (finish cx n d c2) as [[d1 c3] r3] eqn:F3. destruct IHd as (P3 & D3 & V3 & C3 & O3).
    assert (C3' : changes (fun k i => uses k i (ETernary a b d)) c c3).
    { eapply changes_trans; [exact C2'|eapply changes_weak; [|exact C3]; intros k i X; right; right; exact X]. }
    destruct r3 as [o3|er| |]; (apply Fail; [apply Cond|exact V2|exact V3|exact C3'|]); try (intro K; exfalso; exact K).
    intros _ k i [X|[X|X]].
    + apply (settled_kept _ _ _ _ (settled_kept _ _ _ _ (O1 I) C2) C3). exact X.
    + apply (settled_kept _ _ _ _ (O2 I) C3). exact X.
    + apply (O3 I). exact X.
Qed.

(** ** Statements *)

Definition sfrag (S : use -> nat -> Prop) (c c' : lctx) (f : fres) : Prop := changes S c c' /\ (isok f -> settled S c').
Lemma sfrag_fail (S T : use -> nat -> Prop) c c' f : (forall k i, S k i -> T k i) -> ~ isok f -> sfrag S c c' f -> sfrag T c c' f.
Proof. intros W N [C _]. split; [eapply changes_weak; eauto|contradiction]. Qed.
Lemma sfrag_seq (S T V : use -> nat -> Prop) c c1 c2 f1 f2 : sfrag S c c1 f1 -> isok f1 -> sfrag T c1 c2 f2 ->
  (forall k i, V k i <-> S k i \/ T k i) -> sfrag V c c2 f2.
Proof.
  intros [C1 O1] F1 [C2 O2] W. split.
  - eapply changes_trans; [eapply changes_weak; [|exact C1]|eapply changes_weak; [|exact C2]]; intros k i X; apply W; auto.
  - intro F. eapply settled_weak; [|apply settled_or; [eapply settled_kept; [exact (O1 F1)|exact C2]|exact (O2 F)]]. intros k i X. now apply W.
Qed.
Lemma sfrag_ok (S T : use -> nat -> Prop) c c' f f' : sfrag S c c' f -> (isok f' -> isok f) -> (forall k i, S k i <-> T k i) -> sfrag T c c' f'.
Proof.
  intros [C O] W E. split; [eapply changes_weak; [|exact C]; apply E|]. intro F. eapply settled_weak; [|exact (O (W F))]. intros k i X. now apply E.
Qed.
Lemma sfrag_weak (S T : use -> nat -> Prop) c c' f : (forall k i, S k i <-> T k i) -> sfrag S c c' f -> sfrag T c c' f.
Proof. intros E H. eapply sfrag_ok; eauto. Qed.

Lemma expr_sfrag e c e' c' f : expr_finish cx e c = (e', c', f) -> sfrag (fun k i => uses k i e) c c' f.
Proof. intro E. pose proof (finish_frag (weight e) e c) as H. unfold expr_finish in E. rewrite E in H. destruct H as (_ & _ & _ & C & O). split; auto. Qed.
Lemma condition_sfrag e c e' c' f : condition_finish (expr_finish cx) e c = (e', c', f) -> sfrag (fun k i => uses k i e) c c' f.
Proof.
  unfold condition_finish, fbind. destruct (expr_finish cx e c) as [[e1 c1] r] eqn:E. apply expr_sfrag in E.
  destruct r; intro X; injection X as _ <- <-; auto.
Qed.
Lemma exprs_sfrag l c l' c' f : list_finish (expr_finish cx) l c = (l', c', f) -> sfrag (any_use l) c c' f.
Proof.
  intro E. apply list_frag in E as (_ & _ & _ & C & O); [split; auto|]. apply Forall_forall. intros e _ c0. apply finish_frag.
Qed.
Lemma ty_sfrag t c t' c' f : ty_finish cx t c = (t', c', f) -> sfrag (type_use t) c c' f.
Proof. intro E. apply ty_frag in E as (_ & C & O). split; auto. Qed.

Lemma asm_sfrag a c a' c' f : asm_finish cx a c = (a', c', f) -> sfrag (fun k i => stmt_uses cx k i (SAsm a)) c c' f.
Proof.
  unfold asm_finish, fbind. destruct (list_finish (expr_finish cx) (map snd (asm_outputs a)) c) as [[lo c1] r1] eqn:L1. apply exprs_sfrag in L1.
  destruct r1 as [o1|er| |]; try (intro E; injection E as _ <- <-; eapply sfrag_fail; [|exact (fun x => x)|exact L1]; intros k i X; left; exact X).
  destruct (list_finish (expr_finish cx) (map snd (asm_inputs a)) c1) as [[li c2] r2] eqn:L2. apply exprs_sfrag in L2.
  assert (S : sfrag (fun k i => stmt_uses cx k i (SAsm a)) c c2 r2) by (eapply sfrag_seq; [exact L1|exact I|exact L2|]; intros k i; cbn; unfold any_use; tauto).
  destruct r2; intro E; injection E as _ <- <-; try exact S. destruct (asm_global a); [|exact S]. exact S.
Qed.
Lemma var_decl_sfrag d c d' c' f : var_decl_finish cx d c = (d', c', f) -> sfrag (fun k i => stmt_uses cx k i (SVarDecl d)) c c' f.
Proof.
  unfold var_decl_finish, fbind. destruct (ty_finish cx (vd_ty d) c) as [[t c1] r1] eqn:T. apply ty_sfrag in T.
  destruct r1 as [o1|er| |]; try (intro E; injection E as _ <- <-; eapply sfrag_fail; [|exact (fun x => x)|exact T]; intros k i [-> X]; left; auto).
  destruct (ident_finish (vd_name d) c1) as [c2 r2] eqn:N. apply ident_frag in N.
  assert (S : sfrag (fun k i => k = AsName /\ (pasted_type i (vd_ty d) \/ pasted i (vd_name d))) c c2 r2).
  { eapply sfrag_seq; [exact T|exact I|exact N|]. intros k i. unfold type_use, name_use. tauto. }
  destruct r2 as [o2|er| |]; try (intro E; injection E as _ <- <-; eapply sfrag_fail; [|exact (fun x => x)|exact S]; intros k i X; left; auto).
  destruct (expr_finish cx (vd_rhs d) c2) as [[e c3] r3] eqn:E3. apply expr_sfrag in E3.
  assert (S3 : sfrag (fun k i => stmt_uses cx k i (SVarDecl d)) c c3 r3) by (eapply sfrag_seq; [exact S|exact I|exact E3|]; intros k i; cbn; tauto).
  destruct r3; intro E; injection E as _ <- <-; exact S3.
Qed.
Lemma fn_args_sfrag l : forall c l' c' f, fn_args_finish cx l c = (l', c', f) ->
  sfrag (fun k i => k = AsName /\ exists t n, In (t, n) l /\ pasted_type i t) c c' f.
Proof.
  induction l as [|[t n] l IH]; intros c l' c' f; cbn [fn_args_finish].
  - intro E; injection E as _ <- <-. split; [apply changes_refl|]. intros _. apply settled_none. intros k i (_ & t & n & [] & _).
  - unfold fbind. destruct (ty_finish cx t c) as [[t1 c1] r1] eqn:T. apply ty_sfrag in T.
    destruct r1 as [o1|er| |]; try (intro E; injection E as _ <- <-; eapply sfrag_fail; [|exact (fun x => x)|exact T]; intros k i [-> X]; split; [reflexivity|]; exists t, n; split; [now left|exact X]).
    destruct (fn_args_finish cx l c1) as [[l2 c2] r2] eqn:L. apply IH in L. intro E; injection E as _ <- <-.
    eapply sfrag_seq; [exact T|exact I|exact L|]. intros k i. unfold type_use. split.
    + intros (-> & t0 & n0 & [X|X] & P); [injection X as <- <-; auto|right; eauto 6].
    + intros [[-> P]|(-> & t0 & n0 & X & P)]; (split; [reflexivity|]); [exists t, n|exists t0, n0]; split; auto; [now left|now right].
Qed.
Lemma fn_decl_sfrag d c d' c' f : fn_decl_finish cx d c = (d', c', f) -> sfrag (fun k i => stmt_uses cx k i (SFnDecl d)) c c' f.
Proof.
  unfold fn_decl_finish, fbind. destruct (ty_finish cx (fd_ret d) c) as [[t c1] r1] eqn:T. apply ty_sfrag in T.
  destruct r1 as [o1|er| |]; try (intro E; injection E as _ <- <-; eapply sfrag_fail; [|exact (fun x => x)|exact T]; intros k i [-> X]; cbn; auto).
  set (c2 := match fd_name d with IArg i => set_arg_type c1 i AIdent | _ => Some c1 end).
  assert (C2 : match c2 with Some c2 => sfrag (fun k i => k = AsName /\ fd_name d = IArg i) c1 c2 (FOk None) | None => True end).
  { subst c2. destruct (fd_name d) as [i|s|l] eqn:N.
    - destruct (set_arg_type c1 i AIdent) as [c2|] eqn:Q; [|exact I].
      destruct (changes_set (fun k j => k = AsName /\ IArg i = IArg j) _ _ _ _ Q) as [C A].
      { intros a _. right; left. auto. }
      split; [exact C|]. intros _ k j (-> & P). injection P as <-. exists AIdent. split; [exact A|reflexivity].
    - split; [apply changes_refl|]. intros _. apply settled_none. intros k i [_ X]. discriminate.
    - split; [apply changes_refl|]. intros _. apply settled_none. intros k i [_ X]. discriminate. }
  destruct c2 as [c2|].
  2: { intro E; injection E as _ <- <-. eapply sfrag_fail with (S := type_use (fd_ret d)); [|exact (fun x => x)|]; [intros k i [-> X]; cbn; auto|].
       destruct T as [C _]. split; [exact C|intro K; exfalso; exact K]. }
  destruct (fn_args_finish cx (fd_args d) c2) as [[l c3] r3] eqn:L. apply fn_args_sfrag in L. intro E; injection E as _ <- <-.
  assert (S2 : sfrag (fun k i => k = AsName /\ (pasted_type i (fd_ret d) \/ fd_name d = IArg i)) c c2 (FOk None)).
  { eapply sfrag_seq; [exact T|exact I|exact C2|]. intros k i. unfold type_use. tauto. }
  eapply sfrag_seq; [exact S2|exact I|exact L|].
  intros k i. cbn. unfold type_use. tauto.
Qed.

Lemma stmts_sfrag l : Forall (fun s => forall c s' c' f, stmt_finish cx s c = (s', c', f) -> sfrag (fun k i => stmt_uses cx k i s) c c' f) l ->
  forall c l' c' f, stmts_finish (stmt_finish cx) l c = (l', c', f) -> sfrag (fun k i => any_stmt (stmt_uses cx k i) l) c c' f.
Proof.
  induction 1 as [|s l H HF IH]; intros c l' c' f; cbn [stmts_finish].
  - intro E; injection E as _ <- <-. split; [apply changes_refl|]. intros _. apply settled_none. intros k i [].
  - unfold fbind. destruct (stmt_finish cx s c) as [[s1 c1] r1] eqn:S. apply H in S.
    destruct r1 as [o1|er| |]; try (intro E; injection E as _ <- <-; eapply sfrag_fail; [|exact (fun x => x)|exact S]; intros k i X; left; exact X).
    destruct (stmts_finish (stmt_finish cx) l c1) as [[l2 c2] r2] eqn:L. apply IH in L. intro E; injection E as _ <- <-.
    eapply sfrag_seq; [exact S|exact I|exact L|]. intros k i. cbn. reflexivity.
Qed.
Theorem stmt_sfrag s : forall c s' c' f, stmt_finish cx s c = (s', c', f) -> sfrag (fun k i => stmt_uses cx k i s) c c' f.
Proof.
  induction s as [a|e|d|d|l IHl|e a b IHa IHb|l e IHl] using stmt_ind'; intros c s' c' f; cbn [stmt_finish]; unfold fbind.
  - destruct (asm_finish cx a c) as [[a1 c1] r1] eqn:E. apply asm_sfrag in E. destruct r1; intro X; injection X as _ <- <-; exact E.
  - destruct (expr_finish cx e c) as [[a1 c1] r1] eqn:E. apply expr_sfrag in E. destruct r1; intro X; injection X as _ <- <-; exact E.
  - destruct (fn_decl_finish cx d c) as [[a1 c1] r1] eqn:E. apply fn_decl_sfrag in E. destruct r1; intro X; injection X as _ <- <-; exact E.
  - destruct (var_decl_finish cx d c) as [[a1 c1] r1] eqn:E. apply var_decl_sfrag in E. destruct r1; intro X; injection X as _ <- <-; exact E.
  - destruct (stmts_finish (stmt_finish cx) l c) as [[a1 c1] r1] eqn:E. apply (stmts_sfrag _ IHl) in E. destruct r1; intro X; injection X as _ <- <-; exact E.
  - destruct (condition_finish (expr_finish cx) e c) as [[e1 c1] r1] eqn:E. apply condition_sfrag in E.
    destruct r1 as [o1|er| |]; try (intro X; injection X as _ <- <-; eapply sfrag_fail; [|exact (fun x => x)|exact E]; intros k i X; left; exact X).
    destruct (stmts_finish (stmt_finish cx) a c1) as [[a1 c2] r2] eqn:A. apply (stmts_sfrag _ IHa) in A.
    assert (S2 : sfrag (fun k i => uses k i e \/ any_stmt (stmt_uses cx k i) a) c c2 r2) by (eapply sfrag_seq; [exact E|exact I|exact A|]; intros k i; reflexivity).
    destruct r2 as [o2|er| |]; try (intro X; injection X as _ <- <-; eapply sfrag_fail; [|exact (fun x => x)|exact S2]; intros k i [X|X]; cbn; auto).
    destruct (stmts_finish (stmt_finish cx) b c2) as [[b1 c3] r3] eqn:B. apply (stmts_sfrag _ IHb) in B.
    assert (S3 : sfrag (fun k i => stmt_uses cx k i (SIf e a b)) c c3 r3) by (eapply sfrag_seq; [exact S2|exact I|exact B|]; intros k i; cbn; tauto).
    destruct r3; intro X; injection X as _ <- <-; exact S3.
  - destruct (stmts_finish (stmt_finish cx) l c) as [[l1 c1] r1] eqn:L. apply (stmts_sfrag _ IHl) in L.
    destruct r1 as [o1|er| |]; try (intro X; injection X as _ <- <-; eapply sfrag_fail; [|exact (fun x => x)|exact L]; intros k i X; left; exact X).
    destruct (condition_finish (expr_finish cx) e c1) as [[e1 c2] r2] eqn:E. apply condition_sfrag in E.
    assert (S2 : sfrag (fun k i => stmt_uses cx k i (SDoWhile l e)) c c2 r2) by (eapply sfrag_seq; [exact L|exact I|exact E|]; intros k i; cbn; tauto).
    destruct r2; intro X; injection X as _ <- <-; exact S2.
Qed.
Theorem body_sfrag b c b' c' f : body_finish cx b c = (b', c', f) -> sfrag (fun k i => body_uses cx k i b) c c' f.
Proof.
  destruct b as [s|e]; cbn [body_finish].
  - destruct (stmt_finish cx s c) as [[s1 c1] r1] eqn:E. apply stmt_sfrag in E. intro X; injection X as _ <- <-. exact E.
  - destruct (expr_finish cx e c) as [[s1 c1] r1] eqn:E. apply expr_sfrag in E. intro X; injection X as _ <- <-. exact E.
Qed.
End F.
