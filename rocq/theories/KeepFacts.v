(** Type inference keeps the grouping of the supported expressions. *)
From Verif Require Import Base Utf Lex LexFloat Token Ast Nom ParseTok ParseExpr ParseStmt Rust Finish FinishFacts FinishEq SpecType SpecGrammar GrammarFacts SpecKeep.
From Coq Require Import String List Lia.
Import ListNotations.
Local Open Scope string_scope.
Local Open Scope list_scope.

(** Types that cannot be mistaken for a parenthesised variable. *)
Definition real_type (t : ctype) : Prop :=
  match t with
  | TyIdent (IPlain _) _ => True
  | TyIdent _ false => False
  | _ => True
  end.
Definition part (e : expr) : Prop := match e with EVar _ | EStringify _ | ELit (LString _) => True | _ => False end.
Inductive proper : expr -> Prop :=
| p_var n : proper (EVar n)
| p_lit l : proper (ELit l)
| p_stringify e : proper (EStringify e)
| p_sizeof t : proper (ESizeOf t)
| p_call n args : Forall proper args -> proper (ECall n args)
| p_cast t e : proper e -> real_type t -> (forall n s e', e <> ECast (TyIdent n s) (EUnary UDeref e')) -> proper (ECast t e)
| p_unary op e : proper e -> proper (EUnary op e)
| p_binary a op b : proper a -> proper b -> proper (EBinary a op b)
| p_ternary c a b : proper c -> proper a -> proper b -> proper (ETernary c a b)
| p_strings l : Forall part l -> proper (EConcat l).

Section K.
Context {U : Unicode}.
Variable cx : cgctx.
Hypothesis CC : closed_context cx.

Lemma strung_number l x : strung l [ELit x] -> number x -> False.
Proof. inversion 1; subst; cbn; auto. Qed.
Lemma keeps_number e l : keeps e (ELit l) -> number l -> constant e.
Proof. inversion 1; subst; cbn; intros; auto using co_lit; try contradiction. exfalso. eauto using strung_number. Qed.

Lemma from_rust_plain pre rt n s : from_rust_ty pre rt = ROk (TyIdent n s) -> exists id, n = IPlain id /\ s = false.
Proof.
  destruct rt; cbn; try discriminate.
  all: try (intro E; injection E as <- <-; now eauto).
  all: try (destruct (from_rust_ty pre rt); cbn; try discriminate; match goal with |- context [if ?m then _ else _] => destruct m end; discriminate).
  - destruct (builtin_from_rust _ _ pre); [discriminate|]. match goal with |- context [sp_colon ?p] => destruct (sp_colon p), (sp_segs p) as [|x [|y l]] end; try discriminate.
    intro E. injection E as <- <-. eauto.
Qed.
Lemma finished_ident t c n s c' f : ty_finish cx t c = (TyIdent n s, c', f) -> exists n' s', t = TyIdent n' s'.
Proof.
  destruct t as [b|n0 s0|k l|t0|t0 q]; cbn [ty_finish]; eauto; try discriminate.
  all: destruct (ty_finish cx t0 c) as [[]]; discriminate.
Qed.

Lemma real_no_binary t c t' c' o e : real_type t -> ty_finish cx t c = (t', c', FOk o) -> cast_as_binary cx t' e = None.
Proof.
  intros R E. unfold cast_as_binary. destruct e as [| | | | | | |op e0| |]; try reflexivity.
  destruct t' as [b|n s|k l|t0|t0 q]; try reflexivity. destruct s; try reflexivity.
  destruct (finished_ident _ _ _ _ _ _ E) as (n0 & s0 & ->). cbn [ty_finish] in E.
  destruct (ident_finish n0 c) as [c1 f] eqn:Ei. destruct f; try discriminate.
  destruct n0 as [i|id|l].
  - injection E; intros; subst. cbn in R. contradiction.
  - destruct (cx_ty cx id) as [rt|] eqn:Er; [|discriminate].
    destruct (from_rust_ty (cx_ffi cx) rt) as [t1| | |] eqn:Ef; try discriminate. injection E; intros; subst.
    destruct (from_rust_plain _ _ _ _ Ef) as (m & -> & _).
    pose proof (CC _ _ _ Er Ef) as K. destruct (cx_ty cx m); [reflexivity|contradiction].
  - injection E; intros; subst. cbn in R. contradiction.
Qed.

Definition deref_cast (e : expr) : Prop := exists n s x, e = ECast (TyIdent n s) (EUnary UDeref x).
Definition is_deref (e : expr) : Prop := exists x, e = EUnary UDeref x.
Definition good (e e' : expr) (r : fres) : Prop :=
  match r with
  | FOk _ => keeps e e'
  | _ => (deref_cast e' -> deref_cast e) /\ (is_deref e' -> is_deref e)
  end.
Definition Q (e : expr) : Prop := forall c e' c' r, expr_finish cx e c = (e', c', r) -> good e e' r.

Lemma no_deref_cast t e : ~ deref_cast e -> cast_of_deref t e = None.
Proof.
  intro N. unfold cast_of_deref. destruct e as [| |t0 e0| | | | | | |]; try reflexivity. destruct t0 as [|n [|]| | |]; try reflexivity.
  destruct e0 as [| | | | | | |[] e1| |]; try reflexivity. destruct N. unfold deref_cast; eauto.
Qed.
Lemma good_same e r : (forall o, r = FOk o -> keeps e e) -> good e e r.
Proof. destruct r; cbn; eauto. Qed.

Lemma list_keeps l : Forall Q l -> forall c l' c' o, list_finish (expr_finish cx) l c = (l', c', FOk o) -> Forall2 keeps l l'.
Proof.
  induction 1 as [|e l HQ HF IH]; intros c l' c' o; cbn [list_finish]. { intro E; injection E; intros; subst; constructor. }
  destruct (expr_finish cx e c) as [[e1 c1] r1] eqn:E1. apply HQ in E1. unfold fbind. destruct r1; try discriminate.
  destruct (list_finish (expr_finish cx) l c1) as [[l2 c2] r2] eqn:E2.
  destruct r2; try discriminate. intro E; injection E; intros; subst. constructor; eauto.
Qed.

Ltac wrong := split; intros (? & ?); repeat match goal with Hx : exists _, _ |- _ => destruct Hx end; discriminate.

Lemma unary_keeps op e e' c t t' e2 r : keeps e e' -> unary_type op c t = FOk t' -> unary_fold op e' t' = (e2, r) -> good (EUnary op e) e2 r.
Proof.
  intros K T. assert (B : op = UNot -> t' = ty_b BBool) by (intros ->; cbn in T; now injection T as <-). clear T.
  assert (C : forall l l', e' = ELit l -> number l -> number l' -> keeps (EUnary op e) (ELit l')).
  { intros l l' -> N N'. apply k_constant; [|exact N']. constructor. eapply keeps_number; eauto. }
  unfold unary_fold. intro E.
  assert (D : (exists l, e2 = ELit l /\ number l) /\ (exists l, e' = ELit l /\ number l) \/ e2 = EUnary op e').
  { destruct op; try (injection E; intros; subst; auto; fail).
    all: destruct e' as [| | |[x|x|x|[v [s|]]]| | | | | |]; try (injection E; intros; subst; auto; fail);
      try (rewrite (B eq_refl) in E; cbn in E; injection E; intros; subst; auto; fail).
    all: left; injection E; intros; subst; split; eexists; (split; [reflexivity|exact I]). }
  destruct D as [[(l & -> & N) (l' & E' & N')] | ->].
  - destruct r; cbn; [eauto|wrong|wrong|wrong].
  - destruct r; cbn; [now constructor| | |].
    all: split; intros; [wrong || (destruct H as (? & ? & ? & ?); discriminate) | destruct H as (x & Hx); injection Hx; intros; subst; unfold is_deref; eauto].
Qed.

Lemma types_keep a op b a' b' la lb c x c' f : keeps a a' -> keeps b b' ->
  binary_types cx a' op b' la lb c = (x, c', f) -> keeps a (fst x) /\ keeps b (snd x).
Proof.
  intros KA KB. unfold binary_types.
  set (c0 := match op with OMember => match b' with EVar (IArg i) => set_arg_type c i AIdent | _ => Some c end | _ => Some c end).
  destruct c0 as [c1|]; [|intro E; injection E; intros; subst; auto].
  intro E.
  match type of E with match ?m with _ => _ end = _ => destruct m as [[[l1 r1] t1] t2] eqn:M end.
  injection E as E1 E2 E3. subst x. cbn [fst snd]. clear E2 E3.
  assert (ID : forall la' lb', (a', b', la', lb') = (l1, r1, t1, t2) -> keeps a l1 /\ keeps b r1) by (intros ? ? J; injection J; intros; subst; auto).
  assert (CA : forall t la' lb', (ECast t a', b', la', lb') = (l1, r1, t1, t2) -> keeps a l1 /\ keeps b r1)
    by (intros ? ? ? J; injection J; intros; subst; auto using k_add_cast).
  assert (CB : forall t la' lb', (a', ECast t b', la', lb') = (l1, r1, t1, t2) -> keeps a l1 /\ keeps b r1)
    by (intros ? ? ? J; injection J; intros; subst; auto using k_add_cast).
  assert (NA : forall v w la' lb', a' = ELit (LInt v) -> (ELit (LFloat w), b', la', lb') = (l1, r1, t1, t2) -> keeps a l1 /\ keeps b r1).
  { intros v w ? ? -> J; injection J; intros; subst; split; auto. apply k_constant; [|exact I]. eapply keeps_number; [eauto|exact I]. }
  assert (NB : forall v w la' lb', b' = ELit (LInt v) -> (a', ELit (LFloat w), la', lb') = (l1, r1, t1, t2) -> keeps a l1 /\ keeps b r1).
  { intros v w ? ? -> J; injection J; intros; subst; split; auto. apply k_constant; [|exact I]. eapply keeps_number; [eauto|exact I]. }
  destruct a' as [| | |[x|x|x|[v [s|]]]| | | | | |], b' as [| | |[y|y|y|[w [s2|]]]| | | | | |]; try (eapply ID; exact M);
    try (eapply NA; [reflexivity|exact M]); try (eapply NB; [reflexivity|exact M]).
  all: destruct (mul_or_add op); try (eapply ID; exact M).
  all: match type of M with match ?m with _ => _ end = _ => destruct m end;
    try (eapply ID; exact M); try (eapply CA; exact M); try (eapply CB; exact M).
Qed.
Lemma fold_keeps a op b a' b' t c e2 r : keeps a a' -> keeps b b' -> binary_fold cx a' op b' t c = (e2, r) -> good (EBinary a op b) e2 r.
Proof.
  intros KA KB. unfold binary_fold. intro E.
  assert (D : e2 = EBinary a' op b' \/ (exists l, e2 = ELit l /\ number l) /\ (exists l, a' = ELit l /\ number l) /\ (exists l, b' = ELit l /\ number l)).
  { destruct a' as [| | |[x|x|x|x]| | | | | |]; try (injection E; intros; subst; auto; fail);
      destruct b' as [| | |[y|y|y|y]| | | | | |]; try (injection E; intros; subst; auto; fail).
    - destruct (float_op op); injection E; intros; subst; auto. right. repeat split; eexists; (split; [reflexivity|exact I]).
    - destruct (int_folds op); [|injection E; intros; subst; auto]. destruct (int_op _ _ _); injection E; intros; subst; auto.
      right. repeat split; eexists; (split; [reflexivity|exact I]). }
  destruct D as [->|((l & -> & N) & (la & -> & Na) & (lb & -> & Nb))].
  - destruct r; cbn; [now constructor|wrong|wrong|wrong].
  - destruct r; cbn; [|wrong|wrong|wrong]. apply k_constant; [|exact N]. constructor; eapply keeps_number; eauto.
Qed.

(** Sequences of strings. *)
Lemma part_finish e c e' c' r : part e -> expr_finish cx e c = (e', c', r) -> e' = e.
Proof.
  intros H. rewrite expr_finish_eq. destruct e as [v| | |[]|a| | | | |]; try contradiction; cbn [finish_step].
  - destruct (var_finish cx v c). intro E; now injection E.
  - intro E; now injection E.
  - destruct (stringify_finish a c). intro E; now injection E.
Qed.
Lemma bytes_same s : lit_string_as_bytes s = literal_bytes s.
Proof. reflexivity. Qed.
Definition pending (cur : option (list N)) (pend : list expr) : Prop :=
  match cur with
  | None => pend = []
  | Some b => exists ss bs, ss <> [] /\ Forall2 (fun s b => literal_bytes s = Some b) ss bs /\ b = concat bs /\ pend = map text ss
  end.
Lemma strung_push cur pend l l' acc : pending cur pend -> strung l l' -> exists tail, push_string acc cur ++ l' = acc ++ tail /\ strung (pend ++ l) tail.
Proof.
  destruct cur as [b|]; cbn [pending push_string].
  - intros (ss & bs & NE & F & -> & ->) S. eexists. split; [rewrite <- app_assoc; reflexivity|]. now constructor.
  - intros -> S. eauto.
Qed.
Lemma concat_strung l : Forall part l -> forall done acc cur c pend self names c' o, pending cur pend ->
  concat_finish (expr_finish cx) done l acc cur c = (self, names, c', FOk o) -> exists tail, names = acc ++ tail /\ strung (pend ++ l) tail.
Proof.
  induction 1 as [|e l He Hl IH]; intros done acc cur c pend self names c' o PD; cbn [concat_finish].
  { intro E. injection E; intros; subst. destruct (strung_push _ _ _ _ acc PD sg_end) as (tail & E1 & S). exists tail. now rewrite app_nil_r in E1. }
  destruct (expr_finish cx e c) as [[e1 c1] r1] eqn:E1. apply (part_finish _ _ _ _ _ He) in E1. subst e1.
  destruct r1; try discriminate.
  assert (OTHER : forall d c2, (forall l l', strung l l' -> strung (e :: l) (e :: l')) ->
    concat_finish (expr_finish cx) d l (push_string acc cur ++ [e]) None c2 = (self, names, c', FOk o) ->
    exists tail, names = acc ++ tail /\ strung (pend ++ e :: l) tail).
  { intros d c2 K Q. destruct (IH _ _ None _ [] _ _ _ _ eq_refl Q) as (tail & -> & S). rewrite <- app_assoc.
    apply strung_push; [exact PD|]. now apply K. }
  destruct e as [[]| | |[|l0| |]|a| | | | |]; try contradiction; cbv zeta.
  - apply OTHER. intros; now constructor.
  - destruct (str_eqb _ _); [|discriminate]. apply OTHER. intros; now constructor.
  - apply OTHER. intros; now constructor.
  - rewrite bytes_same. destruct (literal_bytes l0) as [b|] eqn:B; [|discriminate]. intro Q.
    eapply (IH _ _ _ _ (pend ++ [text l0])) in Q; [rewrite <- app_assoc in Q; exact Q|].
    cbn [pending]. destruct cur as [a|]; cbn [pending] in PD.
    + destruct PD as (ss & bs & NE & F & -> & ->). exists (ss ++ [l0]), (bs ++ [b]). repeat split.
      * destruct ss; discriminate.
      * apply Forall2_app; [exact F|]. now constructor.
      * rewrite concat_app. cbn. now rewrite app_nil_r.
      * now rewrite map_app.
    + subst pend. exists [l0], [b]. repeat split; [discriminate|now constructor|cbn; now rewrite app_nil_r].
  - apply OTHER. intros; now constructor.
Qed.
Lemma concat_self l : forall done acc cur c self names c' r,
  concat_finish (expr_finish cx) done l acc cur c = (self, names, c', r) -> exists l', self = EConcat l'.
Proof.
  induction l as [|e l IH]; intros done acc cur c self names c' r; cbn [concat_finish].
  { intro E. injection E; intros; subst; eauto. }
  destruct (expr_finish cx e c) as [[e1 c1] r1]. destruct r1; try (intro E; injection E; intros; subst; now eauto).
  destruct e1 as [[]| | |[]|a| | | | |]; eauto; cbv zeta.
  - destruct (str_eqb _ _); eauto. intro E; injection E; intros; subst; now eauto.
  - destruct (lit_string_as_bytes _); eauto. intro E; injection E; intros; subst; now eauto.
Qed.
Lemma strung_parts l l' : strung l l' -> Forall part l'.
Proof. induction 1; constructor; auto; exact I. Qed.

Lemma finish_keeps e : proper e -> Q e.
Proof.
  induction e as [v|v l IHl|t e IHe|l|a IHa|l IHl|t|op e IHe|a op b IHa IHb|a b d IHa IHb IHd] using expr_ind'; intros PR c e' c' r;
    rewrite expr_finish_eq; cbn [finish_step].
  - destruct (var_finish cx v c) as [c1 r1]. intro E; injection E; intros; subst. apply good_same. intros; constructor.
  - inversion PR; subst. destruct (lc_var c). { intro E; injection E; intros; subst. wrong. }
    destruct (ident_finish v c) as [c1 r1]. destruct r1; try (intro E; injection E; intros; subst; wrong).
    assert (HQ : Forall Q l). { clear - IHl H0. induction IHl; inversion H0; subst; constructor; auto. }
    destruct (list_finish (expr_finish cx) l c1) as [[l2 c2] r2] eqn:E2. unfold fbind.
    destruct r2; try (intro E; injection E; intros; subst; wrong).
    destruct (call_types _ _ _ _) as [c3 r3]. intro E; injection E; intros; subst.
    destruct r; cbn; [|wrong|wrong|wrong]. constructor. eapply list_keeps; eauto.
  - inversion PR as [| | | | |? ? PE RT NR| | | |]; subst. specialize (IHe PE).
    destruct (ty_finish cx t c) as [[t1 c1] r1] eqn:ET.
    assert (ND : ~ deref_cast e) by (intros (n & s & x & ->); eapply NR; reflexivity).
    destruct r1 as [o|x| |].
    + destruct (expr_finish cx e c1) as [[e2 c2] r2] eqn:E2. apply IHe in E2.
      destruct r2 as [o2|x| |].
      * rewrite (real_no_binary _ _ _ _ _ e2 RT ET). cbn in E2.
        destruct (redundant_cast t1 e2) eqn:RC.
        { intro E; injection E; intros; subst. cbn. destruct e' as [| | |[|[]| |]| | | | | |]; cbn in RC; try discriminate. now constructor. }
        intro E; injection E; intros; subst. cbn. now constructor.
      * cbn in E2. destruct E2 as [D1 D2]. rewrite no_deref_cast by tauto.
        intro E. assert (E0 : (ECast t1 e2, c2, FErr x) = (e', c', r)) by (destruct x; exact E). injection E0; intros; subst.
        cbn. split; [|intros (y & Hy); discriminate]. intros (n & s & y & Hy). injection Hy; intros; subst.
        destruct (finished_ident _ _ _ _ _ _ ET) as (n' & s' & ->). destruct (D2 (ex_intro _ _ eq_refl)) as (y' & ->). unfold deref_cast; eauto.
      * cbn in E2. destruct E2 as [D1 D2]. intro E; injection E; intros; subst.
        cbn. split; [|intros (y & Hy); discriminate]. intros (n & s & y & Hy). injection Hy; intros; subst.
        destruct (finished_ident _ _ _ _ _ _ ET) as (n' & s' & ->). destruct (D2 (ex_intro _ _ eq_refl)) as (y' & ->). unfold deref_cast; eauto.
      * cbn in E2. destruct E2 as [D1 D2]. intro E; injection E; intros; subst.
        cbn. split; [|intros (y & Hy); discriminate]. intros (n & s & y & Hy). injection Hy; intros; subst.
        destruct (finished_ident _ _ _ _ _ _ ET) as (n' & s' & ->). destruct (D2 (ex_intro _ _ eq_refl)) as (y' & ->). unfold deref_cast; eauto.
    + rewrite no_deref_cast by assumption. intro E. assert (E0 : (ECast t1 e, c1, FErr x) = (e', c', r)) by (destruct x; exact E). injection E0; intros; subst.
      cbn. split; [|intros (y & Hy); discriminate]. intros (n & s & y & Hy). injection Hy; intros; subst.
      destruct (finished_ident _ _ _ _ _ _ ET) as (n' & s' & ->). unfold deref_cast; eauto.
    + intro E; injection E; intros; subst.
      cbn. split; [|intros (y & Hy); discriminate]. intros (n & s & y & Hy). injection Hy; intros; subst.
      destruct (finished_ident _ _ _ _ _ _ ET) as (n' & s' & ->). unfold deref_cast; eauto.
    + intro E; injection E; intros; subst.
      cbn. split; [|intros (y & Hy); discriminate]. intros (n & s & y & Hy). injection Hy; intros; subst.
      destruct (finished_ident _ _ _ _ _ _ ET) as (n' & s' & ->). unfold deref_cast; eauto.
  - destruct l as [x|x|x|x].
    + destruct (char_finish cx x c) as [[t|]| | |]; intro E; injection E; intros; subst; try wrong. cbn. apply k_add_cast. constructor.
    + intro E; injection E; intros; subst. apply good_same. constructor.
    + intro E; injection E; intros; subst. apply good_same. constructor.
    + intro E; injection E; intros; subst. apply good_same. constructor.
  - destruct (stringify_finish a c) as [c1 r1]. intro E; injection E; intros; subst. apply good_same. intros; constructor.
  - inversion PR as [| | | | | | | | |? PL]; subst.
    destruct (concat_finish (expr_finish cx) [] l [] None c) as [[[self names] c1] r1] eqn:CF.
    destruct (concat_self _ _ _ _ _ _ _ _ _ CF) as (l0 & ->).
    destruct r1 as [o| | |].
    2,3,4: destruct names as [|x1 [|x2 names]]; intro E; injection E; intros; subst; wrong.
    destruct (concat_strung l PL [] [] None c [] _ _ _ _ eq_refl CF) as (tail & EN & S). cbn in EN, S. subst names. pose proof (strung_parts _ _ S) as PT.
    destruct tail as [|x1 [|x2 tail]].
    + intro E; injection E; intros; subst. cbn. now constructor.
    + intro E. inversion PT; subst. pose proof (part_finish _ _ _ _ _ H1 E). subst e'.
      destruct r; cbn; [now constructor| | |]; split; intros (? & D); repeat match goal with Hx : exists _, _ |- _ => destruct Hx end; subst; contradiction.
    + intro E; injection E; intros; subst. cbn. now constructor.
  - destruct (ty_finish cx t c) as [[t1 c1] r1]. unfold fbind. destruct r1; intro E; injection E; intros; subst; try wrong. constructor.
  - inversion PR as [| | | | | |? ? PE| | |]; subst. specialize (IHe PE).
    destruct (expr_finish cx e c) as [[e1 c1] r1] eqn:E1. apply IHe in E1. unfold fbind. destruct r1.
    2,3,4: intro E; injection E; intros; subst; split; [intros (? & ? & ? & ?); discriminate | intros (x & Hx); injection Hx; intros; subst; unfold is_deref; eauto].
    destruct (unary_type op c1 t) eqn:UT.
    2,3,4: intro E; injection E; intros; subst; split; [intros (? & ? & ? & ?); discriminate | intros (x & Hx); injection Hx; intros; subst; unfold is_deref; eauto].
    destruct (unary_fold op e1 t0) as [e2 r2] eqn:UF. intro E; injection E; intros; subst. eapply unary_keeps; eauto.
  - inversion PR as [| | | | | | |? ? ? PA PB| |]; subst. specialize (IHa PA). specialize (IHb PB).
    destruct (expr_finish cx a c) as [[a1 c1] r1] eqn:E1. apply IHa in E1. unfold fbind. destruct r1; try (intro E; injection E; intros; subst; wrong).
    destruct (expr_finish cx b c1) as [[b1 c2] r2] eqn:E2. apply IHb in E2. destruct r2; try (intro E; injection E; intros; subst; wrong).
    destruct (binary_types cx a1 op b1 t t0 c2) as [[x c3] r3] eqn:BT. destruct (types_keep _ _ _ _ _ _ _ _ _ _ _ E1 E2 BT) as [KA KB].
    destruct r3; try (intro E; injection E; intros; subst; wrong).
    destruct (binary_fold cx (fst x) op (snd x) t1 c3) as [e2 r2] eqn:BF. intro E; injection E; intros; subst. eapply fold_keeps; [exact KA|exact KB|exact BF].
  - inversion PR as [| | | | | | | |? ? ? PA PB PD|]; subst. specialize (IHa PA). specialize (IHb PB). specialize (IHd PD).
    unfold condition_finish. destruct (expr_finish cx a c) as [[a1 c1] r1] eqn:E1. apply IHa in E1. unfold fbind. destruct r1; try (intro E; injection E; intros; subst; wrong).
    destruct (expr_finish cx b c1) as [[b1 c2] r2] eqn:E2. apply IHb in E2. destruct r2; try (intro E; injection E; intros; subst; wrong).
    destruct (expr_finish cx d c2) as [[d1 c3] r3] eqn:E3. apply IHd in E3. destruct r3; try (intro E; injection E; intros; subst; wrong).
    intro E; injection E; intros; subst. destruct (oty_eqb t (ty_b BBool)); now constructor.
Qed.
End K.

(** The supported expressions are proper. *)
Section S.
Variable types : str -> bool.
Let Pr (e : expr) := no_recast e -> proper e.

Lemma type_real T t : type_name types T t -> real_type t.
Proof.
  assert (F : forall ps t, real_type t -> real_type (fold_left point ps t)).
  { induction ps as [|p ps IH]; intros t0 R; cbn; [exact R|]. apply IH. unfold point, qualified. destruct (has_const _), (has_volatile _); exact I. }
  inversion 1; subst; apply F; unfold qualified; repeat destruct (_ || _)%bool; exact I.
Qed.

Lemma string_part_part b ts e r : string_part types b ts e r -> part e.
Proof. destruct 1; exact I. Qed.
Lemma string_parts_parts b ts l r : string_parts types b ts l r -> Forall part l.
Proof.
  induction 1; [repeat constructor; eauto using string_part_part|]. apply Forall_app in IHstring_parts as [? K]. inversion K; subst.
  apply Forall_app. repeat constructor; eauto using string_part_part.
Qed.
Lemma derives_proper s l ts e r : derives types s l ts e r -> Pr e.
Proof.
  intros d. revert l ts e r d.
  refine (derives_mut types s (fun _ _ e _ => Pr e) (fun _ es _ => Forall Pr es) (fun _ es _ => Forall Pr es) _ _ _ _ _ _ _ _ _ _ _ _ _ _ _ _ _ _ _ _ _ _ _ _ _);
  unfold Pr; intros; auto; try (constructor; auto; fail).
  - constructor. eauto using string_parts_parts.
  - match goal with N : no_recast _ |- _ => inversion N as [| | | | | |? ? N1| | |]; subst; inversion N1; subst end. constructor. constructor; auto.
  - constructor. match goal with N : no_recast _, A : Forall _ args |- _ => inversion N as [| | | |? ? N1| | | | |]; subst; revert N1; clear - A; induction A end;
    intro N1; inversion N1; subst; constructor; auto.
  - match goal with N : no_recast _ |- _ => inversion N; subst end. constructor; [auto|constructor].
  - match goal with N : no_recast _ |- _ => inversion N as [| | | | | | |? ? ? N1| |]; subst; inversion N1; subst end. constructor; [|constructor]. constructor; auto.
  - match goal with N : no_recast _ |- _ => inversion N; subst end. constructor; auto.
  - match goal with N : no_recast _ |- _ => inversion N; subst end. constructor; auto.
  - match goal with N : no_recast _ |- _ => inversion N; subst end. constructor; auto.
  - match goal with N : no_recast _ |- _ => inversion N; subst end. constructor; eauto using type_real.
  - match goal with N : no_recast _ |- _ => inversion N; subst end. constructor; auto.
  - match goal with N : no_recast _ |- _ => inversion N; subst end. constructor; auto.
  - match goal with N : no_recast _ |- _ => inversion N; subst end. constructor; auto.
Qed.
End S.
