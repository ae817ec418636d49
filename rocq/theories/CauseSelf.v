(** A macro is made of what occurs in it. *)
From Verif Require Import Base Utf Lex LexFloat Token Ast ParseStmt Rust Finish Codegen StrFacts FinishFacts SpecAccept SpecCause CauseFacts.
From Coq Require Import String List Bool.
Import ListNotations.
Local Open Scope string_scope.
Local Open Scope list_scope.

Section Self.
Context {U : Unicode}.
Variable cx : cgctx.
Variable b : macro_body.
Definition Hwide : Prop := exists l, In (ELit l) (body_parts b) /\ wide l.
Definition Hderef : Prop := exists e, In (EUnary UDeref e) (body_parts b).
Definition Hcall : Prop := exists n l, In (ECall n l) (body_parts b).
Definition Hcomp : Prop := exists e, In (EUnary UComp e) (body_parts b).
Definition Hbad : Prop := exists e, In (EStringify e) (body_parts b) /\ ~ stringifiable e.
Definition Hdyn : Prop := exists x, In (EStringify (EVar (IPlain x))) (body_parts b) /\ line_or_file x.
Definition Hcw : Prop := exists l x, In (EConcat l) (body_parts b) /\ In (ELit (LString (SWide x))) l.
Definition Hcv : Prop := exists l x, In (EConcat l) (body_parts b) /\ In (EVar (IPlain x)) l /\ x <> st "__FILE__".
Definition Hpaste : Prop := exists l z, In (IConcat l) (body_names b) /\ In (IpInt z) l.
Definition Hassign : Prop := exists l op r, In (EBinary l op r) (body_parts b) /\ assigns op.
Notation eok := (expr_ok (type_used cx b) (value_used cx b) (call_used b) Hwide Hderef Hcall Hcomp Hbad Hdyn Hcw Hcv Hpaste Hassign).
Notation sok := (stmt_ok (type_used cx b) (value_used cx b) (call_used b) Hwide Hderef Hcall Hcomp Hbad Hdyn Hcw Hcv Hpaste Hassign).

Lemma name_self n : In n (body_names b) -> name_ok Hpaste n.
Proof. destruct n; cbn; auto. intros N z Z. exists l, z. auto. Qed.
Lemma type_self t : In t (body_types b) -> type_ok (type_used cx b) Hpaste t.
Proof.
  intros T n N. split.
  - apply name_self. unfold body_names. apply in_or_app. right. apply in_or_app. left. apply in_flat_map. exists t. rewrite N. cbn. auto.
  - destruct n; try exact I. eapply used_written; eauto.
Qed.
Lemma stringifiable_dec e : stringifiable e \/ ~ stringifiable e.
Proof.
  destruct e as [[]| | | | | | | | |]; cbn; auto. unfold line_or_file. destruct (str_eqb id (st "__LINE__")) eqn:E1; [left; left; now apply str_eqb_eq|].
  destruct (str_eqb id (st "__FILE__")) eqn:E2; [left; right; now apply str_eqb_eq|]. right. intros [->| ->]; [vm_compute in E1|vm_compute in E2]; discriminate.
Qed.
Lemma parts_self e : In e (parts e).
Proof. destruct e; now left. Qed.
Lemma all_intro {A} (P : A -> Prop) l : (forall x, In x l -> P x) -> all P l.
Proof. induction l; cbn; auto. Qed.
Lemma part_type t : In t (part_types (body_parts b)) -> In t (body_types b).
Proof. intro H. unfold body_types. apply in_or_app. now left. Qed.
Lemma part_name n e : In e (body_parts b) -> (e = EVar n \/ exists l, e = ECall n l) -> In n (body_names b).
Proof. intros H E. unfold body_names. apply in_or_app. left. apply in_flat_map. exists e. split; [exact H|]. destruct E as [->|[l ->]]; cbn; auto. Qed.
Lemma cast_type t e : In e (body_parts b) -> (e = ESizeOf t \/ exists a, e = ECast t a) -> In t (body_types b).
Proof. intros H E. apply part_type. unfold part_types. apply in_flat_map. exists e. split; [exact H|]. destruct E as [->|[l ->]]; cbn; auto. Qed.

Lemma expr_self e : incl (parts e) (body_parts b) -> eok e.
Proof.
  induction e as [v|v l IHl|ty e IHe|l|a IHa|l IHl|ty|op e IHe|x op y IHa IHb|x y d IHa IHb IHd] using expr_ind'; intro S;
    pose proof (S _ (parts_self _)) as HE; cbn [parts] in S.
  - cbn [expr_ok]. split; [eapply name_self, part_name; eauto|]. destruct v; try exact I. left. exact HE.
  - cbn [expr_ok]. split; [exists v, l; exact HE|]. split; [eapply name_self, part_name; eauto|]. split; [destruct v; try exact I; exists l; exact HE|].
    apply all_intro. intros x X. rewrite Forall_forall in IHl. apply IHl; [exact X|]. intros y Y. apply S. right. apply in_flat_map. eauto.
  - split; [eapply type_self, cast_type; eauto|]. apply IHe. intros y Y. apply S. now right.
  - intro W. exists l. auto.
  - split; [destruct (stringifiable_dec a); [now left|right; exists a; auto]|]. destruct a as [[]| | | | | | | | |]; try exact I. intro L. exists id. auto.
  - split; apply all_intro; intros x X.
    + destruct x as [[]| | |[|[]| |]| | | | | |]; try exact I; cbn; [intro N; exists l, id; auto|]. eexists; eexists; eauto.
    + rewrite Forall_forall in IHl. apply IHl; [exact X|]. intros y Y. apply S. right. apply in_flat_map. eauto.
  - eapply type_self, cast_type; eauto.
  - split; [intros ->; exists e; exact HE|]. split; [intros ->; exists e; exact HE|]. apply IHe. intros y Y. apply S. now right.
  - split; [intro A; exists x, op, y; auto|]. split; [apply IHa|apply IHb]; intros z Z; apply S; right; apply in_or_app; auto.
  - split; [apply IHa|split; [apply IHb|apply IHd]]; intros z Z; apply S; right; apply in_or_app; auto; right; apply in_or_app; auto.
Qed.
Lemma stmt_self s : incl (stmt_parts s) (body_parts b) -> incl (declared s) (body_types b) -> incl (declared_names s) (body_names b) -> sok s.
Proof.
  assert (SUB : forall {A B} (f : A -> list B) l big, incl (flat_map f l) big -> forall x, In x l -> incl (f x) big).
  { intros A B f l big H x X y Y. apply H, in_flat_map. eauto. }
  assert (AP : forall {A} (x y big : list A), incl (x ++ y) big -> incl x big /\ incl y big).
  { intros A x y big H. split; intros z Z; apply H, in_or_app; auto. }
  induction s as [a|e|d|d|l IHl|e x y IHa IHb|l e IHl] using stmt_ind'; cbn [stmt_parts declared declared_names stmt_ok]; intros P D N.
  - apply AP in P as [P1 P2]. split; apply all_intro; intros z Z; apply expr_self; eapply (SUB _ _ (fun x => parts (snd x))); eauto.
  - now apply expr_self.
  - split; [apply type_self, D; now left|]. apply all_intro. intros z Z. apply type_self, D. right. now apply in_map.
  - split; [apply type_self, D; now left|]. split; [apply name_self, N; now left|]. now apply expr_self.
  - apply all_intro. intros z Z. rewrite Forall_forall in IHl. apply IHl; eauto.
  - apply AP in P as [P1 P2]. apply AP in P2 as [P2 P3]. apply AP in D as [D1 D2]. apply AP in N as [N1 N2]. rewrite Forall_forall in IHa, IHb.
    split; [now apply expr_self|]. split; apply all_intro; intros z Z; [apply IHa|apply IHb]; eauto.
  - apply AP in P as [P1 P2]. split; [|now apply expr_self]. apply all_intro. intros z Z. rewrite Forall_forall in IHl. apply IHl; eauto.
Qed.
End Self.
Lemma body_self {U : Unicode} cx b : mbody_ok (type_used cx b) (value_used cx b) (call_used b) (Hwide b) (Hderef b) (Hcall b) (Hcomp b) (Hbad b) (Hdyn b) (Hcw b) (Hcv b) (Hpaste b) (Hassign b) b.
Proof.
  destruct b as [s|e]; cbn [mbody_ok].
  - apply stmt_self; intros x X; unfold body_parts, body_types, body_names; auto; repeat (apply in_or_app; right); exact X.
  - apply expr_self. intros x X. exact X.
Qed.

Section Errors.
Context {U : Unicode}.
Variable cx : cgctx.
Lemma err_cause name args b v e :
  err_ok cx (type_used cx b) (value_used cx b) (call_used b) (Hderef b) (Hcall b) (Hcomp b) (Hbad b) (Hcw b) (Hcv b) (Hpaste b) v e -> cause cx name args b v e.
Proof.
  destruct e as [x| | |x|x]; cbn [err_ok cause]; try contradiction.
  - exact (fun H => H).
  - intros [[H1 H2]|(s0 & H & R)]; [left; auto|]. right. exists s0. split; [|exact R]. unfold stated_ok, stated in *. tauto.
Qed.
Lemma wide_used b : Hwide b -> type_used cx b (st "wchar_t").
Proof. intros (l & H & W). eapply used_wide; eauto. Qed.

Lemma var_cause m e : snd (var_generate cx m) = RErr e -> cause cx (vm_name m) [] (vm_body m) true e.
Proof.
  unfold var_generate. destruct (vm_body m) as [s|x] eqn:B; [intros [= <-]; split; eauto|].
  pose proof (exp_ok cx (type_used cx (MbExpr x)) (value_used cx (MbExpr x)) (call_used (MbExpr x)) (Hwide (MbExpr x)) (Hderef (MbExpr x)) (Hcall (MbExpr x)) (Hcomp (MbExpr x))
    (Hbad (MbExpr x)) (Hdyn (MbExpr x)) (Hcw (MbExpr x)) (Hcv (MbExpr x)) (Hpaste (MbExpr x)) (Hassign (MbExpr x)) true
    (fun x H => or_intror H) (fun x s y => used_stated cx _ x s y) (wide_used _) x (var_lctx cx) (body_self cx (MbExpr x))) as J.
  assert (C0 : ctx_ok cx (value_used cx (MbExpr x)) (Hdyn (MbExpr x)) (Hassign (MbExpr x)) true (var_lctx cx)) by (split; [reflexivity|discriminate]).
  specialize (J C0). destruct (expr_finish cx x (var_lctx cx)) as [[e' c] f]. destruct J as (J1 & J2 & J3). cbn [snd].
  destruct f as [t|e0| |]; cbn [ofres]; try discriminate.
  - intro E. assert (lc_macro c = true /\ e = NonConstantVarMacro) as [M ->].
    { match type of E with (x <- ?r ;; _) = _ => destruct r as [v|e1| |] eqn:R; cbn in E; try discriminate end.
      - destruct (lc_macro c); [|discriminate]. injection E as <-. auto.
      - exfalso. clear -R. destruct e' as [| | |[]| | | | | |]; repeat match type of R with context[opanic ?o] => destruct o; cbn in R; try discriminate end; destruct t; try discriminate; repeat match type of R with context[opanic ?o] => destruct o; cbn in R; try discriminate end. }
    split; [reflexivity|]. apply J2; auto.
  - intros [= <-]. now apply err_cause.
Qed.
Lemma args_cause name l e : arg_types cx name l = RErr e -> exists a s t, In a l /\ cx_arg_ty cx name a = Some s /\ refused s = Some t /\ e = UnsupportedType t.
Proof.
  induction l as [|a l IH]; cbn [arg_types]; [discriminate|]. destruct (cx_arg_ty cx name a) as [s|] eqn:Q.
  - destruct (from_rust_ty (cx_ffi cx) s) as [t|e1| |] eqn:R; cbn; try discriminate.
    + destruct (arg_types cx name l) as [x|e1| |]; cbn; try discriminate. intros [= <-]. destruct (IH eq_refl) as (a0 & s0 & t0 & H & H2). exists a0, s0, t0. split; [now right|exact H2].
    + intros [= <-]. destruct (from_err _ _ _ R) as (t & R2 & ->). exists a, s, t. split; [now left|auto].
  - cbn. destruct (arg_types cx name l) as [x|e1| |]; cbn; try discriminate. intros [= <-]. destruct (IH eq_refl) as (a0 & s0 & t0 & H & H2). exists a0, s0, t0. split; [now right|exact H2].
Qed.
Lemma bind_panic {A B} (o : option A) (k : A -> res cgerr B) e : (x <- opanic o ;; k x) = RErr e -> exists x, o = Some x /\ k x = RErr e.
Proof. destruct o; cbn; [eauto|discriminate]. Qed.
Lemma fn_cause m e : snd (fn_generate cx m) = RErr e -> cause cx (fm_name m) (fm_args m) (fm_body m) false e.
Proof.
  unfold fn_generate. destruct (arg_types cx (fm_name m) (fm_args m)) as [tys|e1| |] eqn:A; cbn [snd]; try discriminate.
  2: { intros [= <-]. destruct (args_cause _ _ _ A) as (a & s & t & I & S & R & ->). right. exists s. split; [|exact R]. do 4 right. eauto. }
  set (b := fm_body m) in *. set (c0 := mk_lctx _ _ _ _ _ _).
  assert (C0 : ctx_ok cx (value_used cx b) (Hdyn b) (Hassign b) false c0) by (split; [reflexivity|discriminate]).
  pose proof (body_ok cx (type_used cx b) (value_used cx b) (call_used b) (Hwide b) (Hderef b) (Hcall b) (Hcomp b)
    (Hbad b) (Hdyn b) (Hcw b) (Hcv b) (Hpaste b) (Hassign b) false
    (fun x H => or_intror H) (fun x s y => used_stated cx _ x s y) (wide_used _) eq_refl b c0 (body_self cx b) C0) as J.
  destruct (body_finish cx b c0) as [[b' c] f]. destruct J as (J1 & J2 & J3). cbn [snd].
  destruct f as [t|e0| |]; cbn [ofres]; try discriminate.
  - intro E. exfalso. revert E. cbn zeta. intro E. apply bind_panic in E as (nm & _ & E). apply bind_panic in E as (bd & _ & E).
    destruct (lc_macro _).
    + apply bind_panic in E as (ar & _ & E). apply bind_panic in E as (mi & _ & E). discriminate.
    + apply bind_panic in E as (ar & _ & E). destruct t as [t|]; [|discriminate]. destruct (ty_is_void t); [discriminate|]. destruct (ty_toks _ _ t); discriminate.
  - intros [= <-]. now apply err_cause.
Qed.
End Errors.
