(** C63: what is generated means what was written. *)
From Verif Require Import Base Utf Lex LexFloat Token Ast Nom ParseTok ParseExpr ParseStmt Rust Finish Codegen StrFacts FinishFacts
  SpecMeaning MeaningFacts SpecRustExpr SpecTree RustExprFacts TreeFacts PropTree SpecStmt StmtFacts PropStmt PropValue PropFnGen.
From Coq Require Import String List ZArith SpecFloat Lia.
Import ListNotations.
Local Open Scope string_scope.
Local Open Scope list_scope.

(** ** Invariants of rewriting *)

Section Inv.
Variable cx : cgctx.
Hypothesis closed : closed_context cx.

Lemma from_rust_plain p r : forall n s, from_rust_ty p r = ROk (TyIdent n s) -> s = false /\ exists id, n = IPlain id.
Proof.
  induction r as [m r IH| |q pa|v l|v l]; intros n s; cbn [from_rust_ty].
  - destruct (from_rust_ty p r) as [t| | |]; cbn [rbind]; try discriminate. destruct m; discriminate.
  - discriminate.
  - destruct (builtin_from_rust q pa p); [discriminate|]. destruct (sp_colon pa); [discriminate|].
    destruct (sp_segs pa) as [|x [|]]; try discriminate. intros E; injection E as <- <-. eauto.
  - intros E; injection E as <- <-. eauto.
  - discriminate.
Qed.
Lemma resolved_type id r n s : cx_ty cx id = Some r -> from_rust_ty (cx_ffi cx) r = ROk (TyIdent n s) ->
  s = false /\ exists id', n = IPlain id' /\ cx_ty cx id' <> None.
Proof.
  intros R F. destruct (from_rust_plain _ _ _ _ F) as [-> [id' ->]]. split; [reflexivity|]. exists id'. split; [reflexivity|].
  apply closed. exists id, r. auto.
Qed.

Definition type_uses (t : ctype) : list ident_expr := match t with TyIdent n false => used cx n | _ => [] end.
Lemma uses_cast t e : uses cx (ECast t e) = type_uses t ++ uses cx e.
Proof. destruct t as [|n []| | |]; reflexivity. Qed.
Lemma given_no_use id r t : cx_ty cx id = Some r -> from_rust_ty (cx_ffi cx) r = ROk t -> type_uses t = [].
Proof.
  intros R F. destruct t as [|n s| | |]; try reflexivity. destruct (resolved_type _ _ _ _ R F) as [-> (id' & -> & N)].
  cbn. destruct (cx_ty cx id'); [reflexivity|now destruct N].
Qed.
Lemma type_uses_means t t' : type_means cx t t' -> type_uses t = type_uses t'.
Proof.
  intros H. destruct H as [t|id s r t R F|t t' H|t t' q H]; try reflexivity.
  rewrite (given_no_use _ _ _ R F). cbn. rewrite R. now destruct s.
Qed.
Lemma used_not_type n : not_a_type cx n -> used cx n = [n].
Proof. destruct n as [i|id|l]; try reflexivity. intros [N _]. cbn. now rewrite N. Qed.
Definition content_uses (l : list (N + expr)) : list ident_expr := flat_map (fun x => match x with inl _ => [] | inr e => uses cx e end) l.
Lemma content_uses_spec l : flat_map (uses cx) l = content_uses (content l).
Proof.
  induction l as [|x l IH]; [reflexivity|]. cbn [flat_map]. rewrite content_cons. unfold content_uses. rewrite flat_map_app. f_equal; [|exact IH].
  assert (B : forall b : list N, flat_map (fun x : N + expr => match x with inl _ => [] | inr e => uses cx e end) (map inl b) = []).
  { induction b as [|y b IHb]; [reflexivity|exact IHb]. }
  destruct x as [| | |[|[]| |]| | | | | |]; cbn [piece]; try (now rewrite B); cbn [flat_map]; now rewrite app_nil_r.
Qed.
Lemma means_uses (A : expr -> expr -> Prop) : (forall x y, A x y -> uses cx x = uses cx y) -> forall e e', means cx A e e' -> uses cx e = uses cx e'.
Proof.
  intros HA e e' H.
  induction H as [e|a b d H1 IH1 H2 IH2|e e' H|n l e e' r H IH|t e e' H IH|op e e' H IH|e e' op r H IH|l op e e' H IH
    |e e' a b H IH|a e e' b H IH|a b e e' H IH|l e e' r H IH|t t' e T|t t' T|x t T|b q Hq|i|f|v s v' s' S1 S2|f|v s Hv|v s Hv|f Z|f Z
    |op a b v s t u R K|op a b f R|e a b|l l' C|e|n op op' e N Ei|t n e N];
    rewrite ?uses_cast; cbn [uses]; rewrite ?flat_map_app; cbn [flat_map]; try reflexivity; try (now rewrite IH).
  - congruence.
  - now apply HA.
  - now rewrite (type_uses_means _ _ T).
  - destruct T as [b|b|x|x|x r t R F]; try reflexivity. now rewrite (given_no_use _ _ _ R F).
  - now rewrite app_nil_r.
  - now rewrite !content_uses_spec, C.
  - now rewrite app_nil_r.
  - cbn. now rewrite (used_not_type n N).
  - change (type_uses (TyIdent n false)) with (used cx n). rewrite (used_not_type n N).
    destruct t as [|m []| | |]; cbn; rewrite <- ?app_assoc; reflexivity.
Qed.

(** What has no approximation never gets one. *)
Notation P := (no_approximation cx).
Lemma no_list d l : fold_right (fun x p => P d x /\ p) True l <-> Forall (P d) l.
Proof.
  induction l as [|x l IH]; cbn [fold_right]; [split; auto|]. rewrite IH. split.
  - intros [H1 H2]. now constructor.
  - intros F. inversion F; auto.
Qed.
Lemma may_cast_means d t t' : type_means cx t t' -> may_cast cx d t -> may_cast cx d t'.
Proof.
  intros H. destruct H as [t|id s r t R F|t t' H|t t' q H]; try easy.
  intros [H1 H2]. destruct t as [|n s'| | |]; try exact I. destruct (resolved_type _ _ _ _ R F) as [-> (id' & -> & N)].
  split; [eauto|]. intros D. specialize (H2 D id eq_refl). congruence.
Qed.
Lemma not_limit n : not_a_type cx n -> (is_limit n -> exists id, n = IPlain id /\ cx_ty cx id <> None) -> ~ is_limit n.
Proof. intros N H L. destruct (H L) as (id & -> & X). now destruct N. Qed.
Definition P_content (d : bool) (l : list (N + expr)) : Prop := Forall (fun x => match x with inl _ => True | inr e => P d e end) l.
Lemma P_content_spec d l : Forall (P d) l <-> P_content d (content l).
Proof.
  induction l as [|x l IH]; [split; constructor|]. rewrite content_cons. unfold P_content. rewrite Forall_app, Forall_cons_iff, IH.
  assert (B : forall b : list N, Forall (fun x : N + expr => match x with inl _ => True | inr e => P d e end) (map inl b)).
  { induction b; constructor; auto. }
  assert (S : P d x <-> Forall (fun x : N + expr => match x with inl _ => True | inr e => P d e end) (piece x)); [|unfold P_content; tauto].
  destruct x as [| | |[|[]| |]| | | | | |]; cbn [piece]; try (split; [intros _; apply B|intros _; exact I]);
    (split; [intros H; constructor; [exact H|constructor]|intros H; inversion H; assumption]).
Qed.
Lemma means_P d e e' : means cx exactly e e' -> P d e -> P d e'.
Proof.
  intros H.
  induction H as [e|a b c H1 IH1 H2 IH2|e e' H|n l e e' r H IH|t e e' H IH|op e e' H IH|e e' op r H IH|l op e e' H IH
    |e e' a b H IH|a e e' b H IH|a b e e' H IH|l e e' r H IH|t t' e T|t t' T|x t T|b q Hq|i|f|v s v' s' S1 S2|f|v s Hv|v s Hv|f Z|f Z
    |op a b v s t u R K|op a b f R|e a b|l l' C|e|n op op' e N Ei|t n e N]; cbn [no_approximation]; rewrite ?no_list;
    try tauto; try (intros [[] _]; fail).
  - now destruct H.
  - rewrite !Forall_app, !Forall_cons_iff. tauto.
  - rewrite !Forall_app, !Forall_cons_iff. tauto.
  - intros [H1 H2]. split; [exact H1|]. eapply may_cast_means; eauto.
  - intros H. split; [exact H|]. destruct T as [b|b|x|x|x r t R F]; try exact I. destruct t as [|n s| | |]; try exact I.
    destruct (resolved_type _ _ _ _ R F) as [-> (id' & -> & N)]. split; [eauto|]. intros D. congruence.
  - change (P d (int_lit 0 None)) with True. tauto.
  - now rewrite !P_content_spec, C.
  - now rewrite Forall_cons_iff.
  - intros [[H1 H2] [H3 _]]. split; [exact (not_limit n N H3)|exact H1].
  - intros [[[[H1 H2] _] [H3 _]] H4]. repeat split; auto. exact (not_limit n N H3).
Qed.
Lemma approximation_P d e e' : approximation cx e e' -> P d e -> False.
Proof.
  intros H. destruct H as [v op f|f op v|s b op i Hi Ho|s b op i Hi Ho|l x s r Hx|t id e N]; cbn [no_approximation]; rewrite ?no_list.
  - tauto.
  - tauto.
  - intros [H _]. apply H. exists s, b. auto.
  - intros [_ H]. apply H. exists s, b. auto.
  - rewrite Forall_app, Forall_cons_iff. intros [_ [H _]]. destruct Hx as [-> | ->]; exact H.
  - intros [[[_ H] [_ H']] _]. apply N, H'; auto.
Qed.

End Inv.

(** ** Expressions *)

Section Main.
Context {U : Unicode}.
Variable cx : cgctx.
Hypothesis closed : closed_context cx.

Lemma finish_approx e c e' c' f : expr_finish cx e c = (e', c', f) -> means cx (approximation cx) e e'.
Proof.
  intros E. eapply (finish_means cx (approximation cx) (fun _ => True) closed); try exact E; auto;
    intros; apply Forall_forall; auto.
Qed.
Lemma finish_exact d e c e' c' f : expr_finish cx e c = (e', c', f) -> no_approximation cx d e -> means cx exactly e e'.
Proof.
  intros E H. eapply (finish_means cx exactly (no_approximation cx d) closed); try exact E; try exact H.
  - intros x y A B. destruct (approximation_P _ _ _ _ A B).
  - intros x y. apply (means_P cx closed).
  - intros n l. cbn [no_approximation]. apply no_list.
  - intros t x. cbn [no_approximation]. tauto.
  - intros l. cbn [no_approximation]. apply no_list.
  - intros op x. cbn [no_approximation]. tauto.
  - intros a op b. cbn [no_approximation]. tauto.
  - intros a b x. cbn [no_approximation]. tauto.
Qed.

(** ** Statements *)

Lemma Forall2_imp {X Y} (R S : X -> Y -> Prop) l l' : (forall x y, R x y -> S x y) -> Forall2 R l l' -> Forall2 S l l'.
Proof. intros H. induction 1; constructor; auto. Qed.
Lemma resolved_means t t' : resolved cx t t' -> type_means cx t t'.
Proof. intros (c & c' & r & E). eapply ty_finish_means; eauto. Qed.
Lemma infers_means e e' t : infers_to cx e e' t -> means cx (approximation cx) e e'.
Proof. intros (c & c' & E). eapply finish_approx; eauto. Qed.
Lemma condition_ok e e' : as_condition cx e e' -> condition_means cx (approximation cx) e e'.
Proof. intros (e1 & t & I & [[_ ->]|[_ ->]]); [apply cm_same|apply cm_zero]; eapply infers_means; eauto. Qed.
Scheme settled_mut := Induction for settled Sort Prop with settled_all_mut := Induction for settled_all Sort Prop.
Lemma settled_means s s' : settled cx s s' -> stmt_means cx (approximation cx) s s'.
Proof.
  intros H. pattern s, s', H.
  apply (settled_mut cx (fun s s' _ => stmt_means cx (approximation cx) s s') (fun l l' _ => stmts_mean cx (approximation cx) l l')).
  - intros a a' E1 E2 F1 F2. apply sm_asm; auto.
    + eapply Forall2_imp; [|exact F1]. intros o o' [Ho [t Ht]]. split; [exact Ho|]. eapply infers_means; eauto.
    + eapply Forall2_imp; [|exact F2]. intros o o' [Ho [t Ht]]. split; [exact Ho|]. eapply infers_means; eauto.
  - intros e e' t I. apply sm_expr. eapply infers_means; eauto.
  - intros d d' E R F. apply sm_fn; [exact E|now apply resolved_means|]. eapply Forall2_imp; [|exact F]. intros p p' [E1 E2]. split; [exact E1|now apply resolved_means].
  - intros d d' t E1 E2 R I. apply sm_var; auto; [now apply resolved_means|eapply infers_means; eauto].
  - intros. now apply sm_block.
  - intros. apply sm_if; auto. now apply condition_ok.
  - intros. apply sm_do; auto. now apply condition_ok.
  - constructor.
  - intros. now constructor.
  - exact H.
Qed.

End Main.

(** ** Generated items *)

(** The expression that is generated for a function-like macro is the parsed one,
    rewritten by steps that keep the meaning, except for the approximations; and
    this is how the generated text is read (C36). *)
Theorem C63_function_partial {U : Unicode} cx m m' e ts :
  closed_context cx -> plain_context cx -> fm_body m = MbExpr e -> fn_generate cx m = (m', ROk ts) ->
  exists c e' body, lc_names c = fm_args m /\ fm_body m' = MbExpr e' /\
    means cx (approximation cx) e e' /\ (forall d, no_approximation cx d e -> means cx exactly e e' /\ uses cx e' = uses cx e) /\
    ((exists params ret, ts = function_item (fm_name m) params ret body) \/
     (exists patterns, ts = macro_item (fm_name m) patterns body)) /\
    (fine cx c e' -> exists x, tree cx c e' x /\ reads body x).
Proof.
  intros C P B G. destruct (fn_expr cx m m' e ts B G) as (c0 & e' & c1 & t & F & B').
  destruct (C36_generate_partial cx m m' e' ts P G B') as (c & body & Nm & S & H).
  exists c, e', body. split; [exact Nm|]. split; [exact B'|]. split; [eapply finish_approx; eauto|]. split.
  - intros d N. assert (M : means cx exactly e e') by (eapply finish_exact; eauto). split; [exact M|].
    symmetry. eapply means_uses; [exact C| |exact M]. intros x y [].
  - split; [destruct S as [[_ S]|[_ S]]; auto|]. intros Fi. destruct (H Fi) as (x & T & R & _). eauto.
Qed.

(** The same for a constant. *)
Theorem C63_constant_partial {U : Unicode} cx m m' e ts ty :
  closed_context cx -> plain_context cx -> vm_body m = MbExpr e -> var_generate cx m = (m', ROk (ts, ty)) ->
  exists c e', lc_names c = [] /\ vm_body m' = MbExpr e' /\
    means cx (approximation cx) e e' /\ (forall d, no_approximation cx d e -> means cx exactly e e' /\ uses cx e' = uses cx e) /\
    ((forall s, e' <> ELit (LString s)) -> fine cx c e' -> exists x, tree cx c e' x /\ reads ts x).
Proof.
  intros C P B G. unfold var_generate in G. rewrite B in G.
  destruct (expr_finish cx e (var_lctx cx)) as [[e' c] f] eqn:F. cbn beta iota in G.
  pose proof (f_equal fst G) as Em. apply (f_equal snd) in G. cbn [snd fst] in G, Em. subst m'.
  destruct f as [o|er| |]; cbn [ofres] in G; try discriminate G.
  assert (Q : lc_names c = []).
  { pose proof (expr_good cx e (var_lctx cx)) as Q. rewrite F in Q. destruct Q as (_ & (Q1 & _) & _). exact Q1. }
  exists c, e'. split; [exact Q|]. split; [reflexivity|]. split; [eapply finish_approx; eauto|]. split.
  - intros d N. assert (M : means cx exactly e e') by (eapply finish_exact; eauto). split; [exact M|].
    symmetry. eapply means_uses; [exact C| |exact M]. intros x y [].
  - intros Ns Fi. apply rbind_inv in G as (y & Ey & G). destruct (lc_macro c) eqn:M; [discriminate G|]. injection G as ->.
    assert (Ey2 : (us <- opanic (etoks cx c e') ;; match o with Some t => y <- opanic (ty_toks cx c t) ;; ROk (us, Some y) | None => ROk (us, None) end) = (ROk (ts, ty) : res cgerr _)).
    { destruct e' as [| | |[|s| |]| | | | | |]; try exact Ey. destruct (Ns s eq_refl). }
    apply rbind_inv in Ey2 as (us & E1 & E2). apply opanic_inv in E1.
    assert (Eu : us = ts). { destruct o as [t0|]; [apply rbind_inv in E2 as (ws & E3 & E4); now injection E4 as -> _|now injection E2 as -> _]. }
    subst us. destruct (C36_partial cx c e' ts P Fi E1) as (x & T & R & _). eauto.
Qed.

(** The same for statements. *)
Theorem C63_statement_partial {U : Unicode} cx m m' s ts :
  closed_context cx -> plain_context cx -> fm_body m = MbStatement s -> fn_generate cx m = (m', ROk ts) ->
  exists c s' body, lc_names c = fm_args m /\ fm_body m' = MbStatement s' /\ stmt_means cx (approximation cx) s s' /\
    ((exists params, ts = function_item (fm_name m) params None body) \/
     (exists patterns, ts = macro_item (fm_name m) patterns body)) /\
    (sfine cx c s' -> exists b r, reads_block body b /\ flat b = [r] /\ stree cx c s' r).
Proof.
  intros C P B G. destruct (C51_generate_partial cx m m' s ts P B G) as (c & s' & body & Nm & B' & S & I & H).
  exists c, s', body. split; [exact Nm|]. split; [exact B'|]. split; [now apply settled_means|]. split; [exact I|].
  intros Fi. destruct (H Fi) as (b & r & R1 & R2 & R3 & _). eauto.
Qed.

(** ** Cases *)

Section Demo.
#[local] Existing Instance demo_unicode.
Let I (s : string) := MIdent (st s).
Let P (s : string) := MPunct (st s).
Let L (z : Z) := MLit (LInt (mk_int z None)).

Lemma closed_unit : closed_context cx_unit.
Proof. intros id (id' & r & E & _). discriminate E. Qed.

(** [#define F(a, b) (a) & -(b) ? 'x' : 1 + 2 * 3]: the first operation is no cast,
    the condition is a truth value, the character is a [char] and the sum is 7. *)
Definition demo_parsed : expr :=
  ETernary (ECast (TyIdent (IArg 0) false) (EUnary UAddrOf (EUnary UMinus (EVar (IArg 1)))))
    (ELit (LChar (COrdinary 120))) (EBinary (int_lit 1 None) OAdd (EBinary (int_lit 2 None) OMul (int_lit 3 None))).
Definition demo_finished : expr :=
  ETernary (EBinary (EBinary (EVar (IArg 0)) OBitAnd (EUnary UMinus (EVar (IArg 1)))) ONeq (int_lit 0 None))
    (ECast (TyBuiltIn BChar) (ELit (LChar (COrdinary 120)))) (int_lit 7 None).
Definition demo_macro (e : expr) : fn_macro := mk_fn_macro (st "F") [st "a"; st "b"] (MbExpr e).
Example C63_case : exists ts, fn_generate cx_unit (demo_macro demo_parsed) = (demo_macro demo_finished, ROk ts) /\
  closed_context cx_unit /\ plain_context cx_unit /\ no_approximation cx_unit false demo_parsed /\
  means cx_unit exactly demo_parsed demo_finished.
Proof.
  assert (G : exists ts, fn_generate cx_unit (demo_macro demo_parsed) = (demo_macro demo_finished, ROk ts)) by (eexists; vm_compute; reflexivity).
  destruct G as [ts G]. exists ts. split; [exact G|]. split; [apply closed_unit|]. split; [apply plain_unit|].
  assert (N : no_approximation cx_unit false demo_parsed).
  { cbn. repeat split; try discriminate; try (intros (s & b & _ & E); discriminate E). }
  split; [exact N|].
  destruct (C63_function_partial cx_unit (demo_macro demo_parsed) (demo_macro demo_finished) demo_parsed ts closed_unit plain_unit eq_refl G)
    as (c & e' & body & _ & B & _ & H & _).
  cbn in B. injection B as <-. now apply (H false).
Qed.

(** Refuted: next to a constant of type [double], an integer becomes a [float];
    [16777217 * 1.0] is 16777216. *)
Theorem C63_double_refuted : exists m ts m',
  vm_body m = MbExpr (EBinary (int_lit 16777217 None) OMul (ELit (LFloat (FDouble (S754_finite false 4503599627370496 (-52)))))) /\
  var_generate cx_unit m = (m', ROk (ts, Some [ri "f64"])) /\
  ts = [RLit (RlFloat 64 (binary_normalize 53 1024 16777216 0 false))] /\
  forall f, ieee OMul = Some f -> f 53%Z 1024%Z (binary_normalize 53 1024 16777217 0 false) (S754_finite false 4503599627370496 (-52)) =
    binary_normalize 53 1024 16777217 0 false.
Proof.
  eexists (mk_var_macro (st "X") _), _, _. cbn [vm_body]. split; [reflexivity|]. split; [vm_compute; reflexivity|]. split; [vm_compute; reflexivity|].
  intros f E. injection E as <-. vm_compute. reflexivity.
Qed.
(** Refuted: [__SCHAR_MAX__ + 200], which is 327, is computed as an [unsigned char]. *)
Theorem C63_limit_refuted : exists m ts m' ty,
  vm_body m = MbExpr (EBinary (EVar (IPlain (st "__SCHAR_MAX__"))) OAdd (int_lit 200 None)) /\
  var_generate cx_unit m = (m', ROk (ts, Some ty)) /\ vm_body m' = MbExpr (EBinary (ECast (TyBuiltIn BUChar) (EVar (IPlain (st "__SCHAR_MAX__")))) OAdd (int_lit 200 None)) /\
  ty = builtin_toks cx_unit BUChar.
Proof. eexists (mk_var_macro (st "X") _), _, _, _. cbn [vm_body]. split; [reflexivity|]. split; [vm_compute; reflexivity|]. split; reflexivity. Qed.
(** Refuted: the wide string [u"a" #x] is generated as a string of [char]. *)
Theorem C63_prefix_refuted : exists m m' ts,
  fm_body m = MbExpr (EConcat [ELit (LString (SUtf16 (st "a"))); EStringify (EVar (IArg 0))]) /\
  fn_generate cx_unit m = (m', ROk ts) /\
  fm_body m' = MbExpr (EConcat [ELit (LString (SOrdinary (st "a"))); EStringify (EVar (IArg 0))]).
Proof. eexists (mk_fn_macro (st "F") [st "x"] _), _, _. cbn [fm_body]. split; [reflexivity|]. split; [vm_compute; reflexivity|]. reflexivity. Qed.
(** Refuted: with a type [T], the cast [(int * const)(T)*(int * const)x] of what a
    pointer points to is generated as a product with a variable [T]. *)
Definition with_t : cgctx := mk_cgctx None None None (fun _ _ => None) (fun _ => None)
  (fun s => if str_eqb s (st "T") then Some (plain_ty "T") else None) (fun _ _ => None) (fun _ => None).
Theorem C63_product_refuted :
  let t := TyQual (TyPtr (TyBuiltIn BInt)) QConst in
  closed_context with_t /\ exists m m' ts, 
  fm_body m = MbExpr (ECast t (ECast (TyIdent (IPlain (st "T")) false) (EUnary UDeref (ECast t (EVar (IArg 0)))))) /\
  fn_generate with_t m = (m', ROk ts) /\ fm_body m' = MbExpr (EBinary (ECast t (EVar (IPlain (st "T")))) OMul (ECast t (EVar (IArg 0)))).
Proof.
  intros t. split.
  - intros id (id' & r & E1 & E2). cbn [with_t cx_ty] in *. destruct (str_eqb id' (st "T")); [|discriminate]. injection E1 as <-.
    vm_compute in E2. injection E2 as <-. discriminate.
  - eexists (mk_fn_macro (st "F") [st "x"] _), _, _. cbn [fm_body]. split; [reflexivity|]. split; [vm_compute; reflexivity|]. reflexivity.
Qed.
End Demo.

Print Assumptions C63_function_partial.
Print Assumptions C63_constant_partial.
Print Assumptions C63_statement_partial.
Print Assumptions C63_double_refuted.
Print Assumptions C63_limit_refuted.
Print Assumptions C63_prefix_refuted.
Print Assumptions C63_product_refuted.
