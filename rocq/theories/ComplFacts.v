(** Code is generated only if no [~] is applied to a floating-point or string literal. *)
From Verif Require Import Base Utf Lex LexFloat Token Ast ParseStmt Rust Finish Codegen StrFacts FinishFacts SpecAccept SpecCause.
From Coq Require Import String List Lia Bool.
Import ListNotations.
Local Open Scope list_scope.

Section Compl.
Context {U : Unicode}.
Variable cx : cgctx.

Fixpoint ncl (e : expr) : Prop :=
  match e with
  | EVar _ | ELit _ | EStringify _ | ESizeOf _ => True
  | ECall _ l | EConcat l => all ncl l
  | ECast _ e => ncl e
  | EUnary op e => (op = UComp -> ~ float_or_string e) /\ ncl e
  | EBinary a _ b => ncl a /\ ncl b
  | ETernary a b d => ncl a /\ ncl b /\ ncl d
  end.

(** What the result of finishing says about the expression finished. *)
Definition post (e : expr) (r : fin expr) : Prop :=
  let '(e', _, f) := r in (isok f -> ncl e) /\ (ncl e' -> ncl e) /\ (float_or_string e -> e' = e).

Lemma post_ok e e' c f : ncl e -> ~ float_or_string e -> post e (e', c, f).
Proof. unfold post. tauto. Qed.
Lemma post_bad e e' c f : ~ isok f -> (ncl e' -> ncl e) -> ~ float_or_string e -> post e (e', c, f).
Proof. unfold post. tauto. Qed.

Lemma list_ncl (f : expr -> lctx -> fin expr) l : Forall (fun e => forall c, post e (f e c)) l ->
  forall c l' c' r, list_finish f l c = (l', c', r) -> (isok r -> all ncl l) /\ (all ncl l' -> all ncl l).
Proof.
  induction 1 as [|e l HE HF IH]; intros c l' c' r; cbn [list_finish]; [intros [= <- <- <-]; split; auto|].
  pose proof (HE c) as P. destruct (f e c) as [[e1 c1] r1]. destruct P as (P2 & P3 & _). unfold fbind.
  destruct r1 as [o| | |]; try (intros [= <- <- <-]; split; [intros []|]; intros [X1 X2]; cbn; auto).
  destruct (list_finish f l c1) as [[l2 c2] r2] eqn:Q. destruct (IH c1 l2 c2 r2 Q) as (I2 & I3). intros [= <- <- <-].
  split; [intro K; split; auto; apply P2; exact I|]. intros [X1 X2]. split; auto.
Qed.
Lemma concat_ncl (f : expr -> lctx -> fin expr) l : Forall (fun e => forall c, post e (f e c)) l ->
  forall done acc cur c self names c' r, concat_finish f done l acc cur c = (self, names, c', r) ->
  (isok r -> all ncl l) /\ (exists l', self = EConcat (done ++ l') /\ (all ncl l' -> all ncl l)).
Proof.
  induction 1 as [|e l HE HF IH]; intros done acc cur c self names c' r; cbn [concat_finish].
  - intros [= <- <- <- <-]. split; [cbn; auto|]. exists []. rewrite app_nil_r. cbn. auto.
  - pose proof (HE c) as P. destruct (f e c) as [[e1 c1] r1]. destruct P as (P2 & P3 & _).
    assert (BAD : forall r0 n0, ~ isok r0 -> (EConcat (done ++ e1 :: l), n0, c1, r0) = (self, names, c', r) ->
      (isok r -> all ncl (e :: l)) /\ (exists l', self = EConcat (done ++ l') /\ (all ncl l' -> all ncl (e :: l)))).
    { intros r0 n0 K [= E1 E2 E3 E4]. subst. split; [tauto|]. exists (e1 :: l). split; [reflexivity|]. intros [Y1 Y2]. cbn. auto. }
    destruct r1 as [o| | |]; try (intro E; refine (BAD _ _ _ E); intros []).
    specialize (P2 I).
    assert (GO : forall acc' cur', concat_finish f (done ++ [e1]) l acc' cur' c1 = (self, names, c', r) ->
      (isok r -> all ncl (e :: l)) /\ (exists l', self = EConcat (done ++ l') /\ (all ncl l' -> all ncl (e :: l)))).
    { intros acc' cur' E. destruct (IH _ _ _ _ _ _ _ _ E) as (I2 & l' & I3 & I4). split; [intro K; cbn; auto|].
      exists (e1 :: l'). rewrite I3, <- app_assoc. split; [reflexivity|]. intros [Y1 Y2]. cbn. auto. }
    destruct e1 as [[]| | |[]| | | | | |]; try apply GO.
    + destruct (str_eqb id _); [apply GO|]. intro E. refine (BAD _ _ _ E). intros [].
    + destruct (lit_string_as_bytes _); [apply GO|]. intro E. refine (BAD _ _ _ E). intros [].
Qed.

Lemma fold_compl op e t e' r : unary_fold op e t = (e', r) -> isok r -> op = UComp -> ~ float_or_string e.
Proof.
  intros E K -> F. destruct e as [| | |l| | | | | |]; try contradiction. destruct l; try contradiction; cbn in E; injection E as _ <-; contradiction.
Qed.

Lemma cast_of_deref_ncl t e b : cast_of_deref t e = Some b -> ncl b -> ncl e.
Proof.
  unfold cast_of_deref. destruct e as [| |t2 e2| | | | | | |]; try discriminate. destruct t2 as [|nn []| | |]; try discriminate.
  destruct e2 as [| | | | | | |[] a| |]; try discriminate. destruct a as [| |t3 e3| | | | | | |]; try discriminate. destruct (ctype_eqb t t3); [|discriminate].
  intros [= <-] (_ & X). split; [discriminate|exact X].
Qed.

Lemma finish_ncl n : forall e c, post e (finish cx n e c).
Proof.
  induction n as [n IHn] using lt_wf_ind.
  assert (AGN : forall e c, post e (again_of cx n e c)).
  { intros e c. destruct n as [|n']; cbn [again_of]; [|apply IHn; auto]. split; [intros []|]. split; auto. }
  clear IHn.
  induction e as [v|v l IHl|ty e IHe|l|a IHa|l IHl|ty|op e IHe|a op b IHa IHb|a b d IHa IHb IHd] using expr_ind'; intros c; rewrite finish_eq; cbn [finish_step].
  - destruct (var_finish cx v c). now apply post_ok.
  - destruct (lc_var c); [apply post_bad; auto|]. destruct (ident_finish v c) as [c1 r].
    destruct r as [o| | |]; try (apply post_bad; auto).
    destruct (list_finish (finish cx n) l c1) as [[l1 c2] r] eqn:Q. destruct (list_ncl _ l IHl _ _ _ _ Q) as (K & X). unfold fbind.
    destruct r as [o2| | |]; try (apply post_bad; auto). destruct (call_types cx v l1 c2). apply post_ok; auto. apply K. exact I.
  - destruct (ty_finish cx ty c) as [[t1 c1] r1].
    assert (G : forall e2 c2 r2, post e (e2, c2, r2) ->
      post (ECast ty e) (match r2 with
        | FOk _ => match cast_as_binary cx t1 e2 with Some b => again_of cx n b c2
                   | None => if redundant_cast t1 e2 then (e2, c2, FOk (Some ty_const_char_ptr)) else (ECast t1 e2, c2, FOk (Some t1)) end
        | FErr (UnsupportedExpression m) => match cast_of_deref t1 e2 with Some b => again_of cx n b c2 | None => (ECast t1 e2, c2, r2) end
        | _ => (ECast t1 e2, c2, r2) end)).
    { intros e2 c2 r2 (P2 & P3 & _). destruct r2 as [o|[| | |m|]| |]; try (apply post_bad; cbn; auto).
      - specialize (P2 I). destruct (cast_as_binary cx t1 e2) as [b|].
        + pose proof (AGN b c2) as A. destruct (again_of cx n b c2) as [[x c3] r3]. apply post_ok; auto.
        + destruct (redundant_cast t1 e2); apply post_ok; auto.
      - destruct (cast_of_deref t1 e2) as [b|] eqn:B; [|apply post_bad; cbn; auto].
        pose proof (AGN b c2) as A. destruct (again_of cx n b c2) as [[x c3] r3]. destruct A as (A1 & A2 & _).
        pose proof (cast_of_deref_ncl _ _ _ B) as CB. split; [cbn; auto|]. split; [cbn; auto|intros []]. }
    destruct r1 as [o1| | |].
    + pose proof (IHe c1) as P. destruct (finish cx n e c1) as [[e2 c2] r2]. exact (G _ _ _ P).
    + apply (G e c1 (FErr e0)). split; [intros []|]. split; auto.
    + apply (G e c1 FPanic). split; [intros []|]. split; auto.
    + apply (G e c1 FFuel). split; [intros []|]. split; auto.
  - destruct l as [x|s|fl|it].
    + destruct (char_finish cx x c) as [[t|]| | |]; now apply post_ok.
    + split; [exact (fun _ => I)|]. split; auto.
    + split; [exact (fun _ => I)|]. split; auto.
    + now apply post_ok.
  - destruct (stringify_finish a c). now apply post_ok.
  - destruct (concat_finish (finish cx n) [] l [] None c) as [[[self names] c1] r] eqn:Q. destruct (concat_ncl _ l IHl _ _ _ _ _ _ _ _ Q) as (K & l' & -> & X).
    assert (PART : ~ isok r -> post (EConcat l) (EConcat ([] ++ l'), c1, r)) by (intro NK; now apply post_bad).
    destruct r as [o| | |]; try (destruct names as [|x1 [|x2 names]]; apply PART; intros []). specialize (K I).
    destruct names as [|x1 [|x2 names]]; try (apply post_ok; auto).
    destruct (again_of cx n x1 c1) as [[y c3] r3]. now apply post_ok.
  - unfold fbind. destruct (ty_finish cx ty c) as [[t1 c1] r1]. destruct r1; now apply post_ok.
  - pose proof (IHe c) as P. destruct (finish cx n e c) as [[e1 c1] r1]. destruct P as (P2 & P3 & P4). unfold fbind.
    assert (W : ncl (EUnary op e1) -> ncl (EUnary op e)).
    { intros [X Y]. split; [|auto]. intros Q F. specialize (P4 F). subst e1. exact (X Q F). }
    destruct r1 as [o| | |]; try (now apply post_bad). specialize (P2 I).
    destruct (unary_type op c1 o) as [t'| | |]; try (now apply post_bad).
    destruct (unary_fold op e1 t') as [e2 r] eqn:UF. split; [|split; [|intros []]].
    + intro K. split; [|exact P2]. intros Q F. specialize (P4 F). subst e1. exact (fold_compl _ _ _ _ _ UF K Q F).
    + intro X. split; [|exact P2]. intros Q F. specialize (P4 F). subst e1.
      subst op. destruct e as [| | |l| | | | | |]; try contradiction. destruct l; try contradiction; cbn in UF; injection UF as <- <-; exact (proj1 X eq_refl I).
  - pose proof (IHa c) as P. destruct (finish cx n a c) as [[a1 c1] r1]. destruct P as (P2 & P3 & _). unfold fbind.
    destruct r1 as [o| | |]; try (apply post_bad; [intros []|intros [X Y]; split; auto|auto]). specialize (P2 I).
    pose proof (IHb c1) as Q. destruct (finish cx n b c1) as [[b1 c2] r2]. destruct Q as (Q2 & Q3 & _).
    destruct r2 as [o2| | |]; try (apply post_bad; [intros []|intros [X Y]; split; auto|auto]). specialize (Q2 I).
    destruct (binary_types cx a1 op b1 o o2 c2) as [[[x y] c3] r3]. assert (N : ncl (EBinary a op b)) by (split; auto).
    destruct r3; try (now apply post_ok). cbn [fst snd]. destruct (binary_fold cx x op y t c3). now apply post_ok.
  - unfold condition_finish. pose proof (IHa c) as P. destruct (finish cx n a c) as [[a1 c1] r1]. destruct P as (P2 & P3 & _). unfold fbind.
    destruct r1 as [o| | |]; try (apply post_bad; [intros []|intros (X & Y & Z); split; auto|auto]). specialize (P2 I).
    pose proof (IHb c1) as Q. destruct (finish cx n b c1) as [[b1 c2] r2]. destruct Q as (Q2 & Q3 & _).
    destruct r2 as [o2| | |]; try (apply post_bad; [intros []|intros (X & Y & Z); split; auto|auto]). specialize (Q2 I).
    pose proof (IHd c2) as R. destruct (finish cx n d c2) as [[d1 c3] r3]. destruct R as (R2 & R3 & _).
    destruct r3 as [o3| | |]; try (apply post_bad; [solve [intros []]|intros (X & Y & Z); split; auto|auto]). specialize (R2 I).
    apply post_ok; auto. split; auto.
Qed.

Lemma exp_ncl e c e' c' f : expr_finish cx e c = (e', c', f) -> isok f -> ncl e.
Proof. intros E K. pose proof (finish_ncl (weight e) e c) as P. unfold expr_finish in E. rewrite E in P. exact (proj1 P K). Qed.
Lemma cond_ncl e c e' c' f : condition_finish (expr_finish cx) e c = (e', c', f) -> isok f -> ncl e.
Proof.
  unfold condition_finish, fbind. destruct (expr_finish cx e c) as [[e1 c1] r] eqn:E. intros Q K. eapply exp_ncl; [exact E|].
  destruct r; injection Q as <- <- <-; auto.
Qed.
Lemma exps_ncl l c l' c' f : list_finish (expr_finish cx) l c = (l', c', f) -> isok f -> all ncl l.
Proof.
  intros E. apply (list_ncl (expr_finish cx) l) with (c := c) (l' := l') (c' := c'); auto.
  apply Forall_forall. intros x _ c0. apply finish_ncl.
Qed.

(** ** Statements *)
Definition sncl (s : stmt) : Prop := forall x, In x (stmt_parts s) -> ncl x.
Lemma parts_ncl e x : ncl e -> In x (parts e) -> ncl x.
Proof.
  assert (AE : forall (l : list expr) y, all ncl l -> In y l -> ncl y) by (induction l; cbn; [contradiction|intros y [? ?] [<-|?]; auto]).
  induction e as [v|v l IHl|ty e IHe|l|a IHa|l IHl|ty|op e IHe|a op b IHa IHb|a b d IHa IHb IHd] using expr_ind'; cbn [parts]; intros E [<-|I]; try exact E; try contradiction.
  - apply in_flat_map in I as (y & Y & I). rewrite Forall_forall in IHl. eapply IHl; eauto.
  - apply IHe; [apply E|exact I].
  - apply in_flat_map in I as (y & Y & I). rewrite Forall_forall in IHl. eapply IHl; eauto.
  - apply IHe; [apply E|exact I].
  - destruct E as (E1 & E2). apply in_app_or in I as [I|I]; auto.
  - destruct E as (E0 & E1 & E2). apply in_app_or in I as [I|I]; auto. apply in_app_or in I as [I|I]; auto.
Qed.
Lemma pairs_ncl {A} (l : list (A * expr)) : all ncl (map snd l) -> forall x, In x (flat_map (fun x => parts (snd x)) l) -> ncl x.
Proof.
  induction l as [|[a e] l IH]; cbn; [contradiction|]. intros [X Y] x I. apply in_app_or in I as [I|I]; [eapply parts_ncl; eauto|auto].
Qed.
Definition stmt_post (s : stmt) : Prop := forall c s' c' f, stmt_finish cx s c = (s', c', f) -> isok f -> sncl s.
Lemma stmts_ncl l : Forall stmt_post l -> forall c l' c' f, stmts_finish (stmt_finish cx) l c = (l', c', f) -> isok f ->
  forall x, In x (flat_map stmt_parts l) -> ncl x.
Proof.
  induction 1 as [|s l HE HF IH]; intros c l' c' f; cbn [stmts_finish flat_map]; [intros _ _ x []|]. unfold fbind.
  destruct (stmt_finish cx s c) as [[s1 c1] r1] eqn:E1. destruct r1; try (intros [= <- <- <-] FF; contradiction FF).
  destruct (stmts_finish (stmt_finish cx) l c1) as [[l2 c2] r2] eqn:E2. intros [= <- <- <-] K x X.
  apply in_app_or in X as [X|X]; [exact (HE _ _ _ _ E1 I x X)|exact (IH _ _ _ _ E2 K x X)].
Qed.
Lemma void_ncl {X Y} (r : fin X) (w : X -> Y) (s : Y) c' f (P : Prop) : (forall x c1 r1, r = (x, c1, r1) -> isok r1 -> P) ->
  fbind r w (fun x c _ => (w x, c, FOk (ty_b BVoid))) = (s, c', f) -> isok f -> P.
Proof.
  intros H E K. destruct r as [[x c1] r1]. apply (H _ _ _ eq_refl). cbn in E. destruct r1; injection E as <- <- <-; auto.
Qed.
Lemma statement_ncl s : stmt_post s.
Proof.
  induction s as [a|e|d|d|l IHl|e a b IHa IHb|l e IHl] using stmt_ind'; intros c s' c' f; cbn [stmt_finish].
  - apply void_ncl. intros y c1 r1. unfold asm_finish, fbind. destruct (list_finish _ (map snd (asm_outputs a)) c) as [[l1 c2] r2] eqn:E1.
    destruct r2; try (intros [= <- <- <-] FF; contradiction FF). destruct (list_finish _ (map snd (asm_inputs a)) c2) as [[l2 c3] r3] eqn:E2.
    destruct r3; try (intros [= <- <- <-] FF; contradiction FF). intros _ _ x X. cbn [stmt_parts] in X.
    apply in_app_or in X as [X|X]; (eapply pairs_ncl; [|exact X]); [eapply exps_ncl; [exact E1|exact I]|eapply exps_ncl; [exact E2|exact I]].
  - apply void_ncl. intros y c1 r1 E K x X. eapply parts_ncl; [|exact X]. eapply exp_ncl; eauto.
  - intros _ _ x [].
  - apply void_ncl. intros y c1 r1. unfold var_decl_finish, fbind. destruct (ty_finish cx (vd_ty d) c) as [[t1 c2] r2].
    destruct r2; try (intros [= <- <- <-] FF; contradiction FF). destruct (ident_finish (vd_name d) c2) as [c3 r3]. destruct r3; try (intros [= <- <- <-] FF; contradiction FF).
    destruct (expr_finish cx (vd_rhs d) c3) as [[e c4] r4] eqn:E3. intros Q K x X. eapply parts_ncl; [|exact X]. eapply exp_ncl; [exact E3|].
    destruct r4; injection Q as <- <- <-; auto.
  - apply void_ncl. intros y c1 r1 E K x X. eapply stmts_ncl; eauto.
  - unfold fbind at 1. destruct (condition_finish (expr_finish cx) e c) as [[e1 c1] r1] eqn:E1. destruct r1; try (intros [= <- <- <-] FF; contradiction FF).
    unfold fbind at 1. destruct (stmts_finish (stmt_finish cx) a c1) as [[l2 c2] r2] eqn:E2. destruct r2; try (intros [= <- <- <-] FF; contradiction FF).
    apply void_ncl. intros y c3 r3 E3 K x X. cbn [stmt_parts] in X. apply in_app_or in X as [X|X]; [|apply in_app_or in X as [X|X]].
    + eapply parts_ncl; [|exact X]. eapply cond_ncl; [exact E1|exact I].
    + eapply (stmts_ncl a IHa); [exact E2|exact I|exact X].
    + eapply (stmts_ncl b IHb); eauto.
  - unfold fbind at 1. destruct (stmts_finish (stmt_finish cx) l c) as [[l2 c2] r2] eqn:E2. destruct r2; try (intros [= <- <- <-] FF; contradiction FF).
    apply void_ncl. intros y c3 r3 E3 K x X. cbn [stmt_parts] in X. apply in_app_or in X as [X|X].
    + eapply (stmts_ncl l IHl); [exact E2|exact I|exact X].
    + eapply parts_ncl; [|exact X]. eapply cond_ncl; eauto.
Qed.
Definition body_ncl (b : macro_body) : Prop := forall e, In (EUnary UComp e) (body_parts b) -> ~ float_or_string e.
Lemma body_finish_ncl b c b' c' f : body_finish cx b c = (b', c', f) -> isok f -> body_ncl b.
Proof.
  intros E K e X. assert (N : ncl (EUnary UComp e)).
  { destruct b as [s|a]; cbn [body_finish body_parts] in *.
    - destruct (stmt_finish cx s c) as [[s1 c1] r] eqn:Q. injection E as <- <- <-. exact (statement_ncl s _ _ _ _ Q K _ X).
    - destruct (expr_finish cx a c) as [[s1 c1] r] eqn:Q. injection E as <- <- <-. eapply parts_ncl; [|exact X]. eapply exp_ncl; eauto. }
  exact (proj1 N eq_refl).
Qed.
Lemma var_ncl m x : snd (var_generate cx m) = ROk x -> body_ncl (vm_body m).
Proof.
  unfold var_generate. destruct (vm_body m) as [s|e]; [discriminate|]. destruct (expr_finish cx e (var_lctx cx)) as [[e' c] f] eqn:E. cbn [snd]. intros R a X.
  assert (K : isok f) by (destruct f; try discriminate; exact I). assert (N : ncl (EUnary UComp a)) by (eapply parts_ncl; [eapply exp_ncl; eauto|exact X]). exact (proj1 N eq_refl).
Qed.
Lemma fn_ncl m x : snd (fn_generate cx m) = ROk x -> body_ncl (fm_body m).
Proof.
  unfold fn_generate. destruct (arg_types cx (fm_name m) (fm_args m)) as [tys| | |]; try discriminate.
  destruct (body_finish cx (fm_body m) _) as [[b c] f] eqn:E. cbn [snd]. intro R. assert (K : isok f) by (destruct f; try discriminate; exact I). eapply body_finish_ncl; eauto.
Qed.
End Compl.
