(** C51: statements keep their structure. *)
From Verif Require Import Base Utf Lex LexFloat Token Ast Nom ParseTok ParseStmt Rust Finish Codegen SpecRustExpr SpecTree SpecStmt
  StrFacts FinishFacts RustExprFacts TreeFacts StmtFacts PropFnGen PropTree.
From Coq Require Import String List Lia Bool.
Import ListNotations.
Local Open Scope string_scope.
Local Open Scope list_scope.

(** ** Generated statements *)

(** [executes s b]: the Rust block [b] does what the C statement [s] does.  Every
    execution of [s] is one of [b], every execution of [b] is one of [s], and no
    jump leaves [b]. *)
Definition executes {U : Unicode} (cx : cgctx) (c : lctx) (s : stmt) (b : rblock) : Prop :=
  (forall t, c_run s t -> exists t', same_events cx c t t' /\ r_runs (flat b) t' Normal) /\
  (forall t o, r_runs (flat b) t o -> o = Normal /\ exists t', c_run s t' /\ same_events cx c t' t).

Lemma single_runs r t o : r_runs [r] t o <-> r_step r t o.
Proof.
  split.
  - intro R. inversion R; subst; [|assumption]. match goal with Y : r_runs [] _ _ |- _ => inversion Y; subst end. rewrite app_nil_r. assumption.
  - intro S. destruct o; [|apply RR_stop; [exact S|discriminate]..]. rewrite <- (app_nil_r t). eapply RR_next; [exact S|apply RR_nil].
Qed.

(** C51 for the statements of [sfine]: the tokens are one Rust statement, with
    the statements, branches and loops of the C statement, and it is executed
    like the C statement.  This also holds with a semicolon after it, as in the
    body of a function. *)
Theorem C51_partial {U : Unicode} cx c s ts :
  plain_context cx -> sfine cx c s -> stmt_toks cx c s = Some ts ->
  exists b r, reads_block ts b /\ (forall b', reads_block ts b' -> b' = b) /\
    flat b = [r] /\ stree cx c s r /\ executes cx c s b /\ reads_block (ts ++ [rp ";"]) (RB [r] None).
Proof.
  intros P F T. destruct (stmt_reads cx c P s ts F T) as (r & S & _ & _ & A & b & B & E). exists b, r.
  split; [exact B|]. split; [intros b' B'; now apply (reads_block_fun ts)|]. split; [exact E|]. split; [exact S|]. split.
  - unfold executes. rewrite E. split.
    + intros t R. destruct (runs_forward cx c P s t R r S F) as (t' & Q & R'). exists t'. split; [exact Q|]. now apply single_runs.
    + intros t o R. apply single_runs in R. exact (runs_backward cx c P s r S F t o R).
  - apply (A [rp ";"] (RB [] None)); [discriminate|reflexivity|]. apply rb_semi, rb_nil.
Qed.

(** ** Inference *)

Section Finish.
Context {U : Unicode}.
Variable cx : cgctx.

Lemma condition_settled e c e' c' f : condition_finish (expr_finish cx) e c = (e', c', f) -> isok f -> as_condition cx e e'.
Proof.
  unfold condition_finish, fbind. destruct (expr_finish cx e c) as [[e1 c1] f1] eqn:E. destruct f1 as [t|er| |];
    try (intros Q; injection Q as <- <- <-; now intros []). intros Q _. injection Q as <- <- <-.
  exists e1, t. split; [do 2 eexists; exact E|]. unfold oty_eqb.
  destruct t as [t|]; [|right; split; [discriminate|reflexivity]]. cbn [ty_b].
  unfold ctype_eqb. destruct (ctype_eq_dec t (TyBuiltIn BBool)) as [->|N]; [left; auto|].
  right. split; [|reflexivity]. intro Z. injection Z as ->. contradiction.
Qed.
Lemma list_settled l : forall c l' c' f, list_finish (expr_finish cx) l c = (l', c', f) -> isok f ->
  Forall2 (fun e e' => exists t, infers_to cx e e' t) l l'.
Proof.
  induction l as [|e l IH]; intros c l' c' f; cbn [list_finish].
  - intros E _. injection E as <- <- <-. constructor.
  - fold (list_finish (expr_finish cx)). unfold fbind. destruct (expr_finish cx e c) as [[e1 c1] f1] eqn:E.
    destruct f1 as [t|er| |]; try (intros Q; injection Q as <- <- <-; now intros []).
    destruct (list_finish (expr_finish cx) l c1) as [[l2 c2] r2] eqn:L. intros Q I. injection Q as <- <- <-.
    constructor; [exists t; do 2 eexists; exact E|eapply IH; eassumption].
Qed.
Lemma put_settled {A} (l : list (A * expr)) : forall l', Forall2 (fun e e' => exists t, infers_to cx e e' t) (map snd l) l' ->
  Forall2 (fun o o' => fst o' = fst o /\ exists t, infers_to cx (snd o) (snd o') t) l (map (fun '((a, _), e) => (a, e)) (combine l l')).
Proof.
  induction l as [|[a e] l IH]; intros l' F; cbn [map] in F; inversion F; subst; [constructor|].
  cbn [combine map]. constructor; [split; [reflexivity|assumption]|now apply IH].
Qed.
Lemma args_settled l : forall c l' c' f, fn_args_finish cx l c = (l', c', f) -> isok f ->
  Forall2 (fun p p' => snd p' = snd p /\ resolved cx (fst p) (fst p')) l l'.
Proof.
  induction l as [|[t n] l IH]; intros c l' c' f; cbn [fn_args_finish].
  - intros E _. injection E as <- <- <-. constructor.
  - unfold fbind. destruct (ty_finish cx t c) as [[t1 c1] f1] eqn:E.
    destruct f1 as [r|er| |]; try (intros Q; injection Q as <- <- <-; now intros []).
    destruct (fn_args_finish cx l c1) as [[l2 c2] r2] eqn:L. intros Q I. injection Q as <- <- <-.
    constructor; [|eapply IH; eassumption]. split; [reflexivity|]. do 3 eexists. exact E.
Qed.
Ltac dead := intros Q; injection Q as <- <- <-; now intros [].
Lemma stmts_settled l : Forall (fun s => forall c s' c' f, stmt_finish cx s c = (s', c', f) -> isok f -> settled cx s s') l ->
  forall c l' c' f, stmts_finish (stmt_finish cx) l c = (l', c', f) -> isok f -> settled_all cx l l'.
Proof.
  induction 1 as [|s l S F IH]; intros c l' c' f; cbn [stmts_finish].
  - intros E _. injection E as <- <- <-. constructor.
  - fold (stmts_finish (stmt_finish cx)). unfold fbind. destruct (stmt_finish cx s c) as [[s1 c1] f1] eqn:E.
    destruct f1 as [t|er| |]; try dead.
    destruct (stmts_finish (stmt_finish cx) l c1) as [[l2 c2] r2] eqn:L. intros Q I. injection Q as <- <- <-.
    constructor; [eapply S; [exact E|exact Logic.I]|eapply IH; eassumption].
Qed.

(** Inference replaces expressions and types, and makes conditions [bool]; it
    keeps every statement, in the same order, and every branch. *)
Theorem C51_finish s : forall c s' c' t, stmt_finish cx s c = (s', c', FOk t) -> settled cx s s'.
Proof.
  assert (G : forall c s' c' f, stmt_finish cx s c = (s', c', f) -> isok f -> settled cx s s').
  2:{ intros c s' c' t E. eapply G; [exact E|exact Logic.I]. }
  induction s as [a|e|d|d|l IHl|e a b IHa IHb|l e IHl] using stmt_ind'; intros c s' c' f; cbn [stmt_finish]; unfold fbind.
  - unfold asm_finish, fbind.
    destruct (list_finish (expr_finish cx) (map snd (asm_outputs a)) c) as [[lo c1] f1] eqn:E1. destruct f1 as [t1|er| |]; try dead.
    destruct (list_finish (expr_finish cx) (map snd (asm_inputs a)) c1) as [[li c2] f2] eqn:E2. destruct f2 as [t2|er| |]; try dead.
    intros Q _. injection Q as <- <- <-. apply list_settled in E1; [|exact I]. apply list_settled in E2; [|exact I].
    apply S_asm; [reflexivity|reflexivity| |now apply put_settled].
    cbn [asm_outputs]. apply put_settled in E1. erewrite map_ext; [exact E1|]. intros [[[] ?] ?]. reflexivity.
  - destruct (expr_finish cx e c) as [[e1 c1] f1] eqn:E. destruct f1 as [t1|er| |]; try dead. intros Q _. injection Q as <- <- <-.
    eapply S_expr. do 2 eexists. exact E.
  - unfold fn_decl_finish, fbind. destruct (ty_finish cx (fd_ret d) c) as [[t1 c1] f1] eqn:E. destruct f1 as [r1|er| |]; try dead.
    destruct (match fd_name d with IArg i => set_arg_type c1 i AIdent | _ => Some c1 end) as [c2|]; [|dead].
    destruct (fn_args_finish cx (fd_args d) c2) as [[l c3] r] eqn:L. destruct r as [r|er| |]; try dead. intros Q _. injection Q as <- <- <-.
    apply S_fn; [reflexivity|do 3 eexists; exact E|]. eapply args_settled; [exact L|exact I].
  - unfold var_decl_finish, fbind. destruct (ty_finish cx (vd_ty d) c) as [[t1 c1] f1] eqn:E. destruct f1 as [r1|er| |]; try dead.
    destruct (ident_finish (vd_name d) c1) as [c2 f2]. destruct f2 as [t2|er| |]; try dead.
    destruct (expr_finish cx (vd_rhs d) c2) as [[e1 c3] f3] eqn:E3. destruct f3 as [t3|er| |]; try dead. intros Q _. injection Q as <- <- <-.
    eapply S_var; [reflexivity|reflexivity|do 3 eexists; exact E|do 2 eexists; exact E3].
  - destruct (stmts_finish (stmt_finish cx) l c) as [[l1 c1] f1] eqn:E. destruct f1 as [t1|er| |]; try dead. intros Q _. injection Q as <- <- <-.
    apply S_block. eapply stmts_settled; [exact IHl|exact E|exact I].
  - destruct (condition_finish (expr_finish cx) e c) as [[e1 c1] f1] eqn:E. destruct f1 as [t1|er| |]; try dead.
    destruct (stmts_finish (stmt_finish cx) a c1) as [[a1 c2] f2] eqn:Ea. destruct f2 as [t2|er| |]; try dead.
    destruct (stmts_finish (stmt_finish cx) b c2) as [[b1 c3] f3] eqn:Eb. destruct f3 as [t3|er| |]; try dead.
    intros Q _. injection Q as <- <- <-. apply S_if.
    + eapply condition_settled; [exact E|exact I].
    + eapply stmts_settled; [exact IHa|exact Ea|exact I].
    + eapply stmts_settled; [exact IHb|exact Eb|exact I].
  - destruct (stmts_finish (stmt_finish cx) l c) as [[a1 c2] f2] eqn:Ea. destruct f2 as [t2|er| |]; try dead.
    destruct (condition_finish (expr_finish cx) e c2) as [[e1 c1] f1] eqn:E. destruct f1 as [t1|er| |]; try dead.
    intros Q _. injection Q as <- <- <-. apply S_do.
    + eapply stmts_settled; [exact IHl|exact Ea|exact I].
    + eapply condition_settled; [exact E|exact I].
Qed.
End Finish.

(** ** Generated items *)

(** C51 for a function-like macro whose body is a statement. *)
Theorem C51_generate_partial {U : Unicode} cx m m' s ts :
  plain_context cx -> fm_body m = MbStatement s -> fn_generate cx m = (m', ROk ts) ->
  exists c s' body, lc_names c = fm_args m /\ fm_body m' = MbStatement s' /\ settled cx s s' /\
    ((exists params, ts = function_item (fm_name m) params None body) \/
     (exists patterns, ts = macro_item (fm_name m) patterns body)) /\
    (sfine cx c s' -> exists b r, reads_block body b /\ flat b = [r] /\ stree cx c s' r /\ executes cx c s' b /\
       reads_block (body ++ [rp ";"]) (RB [r] None)).
Proof.
  intros P B. unfold fn_generate. destruct (arg_types cx (fm_name m) (fm_args m)) as [tys|er| |] eqn:A;
    try (intros E; apply (f_equal snd) in E; discriminate E).
  rewrite B. cbn [body_finish].
  match goal with |- context [stmt_finish cx s ?c] => destruct (stmt_finish cx s c) as [[s' c1] f] eqn:F end. intros E.
  pose proof (f_equal fst E) as Em. apply (f_equal snd) in E. cbn [snd fst] in E, Em. subst m'.
  destruct f as [ret|er| |]; cbn [ofres] in E; try discriminate E.
  pose proof (stmt_sgood cx _ _ _ _ _ F) as (_ & S & _). destruct S as (S1 & _).
  set (mac := lc_macro c1 || _ || _ || _ || _) in E.
  apply rbind_inv in E as (name & E1 & E). apply opanic_inv, ident_tok_inv in E1 as ->.
  apply rbind_inv in E as (body & Eb & E). apply opanic_inv in Eb. cbn [body_toks] in Eb.
  exists (set_macro mac c1), s', body. split; [exact S1|]. split; [reflexivity|]. split; [eapply C51_finish; exact F|]. split.
  - assert (R : ret = Some (TyBuiltIn BVoid)).
    { revert F. destruct s; cbn [stmt_finish]; unfold fbind;
        repeat (match goal with |- context [match ?x with (_, _) => _ end] => destruct x as [[? ?] []] end; try (intro Q; discriminate Q));
        intro Q; injection Q as _ _ <-; reflexivity. }
    subst ret. cbn [lc_macro set_macro] in E. destruct mac.
    + right. apply rbind_inv in E as (args & E1 & E).
      apply rbind_inv in E as (mid & E2 & E). apply opanic_inv, ident_tok_inv in E2 as ->. injection E as <-. eexists. reflexivity.
    + left. apply rbind_inv in E as (args & E1 & E). cbn in E. injection E as <-. eexists. reflexivity.
  - intro Fi. destruct (C51_partial cx _ s' body P Fi Eb) as (b & r & R & _ & Fl & St & Ex & R2). exists b, r. auto.
Qed.

(** ** Cases *)

Section Demo.
#[local] Existing Instance demo_unicode.
Let I (s : string) := MIdent (st s).
Let P (s : string) := MPunct (st s).
Let c0 : lctx := mk_lctx [st "x"; st "y"] [AUnknown; AUnknown] true true true false.
Let call (f : string) (args : list expr) := ECall (IPlain (st f)) args.
Let v (i : nat) := EVar (IArg i).
Let nonzero (e : expr) := EBinary e ONeq (ELit (LInt (mk_int 0 None))).
Let exprs (l : list string) : list (list rtok) := map (fun a => [rp "$"; ri a; rp ":"; ri "expr"]) l.

(** [do { f(); if (x) if (y) g(); else { h(); } } while (x)]. *)
Definition loop_body : list mtoken :=
  [I "do"; P "{"; I "f"; P "("; P ")"; P ";"; I "if"; P "("; MArg 0; P ")"; I "if"; P "("; MArg 1; P ")"; I "g"; P "("; P ")"; P ";";
   I "else"; P "{"; I "h"; P "("; P ")"; P ";"; P "}"; P "}"; I "while"; P "("; MArg 0; P ")"].
Definition loop_stmt : stmt :=
  SDoWhile [SExpr (call "f" []); SIf (v 0) [SIf (v 1) [SExpr (call "g" [])] [SExpr (call "h" [])]] []] (v 0).
Definition loop_stmt' : stmt :=
  SDoWhile [SExpr (call "f" []); SIf (nonzero (v 0)) [SIf (nonzero (v 1)) [SExpr (call "g" [])] [SExpr (call "h" [])]] []] (nonzero (v 0)).
Example C51_case :
  plain_context cx_unit /\
  fn_macro_parse (st "F") [I "x"; I "y"] loop_body = ROk (mk_fn_macro (st "F") [st "x"; st "y"] (MbStatement loop_stmt)) /\
  (exists body, fn_generate cx_unit (mk_fn_macro (st "F") [st "x"; st "y"] (MbStatement loop_stmt)) =
     (mk_fn_macro (st "F") [st "x"; st "y"] (MbStatement loop_stmt'), ROk (macro_item (st "F") (exprs ["x"; "y"]) body)) /\
     sfine cx_unit c0 loop_stmt' /\ stmt_toks cx_unit c0 loop_stmt' = Some body) /\
  (* One of its executions: twice through the loop. *)
  c_run loop_stmt' [CDo (SExpr (call "f" [])); CTest (nonzero (v 0)) true; CTest (nonzero (v 1)) false; CDo (SExpr (call "h" []));
    CTest (nonzero (v 0)) true; CDo (SExpr (call "f" [])); CTest (nonzero (v 0)) false; CTest (nonzero (v 0)) false].
Proof.
  split; [apply plain_unit|]. split; [vm_compute; reflexivity|]. split.
  - eexists. split; [vm_compute; reflexivity|]. split; [|vm_compute; reflexivity].
    assert (V : forall i, i < 2 -> plain_var cx_unit c0 (IArg i)).
    { intros i Hi. split; [|exact Logic.I]. intros s E. destruct i as [|[|i]]; [| |lia]; injection E as <-; (split; [discriminate|left; reflexivity]). }
    assert (Fc : forall f, keyword (st f) = false -> fine cx_unit c0 (call f [])) by (intros f K _; split; [exact K|exact Logic.I]).
    assert (Fn : forall i, i < 2 -> fine cx_unit c0 (nonzero (v i))) by (intros i Hi; cbn; split; [now apply V|exact Logic.I]).
    cbn [sfine loop_stmt'].
    repeat first [apply Fn; lia | apply Fc; reflexivity | split]; try exact Logic.I;
      left; intros ts T; vm_compute in T; injection T as <-; reflexivity.
  - match goal with |- c_run _ (?a :: ?b :: ?d :: ?e :: ?t :: ?r) => change (c_run loop_stmt' ([a; b; d; e] ++ t :: r)) end.
    apply CR_repeat.
    + apply (CR_cons _ _ [_]); [constructor|]. apply (CR_cons _ _ [_; _; _] []); [|constructor].
      apply CR_then. apply (CR_cons _ _ [_; _] []); [|constructor]. apply CR_else. apply (CR_cons _ _ [_] []); constructor.
    + match goal with |- c_run _ [?a; ?b; ?d] => change (c_run loop_stmt' ([a; b] ++ [d])) end. apply CR_last.
      apply (CR_cons _ _ [_]); [constructor|]. apply (CR_cons _ _ [_] []); [|constructor]. apply CR_else. constructor.
Qed.

(** [do { continue; } while (x)]: in C, [continue] goes on to test the condition.
    It is taken for a variable, and the generated [continue] starts the loop
    again without the test: no execution ends. *)
Theorem C51_continue_refuted : exists m m' patterns body,
  fn_macro_parse (st "F") [I "x"] [I "do"; P "{"; I "continue"; P ";"; P "}"; I "while"; P "("; MArg 0; P ")"] = ROk m /\
  fn_generate cx_unit m = (m', ROk (macro_item (st "F") patterns body)) /\
  exists b, reads_block body b /\ forall t o, ~ r_runs (flat b) t o.
Proof.
  do 2 eexists. exists (exprs ["x"]). eexists. split; [vm_compute; reflexivity|]. split; [vm_compute; reflexivity|].
  eexists. split; [exists 20; vm_compute; reflexivity|]. cbn [flat app].
  intros t o R. apply single_runs in R. inversion R; subst. match goal with Y : r_run (XLoop ?b) _ _ |- _ =>
    apply (loop_runs b (fun _ => False)) in Y as [_ []] end.
  - intros u Q. cbn [flat app] in Q. inversion Q; subst; match goal with Y : r_step _ _ _ |- _ => inversion Y; subst end;
      match goal with Y : r_run _ _ _ |- _ => inversion Y; subst; discriminate end.
  - intros ? ? ? _ _ [].
Qed.
End Demo.

Print Assumptions C51_partial.
Print Assumptions C51_finish.
Print Assumptions C51_generate_partial.
Print Assumptions C51_continue_refuted.
