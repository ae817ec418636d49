(** Statements and tokens: on safe trees neither type inference nor printing
    panics. *)
From Verif Require Import Base Utf Lex LexFloat Token Ast ParseStmt Rust Finish Codegen SpecGen SpecFold StrFacts LexFacts FinishFacts SpecPanicFree SafeFacts.
From Coq Require Import String List Lia ZArith Bool.
Import ListNotations.
Local Open Scope list_scope.

Section S.
Context {U : Unicode}.
Variable cx : cgctx.
Variable names : list str.
Hypothesis CX : context_ok cx.
Notation eok := (eok cx names).
Notation cok := (cok names).
Notation tyok := (tyok names).
Notation nmok := (nmok names).
Notation fok := (fok names).

(** ** Type inference of statements *)

Definition dok (w : bool) (d : var_decl) : Prop := tyok (vd_ty d) /\ nmok (vd_name d) /\ eok w (vd_rhs d).
Definition fdok (d : fn_decl) : Prop := tyok (fd_ret d) /\ nmok (fd_name d) /\ Forall (fun x => tyok (fst x) /\ nmok (snd x)) (fd_args d).
Definition amok (w : bool) (a : asm_stmt) : Prop :=
  asm_ok a /\ Forall (eok w) (map snd (asm_outputs a)) /\ Forall (eok w) (map snd (asm_inputs a)).
Fixpoint sok (w : bool) (s : stmt) : Prop :=
  match s with
  | SAsm a => amok w a
  | SExpr e => eok w e
  | SFnDecl d => fdok d
  | SVarDecl d => dok w d
  | SBlock l => harmless_stmts (sok w) l
  | SIf e a b => eok w e /\ harmless_stmts (sok w) a /\ harmless_stmts (sok w) b
  | SDoWhile l e => harmless_stmts (sok w) l /\ eok w e
  end.
Lemma stmts_forall P l : harmless_stmts P l <-> Forall P l.
Proof. induction l; cbn; split; intro H0; auto; [destruct H0; constructor; tauto|inversion H0; subst; tauto]. Qed.

(** The postcondition, for any kind of tree. *)
Definition post {X} (P : bool -> X -> Prop) (r : fin X) : Prop :=
  let '(x, c, f) := r in cok c /\ fok f (P true x).
Lemma post_bind {X Y} (P : bool -> X -> Prop) (Q : bool -> Y -> Prop) (r : fin X) w k :
  post P r -> (forall x c t, cok c -> P true x -> otyok names t -> post Q (k x c t)) -> post Q (fbind r w k).
Proof.
  destruct r as [[x c] f]. intros [C F] K. destruct f; cbn [fbind]; [|split; assumption..]. destruct F. now apply K.
Qed.

Lemma expr_post e c : eok false e -> cok c -> post eok (expr_finish cx e c).
Proof.
  intros E C. pose proof (expr_finish_ok cx names CX e c E C) as G. destruct (expr_finish cx e c) as [[e' c'] f]. destruct G as (_ & G1 & _ & _ & G2). split; assumption.
Qed.
Lemma condition_post e c : eok false e -> cok c -> post eok (condition_finish (expr_finish cx) e c).
Proof.
  intros E C. pose proof (condition_ok cx names (expr_finish cx) e c (expr_finish_ok cx names CX e c E C)) as G.
  destruct (condition_finish (expr_finish cx) e c) as [[e' c'] f]. destruct G as (_ & G1 & G2). split; assumption.
Qed.
Lemma list_post l c : Forall (eok false) l -> cok c -> post (fun w l' => Forall (eok w) l' /\ length l' = length l) (list_finish (expr_finish cx) l c).
Proof.
  intros E C. assert (HF : Forall (fun e => forall c, eok false e -> cok c -> good_fin cx names e (expr_finish cx e c)) l)
    by (apply Forall_forall; intros; now apply expr_finish_ok).
  pose proof (list_ok cx names (expr_finish cx) l HF E c C) as G. destruct (list_finish (expr_finish cx) l c) as [[l' c'] f].
  destruct G as (_ & G1 & G2 & G3). split; [exact G1|]. destruct f; auto. destruct G3. split; auto.
Qed.
Lemma ty_post t c : tyok t -> cok c -> post (fun _ t => tyok t) (ty_finish cx t c).
Proof.
  intros T C. pose proof (ty_ok cx names CX t c T C) as G. destruct (ty_finish cx t c) as [[t' c'] f]. destruct G as (G1 & G2 & G3).
  split; [exact G2|]. destruct f; auto. destruct G3. split; auto.
Qed.

Lemma asm_post a c : amok false a -> cok c -> post amok (asm_finish cx a c).
Proof.
  intros (A & O & N) C. unfold asm_finish.
  apply post_bind with (P := fun w l' => Forall (eok w) l' /\ length l' = length (map snd (asm_outputs a))); [now apply list_post|].
  intros lo c1 t1 C1 [L1 L2] _.
  apply post_bind with (P := fun w l' => Forall (eok w) l' /\ length l' = length (map snd (asm_inputs a))); [now apply list_post|].
  intros li c2 t2 C2 [M1 M2] _. rewrite map_length in L2, M2.
  split; [destruct (asm_global a); exact C2|]. split; [|exact I].
  set (outs := map _ _). set (ins := map _ _).
  assert (EO : map snd outs = lo) by (apply snd_outs; exact L2).
  assert (EI : map snd ins = li) by (apply snd_ins; exact M2).
  assert (LO : length outs = length (asm_outputs a)) by (rewrite <- (map_length snd), EO; exact L2).
  assert (LI : length ins = length (asm_inputs a)) by (rewrite <- (map_length snd), EI; exact M2).
  assert (CI : map fst ins = map fst (asm_inputs a)).
  { subst ins. clear - M2. revert li M2. induction (asm_inputs a) as [|[r e] l IH]; intros [|x li] M2; cbn in *; try discriminate; auto. rewrite IH by lia. reflexivity. }
  unfold amok, asm_ok. cbn [asm_outputs asm_inputs]. rewrite EO, EI, LO, LI, CI. auto.
Qed.

Lemma decl_post d c : dok false d -> cok c -> post dok (var_decl_finish cx d c).
Proof.
  intros (D1 & D2 & D3) C. unfold var_decl_finish. eapply post_bind; [now apply ty_post|]. intros t c1 o C1 T _.
  pose proof (ident_ok names (vd_name d) c1 D2 C1) as G. destruct (ident_finish (vd_name d) c1) as [c2 f]. destruct G as [G1 G2].
  destruct f; try (split; assumption). eapply post_bind; [now apply expr_post|]. intros e c3 o2 C3 E _. split; [exact C3|]. split; [|exact I]. repeat split; assumption.
Qed.
Lemma fn_args_post l : forall c, Forall (fun x => tyok (fst x) /\ nmok (snd x)) l -> cok c ->
  post (fun _ => Forall (fun x => tyok (fst x) /\ nmok (snd x))) (fn_args_finish cx l c).
Proof.
  induction l as [|[t n] l IH]; intros c F C; cbn [fn_args_finish]; [split; [exact C|split; [constructor|exact I]]|]. inversion F as [|? ? [T N] F']; subst. cbn in T, N.
  eapply post_bind; [now apply ty_post|]. intros t' c' o C' T' _. specialize (IH c' F' C'). destruct (fn_args_finish cx l c') as [[l'' c''] f]. destruct IH as [I1 I2].
  split; [exact I1|]. destruct f; auto. destruct I2. split; [|assumption]. constructor; auto.
Qed.
Lemma fn_decl_post d c : fdok d -> cok c -> post (fun _ => fdok) (fn_decl_finish cx d c).
Proof.
  intros (D1 & D2 & D3) C. unfold fn_decl_finish. eapply post_bind; [now apply ty_post|]. intros t c1 o C1 T _.
  assert (S : exists c2, match fd_name d with IArg i => set_arg_type c1 i AIdent | _ => Some c1 end = Some c2 /\ cok c2).
  { destruct (fd_name d); try (exists c1; split; [reflexivity|exact C1]). apply set_arg_ok; [exact C1|exact D2|exact I]. }
  destruct S as (c2 & -> & C2). pose proof (fn_args_post (fd_args d) c2 D3 C2) as G. destruct (fn_args_finish cx (fd_args d) c2) as [[l c3] f].
  destruct G as [G1 G2]. split; [exact G1|]. destruct f; auto. destruct G2. split; [|assumption]. repeat split; assumption.
Qed.

Lemma stmts_post l : Forall (fun s => forall c, sok false s -> cok c -> post sok (stmt_finish cx s c)) l ->
  forall c, harmless_stmts (sok false) l -> cok c -> post (fun w => harmless_stmts (sok w)) (stmts_finish (stmt_finish cx) l c).
Proof.
  induction 1 as [|s l H HF IH]; intros c S C; cbn [stmts_finish]; [split; [exact C|split; exact I]|]. destruct S as [S1 S2].
  eapply post_bind; [now apply H|]. intros s' c' o C' S' _. specialize (IH c' S2 C'). destruct (stmts_finish (stmt_finish cx) l c') as [[l' c''] f].
  destruct IH as [I1 I2]. split; [exact I1|]. destruct f; auto. destruct I2. split; [|assumption]. split; assumption.
Qed.
Lemma stmt_post s : forall c, sok false s -> cok c -> post sok (stmt_finish cx s c).
Proof.
  induction s as [a|e|d|d|l IHl|e a b IHa IHb|l e IHl] using stmt_ind'; intros c S C; cbn [stmt_finish sok] in *.
  - eapply post_bind; [now apply asm_post|]. intros; split; [assumption|split; [cbn [sok]; auto|exact I]].
  - eapply post_bind; [now apply expr_post|]. intros; split; [assumption|split; [cbn [sok]; auto|exact I]].
  - eapply post_bind; [now apply fn_decl_post|]. intros; split; [assumption|split; [cbn [sok]; auto|exact I]].
  - eapply post_bind; [now apply decl_post|]. intros; split; [assumption|split; [cbn [sok]; auto|exact I]].
  - eapply post_bind; [now apply stmts_post|]. intros; split; [assumption|split; [cbn [sok]; auto|exact I]].
  - destruct S as (S1 & S2 & S3). eapply post_bind; [now apply condition_post|]. intros e' c1 o C1 E _.
    eapply post_bind; [now apply stmts_post|]. intros a' c2 o2 C2 A _. eapply post_bind; [now apply stmts_post|]. intros; split; [assumption|split; [cbn [sok]; auto|exact I]].
  - destruct S as (S1 & S2). eapply post_bind; [now apply stmts_post|]. intros l' c1 o C1 L _.
    eapply post_bind; [now apply condition_post|]. intros; split; [assumption|split; [cbn [sok]; auto|exact I]].
Qed.
Definition bok (w : bool) (b : macro_body) : Prop := match b with MbStatement s => sok w s | MbExpr e => eok w e end.
Lemma body_post b c : bok false b -> cok c -> post bok (body_finish cx b c).
Proof.
  destruct b as [s|e]; cbn [bok body_finish]; intros B C.
  - pose proof (stmt_post s c B C) as G. destruct (stmt_finish cx s c) as [[s' c'] f]. exact G.
  - pose proof (expr_post e c B C) as G. destruct (expr_finish cx e c) as [[e' c'] f]. exact G.
Qed.

(** ** Tokens *)

Hypothesis NAMES : Forall (fun n => is_identifier n = true \/ n = st "...") names.

Definition some {A} (o : option A) : Prop := o <> None.
Lemma obind_some {A B} (o : option A) (k : A -> option B) : some o -> (forall a, some (k a)) -> some (match o with Some a => k a | None => None end).
Proof. destruct o; unfold some; auto. Qed.
Lemma ident_some s : is_identifier s = true -> some (ident_tok s).
Proof. unfold ident_tok. intros ->. discriminate. Qed.
Lemma omap_some {A B} (f : A -> B) o : some o -> some (omap f o).
Proof. destruct o; unfold some, omap; congruence. Qed.

Section C.
Variable c : lctx.
Hypothesis C : cok c.

Lemma arg_name_some i : i < length names -> exists n, arg_name c i = Some n /\ nth_error names i = Some n /\ (is_identifier n = true \/ n = st "...").
Proof.
  intros I. unfold arg_name. rewrite (proj1 C). destruct (nth_error names i) as [n|] eqn:E.
  - exists n. split; [reflexivity|]. split; [reflexivity|]. apply nth_error_In in E. rewrite Forall_forall in NAMES. auto.
  - apply nth_error_None in E. lia.
Qed.
Lemma arg_some i : i < length names -> some (arg_toks c i).
Proof.
  intros I. destruct (arg_name_some i I) as (n & E & _ & O). unfold arg_toks. rewrite E. cbn [obind].
  destruct (str_eqb_spec n (st "...")) as [Q|Q]; [discriminate|]. destruct O as [O|O]; [|contradiction].
  apply obind_some; [now apply ident_some|]. intro. discriminate.
Qed.
Lemma all_toks_some {A} (f : A -> option (list rtok)) l : Forall (fun x => some (f x)) l -> some (all_toks f l).
Proof. induction 1; cbn [all_toks]; [discriminate|]. apply obind_some; [assumption|]. intro. apply obind_some; [assumption|]. discriminate. Qed.
Lemma name_some n : nmok n -> some (ident_toks cx c n).
Proof.
  destruct n as [i|s|l]; cbn [nmok ident_toks]; intro N.
  - now apply arg_some.
  - now apply omap_some, ident_some.
  - apply obind_some; [|discriminate]. apply all_toks_some. eapply Forall_impl; [|exact N]. intros [i|s|v] P; cbn in *; [now apply arg_some|now apply omap_some, ident_some|discriminate].
Qed.
Lemma ty_some t : tyok t -> some (ty_toks cx c t).
Proof.
  induction t as [b|n s|l b|t IH|t IH q]; cbn [tyok ty_toks]; intro T.
  - discriminate.
  - now apply name_some.
  - apply obind_some; [|discriminate]. apply all_toks_some. eapply Forall_impl; [|exact T]. intros. now apply omap_some, ident_some.
  - apply obind_some; [auto|discriminate].
  - specialize (IH T). destruct t as [| | |t|]; try exact IH. destruct (q_is_const q); [|exact IH].
    apply obind_some; [|discriminate]. cbn [ty_toks] in IH. unfold some in *. intro E. rewrite E in IH. now apply IH.
Qed.
Lemma string_some x b : eok true (ELit (LString x)) -> some (string_toks cx c x b).
Proof.
  intros E. destruct x; cbn [string_toks]; try (destruct b; try discriminate; destruct (_ && _); discriminate).
  destruct E as [[_ E] _]. cbn in E. destruct (E eq_refl) as (t & t' & E1 & E2 & E3). rewrite E1, E2. apply obind_some; [now apply ty_some|]. discriminate.
Qed.
Lemma lit_some l : eok true (ELit l) -> some (lit_toks cx c l).
Proof. destruct l; cbn [lit_toks]; intro E; try discriminate. apply omap_some. now apply string_some. Qed.
Lemma var_some n : nmok n -> some (var_toks cx c n).
Proof.
  intro N. destruct n as [i|s|l]; try (now apply name_some). cbn [var_toks]. destruct (str_eqb _ _); [discriminate|]. destruct (str_eqb _ _); [discriminate|].
  destruct (limit_name _ _); [discriminate|]. destruct (cx_enum cx s) as [[]|]; [discriminate|]. now apply name_some.
Qed.
Lemma inner_some a : eok true (EStringify a) -> some (stringify_inner cx c a).
Proof.
  intros ((N & _) & A). destruct a as [[i|s|l]| | | | | | | | |]; cbn [stringify_inner]; try discriminate.
  - destruct A as [[_ A] _]. cbn in A, N. destruct (arg_name_some i A) as (n & E & E' & O). rewrite E.
    apply obind_some; [|discriminate]. apply ident_some. destruct O as [O| ->]; [exact O|contradiction].
  - destruct (str_eqb _ _); [discriminate|]. destruct (str_eqb _ _); discriminate.
Qed.
Lemma stringify_some a : eok true (EStringify a) -> some (stringify_toks cx c a).
Proof. intro. unfold stringify_toks. apply obind_some; [now apply inner_some|discriminate]. Qed.

Lemma exprs_some (f : expr -> option (list rtok)) l : Forall (fun e => some (f e)) l -> some (exprs_toks f l).
Proof. induction 1; cbn [exprs_toks]; [discriminate|]. apply obind_some; [assumption|]. intro. apply obind_some; [assumption|]. discriminate. Qed.
Lemma call_args_some o l : Forall (eok true) l -> forall ts, some (call_args_toks c o l ts).
Proof.
  induction 1 as [|e l E F IH]; intros [|t ts]; cbn [call_args_toks]; try discriminate. apply obind_some; [|intro; apply obind_some; [auto|discriminate]].
  destruct e as [[i|s|m]| | | | | | | | |]; cbn [call_arg_toks]; try discriminate.
  - destruct E as [[_ E] _]. destruct (arg_name_some i E) as (n & Q & _). rewrite Q. cbn [obind]. destruct (str_eqb n (st "...") || negb (lc_macro c)); discriminate.
  - match goal with |- some (if ?b then _ else _) => destruct b end; discriminate.
Qed.

Lemma below_some e : some (etoks cx c e) -> (forall op e1, e = EUnary op e1 -> some (etoks cx c e1)) -> some (match e with EUnary _ e1 => etoks cx c e1 | _ => Some [] end).
Proof. intros _ K. destruct e; try discriminate. eapply K. reflexivity. Qed.
Lemma etoks_unary op e : some (etoks cx c (EUnary op e)) -> some (etoks cx c e).
Proof. cbn [etoks]. destruct (etoks cx c e); [discriminate|auto]. Qed.
Lemma etoks_some e : eok true e -> some (etoks cx c e).
Proof.
  induction e as [v|v l IHl|t e IHe|l|a IHa|l IHl|t|op e IHe|a op b IHa IHb|a b d IHa IHb IHd] using expr_ind'; intros E; cbn [etoks].
  - destruct E as [[_ E] _]. now apply var_some.
  - unfold SafeFacts.eok in E. cbn [every] in E. destruct E as [[_ E1] E2]. apply everys_forall in E2.
    apply obind_some; [match goal with |- some (if ?b then _ else _) => destruct b; [discriminate|now apply name_some] end|].
    intro. apply obind_some; [|intro; apply obind_some; [now apply call_args_some|discriminate]].
    apply exprs_some. rewrite Forall_forall in IHl, E2 |- *. intros x X. apply IHl; [exact X|]. apply E2. exact X.
  - unfold SafeFacts.eok in E. cbn [every] in E. destruct E as [[_ E1] E2]. specialize (IHe E2).
    match goal with |- some (match ?m with Some f => _ | None => _ end) => destruct m; [discriminate|] end.
    destruct (ty_is_void t); [apply obind_some; [exact IHe|discriminate]|].
    apply obind_some; [|intro; apply obind_some; [now apply ty_some|discriminate]].
    assert (D : some (ts <-? etoks cx c e ;; Some (group_if (3 <? expr_prec e)%nat ts))) by (apply obind_some; [exact IHe|discriminate]).
    destruct e as [| | |[]| | | | | |]; try exact D. discriminate.
  - now apply lit_some.
  - now apply stringify_some.
  - unfold SafeFacts.eok in E. cbn [every] in E. destruct E as [_ E]. apply everys_forall in E. apply obind_some; [|discriminate].
    apply exprs_some. rewrite Forall_forall in IHl, E |- *. intros e I. specialize (IHl e I (E e I)).
    destruct e as [[i|s|m]| | | |a| | | | |]; try exact IHl; [destruct (str_eqb _ _); [discriminate|exact IHl]|].
    apply inner_some. apply E. exact I.
  - destruct E as [[_ E] _]. apply obind_some; [now apply ty_some|discriminate].
  - unfold SafeFacts.eok in E. cbn [every] in E. destruct E as [_ E]. specialize (IHe E).
    apply obind_some; [exact IHe|]. intro raw.
    assert (BELOW : some (match e with EUnary _ e1 => etoks cx c e1 | _ => Some [] end)).
    { destruct e; try discriminate. now apply etoks_unary in IHe. }
    destruct op; try discriminate; try (apply obind_some; [exact BELOW|discriminate]).
    destruct e as [| | | | | | |op2 e1|x op2 y|]; try discriminate.
    + apply obind_some; [exact BELOW|]. discriminate.
    + cbn [etoks] in IHe. unfold some in IHe. destruct (etoks cx c x) as [ls|]; cbn [obind] in IHe |- *; [|congruence].
      destruct (etoks cx c y) as [rs|]; cbn [obind] in IHe |- *; [|congruence]. discriminate.
  - apply bin_inv in E. destruct E as (E1 & E2 & _). specialize (IHa E1). specialize (IHb E2).
    apply obind_some; [exact IHa|]. intro ls. apply obind_some; [exact IHb|]. intro rs.
    destruct (block_assign op).
    + apply obind_some; [|discriminate]. destruct a; try discriminate. now apply etoks_unary in IHa.
    + destruct (binary_parens a op b). discriminate.
  - unfold SafeFacts.eok in E. cbn [every] in E. destruct E as (_ & E1 & E2 & E3).
    apply obind_some; [now apply IHa|]. intro. apply obind_some; [now apply IHb|]. intro. apply obind_some; [now apply IHd|]. discriminate.
Qed.

Lemma remove_some {A} (l : list A) : forall i, i < length l -> exists l', remove_nth l i = Some l' /\ S (length l') = length l /\ incl l' l.
Proof.
  induction l as [|x l IH]; intros [|i] I; cbn in *; try lia.
  - exists l. split; [reflexivity|]. split; [reflexivity|]. intros y Y. now right.
  - destruct (IH i) as (l' & E & L & N); [lia|]. rewrite E. exists (x :: l'). split; [reflexivity|]. split; [cbn; lia|].
    intros y [Y|Y]; [now left|right; auto].
Qed.
Lemma tie_some cs : forall outs ins k n, matching_ok (length outs) n k cs -> length ins + k = n ->
  Forall (eok true) (map snd outs) -> Forall (eok true) (map snd ins) ->
  exists o i, asm_tie cs outs ins = Some (o, i) /\ Forall (eok true) (map snd o) /\ Forall (eok true) (map snd i).
Proof.
  induction cs as [|r cs IH]; intros outs ins k n M L O N; cbn [asm_tie]; [eauto 6|].
  destruct r as [| | | |n0]; cbn [matching_ok] in M; try (eapply IH; eauto; fail). destruct M as [M1 M2].
  destruct (nth_error outs (N.to_nat n0)) as [[[d r] e]|] eqn:E.
  - assert (I : N.to_nat n0 < length outs) by (apply nth_error_Some; rewrite E; discriminate). specialize (M1 I). destruct M1 as [M1 M3].
    destruct (remove_some ins (N.to_nat n0)) as (ins' & R & RL & RI); [lia|]. rewrite R.
    destruct (set_nth_some outs (N.to_nat n0) (DInOut, r, e) I) as (outs' & S). rewrite S. cbn [obind].
    pose proof (set_nth_length _ _ _ _ S) as [SL _].
    apply (IH outs' ins' (Datatypes.S k) n); [now rewrite SL|lia| |].
    + apply Forall_map. eapply set_nth_forall; [exact S|now apply Forall_map|]. cbn. apply nth_error_In in E. rewrite Forall_map, Forall_forall in O. now apply O in E.
    + rewrite Forall_map, Forall_forall in N |- *. auto.
  - apply nth_error_None in E. eapply IH; eauto.
Qed.
Lemma asm_some a : amok true a -> some (asm_toks cx c a).
Proof.
  intros (A & O & N). unfold asm_toks. destruct (tie_some (map fst (asm_inputs a)) (asm_outputs a) (asm_inputs a) 0 (length (asm_inputs a)) A ltac:(lia) O N) as (o & i & E & O' & N').
  rewrite E. apply obind_some; [apply exprs_some; eapply Forall_impl; [|exact O']; apply etoks_some|]. intro.
  apply obind_some; [apply exprs_some; eapply Forall_impl; [|exact N']; apply etoks_some|]. discriminate.
Qed.
Lemma decl_some d : dok true d -> some (var_decl_toks cx c d).
Proof.
  intros (D1 & D2 & D3). unfold var_decl_toks. apply obind_some; [now apply ty_some|]. intro. apply obind_some; [now apply name_some|]. intro.
  apply obind_some; [now apply etoks_some|]. discriminate.
Qed.
Lemma fn_decl_some d : fdok d -> some (fn_decl_toks cx c d).
Proof.
  intros (D1 & D2 & D3). unfold fn_decl_toks. apply obind_some; [now apply name_some|]. intro. apply obind_some.
  - apply all_toks_some. eapply Forall_impl; [|exact D3]. intros [t n] [T N]. cbn in *. apply obind_some; [now apply ty_some|]. intro. apply obind_some; [now apply name_some|]. discriminate.
  - intro. apply obind_some; [now apply ty_some|]. discriminate.
Qed.
Lemma stmts_some l : Forall (fun s => sok true s -> some (stmt_toks cx c s)) l -> harmless_stmts (sok true) l -> some (stmts_toks (stmt_toks cx c) l).
Proof.
  induction 1; intro S; cbn [stmts_toks]; [discriminate|]. destruct S as [S1 S2]. apply obind_some; [auto|]. intro. apply obind_some; [auto|]. discriminate.
Qed.
Lemma stmt_some s : sok true s -> some (stmt_toks cx c s).
Proof.
  induction s as [a|e|d|d|l IHl|e a b IHa IHb|l e IHl] using stmt_ind'; intros S; cbn [stmt_toks sok] in *.
  - apply obind_some; [now apply asm_some|discriminate].
  - apply obind_some; [now apply etoks_some|discriminate].
  - now apply fn_decl_some.
  - apply obind_some; [now apply decl_some|discriminate].
  - apply obind_some; [now apply stmts_some|discriminate].
  - destruct S as (S1 & S2 & S3). apply obind_some; [now apply etoks_some|]. intro. apply obind_some; [now apply stmts_some|]. intro. apply obind_some; [now apply stmts_some|discriminate].
  - destruct S as (S1 & S2). apply obind_some; [now apply stmts_some|]. intro. apply obind_some; [now apply etoks_some|discriminate].
Qed.
Lemma body_some b : bok true b -> some (body_toks cx c b).
Proof. destruct b; [apply stmt_some|apply etoks_some]. Qed.
End C.
End S.
