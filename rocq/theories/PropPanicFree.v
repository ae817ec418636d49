(** C38: code generation does not panic. *)
From Verif Require Import Base Utf Lex LexFloat Token Ast Nom ParseTok ParseExpr ParseStmt Rust Finish Codegen SpecGen SpecFold SpecPanicFree
  MacroSet SpecSet SetFacts SpecTokens SpecParams StrFacts LexFacts NomFacts FinishFacts SafeFacts SafeGenFacts ParseSafeFacts PropTokens PropParse.
From Coq Require Import String List Lia Bool ZArith.
Import ListNotations.
Local Open Scope string_scope.
Local Open Scope list_scope.

(** ** The parsed tree *)

Section J.
Context {U : Unicode}.
Variable cx : cgctx.
Variable names : list str.
Lemma join_expr e : every (wnode names) e -> harmless_expr names e -> eok cx names false e.
Proof.
  unfold harmless_expr, eok. induction e as [v|v l IHl|t e IHe|l|a IHa|l IHl|t|op e IHe|a op b IHa IHb|a b d IHa IHb IHd] using expr_ind';
    cbn [every]; intros [W1 W2] [H1 H2]; (split; [split; [exact H1|try exact W1; try exact I]|]); try tauto.
  - apply everys_forall. apply everys_forall in W2, H2. rewrite Forall_forall in IHl, W2, H2 |- *. auto.
  - destruct l as [|[]| |]; try exact I. discriminate.
  - apply everys_forall. apply everys_forall in W2, H2. rewrite Forall_forall in IHl, W2, H2 |- *. auto.
Qed.
Lemma join_exprs l : Forall (every (wnode names)) l -> Forall (harmless_expr names) l -> Forall (eok cx names false) l.
Proof. intros A B. rewrite Forall_forall in A, B |- *. intros e E. apply join_expr; auto. Qed.
Lemma join_stmts l : Forall (fun s => wstmt names s -> harmless_stmt names s -> sok cx names false s) l ->
  harmless_stmts (wstmt names) l -> harmless_stmts (harmless_stmt names) l -> harmless_stmts (sok cx names false) l.
Proof. intros F A B. apply stmts_forall. apply stmts_forall in A, B. rewrite Forall_forall in F, A, B |- *. auto. Qed.
Lemma join_stmt s : wstmt names s -> harmless_stmt names s -> sok cx names false s.
Proof.
  induction s using stmt_ind'; cbn [wstmt harmless_stmt sok].
  - intros [A B] (C & D & E). repeat split; auto using join_exprs.
  - apply join_expr.
  - auto.
  - intros (A & B & C) D. repeat split; auto using join_expr.
  - now apply join_stmts.
  - intros (A & B & C) (D & E & F). repeat split; auto using join_expr, join_stmts.
  - intros (A & B) (D & E). repeat split; auto using join_expr, join_stmts.
Qed.
Lemma join_body b : wbody names b -> harmless names b -> bok cx names false b.
Proof. destruct b; [apply join_stmt|apply join_expr]. Qed.

(** The parameters are identifiers, except for a final ellipsis. *)
Definition params_ok (l : list str) : Prop :=
  exists a, Forall (fun n => is_identifier n = true) a /\ (l = a \/ l = a ++ [st "..."]).
Lemma args_ok k ts r l : Forall (token_ok k) ts -> parse_args ts = POk r l -> params_ok l.
Proof.
  intros T E. enough (G : gives k parse_args params_ok) by (eapply G; eauto). clear ts r l T E.
  unfold parse_args. apply gives_consuming, gives_terminated; [|apply gives_meta]. apply gives_alt.
  - apply gives_map, gives_preceded; [apply gives_meta|]. eapply gives_take. intros [i|s|s|l|s|s] y T E; try discriminate.
    cbn beta iota in E. destruct (str_eqb (st "...") s); [|discriminate]. injection E as <-. exists []. auto.
  - eapply gives_bind with (P := Forall (fun n => is_identifier n = true)).
    + eapply gives_fold; [apply gives_preceded; [apply gives_meta|apply gives_macro_id]|constructor|]. intros a b A B. apply Forall_app. auto.
    + intros a A. eapply gives_bind with (P := opt (fun v => v = st "...")).
      * apply gives_preceded; [apply gives_meta|]. apply gives_opt, gives_take. intros [i|s|s|l|s|s] y T E; try discriminate.
        cbn beta iota in E. destruct (str_eqb (st "...") s); [|discriminate]. injection E as <-. auto.
      * intros [v|] V; apply gives_ret; exists a; split; auto; [right; now rewrite V|left; apply app_nil_r].
Qed.
Lemma params_names l : params_ok l -> Forall (fun n => is_identifier n = true \/ n = st "...") l.
Proof.
  intros (a & A & [->| ->]); [|apply Forall_app; split; [|constructor; [right; reflexivity|constructor]]]; (eapply Forall_impl; [|exact A]); cbn; auto.
Qed.
End J.

(** ** Generation *)

Section Q.
Context {U : Unicode}.
Variable cx : cgctx.
Hypothesis CX : context_ok cx.

(** The outcome of a function that neither panics nor runs forever. *)
Definition returns {E A} (r : res E A) : Prop := match r with ROk _ | RErr _ => True | _ => False end.
Lemma returns_bind {E A B} (r : res E A) (k : A -> res E B) : returns r -> (forall a, returns (k a)) -> returns (x <- r ;; k x).
Proof. destruct r; cbn; auto. Qed.
Lemma returns_some {E A} (o : option A) : some o -> @returns E A (opanic o).
Proof. destruct o; unfold some; cbn; auto. Qed.

Lemma arg_types_ok name l : match arg_types cx name l with
  | ROk tys => length tys = length l /\ Forall (aok l) tys /\ forall names, Forall (aok names) tys
  | RErr _ => True | _ => False end.
Proof.
  enough (G : match arg_types cx name l with ROk tys => length tys = length l /\ forall names, Forall (aok names) tys | RErr _ => True | _ => False end).
  { destruct (arg_types cx name l); auto. destruct G. auto. }
  induction l as [|a l IH]; cbn [arg_types]; [split; auto|].
  destruct CX as (CA & _). specialize (CA name a). destruct (cx_arg_ty cx name a) as [t|].
  - specialize (CA t eq_refl). pose proof (from_rust_ty_fuel (cx_ffi cx) t) as NF.
    destruct (from_rust_ty (cx_ffi cx) t) as [t'|e| |] eqn:E; cbn [rbind]; [|exact I|now apply from_rust_ty_panic in E|now apply NF].
    destruct (arg_types cx name l) as [tys|e| |]; cbn [rbind]; auto. destruct IH as [IH1 IH2]. split; [cbn; lia|]. intro names. constructor; [|auto]. cbn. eapply from_rust_ok; eauto.
  - cbn [rbind]. destruct (arg_types cx name l) as [tys|e| |]; cbn [rbind]; auto. destruct IH as [IH1 IH2]. split; [cbn; lia|]. intro names. constructor; [exact I|auto].
Qed.
Lemma pattern_some names : Forall (fun n => is_identifier n = true \/ n = st "...") names -> forall tys, some (pattern_toks names tys).
Proof.
  induction 1 as [|n names N F IH]; intros [|t tys]; cbn [pattern_toks]; try discriminate.
  apply obind_some; [|intro p; apply obind_some; [apply IH|discriminate]].
  destruct (str_eqb_spec n (st "...")) as [|NE]; [discriminate|]. destruct N as [N|N]; [|contradiction]. apply obind_some; [now apply ident_some|discriminate].
Qed.
Lemma param_some c all names : cok all c -> Forall (fun n => is_identifier n = true \/ n = st "...") all ->
  Forall (fun n => is_identifier n = true) names -> forall tys, Forall (aok all) tys -> forallb is_known tys = true -> some (param_toks cx c names tys).
Proof.
  intros C A. induction 1 as [|n names N F IH]; intros [|t tys] T K; cbn [param_toks]; try discriminate.
  cbn in K. apply andb_true_iff in K. destruct K as [K1 K2]. inversion T; subst.
  apply obind_some; [|intro p; apply obind_some; [now apply IH|discriminate]]. destruct t as [| | | |t|]; try discriminate.
  apply obind_some; [now apply ident_some|]. intro i. apply obind_some; [eapply ty_some; eauto|discriminate].
Qed.

Theorem fn_returns m : is_identifier (fm_name m) = true -> params_ok (fm_args m) -> bok cx (fm_args m) false (fm_body m) -> returns (snd (fn_generate cx m)).
Proof.
  intros N P B. pose proof (params_names _ P) as NAMES. unfold fn_generate. pose proof (arg_types_ok (fm_name m) (fm_args m)) as T.
  destruct (arg_types cx (fm_name m) (fm_args m)) as [tys|e| |]; [|exact I|contradiction..]. destruct T as (T1 & T2 & _).
  assert (C0 : cok (fm_args m) (mk_lctx (fm_args m) tys false true true false)) by (split; [reflexivity|split; assumption]).
  pose proof (body_post cx (fm_args m) CX _ _ B C0) as G. destruct (body_finish cx (fm_body m) (mk_lctx (fm_args m) tys false true true false)) as [[b c1] f] eqn:E.
  destruct (body_sgood cx _ _ _ _ _ E) as [NF _]. destruct G as [C1 F]. destruct f as [ret|e| |]; cbn [snd ofres]; [|exact I|contradiction|now apply NF]. destruct F as [Bt R].
  cbv zeta. set (mm := (_ || _ || _ || _ || _)%bool). assert (MM : mm = false -> Rust.is_variadic c1 = false /\ forallb is_known (lc_types c1) = true).
  { unfold mm. intro M. repeat (apply orb_false_iff in M; destruct M as [M ?]). split; [assumption|]. now apply negb_false_iff. }
  clearbody mm. assert (C : cok (fm_args m) (set_macro mm c1)) by exact C1. apply returns_bind; [now apply returns_some, ident_some|]. intro name.
  apply returns_bind; [eapply returns_some, body_some; eauto|]. intro body. cbn [lc_macro set_macro]. destruct mm.
  - apply returns_bind; [now apply returns_some, pattern_some|]. intro args. apply returns_bind; [|intros; exact I].
    apply returns_some, ident_some. apply identifier_app; [reflexivity|now apply identifier_all_continue].
  - destruct (MM eq_refl) as [V K]. destruct C1 as (L1 & L2 & L3). apply returns_bind.
    + apply returns_some. eapply param_some with (all := fm_args m); eauto. destruct P as (a & A & [Q|Q]); [now rewrite Q|].
      unfold Rust.is_variadic in V. rewrite L1, Q, rev_app_distr in V. cbn [rev app] in V. rewrite str_eqb_refl in V. discriminate.
    + intro args. apply returns_bind; [|intros; exact I]. destruct ret as [t|]; [|exact I]. destruct (ty_is_void t); [exact I|].
      apply returns_bind; [eapply returns_some, ty_some; eauto|intros; exact I].
Qed.

Theorem var_returns m : bok cx [] false (vm_body m) -> returns (snd (var_generate cx m)).
Proof.
  intros B. unfold var_generate. destruct (vm_body m) as [s|e]; [exact I|]. cbn [bok] in B.
  assert (C0 : cok [] (var_lctx cx)) by (split; [reflexivity|split; [reflexivity|constructor]]).
  pose proof (expr_post cx [] CX e _ B C0) as G. destruct (expr_finish cx e (var_lctx cx)) as [[e' c] f] eqn:E.
  apply expr_fuel in E. destruct G as [C F]. destruct f as [t|x| |]; cbn [snd ofres]; [|exact I|contradiction|now apply E]. destruct F as [Et T].
  apply returns_bind; [|intro a; destruct (lc_macro c); exact I].
  assert (D : returns (ts <- opanic (etoks cx c e') ;;
            match t with
            | Some t => y <- opanic (ty_toks cx c t) ;; ROk (ts, Some y)
            | None => ROk (ts, None)
            end : res cgerr (list rtok * option (list rtok)))).
  { apply returns_bind; [eapply returns_some, etoks_some; eauto|]. intro ts. destruct t as [t|]; [|exact I].
    apply returns_bind; [eapply returns_some, ty_some; eauto|intros; exact I]. }
  destruct e' as [| | |[|s| |]| | | | | |]; try exact D. apply returns_bind; [eapply returns_some, string_some; eauto|intros; exact I].
Qed.
End Q.

(** ** The theorems *)

(** Generation returns code or an error, if the tokens given to [parse] hold
    well-formed identifiers and parameters in range, the types the context
    answers hold no raw identifiers, and the body is harmless: it divides by no
    integer constant zero, does not stringify [...], and its [asm] statements
    have at most the matching constraints the code copes with.  Missing: the
    bodies that are not harmless, for which the claim is false (below). *)
Section T.
Context {U : Unicode}.

Lemma returned {E A} (r : res E A) : returns r -> (exists x, r = ROk x) \/ (exists e, r = RErr e).
Proof. destruct r; cbn; intro X; try contradiction; eauto. Qed.

Theorem C38_fn_partial cx name args body m :
  context_ok cx -> Forall (token_ok 0) args -> fn_macro_parse name args body = ROk m ->
  Forall (token_ok (length (fm_args m))) body -> harmless (fm_args m) (fm_body m) ->
  (exists ts, snd (fn_generate cx m) = ROk ts) \/ (exists e, snd (fn_generate cx m) = RErr e).
Proof.
  intros CX A. unfold fn_macro_parse. destruct (is_identifier name) eqn:N; cbn [negb]; [|discriminate].
  destruct (parse_args args) as [r a| |] eqn:EA; try discriminate. destruct (macro_body_parse body) as [r2 b| |] eqn:EB; try discriminate.
  intros E. injection E as <-. cbn [fm_args fm_body]. intros T HB. apply returned, fn_returns; cbn [fm_args fm_body fm_name]; auto.
  - exact (args_ok 0 _ _ _ A EA).
  - apply join_body; [|exact HB]. eapply (gives_body a); eauto.
Qed.

Theorem C38_var_partial cx name body m :
  context_ok cx -> Forall (token_ok 0) body -> var_macro_parse name body = ROk m -> harmless [] (vm_body m) ->
  (exists x, snd (var_generate cx m) = ROk x) \/ (exists e, snd (var_generate cx m) = RErr e).
Proof.
  intros CX T. unfold var_macro_parse. destruct (is_identifier name) eqn:N; cbn [negb]; [|discriminate].
  destruct (macro_body_parse body) as [r2 b| |] eqn:EB; try discriminate.
  intros E. injection E as <-. cbn [vm_body]. intros HB. apply returned, var_returns; cbn [vm_body]; auto.
  apply join_body; [|exact HB]. eapply (gives_body []); eauto.
Qed.

(** The tokens that a macro set returns meet these conditions, unless there is
    a comment among the parameters. *)
Lemma wf_identifier s : well_formed_identifier s -> is_identifier s = true.
Proof.
  intros (c & r & -> & C & R). cbn. apply andb_true_iff. split.
  - unfold is_identifier_start. apply orb_true_iff. destruct C as [C| ->]; [now left|now right].
  - apply forallb_forall. rewrite Forall_forall in R. exact R.
Qed.

Theorem C38_expanded_fn_partial cx ms fuel n ps body a out m :
  context_ok cx -> sm_get (fn_macros ms) n = Some (ps, body) -> (forall s, In s ps -> parameter_kind s <> PComment) ->
  expand_fn_macro ms fuel n = ROk (a, out) -> fn_macro_parse n a out = ROk m -> harmless (fm_args m) (fm_body m) ->
  (exists ts, snd (fn_generate cx m) = ROk ts) \/ (exists e, snd (fn_generate cx m) = RErr e).
Proof.
  intros CX D NC E P HB.
  assert (N : is_identifier n = true).
  { unfold fn_macro_parse in P. destruct (is_identifier n); [reflexivity|discriminate]. }
  pose proof (proj2 (C47_fn_macro n a out N) m P) as IP.
  assert (L : length (parameters a) = length (fm_args m)).
  { destruct IP as (ids & dots & F & ->). unfold parameters. change not_mcomment with no_comment. rewrite F, !app_length, map_length. destruct dots; reflexivity. }
  apply (C38_fn_partial cx n a out m); auto.
  - apply Forall_forall. intros t T. destruct t as [i|s|s|l|s|s]; try exact I; cbn.
    + exfalso. destruct IP as (ids & dots & F & _). assert (X : In (MArg i) (filter no_comment a)) by (apply filter_In; auto).
      rewrite F in X. apply in_app_iff in X. destruct X as [X|X]; [apply in_map_iff in X; destruct X as (? & ? & _); discriminate|].
      destruct dots; [destruct X as [X|[]]; discriminate|destruct X].
    + eapply wf_identifier, C23_expand_fn_macro_identifiers; eauto.
  - apply Forall_forall. intros t T. destruct t as [i|s|s|l|s|s]; try exact I; cbn.
    + rewrite <- L. destruct (C22_argument_references ms fuel n ps body a out i D E T NC) as (x & X & _). apply nth_error_Some. congruence.
    + eapply wf_identifier, C23_expand_fn_macro_identifiers; eauto.
Qed.

Theorem C38_expanded_var_partial cx ms fuel n out m :
  context_ok cx -> expand_var_macro ms fuel n = ROk out -> var_macro_parse n out = ROk m -> harmless [] (vm_body m) ->
  (exists x, snd (var_generate cx m) = ROk x) \/ (exists e, snd (var_generate cx m) = RErr e).
Proof.
  intros CX E P HB. apply (C38_var_partial cx n out m); auto. apply Forall_forall. intros t T. destruct t as [i|s|s|l|s|s]; try exact I; cbn.
  - exfalso. eapply C19_expand_var_macro_no_arguments; eauto.
  - eapply wf_identifier, C23_expand_var_macro_identifiers; eauto.
Qed.
End T.

(** ** Where it panics *)

Section R.
Let I (s : string) := MIdent (st s).
Let P (s : string) := MPunct (st s).
Let L (z : Z) := MLit (LInt (mk_int z None)).
Let S (s : string) := MLit (LString (SOrdinary (st s))).
Definition well_given (k : nat) (args body : list mtoken) : Prop := Forall (token_ok 0) args /\ Forall (token_ok k) body.

Lemma unit_ok `{Unicode} : context_ok cx_unit.
Proof. repeat split; discriminate. Qed.

(** [1 / 0] and [1 % 0], also when they are nested. *)
Theorem C38_division_refuted : exists body m, well_given 0 [] body /\
  var_macro_parse (st "M") body = ROk m /\ snd (var_generate cx_unit m) = RPanic.
Proof. exists [L 1; P "/"; L 0]. eexists. split; [split; repeat constructor|]. split; [vm_compute; reflexivity|]. vm_compute. reflexivity. Qed.
Theorem C38_remainder_refuted : exists body m, well_given 1 [I "x"] body /\
  fn_macro_parse (st "F") [I "x"] body = ROk m /\ snd (fn_generate cx_unit m) = RPanic.
Proof.
  exists [P "("; MArg 0; P "+"; P "("; L 1; P "%"; P "("; L 2; P "-"; L 2; P ")"; P ")"; P ")"]. eexists. split; [split; repeat constructor|]. split; [vm_compute; reflexivity|]. vm_compute. reflexivity.
Qed.
(** [#define F(...) #__VA_ARGS__]. *)
Theorem C38_stringify_refuted : exists m, well_given 1 [P "..."] [P "#"; MArg 0] /\
  fn_macro_parse (st "F") [P "..."] [P "#"; MArg 0] = ROk m /\ snd (fn_generate cx_unit m) = RPanic.
Proof. eexists. split; [split; repeat constructor|]. split; [vm_compute; reflexivity|]. vm_compute. reflexivity. Qed.
(** The same from the definition in a macro set. *)
Theorem C38_stringify_expanded_refuted : exists (h : list call) a out m,
  expand_fn_macro (run h) 9 (st "F") = ROk (a, out) /\ fn_macro_parse (st "F") a out = ROk m /\ snd (fn_generate cx_unit m) = RPanic.
Proof.
  exists [DefineFn (st "F") [st "..."] [st "#"; st "__VA_ARGS__"]]. do 3 eexists. split; [vm_compute; reflexivity|]. split; [vm_compute; reflexivity|]. vm_compute. reflexivity.
Qed.
(** [asm("nop" : "=r"(a), "=r"(b) : "0"(a), "1"(b))]. *)
Theorem C38_asm_refuted : exists body m, well_given 0 [] body /\
  fn_macro_parse (st "F") [] body = ROk m /\ snd (fn_generate cx_unit m) = RPanic.
Proof.
  exists [I "__asm__"; P "("; S "nop"; P ":"; S "=r"; P "("; I "a"; P ")"; P ","; S "=r"; P "("; I "b"; P ")";
          P ":"; S "0"; P "("; I "a"; P ")"; P ","; S "1"; P "("; I "b"; P ")"; P ")"].
  eexists. split; [split; repeat constructor|]. split; [vm_compute; reflexivity|]. vm_compute. reflexivity.
Qed.
(** A context in which the type [t] is called [r#type]. *)
Definition raw_cx : cgctx :=
  mk_cgctx None None None (fun _ _ => None) (fun _ => None)
    (fun n => if str_eqb n (st "t") then Some (STPath None (mk_path false [(st "r#type", [])])) else None) (fun _ _ => None) (fun _ => None).
Theorem C38_raw_refuted : exists body m, well_given 0 [] body /\
  var_macro_parse (st "M") body = ROk m /\ snd (var_generate raw_cx m) = RPanic.
Proof. exists [P "("; I "t"; P ")"; L 1]. eexists. split; [split; repeat constructor|]. split; [vm_compute; reflexivity|]. vm_compute. reflexivity. Qed.
(** [#define F(a, /*c*/, ...) __VA_ARGS__]: the reference to the variable
    arguments is one too high. *)
Theorem C38_comment_refuted : exists (h : list call) a out m,
  expand_fn_macro (run h) 9 (st "F") = ROk (a, out) /\ fn_macro_parse (st "F") a out = ROk m /\ snd (fn_generate cx_unit m) = RPanic.
Proof.
  exists [DefineFn (st "F") [st "a"; st "/*c*/"; st "..."] [st "__VA_ARGS__"]]. do 3 eexists. split; [vm_compute; reflexivity|]. split; [vm_compute; reflexivity|]. vm_compute. reflexivity.
Qed.

(** Not vacuous: [do { f(#x, __VA_ARGS__); if (10 / (3 - x)) asm("nop" : "=r"(x) : "0"(y)); } while (7 % 2)],
    defined in a macro set, and generated. *)
Let h : list call := [DefineFn (st "F") [st "x"; st "y"; st "..."]
  (map st ["do"; "{"; "f"; "("; "#"; "x"; ","; "__VA_ARGS__"; ")"; ";"; "if"; "("; "10"; "/"; "("; "3"; "-"; "x"; ")"; ")";
           "__asm__"; "("; """nop"""; ":"; """=r"""; "("; "x"; ")"; ":"; """0"""; "("; "y"; ")"; ")"; ";"; "}"; "while"; "("; "7"; "%"; "2"; ")"])].
Example C38_case : exists ps body a out m ts,
  sm_get (fn_macros (run h)) (st "F") = Some (ps, body) /\ (forall s, In s ps -> parameter_kind s <> PComment) /\
  expand_fn_macro (run h) 9 (st "F") = ROk (a, out) /\ fn_macro_parse (st "F") a out = ROk m /\
  harmless (fm_args m) (fm_body m) /\ snd (fn_generate cx_unit m) = ROk ts.
Proof.
  do 6 eexists. split; [vm_compute; reflexivity|]. split.
  { intros s [<-|[<-|[<-|[]]]]; vm_compute; discriminate. }
  split; [vm_compute; reflexivity|]. split; [vm_compute; reflexivity|]. split; [|vm_compute; reflexivity].
  cbn. repeat split; try discriminate.
  all: try (now left).
  all: try lia.
  all: try (repeat constructor; fail).
  all: try (right; left; eexists; split; [reflexivity|discriminate]).
Qed.
End R.

Print Assumptions C38_fn_partial.
Print Assumptions C38_var_partial.
Print Assumptions C38_expanded_fn_partial.
Print Assumptions C38_expanded_var_partial.
Print Assumptions C38_division_refuted.
Print Assumptions C38_remainder_refuted.
Print Assumptions C38_stringify_refuted.
Print Assumptions C38_stringify_expanded_refuted.
Print Assumptions C38_asm_refuted.
Print Assumptions C38_raw_refuted.
Print Assumptions C38_comment_refuted.
