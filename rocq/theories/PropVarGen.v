(** C46: when a variable-like macro is generated. *)
From Verif Require Import Base Utf Lex LexFloat Token Ast ParseStmt Rust Finish Codegen SpecGen StrFacts FinishFacts.
From Coq Require Import String List Lia.
Import ListNotations.
Local Open Scope string_scope.
Local Open Scope list_scope.

(** The result of generating a constant, step by step. *)
Lemma var_generate_inv {U : Unicode} cx m m' x : var_generate cx m = (m', ROk x) ->
  exists e e' c t, vm_body m = MbExpr e /\ vm_body m' = MbExpr e' /\ vm_name m' = vm_name m /\
    expr_finish cx e (var_lctx cx) = (e', c, FOk t) /\ lc_macro c = false.
Proof.
  unfold var_generate. destruct (vm_body m) as [s|e]; [intros E; apply (f_equal snd) in E; discriminate E|].
  destruct (expr_finish cx e (var_lctx cx)) as [[e' c] f] eqn:F. intros E.
  pose proof (f_equal fst E) as E1. pose proof (f_equal snd E) as E2. cbn [fst snd] in E1, E2. subst m'. clear E.
  exists e, e', c. destruct f as [t|er| |]; cbn [ofres] in E2; try discriminate E2. exists t.
  split; [reflexivity|]. split; [reflexivity|]. split; [reflexivity|]. split; [exact F|].
  destruct (lc_macro c); [|reflexivity]. exfalso. revert E2.
  match goal with |- rbind ?A _ = _ -> _ => destruct A; discriminate end.
Qed.

(** A name that needs no resolution at all: it is pasted together from plain
    parts, and printed as such. *)
Definition pasted (n : ident_expr) : Prop :=
  exists l, n = IConcat l /\ Forall (fun p => exists s, p = IpPlain s) l.

(** C46, except for pasted names, which are not looked up.  The last part is
    about the rewritten body: what the parser took for a dereference may turn
    out to be a product. *)
Theorem C46_partial {U : Unicode} cx m m' x : var_generate cx m = (m', ROk x) ->
  exists e e', vm_body m = MbExpr e /\ vm_body m' = MbExpr e' /\
    (forall n, In (MVar n) (mentions e) -> (exists s, n = IPlain s /\ resolved cx s) \/ pasted n) /\
    (forall n, ~ In (MCall n) (mentions e)) /\ (forall a, ~ In (MStr a) (mentions e)) /\
    (forall i, ~ In (MAssign i) (mentions e)) /\ no_deref e'.
Proof.
  intros G. apply var_generate_inv in G as (e & e' & c & t & B & B' & _ & F & M).
  pose proof (expr_good cx e (var_lctx cx)) as G. rewrite F in G. destruct G as (I1 & S1 & M1 & O1).
  destruct (O1 I) as [O D]. destruct S1 as (_ & _ & _ & S1 & S2 & _). cbn in S1, S2.
  exists e, e'. split; [exact B|]. split; [exact B'|]. rewrite Forall_forall in O.
  assert (K : forall m, In m (mentions e) -> mention_ok cx c m) by (intros y Y; apply O, I1, Y).
  unfold mention_ok in K. rewrite M in K.
  split; [|split; [|split; [|split]]].
  - intros n N. destruct (K _ N) as [K1 K2]. cbn in K1. destruct n as [i|s|l].
    + lia.
    + left. exists s. split; [reflexivity|]. unfold resolved in *.
      assert (X : source_location s \/ ~ source_location s).
      { unfold source_location. destruct (str_eqb_spec s (st "__LINE__")); [left; auto|]. destruct (str_eqb_spec s (st "__FILE__")); [left; auto|].
        right; tauto. }
      assert (Y : limit_macro s \/ ~ limit_macro s).
      { destruct (in_dec (list_eq_dec N.eq_dec) s (map st ["__SCHAR_MAX__"; "__SHRT_MAX__"; "__INT_MAX__"; "__LONG_MAX__"; "__LONG_LONG_MAX__"])); [left | right]; assumption. }
      assert (Z : cx_enum cx s <> None \/ cx_enum cx s = None) by (destruct (cx_enum cx s); [left; discriminate | right; reflexivity]).
      destruct X as [X|X]; [exfalso; cut (false = true); [discriminate | apply K1; tauto]|].
      split; [exact X|]. destruct Y as [Y|Y]; [left; exact Y|]. destruct Z as [Z|Z]; [right; exact Z|].
      exfalso; cut (false = true); [discriminate | apply K1; tauto].
    + right. exists l. split; [reflexivity|]. cbn in K2. eapply Forall_impl; [|exact K2]. rewrite S2.
      intros [i|s|v]; [lia | eauto | intros []].
  - intros n N. destruct (K _ N) as [_ [K2 _]]. rewrite S1 in K2. discriminate.
  - intros a N. destruct (K _ N) as [K1 K2]. destruct a as [[i|s|l]| | | | | | | | |]; try exact K2.
    + lia.
    + specialize (K1 K2). discriminate.
  - intros i N. destruct (K _ N) as [K1 _]. specialize (K1 I). discriminate.
  - apply D. reflexivity.
Qed.

(** A statement is refused as such. *)
Theorem C46_statement {U : Unicode} cx m s : vm_body m = MbStatement s -> snd (var_generate cx m) = RErr NonExpressionVarMacro.
Proof. intros E. unfold var_generate. rewrite E. reflexivity. Qed.

(** The hypotheses hold: a constant using an enumeration constant and a limit. *)
Definition demo_cx : cgctx :=
  mk_cgctx None None None (fun _ _ => None)
    (fun s => if str_eqb s (st "RED") then Some (plain_ty "color", [ri "RED"]) else None)
    (fun _ => None) (fun _ _ => None) (fun _ => None).
Example C46_case :
  let m := mk_var_macro (st "X") (MbExpr (EBinary (EVar (IPlain (st "RED"))) OSub (EVar (IPlain (st "__INT_MAX__"))))) in
  snd (@var_generate demo_unicode demo_cx m) = ROk ([ri "RED"; rp "-"; ri "c_int"; rp "::"; ri "MAX"], None).
Proof. vm_compute. reflexivity. Qed.
(** An unresolved variable, a call and a dereference are refused. *)
Example C46_refuses :
  map (fun e => snd (@var_generate demo_unicode demo_cx (mk_var_macro (st "X") (MbExpr e))))
    [EVar (IPlain (st "BLUE")); ECall (IPlain (st "f")) []; EUnary UDeref (EVar (IPlain (st "RED"))); EVar (IPlain (st "__LINE__"))]
  = [RErr NonConstantVarMacro; RErr (UnsupportedExpression (st "function call in variable-like macro"));
     RErr (UnsupportedExpression (st "dereference in variable-like macro")); RErr NonConstantVarMacro].
Proof. vm_compute. reflexivity. Qed.

(** The full claim fails for pasted names: [A ## B] is generated without being
    looked up. *)
Theorem C46_refuted : exists ts v x,
  @var_macro_parse demo_unicode (st "X") ts = ROk v /\
  snd (@var_generate demo_unicode cx_unit v) = ROk x /\
  exists e n, vm_body v = MbExpr e /\ In (MVar n) (mentions e) /\ ~ exists s, n = IPlain s /\ resolved cx_unit s.
Proof.
  exists [MIdent (st "A"); MPunct (st "##"); MIdent (st "B")].
  eexists. eexists. split; [vm_compute; reflexivity|]. split; [vm_compute; reflexivity|].
  eexists. eexists. split; [reflexivity|]. split; [left; reflexivity|]. intros (s & E & _). discriminate.
Qed.

Print Assumptions C46_partial.
Print Assumptions C46_statement.
Print Assumptions C46_refuted.
