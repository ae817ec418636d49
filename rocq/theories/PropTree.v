(** C36: the generated tokens are read as the operators of the expression. *)
From Verif Require Import Base Utf Lex LexFloat Token Ast Nom ParseTok ParseStmt Rust Finish Codegen SpecRustExpr SpecTree StrFacts FinishFacts RustExprFacts TreeFacts PropFnGen.
From Coq Require Import String List Lia Bool.
Import ListNotations.
Local Open Scope string_scope.
Local Open Scope list_scope.

(** ** Expressions *)

(** C36 for the expressions of [fine]: the tokens are one Rust expression, and
    it has the operators of the expression applied to the same operands.  As the
    body of a block they are that expression as well, if they do not start
    with a block that would end the statement. *)
Theorem C36_partial {U : Unicode} cx c e ts :
  plain_context cx -> fine cx c e -> etoks cx c e = Some ts ->
  exists x, tree cx c e x /\ reads ts x /\ (forall y, reads ts y -> y = x) /\
    (is_tail cx c e -> reads_block ts (RB [] (Some x)) /\ forall b, reads_block ts b -> b = RB [] (Some x)).
Proof.
  intros P F T. destruct (all_read cx c P e) as [R _]. destruct (R ts F T) as (x & G). pose proof G as (Tr & O & _).
  assert (Re : reads ts x) by (eapply op_whole; [exact O|lia]).
  exists x. split; [exact Tr|]. split; [exact Re|]. split; [intros y Y; now apply (reads_fun ts)|].
  intro Tl. assert (Rb : reads_block ts (RB [] (Some x))) by (eapply tail_block; eassumption).
  split; [exact Rb|]. intros b B. now apply (reads_block_fun ts).
Qed.

(** *** Operators on names and numbers

    Without casts, dereferences and assignments there is no condition on how the
    operators are nested. *)
Inductive arith (cx : cgctx) : expr -> Prop :=
| A_name s : keyword s = false -> s <> st "__LINE__" -> cx_enum cx s = None -> arith cx (EVar (IPlain s))
| A_int i : arith cx (ELit (LInt i))
| A_char x : arith cx (ELit (LChar x))
| A_call f l : keyword f = false -> is_offsetof (IPlain f) l = false -> Forall (arith cx) l -> arith cx (ECall (IPlain f) l)
| A_unary op e : op = UNot \/ op = UComp \/ op = UMinus -> arith cx e -> arith cx (EUnary op e)
| A_binary l op r : is_plain op = true -> arith cx l -> arith cx r -> arith cx (EBinary l op r).

Lemma arith_ind' (cx : cgctx) (P : expr -> Prop) :
  (forall s, keyword s = false -> s <> st "__LINE__" -> cx_enum cx s = None -> P (EVar (IPlain s))) ->
  (forall i, P (ELit (LInt i))) -> (forall x, P (ELit (LChar x))) ->
  (forall f l, keyword f = false -> is_offsetof (IPlain f) l = false -> Forall P l -> P (ECall (IPlain f) l)) ->
  (forall op e, op = UNot \/ op = UComp \/ op = UMinus -> P e -> P (EUnary op e)) ->
  (forall l op r, is_plain op = true -> P l -> P r -> P (EBinary l op r)) ->
  forall e, arith cx e -> P e.
Proof.
  intros H1 H2 H3 H4 H5 H6. fix IH 2. intros e A. destruct A; [apply H1|apply H2|apply H3|apply H4|apply H5|apply H6]; auto.
  clear H H0. revert l H7. fix IHl 2. intros l [|a l' A L]; constructor; auto.
Qed.

Lemma arith_fine {U : Unicode} cx c e : arith cx e -> fine cx c e /\ ends_in_type e = false /\ (expr_prec e <= 2 -> 14 <= lvl e).
Proof.
  induction 1 as [s K L E|i|x|f l K O W|op e Op (F & T & L)|l op r Pl (F1 & T1 & L1) (F2 & T2 & L2)] using arith_ind'.
  - cbn [fine ends_in_type lvl]. destruct (str_eqb_spec s (st "__LINE__")); [contradiction|]. split; [|split; [reflexivity|lia]].
    split; [exact K|]. intros t ts Q. congruence.
  - cbn. repeat split. destruct (int_value i <? 0)%Z; lia.
  - cbn. repeat split. lia.
  - split; [|split; [reflexivity|cbn; lia]]. intros _. split; [exact K|]. clear O. induction W as [|a l [A _] W IH]; [exact I|].
    split; [|exact IH]. destruct a as [[]| | | | | | | | |]; auto.
  - cbn [fine ends_in_type lvl]. split; [|split; [reflexivity|]]; destruct Op as [-> | [-> | ->]]; auto.
  - cbn [fine ends_in_type]. split; [|split].
    + split; [exact F1|]. destruct op; try discriminate; cbn [valued]; auto.
    + destruct op; try discriminate; cbn [valued]; rewrite T2; apply andb_false_r.
    + destruct op; try discriminate; cbn; lia.
Qed.

Theorem C36_operators {U : Unicode} cx c e ts :
  plain_context cx -> arith cx e -> etoks cx c e = Some ts -> exists x, tree cx c e x /\ reads ts x /\ forall y, reads ts y -> y = x.
Proof.
  intros P A T. destruct (C36_partial cx c e ts P (proj1 (arith_fine cx c e A)) T) as (x & X & R & V & _). eauto.
Qed.

(** ** Generated items *)

(** The body of a function, or of a macro, is the tokens of the body that was
    left by inference. *)
Lemma fn_body {U : Unicode} cx m m' ts : fn_generate cx m = (m', ROk ts) ->
  exists c body, lc_names c = fm_args m /\ body_toks cx c (fm_body m') = Some body /\
    ((lc_macro c = false /\ exists params ret, ts = function_item (fm_name m) params ret body) \/
     (lc_macro c = true /\ exists patterns, ts = macro_item (fm_name m) patterns body)).
Proof.
  unfold fn_generate. destruct (arg_types cx (fm_name m) (fm_args m)) as [tys|er| |] eqn:A;
    try (intros E; apply (f_equal snd) in E; discriminate E).
  destruct (body_finish cx (fm_body m) _) as [[b c1] f] eqn:F. intros E.
  pose proof (f_equal fst E) as Em. apply (f_equal snd) in E. cbn [snd fst] in E, Em. subst m'.
  destruct f as [ret|er| |]; cbn [ofres] in E; try discriminate E.
  pose proof (body_sgood cx _ _ _ _ _ F) as (_ & S & _). destruct S as (S1 & _).
  set (mac := lc_macro c1 || _ || _ || _ || _) in E.
  apply rbind_inv in E as (name & E1 & E). apply opanic_inv, ident_tok_inv in E1 as ->.
  apply rbind_inv in E as (body & Eb & E). apply opanic_inv in Eb.
  exists (set_macro mac c1), body. split; [exact S1|]. split; [exact Eb|]. cbn [lc_macro set_macro] in E |- *. destruct mac.
  - right. split; [reflexivity|]. apply rbind_inv in E as (args & E1 & E).
    apply rbind_inv in E as (mid & E2 & E). apply opanic_inv, ident_tok_inv in E2 as ->. injection E as <-. eexists. reflexivity.
  - left. split; [reflexivity|]. apply rbind_inv in E as (args & E1 & E).
    apply rbind_inv in E as (rt & _ & E). injection E as <-. do 2 eexists. reflexivity.
Qed.

(** C36 for a function-like macro with an expression: its function or macro has
    a body that is read as the expression. *)
Theorem C36_generate_partial {U : Unicode} cx m m' e ts :
  plain_context cx -> fn_generate cx m = (m', ROk ts) -> fm_body m' = MbExpr e ->
  exists c body, lc_names c = fm_args m /\
    ((lc_macro c = false /\ exists params ret, ts = function_item (fm_name m) params ret body) \/
     (lc_macro c = true /\ exists patterns, ts = macro_item (fm_name m) patterns body)) /\
    (fine cx c e -> exists x, tree cx c e x /\ reads body x /\ (is_tail cx c e -> reads_block body (RB [] (Some x)))).
Proof.
  intros P G B. destruct (fn_body cx m m' ts G) as (c & body & N & T & S). rewrite B in T. cbn [body_toks] in T.
  exists c, body. split; [exact N|]. split; [exact S|]. intro F.
  destruct (C36_partial cx c e body P F T) as (x & X & R & _ & Tl). exists x. split; [exact X|]. split; [exact R|]. intro I. now apply Tl.
Qed.

(** ** Cases *)

Section Demo.
#[local] Existing Instance demo_unicode.
Let I (s : string) := MIdent (st s).
Let P (s : string) := MPunct (st s).
Let L (z : Z) := MLit (LInt (mk_int z None)).
Let c0 : lctx := mk_lctx [st "x"; st "y"; st "z"] [AUnknown; AUnknown; AUnknown] true true true false.
Let v (i : nat) := EVar (IArg i).
Let n (z : Z) := ELit (LInt (mk_int z None)).

Lemma plain_unit : plain_context cx_unit.
Proof. split; exact Logic.I. Qed.

(** [(x - (y - z)) * -(x + 1) == (y & 3) << 2]. *)
Example C36_case :
  let e := EBinary (EBinary (EBinary (v 0) OSub (EBinary (v 1) OSub (v 2))) OMul (EUnary UMinus (EBinary (v 0) OAdd (n 1)))) OEq
             (EBinary (EBinary (v 1) OBitAnd (n 3)) OShl (n 2)) in
  fine cx_unit c0 e /\ is_tail cx_unit c0 e /\
  etoks cx_unit c0 e =
    Some [parens [rp "$"; ri "x"; rp "-"; parens [rp "$"; ri "y"; rp "-"; rp "$"; ri "z"]]; rp "*"; rp "-";
          parens [rp "$"; ri "x"; rp "+"; RLit (RlInt 1 [])]; rp "=="; parens [rp "$"; ri "y"; rp "&"; RLit (RlInt 3 [])];
          rp "<<"; RLit (RlInt 2 [])].
Proof.
  cbn zeta. split; [|split].
  - cbn. repeat split; intros; try congruence; try lia; try (injection H as <-; try discriminate; auto).
  - left. intros ts T. vm_compute in T. injection T as <-. reflexivity.
  - vm_compute. reflexivity.
Qed.
(** [x ? *(y + 1) : (int)z], and what it is read as. *)
Example C36_case2 :
  let e := ETernary (v 0) (EUnary UDeref (EBinary (v 1) OAdd (n 1))) (ECast (TyBuiltIn BInt) (v 2)) in
  fine cx_unit c0 e /\ is_tail cx_unit c0 e /\ exists ts, etoks cx_unit c0 e = Some ts /\
  reads ts (XIf (XPath [rp "$"; ri "x"])
    (RB [] (Some (XUn (st "*") (XMethod (XPath [rp "$"; ri "y"]) (st "add") [x_one]))))
    (Some (RB [] (Some (XCast (XPath [rp "$"; ri "z"]) [ri "c_int"]))))).
Proof.
  cbn zeta. split; [|split].
  - repeat split; cbn; intros; try congruence; try lia; try (injection H as <-; try discriminate; auto);
      try (left; intros ts T; vm_compute in T; injection T as <-; reflexivity).
    intros ts T. vm_compute in T. injection T as <-. reflexivity.
  - right. reflexivity.
  - eexists. split; [vm_compute; reflexivity|]. exists 20. vm_compute. reflexivity.
Qed.
(** [!f(x, -y) * 2 < 3], with names. *)
Example C36_operators_case :
  arith cx_unit (EBinary (EBinary (EUnary UNot (ECall (IPlain (st "f")) [EVar (IPlain (st "a")); EUnary UMinus (EVar (IPlain (st "b")))])) OMul (n 2)) OLt (n 3)).
Proof. repeat (constructor; try reflexivity; auto; try discriminate). Qed.

(** ** What is not read as it was written

    [generated args body e ts]: the macro [F] with these parameters and this
    body is generated as a macro whose body is [ts], from the expression [e]. *)
Definition generated (args body : list mtoken) (e : expr) (ts : list rtok) : Prop :=
  exists m m' patterns, fn_macro_parse (st "F") args body = ROk m /\
    fn_generate cx_unit m = (m', ROk (macro_item (st "F") patterns ts)) /\ fm_body m' = MbExpr e.
Let exprs (l : list string) : list (list rtok) := map (fun a => [rp "$"; ri a; rp ":"; ri "expr"]) l.
Ltac gen l := do 2 eexists; split; [do 2 eexists; exists (exprs l); split; [vm_compute; reflexivity|split; [vm_compute; reflexivity|reflexivity]]|].
(** Nothing is read, with any number of steps. *)
Ltac unread := intros x [k R]; apply (le_expr _ _ (rd_le k (20 + k) ltac:(lia))) in R; lazy in R; discriminate R.

(** [*(-1 + x)] becomes [*-1.add(x)]: the minus is applied last. *)
Theorem C36_receiver_refuted : exists e ts,
  generated [I "x"] [P "*"; P "("; L (-1); P "+"; MArg 0; P ")"] e ts /\
  forall c x, reads ts x -> ~ tree cx_unit c e x.
Proof.
  gen (["x"] : list string). intros c x R T.
  assert (R' : reads [rp "*"; rp "-"; RLit (RlInt 1 []); rp "."; ri "add"; parens [rp "$"; ri "x"]]
    (XUn (st "*") (XUn (st "-") (XMethod x_one (st "add") [XPath [rp "$"; ri "x"]])))) by (exists 20; vm_compute; reflexivity).
  pose proof (reads_fun _ _ _ R R') as ->. clear - T. inversion T; subst; try discriminate.
  specialize (H1 _ _ _ eq_refl). destruct H1. congruence.
Qed.
(** [(int)x < y] becomes [x as c_int < y], where the comparison is read as the
    start of generic arguments. *)
Theorem C36_less_refuted : exists e ts,
  generated [I "x"; I "y"] [P "("; I "int"; P ")"; MArg 0; P "<"; MArg 1] e ts /\ forall x, ~ reads ts x.
Proof. gen (["x"; "y"] : list string). unread. Qed.
(** [z + (int)x << y] becomes [z + x as c_int << y], likewise. *)
Theorem C36_shift_refuted : exists e ts,
  generated [I "x"; I "y"; I "z"] [MArg 2; P "+"; P "("; I "int"; P ")"; MArg 0; P "<<"; MArg 1] e ts /\ forall x, ~ reads ts x.
Proof. gen (["x"; "y"; "z"] : list string). unread. Qed.
(** [+x] is not Rust. *)
Theorem C36_plus_refuted : exists e ts,
  generated [I "x"] [P "+"; MArg 0] e ts /\ forall x, ~ reads ts x.
Proof. gen (["x"] : list string). unread. Qed.
(** [-__LINE__] becomes [-line!() as c_uint]: the cast is applied last. *)
Theorem C36_line_refuted : exists e ts,
  generated [] [P "-"; I "__LINE__"] e ts /\ forall c x, reads ts x -> ~ tree cx_unit c e x.
Proof.
  gen ([] : list string). intros c x R T.
  match type of R with reads ?ts _ =>
    assert (R' : reads ts (XCast (XUn (st "-") (XMac [ri "line"] DParen [])) [ri "c_uint"])) by (exists 20; vm_compute; reflexivity) end.
  pose proof (reads_fun _ _ _ R R') as ->. clear - T. inversion T; subst; discriminate.
Qed.
(** [*++*x] becomes [*{ *x = *x.add(1); *x }]: the location, not the pointer read
    from it, is advanced. *)
Theorem C36_step_refuted : exists e ts,
  generated [I "x"] [P "*"; P "++"; P "*"; MArg 0] e ts /\ forall c x, reads ts x -> ~ tree cx_unit c e x.
Proof.
  gen (["x"] : list string). intros c x R T.
  match type of R with reads ?ts _ =>
    assert (R' : reads ts (XUn (st "*") (XBlock (RB [RsExpr (XAssign (st "=") (XUn (st "*") (XPath [rp "$"; ri "x"]))
      (XUn (st "*") (XMethod (XPath [rp "$"; ri "x"]) (st "add") [x_one])))] (Some (XUn (st "*") (XPath [rp "$"; ri "x"]))))))) by (exists 20; vm_compute; reflexivity) end.
  pose proof (reads_fun _ _ _ R R') as ->. clear - T. inversion T; subst; try discriminate.
  - match goal with K : forall op e', _ -> step_op op = None |- _ => discriminate (K _ _ eq_refl) end.
Qed.

(** [(x ? y : z) - 1] as a function is [if x != 0 { y } else { z } - 1], two
    statements: the value is [-1]. *)
Let ints : cgctx :=
  mk_cgctx None None None (fun _ _ => Some (plain_ty "c_int")) (fun _ => None) (fun _ => None) (fun _ _ => None) (fun _ => None).
Theorem C36_body_refuted : exists m m' e params ret body,
  fn_macro_parse (st "F") [I "x"; I "y"; I "z"] [P "("; MArg 0; P "?"; MArg 1; P ":"; MArg 2; P ")"; P "-"; L 1] = ROk m /\
  fn_generate ints m = (m', ROk (function_item (st "F") params ret body)) /\ fm_body m' = MbExpr e /\
  forall c x b, reads_block body b -> tree ints c e x -> b <> RB [] (Some x).
Proof.
  do 3 eexists. exists (map (fun a => [ri "mut"; ri a; rp ":"; ri "c_int"]) ["x"; "y"; "z"]), (Some [ri "c_int"]). eexists.
  split; [vm_compute; reflexivity|]. split; [vm_compute; reflexivity|]. split; [reflexivity|].
  intros c x b R T ->.
  match type of R with reads_block ?ts _ =>
    assert (R' : exists s, reads_block ts (RB [RsExpr s] (Some (XUn (st "-") x_one)))) by (eexists; exists 20; vm_compute; reflexivity) end.
  destruct R' as [s R']. pose proof (reads_block_fun _ _ _ R R') as E. discriminate E.
Qed.
End Demo.

Print Assumptions C36_partial.
Print Assumptions C36_operators.
Print Assumptions C36_generate_partial.
Print Assumptions C36_receiver_refuted.
Print Assumptions C36_less_refuted.
Print Assumptions C36_shift_refuted.
Print Assumptions C36_plus_refuted.
Print Assumptions C36_line_refuted.
Print Assumptions C36_step_refuted.
Print Assumptions C36_body_refuted.
