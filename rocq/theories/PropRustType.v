(** C61: a generated item has the type it is declared with. *)
From Verif Require Import Base Utf Lex LexFloat Token Ast ParseStmt Rust Finish Codegen SpecGen SpecRustExpr RustExprFacts SpecTree TreeFacts
  FinishFacts InferFacts SpecRustType RustTypeFacts PropFnGen PropTree PropVarGen StrFacts.
From Coq Require Import String List Lia Bool ZArith.
Import ListNotations.
Local Open Scope string_scope.
Local Open Scope list_scope.

(** ** Statements *)

(** The context gives the type of parameter [i]. *)
Definition given_parameter (cx : cgctx) (m : fn_macro) (i : nat) : Prop :=
  forall n, nth_error (fm_args m) i = Some n -> cx_arg_ty cx (fm_name m) n <> None.
(** The parameters of a function, [mut name: type], are variables of its body. *)
Definition parameters_in_scope (g : scope) (params : list (list rtok)) : Prop :=
  forall n ts, In (ri "mut" :: RId n :: rp ":" :: ts) params -> sc_path g [RId n] = Some (type_of_tokens g ts).

Section T.
Context {U : Unicode}.

Lemma arg_types_given cx name l : forall tys, arg_types cx name l = ROk tys -> forall i n, nth_error l i = Some n ->
  cx_arg_ty cx name n <> None -> nth_error tys i <> Some AUnknown.
Proof.
  induction l as [|a l IH]; intros tys; cbn [arg_types]; intros E i n N G.
  - destruct i; discriminate N.
  - apply rbind_inv in E as (t & Et & E). apply rbind_inv in E as (r & Er & E). injection E as <-. destruct i as [|i]; cbn in N |- *.
    + injection N as ->. destruct (cx_arg_ty cx name n) as [s|]; [|congruence]. apply rbind_inv in Et as (t' & _ & Et). congruence.
    + eapply IH; eassumption.
Qed.
Lemma param_toks_nth cx c names : forall tys ps, param_toks cx c names tys = Some ps -> forall i n t ts,
  nth_error names i = Some n -> nth_error tys i = Some (AKnown t) -> ty_toks cx c t = Some ts -> ident_tok n <> None /\ In (ri "mut" :: RId n :: rp ":" :: ts) ps.
Proof.
  induction names as [|a names IH]; intros [|t tys] ps; cbn [param_toks]; intros E i n t0 ts N T Tt; try (destruct i; discriminate).
  destruct t; try discriminate. destruct (ident_tok a) as [id|] eqn:D; cbn [obind] in E; [|discriminate]. pose proof (ident_tok_inv _ _ D) as ->.
  destruct (ty_toks cx c t) as [us|] eqn:Tu; cbn [obind] in E; [|discriminate].
  destruct (param_toks cx c names tys) as [r|] eqn:R; cbn [obind] in E; [|discriminate]. injection E as <-. destruct i as [|i]; cbn in N, T.
  - injection N as ->. injection T as ->. split; [congruence|]. left. congruence.
  - destruct (IH _ _ R _ _ _ _ N T Tt) as [I1 I2]. split; [exact I1|]. right. exact I2.
Qed.

(** C61 for functions, except for the expressions excluded by [truths_negated]
    and [settled]: whatever type Rust gives to the body is the declared one.  The
    body without declared type is followed by a semicolon. *)
Theorem C61_function_partial cx m m' e0 e ts :
  plain_context cx -> fn_generate cx m = (m', ROk ts) -> fm_body m = MbExpr e0 -> fm_body m' = MbExpr e -> truths_negated e0 ->
  (exists patterns body, ts = macro_item (fm_name m) patterns body) \/
  (exists params body, ts = function_item (fm_name m) params None body) \/
  (exists params ret body, ts = function_item (fm_name m) params (Some ret) body /\
    forall g, agrees cx g -> parameters_in_scope g params -> settled cx (given_parameter cx m) e ->
    (forall c, lc_names c = fm_args m -> lc_macro c = false -> fine cx c e) ->
    forall x t, reads body x -> has_type g x t -> t = type_of_tokens g ret).
Proof.
  intros PC G B B' N. unfold fn_generate in G. destruct (arg_types cx (fm_name m) (fm_args m)) as [tys|er| |] eqn:A;
    try (apply (f_equal snd) in G; discriminate G).
  rewrite B in G. cbn [body_finish] in G. destruct (expr_finish cx e0 _) as [[e1 c1] f] eqn:F. cbn beta iota in G.
  pose proof (f_equal fst G) as Em. apply (f_equal snd) in G. cbn [snd fst] in G, Em. subst m'. cbn in B'. injection B' as ->.
  destruct f as [ret|er| |]; cbn [ofres] in G; try discriminate G.
  pose proof (finish_adv cx _ _ _ _ _ _ F) as Ad.
  assert (Nm : lc_names c1 = fm_args m) by (pose proof (expr_good cx e0 (mk_lctx (fm_args m) tys false true true false)) as Q; rewrite F in Q; destruct Q as (_ & (Q & _) & _); exact Q).
  set (mac := lc_macro c1 || _ || _ || _ || _) in G.
  apply rbind_inv in G as (name & E1 & E). apply opanic_inv, ident_tok_inv in E1 as ->.
  apply rbind_inv in E as (body & Eb & E). apply opanic_inv in Eb. cbn [lc_macro set_macro] in E. destruct mac eqn:Mac; subst mac.
  { left. apply rbind_inv in E as (args & E1 & E). apply rbind_inv in E as (mid & E2 & E). apply opanic_inv, ident_tok_inv in E2 as ->. injection E as <-. do 2 eexists. reflexivity. }
  right. rewrite !orb_false_iff in Mac. destruct Mac as ((((M1 & _) & _) & M4) & M5). apply negb_false_iff in M4.
  apply rbind_inv in E as (params & E1 & E). apply opanic_inv in E1. destruct ret as [t0|]; [|discriminate M5]. destruct (ty_is_void t0) eqn:Vo.
  { left. injection E as <-. do 2 eexists. reflexivity. }
  right. apply rbind_inv in E as (rt & Ert & E). apply rbind_inv in Ert as (us & Tt & Ert). apply opanic_inv in Tt. injection Ert as <-. injection E as <-.
  exists params, us, body. split; [reflexivity|]. intros g AG Ps S Fi x t R H. cbn [body_toks] in Eb.
  set (c := set_macro false c1) in *.
  assert (K : known_given (given_parameter cx m) (mk_lctx (fm_args m) tys false true true false)).
  { intros i Gi. unfold arg_type. cbn [lc_types]. destruct (nth_error (fm_args m) i) as [n|] eqn:Ni.
    - eapply arg_types_given; [exact A|exact Ni|]. now apply Gi.
    - pose proof (arg_types_length _ _ _ _ A) as Ln. apply nth_error_None in Ni. replace (nth_error tys i) with (@None arg_ty); [discriminate|]. symmetry. apply nth_error_None. lia. }
  destruct (finish_sound cx g PC AG (given_parameter cx m) _ _ _ _ _ _ F N K) as (_ & _ & Sd). specialize (Sd _ eq_refl).
  assert (Ec : c = c1) by (subst c; destruct c1; cbn in *; now subst).
  destruct (C36_partial cx c e body PC (Fi c Nm eq_refl) Eb) as (y & Ty & Ry & Uy & _). rewrite (Uy x R) in H.
  refine (s_type _ _ _ _ _ _ Sd c _ _ t0 y t us eq_refl S (conj H (or_introl Ty)) Tt).
  - rewrite Ec. apply adv_refl.
  - constructor; [reflexivity| |].
    + intros i a Ai. unfold arg_type in Ai. apply nth_error_In in Ai. rewrite forallb_forall in M4. specialize (M4 _ Ai). destruct a; try discriminate. eauto.
    + intros i t1 ts p Ai Ti Pi. unfold arg_toks in Pi. destruct (arg_name c i) as [n|] eqn:An; [|discriminate].
      assert (An' : nth_error (fm_args m) i = Some n) by (rewrite <- Nm; exact An).
      destruct (param_toks_nth _ _ _ _ _ E1 _ _ _ _ An' Ai Ti) as [In1 In2]. cbn [obind] in Pi.
      destruct (str_eqb_spec n (st "...")) as [->|Nn]; [destruct (In1 eq_refl)|].
      destruct (ident_tok n) eqn:D; [|discriminate]. apply ident_tok_inv in D as ->. injection Pi as <-. now apply Ps.
Qed.

(** C61 for constants: the declared type, if there is one.  String literals are
    declared as arrays and C strings, not as pointers. *)
Theorem C61_constant_partial cx g m m' e0 e ts ty x t :
  plain_context cx -> agrees cx g -> var_generate cx m = (m', ROk (ts, Some ty)) -> vm_body m = MbExpr e0 -> vm_body m' = MbExpr e ->
  (forall s, e <> ELit (LString s)) -> truths_negated e0 -> settled cx (fun _ => False) e ->
  (forall c, lc_names c = [] -> lc_macro c = false -> fine cx c e) ->
  reads ts x -> has_type g x t -> t = type_of_tokens g ty.
Proof.
  intros PC AG G B B' Ns N S Fi R H. unfold var_generate in G. rewrite B in G.
  destruct (expr_finish cx e0 (var_lctx cx)) as [[e1 c] f] eqn:F. cbn beta iota in G.
  pose proof (f_equal fst G) as Em. apply (f_equal snd) in G. cbn [snd fst] in G, Em. subst m'. cbn in B'. injection B' as ->.
  destruct f as [o|er| |]; cbn [ofres] in G; try discriminate G.
  assert (Q : lc_names c = [] /\ lc_types c = []).
  { pose proof (expr_good cx e0 (var_lctx cx)) as Q. rewrite F in Q. destruct Q as (_ & (Q1 & _ & _ & _ & Q2 & _) & _). split; [exact Q1|]. destruct (lc_types c); [reflexivity|discriminate Q2]. }
  destruct Q as [Q1 Q2].
  apply rbind_inv in G as (y & Ey & G). destruct (lc_macro c) eqn:M; [discriminate G|]. injection G as ->.
  assert (Ey' : exists t0, o = Some t0 /\ etoks cx c e = Some ts /\ ty_toks cx c t0 = Some ty).
  { assert (Ey2 : (us <- opanic (etoks cx c e) ;; match o with Some t => y <- opanic (ty_toks cx c t) ;; ROk (us, Some y) | None => ROk (us, None) end) = (ROk (ts, Some ty) : res cgerr _)).
    { destruct e as [| | |[|s| |]| | | | | |]; try exact Ey. destruct (Ns s eq_refl). }
    apply rbind_inv in Ey2 as (us & E1 & E2). apply opanic_inv in E1. destruct o as [t0|]; [|discriminate E2]. apply rbind_inv in E2 as (ws & E3 & E4). apply opanic_inv in E3.
    injection E4 as -> ->. eauto. }
  destruct Ey' as (t0 & -> & Et & Tt).
  assert (K : known_given (fun _ => False) (var_lctx cx)) by (intros i []).
  destruct (finish_sound cx g PC AG (fun _ => False) _ _ _ _ _ _ F N K) as (_ & _ & Sd). specialize (Sd _ eq_refl).
  destruct (C36_partial cx c e ts PC (Fi c Q1 M) Et) as (y & Ty & Ry & Uy & _). rewrite (Uy x R) in H.
  refine (s_type _ _ _ _ _ _ Sd c (adv_refl _) _ t0 y t ty eq_refl S (conj H (or_introl Ty)) Tt).
  constructor; [exact M| |]; unfold arg_type; rewrite Q2; intros [|i]; discriminate.
Qed.
End T.

(** ** Cases *)

Section Demo.
#[local] Existing Instance demo_unicode.
(** Types of parameters; [f] is a function of the context, [E] an enumeration constant. *)
Definition typed_cx : cgctx :=
  mk_cgctx None None None
    (fun m a => if str_eqb a (st "x") then Some (plain_ty "c_int") else if str_eqb a (st "p") then Some (STPtr true (plain_ty "c_int")) else None)
    (fun s => if str_eqb s (st "E") then Some (plain_ty "u32", [ri "E"]) else None) (fun _ => None) (fun _ _ => None)
    (fun s => if str_eqb s (st "f") then Some ([plain_ty "c_int"], plain_ty "c_long") else None).
(** What the names stand for on some platform. *)
Definition platform (s : str) : rtype :=
  match primitive_type s with
  | Some t => t
  | None => match find (fun x => str_eqb s (st (fst x))) [("c_int", RtInt true 32); ("c_uint", RtInt false 32); ("c_long", RtInt true 64); ("c_schar", RtInt true 8)] with
            | Some x => snd x
            | None => RtOther 0
            end
  end.
Definition typed_scope : scope :=
  mk_scope (fun l => match l with [RId s] => platform s | _ => RtOther 0 end)
    (fun l => match l with
              | [RId s] => omap snd (find (fun x => str_eqb s (st (fst x))) [("x", RtInt true 32); ("p", RtPtr true (RtInt true 32)); ("E", RtInt false 32)])
              | [RId s; RPunct _; RId _] => Some (platform s)
              | _ => None
              end)
    (fun l => match l with [RId s] => if str_eqb s (st "f") then Some ([RtInt true 32], RtInt true 64) else None | _ => None end)
    (fun _ _ => None) (fun _ _ => None) [].
Lemma typed_plain : plain_context typed_cx.
Proof. split; exact Logic.I. Qed.
Lemma typed_agrees : agrees typed_cx typed_scope.
Proof.
  constructor.
  - reflexivity.
  - intros s [<- | [<- | [<- | [<- | [<- | []]]]]]; reflexivity.
  - intros f w s [E | [E | []]] _; injection E as <- <-; reflexivity.
  - intros s t ts. cbn [cx_enum typed_cx]. destruct (str_eqb s (st "E")); [|discriminate]. intro E; injection E as <- <-. split; [|reflexivity].
    apply k_primitive. cbn. tauto.
  - reflexivity.
  - intros s tys t. cbn [cx_fn typed_cx]. destruct (str_eqb_spec s (st "f")) as [->|]; [|discriminate]. intro E; injection E as <- <-. split; [|reflexivity].
    right. apply (k_ffi typed_cx "c_long"). cbn. tauto.
Qed.
Ltac ht :=
  lazymatch goal with
  | |- has_type _ (XPath _) _ => apply H_path; reflexivity
  | |- has_type _ (XLit (RlInt _ [])) _ => first [apply (H_number _ _ true 32) | apply (H_number _ _ false 0)]
  | |- has_type _ (XUn _ _) _ => eapply H_unary
  | |- has_type _ (XBin _ _ _) _ => eapply H_binary
  | |- has_type _ (XIf _ _ _) _ => eapply H_if
  | |- has_type _ (XMethod _ _ [_]) _ => eapply H_offset; [left; reflexivity|..]
  | |- has_type _ (XCast _ _) ?t => eapply (H_cast _ _ _ _)
  | |- block_type _ (RB [] (Some _)) _ => eapply K_value
  | |- unary _ _ _ => first [apply U_deref | apply U_neg; reflexivity | apply U_not; reflexivity]
  | |- binary _ _ _ _ => first [apply B_arith; reflexivity | apply B_shift; reflexivity | apply B_compare; reflexivity | apply B_logic; reflexivity]
  end.
Let x : expr := EVar (IArg 0).
Let p : expr := EVar (IArg 1).
Let n (z : Z) : expr := ELit (LInt (mk_int z None)).
Let F (e : expr) : fn_macro := mk_fn_macro (st "F") [st "x"; st "p"] (MbExpr e).

(** [x > 0 && !(x == 3) ? *p + x * 2 : -*(p + 1) << 2]. *)
Let e1 : expr :=
  ETernary (EBinary (EBinary x OGt (n 0)) OAnd (EUnary UNot (EBinary x OEq (n 3))))
    (EBinary (EUnary UDeref p) OAdd (EBinary x OMul (n 2)))
    (EBinary (EUnary UMinus (EUnary UDeref (EBinary p OAdd (n 1)))) OShl (n 2)).
Example C61_function_case : exists params body y,
  fn_generate typed_cx (F e1) = (F e1, ROk (function_item (st "F") params (Some [ri "c_int"]) body)) /\
  params = [[ri "mut"; ri "x"; rp ":"; ri "c_int"]; [ri "mut"; ri "p"; rp ":"; rp "*"; ri "mut"; ri "c_int"]] /\
  truths_negated e1 /\ settled typed_cx (given_parameter typed_cx (F e1)) e1 /\ parameters_in_scope typed_scope params /\
  (forall c, lc_names c = [st "x"; st "p"] -> lc_macro c = false -> fine typed_cx c e1) /\
  reads body y /\ has_type typed_scope y (RtInt true 32).
Proof.
  exists [[ri "mut"; ri "x"; rp ":"; ri "c_int"]; [ri "mut"; ri "p"; rp ":"; rp "*"; ri "mut"; ri "c_int"]].
  do 2 eexists. split; [vm_compute; reflexivity|]. split; [reflexivity|]. split; [cbn; intuition discriminate|].
  split; [cbn; tauto|]. split; [|split; [|split; [exists 30; vm_compute; reflexivity|]]].
  - intros a ts [E | [E | []]]; injection E as <- <-; reflexivity.
  - intros c Nm Mc. destruct c as [names tys mac cs el va]. cbn in Nm, Mc. subst.
    Ltac stm := intros ts T; vm_compute in T; injection T as <-; reflexivity.
    repeat split; cbn; intros; try congruence; try lia; try (left; stm); try (injection H as <-; try discriminate; auto).
    unfold tight. cbn. lia.
  - repeat ht.
Qed.

(** [__INT_MAX__ * 2 + (unsigned)E], where [__INT_MAX__] is converted. *)
Let C (e : expr) : var_macro := mk_var_macro (st "C") (MbExpr e).
Let unsigned : ctype := TyBuiltIn BUInt.
Example C61_constant_case :
  let e0 := EBinary (EBinary (EVar (IPlain (st "__INT_MAX__"))) OMul (n 2)) OAdd (ECast unsigned (EVar (IPlain (st "E")))) in
  let e := EBinary (EBinary (ECast unsigned (EVar (IPlain (st "__INT_MAX__")))) OMul (n 2)) OAdd (ECast unsigned (EVar (IPlain (st "E")))) in
  exists ts y, var_generate typed_cx (C e0) = (C e, ROk (ts, Some [ri "c_uint"])) /\
  truths_negated e0 /\ settled typed_cx (fun _ => False) e /\
  (forall c, lc_names c = [] -> lc_macro c = false -> fine typed_cx c e) /\
  reads ts y /\ has_type typed_scope y (RtInt false 32).
Proof.
  do 2 eexists. split; [vm_compute; reflexivity|]. split; [cbn; tauto|]. split; [cbn; tauto|].
  split; [|split; [exists 30; vm_compute; reflexivity|]].
  - intros c Nm Mc. destruct c as [names tys mac cs el va]. cbn in Nm, Mc. subst.
    repeat split; cbn; intros; try congruence; try lia; try (injection H as <-; try discriminate; auto); try (intros ts T; vm_compute in T; injection T as <-; reflexivity).
    subst ts. reflexivity.
  - eapply (H_binary _ _ _ _ (RtInt false 32) (RtInt false 32)); [eapply (H_binary _ _ _ _ (RtInt false 32) (RtInt false 32))| |]; try (apply B_arith; reflexivity).
    + refine (H_cast typed_scope _ (RtInt true 32) [ri "c_uint"] _). apply H_path. reflexivity.
    + apply H_number.
    + refine (H_cast typed_scope _ (RtInt false 32) [ri "c_uint"] _). apply H_path. reflexivity.
Qed.

(** ** What does not have its declared type *)

(** Negated numbers: [!0] is the number 1, but declared [bool]. *)
Theorem C61_not_literal_refuted : exists m' ts y,
  var_generate typed_cx (C (EUnary UNot (n 0))) = (m', ROk (ts, Some [ri "bool"])) /\ reads ts y /\ has_type typed_scope y (RtInt true 32) /\
  forall g t, has_type g y t -> t <> type_of_tokens g [ri "bool"].
Proof.
  do 3 eexists. split; [vm_compute; reflexivity|]. split; [exists 10; vm_compute; reflexivity|]. split; [apply H_number|].
  intros g t H. change (type_of_tokens g [ri "bool"]) with RtBool. inversion H; subst; try discriminate.
Qed.
(** Negated variables: [!x] of an integer is the complement in Rust, an integer,
    but declared [bool]. *)
Theorem C61_not_variable_refuted : exists m' params body y,
  fn_generate typed_cx (F (EUnary UNot x)) = (m', ROk (function_item (st "F") params (Some [ri "bool"]) body)) /\ parameters_in_scope typed_scope params /\
  reads body y /\ has_type typed_scope y (RtInt true 32) /\ type_of_tokens typed_scope [ri "bool"] = RtBool /\
  forall t, has_type typed_scope y t -> t <> RtBool.
Proof.
  eexists. exists [[ri "mut"; ri "x"; rp ":"; ri "c_int"]; [ri "mut"; ri "p"; rp ":"; rp "*"; ri "mut"; ri "c_int"]]. do 2 eexists.
  split; [vm_compute; reflexivity|]. split; [intros a ts [E | [E | []]]; injection E as <- <-; reflexivity|]. split; [exists 10; vm_compute; reflexivity|].
  split; [repeat ht|]. split; [reflexivity|]. intros t H ->. inversion H as [| | | | | | |? ? t' ? Hx Un| | | | | | | | | | | | | | | | | | | |]; subst.
  inversion Hx as [? ? Sx| | | | | | | | | | | | | | | | | | | | | | | | | | |]; subst. vm_compute in Sx. injection Sx as <-. inversion Un.
Qed.
(** Assignments that are not generated as blocks: [*p *= 2] is declared [c_int],
    but has no value in Rust. *)
Theorem C61_update_refuted : exists m' params body y,
  fn_generate typed_cx (F (EBinary (EUnary UDeref p) OMulAssign (n 2))) = (m', ROk (function_item (st "F") params (Some [ri "c_int"]) body)) /\
  parameters_in_scope typed_scope params /\ reads body y /\ has_type typed_scope y RtUnit /\ type_of_tokens typed_scope [ri "c_int"] = RtInt true 32 /\
  forall t, has_type typed_scope y t -> t = RtUnit.
Proof.
  eexists. exists [[ri "mut"; ri "x"; rp ":"; ri "c_int"]; [ri "mut"; ri "p"; rp ":"; rp "*"; ri "mut"; ri "c_int"]]. do 2 eexists.
  split; [vm_compute; reflexivity|]. split; [intros a ts [E | [E | []]]; injection E as <- <-; reflexivity|]. split; [exists 10; vm_compute; reflexivity|].
  split; [|split; [reflexivity|]].
  - apply (H_update _ (st "*") _ _ (RtInt true 32)); repeat ht.
  - intros t H. inversion H; subst; reflexivity.
Qed.
End Demo.

Print Assumptions C61_function_partial.
Print Assumptions C61_constant_partial.
Print Assumptions C61_not_literal_refuted.
Print Assumptions C61_not_variable_refuted.
Print Assumptions C61_update_refuted.
