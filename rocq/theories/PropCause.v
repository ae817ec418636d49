(** C76 and C77: what the errors of code generation are about. *)
From Verif Require Import Base Utf Lex LexFloat Token Ast Nom ParseTok ParseExpr ParseStmt Rust Finish Codegen FinishFacts SpecAccept SpecCause CauseFacts CauseSelf CleanFacts ComplFacts SpecPanicFree PropPanicFree.
From Coq Require Import String List Bool SpecFloat ZArith.
Import ListNotations.
Local Open Scope string_scope.
Local Open Scope list_scope.

Section T.
Context {U : Unicode}.

(** C76: an error has a cause in the macro and the context. *)
Theorem C76_var cx m e : snd (var_generate cx m) = RErr e -> cause cx (vm_name m) [] (vm_body m) true e.
Proof. apply var_cause. Qed.
Theorem C76_fn cx m e : snd (fn_generate cx m) = RErr e -> cause cx (fm_name m) (fm_args m) (fm_body m) false e.
Proof. apply fn_cause. Qed.

Theorem C76_statement cx m s : vm_body m = MbStatement s -> snd (var_generate cx m) = RErr NonExpressionVarMacro.
Proof. unfold var_generate. now intros ->. Qed.

(** Without a cause, code is generated, or there is a panic. *)
Lemma not_fuel_bind {A B} (o : option A) (k : A -> res cgerr B) : (forall x, k x <> RFuel) -> (x <- opanic o ;; k x) <> RFuel.
Proof. intro K. destruct o; cbn; [apply K|discriminate]. Qed.
Lemma args_fuel cx name l : arg_types cx name l <> RFuel.
Proof.
  induction l as [|a l IH]; cbn [arg_types]; [discriminate|]. destruct (cx_arg_ty cx name a) as [s|]; cbn.
  - pose proof (from_rust_ty_fuel (cx_ffi cx) s). destruct (from_rust_ty (cx_ffi cx) s); cbn; try congruence. destruct (arg_types cx name l); cbn; congruence.
  - destruct (arg_types cx name l); cbn; congruence.
Qed.
Theorem C76_var_otherwise cx m : (forall e, ~ cause cx (vm_name m) [] (vm_body m) true e) ->
  (exists x, snd (var_generate cx m) = ROk x) \/ snd (var_generate cx m) = RPanic.
Proof.
  intro N. destruct (snd (var_generate cx m)) as [x|e| |] eqn:E; eauto; [destruct (N e (C76_var _ _ _ E))|]. exfalso. revert E. unfold var_generate. destruct (vm_body m) as [s|e]; [discriminate|].
  destruct (expr_finish cx e (var_lctx cx)) as [[e' c] f] eqn:E. apply expr_fuel in E. cbn [snd]. destruct f as [t| | |]; cbn [ofres]; try congruence.
  assert (K : forall x : list rtok * option (list rtok), (if lc_macro c then RErr NonConstantVarMacro else ROk x) <> RFuel) by (intro; destruct (lc_macro c); discriminate).
  destruct e' as [| | |[]| | | | | |]; repeat match goal with |- context[opanic ?o] => destruct o; cbn; try discriminate; try apply K | |- context[match t with _ => _ end] => destruct t; cbn; try discriminate; try apply K end.
Qed.
Theorem C76_fn_otherwise cx m : (forall e, ~ cause cx (fm_name m) (fm_args m) (fm_body m) false e) ->
  (exists x, snd (fn_generate cx m) = ROk x) \/ snd (fn_generate cx m) = RPanic.
Proof.
  intro N. destruct (snd (fn_generate cx m)) as [x|e| |] eqn:E; eauto; [destruct (N e (C76_fn _ _ _ E))|]. exfalso. revert E. unfold fn_generate.
  pose proof (args_fuel cx (fm_name m) (fm_args m)) as A. destruct (arg_types cx (fm_name m) (fm_args m)) as [tys| | |]; try discriminate; [|congruence].
  destruct (body_finish cx (fm_body m) _) as [[b c] f] eqn:E. apply body_sgood in E as [E _]. cbn [snd]. destruct f as [t| | |]; cbn [ofres]; try congruence. cbn zeta.
  apply not_fuel_bind. intro nm. apply not_fuel_bind. intro bd. destruct (lc_macro _).
  - apply not_fuel_bind. intro ar. apply not_fuel_bind. discriminate.
  - apply not_fuel_bind. intro ar. destruct t as [t|]; [|discriminate]. destruct (ty_is_void t); [discriminate|]. destruct (ty_toks _ _ t); discriminate.
Qed.

(** Without a cause, code is generated, for the macros for which it is known not to panic. *)
Theorem C76_fn_generates_partial cx name args body m :
  context_ok cx -> Forall (token_ok 0) args -> fn_macro_parse name args body = ROk m ->
  Forall (token_ok (length (fm_args m))) body -> harmless (fm_args m) (fm_body m) ->
  (forall e, ~ cause cx (fm_name m) (fm_args m) (fm_body m) false e) -> exists ts, snd (fn_generate cx m) = ROk ts.
Proof.
  intros H1 H2 H3 H4 H5 N. destruct (C38_fn_partial cx name args body m H1 H2 H3 H4 H5) as [H|[e H]]; [exact H|]. destruct (N e (C76_fn _ _ _ H)).
Qed.
Theorem C76_var_generates_partial cx name body m :
  context_ok cx -> Forall (token_ok 0) body -> var_macro_parse name body = ROk m -> harmless [] (vm_body m) ->
  (forall e, ~ cause cx (vm_name m) [] (vm_body m) true e) -> exists x, snd (var_generate cx m) = ROk x.
Proof.
  intros H1 H2 H3 H4 N. destruct (C38_var_partial cx name body m H1 H2 H3 H4) as [H|[e H]]; [exact H|]. destruct (N e (C76_var _ _ _ H)).
Qed.

(** C77: what is generated has no cause of a certain error. *)
Lemma generable_ok cx v b : mbody_ok (known_name cx) any any (known_name cx (st "wchar_t")) True (v = false) True False True False False False True b ->
  (v = true -> exists e, b = MbExpr e) -> body_ncl b -> generable cx v b.
Proof.
  intros B V NC. destruct (body_parts_ok _ _ _ _ _ _ _ _ _ _ _ _ _ _ B) as (P & T & N).
  split; [|split; [|split; [|split; [|split; [|split; [exact NC|]]]]]].
  - intros t x H1 H2. exact (proj2 (T t H1 _ H2)).
  - intros l H. exact (P _ H).
  - intros e H. destruct (P _ H) as [[S|[]] _]. exact S.
  - intros l z H Z. exact (N _ H z Z).
  - intros l e H E. destruct (P _ H) as [L _]. pose proof (all_elim _ _ _ L E) as X. destruct e as [[]| | |[|[]| |]| | | | | |]; try exact X; try exact I. cbn in X |- *.
    destruct (list_eq_dec N.eq_dec id (st "__FILE__")); [assumption|contradiction].
  - intro H. split; [auto|]. intros n l C. destruct (P _ C) as [X _]. congruence.
Qed.
Theorem C77_var cx m x : snd (var_generate cx m) = ROk x -> generable cx true (vm_body m).
Proof.
  intro H. pose proof (var_ncl cx m x H) as NC. destruct (var_clean cx true m x eq_refl H) as (e & E & B). rewrite E in *.
  apply generable_ok; eauto.
Qed.
Theorem C77_fn cx m x : snd (fn_generate cx m) = ROk x -> generable cx false (fm_body m).
Proof. intro H. apply generable_ok; [apply (fn_clean cx false m x eq_refl H)|discriminate|exact (fn_ncl cx m x H)]. Qed.
End T.

(** ** Cases *)

#[local] Existing Instance demo_unicode.
Definition cx_none : cgctx := mk_cgctx None None None (fun _ _ => None) (fun _ => None) (fun _ => None) (fun _ _ => None) (fun _ => None).
(** A context in which T is [\[u8; 4\]], which is not a type that can be converted. *)
Definition cx_array : cgctx := mk_cgctx None None None (fun _ _ => None) (fun _ => None) (fun x => if str_eqb x (st "T") then Some (STOther (st "[u8 ; 4]") []) else None) (fun _ _ => None) (fun _ => None).
Definition var_err cx b : option cgerr := match snd (var_generate cx (mk_var_macro (st "M") b)) with RErr e => Some e | _ => None end.
Definition fn_err cx b : option cgerr := match snd (fn_generate cx (mk_fn_macro (st "M") [st "a"] b)) with RErr e => Some e | _ => None end.
Definition vr s := EVar (IPlain (st s)).
Definition num z := ELit (LInt (mk_int z None)).
Definition chars s := ELit (LString (SOrdinary (st s))).
Definition named s := TyIdent (IPlain (st s)) false.
(** Every error but [RecursiveDefinition] is reached.  A string literal counts as a non-pointer,
    since its type is a qualified pointer. *)
Example C76_case :
  var_err cx_none (MbStatement (SExpr (num 1))) = Some NonExpressionVarMacro /\
  var_err cx_none (MbExpr (EBinary (num 1) OAdd (vr "x"))) = Some NonConstantVarMacro /\
  var_err cx_none (MbExpr (ECast (named "T") (num 1))) = Some (UnsupportedType (st "T")) /\
  var_err cx_array (MbExpr (ECast (named "T") (num 1))) = Some (UnsupportedType (st "[u8 ; 4]")) /\
  var_err cx_none (MbExpr (ECast (named "T") (EUnary UDeref (vr "x")))) = Some (UnsupportedType (st "T")) /\
  var_err cx_none (MbExpr (EUnary UDeref (vr "x"))) = Some (UnsupportedExpression (st "dereference in variable-like macro")) /\
  fn_err cx_none (MbExpr (EUnary UDeref (chars "x"))) = Some (UnsupportedExpression (st "dereference of non-pointer")) /\
  fn_err cx_none (MbExpr (EUnary UDeref (ECast (TyBuiltIn BInt) (vr "x")))) = Some (UnsupportedExpression (st "dereference of non-pointer")) /\
  var_err cx_none (MbExpr (EUnary UComp (chars "x"))) = Some (UnsupportedExpression (st "complement of float or string")) /\
  var_err cx_none (MbExpr (ECall (IPlain (st "f")) [])) = Some (UnsupportedExpression (st "function call in variable-like macro")) /\
  fn_err cx_none (MbExpr (EVar (IConcat [IpArg 0; IpInt 1]))) = Some (UnsupportedExpression (st "concatenation of identifiers and literals")) /\
  fn_err cx_none (MbExpr (EStringify (num 1))) = Some (UnsupportedExpression (st "stringification")) /\
  var_err cx_none (MbExpr (EConcat [chars "x"; vr "y"])) = Some (UnsupportedExpression (st "concatenation of variables")) /\
  var_err (mk_cgctx None None None (fun _ _ => None) (fun _ => None) (fun _ => Some (STVerbatim (st "u32") [])) (fun _ _ => None) (fun _ => None)) (MbExpr (EConcat [chars "x"; ELit (LString (SWide [1%N]))]))
    = Some (UnsupportedExpression (st "concatenation of wide strings")).
Proof. vm_compute. repeat split. Qed.

(** [(c_int) 1 + FLAG] has no cause if the context knows FLAG, and it is generated. *)
Definition cx_flag : cgctx := mk_cgctx None None None (fun _ _ => None) (fun x => if str_eqb x (st "FLAG") then Some (STUnit, []) else None) (fun _ => None) (fun _ _ => None) (fun _ => None).
Definition flag_body : macro_body := MbExpr (EBinary (ECast (TyBuiltIn BInt) (num 1)) OAdd (vr "FLAG")).
Lemma flag_types x : ~ type_used cx_flag flag_body x.
Proof.
  intro H. induction H as [t x T N|l L W|x s y H IH S N]; [|cbn in L|contradiction].
  - cbn in T. destruct T as [<-|[]]. discriminate.
  - destruct L as [L|[L|[L|[L|[]]]]]; try discriminate. injection L as <-. contradiction.
Qed.
Example C76_none_case : (forall e, ~ cause cx_flag (st "M") [] flag_body true e) /\ exists x, snd (var_generate cx_flag (mk_var_macro (st "M") flag_body)) = ROk x.
Proof.
  split; [|eexists; vm_compute; reflexivity].
  assert (V : forall x, value_used cx_flag flag_body x -> x = st "FLAG").
  { intros x [H|H]; [|destruct (flag_types _ H)]. cbn in H. destruct H as [H|[H|[H|[H|[]]]]]; try discriminate. now injection H as <-. }
  assert (P : forall e, In e (body_parts flag_body) -> match e with EBinary _ OAdd _ | ECast _ _ | ELit _ | EVar _ => True | _ => False end).
  { intros e H. cbn in H. destruct H as [<-|[<-|[<-|[<-|[]]]]]; exact I. }
  intros [s| | |s|s]; cbn [cause]; auto.
  - intros [_ [s H]]. discriminate.
  - intros [_ [(x & X & N)|[(x & X & _)|(l & op & r & X & A)]]].
    + apply V in X. subst x. destruct N as [[N|N]|[N _]]; vm_compute in N; discriminate.
    + destruct (P _ X).
    + specialize (P _ X). destruct op; contradiction.
  - unfold unsupported_cause. intros H. repeat destruct H as [H|H].
    + destruct H as (_ & l & z & H & _). cbn in H. destruct H as [H|[]]. discriminate.
    + destruct H as (_ & e & H & _). destruct (P _ H).
    + destruct H as (_ & _ & e & H). destruct (P _ H).
    + destruct H as (_ & H & _). discriminate.
    + destruct H as (_ & e & H). destruct (P _ H).
    + destruct H as (_ & l & x & H & _). destruct (P _ H).
    + destruct H as (_ & l & x & H & _). destruct (P _ H).
    + destruct H as (_ & _ & n & l & H). destruct (P _ H).
  - intros [[H _]|(t & H & R)]; [destruct (flag_types _ H)|].
    destruct H as [(x & X & _)|[(x & v & X & C)|[(x & l & r & (a & X) & _)|[(t0 & x & _ & C)|(a & [] & _)]]]].
    + destruct (flag_types _ X).
    + apply V in X. subst x. injection C as <- <-. discriminate.
    + destruct (P _ X).
    + discriminate.
Qed.

(** A macro with a cast to a known type, a call, a # and a string concatenation is generated. *)
Example C77_case : exists ts, snd (fn_generate (mk_cgctx None None None (fun _ _ => None) (fun _ => None) (fun x => if str_eqb x (st "T") then Some (STVerbatim (st "u32") []) else None) (fun _ _ => None) (fun _ => None))
  (mk_fn_macro (st "F") [st "a"] (MbExpr (ECall (IPlain (st "f")) [ECast (named "T") (num 1); EConcat [chars "x"; vr "__FILE__"; EStringify (EVar (IArg 0))]; EVar (IConcat [IpArg 0; IpPlain (st "_t")])])))) = ROk ts.
Proof. eexists. vm_compute. reflexivity. Qed.

Print Assumptions C76_var.
Print Assumptions C76_fn.
Print Assumptions C76_statement.
Print Assumptions C76_var_otherwise.
Print Assumptions C76_fn_otherwise.
Print Assumptions C76_fn_generates_partial.
Print Assumptions C76_var_generates_partial.
Print Assumptions C77_var.
Print Assumptions C77_fn.
