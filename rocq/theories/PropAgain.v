(** C74: generating the code of a macro again gives the same code. *)
From Verif Require Import Base Utf Lex LexFloat Token Ast ParseStmt Rust Finish Codegen SpecAccept.
From Verif Require Import SpecAgain AgainFacts.
From Coq Require Import String List SpecFloat Lia Bool.
Import ListNotations.
Local Open Scope string_scope.
Local Open Scope list_scope.

Section P.
Context {U : Unicode}.
Variable cx : cgctx.

(** The result of the call after [k] earlier calls on the same macro. *)
Definition var_call (m : var_macro) (k : nat) := snd (var_generate cx (Nat.iter k (fun m => fst (var_generate cx m)) m)).
Definition fn_call (m : fn_macro) (k : nat) := snd (fn_generate cx (Nat.iter k (fun m => fst (fn_generate cx m)) m)).

(** The context gives the type of the parameter with this number. *)
Definition known (m : fn_macro) (i : nat) : bool :=
  match nth_error (fm_args m) i with
  | Some a => match cx_arg_ty cx (fm_name m) a with Some _ => true | None => false end
  | None => false
  end.

(** ** Variable-like macros *)

(** Full statement: for every macro.  Missing: what is not [repeatable], and types
    that the context resolves to names it does not resolve; for those it is
    refuted below. *)
Theorem C74_var_partial m k x : settled cx -> repeatable_body (fun _ => false) (vm_body m) -> var_call m 0 = ROk x -> var_call m k = ROk x.
Proof.
  intros ST R H. unfold var_call in *. cbn [Nat.iter] in H.
  assert (F : snd (var_generate cx m) = ROk x -> var_generate cx (fst (var_generate cx m)) = var_generate cx m).
  { clear H. unfold var_generate at 1 3 4. destruct m as [n [s|e]]; [discriminate|]. cbn [vm_body vm_name]. cbn in R.
    destruct (expr_finish cx e (var_lctx cx)) as [[e' c] f] eqn:E. cbn [fst snd]. intro H. destruct f as [t| | |]; try discriminate.
    assert (K : kn (fun _ => false) (var_lctx cx)) by (intros i a; unfold param, arg_type; cbn; destruct i; discriminate).
    destruct (expr_again cx ST (fun _ => false) _ _ _ _ _ K R E) as (b & -> & Q). unfold var_generate. cbn [vm_body vm_name].
    rewrite (Q (var_lctx cx)) by apply same_refl. reflexivity. }
  specialize (F H). assert (I : forall j, Nat.iter (S j) (fun m => fst (var_generate cx m)) m = fst (var_generate cx m)).
  { induction j as [|j IH]; [reflexivity|]. change (fst (var_generate cx (Nat.iter (S j) (fun m => fst (var_generate cx m)) m)) = fst (var_generate cx m)). rewrite IH. now rewrite F. }
  destruct k as [|k]; [exact H|]. rewrite I, F. exact H.
Qed.

(** ** Function-like macros *)

Lemma known_types n l tys : arg_types cx n l = ROk tys -> forall i a, nth_error tys i = Some a ->
  match nth_error l i with Some x => match cx_arg_ty cx n x with Some _ => true | None => false end | None => false end = match kty a with Some _ => true | None => false end.
Proof.
  revert tys. induction l as [|x l IH]; intros tys; cbn [arg_types].
  - intros [= <-] [|i] a; discriminate.
  - destruct (cx_arg_ty cx n x) as [t|] eqn:X.
    + destruct (from_rust_ty (cx_ffi cx) t) as [t'| | |]; try discriminate. cbn. destruct (arg_types cx n l) as [r| | |] eqn:Q; try discriminate.
      intros [= <-] [|i] a; cbn; [intros [= <-]; now rewrite X|]. now apply IH.
    + cbn. destruct (arg_types cx n l) as [r| | |] eqn:Q; try discriminate.
      intros [= <-] [|i] a; cbn; [intros [= <-]; now rewrite X|]. now apply IH.
Qed.

Theorem C74_fn_partial m k x : settled cx -> repeatable_body (known m) (fm_body m) -> fn_call m 0 = ROk x -> fn_call m k = ROk x.
Proof.
  intros ST R H. unfold fn_call in *. cbn [Nat.iter] in H.
  assert (F : snd (fn_generate cx m) = ROk x -> fn_generate cx (fst (fn_generate cx m)) = fn_generate cx m).
  { clear H. unfold fn_generate at 1 3 4. destruct (arg_types cx (fm_name m) (fm_args m)) as [tys| | |] eqn:AT; try discriminate.
    set (c0 := mk_lctx (fm_args m) tys false true true false).
    destruct (body_finish cx (fm_body m) c0) as [[b c] f] eqn:E. cbn [fst snd]. intro H. destruct f as [t| | |]; try discriminate.
    assert (K : kn (known m) c0).
    { intros i t0. unfold param, arg_type. cbn [lc_types c0]. destruct (nth_error tys i) as [a|] eqn:AR; [|discriminate]. intros [= <-]. exact (known_types _ _ _ AT i a AR). }
    destruct (body_again cx ST _ _ _ _ _ _ K R E) as (b0 & -> & Q). unfold fn_generate. cbn [fm_body fm_name fm_args]. rewrite AT. fold c0.
    rewrite (Q c0) by apply same_refl. reflexivity. }
  specialize (F H). assert (I : forall j, Nat.iter (S j) (fun m => fst (fn_generate cx m)) m = fst (fn_generate cx m)).
  { induction j as [|j IH]; [reflexivity|]. change (fst (fn_generate cx (Nat.iter (S j) (fun m => fst (fn_generate cx m)) m)) = fst (fn_generate cx m)). rewrite IH. now rewrite F. }
  destruct k as [|k]; [exact H|]. rewrite I, F. exact H.
Qed.
End P.

(** ** What is excluded *)

#[local] Existing Instance demo_unicode.
Definition tok (s : string) : ident_expr := IPlain (st s).
Definition num (z : Z) : expr := ELit (LInt (mk_int z None)).
Definition var_of (e : expr) : var_macro := mk_var_macro (st "X") (MbExpr e).
Definition differs {A} (r : nat -> res cgerr A) : Prop := exists x y, r 0 = ROk x /\ r 1 = y /\ y <> ROk x.

(** #define X 'a' is generated as a cast, then as a cast of a cast. *)
Theorem C74_character_refuted : differs (var_call cx_unit (var_of (ELit (LChar (COrdinary 97))))).
Proof. do 2 eexists. split; [vm_compute; reflexivity|]. split; [vm_compute; reflexivity|]. discriminate. Qed.
(** #define X !0 has the type bool, then none. *)
Theorem C74_not_refuted : differs (var_call cx_unit (var_of (EUnary UNot (num 0)))).
Proof. do 2 eexists. split; [vm_compute; reflexivity|]. split; [vm_compute; reflexivity|]. discriminate. Qed.
(** #define X (1.5 ? 1 : 2) compares with 0, then with 0.0. *)
Theorem C74_condition_refuted :
  differs (var_call cx_unit (var_of (ETernary (ELit (LFloat (FDouble (S754_finite false 3 (-1))))) (num 1) (num 2)))).
Proof. do 2 eexists. split; [vm_compute; reflexivity|]. split; [vm_compute; reflexivity|]. discriminate. Qed.
(** #define X (T)0 with T resolved to a type U that is not resolved further: code,
    then an error. *)
Definition cx_typedef (known : bool) : cgctx :=
  mk_cgctx None None None (fun _ _ => None) (fun _ => None)
    (fun x => if str_eqb x (st "T") || (known && str_eqb x (st "U")) then Some (plain_ty "U") else None) (fun _ _ => None) (fun _ => None).
Theorem C74_typedef_refuted : ~ settled (cx_typedef false) /\ differs (var_call (cx_typedef false) (var_of (ECast (TyIdent (tok "T") false) (num 0)))).
Proof.
  split.
  - intro S. destruct (S (st "T") (plain_ty "U") (TyIdent (tok "U") false) eq_refl eq_refl) as (s & Q & _). discriminate.
  - do 2 eexists. split; [vm_compute; reflexivity|]. split; [vm_compute; reflexivity|]. discriminate.
Qed.
(** #define F(b, a) (b) - (a + f(a)) is parsed as a cast, which is rewritten to a
    subtraction and finished again: the second time the type of a is known, from
    the call to f.  The first call gives a function, the next a macro, since the
    subtraction is now finished only once. *)
Definition cx_infer : cgctx :=
  mk_cgctx None None None (fun _ a => if str_eqb a (st "b") then Some (plain_ty "c_int") else None) (fun _ => None) (fun _ => None) (fun _ _ => None)
    (fun f => if str_eqb f (st "f") then Some ([plain_ty "c_int"], plain_ty "c_long") else None).
Definition F_infer : fn_macro :=
  mk_fn_macro (st "F") [st "b"; st "a"]
    (MbExpr (ECast (TyIdent (IArg 0) false) (EUnary UMinus (EBinary (EVar (IArg 1)) OAdd (ECall (tok "f") [EVar (IArg 1)]))))).
Theorem C74_infer_refuted : differs (fn_call cx_infer F_infer).
Proof. do 2 eexists. split; [vm_compute; reflexivity|]. split; [vm_compute; reflexivity|]. discriminate. Qed.

(** #define F(x) *((x) - g(#x)), with a type of x that is no pointer: the first
    call finishes the subtraction after g(#x), when x is an expression of any type;
    the next call rejects the dereference.  The same for a name made with ##. *)
Definition cx_int : cgctx :=
  mk_cgctx None None None (fun _ a => Some (plain_ty "c_int")) (fun _ => None) (fun _ => None) (fun _ _ => None) (fun _ => None).
Definition F_known (e : expr) : fn_macro :=
  mk_fn_macro (st "F") [st "x"] (MbExpr (EUnary UDeref (ECast (TyIdent (IArg 0) false) (EUnary UMinus e)))).
Theorem C74_stringify_refuted : differs (fn_call cx_int (F_known (ECall (tok "g") [EStringify (EVar (IArg 0))]))).
Proof. do 2 eexists. split; [vm_compute; reflexivity|]. split; [vm_compute; reflexivity|]. discriminate. Qed.
Theorem C74_paste_refuted : differs (fn_call cx_int (F_known (EVar (IConcat [IpPlain (st "a_"); IpArg 0])))).
Proof. do 2 eexists. split; [vm_compute; reflexivity|]. split; [vm_compute; reflexivity|]. discriminate. Qed.
Theorem C74_member_refuted : differs (fn_call cx_int (F_known (EBinary (EVar (tok "s")) OMember (EVar (IArg 0))))).
Proof. do 2 eexists. split; [vm_compute; reflexivity|]. split; [vm_compute; reflexivity|]. discriminate. Qed.

(** ** What is covered *)

Lemma settled_typedef : settled (cx_typedef true).
Proof.
  intros x s t. unfold cx_typedef; cbn [cx_ty cx_ffi]. destruct (str_eqb x (st "T") || _); [|discriminate]. intros [= <-] [= <-].
  cbn [settled_type]. exists (plain_ty "U"). split; reflexivity.
Qed.
(** #define X (T)(1 + 2): the sum is folded and T replaced by U by the first call. *)
Example C74_var_case : settled (cx_typedef true) /\ repeatable_body (fun _ => false) (MbExpr (ECast (TyIdent (tok "T") false) (EBinary (num 1) OAdd (num 2)))) /\
  exists x, var_call (cx_typedef true) (var_of (ECast (TyIdent (tok "T") false) (EBinary (num 1) OAdd (num 2)))) 0 = ROk x /\
    fst (var_generate (cx_typedef true) (var_of (ECast (TyIdent (tok "T") false) (EBinary (num 1) OAdd (num 2))))) =
      var_of (ECast (TyIdent (tok "U") false) (num 3)).
Proof.
  split; [exact settled_typedef|]. split.
  - cbn. split; [exact I|]. split; [|intros (t & x & [=])]. split; [exact I|]. split; [exact I|]. discriminate.
  - eexists. split; vm_compute; reflexivity.
Qed.

(** #define F(b, a) if (b) - (a) f(a): the condition is rewritten twice by the
    first call; the types of the parameters are known. *)
Definition cx_known : cgctx :=
  mk_cgctx None None None (fun _ a => Some (plain_ty "c_int")) (fun _ => None) (fun _ => None) (fun _ _ => None)
    (fun f => if str_eqb f (st "f") then Some ([plain_ty "c_int"], plain_ty "c_long") else None).
Definition if_body (c : expr) : macro_body := MbStatement (SIf c [SExpr (ECall (tok "f") [EVar (IArg 1)])] []).
Definition F_if (c : expr) : fn_macro := mk_fn_macro (st "F") [st "b"; st "a"] (if_body c).
Example C74_fn_case : settled cx_known /\ (forall i, i < 2 -> known cx_known (F_if (ECast (TyIdent (IArg 0) false) (EUnary UMinus (EVar (IArg 1))))) i = true) /\
  repeatable_body (known cx_known (F_if (ECast (TyIdent (IArg 0) false) (EUnary UMinus (EVar (IArg 1)))))) (if_body (ECast (TyIdent (IArg 0) false) (EUnary UMinus (EVar (IArg 1))))) /\
  exists x, fn_call cx_known (F_if (ECast (TyIdent (IArg 0) false) (EUnary UMinus (EVar (IArg 1))))) 0 = ROk x /\
    fst (fn_generate cx_known (F_if (ECast (TyIdent (IArg 0) false) (EUnary UMinus (EVar (IArg 1)))))) =
      F_if (EBinary (EBinary (EVar (IArg 0)) OSub (EVar (IArg 1))) ONeq (num 0)).
Proof.
  split; [intros x s t; discriminate|]. split; [intros [|[|i]] L; [reflexivity..|lia]|]. split.
  - split; [|split; [|exact I]].
    + split; [|reflexivity]. cbn. split; [exact I|]. split; [|intros (t & x & [=])]. split; [exact I|discriminate].
    + split; [|exact I]. split; [exact I|]. split; [split; exact I|]. split; [|exact I]. split; [reflexivity|exact I].
  - eexists. split; vm_compute; reflexivity.
Qed.
(** Without types of parameters, if they are not arguments of calls. *)
Definition G_sum : fn_macro := mk_fn_macro (st "G") [st "a"] (MbExpr (EBinary (EVar (IArg 0)) OMul (EBinary (num 2) OAdd (num 3)))).
Example C74_fn_unknown_case : settled cx_unit /\ known cx_unit G_sum 0 = false /\ repeatable_body (known cx_unit G_sum) (fm_body G_sum) /\
  exists x, fn_call cx_unit G_sum 0 = ROk x.
Proof.
  split; [intros x s t; discriminate|]. split; [reflexivity|]. split.
  - cbn. repeat split; discriminate.
  - eexists. vm_compute. reflexivity.
Qed.
(** #define H(s, x, m) (s) - (check("ab" #x, get_ ## x) * s.m), where only s has
    a type: the subtraction is parsed as a cast and rewritten. *)
Definition cx_s : cgctx :=
  mk_cgctx None None None (fun _ a => if str_eqb a (st "s") then Some (plain_ty "c_int") else None) (fun _ => None) (fun _ => None) (fun _ _ => None) (fun _ => None).
Definition H_body : expr :=
  ECast (TyIdent (IArg 0) false) (EUnary UMinus (EBinary
    (ECall (tok "check") [EConcat [ELit (LString (SOrdinary (st "a"))); ELit (LString (SOrdinary (st "b"))); EStringify (EVar (IArg 1))]; EVar (IConcat [IpPlain (st "get_"); IpArg 1])])
    OMul (EBinary (EVar (IArg 0)) OMember (EVar (IArg 2))))).
Definition H_strings : fn_macro := mk_fn_macro (st "H") [st "s"; st "x"; st "m"] (MbExpr H_body).
Example C74_fn_strings_case : settled cx_s /\ repeatable_body (known cx_s H_strings) (fm_body H_strings) /\ exists x, fn_call cx_s H_strings 0 = ROk x.
Proof.
  split; [intros x s t; discriminate|]. split.
  - cbn. repeat split; try discriminate. intros (t & x & [=]).
  - eexists. vm_compute. reflexivity.
Qed.

Print Assumptions C74_var_partial.
Print Assumptions C74_fn_partial.
Print Assumptions C74_character_refuted.
Print Assumptions C74_not_refuted.
Print Assumptions C74_condition_refuted.
Print Assumptions C74_typedef_refuted.
Print Assumptions C74_infer_refuted.
Print Assumptions C74_stringify_refuted.
Print Assumptions C74_paste_refuted.
Print Assumptions C74_member_refuted.
