(** C75: the generated code depends on the context only through the names of the macro. *)
From Verif Require Import Base Utf Lex LexFloat Token Ast ParseStmt Rust Finish Codegen SpecAccept SpecLocal LocalFacts.
From Coq Require Import String List Lia Bool.
Import ListNotations.
Local Open Scope string_scope.
Local Open Scope list_scope.

(** The names that generation may ask for without their occurring in the macro: the
    types of wide literals and of sizes. *)
Definition implied (S : str -> Prop) : Prop := S (st "wchar_t") /\ S (st "size_t").

Section P.
Context {U : Unicode}.

(** Contexts that agree on a set of names give the same result, and leave the same
    macro, if the names of the macro are in the set, and those of the types that the
    context states for names of the set. *)
Theorem C75_var S cx cx' m : implied S -> closed S cx -> agree S cx cx' -> body_in S (vm_body m) -> var_generate cx' m = var_generate cx m.
Proof. intros [W Z] C A B. now apply (var_local S). Qed.
Theorem C75_fn S cx cx' m : implied S -> closed S cx -> agree S cx cx' -> S (fm_name m) -> all S (fm_args m) -> body_in S (fm_body m) ->
  fn_generate cx' m = fn_generate cx m.
Proof. intros [W Z] C A N P B. now apply (fn_local S). Qed.

(** So what a context states about another name does not matter. *)
Definition other (x : str) : str -> Prop := fun y => y <> x.
Theorem C75_other x cx cx' m : x <> st "wchar_t" -> x <> st "size_t" -> closed (other x) cx -> agree (other x) cx cx' ->
  fm_name m <> x -> all (other x) (fm_args m) -> body_in (other x) (fm_body m) -> fn_generate cx' m = fn_generate cx m.
Proof. intros W Z C A N P B. apply (C75_fn (other x)); auto. split; intro E; subst; auto. Qed.

End P.

(** ** A case *)

#[local] Existing Instance demo_unicode.
(** [cx_more x]: T is the type U, A a constant of type c_int, f a function; and [x] is
    a type, a constant, a function, a field and a parameter as well. *)
Definition is (a : str) (b : string) : bool := str_eqb a (st b).
Definition cx_more (x : string) : cgctx :=
  mk_cgctx None None None (fun _ a => if is a "a" || is a x then Some (plain_ty "c_int") else None)
    (fun a => if is a "A" || is a x then Some (plain_ty "c_int", [ri "A"]) else None)
    (fun a => if is a "T" then Some (plain_ty "U") else if is a x then Some (plain_ty "W") else None)
    (fun t f => if is t x || is f x then Some (plain_ty "c_char") else None)
    (fun f => if is f "f" || is f x then Some ([plain_ty "c_int"], plain_ty "c_long") else None).
(** #define F(a) f(a) + (T)A *)
Definition F_more : fn_macro :=
  mk_fn_macro (st "F") [st "a"] (MbExpr (EBinary (ECall (IPlain (st "f")) [EVar (IArg 0)]) OAdd (ECast (TyIdent (IPlain (st "T")) false) (EVar (IPlain (st "A")))))).
Definition named (l : list string) : str -> Prop := fun x => In x (map st l).
Definition the_names : list string := ["F"; "a"; "f"; "T"; "A"; "U"; "wchar_t"; "size_t"].
Lemma rust_named l cx s t : from_rust_ty (cx_ffi cx) s = ROk t -> type_in (named l) t -> rust_in (named l) cx s.
Proof. intros E T t' E'. congruence. Qed.
Lemma more_closed : closed (named the_names) (cx_more "V").
Proof.
  assert (V : forall x, named the_names x -> is x "V" = false).
  { intros x. unfold named, the_names, is. cbn [map In]. intros H. repeat (destruct H as [<-|H]; [reflexivity|]). contradiction. }
  assert (R : forall s t, from_rust_ty (cx_ffi (cx_more "V")) s = ROk t -> type_in (named the_names) t -> rust_in (named the_names) (cx_more "V") s) by (intros; eapply rust_named; eauto).
  assert (CI : rust_in (named the_names) (cx_more "V") (plain_ty "c_int")) by (eapply R; [vm_compute; reflexivity|exact I]).
  assert (CL : rust_in (named the_names) (cx_more "V") (plain_ty "c_long")) by (eapply R; [vm_compute; reflexivity|exact I]).
  assert (CU : rust_in (named the_names) (cx_more "V") (plain_ty "U")) by (eapply R; [vm_compute; reflexivity|]; cbn; tauto).
  unfold closed. repeat apply conj; cbn [cx_more cx_ty cx_enum cx_field cx_fn cx_arg_ty].
  - intros x s X. rewrite V by exact X. destruct (is x "T"); [|discriminate]. now intros [= <-].
  - intros x s v X. rewrite V by exact X. destruct (is x "A"); [|discriminate]. now intros [= <- <-].
  - intros x f s X F. rewrite !V by assumption. discriminate.
  - intros x l s X. rewrite V by exact X. destruct (is x "f"); [|discriminate]. intros [= <- <-]. repeat split; auto.
  - intros x a s X A. rewrite V by exact A. destruct (is a "a"); [|discriminate]. now intros [= <-].
Qed.
Lemma more_agree : agree (named the_names) (cx_more "V") (cx_more "X").
Proof.
  repeat split; intros; cbn; unfold named, the_names in *; cbn [map In] in *;
  repeat match goal with H : _ \/ _ |- _ => destruct H as [<-|H]; try reflexivity | H : False |- _ => contradiction end.
Qed.
Example C75_case : implied (named the_names) /\ closed (named the_names) (cx_more "V") /\ agree (named the_names) (cx_more "V") (cx_more "X") /\
  named the_names (fm_name F_more) /\ all (named the_names) (fm_args F_more) /\ body_in (named the_names) (fm_body F_more) /\
  cx_ty (cx_more "V") (st "V") <> cx_ty (cx_more "X") (st "V") /\ exists ts, snd (fn_generate (cx_more "V") F_more) = ROk ts.
Proof.
  split; [cbn; unfold implied, named; cbn; tauto|]. split; [exact more_closed|]. split; [exact more_agree|]. split; [cbn; tauto|]. split; [cbn; tauto|]. split; [cbn; tauto|].
  split; [discriminate|]. eexists. vm_compute. reflexivity.
Qed.

(** A context that states that V is a function, and one that states nothing. *)
Definition cx_v : cgctx :=
  mk_cgctx None None None (fun _ _ => None) (fun _ => None) (fun _ => None) (fun _ _ => None) (fun f => if is f "V" then Some ([], plain_ty "c_int") else None).
Example C75_other_case : closed (other (st "V")) cx_unit /\ agree (other (st "V")) cx_unit cx_v /\
  fm_name F_more <> st "V" /\ all (other (st "V")) (fm_args F_more) /\ body_in (other (st "V")) (fm_body F_more) /\ cx_fn cx_v (st "V") <> None.
Proof.
  split; [repeat split; discriminate|]. split.
  - repeat split. cbn. unfold is. destruct (str_eqb x (st "V")) eqn:E; [|reflexivity]. apply StrFacts.str_eqb_eq in E. contradiction.
  - repeat split; intro; discriminate.
Qed.

(** ** The conditions are needed *)

(** [#define F(a) (a) - (T)A], where T is the type U: whether the context knows U
    matters, although U does not occur in the macro: the cast of the parameter becomes
    a subtraction, which is finished again after T has been replaced. *)
Definition cx_u (b : bool) : cgctx :=
  mk_cgctx None None None (fun _ _ => None) (fun a => if is a "A" then Some (plain_ty "c_int", [ri "A"]) else None)
    (fun a => if is a "T" then Some (plain_ty "U") else if b && is a "U" then Some (plain_ty "c_int") else None) (fun _ _ => None) (fun _ => None).
Definition F_u : fn_macro :=
  mk_fn_macro (st "F") [st "a"] (MbExpr (ECast (TyIdent (IArg 0) false) (EUnary UMinus (ECast (TyIdent (IPlain (st "T")) false) (EVar (IPlain (st "A"))))))).
Definition F_names : str -> Prop := other (st "U").
Theorem C75_resolved_needed : implied F_names /\ agree F_names (cx_u true) (cx_u false) /\
  F_names (fm_name F_u) /\ all F_names (fm_args F_u) /\ body_in F_names (fm_body F_u) /\
  (exists ts, snd (fn_generate (cx_u true) F_u) = ROk ts) /\ snd (fn_generate (cx_u false) F_u) = RErr (UnsupportedType (st "U")).
Proof.
  repeat split; try (intro; discriminate); try reflexivity; cbn; try (intro; discriminate).
  - unfold is. destruct (str_eqb x (st "T")); [reflexivity|]. destruct (str_eqb x (st "U")) eqn:E; [|reflexivity]. apply StrFacts.str_eqb_eq in E. contradiction.
  - eexists. vm_compute. reflexivity.
Qed.
(** The type of a wide string is that of wchar_t. *)
Definition cx_w (b : bool) : cgctx :=
  mk_cgctx None None None (fun _ _ => None) (fun _ => None) (fun a => if is a "wchar_t" then Some (plain_ty (if b then "u16" else "u32")) else None) (fun _ _ => None) (fun _ => None).
Definition X_w : var_macro := mk_var_macro (st "X") (MbExpr (ELit (LString (SWide (st "w"))))).
Theorem C75_implied_needed : agree (other (st "wchar_t")) (cx_w true) (cx_w false) /\ body_in (other (st "wchar_t")) (vm_body X_w) /\
  exists x y, snd (var_generate (cx_w true) X_w) = ROk x /\ snd (var_generate (cx_w false) X_w) = ROk y /\ x <> y.
Proof.
  split; [|split; [exact I|]].
  - repeat split. cbn. unfold is. destruct (str_eqb x (st "wchar_t")) eqn:E; [|reflexivity]. apply StrFacts.str_eqb_eq in E. contradiction.
  - do 2 eexists. split; [vm_compute; reflexivity|]. split; [vm_compute; reflexivity|]. discriminate.
Qed.

Print Assumptions C75_var.
Print Assumptions C75_fn.
Print Assumptions C75_other.
Print Assumptions C75_case.
Print Assumptions C75_resolved_needed.
Print Assumptions C75_implied_needed.
