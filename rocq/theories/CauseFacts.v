(** Errors of code generation are about what occurs in the macro. *)
From Verif Require Import Base Utf Lex LexFloat Token Ast ParseStmt Rust Finish Codegen StrFacts FinishFacts SpecAccept SpecCause.
From Verif Require LocalFacts.
From Coq Require Import String List SpecFloat Lia Bool.
Import ListNotations.
Local Open Scope string_scope.
Local Open Scope list_scope.

Section F.
Context {U : Unicode}.
Variable cx : cgctx.
(** The names and features that are allowed. *)
Variables AT AV AG : str -> Prop.
Variables Fwide Fderef Fcall Fcomp Fbad Fdyn Fcw Fcv Fpaste Fassign : Prop.
(** Whether the macro is variable-like. *)
Variable vb : bool.
Hypothesis TV : forall x, AT x -> AV x.
Hypothesis TS : forall x s y, AT x -> cx_ty cx x = Some s -> stated_name s = Some y -> AT y.
Hypothesis TW : Fwide -> AT (st "wchar_t").

Definition name_ok (n : ident_expr) : Prop := match n with IConcat l => forall z, In (IpInt z) l -> Fpaste | _ => True end.
Definition is_in (A : str -> Prop) (n : ident_expr) : Prop := match n with IPlain x => A x | _ => True end.
Definition type_ok (t : ctype) : Prop := forall n, type_name t = Some n -> name_ok n /\ is_in AT n.
(** The operand of a concatenation. *)
Definition elem_ok (e : expr) : Prop :=
  match e with
  | EVar (IPlain x) => x <> st "__FILE__" -> Fcv
  | ELit (LString (SWide _)) => Fcw
  | _ => True
  end.
Fixpoint expr_ok (e : expr) : Prop :=
  match e with
  | EVar n => name_ok n /\ is_in AV n
  | ECall n l => Fcall /\ name_ok n /\ is_in AG n /\ all expr_ok l
  | ECast t e => type_ok t /\ expr_ok e
  | ELit l => wide l -> Fwide
  | EStringify e => (stringifiable e \/ Fbad) /\ match e with EVar (IPlain x) => line_or_file x -> Fdyn | _ => True end
  | EConcat l => all elem_ok l /\ all expr_ok l
  | EUnary op e => (op = UDeref -> Fderef) /\ (op = UComp -> Fcomp) /\ expr_ok e
  | EBinary a op b => (assigns op -> Fassign) /\ expr_ok a /\ expr_ok b
  | ETernary a b d => expr_ok a /\ expr_ok b /\ expr_ok d
  | ESizeOf t => type_ok t
  end.

Definition stated_ok (s : sty) : Prop :=
  (exists x, AT x /\ cx_ty cx x = Some s) \/
  (exists x v, AV x /\ cx_enum cx x = Some (s, v)) \/
  (exists x l r, AG x /\ cx_fn cx x = Some (l, r) /\ (s = r \/ In s l)) \/
  (exists t x, AV x /\ cx_field cx t x = Some s).
Definition msg_ok (s : str) : Prop :=
  s = st "concatenation of identifiers and literals" /\ Fpaste \/
  s = st "stringification" /\ Fbad \/
  s = st "dereference in variable-like macro" /\ vb = true /\ Fderef \/
  s = st "dereference of non-pointer" /\ vb = false /\ Fderef \/
  s = st "complement of float or string" /\ Fcomp \/
  s = st "concatenation of wide strings" /\ Fcw \/
  s = st "concatenation of variables" /\ Fcv \/
  s = st "function call in variable-like macro" /\ vb = true /\ Fcall.
Definition err_ok (e : cgerr) : Prop :=
  match e with
  | UnsupportedType t => AT t /\ cx_ty cx t = None \/ exists s, stated_ok s /\ refused s = Some t
  | UnsupportedExpression s => msg_ok s
  | _ => False
  end.
(** Why a variable-like macro is no constant. *)
Definition dynamic : Prop := (exists x, AV x /\ unknown cx x) \/ Fdyn \/ Fassign.
Definition ctx_ok (c : lctx) : Prop := lc_var c = vb /\ (vb = true -> lc_macro c = true -> dynamic).
Definition res_ok (f : fres) : Prop := match f with FErr e => err_ok e | _ => True end.
Definition fin_ok {X} (P : X -> Prop) (r : fin X) : Prop := let '(x, c, f) := r in P x /\ ctx_ok c /\ res_ok f.

Lemma ok_bind {X Y} (P : X -> Prop) (Q : Y -> Prop) (r : fin X) w k : fin_ok P r ->
  (forall x, P x -> Q (w x)) -> (forall x c t, P x -> ctx_ok c -> fin_ok Q (k x c t)) -> fin_ok Q (fbind r w k).
Proof. intros H W K. destruct r as [[x c] [t| | |]]; cbn in *; intuition. Qed.
Lemma ok {X} (P : X -> Prop) x c f : P x -> ctx_ok c -> res_ok f -> fin_ok P (x, c, f).
Proof. cbn. auto. Qed.
Lemma set_ok c i a c' : ctx_ok c -> set_arg_type c i a = Some c' -> ctx_ok c'.
Proof. unfold set_arg_type. intros H. destruct (set_nth _ i a) as [l|]; [|discriminate]. intros [= <-]. exact H. Qed.
Lemma macro_ok c : ctx_ok c -> (vb = true -> dynamic) -> ctx_ok (set_macro true c).
Proof. intros [H1 H2] D. split; [exact H1|auto]. Qed.

Lemma unsup s : msg_ok (st s) -> res_ok (unsupported s).
Proof. exact (fun H => H). Qed.
Ltac msg := apply unsup; unfold msg_ok; tauto.

(** ** Names and types *)

Lemma ident_ok n c : name_ok n -> ctx_ok c -> ctx_ok (fst (ident_finish n c)) /\ res_ok (snd (ident_finish n c)).
Proof.
  intros N H. destruct n as [i|x|l]; cbn; auto. cbn in N. revert c H. induction l as [|[i|x|v] l IH]; intros c H; cbn; auto.
  - destruct (set_arg_type c i AIdent) as [c'|] eqn:E; [|cbn; auto]. apply IH; [intros z Z; apply (N z); now right|]. eapply set_ok; eauto.
  - apply IH; [intros z Z; apply (N z); now right|exact H].
  - destruct (0 <=? v)%Z; cbn [fst snd]; (split; [exact H|]); [|exact I]. assert (Fpaste) by (apply (N v); now left). msg.
Qed.
Lemma from_err ffi s e : from_rust_ty ffi s = RErr e -> exists t, refused s = Some t /\ e = UnsupportedType t.
Proof.
  revert e. induction s; intros e; cbn [from_rust_ty refused]; try discriminate.
  - destruct (from_rust_ty ffi s) as [t'| | |] eqn:Q; try discriminate. cbn. intros [= <-]. now apply IHs.
  - destruct (builtin_from_rust _ _ _); [discriminate|]. destruct (sp_colon p), (sp_segs p) as [|? [|? ?]]; discriminate.
  - intros [= <-]. eauto.
Qed.
Lemma from_name ffi s t : from_rust_ty ffi s = ROk t -> forall n, type_name t = Some n -> exists x, n = IPlain x /\ stated_name s = Some x.
Proof.
  revert t. induction s; intros t; cbn [from_rust_ty stated_name]; try discriminate.
  - destruct (from_rust_ty ffi s) as [t'| | |] eqn:Q; try discriminate. cbn. intros [= <-] n N. apply (IHs t' eq_refl). destruct mutable; exact N.
  - intros [= <-]. discriminate.
  - destruct (builtin_from_rust _ _ _); [intros [= <-]; discriminate|]. destruct (sp_colon p), (sp_segs p) as [|? [|? ?]]; intros [= <-] n; cbn; try discriminate. intros [= <-]. eauto.
  - intros [= <-] n [= <-]. eauto.
Qed.
Lemma from_ok s k : stated_ok s -> (forall t, res_ok (k t)) -> res_ok (from_rust cx s k).
Proof.
  intros S K. unfold from_rust. destruct (from_rust_ty (cx_ffi cx) s) as [t|e| |] eqn:Q; cbn; auto. destruct (from_err _ _ _ Q) as (t & R & ->). right. eauto.
Qed.
Lemma ty_ok t c : type_ok t -> ctx_ok c -> fin_ok type_ok (ty_finish cx t c).
Proof.
  revert c. induction t as [b|n s|lc l|t IH|t IH q]; cbn [ty_finish]; intros c T H; try (apply ok; cbn; auto; fail).
  - destruct (T n eq_refl) as [N A]. destruct (ident_ok n c N H) as [I1 I2]. destruct (ident_finish n c) as [c1 [o| | |]]; cbn [fst snd] in *; try (apply ok; cbn; auto; fail).
    destruct n as [i|x|l]; try (apply ok; cbn; auto; fail). cbn in A.
    destruct (cx_ty cx x) as [rt|] eqn:Q; [|apply ok; cbn; auto].
    destruct (from_rust_ty (cx_ffi cx) rt) as [t|e| |] eqn:R; apply ok; cbn; auto.
    + intros m M. destruct (from_name _ _ _ R m M) as (y & -> & Y). split; [exact I|]. exact (TS _ _ _ A Q Y).
    + destruct (from_err _ _ _ R) as (t & R2 & ->). right. exists rt. split; [left; eauto|exact R2].
  - specialize (IH c T H). destruct (ty_finish cx t c) as [[t1 c1] f]. exact IH.
  - specialize (IH c T H). destruct (ty_finish cx t c) as [[t1 c1] f]. exact IH.
Qed.
Lemma wchar_ok c k : Fwide -> ctx_ok c -> (forall t, type_ok t -> res_ok (k t)) -> res_ok (wchar_finish cx c k).
Proof.
  intros W H K. unfold wchar_finish. assert (T : type_ok (TyIdent (IPlain (st "wchar_t")) false)) by (intros n [= <-]; split; [exact I|exact (TW W)]).
  pose proof (ty_ok _ c T H) as J. destruct (ty_finish cx _ c) as [[t c1] [o| | |]]; cbn in *; try apply J; auto. apply K, J.
Qed.
Lemma char_ok x c : (wide (LChar x) -> Fwide) -> ctx_ok c -> res_ok (char_finish cx x c) /\ forall t, char_finish cx x c = FOk (Some t) -> type_ok t.
Proof.
  intros W H. destruct x; cbn [char_finish]; try (split; [exact I|]; intros t [= <-]; intros n; discriminate).
  split; [apply wchar_ok; auto; [exact (W I)|intros; exact I]|]. intros t. unfold wchar_finish.
  assert (T : type_ok (TyIdent (IPlain (st "wchar_t")) false)) by (intros n0 [= <-]; split; [exact I|exact (TW (W I))]).
  pose proof (ty_ok _ c T H) as J. destruct (ty_finish cx _ c) as [[t1 c1] [o| | |]]; try discriminate. intros [= <-]. apply J.
Qed.
Lemma lit_ok l c : (wide l -> Fwide) -> ctx_ok c -> res_ok (lit_finish cx l c).
Proof.
  intros W H. destruct l as [x|x|f|i]; cbn [lit_finish].
  - now apply char_ok.
  - destruct x; cbn [string_finish]; try exact I. apply wchar_ok; auto; [exact (W I)|intros; exact I].
  - destruct f; exact I.
  - exact I.
Qed.

(** ** Variables and calls *)

Lemma limits_in x : rust_name limit_types x = None -> ~ In x (map st limits).
Proof.
  intros E H. cbn [limits map In] in H. repeat (destruct H as [<-|H]; [vm_compute in E; discriminate|]). exact H.
Qed.
Lemma var_ok n c : name_ok n -> is_in AV n -> ctx_ok c -> ctx_ok (fst (var_finish cx n c)) /\ res_ok (snd (var_finish cx n c)).
Proof.
  intros N A H. unfold var_finish. destruct (ident_ok n c N H) as [I1 I2]. destruct (ident_finish n c) as [c1 [o| | |]]; cbn [fst snd] in *; auto.
  destruct n as [i|x|l]; [| |cbn; auto].
  - destruct (arg_type c1 i) as [[]|]; cbn; auto.
  - destruct (str_eqb x (st "__LINE__")) eqn:E1.
    { apply str_eqb_eq in E1. split; [|exact I]. apply macro_ok; [exact I1|]. intros _. left. exists x. split; [exact A|]. left. left. exact E1. }
    destruct (str_eqb x (st "__FILE__")) eqn:E2.
    { apply str_eqb_eq in E2. split; [|exact I]. apply macro_ok; [exact I1|]. intros _. left. exists x. split; [exact A|]. left. right. exact E2. }
    destruct (rust_name limit_types x) eqn:E3; [cbn; auto|].
    destruct (cx_enum cx x) as [[s v]|] eqn:Q; cbn [fst snd].
    + split; [exact I1|]. apply from_ok; [|intros; exact I]. right. left. eauto.
    + split; [|exact I]. apply macro_ok; [exact I1|]. intros _. left. exists x. split; [exact A|]. right. split; [exact Q|]. now apply limits_in.
Qed.
Lemma infer_ok e x c : ctx_ok c -> res_ok (fst x) -> ctx_ok (fst (infer_arg e x c)) /\ res_ok (snd (infer_arg e x c)).
Proof.
  intros H R. destruct e as [[i|y|l]| | | | | | | | |]; cbn; auto. destruct (arg_type c i) as [[]|]; cbn; auto.
  destruct x as [f [a|]]; cbn in *; auto. destruct (set_arg_type c i a) as [c'|] eqn:E; cbn; auto. split; [|exact I]. eapply set_ok; eauto.
Qed.
Lemma infers_ok : forall l tys c, Forall stated_ok tys -> ctx_ok c -> ctx_ok (fst (infer_args cx l tys c)) /\ res_ok (snd (infer_args cx l tys c)).
Proof.
  induction l as [|e l IH]; intros [|t tys] c T H; cbn [infer_args]; auto; try (cbn; auto; fail). inversion T as [|? ? T1 T2]; subst.
  destruct (infer_ok e (known_arg cx t) c H) as [I1 I2].
  - unfold known_arg. destruct (from_rust_ty (cx_ffi cx) t) as [|e'| |] eqn:Q; cbn; auto. destruct (from_err _ _ _ Q) as (t' & R & ->). right. eauto.
  - destruct (infer_arg e (known_arg cx t) c) as [c1 [o| | |]]; cbn in *; auto.
Qed.
Lemma call_ok n l c : vb = false -> is_in AG n -> ctx_ok c -> ctx_ok (fst (call_types cx n l c)) /\ res_ok (snd (call_types cx n l c)).
Proof.
  intros V N H. unfold call_types. assert (HM : ctx_ok (set_macro true c)) by (apply macro_ok; [exact H|congruence]).
  destruct n as [i|x|ps]; try (cbn; auto; fail).
  destruct (cx_fn cx x) as [[tys ret]|] eqn:Q.
  - assert (S : forall s, s = ret \/ In s tys -> stated_ok s) by (intros s X; right; right; left; exists x, tys, ret; auto).
    destruct (Nat.eqb _ _); [|cbn; auto].
    destruct (from_rust_ty (cx_ffi cx) ret) as [t|e| |] eqn:R; try (cbn; auto; fail).
    + destruct (infers_ok l tys c) as [I1 I2]; [apply Forall_forall; auto|exact H|]. destruct (infer_args cx l tys c) as [c1 [o| | |]]; cbn in *; auto.
    + destruct (from_err _ _ _ R) as (t' & R2 & ->). split; [exact H|]. right. eauto.
  - destruct (str_eqb x _); [|cbn; auto]. destruct l as [|a [|b [|d l]]]; try (cbn; auto; fail).
    destruct (infer_ok a (FOk None, Some ATy) (set_macro true c) HM) as [I1 I2]; [exact I|].
    destruct (infer_arg a _ (set_macro true c)) as [c1 [o| | |]]; cbn [fst snd] in *; auto. now apply infer_ok.
Qed.
Lemma stringify_ok a c : expr_ok (EStringify a) -> ctx_ok c -> ctx_ok (fst (stringify_finish a c)) /\ res_ok (snd (stringify_finish a c)).
Proof.
  intros [S D] H. assert (B : ~ stringifiable a -> res_ok (unsupported "stringification")) by (intro NS; assert Fbad by tauto; msg).
  destruct a as [[i|x|l]| | | | | | | | |]; cbn [stringify_finish]; try (cbn [fst snd]; split; [exact H|]; apply B; cbn; tauto).
  - destruct (arg_type c i) as [[]|]; cbn; auto; destruct (set_arg_type c i AExpr) as [c'|] eqn:E; cbn; auto; (split; [eapply set_ok; eauto|exact I]).
  - destruct (str_eqb x (st "__LINE__")) eqn:E1; cbn [orb].
    { apply str_eqb_eq in E1. split; [|exact I]. apply macro_ok; [exact H|]. intros _. right. left. apply D. now left. }
    destruct (str_eqb x (st "__FILE__")) eqn:E2.
    { apply str_eqb_eq in E2. split; [|exact I]. apply macro_ok; [exact H|]. intros _. right. left. apply D. now right. }
    split; [exact H|]. apply B. intros [->| ->]; [vm_compute in E1|vm_compute in E2]; discriminate.
Qed.

(** ** Operators *)

Lemma zero_ok : expr_ok int_zero.
Proof. intros []. Qed.
Lemma unary_ty op c t : (op = UDeref -> Fderef) -> ctx_ok c -> res_ok (unary_type op c t).
Proof.
  intros D [H _]. destruct op; cbn [unary_type]; try exact I. rewrite H. assert Fderef by auto.
  destruct vb eqn:VB; [msg|]. destruct t as [[]|]; try exact I; msg.
Qed.
Lemma unary_fold_ok op e t : (op = UDeref -> Fderef) -> (op = UComp -> Fcomp) -> expr_ok e -> expr_ok (fst (unary_fold op e t)) /\ res_ok (snd (unary_fold op e t)).
Proof.
  intros D C E. assert (OTHER : expr_ok (EUnary op e)) by (cbn; auto).
  assert (NOT : op = UNot -> forall z, expr_ok z -> expr_ok (EBinary e OEq z)) by (intros _ z Z; split; [intros []|split; assumption]).
  assert (CC : op = UComp -> res_ok (unsupported "complement of float or string")) by (intro Q; assert Fcomp by auto; msg).
  destruct op; try (destruct e as [| | |[]| | | | | |]; cbn [unary_fold fst snd]; split; auto; try exact I; try (intros []; fail); fail).
  - destruct e as [| | |[| | |[v [s|]]]| | | | | |]; cbn [unary_fold]; try (destruct (oty_eqb t _); cbn [fst snd]; split; auto; try exact I; apply NOT; auto; destruct t as [[[]| | | |]|]; intros []; fail);
      cbn [fst snd]; split; auto; try exact I; intros [].
Qed.
Lemma types_ok l op r lt rt c : (assigns op -> Fassign) -> expr_ok l -> expr_ok r -> ctx_ok c -> fin_ok (fun x => expr_ok (fst x) /\ expr_ok (snd x)) (binary_types cx l op r lt rt c).
Proof.
  intros A L R H. rewrite LocalFacts.types_eq.
  destruct (LocalFacts.member_ctx op r c) as [c1|] eqn:E1; [|apply ok; cbn; auto]. unfold LocalFacts.member_ctx in E1.
  assert (C1 : ctx_ok c1). { destruct op; try (injection E1 as <-; exact H). destruct r as [[]| | | | | | | | |]; try (injection E1 as <-; exact H). eapply set_ok; eauto. }
  assert (C2 : ctx_ok (LocalFacts.assign_ctx op l c1)).
  { unfold LocalFacts.assign_ctx. destruct (is_assignment op) eqn:Q; [|exact C1]. destruct l as [[]| | | | | | | | |]; try exact C1. apply macro_ok; [exact C1|]. intros _. right. right. apply A. destruct op; try discriminate; exact I. }
  assert (X : let '(l', r', _, _) := LocalFacts.retyped l op r lt rt in expr_ok l' /\ expr_ok r').
  { assert (MT : forall e t, max_ty_cast e = Some t -> type_ok t).
    { intros [[]| | | | | | | | |] t; cbn [max_ty_cast]; try discriminate. destruct (rust_name _ id); try discriminate. intros [= <-] n. discriminate. }
    assert (KEEP : expr_ok l /\ expr_ok r) by auto. unfold LocalFacts.retyped.
    destruct l as [| | |[| | |[v [s|]]]| | | | | |], r as [| | |[| | |[v' [s'|]]]| | | | | |]; try exact KEEP;
      try (split; [intros []|exact R]; fail); try (split; [exact L|intros []]; fail);
      (destruct (mul_or_add op); [|exact KEEP]);
      match goal with |- context[max_ty_cast ?e] => destruct (max_ty_cast e) as [t|] eqn:M; [|exact KEEP]; pose proof (MT _ _ M) end; (split; auto); split; auto. }
  destruct (LocalFacts.retyped l op r lt rt) as [[[l' r'] lt'] rt']. destruct X as [XL XR].
  apply ok; [auto|exact C2|]. destruct op; try exact I. unfold LocalFacts.field_type. destruct lt' as [[|[]| | |]|]; try exact I. destruct r' as [[]| | | | | | | | |]; try exact I.
  destruct (cx_field cx id id0) as [s|] eqn:Q; [|exact I]. apply from_ok; [|intros; exact I]. do 3 right. exists id, id0. split; [apply XR|exact Q].
Qed.
Lemma fold_ok l op r t c : (assigns op -> Fassign) -> expr_ok l -> expr_ok r -> ctx_ok c -> expr_ok (fst (binary_fold cx l op r t c)) /\ res_ok (snd (binary_fold cx l op r t c)).
Proof.
  intros A L R H. assert (O : expr_ok (EBinary l op r)) by (cbn; auto).
  unfold binary_fold. destruct l as [| | |[| |x|x]| | | | | |], r as [| | |[| |y|y]| | | | | |]; try (cbn [fst snd]; split; [exact O|exact I]).
  - destruct (float_op op); cbn [fst snd]; [|split; [exact O|exact I]]. split; [intros []|]. apply lit_ok; [intros []|exact H].
  - destruct (int_folds op); [|cbn [fst snd]; split; [exact O|exact I]]. destruct (int_op op _ _); cbn [fst snd]; split; try exact O; try exact I. intros [].
Qed.
Lemma as_binary_ok t e b : type_ok t -> expr_ok e -> cast_as_binary cx t e = Some b -> expr_ok b.
Proof.
  intros T E. unfold cast_as_binary. destruct e as [| | | | | | |op a| |]; try discriminate. destruct t as [|n []| | |]; try discriminate.
  destruct (T n eq_refl) as [N A]. destruct E as (_ & _ & E).
  assert (V : expr_ok (EVar n)). { split; [exact N|]. destruct n; try exact I. apply TV, A. }
  destruct n as [i|id|ps]; [|destruct (cx_ty cx id); [discriminate|]|]; destruct op; try discriminate; intros [= <-]; (split; [intros []|]); auto.
Qed.
Lemma of_deref_ok t e b : type_ok t -> expr_ok e -> cast_of_deref t e = Some b -> expr_ok b.
Proof.
  intros T E. unfold cast_of_deref. destruct e as [| |t2 e2| | | | | | |]; try discriminate. destruct t2 as [|n []| | |]; try discriminate.
  destruct e2 as [| | | | | | |[] a| |]; try discriminate. destruct a as [| |t3 e3| | | | | | |]; try discriminate. destruct (ctype_eqb t t3); [|discriminate].
  destruct E as [TN (_ & _ & E)]. destruct (TN n eq_refl) as [N A].
  assert (V : expr_ok (EVar n)). { split; [exact N|]. destruct n; try exact I. apply TV, A. }
  intros [= <-]. split; [intros []|]. split; [split; auto|exact E].
Qed.

(** ** Expressions *)

Lemma list_ok (f : expr -> lctx -> fin expr) l : Forall (fun e => forall c, expr_ok e -> ctx_ok c -> fin_ok expr_ok (f e c)) l ->
  forall c, all expr_ok l -> ctx_ok c -> fin_ok (all expr_ok) (list_finish f l c).
Proof.
  induction 1 as [|e l HE HF IH]; intros c A H; cbn [list_finish]; [apply ok; cbn; auto|]. destruct A as [A1 A2].
  apply (ok_bind expr_ok); [now apply HE|intros x X; now split|]. intros x c1 t X C1. pose proof (IH c1 A2 C1) as J.
  destruct (list_finish f l c1) as [[l2 c2] r]. destruct J as (J1 & J2 & J3). cbn. auto.
Qed.
Lemma all_app (P : expr -> Prop) a b : all P (a ++ b) <-> all P a /\ all P b.
Proof. induction a; cbn; [tauto|]. rewrite IHa. tauto. Qed.
(** Names that are merged can be merged again. *)
Definition plain (e : expr) : Prop := match e with EVar (IPlain x) => x = st "__FILE__" | ELit (LString (SWide _)) => False | _ => True end.
Lemma plain_elem e : plain e -> elem_ok e.
Proof. destruct e as [[]| | |[|[]| |]| | | | | |]; cbn; try tauto. Qed.
Definition both (e : expr) : Prop := elem_ok e /\ expr_ok e.
Definition quad_ok (r : expr * list expr * lctx * fres) : Prop :=
  let '(e, l, c, f) := r in (expr_ok e /\ plain e) /\ (all plain l /\ all expr_ok l) /\ ctx_ok c /\ res_ok f.
Lemma push_ok acc cur : all plain acc /\ all expr_ok acc -> all plain (push_string acc cur) /\ all expr_ok (push_string acc cur).
Proof. intros [A B]. destruct cur; [|auto]. cbn. split; apply all_app; cbn; repeat split; auto. intros []. Qed.
Lemma concat_ok (f : expr -> lctx -> fin expr) l : Forall (fun e => forall c, expr_ok e -> ctx_ok c -> fin_ok (fun x => expr_ok x /\ (elem_ok e -> elem_ok x)) (f e c)) l ->
  forall done acc cur c, all elem_ok l -> all expr_ok l -> all elem_ok done -> all expr_ok done -> all plain acc /\ all expr_ok acc -> ctx_ok c ->
  quad_ok (concat_finish f done l acc cur c).
Proof.
  induction 1 as [|e l HE HF IH]; intros done acc cur c A A' D D' AC H; cbn [concat_finish].
  - cbn. repeat split; auto; try apply H; apply push_ok; auto.
  - destruct A as [A1 A2], A' as [B1 B2]. pose proof (HE c B1 H) as J. destruct (f e c) as [[e1 c1] r]. destruct J as ((J1 & J1') & J2 & J3). specialize (J1' A1).
    assert (SELF : expr_ok (EConcat (done ++ e1 :: l))) by (cbn; rewrite !all_app; cbn; auto).
    assert (NIL : forall r, res_ok r -> quad_ok (EConcat (done ++ e1 :: l), [], c1, r)) by (intros r0 R0; cbn [quad_ok]; repeat split; auto; try apply SELF; apply J2).
    assert (GO : forall acc' cur', all plain acc' /\ all expr_ok acc' -> quad_ok (concat_finish f (done ++ [e1]) l acc' cur' c1)).
    { intros acc' cur' AA. apply IH; auto; apply all_app; cbn; auto. }
    assert (PV : plain e1 -> all plain (push_string acc cur ++ [e1]) /\ all expr_ok (push_string acc cur ++ [e1])) by (intro; destruct (push_ok acc cur AC); split; apply all_app; cbn; auto).
    destruct r as [t| | |]; try (apply NIL; auto; fail).
    destruct e1 as [[]| | |[]| | | | | |]; try (apply GO, PV; exact I).
    + destruct (str_eqb id _) eqn:Q; [apply GO, PV; apply str_eqb_eq in Q; exact Q|]. apply NIL. assert Fcv by (apply J1'; intro X; subst id; vm_compute in Q; discriminate). msg.
    + destruct (lit_string_as_bytes _) eqn:Q; [apply GO, AC|]. apply NIL. assert Fcw; [|msg]. destruct s; try discriminate. exact J1'.
Qed.
Lemma condition_ok (f : expr -> lctx -> fin expr) (P : expr -> Prop) e c : fin_ok (fun x => expr_ok x /\ P x) (f e c) -> fin_ok expr_ok (condition_finish f e c).
Proof.
  intro L. unfold condition_finish. apply (ok_bind (fun x => expr_ok x /\ P x)); [exact L|tauto|]. intros x c1 t [X _] C. destruct (oty_eqb t _); apply ok; try exact I; auto. cbn [expr_ok]. split; [intros []|]. split; [exact X|apply zero_ok].
Qed.

Lemma unary_plain op e t : plain (fst (unary_fold op e t)).
Proof.
  destruct op; try (destruct e as [| | |[]| | | | | |]; exact I).
  destruct e as [| | |[| | |[v [s|]]]| | | | | |]; cbn [unary_fold]; try exact I; destruct (oty_eqb t _); exact I.
Qed.
Lemma binary_plain l op r t c : plain (fst (binary_fold cx l op r t c)).
Proof.
  unfold binary_fold. destruct l as [| | |[| |x|x]| | | | | |], r as [| | |[| |y|y]| | | | | |]; try exact I.
  - destruct (float_op op); exact I.
  - destruct (int_folds op); [|exact I]. destruct (int_op op _ _); exact I.
Qed.
Lemma weaken {X} (P Q : X -> Prop) (r : fin X) : fin_ok P r -> (forall x, P x -> Q x) -> fin_ok Q r.
Proof. destruct r as [[x c] f]. cbn. intuition. Qed.
Definition becomes (e x : expr) : Prop := expr_ok x /\ (elem_ok e -> elem_ok x).
Lemma becomes_any e x : expr_ok x -> plain x -> becomes e x.
Proof. split; [assumption|]. intros _. now apply plain_elem. Qed.

Lemma finish_ok n : forall e c, expr_ok e -> ctx_ok c -> fin_ok (becomes e) (finish cx n e c).
Proof.
  induction n as [n IHn] using lt_wf_ind.
  assert (AGN : forall e c, expr_ok e -> ctx_ok c -> fin_ok (becomes e) (again_of cx n e c)).
  { intros e c E C. destruct n as [|n']; cbn [again_of]; [apply ok; cbn; unfold becomes; auto | apply IHn; auto]. }
  clear IHn.
  assert (AG2 : forall e0 e c, expr_ok e -> elem_ok e -> ctx_ok c -> fin_ok (becomes e0) (again_of cx n e c)).
  { intros e0 e c E P C. eapply weaken; [now apply AGN|]. intros x [X1 X2]. split; [exact X1|]. auto. }
  clear AGN.
  induction e as [v|v l IHl|ty e IHe|l|a IHa|l IHl|ty|op e IHe|a op b IHa IHb|a b d IHa IHb IHd] using expr_ind'; intros c E H;
    rewrite !finish_eq; cbn [finish_step]; pose proof E as E0; cbn [expr_ok] in E.
  - destruct (var_ok v c (proj1 E) (proj2 E) H) as (V1 & V2). destruct (var_finish cx v c). apply ok; auto. split; auto.
  - destruct E as (F & N & G & L). destruct (lc_var c) eqn:V.
    + apply ok; auto; [split; auto|]. assert (vb = true) by (destruct H as [<- _]; exact V). msg.
    + assert (VB : vb = false) by (destruct H as [<- _]; exact V).
      destruct (ident_ok v c N H) as [I1 I2]. destruct (ident_finish v c) as [c1 [o| | |]]; cbn [fst snd] in *; try (apply ok; auto; split; auto; fail).
      assert (W : forall l1, all expr_ok l1 -> becomes (ECall v l) (ECall v l1)) by (intros l1 L1; apply becomes_any; [cbn; auto|exact I]).
      apply (ok_bind (all expr_ok)); [apply list_ok; auto|exact W|].
      { rewrite Forall_forall in *. intros x X c0 X1 X2. eapply weaken; [now apply IHl|]. intros y Y. apply Y. }
      intros l1 c2 t L1 C. destruct (call_ok v l1 c2 VB G C) as (V1 & V2). destruct (call_types cx v l1 c2). apply ok; auto.
  - destruct E as [E1 E2]. pose proof (ty_ok ty c E1 H) as J. destruct (ty_finish cx ty c) as [[t1 c1] r1]. destruct J as (T1 & C1 & R1).
    assert (J : fin_ok expr_ok (match r1 with FOk _ => finish cx n e c1 | _ => (e, c1, r1) end)).
    { destruct r1; try (apply ok; auto; fail). eapply weaken; [now apply IHe|]. intros y Y. apply Y. }
    destruct (match r1 with FOk _ => finish cx n e c1 | _ => (e, c1, r1) end) as [[e2 c2] r2]. destruct J as (X2 & C2 & R2).
    assert (CE : becomes (ECast ty e) (ECast t1 e2)) by (apply becomes_any; [split; assumption|exact I]).
    destruct r2 as [o2|[x| | |x|x]| |]; try (apply ok; auto; fail).
    + destruct (cast_as_binary cx t1 e2) as [b|] eqn:B.
      * apply AG2; auto; [exact (as_binary_ok _ _ _ T1 X2 B)|]. unfold cast_as_binary in B. destruct e2; try discriminate. destruct t1 as [|nn []| | |]; try discriminate. destruct nn as [i|id|ps]; [|destruct (cx_ty cx id); [discriminate|]|]; destruct op; try discriminate; injection B as <-; exact I.
      * destruct (redundant_cast t1 e2) eqn:RC; apply ok; auto; try exact I. apply becomes_any; [exact X2|]. destruct e2 as [| | |[|[]| |]| | | | | |]; try discriminate; exact I.
    + destruct (cast_of_deref t1 e2) as [b|] eqn:B; [|apply ok; auto]. apply AG2; auto; [exact (of_deref_ok _ _ _ T1 X2 B)|].
      unfold cast_of_deref in B. destruct e2 as [| |t2 e2| | | | | | |]; try discriminate. destruct t2 as [|nn []| | |]; try discriminate.
      destruct e2 as [| | | | | | |[] a| |]; try discriminate. destruct a as [| |t3 e3| | | | | | |]; try discriminate. destruct (ctype_eqb t1 t3); [|discriminate]. injection B as <-. exact I.
  - destruct l as [x|s|fl|it].
    + destruct (char_ok x c E H) as [J1 J2]. destruct (char_finish cx x c) as [[t|]| | |]; apply ok; auto; try exact I; try (split; auto; fail). apply becomes_any; [split; [now apply J2|exact E]|exact I].
    + apply ok; auto; [split; auto|now apply lit_ok].
    + apply ok; auto; [split; auto|now apply lit_ok].
    + apply ok; auto; [split; auto|now apply lit_ok].
  - destruct (stringify_ok a c E0 H) as [V1 V2]. destruct (stringify_finish a c). apply ok; auto. split; auto.
  - destruct E as [EL EA].
    pose proof (concat_ok (finish cx n) l IHl [] [] None c EL EA I I (conj I I) H) as Q. destruct (concat_finish (finish cx n) [] l [] None c) as [[[self names] c1] r]. destruct Q as (Q1 & (Q2 & Q2') & Q3 & Q4).
    assert (BN : forall l1, all plain l1 -> all expr_ok l1 -> becomes (EConcat l) (EConcat l1)).
    { intros l1 P1 P2. apply becomes_any; [|exact I]. split; [|exact P2]. clear P2. induction l1; cbn in *; auto. destruct P1. split; auto using plain_elem. }
    assert (BS : becomes (EConcat l) self) by (apply becomes_any; tauto).
    destruct names as [|x1 [|x2 names]], r as [o| | |]; try (apply ok; auto; try exact I; fail). destruct Q2 as [Q2 _], Q2' as [Q2' _]. apply AG2; auto using plain_elem.
  - apply (ok_bind type_ok); [now apply ty_ok|intros x X; apply becomes_any; [exact X|exact I]|]. intros x c1 t X C. apply ok; auto; [|exact I]. apply becomes_any; [exact X|exact I].
  - destruct E as (ED & EC & E). assert (W : forall x, expr_ok x -> becomes (EUnary op e) (EUnary op x)) by (intros x X; apply becomes_any; [cbn; auto|exact I]).
    apply (ok_bind (becomes e)); [now apply IHe|intros x X; apply W, X|]. intros x c1 t X C. pose proof (unary_ty op c1 t ED C) as UT. destruct (unary_type op c1 t) as [t'| | |]; try (apply ok; auto; apply W, X).
    destruct (unary_fold_ok op x t' ED EC (proj1 X)) as [F1 F2]. pose proof (unary_plain op x t') as UP. destruct (unary_fold op x t'). apply ok; auto. now apply becomes_any.
  - destruct E as (EA & E1 & E2). assert (W : forall x y, expr_ok x -> expr_ok y -> becomes (EBinary a op b) (EBinary x op y)) by (intros x y X Y; apply becomes_any; [cbn; auto|exact I]).
    apply (ok_bind (becomes a)); [now apply IHa|intros x [X _]; auto|]. intros x c1 t [X _] C. apply (ok_bind (becomes b)); [now apply IHb|intros y [Y _]; auto|]. intros y c2 t2 [Y _] C2.
    apply (ok_bind (fun x => expr_ok (fst x) /\ expr_ok (snd x))); [now apply types_ok|intros z [Z1 Z2]; auto|]. intros z c3 t3 [Z1 Z2] C3.
    destruct (fold_ok (fst z) op (snd z) t3 c3 EA Z1 Z2 C3) as (F1 & F2). pose proof (binary_plain (fst z) op (snd z) t3 c3). destruct (binary_fold cx (fst z) op (snd z) t3 c3). apply ok; auto. now apply becomes_any.
  - destruct E as (E1 & E2 & E3). assert (W : forall x y z, expr_ok x -> expr_ok y -> expr_ok z -> becomes (ETernary a b d) (ETernary x y z)) by (intros x y z X Y Z; apply becomes_any; [cbn; auto|exact I]).
    apply (ok_bind expr_ok); [eapply condition_ok, IHa; auto|auto|]. intros x c1 t X C. apply (ok_bind (becomes b)); [now apply IHb|intros y [Y _]; auto|]. intros y c2 t2 [Y _] C2.
    apply (ok_bind (becomes d)); [now apply IHd|intros z [Z _]; auto|]. intros z c3 t3 [Z _] C3. apply ok; auto; exact I.
Qed.
Lemma exp_ok e c : expr_ok e -> ctx_ok c -> fin_ok expr_ok (expr_finish cx e c).
Proof. intros E H. eapply weaken; [now apply finish_ok|]. intros x X. apply X. Qed.
Lemma cond_ok e c : expr_ok e -> ctx_ok c -> fin_ok expr_ok (condition_finish (expr_finish cx) e c).
Proof. intros E H. apply (condition_ok _ (fun x => elem_ok e -> elem_ok x)). now apply finish_ok. Qed.

(** ** Statements, in function-like macros only *)

Section Statements.
Hypothesis SV : vb = false.

Fixpoint stmt_ok (s : stmt) : Prop :=
  match s with
  | SExpr e => expr_ok e
  | SAsm a => all (fun x => expr_ok (snd x)) (asm_outputs a) /\ all (fun x => expr_ok (snd x)) (asm_inputs a)
  | SVarDecl d => type_ok (vd_ty d) /\ name_ok (vd_name d) /\ expr_ok (vd_rhs d)
  | SFnDecl d => type_ok (fd_ret d) /\ all (fun a => type_ok (fst a)) (fd_args d)
  | SBlock l => all stmt_ok l
  | SIf c a b => expr_ok c /\ all stmt_ok a /\ all stmt_ok b
  | SDoWhile l c => all stmt_ok l /\ expr_ok c
  end.
Lemma void_ok {X Y} (P : X -> Prop) (Q : Y -> Prop) (r : fin X) (w : X -> Y) : fin_ok P r -> (forall x, P x -> Q (w x)) ->
  fin_ok Q (fbind r w (fun x c _ => (w x, c, FOk (ty_b BVoid)))).
Proof. intros L W. apply (ok_bind P); [exact L|exact W|]. intros x c t HX C. apply ok; cbn; auto. Qed.
Lemma exprs_ok l c : all expr_ok l -> ctx_ok c -> fin_ok (all expr_ok) (list_finish (expr_finish cx) l c).
Proof. apply list_ok. apply Forall_forall. intros e _ c1. apply exp_ok. Qed.
Lemma put_ok {A B} (f : A * expr -> B) (g : B -> expr) : (forall x, g (f x) = snd x) -> forall (l : list A) es, all expr_ok es -> all (fun x => expr_ok (g x)) (map f (combine l es)).
Proof. intros E l. induction l as [|a l IH]; intros [|e es] H; cbn in *; auto. split; [rewrite E; apply H|apply IH, H]. Qed.
Lemma all_snd {A} (l : list (A * expr)) : all (fun x => expr_ok (snd x)) l -> all expr_ok (map snd l).
Proof. induction l; cbn; tauto. Qed.
Lemma asm_ok a c : stmt_ok (SAsm a) -> ctx_ok c -> fin_ok (fun a => stmt_ok (SAsm a)) (asm_finish cx a c).
Proof.
  intros [A1 A2] H. unfold asm_finish.
  assert (PO : forall l, all expr_ok l -> all (fun x => expr_ok (snd x)) (map (fun '((d, r, _), e) => (d, r, e)) (combine (asm_outputs a) l))).
  { intros l L. apply (put_ok _ snd); [|exact L]. now intros [[[] ?] ?]. }
  assert (PI : forall l, all expr_ok l -> all (fun x => expr_ok (snd x)) (map (fun '((r, _), e) => (r, e)) (combine (asm_inputs a) l))).
  { intros l L. apply (put_ok _ snd); [|exact L]. now intros [[] ?]. }
  apply (ok_bind (all expr_ok)); [apply exprs_ok; auto using all_snd|intros l L; cbn; auto|]. intros lo c1 t L C.
  apply (ok_bind (all expr_ok)); [apply exprs_ok; auto using all_snd|intros l L1; cbn; auto|]. intros li c2 t2 L2 C2.
  apply ok; cbn; auto. destruct (asm_global a); [|exact C2]. apply macro_ok; [exact C2|congruence].
Qed.
Lemma var_decl_ok d c : stmt_ok (SVarDecl d) -> ctx_ok c -> fin_ok (fun d => stmt_ok (SVarDecl d)) (var_decl_finish cx d c).
Proof.
  intros (A1 & AN & A2) H. unfold var_decl_finish. apply (ok_bind type_ok); [now apply ty_ok|cbn; auto|]. intros t c1 o T C.
  destruct (ident_ok (vd_name d) c1 AN C) as [I1 I2]. destruct (ident_finish (vd_name d) c1) as [c2 [o2| | |]]; cbn [fst snd] in *; try (apply ok; cbn; auto; fail).
  apply (ok_bind expr_ok); [now apply exp_ok|cbn; auto|]. intros e c3 t3 E C3. apply ok; cbn; auto.
Qed.
Lemma fn_args_ok : forall l c, all (fun a => type_ok (fst a)) l -> ctx_ok c -> fin_ok (all (fun a => type_ok (fst a))) (fn_args_finish cx l c).
Proof.
  induction l as [|[t n] l IH]; intros c A H; cbn [fn_args_finish]; [apply ok; cbn; auto|]. destruct A as [A1 A2].
  apply (ok_bind type_ok); [now apply ty_ok|cbn; auto|]. intros t1 c1 o T C. pose proof (IH c1 A2 C) as J.
  destruct (fn_args_finish cx l c1) as [[l2 c2] r]. destruct J as (J1 & J2 & J3). apply ok; cbn; auto.
Qed.
Lemma fn_decl_ok d c : stmt_ok (SFnDecl d) -> ctx_ok c -> fin_ok (fun d => stmt_ok (SFnDecl d)) (fn_decl_finish cx d c).
Proof.
  intros [A1 A2] H. unfold fn_decl_finish. apply (ok_bind type_ok); [now apply ty_ok|cbn; auto|]. intros t c1 o T C. cbn zeta.
  destruct (match fd_name d with IArg i => _ | _ => _ end) as [c2|] eqn:Q; [|apply ok; cbn; auto].
  assert (C2 : ctx_ok c2). { destruct (fd_name d); try (injection Q as <-; exact C). eapply set_ok; eauto. }
  pose proof (fn_args_ok (fd_args d) c2 A2 C2) as J. destruct (fn_args_finish cx (fd_args d) c2) as [[l c3] r]. destruct J as (J1 & J2 & J3). apply ok; cbn; auto.
Qed.
Lemma stmts_ok l : Forall (fun s => forall c, stmt_ok s -> ctx_ok c -> fin_ok stmt_ok (stmt_finish cx s c)) l ->
  forall c, all stmt_ok l -> ctx_ok c -> fin_ok (all stmt_ok) (stmts_finish (stmt_finish cx) l c).
Proof.
  induction 1 as [|e l HE HF IH]; intros c A H; cbn [stmts_finish]; [apply ok; cbn; auto|]. destruct A as [A1 A2].
  apply (ok_bind stmt_ok); [now apply HE|intros x X; now split|]. intros x c1 t X C1. pose proof (IH c1 A2 C1) as J.
  destruct (stmts_finish (stmt_finish cx) l c1) as [[l2 c2] r]. destruct J as (J1 & J2 & J3). cbn. auto.
Qed.
Lemma statement_ok s : forall c, stmt_ok s -> ctx_ok c -> fin_ok stmt_ok (stmt_finish cx s c).
Proof.
  induction s as [e|a|d|d|l IHl|e a b IHa IHb|l e IHl] using stmt_ind'; intros c E H; cbn [stmt_finish].
  - apply (void_ok (fun a => stmt_ok (SAsm a))); [now apply asm_ok|auto].
  - apply (void_ok expr_ok); [now apply exp_ok|auto].
  - apply (void_ok (fun a => stmt_ok (SFnDecl a))); [now apply fn_decl_ok|auto].
  - apply (void_ok (fun a => stmt_ok (SVarDecl a))); [now apply var_decl_ok|auto].
  - apply (void_ok (all stmt_ok)); [now apply stmts_ok|auto].
  - destruct E as (E1 & E2 & E3). apply (ok_bind expr_ok); [now apply cond_ok|cbn; auto|]. intros x c1 t X C.
    apply (ok_bind (all stmt_ok)); [now apply stmts_ok|cbn; auto|]. intros y c2 t2 Y C2.
    apply (void_ok (all stmt_ok)); [now apply stmts_ok|cbn; auto].
  - destruct E as (E1 & E2). apply (ok_bind (all stmt_ok)); [now apply stmts_ok|cbn; auto|]. intros y c2 t2 Y C2.
    apply (void_ok expr_ok); [now apply cond_ok|cbn; auto].
Qed.
Definition mbody_ok (b : macro_body) : Prop := match b with MbExpr e => expr_ok e | MbStatement s => stmt_ok s end.
Lemma body_ok b c : mbody_ok b -> ctx_ok c -> fin_ok mbody_ok (body_finish cx b c).
Proof.
  destruct b as [s|e]; cbn [mbody_ok body_finish]; intros B H.
  - pose proof (statement_ok s c B H) as J. destruct (stmt_finish cx s c) as [[s1 c1] r]. exact J.
  - pose proof (exp_ok e c B H) as J. destruct (expr_finish cx e c) as [[s1 c1] r]. exact J.
Qed.
End Statements.
End F.
