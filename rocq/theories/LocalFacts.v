(** Generation looks up only the names of the macro. *)
From Verif Require Import Base Utf Lex LexFloat Token Ast ParseStmt Rust Finish Codegen SpecGen StrFacts FinishFacts SpecAccept SpecLocal.
From Coq Require Import String List SpecFloat Lia Bool.
Import ListNotations.
Local Open Scope string_scope.
Local Open Scope list_scope.

Section F.
Context {U : Unicode}.
Variable S : str -> Prop.
Variables cx cx' : cgctx.
Hypothesis AG : agree S cx cx'.
Hypothesis CL : closed S cx.
Hypothesis WC : S (st "wchar_t").
Hypothesis SZ : S (st "size_t").

Lemma a_target : cx_target cx' = cx_target cx. Proof. symmetry. apply AG. Qed.
Lemma a_ffi : cx_ffi cx' = cx_ffi cx. Proof. symmetry. apply AG. Qed.
Lemma a_trait : cx_trait cx' = cx_trait cx. Proof. symmetry. apply AG. Qed.
Lemma a_ty x : S x -> cx_ty cx' x = cx_ty cx x. Proof. intro X. symmetry. now apply AG. Qed.
Lemma a_enum x : S x -> cx_enum cx' x = cx_enum cx x. Proof. intro X. symmetry. now apply AG. Qed.
Lemma a_fn x : S x -> cx_fn cx' x = cx_fn cx x. Proof. intro X. symmetry. now apply AG. Qed.
Lemma a_field x y : S x -> S y -> cx_field cx' x y = cx_field cx x y. Proof. intros X Y. symmetry. now apply AG. Qed.
Lemma a_arg x y : S x -> S y -> cx_arg_ty cx' x y = cx_arg_ty cx x y. Proof. intros X Y. symmetry. now apply AG. Qed.

(** ** Outcomes *)

Definition arg_in (a : arg_ty) : Prop := match a with AKnown t => type_in S t | _ => True end.
Definition ctx_in (c : lctx) : Prop := Forall arg_in (lc_types c).
Definition oty_in (t : option ctype) : Prop := match t with Some t => type_in S t | None => True end.
Definition res_in (f : fres) : Prop := match f with FOk t => oty_in t | _ => True end.
Definition fin_in {X} (P : X -> Prop) (r : fin X) : Prop := let '(x, c, f) := r in P x /\ ctx_in c /\ res_in f.
Definition loc {X} (P : X -> Prop) (r r' : fin X) : Prop := r' = r /\ fin_in P r.

Lemma loc_bind {X Y} (P : X -> Prop) (Q : Y -> Prop) (r r' : fin X) w k k' : loc P r r' ->
  (forall x, P x -> Q (w x)) -> (forall x c t, P x -> ctx_in c -> oty_in t -> loc Q (k x c t) (k' x c t)) ->
  loc Q (fbind r w k) (fbind r' w k').
Proof.
  intros [-> H] W K. destruct r as [[x c] [t| | |]]; cbn in *; try (split; [reflexivity|]; cbn; intuition; fail). apply K; apply H.
Qed.
Lemma loc_ok {X} (P : X -> Prop) x c f : P x -> ctx_in c -> res_in f -> loc P (x, c, f) (x, c, f).
Proof. intros. split; [reflexivity|]. cbn. auto. Qed.

Lemma ctx_macro b c : ctx_in c -> ctx_in (set_macro b c).
Proof. exact (fun H => H). Qed.
Lemma set_in c i a c' : ctx_in c -> arg_in a -> set_arg_type c i a = Some c' -> ctx_in c'.
Proof.
  unfold set_arg_type, ctx_in. intros H A. destruct (set_nth (lc_types c) i a) as [l|] eqn:E; [|discriminate]. intros [= <-]. cbn.
  revert i l E H. generalize (lc_types c). induction l as [|y l IH]; intros [|i] l' E H; try discriminate; cbn in E.
  - inversion H; subst. injection E as <-. now constructor.
  - inversion H; subst. destruct (set_nth l i a) as [l1|] eqn:Q; [|discriminate]. injection E as <-. constructor; [assumption|]. eapply IH; eauto.
Qed.
Lemma get_in c i t : ctx_in c -> arg_type c i = Some (AKnown t) -> type_in S t.
Proof. unfold ctx_in, arg_type. intros H E. apply nth_error_In in E. rewrite Forall_forall in H. exact (H _ E). Qed.

Lemma all_in {A} (P : A -> Prop) l : all P l <-> Forall P l.
Proof. induction l; cbn; split; intro H; auto; [constructor; [apply H|apply IHl, H] | inversion H; split; auto; now apply IHl]. Qed.

(** ** Names and types *)

Lemma ident_in n c : ctx_in c -> ctx_in (fst (ident_finish n c)) /\ res_in (snd (ident_finish n c)).
Proof.
  intro H. destruct n as [i|x|l]; cbn; auto. revert c H. induction l as [|[i|x|v] l IH]; intros c H; cbn; auto.
  - destruct (set_arg_type c i AIdent) as [c'|] eqn:E; [|cbn; auto]. apply IH. eapply set_in; eauto. exact I.
  - destruct (0 <=? v)%Z; cbn; auto.
Qed.
Lemma ty_loc t c : type_in S t -> ctx_in c -> loc (type_in S) (ty_finish cx t c) (ty_finish cx' t c).
Proof.
  revert c. induction t as [b|n s|lc l|t IH|t IH q]; cbn [type_in ty_finish]; intros c T H; try (apply loc_ok; cbn; auto; fail).
  - destruct (ident_in n c H) as [I1 I2]. destruct (ident_finish n c) as [c1 [o| | |]]; cbn in *; try (apply loc_ok; cbn; auto; fail).
    destruct n as [i|x|l]; try (apply loc_ok; cbn; auto; fail). rewrite a_ty, a_ffi by exact T.
    destruct (cx_ty cx x) as [rt|] eqn:Q; [|apply loc_ok; cbn; auto].
    destruct (from_rust_ty (cx_ffi cx) rt) as [t| | |] eqn:R; apply loc_ok; cbn; auto. destruct CL as (C & _). exact (C _ _ T Q _ R).
  - destruct (IH c T H) as [-> J]. destruct (ty_finish cx t c) as [[t1 c1] f]. split; [reflexivity|]. exact J.
  - destruct (IH c T H) as [-> J]. destruct (ty_finish cx t c) as [[t1 c1] f]. split; [reflexivity|]. exact J.
Qed.
Lemma wchar_loc c k : ctx_in c -> (forall t, type_in S t -> res_in (k t)) -> wchar_finish cx' c k = wchar_finish cx c k /\ res_in (wchar_finish cx c k).
Proof.
  intros H K. unfold wchar_finish. destruct (ty_loc (TyIdent (IPlain (st "wchar_t")) false) c WC H) as [-> J].
  destruct (ty_finish cx _ c) as [[t c1] [o| | |]]; cbn in *; auto. split; [reflexivity|]. now apply K.
Qed.
Lemma lit_loc l c : ctx_in c -> lit_finish cx' l c = lit_finish cx l c /\ res_in (lit_finish cx l c).
Proof.
  intro H. destruct l as [[]|[]|[]|]; cbn [lit_finish char_finish string_finish]; try (split; [reflexivity|]; cbn; auto; fail); apply wchar_loc; auto.
Qed.

(** ** Variables and calls *)

Lemma from_loc s k : cx_ffi cx' = cx_ffi cx -> rust_in S cx s -> (forall t, type_in S t -> res_in (k t)) ->
  from_rust cx' s k = from_rust cx s k /\ res_in (from_rust cx s k).
Proof. intros E R K. unfold from_rust. rewrite E. split; [reflexivity|]. destruct (from_rust_ty (cx_ffi cx) s) as [t| | |] eqn:Q; cbn; auto. Qed.

Lemma var_loc n c : name_in S n -> ctx_in c -> var_finish cx' n c = var_finish cx n c /\ ctx_in (fst (var_finish cx n c)) /\ res_in (snd (var_finish cx n c)).
Proof.
  intros N H. unfold var_finish. destruct (ident_in n c H) as [I1 I2]. destruct (ident_finish n c) as [c1 [o| | |]]; cbn [fst snd] in *; auto.
  destruct n as [i|x|l]; cbn [fst snd]; [| |auto].
  - destruct (arg_type c1 i) as [[]|] eqn:A; cbn; auto. split; [reflexivity|]. split; [exact I1|]. eapply get_in; eauto.
  - destruct (str_eqb x _); [cbn; auto|]. destruct (str_eqb x _); [cbn; auto|]. destruct (rust_name limit_types x); [cbn; auto|].
    rewrite a_enum by exact N. destruct (cx_enum cx x) as [[s v]|] eqn:Q; [|cbn; auto]. cbn [fst snd].
    destruct CL as (_ & C & _). destruct (from_loc s (fun t => FOk (Some t)) a_ffi (C _ _ _ N Q)) as [-> J]; [auto|]. auto.

Qed.

Lemma infer_in e x c : ctx_in c -> (forall a, snd x = Some a -> arg_in a) -> res_in (fst x) -> ctx_in (fst (infer_arg e x c)) /\ res_in (snd (infer_arg e x c)).
Proof.
  intros H X R. destruct e as [[i|y|l]| | | | | | | | |]; cbn; auto. destruct (arg_type c i) as [[]|]; cbn; auto.
  destruct x as [f [a|]]; cbn in *; auto. destruct (set_arg_type c i a) as [c'|] eqn:E; cbn; auto. split; [|exact I]. eapply set_in; eauto.
Qed.
Lemma infers_loc : forall l tys c, all (rust_in S cx) tys -> ctx_in c ->
  infer_args cx' l tys c = infer_args cx l tys c /\ ctx_in (fst (infer_args cx l tys c)) /\ res_in (snd (infer_args cx l tys c)).
Proof.
  induction l as [|e l IH]; intros [|t tys] c T H; cbn [infer_args]; auto; try (cbn; auto; fail). destruct T as [T1 T2].
  assert (KE : known_arg cx' t = known_arg cx t) by (unfold known_arg; now rewrite a_ffi). rewrite KE.
  destruct (infer_in e (known_arg cx t) c H) as [I1 I2].
  - intros a. unfold known_arg. destruct (from_rust_ty (cx_ffi cx) t) as [t'| | |] eqn:Q; cbn; try discriminate. intros [= <-]. exact (T1 _ Q).
  - unfold known_arg. destruct (from_rust_ty (cx_ffi cx) t); cbn; auto.
  - destruct (infer_arg e (known_arg cx t) c) as [c1 [o| | |]]; cbn in *; auto.
Qed.
Lemma call_loc n l c : name_in S n -> ctx_in c -> call_types cx' n l c = call_types cx n l c /\ ctx_in (fst (call_types cx n l c)) /\ res_in (snd (call_types cx n l c)).
Proof.
  intros N H. unfold call_types. destruct n as [i|x|ps]; cbn [fst snd]; try (split; [reflexivity|]; cbn; auto; fail). rewrite a_fn by exact N.
  destruct (cx_fn cx x) as [[tys ret]|] eqn:Q.
  - destruct CL as (_ & _ & _ & C & _). destruct (C _ _ _ N Q) as [C1 C2]. destruct (Nat.eqb _ _); [|cbn; auto]. rewrite a_ffi.
    destruct (from_rust_ty (cx_ffi cx) ret) as [t| | |] eqn:R; try (cbn; auto; fail).
    destruct (infers_loc l tys c C1 H) as (-> & I1 & I2). destruct (infer_args cx l tys c) as [c1 [o| | |]]; cbn in *; auto.
  - destruct (str_eqb x _); [|cbn; auto]. destruct l as [|a [|b [|d l]]]; try (cbn; auto; fail). split; [reflexivity|].
    destruct (infer_in a (FOk None, Some ATy) (set_macro true c) H) as [I1 I2]; [intros y [= <-]; exact I|exact I|].
    destruct (infer_arg a _ (set_macro true c)) as [c1 [o| | |]]; cbn [fst snd] in *; auto.
    apply infer_in; [exact I1|intros y [= <-]; exact I|exact I].
Qed.
Lemma stringify_in a c : ctx_in c -> ctx_in (fst (stringify_finish a c)) /\ res_in (snd (stringify_finish a c)).
Proof.
  intro H. destruct a as [[i|x|l]| | | | | | | | |]; cbn; auto.
  - destruct (arg_type c i) as [[]|]; cbn; auto; destruct (set_arg_type c i AExpr) as [c'|] eqn:E; cbn; auto; (split; [eapply set_in; eauto; exact I|exact I]).
  - destruct (str_eqb x _ || str_eqb x _); cbn; auto.
Qed.

(** ** Unary and binary expressions *)

Lemma unary_in op c t : oty_in t -> res_in (unary_type op c t).
Proof. intro T. destruct op; cbn; auto; [destruct (lc_var c); cbn; auto; destruct t as [[]|]; cbn; auto | destruct t; cbn; auto]. Qed.
Lemma unary_fold_in op e t : expr_in S e -> oty_in t -> expr_in S (fst (unary_fold op e t)) /\ res_in (snd (unary_fold op e t)).
Proof.
  intros E T. unfold unary_fold.
  destruct op; try (cbn; auto; fail); destruct e as [| | |[|s|fl|[v [su|]]]| | | | | |]; try (cbn; auto; fail);
    destruct (oty_eqb t (ty_b BBool)); cbn [fst snd expr_in]; (split; [|exact T]); try exact E; cbn; (split; [exact E|]); destruct t as [[[]| | | |]|]; exact I.
Qed.
Lemma join_in a b : oty_in a -> oty_in b -> oty_in (join_ty a b).
Proof. intros A B. unfold join_ty. destruct (oty_eqb a b); [exact A|]. destruct a, b; cbn; auto. Qed.

Lemma max_in e t : max_ty_cast e = Some t -> type_in S t.
Proof. destruct e as [[]| | | | | | | | |]; try discriminate. cbn [max_ty_cast]. destruct (rust_name _ id); [|discriminate]. intros [= <-]. exact I. Qed.
Definition member_ctx op (rhs : expr) (c : lctx) := match op, rhs with OMember, EVar (IArg i) => set_arg_type c i AIdent | _, _ => Some c end.
Definition assign_ctx op (lhs : expr) (c1 : lctx) := match is_assignment op, lhs with true, EVar (IArg _) => set_macro true c1 | _, _ => c1 end.
Definition retyped (lhs : expr) op (rhs : expr) (lt rt : option ctype) : expr * expr * option ctype * option ctype :=
      match lhs, rhs with
      | ELit (LInt (mk_int v None)), ELit (LFloat _) =>
        (ELit (LFloat (FFloat (i128_to_f32 v))), rhs, ty_b BFloat, rt)
      | ELit (LFloat _), ELit (LInt (mk_int v None)) =>
        (lhs, ELit (LFloat (FFloat (i128_to_f32 v))), lt, ty_b BFloat)
      | _, ELit (LInt _) =>
        if mul_or_add op then
          match max_ty_cast lhs with Some t => (ECast t lhs, rhs, Some t, rt) | None => (lhs, rhs, lt, rt) end
        else (lhs, rhs, lt, rt)
      | ELit (LInt _), _ =>
        if mul_or_add op then
          match max_ty_cast rhs with Some t => (lhs, ECast t rhs, lt, Some t) | None => (lhs, rhs, lt, rt) end
        else (lhs, rhs, lt, rt)
      | _, _ => (lhs, rhs, lt, rt)
      end.
Definition field_type (cx0 : cgctx) (lt' : option ctype) (rhs' : expr) : fres :=
  match lt', rhs' with
  | Some (TyIdent (IPlain tn) _), EVar (IPlain fn) =>
    match cx_field cx0 tn fn with Some t => from_rust cx0 t (fun t' => FOk (Some t')) | None => FOk None end
  | _, _ => FOk None
  end.
Lemma types_eq cx0 l op r lt rt c : binary_types cx0 l op r lt rt c =
  match member_ctx op r c with
  | None => ((l, r), c, FPanic)
  | Some c1 => let '(l', r', lt', rt') := retyped l op r lt rt in
    ((l', r'), assign_ctx op l c1, match op with OMember => field_type cx0 lt' r' | _ => FOk (join_ty lt' rt') end)
  end.
Proof. reflexivity. Qed.
Lemma types_loc l op r lt rt c : expr_in S l -> expr_in S r -> oty_in lt -> oty_in rt -> ctx_in c ->
  loc (fun x => expr_in S (fst x) /\ expr_in S (snd x)) (binary_types cx l op r lt rt c) (binary_types cx' l op r lt rt c).
Proof.
  intros L R TL TR H. rewrite !types_eq.
  destruct (member_ctx op r c) as [c0|] eqn:C0; [|apply loc_ok; cbn; auto].
  assert (C1 : ctx_in c0).
  { unfold member_ctx in C0. destruct op; try (injection C0 as <-; exact H). destruct r as [[i|x|ps]| | | | | | | | |]; try (injection C0 as <-; exact H). eapply set_in; eauto. exact I. }
  assert (C2 : ctx_in (assign_ctx op l c0)). { unfold assign_ctx. destruct (is_assignment op); [|exact C1]. destruct l as [[]| | | | | | | | |]; exact C1. }
  assert (Q : let '(l', r', lt', rt') := retyped l op r lt rt in expr_in S l' /\ expr_in S r' /\ oty_in lt' /\ oty_in rt').
  { unfold retyped. destruct l as [| | |[|s|fl|[v [su|]]]| | | | | |]; destruct r as [| | |[|s2|fl2|[v2 [su2|]]]| | | | | |]; try tauto; try (cbn; tauto);
    try (destruct (mul_or_add op); [|tauto]; destruct (max_ty_cast _) eqn:X; [|tauto]; apply max_in in X; cbn [expr_in oty_in] in *; tauto). }
  destruct (retyped l op r lt rt) as [[[l' r'] lt'] rt']. destruct Q as (L' & R' & TL' & TR').
  assert (J : res_in (FOk (join_ty lt' rt'))) by (apply join_in; assumption).
  destruct op; try (apply loc_ok; [split; assumption|exact C2|exact J]).
  unfold field_type.
  destruct lt' as [[|[|tn|] ?| | |]|]; try (apply loc_ok; cbn; auto; fail). destruct r' as [[|fn|]| | | | | | | | |]; try (apply loc_ok; cbn; auto; fail).
  rewrite a_field by assumption. destruct (cx_field cx tn fn) as [s|] eqn:Q; [|apply loc_ok; cbn; auto].
  destruct CL as (_ & _ & C & _). destruct (from_loc s (fun t => FOk (Some t)) a_ffi (C _ _ _ TL' R' Q)) as [-> JJ]; [auto|]. apply loc_ok; [split; assumption|exact C2|exact JJ].
Qed.
Lemma fold_loc l op r t c : expr_in S l -> expr_in S r -> oty_in t -> ctx_in c ->
  binary_fold cx' l op r t c = binary_fold cx l op r t c /\ expr_in S (fst (binary_fold cx l op r t c)) /\ res_in (snd (binary_fold cx l op r t c)).
Proof.
  intros L R T H. unfold binary_fold.
  assert (O : expr_in S (EBinary l op r) /\ res_in (FOk (if is_comparison op then ty_b BBool else t))) by (split; [split; assumption|]; destruct (is_comparison op); [exact I|exact T]).
  destruct l as [| | |[|s|fl|it]| | | | | |]; try (split; [reflexivity|exact O]); destruct r as [| | |[|s2|fl2|it2]| | | | | |]; try (split; [reflexivity|exact O]).
  - destruct (float_op op) as [g|]; [|split; [reflexivity|exact O]]. destruct (lit_loc (LFloat (float_arith g fl fl2)) c H) as [-> J]. cbn [fst snd]. auto.
  - destruct (int_folds op); [|split; [reflexivity|exact O]]. destruct (int_op op _ _); (split; [reflexivity|]); cbn; auto.
Qed.
Lemma deref_in t e b : type_in S t -> expr_in S e -> cast_of_deref t e = Some b -> expr_in S b.
Proof.
  unfold cast_of_deref. intros T E. destruct e as [| |[|n [|]| | |] e0| | | | | | |]; try discriminate. destruct e0 as [| | | | | | |[] e0| |]; try discriminate.
  destruct e0 as [| |t3 e3| | | | | | |]; try discriminate. destruct (ctype_eqb t t3); [|discriminate]. intros [= <-]. cbn in *. tauto.
Qed.
Lemma as_binary_loc t e : type_in S t -> expr_in S e -> cast_as_binary cx' t e = cast_as_binary cx t e /\ forall b, cast_as_binary cx t e = Some b -> expr_in S b.
Proof.
  unfold cast_as_binary. intros T E. destruct e as [| | | | | | |op e0| |]; try (split; [reflexivity|discriminate]). destruct t as [|n [|]| | |]; try (split; [reflexivity|discriminate]).
  destruct n as [i|id|ps]; [|rewrite a_ty by exact T|].
  2: destruct (cx_ty cx id); [split; [reflexivity|discriminate]|].
  all: split; [reflexivity|]; intro b; destruct op; try discriminate; intros [= <-]; cbn in *; tauto.
Qed.

(** ** Expressions *)

Lemma list_loc (f f' : expr -> lctx -> fin expr) l : Forall (fun e => forall c, expr_in S e -> ctx_in c -> loc (expr_in S) (f e c) (f' e c)) l ->
  forall c, all (expr_in S) l -> ctx_in c -> loc (all (expr_in S)) (list_finish f l c) (list_finish f' l c).
Proof.
  induction 1 as [|e l HE HF IH]; intros c A H; cbn [list_finish]; [apply loc_ok; cbn; auto|]. destruct A as [A1 A2].
  apply (loc_bind (expr_in S)); [now apply HE|intros x X; now split|]. intros x c1 t X C1 T. destruct (IH c1 A2 C1) as [-> J].
  destruct (list_finish f l c1) as [[l2 c2] r]. split; [reflexivity|]. destruct J as (J1 & J2 & J3). cbn. auto.
Qed.
Definition quad_in (r : expr * list expr * lctx * fres) : Prop := let '(e, l, c, f) := r in expr_in S e /\ all (expr_in S) l /\ ctx_in c /\ res_in f.
Lemma all_app (P : expr -> Prop) a b : all P (a ++ b) <-> all P a /\ all P b.
Proof. induction a; cbn; [tauto|]. rewrite IHa. tauto. Qed.
Lemma push_in acc cur : all (expr_in S) acc -> all (expr_in S) (push_string acc cur).
Proof. intro A. destruct cur; [|exact A]. cbn. apply all_app. cbn. auto. Qed.
Lemma concat_loc (f f' : expr -> lctx -> fin expr) l : Forall (fun e => forall c, expr_in S e -> ctx_in c -> loc (expr_in S) (f e c) (f' e c)) l ->
  forall done acc cur c, all (expr_in S) l -> all (expr_in S) done -> all (expr_in S) acc -> ctx_in c ->
  concat_finish f' done l acc cur c = concat_finish f done l acc cur c /\ quad_in (concat_finish f done l acc cur c).
Proof.
  induction 1 as [|e l HE HF IH]; intros done acc cur c A D AC H; cbn [concat_finish].
  - split; [reflexivity|]. cbn. repeat split; auto. now apply push_in.
  - destruct A as [A1 A2]. destruct (HE c A1 H) as [-> J]. destruct (f e c) as [[e1 c1] r]. destruct J as (J1 & J2 & J3).
    assert (SELF : expr_in S (EConcat (done ++ e1 :: l))) by (cbn; apply all_app; cbn; auto).
    assert (NIL : forall r, res_in r -> quad_in (EConcat (done ++ e1 :: l), [], c1, r)) by (intros r0 R0; repeat split; auto).
    assert (D' : all (expr_in S) (done ++ [e1])) by (apply all_app; cbn; auto).
    assert (GO : forall acc' cur', all (expr_in S) acc' -> concat_finish f' (done ++ [e1]) l acc' cur' c1 = concat_finish f (done ++ [e1]) l acc' cur' c1 /\ quad_in (concat_finish f (done ++ [e1]) l acc' cur' c1)).
    { intros acc' cur' AA. now apply IH. }
    assert (PV : all (expr_in S) (push_string acc cur ++ [e1])) by (apply all_app; cbn; auto using push_in).
    destruct r as [t| | |]; try (split; [reflexivity|apply NIL; exact I]).
    destruct e1 as [[]| | |[]| | | | | |]; try (apply GO, PV).
    + destruct (str_eqb id _); [apply GO, PV|]. split; [reflexivity|apply NIL; exact I].
    + destruct (lit_string_as_bytes _); [apply GO, AC|]. split; [reflexivity|apply NIL; exact I].
Qed.
Lemma condition_loc (f f' : expr -> lctx -> fin expr) e c : loc (expr_in S) (f e c) (f' e c) -> loc (expr_in S) (condition_finish f e c) (condition_finish f' e c).
Proof.
  intro L. unfold condition_finish. apply (loc_bind (expr_in S)); [exact L|auto|]. intros x c1 t X C T. destruct (oty_eqb t _); apply loc_ok; cbn; auto.
Qed.

Lemma finish_loc n : forall e c, expr_in S e -> ctx_in c -> loc (expr_in S) (finish cx n e c) (finish cx' n e c).
Proof.
  induction n as [n IHn] using lt_wf_ind.
  assert (AGN : forall e c, expr_in S e -> ctx_in c -> loc (expr_in S) (again_of cx n e c) (again_of cx' n e c)).
  { intros e c E C. destruct n as [|n']; cbn [again_of]; [apply loc_ok; cbn; auto | apply IHn; auto]. }
  clear IHn.
  induction e as [v|v l IHl|ty e IHe|l|a IHa|l IHl|ty|op e IHe|a op b IHa IHb|a b d IHa IHb IHd] using expr_ind'; intros c E H;
    rewrite !finish_eq; cbn [finish_step]; cbn [expr_in] in E.
  - destruct (var_loc v c E H) as (-> & V1 & V2). destruct (var_finish cx v c). apply loc_ok; auto.
  - destruct (lc_var c); [apply loc_ok; cbn; auto|]. destruct E as [E1 E2]. destruct (ident_in v c H) as [I1 I2]. destruct (ident_finish v c) as [c1 [o| | |]]; cbn [fst snd] in *; try (apply loc_ok; cbn; auto; fail).
    apply (loc_bind (all (expr_in S))); [now apply list_loc|cbn; auto|]. intros l1 c2 t L C T. destruct (call_loc v l1 c2 E1 C) as (-> & V1 & V2). destruct (call_types cx v l1 c2). apply loc_ok; cbn; auto.
  - destruct E as [E1 E2]. destruct (ty_loc ty c E1 H) as [-> J]. destruct (ty_finish cx ty c) as [[t1 c1] r1]. destruct J as (T1 & C1 & R1).
    assert (J : loc (expr_in S) (match r1 with FOk _ => finish cx n e c1 | _ => (e, c1, r1) end) (match r1 with FOk _ => finish cx' n e c1 | _ => (e, c1, r1) end)).
    { destruct r1; try (apply loc_ok; auto; fail). now apply IHe. }
    destruct J as [-> J]. destruct (match r1 with FOk _ => finish cx n e c1 | _ => (e, c1, r1) end) as [[e2 c2] r2]. destruct J as (X2 & C2 & R2).
    assert (CE : expr_in S (ECast t1 e2)) by (split; assumption).
    destruct r2 as [o2|[x| | |x|x]| |]; try (apply loc_ok; auto; fail).
    + destruct (as_binary_loc t1 e2 T1 X2) as [-> B]. destruct (cast_as_binary cx t1 e2) as [b|]; [apply AGN; auto|].
      destruct (redundant_cast t1 e2); apply loc_ok; cbn; auto.
    + destruct (cast_of_deref t1 e2) as [b|] eqn:B; [|apply loc_ok; auto]. apply AGN; [|exact C2]. exact (deref_in _ _ _ T1 X2 B).
  - destruct l as [x|s|fl|it].
    + destruct (lit_loc (LChar x) c H) as [Q J]. cbn [lit_finish] in Q, J. rewrite Q. destruct (char_finish cx x c) as [[t|]| | |]; apply loc_ok; cbn; auto.
    + destruct (lit_loc (LString s) c H) as [-> J]. apply loc_ok; auto.
    + destruct (lit_loc (LFloat fl) c H) as [-> J]. apply loc_ok; auto.
    + destruct (lit_loc (LInt it) c H) as [-> J]. apply loc_ok; auto.
  - destruct (stringify_in a c H) as [V1 V2]. destruct (stringify_finish a c). apply loc_ok; auto.
  - assert (L : Forall (fun e => forall c, expr_in S e -> ctx_in c -> loc (expr_in S) (finish cx n e c) (finish cx' n e c)) l) by exact IHl.
    destruct (concat_loc _ _ l L [] [] None c E I I H) as [-> Q]. destruct (concat_finish (finish cx n) [] l [] None c) as [[[self names] c1] r]. destruct Q as (Q1 & Q2 & Q3 & Q4).
    destruct names as [|x1 [|x2 names]], r as [o| | |]; try (apply loc_ok; cbn; auto; fail). apply AGN; [apply Q2|exact Q3].
  - apply (loc_bind (type_in S)); [now apply ty_loc|auto|]. intros x c1 t X C T. apply loc_ok; cbn; auto.
  - apply (loc_bind (expr_in S)); [now apply IHe|auto|]. intros x c1 t X C T. pose proof (unary_in op c1 t T) as UT. destruct (unary_type op c1 t) as [t'| | |]; try (apply loc_ok; cbn; auto; fail).
    destruct (unary_fold_in op x t' X UT) as [F1 F2]. destruct (unary_fold op x t'). apply loc_ok; auto.
  - destruct E as [E1 E2]. apply (loc_bind (expr_in S)); [now apply IHa|cbn; auto|]. intros x c1 t X C T. apply (loc_bind (expr_in S)); [now apply IHb|cbn; auto|]. intros y c2 t2 Y C2 T2.
    apply (loc_bind (fun x => expr_in S (fst x) /\ expr_in S (snd x))); [now apply types_loc|intros z Z; exact Z|]. intros z c3 t3 [Z1 Z2] C3 T3.
    destruct (fold_loc (fst z) op (snd z) t3 c3 Z1 Z2 T3 C3) as (-> & F1 & F2). destruct (binary_fold cx (fst z) op (snd z) t3 c3). apply loc_ok; auto.
  - destruct E as (E1 & E2 & E3). apply (loc_bind (expr_in S)); [now apply condition_loc, IHa|cbn; auto|]. intros x c1 t X C T. apply (loc_bind (expr_in S)); [now apply IHb|cbn; auto|]. intros y c2 t2 Y C2 T2.
    apply (loc_bind (expr_in S)); [now apply IHd|cbn; auto|]. intros z c3 t3 Z C3 T3. apply loc_ok; cbn; auto. now apply join_in.
Qed.
Lemma expr_loc e c : expr_in S e -> ctx_in c -> loc (expr_in S) (expr_finish cx e c) (expr_finish cx' e c).
Proof. apply finish_loc. Qed.

(** ** Statements *)

Lemma void_loc {X Y} (P : X -> Prop) (Q : Y -> Prop) (r r' : fin X) (w : X -> Y) : loc P r r' -> (forall x, P x -> Q (w x)) ->
  loc Q (fbind r w (fun x c _ => (w x, c, FOk (ty_b BVoid)))) (fbind r' w (fun x c _ => (w x, c, FOk (ty_b BVoid)))).
Proof. intros L W. apply (loc_bind P); [exact L|exact W|]. intros x c t HX C _. apply loc_ok; cbn; auto. Qed.
Lemma exprs_loc l c : all (expr_in S) l -> ctx_in c -> loc (all (expr_in S)) (list_finish (expr_finish cx) l c) (list_finish (expr_finish cx') l c).
Proof. apply list_loc. apply Forall_forall. intros e _ c1. apply expr_loc. Qed.
Lemma put_in {A B} (f : A * expr -> B) (g : B -> expr) : (forall x, g (f x) = snd x) -> forall (l : list A) es, all (expr_in S) es -> all (fun x => expr_in S (g x)) (map f (combine l es)).
Proof. intros E l. induction l as [|a l IH]; intros [|e es] H; cbn in *; auto. split; [rewrite E; apply H|apply IH, H]. Qed.
Lemma all_snd {A} (l : list (A * expr)) : all (fun x => expr_in S (snd x)) l -> all (expr_in S) (map snd l).
Proof. induction l; cbn; tauto. Qed.
Lemma asm_loc a c : stmt_in S (SAsm a) -> ctx_in c -> loc (fun a => stmt_in S (SAsm a)) (asm_finish cx a c) (asm_finish cx' a c).
Proof.
  intros [A1 A2] H. unfold asm_finish.
  assert (PO : forall l, all (expr_in S) l -> all (fun x => expr_in S (snd x)) (map (fun '((d, r, _), e) => (d, r, e)) (combine (asm_outputs a) l))).
  { intros l L. apply (put_in _ snd); [|exact L]. now intros [[[] ?] ?]. }
  assert (PI : forall l, all (expr_in S) l -> all (fun x => expr_in S (snd x)) (map (fun '((r, _), e) => (r, e)) (combine (asm_inputs a) l))).
  { intros l L. apply (put_in _ snd); [|exact L]. now intros [[] ?]. }
  apply (loc_bind (all (expr_in S))); [apply exprs_loc; auto using all_snd|intros l L; cbn; auto|]. intros lo c1 t L C T.
  apply (loc_bind (all (expr_in S))); [apply exprs_loc; auto using all_snd|intros l L1; cbn; auto|]. intros li c2 t2 L2 C2 T2.
  apply loc_ok; cbn; auto. destruct (asm_global a); exact C2.
Qed.
Lemma var_decl_loc d c : stmt_in S (SVarDecl d) -> ctx_in c -> loc (fun d => stmt_in S (SVarDecl d)) (var_decl_finish cx d c) (var_decl_finish cx' d c).
Proof.
  intros [A1 A2] H. unfold var_decl_finish. apply (loc_bind (type_in S)); [now apply ty_loc|cbn; auto|]. intros t c1 o T C O.
  destruct (ident_in (vd_name d) c1 C) as [I1 I2]. destruct (ident_finish (vd_name d) c1) as [c2 [o2| | |]]; cbn [fst snd] in *; try (apply loc_ok; cbn; auto; fail).
  apply (loc_bind (expr_in S)); [now apply expr_loc|cbn; auto|]. intros e c3 t3 E C3 T3. apply loc_ok; cbn; auto.
Qed.
Lemma fn_args_loc : forall l c, all (fun a => type_in S (fst a)) l -> ctx_in c -> loc (all (fun a => type_in S (fst a))) (fn_args_finish cx l c) (fn_args_finish cx' l c).
Proof.
  induction l as [|[t n] l IH]; intros c A H; cbn [fn_args_finish]; [apply loc_ok; cbn; auto|]. destruct A as [A1 A2].
  apply (loc_bind (type_in S)); [now apply ty_loc|cbn; auto|]. intros t1 c1 o T C O. destruct (IH c1 A2 C) as [-> J].
  destruct (fn_args_finish cx l c1) as [[l2 c2] r]. destruct J as (J1 & J2 & J3). apply loc_ok; cbn; auto.
Qed.
Lemma fn_decl_loc d c : stmt_in S (SFnDecl d) -> ctx_in c -> loc (fun d => stmt_in S (SFnDecl d)) (fn_decl_finish cx d c) (fn_decl_finish cx' d c).
Proof.
  intros [A1 A2] H. unfold fn_decl_finish. apply (loc_bind (type_in S)); [now apply ty_loc|cbn; auto|]. intros t c1 o T C O. cbn zeta.
  destruct (match fd_name d with IArg i => _ | _ => _ end) as [c2|] eqn:Q; [|apply loc_ok; cbn; auto].
  assert (C2 : ctx_in c2). { destruct (fd_name d); try (injection Q as <-; exact C). eapply set_in; eauto. exact I. }
  destruct (fn_args_loc (fd_args d) c2 A2 C2) as [-> J]. destruct (fn_args_finish cx (fd_args d) c2) as [[l c3] r]. destruct J as (J1 & J2 & J3). apply loc_ok; cbn; auto.
Qed.
Lemma stmts_loc l : Forall (fun s => forall c, stmt_in S s -> ctx_in c -> loc (stmt_in S) (stmt_finish cx s c) (stmt_finish cx' s c)) l ->
  forall c, all (stmt_in S) l -> ctx_in c -> loc (all (stmt_in S)) (stmts_finish (stmt_finish cx) l c) (stmts_finish (stmt_finish cx') l c).
Proof.
  induction 1 as [|e l HE HF IH]; intros c A H; cbn [stmts_finish]; [apply loc_ok; cbn; auto|]. destruct A as [A1 A2].
  apply (loc_bind (stmt_in S)); [now apply HE|intros x X; now split|]. intros x c1 t X C1 T. destruct (IH c1 A2 C1) as [-> J].
  destruct (stmts_finish (stmt_finish cx) l c1) as [[l2 c2] r]. split; [reflexivity|]. destruct J as (J1 & J2 & J3). cbn. auto.
Qed.
Lemma stmt_loc s : forall c, stmt_in S s -> ctx_in c -> loc (stmt_in S) (stmt_finish cx s c) (stmt_finish cx' s c).
Proof.
  induction s as [e|a|d|d|l IHl|e a b IHa IHb|l e IHl] using stmt_ind'; intros c E H; cbn [stmt_finish].
  - apply (void_loc (fun a => stmt_in S (SAsm a))); [now apply asm_loc|auto].
  - apply (void_loc (expr_in S)); [now apply expr_loc|auto].
  - apply (void_loc (fun a => stmt_in S (SFnDecl a))); [now apply fn_decl_loc|auto].
  - apply (void_loc (fun a => stmt_in S (SVarDecl a))); [now apply var_decl_loc|auto].
  - apply (void_loc (all (stmt_in S))); [now apply stmts_loc|auto].
  - destruct E as (E1 & E2 & E3). apply (loc_bind (expr_in S)); [now apply condition_loc, expr_loc|cbn; auto|]. intros x c1 t X C T.
    apply (loc_bind (all (stmt_in S))); [now apply stmts_loc|cbn; auto|]. intros y c2 t2 Y C2 T2.
    apply (void_loc (all (stmt_in S))); [now apply stmts_loc|cbn; auto].
  - destruct E as (E1 & E2). apply (loc_bind (all (stmt_in S))); [now apply stmts_loc|cbn; auto|]. intros y c2 t2 Y C2 T2.
    apply (void_loc (expr_in S)); [now apply condition_loc, expr_loc|cbn; auto].
Qed.
Lemma body_loc b c : body_in S b -> ctx_in c -> loc (body_in S) (body_finish cx b c) (body_finish cx' b c).
Proof.
  destruct b as [s|e]; cbn [body_in body_finish]; intros B H.
  - destruct (stmt_loc s c B H) as [-> J]. destruct (stmt_finish cx s c) as [[s1 c1] r]. split; [reflexivity|exact J].
  - destruct (expr_loc e c B H) as [-> J]. destruct (expr_finish cx e c) as [[s1 c1] r]. split; [reflexivity|exact J].
Qed.

(** ** Code *)

Lemma ident_same c n : ident_toks cx' c n = ident_toks cx c n.
Proof. destruct n; cbn [ident_toks]; try reflexivity. now rewrite a_trait. Qed.
Lemma builtin_same b : builtin_toks cx' b = builtin_toks cx b.
Proof. unfold builtin_toks. f_equal. destruct b; cbn [builtin_to_rust]; unfold ffi_ty; rewrite ?a_ffi; try reflexivity. rewrite a_ty, a_target by exact SZ. reflexivity. Qed.
Lemma ty_same c t : ty_toks cx' c t = ty_toks cx c t.
Proof.
  induction t as [b|n s|lc l|t IH|t IH q]; cbn [ty_toks].
  - now rewrite builtin_same.
  - apply ident_same.
  - reflexivity.
  - now rewrite IH.
  - destruct t; try exact IH. cbn [ty_toks] in IH. destruct (q_is_const q); [|exact IH]. destruct (ty_toks cx' c t), (ty_toks cx c t); cbn in IH; congruence.
Qed.
Lemma string_same c x b : string_toks cx' c x b = string_toks cx c x b.
Proof. destruct x; cbn [string_toks]; rewrite ?a_trait, ?a_ffi; try reflexivity. rewrite a_ty by exact WC. destruct (cx_ty cx _) as [t|]; [|reflexivity]. destruct (from_rust_ty (cx_ffi cx) t); try reflexivity. now rewrite ty_same. Qed.
Lemma lit_same c l : lit_toks cx' c l = lit_toks cx c l.
Proof. destruct l as [| |f|]; cbn [lit_toks]; try reflexivity; [now rewrite string_same|]. destruct f; cbn [float_toks]; unfold float_toks_w; now rewrite a_trait. Qed.
Lemma char_ptr_same c x : c_char_ptr cx' c x = c_char_ptr cx c x.
Proof. unfold c_char_ptr. now rewrite ?a_ffi, ?a_trait. Qed.
Lemma concat_same x : concat_toks cx' x = concat_toks cx x.
Proof. unfold concat_toks. now rewrite a_trait. Qed.
Lemma file_same : file_toks cx' = file_toks cx.
Proof. unfold file_toks. now rewrite a_trait. Qed.
Lemma line_same : line_toks cx' = line_toks cx.
Proof. unfold line_toks. now rewrite a_trait. Qed.
Lemma var_same c n : name_in S n -> var_toks cx' c n = var_toks cx c n.
Proof. intro N. destruct n as [i|x|l]; cbn [var_toks]; rewrite ?ident_same; try reflexivity. rewrite char_ptr_same, concat_same, file_same, line_same, a_ffi, a_enum by exact N. reflexivity. Qed.
Lemma inner_same c a : stringify_inner cx' c a = stringify_inner cx c a.
Proof. unfold stringify_inner. now rewrite a_trait, line_same, file_same. Qed.
Lemma stringify_same c a : stringify_toks cx' c a = stringify_toks cx c a.
Proof. unfold stringify_toks. rewrite inner_same. destruct (stringify_inner cx c a); [|reflexivity]. cbn. now rewrite char_ptr_same, concat_same. Qed.
Lemma exprs_same (f f' : expr -> option (list rtok)) l : Forall (fun e => f' e = f e) l -> exprs_toks f' l = exprs_toks f l.
Proof. induction 1 as [|e l E F IH]; cbn; [reflexivity|]. now rewrite E, IH. Qed.
Lemma read_same p : read_volatile cx' p = read_volatile cx p.
Proof. unfold read_volatile. now rewrite a_trait. Qed.
Lemma write_same v p w : write_volatile cx' v p w = write_volatile cx v p w.
Proof. unfold write_volatile. now rewrite a_trait. Qed.
Lemma step_same a b v x p : step_toks cx' a b v x p = step_toks cx a b v x p.
Proof. unfold step_toks. now rewrite !read_same, !write_same. Qed.

Lemma etoks_same c e : expr_in S e -> etoks cx' c e = etoks cx c e /\
  match e with EUnary _ a => etoks cx' c a = etoks cx c a | EBinary a _ b => etoks cx' c a = etoks cx c a /\ etoks cx' c b = etoks cx c b | _ => True end.
Proof.
  induction e as [v|v l IHl|ty e IHe|l|a IHa|l IHl|ty|op e IHe|a op b IHa IHb|a b d IHa IHb IHd] using expr_ind'; cbn [expr_in]; intro E.
  - split; [|exact I]. cbn [etoks]. now apply var_same.
  - split; [|exact I]. cbn [etoks]. destruct E as [E1 E2]. rewrite a_trait, ident_same.
    replace (exprs_toks (etoks cx' c) l) with (exprs_toks (etoks cx c) l); [reflexivity|]. symmetry. apply exprs_same.
    apply all_in in E2. rewrite Forall_forall in *. intros e IN. apply IHl; auto.
  - split; [|exact I]. cbn [etoks]. destruct E as [E1 E2]. destruct (IHe E2) as [-> _]. now rewrite a_trait, ty_same.
  - split; [|exact I]. apply lit_same.
  - split; [|exact I]. apply stringify_same.
  - split; [|exact I]. cbn [etoks].
    match goal with |- ?x = ?y => match x with context[exprs_toks ?f l] => match y with context[exprs_toks ?g l] => assert (X : exprs_toks f l = exprs_toks g l) end end end.
    { apply exprs_same. apply all_in in E. rewrite Forall_forall in *. intros e IN. destruct (IHl e IN (E e IN)) as [Q _].
      destruct e as [[]| | | | | | | | |]; try exact Q; [now rewrite file_same, Q|apply inner_same]. }
    rewrite X. clear X. match goal with |- _ = ?y => match y with context[exprs_toks ?g l] => destruct (exprs_toks g l); [|reflexivity] end end. cbn. now rewrite char_ptr_same, concat_same.
  - split; [|exact I]. cbn [etoks]. now rewrite ty_same, a_trait, builtin_same.
  - destruct (IHe E) as [Q B]. split; [|exact Q]. cbn [etoks]. rewrite Q, a_trait. destruct (etoks cx c e) as [raw|]; [|reflexivity]. clear IHe Q. cbn.
    assert (ST : forall a b v x o, match o with Some p => Some (step_toks cx' a b v x p) | None => None end = match o with Some p => Some (step_toks cx a b v x p) | None => None end).
    { intros a b v x [p|]; [|reflexivity]. now rewrite step_same. }
    rewrite read_same. destruct op, e; try rewrite B; try match type of B with _ /\ _ => destruct B as [B1 B2]; rewrite ?B1, ?B2 end; try reflexivity; cbn; rewrite ?step_same; try reflexivity; try apply ST.
  - destruct E as [E1 E2]. destruct (IHa E1) as [Q1 B1], (IHb E2) as [Q2 B2]. split; [|auto]. cbn [etoks]. rewrite Q1, Q2.
    destruct (etoks cx c a); [|reflexivity]. destruct (etoks cx c b); [|reflexivity]. cbn. destruct (block_assign op); [|reflexivity].
    assert (W : forall (v : bool) p x w, (if v then write_volatile cx' match op with OAssign => x | _ => read_volatile cx' p ++ rp "+" :: x end p [ri "value"] else w) =
      (if v then write_volatile cx match op with OAssign => x | _ => read_volatile cx p ++ rp "+" :: x end p [ri "value"] else w)) by (intros; now rewrite write_same, read_same).
    destruct a; try (cbn [obind]; now rewrite W). rewrite B1. destruct (etoks cx c a); [|reflexivity]. cbn [obind]. now rewrite W.
  - destruct E as (E1 & E2 & E3). split; [|exact I]. cbn [etoks]. destruct (IHa E1) as [-> _], (IHb E2) as [-> _], (IHd E3) as [-> _]. reflexivity.
Qed.
Lemma etoks_eq c e : expr_in S e -> etoks cx' c e = etoks cx c e.
Proof. intro E. apply (etoks_same c e E). Qed.
Lemma set_nth_all {A} (P : A -> Prop) y : P y -> forall l i l', all P l -> set_nth l i y = Some l' -> all P l'.
Proof.
  intro Y. induction l as [|x l IH]; intros [|i] l' H E; try discriminate; cbn in E.
  - injection E as <-. split; [exact Y|apply H].
  - destruct (set_nth l i y) eqn:Q; [|discriminate]. injection E as <-. split; [apply H|]. eapply IH; eauto. apply H.
Qed.
Lemma remove_all {A} (P : A -> Prop) : forall l i l', all P l -> remove_nth l i = Some l' -> all P l'.
Proof.
  induction l as [|x l IH]; intros [|i] l' H E; try discriminate; cbn in E.
  - injection E as <-. apply H.
  - destruct (remove_nth l i) eqn:Q; [|discriminate]. injection E as <-. split; [apply H|]. eapply IH; eauto. apply H.
Qed.
Lemma nth_all {A} (P : A -> Prop) l i x : all P l -> nth_error l i = Some x -> P x.
Proof. intros H E. apply all_in in H. rewrite Forall_forall in H. apply H. eapply nth_error_In; eauto. Qed.
Lemma tie_in : forall cs (outs : list (asm_dir * reg_constraint * expr)) (ins : list (reg_constraint * expr)) o i,
  all (fun x => expr_in S (snd x)) outs -> all (fun x => expr_in S (snd x)) ins -> asm_tie cs outs ins = Some (o, i) ->
  all (fun x => expr_in S (snd x)) o /\ all (fun x => expr_in S (snd x)) i.
Proof.
  induction cs as [|r cs IH]; intros outs ins o i O J E; cbn [asm_tie] in E; [injection E as <- <-; auto|].
  destruct r; try (eapply IH; [exact O|exact J|exact E]).
  destruct (nth_error outs _) as [[[d' r'] e']|] eqn:Q; [|eapply IH; [exact O|exact J|exact E]].
  destruct (remove_nth ins _) as [ins'|] eqn:Q1; [|discriminate]. cbn in E. destruct (set_nth outs _ _) as [outs'|] eqn:Q2; [|discriminate]. cbn in E.
  eapply IH; [| |exact E].
  - eapply set_nth_all; [|exact O|exact Q2]. exact (nth_all _ _ _ _ O Q).
  - eapply remove_all; [exact J|exact Q1].
Qed.
Lemma exprs_eq c l : all (expr_in S) l -> exprs_toks (etoks cx' c) l = exprs_toks (etoks cx c) l.
Proof. intro A. apply exprs_same. apply all_in in A. rewrite Forall_forall in *. intros e IN. apply etoks_eq. auto. Qed.
Lemma asm_same c a : stmt_in S (SAsm a) -> asm_toks cx' c a = asm_toks cx c a.
Proof.
  intros [A1 A2]. unfold asm_toks. destruct (asm_tie _ _ _) as [[o i]|] eqn:Q; [|reflexivity]. destruct (tie_in _ _ _ _ _ A1 A2 Q) as [O J]. cbn [obind].
  rewrite !exprs_eq by auto using all_snd. now rewrite a_trait.
Qed.
Lemma fn_arg_same c l : all_toks (fun '(t, a) => ts <-? ty_toks cx' c t ;; n <-? ident_toks cx' c a ;; Some (n ++ [rp ":"] ++ ts)) l =
  all_toks (fun '(t, a) => ts <-? ty_toks cx c t ;; n <-? ident_toks cx c a ;; Some (n ++ [rp ":"] ++ ts)) l.
Proof. induction l as [|[t a] l IH]; cbn [all_toks]; [reflexivity|]. now rewrite IH, ty_same, ident_same. Qed.
Lemma stmts_same c l : Forall (fun s => stmt_in S s -> stmt_toks cx' c s = stmt_toks cx c s) l -> all (stmt_in S) l -> stmts_toks (stmt_toks cx' c) l = stmts_toks (stmt_toks cx c) l.
Proof. induction 1 as [|s l E F IH]; intro A; cbn; [reflexivity|]. destruct A as [A1 A2]. now rewrite (E A1), (IH A2). Qed.
Lemma stmt_same c s : stmt_in S s -> stmt_toks cx' c s = stmt_toks cx c s.
Proof.
  induction s as [a|e|d|d|l IHl|e a b IHa IHb|l e IHl] using stmt_ind'; intro E; cbn [stmt_toks].
  - now rewrite asm_same.
  - now rewrite etoks_eq.
  - unfold fn_decl_toks. now rewrite ident_same, fn_arg_same, ty_same.
  - unfold var_decl_toks. destruct E as [E1 E2]. now rewrite ident_same, ty_same, etoks_eq.
  - now rewrite (stmts_same c l IHl).
  - destruct E as (E1 & E2 & E3). now rewrite etoks_eq, (stmts_same c a IHa), (stmts_same c b IHb).
  - destruct E as (E1 & E2). now rewrite etoks_eq, (stmts_same c l IHl).
Qed.
Lemma body_same c b : body_in S b -> body_toks cx' c b = body_toks cx c b.
Proof. destruct b; cbn; [apply stmt_same|apply etoks_eq]. Qed.

(** ** Generation *)

Lemma args_loc n l : S n -> all S l -> arg_types cx' n l = arg_types cx n l /\ forall tys, arg_types cx n l = ROk tys -> Forall arg_in tys.
Proof.
  intro N. induction l as [|a l IH]; cbn [arg_types]; intro A.
  - split; [reflexivity|]. intros tys [= <-]. constructor.
  - destruct A as [A1 A2]. destruct (IH A2) as [-> J]. rewrite a_arg, a_ffi by assumption. split; [reflexivity|]. intros tys.
    destruct CL as (_ & _ & _ & _ & C). specialize (C n a). destruct (cx_arg_ty cx n a) as [t|].
    + destruct (from_rust_ty (cx_ffi cx) t) as [t'| | |] eqn:Q; try discriminate. cbn [rbind]. destruct (arg_types cx n l) as [r| | |] eqn:R; try discriminate. intros [= <-].
      constructor; [|auto]. cbn. exact (C _ N A1 eq_refl _ Q).
    + cbn [rbind]. destruct (arg_types cx n l) as [r| | |] eqn:R; try discriminate. intros [= <-]. constructor; [exact I|auto].
Qed.
Lemma lctx_same : var_lctx cx' = var_lctx cx.
Proof. unfold var_lctx, target_at_least. now rewrite a_target. Qed.
Theorem var_local m : body_in S (vm_body m) -> var_generate cx' m = var_generate cx m.
Proof.
  unfold var_generate. destruct (vm_body m) as [s|e]; [reflexivity|]. cbn [body_in]. intro E. rewrite lctx_same.
  destruct (expr_loc e (var_lctx cx) E) as [-> J]; [constructor|]. destruct (expr_finish cx e (var_lctx cx)) as [[e1 c] f]. destruct J as (J1 & J2 & J3).
  f_equal. destruct f as [t| | |]; try reflexivity. cbn [ofres]. rewrite etoks_eq by exact J1.
  destruct e1 as [| | |[]| | | | | |]; rewrite ?string_same; destruct t as [t|]; rewrite ?ty_same; reflexivity.
Qed.
Lemma params_same c : forall l tys, param_toks cx' c l tys = param_toks cx c l tys.
Proof. induction l as [|n l IH]; intros [|t tys]; try reflexivity. cbn [param_toks]. rewrite IH. destruct t; try reflexivity. now rewrite ty_same. Qed.
Theorem fn_local m : S (fm_name m) -> all S (fm_args m) -> body_in S (fm_body m) -> fn_generate cx' m = fn_generate cx m.
Proof.
  intros N A B. unfold fn_generate. destruct (args_loc _ _ N A) as [-> T]. destruct (arg_types cx (fm_name m) (fm_args m)) as [tys| | |]; try reflexivity.
  destruct (body_loc (fm_body m) (mk_lctx (fm_args m) tys false true true false) B) as [-> J]; [exact (T _ eq_refl)|].
  destruct (body_finish cx (fm_body m) _) as [[b c1] f]. destruct J as (J1 & J2 & J3). f_equal. destruct f as [ret| | |]; try reflexivity. cbn [ofres].
  rewrite a_fn by exact N. rewrite body_same by exact J1.
  destruct ret as [t|]; rewrite params_same, ?ty_same; reflexivity.
Qed.
End F.
