(** Type inference does not panic on safe expressions and keeps them safe. *)
From Verif Require Import Base Utf Lex LexFloat Token Ast ParseStmt Rust Finish SpecGen SpecFold StrFacts FinishFacts FinishEq PropFold SpecPanicFree.
From Coq Require Import String List Lia ZArith Bool.
Import ListNotations.
Local Open Scope list_scope.

Section S.
Context {U : Unicode}.
Variable cx : cgctx.
Variable names : list str.
Hypothesis CX : context_ok cx.

Definition idok (s : str) : Prop := is_identifier s = true.
Definition ipok (p : idpart) : Prop :=
  match p with IpArg i => i < length names | IpPlain s => idok s | IpInt v => (0 <= v)%Z end.
Definition nmok (n : ident_expr) : Prop :=
  match n with IArg i => i < length names | IPlain s => idok s | IConcat l => Forall ipok l end.
Fixpoint tyok (t : ctype) : Prop :=
  match t with
  | TyBuiltIn _ => True
  | TyIdent n _ => nmok n
  | TyPath _ l => Forall idok l
  | TyPtr t | TyQual t _ => tyok t
  end.
Definition otyok (t : option ctype) : Prop := match t with Some t => tyok t | None => True end.

(** The type of wide characters is known. *)
Definition wide : Prop := exists t t', cx_ty cx (st "wchar_t") = Some t /\ from_rust_ty (cx_ffi cx) t = ROk t' /\ tyok t'.
Definition node (w : bool) (e : expr) : Prop :=
  harmless_node names e /\
  match e with
  | EVar n | ECall n _ => nmok n
  | ECast t _ | ESizeOf t => tyok t
  | ELit (LString (SWide _)) => w = true -> wide
  | _ => True
  end.
Definition eok (w : bool) : expr -> Prop := every (node w).

Definition aok (a : arg_ty) : Prop := match a with AKnown t => tyok t | _ => True end.
Definition cok (c : lctx) : Prop :=
  lc_names c = names /\ length (lc_types c) = length names /\ Forall aok (lc_types c).

Definition fok (f : fres) (P : Prop) : Prop :=
  match f with FOk t => P /\ otyok t | FPanic => False | _ => True end.
(** What becomes of [e]. *)
Definition good_fin (e : expr) (r : fin expr) : Prop :=
  let '(e', c', f) := r in
  eok false e' /\ cok c' /\ (integer e = false -> integer e' = false) /\ (number e = false -> number e' = false) /\
  fok f (eok true e').

Lemma everys_forall P l : everys P l <-> Forall P l.
Proof. induction l; cbn; split; intro H0; auto; [destruct H0; constructor; tauto|inversion H0; subst; tauto]. Qed.
Lemma node_weak e : node true e -> node false e.
Proof. unfold node. intros [A B]. split; [exact A|]. destruct e as [| | |[|[]| |]| | | | | |]; auto. Qed.
Lemma eok_weak e : eok true e -> eok false e.
Proof.
  unfold eok. induction e as [v|v l IHl|t e IHe|l|a IHa|l IHl|t|op e IHe|a op b IHa IHb|a b d IHa IHb IHd] using expr_ind';
    cbn [every]; intros [N S]; (split; [now apply node_weak|]); try tauto.
  - apply everys_forall. apply everys_forall in S. revert S. induction IHl; intro S; inversion S; subst; constructor; auto.
  - apply everys_forall. apply everys_forall in S. revert S. induction IHl; intro S; inversion S; subst; constructor; auto.
Qed.

(** ** The context *)

Lemma cok_macro c b : cok c -> cok (set_macro b c).
Proof. auto. Qed.
Lemma set_nth_some {A} (l : list A) : forall i x, i < length l -> exists l', set_nth l i x = Some l'.
Proof.
  induction l as [|a l IH]; intros [|i] x L; cbn in L; try lia; [eexists; reflexivity|].
  destruct (IH i x) as [l' E]; [lia|]. cbn. rewrite E. eexists; reflexivity.
Qed.
Lemma set_nth_forall {A} (P : A -> Prop) (l : list A) : forall i x l', set_nth l i x = Some l' -> Forall P l -> P x -> Forall P l'.
Proof.
  induction l as [|a l IH]; intros [|i] x l'; cbn; try discriminate.
  - intros E F Px. injection E as <-. inversion F; subst. now constructor.
  - destruct (set_nth l i x) eqn:E; cbn; [|discriminate]. intros Q F Px. injection Q as <-. inversion F; subst. constructor; eauto.
Qed.
Lemma set_arg_ok c i a : cok c -> i < length names -> aok a -> exists c', set_arg_type c i a = Some c' /\ cok c'.
Proof.
  intros (N & L & F) I A. destruct (set_nth_some (lc_types c) i a) as [l E]; [lia|]. unfold set_arg_type. rewrite E. eexists. split; [reflexivity|].
  pose proof (set_nth_length _ _ _ _ E) as [E1 _]. unfold cok. cbn. split; [exact N|]. split; [lia|]. eapply set_nth_forall; eauto.
Qed.
Lemma arg_type_ok c i : cok c -> i < length names -> exists a, arg_type c i = Some a /\ aok a.
Proof.
  intros (N & L & F) I. unfold arg_type. destruct (nth_error (lc_types c) i) as [a|] eqn:E.
  - exists a. split; [reflexivity|]. apply nth_error_In in E. rewrite Forall_forall in F. auto.
  - apply nth_error_None in E. lia.
Qed.

(** ** Types *)

Lemma from_rust_ok t t' p : rust_type_ok t -> from_rust_ty p t = ROk t' -> tyok t'.
Proof.
  revert t'. induction t as [m t IH| |q sp|s l|s l]; intros t'; cbn [from_rust_ty rust_type_ok].
  - intros R. destruct (from_rust_ty p t) as [x| | |]; cbn [rbind]; try discriminate. intro E. injection E as <-. destruct m; cbn; eauto.
  - intros _ E. injection E as <-. exact I.
  - intros R. destruct (builtin_from_rust q sp p); [intro E; injection E as <-; exact I|].
    assert (F : Forall idok (map fst (sp_segs sp))) by (apply Forall_map; exact R).
    destruct (sp_colon sp); [intro E; injection E as <-; exact F|].
    destruct (sp_segs sp) as [|s [|s2 l]]; intro E; injection E as <-; try exact F. cbn in *. now inversion F.
  - intros R E. injection E as <-. exact R.
  - discriminate.
Qed.

Lemma idparts_ok l : forall c, Forall ipok l -> cok c ->
  let '(c', f) := idparts_finish l c in cok c' /\ fok f True.
Proof.
  induction l as [|p l IH]; intros c F C; cbn [idparts_finish]; [cbn; auto|]. inversion F as [|? ? Hp Hl]; subst. destruct p as [i|s|v].
  - destruct (set_arg_ok c i AIdent C Hp I) as (c' & E & C'). rewrite E. now apply IH.
  - now apply IH.
  - cbn in Hp. destruct (Z.leb_spec 0 v); [|lia]. cbn. auto.
Qed.
Lemma ident_ok n c : nmok n -> cok c -> let '(c', f) := ident_finish n c in cok c' /\ fok f True.
Proof. destruct n; cbn [ident_finish nmok]; intros; [cbn; auto|cbn; auto|now apply idparts_ok]. Qed.

Lemma ty_ok t : forall c, tyok t -> cok c -> let '(t', c', f) := ty_finish cx t c in tyok t' /\ cok c' /\ fok f True.
Proof.
  induction t as [b|n s|l b|t IH|t IH q]; intros c T C; cbn [ty_finish].
  - cbn; auto.
  - pose proof (ident_ok n c T C) as G. destruct (ident_finish n c) as [c' f]. destruct G as [G1 G2]. destruct f; try (split; [exact T|split; assumption]).
    destruct n as [i|s0|l0]; try (cbn; auto; fail).
    destruct (cx_ty cx s0) as [rt|] eqn:E; [|cbn; auto].
    destruct CX as (_ & _ & CT & _). specialize (CT _ _ E).
    destruct (from_rust_ty (cx_ffi cx) rt) as [t'|e| |] eqn:R.
    + split; [eapply from_rust_ok; eauto|]. cbn; auto.
    + cbn; auto.
    + now apply from_rust_ty_panic in R.
    + cbn; auto.
  - cbn in *; auto.
  - specialize (IH c T C). destruct (ty_finish cx t c) as [[t' c'] f]. exact IH.
  - specialize (IH c T C). destruct (ty_finish cx t c) as [[t' c'] f]. exact IH.
Qed.

Lemma from_rust_fok t k : rust_type_ok t -> (forall t', tyok t' -> fok (k t') True) -> fok (from_rust cx t k) True.
Proof.
  intros R K. unfold from_rust. destruct (from_rust_ty (cx_ffi cx) t) eqn:E; [|exact I| |exact I].
  - apply K. eapply from_rust_ok; eauto.
  - now apply from_rust_ty_panic in E.
Qed.

(** ** Literals *)

Lemma wchar_ok c k : cok c -> (wide -> forall t, tyok t -> fok (k t) wide) -> fok (wchar_finish cx c k) wide.
Proof.
  intros C K. unfold wchar_finish. cbn [ty_finish ident_finish].
  destruct (cx_ty cx (st "wchar_t")) as [rt|] eqn:E; [|cbn; auto].
  destruct (from_rust_ty (cx_ffi cx) rt) as [t'| | |] eqn:R; [|exact I| |exact I].
  - assert (T : tyok t') by (destruct CX as (_ & _ & CT & _); eapply from_rust_ok; eauto). apply K; [|exact T]. exists rt, t'. auto.
  - now apply from_rust_ty_panic in R.
Qed.
Lemma char_ok x c : cok c -> match char_finish cx x c with FOk (Some t) => tyok t | FErr _ | FFuel => True | _ => False end.
Proof.
  intros C. destruct x; cbn; auto. unfold wchar_finish. cbn [ty_finish ident_finish].
  destruct (cx_ty cx (st "wchar_t")) as [rt|] eqn:E; [|exact I].
  destruct (from_rust_ty (cx_ffi cx) rt) as [t'| | |] eqn:R; [|exact I| |exact I].
  - destruct CX as (_ & _ & CT & _). eapply from_rust_ok; eauto.
  - now apply from_rust_ty_panic in R.
Qed.
Lemma lit_ok l c : (forall x, l <> LChar x) -> cok c -> fok (lit_finish cx l c) (eok true (ELit l)).
Proof.
  intros N C. destruct l as [x|[b|s|s|s|w]|[]|i]; cbn [lit_finish string_finish].
  - now destruct (N x).
  - repeat split.
  - repeat split.
  - repeat split.
  - repeat split.
  - pose proof (wchar_ok c (fun t => FOk (Some (TyQual (TyPtr t) QConst))) C) as W.
    assert (G : fok (wchar_finish cx c (fun t => FOk (Some (TyQual (TyPtr t) QConst)))) wide) by (apply W; intros; split; auto).
    destruct (wchar_finish cx c _); try exact G. destruct G as [G1 G2]. split; [|exact G2]. unfold eok. cbn. repeat split. auto.
  - repeat split.
  - repeat split.
  - repeat split.
  - repeat split.
Qed.

(** ** Variables *)

Lemma var_ok n c : nmok n -> cok c -> let '(c', f) := var_finish cx n c in cok c' /\ fok f True.
Proof.
  intros N C. unfold var_finish. pose proof (ident_ok n c N C) as G. destruct (ident_finish n c) as [c' f]. destruct G as [G1 G2].
  destruct f; try (split; assumption). destruct n as [i|s|l].
  - destruct (arg_type_ok c' i G1 N) as (a & E & A). rewrite E. destruct a; cbn; auto.
  - destruct (str_eqb s (st "__LINE__")); [cbn; auto|]. destruct (str_eqb s (st "__FILE__")); [cbn; auto|].
    destruct (rust_name limit_types s); [cbn; auto|]. destruct (cx_enum cx s) as [[rt ts]|] eqn:E; [|cbn; auto].
    split; [exact G1|]. apply from_rust_fok; [destruct CX as (_ & CE & _); eauto|]. intros. cbn; auto.
  - cbn; auto.
Qed.
Lemma stringify_ok a c : eok false a -> cok c -> let '(c', f) := stringify_finish a c in cok c' /\ fok f True.
Proof.
  intros A C. destruct a as [[i|s|l]| | | | | | | | |]; try (cbn; auto; fail).
  - destruct A as [[_ A] _]. cbn in A. cbn [stringify_finish]. destruct (arg_type_ok c i C A) as (x & E & X). rewrite E.
    destruct (set_arg_ok c i AExpr C A I) as (c' & E' & C'). rewrite E'. destruct x; cbn; auto.
  - cbn [stringify_finish]. destruct (_ || _); cbn; auto.
Qed.

Lemma infer_ok e t c : eok false e -> cok c -> fok (fst t) True -> (forall a, snd t = Some a -> aok a) ->
  let '(c', f) := infer_arg e t c in cok c' /\ fok f True.
Proof.
  intros E C T A. destruct e as [[i|s|l]| | | | | | | | |]; try (cbn; auto; fail). destruct E as [[_ E] _]. cbn in E.
  cbn [infer_arg]. destruct (arg_type_ok c i C E) as (x & Q & X). rewrite Q. destruct x; try (cbn; auto; fail).
  destruct t as [f [a|]]; [|cbn in *; auto]. destruct (set_arg_ok c i a C E (A a eq_refl)) as (c' & Q' & C'). rewrite Q'. cbn; auto.
Qed.
Lemma known_ok t : rust_type_ok t -> fok (fst (known_arg cx t)) True /\ (forall a, snd (known_arg cx t) = Some a -> aok a).
Proof.
  intros R. unfold known_arg. destruct (from_rust_ty (cx_ffi cx) t) eqn:E; cbn; try (split; [auto|discriminate]).
  - split; [auto|]. intros x Q. injection Q as <-. eapply from_rust_ok; eauto.
  - now apply from_rust_ty_panic in E.
Qed.
Lemma infers_ok args : forall tys c, Forall (eok false) args -> Forall rust_type_ok tys -> cok c ->
  let '(c', f) := infer_args cx args tys c in cok c' /\ fok f True.
Proof.
  induction args as [|e args IH]; intros [|t tys] c E T C; cbn [infer_args]; try (cbn; auto; fail).
  inversion E; inversion T; subst. destruct (known_ok t) as [K1 K2]; [assumption|].
  pose proof (infer_ok e (known_arg cx t) c ltac:(assumption) C K1 K2) as G. destruct (infer_arg e (known_arg cx t) c) as [c' f]. destruct G as [G1 G2].
  destruct f; try (split; assumption). now apply IH.
Qed.
Lemma call_ok n args c : Forall (eok false) args -> cok c -> let '(c', f) := call_types cx n args c in cok c' /\ fok f True.
Proof.
  intros A C. destruct n as [i|s|l]; try (cbn; auto; fail). cbn [call_types]. destruct (cx_fn cx s) as [[tys ret]|] eqn:E.
  - destruct CX as (_ & _ & _ & _ & CF). destruct (CF _ _ _ E) as [R1 R2].
    destruct (Nat.eqb _ _); [|cbn; auto]. destruct (from_rust_ty (cx_ffi cx) ret) eqn:Q; try (cbn; auto; fail).
    + pose proof (infers_ok args tys c A R2 C) as G. destruct (infer_args cx args tys c) as [c' f]. destruct G as [G1 G2].
      destruct f; try (split; assumption). cbn. split; [exact G1|]. split; [exact I|]. eapply from_rust_ok; eauto.
    + now apply from_rust_ty_panic in Q.
  - destruct (str_eqb s _); [|cbn; auto]. destruct args as [|a [|b [|x args]]]; try (cbn; auto; fail).
    inversion A as [|? ? A1 A2]; subst. inversion A2 as [|? ? A3 A4]; subst.
    pose proof (infer_ok a (FOk None, Some ATy) (set_macro true c) A1 C) as G. cbn [fst snd] in G.
    destruct (infer_arg a _ _) as [c' f]. destruct G as [G1 G2]; [cbn; auto|intros x Q; injection Q as <-; exact I|].
    destruct f; try (split; assumption). apply infer_ok; auto; cbn; auto. intros x Q; injection Q as <-; exact I.
Qed.

(** ** Operators *)

Lemma unary_type_ok op c t : otyok t -> fok (unary_type op c t) True.
Proof.
  intros T. destruct op; cbn; auto.
  - destruct (lc_var c); [exact I|]. destruct t as [[]|]; cbn; auto.
  - destruct t; cbn; auto.
Qed.
Ltac oks := repeat first [progress cbn | split | tauto | auto].
Lemma unary_fold_ok op e t : eok true e -> otyok t -> let '(e', f) := unary_fold op e t in
  eok true e' /\ (integer (EUnary op e) = false -> integer e' = false) /\ (number (EUnary op e) = false -> number e' = false) /\ fok f True.
Proof.
  intros E T.
  assert (D : eok true (EUnary op e) /\ (integer (EUnary op e) = false -> integer (EUnary op e) = false) /\
              (number (EUnary op e) = false -> number (EUnary op e) = false) /\ fok (FOk t) True).
  { repeat split; auto. }
  assert (Z : forall z, eok true z -> eok true (EBinary e OEq z) /\ (integer (EUnary op e) = false -> integer (EBinary e OEq z) = false) /\
              (number (EUnary op e) = false -> number (EBinary e OEq z) = false) /\ fok (FOk t) True).
  { intros z Hz. repeat split; auto. }
  assert (L : forall l, (forall s, l <> LString (SWide s)) -> eok true (ELit l)).
  { intros l N. repeat split. cbn. destruct l as [|[| | | |s]| |]; auto. now destruct (N s). }
  destruct op; try exact D; destruct e as [n|n args|t0 e|[x|s|f|[v [s|]]]|a|l|t0|op e|a op b|a b d]; try exact D; cbn [unary_fold];
    try (destruct (oty_eqb t (ty_b BBool)); [exact D|apply Z; destruct t as [[[]| | | |]|]; repeat split]);
    try (split; [first [assumption | apply L; discriminate]|split; [cbn; auto|split; [cbn; auto|split; [exact I|exact T]]]]).
  all: split; [exact (proj1 D)|]; cbn; auto.
Qed.

Lemma int_op_ok op a b : int_folds op = true -> ((op = ODiv \/ op = ORem) -> b <> 0%Z) -> int_op op a b <> None.
Proof.
  intros F N. destruct op; try discriminate; cbn [int_op]; destruct (Z.eqb_spec b 0); try discriminate; subst; exfalso; apply N; auto.
Qed.
Definition folds (op : binop) : bool :=
  match op with OMul | ODiv | ORem | OAdd | OSub | OShl | OShr | OBitAnd | OBitOr | OBitXor => true | _ => false end.
Lemma integer_bin a op b : integer (EBinary a op b) = (folds op && (integer a && integer b)).
Proof. destruct op; reflexivity. Qed.
Lemma number_bin a op b : number (EBinary a op b) = (folds op && (number a && number b)).
Proof. destruct op; reflexivity. Qed.
Lemma divisor_lit i : divisor_ok (ELit (LInt i)) -> int_value i <> 0%Z.
Proof.
  intros [D|[(j & D & N)|(t & v & V & N)]]; [discriminate|injection D as <-; exact N|]. inversion V; subst. exact N.
Qed.
Lemma bin_ok w a op b : eok w a -> eok w b -> (op = ODiv \/ op = ORem -> divisor_ok b) -> eok w (EBinary a op b).
Proof.
  intros A B D. unfold eok. cbn [every]. split; [|split; assumption]. split; [|exact I]. destruct op; cbn; auto.
Qed.
Lemma bin_inv w a op b : eok w (EBinary a op b) -> eok w a /\ eok w b /\ (op = ODiv \/ op = ORem -> divisor_ok b).
Proof.
  unfold eok. cbn [every]. intros [[N _] [A B]]. split; [exact A|]. split; [exact B|]. intros [-> | ->]; exact N.
Qed.
Lemma binary_fold_ok a op b t c : eok true a -> eok true b -> (op = ODiv \/ op = ORem -> divisor_ok b) -> otyok t -> cok c ->
  let '(e', f) := binary_fold cx a op b t c in
  eok true e' /\ (integer (EBinary a op b) = false -> integer e' = false) /\ (number (EBinary a op b) = false -> number e' = false) /\ fok f True.
Proof.
  intros A B D T C. unfold binary_fold.
  assert (O : eok true (EBinary a op b) /\ (integer (EBinary a op b) = false -> integer (EBinary a op b) = false) /\
              (number (EBinary a op b) = false -> number (EBinary a op b) = false) /\ fok (FOk (if is_comparison op then ty_b BBool else t)) True).
  { split; [now apply bin_ok|]. split; [auto|]. split; [auto|]. split; [exact I|]. destruct (is_comparison op); [exact I|exact T]. }
  destruct a as [n|n args|t0 e|[x|s|f|i]|a|l|t0|op0 e|a op0 b0|a b0 d]; try exact O; destruct b as [n'|n' args'|t' e'|[x'|s'|f'|i']|a'|l'|t'|op' e'|a' op' b'|a' b' d']; try exact O.
  - destruct (float_op op) as [g|] eqn:G; [|exact O]. split; [repeat split|]. split; [reflexivity|]. split.
    + rewrite number_bin. destruct op; try discriminate G; intro; discriminate.
    + pose proof (lit_ok (LFloat (float_arith g f f')) c) as L. destruct (lit_finish cx (LFloat (float_arith g f f')) c); cbn in *; auto; [|apply L; auto; discriminate].
      split; [auto|]. apply L; auto. discriminate.
  - destruct (int_folds op) eqn:F; [|exact O].
    pose proof (int_op_ok op (int_value i) (int_value i') F) as P.
    destruct (int_op op (int_value i) (int_value i')) as [v|] eqn:Q.
    + split; [repeat split|]. split; [rewrite integer_bin; destruct op; try discriminate F; intro; discriminate|].
      split; [rewrite number_bin; destruct op; try discriminate F; intro; discriminate|]. split; exact I.
    + exfalso. apply P; [|reflexivity]. intro X. apply divisor_lit. now apply D.
Qed.

Definition notlit (e : expr) : Prop := forall l, e <> ELit l.
Lemma cast_lit_ok w t e : tyok t -> eok w e -> eok w (ECast t e).
Proof. intros. unfold eok. cbn [every]. split; [split; [exact I|assumption]|assumption]. Qed.
Lemma max_ty_ok e t : max_ty_cast e = Some t -> tyok t.
Proof. destruct e as [[]| | | | | | | | |]; cbn [max_ty_cast]; try discriminate. destruct (rust_name _ _); cbn; [|discriminate]. intro E. injection E as <-. exact I. Qed.
Lemma join_ok a b : otyok a -> otyok b -> otyok (join_ty a b).
Proof. unfold join_ty. intros. destruct (oty_eqb a b); [assumption|]. destruct a, b; cbn in *; auto. Qed.

(** The conversions of [binary_types]. *)
Definition converted (op : binop) (lhs rhs : expr) (lt rt : option ctype) : expr * expr * option ctype * option ctype :=
  match lhs, rhs with
  | ELit (LInt (mk_int v None)), ELit (LFloat _) =>
    (ELit (LFloat (FFloat (i128_to_f32 v))), rhs, ty_b BFloat, rt)
  | ELit (LFloat _), ELit (LInt (mk_int v None)) =>
    (lhs, ELit (LFloat (FFloat (i128_to_f32 v))), lt, ty_b BFloat)
  | _, ELit (LInt _) =>
    if mul_or_add op then
      match max_ty_cast lhs with Some t => (ECast t lhs, rhs, Some t, rt) | None => (lhs, rhs, lt, rt) end
    else (lhs, rhs, lt, rt)
  | ELit (LInt _), _ =>
    if mul_or_add op then
      match max_ty_cast rhs with Some t => (lhs, ECast t rhs, lt, Some t) | None => (lhs, rhs, lt, rt) end
    else (lhs, rhs, lt, rt)
  | _, _ => (lhs, rhs, lt, rt)
  end.
Definition binary_result (op : binop) (rhs : expr) (lt rt : option ctype) : fres :=
  match op with
  | OMember =>
    match lt, rhs with
    | Some (TyIdent (IPlain tn) _), EVar (IPlain fn) =>
      match cx_field cx tn fn with
      | Some t => from_rust cx t (fun t' => FOk (Some t'))
      | None => FOk None
      end
    | _, _ => FOk None
    end
  | _ => FOk (join_ty lt rt)
  end.
Lemma binary_types_eq a op b lt rt c : binary_types cx a op b lt rt c =
  match match op, b with OMember, EVar (IArg i) => set_arg_type c i AIdent | _, _ => Some c end with
  | None => ((a, b), c, FPanic)
  | Some c1 =>
    let '(a', b', lt', rt') := converted op a b lt rt in
    ((a', b'), match is_assignment op, a with true, EVar (IArg _) => set_macro true c1 | _, _ => c1 end, binary_result op b' lt' rt')
  end.
Proof. reflexivity. Qed.

Lemma binary_types_ok a op b lt rt c : eok true a -> eok true b -> (op = ODiv \/ op = ORem -> divisor_ok b) -> otyok lt -> otyok rt -> cok c ->
  let '((a', b'), c', f) := binary_types cx a op b lt rt c in
  eok true a' /\ eok true b' /\ (op = ODiv \/ op = ORem -> divisor_ok b') /\ cok c' /\
  (integer (EBinary a op b) = false -> integer (EBinary a' op b') = false) /\
  (number (EBinary a op b) = false -> number (EBinary a' op b') = false) /\ fok f True.
Proof.
  intros A B D LT RT C. rewrite binary_types_eq.
  assert (S : exists c1, match op, b with OMember, EVar (IArg i) => set_arg_type c i AIdent | _, _ => Some c end = Some c1 /\ cok c1).
  { destruct op; try (exists c; split; [reflexivity|exact C]). destruct b as [[i|s|l]| | | | | | | | |]; try (exists c; split; [reflexivity|exact C]).
    apply set_arg_ok; [exact C| |exact I]. destruct B as [[_ B] _]. exact B. }
  destruct S as (c1 & S & C1). rewrite S. clear S.
  assert (C2 : cok (match is_assignment op, a with true, EVar (IArg _) => set_macro true c1 | _, _ => c1 end)).
  { destruct (is_assignment op); [|exact C1]. destruct a as [[]| | | | | | | | |]; exact C1. }
  set (c2 := match is_assignment op, a with true, EVar (IArg _) => set_macro true c1 | _, _ => c1 end) in *. clearbody c2.
  set (quad := converted op a b lt rt).
  assert (Q : let '(a', b', lt', rt') := quad in
    eok true a' /\ eok true b' /\ (op = ODiv \/ op = ORem -> divisor_ok b') /\
    (integer (EBinary a op b) = false -> integer (EBinary a' op b') = false) /\
    (number (EBinary a op b) = false -> number (EBinary a' op b') = false) /\ otyok lt' /\ otyok rt').
  { assert (SAME : let '(a', b', lt', rt') := (a, b, lt, rt) in
      eok true a' /\ eok true b' /\ (op = ODiv \/ op = ORem -> divisor_ok b') /\
      (integer (EBinary a op b) = false -> integer (EBinary a' op b') = false) /\
      (number (EBinary a op b) = false -> number (EBinary a' op b') = false) /\ otyok lt' /\ otyok rt') by (repeat split; auto).
    assert (CL : forall t, max_ty_cast a = Some t -> mul_or_add op = true -> let '(a', b', lt', rt') := (ECast t a, b, Some t, rt) in
      eok true a' /\ eok true b' /\ (op = ODiv \/ op = ORem -> divisor_ok b') /\
      (integer (EBinary a op b) = false -> integer (EBinary a' op b') = false) /\
      (number (EBinary a op b) = false -> number (EBinary a' op b') = false) /\ otyok lt' /\ otyok rt').
    { intros t M _. apply max_ty_ok in M. split; [now apply cast_lit_ok|]. split; [exact B|]. split; [exact D|].
      rewrite !integer_bin, !number_bin. cbn [integer number andb]. rewrite !andb_false_r. auto. }
    assert (CR : forall t, max_ty_cast b = Some t -> mul_or_add op = true -> let '(a', b', lt', rt') := (a, ECast t b, lt, Some t) in
      eok true a' /\ eok true b' /\ (op = ODiv \/ op = ORem -> divisor_ok b') /\
      (integer (EBinary a op b) = false -> integer (EBinary a' op b') = false) /\
      (number (EBinary a op b) = false -> number (EBinary a' op b') = false) /\ otyok lt' /\ otyok rt').
    { intros t M O. apply max_ty_ok in M. split; [exact A|]. split; [now apply cast_lit_ok|].
      split; [intros [-> | ->]; discriminate O|].
      rewrite !integer_bin, !number_bin. cbn [integer number andb]. rewrite !andb_false_r. auto. }
    assert (FL : forall f, eok true (ELit (LFloat f))) by (intro; repeat split).
    subst quad. unfold converted.
    destruct a as [n|n args|t0 e|[x|s|f|[v [s|]]]|a|l|t0|op0 e|a op0 b0|a b0 d];
    destruct b as [n'|n' args'|t' e'|[x'|s'|f'|[v' [s'|]]]|a'|l'|t'|op' e'|a' op' b'|a' b' d']; try exact SAME;
      try (destruct (mul_or_add op) eqn:O; [|exact SAME];
           match goal with |- context [match max_ty_cast ?x with _ => _ end] => destruct (max_ty_cast x) eqn:M end; [|exact SAME]; first [now apply CL | now apply CR]).
    - split; [exact A|]. split; [apply FL|]. split; [intros _; left; reflexivity|]. rewrite !integer_bin, !number_bin. cbn. rewrite !andb_false_r. auto.
    - split; [apply FL|]. split; [exact B|]. split; [intros _; left; reflexivity|]. rewrite !integer_bin, !number_bin. cbn. rewrite !andb_false_r. auto. }
  destruct quad as [[[a' b'] lt'] rt']. destruct Q as (Q1 & Q2 & Q3 & Q4 & Q5 & Q6 & Q7).
  split; [exact Q1|]. split; [exact Q2|]. split; [exact Q3|]. split; [exact C2|]. split; [exact Q4|]. split; [exact Q5|].
  assert (J : fok (FOk (join_ty lt' rt')) True) by (split; [exact I|now apply join_ok]).
  unfold binary_result. destruct op; try exact J. destruct lt' as [[b0|[i|tn|l] s|l s|t|t q]|]; try (cbn; auto; fail). destruct b' as [[i|fn|l]| | | | | | | | |]; try (cbn; auto; fail).
  destruct (cx_field cx tn fn) as [t|] eqn:E; [|cbn; auto]. apply from_rust_fok; [|cbn; auto].
  destruct CX as (_ & _ & _ & CF & _). eauto.
Qed.

Lemma cast_binary_ok w t e b : tyok t -> eok w e -> cast_as_binary cx t e = Some b ->
  eok w b.
Proof.
  intros T E. destruct e as [| | | | | | |op e| |]; try discriminate. destruct t as [|n []| | |]; try discriminate. cbn [cast_as_binary].
  assert (K : forall o, o <> ODiv -> o <> ORem -> eok w (EBinary (EVar n) o e)).
  { intros o N1 N2. apply bin_ok; [repeat split; exact T|apply E|tauto]. }
  destruct (match n with IPlain id => _ | _ => _ end); [|discriminate].
  destruct op; try discriminate; intro Q; injection Q as <-; apply K; discriminate.
Qed.
Lemma cast_binary_number t e b : cast_as_binary cx t e = Some b -> integer b = false /\ number b = false.
Proof.
  destruct e as [| | | | | | |op e| |]; try discriminate. destruct t as [|n []| | |]; try discriminate. cbn [cast_as_binary].
  destruct (match n with IPlain id => _ | _ => _ end); [|discriminate].
  destruct op; try discriminate; intro Q; injection Q as <-; split; reflexivity.
Qed.
Lemma cast_deref_ok w t e b : tyok t -> eok w e -> cast_of_deref t e = Some b -> eok w b /\ integer b = false /\ number b = false.
Proof.
  intros T E. unfold cast_of_deref. destruct e as [| |t0 e| | | | | | |]; try discriminate. destruct t0 as [|n []| | |]; try discriminate.
  destruct e as [| | | | | | |[] e| |]; try discriminate. destruct e as [| |t3 e3| | | | | | |]; try discriminate.
  destruct (ctype_eqb t t3); [|discriminate]. intro Q. injection Q as <-. split; [|split; reflexivity].
  unfold eok in E. cbn [every] in E. destruct E as ((_ & N) & _ & (_ & T3) & E). cbn in N.
  apply bin_ok; [|apply cast_lit_ok; [exact T3|exact E]|intros [X|X]; discriminate].
  apply cast_lit_ok; [exact T|]. repeat split. exact N.
Qed.

(** ** Lists *)

Lemma list_ok (f : expr -> lctx -> fin expr) l : Forall (fun e => forall c, eok false e -> cok c -> good_fin e (f e c)) l ->
  Forall (eok false) l -> forall c, cok c -> let '(l', c', r) := list_finish f l c in
  Forall (eok false) l' /\ cok c' /\ length l' = length l /\ fok r (Forall (eok true) l').
Proof.
  induction 1 as [|e l H HF IH]; intros O c C; cbn [list_finish]; [cbn; auto|]. inversion O as [|? ? O1 O2]; subst.
  specialize (H c O1 C). destruct (f e c) as [[e1 c1] r]. destruct H as (H1 & H2 & _ & _ & H3). destruct r; cbn [fbind];
    try (split; [now constructor|]; split; [exact H2|]; split; [reflexivity|exact H3]).
  specialize (IH O2 c1 H2). destruct (list_finish f l c1) as [[l2 c2] r]. destruct IH as (I1 & I2 & I3 & I4).
  split; [now constructor|]. split; [exact I2|]. split; [cbn; lia|]. destruct H3 as [H3 _]. destruct r; try exact I4. destruct I4 as [I4 I5]. split; [now constructor|exact I5].
Qed.

Definition noint (e : expr) : Prop := integer e = false.
Definition nonum (e : expr) : Prop := number e = false.
Lemma ord_ok w b : eok w (ELit (LString (SOrdinary b))).
Proof. repeat split. Qed.
Lemma existsb_forall (f : expr -> bool) l : existsb f l = false <-> Forall (fun e => f e = false) l.
Proof.
  induction l as [|e l IH]; cbn; [split; auto|]. rewrite orb_false_iff, IH. split; [intros [A B]; now constructor|intro F; inversion F; auto].
Qed.
Lemma push_ok (P : expr -> Prop) acc cur : (forall b, P (ELit (LString (SOrdinary b)))) -> Forall P acc -> Forall P (push_string acc cur).
Proof. intros O A. destruct cur; cbn; [|exact A]. apply Forall_app. split; [exact A|]. constructor; [apply O|constructor]. Qed.

Lemma concat_ok (f : expr -> lctx -> fin expr) l : Forall (fun e => forall c, eok false e -> cok c -> good_fin e (f e c)) l ->
  Forall (eok false) l -> forall done acc cur c, Forall (eok false) done -> Forall (eok true) acc -> cok c ->
  let '(self, names', c', r) := concat_finish f done l acc cur c in
  (exists done', self = EConcat done' /\ Forall (eok false) done' /\
     (Forall noint done -> Forall noint l -> Forall noint done') /\ (Forall nonum done -> Forall nonum l -> Forall nonum done')) /\
  cok c' /\
  fok r (Forall (eok true) names' /\ (Forall noint acc -> Forall noint l -> Forall noint names') /\ (Forall nonum acc -> Forall nonum l -> Forall nonum names')).
Proof.
  induction 1 as [|e l H HF IH]; intros O done acc cur c OD OA C; cbn [concat_finish].
  - split; [exists done; auto|]. split; [exact C|]. split; [|exact I]. split; [apply push_ok; [apply ord_ok|exact OA]|].
    split; intros; apply push_ok; auto; intro; reflexivity.
  - inversion O as [|? ? O1 O2]; subst. specialize (H c O1 C). destruct (f e c) as [[e1 c1] r]. destruct H as (H1 & H2 & H3 & H4 & H5).
    assert (SELF : exists done', EConcat (done ++ e1 :: l) = EConcat done' /\ Forall (eok false) done' /\
      (Forall noint done -> Forall noint (e :: l) -> Forall noint done') /\ (Forall nonum done -> Forall nonum (e :: l) -> Forall nonum done')).
    { exists (done ++ e1 :: l). split; [reflexivity|]. split; [apply Forall_app; split; [exact OD|now constructor]|].
      split; intros F1 F2; inversion F2; subst; apply Forall_app; (split; [assumption|constructor; [|assumption]]); unfold noint, nonum in *; auto. }
    destruct r; try (split; [exact SELF|split; [exact H2|exact H5]]).
    destruct H5 as [H5 _].
    assert (OD' : Forall (eok false) (done ++ [e1])) by (apply Forall_app; split; [exact OD|now constructor]).
    assert (STEP : forall acc' cur', Forall (eok true) acc' ->
      (Forall noint acc -> integer e = false -> Forall noint acc') -> (Forall nonum acc -> number e = false -> Forall nonum acc') ->
      let '(self, names', c', r) := concat_finish f (done ++ [e1]) l acc' cur' c1 in
      (exists done', self = EConcat done' /\ Forall (eok false) done' /\
         (Forall noint done -> Forall noint (e :: l) -> Forall noint done') /\ (Forall nonum done -> Forall nonum (e :: l) -> Forall nonum done')) /\
      cok c' /\
      fok r (Forall (eok true) names' /\ (Forall noint acc -> Forall noint (e :: l) -> Forall noint names') /\ (Forall nonum acc -> Forall nonum (e :: l) -> Forall nonum names'))).
    { intros acc' cur' A1 A2 A3. specialize (IH O2 (done ++ [e1]) acc' cur' c1 OD' A1 H2).
      destruct (concat_finish f (done ++ [e1]) l acc' cur' c1) as [[[self nm] c2] r]. destruct IH as ((done' & E & I1 & I2 & I3) & I4 & I5).
      split.
      - exists done'. split; [exact E|]. split; [exact I1|]. split; intros F1 F2; inversion F2; subst.
        + apply I2; [|assumption]. apply Forall_app; split; [assumption|]. constructor; [|constructor]. unfold noint in *. auto.
        + apply I3; [|assumption]. apply Forall_app; split; [assumption|]. constructor; [|constructor]. unfold nonum in *. auto.
      - split; [exact I4|]. destruct r; try exact I5. destruct I5 as [(J1 & J2 & J3) J4]. split; [|exact J4]. split; [exact J1|].
        split; intros F1 F2; inversion F2; subst; [apply J2|apply J3]; auto. }
    assert (PUSH : let '(self, names', c', r) := concat_finish f (done ++ [e1]) l (push_string acc cur ++ [e1]) None c1 in
      (exists done', self = EConcat done' /\ Forall (eok false) done' /\
         (Forall noint done -> Forall noint (e :: l) -> Forall noint done') /\ (Forall nonum done -> Forall nonum (e :: l) -> Forall nonum done')) /\
      cok c' /\
      fok r (Forall (eok true) names' /\ (Forall noint acc -> Forall noint (e :: l) -> Forall noint names') /\ (Forall nonum acc -> Forall nonum (e :: l) -> Forall nonum names'))).
    { apply STEP.
      - apply Forall_app. split; [apply push_ok; [apply ord_ok|exact OA]|now constructor].
      - intros F1 F2. apply Forall_app. split; [apply push_ok; [reflexivity|exact F1]|]. constructor; [|constructor]. unfold noint. auto.
      - intros F1 F2. apply Forall_app. split; [apply push_ok; [reflexivity|exact F1]|]. constructor; [|constructor]. unfold nonum. auto. }
    destruct e1 as [[i|s|lst]|n args|t0 e0|[x|s|fl|i]|a|lst|t0|op0 e0|a op0 b0|a b0 d]; try exact PUSH.
    + destruct (str_eqb s (st "__FILE__")); [exact PUSH|]. split; [exact SELF|]. split; [exact H2|exact I].
    + destruct (lit_string_as_bytes s); [|split; [exact SELF|split; [exact H2|exact I]]]. apply STEP; auto.
Qed.

(** ** Expressions *)

Lemma condition_ok f e c : good_fin e (f e c) -> let '(e', c', r) := condition_finish f e c in
  eok false e' /\ cok c' /\ fok r (eok true e').
Proof.
  unfold condition_finish. destruct (f e c) as [[e1 c1] r]. intros (G1 & G2 & _ & _ & G3). destruct r; cbn [fbind]; try (split; [exact G1|split; [exact G2|exact G3]]).
  destruct G3 as [G3 _].
  assert (X : eok true (EBinary e1 ONeq int_zero)) by (apply bin_ok; [exact G3|repeat split|intros [X|X]; discriminate]).
  destruct (oty_eqb t (ty_b BBool)); (split; [|split; [exact G2|split; [assumption|exact I]]]); [exact G1|now apply eok_weak].
Qed.

Theorem finish_ok n : forall e c, eok false e -> cok c -> good_fin e (finish cx n e c).
Proof.
  induction n as [n IHn] using lt_wf_ind.
  assert (AG : forall e c, eok false e -> cok c -> good_fin e (again_of cx n e c)).
  { intros e c E C. destruct n as [|n']; cbn [again_of]; [repeat split; auto; apply C|]. apply IHn; auto. }
  clear IHn.
  induction e as [v|v l IHl|t e IHe|l|a IHa|l IHl|t|op e IHe|a op b IHa IHb|a b d IHa IHb IHd] using expr_ind'; intros c E C;
    rewrite finish_eq; cbn [finish_step].
  - destruct E as [[E1 E2] E3]. pose proof (var_ok v c E2 C) as G. destruct (var_finish cx v c) as [c1 r]. destruct G as [G1 G2].
    assert (X : forall w, eok w (EVar v)) by (intro; repeat split; exact E2).
    split; [apply X|]. split; [exact G1|]. split; [auto|]. split; [auto|]. destruct r; cbn in *; auto. split; [apply X|tauto].
  - unfold eok in E. cbn [every] in E. destruct E as [[E1 E2] E3]. apply everys_forall in E3.
    assert (X : forall w l', Forall (eok w) l' -> eok w (ECall v l')).
    { intros w l' F. unfold eok. cbn [every]. split; [split; [exact I|exact E2]|]. now apply everys_forall. }
    destruct (lc_var c); [split; [now apply X|]; split; [exact C|]; split; [auto|]; split; [auto|exact I]|].
    pose proof (ident_ok v c E2 C) as G. destruct (ident_finish v c) as [c1 r]. destruct G as [G1 G2].
    destruct r; try (split; [now apply X|]; split; [exact G1|]; split; [auto|]; split; [auto|exact G2]).
    pose proof (list_ok (finish cx n) l IHl E3 c1 G1) as L. destruct (list_finish (finish cx n) l c1) as [[l2 c2] r]. destruct L as (L1 & L2 & _ & L3).
    destruct r; cbn [fbind]; try (split; [now apply X|]; split; [exact L2|]; split; [reflexivity|]; split; [reflexivity|exact L3]).
    pose proof (call_ok v l2 c2 L1 L2) as K. destruct (call_types cx v l2 c2) as [c3 r]. destruct K as [K1 K2]. destruct L3 as [L3 _].
    split; [now apply X|]. split; [exact K1|]. split; [reflexivity|]. split; [reflexivity|]. destruct r; cbn in *; auto. split; [now apply X|tauto].
  - unfold eok in E. cbn [every] in E. destruct E as [[_ E1] E2].
    pose proof (ty_ok t c E1 C) as T. destruct (ty_finish cx t c) as [[t1 c1] r1]. destruct T as (T1 & T2 & T3).
    assert (G : let '(e', c2, r2) := match r1 with FOk _ => finish cx n e c1 | _ => (e, c1, r1) end in
      eok false e' /\ cok c2 /\ fok r2 (eok true e')).
    { destruct r1; [|split; [exact E2|split; [exact T2|exact T3]]..]. specialize (IHe c1 E2 T2). destruct (finish cx n e c1) as [[e2 c2] r2].
      destruct IHe as (I1 & I2 & _ & _ & I3). auto. }
    destruct (match r1 with FOk _ => finish cx n e c1 | _ => (e, c1, r1) end) as [[e2 c2] r2]. destruct G as (G1 & G2 & G3).
    assert (X : forall r, fok r (eok true (ECast t1 e2)) -> good_fin (ECast t e) (ECast t1 e2, c2, r)).
    { intros r R. split; [now apply cast_lit_ok|]. split; [exact G2|]. split; [reflexivity|]. split; [reflexivity|exact R]. }
    assert (Y : forall b, eok false b -> integer b = false -> number b = false -> good_fin (ECast t e) (again_of cx n b c2)).
    { intros b B1 B2 B3. specialize (AG b c2 B1 G2). destruct (again_of cx n b c2) as [[b' c'] r]. destruct AG as (A1 & A2 & A3 & A4 & A5).
      split; [exact A1|]. split; [exact A2|]. split; [auto|]. split; [auto|exact A5]. }
    destruct r2 as [o|[]| |]; try (apply X; exact G3).
    + destruct G3 as [G3 G4]. destruct (cast_as_binary cx t1 e2) as [b|] eqn:B.
      * destruct (cast_binary_number _ _ _ B). apply Y; auto. eapply cast_binary_ok; eauto.
      * destruct (redundant_cast t1 e2) eqn:R; [|apply X; split; [now apply cast_lit_ok|exact T1]].
        destruct e2 as [| | |[|[]| |]| | | | | |]; try discriminate R. repeat split; auto; apply G2.
    + destruct (cast_of_deref t1 e2) as [b|] eqn:B; [|apply X; exact I].
      destruct (cast_deref_ok false _ _ _ T1 G1 B) as (B1 & B2 & B3). now apply Y.
  - destruct l as [x|s|f|i].
    + pose proof (char_ok x c C) as K. assert (X : forall w, eok w (ELit (LChar x))) by (intro; repeat split).
      destruct (char_finish cx x c) as [[t|]|e| |]; try contradiction; [|split; [apply X|]; split; [exact C|]; split; [auto|]; split; [auto|exact I]..].
      split; [apply cast_lit_ok; auto|]. split; [exact C|]. split; [reflexivity|]. split; [reflexivity|]. split; [apply cast_lit_ok; auto|exact K].
    + split; [exact E|]. split; [exact C|]. split; [auto|]. split; [auto|]. apply lit_ok; [discriminate|exact C].
    + split; [exact E|]. split; [exact C|]. split; [auto|]. split; [auto|]. apply lit_ok; [discriminate|exact C].
    + split; [exact E|]. split; [exact C|]. split; [auto|]. split; [auto|]. apply lit_ok; [discriminate|exact C].
  - pose proof E as E0. unfold eok in E. cbn [every] in E. destruct E as [[E1 _] E2].
    pose proof (stringify_ok a c E2 C) as G. destruct (stringify_finish a c) as [c1 r] eqn:Q. destruct G as [G1 G2].
    split; [exact E0|]. split; [exact G1|]. split; [auto|]. split; [auto|]. destruct r; cbn in *; auto. split; [|tauto].
    unfold eok. cbn [every]. split; [split; [exact E1|exact I]|].
    unfold stringify_finish in Q. destruct a as [[i|s|l]| | | | | | | | |]; try (injection Q as <- Q; discriminate); destruct E2 as [[_ E2] _]; repeat split; exact E2.
  - unfold eok in E. cbn [every] in E. destruct E as [_ E]. apply everys_forall in E.
    pose proof (concat_ok (finish cx n) l IHl E [] [] None c (Forall_nil _) (Forall_nil _) C) as G.
    destruct (concat_finish (finish cx n) [] l [] None c) as [[[self nm] c1] r]. destruct G as ((done & -> & G1 & G2 & G3) & G4 & G5).
    assert (X : forall w m, Forall (eok w) m -> eok w (EConcat m)).
    { intros w m F. unfold eok. cbn [every]. split; [split; exact I|]. now apply everys_forall. }
    assert (NI : forall m, Forall noint m <-> integer (EConcat m) = false) by (intro; cbn [integer]; symmetry; apply existsb_forall).
    assert (NN : forall m, Forall nonum m <-> number (EConcat m) = false) by (intro; cbn [number]; symmetry; apply existsb_forall).
    destruct r as [o|e| |]; [|destruct nm as [|x [|y nm]]; (split; [now apply X|]; split; [exact G4|]; split; [intro; apply NI, G2; [constructor|now apply NI]|]; split; [intro; apply NN, G3; [constructor|now apply NN]|exact G5])..].
    destruct G5 as [(G5 & G6 & G7) _].
    assert (Y : good_fin (EConcat l) (EConcat nm, c1, FOk (Some ty_const_char_ptr))).
    { split; [now apply eok_weak, X|]. split; [exact G4|]. split; [intro; apply NI, G6; [constructor|now apply NI]|]. split; [intro; apply NN, G7; [constructor|now apply NN]|].
      split; [now apply X|exact I]. }
    destruct nm as [|x [|y nm]]; try exact Y.
    assert (EX : eok false x) by (apply eok_weak; now inversion G5).
    specialize (AG x c1 EX G4). destruct (again_of cx n x c1) as [[x' c'] r]. destruct AG as (A1 & A2 & A3 & A4 & A5).
    split; [exact A1|]. split; [exact A2|]. split; [|split; [|exact A5]].
    + intro N. apply A3. apply NI in N. specialize (G6 (Forall_nil _) N). now inversion G6.
    + intro N. apply A4. apply NN in N. specialize (G7 (Forall_nil _) N). now inversion G7.
  - destruct E as [[_ E] _]. pose proof (ty_ok t c E C) as T. destruct (ty_finish cx t c) as [[t1 c1] r1]. destruct T as (T1 & T2 & T3).
    destruct r1; cbn [fbind]; repeat split; auto; apply T2.
  - unfold eok in E. cbn [every] in E. destruct E as [_ E]. specialize (IHe c E C). destruct (finish cx n e c) as [[e1 c1] r]. destruct IHe as (I1 & I2 & I3 & I4 & I5).
    assert (NI : integer (EUnary op e) = false -> integer (EUnary op e1) = false) by (destruct op; cbn; auto).
    assert (NN : number (EUnary op e) = false -> number (EUnary op e1) = false) by (destruct op; cbn; auto).
    assert (X : forall w, eok w e1 -> eok w (EUnary op e1)) by (intros; repeat split; assumption).
    destruct r; cbn [fbind]; try (split; [now apply X|]; split; [exact I2|]; split; [exact NI|]; split; [exact NN|exact I5]).
    destruct I5 as [I5 I6]. pose proof (unary_type_ok op c1 t I6) as T. destruct (unary_type op c1 t) as [t'| | |];
      try (split; [now apply X|]; split; [exact I2|]; split; [exact NI|]; split; [exact NN|exact T]).
    destruct T as [_ T]. pose proof (unary_fold_ok op e1 t' I5 T) as F. destruct (unary_fold op e1 t') as [e2 r]. destruct F as (F1 & F2 & F3 & F4).
    split; [now apply eok_weak|]. split; [exact I2|]. split; [auto|]. split; [auto|]. destruct r; cbn in *; auto. split; [exact F1|tauto].
  - apply bin_inv in E. destruct E as (EA & EB & ED).
    assert (NI : forall x y, (integer a = false -> integer x = false) -> (integer b = false -> integer y = false) ->
      integer (EBinary a op b) = false -> integer (EBinary x op y) = false).
    { intros x y X Y. rewrite !integer_bin. destruct (folds op); cbn; auto. rewrite !andb_false_iff. intros [N|N]; auto. }
    assert (NN : forall x y, (number a = false -> number x = false) -> (number b = false -> number y = false) ->
      number (EBinary a op b) = false -> number (EBinary x op y) = false).
    { intros x y X Y. rewrite !number_bin. destruct (folds op); cbn; auto. rewrite !andb_false_iff. intros [N|N]; auto. }
    specialize (IHa c EA C). destruct (finish cx n a c) as [[a1 c1] r1]. destruct IHa as (A1 & A2 & A3 & A4 & A5).
    destruct r1; cbn [fbind]; try (split; [now apply bin_ok|]; split; [exact A2|]; split; [apply NI; auto|]; split; [apply NN; auto|exact A5]).
    destruct A5 as [A5 A6].
    assert (DIV : op = ODiv \/ op = ORem -> divisor_ok (fst (fst (finish cx n b c1)))).
    { intro O. destruct (ED O) as [D|[(i & -> & N)|(tt & v & V & N)]].
      - specialize (IHb c1 EB A2). destruct (finish cx n b c1) as [[b1 c2] r2]. left. apply IHb. exact D.
      - rewrite finish_eq. right. left. exists i. auto.
      - destruct (fold_value cx n c1 b tt v V) as (s & ty & F & _). rewrite F. right. left. eexists. split; [reflexivity|exact N]. }
    specialize (IHb c1 EB A2). destruct (finish cx n b c1) as [[b1 c2] r2]. cbn [fst] in DIV. destruct IHb as (B1 & B2 & B3 & B4 & B5).
    destruct r2; cbn [fbind]; try (split; [apply bin_ok; auto|]; split; [exact B2|]; split; [apply NI; auto|]; split; [apply NN; auto|exact B5]).
    destruct B5 as [B5 B6].
    pose proof (binary_types_ok a1 op b1 t t0 c2 A5 B5 DIV A6 B6 B2) as T.
    destruct (binary_types cx a1 op b1 t t0 c2) as [[[a2 b2] c3] r3]. destruct T as (T1 & T2 & T3 & T4 & T5 & T6 & T7).
    assert (NI2 : integer (EBinary a op b) = false -> integer (EBinary a2 op b2) = false) by (intro; apply T5, NI; auto).
    assert (NN2 : number (EBinary a op b) = false -> number (EBinary a2 op b2) = false) by (intro; apply T6, NN; auto).
    destruct r3; cbn [fbind fst snd]; try (split; [apply eok_weak, bin_ok; auto|]; split; [exact T4|]; split; [exact NI2|]; split; [exact NN2|exact T7]).
    destruct T7 as [_ T7]. pose proof (binary_fold_ok a2 op b2 t1 c3 T1 T2 T3 T7 T4) as F. destruct (binary_fold cx a2 op b2 t1 c3) as [e' r]. destruct F as (F1 & F2 & F3 & F4).
    split; [now apply eok_weak|]. split; [exact T4|]. split; [auto|]. split; [auto|]. destruct r; cbn in *; auto. split; [exact F1|tauto].
  - unfold eok in E. cbn [every] in E. destruct E as (_ & EA & EB & ED).
    assert (X : forall w x y z, eok w x -> eok w y -> eok w z -> eok w (ETernary x y z)) by (intros; repeat split; assumption).
    pose proof (condition_ok (finish cx n) a c (IHa c EA C)) as K. destruct (condition_finish (finish cx n) a c) as [[a1 c1] r1]. destruct K as (K1 & K2 & K3).
    destruct r1; cbn [fbind]; try (split; [now apply X|]; split; [exact K2|]; split; [reflexivity|]; split; [reflexivity|exact K3]).
    destruct K3 as [K3 _]. specialize (IHb c1 EB K2). destruct (finish cx n b c1) as [[b1 c2] r2]. destruct IHb as (B1 & B2 & _ & _ & B5).
    destruct r2; cbn [fbind]; try (split; [now apply X|]; split; [exact B2|]; split; [reflexivity|]; split; [reflexivity|exact B5]).
    destruct B5 as [B5 B6]. specialize (IHd c2 ED B2). destruct (finish cx n d c2) as [[d1 c3] r3]. destruct IHd as (D1 & D2 & _ & _ & D5).
    destruct r3; cbn [fbind]; try (split; [now apply X|]; split; [exact D2|]; split; [reflexivity|]; split; [reflexivity|exact D5]).
    destruct D5 as [D5 D6]. split; [now apply X|]. split; [exact D2|]. split; [reflexivity|]. split; [reflexivity|]. split; [now apply X|now apply join_ok].
Qed.
Theorem expr_finish_ok e c : eok false e -> cok c -> good_fin e (expr_finish cx e c).
Proof. intros. now apply finish_ok. Qed.
End S.
