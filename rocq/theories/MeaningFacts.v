(** C63: inference rewrites expressions only by steps that keep their meaning. *)
From Verif Require Import Base Utf Lex LexFloat Token Ast Nom ParseTok ParseExpr ParseStmt Rust Finish StrFacts FinishFacts SpecFold SpecMeaning PropFold.
From Coq Require Import String List ZArith SpecFloat Lia Wf_nat.
Import ListNotations.
Local Open Scope string_scope.
Local Open Scope list_scope.

(** ** Constants *)

Lemma stored_wrap w : stored w (wrap w).
Proof.
  unfold stored, wrap. split; [intros R; rewrite Z.mod_small; lia|].
  exists (- ((w + 2 ^ 127) / 2 ^ 128))%Z. pose proof (Z.div_mod (w + 2 ^ 127) (2 ^ 128) ltac:(lia)). lia.
Qed.
Lemma shift_in b : (0 <= b < 128)%Z -> shift_count b = b.
Proof. intros R. unfold shift_count. rewrite Z.min_l by lia. rewrite (Z.mod_small b (2 ^ 32)) by lia. apply Z.mod_small. lia. Qed.
Lemma quot_rem a b : b <> 0%Z -> (a = b * Z.quot a b + Z.rem a b /\ Z.abs (Z.rem a b) < Z.abs b /\ (Z.rem a b = 0 \/ Z.sgn (Z.rem a b) = Z.sgn a))%Z.
Proof.
  intros N. split; [apply Z.quot_rem'|]. split; [now apply Z.rem_bound_abs|].
  destruct (Z.eq_dec (Z.rem a b) 0) as [|X]; [now left|right]. now apply Z.rem_sign_nz.
Qed.
Lemma int_op_result op a b v : int_op op a b = Some v -> int_result op a b v.
Proof.
  assert (S : op = OShl \/ op = OShr -> int_op op a b = Some v -> int_result op a b v).
  { intros Ho E. destruct (Z_le_dec 0 b) as [B1|B1]; [|apply ir_far; [exact Ho|lia]].
    destruct (Z_lt_dec b 128) as [B2|B2]; [|apply ir_far; [exact Ho|lia]].
    destruct Ho as [-> | ->]; cbn [int_op] in E; rewrite shift_in in E by lia; injection E as <-.
    - apply ir_shl; [lia|apply stored_wrap].
    - apply ir_shr; [lia|]. pose proof (Z.div_mod a (2 ^ b) ltac:(lia)). pose proof (Z.mod_pos_bound a (2 ^ b) ltac:(lia)). lia. }
  destruct op; try discriminate; try (apply S; solve [auto]); intros E; cbn [int_op] in E.
  - injection E as <-. apply ir_mul, stored_wrap.
  - destruct (Z.eqb_spec b 0) as [|N]; [discriminate|]. injection E as <-. destruct (quot_rem a b N) as (H1 & H2 & H3).
    eapply ir_div; [exact N|exact H1|exact H2|exact H3|apply stored_wrap].
  - destruct (Z.eqb_spec b 0) as [|N]; [discriminate|]. injection E as <-. destruct (quot_rem a b N) as (H1 & H2 & H3).
    eapply ir_rem; [exact N|exact H1|exact H2|exact H3].
  - injection E as <-. apply ir_add, stored_wrap.
  - injection E as <-. apply ir_sub, stored_wrap.
  - injection E as <-. apply ir_and. intros. apply Z.land_spec.
  - injection E as <-. apply ir_xor. intros. apply Z.lxor_spec.
  - injection E as <-. apply ir_or. intros. apply Z.lor_spec.
Qed.
Lemma join_kept s t : kept_suffix s t (join_suffix s t).
Proof.
  destruct s as [x|], t as [y|]; cbn [join_suffix]; try constructor.
  destruct (builtin_eq_dec x y) as [-> | N]; [apply ks_same|now apply ks_clash].
Qed.
Lemma neg_signed s : signed_suffix s (neg_suffix s).
Proof.
  destruct s as [b|]; [|constructor].
  assert (O : forall b, (forall u i, In (u, i) ranks -> b <> u /\ b <> i) -> signed_suffix (Some b) None) by (intros; now constructor).
  destruct b; cbn [neg_suffix];
    try (apply O; intros u i Hi; cbn in Hi; repeat (destruct Hi as [E|Hi]; [injection E as <- <-; split; discriminate|]); contradiction);
    first [ eapply (ss_rank BUChar BSChar); [cbn; tauto|tauto] | eapply (ss_rank BUInt BInt); [cbn; tauto|tauto]
          | eapply (ss_rank BULong BLong); [cbn; tauto|tauto] | eapply (ss_rank BULongLong BLongLong); [cbn; tauto|tauto] ].
Qed.
Lemma float_op_result op f a b : float_op op = Some f -> float_result op a b (float_arith f a b).
Proof.
  intros E. assert (I : ieee op = Some f) by (destruct op; try discriminate E; exact E).
  destruct a as [x|x|x], b as [y|y|y]; cbn [float_arith];
    try (exact (fr_single op f x y I));
    match goal with |- float_result op ?a ?b _ => refine (fr_double op f a b I _); cbn; tauto end.
Qed.
Lemma zero_float_spec f : float_is_zero f = true <-> zero_float f.
Proof.
  assert (Z0 : forall x, SFeqb x (S754_zero false) = true <-> exists s, x = S754_zero s).
  { intros [s|s| |s m e]; split; try discriminate; try (intros [s' E]; discriminate E); eauto; destruct s; try discriminate; now intros. }
  unfold zero_float. destruct f as [x|x|x]; cbn [float_is_zero]; rewrite Z0; split;
    intros [s Hs]; try (exists s; subst; tauto); exists s; destruct Hs as [E|[E|E]]; congruence.
Qed.

Section F.
Context {U : Unicode}.
Variable cx : cgctx.
Variable A : expr -> expr -> Prop.
Variable Q : expr -> Prop.
Hypothesis closed : closed_context cx.
Hypothesis HA : forall x y, approximation cx x y -> Q x -> A x y.
Hypothesis HQ : forall x y, means cx A x y -> Q x -> Q y.
Hypothesis Qcall : forall n l, Q (ECall n l) -> Forall Q l.
Hypothesis Qcast : forall t e, Q (ECast t e) -> Q e.
Hypothesis Qconcat : forall l, Q (EConcat l) -> Forall Q l.
Hypothesis Qunary : forall op e, Q (EUnary op e) -> Q e.
Hypothesis Qbinary : forall a op b, Q (EBinary a op b) -> Q a /\ Q b.
Hypothesis Qternary : forall a b d, Q (ETernary a b d) -> Q a /\ Q b /\ Q d.
Notation means := (means cx A).
Arguments me_trans {cx approx a}.

Lemma ty_finish_means t : forall c t' c' f, ty_finish cx t c = (t', c', f) -> type_means cx t t'.
Proof.
  induction t as [b|n s|col p|t IH|t IH q]; intros c t' c' f; cbn [ty_finish].
  - intros E; injection E as <- <- <-. apply tm_refl.
  - destruct (ident_finish n c) as [c1 r]. destruct r; try (intros E; injection E as <- <- <-; apply tm_refl).
    destruct n as [i|id|l]; try (intros E; injection E as <- <- <-; apply tm_refl).
    destruct (cx_ty cx id) as [r|] eqn:R; [|intros E; injection E as <- <- <-; apply tm_refl].
    destruct (from_rust_ty (cx_ffi cx) r) as [t1|er| |] eqn:F; intros E; injection E as <- <- <-; try apply tm_refl.
    eapply tm_name; eauto.
  - intros E; injection E as <- <- <-. apply tm_refl.
  - destruct (ty_finish cx t c) as [[t1 c1] r] eqn:E1. intros E; injection E as <- <- <-. apply tm_ptr. eapply IH; eauto.
  - destruct (ty_finish cx t c) as [[t1 c1] r] eqn:E1. intros E; injection E as <- <- <-. apply tm_qual. eapply IH; eauto.
Qed.
Lemma char_means x c t : char_finish cx x c = FOk (Some t) -> char_type cx x t.
Proof.
  destruct x; cbn [char_finish]; try (intros E; injection E as <-; constructor).
  unfold wchar_finish. cbn [ty_finish ident_finish]. destruct (cx_ty cx (st "wchar_t")) as [r|] eqn:R; [|discriminate].
  destruct (from_rust_ty (cx_ffi cx) r) as [t1|er| |] eqn:F; try discriminate. intros E; injection E as <-. econstructor; eauto.
Qed.

Lemma not_type id : cx_ty cx id = None -> not_a_type cx (IPlain id).
Proof. intros N. split; [exact N|]. intros G. now apply (closed id). Qed.
Lemma cast_as_binary_means t e b : cast_as_binary cx t e = Some b -> means (ECast t e) b.
Proof.
  destruct e as [| | | | | | |op e0| |]; try discriminate. destruct t as [|n s| | |]; try discriminate. destruct s; [discriminate|].
  cbn [cast_as_binary].
  assert (G : not_a_type cx n -> match op with
      | UPlus => Some (EBinary (EVar n) OAdd e0)
      | UMinus => Some (EBinary (EVar n) OSub e0)
      | UDeref => Some (EBinary (EVar n) OMul e0)
      | UAddrOf => Some (EBinary (EVar n) OBitAnd e0)
      | _ => None
      end = Some b -> means (ECast (TyIdent n false) (EUnary op e0)) b).
  { intros N E. destruct op; try discriminate E; injection E as <-; (apply me_operation; [exact N|constructor]). }
  destruct n as [i|id|l]; try (apply G; exact I).
  destruct (cx_ty cx id) eqn:R; [discriminate|]. apply G. now apply not_type.
Qed.
Lemma ctype_eqb_true a b : ctype_eqb a b = true -> a = b.
Proof. unfold ctype_eqb. destruct (ctype_eq_dec a b); [easy|discriminate]. Qed.
Lemma cast_of_deref_means t e b : cast_of_deref t e = Some b -> Q (ECast t e) -> means (ECast t e) b.
Proof.
  destruct e as [| |t1 e1| | | | | | |]; try discriminate. destruct t1 as [|n s| | |]; try discriminate. destruct s; [discriminate|].
  destruct e1 as [| | | | | | |op e0| |]; try discriminate. destruct op; try discriminate. destruct e0 as [| |t3 e3| | | | | | |]; try discriminate.
  cbn [cast_of_deref]. destruct (ctype_eqb t t3) eqn:E; [|discriminate]. apply ctype_eqb_true in E. subst t3. intros E Hq; injection E as <-.
  destruct n as [i|id|l]; try (apply me_product; exact I).
  destruct (cx_ty cx id) eqn:R.
  - apply me_approx, HA; [|exact Hq]. apply ap_product. congruence.
  - apply me_product. now apply not_type.
Qed.
Lemma redundant_means t e : redundant_cast t e = true -> means (ECast t e) e.
Proof.
  destruct e as [| | |l| | | | | |]; try discriminate. destruct l as [|s| |]; try discriminate. destruct s; try discriminate.
  destruct t as [| | | |t q]; try discriminate. destruct t as [| | |t|]; try discriminate. destruct t as [b0| | | |]; try discriminate.
  destruct b0; try discriminate. intros E. apply me_same. destruct q; try discriminate; tauto.
Qed.

Lemma unary_fold_means op e t e' f : (op = UNot -> t = ty_b BBool) -> unary_fold op e t = (e', f) -> means (EUnary op e) e'.
Proof.
  intros B.
  assert (D : (EUnary op e, FOk t) = (e', f) -> means (EUnary op e) e') by (intros E; injection E as <- <-; apply me_refl).
  destruct op; try (apply D); cbn [unary_fold].
  - destruct e as [| | |[]| | | | | |]; try (apply D); intros E; injection E as <- <-; [apply me_plus_float|apply me_plus_int].
  - destruct e as [| | |[| | |[v s]]| | | | | |]; try (apply D); intros E; injection E as <- <-; [apply me_minus_float|].
    apply me_minus_int; [apply stored_wrap|apply neg_signed].
  - destruct e as [| | |[| |x|[v [s|]]]| | | | | |]; try (rewrite (B eq_refl); intros E; injection E as <- <-; apply me_refl); intros E; injection E as <- <-.
    + destruct (float_is_zero x) eqn:X; [apply me_not_zero_float; now apply zero_float_spec|apply me_not_float].
      intros Y. apply zero_float_spec in Y. congruence.
    + destruct (Z.eqb_spec v 0); [now apply me_not_zero|now apply me_not_int].
  - destruct e as [| | |[]| | | | | |]; try (apply D); intros E; injection E as <- <-; apply me_refl.
Qed.

Lemma max_limit e t : max_ty_cast e = Some t -> exists s b, In (s, b) limits /\ e = EVar (IPlain (st s)) /\ t = TyBuiltIn b.
Proof.
  destruct e as [n| | | | | | | | |]; try discriminate. destruct n as [|n|]; try discriminate. cbn [max_ty_cast rust_name].
  repeat (match goal with |- context [str_eqb n ?x] => destruct (str_eqb_spec n x) as [-> |] end;
    [intros E; injection E as <-; eexists _, _; split; [|split; reflexivity]; cbn; tauto|]).
  discriminate.
Qed.
Lemma binary_types_means l op r lt rt c x c' f : binary_types cx l op r lt rt c = (x, c', f) -> Q (EBinary l op r) ->
  means (EBinary l op r) (EBinary (fst x) op (snd x)).
Proof.
  unfold binary_types. destruct (match op, r with OMember, EVar (IArg i) => set_arg_type c i AIdent | _, _ => Some c end) as [c1|].
  2:{ intros E _; injection E as <- <- <-. apply me_refl. }
  intros E Hq. revert E.
  set (q := match l with EVar _ => _ | _ => _ end).
  assert (G : means (EBinary l op r) (EBinary (fst (fst (fst q))) op (snd (fst (fst q))))).
  { assert (R : means (EBinary l op r) (EBinary l op r)) by apply me_refl.
    assert (Gl : forall i, r = ELit (LInt i) -> let q' := (if mul_or_add op then
          match max_ty_cast l with Some t => (ECast t l, r, Some t, rt) | None => (l, r, lt, rt) end
        else (l, r, lt, rt)) in means (EBinary l op r) (EBinary (fst (fst (fst q'))) op (snd (fst (fst q'))))).
    { intros i -> q'. unfold q'. destruct (mul_or_add op) eqn:M; [|exact R]. destruct (max_ty_cast l) as [t|] eqn:X; [|exact R].
      destruct (max_limit _ _ X) as (s & b & Hi & -> & ->). cbn [fst snd]. apply me_approx, HA; [|exact Hq]. apply ap_limit_left; [exact Hi|].
      destruct op; try discriminate M; tauto. }
    assert (Gr : forall i, l = ELit (LInt i) -> let q' := (if mul_or_add op then
          match max_ty_cast r with Some t => (l, ECast t r, lt, Some t) | None => (l, r, lt, rt) end
        else (l, r, lt, rt)) in means (EBinary l op r) (EBinary (fst (fst (fst q'))) op (snd (fst (fst q'))))).
    { intros i -> q'. unfold q'. destruct (mul_or_add op) eqn:M; [|exact R]. destruct (max_ty_cast r) as [t|] eqn:X; [|exact R].
      destruct (max_limit _ _ X) as (s & b & Hi & -> & ->). cbn [fst snd]. apply me_approx, HA; [|exact Hq]. apply ap_limit_right; [exact Hi|].
      destruct op; try discriminate M; tauto. }
    subst q.
    destruct l as [| | |[| |fl|[vl [sl|]]]| | | | | |]; destruct r as [| | |[| |fr|[vr [sr|]]]| | | | | |];
      first [ exact R | exact (Gl _ eq_refl) | exact (Gr _ eq_refl)
            | apply me_approx, HA; [apply ap_left|exact Hq] | apply me_approx, HA; [apply ap_right|exact Hq] ]. }
  clearbody q. destruct q as [[[l1 r1] lt1] rt1]. intros E. injection E as <- _ _. exact G.
Qed.
Lemma binary_fold_means l op r t c e' f : binary_fold cx l op r t c = (e', f) -> means (EBinary l op r) e'.
Proof.
  unfold binary_fold. set (other := (EBinary l op r, FOk (if is_comparison op then ty_b BBool else t))).
  assert (D : other = (e', f) -> means (EBinary l op r) e') by (intros E; injection E as <- <-; apply me_refl).
  clearbody other.
  destruct l as [| | |[| |fl|[vl sl]]| | | | | |]; try exact D; destruct r as [| | |[| |fr|[vr sr]]| | | | | |]; try exact D.
  - destruct (float_op op) as [g|] eqn:O; [|exact D]. intros E; injection E as <- _. apply me_floats. now apply float_op_result.
  - destruct (int_folds op) eqn:O; [|exact D]. cbn [int_value int_suffix]. destruct (int_op op vl vr) as [v|] eqn:V.
    + intros E; injection E as <- _. apply me_ints; [now apply int_op_result|apply join_kept].
    + intros E; injection E as <- _. apply me_refl.
Qed.

(** ** Lists *)

Lemma call_means n l l' : Forall2 means l l' -> means (ECall n l) (ECall n l').
Proof.
  intros F. enough (G : forall p, means (ECall n (p ++ l)) (ECall n (p ++ l'))) by exact (G []).
  induction F as [|x y l l' Hx F IH]; intros p; [apply me_refl|].
  apply (me_trans (ECall n (p ++ y :: l))); [now apply me_call|]. replace (p ++ y :: l) with ((p ++ [y]) ++ l) by now rewrite <- app_assoc.
  replace (p ++ y :: l') with ((p ++ [y]) ++ l') by now rewrite <- app_assoc. apply IH.
Qed.
Lemma pieces_means l l' : Forall2 means l l' -> means (EConcat l) (EConcat l').
Proof.
  intros F. enough (G : forall p, means (EConcat (p ++ l)) (EConcat (p ++ l'))) by exact (G []).
  induction F as [|x y l l' Hx F IH]; intros p; [apply me_refl|].
  apply (me_trans (EConcat (p ++ y :: l))); [now apply me_piece|]. replace (p ++ y :: l) with ((p ++ [y]) ++ l) by now rewrite <- app_assoc.
  replace (p ++ y :: l') with ((p ++ [y]) ++ l') by now rewrite <- app_assoc. apply IH.
Qed.
Lemma all_refl l : Forall2 means l l.
Proof. induction l; constructor; auto. apply me_refl. Qed.

Definition keeps (go : expr -> lctx -> fin expr) (e : expr) : Prop := forall c e' c' f, go e c = (e', c', f) -> Q e -> means e e'.
Lemma list_means go l : Forall (keeps go) l -> forall c l' c' f, list_finish go l c = (l', c', f) -> Forall Q l -> Forall2 means l l'.
Proof.
  induction 1 as [|x l Hx F IH]; intros c l' c' f; cbn [list_finish].
  - intros E _; injection E as <- <- <-. constructor.
  - destruct (go x c) as [[x1 c1] r1] eqn:G. unfold fbind. intros E HQs. apply Forall_cons_iff in HQs as [Q1 Q2]. apply (fun g => Hx _ _ _ _ g Q1) in G.
    destruct r1; try (injection E as <- <- <-; constructor; [exact G|apply all_refl]).
    destruct (list_finish go l c1) as [[l2 c2] r2] eqn:L. injection E as <- <- <-. constructor; [exact G|]. eapply IH; eauto.
Qed.

(** ** Strings *)

Definition unprefixed (e : expr) : expr :=
  match e with ELit (LString (SUtf16 s | SUtf32 s)) => ELit (LString (SUtf8 s)) | _ => e end.
Lemma unprefixed_means l : forall p, Q (EConcat (p ++ l)) -> means (EConcat (p ++ l)) (EConcat (p ++ map unprefixed l)).
Proof.
  induction l as [|x l IH]; intros p Hq; [apply me_refl|].
  assert (S : means (EConcat (p ++ x :: l)) (EConcat (p ++ unprefixed x :: l))).
  { destruct x as [| | |[|[]| |]| | | | | |]; try apply me_refl; (apply me_approx, HA; [apply ap_prefix; tauto|exact Hq]). }
  apply (me_trans _ _ S). apply HQ in S; [|exact Hq]. cbn [map].
  replace (p ++ unprefixed x :: l) with ((p ++ [unprefixed x]) ++ l) in * by now rewrite <- app_assoc.
  replace (p ++ unprefixed x :: map unprefixed l) with ((p ++ [unprefixed x]) ++ map unprefixed l) by now rewrite <- app_assoc.
  now apply IH.
Qed.
Lemma content_app a b : content (a ++ b) = content a ++ content b.
Proof. unfold content. now rewrite map_app, concat_app. Qed.
Lemma content_cons x l : content (x :: l) = piece x ++ content l.
Proof. reflexivity. Qed.
Lemma content_push acc cur : content (push_string acc cur) = content acc ++ match cur with Some b => map inl b | None => [] end.
Proof. destruct cur as [b|]; cbn [push_string]; [|now rewrite app_nil_r]. rewrite content_app. unfold content at 2. cbn. now rewrite app_nil_r. Qed.
Lemma concat_means go l : Forall (keeps go) l ->
  forall done acc cur c self names c' f, concat_finish go done l acc cur c = (self, names, c', f) -> Forall Q l ->
  exists l', Forall2 means l l' /\ self = EConcat (done ++ l') /\
    (forall t, f = FOk t -> content names = content acc ++ match cur with Some b => map inl b | None => [] end ++ content (map unprefixed l')).
Proof.
  induction 1 as [|x l Hx F IH]; intros done acc cur c self names c' f; cbn [concat_finish].
  - intros E _; injection E as <- <- <- <-. exists []. rewrite app_nil_r. split; [constructor|]. split; [reflexivity|]. intros _ _.
    rewrite content_push. cbn. now rewrite app_nil_r.
  - destruct (go x c) as [[x1 c1] r1] eqn:G. intros E HQs. apply Forall_cons_iff in HQs as [Q1 Q2]. apply (fun g => Hx _ _ _ _ g Q1) in G.
    assert (Stop : forall n0 c0 f0, (forall t, f0 <> FOk t) -> (EConcat (done ++ x1 :: l), n0, c0, f0) = (self, names, c', f) -> exists l', Forall2 means (x :: l) l' /\ self = EConcat (done ++ l') /\
      (forall t, f = FOk t -> content names = content acc ++ match cur with Some b => map inl b | None => [] end ++ content (map unprefixed l'))).
    { intros n0 c0 f0 N E0. injection E0 as <- <- <- <-. exists (x1 :: l). split; [constructor; [exact G|apply all_refl]|]. split; [reflexivity|].
      intros t Ht. now apply N in Ht. }
    destruct r1; try (eapply Stop; [|exact E]; discriminate).
    assert (Other : unprefixed x1 = x1 -> piece x1 = [inr x1] -> concat_finish go (done ++ [x1]) l (push_string acc cur ++ [x1]) None c1 = (self, names, c', f) ->
      exists l', Forall2 means (x :: l) l' /\ self = EConcat (done ++ l') /\
      (forall t, f = FOk t -> content names = content acc ++ match cur with Some b => map inl b | None => [] end ++ content (map unprefixed l'))).
    { intros Hu Hp E0. destruct (IH _ _ _ _ _ _ _ _ E0 Q2) as (l' & F2 & -> & Hc). exists (x1 :: l'). split; [constructor; auto|].
      split; [now rewrite <- app_assoc|]. intros t0 Ht. rewrite (Hc t0 Ht). rewrite content_app, content_push. cbn [map]. rewrite Hu.
      rewrite !content_cons, Hp. change (content []) with (@nil (N + expr)). rewrite app_nil_r, <- !app_assoc. reflexivity. }
    assert (Str : forall b, piece (unprefixed x1) = map inl b -> 
      concat_finish go (done ++ [x1]) l acc (Some (match cur with Some a => a ++ b | None => b end)) c1 = (self, names, c', f) ->
      exists l', Forall2 means (x :: l) l' /\ self = EConcat (done ++ l') /\
      (forall t, f = FOk t -> content names = content acc ++ match cur with Some b => map inl b | None => [] end ++ content (map unprefixed l'))).
    { intros b Hp E0. destruct (IH _ _ _ _ _ _ _ _ E0 Q2) as (l' & F2 & -> & Hc). exists (x1 :: l'). split; [constructor; auto|].
      split; [now rewrite <- app_assoc|]. intros t0 Ht. rewrite (Hc t0 Ht). cbn [map].
      rewrite content_cons, Hp. destruct cur; [rewrite map_app, <- app_assoc|]; reflexivity. }
    clear IH. destruct x1 as [[i|id|il]| | |[|s| |]| | | | | |]; try (apply Other; [reflexivity|reflexivity|exact E]).
    + destruct (str_eqb id (st "__FILE__")); [apply Other; [reflexivity|reflexivity|exact E]|eapply Stop; [|exact E]; discriminate].
    + destruct s as [b|s|s|s|s]; cbn [lit_string_as_bytes] in E; try (eapply Str; [|exact E]; reflexivity).
      eapply Stop; [|exact E]; discriminate.
Qed.

(** ** Expressions *)

Theorem finish_means n : forall e c e' c' f, finish cx n e c = (e', c', f) -> Q e -> means e e'.
Proof.
  induction n as [n IHn] using lt_wf_ind.
  assert (AG : forall e c e' c' f, again_of cx n e c = (e', c', f) -> Q e -> means e e').
  { intros e c e' c' f. destruct n as [|n']; [intro E; injection E as <- <- <-; intros; apply me_refl | apply IHn; lia]. }
  clear IHn.
  induction e as [v|v l IHl|t e IHe|l|a IHa|l IHl|t|op e IHe|a op b IHa IHb|a b d IHa IHb IHd] using expr_ind'; intros c e' c' f;
    rewrite finish_eq; cbn [finish_step].
  - destruct (var_finish cx v c) as [c1 r]. intros E _; injection E as <- <- <-. apply me_refl.
  - intros E Hq. destruct (lc_var c); [injection E as <- <- <-; apply me_refl|].
    destruct (ident_finish v c) as [c1 r]. destruct r; try (injection E as <- <- <-; apply me_refl).
    destruct (list_finish (finish cx n) l c1) as [[l2 c2] r2] eqn:L. apply (list_means _ _ IHl) in L; [|eapply Qcall; exact Hq].
    apply call_means with (n := v) in L. unfold fbind in E. destruct r2; try (injection E as <- <- <-; exact L).
    destruct (call_types cx v l2 c2) as [c3 r3]. injection E as <- <- <-. exact L.
  - intros E Hq. destruct (ty_finish cx t c) as [[t1 c1] r1] eqn:T. apply ty_finish_means in T.
    destruct (match r1 with FOk _ => finish cx n e c1 | _ => (e, c1, r1) end) as [[e2 c2] r2] eqn:X.
    assert (M : means (ECast t e) (ECast t1 e2)).
    { apply (me_trans (ECast t1 e)); [now apply me_type|]. apply me_cast. destruct r1; try (injection X as <- <- <-; apply me_refl).
      eapply IHe; [exact X|]. eapply Qcast; exact Hq. }
    pose proof (HQ _ _ M Hq) as Hq1. apply (me_trans _ _ M).
    destruct r2 as [o|[x| | |x|x]| |]; try (injection E as <- <- <-; apply me_refl).
    + destruct (cast_as_binary cx t1 e2) as [b|] eqn:B.
      * apply cast_as_binary_means in B. apply (me_trans _ _ B). eapply AG; [exact E|]. eapply HQ; eauto.
      * destruct (redundant_cast t1 e2) eqn:R; injection E as <- <- <-; [now apply redundant_means|apply me_refl].
    + destruct (cast_of_deref t1 e2) as [b|] eqn:B; [|injection E as <- <- <-; apply me_refl].
      apply cast_of_deref_means in B; [|exact Hq1]. apply (me_trans _ _ B). eapply AG; [exact E|]. eapply HQ; eauto.
  - intros E _. destruct l as [x|x|x|x]; try (injection E as <- <- <-; apply me_refl).
    destruct (char_finish cx x c) as [[t|]| | |] eqn:C; injection E as <- <- <-; try apply me_refl. apply me_char. eapply char_means; eauto.
  - destruct (stringify_finish a c) as [c1 r]. intros E _; injection E as <- <- <-. apply me_refl.
  - intros E Hq. destruct (concat_finish (finish cx n) [] l [] None c) as [[[self names] c1] r] eqn:X.
    apply (concat_means _ _ IHl) in X; [|now apply Qconcat]. destruct X as (l' & F & -> & Hc). apply pieces_means in F.
    destruct r; try (destruct names as [|x1 [|x2 names]]; injection E as <- <- <-; exact F).
    assert (J : means (EConcat l) (EConcat names)).
    { apply (me_trans _ _ F). apply (me_trans (EConcat (map unprefixed l'))); [apply (unprefixed_means l' []); eapply HQ; eauto|].
      apply me_join. rewrite (Hc _ eq_refl). reflexivity. }
    destruct names as [|x1 [|x2 names]]; try (injection E as <- <- <-; exact J).
    assert (J1 : means (EConcat l) x1) by (apply (me_trans _ _ J); apply me_alone).
    apply (me_trans _ _ J1). eapply AG; [exact E|]. eapply HQ; eauto.
  - destruct (ty_finish cx t c) as [[t1 c1] r1] eqn:T. apply ty_finish_means in T.
    unfold fbind. destruct r1; intros E _; injection E as <- <- <-; now apply me_sizeof.
  - intros E Hq. destruct (finish cx n e c) as [[e1 c1] r1] eqn:F. apply IHe in F; [|eapply Qunary; exact Hq]. apply me_unary with (op := op) in F.
    unfold fbind in E. destruct r1; try (injection E as <- <- <-; exact F).
    destruct (unary_type op c1 t) as [t0| | |] eqn:Ty; try (injection E as <- <- <-; exact F).
    destruct (unary_fold op e1 t0) as [e2 r2] eqn:X. injection E as <- <- <-. apply (me_trans _ _ F). eapply unary_fold_means; [|exact X].
    intros ->. cbn in Ty. now injection Ty as <-.
  - intros E Hq. pose proof (Qbinary _ _ _ Hq) as [Qa Qb].
    destruct (finish cx n a c) as [[a1 c1] r1] eqn:F1. apply IHa in F1; [|exact Qa]. unfold fbind in E.
    assert (M1 : means (EBinary a op b) (EBinary a1 op b)) by now apply me_left.
    destruct r1; try (injection E as <- <- <-; exact M1).
    destruct (finish cx n b c1) as [[b1 c2] r2] eqn:F2. apply IHb in F2; [|exact Qb].
    assert (M2 : means (EBinary a op b) (EBinary a1 op b1)) by (apply (me_trans _ _ M1); now apply me_right).
    destruct r2; try (injection E as <- <- <-; exact M2).
    destruct (binary_types cx a1 op b1 t t0 c2) as [[x c3] r3] eqn:T. apply binary_types_means in T; [|eapply HQ; eauto].
    assert (M3 : means (EBinary a op b) (EBinary (fst x) op (snd x))) by exact (me_trans _ _ M2 T).
    destruct r3; try (injection E as <- <- <-; exact M3).
    destruct (binary_fold cx _ op _ t1 c3) as [e2 f2] eqn:X. injection E as <- <- <-. apply (me_trans _ _ M3). eapply binary_fold_means; eauto.
  - intros E Hq. pose proof (Qternary _ _ _ Hq) as (Qa & Qb & Qd). unfold condition_finish in E.
    destruct (finish cx n a c) as [[a1 c1] r1] eqn:F1. apply IHa in F1; [|exact Qa]. unfold fbind in E.
    assert (M1 : means (ETernary a b d) (ETernary a1 b d)) by now apply me_if.
    destruct r1; try (injection E as <- <- <-; exact M1).
    set (a2 := if oty_eqb t (ty_b BBool) then a1 else EBinary a1 ONeq int_zero) in E.
    assert (M2 : means (ETernary a b d) (ETernary a2 b d)).
    { apply (me_trans _ _ M1). unfold a2. destruct (oty_eqb t (ty_b BBool)); [apply me_refl|apply me_condition]. }
    destruct (finish cx n b c1) as [[b1 c2] r2] eqn:F2. apply IHb in F2; [|exact Qb].
    assert (M3 : means (ETernary a b d) (ETernary a2 b1 d)) by (apply (me_trans _ _ M2); now apply me_then).
    destruct r2; try (injection E as <- <- <-; exact M3).
    destruct (finish cx n d c2) as [[d1 c3] r3] eqn:F3. apply IHd in F3; [|exact Qd].
    assert (M4 : means (ETernary a b d) (ETernary a2 b1 d1)) by (apply (me_trans _ _ M3); now apply me_else).
    destruct r3; injection E as <- <- <-; exact M4.
Qed.
End F.
