(** The types that inference finds are the types of the Rust expressions. *)
From Verif Require Import Base Utf Lex LexFloat Token StrFacts Ast ParseStmt Rust Finish Codegen SpecGen SpecRustExpr RustExprFacts SpecTree TreeFacts
  FinishFacts InferFacts SpecRustType.
From Coq Require Import String List Lia Bool.
Import ListNotations.
Local Open Scope string_scope.
Local Open Scope list_scope.

(** ** Types *)

Lemma denoted_ext elem elem' g g' : (forall l, elem l = elem' l) -> (forall l, sc_alias g l = sc_alias g' l) ->
  forall ts, denoted elem g ts = denoted elem' g' ts.
Proof.
  intros E A. fix IH 1. intros [|a [|b r]].
  - cbn. apply A.
  - cbn. destruct a as [s| | | |d l]; try apply A.
    + destruct (primitive_type s); [reflexivity|apply A].
    + destruct d; try apply A. destruct l; [reflexivity|apply A].
  - cbn. destruct a as [s|p| | |d l]; try apply A.
    + destruct b as [q| |s| |d l]; try apply A.
      * rewrite (IH r), (A (RPunct p :: RId q :: r)). reflexivity.
      * destruct r as [|[s'| | | |d l] r]; try apply A. destruct d; try apply A. destruct r; [|apply A].
        rewrite E, (A [RPunct p; RLife s; RGroup DBracket l]). reflexivity.
      * destruct d; try apply A. destruct r; [|apply A]. rewrite E, (A [RPunct p; RGroup DBracket l]). reflexivity.
    + destruct d; try apply A. destruct l; apply A.
Qed.
Lemma type_bind g n t ts : type_of_tokens (bind g n t) ts = type_of_tokens g ts.
Proof. apply denoted_ext; [|reflexivity]. intro l. apply denoted_ext; reflexivity. Qed.
Lemma type_ptr g m ts : type_of_tokens g (rp "*" :: ri (if m : bool then "mut" else "const") :: ts) = RtPtr m (type_of_tokens g ts).
Proof. destruct m; reflexivity. Qed.

Section T.
Context {U : Unicode}.
Variables (cx : cgctx) (g : scope).
Hypothesis PC : plain_context cx.
Hypothesis AG : agrees cx g.
Variable given : nat -> Prop.

Lemma sep_app s (l l' : list (list rtok)) : l <> [] -> l' <> [] -> sep_by s (l ++ l') = sep_by s l ++ s :: sep_by s l'.
Proof.
  intros N N'. induction l as [|a l IH]; [contradiction|]. destruct l as [|b l].
  - destruct l'; [contradiction|]. reflexivity.
  - change (sep_by s ((a :: b :: l) ++ l')) with (a ++ s :: sep_by s ((b :: l) ++ l')). rewrite IH by discriminate. cbn [sep_by]. now rewrite <- app_assoc.
Qed.
Lemma ffi_toks n : sty_toks (ffi_ty cx n) = pfx (cx_ffi cx) ++ [ri n].
Proof.
  unfold ffi_ty, pfx, sty_toks. destruct PC as [_ P]. destruct (cx_ffi cx) as [p|]; [|reflexivity]. destruct P as [P _].
  unfold path_toks. cbn [sp_colon sp_segs]. rewrite map_app. rewrite sep_app; [|destruct (sp_segs p); [contradiction|discriminate]|discriminate].
  cbn [map sep_by]. rewrite <- !app_assoc. reflexivity.
Qed.

(** *** Types of the context are printed as they are written *)

Lemma strip_self p l : strip_segs p (p ++ l) = Some l.
Proof. induction p as [|a p IH]; cbn; [reflexivity|]. now rewrite str_eqb_refl. Qed.
Lemma ffi_builtin n b : rust_name rust_names (st n) = Some b -> from_rust_ty (cx_ffi cx) (ffi_ty cx n) = ROk (TyBuiltIn b).
Proof.
  intro E. unfold ffi_ty. cbn [from_rust_ty builtin_from_rust]. destruct (cx_ffi cx) as [p|]; cbn [sp_colon sp_segs].
  - rewrite eqb_reflx, strip_self. cbn [fst]. now rewrite E.
  - cbn [fst]. now rewrite E.
Qed.
Lemma strip_incl p : forall s r, strip_segs p s = Some r -> incl r s.
Proof.
  induction p as [|a p IH]; intros s r; cbn; [intro E; injection E as <-; apply incl_refl|]. destruct s as [|b s]; [discriminate|].
  destruct (str_eqb _ _); [|discriminate]. intros E. apply incl_tl. eauto.
Qed.
Lemma plain_from n t' : from_rust_ty (cx_ffi cx) (plain_ty n) = ROk t' ->
  t' = TyIdent (IPlain (st n)) false \/ exists b, rust_name rust_names (st n) = Some b /\ t' = TyBuiltIn b.
Proof.
  unfold plain_ty. cbn [from_rust_ty]. destruct (builtin_from_rust None _ (cx_ffi cx)) as [b|] eqn:B.
  - intro E; injection E as <-. right. exists b. split; [|reflexivity]. revert B. unfold builtin_from_rust. cbn [sp_colon sp_segs].
    match goal with |- match ?o with _ => _ end = _ -> _ => destruct o as [[|x [|]]|] eqn:R; try discriminate end.
    assert (x = (st n, [])) as ->; [|auto].
    destruct (cx_ffi cx) as [p|]; [|now injection R as <-]. destruct (eqb _ _); [|discriminate].
    apply strip_incl in R. specialize (R x (or_introl eq_refl)). destruct R as [<- | []]. reflexivity.
  - cbn [sp_colon sp_segs fst]. intro E; injection E as <-. now left.
Qed.
Lemma all_idents l ts : all_toks (fun s => omap (fun t => [t]) (ident_tok s)) l = Some ts -> ts = map (fun s => [RId s]) l.
Proof.
  revert ts. induction l as [|s l IH]; intros ts; cbn [all_toks map]; [now intros [= <-]|].
  destruct (ident_tok s) as [t|] eqn:E; cbn [omap obind]; [|discriminate]. apply ident_tok_id in E as ->.
  destruct (all_toks _ l) as [r|]; cbn [obind]; [|discriminate]. intro E; injection E as <-. now rewrite (IH r eq_refl).
Qed.
Lemma kept_toks t : kept cx t -> forall c t' ts, from_rust_ty (cx_ffi cx) t = ROk t' -> ty_toks cx c t' = Some ts -> ts = sty_toks t.
Proof.
  induction 1 as [m t K IH|n I|n I|p N F]; intros c t' ts.
  - cbn [from_rust_ty]. destruct (from_rust_ty (cx_ffi cx) t) as [t1| | |] eqn:R; cbn [rbind]; try discriminate. intro E; injection E as <-.
    destruct m; cbn [ty_toks q_is_const]; (destruct (ty_toks cx c t1) as [us|] eqn:T; cbn [obind]; [|discriminate]; intro E; injection E as <-;
      cbn [sty_toks]; now rewrite (IH _ _ _ eq_refl T)).
  - assert (B : exists b, rust_name rust_names (st n) = Some b /\ builtin_to_rust cx b = ffi_ty cx n).
    { cbn [c_names In] in I. repeat (destruct I as [<- | I]; [eexists; split; reflexivity|]). destruct I. }
    destruct B as (b & B1 & B2). rewrite (ffi_builtin _ _ B1). intro E; injection E as <-. cbn [ty_toks].
    intro E; injection E as <-. unfold builtin_toks. now rewrite B2.
  - intros E T. apply plain_from in E as [-> | (b & B & ->)].
    + cbn [ty_toks ident_toks] in T. destruct (ident_tok (st n)) as [t|] eqn:D; [|discriminate]. apply ident_tok_id in D as ->.
      cbn in T. injection T as <-. reflexivity.
    + cbn [ty_toks] in T. injection T as <-. unfold builtin_toks. f_equal.
      repeat (destruct I as [<- | I]; [vm_compute in B; injection B as <-; reflexivity|]). destruct I.
  - cbn [from_rust_ty].
    assert (B : builtin_from_rust None p (cx_ffi cx) = None).
    { unfold builtin_from_rust. match goal with |- match ?o with _ => _ end = _ => destruct o as [[|x [|]]|] eqn:R; try reflexivity end.
      rewrite Forall_forall in F. apply F.
      destruct (cx_ffi cx) as [q|]; [|injection R as ->; now left]. destruct (eqb _ _); [|discriminate].
      apply strip_incl in R. apply R. now left. }
    rewrite B. cbn [sty_toks]. unfold path_toks.
    assert (S : map (fun s => RId (fst s) :: snd s) (sp_segs p) = map (fun s => [RId s]) (map fst (sp_segs p))).
    { rewrite map_map. apply map_ext_in. intros s Is. rewrite Forall_forall in F. now destruct (F s Is) as [-> _]. }
    rewrite S. clear S B N F. destruct (sp_colon p); [|destruct (sp_segs p) as [|s [|s' l]]].
    + intro E; injection E as <-. cbn [ty_toks]. destruct (all_toks _ _) as [us|] eqn:A; cbn [obind]; [|discriminate].
      apply all_idents in A as ->. intro E; injection E as <-. reflexivity.
    + intro E; injection E as <-. cbn. intro E; injection E as <-. reflexivity.
    + intro E; injection E as <-. cbn [ty_toks ident_toks]. destruct (ident_tok (fst s)) as [t|] eqn:D; cbn [omap]; [|discriminate].
      apply ident_tok_id in D as ->. intro E; injection E as <-. reflexivity.
    + intro E; injection E as <-. cbn [ty_toks]. destruct (all_toks _ _) as [us|] eqn:A; cbn [obind]; [|discriminate].
      apply all_idents in A as ->. intro E; injection E as <-. reflexivity.
Qed.

(** ** Leaves *)

Lemma block_reads ts x gs b : ts = [braces gs] -> RBk gs b -> reads ts x -> x = XBlock b.
Proof. intros -> B R. eapply reads_fun; [exact R|]. eapply (op_whole _ _ _ _ 0); [apply op_brace; exact B|lia]. Qed.
Lemma shape_cast s ty t b τ : const_shape s ty (ri "as" :: t) b -> has_type g (XBlock b) τ -> τ = type_of_tokens g t.
Proof.
  intros (v & y & -> & [[Q _] | (t' & Q & ->)]) H; [discriminate|]. injection Q as <-.
  inversion H; subst. match goal with K : block_type _ _ _ |- _ => inversion K; subst end.
  match goal with K : block_type _ (RB [] _) _ |- _ => inversion K; subst end.
  match goal with K : has_type _ (XCast _ _) _ |- _ => inversion K; subst end. apply type_bind.
Qed.
Lemma shape_ptr s ty b t τ : const_shape s ty [] b -> type_of_tokens g ty = RtRef (RtArray t) -> has_type g (XBlock b) τ -> τ = RtPtr false t.
Proof.
  intros (v & y & -> & [[_ ->] | (t' & Q & _)]) Ty H; [|discriminate].
  inversion H; subst. match goal with K : block_type _ _ _ |- _ => inversion K; subst end.
  match goal with K : block_type _ (RB [] _) _ |- _ => inversion K; subst end.
  match goal with K : has_type _ (XMethod _ _ _) _ |- _ => inversion K; subst; try (match goal with D : _ = _ |- _ => discriminate D end) end.
  match goal with K : has_type _ (XPath _) _ |- _ => inversion K; subst end.
  match goal with K : sc_path _ _ = _ |- _ => rename K into P end. cbn [bind sc_path ri] in P. rewrite str_eqb_refl, Ty in P. now injection P as ->.
Qed.
Definition char_ptr : list rtok := rp "*" :: ri "const" :: pfx (cx_ffi cx) ++ [ri "c_char"].
Lemma char_ptr_toks c ts : ty_toks cx c ty_const_char_ptr = Some ts -> ts = char_ptr.
Proof. cbn [ty_const_char_ptr ty_toks q_is_const obind]. intro E; injection E as <-. unfold builtin_toks, char_ptr. cbn [builtin_to_rust]. now rewrite ffi_toks. Qed.

Lemma c_char_ptr_type c v l b y x τ : l = 15 -> operand v l b y -> reads (c_char_ptr cx c v) x -> has_type g x τ -> τ = type_of_tokens g char_ptr.
Proof.
  intros -> O R H.
  assert (O' : operand (v ++ [rp "."; ri "as_bytes"; parens []]) 15 false (XMethod y (st "as_bytes") [])).
  { eapply op_method; [exact O|reflexivity|apply ra_nil]. }
  destruct (const_shape_reads "BYTES" (static_ref c [brackets [ri "u8"]]) _ _ _ _ (ri "as" :: char_ptr)
    eq_refl eq_refl (ref_slice_ty c _) O') as (blk & B & Q).
  { right. eexists. split; [reflexivity|]. apply ptr_ty; [cbn; tauto|]. apply path_is_ty. now apply ffi1. }
  assert (x = XBlock blk) as ->; [|exact (shape_cast _ _ _ _ _ Q H)].
  eapply block_reads; [|exact B|exact R]. unfold c_char_ptr, char_ptr. cbn [app]. rewrite <- ?app_assoc. cbn [app]. reflexivity.
Qed.
Lemma string_type c s o x τ t ts us : string_finish cx s o = FOk (Some t) -> (forall w, s <> SWide w) ->
  lit_toks cx c (LString s) = Some us -> reads us x -> has_type g x τ -> ty_toks cx c t = Some ts -> τ = type_of_tokens g ts.
Proof.
  intros F W T R H Tt. destruct s as [b|s|s|s|s]; [..|now destruct (W s)]; cbn in F; injection F as <-; unfold lit_toks in T; injection T as <-.
  - apply char_ptr_toks in Tt as ->.
    destruct (const_shape_reads "BYTES" (static_ref c [brackets [ri "u8"; rp ";"; usize_tok (length (b ++ [0%N]))]]) [RLit (RlBytes (b ++ [0%N]))] _ _ _
      (ri "as" :: char_ptr) eq_refl eq_refl (ref_slice_ty c _) (op_lit _)) as (blk & B & Q).
    { right. eexists. split; [reflexivity|]. apply ptr_ty; [cbn; tauto|]. apply path_is_ty. now apply ffi1. }
    assert (x = XBlock blk) as ->; [|exact (shape_cast _ _ _ _ _ Q H)]. eapply block_reads; [reflexivity|exact B|exact R].
  - injection Tt as <-.
    destruct (const_shape_reads "BYTES" (array_ref [ri "u8"] (length (utf8_encode s ++ [0%N]))) [RLit (RlBytes (utf8_encode s ++ [0%N]))] _ _ _ []
      eq_refl eq_refl (array_ref_ty _ _) (op_lit _)) as (blk & B & Q); [now left|].
    assert (x = XBlock blk) as -> by (eapply block_reads; [reflexivity|exact B|exact R]). exact (shape_ptr _ _ _ u8 _ Q eq_refl H).
  - injection Tt as <-.
    destruct (op_ref_array (fun w => XLit (RlInt (Z.of_N w) (st "u16"))) (fun w => [RLit (RlInt (Z.of_N w) (st "u16"))]) (utf16_encode s ++ [0%N])) as [v V].
    { intro w. exists 15, false. apply op_lit. }
    destruct (const_shape_reads "WORDS" (array_ref [ri "u16"] (length (utf16_encode s ++ [0%N]))) _ _ _ _ [] eq_refl eq_refl (array_ref_ty _ _) V) as (blk & B & Q); [now left|].
    assert (x = XBlock blk) as -> by (eapply block_reads; [reflexivity|exact B|exact R]). exact (shape_ptr _ _ _ (RtInt false 16) _ Q eq_refl H).
  - injection Tt as <-.
    destruct (op_ref_array (fun w => XLit (RlInt (Z.of_N w) (st "u32"))) (fun w => [RLit (RlInt (Z.of_N w) (st "u32"))]) (s ++ [0%N])) as [v V].
    { intro w. exists 15, false. apply op_lit. }
    destruct (const_shape_reads "DWORDS" (array_ref [ri "u32"] (length (s ++ [0%N]))) _ _ _ _ [] eq_refl eq_refl (array_ref_ty _ _) V) as (blk & B & Q); [now left|].
    assert (x = XBlock blk) as -> by (eapply block_reads; [reflexivity|exact B|exact R]). exact (shape_ptr _ _ _ (RtInt false 32) _ Q eq_refl H).
Qed.
Lemma read_op ts x l b y : reads ts x -> operand ts l b y -> x = y.
Proof. intros R O. eapply reads_fun; [exact R|]. eapply (op_whole _ _ _ _ 0); [exact O|lia]. Qed.
Lemma float_type w name f x τ : In (name, w) [("f32", 32%Z); ("f64", 64%Z)] -> reads (float_toks_w cx w name f) x -> has_type g x τ -> τ = RtFloat w.
Proof.
  intros I R H. assert (K : keyword (st name) = false) by (destruct I as [I | [I | []]]; injection I as <- <-; reflexivity).
  assert (P : forall s, In s ["NAN"; "INFINITY"; "NEG_INFINITY"] -> reads (pfx (cx_trait cx) ++ [ri name; rp "::"; ri s]) x -> τ = RtFloat w).
  { intros s Is Q. assert (Ks : keyword (st s) = false) by (cbn in Is; decompose [or] Is; subst; try reflexivity; contradiction).
    pose proof (read_op _ _ _ _ _ Q (op_path _ (std2 cx PC _ _ K Ks))) as ->. inversion H; subst.
    pose proof (ag_float cx g AG name w s I Is). congruence. }
  destruct f as [[]|[]| |[] m e]; cbn [float_toks_w] in R; try (eapply P; [|exact R]; cbn; tauto);
    try (pose proof (read_op _ _ _ _ _ R (op_lit _)) as ->; inversion H; subst; reflexivity);
    (pose proof (read_op _ _ _ _ _ R (op_unary (st "-") _ 15 false _ eq_refl (op_lit _) ltac:(lia) ltac:(lia))) as ->;
     inversion H; subst; match goal with K : unary _ _ _ |- _ => inversion K; subst end;
     match goal with K : has_type _ (XLit _) _ |- _ => inversion K; subst; reflexivity end).
Qed.
Lemma float_lit_type c f x τ t ts us o : lit_finish cx (LFloat f) o = FOk (Some t) ->
  lit_toks cx c (LFloat f) = Some us -> reads us x -> has_type g x τ -> ty_toks cx c t = Some ts -> τ = type_of_tokens g ts.
Proof.
  intros F T R H Tt. cbn [lit_toks] in T. injection T as <-.
  destruct f as [f|f|f]; cbn in F; injection F as <-; cbn [ty_toks] in Tt; injection Tt as <-; cbn [float_toks] in R.
  - exact (float_type 32 "f32" f x τ (or_introl eq_refl) R H).
  - exact (float_type 64 "f64" f x τ (or_intror (or_introl eq_refl)) R H).
  - exact (float_type 64 "f64" f x τ (or_intror (or_introl eq_refl)) R H).
Qed.

(** ** What is proved of a finished expression *)

(** The context in which the code is printed. *)
Record final (c : lctx) : Prop := {
  fi_macro : lc_macro c = false;
  fi_known : forall i a, arg_type c i = Some a -> exists t, a = AKnown t;
  fi_param : forall i t ts p, arg_type c i = Some (AKnown t) -> ty_toks cx c t = Some ts -> arg_toks c i = Some p -> sc_path g p = Some (type_of_tokens g ts) }.
Definition known_given (c : lctx) : Prop := forall i, given i -> arg_type c i <> Some AUnknown.
Lemma known_adv c c' : advances c c' -> known_given c -> known_given c'.
Proof.
  intros (_ & _ & A) K i Gi E. specialize (A i). specialize (K i Gi). destruct (arg_type c i) as [a|]; [|congruence].
  destruct A as (b & B & L). rewrite B in E. injection E as ->. destruct a; try exact L; [destruct L as [L|L]; [discriminate|exact L]|congruence].
Qed.

(** [x] is [e] with the type [τ], or a part of it that has its type, below a
    dereference. *)
Definition shape (c : lctx) (e : expr) (t : ctype) (x : rx) (τ : rtype) : Prop :=
  has_type g x τ /\
  (tree cx c e x \/
   (exists l op r y t1, e = EBinary l op r /\ (op = OAdd \/ op = OSub) /\ t = TyPtr t1 /\ tree cx c l x /\ tree cx c r y /\ has_type g y usize) \/
   (exists op s e1, e = EUnary op e1 /\ step_op op = Some s /\ tree cx c e1 x)).
Record sound (c : lctx) (e : expr) (t : option ctype) : Prop := {
  s_int : is_number_literal e -> t = None;
  s_float : forall f, e = ELit (LFloat f) -> lit_finish cx (LFloat f) c = FOk t;
  s_truth : is_truth e = true -> t = ty_b BBool;
  s_cast : forall t1 e1, e = ECast t1 e1 \/ e = EUnary UDeref (ECast (TyPtr t1) e1) -> t = Some t1;
  s_sure : forall cF, advances c cF -> final cF -> sure given e -> exists t0, t = Some t0;
  s_type : forall cF, advances c cF -> final cF -> forall t0 x τ ts, t = Some t0 -> settled cx given e ->
    shape cF e t0 x τ -> ty_toks cx cF t0 = Some ts -> τ = type_of_tokens g ts }.
Lemma sound_adv c c' e t : advances c c' -> sound c e t -> sound c' e t.
Proof.
  intros A [S1 S0 S2 S3 S4 S5]. constructor; auto.
  - intros cF F. apply S4. eapply adv_trans; eauto.
  - intros cF F. apply S5. eapply adv_trans; eauto.
Qed.
(** Forms that are not affected by what is around them. *)
Lemma sound_simple c e t :
  (match e with EUnary _ _ | EBinary _ _ _ | ECast _ _ => False | _ => True end) ->
  (is_number_literal e -> t = None) -> (forall f, e = ELit (LFloat f) -> lit_finish cx (LFloat f) c = FOk t) ->
  (forall cF, advances c cF -> final cF -> sure given e -> exists t0, t = Some t0) ->
  (forall cF, advances c cF -> final cF -> forall t0 x τ ts, t = Some t0 -> settled cx given e -> tree cx cF e x -> has_type g x τ ->
     ty_toks cx cF t0 = Some ts -> τ = type_of_tokens g ts) ->
  sound c e t.
Proof.
  intros N I Fl Su Ty. constructor; [exact I|exact Fl| | |exact Su|].
  - destruct e; try discriminate; destruct N.
  - intros t1 e1 [-> | ->]; destruct N.
  - intros cF A F t0 x τ ts E S [H Sh] T. destruct Sh as [Sh | [(l & op & r & y & t1 & -> & _) | (op & s & e1 & -> & _)]]; [|destruct N|destruct N].
    eapply Ty; eauto.
Qed.

(** ** Names, calls, casts *)

Ltac tinv T := inversion T; subst; try discriminate;
  try (match goal with V : volatile_access _ _ |- _ => destruct V as [V _]; discriminate V end).
Ltac hinv H := inversion H; subst; try discriminate.

Lemma final_macro c cF : advances (set_macro true c) cF -> final cF -> False.
Proof. intros (_ & M & _) F. pose proof (fi_macro cF F). cbn in M. rewrite M in H by reflexivity. discriminate. Qed.
Lemma final_fragment c cF i a : advances c cF -> final cF -> arg_type c i = Some a -> ~ fragment a.
Proof.
  intros (_ & _ & A) F E Fr. specialize (A i). rewrite E in A. destruct A as (b & B & L). destruct (fi_known cF F i b B) as [t ->].
  destruct a; try exact Fr; destruct L.
Qed.
Lemma final_known c cF i t : advances c cF -> final cF -> arg_type c i = Some (AKnown t) -> arg_type cF i = Some (AKnown t).
Proof.
  intros (_ & _ & A) F E. specialize (A i). rewrite E in A. destruct A as (b & B & L). destruct (fi_known cF F i b B) as [t' ->].
  destruct L as [L|[]]. now rewrite <- L.
Qed.
Lemma limits id b : rust_name limit_types id = Some b ->
  exists s, limit_name limit_names id = Some s /\ builtin_to_rust cx b = ffi_ty cx s /\ In s ["c_schar"; "c_short"; "c_int"; "c_long"; "c_longlong"].
Proof.
  unfold limit_types, limit_names. cbn [rust_name limit_name].
  repeat (destruct (str_eqb id _); [intro E; injection E as <-; eexists; split; [reflexivity|split; [reflexivity|cbn; tauto]]|]). discriminate.
Qed.
Lemma leaf_name id : is_leaf (EVar (IPlain id)) = true -> id = st "__LINE__" \/ id = st "__FILE__".
Proof. unfold is_leaf. intro L. apply one_of_in in L. cbn [map In] in L. destruct L as [<- | [<- | []]]; auto. Qed.
Lemma not_location id : id <> st "__LINE__" -> id <> st "__FILE__" -> is_leaf (EVar (IPlain id)) = false.
Proof. intros A B. destruct (is_leaf _) eqn:L; [|reflexivity]. apply leaf_name in L as [L|L]; contradiction. Qed.

Lemma var_sound v c c' t : var_finish cx v c = (c', FOk t) -> known_given c -> sound c' (EVar v) t.
Proof.
  unfold var_finish. intros E K. destruct v as [i|id|l]; cbn [ident_finish] in E.
  - destruct (arg_type c i) as [a|] eqn:A; [|discriminate].
    assert (c' = c /\ t = match a with AKnown t => Some t | _ => None end) as [-> ->] by (destruct a; injection E as <- <-; auto). clear E.
    apply sound_simple; [exact I|intros []|discriminate| |].
    + intros cF Ad F Gi. cbn in Gi. specialize (K i Gi). pose proof (final_fragment c cF i a Ad F A) as Fr.
      destruct a; cbn in Fr; try tauto; try congruence. eauto.
    + intros cF Ad F t0 x τ ts E _ T H Tt. destruct a as [| | | |t1|]; try discriminate. injection E as <-.
      pose proof (final_known c cF i t1 Ad F A) as A'. tinv T.
      * hinv H. match goal with P : var_toks _ _ _ = Some _ |- _ => cbn [var_toks ident_toks] in P; pose proof (fi_param cF F i t1 ts _ A' Tt P) as Q end. congruence.
      * inversion H.
  - destruct (str_eqb_spec id (st "__LINE__")) as [_|N1].
    { injection E as <- <-. apply sound_simple; [exact I|intros []|discriminate| |]; intros cF Ad F; destruct (final_macro _ _ Ad F). }
    destruct (str_eqb_spec id (st "__FILE__")) as [_|N2].
    { injection E as <- <-. apply sound_simple; [exact I|intros []|discriminate| |]; intros cF Ad F; destruct (final_macro _ _ Ad F). }
    destruct (rust_name limit_types id) as [b|] eqn:L.
    { injection E as <- <-. destruct (limits id b L) as (s & Ls & Bs & Is).
      apply sound_simple; [exact I|intros []|discriminate|intros; eexists; reflexivity|]. intros cF Ad F t0 x τ ts E _ T H Tt. injection E as <-.
      cbn [ty_toks] in Tt. injection Tt as <-. unfold builtin_toks. rewrite Bs, ffi_toks. tinv T.
      - match goal with Lf : is_leaf _ = true |- _ => rewrite (not_location id N1 N2) in Lf; discriminate end.
      - match goal with P : var_toks _ _ _ = Some _ |- _ => rename P into P0 end. unfold var_toks in P0. rewrite (proj2 (str_eqb_neq _ _) N1) in P0. rewrite (proj2 (str_eqb_neq _ _) N2) in P0. rewrite Ls in P0. injection P0 as <-.
        hinv H. pose proof (ag_max cx g AG s Is). congruence. }
    assert (Ln : limit_name limit_names id = None).
    { revert L. unfold limit_types, limit_names. cbn [rust_name limit_name]. repeat (destruct (str_eqb id _); [discriminate|]). reflexivity. }
    destruct (cx_enum cx id) as [[ty toks]|] eqn:En.
    { unfold from_rust in E. destruct (from_rust_ty (cx_ffi cx) ty) as [t'| | |] eqn:R; try discriminate. injection E as <- <-.
      destruct (ag_enum cx g AG id ty toks En) as [Kt Pt].
      apply sound_simple; [exact I|intros []|discriminate|intros; eexists; reflexivity|]. intros cF Ad F t0 x τ ts E _ T H Tt. injection E as <-.
      rewrite (kept_toks ty Kt cF t' ts R Tt). tinv T.
      - match goal with Lf : is_leaf _ = true |- _ => rewrite (not_location id N1 N2) in Lf; discriminate end.
      - match goal with P : var_toks _ _ _ = Some _ |- _ => unfold var_toks in P; rewrite (proj2 (str_eqb_neq _ _) N1), (proj2 (str_eqb_neq _ _) N2), Ln, En in P; injection P as <- end.
        hinv H. congruence. }
    injection E as <- <-. apply sound_simple; [exact I|intros []|discriminate| |]; intros cF Ad F; destruct (final_macro _ _ Ad F).
  - destruct (idparts_finish l c) as [c1 [o| | |]]; try discriminate. injection E as <- <-.
    apply sound_simple; [exact I|intros []|discriminate|intros cF _ _ []|]. intros cF Ad F t0 x τ ts E. discriminate.
Qed.

(** A path of one name is none of the standard library. *)
Lemma std_not_one m n s : std_function g m n <> [s].
Proof. unfold std_function. intro E. apply (f_equal (@length _)) in E. rewrite app_length in E. cbn in E. lia. Qed.
Lemma call_sound n args c c' t : call_types cx n args c = (c', FOk t) -> sound c' (ECall n args) t.
Proof.
  intro E. apply sound_simple; [exact I|intros []|discriminate|intros cF _ _ []|]. intros cF Ad F t0 x τ ts -> S T H Tt.
  assert (I0 : forall e o k c2 t', infer_arg e (FOk None, Some k) o = (c2, FOk (Some t')) -> False).
  { intros e o k c2 t' Q. unfold infer_arg in Q. destruct e as [[]| | | | | | | | |]; try discriminate.
    destruct (arg_type o i) as [[]|]; try discriminate. destruct (set_arg_type o i k); discriminate. }
  unfold call_types in E. destruct n as [i|id|l]; try discriminate. destruct (cx_fn cx id) as [[tys ret]|] eqn:Fn.
  - destruct (Nat.eqb _ _); [|discriminate]. destruct (from_rust_ty (cx_ffi cx) ret) as [t'| | |] eqn:R; try discriminate.
    destruct (infer_args cx args tys c) as [c1 [o| | |]]; try discriminate. injection E as <- <-.
    destruct (ag_fn cx g AG id tys ret Fn) as [[-> | Kt] Pt]; [now destruct (S tys)|].
    rewrite (kept_toks ret Kt cF t' ts R Tt). tinv T.
    + (* offsetof is a macro *)
      match goal with Lf : is_leaf _ = true |- _ => cbn [is_leaf] in Lf end.
      match goal with Lf : is_offsetof _ _ = true |- _ => cbn [is_offsetof] in Lf; apply andb_prop in Lf as [L1 _]; apply str_eqb_eq in L1 as -> end.
      pose proof (ag_offsetof cx g AG). congruence.
    + match goal with K : tree_name _ _ _ _ |- _ => inversion K; subst end.
      match goal with K : ident_toks _ _ (IPlain _) = Some _ |- _ => cbn [ident_toks] in K; destruct (ident_tok id) as [tk|] eqn:Tk; [|discriminate]; cbn [omap] in K; injection K as <-; apply ident_tok_id in Tk as -> end.
      inversion H; subst; try (match goal with K : std_function _ _ _ = [_] |- _ => destruct (std_not_one _ _ _ K) end).
      * congruence.
      * match goal with K : std_function _ _ _ ++ _ = [_] |- _ => apply (f_equal (@length _)) in K; unfold std_function in K; rewrite !app_length in K; cbn in K; lia end.
  - exfalso. destruct (str_eqb id _); [|discriminate]. destruct args as [|a [|b [|]]]; try discriminate.
    destruct (infer_arg a _ _) as [c1 r] eqn:Ia. destruct r; [|discriminate..]. eapply I0; exact E.
Qed.
Lemma cast_sound c t e : sound c (ECast t e) (Some t).
Proof.
  constructor; try discriminate; [intros []| | |].
  - intros t1 e1 [E|E]; [|discriminate]. now injection E as <- <-.
  - intros. eauto.
  - intros cF _ _ t0 x τ ts E [N V] [H Sh] T. injection E as <-.
    destruct Sh as [Sh | [(l & op & r & y & t1 & Q & _) | (op & s & e1 & Q & _)]]; [|discriminate Q|discriminate Q].
    tinv Sh.
    + exfalso. match goal with K : is_null _ _ = Some _ |- _ => revert N K end. unfold is_null_cast, is_null. destruct t; try (destruct e as [| | |[]| | | | | |]; discriminate).
      * destruct e as [| | |[]| | | | | |]; try discriminate. cbn. intros ->. discriminate.
      * destruct t; try discriminate. destruct e as [| | |[]| | | | | |]; try discriminate. cbn [ty_is_ptr andb].
        intro Z. destruct (q_is_const q && _) eqn:Q; [|discriminate]. apply andb_prop in Q as [_ Q]. revert Z. rewrite Q. cbn. discriminate.
    + congruence.
    + hinv H. congruence.
    + hinv H. congruence.
Qed.
Lemma sizeof_sound c t : sound c (ESizeOf t) (ty_b BSizeT).
Proof.
  apply sound_simple; [exact I|intros []|discriminate|intros; eexists; reflexivity|].
  intros cF _ _ t0 x τ ts E _ T H Tt. injection E as <-. cbn [ty_toks] in Tt. injection Tt as <-. tinv T. hinv H. reflexivity.
Qed.
Lemma lit_sound c l t o : (forall x, l <> LChar x) -> lit_finish cx l o = FOk t -> sound c (ELit l) t.
Proof.
  intros N F. apply sound_simple; [exact I| | |intros cF _ _ S; destruct l; destruct S|].
  - destruct l; intros []. now injection F as <-.
  - intros f E. injection E as ->. rewrite <- F. destruct f; reflexivity.
  - intros cF _ _ t0 x τ ts -> S T H Tt. destruct l as [y|s|f|i]; [now destruct (N y)| | |discriminate F].
    + tinv T. eapply string_type; [exact F| |eassumption..]. intros w ->. exact S.
    + tinv T. eapply float_lit_type; [exact F|eassumption..].
Qed.
Lemma concat_sound c l : sound c (EConcat l) (Some ty_const_char_ptr).
Proof.
  apply sound_simple; [exact I|intros []|discriminate|intros cF _ _ []|].
  intros cF _ _ t0 x τ ts E _ T H Tt. injection E as <-. apply char_ptr_toks in Tt as ->. tinv T.
  match goal with K : etoks _ _ _ = Some _ |- _ => cbn [etoks] in K; match type of K with obind ?o _ = _ => destruct o as [us|]; [|discriminate] end;
    cbn [obind] in K; injection K as <- end.
  eapply c_char_ptr_type; [reflexivity|apply (concat_op cx PC)|eassumption..].
Qed.
Lemma stringify_sound c c0 a c1 t : stringify_finish a c0 = (c1, FOk t) -> sound c (EStringify a) t.
Proof.
  intro S. assert (t = Some ty_const_char_ptr) as ->.
  { revert S. unfold stringify_finish. destruct a as [[i|s|l]| | | | | | | | |]; try discriminate.
    - destruct (arg_type c0 i) as [[]|]; try discriminate; try (destruct (set_arg_type c0 i AExpr); [|discriminate]); now intros [= <- <-].
    - destruct (_ || _); [|discriminate]. now intros [= <- <-]. }
  apply sound_simple; [exact I|intros []|discriminate|intros cF _ _ []|].
  intros cF _ _ t0 x τ ts E _ T H Tt. injection E as <-. apply char_ptr_toks in Tt as ->. tinv T.
  match goal with K : etoks _ _ _ = Some _ |- _ => cbn [etoks] in K; unfold stringify_toks in K; destruct (stringify_inner cx cF a) as [us|]; [|discriminate];
    cbn [obind] in K; injection K as <- end.
  eapply c_char_ptr_type; [reflexivity|apply (concat_op cx PC)|eassumption..].
Qed.

(** ** Operators *)

Lemma binary_kind op a b τ : is_plain op = true -> binary (rust_op op) a b τ ->
  (is_comparison op = true /\ τ = RtBool) \/ (is_comparison op = false /\ a = τ /\ (b = τ \/ op = OShl \/ op = OShr)).
Proof.
  intros P B. destruct op; try discriminate; inversion B; subst;
    try (match goal with K : one_of _ _ = true |- _ => vm_compute in K; discriminate K end); auto 6.
Qed.
Lemma arith_kind s a b τ : In s ["+"; "-"] -> binary (st s) a b τ -> a = τ.
Proof.
  intros I B. cbn in I. decompose [or] I; subst; try contradiction;
    inversion B; subst; try (match goal with K : one_of _ _ = true |- _ => vm_compute in K; discriminate K end); auto.
Qed.
Lemma truth_bool e : truths_negated e -> is_truth e = true -> forall c g' x τ, tree cx c e x -> has_type g' x τ -> τ = RtBool.
Proof.
  induction e as [v|v l IHl|t e IHe|l|a IHa|l IHl|t|op e IHe|a op b IHa IHb|a b d IHa IHb IHd] using expr_ind';
    intros N Tr c g' x τ T H; try discriminate.
  - destruct op; try discriminate. destruct N as [N1 N2]. specialize (N2 eq_refl). tinv T. hinv H.
    match goal with K : unary _ _ _ |- _ => inversion K; subst; try discriminate end. eapply IHe; eauto.
  - assert (C : is_comparison op = true) by (destruct op; try discriminate; reflexivity).
    assert (P : is_plain op = true) by (destruct op; try discriminate; reflexivity). tinv T.
    + hinv H. match goal with K : binary _ _ _ _ |- _ => apply (binary_kind _ _ _ _ P) in K as [[_ ->] | [K _]]; [reflexivity|congruence] end.
    + destruct op; discriminate.
    + destruct op; discriminate.
    + destruct op; discriminate.
Qed.
Lemma join_left a b t : join_ty a b = Some t -> a = Some t \/ (a = None /\ b = Some t).
Proof. unfold join_ty. destruct (oty_eqb a b); [auto|]. destruct a, b; intro E; try discriminate; auto. Qed.

(** [{ let value = v; write_volatile(p, w); value }]. *)
Lemma bind_name n t : sc_path (bind g n t) [RId n] = Some t.
Proof. cbn. now rewrite str_eqb_refl. Qed.
Lemma std_is_std a b : In a ["ptr"; "mem"] -> is_std (std_path cx [a; b]) = true.
Proof.
  intro I. unfold std_path. cbn [map sep_by app]. unfold is_std.
  assert (E : existsb (is_id "ptr") (pfx (cx_trait cx) ++ [ri a; rp "::"; ri b]) || existsb (is_id "mem") (pfx (cx_trait cx) ++ [ri a; rp "::"; ri b]) = true).
  { rewrite !existsb_app. destruct I as [<- | [<- | []]]; cbn; rewrite ?orb_true_r; reflexivity. }
  destruct (pfx (cx_trait cx) ++ _) as [|y [|z l]] eqn:Q; [exact E| |exact E].
  apply (f_equal (@length _)) in Q. rewrite app_length in Q. cbn in Q. lia.
Qed.
Lemma cast_has g' x ts τ : has_type g' (XCast x ts) τ -> τ = type_of_tokens g' ts.
Proof. intro H. now inversion H. Qed.
Lemma write_type v x' us ts w τ :
  us = rp "*" :: ri "mut" :: ts -> (w = x_name "value" \/ exists s y, In s ["+"; "-"] /\ w = XBin (st s) (x_name "value") y) ->
  has_type g (x_write_block cx v (XCast x' us) w) τ -> τ = type_of_tokens g ts.
Proof.
  intros -> W H. unfold x_write_block in H. hinv H.
  match goal with K : block_type _ _ _ |- _ => inversion K; subst; clear K end.
  match goal with K : block_type _ (RB (x_write _ _ _ :: _) _) _ |- _ => inversion K; subst; clear K end.
  match goal with K : block_type _ (RB [] _) _ |- _ => inversion K; subst; clear K end.
  match goal with K : has_type _ (x_name _) _ |- _ => inversion K; subst; clear K end.
  match goal with K : sc_path (bind g _ ?t) _ = Some ?u |- _ => pose proof (eq_trans (eq_sym (bind_name (st "value") t)) K) as B; injection B as ->; clear K end.
  match goal with K : has_type _ (XCall _ _) _ |- _ => inversion K; subst; clear K end.
  - rewrite std_is_std in * by (cbn; tauto). discriminate.
  - match goal with K : has_type _ (XCast _ _) _ |- _ => apply cast_has in K; rewrite type_bind, (type_ptr g true) in K; injection K as K; subst end.
    destruct W as [-> | (s & y & Is & ->)].
    + match goal with K : has_type _ (x_name _) _ |- _ => inversion K; subst; clear K end.
      match goal with K : sc_path _ _ = Some ?u |- _ => pose proof (eq_trans (eq_sym (bind_name (st "value") _)) K) as B; now injection B as -> end.
    + match goal with K : has_type _ (XBin _ _ _) _ |- _ => inversion K; subst; clear K end.
      match goal with K : binary _ _ _ _ |- _ => apply (arith_kind s _ _ _ Is) in K; subst end.
      match goal with K : has_type _ (x_name _) _ |- _ => inversion K; subst; clear K end.
      match goal with K : sc_path _ _ = Some ?u |- _ => pose proof (eq_trans (eq_sym (bind_name (st "value") _)) K) as B; now injection B as -> end.
Qed.
(** A volatile pointer is a cast. *)
Lemma volatile_cast c t q e x ts : settled cx given (ECast (TyPtr (TyQual t q)) e) -> tree cx c (ECast (TyPtr (TyQual t q)) e) x ->
  ty_toks cx c (TyQual t q) = Some ts -> exists x', x = XCast x' (rp "*" :: ri "mut" :: ts).
Proof.
  intros [N _] T Tt. tinv T.
  - exfalso. match goal with K : is_null _ _ = Some _ |- _ => revert N K end. unfold is_null_cast, is_null. destruct e as [| | |[]| | | | | |]; try discriminate. cbn. intros ->. discriminate.
  - match goal with K : ty_toks _ _ (TyPtr _) = Some _ |- _ => change (ty_toks cx c (TyPtr (TyQual t q))) with (us <-? ty_toks cx c (TyQual t q) ;; Some (rp "*" :: ri "mut" :: us)) in K;
      rewrite Tt in K; injection K as <- end. eauto.
  - match goal with K : ty_toks _ _ (TyPtr _) = Some _ |- _ => change (ty_toks cx c (TyPtr (TyQual t q))) with (us <-? ty_toks cx c (TyQual t q) ;; Some (rp "*" :: ri "mut" :: us)) in K;
      rewrite Tt in K; injection K as <- end. eauto.
Qed.

Lemma left_type c l lt (op : binop) r rt t cF : sound c l lt -> sound c r rt -> advances c cF -> final cF ->
  sure given l \/ is_number_literal r -> op = op -> join_ty lt rt = Some t -> lt = Some t.
Proof.
  intros Sl Sr A F Q _ J. apply join_left in J as [J | [J1 J2]]; [exact J|]. destruct Q as [Q|Q].
  - destruct (s_sure _ _ _ Sl cF A F Q) as [t0 E]. congruence.
  - rewrite (s_int _ _ _ Sr Q) in J2. discriminate.
Qed.
Lemma tree_shape c e t x τ : tree cx c e x -> has_type g x τ -> shape c e t x τ.
Proof. intros T H. split; [exact H|now left]. Qed.
Lemma settled_volatile l p : settled cx given l -> volatile_access l p -> settled cx given p.
Proof. intros S [-> _]. exact S. Qed.
Lemma binary_sound c l op r lt rt t : sound c l lt -> sound c r rt -> (op <> OMember -> t = join_ty lt rt) ->
  sound c (EBinary l op r) (if is_comparison op then ty_b BBool else t).
Proof.
  intros Sl Sr J. constructor; try discriminate; [intros []| | |intros cF _ _ []|].
  - cbn [is_truth]. destruct op; try discriminate; reflexivity.
  - intros t1 e1 [E|E]; discriminate E.
  - intros cF A F t0 x τ ts E S [H Sh] Tt. destruct Sh as [T | [(l' & op' & r' & y & t1 & Q & O & -> & Tl & Tr & Hy) | (op' & s & e1 & Q & _)]]; [| |discriminate Q].
    2: { injection Q as <- <- <-. assert (M : op <> OMember) by (destruct O; subst; discriminate). specialize (J M).
         assert (Sb : settled cx given l /\ settled cx given r) by (destruct O; subst; exact S).
         assert (join_ty lt rt = Some (TyPtr t1)) as E' by (destruct O; subst; exact E). destruct Sb as [S1 S2].
         apply join_left in E' as [E' | [_ E']].
         - exact (s_type _ _ _ Sl cF A F _ _ _ _ E' S1 (tree_shape _ _ _ _ _ Tl H) Tt).
         - pose proof (s_type _ _ _ Sr cF A F _ _ _ _ E' S2 (tree_shape _ _ _ _ _ Tr Hy) Tt) as B. cbn [ty_toks] in Tt.
           destruct (ty_toks cx cF t1) as [us|]; [|discriminate]. injection Tt as <-. rewrite (type_ptr g true) in B. discriminate B. }
    tinv T.
    + (* an operator *)
      match goal with K : is_plain op = true |- _ => rename K into P end. inversion H; subst.
      match goal with K : binary _ _ _ _ |- _ => apply (binary_kind _ _ _ _ P) in K as [[C ->] | (C & -> & B)] end; rewrite C in E.
      { injection E as <-. cbn [ty_toks] in Tt. injection Tt as <-. reflexivity. }
      assert (M : op <> OMember) by (intros ->; discriminate). rewrite (J M) in E.
      assert (D : settled cx given l /\ settled cx given r /\ b = τ \/ settled cx given l /\ (sure given l \/ is_number_literal r)).
      { destruct op; try discriminate; cbn [settled] in S; destruct B as [B | [B|B]]; try discriminate B; try tauto. }
      destruct D as [(S1 & S2 & ->) | (S1 & D)].
      * apply join_left in E as [E | [_ E]].
        -- eapply (s_type _ _ _ Sl cF A F); eauto using tree_shape.
        -- eapply (s_type _ _ _ Sr cF A F); eauto using tree_shape.
      * pose proof (left_type _ _ _ op _ _ _ cF Sl Sr A F D eq_refl E) as E'. eapply (s_type _ _ _ Sl cF A F); eauto using tree_shape.
    + destruct S.
    + destruct op; try discriminate; destruct S.
    + (* [{ l = r; l }] *)
      match goal with K : valued op = true |- _ => rename K into V end.
      assert (C : is_comparison op = false) by (destruct op; try discriminate; reflexivity). rewrite C in E.
      assert (M : op <> OMember) by (intros ->; discriminate). rewrite (J M) in E.
      assert (D : settled cx given l /\ (sure given l \/ is_number_literal r)) by (destruct op; try discriminate; exact S). destruct D as [S1 D].
      pose proof (left_type _ _ _ op _ _ _ cF Sl Sr A F D eq_refl E) as E'. hinv H.
      match goal with K : block_type _ _ _ |- _ => inversion K; subst; clear K end.
      match goal with K : block_type _ _ _ |- _ => inversion K; subst; clear K end.
      eapply (s_type _ _ _ Sl cF A F); eauto using tree_shape.
    + (* a volatile assignment *)
      cbn [is_comparison] in E. rewrite J in E by discriminate. destruct S as [S1 D].
      pose proof (left_type _ _ _ OAssign _ _ _ cF Sl Sr A F D eq_refl E) as E'.
      match goal with K : volatile_access l _ |- _ => destruct K as [-> (t1 & q & e' & -> & _)] end.
      rewrite (s_cast _ _ _ Sl _ _ (or_intror eq_refl)) in E'. injection E' as <-.
      match goal with K : tree _ _ (ECast _ _) _ |- _ => destruct (volatile_cast _ _ _ _ _ _ S1 K Tt) as [x' ->] end.
      eapply write_type; [reflexivity| |exact H]. now left.
    + match goal with K : valued op = true |- _ => rename K into V end.
      assert (C : is_comparison op = false) by (destruct op; try discriminate; reflexivity). rewrite C in E.
      assert (M : op <> OMember) by (intros ->; discriminate). rewrite (J M) in E.
      assert (D : settled cx given l /\ (sure given l \/ is_number_literal r)) by (destruct op; try discriminate; exact S). destruct D as [S1 D].
      pose proof (left_type _ _ _ op _ _ _ cF Sl Sr A F D eq_refl E) as E'.
      match goal with K : volatile_access l _ |- _ => destruct K as [-> (t1 & q & e' & -> & _)] end.
      rewrite (s_cast _ _ _ Sl _ _ (or_intror eq_refl)) in E'. injection E' as <-.
      match goal with K : tree _ _ (ECast _ _) _ |- _ => destruct (volatile_cast _ _ _ _ _ _ S1 K Tt) as [x' ->] end.
      eapply write_type; [reflexivity| |exact H]. now left.
Qed.

(** Operators that keep the type. *)
Definition keeps (op : unop) : bool := match op with UPlus | UMinus | UComp | UInc | UDec | UPostInc | UPostDec => true | _ => false end.
Lemma step_type c op s e x τ t ts : step_op op = Some s -> tree cx c (EUnary op e) x -> has_type g x τ ->
  settled cx given e -> ty_toks cx c t = Some ts ->
  (forall y, tree cx c e y -> has_type g y τ -> τ = type_of_tokens g ts) ->
  (forall t1 e1, e = EUnary UDeref (ECast (TyPtr t1) e1) -> t = t1) -> τ = type_of_tokens g ts.
Proof.
  intros O T H S Tt Ty Ca. tinv T; try (match goal with K : _ = _ \/ _ = _ |- _ => destruct K; subst; discriminate end).
  - match goal with K : volatile_access _ _ |- _ => destruct K as [K _]; injection K as -> _; discriminate O end.
  - match goal with K : tree _ _ e _ |- _ => apply (Ty _ K) end. hinv H. destruct (is_post op).
    + repeat (match goal with K : block_type _ _ _ |- _ => inversion K; subst; clear K end).
      match goal with K : has_type _ (x_name _) _ |- _ => inversion K; subst; clear K end.
      match goal with K : sc_path _ _ = Some ?u |- _ => pose proof (eq_trans (eq_sym (bind_name (st "prev") _)) K) as B; injection B as -> end. assumption.
    + repeat (match goal with K : block_type _ _ _ |- _ => inversion K; subst; clear K end). assumption.
  - match goal with K : volatile_access e _ |- _ => destruct K as [-> (t1 & q & e' & -> & _)] end.
    rewrite (Ca _ _ eq_refl) in Tt.
    match goal with K : tree _ _ (ECast _ _) _ |- _ => destruct (volatile_cast _ _ _ _ _ _ S K Tt) as [x' ->] end.
    match goal with K : step_op op = Some ?s1 |- _ => assert (Is : In s1 ["+"; "-"]) by (destruct op; try discriminate; injection K as <-; cbn; tauto) end.
    destruct (is_post op); (eapply write_type; [reflexivity| |exact H]); [right; eauto|now left].
Qed.
Lemma keeps_sound c op e t : keeps op = true -> sound c e t -> sound c (EUnary op e) t.
Proof.
  intros K Se. constructor; try discriminate; [intros []| | | |].
  - destruct op; discriminate.
  - intros t1 e1 [E|E]; [discriminate|]. injection E as -> _. discriminate.
  - intros cF A F S. apply (s_sure _ _ _ Se cF A F). destruct op; try discriminate; exact S.
  - intros cF A F t0 x τ ts E S [H Sh] Tt. cbn [settled] in S.
    assert (Ty : forall y, tree cx cF e y -> has_type g y τ -> τ = type_of_tokens g ts).
    { intros y Y Hy. eapply (s_type _ _ _ Se cF A F); eauto using tree_shape. }
    destruct Sh as [T | [(l & op' & r & y & t1 & Q & _) | (op' & s & e1 & Q & O & T)]]; [|discriminate Q|].
    2: { injection Q as <- <-. eapply Ty; eassumption. }
    destruct (step_op op) as [s|] eqn:O.
    + eapply step_type; [exact O|exact T|exact H|exact S|exact Tt|exact Ty|].
      intros t1 e1 ->. pose proof (s_cast _ _ _ Se _ _ (or_intror eq_refl)). congruence.
    + tinv T; try (destruct op; discriminate).
      * match goal with Q : tree _ _ e _ |- _ => apply (Ty _ Q) end. hinv H. match goal with Q : unary _ _ _ |- _ => inversion Q; subst; try discriminate end. assumption.
      * match goal with Q : tree _ _ e _ |- _ => apply (Ty _ Q) end. hinv H. match goal with Q : unary _ _ _ |- _ => inversion Q; subst; try discriminate end. assumption.
      * match goal with V : volatile_access _ _ |- _ => destruct V as [V _]; injection V as -> _; discriminate K end.
Qed.
Lemma not_sound c e : truths_negated e -> is_truth e = true -> sound c (EUnary UNot e) (ty_b BBool).
Proof.
  intros N Tr. constructor; try discriminate; [intros []|reflexivity| |intros cF _ _ []|].
  - intros t1 e1 [E|E]; discriminate E.
  - intros cF A F t0 x τ ts E S [H Sh] Tt. injection E as <-. cbn [ty_toks] in Tt. injection Tt as <-.
    destruct Sh as [T | [(l & op' & r & y & t1 & Q & _) | (op' & s & e1 & Q & O & T)]]; [|discriminate Q|injection Q as <- <-; discriminate O].
    change (type_of_tokens g (builtin_toks cx BBool)) with RtBool.
    eapply (truth_bool (EUnary UNot e)); [|reflexivity|exact T|exact H]. now split.
Qed.
Lemma addr_sound c e t : sound c e t -> sound c (EUnary UAddrOf e) (omap TyPtr t).
Proof.
  intros Se. constructor; try discriminate; [intros []| | |].
  - intros t1 e1 [E|E]; discriminate E.
  - intros cF A F S. destruct (s_sure _ _ _ Se cF A F S) as [t0 ->]. eexists. reflexivity.
  - intros cF A F t0 x τ ts E S [H Sh] Tt. destruct t as [t|]; [|discriminate]. injection E as <-. cbn [settled] in S.
    destruct Sh as [T | [(l & op' & r & y & t1 & Q & _) | (op' & s & e1 & Q & O & T)]]; [|discriminate Q|injection Q as <- <-; discriminate O].
    cbn [ty_toks] in Tt. destruct (ty_toks cx cF t) as [us|] eqn:Tu; [|discriminate]. injection Tt as <-. rewrite (type_ptr g true).
    tinv T; try (match goal with K : _ = _ \/ _ = _ |- _ => destruct K; discriminate end). hinv H. f_equal.
    eapply (s_type _ _ _ Se cF A F); eauto using tree_shape.
Qed.
Lemma deref_sound c e t t' : sound c e t -> unary_type UDeref c t = FOk t' -> sound c (EUnary UDeref e) t'.
Proof.
  intros Se Ut. cbn in Ut. destruct (lc_var c); [discriminate|].
  assert (P : forall t1, t = Some t1 -> exists t2, t1 = TyPtr t2 /\ t' = Some t2).
  { intros t1 ->. destruct t1; try discriminate. injection Ut as <-. eauto. }
  assert (N : t = None -> t' = None) by (intros ->; now injection Ut as <-). clear Ut.
  constructor; try discriminate; [intros []| | |].
  - intros t1 e1 [E|E]; [discriminate|]. injection E as ->. pose proof (s_cast _ _ _ Se _ _ (or_introl eq_refl)) as Q.
    destruct (P _ Q) as (t2 & Q2 & ->). now injection Q2 as ->.
  - intros cF A F S. destruct (s_sure _ _ _ Se cF A F S) as [t0 E]. destruct (P _ E) as (t2 & _ & ->). eauto.
  - intros cF A F t0 x τ ts E S [H Sh] Tt. cbn [settled] in S.
    destruct t as [t|]; [|rewrite N in E by reflexivity; discriminate]. destruct (P _ eq_refl) as (t2 & -> & ->). injection E as <-.
    destruct Sh as [T | [(l & op' & r & y & t1 & Q & _) | (op' & s & e1 & Q & O & T)]]; [|discriminate Q|injection Q as <- <-; discriminate O].
    assert (Tp : ty_toks cx cF (TyPtr t2) = Some (rp "*" :: ri "mut" :: ts)) by (cbn [ty_toks]; now rewrite Tt).
    assert (Ty : forall y m, shape cF e (TyPtr t2) y (RtPtr m τ) -> τ = type_of_tokens g ts).
    { intros y m Sy. pose proof (s_type _ _ _ Se cF A F _ _ _ _ eq_refl S Sy Tp) as Q. rewrite (type_ptr g true) in Q. now injection Q. }
    inversion T; subst; try discriminate; try (match goal with K : _ = _ \/ _ = _ |- _ => destruct K; discriminate end).
    + (* a volatile read *)
      match goal with K : volatile_access _ _ |- _ => destruct K as [K _]; injection K as <- end.
      unfold x_read in H. inversion H; subst.
      * rewrite std_is_std in * by (cbn; tauto). discriminate.
      * eapply Ty. eapply tree_shape; eassumption.
    + (* an offset *)
      match goal with K : op = OAdd \/ op = OSub |- _ => rename K into O end.
      hinv H. match goal with K : unary _ _ _ |- _ => inversion K; subst; try discriminate end.
      match goal with K : has_type _ (XMethod _ _ _) _ |- _ => inversion K; subst end.
      eapply Ty. split; [eassumption|]. right. left. do 5 eexists. split; [reflexivity|]. split; [exact O|]. split; [reflexivity|]. split; [eassumption|]. split; eassumption.
    + (* a step *)
      hinv H. match goal with K : unary _ _ _ |- _ => inversion K; subst; try discriminate end.
      match goal with K : has_type _ (XBlock _) ?p |- _ => assert (Hx : has_type g x0 p) end.
      { match goal with K : has_type _ (XBlock _) _ |- _ => inversion K; subst; clear K end. destruct (is_post op).
        - repeat (match goal with K : block_type _ _ _ |- _ => inversion K; subst; clear K end).
          match goal with K : has_type _ (x_name _) _ |- _ => inversion K; subst; clear K end.
          match goal with K : sc_path _ _ = Some ?u |- _ => pose proof (eq_trans (eq_sym (bind_name (st "prev") _)) K) as B; injection B as -> end. assumption.
        - repeat (match goal with K : block_type _ _ _ |- _ => inversion K; subst; clear K end). assumption. }
      eapply Ty. split; [exact Hx|]. right. right. do 3 eexists. split; [reflexivity|]. split; eassumption.
    + hinv H. match goal with K : unary _ _ _ |- _ => inversion K; subst; try discriminate end. eapply Ty. eapply tree_shape; eassumption.
Qed.
Lemma unary_sound c op e t t' e' t'' : truths_negated e -> (op = UNot -> is_truth e = true) -> sound c e t -> unary_type op c t = FOk t' ->
  unary_fold op e t' = (e', FOk t'') -> sound c e' t''.
Proof.
  intros N Tr Se Ut Uf. destruct op; cbn [unary_type] in Ut; try (injection Ut as <-).
  1-4: cbn in Uf; injection Uf as <- <-; now apply keeps_sound.
  - (* + *)
    assert (D : e' = e /\ t'' = t \/ e' = EUnary UPlus e /\ t'' = t).
    { destruct e as [v|n l|ty e|l|e|l|ty|op e|l op r|a b d]; try (cbn in Uf; injection Uf as <- <-; auto). destruct l; cbn in Uf; injection Uf as <- <-; auto. }
    destruct D as [[-> ->] | [-> ->]]; [exact Se|now apply keeps_sound].
  - (* - *)
    assert (D : (exists i j, e = ELit (LInt i) /\ e' = ELit (LInt j)) /\ t'' = t \/ (exists f, e = ELit (LFloat f) /\ e' = ELit (LFloat (float_neg f))) /\ t'' = t \/ e' = EUnary UMinus e /\ t'' = t).
    { destruct e as [v|n l|ty e|l|e|l|ty|op e|l op r|a b d]; try (cbn in Uf; injection Uf as <- <-; auto). destruct l; cbn in Uf; injection Uf as <- <-; eauto 10. }
    destruct D as [[(i & j & -> & ->) ->] | [[(f & -> & ->) ->] | [-> ->]]].
    + rewrite (s_int _ _ _ Se I). apply (lit_sound c _ _ c); [discriminate|reflexivity].
    + pose proof (s_float _ _ _ Se f eq_refl) as Q. apply (lit_sound c _ _ c); [discriminate|]. rewrite <- Q. destruct f; reflexivity.
    + now apply keeps_sound.
  - specialize (Tr eq_refl). unfold unary_fold in Uf.
    assert (e' = EUnary UNot e /\ t'' = ty_b BBool) as [-> ->] by (destruct e; try discriminate Tr; injection Uf as <- <-; auto). now apply not_sound.
  - assert (e' = EUnary UComp e /\ t'' = t) as [-> ->].
    { destruct e as [v|n l|ty e|l|e|l|ty|op e|l op r|a b d]; try (cbn in Uf; injection Uf as <- <-; auto). destruct l; cbn in Uf; try discriminate; injection Uf as <- <-; auto. }
    now apply keeps_sound.
  - cbn in Uf. injection Uf as <- <-. eapply deref_sound; eassumption.
  - cbn in Uf. injection Uf as <- <-. now apply addr_sound.
Qed.
Lemma ternary_sound c a b d bt dt : sound c b bt -> sound c d dt -> sound c (ETernary a b d) (join_ty bt dt).
Proof.
  intros Sb Sd. apply sound_simple; [exact I|intros []|discriminate|intros cF _ _ []|].
  intros cF A F t0 x τ ts E [S1 S2] T H Tt. tinv T. hinv H.
  repeat (match goal with K : block_type _ _ _ |- _ => inversion K; subst; clear K end).
  apply join_left in E as [E | [_ E]].
  - eapply (s_type _ _ _ Sb cF A F); eauto using tree_shape.
  - eapply (s_type _ _ _ Sd cF A F); eauto using tree_shape.
Qed.

(** ** Inference *)

Lemma all_negated l :
  (fix all (l : list expr) : Prop := match l with [] => True | e :: l' => truths_negated e /\ all l' end) l <-> Forall truths_negated l.
Proof.
  induction l as [|e l IH]; [split; [constructor|auto]|]. split.
  - intros [A B]. constructor; [exact A|now apply IH].
  - intro F. inversion F; subst. split; [assumption|now apply IH].
Qed.
Lemma binary_types_sound l op r lt rt c l' r' c' f : sound c l lt -> sound c r rt -> truths_negated l -> truths_negated r ->
  binary_types cx l op r lt rt c = ((l', r'), c', f) ->
  truths_negated l' /\ truths_negated r' /\
  (forall t, f = FOk t -> exists lt' rt', sound c' l' lt' /\ sound c' r' rt' /\ (op <> OMember -> t = join_ty lt' rt')).
Proof.
  intros Sl Sr Nl Nr B. pose proof (binary_types_adv cx l op r lt rt c (l', r') c' f B) as Ad. revert B. unfold binary_types.
  destruct (match op, r with OMember, EVar (IArg i) => set_arg_type c i AIdent | _, _ => Some c end) as [c1|].
  2: { intros E; injection E as <- <- <- <-. split; [exact Nl|]. split; [exact Nr|discriminate]. }
  set (q := match l with EVar _ => _ | _ => _ end).
  assert (Q : exists l1 r1 lt1 rt1, q = (l1, r1, lt1, rt1) /\ truths_negated l1 /\ truths_negated r1 /\ (forall c, sound c l lt -> sound c l1 lt1) /\ (forall c, sound c r rt -> sound c r1 rt1)).
  { assert (Q1 : exists l1 r1 lt1 rt1, (l, r, lt, rt) = (l1, r1, lt1, rt1) /\ truths_negated l1 /\ truths_negated r1 /\ (forall c, sound c l lt -> sound c l1 lt1) /\ (forall c, sound c r rt -> sound c r1 rt1))
      by (do 4 eexists; split; [reflexivity|auto]).
    assert (Q2 : exists l1 r1 lt1 rt1, (if mul_or_add op then match max_ty_cast l with Some t => (ECast t l, r, Some t, rt) | None => (l, r, lt, rt) end else (l, r, lt, rt)) = (l1, r1, lt1, rt1) /\ truths_negated l1 /\ truths_negated r1 /\ (forall c, sound c l lt -> sound c l1 lt1) /\ (forall c, sound c r rt -> sound c r1 rt1)).
    { destruct (mul_or_add op); [|exact Q1]. destruct (max_ty_cast l) as [t|]; [|exact Q1].
      do 4 eexists; split; [reflexivity|]. split; [exact Nl|]. split; [exact Nr|]. split; [|auto]. intros; apply cast_sound. }
    assert (Q3 : exists l1 r1 lt1 rt1, (if mul_or_add op then match max_ty_cast r with Some t => (l, ECast t r, lt, Some t) | None => (l, r, lt, rt) end else (l, r, lt, rt)) = (l1, r1, lt1, rt1) /\ truths_negated l1 /\ truths_negated r1 /\ (forall c, sound c l lt -> sound c l1 lt1) /\ (forall c, sound c r rt -> sound c r1 rt1)).
    { destruct (mul_or_add op); [|exact Q1]. destruct (max_ty_cast r) as [t|]; [|exact Q1].
      do 4 eexists; split; [reflexivity|]. split; [exact Nl|]. split; [exact Nr|]. split; [auto|]. intros; apply cast_sound. }
    assert (Q4 : forall v, exists l1 r1 lt1 rt1, (ELit (LFloat (FFloat (i128_to_f32 v))), r, ty_b BFloat, rt) = (l1, r1, lt1, rt1) /\ truths_negated l1 /\ truths_negated r1 /\ (forall c, sound c l lt -> sound c l1 lt1) /\ (forall c, sound c r rt -> sound c r1 rt1)).
    { intro v. do 4 eexists; split; [reflexivity|]. split; [exact I|]. split; [exact Nr|]. split; [|auto]. intros c0 _. apply (lit_sound _ _ _ c0); [discriminate|reflexivity]. }
    assert (Q5 : forall v, exists l1 r1 lt1 rt1, (l, ELit (LFloat (FFloat (i128_to_f32 v))), lt, ty_b BFloat) = (l1, r1, lt1, rt1) /\ truths_negated l1 /\ truths_negated r1 /\ (forall c, sound c l lt -> sound c l1 lt1) /\ (forall c, sound c r rt -> sound c r1 rt1)).
    { intro v. do 4 eexists; split; [reflexivity|]. split; [exact Nl|]. split; [exact I|]. split; [auto|]. intros c0 _. apply (lit_sound _ _ _ c0); [discriminate|reflexivity]. }
    subst q. clear - Q1 Q2 Q3 Q4 Q5.
    destruct l as [v|n x|ty x|[ch|s|fl|[vl [sl|]]]|x|x|ty|op1 x|x op1 y|x y z]; destruct r as [v'|n' x'|ty' x'|[ch'|s'|fl'|[vr [sr|]]]|x'|x'|ty'|op' x'|x' op' y'|x' y' z'];
      first [exact Q1 | exact Q2 | exact Q3 | apply Q4 | apply Q5]. }
  destruct Q as (l1 & r1 & lt1 & rt1 & -> & N1 & N2 & S1 & S2).
  intro E; injection E as <- <- <- <-. split; [exact N1|]. split; [exact N2|]. intros t Et. exists lt1, rt1.
  split; [apply S1; eapply sound_adv; eassumption|]. split; [apply S2; eapply sound_adv; eassumption|].
  intro M. destruct op; try contradiction; now injection Et.
Qed.
Lemma binary_fold_sound c l op r lt rt t e f : sound c l lt -> sound c r rt -> truths_negated l -> truths_negated r -> (op <> OMember -> t = join_ty lt rt) ->
  binary_fold cx l op r t c = (e, f) ->
  truths_negated e /\ (is_truth (EBinary l op r) = true -> is_truth e = true) /\ (forall t', f = FOk t' -> sound c e t').
Proof.
  intros Sl Sr Nl Nr J.
  assert (O : (EBinary l op r, FOk (if is_comparison op then ty_b BBool else t)) = (e, f) ->
    truths_negated e /\ (is_truth (EBinary l op r) = true -> is_truth e = true) /\ (forall t', f = FOk t' -> sound c e t')).
  { intro E; injection E as <- <-. split; [now split|]. split; [auto|]. intros t' E. injection E as <-. eapply binary_sound; eassumption. }
  unfold binary_fold. destruct l as [| | |[| |fa|ia]| | | | | |]; try exact O; destruct r as [| | |[| |fb|ib]| | | | | |]; try exact O.
  - destruct (float_op op) as [h|] eqn:Fo; [|exact O]. intro E; injection E as <- <-. split; [exact I|].
    split; [destruct op; discriminate|]. intros t' E. apply (lit_sound _ _ _ c); [discriminate|exact E].
  - destruct (int_folds op) eqn:Io; [|exact O]. destruct (int_op op _ _) as [v|]; intro E; injection E as <- <-.
    + split; [exact I|]. split; [destruct op; discriminate|]. intros t' E. injection E as <-. apply (lit_sound _ _ _ c); [discriminate|reflexivity].
    + split; [now split|]. split; [auto|discriminate].
Qed.
Lemma unary_fold_negated op e t e' f : truths_negated e -> (op = UNot -> is_truth e = true) -> unary_fold op e t = (e', f) ->
  truths_negated e' /\ (op = UNot -> is_truth e' = true).
Proof.
  intros N Tr. assert (O : forall r, (EUnary op e, r) = (e', f) -> truths_negated e' /\ (op = UNot -> is_truth e' = true)).
  { intros r E; injection E as <- _. split; [now split|]. now intros ->. }
  destruct op.
  1-4, 9-10: apply O.
  - destruct e as [| | |[]| | | | | |]; try apply O; intro E; injection E as <- <-; (split; [exact I|discriminate]).
  - destruct e as [| | |[]| | | | | |]; try apply O; intro E; injection E as <- <-; (split; [exact I|discriminate]).
  - specialize (Tr eq_refl). destruct e as [| | |[]| | | | | |]; try discriminate Tr; unfold unary_fold.
    + destruct (oty_eqb t (ty_b BBool)); [apply O|]. intro E; injection E as <- <-. split; [|reflexivity]. split; [exact N|]. repeat match goal with |- context [match ?x with _ => _ end] => destruct x end; exact I.
    + destruct (oty_eqb t (ty_b BBool)); [apply O|]. intro E; injection E as <- <-. split; [|reflexivity]. split; [exact N|]. repeat match goal with |- context [match ?x with _ => _ end] => destruct x end; exact I.
  - destruct e as [| | |[]| | | | | |]; try apply O; intro E; injection E as <- <-; (split; [now split|discriminate]).
Qed.

Definition well (n : nat) (e : expr) : Prop := forall c e' c' f, finish cx n e c = (e', c', f) -> truths_negated e -> known_given c ->
  truths_negated e' /\ (is_truth e = true -> is_truth e' = true) /\ (forall t, f = FOk t -> sound c' e' t).
Lemma list_negated n l : Forall (well n) l ->
  Forall truths_negated l -> forall c l' c' f, known_given c -> list_finish (finish cx n) l c = (l', c', f) -> Forall truths_negated l'.
Proof.
  induction 1 as [|e l H HF IH]; intros N c l' c' f K; cbn [list_finish].
  - intro E; injection E as <- <- <-. constructor.
  - inversion N as [|? ? Ne Nl]; subst. destruct (finish cx n e c) as [[e1 c1] r] eqn:E. destruct (H _ _ _ _ E Ne K) as (N1 & _).
    assert (K1 : known_given c1) by (eapply known_adv; [eapply finish_adv; exact E|exact K]). unfold fbind. destruct r; try (intro X; injection X as <- <- <-; now constructor).
    destruct (list_finish _ l c1) as [[l2 c2] r2] eqn:L. intro X; injection X as <- <- <-. constructor; [assumption|]. eapply IH; eassumption.
Qed.
Lemma push_negated acc cur : Forall truths_negated acc -> Forall truths_negated (push_string acc cur).
Proof. intro F. destruct cur; [|exact F]. cbn. apply Forall_app. split; [exact F|]. repeat constructor. Qed.
Lemma concat_negated n l : Forall (well n) l ->
  Forall truths_negated l -> forall done acc cur c self names c' f, known_given c -> Forall truths_negated done -> Forall truths_negated acc ->
  concat_finish (finish cx n) done l acc cur c = (self, names, c', f) -> truths_negated self /\ Forall truths_negated names.
Proof.
  induction 1 as [|e l H HF IH]; intros N done acc cur c self names c' f K Nd Na; cbn [concat_finish].
  - intro E; injection E as <- <- <- <-. split; [now apply all_negated|now apply push_negated].
  - inversion N as [|? ? Ne Nl]; subst. destruct (finish cx n e c) as [[e1 c1] r] eqn:E. destruct (H _ _ _ _ E Ne K) as (N1 & _).
    assert (K1 : known_given c1) by (eapply known_adv; [eapply finish_adv; exact E|exact K]).
    assert (Nd' : Forall truths_negated (done ++ [e1])) by (apply Forall_app; split; [assumption|repeat constructor; assumption]).
    assert (Na' : Forall truths_negated (push_string acc cur ++ [e1])) by (apply Forall_app; split; [now apply push_negated|repeat constructor; assumption]).
    assert (X : forall g, (EConcat (done ++ e1 :: l), [], c1, g) = (self, names, c', f) -> truths_negated self /\ Forall truths_negated names).
    { intros g0 X; injection X as <- <- <- <-. split; [|constructor]. apply all_negated. apply Forall_app. split; [assumption|]. now constructor. }
    assert (Y : forall a u, Forall truths_negated a -> concat_finish (finish cx n) (done ++ [e1]) l a u c1 = (self, names, c', f) -> truths_negated self /\ Forall truths_negated names).
    { intros a u Na2 Y. exact (IH Nl _ _ _ _ _ _ _ _ K1 Nd' Na2 Y). }
    destruct r; try solve [apply X].
    destruct e1 as [v| | |lt| | | | | |]; try (apply Y; assumption).
    + destruct v as [i|s|li]; try (apply Y; assumption). destruct (str_eqb s _); [apply Y; assumption|apply X].
    + destruct lt as [ch|s|fl|it]; try (apply Y; assumption). destruct (lit_string_as_bytes s); [apply Y; assumption|apply X].
Qed.

Theorem finish_sound n : forall e c e' c' f, finish cx n e c = (e', c', f) -> truths_negated e -> known_given c ->
  truths_negated e' /\ (is_truth e = true -> is_truth e' = true) /\ (forall t, f = FOk t -> sound c' e' t).
Proof.
  induction n as [n IHn] using lt_wf_ind.
  assert (AGN : forall e c e' c' f, again_of cx n e c = (e', c', f) -> truths_negated e -> known_given c ->
    truths_negated e' /\ (is_truth e = true -> is_truth e' = true) /\ (forall t, f = FOk t -> sound c' e' t)).
  { intros e c e' c' f. destruct n as [|n']; [intro E; injection E as <- <- <-; intros; split; [assumption|split; [auto|discriminate]] | apply IHn; lia]. }
  clear IHn.
  assert (NO : forall (e e' : expr) (c' : lctx) f, truths_negated e' -> (is_truth e = true -> is_truth e' = true) -> (forall t, f <> FOk t) ->
    truths_negated e' /\ (is_truth e = true -> is_truth e' = true) /\ (forall t, f = FOk t -> sound c' e' t)).
  { intros e e' c' f A B C. split; [exact A|]. split; [exact B|]. intros t E. destruct (C t E). }
  induction e as [v|v l IHl|t e IHe|l|a IHa|l IHl|t|op e IHe|a op b IHa IHb|a b d IHa IHb IHd] using expr_ind'; intros c e' c' f;
    rewrite finish_eq; cbn [finish_step].
  - destruct (var_finish cx v c) as [c1 r] eqn:V. intro E; injection E as <- <- <-. intros N K. split; [exact I|]. split; [discriminate|].
    intros t ->. eapply var_sound; eassumption.
  - destruct (lc_var c); [intro E; injection E as <- <- <-; intros N K; apply NO; [exact N|auto|discriminate]|].
    destruct (ident_finish v c) as [c1 r] eqn:E. pose proof (ident_adv _ _ _ _ E) as A1. 
    destruct r; try (intro X; injection X as <- <- <-; intros N K; apply NO; [exact N|auto|discriminate]).
    destruct (list_finish (finish cx n) l c1) as [[l2 c2] r2] eqn:L.
    assert (Ln : Forall truths_negated l -> known_given c -> Forall truths_negated l2).
    { intros Nl K. eapply list_negated; [exact IHl|exact Nl| |exact L]. eapply known_adv; eassumption. }
    unfold fbind. destruct r2; try (intro X; injection X as <- <- <-; intros N K; apply NO; [apply all_negated, Ln; [now apply all_negated|exact K]|auto|discriminate]).
    destruct (call_types cx v l2 c2) as [c3 r3] eqn:C. intro X; injection X as <- <- <-. intros N K. split; [apply all_negated, Ln; [now apply all_negated|exact K]|].
    split; [auto|]. intros t1 ->. eapply call_sound; eassumption.
  - destruct (ty_finish cx t c) as [[t1 c1] r1] eqn:T. pose proof (ty_adv _ _ _ _ _ _ T) as A1.
    destruct (match r1 with FOk _ => finish cx n e c1 | _ => (e, c1, r1) end) as [[e2 c2] r2] eqn:Q.
    intros X N K. cbn [truths_negated] in N.
    assert (S : truths_negated e2 /\ known_given c2).
    { destruct r1; try (injection Q as <- <- <-; split; [exact N|eapply known_adv; eassumption]).
      split; [eapply IHe; [exact Q|exact N|eapply known_adv; eassumption]|]. eapply known_adv; [eapply finish_adv; exact Q|]. eapply known_adv; eassumption. }
    destruct S as [N2 K2].
    assert (A : forall b, truths_negated b -> again_of cx n b c2 = (e', c', f) -> truths_negated e' /\ (is_truth (ECast t e) = true -> is_truth e' = true) /\ (forall t, f = FOk t -> sound c' e' t)).
    { intros b Nb B. destruct (AGN _ _ _ _ _ B Nb K2) as (B1 & _ & B3). split; [exact B1|]. split; [discriminate|exact B3]. }
    destruct r2 as [o|[x| | |x|x]| |]; try (injection X as <- <- <-; apply NO; [exact N2|discriminate|discriminate]).
    + destruct (cast_as_binary cx t1 e2) as [b|] eqn:Cb.
      { apply (A b); [|exact X]. revert Cb. unfold cast_as_binary. destruct e2 as [| | | | | | |op e3| |]; try discriminate. destruct t1 as [|nm [|]| | |]; try discriminate.
        match goal with |- (if ?q then _ else _) = _ -> _ => destruct q; [|discriminate] end. cbn in N2. destruct op; try discriminate; intro E; injection E as <-; cbn; tauto. }
      destruct (redundant_cast t1 e2) eqn:R; injection X as <- <- <-.
      * split; [exact N2|]. split; [discriminate|]. intros t2 E. injection E as <-. destruct e2 as [| | |[|[s|s|s|s|s]| |]| | | | | |]; try discriminate R.
        apply (lit_sound _ _ _ c2); [discriminate|reflexivity].
      * split; [exact N2|]. split; [discriminate|]. intros t2 E. injection E as <-. apply cast_sound.
    + destruct (cast_of_deref t1 e2) as [b|] eqn:Cb.
      { apply (A b); [|exact X]. revert Cb. unfold cast_of_deref. destruct e2 as [| |t2 e2| | | | | | |]; try discriminate. destruct t2 as [|nm [|]| | |]; try discriminate.
        destruct e2 as [| | | | | | |[] e3| |]; try discriminate. destruct e3 as [| |t3 e3| | | | | | |]; try discriminate. destruct (ctype_eqb t1 t3); [|discriminate].
        intro E; injection E as <-. cbn in *. tauto. }
      injection X as <- <- <-; apply NO; [exact N2|discriminate|discriminate].
  - destruct l as [x|x|x|x]; try (intro E; injection E as <- <- <-; intros N K; split; [exact I|split; [discriminate|intros t E; apply (lit_sound _ _ _ c); [discriminate|exact E]]]).
    destruct (char_finish cx x c) as [[t|]| | |]; intro E; injection E as <- <- <-; intros N K; (split; [exact I|split; [discriminate|intros t0 E; try discriminate]]).
    injection E as <-. apply cast_sound.
  - destruct (stringify_finish a c) as [c1 r] eqn:V. intro E; injection E as <- <- <-. intros N K. split; [exact N|]. split; [discriminate|]. intros t ->. eapply stringify_sound; eassumption.
  - destruct (concat_finish (finish cx n) [] l [] None c) as [[[self names] c1] r] eqn:Q.
    intros X N K. assert (A1 : advances c c1).
    { eapply (concat_adv (finish cx n)); [|exact Q]. apply Forall_forall. intros e0 _ c2 e2 c3 f2 E2. eapply finish_adv; exact E2. }
    apply all_negated in N. destruct (concat_negated _ _ IHl N _ _ _ _ _ _ _ _ K (Forall_nil _) (Forall_nil _) Q) as [Ns Nn].
    destruct r as [o| | |]; destruct names as [|x1 [|x2 names]]; try (injection X as <- <- <-; apply NO; [exact Ns|discriminate|discriminate]).
    + injection X as <- <- <-. split; [exact I|]. split; [discriminate|]. intros t E. injection E as <-. apply concat_sound.
    + inversion Nn; subst. destruct (AGN _ _ _ _ _ X H1 (known_adv _ _ A1 K)) as (B1 & _ & B3). split; [exact B1|]. split; [discriminate|exact B3].
    + injection X as <- <- <-. split; [exact (proj2 (all_negated _) Nn)|]. split; [discriminate|]. intros t E. injection E as <-. apply concat_sound.
  - destruct (ty_finish cx t c) as [[t1 c1] r1] eqn:T.
    unfold fbind. destruct r1; intro E; injection E as <- <- <-; intros N K; (split; [exact I|split; [discriminate|intros t9 E; try discriminate]]).
    injection E as <-. apply sizeof_sound.
  - destruct (finish cx n e c) as [[e1 c1] r1] eqn:F. intros X [N Nt] K. destruct (IHe _ _ _ _ F N K) as (N1 & T1 & S1). clear IHe. revert X. unfold fbind.
    assert (Nt1 : op = UNot -> is_truth e1 = true) by auto.
    assert (Tr : is_truth (EUnary op e) = true -> op = UNot) by (destruct op; discriminate || reflexivity).
    assert (O : forall r, (forall t, r <> FOk t) -> (EUnary op e1, c1, r) = (e', c', f) -> truths_negated e' /\ (is_truth (EUnary op e) = true -> is_truth e' = true) /\ (forall t, f = FOk t -> sound c' e' t)).
    { intros r Nr X. injection X as <- <- <-. apply NO; [now split|now destruct op|exact Nr]. }
    destruct r1; try (apply O; discriminate).
    destruct (unary_type op c1 t) as [t1| | |] eqn:Ut; try (apply O; discriminate).
    destruct (unary_fold op e1 t1) as [e2 r2] eqn:Uf. intro E; injection E as <- <- <-. destruct (unary_fold_negated _ _ _ _ _ N1 Nt1 Uf) as [N2 T2].
    split; [exact N2|]. split; [auto|]. intros t2 ->. exact (unary_sound _ _ _ _ _ _ _ N1 Nt1 (S1 _ eq_refl) Ut Uf).
  - destruct (finish cx n a c) as [[a1 c1] r1] eqn:F1. intros X [Na Nb] K. destruct (IHa _ _ _ _ F1 Na K) as (N1 & _ & S1). clear IHa. pose proof (finish_adv _ _ _ _ _ _ _ F1) as A1.
    assert (K1 : known_given c1) by (eapply known_adv; eassumption). revert X. unfold fbind.
    destruct r1 as [t| | |]; try (intro E; injection E as <- <- <-; apply NO; [now split|auto|discriminate]).
    destruct (finish cx n b c1) as [[b1 c2] r2] eqn:F2. destruct (IHb _ _ _ _ F2 Nb K1) as (N2 & _ & S2). clear IHb. pose proof (finish_adv _ _ _ _ _ _ _ F2) as A2.
    destruct r2 as [t0| | |]; try (intro E; injection E as <- <- <-; apply NO; [now split|auto|discriminate]).
    destruct (binary_types cx a1 op b1 t t0 c2) as [[[a2 b2] c3] r3] eqn:T. 
    destruct (binary_types_sound _ _ _ _ _ _ _ _ _ _ (sound_adv _ _ _ _ A2 (S1 _ eq_refl)) (S2 _ eq_refl) N1 N2 T) as (N3 & N4 & J).
    destruct r3 as [t1| | |]; try (intro E; injection E as <- <- <-; apply NO; [now split|auto|discriminate]).
    destruct (J _ eq_refl) as (lt & rt & Sl & Sr & J'). cbn [fst snd].
    destruct (binary_fold cx a2 op b2 t1 c3) as [e2 f2] eqn:Bf. intro E; injection E as <- <- <-.
    exact (binary_fold_sound _ _ _ _ _ _ _ _ _ Sl Sr N3 N4 J' Bf).
  - unfold condition_finish.
    destruct (finish cx n a c) as [[a1 c1] r1] eqn:F1. intros X (Na & Nb & Nd) K. destruct (IHa _ _ _ _ F1 Na K) as (N1 & _ & S1). clear IHa. pose proof (finish_adv _ _ _ _ _ _ _ F1) as A1.
    assert (K1 : known_given c1) by (eapply known_adv; eassumption). revert X. unfold fbind.
    destruct r1 as [t| | |]; try (intro E; injection E as <- <- <-; apply NO; [now repeat split|auto|discriminate]).
    set (a2 := if oty_eqb t (ty_b BBool) then a1 else EBinary a1 ONeq int_zero). assert (N1' : truths_negated a2) by (subst a2; destruct (oty_eqb t (ty_b BBool)); [exact N1|now split]).
    destruct (finish cx n b c1) as [[b1 c2] r2] eqn:F2. destruct (IHb _ _ _ _ F2 Nb K1) as (N2 & _ & S2). clear IHb. pose proof (finish_adv _ _ _ _ _ _ _ F2) as A2.
    assert (K2 : known_given c2) by (eapply known_adv; eassumption).
    destruct r2 as [t0| | |]; try (intro E; injection E as <- <- <-; apply NO; [now repeat split|auto|discriminate]).
    destruct (finish cx n d c2) as [[d1 c3] r3] eqn:F3. destruct (IHd _ _ _ _ F3 Nd K2) as (N3 & _ & S3). clear IHd. pose proof (finish_adv _ _ _ _ _ _ _ F3) as A3.
    destruct r3 as [t1| | |]; intro E; injection E as <- <- <-; try (apply NO; [now repeat split|auto|discriminate]).
    split; [now repeat split|]. split; [auto|]. intros t2 E. injection E as <-. apply ternary_sound; [|now apply S3]. eapply sound_adv; [exact A3|now apply S2].
Qed.
End T.
