(** C43: built-in types survive the conversion to a Rust type and back. *)
From Verif Require Import Base Utf Lex LexFloat Token Ast ParseStmt Rust Finish Codegen StrFacts.
From Coq Require Import String List.
Import ListNotations.
Local Open Scope string_scope.
Local Open Scope list_scope.

(** ** Specification *)

(** Built-in types, and pointers and constant pointers to them. *)
Inductive value_type : builtin -> ctype -> Prop :=
| vt_builtin b : value_type b (TyBuiltIn b)
| vt_ptr b t : value_type b t -> value_type b (TyPtr t)
| vt_const_ptr b t : value_type b t -> value_type b (TyQual (TyPtr t) QConst).

(** The same type with [long double] replaced by [double]. *)
Fixpoint without_long_double (t : ctype) : ctype :=
  match t with
  | TyBuiltIn BLongDouble => TyBuiltIn BDouble
  | TyPtr t => TyPtr (without_long_double t)
  | TyQual t q => TyQual (without_long_double t) q
  | t => t
  end.

(** The types that Rust's core library spells without a module. *)
Definition primitive (b : builtin) : Prop := In b [BFloat; BDouble; BLongDouble; BBool; BChar8T; BChar16T; BChar32T].
(** [size_t] is spelled [c_size_t]: the user gives no type for it and the target
    is unknown or a nightly compiler. *)
Definition has_size_t (cx : cgctx) : Prop :=
  cx_ty cx (st "size_t") = None /\ (forall t, cx_target cx = Some t -> contains t (st "nightly") = true).

(** ** Proofs *)

Lemma strip_app p l : strip_segs p (p ++ l) = Some l.
Proof. induction p as [|x p IH]; [reflexivity|]. cbn [app strip_segs]. rewrite str_eqb_refl. exact IH. Qed.

Lemma ffi_back cx name b : rust_name rust_names (st name) = Some b ->
  from_rust_ty (cx_ffi cx) (ffi_ty cx name) = ROk (TyBuiltIn b).
Proof.
  intros E. unfold ffi_ty. destruct (cx_ffi cx) as [p|]; cbn [from_rust_ty builtin_from_rust sp_colon sp_segs].
  - rewrite Bool.eqb_reflx, strip_app. cbn [fst]. rewrite E. reflexivity.
  - cbn [fst]. rewrite E. reflexivity.
Qed.

Lemma size_t_ffi cx : has_size_t cx -> builtin_to_rust cx BSizeT = ffi_ty cx "c_size_t".
Proof.
  intros [N T]. cbn [builtin_to_rust]. rewrite N. destruct (cx_target cx) as [t|]; [rewrite (T t eq_refl)|]; reflexivity.
Qed.

Lemma builtin_back cx b : (primitive b -> cx_ffi cx = None) -> (b = BSizeT -> has_size_t cx) ->
  from_rust_ty (cx_ffi cx) (builtin_to_rust cx b) = ROk (without_long_double (TyBuiltIn b)).
Proof.
  intros P S. destruct b; try (apply (ffi_back cx); reflexivity);
    try (rewrite P by (unfold primitive; simpl; tauto); reflexivity).
  rewrite (size_t_ffi cx (S eq_refl)). apply (ffi_back cx). reflexivity.
Qed.

(** ** The theorems *)

(** The conversion succeeds for every such type and, if no primitive type meets
    a prefix and [size_t] is not renamed, converting back gives the same type. *)
Theorem C43_round_trip_partial {U : Unicode} cx b t : value_type b t ->
  (primitive b -> cx_ffi cx = None) -> (b = BSizeT -> has_size_t cx) ->
  exists r, to_rust_ty cx t = Some (Some r) /\ from_rust_ty (cx_ffi cx) r = ROk (without_long_double t).
Proof.
  intros V P S. induction V as [b|b t V IH|b t V IH].
  - eexists. split; [reflexivity|]. now apply builtin_back.
  - destruct (IH P S) as (r & E & F). exists (STPtr true r). cbn [to_rust_ty]. rewrite E. split; [reflexivity|].
    cbn [from_rust_ty]. rewrite F. reflexivity.
  - destruct (IH P S) as (r & E & F). exists (STPtr false r). cbn [to_rust_ty q_is_const]. rewrite E. split; [reflexivity|].
    cbn [from_rust_ty]. rewrite F. reflexivity.
Qed.

(** With any prefix, the primitive types come back as user-defined types, so the
    property is false for them. *)
Theorem C43_round_trip_refuted {U : Unicode} cx p b : cx_ffi cx = Some p -> sp_segs p <> [] -> primitive b ->
  exists r n, to_rust_ty cx (TyBuiltIn b) = Some (Some r) /\ from_rust_ty (cx_ffi cx) r = ROk (TyIdent (IPlain n) false).
Proof.
  intros C N I. rewrite C.
  assert (G : forall s, from_rust_ty (Some p) (plain_ty s) = ROk (TyIdent (IPlain (st s)) false)).
  { intros s. unfold plain_ty. cbn [from_rust_ty builtin_from_rust sp_colon sp_segs].
    destruct (sp_colon p); [reflexivity|]. cbn [Bool.eqb]. destruct (sp_segs p) as [|x l]; [contradiction|]. cbn [strip_segs fst].
    destruct (str_eqb (st s) (fst x)); [|reflexivity]. destruct l; reflexivity. }
  unfold primitive in I. simpl in I. decompose [or] I; subst; try contradiction;
    cbn [to_rust_ty builtin_to_rust]; do 2 eexists; (split; [reflexivity|apply G]).
Qed.

(** And with a stable target [size_t] becomes [usize], which is not read back. *)
Theorem C43_size_t_refuted {U : Unicode} cx t : cx_ffi cx = None -> cx_ty cx (st "size_t") = None ->
  cx_target cx = Some t -> contains t (st "nightly") = false ->
  exists r, to_rust_ty cx (TyBuiltIn BSizeT) = Some (Some r) /\ from_rust_ty (cx_ffi cx) r = ROk (TyIdent (IPlain (st "usize")) false).
Proof.
  intros F N T C. rewrite F. cbn [to_rust_ty builtin_to_rust]. rewrite N, T, C. eexists. split; reflexivity.
Qed.

(** A user-defined type keeps its name, unless the name is that of a built-in
    type. *)
Theorem C43_named {U : Unicode} cx n s : is_identifier n = true -> rust_name rust_names n = None ->
  exists r, to_rust_ty cx (TyIdent (IPlain n) s) = Some (Some r) /\ from_rust_ty (cx_ffi cx) r = ROk (TyIdent (IPlain n) false).
Proof.
  intros I N. cbn [to_rust_ty]. unfold ident_tok. rewrite I. eexists. split; [reflexivity|].
  cbn [from_rust_ty builtin_from_rust sp_colon sp_segs].
  destruct (cx_ffi cx) as [p|]; [|cbn [fst]; now rewrite N].
  destruct (sp_colon p); [reflexivity|]. cbn [Bool.eqb]. destruct (sp_segs p) as [|x l]; cbn [strip_segs fst]; [now rewrite N|].
  destruct (str_eqb n (fst x)); [|reflexivity]. destruct l; reflexivity.
Qed.

(** ** The other direction: the Rust types that a caller states *)

(** A path of identifiers without arguments, and pointers to it. *)
Definition plain_path {U : Unicode} (p : spath) : Prop :=
  sp_segs p <> [] /\ forall x, In x (sp_segs p) -> is_identifier (fst x) = true /\ snd x = [].
Inductive stated {U : Unicode} (p : spath) : sty -> Prop :=
| sd_path : plain_path p -> stated p (STPath None p)
| sd_ptr m r : stated p r -> stated p (STPtr m r).
(** The names that are spelled without a module, whatever the prefix. *)
Definition unsteady (n : str) : Prop :=
  In n (map st ["f32"; "f64"; "bool"; "u8"; "u16"; "u32"]).
Definition steady (cx : cgctx) (p : spath) : Prop :=
  forall q n a, sp_segs p = q ++ [(n, a)] -> n <> st "f128" /\ n <> st "c_size_t" /\ (q = [] -> sp_colon p = true -> cx_ffi cx <> None) /\ (cx_ffi cx <> None -> ~ unsteady n).
Definition plain_prefix (cx : cgctx) : Prop := forall p, cx_ffi cx = Some p -> forall x, In x (sp_segs p) -> snd x = [].

Lemma idents_all {U : Unicode} l : (forall x, In x l -> is_identifier (fst x) = true /\ snd x = []) -> idents (map fst l) = Some l.
Proof.
  induction l as [|[n a] l IH]; intros A; [reflexivity|]. cbn [map idents fst]. destruct (A (n, a)) as [I E]; [now left|]. cbn [fst snd] in *. subst a.
  unfold ident_tok. rewrite I, IH; [reflexivity|]. intros x Hx. apply A. now right.
Qed.
Lemma strip_inv p : forall s l, (forall x, In x p -> snd x = []) -> (forall x, In x s -> snd x = []) -> strip_segs p s = Some l -> s = p ++ l.
Proof.
  induction p as [|[n a] p IH]; intros s l Hp Hs E; [now injection E as <-|]. destruct s as [|[n' a'] s]; [discriminate|]. cbn [strip_segs fst] in E.
  destruct (str_eqb_spec n' n) as [-> |]; [|discriminate]. pose proof (Hp (n, a) (or_introl eq_refl)) as K. pose proof (Hs (n, a') (or_introl eq_refl)) as K'.
  cbn [snd] in K, K'. subst. cbn [app]. f_equal. apply IH; [intros x Hx; apply Hp; now right|intros x Hx; apply Hs; now right|exact E].
Qed.
Lemma name_back cx n b : rust_name rust_names n = Some b -> n <> st "f128" -> n <> st "c_size_t" -> (cx_ffi cx <> None -> ~ unsteady n) ->
  builtin_to_rust cx b = STPath None (match cx_ffi cx with Some p => mk_path (sp_colon p) (sp_segs p ++ [(n, [])]) | None => mk_path false [(n, [])] end).
Proof.
  intros E N1 N2 N3. unfold rust_names in E. cbn [rust_name] in E.
  assert (G : forall m, n = st m -> In m ["f32"; "f64"; "bool"; "u8"; "u16"; "u32"] -> cx_ffi cx = None).
  { intros m -> Hm. destruct (cx_ffi cx); [|reflexivity]. exfalso. apply N3; [discriminate|]. now apply in_map. }
  repeat match type of E with (if ?c then _ else _) = _ =>
    let K := fresh in destruct c eqn:K; [apply str_eqb_eq in K; injection E as <-; try contradiction;
      first [rewrite K; reflexivity | rewrite (G _ K) by (simpl; tauto); rewrite K; reflexivity]|clear K] end.
  discriminate E.
Qed.

(** A Rust type of plain paths and pointers that the caller states, for a
    parameter, a variable or an enumeration, is generated as it was stated: the
    conversion to a C type and back keeps every segment, the leading colons and
    the pointers, if the name is steady.  Not so for [f128], which is generated as
    [f64], for [c_size_t] (C43_size_t_refuted), for [p::f32] with the prefix [p],
    which is generated as [f32], and for [::c_int] without a prefix, which loses
    its colons. *)
Theorem C43_stated_partial {U : Unicode} cx p r : stated p r -> steady cx p -> plain_prefix cx ->
  exists t, from_rust_ty (cx_ffi cx) r = ROk t /\ to_rust_ty cx t = Some (Some r).
Proof.
  intros D S F. induction D as [[N I]|m r D (t & E1 & E2)].
  - assert (Q : to_rust_ty cx (TyPath (sp_colon p) (map fst (sp_segs p))) = Some (Some (STPath None p))).
    { cbn [to_rust_ty]. rewrite (idents_all _ I). destruct p; reflexivity. }
    cbn [from_rust_ty]. destruct (builtin_from_rust None p (cx_ffi cx)) as [b|] eqn:B.
    + exists (TyBuiltIn b). split; [reflexivity|]. cbn [to_rust_ty]. do 2 f_equal. unfold builtin_from_rust in B.
      assert (G : exists q n a, sp_segs p = q ++ [(n, a)] /\ rust_name rust_names n = Some b /\
        p = match cx_ffi cx with Some p => mk_path (sp_colon p) (sp_segs p ++ [(n, [])]) | None => mk_path false [(n, [])] end \/ cx_ffi cx = None /\ sp_colon p = true /\ sp_segs p = [(n, a)]).
      { destruct (cx_ffi cx) as [f|] eqn:Ef.
        - destruct (Bool.eqb (sp_colon p) (sp_colon f)) eqn:C; [|discriminate]. apply Bool.eqb_prop in C. destruct (strip_segs (sp_segs f) (sp_segs p)) as [l|] eqn:El; [|discriminate].
          apply strip_inv in El; [|exact (F f Ef)|intros x Hx; now apply I]. destruct l as [|[n a] [|]]; try discriminate. exists (sp_segs f), n, a.
          left. split; [exact El|]. split; [exact B|]. assert (a = []) as ->. { apply (I (n, a)). rewrite El. apply in_or_app. right. now left. }
          destruct p as [c l]. cbn [sp_colon sp_segs] in *. now subst.
        - destruct (sp_segs p) as [|[n a] [|]] eqn:El; try discriminate. exists [], n, a. destruct (sp_colon p) eqn:C; [now right|]. left.
          split; [reflexivity|]. split; [exact B|]. destruct (I (n, a)) as [_ K]; [now left|]. cbn [snd] in K. subst a. destruct p as [c l]. cbn in *. now subst. }
      destruct G as (q & n & a & [(Es & En & Ep)|(En & Ec & Es)]).
      * destruct (S _ _ _ Es) as (N1 & N2 & _ & N3). rewrite Ep. now apply name_back.
      * exfalso. destruct (S [] _ _ Es) as (_ & _ & K & _). now apply K.
    + destruct (sp_colon p) eqn:C; [eexists; split; [reflexivity|exact Q]|]. destruct (sp_segs p) as [|[n a] [|y l]] eqn:El; [contradiction| |eexists; split; [reflexivity|exact Q]].
      exists (TyIdent (IPlain n) false). split; [reflexivity|]. destruct (I (n, a)) as [K1 K2]; [now left|]. cbn [fst snd] in *. subst a.
      cbn [to_rust_ty]. unfold ident_tok. rewrite K1. destruct p as [c l']. cbn in *. now subst.
  - cbn [from_rust_ty]. rewrite E1. destruct m; eexists; (split; [reflexivity|]); cbn [to_rust_ty q_is_const]; rewrite E2; reflexivity.
Qed.

(** The tokens that are generated for a C type are those of its Rust type. *)
Theorem C43_tokens {U : Unicode} cx c t : forall r, to_rust_ty cx t = Some (Some r) -> ty_toks cx c t = Some (sty_toks r).
Proof.
  assert (G : forall l s, idents l = Some s -> all_toks (fun s => omap (fun t => [t]) (ident_tok s)) l = Some (map (fun s => RId (fst s) :: snd s) s)).
  { induction l as [|n l IH]; intros s E; cbn [idents] in E; [now injection E as <-|]. unfold ident_tok in *. cbn [all_toks]. destruct (is_identifier n); [|discriminate].
    destruct (idents l) as [s'|]; [|discriminate]. injection E as <-. now rewrite (IH s' eq_refl). }
  assert (A : forall t, (forall r, to_rust_ty cx t = Some (Some r) -> ty_toks cx c t = Some (sty_toks r)) ->
    forall m r, omap (omap (STPtr m)) (to_rust_ty cx t) = Some (Some r) -> omap (fun ts => rp "*" :: ri (if m then "mut" else "const") :: ts) (ty_toks cx c t) = Some (sty_toks r)).
  { intros t0 IH m r E. destruct (to_rust_ty cx t0) as [[r0|]|] eqn:E0; try discriminate. injection E as <-. rewrite (IH r0 eq_refl). reflexivity. }
  pose (ok := fun t => forall r, to_rust_ty cx t = Some (Some r) -> ty_toks cx c t = Some (sty_toks r)).
  enough (K : ok t /\ match t with TyPtr t' => ok t' | _ => True end) by apply K.
  induction t as [b|n s|colon l|t [IH _]|t [IH IH']].
  - split; [|exact I]. intros r E. injection E as <-. reflexivity.
  - split; [|exact I]. intros r E. destruct n as [i|n|l]; try discriminate E. cbn [to_rust_ty] in E. cbn [ty_toks ident_toks]. unfold ident_tok in *.
    destruct (is_identifier n); [|discriminate E]. injection E as <-. reflexivity.
  - split; [|exact I]. intros r E. cbn [to_rust_ty] in E. cbn [ty_toks]. destruct (idents l) as [s|] eqn:El; [|discriminate]. injection E as <-. rewrite (G _ _ El). reflexivity.
  - split; [|exact IH]. intros r E. exact (A t IH true r E).
  - split; [|exact I]. intros r E. destruct t as [b|n s|colon l|t|t q']; try exact (IH r E).
    cbn [to_rust_ty ty_toks] in *. destruct (q_is_const q); [exact (A t IH' false r E)|exact (A t IH' true r E)].
Qed.

(** What the user sees of that: a macro that names an enumerator for which the
    caller states a type and a value is generated with them, unchanged. *)
Theorem C43_constant_partial {U : Unicode} cx name n p r v :
  is_identifier n = true -> rust_name limit_types n = None -> n <> st "__LINE__" -> n <> st "__FILE__" ->
  cx_enum cx n = Some (r, v) -> stated p r -> steady cx p -> plain_prefix cx ->
  snd (var_generate cx (mk_var_macro name (MbExpr (EVar (IPlain n))))) = ROk (v, Some (sty_toks r)).
Proof.
  intros I L N1 N2 E D S F. destruct (C43_stated_partial cx p r D S F) as (t & E1 & E2).
  assert (K1 : str_eqb n (st "__LINE__") = false) by (destruct (str_eqb_spec n (st "__LINE__")); [contradiction|reflexivity]).
  assert (K2 : str_eqb n (st "__FILE__") = false) by (destruct (str_eqb_spec n (st "__FILE__")); [contradiction|reflexivity]).
  assert (K3 : limit_name limit_names n = None).
  { revert L. unfold limit_types, limit_names. cbn [rust_name limit_name]. repeat match goal with |- context [if ?c then _ else _] => destruct c; [discriminate|] end. reflexivity. }
  unfold var_generate. cbn [vm_body]. 
  assert (X : expr_finish cx (EVar (IPlain n)) (var_lctx cx) = (EVar (IPlain n), var_lctx cx, FOk (Some t))).
  { unfold expr_finish. cbn [weight]. change (finish cx 0 (EVar (IPlain n)) (var_lctx cx)) with (let (c', r') := var_finish cx (IPlain n) (var_lctx cx) in (EVar (IPlain n), c', r')).
    unfold var_finish. cbn [ident_finish]. rewrite K1, K2, L, E. unfold from_rust. rewrite E1. reflexivity. }
  rewrite X. cbn [snd ofres]. cbn [etoks]. unfold var_toks. rewrite K1, K2, K3, E. cbn [opanic]. rewrite (C43_tokens cx (var_lctx cx) t r E2). reflexivity.
Qed.

(** Not vacuous. *)
Definition cx_core : cgctx :=
  mk_cgctx None (Some (mk_path true [(st "core", []); (st "ffi", [])])) None (fun _ _ => None) (fun _ => None) (fun _ => None) (fun _ _ => None) (fun _ => None).
Example C43_case : exists r, @to_rust_ty demo_unicode cx_core (TyQual (TyPtr (TyPtr (TyBuiltIn BUChar))) QConst) = Some (Some r) /\
  from_rust_ty (cx_ffi cx_core) r = ROk (TyQual (TyPtr (TyPtr (TyBuiltIn BUChar))) QConst).
Proof.
  apply (@C43_round_trip_partial demo_unicode cx_core BUChar); [repeat constructor| |discriminate].
  intros I. unfold primitive in I. simpl in I. decompose [or] I; try discriminate; contradiction.
Qed.
Example C43_long_double : exists r, @to_rust_ty demo_unicode cx_unit (TyPtr (TyBuiltIn BLongDouble)) = Some (Some r) /\
  from_rust_ty (cx_ffi cx_unit) r = ROk (TyPtr (TyBuiltIn BDouble)).
Proof. apply (@C43_round_trip_partial demo_unicode cx_unit BLongDouble); [repeat constructor|reflexivity|discriminate]. Qed.

(** [pub enum]erator [RED] of the type [*const ::lib::color]. *)
Definition color := mk_path true [(st "lib", []); (st "color", [])].
Definition cx_red : cgctx :=
  mk_cgctx None (Some (mk_path true [(st "core", []); (st "ffi", [])])) None (fun _ _ => None)
    (fun n => if str_eqb n (st "RED") then Some (STPtr false (STPath None color), [ri "Red"]) else None)
    (fun _ => None) (fun _ _ => None) (fun _ => None).
Example C43_constant_case : stated (U := demo_unicode) color (STPtr false (STPath None color)) /\ steady cx_red color /\ plain_prefix cx_red /\
  snd (@var_generate demo_unicode cx_red (mk_var_macro (st "R") (MbExpr (EVar (IPlain (st "RED")))))) =
    ROk ([ri "Red"], Some ([rp "*"; ri "const"; rp "::"; ri "lib"; rp "::"; ri "color"])).
Proof.
  split; [apply sd_ptr, sd_path; split; [discriminate|intros x [<- |[<- |[]]]; split; reflexivity]|].
  split; [|split; [intros p E; injection E as <-; intros x [<- |[<- |[]]]; reflexivity|vm_compute; reflexivity]].
  intros q n a E. destruct q as [|x [|y q]]; [discriminate E| |destruct q; discriminate E]. injection E as _ <- _.
  split; [discriminate|]. split; [discriminate|]. split; [discriminate|]. intros _ K. vm_compute in K. intuition discriminate.
Qed.

Print Assumptions C43_round_trip_partial.
Print Assumptions C43_round_trip_refuted.
Print Assumptions C43_size_t_refuted.
Print Assumptions C43_named.
Print Assumptions C43_stated_partial.
Print Assumptions C43_tokens.
Print Assumptions C43_constant_partial.
