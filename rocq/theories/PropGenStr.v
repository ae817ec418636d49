(** C31: the arrays generated for string literals. *)
From Verif Require Import Base Utf Lex LexFloat Token Ast Nom ParseTok ParseExpr ParseStmt Rust Finish Codegen StrFacts SpecRust.
From Coq Require Import Lia String List.
Import ListNotations.
Local Open Scope string_scope.
Local Open Scope list_scope.

Section Str.
Context `{U : Unicode}.
Variable cx : cgctx.

(** No token of [ts] is the punctuation [p]. *)
Definition free_of (p : string) (ts : list rtok) : Prop := forallb (fun t => negb (is_punct_tok p t)) ts = true.

Lemma commas_one l ts : free_of "," l -> commas (l ++ rp "," :: ts) = l :: commas ts.
Proof.
  unfold free_of. induction l as [|t l IH]; simpl; intros F; [reflexivity|].
  apply Bool.andb_true_iff in F as [F1 F2]. apply Bool.negb_true_iff in F1. rewrite F1, IH by exact F2. reflexivity.
Qed.
Lemma commas_last l : free_of "," l -> commas l = [l].
Proof.
  unfold free_of. induction l as [|t l IH]; simpl; intros F; [reflexivity|].
  apply Bool.andb_true_iff in F as [F1 F2]. apply Bool.negb_true_iff in F1. rewrite F1, IH by exact F2. reflexivity.
Qed.
Lemma commas_sep ls : ls <> [] -> Forall (free_of ",") ls -> commas (sep_by (rp ",") ls) = ls.
Proof.
  induction ls as [|l ls IH]; intros N F; [congruence|]. inversion F; subst.
  destruct ls as [|l' ls']; [apply commas_last; assumption|].
  change (sep_by (rp ",") (l :: l' :: ls')) with (l ++ rp "," :: sep_by (rp ",") (l' :: ls')).
  rewrite commas_one by assumption. rewrite IH; [reflexivity|discriminate|assumption].
Qed.

Lemma all_some_map {A B} (f : A -> option B) (g : A -> B) l :
  (forall x, f x = Some (g x)) -> all_some (map f l) = Some (map g l).
Proof. intros E. induction l as [|x l IH]; simpl; [reflexivity|]. rewrite E, IH. reflexivity. Qed.

(** Arrays of literals, with and without a cast. *)
Lemma elements_plain sfx l x :
  array_elements [rp "&"; brackets (sep_by (rp ",") (map (fun w => [RLit (RlInt (Z.of_N w) sfx)]) (l ++ [x])))] =
  Some (map Z.of_N (l ++ [x])).
Proof.
  cbn [array_elements brackets rp]. rewrite commas_sep.
  - rewrite map_map. apply all_some_map. reflexivity.
  - destruct l; discriminate.
  - apply Forall_forall. intros y I. apply in_map_iff in I as [w [<- _]]. reflexivity.
Qed.
Lemma elements_cast ty l x : free_of "," ty ->
  array_elements [rp "&"; brackets (sep_by (rp ",") (map (fun w => RLit (RlInt (Z.of_N w) []) :: ri "as" :: ty) (l ++ [x])))] =
  Some (map Z.of_N (l ++ [x])).
Proof.
  intros F. cbn [array_elements brackets rp]. rewrite commas_sep.
  - rewrite map_map. apply all_some_map. intros w. simpl. destruct ty; reflexivity.
  - destruct l; discriminate.
  - apply Forall_forall. intros y I. apply in_map_iff in I as [w [<- _]]. exact F.
Qed.

Lemma length_array ty n : declared_length (array_ref ty n) = Some (Z.of_nat n).
Proof. unfold array_ref, declared_length. cbn [brackets rp]. rewrite rev_app_distr. reflexivity. Qed.
Lemma length_static c ty n : declared_length (static_ref c [brackets [ty; rp ";"; usize_tok n]]) = Some (Z.of_nat n).
Proof. unfold static_ref. destruct (lc_elide c); reflexivity. Qed.

(** The context's paths and its type for [size_t] are printed without a comma
    outside of brackets (they have no generic arguments). *)
Definition tidy_ctx : Prop :=
  free_of "," (pfx (cx_ffi cx)) /\ free_of "," (pfx (cx_trait cx)) /\
  forall t, cx_ty cx (st "size_t") = Some t -> free_of "," (sty_toks t).
Definition tidy (ts : list rtok) : Prop := forall p, In p ["="; ";"] -> free_of p ts.

Lemma free_app p a b : free_of p (a ++ b) <-> free_of p a /\ free_of p b.
Proof. unfold free_of. rewrite forallb_app. apply Bool.andb_true_iff. Qed.
Lemma cut_at p a b : free_of p a -> cut p (a ++ RPunct (st p) :: b) = Some (a, b).
Proof.
  unfold free_of. induction a as [|t a IH]; intros F.
  - simpl. replace (str_eqb (st p) (st p)) with true; [reflexivity|]. symmetry. apply str_eqb_refl.
  - simpl in *. apply Bool.andb_true_iff in F as [F1 F2]. apply Bool.negb_true_iff in F1. rewrite F1, IH by exact F2. reflexivity.
Qed.
Lemma block_read name ty v tail : tidy ty -> free_of ";" v -> const_block (ptr_block name ty v tail) = Some (ty, v).
Proof.
  intros T F. unfold ptr_block. cbn [const_block braces ri rp app is_id_tok is_punct_tok].
  change (str_eqb (st "const") (st "const") && str_eqb (st ":") (st ":")) with true. cbv iota.
  change (ty ++ [rp "="] ++ v ++ [rp ";"; ri name; rp "."; ri "as_ptr"; parens []] ++ tail)
    with (ty ++ RPunct (st "=") :: (v ++ RPunct (st ";") :: (ri name :: rp "." :: ri "as_ptr" :: parens [] :: tail))).
  rewrite cut_at by (apply T; simpl; auto). rewrite cut_at by exact F. cbn [ri rp parens].
  rewrite str_eqb_refl. reflexivity.
Qed.

Lemma path_free o n : free_of "," (pfx o) -> free_of "," (path_toks (match o with Some p => mk_path (sp_colon p) (sp_segs p ++ [(n, [])]) | None => mk_path false [(n, [])] end)).
Proof.
  destruct o as [[cl segs]|]; [|reflexivity]. cbn [pfx]. intros F. apply free_app in F as [F _].
  unfold path_toks in *. cbn [sp_colon sp_segs] in *. apply free_app in F as [F1 F2]. apply free_app. split; [exact F1|].
  induction segs as [|a segs IH]; [reflexivity|].
  change (sep_by (rp "::") (map (fun s => RId (fst s) :: snd s) ((a :: segs) ++ [(n, [])])))
    with (sep_by (rp "::") ((RId (fst a) :: snd a) :: map (fun s => RId (fst s) :: snd s) (segs ++ [(n, [])]))).
  assert (map (fun s : str * list rtok => RId (fst s) :: snd s) (segs ++ [(n, [])]) <> []) as N by (destruct segs; discriminate).
  destruct (map (fun s => RId (fst s) :: snd s) (segs ++ [(n, [])])) as [|x xs] eqn:E; [congruence|].
  change (sep_by (rp "::") ((RId (fst a) :: snd a) :: x :: xs)) with ((RId (fst a) :: snd a) ++ rp "::" :: sep_by (rp "::") (x :: xs)).
  destruct segs as [|b segs'].
  - simpl in E. injection E as <- <-. apply free_app. split; [exact F2|reflexivity].
  - change (free_of "," ((RId (fst a) :: snd a) ++ rp "::" :: sep_by (rp "::") (map (fun s => RId (fst s) :: snd s) (b :: segs')))) in F2.
    apply free_app in F2 as [F2 F3]. apply free_app. split; [exact F2|].
    change (free_of "," (sep_by (rp "::") (map (fun s => RId (fst s) :: snd s) (b :: segs')))) in F3.
    exact (IH F3).
Qed.
Lemma builtin_free b : tidy_ctx -> free_of "," (builtin_toks cx b).
Proof.
  intros (F & _ & T). unfold builtin_toks.
  assert (G : forall n, free_of "," (sty_toks (ffi_ty cx n))) by (intros n; exact (path_free (cx_ffi cx) (st n) F)).
  destruct b; try apply G; try reflexivity. cbn [builtin_to_rust].
  destruct (cx_ty cx (st "size_t")) as [t|]; [apply T; reflexivity|].
  destruct (match cx_target cx with Some t => contains t (st "nightly") | None => true end); [apply G|reflexivity].
Qed.
Lemma ident_free c n ts : tidy_ctx -> (forall i, n <> IArg i) -> ident_toks cx c n = Some ts -> free_of "," ts.
Proof.
  intros (_ & T & _) N E. destruct n as [i|s|l]; cbn [ident_toks] in E.
  - exfalso. exact (N i eq_refl).
  - unfold omap, ident_tok in E. destruct (is_identifier s); [|discriminate E]. injection E as <-. reflexivity.
  - unfold obind in E. destruct (all_toks (idpart_toks c) l); [|discriminate E]. injection E as <-.
    apply free_app. split; [exact T|reflexivity].
Qed.
(** Types that come from Rust types mention no macro parameter. *)
Fixpoint no_arg (t : ctype) : Prop :=
  match t with
  | TyIdent (IArg _) _ => False
  | TyPtr t | TyQual t _ => no_arg t
  | _ => True
  end.
Lemma from_rust_no_arg p t t' : from_rust_ty p t = ROk t' -> no_arg t'.
Proof.
  revert t'. induction t as [m t IH| |q pa|s ts|s ts]; cbn [from_rust_ty]; intros t' E.
  - unfold rbind in E. destruct (from_rust_ty p t) as [x| | |]; try discriminate E. injection E as <-.
    destruct m; exact (IH x eq_refl).
  - injection E as <-. exact I.
  - destruct (builtin_from_rust q pa p); [injection E as <-; exact I|].
    destruct (sp_colon pa); [injection E as <-; exact I|].
    destruct (sp_segs pa) as [|a [|b l]]; injection E as <-; exact I.
  - injection E as <-. exact I.
  - discriminate E.
Qed.
Lemma sep_free ls : Forall (free_of ",") ls -> free_of "," (sep_by (rp "::") ls).
Proof.
  induction ls as [|l ls IH]; intros F; [reflexivity|]. inversion F; subst. destruct ls as [|l' ls']; [assumption|].
  change (sep_by (rp "::") (l :: l' :: ls')) with (l ++ rp "::" :: sep_by (rp "::") (l' :: ls')).
  apply free_app. split; [assumption|]. exact (IH H2).
Qed.
Lemma all_toks_free l ts : all_toks (fun s => omap (fun t => [t]) (ident_tok s)) l = Some ts -> Forall (free_of ",") ts.
Proof.
  revert ts. induction l as [|s l IH]; intros ts E; cbn [all_toks] in E; [injection E as <-; constructor|].
  unfold obind in E. destruct (omap (fun t => [t]) (ident_tok s)) as [a|] eqn:A; [|discriminate E].
  destruct (all_toks _ l) as [r|]; [|discriminate E]. injection E as <-. constructor; [|apply IH; reflexivity].
  unfold omap, ident_tok in A. destruct (is_identifier s); [|discriminate A]. injection A as <-. reflexivity.
Qed.
Lemma ty_free c t ts : tidy_ctx -> no_arg t -> ty_toks cx c t = Some ts -> free_of "," ts.
Proof.
  intros T. revert ts. induction t as [b|n s|cl l|t IH|t IH q]; intros ts N E; cbn [ty_toks] in E.
  - injection E as <-. apply builtin_free. exact T.
  - eapply ident_free; [exact T| |exact E]. intros i ->. exact N.
  - unfold obind in E. destruct (all_toks _ l) as [ls|] eqn:A; [|discriminate E]. injection E as <-.
    apply free_app. split; [destruct cl; reflexivity|]. apply sep_free. eapply all_toks_free. exact A.
  - unfold obind in E. destruct (ty_toks cx c t) as [x|] eqn:X; [|discriminate E]. injection E as <-. exact (IH x N eq_refl).
  - assert (G : forall ts', ty_toks cx c t = Some ts' -> free_of "," ts') by (intros ts'; apply IH; exact N).
    destruct t as [| | |t'|]; try exact (G _ E). destruct (q_is_const q); [|exact (G _ E)].
    unfold obind in E. destruct (ty_toks cx c t') as [x|] eqn:X; [|discriminate E]. injection E as <-.
    specialize (G (rp "*" :: ri "mut" :: x)). cbn [ty_toks] in G. rewrite X in G. exact (G eq_refl).
Qed.
Lemma wchar_free c rt t' ts : tidy_ctx -> from_rust_ty (cx_ffi cx) rt = ROk t' -> ty_toks cx c t' = Some ts -> free_of "," ts.
Proof. intros T F E. eapply ty_free; [exact T| |exact E]. eapply from_rust_no_arg. exact F. Qed.

(** What is read from the value of a variable-like macro. *)
Definition array_form (units : list Z) (ty v : list rtok) : Prop :=
  declared_length ty = Some (Z.of_nat (length (units ++ [0%Z]))) /\ array_elements v = Some (units ++ [0%Z]).

Lemma units_snoc l : map Z.of_N (l ++ [0%N]) = map Z.of_N l ++ [0%Z].
Proof. apply map_app. Qed.
Lemma units_len l : length (l ++ [0%N]) = length (map Z.of_N l ++ [0%Z]).
Proof. rewrite !app_length, map_length. reflexivity. Qed.

Lemma existsb_zero b : existsb (N.eqb 0) b = false -> ~ In 0%Z (map Z.of_N b).
Proof.
  intros E I. apply in_map_iff in I as [x [Hx I]].
  assert (existsb (N.eqb 0) b = true) as T; [|congruence].
  apply existsb_exists. exists x. split; [exact I|]. apply N.eqb_eq. lia.
Qed.

(** As the value of a constant. *)
Theorem string_array c s ty v : tidy_ctx -> string_toks cx c s true = Some (ty, v) ->
  array_form (string_units s) ty v \/
  (cstr_elements v = Some (string_units s ++ [0%Z]) /\ ~ In 0%Z (string_units s) /\ exists b, s = SOrdinary b).
Proof.
  intros T E. destruct s as [b|t|t|t|w]; unfold string_toks in E; cbn [string_units].
  - destruct (lc_cstr c && negb (existsb (N.eqb 0) b)) eqn:C; injection E as <- <-.
    + right. repeat split.
      * match goal with |- context [?x ++ [rp "::"; ri "from_bytes_with_nul_unchecked"; _]] => generalize x; intros cty end.
        cbn [cstr_elements braces]. cbn [rev app]. cbn [is_id_tok ri]. change (str_eqb (st "unsafe") (st "unsafe")) with true. cbv iota.
        unfold braces. rewrite rev_app_distr. cbn [rev app]. cbn [parens ri is_id_tok].
        change (str_eqb (st "from_bytes_with_nul_unchecked") (st "from_bytes_with_nul_unchecked")) with true. cbv iota.
        cbn [array_elements]. rewrite units_snoc. reflexivity.
      * apply Bool.andb_true_iff in C as [_ C]. apply Bool.negb_true_iff in C. apply existsb_zero. exact C.
      * exists b. reflexivity.
    + left. split; [rewrite length_static, units_len; reflexivity|]. cbn [array_elements]. rewrite units_snoc. reflexivity.
  - injection E as <- <-. left. split; [rewrite length_array, units_len; reflexivity|]. cbn [array_elements]. rewrite units_snoc. reflexivity.
  - injection E as <- <-. left. split; [rewrite length_array, units_len; reflexivity|]. rewrite elements_plain, units_snoc. reflexivity.
  - injection E as <- <-. left. split; [rewrite length_array, units_len; reflexivity|]. rewrite elements_plain, units_snoc. reflexivity.
  - unfold obind in E. destruct (cx_ty cx (st "wchar_t")) as [rt|] eqn:W.
    + destruct (from_rust_ty (cx_ffi cx) rt) as [t'| | |] eqn:F; try discriminate E.
      destruct (ty_toks cx c t') as [ts|] eqn:TT; [|discriminate E]. injection E as <- <-. left.
      split; [rewrite length_array, units_len; reflexivity|]. rewrite elements_cast, units_snoc; [reflexivity|].
      exact (wchar_free c rt t' ts T F TT).
    + injection E as <- <-. left. split; [rewrite length_array, units_len; reflexivity|].
      rewrite elements_cast, units_snoc; reflexivity.
Qed.

(** As a pointer, in all other places. *)
Theorem string_ptr c s ty v : tidy_ctx -> string_toks cx c s false = Some (ty, v) ->
  exists aty arr, const_block v = Some (aty, arr) /\ array_form (string_units s) aty arr.
Proof.
  intros T E.
  assert (ty1 : forall n, tidy (array_ref [ri "u8"] n) /\ tidy (array_ref [ri "u16"] n) /\ tidy (array_ref [ri "u32"] n)).
  { intros n. repeat split; intros p I; simpl in I; decompose [or] I; subst; try tauto; reflexivity. }
  destruct s as [b|t|t|t|w]; unfold string_toks in E; cbn [string_units].
  - injection E as <- <-. eexists; eexists; split.
    + apply block_read; [|reflexivity]. unfold static_ref. intros p I. simpl in I. destruct (lc_elide c); decompose [or] I; subst; try tauto; reflexivity.
    + split; [rewrite length_static, units_len; reflexivity|]. cbn [array_elements]. rewrite units_snoc. reflexivity.
  - injection E as <- <-. eexists; eexists; split; [apply block_read; [apply ty1|reflexivity]|].
    split; [rewrite length_array, units_len; reflexivity|]. cbn [array_elements]. rewrite units_snoc. reflexivity.
  - injection E as <- <-. eexists; eexists; split; [apply block_read; [apply ty1|reflexivity]|].
    split; [rewrite length_array, units_len; reflexivity|]. rewrite elements_plain, units_snoc. reflexivity.
  - injection E as <- <-. eexists; eexists; split; [apply block_read; [apply ty1|reflexivity]|].
    split; [rewrite length_array, units_len; reflexivity|]. rewrite elements_plain, units_snoc. reflexivity.
  - assert (ar : forall ts n, tidy (array_ref ts n)).
    { intros ts n p I. simpl in I. decompose [or] I; subst; try tauto; reflexivity. }
    unfold obind in E. destruct (cx_ty cx (st "wchar_t")) as [rt|] eqn:W.
    + destruct (from_rust_ty (cx_ffi cx) rt) as [t'| | |] eqn:Fr; try discriminate E.
      destruct (ty_toks cx c t') as [ts|] eqn:TT; [|discriminate E]. injection E as <- <-.
      eexists; eexists; split; [apply block_read; [apply ar|reflexivity]|].
      split; [rewrite length_array, units_len; reflexivity|]. rewrite elements_cast, units_snoc; [reflexivity|].
      exact (wchar_free c rt t' ts T Fr TT).
    + injection E as <- <-. eexists; eexists; split; [apply block_read; [apply ar|reflexivity]|].
      split; [rewrite length_array, units_len; reflexivity|]. rewrite elements_cast, units_snoc; reflexivity.
Qed.

End Str.

(** ** The theorems *)

(** A variable-like macro whose body is a string literal: the generated value
    is the code units and a zero, and the declared length is their number; a
    [CStr] is generated only for an ordinary string without a zero. *)
Theorem C31_variable {U : Unicode} cx name s : tidy_ctx cx ->
  let r := snd (var_generate cx (mk_var_macro name (MbExpr (ELit (LString s))))) in
  match r with
  | ROk (v, Some ty) =>
    (declared_length ty = Some (Z.of_nat (length (string_units s ++ [0%Z]))) /\
     array_elements v = Some (string_units s ++ [0%Z])) \/
    (cstr_elements v = Some (string_units s ++ [0%Z]) /\ ~ In 0%Z (string_units s) /\ exists b, s = SOrdinary b)
  | ROk (_, None) => False
  | RErr e => exists w, s = SWide w
  | RPanic => exists w, s = SWide w
  | RFuel => False
  end.
Proof.
  intros T r. subst r. unfold var_generate. cbn [vm_body].
  change (expr_finish cx (ELit (LString s)) (var_lctx cx))
    with (ELit (LString s), var_lctx cx, lit_finish cx (LString s) (var_lctx cx)).
  cbn [snd]. unfold lit_finish, string_finish.
  assert (G : forall t, match ofres (FOk t) (fun _ : option ctype =>
     x <- (x <- opanic (string_toks cx (var_lctx cx) s true);; ROk (snd x, Some (fst x)));;
     (if lc_macro (var_lctx cx) then RErr NonConstantVarMacro else ROk x)) with
   | ROk (v, Some ty) =>
     (declared_length ty = Some (Z.of_nat (length (string_units s ++ [0%Z]))) /\
     array_elements v = Some (string_units s ++ [0%Z])) \/
     (cstr_elements v = Some (string_units s ++ [0%Z]) /\ ~ In 0%Z (string_units s) /\ exists b, s = SOrdinary b)
   | ROk (_, None) => False
   | RErr e => exists w, s = SWide w
   | RPanic => exists w, s = SWide w
   | RFuel => False
   end).
  { intros t. cbn [ofres]. destruct (string_toks cx (var_lctx cx) s true) as [[ty v]|] eqn:E; cbn [opanic rbind].
    - cbn [fst snd lc_macro var_lctx]. exact (string_array cx _ s ty v T E).
    - destruct s; try discriminate E; [|eexists; reflexivity]. exfalso. unfold string_toks in E. destruct (lc_cstr _ && _); discriminate E. }
  destruct s; try exact (G None). unfold wchar_finish.
  destruct (ty_finish cx _ _) as [[t c'] [t0|e| |]] eqn:TF; try exact (G None); cbn [ofres]; try (eexists; reflexivity).
  exfalso. cbn [ty_finish ident_finish] in TF. destruct (cx_ty cx (st "wchar_t")) as [rt|].
  - assert (NF : forall p t, from_rust_ty p t <> RFuel).
    { clear. intros p t. induction t as [m t IH| |q pa|x ts|x ts]; cbn [from_rust_ty]; try discriminate.
      - unfold rbind. destruct (from_rust_ty p t) as [?|?| |]; congruence.
      - destruct (builtin_from_rust q pa p); [discriminate|]. destruct (sp_colon pa); [discriminate|].
        destruct (sp_segs pa) as [|? [|? ?]]; discriminate. }
    destruct (from_rust_ty (cx_ffi cx) rt) eqn:E; try discriminate TF. exact (NF _ _ E).
  - discriminate TF.
Qed.

(** Everywhere else a string literal is a pointer to such an array. *)
Theorem C31_pointer {U : Unicode} cx c s v : tidy_ctx cx -> etoks cx c (ELit (LString s)) = Some v ->
  exists aty arr, const_block v = Some (aty, arr) /\
    declared_length aty = Some (Z.of_nat (length (string_units s ++ [0%Z]))) /\
    array_elements arr = Some (string_units s ++ [0%Z]).
Proof.
  intros T E. cbn [etoks lit_toks] in E. unfold omap in E. destruct (string_toks cx c s false) as [[ty w]|] eqn:S; [|discriminate E].
  injection E as <-. exact (string_ptr cx c s ty w T S).
Qed.

(** The body of such a macro is parsed as that literal. *)
Lemma C31_parsed {U : Unicode} name s : is_identifier name = true ->
  var_macro_parse name [MLit (LString s)] = ROk (mk_var_macro name (MbExpr (ELit (LString s)))).
Proof. intros E. unfold var_macro_parse. rewrite E. destruct s; reflexivity. Qed.

(** Not vacuous: two NUL bytes inside, a surrogate pair, a wide string; and the
    empty context is tidy. *)
Example C31_unit_tidy : tidy_ctx cx_unit.
Proof. repeat split; try reflexivity. discriminate. Qed.
Example C31_interior_nul :
  snd (@var_generate demo_unicode cx_unit (mk_var_macro (st "X") (MbExpr (ELit (LString (SOrdinary (st "a" ++ [0%N]))))))) =
  ROk ([RLit (RlBytes [97; 0; 0]%N)], Some [rp "&"; brackets [ri "u8"; rp ";"; usize_tok 3]]).
Proof. vm_compute. reflexivity. Qed.
Example C31_surrogates : string_units (SUtf16 [0x1F34C]%N) = [0xD83C; 0xDF4C]%Z.
Proof. reflexivity. Qed.
Example C31_cstr : match snd (@var_generate demo_unicode cx_unit (mk_var_macro (st "X") (MbExpr (ELit (LString (SOrdinary (st "hi"))))))) with
  | ROk (v, _) => cstr_elements v | _ => None end = Some [104; 105; 0]%Z.
Proof. vm_compute. reflexivity. Qed.

Print Assumptions C31_variable.
Print Assumptions C31_pointer.
