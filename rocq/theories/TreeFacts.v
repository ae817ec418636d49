(** The tokens of an expression are read as its tree. *)
From Verif Require Import Base Utf Lex LexFloat Token StrFacts Ast ParseStmt Rust Codegen SpecRustExpr RustExprFacts SpecTree.
From Coq Require Import String List Lia ZArith.
Import ListNotations.
Local Open Scope string_scope.
Local Open Scope list_scope.

(** ** Paths *)

Definition chain (names : list str) (s : str) : list rtok := flat_map (fun n => [RId n; rp "::"]) names ++ [RId s].
Lemma chain_segs names s :
  Forall (fun n => keyword n = false) names -> keyword s = false -> rd_segs (rp "::" :: chain names s) = (rp "::" :: chain names s, []).
Proof.
  intros F K. induction F as [|n names N F IH]; unfold chain; cbn [flat_map app].
  - unfold rp at 1. cbn [rd_segs]. rewrite str_eqb_refl, K. reflexivity.
  - change (rd_segs (RPunct (st "::") :: RId n :: rp "::" :: chain names s) = (rp "::" :: RId n :: rp "::" :: chain names s, [])).
    set (k := rp "::" :: chain names s) in *. cbn [rd_segs]. rewrite str_eqb_refl, N. cbn [andb negb]. rewrite IH. reflexivity.
Qed.
Lemma chain_path (colon : bool) names s :
  Forall (fun n => keyword n = false) names -> keyword s = false ->
  rd_path ((if colon then [rp "::"] else []) ++ chain names s) = Some ((if colon then [rp "::"] else []) ++ chain names s, []).
Proof.
  intros F K. destruct colon; cbn [app].
  - pose proof (chain_segs names s F K) as S. destruct F as [|n names N F].
    + unfold chain in *. cbn [flat_map app] in *. unfold rp in *. cbn [rd_path]. change (str_eqb (st "::") (st "$")) with false. now rewrite S.
    + unfold chain in *. cbn [flat_map app] in *. unfold rp in *. cbn [rd_path]. change (str_eqb (st "::") (st "$")) with false. now rewrite S.
  - destruct F as [|n names N F].
    + unfold chain. cbn [flat_map app rd_path rd_segs]. now rewrite K.
    + change (rd_path (RId n :: rp "::" :: chain names s) = Some (RId n :: rp "::" :: chain names s, [])).
      cbn [rd_path]. rewrite N. now rewrite (chain_segs names s F K).
Qed.
Lemma chain_app names s names' s' : chain names s ++ rp "::" :: chain names' s' = chain (names ++ s :: names') s'.
Proof.
  unfold chain. rewrite flat_map_app. cbn [flat_map]. rewrite <- !app_assoc. cbn [app]. reflexivity.
Qed.
Lemma pfx_shape o : plain_path o -> exists (colon : bool) names,
  pfx o = (if colon then [rp "::"] else []) ++ flat_map (fun n => [RId n; rp "::"]) names /\ Forall (fun n => keyword n = false) names.
Proof.
  destruct o as [p|]; [|exists false, []; split; constructor].
  cbn [plain_path pfx]. intros [N F]. exists (sp_colon p), (map fst (sp_segs p)). split.
  - unfold path_toks. rewrite <- app_assoc. f_equal. induction F as [|[s g] l [K G] F IH]; [congruence|].
    cbn [snd fst map] in *. subst g. destruct l as [|s' l]; [reflexivity|].
    specialize (IH ltac:(discriminate)). cbn [map sep_by flat_map app fst snd] in *. now rewrite <- IH.
  - clear N. induction F as [|s l [K _] F IH]; constructor; assumption.
Qed.
Lemma pfx_path o names s :
  plain_path o -> Forall (fun n => keyword n = false) names -> keyword s = false ->
  rd_path (pfx o ++ chain names s) = Some (pfx o ++ chain names s, []).
Proof.
  intros P F K. destruct (pfx_shape o P) as (colon & l & -> & L). rewrite <- app_assoc.
  replace (flat_map (fun n => [RId n; rp "::"]) l ++ chain names s) with (chain (l ++ names) s).
  - apply chain_path; [now apply Forall_app|exact K].
  - unfold chain. rewrite flat_map_app, <- app_assoc. reflexivity.
Qed.
Lemma path_is_ty ts : rd_path ts = Some (ts, []) -> rd_ty ts = Some (ts, []).
Proof.
  intro P. destruct ts as [|t ts]; [discriminate|]. destruct t as [s|q|?|?|?]; try discriminate.
  - change (rd_path_ty (RId s :: ts) = Some (RId s :: ts, [])). unfold rd_path_ty. now rewrite P.
  - destruct ts as [|t ts]; [discriminate|]. destruct t as [s|?|?|?|?]; try discriminate.
    cbn [rd_ty]. destruct (str_eqb q (st "*")) eqn:E.
    + apply str_eqb_eq in E. subst q. discriminate.
    + cbn [andb]. unfold rd_path_ty. now rewrite P.
Qed.
Lemma ptr_ty q ts : In q ["const"; "mut"] -> rd_ty ts = Some (ts, []) -> rd_ty (rp "*" :: ri q :: ts) = Some (rp "*" :: ri q :: ts, []).
Proof.
  intros Q T. cbn [rp ri rd_ty]. rewrite str_eqb_refl. replace (one_of ["const"; "mut"] (st q)) with true.
  - cbn [andb]. now rewrite T.
  - symmetry. apply one_of_in. now apply in_map.
Qed.

Section Facts.
Context `{Unicode}.
Variables (cx : cgctx) (c : lctx).
Hypothesis PC : plain_context cx.

Lemma std_ok l s : Forall (fun n => keyword (st n) = false) l -> keyword (st s) = false -> rd_path (std_path cx (l ++ [s])) = Some (std_path cx (l ++ [s]), []).
Proof.
  intros F K. replace (std_path cx (l ++ [s])) with (pfx (cx_trait cx) ++ chain (map st l) (st s)).
  - apply pfx_path; [exact (proj1 PC)| |exact K]. now apply Forall_map.
  - unfold std_path. f_equal. clear F. induction l as [|x l IH]; [reflexivity|].
    cbn [map app]. unfold chain in *. cbn [flat_map app]. rewrite IH. destruct l; reflexivity.
Qed.
Lemma std1 s : keyword (st s) = false -> rd_path (pfx (cx_trait cx) ++ [ri s]) = Some (pfx (cx_trait cx) ++ [ri s], []).
Proof. intro K. apply (std_ok [] s); [constructor|exact K]. Qed.
Lemma std2 a s : keyword (st a) = false -> keyword (st s) = false ->
  rd_path (pfx (cx_trait cx) ++ [ri a; rp "::"; ri s]) = Some (pfx (cx_trait cx) ++ [ri a; rp "::"; ri s], []).
Proof. intros A K. apply (std_ok [a] s); [repeat constructor; exact A|exact K]. Qed.
Lemma ffi1 s : keyword (st s) = false -> rd_path (pfx (cx_ffi cx) ++ [ri s]) = Some (pfx (cx_ffi cx) ++ [ri s], []).
Proof. intro K. apply (pfx_path _ [] (st s) (proj2 PC)); [constructor|exact K]. Qed.
Lemma ffi2 a s : keyword (st a) = false -> keyword (st s) = false ->
  rd_path (pfx (cx_ffi cx) ++ [ri a; rp "::"; ri s]) = Some (pfx (cx_ffi cx) ++ [ri a; rp "::"; ri s], []).
Proof. intros A K. apply (pfx_path _ [st a] (st s) (proj2 PC)); [repeat constructor; exact A|exact K]. Qed.
Lemma last_is_app s p t : last_is s (p ++ [t]) = is_id s t.
Proof. unfold last_is. rewrite rev_app_distr. reflexivity. Qed.

(** ** Leaves *)

Lemma op_number v sfx :
  operand (int_toks v sfx) (if (v <? 0)%Z then 14 else 15) false (number v (st sfx)).
Proof.
  unfold int_toks, number. destruct (v <? 0)%Z.
  - eapply op_unary; [reflexivity|apply op_lit|lia|lia].
  - apply op_lit.
Qed.
Lemma ref_slice_ty g : rd_ty (static_ref c [brackets g]) = Some (static_ref c [brackets g], []).
Proof. unfold static_ref. destruct (lc_elide c); reflexivity. Qed.
Lemma array_ref_ty t n : rd_ty (array_ref t n) = Some (array_ref t n, []).
Proof. reflexivity. Qed.

(** A block that declares something and has a method call or a cast as its value. *)
Definition const_block (blk : rblock) : Prop :=
  exists k n t v y, blk = RB [RsLet k n t v] (Some y) /\ match y with XMethod _ _ _ | XCast _ _ => True | _ => False end.

(** [{ const NAME: ty = value; NAME.as_ptr() [as t] }]. *)
Definition const_shape (s : string) (ty tail : list rtok) (blk : rblock) : Prop :=
  exists v y, blk = RB [RsLet [ri "const"] (st s) (Some ty) v] (Some y) /\
    let p := XMethod (XPath [ri s]) (st "as_ptr") [] in
    (tail = [] /\ y = p \/ exists t, tail = ri "as" :: t /\ y = XCast p t).
Lemma shape_block s ty tail blk : const_shape s ty tail blk -> const_block blk.
Proof. intros (v & y & -> & S). exists [ri "const"], (st s), (Some ty), v, y. split; [reflexivity|]. destruct S as [[_ ->] | (t & _ & ->)]; exact I. Qed.
Lemma const_shape_reads s ty v l b x tail :
  keyword (st s) = false -> str_eqb (st s) (st "mut") = false -> rd_ty ty = Some (ty, []) -> operand v l b x ->
  (tail = [] \/ exists t, tail = ri "as" :: t /\ rd_ty t = Some (t, [])) ->
  exists blk, RBk ([ri "const"; ri s; rp ":"] ++ ty ++ [rp "="] ++ v ++ [rp ";"; ri s; rp "."; ri "as_ptr"; parens []] ++ tail) blk /\ const_shape s ty tail blk.
Proof.
  intros K M T O Tl.
  assert (P : operand (([ri s] ++ [rp "."; ri "as_ptr"; parens []])) 15 false (XMethod (XPath [ri s]) (st "as_ptr") [])).
  { eapply op_method; [|reflexivity|apply ra_nil]. apply op_path. cbn [rd_path ri rd_segs]. now rewrite K. }
  set (p := XMethod (XPath [ri s]) (st "as_ptr") []) in *.
  assert (E : exists y, RE 0 ([ri s; rp "."; ri "as_ptr"; parens []] ++ tail) y [] /\ (tail = [] /\ y = p \/ exists t, tail = ri "as" :: t /\ y = XCast p t)).
  { destruct Tl as [-> | (t & -> & Ht)].
    - eexists. split; [rewrite app_nil_r; eapply op_whole; [exact P|lia]|left; split; reflexivity].
    - eexists. split; [eapply op_whole; [|exact (Nat.le_0_l _)]; eapply (op_cast _ _ _ _ t P); [lia|exact Ht]|right; eexists; split; reflexivity]. }
  destruct E as (y & E & Y). exists (add_stmt (RsLet [ri "const"] (st s) (Some ty) x) (RB [] (Some y))). cbn [app].
  split; [|exists x, y; split; [reflexivity|exact Y]].
  eapply (rb_typed "const" (st s) ty (v ++ _) x); [cbn; tauto|exact M|exact T| |].
  - rewrite <- ?app_assoc. cbn [app]. eapply op_read; [exact O|lia|reflexivity].
  - eapply rb_tail; [exact E|]. cbn [blocklike app ri]. 
    destruct (one_of ["if"; "loop"; "unsafe"] (st s)) eqn:Q; [|reflexivity]. exfalso.
    apply one_of_in in Q. cbn [map In] in Q. unfold keyword in K.
    apply Bool.not_true_iff_false in K. apply K. apply one_of_in. cbn [map In]. tauto.
Qed.
Lemma const_block_reads s ty v l b x tail :
  keyword (st s) = false -> str_eqb (st s) (st "mut") = false -> rd_ty ty = Some (ty, []) -> operand v l b x ->
  (tail = [] \/ exists t, tail = ri "as" :: t /\ rd_ty t = Some (t, [])) ->
  exists blk, RBk ([ri "const"; ri s; rp ":"] ++ ty ++ [rp "="] ++ v ++ [rp ";"; ri s; rp "."; ri "as_ptr"; parens []] ++ tail) blk /\ const_block blk.
Proof.
  intros K M T O Tl. destruct (const_shape_reads s ty v l b x tail K M T O Tl) as (blk & B & S). exists blk. split; [exact B|].
  eapply shape_block; exact S.
Qed.
Lemma c_char_ptr_reads v l b x : l = 15 -> operand v l b x -> exists g blk, c_char_ptr cx c v = [braces g] /\ RBk g blk /\ const_block blk.
Proof.
  intros -> O. unfold c_char_ptr. eexists. 
  assert (O' : operand (v ++ [rp "."; ri "as_bytes"; parens []]) 15 false (XMethod x (st "as_bytes") [])).
  { eapply op_method; [exact O|reflexivity|apply ra_nil]. }
  destruct (const_block_reads "BYTES" (static_ref c [brackets [ri "u8"]]) _ _ _ _ (ri "as" :: rp "*" :: ri "const" :: pfx (cx_ffi cx) ++ [ri "c_char"])
    eq_refl eq_refl (ref_slice_ty _) O') as (blk & B & Q).
  { right. eexists. split; [reflexivity|]. apply ptr_ty; [cbn; tauto|]. apply path_is_ty. now apply ffi1. }
  exists blk. split; [reflexivity|]. cbn [app] in *. rewrite <- ?app_assoc in *. cbn [app] in *. split; [exact B|exact Q].
Qed.
Lemma concat_op g : operand (concat_toks cx g) 15 false (XMac (pfx (cx_trait cx) ++ [ri "concat"]) DParen g).
Proof.
  unfold concat_toks. replace (pfx (cx_trait cx) ++ [ri "concat"; rp "!"; parens g]) with ((pfx (cx_trait cx) ++ [ri "concat"]) ++ [rp "!"; parens g]).
  - apply op_mac; [now apply std1|]. now rewrite last_is_app.
  - rewrite <- app_assoc. reflexivity.
Qed.

(** ** The statement of the induction *)

Definition good_read (e : expr) (ts : list rtok) (x : rx) : Prop :=
  tree cx c e x /\ operand ts (lvl e) (ends_in_type e) x /\
  (is_block e = true -> blocklike ts = true /\ forall rest, RP (ts ++ rest) x rest).
Definition reads_well (e : expr) : Prop :=
  forall ts, fine cx c e -> etoks cx c e = Some ts -> exists x, good_read e ts x.

Lemma block_leaf e g b :
  is_leaf e = true -> etoks cx c e = Some [braces g] -> RBk g b -> lvl e = 15 -> ends_in_type e = false ->
  good_read e [braces g] (XBlock b).
Proof.
  intros L T B V Ty. pose proof (op_brace g b B) as O. repeat split.
  - eapply T_leaf; [exact L|exact T|]. exact (op_whole _ _ _ _ 0 O (Nat.le_0_l _)).
  - rewrite V, Ty. exact O.
  - intro rest. now apply rp_brace.
Qed.
Lemma leaf_good e ts x :
  is_leaf e = true -> etoks cx c e = Some ts -> operand ts (lvl e) (ends_in_type e) x -> is_block e = false -> good_read e ts x.
Proof.
  intros L T O B. repeat split; [|exact O|congruence|congruence].
  eapply T_leaf; [exact L|exact T|]. exact (op_whole _ _ _ _ 0 O (Nat.le_0_l _)).
Qed.
Lemma ident_tok_id s t : ident_tok s = Some t -> t = RId s.
Proof. unfold ident_tok. destruct (is_identifier s); [|discriminate]. congruence. Qed.

(** Names: tokens of a path, or [concat_idents!(..)]. *)
Lemma name_path n ts : plain_name c n -> (forall l, n <> IConcat l) -> ident_toks cx c n = Some ts -> rd_path ts = Some (ts, []).
Proof.
  intros P N T. destruct n as [i|s|l]; cbn [ident_toks] in T; [|cbn [plain_name] in P|now destruct (N l)].
  - unfold arg_toks in T. cbn [plain_name] in P. destruct (arg_name c i) as [s|]; [|discriminate]. cbn [obind] in T.
    destruct (P s eq_refl) as [D K]. destruct (str_eqb_spec s (st "...")); [contradiction|].
    destruct (ident_tok s) as [t|] eqn:I; [|discriminate]. apply ident_tok_id in I. subst t. cbn [obind] in T. injection T as <-.
    destruct (lc_macro c); [reflexivity|]. destruct K as [K|K]; [discriminate|]. cbn [rd_path rd_segs]. now rewrite K.
  - destruct (ident_tok s) as [t|] eqn:I; [|discriminate]. apply ident_tok_id in I. subst t. injection T as <-.
    cbn [rd_path rd_segs]. now rewrite P.
Qed.
Lemma name_paste l ts : ident_toks cx c (IConcat l) = Some ts ->
  exists g, ts = std_path cx ["concat_idents"] ++ [rp "!"; parens g] /\
    rd_path (std_path cx ["concat_idents"]) = Some (std_path cx ["concat_idents"], []) /\
    last_is "addr_of_mut" (std_path cx ["concat_idents"]) = false.
Proof.
  cbn [ident_toks]. destruct (all_toks (idpart_toks c) l) as [g|]; [|discriminate]. cbn [obind]. intro E. injection E as <-.
  exists (sep_by (rp ",") g). unfold std_path. cbn [map sep_by]. repeat split.
  - rewrite <- app_assoc. reflexivity.
  - now apply std1.
  - now rewrite last_is_app.
Qed.
Lemma limit_name_keyword id t : limit_name limit_names id = Some t -> keyword (st t) = false.
Proof.
  cbn [limit_names limit_name]. repeat (destruct (str_eqb id _); [intro E; injection E as <-; reflexivity|]). discriminate.
Qed.
Lemma var_reads n : reads_well (EVar n).
Proof.
  intros ts [P Q] T. cbn [etoks] in T. destruct n as [i|s|l].
  - cbn [var_toks] in T. exists (XPath ts). repeat split; try discriminate.
    + eapply T_var; [reflexivity|exact T|discriminate].
    + apply op_path. eapply name_path; [exact P|discriminate|exact T].
  - pose proof T as T0. cbn [var_toks] in T.
    destruct (str_eqb_spec s (st "__LINE__")) as [->|N1].
    { injection T as <-.
      assert (O : operand (line_toks cx ++ ri "as" :: pfx (cx_ffi cx) ++ [ri "c_uint"]) 13 true
                    (XCast (XMac (pfx (cx_trait cx) ++ [ri "line"]) DParen []) (pfx (cx_ffi cx) ++ [ri "c_uint"]))).
      { eapply (op_cast _ 15 false); [|lia|apply path_is_ty; now apply ffi1].
        unfold line_toks. replace (pfx (cx_trait cx) ++ [ri "line"; rp "!"; parens []]) with ((pfx (cx_trait cx) ++ [ri "line"]) ++ [rp "!"; parens []]).
        - apply op_mac; [now apply std1|]. now rewrite last_is_app.
        - rewrite <- app_assoc. reflexivity. }
      eexists. apply leaf_good; [reflexivity|exact T0|exact O|reflexivity]. }
    destruct (str_eqb_spec s (st "__FILE__")) as [->|N2].
    { injection T as <-. 
      destruct (c_char_ptr_reads _ _ _ _ eq_refl (concat_op (file_toks cx ++ [rp ","; nul]))) as (g & b & E & B & _).
      cbn [app] in E. cbn [app]. rewrite E. eexists. eapply block_leaf; [reflexivity| |exact B|reflexivity|reflexivity].
      rewrite <- E. exact T0. }
    assert (Lf : is_leaf (EVar (IPlain s)) = false).
    { unfold is_leaf, one_of. cbn [existsb]. destruct (str_eqb_spec s (st "__LINE__")); [contradiction|].
      destruct (str_eqb_spec s (st "__FILE__")); [contradiction|]. reflexivity. }
    assert (Lv : lvl (EVar (IPlain s)) = 15 /\ ends_in_type (EVar (IPlain s)) = false /\ is_block (EVar (IPlain s)) = false).
    { cbn [lvl ends_in_type is_block]. destruct (str_eqb_spec s (st "__LINE__")); [contradiction|].
      destruct (str_eqb_spec s (st "__FILE__")); [contradiction|]. auto. }
    destruct Lv as (L1 & L2 & L3).
    assert (Pa : rd_path ts = Some (ts, [])).
    { destruct (limit_name limit_names s) as [t|] eqn:L.
      - injection T as <-. cbn [app]. apply (ffi2 t "MAX"); [|reflexivity]. eapply limit_name_keyword. exact L.
      - destruct (cx_enum cx s) as [[ty vs]|] eqn:En.
        + injection T as <-. eapply Q. reflexivity.
        + eapply name_path; [exact P|discriminate|exact T]. }
    exists (XPath ts). split; [|split].
    + eapply T_var; [exact Lf|exact T0|discriminate].
    + rewrite L1, L2. now apply op_path.
    + rewrite L3. discriminate.
  - cbn [var_toks] in T. destruct (name_paste _ _ T) as (g & -> & R & L). eexists. split; [|split].
    + eapply T_paste. exact T.
    + now apply op_mac.
    + discriminate.
Qed.

Lemma units_args (f : N -> rx) (g : N -> list rtok) l :
  (forall w, exists lv b, operand (g w) lv b (f w)) -> exists xs, RA (sep_by (rp ",") (map g l)) xs.
Proof.
  intro O. induction l as [|w l [xs IH]]; [exists []; apply ra_nil|].
  destruct (O w) as (lv & b & Ow). destruct l as [|w' l].
  - exists [f w]. cbn [map sep_by]. apply ra_one. eapply op_whole; [exact Ow|lia].
  - exists (f w :: xs). change (sep_by (rp ",") (map g (w :: w' :: l))) with (g w ++ rp "," :: sep_by (rp ",") (map g (w' :: l))).
    eapply ra_cons; [|exact IH]. eapply op_read; [exact Ow|lia|reflexivity].
Qed.
Lemma op_ref_array (f : N -> rx) (g : N -> list rtok) l :
  (forall w, exists lv b, operand (g w) lv b (f w)) -> exists x, operand [rp "&"; brackets (sep_by (rp ",") (map g l))] 14 false x.
Proof.
  intro O. destruct (units_args f g l O) as [xs A]. eexists. eapply (op_unary (st "&") _ 15 false); [reflexivity| |lia|lia].
  apply op_pre. intros rest _. cbn [app]. apply rp_array. exact A.
Qed.

Lemma string_reads x ts : (forall w, x <> SWide w) -> lit_toks cx c (LString x) = Some ts -> exists g b, ts = [braces g] /\ RBk g b /\ const_block b.
Proof.
  intros W T. unfold lit_toks in T. destruct x as [b|s|s|s|s]; [..|now destruct (W s)]; injection T as <-; unfold ptr_block.
  - eexists.
    destruct (const_block_reads "BYTES" (static_ref c [brackets [ri "u8"; rp ";"; usize_tok (length (b ++ [0%N]))]]) [RLit (RlBytes (b ++ [0%N]))] _ _ _
      (ri "as" :: rp "*" :: ri "const" :: pfx (cx_ffi cx) ++ [ri "c_char"]) eq_refl eq_refl (ref_slice_ty _) (op_lit _)) as (blk & B & Q).
    { right. eexists. split; [reflexivity|]. apply ptr_ty; [cbn; tauto|]. apply path_is_ty. now apply ffi1. }
    exists blk. split; [reflexivity|]. split; [exact B|exact Q].
  - eexists. destruct (const_block_reads "BYTES" (array_ref [ri "u8"] (length (utf8_encode s ++ [0%N]))) [RLit (RlBytes (utf8_encode s ++ [0%N]))] _ _ _ []
      eq_refl eq_refl (array_ref_ty _ _) (op_lit _)) as (blk & B & Q); [now left|].
    exists blk. split; [reflexivity|]. split; [exact B|exact Q].
  - eexists. destruct (op_ref_array (fun w => XLit (RlInt (Z.of_N w) (st "u16"))) (fun w => [RLit (RlInt (Z.of_N w) (st "u16"))]) (utf16_encode s ++ [0%N])) as [v V].
    { intro w. exists 15, false. apply op_lit. }
    destruct (const_block_reads "WORDS" (array_ref [ri "u16"] (length (utf16_encode s ++ [0%N]))) _ _ _ _ [] eq_refl eq_refl (array_ref_ty _ _) V) as (blk & B & Q); [now left|].
    exists blk. split; [reflexivity|]. split; [exact B|exact Q].
  - eexists. destruct (op_ref_array (fun w => XLit (RlInt (Z.of_N w) (st "u32"))) (fun w => [RLit (RlInt (Z.of_N w) (st "u32"))]) (s ++ [0%N])) as [v V].
    { intro w. exists 15, false. apply op_lit. }
    destruct (const_block_reads "DWORDS" (array_ref [ri "u32"] (length (s ++ [0%N]))) _ _ _ _ [] eq_refl eq_refl (array_ref_ty _ _) V) as (blk & B & Q); [now left|].
    exists blk. split; [reflexivity|]. split; [exact B|exact Q].
Qed.
Lemma float_reads w name f : keyword (st name) = false ->
  exists x, operand (float_toks_w cx w name f) (match f with SpecFloat.S754_zero true | SpecFloat.S754_finite true _ _ => 14 | _ => 15 end) false x.
Proof.
  intro K. assert (P : forall s, keyword (st s) = false -> exists x, operand (pfx (cx_trait cx) ++ [ri name; rp "::"; ri s]) 15 false x).
  { intros s Ks. eexists. apply op_path. now apply std2. }
  destruct f as [[]|[]| |[] m e]; cbn [float_toks_w]; try (now apply P); try (eexists; apply op_lit).
  - eexists. eapply op_unary; [reflexivity|apply op_lit|lia|lia].
  - eexists. eapply op_unary; [reflexivity|apply op_lit|lia|lia].
Qed.
Lemma unit_one n sfx : exists l, unit_toks n sfx = [RLit l].
Proof. unfold unit_toks. destruct (char_from_u32 n); eexists; reflexivity. Qed.
Lemma char_one x : exists l, char_toks x = [RLit l] /\ char_literal_of x l.
Proof.
  assert (U : forall n sfx w, In (sfx, (false, w)) suffix_types ->
    exists l, unit_toks n sfx = [RLit l] /\ (is_character n /\ l = RlChar n \/
      ~ is_character n /\ exists name, l = RlInt (Z.of_N n) (st name) /\ In (name, (false, w)) suffix_types)).
  { intros n sfx w I.
    assert (S : if is_scalar n then is_character n else ~ is_character n).
    { unfold is_scalar, is_character.
      destruct (N.ltb_spec n 0xD800), (N.ltb_spec 0xDFFF n), (N.leb_spec n 0x10FFFF); cbn [orb andb]; lia. }
    unfold unit_toks, char_from_u32. destruct (is_scalar n); eexists; (split; [reflexivity|]); [left|right]; eauto. }
  destruct x; cbn [char_toks]; unfold char_literal_of; cbn [char_code char_width]; apply U; cbn; tauto.
Qed.
Lemma lit_reads l : reads_well (ELit l).
Proof.
  intros ts F T. destruct l as [x|x|f|i].
  - cbn [etoks lit_toks] in T. injection T as <-. destruct (char_one x) as (l & -> & C). exists (XLit l).
    repeat split; [now apply T_char|apply op_lit|discriminate..].
  - destruct (string_reads x ts) as (g & b & -> & B & _); [|exact T|].
    + intros w ->. exact F.
    + eexists. eapply block_leaf; [reflexivity|exact T|exact B|reflexivity|reflexivity].
  - destruct f as [f|f|f]; pose proof T as T'; cbn [etoks lit_toks float_toks] in T'; injection T' as <-.
    + destruct (float_reads 32 "f32" f eq_refl) as [x O]. exists x. apply leaf_good; [reflexivity|exact T| |reflexivity].
      cbn [lvl negative ends_in_type]. destruct f as [[]|[]| |[] m e]; exact O.
    + destruct (float_reads 64 "f64" f eq_refl) as [x O]. exists x. apply leaf_good; [reflexivity|exact T| |reflexivity].
      cbn [lvl negative ends_in_type]. destruct f as [[]|[]| |[] m e]; exact O.
    + destruct (float_reads 64 "f64" f eq_refl) as [x O]. exists x. apply leaf_good; [reflexivity|exact T| |reflexivity].
      cbn [lvl negative ends_in_type]. destruct f as [[]|[]| |[] m e]; exact O.
  - injection T as <-. exists (number (int_value i) []). split; [|split].
    + apply T_int.
    + exact (op_number (int_value i) "").
    + discriminate.
Qed.
Lemma stringify_reads a : reads_well (EStringify a).
Proof.
  intros ts _ T. pose proof T as T'. cbn [etoks] in T. unfold stringify_toks in T. destruct (stringify_inner cx c a) as [us|]; [|discriminate].
  cbn [obind] in T. injection T as <-.
  destruct (c_char_ptr_reads _ _ _ _ eq_refl (concat_op (us ++ [rp ","; nul]))) as (g & b & E & B & _). rewrite E in *.
  eexists. eapply block_leaf; [reflexivity|exact T'|exact B|reflexivity|reflexivity].
Qed.
Lemma concat_reads l : reads_well (EConcat l).
Proof.
  intros ts _ T. pose proof T as T'. cbn [etoks] in T.
  match type of T with obind ?o _ = _ => destruct o as [us|]; [|discriminate] end.
  cbn [obind] in T. injection T as <-.
  destruct (c_char_ptr_reads _ _ _ _ eq_refl (concat_op (sep_by (rp ",") us ++ [rp ","; nul]))) as (g & b & E & B & _). rewrite E in *.
  eexists. eapply block_leaf; [reflexivity|exact T'|exact B|reflexivity|reflexivity].
Qed.
Lemma sizeof_reads t : reads_well (ESizeOf t).
Proof.
  intros ts [P S] T. cbn [etoks] in T. destruct (ty_toks cx c t) as [us|] eqn:U; [|discriminate]. cbn [obind] in T. injection T as <-.
  eexists. split; [|split; [|discriminate]].
  - apply T_sizeof. exact U.
  - cbn [lvl ends_in_type]. 
    match goal with |- operand ?ts _ _ _ => replace ts
      with (((std_path cx ["mem"; "size_of"] ++ [rp "::"; rp "<"] ++ us ++ [rp ">"]) ++ [parens []]) ++ ri "as" :: builtin_toks cx BSizeT) end.
    2:{ unfold std_path. cbn [map sep_by]. rewrite <- !app_assoc. cbn [app]. rewrite <- ?app_assoc. reflexivity. }
    eapply (op_cast _ 15 false); [|lia|exact S].
    eapply op_call_pre; [|apply ra_nil]. intro r. rewrite <- !app_assoc. cbn [app]. 
    rewrite <- ?app_assoc. cbn [app]. apply rp_generic; [|now apply P].
    apply std2; reflexivity.
Qed.

(** ** Levels *)

Lemma binop_lvl_range op : 2 <= binop_lvl op <= 15.
Proof. destruct op; cbn; lia. Qed.
Lemma lvl_range e : 2 <= lvl e <= 15.
Proof.
  destruct e as [n|n l|t e|l|a|l|t|op e|l op r|a b d]; cbn [lvl]; try lia.
  - destruct n; try lia. destruct (str_eqb _ _); lia.
  - destruct (is_null t e); [lia|]. destruct (ty_is_void t); lia.
  - destruct (negative l); lia.
  - destruct op; try lia. destruct (volatile_ptr e); lia.
  - apply binop_lvl_range.
Qed.
Lemma lvl_low e : expr_prec e <= 3 -> 13 <= lvl e.
Proof.
  destruct e as [n|n l|t e|l|a|l|t|op e|l op r|a b d]; cbn [lvl expr_prec]; intro P; try lia.
  - destruct n; try lia. destruct (str_eqb _ _); lia.
  - destruct (is_null t e); [lia|]. destruct (ty_is_void t); lia.
  - destruct (negative l); lia.
  - destruct op; try lia. destruct (volatile_ptr e); lia.
  - destruct op; cbn in *; lia.
Qed.
Lemma lvl_mid e : 3 < expr_prec e -> expr_prec e <= 13 -> lvl e = 17 - expr_prec e.
Proof.
  destruct e as [n|n l|t e|l|a|l|t|op e|l op r|a b d]; cbn [lvl expr_prec]; intros P Q; try lia.
  - destruct op; cbn in *; lia.
  - destruct op; cbn in *; lia.
Qed.
Lemma prec_max e : expr_prec e <= 14.
Proof. destruct e as [n|n l|t e|l|a|l|t|op e|l op r|a b d]; cbn [expr_prec]; try lia; destruct op; cbn; lia. Qed.

Lemma group_op g e ts x : good_read e ts x ->
  operand (group_if g ts) (if g then 15 else lvl e) (if g then false else ends_in_type e) x.
Proof. intros (_ & O & _). destruct g; cbn [group_if]; [eapply op_paren|]; exact O. Qed.
Lemma tail_block e ts x : good_read e ts x -> is_tail cx c e -> etoks cx c e = Some ts -> RBk ts (RB [] (Some x)).
Proof.
  intros (_ & O & B) [S|S] T.
  - apply rb_tail; [|now apply S]. eapply op_whole; [exact O|lia].
  - destruct (B S) as [L R]. apply rb_block_tail; [|exact L]. specialize (R []). now rewrite app_nil_r in R.
Qed.

(** ** Casts *)

Lemma null_eq t e :
  match t with
  | TyQual (TyPtr _) q => if q_is_const q && is_int_zero e then Some "null" else None
  | TyPtr _ => if is_int_zero e then Some "null_mut" else None
  | _ => None
  end = is_null t e.
Proof.
  destruct t as [| | | |t q]; try reflexivity.
  - destruct e; try reflexivity. destruct l; reflexivity.
  - destruct t; try reflexivity. cbn [is_null]. destruct e; rewrite ?Bool.andb_false_r; try reflexivity.
    destruct l; cbn [is_int_zero]; rewrite ?Bool.andb_false_r; reflexivity.
Qed.
Lemma is_null_name t e s : is_null t e = Some s -> keyword (st s) = false.
Proof.
  rewrite <- null_eq. destruct t as [| | | |t q]; try discriminate.
  - destruct (is_int_zero e); [|discriminate]. intro E. injection E as <-. reflexivity.
  - destruct t; try discriminate. destruct (q_is_const q && is_int_zero e); [|discriminate]. intro E. injection E as <-. reflexivity.
Qed.
(** The suffix of a number under a cast. *)
Lemma cast_suffix_has v : exists sfx, cast_int_toks v = int_toks v sfx /\ suffix_has (st sfx) v.
Proof.
  unfold cast_int_toks.
  Ltac has n sg w := exists n; split; [reflexivity|]; exists n, sg, w; split; [simpl; tauto|]; split; [reflexivity|]; intros [? ?]; simpl; lia.
  repeat match goal with |- context [(v <? ?k)%Z] => destruct (Z.ltb_spec v k) end.
  1: has "i128" true 128%Z.
  1: has "i64" true 64%Z.
  1: has "i32" true 32%Z.
  1: has "i16" true 16%Z.
  1: has "i8" true 8%Z.
  repeat match goal with |- context [(v <=? ?k)%Z] => destruct (Z.leb_spec v k) end.
  1: has "u8" false 8%Z.
  1: has "u16" false 16%Z.
  1: has "u32" false 32%Z.
  1: has "u64" false 64%Z.
  1: has "i128" true 128%Z.
Qed.
Lemma cast_reads t e : reads_well e -> reads_well (ECast t e).
Proof.
  intros IH ts F T. cbn [etoks] in T. rewrite null_eq in T. cbn [fine] in F.
  destruct (is_null t e) as [s|] eqn:N.
  - injection T as <-. exists (XCall (XPath (std_path cx ["ptr"; s])) []). repeat split.
    + now apply T_null.
    + cbn [lvl ends_in_type]. rewrite N.
      replace (pfx (cx_trait cx) ++ [ri "ptr"; rp "::"; ri s; parens []]) with (std_path cx ["ptr"; s] ++ [parens []]).
      2:{ unfold std_path. cbn [map sep_by]. rewrite <- app_assoc. reflexivity. }
      apply op_call; [|apply ra_nil]. apply std2; [reflexivity|]. eapply is_null_name. exact N.
    + cbn [is_block] in H0. rewrite N in H0. discriminate.
    + cbn [is_block] in H0. rewrite N in H0. discriminate.
  - destruct F as [F P]. destruct (ty_is_void t) eqn:V.
    + destruct (etoks cx c e) as [us|] eqn:U; [|discriminate]. cbn [obind] in T. injection T as <-.
      destruct (IH us F U) as [x G]. destruct G as (Tr & O & _).
      assert (B : RBk ([ri "let"; ri "_"; rp "="] ++ us ++ [rp ";"]) (RB [x_let "_" x] None)).
      { eapply (rb_let "_" (us ++ [rp ";"]) x [] (RB [] None)); [reflexivity| |apply rb_nil]. eapply op_read; [exact O|lia|reflexivity]. }
      exists (XBlock (RB [x_let "_" x] None)). repeat split.
      * now apply T_discard.
      * cbn [lvl ends_in_type]. rewrite N, V. now apply op_brace.
      * intro rest. now apply rp_brace.
    + specialize (P eq_refl).
      assert (D : (exists i, e = ELit (LInt i)) \/ forall i, e <> ELit (LInt i)).
      { destruct e as [| | |[]| | | | | |]; try (right; intros; discriminate). left. eexists. reflexivity. }
      destruct D as [[i ->]|D].
      * cbn [obind] in T. destruct (ty_toks cx c t) as [us|] eqn:U; [|discriminate]. cbn [obind] in T. injection T as <-.
        destruct (cast_suffix_has (int_value i)) as (sfx & -> & Sx).
        exists (XCast (number (int_value i) (st sfx)) us). split; [|split].
        -- now apply T_cast_int.
        -- cbn [lvl ends_in_type]. rewrite N, V. cbn [app negb]. eapply op_cast; [apply op_number| |now apply P]. destruct (_ <? 0)%Z; lia.
        -- cbn [is_block]. rewrite N, V. discriminate.
      * assert (T' : (es <-? etoks cx c e ;; us <-? ty_toks cx c t ;; Some (group_if (Nat.ltb 3 (expr_prec e)) es ++ ri "as" :: us)) = Some ts).
        { destruct e as [| | |[]| | | | | |]; try (destruct (etoks cx c _); [exact T|exact T]). destruct (D _ eq_refl). }
        clear T. destruct (etoks cx c e) as [es|] eqn:E; [|discriminate]. cbn [obind] in T'.
        destruct (ty_toks cx c t) as [us|] eqn:U; [|discriminate]. cbn [obind] in T'. injection T' as <-.
        destruct (IH es F E) as [x G]. exists (XCast x us). split; [|split].
        -- apply T_cast; auto. apply G.
        -- cbn [lvl ends_in_type]. rewrite N, V. cbn [negb]. eapply op_cast; [eapply group_op; exact G| |now apply P].
           destruct (Nat.ltb_spec 3 (expr_prec e)); [lia|]. now apply lvl_low.
        -- cbn [is_block]. rewrite N, V. discriminate.
Qed.

(** ** Calls *)

Definition arg_read (u : list rtok) (y : rx) : Prop :=
  (exists lv b, operand u lv b y) \/ (exists g, u = [rp "$"; parens g; rp ","; rp "*"] /\ y = XRepeat g).
Lemma args_ra us ys : Forall2 arg_read us ys -> RA (sep_by (rp ",") us) ys.
Proof.
  induction 1 as [|u y us ys A F IH]; [apply ra_nil|]. destruct us as [|u' us].
  - inversion F; subst. cbn [sep_by]. destruct A as [(lv & b & O)|(g & -> & ->)].
    + apply ra_one. eapply op_whole; [exact O|lia].
    + apply ra_repeat.
  - change (sep_by (rp ",") (u :: u' :: us)) with (u ++ rp "," :: sep_by (rp ",") (u' :: us)).
    destruct A as [(lv & b & O)|(g & -> & ->)].
    + eapply ra_cons; [|exact IH]. eapply op_read; [exact O|lia|reflexivity].
    + cbn [app]. now apply ra_repeat_cons.
Qed.
Definition fine_arg (e : expr) : Prop :=
  match e with EVar (IArg i) => arg_name c i = Some (st "...") \/ fine cx c e | _ => fine cx c e end.
Lemma arg_reads e ts u :
  reads_well e -> fine_arg e -> etoks cx c e = Some ts -> call_arg_toks c false e ts = Some u ->
  exists x y, tree cx c e x /\ passed c e x y /\ arg_read u y.
Proof.
  intros IH F T U.
  assert (V : (exists i, e = EVar (IArg i) /\ arg_name c i = Some (st "...")) \/ fine cx c e).
  { destruct e as [[i|s|l]| | | | | | | | |]; try (right; exact F). destruct F as [F|F]; [left; eauto|right; exact F]. }
  destruct V as [(i & -> & A)|V].
  - cbn [etoks var_toks ident_toks] in T. unfold arg_toks in T. rewrite A in T. cbn [obind] in T.
    rewrite str_eqb_refl in T. injection T as <-. cbn [call_arg_toks] in U. rewrite A in U. cbn [obind] in U.
    rewrite str_eqb_refl in U. cbn [orb] in U. injection U as <-.
    eexists. eexists. split; [now apply T_rest|]. split; [|right; eexists; split; reflexivity].
    split; [reflexivity|]. intro N. destruct N. now left.
  - destruct (IH ts V T) as (x & G). exists x.
    assert (R : unconverted c e /\ u = ts \/ ~ unconverted c e /\ u = [parens ts; rp "."; ri "into"; parens []]).
    { unfold call_arg_toks in U. destruct e as [[i|s|l]|n l|t e|l|a|l|t|op e|l op r|a b d]; cbn [unconverted]; try (right; split; [exact (fun N => N)|congruence]).
      - destruct (arg_name c i) as [n0|] eqn:An; [|discriminate]. cbn [obind] in U.
        destruct (str_eqb n0 (st "...")) eqn:Se; cbn [orb] in U.
        { left. split; [left|congruence]. destruct (str_eqb_spec n0 (st "...")); congruence. }
        assert (Ne : n0 <> st "...") by (intros ->; now rewrite str_eqb_refl in Se).
        destruct (lc_macro c); cbn [negb] in U; [right|left]; split; try congruence; [|now right].
        intros [N|N]; congruence.
      - assert (Pt : ty_is_ptr t = is_pointer t) by (clear; induction t; cbn; auto). rewrite Pt in U.
        destruct e as [| |t' e|[]| | | | | |]; cbn [is_int_zero] in U; rewrite ?andb_false_r in U; try (right; split; [exact (fun N => N)|congruence]).
        destruct (is_pointer t); cbn [andb] in U; [|right; split; [intros [N _]; discriminate N|congruence]].
        destruct (Z.eqb_spec (int_value i) 0) as [Z|Z]; [left|right]; split; try congruence; [now split|]. now intros [_ N].
      - left. split; [exact I|congruence]. }
    destruct G as (Tr & O & _). destruct R as [[Un ->] | [Un ->]].
    + exists x. split; [exact Tr|]. split; [|left; eauto]. split; [reflexivity|contradiction].
    + exists (XMethod x (st "into") []). split; [exact Tr|]. split; [|]. { split; [contradiction|reflexivity]. } left. exists 15, false.
      apply (op_method [parens ts] false x (st "into") [] []); [eapply op_paren; exact O|reflexivity|apply ra_nil].
Qed.
Lemma call_args l tss us :
  Forall reads_well l ->
  (fix all (l : list expr) : Prop :=
      match l with
      | [] => True
      | e :: l' => (match e with EVar (IArg i) => arg_name c i = Some (st "...") \/ fine cx c e | _ => fine cx c e end) /\ all l'
      end) l ->
  exprs_toks (etoks cx c) l = Some tss -> call_args_toks c false l tss = Some us ->
  exists ys, Forall2 (fun e y => exists x, tree cx c e x /\ passed c e x y) l ys /\ Forall2 arg_read us ys.
Proof.
  intro W. revert tss us. induction W as [|e l IHe W IH]; intros tss us F T U.
  - cbn in T. injection T as <-. cbn in U. injection U as <-. exists []. split; constructor.
  - destruct F as [F Fl]. cbn [exprs_toks] in T. destruct (etoks cx c e) as [ts|] eqn:E; [|discriminate]. cbn [obind] in T.
    fold (exprs_toks (etoks cx c)) in T. destruct (exprs_toks (etoks cx c) l) as [tss'|] eqn:El; [|discriminate]. cbn [obind] in T. injection T as <-.
    cbn [call_args_toks] in U. destruct (call_arg_toks c false e ts) as [u|] eqn:Ue; [|discriminate]. cbn [obind] in U.
    destruct (call_args_toks c false l tss') as [us'|] eqn:Ul; [|discriminate]. cbn [obind] in U. injection U as <-.
    destruct (IH tss' us' Fl eq_refl Ul) as (ys & A & B).
    destruct (arg_reads e ts u IHe F E Ue) as (x & y & Tr & P & R).
    exists (y :: ys). split; constructor; eauto.
Qed.
Lemma call_reads n l : Forall reads_well l -> reads_well (ECall n l).
Proof.
  intros W ts F T. pose proof T as T0. cbn [etoks] in T.
  assert (D : match n with IPlain id => str_eqb id (st "__builtin_offsetof") && Nat.eqb (length l) 2 | _ => false end = is_offsetof n l) by reflexivity.
  rewrite D in T. cbn [fine] in F. destruct (is_offsetof n l) eqn:Of.
  - cbn [obind] in T. destruct (exprs_toks (etoks cx c) l) as [tss|]; [|discriminate]. cbn [obind] in T.
    destruct (call_args_toks c true l tss) as [us|]; [|discriminate]. cbn [obind] in T. injection T as <-.
    eexists. apply leaf_good; [exact Of|exact T0| |reflexivity].
    replace ((pfx (cx_trait cx) ++ [ri "mem"; rp "::"; ri "offsetof"; rp "!"]) ++ [parens (sep_by (rp ",") us)])
      with ((pfx (cx_trait cx) ++ [ri "mem"; rp "::"; ri "offsetof"]) ++ [rp "!"; parens (sep_by (rp ",") us)]).
    2:{ rewrite <- !app_assoc. reflexivity. }
    apply op_mac; [now apply std2|].
    replace (pfx (cx_trait cx) ++ [ri "mem"; rp "::"; ri "offsetof"]) with ((pfx (cx_trait cx) ++ [ri "mem"; rp "::"]) ++ [ri "offsetof"]).
    + now rewrite last_is_app.
    + rewrite <- app_assoc. reflexivity.
  - destruct (F eq_refl) as [P Fl]. destruct (ident_toks cx c n) as [ns|] eqn:N; [|discriminate]. cbn [obind] in T.
    destruct (exprs_toks (etoks cx c) l) as [tss|] eqn:El; [|discriminate]. cbn [obind] in T.
    destruct (call_args_toks c false l tss) as [us|] eqn:Ul; [|discriminate]. cbn [obind] in T. injection T as <-.
    destruct (call_args l tss us W Fl El Ul) as (ys & A & B). apply args_ra in B.
    assert (Dn : (exists k, n = IConcat k) \/ forall k, n <> IConcat k).
    { destruct n; try (right; discriminate). left. eauto. }
    destruct Dn as [[k ->]|Dn].
    + destruct (name_paste _ _ N) as (g & -> & R & L). eexists. split; [|split; [|discriminate]].
      * apply T_call; [exact Of|apply TN_paste; exact N|exact A].
      * cbn [lvl ends_in_type]. now apply op_call_mac.
    + eexists. split; [|split; [|discriminate]].
      * apply T_call; [exact Of|apply TN_path; [exact N|exact Dn]|exact A].
      * cbn [lvl ends_in_type]. apply op_call; [|exact B]. eapply name_path; eassumption.
Qed.

(** ** Blocks with assignments *)

Lemma assign_stmt ts l b x q us l' b' y r :
  operand ts l b x -> 3 <= l -> is_assign_op q = true -> operand us l' b' y -> 2 <= l' ->
  RE 0 (ts ++ RPunct q :: us ++ rp ";" :: r) (XAssign q x y) (rp ";" :: r).
Proof.
  intros O L A O' L'. apply O; [lia| |].
  - cbn [follow allowed]. rewrite (not_dot_assign _ A), (assign_not_bin _ A). repeat split.
    + intros _. unfold assign_level. lia.
    + intros ->. discriminate.
    + intros ->. discriminate.
  - eapply rl_assign; [exact A|unfold assign_level; lia| |apply ended_stop; reflexivity].
    eapply op_read; [exact O'|exact L'|reflexivity].
Qed.
Lemma path_not_block ts r : rd_path ts = Some (ts, []) -> blocklike (ts ++ r) = false.
Proof.
  intro P. destruct ts as [|t ts]; [discriminate|]. destruct t as [s|q|?|?|?]; try discriminate; [|reflexivity].
  pose proof (path_word _ _ _ P eq_refl) as K. destruct (keyword_words _ K) as (A & B & C & _).
  cbn [app blocklike]. unfold one_of. cbn [existsb]. now rewrite A, B, C.
Qed.
Lemma op_name s : keyword (st s) = false -> operand [ri s] 15 false (x_name s).
Proof. intro K. apply op_path. cbn [ri rd_path rd_segs]. now rewrite K. Qed.
Lemma blocklike_app ts r : blocklike ts = false -> ts <> [] -> blocklike (ts ++ r) = false.
Proof. destruct ts as [|t ts]; [congruence|]. intros B _. destruct t as [s|q|?|?|[] ?]; try reflexivity; exact B. Qed.
Lemma operand_nonempty ts l b x : operand ts l b x -> ts <> [].
Proof.
  intros O ->. pose proof (op_whole _ _ _ _ 0 O (Nat.le_0_l _)) as R. destruct (re_inv _ _ _ _ R) as (? & ? & [[|n] P] & _); discriminate P.
Qed.

(** [{ raw OP= 1; raw }] and [{ let prev = raw; raw OP= 1; prev }]. *)
Lemma step_block post q raw l b x us l' b' y :
  operand raw l b x -> 3 <= l -> blocklike raw = false -> is_assign_op q = true -> operand us l' b' y -> 2 <= l' ->
  RBk (if post : bool then [ri "let"; ri "prev"; rp "="] ++ raw ++ [rp ";"] ++ raw ++ RPunct q :: us ++ [rp ";"; ri "prev"]
       else raw ++ RPunct q :: us ++ [rp ";"] ++ raw)
      (if post then RB [x_let "prev" x; RsExpr (XAssign q x y)] (Some (x_name "prev")) else RB [RsExpr (XAssign q x y)] (Some x)).
Proof.
  intros O L B A O' L'. pose proof (operand_nonempty _ _ _ _ O) as NE. destruct post.
  - eapply (rb_let "prev" (raw ++ [rp ";"] ++ raw ++ RPunct q :: us ++ [rp ";"; ri "prev"]) x _ (RB [RsExpr (XAssign q x y)] (Some (x_name "prev")))).
    + reflexivity.
    + cbn [app]. eapply op_read; [exact O|lia|reflexivity].
    + eapply (rb_expr _ (XAssign q x y) [ri "prev"] (RB [] (Some (x_name "prev")))).
      * eapply assign_stmt; eassumption.
      * now apply blocklike_app.
      * apply rb_tail; [|reflexivity]. eapply op_whole; [apply (op_name "prev" eq_refl)|lia].
  - eapply (rb_expr _ (XAssign q x y) raw (RB [] (Some x))).
    + eapply assign_stmt; eassumption.
    + now apply blocklike_app.
    + apply rb_tail; [|exact B]. eapply op_whole; [exact O|lia].
Qed.

(** *** Volatile accesses *)
Lemma op_readv p l b x : operand p l b x -> operand (read_volatile cx p) 15 false (x_read cx x).
Proof.
  intro O. unfold read_volatile. replace (pfx (cx_trait cx) ++ [ri "ptr"; rp "::"; ri "read_volatile"; parens p]) with (std_path cx ["ptr"; "read_volatile"] ++ [parens p]).
  - apply op_call; [now apply std2|]. apply ra_one. eapply op_whole; [exact O|lia].
  - unfold std_path. cbn [map sep_by]. rewrite <- app_assoc. reflexivity.
Qed.
Lemma op_writev v lv bv vx p lp bp px w lw bw wx :
  operand v lv bv vx -> operand p lp bp px -> operand w lw bw wx ->
  exists g, write_volatile cx v p w = [braces g] /\ RBk g (RB [x_let "value" vx; x_write cx px wx] (Some (x_name "value"))).
Proof.
  intros V P W. unfold write_volatile. eexists. split; [reflexivity|].
  eapply (rb_let "value" _ vx _ (RB [x_write cx px wx] (Some (x_name "value")))); [reflexivity| |].
  { cbn [app]. eapply op_read; [exact V|lia|reflexivity]. }
  assert (A : RA (p ++ rp "," :: w) [px; wx]).
  { eapply ra_cons; [eapply op_read; [exact P|lia|reflexivity]|]. apply ra_one. eapply op_whole; [exact W|lia]. }
  pose proof (op_call _ _ _ (std2 "ptr" "write_volatile" eq_refl eq_refl) A) as C.
  eapply (rb_expr _ _ [ri "value"] (RB [] (Some (x_name "value")))).
  - assert (E : pfx (cx_trait cx) ++ [ri "ptr"; rp "::"; ri "write_volatile"; parens (p ++ rp "," :: w); rp ";"; ri "value"] =
      ((pfx (cx_trait cx) ++ [ri "ptr"; rp "::"; ri "write_volatile"]) ++ [parens (p ++ rp "," :: w)]) ++ rp ";" :: [ri "value"]).
    { rewrite <- !app_assoc. reflexivity. }
    rewrite E. eapply op_read; [exact C|lia|reflexivity].
  - assert (E : pfx (cx_trait cx) ++ [ri "ptr"; rp "::"; ri "write_volatile"; parens (p ++ rp "," :: w); rp ";"; ri "value"] =
      (pfx (cx_trait cx) ++ [ri "ptr"; rp "::"; ri "write_volatile"]) ++ [parens (p ++ rp "," :: w); rp ";"; ri "value"]).
    { rewrite <- !app_assoc. reflexivity. }
    rewrite E. apply path_not_block. now apply std2.
  - apply rb_tail; [|reflexivity]. eapply op_whole; [apply (op_name "value" eq_refl)|lia].
Qed.
Lemma volatile_yes e : volatile_deref e = true -> exists p, e = EUnary UDeref p /\ volatile_access e p.
Proof.
  destruct e as [| | | | | | |op e| |]; try discriminate. destruct op; try discriminate. cbn [volatile_deref].
  destruct e as [| |t e| | | | | | |]; try discriminate. destruct t as [| | |t|]; try discriminate. destruct t as [| | | |t q]; try discriminate.
  cbn [volatile_ptr]. intro V. eexists. split; [reflexivity|]. split; [reflexivity|]. repeat eexists. exact V.
Qed.
Lemma volatile_no e p : volatile_deref e = false -> ~ volatile_access e p.
Proof. intros V (-> & t & q & e' & -> & Q). cbn in V. congruence. Qed.

(** ** Unary operators *)

(** The expression and its direct operands. *)
Definition reads_deep (e : expr) : Prop :=
  reads_well e /\ (forall op e', e = EUnary op e' -> reads_well e') /\ (forall l op r, e = EBinary l op r -> reads_well l /\ reads_well r).

Lemma prefix_op q e raw x :
  is_unary_op q = true -> good_read e raw x -> (expr_prec e <= 2 -> 14 <= lvl e) ->
  operand (RPunct q :: group_if (Nat.ltb 2 (expr_prec e)) raw) 14 (if Nat.ltb 2 (expr_prec e) then false else ends_in_type e) (XUn q x).
Proof.
  intros U G L. eapply op_unary; [exact U|eapply group_op; exact G| |].
  - destruct (Nat.ltb_spec 2 (expr_prec e)); [lia|]. now apply L.
  - destruct (Nat.ltb 2 (expr_prec e)); [lia|]. apply lvl_range.
Qed.
(** An operand that is not parenthesised below a unary operator does not end
    with a type. *)
Lemma tight_type e : expr_prec e <= 2 -> 14 <= lvl e -> ends_in_type e = false.
Proof.
  destruct e as [n|n l|t e|l|a|l|t|op e|l op r|a b d]; cbn [expr_prec lvl ends_in_type]; intros P L; try reflexivity; try lia.
  - destruct n; try reflexivity. destruct (str_eqb _ _); [lia|reflexivity].
  - destruct op; try reflexivity; cbn in P; lia.
Qed.
Lemma prefix_good q e raw x :
  is_unary_op q = true -> good_read e raw x -> (expr_prec e <= 2 -> 14 <= lvl e) ->
  operand (RPunct q :: group_if (Nat.ltb 2 (expr_prec e)) raw) 14 false (XUn q x).
Proof.
  intros U G L. pose proof (prefix_op q e raw x U G L) as O. destruct (Nat.ltb_spec 2 (expr_prec e)) as [E|E]; [exact O|].
  rewrite (tight_type e) in O; auto.
Qed.

Lemma step_reads op s e raw p x ts :
  step_op op = Some s -> fine cx c (EUnary op e) -> etoks cx c e = Some raw ->
  (match e with EUnary _ e1 => etoks cx c e1 | _ => Some [] end) = Some p ->
  ts = step_toks cx (is_post op) s (volatile_deref e) raw p ->
  reads_deep e -> good_read e raw x ->
  exists y, good_read (EUnary op e) ts y.
Proof.
  intros S F T B -> (_ & Deep & _) G.
  assert (Ops : (s = "+" \/ s = "-") /\ lvl (EUnary op e) = 15 /\ is_block (EUnary op e) = true).
  { destruct op; try discriminate; injection S as <-; cbn; auto. }
  destruct Ops as (Sg & Lv & Bl).
  assert (Blk : forall g b, step_toks cx (is_post op) s (volatile_deref e) raw p = [braces g] -> RBk g b ->
    tree cx c (EUnary op e) (XBlock b) -> good_read (EUnary op e) (step_toks cx (is_post op) s (volatile_deref e) raw p) (XBlock b)).
  { intros g b E R Tr. split; [exact Tr|]. rewrite E, Lv. split; [now apply op_brace|]. intros _. split; [reflexivity|].
    intro rest. now apply rp_brace. }
  destruct (volatile_deref e) eqn:V.
  - destruct (volatile_yes e V) as (pe & -> & Va). 
    assert (Fp : fine cx c pe) by (destruct F as [F _]; exact (proj1 F)).
    destruct (Deep _ _ eq_refl p Fp B) as (px & Gp). pose proof Gp as (Trp & Op & _).
    assert (Val : operand [ri "value"] 15 false (x_name "value")) by now apply op_name.
    assert (Sum : forall ts y, operand ts 15 false y -> operand (ts ++ [rp s; one]) 11 false (XBin (st s) y x_one)).
    { intros us y Oy. eapply (op_bin (st s) 11 us 15 false y [one] 15 false); try exact Oy; try lia.
      - destruct Sg as [-> | ->]; reflexivity.
      - apply op_lit. }
    unfold step_toks in *. destruct (is_post op) eqn:Ps.
    + destruct (op_writev _ _ _ _ _ _ _ _ _ _ _ _ (op_readv _ _ _ _ Op) Op (Sum _ _ Val)) as (g & E & R).
      eexists. eapply Blk; [exact E|exact R|].
      pose proof (T_step_volatile cx c op s _ pe px S Va Trp) as Tr. rewrite Ps in Tr. exact Tr.
    + destruct (op_writev _ _ _ _ _ _ _ _ _ _ _ _ (Sum _ _ (op_readv _ _ _ _ Op)) Op Val) as (g & E & R).
      eexists. eapply Blk; [exact E|exact R|].
      pose proof (T_step_volatile cx c op s _ pe px S Va Trp) as Tr. rewrite Ps in Tr. exact Tr.
  - destruct G as (Tr & O & _).
    assert (C : tight 3 e /\ starts_stmt cx c e).
    { destruct F as [_ F]. destruct op; try discriminate; exact (F V). }
    destruct C as [L St]. specialize (St raw T).
    assert (A : is_assign_op (st (s ++ "=")) = true) by (destruct Sg as [-> | ->]; reflexivity).
    pose proof (step_block (is_post op) (st (s ++ "=")) raw _ _ x [one] 15 false x_one O L St A (op_lit _) ltac:(lia)) as R.
    eexists. eapply Blk; [|exact R|].
    + unfold step_toks. destruct (is_post op); cbn [app]; reflexivity.
    + pose proof (T_step cx c op s e x S (fun p => volatile_no e p V) Tr) as Ts. cbn zeta in Ts. destruct (is_post op); exact Ts.
Qed.

Lemma unary_reads op e : reads_deep e -> reads_well (EUnary op e).
Proof.
  intros Deep ts F T. pose proof Deep as (IH & Du & Db). cbn [etoks] in T.
  destruct (etoks cx c e) as [raw|] eqn:E; [|discriminate]. cbn [obind] in T.
  pose proof F as [Fe _]. destruct (IH raw Fe E) as (x & G). pose proof G as (Tr & O & _).
  destruct op; cbn [unop_prec fst] in T.
  - destruct (match e with EUnary _ e1 => etoks cx c e1 | _ => Some [] end) as [p|] eqn:B; [|discriminate].
    injection T as <-. eapply (step_reads UPostInc "+"); try eassumption; reflexivity.
  - destruct (match e with EUnary _ e1 => etoks cx c e1 | _ => Some [] end) as [p|] eqn:B; [|discriminate].
    injection T as <-. eapply (step_reads UPostDec "-"); try eassumption; reflexivity.
  - destruct (match e with EUnary _ e1 => etoks cx c e1 | _ => Some [] end) as [p|] eqn:B; [|discriminate].
    injection T as <-. eapply (step_reads UInc "+"); try eassumption; reflexivity.
  - destruct (match e with EUnary _ e1 => etoks cx c e1 | _ => Some [] end) as [p|] eqn:B; [|discriminate].
    injection T as <-. eapply (step_reads UDec "-"); try eassumption; reflexivity.
  - destruct F as [_ []].
  - destruct F as [_ F]. injection T as <-. exists (XUn (st "-") x). split; [now apply T_minus|]. split; [|discriminate].
    now apply prefix_good.
  - destruct F as [_ F]. injection T as <-. exists (XUn (st "!") x). split; [apply T_not; auto|]. split; [|discriminate].
    now apply prefix_good.
  - destruct F as [_ F]. injection T as <-. exists (XUn (st "!") x). split; [apply T_not; auto|]. split; [|discriminate].
    now apply prefix_good.
  - (* dereference *)
    assert (Plain : (forall l op r, e = EBinary l op r -> op <> OAdd /\ op <> OSub) ->
      (forall op e', e = EUnary op e' -> step_op op = None) -> volatile_ptr e = false -> (expr_prec e <= 2 -> 14 <= lvl e) ->
      ts = rp "*" :: group_if (Nat.ltb 2 (expr_prec e)) raw -> exists y, good_read (EUnary UDeref e) ts y).
    { intros A B V L ->. exists (XUn (st "*") x). split; [|split; [|discriminate]].
      - apply T_deref; auto. intros p Va. apply (volatile_no (EUnary UDeref e) p); [exact V|exact Va].
      - cbn [lvl ends_in_type]. rewrite V. now apply prefix_good. }
    destruct F as [_ F]. 
    destruct e as [n|n k|t e|k|a|k|t|op e|l op r|a b d]; try (apply Plain; [discriminate|discriminate|reflexivity|exact F|congruence]).
    + (* a cast *)
      destruct (volatile_ptr (ECast t e)) eqn:V.
      * injection T as <-. exists (x_read cx x). split; [|split; [|discriminate]].
        -- destruct (volatile_yes (EUnary UDeref (ECast t e)) V) as (p & Ep & Va). injection Ep as <-. eapply T_read; [exact Va|exact Tr].
        -- cbn [lvl ends_in_type]. rewrite V. eapply op_readv. exact O.
      * apply Plain; [discriminate|discriminate|reflexivity|cbn; lia|congruence].
    + (* a unary operator *)
      destruct (etoks cx c e) as [r1|] eqn:E1.
      2:{ exfalso. cbn [etoks] in E. rewrite E1 in E. discriminate E. }
      cbn [obind] in T.
      destruct (step_op op) as [sg|] eqn:So.
      2:{ apply Plain; [discriminate|congruence|reflexivity| |destruct op; try discriminate; congruence].
          destruct op; try discriminate; exact F. }
      destruct Fe as [Fe1 _]. destruct (Du _ _ eq_refl r1 Fe1 E1) as (x1 & G1). destruct G1 as (Tr1 & O1 & _).
      assert (C : tight 15 e /\ starts_stmt cx c e) by (destruct op; try discriminate; exact F).
      destruct C as [L St]. unfold tight in L. specialize (St r1 E1).
      assert (L15 : lvl e = 15) by (pose proof (lvl_range e); lia). rewrite L15 in O1.
      assert (Adv : forall f, keyword (st f) = false -> operand (r1 ++ [rp "."; ri f; parens [one]]) 15 false (XMethod x1 (st f) [x_one])).
      { intros f K. eapply op_method; [exact O1|exact K|]. apply ra_one. eapply op_whole; [apply op_lit|lia]. }
      assert (Sg : sg = "+" \/ sg = "-") by (destruct op; try discriminate; injection So as <-; auto).
      set (f := if String.eqb sg "+" then "add" else "sub").
      assert (Kf : keyword (st f) = false) by (unfold f; destruct Sg as [-> | ->]; reflexivity).
      pose proof (step_block (is_post op) (st "=") r1 15 _ x1 _ 15 false _ O1 ltac:(lia) St eq_refl (Adv f Kf) ltac:(lia)) as R.
      assert (Tt : ts = deref_step_toks (is_post op) f r1).
      { destruct op; try discriminate; injection So as <-; injection T as <-; reflexivity. }
      eexists. split; [|split; [|discriminate]].
      * exact (T_deref_step cx c op sg e x1 So Tr1).
      * cbn [lvl volatile_ptr ends_in_type]. subst ts. unfold deref_step_toks.
        apply op_brace in R. 
        pose proof (op_unary (st "*") _ 15 false _ eq_refl R ltac:(lia) ltac:(lia)) as R'.
        fold f. destruct (is_post op); repeat (progress (cbn [app] in *; rewrite <- ?app_assoc in * )); cbn [app] in *; exact R'.
    + (* a binary operator *)
      destruct (etoks cx c l) as [ls|] eqn:El.
      2:{ exfalso. cbn [etoks] in E. rewrite El in E. discriminate E. }
      destruct (etoks cx c r) as [rs|] eqn:Er.
      2:{ exfalso. cbn [etoks] in E. rewrite El, Er in E. discriminate E. }
      cbn [obind] in T.
      assert (Off : op = OAdd \/ op = OSub \/ (op <> OAdd /\ op <> OSub)) by (destruct op; auto; right; right; split; discriminate).
      assert (Add : op = OAdd \/ op = OSub -> exists y, good_read (EUnary UDeref (EBinary l op r)) ts y).
      { intro Op. destruct (Db _ _ _ eq_refl) as [Wl Wr].
        assert (Fl : fine cx c l /\ fine cx c r) by (destruct Op as [-> | ->]; destruct Fe as (A & B); split; assumption).
        destruct Fl as [Fl Fr]. destruct (Wl ls Fl El) as (xl & Gl). destruct (Wr rs Fr Er) as (xr & Gr).
        assert (L : expr_prec l <= 1 -> 15 <= lvl l) by (destruct Op as [-> | ->]; exact F).
        set (f := match op with OAdd => "add" | _ => "sub" end).
        assert (Kf : keyword (st f) = false) by (unfold f; destruct Op as [-> | ->]; reflexivity).
        assert (Tt : ts = rp "*" :: group_if (Nat.ltb 1 (expr_prec l)) ls ++ [rp "."; ri f; parens rs]).
        { assert (Q : (Nat.ltb 2 (expr_prec l) || Nat.ltb 1 (expr_prec l))%bool = Nat.ltb 1 (expr_prec l)).
          { destruct (Nat.ltb_spec 2 (expr_prec l)), (Nat.ltb_spec 1 (expr_prec l)); try reflexivity. lia. }
          rewrite Q in T. destruct Op as [-> | ->]; injection T as <-; reflexivity. }
        subst ts. exists (XUn (st "*") (XMethod xl (st f) [xr])). split; [|split; [|discriminate]].
        - eapply (T_offset cx c l op r); [exact Op|apply Gl|apply Gr].
        - cbn [lvl volatile_ptr ends_in_type]. eapply (op_unary (st "*") _ 15 false); [reflexivity| |lia|lia].
          eapply op_method; [|exact Kf|].
          + pose proof (group_op (Nat.ltb 1 (expr_prec l)) l ls xl Gl) as Og.
            destruct (Nat.ltb_spec 1 (expr_prec l)) as [Q|Q]; [exact Og|]. specialize (L Q).
            replace (lvl l) with 15 in Og by (pose proof (lvl_range l); lia). rewrite (tight_type l) in Og by lia. exact Og.
          + apply ra_one. eapply op_whole; [apply Gr|lia]. }
      destruct Off as [Q|[Q|Q]]; [now apply Add; auto|now apply Add; auto|].
      apply Plain; [congruence|discriminate|reflexivity| |].
      * destruct Q. destruct op; try exact F; congruence.
      * destruct Q. destruct op; try congruence.
  - (* address *)
    injection T as <-. exists (XAddrOf x). split; [now apply T_addr|]. split; [|discriminate].
    cbn [lvl ends_in_type].
    replace (pfx (cx_trait cx) ++ [ri "ptr"; rp "::"; ri "addr_of_mut"; rp "!"; parens raw])
      with ((pfx (cx_trait cx) ++ [ri "ptr"; rp "::"; ri "addr_of_mut"]) ++ [rp "!"; parens raw]) by (rewrite <- app_assoc; reflexivity).
    eapply op_addr; [now apply std2| |exact O].
    replace (pfx (cx_trait cx) ++ [ri "ptr"; rp "::"; ri "addr_of_mut"]) with ((pfx (cx_trait cx) ++ [ri "ptr"; rp "::"]) ++ [ri "addr_of_mut"]) by (rewrite <- app_assoc; reflexivity).
    now rewrite last_is_app.
Qed.

(** ** Binary operators *)

Lemma plain_tok op : is_plain op = true -> binop_tok op = RPunct (rust_op op) /\ binop_level (rust_op op) = Some (binop_lvl op) /\
  valued op = false /\ binop_lvl op <= 12 /\ binop_lvl op + fst (binop_prec op) = 17.
Proof. destruct op; try discriminate; intros _; repeat split; cbn; lia. Qed.
Lemma valued_block op : block_assign op = valued op.
Proof. destruct op; reflexivity. Qed.
Lemma assign_tok op : is_assignment op = true -> binop_tok op = RPunct (rust_op op) /\ is_assign_op (rust_op op) = true.
Proof. destruct op; try discriminate; intros _; repeat split. Qed.

(** The parentheses around the operands of a binary operator. *)
Lemma parens_plain l op r : is_plain op = true ->
  let '(bl, br) := binary_parens l op r in
  (bl = false -> binop_lvl op <= lvl l /\ (binop_lvl op = cmp_level -> lvl l <> cmp_level)) /\
  (br = false -> S (binop_lvl op) <= lvl r).
Proof.
  intro P. destruct (plain_tok op P) as (_ & _ & _ & L & S).
  assert (Le : forall e, expr_prec e <= fst (binop_prec op) -> binop_lvl op <= lvl e).
  { intros e E. destruct (Nat.le_gt_cases (expr_prec e) 3) as [Q|Q].
    - pose proof (lvl_low e Q). lia.
    - rewrite lvl_mid; [lia|exact Q|destruct op; try discriminate; cbn in *; lia]. }
  assert (Lt : forall e, expr_prec e < fst (binop_prec op) -> binop_lvl op < lvl e).
  { intros e E. destruct (Nat.le_gt_cases (expr_prec e) 3) as [Q|Q].
    - pose proof (lvl_low e Q). lia.
    - rewrite lvl_mid; [lia|exact Q|destruct op; try discriminate; cbn in *; lia]. }
  unfold binary_parens. destruct (binop_prec op) as [p a] eqn:Bp. cbn [fst] in *.
  assert (A : a = AssocLeft \/ (a = AssocNone /\ binop_lvl op = cmp_level)) by (destruct op; try discriminate; injection Bp as <- <-; auto).
  assert (C : a = AssocLeft -> binop_lvl op <> cmp_level) by (destruct op; try discriminate; injection Bp as <- <-; intro; try discriminate; cbn; discriminate).
  destruct A as [-> | [-> Cm]].
  - split.
    + intro B. assert (B' : Nat.ltb p (expr_prec l) = false) by (destruct l; try exact B; destruct op; try exact B; discriminate B).
      apply Nat.ltb_ge in B'. split; [now apply Le|]. intro E. now apply C in E.
    + intro B. apply Nat.leb_gt in B. now apply Lt.
  - split.
    + intro B. assert (B' : Nat.leb p (expr_prec l) = false) by (destruct l; try exact B; destruct op; try exact B; discriminate B).
      apply Nat.leb_gt in B'. pose proof (Lt _ B'). split; [lia|]. intros E E'. lia.
    + intro B. apply Nat.leb_gt in B. now apply Lt.
Qed.

Lemma binary_reads l op r : reads_deep l -> reads_well r -> reads_well (EBinary l op r).
Proof.
  intros (Wl & Du & _) Wr ts F T. cbn [etoks] in T.
  destruct (etoks cx c l) as [ls|] eqn:El; [|discriminate]. cbn [obind] in T.
  destruct (etoks cx c r) as [rs|] eqn:Er; [|discriminate]. cbn [obind] in T.
  rewrite valued_block in T. cbn [fine] in F. destruct F as [Fl F].
  destruct (Wl ls Fl El) as (xl & Gl). pose proof Gl as (Trl & Ol & _).
  destruct (valued op) eqn:V.
  - destruct F as [Fr F]. destruct (Wr rs Fr Er) as (xr & Gr). destruct Gr as (Trr & Or & _).
    destruct (match l with EUnary _ e1 => etoks cx c e1 | _ => Some [] end) as [p|] eqn:B; [|discriminate].
    cbn [obind] in T.
    assert (Fin : forall g b, ts = [braces g] -> RBk g b -> tree cx c (EBinary l op r) (XBlock b) -> exists y, good_read (EBinary l op r) ts y).
    { intros g b -> R Tr. exists (XBlock b). split; [exact Tr|]. cbn [lvl ends_in_type is_block].
      rewrite V. replace (binop_lvl op) with 15 by (destruct op; try discriminate; reflexivity).
      split; [|intros _; split; [reflexivity|intro rest; now apply rp_brace]].
      replace (match op with OMember => false | _ => false end) with false by (destruct op; reflexivity). now apply op_brace. }
    destruct (volatile_deref l) eqn:Vl.
    + destruct (volatile_yes l Vl) as (pe & -> & Va).
      assert (Fp : fine cx c pe) by exact (proj1 Fl).
      destruct (Du _ _ eq_refl p Fp B) as (px & Gp). pose proof Gp as (Trp & Op & _).
      assert (Val : operand [ri "value"] 15 false (x_name "value")) by now apply op_name.
      destruct F as [-> | [-> L]].
      * destruct (op_writev _ _ _ _ _ _ _ _ _ _ _ _ Or Op Val) as (g & E & R).
        eapply Fin; [|exact R|]; [congruence|]. now apply (T_write cx c _ r pe).
      * assert (Sum : operand (read_volatile cx p ++ rp "+" :: rs) 11 (ends_in_type r) (XBin (st "+") (x_read cx px) xr)).
        { eapply (op_bin (st "+") 11 _ 15 false _ rs (lvl r)); try exact Or; try lia; try reflexivity; try discriminate.
          - now apply (op_readv _ _ _ _ Op).
          - exact L.
          - apply lvl_range. }
        destruct (op_writev _ _ _ _ _ _ _ _ _ _ _ _ Sum Op Val) as (g & E & R).
        eapply Fin; [|exact R|]; [congruence|]. now apply (T_update cx c _ OAddAssign r pe).
    + destruct F as [L St]. specialize (St ls El). destruct (assign_tok op) as [Tk A]; [destruct op; try discriminate; reflexivity|].
      pose proof (step_block false (rust_op op) ls _ _ xl rs _ _ xr Ol L St A Or ltac:(apply lvl_range)) as R. cbv iota in R.
      eapply Fin; [|exact R|].
      * injection T as <-. rewrite Tk. cbn [app]. rewrite <- ?app_assoc. reflexivity.
      * apply T_assign_block; auto. intro. now apply volatile_no.
  - destruct (is_plain op) eqn:Pl.
    + destruct (plain_tok op Pl) as (Tk & Bl & _ & Lk & _).
      assert (Fr : fine cx c r) by (destruct op; try discriminate; try exact F; exact (proj1 F)).
      destruct (Wr rs Fr Er) as (xr & Gr).
      pose proof (parens_plain l op r Pl) as PP.
      assert (Ty : fst (binary_parens l op r) = false -> ends_in_type l = true -> rust_op op <> st "<" /\ rust_op op <> st "<<").
      { intros Q E. destruct op; try discriminate; try (split; discriminate); destruct F as [_ F]; rewrite (F Q) in E; discriminate. }
      assert (Te : ends_in_type (EBinary l op r) = (if snd (binary_parens l op r) then false else ends_in_type r)).
      { cbn [ends_in_type]. rewrite V. destruct op; try discriminate; destruct (snd (binary_parens l _ r)); reflexivity. }
      destruct (binary_parens l op r) as [bl br] eqn:Bp. cbn [fst snd] in Ty, Te. destruct PP as [P1 P2]. injection T as <-. rewrite Tk.
      exists (XBin (rust_op op) xl xr). split; [|split].
      * apply T_binary; [exact Pl|exact Trl|apply Gr].
      * cbn [lvl]. rewrite Te. cbn [app].
        eapply (op_bin (rust_op op) (binop_lvl op)); [exact Bl|lia|apply (group_op bl l _ _ Gl)| | | |apply (group_op br r _ _ Gr)| |].
        -- destruct bl; [unfold cmp_level; lia|]. now apply P1.
        -- destruct bl; [lia|]. now apply P1.
        -- destruct bl; [discriminate|]. now apply Ty.
        -- destruct br; [lia|]. now apply P2.
        -- destruct br; [lia|]. apply lvl_range.
      * cbn [is_block]. rewrite V. discriminate.
    + destruct (is_assignment op) eqn:As.
      * destruct (assign_tok op As) as [Tk A].
        assert (Fr : fine cx c r) by (destruct op; try discriminate; exact F).
        destruct (Wr rs Fr Er) as (xr & Gr).
        assert (Bp : binary_parens l op r = (true, Nat.ltb (expr_prec r) 14)).
        { pose proof (prec_max l). assert (Q : Nat.leb (expr_prec l) 14 = true) by now apply Nat.leb_le.
          destruct op; try discriminate; unfold binary_parens; cbn [binop_prec]; rewrite Q; destruct l; reflexivity. }
        assert (Te : ends_in_type (EBinary l op r) = (if Nat.ltb (expr_prec r) 14 then false else ends_in_type r)).
        { cbn [ends_in_type]. rewrite V, Bp. cbn [snd]. destruct op; try discriminate; destruct (Nat.ltb (expr_prec r) 14); reflexivity. }
        rewrite Bp in T. injection T as <-. rewrite Tk. exists (XAssign (rust_op op) xl xr). split; [|split].
        -- apply T_assign; auto. apply Gr.
        -- cbn [lvl]. rewrite Te. replace (binop_lvl op) with 2 by (destruct op; try discriminate; reflexivity).
           intros p rest z rest' Pp Fo R. cbn [group_if app].
           pose proof (op_paren _ _ _ _ Ol) as Ol'. apply (Ol' p (RPunct (rust_op op) :: group_if (Nat.ltb (expr_prec r) 14) rs ++ rest)); [lia| |].
           ++ cbn [follow allowed]. rewrite (not_dot_assign _ A), (assign_not_bin _ A). repeat split.
              ** intros _. unfold assign_level. lia.
              ** intro E. rewrite E in A. discriminate.
              ** intro E. rewrite E in A. discriminate.
           ++ pose proof (group_op (Nat.ltb (expr_prec r) 14) r _ _ Gr) as Or.
              eapply (rl_assign p xl _ _ xr rest); [exact A|exact Pp| |exact R].
              apply Or; [destruct (Nat.ltb (expr_prec r) 14); [unfold assign_level; lia|apply lvl_range]| |].
              ** eapply follow_le; [|intro E; exact E|exact Fo]. destruct (Nat.ltb (expr_prec r) 14); [lia|]. apply lvl_range.
              ** (* nothing of the level of assignments follows *)
                 destruct rest as [|t rest]; [apply rl_nil|]. exists 1. cbn [rd r_loop step_reader]. cbn [follow] in Fo.
                 destruct t as [a|q'|?|?|[] ?]; try reflexivity; try (destruct Fo; fail); cbn [allowed] in Fo.
                 --- cbn [loop_step]. destruct (str_eqb a (st "as")) eqn:Ea; [|reflexivity]. apply str_eqb_eq in Ea.
                     specialize (Fo Ea). unfold as_level in Fo. lia.
                 --- cbn [loop_step]. destruct (str_eqb q' (st ".")); [lia|]. unfold binary_step. destruct (binop_level q') as [k|] eqn:Q.
                     +++ destruct Fo as [Fo _]. rewrite (proj2 (Nat.leb_gt assign_level k)); [reflexivity|].
                         exfalso. revert Q Fo. unfold binop_level.
                         repeat match goal with |- (if ?b then _ else _) = _ -> _ => destruct b; [intro Q; injection Q as <-; lia|] end. discriminate.
                     +++ destruct (is_assign_op q'); [|reflexivity]. destruct Fo as [Fo _]. specialize (Fo eq_refl). unfold assign_level in Fo. lia.
        -- cbn [is_block]. rewrite V. discriminate.
      * (* member *)
        assert (op = OMember) by (destruct op; try discriminate; reflexivity). subst op.
        destruct F as (L & n & -> & Fld). destruct (Fld rs Er) as (f & Kf & Sh).
        assert (Bp : binary_parens l OMember (EVar n) = (Nat.ltb 1 (expr_prec l), false)).
        { unfold binary_parens. cbn [binop_prec expr_prec]. destruct l; reflexivity. }
        rewrite Bp in T. injection T as <-.
        pose proof (group_op (Nat.ltb 1 (expr_prec l)) l ls xl Gl) as Og.
        assert (O15 : exists b, operand (group_if (Nat.ltb 1 (expr_prec l)) ls) 15 b xl).
        { destruct (Nat.ltb_spec 1 (expr_prec l)) as [Q|Q]; [eexists; exact Og|]. specialize (L Q). unfold tight in L.
          replace (lvl l) with 15 in Og by (pose proof (lvl_range l); lia). eexists. exact Og. }
        destruct O15 as [b O15]. exists (XField xl rs). split; [|split; [|discriminate]].
        -- apply T_member; [exact Trl|exact Er].
        -- cbn [lvl binop_lvl ends_in_type group_if binop_tok]. destruct Sh as [-> | ->]; [now apply (op_field _ b)|now apply (op_field_arg _ b)].
Qed.
Lemma ternary_reads a b d : reads_well a -> reads_well b -> reads_well d -> reads_well (ETernary a b d).
Proof.
  intros Wa Wb Wd ts (Fa & Fb & Fd & Tb & Td) T. cbn [etoks] in T.
  destruct (etoks cx c a) as [xs|] eqn:Ea; [|discriminate]. destruct (etoks cx c b) as [ys|] eqn:Eb; [|discriminate].
  destruct (etoks cx c d) as [zs|] eqn:Ed; [|discriminate]. cbn [obind] in T. injection T as <-.
  destruct (Wa xs Fa Ea) as (x & Ga). destruct (Wb ys Fb Eb) as (y & Gb). destruct (Wd zs Fd Ed) as (z & Gd).
  pose proof (tail_block _ _ _ Gb Tb Eb) as Rb. pose proof (tail_block _ _ _ Gd Td Ed) as Rd.
  pose proof (op_if _ _ _ _ _ _ _ _ (proj1 (proj2 Ga)) Rb Rd) as P.
  assert (P' : forall rest, RP (([ri "if"] ++ xs ++ [braces ys; ri "else"; braces zs]) ++ rest) (XIf x (RB [] (Some y)) (Some (RB [] (Some z)))) rest).
  { intro rest. specialize (P rest). cbn [app] in *. rewrite <- ?app_assoc. cbn [app] in *. exact P. }
  eexists. split; [|split].
  - apply T_if; [apply Ga|apply Gb|apply Gd].
  - cbn [lvl ends_in_type]. apply op_pre. intros rest _. apply P'.
  - intros _. split; [reflexivity|exact P'].
Qed.

Lemma all_read e : reads_deep e.
Proof.
  induction e using expr_ind'; unfold reads_deep; (split; [|split]); try (intros; discriminate).
  - apply var_reads.
  - apply call_reads. eapply Forall_impl; [|eassumption]. intros a [A _]. exact A.
  - apply cast_reads. now destruct IHe.
  - apply lit_reads.
  - apply stringify_reads.
  - apply concat_reads.
  - apply sizeof_reads.
  - now apply unary_reads.
  - intros ? ? E. injection E as <- <-. now destruct IHe.
  - apply binary_reads; [assumption|]. now destruct IHe2.
  - intros ? ? ? E. injection E as <- <- <-. destruct IHe1, IHe2. auto.
  - destruct IHe1, IHe2, IHe3. now apply ternary_reads.
Qed.
End Facts.
