(** Facts about the parsers: they return a suffix of their input, expressions,
    types and identifiers consume at least one token, and the fuel of the
    recursive parsers never runs out. *)
From Verif Require Import Base Utf Lex LexFloat Token Ast Nom NomFacts ParseTok ParseExpr ParseStmt.
From Coq Require Import String List Lia PeanoNat.
Import ListNotations.
Local Open Scope list_scope.

(** Proof search for [shr] and [strict]. *)
Create HintDb nomdb.
Ltac nomr :=
  lazymatch goal with
  | |- forall _, _ => intros; nomr
  | |- Forall _ [] => apply Forall_nil
  | |- Forall _ (_ :: _) => apply Forall_cons; [nomr|nomr]
  | |- shr (terminated _ _) => unfold terminated; nomr
  | |- shr (preceded _ _) => unfold preceded; nomr
  | |- shr (delimited _ _ _) => unfold delimited; nomr
  | |- shr (ppair _ _) => unfold ppair; nomr
  | |- shr (parenthesized _) => unfold parenthesized; nomr
  | |- shr (pall_consuming _) => unfold pall_consuming; nomr
  | |- strict (terminated _ _) => unfold terminated; nomr
  | |- strict (preceded _ _) => unfold preceded; nomr
  | |- strict (delimited _ _ _) => unfold delimited; nomr
  | |- strict (ppair _ _) => unfold ppair; nomr
  | |- strict (parenthesized _) => unfold parenthesized; nomr
  | |- strict (pall_consuming _) => unfold pall_consuming; nomr
  | |- shr (pret _) => apply shr_ret
  | |- shr pfail => apply strict_shr, strict_fail
  | |- shr peof => apply shr_eof
  | |- shr meta => apply shr_meta
  | |- shr (pmap _ _) => apply shr_map; nomr
  | |- shr (pvalue _ _) => apply shr_value; nomr
  | |- shr (pmap_opt _ _) => apply shr_map_opt; nomr
  | |- shr (palt _ _) => apply shr_alt; nomr
  | |- shr (palts _) => apply shr_alts; nomr
  | |- shr (popt _) => apply shr_opt; nomr
  | |- shr (fold_many0 _ _ _) => apply shr_fold; nomr
  | |- shr (many0 _) => apply shr_many0; nomr
  | |- shr (separated_list0 _ _) => apply shr_sep; nomr
  | |- shr (permutation _ _) => apply shr_perm; nomr
  | |- shr (pbind _ _) => apply shr_bind; nomr
  | |- shr (match ?x with _ => _ end) => destruct x; nomr
  | |- shr _ => first [assumption | solve [eauto with nomdb] | apply strict_shr; nomr]
  | |- strict pfail => apply strict_fail
  | |- strict (pmap _ _) => apply strict_map; nomr
  | |- strict (pvalue _ _) => apply strict_value; nomr
  | |- strict (pmap_opt _ _) => apply strict_map_opt; nomr
  | |- strict (palt _ _) => apply strict_alt; nomr
  | |- strict (palts _) => apply strict_alts; nomr
  | |- strict (permutation _ _) => apply strict_perm; [nomr|solve [repeat first [apply Exists_cons_hd; solve [nomr] | apply Exists_cons_tl]]]
  | |- strict (pbind _ _) => first [apply strict_bind_l; [solve [nomr]|solve [nomr]] | apply strict_bind_r; [solve [nomr]|solve [nomr]]]
  | |- strict take_one => apply strict_take_one
  | |- strict macro_arg => apply strict_macro_arg
  | |- strict macro_id => apply strict_macro_id
  | |- strict comment => apply strict_comment
  | |- strict (punct _) => apply strict_punct
  | |- strict (id _) => apply strict_id
  | |- strict (keyword _) => apply strict_id
  | |- strict (match ?x with _ => _ end) => destruct x; nomr
  | |- strict _ => first [assumption | solve [eauto with nomdb]]
  end.

(** Proof search for [tot n]. *)
Ltac nomt :=
  lazymatch goal with
  | |- forall _, _ => intros; nomt
  | |- Forall (tot _) [] => apply Forall_nil
  | |- Forall (tot _) (_ :: _) => apply Forall_cons; [nomt|nomt]
  | |- Forall _ _ => nomr
  | |- shr _ => nomr
  | |- strict _ => nomr
  | |- tot _ (terminated _ _) => unfold terminated; nomt
  | |- tot _ (preceded _ _) => unfold preceded; nomt
  | |- tot _ (delimited _ _ _) => unfold delimited; nomt
  | |- tot _ (ppair _ _) => unfold ppair; nomt
  | |- tot _ (parenthesized _) => unfold parenthesized; nomt
  | |- tot _ (pall_consuming _) => unfold pall_consuming; nomt
  | |- tot _ (pret _) => apply tot_ret
  | |- tot _ pfail => apply tot_fail
  | |- tot _ peof => apply tot_eof
  | |- tot _ meta => apply tot_meta
  | |- tot _ (pmap _ _) => apply tot_map; nomt
  | |- tot _ (pvalue _ _) => apply tot_value; nomt
  | |- tot _ (pmap_opt _ _) => apply tot_map_opt; nomt
  | |- tot _ (palt _ _) => apply tot_alt; nomt
  | |- tot _ (palts _) => apply tot_alts; nomt
  | |- tot _ (popt _) => apply tot_opt; nomt
  | |- tot _ (fold_many0 _ _ _) => apply tot_fold; nomt
  | |- tot _ (many0 _) => apply tot_many0; nomt
  | |- tot _ (separated_list0 _ _) => apply tot_sep; nomt
  | |- tot _ (permutation _ _) => apply tot_perm; nomt
  | |- tot _ (pbind _ _) =>
    first [apply tot_bind; [solve [nomt]|solve [nomt]|solve [nomt]]
          |apply tot_bind_strict; [solve [nomt]|solve [nomt]|nomt]]
  | |- tot _ take_one => apply tot_take_one
  | |- tot _ macro_arg => apply tot_macro_arg
  | |- tot _ macro_id => apply tot_macro_id
  | |- tot _ comment => apply tot_comment
  | |- tot _ (punct _) => apply tot_punct
  | |- tot _ (id _) => apply tot_id
  | |- tot _ (keyword _) => apply tot_id
  | |- tot _ (match ?x with _ => _ end) => destruct x; nomt
  | |- tot _ _ => first [assumption | solve [eauto with nomdb] | solve [eauto using tot_le with nomdb]]
  end.

(** Proof search for [ple]. *)
Ltac noml :=
  lazymatch goal with
  | |- forall _, _ => intros; noml
  | |- Forall2 _ [] [] => apply Forall2_nil
  | |- Forall2 _ _ _ => apply Forall2_cons; [noml|noml]
  | |- ple ?p ?p => apply ple_refl
  | |- ple (terminated _ _) _ => unfold terminated; noml
  | |- ple (preceded _ _) _ => unfold preceded; noml
  | |- ple (delimited _ _ _) _ => unfold delimited; noml
  | |- ple (ppair _ _) _ => unfold ppair; noml
  | |- ple (parenthesized _) _ => unfold parenthesized; noml
  | |- ple (pall_consuming _) _ => unfold pall_consuming; noml
  | |- ple (pmap _ _) _ => apply ple_map; noml
  | |- ple (pmap_opt _ _) _ => apply ple_map_opt; noml
  | |- ple (palt _ _) _ => apply ple_alt; noml
  | |- ple (palts _) _ => apply ple_alts; noml
  | |- ple (popt _) _ => apply ple_opt; noml
  | |- ple (fold_many0 _ _ _) _ => apply ple_fold; noml
  | |- ple (many0 _) _ => apply ple_many0; noml
  | |- ple (separated_list0 _ _) _ => apply ple_sep; noml
  | |- ple (pbind _ _) _ => apply ple_bind; noml
  | |- ple (match ?x with _ => _ end) _ => destruct x; noml
  | |- ple _ _ => solve [eauto with nomdb]
  end.

Section Facts.
Context `{Unicode}.

Lemma strict_parse_concat_ident : strict parse_concat_ident.
Proof. unfold parse_concat_ident. nomr. Qed.
Lemma strict_lit_char : strict lit_char_parse.
Proof. unfold lit_char_parse. nomr. Qed.
Lemma shr_text_after p : shr (text_after p).
Proof. unfold text_after. nomr. Qed.
Hint Resolve strict_parse_concat_ident strict_lit_char shr_text_after : nomdb.
Lemma strict_lit_string : strict lit_string_parse.
Proof. unfold lit_string_parse. nomr. Qed.
Hint Resolve strict_lit_string : nomdb.
Lemma strict_lit : strict lit_parse.
Proof. unfold lit_parse, lit_float_parse, lit_int_parse. nomr. Qed.
Hint Resolve strict_lit : nomdb.
Lemma strict_cv : strict const_volatile_qualifier.
Proof. unfold const_volatile_qualifier. nomr. Qed.
Hint Resolve strict_cv : nomdb.
Lemma strict_signedness : strict int_signedness.
Proof. unfold int_signedness. nomr. Qed.
Lemma strict_length : strict int_length.
Proof. unfold int_length. nomr. Qed.
Hint Resolve strict_signedness strict_length : nomdb.
Lemma strict_int_ty : strict int_ty.
Proof. unfold int_ty, int_ty_long_long, int_ty_length, int_ty_plain. nomr. Qed.
Hint Resolve strict_int_ty : nomdb.
Lemma strict_ty_base : strict ty_base.
Proof. unfold ty_base, ty_simple, ty_ident. nomr. Qed.
Hint Resolve strict_ty_base : nomdb.
Lemma strict_type : strict type_parse.
Proof. unfold type_parse. nomr. Qed.
Hint Resolve strict_type : nomdb.
Lemma strict_stringify : strict stringify_parse.
Proof. unfold stringify_parse. nomr. Qed.
Hint Resolve strict_stringify : nomdb.
Lemma strict_concat_part : strict concat_part.
Proof. unfold concat_part. nomr. Qed.
Hint Resolve strict_concat_part : nomdb.
Lemma strict_concat_string : strict parse_concat_string.
Proof. unfold parse_concat_string. nomr. Qed.
Hint Resolve strict_concat_string : nomdb.

Lemma tot_parse_concat_ident n : tot n parse_concat_ident.
Proof. unfold parse_concat_ident. nomt. Qed.
Lemma tot_lit_char n : tot n lit_char_parse.
Proof. unfold lit_char_parse. nomt. Qed.
Lemma tot_text_after n p : tot n (text_after p).
Proof. unfold text_after. nomt. Qed.
Hint Resolve tot_parse_concat_ident tot_lit_char tot_text_after : nomdb.
Lemma tot_lit_string n : tot n lit_string_parse.
Proof. unfold lit_string_parse. nomt. Qed.
Hint Resolve tot_lit_string : nomdb.
Lemma tot_lit n : tot n lit_parse.
Proof. unfold lit_parse, lit_float_parse, lit_int_parse. nomt. Qed.
Hint Resolve tot_lit : nomdb.
Lemma tot_cv n : tot n const_volatile_qualifier.
Proof. unfold const_volatile_qualifier. nomt. Qed.
Hint Resolve tot_cv : nomdb.
Lemma tot_type n : tot n type_parse.
Proof.
  unfold type_parse, ty_base, ty_simple, ty_ident, int_ty, int_ty_long_long, int_ty_length, int_ty_plain, int_signedness, int_length.
  nomt.
Qed.
Hint Resolve tot_type : nomdb.
Lemma tot_concat_string n : tot n parse_concat_string.
Proof. unfold parse_concat_string, concat_part, stringify_parse. nomt. Qed.
Hint Resolve tot_concat_string : nomdb.

(** ** The expression parser *)

Lemma strict_step (rec : lvl -> parser expr) : (forall l, strict (rec l)) -> forall l, strict (expr_step rec l).
Proof.
  intros Hr. assert (Hs : forall l, shr (rec l)) by (intros; apply strict_shr; auto).
  intros []; simpl; unfold parse_factor, parse_term_prec1, parse_access, parse_term_prec2, parse_prefix_op,
    parse_term_prec3, parse_term_prec4, parse_term_prec5, parse_term_prec6, parse_term_prec7, parse_term_prec8,
    parse_term_prec9, parse_term_prec10, parse_term_prec13, parse_term_prec14, parse_assign_op, parse_left; nomr.
Qed.
Lemma strict_pexpr fuel l : strict (pexpr fuel l).
Proof.
  revert l. induction fuel as [|n IH]; intros l.
  - intros ts r a E. discriminate.
  - change (strict (expr_step (pexpr n) l)). now apply strict_step.
Qed.
Hint Resolve strict_pexpr : nomdb.

Lemma ple_step rec rec' : (forall l, ple (rec l) (rec' l)) -> forall l, ple (expr_step rec l) (expr_step rec' l).
Proof.
  intros Hr [];
  cbn [expr_step]; unfold parse_factor, parse_term_prec1, parse_access, parse_term_prec2, parse_prefix_op,
    parse_term_prec3, parse_term_prec4, parse_term_prec5, parse_term_prec6, parse_term_prec7, parse_term_prec8,
    parse_term_prec9, parse_term_prec10, parse_term_prec13, parse_term_prec14, parse_assign_op, parse_left; noml.
Qed.
Lemma ple_pexpr n m l : n <= m -> ple (pexpr n l) (pexpr m l).
Proof.
  revert m l. induction n as [|n IH]; intros m l Hm.
  - intros ts Hne. simpl in Hne. congruence.
  - destruct m as [|m]; [lia|]. change (ple (expr_step (pexpr n) l) (expr_step (pexpr m) l)).
    apply ple_step. intros. apply IH. lia.
Qed.

Definition lvl_idx (l : lvl) : nat :=
  match l with
  | LFactor => 0 | LPrec1 => 1 | LPrec2 => 2 | LPrec3 => 3 | LPrec4 => 4 | LPrec5 => 5 | LPrec6 => 6
  | LPrec7 => 7 | LPrec8 => 8 | LPrec9 => 9 | LPrec10 => 10 | LPrec13 => 11 | LPrec14 => 12
  end.

(** [expr_step] needs the levels below on inputs of the same size and every
    level on smaller inputs. *)
Lemma tot_step rec n l :
  (forall l, strict (rec l)) ->
  (forall l', lvl_idx l' < lvl_idx l -> tot n (rec l')) ->
  (forall l' m, m < n -> tot m (rec l')) ->
  tot n (expr_step rec l).
Proof.
  intros Hr Hlow Hsm. assert (Hs : forall l, shr (rec l)) by (intros; apply strict_shr; auto).
  destruct l; cbn [expr_step];
  repeat match goal with Hl : forall l', lvl_idx l' < lvl_idx ?k -> _ |- _ =>
    let l2 := match k with LPrec1 => LFactor | LPrec2 => LPrec1 | LPrec3 => LPrec2 | LPrec4 => LPrec3
      | LPrec5 => LPrec4 | LPrec6 => LPrec5 | LPrec7 => LPrec6 | LPrec8 => LPrec7 | LPrec9 => LPrec8 | LPrec10 => LPrec9
      | LPrec13 => LPrec10 | LPrec14 => LPrec13 | _ => LFactor end in
    try (pose proof (Hl l2 ltac:(cbn; lia))); clear Hl end;
  unfold parse_factor, parse_term_prec1, parse_access, parse_term_prec2, parse_prefix_op,
    parse_term_prec3, parse_term_prec4, parse_term_prec5, parse_term_prec6, parse_term_prec7, parse_term_prec8,
    parse_term_prec9, parse_term_prec10, parse_term_prec13, parse_term_prec14, parse_assign_op, parse_left.
  all: nomt.
Qed.

Lemma tot_pexpr n : forall l fuel, 14 * n + lvl_idx l < fuel -> tot n (pexpr fuel l).
Proof.
  induction n as [n IHn] using (well_founded_induction lt_wf).
  intros l. remember (lvl_idx l) as i eqn:Ei. revert l Ei.
  induction i as [i IHi] using (well_founded_induction lt_wf). intros l -> fuel Hf.
  destruct fuel as [|fuel]; [lia|]. change (tot n (expr_step (pexpr fuel) l)). apply tot_step.
  - intros. apply strict_pexpr.
  - intros l' Hl'. eapply IHi; [exact Hl'|reflexivity|lia].
  - intros l' m Hm. apply IHn; auto. assert (lvl_idx l' <= 12) by (destruct l'; simpl; lia). lia.
Qed.

(** The parser of a level with enough fuel. *)
Definition pe (l : lvl) : parser expr := fun ts => pexpr (expr_fuel (length ts)) l ts.

Lemma pe_total l ts : pe l ts <> PFuel.
Proof.
  unfold pe. apply (tot_pexpr (length ts)); auto. unfold expr_fuel.
  assert (lvl_idx l <= 12) by (destruct l; simpl; lia). lia.
Qed.
Lemma pexpr_pe fuel l : ple (pexpr fuel l) (pe l).
Proof.
  intros ts Hne. unfold pe.
  destruct (Nat.le_ge_cases fuel (expr_fuel (length ts))) as [Hle|Hle].
  - now apply ple_pexpr.
  - symmetry. apply ple_pexpr; auto. apply pe_total.
Qed.
(** [pe] satisfies the equations of the Rust functions. *)
Lemma pe_eq l ts : pe l ts = expr_step pe l ts.
Proof.
  pose proof (pe_total l ts) as Hne. unfold pe at 1. unfold pe in Hne.
  destruct (expr_fuel (length ts)) as [|f] eqn:Ef; [unfold expr_fuel in Ef; lia|].
  cbn [pexpr] in *. symmetry. apply ple_step; auto. intros. apply pexpr_pe.
Qed.
Lemma expr_parse_pe ts : expr_parse ts = pe LPrec14 ts.
Proof. reflexivity. Qed.
Lemma strict_pe l : strict (pe l).
Proof. intros ts r a E. eapply strict_pexpr. exact E. Qed.
Lemma tot_pe n l : tot n (pe l).
Proof. intros ts _. apply pe_total. Qed.
Lemma strict_expr_parse : strict expr_parse.
Proof. apply strict_pe. Qed.
Lemma tot_expr_parse n : tot n expr_parse.
Proof. apply tot_pe. Qed.
Hint Resolve strict_pe tot_pe strict_expr_parse tot_expr_parse : nomdb.

(** ** Statements *)

Lemma strict_string_with {A} (f : str -> option A) : strict (string_with f).
Proof. unfold string_with. nomr. Qed.
Lemma tot_string_with {A} n (f : str -> option A) : tot n (string_with f).
Proof. unfold string_with. nomt. Qed.
Hint Resolve strict_string_with tot_string_with : nomdb.
Lemma shr_colon_section {A} (p : parser (list A)) : shr p -> shr (colon_section p).
Proof. intros. unfold colon_section. nomr. Qed.
Lemma tot_colon_section {A} n (p : parser (list A)) : tot n p -> shr p -> tot n (colon_section p).
Proof. intros. unfold colon_section. nomt. Qed.
Lemma strict_asm : strict asm_parse.
Proof.
  unfold asm_parse. apply strict_bind_l; [nomr|intros _]. unfold parenthesized, delimited.
  apply shr_bind; [nomr|intros _]. apply shr_bind; [|nomr]. apply shr_bind; [nomr|intros].
  apply shr_bind; [apply shr_colon_section; nomr|intros].
  apply shr_bind; [apply shr_colon_section; nomr|intros].
  apply shr_bind; [apply shr_colon_section; nomr|intros]. nomr.
Qed.
Lemma tot_asm n : tot n asm_parse.
Proof.
  unfold asm_parse, parenthesized, delimited, preceded. apply tot_bind; [nomt|nomr|intros _].
  apply tot_bind; [nomt|nomr|intros _].
  assert (S1 : forall {A} (p : parser (list A)), shr p -> shr (colon_section p)) by (intros; now apply shr_colon_section).
  apply tot_bind.
  - apply tot_bind; [nomt|nomr|intros].
    apply tot_bind; [apply tot_colon_section; nomt|apply shr_colon_section; nomr|intros].
    apply tot_bind; [apply tot_colon_section; nomt|apply shr_colon_section; nomr|intros].
    apply tot_bind; [apply tot_colon_section; nomt|apply shr_colon_section; nomr|intros]. nomt.
  - apply shr_bind; [nomr|intros].
    apply shr_bind; [apply shr_colon_section; nomr|intros].
    apply shr_bind; [apply shr_colon_section; nomr|intros].
    apply shr_bind; [apply shr_colon_section; nomr|intros]. nomr.
  - nomt.
Qed.
Hint Resolve strict_asm tot_asm : nomdb.
Lemma strict_static_type : strict static_type.
Proof. unfold static_type. nomr. Qed.
Lemma tot_static_type n : tot n static_type.
Proof. unfold static_type. nomt. Qed.
Hint Resolve strict_static_type tot_static_type : nomdb.
Lemma strict_fn_decl : strict fn_decl_parse.
Proof. unfold fn_decl_parse. nomr. Qed.
Lemma tot_fn_decl n : tot n fn_decl_parse.
Proof. unfold fn_decl_parse. nomt. Qed.
Lemma strict_var_decl : strict var_decl_parse.
Proof. unfold var_decl_parse. nomr. Qed.
Lemma tot_var_decl n : tot n var_decl_parse.
Proof. unfold var_decl_parse. nomt. Qed.
Hint Resolve strict_fn_decl tot_fn_decl strict_var_decl tot_var_decl : nomdb.
Lemma shr_semi : shr semicolon_or_eof.
Proof. unfold semicolon_or_eof. nomr. Qed.
Lemma tot_semi n : tot n semicolon_or_eof.
Proof. unfold semicolon_or_eof. nomt. Qed.
Hint Resolve shr_semi tot_semi : nomdb.

Lemma strict_stmt_step rec : strict rec -> strict (stmt_step rec).
Proof. intros Hr. unfold stmt_step. nomr. Qed.
Lemma strict_pstmt n : strict (pstmt n).
Proof.
  induction n; [intros ts r a E; discriminate|]. change (strict (stmt_step (pstmt n))). now apply strict_stmt_step.
Qed.
Lemma ple_stmt_step rec rec' : ple rec rec' -> ple (stmt_step rec) (stmt_step rec').
Proof. intros Hr. unfold stmt_step. noml. Qed.
Lemma ple_pstmt n m : n <= m -> ple (pstmt n) (pstmt m).
Proof.
  revert m. induction n as [|n IH]; intros m Hm.
  - intros ts Hne. simpl in Hne. congruence.
  - destruct m as [|m]; [lia|]. change (ple (stmt_step (pstmt n)) (stmt_step (pstmt m))). apply ple_stmt_step, IH. lia.
Qed.
Lemma tot_stmt_step n rec : strict rec -> (forall m, m < n -> tot m rec) -> tot n (stmt_step rec).
Proof. intros Hr Ht. unfold stmt_step. nomt. Qed.
Lemma tot_pstmt n fuel : n < fuel -> tot n (pstmt fuel).
Proof.
  revert fuel. induction n as [n IH] using (well_founded_induction lt_wf). intros [|fuel] Hf; [lia|].
  change (tot n (stmt_step (pstmt fuel))). apply tot_stmt_step; [apply strict_pstmt|]. intros m Hm. apply IH; lia.
Qed.
Lemma stmt_single_total ts : stmt_parse_single ts <> PFuel.
Proof. apply (tot_pstmt (length ts)); lia. Qed.
Lemma pstmt_single fuel : ple (pstmt fuel) stmt_parse_single.
Proof.
  intros ts Hne. unfold stmt_parse_single.
  destruct (Nat.le_ge_cases fuel (S (length ts))) as [Hle|Hle].
  - now apply ple_pstmt.
  - symmetry. apply ple_pstmt; auto. apply stmt_single_total.
Qed.
Lemma stmt_single_eq ts : stmt_parse_single ts = stmt_step stmt_parse_single ts.
Proof.
  pose proof (stmt_single_total ts) as Hne. unfold stmt_parse_single in Hne. unfold stmt_parse_single at 1.
  cbn [pstmt] in *. symmetry. apply ple_stmt_step; auto. apply pstmt_single.
Qed.
Lemma strict_stmt_single : strict stmt_parse_single.
Proof. intros ts r a E. eapply strict_pstmt. exact E. Qed.
Lemma tot_stmt_single n : tot n stmt_parse_single.
Proof. intros ts _. apply stmt_single_total. Qed.
Hint Resolve strict_stmt_single tot_stmt_single : nomdb.
Lemma shr_stmt_parse : shr stmt_parse.
Proof. unfold stmt_parse. nomr. Qed.
Lemma tot_stmt_parse n : tot n stmt_parse.
Proof. unfold stmt_parse. nomt. Qed.
Hint Resolve shr_stmt_parse tot_stmt_parse : nomdb.
Lemma tot_macro_body n : tot n macro_body_parse.
Proof.
  unfold macro_body_parse. apply tot_bind; [nomt|nomr|]. intros _ ts Hl.
  destruct ts as [|t ts]; [discriminate|].
  enough (G : tot n (palt (pall_consuming (pmap MbExpr expr_parse)) (pall_consuming (pmap MbStatement stmt_parse))))
    by (apply G; exact Hl).
  nomt.
Qed.
Lemma macro_body_total ts : macro_body_parse ts <> PFuel.
Proof. apply (tot_macro_body (length ts)); lia. Qed.
Lemma tot_parse_args n : tot n parse_args.
Proof. unfold parse_args. nomt. Qed.
Lemma parse_args_total ts : parse_args ts <> PFuel.
Proof. apply (tot_parse_args (length ts)); lia. Qed.
(** A parsed body consumed all of its tokens. *)
Lemma macro_body_all ts r b : macro_body_parse ts = POk r b -> r = [].
Proof.
  unfold macro_body_parse, pbind. destruct (meta ts) as [r1 c| |]; try discriminate.
  destruct r1 as [|t r1]; [intros E; now injection E|]. unfold palt, pall_consuming, pbind, peof, pret.
  destruct (pmap MbExpr expr_parse (t :: r1)) as [[|] x| |]; try discriminate;
  [intros E; now injection E|..];
  destruct (pmap MbStatement stmt_parse (t :: r1)) as [[|] x'| |]; try discriminate; intros E; now injection E.
Qed.

(** Parsing a macro never exhausts the model's fuel and never panics. *)
Lemma fn_macro_parse_total name args body : fn_macro_parse name args body <> RFuel /\ fn_macro_parse name args body <> RPanic.
Proof.
  unfold fn_macro_parse. destruct (negb _); [split; discriminate|].
  pose proof (parse_args_total args). destruct (parse_args args); try congruence; [|split; discriminate].
  pose proof (macro_body_total body). destruct (macro_body_parse body); try congruence; split; discriminate.
Qed.
Lemma var_macro_parse_total name body : var_macro_parse name body <> RFuel /\ var_macro_parse name body <> RPanic.
Proof.
  unfold var_macro_parse. destruct (negb _); [split; discriminate|].
  pose proof (macro_body_total body). destruct (macro_body_parse body); try congruence; split; discriminate.
Qed.
End Facts.
