(** The statement parser follows the grammar of SpecStmtGrammar.v. *)
From Verif Require Import Base Utf Lex LexFloat Token Ast Nom NomFacts ParseTok ParseExpr ParseStmt ParseFacts StrFacts SpecType PropType
  SpecGrammar GrammarFacts EatFacts SpecAsmGrammar AsmGrammarFacts SpecStmtGrammar.
From Coq Require Import String List Lia PeanoNat Bool.
Import ListNotations.
Local Open Scope string_scope.
Local Open Scope list_scope.

Section S.
Context `{Unicode}.
Variable types : str -> bool.
Notation D := (derives types true).
Notation S := (statement types true).
Notation Q := (statements types true).

Scheme statement_mut := Minimality for statement Sort Prop
  with statements_mut := Minimality for statements Sort Prop.

(** ** Keywords *)

Lemma id_hit k r : id k (kw k :: r) = POk r (st k).
Proof. unfold id, pmap_opt, pbind, kw. cbn [take_one]. now rewrite str_eqb_refl. Qed.
Lemma id_miss k ts : (forall r, ts <> kw k :: r) -> id k ts = PErr.
Proof.
  intros Hn. destruct ts as [|[i|x|x|l|q|c] ts]; try reflexivity.
  unfold id, pmap_opt, pbind. cbn [take_one]. destruct (str_eqb x (st k)) eqn:E; [|reflexivity].
  apply str_eqb_eq in E. subst x. exfalso. now apply (Hn ts).
Qed.
Lemma no_keyword k ts : ~ starts_with_keyword ts -> In k statement_keywords -> id k ts = PErr.
Proof. intros Hn Hi. apply id_miss. intros r ->. apply Hn. cbn [starts_with_keyword kw]. now apply in_map. Qed.

Lemma asm_fails ts : id "__asm__" ts = PErr -> id "__asm" ts = PErr -> id "asm" ts = PErr -> asm_parse ts = PErr.
Proof. intros E1 E2 E3. unfold asm_parse, preceded, terminated, pbind, palts, palt. now rewrite E1, E2, E3. Qed.

Definition decls : parser stmt :=
  palts [pmap SFnDecl (terminated fn_decl_parse semicolon_or_eof); pmap SVarDecl (terminated var_decl_parse semicolon_or_eof);
         pmap SExpr (terminated expr_parse semicolon_or_eof)].
Lemma static_decls ts : id "__asm__" ts = PErr -> id "__asm" ts = PErr -> id "asm" ts = PErr -> id "if" ts = PErr -> id "do" ts = PErr ->
  punct "{" ts = PErr -> stmt_parse_single ts = decls ts.
Proof.
  intros E1 E2 E3 E4 E5 E6. rewrite stmt_single_eq. unfold stmt_step, decls. cbn [palts].
  rewrite palt_err by (unfold pmap, terminated, pbind; now rewrite asm_fails).
  rewrite palt_err by (unfold preceded, terminated, pbind; now rewrite E4).
  rewrite palt_err by (unfold pmap, preceded, terminated, pbind; now rewrite E5).
  rewrite palt_err by (unfold pmap, delimited, terminated, pbind; now rewrite E6). reflexivity.
Qed.
Lemma plain_decls ts : ~ starts_with_keyword ts -> punct "{" ts = PErr -> stmt_parse_single ts = decls ts.
Proof. intros Hn E. apply static_decls; auto; apply no_keyword; cbn; tauto. Qed.

(** ** Declarations *)

Lemma static_plain ts : id "static" ts = PErr ->
  static_type ts = match type_parse ts with POk r t => POk r (false, t) | PErr => PErr | PFuel => PFuel end.
Proof.
  intros E. unfold static_type, permutation. cbn [map length perm_loop forallb fst andb perm_try].
  unfold pmap, pbind, popt. rewrite E. cbn [pret perm_loop forallb fst andb perm_try].
  destruct (type_parse ts) as [r t| |]; reflexivity.
Qed.
Lemma static_hit ts : static_type (kw "static" :: ts) = match type_parse ts with POk r t => POk r (true, t) | PErr => PErr | PFuel => PFuel end.
Proof.
  unfold static_type, permutation. cbn [map length perm_loop forallb fst andb perm_try].
  unfold pmap, pbind, popt. rewrite id_hit. cbn [pret perm_loop forallb fst andb perm_try].
  destruct (type_parse ts) as [r t| |]; reflexivity.
Qed.
Lemma concat_fails ts : (forall t r, named t -> ts <> t :: r) -> parse_concat_ident ts = PErr.
Proof.
  intros Hn. destruct ts as [|[i|x|x|l|q|c] ts]; try reflexivity; exfalso.
  - now apply (Hn (MArg i) ts).
  - now apply (Hn (MIdent x) ts).
Qed.

(** An expression that is not a declaration. *)
Lemma no_decl ts e r1 : D Comma ts e r1 -> ~ starts_with_keyword ts -> ~ declaring ts -> (r1 = [] \/ exists r, r1 = P ";" :: r) ->
  (t <~ static_type ;; parse_concat_ident) ts = PErr.
Proof.
  intros d Hk Hs Hr. unfold pbind. rewrite static_plain by (apply no_keyword; [exact Hk|cbn; tauto]).
  pose proof (derives_opens _ _ _ _ _ d) as O. pose proof (derives_named _ _ _ _ _ d) as N.
  assert (Hx : forall x r, ts = MIdent x :: r -> ~ In x (map st (type_keywords ++ ["struct"]))) by (intros x r ->; now inversion O).
  assert (F : name_first ts \/ type_parse ts = PErr).
  { destruct ts as [|t ts1]; [inversion O|].
    destruct t as [i|x|x|l|p|c]; try (right; reflexivity); try (now inversion O); left; eexists _, _; (split; [reflexivity|exact I]). }
  destruct F as [F|F]; [|now rewrite F]. destruct (N F) as (n & r0 & Hn & A).
  assert (Hs1 : forall r, r0 <> P "*" :: r) by (intros r ->; apply Hs; eexists _, _, _; split; [exact Hn|reflexivity]).
  assert (Hc : parse_concat_ident r0 = PErr).
  { apply concat_fails. intros t r Nt ->. apply Hs. eexists _, _, _. split; [exact Hn|]. destruct t; try contradiction; exact I. }
  assert (T : type_parse ts = POk r0 (TyIdent n false)); [|now rewrite T].
  destruct A as [[_ ->]|A].
  - rewrite (type_of_name' _ _ _ Hx Hn); [now rewrite fold_stop by (apply star_other, Hs1)| |].
    + intros r. destruct Hr as [->|(r' & ->)]; discriminate.
    + intros x r. destruct Hr as [->|(r' & ->)]; discriminate.
  - rewrite (type_of_name types _ _ _ Hx Hn A). now rewrite fold_stop by (apply star_other, Hs1).
Qed.
Lemma ended_cases r1 r : ended true r1 r -> (r1 = [] /\ r = []) \/ r1 = P ";" :: r.
Proof. intros [E Hc]. rewrite (Hc eq_refl) in E. destruct E as [->|[-> ->]]; auto. Qed.
Lemma ended_reads r1 r : ended true r1 r -> semicolon_or_eof r1 = POk r tt.
Proof.
  intros E. apply ended_cases in E as [[-> ->]| ->]; [reflexivity|]. unfold semicolon_or_eof, palt, pvalue, pbind. now rewrite punct_hit.
Qed.
Lemma ended_follow r1 r l : ended true r1 r -> follow l r1.
Proof.
  intros E. apply ended_cases in E as [[-> ->]| ->]; [exact I|]. unfold follow. cbn [uncomment P].
  intros Hi. assert (Hj : In (st ";") (map st (heads Comma))).
  { apply in_map_iff in Hi as (x & Ex & Hx). rewrite <- Ex. apply in_map. destruct l; cbv in Hx |- *; tauto. }
  revert Hj. nin.
Qed.
Lemma expr_starts l ts e r : D l ts e r -> follow l r -> starts_operand ts.
Proof.
  intros d f. assert (G : starts_operand ts \/ ~ starts_operand ts).
  { destruct ts as [|[i|x|x|y|p|c] ts]; cbn; try tauto. cbn. destruct (in_dec (list_eq_dec N.eq_dec) p (map st ["("; "#"; "&"; "*"; "+"; "-"; "~"; "!"; "++"; "--"])); auto. }
  destruct G as [G|G]; [exact G|]. apply (pe_fails l) in G. rewrite (derives_parses _ _ _ _ _ d f) in G. discriminate.
Qed.

Lemma expression_statement ts e r1 r : D Comma ts e r1 -> ~ starts_with_keyword ts -> ended true r1 r -> ~ declaring ts ->
  stmt_parse_single ts = POk r (SExpr e).
Proof.
  intros d Hk En Hs.
  assert (F : follow Comma r1) by (eapply ended_follow; exact En).
  pose proof (expr_starts _ _ _ _ d F) as Ho.
  rewrite plain_decls; [|exact Hk|].
  2:{ apply punct_miss. intros r' ->. revert Ho. cbn [starts_operand P]. nin. }
  assert (ND : (t <~ static_type ;; parse_concat_ident) ts = PErr).
  { apply (no_decl _ _ _ d Hk Hs). apply ended_cases in En as [[-> _]| ->]; eauto. }
  unfold decls. cbn [palts]. unfold pbind in ND.
  rewrite palt_err.
  2:{ unfold pmap, terminated, fn_decl_parse, pbind. destruct (static_type ts) as [r2 t| |]; try discriminate; [|reflexivity]. now rewrite ND. }
  rewrite palt_err.
  2:{ unfold pmap, terminated, var_decl_parse, pbind. destruct (static_type ts) as [r2 t| |]; try discriminate; [|reflexivity]. now rewrite ND. }
  unfold palt, pmap, terminated, pbind. rewrite expr_parse_pe. rewrite (derives_parses _ _ _ _ _ d F).
  now rewrite (ended_reads _ _ En).
Qed.

Lemma declaration ts b t x ts1 e r1 r : static_type ts = POk (MIdent x :: P "=" :: ts1) (b, t) ->
  stmt_parse_single ts = decls ts ->
  D Assignment ts1 e r1 -> ended true r1 r -> stmt_parse_single ts = POk r (SVarDecl (mk_var_decl t (IPlain x) e b)).
Proof.
  intros E Ed d En. rewrite Ed. unfold decls. cbn [palts].
  assert (C : parse_concat_ident (MIdent x :: P "=" :: ts1) = POk (P "=" :: ts1) (IPlain x)).
  { apply (concat_name _ _ _ (na_plain _ _)). cbn. discriminate. }
  rewrite palt_err.
  2:{ unfold pmap, terminated, fn_decl_parse, pbind. rewrite E, C. now rewrite paren_fails. }
  unfold palt, pmap, terminated, var_decl_parse, pbind. rewrite E, C, punct_hit, expr_parse_pe.
  pose proof (derives_parses _ _ _ _ _ d (ended_follow _ _ _ En)) as Ep. cbn [plvl] in Ep. rewrite Ep.
  unfold pret. now rewrite (ended_reads _ _ En).
Qed.
Lemma function ts b t x ts1 l r1 r : static_type ts = POk (MIdent x :: ts1) (b, t) ->
  stmt_parse_single ts = decls ts ->
  parameters types true ts1 l r1 -> ended true r1 r -> stmt_parse_single ts = POk r (SFnDecl (mk_fn_decl t (IPlain x) l)).
Proof.
  intros E Ed Pa En. rewrite Ed. unfold decls. cbn [palts].
  assert (C : parse_concat_ident (MIdent x :: ts1) = POk ts1 (IPlain x)).
  { apply (concat_name _ _ _ (na_plain _ _)). inversion Pa; discriminate. }
  pose proof (parameters_read types _ _ _ Pa) as Rp.
  unfold palt, pmap, terminated, fn_decl_parse. unfold pbind at 1 2 3. rewrite E. unfold pbind at 1. rewrite C.
  unfold pbind at 1. rewrite Rp. unfold pret at 1, pbind, snd. now rewrite (ended_reads _ _ En).
Qed.
Lemma type_ends x r : ~ In x (map st (keywords ++ statement_keywords)) -> ends_type (MIdent x :: r).
Proof. intros Hn Hi. apply Hn. unfold keywords. rewrite !map_app, !in_app_iff. tauto. Qed.
Lemma app_keyword T t x r : type_name types T t -> ~ starts_with_keyword T -> ~ starts_with_keyword (T ++ MIdent x :: r).
Proof.
  intros Tn. destruct T as [|t0 T]; [|exact (fun h => h)]. exfalso.
  inversion Tn as [ws b pre post ps Hsp Hsf Hv E|pre mid post ps Ho E|sw x' pre post ps Hk Ht Hv E];
    [|apply app_eq_nil in E as [_ E]; discriminate E|apply app_eq_nil in E as [_ E]; apply app_eq_nil in E as [_ E]; discriminate E].
  apply app_eq_nil in E as [_ E]. apply app_eq_nil in E as [E _]. destruct ws; [|discriminate].
  destruct Hsp as (l & Hi & Pm). apply Permutation.Permutation_nil in Pm. subst l. cbn in Hi. repeat (destruct Hi as [Hi|Hi]; [discriminate|]). exact Hi.
Qed.

(** ** The end of a block *)

Lemma single_fails ts : ts = [] \/ (exists r, ts = P "}" :: r) -> stmt_parse_single ts = PErr.
Proof.
  intros C. rewrite plain_decls by (destruct C as [->|(r & ->)]; [exact (fun h => h)|exact (fun h => h)] || (apply punct_miss; destruct C as [->|(r & ->)]; discriminate)).
  assert (E : expr_parse ts = PErr).
  { rewrite expr_parse_pe. apply (pe_fails Comma). destruct C as [->|(r & ->)]; [exact (fun h => h)|]. cbn [starts_operand P]. nin. }
  assert (T : static_type ts = PErr) by (rewrite static_plain; destruct C as [->|(r & ->)]; reflexivity).
  unfold decls. cbn [palts]. unfold palt, pmap, terminated, fn_decl_parse, var_decl_parse, pbind. now rewrite T, E.
Qed.

Lemma expr_reads ts e r : D Comma ts e r -> follow Comma r -> expr_parse ts = POk r e.
Proof. intros d f. rewrite expr_parse_pe. exact (derives_parses _ _ _ _ _ d f). Qed.
Definition inside : parser stmt := preceded meta stmt_parse_single.
Lemma inside_strict : strict inside.
Proof. unfold inside, preceded. apply strict_bind_r; [|intros; apply strict_stmt_single]. nomr. Qed.
Lemma inside_eq ts : inside ts = stmt_parse_single (uncomment ts).
Proof. unfold inside, preceded, pbind. destruct (meta_uncomment ts) as (cs & ->). reflexivity. Qed.
Definition parses_all (ts : list mtoken) (l : list stmt) (r : list mtoken) : Prop :=
  forall ts' acc, uncomment ts' = uncomment ts -> (exists r', uncomment r = P "}" :: r') ->
  exists r0, fold_many0 inside (fun a x => a ++ [x]) acc ts' = POk r0 (acc ++ l) /\ uncomment r0 = uncomment r.

Lemma block_reads ts l r1 r2 : parses_all ts l r1 -> uncomment r1 = P "}" :: r2 ->
  stmt_parse_single (P "{" :: ts) = match r2 with MPunct p :: r3 => if str_eqb (st ";") p then POk r3 (SBlock l) else POk r2 (SBlock l) | _ => POk r2 (SBlock l) end.
Proof.
  intros R E. rewrite stmt_single_eq. unfold stmt_step. cbn [palts].
  rewrite palt_err by reflexivity. rewrite palt_err by reflexivity. rewrite palt_err by reflexivity.
  destruct (R (uncomment ts) [] (uncomment_idem ts)) as (r0 & F & Er); [now exists r2|].
  unfold palt, pmap, delimited, terminated, preceded, pbind. rewrite punct_hit. destruct (meta_uncomment ts) as (c1 & ->). unfold pret.
  change (many0 _ (uncomment ts)) with (fold_many0 inside (fun a x => a ++ [x]) [] (uncomment ts)). rewrite F.
  destruct (meta_uncomment r0) as (c2 & ->). rewrite Er, E, punct_hit. unfold popt. unfold punct, pmap_opt, pbind, pret.
  destruct r2 as [|[i|x|x|y|p|c] r2]; try reflexivity. cbn [take_one]. destruct (str_eqb (st ";") p); reflexivity.
Qed.

Lemma branch_eq s : stmt_block s = branch s.
Proof. reflexivity. Qed.

Lemma statement_parses ts s r : S ts s r -> stmt_parse_single ts = POk r s.
Proof.
  revert ts s r. refine (statement_mut types true (fun ts s r => stmt_parse_single ts = POk r s) parses_all _ _ _ _ _ _ _ _ _ _ _ _ _).
  - intros ts e r1 r d Hk En Hs. eapply expression_statement; eauto.
  - intros ts l r1 r _ IH E Hn. rewrite (block_reads _ _ _ _ IH E). destruct r as [|[i|x|x|y|p|c] r]; try reflexivity.
    destruct (str_eqb (st ";") p) eqn:Ep; [|reflexivity]. apply str_eqb_eq in Ep. subst p. exfalso. now apply (Hn r).
  - intros ts l r1 r _ IH E. rewrite (block_reads _ _ _ _ IH E). cbn [P]. now rewrite str_eqb_refl.
  - intros ts ts1 c r1 r2 s r E1 d E2 _ IH Hn Hc. rewrite (Hc eq_refl) in IH. rewrite stmt_single_eq. unfold stmt_step. cbn [palts].
    rewrite palt_err by reflexivity.
    unfold palt, preceded, terminated, pmap, pbind. rewrite id_hit. destruct (meta_uncomment ts) as (c1 & ->). unfold pret. rewrite E1.
    erewrite paren_hit; [|apply expr_reads; [exact d|]|exact E2].
    + rewrite IH. unfold popt. rewrite delim_miss; [reflexivity|]. apply id_miss. intros r' Er. apply Hn. now exists r'.
    + follows E2.
  - intros ts ts1 c r1 r2 s1 r3 r4 s2 r E1 d E2 _ IH1 E3 _ IH2 Hc. rewrite (Hc eq_refl) in IH1. rewrite stmt_single_eq. unfold stmt_step. cbn [palts].
    rewrite palt_err by reflexivity.
    unfold palt, preceded, terminated, pmap, pbind. rewrite id_hit. destruct (meta_uncomment ts) as (c1 & ->). unfold pret. rewrite E1.
    erewrite paren_hit; [|apply expr_reads; [exact d|]|exact E2].
    + rewrite IH1. unfold popt. erewrite delim_hit; [|rewrite E3; apply id_hit]. now rewrite IH2.
    + follows E2.
  - intros ts s r1 r2 r3 c r4 r _ IH E1 E2 d E3 _ Hc. destruct (Hc eq_refl) as (C1 & C2 & _). rewrite C1 in E1. rewrite C2 in E2. subst r1 r2.
    rewrite stmt_single_eq. unfold stmt_step. cbn [palts]. rewrite palt_err by reflexivity. rewrite palt_err by reflexivity.
    unfold palt, preceded, terminated, ppair, pmap, pbind. rewrite id_hit. destruct (meta_uncomment ts) as (c1 & ->). unfold pret. rewrite IH.
    rewrite id_hit. erewrite paren_hit; [reflexivity| |exact E3]. apply expr_reads; [exact d|]. follows E3.
  - discriminate.
  - intros T t x ts e r1 r Tn Hk Hx d En.
    pose proof (app_keyword T t x (P "=" :: ts) Tn Hk) as Hk'.
    assert (Et : type_parse (T ++ MIdent x :: P "=" :: ts) = POk (MIdent x :: P "=" :: ts) t).
    { apply type_reads' with (types := types); [exact Tn|now apply type_ends|discriminate]. }
    eapply declaration; [| |exact d|exact En].
    + rewrite static_plain by (apply no_keyword; [exact Hk'|cbn; tauto]). now rewrite Et.
    + apply plain_decls; [exact Hk'|]. apply punct_miss. intros r' E. rewrite E in Et. unfold P at 1 in Et. rewrite type_punct in Et. discriminate.
  - intros T t x ts e r1 r Tn Hk Hx d En.
    assert (Et : type_parse (T ++ MIdent x :: P "=" :: ts) = POk (MIdent x :: P "=" :: ts) t).
    { apply type_reads' with (types := types); [exact Tn|now apply type_ends|discriminate]. }
    eapply declaration; [| |exact d|exact En].
    + rewrite static_hit. now rewrite Et.
    + apply static_decls; reflexivity.
  - intros b T t x ts l r1 r Tn Hk Hx Pa En.
    assert (Et : type_parse (T ++ MIdent x :: ts) = POk (MIdent x :: ts) t).
    { apply type_reads' with (types := types); [exact Tn|now apply type_ends|discriminate]. }
    destruct b; cbn [app]; eapply function; [| |exact Pa|exact En| | |exact Pa|exact En].
    + rewrite static_hit. now rewrite Et.
    + apply static_decls; reflexivity.
    + rewrite static_plain by (apply no_keyword; [now apply (app_keyword T t)|cbn; tauto]). now rewrite Et.
    + apply plain_decls; [now apply (app_keyword T t)|]. apply punct_miss. intros r' E. rewrite E in Et. unfold P at 1 in Et. rewrite type_punct in Et. discriminate.
  - intros ts a r1 r A En. rewrite stmt_single_eq. unfold stmt_step. cbn [palts]. unfold palt at 1, pmap at 1, terminated at 1, pbind at 1 2.
    rewrite (assembly_reads types _ _ _ A). unfold pbind at 1. now rewrite (ended_reads _ _ En).
  - intros r ts' acc E (r' & Er). exists ts'. split; [|exact E]. rewrite app_nil_r. apply fold_stop. rewrite inside_eq, E, Er.
    apply single_fails. eauto.
  - intros ts s r1 l r _ IH _ IHl ts' acc E Hr.
    destruct (IHl r1 (acc ++ [s]) eq_refl Hr) as (r0 & F & Er). exists r0. split; [|exact Er].
    erewrite fold_step; [|apply inside_strict|rewrite inside_eq, E; exact IH]. rewrite F. now rewrite <- app_assoc.
Qed.

(** ** Whole bodies *)

Definition outside : parser stmt := delimited meta stmt_parse_single meta.
Lemma outside_strict : strict outside.
Proof. unfold outside, delimited. apply strict_bind_r; [|intros; apply strict_bind_l; [apply strict_stmt_single|]]; nomr. Qed.
Lemma statements_parse ts l r : Q ts l r -> uncomment r = [] -> forall acc,
  fold_many0 outside (fun a x => a ++ [x]) acc (uncomment ts) = POk [] (acc ++ l).
Proof.
  intros q Er. revert q. induction l as [|s l IH] in ts |- *; intros q acc; inversion q; subst.
  - rewrite Er, app_nil_r. apply fold_stop. apply delim_miss. apply single_fails. now left.
  - erewrite fold_step; [|apply outside_strict|apply delim_hit; rewrite uncomment_idem; apply statement_parses; eassumption].
    rewrite IH by assumption. now rewrite <- app_assoc.
Qed.
Lemma accepted_punct p : Forall (ok expr_puncts) [P p] -> In (st p) (map st expr_puncts).
Proof. intros F. inversion F; subst. assumption. Qed.

(** Assembly with a qualifier is not an expression. *)
Lemma lift_left (l l' : lvl) (op : parser binop) r ts : (forall ts, pe l' ts = parse_left (pe l) op ts) -> op (P "(" :: r) = PErr ->
  pe l ts = PErr \/ (exists e, pe l ts = POk (P "(" :: r) e) -> pe l' ts = PErr \/ (exists e, pe l' ts = POk (P "(" :: r) e).
Proof.
  intros E Eo G. rewrite E. unfold parse_left, pbind. destruct G as [->|(e & ->)]; [now left|right]. exists e.
  apply fold_stop. unfold ppair, pbind. now rewrite delim_miss.
Qed.
Lemma lift_open r ts : pe LPrec2 ts = PErr \/ (exists e, pe LPrec2 ts = POk (P "(" :: r) e) ->
  pe LPrec14 ts = PErr \/ (exists e, pe LPrec14 ts = POk (P "(" :: r) e).
Proof.
  intros G.
  eapply (lift_left LPrec2 LPrec3) in G; [|intros ts0; rewrite pe_eq; cbn [expr_step]; unfold parse_term_prec3; reflexivity|reflexivity].
  eapply (lift_left LPrec3 LPrec4) in G; [|intros ts0; rewrite pe_eq; cbn [expr_step]; unfold parse_term_prec4; reflexivity|reflexivity].
  eapply (lift_left LPrec4 LPrec5) in G; [|intros ts0; rewrite pe_eq; cbn [expr_step]; unfold parse_term_prec5; reflexivity|reflexivity].
  eapply (lift_left LPrec5 LPrec6) in G; [|intros ts0; rewrite pe_eq; cbn [expr_step]; unfold parse_term_prec6; reflexivity|reflexivity].
  eapply (lift_left LPrec6 LPrec7) in G; [|intros ts0; rewrite pe_eq; cbn [expr_step]; unfold parse_term_prec7; reflexivity|reflexivity].
  eapply (lift_left LPrec7 LPrec8) in G; [|intros ts0; rewrite pe_eq; cbn [expr_step]; unfold parse_term_prec8; reflexivity|reflexivity].
  eapply (lift_left LPrec8 LPrec9) in G; [|intros ts0; rewrite pe_eq; cbn [expr_step]; unfold parse_term_prec9; reflexivity|reflexivity].
  eapply (lift_left LPrec9 LPrec10) in G; [|intros ts0; rewrite pe_eq; cbn [expr_step]; unfold parse_term_prec10; reflexivity|reflexivity].
  assert (G' : pe LPrec13 ts = PErr \/ (exists e, pe LPrec13 ts = POk (P "(" :: r) e)).
  { rewrite pe_eq. cbn [expr_step]. unfold parse_term_prec13, pbind. destruct G as [->|(e & ->)]; [now left|right].
    exists e. unfold popt. now rewrite delim_miss. }
  rewrite pe_eq. cbn [expr_step]. unfold parse_term_prec14, pbind. destruct G' as [->|(e & ->)]; [now left|right].
  exists e. apply fold_stop. unfold ppair, pbind. now rewrite delim_miss.
Qed.
Lemma access_none ts r x : fold_many0 acc_parser access_step None ts = POk r x -> x = None.
Proof.
  unfold fold_many0. generalize (Datatypes.S (length ts)) as n. intros n. revert ts. induction n as [|n IH]; intros ts; cbn [fold_many0_n]; [discriminate|].
  destruct (acc_parser ts) as [r1 a| |]; [|intros E; now injection E|discriminate].
  destruct (Nat.eqb _ _); [discriminate|]. cbn [access_step]. apply IH.
Qed.
Lemma ident_part k r : (forall r', uncomment r <> P "##" :: r') -> concat_part (kw k :: r) = POk r (EVar (IPlain (st k))).
Proof.
  intros Hn. unfold concat_part, stringify_parse, palt, pmap, preceded, terminated, pbind.
  change (lit_string_parse (kw k :: r)) with (@PErr lit_string). rewrite punct_miss by discriminate. unfold kw. rewrite (concat_name _ _ _ (na_plain _ _)); [reflexivity|exact Hn].
Qed.
Lemma two_names k q r : In k asm_keywords ->
  parse_factor pe (kw k :: kw q :: P "(" :: r) = POk (P "(" :: r) (EConcat [EVar (IPlain (st k)); EVar (IPlain (st q))]).
Proof.
  intros Hk. unfold parse_factor. cbn [palts].
  assert (Hs : st k <> st "sizeof") by (cbn in Hk; destruct Hk as [<-|[<-|[<-|[]]]]; discriminate).
  rewrite palt_err by (unfold pmap, preceded, pbind, kw at 1; now rewrite kw_other).
  rewrite palt_err by (cbn in Hk; destruct Hk as [<-|[<-|[<-|[]]]]; reflexivity).
  assert (E : parse_concat_string (kw k :: kw q :: P "(" :: r) = POk (P "(" :: r) (EConcat [EVar (IPlain (st k)); EVar (IPlain (st q))])).
  { unfold parse_concat_string, pbind. rewrite ident_part by (cbn; discriminate).
    erewrite (fold_step (preceded meta concat_part)).
    - cbn [concat_add]. apply fold_stop. reflexivity.
    - apply strict_bind_r; [apply shr_meta|intros; apply strict_concat_part].
    - unfold preceded, pbind. destruct (meta_uncomment (kw q :: P "(" :: r)) as (cs & ->). cbn [uncomment kw]. apply ident_part. cbn. discriminate. }
  unfold palt. now rewrite E.
Qed.
Lemma not_expression k q r : In k asm_keywords ->
  pe LPrec14 (kw k :: kw q :: P "(" :: r) = PErr \/ exists e, pe LPrec14 (kw k :: kw q :: P "(" :: r) = POk (P "(" :: r) e.
Proof.
  intros Hk. apply lift_open.
  pose proof (two_names k q r Hk) as F. rewrite <- factor_eq in F.
  assert (T : pe LPrec2 (kw k :: kw q :: P "(" :: r) = pe LPrec1 (kw k :: kw q :: P "(" :: r)).
  { rewrite prec2_eq. unfold parse_term_prec2. cbn [palts]. rewrite !palt_err by reflexivity. unfold palt. now destruct (pe LPrec1 _). }
  rewrite T. clear T. pose proof (pe_total LPrec1 (kw k :: kw q :: P "(" :: r)) as Nf.
  set (c := EConcat _) in F.
  assert (Q : pe LPrec1 (kw k :: kw q :: P "(" :: r) = match fold_many0 acc_parser access_step (Some (c, false)) (P "(" :: r) with
    | POk r1 (Some (e, _)) => POk r1 e | POk r1 None => PErr | PErr => PErr | PFuel => PFuel end).
  { rewrite pe_eq. cbn [expr_step]. unfold parse_term_prec1, pmap_opt. unfold pbind at 1 2. rewrite F. fold acc_parser.
    destruct (fold_many0 acc_parser access_step (Some (c, false)) (P "(" :: r)) as [r1 [[e ?]|]| |]; reflexivity. }
  rewrite Q in Nf |- *. clear Q F.
  destruct (acc_parser (P "(" :: r)) as [r1 a| |] eqn:Ea.
  - assert (exists args, a = AFn args) as (args & ->).
    { unfold acc_parser, preceded, pbind in Ea. destruct (meta_uncomment (P "(" :: r)) as (cs & Em). rewrite Em in Ea. cbn [uncomment P] in Ea.
      unfold parse_access in Ea. cbn [palts] in Ea. unfold palt at 1 in Ea.
      destruct (pmap AFn _ _) as [r2 b| |] eqn:Eb in Ea; [|discriminate Ea|discriminate Ea].
      injection Ea as -> ->. unfold pmap, pbind, pret in Eb. destruct (parenthesized _ _); try discriminate. injection Eb as _ <-. eauto. }
    left. erewrite fold_step in Nf |- *; [|apply access_strict|exact Ea|apply access_strict|exact Ea]. cbn [access_step access_apply omap c] in Nf |- *.
    destruct (fold_many0 _ _ None r1) as [r2 x| |] eqn:Ef; [|reflexivity|contradiction].
    now rewrite (access_none _ _ _ Ef).
  - right. eexists. rewrite fold_stop by exact Ea. reflexivity.
  - exfalso. apply Nf. unfold fold_many0. cbn [fold_many0_n]. now rewrite Ea.
Qed.

Theorem body_statements body l : supported_statements types body l -> macro_body_parse body = POk [] (MbStatement (body_tree l)).
Proof.
  intros ((r & q & Er) & Hp). unfold macro_body_parse, pbind. destruct (meta_uncomment body) as (cs & ->).
  pose proof (statements_parse _ _ _ q Er []) as F.
  destruct (uncomment body) as [|t ts] eqn:Eb.
  - destruct l as [|s l]; [reflexivity|]. exfalso. inversion q; subst. rewrite Eb in *.
    match goal with Hs : statement _ _ [] _ _ |- _ => apply statement_parses in Hs; rewrite (single_fails []) in Hs by (now left); discriminate end.
  - rewrite <- Eb in *. rewrite palt_err.
    + unfold pall_consuming, stmt_parse, pmap, pbind. change (many0 _ (uncomment body)) with (fold_many0 outside (fun a x => a ++ [x]) [] (uncomment body)).
      rewrite F. reflexivity.
    + destruct Hp as [Hp|[Hp|Hq]].
      1-2: destruct (pall_consuming (pmap MbExpr expr_parse) (uncomment body)) as [r' b| |] eqn:E; [|reflexivity|].
      1,3: exfalso; apply (all_eats expr_puncts) in E; [|intros ts0 r0 a0 E0; unfold pmap, pbind, pret in E0; destruct (expr_parse ts0) as [r1 a1| |] eqn:E1; try discriminate; injection E0 as <- _; eapply eats_expr; [intros y Hy; exact Hy|exact E1]];
        destruct (uncomment_split body) as (cs' & Ec); rewrite Ec, in_app_iff in Hp;
        (destruct Hp as [Hi|Hi]; [apply in_map_iff in Hi as (? & Hi & _); discriminate|]);
        rewrite Forall_forall in E; apply E in Hi; revert Hi; nin.
      1-2: exfalso; unfold pall_consuming, pmap, pbind in E; rewrite expr_parse_pe in E;
        destruct (pe LPrec14 (uncomment body)) as [[|] ?| |] eqn:E1; cbn in E; try discriminate; exact (pe_total _ _ E1).
      destruct Hq as (k & q' & r' & Hk & _ & Eq). rewrite Eq.
      destruct (not_expression k q' r' Hk) as [Qe|(e & Qe)]; unfold pall_consuming, pmap, pbind; now rewrite expr_parse_pe, Qe.
Qed.
End S.
