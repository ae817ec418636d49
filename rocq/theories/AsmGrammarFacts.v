(** The parsers of inline assembly and of parameter lists follow the grammar of
    SpecAsmGrammar.v. *)
From Verif Require Import Base Utf UtfFacts Lex LexFacts LexFloat Token Ast Nom NomFacts ParseTok ParseExpr ParseStmt ParseFacts StrFacts
  SpecInt DecFacts SpecString SpecAsm PropAsm SpecType PropType SpecGrammar GrammarFacts SpecAsmGrammar.
From Coq Require Import String List Lia PeanoNat Bool ZArith.
Import ListNotations.
Local Open Scope string_scope.
Local Open Scope list_scope.

Section S.
Context `{Unicode}.
Variable types : str -> bool.
Notation D := (derives types true).

Lemma expr_reads' ts e r c q : D Comma ts e r -> uncomment r = P c :: q -> In c [")"; ";"; ":"] -> expr_parse ts = POk r e.
Proof.
  intros d E Hc. rewrite expr_parse_pe. apply (derives_parses _ _ _ _ _ d). unfold follow. rewrite E. cbn [P].
  destruct Hc as [<-|[<-|[<-|[]]]]; nin.
Qed.

(** ** Lists *)

(** What follows an item, and what follows a list. *)
Definition ender (l : list string) (r : list mtoken) : Prop := exists c q, uncomment r = P c :: q /\ In c l.

Section List.
Context {A X : Type} (tight : bool) (item : list mtoken -> A -> list mtoken -> Prop) (sep : parser X) (p : parser A) (ends : list string).
Hypothesis ends_ok : forall c, In c ends -> st "," <> st c.
Hypothesis sep_hit : forall r1 r2, uncomment r1 = P "," :: r2 -> (tight = true -> uncomment r2 = r2) -> exists x, sep r1 = POk (uncomment r2) x.
Hypothesis sep_miss : forall r1 c q, uncomment r1 = P c :: q -> st "," <> st c -> sep r1 = PErr.
Hypothesis p_hit : forall ts x r, item ts x r -> ender ("," :: ends) r -> p ts = POk r x.
Hypothesis p_miss : forall c q, In c ends -> p (P c :: q) = PErr.
Hypothesis p_strict : strict p.

Lemma more_ender r1 l r : more_items tight item r1 l r -> ender ends r -> ender ("," :: ends) r1.
Proof.
  intros M (c & q & E & I). destruct M as [|r1 r2 x r3 l r E1 J M].
  - exists c, q. split; [exact E|now right].
  - exists ",", r2. split; [exact E1|now left].
Qed.
Lemma more_reads r1 l r : more_items tight item r1 l r -> ender ends r -> forall n acc, length r1 < n ->
  sep_list_n n sep p acc r1 = POk r (acc ++ l).
Proof.
  induction 1 as [r|r1 r2 x r3 l r E1 J M IH T]; intros En n acc L.
  - destruct n as [|n]; [lia|]. destruct En as (c & q & E & I). cbn [sep_list_n]. rewrite (sep_miss _ _ _ E) by auto. now rewrite app_nil_r.
  - destruct n as [|n]; [lia|]. cbn [sep_list_n]. destruct (sep_hit _ _ E1 T) as (y & ->).
    assert (L1 : length (uncomment r2) < length r1).
    { pose proof (uncomment_length r1) as U1. pose proof (uncomment_length r2). rewrite E1 in U1. cbn in U1. lia. }
    rewrite (proj2 (Nat.eqb_neq _ _)) by lia.
    assert (Q : p (uncomment r2) = POk r3 x) by (apply p_hit; [exact J|eapply more_ender; eassumption]).
    rewrite Q. pose proof (ssuffix_length _ _ (p_strict _ _ _ Q)). rewrite IH by (auto; lia). now rewrite <- app_assoc.
Qed.
Lemma items_read ts l r : items tight item ts l r -> uncomment ts = ts -> ender ends r -> separated_list0 sep p ts = POk r l.
Proof.
  intros I U En. destruct I as [r|ts x r1 l r J M]; unfold separated_list0.
  - destruct En as (c & q & E & I). rewrite U in E. subst r. now rewrite p_miss.
  - assert (Q : p ts = POk r1 x) by (apply p_hit; [exact J|eapply more_ender; eassumption]).
    rewrite Q. now rewrite (more_reads _ _ _ M En) by lia.
Qed.
End List.

(** ** Strings *)

Definition ordinary_piece : parser (list N) := pmap_opt (fun t => match t with MLit (LString (SOrdinary b)) => Some b | _ => None end) take_one.
Lemma piece_strict : strict ordinary_piece.
Proof. unfold ordinary_piece. nomr. Qed.
Lemma literals_run ts bs r : literals true ts bs r -> forall acc,
  fold_many0 ordinary_piece (fun a b => a ++ b) acc ts = POk r (acc ++ bs).
Proof.
  induction 1 as [b r Hn|b ts bs r L IH U]; intros acc.
  - erewrite fold_step; [|apply piece_strict|reflexivity]. apply fold_stop.
    destruct r as [|[i|x|x|[c|[s|s|s|s|s]|f|z]|q|c] r]; try reflexivity. exfalso. apply Hn. cbn. eexists. eexists. reflexivity.
  - rewrite (U eq_refl) in *. erewrite fold_step; [|apply piece_strict|reflexivity]. rewrite IH. now rewrite app_assoc.
Qed.
Lemma literals_read ts bs r : literals true ts bs r -> lit_string_parse ts = POk r (SOrdinary bs).
Proof.
  intros L. assert (G : exists b ts', ts = string_token b :: ts' /\ (bs = b /\ r = ts' /\ ~ a_string (uncomment r) \/ exists bs', bs = b ++ bs' /\ literals true ts' bs' r)).
  { destruct L as [b r Hn|b ts bs r L U]; exists b; eexists; (split; [reflexivity|]).
    - left. auto.
    - right. exists bs. split; [reflexivity|]. now rewrite (U eq_refl) in L. }
  destruct G as (b & ts' & -> & G). unfold lit_string_parse, pmap, pmap_opt at 1, string_token, pbind at 1. cbn [take_one pbind pret].
  unfold pbind, pret. change (pmap_opt _ take_one) with ordinary_piece.
  destruct G as [(-> & -> & Hn)|(bs' & -> & L')].
  - rewrite fold_stop; [reflexivity|]. destruct ts' as [|[i|x|x|[c|[s|s|s|s|s]|f|z]|q|c] r]; try reflexivity. exfalso. apply Hn. cbn. eexists. eexists. reflexivity.
  - now rewrite (literals_run _ _ _ L').
Qed.
Lemma text_reads {A} (f : str -> option A) ts s r a : text_literal true ts s r -> f s = Some a -> string_with f ts = POk r a.
Proof.
  intros [Sc L] E. unfold string_with, pmap_opt, pbind. rewrite (literals_read _ _ _ L). cbn [lit_string_as_str].
  rewrite utf8_decode_encode by exact Sc. cbn [obind]. now rewrite E.
Qed.
Lemma text_fails {A} (f : str -> option A) p r : string_with f (P p :: r) = PErr.
Proof. reflexivity. Qed.

(** ** Operands *)

Lemma template_reads s l : template true s l -> parse_template s = Some l.
Proof. intros (ps & out & Pp & <- & R & L & K). destruct (K eq_refl) as [SR RB]. eapply C48_exact; eassumption. Qed.

Lemma has_char_in c w : has_char c w = true <-> In c w.
Proof.
  unfold has_char. rewrite existsb_exists. split; [intros (x & I & E); apply N.eqb_eq in E; now subst|]. intros I. exists c. split; [exact I|apply N.eqb_refl].
Qed.
Lemma has_char_out c w : ~ In c w -> has_char c w = false.
Proof. intros N. destruct (has_char c w) eqn:E; [|reflexivity]. exfalso. apply N. now apply has_char_in. Qed.

Lemma constraint_reads w k : constraint true w k -> all_consuming parse_reg_constraint w = Some k.
Proof.
  intros [w' l1 c k' l2 F E I Hs|w' n K Hs]; unfold all_consuming, parse_reg_constraint.
  - assert (T : take_while1 is_alpha w' = Some ([], w')).
    { apply take_while1_some. split; [intros ->; destruct I|]. split; [now rewrite app_nil_r|]. split; [|exact Coq.Init.Logic.I].
      now apply (forallb_Forall _ _ _ alpha_letter). }
    rewrite T. cbn [obind fst snd omap]. specialize (Hs eq_refl). unfold letter_classes in E.
    destruct l1 as [|x1 l1]; [|destruct l1 as [|x2 l1]; [|destruct l1 as [|x3 l1]; [|destruct l1 as [|x4 l1]; [|destruct l1 as [|x5 l1]]]]]; cbn [app] in E.
    + injection E as <- <- _. now rewrite (proj2 (has_char_in _ _) I).
    + injection E as <- <- <- _. rewrite has_char_out by (apply (Hs _ (or_introl eq_refl))). now rewrite (proj2 (has_char_in _ _) I).
    + injection E as <- <- <- <- _. rewrite has_char_out by (apply (Hs _ (or_introl eq_refl))).
      rewrite has_char_out by (apply (Hs _ (or_intror (or_introl eq_refl)))). now rewrite (proj2 (has_char_in _ _) I).
    + injection E as <- <- <- <- <- _. rewrite has_char_out by (apply (Hs _ (or_introl eq_refl))).
      rewrite has_char_out by (apply (Hs _ (or_intror (or_introl eq_refl)))).
      rewrite has_char_out by (apply (Hs _ (or_intror (or_intror (or_introl eq_refl))))). now rewrite (proj2 (has_char_in _ _) I).
    + injection E as <- <- <- <- <- <- _. rewrite has_char_out by (apply (Hs _ (or_introl eq_refl))).
      rewrite has_char_out by (apply (Hs _ (or_intror (or_introl eq_refl)))).
      rewrite has_char_out by (apply (Hs _ (or_intror (or_intror (or_introl eq_refl))))).
      rewrite has_char_out by (apply (Hs _ (or_intror (or_intror (or_intror (or_introl eq_refl)))))).
      rewrite (proj2 (has_char_in _ _) I). now rewrite orb_true_r.
    + injection E as _ _ _ _ _ E. destruct l1; discriminate E.
  - apply numeral10 in K as (Ne & F & V).
    assert (T : take_while1 is_alpha w' = None).
    { unfold take_while1. destruct w' as [|d w']; [contradiction|]. cbn [take_while]. destruct (is_alpha d) eqn:A; [|reflexivity].
      cbn in F. apply andb_true_iff in F as [F _]. apply alpha_letter in A. apply digit_ascii in F. unfold ascii_letter, ascii_digit in *. lia. }
    assert (T' : take_while1 is_digit w' = Some ([], w')).
    { apply take_while1_some. repeat split; auto. now rewrite app_nil_r. }
    rewrite T, T'. cbn [obind oor fst snd]. rewrite <- V. specialize (Hs eq_refl).
    rewrite (proj2 (Z.ltb_lt _ _)) by lia. now rewrite N2Z.id.
Qed.
Lemma parens_read r e r' : in_parentheses types true r e r' -> parenthesized expr_parse r = POk r' e.
Proof.
  intros (ts & r1 & E & d & E1 & U). rewrite (U eq_refl) in E. subst r. apply (paren_hit _ _ r1); [|exact E1].
  eapply expr_reads'; [exact d|exact E1|cbn; tauto].
Qed.

Definition out_parser : parser (asm_dir * reg_constraint * expr) :=
  pmap (fun x => (fst (fst x), snd (fst x), snd x)) (ppair (string_with parse_output_operands) (parenthesized expr_parse)).
Definition in_parser : parser (reg_constraint * expr) := ppair (string_with parse_input_operands) (parenthesized expr_parse).
Lemma shr_parens : shr (parenthesized expr_parse).
Proof.
  unfold parenthesized, delimited. apply shr_bind; [nomr|intros]. apply shr_bind; [apply strict_shr, strict_expr_parse|intros]. nomr.
Qed.
Lemma out_strict : strict out_parser.
Proof. unfold out_parser, ppair. apply strict_map, strict_bind_l; [apply strict_string_with|intros]. apply shr_bind; [apply shr_parens|intros; apply shr_ret]. Qed.
Lemma in_strict : strict in_parser.
Proof. unfold in_parser, ppair. apply strict_bind_l; [apply strict_string_with|intros]. apply shr_bind; [apply shr_parens|intros; apply shr_ret]. Qed.
Lemma out_reads ts x r : output_operand types true ts x r -> out_parser ts = POk r x.
Proof.
  intros [ts' w r1 k e r' L C Pe|ts' w r1 k e r' L C Pe]; unfold out_parser, pmap, ppair, pbind.
  - rewrite (text_reads _ _ _ _ (DOut, k) L); [now rewrite (parens_read _ _ _ Pe)|].
    unfold parse_output_operands. cbn [char1 N.eqb Pos.eqb omap oor obind fst snd]. now rewrite (constraint_reads _ _ C).
  - rewrite (text_reads _ _ _ _ (DInOut, k) L); [now rewrite (parens_read _ _ _ Pe)|].
    unfold parse_output_operands. cbn [char1 N.eqb Pos.eqb omap oor obind fst snd]. now rewrite (constraint_reads _ _ C).
Qed.
Lemma in_reads ts x r : input_operand types true ts x r -> in_parser ts = POk r x.
Proof.
  intros [ts' w r1 k e r' L C Pe]; unfold in_parser, ppair, pbind.
  rewrite (text_reads _ _ _ _ k L); [now rewrite (parens_read _ _ _ Pe)|]. exact (constraint_reads _ _ C).
Qed.

(** ** Sections *)

Lemma comma_hit r1 r2 : uncomment r1 = P "," :: r2 -> exists x, delimited meta (punct ",") meta r1 = POk (uncomment r2) x.
Proof. intros E. exists (st ","). apply delim_hit. rewrite E. apply punct_hit. Qed.
Lemma comma_miss r1 c q : uncomment r1 = P c :: q -> st "," <> st c -> delimited meta (punct ",") meta r1 = PErr.
Proof. intros E N. apply delim_miss. apply punct_miss. intros r E2. rewrite E in E2. injection E2 as E2 _. now symmetry in E2. Qed.
Lemma comma_hit' r1 r2 : uncomment r1 = P "," :: r2 -> exists x, (meta ;;> (punct "," ;;> meta)) r1 = POk (uncomment r2) x.
Proof.
  intros E. unfold pbind. destruct (meta_uncomment r1) as (c1 & ->). rewrite E, punct_hit. destruct (meta_uncomment r2) as (c2 & ->). eauto.
Qed.
Lemma comma_miss' r1 c q : uncomment r1 = P c :: q -> st "," <> st c -> (meta ;;> (punct "," ;;> meta)) r1 = PErr.
Proof.
  intros E N. unfold pbind. destruct (meta_uncomment r1) as (c1 & ->). rewrite punct_miss; [reflexivity|].
  intros r E2. rewrite E in E2. injection E2 as E2 _. now symmetry in E2.
Qed.

Lemma section_reads {A} (item : list mtoken -> A -> list mtoken -> Prop) (p : parser (list A)) ts l r :
  section false item ts l r -> (forall ts', uncomment ts' = ts' -> items false item ts' l r -> p ts' = POk r l) ->
  forall ts', uncomment ts' = uncomment ts -> exists r', colon_section p ts' = POk r' l /\ uncomment r' = uncomment r.
Proof.
  intros Se Hp ts' U. unfold colon_section, pmap, popt, preceded, pbind. destruct Se as [ts Hn|ts ts1 l r E I].
  - exists ts'. split; [|exact U]. rewrite delim_miss; [reflexivity|]. apply punct_miss. intros r. rewrite U. apply Hn.
  - exists r. split; [|reflexivity]. rewrite (delim_hit (punct ":") ts' ts1 (st ":")) by (rewrite U, E; apply punct_hit).
    now rewrite (Hp _ (uncomment_idem _) I).
Qed.
Lemma section_ender {A} (item : list mtoken -> A -> list mtoken -> Prop) ts l r :
  section false item ts l r -> ender [":"; ")"] r -> ender [":"; ")"] ts.
Proof. intros [ts' Hn|ts' ts1 l' r' E I] En; [exact En|]. exists ":", ts1. cbn. auto. Qed.

Lemma assembly_reads ts a r : assembly types true ts a r -> asm_parse ts = POk r a.
Proof.
  intros [k q ts1 s lines r1 outs r2 ins r3 clobbers r4 r' Hk [_ Hq] L T S1 S2 S3 E]. specialize (Hq eq_refl).
  assert (En4 : ender [":"; ")"] r4) by (exists ")", r'; cbn; auto).
  pose proof (section_ender _ _ _ _ S3 En4) as En3. pose proof (section_ender _ _ _ _ S2 En3) as En2.
  assert (K : terminated (palts [id "__asm__"; id "__asm"; id "asm"]) (popt (palts [id "volatile"; id "inline"; id "goto"]))
    (kw k :: q ++ P "(" :: ts1) = POk (P "(" :: ts1) (st k)).
  { cbn in Hk. destruct Hk as [<-|[<-|[<-|[]]]]; (destruct Hq as [->|(x & Hx & ->)];
      [reflexivity|cbn in Hx; destruct Hx as [<-|[<-|[<-|[]]]]; reflexivity]). }
  assert (ok : forall c, In c [":"; ")"] -> st "," <> st c) by (intros c [<-|[<-|[]]]; discriminate).
  destruct (section_reads _ (separated_list0 (delimited meta (punct ",") meta) out_parser) _ _ _ S1) with (ts' := uncomment r1) as (r2' & R1 & U2).
  { intros ts' U I. eapply (items_read false (output_operand types true) _ _ [":"; ")"]); eauto using out_strict, out_reads, comma_hit, comma_miss.
    all: intros c z [<-|[<-|[]]]; reflexivity. }
  { apply uncomment_idem. }
  destruct (section_reads _ (separated_list0 (delimited meta (punct ",") meta) in_parser) _ _ _ S2) with (ts' := r2') as (r3' & R2 & U3).
  { intros ts' U I. eapply (items_read false (input_operand types true) _ _ [":"; ")"]); eauto using in_strict, in_reads, comma_hit, comma_miss.
    all: intros c z [<-|[<-|[]]]; reflexivity. }
  { exact U2. }
  destruct (section_reads _ (separated_list0 (meta ;;> (punct "," ;;> meta)) (string_with Some)) _ _ _ S3) with (ts' := r3') as (r4' & R3 & U4).
  { intros ts' U I. eapply (items_read false (text_literal true) _ _ [":"; ")"]); eauto using strict_string_with, comma_hit', comma_miss'.
    intros ts0 x r0 J _. now apply (text_reads _ _ x). }
  { exact U3. }
  unfold asm_parse, preceded. unfold pbind at 1. rewrite K. apply (paren_hit _ _ r4'); [|now rewrite U4].
  unfold pbind at 1. rewrite (delim_hit _ _ r1 lines) by (rewrite uncomment_idem; apply (text_reads _ _ s); [exact L|now apply template_reads]).
  assert (B : forall A B (p : parser A) (k : A -> parser B) ts r a, p ts = POk r a -> pbind p k ts = k a r) by (intros ? ? ? ? ? ? ? Eb; unfold pbind; now rewrite Eb).
  rewrite (B _ _ _ _ _ _ _ R1), (B _ _ _ _ _ _ _ R2), (B _ _ _ _ _ _ _ R3). reflexivity.
Qed.

(** ** Parameters *)

Definition param_parser : parser (ctype * ident_expr) := ppair type_parse parse_concat_ident.
Lemma param_reads ts x r : parameter types ts x r -> ender [","; ")"] r -> param_parser ts = POk r x.
Proof.
  intros [T t y r' Tn Hy] (c & q & E & Hc). unfold param_parser, ppair, pbind.
  rewrite (type_reads' types T t (MIdent y) r'); [|exact Tn| |discriminate].
  - rewrite (concat_name _ _ _ (na_plain _ _)); [reflexivity|]. intros r0. rewrite E. destruct Hc as [<-|[<-|[]]]; discriminate.
  - intros Hi. apply Hy. unfold keywords. rewrite map_app, in_app_iff. now left.
Qed.
Lemma pcomma_hit r1 r2 : uncomment r1 = P "," :: r2 -> (true = true -> uncomment r2 = r2) -> exists x, ppair meta (punct ",") r1 = POk (uncomment r2) x.
Proof.
  intros E U. rewrite (U eq_refl). unfold ppair, pbind. destruct (meta_uncomment r1) as (c1 & ->). rewrite E, punct_hit. eexists. reflexivity.
Qed.
Lemma pcomma_miss r1 c q : uncomment r1 = P c :: q -> st "," <> st c -> ppair meta (punct ",") r1 = PErr.
Proof.
  intros E N. unfold ppair, pbind. destruct (meta_uncomment r1) as (c1 & ->). rewrite punct_miss; [reflexivity|].
  intros r E2. rewrite E in E2. injection E2 as E2 _. now symmetry in E2.
Qed.
Lemma parameters_read ts l r : parameters types true ts l r ->
  parenthesized (separated_list0 (ppair meta (punct ",")) (ppair type_parse parse_concat_ident)) ts = POk r l.
Proof.
  intros [ts' l' r1 r' I E|ts' r1 r' N _ _]; [|discriminate N]. apply (paren_hit _ _ r1); [|exact E].
  eapply (items_read true (parameter types) _ _ [")"]); eauto using pcomma_hit, pcomma_miss, uncomment_idem.
  - intros c [<-|[]]. discriminate.
  - intros ts0 x r0 J En. now apply param_reads.
  - unfold ppair. apply strict_bind_l; [apply strict_type|]. intros. apply shr_bind; [apply strict_shr, strict_parse_concat_ident|intros; apply shr_ret].
  - exists ")", r'. cbn. auto.
Qed.
End S.
