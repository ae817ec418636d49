(** What the parser of inline assembly accepts is in the grammar. *)
From Verif Require Import Base Utf UtfFacts Lex LexFloat Token Ast Nom NomFacts ParseTok ParseExpr ParseStmt ParseFacts StrFacts SpecString SpecAsm PropAsm SpecType SpecGrammar
  GrammarFacts SpecAsmGrammar AsmGrammarFacts SpecStmtGrammar PropAsmGrammar SpecAccept AcceptFacts PropAccept.
From Coq Require Import String List Lia PeanoNat Bool.
Import ListNotations.
Local Open Scope string_scope.
Local Open Scope list_scope.

Section A.
Context `{Unicode}.
Variable types : str -> bool.
Notation D := (D types).

Lemma uncomment_twice ts : uncomment (uncomment ts) = uncomment ts.
Proof. induction ts as [|[] ts IH]; auto. Qed.
Lemma id_inv k ts r x : id k ts = POk r x -> ts = kw k :: r.
Proof. intro E. now apply kw_inv in E as [E _]. Qed.
Lemma parens_inv ts r c : ordinary ts -> parenthesized expr_parse ts = POk r c -> consistent types c ->
  exists ts1 r1, ts = P "(" :: ts1 /\ D Comma (uncomment ts1) c r1 /\ uncomment r1 = P ")" :: r.
Proof.
  intros O E C. apply paren_inv in E as (ts1 & r1 & -> & E & E1). exists ts1, r1. split; [reflexivity|]. split; [|exact E1].
  apply d_up with (l' := Assignment); [reflexivity|]. apply expr_ok; [|exact E|exact C].
  eapply ordinary_suffix; [|exact O]. eapply suffix_trans; [apply suffix_uncomment|]. now exists [P "("].
Qed.
Lemma parens_short ts r c : parenthesized expr_parse ts = POk r c -> suffix r ts.
Proof.
  intros E. apply paren_inv in E as (ts1 & r1 & -> & E & E1). eapply suffix_trans; [eapply suffix_un; exact E1|].
  eapply suffix_trans; [apply ssuffix_suffix; eapply strict_expr_parse; exact E|]. eapply suffix_trans; [apply suffix_uncomment|]. now exists [P "("].
Qed.
Lemma pmap_inv {A B} (f : A -> B) p ts r b : pmap f p ts = POk r b -> exists a, p ts = POk r a /\ b = f a.
Proof. unfold pmap, pbind, pret. destruct (p ts) as [r1 a| |]; try discriminate. intro E. injection E as <- <-. eauto. Qed.
Lemma bind_inv {A B} (p : parser A) (k : A -> parser B) ts r b : pbind p k ts = POk r b -> exists r1 a, p ts = POk r1 a /\ k a r1 = POk r b.
Proof. unfold pbind. destruct (p ts) as [r1 a| |]; try discriminate. eauto. Qed.
Lemma palts_inv {A} (l : list (parser A)) ts r a : palts l ts = POk r a -> exists p, In p l /\ p ts = POk r a.
Proof.
  induction l as [|p l IH]; [discriminate|]. cbn [palts]. unfold palt. destruct (p ts) as [r1 a1| |] eqn:E; try discriminate.
  - intro K. exists p. split; [now left|congruence].
  - intro K. destruct (IH K) as (p' & Hp & E'). exists p'. split; [now right|exact E'].
Qed.

(** ** Texts *)

Lemma literals_snoc ts bs r b r' : literals false ts bs r -> r = string_token b :: r' -> False.
Proof. induction 1 as [b0 r N|b0 ts bs r L IH _]; [|exact IH]. intros ->. apply N. cbn. eexists _, r'. reflexivity. Qed.
(** A run read up to a string that follows it. *)
Lemma run_literals b0 ts0 bs r : steps (pmap_opt (fun t => match t with MLit (LString (SOrdinary b)) => Some b | _ => None end) take_one) (fun acc b => acc ++ b) b0 ts0 bs r ->
  forall bs' r', literals false r bs' r' -> literals false (string_token b0 :: ts0) (bs ++ bs') r'.
Proof.
  intro S. induction S as [|a ts b r S IH E]; intros bs' r' L.
  - eapply li_more; [|discriminate]. inversion L; subst; exact L.
  - apply one_inv in E as (t & -> & F). destruct t as [| | |[|[b1| | | |]| |]| |]; try discriminate F. injection F as ->. rewrite <- app_assoc. apply IH.
    eapply li_more; [|discriminate]. inversion L; subst; exact L.
Qed.
Lemma run_end b0 ts0 bs r : steps (pmap_opt (fun t => match t with MLit (LString (SOrdinary b)) => Some b | _ => None end) take_one) (fun acc b => acc ++ b) b0 ts0 bs r ->
  ~ a_string (uncomment r) -> literals false (string_token b0 :: ts0) bs r.
Proof.
  intros S N. inversion S as [|a ts b r0 S1 E]; subst; [now apply li_one|].
  apply one_inv in E as (t & -> & F). destruct t as [| | |[|[b1| | | |]| |]| |]; try discriminate F. injection F as ->.
  eapply run_literals; [exact S1|]. now apply li_one.
Qed.
Lemma text_inv' {A} (f : str -> option A) ts r a : (forall s, In (MLit (LString s)) ts -> exists b, s = SOrdinary b) ->
  string_with f ts = POk r a -> ~ a_string (uncomment r) -> exists s, text_literal false ts s r /\ f s = Some a.
Proof.
  intros O E N. unfold string_with, pmap_opt in E. apply bind_inv in E as (r1 & s & E & K).
  destruct (t <-? lit_string_as_str s ;; f t) as [y|] eqn:F; [|discriminate K]. injection K as <- <-.
  unfold lit_string_parse in E. apply bind_inv in E as (r2 & s0 & E & K). apply one_inv in E as (t & -> & G).
  destruct t as [| | |[|s1| |]| |]; try discriminate G. injection G as ->. destruct (O s0 (or_introl eq_refl)) as (b & ->).
  apply pmap_inv in K as (bs & K & ->). apply fold_steps in K. cbn [lit_string_as_str] in F. destruct (utf8_decode bs) as [u|] eqn:Eu; [|discriminate F]. cbn in F.
  apply utf8_decode_iff in Eu as (-> & Sc). exists u. split; [|exact F]. split; [exact Sc|]. now apply run_end.
Qed.

(** ** Lists *)

Section List.
Context {A X : Type} (sep : parser X) (p : parser A) (item : list mtoken -> A -> list mtoken -> Prop) (good : A -> Prop) (W : list mtoken).
Hypothesis sep_is : forall ts r x, sep ts = POk r x -> exists r2, uncomment ts = P "," :: r2 /\ r = uncomment r2.
Hypothesis p_short : shr p.
Hypothesis p_ok : forall ts r x, suffix ts W -> p ts = POk r x -> ~ a_string (uncomment r) -> good x -> item ts x r.
Lemma sep_short ts r x : sep ts = POk r x -> ssuffix r ts.
Proof. intro E. apply sep_is in E as (r2 & E & ->). destruct (suffix_uncomment r2) as (q & Eq). destruct (suffix_uncomment ts) as (q2 & E2). rewrite E in E2.
  exists (q2 ++ [P ","] ++ q). split; [intro K; apply app_eq_nil in K as (_ & K); discriminate K|]. rewrite E2. rewrite <- !app_assoc. cbn. now rewrite <- Eq. Qed.
Lemma sep_total n acc ts : sep_list_n n sep p acc ts <> PErr.
Proof.
  revert acc ts. induction n as [|n IH]; intros acc ts; cbn [sep_list_n]; [discriminate|]. destruct (sep ts) as [r x| |] eqn:E; try discriminate.
  apply sep_short in E as (q & Nq & Eq). destruct (Nat.eqb_spec (length r) (length ts)) as [El|_].
  - exfalso. rewrite Eq, app_length in El. destruct q; [now apply Nq|cbn in El; lia].
  - destruct (p r) as [r2 y| |]; try discriminate. apply IH.
Qed.
Lemma list_total ts : separated_list0 sep p ts <> PErr.
Proof. unfold separated_list0. destruct (p ts); try discriminate. apply sep_total. Qed.
Lemma more_inv n acc ts r l : sep_list_n n sep p acc ts = POk r l -> suffix ts W ->
  exists l', l = acc ++ l' /\ suffix r ts /\ (~ a_string (uncomment r) -> ~ a_string (uncomment ts) /\ (all good l' -> more_items false item ts l' r)).
Proof.
  revert acc ts. induction n as [|n IH]; intros acc ts; [discriminate|]. cbn [sep_list_n].
  assert (Z : POk ts acc = POk r l -> exists l', l = acc ++ l' /\ suffix r ts /\ (~ a_string (uncomment r) -> ~ a_string (uncomment ts) /\ (all good l' -> more_items false item ts l' r))).
  { intro E. injection E as <- <-. exists []. rewrite app_nil_r. split; [reflexivity|]. split; [apply suffix_refl|]. intro N. split; [exact N|]. intros _. constructor. }
  destruct (sep ts) as [r1 x| |] eqn:E1; try discriminate; [|intros E S; now apply Z].
  pose proof (sep_short _ _ _ E1) as S1. apply ssuffix_suffix in S1. apply sep_is in E1 as (r2 & E1 & ->).
  destruct (Nat.eqb _ _); [discriminate|]. destruct (p (uncomment r2)) as [r3 y| |] eqn:E2; try discriminate; [|intros E S; now apply Z].
  intros E S. pose proof (p_short _ _ _ E2) as S2.
  assert (SW : suffix (uncomment r2) W) by (eapply suffix_trans; [exact S1|exact S]).
  apply IH in E as (l' & -> & S3 & K); [|eapply suffix_trans; [exact S2|exact SW]].
  exists (y :: l'). rewrite <- app_assoc. split; [reflexivity|]. split; [eapply suffix_trans; [exact S3|]; eapply suffix_trans; [exact S2|exact S1]|].
  intros N. apply K in N as (N & M). split.
  - intros (s & q & Eq). rewrite E1 in Eq. discriminate Eq.
  - cbn [all]. intros (Gy & Gl). eapply mi_some; [exact E1|apply p_ok; eassumption|now apply M|discriminate].
Qed.
Lemma list_inv ts r l : separated_list0 sep p ts = POk r l -> suffix ts W -> suffix r ts /\ (~ a_string (uncomment r) -> all good l -> items false item ts l r).
Proof.
  unfold separated_list0. intros E S. destruct (p ts) as [r1 x| |] eqn:E1; try discriminate.
  - pose proof (p_short _ _ _ E1) as S1. apply more_inv in E as (l' & -> & S2 & K); [|eapply suffix_trans; [exact S1|exact S]].
    split; [eapply suffix_trans; [exact S2|exact S1]|]. cbn [app all]. intros N (Gx & Gl). apply K in N as (N & M). eapply it_some; [apply p_ok; eassumption|now apply M].
  - injection E as <- <-. split; [apply suffix_refl|]. intros _ _. constructor.
Qed.
(** A section that is absent, or begins with a colon. *)
Lemma section_inv ts r l : colon_section (separated_list0 sep p) ts = POk r l -> suffix ts W ->
  suffix r ts /\
  ((r = ts /\ l = [] /\ forall q, uncomment ts <> P ":" :: q) \/
   (exists q, uncomment ts = P ":" :: q /\ (~ a_string (uncomment r) -> all good l -> items false item (uncomment q) l r))).
Proof.
  intros E S. unfold colon_section in E. apply pmap_inv in E as (o & E & ->). unfold popt, preceded, pbind in E.
  destruct (delimited meta (punct ":") meta ts) as [r1 x| |] eqn:E1; try discriminate.
  - apply delim_inv in E1 as (q & E1 & ->). apply punct_inv in E1.
    assert (S1 : suffix (uncomment q) ts) by (eapply suffix_trans; [apply suffix_uncomment|]; eapply suffix_un; exact E1).
    destruct (separated_list0 sep p (uncomment q)) as [r2 l2| |] eqn:E2; try discriminate.
    + injection E as <- <-. apply list_inv in E2 as (S2 & K); [|eapply suffix_trans; [exact S1|exact S]].
      split; [eapply suffix_trans; [exact S2|exact S1]|]. right. exists q. split; [exact E1|exact K].
    + now apply list_total in E2.
  - injection E as <- <-. split; [apply suffix_refl|]. left. split; [reflexivity|]. split; [reflexivity|]. intros q K.
    rewrite (delim_hit (punct ":") ts q (st ":")) in E1; [discriminate E1|]. rewrite K. apply punct_hit.
Qed.
End List.
Lemma comma_is ts r x : delimited meta (punct ",") meta ts = POk r x -> exists r2, uncomment ts = P "," :: r2 /\ r = uncomment r2.
Proof. intro E. apply delim_inv in E as (r0 & E & ->). apply punct_inv in E. eauto. Qed.
Lemma comma_is' ts r x : (meta ;;> (punct "," ;;> meta)) ts = POk r x -> exists r2, uncomment ts = P "," :: r2 /\ r = uncomment r2.
Proof.
  intro E. unfold pbind in E. destruct (meta_uncomment ts) as (cs & M). rewrite M in E. destruct (punct "," (uncomment ts)) as [r1 y| |] eqn:E1; try discriminate.
  apply punct_inv in E1. destruct (meta_uncomment r1) as (cs' & M'). rewrite M' in E. injection E as <- _. eauto.
Qed.

(** ** Operands *)

Lemma constraint_weak w k : constraint true w k -> constraint false w k.
Proof. intros [w' l1 c k' l2 F El Ic _|w' n K _]; [eapply co_letters|apply co_number]; eauto; discriminate. Qed.
Lemma constraint_inv w k : all_consuming parse_reg_constraint w = Some k -> (In letter_i w -> exists c k, In (c, k) letter_classes /\ In c w) -> constraint false w k.
Proof.
  intros E C. apply constraint_sound in E as [E|(I & -> & F & Q)]; [now apply constraint_weak|].
  destruct (C I) as (c & k & Ik & Ic). specialize (Q _ Ik Ic). cbn in Q. subst k. apply in_split in Ik as (l1 & l2 & El).
  eapply co_letters; [exact F|exact El|exact Ic|discriminate].
Qed.
Lemma output_inv s d k : parse_output_operands s = Some (d, k) ->
  exists w, (d = DOut /\ s = 61%N :: w \/ d = DInOut /\ s = 43%N :: w) /\ all_consuming parse_reg_constraint w = Some k.
Proof.
  intros E. unfold parse_output_operands in E. destruct s as [|c w]; [discriminate E|]. cbn [char1] in E.
  destruct (N.eqb c 61) eqn:C1; cbn [omap oor obind fst snd] in E.
  - apply N.eqb_eq in C1. subst c. exists w. destruct (all_consuming parse_reg_constraint w); [|discriminate E]. injection E as <- <-. auto.
  - destruct (N.eqb c 43) eqn:C2; cbn [omap oor obind fst snd] in E; [|discriminate E].
    apply N.eqb_eq in C2. subst c. exists w. destruct (all_consuming parse_reg_constraint w); [|discriminate E]. injection E as <- <-. auto.
Qed.

Section Text.
Variable W : list mtoken.
Hypothesis O : ordinary W.
Hypothesis T : assembly_text W.
Lemma strings_in ts : suffix ts W -> forall s, In (MLit (LString s)) ts -> exists b, s = SOrdinary b.
Proof. intros (q & E) s I. apply T. rewrite E. apply in_app_iff. now right. Qed.
Lemma ordinary_in ts : suffix ts W -> ordinary ts.
Proof. intro S. eapply ordinary_suffix; eassumption. Qed.
Lemma operand_inv {A} (f : str -> option A) ts r a r' e : suffix ts W -> string_with f ts = POk r a -> parenthesized expr_parse r = POk r' e -> consistent types e ->
  exists s, text_literal false ts s r /\ f s = Some a /\ in_parentheses types false r e r' /\ (In letter_i s -> exists c k, In (c, k) letter_classes /\ In c s).
Proof.
  intros S E1 E2 C. assert (S1 : suffix r ts) by (apply ssuffix_suffix; eapply strict_string_with; exact E1).
  apply parens_inv in E2 as (ts1 & r1 & -> & Dc & U); [|apply ordinary_in; eapply suffix_trans; [exact S1|exact S]|exact C].
  apply text_inv' in E1 as (s & L & F); [|now apply strings_in|intros (s & q & K); discriminate K].
  exists s. split; [exact L|]. split; [exact F|]. split.
  - exists ts1, r1. split; [reflexivity|]. split; [exact Dc|]. split; [exact U|discriminate].
  - intro I. destruct S as (q & Eq). destruct (proj2 T q ts s _ Eq L) as (_ & K). apply K; [now exists ts1|exact I].
Qed.
Lemma out_ok ts r x : suffix ts W -> out_parser ts = POk r x -> ~ a_string (uncomment r) -> consistent types (snd x) -> output_operand types false ts x r.
Proof.
  intros S E _ C. unfold out_parser in E. apply pmap_inv in E as (((d & k) & e) & E & ->). cbn [fst snd] in *.
  unfold ppair in E. apply bind_inv in E as (r1 & a & E1 & E). apply bind_inv in E as (r2 & e' & E2 & E). injection E as <- -> ->.
  destruct (operand_inv _ _ _ _ _ _ S E1 E2 C) as (s & L & F & Pa & I). apply output_inv in F as (w & [[-> ->]|[-> ->]] & F).
  - eapply oo_write; [exact L| |exact Pa]. apply constraint_inv; [exact F|]. intro Iw. destruct (I (or_intror Iw)) as (c & k' & Ik & [<- | Ic]); [|eauto].
    exfalso. clear - Ik. cbn in Ik. repeat destruct Ik as [Ik|Ik]; try discriminate Ik. exact Ik.
  - eapply oo_both; [exact L| |exact Pa]. apply constraint_inv; [exact F|]. intro Iw. destruct (I (or_intror Iw)) as (c & k' & Ik & [<- | Ic]); [|eauto].
    exfalso. clear - Ik. cbn in Ik. repeat destruct Ik as [Ik|Ik]; try discriminate Ik. exact Ik.
Qed.
Lemma in_ok ts r x : suffix ts W -> in_parser ts = POk r x -> ~ a_string (uncomment r) -> consistent types (snd x) -> input_operand types false ts x r.
Proof.
  intros S E _ C. unfold in_parser, ppair in E. apply bind_inv in E as (r1 & k & E1 & E). apply bind_inv in E as (r2 & e & E2 & E). injection E as <- <-. cbn [fst snd] in *.
  destruct (operand_inv _ _ _ _ _ _ S E1 E2 C) as (s & L & F & Pa & I). eapply io; [exact L| |exact Pa]. now apply constraint_inv.
Qed.
Lemma clobber_ok ts r s : suffix ts W -> string_with Some ts = POk r s -> ~ a_string (uncomment r) -> True -> text_literal false ts s r.
Proof. intros S E N _. apply text_inv' in E as (s' & L & F); [|now apply strings_in|exact N]. now injection F as ->. Qed.

Theorem asm_ok ts r a : suffix ts W -> asm_parse ts = POk r a -> consistent_asm types a -> assembly types false ts a r.
Proof.
  intros S E (Co & Ci). unfold asm_parse, preceded at 1 in E. apply bind_inv in E as (r1 & x & E1 & E).
  unfold terminated in E1. apply bind_inv in E1 as (r0 & k & E0 & E1). apply bind_inv in E1 as (r1' & qq & E1 & K). injection K as -> _.
  assert (Hk : exists k, In k asm_keywords /\ ts = kw k :: r0).
  { apply palts_inv in E0 as (p & Hp & E0). cbn in Hp. repeat destruct Hp as [<- | Hp]; try contradiction; apply id_inv in E0; eexists; (split; [|exact E0]); cbn; auto. }
  assert (Hq : exists q, qualifiers false q /\ r0 = q ++ r1).
  { unfold popt in E1. destruct (palts _ r0) as [r2 y| |] eqn:E2; try discriminate.
    - injection E1 as -> _. apply palts_inv in E2 as (p & Hp & E2). cbn in Hp.
      repeat destruct Hp as [<- | Hp]; try contradiction; apply id_inv in E2; subst r0; eexists [_]; (split; [|reflexivity]); (split; [|discriminate]); repeat constructor; cbn; tauto.
    - injection E1 as -> _. exists []. split; [|reflexivity]. split; [constructor|discriminate]. }
  clear E0 E1. destruct Hk as (k0 & Hk & ->), Hq as (q0 & Hq & ->).
  apply paren_inv in E as (t0 & r9 & -> & E & U9).
  assert (S0 : suffix (uncomment t0) W).
  { eapply suffix_trans; [apply suffix_uncomment|]. eapply suffix_trans; [|exact S]. exists (kw k0 :: q0 ++ [P "("]). cbn. now rewrite <- app_assoc. }
  apply bind_inv in E as (r2 & t & E1 & E). apply bind_inv in E as (r3 & outs & E2 & E). apply bind_inv in E as (r4 & ins & E3 & E).
  apply bind_inv in E as (r5 & cl & E4 & E). injection E as <- <-. cbn [asm_outputs asm_inputs] in *.
  apply delim_inv in E1 as (r2' & E1 & ->). rewrite uncomment_twice in E1.
  assert (S2 : suffix r2' W) by (eapply suffix_trans; [apply ssuffix_suffix; eapply strict_string_with; exact E1|exact S0]).
  assert (S2' : suffix (uncomment r2') W) by (eapply suffix_trans; [apply suffix_uncomment|exact S2]).
  change (colon_section (separated_list0 (delimited meta (punct ",") meta) out_parser) (uncomment r2') = POk r3 outs) in E2.
  change (colon_section (separated_list0 (delimited meta (punct ",") meta) in_parser) r3 = POk r4 ins) in E3.
  eapply section_inv with (W := W) in E2 as (S3 & E2); [|exact comma_is|intros ? ? ? K; apply ssuffix_suffix; eapply out_strict; exact K|exact out_ok|exact S2'].
  assert (SW3 : suffix r3 W) by (eapply suffix_trans; [exact S3|exact S2']).
  eapply section_inv with (W := W) in E3 as (S4 & E3); [|exact comma_is|intros ? ? ? K; apply ssuffix_suffix; eapply in_strict; exact K|exact in_ok|exact SW3].
  assert (SW4 : suffix r4 W) by (eapply suffix_trans; [exact S4|exact SW3]).
  eapply section_inv with (W := W) in E4 as (S5 & E4); [|exact comma_is'|intros ? ? ? K; apply ssuffix_suffix; eapply strict_string_with; exact K|exact clobber_ok|exact SW4].
  assert (N5 : ~ a_string (uncomment r5)) by (intros (s & q & K); rewrite U9 in K; discriminate K).
  assert (N4 : ~ a_string (uncomment r4)).
  { destruct E4 as [(-> & _)|(q & Q & _)]; [exact N5|]. intros (s & q' & K). rewrite Q in K. discriminate K. }
  assert (N3 : ~ a_string (uncomment r3)).
  { destruct E3 as [(-> & _)|(q & Q & _)]; [exact N4|]. intros (s & q' & K). rewrite Q in K. discriminate K. }
  assert (N2 : ~ a_string (uncomment r2')).
  { destruct E2 as [(-> & _)|(q & Q & _)]; [now rewrite uncomment_twice in N3|]. intros (s & q' & K). rewrite uncomment_twice in Q. rewrite Q in K. discriminate K. }
  apply text_inv' in E1 as (s & L & F); [|now apply strings_in|exact N2].
  destruct (C48_template_partial _ _ F) as (ps & Hp & Ht & Hs & Hr).
  assert (Rb : run_braces false ps).
  { destruct S0 as (q & Eq). destruct (proj2 T q _ s _ Eq L) as (K & _). now apply K. }
  destruct (Hr Rb) as (out & Ho & Hl).
  assert (Sec : forall A (item : list mtoken -> A -> list mtoken -> Prop) ts ts' r (l : list A) (good : A -> Prop), uncomment ts' = uncomment ts ->
    (r = ts /\ l = [] /\ (forall q, uncomment ts <> P ":" :: q)) \/ (exists q, uncomment ts = P ":" :: q /\ (~ a_string (uncomment r) -> all good l -> items false item (uncomment q) l r)) ->
    ~ a_string (uncomment r) -> all good l -> exists r', uncomment r' = uncomment r /\ section false item ts' l r').
  { intros A item ts ts' r' l good Eu [(-> & -> & Nq)|(q & Q & K)] N G.
    - exists ts'. split; [exact Eu|]. apply se_absent. now rewrite Eu.
    - exists r'. split; [reflexivity|]. eapply se_present; [rewrite Eu; exact Q|now apply K]. }
  destruct (Sec _ _ _ r2' _ _ _ (eq_sym (uncomment_twice r2')) E2 N3 Co) as (r3' & U3 & Q3).
  destruct (Sec _ _ _ r3' _ _ _ U3 E3 N4 Ci) as (r4' & U4 & Q4).
  destruct (Sec _ _ _ r4' _ _ _ U4 E4 N5) as (r5' & U5 & Q5); [clear; induction cl; cbn; auto|].
  eapply assembly_intro; [exact Hk|exact Hq|exact L| |exact Q3|exact Q4|exact Q5|now rewrite U5].
  exists ps, out. repeat split; auto; discriminate.
Qed.
End Text.
End A.
