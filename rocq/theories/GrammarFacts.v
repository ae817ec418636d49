(** The expression parser follows the C grammar of SpecGrammar.v. *)
From Verif Require Import Base Utf Lex LexFloat Token Ast Nom NomFacts ParseTok ParseExpr ParseStmt ParseFacts StrFacts SpecType PropType SpecInt DecFacts SpecString SpecStrRun UtfFacts PropStrRun PropTypeText SpecGrammar.
From Coq Require Import String List Lia PeanoNat Bool.
Import ListNotations.
Local Open Scope string_scope.
Local Open Scope list_scope.

(** ** Comments and punctuators *)

Lemma uncomment_split ts : exists cs, ts = map MComment cs ++ uncomment ts.
Proof.
  induction ts as [|t ts (cs & IH)]; [now exists []|].
  destruct t as [?|?|?|?|?|c]; try (now exists []). exists (c :: cs). cbn. now f_equal.
Qed.
Lemma uncomment_head ts c r : uncomment ts <> MComment c :: r.
Proof. induction ts as [|t ts IH]; [discriminate|]. destruct t; try discriminate. exact IH. Qed.
Lemma meta_uncomment ts : exists cs, meta ts = POk (uncomment ts) cs.
Proof.
  destruct (uncomment_split ts) as (cs & E). exists cs. rewrite E at 1. apply meta_comments. intros c r. apply uncomment_head.
Qed.
Lemma uncomment_idem ts : uncomment (uncomment ts) = uncomment ts.
Proof. induction ts as [|t ts IH]; [reflexivity|]. destruct t; try reflexivity. exact IH. Qed.
Lemma uncomment_length ts : length (uncomment ts) <= length ts.
Proof. induction ts as [|t ts IH]; [auto|]. destruct t; auto. cbn in *. lia. Qed.
Lemma uncomment_P ts p r : uncomment ts = P p :: r -> uncomment (uncomment ts) = P p :: r.
Proof. intros E. now rewrite uncomment_idem. Qed.

Lemma punct_hit p r : punct p (P p :: r) = POk r (st p).
Proof. unfold punct, pmap_opt, pbind, P. cbn [take_one]. now rewrite str_eqb_refl. Qed.
Lemma punct_miss p ts : (forall r, ts <> P p :: r) -> punct p ts = PErr.
Proof.
  intros Hn. destruct ts as [|[i|x|x|l|q|c] ts]; try reflexivity.
  unfold punct, pmap_opt, pbind. cbn [take_one]. destruct (str_eqb (st p) q) eqn:E; [|reflexivity].
  apply str_eqb_eq in E. subst q. exfalso. now apply (Hn ts).
Qed.

(** A choice of punctuators. *)
Definition ops {A} (tbl : list (string * A)) : parser A := palts (map (fun x => pvalue (snd x) (punct (fst x))) tbl).
Definition head_in (l : list string) (ts : list mtoken) : Prop := match ts with MPunct p :: _ => In p (map st l) | _ => False end.
Lemma ops_miss {A} (tbl : list (string * A)) ts : ~ head_in (map fst tbl) ts -> ops tbl ts = PErr.
Proof.
  induction tbl as [|[p o] tbl IH]; intros Hn; [reflexivity|].
  unfold ops. cbn [map palts fst snd]. unfold palt, pvalue, pbind at 1.
  rewrite punct_miss.
  - apply IH. intros Hi. apply Hn. destruct ts as [|[] ts]; cbn in *; auto.
  - intros r ->. apply Hn. cbn. now left.
Qed.
Lemma ops_hit {A} (tbl : list (string * A)) p o r :
  In (p, o) tbl -> NoDup (map st (map fst tbl)) -> ops tbl (P p :: r) = POk r o.
Proof.
  induction tbl as [|[q o'] tbl IH]; intros Hi Hd; [contradiction|].
  unfold ops. cbn [map palts fst snd]. unfold palt, pvalue, pbind at 1. cbn [map fst] in Hd. inversion Hd as [|? ? Hq Hd']; subst.
  destruct Hi as [E|Hi].
  - injection E as <- <-. now rewrite punct_hit.
  - rewrite punct_miss; [now apply IH|]. intros r' E. injection E as E. apply Hq. rewrite <- E.
    change (st p) with (st (fst (p, o))). apply in_map. now apply in_map.
Qed.

(** ** Repetition *)

Inductive steps {A B} (p : parser B) (f : A -> B -> A) (a : A) (ts : list mtoken) : A -> list mtoken -> Prop :=
| s_refl : steps p f a ts a ts
| s_snoc a' ts' b r : steps p f a ts a' ts' -> p ts' = POk r b -> steps p f a ts (f a' b) r.

Lemma fold_fuel {A B} (p : parser B) (f : A -> B -> A) : strict p -> forall n m a ts, length ts < n -> length ts < m ->
  fold_many0_n n p f a ts = fold_many0_n m p f a ts.
Proof.
  intros Hs. induction n as [|n IH]; intros m a ts Hn Hm; [lia|]. destruct m as [|m]; [lia|]. cbn [fold_many0_n].
  destruct (p ts) as [r b| |] eqn:E; auto. apply Hs in E. apply ssuffix_length in E.
  destruct (Nat.eqb (length r) (length ts)); auto. apply IH; lia.
Qed.
Lemma fold_step {A B} (p : parser B) (f : A -> B -> A) a ts b r : strict p -> p ts = POk r b ->
  fold_many0 p f a ts = fold_many0 p f (f a b) r.
Proof.
  intros Hs E. pose proof (ssuffix_length _ _ (Hs _ _ _ E)) as L.
  transitivity (fold_many0_n (length ts) p f (f a b) r); [|unfold fold_many0; apply fold_fuel; auto; lia].
  unfold fold_many0. cbn [fold_many0_n]. rewrite E. now rewrite (proj2 (Nat.eqb_neq _ _)) by lia.
Qed.
Lemma fold_stop {A B} (p : parser B) (f : A -> B -> A) a ts : p ts = PErr -> fold_many0 p f a ts = POk ts a.
Proof. intros E. unfold fold_many0. cbn [fold_many0_n]. now rewrite E. Qed.
Lemma steps_fold {A B} (p : parser B) (f : A -> B -> A) a ts a' ts' : strict p -> steps p f a ts a' ts' ->
  fold_many0 p f a ts = fold_many0 p f a' ts'.
Proof. intros Hs S. induction S as [|a' ts' b r S IH E]; [reflexivity|]. rewrite IH. now apply fold_step. Qed.
Lemma steps_end {A B} (p : parser B) (f : A -> B -> A) a ts a' ts' : strict p -> steps p f a ts a' ts' -> p ts' = PErr ->
  fold_many0 p f a ts = POk ts' a'.
Proof. intros Hs S E. rewrite (steps_fold _ _ _ _ _ _ Hs S). now apply fold_stop. Qed.

(** ** What may follow an expression *)

Definition plvl (l : level) : lvl :=
  match l with
  | Primary => LFactor | Postfix => LPrec1 | Unary | Cast => LPrec2 | Multiplicative => LPrec3 | Additive => LPrec4
  | Shift => LPrec5 | Relational => LPrec6 | Equality => LPrec7 | And => LPrec8 | Xor => LPrec9
  | Or | LogicalAnd | LogicalOr => LPrec10 | Conditional => LPrec13 | Assignment | Comma => LPrec14
  end.

(** The punctuators that continue an expression of a level. *)
Definition heads0 : list string := ["#"; "##"].
Definition heads1 := ["("; "["; "."; "->"; "++"; "--"] ++ heads0.
Definition heads (l : level) : list string :=
  let b := fun l => map fst (binary_operators l) in
  let h3 := b Multiplicative ++ heads1 in
  let h4 := b Additive ++ h3 in
  let h5 := b Shift ++ h4 in
  let h6 := b Relational ++ h5 in
  let h7 := b Equality ++ h6 in
  let h8 := b And ++ h7 in
  let h9 := b Xor ++ h8 in
  let h10 := b Or ++ h9 in
  let h13 := "?" :: h10 in
  let h14 := map fst assignment_operators ++ h13 in
  match l with
  | Primary => heads0 | Postfix | Unary | Cast => heads1
  | Multiplicative => h3 | Additive => h4 | Shift => h5 | Relational => h6 | Equality => h7 | And => h8 | Xor => h9
  | Or | LogicalAnd | LogicalOr => h10 | Conditional => h13 | Assignment | Comma => h14
  end.
Definition follow (l : level) (r : list mtoken) : Prop :=
  match uncomment r with
  | MIdent _ :: _ | MArg _ :: _ | MLit _ :: _ => False
  | MPunct p :: _ => ~ In p (map st (heads l))
  | _ => True
  end.

Lemma follow_incl l l' r : incl (heads l') (heads l) -> follow l r -> follow l' r.
Proof.
  intros Hi. unfold follow. destruct (uncomment r) as [|[] ?]; auto. intros Hn Hp. apply Hn.
  apply in_map_iff in Hp as (x & <- & Hx). apply in_map. now apply Hi.
Qed.
Lemma follow_tighter l l' r : tighter l = Some l' -> follow l r -> follow l' r.
Proof.
  intros T. apply follow_incl. intros x Hx.
  destruct l; cbn in T; try discriminate; injection T as <-; cbv in Hx |- *; tauto.
Qed.
Lemma follow_head l r ps : incl ps (heads l) -> follow l r -> ~ head_in ps (uncomment r).
Proof.
  intros Hi. unfold follow, head_in. destruct (uncomment r) as [|[] ?]; auto. intros Hn Hp. apply Hn.
  apply in_map_iff in Hp as (x & <- & Hx). apply in_map. now apply Hi.
Qed.
Lemma follow_nil l : follow l [].
Proof. exact I. Qed.

Ltac nin := vm_compute; intros HH; repeat (destruct HH as [HH|HH]; [discriminate|]); exact HH.
Ltac follows E := unfold follow; rewrite E; cbn [P]; nin.
Ltac tincl := let x := fresh in let Hx := fresh in intros x Hx; cbv in Hx |- *; tauto.

Section G.
Context `{Unicode}.

Ltac bind := cbv beta iota delta [pbind pmap pret pvalue terminated preceded delimited ppair].

(** [delimited meta op meta]. *)
Lemma delim_hit {A} (p : parser A) r1 r2 a : p (uncomment r1) = POk r2 a -> delimited meta p meta r1 = POk (uncomment r2) a.
Proof.
  intros E. unfold delimited, pbind. destruct (meta_uncomment r1) as (c1 & ->). rewrite E.
  destruct (meta_uncomment r2) as (c2 & ->). reflexivity.
Qed.
Lemma delim_miss {A} (p : parser A) r1 : p (uncomment r1) = PErr -> delimited meta p meta r1 = PErr.
Proof. intros E. unfold delimited, pbind. destruct (meta_uncomment r1) as (c1 & ->). now rewrite E. Qed.

(** ** What starts an expression *)

Lemma not_in_cons (p q : str) l : ~ In p (q :: l) -> str_eqb q p = false /\ ~ In p l.
Proof.
  intros Hn. split; [|intros Hi; apply Hn; now right].
  destruct (str_eqb q p) eqn:E; auto. apply str_eqb_eq in E. subst. exfalso. apply Hn. now left.
Qed.
Lemma punct_other q p r : str_eqb (st q) p = false -> punct q (MPunct p :: r) = PErr.
Proof. intros E. unfold punct, pmap_opt, pbind. cbn [take_one]. now rewrite E. Qed.

Lemma factor_fails ts : ~ starts_operand ts -> pe LFactor ts = PErr.
Proof.
  intros Hn. rewrite pe_eq. cbn [expr_step].
  destruct ts as [|[i|x|x|l|p|c] ts]; cbn [starts_operand] in Hn; try (now exfalso; apply Hn); try reflexivity.
  cbn [map] in Hn.
  apply not_in_cons in Hn as (E1 & Hn). apply not_in_cons in Hn as (E2 & Hn).
  unfold parse_factor, parse_concat_string, concat_part, stringify_parse, parenthesized. cbn [palts].
  unfold palt, delimited, preceded, terminated, ppair, pmap, pbind.
  rewrite !(punct_other _ _ _ E1), !(punct_other _ _ _ E2). reflexivity.
Qed.
Lemma prec1_fails ts : ~ starts_operand ts -> pe LPrec1 ts = PErr.
Proof. intros Hn. rewrite pe_eq. cbn [expr_step]. unfold parse_term_prec1, pbind. now rewrite factor_fails. Qed.
Lemma paren_fails {A} (p : parser A) ts : (forall r, ts <> P "(" :: r) -> parenthesized p ts = PErr.
Proof. intros Hn. unfold parenthesized, delimited, ppair, pbind. now rewrite punct_miss. Qed.
Definition prefix_operators : list (string * unop) :=
  [("*", UDeref); ("&", UAddrOf); ("++", UInc); ("--", UDec); ("+", UPlus); ("-", UMinus); ("!", UNot); ("~", UComp)].
Lemma prefix_ops : parse_prefix_op = ops prefix_operators.
Proof. reflexivity. Qed.
Lemma prec2_eq ts : pe LPrec2 ts = parse_term_prec2 pe ts.
Proof. exact (pe_eq LPrec2 ts). Qed.
Lemma prec2_fails ts : ~ starts_operand ts -> pe LPrec2 ts = PErr.
Proof.
  intros Hn. rewrite prec2_eq. unfold parse_term_prec2. cbn [palts]. unfold palt, pmap, ppair, terminated, pbind.
  rewrite paren_fails by (intros r ->; apply Hn; cbn; tauto). rewrite prefix_ops, ops_miss.
  - now rewrite prec1_fails.
  - intros Hi. apply Hn. destruct ts as [|[] ts]; cbn [head_in] in Hi; try contradiction. cbn in Hi |- *. tauto.
Qed.
Definition is_fold (l : level) : bool :=
  match l with Multiplicative | Additive | Shift | Relational | Equality | And | Xor | Or => true | _ => false end.
Definition bin_parser (l : level) (l' : level) : parser (binop * expr) :=
  ppair (delimited meta (ops (binary_operators l)) meta) (pe (plvl l')).
Definition bin_fold (lhs : expr) (x : binop * expr) : expr := EBinary lhs (fst x) (snd x).
Lemma fold_eq l l' ts : is_fold l = true -> tighter l = Some l' ->
  pe (plvl l) ts = (t <~ pe (plvl l') ;; fold_many0 (bin_parser l l') bin_fold t) ts.
Proof. intros F T. destruct l; try discriminate; injection T as <-; cbn [plvl]; rewrite pe_eq; reflexivity. Qed.
Lemma pe_fails l ts : ~ starts_operand ts -> pe (plvl l) ts = PErr.
Proof.
  intros Hn.
  assert (U : forall l l', is_fold l = true -> tighter l = Some l' -> pe (plvl l') ts = PErr -> pe (plvl l) ts = PErr).
  { intros k k' F T E. rewrite (fold_eq k k') by auto. unfold pbind. now rewrite E. }
  assert (E10 : pe LPrec10 ts = PErr).
  { apply (U Or Xor); auto. apply (U Xor And); auto. apply (U And Equality); auto. apply (U Equality Relational); auto.
    apply (U Relational Shift); auto. apply (U Shift Additive); auto. apply (U Additive Multiplicative); auto.
    apply (U Multiplicative Cast); auto. now apply prec2_fails. }
  assert (E13 : pe LPrec13 ts = PErr) by (rewrite pe_eq; cbn [expr_step]; unfold parse_term_prec13, pbind; now rewrite E10).
  assert (E14 : pe LPrec14 ts = PErr) by (rewrite pe_eq; cbn [expr_step]; unfold parse_term_prec14, pbind; now rewrite E13).
  assert (E2 := prec2_fails _ Hn).
  destruct l; cbn [plvl]; auto using factor_fails, prec1_fails.
  - now apply (U Multiplicative Cast).
  - apply (U Additive Multiplicative); auto. now apply (U Multiplicative Cast).
  - apply (U Shift Additive); auto. apply (U Additive Multiplicative); auto. now apply (U Multiplicative Cast).
  - apply (U Relational Shift); auto. apply (U Shift Additive); auto. apply (U Additive Multiplicative); auto. now apply (U Multiplicative Cast).
  - apply (U Equality Relational); auto. apply (U Relational Shift); auto. apply (U Shift Additive); auto.
    apply (U Additive Multiplicative); auto. now apply (U Multiplicative Cast).
  - apply (U And Equality); auto. apply (U Equality Relational); auto. apply (U Relational Shift); auto. apply (U Shift Additive); auto.
    apply (U Additive Multiplicative); auto. now apply (U Multiplicative Cast).
  - apply (U Xor And); auto. apply (U And Equality); auto. apply (U Equality Relational); auto. apply (U Relational Shift); auto.
    apply (U Shift Additive); auto. apply (U Additive Multiplicative); auto. now apply (U Multiplicative Cast).
Qed.

(** ** Parentheses that are not casts *)

Variable types : str -> bool.
Notation D := (derives types true).

Scheme derives_mut := Minimality for derives Sort Prop
  with arguments_mut := Minimality for arguments Sort Prop
  with more_arguments_mut := Minimality for more_arguments Sort Prop.

(** The beginning of an expression, as far as a type name could reach into it. *)
Inductive opens : list mtoken -> Prop :=
| o_star ts : opens (uncomment ts) -> opens (P "*" :: ts)
| o_punct p ts : p <> st "*" -> p <> st ")" -> opens (MPunct p :: ts)
| o_lit l ts : opens (MLit l :: ts)
| o_arg i ts : opens (MArg i :: ts)
| o_ident x ts : ~ In x (map st (type_keywords ++ ["struct"])) -> opens (MIdent x :: ts).

Lemma name_opens x : is_name types x -> ~ In x (map st (type_keywords ++ ["struct"])).
Proof. intros [Hk _] Hi. apply Hk. unfold keywords. rewrite map_app, in_app_iff in Hi |- *. cbn in Hi |- *. tauto. Qed.

Lemma names_head ts n r : names ts n r -> exists t r1, ts = t :: r1 /\ ((exists i, t = MArg i) \/ (exists x, t = MIdent x)).
Proof.
  intros [i q|x q|ts0 l q Hp]; [exists (MArg i), q; eauto|exists (MIdent x), q; eauto|].
  induction Hp as [t p r1 r2 t' p' q Ct Cn E1 E2 Ct'|ts1 l r1 r2 t p q Hp IH E1 E2 Ct]; [|exact IH].
  exists t, r1. split; [reflexivity|]. destruct Ct; eauto. now destruct (Cn s).
Qed.
Lemma names_opens ts n r : names ts n r -> begins types ts -> opens ts.
Proof.
  intros Hn B. destruct (names_head _ _ _ Hn) as (t & r1 & -> & [[i ->]|[x ->]]); [apply o_arg|].
  apply o_ident, name_opens. now apply (B x r1).
Qed.
Lemma run_head b ts s r : string_run b ts s r -> exists s' r', ts = MLit (LString s') :: r'.
Proof. induction 1; eauto. Qed.
Lemma part_opens b ts e r : string_part types b ts e r -> opens ts.
Proof.
  intros [ts0 s r0 Hr|i ts0 r0 E|ts0 n r0 Hn B Hp].
  - destruct (run_head _ _ _ _ Hr) as (s' & r' & ->). apply o_lit.
  - apply o_punct; vm_compute; discriminate.
  - eapply names_opens; eauto.
Qed.
Lemma parts_opens b ts l r : string_parts types b ts l r -> opens ts.
Proof. induction 1; eauto using part_opens. Qed.

Lemma derives_opens l ts e r : D l ts e r -> opens ts.
Proof.
  intros d. revert l ts e r d.
  refine (derives_mut types true (fun _ ts _ _ => opens ts) (fun _ _ _ => True) (fun _ _ _ => True) _ _ _ _ _ _ _ _ _ _ _ _ _ _ _ _ _ _ _ _ _ _ _ _ _);
  intros; auto; try (apply o_punct; vm_compute; discriminate).
  - apply o_ident. now apply name_opens.
  - apply o_arg.
  - eapply names_opens; [apply na_pasted; eassumption|assumption].
  - apply o_lit.
  - match goal with Hr : string_run _ _ _ _ |- _ => destruct (run_head _ _ _ _ Hr) as (s' & r' & ->) end. apply o_lit.
  - eapply parts_opens; eassumption.
  - match goal with Hi : In _ increments |- _ => cbn in Hi; destruct Hi as [E|[E|[]]]; injection E as <- <- end; apply o_punct; vm_compute; discriminate.
  - match goal with Hi : In _ unary_operators |- _ => cbn in Hi; repeat destruct Hi as [E|Hi]; try contradiction; injection E as <- <- end;
    try (apply o_punct; vm_compute; discriminate). now apply o_star.
  - apply o_ident. vm_compute. intros HH. repeat (destruct HH as [HH|HH]; [discriminate|]). exact HH.
Qed.

Definition named (t : mtoken) : Prop := match t with MIdent _ | MArg _ => True | _ => False end.
(** What comes after a name that starts an expression: nothing, an operator, or
    more parts of a string. *)
Definition after_name (ts1 : list mtoken) : Prop := opens (uncomment ts1) /\ (forall q, uncomment ts1 <> P "##" :: q).
Lemma after_op p r1 r2 : uncomment r1 = P p :: r2 -> st p <> st ")" -> st p <> st "##" -> (st p = st "*" -> opens (uncomment r2)) -> after_name r1.
Proof.
  intros E H1 H2 H3. split.
  - rewrite E. destruct (str_eqb (st p) (st "*")) eqn:Es.
    + apply str_eqb_eq in Es. unfold P. rewrite Es. apply o_star. now apply H3.
    + apply o_punct; [|exact H1]. intros K. rewrite K, str_eqb_refl in Es. discriminate.
  - intros q K. rewrite E in K. injection K as K _. contradiction.
Qed.
Definition name_first (ts : list mtoken) : Prop := exists t ts1, ts = t :: ts1 /\ named t.
Lemma part_after b r1 e r : string_part types b (uncomment r1) e r -> after_name r1.
Proof.
  intros Hp. split; [eapply part_opens; eassumption|]. intros q E.
  inversion Hp as [ts0 s r0 Hr Q1|i ts0 r0 Q0 Q1|ts0 n r0 Hn B Hx Q1]; subst.
  - destruct (run_head _ _ _ _ Hr) as (s' & r' & K). rewrite K in E. discriminate.
  - rewrite <- Q1 in E. discriminate.
  - destruct (names_head _ _ _ Hn) as (t & q1 & K & [[i ->]|[x ->]]); rewrite K in E; discriminate.
Qed.
Lemma parts_named b ts l r : string_parts types b ts l r -> name_first ts -> exists n r0, names ts n r0 /\ after_name r0.
Proof.
  induction 1 as [ts a r1 c r Ha Hc Hl|ts l a r1 c r Hs IH Hc Hl]; [|exact IH].
  intros (t & ts1 & -> & N). inversion Ha as [ts0 s r0 Hr Q1|i ts0 r0 Q0 Q1|ts0 n r0 Hn B Hx Q1]; subst; try contradiction.
  - destruct (run_head _ _ _ _ Hr) as (s' & r' & K). injection K as -> _. contradiction.
  - exists n, r1. split; [exact Hn|]. eapply part_after; eassumption.
Qed.

Lemma derives_named l ts e r : D l ts e r -> name_first ts -> exists n r0, names ts n r0 /\ ((bare e /\ r0 = r) \/ after_name r0).
Proof.
  intros d. revert l ts e r d.
  assert (O : forall l ts e r p r2 e', D l ts e r -> uncomment r = P p :: r2 -> st p <> st ")" -> st p <> st "##" -> (st p = st "*" -> opens (uncomment r2)) ->
    (name_first ts -> exists n r0, names ts n r0 /\ ((bare e /\ r0 = r) \/ after_name r0)) ->
    forall r', name_first ts -> exists n r0, names ts n r0 /\ ((bare e' /\ r0 = r') \/ after_name r0)).
  { intros l ts e r p r2 e' _ E P1 P2 P3 Ht r' F. destruct (Ht F) as (n & r0 & Hn & [[_ ->]|A]); exists n; eexists; (split; [exact Hn|right]); [eapply after_op; eassumption|exact A]. }
  refine (derives_mut types true (fun _ ts e r => name_first ts -> exists n r0, names ts n r0 /\ ((bare e /\ r0 = r) \/ after_name r0))
    (fun _ _ _ => True) (fun _ _ _ => True) _ _ _ _ _ _ _ _ _ _ _ _ _ _ _ _ _ _ _ _ _ _ _ _ _);
  intros; auto;
  try (match goal with F : name_first (_ :: _) |- _ => let t := fresh in let K := fresh in destruct F as (t & ? & K & ?); injection K as <- <-; contradiction end);
  try (match goal with F : name_first _ |- _ => try (eapply O; [eassumption|eassumption|vm_compute; discriminate|vm_compute; discriminate|vm_compute; discriminate|eassumption|exact F]) end).
  - eexists _, _. split; [apply na_plain|]. left. split; [now eexists|reflexivity].
  - eexists _, _. split; [apply na_arg|]. left. split; [now eexists|reflexivity].
  - eexists _, _. split; [apply na_pasted; eassumption|]. left. split; [now eexists|reflexivity].
  - match goal with F : name_first _, Hr : string_run _ _ _ _ |- _ => destruct (run_head _ _ _ _ Hr) as (s' & r' & ->); destruct F as (t & q & K & N); injection K as <- <-; contradiction end.
  - match goal with F : name_first _, Hr : string_parts _ _ _ _ _ |- _ => destruct (parts_named _ _ _ _ Hr F) as (n & r0 & Hn & A) end. eauto.
  - match goal with Hi : In _ postfix_increments, F : name_first _ |- _ => cbn in Hi; destruct Hi as [E|[E|[]]]; injection E as <- <-;
      (eapply O; [eassumption|eassumption|vm_compute; discriminate|vm_compute; discriminate|vm_compute; discriminate|eassumption|exact F]) end.
  - eexists _, _. split; [apply na_plain|]. right. eapply after_op; eauto; vm_compute; discriminate.
  - match goal with Hd : derives _ _ _ (uncomment ?r2) _ _ |- _ => pose proof (derives_opens _ _ _ _ Hd) end.
    assert (Hp : st p <> st ")" /\ st p <> st "##").
    { destruct l; cbn in *; repeat match goal with Hi : _ \/ _ |- _ => destruct Hi as [Hi|Hi] | Hi : False |- _ => destruct Hi
        | Hi : (_, _) = (_, _) |- _ => injection Hi as <- <- end; split; vm_compute; discriminate. }
    eapply O; [eassumption|eassumption|apply Hp|apply Hp|auto|eassumption|assumption].
  - assert (Hp : st p <> st ")" /\ st p <> st "##" /\ st p <> st "*").
    { unfold assignment_operators in *; cbn in *; repeat match goal with Hi : _ \/ _ |- _ => destruct Hi as [Hi|Hi] | Hi : False |- _ => destruct Hi
        | Hi : (_, _) = (_, _) |- _ => injection Hi as <- <- end; repeat split; vm_compute; discriminate. }
    destruct Hp as (? & ? & ?). eapply O; [eassumption|eassumption|assumption|assumption|contradiction|eassumption|assumption].
Qed.

(** Type names that start with an ordinary name. *)
Lemma type_punct p ts : type_parse (MPunct p :: ts) = PErr.
Proof. reflexivity. Qed.
Lemma type_lit l ts : type_parse (MLit l :: ts) = PErr.
Proof. reflexivity. Qed.

Lemma palt_err {A} (p q : parser A) ts : p ts = PErr -> palt p q ts = q ts.
Proof. intros E. unfold palt. now rewrite E. Qed.
Definition ty_fold (acc : ctype) (q : option tyqual) : ctype := ty_qualify_opt (TyPtr acc) q.
Lemma cv_not_ident ts : (forall x r, ts = MIdent x :: r -> ~ In x (map st type_keywords)) -> popt const_volatile_qualifier ts = POk ts None.
Proof.
  intros Hn. change ts with (quals_tokens QNone ++ ts) at 1. apply cv_tokens.
  all: destruct ts as [|[i|x|x|l|p|c] ts]; try reflexivity; unfold keyword, id, pmap_opt, pbind; cbn [take_one];
    destruct (str_eqb x (st _)) eqn:E; [|reflexivity]; apply str_eqb_eq in E; subst x; exfalso; eapply Hn; [reflexivity|];
    apply in_map; cbn; tauto.
Qed.
Lemma kw_other k x ts : x <> st k -> keyword k (MIdent x :: ts) = PErr.
Proof.
  intros Hn. unfold keyword, id, pmap_opt, pbind. cbn [take_one]. destruct (str_eqb x (st k)) eqn:E; auto.
  apply str_eqb_eq in E. contradiction.
Qed.
Definition paste_parser : parser (list idpart) :=
  preceded (delimited meta (punct "##") meta)
    (palts [pmap (fun a => [IpArg a]) macro_arg;
            pmap (fun s => [IpPlain s]) macro_id;
            pmap_opt (fun t => match t with MIdCont s => split_id_cont s | _ => None end) take_one]).
Lemma paste_strict : strict paste_parser.
Proof. unfold paste_parser. nomr. Qed.
Lemma number_parts s v : SpecAsm.decimal s v -> (v < 2 ^ 64)%Z -> split_id_cont s = Some [IpInt v].
Proof.
  intros [Hn Hz] Hv. apply numeral10 in Hn as (Ne & F & V). unfold split_id_cont.
  assert (I1 : id_cont_item s = Some ([], IpInt v)).
  { unfold id_cont_item, unsuffixed_int. destruct s as [|c s]; [congruence|]. unfold char1.
    destruct (N.eqb_spec c 48) as [->|Hc].
    - destruct Hz as [Hz|Hz]; [|exfalso; apply Hz; reflexivity]. injection Hz as ->. subst v. reflexivity.
    - unfold nom_u64. assert (T : take_while is_digit (c :: s) = (c :: s, [])).
      { clear - F. revert F. generalize (c :: s). induction l as [|x l IH]; cbn [forallb take_while]; [reflexivity|].
        intros F. apply andb_prop in F as [-> F]. now rewrite IH. }
      unfold take_while1. rewrite T. cbn [omap oor fst snd]. rewrite <- V. rewrite (proj2 (Z.ltb_lt _ _) Hv). reflexivity. }
  destruct s as [|c s]; [congruence|]. cbn [length many_items]. rewrite I1.
  destruct (length s); reflexivity.
Qed.
Lemma paste_reads r1 r2 t r p : uncomment r1 = P "##" :: r2 -> uncomment r2 = t :: r -> continues t p -> paste_parser r1 = POk r [p].
Proof.
  intros E1 E2 C. unfold paste_parser, preceded, pbind. rewrite (delim_hit (punct "##") r1 r2 (st "##")) by (rewrite E1; apply punct_hit).
  rewrite E2. destruct C as [i|x|s v D Hv]; try reflexivity.
  cbv [palts palt pmap pmap_opt macro_arg macro_id take_one pbind pfail pret]. now rewrite (number_parts s v D Hv).
Qed.
Definition first_name (t : mtoken) : ident_expr := match t with MIdent x => IPlain x | MArg i => IArg i | _ => IArg 0 end.
Lemma pasted_steps ts l r : pasted ts l r -> exists t r1, ts = t :: r1 /\ named t /\ steps paste_parser concat_ident (first_name t) r1 (IConcat l) r.
Proof.
  induction 1 as [t p r1 r2 t' p' r C Hn E1 E2 C'|ts l r1 r2 t p r Hp (t0 & q & -> & N & S) E1 E2 C].
  - exists t, r1. split; [reflexivity|]. split; [destruct C; try exact I; exact (Hn s eq_refl)|].
    assert (K : IConcat [p; p'] = concat_ident (first_name t) [p']) by (destruct C; try reflexivity; now destruct (Hn s)).
    rewrite K. eapply s_snoc; [apply s_refl|]. eapply paste_reads; eassumption.
  - exists t0, q. split; [reflexivity|]. split; [exact N|]. change (IConcat (l ++ [p])) with (concat_ident (IConcat l) [p]).
    eapply s_snoc; [exact S|]. eapply paste_reads; eassumption.
Qed.
Lemma concat_name ts n r : names ts n r -> (forall q, uncomment r <> P "##" :: q) -> parse_concat_ident ts = POk r n.
Proof.
  intros Hn Hq.
  assert (F : exists t r1, ts = t :: r1 /\ named t /\ steps paste_parser concat_ident (first_name t) r1 n r).
  { destruct Hn as [i r|x r|ts l r Hp]; [exists (MArg i), r|exists (MIdent x), r|exact (pasted_steps _ _ _ Hp)]; repeat split; apply s_refl. }
  destruct F as (t & r1 & -> & N & S). unfold parse_concat_ident. change (preceded _ _) with paste_parser.
  assert (K : paste_parser r = PErr).
  { unfold paste_parser, preceded, pbind. rewrite delim_miss; [reflexivity|]. apply punct_miss. exact Hq. }
  pose proof (steps_end _ _ _ _ _ _ paste_strict S K) as Q.
  destruct t; try contradiction; unfold pbind, palt, pmap, macro_arg, macro_id, pmap_opt, pbind, take_one, pret, pfail; exact Q.
Qed.
Lemma base_ident ts : (forall k, In k type_keywords -> keyword k ts = PErr) ->
  popt const_volatile_qualifier ts = POk ts None -> ty_base ts = ty_ident ts.
Proof.
  intros K C1.
  pose proof (K "void" ltac:(cbn; tauto)) as K1. pose proof (K "bool" ltac:(cbn; tauto)) as K2.
  pose proof (K "float" ltac:(cbn; tauto)) as K3. pose proof (K "double" ltac:(cbn; tauto)) as K4.
  pose proof (K "long" ltac:(cbn; tauto)) as K5. pose proof (K "short" ltac:(cbn; tauto)) as K6.
  pose proof (K "int" ltac:(cbn; tauto)) as K7. pose proof (K "char" ltac:(cbn; tauto)) as K8.
  pose proof (K "signed" ltac:(cbn; tauto)) as K9. pose proof (K "unsigned" ltac:(cbn; tauto)) as K10.
  unfold ty_base, int_ty.
  assert (S1 : ty_simple ts = PErr).
  { unfold ty_simple, pmap, ppair, pbind. rewrite C1. cbn [palts]. unfold palt, pvalue, pmap, terminated, ppair, pbind, popt at 1.
    rewrite K1, K2, K3, K5. cbv beta iota. rewrite C1. unfold pret. rewrite K4. reflexivity. }
  assert (O : forall (k : parser str), k ts = PErr -> popt k ts = POk ts None).
  { intros k Ek. unfold popt. now rewrite Ek. }
  assert (SG : int_signedness ts = PErr) by (unfold int_signedness, palt; rewrite K10, K9; reflexivity).
  assert (LE : int_length ts = PErr) by (unfold int_length, palt; rewrite K6, K5; reflexivity).
  assert (CI : palt (keyword "char") (keyword "int") ts = PErr) by (unfold palt; rewrite K8, K7; reflexivity).
  assert (S2 : int_ty_long_long ts = PErr).
  { unfold int_ty_long_long, pmap, pbind, permutation. cbn [map length perm_loop forallb fst andb perm_try].
    unfold pvalue, pbind, pret.
    repeat first [rewrite C1 | rewrite (O _ SG) | rewrite K5 | rewrite (O _ K7) | progress cbn [perm_try perm_loop forallb fst andb map length]]; reflexivity. }
  assert (S3 : int_ty_length ts = PErr).
  { unfold int_ty_length, pmap, pbind, permutation. cbn [map length perm_loop forallb fst andb perm_try].
    unfold pvalue, pbind, pret.
    repeat first [rewrite C1 | rewrite (O _ SG) | rewrite LE | rewrite (O _ K7) | progress cbn [perm_try perm_loop forallb fst andb map length]]; reflexivity. }
  assert (S4 : int_ty_plain ts = PErr).
  { unfold int_ty_plain, pmap, pbind, permutation. cbn [map length perm_loop forallb fst andb perm_try].
    unfold pvalue, pbind, pret.
    repeat first [rewrite C1 | rewrite (O _ SG) | rewrite CI | progress cbn [perm_try perm_loop forallb fst andb map length]]; reflexivity. }
  cbn [palts]. rewrite (palt_err _ _ _ S1).
  rewrite palt_err by (cbn [palts]; rewrite (palt_err _ _ _ S2), (palt_err _ _ _ S3), (palt_err _ _ _ S4); reflexivity).
  unfold palt. destruct (ty_ident ts); reflexivity.
Qed.
Lemma type_of_name' ts n r0 : (forall x r, ts = MIdent x :: r -> ~ In x (map st (type_keywords ++ ["struct"]))) -> names ts n r0 ->
  (forall r, uncomment r0 <> P "##" :: r) -> (forall x r, r0 = MIdent x :: r -> ~ In x (map st type_keywords)) ->
  type_parse ts = fold_many0 star_parser ty_fold (TyIdent n false) r0.
Proof.
  intros Hk N Hh Hn. unfold type_parse.
  assert (C1 : popt const_volatile_qualifier ts = POk ts None).
  { apply cv_not_ident. intros x r Ex. intros Hi. apply (Hk x r Ex). rewrite map_app, in_app_iff. now left. }
  assert (C2 : popt const_volatile_qualifier r0 = POk r0 None) by now apply cv_not_ident.
  assert (K : forall k, In k (type_keywords ++ ["struct"]) -> keyword k ts = PErr).
  { intros k Hi. destruct ts as [|[] ts]; try reflexivity. apply kw_other. intros ->. apply (Hk _ _ eq_refl). now apply in_map. }
  assert (B : ty_base ts = POk r0 (TyIdent n false)).
  { rewrite base_ident; [|intros k Hi; apply K; rewrite in_app_iff; now left|exact C1].
    unfold ty_ident, pbind. rewrite C1. unfold popt. rewrite (K "struct") by (cbn; tauto). now rewrite (concat_name _ _ _ N Hh). }
  unfold ppair, pbind. rewrite B, C2. reflexivity.
Qed.
Lemma opens_head ts x r : opens ts -> ts = MIdent x :: r -> ~ In x (map st type_keywords).
Proof. intros O ->. inversion O; subst. rewrite map_app, in_app_iff in *. tauto. Qed.
Lemma type_of_name ts n r0 : (forall x r, ts = MIdent x :: r -> ~ In x (map st (type_keywords ++ ["struct"]))) -> names ts n r0 ->
  after_name r0 -> type_parse ts = fold_many0 star_parser ty_fold (TyIdent n false) r0.
Proof.
  intros Hk N [O Hp]. apply type_of_name'; auto.
  intros x r ->. cbn in O. eapply opens_head; [exact O|reflexivity].
Qed.
Lemma type_of_struct x ts1 : (forall r, uncomment ts1 <> P "##" :: r) -> (forall x r, ts1 = MIdent x :: r -> ~ In x (map st type_keywords)) ->
  type_parse (kw "struct" :: MIdent x :: ts1) = fold_many0 star_parser ty_fold (TyIdent (IPlain x) true) ts1.
Proof.
  intros Hh Hn. unfold type_parse.
  assert (C1 : popt const_volatile_qualifier (kw "struct" :: MIdent x :: ts1) = POk (kw "struct" :: MIdent x :: ts1) None).
  { apply cv_not_ident. intros y r Ey. injection Ey as <- _. vm_compute. intros HH. repeat (destruct HH as [HH|HH]; [discriminate|]). exact HH. }
  assert (C2 : popt const_volatile_qualifier ts1 = POk ts1 None) by now apply cv_not_ident.
  assert (B : ty_base (kw "struct" :: MIdent x :: ts1) = POk ts1 (TyIdent (IPlain x) true)).
  { rewrite base_ident; [| |exact C1].
    - unfold ty_ident, pbind. rewrite C1. unfold popt. rewrite kw_hit. now rewrite (concat_name _ _ _ (na_plain x ts1) Hh).
    - intros k Hi. apply kw_miss. cbn in Hi. repeat destruct Hi as [<-|Hi]; try reflexivity. contradiction. }
  unfold ppair, pbind. rewrite B, C2. reflexivity.
Qed.
Lemma star_strict : strict star_parser.
Proof. unfold star_parser, preceded. apply strict_bind_l; [nomr|]. intros _. apply shr_opt. apply strict_shr. apply strict_cv. Qed.
Lemma opens_uncomment ts : opens ts -> uncomment ts = ts.
Proof. now inversion 1. Qed.
Lemma star_other ts : (forall r, ts <> P "*" :: r) -> star_parser ts = PErr.
Proof. intros Hn. unfold star_parser, preceded, ppair, pbind. now rewrite punct_miss. Qed.
Lemma star_opens ts : opens ts -> forall acc, exists r2 ty,
  fold_many0 star_parser ty_fold acc ts = POk r2 ty /\ (forall r, uncomment r2 <> P ")" :: r).
Proof.
  induction 1 as [ts O IH|p ts H1 H2|l ts|i ts|x ts Hx]; intros acc.
  - assert (S : star_parser (P "*" :: ts) = POk (uncomment ts) None).
    { unfold star_parser, preceded, ppair, pbind. rewrite punct_hit. destruct (meta_uncomment ts) as (cs & ->). unfold pret.
      apply cv_not_ident. intros x r. now apply opens_head. }
    rewrite (fold_step _ _ _ _ _ _ star_strict S). apply IH.
  - exists (MPunct p :: ts), acc. split.
    + apply fold_stop, star_other. intros r E. injection E as ->. contradiction.
    + cbn. intros r E. injection E as ->. contradiction.
  - exists (MLit l :: ts), acc. split; [apply fold_stop, star_other|cbn]; discriminate.
  - exists (MArg i :: ts), acc. split; [apply fold_stop, star_other|cbn]; discriminate.
  - exists (MIdent x :: ts), acc. split; [apply fold_stop, star_other|cbn]; discriminate.
Qed.
Lemma close_miss (r : list mtoken) : (forall r', uncomment r <> P ")" :: r') -> (ppair meta (punct ")")) r = PErr.
Proof. intros Hn. unfold ppair, pbind. destruct (meta_uncomment r) as (cs & ->). now rewrite punct_miss. Qed.
Lemma close_hit (r r' : list mtoken) : uncomment r = P ")" :: r' -> exists x, (ppair meta (punct ")")) r = POk r' x.
Proof. intros E. unfold ppair, pbind. destruct (meta_uncomment r) as (cs & ->). rewrite E, punct_hit. unfold pret. now eexists. Qed.
Lemma paren_open {A} (p : parser A) ts : parenthesized p (P "(" :: ts) =
  match p (uncomment ts) with
  | POk r a => match ppair meta (punct ")") r with POk r' _ => POk r' a | PErr => PErr | PFuel => PFuel end
  | PErr => PErr
  | PFuel => PFuel
  end.
Proof.
  unfold parenthesized. generalize (ppair meta (punct ")")). intros q. unfold delimited, ppair, pbind. rewrite punct_hit.
  destruct (meta_uncomment ts) as (cs & ->). reflexivity.
Qed.
Lemma paren_hit {A} (p : parser A) ts r1 r a : p (uncomment ts) = POk r1 a -> uncomment r1 = P ")" :: r ->
  parenthesized p (P "(" :: ts) = POk r a.
Proof.
  intros E C. rewrite paren_open, E. destruct (close_hit _ _ C) as (x & ->). reflexivity.
Qed.

Lemma after_fold ts1 : after_name ts1 -> forall acc, exists r2 ty,
  fold_many0 star_parser ty_fold acc ts1 = POk r2 ty /\ (forall r, uncomment r2 <> P ")" :: r).
Proof.
  intros [O Hh] acc. assert (K : (exists c q, ts1 = MComment c :: q) \/ uncomment ts1 = ts1) by (destruct ts1 as [|[]]; eauto).
  destruct K as [(c & q & ->)|K].
  - exists (MComment c :: q), acc. split; [apply fold_stop, star_other; discriminate|].
    intros r E. cbn [uncomment] in O, E. rewrite E in O. inversion O; contradiction.
  - rewrite K in O. now apply star_opens.
Qed.

(** A parenthesised expression is not taken for a cast. *)
Lemma paren_no_cast ts e r1 r : D Comma (uncomment ts) e r1 -> uncomment r1 = P ")" :: r -> (bare e -> ~ starts_operand r) ->
  ppair (parenthesized type_parse) (pe LPrec2) (P "(" :: ts) = PErr.
Proof.
  intros d C B.
  assert (Hp : parenthesized type_parse (P "(" :: ts) = PErr \/ (bare e /\ exists ty, parenthesized type_parse (P "(" :: ts) = POk r ty)).
  { rewrite paren_open.
    pose proof (derives_opens _ _ _ _ d) as O. pose proof (derives_named _ _ _ _ d) as N.
    assert (Hk : forall x r, uncomment ts = MIdent x :: r -> ~ In x (map st (type_keywords ++ ["struct"]))) by (intros x q K; rewrite K in O; now inversion O).
    assert (F : name_first (uncomment ts) \/ type_parse (uncomment ts) = PErr).
    { destruct (uncomment ts) as [|t ts1]; [inversion O|].
      destruct t as [i|x|x|l|p|c]; try (right; reflexivity); try (now inversion O); left; eexists _, _; (split; [reflexivity|exact I]). }
    destruct F as [F|F]; [|left; now rewrite F].
    destruct (N F) as (n & r0 & Hn & [[Be ->]|A]).
    - right. split; [exact Be|]. rewrite (type_of_name' _ _ _ Hk Hn).
      + rewrite fold_stop by (apply star_other; intros r' Er; subst r1; cbn in C; discriminate).
        destruct (close_hit _ _ C) as (y & ->). now eexists.
      + rewrite C. discriminate.
      + intros x q ->. discriminate C.
    - left. rewrite (type_of_name _ _ _ Hk Hn A). destruct (after_fold _ A (TyIdent n false)) as (r2 & ty & -> & Hc).
      now rewrite (close_miss r2 Hc). }
  unfold ppair at 1, pbind. destruct Hp as [->|(Be & ty & ->)]; [reflexivity|]. now rewrite (prec2_fails r (B Be)).
Qed.

(** ** Types in parentheses *)

Lemma long_double_reads pre mid post ps rest : quals_once pre mid post -> ends_type rest ->
  type_parse (quals_tokens pre ++ kw "long" :: quals_tokens mid ++ kw "double" :: quals_tokens post ++ concat (map star_tokens ps) ++ rest) =
  POk rest (fold_left point ps
    (qualified (has_const pre || has_const mid || has_const post) (has_volatile pre || has_volatile mid || has_volatile post) (TyBuiltIn BLongDouble))).
Proof.
  intros Ho He. pose proof (stops_stars ps rest He) as Hst. fold (stars ps).
  assert (Hpost : popt const_volatile_qualifier (quals_tokens post ++ stars ps ++ rest) = POk (stars ps ++ rest) (qopt post)).
  { apply cv_tokens; apply Hst; simpl; tauto. }
  set (tail := quals_tokens post ++ stars ps ++ rest) in *.
  assert (Hmid : popt const_volatile_qualifier (quals_tokens mid ++ kw "double" :: tail) = POk (kw "double" :: tail) (qopt mid)) by (apply cv_tokens; reflexivity).
  assert (Hpre : popt const_volatile_qualifier (quals_tokens pre ++ kw "long" :: quals_tokens mid ++ kw "double" :: tail) =
    POk (kw "long" :: quals_tokens mid ++ kw "double" :: tail) (qopt pre)) by (apply cv_tokens; reflexivity).
  assert (Hb : ty_base (quals_tokens pre ++ kw "long" :: quals_tokens mid ++ kw "double" :: tail) =
    POk tail (ty_qualify_opt (ty_qualify_opt (TyBuiltIn BLongDouble) (qopt mid)) (qopt pre))).
  { unfold ty_base. cbn [palts]. unfold palt at 1, ty_simple, pmap at 1, ppair at 1, pbind. rewrite Hpre.
    cbn [palts]. rewrite !palt_err by reflexivity. unfold palt at 1, pmap, terminated, ppair, pbind.
    unfold popt at 1. rewrite kw_hit, Hmid. unfold pret. now rewrite kw_hit. }
  unfold type_parse, pbind, ppair, pbind. rewrite Hb, Hpost. unfold pret. cbn [fst snd]. unfold fold_many0. fold star_parser.
  rewrite fold_stars by (auto; lia). do 2 f_equal. destruct Ho as [H1 H2]. destruct pre, mid, post; try reflexivity; discriminate.
Qed.
Lemma type_reads' T t t0 r : type_name types T t -> ends_type (t0 :: r) -> t0 <> P "##" ->
  type_parse (T ++ t0 :: r) = POk (t0 :: r) t.
Proof.
  intros Tn He Hh.
  assert (Hu : uncomment (t0 :: r) = t0 :: r) by (destruct t0; [reflexivity|reflexivity|reflexivity|reflexivity|reflexivity|destruct He]).
  assert (Hs : forall ps r', uncomment (stars ps ++ t0 :: r) <> P "##" :: r').
  { intros [|q ps] r'; [change (stars [] ++ t0 :: r) with (t0 :: r); rewrite Hu; congruence|discriminate]. }
  assert (Hk' : forall ps x r', stars ps ++ t0 :: r = MIdent x :: r' -> ~ In x (map st type_keywords)).
  { intros [|q ps] x r' E; [|discriminate]. injection E as -> ->. exact He. }
  destruct Tn as [ws b pre post ps Hsp Hsf Hv|pre mid post ps Ho|sw x pre post ps Hk Ht Hv].
  - rewrite <- !app_assoc. now apply C42_types_partial.
  - rewrite <- !app_assoc. cbn [app]. rewrite <- !app_assoc. cbn [app]. rewrite <- !app_assoc. now apply long_double_reads.
  - rewrite <- !app_assoc. cbn [app]. rewrite <- !app_assoc.
    change (MIdent x :: quals_tokens post ++ concat (map star_tokens ps) ++ t0 :: r) with ([MIdent x] ++ quals_tokens post ++ concat (map star_tokens ps) ++ t0 :: r).
    rewrite (app_assoc (if sw then _ else _)).
    apply (C57_named_tokens pre post sw (MIdent x) (IPlain x) ps (t0 :: r) eq_refl); [|exact Hv|exact He|].
    + intros k q Hi. apply kw_other. intros ->. apply Hk. unfold keywords. rewrite map_app, in_app_iff. cbn [In] in Hi.
      destruct Hi as [<-|Hi]; [right; now left|left; now apply in_map].
    + intros _ _. destruct t0; try exact I. intros ->. now apply Hh.
Qed.
Lemma type_reads T t r : type_name types T t -> type_parse (T ++ P ")" :: r) = POk (P ")" :: r) t.
Proof. intro Tn. apply type_reads'; [exact Tn|vm_compute; discriminate|discriminate]. Qed.

(** ** The parser on derived expressions *)

Definition acc_parser : parser access := preceded meta (parse_access pe).
Definition parses (l : level) (ts : list mtoken) (e : expr) (r : list mtoken) : Prop := follow l r -> pe (plvl l) ts = POk r e.
(** The loop of a left-associative level has reached [e] with [r] left. *)
Definition reaches (l : level) (ts : list mtoken) (e : expr) (r : list mtoken) : Prop :=
  match l with
  | Postfix => follow Primary r -> exists f0 r0 was, pe LFactor ts = POk r0 f0 /\
      steps acc_parser access_step (Some (f0, false)) r0 (Some (e, was)) r /\ (was = true -> incremented e)
  | _ =>
    if is_fold l then
      match tighter l with
      | Some l' => follow l' r -> exists t0 r0, pe (plvl l') ts = POk r0 t0 /\ steps (bin_parser l l') bin_fold t0 r0 e r
      | None => True
      end
    else parses l ts e r
  end.

Lemma bin_strict l l' : is_fold l = true -> strict (bin_parser l l').
Proof.
  intros F. unfold bin_parser, ppair. apply strict_bind_r; [|intros a; apply strict_bind_l; [apply strict_pe|intros; apply shr_ret]].
  unfold delimited. apply shr_bind; [apply shr_meta|intros _]. apply shr_bind; [|intros; apply shr_bind; [apply shr_meta|intros; apply shr_ret]].
  unfold ops. apply shr_alts. apply Forall_forall. intros x Hx. apply in_map_iff in Hx as (y & <- & _).
  apply shr_value. apply strict_shr, strict_punct.
Qed.
Lemma access_strict : strict acc_parser.
Proof.
  unfold acc_parser. pose proof (strict_pe LPrec14) as S. pose proof strict_parse_concat_ident as S2.
  apply strict_bind_r; [apply shr_meta|intros _]. unfold parse_access. nomr.
Qed.
Lemma bin_stop l l' r : is_fold l = true -> follow l r -> bin_parser l l' r = PErr.
Proof.
  intros F Hf. unfold bin_parser, ppair, pbind. rewrite delim_miss; [reflexivity|]. apply ops_miss.
  apply (follow_head l); auto. intros x Hx. destruct l; try discriminate; cbv in Hx |- *; tauto.
Qed.
Lemma access_stop r : follow Postfix r -> acc_parser r = PErr.
Proof.
  intros Hf. unfold acc_parser, preceded, pbind. destruct (meta_uncomment r) as (cs & ->).
  assert (Hn : forall q, In q heads1 -> forall r', uncomment r <> P q :: r').
  { intros q Hq r' E. unfold follow in Hf. rewrite E in Hf. cbn [P] in Hf. apply Hf. now apply in_map. }
  unfold parse_access. cbn [palts]. unfold palt, pmap, preceded, terminated, delimited, pvalue, pbind.
  rewrite paren_fails by (apply Hn; cbn; tauto). 
  rewrite !punct_miss by (apply Hn; cbn; tauto). reflexivity.
Qed.

Lemma reaches_parses l ts e r : reaches l ts e r -> parses l ts e r.
Proof.
  intros R Hf. unfold reaches in R.
  assert (F : forall l', is_fold l = true -> tighter l = Some l' -> (follow l' r -> exists t0 r0, pe (plvl l') ts = POk r0 t0 /\ steps (bin_parser l l') bin_fold t0 r0 e r) ->
    pe (plvl l) ts = POk r e).
  { intros l' If T Hr. destruct (Hr (follow_tighter _ _ _ T Hf)) as (t0 & r0 & E & S).
    rewrite (fold_eq l l') by auto. unfold pbind. rewrite E. eapply steps_end; [now apply bin_strict|exact S|now apply bin_stop]. }
  destruct l; cbn [is_fold tighter] in R; try (exact (R Hf)); try (eapply F; [reflexivity|reflexivity|exact R]).
  destruct (R (follow_tighter Postfix Primary _ eq_refl Hf)) as (f0 & r0 & was & E & S & _).
  cbn [plvl]. rewrite pe_eq. cbn [expr_step]. unfold parse_term_prec1, pmap_opt, pbind. rewrite E.
  change (preceded meta (parse_access pe)) with acc_parser.
  rewrite (steps_end _ _ _ _ _ _ access_strict S (access_stop _ Hf)). reflexivity.
Qed.

(** From a level to the next looser one. *)
Lemma parses_fold l l' ts e r : is_fold l = true -> tighter l = Some l' -> parses l' ts e r -> reaches l ts e r.
Proof.
  intros F T Hp. unfold reaches. destruct l; try discriminate; injection T as <-; cbn [is_fold tighter]; intros Hf; exists e, r;
  (split; [now apply Hp|apply s_refl]).
Qed.
Lemma cond_up ts e r : parses LogicalOr ts e r -> parses Conditional ts e r.
Proof.
  intros Hp Hf. cbn [plvl]. rewrite pe_eq. cbn [expr_step]. unfold parse_term_prec13, pbind.
  assert (E : pe LPrec10 ts = POk r e) by (apply Hp; now apply (follow_tighter Conditional)). rewrite E.
  unfold popt. rewrite delim_miss; [reflexivity|]. apply punct_miss. intros r' E'.
  unfold follow in Hf. rewrite E' in Hf. apply Hf. cbn. tauto.
Qed.
Definition assign_parser : parser (binop * expr) := ppair (delimited meta (ops assignment_operators) meta) (pe LPrec14).
Lemma assign_eq ts : pe LPrec14 ts = (t <~ pe LPrec13 ;; fold_many0 assign_parser bin_fold t) ts.
Proof. rewrite pe_eq. reflexivity. Qed.
Lemma assign_strict : strict assign_parser.
Proof.
  unfold assign_parser, ppair. apply strict_bind_r; [|intros a; apply strict_bind_l; [apply strict_pe|intros; apply shr_ret]].
  unfold delimited. apply shr_bind; [apply shr_meta|intros _]. apply shr_bind; [|intros; apply shr_bind; [apply shr_meta|intros; apply shr_ret]].
  unfold ops. apply shr_alts. apply Forall_forall. intros x Hx. apply in_map_iff in Hx as (y & <- & _).
  apply shr_value. apply strict_shr, strict_punct.
Qed.
Lemma assign_stop r : follow Assignment r -> assign_parser r = PErr.
Proof.
  intros Hf. unfold assign_parser, ppair, pbind. rewrite delim_miss; [reflexivity|]. apply ops_miss.
  apply (follow_head Assignment); auto. tincl.
Qed.
Lemma assign_up ts e r : parses Conditional ts e r -> parses Assignment ts e r.
Proof.
  intros Hp Hf. cbn [plvl]. rewrite assign_eq. unfold pbind.
  assert (E : pe LPrec13 ts = POk r e) by (apply Hp; now apply (follow_tighter Assignment)). rewrite E.
  apply fold_stop. now apply assign_stop.
Qed.
Lemma unary_to_conditional ts e r : parses Unary ts e r -> parses Conditional ts e r.
Proof.
  intros Hp. apply cond_up. assert (Hc : parses Cast ts e r) by exact Hp.
  assert (Ho : parses Or ts e r).
  { do 8 (apply reaches_parses; eapply parses_fold; [reflexivity|reflexivity|]). exact Hc. }
  exact Ho.
Qed.
Definition atom_head (ts : list mtoken) : Prop :=
  match ts with MIdent _ :: _ | MArg _ :: _ | MLit _ :: _ => True | MPunct p :: _ => p = st "#" | _ => False end.
Lemma names_atom ts n r : names ts n r -> atom_head ts.
Proof. intros Hn. destruct (names_head _ _ _ Hn) as (t & q & -> & [[i ->]|[x ->]]); exact I. Qed.
Lemma part_atom b ts e r : string_part types b ts e r -> atom_head ts.
Proof.
  intros [ts0 s q Hr|i ts0 q E|ts0 n q Hn B Hp]; [|reflexivity|eapply names_atom; eassumption].
  destruct (run_head _ _ _ _ Hr) as (s' & r' & ->). exact I.
Qed.
Lemma primary_head ts e r : D Primary ts e r -> atom_head ts \/ exists ts' r1, ts = P "(" :: ts' /\
  D Comma (uncomment ts') e r1 /\ uncomment r1 = P ")" :: r /\ (bare e -> ~ starts_operand r).
Proof.
  intros d. inversion d; subst; try (left; exact I); try (cbn in *; discriminate); try (cbn in *; contradiction).
  - left. eapply names_atom, na_pasted; eassumption.
  - left. eapply part_atom, sp_run; eassumption.
  - left. reflexivity.
  - left. match goal with Hs : string_parts _ _ _ _ _ |- _ => clear - Hs; induction Hs; auto end. eapply part_atom; eassumption.
  - right. eexists _, _. repeat split; eauto.
Qed.
Lemma unary_up ts e r : D Postfix ts e r -> parses Postfix ts e r -> parses Unary ts e r.
Proof.
  intros d Hp Hf. cbn [plvl]. rewrite prec2_eq. unfold parse_term_prec2. cbn [palts].
  assert (Hd : exists e0 r0, D Primary ts e0 r0).
  { clear Hp Hf. remember Postfix as l eqn:El. revert El. induction d; intros El; try discriminate; auto.
    subst l. injection H0 as <-. eauto. }
  destruct Hd as (e0 & r0 & d0).
  assert (C : ppair (parenthesized type_parse) (pe LPrec2) ts = PErr).
  { destruct (primary_head _ _ _ d0) as [A|(ts' & r1 & -> & d1 & E & B)]; [|eapply paren_no_cast; eassumption].
    unfold ppair at 1, pbind at 1. rewrite paren_fails; [reflexivity|]. intros q ->. discriminate A. }
  assert (U : ppair (terminated parse_prefix_op meta) (pe LPrec2) ts = PErr).
  { unfold ppair, terminated, pbind. rewrite prefix_ops, ops_miss; [reflexivity|].
    destruct (primary_head _ _ _ d0) as [A|(ts' & r1 & -> & _)]; [|nin].
    destruct ts as [|[] ts]; cbn in A |- *; try tauto. subst. nin. }
  unfold pmap at 1 2, pbind at 1 2, palt. rewrite C, U.
  assert (E : pe LPrec1 ts = POk r e) by (now apply Hp). now rewrite E.
Qed.
Lemma level_up l l' ts e r : tighter l = Some l' -> D l' ts e r -> reaches l' ts e r -> reaches l ts e r.
Proof.
  intros T d R. pose proof (reaches_parses _ _ _ _ R) as Hp.
  destruct (is_fold l) eqn:F; [eapply parses_fold; eauto|].
  destruct l; try discriminate; injection T as <-.
  - intros Hf. exists e, r, false. repeat split; [now apply Hp|apply s_refl|discriminate].
  - now apply unary_up.
  - exact Hp.
  - exact Hp.
  - exact Hp.
  - now apply cond_up.
  - now apply assign_up.
  - exact Hp.
Qed.

(** Primary expressions. *)
Lemma follow_primary r : follow Primary r ->
  (forall q, uncomment r <> P "##" :: q) /\ (forall q, uncomment r <> P "#" :: q) /\ (forall t q, named t -> uncomment r <> t :: q) /\
  (forall l q, r <> MLit l :: q) /\ (forall l q, uncomment r <> MLit l :: q).
Proof.
  unfold follow. intros Hf. repeat split.
  - intros q E. rewrite E in Hf. apply Hf. cbn. tauto.
  - intros q E. rewrite E in Hf. apply Hf. cbn. tauto.
  - intros t q N E. rewrite E in Hf. destruct t; contradiction.
  - intros l q ->. exact Hf.
  - intros l q E. now rewrite E in Hf.
Qed.
Lemma part_stop r : follow Primary r -> preceded meta concat_part r = PErr.
Proof.
  intros Hf. destruct (follow_primary r Hf) as (_ & H2 & H3 & _ & H5).
  unfold preceded, pbind. destruct (meta_uncomment r) as (cs & ->).
  unfold concat_part, stringify_parse, palt, pmap, preceded, terminated, pbind.
  rewrite (punct_miss "#") by exact H2.
  destruct (uncomment r) as [|[i|x|x|l|p|c] q]; try reflexivity.
  - exfalso. now apply (H3 (MArg i) q).
  - exfalso. now apply (H3 (MIdent x) q).
  - exfalso. now apply (H5 l q).
Qed.
Lemma id_other k t ts : (forall x, t <> MIdent x) -> keyword k (t :: ts) = PErr.
Proof. intros Hn. destruct t; try reflexivity. now exfalso; apply (Hn id). Qed.
Lemma factor_eq ts : pe LFactor ts = parse_factor pe ts.
Proof. exact (pe_eq LFactor ts). Qed.
(** What must not follow a part of a string for it to be read alone. *)
Definition stops (e : expr) (r : list mtoken) : Prop :=
  (forall q, uncomment r <> P "##" :: q) /\
  (is_literal e -> (forall l q, r <> MLit l :: q) /\ (forall p q, In p prefixes -> r <> MIdent (st p) :: q)).
Lemma follow_stops e r : follow Primary r -> stops e r.
Proof.
  intros Hf. destruct (follow_primary r Hf) as (H1 & _ & H3 & H4 & _). split; [exact H1|]. intros _. split; [exact H4|].
  intros p q _ E. apply (H3 (MIdent (st p)) q I). now rewrite E.
Qed.
Lemma part_stops a r1 b r : string_part types true (uncomment r1) b r -> ~ (is_literal a /\ is_literal b) -> stops a r1.
Proof.
  intros Hp Hl. split; [apply (part_after _ _ _ _ Hp)|]. intros La. split.
  - intros l q ->. cbn [uncomment] in Hp. inversion Hp as [ts0 s r0 Hr Q1|i ts0 r0 Q0 Q1|ts0 n r0 Hn B Hx Q1]; subst.
    + apply Hl. split; [exact La|exact I].
    + destruct (names_head _ _ _ Hn) as (t & q1 & K & [[i ->]|[x ->]]); discriminate K.
  - intros p q Ip ->. cbn [uncomment] in Hp. inversion Hp as [ts0 s r0 Hr Q1|i ts0 r0 Q0 Q1|ts0 n r0 Hn B Hx Q1]; subst.
    + destruct (run_head _ _ _ _ Hr) as (s' & r' & K). discriminate K.
    + apply (Hx _ _ eq_refl). now apply in_map.
Qed.

Lemma ascii_decode b : Forall (fun c => c < 128)%N b -> utf8_decode b = Some b.
Proof.
  intros F. apply utf8_decode_iff. split.
  - induction F as [|c b Hc F IH]; [reflexivity|]. cbn [utf8_encode flat_map]. unfold utf8_encode in IH |- *. cbn [flat_map]. rewrite <- IH.
    unfold utf8_char. now rewrite (proj2 (N.ltb_lt _ _) Hc).
  - apply (Forall_impl _ (P := fun c => (c < 128)%N)); [|exact F]. intros c Hc. unfold scalar. lia.
Qed.
Lemma join_piece a b c : join a b = Some c -> (is_wide a -> ascii_only b) ->
  exists w, piece (kind_of a) [MLit (LString b)] w /\ kind_of c = kind_of a /\ content_of c = content_of a ++ w.
Proof.
  intros J Ha.
  assert (S : kind_of b = kind_of a -> content_of c = content_of a ++ content_of b -> kind_of c = kind_of a ->
    exists w, piece (kind_of a) [MLit (LString b)] w /\ kind_of c = kind_of a /\ content_of c = content_of a ++ w).
  { intros K1 K2 K3. exists (content_of b). rewrite <- K1 at 1. split; [apply piece_same|auto]. }
  assert (O : forall k y w, kind_of a = k -> k <> KOrdinary -> b = SOrdinary y -> (match k with KWide => w = y | _ => utf8_decode y = Some w end) ->
    c = of_kind k (content_of a ++ w) ->
    exists w, piece (kind_of a) [MLit (LString b)] w /\ kind_of c = kind_of a /\ content_of c = content_of a ++ w).
  { intros k y w Ka Kn -> Kw ->. exists w. rewrite Ka. split; [apply (piece_ordinary k y w []); auto|]. destruct k; split; reflexivity. }
  destruct a as [x|x|x|x|x], b as [y|y|y|y|y]; cbn [join] in J; try discriminate.
  all: try (injection J as <-; apply S; reflexivity).
  all: destruct (utf8_decode y) as [t|] eqn:Et; [|discriminate J]; injection J as <-.
  - eapply (O KUtf8); try reflexivity; [discriminate|exact Et].
  - eapply (O KUtf16); try reflexivity; [discriminate|exact Et].
  - eapply (O KUtf32); try reflexivity; [discriminate|exact Et].
  - assert (t = y) as -> by (rewrite (ascii_decode y (Ha I)) in Et; congruence).
    eapply (O KWide); try reflexivity. discriminate.
Qed.
Lemma run_pieces ts s r : string_run true ts s r -> exists first toks cs,
  ts = MLit (LString first) :: concat toks ++ r /\ Forall2 (piece (kind_of first)) toks cs /\
  kind_of s = kind_of first /\ content_of s = content_of first ++ concat cs.
Proof.
  induction 1 as [s r|ts a r1 b c r Hr (first & toks & cs & -> & F & K & C) E J Hc Ha].
  - exists s, [], []. cbn. rewrite app_nil_r. repeat split; constructor.
  - rewrite (Hc eq_refl) in E. subst r1. destruct (join_piece _ _ _ J (Ha eq_refl)) as (w & Hw & Kc & Cc). rewrite K in Hw.
    exists first, (toks ++ [[MLit (LString b)]]), (cs ++ [w]).
    rewrite !concat_app. cbn [concat app]. rewrite app_nil_r, <- app_assoc. cbn [app].
    split; [reflexivity|]. split; [apply Forall2_app; [exact F|constructor; [exact Hw|constructor]]|].
    split; [congruence|]. rewrite Cc, C. now rewrite app_assoc.
Qed.
Lemma run_reads ts s r : string_run true ts s r -> stops (ELit (LString s)) r -> lit_string_parse ts = POk r s.
Proof.
  intros Hr [_ Hs]. destruct (Hs I) as [H1 H2]. destruct (run_pieces _ _ _ Hr) as (first & toks & cs & -> & F & K & C).
  apply C30_concatenation. exists first, toks, cs. repeat split; auto.
  intros t c q Hp E. destruct Hp as [s0|k b c pre Hk Hpre Hc]; [exact (H1 _ _ E)|].
  destruct Hpre as [->|(p & Hpre & ->)]; [exact (H1 _ _ E)|].
  assert (Ip : exists p0, In p0 prefixes /\ p = st p0).
  { destruct k; try discriminate; injection Hpre as <-; eexists; (split; [|reflexivity]); cbn; tauto. }
  destruct Ip as (p0 & Ip & ->). exact (H2 _ _ Ip E).
Qed.
Lemma string_fails ts : (forall s q, ts <> MLit (LString s) :: q) -> lit_string_parse ts = PErr.
Proof.
  intros Hn. destruct ts as [|[i|x|x|[c|s|f|n]|p|c] ts]; try reflexivity. now destruct (Hn s ts).
Qed.
Lemma part_reads ts e r : string_part types true ts e r -> stops e r -> concat_part ts = POk r e.
Proof.
  intros Hp Hs. unfold concat_part, stringify_parse, palt, pmap, preceded, terminated, pbind.
  destruct Hp as [ts s r Hr|i ts r E|ts n r Hn B Hx].
  - now rewrite (run_reads _ _ _ Hr Hs).
  - rewrite string_fails by discriminate. rewrite punct_hit. destruct (meta_uncomment ts) as (cs & ->). rewrite E. reflexivity.
  - destruct (names_head _ _ _ Hn) as (t & q & Et & Ht).
    rewrite string_fails by (intros s q' ->; destruct Ht as [[i ->]|[x ->]]; discriminate Et).
    rewrite punct_miss by (intros q' ->; destruct Ht as [[i ->]|[x ->]]; discriminate Et).
    rewrite (concat_name _ _ _ Hn (proj1 Hs)). reflexivity.
Qed.
Definition next_part : parser expr := preceded meta concat_part.
Lemma next_strict : strict next_part.
Proof.
  unfold next_part, preceded. apply strict_bind_r; [apply shr_meta|intros _]. apply strict_concat_part.
Qed.
Lemma next_reads r1 e r : string_part types true (uncomment r1) e r -> stops e r -> next_part r1 = POk r e.
Proof.
  intros Hp Hs. unfold next_part, preceded, pbind. destruct (meta_uncomment r1) as (cs & ->). now apply part_reads.
Qed.
Lemma add_two b ts a r c : string_part types b ts a r -> concat_add a c = EConcat [a; c].
Proof. now intros [| |]. Qed.
Lemma parts_steps ts l r : string_parts types true ts l r -> (forall l0 a, l = l0 ++ [a] -> stops a r) ->
  exists a0 r0, concat_part ts = POk r0 a0 /\ steps next_part concat_add a0 r0 (EConcat l) r.
Proof.
  induction 1 as [ts a r1 b r Ha Hb Hl|ts l a r1 b r Hp IH Hb Hl]; intros Hs.
  - exists a, r1. split; [apply part_reads; [exact Ha|eapply part_stops; eassumption]|].
    rewrite <- (add_two _ _ _ _ b Ha). eapply s_snoc; [apply s_refl|]. apply next_reads; [exact Hb|]. exact (Hs [a] b eq_refl).
  - destruct IH as (a0 & r0 & E & S).
    { intros l0 a' El. apply app_inj_tail in El as [<- <-]. eapply part_stops; eassumption. }
    exists a0, r0. split; [exact E|].
    replace (EConcat (l ++ [a; b])) with (concat_add (EConcat (l ++ [a])) b) by (cbn; now rewrite <- app_assoc).
    eapply s_snoc; [exact S|]. apply next_reads; [exact Hb|]. apply (Hs (l ++ [a])). now rewrite <- app_assoc.
Qed.
Lemma part_string ts e r : string_part types true ts e r -> follow Primary r -> parse_concat_string ts = POk r e.
Proof.
  intros Hp Hf. unfold parse_concat_string, pbind. rewrite (part_reads _ _ _ Hp (follow_stops _ _ Hf)). apply fold_stop. now apply part_stop.
Qed.
Lemma parts_string ts l r : string_parts types true ts l r -> follow Primary r -> parse_concat_string ts = POk r (EConcat l).
Proof.
  intros Hp Hf. destruct (parts_steps _ _ _ Hp) as (a0 & r0 & E & S); [intros; now apply follow_stops|].
  unfold parse_concat_string, pbind. rewrite E. change (preceded meta concat_part) with next_part.
  apply (steps_end _ _ _ _ _ _ next_strict S). now apply part_stop.
Qed.
Lemma name_string ts n r : names ts n r -> follow Primary r -> parse_concat_string ts = POk r (EVar n).
Proof.
  intros Hn Hf. destruct (names_head _ _ _ Hn) as (t & q & Et & Ht). unfold parse_concat_string, pbind.
  assert (E : concat_part ts = POk r (EVar n)).
  { unfold concat_part, stringify_parse, palt, pmap, preceded, terminated, pbind.
    rewrite string_fails by (intros s q' ->; destruct Ht as [[i ->]|[x ->]]; discriminate Et).
    rewrite punct_miss by (intros q' ->; destruct Ht as [[i ->]|[x ->]]; discriminate Et).
    rewrite (concat_name _ _ _ Hn (proj1 (follow_primary r Hf))). reflexivity. }
  rewrite E. apply fold_stop. now apply part_stop.
Qed.
(** Neither sizeof nor a character literal. *)
Definition no_char (ts : list mtoken) : Prop :=
  match ts with
  | MIdent x :: q => x <> st "sizeof" /\ (In x (map st prefixes) -> forall l q', q <> MLit l :: q')
  | MLit (LChar _) :: _ => False
  | _ => True
  end.
Lemma factor_string ts r e : no_char ts -> parse_concat_string ts = POk r e -> pe LFactor ts = POk r e.
Proof.
  intros Hn E. rewrite factor_eq. unfold parse_factor. cbn [palts].
  rewrite palt_err.
  2: { unfold pmap, preceded, pbind. destruct ts as [|[i|x|x|l|p|c] ts]; try reflexivity. rewrite kw_other; [reflexivity|]. apply Hn. }
  rewrite palt_err.
  2: { unfold pmap, pbind. destruct (lit_char_parse ts) as [r' c| |] eqn:Ec; auto.
       - exfalso. apply C27_tokens in Ec. destruct Ec as [->|(prefix & max & mk & v & Hi & Hne & -> & _)]; [exact Hn|].
         destruct Hn as [_ Hn]. eapply Hn; [|reflexivity]. cbn in Hi.
         repeat destruct Hi as [Hi|Hi]; try contradiction; injection Hi as <- _ _; try congruence; cbn; tauto.
       - exfalso. exact (tot_lit_char (length ts) ts (le_n _) Ec). }
  unfold palt. now rewrite E.
Qed.
Lemma not_sizeof x : is_name types x -> x <> st "sizeof".
Proof. intros [Hk _] ->. apply Hk. cbn. tauto. Qed.
Lemma name_parses ts n r : names ts n r -> begins types ts -> parses Primary ts (EVar n) r.
Proof.
  intros Hn B Hf. apply factor_string; [|now apply name_string].
  destruct (names_head _ _ _ Hn) as (t & q & -> & [[i ->]|[x ->]]); [exact I|]. split; [apply not_sizeof; now apply (B x q)|].
  intros _ l q' ->. inversion Hn as [|x0 r0|ts0 l0 r0 Hp]; subst.
  - apply (proj1 (proj2 (proj2 (proj2 (follow_primary _ Hf)))) l q' eq_refl).
  - assert (A : forall ts l1 r1, pasted ts l1 r1 -> ts <> MIdent x :: MLit l :: q').
    { clear. induction 1 as [t p r1 r2 t' p' r C Hn E1 E2 C'|ts l1 r1 r2 t p r Hp IH E1 E2 C]; [|exact (IH Hp)]. intros E. injection E as -> ->. discriminate E1. }
    exact (A _ _ _ Hp eq_refl).
Qed.
Lemma run_parses ts s r : string_run true ts s r -> parses Primary ts (ELit (LString s)) r.
Proof.
  intros Hr Hf. apply factor_string; [|apply part_string; [now apply sp_run|exact Hf]].
  destruct (run_head _ _ _ _ Hr) as (s' & r' & ->). exact I.
Qed.
Lemma parts_parse ts l r : string_parts types true ts l r -> parses Primary ts (EConcat l) r.
Proof.
  intros Hp Hf. apply factor_string; [|now apply parts_string]. clear Hf.
  induction Hp as [ts a r1 b r Ha _ _|]; [|assumption].
  destruct Ha as [ts s r2 Hr|i ts r2 E|ts n r2 Hn B Hx].
  - destruct (run_head _ _ _ _ Hr) as (s' & r' & ->). exact I.
  - exact I.
  - destruct (names_head _ _ _ Hn) as (t & q & -> & [[i ->]|[x ->]]); [exact I|]. split; [apply not_sizeof; now apply (B x q)|].
    intros Ip. now destruct (Hx _ _ eq_refl).
Qed.
Lemma lit_parses l r : parses Primary (MLit l :: r) (ELit l) r.
Proof.
  intros Hf. destruct l as [c|s|f|i]; [| |reflexivity|reflexivity].
  - cbn [plvl]. rewrite factor_eq. reflexivity.
  - apply run_parses; [apply sr_one|exact Hf].
Qed.
Lemma stringify_parses i ts r : uncomment ts = MArg i :: r -> parses Primary (P "#" :: ts) (EStringify (EVar (IArg i))) r.
Proof. intros E Hf. apply factor_string; [exact I|]. apply part_string; [now apply sp_stringify|exact Hf]. Qed.
Lemma paren_parses ts e r1 r : parses Comma (uncomment ts) e r1 -> uncomment r1 = P ")" :: r -> parses Primary (P "(" :: ts) e r.
Proof.
  intros Hp C Hf. cbn [plvl]. rewrite factor_eq. unfold parse_factor. cbn [palts]. rewrite !palt_err by reflexivity.
  assert (E : pe LPrec14 (uncomment ts) = POk r1 e) by (apply Hp; follows C).
  unfold palt. now rewrite (paren_hit _ _ _ _ _ E C).
Qed.
Lemma sizeof_parses ts T t r : uncomment ts = T ++ P ")" :: r -> type_name types T t ->
  parses Unary (kw "sizeof" :: P "(" :: ts) (ESizeOf t) r.
Proof.
  intros E Tn Hf. cbn [plvl]. rewrite prec2_eq. unfold parse_term_prec2. cbn [palts].
  rewrite !palt_err by reflexivity. unfold palt.
  assert (F : pe LFactor (kw "sizeof" :: P "(" :: ts) = POk r (ESizeOf t)).
  { rewrite factor_eq. unfold parse_factor. cbn [palts]. unfold palt at 1, pmap at 1, preceded, pbind. rewrite kw_hit.
    erewrite paren_hit; [reflexivity|rewrite E; now apply type_reads|reflexivity]. }
  assert (Q : pe LPrec1 (kw "sizeof" :: P "(" :: ts) = POk r (ESizeOf t)); [|now rewrite Q].
  rewrite pe_eq. cbn [expr_step]. unfold parse_term_prec1, pmap_opt, pbind. rewrite F.
  rewrite fold_stop; [reflexivity|]. now apply access_stop.
Qed.

(** One access after a postfix expression. *)
Lemma access_ok r1 a r : parse_access pe (uncomment r1) = POk r a -> acc_parser r1 = POk r a.
Proof. intros E. unfold acc_parser, preceded, pbind. destruct (meta_uncomment r1) as (cs & ->). exact E. Qed.
Lemma reach_access ts e r1 a r p r2 e' :
  reaches Postfix ts e r1 -> uncomment r1 = P p :: r2 -> ~ In (st p) (map st heads0) -> (follow Primary r -> acc_parser r1 = POk r a) ->
  (forall was, (was = true -> incremented e) -> access_apply e was a = Some e') ->
  (access_is_postfix a = true -> incremented e') ->
  reaches Postfix ts e' r.
Proof.
  intros R E Hp Ha Hap Hi Hf. destruct R as (f0 & r0 & was & Ef & S & Hw); [unfold follow; rewrite E; exact Hp|].
  exists f0, r0, (access_is_postfix a). repeat split; auto.
  replace (Some (e', access_is_postfix a)) with (access_step (Some (e, was)) a).
  - eapply s_snoc; eauto.
  - cbn [access_step]. now rewrite (Hap was Hw).
Qed.

Lemma prefix_parses p o ts e r l : l = Unary \/ l = Cast -> In (p, o) prefix_operators -> reaches l (uncomment ts) e r ->
  parses Unary (P p :: ts) (EUnary o e) r.
Proof.
  intros Hl Hi R Hf. cbn [plvl]. rewrite prec2_eq. unfold parse_term_prec2. cbn [palts].
  rewrite palt_err.
  2: { unfold pmap, ppair, pbind. rewrite paren_fails; [reflexivity|]. intros r' E. injection E as E _.
       cbn in Hi. repeat destruct Hi as [Hi|Hi]; try contradiction; injection Hi as <- <-; vm_compute in E; discriminate. }
  unfold palt at 1, pmap at 1, ppair, terminated, pbind. rewrite prefix_ops.
  rewrite (ops_hit prefix_operators p o) by (auto; vm_compute; repeat (apply NoDup_cons; [nin|]); apply NoDup_nil).
  destruct (meta_uncomment ts) as (cs & ->).
  assert (Q : pe LPrec2 (uncomment ts) = POk r e).
  { destruct Hl as [-> | ->]; apply R; exact Hf. }
  unfold pret. now rewrite Q.
Qed.

Theorem derives_reaches l ts e r : D l ts e r -> reaches l ts e r.
Proof.
  intros d. revert l ts e r d.
  refine (derives_mut types true reaches
    (fun ts es r => uncomment ts = ts -> forall q, uncomment r = P ")" :: q ->
       separated_list0 (meta ;;> (punct "," ;;> meta)) (pe LPrec14) ts = POk r es)
    (fun ts es r => forall q, uncomment r = P ")" :: q ->
       (exists c q', uncomment ts = P c :: q' /\ In c [","; ")"]) /\
       forall n acc, length ts < n -> sep_list_n n (meta ;;> (punct "," ;;> meta)) (pe LPrec14) acc ts = POk r (acc ++ es))
    _ _ _ _ _ _ _ _ _ _ _ _ _ _ _ _ _ _ _ _ _ _ _ _ _).
  - intros l l' ts e r T d R. eapply level_up; eauto.
  - intros x r Hx. apply name_parses; [apply na_plain|]. intros y q Ey. now injection Ey as <- _.
  - intros i r. apply name_parses; [apply na_arg|discriminate].
  - intros ts l r Hp B. apply name_parses; [now apply na_pasted|exact B].
  - intros l r. apply lit_parses.
  - intros ts s r Hr. now apply run_parses.
  - intros i ts r E. now apply stringify_parses.
  - intros ts l r Hp. now apply parts_parse.
  - intros ts e r1 r d R C _. eapply paren_parses; [exact (reaches_parses _ _ _ _ R)|exact C].
  - intros ts e r1 r2 i r3 r d R E1 d2 R2 E2 Hs.
    eapply reach_access with (a := AArray i); [exact R|exact E1|nin| | |discriminate].
    + intros Hf. apply access_ok. rewrite E1. unfold parse_access. cbn [palts]. rewrite palt_err by reflexivity. rewrite palt_err by reflexivity.
      unfold palt at 1, pmap at 1, delimited, terminated, preceded, pbind. rewrite punct_hit. destruct (meta_uncomment r2) as (cs & ->).
      unfold pret at 1. pose proof (reaches_parses _ _ _ _ R2) as Q. unfold parses in Q. cbn [plvl] in Q. rewrite Q by (follows E2).
      destruct (meta_uncomment r3) as (cs3 & ->). now rewrite E2, punct_hit.
    + intros was Hw. destruct was; [exfalso; apply (Hs eq_refl); now apply Hw|]. destruct e; reflexivity.
  - intros ts f r1 r2 args r3 r d R E1 da Ha E2.
    eapply reach_access with (a := AFn args); [exact R|exact E1|nin| | |discriminate].
    + intros Hf. apply access_ok. rewrite E1. unfold parse_access. cbn [palts]. unfold palt at 1, pmap at 1, pbind.
      erewrite paren_hit; [reflexivity| |exact E2]. apply (Ha (uncomment_idem _) _ E2).
    + intros was Hw. reflexivity.
  - intros ts e r1 r2 m r d R E1 E2 Hs.
    eapply reach_access with (a := AField m false); [exact R|exact E1|nin| | |discriminate].
    + intros Hf. apply access_ok. rewrite E1. unfold parse_access. cbn [palts]. rewrite palt_err by reflexivity.
      unfold palt at 1, pmap at 1, terminated, preceded, pbind. rewrite punct_hit. destruct (meta_uncomment r2) as (cs & ->).
      unfold pret at 1. rewrite (concat_name _ _ _ E2); [reflexivity|]. apply follow_primary, Hf.
    + intros was Hw. destruct was; [exfalso; apply (Hs eq_refl); now apply Hw|]. destruct e; reflexivity.
  - intros ts e r1 r2 m r d R E1 E2.
    eapply reach_access with (a := AField m true); [exact R|exact E1|nin| | |discriminate].
    + intros Hf. apply access_ok. rewrite E1. unfold parse_access. cbn [palts]. rewrite !palt_err by reflexivity.
      unfold palt at 1, pmap at 1, terminated, preceded, pbind. rewrite punct_hit. destruct (meta_uncomment r2) as (cs & ->).
      unfold pret at 1. rewrite (concat_name _ _ _ E2); [reflexivity|]. apply follow_primary, Hf.
    + intros was Hw. destruct was, e; reflexivity.
  - intros ts e r1 p o r d R E Hi Hs.
    assert (Hn : ~ In (st p) (map st heads0)).
    { cbn in Hi. destruct Hi as [Ei|[Ei|[]]]; injection Ei as <- <-; nin. }
    eapply reach_access with (a := AUnary o); [exact R|exact E|exact Hn| | |].
    + intros Hf. apply access_ok. rewrite E. cbn in Hi. destruct Hi as [Ei|[Ei|[]]]; injection Ei as <- <-; reflexivity.
    + intros was Hw. destruct was; [exfalso; apply (Hs eq_refl); now apply Hw|]. destruct e; reflexivity.
    + intros _. exists e. cbn in Hi. destruct Hi as [Ei|[Ei|[]]]; injection Ei as _ <-; auto.
  - intros p o ts e r Hi d R. apply (prefix_parses _ _ _ _ _ Unary); auto. cbn in Hi |- *. tauto.
  - intros p o ts e r Hi d R. apply (prefix_parses _ _ _ _ _ Cast); auto. cbn in Hi |- *. tauto.
  - intros ts ts1 T t r0 r E1 E2 E3 Tn Hs Hs0. rewrite (Hs eq_refl) in E1. subst ts1. rewrite (Hs0 eq_refl) in E3. subst r0. now apply (sizeof_parses ts T).
  - intros ts T t r0 r1 e r E E0 Tn d R Hs0 Hs Hf. rewrite (Hs eq_refl) in R. rewrite (Hs0 eq_refl) in E0. subst r0. cbn [plvl].
    rewrite prec2_eq. unfold parse_term_prec2. cbn [palts]. unfold palt at 1, pmap at 1, ppair, pbind.
    erewrite paren_hit; [|rewrite E; apply type_reads; exact Tn|reflexivity]. 
    pose proof (reaches_parses Cast _ _ _ R Hf) as Q. cbn [plvl] in Q. now rewrite Q.
  - intros l l' ts a r1 p o r2 b r T Hi da Ra E db Rb Hs.
    assert (F : is_fold l = true).
    { destruct l; cbn in Hi; try contradiction; try reflexivity; exfalso; apply (Hs eq_refl); unfold logical; auto. }
    assert (Hn : follow l' r1).
    { unfold follow. rewrite E. cbn [P]. clear - T Hi F. destruct l; try discriminate; injection T as <-; cbn in Hi;
      repeat destruct Hi as [Hi|Hi]; try contradiction; injection Hi as <- <-; nin. }
    assert (Hb : follow l' r -> bin_parser l l' r1 = POk r (o, b)).
    { intros Hf. unfold bin_parser, ppair, pbind. erewrite delim_hit.
      - pose proof (reaches_parses _ _ _ _ Rb Hf) as Q. now rewrite Q.
      - rewrite E. apply ops_hit; [exact Hi|]. clear - F.
        destruct l; try discriminate; vm_compute; repeat (apply NoDup_cons; [nin|]); apply NoDup_nil. }
    destruct l; try discriminate; injection T as <-; intros Hf; destruct (Ra Hn) as (t0 & r0 & Et & S); exists t0, r0; (split; [exact Et|]);
      (change (EBinary a o b) with (bin_fold a (o, b)); eapply s_snoc; [exact S|now apply Hb]).
  - intros ts c r1 r2 a r3 r4 b r dc Rc E1 da Ra E2 db Rb Hf. cbn [plvl]. rewrite pe_eq. cbn [expr_step]. unfold parse_term_prec13, pbind.
    assert (Q1 : pe LPrec10 ts = POk r1 c) by (apply Rc; follows E1). rewrite Q1.
    unfold popt. rewrite (delim_hit (punct "?") r1 r2 (st "?")) by (rewrite E1; apply punct_hit).
    assert (Q2 : pe LPrec14 (uncomment r2) = POk r3 a) by (apply Ra; follows E2). rewrite Q2.
    rewrite (delim_hit (punct ":") r3 r4 (st ":")) by (rewrite E2; apply punct_hit).
    assert (Q3 : pe LPrec13 (uncomment r4) = POk r b) by (now apply Rb). now rewrite Q3.
  - intros ts a r1 p o r2 b r da Ra E Hi db Rb Hf. cbn [plvl]. rewrite assign_eq. unfold pbind.
    assert (Q : pe LPrec13 ts = POk r1 a).
    { apply (unary_to_conditional ts a r1 Ra). unfold follow. rewrite E. cbn [P]. clear - Hi. cbn in Hi.
      repeat destruct Hi as [Hi|Hi]; try contradiction; injection Hi as <- <-; nin. }
    rewrite Q.
    assert (Qb : pe LPrec14 (uncomment r2) = POk r b) by (now apply Rb).
    assert (S : assign_parser r1 = POk r (o, b)).
    { unfold assign_parser, ppair, pbind. erewrite delim_hit; [now rewrite Qb|]. rewrite E. apply ops_hit; [exact Hi|].
      vm_compute; repeat (apply NoDup_cons; [nin|]); apply NoDup_nil. }
    rewrite (fold_step _ _ _ _ _ _ assign_strict S). apply fold_stop. now apply assign_stop.
  - intros r Hu q E. assert (Q : pe LPrec14 r = PErr) by (apply (pe_fails Assignment); rewrite <- Hu, E; nin).
    unfold separated_list0. now rewrite Q.
  - intros ts e r1 es r d R M Hm Hu q E. destruct (Hm q E) as ((c & q' & Ec & Hc) & Hn). unfold separated_list0.
    assert (Q : pe LPrec14 ts = POk r1 e).
    { apply R. unfold follow. rewrite Ec. cbn [P]. destruct Hc as [<-|[<-|[]]]; nin. }
    rewrite Q. now rewrite Hn by lia.
  - intros r q E. split; [exists ")", q; cbn; auto|]. intros n acc Hn. destruct n as [|n]; [lia|]. cbn [sep_list_n].
    unfold pbind at 1. destruct (meta_uncomment r) as (cs & ->). rewrite E. unfold pbind. rewrite punct_miss by discriminate.
    now rewrite app_nil_r.
  - intros r1 r2 e r3 es r E d R M Hm q Eq. split; [exists ",", r2; cbn; auto|]. intros n acc Hn.
    destruct (Hm q Eq) as ((c & q' & Ec & Hc) & Hr). destruct n as [|n]; [lia|]. cbn [sep_list_n].
    unfold pbind at 1. destruct (meta_uncomment r1) as (cs & ->). rewrite E. unfold pbind. rewrite punct_hit.
    destruct (meta_uncomment r2) as (cs2 & ->).
    assert (L : length (uncomment r2) < length r1).
    { pose proof (uncomment_length r1). pose proof (uncomment_length r2). rewrite E in *. cbn in *. lia. }
    rewrite (proj2 (Nat.eqb_neq _ _)) by lia.
    assert (Q : pe LPrec14 (uncomment r2) = POk r3 e).
    { apply R. unfold follow. rewrite Ec. cbn [P]. destruct Hc as [<-|[<-|[]]]; nin. }
    rewrite Q. pose proof (ssuffix_length _ _ (strict_pe _ _ _ _ Q)). rewrite Hr by lia. now rewrite <- app_assoc.
Qed.

Theorem derives_parses l ts e r : D l ts e r -> follow l r -> pe (plvl l) ts = POk r e.
Proof. intros d. apply reaches_parses. now apply derives_reaches. Qed.
End G.
