(** C59: inline assembly is parsed as in the GCC manual. *)
From Verif Require Import Base Utf UtfFacts Lex LexFacts LexFloat Token Ast Nom NomFacts ParseTok ParseExpr ParseStmt Rust Finish Codegen StrFacts ParseFacts
  SpecInt DecFacts SpecString SpecAsm PropAsm SpecType SpecGrammar GrammarFacts SpecAsmGrammar AsmGrammarFacts SpecStmtGrammar StmtGrammarFacts
  PropFnGen PropStmtGrammar.
From Coq Require Import String List ZArith Lia Bool.
Import ListNotations.
Local Open Scope string_scope.
Local Open Scope list_scope.

(** C59: a macro whose body is one assembly statement of the supported part of
    the grammar is accepted, with the template, the operands (in order, each
    with its direction, register class and expression) and the clobbers that
    the grammar gives it. *)
Theorem C59_assembly_partial {U : Unicode} types body a r name args m :
  assembly types true (uncomment body) a r ->
  r = [P ";"] \/ r = [] /\ qualified_assembly body ->
  fn_macro_parse name args body = ROk m -> fm_body m = MbStatement (SAsm a).
Proof.
  intros A R M. destruct (C51_parse_partial types body [SAsm a]) as [F _].
  - split.
    + exists []. split; [|reflexivity]. eapply q_some; [|apply q_none]. eapply s_assembly; [exact A|].
      destruct R as [->|[-> _]]; (split; [|reflexivity]); [left|right; split]; reflexivity.
    + destruct R as [->|[_ I]]; [left|now right; right].
      assert (S : suffix [P ";"] body).
      { apply (assembly_reads types) in A. apply strict_asm in A. apply ssuffix_suffix in A. destruct A as (p & Ep).
        destruct (uncomment_split body) as (cs & Ec). exists (map MComment cs ++ p). rewrite Ec at 1. rewrite Ep. now rewrite app_assoc. }
      destruct S as (p & ->). apply in_app_iff. right. now left.
  - specialize (F name args). now rewrite M in F.
Qed.

(** ** Constraints *)

Definition c_i : N := 105.
(** What is accepted as a constraint is one of the grammar, or has the letter i. *)
Lemma constraint_sound s k : all_consuming parse_reg_constraint s = Some k -> constraint true s k \/
  In c_i s /\ k = RcReg /\ Forall ascii_letter s /\ forall x, In x letter_classes -> In (fst x) s -> snd x = RcReg.
Proof.
  unfold all_consuming, parse_reg_constraint. intros E.
  destruct (take_while1 is_alpha s) as [[r w]|] eqn:T; cbn [obind fst snd] in E.
  - apply take_while1_some in T as (Ne & Es & F & _).
    assert (K : exists r', oor (omap (pair r) (if has_char 114 w then Some RcReg else if has_char 81 w then Some RcRegAbcd
      else if has_char 113 w then Some RcRegByte else if has_char 102 w then Some RcFreg else if has_char 105 w || has_char 103 w then Some RcReg else None)) None = Some (r', k) /\ r' = []).
    { destruct (take_while1 is_digit s) as [[r2 w2]|] eqn:T2; cbn [obind fst snd] in E.
      - exfalso. apply take_while1_some in T2 as (Ne2 & Es2 & F2 & _). rewrite Es in Es2. destruct w as [|c w]; [contradiction|]. destruct w2 as [|c2 w2]; [contradiction|].
        injection Es2 as -> _. cbn in F, F2. apply andb_true_iff in F as [F _]. apply andb_true_iff in F2 as [F2 _].
        apply alpha_letter in F. apply digit_ascii in F2. unfold ascii_letter, ascii_digit in *. lia.
      - destruct (oor _ None) as [[[|] k']|]; try discriminate E. injection E as ->. now exists []. }
    destruct K as (r' & K & ->). clear E.
    apply (forallb_Forall _ _ _ alpha_letter) in F.
    assert (C : forall l1 c k0 l2, letter_classes = l1 ++ (c, k0) :: l2 -> has_char c w = true -> (forall x, In x l1 -> has_char (fst x) w = false) ->
      Some ([] : str, k0) = Some ([], k) -> r = [] -> constraint true s k).
    { intros l1 c k0 l2 El Hc Hl Ek ->. injection Ek as <-. rewrite app_nil_r in Es. subst w. eapply co_letters; [exact F|exact El|now apply has_char_in|].
      intros _ x Hx Hi. apply has_char_in in Hi. rewrite (Hl x Hx) in Hi. discriminate. }
    destruct (has_char 114 w) eqn:H1; [injection K as -> <-; left; apply (C [] _ _ _ eq_refl H1); [intros x []|reflexivity|reflexivity]|].
    destruct (has_char 81 w) eqn:H2; [injection K as -> <-; left; apply (C [_] _ _ _ eq_refl H2); [intros x [<-|[]]; assumption|reflexivity|reflexivity]|].
    destruct (has_char 113 w) eqn:H3; [injection K as -> <-; left; apply (C [_; _] _ _ _ eq_refl H3); [intros x [<-|[<-|[]]]; assumption|reflexivity|reflexivity]|].
    destruct (has_char 102 w) eqn:H4; [injection K as -> <-; left; apply (C [_; _; _] _ _ _ eq_refl H4); [intros x [<-|[<-|[<-|[]]]]; assumption|reflexivity|reflexivity]|].
    destruct (has_char 105 w) eqn:H5; cbn [orb] in K.
    + injection K as -> <-. right. rewrite app_nil_r in Es. subst w. split; [now apply has_char_in in H5|]. split; [reflexivity|]. split; [exact F|].
      intros x Hx Hi. apply has_char_in in Hi. cbn in Hx. repeat destruct Hx as [<- | Hx]; try reflexivity; cbn [fst] in Hi; try congruence. destruct Hx.
    + destruct (has_char 103 w) eqn:H6; [|discriminate K]. injection K as -> <-. left.
      apply (C [_; _; _; _] _ _ _ eq_refl H6); [intros x [<-|[<-|[<-|[<-|[]]]]]; assumption|reflexivity|reflexivity].
  - cbn [oor] in E. destruct (take_while1 is_digit s) as [[r w]|] eqn:T2; cbn [obind fst snd] in E; [|discriminate E].
    apply take_while1_some in T2 as (Ne & Es & F & _). destruct (dec_val w <? 256)%Z eqn:V; [|discriminate E]. apply Z.ltb_lt in V.
    destruct r; [|discriminate E]. injection E as <-. rewrite app_nil_r in Es. subst w. left.
    assert (K : numeral 10 s (dec_val s)) by (apply numeral10; auto).
    assert (NN : (0 <= dec_val s)%Z).
    { pose proof K as K'. apply IntFacts.numeral_from_iff in K' as [_ K']. apply IntFacts.numeral_from_mono in K'; [exact K'|lia|lia]. }
    apply co_number; [now rewrite Z2N.id|]. intros _. lia.
Qed.

Section Operand.
Context {U : Unicode}.
(** [__asm__ volatile ("" : : "s" (x))] and [__asm__ volatile ("" : "s" (x))]. *)
Definition input_body (s : str) : list mtoken :=
  [kw "__asm__"; kw "volatile"; P "("; string_token []; P ":"; P ":"; string_token (utf8_encode s); P "("; MArg 0; P ")"; P ")"].
Definition output_body (s : str) : list mtoken :=
  [kw "__asm__"; kw "volatile"; P "("; string_token []; P ":"; string_token (utf8_encode s); P "("; MArg 0; P ")"; P ")"].

Lemma string_alone {A} (f : str -> option A) s r : Forall scalar s ->
  string_with f (string_token (utf8_encode s) :: P "(" :: r) = match f s with Some a => POk (P "(" :: r) a | None => PErr end.
Proof.
  intros Sc. unfold string_with, pmap_opt, pbind.
  assert (L : lit_string_parse (string_token (utf8_encode s) :: P "(" :: r) = POk (P "(" :: r) (SOrdinary (utf8_encode s))).
  { apply literals_read. apply li_one. intros (x & r' & E). discriminate E. }
  rewrite L. cbn [lit_string_as_str]. rewrite utf8_decode_encode by exact Sc. cbn [obind]. now destruct (f s).
Qed.
Lemma pbind_ok {A B} (p : parser A) (k : A -> parser B) ts r a : p ts = POk r a -> pbind p k ts = k a r.
Proof. intros E. unfold pbind. now rewrite E. Qed.
Lemma paren_arg : parenthesized expr_parse [P "("; MArg 0; P ")"; P ")"] = POk [P ")"] (EVar (IArg 0)).
Proof. vm_compute. reflexivity. Qed.
Lemma one_item {A} (p : parser A) ts : 
  colon_section (separated_list0 (delimited meta (punct ",") meta) p) (P ":" :: ts) =
  match p (uncomment ts) with
  | POk r x => pmap (fun o => match o with Some l => l | None => [] end) (fun _ => match sep_list_n (Datatypes.S (length r)) (delimited meta (punct ",") meta) p [x] r with
      | POk r a => POk r (Some a) | PErr => POk (P ":" :: ts) None | PFuel => PFuel end) []
  | PErr => POk (uncomment ts) [] | PFuel => PFuel end.
Proof.
  unfold colon_section, pmap at 1, popt, preceded, pbind. rewrite (delim_hit (punct ":") (P ":" :: ts) ts (st ":")) by apply punct_hit.
  unfold separated_list0. destruct (p (uncomment ts)) as [r x| |]; reflexivity.
Qed.
Lemma no_colon {A} (p : parser (list A)) t r : t <> P ":" -> uncomment (t :: r) = t :: r -> colon_section p (t :: r) = POk (t :: r) [].
Proof.
  intros N E. unfold colon_section, pmap, popt, preceded, pbind. rewrite delim_miss; [reflexivity|]. rewrite E. apply punct_miss. intros r' X. injection X as -> _. now apply N.
Qed.
Lemma item_one {A} (p : parser A) ts x : p (uncomment ts) = POk [P ")"] x ->
  colon_section (separated_list0 (delimited meta (punct ",") meta) p) (P ":" :: ts) = POk [P ")"] [x].
Proof. intros E. rewrite one_item, E. reflexivity. Qed.
Lemma item_none {A} (p : parser A) ts : p (uncomment ts) = PErr ->
  colon_section (separated_list0 (delimited meta (punct ",") meta) p) (P ":" :: ts) = POk (uncomment ts) [].
Proof. intros E. rewrite one_item, E. reflexivity. Qed.
Lemma asm_open ts : asm_parse (kw "__asm__" :: kw "volatile" :: P "(" :: ts) =
  parenthesized
      (t <~ delimited meta (string_with parse_template) meta ;;
       outs <~ colon_section (separated_list0 (delimited meta (punct ",") meta) out_parser) ;;
       ins <~ colon_section (separated_list0 (delimited meta (punct ",") meta) in_parser) ;;
       cl <~ colon_section (separated_list0 (meta ;;> (punct "," ;;> meta)) (string_with Some)) ;;
       pret (mk_asm t outs ins cl)) (P "(" :: ts).
Proof. reflexivity. Qed.
Lemma empty_template ts : delimited meta (string_with parse_template) meta (string_token [] :: P ":" :: ts) = POk (P ":" :: ts) [[]].
Proof.
  apply (delim_hit _ _ (P ":" :: ts)). cbn [uncomment string_token]. apply (text_reads _ _ []); [|reflexivity]. split; [constructor|].
  apply li_one. intros (x & r & E). discriminate E.
Qed.
Lemma not_closed {A} (p : parser A) b ts r a : uncomment ts = ts -> p ts = POk (string_token b :: r) a -> parenthesized p (P "(" :: ts) = PErr.
Proof. intros Eu E. rewrite paren_open, Eu, E. reflexivity. Qed.

Lemma input_asm s : Forall scalar s -> asm_parse (input_body s) =
  match parse_input_operands s with Some k => POk [] (mk_asm [[]] [] [(k, EVar (IArg 0))] []) | None => PErr end.
Proof.
  intros Sc. pose proof (string_alone parse_input_operands s [MArg 0; P ")"; P ")"] Sc) as E. unfold input_body. rewrite asm_open.
  assert (I : in_parser [string_token (utf8_encode s); P "("; MArg 0; P ")"; P ")"] =
    match parse_input_operands s with Some k => POk [P ")"] (k, EVar (IArg 0)) | None => PErr end).
  { unfold in_parser, ppair, pbind. rewrite E. destruct (parse_input_operands s); [|reflexivity]. now rewrite paren_arg. }
  destruct (parse_input_operands s) as [k|].
  - apply (paren_hit _ _ [P ")"]); [|reflexivity]. cbn [uncomment string_token]. rewrite (pbind_ok _ _ _ _ _ (empty_template _)).
    erewrite pbind_ok by (apply item_none; reflexivity). cbn [uncomment P].
    erewrite pbind_ok by (apply item_one; exact I). erewrite pbind_ok by (apply no_colon; [discriminate|reflexivity]). reflexivity.
  - eapply not_closed; [reflexivity|]. rewrite (pbind_ok _ _ _ _ _ (empty_template _)).
    erewrite pbind_ok by (apply item_none; reflexivity). cbn [uncomment P].
    erewrite pbind_ok by (apply item_none; exact I). cbn [uncomment string_token].
    erewrite pbind_ok by (apply no_colon; [discriminate|reflexivity]). reflexivity.
Qed.
Lemma output_asm s : Forall scalar s -> asm_parse (output_body s) =
  match parse_output_operands s with Some (d, k) => POk [] (mk_asm [[]] [(d, k, EVar (IArg 0))] [] []) | None => PErr end.
Proof.
  intros Sc. pose proof (string_alone parse_output_operands s [MArg 0; P ")"; P ")"] Sc) as E. unfold output_body. rewrite asm_open.
  assert (I : out_parser [string_token (utf8_encode s); P "("; MArg 0; P ")"; P ")"] =
    match parse_output_operands s with Some (d, k) => POk [P ")"] (d, k, EVar (IArg 0)) | None => PErr end).
  { unfold out_parser, pmap, ppair, pbind. rewrite E. destruct (parse_output_operands s) as [[d k]|]; [|reflexivity]. now rewrite paren_arg. }
  destruct (parse_output_operands s) as [[d k]|].
  - apply (paren_hit _ _ [P ")"]); [|reflexivity]. cbn [uncomment string_token]. rewrite (pbind_ok _ _ _ _ _ (empty_template _)).
    erewrite pbind_ok by (apply item_one; exact I). erewrite pbind_ok by (apply no_colon; [discriminate|reflexivity]).
    erewrite pbind_ok by (apply no_colon; [discriminate|reflexivity]). reflexivity.
  - eapply not_closed; [reflexivity|]. rewrite (pbind_ok _ _ _ _ _ (empty_template _)).
    erewrite pbind_ok by (apply item_none; exact I). cbn [uncomment string_token].
    erewrite pbind_ok by (apply no_colon; [discriminate|reflexivity]). erewrite pbind_ok by (apply no_colon; [discriminate|reflexivity]). reflexivity.
Qed.
Lemma body_asm ts r : ts = kw "__asm__" :: kw "volatile" :: P "(" :: r -> decls ts = PErr ->
  (forall a r', asm_parse ts = POk r' a -> r' = []) ->
  macro_body_parse ts = match asm_parse ts with POk _ a => POk [] (MbStatement (SAsm a)) | PErr => PErr | PFuel => PFuel end.
Proof.
  intros -> Ed Er. unfold macro_body_parse, pbind. destruct (meta_uncomment (kw "__asm__" :: kw "volatile" :: P "(" :: r)) as (cs & ->). cbn [uncomment kw].
  change (MIdent (st "__asm__") :: MIdent (st "volatile") :: P "(" :: r) with (kw "__asm__" :: kw "volatile" :: P "(" :: r).
  set (ts := kw "__asm__" :: kw "volatile" :: P "(" :: r) in *.
  rewrite palt_err.
  2:{ destruct (not_expression "__asm__" "volatile" r) as [Q|(e & Q)]; [cbn; tauto| |]; fold ts in Q; unfold pall_consuming, pmap, pbind; now rewrite expr_parse_pe, Q. }
  assert (St : stmt_parse_single ts = match asm_parse ts with POk r' a => match semicolon_or_eof r' with POk r2 _ => POk r2 (SAsm a) | PErr => PErr | PFuel => PFuel end | PErr => PErr | PFuel => PFuel end).
  { rewrite stmt_single_eq. unfold stmt_step. cbn [palts]. unfold palt at 1, pmap at 1, terminated at 1, pbind at 1 2.
    destruct (asm_parse ts) as [r' a| |] eqn:Ea; [|exact Ed|reflexivity].
    rewrite (Er _ _ eq_refl). reflexivity. }
  unfold pall_consuming, stmt_parse, pmap, pbind. change (many0 _ ts) with (fold_many0 outside (fun a x => a ++ [x]) [] ts).
  destruct (asm_parse ts) as [r' a| |] eqn:Ea.
  - pose proof (Er _ _ eq_refl) as ->. erewrite fold_step; [|apply outside_strict|apply delim_hit; exact St].
    rewrite fold_stop; [reflexivity|]. apply delim_miss. apply single_fails. now left.
  - rewrite fold_stop; [reflexivity|]. apply delim_miss. exact St.
  - exfalso. exact (tot_asm (length ts) ts (le_n _) Ea).
Qed.
Lemma input_decls b : decls [kw "__asm__"; kw "volatile"; P "("; string_token []; P ":"; P ":"; string_token b; P "("; MArg 0; P ")"; P ")"] = PErr.
Proof. vm_compute. reflexivity. Qed.
Lemma output_decls b : decls [kw "__asm__"; kw "volatile"; P "("; string_token []; P ":"; string_token b; P "("; MArg 0; P ")"; P ")"] = PErr.
Proof. vm_compute. reflexivity. Qed.

(** C59, constraints: whatever text stands as the constraint of an operand, the
    operand gets a register class that the text allows, or the macro is
    rejected; except if the text has the letter i (see below). *)
Theorem C59_input_constraint_partial s name args m : Forall scalar s ->
  fn_macro_parse name args (input_body s) = ROk m ->
  exists k, fm_body m = MbStatement (SAsm (mk_asm [[]] [] [(k, EVar (IArg 0))] [])) /\ (constraint false s k \/ In c_i s).
Proof.
  intros Sc M. assert (Q : macro_body_parse (input_body s) = match parse_input_operands s with
    | Some k => POk [] (MbStatement (SAsm (mk_asm [[]] [] [(k, EVar (IArg 0))] []))) | None => PErr end).
  { erewrite body_asm; [|reflexivity|apply input_decls|].
    - rewrite (input_asm s Sc). now destruct (parse_input_operands s).
    - intros a r' E. rewrite (input_asm s Sc) in E. destruct (parse_input_operands s); [|discriminate E]. now injection E. }
  unfold fn_macro_parse in M. destruct (is_identifier name); cbn [negb] in M; [|discriminate M].
  destruct (parse_args args); [|discriminate M|discriminate M]. rewrite Q in M.
  unfold parse_input_operands in *. destruct (all_consuming parse_reg_constraint s) as [k|] eqn:E; [|discriminate M]. injection M as <-. exists k.
  split; [reflexivity|]. apply constraint_sound in E as [C|[I _]]; [left|now right].
  destruct C as [w l1 c k l2 F El Ic _|w n K _]; [eapply co_letters|apply co_number]; eauto; discriminate.
Qed.
Theorem C59_output_constraint_partial s name args m : Forall scalar s ->
  fn_macro_parse name args (output_body s) = ROk m ->
  exists d w k, fm_body m = MbStatement (SAsm (mk_asm [[]] [(d, k, EVar (IArg 0))] [] [])) /\
    (d = DOut /\ s = st "=" ++ w \/ d = DInOut /\ s = st "+" ++ w) /\ (constraint false w k \/ In c_i w).
Proof.
  intros Sc M. assert (Q : macro_body_parse (output_body s) = match parse_output_operands s with
    | Some (d, k) => POk [] (MbStatement (SAsm (mk_asm [[]] [(d, k, EVar (IArg 0))] [] []))) | None => PErr end).
  { erewrite body_asm; [|reflexivity|apply output_decls|].
    - rewrite (output_asm s Sc). now destruct (parse_output_operands s) as [[d k]|].
    - intros a r' E. rewrite (output_asm s Sc) in E. destruct (parse_output_operands s) as [[d k]|]; [|discriminate E]. now injection E. }
  unfold fn_macro_parse in M. destruct (is_identifier name); cbn [negb] in M; [|discriminate M].
  destruct (parse_args args); [|discriminate M|discriminate M]. rewrite Q in M.
  destruct (parse_output_operands s) as [[d k]|] eqn:E; [|discriminate M]. injection M as <-.
  assert (D : exists w, (d = DOut /\ s = st "=" ++ w \/ d = DInOut /\ s = st "+" ++ w) /\ all_consuming parse_reg_constraint w = Some k).
  { unfold parse_output_operands in E. destruct s as [|c w]; [discriminate E|]. cbn [char1] in E.
    destruct (N.eqb c 61) eqn:C1; cbn [omap oor obind fst snd] in E.
    - apply N.eqb_eq in C1. subst c. exists w. destruct (all_consuming parse_reg_constraint w); [|discriminate E]. injection E as <- <-. cbn. auto.
    - destruct (N.eqb c 43) eqn:C2; cbn [omap oor obind fst snd] in E; [|discriminate E].
      apply N.eqb_eq in C2. subst c. exists w. destruct (all_consuming parse_reg_constraint w); [|discriminate E]. injection E as <- <-. cbn. auto. }
  destruct D as (w & D & Ew). exists d, w, k. split; [reflexivity|]. split; [exact D|].
  apply constraint_sound in Ew as [C|[I _]]; [left|now right].
  destruct C as [w' l1 c k l2 F El Ic _|w' n K _]; [eapply co_letters|apply co_number]; eauto; discriminate.
Qed.
(** C59, wide strings: [L"..."] has no text, so it is accepted neither as the
    template nor as a constraint nor as a clobber. *)
Definition wide_bodies (w : list N) : list (list mtoken) :=
  let wide := MLit (LString (SWide w)) in
  let start := [kw "__asm__"; kw "volatile"; P "("] in
  [start ++ [wide; P ")"];
   start ++ [string_token []; P ":"; wide; P "("; MArg 0; P ")"; P ")"];
   start ++ [string_token []; P ":"; P ":"; wide; P "("; MArg 0; P ")"; P ")"];
   start ++ [string_token []; P ":"; P ":"; P ":"; wide; P ")"]].
Theorem C59_wide w body name args m : In body (wide_bodies w) -> fn_macro_parse name args body <> ROk m.
Proof.
  intros I M. assert (Q : macro_body_parse body = PErr).
  { assert (A : asm_parse body = PErr /\ decls body = PErr /\ exists r, body = kw "__asm__" :: kw "volatile" :: P "(" :: r).
    { cbn [wide_bodies In app] in I. repeat destruct I as [<- | I]; [split; [|split; [vm_compute; reflexivity|eexists; reflexivity]]..|destruct I]; rewrite asm_open.
      - vm_compute; reflexivity.
      - vm_compute; reflexivity.
      - vm_compute; reflexivity.
      - vm_compute; reflexivity. }
    destruct A as (A & D & r & ->). erewrite body_asm; [now rewrite A|reflexivity|exact D|]. intros a r' X. congruence. }
  unfold fn_macro_parse in M. destruct (is_identifier name); cbn [negb] in M; [|discriminate M].
  destruct (parse_args args); [|discriminate M|discriminate M]. rewrite Q in M. discriminate M.
Qed.
End Operand.

Section Demo.
#[local] Existing Instance demo_unicode.
Let I (s : string) := MIdent (st s).
Let S (s : string) := string_token (st s).
Let none : str -> bool := fun _ => false.
Ltac ups := repeat (eapply d_up; [reflexivity|]).
Ltac atom := ups; apply d_arg.
Ltac each t := match goal with |- Forall ?P ?l => let l' := eval vm_compute in l in change (Forall P l') end;
  repeat (apply Forall_cons; [t|]); apply Forall_nil.
Ltac scalars := repeat (apply Forall_cons; [left; reflexivity|]); apply Forall_nil.
Ltac text t := split; [scalars|apply (li_one _ (st t)); intros (? & ? & E); discriminate E].

(** [__asm__ volatile ("mov %1, %0" : "=r" (x), "+f" (y) : "0" (x), "rm" (y) : "memory", "cc")]. *)
Let body := [I "__asm__"; I "volatile"; P "("; S "mov %1, "; S "%0"; MComment (st "c");
  P ":"; S "=r"; P "("; MArg 0; P ")"; P ","; MComment (st "d"); S "+f"; P "("; MArg 1; P ")";
  P ":"; S "0"; P "("; MArg 0; P ")"; P ","; S "rm"; P "("; MArg 1; P ")";
  P ":"; S "memory"; P ","; S "cc"; P ")"].
Let statement_of_body := mk_asm [st "mov {1}, {0}"]
  [(DOut, RcReg, EVar (IArg 0)); (DInOut, RcFreg, EVar (IArg 1))] [(RcDigit 0, EVar (IArg 0)); (RcReg, EVar (IArg 1))] [st "memory"; st "cc"].
Ltac letter l1 := eapply (co_letters _ _ l1); [each ltac:(unfold ascii_letter; lia)|reflexivity|cbn; tauto|
  intros _ x Hx; cbn in Hx |- *; repeat (destruct Hx as [<-|Hx]; [cbn; intros K; repeat (destruct K as [K|K]; [discriminate K|]); exact K|]); destruct Hx].
Ltac parens := eexists; eexists; split; [reflexivity|split; [atom|split; [reflexivity|reflexivity]]].
Example C59_case : qualified_assembly body /\ assembly none true (uncomment body) statement_of_body [].
Proof.
  split.
  { exists "__asm__", "volatile". eexists. split; [cbn; tauto|]. split; [cbn; tauto|reflexivity]. }
  apply (assembly_intro _ _ "__asm__" [kw "volatile"] _ (st "mov %1, %0")
    [st "mov {1}, {0}"] (MComment (st "c") :: P ":" :: S "=r" :: P "(" :: MArg 0 :: P ")" :: P "," :: MComment (st "d") :: S "+f" :: P "(" :: MArg 1 :: P ")" ::
      P ":" :: S "0" :: P "(" :: MArg 0 :: P ")" :: P "," :: S "rm" :: P "(" :: MArg 1 :: P ")" :: P ":" :: S "memory" :: P "," :: S "cc" :: [P ")"])
    _ (P ":" :: S "0" :: P "(" :: MArg 0 :: P ")" :: P "," :: S "rm" :: P "(" :: MArg 1 :: P ")" :: P ":" :: S "memory" :: P "," :: S "cc" :: [P ")"])
    _ (P ":" :: S "memory" :: P "," :: S "cc" :: [P ")"]) _ [P ")"]).
  - cbn. tauto.
  - split; [repeat constructor; cbn; tauto|]. intros _. right. exists "volatile". split; [cbn; tauto|reflexivity].
  - split; [scalars|]. change (utf8_encode (st "mov %1, %0")) with (st "mov %1, " ++ st "%0").
    apply (li_more _ (st "mov %1, ") (S "%0" :: MComment (st "c") :: _) (st "%0")); [|reflexivity]. cbn [uncomment string_token].
    apply (li_one _ (st "%0")). intros (? & ? & E). discriminate E.
  - exists [PChar 109; PChar 111; PChar 118; PChar 32; PRef (st "1"); PChar 44; PChar 32; PRef (st "0")].
    exists (st "mov {1}, {0}"). split; [|split; [reflexivity|split; [|split]]].
    + repeat (apply ps_char; [discriminate|intros [K|K]; discriminate K|]). apply ps_ref; [discriminate|each ltac:(unfold ascii_digit; lia)|unfold text; cbn; unfold ascii_digit; lia|].
      repeat (apply ps_char; [discriminate|intros [K|K]; discriminate K|]). apply ps_ref; [discriminate|each ltac:(unfold ascii_digit; lia)|cbn; tauto|]. apply ps_nil.
    + assert (D : forall c v, In (c, v) [(48%N, 0%Z); (49%N, 1%Z)] -> numeral 10 [c] v /\ decimal [c] v).
      { intros c v Hi. assert (numeral 10 [c] v) by (apply num_digit; destruct Hi as [E|[E|[]]]; injection E as <- <-; unfold digit; lia).
        split; [assumption|]. split; [assumption|]. destruct Hi as [E|[E|[]]]; injection E as <- <-; [now left|right; cbn; discriminate]. }
      pose proof (D 48%N 0%Z (or_introl eq_refl)) as [N0 D0]. pose proof (D 49%N 1%Z (or_intror (or_introl eq_refl))) as [N1 D1].
      change (st "mov {1}, {0}") with ([109] ++ [111] ++ [118] ++ [32] ++ ([123] ++ [49] ++ [125]) ++ [44] ++ [32] ++ ([123] ++ [48] ++ [125]) ++ [])%N.
      repeat first [apply rt_nil | apply rt_cons; [first [apply rp_char | eapply rp_ref; eassumption]|]].
    + exists [st "mov {1}, {0}"]. split; [reflexivity|]. split; [discriminate|]. split.
      * constructor; [|constructor]. vm_compute. intros K. repeat (destruct K as [K|K]; [discriminate K|]). exact K.
      * constructor; [|constructor]. exists [], []. split; [reflexivity|]. split; [constructor|]. split; [constructor|].
        split; vm_compute; discriminate.
    + intros _. split.
      * intros ds v Hi Hn. cbn in Hi. repeat (destruct Hi as [Hi|Hi]; [try discriminate Hi|]); [| |destruct Hi];
          injection Hi as <-; apply numeral10 in Hn as (_ & _ & ->); reflexivity.
      * cbn. tauto.
  - eapply se_present; [reflexivity|]. cbn [uncomment]. eapply it_some.
    + eapply (oo_write _ _ _ (st "r")); [text "=r"|letter (@nil (N * reg_constraint))|parens].
    + eapply mi_some; [reflexivity| |apply mi_none|discriminate]. cbn [uncomment].
      eapply (oo_both _ _ _ (st "f")); [text "+f"|letter [(114, RcReg); (81, RcRegAbcd); (113, RcRegByte)]%N|parens].
  - eapply se_present; [reflexivity|]. cbn [uncomment]. eapply it_some.
    + eapply (io _ _ _ (st "0")); [text "0"|apply co_number; [apply numeral10; repeat split; discriminate|intros _; reflexivity]|parens].
    + eapply mi_some; [reflexivity| |apply mi_none|discriminate]. cbn [uncomment].
      eapply (io _ _ _ (st "rm")); [text "rm"|letter (@nil (N * reg_constraint))|parens].
  - eapply se_present; [reflexivity|]. cbn [uncomment]. eapply it_some; [text "memory"|].
    eapply mi_some; [reflexivity| |apply mi_none|discriminate]. cbn [uncomment]. text "cc".
  - reflexivity.
Qed.
Example C59_constraint_case : Forall scalar (st "+qm") /\ exists m, fn_macro_parse (st "F") [I "x"] (output_body (st "+qm")) = ROk m.
Proof. split; [scalars|]. eexists. vm_compute. reflexivity. Qed.

Ltac nop := exists [PChar 110; PChar 111; PChar 112], (st "nop"); split; [repeat (apply ps_char; [discriminate|intros [K|K]; discriminate K|]); apply ps_nil|];
  split; [reflexivity|]; split; [change (st "nop") with ([110] ++ [111] ++ [112] ++ [])%N; repeat first [apply rt_nil | apply rt_cons; [apply rp_char|]]|];
  split; [|discriminate]; exists [st "nop"]; split; [reflexivity|]; split; [discriminate|]; split;
  [constructor; [|constructor]; vm_compute; intros K; repeat (destruct K as [K|K]; [discriminate K|]); exact K|
   constructor; [|constructor]; exists [], []; split; [reflexivity|]; split; [constructor|]; split; [constructor|]; split; vm_compute; discriminate].
Ltac absent := apply se_absent; cbn; discriminate.

(** [__asm__ __volatile__ ("nop");], the common spelling, is rejected. *)
Theorem C59_volatile_refuted :
  let body := [I "__asm__"; I "__volatile__"; P "("; S "nop"; P ")"; P ";"] in
  c_statements none body [SAsm (mk_asm [st "nop"] [] [] [])] /\ fn_macro_parse (st "NOP") [] body = RErr InvalidMacroBody.
Proof.
  cbv zeta. split; [|vm_compute; reflexivity]. exists []. split; [|reflexivity]. eapply q_some; [|apply q_none]. cbn [uncomment I].
  eapply (s_assembly _ _ _ _ [P ";"]); [|split; [left; reflexivity|discriminate]].
  eapply (assembly_intro _ _ "__asm__" [kw "__volatile__"] _ (st "nop") _ [P ")"; P ";"] _ [P ")"; P ";"] _ [P ")"; P ";"] _ [P ")"; P ";"]); [cbn; tauto|split; [repeat constructor; cbn; tauto|discriminate]|text "nop"|nop|absent|absent|absent|reflexivity].
Qed.
(** [__asm__ ("nop")], without the semicolon that the use of the macro adds, is
    taken for a call of a function named [__asm__]. *)
Theorem C59_call_refuted : exists m m' ts,
  let body := [I "__asm__"; P "("; S "nop"; P ")"] in
  c_statements none body [SAsm (mk_asm [st "nop"] [] [] [])] /\
  fn_macro_parse (st "NOP") [] body = ROk m /\ fn_generate cx_unit m = (m', ROk ts) /\
  fm_body m = MbExpr (ECall (IPlain (st "__asm__")) [ELit (LString (SOrdinary (st "nop")))]).
Proof.
  do 3 eexists. cbv zeta. split.
  - exists []. split; [|reflexivity]. eapply q_some; [|apply q_none]. cbn [uncomment I].
    eapply (s_assembly _ _ _ _ []); [|split; [right; split; reflexivity|discriminate]].
    eapply (assembly_intro _ _ "__asm__" [] _ (st "nop") _ [P ")"] _ [P ")"] _ [P ")"] _ [P ")"]); [cbn; tauto|split; [constructor|discriminate]|text "nop"|nop|absent|absent|absent|reflexivity].
  - split; [vm_compute; reflexivity|]. split; vm_compute; reflexivity.
Qed.
(** The constraint i, for which only a constant may be used, becomes a register. *)
Theorem C59_immediate_refuted : exists m m' ts,
  fn_macro_parse (st "INT") [I "x"] (input_body (st "i")) = ROk m /\ fn_generate cx_unit m = (m', ROk ts) /\
  fm_body m = MbStatement (SAsm (mk_asm [[]] [] [(RcReg, EVar (IArg 0))] [])) /\ ~ constraint false (st "i") RcReg.
Proof.
  do 3 eexists. split; [vm_compute; reflexivity|]. split; [vm_compute; reflexivity|]. split; [vm_compute; reflexivity|].
  intros C. inversion C as [w l1 c k l2 F E Hi _|]; subst. unfold letter_classes in E. destruct Hi as [<-|[]].
  destruct l1 as [|? l1]; [discriminate E|]. destruct l1 as [|? l1]; [discriminate E|]. destruct l1 as [|? l1]; [discriminate E|].
  destruct l1 as [|? l1]; [discriminate E|]. destruct l1 as [|? l1]; [discriminate E|]. destruct l1; discriminate E.
Qed.
End Demo.

Print Assumptions C59_assembly_partial.
Print Assumptions C59_input_constraint_partial.
Print Assumptions C59_output_constraint_partial.
Print Assumptions C59_wide.
Print Assumptions C59_volatile_refuted.
Print Assumptions C59_call_refuted.
Print Assumptions C59_immediate_refuted.
