(** C73: what is accepted as statements is C statements with those trees. *)
From Verif Require Import Base Utf UtfFacts Lex LexFloat Token Ast Nom NomFacts ParseTok ParseExpr ParseStmt ParseFacts StrFacts SpecType SpecInt SpecAsm SpecGrammar GrammarFacts
  SpecAsmGrammar SpecStmtGrammar SpecAccept AcceptFacts AsmAcceptFacts StmtAcceptFacts PropGrammar PropAccept.
From Coq Require Import String List Lia PeanoNat Bool.
Import ListNotations.
Local Open Scope string_scope.
Local Open Scope list_scope.

Lemma body_takes {U : Unicode} types body s : ordinary body -> macro_body_parse body = POk [] (MbStatement s) -> consistent_body types body s ->
  exists l, s = body_tree l /\ c_statements types (uncomment body) l.
Proof.
  intros O E C. assert (O' : ordinary (uncomment body)) by (eapply ordinary_suffix; [apply suffix_uncomment|exact O]).
  unfold macro_body_parse, pbind at 1 in E. destruct (meta_uncomment body) as (cs & M). rewrite M in E.
  destruct (uncomment body) as [|t ts] eqn:Eb.
  - injection E as <-. exists []. split; [reflexivity|]. exists []. split; [constructor|reflexivity].
  - assert (Q : stmt_parse (t :: ts) = POk [] s).
    { unfold palt, pall_consuming, pmap, pbind, pret in E. destruct (expr_parse (t :: ts)) as [[|t' r] e'| |]; cbn [peof] in E; try discriminate;
        unfold stmt_parse; destruct (stmt_parse (t :: ts)) as [[|t2 r2] s2| |] eqn:Es; cbn [peof] in E; try discriminate; injection E as <-; exact Es. }
    eapply (stmt_parse_ok types body); [rewrite <- Eb; now rewrite uncomment_twice|eapply good_suffix; [rewrite <- Eb; apply suffix_uncomment|split; auto]|exact Q|exact C].
Qed.

(** C73: a body that a function-like or variable-like macro keeps as a statement
    is a list of statements of the C grammar, and the tree is one the grammar
    gives it, whatever the size of the body, provided that the text is ordinary
    and the tree uses names as C does, see SpecAccept.v. *)
Theorem C73_accepted_partial {U : Unicode} types body s :
  ordinary body -> consistent_body types body s ->
  (forall name args m, fn_macro_parse name args body = ROk m -> fm_body m = MbStatement s ->
     exists l, s = body_tree l /\ c_statements types (uncomment body) l) /\
  (forall name m, var_macro_parse name body = ROk m -> vm_body m = MbStatement s ->
     exists l, s = body_tree l /\ c_statements types (uncomment body) l).
Proof.
  intros O C. split.
  - intros name args m. unfold fn_macro_parse. destruct (negb _); [discriminate|]. destruct (parse_args args); try discriminate.
    destruct (macro_body_parse body) as [r b| |] eqn:Q; try discriminate. intros E B. injection E as <-. cbn in B. subst b.
    pose proof (body_rest _ _ _ Q) as ->. now apply body_takes.
  - intros name m. unfold var_macro_parse. destruct (negb _); [discriminate|].
    destruct (macro_body_parse body) as [r b| |] eqn:Q; try discriminate. intros E B. injection E as <-. cbn in B. subst b.
    pose proof (body_rest _ _ _ Q) as ->. now apply body_takes.
Qed.

(** A statement followed by something other than an else: what was read is a
    statement. *)
Theorem C73_prefix_partial {U : Unicode} types ts r s :
  ordinary ts -> stmt_parse_single ts = POk r s -> consistent_stmt types ts s -> ~ next_is (kw "else") r -> statement types false ts s r.
Proof. intros O E C N. apply (single_ok types ts); [split; [exact O|auto]|exact E|exact C|now apply no_else]. Qed.

(** ** The conditions are needed *)

Lemma none_pasted ts l r : pasted ts l r -> ts <> [].
Proof. induction 1; [discriminate|assumption]. Qed.
Lemma none_read types l ts e r : derives types false l ts e r -> ts <> [].
Proof.
  induction 1; intro E; try discriminate E; auto; subst.
  all: try match goal with Hr : string_run _ _ _ _ |- _ => apply run_head in Hr as (s' & r' & K); discriminate K end.
  - match goal with Hp : pasted [] _ _ |- _ => now apply none_pasted in Hp end.
  - match goal with Hs : string_parts _ _ _ _ _ |- _ => remember [] as ts0 eqn:K in Hs; clear - Hs K; induction Hs as [ts a r1 b r Hp|]; [|auto] end. subst.
    inversion Hp; subst; [match goal with Hr : string_run _ _ _ _ |- _ => apply run_head in Hr as (s' & r' & K); discriminate K end|].
    match goal with Hn : names _ _ _ |- _ => inversion Hn; subst end. match goal with Hp : pasted [] _ _ |- _ => now apply none_pasted in Hp end.
Qed.
Lemma none_left types s r : ~ statement types false [] s r.
Proof.
  intro S. inversion S as [ts e r1 r' D| | | | | | |T t x ts e r1 r' Tn Hk Hx D En Et| |stc T t x ts l r1 r' Tn Hk Hx D En Et|ts a r1 r' A]; subst.
  - now apply none_read in D.
  - destruct T; discriminate Et.
  - destruct stc, T; discriminate Et.
  - inversion A.
Qed.

(** What follows an expression is the end of its text. *)
Lemma pasted_suffix ts l r : pasted ts l r -> suffix r ts.
Proof.
  induction 1 as [t p r1 r2 t' p' r C N E1 E2 C'|ts l r1 r2 t p r Hp IH E1 E2 C].
  - eapply suffix_trans; [eapply suffix_un; exact E2|]. eapply suffix_trans; [eapply suffix_un; exact E1|]. now exists [t].
  - eapply suffix_trans; [eapply suffix_un; exact E2|]. eapply suffix_trans; [eapply suffix_un; exact E1|exact IH].
Qed.
Lemma names_suffix ts n r : names ts n r -> suffix r ts.
Proof. intros [i q|x q|ts0 l q Hp]; [now exists [MArg i]|now exists [MIdent x]|eapply pasted_suffix; exact Hp]. Qed.
Lemma run_suffix b ts s r : string_run b ts s r -> suffix r ts.
Proof. induction 1 as [s r|ts a r1 b' c r Hr IH E J _ _]; [now exists [MLit (LString s)]|]. eapply suffix_trans; [eapply suffix_un; exact E|exact IH]. Qed.
Lemma part_suffix types b ts e r : string_part types b ts e r -> suffix r ts.
Proof.
  intros [ts0 s q Hr|i ts0 q E|ts0 n q Hn B N]; [eapply run_suffix; exact Hr| |eapply names_suffix; exact Hn].
  eapply suffix_trans; [eapply suffix_un; exact E|]. now exists [P "#"].
Qed.
Lemma parts_suffix types b ts l r : string_parts types b ts l r -> suffix r ts.
Proof.
  induction 1 as [ts a r1 b' r Ha Hb N|ts l a r1 b' r Hl IH Hb N].
  - eapply suffix_trans; [eapply part_suffix; exact Hb|]. eapply suffix_trans; [apply suffix_uncomment|]. eapply part_suffix; exact Ha.
  - eapply suffix_trans; [eapply part_suffix; exact Hb|]. eapply suffix_trans; [apply suffix_uncomment|exact IH].
Qed.
Lemma suffix_cons {A} (t : A) r ts : suffix r ts -> suffix r (t :: ts).
Proof. intros (q & ->). now exists (t :: q). Qed.
Lemma suffix_part {A} (a r ts : list A) : ts = a ++ r -> suffix r ts.
Proof. intros ->. now exists a. Qed.
Ltac ends := repeat first
  [ apply suffix_refl
  | match goal with
    | H : suffix ?r _ |- suffix ?r _ => eapply suffix_trans; [exact H|]; clear H
    | H : uncomment _ = _ :: ?r |- suffix ?r _ => eapply suffix_trans; [eapply suffix_un; exact H|]; clear H
    | H : uncomment _ = _ ++ ?r |- suffix ?r _ => eapply suffix_trans; [eapply suffix_part; exact H|]; clear H
    | |- suffix (uncomment ?r) _ => eapply suffix_trans; [apply suffix_uncomment|]
    | |- suffix _ (_ :: _) => apply suffix_cons
    end ].
Lemma derives_suffix types b l ts e r : derives types b l ts e r -> suffix r ts.
Proof.
  revert l ts e r. refine (derives_mut types b (fun _ ts _ r => suffix r ts) (fun ts _ r => suffix r ts) (fun ts _ r => suffix r ts) _ _ _ _ _ _ _ _ _ _ _ _ _ _ _ _ _ _ _ _ _ _ _ _ _); intros.
  all: repeat match goal with
    | H : pasted _ _ _ |- _ => apply pasted_suffix in H
    | H : names _ _ _ |- _ => apply names_suffix in H
    | H : string_run _ _ _ _ |- _ => apply run_suffix in H
    | H : string_parts _ _ _ _ _ |- _ => apply parts_suffix in H
    end; ends.
Qed.
Lemma ended_suffix b r1 r : ended b r1 r -> suffix r r1.
Proof. intros ([E|(_ & ->)] & _); [eapply suffix_un; exact E|]. exists r1. now rewrite app_nil_r. Qed.
(** The end of a do statement around an expression statement. *)
Lemma do_ends types ts e c r : (forall q, uncomment ts <> P "{" :: q) -> statement types false (kw "do" :: ts) (SDoWhile [SExpr e] c) r ->
  uncomment r = [] \/ exists a r4 r5, ts = a ++ r4 /\ uncomment r4 = P ")" :: r5 /\ uncomment r5 = P ";" :: r.
Proof.
  intros N S. remember (kw "do" :: ts) as t0 eqn:Et. remember (SDoWhile [SExpr e] c) as s0 eqn:Es.
  destruct S; try discriminate; [left; assumption|]. right. injection Et as ->. injection Es as Eb ->.
  assert (Ss : suffix r1 ts).
  { destruct s; try discriminate Eb.
    - cbn in Eb. injection Eb as ->. inversion S; subst. eapply suffix_trans; [eapply ended_suffix; eassumption|].
      eapply suffix_trans; [eapply derives_suffix; eassumption|apply suffix_uncomment].
    - exfalso. inversion S; subst; match goal with K : _ = uncomment ts |- _ => symmetry in K; now apply N in K end. }
  assert (S4 : suffix r4 ts).
  { match goal with D : derives _ _ _ _ _ r4 |- _ => apply derives_suffix in D end. ends. }
  destruct S4 as (a & ->). exists a, r4, r5. auto.
Qed.

Section Demo.
#[local] Existing Instance demo_unicode.
Let I (s : string) := MIdent (st s).
Let L (z : Z) := MLit (LInt (mk_int z None)).
Let n (z : Z) := ELit (LInt (mk_int z None)).
Let v (s : string) := EVar (IPlain (st s)).

(** A do statement without its semicolon before another statement:
    [do x; while (1) y;]. *)
Theorem C73_do_refuted : exists body m s,
  fn_macro_parse (st "F") [] body = ROk m /\ fm_body m = MbStatement s /\ forall types l, s = body_tree l -> ~ c_statements types (uncomment body) l.
Proof.
  exists [I "do"; I "x"; P ";"; I "while"; P "("; L 1; P ")"; I "y"; P ";"]. do 2 eexists. split; [vm_compute; reflexivity|]. split; [reflexivity|].
  intros types l El (r & S & _). destruct l as [|a [|b l]]; [discriminate El| |].
  - cbn in El. subst a. inversion S as [|ts s r1 l r' S1 S2]; subst. inversion S1.
  - injection El as <- <- <-. inversion S as [|ts s r1 l r' S1 S2]; subst. inversion S2 as [|ts s r2 l r'' S3 S4]; subst.
    apply do_ends in S1 as [K|(a & r4 & r5 & E & E4 & E5)]; [rewrite K in S3; exact (none_left _ _ _ S3)| |discriminate].
    repeat (destruct a as [|? a]; [cbn [app] in E; subst r4; try discriminate E4; injection E4 as <-; discriminate E5|injection E as _ E]).
    destruct a; [cbn [app] in E; subst r4|]; discriminate.
Qed.
(** ... or at the end of a block: [{ do x; while (1) }]. *)
Theorem C73_block_refuted : exists body m s,
  fn_macro_parse (st "F") [] body = ROk m /\ fm_body m = MbStatement s /\ forall types l, s = body_tree l -> ~ c_statements types (uncomment body) l.
Proof.
  exists [P "{"; I "do"; I "x"; P ";"; I "while"; P "("; L 1; P ")"; P "}"]. do 2 eexists. split; [vm_compute; reflexivity|]. split; [reflexivity|].
  intros types l El (r & S & _). 
  destruct l as [|a [|b l]]; [discriminate El| |discriminate El]. cbn in El. subst a. inversion S as [|ts s r1 l r' S1 S2]; subst.
  assert (G : forall r2, statements types false [I "do"; I "x"; P ";"; I "while"; P "("; L 1; P ")"; P "}"] [SDoWhile [SExpr (v "x")] (n 1)] r2 -> uncomment r2 = []).
  { intros r2 T. inversion T as [|ts0 s0 r3 l0 r'' S3 S4]; subst. inversion S4; subst.
    apply do_ends in S3 as [K|(a & r4 & r5 & E & E4 & E5)]; [exact K| |discriminate].
    repeat (destruct a as [|? a]; [cbn [app] in E; subst r4; try discriminate E4; injection E4 as <-; discriminate E5|injection E as _ E]).
    destruct a; [cbn [app] in E; subst r4|]; discriminate. }
  cbn [uncomment] in S1. inversion S1; subst.
  all: match goal with H : statements _ _ _ [_] _ |- _ => apply G in H end; congruence.
Qed.
(** A keyword used as a name: [else;]. *)
Theorem C73_keyword_refuted : exists body m s,
  fn_macro_parse (st "F") [] body = ROk m /\ fm_body m = MbStatement s /\ forall types l, s = body_tree l -> ~ c_statements types (uncomment body) l.
Proof.
  exists [I "else"; P ";"]. do 2 eexists. split; [vm_compute; reflexivity|]. split; [reflexivity|].
  intros types l El (r & S & _). destruct l as [|a [|b l]]; [discriminate El| |discriminate El].
  cbn in El. subst a. inversion S as [|ts s r1 l r' S1 S2]; subst. exact (not_else _ _ _ _ S1).
Qed.

(** ** A case *)

Let only (T : string) : str -> bool := fun x => str_eqb x (st T).
(** [f(); if (a) do { static T t = a; if (a) x = t; else { int g(long b); } } while (0)]. *)
Let body := [MComment (st "c"); I "f"; P "("; P ")"; P ";"; I "if"; P "("; MArg 0; P ")"; I "do"; P "{"; I "static"; I "T"; P "*"; I "t"; P "="; MArg 0; P ";";
  I "if"; P "("; MArg 0; P ")"; I "x"; P "="; I "t"; P ";"; MComment (st "c"); I "else"; P "{"; I "int"; I "g"; P "("; I "long"; I "b"; P ")"; P ";"; P "}"; P "}";
  I "while"; P "("; L 0; P ")"].
Example C73_case : ordinary body /\ exists m s,
  fn_macro_parse (st "F") [I "a"] body = ROk m /\ fm_body m = MbStatement s /\ consistent_body (only "T") body s /\
  exists l, length l = 2 /\ s = body_tree l /\ c_statements (only "T") (uncomment body) l.
Proof.
  assert (O : ordinary body).
  { split; [|split; [|split]].
    - intros p Hp Hi. cbn in Hp. repeat destruct Hp as [<- | Hp]; try contradiction; cbn in Hi; repeat destruct Hi as [Hi|Hi]; try discriminate Hi; exact Hi.
    - intros s Hi. cbn in Hi. repeat destruct Hi as [Hi|Hi]; try discriminate Hi; contradiction.
    - intros w b Hi. cbn in Hi. repeat destruct Hi as [Hi|Hi]; try discriminate Hi; contradiction.
    - intros q a b c [-> | ->] E; exfalso; revert E; apply kw_once; vm_compute; lia. }
  split; [exact O|]. do 2 eexists.
  match goal with |- fn_macro_parse ?n ?a ?b = ROk ?m /\ ?B /\ ?C /\ ?D => assert (E : fn_macro_parse n a b = ROk m) by (vm_compute; reflexivity); assert (E2 : B) by reflexivity;
    assert (E3 : C) end.
  { right. match goal with |- exists _ _, SBlock [?x; ?y] = _ /\ _ => exists [x], y end. split; [reflexivity|]. split; [|split].
    - cbn. repeat match goal with |- _ /\ _ => split | |- True => exact Logic.I end; try (vm_compute; intuition discriminate).
    - cbn -[keywords statement_keywords declared declared_parameter].
      assert (N : forall x, existsb (str_eqb (st x)) (map st (keywords ++ statement_keywords)) = false -> ~ In (st x) (map st (keywords ++ statement_keywords))).
      { intros x K Hi. enough (existsb (str_eqb (st x)) (map st (keywords ++ statement_keywords)) = true) by congruence.
        apply existsb_exists. exists (st x). split; [exact Hi|now apply str_eqb_eq]. }
      assert (D1 : declared (only "T") (TyPtr (TyIdent (IPlain (st "T")) false)) (IPlain (st "t"))).
      { split; [vm_compute; intuition discriminate|]. split; [vm_compute; intuition discriminate|]. exists (st "t"). split; [reflexivity|now apply N]. }
      assert (D2 : declared (only "T") (TyBuiltIn BInt) (IPlain (st "g"))).
      { split; [vm_compute; intuition discriminate|]. split; [vm_compute; intuition discriminate|]. exists (st "g"). split; [reflexivity|now apply N]. }
      assert (D3 : declared_parameter (only "T") (TyBuiltIn BLong, IPlain (st "b"))).
      { split; [vm_compute; intuition discriminate|]. exists (st "b"). split; [reflexivity|]. vm_compute. intuition discriminate. }
      repeat match goal with |- _ /\ _ => split | |- True => exact Logic.I end; try assumption; try (vm_compute; intuition discriminate).
    - intros (a & r & U & [K|K]); unfold body in K;
        (repeat (destruct a as [|? a]; [cbn [app] in K; first [discriminate K | injection K as <-; discriminate U]|injection K as _ K]);
         destruct a; discriminate K). }
  split; [exact E|]. split; [exact E2|]. split; [exact E3|]. destruct (C73_accepted_partial (only "T") body _ O E3) as [F _].
  destruct (F _ _ _ E E2) as (l & El & Cl). exists l. split; [|split; [exact El|exact Cl]].
  destruct l as [|x [|y l]]; [discriminate El| |]; cbn in El; [|injection El as _ _ <-; reflexivity].
  subst x. destruct Cl as (r & S & _). inversion S as [|ts s r1 l r' S1 S2]; subst. inversion S1.
Qed.

(** With assembly: [if (a) asm volatile ("mov %1," "%0" : "=r" (x) : "ig" (a) : "memory");]. *)
Let s (x : string) := string_token (st x).
Let asm_body := [I "if"; P "("; MArg 0; P ")"; I "asm"; I "volatile"; P "("; s "mov %1,"; s "%0"; P ":"; s "=r"; P "("; I "x"; P ")"; P ":"; s "ig"; P "("; MArg 0; P ")"; MComment (st "c");
  P ":"; s "memory"; P ")"; P ";"].
Lemma no_braces ps : Forall (fun c => ~ brace c) (text ps) -> pieces ps -> forall b, run_braces b ps.
Proof.
  induction ps as [|p ps IH]; intros F Q b; [exact Logic.I|]. change (text (p :: ps)) with (piece_text p ++ text ps) in F. apply Forall_app in F as (F1 & F2).
  inversion Q; subst; cbn [run_braces]; auto. inversion F1; subst. contradiction.
Qed.
Lemma asm_texts a u : asm_body = a ++ u -> forall t r, text_literal false u t r -> In t (map st ["mov %1,%0"; "%0"; "=r"; "ig"; "memory"]).
Proof.
  intros E t r (Sc & Lt). apply utf8_decode_encode in Sc. revert Lt Sc. generalize (utf8_encode t). intros bs Lt Sc.
  unfold asm_body in E. repeat (destruct a as [|? a]; [|injection E as _ E]); [..|destruct u; [inversion Lt|destruct a; discriminate E]]; cbn [app] in E;
    subst u; inversion Lt; subst; try (cbn in *; exfalso; match goal with N : ~ a_string _ |- _ => apply N; do 2 eexists; reflexivity end);
    repeat match goal with K : literals _ _ _ _ |- _ => cbn [uncomment s string_token P] in K; inversion K; subst; clear K end; 
    vm_compute in Sc; injection Sc as <-; vm_compute; tauto.
Qed.
Lemma asm_good : assembly_text asm_body.
Proof.
  split.
  - intros t Hi. cbn in Hi. repeat destruct Hi as [Hi|Hi]; try discriminate Hi; try contradiction; injection Hi as <-; now eexists.
  - intros a u t r E Lt. apply (asm_texts _ _ E) in Lt. split.
    + intros ps Q Et. apply no_braces; [|exact Q]. rewrite Et. cbn in Lt. repeat destruct Lt as [<- | Lt]; try contradiction; repeat constructor; unfold brace; lia.
    + intros _ Hi. cbn in Lt. repeat destruct Lt as [<- | Lt]; try contradiction; cbn in Hi; repeat destruct Hi as [Hi|Hi]; try discriminate Hi; try contradiction.
      exists 103%N, RcReg. split; cbn; tauto.
Qed.
Example C73_asm_case : ordinary asm_body /\ exists m t,
  fn_macro_parse (st "F") [I "a"] asm_body = ROk m /\ fm_body m = MbStatement t /\ consistent_body (only "T") asm_body t /\
  t = SIf (EVar (IArg 0)) [SAsm (mk_asm [st "mov {1},{0}"] [(DOut, RcReg, v "x")] [(RcReg, EVar (IArg 0))] [st "memory"])] [] /\
  exists l, t = body_tree l /\ c_statements (only "T") (uncomment asm_body) l.
Proof.
  assert (O : ordinary asm_body).
  { split; [|split; [|split]].
    - intros p Hp Hi. cbn in Hp. repeat destruct Hp as [<- | Hp]; try contradiction; cbn in Hi; repeat destruct Hi as [Hi|Hi]; try discriminate Hi; exact Hi.
    - intros t Hi. cbn in Hi. repeat destruct Hi as [Hi|Hi]; try discriminate Hi; contradiction.
    - intros w b Hi. cbn in Hi. repeat destruct Hi as [Hi|Hi]; try discriminate Hi; contradiction.
    - intros q a b c [-> | ->] E; exfalso; revert E; apply kw_once; vm_compute; lia. }
  split; [exact O|]. do 2 eexists.
  match goal with |- fn_macro_parse ?n ?a ?b = ROk ?m /\ ?B /\ ?C /\ ?D => assert (E : fn_macro_parse n a b = ROk m) by (vm_compute; reflexivity); assert (E2 : B) by reflexivity;
    assert (E3 : C) end.
  { left. cbn [consistent_stmt all]. pose proof asm_good as G. generalize dependent (assembly_text asm_body). intros AT G. repeat split; try exact G; try (vm_compute; intuition discriminate). }
  split; [exact E|]. split; [exact E2|]. split; [exact E3|]. split; [reflexivity|]. destruct (C73_accepted_partial (only "T") asm_body _ O E3) as [F _]. exact (F _ _ _ E E2).
Qed.
End Demo.

Print Assumptions C73_accepted_partial.
Print Assumptions C73_prefix_partial.
Print Assumptions C73_do_refuted.
Print Assumptions C73_block_refuted.
Print Assumptions C73_keyword_refuted.
