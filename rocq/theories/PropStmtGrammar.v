(** C51: statements are parsed with the structure of the C grammar. *)
From Verif Require Import Base Utf Lex LexFloat Token Ast Nom NomFacts ParseTok ParseExpr ParseStmt Rust Finish Codegen StrFacts ParseFacts
  SpecType SpecGrammar GrammarFacts EatFacts SpecAsmGrammar SpecStmtGrammar StmtGrammarFacts SpecRustExpr SpecTree SpecStmt FinishFacts PropFnGen PropTree PropStmt.
From Coq Require Import String List Permutation ZArith.
Import ListNotations.
Local Open Scope string_scope.
Local Open Scope list_scope.

(** C51, the parsed statement: a body that is a list of statements of the
    supported part of the C grammar is accepted, and has the tree of the grammar,
    whatever its size.  Missing: what [supported] excludes, and a do-while that is
    not the end of the macro. *)
Theorem C51_parse_partial {U : Unicode} types body l :
  supported_statements types body l ->
  (forall name args, match fn_macro_parse name args body with
    | ROk m => fm_body m = MbStatement (body_tree l)
    | RErr er => er = InvalidMacroName \/ er = InvalidMacroArgs
    | _ => False
    end) /\
  (forall name, match var_macro_parse name body with
    | ROk m => vm_body m = MbStatement (body_tree l)
    | RErr er => er = InvalidMacroName
    | _ => False
    end).
Proof.
  intro D. pose proof (body_statements types body l D) as Q. split.
  - intros name args. pose proof (parse_args_total args) as T. unfold fn_macro_parse in *. destruct (is_identifier name); cbn [negb] in *; [|auto].
    destruct (parse_args args); rewrite ?Q; auto.
  - intros name. unfold var_macro_parse. destruct (is_identifier name); cbn [negb]; [|auto]. now rewrite Q.
Qed.

(** An else belongs to the nearest if: in [if (C1) if (C2) S1 else S2] it is the
    inner one, whatever the conditions and the statements. *)
Theorem C51_else {U : Unicode} types C1 c1 C2 c2 S1 s1 S2 s2 name args m :
  derives types true Comma C1 c1 (P ")" :: kw "if" :: P "(" :: C2) ->
  derives types true Comma C2 c2 (P ")" :: S1) ->
  statement types true S1 s1 (kw "else" :: S2) ->
  statement types true S2 s2 [] ->
  In (P ";") C1 \/ In (P "{") C1 ->
  fn_macro_parse name args (kw "if" :: P "(" :: C1) = ROk m ->
  fm_body m = MbStatement (SIf c1 [SIf c2 (branch s1) (branch s2)] []).
Proof.
  intros D1 D2 T1 T2 B M.
  assert (O : forall l ts e r, derives types true l ts e r -> uncomment ts = ts) by (intros l ts e r D; eapply opens_uncomment, derives_opens; exact D).
  assert (K : forall s ts r, statement types true ts s r -> uncomment ts = ts).
  { intros s ts r K. apply statement_parses in K. destruct ts as [|[i|x|x|y|p|c] ts]; try reflexivity.
    rewrite plain_decls in K; [|exact (fun h => h)|reflexivity]. exfalso. revert K. unfold decls. cbn [palts].
    unfold palt, pmap, terminated, fn_decl_parse, var_decl_parse, pbind. rewrite static_plain by reflexivity.
    change (type_parse (MComment c :: ts)) with (@PErr ctype). rewrite expr_parse_pe, (pe_fails Comma) by exact (fun h => h). discriminate. }
  destruct (C51_parse_partial types (kw "if" :: P "(" :: C1) [SIf c1 [SIf c2 (branch s1) (branch s2)] []]) as [F _].
  - split; [|cbn [In]; tauto]. exists []. split; [|reflexivity]. eapply q_some; [|apply q_none]. cbn [uncomment kw].
    change [SIf c2 (branch s1) (branch s2)] with (branch (SIf c2 (branch s1) (branch s2))).
    eapply s_if; [reflexivity|rewrite (O _ _ _ _ D1); exact D1|reflexivity| |intros [r E]; discriminate E|reflexivity]. cbn [uncomment kw].
    eapply s_if_else; [reflexivity|rewrite (O _ _ _ _ D2); exact D2|reflexivity|rewrite (K _ _ _ T1); exact T1|reflexivity|rewrite (K _ _ _ T2); exact T2|].
    intros _. exact (K _ _ _ T1).
  - specialize (F name args). now rewrite M in F.
Qed.

(** C51 for a whole macro: what is generated for a list of supported statements
    executes like the tree of the grammar after inference, for the expressions
    of C36. *)
Theorem C51_macro_partial {U : Unicode} types cx name args body l m m' ts :
  supported_statements types body l -> plain_context cx ->
  fn_macro_parse name args body = ROk m -> fn_generate cx m = (m', ROk ts) ->
  exists c s' toks, lc_names c = fm_args m /\ fm_body m' = MbStatement s' /\ settled cx (body_tree l) s' /\
    ((exists params, ts = function_item (fm_name m) params None toks) \/
     (exists patterns, ts = macro_item (fm_name m) patterns toks)) /\
    (sfine cx c s' -> exists b r, reads_block toks b /\ flat b = [r] /\ stree cx c s' r /\ executes cx c s' b /\
       reads_block (toks ++ [rp ";"]) (RB [r] None)).
Proof.
  intros D PC M G. destruct (C51_parse_partial types body l D) as [F _]. specialize (F name args). rewrite M in F.
  exact (C51_generate_partial cx m m' (body_tree l) ts PC F G).
Qed.

Section Demo.
#[local] Existing Instance demo_unicode.
Let I (s : string) := MIdent (st s).
Let L (z : Z) := MLit (LInt (mk_int z None)).
Let v (i : nat) := EVar (IArg i).
Let w (s : string) := EVar (IPlain (st s)).
Let n (z : Z) := ELit (LInt (mk_int z None)).
Let none : str -> bool := fun _ => false.

Ltac up := eapply d_up; [reflexivity|].
Ltac ups := repeat up.
Ltac member := cbn; tauto.
Ltac atom := ups; first [apply d_arg | apply d_literal | apply d_name; split; [vm_compute; intuition discriminate|reflexivity]].
Ltac binary p o l r :=
  first [eapply (d_binary _ _ _ _ _ _ _ p o); [reflexivity|solve [member]|l|reflexivity|r|try (intros _ [K|K]; discriminate K)] | up; binary p o l r].
Ltac prefix p o e := first [eapply (d_unary _ _ p o); [solve [member]|e] | up; prefix p o e].
Ltac assign p o l r := first [eapply (d_assign _ _ _ _ _ p o); [l|reflexivity|solve [member]|r] | up; assign p o l r].
Ltac count := first [eapply (d_postfix _ _ _ _ _ "++" UPostInc); [atom|reflexivity|solve [member]|discriminate] | up; count].
Ltac call0 := first [eapply d_call; [atom|reflexivity|apply a_none|reflexivity] | up; call0].
Ltac builtin ws b := apply (tn_builtin _ ws b QNone QNone []);
  [exists ws; split; [unfold c_types; repeat (first [apply in_eq | apply in_cons]) | apply Permutation_refl] | reflexivity | reflexivity].
Lemma pasted_second ts l r : pasted ts l r -> exists t r1 r2, ts = t :: r1 /\ uncomment r1 = P "##" :: r2.
Proof. induction 1; eauto. Qed.
Ltac alone := let H := fresh in let K := fresh in intros (? & ? & ? & H & K); inversion H; subst;
  first [solve [vm_compute in K; intuition discriminate]
    | match goal with Hp : pasted _ _ _ |- _ => apply pasted_second in Hp as (? & ? & ? & Hp & ?); injection Hp; intros; subst; discriminate end].
Ltac plain := first [exact (fun h => h) | vm_compute; intuition discriminate].
Ltac semi := split; [first [left; reflexivity | right; split; reflexivity]|reflexivity].
Ltac simple e := eapply s_expression; [e|plain|semi|intros _; alone].

(** [do { int t = x; if (x) if (y) f(); else y = t - 1; else { } } while (0)]. *)
Let body := [I "do"; P "{"; I "int"; I "t"; P "="; MArg 0; P ";"; MComment (st "c");
  I "if"; P "("; MArg 0; P ")"; I "if"; P "("; MArg 1; P ")"; I "f"; P "("; P ")"; P ";"; I "else"; MArg 1; P "="; I "t"; P "-"; L 1; P ";";
  I "else"; P "{"; P "}"; P "}"; I "while"; P "("; L 0; P ")"].
Let tree_of_body := SDoWhile
  [SVarDecl (mk_var_decl (TyBuiltIn BInt) (IPlain (st "t")) (v 0) false);
   SIf (v 0) [SIf (v 1) [SExpr (ECall (IPlain (st "f")) [])] [SExpr (EBinary (v 1) OAssign (EBinary (w "t") OSub (n 1)))]] []] (n 0).
Example C51_parse_case : supported_statements none body [tree_of_body].
Proof.
  split; [|right; cbn; tauto]. exists []. split; [|reflexivity]. eapply q_some; [|apply q_none]. unfold tree_of_body, body. cbn [uncomment I].
  match goal with |- statement _ _ _ (SDoWhile ?l _) _ => change l with (branch (SBlock l)) end.
  eapply s_do.
  { cbn [uncomment P]. eapply s_block.
    { eapply q_some.
      { eapply (s_declaration _ _ [I "int"]); [builtin ["int"] BInt|plain|plain|atom|semi]. }
      eapply q_some; [|apply q_none]. cbn [uncomment].
      match goal with |- statement _ _ _ (SIf _ [?s] []) _ => change (SIf (v 0) [s] []) with (SIf (v 0) (branch s) (branch (SBlock []))) end.
      eapply s_if_else; [reflexivity|atom|reflexivity| | | |].
      - match goal with |- statement _ _ _ (SIf _ [?a] [?b]) _ => change (SIf (v 1) [a] [b]) with (SIf (v 1) (branch a) (branch b)) end.
        eapply s_if_else; [reflexivity|atom|reflexivity| | | |].
        + simple ltac:(call0).
        + reflexivity.
        + simple ltac:(assign "=" OAssign ltac:(atom) ltac:(binary "-" OSub ltac:(atom) ltac:(atom))).
        + reflexivity.
      - reflexivity.
      - eapply s_block; [apply q_none|reflexivity|discriminate].
      - reflexivity. }
    { reflexivity. }
    discriminate. }
  { reflexivity. }
  { reflexivity. }
  { atom. }
  { reflexivity. }
  { reflexivity. }
  intros _. repeat split.
Qed.

(** [if (x) if (y) f(); else g();]. *)
Example C51_else_case :
  let S2 := [I "g"; P "("; P ")"; P ";"] in
  let S1 := [I "f"; P "("; P ")"; P ";"; I "else"] ++ S2 in
  let C2 := [MArg 1; P ")"] ++ S1 in
  let C1 := [MArg 0; P ")"; I "if"; P "("] ++ C2 in
  derives none true Comma C1 (v 0) (P ")" :: kw "if" :: P "(" :: C2) /\
  derives none true Comma C2 (v 1) (P ")" :: S1) /\
  statement none true S1 (SExpr (ECall (IPlain (st "f")) [])) (kw "else" :: S2) /\
  statement none true S2 (SExpr (ECall (IPlain (st "g")) [])) [] /\ In (P ";") C1.
Proof.
  cbv zeta. cbn [app]. split; [atom|]. split; [atom|]. split; [simple ltac:(call0)|]. split; [simple ltac:(call0)|cbn; tauto].
Qed.

(** [static char *f(int a, long b);]. *)
Let prototype := [I "static"; I "char"; P "*"; I "f"; P "("; I "int"; I "a"; MComment (st "c"); P ","; I "long"; I "b"; P ")"; P ";"].
Example C51_function_case : supported_statements none prototype
  [SFnDecl (mk_fn_decl (TyPtr (TyBuiltIn BChar)) (IPlain (st "f")) [(TyBuiltIn BInt, IPlain (st "a")); (TyBuiltIn BLong, IPlain (st "b"))])].
Proof.
  split; [|left; cbn; tauto]. exists []. split; [|reflexivity]. eapply q_some; [|apply q_none]. cbn [uncomment prototype I].
  eapply (s_function _ _ true [I "char"; P "*"] _ _ _ _ [P ";"]); [|plain|plain| |semi].
  - apply (tn_builtin _ ["char"] BChar QNone QNone [([], QNone)]);
      [exists ["char"]; split; [unfold c_types; repeat (first [apply in_eq | apply in_cons]) | apply Permutation_refl] | reflexivity | reflexivity].
  - eapply (ps _ _ _ _ [P ")"; P ";"]); [|reflexivity]. cbn [uncomment I]. eapply it_some.
    + apply (pa _ [I "int"]); [builtin ["int"] BInt|plain].
    + eapply mi_some; [reflexivity| |apply mi_none|reflexivity]. cbn [uncomment I].
      apply (pa _ [I "long"]); [builtin ["long"] BLong|plain].
Qed.

(** [int f(void);] is rejected. *)
Theorem C51_void_refuted :
  let body := [I "int"; I "f"; P "("; I "void"; P ")"; P ";"] in
  c_statements none body [SFnDecl (mk_fn_decl (TyBuiltIn BInt) (IPlain (st "f")) [])] /\
  fn_macro_parse (st "DECLARE") [] body = RErr InvalidMacroBody.
Proof.
  cbv zeta. split; [|vm_compute; reflexivity]. exists []. split; [|reflexivity]. eapply q_some; [|apply q_none]. cbn [uncomment I].
  eapply (s_function _ _ false [I "int"] _ _ _ _ [P ";"]); [builtin ["int"] BInt|plain|plain| |semi].
  eapply ps_void; reflexivity.
Qed.

(** [do x++; while (y);], with the semicolon of C, is rejected, at the end of a
    macro and before another statement. *)
Theorem C51_do_refuted : forall rest, rest = [] \/ rest = [MArg 1; P "="; L 1; P ";"] ->
  let body := [I "do"; MArg 0; P "++"; P ";"; I "while"; P "("; MArg 1; P ")"; P ";"] ++ rest in
  let loop := SDoWhile [SExpr (EUnary UPostInc (v 0))] (v 1) in
  (exists l, c_statements none body (loop :: l)) /\
  fn_macro_parse (st "COUNT") [I "x"; I "y"] body = RErr InvalidMacroBody.
Proof.
  intros rest Hr. cbv zeta. split; [|destruct Hr as [-> | ->]; vm_compute; reflexivity].
  assert (G : forall l, c_statements none rest l -> c_statements none ([I "do"; MArg 0; P "++"; P ";"; I "while"; P "("; MArg 1; P ")"; P ";"] ++ rest)
    (SDoWhile [SExpr (EUnary UPostInc (v 0))] (v 1) :: l)).
  { intros l (r & S & U). exists r. split; [|exact U]. eapply q_some; [|exact S]. cbn [uncomment app I].
    match goal with |- statement _ _ _ (SDoWhile [?a] _) _ => change (SDoWhile [a] (v 1)) with (SDoWhile (branch a) (v 1)) end.
    eapply s_do_semicolon.
    { eapply s_expression; [count|plain|semi|discriminate]. }
    { reflexivity. } { reflexivity. } { atom. } { reflexivity. } { reflexivity. } reflexivity. }
  destruct Hr as [-> | ->].
  - exists []. apply G. exists []. split; [constructor|reflexivity].
  - exists [SExpr (EBinary (v 1) OAssign (n 1))]. apply G. exists []. split; [|reflexivity]. eapply q_some; [|apply q_none]. cbn [uncomment].
    eapply s_expression; [assign "=" OAssign ltac:(atom) ltac:(atom)|plain|semi|discriminate].
Qed.

(** [if (x) *p = 1], without the semicolon that the use of the macro adds, is
    taken for an expression: the product of a call of [if] and [p], assigned to. *)
Theorem C51_if_refuted : exists m m' ts,
  let body := [I "if"; P "("; MArg 0; P ")"; P "*"; MArg 1; P "="; L 1] in
  c_statements none body [SIf (v 0) [SExpr (EBinary (EUnary UDeref (v 1)) OAssign (n 1))] []] /\
  fn_macro_parse (st "SET") [I "x"; I "p"] body = ROk m /\ fn_generate cx_unit m = (m', ROk ts) /\
  fm_body m = MbExpr (EBinary (EBinary (ECall (IPlain (st "if")) [v 0]) OMul (v 1)) OAssign (n 1)).
Proof.
  do 3 eexists. split.
  - exists []. split; [|reflexivity]. eapply q_some; [|apply q_none]. cbn [uncomment I].
    match goal with |- statement _ _ _ (SIf _ [?a] _) _ => change (SIf (v 0) [a] []) with (SIf (v 0) (branch a) []) end.
    eapply s_if; [reflexivity|atom|reflexivity| | |discriminate]; [|intros [r E]; discriminate E].
    eapply s_expression; [assign "=" OAssign ltac:(prefix "*" UDeref ltac:(atom)) ltac:(atom)|plain|semi|discriminate].
  - split; [vm_compute; reflexivity|]. split; vm_compute; reflexivity.
Qed.

(** [x * f();], a product of a variable and a call, is generated as the
    declaration of a function [f]. *)
Theorem C51_declaration_refuted : exists m m' ts,
  let body := [MArg 0; P "*"; I "f"; P "("; P ")"; P ";"] in
  c_statements none body [SExpr (EBinary (v 0) OMul (ECall (IPlain (st "f")) []))] /\
  fn_macro_parse (st "F") [I "x"] body = ROk m /\ fn_generate cx_unit m = (m', ROk ts) /\
  fm_body m = MbStatement (SFnDecl (mk_fn_decl (TyPtr (TyIdent (IArg 0) false)) (IPlain (st "f")) [])).
Proof.
  do 3 eexists. split.
  - exists []. split; [|reflexivity]. eapply q_some; [|apply q_none]. cbn [uncomment].
    eapply s_expression; [binary "*" OMul ltac:(atom) ltac:(call0)|plain|semi|discriminate].
  - split; [vm_compute; reflexivity|]. split; vm_compute; reflexivity.
Qed.
End Demo.

Print Assumptions C51_parse_partial.
Print Assumptions C51_else.
Print Assumptions C51_macro_partial.
Print Assumptions C51_void_refuted.
Print Assumptions C51_do_refuted.
Print Assumptions C51_if_refuted.
Print Assumptions C51_declaration_refuted.
