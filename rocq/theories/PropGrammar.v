(** C35: expressions are grouped as in C. *)
From Verif Require Import Base Utf Lex LexFloat Token Ast Nom NomFacts ParseTok ParseExpr ParseStmt Rust Finish Codegen StrFacts ParseFacts
  SpecInt SpecAsm SpecType SpecGrammar GrammarFacts SpecKeep FinishFacts FinishEq KeepFacts EatFacts SpecRustExpr SpecTree RustExprFacts TreeFacts PropFnGen PropTree.
From Coq Require Import String List Lia Permutation.
Import ListNotations.
Local Open Scope string_scope.
Local Open Scope list_scope.

(** ** Parsing *)

Lemma body_parses {U : Unicode} types body e :
  supported_expression types (uncomment body) e -> macro_body_parse body = POk [] (MbExpr e).
Proof.
  intro D. assert (Q : expr_parse (uncomment body) = POk [] e).
  { rewrite expr_parse_pe. exact (derives_parses types Comma _ _ _ D (follow_nil Comma)). }
  destruct (meta_uncomment body) as [cs M]. unfold macro_body_parse, pbind at 1. rewrite M.
  destruct (uncomment body) as [|t ts] eqn:B.
  { exfalso. apply derives_opens in D. inversion D. }
  unfold palt, pall_consuming, pmap, pbind. now rewrite Q.
Qed.

(** C35, the parsed expression: a body that is an expression of the supported
    part of the C grammar is accepted, and has the tree of the grammar, whatever
    its size.  Missing: the expressions excluded by [supported], see SpecGrammar.v,
    the refutations below and C30_wide_refuted. *)
Theorem C35_parse_partial {U : Unicode} types body e :
  supported_expression types (uncomment body) e ->
  (forall name args, match fn_macro_parse name args body with
    | ROk m => fm_body m = MbExpr e
    | RErr er => er = InvalidMacroName \/ er = InvalidMacroArgs
    | _ => False
    end) /\
  (forall name, match var_macro_parse name body with
    | ROk m => vm_body m = MbExpr e
    | RErr er => er = InvalidMacroName
    | _ => False
    end).
Proof.
  intro D. pose proof (body_parses types body e D) as Q. split.
  - intros name args. pose proof (parse_args_total args) as T. unfold fn_macro_parse in *. destruct (is_identifier name); cbn [negb] in *; [|auto].
    destruct (parse_args args); rewrite ?Q; auto.
  - intros name. unfold var_macro_parse. destruct (is_identifier name); cbn [negb]; [|auto]. now rewrite Q.
Qed.

(** The tree is determined by the tokens. *)
Theorem C35_unique {U : Unicode} types types' ts e e' :
  supported_expression types ts e -> supported_expression types' ts e' -> e = e'.
Proof.
  intros D D'. pose proof (derives_parses types Comma _ _ _ D (follow_nil Comma)) as Q.
  pose proof (derives_parses types' Comma _ _ _ D' (follow_nil Comma)) as Q'. congruence.
Qed.

(** ** Generation *)

(** C35, the generated expression: what type inference leaves has the operators
    of the grammar's tree applied to the same operands, and, for the expressions
    of C36, the generated tokens are read that way. *)
Theorem C35_generate_partial {U : Unicode} types cx name args body e m m' ts :
  supported_expression types (uncomment body) e -> no_recast e -> closed_context cx -> plain_context cx ->
  fn_macro_parse name args body = ROk m -> fn_generate cx m = (m', ROk ts) ->
  exists e' c toks, fm_body m' = MbExpr e' /\ keeps e e' /\ lc_names c = fm_args m /\
    ((lc_macro c = false /\ exists params ret, ts = function_item (fm_name m) params ret toks) \/
     (lc_macro c = true /\ exists patterns, ts = macro_item (fm_name m) patterns toks)) /\
    (fine cx c e' -> exists x, tree cx c e' x /\ reads toks x /\ (is_tail cx c e' -> reads_block toks (RB [] (Some x)))).
Proof.
  intros D N CC PC M G. destruct (C35_parse_partial types body e D) as [F _]. specialize (F name args). rewrite M in F.
  assert (K : exists e', fm_body m' = MbExpr e' /\ keeps e e').
  { clear PC. unfold fn_generate in G. destruct (arg_types cx (fm_name m) (fm_args m)) as [tys|er| |];
      try (apply (f_equal snd) in G; discriminate G).
    rewrite F in G. cbn [body_finish] in G.
    destruct (expr_finish cx e _) as [[e' c1] f] eqn:E. 
    pose proof (f_equal fst G) as Gm. apply (f_equal snd) in G. cbn [fst snd] in G, Gm. subst m'.
    exists e'. split; [reflexivity|]. destruct f as [o| | |]; cbn [ofres] in G; try discriminate G.
    apply (finish_keeps cx CC e (derives_proper _ _ _ _ _ _ D N)) in E. exact E. }
  destruct K as (e' & B & K). destruct (C36_generate_partial cx m m' e' ts PC G B) as (c & toks & L & S & R).
  exists e', c, toks. auto.
Qed.
Theorem C35_var_partial {U : Unicode} types cx name body e m m' x :
  supported_expression types (uncomment body) e -> no_recast e -> closed_context cx ->
  var_macro_parse name body = ROk m -> var_generate cx m = (m', ROk x) ->
  exists e', vm_body m' = MbExpr e' /\ keeps e e'.
Proof.
  intros D N CC M G. destruct (C35_parse_partial types body e D) as [_ F]. specialize (F name). rewrite M in F.
  unfold var_generate in G. rewrite F in G. destruct (expr_finish cx e (var_lctx cx)) as [[e' c1] f] eqn:E.
  pose proof (f_equal fst G) as Gm. apply (f_equal snd) in G. cbn [fst snd] in G, Gm. subst m'.
  exists e'. split; [reflexivity|]. destruct f as [o| | |]; cbn [ofres] in G; try discriminate G.
  apply (finish_keeps cx CC e (derives_proper _ _ _ _ _ _ D N)) in E. exact E.
Qed.

(** ** Rejected operators *)

(** A body with a punctuator that no rule of the parsers mentions is never
    accepted: the logical operators among them. *)
Theorem C35_logical_rejected {U : Unicode} body p name args :
  In (P p) body -> In p ["&&"; "||"; "<:"; ":>"; "<%"; "%>"; "%:"; "%:%:"; "..."] ->
  (forall m, fn_macro_parse name args body <> ROk m) /\ (forall m, var_macro_parse name body <> ROk m).
Proof.
  intros I K. assert (B : forall r b, macro_body_parse body <> POk r b).
  { intros r b Q. apply body_ok in Q. rewrite Forall_forall in Q. specialize (Q _ I). unfold ok, P in Q.
    clear I. cbn [In] in K. repeat (destruct K as [<- | K]; [vm_compute in Q; repeat (destruct Q as [Q|Q]; [discriminate Q|]); exact Q|]). exact K. }
  split; intro m.
  - unfold fn_macro_parse. destruct (negb _); [discriminate|]. destruct (parse_args args); try discriminate.
    destruct (macro_body_parse body) as [r b| |] eqn:Q; try discriminate. now destruct (B r b).
  - unfold var_macro_parse. destruct (negb _); [discriminate|].
    destruct (macro_body_parse body) as [r b| |] eqn:Q; try discriminate. now destruct (B r b).
Qed.

(** ** Cases *)

Section Demo.
#[local] Existing Instance demo_unicode.
Let I (s : string) := MIdent (st s).
Let L (z : Z) := MLit (LInt (mk_int z None)).
Let v (i : nat) := EVar (IArg i).
Let n (z : Z) := ELit (LInt (mk_int z None)).
Let none : str -> bool := fun _ => false.
Let only (T : string) : str -> bool := fun x => str_eqb x (st T).

Ltac up := eapply d_up; [reflexivity|].
Ltac ups := repeat up.
Ltac member := cbn; tauto.
Ltac atom := ups; first [apply d_arg | apply d_literal | apply d_name; split; [vm_compute; intuition discriminate|reflexivity]].
(** The operands are given as tactics. *)
Ltac binary p o l r :=
  first [eapply (d_binary _ _ _ _ _ _ _ p o); [reflexivity|solve [member]|l|reflexivity|r|try (intros _ [K|K]; discriminate K)] | up; binary p o l r].
Ltac prefix p o e := first [eapply (d_unary _ _ p o); [solve [member]|e] | up; prefix p o e].
Ltac paren e := ups; eapply d_paren; [e|reflexivity|try (intros _ [x E]; discriminate E)].
Ltac conditional c a b := first [eapply d_conditional; [c|reflexivity|a|reflexivity|b] | up; conditional c a b].
Ltac cast T t e := first [eapply (d_cast _ _ _ T); [reflexivity|reflexivity|t|e|try (intros _; reflexivity)|try (intros _; reflexivity)] | up; cast T t e].
Ltac builtin ws b := apply (tn_builtin _ ws b QNone QNone []);
  [exists ws; split; [unfold c_types; repeat (first [apply in_eq | apply in_cons]) | apply Permutation_refl] | reflexivity | reflexivity].

(** A call with an atom and another expression as arguments; an element of a
    member. *)
Ltac call e := first [eapply d_call; [atom|reflexivity|eapply a_some; [atom|eapply m_some; [reflexivity|e|apply m_none]]|reflexivity] | up; call e].
Ltac element := first [eapply d_index; [eapply d_arrow; [atom|reflexivity|apply na_plain]|reflexivity|atom|reflexivity|intros _ [x [E|E]]; discriminate E] | up; element].

(** [ /* c */ (x - y - 1) * -*f(z, 1 ? 2 : 3) == (unsigned int)p->q[1]]. *)
Let body := [MComment (st "c"); P "("; MArg 0; P "-"; MArg 1; P "-"; L 1; P ")"; P "*"; P "-"; P "*"; I "f"; P "("; MArg 2; P ","; L 1; P "?"; L 2; P ":"; L 3; P ")";
  P "=="; P "("; I "unsigned"; I "int"; P ")"; I "p"; P "->"; I "q"; P "["; L 1; P "]"].
Let tree_of_body := EBinary
  (EBinary (EBinary (EBinary (v 0) OSub (v 1)) OSub (n 1)) OMul
           (EUnary UMinus (EUnary UDeref (ECall (IPlain (st "f")) [v 2; ETernary (n 1) (n 2) (n 3)])))) OEq
  (ECast (TyBuiltIn BUInt) (EUnary UDeref (EBinary (EBinary (EUnary UDeref (EVar (IPlain (st "p")))) OMember (EVar (IPlain (st "q")))) OAdd (n 1)))).
Example C35_case : supported_expression none (uncomment body) tree_of_body /\ no_recast tree_of_body.
Proof.
  split.
  - unfold supported_expression, tree_of_body, body.
    binary "==" OEq
      ltac:(binary "*" OMul
              ltac:(paren ltac:(binary "-" OSub ltac:(binary "-" OSub ltac:(atom) ltac:(atom)) ltac:(atom)))
              ltac:(prefix "-" UMinus ltac:(prefix "*" UDeref ltac:(call ltac:(conditional ltac:(atom) ltac:(atom) ltac:(atom))))))
      ltac:(cast [I "unsigned"; I "int"] ltac:(builtin ["unsigned"; "int"] BUInt) ltac:(element)).
  - unfold tree_of_body, v, n. repeat (constructor; try discriminate).
Qed.
(** [v_ ## x ## 1 . y + (p : "a" "b" # x __FILE__)]: a pasted name, a member that is a
    parameter, and a string of several parts. *)
Let quoted (s : string) := MLit (LString (SOrdinary (st s))).
Let strings := [I "v_"; P "##"; MArg 0; P "##"; MIdCont (st "1"); P "."; MArg 1; P "+"; P "("; quoted "a"; quoted "b"; P "#"; MComment (st "c"); MArg 0; MComment (st "d"); I "__FILE__"; P ")"].
Let tree_of_strings := EBinary
  (EBinary (EVar (IConcat [IpPlain (st "v_"); IpArg 0; IpInt 1])) OMember (v 1)) OAdd
  (EConcat [ELit (LString (SOrdinary (st "ab"))); EStringify (v 0); EVar (IPlain (st "__FILE__"))]).
Ltac upto t := first [t | up; upto t].
Lemma begins_name x ts : is_name none (st x) -> begins none (I x :: ts).
Proof. intros H y r E. injection E as <- _. exact H. Qed.
Example C35_strings : supported_expression none (uncomment strings) tree_of_strings /\ no_recast tree_of_strings.
Proof.
  assert (N : forall x, In x ["v_"; "__FILE__"] -> is_name none (st x)).
  { intros x [<-|[<-|[]]]; (split; [vm_compute; intuition discriminate|reflexivity]). }
  split.
  - assert (D : SpecAsm.decimal (st "1") 1).
    { split; [apply (num_digit 10 49 1); split; [left; split; [split; discriminate|reflexivity]|reflexivity]|]. right. discriminate. }
    assert (PA : forall r, pasted (I "v_" :: P "##" :: MArg 0 :: P "##" :: MIdCont (st "1") :: r) [IpPlain (st "v_"); IpArg 0; IpInt 1] r).
    { intro r. apply (ps_next _ [IpPlain (st "v_"); IpArg 0] (P "##" :: MIdCont (st "1") :: r) (MIdCont (st "1") :: r) (MIdCont (st "1"))); try reflexivity.
      - eapply ps_first; [constructor|discriminate|reflexivity|reflexivity|constructor].
      - constructor; [exact D|reflexivity]. }
    assert (ST : forall r, string_parts none true (quoted "a" :: quoted "b" :: P "#" :: MComment (st "c") :: MArg 0 :: MComment (st "d") :: I "__FILE__" :: r)
      [ELit (LString (SOrdinary (st "ab"))); EStringify (v 0); EVar (IPlain (st "__FILE__"))] r).
    { intro r. apply (sq_more _ _ _ [ELit (LString (SOrdinary (st "ab")))] (EStringify (v 0)) (MComment (st "d") :: I "__FILE__" :: r)).
      - eapply sq_two; [apply sp_run; eapply sr_more; [constructor|reflexivity|reflexivity|reflexivity|intros _ []]|apply sp_stringify; reflexivity|intros [_ []]].
      - apply sp_name; [constructor|apply begins_name, N; cbn; auto|]. intros x q E. injection E as <- _. vm_compute. intuition discriminate.
      - intros [[] _]. }
    unfold supported_expression, tree_of_strings, strings.
    binary "+" OAdd
      ltac:(upto ltac:(eapply d_member; [up; eapply d_pasted; [apply PA|apply begins_name, N; cbn; auto]|reflexivity|apply na_arg|intros _ [x [E|E]]; discriminate E]))
      ltac:(paren ltac:(upto ltac:(eapply d_strings; apply ST))).
  - unfold tree_of_strings, v. repeat constructor.
Qed.
Example C35_context : closed_context cx_unit.
Proof. intros T rt m E. discriminate E. Qed.

(** ** What is grouped otherwise

    [regrouped cx types args body]: the macro [F] with these parameters and this
    body is an expression of C, where arguments are expressions, and code
    is generated for an expression with another grouping. *)
Definition regrouped (cx : cgctx) (types : str -> bool) (args body : list mtoken) : Prop :=
  exists e m m' ts e', c_expression types body e /\ fn_macro_parse (st "F") args body = ROk m /\
    fn_generate cx m = (m', ROk ts) /\ fm_body m' = MbExpr e' /\ ~ keeps e e'.
Ltac regroup t d := exists t; do 4 eexists; split; [unfold c_expression; d|]; split; [vm_compute; reflexivity|];
  split; [vm_compute; reflexivity|]; split; [reflexivity|]; intro K.
Ltac bare := paren ltac:(atom); let K := fresh in intro K; discriminate K.
Ltac differs := repeat match goal with K : keeps _ _ |- _ => inversion K; clear K; subst | K : constant _ |- _ => inversion K; clear K; subst end; try discriminate; try contradiction.

(** [(x)-1] is generated as [-1 as $x], a cast to the argument. *)
Theorem C35_minus_refuted : regrouped cx_unit none [I "x"] [P "("; MArg 0; P ")"; P "-"; L 1].
Proof. regroup (EBinary (v 0) OSub (n 1)) ltac:(binary "-" OSub ltac:(bare) ltac:(atom)). differs. Qed.
(** [(x)-(y)-(z)] is generated as [x - (y - z)]. *)
Theorem C35_chain_refuted : regrouped cx_unit none [I "x"; I "y"; I "z"]
  [P "("; MArg 0; P ")"; P "-"; P "("; MArg 1; P ")"; P "-"; P "("; MArg 2; P ")"].
Proof.
  regroup (EBinary (EBinary (v 0) OSub (v 1)) OSub (v 2)) ltac:(binary "-" OSub ltac:(binary "-" OSub ltac:(bare) ltac:(bare)) ltac:(bare)). differs.
Qed.
(** [(x)*(y)+(z)] is generated as [x * (y + z)]. *)
Theorem C35_product_refuted : regrouped cx_unit none [I "x"; I "y"; I "z"]
  [P "("; MArg 0; P ")"; P "*"; P "("; MArg 1; P ")"; P "+"; P "("; MArg 2; P ")"].
Proof.
  regroup (EBinary (EBinary (v 0) OMul (v 1)) OAdd (v 2)) ltac:(binary "+" OAdd ltac:(binary "*" OMul ltac:(bare) ltac:(bare)) ltac:(bare)). differs.
Qed.
(** [(x)-y*z] is generated as [(x - y) * z]. *)
Theorem C35_difference_refuted : regrouped cx_unit none [I "x"; I "y"; I "z"]
  [P "("; MArg 0; P ")"; P "-"; MArg 1; P "*"; MArg 2].
Proof.
  regroup (EBinary (v 0) OSub (EBinary (v 1) OMul (v 2))) ltac:(binary "-" OSub ltac:(bare) ltac:(binary "*" OMul ltac:(atom) ltac:(atom))). differs.
Qed.
(** With a comment after the type, [(int) /* c */ -x] is generated as [int - x]. *)
Theorem C35_comment_refuted : regrouped cx_unit none [I "x"] [P "("; I "int"; P ")"; MComment (st "c"); P "-"; MArg 0].
Proof.
  regroup (ECast (TyBuiltIn BInt) (EUnary UMinus (v 0)))
    ltac:(cast [I "int"] ltac:(builtin ["int"] BInt) ltac:(prefix "-" UMinus ltac:(atom)); intro K; discriminate K). differs.
Qed.
(** The context must resolve the names of the types it gives: with a type [T]
    known as [Bar], and nothing known about [Bar], the cast [(T)-x] is generated as
    [Bar - x]. *)
Let bar : cgctx := mk_cgctx None None None (fun _ _ => None) (fun _ => None)
  (fun s => if str_eqb s (st "T") then Some (plain_ty "Bar") else None) (fun _ _ => None) (fun _ => None).
Theorem C35_typedef_refuted : regrouped bar (only "T") [I "x"] [P "("; I "T"; P ")"; P "-"; MArg 0].
Proof.
  regroup (ECast (TyIdent (IPlain (st "T")) false) (EUnary UMinus (v 0)))
    ltac:(cast [I "T"] ltac:(apply (tn_named _ false (st "T") QNone QNone []); [vm_compute; intuition discriminate|reflexivity|reflexivity]) ltac:(prefix "-" UMinus ltac:(atom))). differs.
Qed.
(** A logical expression, and one with a comment at its end, are C expressions but are rejected. *)
Theorem C35_rejected_refuted :
  (exists e, c_expression none [MArg 0; P "&&"; MArg 1] e) /\ (exists e, c_expression none [MArg 0; P "+"; MArg 1] e) /\
  (forall m, fn_macro_parse (st "F") [I "x"; I "y"] [MArg 0; P "&&"; MArg 1] <> ROk m) /\
  (forall m, fn_macro_parse (st "F") [I "x"; I "y"] [MArg 0; P "+"; MArg 1; MComment (st "c")] <> ROk m).
Proof.
  split; [|split; [|split]].
  - exists (EBinary (v 0) OAnd (v 1)). unfold c_expression. binary "&&" OAnd ltac:(atom) ltac:(atom). intro K; discriminate K.
  - exists (EBinary (v 0) OAdd (v 1)). unfold c_expression. binary "+" OAdd ltac:(atom) ltac:(atom).
  - intro m. apply (C35_logical_rejected _ "&&"); cbn; auto.
  - intros m E. vm_compute in E. discriminate E.
Qed.
(** So is an element after a postfix increment, [p++[1]]. *)
Theorem C35_postfix_refuted :
  c_expression none [MArg 0; P "++"; P "["; L 1; P "]"] (EUnary UDeref (EBinary (EUnary UPostInc (v 0)) OAdd (n 1))) /\
  forall m, fn_macro_parse (st "F") [I "p"] [MArg 0; P "++"; P "["; L 1; P "]"] <> ROk m.
Proof.
  split.
  - unfold c_expression. upto ltac:(eapply d_index; [eapply d_postfix with (p := "++"); [atom|reflexivity|cbn; auto|intro K; discriminate K]|reflexivity|atom|reflexivity|intro K; discriminate K]).
  - intros m E. vm_compute in E. discriminate E.
Qed.
End Demo.

Print Assumptions C35_parse_partial.
Print Assumptions C35_unique.
Print Assumptions C35_generate_partial.
Print Assumptions C35_var_partial.
Print Assumptions C35_logical_rejected.
Print Assumptions C35_minus_refuted.
Print Assumptions C35_chain_refuted.
Print Assumptions C35_product_refuted.
Print Assumptions C35_difference_refuted.
Print Assumptions C35_comment_refuted.
Print Assumptions C35_typedef_refuted.
Print Assumptions C35_rejected_refuted.
Print Assumptions C35_postfix_refuted.
