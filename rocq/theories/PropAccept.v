(** C72: what is accepted as an expression is an expression of C with that tree. *)
From Verif Require Import Base Utf Lex LexFloat Token Ast Nom NomFacts ParseTok ParseExpr ParseStmt ParseFacts StrFacts SpecType SpecInt SpecGrammar GrammarFacts
  SpecAccept AcceptFacts PropGrammar.
From Coq Require Import String List Lia PeanoNat Bool.
Import ListNotations.
Local Open Scope string_scope.
Local Open Scope list_scope.

Lemma body_accepts {U : Unicode} types body e : ordinary body -> macro_body_parse body = POk [] (MbExpr e) -> consistent types e ->
  c_expression types (uncomment body) e.
Proof.
  intros O E C. assert (O' : ordinary (uncomment body)) by (eapply ordinary_suffix; [apply suffix_uncomment|exact O]).
  unfold macro_body_parse, pbind at 1 in E. destruct (meta_uncomment body) as (cs & M). rewrite M in E.
  assert (Q : expr_parse (uncomment body) = POk [] e).
  { destruct (uncomment body) as [|t ts]; [discriminate|]. unfold palt, pall_consuming, pmap, pbind, pret in E.
    destruct (expr_parse (t :: ts)) as [r e'| |]; [destruct r as [|t' r]; cbn [peof] in E|..].
    - injection E as <-. reflexivity.
    - destruct (stmt_parse (t :: ts)) as [r2 s| |]; try discriminate. destruct r2; discriminate.
    - destruct (stmt_parse (t :: ts)) as [r2 s| |]; try discriminate. destruct r2; discriminate.
    - discriminate. }
  apply d_up with (l' := Assignment); [reflexivity|]. now apply expr_ok.
Qed.
Lemma body_rest {U : Unicode} body r b : macro_body_parse body = POk r b -> r = [].
Proof.
  unfold macro_body_parse, pbind at 1. destruct (meta_uncomment body) as (cs & ->).
  destruct (uncomment body) as [|t ts]; [intro E; now injection E as <- _|]. unfold palt, pall_consuming, pmap, pbind, pret.
  destruct (expr_parse (t :: ts)) as [[|t' r'] e'| |]; cbn [peof]; try discriminate; [intro E; now injection E as <- _|..];
    destruct (stmt_parse (t :: ts)) as [[|t2 r2] s| |]; cbn [peof]; try discriminate; intro E; now injection E as <- _.
Qed.

(** C72: a body that a function-like or variable-like macro keeps as an expression
    is an expression of the C grammar, and the tree is one the grammar gives it,
    whatever the size of the body, provided that the text is ordinary and the tree
    uses names and assignments as C does, see SpecAccept.v. *)
Theorem C72_accepted_partial {U : Unicode} types body e :
  ordinary body -> consistent types e ->
  (forall name args m, fn_macro_parse name args body = ROk m -> fm_body m = MbExpr e -> c_expression types (uncomment body) e) /\
  (forall name m, var_macro_parse name body = ROk m -> vm_body m = MbExpr e -> c_expression types (uncomment body) e).
Proof.
  intros O C. split.
  - intros name args m. unfold fn_macro_parse. destruct (negb _); [discriminate|]. destruct (parse_args args); try discriminate.
    destruct (macro_body_parse body) as [r b| |] eqn:Q; try discriminate. intros E B. injection E as <-. cbn in B. subst b.
    pose proof (body_rest _ _ _ Q) as ->. now apply body_accepts.
  - intros name m. unfold var_macro_parse. destruct (negb _); [discriminate|].
    destruct (macro_body_parse body) as [r b| |] eqn:Q; try discriminate. intros E B. injection E as <-. cbn in B. subst b.
    pose proof (body_rest _ _ _ Q) as ->. now apply body_accepts.
Qed.

(** An expression followed by something else: what was read is an expression. *)
Theorem C72_prefix_partial {U : Unicode} types ts r e :
  ordinary ts -> expr_parse ts = POk r e -> consistent types e -> derives types false Assignment ts e r.
Proof. apply expr_ok. Qed.

(** A type name in parentheses or in a declaration. *)
Theorem C72_type_partial {U : Unicode} types ts r t :
  ordinary ts -> type_parse ts = POk r t -> type_ok types t -> exists T, ts = T ++ r /\ type_name types T t.
Proof. apply type_inv. Qed.

(** ** The conditions are needed *)

Definition first_name (types : str -> bool) (ts : list mtoken) : Prop :=
  forall x q, ts = MIdent x :: q -> is_name types x \/ x = st "sizeof".
Lemma pasted_first types ts l r : pasted ts l r -> begins types ts -> first_name types ts.
Proof. intros _ B x q E. left. now apply (B x q). Qed.
Lemma part_first types b ts e r : string_part types b ts e r -> first_name types ts.
Proof.
  intros [ts' s r' Hr|i ts' r' E|ts' n r' Hn Hb Hp] x q E'; [apply run_head in Hr as (? & ? & ->); discriminate|discriminate|left; now apply (Hb x q)].
Qed.
Lemma derives_first types l ts e r : derives types false l ts e r -> first_name types ts.
Proof.
  intros d. revert l ts e r d.
  refine (derives_mut types false (fun _ ts _ _ => first_name types ts) (fun _ _ _ => True) (fun _ _ _ => True) _ _ _ _ _ _ _ _ _ _ _ _ _ _ _ _ _ _ _ _ _ _ _ _ _);
  intros; auto; try (intros ? ? K; discriminate K).
  - intros y q K. injection K as <- <-. auto.
  - intros y q K. left. match goal with B : begins _ _ |- _ => now apply (B y q) end.
  - match goal with Hr : string_run _ _ _ _ |- _ => apply run_head in Hr as (s' & r' & ->) end. intros ? ? K; discriminate K.
  - match goal with Hs : string_parts _ _ _ _ _ |- _ => clear - Hs; induction Hs as [ts a r1 b r Hp|]; [|assumption] end. eapply part_first. exact Hp.
  - intros y q K. injection K as <- <-. auto.
Qed.
Definition no_paren (ts : list mtoken) : Prop := forall q, ts <> P "(" :: q.
Definition tight (l : level) : Prop := l = Primary \/ l = Postfix \/ l = Unary.
Lemma tight_up l l' : tight l -> tighter l = Some l' -> tight l'.
Proof. unfold tight. intros [-> |[-> | ->]] E; try discriminate; injection E as <-; auto. Qed.
Lemma tight_binary types l ts e r : derives types false l ts e r -> tight l -> no_paren ts -> forall a o b, e = EBinary a o b -> o = OMember.
Proof.
  induction 1; intros T9 N a9 o9 b9 Ee; try discriminate Ee; try (now injection Ee as _ <- _); eauto using tight_up.
  - now destruct (N ts).
  - destruct T9 as [-> |[-> | ->]]; match goal with Hi : In _ (binary_operators _) |- _ => destruct Hi end.
  - destruct T9 as [K|[K|K]]; discriminate K.
Qed.
Lemma assigned types l ts e r : derives types false l ts e r -> no_paren ts -> forall a b, e = EBinary a OAssign b -> exists r1, derives types false Unary ts a r1.
Proof.
  induction 1; intros N a9 b9 Ee; try discriminate Ee; eauto.
  - now destruct (N ts).
  - injection Ee as -> -> ->. exfalso. destruct l; cbn in *; repeat match goal with Hi : _ \/ _ |- _ => destruct Hi as [Hi|Hi] end; try discriminate; try contradiction.
  - injection Ee as -> -> ->. eauto.
Qed.
Lemma incremented_first types l ts e r : derives types false l ts e r -> no_paren ts -> forall a, e = EUnary UInc a ->
  exists ts', ts = P "++" :: ts' /\ derives types false Unary (uncomment ts') a r.
Proof.
  induction 1; intros N a9 Ee; try discriminate Ee; eauto.
  - now destruct (N ts).
  - injection Ee as -> ->. match goal with Hi : In _ _ |- _ => cbn in Hi; destruct Hi as [K|[K|[]]]; discriminate K end.
  - injection Ee as -> ->. match goal with Hi : In _ _ |- _ => cbn in Hi; destruct Hi as [K|[K|[]]]; try discriminate K; injection K as <- end. eauto.
  - injection Ee as -> ->. match goal with Hi : In _ _ |- _ => cbn in Hi; repeat destruct Hi as [K|Hi]; try discriminate K; contradiction end.
Qed.
Lemma tight_cast types l ts e r : derives types false l ts e r -> tight l -> forall t a, e = ECast t a -> exists ts' r1, ts = P "(" :: ts' /\ derives types false Comma (uncomment ts') e r1.
Proof.
  induction 1; intros T9 t9 a9 Ee; try discriminate Ee; eauto using tight_up.
  destruct T9 as [K|[K|K]]; discriminate K.
Qed.
Lemma size_first types l ts e r : derives types false l ts e r -> (l = Primary \/ l = Postfix) -> forall t, e = ESizeOf t -> exists q, ts = P "(" :: q.
Proof.
  induction 1; intros T9 t9 Ee; try discriminate Ee; eauto.
  - match goal with K : tighter _ = Some _ |- _ => destruct T9 as [-> | ->]; [discriminate K|injection K as <-] end. eauto.
  - destruct T9 as [K|K]; discriminate K.
Qed.
Lemma indexed types l ts e r : derives types false l ts e r -> (forall q, ts <> P "*" :: q) -> no_paren ts -> forall a b, e = EUnary UDeref (EBinary a OAdd b) -> exists r1, derives types false Postfix ts a r1.
Proof.
  induction 1; intros S N a9 b9 Ee; try discriminate Ee; eauto.
  - now destruct (N ts).
  - injection Ee as -> ->. eauto.
  - injection Ee as -> ->. match goal with Hi : In _ _ |- _ => cbn in Hi; destruct Hi as [K|[K|[]]]; discriminate K end.
  - injection Ee as -> ->. match goal with Hi : In _ _ |- _ => cbn in Hi; destruct Hi as [K|[K|[]]]; discriminate K end.
  - injection Ee as -> ->. match goal with Hi : In _ _ |- _ => cbn in Hi; repeat destruct Hi as [K|Hi]; try discriminate K; try contradiction; injection K as <- end.
    now destruct (S ts).
Qed.
Lemma literal_first types l ts e r : derives types false l ts e r -> forall k, e = ELit k -> forall x q, ts <> MIdent x :: q.
Proof.
  induction 1; intros k9 Ee x9 q9 K; try discriminate Ee; try discriminate K; [eapply IHderives; eassumption|].
  match goal with Hr : string_run _ _ _ _ |- _ => apply run_head in Hr as (s' & r' & ->) end. discriminate K.
Qed.

Section Demo.
#[local] Existing Instance demo_unicode.
Let I (s : string) := MIdent (st s).
Let L (z : Z) := MLit (LInt (mk_int z None)).
Let n (z : Z) := ELit (LInt (mk_int z None)).
Let v (s : string) := EVar (IPlain (st s)).

(** A keyword used as a name: [int + 1]. *)
Theorem C72_keyword_refuted : exists body m e,
  fn_macro_parse (st "F") [] body = ROk m /\ fm_body m = MbExpr e /\ forall types, ~ c_expression types (uncomment body) e.
Proof.
  exists [I "int"; P "+"; L 1]. do 2 eexists. split; [vm_compute; reflexivity|]. split; [reflexivity|]. intros types D.
  apply derives_first in D. destruct (D (st "int") _ eq_refl) as [[K _]|K]; [apply K; vm_compute; auto 20|discriminate K].
Qed.
(** An assignment to what is not a unary expression: [a + b = c]. *)
Theorem C72_assignment_refuted : exists body m e,
  fn_macro_parse (st "F") [] body = ROk m /\ fm_body m = MbExpr e /\ forall types, ~ c_expression types (uncomment body) e.
Proof.
  exists [I "a"; P "+"; I "b"; P "="; I "c"]. do 2 eexists. split; [vm_compute; reflexivity|]. split; [reflexivity|]. intros types D.
  assert (N : no_paren (uncomment [I "a"; P "+"; I "b"; P "="; I "c"])) by (intros q K; discriminate K).
  eapply assigned in D as (r1 & D); [|exact N|reflexivity]. eapply tight_binary in D; [|right; right; reflexivity|exact N|reflexivity]. discriminate D.
Qed.
(** The increment of a cast: [++(int)x]. *)
Theorem C72_increment_refuted : exists body m e,
  fn_macro_parse (st "F") [] body = ROk m /\ fm_body m = MbExpr e /\ forall types, ~ c_expression types (uncomment body) e.
Proof.
  exists [P "++"; P "("; I "int"; P ")"; I "x"]. do 2 eexists. split; [vm_compute; reflexivity|]. split; [reflexivity|]. intros types D.
  eapply incremented_first in D as (ts & E & D); [|intros q K; discriminate K|reflexivity]. injection E as <-.
  eapply tight_cast in D as (ts & r1 & E & D); [|right; right; reflexivity|reflexivity]. injection E as <-.
  apply derives_first in D. destruct (D (st "int") _ eq_refl) as [[K _]|K]; [apply K; vm_compute; auto 20|discriminate K].
Qed.
(** A size that is indexed: [sizeof(int)[0]]. *)
Theorem C72_size_refuted : exists body m e,
  fn_macro_parse (st "F") [] body = ROk m /\ fm_body m = MbExpr e /\ forall types, ~ c_expression types (uncomment body) e.
Proof.
  exists [I "sizeof"; P "("; I "int"; P ")"; P "["; L 0; P "]"]. do 2 eexists. split; [vm_compute; reflexivity|]. split; [reflexivity|]. intros types D.
  eapply indexed in D as (r1 & D); [|intros q K; discriminate K|intros q K; discriminate K|reflexivity].
  eapply size_first in D as (q & D); [discriminate D|auto|reflexivity].
Qed.
(** The prefix of a literal apart from it: [L 'x']. *)
Theorem C72_prefix_refuted : exists body m e,
  fn_macro_parse (st "F") [] body = ROk m /\ fm_body m = MbExpr e /\ forall types, ~ c_expression types (uncomment body) e.
Proof.
  exists [I "L"; MLit (LChar (COrdinary 120))]. do 2 eexists. split; [vm_compute; reflexivity|]. split; [reflexivity|]. intros types D.
  eapply literal_first in D; [|reflexivity]. now apply D.
Qed.

(** ** A case *)

Let only (T : string) : str -> bool := fun x => str_eqb x (st T).
Let is_kw (q : string) (t : mtoken) : bool := match t with MIdent x => str_eqb x (st q) | _ => false end.
Lemma kw_once q ts a b c : length (filter (is_kw q) ts) <= 1 -> ts <> a ++ kw q :: b ++ kw q :: c.
Proof.
  intros Hl ->. assert (K : is_kw q (kw q) = true) by (cbn; now apply str_eqb_eq).
  rewrite filter_app in Hl. cbn [filter] in Hl. rewrite K, filter_app in Hl. cbn [filter] in Hl. rewrite K in Hl.
  rewrite app_length in Hl. cbn [length] in Hl. rewrite app_length in Hl. cbn [length] in Hl. lia.
Qed.
Let body := [P "*"; P "("; I "const"; I "T"; P "*"; P ")"; MArg 0; P "?"; I "sizeof"; P "("; I "unsigned"; I "long"; P ")"; P "*"; I "f"; P "("; L 1; P ","; MComment (st "c");
  I "x"; P "##"; MArg 0; P ")"; P ":"; I "y"; P "["; MArg 0; P "++"; P "]"; P "->"; I "z"].
Example C72_case : ordinary body /\ exists m e,
  fn_macro_parse (st "F") [I "a"] body = ROk m /\ fm_body m = MbExpr e /\ consistent (only "T") e /\ c_expression (only "T") (uncomment body) e.
Proof.
  assert (O : ordinary body).
  { split; [|split; [|split]].
    - intros p Hp Hi. cbn in Hp. repeat destruct Hp as [<- | Hp]; try contradiction; cbn in Hi; repeat destruct Hi as [Hi|Hi]; try discriminate Hi; exact Hi.
    - intros s Hi. cbn in Hi. repeat destruct Hi as [Hi|Hi]; try discriminate Hi; contradiction.
    - intros w b Hi. cbn in Hi. repeat destruct Hi as [Hi|Hi]; try discriminate Hi; contradiction.
    - intros q a b c [-> | ->] E; exfalso; revert E; apply kw_once; vm_compute; lia. }
  split; [exact O|]. do 2 eexists.
  match goal with |- fn_macro_parse ?n ?a ?b = ROk ?m /\ ?B /\ ?C /\ ?D => assert (E : fn_macro_parse n a b = ROk m) by (vm_compute; reflexivity); assert (E2 : B) by reflexivity;
    assert (E3 : C) end.
  { cbn. repeat match goal with |- _ /\ _ => split | |- True => exact Logic.I end; try (vm_compute; intuition discriminate);
    try (intros [K|K]; discriminate K); try (intros (t & K); discriminate K); try (intro K; exact K). all: intros [(t & K)|(a' & b' & K & (t & K2))]; try discriminate K; injection K as <- <-; discriminate K2. }
  split; [exact E|]. split; [exact E2|]. split; [exact E3|]. destruct (C72_accepted_partial (only "T") body _ O E3) as [F _]. exact (F _ _ _ E E2).
Qed.
End Demo.

Print Assumptions C72_accepted_partial.
Print Assumptions C72_prefix_partial.
Print Assumptions C72_type_partial.
Print Assumptions C72_keyword_refuted.
Print Assumptions C72_assignment_refuted.
Print Assumptions C72_increment_refuted.
Print Assumptions C72_size_refuted.
Print Assumptions C72_prefix_refuted.
