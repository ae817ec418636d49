(** The tokens that the parsers accept: every token that a parser consumes is
    none of the punctuators that no parser asks for. *)
From Verif Require Import Base Utf Lex LexFloat Token Ast Nom NomFacts ParseTok ParseExpr ParseStmt StrFacts ParseFacts.
From Coq Require Import String List Lia PeanoNat.
Import ListNotations.
Local Open Scope string_scope.
Local Open Scope list_scope.

(** The punctuators that occur in the parsers of expressions, and in all
    parsers. *)
Definition expr_puncts : list string :=
  ["("; ")"; "["; "]"; "."; "->"; "++"; "--"; "&"; "*"; "+"; "-"; "~"; "!"; "/"; "%"; "<<"; ">>"; "<"; ">"; "<="; ">=";
   "=="; "!="; "^"; "|"; "?"; ":"; "="; "*="; "/="; "%="; "+="; "-="; "<<="; ">>="; "&="; "^="; "|="; ","; "#"; "##"].
Definition accepted : list string := ["{"; "}"; ";"] ++ expr_puncts.

Section Eats.
Variable puncts : list string.

Definition ok (t : mtoken) : Prop := match t with MPunct p => In p (map st puncts) | _ => True end.

Definition eats {A} (p : parser A) : Prop := forall ts r a, p ts = POk r a -> exists w, ts = w ++ r /\ Forall ok w.

Lemma eats_none (r : list mtoken) : exists w, r = w ++ r /\ Forall ok w.
Proof. exists []. split; auto. Qed.
Lemma eats_trans (a b c : list mtoken) : (exists w, b = w ++ a /\ Forall ok w) -> (exists w, c = w ++ b /\ Forall ok w) -> exists w, c = w ++ a /\ Forall ok w.
Proof. intros (v & -> & V) (w & -> & W). exists (w ++ v). rewrite app_assoc. split; auto. now apply Forall_app. Qed.

Lemma eats_bind {A B} (p : parser A) (k : A -> parser B) : eats p -> (forall a, eats (k a)) -> eats (pbind p k).
Proof.
  intros Hp Hk ts r b. unfold pbind. destruct (p ts) as [r1 a| |] eqn:E; try discriminate.
  intros E2. eapply eats_trans; [eapply Hk; eauto|eapply Hp; eauto].
Qed.
Lemma eats_ret {A} (a : A) : eats (pret a).
Proof. intros ts r x E. injection E as <- <-. apply eats_none. Qed.
Lemma eats_fail {A} : eats (@pfail A).
Proof. intros ts r x E. discriminate. Qed.
Lemma eats_alt {A} (p q : parser A) : eats p -> eats q -> eats (palt p q).
Proof. intros Hp Hq ts r a. unfold palt. destruct (p ts) eqn:E; intros E2; try discriminate; [injection E2 as <- <-|]; eauto. Qed.
Lemma eats_alts {A} (l : list (parser A)) : Forall eats l -> eats (palts l).
Proof. induction 1; [apply eats_fail|apply eats_alt; auto]. Qed.
Lemma eats_opt {A} (p : parser A) : eats p -> eats (popt p).
Proof. intros Hp ts r a. unfold popt. destruct (p ts) eqn:E; intros E2; try discriminate; injection E2 as <- <-; eauto using eats_none. Qed.
Lemma eats_map {A B} (f : A -> B) p : eats p -> eats (pmap f p).
Proof. intros. apply eats_bind; auto. intros. apply eats_ret. Qed.
Lemma eats_value {A B} (b : B) (p : parser A) : eats p -> eats (pvalue b p).
Proof. intros. apply eats_bind; auto. intros. apply eats_ret. Qed.
Lemma eats_map_opt {A B} (f : A -> option B) p : eats p -> eats (pmap_opt f p).
Proof. intros. apply eats_bind; auto. intros a. destruct (f a); [apply eats_ret|apply eats_fail]. Qed.
Lemma eats_eof : eats peof.
Proof. intros [|t ts] r a E; [injection E as <- <-; apply eats_none|discriminate]. Qed.
Lemma eats_fold_n {A B} (p : parser B) (f : A -> B -> A) n : eats p -> forall acc ts r a,
  fold_many0_n n p f acc ts = POk r a -> exists w, ts = w ++ r /\ Forall ok w.
Proof.
  intros Hp. induction n as [|n IH]; intros acc ts r a; cbn [fold_many0_n]; [discriminate|].
  destruct (p ts) as [r1 b| |] eqn:E; try discriminate.
  - destruct (Nat.eqb_spec (length r1) (length ts)); [discriminate|]. intros E2.
    eapply eats_trans; [eapply IH; exact E2|eapply Hp; exact E].
  - intros E2. injection E2 as <- <-. apply eats_none.
Qed.
Lemma eats_fold {A B} (p : parser B) (f : A -> B -> A) acc : eats p -> eats (fold_many0 p f acc).
Proof. intros Hp ts r a. now apply eats_fold_n. Qed.
Lemma eats_many0 {A} (p : parser A) : eats p -> eats (many0 p).
Proof. apply eats_fold. Qed.
Lemma eats_sep_n {A X} (sep : parser X) (p : parser A) n : eats sep -> eats p -> forall acc ts r a,
  sep_list_n n sep p acc ts = POk r a -> exists w, ts = w ++ r /\ Forall ok w.
Proof.
  intros Hs Hp. induction n as [|n IH]; intros acc ts r a; cbn [sep_list_n]; [discriminate|].
  destruct (sep ts) as [r1 b| |] eqn:E; try discriminate.
  - destruct (Nat.eqb_spec (length r1) (length ts)); [discriminate|].
    destruct (p r1) as [r2 x| |] eqn:E1; try discriminate; intros E2.
    + eapply eats_trans; [eapply IH; eauto|]. eapply eats_trans; [eapply Hp; eauto|eapply Hs; eauto].
    + injection E2 as <- <-. apply eats_none.
  - intros E2. injection E2 as <- <-. apply eats_none.
Qed.
Lemma eats_sep {A X} (sep : parser X) (p : parser A) : eats sep -> eats p -> eats (separated_list0 sep p).
Proof.
  intros Hs Hp ts r a. unfold separated_list0. destruct (p ts) as [r1 x| |] eqn:E; try discriminate; intros E2.
  - eapply eats_trans; [eapply (eats_sep_n sep p _ Hs Hp); exact E2|eapply Hp; exact E].
  - injection E2 as <- <-. apply eats_none.
Qed.
Lemma eats_perm_loop {X} n : forall (ps : list (bool * parser (X -> X))) s ts r a,
  Forall (fun x => eats (snd x)) ps -> perm_loop n ps s ts = POk r a -> exists w, ts = w ++ r /\ Forall ok w.
Proof.
  induction n as [|n IH]; intros ps s ts r a Hall; cbn [perm_loop]; destruct (forallb fst ps) eqn:Ef.
  1,3: intros E; injection E as <- <-; apply eats_none.
  - discriminate.
  - destruct (perm_try ps s ts) as [r1 [ps2 s2]| |] eqn:E; try discriminate. intros E2.
    apply perm_try_spec in E. destruct E as (l & p & q & f & -> & -> & Ep & ->).
    apply Forall_app in Hall. destruct Hall as [Hl Hq]. inversion Hq as [|? ? Hp Hq']; subst. cbn [snd] in Hp.
    eapply eats_trans; [|eapply Hp; exact Ep].
    eapply IH; [|exact E2]. apply Forall_app. split; [exact Hl|]. constructor; [exact Hp|exact Hq'].
Qed.
Lemma eats_perm {X} (ps : list (parser (X -> X))) s : Forall eats ps -> eats (permutation ps s).
Proof. intros Hall ts r a E. eapply eats_perm_loop; [|exact E]. apply Forall_map. exact Hall. Qed.

Lemma eats_take {A} (f : mtoken -> option A) : (forall t y, f t = Some y -> ok t) -> eats (pmap_opt f take_one).
Proof.
  intros F [|t ts] r a; [discriminate|]. unfold pmap_opt, pbind, take_one. destruct (f t) as [y|] eqn:E; [|discriminate].
  intro Q. injection Q as <- <-. exists [t]. split; [reflexivity|]. constructor; [eauto|constructor].
Qed.
Ltac token := apply eats_take; intros []; cbn; intros; try discriminate; try exact I.
Lemma eats_macro_arg : eats macro_arg.
Proof. token. Qed.
Lemma eats_macro_id : eats macro_id.
Proof. token. Qed.
Lemma eats_comment : eats comment.
Proof. token. Qed.
Lemma eats_id p : eats (id p).
Proof. token. Qed.
Lemma eats_punct p : In (st p) (map st puncts) -> eats (punct p).
Proof.
  intro I. unfold punct. apply eats_take. intros t y E. destruct t; try discriminate E.
  unfold ok. destruct (str_eqb_spec (st p) p0) as [<-|N]; [exact I|discriminate].
Qed.
Lemma eats_meta : eats meta.
Proof. apply eats_many0, eats_comment. Qed.

End Eats.

Create HintDb eatdb.
Ltac listed := first [solve [vm_compute; tauto] | match goal with Inc : incl expr_puncts _ |- _ => apply in_map, Inc; solve [cbn; tauto] end].
Ltac nome :=
  lazymatch goal with
  | |- forall _, _ => intros; nome
  | |- Forall _ [] => apply Forall_nil
  | |- Forall _ (_ :: _) => apply Forall_cons; [nome|nome]
  | |- eats _ (terminated _ _) => unfold terminated; nome
  | |- eats _ (preceded _ _) => unfold preceded; nome
  | |- eats _ (delimited _ _ _) => unfold delimited; nome
  | |- eats _ (ppair _ _) => unfold ppair; nome
  | |- eats _ (parenthesized _) => unfold parenthesized; nome
  | |- eats _ (pall_consuming _) => unfold pall_consuming; nome
  | |- eats _ (pret _) => apply eats_ret
  | |- eats _ pfail => apply eats_fail
  | |- eats _ peof => apply eats_eof
  | |- eats _ meta => apply eats_meta
  | |- eats _ macro_arg => apply eats_macro_arg
  | |- eats _ macro_id => apply eats_macro_id
  | |- eats _ comment => apply eats_comment
  | |- eats _ (punct _) => apply eats_punct; listed
  | |- eats _ (id _) => apply eats_id
  | |- eats _ (keyword _) => apply eats_id
  | |- eats _ (pmap _ _) => apply eats_map; nome
  | |- eats _ (pvalue _ _) => apply eats_value; nome
  | |- eats _ (pmap_opt _ take_one) => apply eats_take; intros [] ?; try discriminate; intros; exact I
  | |- eats _ (pmap_opt _ _) => apply eats_map_opt; nome
  | |- eats _ (palt _ _) => apply eats_alt; nome
  | |- eats _ (palts _) => apply eats_alts; nome
  | |- eats _ (popt _) => apply eats_opt; nome
  | |- eats _ (fold_many0 _ _ _) => apply eats_fold; nome
  | |- eats _ (many0 _) => apply eats_many0; nome
  | |- eats _ (separated_list0 _ _) => apply eats_sep; nome
  | |- eats _ (permutation _ _) => apply eats_perm; nome
  | |- eats _ (pbind _ _) => apply eats_bind; nome
  | |- eats _ (match ?x with _ => _ end) => destruct x; nome
  | |- eats _ _ => first [assumption | solve [eauto with eatdb]]
  end.

Section E.
Context `{Unicode}.
Section Acc.
Variable puncts : list string.
Hypothesis Inc : incl expr_puncts puncts.
Notation eats := (eats puncts).

Lemma eats_concat_ident : eats parse_concat_ident.
Proof. unfold parse_concat_ident. nome. Qed.
Lemma eats_lit_char : eats lit_char_parse.
Proof. unfold lit_char_parse. nome. Qed.
Lemma eats_lit_string : eats lit_string_parse.
Proof. unfold lit_string_parse, text_after. nome. Qed.
Hint Resolve eats_concat_ident eats_lit_char eats_lit_string : eatdb.
Lemma eats_lit : eats lit_parse.
Proof. unfold lit_parse, lit_float_parse, lit_int_parse. nome. Qed.
Lemma eats_cv : eats const_volatile_qualifier.
Proof. unfold const_volatile_qualifier. nome. Qed.
Hint Resolve eats_lit eats_cv : eatdb.
Lemma eats_type : eats type_parse.
Proof.
  unfold type_parse, ty_base, ty_simple, ty_ident, int_ty, int_ty_long_long, int_ty_length, int_ty_plain, int_signedness, int_length. nome.
Qed.
Hint Resolve eats_type : eatdb.
Lemma eats_concat_string : eats parse_concat_string.
Proof. unfold parse_concat_string, concat_part, stringify_parse. nome. Qed.
Hint Resolve eats_concat_string : eatdb.

Lemma eats_step rec : (forall l, eats (rec l)) -> forall l, eats (expr_step rec l).
Proof.
  intros R l. destruct l; cbn [expr_step];
  unfold parse_factor, parse_term_prec1, parse_access, parse_term_prec2, parse_prefix_op, parse_term_prec3, parse_term_prec4, parse_term_prec5,
    parse_term_prec6, parse_term_prec7, parse_term_prec8, parse_term_prec9, parse_term_prec10, parse_term_prec13, parse_term_prec14, parse_assign_op, parse_left; nome.
Qed.
Lemma eats_pexpr n : forall l, eats (pexpr n l).
Proof.
  induction n as [|n IH]; [intros l ts r a E; discriminate E|]. intros l. exact (eats_step _ IH l).
Qed.
Lemma eats_expr : eats expr_parse.
Proof. intros ts r a E. now apply eats_pexpr in E. Qed.
Hint Resolve eats_expr : eatdb.
Lemma eats_asm : eats asm_parse.
Proof. unfold asm_parse, string_with, colon_section. nome. Qed.
Hint Resolve eats_asm : eatdb.
End Acc.
Hint Resolve eats_concat_ident eats_lit_char eats_lit_string eats_lit eats_cv eats_type eats_concat_string eats_expr eats_asm : eatdb.
Notation eats := (eats accepted).
Lemma acc_incl : incl expr_puncts accepted.
Proof. intros x I. unfold accepted. apply in_or_app. now right. Qed.
Hint Resolve acc_incl : eatdb.
Lemma eats_stmt_step rec : eats rec -> eats (stmt_step rec).
Proof. intros R. unfold stmt_step, semicolon_or_eof, fn_decl_parse, var_decl_parse, static_type. nome. Qed.
Lemma eats_pstmt n : eats (pstmt n).
Proof. induction n as [|n IH]; [intros ts r a E; discriminate E|]. exact (eats_stmt_step _ IH). Qed.
Lemma eats_stmt : eats stmt_parse.
Proof.
  assert (eats stmt_parse_single) by (intros ts r a E; now apply eats_pstmt in E).
  unfold stmt_parse. nome.
Qed.
Hint Resolve eats_stmt : eatdb.

Lemma all_eats puncts {A} (p : parser A) ts r a : EatFacts.eats puncts p -> pall_consuming p ts = POk r a -> Forall (ok puncts) ts.
Proof.
  intros E Q. unfold pall_consuming, pbind in Q. destruct (p ts) as [r1 x| |] eqn:P; try discriminate.
  destruct r1; [|discriminate]. apply E in P as (w & -> & W). now rewrite app_nil_r.
Qed.
Theorem body_ok ts r b : macro_body_parse ts = POk r b -> Forall (ok accepted) ts.
Proof.
  unfold macro_body_parse, pbind at 1. destruct (meta ts) as [r1 x| |] eqn:M; try discriminate.
  apply (eats_meta accepted) in M as (w & -> & W). intro Q. apply Forall_app. split; [exact W|].
  destruct r1 as [|t r1]; [constructor|]. unfold palt in Q.
  destruct (pall_consuming (pmap MbExpr expr_parse) (t :: r1)) eqn:Q1.
  - eapply all_eats; [|exact Q1]. nome.
  - eapply all_eats; [|exact Q]. nome.
  - discriminate.
Qed.
End E.
