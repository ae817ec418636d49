(** What the statement parser accepts is in the C grammar. *)
From Verif Require Import Base Utf Lex LexFloat Token Ast Nom NomFacts ParseTok ParseExpr ParseStmt ParseFacts StrFacts SpecType PropType SpecGrammar GrammarFacts
  SpecAsmGrammar SpecStmtGrammar SpecAccept AcceptFacts AsmAcceptFacts PropAccept.
From Coq Require Import String List Lia PeanoNat Bool.
Import ListNotations.
Local Open Scope string_scope.
Local Open Scope list_scope.

Section A.
Context `{Unicode}.
Variable types : str -> bool.
Notation D := (D types).
Notation statement := (statement types false).
Notation statements := (statements types false).
(** The text of all the statements. *)
Variable W : list mtoken.

(** ** First tokens *)

(** The keywords taken for types: no value has such a name. *)
Definition also (x : str) : bool := types x || existsb (str_eqb x) (map st statement_keywords).
Lemma also_spec x : types x = false -> ~ In x (map st statement_keywords) -> also x = false.
Proof.
  intros T N. unfold also. rewrite T. destruct (existsb _ _) eqn:E; [|reflexivity]. apply existsb_exists in E as (y & I & E). apply str_eqb_eq in E. now subst.
Qed.
Lemma also_name n : value_name types n -> free_name n -> value_name also n.
Proof.
  destruct n as [i|x|[|[x|i|z] l]]; cbn; auto; intros (A & B) C; (split; [exact A|now apply also_spec]).
Qed.
Lemma also_type t : type_ok types t -> type_ok also t.
Proof.
  induction t; cbn; auto. destruct name as [i|x|l]; auto. intros (A & B). split; [exact A|]. intro S. unfold also. now rewrite B.
Qed.
Lemma also_all l : Forall (fun e => consistent types e -> free e -> consistent also e) l -> all (consistent types) l -> all free l -> all (consistent also) l.
Proof. induction 1 as [|e l Q F IH]; cbn [all]; [auto|]. intros (A & B) (C & E). auto. Qed.
Lemma also_ok e : consistent types e -> free e -> consistent also e.
Proof.
  induction e as [v|v l IHl|t e IHe|l|a IHa|l IHl|t|op e IHe|a op b IHa IHb|a b d IHa IHb IHd] using expr_ind'; cbn [consistent free].
  - apply also_name.
  - intros (A & B) (C & E). split; [now apply also_name|now apply also_all].
  - intros (A & B) C. split; [now apply also_type|auto].
  - auto.
  - auto.
  - intros (A & B) C. split; [now apply also_all|exact B].
  - intros A _. now apply also_type.
  - intros (A & B & C) E. auto.
  - intros (A & B & C) (E & F). split; [auto|]. split; [|exact C]. destruct op; auto.
  - intros (A & B & C) (E & F & G). auto.
Qed.
Lemma first_free ts r e : ordinary ts -> expr_parse ts = POk r e -> consistent types e -> free e -> ~ starts_with_keyword ts.
Proof.
  intros O E C F. pose proof (expr_ok also ts r e O E (also_ok e C F)) as d. intro K.
  destruct ts as [|[i|x|x|l|q|c] ts]; try exact K. cbn [starts_with_keyword] in K.
  destruct (derives_first _ _ _ _ _ d x ts eq_refl) as [(A & B)|B].
  - unfold also in B. apply orb_false_iff in B as (_ & B). assert (T : existsb (str_eqb x) (map st statement_keywords) = true); [|congruence].
    apply existsb_exists. exists x. split; [exact K|apply str_eqb_refl].
  - subst x. clear - K. vm_compute in K. repeat destruct K as [K|K]; try discriminate K; exact K.
Qed.

Lemma type_first T t : type_name types T t -> free_type t -> T <> [] /\ ~ starts_with_keyword T.
Proof.
  assert (Q : forall w, In w type_keywords \/ w = "struct" -> ~ In (st w) (map st statement_keywords)).
  { assert (B : forallb (fun w => negb (existsb (str_eqb (st w)) (map st statement_keywords))) ("struct" :: type_keywords) = true) by (vm_compute; reflexivity).
    rewrite forallb_forall in B. intros w Hw K. assert (I : In w ("struct" :: type_keywords)) by (destruct Hw as [Hw| ->]; [now right|now left]).
    apply B, negb_true_iff in I. assert (T9 : existsb (str_eqb (st w)) (map st statement_keywords) = true); [|congruence].
    apply existsb_exists. exists (st w). split; [exact K|apply str_eqb_refl]. }
  assert (Qq : forall pre rest, rest <> [] -> ~ starts_with_keyword rest -> quals_tokens pre ++ rest <> [] /\ ~ starts_with_keyword (quals_tokens pre ++ rest)).
  { intros pre rest N K. destruct pre; cbn [quals_tokens app starts_with_keyword kw]; (split; [try discriminate; auto|]); try exact K; apply Q; cbn; tauto. }
  intros Tn. inversion Tn as [ws b pre post ps Hsp Hsf Hv|pre mid post ps Ho|sw x pre post ps Hk Ht Hv]; subst; intro F.
  - apply Qq.
    + intro E. apply app_eq_nil in E as (E & _). pose proof (spells_accepted _ _ Hsp Hsf) as A. destruct ws; [|discriminate].
      clear - A. vm_compute in A. repeat destruct A as [A|A]; try discriminate A; exact A.
    + pose proof (spells_accepted _ _ Hsp Hsf) as A.
      assert (Wk : exists w ws', ws = w :: ws' /\ In w type_keywords).
      { assert (B : forallb (fun x => match fst x with w :: _ => existsb (String.eqb w) type_keywords | [] => false end) PropType.accepted = true) by (vm_compute; reflexivity).
        rewrite forallb_forall in B. apply B in A. cbn [fst] in A. destruct ws as [|w ws']; [discriminate|]. exists w, ws'. split; [reflexivity|].
        apply existsb_exists in A as (y & I & E). apply String.eqb_eq in E. now subst. }
      destruct Wk as (w & ws' & -> & I). cbn [map app starts_with_keyword kw]. apply Q. auto.
  - apply Qq; [discriminate|]. cbn [starts_with_keyword kw]. apply Q. cbn. tauto.
  - apply Qq; [destruct sw; discriminate|]. destruct sw; cbn [app starts_with_keyword kw]; [apply Q; auto|].
    assert (G : forall ps t, free_type (fold_left point ps t) -> free_type t).
    { clear. induction ps as [|p ps IH]; intros t; cbn [fold_left]; [auto|]. intro T. apply IH in T.
      unfold point, qualified in T. destruct (has_const _), (has_volatile _); exact T. }
    apply G in F. unfold qualified in F. destruct (has_const pre || has_const post), (has_volatile pre || has_volatile post); exact F.
Qed.

(** ** The end of a statement *)

Lemma end_inv r1 r u : semicolon_or_eof r1 = POk r u -> ended false r1 r.
Proof.
  unfold semicolon_or_eof, palt, pvalue, pbind, pret. destruct (punct ";" r1) as [r2 x| |] eqn:E; try discriminate.
  - intro K. injection K as <- _. apply punct_inv in E. subst r1. split; [left; reflexivity|discriminate].
  - destruct r1 as [|t r1]; cbn [peof]; [|discriminate]. intro K. injection K as <- _. split; [right; auto|discriminate].
Qed.

(** ** Declarations *)

Lemma static_inv ts r b t : static_type ts = POk r (b, t) -> exists ts', ts = (if b then [kw "static"] else []) ++ ts' /\ type_parse ts' = POk r t.
Proof.
  unfold static_type, permutation. cbn [map length perm_loop forallb fst andb perm_try]. unfold pmap at 1, pbind at 1. unfold popt at 1.
  destruct (id "static" ts) as [r1 x| |] eqn:E; try discriminate; unfold pret at 1; cbn [perm_loop forallb fst andb perm_try]; unfold pmap, pbind.
  - apply id_inv in E. subst ts. destruct (type_parse r1) as [r2 t2| |] eqn:E2; try discriminate. cbn. intro K. injection K as <- <- <-. exists r1. auto.
  - destruct (type_parse ts) as [r2 t2| |] eqn:E2; try discriminate. cbn. intro K. injection K as <- <- <-. exists ts. auto.
Qed.
Lemma decl_inv ts r b t n : ordinary ts -> static_type ts = POk r (b, t) -> declared types t n ->
  exists T, ts = (if b then [kw "static"] else []) ++ T ++ r /\ type_name types T t /\ T <> [] /\ ~ starts_with_keyword T.
Proof.
  intros O E (Ht & Hf & _). apply static_inv in E as (ts' & -> & E). apply (type_inv types) in E as (T & -> & Tn); auto.
  - exists T. destruct (type_first _ _ Tn Hf). auto.
  - eapply ordinary_suffix; [|exact O]. now exists (if b then [kw "static"] else []).
Qed.
Lemma var_ok ts r d r' u : ordinary ts -> var_decl_parse ts = POk r d -> semicolon_or_eof r = POk r' u -> consistent_stmt types W (SVarDecl d) ->
  statement ts (SVarDecl d) r'.
Proof.
  intros O E En (Hd & He). unfold var_decl_parse, pbind at 1 in E. destruct (static_type ts) as [r1 [b t]| |] eqn:E1; try discriminate.
  unfold pbind at 1 in E. destruct (parse_concat_ident r1) as [r2 n| |] eqn:E2; try discriminate.
  unfold pbind in E. destruct (punct "=" r2) as [r3 x| |] eqn:E3; try discriminate. destruct (expr_parse r3) as [r4 e| |] eqn:E4; try discriminate.
  injection E as <- <-. cbn [vd_ty vd_name vd_rhs fst snd] in *. apply punct_inv in E3. subst r2.
  destruct (decl_inv _ _ _ _ _ O E1 Hd) as (T & -> & Tn & _ & Tk). destruct Hd as (_ & _ & (y & -> & Hy)).
  assert (O1 : ordinary r1) by (eapply ordinary_suffix; [|exact O]; exists ((if b then [kw "static"] else []) ++ T); now rewrite app_assoc).
  apply names_inv in E2; [|exact O1]. inversion E2; subst. apply end_inv in En.
  assert (O3 : ordinary r3) by (eapply ordinary_suffix; [|exact O1]; exists [MIdent y; P "="]; reflexivity).
  apply (expr_ok types) in E4; auto. destruct b; [eapply s_static|eapply s_declaration]; eassumption.
Qed.
Lemma type_starts T t : type_name types T t -> exists x T', T = MIdent x :: T'.
Proof.
  intro Tn. inversion Tn as [ws b pre post ps Hsp Hsf Hv|pre mid post ps Ho|sw x pre post ps Hk Ht Hv]; subst; destruct pre; cbn [quals_tokens app]; try (do 2 eexists; reflexivity);
    [|destruct sw; do 2 eexists; reflexivity].
  destruct ws; [|do 2 eexists; reflexivity]. destruct Hsp as (l & Hi & Pm). apply Permutation.Permutation_nil in Pm. subst l. cbn in Hi. repeat (destruct Hi as [Hi|Hi]; [discriminate|]). destruct Hi.
Qed.
Lemma param_inv n ts r acc l : sep_list_n n (ppair meta (punct ",")) (ppair type_parse parse_concat_ident) acc ts = POk r l -> ordinary ts ->
  exists l', l = acc ++ l' /\ (all (declared_parameter types) l' -> more_items false (parameter types) ts l' r).
Proof.
  revert ts acc. induction n as [|n IH]; intros ts acc; [discriminate|]. cbn [sep_list_n]. unfold ppair at 1. unfold pbind at 1 2.
  destruct (meta_uncomment ts) as (cs & ->).
  assert (Z : POk ts acc = POk r l -> exists l', l = acc ++ l' /\ (all (declared_parameter types) l' -> more_items false (parameter types) ts l' r)).
  { intro E. injection E as <- <-. exists []. rewrite app_nil_r. split; [reflexivity|]. intros _. constructor. }
  destruct (punct "," (uncomment ts)) as [r1 x| |] eqn:E1; try discriminate; [|intros E O; now apply Z].
  apply punct_inv in E1. unfold pret at 1. destruct (Nat.eqb _ _); [discriminate|]. unfold ppair at 1. unfold pbind at 1 2.
  destruct (type_parse r1) as [r2 t| |] eqn:E2; try discriminate; [|intros E O; now apply Z].
  destruct (parse_concat_ident r2) as [r3 m| |] eqn:E3; try discriminate; [|intros E O; now apply Z]. unfold pret at 1.
  intros E O. assert (S1 : suffix r1 ts) by (eapply suffix_un; exact E1). pose proof (ordinary_suffix _ _ S1 O) as O1.
  assert (O2 : ordinary r2) by (eapply ordinary_suffix; [apply ssuffix_suffix; eapply strict_type; exact E2|exact O1]).
  assert (O3 : ordinary r3) by (eapply ordinary_suffix; [apply ssuffix_suffix; eapply strict_parse_concat_ident; exact E3|exact O2]).
  apply IH in E as (l' & -> & M); [|exact O3]. exists ((t, m) :: l'). rewrite <- app_assoc. split; [reflexivity|]. cbn [all]. intros ((Ct & (y & Em & Hy)) & Cl).
  cbn [fst snd] in *. subst m. apply names_inv in E3; [|exact O2]. inversion E3; subst. apply (type_inv types) in E2 as (T & -> & Tn); auto.
  assert (U : uncomment (T ++ MIdent y :: r3) = T ++ MIdent y :: r3) by (destruct (type_starts _ _ Tn) as (x0 & T' & ->); reflexivity).
  eapply mi_some; [exact E1|rewrite U; now apply pa|now apply M|discriminate].
Qed.
Lemma fn_ok ts r d r' u : ordinary ts -> fn_decl_parse ts = POk r d -> semicolon_or_eof r = POk r' u -> consistent_stmt types W (SFnDecl d) ->
  statement ts (SFnDecl d) r'.
Proof.
  intros O E En (Hd & Ha). unfold fn_decl_parse, pbind at 1 in E. destruct (static_type ts) as [r1 [b t]| |] eqn:E1; try discriminate.
  unfold pbind at 1 in E. destruct (parse_concat_ident r1) as [r2 n| |] eqn:E2; try discriminate.
  unfold pbind in E. destruct (parenthesized _ r2) as [r3 l| |] eqn:E3; try discriminate. 
  injection E as <- <-. cbn [fd_ret fd_name fd_args fst snd] in *.
  destruct (decl_inv _ _ _ _ _ O E1 Hd) as (T & -> & Tn & _ & Tk). destruct Hd as (_ & _ & (y & -> & Hy)).
  assert (O1 : ordinary r1) by (eapply ordinary_suffix; [|exact O]; exists ((if b then [kw "static"] else []) ++ T); now rewrite app_assoc).
  apply names_inv in E2; [|exact O1]. inversion E2; subst. apply end_inv in En.
  apply paren_inv in E3 as (ts0 & r4 & -> & E3 & E4).
  assert (O4 : ordinary (uncomment ts0)).
  { eapply ordinary_suffix; [|exact O1]. eapply suffix_trans; [apply suffix_uncomment|]. now exists [MIdent y; P "("]. }
  eapply s_function; [exact Tn|exact Tk|exact Hy| |exact En]. eapply ps; [|exact E4].
  unfold separated_list0 in E3. destruct (ppair type_parse parse_concat_ident (uncomment ts0)) as [r5 [t5 n5]| |] eqn:E5; try discriminate.
  - unfold ppair, pbind in E5. destruct (type_parse (uncomment ts0)) as [r6 t6| |] eqn:E6; try discriminate. destruct (parse_concat_ident r6) as [r7 n7| |] eqn:E7; try discriminate.
    injection E5 as <- <- <-.
    assert (O6 : ordinary r6) by (eapply ordinary_suffix; [apply ssuffix_suffix; eapply strict_type; exact E6|exact O4]).
    assert (O7 : ordinary r7) by (eapply ordinary_suffix; [apply ssuffix_suffix; eapply strict_parse_concat_ident; exact E7|exact O6]).
    apply param_inv in E3 as (l' & -> & M); [|exact O7]. cbn [app all] in Ha. destruct Ha as ((Ct & (z & Ez & Hz)) & Hl). cbn [fst snd] in *. subst n7.
    apply names_inv in E7; [|exact O6]. inversion E7; subst. apply (type_inv types) in E6 as (T' & -> & Tn'); auto. eapply it_some; [now apply pa|now apply M].
  - injection E3 as <- <-. constructor.
Qed.

(** ** Statements *)

Lemma starts_stmt ts s r : statement ts s r -> uncomment ts = ts.
Proof.
  intros S. inversion S; subst; try reflexivity.
  - eapply starts. eassumption.
  - match goal with Tn : type_name _ _ _ |- _ => apply type_starts in Tn as (x0 & T' & ->) end. reflexivity.
  - match goal with Tn : type_name _ _ _ |- _ => apply type_starts in Tn as (x0 & T' & ->) end. destruct static; reflexivity.
  - match goal with A : assembly _ _ _ _ _ |- _ => inversion A; subst end. reflexivity.
Qed.
Lemma not_else q s r : statement (kw "else" :: q) s r -> False.
Proof.
  intros S. inversion S as [ts e r1 r' d Hk En Hs| | | | | | |T t x ts e r1 r' Tn Hk Hx d En Et|T t x ts e r1 r' Tn Hk Hx d En Et|st' T t x ts l r1 r' Tn Hk Hx Pa En Et|ts a r1 r' A En]; subst.
  - apply Hk. cbn. auto.
  - apply type_starts in Tn as (y & T' & ->). injection Et as -> _. apply Hk. cbn. auto.
  - apply type_starts in Tn as (y & T' & ->). destruct st'; [discriminate Et|]. injection Et as -> _. apply Hk. cbn. auto.
  - inversion A as [k' q' ts' s' lines r1' outs r2 ins r3 cl r4 r'' Hi]; subst.
    cbn in Hi. repeat destruct Hi as [<- | Hi]; try discriminate; exact Hi.
Qed.
Lemma statements_snoc ts l r1 s r : statements ts l r1 -> statement (uncomment r1) s r -> statements ts (l ++ [s]) r.
Proof. induction 1; intro S; cbn [app]; [|eapply q_some; eauto]. eapply q_some; [exact S|constructor]. Qed.
Lemma consistent_branch s : all (consistent_stmt types W) (branch s) -> consistent_stmt types W s.
Proof. destruct s; cbn; tauto. Qed.
Lemma branch_block s : stmt_block s = branch s.
Proof. reflexivity. Qed.

(** Texts in it. *)
Definition good (ts : list mtoken) : Prop := ordinary ts /\ (assembly_text W -> assembly_text ts).
Lemma good_suffix r ts : suffix r ts -> good ts -> good r.
Proof.
  intros S (O & A). split; [eapply ordinary_suffix; eassumption|]. intro T. destruct (A T) as (A1 & A2), S as (q & ->). split.
  - intros s Hi. apply A1, in_app_iff. now right.
  - intros a u s r0 -> L. apply (A2 (q ++ a) u s r0); [now rewrite app_assoc|exact L].
Qed.

(** What follows a statement: an else only if some statement follows that. *)
Definition else_ok (r : list mtoken) : Prop :=
  forall r', uncomment r = kw "else" :: r' -> exists m r2 s2, pstmt m (uncomment r') = POk r2 s2.
Lemma no_else r : ~ next_is (kw "else") r -> else_ok r.
Proof. intros N r' E. destruct N. now exists r'. Qed.

(** Sequences. *)
Section Seq.
Variable q p : parser stmt.
Hypothesis q_ok : forall ts r s, good ts -> q ts = POk r s -> consistent_stmt types W s -> else_ok r -> statement ts s r.
Hypothesis q_short : forall ts r s, q ts = POk r s -> suffix r ts.
Hypothesis p_is : forall ts r s, p ts = POk r s -> exists r0, q (uncomment ts) = POk r0 s /\ (r = r0 \/ r = uncomment r0).
Lemma seq_ok ts0 ts l r : good ts0 -> uncomment ts0 = uncomment ts -> suffix ts ts0 -> steps p (fun acc x => acc ++ [x]) [] ts l r ->
  suffix r ts0 /\ (all (consistent_stmt types W) l -> ~ next_is (kw "else") r -> exists r', uncomment r' = uncomment r /\ statements ts0 l r').
Proof.
  intros O U Su S. induction S as [|l ts' s r S (Su' & IH) E].
  - split; [exact Su|]. intros _ _. exists ts0. split; [exact U|constructor].
  - apply p_is in E as (r0 & E & Er).
    assert (S1 : suffix (uncomment ts') ts0) by (eapply suffix_trans; [apply suffix_uncomment|exact Su']).
    assert (S0 : suffix r0 ts0) by (eapply suffix_trans; [eapply q_short; exact E|exact S1]).
    assert (Ur : uncomment r = uncomment r0) by (destruct Er as [-> | ->]; [reflexivity|apply uncomment_twice]).
    split; [destruct Er as [-> | ->]; [exact S0|eapply suffix_trans; [apply suffix_uncomment|exact S0]]|].
    intros C N. apply all_app in C as (Cl & (Cs & _)).
    assert (St : statement (uncomment ts') s r0).
    { eapply q_ok; [eapply good_suffix; [exact S1|exact O]|exact E|exact Cs|]. apply no_else. intros (q' & K). apply N. exists q'. congruence. }
    destruct IH as (r' & Ur' & Sl); [exact Cl| |].
    + intros (q' & K). rewrite K in St. exact (not_else _ _ _ St).
    + exists r0. split; [now symmetry|]. eapply statements_snoc; [exact Sl|]. now rewrite Ur'.
Qed.
End Seq.

Lemma block_inv n ts r s :
  (forall ts r s, good ts -> pstmt n ts = POk r s -> consistent_stmt types W s -> else_ok r -> statement ts s r) ->
  good ts -> pmap SBlock (delimited (terminated (punct "{") meta) (many0 (preceded meta (pstmt n))) (terminated (preceded meta (punct "}")) (popt (punct ";")))) ts = POk r s ->
  consistent_stmt types W s -> statement ts s r.
Proof.
  intros Rec O E C. unfold pmap, delimited, terminated, preceded, pbind, pret in E.
  destruct (punct "{" ts) as [r1 x| |] eqn:E1; try discriminate. apply punct_inv in E1. subst ts. destruct (meta_uncomment r1) as (cs & M). rewrite M in E.
  destruct (many0 _ (uncomment r1)) as [r2 l| |] eqn:E2; try discriminate. destruct (meta_uncomment r2) as (cs2 & M2). rewrite M2 in E.
  destruct (punct "}" (uncomment r2)) as [r3 y| |] eqn:E3; try discriminate. apply punct_inv in E3.
  assert (O1 : good r1) by (eapply good_suffix; [|exact O]; now exists [P "{"]).
  unfold many0 in E2. apply fold_steps in E2. unfold popt in E. cbn [consistent_stmt] in C.
  assert (G : s = SBlock l -> exists r', uncomment r' = uncomment r2 /\ statements r1 l r').
  { intros ->. eapply (seq_ok (pstmt n) _ Rec); [| |exact O1| | |exact E2| |].
    - intros ts r' s' E'. apply ssuffix_suffix. eapply strict_pstmt. exact E'.
    - intros ts r' s' E'. unfold pbind in E'. destruct (meta_uncomment ts) as (cs' & M'). rewrite M' in E'. eauto.
    - now rewrite uncomment_twice.
    - apply suffix_uncomment.
    - exact C.
    - intros (q' & K). rewrite E3 in K. discriminate K. }
  destruct (punct ";" r3) as [r4 z| |] eqn:E4; try discriminate.
  - injection E as <- <-. apply punct_inv in E4. subst r3. destruct (G eq_refl) as (r' & U & Sl). eapply s_block_semicolon; [exact Sl|]. now rewrite U.
  - injection E as <- <-. destruct (G eq_refl) as (r' & U & Sl). eapply s_block; [exact Sl|now rewrite U|].
    intros r9 ->. cbv [punct pmap_opt pbind take_one P] in E4. rewrite str_eqb_refl in E4. discriminate E4.
Qed.

Theorem pstmt_ok n ts r s : good ts -> pstmt n ts = POk r s -> consistent_stmt types W s -> else_ok r -> statement ts s r.
Proof.
  revert ts r s. induction n as [|n IH]; intros ts r s O E C El; [discriminate|]. cbn [pstmt] in E. unfold stmt_step in E. cbn [palts] in E.
  unfold palt at 1 in E. destruct (pmap SAsm _ ts) as [r1 s1| |] eqn:E1; try discriminate.
  { injection E as <- <-. apply pmap_inv in E1 as (a & E1 & ->). unfold terminated in E1. apply bind_inv in E1 as (r2 & a' & E1 & E2).
    apply bind_inv in E2 as (r3 & u & E2 & E3). injection E3 as <- <-. destruct O as (O & A), C as (T & C).
    eapply s_assembly; [|eapply end_inv; exact E2]. eapply asm_ok; [exact O|now apply A|apply suffix_refl|exact E1|exact C]. }
  clear E1. unfold palt at 1 in E.
  match type of E with context [match ?x with POk _ _ => _ | _ => _ end] => destruct x as [r1 s1| |] eqn:E1 end; try discriminate.
  { injection E as <- <-. unfold pbind at 1 in E1. unfold preceded at 1, terminated at 1 in E1. unfold pbind at 1 2 in E1.
    destruct (id "if" ts) as [r2 x| |] eqn:E2; try discriminate. apply id_inv in E2. subst ts. unfold pbind at 1 in E1. destruct (meta_uncomment r2) as (cs & M). rewrite M in E1.
    unfold pret at 1 in E1. destruct (parenthesized expr_parse (uncomment r2)) as [r3 c| |] eqn:E3; try discriminate.
    unfold pbind at 1, pmap at 1 in E1. unfold pbind at 1 in E1. destruct (pstmt n r3) as [r4 a| |] eqn:E4; try discriminate. unfold pret at 1 in E1.
    unfold pbind at 1 in E1. unfold popt in E1. 
    assert (O2 : good (uncomment r2)) by (eapply good_suffix; [|exact O]; eapply suffix_trans; [apply suffix_uncomment|]; now exists [kw "if"]).
    assert (O3 : good r3) by (eapply good_suffix; [eapply parens_short; exact E3|exact O2]).
    assert (O4 : good r4) by (eapply good_suffix; [apply ssuffix_suffix; eapply strict_pstmt; exact E4|exact O3]).
    assert (Uc : forall b, SIf c (stmt_block a) b = s1 -> exists ts1 rc, uncomment r2 = P "(" :: ts1 /\ D Comma (uncomment ts1) c rc /\ uncomment rc = P ")" :: r3).
    { intros b <-. apply parens_inv; [exact (proj1 O2)|exact E3|]. apply C. }
    destruct (preceded _ _ r4) as [r5 b| |] eqn:E5; try discriminate.
    - unfold pret in E1. injection E1 as <- <-. unfold preceded, pbind at 1 in E5. destruct (delimited meta (id "else") meta r4) as [r6 y| |] eqn:E6; try discriminate.
      apply delim_inv in E6 as (r7 & E6 & ->). apply id_inv in E6. unfold pmap, pbind in E5. destruct (pstmt n (uncomment r7)) as [r8 b8| |] eqn:E8; try discriminate. injection E5 as <- <-.
      destruct (Uc _ eq_refl) as (ts1 & rc & U1 & Dc & U2). destruct C as (_ & Ca & Cb). apply consistent_branch in Ca, Cb.
      assert (S1 : statement r3 a r4) by (apply IH; [exact O3|exact E4|exact Ca|]; intros r' K; rewrite E6 in K; injection K as <-; eauto).
      assert (O7 : good (uncomment r7)) by (eapply good_suffix; [|exact O4]; eapply suffix_trans; [apply suffix_uncomment|]; eapply suffix_un; exact E6).
      pose proof (IH _ _ _ O7 E8 Cb El) as S2.
      eapply s_if_else; [exact U1|exact Dc|exact U2| |exact E6|exact S2|discriminate]. now rewrite (starts_stmt _ _ _ S1).
    - unfold pret in E1. injection E1 as <- <-. destruct (Uc _ eq_refl) as (ts1 & rc & U1 & Dc & U2). destruct C as (_ & Ca & _). apply consistent_branch in Ca.
      pose proof (IH _ _ _ O3 E4 Ca El) as S1.
      eapply s_if; [exact U1|exact Dc|exact U2| | |discriminate]; [now rewrite (starts_stmt _ _ _ S1)|].
      intros (r' & K). destruct (El _ K) as (m & r9 & s9 & E9).
      unfold preceded, pbind at 1 in E5. rewrite (delim_hit (id "else") r4 r' (st "else")) in E5 by (rewrite K; cbv [id keyword pmap_opt pbind take_one kw]; now rewrite str_eqb_refl).
      unfold pmap, pbind in E5. destruct (pstmt n (uncomment r')) as [r8 b8| |] eqn:E8; try discriminate.
      assert (F1 : pstmt (max n m) (uncomment r') = PErr) by (rewrite (ple_pstmt n (max n m)); [exact E8|lia|congruence]).
      assert (F2 : pstmt (max n m) (uncomment r') = POk r9 s9) by (rewrite (ple_pstmt m (max n m)); [exact E9|lia|congruence]).
      congruence. }
  clear E1. unfold palt at 1 in E. destruct (pmap (fun x => SDoWhile (fst x) (snd x)) _ ts) as [r1 s1| |] eqn:E1; try discriminate.
  { injection E as <- <-. unfold pmap, pbind in E1. destruct (preceded _ _ ts); try discriminate. injection E1 as <- <-. destruct C. }
  clear E1. unfold palt at 1 in E. destruct (pmap SBlock _ ts) as [r1 s1| |] eqn:E1; try discriminate.
  { injection E as <- <-. eapply block_inv; [exact IH|exact O|exact E1|exact C]. }
  clear E1. unfold palt at 1 in E. destruct (pmap SFnDecl _ ts) as [r1 s1| |] eqn:E1; try discriminate.
  { injection E as <- <-. unfold pmap, terminated, pbind, pret in E1. destruct (fn_decl_parse ts) as [r2 d| |] eqn:E2; try discriminate.
    destruct (semicolon_or_eof r2) as [r3 u| |] eqn:E3; try discriminate. injection E1 as <- <-. destruct O as (O & _); eapply fn_ok; eassumption. }
  clear E1. unfold palt at 1 in E. destruct (pmap SVarDecl _ ts) as [r1 s1| |] eqn:E1; try discriminate.
  { injection E as <- <-. unfold pmap, terminated, pbind, pret in E1. destruct (var_decl_parse ts) as [r2 d| |] eqn:E2; try discriminate.
    destruct (semicolon_or_eof r2) as [r3 u| |] eqn:E3; try discriminate. injection E1 as <- <-. destruct O as (O & _); eapply var_ok; eassumption. }
  clear E1. unfold palt, pfail in E. destruct (pmap SExpr _ ts) as [r1 s1| |] eqn:E1; try discriminate.
  injection E as <- <-. unfold pmap, terminated, pbind, pret in E1. destruct (expr_parse ts) as [r2 e| |] eqn:E2; try discriminate.
  destruct (semicolon_or_eof r2) as [r3 u| |] eqn:E3; try discriminate. injection E1 as <- <-. destruct C as (Ce & Cf), O as (O & _).
  eapply s_expression; [|eapply first_free; eassumption|eapply end_inv; exact E3|discriminate].
  apply d_up with (l' := Assignment); [reflexivity|]. now apply expr_ok.
Qed.

(** ** Bodies *)

Lemma if_tree rec ts r s :
  (c <~ preceded (terminated (id "if") meta) (parenthesized expr_parse) ;;
   a <~ pmap stmt_block rec ;;
   b <~ popt (preceded (delimited meta (id "else") meta) (pmap stmt_block rec)) ;;
   pret (SIf c a (match b with Some b => b | None => [] end))) ts = POk r s -> exists c a b, s = SIf c a b.
Proof.
  unfold pbind at 1. destruct (preceded _ _ ts) as [r1 c| |]; try discriminate. unfold pbind at 1. destruct (pmap stmt_block rec r1) as [r2 a| |]; try discriminate.
  unfold pbind at 1. destruct (popt _ r2) as [r3 b| |]; try discriminate. intro E. injection E as _ <-. eauto.
Qed.
Lemma do_inv n ts r l c : pstmt n ts = POk r (SDoWhile l c) ->
  exists m ts1 a r2, ts = kw "do" :: ts1 /\ pstmt m (uncomment ts1) = POk (kw "while" :: r2) a /\ l = branch a /\ parenthesized expr_parse r2 = POk r c.
Proof.
  destruct n as [|n]; [discriminate|]. cbn [pstmt]. intros E. apply palts_inv in E as (p & Hp & E).
  destruct Hp as [<- | [<- | [<- | [<- | [<- | [<- | [<- | []]]]]]]];
    try (apply pmap_inv in E as (a & E & K); discriminate K); try (apply if_tree in E as (a & b & c' & K); discriminate K).
  apply pmap_inv in E as ((a & c') & E & K). cbn [fst snd] in K. injection K as -> ->.
  unfold preceded at 1, terminated, pbind at 1 2 in E. destruct (id "do" ts) as [r1 x| |] eqn:E1; try discriminate. apply id_inv in E1. subst ts.
  unfold pbind at 1 in E. destruct (meta_uncomment r1) as (cs & M). rewrite M in E. unfold pret at 1 in E. unfold ppair, pbind at 1 in E.
  destruct (pmap stmt_block (pstmt n) (uncomment r1)) as [r2 b| |] eqn:E2; try discriminate. apply pmap_inv in E2 as (a' & E2 & ->).
  unfold preceded, pbind in E. destruct (id "while" r2) as [r3 y| |] eqn:E3; try discriminate. apply id_inv in E3. subst r2.
  destruct (parenthesized expr_parse r3) as [r4 z| |] eqn:E4; try discriminate. injection E as <- <- <-. exists n, r1, a', r3. auto.
Qed.
Lemma if_inv n ts r c a b : pstmt n ts = POk r (SIf c a b) ->
  exists m r2 r3 a' r4, n = S m /\ ts = kw "if" :: r2 /\ parenthesized expr_parse (uncomment r2) = POk r3 c /\ pstmt m r3 = POk r4 a' /\ a = branch a' /\
    ((exists r7 b', uncomment r4 = kw "else" :: r7 /\ pstmt m (uncomment r7) = POk r b' /\ b = branch b') \/ (r = r4 /\ b = [])).
Proof.
  destruct n as [|n]; [discriminate|]. cbn [pstmt]. intros E. apply palts_inv in E as (p & Hp & E1).
  destruct Hp as [<- | [<- | [<- | [<- | [<- | [<- | [<- | []]]]]]]];
    try (apply pmap_inv in E1 as (a' & E1 & K); discriminate K).
  unfold pbind at 1 in E1. unfold preceded at 1, terminated at 1 in E1. unfold pbind at 1 2 in E1.
  destruct (id "if" ts) as [r2 x| |] eqn:E2; try discriminate. apply id_inv in E2. subst ts. unfold pbind at 1 in E1. destruct (meta_uncomment r2) as (cs & M). rewrite M in E1.
  unfold pret at 1 in E1. destruct (parenthesized expr_parse (uncomment r2)) as [r3 c'| |] eqn:E3; try discriminate.
  unfold pbind at 1, pmap at 1 in E1. unfold pbind at 1 in E1. destruct (pstmt n r3) as [r4 a'| |] eqn:E4; try discriminate. unfold pret at 1 in E1.
  unfold pbind at 1 in E1. unfold popt in E1. destruct (preceded _ _ r4) as [r5 b'| |] eqn:E5; try discriminate.
  - unfold pret in E1. injection E1 as <- <- <- <-. unfold preceded, pbind at 1 in E5. destruct (delimited meta (id "else") meta r4) as [r6 y| |] eqn:E6; try discriminate.
    apply delim_inv in E6 as (r7 & E6 & ->). apply id_inv in E6. unfold pmap, pbind in E5. destruct (pstmt n (uncomment r7)) as [r8 b8| |] eqn:E8; try discriminate. injection E5 as <- <-.
    exists n, r2, r3, a', r4. repeat split; auto. left. eauto.
  - unfold pret in E1. injection E1 as <- <- <- <-. exists n, r2, r3, a', r4. repeat split; auto.
Qed.
Lemma ends_suffix r ts : suffix r ts -> ends_in_block r -> ends_in_block ts.
Proof. intros (q & ->) (a & r' & U & [-> | ->]); exists (q ++ a), r'; (split; [exact U|]); [left|right]; now rewrite <- app_assoc. Qed.
Lemma ends_uncomment ts : (ends_in_block (uncomment ts) -> ends_in_block ts) /\ (ends_in_block ts -> ends_in_block (uncomment ts)).
Proof.
  split; [apply ends_suffix, suffix_uncomment|]. induction ts as [|t ts IH]; [auto|]. destruct t; auto. cbn [uncomment]. intros (a & r & U & [E|E]); apply IH; destruct a as [|? a];
    try discriminate E; injection E as _ ->; exists a, r; auto.
Qed.
Lemma block_end n ts r l : pstmt n ts = POk r (SBlock l) -> uncomment r = [] -> ends_in_block ts.
Proof.
  destruct n as [|n]; [discriminate|]. cbn [pstmt]. intros E Ur. apply palts_inv in E as (p & Hp & E).
  destruct Hp as [<- | [<- | [<- | [<- | [<- | [<- | [<- | []]]]]]]];
    try (apply pmap_inv in E as (a & E & K); discriminate K); try (apply if_tree in E as (a & b & c' & K); discriminate K).
  unfold pmap, delimited, terminated, preceded, pbind, pret in E.
  destruct (punct "{" ts) as [r1 x| |] eqn:E1; try discriminate. apply punct_inv in E1. subst ts. destruct (meta_uncomment r1) as (cs & M). rewrite M in E.
  destruct (many0 _ (uncomment r1)) as [r2 l2| |] eqn:E2; try discriminate. destruct (meta_uncomment r2) as (cs2 & M2). rewrite M2 in E.
  destruct (punct "}" (uncomment r2)) as [r3 y| |] eqn:E3; try discriminate. apply punct_inv in E3.
  assert (S2 : suffix (P "}" :: r3) (P "{" :: r1)).
  { rewrite <- E3. eapply suffix_trans; [apply suffix_uncomment|]. eapply suffix_trans; [|exists [P "{"]; reflexivity]. eapply suffix_trans; [|apply suffix_uncomment].
    unfold many0 in E2. apply fold_steps in E2. clear - E2. induction E2 as [|l' ts' b r S IH E]; [apply suffix_refl|]. eapply suffix_trans; [|exact IH].
    unfold preceded, pbind in E. destruct (meta_uncomment ts') as (cs' & M'). rewrite M' in E. apply strict_pstmt in E. apply ssuffix_suffix in E.
    eapply suffix_trans; [exact E|apply suffix_uncomment]. }
  destruct S2 as (q & ->). unfold popt in E. destruct (punct ";" r3) as [r4 z| |] eqn:E4; try discriminate; injection E as <- _.
  - apply punct_inv in E4. subst r3. exists q, r4. auto.
  - exists q, r3. auto.
Qed.
Lemma do_ok n ts r l c : good ts -> pstmt n ts = POk r (SDoWhile l c) -> all (consistent_stmt types W) l -> consistent types c -> uncomment r = [] ->
  statement ts (SDoWhile l c) r.
Proof.
  intros O E Cl Cc Ur. apply do_inv in E as (m & ts1 & a & r2 & -> & E & -> & Ep).
  assert (O1 : good (uncomment ts1)) by (eapply good_suffix; [|exact O]; eapply suffix_trans; [apply suffix_uncomment|]; now exists [kw "do"]).
  assert (O2 : good (kw "while" :: r2)) by (eapply good_suffix; [apply ssuffix_suffix; eapply strict_pstmt; exact E|exact O1]).
  apply (parens_inv types) in Ep as (ts3 & r3 & -> & Dc & U3); [|apply (good_suffix _ (kw "while" :: r2)); [now exists [kw "while"]|exact O2]|exact Cc].
  eapply s_do with (r1 := kw "while" :: P "(" :: ts3); [|reflexivity|reflexivity|exact Dc|exact U3|exact Ur|discriminate].
  eapply pstmt_ok; [exact O1|exact E|now apply consistent_branch|]. intros r' K. discriminate K.
Qed.

Lemma branch_is s x : branch s = [x] -> s = x \/ s = SBlock [x].
Proof. destruct s; cbn; intro E; try (injection E as <-; auto). subst. auto. Qed.
Lemma branch_none s : branch s = [] -> s = SBlock [].
Proof. destruct s; cbn; intro E; try discriminate. congruence. Qed.
Lemma end_ok n ts r s : good ts -> pstmt n ts = POk r s -> consistent_end types W s -> uncomment r = [] -> ~ ends_in_block ts -> statement ts s r.
Proof.
  revert ts r s. induction n as [|n IH]; intros ts r s O E C Ur Nb; [discriminate|].
  destruct s as [x|e|d|f|l|c a b|l c]; try contradiction; [|eapply do_ok; [exact O|exact E| | |exact Ur]; apply C].
  pose proof E as E0. apply if_inv in E0 as (m & r2 & r3 & a' & r4 & En & -> & E3 & E4 & -> & Eb). injection En as <-.
  assert (Cc : consistent types c) by (destruct b as [|x [|y b]], (branch a') as [|z [|w a]]; cbn in C; tauto).
  assert (S2 : suffix (uncomment r2) (kw "if" :: r2)) by (eapply suffix_trans; [apply suffix_uncomment|]; now exists [kw "if"]).
  assert (O2 : good (uncomment r2)) by (eapply good_suffix; [exact S2|exact O]).
  assert (S3 : suffix r3 (kw "if" :: r2)) by (eapply suffix_trans; [eapply parens_short; exact E3|exact S2]).
  assert (O3 : good r3) by (eapply good_suffix; [exact S3|exact O]).
  assert (S4 : suffix r4 (kw "if" :: r2)) by (eapply suffix_trans; [apply ssuffix_suffix; eapply strict_pstmt; exact E4|exact S3]).
  destruct (parens_inv types _ _ _ (proj1 O2) E3 Cc) as (ts1 & rc & U1 & Dc & U2).
  destruct Eb as [(r7 & b' & U7 & E7 & ->)|(-> & ->)].
  - assert (S7 : suffix (uncomment r7) (kw "if" :: r2)) by (eapply suffix_trans; [apply suffix_uncomment|]; eapply suffix_trans; [eapply suffix_un; exact U7|exact S4]).
    assert (B : forall l, b' = SBlock l -> False).
    { intros l ->. apply Nb. eapply ends_suffix; [exact S7|]. eapply block_end; [exact E7|exact Ur]. }
    destruct (branch b') as [|x [|y b]] eqn:Eb; [now apply branch_none, B in Eb| |destruct (branch a') as [|z [|w a]]; contradiction].
    apply branch_is in Eb as [<- | Eb]; [|now apply B in Eb].
    assert (C' : all (consistent_stmt types W) (branch a') /\ consistent_end types W b') by (destruct (branch a') as [|z [|w a]]; apply C).
    destruct C' as (Ca & Cb). apply consistent_branch in Ca.
    assert (St : statement r3 a' r4) by (eapply pstmt_ok; [exact O3|exact E4|exact Ca|]; intros r' K; rewrite U7 in K; injection K as <-; eauto).
    assert (Eb : [b'] = branch b') by (destruct b'; try reflexivity; now destruct (B l)).
    rewrite Eb. eapply s_if_else; [exact U1|exact Dc|exact U2| |exact U7| |discriminate]; [now rewrite (starts_stmt _ _ _ St)|].
    apply IH; [eapply good_suffix; [exact S7|exact O]|exact E7|exact Cb|exact Ur|]. intro K. apply Nb. eapply ends_suffix; [exact S7|exact K].
  - destruct (branch a') as [|x [|y a]] eqn:Ea; try contradiction.
    assert (B : forall l, a' = SBlock l -> False).
    { intros l ->. apply Nb. eapply ends_suffix; [exact S3|]. eapply block_end; [exact E4|exact Ur]. }
    rewrite <- Ea. apply branch_is in Ea as [-> | Ea]; [|now apply B in Ea].
    assert (St : statement r3 x r4).
    { apply IH; [exact O3|exact E4|apply C|exact Ur|]. intro K. apply Nb. eapply ends_suffix; [exact S3|exact K]. }
    eapply s_if; [exact U1|exact Dc|exact U2| | |discriminate]; [now rewrite (starts_stmt _ _ _ St)|].
    intros (q & K). rewrite Ur in K. discriminate K.
Qed.

Lemma single_ok ts r s : good ts -> stmt_parse_single ts = POk r s -> consistent_stmt types W s -> else_ok r -> statement ts s r.
Proof. unfold stmt_parse_single. apply pstmt_ok. Qed.
Lemma single_short ts r s : stmt_parse_single ts = POk r s -> suffix r ts.
Proof. unfold stmt_parse_single. intro E. apply ssuffix_suffix. eapply strict_pstmt. exact E. Qed.
Lemma single_is ts r s : delimited meta stmt_parse_single meta ts = POk r s -> exists r0, stmt_parse_single (uncomment ts) = POk r0 s /\ (r = r0 \/ r = uncomment r0).
Proof. intro E. apply delim_inv in E as (r0 & E & ->). eauto. Qed.
Lemma steps_first {B} (p : parser B) ts l r x l' : steps p (fun acc x => acc ++ [x]) [] ts l r -> l = x :: l' -> exists r1, p ts = POk r1 x.
Proof.
  intro S. revert x l'. induction S as [|l ts' b r S IH E]; intros x l' K; [discriminate|].
  destruct l as [|y l]; [|injection K as -> _; eauto]. cbn in K. injection K as -> _. inversion S; subst; [eauto|].
  exfalso. match goal with K : _ ++ [_] = [] |- _ => now apply app_eq_nil in K as (_ & K) end.
Qed.
Theorem stmt_parse_ok ts s : uncomment W = uncomment ts -> good ts -> stmt_parse ts = POk [] s -> consistent_body types W s ->
  exists l, s = body_tree l /\ c_statements types ts l.
Proof.
  intros Et O E C. unfold stmt_parse in E. apply pmap_inv in E as (l & E & Es). unfold many0 in E. apply fold_steps in E.
  destruct C as [C|(l' & last & -> & Cl & Cd & Nb)].
  - exists l. split; [exact Es|].
    destruct (seq_ok _ _ single_ok single_short single_is ts ts l [] O eq_refl (suffix_refl _) E) as (_ & G).
    destruct G as (r' & U & S); [|intros (q & K); discriminate K|exists r'; split; [exact S|exact U]].
    subst s. destruct l as [|x [|y l]]; [exact I|now split|exact C].
  - assert (El : l = l' ++ [last]).
    { assert (B : forall k, l = [SBlock k] -> False).
      { intros k ->. inversion E as [K|l0 ts' b r' S1 Ep K]; subst. destruct l0 as [|z l0]; [|destruct l0; discriminate]. injection K as ->.
        inversion S1 as [K|l0 ts0 b r0 S2 Ep2 K]; subst; [|now apply app_eq_nil in K as (_ & K)].
        apply delim_inv in Ep as (r0 & Ep & U0). apply Nb. eapply ends_suffix; [apply suffix_uncomment|]. rewrite Et. eapply block_end; [exact Ep|now symmetry]. }
      assert (Nl : forall k, last <> SBlock k) by (intros k ->; exact Cd).
      destruct l' as [|x l'].
      - cbn in Es. destruct l as [|z [|w l]]; cbn in Es; [now destruct (Nl [])|cbn [app]; congruence|now destruct (Nl (z :: w :: l))].
      - assert (Es' : SBlock ((x :: l') ++ [last]) = body_tree l) by (destruct l'; exact Es).
        destruct l as [|z [|w l]]; cbn [body_tree] in Es'; [discriminate|exfalso; apply (B ((x :: l') ++ [last])); congruence|congruence]. }
    exists (l' ++ [last]). split; [reflexivity|]. subst l. inversion E as [K|l0 ts' b r' S1 Ep K]; subst; [symmetry in K; now apply app_eq_nil in K as (_ & K)|].
    match goal with K : _ ++ [_] = _ ++ [_] |- _ => apply app_inj_tail in K as [-> ->] end.
    destruct (seq_ok _ _ single_ok single_short single_is ts ts l' ts' O eq_refl (suffix_refl _) S1) as (Su & G).
    apply delim_inv in Ep as (r0 & Ep & U0).
    assert (Su' : suffix (uncomment ts') ts) by (eapply suffix_trans; [apply suffix_uncomment|exact Su]).
    assert (St : statement (uncomment ts') last r0).
    { eapply end_ok; [eapply good_suffix; [exact Su'|exact O]|exact Ep|exact Cd|now symmetry|].
      intro K. apply Nb. eapply ends_suffix; [apply suffix_uncomment|]. rewrite Et. destruct (ends_uncomment ts) as (_ & R). apply R. eapply ends_suffix; [exact Su'|exact K]. }
    destruct G as (r1 & U1 & Sl); [exact Cl|intros (q & K); rewrite K in St; exact (not_else _ _ _ St)|].
    exists r0. split; [|now symmetry]. eapply statements_snoc; [exact Sl|]. now rewrite U1.
Qed.
End A.
