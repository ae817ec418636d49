(** Facts about the reader of Rust expressions: more steps do not change the
    result, and the reading of each form. *)
From Verif Require Import Base Utf Lex LexFloat Token StrFacts Rust SpecRustExpr.
From Coq Require Import String List Lia.
Import ListNotations.
Local Open Scope string_scope.
Local Open Scope list_scope.

(** ** More steps *)

Record rle (a b : reader) : Prop := {
  le_expr : forall p ts v, r_expr a p ts = Some v -> r_expr b p ts = Some v;
  le_loop : forall p x ts v, r_loop a p x ts = Some v -> r_loop b p x ts = Some v;
  le_pre : forall ts v, r_pre a ts = Some v -> r_pre b ts = Some v;
  le_args : forall ts v, r_args a ts = Some v -> r_args b ts = Some v;
  le_block : forall ts v, r_block a ts = Some v -> r_block b ts = Some v }.

Ltac le_go L :=
  repeat match goal with
  | H : None = Some _ |- _ => discriminate H
  | H : context [r_expr ?a ?p ?ts] |- _ =>
    let Q := fresh "Q" in destruct (r_expr a p ts) eqn:Q in H;
    [ apply (le_expr _ _ L) in Q; rewrite Q; clear Q | clear Q ]; cbn [obind omap fst snd whole] in *
  | H : context [r_loop ?a ?p ?x ?ts] |- _ =>
    let Q := fresh "Q" in destruct (r_loop a p x ts) eqn:Q in H;
    [ apply (le_loop _ _ L) in Q; rewrite Q; clear Q | clear Q ]; cbn [obind omap fst snd whole] in *
  | H : context [r_pre ?a ?ts] |- _ =>
    let Q := fresh "Q" in destruct (r_pre a ts) eqn:Q in H;
    [ apply (le_pre _ _ L) in Q; rewrite Q; clear Q | clear Q ]; cbn [obind omap fst snd whole] in *
  | H : context [r_args ?a ?ts] |- _ =>
    let Q := fresh "Q" in destruct (r_args a ts) eqn:Q in H;
    [ apply (le_args _ _ L) in Q; rewrite Q; clear Q | clear Q ]; cbn [obind omap fst snd whole] in *
  | H : context [r_block ?a ?ts] |- _ =>
    let Q := fresh "Q" in destruct (r_block a ts) eqn:Q in H;
    [ apply (le_block _ _ L) in Q; rewrite Q; clear Q | clear Q ]; cbn [obind omap fst snd whole] in *
  | H : (if ?b then _ else _) = Some _ |- _ => revert H; destruct b; intro H
  | H : (match ?x with _ => _ end) = Some _ |- _ => revert H; destruct x; intro H; cbn [obind omap fst snd whole] in *
  | H : obind ?x _ = Some _ |- _ => revert H; destruct x; intro H; cbn [obind omap fst snd whole] in *
  end; try assumption.

Section Mono.
Variables a b : reader.
Hypothesis L : rle a b.

Lemma expr_le p ts v : expr_step a p ts = Some v -> expr_step b p ts = Some v.
Proof. unfold expr_step. intro H. le_go L. Qed.
Lemma binary_le p x q r ts v : binary_step a p x q r ts = Some v -> binary_step b p x q r ts = Some v.
Proof. unfold binary_step. intro H. le_go L. Qed.
Lemma loop_le p x ts v : loop_step a p x ts = Some v -> loop_step b p x ts = Some v.
Proof.
  unfold loop_step. intro H.
  destruct ts as [|[s|q|l|l|d g] r]; try assumption.
  - revert H; destruct (str_eqb s (st "as") && Nat.leb p as_level); intro H; [|assumption].
    revert H; destruct (rd_ty r) as [[t r']|]; intro H; [|discriminate]. cbn [obind omap fst snd] in *. le_go L.
  - revert H; destruct (str_eqb q (st ".")); intro H; [|now apply binary_le].
    destruct r as [|[f|d|?|?|?] r]; try discriminate.
    + revert H; destruct (keyword f); intro H; [discriminate|].
      destruct r as [|[?|?|?|?|[] g] r]; cbn [obind omap fst snd] in *; le_go L.
    + destruct r as [|[f|?|?|?|?] r]; try discriminate. revert H; destruct (str_eqb d (st "$")); intro H; [|discriminate]. le_go L.
  - destruct d; try assumption. le_go L.
Qed.
Lemma whole_le p ts x : whole (r_expr a p ts) = Some x -> whole (r_expr b p ts) = Some x.
Proof. unfold whole. intro H. le_go L. Qed.
Lemma path_le ts v : path_step a ts = Some v -> path_step b ts = Some v.
Proof.
  unfold path_step. intro H. revert H; destruct (rd_path ts) as [[p r]|]; intro H; [|discriminate]. cbn [obind omap fst snd] in *.
  destruct r as [|[?|q|?|?|?] r]; try assumption.
  destruct r as [|[?|q'|?|?|d g] r]; try assumption.
  revert H; destruct (str_eqb q (st "!")); intro H; [|assumption]. revert H; destruct (last_is "addr_of_mut" p); intro H; [|assumption].
  destruct (whole (r_expr a 0 g)) eqn:Q; [|discriminate]. rewrite (whole_le _ _ _ Q). assumption.
Qed.
Lemma word_le s r ts v : word_step a s r ts = Some v -> word_step b s r ts = Some v.
Proof.
  unfold word_step. intro H.
  revert H; destruct (str_eqb s (st "if")); intro H.
  { destruct (r_expr a 0 r) as [[c r']|] eqn:Q; [|discriminate]. rewrite (le_expr _ _ L _ _ _ Q). cbn [obind omap fst snd] in *. clear Q.
    destruct r' as [|[?|?|?|?|[] g] r']; try discriminate.
    destruct r' as [|[e|?|?|?|[] ?] r']; try (le_go L; fail).
  }
  revert H; destruct (str_eqb s (st "loop")); intro H.
  { destruct r as [|[?|?|?|?|[] g] r]; try discriminate. le_go L. }
  revert H; destruct (str_eqb s (st "unsafe")); intro H.
  { destruct r as [|[?|?|?|?|[] g] r]; try discriminate. le_go L. }
  revert H; destruct (str_eqb s (st "break")); intro H; [assumption|].
  revert H; destruct (str_eqb s (st "continue")); intro H; [assumption|].
  now apply path_le.
Qed.
Lemma pre_le ts v : pre_step a ts = Some v -> pre_step b ts = Some v.
Proof.
  unfold pre_step. intro H. destruct ts as [|[s|q|l|l|d g] r]; try assumption.
  - now apply word_le.
  - revert H; destruct (is_unary_op q); intro H; [|now apply path_le]. le_go L.
  - destruct d.
    + destruct g as [|t g]; [assumption|].
      destruct (whole (r_expr a 0 (t :: g))) eqn:Q; [|discriminate]. rewrite (whole_le _ _ _ Q). assumption.
    + le_go L.
    + le_go L.
Qed.
Lemma args_le ts v : args_step a ts = Some v -> args_step b ts = Some v.
Proof.
  unfold args_step. intro H. destruct ts as [|t ts]; [assumption|].
  match goal with |- obind ?e ?k = _ => remember e as eb end.
  match type of H with obind ?e ?k = _ => remember e as ea end.
  assert (E : forall x, ea = Some x -> eb = Some x).
  { subst. clear H. intros x H. destruct t; try (now apply (le_expr _ _ L)).
    destruct ts as [|[?|?|?|?|[] g] [|[?|?|?|?|?] [|[?|?|?|?|?] ?]]]; try (now apply (le_expr _ _ L)).
    revert H; match goal with |- (if ?b then _ else _) = _ -> _ => destruct b end; intro H; [assumption|now apply (le_expr _ _ L)]. }
  clear Heqeb Heqea. destruct ea as [[x r]|]; [|discriminate]. rewrite (E _ eq_refl). cbn [obind omap fst snd] in *.
  destruct r as [|[?|?|?|?|?] r]; try assumption. le_go L.
Qed.
Lemma omap_some {A B} (f : A -> B) o v : omap f o = Some v -> exists x, o = Some x /\ v = f x.
Proof. destruct o; [|discriminate]. cbn. intro H. injection H as <-. eauto. Qed.
Lemma let_le k ts v : let_step a k ts = Some v -> let_step b k ts = Some v.
Proof.
  unfold let_step. intro H. destruct ts as [|[x|?|?|?|?] [|[?|q|?|?|?] r]]; try discriminate.
  revert H; match goal with |- obind ?e _ = _ -> _ => destruct e as [[t r']|]; intro H; [|discriminate] end. cbn [obind omap fst snd] in *.
  destruct (r_expr a 0 r') as [[y r'']|] eqn:Q; [|discriminate]. rewrite (le_expr _ _ L _ _ _ Q). cbn [obind omap fst snd] in *.
  destruct r'' as [|[?|e|?|?|?] r'']; try discriminate. destruct (str_eqb e (st ";")); [|discriminate].
  destruct (omap_some _ _ _ H) as (w & Q' & ->). rewrite (le_block _ _ L _ _ Q'). reflexivity.
Qed.
Lemma stmt_le ts v : stmt_step a ts = Some v -> stmt_step b ts = Some v.
Proof.
  unfold stmt_step. intro H. revert H; destruct (blocklike ts); intro H.
  - destruct (r_pre a ts) as [[x r]|] eqn:Q; [|discriminate]. rewrite (le_pre _ _ L _ _ Q). cbn [obind omap fst snd] in *.
    destruct r as [|t r]; [assumption|]. revert H; destruct (is_p "." t); intro H; [assumption|].
    destruct (omap_some _ _ _ H) as (w & Q' & ->). rewrite (le_block _ _ L _ _ Q'). reflexivity.
  - destruct (r_expr a 0 ts) as [[x r]|] eqn:Q; [|discriminate]. rewrite (le_expr _ _ L _ _ _ Q). cbn [obind omap fst snd] in *.
    destruct r as [|[?|e|?|?|?] r]; try assumption. destruct (str_eqb e (st ";")); [|assumption].
    destruct (omap_some _ _ _ H) as (w & Q' & ->). rewrite (le_block _ _ L _ _ Q'). reflexivity.
Qed.
Lemma block_le ts v : block_step a ts = Some v -> block_step b ts = Some v.
Proof.
  unfold block_step. intro H. destruct ts as [|[s|q|l|l|d g] r]; try assumption; try now apply stmt_le.
  - destruct r as [|[s'|?|?|l|?] r]; try now apply stmt_le.
    + revert H; repeat match goal with |- (if ?b then _ else _) = _ -> _ => destruct b end; intro H; try now apply let_le.
      now apply stmt_le.
    + destruct r as [|[?|?|?|?|[] g] r]; try now apply stmt_le.
      revert H; destruct (str_eqb s (st "extern")); intro H; [|now apply stmt_le].
      destruct (omap_some _ _ _ H) as (w & Q' & ->). rewrite (le_block _ _ L _ _ Q'). reflexivity.
  - destruct (str_eqb q (st ";")); [now apply (le_block _ _ L)|now apply stmt_le].
Qed.
Lemma step_le : rle (step_reader a) (step_reader b).
Proof.
  constructor; cbn.
  - apply expr_le.
  - apply loop_le.
  - apply pre_le.
  - apply args_le.
  - apply block_le.
Qed.
End Mono.

Lemma rle_refl a : rle a a.
Proof. constructor; auto. Qed.
Lemma rle_trans a b c : rle a b -> rle b c -> rle a c.
Proof. intros [] []. constructor; auto. Qed.
Lemma rd_S n : rle (rd n) (rd (S n)).
Proof.
  induction n; [constructor; discriminate|]. cbn [rd]. now apply step_le.
Qed.
Lemma rd_le n m : n <= m -> rle (rd n) (rd m).
Proof. induction 1; [apply rle_refl|]. eapply rle_trans; [eassumption|apply rd_S]. Qed.

(** ** The reading, with some number of steps *)

Definition RE p ts x rest := exists n, r_expr (rd n) p ts = Some (x, rest).
Definition RL p x ts y rest := exists n, r_loop (rd n) p x ts = Some (y, rest).
Definition RP ts x rest := exists n, r_pre (rd n) ts = Some (x, rest).
Definition RA ts l := exists n, r_args (rd n) ts = Some l.
Definition RBk ts b := exists n, r_block (rd n) ts = Some b.

Lemma reads_fun ts x y : reads ts x -> reads ts y -> x = y.
Proof.
  intros [n Hn] [m Hm].
  apply (le_expr _ _ (rd_le _ _ (Nat.le_max_l n m))) in Hn.
  apply (le_expr _ _ (rd_le _ _ (Nat.le_max_r n m))) in Hm. congruence.
Qed.
Lemma reads_block_fun ts x y : reads_block ts x -> reads_block ts y -> x = y.
Proof.
  intros [n Hn] [m Hm].
  apply (le_block _ _ (rd_le _ _ (Nat.le_max_l n m))) in Hn.
  apply (le_block _ _ (rd_le _ _ (Nat.le_max_r n m))) in Hm. congruence.
Qed.

(** Raise all readings to the same number of steps [k]. *)
Ltac common k :=
  repeat match goal with
  | H : RE _ _ _ _ |- _ => destruct H as [? H]
  | H : RL _ _ _ _ _ |- _ => destruct H as [? H]
  | H : RP _ _ _ |- _ => destruct H as [? H]
  | H : RA _ _ |- _ => destruct H as [? H]
  | H : RBk _ _ |- _ => destruct H as [? H]
  end;
  repeat match goal with
  | H : r_expr (rd ?n) _ _ = Some _ |- _ => lazymatch n with k => fail | _ => apply (le_expr _ _ (rd_le n k ltac:(lia))) in H end
  | H : r_loop (rd ?n) _ _ _ = Some _ |- _ => lazymatch n with k => fail | _ => apply (le_loop _ _ (rd_le n k ltac:(lia))) in H end
  | H : r_pre (rd ?n) _ = Some _ |- _ => lazymatch n with k => fail | _ => apply (le_pre _ _ (rd_le n k ltac:(lia))) in H end
  | H : r_args (rd ?n) _ = Some _ |- _ => lazymatch n with k => fail | _ => apply (le_args _ _ (rd_le n k ltac:(lia))) in H end
  | H : r_block (rd ?n) _ = Some _ |- _ => lazymatch n with k => fail | _ => apply (le_block _ _ (rd_le n k ltac:(lia))) in H end
  end.

Ltac steps k := common k; exists (S k); cbn [rd r_expr r_loop r_pre r_args r_block step_reader].
Ltac mx :=
  repeat match goal with
  | H : RE _ _ _ _ |- _ => destruct H as [? H]
  | H : RL _ _ _ _ _ |- _ => destruct H as [? H]
  | H : RP _ _ _ |- _ => destruct H as [? H]
  | H : RA _ _ |- _ => destruct H as [? H]
  | H : RBk _ _ |- _ => destruct H as [? H]
  end.
Ltac two a b := mx; lazymatch goal with _ => idtac end; let k := constr:(Nat.max a b) in steps k.

(** ** Rules *)

Lemma re_pre p ts x r y r' : RP ts x r -> RL p x r y r' -> RE p ts y r'.
Proof.
  intros [a A] [b B]. steps (Nat.max a b). unfold expr_step. rewrite A. exact B.
Qed.
Lemma re_inv p ts y r' : RE p ts y r' -> exists x r, RP ts x r /\ RL p x r y r'.
Proof.
  intros [[|a] A]; [discriminate|]. cbn in A. unfold expr_step in A.
  destruct (r_pre (rd a) ts) as [[x r]|] eqn:Q; [|discriminate]. exists x, r. split; exists a; assumption.
Qed.
Lemma rl_nil p x : RL p x [] x [].
Proof. exists 1. reflexivity. Qed.
Lemma not_dot_bin q l : binop_level q = Some l -> str_eqb q (st ".") = false.
Proof.
  destruct (str_eqb q (st ".")) eqn:E; [|reflexivity]. apply str_eqb_eq in E. subst q. discriminate.
Qed.
Lemma not_dot_assign q : is_assign_op q = true -> str_eqb q (st ".") = false.
Proof.
  destruct (str_eqb q (st ".")) eqn:E; [|reflexivity]. apply str_eqb_eq in E. subst q. discriminate.
Qed.
Lemma one_of_in l s : one_of l s = true <-> In s (map st l).
Proof.
  unfold one_of. rewrite existsb_exists. rewrite in_map_iff. split.
  - intros (x & I & E). apply str_eqb_eq in E. exists x. auto.
  - intros (x & E & I). exists x. split; [exact I|]. subst. apply str_eqb_refl.
Qed.
Lemma assign_not_bin q : is_assign_op q = true -> binop_level q = None.
Proof.
  intro E. apply one_of_in in E. cbn [map In] in E.
  repeat (destruct E as [<-|E]; [reflexivity|]). destruct E.
Qed.
Lemma rl_bin p x q l r y r' z r'' :
  binop_level q = Some l -> p <= l -> RE (S l) r y r' -> (l = cmp_level -> head_is is_cmp r' = false) ->
  RL p (XBin q x y) r' z r'' -> RL p x (RPunct q :: r) z r''.
Proof.
  intros B P [a A] C [b D]. steps (Nat.max a b). unfold loop_step, binary_step. rewrite (not_dot_bin _ _ B), B.
  rewrite (proj2 (Nat.leb_le _ _) P), A. cbn [obind fst snd].
  destruct (Nat.eqb_spec l cmp_level) as [E|E]; [|exact D]. rewrite (C E). exact D.
Qed.
Lemma rl_assign p x q r y r' z r'' :
  is_assign_op q = true -> p <= assign_level -> RE assign_level r y r' ->
  RL p (XAssign q x y) r' z r'' -> RL p x (RPunct q :: r) z r''.
Proof.
  intros B P [a A] [b D]. steps (Nat.max a b). unfold loop_step, binary_step.
  rewrite (not_dot_assign _ B), (assign_not_bin _ B), B, (proj2 (Nat.leb_le _ _) P), A. exact D.
Qed.
Lemma rl_as p x r t r' z r'' :
  p <= as_level -> rd_ty r = Some (t, r') -> RL p (XCast x t) r' z r'' -> RL p x (ri "as" :: r) z r''.
Proof.
  intros P A [b D]. steps b. unfold loop_step. cbn [ri]. rewrite str_eqb_refl, (proj2 (Nat.leb_le _ _) P). cbn [andb].
  rewrite A. exact D.
Qed.
Lemma rl_method p x f g l r z r' :
  keyword f = false -> RA g l -> RL p (XMethod x f l) r z r' -> RL p x (rp "." :: RId f :: parens g :: r) z r'.
Proof.
  intros K [a A] [b D]. steps (Nat.max a b). unfold loop_step. cbn [rp parens]. rewrite str_eqb_refl, K, A. exact D.
Qed.
Definition is_paren (t : rtok) : bool := match t with RGroup DParen _ => true | _ => false end.
Lemma rl_field p x f r z r' :
  keyword f = false -> head_is is_paren r = false -> RL p (XField x [RId f]) r z r' -> RL p x (rp "." :: RId f :: r) z r'.
Proof.
  intros K N [b D]. steps b. unfold loop_step. cbn [rp parens]. rewrite str_eqb_refl, K.
  destruct r as [|[?|?|?|?|[] ?] r]; try exact D. discriminate.
Qed.
Lemma rl_field_arg p x f r z r' :
  RL p (XField x [rp "$"; RId f]) r z r' -> RL p x (rp "." :: rp "$" :: RId f :: r) z r'.
Proof.
  intros [b D]. steps b. unfold loop_step. cbn [rp]. rewrite !str_eqb_refl. exact D.
Qed.
Lemma rl_call p x g l r z r' : RA g l -> RL p (XCall x l) r z r' -> RL p x (parens g :: r) z r'.
Proof.
  intros [a A] [b D]. steps (Nat.max a b). unfold loop_step. cbn [parens]. rewrite A. exact D.
Qed.

Lemma rp_lit l r : RP (RLit l :: r) (XLit l) r.
Proof. exists 1. reflexivity. Qed.
Lemma rp_paren g x r : RE 0 g x [] -> RP (parens g :: r) x r.
Proof.
  intros [a A]. steps a. unfold pre_step. cbn [parens]. destruct g; [|now rewrite A].
  exfalso. destruct a as [|[|a]]; discriminate A.
Qed.
Lemma rp_brace g b r : RBk g b -> RP (braces g :: r) (XBlock b) r.
Proof. intros [a A]. steps a. unfold pre_step. cbn [braces]. rewrite A. reflexivity. Qed.
Lemma rp_array g l r : RA g l -> RP (brackets g :: r) (XArray l) r.
Proof. intros [a A]. steps a. unfold pre_step. cbn [brackets]. rewrite A. reflexivity. Qed.
Lemma rp_unary q r x r' : is_unary_op q = true -> RE unary_level r x r' -> RP (RPunct q :: r) (XUn q x) r'.
Proof. intros U [a A]. steps a. unfold pre_step. rewrite U, A. reflexivity. Qed.

(** *** Paths *)
Definition path_ends (t : rtok) : bool := negb (is_p "::" t) && negb (is_p "!" t).
Definition path_stop (r : list rtok) : Prop := match r with [] => True | t :: _ => path_ends t = true end.
Lemma is_p_rp a b : is_p a (rp b) = str_eqb (st b) (st a).
Proof. reflexivity. Qed.

Lemma segs_app ts p rest :
  rd_segs ts = (p, []) -> match rest with [] => True | t :: _ => is_p "::" t = false end ->
  rd_segs (ts ++ rest) = (ts, rest) /\ p = ts.
Proof.
  intros R N. assert (A : forall n ts, length ts <= n -> forall p, rd_segs ts = (p, []) ->
    rd_segs (ts ++ rest) = (ts, rest) /\ p = ts).
  { clear ts p R. induction n as [|n IH]; intros ts L p R.
    - destruct ts; [|cbn in L; lia]. cbn in R. injection R as <-. split; [|reflexivity]. cbn [app].
      destruct rest as [|[?|q|?|?|?] [|[?|?|?|?|?] ?]]; try reflexivity.
      cbn [rd_segs]. cbn [is_p] in N. rewrite N. reflexivity.
    - destruct ts as [|t ts].
      { apply (IH []); auto. cbn. lia. }
      destruct t as [?|q|?|?|?]; try discriminate.
      destruct ts as [|t ts]; [discriminate|]. destruct t as [s|?|?|?|?]; try discriminate.
      cbn [rd_segs app] in *. destruct (str_eqb q (st "::") && negb (keyword s)) eqn:E; [|discriminate].
      destruct (rd_segs ts) as [a b] eqn:Q. injection R as <- ->.
      destruct (IH ts ltac:(cbn in L; lia) _ Q) as [I ->]. rewrite I. split; reflexivity. }
  apply (A (length ts)); [lia|exact R].
Qed.
Lemma segs_nil p ts : rd_segs ts = (p, []) -> p = ts.
Proof. intro R. exact (proj2 (segs_app ts p [] R I)). Qed.
(** A list of tokens that is a path is read as a path in front of others. *)
Lemma path_app ts rest :
  rd_path ts = Some (ts, []) -> match rest with [] => True | t :: _ => is_p "::" t = false end -> rd_path (ts ++ rest) = Some (ts, rest).
Proof.
  intros R N. destruct ts as [|t ts]; [discriminate|]. destruct t as [s|q|?|?|?]; try discriminate.
  - cbn [rd_path app] in *. destruct (keyword s); [discriminate|].
    destruct (rd_segs ts) as [a b] eqn:Q. injection R as -> ->.
    destruct (segs_app _ _ rest Q N) as [-> _]. reflexivity.
  - destruct ts as [|t ts]; [discriminate|]. destruct t as [s|?|?|?|?]; try discriminate.
    cbn [rd_path app] in *. destruct (str_eqb q (st "$")) eqn:E.
    + assert (ts = []) by congruence. subst ts. reflexivity.
    + destruct (rd_segs (RPunct q :: RId s :: ts)) as [a b] eqn:Q.
      assert (b = []) by (destruct a; [discriminate|congruence]). subst b.
      destruct (segs_app _ _ rest Q N) as [I ->]. cbn [app] in I. rewrite I. reflexivity.
Qed.
Lemma path_word ts s r : rd_path ts = Some (ts, []) -> ts = RId s :: r -> keyword s = false.
Proof. intros R ->. cbn [rd_path] in R. destruct (keyword s); [discriminate R|reflexivity]. Qed.
Lemma keyword_words s : keyword s = false ->
  str_eqb s (st "if") = false /\ str_eqb s (st "loop") = false /\ str_eqb s (st "unsafe") = false /\
  str_eqb s (st "break") = false /\ str_eqb s (st "continue") = false.
Proof.
  intro K. assert (A : forall w, keyword (st w) = true -> str_eqb s (st w) = false).
  { intros w W. destruct (str_eqb s (st w)) eqn:E; [|reflexivity]. apply str_eqb_eq in E. congruence. }
  repeat split; apply A; reflexivity.
Qed.
(** An operand that starts with a path is read by [path_step]. *)
Lemma pre_path self ts rest : rd_path ts = Some (ts, []) -> pre_step self (ts ++ rest) = path_step self (ts ++ rest).
Proof.
  intro R. destruct ts as [|t ts]; [discriminate|]. destruct t as [s|q|?|?|?]; try discriminate.
  - pose proof (path_word _ _ _ R eq_refl) as K. destruct (keyword_words _ K) as (A & B & C & D & E).
    cbn [app pre_step]. unfold word_step. now rewrite A, B, C, D, E.
  - destruct ts as [|t ts]; [discriminate|]. destruct t as [s|?|?|?|?]; try discriminate.
    cbn [app pre_step]. destruct (is_unary_op q) eqn:U; [|reflexivity]. exfalso.
    apply one_of_in in U. cbn [map In] in U. cbn [rd_path rd_segs] in R.
    repeat (destruct U as [<-|U]; [discriminate R|]). destruct U.
Qed.
Lemma rp_path ts r : rd_path ts = Some (ts, []) -> path_stop r -> RP (ts ++ r) (XPath ts) r.
Proof.
  intros R S. exists 1. cbn [rd r_pre step_reader]. rewrite (pre_path _ _ _ R). unfold path_step.
  rewrite (path_app _ _ R).
  2:{ destruct r as [|t r]; [exact I|]. cbn in S. unfold path_ends in S. apply andb_prop in S as [S _]. now apply Bool.negb_true_iff. }
  cbn [obind]. destruct r as [|[?|q|?|?|?] r]; try reflexivity.
  cbn in S. unfold path_ends in S. cbn [is_p] in S. apply andb_prop in S as [S1 S2].
  apply Bool.negb_true_iff in S1, S2. rewrite S1, S2. cbn [andb].
  destruct r as [|[?|?|?|?|?] r]; reflexivity.
Qed.
Lemma rp_mac ts d g r :
  rd_path ts = Some (ts, []) -> last_is "addr_of_mut" ts = false -> RP (ts ++ rp "!" :: RGroup d g :: r) (XMac ts d g) r.
Proof.
  intros R L. exists 1. cbn [rd r_pre step_reader]. rewrite (pre_path _ _ _ R). unfold path_step.
  rewrite (path_app _ _ R) by reflexivity. cbn [obind rp]. rewrite str_eqb_refl, L. reflexivity.
Qed.
Lemma rp_addr ts g x r :
  rd_path ts = Some (ts, []) -> last_is "addr_of_mut" ts = true -> RE 0 g x [] ->
  RP (ts ++ rp "!" :: parens g :: r) (XAddrOf x) r.
Proof.
  intros R L [a A]. steps a. rewrite (pre_path _ _ _ R). unfold path_step.
  rewrite (path_app _ _ R) by reflexivity. cbn [obind rp parens]. rewrite str_eqb_refl, L, A. reflexivity.
Qed.

(** *** Types *)
Definition ty_stop (r : list rtok) : Prop :=
  match r with [] => True | t :: _ => continues_type t = false /\ is_p "!" t = false end.
Lemma continues_colon t : continues_type t = false -> is_p "::" t = false.
Proof.
  destruct t as [?|q|?|?|?]; try reflexivity. cbn [continues_type is_p]. unfold one_of. cbn [existsb].
  rewrite !Bool.orb_false_iff. tauto.
Qed.
Lemma segs_split ts a b : rd_segs ts = (a, b) -> rd_segs a = (a, []) /\ a ++ b = ts.
Proof.
  assert (A : forall n ts a b, length ts <= n -> rd_segs ts = (a, b) -> rd_segs a = (a, []) /\ a ++ b = ts).
  { clear. induction n as [|n IH]; intros ts a b L G.
    - destruct ts; [|cbn in L; lia]. injection G as <- <-. split; reflexivity.
    - destruct ts as [|[?|q|?|?|?] ts]; try (injection G as <- <-; split; reflexivity).
      destruct ts as [|[s|?|?|?|?] ts]; try (injection G as <- <-; split; reflexivity).
      cbn [rd_segs] in G. destruct (str_eqb q (st "::") && negb (keyword s)) eqn:E; [|injection G as <- <-; split; reflexivity].
      destruct (rd_segs ts) as [x y] eqn:X. injection G as <- <-.
      destruct (IH ts x y ltac:(cbn in L; lia) X) as [I J]. cbn [rd_segs app]. rewrite E, I, J. split; reflexivity. }
  apply (A (length ts)). lia.
Qed.
Lemma path_ty_app ts rest : rd_path_ty ts = Some (ts, []) -> ty_stop rest -> rd_path_ty (ts ++ rest) = Some (ts, rest).
Proof.
  unfold rd_path_ty. intros R S. destruct (rd_path ts) as [[p r]|] eqn:Q; [|discriminate].
  assert (P : rd_path p = Some (p, []) /\ p ++ r = ts).
  { clear R. destruct ts as [|t ts]; [discriminate|]. destruct t as [s|q|?|?|?]; try discriminate.
    - cbn [rd_path] in Q. destruct (keyword s) eqn:K; [discriminate|].
      destruct (rd_segs ts) as [a b] eqn:G. injection Q as <- <-. cbn [rd_path]. rewrite K.
      destruct (segs_split _ _ _ G) as [-> J]. cbn [app]. rewrite J. split; reflexivity.
    - destruct ts as [|[s|?|?|?|?] ts]; try discriminate. cbn [rd_path] in Q.
      destruct (str_eqb q (st "$")) eqn:E.
      + injection Q as <- <-. cbn [rd_path app]. rewrite E. split; reflexivity.
      + destruct (rd_segs (RPunct q :: RId s :: ts)) as [a b] eqn:G.
        destruct (segs_split _ _ _ G) as [I J].
        assert (a <> []) by (intros ->; discriminate Q).
        assert (Q' : Some (a, b) = Some (p, r)) by (destruct a; [congruence|exact Q]). injection Q' as -> ->.
        split; [|exact J]. cbn [rd_segs] in G. destruct (str_eqb q (st "::") && negb (keyword s)) eqn:X.
        * destruct (rd_segs ts) as [u v]. injection G as <- <-. cbn [rd_path]. rewrite E, I. reflexivity.
        * injection G as <- <-. congruence. }
  destruct P as [P J]. subst ts. clear Q. rewrite <- app_assoc.
  destruct r as [|t r].
  - cbn [app]. clear R. rewrite (path_app _ _ P).
    2:{ destruct rest as [|t rest]; [exact I|]. destruct S as [S _]. now apply continues_colon. }
    destruct rest as [|t rest]; [rewrite app_nil_r; reflexivity|]. destruct S as [S T]. rewrite app_nil_r.
    destruct t as [?|q|?|?|?]; try now rewrite S.
    cbn [is_p] in T. destruct rest as [|[?|?|?|?|d g] rest]; try now rewrite S. now rewrite T, S.
  - (* a macro *)
    destruct t as [?|q|?|?|?]; try (cbn in R; destruct (continues_type _) in R; congruence).
    + revert R. destruct (continues_type (RId s)); discriminate.
    + destruct r as [|[?|?|?|?|d g] r]; try (revert R; destruct (continues_type (RPunct q)); discriminate).
      destruct (str_eqb q (st "!")) eqn:E; [|revert R; destruct (continues_type (RPunct q)); discriminate].
      injection R as R1 ->. cbn [app]. rewrite (path_app _ _ P).
      2:{ apply str_eqb_eq in E. subst q. reflexivity. }
      rewrite E. reflexivity.
    + revert R. destruct (continues_type (RLife s)); discriminate.
    + revert R. destruct (continues_type (RLit l)); discriminate.
    + revert R. destruct (continues_type (RGroup d ts)); discriminate.
Qed.
Lemma ty_app ts rest : rd_ty ts = Some (ts, []) -> ty_stop rest -> rd_ty (ts ++ rest) = Some (ts, rest).
Proof.
  intros R S. assert (A : forall n ts, length ts <= n -> rd_ty ts = Some (ts, []) -> rd_ty (ts ++ rest) = Some (ts, rest)).
  { clear ts R. induction n as [|n IH]; intros ts L R; [destruct ts; [discriminate|cbn in L; lia]|].
    destruct ts as [|t ts]; [discriminate|]. destruct t as [s|q|?|?|d g].
    - change (rd_path_ty (RId s :: ts) = Some (RId s :: ts, [])) in R.
      change (rd_path_ty ((RId s :: ts) ++ rest) = Some (RId s :: ts, rest)). now apply path_ty_app.
    - destruct ts as [|t ts]; [discriminate|]. destruct t as [s|?|?|?|d g]; try discriminate.
      + cbn [rd_ty app] in *. destruct (str_eqb q (st "*") && one_of ["const"; "mut"] s) eqn:E.
        * destruct (rd_ty ts) as [[a b]|] eqn:Q; [|discriminate]. injection R as -> ->.
          now rewrite (IH ts ltac:(cbn in L; lia) Q).
        * now apply (path_ty_app (RPunct q :: RId s :: ts)).
      + destruct ts as [|t ts]; [discriminate|]. destruct t as [?|?|?|?|[] g]; try discriminate.
        cbn [rd_ty app] in *. destruct (str_eqb q (st "&")); [|discriminate]. assert (ts = []) by congruence. subst ts. reflexivity.
      + destruct d; try discriminate. cbn [rd_ty app] in *. destruct (str_eqb q (st "&")); [|discriminate].
        assert (ts = []) by congruence. subst ts. reflexivity.
    - discriminate.
    - discriminate.
    - destruct d; try discriminate. destruct g; try discriminate. cbn [rd_ty app] in *. assert (ts = []) by congruence. subst ts. reflexivity. }
  apply (A (length ts)); [lia|exact R].
Qed.
(** A path with a type: [p::<ts>]. *)
Lemma rp_generic p ts r :
  rd_path p = Some (p, []) -> rd_ty ts = Some (ts, []) ->
  RP (p ++ rp "::" :: rp "<" :: ts ++ rp ">" :: r) (XPath (p ++ rp "::" :: rp "<" :: ts ++ [rp ">"])) r.
Proof.
  intros P T. exists 1. cbn [rd r_pre step_reader]. rewrite (pre_path _ _ _ P). unfold path_step.
  assert (Q : rd_path (p ++ rp "::" :: rp "<" :: ts ++ rp ">" :: r) = Some (p, rp "::" :: rp "<" :: ts ++ rp ">" :: r)).
  { destruct p as [|t p]; [discriminate|]. destruct t as [s|q|?|?|?]; try discriminate.
    - cbn [rd_path app] in *. destruct (keyword s); [discriminate|]. destruct (rd_segs p) as [a b] eqn:Q.
      injection P as -> ->.
      assert (A : forall n p a, length p <= n -> rd_segs p = (a, []) -> forall z, rd_segs (p ++ rp "::" :: rp "<" :: z) = (p, rp "::" :: rp "<" :: z)).
      { clear. induction n as [|n IH]; intros p a L Q z; [destruct p; [reflexivity|cbn in L; lia]|].
        destruct p as [|[?|q|?|?|?] p]; try discriminate; [reflexivity|].
        destruct p as [|[s|?|?|?|?] p]; try discriminate. cbn [rd_segs app] in *.
        destruct (str_eqb q (st "::") && negb (keyword s)); [|discriminate].
        destruct (rd_segs p) as [u v] eqn:E. injection Q as <- ->. now rewrite (IH p u ltac:(cbn in L; lia) E z). }
      now rewrite (A _ _ _ (le_n _) Q).
    - destruct p as [|t p]; [discriminate|]. destruct t as [s|?|?|?|?]; try discriminate.
      cbn [rd_path app] in *. destruct (str_eqb q (st "$")) eqn:E.
      + assert (p = []) by congruence. subst p. reflexivity.
      + destruct (rd_segs (RPunct q :: RId s :: p)) as [a b] eqn:Q.
        assert (b = []) by (destruct a; [discriminate|congruence]). subst b.
        assert (A : forall n p a, length p <= n -> rd_segs p = (a, []) -> forall z, rd_segs (p ++ rp "::" :: rp "<" :: z) = (p, rp "::" :: rp "<" :: z)).
        { clear. induction n as [|n IH]; intros p a L Q z; [destruct p; [reflexivity|cbn in L; lia]|].
          destruct p as [|[?|q|?|?|?] p]; try discriminate; [reflexivity|].
          destruct p as [|[s|?|?|?|?] p]; try discriminate. cbn [rd_segs app] in *.
          destruct (str_eqb q (st "::") && negb (keyword s)); [|discriminate].
          destruct (rd_segs p) as [u v] eqn:E. injection Q as <- ->. now rewrite (IH p u ltac:(cbn in L; lia) E z). }
        pose proof (A _ _ _ (le_n _) Q (ts ++ rp ">" :: r)) as A'. cbn [app] in A'. rewrite A'. reflexivity. }
  rewrite Q. cbn [obind rp]. rewrite !str_eqb_refl. cbn [andb].
  rewrite (ty_app ts (rp ">" :: r) T) by (split; reflexivity). cbn [obind fst snd]. unfold rp. rewrite str_eqb_refl. reflexivity.
Qed.

(** *** Conditionals *)
Lemma rp_if r c a b x y r' :
  RE 0 r c (braces a :: ri "else" :: braces b :: r') -> RBk a x -> RBk b y -> RP (ri "if" :: r) (XIf c x (Some y)) r'.
Proof.
  intros [i I] [j J] [k K]. steps (Nat.max i (Nat.max j k)). unfold pre_step, word_step. cbn [ri]. rewrite str_eqb_refl, I.
  cbn [obind fst snd braces ri]. rewrite str_eqb_refl, J, K. reflexivity.
Qed.
Lemma rp_if_only r c a x r' :
  RE 0 r c (braces a :: r') -> RBk a x -> head_is (is_id "else") r' = false -> RP (ri "if" :: r) (XIf c x None) r'.
Proof.
  intros [i I] [j J] N. steps (Nat.max i j). unfold pre_step, word_step. cbn [ri]. rewrite str_eqb_refl, I.
  cbn [obind fst snd braces ri]. destruct r' as [|[e|?|?|?|?] [|[?|?|?|?|[] ?] r']]; rewrite ?J; try reflexivity.
  cbn [head_is is_id] in N. rewrite N. reflexivity.
Qed.
Lemma rp_loop a x r : RBk a x -> RP (ri "loop" :: braces a :: r) (XLoop x) r.
Proof. intros [j J]. steps j. cbn. rewrite J. reflexivity. Qed.
Lemma rp_continue r : RP (ri "continue" :: r) XContinue r.
Proof. exists 1. reflexivity. Qed.
Lemma rp_break r : RP (ri "break" :: r) XBreak r.
Proof. exists 1. reflexivity. Qed.

(** *** Arguments *)
Lemma ra_nil : RA [] [].
Proof. exists 1. reflexivity. Qed.
Lemma args_head self ts x r p :
  RE p ts x r ->
  match ts with
  | RPunct a :: RGroup DParen g :: RPunct b :: RPunct d :: r =>
    if str_eqb a (st "$") && str_eqb b (st ",") && str_eqb d (st "*") then Some (XRepeat g, r) else r_expr self 0 ts
  | _ => r_expr self 0 ts
  end = r_expr self 0 ts.
Proof.
  intro R. destruct (re_inv _ _ _ _ R) as (x' & r' & [n P] & _).
  destruct ts as [|[?|a|?|?|?] [|[?|?|?|?|[] ?] [|[?|?|?|?|?] [|[?|?|?|?|?] ?]]]]; try reflexivity.
  destruct (str_eqb a (st "$")) eqn:E; [|reflexivity]. apply str_eqb_eq in E. subst a.
  destruct n; [discriminate|]. cbn [rd r_pre step_reader pre_step] in P. discriminate P.
Qed.
Lemma ra_one ts x : RE 0 ts x [] -> RA ts [x].
Proof.
  intro R. pose proof (fun self => args_head self _ _ _ _ R) as H. destruct R as [a A]. steps a. unfold args_step.
  destruct ts as [|t ts]; [destruct a as [|[|a]]; discriminate A|]. rewrite (H (rd a)), A. reflexivity.
Qed.
Lemma ra_cons ts x r l : RE 0 ts x (rp "," :: r) -> RA r l -> RA ts (x :: l).
Proof.
  intros R L. pose proof (fun self => args_head self _ _ _ _ R) as H.
  destruct ts as [|t ts].
  { destruct (re_inv _ _ _ _ R) as (? & ? & [[|?] P] & _); discriminate P. }
  destruct R as [a A]. destruct L as [b B]. steps (Nat.max a b). unfold args_step.
  rewrite (H (rd (Nat.max a b))), A. cbn [obind fst snd rp]. rewrite str_eqb_refl, B. reflexivity.
Qed.
Lemma ra_repeat g : RA [rp "$"; parens g; rp ","; rp "*"] [XRepeat g].
Proof. exists 1. reflexivity. Qed.
Lemma ra_repeat_cons g r l : RA r l -> RA (rp "$" :: parens g :: rp "," :: rp "*" :: rp "," :: r) (XRepeat g :: l).
Proof. intros [a A]. steps a. cbn. rewrite A. reflexivity. Qed.

(** *** Blocks *)
Lemma rb_nil : RBk [] (RB [] None).
Proof. exists 1. reflexivity. Qed.
Lemma block_is_stmt self ts x r : RP ts x r -> block_step self ts = stmt_step self ts.
Proof.
  intros [n P]. destruct n; [discriminate|]. cbn [rd r_pre step_reader] in P.
  destruct ts as [|[s|q|?|?|?] ts]; try reflexivity; [discriminate P|..].
  - destruct (keyword s) eqn:K.
    + assert (W : one_of ["let"; "static"; "const"; "extern"] s = false).
      { destruct (one_of ["let"; "static"; "const"; "extern"] s) eqn:W; [|reflexivity]. exfalso.
        apply one_of_in in W. cbn [map In] in W. cbn [pre_step] in P. unfold word_step in P.
        repeat (destruct W as [<-|W]; [discriminate P|]). destruct W. }
      unfold one_of in W. cbn [existsb] in W. rewrite !Bool.orb_false_iff in W. destruct W as (A & B & C & D & _).
      destruct ts as [|[?|?|?|?|?] ts]; try reflexivity.
      * cbn [block_step]. unfold one_of. cbn [existsb]. rewrite A, B, C. reflexivity.
      * destruct ts as [|[?|?|?|?|[] ?] ts]; try reflexivity. cbn [block_step]. rewrite D. reflexivity.
    + assert (A : forall w, keyword (st w) = true -> str_eqb s (st w) = false).
      { intros w W. destruct (str_eqb s (st w)) eqn:E; [|reflexivity]. apply str_eqb_eq in E. congruence. }
      destruct ts as [|[?|?|?|?|?] ts]; try reflexivity.
      * cbn [block_step]. unfold one_of. cbn [existsb]. rewrite !A by reflexivity. reflexivity.
      * destruct ts as [|[?|?|?|?|[] ?] ts]; try reflexivity. cbn [block_step]. rewrite A by reflexivity. reflexivity.
  - destruct (str_eqb q (st ";")) eqn:E; [|cbn [block_step]; now rewrite E]. exfalso.
    apply str_eqb_eq in E. subst q. destruct ts as [|[?|?|?|?|?] ts]; discriminate P.
Qed.
Lemma rb_tail ts x : RE 0 ts x [] -> blocklike ts = false -> RBk ts (RB [] (Some x)).
Proof.
  intros R B. destruct (re_inv _ _ _ _ R) as (? & ? & P & _). pose proof R as [a A].
  exists (S a). cbn [rd r_block step_reader]. rewrite (block_is_stmt _ _ _ _ P). unfold stmt_step. rewrite B, A. reflexivity.
Qed.
Lemma rb_expr ts x r b : RE 0 ts x (rp ";" :: r) -> blocklike ts = false -> RBk r b -> RBk ts (add_stmt (RsExpr x) b).
Proof.
  intros R B [k K]. destruct (re_inv _ _ _ _ R) as (? & ? & P & _). pose proof (fun self => block_is_stmt self _ _ _ P) as H.
  clear P. destruct R as [a A]. steps (Nat.max a k). rewrite H. unfold stmt_step. rewrite B, A. cbn [obind fst snd rp].
  rewrite str_eqb_refl, K. reflexivity.
Qed.
Lemma rb_block_tail ts x : RP ts x [] -> blocklike ts = true -> RBk ts (RB [] (Some x)).
Proof.
  intros P B. pose proof P as [a A]. exists (S a). cbn [rd r_block step_reader].
  rewrite (block_is_stmt _ _ _ _ P). unfold stmt_step. rewrite B, A. reflexivity.
Qed.
Lemma rb_block ts x t r b :
  RP ts x (t :: r) -> blocklike ts = true -> is_p "." t = false -> RBk (t :: r) b -> RBk ts (add_stmt (RsExpr x) b).
Proof.
  intros P B D [k K]. pose proof (fun self => block_is_stmt self _ _ _ P) as H. destruct P as [a A]. steps (Nat.max a k).
  rewrite H. unfold stmt_step. rewrite B, A. cbn [obind fst snd]. rewrite D, K. reflexivity.
Qed.
Lemma rb_semi r b : RBk r b -> RBk (rp ";" :: r) b.
Proof. intros [k K]. steps k. cbn. rewrite K. reflexivity. Qed.
Lemma rb_let s r x r' b :
  str_eqb (st s) (st "mut") = false ->
  RE 0 r x (rp ";" :: r') -> RBk r' b -> RBk (ri "let" :: ri s :: rp "=" :: r) (add_stmt (RsLet [ri "let"] (st s) None x) b).
Proof.
  intros M [a A] [k K]. steps (Nat.max a k). unfold block_step. cbn [ri]. rewrite M.
  change (one_of ["let"; "static"] (st "let") && false) with false. cbv iota.
  change (one_of ["let"; "const"; "static"] (st "let")) with true. cbv iota.
  unfold let_step. cbn [rp]. change (str_eqb (st "=") (st ":")) with false. rewrite str_eqb_refl. cbn [obind fst snd].
  rewrite A. cbn [obind fst snd rp]. rewrite str_eqb_refl, K. reflexivity.
Qed.
Lemma rb_typed k s t r x r' b :
  In k ["let"; "const"; "static"] -> str_eqb s (st "mut") = false -> rd_ty t = Some (t, []) ->
  RE 0 r x (rp ";" :: r') -> RBk r' b ->
  RBk (ri k :: RId s :: rp ":" :: t ++ rp "=" :: r) (add_stmt (RsLet [ri k] s (Some t) x) b).
Proof.
  intros I M T [a A] [n K]. steps (Nat.max a n). unfold block_step. cbn [ri]. rewrite M.
  rewrite Bool.andb_false_r.
  replace (one_of ["let"; "const"; "static"] (st k)) with true.
  2:{ symmetry. apply one_of_in. now apply in_map. }
  unfold let_step. cbn [rp]. rewrite str_eqb_refl.
  rewrite (ty_app t (rp "=" :: r) T) by (split; reflexivity). cbn [obind fst snd]. unfold rp in *. rewrite str_eqb_refl. cbn [obind fst snd].
  rewrite A. cbn [obind fst snd rp]. rewrite str_eqb_refl, K. reflexivity.
Qed.
Lemma rb_typed_mut k s t r x r' b :
  In k ["let"; "static"] -> rd_ty t = Some (t, []) ->
  RE 0 r x (rp ";" :: r') -> RBk r' b ->
  RBk (ri k :: ri "mut" :: RId s :: rp ":" :: t ++ rp "=" :: r) (add_stmt (RsLet [ri k; ri "mut"] s (Some t) x) b).
Proof.
  intros I T [a A] [n K]. steps (Nat.max a n). unfold block_step. cbn [ri].
  replace (one_of ["let"; "static"] (st k)) with true.
  2:{ symmetry. apply one_of_in. now apply in_map. }
  rewrite str_eqb_refl. cbn [andb].
  unfold let_step. cbn [rp]. rewrite str_eqb_refl.
  rewrite (ty_app t (rp "=" :: r) T) by (split; reflexivity). cbn [obind fst snd]. unfold rp in *. rewrite str_eqb_refl. cbn [obind fst snd].
  rewrite A. cbn [obind fst snd rp]. rewrite str_eqb_refl, K. reflexivity.
Qed.
Lemma rb_extern l g r b : RBk r b -> RBk (ri "extern" :: RLit l :: braces g :: r) (add_stmt (RsItem [ri "extern"; RLit l; braces g]) b).
Proof. intros [k K]. steps k. cbn. rewrite K. reflexivity. Qed.

(** ** Operands *)

(** What may follow an expression of level [l] ([b]: that ends with a type). *)
Definition allowed (l : nat) (b : bool) (t : rtok) : Prop :=
  match t with
  | RPunct q =>
    if str_eqb q (st ".") then 15 <= l
    else match binop_level q with
         | Some k => k <= l /\ (k = cmp_level -> l <> cmp_level) /\ (b = true -> q <> st "<" /\ q <> st "<<")
         | None => (is_assign_op q = true -> assign_level < l) /\ q <> st "!" /\ q <> st "::"
         end
  | RGroup DBrace _ => True
  | RId a => a = st "as" -> as_level <= l
  | _ => False
  end.
Definition follow (l : nat) (b : bool) (r : list rtok) : Prop := match r with [] => True | t :: _ => allowed l b t end.
(** What ends any expression. *)
Definition is_end (t : rtok) : bool :=
  match t with RPunct q => one_of [";"; ","] q | RGroup DBrace _ => true | _ => false end.
Definition ended (r : list rtok) : Prop := match r with [] => True | t :: _ => is_end t = true end.

Lemma follow_le l l' b b' r : l <= l' -> (b' = true -> b = true) -> follow l b r -> follow l' b' r.
Proof.
  intros L B F. destruct r as [|t r]; [exact I|]. cbn [follow] in *. destruct t as [a|q|?|?|[] ?]; cbn [allowed] in *; try assumption.
  - intro E. specialize (F E). lia.
  - destruct (str_eqb q (st ".")); [lia|]. destruct (binop_level q) as [k|].
    + destruct F as (F1 & F2 & F3). repeat split; [lia|intros E1 E2; subst; apply F2; [reflexivity|unfold cmp_level in *; lia]|now apply F3, B|now apply F3, B].
    + destruct F as (F1 & F2 & F3). repeat split; auto. intro E. specialize (F1 E). lia.
Qed.
Lemma ended_follow l b r : ended r -> follow l b r.
Proof.
  destruct r as [|t r]; [trivial|]. cbn [follow ended head_is is_cmp path_stop ty_stop is_paren]. destruct t as [?|q|?|?|[] ?]; try discriminate; [|intros _; exact I].
  intro E. cbn [is_end] in E. apply one_of_in in E. cbn [map In] in E. destruct E as [<- | [<- | []]].
  - cbn. repeat split; discriminate.
  - cbn. repeat split; discriminate.
Qed.
Lemma ended_stop p x r : ended r -> RL p x r x r.
Proof.
  destruct r as [|t r]; [intro; apply rl_nil|]. cbn [ended]. destruct t as [?|q|?|?|[] ?]; try discriminate.
  - intro E. cbn [is_end] in E. apply one_of_in in E. cbn [map In] in E. destruct E as [<- | [<- | []]]; exists 1; reflexivity.
  - intro. exists 1. reflexivity.
Qed.
Lemma follow_stop l b p x r : follow l b r -> l < p -> p <= 15 -> RL p x r x r.
Proof.
  destruct r as [|t r]; [intros; apply rl_nil|]. cbn [follow]. intros F L P. exists 1. cbn [rd r_loop step_reader].
  destruct t as [a|q|?|?|[] ?]; try reflexivity; cbn [allowed] in F.
  - cbn [loop_step]. destruct (str_eqb a (st "as")) eqn:E; [|reflexivity]. apply str_eqb_eq in E.
    specialize (F E). rewrite (proj2 (Nat.leb_gt p as_level)) by lia. reflexivity.
  - cbn [loop_step]. destruct (str_eqb q (st ".")); [lia|]. unfold binary_step. destruct (binop_level q) as [k|].
    + destruct F as [F _]. rewrite (proj2 (Nat.leb_gt p k)) by lia. reflexivity.
    + destruct (is_assign_op q); [|reflexivity]. destruct F as [F _]. specialize (F eq_refl).
      rewrite (proj2 (Nat.leb_gt p assign_level)) by lia. reflexivity.
  - destruct F.
Qed.
Lemma follow_path l b r : follow l b r -> path_stop r.
Proof.
  destruct r as [|t r]; [trivial|]. cbn [follow ended head_is is_cmp path_stop ty_stop is_paren]. destruct t as [a|q|?|?|[] ?]; try reflexivity. cbn [allowed]. unfold path_ends. cbn [is_p].
  intro F. assert (A : q <> st "::" /\ q <> st "!").
  { destruct (str_eqb q (st ".")) eqn:E; [apply str_eqb_eq in E; subst; split; discriminate|].
    destruct (binop_level q) eqn:Q; [|tauto]. split; intros ->; discriminate. }
  destruct A as [A B]. destruct (str_eqb_spec q (st "::")); [congruence|]. destruct (str_eqb_spec q (st "!")); [congruence|]. reflexivity.
Qed.
Lemma follow_ty l r : follow l true r -> ty_stop r.
Proof.
  destruct r as [|t r]; [trivial|]. cbn [follow ended head_is is_cmp path_stop ty_stop is_paren]. destruct t as [a|q|?|?|[] ?]; try (split; reflexivity); [|intros []].
  intro F. cbn [continues_type is_p]. unfold one_of. cbn [existsb].
  assert (A : q <> st "::" /\ q <> st "!" /\ q <> st "<" /\ q <> st "<<").
  { cbn [allowed] in F. destruct (str_eqb q (st ".")) eqn:E; [apply str_eqb_eq in E; subst; repeat split; discriminate|].
    destruct (binop_level q) eqn:Q.
    - destruct F as (_ & _ & F). specialize (F eq_refl). repeat split; try tauto; intros ->; discriminate.
    - repeat split; try tauto; intros ->; discriminate. }
  destruct A as (A & B & C & D).
  destruct (str_eqb_spec q (st "<")); [congruence|]. destruct (str_eqb_spec q (st "<<")); [congruence|].
  destruct (str_eqb_spec q (st "::")); [congruence|]. destruct (str_eqb_spec q (st "!")); [congruence|]. split; reflexivity.
Qed.
Lemma follow_cmp b r : follow cmp_level b r -> head_is is_cmp r = false.
Proof.
  destruct r as [|t r]; [trivial|]. cbn [follow ended head_is is_cmp path_stop ty_stop is_paren]. destruct t as [a|q|?|?|[] ?]; try reflexivity. cbn [allowed is_cmp].
  destruct (str_eqb q (st ".")) eqn:E; [apply str_eqb_eq in E; subst; reflexivity|].
  destruct (binop_level q) as [k|]; [|reflexivity]. intros (_ & F & _). destruct (Nat.eqb_spec k cmp_level); [now subst; destruct F|reflexivity].
Qed.
Lemma follow_not_paren l b r : follow l b r -> head_is is_paren r = false.
Proof. destruct r as [|t r]; [trivial|]. cbn [follow ended head_is is_cmp path_stop ty_stop is_paren]. destruct t as [a|q|?|?|[] ?]; try reflexivity. intros []. Qed.

(** [ts] is an operand of level [l] that is the tree [x]: in front of anything
    that may follow it, it is read as [x]. *)
Definition operand (ts : list rtok) (l : nat) (b : bool) (x : rx) : Prop :=
  forall p rest y rest', p <= l -> follow l b rest -> RL p x rest y rest' -> RE p (ts ++ rest) y rest'.

Lemma op_read ts l b x p rest : operand ts l b x -> p <= l -> ended rest -> RE p (ts ++ rest) x rest.
Proof. intros O P E. apply O; [exact P|now apply ended_follow|now apply ended_stop]. Qed.
Lemma op_whole ts l b x p : operand ts l b x -> p <= l -> RE p ts x [].
Proof. intros O P. rewrite <- (app_nil_r ts). now apply (op_read _ _ _ _ _ [] O). Qed.
Lemma op_at ts l b x k rest : operand ts l b x -> S k <= l -> l <= 15 -> follow k b rest -> RE (S k) (ts ++ rest) x rest.
Proof.
  intros O L M F. apply O; [exact L|eapply follow_le; [|intro E; exact E|exact F]; lia|].
  eapply follow_stop; [exact F|lia|lia].
Qed.
Lemma op_pre ts b x : (forall rest, follow 15 b rest -> RP (ts ++ rest) x rest) -> operand ts 15 b x.
Proof. intros H p rest y rest' P F L. eapply re_pre; [now apply H|exact L]. Qed.
Lemma op_paren ts l b x : operand ts l b x -> operand [parens ts] 15 false x.
Proof. intro O. apply op_pre. intros rest F. cbn [app]. apply rp_paren. eapply op_whole; [exact O|lia]. Qed.
Lemma op_weaken ts l b x l' : operand ts l b x -> l' <= l -> operand ts l' b x.
Proof. intros O L p rest y rest' P F R. apply O; [lia|eapply follow_le; [exact L|intro E; exact E|exact F]|exact R]. Qed.
Lemma op_ty ts l b x : operand ts l b x -> operand ts l true x.
Proof. intros O p rest y rest' P F R. apply O; [exact P|eapply (follow_le l l true b); [exact (le_n _)|auto|exact F]|exact R]. Qed.

Lemma op_lit l : operand [RLit l] 15 false (XLit l).
Proof. apply op_pre. intros. apply rp_lit. Qed.
Lemma op_path ts : rd_path ts = Some (ts, []) -> operand ts 15 false (XPath ts).
Proof. intro P. apply op_pre. intros rest F. apply rp_path; [exact P|eapply follow_path; exact F]. Qed.
Lemma op_mac ts d g : rd_path ts = Some (ts, []) -> last_is "addr_of_mut" ts = false -> operand (ts ++ [rp "!"; RGroup d g]) 15 false (XMac ts d g).
Proof. intros P L. apply op_pre. intros rest F. rewrite <- app_assoc. now apply rp_mac. Qed.
Lemma op_brace g b : RBk g b -> operand [braces g] 15 false (XBlock b).
Proof. intro B. apply op_pre. intros rest F. now apply rp_brace. Qed.
Lemma op_unary q ts l b x : is_unary_op q = true -> operand ts l b x -> 14 <= l -> l <= 15 -> operand (RPunct q :: ts) 14 b (XUn q x).
Proof.
  intros U O L M p rest y rest' P F R. cbn [app]. eapply re_pre; [|exact R]. apply rp_unary; [exact U|].
  apply O; [exact L|eapply follow_le; [|intro E; exact E|exact F]; lia|].
  (* at the level of unary operators nothing of that level follows *)
  destruct rest as [|t rest]; [apply rl_nil|]. exists 1. cbn [rd r_loop step_reader]. cbn [follow] in F. unfold unary_level.
  destruct t as [a|q'|?|?|[] ?]; try reflexivity; try (destruct F; fail); cbn [allowed] in F.
  - cbn [loop_step]. destruct (str_eqb a (st "as")); reflexivity.
  - cbn [loop_step]. destruct (str_eqb q' (st ".")); [lia|]. unfold binary_step. destruct (binop_level q') as [k|] eqn:Q.
    + destruct (Nat.leb_spec 14 k) as [X|X]; [|reflexivity]. exfalso. revert Q X. unfold binop_level.
      repeat match goal with |- (if ?b then _ else _) = _ -> _ => destruct b; [intro Q; injection Q as <-; lia|] end. discriminate.
    + rewrite Bool.andb_false_r. reflexivity.
Qed.
Lemma op_bin q k ts l b x us l' b' y :
  binop_level q = Some k -> k <= 14 ->
  operand ts l b x -> (k = cmp_level -> l <> cmp_level) -> k <= l -> (b = true -> q <> st "<" /\ q <> st "<<") ->
  operand us l' b' y -> S k <= l' -> l' <= 15 ->
  operand (ts ++ RPunct q :: us) k b' (XBin q x y).
Proof.
  intros Q K O C L B O' L' M p rest z rest' P F R. rewrite <- app_assoc. cbn [app].
  apply O; [lia| |].
  - cbn [follow allowed]. rewrite (not_dot_bin _ _ Q), Q. auto.
  - eapply rl_bin; [exact Q|exact P| | |exact R].
    + eapply op_at; eassumption.
    + intros ->. eapply follow_cmp. exact F.
Qed.
Lemma op_cast ts l b x us :
  operand ts l b x -> 13 <= l -> rd_ty us = Some (us, []) -> operand (ts ++ ri "as" :: us) 13 true (XCast x us).
Proof.
  intros O L T p rest z rest' P F R. rewrite <- app_assoc. cbn [app]. apply O; [lia| |].
  - cbn. intros _. exact L.
  - eapply rl_as; [exact P| |exact R]. apply ty_app; [exact T|]. eapply follow_ty. exact F.
Qed.
Lemma op_method ts b x f g l :
  operand ts 15 b x -> keyword f = false -> RA g l -> operand (ts ++ [rp "."; RId f; parens g]) 15 false (XMethod x f l).
Proof.
  intros O K A p rest z rest' P F R. rewrite <- app_assoc. cbn [app]. apply O; [exact P| |].
  - cbn. lia.
  - eapply rl_method; eassumption.
Qed.
Lemma op_field ts b x f :
  operand ts 15 b x -> keyword f = false -> operand (ts ++ [rp "."; RId f]) 15 false (XField x [RId f]).
Proof.
  intros O K p rest z rest' P F R. rewrite <- app_assoc. cbn [app]. apply O; [exact P| |].
  - cbn. lia.
  - apply rl_field; [exact K|eapply follow_not_paren; exact F|exact R].
Qed.
Lemma op_field_arg ts b x f : operand ts 15 b x -> operand (ts ++ [rp "."; rp "$"; RId f]) 15 false (XField x [rp "$"; RId f]).
Proof.
  intros O p rest z rest' P F R. rewrite <- app_assoc. cbn [app]. apply O; [exact P| |].
  - cbn. lia.
  - now apply rl_field_arg.
Qed.
Lemma op_call_pre ts x g l :
  (forall r, RP (ts ++ parens g :: r) x (parens g :: r)) -> RA g l -> operand (ts ++ [parens g]) 15 false (XCall x l).
Proof.
  intros H A p rest z rest' P F R. rewrite <- app_assoc. cbn [app]. eapply re_pre; [apply H|]. eapply rl_call; eassumption.
Qed.
Lemma op_call ts g l : rd_path ts = Some (ts, []) -> RA g l -> operand (ts ++ [parens g]) 15 false (XCall (XPath ts) l).
Proof. intros P A. apply op_call_pre; [|exact A]. intro r. now apply rp_path. Qed.
Lemma op_call_mac ts d h g l :
  rd_path ts = Some (ts, []) -> last_is "addr_of_mut" ts = false -> RA g l ->
  operand ((ts ++ [rp "!"; RGroup d h]) ++ [parens g]) 15 false (XCall (XMac ts d h) l).
Proof. intros P L A. apply op_call_pre; [|exact A]. intro r. rewrite <- app_assoc. now apply rp_mac. Qed.
Lemma op_addr ts g x b l : rd_path ts = Some (ts, []) -> last_is "addr_of_mut" ts = true -> operand g l b x -> operand (ts ++ [rp "!"; parens g]) 15 false (XAddrOf x).
Proof. intros P L O. apply op_pre. intros rest F. rewrite <- app_assoc. apply rp_addr; [exact P|exact L|]. eapply op_whole; [exact O|lia]. Qed.
Lemma op_if ts l b x g h y z : operand ts l b x -> RBk g y -> RBk h z -> forall rest, RP (ri "if" :: ts ++ [braces g; ri "else"; braces h] ++ rest) (XIf x y (Some z)) rest.
Proof.
  intros O G H rest. eapply rp_if; [|exact G|exact H]. eapply (op_read _ _ _ _ _ (braces g :: ri "else" :: braces h :: rest) O); [lia|reflexivity].
Qed.
