(** Facts about generated statements. *)
From Verif Require Import Base Utf Lex LexFloat Token Ast ParseStmt Rust Finish Codegen SpecRustExpr SpecTree SpecStmt StrFacts FinishFacts RustExprFacts TreeFacts.
From Coq Require Import String List Lia Bool.
Import ListNotations.
Local Open Scope string_scope.
Local Open Scope list_scope.

Scheme c_run_mut := Induction for c_run Sort Prop with c_runs_mut := Induction for c_runs Sort Prop.
Scheme r_run_mut := Induction for r_run Sort Prop with r_runs_mut := Induction for r_runs Sort Prop with r_step_mut := Induction for r_step Sort Prop.
Scheme tree_mut := Induction for tree Sort Prop with tree_name_mut := Induction for tree_name Sort Prop.

(** ** Expressions without jumps *)

(** [x] has no jump and no loop among the blocks that it controls. *)
Fixpoint calm (x : rx) : Prop :=
  match x with
  | XIf _ a b => calm_block a /\ match b with Some b => calm_block b | None => True end
  | XBlock b => calm_block b
  | XLoop _ | XBreak | XContinue => False
  | _ => True
  end
with calm_block (b : rblock) : Prop :=
  match b with RB l t => (fix all (l : list rstmt) : Prop := match l with [] => True | s :: l' => calm_stmt s /\ all l' end) l /\
                         match t with Some x => calm x | None => True end end
with calm_stmt (s : rstmt) : Prop := match s with RsExpr x => calm x | _ => True end.

(** Whatever is executed without jumps ends normally. *)
Lemma calm_flat b : calm_block b -> Forall calm_stmt (flat b).
Proof.
  destruct b as [l t]. cbn [calm_block flat]. intros [A B]. apply Forall_app. split.
  - induction l as [|s l IH]; constructor; destruct A; auto.
  - destruct t; repeat constructor. exact B.
Qed.
Lemma calm_normal :
  (forall x t o, r_run x t o -> calm x -> o = Normal) /\
  (forall l t o, r_runs l t o -> Forall calm_stmt l -> o = Normal) /\
  (forall s t o, r_step s t o -> calm_stmt s -> o = Normal).
Proof.
  assert (X : forall x t o (R : r_run x t o), calm x -> o = Normal).
  - apply (r_run_mut (fun x t o _ => calm x -> o = Normal) (fun l t o _ => Forall calm_stmt l -> o = Normal) (fun s t o _ => calm_stmt s -> o = Normal));
      cbn [calm calm_stmt]; try tauto.
    + intros b t o _ IH C. apply IH. now apply calm_flat.
    + intros x a b t o _ IH [C _]. apply IH. now apply calm_flat.
    + intros x a b t o _ IH [_ C]. apply IH. now apply calm_flat.
    + intros s l t t' o _ _ _ IH C. inversion C. auto.
    + intros s l t o _ IH _ C. inversion C. auto.
  - assert (Y : forall s t o, r_step s t o -> calm_stmt s -> o = Normal).
    { intros s t o [] C; [eapply X; eassumption|reflexivity|reflexivity]. }
    split; [exact X|]. split; [|exact Y].
    induction 1 as [|s l t t' o S R IH|s l t o S N]; intro C; [reflexivity|inversion C; auto|inversion C; eauto].
Qed.
(** ... and can be executed. *)
Fixpoint rx_size (x : rx) : nat :=
  match x with
  | XIf _ a b => S (block_size a + match b with Some b => block_size b | None => 0 end)
  | XBlock b => S (block_size b)
  | _ => 1
  end
with block_size (b : rblock) : nat :=
  match b with RB l t => S ((fix all (l : list rstmt) : nat := match l with [] => 0 | s :: l' => stmt_size s + all l' end) l +
                         match t with Some x => S (rx_size x) | None => 0 end) end
with stmt_size (s : rstmt) : nat := match s with RsExpr x => S (rx_size x) | _ => 1 end.
Lemma flat_size b : list_sum (map stmt_size (flat b)) < block_size b.
Proof.
  destruct b as [l t]. cbn [flat block_size]. rewrite map_app, list_sum_app.
  assert (E : list_sum (map stmt_size l) = (fix all (l : list rstmt) : nat := match l with [] => 0 | s :: l' => stmt_size s + all l' end) l).
  { induction l as [|s l IH]; [reflexivity|]. cbn [map list_sum fold_right]. unfold list_sum in IH. now rewrite IH. }
  rewrite E. destruct t; cbn [map list_sum fold_right stmt_size]; lia.
Qed.
Lemma calm_runs n :
  (forall x, rx_size x < n -> calm x -> exists t, r_run x t Normal) /\
  (forall l, list_sum (map stmt_size l) < n -> Forall calm_stmt l -> exists t, r_runs l t Normal).
Proof.
  induction n as [|n [IHx IHl]]; [split; intros; lia|]. 
  assert (B : forall b, block_size b <= n -> calm_block b -> exists t, r_runs (flat b) t Normal).
  { intros b L C. apply IHl; [pose proof (flat_size b); lia|now apply calm_flat]. }
  assert (X : forall x, rx_size x < S n -> calm x -> exists t, r_run x t Normal).
  { intros x L C. destruct (is_control x) eqn:I; [|eexists; now apply RR_other].
    destruct x as [| | | | | | | | | | | | | |x a b|b|b| |]; try discriminate I; try destruct C.
    - destruct (B a) as [t T]; [cbn [rx_size] in L; lia|assumption|]. eexists. apply RR_then. exact T.
    - destruct (B b) as [t T]; [cbn [rx_size] in L; lia|assumption|]. eexists. apply RR_block. exact T. }
  split; [exact X|]. intros l L C.
  induction C as [|s l Cs Cl IH]; [eexists; apply RR_nil|]. cbn [map list_sum fold_right] in L.
  destruct IH as [t T]; [unfold list_sum; lia|].
  assert (S : exists u, r_step s u Normal).
  { destruct s as [k m ty x|x|ts]; [eexists; apply RR_let| |eexists; apply RR_item].
    destruct (X x) as [u U]; [cbn [stmt_size] in L; lia|exact Cs|]. eexists. apply RR_expr. exact U. }
  destruct S as [u U]. eexists. eapply RR_next; eassumption.
Qed.
Lemma calm_step s : calm_stmt s -> exists t, r_step s t Normal.
Proof.
  intro C. destruct s as [k m ty x|x|ts]; [eexists; apply RR_let| |eexists; apply RR_item].
  destruct (proj1 (calm_runs (S (rx_size x))) x (Nat.lt_succ_diag_r _) C) as [t T]. eexists. apply RR_expr. exact T.
Qed.

Section Facts.
Context `{Unicode}.
Variables (cx : cgctx) (c : lctx).
Hypothesis PC : plain_context cx.

(** ** Generated expressions have no jumps *)

Lemma const_calm b : const_block b -> calm (XBlock b).
Proof. intros (k & n & t & v & y & -> & Y). cbn. destruct y; try (now destruct Y); auto. Qed.
Lemma block_calm ts x g b : ts = [braces g] -> RBk g b -> const_block b -> reads ts x -> calm x.
Proof.
  intros -> B C R. assert (x = XBlock b) as ->; [|now apply const_calm].
  eapply reads_fun; [exact R|]. eapply (op_whole _ _ _ _ 0); [apply op_brace; exact B|lia].
Qed.
Lemma operand_calm ts x l b y : reads ts x -> operand ts l b y -> calm y -> calm x.
Proof. intros R O C. assert (x = y) as ->; [|exact C]. eapply reads_fun; [exact R|]. eapply (op_whole _ _ _ _ 0); [exact O|lia]. Qed.
Lemma float_calm w name f x : keyword (st name) = false -> reads (float_toks_w cx w name f) x -> calm x.
Proof.
  intros K R. assert (P : forall s, keyword (st s) = false -> reads (pfx (cx_trait cx) ++ [ri name; rp "::"; ri s]) x -> calm x).
  { intros s Ks Q. eapply operand_calm; [exact Q|apply op_path; now apply (std2 cx PC)|exact I]. }
  destruct f as [[]|[]| |[] m e]; cbn [float_toks_w] in R;
    try (eapply P; [|exact R]; reflexivity);
    try (eapply operand_calm; [exact R|apply op_lit|exact I]);
    (eapply operand_calm; [exact R|eapply op_unary; [reflexivity|apply op_lit|lia|lia]|exact I]).
Qed.
Lemma leaf_calm e ts x : is_leaf e = true -> fine cx c e -> etoks cx c e = Some ts -> reads ts x -> calm x.
Proof.
  destruct e as [[i|s|l]|n args|t e|l|a|l|t|op e|a op b|a b d]; try discriminate; intros L F T R.
  - unfold is_leaf in L. apply one_of_in in L. cbn [map In] in L. cbn [etoks var_toks] in T. destruct L as [<- | [<- | []]].
    + injection T as <-. eapply operand_calm; [exact R| |].
      * eapply (op_cast _ 15 false); [|lia|apply path_is_ty; now apply (ffi1 cx PC)].
        unfold line_toks. replace (pfx (cx_trait cx) ++ [ri "line"; rp "!"; parens []]) with ((pfx (cx_trait cx) ++ [ri "line"]) ++ [rp "!"; parens []]).
        -- apply op_mac; [now apply (std1 cx PC)|]. now rewrite last_is_app.
        -- rewrite <- app_assoc. reflexivity.
      * exact I.
    + change (str_eqb (st "__FILE__") (st "__LINE__")) with false in T. rewrite str_eqb_refl in T. injection T as <-.
      destruct (c_char_ptr_reads cx c PC _ _ _ _ eq_refl (concat_op cx PC (file_toks cx ++ [rp ","; nul]))) as (g & b & E & B & Q).
      cbn [app] in E, R. rewrite E in R. eapply block_calm; [reflexivity|exact B|exact Q|exact R].
  - cbn [is_leaf] in L. unfold is_offsetof in L. destruct n as [|s|]; try discriminate. cbn [etoks] in T. rewrite L in T.
    cbn [obind] in T. destruct (exprs_toks (etoks cx c) args) as [tss|]; [|discriminate]. cbn [obind] in T.
    destruct (call_args_toks c true args tss) as [us|]; [|discriminate]. cbn [obind] in T. injection T as <-.
    replace ((pfx (cx_trait cx) ++ [ri "mem"; rp "::"; ri "offsetof"; rp "!"]) ++ [parens (sep_by (rp ",") us)])
      with ((pfx (cx_trait cx) ++ [ri "mem"; rp "::"; ri "offsetof"]) ++ [rp "!"; parens (sep_by (rp ",") us)]) in R by (now rewrite <- !app_assoc).
    eapply operand_calm; [exact R| |].
    + apply op_mac; [now apply (std2 cx PC)|].
      replace (pfx (cx_trait cx) ++ [ri "mem"; rp "::"; ri "offsetof"]) with ((pfx (cx_trait cx) ++ [ri "mem"; rp "::"]) ++ [ri "offsetof"]) by (now rewrite <- app_assoc).
      now rewrite last_is_app.
    + exact I.
  - destruct l as [x'|x'|f|i]; try discriminate.
    + destruct (string_reads cx c PC x' ts) as (g & b & E & B & Q); [|exact T|eapply block_calm; [exact E|exact B|exact Q|exact R]].
      intros w ->. exact F.
    + cbn [etoks lit_toks float_toks] in T. destruct f as [f|f|f]; injection T as <-; eapply float_calm; try exact R; reflexivity.
  - cbn [etoks] in T. unfold stringify_toks in T. destruct (stringify_inner cx c a) as [us|]; [|discriminate].
    cbn [obind] in T. injection T as <-.
    destruct (c_char_ptr_reads cx c PC _ _ _ _ eq_refl (concat_op cx PC (us ++ [rp ","; nul]))) as (g & b & E & B & Q). 
    rewrite E in R. eapply block_calm; [reflexivity|exact B|exact Q|exact R].
  - cbn [etoks] in T. match type of T with obind ?o _ = _ => destruct o as [us|]; [|discriminate] end.
    cbn [obind] in T. injection T as <-.
    destruct (c_char_ptr_reads cx c PC _ _ _ _ eq_refl (concat_op cx PC (sep_by (rp ",") us ++ [rp ","; nul]))) as (g & b & E & B & Q).
    rewrite E in R. eapply block_calm; [reflexivity|exact B|exact Q|exact R].
Qed.

Lemma number_calm v s : calm (number v s).
Proof. unfold number. destruct (v <? 0)%Z; exact I. Qed.
Lemma tree_calm e x : tree cx c e x -> fine cx c e -> calm x.
Proof.
  intro T. revert e x T. apply (tree_mut _ cx c (fun e x _ => fine cx c e -> calm x) (fun _ _ _ => True)); try (intros; exact I).
  - intros e ts x L T R F. eapply leaf_calm; eassumption.
  - intros i _. apply number_calm.
  - cbn. intros. auto.
  - intros op s e x S V T IH adv F. subst adv. cbn [fine] in F. destruct F as [F _].
    destruct (is_post op); cbn; auto.
  - intros op s e p x S V T IH F. destruct (is_post op); cbn; auto.
  - intros l op r x y V NV Tl IHl Tr IHr F. cbn [fine] in F. destruct F as [F _]. cbn. auto.
  - cbn. auto.
  - cbn. auto.
  - intros a b d x y z _ _ Tb IHb Td IHd F. cbn [fine] in F. cbn. tauto.
Qed.
(** ** How statements are read *)

(** What may follow a block: not a field, not an [else]. *)
Definition bad_head (t : rtok) : bool := is_p "." t || is_id "else" t.
Definition safe (r : list rtok) : Prop := head_is bad_head r = false.
Lemma rp_head ts x r : RP ts x r -> ts <> [] /\ safe ts.
Proof.
  intros [[|n] P]; [discriminate|]. cbn [rd r_pre step_reader] in P. destruct ts as [|t ts]; [discriminate|]. split; [discriminate|].
  unfold safe. cbn [head_is]. destruct t as [s|q|?|?|?]; try reflexivity; unfold bad_head; cbn [is_p is_id].
  - cbn [orb]. destruct (str_eqb_spec s (st "else")) as [->|]; [|reflexivity]. discriminate P.
  - rewrite orb_false_r. destruct (str_eqb_spec q (st ".")) as [->|]; [|reflexivity]. exfalso. cbn [pre_step] in P.
    change (is_unary_op (st ".")) with false in P. cbv iota in P. unfold path_step, rd_path in P. destruct ts as [|[f|?|?|?|?] ts]; try discriminate P.
Qed.
Lemma safe_not_dot t r : safe (t :: r) -> is_p "." t = false /\ head_is (is_id "else") (t :: r) = false.
Proof. unfold safe, bad_head. cbn [head_is]. intro S. now apply orb_false_elim in S. Qed.
Lemma safe_else r : safe r -> head_is (is_id "else") r = false.
Proof. destruct r as [|t r]; [reflexivity|]. intro S. now apply safe_not_dot. Qed.

Definition sread (ts : list rtok) (rs : rstmt) : Prop :=
  ts <> [] /\ safe ts /\
  (forall r b, r <> [] -> safe r -> RBk r b -> RBk (ts ++ r) (add_stmt rs b)) /\ exists b, RBk ts b /\ flat b = [rs].

(** A statement that ends with a semicolon or is an item. *)
Lemma sread_closed ts rs : ts <> [] -> safe ts -> (forall r b, RBk r b -> RBk (ts ++ r) (add_stmt rs b)) -> sread ts rs.
Proof.
  intros N S R. split; [exact N|]. split; [exact S|]. split; [auto|]. exists (add_stmt rs (RB [] None)). split; [|reflexivity].
  rewrite <- (app_nil_r ts). apply R, rb_nil.
Qed.
(** A block, an [if] or a [loop]. *)
Lemma sread_block ts x : blocklike ts = true -> (forall r, safe r -> RP (ts ++ r) x r) -> sread ts (RsExpr x).
Proof.
  intros B P. assert (P0 : RP ts x []) by (specialize (P [] eq_refl); now rewrite app_nil_r in P).
  destruct (rp_head _ _ _ P0) as [N S]. split; [exact N|]. split; [exact S|]. split.
  - intros [|t r] b M Sr Rb; [contradiction|]. eapply rb_block; [now apply P| |exact (proj1 (safe_not_dot _ _ Sr))|exact Rb].
    destruct ts; [contradiction|exact B].
  - exists (RB [] (Some x)). split; [now apply rb_block_tail|reflexivity].
Qed.
Lemma blocklike_app_eq ts r : ts <> [] -> blocklike (ts ++ r) = blocklike ts.
Proof. destruct ts; [contradiction|reflexivity]. Qed.
Lemma sread_expr e ts : fine cx c e -> is_tail cx c e -> etoks cx c e = Some ts ->
  exists x, tree cx c e x /\ sread (ts ++ [rp ";"]) (RsExpr x).
Proof.
  intros F Tl T. destruct (all_read cx c PC e) as [R _]. destruct (R ts F T) as (x & Tr & O & B). exists x. split; [exact Tr|].
  assert (E : forall r, RE 0 (ts ++ rp ";" :: r) x (rp ";" :: r)) by (intro r; eapply op_read; [exact O|lia|reflexivity]).
  assert (W : RE 0 ts x []) by (eapply op_whole; [exact O|lia]). destruct (re_inv _ _ _ _ W) as (? & ? & P & _). destruct (rp_head _ _ _ P) as [N S].
  apply sread_closed.
  - destruct ts; discriminate.
  - destruct ts; [contradiction|exact S].
  - intros r b Rb. rewrite <- app_assoc. cbn [app]. destruct Tl as [Tl|Tl].
    + eapply rb_expr; [apply E| |exact Rb]. rewrite blocklike_app_eq; auto.
    + destruct (B Tl) as [Bl P']. eapply rb_block; [apply P'|rewrite blocklike_app_eq; auto|reflexivity|now apply rb_semi].
Qed.

(** Statements after each other, and what follows them. *)
Lemma sreads_before xs ls r b : Forall2 sread xs ls -> r <> [] -> safe r -> RBk r b ->
  RBk (concat xs ++ r) (match b with RB l t => RB (ls ++ l) t end) /\ concat xs ++ r <> [] /\ safe (concat xs ++ r).
Proof.
  intros F N S B. induction F as [|ts rs xs ls (M & Sf & R & _) F (IH & IHN & IHS)].
  - cbn [concat app]. destruct b; auto.
  - cbn [concat]. rewrite <- app_assoc. split; [|split].
    + specialize (R _ _ IHN IHS IH). destruct b. exact R.
    + destruct ts; [contradiction|discriminate].
    + destruct ts; [contradiction|exact Sf].
Qed.
Lemma sreads_concat xs ls : Forall2 sread xs ls -> exists b, RBk (concat xs) b /\ flat b = ls.
Proof.
  induction 1 as [|ts rs xs ls (M & Sf & R & b1 & B1 & F1) F (b & B & E)]; [exists (RB [] None); split; [apply rb_nil|reflexivity]|].
  cbn [concat]. destruct F as [|ts' rs' xs ls (M' & S' & R' & _) F].
  - exists b1. cbn [concat]. rewrite app_nil_r. auto.
  - exists (add_stmt rs b). split; [|destruct b; cbn [add_stmt flat] in *; rewrite <- E; reflexivity].
    apply R; [| |exact B]; cbn [concat]; destruct ts'; try contradiction; [discriminate|exact S'].
Qed.
Lemma sreads_sep xs ls : Forall2 sread xs ls -> exists b, RBk (sep_by (rp ";") xs) b /\ flat b = ls.
Proof.
  induction 1 as [|ts rs xs ls (M & Sf & R & b1 & B1 & F1) F (b & B & E)]; [exists (RB [] None); split; [apply rb_nil|reflexivity]|].
  destruct F as [|ts' rs' xs ls S' F].
  - exists b1. auto.
  - exists (add_stmt rs b). split; [|destruct b; cbn [add_stmt flat] in *; rewrite <- E; reflexivity].
    change (sep_by (rp ";") (ts :: ts' :: xs)) with (ts ++ rp ";" :: sep_by (rp ";") (ts' :: xs)).
    apply R; [discriminate|reflexivity|now apply rb_semi].
Qed.

(** Every statement is read as the Rust statement for it. *)
Definition stmt_ok (s : stmt) : Prop :=
  forall ts, sfine cx c s -> stmt_toks cx c s = Some ts -> exists rs, stree cx c s rs /\ sread ts rs.
Lemma stmts_ok l : Forall stmt_ok l -> forall tss,
  (fix all (l : list stmt) : Prop := match l with [] => True | s :: l' => sfine cx c s /\ all l' end) l ->
  stmts_toks (stmt_toks cx c) l = Some tss -> exists ls, strees cx c l ls /\ Forall2 sread tss ls /\ length tss = length l.
Proof.
  induction 1 as [|s l S F IH]; intros tss Fi T.
  - injection T as <-. exists []. repeat constructor.
  - destruct Fi as [F1 F2]. cbn [stmts_toks] in T. destruct (stmt_toks cx c s) as [ts|] eqn:E; [|discriminate]. cbn [obind] in T.
    fold (stmts_toks (stmt_toks cx c)) in T.
    destruct (stmts_toks (stmt_toks cx c) l) as [tss'|] eqn:E'; [|discriminate]. cbn [obind] in T. injection T as <-.
    destruct (S ts F1 E) as (rs & A & B). destruct (IH tss' F2 eq_refl) as (ls & A' & B' & L). exists (rs :: ls).
    split; [constructor; assumption|]. split; [constructor; assumption|]. cbn. now rewrite L.
Qed.
Lemma cond_read e es : fine cx c e -> etoks cx c e = Some es -> exists x, tree cx c e x /\ forall g r, RE 0 (es ++ braces g :: r) x (braces g :: r).
Proof.
  intros F T. destruct (all_read cx c PC e) as [R _]. destruct (R es F T) as (x & Tr & O & B). exists x. split; [exact Tr|].
  intros g r. eapply op_read; [exact O|lia|reflexivity].
Qed.
Theorem stmt_reads s : stmt_ok s.
Proof.
  induction s as [a|e|d|d|l IHl|e a b IHa IHb|l e IHl] using stmt_ind'; intros ts F T; cbn [stmt_toks] in T.
  - destruct (asm_toks cx c a) as [us|] eqn:A; [|discriminate]. cbn [obind] in T. injection T as <-.
    assert (E : exists s g, In s ["asm"; "global_asm"] /\ us = (pfx (cx_trait cx) ++ [ri "arch"; rp "::"; ri s]) ++ [rp "!"; parens g]).
    { revert A. unfold asm_toks. destruct (asm_tie _ _ _) as [[outs ins]|]; [|discriminate]. cbn [obind].
      destruct (exprs_toks _ _) as [os|]; [|discriminate]. cbn [obind]. destruct (exprs_toks _ _) as [is|]; [|discriminate]. cbn [obind].
      intro E. injection E as <-. exists (if asm_global a then "global_asm" else "asm"). eexists. split; [destruct (asm_global a); cbn; tauto|].
      rewrite <- app_assoc. reflexivity. }
    destruct E as (s & g & I & ->).
    assert (K : keyword (st s) = false /\ str_eqb (st s) (st "addr_of_mut") = false) by (destruct I as [<- | [<- | []]]; split; reflexivity).
    destruct K as [K1 K2].
    assert (O : operand ((pfx (cx_trait cx) ++ [ri "arch"; rp "::"; ri s]) ++ [rp "!"; parens g]) 15 false (XMac (pfx (cx_trait cx) ++ [ri "arch"; rp "::"; ri s]) DParen g)).
    { apply op_mac; [apply (std2 cx PC); [reflexivity|exact K1]|].
      replace (pfx (cx_trait cx) ++ [ri "arch"; rp "::"; ri s]) with ((pfx (cx_trait cx) ++ [ri "arch"; rp "::"]) ++ [ri s]) by (now rewrite <- app_assoc).
      rewrite last_is_app. exact K2. }
    assert (W : RE 0 ((pfx (cx_trait cx) ++ [ri "arch"; rp "::"; ri s]) ++ [rp "!"; parens g]) (XMac (pfx (cx_trait cx) ++ [ri "arch"; rp "::"; ri s]) DParen g) []) by (eapply op_whole; [exact O|lia]).
    eexists. split; [eapply ST_asm; [exact A|exact W]|].
    destruct (re_inv _ _ _ _ W) as (? & ? & P & _). destruct (rp_head _ _ _ P) as [N S].
    match type of W with RE 0 ?u _ _ => set (us := u) in * end.
    assert (BL : blocklike us = false) by (apply path_not_block, (std2 cx PC); [reflexivity|exact K1]).
    apply sread_closed; [destruct us; discriminate|destruct us; [contradiction|exact S]|].
    intros r b Rb. rewrite <- app_assoc. cbn [app]. eapply rb_expr; [eapply op_read; [exact O|lia|reflexivity]| |exact Rb].
    rewrite blocklike_app_eq; assumption.
  - destruct (etoks cx c e) as [us|] eqn:E; [|discriminate]. cbn [obind] in T. injection T as <-. destruct F as [F Tl].
    destruct (sread_expr e us F Tl E) as (x & X & S). exists (RsExpr x). split; [now apply ST_expr|exact S].
  - unfold fn_decl_toks in T.
    destruct (ident_toks cx c (fd_name d)) as [n|] eqn:N; [|discriminate]. cbn [obind] in T. destruct (all_toks _ (fd_args d)) as [args|] eqn:A; [|discriminate]. cbn [obind] in T.
    destruct (ty_toks cx c (fd_ret d)) as [r|] eqn:Tr; [|discriminate]. cbn [obind] in T. injection T as <-.
    assert (L : exists l, args = map (fun p => fst p ++ rp ":" :: snd p) l /\
      Forall2 (fun a p => ident_toks cx c (snd a) = Some (fst p) /\ ty_toks cx c (fst a) = Some (snd p)) (fd_args d) l).
    { clear - A. revert args A. induction (fd_args d) as [|[t a] ps IH]; intros args A; cbn [all_toks] in A.
      - injection A as <-. exists []. split; [reflexivity|constructor].
      - destruct (ty_toks cx c t) as [ts|] eqn:E1; [|discriminate]. cbn [obind] in A. destruct (ident_toks cx c a) as [u|] eqn:E2; [|discriminate]. cbn [obind] in A.
        destruct (all_toks _ ps) as [us|] eqn:E3; [|discriminate]. cbn [obind] in A. injection A as <-. destruct (IH us eq_refl) as (l & -> & F).
        exists ((u, ts) :: l). split; [reflexivity|]. constructor; [auto|exact F]. }
    destruct L as (l & -> & L). exists (RsItem (extern_fn n l r)). split; [now apply ST_fn|]. unfold extern_fn. cbn [app].
    apply sread_closed; [discriminate|reflexivity|]. intros r' b Rb. cbn [app]. now apply rb_extern.
  - destruct F as (F & P & N). unfold var_decl_toks in T.
    destruct (ty_toks cx c (vd_ty d)) as [t|] eqn:Ty; [|discriminate]. cbn [obind] in T.
    destruct (ident_toks cx c (vd_name d)) as [n|] eqn:Nm; [|discriminate]. cbn [obind] in T.
    destruct (etoks cx c (vd_rhs d)) as [es|] eqn:E; [|discriminate]. cbn [obind] in T. injection T as <-.
    destruct (N n eq_refl) as [s ->]. destruct (all_read cx c PC (vd_rhs d)) as [R _]. destruct (R es F E) as (x & Tr & O & _).
    eexists. split; [eapply ST_var; eassumption|].
    apply sread_closed; [discriminate|destruct (vd_static d); reflexivity|].
    intros r b Rb. cbn [app]. rewrite <- ?app_assoc. cbn [app]. rewrite <- ?app_assoc. cbn [app].
    apply (rb_typed_mut (if vd_static d then "static" else "let") s t _ x r); [destruct (vd_static d); cbn; tauto|now apply P| |exact Rb].
    eapply op_read; [exact O|lia|reflexivity].
  - destruct (stmts_toks (stmt_toks cx c) l) as [tss|] eqn:E; [|discriminate]. cbn [obind] in T. injection T as <-.
    destruct (stmts_ok l IHl tss F E) as (ls & A & B & _). destruct (sreads_concat _ _ B) as (b & Rb & <-).
    exists (RsExpr (XBlock b)). split; [now apply ST_block|]. apply sread_block; [reflexivity|]. intros r _. now apply rp_brace.
  - destruct (etoks cx c e) as [es|] eqn:E; [|discriminate]. cbn [obind] in T.
    destruct (stmts_toks (stmt_toks cx c) a) as [xs|] eqn:Ea; [|discriminate]. cbn [obind] in T.
    destruct (stmts_toks (stmt_toks cx c) b) as [ys|] eqn:Eb; [|discriminate]. cbn [obind] in T. injection T as <-.
    destruct F as (F & Fa & Fb).
    destruct (stmts_ok a IHa xs Fa Ea) as (ls & A & B & _). destruct (sreads_concat _ _ B) as (ba & Ra & <-).
    destruct (stmts_ok b IHb ys Fb Eb) as (lt & A' & B' & L'). destruct (sreads_sep _ _ B') as (bb & Rb & <-).
    destruct (cond_read e es F E) as (x & X & Q). destruct ys as [|y ys].
    + destruct b; [|discriminate L'].
      exists (RsExpr (XIf x ba None)). split; [now apply ST_if|]. apply sread_block; [reflexivity|]. intros r Sr.
      cbn [app]. rewrite <- app_assoc. cbn [app].
      eapply rp_if_only; [apply Q|exact Ra|now apply safe_else].
    + exists (RsExpr (XIf x ba (Some bb))). split.
      { apply ST_else; try assumption. destruct b; discriminate. }
      apply sread_block; [reflexivity|]. intros r Sr. cbn [app]. rewrite <- app_assoc. cbn [app].
      eapply rp_if; [apply Q|exact Ra|exact Rb].
  - destruct (stmts_toks (stmt_toks cx c) l) as [xs|] eqn:El; [|discriminate]. cbn [obind] in T.
    destruct (etoks cx c e) as [es|] eqn:E; [|discriminate]. cbn [obind] in T. injection T as <-. destruct F as (Fl & F).
    destruct (stmts_ok l IHl xs Fl El) as (ls & A & B & _). destruct (cond_read e es F E) as (x & X & Q).
    exists (RsExpr (do_while ls x)). split; [now apply ST_do|]. apply sread_block; [reflexivity|]. intros r _. cbn [app]. apply rp_loop.
    destruct (sreads_before xs ls ([ri "if"] ++ es ++ [braces [ri "continue"]; ri "break"])
      (RB [RsExpr (XIf x (RB [] (Some XContinue)) None)] (Some XBreak)) B) as (R & _); [discriminate|reflexivity| |exact R].
    cbn [app]. eapply (rb_block _ _ _ _ (RB [] (Some XBreak))).
    + eapply rp_if_only; [apply Q| |reflexivity]. apply rb_tail; [|reflexivity]. exists 2. reflexivity.
    + reflexivity.
    + reflexivity.
    + apply rb_tail; [|reflexivity]. exists 2. reflexivity.
Qed.

(** ** Traces *)

Lemma same_app a a' b b' : same_events cx c a a' -> same_events cx c b b' -> same_events cx c (a ++ b) (a' ++ b').
Proof.
  induction 1 as [|s r t l l' S R E IH|e x v l l' T E IH]; intro B; [exact B| |].
  - cbn [app]. rewrite <- app_assoc. eapply SE_do; eauto.
  - cbn [app]. eapply SE_test; eauto.
Qed.
Lemma runs_app l1 l2 t1 t2 o : r_runs l1 t1 Normal -> r_runs l2 t2 o -> r_runs (l1 ++ l2) (t1 ++ t2) o.
Proof.
  remember Normal as n. induction 1 as [|s l t t' o' S R IH|s l t o' S N]; intro B; subst.
  - exact B.
  - cbn [app]. rewrite <- app_assoc. eapply RR_next; eauto.
  - contradiction.
Qed.
Lemma runs_split l1 l2 : forall t o, r_runs (l1 ++ l2) t o ->
  (exists t1 t2, r_runs l1 t1 Normal /\ r_runs l2 t2 o /\ t = t1 ++ t2) \/ (r_runs l1 t o /\ o <> Normal).
Proof.
  induction l1 as [|s l1 IH]; intros t o R.
  - left. exists [], t. repeat split; [apply RR_nil|exact R].
  - cbn [app] in R. inversion R; subst.
    + destruct (IH _ _ H5) as [(t1 & t2 & A & B & ->)|[A N]].
      * left. do 2 eexists. split; [eapply RR_next; eassumption|]. split; [exact B|]. now rewrite app_assoc.
      * right. split; [eapply RR_next; eassumption|exact N].
    + right. split; [now apply RR_stop|assumption].
Qed.
Lemma loop_runs b (P : list revent -> Prop) :
  (forall t, r_runs (flat b) t Break -> P t) ->
  (forall t t' o, r_runs (flat b) t o -> o <> Break -> P t' -> P (t ++ t')) ->
  forall t o, r_run (XLoop b) t o -> o = Normal /\ P t.
Proof.
  intros H1 H2 t o R. remember (XLoop b) as x. revert Heqx.
  induction R; intro E; try discriminate E.
  - subst. discriminate.
  - injection E as ->. split; [reflexivity|]. now apply H1.
  - injection E as ->. destruct (IHR eq_refl) as [-> Q]. split; [reflexivity|]. eapply H2; eassumption.
Qed.

(** The statements of [stree] are executed like the C statements. *)
Definition forward (s : stmt) : Prop := forall t, c_run s t -> forall rs, stree cx c s rs -> sfine cx c s ->
  exists t', same_events cx c t t' /\ r_step rs t' Normal.
Definition backward (s : stmt) : Prop := forall rs, stree cx c s rs -> sfine cx c s -> forall t o, r_step rs t o ->
  o = Normal /\ exists t', c_run s t' /\ same_events cx c t' t.
Let all_fine (l : list stmt) : Prop := (fix all (l : list stmt) : Prop := match l with [] => True | s :: l' => sfine cx c s /\ all l' end) l.

Lemma leaf_forward s rs : stree cx c s rs -> calm_stmt rs -> exists t', same_events cx c [CDo s] t' /\ r_step rs t' Normal.
Proof.
  intros S C. destruct (calm_step rs C) as [t R]. exists t. split; [|exact R].
  rewrite <- (app_nil_r t). eapply SE_do; [exact S|exact R|apply SE_nil].
Qed.
Lemma leaf_backward s rs t o : stree cx c s rs -> calm_stmt rs -> r_step rs t o -> o = Normal /\ same_events cx c [CDo s] t.
Proof.
  intros S C R. assert (o = Normal) as -> by (eapply calm_normal; eassumption). split; [reflexivity|].
  rewrite <- (app_nil_r t). eapply SE_do; [exact S|exact R|apply SE_nil].
Qed.
Lemma do_while_flat ls x : flat (RB (ls ++ [RsExpr (XIf x (RB [] (Some XContinue)) None)]) (Some XBreak)) =
  ls ++ [RsExpr (XIf x (RB [] (Some XContinue)) None); RsExpr XBreak].
Proof. cbn [flat]. now rewrite <- app_assoc. Qed.
Lemma do_tail_true x : r_runs [RsExpr (XIf x (RB [] (Some XContinue)) None); RsExpr XBreak] [RvTest x true] Continue.
Proof.
  apply RR_stop; [|discriminate]. apply RR_expr, RR_then. cbn [flat app]. apply RR_stop; [|discriminate]. apply RR_expr, RR_continue.
Qed.
Lemma do_tail_false x : r_runs [RsExpr (XIf x (RB [] (Some XContinue)) None); RsExpr XBreak] [RvTest x false] Break.
Proof.
  change [RvTest x false] with ([RvTest x false] ++ []). eapply RR_next; [apply RR_expr, RR_skip|].
  apply RR_stop; [|discriminate]. apply RR_expr, RR_break.
Qed.
Lemma do_tail x t o : r_runs [RsExpr (XIf x (RB [] (Some XContinue)) None); RsExpr XBreak] t o ->
  (o = Continue /\ t = [RvTest x true]) \/ (o = Break /\ t = [RvTest x false]).
Proof.
  assert (K : forall t o, r_runs [RsExpr XContinue] t o -> t = [] /\ o = Continue).
  { intros u q R. inversion R; subst; match goal with S : r_step _ _ _ |- _ => inversion S; subst end;
      match goal with S : r_run _ _ _ |- _ => inversion S; subst end; try discriminate; auto. }
  assert (B : forall t o, r_runs [RsExpr XBreak] t o -> t = [] /\ o = Break).
  { intros u q R. inversion R; subst; match goal with S : r_step _ _ _ |- _ => inversion S; subst end;
      match goal with S : r_run _ _ _ |- _ => inversion S; subst end; try discriminate; auto. }
  intro R. inversion R; subst; match goal with S : r_step _ _ _ |- _ => inversion S; subst end;
    match goal with S : r_run _ _ _ |- _ => inversion S; subst end; try discriminate.
  - match goal with S : r_runs (flat _) _ _ |- _ => apply K in S as [_ S]; discriminate S end.
  - match goal with S : r_runs [RsExpr XBreak] _ _ |- _ => apply B in S as [-> ->] end. auto.
  - match goal with S : r_runs (flat _) _ _ |- _ => apply K in S as [-> ->] end. auto.
  - contradiction.
Qed.

Theorem runs_forward s : forward s.
Proof.
  intros t R. revert s t R.
  apply (c_run_mut (fun s t _ => forall rs, stree cx c s rs -> sfine cx c s -> exists t', same_events cx c t t' /\ r_step rs t' Normal)
    (fun l t _ => forall ls, strees cx c l ls -> all_fine l -> exists t', same_events cx c t t' /\ r_runs ls t' Normal)).
  - intros a rs S F. apply leaf_forward; [exact S|]. inversion S; subst. exact I.
  - intros e rs S F. apply leaf_forward; [exact S|]. inversion S; subst. destruct F as [F _]. eapply tree_calm; eassumption.
  - intros d rs S F. apply leaf_forward; [exact S|]. inversion S; subst. exact I.
  - intros d rs S F. apply leaf_forward; [exact S|]. inversion S; subst. exact I.
  - intros l t _ IH rs S F. inversion S; subst. destruct (IH _ H1 F) as (t' & A & B). exists t'. split; [exact A|]. now apply RR_expr, RR_block.
  - intros e a b t _ IH rs S F. destruct F as (F & Fa & Fb). inversion S; subst;
      match goal with Y : strees _ _ a _ |- _ => destruct (IH _ Y Fa) as (t' & A & B) end; eexists; split;
      [eapply SE_test; eassumption|apply RR_expr, RR_then; exact B|eapply SE_test; eassumption|apply RR_expr, RR_then; exact B].
  - intros e a b t R IH rs S F. destruct F as (F & Fa & Fb). inversion S; subst.
    + inversion R; subst. eexists. split; [eapply SE_test; [eassumption|apply SE_nil]|apply RR_expr, RR_skip].
    + match goal with Y : strees _ _ b _ |- _ => destruct (IH _ Y Fb) as (t' & A & B) end. eexists. split;
      [eapply SE_test; eassumption|apply RR_expr, RR_else; exact B].
  - intros l e t _ IH rs S F. destruct F as (Fl & F). inversion S; subst.
    match goal with Y : strees _ _ l _ |- _ => destruct (IH _ Y Fl) as (t' & A & B) end. eexists. split.
    + apply same_app; [exact A|]. eapply SE_test; [eassumption|apply SE_nil].
    + apply RR_expr, RR_exit. rewrite do_while_flat. eapply runs_app; [exact B|apply do_tail_false].
  - intros l e t t2 _ IH _ IH2 rs S F. destruct (IH2 rs S F) as (t2' & A2 & B2). destruct F as (Fl & F). inversion S; subst.
    match goal with Y : strees _ _ l _ |- _ => destruct (IH _ Y Fl) as (t' & A & B) end. eexists. split.
    + apply same_app; [exact A|]. eapply SE_test; [eassumption|exact A2].
    + inversion B2; subst. change (RvTest x true :: t2') with ([RvTest x true] ++ t2'). rewrite app_assoc.
      apply RR_expr. eapply (RR_again _ _ _ Continue); [|discriminate|eassumption].
      rewrite do_while_flat. eapply runs_app; [exact B|apply do_tail_true].
  - intros ls S _. inversion S; subst. exists []. split; [apply SE_nil|apply RR_nil].
  - intros s l t t' _ IH _ IHl ls S [F Fl]. inversion S; subst.
    edestruct IH as (u & A & B); [eassumption|exact F|]. edestruct IHl as (u' & A' & B'); [eassumption|exact Fl|].
    exists (u ++ u'). split; [now apply same_app|]. eapply RR_next; eassumption.
Qed.

Lemma runs_backward_all l : Forall backward l -> forall ls, strees cx c l ls -> all_fine l -> forall t o, r_runs ls t o ->
  o = Normal /\ exists t', c_runs l t' /\ same_events cx c t' t.
Proof.
  induction 1 as [|s l B F IH]; intros ls S Fi t o R.
  - inversion S; subst. inversion R; subst. split; [reflexivity|]. exists []. split; constructor.
  - destruct Fi as [Fs Fl]. inversion S; subst. inversion R; subst.
    + match goal with Y : r_step _ _ _ |- _ => edestruct B as (_ & u & U1 & U2); [eassumption|exact Fs|exact Y|] end.
      edestruct IH as (-> & u' & V1 & V2); [eassumption|exact Fl|eassumption|]. split; [reflexivity|].
      exists (u ++ u'). split; [now constructor|now apply same_app].
    + match goal with Y : r_step _ _ _ |- _ => edestruct B as (Q & _); [eassumption|exact Fs|exact Y|] end. congruence.
Qed.
Theorem runs_backward s : backward s.
Proof.
  induction s as [a|e|d|d|l IHl|e a b IHa IHb|l e IHl] using stmt_ind'; intros rs S F t o R.
  - destruct (leaf_backward _ rs t o S) as [-> E]; [inversion S; subst; exact I|exact R|]. split; [reflexivity|]. eexists. split; [constructor|exact E].
  - destruct (leaf_backward _ rs t o S) as [-> E]; [inversion S; subst; destruct F as [F _]; eapply tree_calm; eassumption|exact R|].
    split; [reflexivity|]. eexists. split; [constructor|exact E].
  - destruct (leaf_backward _ rs t o S) as [-> E]; [inversion S; subst; exact I|exact R|]. split; [reflexivity|]. eexists. split; [constructor|exact E].
  - destruct (leaf_backward _ rs t o S) as [-> E]; [inversion S; subst; exact I|exact R|]. split; [reflexivity|]. eexists. split; [constructor|exact E].
  - inversion S; subst. inversion R; subst. match goal with Y : r_run _ _ _ |- _ => inversion Y; subst; try discriminate end.
    edestruct (runs_backward_all l IHl) as (-> & t' & A & B); [eassumption|exact F|eassumption|]. split; [reflexivity|].
    exists t'. split; [now constructor|exact B].
  - destruct F as (F & Fa & Fb). inversion S; subst; inversion R; subst; match goal with Y : r_run _ _ _ |- _ => inversion Y; subst; try discriminate end.
    + edestruct (runs_backward_all a IHa) as (-> & t' & A & B); [eassumption|exact Fa|eassumption|]. split; [reflexivity|].
      eexists. split; [apply CR_then; exact A|]. now apply SE_test.
    + split; [reflexivity|]. eexists. split; [apply CR_else, CR_nil|]. apply SE_test; [assumption|apply SE_nil].
    + edestruct (runs_backward_all a IHa) as (-> & t' & A & B); [eassumption|exact Fa|eassumption|]. split; [reflexivity|].
      eexists. split; [apply CR_then; exact A|]. now apply SE_test.
    + edestruct (runs_backward_all b IHb) as (-> & t' & A & B); [eassumption|exact Fb|eassumption|]. split; [reflexivity|].
      eexists. split; [apply CR_else; exact A|]. now apply SE_test.
  - destruct F as (Fl & F). inversion S; subst. inversion R; subst. match goal with Y : r_run _ _ _ |- _ => rename Y into W end.
    unfold do_while in W. revert W. apply (loop_runs _ (fun t => exists t', c_run (SDoWhile l e) t' /\ same_events cx c t' t)); clear t o R.
    + intros t R. rewrite do_while_flat in R. apply runs_split in R as [(t1 & t2 & R1 & R2 & ->)|[R1 N]].
      * apply do_tail in R2 as [[Q _]|[_ ->]]; [discriminate|].
        edestruct (runs_backward_all l IHl) as (_ & t' & A & B); [eassumption|exact Fl|eassumption|].
        eexists. split; [apply CR_last; exact A|]. apply same_app; [exact B|]. apply SE_test; [assumption|apply SE_nil].
      * edestruct (runs_backward_all l IHl) as (Q & _); [eassumption|exact Fl|eassumption|]. discriminate Q.
    + intros t t' o R N (u & U1 & U2). rewrite do_while_flat in R. apply runs_split in R as [(t1 & t2 & R1 & R2 & ->)|[R1 N']].
      * apply do_tail in R2 as [[_ ->]|[-> _]]; [|contradiction].
        edestruct (runs_backward_all l IHl) as (_ & v & A & B); [eassumption|exact Fl|eassumption|].
        eexists. split; [apply CR_repeat; [exact A|exact U1]|]. rewrite <- app_assoc. apply same_app; [exact B|].
        cbn [app]. now apply SE_test.
      * edestruct (runs_backward_all l IHl) as (Q & _); [eassumption|exact Fl|eassumption|]. contradiction.
Qed.
End Facts.
