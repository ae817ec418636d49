(** C49, C50: operands, clobbers and options of the generated [asm!]. *)
From Verif Require Import Base Utf Lex LexFloat Token Ast ParseStmt Rust Finish Codegen StrFacts SpecAsm.
From Coq Require Import String List ZArith Lia Sorted Permutation.
Import ListNotations.
Local Open Scope string_scope.
Local Open Scope list_scope.

(** ** Sets of strings *)

Lemma str_compare_eq a : forall b, str_compare a b = Eq <-> a = b.
Proof.
  induction a as [|x a IH]; intros [|y b]; cbn [str_compare]; try (split; discriminate); [tauto|].
  destruct (N.compare_spec x y) as [-> | L | L]; [rewrite IH|split; [discriminate|]..].
  - split; congruence.
  - intros E. injection E as -> _. lia.
  - intros E. injection E as -> _. lia.
Qed.
Definition str_lt (a b : str) : Prop := str_compare a b = Lt.
Lemma str_lt_trans a : forall b d, str_lt a b -> str_lt b d -> str_lt a d.
Proof.
  unfold str_lt. induction a as [|x a IH]; intros [|y b] [|z d]; cbn [str_compare]; try discriminate; auto.
  destruct (N.compare_spec x y) as [-> | L | L]; destruct (N.compare_spec y z) as [-> | M | M]; try discriminate.
  - apply IH.
  - auto.
  - apply N.compare_lt_iff in L. rewrite L. auto.
  - intros _ _. assert (X : (x < z)%N) by lia. apply N.compare_lt_iff in X. now rewrite X.
Qed.
Lemma str_compare_gt a : forall b, str_compare a b = Gt -> str_lt b a.
Proof.
  unfold str_lt. induction a as [|x a IH]; intros [|y b]; cbn [str_compare]; try discriminate; auto.
  rewrite (N.compare_antisym x y). destruct (x ?= y)%N; cbn [CompOpp]; auto; discriminate.
Qed.

Lemma str_insert_in s l x : In x (str_insert s l) <-> x = s \/ In x l.
Proof.
  induction l as [|y l IH]; cbn [str_insert In]; [intuition congruence|].
  destruct (str_compare s y) eqn:C.
  - apply str_compare_eq in C. subst y. cbn [In]. intuition congruence.
  - cbn [In]. intuition congruence.
  - cbn [In]. rewrite IH. tauto.
Qed.
Lemma str_insert_sorted s l : StronglySorted str_lt l -> StronglySorted str_lt (str_insert s l).
Proof.
  induction 1 as [|y l S IH F]; cbn [str_insert]; [repeat constructor|].
  destruct (str_compare s y) eqn:C.
  - constructor; assumption.
  - constructor; [constructor; assumption|]. constructor; [exact C|].
    eapply Forall_impl; [|exact F]. intros z. apply str_lt_trans. exact C.
  - constructor; [exact IH|]. apply Forall_forall. intros z I. apply str_insert_in in I. destruct I as [-> | I].
    + now apply str_compare_gt.
    + rewrite Forall_forall in F. auto.
Qed.
Lemma str_set_spec l : (forall x, In x (str_set l) <-> In x l) /\ StronglySorted str_lt (str_set l).
Proof.
  unfold str_set. assert (G : forall acc, StronglySorted str_lt acc ->
    (forall x, In x (fold_left (fun acc s => str_insert s acc) l acc) <-> In x l \/ In x acc) /\
    StronglySorted str_lt (fold_left (fun acc s => str_insert s acc) l acc)).
  { induction l as [|s l IH]; intros acc S; cbn [fold_left In]; [split; [tauto|exact S]|].
    destruct (IH (str_insert s acc) (str_insert_sorted _ _ S)) as [A B]. split; [|exact B].
    intros x. rewrite A, str_insert_in. intuition congruence. }
  destruct (G [] (SSorted_nil _)) as [A B]. split; [|exact B]. intros x. rewrite A. cbn [In]. tauto.
Qed.
Lemma sorted_nodup l : StronglySorted str_lt l -> NoDup l.
Proof.
  induction 1 as [|y l S IH F]; constructor; [|exact IH]. intros I. rewrite Forall_forall in F. specialize (F _ I).
  unfold str_lt in F. assert (E : str_compare y y = Eq) by now apply str_compare_eq. congruence.
Qed.
Lemma str_in_spec s l : str_in s l = true <-> In s l.
Proof.
  unfold str_in. rewrite existsb_exists. split.
  - intros (x & I & E). apply str_eqb_eq in E. now subst.
  - intros I. exists s. split; [exact I|apply str_eqb_refl].
Qed.
Lemma str_remove_spec s l x : In x (str_remove s l) <-> In x l /\ x <> s.
Proof.
  unfold str_remove. rewrite filter_In, negb_true_iff. split; intros [I E]; split; auto.
  - intros ->. rewrite str_eqb_refl in E. discriminate.
  - destruct (str_eqb x s) eqn:E'; [|reflexivity]. apply str_eqb_eq in E'. contradiction.
Qed.

(** ** Global assembly *)

Lemma starts_with_spec s p : starts_with s p = true <-> exists r, s = p ++ r.
Proof.
  unfold starts_with. split.
  - destruct (strip_prefix p s) as [r|] eqn:E; [|discriminate]. intros _. exists r. now apply strip_prefix_some.
  - intros [r ->]. now rewrite strip_prefix_app.
Qed.
Lemma global_spec a : asm_global a = true <-> exists l, In l (asm_template a) /\ global_line l.
Proof.
  unfold asm_global, global_line. rewrite existsb_exists. split; intros (l & I & G); exists l; (split; [exact I|]).
  - rewrite !orb_true_iff, !starts_with_spec in G. destruct G as [[[r G]|[r G]]|[r G]]; do 2 eexists; (split; [|exact G]); simpl; auto.
  - destruct G as (d & r & D & ->). rewrite !orb_true_iff, !starts_with_spec. simpl in D.
    destruct D as [<- | [<- | [<- | []]]]; eauto.
Qed.

(** ** Merging *)

Lemma set_nth_spec {A} (l : list A) : forall i x, (i < length l)%nat -> exists l', set_nth l i x = Some l' /\ length l' = length l /\
  forall j, nth_error l' j = if Nat.eqb j i then Some x else nth_error l j.
Proof.
  induction l as [|y l IH]; intros i x L; cbn [length] in L; [lia|]. destruct i as [|i]; cbn [set_nth].
  - eexists. repeat split. intros [|j]; reflexivity.
  - destruct (IH i x ltac:(lia)) as (l' & E & Le & N). rewrite E. eexists. repeat split; [cbn [length]; now rewrite Le|].
    intros [|j]; [reflexivity|]. cbn [nth_error Nat.eqb]. apply N.
Qed.

(** The direction of output [i] after merging the inputs [cs]. *)
Definition mark (cs : list reg_constraint) (i : nat) (o : asm_dir * reg_constraint * expr) : asm_dir * reg_constraint * expr :=
  match o with (d, r, e) => ((if existsb (names_output i) cs then DInOut else d), r, e) end.

Lemma nth_ext_eq {A} (l : list A) : forall l', (forall i, nth_error l i = nth_error l' i) -> l = l'.
Proof.
  induction l as [|x l IH]; intros [|y l'] E; try reflexivity.
  - specialize (E 0%nat). discriminate E.
  - specialize (E 0%nat). discriminate E.
  - pose proof (E 0%nat) as E0. injection E0 as ->. f_equal. apply IH. intros i. exact (E (S i)).
Qed.

Lemma tie_outputs cs : forall outs ins outs' ins', asm_tie cs outs ins = Some (outs', ins') ->
  forall i, nth_error outs' i = omap (mark cs i) (nth_error outs i).
Proof.
  induction cs as [|r cs IH]; intros outs ins outs' ins' E i; cbn [asm_tie] in E.
  - injection E as <- <-. destruct (nth_error outs i) as [[[d r] e]|]; reflexivity.
  - destruct r as [| | | |d].
    1-4: rewrite (IH _ _ _ _ E i); destruct (nth_error outs i) as [[[d r] e]|]; reflexivity.
    destruct (nth_error outs (N.to_nat d)) as [[[d0 r0] e0]|] eqn:O.
    + destruct (remove_nth ins (N.to_nat d)) as [ins1|]; cbn [obind] in E; [|discriminate E].
      destruct (set_nth_spec outs (N.to_nat d) (DInOut, r0, e0)) as (outs1 & S & Le & N).
      { apply nth_error_Some. congruence. }
      rewrite S in E. cbn [obind] in E. rewrite (IH _ _ _ _ E i), N.
      destruct (Nat.eqb_spec i (N.to_nat d)) as [->|Ne].
      * rewrite O. cbn [omap mark existsb names_output]. rewrite Nat.eqb_refl. cbn [orb]. destruct (existsb _ cs); reflexivity.
      * destruct (nth_error outs i) as [[[d1 r1] e1]|]; [|reflexivity]. cbn [omap mark existsb names_output].
        replace (N.to_nat d =? i)%nat with false by (symmetry; apply Nat.eqb_neq; congruence). reflexivity.
    + rewrite (IH _ _ _ _ E i). destruct (nth_error outs i) as [[[d1 r1] e1]|] eqn:O1; [|reflexivity].
      cbn [omap mark existsb names_output].
      destruct (Nat.eqb_spec (N.to_nat d) i) as [X|X]; [rewrite X in O; rewrite O in O1; discriminate O1|]. reflexivity.
Qed.

Lemma merged_nth ins outs : forall k i, nth_error (merged_outputs k outs ins) i =
  omap (mark (map fst ins) (k + i)) (nth_error outs i).
Proof.
  assert (X : forall k, existsb (fun x : reg_constraint * expr => names_output k (fst x)) ins = existsb (names_output k) (map fst ins)).
  { intros k. clear. induction ins as [|x l IH]; [reflexivity|]. cbn [map existsb]. now rewrite IH. }
  induction outs as [|[[d r] e] outs IH]; intros k [|i]; cbn [merged_outputs nth_error]; try reflexivity.
  - cbn [omap mark]. rewrite Nat.add_0_r, X. reflexivity.
  - rewrite IH. replace (S k + i)%nat with (k + S i)%nat by lia. reflexivity.
Qed.

Lemma tie_merged a outs' ins' : asm_tie (map fst (asm_inputs a)) (asm_outputs a) (asm_inputs a) = Some (outs', ins') ->
  outs' = merged_outputs 0 (asm_outputs a) (asm_inputs a).
Proof.
  intros E. apply nth_ext_eq. intros i. rewrite (tie_outputs _ _ _ _ _ E i), merged_nth. reflexivity.
Qed.

(** ** The structure of the generated call *)

Section Toks.
Context {U : Unicode}.
Variable cx : cgctx.
Variable c : lctx.

(** The tokens of an output and of an input. *)
Definition output_toks (o : asm_dir * reg_constraint * expr) (ts : list rtok) : Prop :=
  match o with (d, r, e) => exists x, etoks cx c e = Some x /\ ts = RId (dir_name d) :: RGroup DParen [reg_class r] :: x end.
Definition input_toks (o : reg_constraint * expr) (ts : list rtok) : Prop :=
  match o with (r, e) => exists x, etoks cx c e = Some x /\ ts = RId (st "in") :: RGroup DParen [reg_class r] :: x end.
Definition clobber_toks (s : str) : list rtok := [RId (st "out"); RGroup DParen [RLit (RlStr s)]; RId (st "_")].

Lemma exprs_toks_spec f l : forall os, exprs_toks f l = Some os <-> Forall2 (fun e x => f e = Some x) l os.
Proof.
  unfold exprs_toks. induction l as [|e l IH]; intros os.
  - split; [intros E; injection E as <-; constructor|]. intros F. inversion F. reflexivity.
  - split.
    + intros E. destruct (f e) as [x|] eqn:X; [|discriminate E]. cbn [obind] in E.
      match type of E with (_ <-? ?q ;; _) = _ => destruct q as [r|] eqn:R; [|discriminate E] end.
      injection E as <-. constructor; [exact X|]. now apply IH.
    + intros F. inversion F as [|? x ? r X R]; subst. rewrite X. cbn [obind]. apply IH in R. rewrite R. reflexivity.
Qed.

Lemma terminated_args l : terminated_by l = asm_args l.
Proof. unfold terminated_by, asm_args. apply flat_map_concat_map. Qed.
Lemma asm_args_app a b : asm_args (a ++ b) = asm_args a ++ asm_args b.
Proof. unfold asm_args. now rewrite map_app, concat_app. Qed.

Lemma out_items outs : forall os, exprs_toks (etoks cx c) (map snd outs) = Some os ->
  Forall2 output_toks outs (map (fun '((d, r, _), ts) => dir_tok d :: parens [reg_tok r] :: ts) (combine outs os)).
Proof.
  intros os E. apply exprs_toks_spec in E. revert os E. induction outs as [|[[d r] e] outs IH]; intros os F; inversion F as [|? x ? r' X R]; subst; [constructor|].
  cbn [combine map]. constructor; [|now apply IH]. exists x. split; [exact X|]. destruct d; destruct r; reflexivity.
Qed.
Lemma in_items ins : forall os, exprs_toks (etoks cx c) (map snd ins) = Some os ->
  Forall2 input_toks ins (map (fun '((r, _), ts) => ri "in" :: parens [reg_tok r] :: ts) (combine ins os)).
Proof.
  intros os E. apply exprs_toks_spec in E. revert os E. induction ins as [|[r e] ins IH]; intros os F; inversion F as [|? x ? r' X R]; subst; [constructor|].
  cbn [combine map]. constructor; [|now apply IH]. exists x. split; [exact X|]. destruct r; reflexivity.
Qed.

(** The call [asm!(..)] or [global_asm!(..)] with its arguments. *)
Definition asm_call (name : string) (args : list (list rtok)) : list rtok :=
  pfx (cx_trait cx) ++ [RId (st "arch"); RPunct (st "::"); RId (st name); RPunct (st "!"); RGroup DParen (asm_args args)].

Lemma asm_structure a ts : asm_toks cx c a = Some ts ->
  exists outs ins oargs iargs, asm_tie (map fst (asm_inputs a)) (asm_outputs a) (asm_inputs a) = Some (outs, ins) /\
    Forall2 output_toks outs oargs /\ Forall2 input_toks ins iargs /\
    let clobbers := str_set (asm_clobbers a) in
    let clobbers' := if asm_global a then clobbers else str_remove (st "cc") (str_remove (st "memory") clobbers) in
    let options := (if asm_att a then [[ri "att_syntax"]] else []) ++
      (if negb (asm_global a) && negb (str_in (st "memory") clobbers) then [[ri "nomem"]] else []) ++
      (if negb (asm_global a) && negb (str_in (st "cc") clobbers) then [[ri "preserves_flags"]] else []) in
    ts = asm_call (if asm_global a then "global_asm" else "asm")
      (map (fun s => [RLit (RlStr s)]) (asm_template a) ++ oargs ++ iargs ++ map clobber_toks clobbers' ++
       (match asm_global a, clobbers' with false, _ :: _ => [[RId (st "clobber_abi"); RGroup DParen [RLit (RlStr (st "C"))]]] | _, _ => [] end) ++
       (match options with [] => [] | _ => [[RId (st "options"); RGroup DParen (sep_by (rp ",") options)]] end)).
Proof.
  unfold asm_toks. intros E.
  destruct (asm_tie (map fst (asm_inputs a)) (asm_outputs a) (asm_inputs a)) as [[outs ins]|] eqn:T; cbn [obind] in E; [|discriminate E].
  destruct (exprs_toks (etoks cx c) (map snd outs)) as [os|] eqn:O; cbn [obind] in E; [|discriminate E].
  destruct (exprs_toks (etoks cx c) (map snd ins)) as [is|] eqn:I; cbn [obind] in E; [|discriminate E].
  injection E as <-. exists outs, ins.
  exists (map (fun '((d, r, _), ts) => dir_tok d :: parens [reg_tok r] :: ts) (combine outs os)).
  exists (map (fun '((r, _), ts) => ri "in" :: parens [reg_tok r] :: ts) (combine ins is)).
  split; [reflexivity|]. split; [now apply out_items|]. split; [now apply in_items|].
  cbv zeta. unfold asm_call. rewrite !asm_args_app, <- !terminated_args.
  assert (A : forall (g : bool) (l : list str),
    terminated_by (match g, l with false, _ :: _ => [[RId (st "clobber_abi"); RGroup DParen [RLit (RlStr (st "C"))]]] | _, _ => [] end) =
    match g, l with false, _ :: _ => [ri "clobber_abi"; parens [RLit (RlStr (st "C"))]; rp ","] | _, _ => [] end).
  { intros [] [|? ?]; reflexivity. }
  assert (B : forall o : list (list rtok),
    terminated_by (match o with [] => [] | _ => [[RId (st "options"); RGroup DParen (sep_by (rp ",") o)]] end) =
    match o with [] => [] | _ => [ri "options"; parens (sep_by (rp ",") o); rp ","] end).
  { intros [|? ?]; reflexivity. }
  rewrite A, B. reflexivity.
Qed.

Lemma options_in (g m b : bool) : In [RId (st "nomem")] ((if g then [[ri "att_syntax"]] else []) ++ (if m then [[ri "nomem"]] else []) ++ (if b then [[ri "preserves_flags"]] else [])) <-> m = true.
Proof. destruct g, m, b; simpl; split; intros X; decompose [or] X; try discriminate; try tauto; auto. Qed.
Lemma options_in2 (g m b : bool) : In [RId (st "preserves_flags")] ((if g then [[ri "att_syntax"]] else []) ++ (if m then [[ri "nomem"]] else []) ++ (if b then [[ri "preserves_flags"]] else [])) <-> b = true.
Proof. destruct g, m, b; simpl; split; intros X; decompose [or] X; try discriminate; try tauto; auto. Qed.

(** Neither an operand nor a template line is a clobber. *)
Lemma output_not_clobber o ts s : output_toks o ts -> ts <> clobber_toks s.
Proof. destruct o as [[d r] e]. intros (x & _ & ->) E. unfold clobber_toks in E. injection E as _ R _. destruct r; discriminate R. Qed.
Lemma input_not_clobber o ts s : input_toks o ts -> ts <> clobber_toks s.
Proof. destruct o as [r e]. intros (x & _ & ->) E. discriminate E. Qed.

Lemma count_clobbers names s : NoDup names -> In s names ->
  exists a b, map clobber_toks names = a ++ clobber_toks s :: b /\ ~ In (clobber_toks s) (a ++ b).
Proof.
  intros N I. apply in_split in I. destruct I as (a & b & ->). exists (map clobber_toks a), (map clobber_toks b).
  split; [now rewrite map_app|]. rewrite <- map_app. intros I. apply in_map_iff in I. destruct I as (x & E & I).
  injection E as ->. apply NoDup_remove_2 in N. contradiction.
Qed.

(** ** C49 *)

(** The arguments of the generated [asm!]: options [nomem] and
    [preserves_flags] exactly when memory and flags are not clobbered; every
    other clobber occurs as an output exactly once, and nothing else does. *)
Theorem C49_clobbers a ts : asm_toks cx c a = Some ts -> ~ (exists l, In l (asm_template a) /\ global_line l) ->
  exists args opts, ts = asm_call "asm" args /\
    (match opts with [] => forall o, ~ In [RId (st "options"); o] args
                   | _ => In [RId (st "options"); RGroup DParen (sep_by (RPunct (st ",")) opts)] args end) /\
    (In [RId (st "nomem")] opts <-> ~ In (st "memory") (asm_clobbers a)) /\
    (In [RId (st "preserves_flags")] opts <-> ~ In (st "cc") (asm_clobbers a)) /\
    forall s, (In s (asm_clobbers a) /\ s <> st "memory" /\ s <> st "cc" ->
                 exists x y, args = x ++ clobber_toks s :: y /\ ~ In (clobber_toks s) (x ++ y)) /\
              (In (clobber_toks s) args -> In s (asm_clobbers a) /\ s <> st "memory" /\ s <> st "cc").
Proof.
  intros E G. destruct (asm_structure _ _ E) as (outs & ins & oargs & iargs & T & Fo & Fi & S).
  assert (G' : asm_global a = false).
  { destruct (asm_global a) eqn:X; [|reflexivity]. apply global_spec in X. contradiction. }
  cbv zeta in S. rewrite G' in S. cbn [negb andb] in S.
  destruct (str_set_spec (asm_clobbers a)) as [I Srt].
  set (names := str_remove (st "cc") (str_remove (st "memory") (str_set (asm_clobbers a)))) in *.
  assert (In_names : forall s, In s names <-> In s (asm_clobbers a) /\ s <> st "memory" /\ s <> st "cc").
  { intros s. unfold names. rewrite !str_remove_spec, I. tauto. }
  assert (ND : NoDup names).
  { unfold names, str_remove. do 2 apply NoDup_filter. now apply sorted_nodup. }
  set (opts := (if asm_att a then [[ri "att_syntax"]] else []) ++ _ ++ _) in S.
  set (abi := match names with [] => [] | _ :: _ => _ end) in S.
  set (oa := match opts with [] => [] | _ :: _ => _ end) in S.
  exists (map (fun s => [RLit (RlStr s)]) (asm_template a) ++ oargs ++ iargs ++ map clobber_toks names ++ abi ++ oa), opts.
  assert (Out : forall s, ~ In (clobber_toks s) oargs).
  { intros s J. clear - Fo J. induction Fo as [|o t l l' O F IH]; [exact J|]. destruct J as [J|J]; [|auto]. exact (output_not_clobber _ _ _ O J). }
  assert (Inp : forall s, ~ In (clobber_toks s) iargs).
  { intros s J. clear - Fi J. induction Fi as [|o t l l' O F IH]; [exact J|]. destruct J as [J|J]; [|auto]. exact (input_not_clobber _ _ _ O J). }
  assert (Tem : forall s, ~ In (clobber_toks s) (map (fun s => [RLit (RlStr s)]) (asm_template a))).
  { intros s J. apply in_map_iff in J. destruct J as (x & J & _). discriminate J. }
  assert (Abi : forall s, ~ In (clobber_toks s) abi).
  { intros s. unfold abi. destruct names; [intros []|]. intros [J|[]]. discriminate J. }
  assert (Opt : forall s, ~ In (clobber_toks s) oa).
  { intros s. unfold oa. destruct opts; [intros []|]. intros [J|[]]. discriminate J. }
  split; [exact S|]. split; [|split; [|split; [|intros s; split]]].
  - destruct opts eqn:Eo.
    + intros o J. unfold oa in J. rewrite !in_app_iff in J. destruct J as [J|[J|[J|[J|[J|J]]]]].
      * apply in_map_iff in J. destruct J as (x & J & _). discriminate J.
      * clear - Fo J. induction Fo as [|o1 t l l' O F IH]; [exact J|]. destruct J as [J|J]; [|auto].
        destruct o1 as [[d r] e]. destruct O as (x & _ & ->). destruct d; discriminate J.
      * clear - Fi J. induction Fi as [|o1 t l l' O F IH]; [exact J|]. destruct J as [J|J]; [|auto].
        destruct o1 as [r e]. destruct O as (x & _ & ->). discriminate J.
      * apply in_map_iff in J. destruct J as (x & J & _). discriminate J.
      * unfold abi in J. destruct names; [exact J|]. destruct J as [J|[]]. discriminate J.
      * exact J.
    + rewrite !in_app_iff. do 5 right. left. reflexivity.
  - unfold opts. rewrite (options_in _ _ _), negb_true_iff. rewrite <- I, <- str_in_spec. symmetry. apply not_true_iff_false.
  - unfold opts. rewrite (options_in2 _ _ _), negb_true_iff. rewrite <- I, <- str_in_spec. symmetry. apply not_true_iff_false.
  - intros J. apply In_names in J. destruct (count_clobbers _ _ ND J) as (x & y & M & N). rewrite M.
    exists (map (fun s => [RLit (RlStr s)]) (asm_template a) ++ oargs ++ iargs ++ x), (y ++ abi ++ oa).
    split; [rewrite <- !app_assoc; reflexivity|]. rewrite !in_app_iff in *. intros K.
    destruct K as [[K|[K|[K|K]]]|[K|[K|K]]]; [exact (Tem _ K)|exact (Out _ K)|exact (Inp _ K)|apply N; auto|apply N; auto|exact (Abi _ K)|exact (Opt _ K)].
  - rewrite !in_app_iff. intros K. destruct K as [K|[K|[K|[K|[K|K]]]]].
    + destruct (Tem _ K).
    + destruct (Out _ K).
    + destruct (Inp _ K).
    + apply in_map_iff in K. destruct K as (x & X & K). injection X as ->. now apply In_names.
    + destruct (Abi _ K).
    + destruct (Opt _ K).
Qed.

(** ** C50 *)

(** The outputs of a generated call are always the merged ones. *)
Theorem C50_outputs a ts : asm_toks cx c a = Some ts ->
  exists name oargs rest, ts = asm_call name (map (fun s => [RLit (RlStr s)]) (asm_template a) ++ oargs ++ rest) /\
    Forall2 output_toks (merged_outputs 0 (asm_outputs a) (asm_inputs a)) oargs.
Proof.
  intros E. destruct (asm_structure _ _ E) as (outs & ins & oargs & iargs & T & Fo & Fi & S).
  rewrite <- (tie_merged _ _ _ T). do 3 eexists. split; [exact S|exact Fo].
Qed.

(** Every matching input stands where the code looks for it: preceded by
    exactly as many other inputs as the number it names. *)
Definition aligned (n : nat) (ins : list (reg_constraint * expr)) : Prop :=
  forall x d e y, ins = x ++ (RcDigit d, e) :: y -> (N.to_nat d < n)%nat -> N.to_nat d = length (other_inputs n x).

Lemma remove_nth_app {A} (l : list A) x r : remove_nth (l ++ x :: r) (length l) = Some (l ++ r).
Proof. induction l as [|y l IH]; [reflexivity|]. cbn [app length remove_nth]. rewrite IH. reflexivity. Qed.

Lemma other_app n x y : other_inputs n (x ++ y) = other_inputs n x ++ other_inputs n y.
Proof. unfold other_inputs. apply filter_app. Qed.

Lemma tie_aligned n rest : forall before outs, length outs = n -> aligned n (before ++ rest) ->
  exists outs', asm_tie (map fst rest) outs (other_inputs n before ++ rest) = Some (outs', other_inputs n (before ++ rest)).
Proof.
  induction rest as [|[r e] rest IH]; intros before outs L A.
  - cbn [map asm_tie]. exists outs. now rewrite !app_nil_r.
  - assert (A' : aligned n ((before ++ [(r, e)]) ++ rest)) by (rewrite <- app_assoc; exact A).
    assert (plain : matching n r = false -> asm_tie (map fst ((r, e) :: rest)) outs (other_inputs n before ++ (r, e) :: rest) =
       asm_tie (map fst rest) outs (other_inputs n (before ++ [(r, e)]) ++ rest)).
    { intros M. rewrite other_app. unfold other_inputs at 3. cbn [filter fst]. rewrite M. cbn [negb]. rewrite <- app_assoc. cbn [app map fst].
      destruct r as [| | | |d]; try reflexivity. cbn [asm_tie]. cbn [matching] in M. apply Nat.ltb_ge in M.
      destruct (nth_error outs (N.to_nat d)) eqn:O; [|reflexivity]. exfalso. assert (X : nth_error outs (N.to_nat d) <> None) by congruence.
      apply nth_error_Some in X. lia. }
    replace (before ++ (r, e) :: rest) with ((before ++ [(r, e)]) ++ rest) by (rewrite <- app_assoc; reflexivity).
    destruct (matching n r) eqn:M.
    + destruct r as [| | | |d]; try discriminate M. cbn [matching] in M. apply Nat.ltb_lt in M.
      cbn [map fst asm_tie]. destruct (nth_error outs (N.to_nat d)) as [[[d0 r0] e0]|] eqn:O.
      2:{ apply nth_error_None in O. lia. }
      assert (R : remove_nth (other_inputs n before ++ (RcDigit d, e) :: rest) (N.to_nat d) = Some (other_inputs n before ++ rest))
        by (rewrite (A before d e rest eq_refl M); apply remove_nth_app).
      rewrite R. cbn [obind].
      destruct (set_nth_spec outs (N.to_nat d) (DInOut, r0, e0)) as (outs1 & S & Le & N); [lia|]. rewrite S. cbn [obind].
      destruct (IH (before ++ [(RcDigit d, e)]) outs1 ltac:(lia) A') as [outs' E]. exists outs'. rewrite <- E. f_equal.
      rewrite other_app. unfold other_inputs at 3. cbn [filter fst matching]. apply Nat.ltb_lt in M. rewrite M. cbn [negb]. now rewrite app_nil_r.
    + rewrite (plain eq_refl). exact (IH (before ++ [(r, e)]) outs L A').
Qed.

(** With aligned matching constraints generation does not panic (unless an
    operand does), the named outputs are [inout], and exactly the matching
    inputs are gone. *)
Theorem C50_merge_partial a : aligned (length (asm_outputs a)) (asm_inputs a) ->
  (forall e, In e (map snd (asm_outputs a)) \/ In e (map snd (asm_inputs a)) -> etoks cx c e <> None) ->
  exists name oargs iargs rest,
    asm_toks cx c a = Some (asm_call name (map (fun s => [RLit (RlStr s)]) (asm_template a) ++ oargs ++ iargs ++ rest)) /\
    Forall2 output_toks (merged_outputs 0 (asm_outputs a) (asm_inputs a)) oargs /\
    Forall2 input_toks (other_inputs (length (asm_outputs a)) (asm_inputs a)) iargs.
Proof.
  intros A N. destruct (tie_aligned _ (asm_inputs a) [] (asm_outputs a) eq_refl A) as [outs T]. 
  change (asm_tie (map fst (asm_inputs a)) (asm_outputs a) (asm_inputs a) = Some (outs, other_inputs (length (asm_outputs a)) (asm_inputs a))) in T.
  assert (D : exists ts, asm_toks cx c a = Some ts).
  { unfold asm_toks. rewrite T. cbn [obind].
    assert (X : forall l, (forall e, In e l -> etoks cx c e <> None) -> exists os, exprs_toks (etoks cx c) l = Some os).
    { clear. unfold exprs_toks. induction l as [|e l IH]; intros F; [now eexists|].
      destruct (etoks cx c e) as [x|] eqn:E; [|destruct (F e (or_introl eq_refl) E)]. cbn [obind].
      destruct IH as [os O]; [intros; apply F; now right|]. rewrite O. eexists. reflexivity. }
    destruct (X (map snd outs)) as [os Os].
    { intros e I. apply N. left. rewrite (tie_merged _ _ _ T) in I. clear - I. revert I. generalize 0%nat at 1.
      induction (asm_outputs a) as [|[[d r] e1] l IH]; intros k I; [exact I|]. cbn [merged_outputs map snd In] in *.
      destruct I as [I|I]; [now left|right; exact (IH _ I)]. }
    rewrite Os. cbn [obind]. destruct (X (map snd (other_inputs (length (asm_outputs a)) (asm_inputs a)))) as [is Is].
    { intros e I. apply N. right. apply in_map_iff in I. destruct I as (x & <- & I). apply filter_In in I. apply in_map. apply I. }
    rewrite Is. cbn [obind]. eexists. reflexivity. }
  destruct D as [ts D]. destruct (asm_structure _ _ D) as (outs' & ins' & oargs & iargs & T' & Fo & Fi & S).
  rewrite T in T'. injection T' as <- <-. rewrite (tie_merged _ _ _ T) in Fo. rewrite D.
  do 4 eexists. split; [f_equal; exact S|]. split; [exact Fo|exact Fi].
Qed.

End Toks.

(** Refuted in general: the code removes the input whose position is the number
    of the output.  With [: "=r"(a) : "r"(b), "0"(a)] it is [b] that
    disappears; with two outputs and the matching inputs 0 and 1 it panics. *)
Definition opd (s : string) : expr := EVar (IPlain (st s)).
Definition asm_wrong : asm_stmt := mk_asm [st "add {0}, {1}"] [(DOut, RcReg, opd "a")] [(RcReg, opd "b"); (RcDigit 0, opd "a")] [].
Definition asm_panic : asm_stmt :=
  mk_asm [st "nop"] [(DOut, RcReg, opd "a"); (DOut, RcReg, opd "b")] [(RcDigit 0, opd "a"); (RcDigit 1, opd "b")] [].
Theorem C50_merge_refuted : exists a ts, @asm_toks demo_unicode cx_unit lctx_new a = Some ts /\
  forall name before iargs rest, ts = asm_call cx_unit name (before ++ iargs ++ rest) ->
    ~ Forall2 (@input_toks demo_unicode cx_unit lctx_new) (other_inputs (length (asm_outputs a)) (asm_inputs a)) iargs.
Proof.
  exists asm_wrong. eexists. split; [vm_compute; reflexivity|]. intros name before iargs rest E F.
  inversion F as [|? i ? iargs' I F']; subst. inversion F'; subst. clear F F'. cbn [fst snd] in I. destruct I as (x & X & ->).
  assert (X' : x = [RId (st "b")]).
  { vm_compute in X. injection X as <-. reflexivity. }
  subst x. unfold asm_call in E. cbn [cx_trait cx_unit pfx app] in E. injection E as _ E. rewrite !asm_args_app in E.
  match type of E with ?l = ?r => assert (I : In (RId (st "b")) l) end.
  { rewrite E. apply in_or_app. right. apply in_or_app. left. cbn. auto. }
  vm_compute in I. decompose [or] I; try discriminate; contradiction.
Qed.
Theorem C50_panic_refuted : exists a, @asm_toks demo_unicode cx_unit lctx_new a = None /\
  forall e, In e (map snd (asm_outputs a)) \/ In e (map snd (asm_inputs a)) -> @etoks demo_unicode cx_unit lctx_new e <> None.
Proof.
  exists asm_panic. split; [vm_compute; reflexivity|]. intros e [I|I]; simpl in I; decompose [or] I; subst; try contradiction; vm_compute; discriminate.
Qed.

(** Not vacuous. *)
Definition asm_good : asm_stmt :=
  mk_asm [st "xchg {0}, {1}"] [(DOut, RcReg, opd "a")] [(RcDigit 0, opd "x"); (RcReg, opd "b")]
    [st "cc"; st "eax"; st "eax"; st "ebx"].
Example C50_aligned_case : aligned (length (asm_outputs asm_good)) (asm_inputs asm_good).
Proof.
  intros x d e y E L. destruct x as [|x1 [|x2 [|x3 x]]]; cbn in E; injection E; intros; subst; try discriminate; reflexivity.
Qed.
Example C49_case : @asm_toks demo_unicode cx_unit lctx_new asm_good = Some (asm_call cx_unit "asm"
  [[RLit (RlStr (st "xchg {0}, {1}"))]; [ri "inout"; parens [ri "reg"]; ri "a"]; [ri "in"; parens [ri "reg"]; ri "b"];
   clobber_toks (st "eax"); clobber_toks (st "ebx"); [ri "clobber_abi"; parens [RLit (RlStr (st "C"))]];
   [ri "options"; parens [ri "nomem"]]]).
Proof. vm_compute. reflexivity. Qed.

Print Assumptions C49_clobbers.
Print Assumptions C50_outputs.
Print Assumptions C50_merge_partial.
Print Assumptions C50_merge_refuted.
Print Assumptions C50_panic_refuted.
