(** C85, C86: the option [att_syntax] of the generated [asm!], and the whole
    call. *)
From Verif Require Import Base Utf Lex LexFloat Token Ast ParseStmt Rust Finish Codegen StrFacts LexFacts SpecInt IntFacts DecFacts SpecAsm PropAsm PropAsmOps.
From Coq Require Import String List ZArith Lia.
Import ListNotations.
Local Open Scope string_scope.
Local Open Scope list_scope.

(** ** Searching *)

Lemma contains_iff p s : contains s p = true <-> exists a b, s = a ++ p ++ b.
Proof.
  induction s as [|c s IH]; cbn [contains]; rewrite orb_true_iff, starts_with_spec.
  - split.
    + intros [[r E]|E]; [|discriminate E]. now exists [], r.
    + intros (a & b & E). left. symmetry in E. apply app_eq_nil in E as [_ E]. now exists b.
  - rewrite IH. split.
    + intros [[r E]|(a & b & E)]; [now exists [], r|]. exists (c :: a), b. now rewrite E.
    + intros ([|x a] & b & E); [left; now exists b|]. right. injection E as _ E. now exists a, b.
Qed.
Lemma att_line_iff s : contains s (st "({") || existsb (N.eqb 37) s || existsb (N.eqb 36) s = true <-> att_line s.
Proof.
  assert (X : forall c, existsb (N.eqb c) s = true <-> In c s).
  { intros c. rewrite existsb_exists. split; [intros (x & I & E); apply N.eqb_eq in E; now subst|]. intros I. exists c. split; [exact I|apply N.eqb_refl]. }
  unfold att_line. rewrite !orb_true_iff, contains_iff, !X. tauto.
Qed.

(** ** Inputs *)

Lemma remove_incl {A} (l : list A) : forall i l', remove_nth l i = Some l' -> incl l' l.
Proof.
  induction l as [|x l IH]; intros [|i] l' E; cbn in E; try discriminate.
  - injection E as <-. now apply incl_tl, incl_refl.
  - destruct (remove_nth l i) eqn:R; [|discriminate]. injection E as <-. apply incl_cons; [now left|]. apply incl_tl. eapply IH, R.
Qed.
Lemma tie_incl cs : forall os is outs ins, asm_tie cs os is = Some (outs, ins) -> incl ins is.
Proof.
  induction cs as [|k cs IH]; intros os is outs ins T; cbn [asm_tie] in T; [injection T as <- <-; apply incl_refl|].
  destruct k as [| | | |d]; try (eapply IH, T). destruct (nth_error os (N.to_nat d)) as [[[? ?] ?]|]; [|eapply IH, T].
  destruct (remove_nth is (N.to_nat d)) as [is'|] eqn:R; [|discriminate T]. cbn [obind] in T.
  destruct (set_nth _ _ _) as [os'|]; [|discriminate T]. cbn [obind] in T. apply IH in T. eapply incl_tran; [exact T|].
  eapply remove_incl, R.
Qed.

(** ** The option *)

Section Option.
Variables (cx : cgctx) (c : lctx).

(** C85, exactly: the call has the option [att_syntax] if and only if some line
    of the template has a %, a $ or an operand right after a parenthesis. *)
Theorem C85_syntax a ts : asm_toks cx c a = Some ts ->
  exists name args opts, In name ["asm"; "global_asm"] /\ ts = asm_call cx name args /\
    (match opts with [] => forall o, ~ In [RId (st "options"); o] args
                   | _ => In [RId (st "options"); RGroup DParen (sep_by (RPunct (st ",")) opts)] args end) /\
    (In [RId (st "att_syntax")] opts <-> exists l, In l (asm_template a) /\ att_line l).
Proof.
  intros E. destruct (asm_structure _ _ _ _ E) as (outs & ins & oargs & iargs & T & Fo & Fi & S). cbv zeta in S.
  set (opts := (if asm_att a then [[ri "att_syntax"]] else []) ++ _ ++ _) in S.
  eexists. eexists. exists opts. split; [|split; [exact S|]].
  { destruct (asm_global a); cbn; auto. }
  split.
  - destruct opts eqn:Eo.
    + intros o J. rewrite !in_app_iff in J. destruct J as [J|[J|[J|[J|[J|J]]]]].
      * apply in_map_iff in J. destruct J as (x & J & _). discriminate J.
      * clear - Fo J. induction Fo as [|o1 t l l' O F IH]; [exact J|]. destruct J as [J|J]; [|auto].
        destruct o1 as [[d r] e]. destruct O as (x & _ & ->). destruct d; discriminate J.
      * clear - Fi J. induction Fi as [|o1 t l l' O F IH]; [exact J|]. destruct J as [J|J]; [|auto].
        destruct o1 as [r e]. destruct O as (x & _ & ->). discriminate J.
      * apply in_map_iff in J. destruct J as (x & J & _). discriminate J.
      * destruct (asm_global a); [exact J|]. destruct (str_remove _ _) in J; [exact J|]. destruct J as [J|[]]. discriminate J.
      * exact J.
    + rewrite !in_app_iff. do 5 right. left. reflexivity.
  - transitivity (asm_att a = true).
    + unfold opts. destruct (asm_att a), (negb (asm_global a) && negb (str_in (st "memory") (str_set (asm_clobbers a)))),
        (negb (asm_global a) && negb (str_in (st "cc") (str_set (asm_clobbers a)))); cbn [app In]; split; intros K;
        repeat destruct K as [K|K]; try discriminate K; try reflexivity; try (left; reflexivity); destruct K.
    + unfold asm_att. rewrite existsb_exists. split; intros (l & I & K); exists l; (split; [exact I|]); now apply att_line_iff.
Qed.
(** ** The whole call *)

(** C86: what is generated for an assembly statement, completely: the lines of
    the template; the operands; the clobbers, each once; [clobber_abi] if there
    are clobbers; and the options.  Memory and flags are no clobbers of [asm!]
    but options.  Assembly with a line that starts with .globl, .global or
    .section is [global_asm!]. *)
Theorem C86_call a ts : asm_toks cx c a = Some ts ->
  exists name oargs iargs clobbers opts,
    let inside := name = "asm" in
    ts = asm_call cx name
      (map (fun s => [RLit (RlStr s)]) (asm_template a) ++ oargs ++ iargs ++ map clobber_toks clobbers ++
       (if str_eqb (st name) (st "asm") && negb (Nat.eqb (length clobbers) 0) then [[RId (st "clobber_abi"); RGroup DParen [RLit (RlStr (st "C"))]]] else []) ++
       (if Nat.eqb (length opts) 0 then [] else [[RId (st "options"); RGroup DParen (sep_by (RPunct (st ",")) (map (fun o => [RId (st o)]) opts))]])) /\
    ((exists l, In l (asm_template a) /\ global_line l) /\ name = "global_asm" \/
     ~ (exists l, In l (asm_template a) /\ global_line l) /\ name = "asm") /\
    Forall2 (output_toks cx c) (merged_outputs 0 (asm_outputs a) (asm_inputs a)) oargs /\
    (exists ins, incl ins (asm_inputs a) /\ Forall2 (input_toks cx c) ins iargs) /\
    NoDup clobbers /\ (forall s, In s clobbers <-> In s (asm_clobbers a) /\ (inside -> s <> st "memory" /\ s <> st "cc")) /\
    NoDup opts /\ (forall o, In o opts <->
      o = "att_syntax" /\ (exists l, In l (asm_template a) /\ att_line l) \/
      o = "nomem" /\ inside /\ ~ In (st "memory") (asm_clobbers a) \/
      o = "preserves_flags" /\ inside /\ ~ In (st "cc") (asm_clobbers a)).
Proof.
  intros E. destruct (asm_structure _ _ _ _ E) as (outs & ins & oargs & iargs & T & Fo & Fi & S). cbv zeta in S |- *.
  destruct (str_set_spec (asm_clobbers a)) as [I Srt].
  assert (Att : asm_att a = true <-> exists l, In l (asm_template a) /\ att_line l).
  { unfold asm_att. rewrite existsb_exists. split; intros (l & J & K); exists l; (split; [exact J|]); now apply att_line_iff. }
  exists (if asm_global a then "global_asm" else "asm"), oargs, iargs.
  exists (if asm_global a then str_set (asm_clobbers a) else str_remove (st "cc") (str_remove (st "memory") (str_set (asm_clobbers a)))).
  exists ((if asm_att a then ["att_syntax"] else []) ++
    (if negb (asm_global a) && negb (str_in (st "memory") (str_set (asm_clobbers a))) then ["nomem"] else []) ++
    (if negb (asm_global a) && negb (str_in (st "cc") (str_set (asm_clobbers a))) then ["preserves_flags"] else [])).
  assert (Mem : str_in (st "memory") (str_set (asm_clobbers a)) = true <-> In (st "memory") (asm_clobbers a)) by (rewrite str_in_spec; apply I).
  assert (Cc : str_in (st "cc") (str_set (asm_clobbers a)) = true <-> In (st "cc") (asm_clobbers a)) by (rewrite str_in_spec; apply I).
  split.
  { rewrite S. destruct (asm_global a), (asm_att a), (str_in (st "memory") (str_set (asm_clobbers a))), (str_in (st "cc") (str_set (asm_clobbers a)));
      cbn [negb andb app]; first [reflexivity | destruct (str_remove _ _); reflexivity]. }
  split.
  { destruct (asm_global a) eqn:G; [left|right]; (split; [|reflexivity]).
    - now apply global_spec.
    - intros K. apply global_spec in K. congruence. }
  split; [rewrite <- (tie_merged _ _ _ T); exact Fo|]. split.
  { exists ins. split; [eapply tie_incl, T|exact Fi]. }
  split.
  { destruct (asm_global a); [now apply sorted_nodup|]. unfold str_remove. do 2 apply NoDup_filter. now apply sorted_nodup. }
  split.
  { intros s. destruct (asm_global a); rewrite ?str_remove_spec, I.
    - split; [intros K; split; [exact K|discriminate]|tauto].
    - split; [tauto|]. intros [K L]. specialize (L eq_refl). tauto. }
  split.
  { destruct (asm_att a), (negb (asm_global a) && negb (str_in (st "memory") (str_set (asm_clobbers a)))),
      (negb (asm_global a) && negb (str_in (st "cc") (str_set (asm_clobbers a)))); cbn [app];
      repeat (constructor; [cbn [In]; intros K; repeat destruct K as [K|K]; try discriminate K; destruct K|]); constructor. }
  intros o. rewrite <- Att, <- Mem, <- Cc, !in_app_iff.
  destruct (asm_att a), (asm_global a), (str_in (st "memory") (str_set (asm_clobbers a))), (str_in (st "cc") (str_set (asm_clobbers a)));
    cbn [negb andb In]; split; intros K; repeat match goal with
      | H : _ \/ _ |- _ => destruct H as [H|H]
      | H : _ /\ _ |- _ => destruct H
      | H : False |- _ => destruct H
      end; subst; try discriminate; try congruence; auto 10; intuition congruence.
Qed.
End Option.

(** Refuted for global assembly: [global_asm!] has no operands, but the clobbers
    of [__asm__ volatile (".globl f" : : : "memory")] are generated as operands. *)
Definition global_body : list mtoken :=
  [MIdent (st "__asm__"); MIdent (st "volatile"); MPunct (st "("); MLit (LString (SOrdinary (st ".globl f")));
   MPunct (st ":"); MPunct (st ":"); MPunct (st ":"); MLit (LString (SOrdinary (st "memory"))); MPunct (st ")")].
Theorem C86_global_refuted : exists m a ts args x,
  @fn_macro_parse demo_unicode (st "F") [] global_body = ROk m /\ fm_body m = MbStatement (SAsm a) /\
  @asm_toks demo_unicode cx_unit lctx_new a = Some ts /\ ts = asm_call cx_unit "global_asm" args /\ In x args /\ ~ global_argument x.
Proof.
  do 3 eexists. exists [[RLit (RlStr (st ".globl f"))]; clobber_toks (st "memory")], (clobber_toks (st "memory")).
  split; [vm_compute; reflexivity|]. split; [reflexivity|]. split; [vm_compute; reflexivity|]. split; [vm_compute; reflexivity|].
  split; [cbn; auto|]. intros [(s & K)|(o & K & _)]; discriminate K.
Qed.

(** ** The template of GCC *)

Definition adj (s : str) : Prop := exists x y, s = x ++ st "({" ++ y.
Lemma adj_cons c s : adj (c :: s) <-> (c = 40%N /\ starts (eq 123%N) s) \/ adj s.
Proof.
  split.
  - intros ([|u x] & y & E).
    + left. injection E as -> ->. split; reflexivity.
    + right. injection E as _ ->. now exists x, y.
  - intros [[-> S]|(x & y & ->)]; [|now exists (c :: x), y]. destruct s as [|d s]; [destruct S|]. cbn in S. subst d. now exists [], s.
Qed.
Lemma adj_nil : ~ adj [].
Proof. intros ([|? ?] & ? & E); discriminate E. Qed.
Lemma adj_front u s : ~ In 40%N u -> (adj (u ++ s) <-> adj s).
Proof.
  induction u as [|c u IH]; cbn [In app]; intros N; [tauto|]. rewrite adj_cons, IH by tauto. split; [|tauto].
  intros [[-> _]|K]; [tauto|exact K].
Qed.
Lemma adj_sep c s t : c <> 123%N -> c <> 40%N -> (adj (s ++ c :: t) <-> adj s \/ adj t).
Proof.
  intros C D. induction s as [|d s IH]; cbn [app]; rewrite adj_cons.
  - pose proof adj_nil. tauto.
  - rewrite IH, adj_cons. destruct s as [|e s]; cbn [app starts]; intuition congruence.
Qed.
Lemma adj_back s : forall b, ~ In 123%N b -> ~ In 40%N b -> (adj (s ++ b) <-> adj s).
Proof.
  intros [|c b] N M; [now rewrite app_nil_r|]. cbn [In] in N, M. rewrite adj_sep by auto.
  assert (~ adj b) by (intros (x & y & ->); apply M; right; rewrite in_app_iff; right; now left). tauto.
Qed.
Lemma att_line_adj s : att_line s <-> In 37%N s \/ In 36%N s \/ adj s.
Proof. reflexivity. Qed.

Lemma numeral_digits s v : numeral 10 s v -> Forall ascii_digit s.
Proof. intros K. apply numeral10 in K as (_ & F & _). revert F. apply forallb_Forall. intros c. unfold is_digit, ascii_digit. rewrite andb_true_iff, !N.leb_le. reflexivity. Qed.

(** The text that the code makes from the pieces. *)
Lemma att_pieces ps out : pieces ps -> rust_template ps out -> forall b, run_braces b ps -> (att_line out <-> att_template ps) /\
  (b = true -> (starts (eq 123%N) out <-> exists ds r, ps = PRef ds :: r)).
Proof.
  intros P R. revert P. induction R as [|p ps s out Rp R IH]; intros P b B.
  { split.
    - rewrite att_line_adj. pose proof adj_nil. unfold att_template. cbn [In]. split; [tauto|].
      intros [(w & [])|[[]|(a & ds & q & E)]]. destruct a; discriminate E.
    - intros _. cbn. split; [tauto|]. intros (ds & r & E). discriminate E. }
  assert (Cons : att_template (p :: ps) <-> (exists w, p = PReg w) \/ p = PChar 36 \/ (p = PChar 40 /\ exists ds r, ps = PRef ds :: r) \/ att_template ps).
  { unfold att_template. cbn [In]. split.
    - intros [(w & [E|I])|[[E|I]|(a & ds & q & E)]]; eauto 6.
      destruct a as [|p0 a]; injection E as -> ->; [eauto 7|]. do 3 right. right. right. eauto.
    - intros [(w & E)|[E|[(-> & ds & q & ->)|[(w & I)|[I|(a & ds & q & ->)]]]]]; eauto.
      + right. right. now exists [], ds, q.
      + right. right. now exists (p :: a), ds, q. }
  rewrite Cons. rewrite !att_line_adj, !in_app_iff.
  inversion P as [|ds ps' N F S P'|w ps' N F S P'|c ps' C P'|c ps' C C' P']; subst; inversion Rp as [ds' v s' Nu De|w'|c'|c']; subst; cbn [run_braces] in B.
  - specialize (IH P' false B) as [IH _]. rewrite att_line_adj in IH. pose proof (numeral_digits _ _ (proj1 De)) as Fd.
    assert (O : forall c, ~ ascii_digit c -> c <> 123%N -> c <> 125%N -> ~ In c ([123%N] ++ s' ++ [125%N])).
    { intros c A B1 B2. rewrite !in_app_iff. cbn. rewrite Forall_forall in Fd. intros [[K|[]]|[K|[K|[]]]]; try congruence. apply A, Fd, K. }
    assert (O1 : ~ In 37%N ([123%N] ++ s' ++ [125%N])) by (apply O; unfold ascii_digit; lia).
    assert (O2 : ~ In 36%N ([123%N] ++ s' ++ [125%N])) by (apply O; unfold ascii_digit; lia).
    assert (O3 : ~ In 40%N ([123%N] ++ s' ++ [125%N])) by (apply O; unfold ascii_digit; lia).
    rewrite adj_front by exact O3. split.
    + split; [tauto|]. intros [(w & K)|[K|[(K & _)|K]]]; try discriminate K. tauto.
    + intros _. cbn. split; [eauto|reflexivity].
  - split.
    + split; [eauto|]. intros _. left. left. now left.
    + intros _. cbn. split; [discriminate|]. intros (ds & r & E). discriminate E.
  - destruct B as [-> B]. specialize (IH P' false B) as [IH _]. rewrite att_line_adj in IH.
    assert (O : forall d, d <> 123%N -> d <> 125%N -> ~ In d [c; c]) by (intros d D1 D2 K; destruct C as [-> | ->]; cbn in K; intuition congruence).
    rewrite adj_front by (apply O; discriminate). pose proof (O 37%N ltac:(discriminate) ltac:(discriminate)). pose proof (O 36%N ltac:(discriminate) ltac:(discriminate)).
    split; [|discriminate]. split; [tauto|]. intros [(w & K)|[K|[(K & _)|K]]]; try discriminate K. tauto.
  - specialize (IH P' true B) as [IH St]. specialize (St eq_refl). rewrite att_line_adj in IH. cbn [app]. rewrite adj_cons, St. cbn [In].
    unfold percent in C. split.
    + split.
      * intros [[[K|[]]|K]|[[[K|[]]|K]|[[K1 K2]|K]]]; subst; try tauto.
      * intros [(w & K)|[K|[(K & K2)|K]]]; try discriminate K; [injection K as ->; tauto|injection K as ->; tauto|tauto].
    + intros _. cbn. split; [intros <-; destruct C'; now left|]. intros (ds & r & E). discriminate E.
Qed.

(** Splitting into lines and trimming keeps what matters. *)
Lemma att_joined raw : (exists l, In l raw /\ att_line l) <-> att_line (join_lines raw).
Proof.
  induction raw as [|x raw IH].
  - cbn. split; [intros (l & [] & _)|]. intros K. apply att_line_adj in K as [[]|[[]|K]]. now apply adj_nil in K.
  - destruct raw as [|y raw].
    + cbn. split; [intros (l & [<-|[]] & K); exact K|]. intros K. exists x. auto.
    + change (join_lines (x :: y :: raw)) with (x ++ newline :: join_lines (y :: raw)).
      rewrite att_line_adj, !in_app_iff, adj_sep by discriminate. cbn [In].
      assert (K : (exists l, In l (x :: y :: raw) /\ att_line l) <-> att_line x \/ exists l, In l (y :: raw) /\ att_line l).
      { split; [intros (l & [<-|I] & K); eauto|]. intros [K|(l & I & K)]; [exists x|exists l]; split; auto; [now left|now right]. }
      change ((exists l, In l (x :: y :: raw) /\ att_line l) <-> (In 37%N x \/ newline = 37%N \/ In 37%N (join_lines (y :: raw))) \/
        (In 36%N x \/ newline = 36%N \/ In 36%N (join_lines (y :: raw))) \/ (adj x \/ adj (join_lines (y :: raw)))).
      rewrite K, IH, !att_line_adj. unfold newline. intuition discriminate.
Qed.
Lemma att_trimmed x s : trimmed x s -> (att_line s <-> att_line x).
Proof.
  intros (a & b & -> & A & B & _). 
  assert (O : forall c l, Forall white l -> is_white c = false -> ~ In c l).
  { intros c l F W I. rewrite Forall_forall in F. specialize (F _ I). unfold white in F. congruence. }
  rewrite !att_line_adj, !in_app_iff, adj_front by (apply O; trivial; reflexivity). rewrite adj_back by (apply O; trivial; reflexivity).
  pose proof (O 37%N a A eq_refl). pose proof (O 37%N b B eq_refl). pose proof (O 36%N a A eq_refl). pose proof (O 36%N b B eq_refl). tauto.
Qed.
Lemma att_lines out l : trimmed_lines out l -> ((exists x, In x l /\ att_line x) <-> att_line out).
Proof.
  intros (raw & -> & _ & _ & F). rewrite <- att_joined. clear - F. induction F as [|x s raw l T F IH].
  - split; intros (x & [] & _).
  - pose proof (att_trimmed _ _ T) as K. split.
    + intros (z & [<-|I] & Z); [exists x; split; [now left|now apply K]|]. destruct (proj1 IH (ex_intro _ z (conj I Z))) as (u & Iu & U).
      exists u. split; [now right|exact U].
    + intros (z & [<-|I] & Z); [exists s; split; [now left|now apply K]|]. destruct (proj2 IH (ex_intro _ z (conj I Z))) as (u & Iu & U).
      exists u. split; [now right|exact U].
Qed.

(** C85, for the template that the macro was written with: some line of what is
    made from it counts as AT&T exactly if the template names a register, has a
    $, or has an operand right after a parenthesis. *)
Theorem C85_template_partial ps l : pieces ps -> small_refs ps -> run_braces false ps -> parse_template (text ps) = Some l ->
  ((exists x, In x l /\ att_line x) <-> att_template ps).
Proof.
  intros P SR RB E. destruct (C48_template_partial _ _ E) as (ps' & P' & T & _ & K).
  apply (pieces_unique ps) in T; [|exact P|exact P']. subst ps'. destruct (K RB) as (out & R & L).
  rewrite (att_lines _ _ L). exact (proj1 (att_pieces _ _ P R false RB)).
Qed.

(** Refuted: GCC reads every template in AT&T syntax, but [movl %1, %0] is
    generated without the option; the operands change places. *)
Theorem C85_att_refuted : exists a ts args opts,
  parse_template (st "movl %1, %0") = Some (asm_template a) /\
  @asm_toks demo_unicode cx_unit lctx_new a = Some ts /\ ts = asm_call cx_unit "asm" args /\
  In [RId (st "options"); RGroup DParen (sep_by (RPunct (st ",")) opts)] args /\ ~ In [RId (st "att_syntax")] opts.
Proof.
  exists (mk_asm [st "movl {1}, {0}"] [(DOut, RcReg, EVar (IPlain (st "x")))] [(RcReg, EVar (IPlain (st "y")))] []).
  eexists. exists [[RLit (RlStr (st "movl {1}, {0}"))]; [RId (st "out"); RGroup DParen [RId (st "reg")]; RId (st "x")];
    [RId (st "in"); RGroup DParen [RId (st "reg")]; RId (st "y")];
    [RId (st "options"); RGroup DParen (sep_by (RPunct (st ",")) [[RId (st "nomem")]; [RId (st "preserves_flags")]])]],
    [[RId (st "nomem")]; [RId (st "preserves_flags")]].
  split; [vm_compute; reflexivity|]. split; [vm_compute; reflexivity|]. split; [vm_compute; reflexivity|].
  split; [cbn; tauto|]. intros [K|[K|[]]]; discriminate K.
Qed.

(** The option is there for [movl $1, (%0)]. *)
Example C85_case : exists l, parse_template (st "movl $1, (%0)") = Some l /\
  @asm_toks demo_unicode cx_unit lctx_new (mk_asm l [] [(RcReg, EVar (IPlain (st "p")))] [st "memory"]) =
  Some (asm_call cx_unit "asm" [[RLit (RlStr (st "movl $1, ({0})"))]; [RId (st "in"); RGroup DParen [RId (st "reg")]; RId (st "p")];
    [RId (st "options"); RGroup DParen (sep_by (RPunct (st ",")) [[RId (st "att_syntax")]; [RId (st "preserves_flags")]])]]).
Proof. eexists. split; vm_compute; reflexivity. Qed.
Definition plain_chars (s : string) := map PChar (st s).
Example C85_template_case : let ps := plain_chars "movl $1, (" ++ [PRef (st "0"); PChar 41] in
  pieces ps /\ small_refs ps /\ run_braces false ps /\ att_template ps.
Proof.
  split.
  { cbn. repeat (apply ps_char; [discriminate|intros [K|K]; discriminate K|]).
    apply ps_ref; [discriminate|constructor; [unfold ascii_digit; lia|constructor]|cbn; unfold ascii_digit; lia|].
    apply ps_char; [discriminate|intros [K|K]; discriminate K|]. apply ps_nil. }
  split; [|split; [cbn; tauto|]].
  - intros ds v Hi Hn. cbn in Hi. repeat (destruct Hi as [Hi|Hi]; [try discriminate Hi|]); [|destruct Hi].
    injection Hi as <-. apply numeral10 in Hn as (_ & _ & ->). reflexivity.
  - right. left. cbn. tauto.
Qed.

Print Assumptions C85_syntax.
Print Assumptions C85_template_partial.
Print Assumptions C85_att_refuted.
Print Assumptions C86_call.
Print Assumptions C86_global_refuted.
