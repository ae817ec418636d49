(** C87: the references of a template to its operands. *)
From Verif Require Import Base Utf Lex LexFloat Token Ast ParseStmt Rust Finish Codegen StrFacts SpecAsm PropAsmOps.
From Coq Require Import String List ZArith Lia.
Import ListNotations.
Local Open Scope string_scope.
Local Open Scope list_scope.

(** The operands of an assembly statement as GCC counts them from 0: the outputs,
    then the inputs. *)
Definition gcc_operands (a : asm_stmt) : list expr := map snd (asm_outputs a) ++ map snd (asm_inputs a).

Lemma Forall2_len {A B} (R : A -> B -> Prop) l l' : Forall2 R l l' -> length l = length l'.
Proof. induction 1; cbn; congruence. Qed.

Section References.
Context {U : Unicode}.
Variables (cx : cgctx) (c : lctx).

(** An operand of [asm!], which counts the operands from 0 too, for an
    expression. *)
Definition operand_for (e : expr) (arg : list rtok) : Prop :=
  exists x d r, etoks cx c e = Some x /\ In d ["out"; "inout"; "in"] /\ arg = RId (st d) :: RGroup DParen [reg_class r] :: x.
(** What does not count: clobbers, [clobber_abi] and options. *)
Definition uncounted (arg : list rtok) : Prop :=
  (exists s, arg = clobber_toks s) \/ (exists g, arg = [RId (st "clobber_abi"); g]) \/ (exists g, arg = [RId (st "options"); g]).

Lemma outputs_for outs ins oargs : forall i, Forall2 (output_toks cx c) (merged_outputs i outs ins) oargs -> Forall2 operand_for (map snd outs) oargs.
Proof.
  revert oargs. induction outs as [|[[d r] e] outs IH]; intros oargs i F; cbn [merged_outputs map snd] in *; inversion F as [|? ? ? l' O F']; subst; constructor.
  - destruct O as (x & X & ->). destruct (existsb _ ins); [exists x, "inout", r|exists x, (match d with DOut => "out" | DInOut => "inout" end), r];
      (split; [exact X|]); try destruct d; cbn; auto.
  - eapply IH, F'.
Qed.
Lemma inputs_for ins iargs : Forall2 (input_toks cx c) ins iargs -> Forall2 operand_for (map snd ins) iargs.
Proof.
  induction 1 as [|[r e] arg ins iargs (x & X & ->) F IH]; constructor; [|exact IH]. exists x, "in", r. split; [exact X|]. split; [cbn; tauto|reflexivity].
Qed.

(** Without inputs that name an output nothing is merged. *)
Lemma tie_plain n cs : Forall (fun r => matching n r = false) cs -> forall outs ins, length outs = n -> asm_tie cs outs ins = Some (outs, ins).
Proof.
  induction 1 as [|r cs M F IH]; intros outs ins L; [reflexivity|]. cbn [asm_tie]. destruct r as [| | | |d]; try now apply IH.
  cbn [matching] in M. apply Nat.ltb_ge in M. destruct (nth_error outs (N.to_nat d)) as [[[? ?] ?]|] eqn:E; [|now apply IH].
  exfalso. assert (X : nth_error outs (N.to_nat d) <> None) by congruence. apply nth_error_Some in X. lia.
Qed.

Lemma structure a ts : asm_toks cx c a = Some ts ->
  exists name ins oargs iargs rest outs, ts = asm_call cx name (map (fun s => [RLit (RlStr s)]) (asm_template a) ++ oargs ++ iargs ++ rest) /\
    asm_tie (map fst (asm_inputs a)) (asm_outputs a) (asm_inputs a) = Some (outs, ins) /\
    Forall2 operand_for (map snd (asm_outputs a)) oargs /\ Forall2 operand_for (map snd ins) iargs /\ Forall uncounted rest.
Proof.
  intros E. destruct (asm_structure _ _ _ _ E) as (outs & ins & oargs & iargs & T & Fo & Fi & S). cbv zeta in S.
  do 6 eexists. split; [exact S|]. split; [exact T|]. rewrite (tie_merged _ _ _ T) in Fo. split; [eapply outputs_for, Fo|]. split; [now apply inputs_for|].
  rewrite !Forall_app. split; [|split].
  - apply Forall_forall. intros x I. apply in_map_iff in I as (s & <- & _). left. now exists s.
  - destruct (asm_global a); [constructor|]. destruct (str_remove _ _); constructor; [|constructor]. right. left. now eexists.
  - match goal with |- Forall _ (match ?o with _ => _ end) => destruct o end; constructor; [|constructor]. right. right. now eexists.
Qed.

(** C87, if no input names an output: the operands of the call are the operands
    of the statement, in the order in which GCC counts them. *)
Theorem C87_operands_partial a ts : asm_toks cx c a = Some ts ->
  (forall r e, In (r, e) (asm_inputs a) -> matching (length (asm_outputs a)) r = false) ->
  exists name operands rest, ts = asm_call cx name (map (fun s => [RLit (RlStr s)]) (asm_template a) ++ operands ++ rest) /\
    Forall2 operand_for (gcc_operands a) operands /\ Forall uncounted rest.
Proof.
  intros E M. destruct (structure _ _ E) as (name & ins & oargs & iargs & rest & outs & -> & T & Fo & Fi & R).
  rewrite (tie_plain (length (asm_outputs a))) in T; [|apply Forall_forall; intros r I; apply in_map_iff in I as ([r' e] & <- & I); eapply M, I|reflexivity].
  injection T as <- <-. exists name, (oargs ++ iargs), rest. split; [now rewrite <- app_assoc|]. split; [|exact R].
  unfold gcc_operands. now apply Forall2_app.
Qed.

(** Always: the references to the outputs are right. *)
Theorem C87_outputs_partial a ts : asm_toks cx c a = Some ts ->
  exists name operands rest, ts = asm_call cx name (map (fun s => [RLit (RlStr s)]) (asm_template a) ++ operands ++ rest) /\
    Forall uncounted rest /\
    forall n e, (n < length (asm_outputs a))%nat -> nth_error (gcc_operands a) n = Some e ->
      exists arg, nth_error operands n = Some arg /\ operand_for e arg.
Proof.
  intros E. destruct (structure _ _ E) as (name & ins & oargs & iargs & rest & outs & -> & T & Fo & Fi & R).
  exists name, (oargs ++ iargs), rest. split; [now rewrite <- app_assoc|]. split; [exact R|]. intros n e L N.
  unfold gcc_operands in N. rewrite nth_error_app1 in N by now rewrite map_length.
  rewrite nth_error_app1 by (rewrite <- (Forall2_len _ _ _ Fo), map_length; exact L).
  clear - Fo N. revert n N. induction Fo as [|x arg l l' O F IH]; intros [|n] N; cbn in N; try discriminate.
  - injection N as <-. now exists arg.
  - apply IH, N.
Qed.

(** Where an input goes if inputs are merged (as in C50): in front of it are the
    outputs and the inputs before it that are not merged.  So the reference to it
    is right exactly if none of the inputs before it is merged. *)
Theorem C87_inputs a ts x r e y : asm_toks cx c a = Some ts -> aligned (length (asm_outputs a)) (asm_inputs a) ->
  asm_inputs a = x ++ (r, e) :: y -> matching (length (asm_outputs a)) r = false ->
  exists name operands rest arg, ts = asm_call cx name (map (fun s => [RLit (RlStr s)]) (asm_template a) ++ operands ++ rest) /\
    Forall uncounted rest /\ operand_for e arg /\
    nth_error operands (length (asm_outputs a) + length (other_inputs (length (asm_outputs a)) x)) = Some arg.
Proof.
  intros E A I M. destruct (structure _ _ E) as (name & ins & oargs & iargs & rest & outs & -> & T & Fo & Fi & R).
  destruct (tie_aligned _ (asm_inputs a) [] (asm_outputs a) eq_refl A) as [outs' T']. 
  change (asm_tie (map fst (asm_inputs a)) (asm_outputs a) (asm_inputs a) = Some (outs', other_inputs (length (asm_outputs a)) (asm_inputs a))) in T'.
  rewrite T in T'. injection T' as <- ->. set (n := length (asm_outputs a)) in *.
  assert (O : other_inputs n (asm_inputs a) = other_inputs n x ++ (r, e) :: other_inputs n y).
  { rewrite I, other_app. f_equal. unfold other_inputs. cbn [filter fst]. rewrite M. reflexivity. }
  rewrite O, map_app in Fi. apply Forall2_app_inv_l in Fi as (i1 & i2 & F1 & F2 & ->). inversion F2 as [|? arg ? i3 Oa F3]; subst.
  exists name, (oargs ++ i1 ++ arg :: i3), rest, arg. split; [now rewrite <- !app_assoc|]. split; [exact R|]. split; [exact Oa|].
  pose proof (Forall2_len _ _ _ Fo) as L1. pose proof (Forall2_len _ _ _ F1) as L2. rewrite map_length in L1, L2.
  rewrite nth_error_app2 by (fold n in L1; lia). fold n in L1. rewrite L2, <- L1.
  replace (n + length i1 - n)%nat with (length i1) by lia. rewrite nth_error_app2 by lia. now rewrite Nat.sub_diag.
Qed.
End References.

(** Refuted: in [__asm__ volatile ("add %2, %0" : "=r" (x) : "0" (x), "r" (y))]
    the reference %2 means y, but the call has no operand 2. *)
Definition shifted_body : list mtoken :=
  let s t := MLit (LString (SOrdinary (st t))) in let p t := MPunct (st t) in
  [MIdent (st "__asm__"); MIdent (st "volatile"); p "("; s "add %2, %0"; p ":"; s "=r"; p "("; MArg 0; p ")";
   p ":"; s "0"; p "("; MArg 0; p ")"; p ","; s "r"; p "("; MArg 1; p ")"; p ")"].
Definition shifted_context : lctx := mk_lctx [st "x"; st "y"] [AUnknown; AUnknown] true true true false.
Theorem C87_shift_refuted : exists m a ts operands rest,
  @fn_macro_parse demo_unicode (st "F") [MIdent (st "x"); MIdent (st "y")] shifted_body = ROk m /\ fm_body m = MbStatement (SAsm a) /\
  asm_template a = [st "add {2}, {0}"] /\ nth_error (gcc_operands a) 2 = Some (EVar (IArg 1)) /\
  @asm_toks demo_unicode cx_unit shifted_context a = Some ts /\
  ts = asm_call cx_unit "asm" (map (fun s => [RLit (RlStr s)]) (asm_template a) ++ operands ++ rest) /\
  Forall uncounted rest /\ nth_error operands 2 = None.
Proof.
  do 3 eexists. exists [[RId (st "inout"); RGroup DParen [RId (st "reg")]; RPunct (st "$"); RId (st "x")];
    [RId (st "in"); RGroup DParen [RId (st "reg")]; RPunct (st "$"); RId (st "y")]].
  exists [[RId (st "options"); RGroup DParen (sep_by (RPunct (st ",")) [[RId (st "nomem")]; [RId (st "preserves_flags")]])]].
  split; [vm_compute; reflexivity|]. split; [reflexivity|]. split; [reflexivity|]. split; [reflexivity|]. split; [vm_compute; reflexivity|].
  split; [vm_compute; reflexivity|]. split; [|reflexivity]. constructor; [|constructor]. right. right. now eexists.
Qed.

(** Not vacuous. *)
Example C87_case : exists ts, @asm_toks demo_unicode cx_unit lctx_new
    (mk_asm [st "add {1}, {0}"] [(DInOut, RcReg, opd "x")] [(RcReg, opd "y")] [st "cc"]) = Some ts.
Proof. eexists. vm_compute. reflexivity. Qed.
Example C87_inputs_case : exists ts, @asm_toks demo_unicode cx_unit lctx_new asm_good = Some ts /\
  aligned (length (asm_outputs asm_good)) (asm_inputs asm_good) /\ asm_inputs asm_good = [(RcDigit 0, opd "x")] ++ (RcReg, opd "b") :: [].
Proof. eexists. split; [vm_compute; reflexivity|]. split; [exact C50_aligned_case|reflexivity]. Qed.

Print Assumptions C87_operands_partial.
Print Assumptions C87_outputs_partial.
Print Assumptions C87_inputs.
Print Assumptions C87_shift_refuted.
