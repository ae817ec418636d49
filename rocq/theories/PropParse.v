(** C34: parsing terminates and an accepted body is consumed entirely.
    C47: parameter lists.  C44: qualifiers. *)
From Verif Require Import Base Utf Lex LexFloat Token Ast Nom NomFacts ParseTok ParseExpr ParseStmt ParseFacts SpecParams StrFacts.
From Coq Require Import String List Lia PeanoNat Bool.
Import ListNotations.
Local Open Scope string_scope.
Local Open Scope list_scope.

Section Prop_.
Context `{Unicode}.

(** ** C34 *)

(** Every call of the parsers returns: the depth of their recursion is bounded
    by the fuel of the model, which is linear in the number of tokens. *)
Theorem C34_fn_macro name args body :
  (exists m, fn_macro_parse name args body = ROk m) \/ (exists e, fn_macro_parse name args body = RErr e).
Proof.
  destruct (fn_macro_parse_total name args body) as [Hf Hp].
  destruct (fn_macro_parse name args body); eauto; congruence.
Qed.
Theorem C34_var_macro name body :
  (exists m, var_macro_parse name body = ROk m) \/ (exists e, var_macro_parse name body = RErr e).
Proof.
  destruct (var_macro_parse_total name body) as [Hf Hp].
  destruct (var_macro_parse name body); eauto; congruence.
Qed.
(** An accepted body leaves no token unread. *)
Theorem C34_all_consumed body rest b : macro_body_parse body = POk rest b -> rest = [].
Proof. apply macro_body_all. Qed.

(** ** C47 *)

Lemma meta_filter ts : exists cs r, meta ts = POk r cs /\ filter no_comment r = filter no_comment ts /\
  match r with MComment _ :: _ => False | _ => True end /\ suffix r ts.
Proof.
  unfold meta, many0, fold_many0.
  enough (G : forall n acc ts, length ts < n -> exists cs r, fold_many0_n n comment (fun acc x => acc ++ [x]) acc ts = POk r cs /\
    filter no_comment r = filter no_comment ts /\ match r with MComment _ :: _ => False | _ => True end /\ suffix r ts) by (apply G; lia).
  clear ts. induction n as [|n IH]; intros acc ts Hn; [lia|]. simpl.
  destruct ts as [|t ts]; [eexists _, _; repeat split; apply suffix_refl|].
  destruct t as [i|id|s|l|p|c]; simpl; try (eexists _, _; repeat split; apply suffix_refl).
  destruct (Nat.eqb_spec (length ts) (S (length ts))); [lia|].
  destruct (IH (acc ++ [c]) ts) as (cs & r & E & Hf & Hr & Hs); [simpl in Hn; lia|].
  exists cs, r. rewrite E. repeat split; auto. eapply suffix_trans; [exact Hs|]. now exists [MComment c].
Qed.

Lemma ids_fold n : forall acc ts, length ts < n -> exists ids r,
  fold_many0_n n (preceded meta macro_id) (fun acc i => acc ++ [i]) acc ts = POk r (acc ++ ids) /\
  filter no_comment ts = map MIdent ids ++ filter no_comment r /\
  (forall id l, filter no_comment r <> MIdent id :: l).
Proof.
  induction n as [|n IH]; intros acc ts Hn; [lia|]. simpl.
  unfold preceded at 1, pbind. destruct (meta_filter ts) as (cs & r & -> & Hf & Hr & Hs).
  destruct r as [|t r].
  - simpl. exists [], ts. rewrite app_nil_r. repeat split; auto. intros id l E. rewrite <- Hf in E. discriminate.
  - destruct t as [i|id|s|l|p|c]; simpl;
      try (exists [], ts; rewrite app_nil_r; repeat split; auto; intros id' l'; rewrite <- Hf; discriminate).
    + destruct (Nat.eqb_spec (length r) (length ts)) as [E|E]; [apply suffix_length in Hs; simpl in Hs; lia|].
      destruct (IH (acc ++ [id]) r) as (ids & r2 & E2 & Hf2 & Hr2); [apply suffix_length in Hs; simpl in Hs; lia|].
      exists (id :: ids), r2. rewrite E2, <- app_assoc. repeat split; auto. rewrite <- Hf. simpl. now rewrite Hf2.
Qed.

Lemma meta_nil_iff ts cs : meta ts = POk [] cs -> filter no_comment ts = [].
Proof. destruct (meta_filter ts) as (cs' & r & E & Hf & _). rewrite E. intros E2. injection E2 as -> ->. now rewrite <- Hf. Qed.

Lemma punct_inv p ts r a : punct p ts = POk r a -> ts = MPunct (st p) :: r /\ a = st p.
Proof.
  destruct ts as [|[i|id|s|l|q|c] ts]; unfold punct, pmap_opt, pbind; simpl; try discriminate.
  destruct (str_eqb (st p) q) eqn:E; [|discriminate]. apply str_eqb_eq in E as <-.
  intros E. now injection E as -> <-.
Qed.
Lemma punct_hit p ts : punct p (MPunct (st p) :: ts) = POk ts (st p).
Proof. unfold punct, pmap_opt, pbind. simpl. now rewrite (proj2 (str_eqb_eq _ _) eq_refl). Qed.

Definition args_first : parser (list str) := pmap (fun v => [v]) (preceded meta (punct "...")).
Definition args_second : parser (list str) :=
  a <~ fold_many0 (preceded meta macro_id) (fun acc i => acc ++ [i]) [] ;;
  v <~ preceded meta (popt (punct "...")) ;;
  pret (a ++ match v with Some v => [v] | None => [] end).

Lemma args_second_spec ts : exists ids dots r, args_second ts = POk r (ids ++ (if dots : bool then [st "..."] else [])) /\
  filter no_comment ts = map MIdent ids ++ (if dots then [MPunct (st "...")] else []) ++ filter no_comment r /\
  (dots = false -> forall t l, filter no_comment r = t :: l -> t <> MPunct (st "...") /\ forall i, t <> MIdent i).
Proof.
  unfold args_second, pbind, fold_many0, preceded, pbind.
  destruct (ids_fold (S (length ts)) [] ts (Nat.lt_succ_diag_r _)) as (ids & r & E & Hf & Hr).
  unfold preceded, pbind in E. rewrite E. simpl app.
  destruct (meta_filter r) as (cs & r2 & -> & Hf2 & Hr2 & _).
  unfold popt. destruct (punct "..." r2) as [r3 v| |] eqn:Ep.
  - apply punct_inv in Ep as [-> ->]. exists ids, true, r3. split; [reflexivity|split; [|discriminate]].
    rewrite Hf, <- Hf2. reflexivity.
  - exists ids, false, r2. split; [reflexivity|split; [now rewrite Hf, <- Hf2|]].
    intros _ t l Ht. split.
    + intros ->. destruct r2 as [|[i|id|s|l'|q|c] r2]; simpl in Ht; try discriminate; try contradiction.
      injection Ht as -> <-. rewrite punct_hit in Ep. discriminate.
    + intros i ->. rewrite Hf2 in Ht. now apply (Hr i l).
  - exfalso. apply (tot_punct (length r2) "..." r2 (le_n _) Ep).
Qed.

(** The parameter parser accepts exactly the parameter lists and returns their
    names in order. *)
Theorem C47_params ts names : parse_args ts = POk [] names <-> is_params ts names.
Proof.
  unfold parse_args. fold args_first args_second. unfold pall_consuming, terminated, palt, pbind, pret.
  assert (Hfirst : args_first ts = PErr \/ exists r, args_first ts = POk r [st "..."] /\ filter no_comment ts = MPunct (st "...") :: filter no_comment r).
  { unfold args_first, pmap, preceded, pbind. destruct (meta_filter ts) as (cs & r & -> & Hf & Hr & _).
    destruct (punct "..." r) as [r2 v| |] eqn:E; auto.
    - apply punct_inv in E as [-> ->]. right. exists r2. split; auto.
    - exfalso. apply (tot_punct (length r) "..." r (le_n _) E). }
  assert (Hend : forall r, exists r2 cs, meta r = POk r2 cs /\ (peof r2 = POk [] tt /\ filter no_comment r = [] /\ r2 = [] \/ peof r2 = PErr /\ filter no_comment r <> [])).
  { intros r. destruct (meta_filter r) as (cs & r2 & -> & Hf & Hr & _). exists r2, cs. split; auto.
    destruct r2 as [|t r2]; [left; simpl; auto|right]. split; auto. rewrite <- Hf. simpl.
    destruct t; simpl; try discriminate. destruct Hr. }
  destruct Hfirst as [E|(r & E & Hf)]; rewrite E.
  - destruct (args_second_spec ts) as (ids & dots & r & -> & Hf & Hstop).
    destruct (Hend r) as (r2 & cs & -> & [(-> & Hn & ->)|(-> & Hn)]).
    + split.
      * intros E2. injection E2 as <-. exists ids, dots. split; auto. rewrite Hf, Hn, app_nil_r. reflexivity.
      * intros (ids' & dots' & Hf' & ->). rewrite Hf, Hn, app_nil_r in Hf'.
        assert (ids = ids' /\ dots = dots') as [-> ->]; [|reflexivity].
        clear - Hf'. revert ids' Hf'. induction ids as [|i ids IH]; intros [|j ids'] Hf'; simpl in *.
        -- split; auto. destruct dots, dots'; auto; discriminate.
        -- exfalso. destruct dots; discriminate.
        -- exfalso. destruct dots'; discriminate.
        -- injection Hf' as -> Hf'. apply IH in Hf'. destruct Hf' as [-> ->]. auto.
    + split; [discriminate|]. intros (ids' & dots' & Hf' & ->). exfalso. apply Hn. clear Hn.
      rewrite Hf in Hf'. clear - Hf' Hstop. revert ids' Hf'. induction ids as [|i ids IH]; intros [|j ids'] Hf'; simpl in *.
      * destruct dots; simpl in *.
        -- destruct dots'; [now injection Hf'|discriminate].
        -- destruct dots'; auto. exfalso. destruct (Hstop eq_refl _ _ Hf') as [G _]. now apply G.
      * exfalso. destruct dots; simpl in *; [discriminate|]. destruct (Hstop eq_refl _ _ Hf') as [_ G]. exact (G j eq_refl).
      * exfalso. destruct dots'; discriminate.
      * injection Hf' as -> Hf'. eauto.
  - destruct (Hend r) as (r2 & cs & -> & [(-> & Hn & ->)|(-> & Hn)]).
    + split.
      * intros E2. injection E2 as <-. exists [], true. split; auto. rewrite Hf, Hn. reflexivity.
      * intros (ids' & dots' & Hf' & ->). rewrite Hf, Hn in Hf'. destruct ids' as [|]; [|discriminate].
        destruct dots'; [reflexivity|discriminate].
    + split; [discriminate|]. intros (ids' & dots' & Hf' & ->). exfalso. apply Hn. rewrite Hf in Hf'.
      destruct ids' as [|]; [|discriminate]. destruct dots'; [now injection Hf'|discriminate].
Qed.

(** At the level of the API: with a valid name, [FnMacro::parse] complains about
    the parameters exactly when they are not a parameter list, and otherwise the
    macro has those parameters. *)
Theorem C47_fn_macro name args body :
  is_identifier name = true ->
  (fn_macro_parse name args body = RErr InvalidMacroArgs <-> forall names, ~ is_params args names) /\
  (forall m, fn_macro_parse name args body = ROk m -> is_params args (fm_args m)).
Proof.
  intros Hn. unfold fn_macro_parse. rewrite Hn. simpl.
  assert (Hr : forall r a, parse_args args = POk r a -> r = []).
  { intros r a. unfold parse_args, pall_consuming, pbind, pret, peof.
    destruct (terminated _ _ args) as [[|] x| |]; try discriminate. intros E. now injection E as <- _. }
  pose proof (parse_args_total args) as Ht.
  destruct (parse_args args) as [r a| |] eqn:E; [|split|congruence].
  - specialize (Hr _ _ eq_refl) as ->. apply C47_params in E. split.
    + split; [destruct (macro_body_parse body); discriminate|]. intros Hc. destruct (Hc a E).
    + intros m. destruct (macro_body_parse body); try discriminate. intros Em. injection Em as <-. exact E.
  - split; auto. intros _ names Hp. apply C47_params in Hp. congruence.
  - discriminate.
Qed.

(** ** C44 *)

(** The full statement is: for every type and all qualifiers [q1], [q2], the
    twice qualified type is [const] (resp. volatile) iff [q1] or [q2] is.  It is
    proved except for [q1 = q2 = volatile], where it is false (see below). *)
Theorem C44_accumulate_partial t q1 q2 : (q1, q2) <> (QVolatile, QVolatile) ->
  (forall t0 q, t <> TyQual t0 q) ->
  exists q, ty_qualify (ty_qualify t q1) q2 = TyQual t q /\
    q_is_const q = q_is_const q1 || q_is_const q2 /\ q_is_volatile q = q_is_volatile q1 || q_is_volatile q2.
Proof.
  intros Hq Ht. destruct t as [b|n s|lc l|t|t q]; try (destruct (Ht t q eq_refl));
  (eexists; split; [reflexivity|]); destruct q1, q2; try (split; reflexivity); exfalso; apply Hq; reflexivity.
Qed.
(** Duplicated [volatile] turns into [const]: [volatile int volatile]. *)
Theorem C44_volatile_refuted :
  type_parse [MIdent (st "volatile"); MIdent (st "int"); MIdent (st "volatile")] = POk [] (TyQual (TyBuiltIn BInt) QConst).
Proof. vm_compute. reflexivity. Qed.

End Prop_.

(** Cases that meet the hypotheses. *)
Example C34_ex :
  @macro_body_parse demo_unicode [MIdent (st "do"); MPunct (st "{"); MIdent (st "x"); MPunct (st "++"); MPunct (st ";");
    MPunct (st "}"); MIdent (st "while"); MPunct (st "("); MLit (LInt (mk_int 0 None)); MPunct (st ")")] =
  POk [] (MbStatement (SDoWhile [SExpr (EUnary UPostInc (EVar (IPlain (st "x"))))] (ELit (LInt (mk_int 0 None))))).
Proof. vm_compute. reflexivity. Qed.
Example C47_ex :
  is_params [MIdent (st "a"); MComment (st "/* x */"); MIdent (st "b"); MPunct (st "..."); MComment (st "/* y */")]
    [st "a"; st "b"; st "..."] /\
  parse_args [MIdent (st "a"); MPunct (st "..."); MIdent (st "b")] = PErr.
Proof. split; [exists [st "a"; st "b"], true; split; reflexivity|vm_compute; reflexivity]. Qed.
Example C44_ex : (QVolatile, QConst) <> (QVolatile, QVolatile) /\
  ty_qualify (ty_qualify (TyPtr (TyBuiltIn BInt)) QVolatile) QConst = TyQual (TyPtr (TyBuiltIn BInt)) QConstVolatile.
Proof. split; [discriminate|reflexivity]. Qed.

Print Assumptions C34_fn_macro.
Print Assumptions C34_var_macro.
Print Assumptions C34_all_consumed.
Print Assumptions C47_params.
Print Assumptions C47_fn_macro.
Print Assumptions C44_accumulate_partial.
Print Assumptions C44_volatile_refuted.
