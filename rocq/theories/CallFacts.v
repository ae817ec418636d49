(** [collect_args] recognises exactly the argument lists of SpecCall.v. *)
From Verif Require Import Base Utf Lex LexFloat Token MacroSet StrFacts SpecCall.
From Coq Require Import String List Wf_nat.
Local Open Scope list_scope.

Lemma bracket_dec p :
  bracket (TPunct p) <->
  p = st "(" \/ p = st ")" \/ p = st "[" \/ p = st "]" \/ p = st "{" \/ p = st "}".
Proof.
  split.
  - intros [u [Hm|Hm]]; inversion Hm; subst; auto 10.
  - intros [->|[->|[->|[->|[->| ->]]]]]; [exists (TPunct (st ")"))|exists (TPunct (st "("))|
      exists (TPunct (st "]"))|exists (TPunct (st "["))|exists (TPunct (st "}"))|exists (TPunct (st "{"))];
      (left; constructor) || (right; constructor).
Qed.

Lemma not_punct_not_bracket t : (forall p, t <> TPunct p) -> ~ bracket t.
Proof. intros Hn [u [Hm|Hm]]; inversion Hm; subst; eapply Hn; reflexivity. Qed.

(** How one token moves the collector, case by case. *)
Lemma collect_other stack args cur t it :
  ~ bracket t -> (t = comma -> stack <> []) ->
  collect_loop stack args cur (t :: it) = collect_loop stack args (t :: cur) it.
Proof.
  intros Hb Hc. destruct t; try reflexivity. rewrite bracket_dec in Hb. simpl.
  destruct (str_eqb_spec p (st "(")); [intuition|].
  destruct (str_eqb_spec p (st ")")); [intuition|].
  destruct (str_eqb_spec p (st "[")); [intuition|].
  destruct (str_eqb_spec p (st "]")); [intuition|].
  destruct (str_eqb_spec p (st "{")); [intuition|].
  destruct (str_eqb_spec p (st "}")); [intuition|].
  destruct (str_eqb_spec p (st ",")) as [->|]; [|easy].
  destruct stack; [|easy]. now destruct Hc.
Qed.

Definition opener (t : token) : str := match t with TPunct p => p | _ => [] end.

Lemma collect_open stack args cur o c it :
  matching o c -> collect_loop stack args cur (o :: it) = collect_loop (opener o :: stack) args (o :: cur) it.
Proof. now destruct 1. Qed.

Lemma collect_close stack args cur o c it :
  matching o c ->
  collect_loop (opener o :: stack) args cur (c :: it) = collect_loop stack args (c :: cur) it.
Proof. now destruct 1. Qed.

Lemma collect_comma args cur it :
  collect_loop [] args cur (comma :: it) = collect_loop [] (rev cur :: args) [] it.
Proof. reflexivity. Qed.

Lemma collect_end args cur it :
  collect_loop [] args cur (TPunct (st ")") :: it) = Some (rev (rev cur :: args), it).
Proof. reflexivity. Qed.

(** ** Completeness *)
Lemma collect_balanced l : balanced l -> forall q stack args cur it,
  collect_loop (q :: stack) args cur (l ++ it) = collect_loop (q :: stack) args (rev l ++ cur) it.
Proof.
  induction 1 as [|t l Hb Hl IH|o c inner l Hm Hi IHi Hl IHl]; intros q stack args cur it; simpl app.
  - easy.
  - rewrite collect_other by (easy || discriminate). rewrite IH. simpl. now rewrite <- app_assoc.
  - rewrite (collect_open _ _ _ _ _ _ Hm). rewrite <- app_assoc. rewrite IHi. simpl app.
    rewrite (collect_close _ _ _ _ _ _ Hm), IHl. f_equal.
    simpl. rewrite rev_app_distr. simpl. now rewrite <- !app_assoc.
Qed.

Lemma collect_argument l : argument l -> forall args cur it,
  collect_loop [] args cur (l ++ it) = collect_loop [] args (rev l ++ cur) it.
Proof.
  induction 1 as [|t l Hb Hc Hl IH|o c inner l Hm Hi Hl IHl]; intros args cur it; simpl app.
  - easy.
  - rewrite collect_other by (easy || congruence). rewrite IH. simpl. now rewrite <- app_assoc.
  - rewrite (collect_open _ _ _ _ _ _ Hm). rewrite <- app_assoc. rewrite (collect_balanced _ Hi). simpl app.
    rewrite (collect_close _ _ _ _ _ _ Hm), IHl. f_equal.
    simpl. rewrite rev_app_distr. simpl. now rewrite <- !app_assoc.
Qed.

Lemma collect_complete rest args : Forall argument args -> args <> [] -> forall done,
  collect_loop [] done [] (comma_separated args ++ TPunct (st ")") :: rest) = Some (rev done ++ args, rest).
Proof.
  induction 1 as [|a args Ha Hargs IH]; [easy|]. intros _ done.
  destruct args as [|b args].
  - simpl comma_separated. rewrite (collect_argument _ Ha). rewrite app_nil_r.
    rewrite collect_end. now rewrite rev_involutive.
  - change (comma_separated (a :: b :: args)) with (a ++ comma :: comma_separated (b :: args)).
    rewrite <- app_assoc, (collect_argument _ Ha), app_nil_r. simpl app.
    rewrite collect_comma, rev_involutive, IH by discriminate. simpl. now rewrite <- app_assoc.
Qed.

(** ** Soundness *)
Lemma st_inj_cases p : bracket (TPunct p) \/ ~ bracket (TPunct p).
Proof.
  rewrite bracket_dec.
  destruct (str_eq_dec p (st "(")), (str_eq_dec p (st ")")), (str_eq_dec p (st "[")),
    (str_eq_dec p (st "]")), (str_eq_dec p (st "{")), (str_eq_dec p (st "}")); tauto.
Qed.

Lemma token_cases t :
  ~ bracket t \/ (exists c, matching t c) \/ (exists o, matching o t).
Proof.
  destruct t; try (left; apply not_punct_not_bracket; discriminate).
  destruct (st_inj_cases p) as [[u [Hm|Hm]]|Hn]; eauto.
Qed.

(** Closing token where the stack expects another bracket (or none). *)
Lemma collect_close_mismatch q stack args cur o c it :
  matching o c -> q <> opener o -> collect_loop (q :: stack) args cur (c :: it) = None.
Proof.
  intros Hm Hq. destruct Hm; simpl in *.
  all: destruct (str_eqb_spec q (st "(")), (str_eqb_spec q (st "[")), (str_eqb_spec q (st "{"));
    simpl; try reflexivity; congruence.
Qed.

Lemma collect_close_empty args cur o c it :
  matching o c -> c <> TPunct (st ")") -> collect_loop [] args cur (c :: it) = None.
Proof. destruct 1; intros Hc; try reflexivity. congruence. Qed.

Definition stack_ok (stack : list str) : Prop :=
  Forall (fun q => exists o c, matching o c /\ opener o = q) stack.

Lemma collect_sound_group : forall n q stack args cur it R,
  length it < n ->
  collect_loop (q :: stack) args cur it = Some R ->
  exists inner c it', it = inner ++ c :: it' /\ balanced inner /\
    (exists o, matching o c /\ opener o = q) /\
    collect_loop stack args (c :: rev inner ++ cur) it' = Some R.
Proof.
  induction n as [|n IH]; intros q stack args cur it R Hlen Hc; [lia|].
  destruct it as [|t it]; [discriminate|]. simpl in Hlen.
  destruct (token_cases t) as [Hb|[[c Hm]|[o Hm]]].
  - rewrite collect_other in Hc by (easy || discriminate).
    apply IH in Hc; [|lia]. destruct Hc as (inner & c & it' & -> & Hbal & Ho & Hc).
    exists (t :: inner), c, it'. repeat split; auto.
    + now constructor.
    + simpl. now rewrite <- app_assoc.
  - rewrite (collect_open _ _ _ _ _ _ Hm) in Hc.
    apply IH in Hc; [|lia]. destruct Hc as (inner1 & c1 & it1 & -> & Hbal1 & (o1 & Hm1 & Ho1) & Hc).
    rewrite app_length in Hlen. simpl in Hlen.
    apply IH in Hc; [|lia]. destruct Hc as (inner2 & c2 & it2 & -> & Hbal2 & Ho2 & Hc).
    exists (t :: inner1 ++ c1 :: inner2), c2, it2. repeat split; auto.
    + simpl. now rewrite <- app_assoc.
    + assert (Hmt : matching t c1).
      { destruct Hm, Hm1; simpl in Ho1; try constructor; discriminate. }
      now constructor.
    + simpl. rewrite rev_app_distr. simpl. rewrite <- !app_assoc in *. exact Hc.
  - destruct (str_eq_dec q (opener o)) as [->|Hn].
    + rewrite (collect_close _ _ _ _ _ _ Hm) in Hc.
      exists [], t, it. repeat split; eauto. constructor.
    + rewrite (collect_close_mismatch _ _ _ _ _ _ _ Hm Hn) in Hc. discriminate.
Qed.

Lemma collect_sound_top : forall n done cur it R rest,
  length it < n ->
  collect_loop [] done cur it = Some (R, rest) ->
  exists a args, argument a /\ Forall argument args /\
    it = comma_separated (a :: args) ++ TPunct (st ")") :: rest /\
    R = rev done ++ (rev cur ++ a) :: args.
Proof.
  induction n as [|n IH]; intros done cur it R rest Hlen Hc; [lia|].
  destruct it as [|t it]; [discriminate|]. simpl in Hlen.
  destruct (token_cases t) as [Hb|[[c Hm]|[o Hm]]].
  - destruct t as [t0|i0| |p|id0|s0|l0 s0|s0|c0|] eqn:Et.
    4: destruct (str_eq_dec p (st ",")) as [->|Hn].
    4:{ (* comma *)
      change (TPunct (st ",")) with comma in *. rewrite collect_comma in Hc.
      apply IH in Hc; [|lia]. destruct Hc as (a & args & Ha & Hargs & -> & ->).
      exists [], (a :: args). repeat split; auto. { constructor. }
      simpl. rewrite <- app_assoc. simpl. now rewrite app_nil_r. }
    all: rewrite collect_other in Hc by (try exact Hb; unfold comma; congruence);
      apply IH in Hc; [|lia]; destruct Hc as (a & args & Ha & Hargs & -> & ->).
    all: match goal with |- exists _ _, _ /\ _ /\ ?t :: _ = _ /\ _ => exists (t :: a), args end.
    all: repeat split; auto; try (constructor; auto; unfold comma; congruence).
    all: try (destruct args; reflexivity).
    all: simpl; rewrite <- ?app_assoc; reflexivity.
  - rewrite (collect_open _ _ _ _ _ _ Hm) in Hc.
    apply (collect_sound_group (S (length it))) in Hc; [|lia].
    destruct Hc as (inner & c1 & it1 & -> & Hbal & (o1 & Hm1 & Ho1) & Hc).
    rewrite app_length in Hlen. simpl in Hlen.
    apply IH in Hc; [|lia]. destruct Hc as (a & args & Ha & Hargs & -> & ->).
    exists (t :: inner ++ c1 :: a), args. repeat split; auto.
    + assert (Hmt : matching t c1).
      { destruct Hm, Hm1; simpl in Ho1; try constructor; discriminate. }
      now constructor.
    + destruct args; simpl; rewrite <- !app_assoc; simpl; rewrite <- ?app_assoc; reflexivity.
    + f_equal. simpl. rewrite rev_app_distr, rev_involutive. simpl. now rewrite <- !app_assoc.
  - destruct Hm.
    + rewrite collect_end in Hc. inversion Hc; subst. exists [], []. repeat split; auto. constructor.
      simpl. now rewrite app_nil_r.
    + discriminate.
    + discriminate.
Qed.

Lemma collect_args_iff text args rest :
  collect_args text = Some (args, rest) <-> call_text text args rest.
Proof.
  unfold call_text. split.
  - intros Hc. destruct text as [|t text]; [discriminate|]. simpl in Hc.
    destruct t; try discriminate. destruct (str_eqb_spec p (st "(")) as [->|]; [|discriminate].
    apply (collect_sound_top (S (length text))) in Hc; [|lia].
    destruct Hc as (a & more & Ha & Hmore & -> & ->). simpl. repeat split; auto. discriminate.
  - intros (Hne & Hf & ->). simpl. rewrite (collect_complete rest args Hf Hne []). reflexivity.
Qed.
