(** Texts without mistakes are expanded without an error. *)
From Verif Require Import Base Utf Lex LexFloat Token MacroSet StrFacts LexFacts ExpandFacts ExpandInv TokenFacts
  SpecPaste PasteFacts SpecRescan ObjFacts SpecSet SetFacts SpecCall CallFacts SelfFacts SpecTokens ParamFacts SpecExpand FullFacts
  PropObject PropExpand SpecComplete CompleteFacts PropComplete SpecStringify StringifyFacts SpecCpp CppFacts SpecProper.
From Coq Require Import String List.
Local Open Scope list_scope.

Notation lp := (TPunct (st "(")).
Notation rp_ := (TPunct (st ")")).

(** ** Proper texts *)
Section P.
Variable takes : str -> nat -> bool -> Prop.
Notation P := (proper takes).

Lemma proper_app v l1 l2 : P v l1 -> P v l2 -> P v (l1 ++ l2).
Proof.
  intros Hp1. revert l2. induction Hp1; intros l2 Hp2; cbn [app]; auto.
  - apply pr_token; auto.
  - apply pr_comma; auto.
  - apply pr_rest; auto.
  - apply pr_string; auto.
  - rewrite <- app_assoc. cbn [app]. apply pr_group; auto.
  - rewrite <- app_assoc. cbn [app]. eapply pr_call; eauto.
  - rewrite <- app_assoc. cbn [app]. eapply pr_variadic; eauto.
Qed.
Lemma proper_items v l : P v l -> P Items l.
Proof.
  induction 1; [apply pr_nil|apply pr_token; easy|apply pr_comma; easy|apply pr_rest; [discriminate|easy]|apply pr_string; easy|
    apply pr_group; easy|eapply pr_call; eauto|eapply pr_variadic; eauto].
Qed.
Lemma proper_any v l : P Piece l -> P v l.
Proof.
  intros Hl. remember Piece as p eqn:Ep. induction Hl; subst; try discriminate; try contradiction.
  - apply pr_nil.
  - apply pr_token; auto.
  - apply pr_string; auto.
  - apply pr_group; auto.
  - eapply pr_call; eauto.
  - eapply pr_variadic; eauto.
Qed.
Lemma item_piece l : P Item l -> ~ In TVarArgs l -> P Piece l.
Proof.
  intros Hl. remember Item as p eqn:Ep. induction Hl; subst; intros Hn; try discriminate.
  - constructor.
  - apply pr_token; auto. apply IHHl; auto. intros Hi. apply Hn. now right.
  - exfalso. apply Hn. now left.
  - apply pr_string; auto. apply IHHl; auto. intros Hi. apply Hn. right. now right.
  - apply pr_group; auto. apply IHHl2; auto. intros Hi. apply Hn. right. apply in_app_iff. right. now right.
  - eapply pr_call; eauto. apply IHHl; auto. intros Hi. apply Hn. right. right. apply in_app_iff. right. now right.
  - eapply pr_variadic; eauto. apply IHHl; auto. intros Hi. apply Hn. right. right. apply in_app_iff. right. now right.
Qed.
Lemma proper_list args : Forall (P Items) args -> P Items (comma_separated args).
Proof.
  induction 1 as [|a l Ha Hl IH]; [constructor|]. destruct l as [|b l]; [easy|].
  change (comma_separated (a :: b :: l)) with (a ++ comma :: comma_separated (b :: l)). apply proper_app; [easy|]. now apply pr_comma.
Qed.

Lemma comma_length args a : In a args -> length a <= length (comma_separated args).
Proof.
  induction args as [|x l IH]; intros Hi; [easy|]. destruct l as [|z l].
  - destruct Hi as [->|[]]. easy.
  - change (comma_separated (x :: z :: l)) with (x ++ comma :: comma_separated (z :: l)). rewrite app_length. cbn [length].
    destruct Hi as [->|Hi]; [lia|]. specialize (IH Hi). lia.
Qed.
Lemma in_comma args t : In t (comma_separated args) -> t = comma \/ exists a, In a args /\ In t a.
Proof.
  induction args as [|x l IH]; intros Hi; [easy|]. destruct l as [|z l].
  - right. exists x. split; [now left|easy].
  - change (comma_separated (x :: z :: l)) with (x ++ comma :: comma_separated (z :: l)) in Hi. apply in_app_iff in Hi.
    destruct Hi as [Hi|[Hi|Hi]]; [right; exists x; split; [now left|easy]|now left|].
    destruct (IH Hi) as [->|(a & Ha & Ht)]; [now left|]. right. exists a. split; [now right|easy].
Qed.

(** Comma-separated pieces. *)
Lemma pieces_of v l : P v l -> ~ In TVarArgs l -> exists ps, ps <> [] /\ l = comma_separated ps /\ Forall (P Piece) ps.
Proof.
  assert (Hpre : forall x l, (forall l', P Piece l' -> P Piece (x ++ l')) ->
    (exists ps, ps <> [] /\ l = comma_separated ps /\ Forall (P Piece) ps) ->
    exists ps, ps <> [] /\ x ++ l = comma_separated ps /\ Forall (P Piece) ps).
  { intros x l0 Hx (ps & Hn & -> & Hp). destruct Hp as [|p ps Hp Hps]; [easy|]. exists ((x ++ p) :: ps). split; [discriminate|].
    split; [|constructor; auto]. destruct ps as [|q ps]; [reflexivity|].
    change (x ++ p ++ comma :: comma_separated (q :: ps) = (x ++ p) ++ comma :: comma_separated (q :: ps)). now rewrite app_assoc. }
  intros Hl. induction Hl; intros Hv.
  - exists [[]]. split; [discriminate|]. split; [reflexivity|]. repeat constructor.
  - apply (Hpre [t] l); [intros; now apply pr_token|]. apply IHHl. intros Hi. apply Hv. now right.
  - destruct IHHl as (ps & Hn & -> & Hp); [intros Hi; apply Hv; now right|].
    exists ([] :: ps). split; [discriminate|]. split; [|constructor; [constructor|easy]]. destruct ps; [easy|reflexivity].
  - exfalso. apply Hv. now left.
  - apply (Hpre [hash; t] l); [intros; now apply pr_string|]. apply IHHl. intros Hi. apply Hv. right. now right.
  - replace (o :: inner ++ c :: l) with ((o :: inner ++ [c]) ++ l) by (cbn [app]; now rewrite <- app_assoc).
    apply Hpre; [intros l' Hl'; cbn [app]; rewrite <- app_assoc; now apply pr_group|]. apply IHHl2. intros Hi. apply Hv. right. apply in_app_iff. right. now right.
  - replace (TIdent id :: lp :: comma_separated args ++ rp_ :: l) with ((TIdent id :: lp :: comma_separated args ++ [rp_]) ++ l) by (cbn [app]; now rewrite <- app_assoc).
    apply Hpre; [intros l' Hl'; cbn [app]; rewrite <- app_assoc; eapply pr_call; eauto|]. apply IHHl. intros Hi. apply Hv. right. right. apply in_app_iff. right. now right.
  - replace (TIdent id :: lp :: comma_separated args ++ rp_ :: l) with ((TIdent id :: lp :: comma_separated args ++ [rp_]) ++ l) by (cbn [app]; now rewrite <- app_assoc).
    apply Hpre; [intros l' Hl'; cbn [app]; rewrite <- app_assoc; eapply pr_variadic; eauto|]. apply IHHl. intros Hi. apply Hv. right. right. apply in_app_iff. right. now right.
Qed.
Lemma comma_concat pss : Forall (fun ps : list (list token) => ps <> []) pss ->
  comma_separated (map comma_separated pss) = comma_separated (concat pss).
Proof.
  assert (Happ : forall a b, a <> [] -> b <> [] -> comma_separated (a ++ b) = comma_separated a ++ comma :: comma_separated b).
  { induction a as [|x a IH]; intros b Ha Hb; [easy|]. destruct a as [|y a].
    - destruct b; [easy|reflexivity].
    - change (comma_separated ((x :: y :: a) ++ b)) with (x ++ comma :: comma_separated ((y :: a) ++ b)). rewrite IH by easy.
      change (comma_separated (x :: y :: a)) with (x ++ comma :: comma_separated (y :: a)). now rewrite <- app_assoc. }
  induction 1 as [|ps pss Hp Hps IH]; [reflexivity|]. destruct pss as [|qs pss]; [cbn; now rewrite app_nil_r|].
  change (comma_separated (map comma_separated (ps :: qs :: pss))) with (comma_separated ps ++ comma :: comma_separated (map comma_separated (qs :: pss))).
  rewrite IH. change (concat (ps :: qs :: pss)) with (ps ++ concat (qs :: pss)). rewrite Happ; [easy|easy|].
  inversion Hps; subst. cbn. destruct qs; easy.
Qed.

Lemma balanced_app a b : balanced a -> balanced b -> balanced (a ++ b).
Proof.
  intros Ha Hb. induction Ha; cbn [app]; [easy|now constructor|]. rewrite <- app_assoc. cbn [app]. now constructor.
Qed.
Lemma comma_no_bracket : ~ bracket comma.
Proof. intros [u [Hu|Hu]]; inversion Hu. Qed.
Lemma balanced_list args : Forall balanced args -> balanced (comma_separated args).
Proof.
  induction 1 as [|a l Ha Hl IH]; [constructor|]. destruct l as [|b l]; [easy|].
  change (comma_separated (a :: b :: l)) with (a ++ comma :: comma_separated (b :: l)). apply balanced_app; [easy|].
  constructor; [apply comma_no_bracket|easy].
Qed.
Lemma parameter_no_bracket t : parameter_token t -> ~ bracket t.
Proof. intros [-> | [i ->]] [u [Hu|Hu]]; inversion Hu. Qed.
Lemma proper_balanced n : forall v l, length l < n -> P v l -> balanced l.
Proof.
  induction n as [|n IH]; intros v l Hn Hl; [lia|].
  assert (Hargs : forall w args, length (comma_separated args) < n -> Forall (P w) args -> balanced (comma_separated args)).
  { intros w args Hlen Ha. apply balanced_list. apply Forall_forall. intros a Hi. rewrite Forall_forall in Ha. apply (IH w); auto.
    pose proof (comma_length args a Hi). lia. }
  inversion Hl; subst; cbn [length] in Hn.
  - constructor.
  - constructor; [easy|]. apply (IH v); [lia|easy].
  - constructor; [apply comma_no_bracket|]. apply (IH Items); [lia|easy].
  - constructor; [apply parameter_no_bracket; now left|]. apply (IH v); [lia|easy].
  - constructor; [intros [u [Hu|Hu]]; inversion Hu|]. constructor; [now apply parameter_no_bracket|]. apply (IH v); [lia|easy].
  - rewrite app_length in Hn. cbn [length] in Hn. constructor; [easy|eapply IH; [|eassumption]; lia..].
  - rewrite app_length in Hn. cbn [length] in Hn. constructor; [intros [u [Hu|Hu]]; inversion Hu|].
    constructor; [constructor|apply (Hargs Piece); [lia|easy]|apply (IH v); [lia|easy]].
  - rewrite app_length in Hn. cbn [length] in Hn. constructor; [intros [u [Hu|Hu]]; inversion Hu|].
    constructor; [constructor|apply (Hargs Item); [lia|easy]|apply (IH v); [lia|easy]].
Qed.
Lemma proper_argument l : P Piece l -> argument l.
Proof.
  intros Hl. remember Piece as p eqn:Ep. 
  assert (Hbal : forall v args, Forall (P v) args -> balanced (comma_separated args)).
  { intros v args Ha. apply balanced_list. revert Ha. apply Forall_impl. intros a Ha. eapply proper_balanced; [apply Nat.lt_succ_diag_r|eassumption]. }
  induction Hl; subst; try discriminate; try contradiction.
  - constructor.
  - constructor; auto.
  - constructor; [intros [u [Hu|Hu]]; inversion Hu|discriminate|]. constructor; [now apply parameter_no_bracket| |auto].
    intros ->. destruct H as [X|[i X]]; discriminate X.
  - constructor; [easy| |auto]. eapply proper_balanced; [apply Nat.lt_succ_diag_r|eassumption].
  - constructor; [intros [u [Hu|Hu]]; inversion Hu|discriminate|]. constructor; [constructor| |auto]. eapply Hbal; eauto.
  - constructor; [intros [u [Hu|Hu]]; inversion Hu|discriminate|]. constructor; [constructor| |auto]. eapply Hbal; eauto.
Qed.

(** A proper text is written out. *)
Lemma proper_plain n : forall v l, length l < n -> P v l -> ~ In hashhash l.
Proof.
  induction n as [|n IH]; intros v l Hn Hl; [lia|].
  assert (Hargs : forall w args, length (comma_separated args) < n -> Forall (P w) args -> ~ In hashhash (comma_separated args)).
  { intros w args Hlen Ha Hi. apply in_comma in Hi. destruct Hi as [X|(a & Hi & Ht)]; [discriminate X|]. rewrite Forall_forall in Ha.
    apply (IH w a); auto. pose proof (comma_length args a Hi). lia. }
  inversion Hl; subst; cbn [length] in Hn; try rewrite app_length in Hn; cbn [length] in Hn.
  - easy.
  - intros [X|X]; [now subst|]. revert X. apply (IH v); [lia|easy].
  - intros [X|X]; [discriminate X|]. revert X. apply (IH Items); [lia|easy].
  - intros [X|X]; [discriminate X|]. revert X. apply (IH v); [lia|easy].
  - intros [X|[X|X]]; [discriminate X| |revert X; apply (IH v); [lia|easy]]. subst. destruct H as [X|[i X]]; discriminate X.
  - intros [X|X]; [subst; inversion H|]. apply in_app_iff in X. destruct X as [X|[X|X]].
    + revert X. apply (IH Items); [lia|easy].
    + subst. inversion H.
    + revert X. apply (IH v); [lia|easy].
  - intros [X|[X|X]]; [discriminate X|discriminate X|]. apply in_app_iff in X. destruct X as [X|[X|X]]; [|discriminate X|].
    + revert X. apply (Hargs Piece); [lia|easy].
    + revert X. apply (IH v); [lia|easy].
  - intros [X|[X|X]]; [discriminate X|discriminate X|]. apply in_app_iff in X. destruct X as [X|[X|X]]; [|discriminate X|].
    + revert X. apply (Hargs Item); [lia|easy].
    + revert X. apply (IH v); [lia|easy].
Qed.

Variable fn : str -> Prop.
Hypothesis Hfn : forall id, fn id -> exists k va, takes id k va.
Definition called (l : list token) : Prop := forall pre id post, l = pre ++ TIdent id :: post -> fn id -> exists rest, post = lp :: rest.
Lemma called_cons t l : (forall id, t = TIdent id -> fn id -> exists rest, l = lp :: rest) -> called l -> called (t :: l).
Proof.
  intros Ht Hl pre id post E Hf. destruct pre as [|x pre]; cbn [app] in E; injection E as -> ->; [now apply (Ht id)|].
  now apply (Hl pre id post).
Qed.
Lemma called_app a b : called a -> called b -> called (a ++ b).
Proof.
  intros Ha Hb. induction a as [|t a IH]; [easy|]. cbn [app]. apply called_cons.
  - intros id -> Hf. destruct (Ha [] id a eq_refl Hf) as [rest ->]. now exists (rest ++ b).
  - apply IH. intros pre id post -> Hf. now apply (Ha (t :: pre) id post).
Qed.
Lemma proper_called n : forall v l, length l < n -> P v l -> called l.
Proof.
  induction n as [|n IH]; intros v l Hn Hl; [lia|].
  assert (Hno : forall t l, (forall id, t <> TIdent id) -> called l -> called (t :: l)).
  { intros t l0 Ht Hl0. apply called_cons; [|easy]. intros id ->. now destruct (Ht id). }
  assert (Hargs : forall w args, length (comma_separated args) < n -> Forall (P w) args -> called (comma_separated args)).
  { intros w args Hlen Ha. assert (Hc : Forall called args).
    { apply Forall_forall. intros a Hi. rewrite Forall_forall in Ha. apply (IH w); auto. pose proof (comma_length args a Hi). lia. }
    clear - Hc Hno. induction Hc as [|a l Ha Hl IH]; [intros [|] ? ? E; discriminate E|]. destruct l as [|b l]; [easy|].
    change (comma_separated (a :: b :: l)) with (a ++ comma :: comma_separated (b :: l)). apply called_app; [easy|].
    apply Hno; [discriminate|easy]. }
  assert (Hpar : forall t id, parameter_token t -> t <> TIdent id) by (intros t id [-> | [i ->]]; discriminate).
  inversion Hl; subst; cbn [length] in Hn; try rewrite app_length in Hn; cbn [length] in Hn.
  - intros [|] ? ? E; discriminate E.
  - apply called_cons; [|apply (IH v); [lia|easy]]. intros id -> Hf. destruct (Hfn id Hf) as (k & va & Ht). exfalso. eapply H4; eauto.
  - apply Hno; [discriminate|]. apply (IH Items); [lia|easy].
  - apply Hno; [discriminate|]. apply (IH v); [lia|easy].
  - apply Hno; [discriminate|]. apply Hno; [auto|]. apply (IH v); [lia|easy].
  - apply Hno; [destruct H; discriminate|]. apply called_app; [apply (IH Items); [lia|easy]|].
    apply Hno; [destruct H; discriminate|]. apply (IH v); [lia|easy].
  - apply called_cons; [intros id' E Hf; now eexists|]. apply Hno; [discriminate|]. apply called_app; [apply (Hargs Piece); [lia|easy]|].
    apply Hno; [discriminate|]. apply (IH v); [lia|easy].
  - apply called_cons; [intros id' E Hf; now eexists|]. apply Hno; [discriminate|]. apply called_app; [apply (Hargs Item); [lia|easy]|].
    apply Hno; [discriminate|]. apply (IH v); [lia|easy].
Qed.
Lemma proper_complete v l : P v l -> complete fn l.
Proof.
  intros Hl. split; [|split].
  - eapply proper_balanced; [apply Nat.lt_succ_diag_r|eassumption].
  - eapply proper_plain; [apply Nat.lt_succ_diag_r|eassumption].
  - eapply proper_called; [apply Nat.lt_succ_diag_r|eassumption].
Qed.
End P.

Lemma F2_length {A B} (R : A -> B -> Prop) l r : Forall2 R l r -> length l = length r.
Proof. induction 1; cbn; congruence. Qed.

(** Tokens that are handed out without an error. *)
Definition deliverable (t : token) : Prop :=
  match strip_nr t with TArg _ | TVarArgs | TPlain _ | TPlacemarker => False | _ => True end.
Lemma deliverable_no_va l : Forall deliverable l -> ~ In TVarArgs l.
Proof. intros Hl Hi. rewrite Forall_forall in Hl. now apply Hl in Hi. Qed.
Lemma delivered_ok l : Forall deliverable l -> exists o, delivered (ROk l) = ROk o.
Proof.
  unfold delivered. cbn [rbind]. induction 1 as [|t l Ht Hl [o IH]]; [now exists []|]. cbn [detokenize].
  assert (Hd : exists m, token_detokenize 0 t = ROk (Some m)).
  { clear - Ht. unfold deliverable in Ht. induction t; cbn [strip_nr token_detokenize] in *; try contradiction; eauto. }
  destruct Hd as [m Hm]. rewrite Hm. cbn [rbind]. rewrite IH. cbn [rbind]. now eexists.
Qed.
Lemma deliverable_list args : Forall deliverable (comma_separated args) <-> Forall (Forall deliverable) args.
Proof.
  induction args as [|a args IH]; [split; constructor|]. destruct args as [|b args].
  - split; [now repeat constructor|]. intros Hx. now inversion Hx.
  - change (comma_separated (a :: b :: args)) with (a ++ comma :: comma_separated (b :: args)). rewrite Forall_app. split.
    + intros [H1 H2]. constructor; [easy|]. apply IH. now inversion H2.
    + intros Hx. inversion Hx; subst. split; [easy|]. constructor; [easy|]. now apply IH.
Qed.

(** ** Filling in arguments *)
Section Fill.
Context `{Unicode}.
Variable takes : str -> nat -> bool -> Prop.
Notation P := (proper takes).
Variable exp : list token -> list token -> Prop.
Variable k : nat.
Variable args : list (list token).
Notation F := (filled exp k args).

Lemma filled_app l1 l2 r1 r2 : F l1 r1 -> F l2 r2 -> F (l1 ++ l2) (r1 ++ r2).
Proof.
  intros Hf1 Hf2. induction Hf1; cbn [app]; [easy|now apply fl_keep|now apply fl_string|].
  rewrite <- app_assoc. eapply fl_argument; eauto.
Qed.
Lemma filled_punct p l r : TPunct p <> hash -> F l r -> F (TPunct p :: l) (TPunct p :: r).
Proof. intros Hp Hf. apply fl_keep; [|easy|easy]. intros [X|[i X]]; discriminate X. Qed.
Lemma filled_list ls rs : Forall2 F ls rs -> F (comma_separated ls) (comma_separated rs).
Proof.
  induction 1 as [|l r ls rs Hl Hls IH]; [constructor|]. destruct Hls as [|l2 r2 ls rs Hl2 Hls]; [easy|].
  change (comma_separated (l :: l2 :: ls)) with (l ++ comma :: comma_separated (l2 :: ls)).
  change (comma_separated (r :: r2 :: rs)) with (r ++ comma :: comma_separated (r2 :: rs)).
  apply filled_app; [easy|]. now apply filled_punct.
Qed.

Hypothesis Hexp : forall t a, argument_for k args t = Some a ->
  exists e, exp a e /\ Forall deliverable e /\ P (match t with TVarArgs => Items | _ => Piece end) e.

Definition up (v : level) : level := match v with Item => Items | _ => v end.
Definition fillable (l : list token) : Prop :=
  Forall (fun t => parameter_token t /\ argument_for k args t <> None \/ ~ parameter_token t /\ (t = hash \/ deliverable t)) l.

Lemma fill n : forall v l, length l < n -> P v l -> fillable l -> exists r, F l r /\ Forall deliverable r /\ P (up v) r.
Proof.
  induction n as [|n IH]; intros v l Hn Hl Hf; [lia|].
  assert (Hargs : forall w ls, length (comma_separated ls) < n -> Forall (P w) ls -> fillable (comma_separated ls) ->
    exists rs, Forall2 F ls rs /\ Forall (Forall deliverable) rs /\ Forall (P (up w)) rs).
  { intros w ls Hlen Ha Hfl. assert (Hfa : Forall fillable ls).
    { clear - Hfl. induction ls as [|a ls IHl]; [constructor|]. destruct ls as [|b ls]; [now repeat constructor|].
      change (comma_separated (a :: b :: ls)) with (a ++ comma :: comma_separated (b :: ls)) in Hfl. apply Forall_app in Hfl. destruct Hfl as [H1 H2].
      constructor; [easy|]. apply IHl. now inversion H2. }
    assert (Hlens : forall a, In a ls -> length a < n) by (intros a Hi; pose proof (comma_length ls a Hi); lia). clear Hlen Hfl.
    induction Ha as [|a ls Ha Hls IHl]; [exists []; repeat split; constructor|]. inversion Hfa; subst.
    destruct (IH w a) as (r & R1 & R2 & R3); auto. { apply Hlens. now left. }
    destruct IHl as (rs & S1 & S2 & S3); auto. { intros x Hx. apply Hlens. now right. }
    exists (r :: rs). repeat split; now constructor. }
  assert (Hd : forall t l, fillable (t :: l) -> fillable l) by (intros t l0 Hx; now inversion Hx).
  assert (Happ : forall a b, fillable (a ++ b) -> fillable a /\ fillable b) by (intros a b Hx; now apply Forall_app in Hx).
  inversion Hl; subst; cbn [length] in Hn; try rewrite app_length in Hn; cbn [length] in Hn.
  - exists []. repeat split; constructor.
  - destruct (IH v l0) as (r & R1 & R2 & R3); [lia|easy|eauto|].
    inversion Hf as [|? ? Ht _]; subst. destruct Ht as [[Hp Ha]|[Hp Ha]].
    + destruct (argument_for k args t) as [a|] eqn:Ea; [|easy]. destruct (Hexp t a Ea) as (e & E1 & E2 & E3).
      exists (e ++ r). split; [eapply fl_argument; eauto|]. split; [now apply Forall_app|]. apply proper_app; [|easy].
      destruct Hp as [->|[i ->]]; [contradiction|]. now apply proper_any.
    + destruct Ha as [->|Ha]; [contradiction|]. exists (t :: r). split; [now apply fl_keep|]. split; [now constructor|]. now apply pr_token.
  - destruct (IH Items l0) as (r & R1 & R2 & R3); [lia|easy|eauto|]. exists (comma :: r).
    split; [now apply filled_punct|]. split; [now constructor|]. now apply pr_comma.
  - destruct (IH v l0) as (r & R1 & R2 & R3); [lia|easy|eauto|].
    inversion Hf as [|? ? Ht _]; subst. destruct Ht as [[Hp Ha]|[Hp Ha]]; [|exfalso; apply Hp; now left].
    destruct (argument_for k args TVarArgs) as [a|] eqn:Ea; [|easy]. destruct (Hexp TVarArgs a Ea) as (e & E1 & E2 & E3).
    exists (e ++ r). split; [eapply fl_argument; eauto|]. split; [now apply Forall_app|]. apply proper_app; [|easy]. now destruct v.
  - destruct (IH v l0) as (r & R1 & R2 & R3); [lia|easy|eauto|].
    inversion Hf as [|? ? _ Hf']; subst. inversion Hf' as [|? ? Ht _]; subst. destruct Ht as [[Hp Ha]|[Hp Ha]]; [|contradiction].
    destruct (argument_for k args t) as [a|] eqn:Ea; [|easy]. eexists. split; [eapply fl_string; eauto|]. split; [now constructor|].
    apply pr_token; try discriminate; auto. intros [u [Hu|Hu]]; inversion Hu.
  - assert (Hpo : exists p q, o = TPunct p /\ c = TPunct q /\ TPunct p <> hash /\ TPunct q <> hash).
    { match goal with hm : matching o c |- _ => destruct hm; do 2 eexists; repeat split; discriminate end. }
    destruct Hpo as (p & q & -> & -> & Hp & Hq).
    destruct (Happ inner (TPunct q :: l0)) as [F1 F2]; [eauto|].
    destruct (IH Items inner) as (ri & I1 & I2 & I3); [lia|easy|easy|].
    destruct (IH v l0) as (r & R1 & R2 & R3); [lia|easy|eauto|].
    exists (TPunct p :: ri ++ TPunct q :: r). split; [apply filled_punct; [easy|]; apply filled_app; [easy|now apply filled_punct]|].
    split; [constructor; [easy|]; apply Forall_app; split; [easy|now constructor]|]. now apply pr_group.
  - destruct (Happ (comma_separated args0) (rp_ :: l0)) as [F1 F2]; [eauto|].
    destruct (Hargs Piece args0) as (rs & I1 & I2 & I3); [lia|easy|easy|].
    destruct (IH v l0) as (r & R1 & R2 & R3); [lia|easy|eauto|].
    exists (TIdent id :: lp :: comma_separated rs ++ rp_ :: r). split.
    { apply fl_keep; [intros [X|[i X]]; discriminate X|discriminate|]. apply filled_punct; [discriminate|].
      apply filled_app; [now apply filled_list|now apply filled_punct]. }
    split.
    { constructor; [easy|]. constructor; [easy|]. apply Forall_app. split; [now apply deliverable_list|now constructor]. }
    eapply pr_call; eauto.
    + intros ->. inversion I1; subst. contradiction.
    + match goal with hx : _ \/ _ |- _ => destruct hx as [<-|[-> ->]] end; [left; symmetry; eapply F2_length; exact I1|].
      right. split; [easy|]. inversion I1 as [|? y ? ys Hy Hys]; subst. inversion Hys; subst. inversion Hy; subst. reflexivity.
  - destruct (Happ (comma_separated args0) (rp_ :: l0)) as [F1 F2]; [eauto|].
    destruct (Hargs Item args0) as (rs & I1 & I2 & I3); [lia|easy|easy|].
    destruct (IH v l0) as (r & R1 & R2 & R3); [lia|easy|eauto|].
    assert (Hps : exists pss, rs = map comma_separated pss /\ Forall (fun ps => ps <> []) pss /\ Forall (Forall (P Piece)) pss).
    { clear - I2 I3. induction I2 as [|x rs Hx Hrs IHr]; [now exists []|]. inversion I3; subst.
      destruct (pieces_of takes (up Item) x) as (ps & J1 & J2 & J3); [easy|now apply deliverable_no_va|].
      destruct IHr as (pss & -> & K2 & K3); [easy|]. exists (ps :: pss). repeat split; [now rewrite J2|now constructor..]. }
    destruct Hps as (pss & -> & K2 & K3).
    assert (Hlen : length args0 <= length (concat pss)).
    { assert (E : length args0 = length pss) by (rewrite <- (map_length comma_separated pss); eapply F2_length; exact I1).
      rewrite E. clear - K2. induction K2 as [|ps pss Hp Hps IHp]; [easy|]. cbn [concat length]. rewrite app_length. destruct ps; [easy|cbn [length]; lia]. }
    exists (TIdent id :: lp :: comma_separated (map comma_separated pss) ++ rp_ :: r). split.
    { apply fl_keep; [intros [X|[i X]]; discriminate X|discriminate|]. apply filled_punct; [discriminate|].
      apply filled_app; [now apply filled_list|now apply filled_punct]. }
    split.
    { constructor; [easy|]. constructor; [easy|]. apply Forall_app. split; [now apply deliverable_list|now constructor]. }
    rewrite comma_concat by easy. eapply pr_variadic; eauto.
    + intros E. rewrite E in Hlen. destruct args0; [easy|cbn in Hlen; lia].
    + lia.
    + apply Forall_concat. revert K3. apply Forall_impl. intros ps. apply Forall_impl. intros p. apply proper_any.
Qed.
End Fill.
