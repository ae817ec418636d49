(** The names and parameters in a parsed tree come from the tokens. *)
From Verif Require Import Base Utf Lex LexFloat Token Ast Nom NomFacts ParseTok ParseExpr ParseStmt Rust SpecPanicFree LexFacts StrFacts SafeFacts SafeGenFacts.
From Coq Require Import String List Lia PeanoNat ZArith.
Import ListNotations.
Local Open Scope string_scope.
Local Open Scope list_scope.

Section G.
Context `{Unicode}.
Variable k : nat.
Notation tok := (token_ok k).

(** On good tokens the result is as described, and the rest is good. *)
Definition gives {A} (p : parser A) (Q : A -> Prop) : Prop :=
  forall ts r a, Forall tok ts -> p ts = POk r a -> Forall tok r /\ Q a.
Definition any {A} (_ : A) : Prop := True.

Lemma gives_weak {A} (p : parser A) (P Q : A -> Prop) : gives p P -> (forall a, P a -> Q a) -> gives p Q.
Proof. intros G W ts r a T E. destruct (G ts r a T E). auto. Qed.
Lemma gives_bind {A B} (p : parser A) (f : A -> parser B) (P : A -> Prop) (Q : B -> Prop) : gives p P -> (forall a, P a -> gives (f a) Q) -> gives (pbind p f) Q.
Proof.
  intros G K ts r b T. unfold pbind. destruct (p ts) as [r1 a| |] eqn:E; try discriminate.
  intros E2. destruct (G _ _ _ T E). eapply K; eauto.
Qed.
Lemma gives_ret {A} (a : A) (Q : A -> Prop) : Q a -> gives (pret a) Q.
Proof. intros q ts r x T E. injection E as <- <-. auto. Qed.
Lemma gives_fail {A} (Q : A -> Prop) : gives pfail Q.
Proof. intros ts r x T E. discriminate. Qed.
Lemma gives_alt {A} (p q : parser A) Q : gives p Q -> gives q Q -> gives (palt p q) Q.
Proof. intros Hp Hq ts r a T. unfold palt. destruct (p ts) eqn:E; intros E2; try discriminate; [injection E2 as <- <-|]; eauto. Qed.
Lemma gives_alts {A} (l : list (parser A)) Q : Forall (fun p => gives p Q) l -> gives (palts l) Q.
Proof. induction 1; [apply gives_fail|apply gives_alt; auto]. Qed.
Definition opt {A} (P : A -> Prop) (o : option A) : Prop := match o with Some a => P a | None => True end.
Lemma gives_opt {A} (p : parser A) P : gives p P -> gives (popt p) (opt P).
Proof.
  intros G ts r a T. unfold popt. destruct (p ts) eqn:E; intros E2; try discriminate; injection E2 as <- <-; [apply (G _ _ _ T E)|].
  split; [exact T|exact I].
Qed.
Lemma gives_map {A B} (f : A -> B) p (Q : B -> Prop) : gives p (fun a => Q (f a)) -> gives (pmap f p) Q.
Proof. intros G. eapply gives_bind; [exact G|]. intros a q. now apply gives_ret. Qed.
Lemma gives_value {A B} (b : B) (p : parser A) (Q : B -> Prop) : gives p any -> Q b -> gives (pvalue b p) Q.
Proof. intros G q. eapply gives_bind; [exact G|]. intros. now apply gives_ret. Qed.
Lemma gives_map_opt {A B} (f : A -> option B) p (P : A -> Prop) (Q : B -> Prop) : gives p P -> (forall a b, P a -> f a = Some b -> Q b) -> gives (pmap_opt f p) Q.
Proof. intros G K. eapply gives_bind; [exact G|]. intros a q. destruct (f a) eqn:E; [apply gives_ret; eauto|apply gives_fail]. Qed.
Lemma gives_eof : gives peof any.
Proof. intros [|t ts] r a T E; [injection E as <- <-; split; auto; exact I|discriminate]. Qed.
Lemma gives_take {A} (f : mtoken -> option A) (Q : A -> Prop) : (forall t y, tok t -> f t = Some y -> Q y) -> gives (pmap_opt f take_one) Q.
Proof.
  intros F. apply gives_map_opt with (P := tok); [|exact F].
  intros [|t ts] r a T E; [discriminate|]. injection E as <- <-. now inversion T.
Qed.
Lemma gives_fold {A B} (p : parser B) (f : A -> B -> A) acc (P : B -> Prop) (Q : A -> Prop) :
  gives p P -> Q acc -> (forall a b, Q a -> P b -> Q (f a b)) -> gives (fold_many0 p f acc) Q.
Proof.
  intros G q K ts r a T. unfold fold_many0. generalize (S (length ts)) as n. intro n. revert acc ts q T.
  induction n as [|n IH]; intros acc ts q T; cbn [fold_many0_n]; [discriminate|].
  destruct (p ts) as [r1 b| |] eqn:E; try discriminate.
  - destruct (Nat.eqb _ _); [discriminate|]. destruct (G _ _ _ T E). apply IH; auto.
  - intro E2. injection E2 as <- <-. auto.
Qed.
Lemma gives_many0 {A} (p : parser A) P : gives p P -> gives (many0 p) (Forall P).
Proof. intro G. eapply gives_fold; [exact G|constructor|]. intros l b L q. apply Forall_app. auto. Qed.
Lemma gives_sep {A X} (sep : parser X) (p : parser A) P : gives sep any -> gives p P -> gives (separated_list0 sep p) (Forall P).
Proof.
  intros GS GP ts r a T. unfold separated_list0. destruct (p ts) as [r1 x| |] eqn:E; try discriminate.
  - destruct (GP _ _ _ T E) as [T1 X1]. generalize (S (length r1)) as n. intro n. assert (F : Forall P [x]) by auto. revert F T1. generalize [x] as acc. revert r1 E.
    induction n as [|n IH]; intros r1 E acc F T1; cbn [sep_list_n]; [discriminate|].
    destruct (sep r1) as [r2 y| |] eqn:E1; try discriminate.
    + destruct (Nat.eqb _ _); [discriminate|]. destruct (GS _ _ _ T1 E1) as [T2 _].
      destruct (p r2) as [r3 z| |] eqn:E2; try discriminate.
      * destruct (GP _ _ _ T2 E2). clear E. revert E2. intros _. specialize (IH r3).
        intro E3. assert (IH' : forall acc, Forall P acc -> Forall tok r3 -> sep_list_n n sep p acc r3 = POk r a -> Forall tok r /\ Forall P a).
        { clear - GS GP. revert r3. induction n as [|n IH]; intros r3 acc F T; cbn [sep_list_n]; [discriminate|].
          destruct (sep r3) as [r2 y| |] eqn:E1; try discriminate.
          - destruct (Nat.eqb _ _); [discriminate|]. destruct (GS _ _ _ T E1) as [T2 _].
            destruct (p r2) as [r4 z| |] eqn:E2; try discriminate.
            + destruct (GP _ _ _ T2 E2). apply IH; [apply Forall_app; auto|auto].
            + intro E. injection E as <- <-. auto.
          - intro E. injection E as <- <-. auto. }
        eapply IH'; [|eassumption|exact E3]. apply Forall_app; auto.
      * intro E3. injection E3 as <- <-. auto.
    + intro E3. injection E3 as <- <-. auto.
  - intro E2. injection E2 as <- <-. auto.
Qed.
Lemma gives_perm {X} (ps : list (parser (X -> X))) s (J : X -> Prop) :
  J s -> Forall (fun p => gives p (fun f => forall x, J x -> J (f x))) ps -> gives (permutation ps s) J.
Proof.
  intros j F ts r a T. unfold permutation.
  assert (F' : Forall (fun x => gives (snd x) (fun f => forall x, J x -> J (f x))) (map (pair false) ps)) by now apply Forall_map.
  revert F'. generalize (map (pair false) ps) as qs, (length ps) as n. intros qs n. clear F ps. revert qs s ts j T.
  induction n as [|n IH]; intros qs s ts j T F; cbn [perm_loop]; destruct (forallb fst qs); try discriminate; try (intro E; injection E as <- <-; now auto).
  destruct (perm_try qs s ts) as [r1 [ps2 s2]| |] eqn:E; try discriminate.
  apply perm_try_spec in E. destruct E as (l & p & q & f & -> & -> & Ep & ->).
  apply Forall_app in F. destruct F as [Fl Fq]. inversion Fq as [|? ? Fp Fq']; subst. cbn [snd] in Fp. destruct (Fp _ _ _ T Ep) as [T1 K].
  apply IH; auto. apply Forall_app. split; [exact Fl|]. constructor; [exact Fp|exact Fq'].
Qed.

Lemma gives_preceded {A B} (p : parser A) (q : parser B) Q : gives p any -> gives q Q -> gives (preceded p q) Q.
Proof. intros. eapply gives_bind; eauto. Qed.
Lemma gives_terminated {A B} (p : parser A) (q : parser B) Q : gives p Q -> gives q any -> gives (terminated p q) Q.
Proof. intros. eapply gives_bind; [eassumption|]. intros a q0. eapply gives_bind; [eassumption|]. intros. now apply gives_ret. Qed.
Lemma gives_delimited {A B C} (p : parser A) (q : parser B) (s : parser C) Q : gives p any -> gives q Q -> gives s any -> gives (delimited p q s) Q.
Proof. intros. eapply gives_bind; [eassumption|]. intros _ _. now apply gives_terminated. Qed.
Lemma gives_pair {A B} (p : parser A) (q : parser B) P Q : gives p P -> gives q Q -> gives (ppair p q) (fun x => P (fst x) /\ Q (snd x)).
Proof. intros. eapply gives_bind; [eassumption|]. intros a q0. eapply gives_bind; [eassumption|]. intros. apply gives_ret. auto. Qed.
Lemma gives_consuming {A} (p : parser A) Q : gives p Q -> gives (pall_consuming p) Q.
Proof. intros. eapply gives_bind; [eassumption|]. intros a q0. eapply gives_bind; [apply gives_eof|]. intros. now apply gives_ret. Qed.
Lemma gives_any {A} (p : parser A) Q : gives p Q -> gives p any.
Proof. intros. eapply gives_weak; [eassumption|]. intros. exact I. Qed.

Lemma gives_punct p : gives (punct p) any.
Proof. apply gives_take. intros. exact I. Qed.
Lemma gives_id p : gives (id p) any.
Proof. apply gives_take. intros. exact I. Qed.
Lemma gives_meta : gives meta any.
Proof. eapply gives_any, gives_many0 with (P := any), gives_take. intros. exact I. Qed.
Lemma gives_parens {A} (p : parser A) Q : gives p Q -> gives (parenthesized p) Q.
Proof.
  intro G. apply gives_delimited; [|exact G|]; eapply gives_any, gives_pair; first [apply gives_punct|apply gives_meta].
Qed.
Lemma gives_arg : gives macro_arg (fun i => i < k).
Proof. apply gives_take. intros [] y T E; try discriminate. injection E as <-. exact T. Qed.
Lemma gives_macro_id : gives macro_id (fun s => is_identifier s = true).
Proof. apply gives_take. intros [] y T E; try discriminate. injection E as <-. exact T. Qed.
End G.

Ltac ng :=
  lazymatch goal with
  | |- forall _, _ => intros; ng
  | |- Forall _ [] => apply Forall_nil
  | |- Forall _ (_ :: _) => apply Forall_cons; [ng|ng]
  | |- gives _ meta any => apply gives_meta
  | |- gives _ (punct _) any => apply gives_punct
  | |- gives _ (id _) any => apply gives_id
  | |- gives _ (keyword _) any => apply gives_id
  | |- gives _ peof any => apply gives_eof
  | |- gives _ macro_arg any => eapply gives_any, gives_arg
  | |- gives _ macro_id any => eapply gives_any, gives_macro_id
  | |- gives _ (terminated _ _) _ => apply gives_terminated; ng
  | |- gives _ (preceded _ _) _ => apply gives_preceded; ng
  | |- gives _ (delimited _ _ _) _ => apply gives_delimited; ng
  | |- gives _ (parenthesized _) _ => apply gives_parens; ng
  | |- gives _ (pall_consuming _) _ => apply gives_consuming; ng
  | |- gives _ (ppair _ _) any => eapply gives_any, gives_pair with (P := any) (Q := any); ng
  | |- gives _ (pvalue _ _) any => apply gives_value; [ng|exact I]
  | |- gives _ (pret _) any => apply gives_ret; exact I
  | |- gives _ pfail _ => apply gives_fail
  | |- gives _ (palt _ _) _ => apply gives_alt; ng
  | |- gives _ (palts _) _ => apply gives_alts; ng
  | |- gives _ (popt _) any => eapply gives_any, gives_opt with (P := any); ng
  | |- gives _ (pmap _ _) any => apply gives_map, (gives_any _ _ any); ng
  | |- gives _ (pmap_opt _ take_one) any => apply gives_take; intros; exact I
  | |- gives _ (pmap_opt _ _) any => eapply gives_map_opt with (P := any); [ng|intros; exact I]
  | |- gives _ (fold_many0 _ _ _) any => eapply gives_fold with (P := any); [ng|exact I|intros; exact I]
  | |- gives _ (many0 _) any => eapply gives_any, gives_many0 with (P := any); ng
  | |- gives _ (separated_list0 _ _) any => eapply gives_any, gives_sep with (P := any); ng
  | |- gives _ (permutation _ _) any => apply gives_perm; [exact I|ng]
  | |- gives _ _ (fun f => forall x, any x -> any (f x)) => eapply gives_weak with (P := any); [ng|intros; exact I]
  | |- gives _ (pbind _ _) any => eapply gives_bind with (P := any); ng
  | |- gives _ (match ?x with _ => _ end) any => destruct x; ng
  | |- _ => try assumption
  end.

Section P.
Context {U : Unicode}.
Variable names : list str.
Notation gives := (gives (length names)).
Notation nmok := (nmok names).
Notation tyok := (tyok names).
Notation ipok := (ipok names).

Lemma dec_val_nonneg ds : forallb is_digit ds = true -> (0 <= dec_val ds)%Z.
Proof.
  unfold dec_val. assert (G : forall a, (0 <= a)%Z -> forallb is_digit ds = true -> (0 <= fold_left (fun a c => a * 10 + (Z.of_N c - 48)) ds a)%Z); [|apply G; lia].
  induction ds as [|d ds IH]; intros a A D; cbn [fold_left]; [exact A|].
  cbn [forallb] in D. apply Bool.andb_true_iff in D. destruct D as [D1 D2]. apply IH; [|exact D2].
  unfold is_digit in D1. apply Bool.andb_true_iff in D1. destruct D1 as [D1 _]. apply N.leb_le in D1. lia.
Qed.
Lemma split_ok s l : split_id_cont s = Some l -> Forall ipok l.
Proof.
  unfold split_id_cont. assert (K : forall n s, Forall ipok (snd (many_items id_cont_item n s))).
  { induction n as [|n IH]; intro s0; cbn [many_items]; [constructor|]. destruct (id_cont_item s0) as [[s' a]|] eqn:E; [|constructor].
    specialize (IH s'). destruct (many_items id_cont_item n s') as [r m]. cbn [snd] in *. constructor; [|exact IH].
    unfold id_cont_item, oor in E. destruct (unsuffixed_int s0) as [[r1 a1]|] eqn:E1.
    - injection E as <- <-. unfold unsuffixed_int in E1. destruct (char1 48 s0).
      + injection E1 as <- <-. cbn. lia.
      + unfold nom_u64 in E1. destruct (take_while1 is_digit s0) as [[r2 ds]|] eqn:TW; [|discriminate]. cbv zeta in E1. destruct (dec_val ds <? 2 ^ 64)%Z; [|discriminate].
        injection E1 as <- <-. cbn. apply take_while1_some in TW. destruct TW as (_ & _ & TW & _). now apply dec_val_nonneg.
    - destruct (identifier_parse_str s0) as [[r2 i]|] eqn:E2; [|discriminate]. injection E as <- <-. cbn. now apply identifier_parse_str_ok in E2. }
  specialize (K (length s) s). destruct (many_items id_cont_item (length s) s) as [r [|x m]]; [discriminate|]. intro E. injection E as <-. exact K.
Qed.
Lemma gives_concat_ident : gives parse_concat_ident nmok.
Proof.
  unfold parse_concat_ident. eapply gives_bind with (P := fun n => nmok n).
  - apply gives_alt; apply gives_map; [apply gives_arg|apply gives_macro_id].
  - intros n N. apply gives_fold with (P := Forall ipok); [|exact N|].
    + apply gives_preceded; [ng|]. apply gives_alts. repeat apply Forall_cons; [..|apply Forall_nil].
      * apply gives_map. eapply gives_weak; [apply gives_arg|]. intros a A. constructor; [exact A|constructor].
      * apply gives_map. eapply gives_weak; [apply gives_macro_id|]. intros a A. constructor; [exact A|constructor].
      * apply gives_take. intros [] y T E; try discriminate. eapply split_ok; eauto.
    + intros a l A L. destruct a; cbn in *; [constructor; auto..|]. now apply Forall_app.
Qed.
Lemma gives_lit_char : gives lit_char_parse any.
Proof. unfold lit_char_parse. ng. Qed.
Lemma gives_lit_string : gives lit_string_parse any.
Proof. unfold lit_string_parse, text_after. ng. Qed.
Lemma gives_lit : gives lit_parse any.
Proof. unfold lit_parse, lit_float_parse, lit_int_parse. pose proof gives_lit_char. pose proof gives_lit_string. ng. Qed.
Lemma gives_cv : gives const_volatile_qualifier any.
Proof. unfold const_volatile_qualifier. ng. Qed.
Lemma qualify_ok t q : tyok t -> tyok (ty_qualify_opt t q).
Proof.
  destruct q as [q|]; [|auto]. unfold ty_qualify_opt. intro T. destruct t; cbn in *; auto.
Qed.
Lemma gives_type : gives type_parse tyok.
Proof.
  pose proof gives_cv as CV.
  assert (B : gives ty_base tyok).
  { unfold ty_base. apply gives_alts. repeat apply Forall_cons; [..|apply Forall_nil].
    - unfold ty_simple. apply gives_map. eapply gives_weak.
      + apply gives_pair with (P := any) (Q := tyok); [ng|]. apply gives_alts. repeat apply Forall_cons; [..|apply Forall_nil].
        1-3: apply gives_value; [ng|exact I].
        apply gives_map. eapply gives_weak with (P := any); [ng|]. intros a _. apply qualify_ok. exact I.
      + intros x [_ X]. now apply qualify_ok.
    - unfold int_ty, int_ty_long_long, int_ty_length, int_ty_plain, int_signedness, int_length. apply gives_alts.
      repeat apply Forall_cons; [..|apply Forall_nil]; apply gives_map; (eapply gives_weak with (P := any); [ng|]); intros a _; apply qualify_ok; exact I.
    - unfold ty_ident. eapply gives_bind with (P := any); [ng|]. intros q _. eapply gives_bind with (P := any); [ng|]. intros s _.
      eapply gives_bind; [apply gives_concat_ident|]. intros n N. apply gives_ret. apply qualify_ok. exact N. }
  unfold type_parse. eapply gives_bind with (P := fun x => tyok (fst x) /\ any (snd x)); [apply gives_pair; [exact B|ng]|]. intros [t q] [T _]. cbn [fst snd] in *.
  apply gives_fold with (P := any); [ng|now apply qualify_ok|]. intros a b A _. now apply qualify_ok.
Qed.

(** ** Expressions *)

Definition wnode (e : expr) : Prop :=
  match e with EVar n | ECall n _ => nmok n | ECast t _ | ESizeOf t => tyok t | _ => True end.
Notation wf := (every wnode).
Lemma wf_bin a op b : wf a -> wf b -> wf (EBinary a op b).
Proof. cbn. auto. Qed.
Lemma gives_stringify : gives stringify_parse wf.
Proof.
  unfold stringify_parse. apply gives_preceded; [ng|]. apply gives_alt; apply gives_map.
  - eapply gives_weak; [apply gives_arg|]. cbn. auto.
  - eapply gives_weak; [apply gives_macro_id|]. cbn. auto.
Qed.
Lemma gives_concat_string : gives parse_concat_string wf.
Proof.
  assert (K : gives concat_part wf).
  { unfold concat_part. apply gives_alt; [apply gives_alt|].
    - apply gives_map. eapply gives_weak; [apply gives_lit_string|]. cbn. auto.
    - apply gives_stringify.
    - apply gives_map. eapply gives_weak; [apply gives_concat_ident|]. cbn. auto. }
  unfold parse_concat_string. eapply gives_bind; [exact K|]. intros e E. apply gives_fold with (P := fun e => wf e); [apply gives_preceded; [ng|exact K]|exact E|].
  intros a b A B. destruct a; cbn [concat_add]; try (cbn in *; tauto).
  cbn [every] in *. split; [exact I|]. destruct A as [_ A]. apply everys_forall. apply everys_forall in A. apply Forall_app. auto.
Qed.
Definition acok (a : access) : Prop :=
  match a with AFn l => everys wf l | AField f _ => nmok f | AArray i => wf i | AUnary _ => True end.
Lemma access_ok e was a e' : wf e -> acok a -> access_apply e was a = Some e' -> wf e'.
Proof.
  intros E A. assert (D : forall (deref : bool) f, nmok f -> wf (EBinary (if deref then EUnary UDeref e else e) OMember (EVar f))) by (intros [] f F; cbn; tauto).
  destruct a as [l|f deref|i|op]; cbn [acok] in A.
  - destruct e; try discriminate. intro Q. injection Q as <-. cbn in *. tauto.
  - assert (Q : access_apply e was (AField f deref) = if negb was || deref then Some (EBinary (if deref then EUnary UDeref e else e) OMember (EVar f)) else None) by (destruct e; reflexivity).
    rewrite Q. destruct (negb was || deref)%bool; [|discriminate]. intro X. injection X as <-. now apply D.
  - assert (Q : access_apply e was (AArray i) = if was then None else Some (EUnary UDeref (EBinary e OAdd i))) by (destruct e; reflexivity).
    rewrite Q. destruct was; [discriminate|]. intro X. injection X as <-. cbn. tauto.
  - assert (Q : access_apply e was (AUnary op) = if was then None else Some (EUnary op e)) by (destruct e; reflexivity).
    rewrite Q. destruct was; [discriminate|]. intro X. injection X as <-. cbn. tauto.
Qed.

Section R.
Variable rec : lvl -> parser expr.
Hypothesis R : forall l, gives (rec l) wf.
Lemma gives_left term op : gives term wf -> gives op any -> gives (parse_left term op) wf.
Proof.
  intros T O. unfold parse_left. eapply gives_bind; [exact T|]. intros e E.
  apply gives_fold with (P := fun x => any (fst x) /\ wf (snd x)); [apply gives_pair; [ng|exact T]|exact E|]. intros a [o b] A [_ B]. now apply wf_bin.
Qed.
Lemma gives_access : gives (parse_access rec) acok.
Proof.
  unfold parse_access. apply gives_alts. repeat apply Forall_cons; [..|apply Forall_nil].
  - apply gives_map. apply gives_parens. eapply gives_weak; [apply gives_sep with (P := fun e => wf e); [ng|apply R]|]. intros l L. now apply everys_forall.
  - apply gives_map, gives_preceded; [ng|]. apply gives_concat_ident.
  - apply gives_map, gives_delimited; [ng|apply R|ng].
  - apply gives_map, gives_preceded; [ng|]. apply gives_concat_ident.
  - apply gives_map. eapply gives_weak with (P := any); [ng|]. intros. exact I.
Qed.
Lemma gives_step l : gives (expr_step rec l) wf.
Proof.
  destruct l; cbn [expr_step];
    unfold parse_term_prec3, parse_term_prec4, parse_term_prec5, parse_term_prec6, parse_term_prec7, parse_term_prec8, parse_term_prec9, parse_term_prec10;
    try (apply gives_left; [apply R|ng]).
  - unfold parse_factor. apply gives_alts. repeat apply Forall_cons; [..|apply Forall_nil].
    + apply gives_map, gives_preceded; [ng|]. apply gives_parens. eapply gives_weak; [apply gives_type|]. cbn. auto.
    + apply gives_map. eapply gives_weak; [apply gives_lit_char|]. cbn. auto.
    + apply gives_concat_string.
    + apply gives_map. eapply gives_weak; [apply gives_lit|]. cbn. auto.
    + apply gives_parens, R.
  - unfold parse_term_prec1. eapply gives_bind; [apply R|]. intros e E.
    eapply gives_map_opt with (P := fun o => match o with Some x => wf (fst x) | None => True end).
    + apply gives_fold with (P := acok); [apply gives_preceded; [ng|apply gives_access]|exact E|].
      intros [[a w]|] ac A AC; cbn [access_step]; [|exact I]. cbn [fst] in A. destruct (access_apply a w ac) eqn:Q; cbn [omap]; [|exact I]. eapply access_ok; eauto.
    + intros [[a w]|] b A Q; [|discriminate]. injection Q as <-. exact A.
  - unfold parse_term_prec2. apply gives_alts. repeat apply Forall_cons; [..|apply Forall_nil]; [..|apply R].
    + apply gives_map. eapply gives_weak; [apply gives_pair; [apply gives_parens, gives_type|apply R]|]. cbn. tauto.
    + apply gives_map. eapply gives_weak; [apply gives_pair with (P := any); [unfold parse_prefix_op; ng|apply R]|]. cbn. tauto.
  - unfold parse_term_prec13. eapply gives_bind; [apply R|]. intros a A. eapply gives_bind with (P := any); [ng|]. intros [q|] _; [|now apply gives_ret].
    eapply gives_bind; [apply R|]. intros b B. eapply gives_bind with (P := any); [ng|]. intros _ _. eapply gives_bind; [apply R|]. intros d D. apply gives_ret. cbn. auto.
  - unfold parse_term_prec14. eapply gives_bind; [apply R|]. intros e E.
    apply gives_fold with (P := fun x => any (fst x) /\ wf (snd x)); [apply gives_pair; [unfold parse_assign_op; ng|apply R]|exact E|]. intros a [o b] A [_ B]. now apply wf_bin.
Qed.
End R.
Lemma gives_pexpr n : forall l, gives (pexpr n l) wf.
Proof. induction n as [|n IH]; [intros l ts r a T E; discriminate E|]. intros l. exact (gives_step _ IH l). Qed.
Lemma gives_expr : gives expr_parse wf.
Proof. intros ts r a T E. now apply gives_pexpr in E. Qed.

(** ** Statements *)

Definition wasm (a : asm_stmt) : Prop := Forall wf (map snd (asm_outputs a)) /\ Forall wf (map snd (asm_inputs a)).
Fixpoint wstmt (s : stmt) : Prop :=
  match s with
  | SAsm a => wasm a
  | SExpr e => wf e
  | SFnDecl d => fdok names d
  | SVarDecl d => tyok (vd_ty d) /\ nmok (vd_name d) /\ wf (vd_rhs d)
  | SBlock l => harmless_stmts wstmt l
  | SIf e a b => wf e /\ harmless_stmts wstmt a /\ harmless_stmts wstmt b
  | SDoWhile l e => harmless_stmts wstmt l /\ wf e
  end.
Lemma gives_section {A} (p : parser (list A)) (P : A -> Prop) : gives p (Forall P) -> gives (colon_section p) (Forall P).
Proof.
  intro G. unfold colon_section. apply gives_map. eapply gives_weak; [apply gives_opt, gives_preceded; [ng|exact G]|]. intros [l|] L; [exact L|constructor].
Qed.
Lemma gives_string_with {A} (f : str -> option A) : gives (string_with f) any.
Proof. unfold string_with. pose proof gives_lit_string. ng. Qed.
Lemma gives_asm : gives asm_parse wasm.
Proof.
  unfold asm_parse. apply gives_preceded; [ng|]. apply gives_parens.
  eapply gives_bind with (P := any); [apply gives_delimited; [ng|apply gives_string_with|ng]|]. intros t _.
  eapply gives_bind with (P := Forall (fun x => wf (snd x))).
  { apply gives_section, gives_sep; [ng|]. apply gives_map. eapply gives_weak; [apply gives_pair; [apply gives_string_with|apply gives_parens, gives_expr]|]. intros x [_ X]. exact X. }
  intros outs O. eapply gives_bind with (P := Forall (fun x => wf (snd x))).
  { apply gives_section, gives_sep; [ng|]. eapply gives_weak; [apply gives_pair; [apply gives_string_with|apply gives_parens, gives_expr]|]. intros x [_ X]. exact X. }
  intros ins N. eapply gives_bind with (P := Forall any); [apply gives_section, gives_sep; [ng|apply gives_string_with]|]. intros cl _.
  apply gives_ret. unfold wasm. cbn. rewrite !Forall_map. auto.
Qed.
Lemma gives_static : gives static_type (fun x => tyok (snd x)).
Proof.
  unfold static_type. apply gives_perm; [exact I|]. repeat apply Forall_cons; [..|apply Forall_nil]; apply gives_map.
  - eapply gives_weak with (P := any); [ng|]. cbn. auto.
  - eapply gives_weak; [apply gives_type|]. cbn. auto.
Qed.
Lemma gives_fn_decl : gives fn_decl_parse (fdok names).
Proof.
  unfold fn_decl_parse. eapply gives_bind; [apply gives_static|]. intros t T. eapply gives_bind; [apply gives_concat_ident|]. intros n N.
  eapply gives_bind; [apply gives_parens, gives_sep; [ng|apply gives_pair; [apply gives_type|apply gives_concat_ident]]|]. intros l L. apply gives_ret. repeat split; assumption.
Qed.
Lemma gives_var_decl : gives var_decl_parse (fun d => tyok (vd_ty d) /\ nmok (vd_name d) /\ wf (vd_rhs d)).
Proof.
  unfold var_decl_parse. eapply gives_bind; [apply gives_static|]. intros t T. eapply gives_bind; [apply gives_concat_ident|]. intros n N.
  eapply gives_bind with (P := any); [ng|]. intros _ _. eapply gives_bind; [apply gives_expr|]. intros e E. apply gives_ret. cbn. auto.
Qed.
Lemma block_ok s : wstmt s -> harmless_stmts wstmt (stmt_block s).
Proof. destruct s; cbn; auto. Qed.
Lemma gives_stmt_step rec : gives rec wstmt -> gives (stmt_step rec) wstmt.
Proof.
  intros R. assert (B : gives (pmap stmt_block rec) (harmless_stmts wstmt)).
  { apply gives_map. eapply gives_weak; [exact R|]. apply block_ok. }
  assert (EOF : gives semicolon_or_eof any) by (unfold semicolon_or_eof; ng).
  unfold stmt_step. apply gives_alts. repeat apply Forall_cons; [..|apply Forall_nil].
  - apply gives_map, gives_terminated; [apply gives_asm|exact EOF].
  - eapply gives_bind; [apply gives_preceded; [ng|apply gives_parens, gives_expr]|]. intros e E. eapply gives_bind; [exact B|]. intros a A.
    eapply gives_bind; [apply gives_opt, gives_preceded; [ng|exact B]|]. intros [b|] Q; apply gives_ret; cbn [wstmt]; split; auto; split; auto; exact I.
  - apply gives_map, gives_preceded; [ng|]. eapply gives_weak; [apply gives_pair; [exact B|apply gives_preceded; [ng|apply gives_parens, gives_expr]]|]. cbn [wstmt]. auto.
  - apply gives_map, gives_delimited; [ng| |ng]. eapply gives_weak; [apply gives_many0, gives_preceded; [ng|exact R]|]. intros l L. now apply stmts_forall.
  - apply gives_map, gives_terminated; [apply gives_fn_decl|exact EOF].
  - apply gives_map, gives_terminated; [apply gives_var_decl|exact EOF].
  - apply gives_map, gives_terminated; [apply gives_expr|exact EOF].
Qed.
Lemma gives_pstmt n : gives (pstmt n) wstmt.
Proof. induction n as [|n IH]; [intros ts r a T E; discriminate E|]. exact (gives_stmt_step _ IH). Qed.
Lemma gives_stmt : gives stmt_parse wstmt.
Proof.
  assert (S : gives stmt_parse_single wstmt) by (intros ts r a T E; now apply gives_pstmt in E).
  unfold stmt_parse. apply gives_map. eapply gives_weak; [apply gives_many0, gives_delimited; [ng|exact S|ng]|].
  intros l L. assert (X : wstmt (SBlock l)) by (now apply stmts_forall). destruct l as [|s [|s2 l]]; try exact X. now inversion L.
Qed.
Definition wbody (b : macro_body) : Prop := match b with MbStatement s => wstmt s | MbExpr e => wf e end.
Theorem gives_body : gives macro_body_parse wbody.
Proof.
  unfold macro_body_parse. eapply gives_bind; [apply gives_meta|]. intros _ _ ts r b T.
  destruct ts as [|t ts]; [intro E; injection E as <- <-; split; [constructor|exact I]|].
  eapply gives_alt; [| |exact T]; apply gives_consuming, gives_map; [apply gives_expr|apply gives_stmt].
Qed.
End P.
