(** Facts about the token-level combinators: parsers return a suffix of their
    input, do not run out of fuel and are monotone in their sub-parsers. *)
From Verif Require Import Base Utf Lex LexFloat Token Ast Nom.
From Coq Require Import String List Lia PeanoNat.
Import ListNotations.
Local Open Scope list_scope.

Definition suffix {A} (r ts : list A) : Prop := exists pre, ts = pre ++ r.
Definition ssuffix {A} (r ts : list A) : Prop := exists pre, pre <> [] /\ ts = pre ++ r.

Lemma suffix_refl {A} (r : list A) : suffix r r.
Proof. now exists []. Qed.
Lemma suffix_trans {A} (a b c : list A) : suffix a b -> suffix b c -> suffix a c.
Proof. intros [p ->] [q ->]. exists (q ++ p). now rewrite app_assoc. Qed.
Lemma ssuffix_l {A} (a b c : list A) : ssuffix a b -> suffix b c -> ssuffix a c.
Proof.
  intros [p [Hp ->]] [q ->]. exists (q ++ p). rewrite app_assoc. split; auto.
  intros E. apply app_eq_nil in E. tauto.
Qed.
Lemma ssuffix_r {A} (a b c : list A) : suffix a b -> ssuffix b c -> ssuffix a c.
Proof.
  intros [p ->] [q [Hq ->]]. exists (q ++ p). rewrite app_assoc. split; auto.
  intros E. apply app_eq_nil in E. tauto.
Qed.
Lemma ssuffix_suffix {A} (a b : list A) : ssuffix a b -> suffix a b.
Proof. intros [p [_ ->]]. now exists p. Qed.
Lemma suffix_length {A} (a b : list A) : suffix a b -> length a <= length b.
Proof. intros [p ->]. rewrite app_length. lia. Qed.
Lemma ssuffix_length {A} (a b : list A) : ssuffix a b -> length a < length b.
Proof. intros [p [Hp ->]]. rewrite app_length. destruct p; [congruence|]. simpl. lia. Qed.
Lemma suffix_same {A} (a b : list A) : suffix a b -> length a = length b -> a = b.
Proof. intros [p ->] E. rewrite app_length in E. destruct p; auto. simpl in E. lia. Qed.

(** The parser returns a suffix of its input; a proper one. *)
Definition shr {A} (p : parser A) : Prop := forall ts r a, p ts = POk r a -> suffix r ts.
Definition strict {A} (p : parser A) : Prop := forall ts r a, p ts = POk r a -> ssuffix r ts.
(** The parser does not answer [PFuel] on inputs of at most [n] tokens. *)
Definition tot {A} (n : nat) (p : parser A) : Prop := forall ts, length ts <= n -> p ts <> PFuel.
(** [q] agrees with [p] wherever [p] does not answer [PFuel]. *)
Definition ple {A} (p q : parser A) : Prop := forall ts, p ts <> PFuel -> q ts = p ts.

Create HintDb nom.

Lemma strict_shr {A} (p : parser A) : strict p -> shr p.
Proof. intros Hp ts r a E. apply ssuffix_suffix. eauto. Qed.

Lemma shr_bind {A B} (p : parser A) (k : A -> parser B) : shr p -> (forall a, shr (k a)) -> shr (pbind p k).
Proof.
  intros Hp Hk ts r b. unfold pbind. destruct (p ts) as [r1 a| |] eqn:E; try discriminate.
  intros E2. eapply suffix_trans; [eapply Hk; eauto|eapply Hp; eauto].
Qed.
Lemma strict_bind_l {A B} (p : parser A) (k : A -> parser B) : strict p -> (forall a, shr (k a)) -> strict (pbind p k).
Proof.
  intros Hp Hk ts r b. unfold pbind. destruct (p ts) as [r1 a| |] eqn:E; try discriminate.
  intros E2. eapply ssuffix_r; [eapply Hk; eauto|eapply Hp; eauto].
Qed.
Lemma strict_bind_r {A B} (p : parser A) (k : A -> parser B) : shr p -> (forall a, strict (k a)) -> strict (pbind p k).
Proof.
  intros Hp Hk ts r b. unfold pbind. destruct (p ts) as [r1 a| |] eqn:E; try discriminate.
  intros E2. eapply ssuffix_l; [eapply Hk; eauto|eapply Hp; eauto].
Qed.
Lemma shr_ret {A} (a : A) : shr (pret a).
Proof. intros ts r x E. injection E as <- <-. apply suffix_refl. Qed.
Lemma strict_fail {A} : strict (@pfail A).
Proof. intros ts r x E. discriminate. Qed.
Lemma shr_alt {A} (p q : parser A) : shr p -> shr q -> shr (palt p q).
Proof. intros Hp Hq ts r a. unfold palt. destruct (p ts) eqn:E; intros E2; try discriminate; [injection E2 as <- <-|]; eauto. Qed.
Lemma strict_alt {A} (p q : parser A) : strict p -> strict q -> strict (palt p q).
Proof. intros Hp Hq ts r a. unfold palt. destruct (p ts) eqn:E; intros E2; try discriminate; [injection E2 as <- <-|]; eauto. Qed.
Lemma shr_alts {A} (l : list (parser A)) : Forall shr l -> shr (palts l).
Proof. induction 1; [apply strict_shr, strict_fail|apply shr_alt; auto]. Qed.
Lemma strict_alts {A} (l : list (parser A)) : Forall strict l -> strict (palts l).
Proof. induction 1; [apply strict_fail|apply strict_alt; auto]. Qed.
Lemma shr_opt {A} (p : parser A) : shr p -> shr (popt p).
Proof. intros Hp ts r a. unfold popt. destruct (p ts) eqn:E; intros E2; try discriminate; injection E2 as <- <-; eauto using suffix_refl. Qed.
Lemma shr_map {A B} (f : A -> B) p : shr p -> shr (pmap f p).
Proof. intros. apply shr_bind; auto. intros. apply shr_ret. Qed.
Lemma strict_map {A B} (f : A -> B) p : strict p -> strict (pmap f p).
Proof. intros. apply strict_bind_l; auto. intros. apply shr_ret. Qed.
Lemma shr_value {A B} (b : B) (p : parser A) : shr p -> shr (pvalue b p).
Proof. intros. apply shr_bind; auto. intros. apply shr_ret. Qed.
Lemma strict_value {A B} (b : B) (p : parser A) : strict p -> strict (pvalue b p).
Proof. intros. apply strict_bind_l; auto. intros. apply shr_ret. Qed.
Lemma shr_map_opt {A B} (f : A -> option B) p : shr p -> shr (pmap_opt f p).
Proof. intros. apply shr_bind; auto. intros a. destruct (f a); [apply shr_ret|apply strict_shr, strict_fail]. Qed.
Lemma strict_map_opt {A B} (f : A -> option B) p : strict p -> strict (pmap_opt f p).
Proof. intros. apply strict_bind_l; auto. intros a. destruct (f a); [apply shr_ret|apply strict_shr, strict_fail]. Qed.
Lemma shr_eof : shr peof.
Proof. intros [|t ts] r a E; [injection E as <- <-; apply suffix_refl|discriminate]. Qed.

Lemma fold_many0_n_suffix {A B} (p : parser B) (f : A -> B -> A) n : shr p -> forall acc ts r a,
  fold_many0_n n p f acc ts = POk r a -> suffix r ts.
Proof.
  intros Hp. induction n as [|n IH]; intros acc ts r a; simpl; [discriminate|].
  destruct (p ts) as [r1 b| |] eqn:E; try discriminate.
  - destruct (Nat.eqb_spec (length r1) (length ts)); [discriminate|]. intros E2.
    eapply suffix_trans; eauto.
  - intros E2. injection E2 as <- <-. apply suffix_refl.
Qed.
Lemma shr_fold {A B} (p : parser B) (f : A -> B -> A) acc : shr p -> shr (fold_many0 p f acc).
Proof. intros Hp ts r a. now apply fold_many0_n_suffix. Qed.
Lemma shr_many0 {A} (p : parser A) : shr p -> shr (many0 p).
Proof. apply shr_fold. Qed.
Lemma sep_list_n_suffix {A X} (sep : parser X) (p : parser A) n : shr sep -> shr p -> forall acc ts r a,
  sep_list_n n sep p acc ts = POk r a -> suffix r ts.
Proof.
  intros Hs Hp. induction n as [|n IH]; intros acc ts r a; simpl; [discriminate|].
  destruct (sep ts) as [r1 b| |] eqn:E; try discriminate.
  - destruct (Nat.eqb_spec (length r1) (length ts)); [discriminate|].
    destruct (p r1) as [r2 x| |] eqn:E1; try discriminate; intros E2.
    + eapply suffix_trans; [eapply IH; eauto|]. eapply suffix_trans; [eapply Hp; eauto|eapply Hs; eauto].
    + injection E2 as <- <-. apply suffix_refl.
  - intros E2. injection E2 as <- <-. apply suffix_refl.
Qed.
Lemma shr_sep {A X} (sep : parser X) (p : parser A) : shr sep -> shr p -> shr (separated_list0 sep p).
Proof.
  intros Hs Hp ts r a. unfold separated_list0. destruct (p ts) as [r1 x| |] eqn:E; try discriminate; intros E2.
  - eapply suffix_trans; [eapply (sep_list_n_suffix sep p _ Hs Hp); exact E2|eapply Hp; exact E].
  - injection E2 as <- <-. apply suffix_refl.
Qed.

Lemma perm_try_spec {X} (ps : list (bool * parser (X -> X))) s ts r ps2 s2 :
  perm_try ps s ts = POk r (ps2, s2) ->
  exists l p q f, ps = l ++ (false, p) :: q /\ ps2 = l ++ (true, p) :: q /\ p ts = POk r f /\ s2 = f s.
Proof.
  revert ps2. induction ps as [|[[] p] ps IH]; intros ps2; simpl; [discriminate| |].
  - destruct (perm_try ps s ts) as [r1 [ps3 s3]| |] eqn:E; try discriminate.
    intros E2. injection E2 as <- <- <-. destruct (IH _ eq_refl) as (l & p' & q & f & -> & -> & ? & ?).
    exists ((true, p) :: l), p', q, f. auto.
  - destruct (p ts) as [r1 f| |] eqn:Ep; try discriminate.
    + intros E2. injection E2 as <- <- <-. exists [], p, ps, f. auto.
    + destruct (perm_try ps s ts) as [r1 [ps3 s3]| |] eqn:E; try discriminate.
      intros E2. injection E2 as <- <- <-. destruct (IH _ eq_refl) as (l & p' & q & f & -> & -> & ? & ?).
      exists ((false, p) :: l), p', q, f. auto.
Qed.
Definition pending_strict {X} (ps : list (bool * parser (X -> X))) : Prop := Exists (fun x => fst x = false /\ strict (snd x)) ps.
Lemma perm_loop_suffix {X} n : forall (ps : list (bool * parser (X -> X))) s ts r a,
  Forall (fun x => shr (snd x)) ps -> perm_loop n ps s ts = POk r a ->
  suffix r ts /\ (pending_strict ps -> ssuffix r ts).
Proof.
  induction n as [|n IH]; intros ps s ts r a Hall; simpl; destruct (forallb fst ps) eqn:Ef.
  1,3: intros E; injection E as <- <-; split; [apply suffix_refl|];
    intros Hx; exfalso; apply Exists_exists in Hx; destruct Hx as (x & Hin & Hx & _);
    rewrite forallb_forall in Ef; rewrite (Ef _ Hin) in Hx; discriminate.
  - discriminate.
  - destruct (perm_try ps s ts) as [r1 [ps2 s2]| |] eqn:E; try discriminate. intros E2.
    apply perm_try_spec in E. destruct E as (l & p & q & f & -> & -> & Ep & ->).
    apply Forall_app in Hall. destruct Hall as [Hl Hq]. inversion Hq as [|? ? Hp Hq']; subst. simpl in Hp.
    destruct (IH _ _ _ _ _ (proj2 (Forall_app _ _ _) (conj Hl (Forall_cons (true, p) Hp Hq'))) E2) as [S1 S2].
    split; [eapply suffix_trans; eauto|].
    intros Hx. unfold pending_strict in *. apply Exists_app in Hx. destruct Hx as [Hx|Hx].
    + eapply ssuffix_l; [apply S2, Exists_app; auto|eauto].
    + inversion Hx as [? ? [_ Hs]|? ? Hx']; subst.
      * eapply ssuffix_r; [exact S1|]. eapply Hs, Ep.
      * eapply ssuffix_l; [apply S2, Exists_app; right; now apply Exists_cons_tl|eauto].
Qed.
Lemma shr_perm {X} (ps : list (parser (X -> X))) s : Forall shr ps -> shr (permutation ps s).
Proof.
  intros Hall ts r a E. eapply perm_loop_suffix; [|exact E].
  apply Forall_map. simpl. exact Hall.
Qed.
Lemma strict_perm {X} (ps : list (parser (X -> X))) s : Forall shr ps -> Exists strict ps -> strict (permutation ps s).
Proof.
  intros Hall Hex ts r a E. eapply perm_loop_suffix; [|exact E|].
  - apply Forall_map. simpl. exact Hall.
  - unfold pending_strict. clear - Hex. induction Hex; simpl; [left; auto|right; auto].
Qed.

Lemma strict_take_one : strict take_one.
Proof. intros [|t ts] r a E; [discriminate|]. injection E as <- <-. now exists [t]. Qed.
Lemma strict_macro_arg : strict macro_arg.
Proof. apply strict_map_opt, strict_take_one. Qed.
Lemma strict_macro_id : strict macro_id.
Proof. apply strict_map_opt, strict_take_one. Qed.
Lemma strict_comment : strict comment.
Proof. apply strict_map_opt, strict_take_one. Qed.
Lemma strict_punct p : strict (punct p).
Proof. apply strict_map_opt, strict_take_one. Qed.
Lemma strict_id p : strict (id p).
Proof. apply strict_map_opt, strict_take_one. Qed.
Lemma strict_keyword p : strict (keyword p).
Proof. apply strict_id. Qed.
Lemma shr_meta : shr meta.
Proof. apply shr_many0, strict_shr, strict_comment. Qed.

(** ** Totality *)

Lemma tot_le {A} n m (p : parser A) : tot n p -> m <= n -> tot m p.
Proof. intros Hp Hm ts Hl. apply Hp. lia. Qed.
Lemma tot_bind {A B} n (p : parser A) (k : A -> parser B) : tot n p -> shr p -> (forall a, tot n (k a)) -> tot n (pbind p k).
Proof.
  intros Hp Hs Hk ts Hl. unfold pbind. specialize (Hp ts Hl). destruct (p ts) as [r a| |] eqn:E; try congruence.
  apply Hk. apply Hs, suffix_length in E. lia.
Qed.
Lemma tot_bind_strict {A B} n (p : parser A) (k : A -> parser B) :
  tot n p -> strict p -> (forall a m, m < n -> tot m (k a)) -> tot n (pbind p k).
Proof.
  intros Hp Hs Hk ts Hl. unfold pbind. specialize (Hp ts Hl). destruct (p ts) as [r a| |] eqn:E; try congruence.
  apply Hs, ssuffix_length in E. eapply (Hk a (length r)); lia.
Qed.
Lemma tot_ret {A} n (a : A) : tot n (pret a).
Proof. intros ts _. discriminate. Qed.
Lemma tot_fail {A} n : tot n (@pfail A).
Proof. intros ts _. discriminate. Qed.
Lemma tot_alt {A} n (p q : parser A) : tot n p -> tot n q -> tot n (palt p q).
Proof. intros Hp Hq ts Hl. unfold palt. specialize (Hp ts Hl). destruct (p ts); auto. Qed.
Lemma tot_alts {A} n (l : list (parser A)) : Forall (tot n) l -> tot n (palts l).
Proof. induction 1; [apply tot_fail|apply tot_alt; auto]. Qed.
Lemma tot_opt {A} n (p : parser A) : tot n p -> tot n (popt p).
Proof. intros Hp ts Hl. unfold popt. specialize (Hp ts Hl). destruct (p ts); try congruence; discriminate. Qed.
Lemma tot_map {A B} n (f : A -> B) p : tot n p -> shr p -> tot n (pmap f p).
Proof. intros. apply tot_bind; auto. intros. apply tot_ret. Qed.
Lemma tot_value {A B} n (b : B) (p : parser A) : tot n p -> shr p -> tot n (pvalue b p).
Proof. intros. apply tot_bind; auto. intros. apply tot_ret. Qed.
Lemma tot_map_opt {A B} n (f : A -> option B) p : tot n p -> shr p -> tot n (pmap_opt f p).
Proof. intros. apply tot_bind; auto. intros a. destruct (f a); [apply tot_ret|apply tot_fail]. Qed.
Lemma tot_eof n : tot n peof.
Proof. intros [|t ts] _; discriminate. Qed.
Lemma tot_fold {A B} n (p : parser B) (f : A -> B -> A) acc : tot n p -> shr p -> tot n (fold_many0 p f acc).
Proof.
  intros Hp Hs ts Hl. unfold fold_many0.
  enough (G : forall m acc ts, length ts < m -> length ts <= n -> fold_many0_n m p f acc ts <> PFuel) by (apply G; lia).
  clear ts Hl acc. induction m as [|m IH]; intros acc ts Hm Hl; [lia|]. simpl.
  pose proof (Hp ts Hl). destruct (p ts) as [r b| |] eqn:E; try congruence.
  destruct (Nat.eqb_spec (length r) (length ts)); [discriminate|].
  apply Hs, suffix_length in E. apply IH; lia.
Qed.
Lemma tot_many0 {A} n (p : parser A) : tot n p -> shr p -> tot n (many0 p).
Proof. apply tot_fold. Qed.
Lemma tot_sep {A X} n (sep : parser X) (p : parser A) : tot n sep -> shr sep -> tot n p -> shr p -> tot n (separated_list0 sep p).
Proof.
  intros Hs Ss Hp Sp ts Hl. unfold separated_list0.
  assert (G : forall m acc ts, length ts < m -> length ts <= n -> sep_list_n m sep p acc ts <> PFuel).
  { clear ts Hl. induction m as [|m IH]; intros acc ts Hm Hl; [lia|]. simpl.
    pose proof (Hs ts Hl). destruct (sep ts) as [r b| |] eqn:E; try congruence.
    destruct (Nat.eqb_spec (length r) (length ts)); [discriminate|].
    apply Ss, suffix_length in E.
    assert (Hr : p r <> PFuel) by (apply Hp; lia).
    destruct (p r) as [r2 x| |] eqn:E2; try congruence.
    apply Sp, suffix_length in E2. apply IH; lia. }
  pose proof (Hp ts Hl). destruct (p ts) as [r x| |] eqn:E; try congruence.
  apply Sp, suffix_length in E. apply G; lia.
Qed.
Lemma tot_perm {X} n (ps : list (parser (X -> X))) s : Forall (tot n) ps -> Forall shr ps -> tot n (permutation ps s).
Proof.
  intros Ht Hs. unfold permutation. generalize (length ps) as m. intros m.
  assert (Ht' : Forall (fun x => tot n (snd x)) (map (pair false) ps)) by (apply Forall_map; exact Ht).
  assert (Hs' : Forall (fun x => shr (snd x)) (map (pair false) ps)) by (apply Forall_map; exact Hs).
  revert Ht' Hs'. generalize (map (pair false) ps). clear. revert s.
  induction m as [|m IH]; intros s l Ht Hs ts Hl; simpl; destruct (forallb fst l); try discriminate.
  assert (Htry : perm_try l s ts <> PFuel).
  { clear IH. induction Ht as [|[[] p] l Hp Ht IHt]; simpl; [discriminate| |].
    - inversion Hs; subst. specialize (IHt H2). destruct (perm_try l s ts) as [? []| |]; congruence.
    - inversion Hs; subst. specialize (IHt H2). specialize (Hp ts Hl). simpl in Hp. destruct (p ts); try congruence.
      destruct (perm_try l s ts) as [? []| |]; congruence. }
  destruct (perm_try l s ts) as [r [ps2 s2]| |] eqn:E; try congruence.
  apply perm_try_spec in E. destruct E as (a & p & b & f & -> & -> & Ep & ->).
  apply Forall_app in Ht. destruct Ht as [Hta Htb]. inversion Htb; subst.
  apply Forall_app in Hs. destruct Hs as [Hsa Hsb]. inversion Hsb; subst. simpl in *.
  apply IH.
  - apply Forall_app. split; auto.
  - apply Forall_app. split; auto.
  - apply H3, suffix_length in Ep. lia.
Qed.
Lemma tot_take_one n : tot n take_one.
Proof. intros [|t ts] _; discriminate. Qed.
Lemma tot_one {A} n (f : mtoken -> option A) : tot n (pmap_opt f take_one).
Proof. apply tot_map_opt; [apply tot_take_one|apply strict_shr, strict_take_one]. Qed.
Lemma tot_macro_arg n : tot n macro_arg.  Proof. apply tot_one. Qed.
Lemma tot_macro_id n : tot n macro_id.  Proof. apply tot_one. Qed.
Lemma tot_comment n : tot n comment.  Proof. apply tot_one. Qed.
Lemma tot_punct n p : tot n (punct p).  Proof. apply tot_one. Qed.
Lemma tot_id n p : tot n (id p).  Proof. apply tot_one. Qed.
Lemma tot_keyword n p : tot n (keyword p).  Proof. apply tot_one. Qed.
Lemma tot_meta n : tot n meta.
Proof. apply tot_many0; [apply tot_comment|apply strict_shr, strict_comment]. Qed.

(** ** Monotonicity *)

Lemma ple_refl {A} (p : parser A) : ple p p.
Proof. intros ts _. reflexivity. Qed.
Lemma ple_bind {A B} (p q : parser A) (k j : A -> parser B) : ple p q -> (forall a, ple (k a) (j a)) -> ple (pbind p k) (pbind q j).
Proof.
  intros Hp Hk ts. unfold pbind. destruct (p ts) as [r a| |] eqn:E; intros Hne; try congruence;
  rewrite (Hp ts) by congruence; rewrite E; auto. now apply Hk.
Qed.
Lemma ple_alt {A} (p q p' q' : parser A) : ple p p' -> ple q q' -> ple (palt p q) (palt p' q').
Proof.
  intros Hp Hq ts. unfold palt. destruct (p ts) as [r a| |] eqn:E; intros Hne; try congruence;
  rewrite (Hp ts) by congruence; rewrite E; auto.
Qed.
Lemma ple_alts {A} (l l' : list (parser A)) : Forall2 ple l l' -> ple (palts l) (palts l').
Proof. induction 1; [apply ple_refl|apply ple_alt; auto]. Qed.
Lemma ple_opt {A} (p q : parser A) : ple p q -> ple (popt p) (popt q).
Proof. intros Hp ts. unfold popt. destruct (p ts) as [r a| |] eqn:E; intros Hne; try congruence; rewrite (Hp ts) by congruence; now rewrite E. Qed.
Lemma ple_map {A B} (f : A -> B) p q : ple p q -> ple (pmap f p) (pmap f q).
Proof. intros. apply ple_bind; auto. intros. apply ple_refl. Qed.
Lemma ple_map_opt {A B} (f : A -> option B) p q : ple p q -> ple (pmap_opt f p) (pmap_opt f q).
Proof. intros. apply ple_bind; auto. intros. apply ple_refl. Qed.
Lemma ple_fold {A B} (p q : parser B) (f : A -> B -> A) acc : ple p q -> ple (fold_many0 p f acc) (fold_many0 q f acc).
Proof.
  intros Hp ts. unfold fold_many0. generalize (S (length ts)) as n. intros n. revert acc ts.
  induction n as [|n IH]; intros acc ts; simpl; auto.
  destruct (p ts) as [r b| |] eqn:E; intros Hne; try congruence; rewrite (Hp ts) by congruence; rewrite E; auto.
  destruct (Nat.eqb (length r) (length ts)); auto.
Qed.
Lemma ple_many0 {A} (p q : parser A) : ple p q -> ple (many0 p) (many0 q).
Proof. apply ple_fold. Qed.
Lemma ple_sep {A X} (sep sep' : parser X) (p q : parser A) : ple sep sep' -> ple p q -> ple (separated_list0 sep p) (separated_list0 sep' q).
Proof.
  intros Hs Hp ts. unfold separated_list0.
  assert (G : forall n acc ts, sep_list_n n sep p acc ts <> PFuel -> sep_list_n n sep' q acc ts = sep_list_n n sep p acc ts).
  { clear ts. induction n as [|n IH]; intros acc ts; simpl; auto.
    destruct (sep ts) as [r b| |] eqn:E; intros Hne; try congruence; rewrite (Hs ts) by congruence; rewrite E; auto.
    destruct (Nat.eqb (length r) (length ts)); auto.
    destruct (p r) as [r2 x| |] eqn:E2; try congruence; rewrite (Hp r) by congruence; rewrite E2; auto. }
  destruct (p ts) as [r x| |] eqn:E; intros Hne; try congruence; rewrite (Hp ts) by congruence; rewrite E; auto.
Qed.
