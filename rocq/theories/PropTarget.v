(** C64: string constants are generated in a form that the target provides. *)
From Verif Require Import Base Utf Lex LexFloat Token Ast Nom ParseTok ParseExpr ParseStmt Rust Finish Codegen StrFacts SpecInt DecFacts SpecTarget PropFnGen.
From Coq Require Import String List ZArith Lia Bool.
Import ListNotations.
Local Open Scope string_scope.
Local Open Scope list_scope.

(** ** Parts between dots *)

Definition without (c : N) (s : str) : Prop := ~ In c s.
Lemma split_aux_nodot sep cur s : without sep s -> split_on_aux sep cur s = [rev cur ++ s].
Proof.
  revert cur. induction s as [|c s IH]; intros cur H; cbn [split_on_aux]; [now rewrite app_nil_r|].
  destruct (N.eqb_spec c sep) as [->|N]; [destruct H; left; reflexivity|].
  rewrite IH by (intro X; apply H; right; exact X). cbn [rev]. now rewrite <- app_assoc.
Qed.
Lemma split_aux_dot sep cur s r : without sep s -> split_on_aux sep cur (s ++ sep :: r) = (rev cur ++ s) :: split_on_aux sep [] r.
Proof.
  revert cur. induction s as [|c s IH]; intros cur H; cbn [split_on_aux app]; [now rewrite N.eqb_refl, app_nil_r|].
  destruct (N.eqb_spec c sep) as [->|N]; [destruct H; left; reflexivity|].
  rewrite IH by (intro X; apply H; right; exact X). cbn [rev]. now rewrite <- app_assoc.
Qed.
Lemma split_dotted l : l <> [] -> Forall (without 46) l -> split_on 46 (dotted l) = l.
Proof.
  intros N F. unfold split_on. induction l as [|x l IH]; [congruence|]. inversion_clear F as [|? ? F1 F2]. destruct l as [|y l].
  - cbn [dotted]. rewrite split_aux_nodot by exact F1. reflexivity.
  - change (dotted (x :: y :: l)) with (x ++ 46%N :: dotted (y :: l)). rewrite split_aux_dot by exact F1. cbn [rev app].
    now rewrite IH by (assumption || discriminate).
Qed.
Lemma split_on_aux_ne sep cur s : split_on_aux sep cur s <> [].
Proof. revert cur. induction s as [|c s IH]; intros cur; cbn [split_on_aux]; [discriminate|]. destruct (c =? sep)%N; [discriminate|apply IH]. Qed.
Lemma dotted_split_aux cur s : without 46 (rev cur) -> dotted (split_on_aux 46 cur s) = rev cur ++ s /\ Forall (without 46) (split_on_aux 46 cur s).
Proof.
  revert cur. induction s as [|c s IH]; intros cur H; cbn [split_on_aux].
  - split; [now rewrite app_nil_r|]. repeat constructor. exact H.
  - destruct (N.eqb_spec c 46) as [->|N].
    + destruct (IH [] (fun x => x)) as [E F]. split.
      * destruct (split_on_aux 46 [] s) as [|a l] eqn:S; [destruct (split_on_aux_ne 46 [] s S)|]. change (dotted (rev cur :: a :: l)) with (rev cur ++ 46%N :: dotted (a :: l)). rewrite E. reflexivity.
      * constructor; assumption.
    + destruct (IH (c :: cur)) as [E F].
      { cbn [rev]. intro X. apply in_app_iff in X as [X|[X|[]]]; [exact (H X)|congruence]. }
      split; [|exact F]. rewrite E. cbn [rev]. now rewrite <- app_assoc.
Qed.
Lemma dotted_split s : dotted (split_on 46 s) = s.
Proof. exact (proj1 (dotted_split_aux [] s (fun x => x))). Qed.

(** ** Numbers and words *)

Lemma digit_char c : is_digit c = true <-> (48 <= c <= 57)%N.
Proof. unfold is_digit. rewrite andb_true_iff, !N.leb_le. tauto. Qed.
Lemma digits_char s : forallb is_digit s = true <-> all_digits s.
Proof. unfold all_digits. rewrite forallb_forall, Forall_forall. split; intros H c I; apply digit_char; auto. Qed.
Lemma word_chars s : forallb is_alnum s = true <-> Forall word_char s.
Proof.
  rewrite forallb_forall, Forall_forall. unfold word_char. split; intros H c I; specialize (H c I); revert H;
    unfold is_alnum, is_digit, is_upper, is_lower; rewrite !orb_true_iff, !andb_true_iff, !N.leb_le, N.eqb_eq; tauto.
Qed.
Lemma leading s : no_leading_zero s <-> match s with 48%N :: _ :: _ => False | _ => True end.
Proof.
  unfold no_leading_zero. split.
  - intros H. destruct s as [|c [|d s]]; try exact I; destruct c as [|p]; try exact I; repeat (destruct p; try exact I).
    specialize (H _ eq_refl). discriminate H.
  - intros H s' ->. destruct s' as [|d s']; [reflexivity|]. destruct H.
Qed.
Lemma semver_number s v : semver_num s = Some v <-> number s v.
Proof.
  unfold number. rewrite numeral10, leading. destruct s as [|c s]; cbn [semver_num]; [split; [discriminate|intros [[[] _] _]; reflexivity]|].
  destruct (forallb is_digit (c :: s)) eqn:D; [|split; [discriminate|intros ((_ & X & _) & _); discriminate]].
  assert (Z1 : ((c =? 48)%N && match s with [] => false | _ => true end = true) <-> ~ match c :: s with 48%N :: _ :: _ => False | _ => True end).
  { destruct (N.eqb_spec c 48) as [->|N].
    - destruct s; cbn; split; try discriminate; try tauto; auto.
    - cbn [andb]. split; [discriminate|]. intros H. destruct H. destruct c as [|p]; [exact I|]. destruct s; repeat (destruct p; try exact I). congruence. }
  destruct ((c =? 48)%N && _) eqn:Q.
  - apply proj1 in Z1. split; [discriminate|]. intros (_ & X & _). destruct (Z1 eq_refl X).
  - assert (L : match c :: s with 48%N :: _ :: _ => False | _ => True end).
    { destruct c as [|p]; [exact I|]. destruct s as [|d s]; repeat (destruct p; try exact I). cbn in Q. discriminate Q. }
    cbv zeta. destruct (Z.leb_spec (dec_val (c :: s)) 0xFFFFFFFFFFFFFFFF) as [V|V].
    + split; [intros E; injection E as <-|intros ((_ & _ & ->) & _); reflexivity]. split; [|split; [exact L|lia]]. split; [discriminate|auto].
    + split; [discriminate|]. intros ((_ & _ & ->) & _ & X). lia.
Qed.
Lemma semver_word pre s :
  (negb (match s with [] => true | _ => false end) && forallb is_alnum s &&
    negb (pre && forallb is_digit s && match s with 48%N :: _ :: _ => true | _ => false end)) = true <->
  if pre then pre_id s else build_id s.
Proof.
  unfold pre_id, build_id. rewrite !andb_true_iff, !negb_true_iff, word_chars.
  assert (E : (match s with [] => true | _ => false end) = false <-> s <> []) by (destruct s; split; congruence).
  rewrite E. destruct pre; cbn [andb]; [|tauto].
  assert (L : (match s with 48%N :: _ :: _ => true | _ => false end) = false <-> no_leading_zero s).
  { rewrite leading. destruct s as [|c [|d s]]; [tauto| |]; destruct c as [|p]; try tauto; repeat (destruct p; try tauto). split; [discriminate|tauto]. }
  rewrite andb_false_iff, <- digits_char, L. destruct (forallb is_digit s); intuition congruence.
Qed.
Lemma word_nodot pre s : (if pre : bool then pre_id s else build_id s) -> without 46 s /\ without 43 s.
Proof.
  intros H. assert (F : Forall word_char s) by (destruct pre; [exact (proj2 (proj1 H))|exact (proj2 H)]).
  rewrite Forall_forall in F. split; intros I; specialize (F _ I); unfold word_char in F; lia.
Qed.
Lemma number_nodot s v : number s v -> without 46 s /\ without 43 s /\ without 45 s.
Proof.
  intros [H _]. apply numeral10 in H as (_ & D & _). rewrite forallb_forall in D.
  repeat split; intros I; specialize (D _ I); discriminate D.
Qed.
Lemma semver_words pre s : semver_ids pre s = true <-> exists l, l <> [] /\ Forall (if pre then pre_id else build_id) l /\ s = dotted l.
Proof.
  unfold semver_ids. split.
  - intros H. exists (split_on 46 s). split; [apply split_on_aux_ne|]. split; [|now rewrite dotted_split].
    rewrite forallb_forall in H. apply Forall_forall. intros x I. specialize (H x I). apply semver_word in H. destruct pre; exact H.
  - intros (l & N & F & ->). rewrite split_dotted; [|exact N|].
    + apply forallb_forall. intros x I. rewrite Forall_forall in F. specialize (F x I). apply semver_word. destruct pre; exact F.
    + rewrite Forall_forall in *. intros x I. specialize (F x I). apply (word_nodot pre). destruct pre; exact F.
Qed.

(** ** Versions *)

Lemma no_char c s : without c s -> forallb (fun x => negb (x =? c)%N) s = true.
Proof. intros H. apply forallb_forall. intros x I. apply negb_true_iff, N.eqb_neq. intros ->. exact (H I). Qed.
Lemma dotted_without c l : c <> 46%N -> Forall (without c) l -> without c (dotted l).
Proof.
  intros N F. induction l as [|x l IH]; [intros []|]. inversion_clear F as [|? ? F1 F2]. destruct l as [|y l]; [exact F1|].
  change (dotted (x :: y :: l)) with (x ++ 46%N :: dotted (y :: l)). intros I. apply in_app_iff in I as [I|[I|I]]; [exact (F1 I)|congruence|exact (IH F2 I)].
Qed.
Lemma semver_version s x y pre : semver_parse s = Some (x, y, pre) <-> version s x y pre.
Proof.
  unfold semver_parse. split.
  - destruct (take_while _ s) as [core0 build] eqn:T1. destruct (take_while _ core0) as [core p] eqn:T2.
    pose proof (take_while_app _ _ _ _ T1) as E1. pose proof (take_while_app _ _ _ _ T2) as E2.
    pose proof (take_while_stop _ _ _ _ T1) as S1. pose proof (take_while_stop _ _ _ _ T2) as S2.
    destruct (_ && _) eqn:W; [|discriminate]. apply andb_true_iff in W as [W1 W2].
    pose proof (dotted_split core) as D. destruct (split_on 46 core) as [|a [|b [|d [|]]]]; try discriminate. unfold obind.
    destruct (semver_num a) as [x'|] eqn:Na; [|discriminate]. destruct (semver_num b) as [y'|] eqn:Nb; [|discriminate].
    destruct (semver_num d) as [z'|] eqn:Nd; [|discriminate]. intros E. injection E as <- <- <-.
    apply semver_number in Na, Nb, Nd.
    assert (P : exists lp, (lp = [] \/ Forall pre_id lp) /\ p = match lp with [] => [] | _ => st "-" ++ dotted lp end /\
      (match p with [] => false | _ => true end) = match lp with [] => false | _ => true end).
    { destruct p as [|c p]; [exists []; auto|]. apply negb_false_iff, N.eqb_eq in S2. subst c.
      apply semver_words in W2 as (l & Ne & F & ->). exists l. destruct l; [congruence|]. auto. }
    assert (B : exists lb, (lb = [] \/ Forall build_id lb) /\ build = match lb with [] => [] | _ => st "+" ++ dotted lb end).
    { destruct build as [|c p']; [exists []; auto|]. apply negb_false_iff, N.eqb_eq in S1. subst c.
      apply semver_words in W1 as (l & Ne & F & ->). exists l. destruct l; [congruence|]. auto. }
    destruct P as (lp & P1 & P2 & ->). destruct B as (lb & B1 & B2).
    rewrite E1, E2, <- D, P2, B2, <- app_assoc. econstructor; eauto.
  - intros V. destruct V as [a b d x y z lp lb Na Nb Nd P B].
    pose proof (number_nodot _ _ Na) as (A1 & A2 & A3). pose proof (number_nodot _ _ Nb) as (B1 & B2 & B3). pose proof (number_nodot _ _ Nd) as (D1 & D2 & D3).
    assert (C43 : without 43 (dotted [a; b; d])) by (apply dotted_without; [discriminate|auto]).
    assert (C45 : without 45 (dotted [a; b; d])) by (apply dotted_without; [discriminate|auto]).
    assert (P43 : without 43 (match lp with [] => [] | _ => st "-" ++ dotted lp end)).
    { destruct lp as [|p lp]; [intros []|]. destruct P as [P|P]; [discriminate|]. intros [I|I]; [discriminate I|]. revert I.
      apply dotted_without; [discriminate|]. eapply Forall_impl; [|exact P]. intros w Hw. exact (proj2 (word_nodot true w Hw)). }
    rewrite app_assoc, (take_while_intro _ (dotted [a; b; d] ++ match lp with [] => [] | _ => st "-" ++ dotted lp end)).
    + rewrite take_while_intro; [|apply no_char, C45|destruct lp; [exact I|reflexivity]].
      replace (_ && _) with true; [|symmetry; apply andb_true_iff; split].
      * rewrite split_dotted by (discriminate || auto). apply semver_number in Na, Nb, Nd. unfold obind. rewrite Na, Nb, Nd. now destruct lp.
      * destruct lb as [|p lb]; [reflexivity|]. destruct B as [B|B]; [discriminate|]. change (semver_ids false (dotted (p :: lb)) = true). apply semver_words. exists (p :: lb). auto using nil_cons.
      * destruct lp as [|p lp]; [reflexivity|]. destruct P as [P|P]; [discriminate|]. change (semver_ids true (dotted (p :: lp)) = true). apply semver_words. exists (p :: lp). auto using nil_cons.
    + apply no_char. intros I. apply in_app_iff in I as [I|I]; [exact (C43 I)|exact (P43 I)].
    + destruct lb; [exact I|reflexivity].
Qed.
Lemma target_provides cx n : target_at_least cx n = true <-> provides (cx_target cx) n.
Proof.
  unfold target_at_least, provides. destruct (cx_target cx) as [t|]; [|tauto]. destruct (semver_parse t) as [[[x y] pre]|] eqn:E.
  - apply semver_version in E as V. cbn [semver_at_least]. rewrite andb_true_iff, negb_true_iff, orb_true_iff, andb_true_iff, Z.ltb_lt, Z.eqb_eq, Z.leb_le. split.
    + intros H x' y' p' V'. apply semver_version in V'. rewrite E in V'. injection V' as <- <- <-. destruct H as [-> H]. split; [reflexivity|lia].
    + intros H. destruct (H _ _ _ V) as [-> H1]. split; [reflexivity|lia].
  - split; [|reflexivity]. intros _ x y pre V. apply semver_version in V. congruence.
Qed.

(** ** The theorems *)

(** The target of a context is read as a version of SemVer 2.0.0. *)
Theorem C64_version s x y pre : semver_parse s = Some (x, y, pre) <-> version s x y pre.
Proof. apply semver_version. Qed.

(** A string constant is a [CStr] exactly if the target provides a constant
    constructor of it (Rust 1.59) and the string has no zero; otherwise it is an
    array, by a reference whose lifetime is left out exactly if the target
    provides that for constants (Rust 1.17). *)
Definition cstr_type (cx : cgctx) : list rtok :=
  match cx_trait cx with Some p => path_toks p ++ [rp "::"; ri "ffi"; rp "::"; ri "CStr"] | None => [ri "CStr"] end.
Definition u8_array (n : nat) : rtok := brackets [ri "u8"; rp ";"; RLit (RlInt (Z.of_nat n) [])].
Theorem C64_string {U : Unicode} cx name b v ty :
  snd (var_generate cx (mk_var_macro name (MbExpr (ELit (LString (SOrdinary b)))))) = ROk (v, Some ty) ->
  (provides (cx_target cx) 59 -> ~ In 0%N b ->
     ty = rp "&" :: cstr_type cx /\
     v = [braces [rp "#"; brackets [ri "allow"; parens [ri "unsafe_code"]]; ri "unsafe";
                  braces (cstr_type cx ++ [rp "::"; ri "from_bytes_with_nul_unchecked"; parens [RLit (RlBytes (b ++ [0%N]))]])]]) /\
  (~ provides (cx_target cx) 59 \/ In 0%N b ->
     v = [RLit (RlBytes (b ++ [0%N]))] /\
     (provides (cx_target cx) 17 -> ty = [rp "&"; u8_array (S (length b))]) /\
     (~ provides (cx_target cx) 17 -> ty = [rp "&"; RLife (st "static"); u8_array (S (length b))])).
Proof.
  unfold var_generate. cbn [vm_body].
  change (expr_finish cx (ELit (LString (SOrdinary b))) (var_lctx cx)) with (ELit (LString (SOrdinary b)), var_lctx cx, lit_finish cx (LString (SOrdinary b)) (var_lctx cx)).
  unfold lit_finish, string_finish. cbn [snd ofres string_toks lc_cstr var_lctx]. unfold static_ref. cbn [lc_elide var_lctx].
  rewrite <- !target_provides. rewrite app_length, PeanoNat.Nat.add_1_r.
  assert (Z0 : existsb (N.eqb 0) b = true <-> In 0%N b).
  { rewrite existsb_exists. split; [intros (x & I & E); apply N.eqb_eq in E; now subst|intros I; exists 0%N; auto]. }
  assert (T : match cx_trait cx with Some p => path_toks p ++ [rp "::"; ri "ffi"; rp "::"] | None => [] end ++ [ri "CStr"] = cstr_type cx).
  { unfold cstr_type. destruct (cx_trait cx); [now rewrite <- app_assoc|reflexivity]. }
  destruct (target_at_least cx 59) eqn:A; cbn [andb].
  - destruct (existsb (N.eqb 0) b) eqn:X; cbn [negb opanic rbind fst snd lc_macro].
    + intros E. injection E as <- <-. split; [intros _ N; destruct N; now apply Z0|]. intros _. split; [reflexivity|].
      split; intros H; [rewrite H; reflexivity|]. destruct (target_at_least cx 17); [now destruct H|reflexivity].
    + rewrite T. intros E. injection E as <- <-. split; [auto|]. intros [H|H]; [now destruct H|]. apply Z0 in H. discriminate.
  - cbn [opanic rbind fst snd lc_macro]. intros E. injection E as <- <-. split; [discriminate|]. intros _. split; [reflexivity|].
    split; intros H; [rewrite H; reflexivity|]. destruct (target_at_least cx 17); [now destruct H|reflexivity].
Qed.

(** ** Cases *)

Section Demo.
#[local] Existing Instance demo_unicode.
Definition for_target (t : string) : cgctx := mk_cgctx (Some (st t)) None None (fun _ _ => None) (fun _ => None) (fun _ => None) (fun _ _ => None) (fun _ => None).
Let hi := mk_var_macro (st "X") (MbExpr (ELit (LString (SOrdinary (st "hi"))))).

Example C64_release : version (st "1.58.1") 1 58 false.
Proof. apply semver_version. vm_compute. reflexivity. Qed.
Example C64_pre : version (st "1.70.0-beta.2+abc.01") 1 70 true.
Proof. apply semver_version. vm_compute. reflexivity. Qed.
Example C64_provided : forall t n, In (t, n) [("1.59.0", 59); ("1.17.0", 17); ("2.0.0", 59); ("1.100.3", 59)]%Z -> provides (cx_target (for_target t)) n.
Proof. intros t n H. apply target_provides. destruct H as [E|[E|[E|[E|[]]]]]; injection E as <- <-; vm_compute; reflexivity. Qed.
Example C64_not_provided : forall t n, In (t, n) [("1.58.1", 59); ("1.16.0", 17); ("1.9.0", 17); ("0.99.0", 17); ("1.60.0-nightly", 59)]%Z -> ~ provides (cx_target (for_target t)) n.
Proof. intros t n H. rewrite <- target_provides. destruct H as [E|[E|[E|[E|[E|[]]]]]]; injection E as <- <-; vm_compute; discriminate. Qed.
Example C64_old : snd (var_generate (for_target "1.16.0") hi) =
  ROk ([RLit (RlBytes [104; 105; 0]%N)], Some [rp "&"; RLife (st "static"); u8_array 3]).
Proof. vm_compute. reflexivity. Qed.
Example C64_middle : snd (var_generate (for_target "1.58.1") hi) = ROk ([RLit (RlBytes [104; 105; 0]%N)], Some [rp "&"; u8_array 3]).
Proof. vm_compute. reflexivity. Qed.

(** Refuted: a target without a patch number, such as [1.40], counts as the
    newest one; [CStr] is generated for it. *)
Theorem C64_short_refuted : exists v,
  snd (var_generate (for_target "1.40") hi) = ROk (v, Some [rp "&"; ri "CStr"]) /\ provides (cx_target (for_target "1.40")) 59.
Proof. eexists. split; [vm_compute; reflexivity|]. apply target_provides. vm_compute. reflexivity. Qed.
(** Refuted: strings with a prefix, and strings in functions, leave the lifetime
    out for every target. *)
Theorem C64_prefix_refuted : exists v, ~ provides (cx_target (for_target "1.16.0")) 17 /\
  snd (var_generate (for_target "1.16.0") (mk_var_macro (st "X") (MbExpr (ELit (LString (SUtf8 (st "hi"))))))) = ROk (v, Some [rp "&"; u8_array 3]).
Proof. eexists. split; [rewrite <- target_provides; vm_compute; discriminate|vm_compute; reflexivity]. Qed.
Theorem C64_function_refuted : exists m' params ret rest, ~ provides (cx_target (for_target "1.16.0")) 17 /\
  fn_generate (for_target "1.16.0") (mk_fn_macro (st "F") [] (MbExpr (ELit (LString (SOrdinary (st "hi")))))) =
    (m', ROk (function_item (st "F") params ret [braces ([ri "const"; ri "BYTES"; rp ":"; rp "&"; u8_array 3; rp "="] ++ rest)])).
Proof. eexists _, [], (Some [rp "*"; ri "const"; ri "c_char"]), _. split; [rewrite <- target_provides; vm_compute; discriminate|vm_compute; reflexivity]. Qed.
End Demo.

Print Assumptions C64_version.
Print Assumptions C64_string.
Print Assumptions C64_short_refuted.
Print Assumptions C64_prefix_refuted.
Print Assumptions C64_function_refuted.
