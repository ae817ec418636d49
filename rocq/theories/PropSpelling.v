(** C20: strings made by [#] are told apart by their spellings. *)
From Verif Require Import Base Utf Lex LexFloat Token StrFacts SpecStringify StringifyFacts PropStringify Display DisplayFacts.
From Coq Require Import NArith String List Lia.
Local Open Scope list_scope.
Local Open Scope N_scope.

Lemma hex_digits f : forall g n acc, n < 16 ^ N.of_nat f -> n < 16 ^ N.of_nat g -> 0 < N.of_nat f -> 0 < N.of_nat g ->
  hex_aux f n acc = digits 16 g n acc.
Proof.
  induction f as [|f IH]; intros g n acc Hf Hg H1 H2; [lia|]. destruct g as [|g]; [lia|]. cbn [hex_aux digits].
  destruct (N.ltb_spec n 16).
  - rewrite N.div_small, N.mod_small by lia. reflexivity.
  - destruct (N.eqb_spec (n / 16) 0) as [E|E].
    { exfalso. pose proof (N.div_mod n 16 ltac:(lia)). pose proof (N.mod_lt n 16 ltac:(lia)). lia. }
    rewrite Nat2N.inj_succ in Hf, Hg. rewrite N.pow_succ_r' in Hf, Hg.
    assert (A : n / 16 < 16 ^ N.of_nat f) by (apply N.div_lt_upper_bound; lia).
    assert (B : n / 16 < 16 ^ N.of_nat g) by (apply N.div_lt_upper_bound; lia).
    apply IH; try easy.
    + destruct f as [|f]; [cbn [N.of_nat] in A; change (16 ^ 0) with 1 in A|]; lia.
    + destruct g as [|g]; [cbn [N.of_nat] in B; change (16 ^ 0) with 1 in B|]; lia.
Qed.
Lemma hex_number n : n < 2 ^ 32 -> hex n = number 16 n.
Proof.
  intros Hn. unfold hex, number. apply hex_digits; try lia.
  rewrite Nat2N.inj_succ, N2Nat.id. pose proof (N.size_gt n).
  apply N.lt_le_trans with (2 ^ N.size n); [easy|]. apply N.le_trans with (16 ^ N.size n).
  - apply N.pow_le_mono_l. lia.
  - apply N.pow_le_mono_r; lia.
Qed.

Section S.
Context `{Unicode}.
Definition as_is (c : N) : bool := (32 <=? c) && (c <? 127) || (128 <=? c) && negb (u_escape c).
Lemma debug_same c : c < 2 ^ 32 -> Token.debug_char c = Display.debug_char as_is c.
Proof.
  intros Hc. unfold Token.debug_char, Display.debug_char, as_is. rewrite (hex_number c Hc).
  destruct (N.eqb_spec c 0); [reflexivity|]. destruct (N.eqb_spec c 9); [reflexivity|]. destruct (N.eqb_spec c 13); [reflexivity|].
  destruct (N.eqb_spec c 10); [reflexivity|]. destruct (N.eqb_spec c 34); [now subst|]. destruct (N.eqb_spec c 92); [now subst|].
  cbn [orb]. destruct ((32 <=? c) && (c <? 127)); [reflexivity|]. cbn [orb]. destruct ((128 <=? c) && negb (u_escape c)); reflexivity.
Qed.

(** C20: different strings have different spellings, whatever characters they
    contain (a [char] is a number below 2^32); so they still differ after
    another [#]. *)
Theorem C20_told_apart : forall nested nested' a b l sp l' sp',
  Forall (spellable nested) a -> Forall (spellable nested') b ->
  Forall (fun c => c < 2 ^ 32) (contents a) -> Forall (fun c => c < 2 ^ 32) (contents b) ->
  stringify nested a = [TLit l sp] -> stringify nested' b = [TLit l' sp'] ->
  sp = sp' -> contents a = contents b.
Proof.
  intros nested nested' a b l sp l' sp' Ha Hb Ca Cb Ea Eb E.
  rewrite stringify_spec in Ea by easy. rewrite stringify_spec in Eb by easy. injection Ea as _ <-. injection Eb as _ <-.
  assert (Hs : forall s, Forall (fun c => c < 2 ^ 32) s -> Token.debug_str s = Display.debug_str as_is s).
  { intros s Hs. unfold Token.debug_str, Display.debug_str. rewrite flat_map_concat_map. do 3 f_equal.
    induction Hs as [|c s Hc _ IH]; [reflexivity|]. cbn [map]. now rewrite IH, debug_same. }
  rewrite (Hs _ Ca), (Hs _ Cb) in E. now apply debug_str_inj in E.
Qed.
End S.

(** Two characters that [{:?}] escapes, equal but for their first digit. *)
Example C20_told_apart_case :
  let a := [TPlain [0x1F600]] in let b := [TPlain [0xF600]] in
  Forall (spellable true) a /\ Forall (spellable true) b /\
  stringify true a = [TLit (LString (SOrdinary [0xF0; 0x9F; 0x98; 0x80])) (st """\u{1f600}""")] /\
  stringify true b = [TLit (LString (SOrdinary [0xEF; 0x98; 0x80])) (st """\u{f600}""")].
Proof. cbv zeta. split; [|split]; [repeat constructor..|]. split; vm_compute; reflexivity. Qed.

Print Assumptions C20_told_apart.
