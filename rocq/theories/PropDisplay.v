(** * C80: an error's message tells which error it is

    Users of a build see errors only as messages.  Two errors with the same message are the same
    error, with the same name, type, token and numbers in it, among the errors of parsing, of
    expansion and of code generation together.  Tokens are quoted so that the message
    holds nothing that cannot be displayed. *)
From Verif Require Import Base Token ParseStmt Rust Display DisplayFacts.
From Coq Require Import NArith String List Lia.
Import ListNotations.
Local Open Scope list_scope.
Local Open Scope N_scope.

(** Every error that the functions of the library return. *)
Inductive any_error := OfParser (e : parser_error) | OfCodegen (e : cgerr) | OfExpansion (e : xerr).

Definition message (pr : N -> bool) (e : any_error) : str :=
  match e with
  | OfParser e => parser_message e
  | OfCodegen e => codegen_message e
  | OfExpansion e => expansion_message pr e
  end.

Section Injective.
Variable pr : N -> bool.

Lemma last_text a b : b <> [] -> last (a ++ b) 0 = last b 0.
Proof.
  intro H. induction a as [|c a IH]; [reflexivity|]. cbn [app].
  rewrite <- IH. destruct (a ++ b) eqn:E; [|reflexivity].
  apply app_eq_nil in E. destruct E. contradiction.
Qed.

Definition last_char (e : xerr) : N :=
  match e with
  | MacroNotFound => 100 | InvalidToken _ => 34 | FnMacroArgumentError _ _ _ => 110
  | ConcatBegin | ConcatEnd => 96 | NonVariadicVarArgs => 111 | NonUniqueArgument _ => 101
  | StringifyNonArgument => 116 | InvalidConcat => 110 | InvalidArgumentName => 114
  end.

Lemma message_last e : last (expansion_message pr e) 0 = last_char e.
Proof.
  destruct e; cbn [expansion_message]; try reflexivity.
  - unfold debug_str. rewrite !app_assoc. rewrite last_text; [reflexivity | discriminate].
  - rewrite !app_assoc. rewrite last_text; [reflexivity | discriminate].
  - rewrite !app_assoc. rewrite last_text; [reflexivity | discriminate].
Qed.

Lemma arguments_inj n r g n' r' g' :
  expansion_message pr (FnMacroArgumentError n r g) = expansion_message pr (FnMacroArgumentError n' r' g') ->
  FnMacroArgumentError n r g = FnMacroArgumentError n' r' g'.
Proof.
  cbn [expansion_message]. intro E. apply app_inv_head in E.
  assert (ND : ~ is_digit_char 32) by (unfold is_digit_char; lia).
  assert (DD : forall k, Forall is_digit_char (number 10 k)) by (intro; apply number_chars; lia).
  replace (n ++ st " requires " ++ number 10 (N.of_nat r) ++ st " arguments, " ++ number 10 (N.of_nat g) ++ st " given")
    with ((((n ++ st " requires") ++ 32 :: number 10 (N.of_nat r)) ++ st " arguments,") ++ 32 :: number 10 (N.of_nat g) ++ st " given") in E
    by (rewrite <- !app_assoc; reflexivity).
  replace (n' ++ st " requires " ++ number 10 (N.of_nat r') ++ st " arguments, " ++ number 10 (N.of_nat g') ++ st " given")
    with ((((n' ++ st " requires") ++ 32 :: number 10 (N.of_nat r')) ++ st " arguments,") ++ 32 :: number 10 (N.of_nat g') ++ st " given") in E
    by (rewrite <- !app_assoc; reflexivity).
  rewrite !app_comm_cons, !app_assoc in E. apply app_inv_tail in E.
  apply (split_at_end is_digit_char) in E; [|apply DD|apply DD|exact ND]. destruct E as [Eg E].
  apply app_inv_tail in E.
  apply (split_at_end is_digit_char) in E; [|apply DD|apply DD|exact ND]. destruct E as [Er E].
  apply app_inv_tail in E. apply number_inj in Eg; [|lia]. apply number_inj in Er; [|lia].
  apply Nnat.Nat2N.inj in Eg. apply Nnat.Nat2N.inj in Er. subst. reflexivity.
Qed.

End Injective.

Theorem C80_message pr e1 e2 : message pr e1 = message pr e2 -> e1 = e2.
Proof.
  intro E. destruct e1 as [e1|e1|e1], e2 as [e2|e2|e2]; cbn [message] in E.
  - destruct e1, e2; try reflexivity; discriminate E.
  - destruct e1, e2; discriminate E.
  - destruct e1, e2; discriminate E.
  - destruct e1, e2; discriminate E.
  - destruct e1, e2; cbn [codegen_message] in E; try discriminate E; try reflexivity;
      apply app_inv_head in E; subst; reflexivity.
  - destruct e1, e2; discriminate E.
  - destruct e1, e2; discriminate E.
  - destruct e1, e2; discriminate E.
  - f_equal. pose proof (f_equal (fun s => last s 0) E) as L. cbn beta in L. rewrite !message_last in L.
    destruct e1, e2; cbn [last_char] in L; try discriminate L; try reflexivity; try discriminate E.
    + cbn [expansion_message] in E. apply app_inv_head in E. apply debug_str_inj in E. subst. reflexivity.
    + exact (arguments_inj _ _ _ _ _ _ _ E).
    + cbn [expansion_message] in E. apply app_inv_head in E. apply app_inv_tail in E. subst. reflexivity.
Qed.
Print Assumptions C80_message.

(** What is quoted holds only displayable characters: those the standard library calls
    printable, and visible ASCII characters. *)
Theorem C80_displayable pr t :
  Forall (fun c => pr c = true \/ 32 <= c < 127) (message pr (OfExpansion (InvalidToken t))).
Proof.
  cbn [message expansion_message]. apply Forall_app. split.
  - apply Forall_forall. intros c H. right. cbn in H. repeat (destruct H as [<- | H]; [lia|]). destruct H.
  - unfold debug_str. cbn [app]. constructor; [right; lia|]. apply Forall_app. split.
    + induction t as [|c t IH]; cbn [map concat]; [constructor|]. apply Forall_app. split; [|exact IH].
      eapply Forall_impl; [|apply debug_char_visible]. cbn. intros x [H | H]; [auto | right; lia].
    + constructor; [right; lia | constructor].
Qed.
Print Assumptions C80_displayable.

(** The value of a run of decimal digits. *)
Definition decimal_value (s : str) : N := fold_left (fun a c => a * 10 + (c - 48)) s 0.
Definition decimal (s : str) (n : nat) : Prop :=
  s <> [] /\ Forall (fun c => 48 <= c < 58) s /\ decimal_value s = N.of_nat n.

Lemma number_decimal n : decimal (number 10 (N.of_nat n)) n.
Proof.
  assert (D : Forall (fun c => 48 <= c < 58) (number 10 (N.of_nat n))).
  { unfold number. assert (G : forall f k acc, Forall (fun c => 48 <= c < 58) acc -> Forall (fun c => 48 <= c < 58) (digits 10 f k acc)).
    { induction f as [|f IH]; intros k acc Ha; [exact Ha|]. cbn [digits].
      assert (L : k mod 10 < 10) by (apply N.mod_lt; discriminate).
      assert (Hd : 48 <= digit_char (k mod 10) < 58).
      { revert L. generalize (k mod 10) as d. intros d L. unfold digit_char. destruct (N.ltb_spec d 10); lia. }
      destruct (k / 10 =? 0); [|apply IH]; constructor; assumption. }
    apply G. constructor. }
  split; [|split; [exact D|]].
  - unfold number. cbn [digits]. set (a := [digit_char (N.of_nat n mod 10)]).
    assert (G : forall f k acc, acc <> [] -> digits 10 f k acc <> []).
    { induction f as [|f IH]; intros k acc Ha; [exact Ha|]. cbn [digits]. destruct (k / 10 =? 0); [|apply IH]; discriminate. }
    destruct (N.of_nat n / 10 =? 0); [discriminate|]. apply G. discriminate.
  - assert (V : value 10 (number 10 (N.of_nat n)) = N.of_nat n) by (apply number_value; discriminate).
    transitivity (value 10 (number 10 (N.of_nat n))); [|exact V]. clear V. unfold decimal_value, value.
    revert D. generalize (number 10 (N.of_nat n)) as s, 0 as a. induction s as [|c s IH]; intros a D; [reflexivity|].
    inversion D as [|? ? Hc Hs]; subst. cbn [fold_left]. rewrite IH by exact Hs. f_equal. unfold digit_val.
    destruct (N.ltb_spec c 58); [reflexivity|lia].
Qed.

(** The numbers of a wrong call are where the message says they are. *)
Theorem C80_counts pr name required given : exists r g,
  message pr (OfExpansion (FnMacroArgumentError name required given)) =
    st "macro " ++ name ++ st " requires " ++ r ++ st " arguments, " ++ g ++ st " given" /\
  decimal r required /\ decimal g given.
Proof. eexists _, _. split; [reflexivity|]. split; apply number_decimal. Qed.
Print Assumptions C80_counts.

(** The messages name what they are about. *)
Example C80_case :
  let pr c := (32 <=? c) && (c <? 127) in
  message pr (OfExpansion (FnMacroArgumentError (st "F") 12 0)) = st "macro F requires 12 arguments, 0 given" /\
  message pr (OfExpansion (InvalidToken [64; 34; 10; 955])) = st "macro contains an invalid token: ""@\""\n\u{3bb}""" /\
  message pr (OfExpansion (NonUniqueArgument (st "x"))) = st "macro argument x is not unique" /\
  message pr (OfCodegen (UnsupportedType (st "T"))) = st "unsupported type T" /\
  message pr (OfCodegen (UnsupportedExpression (st "a"))) = st "unsupported expression: a" /\
  message pr (OfParser InvalidMacroArgs) = st "invalid macro arguments".
Proof. vm_compute. repeat split. Qed.

(** Names need no quotes, even if they hold the words of the message. *)
Example C80_names :
  let pr (c : N) := true in
  message pr (OfExpansion (FnMacroArgumentError (st "F requires 1 arguments, 2 given") 1 2)) <>
  message pr (OfExpansion (FnMacroArgumentError (st "F") 1 2)) /\
  message pr (OfExpansion (NonUniqueArgument (st "x is not unique"))) <> message pr (OfExpansion (NonUniqueArgument (st "x"))).
Proof. split; vm_compute; discriminate. Qed.
