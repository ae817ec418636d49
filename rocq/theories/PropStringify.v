(** C20, C54: the operator [#]. *)
From Verif Require Import Base Utf Lex LexFloat Token MacroSet StrFacts LexFacts SpecSet SetFacts SpecCall CallFacts
  ExpandFacts ExpandInv TokenFacts SpecTokens ParamFacts SpecPaste PasteFacts SpecRescan SpecExpand ObjFacts FullFacts
  PropObject PropExpand SpecStringify StringifyFacts.
From Coq Require Import String List.
Local Open Scope list_scope.

Section S.
Context `{Unicode}.

(** C20: the operator on an argument. *)
Theorem C20_one_string : forall nested arg, Forall (spellable nested) arg ->
  exists sp, stringify nested arg = [TLit (LString (SOrdinary (utf8_encode (contents arg)))) sp].
Proof. intros nested arg Ha. eexists. now apply stringify_spec. Qed.

(** For an argument with tokens that cannot be spelled yet, these are kept in
    front, each under its own [#], and the others make up the string. *)
Theorem C20_deferred : forall nested arg,
  let kept := filter (deferred nested) arg in
  let spelled := filter (fun t => negb (deferred nested t)) arg in
  exists str, stringify nested arg = flat_map (fun t => [hash; t]) kept ++ str /\
    (kept = [] \/ flat_map spelling spelled <> [] ->
     exists sp, str = [TLit (LString (SOrdinary (utf8_encode (contents spelled)))) sp]) /\
    (kept <> [] -> flat_map spelling spelled = [] -> str = []).
Proof.
  intros nested arg kept spelled. eexists. split; [apply stringify_general|]. fold kept spelled. cbv zeta.
  destruct kept as [|k ks], (flat_map spelling spelled) as [|a ws]; (split; [intros [E|E]; try easy; eauto|intros E1 E2; try easy]).
Qed.

(** The literal's spelling means the same string, for characters that are not
    control characters. *)
Theorem C20_spelling : forall nested arg l sp, Forall (spellable nested) arg -> Forall readable (contents arg) ->
  stringify nested arg = [TLit l sp] -> from_str sp = TLit l sp.
Proof.
  intros nested arg l sp Ha Hr Es. rewrite stringify_spec in Es by easy. injection Es as <- <-.
  pose proof (debug_str_read _ Hr) as E. unfold from_str.
  assert (E1 : str_eqb (debug_str (contents arg)) (st "__VA_ARGS__") = false) by reflexivity. rewrite E1.
  assert (E2 : identifier_try_from (debug_str (contents arg)) = None). { unfold identifier_try_from, all_consuming. reflexivity. }
  rewrite E2, E. reflexivity.
Qed.

(** An argument in a text is spellable. *)
Lemma text_spellable h text pre n d args post : first_call h text pre n d args post -> Forall (Forall (spellable false)) args.
Proof.
  intros (Hv & _ & (t & E & Hi & _)). inversion Hi; subst; [constructor|].
  match goal with h : call_text _ _ _ |- _ => apply collect_args_iff in h; 
    destruct (collect_args_Forall (spellable false) _ _ _ h) as [Hx _]; [|exact Hx] end.
  assert (Ht : Forall (spellable false) (map from_str text)).
  { apply Forall_forall. intros u Hu. apply in_map_iff in Hu. destruct Hu as (s & <- & _).
    apply from_str_cases; intros; simpl; try easy. }
  rewrite E in Ht. apply Forall_app in Ht. destruct Ht as [_ Ht]. now inversion Ht.
Qed.

Lemma string_no_invocation m hide l s : no_invocation m hide [TLit l s].
Proof.
  intros p q E id d args post Hi. destruct p as [|x p].
  - simpl in E. subst q. inversion Hi.
  - injection E as _ E. destruct p; [|discriminate]. simpl in E. subst q. inversion Hi.
Qed.

(** C20/C54: a macro [#define n(x) #x] called with an argument is replaced by
    one string literal with the argument as written: its tokens are not
    macro-expanded. *)
Theorem C54_stringify_unexpanded : forall h text pre n arg post out,
  first_call h text pre n (Function 1 false [hash; TArg 0]) [arg] post ->
  ((exists F, forall fuel, F <= fuel -> expand (run h) fuel text = ROk out) <->
   exists sp x, expansion token_concat stringify (macros h) [[]]
       (pre ++ [TLit (LString (SOrdinary (utf8_encode (contents arg)))) sp] ++ post) x /\
     delivered x = ROk out /\ sp = debug_str (contents arg)).
Proof.
  intros h text pre n arg post out Hfc. 
  rewrite (first_call_step _ _ _ _ _ _ _ (ROk out) ltac:(discriminate) Hfc).
  pose proof (text_spellable _ _ _ _ _ _ _ Hfc) as Hsp. inversion Hsp as [|? ? Hsa _]; subst. clear Hsp.
  set (lt := TLit (LString (SOrdinary (utf8_encode (contents arg)))) (debug_str (contents arg))).
  assert (Hs : stringify false arg = [lt]) by now apply stringify_spec.
  assert (Hp : pasted token_concat [lt] (ROk [lt])). { apply pasted_plain. intros [E|[]]; discriminate. }
  assert (Hpu : forall c, pasted token_concat [lt] c -> c = ROk [lt]).
  { intros c. apply pasted_plain_only; [|intros [E|[]]; discriminate]. constructor; [|constructor]. split; [easy|now intros [? ?]]. }
  assert (Hpt : parameter_token (TArg 0)) by (right; now eexists).
  assert (Hexp : forall r, expansion token_concat stringify (macros h) [n; []] [lt] r <-> r = ROk [lt]).
  { intros r. split.
    - intros Hx. inversion Hx; subst; try easy;
        match goal with hl : leftmost _ _ _ _ _ _ _ _ |- _ => destruct hl as (tt & E & Hi & _) end;
        exfalso; exact (string_no_invocation _ _ _ _ _ _ E _ _ _ _ Hi).
    - intros ->. change (ROk [lt]) with (@ROk xerr _ (map (mark [n; []]) [lt])). apply xp_done. apply string_no_invocation. }
  split.
  - intros [(e & x & He & Hx & E)|(x & _ & Hn & E)].
    2:{ exfalso. destruct x; try discriminate. apply Hn. now eexists. }
    exists (debug_str (contents arg)), x. fold lt.
    assert (Ee : e = [lt]); [|subst; auto].
    inversion He; subst.
    2:{ match goal with hn : ~ succeeded (ROk _) |- _ => exfalso; apply hn; now eexists end. }
    match goal with hs : substituted _ _ _ _ _ _ _ _ _ |- _ => inversion hs; subst end; try easy;
    try (match goal with hp : parameter_token hash |- _ => destruct hp as [? | [? ?]]; discriminate end).
    match goal with ha : argument_for _ _ _ = Some _ |- _ => simpl in ha; injection ha as <- end.
    match goal with hs : substituted _ _ _ _ _ _ _ [] _ |- _ => cbv [Nat.ltb Nat.leb length] in hs; rewrite Hs in hs; cbn [app] in hs end.
    match goal with hs : substituted _ _ _ _ _ _ _ [] _ |- _ => inversion hs; subst end.
    match goal with hp : processed _ _ _ _ _ _ _ |- _ => inversion hp; subst end.
    + match goal with hp : pasted _ _ _ |- _ => apply Hpu in hp; injection hp as -> end.
      match goal with hp : expansion _ _ _ _ _ _ |- _ => change (filter (fun t => negb (is_placeholder t)) [lt]) with [lt] in hp end.
      match goal with hp : expansion _ _ _ [n; []] _ _ |- _ => apply Hexp in hp; now injection hp end.
    + match goal with hn : ~ succeeded (ROk _) |- _ => exfalso; apply hn; now eexists end.
  - intros (sp & x & Hx & E & ->). left. exists [lt], x. split; [|auto].
    eapply rl_function with (s := [lt]).
    + intros _. split; [intros [E'|[E'|[]]]; discriminate|]. now left.
    + eapply sb_stringify; [exact Hpt|reflexivity|]. cbv [Nat.ltb Nat.leb length]. rewrite Hs. constructor.
    + eapply pr_rescan; [exact Hp|]. change (filter (fun t => negb (is_placeholder t)) [lt]) with [lt]. now apply Hexp.
Qed.
End S.

Local Open Scope string_scope.
Local Open Scope list_scope.

(** Spaces follow the rule, comments vanish, an empty argument is the empty string. *)
Example C20_example {U : Unicode} :
  let arg := map from_str (words ["a"; "+"; "("; "b"; "["; "1"; "]"; ","; "/* c */"; """q"""; ")"; "."; "x"]) in
  Forall (spellable false) arg /\ contents arg = st "a +(b [1], ""q"").x" /\ Forall readable (contents arg) /\
  contents [] = [].
Proof.
  cbv zeta. split; [|split; [|split]]; try reflexivity.
  - repeat (constructor; [simpl; try easy; try (intros _; split; discriminate)|]). constructor.
  - replace (contents _) with (st "a +(b [1], ""q"").x") by reflexivity.
    unfold readable. repeat (constructor; [left; split; [discriminate|reflexivity]|]). constructor.
Qed.

Example C54_example {U : Unicode} :
  let h := [DefineVar (st "A") (words ["1"]); DefineFn (st "f") (words ["x"]) (words ["#"; "x"])] in
  expand (run h) 20 (words ["f"; "("; "A"; "+"; "2"; ")"; "A"]) =
    ROk [MLit (LString (SOrdinary (st "A + 2"))); MLit (LInt (mk_int 1 None))].
Proof. reflexivity. Qed.

(** Control characters are spelled in Rust's notation, which is not a C
    escape sequence: the spelling does not denote the contents. *)
Theorem C20_control_character_refuted {U : Unicode} : exists s,
  stringify false [from_str s] = [TLit (LString (SOrdinary s)) (debug_str s)] /\ lit_try_from (debug_str s) = None.
Proof. exists [127%N]. split; reflexivity. Qed.

(** A NUL character followed by a digit reads back as another character. *)
Theorem C20_nul_refuted {U : Unicode} : exists s l,
  stringify false [from_str s] = [TLit (LString (SOrdinary s)) (debug_str s)] /\
  lit_try_from (debug_str s) = Some l /\ l <> LString (SOrdinary s).
Proof. exists [0%N; 49%N]. eexists. split; [reflexivity|]. split; [reflexivity|]. discriminate. Qed.

(** Inside the expansion of another macro, [__LINE__] and [__FILE__] move in
    front of the string. *)
Theorem C20_line_reordered_refuted {U : Unicode} : exists arg,
  stringify true arg = [hash; TIdent (st "__LINE__"); TLit (LString (SOrdinary (st "a b"))) (st """a b""")] /\
  arg = map from_str (words ["a"; "__LINE__"; "b"]).
Proof. eexists. split; [|reflexivity]. reflexivity. Qed.

Example C20_deferred_example {U : Unicode} :
  stringify true [TArg 0; from_str (st "a"); from_str (st "__FILE__"); from_str (st "b")] =
    [hash; TArg 0; hash; TIdent (st "__FILE__"); TLit (LString (SOrdinary (st "a b"))) (st """a b""")].
Proof. reflexivity. Qed.

Print Assumptions C20_one_string.
Print Assumptions C20_spelling.
Print Assumptions C54_stringify_unexpanded.
Print Assumptions C20_deferred.
