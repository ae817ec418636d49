(** C82: macros and texts without mistakes are expanded without an error. *)
From Verif Require Import Base Utf Lex LexFloat Token MacroSet StrFacts LexFacts ExpandFacts ExpandInv TokenFacts
  SpecPaste PasteFacts SpecRescan ObjFacts SpecSet SetFacts SpecCall CallFacts SpecTokens ParamFacts SpecExpand FullFacts
  PropObject PropExpand SpecComplete CompleteFacts PropComplete SpecStringify SpecCpp CppFacts PropCpp
  SpecProper ProperFacts ProgressFacts.
From Coq Require Import String List.
Local Open Scope list_scope.

Section C82.
Context `{Unicode}.

Lemma proper_no_hash takes n : forall v l, length l < n -> proper takes v l -> Forall deliverable l -> ~ In hash l.
Proof.
  induction n as [|n IH]; intros v l Hn Hl Hd; [lia|].
  assert (Hargs : forall w args, length (comma_separated args) < n -> Forall (proper takes w) args -> Forall deliverable (comma_separated args) ->
    ~ In hash (comma_separated args)).
  { intros w args Hlen Ha Hda Hi. apply deliverable_list in Hda. apply in_comma in Hi. destruct Hi as [X|(a & Hi & Ht)]; [discriminate X|].
    rewrite Forall_forall in Ha, Hda. apply (IH w a); auto. pose proof (comma_length args a Hi). lia. }
  assert (Hdc : forall t l, Forall deliverable (t :: l) -> Forall deliverable l) by (intros t l0 Hx; now inversion Hx).
  inversion Hl; subst; cbn [length] in Hn; try rewrite app_length in Hn; cbn [length] in Hn.
  - easy.
  - intros [X|X]; [now subst|]. revert X. apply (IH v); [lia|easy|eauto].
  - intros [X|X]; [discriminate X|]. revert X. apply (IH Items); [lia|easy|eauto].
  - exfalso. inversion Hd as [|? ? Hx _]. exact Hx.
  - exfalso. inversion Hd as [|? ? _ Hd']; subst. inversion Hd' as [|? ? Hx _]; subst.
    match goal with hp : parameter_token t |- _ => destruct hp as [-> | [i ->]]; exact Hx end.
  - match goal with hm : matching o c |- _ => rename hm into Hmt end. apply Hdc in Hd. apply Forall_app in Hd. destruct Hd as [Hd1 Hd2]. apply Hdc in Hd2.
    intros [X|X]; [subst; inversion Hmt|]. apply in_app_iff in X. destruct X as [X|[X|X]].
    + revert X. apply (IH Items); [lia|easy|easy].
    + subst. inversion Hmt.
    + revert X. apply (IH v); [lia|easy|easy].
  - apply Hdc, Hdc in Hd. apply Forall_app in Hd. destruct Hd as [Hd1 Hd2]. apply Hdc in Hd2.
    intros [X|[X|X]]; [discriminate X|discriminate X|]. apply in_app_iff in X. destruct X as [X|[X|X]]; [|discriminate X|].
    + revert X. apply (Hargs Piece); [lia|easy|easy].
    + revert X. apply (IH v); [lia|easy|easy].
  - apply Hdc, Hdc in Hd. apply Forall_app in Hd. destruct Hd as [Hd1 Hd2]. apply Hdc in Hd2.
    intros [X|[X|X]]; [discriminate X|discriminate X|]. apply in_app_iff in X. destruct X as [X|[X|X]]; [|discriminate X|].
    + revert X. apply (Hargs Item); [lia|easy|easy].
    + revert X. apply (IH v); [lia|easy|easy].
Qed.

(** If [#] is used, no macro mentions [__LINE__] or [__FILE__] (see C20). *)
Definition positions_apart (h : list call) : Prop := strings_made h ->
  (forall n b, defined (rev h) n = Some (DVar b) -> no_position (map from_str b)) /\
  (forall n ps b, defined (rev h) n = Some (DFn ps b) -> no_position (map from_str b)).

Lemma proper_apart h : proper_set h -> positions_apart h -> operators_apart h.
Proof.
  intros Hs Hp. split.
  - intros n b Hd. split; [|intros Hst; now apply (proj1 (Hp Hst) n b)]. destruct Hs as (Hv & _). destruct (Hv n b Hd) as (H1 & H2 & H3).
    eapply proper_no_hash; [apply Nat.lt_succ_diag_r|exact H1|now apply text_deliverable].
  - intros n ps b Hd Hst. now apply (proj2 (Hp Hst) n ps b).
Qed.

(** C82.  In a set without mistakes, a text without mistakes is expanded, and
    not to an error. *)
Theorem C82_expand : forall h text,
  proper_set h -> positions_apart h -> proper_in h Items (map from_str text) -> known_words text ->
  ~ In (st "__VA_ARGS__") text -> (strings_made h -> no_position (map from_str text)) ->
  exists out, gives h text (ROk out).
Proof.
  intros h text Hs Hp Ht Hw Hv Hpos. pose proof (text_deliverable text Hw Hv) as Hd.
  destruct (progress h Hs (S (left_over (run h) [[]])) [[]] (Nat.lt_succ_diag_r _) (S (length (map from_str text))) Items (map from_str text) [] []
    (Nat.lt_succ_diag_r _) Ht Hd (pp_end _ _)) as (e & E1 & E2 & _). rewrite !app_nil_r in E1.
  destruct (delivered_ok e E2) as [out Ho]. exists out.
  apply C81_expand_partial; auto.
  - now apply proper_written_out_set.
  - now apply proper_apart.
  - eapply proper_written_out; eauto.
  - eapply proper_no_hash; [apply Nat.lt_succ_diag_r|exact Ht|easy].
  - now exists e.
Qed.

(** The same for the constant macros of the set. *)
Theorem C82_constant : forall h n body,
  proper_set h -> positions_apart h -> defined (rev h) n = Some (DVar body) ->
  exists out F, forall fuel, F <= fuel -> expand_var_macro (run h) fuel n = ROk out.
Proof.
  intros h n body Hs Hp Hb. destruct (proj1 Hs n body Hb) as (Ht & Hw & Hv). pose proof (text_deliverable body Hw Hv) as Hd.
  destruct (progress h Hs (S (left_over (run h) [n])) [n] (Nat.lt_succ_diag_r _) (S (length (map from_str body))) Piece (map from_str body) [] []
    (Nat.lt_succ_diag_r _) Ht Hd (pp_end _ _)) as (e & E1 & E2 & _). rewrite !app_nil_r in E1.
  destruct (delivered_ok e E2) as [out Ho]. exists out.
  apply (C81_var_macro_partial h n body out); auto.
  - now apply proper_written_out_set.
  - now apply proper_apart.
  - now exists e.
Qed.
End C82.

(** ** The hypotheses are met *)

(** [log(f, ...)] is [print(f, __VA_ARGS__)], [print(f, ...)] is
    [(f, #__VA_ARGS__, g(max(N, f)))], [max(a, b)] is [(a > b ? a : b)]. *)
Definition demo_proper : list call :=
  [DefineFn (st "max") [st "a"; st "b"] (map st ["("; "a"; ">"; "b"; "?"; "a"; ":"; "b"; ")"]%string);
   DefineFn (st "log") [st "f"; st "..."] (map st ["print"; "("; "f"; ","; "__VA_ARGS__"; ")"]%string);
   DefineFn (st "print") [st "f"; st "..."]
     (map st ["("; "f"; ","; "#"; "__VA_ARGS__"; ","; "g"; "("; "max"; "("; "N"; ","; "f"; ")"; ")"; ")"]%string);
   DefineVar (st "N") [st "M"; st "-"; st "1"];
   DefineVar (st "M") [st "N"; st "+"; st "1"]].
(** [log(N, max(1, M), [2]), N] *)
Definition demo_proper_text : list str :=
  map st ["log"; "("; "N"; ","; "max"; "("; "1"; ","; "M"; ")"; ","; "["; "2"; "]"; ")"; ","; "N"]%string.

Section Demo.
#[local] Existing Instance demo_unicode.

Lemma demo_defined n d : defined (rev demo_proper) n = Some d ->
  n = st "M" \/ n = st "N" \/ n = st "print" \/ n = st "log" \/ n = st "max".
Proof.
  cbn [demo_proper rev app defined]. rewrite !same_name_eqb. intros E.
  destruct (str_eqb_spec n (st "M")); [auto|]. destruct (str_eqb_spec n (st "N")); [auto|]. destruct (str_eqb_spec n (st "print")); [auto|].
  destruct (str_eqb_spec n (st "log")); [auto|]. destruct (str_eqb_spec n (st "max")); [tauto|discriminate].
Qed.
Lemma demo_takes n k v : takes demo_proper n k v -> n = st "print" \/ n = st "log" \/ n = st "max".
Proof.
  intros (ps & b & ids & Hd & _). destruct (demo_defined n _ Hd) as [-> | [-> | ?]]; [discriminate Hd..|easy].
Qed.
Ltac plain_token := apply pr_token; [intros [? [X|X]]; inversion X|discriminate..|
  intros ? ? ? X Ht; injection X as <-; apply demo_takes in Ht; destruct Ht as [Ht|[Ht|Ht]]; discriminate Ht|] ||
  (apply pr_token; [intros [? [X|X]]; inversion X|discriminate..|intros ? ? ? X; discriminate X|]).
Lemma takes_max : takes demo_proper (st "max") 2 false.
Proof.
  exists [st "a"; st "b"]. eexists. exists [st "a"; st "b"]. split; [reflexivity|]. split; [|reflexivity]. split; [reflexivity|].
  repeat constructor; intros Hi; repeat destruct Hi as [Hi|Hi]; try discriminate; contradiction.
Qed.
Lemma takes_log : takes demo_proper (st "log") 1 true.
Proof.
  exists [st "f"; st "..."]. eexists. exists [st "f"]. split; [reflexivity|]. split; [|reflexivity]. split; [reflexivity|].
  repeat constructor. intros [].
Qed.
Lemma takes_print : takes demo_proper (st "print") 1 true.
Proof.
  exists [st "f"; st "..."]. eexists. exists [st "f"]. split; [reflexivity|]. split; [|reflexivity]. split; [reflexivity|].
  repeat constructor. intros [].
Qed.
Lemma demo_words l : forallb (fun s => match from_str s with TPlain _ => false | _ => true end) l = true -> known_words l.
Proof. intros Hl. apply Forall_forall. intros s Hi w E. rewrite forallb_forall in Hl. apply Hl in Hi. rewrite E in Hi. discriminate. Qed.

Lemma demo_is_proper : proper_set demo_proper.
Proof.
  split; [|split; [|split]].
  - intros n b Hd. destruct (demo_defined n _ Hd) as [-> | [-> | [-> | [-> | ->]]]]; try discriminate Hd; vm_compute in Hd; injection Hd as <-;
      (split; [|split; [apply demo_words; vm_compute; reflexivity|intros Hi; vm_compute in Hi; intuition discriminate]]);
      vm_compute map; do 3 plain_token; apply pr_nil.
  - intros n ps b Hd. destruct (demo_defined n _ Hd) as [-> | [-> | [-> | [-> | ->]]]]; try discriminate Hd; vm_compute in Hd; injection Hd as <- <-.
    + exists [st "f"], true. split; [split; [reflexivity|repeat constructor; intros []]|].
      split; [|split; [apply demo_words; vm_compute; reflexivity|discriminate]].
      match goal with |- proper_in _ _ ?l => change l with
        (lp :: (TArg 0 :: comma :: hash :: TVarArgs :: comma :: TIdent (st "g") :: lp ::
          (TIdent (st "max") :: lp :: comma_separated [[TIdent (st "N")]; [TArg 0]] ++ rp_ :: []) ++ rp_ :: []) ++ rp_ :: []) end.
      apply pr_group; [constructor| |apply pr_nil]. plain_token. apply pr_comma. apply pr_string; [now left|]. apply pr_comma. plain_token.
      apply pr_group; [constructor| |apply pr_nil]. apply pr_call with (k := 2); [apply takes_max|discriminate|now left| |apply pr_nil].
      apply Forall_cons; [plain_token; apply pr_nil|apply Forall_cons; [plain_token; apply pr_nil|apply Forall_nil]].
    + exists [st "f"], true. split; [split; [reflexivity|repeat constructor; intros []]|].
      split; [|split; [apply demo_words; vm_compute; reflexivity|discriminate]].
      match goal with |- proper_in _ _ ?l => change l with
        (TIdent (st "print") :: lp :: comma_separated [[TArg 0]; [TVarArgs]] ++ rp_ :: []) end.
      apply pr_variadic with (k := 1); [apply takes_print|discriminate|cbn; lia| |apply pr_nil].
      apply Forall_cons; [plain_token; apply pr_nil|apply Forall_cons; [apply pr_rest; [discriminate|apply pr_nil]|apply Forall_nil]].
    + exists [st "a"; st "b"], false. split; [split; [reflexivity|repeat constructor; intros Hi; repeat destruct Hi as [Hi|Hi]; try discriminate; contradiction]|].
      split; [|split; [apply demo_words; vm_compute; reflexivity|intros _ Hi; vm_compute in Hi; intuition discriminate]].
      match goal with |- proper_in _ _ ?l => change l with
        (lp :: (TArg 0 :: TPunct (st ">") :: TArg 1 :: TPunct (st "?") :: TArg 0 :: TPunct (st ":") :: TArg 1 :: []) ++ rp_ :: []) end.
      apply pr_group; [constructor| |apply pr_nil]. do 7 plain_token. apply pr_nil.
  - intros (ps & b & Hd). vm_compute in Hd. discriminate.
  - intros (ps & b & Hd). vm_compute in Hd. discriminate.
Qed.

Example C82_case : proper_set demo_proper /\ positions_apart demo_proper /\ strings_made demo_proper /\
  proper_in demo_proper Items (map from_str demo_proper_text) /\ known_words demo_proper_text /\
  ~ In (st "__VA_ARGS__") demo_proper_text /\ no_position (map from_str demo_proper_text) /\
  exists out, expand (run demo_proper) 40 demo_proper_text = ROk out /\ map word (firstn 8 out) = map st ["("; "N"; "+"; "1"; "-"; "1"; ","; """(1 > M - 1 + 1 ? 1 : M - 1 + 1), [2]"""]%string.
Proof.
  split; [apply demo_is_proper|]. split.
  { intros _. split.
    - intros n b Hd. destruct (demo_defined n _ Hd) as [-> | [-> | [-> | [-> | ->]]]]; try discriminate Hd; vm_compute in Hd; injection Hd as <-; apply free_words; vm_compute; reflexivity.
    - intros n ps b Hd. destruct (demo_defined n _ Hd) as [-> | [-> | [-> | [-> | ->]]]]; try discriminate Hd; vm_compute in Hd; injection Hd as <- <-; apply free_words; vm_compute; reflexivity. }
  split. { exists (st "print"). do 2 eexists. split; [vm_compute; reflexivity|]. vm_compute. tauto. }
  split.
  { match goal with |- proper_in _ _ ?l => change l with
      (TIdent (st "log") :: lp :: comma_separated [[TIdent (st "N")];
         TIdent (st "max") :: lp :: comma_separated [[from_str (st "1")]; [TIdent (st "M")]] ++ rp_ :: [];
         TPunct (st "[") :: [from_str (st "2")] ++ TPunct (st "]") :: []] ++ rp_ :: [comma; TIdent (st "N")]) end.
    apply pr_variadic with (k := 1); [apply takes_log|discriminate|cbn; lia| |apply pr_comma; plain_token; apply pr_nil].
    constructor; [plain_token; apply pr_nil|]. constructor.
    { apply pr_call with (k := 2); [apply takes_max|discriminate|now left| |apply pr_nil]. apply Forall_cons; [plain_token; apply pr_nil|apply Forall_cons; [plain_token; apply pr_nil|apply Forall_nil]]. }
    constructor; [|constructor]. apply pr_group; [constructor| |apply pr_nil]. plain_token. apply pr_nil. }
  split; [apply demo_words; vm_compute; reflexivity|]. split; [intros Hi; vm_compute in Hi; intuition discriminate|].
  split; [apply free_words; vm_compute; reflexivity|].
  eexists. split; [vm_compute; reflexivity|]. vm_compute. reflexivity.
Qed.
End Demo.

(** ** The commas matter *)

(** [pair] is [1, 2], [f(x)] is [(x)], [g(x)] is [f(x)].  Every macro is used
    with the right number of arguments, but [pair] is not a single item:
    [g(pair)] gives [f(1, 2)], an error (as in C). *)
Definition demo_comma : list call :=
  [DefineVar (st "pair") [st "1"; st ","; st "2"]; DefineFn (st "f") [st "x"] (map st ["("; "x"; ")"]%string);
   DefineFn (st "g") [st "x"] (map st ["f"; "("; "x"; ")"]%string)].
Definition demo_comma_text : list str := map st ["g"; "("; "pair"; ")"]%string.

Section Comma.
#[local] Existing Instance demo_unicode.
Lemma comma_takes n k v : takes demo_comma n k v -> n = st "f" \/ n = st "g".
Proof.
  intros (ps & b & ids & Hd & _). cbn [demo_comma rev app defined] in Hd. rewrite !same_name_eqb in Hd.
  destruct (str_eqb_spec n (st "g")) as [-> | ?]; [now right|]. destruct (str_eqb_spec n (st "f")) as [-> | ?]; [now left|].
  destruct (str_eqb_spec n (st "pair")); discriminate.
Qed.
Ltac plain_token' := apply pr_token; [intros [? [X|X]]; inversion X|discriminate..|
  intros ? ? ? X Ht; injection X as <-; apply comma_takes in Ht; destruct Ht as [Ht|Ht]; discriminate Ht|] ||
  (apply pr_token; [intros [? [X|X]]; inversion X|discriminate..|intros ? ? ? X; discriminate X|]).
Lemma one_name : parameter_list [st "x"] [st "x"] false.
Proof. split; [reflexivity|repeat constructor; intros []]. Qed.
Theorem C82_comma_needed : exists h text,
  (forall n b, defined (rev h) n = Some (DVar b) -> proper_in h Items (map from_str b) /\ known_words b /\ ~ In (st "__VA_ARGS__") b) /\
  (forall n ps b, defined (rev h) n = Some (DFn ps b) -> exists ids v, parameter_list ps ids v /\
     proper_in h Piece (map (body_token ids) b) /\ known_words b /\ (v = false -> ~ In (st "__VA_ARGS__") b)) /\
  ~ strings_made h /\ proper_in h Items (map from_str text) /\ known_words text /\ ~ In (st "__VA_ARGS__") text /\
  gives h text (RErr (FnMacroArgumentError (st "f") 1 2)).
Proof.
  exists demo_comma, demo_comma_text.
  assert (Hf : takes demo_comma (st "f") 1 false) by (exists [st "x"]; eexists; exists [st "x"]; split; [reflexivity|]; split; [apply one_name|reflexivity]).
  assert (Hg : takes demo_comma (st "g") 1 false) by (exists [st "x"]; eexists; exists [st "x"]; split; [reflexivity|]; split; [apply one_name|reflexivity]).
  assert (Hdef : forall n d, defined (rev demo_comma) n = Some d -> n = st "pair" \/ n = st "f" \/ n = st "g").
  { intros n d E. cbn [demo_comma rev app defined] in E. rewrite !same_name_eqb in E. destruct (str_eqb_spec n (st "g")); [auto|].
    destruct (str_eqb_spec n (st "f")); [auto|]. destruct (str_eqb_spec n (st "pair")); [auto|discriminate]. }
  split; [|split; [|split; [|split; [|split; [|split]]]]].
  - intros n b Hd. destruct (Hdef n _ Hd) as [-> | [-> | ->]]; try discriminate Hd; vm_compute in Hd; injection Hd as <-.
    split; [|split; [apply demo_words; vm_compute; reflexivity|intros Hi; vm_compute in Hi; intuition discriminate]].
    vm_compute map. plain_token'. apply pr_comma. plain_token'. apply pr_nil.
  - intros n ps b Hd. exists [st "x"], false. destruct (Hdef n _ Hd) as [-> | [-> | ->]]; try discriminate Hd; vm_compute in Hd; injection Hd as <- <-;
      (split; [apply one_name|]); (split; [|split; [apply demo_words; vm_compute; reflexivity|intros _ Hi; vm_compute in Hi; intuition discriminate]]).
    + match goal with |- proper_in _ _ ?l => change l with (lp :: [TArg 0] ++ rp_ :: []) end.
      apply pr_group; [constructor|plain_token'; apply pr_nil|apply pr_nil].
    + match goal with |- proper_in _ _ ?l => change l with (TIdent (st "f") :: lp :: comma_separated [[TArg 0]] ++ rp_ :: []) end.
      apply pr_call with (k := 1); [easy|discriminate|now left|apply Forall_cons; [plain_token'; apply pr_nil|apply Forall_nil]|apply pr_nil].
  - intros (n & ps & b & Hd & Hi). destruct (Hdef n _ Hd) as [-> | [-> | ->]]; try discriminate Hd; vm_compute in Hd; injection Hd as <- <-; vm_compute in Hi; intuition discriminate.
  - match goal with |- proper_in _ _ ?l => change l with (TIdent (st "g") :: lp :: comma_separated [[TIdent (st "pair")]] ++ rp_ :: []) end.
    apply pr_call with (k := 1); [easy|discriminate|now left|apply Forall_cons; [plain_token'; apply pr_nil|apply Forall_nil]|apply pr_nil].
  - apply demo_words; vm_compute; reflexivity.
  - intros Hi; vm_compute in Hi; intuition discriminate.
  - exists 20. intros fuel Hf'. do 20 (destruct fuel as [|fuel]; [lia|]). reflexivity.
Qed.
End Comma.

Print Assumptions C82_expand.
Print Assumptions C82_constant.
Print Assumptions C82_comma_needed.
