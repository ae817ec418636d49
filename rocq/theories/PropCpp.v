(** C81: expansion and the C preprocessor.  C08 for macros that do not call
    each other in a circle. *)
From Verif Require Import Base Utf Lex LexFloat Token MacroSet StrFacts LexFacts ExpandFacts ExpandInv TokenFacts
  SpecPaste PasteFacts SpecRescan ObjFacts SpecSet SetFacts SpecCall CallFacts SpecTokens ParamFacts SpecExpand FullFacts
  PropObject PropExpand SpecComplete CompleteFacts PropComplete SpecStringify SpecCpp CppFacts.
From Coq Require Import String List.
Local Open Scope list_scope.

(** [#] is used: it occurs in the body of a function-like macro. *)
Definition strings_made `{Unicode} (h : list call) : Prop :=
  exists n ps b, defined (rev h) n = Some (DFn ps b) /\ In hash (map from_str b).
(** Neither [__LINE__] nor [__FILE__] is mentioned. *)
Definition no_position (l : list token) : Prop := ~ In (TIdent (st "__LINE__")) l /\ ~ In (TIdent (st "__FILE__")) l.
(** [#] occurs in function-like macros only; if it does, no macro mentions
    [__LINE__] or [__FILE__] (see C20). *)
Definition operators_apart `{Unicode} (h : list call) : Prop :=
  (forall n b, defined (rev h) n = Some (DVar b) -> ~ In hash (map from_str b) /\ (strings_made h -> no_position (map from_str b))) /\
  (forall n ps b, defined (rev h) n = Some (DFn ps b) -> strings_made h -> no_position (map from_str b)).

Section C81.
Context `{Unicode}.

Lemma token_eq_dec_hash (t : token) : {t = hash} + {t <> hash}.
Proof.
  destruct t as [| | |s| | | | | |]; try (right; discriminate). destruct (list_eq_dec N.eq_dec s (st "#")) as [->|Hn]; [now left|right].
  intros X. injection X as ->. now apply Hn.
Qed.
Lemma from_str_bare s : strip_nr (from_str s) = from_str s.
Proof. unfold from_str. repeat match goal with |- context [if ?c then _ else _] => destruct c | |- context [match ?o with Some _ => _ | None => _ end] => destruct o end; reflexivity. Qed.
Lemma safe_text h text : ~ In hash (map from_str text) -> (strings_made h -> no_position (map from_str text)) ->
  Forall (safe (strings_made h)) (map from_str text).
Proof.
  intros Hh Hp. apply Forall_forall. intros t Ht. split; [intros ->; contradiction|]. intros Hs. destruct (Hp Hs) as [H1 H2].
  assert (E : strip_nr t = t) by (apply in_map_iff in Ht; destruct Ht as (s & <- & _); apply from_str_bare).
  intros [X|X]; rewrite E in X; subst t; contradiction.
Qed.
Lemma apart_preprocessed h : written_out_set h -> operators_apart h -> forall hide l out,
  good (run h) l -> Forall ordinary_or_comment l /\ Forall (thru not_place) l -> Forall (safe (strings_made h)) l ->
  (expansion token_concat stringify (macros h) hide l (ROk out) <-> preprocessed (macros h) hide l out).
Proof.
  intros Hs [Hv Hf] hide l out. apply (E_preprocessed h (strings_made h) Hs).
  - intros n b Hd. destruct (Hv n b Hd). now apply safe_text.
  - intros n ps b Hd. apply Forall_forall. intros t Ht. destruct (token_eq_dec_hash t) as [->|Hn]; [now left|right]. split; [easy|].
    intros Hst. destruct (Hf n ps b Hd Hst) as [H1 H2].
    assert (E : strip_nr t = t) by (apply in_map_iff in Ht; destruct Ht as (s & <- & _); apply from_str_bare).
    intros [X|X]; rewrite E in X; subst t; contradiction.
  - intros n ps b Hd Hi. now exists n, ps, b.
Qed.

(** C81.  In a set in which every call is written out, a text of the same kind
    has the expansion that C gives it.  (The empty name is excluded; no token
    has it.)  Missing: [##], [#] in constant macros and in the text, [#]
    together with [__LINE__] and [__FILE__], and names of function-like macros
    without arguments, for which the claim is false (see [C81_refuted]). *)
Theorem C81_expand_partial : forall h text out,
  written_out_set h -> operators_apart h -> written_out h (map from_str text) ->
  ~ In (st "__VA_ARGS__") text -> ~ In hash (map from_str text) -> (strings_made h -> no_position (map from_str text)) ->
  (gives h text (ROk out) <-> exists e, preprocessed (macros h) [[]] (map from_str text) e /\ delivered (ROk e) = ROk out).
Proof.
  intros h text out Hs Hop Ht Hva Hh Hpos. pose proof (no_va_text _ Hva) as Hv.
  unfold gives. rewrite (expand_text h text (ROk out)); [|discriminate|apply Ht|easy].
  pose proof (fun e => apart_preprocessed h Hs Hop [[]] (map from_str text) e (written_out_good h _ Ht) (tidy_text _ Hv)
    (safe_text h text Hh Hpos)) as He.
  split.
  - intros (x & Hx & E). destruct x as [e| | |]; try discriminate. exists e. split; [now apply He|easy].
  - intros (e & Hx & E). exists (ROk e). split; [now apply He|easy].
Qed.

(** The same for a constant macro: its body is expanded while it is excluded. *)
Theorem C81_var_macro_partial : forall h n body out,
  written_out_set h -> operators_apart h -> defined (rev h) n = Some (DVar body) -> ~ In (st "__VA_ARGS__") body ->
  ((exists F, forall fuel, F <= fuel -> expand_var_macro (run h) fuel n = ROk out) <->
   exists e, preprocessed (macros h) [n] (map from_str body) e /\ delivered (ROk e) = ROk out).
Proof.
  intros h n body out Hs Hop Hd Hva. pose proof (no_va_text _ Hva) as Hv.
  rewrite (C52_expand_var_macro h n body (ROk out)) by easy.
  assert (Hg : good (run h) (map from_str body)). { apply written_out_good. destruct Hs as (Hw & _). eauto. }
  destruct (proj1 Hop n body Hd) as [Hh Hpos].
  pose proof (fun e => apart_preprocessed h Hs Hop [n] (map from_str body) e Hg (tidy_text _ Hv) (safe_text h body Hh Hpos)) as He.
  split.
  - intros (x & Hx & E). destruct x as [e| | |]; try discriminate. exists e. split; [|easy]. apply He.
    inversion Hx; subst. apply (processed_plain h [] n); auto. now apply tidy_text.
  - intros (e & Hx & E). exists (ROk e). split; [|easy]. apply rl_object; [easy|].
    apply (processed_plain h [] n); [easy|now apply tidy_text|]. now apply He.
Qed.
End C81.

(** ** The hypotheses are met *)
Definition demo_cpp : list call :=
  [DefineFn (st "max") [st "a"; st "b"] [st "("; st "a"; st ">"; st "b"; st "?"; st "a"; st ":"; st "b"; st ")"];
   DefineFn (st "square") [st "x"] [st "max"; st "("; st "N"; st ","; st "square"; st "("; st "x"; st ")"; st ")"];
   DefineFn (st "check") [st "e"] [st "f"; st "("; st "e"; st ","; st "#"; st "e"; st ")"];
   DefineVar (st "N") [st "M"; st "-"; st "1"];
   DefineVar (st "M") [st "N"; st "+"; st "square"; st "("; st "M"; st ")"]].
Definition demo_cpp_text : list str := [st "square"; st "("; st "N"; st ")"; st "*"; st "check"; st "("; st "M"; st ">"; st "0"; st ")"].

(** A decidable form of [operators_apart]. *)
Definition free_word `{Unicode} (x : str) : bool :=
  match from_str x with TIdent id => negb (str_eqb id (st "__LINE__") || str_eqb id (st "__FILE__")) | _ => true end.
Definition check_apart `{Unicode} (s : macro_set) : bool :=
  forallb (fun d => forallb (fun x => negb (is_punct (st "#") (from_str x)) && free_word x) (snd d)) (var_macros s) &&
  forallb (fun d => forallb free_word (snd (snd d))) (fn_macros s).
Lemma free_words `{Unicode} b : forallb free_word b = true -> no_position (map from_str b).
Proof.
  intros Hb. rewrite forallb_forall in Hb.
  split; intros Hi; apply in_map_iff in Hi; destruct Hi as (x & Ex & Hi); apply Hb in Hi; unfold free_word in Hi; rewrite Ex in Hi; discriminate Hi.
Qed.
Lemma checked_apart `{Unicode} h : check_apart (run h) = true -> operators_apart h.
Proof.
  assert (Hget : forall V (m : smap V) k v, sm_get m k = Some v -> In (k, v) m).
  { intros V m k v. induction m as [|[k' v'] m IH]; simpl; [discriminate|]. destruct (str_eqb_spec k k') as [->|].
    - intros E. injection E as ->. now left.
    - intros E. right. auto. }
  intros Hs. unfold check_apart in Hs. apply andb_true_iff in Hs. destruct Hs as [Hv Hf]. rewrite forallb_forall in Hv, Hf. split.
  - intros n b Hd. pose proof (run_holds h n) as Hr. rewrite Hd in Hr. destruct Hr as [Hr _]. apply Hget in Hr. apply Hv in Hr. cbn [snd] in Hr.
    rewrite forallb_forall in Hr. split.
    + intros Hi. apply in_map_iff in Hi. destruct Hi as (x & Ex & Hi). apply Hr, andb_true_iff in Hi. destruct Hi as [Hi _]. rewrite Ex in Hi. discriminate.
    + intros _. apply free_words. rewrite forallb_forall. intros x Hx. apply Hr, andb_true_iff in Hx. easy.
  - intros n ps b Hd _. pose proof (run_holds h n) as Hr. rewrite Hd in Hr. destruct Hr as [_ Hr]. apply Hget in Hr. apply free_words. exact (Hf _ Hr).
Qed.

Section Demo.
#[local] Existing Instance demo_unicode.
(** [square(N) * check(M > 0)]: recursive macros of both kinds, nested calls, a string made
    of an argument. *)
Example C81_case : written_out_set demo_cpp /\ operators_apart demo_cpp /\ written_out demo_cpp (map from_str demo_cpp_text) /\
  ~ In (st "__VA_ARGS__") demo_cpp_text /\ ~ In hash (map from_str demo_cpp_text) /\
  strings_made demo_cpp /\ no_position (map from_str demo_cpp_text) /\
  exists out, expand (run demo_cpp) 40 demo_cpp_text = ROk out /\ length out = 96 /\ map word (firstn 7 out) = map st ["("; "N"; "+"; "square"; "("; "M"; ")"]%string /\
    map word (skipn 92 out) = map st ["1"; ","; """M > 0"""; ")"]%string.
Proof.
  split; [apply checked_set; vm_compute; reflexivity|]. split; [apply checked_apart; vm_compute; reflexivity|].
  split; [apply checked_written; vm_compute; reflexivity|]. split; [intros Hi; vm_compute in Hi; intuition discriminate|].
  split; [intros Hi; vm_compute in Hi; intuition discriminate|].
  split. { exists (st "check"). do 2 eexists. split; [vm_compute; reflexivity|]. vm_compute. tauto. }
  split; [apply free_words; vm_compute; reflexivity|].
  eexists. split; [vm_compute; reflexivity|]. split; [|split]; vm_compute; reflexivity.
Qed.
End Demo.

(** ** Where it is not C *)

(** With [f(x)] for [< x >] and [g(x)] for [( x )], C leaves [f] alone in
    [f g ( 1 )], because it is not followed by a parenthesis when it is read;
    here it is looked at again after [g ( 1 )] has been replaced. *)
Definition reread_set : list call :=
  [DefineFn (st "f") [st "x"] [st "<"; st "x"; st ">"]; DefineFn (st "g") [st "x"] [st "("; st "x"; st ")"]].
Definition reread_text : list str := [st "f"; st "g"; st "("; st "1"; st ")"].

Section Refuted.
Context `{Unicode}.

Theorem C81_refuted : exists h text e o out,
  operators_apart h /\ preprocessed (macros h) [[]] (map from_str text) e /\ delivered (ROk e) = ROk o /\
  map word o = map st ["f"; "("; "1"; ")"]%string /\
  gives h text (ROk out) /\ map word out = map st ["<"; "1"; ">"]%string.
Proof.
  exists reread_set, reread_text. eexists _, _, _. split; [apply checked_apart; vm_compute; reflexivity|]. split; [|split; [|split; [|split]]].
  - change (map from_str reread_text) with [TIdent (st "f"); TIdent (st "g"); LP; from_str (st "1"); RP].
    apply pp_name.
    + intros [X|[]]. discriminate X.
    + intros d Hd. vm_compute in Hd. injection Hd as <-. split; [intros ?; discriminate|]. intros [l E]. discriminate E.
    + eapply pp_function with (args := [[from_str (st "1")]]) (l := []).
      * intros [X|[]]. discriminate X.
      * vm_compute. reflexivity.
      * split; [discriminate|]. split; [|reflexivity]. constructor; [|constructor]. apply arg_token; [|discriminate|constructor].
        intros [u [Hu|Hu]]; inversion Hu.
      * intros _. split; [intros Hi; vm_compute in Hi; intuition discriminate|]. now left.
      * assert (Hkeep : forall q, ~ parameter_token (TPunct q)) by (intros q [X|[i X]]; discriminate X).
        apply fl_keep; [apply Hkeep|discriminate|]. eapply fl_argument; [right; now exists 0|reflexivity| |].
        { apply pp_token; [intros ?; discriminate|apply pp_end]. }
        apply fl_keep; [apply Hkeep|discriminate|]. apply fl_end.
      * repeat (apply pp_token; [intros ?; discriminate|]). apply pp_end.
      * apply pp_end.
  - vm_compute. reflexivity.
  - vm_compute. reflexivity.
  - exists 10. intros fuel Hf. do 10 (destruct fuel as [|fuel]; [lia|]). reflexivity.
  - vm_compute. reflexivity.
Qed.

(** ** C08: macros that do not call each other in a circle *)

(** [n(x)] is [m m] and [m(x)] is [(x)(x)(x) x]. *)
Definition spiral_m : list str := [st "("; st "x"; st ")"; st "("; st "x"; st ")"; st "("; st "x"; st ")"; st "x"].
Definition spiral_set : list call := [DefineFn (st "n") [st "x"] [st "m"; st "m"]; DefineFn (st "m") [st "x"] spiral_m].
Definition spiral_text : list str := [st "n"; st "("; st "n"; st ")"; st "("; st "n"; st ")"].
Definition NN : token := TIdent (st "n").
Definition MM : token := TIdent (st "m").
Definition group : list token := [LP; NN; RP].
Fixpoint groups (k : nat) (l : list token) : list token := match k with O => l | S k => group ++ groups k l end.

Lemma scan_groups rec k : forall acc l,
  scan (run spiral_set) rec [@nil N] acc (groups k l) = scan (run spiral_set) rec [@nil N] (rev (groups k []) ++ acc) l.
Proof.
  induction k as [|k IH]; intros acc l; [easy|]. cbn [groups].
  transitivity (scan (run spiral_set) rec [@nil N] (RP :: NN :: LP :: acc) (groups k l)); [reflexivity|].
  rewrite IH. rewrite rev_app_distr, <- app_assoc. reflexivity.
Qed.
Lemma groups_app k l : groups k l = groups k [] ++ l.
Proof. induction k as [|k IH]; [easy|]. cbn [groups]. rewrite IH, <- app_assoc. reflexivity. Qed.
Lemma groups_more k l : groups (S (S (S k))) l = groups k (group ++ group ++ group ++ l).
Proof. induction k as [|k IH]; [easy|]. change (groups (S (S (S (S k)))) l) with (group ++ groups (S (S (S k))) l). now rewrite IH. Qed.

Lemma spiral_n f acc R :
  scan (run spiral_set) (expand_macro_body (run spiral_set) (S f)) [@nil N] acc (NN :: LP :: NN :: RP :: R) =
  expand_macro_body (run spiral_set) (S f) [@nil N] (rev acc ++ MM :: MM :: R).
Proof. reflexivity. Qed.
Lemma spiral_m_call f acc R :
  scan (run spiral_set) (expand_macro_body (run spiral_set) (S f)) [@nil N] acc (MM :: LP :: NN :: RP :: R) =
  expand_macro_body (run spiral_set) (S f) [@nil N] (rev acc ++ group ++ group ++ group ++ NN :: R).
Proof. reflexivity. Qed.
Lemma spiral_pass rec acc l : 
  scan (run spiral_set) rec [@nil N] acc (MM :: MM :: l) = scan (run spiral_set) rec [@nil N] (MM :: acc) (MM :: l).
Proof. reflexivity. Qed.
Lemma spiral_never_ends : forall f k R,
  expand_macro_body (run spiral_set) f [@nil N] (groups k (NN :: group ++ group ++ R)) = RFuel.
Proof.
  induction f as [f IH] using (well_founded_induction lt_wf). intros k R.
  destruct f as [|f]; [easy|]. cbn [expand_macro_body]. rewrite scan_groups. destruct f as [|f]; [reflexivity|].
  cbn [group app]. rewrite spiral_n, app_nil_r, rev_involutive. cbn [expand_macro_body].
  rewrite <- groups_app, scan_groups, spiral_pass. destruct f as [|f]; [reflexivity|].
  rewrite spiral_m_call, app_nil_r. cbn [rev]. rewrite rev_involutive, <- app_assoc, <- groups_app. cbn [app expand_macro_body].
  rewrite scan_groups. destruct f as [|f]; [reflexivity|].
  cbn [group app]. rewrite spiral_m_call, app_nil_r, rev_involutive, <- groups_app, <- groups_more.
  apply (IH (S f)). lia.
Qed.

(** Every macro is only called by macros of a higher rank, and all brackets
    are matched; still the expansion of [n (n) (n)] does not end. *)
Theorem C08_acyclic_refuted : exists h text,
  (exists rank : str -> nat, forall n ps body s, defined (rev h) n = Some (DFn ps body) -> In s body ->
     defined (rev h) s <> None -> rank s < rank n) /\
  (forall n body, defined (rev h) n <> Some (DVar body)) /\
  (forall n ps body, defined (rev h) n = Some (DFn ps body) -> balanced (map from_str body)) /\
  balanced (map from_str text) /\
  forall fuel, expand (run h) fuel text = RFuel.
Proof.
  exists spiral_set, spiral_text.
  assert (Hd : forall n ps body, defined (rev spiral_set) n = Some (DFn ps body) ->
    n = st "m" /\ body = spiral_m \/ n = st "n" /\ body = [st "m"; st "m"]).
  { intros n ps body E. cbn [rev spiral_set app defined] in E. rewrite !same_name_eqb in E.
    destruct (str_eqb_spec n (st "m")) as [->|]; [left; injection E as _ <-; now split|]. destruct (str_eqb_spec n (st "n")) as [->|]; [right; injection E as _ <-; now split|discriminate E]. }
  split; [|split; [|split; [|split]]].
  - exists (fun n => if str_eqb n (st "n") then 2 else if str_eqb n (st "m") then 1 else 0).
    intros n ps body s E Hi Hs. apply Hd in E. destruct E as [[-> ->]|[-> ->]].
    + exfalso. apply Hs. simpl in Hi. repeat (destruct Hi as [<-|Hi]; [reflexivity|]). contradiction.
    + simpl in Hi. destruct Hi as [<-|[<-|[]]]; vm_compute; lia.
  - intros n body E. cbn [rev spiral_set app defined] in E. destruct (same_name (st "m") n); [discriminate|]. destruct (same_name (st "n") n); discriminate.
  - intros n ps body E. apply Hd in E. destruct E as [[_ ->]|[_ ->]].
    + change (map from_str spiral_m) with (LP :: [TIdent (st "x")] ++ RP :: LP :: [TIdent (st "x")] ++ RP :: LP :: [TIdent (st "x")] ++ RP :: [TIdent (st "x")]).
      assert (Hx : balanced [TIdent (st "x")]). { apply bal_token; [|constructor]. intros [u [Hu|Hu]]; inversion Hu. }
      repeat (apply bal_group; [constructor|exact Hx|]). exact Hx.
    + do 2 (apply bal_token; [intros [u [Hu|Hu]]; vm_compute in Hu; inversion Hu|]). constructor.
  - change (map from_str spiral_text) with (NN :: LP :: [NN] ++ RP :: LP :: [NN] ++ RP :: []).
    assert (Hx : balanced [NN]). { apply bal_token; [|constructor]. intros [u [Hu|Hu]]; inversion Hu. }
    apply bal_token; [intros [u [Hu|Hu]]; inversion Hu|]. repeat (apply bal_group; [constructor|exact Hx|]). constructor.
  - intros fuel.
    assert (E : expand_var_macro_body (expand_macro_body (run spiral_set) fuel) [] [] (tokenize [] spiral_text) =
      expand_macro_body (run spiral_set) fuel [@nil N] (groups 0 (NN :: group ++ group ++ []))) by reflexivity.
    unfold expand. rewrite E, spiral_never_ends. reflexivity.
Qed.
End Refuted.

Print Assumptions C81_expand_partial.
Print Assumptions C81_var_macro_partial.
Print Assumptions C81_refuted.
Print Assumptions C08_acyclic_refuted.
