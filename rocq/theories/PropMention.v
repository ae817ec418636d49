(** C79: Only the macros whose names occur matter for an expansion. *)
From Verif Require Import Base Utf Lex LexFloat Token MacroSet SpecCall SpecTokens SpecLexical SpecRename SpecMention StrFacts TokenFacts ExpandInv
  PropLexical RenameFacts MentionFacts.
From Coq Require Import String List Bool.
Import ListNotations.
Local Open Scope string_scope.
Local Open Scope list_scope.

(** ** Texts without [##] *)

Section NoPaste.
Context `{Unicode}.
Variable R : str -> Prop.
Variables m1 m2 : macro_set.
Hypothesis Ha : agree_on R m1 m2.
Hypothesis Ht : all_tokens R (in_set R) m1.

Let Hc : quiet R comma.
Proof. discriminate. Qed.
Let Hs : forall n arg, Forall (quiet R) arg -> Forall (quiet R) (stringify n arg).
Proof. intros n arg. apply stringify_P; [intros; exact I|discriminate]. Qed.
Let Hv : forall n b, quiet R (TIdent n) -> sm_get (var_macros m1) n = Some b ->
  contains_var_args (tokenize [] b) = false -> Forall (quiet R) (tokenize [] b).
Proof.
  intros n b Hn E _. rewrite tokenize_nil. apply Forall_forall. intros t Hi. apply in_map_iff in Hi. destruct Hi as (s & <- & Hi).
  apply quiet_spell. now apply (proj1 (Ht n Hn) b).
Qed.
Let Hf : forall n p b an, quiet R (TIdent n) -> sm_get (fn_macros m1) n = Some (p, b) -> tokenize_arg_names p = ROk an ->
  Forall (fun t => is_arg_token t = true \/ quiet R t) (tokenize an b).
Proof.
  intros n p b an Hn E Et. apply (body_tokens (in_set R) (quiet R) p); [exact Et|intros t; apply quiet_spell|].
  intros t. now apply (proj2 (Ht n Hn) p b).
Qed.

Lemma no_paste_text fuel text : Forall (in_set R) text -> expand m1 fuel text = expand m2 fuel text.
Proof.
  intros Hx. apply (text_both m1 m2 (quiet R) (fun _ _ => I) Hs Hc (quiet_concat R) Ha Hv Hf). intros _.
  rewrite tokenize_nil. apply Forall_forall. intros t Hi. apply in_map_iff in Hi. destruct Hi as (s & <- & Hi).
  apply quiet_spell. rewrite Forall_forall in Hx. now apply Hx.
Qed.
Lemma no_paste_var fuel n : R n -> expand_var_macro m1 fuel n = expand_var_macro m2 fuel n.
Proof. intros Hn. now apply (var_both m1 m2 (quiet R) (fun _ _ => I) Hs Hc (quiet_concat R) Ha Hv Hf). Qed.
Lemma no_paste_fn fuel n : R n -> expand_fn_macro m1 fuel n = expand_fn_macro m2 fuel n.
Proof.
  intros Hn. apply (fn_both m1 m2 (quiet R) (fun _ _ => I) Hs Hc (quiet_concat R) Ha Hv Hf); [exact Hn|].
  intros t Hi. destruct t; try discriminate; exact I.
Qed.
End NoPaste.

(** ** Any texts *)

Section Paste.
Context `{Unicode}.
Variable R : str -> Prop.
Hypothesis HR : prefix_closed R.
Variables m1 m2 : macro_set.
Hypothesis Ha : agree_on R m1 m2.
Hypothesis Ht : all_tokens R (plainly_in_set R) m1.

Let Hag : forall n, tamed R (TIdent n) ->
  sm_get (var_macros m2) n = sm_get (var_macros m1) n /\ sm_get (fn_macros m2) n = sm_get (fn_macros m1) n.
Proof. intros n [Hn _]. now apply Ha. Qed.
Let Hs : forall n arg, Forall (tamed R) arg -> Forall (tamed R) (stringify n arg).
Proof. intros n arg. now apply tamed_stringify. Qed.
Let Hv : forall n b, tamed R (TIdent n) -> sm_get (var_macros m1) n = Some b ->
  contains_var_args (tokenize [] b) = false -> Forall (tamed R) (tokenize [] b).
Proof.
  intros n b [Hn _] E _. rewrite tokenize_nil. apply Forall_forall. intros t Hi. apply in_map_iff in Hi. destruct Hi as (s & <- & Hi).
  apply tamed_spell. now apply (proj1 (Ht n Hn) b).
Qed.
Let Hf : forall n p b an, tamed R (TIdent n) -> sm_get (fn_macros m1) n = Some (p, b) -> tokenize_arg_names p = ROk an ->
  Forall (fun t => is_arg_token t = true \/ tamed R t) (tokenize an b).
Proof.
  intros n p b an [Hn _] E Et. apply (body_tokens (plainly_in_set R) (tamed R) p); [exact Et|intros t; apply tamed_spell|].
  intros t. now apply (proj2 (Ht n Hn) p b).
Qed.
Lemma paste_text fuel text : Forall (plainly_in_set R) text -> expand m1 fuel text = expand m2 fuel text.
Proof.
  intros Hx. apply (text_both m1 m2 (tamed R) (fun _ h => h) Hs I (tamed_concat R HR) Hag Hv Hf). intros _.
  rewrite tokenize_nil. apply Forall_forall. intros t Hi. apply in_map_iff in Hi. destruct Hi as (s & <- & Hi).
  apply tamed_spell. rewrite Forall_forall in Hx. now apply Hx.
Qed.
Lemma paste_var fuel n : plainly_in_set R n -> R n -> expand_var_macro m1 fuel n = expand_var_macro m2 fuel n.
Proof. intros [_ Hn] Hr. now apply (var_both m1 m2 (tamed R) (fun _ h => h) Hs I (tamed_concat R HR) Hag Hv Hf). Qed.
Lemma paste_fn fuel n : plainly_in_set R n -> R n -> expand_fn_macro m1 fuel n = expand_fn_macro m2 fuel n.
Proof.
  intros [_ Hn] Hr. apply (fn_both m1 m2 (tamed R) (fun _ h => h) Hs I (tamed_concat R HR) Hag Hv Hf); [now split|].
  intros t Hi. destruct t; try discriminate; exact I.
Qed.
End Paste.

(** Two sets of macros agree on a set of names.  What the text consists of is in the
    set, and so is, for each macro whose name is in the set, what its replacement text
    consists of (the parameters aside).  Then the text is expanded alike. *)
Theorem C79_text : forall `{Unicode} R m1 m2 fuel text, agree_on R m1 m2 -> all_tokens R (in_set R) m1 ->
  Forall (in_set R) text -> expand m1 fuel text = expand m2 fuel text.
Proof. intros U R m1 m2 fuel text Ha Ht. now apply no_paste_text. Qed.
Theorem C79_var : forall `{Unicode} R m1 m2 fuel n, agree_on R m1 m2 -> all_tokens R (in_set R) m1 -> R n ->
  expand_var_macro m1 fuel n = expand_var_macro m2 fuel n.
Proof. intros U R m1 m2 fuel n Ha Ht. now apply no_paste_var. Qed.
Theorem C79_fn : forall `{Unicode} R m1 m2 fuel n, agree_on R m1 m2 -> all_tokens R (in_set R) m1 -> R n ->
  expand_fn_macro m1 fuel n = expand_fn_macro m2 fuel n.
Proof. intros U R m1 m2 fuel n Ha Ht. now apply no_paste_fn. Qed.

(** With [##], names are made that stand nowhere.  They begin with a name that does. *)
Theorem C79_paste_text : forall `{Unicode} R m1 m2 fuel text, prefix_closed R -> agree_on R m1 m2 ->
  all_tokens R (plainly_in_set R) m1 -> Forall (plainly_in_set R) text -> expand m1 fuel text = expand m2 fuel text.
Proof. intros U R m1 m2 fuel text HR Ha Ht. now apply paste_text. Qed.
Theorem C79_paste_var : forall `{Unicode} R m1 m2 fuel n, prefix_closed R -> agree_on R m1 m2 ->
  all_tokens R (plainly_in_set R) m1 -> well_formed_identifier n -> R n -> expand_var_macro m1 fuel n = expand_var_macro m2 fuel n.
Proof.
  intros U R m1 m2 fuel n HR Ha Ht Hw Hn. apply (paste_var R); try assumption. split; [easy|]. apply identifier_visible. now apply well_formed_iff.
Qed.
Theorem C79_paste_fn : forall `{Unicode} R m1 m2 fuel n, prefix_closed R -> agree_on R m1 m2 ->
  all_tokens R (plainly_in_set R) m1 -> well_formed_identifier n -> R n -> expand_fn_macro m1 fuel n = expand_fn_macro m2 fuel n.
Proof.
  intros U R m1 m2 fuel n HR Ha Ht Hw Hn. apply (paste_fn R); try assumption. split; [easy|]. apply identifier_visible. now apply well_formed_iff.
Qed.

(** ** One macro *)

(** A name that is spelled nowhere can be defined, redefined and undefined. *)
Inductive changes_only (n : str) (m : macro_set) : macro_set -> Prop :=
| co_define_var body : changes_only n m (fst (define_var_macro m n body))
| co_define_fn params body : changes_only n m (fst (define_fn_macro m n params body))
| co_undefine_var : changes_only n m (fst (undefine_var_macro m n))
| co_undefine_fn : changes_only n m (fst (undefine_fn_macro m n)).

Lemma get_remove_other {V} (m : smap V) k x : x <> k -> sm_get (sm_remove m k) x = sm_get m x.
Proof.
  intros Hx. induction m as [|[k' v] m IH]; [reflexivity|]. cbn. destruct (str_eqb k k') eqn:E; cbn.
  - apply str_eqb_eq in E as <-. destruct (str_eqb x k) eqn:E2; [apply str_eqb_eq in E2; contradiction|exact IH].
  - change (filter _ m) with (sm_remove m k). now rewrite IH.
Qed.
Lemma get_insert_other {V} (m : smap V) k v x : x <> k -> sm_get (sm_insert m k v) x = sm_get m x.
Proof.
  intros Hx. unfold sm_insert. cbn. destruct (str_eqb x k) eqn:E; [apply str_eqb_eq in E; contradiction|now apply get_remove_other].
Qed.
Lemma changes_agree n m m' : changes_only n m m' -> agree_on (fun x => x <> n) m m'.
Proof.
  intros Hc x Hx. destruct Hc as [body|params body| |].
  - unfold define_var_macro. destruct (sm_get (var_macros m) n); cbn [fst var_macros fn_macros];
      rewrite ?get_insert_other, ?get_remove_other by exact Hx; now split.
  - unfold define_fn_macro. destruct (sm_get (fn_macros m) n) as [[a b]|]; cbn [fst var_macros fn_macros];
      rewrite ?get_insert_other, ?get_remove_other by exact Hx; now split.
  - cbn [undefine_var_macro fst var_macros fn_macros]. rewrite get_remove_other by exact Hx. now split.
  - cbn [undefine_fn_macro fst var_macros fn_macros]. rewrite get_remove_other by exact Hx. now split.
Qed.

Theorem C79_unmentioned : forall `{Unicode} n m m' fuel text, changes_only n m m' ->
  all_tokens (fun x => x <> n) (in_set (fun x => x <> n)) m -> Forall (in_set (fun x => x <> n)) text ->
  expand m' fuel text = expand m fuel text.
Proof. intros U n m m' fuel text Hc Ht Hx. symmetry. apply (C79_text (fun x => x <> n)); [now apply changes_agree|exact Ht|exact Hx]. Qed.

(** ** Cases *)
Definition D (n : string) (ps : list string) (b : list string) (m : macro_set) : macro_set := fst (define_fn_macro m (st n) (map st ps) (map st b)).
Definition V (n : string) (b : list string) (m : macro_set) : macro_set := fst (define_var_macro m (st n) (map st b)).
Definition named (l : list string) (x : str) : Prop := In x (map st l).
(** A and F use each other's names, and B is about something else. *)
Definition m_ab (b : string) : macro_set := V "A" ["1"; "+"; "F"] (D "F" ["B"] ["B"; "*"; "A"] (V "B" [b; "##"; "B"] ms_new)).
Example C79_case : let u := demo_unicode in agree_on (named ["A"; "F"]) (m_ab "2") (m_ab "3") /\
  all_tokens (named ["A"; "F"]) (in_set (named ["A"; "F"])) (m_ab "2") /\
  Forall (in_set (named ["A"; "F"])) (map st ["F"; "("; "A"; ")"]) /\ m_ab "2" <> m_ab "3" /\
  exists t, expand (m_ab "2") 20 (map st ["F"; "("; "A"; ")"]) = ROk t /\ length t = 7.
Proof.
  intros u.
  assert (Hn : forall s, In s ["A"; "F"] -> in_set (H := u) (named ["A"; "F"]) (st s)).
  { intros s Hs. split.
    - intros id [_ Hi]. apply spells_plain in Hi; [subst; unfold named; now apply in_map|].
      destruct Hs as [<-|[<-|[]]]; cbn; intros Hb; repeat (destruct Hb as [Hb|Hb]; [discriminate|]); exact Hb.
    - intros before E. destruct Hs as [<-|[<-|[]]]; destruct before as [|c [|d b]]; discriminate. }
  assert (Ho : forall c, is_identifier (H := u) [c] = false -> c <> 92%N -> in_set (H := u) (named ["A"; "F"]) [c]).
  { intros c Hc Hb. split.
    - intros id [Hw Hi]. apply spells_plain in Hi; [|intros [->|[]]; contradiction]. subst. apply well_formed_iff in Hw. congruence.
    - intros before E. destruct before as [|d [|e b]]; discriminate. }
  split.
  { intros n [<-|[<-|[]]]; split; reflexivity. }
  split.
  { intros n [<-|[<-|[]]]; split.
    - intros body t [= <-] Hi. destruct Hi as [<-|[<-|[<-|[]]]]; try (apply Ho; [reflexivity|discriminate]). apply (Hn "F"); cbn; tauto.
    - discriminate.
    - discriminate.
    - intros params body t [= <- <-] Hi Hp. destruct Hi as [<-|[<-|[<-|[]]]].
      + exfalso. apply Hp. split; [now left|]. split; [apply well_formed_iff; reflexivity|discriminate].
      + apply Ho; [reflexivity|discriminate].
      + apply (Hn "A"); cbn; tauto. }
  split.
  { constructor; [apply (Hn "F"); cbn; tauto|]. constructor; [apply Ho; [reflexivity|discriminate]|].
    constructor; [apply (Hn "A"); cbn; tauto|]. constructor; [apply Ho; [reflexivity|discriminate]|]. constructor. }
  split; [discriminate|]. eexists. split; [vm_compute; reflexivity|reflexivity].
Qed.

(** The name X is nowhere. *)
Example C79_unmentioned_case : let u := demo_unicode in let R := fun x => x <> st "X" in
  changes_only (st "X") (V "A" ["1"; "+"; "A"] ms_new) (fst (define_fn_macro (V "A" ["1"; "+"; "A"] ms_new) (st "X") [] [])) /\
  all_tokens R (in_set R) (V "A" ["1"; "+"; "A"] ms_new) /\ Forall (in_set R) [st "A"].
Proof.
  intros u R.
  assert (Ho : forall c, c <> 88%N -> c <> 92%N -> in_set (H := u) R [c]).
  { intros c Hc Hb. split.
    - intros id [Hw Hi]. apply spells_plain in Hi; [|intros [->|[]]; contradiction]. subst. intros [= ->]. contradiction.
    - intros before E. destruct before as [|d [|e b]]; discriminate. }
  split; [constructor|]. split.
  - intros n Hn. split; [|discriminate]. intros body t. cbn. destruct (str_eqb n [65%N]); [|discriminate]. intros [= <-] Hi.
    destruct Hi as [<-|[<-|[<-|[]]]]; (apply Ho; discriminate).
  - constructor; [apply Ho; discriminate|constructor].
Qed.

(** Names that begin with P: the macro PQ is found by pasting, and QP does not matter. *)
Definition begins_p (x : str) : Prop := exists r, x = 80%N :: r.
Definition m_p (q : string) : macro_set := D "PC" ["a"; "b"] ["a"; "##"; "b"] (V "PQ" ["PQ1"] (V "QP" [q] ms_new)).
Example C79_paste_case : let u := demo_unicode in prefix_closed begins_p /\ agree_on begins_p (m_p "2") (m_p "3") /\
  all_tokens begins_p (plainly_in_set begins_p) (m_p "2") /\ Forall (plainly_in_set begins_p) (map st ["PC"; "("; "P"; ","; "0"; ")"]) /\
  m_p "2" <> m_p "3" /\ expand (m_p "2") 20 (map st ["PC"; "("; "P"; ","; "0"; ")"]) = ROk [MIdent (st "P0")].
Proof.
  intros u.
  assert (Ho : forall c r, (c = 80%N \/ is_identifier (H := u) (c :: r) = false) -> c <> 92%N -> plainly_in_set (H := u) begins_p (c :: r)).
  { intros c r Hc Hb. split; [|now exists c, r]. intros Hw. apply well_formed_iff in Hw. destruct Hc as [-> |Hc]; [now exists r|congruence]. }
  split. { intros a b (r & ->). now exists (r ++ b). }
  split. { intros n (r & ->). split; reflexivity. }
  split.
  { intros n (r & ->). split.
    - intros body t. cbn. destruct (str_eqb r [81%N]); [|discriminate]. intros [= <-] [<-|[]]. apply Ho; [now left|discriminate].
    - intros params body t. cbn. destruct (str_eqb r [67%N]); [|discriminate]. intros [= <- <-] Hi Hp.
      destruct Hi as [<-|[<-|[<-|[]]]].
      + exfalso. apply Hp. split; [now left|]. split; [apply well_formed_iff; reflexivity|discriminate].
      + apply Ho; [now right|discriminate].
      + exfalso. apply Hp. split; [right; now left|]. split; [apply well_formed_iff; reflexivity|discriminate]. }
  split.
  { constructor; [apply Ho; [now left|discriminate]|]. constructor; [apply Ho; [now right|discriminate]|].
    constructor; [apply Ho; [now left|discriminate]|]. constructor; [apply Ho; [now right|discriminate]|].
    constructor; [apply Ho; [now right|discriminate]|]. constructor; [apply Ho; [now right|discriminate]|]. constructor. }
  split; [discriminate|]. vm_compute. reflexivity.
Qed.

(** ** The conditions are needed *)

(** A name that is made by [##] matters although it is written nowhere. *)
Definition m_pq (q : string) : macro_set := D "C" ["a"; "b"] ["a"; "##"; "b"] (V "PQ" [q] ms_new).
Theorem C79_paste_needed : let u := demo_unicode in agree_on (named ["C"; "P"; "Q"]) (m_pq "2") (m_pq "3") /\
  expand (m_pq "2") 20 (map st ["C"; "("; "P"; ","; "Q"; ")"]) <> expand (m_pq "3") 20 (map st ["C"; "("; "P"; ","; "Q"; ")"]) .
Proof.
  split; [|vm_compute; discriminate]. intros n [<-|[<-|[<-|[]]]]; split; reflexivity.
Qed.

Print Assumptions C79_text.
Print Assumptions C79_var.
Print Assumptions C79_fn.
Print Assumptions C79_paste_text.
Print Assumptions C79_paste_var.
Print Assumptions C79_paste_fn.
Print Assumptions C79_unmentioned.
Print Assumptions C79_case.
Print Assumptions C79_unmentioned_case.
Print Assumptions C79_paste_case.
Print Assumptions C79_paste_needed.
