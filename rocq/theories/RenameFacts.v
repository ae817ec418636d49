(** Lemmas about renaming parameters. *)
From Verif Require Import Base Lex LexFloat Token MacroSet SpecInt SpecString SpecTokens SpecLexical SpecRename StrFacts LexFacts TokenFacts PropLexical FullFacts PropTokens.
From Coq Require Import String List Lia Arith.
Import ListNotations.
Local Open Scope list_scope.

Section F.
Context `{Unicode}.

Lemma spells_plain s t : spells s t -> ~ In 92%N s -> t = s.
Proof.
  intros (parts & Hp & ->). induction Hp as [|p c parts t Hc Hp IH]; intros Hn; [reflexivity|].
  cbn [concat] in *. destruct Hc as [c Hc|ds v _ _ _|ds v _ _ _].
  - cbn [app] in *. f_equal. apply IH. intros Hi. apply Hn. now right.
  - exfalso. apply Hn. now left.
  - exfalso. apply Hn. now left.
Qed.

Lemma plain_identifier s id : identifier_try_from s = Some id -> ~ In 92%N s -> id = s.
Proof. intros E Hn. apply C60_identifier_partial in E. destruct E as [[_ E] _]. now apply spells_plain. Qed.

Lemma from_str_name s : parameter_name s -> from_str s = TIdent s.
Proof.
  intros [Hw Hv]. unfold from_str. destruct (str_eqb s _) eqn:E; [apply str_eqb_eq in E; contradiction|].
  rewrite identifier_try_from_id; [reflexivity|]. now apply well_formed_iff.
Qed.
Lemma from_str_ident s id : from_str s = TIdent id -> ~ In 92%N s -> id = s /\ parameter_name s.
Proof.
  unfold from_str. intros E Hn. destruct (str_eqb s _) eqn:Ev; [discriminate|].
  destruct (identifier_try_from s) as [i|] eqn:Ei.
  - injection E as ->. pose proof (plain_identifier _ _ Ei Hn) as ->. split; [reflexivity|]. split.
    + apply well_formed_iff. eapply identifier_try_from_ok; eassumption.
    + intros ->. now rewrite str_eqb_refl in Ev.
  - destruct (lit_try_from s); [discriminate|]. destruct (identifier_continue_try_from s); [discriminate|].
    destruct (punct_try_from s); [discriminate|]. destruct (comment_try_from s); discriminate.
Qed.

Section Rename.
Variable f : str -> str.
Variables params body : list str.
Hypothesis Hf : renaming f params body.

Definition rt (t : token) : token := match t with TIdent x => TIdent (f x) | t => t end.

Lemma rename_param p : In p params -> from_str (f p) = rt (from_str p).
Proof.
  intros Hp. pose proof (rn_plain _ _ _ Hf _ Hp) as Hn.
  destruct (from_str p) as [|i| |q|id|c|l s0|s0|c|] eqn:E; cbn [rt];
    try (rewrite (rn_other _ _ _ Hf p); [exact E|apply in_or_app; now left|intros [_ Hq]; rewrite (from_str_name _ Hq) in E; discriminate]).
  destruct (from_str_ident _ _ E Hn) as [-> Hq]. apply from_str_name. now apply (rn_name _ _ _ Hf).
Qed.

(** Tokens of the parameter list: those that are names are among the parameters. *)
Definition listed (l : list token) : Prop := forall id, In (TIdent id) l -> In id params /\ parameter_name id.

Lemma contains_rename id l : listed l -> In id params -> contains_ident (f id) (map rt l) = contains_ident id l.
Proof.
  intros Hl Hi. unfold contains_ident. induction l as [|t l IH]; [reflexivity|]. cbn [map existsb].
  rewrite IH by (intros x Hx; apply Hl; now right). f_equal.
  destruct t as [|i| |q|id'|c|l0 s0|s0|c|]; try reflexivity. cbn [rt].
  destruct (str_eqb id id') eqn:E.
  - apply str_eqb_eq in E as ->. apply str_eqb_refl.
  - destruct (str_eqb (f id) (f id')) eqn:E2; [|reflexivity]. apply str_eqb_eq in E2. exfalso.
    apply (rn_distinct _ _ _ Hf) in E2.
    + subst. now rewrite str_eqb_refl in E.
    + apply in_or_app; now left.
    + apply in_or_app; left. apply (Hl id'). now left.
Qed.

Definition rres (r : res xerr (list token)) : res xerr (list token) :=
  match r with ROk l => ROk (map rt l) | r => r end.


Lemma arg_names_rename : forall l v acc, incl l params -> listed acc ->
  same_result (rres (tokenize_arg_names_loop v acc l)) (tokenize_arg_names_loop v (map rt acc) (map f l)) /\
  forall r, tokenize_arg_names_loop v acc l = ROk r -> listed r.
Proof.
  induction l as [|p l IH]; intros v acc Hl Hacc; cbn [map tokenize_arg_names_loop].
  - split; [now left|]. now intros r [= <-].
  - assert (Hp : In p params) by (apply Hl; now left).
    assert (Hl' : incl l params) by (intros x Hx; apply Hl; now right).
    rewrite (rename_param _ Hp).
    destruct (from_str p) as [|i| |q|id|c|l0 s0|s0|c|] eqn:E; cbn [rt]; try (split; [now left|discriminate]).
    + (* punctuation *)
      destruct (str_eqb q (st "...")); [|split; [now left|discriminate]].
      destruct v; [split; [now left|discriminate]|].
      specialize (IH true (acc ++ [TPunct q]) Hl'). rewrite map_app in IH. apply IH.
      intros id Hi. apply in_app_or in Hi. destruct Hi as [Hi|[Hi|[]]]; [now apply Hacc|discriminate].
    + destruct v; [split; [now left|discriminate]|].
      destruct (from_str_ident _ _ E (rn_plain _ _ _ Hf _ Hp)) as [-> Hq].
      rewrite (contains_rename _ _ Hacc Hp). destruct (contains_ident p acc).
      * split; [right; exists p, (f p); now split|discriminate].
      * specialize (IH false (acc ++ [TIdent p]) Hl'). rewrite map_app in IH. apply IH.
        intros id Hi. apply in_app_or in Hi. destruct Hi as [Hi|[Hi|[]]]; [now apply Hacc|]. injection Hi as <-. now split.
    + specialize (IH v (acc ++ [TComment c]) Hl'). rewrite map_app in IH. apply IH.
      intros id Hi. apply in_app_or in Hi. destruct Hi as [Hi|[Hi|[]]]; [now apply Hacc|discriminate].
Qed.

Lemma position_rename t l : forall i, In t (params ++ body) -> listed l ->
  arg_position (f t) i (map rt l) = arg_position t i l.
Proof.
  induction l as [|a l IH]; intros i Ht Hl; [reflexivity|].
  assert (Hl' : listed l) by (intros x Hx; apply Hl; now right).
  destruct a as [|j| |q|id|c|l0 s0|s0|c|]; cbn [map rt arg_position]; try (now apply IH).
  rewrite IH by assumption.
  destruct (str_eqb id t) eqn:E.
  - apply str_eqb_eq in E as ->. now rewrite str_eqb_refl.
  - destruct (str_eqb (f id) (f t)) eqn:E2; [|reflexivity]. apply str_eqb_eq in E2. exfalso.
    apply (rn_distinct _ _ _ Hf) in E2; [|apply in_or_app; left; apply (Hl id); now left|exact Ht].
    subst. now rewrite str_eqb_refl in E.
Qed.

Lemma position_in t l : forall i, In (TIdent t) l -> arg_position t i l <> None.
Proof.
  induction l as [|a l IH]; intros i Hi; [destruct Hi|]. destruct Hi as [-> |Hi].
  - cbn. rewrite str_eqb_refl. discriminate.
  - destruct a as [|j| |q|id|c|l0 s0|s0|c|]; cbn [arg_position]; try (now apply IH).
    destruct (str_eqb id t); [discriminate|now apply IH].
Qed.

(** Every parameter that is a name is in the list that is made of them. *)
Lemma arg_names_all : forall l v acc r, incl l params -> tokenize_arg_names_loop v acc l = ROk r ->
  (forall t, In t acc -> In t r) /\ forall p, In p l -> parameter_name p -> In (TIdent p) r.
Proof.
  induction l as [|p l IH]; intros v acc r Hl; cbn [tokenize_arg_names_loop].
  - intros [= <-]. split; [easy|intros p []].
  - assert (Hl' : incl l params) by (intros x Hx; apply Hl; now right).
    assert (Hgo : forall v', tokenize_arg_names_loop v' (acc ++ [from_str p]) l = ROk r ->
      (forall t, In t acc -> In t r) /\ forall q, In q (p :: l) -> parameter_name q -> In (TIdent q) r).
    { intros v' E. apply IH in E; [|exact Hl']. destruct E as [E1 E2]. split.
      - intros t Ht. apply E1. apply in_or_app. now left.
      - intros q [-> |Hq] Hn; [|now apply E2]. apply E1. apply in_or_app. right. left. now apply from_str_name. }
    destruct (from_str p) as [|i| |q|id|c|l0 s0|s0|c|] eqn:E; try discriminate.
    + destruct (str_eqb q (st "...")); [|discriminate]. destruct v; [discriminate|]. apply Hgo.
    + destruct v; [discriminate|]. destruct (contains_ident id acc); [discriminate|]. apply Hgo.
    + apply Hgo.
Qed.

Lemma tokenize_rename l : tokenize_arg_names params = ROk l -> tokenize (map rt l) (map f body) = tokenize l body.
Proof.
  intros E. unfold tokenize. rewrite map_map. apply map_ext_in. intros t Ht.
  assert (Hi : In t (params ++ body)) by (apply in_or_app; now right).
  assert (Hl : listed l).
  { refine (proj2 (arg_names_rename params false [] (incl_refl _) _) l E). intros id []. }
  rewrite (position_rename _ _ 0 Hi Hl). destruct (arg_position t 0 l) as [i|] eqn:Ea; [reflexivity|].
  f_equal. apply (rn_other _ _ _ Hf); [exact Hi|]. intros [Hp Hn].
  apply (position_in t l 0) in Ea; [destruct Ea|].
  apply (proj2 (arg_names_all params false [] l (incl_refl _) E)); assumption.
Qed.

Lemma drop_comments_rename l : drop_comments (map rt l) = map rt (drop_comments l).
Proof. unfold drop_comments. induction l as [|a l IH]; [reflexivity|]. destruct a; cbn; now rewrite IH. Qed.

Lemma variadic_rename l : is_variadic (map rt l) = is_variadic l.
Proof. unfold is_variadic. rewrite <- map_rev. destruct (rev l) as [|a r]; [reflexivity|]. now destruct a. Qed.
End Rename.

(** ** Expansion *)
Lemma no_dup_names ps an : tokenize_arg_names ps = ROk an ->
  first_duplicate (MacroSet.filter_map param_name (drop_comments an)) = None.
Proof. intros E. destruct (accepted_names _ _ E) as (ids & v & -> & Hd & Hi). now apply no_duplicate. Qed.

Lemma same_refl {A} (r : res xerr A) : same_result r r.
Proof. now left. Qed.
Lemma same_bind {A B} (r1 r2 : res xerr A) (k1 k2 : A -> res xerr B) :
  same_result r1 r2 -> (forall a, r1 = ROk a -> same_result (k1 a) (k2 a)) -> same_result (rbind r1 k1) (rbind r2 k2).
Proof.
  intros [-> |(a & b & -> & ->)] Hk.
  - destruct r2; cbn; try apply same_refl. now apply Hk.
  - cbn. right. now exists a, b.
Qed.

Section Sets.
Variables m1 m2 : macro_set.
Hypothesis Hs : renamed_set m1 m2.

Section Rec.
Variables rec1 rec2 : list str -> list token -> res xerr (list token).
Hypothesis Hrec : forall n b, same_result (rec1 n b) (rec2 n b).

Lemma arguments_rename names k args : forall it acc,
  same_result (expand_arguments_loop rec1 names k args acc it) (expand_arguments_loop rec2 names k args acc it).
Proof.
  induction it as [|t it IH]; intros acc; cbn [expand_arguments_loop]; [apply same_refl|].
  destruct (is_punct (st "#") t). { destruct (peek_is is_arg_token it); [apply IH|apply same_refl]. }
  destruct (is_arg_token t); [|apply IH].
  destruct (argument_of k args t) as [arg|]; [|apply same_refl].
  destruct (peek_is (is_punct (st "#")) acc); [apply IH|].
  destruct (_ || _); (apply same_bind; [apply Hrec|intros e _; apply IH]).
Qed.

Lemma rescan_rename names name b : same_result (concat_and_rescan rec1 names name b) (concat_and_rescan rec2 names name b).
Proof. unfold concat_and_rescan. apply same_bind; [apply same_refl|]. intros b' _. apply Hrec. Qed.

Lemma var_body_rename names name b : same_result (expand_var_macro_body rec1 names name b) (expand_var_macro_body rec2 names name b).
Proof. unfold expand_var_macro_body. destruct (contains_var_args b); [apply same_refl|apply rescan_rename]. Qed.

(** The parameters are only counted once they are numbers in the replacement text. *)
Lemma fn_body_rename f ps1 ps2 an names name args b :
  tokenize_arg_names ps1 = ROk an -> tokenize_arg_names ps2 = ROk (map (rt f) an) ->
  same_result (expand_fn_macro_body rec1 names name an args b) (expand_fn_macro_body rec2 names name (map (rt f) an) args b).
Proof.
  intros E1 E2. unfold expand_fn_macro_body. rewrite (no_dup_names _ _ E1), (no_dup_names _ _ E2).
  rewrite drop_comments_rename, variadic_rename, map_length.
  destruct (negb _ && contains_var_args b); [apply same_refl|].
  assert (En : forall (X Y : bool), match map (rt f) (drop_comments an) with [] => X | _ => Y end = match drop_comments an with [] => X | _ => Y end)
    by (intros; now destruct (drop_comments an)).
  destruct args as [args|]; rewrite ?En; (destruct (if negb _ then _ else None); [apply same_refl|]);
    (apply same_bind; [|intros b' _; apply rescan_rename]); [apply arguments_rename|apply same_refl].
Qed.

Lemma definition_rename f ps b : renaming f ps b ->
  (exists an, tokenize_arg_names ps = ROk an /\ tokenize_arg_names (map f ps) = ROk (map (rt f) an) /\
     tokenize (map (rt f) an) (map f b) = tokenize an b) \/
  (exists e1 e2, tokenize_arg_names ps = RErr e1 /\ tokenize_arg_names (map f ps) = RErr e2 /\
     same_result (A := unit) (RErr e1) (RErr e2)).
Proof.
  intros Hf. destruct (arg_names_rename f ps b Hf ps false [] (incl_refl _)) as [Hsame _]; [intros id []|].
  fold (tokenize_arg_names ps) in Hsame. cbn [map] in Hsame. fold (tokenize_arg_names (map f ps)) in Hsame.
  destruct (C21_parameter_list_total ps) as [(an & E)|(e & E)].
  - left. exists an. rewrite E in Hsame. cbn in Hsame. split; [exact E|]. split.
    + destruct Hsame as [<- |(? & ? & ? & _)]; [reflexivity|discriminate].
    + now apply (tokenize_rename f ps b).
  - right. rewrite E in Hsame. cbn in Hsame. exists e.
    destruct Hsame as [<- |(x & y & [= ->] & ->)].
    + exists e. split; [exact E|]. split; [reflexivity|apply same_refl].
    + exists (NonUniqueArgument y). split; [exact E|]. split; [reflexivity|]. right. now exists x, y.
Qed.

Lemma scan_rename names : forall it acc, same_result (scan m1 rec1 names acc it) (scan m2 rec2 names acc it).
Proof.
  induction it as [|t it IH]; intros acc; cbn [scan]; [apply same_refl|].
  destruct t as [|i| |q|id|c|l0 s0|s0|c|]; try apply IH.
  destruct (str_mem id names); [apply IH|].
  rewrite (rs_var _ _ Hs).
  set (v1 := match sm_get (var_macros m1) id with Some _ => _ | None => _ end).
  set (v2 := match sm_get (var_macros m1) id with Some _ => _ | None => _ end).
  assert (Hv : same_result v1 v2).
  { subst v1 v2. destruct (sm_get (var_macros m1) id) as [b|]; [|apply IH].
    apply same_bind; [apply var_body_rename|]. intros e _. apply Hrec. }
  destruct (peek_is _ it); [|exact Hv].
  pose proof (rs_fn _ _ Hs id) as Hfn. destruct (sm_get (fn_macros m1) id) as [[ps b]|].
  2:{ rewrite Hfn. exact Hv. }
  destruct Hfn as (f & Hf & ->). destruct (collect_args it) as [[args it']|]; [|exact Hv].
  destruct (definition_rename f ps b Hf) as [(an & E1 & E2 & E3)|(e1 & e2 & E1 & E2 & E3)]; rewrite E1, E2; cbn [rbind].
  - rewrite E3. apply same_bind; [now apply (fn_body_rename f ps (map f ps))|]. intros e _. apply Hrec.
  - destruct E3 as [[= ->]|(x & y & [= ->] & [= ->])]; [apply same_refl|]. right. now exists x, y.
Qed.
End Rec.

Lemma expand_rename fuel : forall names b, same_result (expand_macro_body m1 fuel names b) (expand_macro_body m2 fuel names b).
Proof. induction fuel as [|n IH]; intros names b; cbn [expand_macro_body]; [apply same_refl|]. now apply scan_rename. Qed.
End Sets.

Lemma detokenize_rename f : forall l k a, detokenize k l = ROk a ->
  (forall t, In t l -> match t with TIdent _ | TPunct _ | TComment _ => True | _ => False end) ->
  detokenize k (map (rt f) l) = ROk (map (rename_token f) a).
Proof.
  induction l as [|t l IH]; intros k a; cbn [map detokenize]; [now intros [= <-] _|].
  intros E Hl. pose proof (Hl t (or_introl eq_refl)) as Ht.
  assert (Hl' : forall t, In t l -> match t with TIdent _ | TPunct _ | TComment _ => True | _ => False end) by (intros x Hx; apply Hl; now right).
  destruct t; try destruct Ht; cbn [rt token_detokenize rbind] in *;
    (destruct (detokenize k l) as [r| | |] eqn:Er; try discriminate; injection E as <-; rewrite (IH _ _ Er Hl'); reflexivity).
Qed.
End F.
