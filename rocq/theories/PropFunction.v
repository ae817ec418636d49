(** C83: function-like macros without mistakes are expanded by themselves. *)
From Verif Require Import Base Utf Lex LexFloat Token MacroSet StrFacts LexFacts ExpandFacts ExpandInv TokenFacts
  SpecPaste PasteFacts SpecRescan ObjFacts SpecSet SetFacts SpecCall CallFacts SpecTokens ParamFacts SpecExpand FullFacts HideFacts
  PropObject PropTokens PropExpand SpecComplete CompleteFacts PropComplete SpecStringify SpecCpp CppFacts PropCpp
  SpecProper ProperFacts ProgressFacts PropProper PropSelf PropAlone BlockFacts.
From Coq Require Import String List Bool Lia.
Import ListNotations.
Local Open Scope list_scope.

Section S.
Context `{Unicode}.

(** There is always a name that is no macro. *)
Definition long_name (m : nat) : str := 97%N :: repeat 97%N m.
Lemma long_name_length m : length (long_name m) = S m.
Proof. cbn. now rewrite repeat_length. Qed.
Lemma long_name_free l : exists k, forall m, k <= m -> defined l (long_name m) = None.
Proof.
  assert (K : forall x m, length x <= m -> same_name x (long_name m) = false).
  { intros x m L. rewrite same_name_eqb. apply str_eqb_neq. intro E. apply (f_equal (@length _)) in E. rewrite long_name_length in E. lia. }
  induction l as [|c l [k IH]]; [now exists 0|].
  destruct c as [x b|x p b|x|x]; exists (length x + k); intros m L; cbn [defined]; rewrite K by lia; apply IH; lia.
Qed.
Lemma long_name_plain m : is_identifier (long_name m) = true /\ long_name m <> st "__VA_ARGS__".
Proof. split; [|discriminate]. cbn. induction m; [reflexivity|]. cbn. exact IHm. Qed.
Lemma long_name_place m : no_place (long_name m).
Proof. split; discriminate. Qed.

(** The text of a macro with a name in place of each parameter, and of [#] with
    its parameter. *)
Definition plainly (z : str) (l : list token) : list token :=
  map (fun t => if is_arg_token t then TIdent z else t) (filter (fun t => negb (is_punct (st "#") t)) l).
Lemma plainly_app z a b : plainly z (a ++ b) = plainly z a ++ plainly z b.
Proof. unfold plainly. now rewrite filter_app, map_app. Qed.
Lemma plainly_commas z args : plainly z (comma_separated args) = comma_separated (map (plainly z) args).
Proof.
  induction args as [|a l IH]; [reflexivity|]. destruct l as [|b l]; [reflexivity|].
  change (comma_separated (a :: b :: l)) with (a ++ comma :: comma_separated (b :: l)). rewrite plainly_app. cbn [map]. cbn [map] in IH.
  change (plainly z (comma :: comma_separated (b :: l))) with (comma :: plainly z (comma_separated (b :: l))). rewrite IH. reflexivity.
Qed.
Lemma in_commas {t : token} {a args} : In a args -> In t a -> In t (comma_separated args).
Proof.
  intros Hx J. induction args as [|b l IH]; [destruct Hx|]. destruct l as [|c l].
  - destruct Hx as [-> | []]. exact J.
  - change (comma_separated (b :: c :: l)) with (b ++ comma :: comma_separated (c :: l)). apply in_app_iff. destruct Hx as [-> | Hx]; [now left|]. right. right. auto.
Qed.
Lemma arg_param t : is_arg_token t = true <-> parameter_token t.
Proof. split; [destruct t; try discriminate; [right; now eexists|now left]|]. now intros [-> | [i ->]]. Qed.

Section Plain.
Variables (ms : macro_set) (strings : Prop) (takes : str -> nat -> bool -> Prop) (z : str).
Hypothesis Hz : z <> [] /\ quiet ms z /\ (strings -> no_place z).
Hypothesis Ht : forall k va, ~ takes z k va.
(** A token of a replacement text. *)
Definition base (t : token) : Prop := is_arg_token t = true \/ (exists p, t = TPunct p) \/ okt strings t.
Lemma base_okt t : base t -> is_arg_token t = false -> t <> hash -> t <> hashhash -> okt strings t.
Proof. intros [B|[[p ->]|B]] Na N1 N2; [congruence| |exact B]. split; intros ->; [now apply N1|now apply N2]. Qed.
Lemma z_block : block ms strings [TIdent z].
Proof. split; [discriminate|]. split; [constructor; [exact Hz|constructor]|]. intros [|? [|]] E; discriminate E. Qed.
Lemma arg_block t : is_arg_token t = true -> block ms strings [t].
Proof. intro T. split; [discriminate|]. split; [constructor; [now destruct t|constructor]|]. intros [|? [|]] E; try discriminate E. injection E as ->. discriminate T. Qed.
Lemma hash_block t : is_arg_token t = true -> block ms strings [hash; t].
Proof.
  intro T. split; [discriminate|]. split; [constructor; [reflexivity|constructor; [now destruct t|constructor]]|].
  intros [|? [|? [|]]] E; try discriminate E. injection E as _ ->. discriminate T.
Qed.
Lemma sep_sim args : Forall (fun a => sim ms strings a (plainly z a)) args -> sim ms strings (comma_separated args) (comma_separated (map (plainly z) args)).
Proof.
  induction 1 as [|a l A L IH]; [constructor|]. destruct L as [|b l B L]; [exact A|]. cbn [map] in *.
  change (comma_separated (a :: b :: l)) with (a ++ comma :: comma_separated (b :: l)).
  change (comma_separated (plainly z a :: plainly z b :: map (plainly z) l)) with (plainly z a ++ comma :: comma_separated (plainly z b :: map (plainly z) l)).
  apply sim_app; [exact A|]. apply sim_tok; [split; discriminate|exact IH].
Qed.

Lemma plain_proper n : forall v l, length l < n -> proper takes v l -> Forall base l -> proper takes v (plainly z l) /\ sim ms strings l (plainly z l).
Proof.
  induction n as [|n IH]; intros v l Hn Hl Hb; [lia|].
  assert (Hargs : forall w args, length (comma_separated args) < n -> Forall (proper takes w) args -> Forall base (comma_separated args) ->
    Forall (proper takes w) (map (plainly z) args) /\ sim ms strings (comma_separated args) (comma_separated (map (plainly z) args))).
  { intros w args Hlen Ha Hi.
    assert (K : forall a, In a args -> proper takes w (plainly z a) /\ sim ms strings a (plainly z a)).
    { intros a I. rewrite Forall_forall in Ha, Hi. apply IH; auto.
      - pose proof (comma_length args a I). lia.
      - apply Forall_forall. intros t J. apply Hi. eapply in_commas; eassumption. }
    split.
    - apply Forall_forall. intros x Hx. apply in_map_iff in Hx as (a & <- & Hx). now apply K.
    - apply sep_sim. apply Forall_forall. intros a I. now apply K. }
  assert (Hid : forall v l, proper takes v l -> proper takes v (TIdent z :: l)).
  { intros v0 l0 Hr. apply pr_token; try discriminate; [intros [u [K|K]]; inversion K| |exact Hr]. intros id' k va K. injection K as <-. now apply Ht. }
  inversion Hl; subst; cbn [length] in Hn; try rewrite app_length in Hn; cbn [length] in Hn.
  - split; constructor.
  - inversion Hb as [|? ? B1 B2]; subst. destruct (IH v l0) as [P1 P2]; [lia|easy|easy|].
    unfold plainly. cbn [filter]. replace (is_punct (st "#") t) with false.
    2:{ symmetry. destruct t; try reflexivity. cbn [is_punct]. apply str_eqb_neq. now intros ->. }
    cbn [negb map]. destruct (is_arg_token t) eqn:At.
    + split; [now apply Hid|]. apply (sim_block ms strings [t] [TIdent z]); [now apply arg_block|apply z_block|exact P2].
    + split; [now apply pr_token|]. apply sim_tok; [now apply base_okt|exact P2].
  - inversion Hb as [|? ? B1 B2]; subst. destruct (IH Items l0) as [P1 P2]; [lia|easy|easy|].
    split; [now apply pr_comma|]. apply sim_tok; [split; discriminate|exact P2].
  - inversion Hb as [|? ? B1 B2]; subst. destruct (IH v l0) as [P1 P2]; [lia|easy|easy|].
    split; [now apply Hid|]. apply (sim_block ms strings [TVarArgs] [TIdent z]); [now apply arg_block|apply z_block|exact P2].
  - inversion Hb as [|? ? B1 B2]; subst. inversion B2 as [|? ? B3 B4]; subst. destruct (IH v l0) as [P1 P2]; [lia|easy|easy|].
    match goal with hp : parameter_token t |- _ => apply arg_param in hp; rename hp into At end.
    assert (E : plainly z (hash :: t :: l0) = TIdent z :: plainly z l0).
    { unfold plainly. cbn [filter]. change (is_punct (st "#") hash) with true. replace (is_punct (st "#") t) with false by (now destruct t). cbn [negb map]. now rewrite At. }
    rewrite E. split; [now apply Hid|]. apply (sim_block ms strings [hash; t] [TIdent z]); [now apply hash_block|apply z_block|exact P2].
  - match goal with hm : matching o c |- _ => rename hm into Hm end. inversion Hb as [|? ? B1 B2]; subst. apply Forall_app in B2 as [B2 B3]. inversion B3 as [|? ? B4 B5]; subst.
    assert (E : plainly z (o :: inner ++ c :: l0) = o :: plainly z inner ++ c :: plainly z l0).
    { change (o :: inner ++ c :: l0) with ([o] ++ inner ++ [c] ++ l0). rewrite !plainly_app. now inversion Hm. }
    assert (Oo : okt strings o /\ okt strings c) by (inversion Hm; repeat split; discriminate). destruct Oo as [Oo Oc].
    destruct (IH Items inner) as [P1 P2]; [lia|easy|easy|]. destruct (IH v l0) as [P3 P4]; [lia|easy|easy|]. rewrite E. split; [now apply pr_group|].
    apply sim_tok; [exact Oo|]. apply sim_app; [exact P2|]. now apply sim_tok.
  - inversion Hb as [|? ? B1 B2]; subst. inversion B2 as [|? ? B3 B4]; subst. apply Forall_app in B4 as [B4 B5]. inversion B5 as [|? ? B6 B7]; subst.
    destruct (Hargs Piece args) as [E1 E2]; [lia|easy|easy|]. destruct (IH v l0) as [P3 P4]; [lia|easy|easy|].
    assert (E : plainly z (TIdent id :: lp :: comma_separated args ++ rp_ :: l0) = TIdent id :: lp :: comma_separated (map (plainly z) args) ++ rp_ :: plainly z l0).
    { rewrite <- plainly_commas. change (TIdent id :: lp :: comma_separated args ++ rp_ :: l0) with ([TIdent id; lp] ++ comma_separated args ++ [rp_] ++ l0). now rewrite !plainly_app. }
    rewrite E. split.
    + apply pr_call with (k := k); [easy|intro K; apply map_eq_nil in K; easy| |easy|easy].
      rewrite map_length. match goal with ho : _ \/ _ |- _ => destruct ho as [Ho|[Ho ->]]; [now left|right; now split] end.
    + apply sim_tok; [now apply base_okt|]. apply sim_tok; [split; discriminate|]. apply sim_app; [exact E2|]. apply sim_tok; [split; discriminate|exact P4].
  - inversion Hb as [|? ? B1 B2]; subst. inversion B2 as [|? ? B3 B4]; subst. apply Forall_app in B4 as [B4 B5]. inversion B5 as [|? ? B6 B7]; subst.
    destruct (Hargs Item args) as [E1 E2]; [lia|easy|easy|]. destruct (IH v l0) as [P3 P4]; [lia|easy|easy|].
    assert (E : plainly z (TIdent id :: lp :: comma_separated args ++ rp_ :: l0) = TIdent id :: lp :: comma_separated (map (plainly z) args) ++ rp_ :: plainly z l0).
    { rewrite <- plainly_commas. change (TIdent id :: lp :: comma_separated args ++ rp_ :: l0) with ([TIdent id; lp] ++ comma_separated args ++ [rp_] ++ l0). now rewrite !plainly_app. }
    rewrite E. split.
    + apply pr_variadic with (k := k); [easy|intro K; apply map_eq_nil in K; easy|now rewrite map_length|easy|easy].
    + apply sim_tok; [now apply base_okt|]. apply sim_tok; [split; discriminate|]. apply sim_app; [exact E2|]. apply sim_tok; [split; discriminate|exact P4].
Qed.
End Plain.

Lemma sim_delivered ms strings k l1 l2 : sim ms strings l1 l2 -> Forall deliverable l2 -> (In TVarArgs l1 -> k <> 0) -> exists b, detokenize k l1 = ROk b.
Proof.
  assert (K : forall t l, (exists o, token_detokenize k t = ROk o) -> (exists b, detokenize k l = ROk b) -> exists b, detokenize k (t :: l) = ROk b).
  { intros t l [o E] [b Eb]. cbn [detokenize]. rewrite E, Eb. cbn [rbind]. now eexists. }
  induction 1 as [|t l1 l2 T L IH|b1 b2 l1 l2 B1 B2 L IH]; intros D V.
  - now exists [].
  - inversion D as [|? ? D1 D2]; subst. apply K; [|apply IH; [exact D2|intro I; apply V; now right]].
    clear -T D1. unfold deliverable in D1. destruct t as [u|i| |p|id|s|lt s|s|c|]; try contradiction; try (eexists; reflexivity).
    destruct u; try contradiction T. eexists; reflexivity.
  - apply Forall_app in D as [_ D2]. assert (V' : In TVarArgs l1 -> k <> 0) by (intro I; apply V, in_app_iff; now right). specialize (IH D2 V').
    destruct B1 as (_ & B1 & _). assert (V2 : In TVarArgs b1 -> k <> 0) by (intro I; apply V, in_app_iff; now left). clear -K B1 IH V2.
    induction B1 as [|t b T _ IHb]; [exact IH|]. cbn [app]. apply K; [|apply IHb; intro I; apply V2; now right].
    destruct t as [u|i| |p|id|s|lt s|s|c|]; try contradiction T; try (eexists; reflexivity).
    cbn [token_detokenize]. destruct k; [now destruct (V2 (or_introl eq_refl))|eexists; reflexivity].
Qed.

(** C83: every function-like macro without mistakes is expanded by itself. *)
Theorem C83_function : forall h n params body,
  proper_set h -> positions_apart h -> defined (rev h) n = Some (DFn params body) -> exists out, alone h n out.
Proof.
  intros h n params body Hs Hpos D.
  destruct (proj1 (proj2 Hs) n params body D) as (ids & v & PL & Hb & Hw & Hv).
  destruct (long_name_free (rev h)) as [m Hm]. specialize (Hm m (le_n m)). set (z := long_name m) in *.
  assert (Qz : quiet (run h) z) by (pose proof (run_holds h z) as R; rewrite Hm in R; exact R).
  assert (Pz : z <> [] /\ quiet (run h) z /\ (strings_made h -> no_place z)) by (split; [discriminate|split; [exact Qz|intros _; apply long_name_place]]).
  assert (Hdv : forall id d, defined (rev h) id = Some d -> forall s, In s (match d with DVar b | DFn _ b => b end) -> forall ids0, base (strings_made h) (body_token ids0 s)).
  { intros id d Dd s I ids0. unfold body_token. destruct (index_of ids0 s); [now left|]. destruct (str_eqb_spec s (st "__VA_ARGS__")) as [-> | Ns]; [now left|].
    pose proof (idents_ok_spell s) as Id. pose proof (not_place_spell s) as Pl. pose proof (from_str_no_nr s) as Nr. pose proof (from_str_not_arg s) as Na.
    assert (Np : strings_made h -> no_position (map from_str (match d with DVar b | DFn _ b => b end))).
    { intro Sm. destruct (Hpos Sm) as [H1 H2]. destruct d; eauto. }
    apply (in_map from_str) in I. destruct (from_str s) as [u|i| |p|id'|c|lt c|c|c|] eqn:Ef; try (right; right; exact Logic.I).
    - now destruct (Nr u).
    - now destruct (Na i).
    - now left.
    - right. left. now eexists.
    - right. right. split; [intros ->; cbn in Id; discriminate Id|]. intro Sm. destruct (Np Sm) as [N1 N2]. split; intros ->; contradiction.
    - now destruct Pl. }
  assert (Hvar : forall id b, sm_get (var_macros (run h)) id = Some b -> ~ contains_var_args (tokenize [] b) = true -> Forall (okt (strings_made h)) (tokenize [] b)).
  { intros id b0 E Cv. pose proof (run_holds h id) as R. destruct (defined (rev h) id) as [[b1|ps1 b1]|] eqn:D1; destruct R as [R1 R2]; rewrite E in R1; try discriminate R1.
    injection R1 as <-. destruct (proj1 Hs id b0 D1) as (Pp & Kw & Nv). pose proof (text_deliverable b0 Kw Nv) as Dl.
    pose proof (proper_no_hash _ _ _ _ (Nat.lt_succ_diag_r _) Pp Dl) as Nh.
    rewrite tokenize_nil. assert (Bs : Forall (base (strings_made h)) (map from_str b0)).
    { apply Forall_forall. intros t I. apply in_map_iff in I as (s & <- & I). exact (Hdv id (DVar b0) D1 s I []). }
    destruct (plain_proper (run h) (strings_made h) (takes h) z Pz) with (n := S (length (map from_str b0))) (v := Piece) (l := map from_str b0) as [_ Sm]; auto.
    { intros k va (ps & b1 & ids0 & Hd & _). congruence. }
    apply Forall_forall. intros t I. destruct (sim_ok _ _ _ _ Sm) as [O1 _]. rewrite Forall_forall in O1, Bs, Dl. destruct (O1 t I) as [O|O]; [exact O|].
    destruct (Bs t I) as [B|[[p ->]|B]]; [destruct t; try discriminate B; now destruct (Dl _ I)| |exact B]. cbn in O. subst p. contradiction. }
  assert (Hfn : forall id ps b an, sm_get (fn_macros (run h)) id = Some (ps, b) -> tokenize_arg_names ps = ROk an -> Forall (bok (strings_made h)) (tokenize an b)).
  { intros id ps0 b0 an E T. pose proof (run_holds h id) as R. destruct (defined (rev h) id) as [[b1|ps1 b1]|] eqn:D1; destruct R as [R1 R2]; rewrite E in R2; try discriminate R2.
    injection R2 as <- <-. destruct (proj1 (proj2 Hs) id ps0 b0 D1) as (ids1 & v1 & PL1 & Pp & Kw & Nv).
    destruct (parameter_list_names ps0 ids1 v1 PL1) as (an' & E' & _ & _ & Etk). rewrite T in E'. injection E' as <-. rewrite Etk.
    assert (Bs : Forall (base (strings_made h)) (map (body_token ids1) b0)).
    { apply Forall_forall. intros t I. apply in_map_iff in I as (s & <- & I). exact (Hdv id (DFn ps0 b0) D1 s I ids1). }
    destruct (plain_proper (run h) (strings_made h) (takes h) z Pz) with (n := S (length (map (body_token ids1) b0))) (v := Piece) (l := map (body_token ids1) b0) as [_ Sm]; auto.
    { intros k va (ps & b1 & ids0 & Hd & _). congruence. }
    apply Forall_forall. intros t I. destruct (sim_ok _ _ _ _ Sm) as [O1 _]. rewrite Forall_forall in O1, Bs. destruct (O1 t I) as [O|O]; [right; now right|].
    destruct (Bs t I) as [B|[[p ->]|B]]; [now left| |right; now right]. cbn in O. subst p. right. left. split; [reflexivity|].
    exists id, ps0, b0. split; [exact D1|]. apply in_map_iff in I as (s & Es & I). unfold body_token in Es. destruct (index_of ids1 s); [discriminate Es|].
    apply in_map_iff. now exists s. }
  set (toks := map (body_token ids) body) in *.
  assert (Bs : Forall (base (strings_made h)) toks).
  { apply Forall_forall. intros t I. unfold toks in I. apply in_map_iff in I as (s & <- & I). exact (Hdv n (DFn params body) D s I ids). }
  destruct (plain_proper (run h) (strings_made h) (takes h) z Pz) with (n := S (length toks)) (v := Piece) (l := toks) as [Hp Sm]; auto.
  { intros k va (ps & b1 & ids0 & Hd & _). congruence. }
  assert (Tz : forall t, In t (plainly z toks) -> t = TIdent z \/ t <> hash /\ exists s, In s body /\ s <> st "__VA_ARGS__" /\ t = from_str s).
  { intros t I. unfold plainly in I. apply in_map_iff in I as (u & Eu & I). apply filter_In in I as [I Nh]. destruct (is_arg_token u) eqn:Au; [now left|right]. subst u.
    split; [intros ->; discriminate Nh|]. unfold toks in I. apply in_map_iff in I as (s & Es & I). exists s. unfold body_token in Es.
    destruct (index_of ids s); [subst t; discriminate Au|]. split; [exact I|]. split; [intros ->; subst t; discriminate Au|easy]. }
  assert (Hd : Forall deliverable (plainly z toks)).
  { apply Forall_forall. intros t I. destruct (Tz t I) as [-> | (_ & s & Hi & Ns & ->)]; [exact Logic.I|].
    unfold known_words in Hw. rewrite Forall_forall in Hw.
    assert (X : Forall deliverable (map from_str [s])). { apply text_deliverable; [constructor; [now apply Hw|constructor]|]. intros [E|[]]. congruence. }
    now inversion X. }
  assert (Td : Forall ordinary_or_comment (plainly z toks) /\ Forall (thru not_place) (plainly z toks)).
  { split; apply Forall_forall; intros t I; destruct (Tz t I) as [-> | (_ & s & Hi & Ns & ->)].
    - split; [reflexivity|]. intros [? K]; discriminate K.
    - now apply clean_spell.
    - discriminate.
    - unfold thru. rewrite strip_nr_same by apply from_str_no_nr. apply not_place_spell. }
  destruct (progress h Hs (S (left_over (run h) [n])) [n] (Nat.lt_succ_diag_r _) (S (length (plainly z toks))) Piece (plainly z toks) [] []
    (Nat.lt_succ_diag_r _) Hp Hd (pp_end _ _)) as (e & E1 & E2 & _). rewrite !app_nil_r in E1.
  assert (Ee : exists F, expand_macro_body (run h) F [n] (plainly z toks) = ROk e).
  { apply E_iff; [apply Td|].
    apply (apart_preprocessed h (proper_written_out_set h Hs) (proper_apart h Hs Hpos)); [|exact Td| |exact E1].
    - apply written_out_good. eapply proper_written_out; eauto.
    - apply Forall_forall. intros t I. destruct (Tz t I) as [-> | (Nh & s & Hi & Ns & ->)].
      + split; [discriminate|]. intros _ [K|K]; discriminate K.
      + split; [exact Nh|]. intros Sm'. destruct (proj2 (Hpos Sm') n params body D) as [N1 N2]. unfold placed. rewrite strip_nr_same by apply from_str_no_nr.
        apply (in_map from_str) in Hi. intros [K|K]; rewrite K in Hi; contradiction. }
  destruct Ee as [F Ee].
  assert (Fr : BlockFacts.fresh (run h) [n]).
  { intros id [_ Q2] Ni [<-|[]]. pose proof (run_holds h n) as R. rewrite D in R. destruct R as [_ R]. congruence. }
  pose proof (expand_sim (run h) (strings_made h) Hvar Hfn F [n] toks (plainly z toks) Fr Sm) as Rel. rewrite Ee in Rel.
  destruct (expand_macro_body (run h) F [n] toks) as [e0| | |] eqn:E0; try contradiction Rel. cbn [BlockFacts.related] in Rel.
  destruct (alone_steps h n params ids body v D PL Hv) as (a & St).
  { intros rec names name. apply (BlockFacts.rescan_id (run h) (strings_made h)). apply (sim_ok _ _ _ _ Sm). }
  fold toks in St.
  destruct (sim_delivered _ _ (length params) e0 e Rel E2) as [b Eb].
  { intro I. eapply params_some; [exact D|exact PL|]. exact (proj2 (results_in_range h n ids body v Hv F e0 E0) I). }
  exists b, a, F. intros f L. rewrite St. rewrite (more_fuel (run h) F f) by (try exact L; congruence). rewrite E0. cbn [rbind]. now rewrite Eb.
Qed.
End S.

(** ** The hypotheses are met *)

(** The macros of C82: [log] calls [print], which makes a string of
    [__VA_ARGS__]. *)
Section Demo.
#[local] Existing Instance demo_unicode.
Example C83_case : proper_set demo_proper /\ positions_apart demo_proper /\ strings_made demo_proper /\
  (exists ps b, defined (rev demo_proper) (st "log") = Some (DFn ps b)) /\
  exists out, expand_fn_macro (run demo_proper) 40 (st "log") = ROk ([MIdent (st "f"); MPunct (st "...")], out) /\
    map word (skipn 2 out) = map st [","; """__VA_ARGS__"""; ","; "g"; "("; "("; "N"; "+"; "1"; "-"; "1"; ">"; ""; "?"; "N"; "+"; "1"; "-"; "1"; ":"; ""; ")"; ")"; ")"]%string.
Proof.
  destruct C82_case as (H1 & H2 & H3 & _). split; [exact H1|]. split; [exact H2|]. split; [exact H3|]. split; [now do 2 eexists|].
  eexists. split; vm_compute; reflexivity.
Qed.
End Demo.

Print Assumptions C83_function.
