(** Proofs about [#]. *)
From Verif Require Import Base Utf Lex LexFloat Token MacroSet StrFacts LexFacts SpecStringify.
From Coq Require Import String List.
Local Open Scope list_scope.

Section S.
Context `{Unicode}.

Lemma token_stringify_spelling nested t : spellable nested t ->
  match token_stringify nested t with
  | SKeep => False
  | SSkip => spelling t = []
  | SAppend s => spelling t = [s]
  end.
Proof.
  induction t as [u IH|i| |p|id|s|l s|s|c|]; simpl; intros Hs; auto.
  - exact (IH Hs).
  - now rewrite Hs.
  - destruct nested; [|easy]. destruct (Hs eq_refl) as [H1 H2]. simpl.
    destruct (str_eqb_spec id (st "__LINE__")); [contradiction|]. destruct (str_eqb_spec id (st "__FILE__")); [contradiction|easy].
Qed.

Lemma existsb_in s l : existsb (str_eqb s) l = if str_in_dec s l then true else false.
Proof.
  destruct (str_in_dec s l) as [Hi|Hi].
  - apply existsb_exists. exists s. split; [easy|apply str_eqb_refl].
  - apply not_true_iff_false. intros E. apply existsb_exists in E. destruct E as (x & Hx & E). apply str_eqb_eq in E. now subst.
Qed.

Lemma joined_cons a l : joined (a :: l) = a ++ match l with [] => [] | b :: _ => gap a b ++ joined l end.
Proof. reflexivity. Qed.

Definition gap_before (last : option str) (ws : list str) : str :=
  match last, ws with Some a, b :: _ => gap a b | _, _ => [] end.

Definition space_after (last : option str) : bool :=
  match last with Some a => if str_in_dec a tight_after then false else true | None => false end.
Definition so_far (cur : option str) : str := match cur with Some s => s | None => [] end.

Lemma stringify_loop_spec nested l : Forall (spellable nested) l -> forall cur last,
  stringify_loop nested [] cur (space_after last) l =
  ([], match flat_map spelling l with [] => cur | ws => Some (so_far cur ++ gap_before last ws ++ joined ws) end).
Proof.
  induction 1 as [|t l Ht Hl IH]; intros cur last; [easy|].
  cbn [stringify_loop flat_map]. pose proof (token_stringify_spelling _ _ Ht) as Hts.
  destruct (token_stringify nested t) as [| |s]; [easy| |]; rewrite Hts; cbn [app]; [apply IH|].
  change [st ")"; st "]"; st "}"; st "."; st ","; st "("] with tight_before.
  change [st "("; st "["; st "{"; st "."] with tight_after. rewrite !existsb_in.
  assert (Es : negb (if str_in_dec s tight_after then true else false) = space_after (Some s)).
  { unfold space_after. now destruct (str_in_dec s tight_after). }
  rewrite Es, IH. f_equal. fold (so_far cur).
  assert (Eg : (if negb (if str_in_dec s tight_before then true else false) && space_after last then so_far cur ++ [32%N] else so_far cur)
    = so_far cur ++ gap_before last (s :: flat_map spelling l)).
  { unfold gap_before, gap, space_after. destruct last as [a|].
    - destruct (str_in_dec a tight_after); [now rewrite andb_false_r, app_nil_r|].
      destruct (str_in_dec s tight_before); simpl; [now rewrite app_nil_r|easy].
    - now rewrite andb_false_r, app_nil_r. }
  rewrite Eg, joined_cons. cbn [so_far]. 
  destruct (flat_map spelling l) as [|b ws]; rewrite <- !app_assoc; [now rewrite app_nil_r|easy].
Qed.

(** [#] on tokens it can spell. *)
Lemma stringify_spec nested l : Forall (spellable nested) l ->
  stringify nested l = [TLit (LString (SOrdinary (utf8_encode (contents l)))) (debug_str (contents l))].
Proof.
  intros Hl. unfold stringify, contents. pose proof (stringify_loop_spec nested l Hl None None) as E. simpl in E.
  rewrite E. now destruct (flat_map spelling l).
Qed.

(** The general case. *)
Lemma deferred_keep nested t :
  match token_stringify nested t with
  | SKeep => deferred nested t = true
  | SSkip => deferred nested t = false /\ spelling t = []
  | SAppend s => deferred nested t = false /\ spelling t = [s]
  end.
Proof.
  induction t as [u IH|i| |p|id|s|l s|s|c|]; cbn [token_stringify deferred spelling]; auto.
  - now destruct nested.
  - destruct (str_in_dec id [st "__LINE__"; st "__FILE__"]) as [Hi|Hi].
    + assert (E : str_eqb id (st "__LINE__") || str_eqb id (st "__FILE__") = true).
      { destruct Hi as [<- |[<- |[]]]; reflexivity. }
      rewrite E, andb_true_r. now destruct nested.
    + assert (E : str_eqb id (st "__LINE__") || str_eqb id (st "__FILE__") = false).
      { apply orb_false_iff. rewrite !str_eqb_neq. split; intros ->; apply Hi; simpl; auto. }
      rewrite E, andb_false_r. easy.
Qed.

Lemma stringify_loop_kept nested l : forall kept cur space,
  stringify_loop nested kept cur space l =
  (rev (flat_map (fun t => [TPunct (st "#"); t]) (filter (deferred nested) l)) ++ kept,
   snd (stringify_loop nested [] cur space (filter (fun t => negb (deferred nested t)) l))).
Proof.
  induction l as [|t l IH]; intros kept cur space; [easy|]. cbn [stringify_loop filter].
  pose proof (deferred_keep nested t) as Hd. destruct (token_stringify nested t) as [| |s] eqn:Et.
  - rewrite Hd. cbn [negb flat_map]. rewrite IH. f_equal. rewrite rev_app_distr. cbn. now rewrite <- !app_assoc.
  - destruct Hd as [-> _]. cbn [negb stringify_loop]. rewrite Et, IH. easy.
  - destruct Hd as [-> _]. cbn [negb stringify_loop]. rewrite Et, IH. easy.
Qed.

Lemma not_deferred_spellable nested t : deferred nested t = false -> spellable nested t.
Proof.
  induction t as [u IH|i| |p|id|s|l s|s|c|]; cbn [deferred spellable]; auto; try discriminate.
  destruct (str_in_dec id [st "__LINE__"; st "__FILE__"]) as [Hi|Hi].
  - intros -> E. discriminate.
  - intros _ _. split; intros ->; apply Hi; simpl; auto.
Qed.

Lemma stringify_general nested l :
  stringify nested l = flat_map (fun t => [TPunct (st "#"); t]) (filter (deferred nested) l) ++
    let w := filter (fun t => negb (deferred nested t)) l in
    match filter (deferred nested) l, flat_map spelling w with
    | _ :: _, [] => []
    | _, _ => [TLit (LString (SOrdinary (utf8_encode (contents w)))) (debug_str (contents w))]
    end.
Proof.
  unfold stringify. rewrite stringify_loop_kept. cbv zeta. set (w := filter (fun t => negb (deferred nested t)) l).
  assert (Hw : Forall (spellable nested) w).
  { apply Forall_forall. intros t Ht. apply filter_In in Ht. destruct Ht as [_ Ht].
    apply not_deferred_spellable. now apply negb_true_iff. }
  pose proof (stringify_loop_spec nested w Hw None None) as E. simpl space_after in E. rewrite E. clear E. cbn [snd so_far].
  rewrite app_nil_r, rev_involutive. unfold contents.
  destruct (filter (deferred nested) l) as [|d ds]; cbn [flat_map app]; destruct (flat_map spelling w) as [|a ws]; reflexivity.
Qed.

(** ** The literal's spelling read back *)

(** Characters that survive: printable ones, tabs and line ends. *)
Definition readable (c : N) : Prop :=
  ((32 <= c /\ c < 127) \/ c = 9 \/ c = 10 \/ c = 13 \/ (128 <= c /\ u_escape c = false))%N.

Definition raw (c : N) : bool := (negb ((c =? 92) || (c =? 34) || (c =? 10)) && negb ((c =? 9) || (c =? 13)))%N.

Lemma debug_raw c : readable c -> raw c = true -> debug_char c = [c].
Proof.
  unfold readable, raw, debug_char. intros Hr Hw. apply andb_true_iff in Hw. destruct Hw as [H1 H2].
  apply negb_true_iff in H1, H2. apply orb_false_iff in H1, H2. destruct H1 as [H1 H3], H2 as [H2 H4].
  apply orb_false_iff in H1. destruct H1 as [H1 H5].
  rewrite H1, H2, H3, H4, H5. apply N.eqb_neq in H1, H2, H3, H4, H5.
  destruct (N.eqb_spec c 0); [exfalso; intuition lia|].
  destruct Hr as [Hr|[Hr|[Hr|[Hr|Hr]]]]; try contradiction.
  - destruct (N.leb_spec 32 c), (N.ltb_spec c 127); simpl; try easy; lia.
  - destruct Hr as [Hr ->]. destruct (N.ltb_spec c 127); [lia|]. rewrite andb_false_r.
    destruct (N.leb_spec 128 c); [easy|lia].
Qed.

Lemma debug_escaped c rest : readable c -> raw c = false ->
  exists d, debug_char c = [92%N; d] /\ escaped_char (92%N :: d :: rest) = Some (rest, c) /\ (c < 128)%N.
Proof.
  unfold raw. intros Hr Hw.
  assert (Hc : (c = 92 \/ c = 34 \/ c = 10 \/ c = 9 \/ c = 13)%N).
  { apply andb_false_iff in Hw. rewrite !negb_false_iff, !orb_true_iff, !N.eqb_eq in Hw. tauto. }
  destruct Hc as [-> | [-> | [-> | [-> | ->]]]]; (eexists; split; [reflexivity|]; split; [reflexivity|lia]).
Qed.

Lemma take_while_app {A} (p : A -> bool) a b : forallb p a = true -> match b with c :: _ => p c = false | [] => True end ->
  take_while p (a ++ b) = (a, b).
Proof.
  intros Ha Hb. induction a as [|c a IH]; simpl.
  - destruct b as [|c b]; [easy|]. simpl. now rewrite Hb.
  - simpl in Ha. apply andb_true_iff in Ha. destruct Ha as [-> Ha]. now rewrite IH.
Qed.

Lemma span (p : N -> bool) (s : str) : exists a b, s = a ++ b /\ forallb p a = true /\ match b with c :: _ => p c = false | [] => True end.
Proof.
  induction s as [|c s (a & b & -> & Ha & Hb)]; [now exists [], []|].
  destruct (p c) eqn:E; [exists (c :: a), b|exists [], (c :: a ++ b)]; repeat split; auto. simpl. now rewrite E, Ha.
Qed.

Lemma debug_run a : Forall readable a -> forallb raw a = true -> flat_map debug_char a = a.
Proof.
  induction 1 as [|c a Hc Ha IH]; simpl; [easy|]. intros E. apply andb_true_iff in E. destruct E as [E1 E2].
  now rewrite debug_raw, IH.
Qed.

Lemma debug_items n : forall s rest fuel, length s <= n -> Forall readable s ->
  length (flat_map debug_char s ++ 34%N :: rest) <= fuel ->
  exists l, many_items ordinary_item fuel (flat_map debug_char s ++ 34%N :: rest) = (34%N :: rest, l) /\
    concat l = utf8_encode s.
Proof.
  induction n as [|n IH]; intros s rest fuel Hn Hs Hf.
  - destruct s; [|simpl in Hn; lia]. simpl in *. destruct fuel; [lia|]. simpl. now exists [].
  - destruct s as [|c s]. { simpl in *. destruct fuel; [lia|]. simpl. now exists []. }
    destruct (raw c) eqn:Ec.
    + destruct (span raw (c :: s)) as (a & b & Es & Ha & Hb).
      assert (Hne : a <> []). { intros ->. simpl in Es. subst b. congruence. }
      rewrite Es in Hs, Hf, Hn |- *. apply Forall_app in Hs. destruct Hs as [Hsa Hsb].
      rewrite flat_map_app, (debug_run a), <- app_assoc in Hf |- * by easy.
      destruct fuel as [|fuel]. { rewrite app_length in Hf. destruct a; [easy|simpl in Hf; lia]. }
      assert (Hla : 1 <= length a) by (destruct a; [easy|simpl; lia]).
      rewrite app_length in Hn, Hf.
      destruct (IH b rest fuel ltac:(lia) Hsb ltac:(lia)) as (l & El & Ec').
      exists (utf8_encode a :: l). split.
      * assert (Ei : ordinary_item (a ++ flat_map debug_char b ++ 34%N :: rest) = Some (flat_map debug_char b ++ 34%N :: rest, utf8_encode a)).
        { unfold ordinary_item.
          assert (Ee : escaped_char (a ++ flat_map debug_char b ++ 34%N :: rest) = None).
          { destruct a as [|x a]; [easy|]. unfold escaped_char. simpl. simpl in Ha. apply andb_true_iff in Ha. destruct Ha as [Hx _].
            unfold raw in Hx. destruct (N.eqb_spec x 92); [subst; discriminate|easy]. }
          rewrite Ee. simpl. unfold plain_run, take_while1.
          rewrite take_while_app.
          - destruct a; [easy|]. reflexivity.
          - clear -Ha. induction a as [|x a IH]; [easy|]. simpl in *. apply andb_true_iff in Ha. destruct Ha as [Hx Ha].
            unfold raw in Hx. apply andb_true_iff in Hx. destruct Hx as [-> _]. now rewrite IH.
          - destruct b as [|x b]; [easy|]. inversion Hsb; subst. destruct (debug_escaped x (flat_map debug_char b) H2 Hb) as (d & E & _).
            cbn [flat_map]. rewrite E. reflexivity. }
        cbn [many_items]. rewrite Ei. now rewrite El.
      * simpl. rewrite Ec'. unfold utf8_encode. now rewrite flat_map_app.
    + inversion Hs; subst. destruct (debug_escaped c (flat_map debug_char s ++ 34%N :: rest) H2 Ec) as (d & Ed & Ee & Hc).
      cbn [flat_map] in Hf |- *. rewrite Ed in Hf |- *. cbn [app] in Hf |- *. destruct fuel as [|fuel]; [simpl in Hf; lia|].
      simpl in Hn, Hf. destruct (IH s rest fuel ltac:(lia) H3 ltac:(lia)) as (l & El & Ec').
      exists ([c] :: l). split.
      * assert (Ei : ordinary_item (92%N :: d :: flat_map debug_char s ++ 34%N :: rest) = Some (flat_map debug_char s ++ 34%N :: rest, [c])).
        { unfold ordinary_item. rewrite Ee. cbn [obind fst snd]. destruct (N.ltb_spec c 256); [easy|lia]. }
        cbn [many_items]. rewrite Ei. now rewrite El.
      * simpl. rewrite Ec'. unfold utf8_char. destruct (N.ltb_spec c 0x80); [easy|lia].
Qed.

Lemma debug_str_read s : Forall readable s -> lit_try_from (debug_str s) = Some (LString (SOrdinary (utf8_encode s))).
Proof.
  intros Hs. unfold lit_try_from, all_consuming, lit_parse_str, debug_str. cbn [app].
  assert (Hc : char_parse_str (34%N :: flat_map debug_char s ++ [34%N]) = None) by reflexivity. rewrite Hc. cbn [omap oor].
  unfold string_parse_str, string_parse_ordinary, quoted. cbn [char1 N.eqb Pos.eqb obind].
  destruct (debug_items (length s) s [] (length (flat_map debug_char s ++ [34%N])) (le_n _) Hs (le_n _)) as (l & El & Ec).
  rewrite El. cbn. now rewrite Ec.
Qed.
End S.
