(** C58: names built with ##. *)
From Verif Require Import Base Utf Lex LexFloat LexFacts Token Ast Nom NomFacts ParseTok ParseExpr ParseStmt ParseFacts StrFacts MacroSet Rust Finish Codegen SpecType PropType SpecRust PropGenStr SpecName.
From Coq Require Import String List Lia PeanoNat Bool NArith.
Import ListNotations.
Local Open Scope string_scope.
Local Open Scope list_scope.

Section P.
Context `{Unicode}.

(** ** The parser *)

Definition first_part (t : mtoken) : option ident_expr :=
  match t with MArg i => Some (IArg i) | MIdent s => Some (IPlain s) | _ => None end.
Definition more_parts (t : mtoken) : option (list idpart) :=
  match t with
  | MArg i => Some [IpArg i] | MIdent s => Some [IpPlain s] | MIdCont s => split_id_cont s | _ => None
  end.
Definition step_parser : parser (list idpart) :=
  preceded (delimited meta (punct "##") meta)
      (palts [pmap (fun a => [IpArg a]) macro_arg;
              pmap (fun s => [IpPlain s]) macro_id;
              pmap_opt (fun t => match t with MIdCont s => split_id_cont s | _ => None end) take_one]).

Lemma meta_run ts : exists cs r, ts = map MComment cs ++ r /\ (forall c r', r <> MComment c :: r').
Proof.
  induction ts as [|t ts IH]; [exists [], []; split; [reflexivity|discriminate]|].
  destruct t as [i|s|s|l|p|c]; try (eexists [], _; split; [reflexivity|discriminate]).
  destruct IH as (cs & r & -> & Hr). exists (c :: cs), r. split; [reflexivity|exact Hr].
Qed.

Lemma step_ok x rest : operand_text (fun _ => []) (snd x) <> None ->
  step_parser (paste_step x ++ rest) = match more_parts (snd x) with Some l => POk rest l | None => PErr end.
Proof.
  destruct x as [[c1 c2] t]. unfold paste_step. cbn [fst snd]. intros Ht. unfold step_parser, preceded, delimited, pbind.
  rewrite <- app_assoc. cbn [app]. rewrite meta_comments by discriminate.
  replace (punct "##" (MPunct (st "##") :: (map MComment c2 ++ [t]) ++ rest))
    with (POk ((map MComment c2 ++ [t]) ++ rest) (st "##")) by reflexivity.
  rewrite <- app_assoc. rewrite meta_comments.
  2: { intros c r E. destruct t; try discriminate. now apply Ht. }
  unfold pret. cbn [app]. destruct t; try (now elim Ht); try reflexivity.
  cbv [palts palt pmap pmap_opt macro_arg macro_id take_one pbind pfail more_parts]. now destruct (split_id_cont _).
Qed.
Lemma step_no rest : no_operator rest -> step_parser rest = PErr.
Proof.
  intros Hn. destruct (meta_run rest) as (cs & r & -> & Hr). unfold step_parser, preceded, delimited, pbind.
  rewrite meta_comments by exact Hr.
  assert (Hn' : no_operator r) by (clear -Hn; induction cs; auto). clear Hn.
  destruct r as [|[i|s|s|l|p|c] r]; try reflexivity.
  unfold punct, pmap_opt, pbind. cbv beta iota delta [take_one].
  destruct (str_eqb (st "##") p) eqn:E; [|reflexivity]. apply str_eqb_eq in E. subst p. now elim Hn'.
Qed.
Lemma step_len x : 0 < length (paste_step x).
Proof. unfold paste_step. rewrite app_length. simpl. lia. Qed.

(** The parts of the name that is read. *)
Fixpoint parts_of (ts : list mtoken) : option (list idpart) :=
  match ts with
  | [] => Some []
  | t :: ts' => match more_parts t, parts_of ts' with Some a, Some b => Some (a ++ b) | _, _ => None end
  end.
Definition as_parts (n : ident_expr) : list idpart :=
  match n with IArg i => [IpArg i] | IPlain s => [IpPlain s] | IConcat l => l end.

Lemma paste_loop rest : no_operator rest -> forall ops acc n r res,
  Forall (fun x => operand_text (fun _ => []) (snd x) <> None) ops ->
  length (concat (map paste_step ops) ++ rest) < n ->
  fold_many0_n n step_parser concat_ident acc (concat (map paste_step ops) ++ rest) = POk r res ->
  r = rest ->
  exists ps, parts_of (map snd ops) = Some ps /\ as_parts res = as_parts acc ++ ps.
Proof.
  intros Hn. induction ops as [|x ops IH]; intros acc n r res Hf Hl E Hr; (destruct n as [|n]; [lia|]).
  - cbn [map concat app fold_many0_n] in E. rewrite step_no in E by exact Hn. injection E as _ <-.
    exists []. split; [reflexivity|]. now rewrite app_nil_r.
  - inversion Hf as [|? ? Hx Hf']; subst.
    cbn [map concat fold_many0_n] in E, Hl. rewrite <- app_assoc in E, Hl. rewrite step_ok in E by exact Hx.
    assert (Hlen : length (concat (map paste_step ops) ++ rest) < length (paste_step x ++ concat (map paste_step ops) ++ rest))
      by (rewrite (app_length (paste_step x)); pose proof (step_len x); lia).
    destruct (more_parts (snd x)) as [l|] eqn:El.
    + rewrite (proj2 (Nat.eqb_neq _ _)) in E by lia.
      assert (Hl2 : length (concat (map paste_step ops) ++ rest) < n) by lia.
      destruct (IH (concat_ident acc l) n rest res Hf' Hl2 E eq_refl) as (ps & Ep & Er).
      exists (l ++ ps). cbn [map parts_of]. rewrite El, Ep. split; [reflexivity|]. rewrite Er, app_assoc. f_equal. now destruct acc.
    + injection E as E _. apply (f_equal (@length mtoken)) in E. rewrite app_length in E. rewrite app_length in Hlen. pose proof (step_len x).
      rewrite !app_length in E. lia.
Qed.

(** ** The parts of one operand *)

Definition given_parts (given : nat -> str) (p : idpart) : option str :=
  match p with IpArg i => Some (given i) | IpPlain s => Some s | IpInt _ => None end.
Definition has_int (l : list idpart) : bool := existsb (fun p => match p with IpInt _ => true | _ => false end) l.

(** A text that continues an identifier is read as one identifier, or as
    something that starts with digits. *)
Lemma take_all (f : N -> bool) s : forallb f s = true -> take_while f s = (s, []).
Proof.
  induction s as [|c s IH]; simpl; auto. intros E. apply andb_prop in E as [-> E]. now rewrite IH.
Qed.
Lemma split_ident s l : forallb is_xid_continue s = true -> split_id_cont s = Some l ->
  l = [IpPlain s] \/ has_int l = true.
Proof.
  intros Hc E. unfold split_id_cont in E. destruct s as [|c s]; [discriminate|].
  cbn [length many_items] in E. unfold id_cont_item in E.
  destruct (unsuffixed_int (c :: s)) as [[r p]|] eqn:Eu.
  - right. assert (Hp : exists z, p = IpInt z).
    { unfold unsuffixed_int in Eu. destruct (char1 48 (c :: s)); [injection Eu as <- <-; eauto|].
      destruct (nom_u64 (c :: s)) as [[? ?]|]; [injection Eu as <- <-; eauto|discriminate]. }
    destruct Hp as [z ->]. cbn [oor] in E.
    match type of E with (let (_, _) := (let (_, _) := ?m in _) in _) = _ => destruct m | _ => idtac end.
    all: injection E as <-; reflexivity.
  - cbn [oor] in E. unfold identifier_parse_str in E. destruct (is_identifier_start c) eqn:Es.
    + cbn [forallb] in Hc. apply andb_prop in Hc as [_ Hc]. rewrite take_all in E by exact Hc. cbn [omap fst snd] in E.
      left. destruct s as [|d s]; [cbn in E; injection E as <-; reflexivity|].
      cbn [length many_items] in E. unfold id_cont_item in E. cbn in E. injection E as <-. reflexivity.
    + assert (Hi : identifier_char (c :: s) = Some (s, c)).
      { unfold identifier_char. assert (E92 : char1 92 (c :: s) = None).
        { cbn [forallb] in Hc. apply andb_prop in Hc as [Hc _]. unfold char1.
          destruct (N.eqb_spec c 92) as [->|_]; [discriminate Hc|]. reflexivity. }
        rewrite E92. reflexivity. }
      rewrite Hi, Es in E. discriminate.
Qed.


(** ** Inference and printing *)

(** An operand as it comes out of an expansion (C23). *)
Definition operand_ok (t : mtoken) : Prop :=
  match t with
  | MArg _ | MIdent _ => True
  | MIdCont s => forallb is_xid_continue s = true
  | _ => False
  end.

Lemma finish_no_int l : forall c c' o, idparts_finish l c = (c', FOk o) -> has_int l = false.
Proof.
  induction l as [|p l IH]; intros c c' o E; [reflexivity|]. destruct p as [i|s|v]; cbn in E |- *.
  - destruct (set_arg_type c i AIdent); [eapply IH; eauto|discriminate].
  - eapply IH; eauto.
  - destruct (0 <=? v)%Z; discriminate.
Qed.

Lemma all_some_app {A} (a b : list (option A)) x y :
  all_some a = Some x -> all_some b = Some y -> all_some (a ++ b) = Some (x ++ y).
Proof.
  revert x. induction a as [|[u|] a IH]; intros x Ea Eb; cbn in *; [injection Ea as <-; exact Eb| |discriminate].
  destruct (all_some a) as [x'|]; [|discriminate]. injection Ea as <-. now rewrite (IH x' eq_refl Eb).
Qed.

Lemma more_text given t l : operand_ok t -> more_parts t = Some l -> has_int l = false ->
  exists u, operand_text given t = Some u /\ l <> [] /\ exists us, all_some (map (given_parts given) l) = Some us /\ concat us = u.
Proof.
  intros Ht El Hi. destruct t as [i|s|s|x|p|c]; try contradiction; cbn in El.
  1,2: injection El as <-; eexists; repeat split; [discriminate|]; eexists; split; [reflexivity|]; cbn; now rewrite app_nil_r.
  destruct (split_ident s l Ht El) as [->|Hc]; [|congruence].
  exists s. repeat split; [discriminate|]. exists [s]. split; [reflexivity|]. cbn. now rewrite app_nil_r.
Qed.
Lemma has_int_app a b : has_int (a ++ b) = has_int a || has_int b.
Proof. apply existsb_app. Qed.
Lemma parts_text given ts : forall ps, Forall operand_ok ts -> parts_of ts = Some ps -> has_int ps = false ->
  exists us ts', all_some (map (given_parts given) ps) = Some us /\ all_some (map (operand_text given) ts) = Some ts' /\ concat us = concat ts'.
Proof.
  induction ts as [|t ts IH]; intros ps Hf E Hi.
  - injection E as <-. exists [], []. auto.
  - inversion Hf as [|? ? Ht Hf']; subst. cbn [parts_of] in E. destruct (more_parts t) as [a|] eqn:Ea; [|discriminate].
    destruct (parts_of ts) as [b|] eqn:Eb; [|discriminate]. injection E as <-. rewrite has_int_app in Hi. apply orb_false_elim in Hi as [Hia Hib].
    destruct (more_text given t a Ht Ea Hia) as (u & Eu & _ & us & Eus & Hu).
    destruct (IH b Hf' eq_refl Hib) as (vs & ts' & Evs & Ets & Hv).
    exists (us ++ vs), (u :: ts'). rewrite map_app, (all_some_app _ _ us vs Eus Evs). cbn [map all_some]. rewrite Eu, Ets.
    repeat split. now rewrite concat_app, Hu, Hv.
Qed.

Definition by_index (c : lctx) (given : str -> str) (i : nat) : str :=
  match nth_error (lc_names c) i with Some x => given x | None => [] end.

Lemma arg_text c given i out : lc_macro c = true -> ~ In (st "...") (lc_names c) -> arg_toks c i = Some out ->
  part_text given out = Some (by_index c given i) /\ free_of "," out /\ exists x, out = [rp "$"; RId x].
Proof.
  intros Hm Hn E. unfold arg_toks, arg_name in E. unfold by_index. destruct (nth_error (lc_names c) i) as [x|] eqn:Ex; [|discriminate].
  cbn [obind] in E. destruct (str_eqb x (st "...")) eqn:Ev.
  { apply str_eqb_eq in Ev. subst x. elim Hn. eapply nth_error_In; eauto. }
  unfold ident_tok in E. destruct (is_identifier x); [|discriminate]. cbn [obind] in E. rewrite Hm in E. injection E as <-.
  split; [reflexivity|]. split; [|eauto]. repeat constructor.
Qed.
Lemma part_read c given p out : lc_macro c = true -> ~ In (st "...") (lc_names c) -> idpart_toks c p = Some out ->
  (forall v, p <> IpInt v) -> part_text given out = given_parts (by_index c given) p /\ free_of "," out.
Proof.
  intros Hm Hn E Hi. destruct p as [i|s|v]; cbn in E.
  - destruct (arg_text c given i out Hm Hn E) as (E1 & E2 & _). auto.
  - unfold ident_tok in E. destruct (is_identifier s); [|discriminate]. injection E as <-. split; [reflexivity|repeat constructor].
  - now elim (Hi v).
Qed.
Lemma parts_read c given : lc_macro c = true -> ~ In (st "...") (lc_names c) -> forall ps outs,
  all_toks (idpart_toks c) ps = Some outs -> has_int ps = false ->
  map (part_text given) outs = map (given_parts (by_index c given)) ps /\ Forall (free_of ",") outs /\ length outs = length ps.
Proof.
  intros Hm Hn. induction ps as [|p ps IH]; intros outs E Hi; cbn [all_toks] in E.
  - injection E as <-. auto.
  - destruct (idpart_toks c p) as [a|] eqn:Ea; [|discriminate]. cbn [obind] in E.
    destruct (all_toks (idpart_toks c) ps) as [b|]; [|discriminate]. injection E as <-.
    cbn in Hi. apply orb_false_elim in Hi as [Hp Hi].
    destruct (IH b eq_refl Hi) as (E1 & E2 & E3).
    destruct (part_read c given p a Hm Hn Ea) as [E4 E5]. { intros v ->. discriminate. }
    split; [cbn [map]; now rewrite E4, E1|]. split; [now constructor|]. cbn. now rewrite E3.
Qed.

(** ** C58 *)

(** If a name written with ## is read to its end, inference accepts it and tokens
    are generated for it (in a macro), these tokens denote the concatenation of
    the operands, whatever the user of the macro gives for the parameters. *)
Theorem C58_name cx t0 ops rest n c0 c1 o c out given :
  Forall operand_ok (operands t0 ops) -> no_operator rest ->
  parse_concat_ident (paste_tokens t0 ops ++ rest) = POk rest n ->
  ident_finish n c0 = (c1, FOk o) ->
  ident_toks cx c n = Some out ->
  lc_macro c = true -> ~ In (st "...") (lc_names c) ->
  exists texts, all_some (map (operand_text (by_index c given)) (operands t0 ops)) = Some texts /\
    name_text given out = Some (concat texts).
Proof.
  intros Hf Hn Hp Hfin Hout Hm Hva. inversion Hf as [|? ? H0 Hops]; subst.
  assert (Hn0 : exists n0, first_part t0 = Some n0).
  { unfold parse_concat_ident, pbind in Hp. destruct t0; try contradiction; try (eexists; reflexivity).
    cbn in Hp. discriminate. }
  destruct Hn0 as [n0 Hn0].
  assert (E0 : palt (pmap IArg macro_arg) (pmap IPlain macro_id) (paste_tokens t0 ops ++ rest) = POk (concat (map paste_step ops) ++ rest) n0)
    by (destruct t0; try discriminate; injection Hn0 as <-; reflexivity).
  unfold parse_concat_ident, pbind in Hp. rewrite E0 in Hp. unfold fold_many0 in Hp. fold step_parser in Hp.
  assert (Hops' : Forall (fun x => operand_text (fun _ => []) (snd x) <> None) ops).
  { rewrite Forall_map in Hops. eapply Forall_impl; [|exact Hops]. intros [a t] Ht. cbn in *. destruct t; try contradiction; discriminate. }
  destruct (paste_loop rest Hn ops n0 _ rest n Hops' ltac:(apply Nat.lt_succ_diag_r) Hp eq_refl) as (ps & Eps & En).
  assert (Et0 : operand_text (by_index c given) t0 = match n0 with IArg i => Some (by_index c given i) | IPlain s => Some s | _ => None end)
    by (destruct t0; try discriminate; injection Hn0 as <-; reflexivity).
  assert (Hn0' : forall l, n0 <> IConcat l) by (destruct t0; try discriminate; injection Hn0 as <-; discriminate).
  assert (Hi : has_int ps = false).
  { destruct n as [i|s|l]; cbn [as_parts ident_finish] in *.
    1,2: destruct n0 as [j|w|l0]; [| |now elim (Hn0' l0)]; cbn in En; injection En as _ <-; reflexivity.
    apply finish_no_int in Hfin. rewrite En, has_int_app in Hfin. now apply orb_false_elim in Hfin as [_ Hi]. }
  destruct (parts_text (by_index c given) _ ps Hops Eps Hi) as (us & ts' & Eus & Ets & Hu).
  unfold operands. cbn [map all_some]. rewrite Ets, Et0.
  assert (Hfirst : exists u0, given_parts (by_index c given) (match n0 with IArg i => IpArg i | IPlain s => IpPlain s | IConcat _ => IpPlain [] end) = Some u0 /\
     match n0 with IArg i => Some (by_index c given i) | IPlain s => Some s | _ => None end = Some u0).
  { destruct n0 as [j|w|l0]; [| |now elim (Hn0' l0)]; eexists; split; reflexivity. }
  destruct Hfirst as (u0 & Eg & E1). rewrite E1. exists (u0 :: ts'). split; [reflexivity|]. cbn [concat]. rewrite <- Hu.
  destruct n as [i|s|l]; cbn [as_parts] in En.
  - destruct n0 as [j|w|l0]; [| |now elim (Hn0' l0)]; cbn in En; [|discriminate]. injection En as -> <-.
    cbn in Eus. injection Eus as <-. cbn in Eg. injection Eg as <-. cbn [concat]. rewrite app_nil_r.
    destruct (arg_text c given j out Hm Hva Hout) as (Ep & _ & x & ->). exact Ep.
  - destruct n0 as [j|w|l0]; [| |now elim (Hn0' l0)]; cbn in En; [discriminate|]. injection En as -> <-.
    cbn in Eus. injection Eus as <-. cbn in Eg. injection Eg as <-. cbn [concat]. rewrite app_nil_r.
    cbn in Hout. unfold ident_tok in Hout. destruct (is_identifier w); [|discriminate]. injection Hout as <-. reflexivity.
  - cbn [ident_toks] in Hout. destruct (all_toks (idpart_toks c) l) as [outs|] eqn:Eall; [|discriminate].
    cbn [obind] in Hout. injection Hout as <-.
    assert (Hil : has_int l = false) by (eapply finish_no_int; exact Hfin).
    destruct (parts_read c given Hm Hva l outs Eall Hil) as (Er & Hfree & Hlen).
    unfold name_text. rewrite rev_app_distr. cbn [rev app parens]. cbn [is_punct_tok is_id_tok rp ri].
    rewrite !str_eqb_refl. cbn [andb].
    assert (Hne : outs <> []).
    { intros ->. cbn in Hlen. destruct l; [|discriminate]. destruct n0; discriminate. }
    rewrite commas_sep by assumption. rewrite Er, En.
    destruct n0 as [j|w|l0]; [| |now elim (Hn0' l0)]; cbn [as_parts app map all_some] in *; rewrite Eg, Eus; reflexivity.
Qed.

(** Names whose operands are identifiers and parameters are read to their end. *)
Definition plain_part (t : mtoken) : option idpart :=
  match t with MArg i => Some (IpArg i) | MIdent s => Some (IpPlain s) | _ => None end.
Theorem C58_accepted t0 ops rest ps :
  all_some (map plain_part (operands t0 ops)) = Some ps -> no_operator rest -> ops <> [] ->
  parse_concat_ident (paste_tokens t0 ops ++ rest) = POk rest (IConcat ps).
Proof.
  intros E Hn Ho. unfold operands in E. cbn [map all_some] in E.
  destruct (plain_part t0) as [p0|] eqn:E0; [|discriminate].
  destruct (all_some (map plain_part (map snd ops))) as [qs|] eqn:Eq; [|discriminate]. injection E as <-.
  unfold parse_concat_ident, pbind.
  assert (Ep : palt (pmap IArg macro_arg) (pmap IPlain macro_id) (paste_tokens t0 ops ++ rest) =
    POk (concat (map paste_step ops) ++ rest) (match p0 with IpArg i => IArg i | IpPlain s => IPlain s | IpInt _ => IConcat [] end))
    by (destruct t0; try discriminate; injection E0 as <-; reflexivity).
  assert (Hp0 : forall v, p0 <> IpInt v) by (destruct t0; try discriminate; injection E0 as <-; discriminate).
  rewrite Ep. unfold fold_many0. fold step_parser.
  enough (G : forall ops acc n qs, all_some (map plain_part (map snd ops)) = Some qs ->
    length (concat (map paste_step ops) ++ rest) < n ->
    fold_many0_n n step_parser concat_ident acc (concat (map paste_step ops) ++ rest) =
    POk rest (match ops with [] => acc | _ => IConcat (as_parts acc ++ qs) end)).
  { rewrite (G ops _ _ qs Eq) by (apply Nat.lt_succ_diag_r). destruct ops; [contradiction|].
    destruct p0 as [i|s|v]; [reflexivity|reflexivity|now elim (Hp0 v)]. }
  clear -Hn. induction ops as [|x ops IH]; intros acc n qs Eq Hl; (destruct n as [|n]; [lia|]).
  - cbn [map concat app fold_many0_n]. now rewrite step_no.
  - cbn [map all_some] in Eq. destruct (plain_part (snd x)) as [p|] eqn:Ex; [|discriminate].
    destruct (all_some (map plain_part (map snd ops))) as [ps|] eqn:Eps; [|discriminate]. injection Eq as <-.
    cbn [map concat fold_many0_n] in Hl |- *. rewrite <- app_assoc in Hl |- *.
    assert (Hlen : length (concat (map paste_step ops) ++ rest) < length (paste_step x ++ concat (map paste_step ops) ++ rest))
      by (rewrite (app_length (paste_step x)); pose proof (step_len x); lia).
    rewrite step_ok by (destruct (snd x); discriminate).
    assert (Em : more_parts (snd x) = Some [p]) by (destruct (snd x); try discriminate; injection Ex as <-; reflexivity).
    rewrite Em. rewrite (proj2 (Nat.eqb_neq _ _)) by lia. rewrite (IH _ _ ps eq_refl) by lia.
    destruct ops as [|y ops].
    + cbn in Eps. injection Eps as <-. now destruct acc.
    + f_equal. destruct acc; cbn [concat_ident as_parts app]; rewrite <- ?app_assoc; reflexivity.
Qed.

End P.

(** A number after ## is not read: the token is a literal, not the continuation
    of an identifier. *)
Definition F (params body : list string) : macro_set := fst (define_fn_macro (mk_set [] []) (st "F") (map st params) (map st body)).
Theorem C58_number_refuted : let H := demo_unicode in
  exists ps b, expand_fn_macro (F ["x"] ["x"; "##"; "2"]) 10 (st "F") = ROk (ps, b) /\
  fn_macro_parse (st "F") ps b = RErr InvalidMacroBody.
Proof. do 2 eexists. split; [vm_compute; reflexivity|]. vm_compute. reflexivity. Qed.
(** A continuation with digits is read but never generated. *)
Theorem C58_digits_refuted : let H := demo_unicode in
  exists ps b m e, expand_fn_macro (F ["x"] ["x"; "##"; "2a"]) 10 (st "F") = ROk (ps, b) /\
  fn_macro_parse (st "F") ps b = ROk m /\ snd (fn_generate cx_unit m) = RErr e.
Proof.
  do 4 eexists. split; [vm_compute; reflexivity|]. split; [vm_compute; reflexivity|]. vm_compute. reflexivity.
Qed.
(** [x ## __VA_ARGS__] pastes all trailing arguments together, where C pastes
    the first one and leaves the others. *)
Definition two_args : lctx := mk_lctx [st "x"; st "..."] [AUnknown; AUnknown] true true true false.
Theorem C58_variadic_refuted : let H := demo_unicode in
  exists ps b n, expand_fn_macro (F ["x"; "..."] ["x"; "##"; "__VA_ARGS__"]) 10 (st "F") = ROk (ps, b) /\
  parse_concat_ident b = POk [] n /\
  ident_toks cx_unit two_args n = Some [ri "concat_idents"; rp "!";
    parens [rp "$"; ri "x"; rp ","; rp "$"; parens [rp "$"; ri "__VA_ARGS__"]; rp ","; rp "*"]].
Proof.
  do 3 eexists. split; [vm_compute; reflexivity|]. split; [vm_compute; reflexivity|]. vm_compute. reflexivity.
Qed.

(** A case that meets the hypotheses: [x ## (comment) _b ## y )], given [p] and
    [q2] for [x] and [y]. *)
Definition xy : lctx := mk_lctx [st "x"; st "y"] [AUnknown; AUnknown] true true true false.
Example C58_case : let H := demo_unicode in
  let t0 := MArg 0 in
  let ops := [([], [st "c"], MIdCont (st "_b")); ([], [], MArg 1)] in
  let rest := [MPunct (st ")")] in
  let given := fun s => if str_eqb s (st "x") then st "p" else st "q2" in
  Forall operand_ok (operands t0 ops) /\ no_operator rest /\
  exists n c1 o out, parse_concat_ident (paste_tokens t0 ops ++ rest) = POk rest n /\
    ident_finish n xy = (c1, FOk o) /\ ident_toks cx_unit xy n = Some out /\
    lc_macro xy = true /\ ~ In (st "...") (lc_names xy) /\ name_text given out = Some (st "p_bq2").
Proof.
  cbv zeta. split; [repeat constructor|]. split; [discriminate|].
  do 4 eexists. split; [vm_compute; reflexivity|]. split; [vm_compute; reflexivity|]. split; [vm_compute; reflexivity|].
  split; [reflexivity|]. split; [vm_compute; intuition discriminate|]. vm_compute. reflexivity.
Qed.

Print Assumptions C58_name.
Print Assumptions C58_accepted.
Print Assumptions C58_number_refuted.
Print Assumptions C58_digits_refuted.
Print Assumptions C58_variadic_refuted.
