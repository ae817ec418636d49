(** C30: adjacent string literals are concatenated. *)
From Verif Require Import Base Utf Lex LexFloat Token Ast Nom NomFacts ParseTok ParseFacts SpecInt SpecString SpecStrRun StrFacts PropString.
From Coq Require Import String List Lia PeanoNat.
Import ListNotations.
Local Open Scope string_scope.
Local Open Scope list_scope.

(** A parser of one item: succeeds exactly on the token lists that start with
    an item, never consumes nothing, never runs out of fuel. *)
Definition item_parser {A} (p : parser A) (item : list mtoken -> A -> Prop) : Prop :=
  (forall ts r a, p ts = POk r a -> exists toks, item toks a /\ toks <> [] /\ ts = toks ++ r) /\
  (forall toks a r, item toks a -> p (toks ++ r) = POk r a) /\
  (forall ts, p ts <> PFuel).

Lemma fold_items {A} (p : parser (list A)) item : item_parser p item ->
  forall ts acc, exists toks cs r,
    fold_many0 p (fun acc b => acc ++ b) acc ts = POk r (acc ++ concat cs) /\
    Forall2 item toks cs /\ ts = concat toks ++ r /\ (forall t c r', item t c -> r <> t ++ r').
Proof.
  intros (H1 & H2 & H3) ts. unfold fold_many0.
  enough (G : forall n ts acc, length ts < n -> exists toks cs r,
    fold_many0_n n p (fun acc b => acc ++ b) acc ts = POk r (acc ++ concat cs) /\
    Forall2 item toks cs /\ ts = concat toks ++ r /\ (forall t c r', item t c -> r <> t ++ r')) by (intros; apply G; lia).
  clear ts. induction n as [|n IH]; intros ts acc Hn; [lia|]. simpl.
  pose proof (H3 ts). destruct (p ts) as [r a| |] eqn:E; try congruence.
  - destruct (H1 _ _ _ E) as (toks & Hi & Hne & ->).
    assert (length toks > 0) by (destruct toks; [congruence|simpl; lia]).
    destruct (Nat.eqb_spec (length r) (length (toks ++ r))) as [El|_]; [rewrite app_length in El; lia|].
    destruct (IH r (acc ++ a)) as (l & cs & r2 & -> & Hf & -> & Hs); [rewrite app_length in Hn; lia|].
    exists (toks :: l), (a :: cs), r2. simpl. rewrite !app_assoc. repeat split; auto.
  - exists [], [], ts. simpl. rewrite app_nil_r. repeat split; auto.
    intros t c r' Hi ->. rewrite (H2 _ _ _ Hi) in E. discriminate.
Qed.

Lemma runs_unique {A} (item : list mtoken -> list A -> Prop) :
  (forall t c t' c' r r', item t c -> item t' c' -> t ++ r = t' ++ r' -> t = t' /\ c = c') ->
  forall toks cs toks' cs' r r',
  Forall2 item toks cs -> Forall2 item toks' cs' -> concat toks ++ r = concat toks' ++ r' ->
  (forall t c r0, item t c -> r <> t ++ r0) -> (forall t c r0, item t c -> r' <> t ++ r0) ->
  toks = toks' /\ cs = cs' /\ r = r'.
Proof.
  intros Hu toks cs toks' cs' r r' Hf. revert toks' cs'.
  induction Hf as [|t c toks cs Hi Hf IH]; intros toks' cs' Hf' E Hr Hr'.
  - destruct Hf' as [|t' c' toks' cs' Hi' Hf']; auto. simpl in E. rewrite <- app_assoc in E.
    destruct (Hr _ _ _ Hi' E).
  - destruct Hf' as [|t' c' toks' cs' Hi' Hf'].
    + simpl in E. rewrite <- app_assoc in E. symmetry in E. destruct (Hr' _ _ _ Hi E).
    + simpl in E. rewrite <- !app_assoc in E. destruct (Hu _ _ _ _ _ _ Hi Hi' E) as [-> ->].
      apply app_inv_head in E. destruct (IH _ _ Hf' E Hr Hr') as (-> & -> & ->). auto.
Qed.

Lemma piece_unique k t c t' c' r r' : piece k t c -> piece k t' c' -> t ++ r = t' ++ r' -> t = t' /\ c = c'.
Proof.
  intros H1 H2.
  assert (P : forall k t c, piece k t c ->
    (exists s, k = kind_of s /\ t = [MLit (LString s)] /\ c = content_of s) \/
    (k <> KOrdinary /\ exists b pre, (pre = [] \/ exists p, pre = [MIdent p]) /\ t = pre ++ [MLit (LString (SOrdinary b))] /\
      (match k with KWide => c = b | _ => utf8_decode b = Some c end))).
  { clear. intros k t c [s|k' b c' pre Hk Hp Hc]; [left; eauto|right]. split; auto. exists b, pre. split; auto.
    destruct Hp as [|(p & _ & ?)]; eauto. }
  apply P in H1. apply P in H2.
  destruct H1 as [(s & -> & -> & ->)|(Hk & b & pre & Hp & -> & Hc)];
  destruct H2 as [(s' & Hk' & -> & ->)|(Hk' & b' & pre' & Hp' & -> & Hc')].
  - intros E. injection E as -> _. auto.
  - destruct Hp' as [->|[p ->]]; simpl; intros E; [|discriminate]. injection E as -> _. now destruct Hk'.
  - destruct Hp as [->|[p ->]]; simpl; intros E; [|discriminate]. injection E as <- _. subst k. now destruct Hk.
  - destruct Hp as [->|[p ->]], Hp' as [->|[p' ->]]; simpl; intros E; try discriminate; injection E; intros; subst;
    (split; [reflexivity|]); destruct k; congruence.
Qed.

Section P.
Context `{Unicode}.

Definition one_string {A} (f : lit_string -> option A) : parser A :=
  pmap_opt (fun t => match t with MLit (LString s) => f s | _ => None end) take_one.

Lemma one_string_ok {A} (f : lit_string -> option A) ts r a :
  one_string f ts = POk r a <-> exists s, ts = MLit (LString s) :: r /\ f s = Some a.
Proof.
  unfold one_string, pmap_opt, pbind, take_one. split.
  - destruct ts as [|[i|id|s|[c|s|x|x]|p|c] ts]; try discriminate. destruct (f s) eqn:E; [|discriminate].
    unfold pret. intros E2. injection E2 as -> ->. eauto.
  - intros (s & -> & ->). reflexivity.
Qed.
Lemma one_string_fuel {A} (f : lit_string -> option A) ts : one_string f ts <> PFuel.
Proof. unfold one_string. apply (tot_one (length ts)). lia. Qed.
Lemma id_ok i ts r a : id i ts = POk r a <-> ts = MIdent (st i) :: r /\ a = st i.
Proof.
  unfold id, pmap_opt, pbind, take_one. split.
  - destruct ts as [|[j|j|s|l|p|c] ts]; try discriminate.
    destruct (str_eqb j (st i)) eqn:E; [|discriminate]. apply str_eqb_eq in E as ->. intros E. now injection E as -> <-.
  - intros [-> ->]. now rewrite (proj2 (str_eqb_eq _ _) eq_refl).
Qed.
Lemma id_fuel i ts : id i ts <> PFuel.
Proof. apply (tot_id (length ts)). lia. Qed.

(** [alt((same kind, preceded(opt(id(prefix)), ordinary)))] parses pieces. *)
Definition cont_parser (same : lit_string -> option (list N)) (p : string) (ord : lit_string -> option (list N)) : parser (list N) :=
  palt (one_string same) (preceded (popt (id p)) (one_string ord)).
Lemma cont_items k p same ord :
  k <> KOrdinary -> prefix_of k = Some (st p) ->
  (forall s, same s = if (match k, kind_of s with KUtf8, KUtf8 | KUtf16, KUtf16 | KUtf32, KUtf32 | KWide, KWide => true | _, _ => false end)
             then Some (content_of s) else None) ->
  (forall s, ord s = match s with SOrdinary b => match k with KWide => Some b | _ => utf8_decode b end | _ => None end) ->
  item_parser (cont_parser same p ord) (piece k).
Proof.
  intros Hk Hp Hsame Hord. unfold cont_parser. split; [|split].
  - intros ts r a. unfold palt. destruct (one_string same ts) as [r1 a1| |] eqn:E1; try discriminate.
    + intros E. injection E as -> ->. apply one_string_ok in E1 as (s & -> & E2). rewrite Hsame in E2.
      exists [MLit (LString s)]. split; [|split; [discriminate|reflexivity]].
      assert (k = kind_of s /\ a = content_of s) as [-> ->].
      { destruct k, s; try discriminate; now injection E2. }
      constructor.
    + unfold preceded, pbind, popt. destruct (id p ts) as [r2 x| |] eqn:E2; try discriminate; intros E3.
      * apply id_ok in E2 as [-> ->]. apply one_string_ok in E3 as (s & -> & E4). rewrite Hord in E4.
        destruct s as [b|s|s|s|s]; try discriminate.
        exists ([MIdent (st p)] ++ [MLit (LString (SOrdinary b))]). split; [|split; [discriminate|reflexivity]].
        apply piece_ordinary; auto; [right; eauto|]. destruct k; auto; congruence.
      * apply one_string_ok in E3 as (s & -> & E4). rewrite Hord in E4.
        destruct s as [b|s|s|s|s]; try discriminate.
        exists ([] ++ [MLit (LString (SOrdinary b))]). split; [|split; [discriminate|reflexivity]].
        apply piece_ordinary; auto. destruct k; auto; congruence.
  - intros toks a r Hi. unfold palt.
    assert (Hord1 : forall pre b c, k <> KOrdinary -> pre = [] \/ pre = [MIdent (st p)] -> (match k with KWide => c = b | _ => utf8_decode b = Some c end) ->
      palt (one_string same) (preceded (popt (id p)) (one_string ord)) ((pre ++ [MLit (LString (SOrdinary b))]) ++ r) = POk r c).
    { intros pre b c _ Hpre Hc. unfold palt.
      assert (Ho : one_string ord (MLit (LString (SOrdinary b)) :: r) = POk r c).
      { apply one_string_ok. exists (SOrdinary b). split; auto. rewrite Hord. destruct k; [congruence|exact Hc|exact Hc|exact Hc|now subst]. }
      assert (E1 : one_string same ((pre ++ [MLit (LString (SOrdinary b))]) ++ r) = PErr).
      { destruct (one_string same ((pre ++ [MLit (LString (SOrdinary b))]) ++ r)) as [r1 a1| |] eqn:E1; auto.
        - apply one_string_ok in E1 as (s & E1 & E2). destruct Hpre as [->|Hpre]; subst; simpl in E1.
          + injection E1 as <- <-. rewrite Hsame in E2. destruct k; discriminate.
          + discriminate.
        - destruct (one_string_fuel _ _ E1). }
      rewrite E1. unfold preceded, pbind, popt. destruct Hpre as [->| ->]; simpl app.
      - destruct (id p (MLit (LString (SOrdinary b)) :: r)) as [r2 x| |] eqn:E2; auto.
        + apply id_ok in E2 as [? _]. discriminate.
        + destruct (id_fuel _ _ E2).
      - rewrite (proj2 (id_ok _ _ _ _) (conj eq_refl eq_refl)). exact Ho. }
    inversion Hi as [s Hks|k' b c pre Hk' Hpre Hc]; subst.
    + rewrite (proj2 (one_string_ok same ([MLit (LString s)] ++ r) r (content_of s))); auto.
      exists s. split; auto. rewrite Hsame. destruct s; simpl in *; congruence.
    + apply Hord1; auto. destruct Hpre as [->|(q & Hq & ->)]; auto. rewrite Hp in Hq. injection Hq as <-. auto.
  - intros ts. unfold palt. pose proof (one_string_fuel same ts). destruct (one_string same ts); try congruence; auto.
    unfold preceded, pbind, popt. pose proof (id_fuel p ts). destruct (id p ts); try congruence; apply one_string_fuel.
Qed.

Lemma ordinary_items : item_parser (one_string (fun s => match s with SOrdinary b => Some b | _ => None end)) (piece KOrdinary).
Proof.
  split; [|split].
  - intros ts r a E. apply one_string_ok in E as (s & -> & E). destruct s as [b|s|s|s|s]; try discriminate. injection E as ->.
    exists [MLit (LString (SOrdinary a))]. split; [|split; [discriminate|reflexivity]]. apply (piece_same (SOrdinary a)).
  - intros toks a r Hi. apply one_string_ok. inversion Hi; subst; [|congruence]. exists s. split; auto.
    destruct s; simpl in *; congruence.
  - intros. apply one_string_fuel.
Qed.

(** The continuation parser of each kind of [lit_string_parse]. *)
Definition kind_parser (k : str_kind) : parser (list N) :=
  match k with
  | KOrdinary => one_string (fun s => match s with SOrdinary b => Some b | _ => None end)
  | KUtf8 => cont_parser (fun s => match s with SUtf8 s => Some s | _ => None end) "u8" (fun s => match s with SOrdinary b => utf8_decode b | _ => None end)
  | KUtf16 => cont_parser (fun s => match s with SUtf16 s => Some s | _ => None end) "u" (fun s => match s with SOrdinary b => utf8_decode b | _ => None end)
  | KUtf32 => cont_parser (fun s => match s with SUtf32 s => Some s | _ => None end) "U" (fun s => match s with SOrdinary b => utf8_decode b | _ => None end)
  | KWide => cont_parser (fun s => match s with SWide s => Some s | _ => None end) "L" (fun s => match s with SOrdinary b => Some b | _ => None end)
  end.
Lemma kind_items k : item_parser (kind_parser k) (piece k).
Proof.
  destruct k; simpl; [apply ordinary_items|..]; apply cont_items; try discriminate; try reflexivity; intros []; reflexivity.
Qed.
Definition of_kind (k : str_kind) (c : list N) : lit_string :=
  match k with KOrdinary => SOrdinary c | KUtf8 => SUtf8 c | KUtf16 => SUtf16 c | KUtf32 => SUtf32 c | KWide => SWide c end.

Lemma one_ext {A} (f g : mtoken -> option A) ts : (forall t, f t = g t) -> pmap_opt f take_one ts = pmap_opt g take_one ts.
Proof. intros E. unfold pmap_opt, pbind, take_one. destruct ts as [|t ts]; auto. now rewrite E. Qed.
Lemma fold_ext {A B} (p q : parser B) (f : A -> B -> A) acc ts : (forall ts, p ts = q ts) -> fold_many0 p f acc ts = fold_many0 q f acc ts.
Proof.
  intros E. unfold fold_many0. generalize (S (length ts)). intros n. revert acc ts.
  induction n as [|n IH]; intros acc ts; simpl; auto. rewrite E. destruct (q ts); auto. destruct (Nat.eqb _ _); auto.
Qed.

Lemma lit_string_parse_kind first ts :
  lit_string_parse (MLit (LString first) :: ts) =
  pmap (of_kind (kind_of first)) (fold_many0 (kind_parser (kind_of first)) (fun acc b => acc ++ b) (content_of first)) ts.
Proof.
  unfold lit_string_parse. unfold pbind at 1. cbn [pmap_opt pbind take_one pret].
  assert (E : forall (k : list N -> lit_string) p q acc, (forall ts, p ts = q ts) ->
    pmap k (fold_many0 p (fun acc b => acc ++ b) acc) ts = pmap k (fold_many0 q (fun acc b => acc ++ b) acc) ts).
  { intros k p q acc E. unfold pmap, pbind. rewrite (fold_ext p q); auto. }
  assert (Ep : forall {A} (p q p' q' : parser A) ts, p ts = p' ts -> q ts = q' ts -> palt p q ts = palt p' q' ts).
  { intros A p q p' q' ts0 E1 E2. unfold palt. rewrite E1, E2. reflexivity. }
  destruct first; simpl; apply E; intros ts0.
  - apply one_ext. intros [i|j|s|[c|[]|x|x]|q|c]; reflexivity.
  - apply Ep; [apply one_ext; intros [i|j|s0|[c|[]|x|x]|q|c]; reflexivity|].
    unfold text_after, preceded, pbind. destruct (popt (id "u8") ts0); try reflexivity; apply one_ext; intros [i|j|s0|[c|[]|x|x]|q|c]; reflexivity.
  - apply Ep; [apply one_ext; intros [i|j|s0|[c|[]|x|x]|q|c]; reflexivity|].
    unfold text_after, preceded, pbind. destruct (popt (id "u") ts0); try reflexivity; apply one_ext; intros [i|j|s0|[c|[]|x|x]|q|c]; reflexivity.
  - apply Ep; [apply one_ext; intros [i|j|s0|[c|[]|x|x]|q|c]; reflexivity|].
    unfold text_after, preceded, pbind. destruct (popt (id "U") ts0); try reflexivity; apply one_ext; intros [i|j|s0|[c|[]|x|x]|q|c]; reflexivity.
  - apply Ep; [apply one_ext; intros [i|j|s0|[c|[]|x|x]|q|c]; reflexivity|].
    unfold preceded, pbind. destruct (popt (id "L") ts0); try reflexivity; apply one_ext; intros [i|j|s0|[c|[]|x|x]|q|c]; reflexivity.
Qed.

(** The parser accepts exactly the token lists that start with a string literal,
    takes the longest run of literals that continue it, and returns a literal of
    the first one's kind whose contents are the contents of the run in order. *)
Theorem C30_concatenation ts rest s :
  lit_string_parse ts = POk rest s <->
  exists first toks cs,
    ts = MLit (LString first) :: concat toks ++ rest /\
    Forall2 (piece (kind_of first)) toks cs /\
    no_piece (kind_of first) rest /\
    kind_of s = kind_of first /\
    content_of s = content_of first ++ concat cs.
Proof.
  assert (Hok : forall first c, kind_of (of_kind (kind_of first) c) = kind_of first /\ content_of (of_kind (kind_of first) c) = c)
    by (intros [] c; split; reflexivity).
  assert (Hoi : forall s c, of_kind (kind_of s) c = s <-> content_of s = c)
    by (intros [] c; simpl; split; congruence).
  split.
  - intros E. destruct ts as [|[i|j|s0|[c|first|x|x]|q|c] ts]; try discriminate.
    rewrite lit_string_parse_kind in E.
    destruct (fold_items _ _ (kind_items (kind_of first)) ts (content_of first)) as (toks & cs & r & Ef & Hf & -> & Hn).
    unfold pmap, pbind in E. rewrite Ef in E. unfold pret in E. injection E as <- <-.
    exists first, toks, cs. split; [reflexivity|]. split; [exact Hf|]. split; [intros t c r' Hi; now apply (Hn t c)|]. apply Hok.
  - intros (first & toks & cs & -> & Hf & Hn & Hk & Hc). rewrite lit_string_parse_kind.
    destruct (fold_items _ _ (kind_items (kind_of first)) (concat toks ++ rest) (content_of first)) as (toks' & cs' & r & Ef & Hf' & E & Hn').
    destruct (runs_unique _ (piece_unique (kind_of first)) _ _ _ _ _ _ Hf Hf' E) as (<- & <- & <-).
    + intros t c r0 Hi. exact (Hn t c r0 Hi).
    + intros t c r0 Hi. exact (Hn' t c r0 Hi).
    + unfold pmap, pbind. rewrite Ef. unfold pret. f_equal. rewrite <- Hk. now apply Hoi.
Qed.

(** Unlike C11 6.4.5p5, an ordinary literal is not merged with a following
    prefixed one: the parser stops after ["a"] in ["a" u8"b"]. *)
Theorem C30_mixed_prefix_refuted :
  lit_string_parse [MLit (LString (SOrdinary (st "a"))); MLit (LString (SUtf8 (st "b")))] =
  POk [MLit (LString (SUtf8 (st "b")))] (SOrdinary (st "a")).
Proof. vm_compute. reflexivity. Qed.

(** Nor does an ordinary literal after a wide one have its meaning in C: of
    [L"a" "]U+E9["], the second character becomes the two words C3 and A9, where
    [L"a]U+E9["] has U+E9. *)
Theorem C30_wide_refuted : let e := 233%N in
  exists x y z w, string_literal (st "L""a""") x /\ string_literal (34 :: e :: 34 :: nil)%N y /\ string_literal (st "L""a" ++ [e; 34%N]) z /\
    lit_string_parse [MLit (LString x); MLit (LString y)] = POk [] w /\ content_of w = [97; 0xC3; 0xA9]%N /\ content_of z = [97; 0xE9]%N.
Proof.
  exists (SWide [97%N]), (SOrdinary [0xC3; 0xA9]%N), (SWide [97; 233]%N), (SWide [97; 0xC3; 0xA9]%N).
  assert (S : forall s x, forallb (fun c => c <? 0xD800)%N s = true -> string_try_from s = Some x -> string_literal s x).
  { intros s x F E. apply C28_meaning; [|exact E]. apply Forall_forall. intros c I. rewrite forallb_forall in F. specialize (F c I).
    apply N.ltb_lt in F. left. lia. }
  repeat split; try (apply S; vm_compute; reflexivity).
Qed.

(** ** C27: character literals as tokens *)

(** Accepted are a character literal, and an encoding prefix followed by an
    ordinary character literal that fits. *)
Theorem C27_tokens : forall ts rest l,
  lit_char_parse ts = POk rest l <->
  ts = MLit (LChar l) :: rest \/
  exists prefix max mk v, In (prefix, max, mk) char_kinds /\ prefix <> "" /\
    ts = MIdent (st prefix) :: MLit (LChar (COrdinary v)) :: rest /\
    match max with Some m => (v <= m)%N | None => True end /\ l = mk v.
Proof.
  intros ts rest l. unfold lit_char_parse, palt, palts, pmap_opt, ppair, pvalue, pfail, pret. split.
  - intros E. destruct ts as [|[i|j|s0|[c|x|x|x]|q|c] ts]; try discriminate E.
    2:{ injection E as -> ->. now left. }
    right. revert E. unfold pbind, palt, id, pmap_opt, pbind. cbn [take_one].
    assert (Hfin : forall (prefix : string) p max mk, In (prefix, max, mk) char_kinds -> prefix <> "" -> j = st prefix ->
      (forall v, char_with_prefix (Some p) v = match max with Some m => if (v <=? m)%N then Some (mk v) else None | None => Some (mk v) end) ->
      forall v ts', ts = MLit (LChar (COrdinary v)) :: ts' ->
      match char_with_prefix (Some p) v with Some y => POk ts' y | None => PErr end = POk rest l ->
      exists prefix max mk v0, In (prefix, max, mk) char_kinds /\ prefix <> "" /\
        MIdent j :: ts = MIdent (st prefix) :: MLit (LChar (COrdinary v0)) :: rest /\
        match max with Some m => (v0 <= m)%N | None => True end /\ l = mk v0).
    { intros prefix p max mk Hi Hne -> Hw v ts' -> E. exists prefix, max, mk, v. split; [easy|]. split; [easy|].
      rewrite Hw in E. destruct max as [m|].
      - destruct (N.leb_spec v m); [|discriminate]. injection E as -> ->. easy.
      - injection E as -> ->. easy. }
    destruct (str_eqb j (st "u8")) eqn:E1; [|destruct (str_eqb j (st "u")) eqn:E2; [|destruct (str_eqb j (st "U")) eqn:E3;
      [|destruct (str_eqb j (st "L")) eqn:E4; [|discriminate]]]];
    (match goal with h : str_eqb j _ = true |- _ => apply str_eqb_eq in h end);
    (destruct ts as [|[i|k|s0|[[v|v|v|v|v]|x|x|x]|q|c] ts]; unfold pfail; cbn [take_one pret fst snd]; try discriminate).
    + intros E. eapply (Hfin "u8" PUtf8 (Some 127%N) CUtf8); [simpl; auto|discriminate|easy|intros; reflexivity|reflexivity|].
      destruct (char_with_prefix (Some PUtf8) v); [exact E|discriminate E].
    + intros E. eapply (Hfin "u" PUtf16 (Some 65535%N) CUtf16); [simpl; auto|discriminate|easy|intros; reflexivity|reflexivity|].
      destruct (char_with_prefix (Some PUtf16) v); [exact E|discriminate E].
    + intros E. eapply (Hfin "U" PUtf32 None CUtf32); [simpl; auto|discriminate|easy|intros; reflexivity|reflexivity|]. exact E.
    + intros E. eapply (Hfin "L" PWide None CWide); [simpl; auto 6|discriminate|easy|intros; reflexivity|reflexivity|]. exact E.
  - intros [-> |(prefix & max & mk & v & Hi & Hne & -> & Hm & ->)]; [reflexivity|].
    unfold char_kinds in Hi. simpl in Hi.
    destruct Hi as [Hi|[Hi|[Hi|[Hi|[Hi|[]]]]]]; injection Hi as <- <- <-; try congruence;
      unfold pbind, palt, id, pmap_opt, pbind; cbn [take_one].
    + change (str_eqb (st "u8") (st "u8")) with true. cbn [pret fst snd char_with_prefix take_one].
      change 0x7f%N with 127%N. now rewrite (proj2 (N.leb_le v 127) Hm).
    + change (str_eqb (st "u") (st "u8")) with false. change (str_eqb (st "u") (st "u")) with true. unfold pfail. cbn [pret fst snd char_with_prefix take_one].
      change 0xffff%N with 65535%N. now rewrite (proj2 (N.leb_le v 65535) Hm).
    + reflexivity.
    + reflexivity.
Qed.

(** The prefix and the literal mean what they mean when written together. *)
Theorem C27_prefix_apart : forall s v prefix max mk rest l, char_literal s (COrdinary v) ->
  In (prefix, max, mk) char_kinds -> prefix <> "" ->
  lit_char_parse (MIdent (st prefix) :: MLit (LChar (COrdinary v)) :: rest) = POk rest l -> char_literal (st prefix ++ s) l.
Proof.
  intros s v prefix max mk rest l (pre0 & max0 & mk0 & body & v0 & Hi0 & -> & Hb & _ & E0) Hi Hne E.
  assert (pre0 = "" /\ v0 = v) as [-> ->].
  { unfold char_kinds in Hi0. simpl in Hi0.
    destruct Hi0 as [Hi0|[Hi0|[Hi0|[Hi0|[Hi0|[]]]]]]; injection Hi0 as <- <- <-; try discriminate. now injection E0 as ->. }
  apply C27_tokens in E. destruct E as [E|(pre & max1 & mk1 & v1 & Hi1 & Hne1 & E & Hm & ->)]; [discriminate|].
  injection E as E ->. exists pre, max1, mk1, body, v1. split; [easy|]. rewrite E. split; [reflexivity|]. auto.
Qed.
End P.

Example C27_tokens_ex : lit_char_parse [MIdent (st "u"); MLit (LChar (COrdinary 97)); MPunct (st "+")] =
  POk [MPunct (st "+")] (CUtf16 97).
Proof. vm_compute. reflexivity. Qed.

Example C30_ex :
  lit_string_parse [MLit (LString (SUtf8 (st "a"))); MLit (LString (SOrdinary (st "b"))); MIdent (st "u8"); MLit (LString (SOrdinary (st "c"))); MIdent (st "x")] =
  POk [MIdent (st "x")] (SUtf8 (st "abc")).
Proof. vm_compute. reflexivity. Qed.

Print Assumptions C30_concatenation.
Print Assumptions C30_mixed_prefix_refuted.
Print Assumptions C30_wide_refuted.
Print Assumptions C27_tokens.
Print Assumptions C27_prefix_apart.
