(** What the expression parser accepts is in the C grammar. *)
From Verif Require Import Base Utf Lex LexFloat Token Ast Nom NomFacts ParseTok ParseExpr ParseStmt ParseFacts StrFacts SpecType PropType SpecInt DecFacts SpecString SpecStrRun UtfFacts PropStrRun PropTypeText SpecGrammar GrammarFacts SpecAccept.
From Coq Require Import String List Lia PeanoNat Bool Permutation.
Import ListNotations.
Local Open Scope string_scope.
Local Open Scope list_scope.

Lemma inserts_sound {A} (x : A) l l' : In l' (inserts x l) -> Permutation l' (x :: l).
Proof.
  revert l'. induction l as [|y l IH]; intros l' I; cbn in I.
  - destruct I as [<-|[]]. apply Permutation_refl.
  - destruct I as [<-|I]; [apply Permutation_refl|]. apply in_map_iff in I as (m & <- & I). apply IH in I.
    eapply Permutation_trans; [apply perm_skip, I|apply perm_swap].
Qed.
Lemma perms_sound {A} (l l' : list A) : In l' (perms l) -> Permutation l' l.
Proof.
  revert l'. induction l as [|x l IH]; intros l' I; cbn in I; [destruct I as [<-|[]]; apply Permutation_refl|].
  apply in_flat_map in I as (m & Im & I). apply inserts_sound in I. eapply Permutation_trans; [exact I|]. apply perm_skip. now apply IH.
Qed.

Section A.
Context `{Unicode}.
Variable types : str -> bool.

(** ** Keywords and types *)

Lemma kw_inv k ts r x : keyword k ts = POk r x -> ts = kw k :: r /\ x = st k.
Proof.
  unfold keyword, id, pmap_opt, pbind. destruct ts as [|[i|y|y|l|q|c] ts]; cbn [take_one]; try discriminate.
  destruct (str_eqb y (st k)) eqn:E; [|discriminate]. intro E2. injection E2 as <- <-. apply str_eqb_eq in E. subst. auto.
Qed.
Lemma kw_fuel k ts : keyword k ts <> PFuel.
Proof.
  unfold keyword, id, pmap_opt, pbind. destruct ts as [|[i|y|y|l|q|c] ts]; cbn [take_one]; try discriminate. destruct (str_eqb y (st k)); discriminate.
Qed.
Lemma punct_inv p ts r x : punct p ts = POk r x -> ts = P p :: r.
Proof.
  unfold punct, pmap_opt, pbind. destruct ts as [|[i|y|y|l|q|c] ts]; cbn [take_one]; try discriminate.
  destruct (str_eqb (st p) q) eqn:E; [|discriminate]. intro E2. injection E2 as <- <-. apply str_eqb_eq in E. now subst.
Qed.

(** Case analysis on the parsers of a hypothesis. *)
Ltac kws :=
  repeat match goal with
  | E : keyword _ _ = POk _ _ |- _ => apply kw_inv in E as [? ?]; subst
  | E : keyword ?k ?t = PFuel |- _ => destruct (kw_fuel k t E)
  end.

Lemma cv_inv ts r q : popt const_volatile_qualifier ts = POk r q -> exists Q, ts = quals_tokens Q ++ r /\ q = qopt Q.
Proof.
  cbv [popt const_volatile_qualifier palts palt pvalue pbind permutation perm_loop perm_try map length forallb fst andb pret pfail].
  destruct (keyword "const" ts) as [r1 x1| |] eqn:E1; kws.
  - destruct (keyword "volatile" r1) as [r2 x2| |] eqn:E2; kws; intro E; injection E as <- <-; [now exists QCV|now exists QC].
  - destruct (keyword "volatile" ts) as [r2 x2| |] eqn:E2; kws.
    + destruct (keyword "const" r2) as [r3 x3| |] eqn:E3; kws; intro E; injection E as <- <-; [now exists QVC|now exists QV].
    + intro E; injection E as <- <-. now exists QNone.
Qed.

Lemma sign_inv ts r s : popt int_signedness ts = POk r s ->
  (s = None /\ ts = r) \/ (s = Some (st "unsigned") /\ ts = kw "unsigned" :: r) \/ (s = Some (st "signed") /\ ts = kw "signed" :: r).
Proof.
  cbv [popt int_signedness palt]. destruct (keyword "unsigned" ts) as [r1 x1| |] eqn:E1; kws; [intro E; injection E as <- <-; auto|].
  destruct (keyword "signed" ts) as [r1 x1| |] eqn:E2; kws; intro E; injection E as <- <-; auto.
Qed.
Lemma optkw_inv k ts r o : popt (keyword k) ts = POk r o -> (o = None /\ ts = r) \/ (o = Some (st k) /\ ts = kw k :: r).
Proof.
  unfold popt. destruct (keyword k ts) as [r1 x1| |] eqn:E1; kws; intro E; injection E as <- <-; auto.
Qed.
Lemma cv_total ts : exists r q, popt const_volatile_qualifier ts = POk r q.
Proof.
  cbv [popt const_volatile_qualifier palts palt pvalue pbind permutation perm_loop perm_try map length forallb fst andb pret pfail].
  destruct (keyword "const" ts) as [r1 x1| |] eqn:E1; kws.
  - destruct (keyword "volatile" r1) as [r2 x2| |] eqn:E2; kws; eauto.
  - destruct (keyword "volatile" ts) as [r2 x2| |] eqn:E2; kws; eauto.
    destruct (keyword "const" r2) as [r3 x3| |] eqn:E3; kws; eauto.
Qed.

(** An integer type: qualifiers and then specifiers. *)
Definition int_shape (ts r : list mtoken) (t : ctype) : Prop :=
  exists Q ws b, ts = quals_tokens Q ++ map kw ws ++ r /\ spells ws b /\ sign_first ws = true /\ t = ty_qualify_opt (TyBuiltIn b) (qopt Q).

Lemma spelled ws b : existsb (fun x => match builtin_eq_dec (snd x) b with left _ => existsb (fun l => if list_eq_dec string_dec l ws then true else false) (perms (fst x)) | _ => false end) c_types = true ->
  spells ws b.
Proof.
  intro E. apply existsb_exists in E as ((l & b') & I & E). cbn [fst snd] in E. destruct (builtin_eq_dec b' b) as [->|]; [|discriminate].
  apply existsb_exists in E as (l' & I' & E). destruct (list_eq_dec string_dec l' ws) as [->|]; [|discriminate].
  exists l. split; [exact I|]. now apply perms_sound.
Qed.
Ltac spell := apply spelled; vm_compute; reflexivity.

Lemma sign_total ts : exists r q, popt int_signedness ts = POk r q.
Proof.
  cbv [popt int_signedness palt]. destruct (keyword "unsigned" ts) as [r1 x1| |] eqn:E1; kws; eauto.
  destruct (keyword "signed" ts) as [r1 x1| |] eqn:E2; kws; eauto.
Qed.
Lemma optkw_total k ts : exists r q, popt (keyword k) ts = POk r q.
Proof. unfold popt. destruct (keyword k ts) as [r1 x1| |] eqn:E1; kws; eauto. Qed.
Ltac peel E :=
  match type of E with
  | context [popt const_volatile_qualifier ?t] =>
      let r := fresh "r" in let q := fresh "q" in let C := fresh in
      destruct (cv_total t) as (r & q & C); rewrite C in E; apply cv_inv in C as (? & ? & ?); subst
  | context [popt int_signedness ?t] =>
      let r := fresh "r" in let q := fresh "q" in let C := fresh in
      destruct (sign_total t) as (r & q & C); rewrite C in E; apply sign_inv in C; destruct C as [(? & ?)|[(? & ?)|(? & ?)]]; subst
  | context [popt (keyword ?k) ?t] =>
      let r := fresh "r" in let q := fresh "q" in let C := fresh in
      destruct (optkw_total k t) as (r & q & C); rewrite C in E; apply optkw_inv in C; destruct C as [(? & ?)|(? & ?)]; subst
  | context [keyword ?k ?t] =>
      let r := fresh "r" in let q := fresh "q" in let C := fresh in destruct (keyword k t) as [r q| |] eqn:C; kws
  end.
Lemma loop_round {X} n (ps : list (bool * parser (X -> X))) s ts : perm_loop (S n) ps s ts =
  if forallb fst ps then POk ts s else match perm_try ps s ts with POk r (ps2, s2) => perm_loop n ps2 s2 r | PErr => PErr | PFuel => PFuel end.
Proof. reflexivity. Qed.
Lemma loop_end {X} (ps : list (bool * parser (X -> X))) s ts : perm_loop 0 ps s ts = if forallb fst ps then POk ts s else PErr.
Proof. reflexivity. Qed.
Ltac one E := cbv beta iota zeta delta [perm_try palts palt pvalue pmap ppair terminated pbind pret pfail int_length] in E.
Ltac rounds E :=
  repeat (first [rewrite loop_round in E|rewrite loop_end in E]; cbn [forallb fst andb] in E; one E; repeat (peel E; one E; try discriminate E)).
Ltac words T := match T with kw ?w :: ?T' => let l := words T' in constr:(w :: l) | _ => constr:(@nil string) end.
Ltac shaped :=
  match goal with
  | |- int_shape (quals_tokens ?Q ++ ?T) _ (ty_qualify_opt (TyBuiltIn ?b) _) =>
      let w := words T in let b' := eval vm_compute in b in exists Q, w, b'; split; [reflexivity|split; [spell|split; reflexivity]]
  end.
Ltac settle :=
  repeat match goal with
  | E : kw ?a :: _ = kw ?b :: _ |- _ =>
      first [constr_eq a b; injection E as E; subst | exfalso; clear -E; vm_compute in E; discriminate E]
  end.
Lemma long_long_inv ts r t : int_ty_long_long ts = POk r t -> int_shape ts r t.
Proof.
  unfold int_ty_long_long. unfold pmap at 1, pbind, permutation. cbn [length map].
  destruct (perm_loop _ _ _ ts) as [r0 x| |] eqn:E; try discriminate. intro E0. injection E0 as <- <-.
  rounds E; try discriminate E.
  all: injection E as <- <-.
  all: settle; shaped.
Qed.
Lemma length_inv ts r t : int_ty_length ts = POk r t -> int_shape ts r t.
Proof.
  unfold int_ty_length. unfold pmap at 1, pbind, permutation. cbn [length map].
  destruct (perm_loop _ _ _ ts) as [r0 x| |] eqn:E; try discriminate. intro E0. injection E0 as <- <-.
  rounds E; try discriminate E.
  all: injection E as <- <-.
  all: settle; shaped.
Qed.
Lemma plain_inv ts r t : int_ty_plain ts = POk r t -> int_shape ts r t.
Proof.
  unfold int_ty_plain. unfold pmap at 1, pbind, permutation. cbn [length map].
  destruct (perm_loop _ _ _ ts) as [r0 x| |] eqn:E; try discriminate. intro E0. injection E0 as <- <-.
  rounds E; try discriminate E.
  all: injection E as <- <-.
  all: settle; shaped.
Qed.
Lemma int_inv ts r t : int_ty ts = POk r t -> int_shape ts r t.
Proof.
  unfold int_ty. cbn [palts]. unfold palt, pfail.
  destruct (int_ty_long_long ts) as [r1 t1| |] eqn:E1; try discriminate; [intro E; injection E as <- <-; now apply long_long_inv|].
  destruct (int_ty_length ts) as [r1 t1| |] eqn:E2; try discriminate; [intro E; injection E as <- <-; now apply length_inv|].
  destruct (int_ty_plain ts) as [r1 t1| |] eqn:E3; try discriminate. intro E; injection E as <- <-; now apply plain_inv.
Qed.

(** Names. *)
Lemma mid_inv ts r x : macro_id ts = POk r x -> ts = MIdent x :: r.
Proof. unfold macro_id, pmap_opt, pbind. destruct ts as [|[] ts]; cbn [take_one]; try discriminate. intro E. now injection E as <- <-. Qed.
Lemma marg_inv ts r i : macro_arg ts = POk r i -> ts = MArg i :: r.
Proof. unfold macro_arg, pmap_opt, pbind. destruct ts as [|[] ts]; cbn [take_one]; try discriminate. intro E. now injection E as <- <-. Qed.
Lemma fold_steps {A B} (p : parser B) (f : A -> B -> A) a ts r a' : fold_many0 p f a ts = POk r a' -> steps p f a ts a' r.
Proof.
  unfold fold_many0. generalize (S (length ts)). intro n.
  assert (G : forall n a0 ts0 a1 ts1, steps p f a0 ts0 a1 ts1 -> fold_many0_n n p f a1 ts1 = POk r a' -> steps p f a0 ts0 a' r).
  { clear. induction n as [|n IH]; intros a0 ts0 a1 ts1 S; cbn [fold_many0_n]; [discriminate|].
    destruct (p ts1) as [r1 b| |] eqn:E; try discriminate.
    - destruct (Nat.eqb _ _); [discriminate|]. apply IH. eapply s_snoc; eassumption.
    - intro E0. injection E0 as <- <-. exact S. }
  apply (G n a ts a ts). constructor.
Qed.
Lemma delim_inv {A} (p : parser A) ts r a : delimited meta p meta ts = POk r a -> exists r0, p (uncomment ts) = POk r0 a /\ r = uncomment r0.
Proof.
  unfold delimited, pbind. destruct (meta_uncomment ts) as (cs & ->). destruct (p (uncomment ts)) as [r0 x| |]; try discriminate.
  destruct (meta_uncomment r0) as (cs' & ->). intro E. injection E as <- <-. eauto.
Qed.
Lemma meta_inv ts r cs : meta ts = POk r cs -> r = uncomment ts.
Proof. destruct (meta_uncomment ts) as (cs' & ->). intro E. now injection E as <- _. Qed.

Ltac flat := repeat first [rewrite <- app_assoc | rewrite <- app_comm_cons].

(** ** Ordinary texts *)

Lemma ordinary_suffix r ts : suffix r ts -> ordinary ts -> ordinary r.
Proof.
  intros (pre & ->) (H1 & H2 & H3 & H4).
  assert (I : forall t, In t r -> In t (pre ++ r)) by (intros; apply in_app_iff; auto).
  split; [|split; [|split]].
  - intros p Hp K. apply (H1 p Hp). auto.
  - intros s K. apply H2. auto.
  - intros w b K1 K2. apply (H3 w b); auto.
  - intros q a b c Hq E. apply (H4 q (pre ++ a) b c Hq). now rewrite E, <- app_assoc.
Qed.
Lemma suffix_uncomment ts : suffix (uncomment ts) ts.
Proof. destruct (uncomment_split ts) as (cs & E). now exists (map MComment cs). Qed.
Lemma suffix_tail {A} (t : A) r ts : suffix (t :: r) ts -> suffix r ts.
Proof. intros (pre & ->). exists (pre ++ [t]). now rewrite <- app_assoc. Qed.
Lemma suffix_un ts t r : uncomment ts = t :: r -> suffix r ts.
Proof. intro E. apply (suffix_tail t). rewrite <- E. apply suffix_uncomment. Qed.

(** ** Names *)

Lemma paste_inv r1 r ps : ordinary r1 -> paste_parser r1 = POk r ps ->
  exists r2 t p, uncomment r1 = P "##" :: r2 /\ uncomment r2 = t :: r /\ continues t p /\ ps = [p].
Proof.
  intros O. unfold paste_parser, preceded. unfold pbind at 1.
  destruct (delimited meta (punct "##") meta r1) as [r0 x| |] eqn:E; try discriminate. apply delim_inv in E as (r2 & E & ->). apply punct_inv in E.
  intro Q. exists r2. destruct (uncomment r2) as [|t r3] eqn:U; [discriminate Q|].
  cbv [palts palt pmap pmap_opt pbind macro_arg macro_id take_one pret pfail] in Q.
  destruct t as [i|x0|s|l|q|c]; try discriminate Q.
  - injection Q as <- <-. exists (MArg i), (IpArg i). repeat split; auto. constructor.
  - injection Q as <- <-. exists (MIdent x0), (IpPlain x0). repeat split; auto. constructor.
  - destruct O as (_ & O & _). destruct (O s) as (v & Dv & Lv).
    { destruct (suffix_un _ _ _ E) as (p1 & E1). destruct (suffix_uncomment r2) as (p2 & E2). rewrite E1, E2, U. rewrite !in_app_iff. right. right. now left. }
    rewrite (number_parts s v Dv Lv) in Q. injection Q as <- <-. exists (MIdCont s), (IpInt v). repeat split; auto. now constructor.
Qed.
Lemma names_inv ts r n : ordinary ts -> parse_concat_ident ts = POk r n -> names ts n r.
Proof.
  intros O. unfold parse_concat_ident. unfold pbind at 1.
  destruct (palt (pmap IArg macro_arg) (pmap IPlain macro_id) ts) as [r0 a| |] eqn:E; try discriminate. fold paste_parser.
  intro Q. apply fold_steps in Q.
  assert (F : exists t p, ts = t :: r0 /\ continues t p /\ (forall s, t <> MIdCont s) /\ ((a = match p with IpArg i => IArg i | IpPlain x => IPlain x | IpInt _ => a end) /\ forall v, p <> IpInt v)).
  { unfold palt, pmap, pbind in E. destruct (macro_arg ts) as [r1 i| |] eqn:E1.
    - apply marg_inv in E1. injection E as <- <-. exists (MArg i), (IpArg i). repeat split; try discriminate; auto. constructor.
    - destruct (macro_id ts) as [r1 x| |] eqn:E2; try discriminate. apply mid_inv in E2. injection E as <- <-. exists (MIdent x), (IpPlain x). repeat split; try discriminate; auto. constructor.
    - discriminate E. }
  destruct F as (t & p & -> & Ct & Nt & Ea & Np). clear E.
  assert (G : forall a1 r1, steps paste_parser concat_ident a r0 a1 r1 -> suffix r1 (t :: r0) /\ ((a1 = a /\ r1 = r0) \/ exists l, a1 = IConcat l /\ pasted (t :: r0) l r1)).
  { clear Q. induction 1 as [|a1 r1 b r2 S (Sf & IH) Ep]; [split; [exists [t]; reflexivity|now left]|].
    apply paste_inv in Ep as (r3 & t' & p' & U1 & U2 & C & ->); [|eapply ordinary_suffix; eassumption].
    split.
    { eapply suffix_trans; [eapply suffix_un; exact U2|]. eapply suffix_trans; [eapply suffix_un; exact U1|exact Sf]. }
    right. destruct IH as [(-> & ->)|(l & -> & Pa)].
    - exists [p; p']. split; [|eapply ps_first; eassumption]. rewrite Ea. destruct p; cbn; try reflexivity. now destruct (Np v).
    - exists (l ++ [p']). split; [reflexivity|]. eapply ps_next; eassumption. }
  destruct (G _ _ Q) as (_ & [(-> & ->)|(l & -> & Pa)]); [|now apply na_pasted].
  rewrite Ea. inversion Ct; subst; [constructor|constructor|]. now destruct (Np v).
Qed.

(** ** Types *)

Definition fold_point := fun acc q => ty_qualify_opt (TyPtr acc) q.
Lemma stars_inv a ts a' r : steps star_parser fold_point a ts a' r -> exists ps, ts = stars ps ++ r /\ a' = fold_left point ps a.
Proof.
  induction 1 as [|a' ts' b r S (ps & -> & ->) E]; [now exists []|].
  unfold star_parser, preceded, ppair, pbind in E. destruct (punct "*" ts') as [r1 x| |] eqn:E1; try discriminate. apply punct_inv in E1. subst ts'.
  destruct (meta_uncomment r1) as (cs & Em). rewrite Em in E. unfold pret in E. apply cv_inv in E as (Q & E & ->).
  destruct (uncomment_split r1) as (cs' & Ec). rewrite E in Ec.
  exists (ps ++ [(cs', Q)]). split.
  - unfold stars. rewrite map_app, concat_app, <- app_assoc. f_equal. cbn [map concat]. rewrite app_nil_r. unfold star_tokens. cbn [fst snd].
    rewrite Ec, <- app_comm_cons, <- app_assoc. reflexivity.
  - rewrite fold_left_app. cbn [fold_left]. unfold fold_point, point. cbn [snd]. now destruct Q.
Qed.

Definition ident_token (t : mtoken) : Prop := exists x, t = MIdent x.
Lemma quals_split Q : has_volatile Q = true -> exists u v, quals_tokens Q = u ++ kw "volatile" :: v /\ Forall ident_token u /\ Forall ident_token v.
Proof.
  assert (K : forall w, ident_token (kw w)) by (intro w; eexists; reflexivity).
  destruct Q; try discriminate; intros _.
  - exists [], []. repeat split; auto.
  - exists [kw "const"], []. repeat split; auto.
  - exists [], [kw "const"]. repeat split; auto.
Qed.
Lemma once ts a0 pre mid post rest : ordinary ts -> ts = a0 ++ quals_tokens pre ++ mid ++ quals_tokens post ++ rest -> Forall ident_token mid ->
  has_volatile pre && has_volatile post = false.
Proof.
  intros (_ & _ & _ & O) E F. destruct (has_volatile pre) eqn:V1; [|reflexivity]. destruct (has_volatile post) eqn:V2; [|reflexivity]. exfalso.
  apply quals_split in V1 as (u & v & Q1 & F1 & F2). apply quals_split in V2 as (u' & v' & Q2 & F3 & F4). rewrite Q1, Q2 in E.
  destruct (O "volatile" (a0 ++ u) (v ++ mid ++ u') (v' ++ rest)) as (t & I & N); [now right|rewrite E; flat; reflexivity|].
  assert (K : Forall ident_token (v ++ mid ++ u')) by (rewrite !Forall_app; auto). rewrite Forall_forall in K. destruct (K _ I) as (x & K'). now apply (N x).
Qed.
Lemma words_idents ws : Forall ident_token (map kw ws).
Proof. apply Forall_forall. intros t I. apply in_map_iff in I as (w & <- & _). eexists. reflexivity. Qed.
Lemma quals_idents Q : Forall ident_token (quals_tokens Q).
Proof. apply Forall_forall. intros t I. destruct Q; cbn in I; repeat destruct I as [<-|I]; try (eexists; reflexivity); destruct I. Qed.

Lemma type_ok_point ps t : type_ok types (fold_left point ps t) -> type_ok types t.
Proof.
  revert t. induction ps as [|p ps IH]; intros t; cbn [fold_left]; [auto|]. intro T. apply IH in T.
  unfold point, qualified in T. destruct (has_const _), (has_volatile _); exact T.
Qed.
Lemma type_ok_qual t q : type_ok types (ty_qualify_opt t q) -> type_ok types t.
Proof. destruct q as [q|]; cbn; auto. destruct t; auto. Qed.

Definition base_shape (ts r : list mtoken) (t : ctype) : Prop :=
  int_shape ts r t \/
  (exists pre mid, ts = quals_tokens pre ++ kw "long" :: quals_tokens mid ++ kw "double" :: r /\
     t = ty_qualify_opt (ty_qualify_opt (TyBuiltIn BLongDouble) (qopt mid)) (qopt pre)) \/
  (exists pre (sw : bool) n r0, ts = quals_tokens pre ++ (if sw then [kw "struct"] else []) ++ r0 /\ names r0 n r /\
     t = ty_qualify_opt (TyIdent n sw) (qopt pre)).
Lemma quals_merge pre mid rest b : ordinary (quals_tokens pre ++ quals_tokens mid ++ rest) ->
  exists Q, quals_tokens pre ++ quals_tokens mid = quals_tokens Q /\
    ty_qualify_opt (ty_qualify_opt (TyBuiltIn b) (qopt mid)) (qopt pre) = ty_qualify_opt (TyBuiltIn b) (qopt Q).
Proof.
  intros (_ & _ & _ & O).
  assert (K : forall q a m c, q = "const" \/ q = "volatile" -> quals_tokens pre ++ quals_tokens mid = a ++ kw q :: m ++ kw q :: c -> Forall ident_token m -> False).
  { intros q a m c Hq E F. destruct (O q a m (c ++ rest) Hq) as (t & I & N).
    - rewrite app_assoc, E. flat. reflexivity.
    - rewrite Forall_forall in F. destruct (F _ I) as (x & K). now apply (N x). }
  clear O.
  assert (Kw : forall w, ident_token (kw w)) by (intro w; eexists; reflexivity).
  Local Ltac rep K q a m := exfalso; apply (K q a m _ ltac:(auto) eq_refl); auto.
  destruct pre, mid; cbn [quals_tokens app] in *;
  first [now exists QNone|now exists QC|now exists QV|now exists QCV|now exists QVC
    |rep K "const" (@nil mtoken) (@nil mtoken)|rep K "volatile" (@nil mtoken) (@nil mtoken)
    |rep K "const" (@nil mtoken) [kw "volatile"]|rep K "volatile" (@nil mtoken) [kw "const"]
    |rep K "const" [kw "volatile"] (@nil mtoken)|rep K "volatile" [kw "const"] (@nil mtoken)].
Qed.
Lemma base_inv ts r t : ordinary ts -> ty_base ts = POk r t -> base_shape ts r t.
Proof.
  intros O. unfold ty_base. cbn [palts]. unfold palt at 1.
  destruct (ty_simple ts) as [r1 t1| |] eqn:E1; try discriminate.
  - intro E. injection E as <- <-. unfold ty_simple in E1. unfold pmap at 1, ppair at 1, pbind in E1.
    peel E1. cbv [palts palt pvalue pmap terminated ppair pbind pret pfail] in E1.
    destruct (keyword "void" r) as [r2 x2| |] eqn:K1; kws; [injection E1 as <- <-; left; now exists x, ["void"], BVoid; repeat split; [spell|..]|].
    destruct (keyword "bool" r) as [r2 x2| |] eqn:K2; kws; [injection E1 as <- <-; left; now exists x, ["bool"], BBool; repeat split; [spell|..]|].
    destruct (keyword "float" r) as [r2 x2| |] eqn:K3; kws; [injection E1 as <- <-; left; now exists x, ["float"], BFloat; repeat split; [spell|..]|].
    destruct (optkw_total "long" r) as (r2 & o & C). rewrite C in E1. destruct (cv_total r2) as (r3 & q3 & C3). rewrite C3 in E1.
    apply cv_inv in C3 as (mid & -> & ->). destruct (keyword "double" r3) as [r4 x4| |] eqn:K4; try discriminate. kws.
    injection E1 as <- <-. cbn [fst snd]. apply optkw_inv in C as [(-> & ->)|(-> & ->)].
    + left. destruct (quals_merge x mid _ BDouble O) as (Q & E & T). exists Q, ["double"], BDouble. split; [now rewrite app_assoc, E|].
      split; [spell|]. split; [reflexivity|exact T].
    + right. left. exists x, mid. auto.
  - cbn [palts]. unfold palt at 1. destruct (int_ty ts) as [r2 t2| |] eqn:E2; try discriminate; [intro E; injection E as <- <-; left; now apply int_inv|].
    unfold palt, pfail. destruct (ty_ident ts) as [r3 t3| |] eqn:E3; try discriminate. intro E. injection E as <- <-. right. right.
    unfold ty_ident, pbind in E3. peel E3. destruct (optkw_total "struct" r) as (r2 & o & C). rewrite C in E3.
    destruct (parse_concat_ident r2) as [r4 n| |] eqn:E4; try discriminate. injection E3 as <- <-.
    apply optkw_inv in C as C'. exists x, (match o with Some _ => true | None => false end), n, r2.
    assert (Hn : ordinary r2).
    { eapply ordinary_suffix; [|exact O]. destruct C' as [(-> & ->)|(-> & ->)]; [now exists (quals_tokens x)|]. exists (quals_tokens x ++ [kw "struct"]). flat. reflexivity. }
    split; [|split; [now apply names_inv|reflexivity]]. destruct C' as [(-> & ->)|(-> & ->)]; reflexivity.
Qed.

Theorem type_inv ts r t : ordinary ts -> type_parse ts = POk r t -> type_ok types t -> exists T, ts = T ++ r /\ type_name types T t.
Proof.
  intros O E Ht. unfold type_parse, pbind, ppair, pbind in E. destruct (ty_base ts) as [r1 t1| |] eqn:Eb; try discriminate.
  destruct (cv_total r1) as (r2 & q & C). rewrite C in E. apply cv_inv in C as (post & -> & ->). unfold pret in E. cbn [fst snd] in E.
  change (fold_many0 star_parser fold_point (ty_qualify_opt t1 (qopt post)) r2 = POk r t) in E. apply fold_steps, stars_inv in E as (ps & -> & ->).
  apply type_ok_point in Ht. apply (base_inv _ _ _ O) in Eb. destruct Eb as [(pre & ws & b & -> & Hs & Hf & ->)|[(pre & mid & -> & ->)|(pre & sw & n & r0 & -> & Hn & ->)]].
  - pose proof (once _ [] pre (map kw ws) post _ O eq_refl (words_idents ws)) as V.
    exists (quals_tokens pre ++ map kw ws ++ quals_tokens post ++ stars ps). split; [now flat|].
    replace (ty_qualify_opt (ty_qualify_opt (TyBuiltIn b) (qopt pre)) (qopt post)) with
      (qualified (has_const pre || has_const post) (has_volatile pre || has_volatile post) (TyBuiltIn b)); [now apply tn_builtin|].
    destruct pre, post; try reflexivity; discriminate.
  - assert (V1 : has_volatile pre && has_volatile mid = false) by (apply (once _ [] pre [kw "long"] mid (kw "double" :: quals_tokens post ++ stars ps ++ r) O eq_refl); repeat constructor; eexists; reflexivity).
    assert (V2 : has_volatile pre && has_volatile post = false).
    { apply (once _ [] pre (kw "long" :: quals_tokens mid ++ [kw "double"]) post (stars ps ++ r) O); [cbn [app]; flat; reflexivity|].
      constructor; [eexists; reflexivity|]. apply Forall_app. split; [apply quals_idents|repeat constructor; eexists; reflexivity]. }
    assert (V3 : has_volatile mid && has_volatile post = false).
    { apply (once _ (quals_tokens pre ++ [kw "long"]) mid [kw "double"] post (stars ps ++ r) O); [flat; reflexivity|repeat constructor; eexists; reflexivity]. }
    exists (quals_tokens pre ++ kw "long" :: quals_tokens mid ++ kw "double" :: quals_tokens post ++ stars ps). split; [now flat|].
    replace (ty_qualify_opt (ty_qualify_opt (ty_qualify_opt (TyBuiltIn BLongDouble) (qopt mid)) (qopt pre)) (qopt post)) with
      (qualified (has_const pre || has_const mid || has_const post) (has_volatile pre || has_volatile mid || has_volatile post) (TyBuiltIn BLongDouble)).
    + apply tn_long_double. split; [exact V1|]. destruct (has_volatile pre), (has_volatile mid), (has_volatile post); try reflexivity; discriminate.
    + destruct pre, mid, post; try reflexivity; discriminate.
  - apply type_ok_qual, type_ok_qual in Ht. destruct n as [i|x|l]; cbn in Ht; try contradiction. destruct Ht as (Hk & Hs).
    inversion Hn; subst.
    assert (V : has_volatile pre && has_volatile post = false).
    { apply (once _ [] pre ((if sw then [kw "struct"] else []) ++ [MIdent x]) post (stars ps ++ r) O); [cbn [app]; flat; reflexivity|].
      apply Forall_app. split; [destruct sw; repeat constructor; eexists; reflexivity|repeat constructor; eexists; reflexivity]. }
    exists (quals_tokens pre ++ (if sw then [kw "struct"] else []) ++ MIdent x :: quals_tokens post ++ stars ps). split; [now flat|].
    replace (ty_qualify_opt (ty_qualify_opt (TyIdent (IPlain x) sw) (qopt pre)) (qopt post)) with
      (qualified (has_const pre || has_const post) (has_volatile pre || has_volatile post) (TyIdent (IPlain x) sw)); [now apply tn_named|].
    destruct pre, post; try reflexivity; discriminate.
Qed.

(** ** Strings *)

Definition R := string_run false.
Lemma one_inv {A} (f : mtoken -> option A) ts r a : pmap_opt f take_one ts = POk r a -> exists t, ts = t :: r /\ f t = Some a.
Proof.
  unfold pmap_opt, pbind. destruct ts as [|t ts]; cbn [take_one]; [discriminate|]. destruct (f t) as [y|] eqn:F; [|discriminate].
  intro E. injection E as <- <-. eauto.
Qed.
Lemma prefix_skip q ts r x : In q prefixes -> ordinary ts -> popt (id q) ts = POk r x -> r = ts.
Proof.
  intros I (O & _). unfold popt. destruct (id q ts) as [r1 y| |] eqn:E.
  - apply kw_inv in E as (-> & _). destruct (O q I). now left.
  - intro K. now injection K as <- <-.
  - discriminate.
Qed.
Lemma ordinary_tail ts t r : ordinary ts -> suffix (t :: r) ts -> ordinary r.
Proof. intros O S. eapply ordinary_suffix; [|exact O]. now apply suffix_tail in S. Qed.

Lemma run_fold (p : parser (list N)) (mk : list N -> lit_string) ts0 first r0 l r :
  suffix r0 ts0 -> R ts0 (mk first) r0 ->
  (forall ts r b a, suffix ts ts0 -> p ts = POk r b -> exists s, ts = MLit (LString s) :: r /\ join (mk a) s = Some (mk (a ++ b))) ->
  steps p (fun acc b => acc ++ b) first r0 l r -> R ts0 (mk l) r.
Proof.
  intros S0 R0 Hp S. assert (G : R ts0 (mk l) r /\ suffix r ts0); [|apply G].
  induction S as [|a' ts' b r' S (IH & Su) E]; [auto|].
  destruct (Hp _ _ _ a' Su E) as (s & -> & J). split; [|now apply suffix_tail in Su].
  eapply sr_more; [exact IH|reflexivity|exact J|discriminate|discriminate].
Qed.
Lemma text_inv q ts r b : In q prefixes -> ordinary ts -> text_after q ts = POk r b ->
  exists s, ts = MLit (LString (SOrdinary s)) :: r /\ utf8_decode s = Some b.
Proof.
  intros I O. unfold text_after, preceded, pbind at 1. destruct (popt (id q) ts) as [r1 x| |] eqn:E; try discriminate.
  apply (prefix_skip _ _ _ _ I O) in E. subst r1. intro E. apply one_inv in E as (t & -> & F).
  destruct t as [| | |[|[]| |]| |]; try discriminate F. eauto.
Qed.
Lemma run_inv ts r s : ordinary ts -> lit_string_parse ts = POk r s -> R ts s r.
Proof.
  intros O. unfold lit_string_parse, pbind at 1.
  match goal with |- context [pmap_opt ?f take_one ts] => destruct (pmap_opt f take_one ts) as [r1 s0| |] eqn:E end; try discriminate.
  apply one_inv in E as (t & -> & F). destruct t as [| | |[|s1| |]| |]; try discriminate F. injection F as ->.
  pose proof (sr_one false s0 r1) as R0. assert (S0 : suffix r1 (MLit (LString s0) :: r1)) by now exists [MLit (LString s0)].
  assert (T : forall q (mk : list N -> lit_string) (g : mtoken -> option (list N)) l,
    In q prefixes -> (forall a b, join (mk a) (SOrdinary b) = option_map (fun t => mk (a ++ t)) (utf8_decode b)) ->
    (forall t b a, g t = Some b -> exists s, t = MLit (LString s) /\ join (mk a) s = Some (mk (a ++ b))) -> s0 = mk l ->
    pmap mk (fold_many0 (palt (pmap_opt g take_one) (text_after q)) (fun acc b => acc ++ b) l) r1 = POk r s ->
    R (MLit (LString s0) :: r1) s r).
  { intros q mk g l Iq Hj Hg -> E. unfold pmap, pbind in E. destruct (fold_many0 _ _ l r1) as [r2 l2| |] eqn:E2; try discriminate.
    injection E as <- <-. apply fold_steps in E2. eapply run_fold; [exact S0|exact R0| |exact E2].
    intros ts2 r3 b a Su. unfold palt. destruct (pmap_opt g take_one ts2) as [r4 b4| |] eqn:E3; try discriminate.
    - intro K. injection K as <- <-. apply one_inv in E3 as (t & -> & F). apply (Hg _ _ a) in F as (s5 & -> & J). eauto.
    - intro K. apply text_inv in K as (b5 & -> & U); [|exact Iq|eapply ordinary_suffix; [exact Su|exact O]].
      eexists. split; [reflexivity|]. now rewrite Hj, U. }
  destruct s0 as [b|u|u|u|w].
  - intro E. unfold pmap, pbind in E. destruct (fold_many0 _ _ b r1) as [r2 l2| |] eqn:E2; try discriminate.
    injection E as <- <-. apply fold_steps in E2. eapply (run_fold _ SOrdinary); [exact S0|exact R0| |exact E2].
    intros ts2 r3 b2 a _ K. apply one_inv in K as (t & -> & F). destruct t as [| | |[|[]| |]| |]; try discriminate F. injection F as ->. now eexists.
  - apply (T "u8" SUtf8); [cbn; auto|reflexivity| |reflexivity]. intros t b a F. destruct t as [| | |[|[]| |]| |]; try discriminate F. injection F as ->. now eexists.
  - apply (T "u" SUtf16); [cbn; auto|reflexivity| |reflexivity]. intros t b a F. destruct t as [| | |[|[]| |]| |]; try discriminate F. injection F as ->. now eexists.
  - apply (T "U" SUtf32); [cbn; auto|reflexivity| |reflexivity]. intros t b a F. destruct t as [| | |[|[]| |]| |]; try discriminate F. injection F as ->. now eexists.
  - intro E. unfold pmap, pbind in E. destruct (fold_many0 _ _ w r1) as [r2 l2| |] eqn:E2; try discriminate.
    injection E as <- <-. apply fold_steps in E2. eapply (run_fold _ SWide); [exact S0|exact R0| |exact E2].
    intros ts2 r3 b a Su. unfold palt.
    match goal with |- context [pmap_opt ?f take_one ts2] => destruct (pmap_opt f take_one ts2) as [r4 b4| |] eqn:E3 end; try discriminate.
    + intro K. injection K as <- <-. apply one_inv in E3 as (t & -> & F). destruct t as [| | |[|[]| |]| |]; try discriminate F. injection F as ->. now eexists.
    + unfold preceded, pbind at 1. destruct (popt (id "L") ts2) as [r5 x| |] eqn:E5; try discriminate.
      apply prefix_skip in E5; [|cbn; auto|eapply ordinary_suffix; [exact Su|exact O]]. subst r5. intro K. apply one_inv in K as (t & -> & F).
      destruct t as [| | |[|[b5| | | |]| |]| |]; try discriminate F. injection F as ->. eexists. split; [reflexivity|].
      cbn [join]. assert (A : Forall (fun c => (c < 128)%N) b).
      { destruct O as (_ & _ & O & _). apply (O w b); [now left|]. destruct Su as (pre & ->). apply in_app_iff. right. now left. }
      now rewrite (ascii_decode types b A).
Qed.
Lemma char_inv ts r c : ordinary ts -> lit_char_parse ts = POk r c -> ts = MLit (LChar c) :: r.
Proof.
  intros (O & _). unfold lit_char_parse, palt.
  match goal with |- context [pmap_opt ?f (ppair ?a ?b) ts] => destruct (pmap_opt f (ppair a b) ts) as [r1 x| |] eqn:E end; try discriminate.
  - exfalso. unfold pmap_opt at 1, ppair, pbind at 1 2 in E.
    match type of E with context [palts ?l ts] => destruct (palts l ts) as [r2 q| |] eqn:E2 end; try discriminate.
    assert (K : exists q, In q prefixes /\ ts = kw q :: r2).
    { cbv [palts palt pvalue pbind pret pfail] in E2. change id with keyword in E2.
      repeat match type of E2 with context [keyword ?k ts] => let Q := fresh in destruct (keyword k ts) as [? ?| |] eqn:Q;
        [apply kw_inv in Q as [-> _]; injection E2 as <- <-; exists k; cbn; auto 6| |discriminate E2] end. discriminate E2. }
    destruct K as (q' & I & ->). apply (O _ I). now left.
  - intro K. apply one_inv in K as (t & -> & F). destruct t as [| | |[]| |]; try discriminate F. now injection F as ->.
Qed.

Definition D := derives types false.
Lemma pasted_two ts l r : pasted ts l r -> exists a b l', l = a :: b :: l'.
Proof. induction 1 as [|ts l r1 r2 t p r Hp (a & b & l' & ->)]; cbn [app]; eauto. Qed.
Lemma part_inv ts r e : ordinary ts -> concat_part ts = POk r e -> consistent types e -> string_part types false ts e r.
Proof.
  intros O. unfold concat_part, palt, pmap, pbind.
  destruct (lit_string_parse ts) as [r1 s| |] eqn:E1; try discriminate; [intros E _; injection E as <- <-; apply sp_run; now apply run_inv|].
  destruct (stringify_parse ts) as [r2 e2| |] eqn:E2; try discriminate.
  - intros E C. injection E as <- <-. unfold stringify_parse, preceded, terminated, pbind, palt, pmap, pbind, pret in E2.
    destruct (punct "#" ts) as [r3 x| |] eqn:E3; try discriminate. apply punct_inv in E3. subst ts. destruct (meta_uncomment r3) as (cs & M). rewrite M in E2.
    destruct (macro_arg (uncomment r3)) as [r4 i| |] eqn:E4; try discriminate.
    + injection E2 as <- <-. apply marg_inv in E4. now apply sp_stringify.
    + destruct (macro_id (uncomment r3)) as [r5 i| |]; try discriminate. injection E2 as <- <-. destruct C as (i' & C). discriminate C.
  - destruct (parse_concat_ident ts) as [r3 n| |] eqn:E3; try discriminate. intros E C. injection E as <- <-. cbn [consistent] in C.
    apply (names_inv _ _ _ O) in E3. apply sp_name; [exact E3| |].
    + intros x q ->. inversion E3; subst; [exact C|]. match goal with Hp : pasted _ _ _ |- _ => clear - Hp C end.
      remember (MIdent x :: q) as ts eqn:E. revert x q E C. induction H0 as [t p r1 r2 t' p' r Ht N E1 E2 Ht'|ts l r1 r2 t p r Hp IH E1 E2 Ht]; intros x q E C.
      * injection E as -> ->. inversion Ht; subst. exact C.
      * apply (IH _ _ E). clear - C Hp. apply pasted_two in Hp as (u & v & l' & ->). exact C.
    + intros x q -> I. apply in_map_iff in I as (k & <- & I). destruct O as (O & _). apply (O _ I). now left.
Qed.
Lemma all_app {A} (f : A -> Prop) l1 l2 : all f (l1 ++ l2) -> all f l1 /\ all f l2.
Proof. induction l1 as [|x l1 IH]; cbn [app all]; [auto|]. intros (Hx & Hl). apply IH in Hl. tauto. Qed.
Lemma apart_l l1 l2 : apart (l1 ++ l2) -> apart l1.
Proof. intros Ha a x y b E. apply (Ha a x y (b ++ l2)). rewrite E. now flat. Qed.

Lemma strings_inv ts r e : ordinary ts -> parse_concat_string ts = POk r e -> consistent types e ->
  string_part types false ts e r \/ exists l, e = EConcat l /\ string_parts types false ts l r.
Proof.
  intros O. unfold parse_concat_string, pbind at 1. destruct (concat_part ts) as [r0 s| |] eqn:E0; try discriminate. intro E.
  assert (Hpart : forall ts r e, concat_part ts = POk r e -> (forall l, e <> EConcat l)).
  { clear. intros ts r e E l ->. unfold concat_part, palt, pmap, pbind in E.
    destruct (lit_string_parse ts); try discriminate. unfold stringify_parse, preceded, terminated, pbind, palt, pmap, pbind, pret in E.
    destruct (punct "#" ts); try discriminate; [|destruct (parse_concat_ident ts); discriminate].
    destruct (meta rest); try discriminate; [|destruct (parse_concat_ident ts); discriminate].
    destruct (macro_arg rest0); try discriminate. destruct (macro_id rest0); try discriminate. destruct (parse_concat_ident ts); discriminate. }
  apply fold_steps in E.
  assert (S0 : suffix r0 ts) by (apply ssuffix_suffix; eapply strict_concat_part; exact E0).
  assert (G : suffix r ts /\ (((forall l, e <> EConcat l) /\ (consistent types e -> string_part types false ts e r)) \/
     (exists l a, e = EConcat (l ++ [a]) /\ (consistent types e -> string_parts types false ts (l ++ [a]) r)))).
  { induction E as [|a' ts' b r' S (Su & IH) E].
    - split; [exact S0|]. left. split; [eapply Hpart; exact E0|]. now apply part_inv.
    - unfold preceded, pbind in E. destruct (meta_uncomment ts') as (cs & M). rewrite M in E.
      assert (Su' : suffix (uncomment ts') ts) by (eapply suffix_trans; [apply suffix_uncomment|exact Su]).
      split; [eapply suffix_trans; [|exact Su']; apply ssuffix_suffix; eapply strict_concat_part; exact E|]. right.
      assert (Hb : consistent types b -> string_part types false (uncomment ts') b r') by (apply part_inv; [eapply ordinary_suffix; [exact Su'|exact O]|exact E]).
      destruct IH as [(N & IH)|(l & a & -> & IH)].
      + exists [a'], b. split; [destruct a'; try reflexivity; exfalso; eapply N; reflexivity|]. intro C.
        replace (concat_add a' b) with (EConcat [a'; b]) in C by (destruct a'; try reflexivity; exfalso; eapply N; reflexivity).
        cbn [consistent all] in C. destruct C as ((Ca & Cb & _) & Ap). eapply sq_two; [apply IH, Ca|apply Hb, Cb|]. now apply (Ap [] a' b []).
      + exists (l ++ [a]), b. cbn [concat_add]. split; [reflexivity|]. cbn [consistent]. intros (C & Ap).
        pose proof (apart_l _ _ Ap) as Ap'. destruct (all_app _ _ _ C) as (Ca & (Cb & _)). rewrite <- app_assoc.
        eapply sq_more; [apply IH; split; assumption|apply Hb, Cb|]. apply (Ap l a b []). now flat. }
  intro C. destruct G as (_ & [(_ & G)|(l & a & -> & G)]); [left; now apply G|right; eexists; split; [reflexivity|now apply G]].
Qed.
Lemma part_primary ts e r : string_part types false ts e r -> D Primary ts e r.
Proof.
  intros [ts' s r' Hr|i ts' r' E|ts' n r' Hn Hb Hp]; [now apply d_joined|now apply d_stringify|].
  destruct Hn; [apply d_arg|apply d_name; now apply (Hb x r0)|now apply d_pasted].
Qed.
Lemma paren_inv {A} (p : parser A) ts r a : parenthesized p ts = POk r a ->
  exists ts0 r1, ts = P "(" :: ts0 /\ p (uncomment ts0) = POk r1 a /\ uncomment r1 = P ")" :: r.
Proof.
  intro E. destruct (punct "(" ts) as [ts0 x| |] eqn:E0.
  - apply punct_inv in E0. subst ts. rewrite paren_open in E. destruct (p (uncomment ts0)) as [r1 a1| |] eqn:E1; try discriminate.
    unfold ppair, pbind in E. destruct (meta_uncomment r1) as (cs & M). rewrite M in E. destruct (punct ")" (uncomment r1)) as [r2 y| |] eqn:E2; try discriminate.
    injection E as <- <-. apply punct_inv in E2. eauto.
  - unfold parenthesized, delimited, ppair, pbind in E. rewrite E0 in E. discriminate.
  - unfold parenthesized, delimited, ppair, pbind in E. rewrite E0 in E. discriminate.
Qed.

(** ** Expressions *)

Lemma starts l ts e r : D l ts e r -> uncomment ts = ts.
Proof.
  intros d. revert l ts e r d. unfold D.
  refine (derives_mut types false (fun _ ts _ _ => uncomment ts = ts) (fun _ _ _ => True) (fun _ _ _ => True) _ _ _ _ _ _ _ _ _ _ _ _ _ _ _ _ _ _ _ _ _ _ _ _ _);
  intros; auto.
  - match goal with Hp : pasted _ _ _ |- _ => clear - Hp; induction Hp as [t p r1 r2 t' p' r Ht|]; [destruct Ht; reflexivity|assumption] end.
  - match goal with Hr : string_run _ _ _ _ |- _ => apply run_head in Hr as (s' & r' & ->) end. reflexivity.
  - match goal with Hs : string_parts _ _ _ _ _ |- _ => clear - Hs; induction Hs as [ts a r1 b r Hp|]; [|assumption] end.
    destruct Hp as [ts' s r' Hr|i ts' r' E|ts' n r' Hn Hb Hp]; [apply run_head in Hr as (s' & q & ->); reflexivity|reflexivity|].
    destruct Hn as [| |ts'' l' r'' Hp']; try reflexivity. clear - Hp'. induction Hp' as [t p r1 r2 t' p' r Ht|]; [destruct Ht; reflexivity|assumption].
Qed.

Definition plain (e : expr) : Prop := ~ is_size e.
Definition lev (l : lvl) : level :=
  match l with
  | LFactor => Primary | LPrec1 => Postfix | LPrec2 => Cast | LPrec3 => Multiplicative | LPrec4 => Additive | LPrec5 => Shift
  | LPrec6 => Relational | LPrec7 => Equality | LPrec8 => And | LPrec9 => Xor | LPrec10 => Or | LPrec13 => Conditional | LPrec14 => Assignment
  end.
Definition accepted (l : lvl) (ts : list mtoken) (e : expr) (r : list mtoken) : Prop :=
  match l with
  | LFactor | LPrec1 => (plain e -> D (lev l) ts e r) /\ D Unary ts e r
  | _ => D (lev l) ts e r /\ (unary_form e -> D Unary ts e r)
  end.
Lemma postfix_unary ts e r : D Postfix ts e r -> D Unary ts e r.
Proof. now apply d_up with (l' := Postfix). Qed.
Lemma primary_postfix ts e r : D Primary ts e r -> D Postfix ts e r.
Proof. now apply d_up with (l' := Primary). Qed.
Lemma primary_unary ts e r : D Primary ts e r -> D Unary ts e r.
Proof. intro d. now apply postfix_unary, primary_postfix. Qed.
Hint Resolve postfix_unary primary_postfix primary_unary : core.

Section Level.
Variable rec : lvl -> parser expr.
Hypothesis rec_ok : forall l ts r e, ordinary ts -> rec l ts = POk r e -> consistent types e -> accepted l ts e r.
Hypothesis rec_strict : forall l, strict (rec l).
Lemma rec_short l ts r e : rec l ts = POk r e -> suffix r ts.
Proof. intro E. apply ssuffix_suffix. eapply rec_strict. exact E. Qed.
Lemma access_short ts r a : parse_access rec ts = POk r a -> suffix r ts.
Proof.
  assert (Hs : forall l, shr (rec l)) by (intros; apply strict_shr, rec_strict).
  assert (K : shr (parse_access rec)) by (pose proof strict_parse_concat_ident; unfold parse_access; nomr). apply K.
Qed.

Lemma comma_of ts r e : ordinary ts -> rec LPrec14 ts = POk r e -> consistent types e -> D Comma ts e r.
Proof. intros O E C. apply d_up with (l' := Assignment); [reflexivity|]. now apply (rec_ok LPrec14). Qed.

Lemma lit_inv ts r l : ordinary ts -> lit_parse ts = POk r l -> D Primary ts (ELit l) r.
Proof.
  intros O E. unfold lit_parse, palts, palt, pmap, pbind, pret, pfail in E.
  destruct (lit_char_parse ts) as [r1 c| |] eqn:E1; try discriminate; [injection E as <- <-; apply char_inv in E1; [|exact O]; subst; apply d_literal|].
  destruct (lit_string_parse ts) as [r2 c| |] eqn:E2; try discriminate; [injection E as <- <-; apply d_joined; now apply run_inv|].
  destruct (lit_float_parse ts) as [r3 c| |] eqn:E3; try discriminate.
  - injection E as <- <-. apply one_inv in E3 as (t & -> & F). destruct t as [| | |[]| |]; try discriminate F. injection F as ->. apply d_literal.
  - destruct (lit_int_parse ts) as [r4 c| |] eqn:E4; try discriminate.
    injection E as <- <-. apply one_inv in E4 as (t & -> & F). destruct t as [| | |[]| |]; try discriminate F. injection F as ->. apply d_literal.
Qed.
Lemma primary_ok ts r e : ordinary ts ->
  palts [pmap (fun c => ELit (LChar c)) lit_char_parse; parse_concat_string; pmap ELit lit_parse; parenthesized (rec LPrec14)] ts = POk r e ->
  consistent types e -> D Primary ts e r.
Proof.
  intros O E C. cbv [palts palt pmap pbind pret pfail] in E.
  destruct (lit_char_parse ts) as [r1 c| |] eqn:E1; try discriminate; [injection E as <- <-; apply char_inv in E1; [|exact O]; subst; apply d_literal|].
  destruct (parse_concat_string ts) as [r4 e4| |] eqn:E4; try discriminate.
  { injection E as <- <-. apply strings_inv in E4 as [E4|(l & -> & E4)]; [now apply part_primary|now apply d_strings|assumption|assumption]. }
  destruct (lit_parse ts) as [r5 l5| |] eqn:E5; try discriminate; [injection E as <- <-; now apply lit_inv|].
  destruct (parenthesized (rec LPrec14) ts) as [r9 e9| |] eqn:E9; try discriminate. injection E as <- <-. apply paren_inv in E9 as (ts0 & r2 & -> & E6 & E2).
  assert (O' : ordinary (uncomment ts0)).
  { eapply ordinary_suffix; [|exact O]. eapply suffix_trans; [apply suffix_uncomment|]. now exists [P "("]. }
  eapply d_paren; [apply (comma_of _ _ _ O' E6 C)|exact E2|discriminate].
Qed.
Lemma factor_ok ts r e : ordinary ts -> parse_factor rec ts = POk r e -> consistent types e -> accepted LFactor ts e r.
Proof.
  intros O E C.
  change (palt (pmap ESizeOf (preceded (keyword "sizeof") (parenthesized type_parse))) (palts [pmap (fun c => ELit (LChar c)) lit_char_parse; parse_concat_string; pmap ELit lit_parse; parenthesized (rec LPrec14)]) ts = POk r e) in E.
  unfold palt in E. destruct (pmap ESizeOf _ ts) as [r1 e1| |] eqn:E0; try discriminate.
  - injection E as <- <-. unfold pmap, preceded, pbind, pret in E0. destruct (keyword "sizeof" ts) as [r0 x| |] eqn:Ek; kws; try discriminate.
    destruct (parenthesized type_parse r0) as [r2 t| |] eqn:E1; try discriminate. injection E0 as <- <-. apply paren_inv in E1 as (ts0 & r3 & -> & E1 & E2). cbn [consistent] in C.
    assert (O' : ordinary (uncomment ts0)).
    { eapply ordinary_suffix; [|exact O]. eapply suffix_trans; [apply suffix_uncomment|]. now exists [kw "sizeof"; P "("]. }
    apply type_inv in E1 as (T & E1 & Ht); auto. split; [intro N; destruct N; eexists; reflexivity|].
    eapply d_sizeof; [reflexivity|exact E1|exact E2|exact Ht|discriminate|discriminate].
  - apply (primary_ok _ _ _ O) in E; [|exact C]. split; auto.
Qed.

(** Postfix operators. *)
Lemma args_inv n ts r acc l : sep_list_n n (meta ;;> (punct "," ;;> meta)) (rec LPrec14) acc ts = POk r l -> ordinary ts ->
  exists l', l = acc ++ l' /\ (all (consistent types) l' -> more_arguments types false ts l' r).
Proof.
  revert ts acc. induction n as [|n IH]; intros ts acc; [discriminate|]. cbn [sep_list_n]. unfold pbind at 1 2.
  destruct (meta_uncomment ts) as (cs & ->).
  assert (Z : POk ts acc = POk r l -> exists l', l = acc ++ l' /\ (all (consistent types) l' -> more_arguments types false ts l' r)).
  { intro E. injection E as <- <-. exists []. rewrite app_nil_r. split; [reflexivity|]. intros _. constructor. }
  destruct (punct "," (uncomment ts)) as [r1 x| |] eqn:E1; try discriminate; [|intros E O; now apply Z].
  apply punct_inv in E1. destruct (meta_uncomment r1) as (cs' & ->). destruct (Nat.eqb _ _); [discriminate|].
  destruct (rec LPrec14 (uncomment r1)) as [r2 e| |] eqn:E2; try discriminate; [|intros E O; now apply Z].
  intros E O. assert (S1 : suffix (uncomment r1) ts) by (eapply suffix_trans; [apply suffix_uncomment|eapply suffix_un; exact E1]).
  pose proof (ordinary_suffix _ _ S1 O) as O1. assert (O2 : ordinary r2) by (eapply ordinary_suffix; [eapply rec_short; exact E2|exact O1]).
  apply IH in E as (l' & -> & M); [|exact O2]. exists (e :: l'). rewrite <- app_assoc. split; [reflexivity|]. cbn [all]. intros (Ce & Cl).
  eapply m_some; [exact E1|apply (rec_ok LPrec14); eassumption|now apply M].
Qed.
Lemma arguments_inv ts r l : separated_list0 (meta ;;> (punct "," ;;> meta)) (rec LPrec14) ts = POk r l -> ordinary ts ->
  all (consistent types) l -> arguments types false ts l r.
Proof.
  unfold separated_list0. destruct (rec LPrec14 ts) as [r1 x| |] eqn:E1; try discriminate.
  - intros E O C. apply args_inv in E as (l' & -> & M); [|eapply ordinary_suffix; [eapply rec_short; exact E1|exact O]].
    cbn [app all] in C. destruct C as (Cx & Cl). eapply a_some; [apply (rec_ok LPrec14); eassumption|now apply M].
  - intros E _ _. injection E as <- <-. constructor.
Qed.

(** What a postfix operator is made of. *)
Inductive postfix : list mtoken -> access -> list mtoken -> Prop :=
| pf_call ts l r1 r : arguments types false (uncomment ts) l r1 -> uncomment r1 = P ")" :: r -> postfix (P "(" :: ts) (AFn l) r
| pf_member ts m r : names (uncomment ts) m r -> postfix (P "." :: ts) (AField m false) r
| pf_arrow ts m r : names (uncomment ts) m r -> postfix (P "->" :: ts) (AField m true) r
| pf_index ts i r1 r : D Comma (uncomment ts) i r1 -> uncomment r1 = P "]" :: r -> postfix (P "[" :: ts) (AArray i) r
| pf_inc p o r : In (p, o) postfix_increments -> postfix (P p :: r) (AUnary o) r.
Definition access_consistent (a : access) : Prop :=
  match a with AFn l => all (consistent types) l | AArray i => consistent types i | _ => True end.
Lemma access_inv ts r a : ordinary ts -> parse_access rec ts = POk r a -> access_consistent a -> postfix ts a r.
Proof.
  intros O E C. unfold parse_access in E. cbn [palts] in E. unfold palt at 1 in E.
  destruct (pmap AFn _ ts) as [r1 a1| |] eqn:E1; try discriminate.
  { injection E as <- <-. unfold pmap, pbind, pret in E1. destruct (parenthesized _ ts) as [r2 l| |] eqn:E2; try discriminate. injection E1 as <- <-.
    apply paren_inv in E2 as (ts0 & r1 & -> & E2 & E3). eapply pf_call; [|exact E3]. apply arguments_inv; [exact E2| |exact C].
    eapply ordinary_suffix; [|exact O]. eapply suffix_trans; [apply suffix_uncomment|]. now exists [P "("]. }
  clear E1. cbv [palt palts] in E.
  assert (Tail : forall p r0, ts = P p :: r0 -> ordinary (uncomment r0)).
  { intros p r0 ->. eapply ordinary_suffix; [|exact O]. eapply suffix_trans; [apply suffix_uncomment|]. now exists [P p]. }
  destruct (pmap (fun f => AField f false) _ ts) as [r1 a1| |] eqn:E1; try discriminate.
  { injection E as <- <-. unfold pmap, preceded, terminated, pbind, pret in E1.
    destruct (punct "." ts) as [r2 x| |] eqn:E2; try discriminate. apply punct_inv in E2. pose proof (Tail _ _ E2) as O'. destruct (meta_uncomment r2) as (cs & M). rewrite M in E1.
    destruct (parse_concat_ident (uncomment r2)) as [r3 m| |] eqn:E3; try discriminate. injection E1 as <- <-. subst ts. apply pf_member. now apply names_inv. }
  clear E1. destruct (pmap AArray _ ts) as [r1 a1| |] eqn:E1; try discriminate.
  { injection E as <- <-. unfold pmap, delimited, preceded, terminated, pbind, pret in E1.
    destruct (punct "[" ts) as [r2 x| |] eqn:E2; try discriminate. apply punct_inv in E2. pose proof (Tail _ _ E2) as O'. destruct (meta_uncomment r2) as (cs & M). rewrite M in E1.
    destruct (rec LPrec14 (uncomment r2)) as [r3 i| |] eqn:E3; try discriminate. destruct (meta_uncomment r3) as (cs' & M'). rewrite M' in E1.
    destruct (punct "]" (uncomment r3)) as [r4 y| |] eqn:E4; try discriminate. apply punct_inv in E4. injection E1 as <- <-. subst ts.
    eapply pf_index; [apply comma_of; [exact O'|exact E3|exact C]|exact E4]. }
  clear E1. destruct (pmap (fun f => AField f true) _ ts) as [r1 a1| |] eqn:E1; try discriminate.
  { injection E as <- <-. unfold pmap, preceded, terminated, pbind, pret in E1.
    destruct (punct "->" ts) as [r2 x| |] eqn:E2; try discriminate. apply punct_inv in E2. pose proof (Tail _ _ E2) as O'. destruct (meta_uncomment r2) as (cs & M). rewrite M in E1.
    destruct (parse_concat_ident (uncomment r2)) as [r3 m| |] eqn:E3; try discriminate. injection E1 as <- <-. subst ts. apply pf_arrow. now apply names_inv. }
  clear E1. unfold pmap, pvalue, pbind, pret, pfail in E. destruct (punct "++" ts) as [r1 x| |] eqn:E1; try discriminate.
  { injection E as <- <-. apply punct_inv in E1. subst ts. apply pf_inc. now left. }
  destruct (punct "--" ts) as [r2 x| |] eqn:E2; try discriminate.
  injection E as <- <-. apply punct_inv in E2. subst ts. apply pf_inc. right. now left.
Qed.
Lemma prec1_ok ts r e : ordinary ts -> parse_term_prec1 rec ts = POk r e -> consistent types e -> accepted LPrec1 ts e r.
Proof.
  intros O. unfold parse_term_prec1, pbind at 1. destruct (rec LFactor ts) as [r0 f| |] eqn:E0; try discriminate.
  unfold pmap_opt, pbind. destruct (fold_many0 _ access_step (Some (f, false)) r0) as [r1 o| |] eqn:E1; try discriminate.
  destruct o as [[e' w]|]; [|discriminate]. cbn [omap fst]. intro E. injection E as <- <-. apply fold_steps in E1.
  pose proof (rec_short _ _ _ _ E0) as S0.
  assert (G : forall o r1, steps (preceded meta (parse_access rec)) access_step (Some (f, false)) r0 o r1 ->
    suffix r1 ts /\ forall e w, o = Some (e, w) -> consistent types e -> (plain e -> D Postfix ts e r1) /\ D Unary ts e r1).
  2: { intro C. apply G in E1 as (_ & E1). now apply (E1 _ _ eq_refl). }
  clear E1 e' w r1. intros o r1 E1.
  induction E1 as [|a' ts' b r' S (Su & IH) E].
  { split; [exact S0|]. intros e w Eq C. injection Eq as <- <-. destruct (rec_ok _ _ _ _ O E0 C) as (A & B). cbn [lev] in A. auto. }
  unfold preceded, pbind in E. destruct (meta_uncomment ts') as (cs & M). rewrite M in E.
  assert (Su' : suffix (uncomment ts') ts) by (eapply suffix_trans; [apply suffix_uncomment|exact Su]).
  pose proof (ordinary_suffix _ _ Su' O) as O'. split; [eapply suffix_trans; [|exact Su']; eapply access_short; exact E|].
  intros e w Eq C. destruct a' as [[e1 w1]|]; [|discriminate]. cbn [access_step] in Eq.
  destruct (access_apply e1 w1 b) as [e2|] eqn:Ea; [|discriminate]. injection Eq as -> _.
  assert (G : D Postfix ts e r'); [|split; auto].
  assert (Hb : access_consistent b -> postfix (uncomment ts') b r') by (apply access_inv; assumption).
  destruct b as [l|m d|i|op].
  - destruct e1; try discriminate Ea. injection Ea as <-. cbn [consistent] in C. destruct C as (Cn & Cl). specialize (Hb Cl). inversion Hb; subst.
    eapply d_call; [|symmetry; eassumption|eassumption|eassumption]. apply (IH _ _ eq_refl Cn). intros (t & K). discriminate K.
  - assert (Ea' : e = EBinary (if d then EUnary UDeref e1 else e1) OMember (EVar m)).
    { destruct e1; cbn [access_apply] in Ea; destruct (negb w1 || d); try discriminate Ea; now injection Ea as <-. }
    subst e. cbn [consistent] in C. destruct C as (Ca & Cs & _). specialize (Hb I). inversion Hb; subst.
    + eapply d_member; [apply (IH _ _ eq_refl Ca), Cs|symmetry; eassumption|eassumption|discriminate].
    + cbn [consistent of_size] in Ca. destruct Ca as (Ca & _ & Co). eapply d_arrow; [apply (IH _ _ eq_refl Ca)|symmetry; eassumption|eassumption]. intro K. apply Co. now left.
  - assert (Ea' : e = EUnary UDeref (EBinary e1 OAdd i)).
    { destruct e1; cbn [access_apply] in Ea; destruct w1; try discriminate Ea; now injection Ea as <-. }
    subst e. cbn [consistent of_size] in C. destruct C as ((Ca & Ci & _) & _ & Co). specialize (Hb Ci). inversion Hb; subst.
    eapply d_index; [apply (IH _ _ eq_refl Ca)|symmetry; eassumption|eassumption|eassumption|discriminate]. intro K. apply Co. right. eauto.
  - assert (Ea' : e = EUnary op e1).
    { destruct e1; cbn [access_apply] in Ea; destruct w1; try discriminate Ea; now injection Ea as <-. }
    subst e. cbn [consistent] in C. destruct C as (Ca & _ & Co). specialize (Hb I). inversion Hb; subst.
    eapply d_postfix; [apply (IH _ _ eq_refl Ca)|symmetry; eassumption|eassumption|discriminate]. intro K. apply Co.
    match goal with Hi : In _ postfix_increments |- _ => destruct Hi as [Hi|[Hi|[]]]; injection Hi as <- <-; exact K end.
Qed.

Lemma ops_inv {A} (tbl : list (string * A)) ts r o : ops tbl ts = POk r o -> exists p, In (p, o) tbl /\ ts = P p :: r.
Proof.
  unfold ops. induction tbl as [|[p x] tbl IH]; cbn [map palts]; [discriminate|]. unfold palt, pvalue at 1, pbind. cbn [fst snd].
  destruct (punct p ts) as [r1 y| |] eqn:E; try discriminate.
  - intro K. injection K as <- <-. apply punct_inv in E. exists p. split; [now left|exact E].
  - intro K. apply IH in K as (q & I & ->). exists q. split; [now right|reflexivity].
Qed.
Lemma prec2_ok ts r e : ordinary ts -> parse_term_prec2 rec ts = POk r e -> consistent types e -> accepted LPrec2 ts e r.
Proof.
  intros O E C. cbv [parse_term_prec2 palts palt] in E. destruct (pmap (fun x => ECast (fst x) (snd x)) _ ts) as [r1 e1| |] eqn:E1; try discriminate.
  { injection E as <- <-. unfold pmap, ppair, pbind, pret in E1. destruct (parenthesized type_parse ts) as [r2 t| |] eqn:E2; try discriminate.
    destruct (rec LPrec2 r2) as [r3 e3| |] eqn:E3; try discriminate. injection E1 as <- <-. cbn [fst snd consistent] in *. destruct C as (Ct & Ce).
    apply paren_inv in E2 as (ts0 & r1 & -> & E2 & E4).
    assert (S0 : suffix (uncomment ts0) (P "(" :: ts0)) by (eapply suffix_trans; [apply suffix_uncomment|now exists [P "("]]).
    pose proof (ordinary_suffix _ _ S0 O) as O1. apply type_inv in E2 as (T & E2 & Ht); auto.
    assert (S1 : suffix r2 (P "(" :: ts0)).
    { eapply suffix_trans; [eapply suffix_un; exact E4|]. eapply suffix_trans; [|exact S0]. rewrite E2. now exists T. }
    destruct (rec_ok _ _ _ _ (ordinary_suffix _ _ S1 O) E3 Ce) as (De & _). split; [|intros []].
    eapply d_cast; [exact E2|exact E4|exact Ht| |discriminate|discriminate]. now rewrite (starts _ _ _ _ De). }
  clear E1. destruct (pmap (fun x => EUnary (fst x) (snd x)) _ ts) as [r1 e1| |] eqn:E1; try discriminate.
  { injection E as <- <-. unfold pmap, ppair, terminated, pbind, pret in E1. rewrite prefix_ops in E1.
    destruct (ops prefix_operators ts) as [r2 o| |] eqn:E2; try discriminate. destruct (meta_uncomment r2) as (cs & M). rewrite M in E1.
    destruct (rec LPrec2 (uncomment r2)) as [r3 e3| |] eqn:E3; try discriminate. injection E1 as <- <-. cbn [fst snd consistent] in *. destruct C as (Ce & Ci & _).
    apply ops_inv in E2 as (p & I & ->).
    assert (O' : ordinary (uncomment r2)).
    { eapply ordinary_suffix; [|exact O]. eapply suffix_trans; [apply suffix_uncomment|]. now exists [P p]. }
    destruct (rec_ok _ _ _ _ O' E3 Ce) as (De & Du). cbn [lev] in De.
    assert (G : D Unary (P p :: r2) (EUnary o e3) r3); [|split; [now apply d_up with (l' := Unary)|auto]].
    unfold prefix_operators in I. cbn [In] in I.
    repeat match goal with Hi : _ \/ _ |- _ => destruct Hi as [Hi|Hi] end; try contradiction; injection I as <- <-;
      first [apply d_increment; [cbn; tauto|apply Du, Ci; tauto] | apply d_unary; [cbn; tauto|exact De]]. }
  clear E1. unfold pfail in E. destruct (rec LPrec1 ts) as [r1 e1| |] eqn:E1; try discriminate. injection E as <- <-.
  destruct (rec_ok _ _ _ _ O E1 C) as (_ & Du). split; [now apply d_up with (l' := Unary)|auto].
Qed.

(** Left-associative operators. *)
Lemma left_ok l l' term op ts r e : tighter l = Some l' -> shr term ->
  (forall ts r o, op ts = POk r o -> exists p, In (p, o) (binary_operators l) /\ ts = P p :: r) ->
  (forall ts r e, ordinary ts -> term ts = POk r e -> consistent types e -> D l' ts e r /\ (unary_form e -> D Unary ts e r)) ->
  ordinary ts -> parse_left term op ts = POk r e -> consistent types e -> D l ts e r /\ (unary_form e -> D Unary ts e r).
Proof.
  intros T Hs Hop Ht O. unfold parse_left, pbind at 1. destruct (term ts) as [r0 t| |] eqn:E0; try discriminate. intro E. apply fold_steps in E.
  assert (G : suffix r ts /\ (consistent types e -> D l ts e r /\ (unary_form e -> D Unary ts e r))); [|apply G].
  induction E as [|a' ts' [o b] r' S (Su & IH) E].
  - split; [eapply Hs; exact E0|]. intro C. destruct (Ht _ _ _ O E0 C) as (A & B). split; [eapply d_up; [exact T|exact A]|exact B].
  - unfold ppair, pbind in E. destruct (delimited meta op meta ts') as [r1 o1| |] eqn:E1; try discriminate. apply delim_inv in E1 as (r2 & E1 & ->).
    apply Hop in E1 as (p & I & E1). destruct (term (uncomment r2)) as [r3 b3| |] eqn:E2; try discriminate. injection E as <- -> ->.
    assert (S2 : suffix (uncomment r2) ts) by (eapply suffix_trans; [apply suffix_uncomment|]; eapply suffix_trans; [eapply suffix_un; exact E1|exact Su]).
    split; [eapply suffix_trans; [eapply Hs; exact E2|exact S2]|]. cbn [fst snd consistent].
    assert (No : o <> OMember) by (intros ->; destruct l; cbn in I; repeat destruct I as [I|I]; try discriminate I; exact I).
    intros (Ca & Cb & _). assert (Cb' : consistent types b) by (destruct o; try exact Cb; now destruct No).
    destruct (Ht _ _ _ (ordinary_suffix _ _ S2 O) E2 Cb') as (Db & _). split; [|intro U; now destruct No].
    eapply d_binary; [exact T|exact I|now apply IH|exact E1|exact Db|discriminate].
Qed.
Lemma prec13_ok ts r e : ordinary ts -> parse_term_prec13 rec ts = POk r e -> consistent types e -> accepted LPrec13 ts e r.
Proof.
  intros O. unfold parse_term_prec13, pbind at 1. destruct (rec LPrec10 ts) as [r0 t| |] eqn:E0; try discriminate.
  unfold pbind at 1. unfold popt. destruct (delimited meta (punct "?") meta r0) as [r1 q| |] eqn:E1; try discriminate.
  - apply delim_inv in E1 as (r2 & E1 & ->). apply punct_inv in E1. unfold pbind at 1. destruct (rec LPrec14 (uncomment r2)) as [r3 a| |] eqn:E3; try discriminate.
    unfold pbind at 1. destruct (delimited meta (punct ":") meta r3) as [r4 q4| |] eqn:E4; try discriminate. apply delim_inv in E4 as (r5 & E4 & ->). apply punct_inv in E4.
    unfold pbind. destruct (rec LPrec13 (uncomment r5)) as [r6 b| |] eqn:E6; try discriminate. intros E C. injection E as <- <-. destruct C as (Ct & Ca & Cb).
    assert (S2 : suffix (uncomment r2) ts).
    { eapply suffix_trans; [apply suffix_uncomment|]. eapply suffix_trans; [eapply suffix_un; exact E1|]. eapply rec_short; exact E0. }
    assert (S5 : suffix (uncomment r5) ts).
    { eapply suffix_trans; [apply suffix_uncomment|]. eapply suffix_trans; [eapply suffix_un; exact E4|]. eapply suffix_trans; [eapply rec_short; exact E3|exact S2]. }
    destruct (rec_ok _ _ _ _ O E0 Ct) as (Dt & _). cbn [lev] in Dt. split; [|intros []].
    eapply d_conditional; [|exact E1|apply comma_of; [eapply ordinary_suffix; [exact S2|exact O]|exact E3|exact Ca]|exact E4|].
    + apply d_up with (l' := LogicalAnd); [reflexivity|]. apply d_up with (l' := Or); [reflexivity|exact Dt].
    + apply (rec_ok LPrec13); [eapply ordinary_suffix; [exact S5|exact O]|exact E6|exact Cb].
  - intros E C. injection E as <- <-. destruct (rec_ok _ _ _ _ O E0 C) as (Dt & Du). cbn [lev] in Dt. split; [|exact Du].
    apply d_up with (l' := LogicalOr); [reflexivity|]. apply d_up with (l' := LogicalAnd); [reflexivity|]. apply d_up with (l' := Or); [reflexivity|exact Dt].
Qed.
Lemma prec14_ok ts r e : ordinary ts -> parse_term_prec14 rec ts = POk r e -> consistent types e -> accepted LPrec14 ts e r.
Proof.
  intros O. unfold parse_term_prec14, pbind at 1. destruct (rec LPrec13 ts) as [r0 t| |] eqn:E0; try discriminate. intro E. apply fold_steps in E.
  assert (G : suffix r ts /\ (consistent types e -> accepted LPrec14 ts e r)); [|apply G].
  induction E as [|a' ts' [o b] r' S (Su & IH) E].
  - split; [eapply rec_short; exact E0|]. intro C. destruct (rec_ok _ _ _ _ O E0 C) as (A & B). split; [eapply d_up; [reflexivity|exact A]|exact B].
  - unfold ppair, pbind in E. destruct (delimited meta parse_assign_op meta ts') as [r1 o1| |] eqn:E1; try discriminate. apply delim_inv in E1 as (r2 & E1 & ->).
    apply (ops_inv assignment_operators) in E1 as (p & I & E1). destruct (rec LPrec14 (uncomment r2)) as [r3 b3| |] eqn:E2; try discriminate. injection E as <- -> ->.
    assert (S2 : suffix (uncomment r2) ts) by (eapply suffix_trans; [apply suffix_uncomment|]; eapply suffix_trans; [eapply suffix_un; exact E1|exact Su]).
    split; [eapply suffix_trans; [eapply rec_short; exact E2|exact S2]|]. cbn [fst snd consistent].
    assert (No : o <> OMember) by (intros ->; cbn in I; repeat destruct I as [I|I]; try discriminate I; exact I).
    intros (Ca & Cb & Cu). assert (Cb' : consistent types b) by (destruct o; try exact Cb; now destruct No).
    destruct (rec_ok _ _ _ _ (ordinary_suffix _ _ S2 O) E2 Cb') as (Db & _). split; [|intro U; now destruct No].
    eapply d_assign; [apply IH; [exact Ca|]; apply Cu; now apply (in_map snd) in I|exact E1|exact I|exact Db].
Qed.
Lemma step_ok l ts r e : ordinary ts -> expr_step rec l ts = POk r e -> consistent types e -> accepted l ts e r.
Proof.
  assert (Hs : forall l, shr (rec l)) by (intros; apply strict_shr, rec_strict).
  intros O E C. destruct l; cbn [expr_step] in E;
    [now apply factor_ok|now apply prec1_ok|now apply prec2_ok|..|now apply prec13_ok|now apply prec14_ok];
    (eapply left_ok; [reflexivity| |intros ? ? ?; apply (ops_inv (binary_operators _))| |exact O|exact E|exact C];
     [apply Hs|intros ts0 r0 e0 O0 E0 C0; exact (rec_ok _ _ _ _ O0 E0 C0)]).
Qed.
End Level.

Theorem pexpr_ok n l ts r e : ordinary ts -> pexpr n l ts = POk r e -> consistent types e -> accepted l ts e r.
Proof.
  revert l ts r e. induction n as [|n IH]; intros l ts r e O E C; [discriminate|]. cbn [pexpr] in E.
  eapply step_ok; [exact IH|intro; apply strict_pexpr|exact O|exact E|exact C].
Qed.
Theorem expr_ok ts r e : ordinary ts -> expr_parse ts = POk r e -> consistent types e -> derives types false Assignment ts e r.
Proof. intros O E C. now apply (pexpr_ok _ LPrec14) in E as (E & _). Qed.
End A.
