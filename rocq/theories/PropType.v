(** C42: type names. *)
From Verif Require Import Base Utf Lex LexFloat Token Ast Nom NomFacts ParseTok ParseFacts SpecType StrFacts.
From Coq Require Import String List Lia PeanoNat Permutation Bool.
Import ListNotations.
Local Open Scope string_scope.
Local Open Scope list_scope.

(** All permutations of a list. *)
Fixpoint inserts {A} (x : A) (l : list A) : list (list A) :=
  match l with [] => [[x]] | y :: l' => (x :: y :: l') :: map (cons y) (inserts x l') end.
Fixpoint perms {A} (l : list A) : list (list A) :=
  match l with [] => [[]] | x :: l' => flat_map (inserts x) (perms l') end.
Lemma inserts_mid {A} (x : A) a b : In (a ++ x :: b) (inserts x (a ++ b)).
Proof.
  induction a as [|y a IH]; simpl.
  - destruct b; simpl; auto.
  - right. now apply in_map.
Qed.
Lemma perms_complete {A} (l l' : list A) : Permutation l l' -> In l (perms l').
Proof.
  revert l. induction l' as [|x l' IH]; intros l Hp.
  - apply Permutation_sym, Permutation_nil in Hp as ->. simpl. auto.
  - assert (Hx : In x l) by (eapply Permutation_in; [apply Permutation_sym; exact Hp|left; auto]).
    apply in_split in Hx as (a & b & ->). simpl. apply in_flat_map. exists (a ++ b). split.
    + apply IH. apply Permutation_cons_inv with x. eapply Permutation_trans; [|exact Hp]. apply Permutation_middle.
    + apply inserts_mid.
Qed.

Section P.
Context `{Unicode}.

Lemma kw_hit w r : keyword w (kw w :: r) = POk r (st w).
Proof. unfold keyword, id, pmap_opt, pbind, kw. simpl. now rewrite (proj2 (str_eqb_eq _ _) eq_refl). Qed.
Lemma kw_miss k w r : str_eqb (st w) (st k) = false -> keyword k (kw w :: r) = PErr.
Proof. intros E. unfold keyword, id, pmap_opt, pbind, kw. simpl. now rewrite E. Qed.

(** No type keyword starts [ts]. *)
Definition stops (ts : list mtoken) : Prop := forall k, In k type_keywords -> keyword k ts = PErr.

Lemma cv_tokens q ts : keyword "const" ts = PErr -> keyword "volatile" ts = PErr ->
  popt const_volatile_qualifier (quals_tokens q ++ ts) =
  POk ts (match q with QNone => None | QC => Some QConst | QV => Some QVolatile | _ => Some QConstVolatile end).
Proof.
  intros Hc Hv. destruct q; cbn [quals_tokens app];
  cbv [popt const_volatile_qualifier palts palt pvalue pbind permutation perm_loop perm_try map length forallb fst andb pret pfail];
  repeat first [rewrite kw_hit | rewrite kw_miss by reflexivity | rewrite Hc | rewrite Hv]; reflexivity.
Qed.


Definition accepted : list (list string * builtin) :=
  flat_map (fun x => map (fun w => (w, snd x)) (nodup (list_eq_dec string_dec) (filter sign_first (perms (fst x))))) c_types.
Lemma spells_accepted ws b : spells ws b -> sign_first ws = true -> In (ws, b) accepted.
Proof.
  intros (l & Hl & Hp) Hs. unfold accepted. apply in_flat_map. exists (l, b). split; auto.
  apply in_map_iff. exists ws. split; auto. apply nodup_In, filter_In. split; auto. now apply perms_complete.
Qed.

(** The specifiers [ws] in an order the parser understands, after an optional
    qualifier. *)
Lemma base_type ws b ts q rest :
  In (ws, b) accepted ->
  popt const_volatile_qualifier ts = POk (map kw ws ++ rest) q ->
  (forall k, In k ["void"; "bool"; "float"; "double"; "long"; "short"; "int"; "char"; "signed"; "unsigned"] -> keyword k rest = PErr) ->
  (exists q2 r, popt const_volatile_qualifier rest = POk r q2 /\ keyword "double" r = PErr) ->
  ty_base ts = POk rest (ty_qualify_opt (TyBuiltIn b) q).
Proof.
  intros Hin Hcv K (q2 & r & Hcv2 & Hd).
  pose proof (K "void" ltac:(simpl; tauto)) as K1. pose proof (K "bool" ltac:(simpl; tauto)) as K2.
  pose proof (K "float" ltac:(simpl; tauto)) as K3. pose proof (K "double" ltac:(simpl; tauto)) as K4.
  pose proof (K "long" ltac:(simpl; tauto)) as K5. pose proof (K "short" ltac:(simpl; tauto)) as K6.
  pose proof (K "int" ltac:(simpl; tauto)) as K7. pose proof (K "char" ltac:(simpl; tauto)) as K8.
  pose proof (K "signed" ltac:(simpl; tauto)) as K9. pose proof (K "unsigned" ltac:(simpl; tauto)) as K10.
  clear K.
  assert (Hno : forall w r, str_eqb (st w) (st "const") = false -> str_eqb (st w) (st "volatile") = false ->
    popt const_volatile_qualifier (kw w :: r) = POk (kw w :: r) None).
  { intros w r0 Hw1 Hw2. apply (cv_tokens QNone); now apply kw_miss. }
  unfold accepted in Hin. vm_compute in Hin.
  repeat (destruct Hin as [Hin|Hin]); try contradiction; injection Hin as <- <-; cbn [map app] in Hcv;
  unfold ty_base, int_ty.
  all: let run := (
    unfold ty_simple, int_ty_long_long, int_ty_length, int_ty_plain, int_signedness, int_length;
    repeat first
    [ progress (cbv beta iota zeta delta [palts palt pvalue pmap ppair terminated pbind permutation perm_loop perm_try map length forallb fst snd andb pret pfail])
    | rewrite Hcv | rewrite Hcv2 | rewrite Hd | rewrite kw_hit | rewrite kw_miss by reflexivity | rewrite Hno by reflexivity
    | rewrite K1 | rewrite K2 | rewrite K3 | rewrite K4 | rewrite K5 | rewrite K6 | rewrite K7 | rewrite K8 | rewrite K9 | rewrite K10
    | match goal with |- context [popt ?p ?t] =>
        lazymatch p with const_volatile_qualifier => fail | _ => change (popt p t) with (match p t with POk r a => POk r (Some a) | PErr => POk t None | PFuel => PFuel end) end end ]) in
    let E1 := fresh in let E2 := fresh in let E3 := fresh in let E4 := fresh in
    eassert (E1 : ty_simple ts = _) by (run; reflexivity);
    cbv beta iota zeta delta [palts palt]; rewrite E1; try reflexivity;
    eassert (E2 : int_ty_long_long ts = _) by (run; reflexivity); rewrite E2; try reflexivity;
    eassert (E3 : int_ty_length ts = _) by (run; reflexivity); rewrite E3; try reflexivity;
    eassert (E4 : int_ty_plain ts = _) by (run; reflexivity); rewrite E4; reflexivity.
Qed.
(** ** Pointers *)

Definition stars (ps : list (list str * quals)) : list mtoken := concat (map star_tokens ps).

Lemma kw_not k p r : keyword k (MPunct p :: r) = PErr.
Proof. reflexivity. Qed.
Lemma clean_stops rest : ends_type rest -> stops rest.
Proof.
  intros He k Hk. destruct rest as [|[i|id|s|l|p|c] rest]; try reflexivity.
  unfold keyword, Nom.id, pmap_opt, pbind. simpl.
  destruct (str_eqb id (st k)) eqn:E; auto. exfalso. apply str_eqb_eq in E. subst id.
  apply He. apply in_map. exact Hk.
Qed.
Lemma meta_comments cs r : (forall c r', r <> MComment c :: r') -> meta (map MComment cs ++ r) = POk r cs.
Proof.
  intros Hr. unfold meta, many0, fold_many0.
  enough (G : forall n acc, length (map MComment cs ++ r) < n ->
    fold_many0_n n comment (fun acc x => acc ++ [x]) acc (map MComment cs ++ r) = POk r (acc ++ cs)) by (apply (G _ []); lia).
  induction cs as [|c cs IH]; intros n acc Hn; destruct n as [|n]; try lia.
  - cbn [map app]. simpl. rewrite app_nil_r.
    destruct r as [|[i|id|s|l|p|c] r]; try reflexivity. exfalso. now apply (Hr c r).
  - cbn [map app fold_many0_n]. unfold comment, pmap_opt, pbind. cbn.
    replace (length (map MComment cs ++ r) =? S (length (map MComment cs ++ r)))%nat with false
      by (symmetry; apply Nat.eqb_neq; lia).
    change (pmap_opt _ take_one) with comment. rewrite IH by (simpl in Hn; lia). now rewrite <- app_assoc.
Qed.

Definition qopt (q : quals) : option tyqual :=
  match q with QNone => None | QC => Some QConst | QV => Some QVolatile | _ => Some QConstVolatile end.

Lemma after_quals_not_comment ps rest : ends_type rest -> forall q c r', quals_tokens q ++ stars ps ++ rest <> MComment c :: r'.
Proof.
  intros He q c r'. destruct q; try discriminate. cbn [quals_tokens app].
  destruct ps as [|p ps]; [|discriminate]. simpl. destruct rest as [|[i|id|s|l|p|c'] rest]; try discriminate. contradiction.
Qed.
Lemma stops_stars ps rest : ends_type rest -> stops (stars ps ++ rest).
Proof.
  intros He. destruct ps as [|p ps]; [now apply clean_stops|]. intros k _. reflexivity.
Qed.

Definition star_parser := preceded (ppair (punct "*") meta) (popt const_volatile_qualifier).
Lemma star_ok p ps rest : ends_type rest -> star_parser (stars (p :: ps) ++ rest) = POk (stars ps ++ rest) (qopt (snd p)).
Proof.
  intros He. destruct p as [cs q].
  assert (E : stars ((cs, q) :: ps) ++ rest = MPunct (st "*") :: map MComment cs ++ quals_tokens q ++ stars ps ++ rest).
  { unfold stars. cbn [map concat]. unfold star_tokens at 1. cbn [fst snd]. cbn [app]. now rewrite <- !app_assoc. }
  rewrite E. unfold star_parser, preceded, ppair, pbind.
  replace (punct "*" (MPunct (st "*") :: map MComment cs ++ quals_tokens q ++ stars ps ++ rest))
    with (POk (map MComment cs ++ quals_tokens q ++ stars ps ++ rest) (st "*")) by reflexivity.
  rewrite meta_comments by (intros c r'; apply (after_quals_not_comment ps); auto).
  pose proof (stops_stars ps rest He) as Hs.
  unfold pret. rewrite cv_tokens; [reflexivity| |]; apply Hs; simpl; tauto.
Qed.
Lemma star_end rest : ends_type rest -> star_parser rest = PErr.
Proof.
  intros He. unfold star_parser, preceded, ppair, pbind, punct, pmap_opt.
  destruct rest as [|[i|id|s|l|p|c] rest]; try reflexivity. 
  unfold pbind. cbv beta iota delta [take_one].
  destruct (str_eqb (st "*") p) eqn:E; [|reflexivity]. apply str_eqb_eq in E. subst p. exfalso. now apply He.
Qed.
Lemma fold_stars ps rest : ends_type rest -> forall n acc, length (stars ps ++ rest) < n ->
  fold_many0_n n star_parser (fun acc q => ty_qualify_opt (TyPtr acc) q) acc (stars ps ++ rest) =
  POk rest (fold_left point ps acc).
Proof.
  intros He. induction ps as [|p ps IH]; intros n acc Hn; (destruct n as [|n]; [lia|]); cbn [fold_many0_n].
  - cbn. now rewrite star_end.
  - rewrite star_ok by exact He.
    assert (Hl : length (stars ps ++ rest) < length (stars (p :: ps) ++ rest)).
    { unfold stars, star_tokens. cbn [map concat]. cbn [app length]. rewrite !app_length. lia. }
    rewrite (proj2 (Nat.eqb_neq _ _)) by lia. rewrite IH by lia. cbn [fold_left]. do 2 f_equal.
    destruct p as [cs q]. unfold point. cbn [snd]. destruct q; reflexivity.
Qed.

(** ** C42 *)

(** The full statement lets the specifiers [ws] occur in any order, with
    qualifiers between them, and covers a signedness keyword alone and doubled
    volatile; these fail (see the refutations below).  Proved: every type of the
    table in every order in which the signedness comes first and is not alone
    and [double] is not before [long], with qualifiers before and after it, and
    any pointer declarator with comments and qualifiers after each star; the
    type is consumed exactly. *)
Theorem C42_types_partial ws b pre post ps rest :
  spells ws b -> sign_first ws = true ->
  has_volatile pre && has_volatile post = false ->
  ends_type rest ->
  type_parse (quals_tokens pre ++ map kw ws ++ quals_tokens post ++ concat (map star_tokens ps) ++ rest) =
  POk rest (fold_left point ps
    (qualified (has_const pre || has_const post) (has_volatile pre || has_volatile post) (TyBuiltIn b))).
Proof.
  intros Hsp Hs Hv He. pose proof (spells_accepted _ _ Hsp Hs) as Hin.
  pose proof (stops_stars ps rest He) as Hst. fold (stars ps).
  assert (Hpost : popt const_volatile_qualifier (quals_tokens post ++ stars ps ++ rest) = POk (stars ps ++ rest) (qopt post)).
  { apply cv_tokens; apply Hst; simpl; tauto. }
  assert (Hpre : popt const_volatile_qualifier (quals_tokens pre ++ map kw ws ++ quals_tokens post ++ stars ps ++ rest) =
    POk (map kw ws ++ quals_tokens post ++ stars ps ++ rest) (qopt pre)).
  { apply cv_tokens.
    all: assert (Hw : exists w ws', ws = w :: ws' /\ str_eqb (st w) (st "const") = false /\ str_eqb (st w) (st "volatile") = false)
      by (clear -Hin; unfold accepted in Hin; vm_compute in Hin; repeat (destruct Hin as [Hin|Hin]); try contradiction;
          injection Hin as <- <-; (do 2 eexists); repeat split).
    all: destruct Hw as (w & ws' & -> & Hc & Hvo); apply kw_miss; assumption. }
  unfold type_parse, pbind, ppair, pbind.
  rewrite (base_type ws b _ (qopt pre) (quals_tokens post ++ stars ps ++ rest) Hin Hpre).
  - rewrite Hpost. unfold pret. cbn [fst snd]. unfold fold_many0. fold star_parser.
    rewrite fold_stars by (auto; lia). do 2 f_equal. destruct pre, post; try reflexivity; discriminate.
  - intros k Hk. destruct post; cbn [quals_tokens app].
    { apply Hst. simpl in *. tauto. }
    all: simpl in Hk; repeat (destruct Hk as [<-|Hk]); try contradiction; reflexivity.
  - exists (qopt post), (stars ps ++ rest). split; auto. apply Hst. simpl. tauto.
Qed.

(** The orders that are not understood: the type that is read and the tokens
    that are left over. *)
Theorem C42_order_refuted :
  spells ["long"; "unsigned"; "int"] BULong /\
  type_parse (map kw ["long"; "unsigned"; "int"]) = POk (map kw ["unsigned"; "int"]) (TyBuiltIn BLong) /\
  spells ["char"; "unsigned"] BUChar /\
  type_parse (map kw ["char"; "unsigned"]) = POk [kw "unsigned"] (TyBuiltIn BChar) /\
  spells ["double"; "long"] BLongDouble /\
  type_parse (map kw ["double"; "long"]) = POk [kw "long"] (TyBuiltIn BDouble).
Proof.
  repeat match goal with |- _ /\ _ => split end; try (vm_compute; reflexivity).
  - exists ["unsigned"; "long"; "int"]. split; [vm_compute; tauto|]. apply perm_swap.
  - exists ["unsigned"; "char"]. split; [vm_compute; tauto|]. apply perm_swap.
  - exists ["long"; "double"]. split; [vm_compute; tauto|]. apply perm_swap.
Qed.
(** A signedness keyword alone is read as the name of a user-defined type. *)
Theorem C42_sign_alone_refuted :
  spells ["unsigned"] BUInt /\ type_parse [kw "unsigned"] = POk [] (TyIdent (IPlain (st "unsigned")) false) /\
  spells ["signed"] BInt /\ type_parse [kw "signed"] = POk [] (TyIdent (IPlain (st "signed")) false).
Proof.
  repeat match goal with |- _ /\ _ => split end; try (vm_compute; reflexivity).
  - exists ["unsigned"]. split; [vm_compute; tauto|auto].
  - exists ["signed"]. split; [vm_compute; tauto|auto].
Qed.
(** A qualifier between the specifiers, or a repeated one, is not understood. *)
Theorem C42_inner_qualifier_refuted :
  type_parse (map kw ["unsigned"; "const"; "int"]) = POk [kw "int"] (TyQual (TyIdent (IPlain (st "unsigned")) false) QConst) /\
  type_parse (map kw ["const"; "const"; "int"]) = POk [kw "int"] (TyQual (TyIdent (IPlain (st "const")) false) QConst).
Proof. split; vm_compute; reflexivity. Qed.

End P.

(** A case that meets the hypotheses: [const unsigned long int long volatile
    * const (comment) * )]. *)
Example C42_ex :
  spells ["unsigned"; "long"; "int"; "long"] BULongLong /\
  sign_first ["unsigned"; "long"; "int"; "long"] = true /\
  has_volatile QC && has_volatile QV = false /\
  ends_type [MPunct (st ")")] /\
  @type_parse demo_unicode (map kw ["const"; "unsigned"; "long"; "int"; "long"; "volatile"] ++
     [MPunct (st "*"); kw "const"; MPunct (st "*"); MComment (st " c "); MPunct (st ")")]) =
  POk [MPunct (st ")")] (TyPtr (TyQual (TyPtr (TyQual (TyBuiltIn BULongLong) QConstVolatile)) QConst)).
Proof.
  repeat match goal with |- _ /\ _ => split end; try (vm_compute; reflexivity).
  - exists ["unsigned"; "long"; "long"; "int"]. split; [vm_compute; tauto|]. apply perm_skip, perm_skip, perm_swap.
  - simpl. intros Hp. discriminate Hp.
Qed.

Print Assumptions C42_types_partial.
Print Assumptions C42_order_refuted.
Print Assumptions C42_sign_alone_refuted.
Print Assumptions C42_inner_qualifier_refuted.
