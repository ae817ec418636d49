(** C57: types given as text. *)
From Verif Require Import Base Utf Lex LexFloat LexFacts Token Ast Nom NomFacts ParseTok ParseFacts SpecType StrFacts PropType SpecTypeText.
From Coq Require Import String List Lia PeanoNat Permutation Bool NArith.
Import ListNotations.
Local Open Scope string_scope.
Local Open Scope list_scope.

Section P.
Context `{Unicode}.

(** ** Words *)

Definition spaced (s : str) : str := flat_map (fun c => if N.eqb c 42 then st " * " else [c]) s.

Lemma white_not_star c : is_white c = true -> N.eqb c 42 = false.
Proof. intros Hc. apply N.eqb_neq. intros ->. discriminate Hc. Qed.

Lemma split_word w : Forall word_char w -> forall cur s, split_ws_aux cur (spaced (w ++ s)) = split_ws_aux (rev w ++ cur) (spaced s).
Proof.
  induction 1 as [|c w [Hc Hs] Hw IH]; intros cur s; auto.
  unfold star in Hs. cbn [app spaced flat_map]. rewrite (proj2 (N.eqb_neq _ _) Hs). cbn [app split_ws_aux]. rewrite Hc.
  change (flat_map _ (w ++ s)) with (spaced (w ++ s)). rewrite IH. cbn [rev]. now rewrite <- app_assoc.
Qed.
Lemma split_end cur s : cur <> [] -> word_ends s -> split_ws_aux cur (spaced s) = rev cur :: split_ws_aux [] (spaced s).
Proof.
  intros Hc He. destruct s as [|c s].
  - simpl. destruct cur; [contradiction|reflexivity].
  - cbn [spaced flat_map]. destruct He as [Hw| ->].
    + rewrite white_not_star by auto. cbn [app split_ws_aux]. rewrite Hw. destruct cur; [contradiction|reflexivity].
    + cbn. destruct cur; [contradiction|reflexivity].
Qed.
Lemma split_star s : split_ws_aux [] (spaced (star :: s)) = [star] :: split_ws_aux [] (spaced s).
Proof. reflexivity. Qed.

Lemma written_split s ws : written s ws -> split_whitespace (spaced s) = ws.
Proof.
  unfold split_whitespace. induction 1 as [|c s ws Hc Hw IH|s ws Hw IH|w s ws Hn Hf He Hw IH].
  - reflexivity.
  - cbn [spaced flat_map]. rewrite white_not_star by auto. cbn [app split_ws_aux]. now rewrite Hc.
  - rewrite split_star. now f_equal.
  - rewrite split_word by auto. rewrite app_nil_r. rewrite split_end; auto.
    + now rewrite rev_involutive, IH.
    + intros E. apply Hn. apply (f_equal (@rev N)) in E. now rewrite rev_involutive in E.
Qed.

(** Every text consists of words, in one way. *)
Lemma written_total s : exists ws, written s ws.
Proof.
  enough (G : forall n s, length s < n -> exists ws, written s ws) by (apply (G (S (length s))); lia).
  clear s. induction n as [|n IH]; intros s Hn; [lia|].
  destruct s as [|c s]; [exists []; constructor|]. simpl in Hn.
  destruct (is_white c) eqn:Hc. { destruct (IH s ltac:(lia)) as [ws Hw]. exists ws. now constructor. }
  destruct (N.eq_dec c star) as [->|Hs]. { destruct (IH s ltac:(lia)) as [ws Hw]. exists ([star] :: ws). now constructor. }
  assert (G : exists w r, c :: s = w ++ r /\ w <> [] /\ Forall word_char w /\ word_ends r).
  { clear -Hc Hs. revert c Hc Hs. induction s as [|d s IH]; intros c Hc Hs.
    - exists [c], []. split; [reflexivity|]. split; [discriminate|]. split; [constructor; [split|constructor]; auto|exact I].
    - destruct (is_white d) eqn:Hd; [|destruct (N.eq_dec d star) as [->|Hds]].
      + exists [c], (d :: s). split; [reflexivity|]. split; [discriminate|]. split; [constructor; [split|constructor]; auto|left; auto].
      + exists [c], (star :: s). split; [reflexivity|]. split; [discriminate|]. split; [constructor; [split|constructor]; auto|right; auto].
      + destruct (IH d Hd Hds) as (w & r & E & Hn & Hf & He). exists (c :: w), r. rewrite E.
        split; [reflexivity|]. split; [discriminate|]. split; [constructor; [split|]; auto|exact He]. }
  destruct G as (w & r & E & Hw & Hf & He). rewrite E.
  assert (Hl : length r < n). { apply (f_equal (@length N)) in E. rewrite app_length in E. simpl in E. destruct w; [contradiction|]. simpl in E. lia. }
  destruct (IH r Hl) as [ws Hws]. exists (w :: ws). now constructor.
Qed.
Lemma written_unique s ws ws' : written s ws -> written s ws' -> ws = ws'.
Proof. intros H1 H2. apply written_split in H1. apply written_split in H2. congruence. Qed.

Definition words_tokens : list str -> option (list mtoken) :=
  fix words l := match l with
    | [] => Some []
    | w :: l' => t <-? type_word w ;; ts <-? words l' ;; Some (t :: ts)
    end.
Lemma words_cons w l : words_tokens (w :: l) = (t <-? type_word w ;; ts <-? words_tokens l ;; Some (t :: ts)).
Proof. reflexivity. Qed.
Lemma from_str_words s ws : written s ws -> type_from_str s =
  (ts <-? words_tokens ws ;; match type_parse ts with POk _ t => ty_to_static t | _ => None end).
Proof.
  intros Hw. apply written_split in Hw. unfold type_from_str. unfold spaced in Hw. cbv zeta. rewrite Hw. reflexivity.
Qed.
Lemma words_app a b ta tb : words_tokens a = Some ta -> words_tokens b = Some tb -> words_tokens (a ++ b) = Some (ta ++ tb).
Proof.
  revert ta. induction a as [|w a IH]; intros ta Ha Hb; simpl in *.
  - injection Ha as <-. exact Hb.
  - destruct (type_word w); simpl in *; [|discriminate]. destruct (words_tokens a) as [t|]; simpl in *; [|discriminate].
    injection Ha as <-. rewrite (IH t eq_refl Hb). reflexivity.
Qed.
Lemma word_ident w : is_identifier w = true -> type_word w = Some (MIdent w).
Proof. intros Hw. unfold type_word. now rewrite identifier_try_from_id. Qed.
Lemma word_star : type_word [star] = Some (MPunct (st "*")).
Proof. reflexivity. Qed.
Lemma words_quals q : words_tokens (quals_words q) = Some (quals_tokens q).
Proof. destruct q; reflexivity. Qed.
Definition ptr_of (q : quals) : list str * quals := ([], q).
Lemma words_stars qs : words_tokens (concat (map star_words qs)) = Some (stars (map ptr_of qs)).
Proof.
  induction qs as [|q qs IH]; [reflexivity|].
  change (concat (map star_words (q :: qs))) with ([[star]] ++ quals_words q ++ concat (map star_words qs)).
  change (stars (map ptr_of (q :: qs))) with ([MPunct (st "*")] ++ quals_tokens q ++ stars (map ptr_of qs)).
  apply words_app; [reflexivity|]. apply words_app; auto. apply words_quals.
Qed.
Lemma words_kws ws b : spells ws b -> words_tokens (map st ws) = Some (map kw ws).
Proof.
  intros (l & Hl & Hp).
  assert (Hf : Forall (fun w => is_identifier (st w) = true) ws).
  { apply Forall_forall. intros w Hw. eapply Permutation_in in Hw; [|exact Hp].
    unfold c_types in Hl.
    repeat (destruct Hl as [Hl|Hl]; [injection Hl as <- <-; repeat (destruct Hw as [<-|Hw]; [reflexivity|]); contradiction|]).
    contradiction. }
  clear -Hf. induction Hf as [|w ws Hw Hf IH]; [reflexivity|]. rewrite !map_cons, words_cons, word_ident by auto. cbn [obind]. rewrite IH. reflexivity.
Qed.

Lemma static_qualified c v t t' : ty_to_static t = Some t' -> ty_to_static (qualified c v t) = Some (qualified c v t').
Proof. intros E. destruct c, v; cbn; rewrite ?E; auto. Qed.
Lemma static_points qs : forall t, ty_to_static t = Some t -> 
  ty_to_static (fold_left point (map ptr_of qs) t) = Some (fold_left point_q qs t).
Proof.
  induction qs as [|q qs IH]; intros t Ht; cbn; auto.
  change (point t (ptr_of q)) with (point_q t q). apply IH. unfold point_q. apply static_qualified. simpl. now rewrite Ht.
Qed.

(** ** C57 *)

(** The full statement is that exactly the texts that are type names of C are
    accepted, with the type they name.  Missing: the spellings C42 refutes, and
    that nothing else is accepted (C57_rest_refuted). *)
Theorem C57_builtin_partial s ws b pre post ptrs :
  spells ws b -> sign_first ws = true ->
  has_volatile pre && has_volatile post = false ->
  written s (quals_words pre ++ map st ws ++ quals_words post ++ concat (map star_words ptrs)) ->
  type_from_str s = Some (fold_left point_q ptrs
    (qualified (has_const pre || has_const post) (has_volatile pre || has_volatile post) (TyBuiltIn b))).
Proof.
  intros Hsp Hs Hv Hw. rewrite (from_str_words _ _ Hw).
  rewrite (words_app _ _ (quals_tokens pre) (map kw ws ++ quals_tokens post ++ stars (map ptr_of ptrs))).
  2: apply words_quals.
  2: { apply words_app; [eapply words_kws; eauto|]. apply words_app; [apply words_quals|apply words_stars]. }
  cbn [obind].
  pose proof (C42_types_partial ws b pre post (map ptr_of ptrs) [] Hsp Hs Hv I) as E. rewrite app_nil_r in E.
  unfold stars. rewrite E. apply static_points. now apply static_qualified.
Qed.

(** ** Names of user-defined types *)

(** [t] is no type keyword (and not [struct]). *)
Definition no_keyword (t : mtoken) : Prop := forall k r, In k ("struct" :: type_keywords) -> keyword k (t :: r) = PErr.

Lemma cv_none t r : no_keyword t -> popt const_volatile_qualifier (t :: r) = POk (t :: r) None.
Proof. intros Hn. apply (cv_tokens QNone); apply Hn; simpl; tauto. Qed.

Lemma not_builtin ts t r q :
  popt const_volatile_qualifier ts = POk (t :: r) q ->
  (forall k, In k type_keywords -> keyword k (t :: r) = PErr) ->
  ty_simple ts = PErr /\ int_ty ts = PErr.
Proof.
  intros Hcv K.
  pose proof (K "void" ltac:(simpl; tauto)) as K1. pose proof (K "bool" ltac:(simpl; tauto)) as K2.
  pose proof (K "float" ltac:(simpl; tauto)) as K3. pose proof (K "double" ltac:(simpl; tauto)) as K4.
  pose proof (K "long" ltac:(simpl; tauto)) as K5. pose proof (K "short" ltac:(simpl; tauto)) as K6.
  pose proof (K "int" ltac:(simpl; tauto)) as K7. pose proof (K "char" ltac:(simpl; tauto)) as K8.
  pose proof (K "signed" ltac:(simpl; tauto)) as K9. pose proof (K "unsigned" ltac:(simpl; tauto)) as K10.
  assert (Hno : popt const_volatile_qualifier (t :: r) = POk (t :: r) None).
  { apply (cv_tokens QNone); apply K; simpl; tauto. }
  clear K.
  unfold int_ty, ty_simple, int_ty_long_long, int_ty_length, int_ty_plain, int_signedness, int_length.
  split;
  repeat first
    [ progress (cbv beta iota zeta delta [palts palt pvalue pmap ppair terminated pbind permutation perm_loop perm_try map length forallb fst snd andb pret pfail])
    | rewrite Hcv | rewrite Hno
    | rewrite K1 | rewrite K2 | rewrite K3 | rewrite K4 | rewrite K5 | rewrite K6 | rewrite K7 | rewrite K8 | rewrite K9 | rewrite K10
    | match goal with |- context [popt ?p ?t] =>
        lazymatch p with const_volatile_qualifier => fail | _ => change (popt p t) with (match p t with POk r a => POk r (Some a) | PErr => POk t None | PFuel => PFuel end) end end ];
  reflexivity.
Qed.

(** The tokens of a name: [struct] or nothing, then an identifier or a parameter
    of the macro. *)
Definition name_tokens (s : bool) (t : mtoken) : list mtoken := (if s then [kw "struct"] else []) ++ [t].
Definition name_of (t : mtoken) : option ident_expr :=
  match t with MIdent n => Some (IPlain n) | MArg i => Some (IArg i) | _ => None end.
(** Not the operator that would continue the name. *)
Definition no_paste (rest : list mtoken) : Prop := match rest with MPunct p :: _ => p <> st "##" | _ => True end.

Lemma no_paste_alone i rest n t : name_of t = Some n -> no_paste rest -> (forall c r, rest <> MComment c :: r) ->
  i = n -> parse_concat_ident (t :: rest) = POk rest i.
Proof.
  intros Hn Hp Hc ->. unfold parse_concat_ident, pbind.
  assert (E : palt (pmap IArg macro_arg) (pmap IPlain macro_id) (t :: rest) = POk rest n)
    by (destruct t; try discriminate; injection Hn as <-; reflexivity).
  rewrite E. unfold fold_many0. set (f := S (length rest)). 
  assert (Hf : exists f', f = S f') by (eexists; reflexivity). destruct Hf as [f' ->]. cbn [fold_many0_n].
  assert (E2 : preceded (delimited meta (punct "##") meta)
      (palts [pmap (fun a => [IpArg a]) macro_arg; pmap (fun s => [IpPlain s]) macro_id;
              pmap_opt (fun t => match t with MIdCont s => split_id_cont s | _ => None end) take_one]) rest = PErr).
  { unfold preceded, delimited, pbind. pose proof (meta_comments [] rest Hc) as Em. cbn [map app] in Em. rewrite Em.
    destruct rest as [|[j|id|u|l|p|c] rest]; try reflexivity.
    unfold punct, pmap_opt, pbind. cbv beta iota delta [take_one].
    destruct (str_eqb (st "##") p) eqn:Ep; [|reflexivity]. apply str_eqb_eq in Ep. subst p. now elim Hp. }
  rewrite E2. reflexivity.
Qed.

Theorem C57_named_tokens pre post sw t n ps rest :
  name_of t = Some n -> no_keyword t ->
  has_volatile pre && has_volatile post = false ->
  ends_type rest -> (post = QNone -> ps = [] -> no_paste rest) ->
  type_parse (quals_tokens pre ++ name_tokens sw t ++ quals_tokens post ++ concat (map star_tokens ps) ++ rest) =
  POk rest (fold_left point ps
    (qualified (has_const pre || has_const post) (has_volatile pre || has_volatile post) (TyIdent n sw))).
Proof.
  intros Hn Hk Hv He Hp.
  pose proof (stops_stars ps rest He) as Hst. fold (stars ps).
  assert (Hpost : popt const_volatile_qualifier (quals_tokens post ++ stars ps ++ rest) = POk (stars ps ++ rest) (qopt post)).
  { apply cv_tokens; apply Hst; simpl; tauto. }
  set (tail := quals_tokens post ++ stars ps ++ rest) in *.
  assert (Hfirst : exists t0 r0, name_tokens sw t ++ tail = t0 :: r0 /\ forall k, In k type_keywords -> keyword k (t0 :: r0) = PErr).
  { destruct sw.
    - exists (kw "struct"), (t :: tail). split; [reflexivity|]. intros k Hin. apply kw_miss. simpl in Hin.
      repeat (destruct Hin as [<-|Hin]; [reflexivity|]). contradiction.
    - exists t, tail. split; [reflexivity|]. intros k Hin. apply Hk. now right. }
  assert (Hpre : popt const_volatile_qualifier (quals_tokens pre ++ name_tokens sw t ++ tail) = POk (name_tokens sw t ++ tail) (qopt pre)).
  { destruct Hfirst as (t0 & r0 & E & K). rewrite E. apply cv_tokens; apply K; simpl; tauto. }
  unfold type_parse, pbind, ppair, pbind.
  assert (Hname : parse_concat_ident (t :: tail) = POk tail n).
  { apply no_paste_alone with (n := n); auto.
    - subst tail. destruct post; cbn [quals_tokens app]; try exact I. destruct ps as [|p ps]; [|cbn; discriminate]. now apply Hp.
    - intros c r. subst tail. apply after_quals_not_comment. exact He. }
  assert (Hbase : ty_base (quals_tokens pre ++ name_tokens sw t ++ tail) = POk tail (ty_qualify_opt (TyIdent n sw) (qopt pre))).
  { destruct Hfirst as (t0 & r0 & E & K).
    destruct (not_builtin _ _ _ _ (eq_trans Hpre (f_equal (fun x => POk x (qopt pre)) E)) K) as [E1 E2].
    unfold ty_base. cbn [palts]. unfold palt. rewrite E1, E2. unfold ty_ident, pbind. rewrite Hpre.
    destruct sw; cbn [name_tokens app].
    - unfold popt. rewrite kw_hit. rewrite Hname. reflexivity.
    - unfold popt. rewrite Hk by (now left). rewrite Hname. reflexivity. }
  rewrite Hbase, Hpost. unfold pret. cbn [fst snd]. unfold fold_many0. fold star_parser.
  rewrite fold_stars by (auto; lia). do 2 f_equal. destruct pre, post; try reflexivity; discriminate.
Qed.

Definition name_words (s : bool) (n : str) : list str := (if s then [st "struct"] else []) ++ [n].

Lemma type_name_no_keyword n : type_name n -> no_keyword (MIdent n).
Proof.
  intros [_ Hn] k r Hk. unfold keyword, Nom.id, pmap_opt, pbind. simpl.
  destruct (str_eqb n (st k)) eqn:E; auto. apply str_eqb_eq in E. subst n. elim Hn. now apply in_map.
Qed.

Theorem C57_named_partial s sw n pre post ptrs :
  type_name n ->
  has_volatile pre && has_volatile post = false ->
  written s (quals_words pre ++ name_words sw n ++ quals_words post ++ concat (map star_words ptrs)) ->
  type_from_str s = Some (fold_left point_q ptrs
    (qualified (has_const pre || has_const post) (has_volatile pre || has_volatile post) (TyIdent (IPlain n) sw))).
Proof.
  intros Hn Hv Hw. rewrite (from_str_words _ _ Hw).
  rewrite (words_app _ _ (quals_tokens pre) (name_tokens sw (MIdent n) ++ quals_tokens post ++ stars (map ptr_of ptrs))).
  2: apply words_quals.
  2: { apply words_app.
       - unfold name_words, name_tokens. apply words_app; [destruct sw; reflexivity|].
         rewrite words_cons, word_ident by apply Hn. reflexivity.
       - apply words_app; [apply words_quals|apply words_stars]. }
  cbn [obind].
  pose proof (C57_named_tokens pre post sw (MIdent n) (IPlain n) (map ptr_of ptrs) [] eq_refl (type_name_no_keyword n Hn) Hv I (fun _ _ => I)) as E.
  rewrite app_nil_r in E. unfold stars. rewrite E. apply static_points. now apply static_qualified.
Qed.

(** A text with a word that is no identifier and no punctuator is refused, and so
    is a text without words. *)
Theorem C57_bad_word s ws w :
  written s ws -> In w ws -> identifier_try_from w = None -> punct_try_from w = None -> type_from_str s = None.
Proof.
  intros Hw Hin Hi Hp. rewrite (from_str_words _ _ Hw).
  enough (words_tokens ws = None) as -> by reflexivity.
  clear Hw. induction ws as [|w' ws IH]; [contradiction|]. destruct Hin as [<-|Hin].
  - cbn. unfold type_word. now rewrite Hi, Hp.
  - rewrite words_cons. destruct (type_word w'); auto. cbn [obind]. now rewrite IH.
Qed.
Theorem C57_blank s : Forall (fun c => is_white c = true) s -> type_from_str s = None.
Proof.
  intros Hf. assert (Hw : written s []) by (induction Hf; constructor; auto). now rewrite (from_str_words _ _ Hw).
Qed.

(** What follows the type is ignored, and what stands between type keywords can
    hide them: none of these texts is a type name of C. *)
Theorem C57_rest_refuted :
  type_from_str (st "int garbage") = Some (TyBuiltIn BInt) /\
  type_from_str (st "char ) ) foo") = Some (TyBuiltIn BChar) /\
  type_from_str (st "float * + int") = Some (TyPtr (TyBuiltIn BFloat)) /\
  type_from_str (st "char unsigned") = Some (TyBuiltIn BChar) /\
  type_from_str (st "unsigned") = Some (TyIdent (IPlain (st "unsigned")) false) /\
  type_from_str (st "volatile int volatile") = Some (TyQual (TyBuiltIn BInt) QConst).
Proof. repeat split; vm_compute; reflexivity. Qed.

End P.

(** Cases that meet the hypotheses. *)
Example C57_case_builtin :
  written (st " const unsigned  long*volatile* ")
    (quals_words QC ++ map st ["unsigned"; "long"] ++ quals_words QNone ++ concat (map star_words [QV; QNone])).
Proof.
  apply w_space; [reflexivity|].
  apply (w_word (st "const")); [discriminate|repeat constructor; discriminate|left; reflexivity|].
  apply w_space; [reflexivity|].
  apply (w_word (st "unsigned")); [discriminate|repeat constructor; discriminate|left; reflexivity|].
  apply w_space; [reflexivity|]. apply w_space; [reflexivity|].
  apply (w_word (st "long")); [discriminate|repeat constructor; discriminate|right; reflexivity|].
  apply w_star. apply (w_word (st "volatile")); [discriminate|repeat constructor; discriminate|right; reflexivity|].
  apply w_star. apply w_space; [reflexivity|]. constructor.
Qed.
Example C57_case_named :
  @type_name demo_unicode (st "foo_t") /\
  written (st "struct foo_t*") (quals_words QNone ++ name_words true (st "foo_t") ++ quals_words QNone ++ concat (map star_words [QNone])) /\
  @type_from_str demo_unicode (st "struct foo_t*") = Some (TyPtr (TyIdent (IPlain (st "foo_t")) true)).
Proof.
  repeat split; try (vm_compute; reflexivity).
  - vm_compute. intuition discriminate.
  - apply (w_word (st "struct")); [discriminate|repeat constructor; discriminate|left; reflexivity|].
    apply w_space; [reflexivity|].
    apply (w_word (st "foo_t")); [discriminate|repeat constructor; discriminate|right; reflexivity|].
    apply w_star. constructor.
Qed.

Print Assumptions C57_builtin_partial.
Print Assumptions C57_named_tokens.
Print Assumptions C57_named_partial.
Print Assumptions C57_bad_word.
Print Assumptions C57_blank.
Print Assumptions C57_rest_refuted.
