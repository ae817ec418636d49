(** C69: a function-like macro expanded by itself stands for its calls. *)
From Verif Require Import Base Utf Lex LexFloat Token MacroSet StrFacts LexFacts SpecSet SetFacts SpecCall CallFacts
  ExpandFacts ExpandInv TokenFacts SpecTokens ParamFacts SpecPaste PasteFacts SpecRescan SpecExpand ObjFacts FullFacts HideFacts PropObject PropTokens PropExpand PropComplete SelfFacts RenameFacts.
From Coq Require Import String Lia List.
Import ListNotations.
Local Open Scope list_scope.

(** ** What is claimed *)

(** The text of a call. *)
Fixpoint separated (args : list (list str)) : list str :=
  match args with
  | [] => []
  | [a] => a
  | a :: args' => a ++ st "," :: separated args'
  end.
Definition call_of (n : str) (args : list (list str)) : list str := n :: st "(" :: separated args ++ [st ")"].

(** The words that stand for the parameters in a replacement text. *)
Definition parameter_words (ids : list str) (variadic : bool) : list str := ids ++ (if variadic then [st "__VA_ARGS__"] else []).
(** Parameters replaced by what is given for them. *)
Definition filled_in (given : list (list mtoken)) (l : list mtoken) : list mtoken :=
  flat_map (fun t => match t with MArg i => nth i given [] | _ => [t] end) l.

Notation expansion_in h := (expansion token_concat stringify (macros h)).

Section S.
Context `{Unicode}.

(** No definition uses [#] or [##]. *)
Definition operator_free (h : list call) : Prop :=
  forall n d, defined (rev h) n = Some d -> no_operators (map from_str (match d with DVar b | DFn _ b => b end)).
(** Tokens that mean the same wherever they are put: brackets match, no comma is
    outside of brackets, they are not the parentheses of a call and there is no
    name of a macro in them that may still be replaced. *)
Definition stays (h : list call) (e : list token) : Prop :=
  e <> [] /\ argument e /\ ~ SpecExpand.starts_with e (TPunct (st "(")) /\ no_operators e /\
  forall id, In (TIdent id) e -> defined (rev h) id = None.
(** An argument [a] that is expanded to [e], delivered as [w]. *)
Definition given (h : list call) (a : list str) (e : list token) (w : list mtoken) : Prop :=
  argument (map from_str a) /\ ~ In (st "__VA_ARGS__") a /\ ~ In hashhash (map from_str a) /\
  expansion_in h [[]] (map from_str a) (ROk e) /\ stays h e /\ delivered (ROk e) = ROk w.

Definition fill (es : list (list token)) (i : nat) : list token := match nth_error es i with Some e => e | None => [TArg i] end.

Lemma quiet_run h id : defined (rev h) id = None -> quiet (run h) id.
Proof. intro D. pose proof (run_holds h id) as R. rewrite D in R. exact R. Qed.

Lemma given_ok h a e w : given h a e w -> Forall okb e.
Proof.
  intros (A & V & _ & X & (_ & _ & _ & [O1 O2] & _) & _).
  assert (Va : ~ In TVarArgs (map from_str a)) by now apply no_va_text.
  destruct (expansion_tidy h [[]] _ _ (tidy_text a Va) X) as [C Pl].
  assert (Id : Forall (thru idents_ok) e).
  { apply expansion_iff in X; [|apply run_excl|now apply clean_object]. destruct X as [_ [F X]]. specialize (X F (le_n F)).
    eapply macro_body_result; [apply idents_ok_closed| |apply from_str_wf|exact X]. intros s _. apply idents_ok_spell. }
  rewrite Forall_forall in *. intros t I. specialize (C t I). specialize (Pl t I). specialize (Id t I).
  destruct t as [u|i| |p|id|s|lt s|s|c|]; try exact Logic.I.
  - destruct C as [C _]. exact C.
  - split; intros ->; [now apply O1|now apply O2].
  - intros ->. cbn in Id. discriminate Id.
  - now destruct Pl.
Qed.
Lemma given_inert h a e w : given h a e w -> inert (run h) e.
Proof.
  intro G. pose proof (given_ok _ _ _ _ G) as O. destruct G as (_ & _ & _ & _ & (N & A & P & _ & Q) & _).
  split; [exact N|]. split; [exact A|]. split; [|split; [exact O|intros id I; apply quiet_run; auto]].
  destruct e as [|t e]; [reflexivity|]. cbn [peek_is]. destruct t; try reflexivity. cbn [is_punct]. apply str_eqb_neq. intros ->. apply P. now exists e.
Qed.

Lemma expansion_fun h hide l r r' : Forall ordinary_or_comment l -> expansion_in h hide l r -> expansion_in h hide l r' -> r = r'.
Proof.
  intros C X Y. apply expansion_iff in X; [|apply run_excl|exact C]. apply expansion_iff in Y; [|apply run_excl|exact C].
  destruct X as [_ [F X]], Y as [_ [G Y]]. rewrite <- (X (F + G)) by lia. apply Y. lia.
Qed.
Lemma index_of_lt ids s i : index_of ids s = Some i -> i < length ids.
Proof.
  revert i. induction ids as [|id ids IH]; intros i; cbn [index_of]; [discriminate|]. destruct (same_name id s).
  - intro E. injection E as <-. cbn. lia.
  - destruct (index_of ids s) as [j|]; cbn [option_map]; [|discriminate]. intro E. injection E as <-. specialize (IH j eq_refl). cbn. lia.
Qed.
Lemma text_args args : map from_str (separated args) = comma_separated (map (map from_str) args).
Proof.
  induction args as [|a args IH]; [reflexivity|]. destruct args as [|b args]; [reflexivity|].
  change (separated (a :: b :: args)) with (a ++ st "," :: separated (b :: args)). rewrite map_app.
  change (map from_str (st "," :: separated (b :: args))) with (from_str (st ",") :: map from_str (separated (b :: args))). now rewrite IH.
Qed.
Lemma in_separated s args : In s (separated args) -> s = st "," \/ exists a, In a args /\ In s a.
Proof.
  induction args as [|a args IH]; [intros []|]. destruct args as [|b args].
  - intro I. right. exists a. split; [now left|exact I].
  - change (separated (a :: b :: args)) with (a ++ st "," :: separated (b :: args)). intro I. apply in_app_iff in I as [I|[I|I]].
    + right. exists a. split; [now left|exact I].
    + now left.
    + destruct (IH I) as [E|(c & C & I2)]; [now left|]. right. exists c. split; [now right|exact I2].
Qed.

Lemma body_ok ids body : no_operators (map from_str body) -> Forall okb (map (body_token ids) body).
Proof.
  intros [O1 O2]. apply Forall_forall. intros t I. apply in_map_iff in I as (s & <- & I). unfold body_token. destruct (index_of ids s); [exact Logic.I|].
  apply (in_map from_str) in I. pose proof (idents_ok_spell s) as Id. pose proof (not_place_spell s) as Pl. pose proof (from_str_no_nr s) as Nr.
  destruct (from_str s) as [u|i| |p|id|c|lt c|c|c|]; try exact Logic.I.
  - now destruct (Nr u).
  - split; intros ->; [now apply O1|now apply O2].
  - intros ->. cbn in Id. discriminate Id.
  - now destruct Pl.
Qed.

Lemma detokenize_sub es ws sv k : Forall2 (fun e w => detokenize 0 e = ROk w) es ws -> forall l b,
  Forall okb l -> (forall i, In (TArg i) l -> i < length es) ->
  (In TVarArgs l -> exists m, k = S m /\ nth_error es m = Some sv) -> detokenize k l = ROk b -> detokenize 0 (sub (fill es) sv l) = ROk (filled_in ws b).
Proof.
  intros D l.
  assert (W : forall i e, nth_error es i = Some e -> detokenize 0 e = ROk (nth i ws [])).
  { clear -D. induction D as [|a w es ws A D IH]; intros [|i] e Ee; cbn in *; try discriminate Ee; [injection Ee as <-; exact A|now apply IH]. }
  induction l as [|t l IH]; intros b O I Iv E; [injection E as <-; reflexivity|].
  inversion O as [|? ? O1 O3]; subst. cbn [detokenize] in E. destruct (token_detokenize k t) as [o| | |] eqn:Et; try discriminate E. cbn [rbind] in E.
  destruct (detokenize k l) as [r| | |] eqn:El; try discriminate E. cbn [rbind] in E. injection E as <-.
  change (sub (fill es) sv (t :: l)) with (sub1 (fill es) sv t ++ sub (fill es) sv l). rewrite detokenize_app.
  rewrite (IH r O3 (fun i J => I i (or_intror J)) (fun J => Iv (or_intror J)) eq_refl). clear IH.
  assert (K : forall m, sub1 (fill es) sv t = [t] -> token_detokenize 0 t = ROk (Some m) -> (forall i, m <> MArg i) -> o = Some m ->
    (x <- detokenize 0 (sub1 (fill es) sv t) ;; y <- ROk (filled_in ws r) ;; ROk (x ++ y)) = ROk (filled_in ws match o with Some m => m :: r | None => r end)).
  { intros m E1 E2 Nm ->. rewrite E1. cbn [detokenize]. rewrite E2. cbn [rbind app]. unfold filled_in at 2. cbn [flat_map]. destruct m; try reflexivity. exfalso. eapply Nm. reflexivity. }
  destruct t as [u|i| |p|id|s|lt s|s|c|]; try (cbn [token_detokenize] in Et; first [discriminate Et | injection Et as <-; eapply K; [reflexivity|reflexivity|discriminate|reflexivity]]).
  - assert (Q : forall u k', is_arg_token (strip_nr u) = false -> token_detokenize k' u = token_detokenize k u /\ forall i, token_detokenize k u <> ROk (Some (MArg i))).
    { clear. induction u; intros k' A; try (split; [reflexivity|discriminate]); try discriminate A. apply IHu. exact A. }
    destruct (Q u 0 O1) as [Q1 Q2]. cbn [token_detokenize] in Et. destruct o as [m|].
    + apply (K m); auto; [cbn [token_detokenize]; congruence|]. intros i ->. now apply (Q2 i).
    + cbn [sub1 detokenize token_detokenize]. rewrite Q1, Et. reflexivity.
  - cbn [token_detokenize] in Et. injection Et as <-. cbn [sub1]. unfold fill.
    assert (L : i < length es) by (apply I; now left). destruct (nth_error es i) as [e|] eqn:Ee; [|apply nth_error_None in Ee; lia].
    rewrite (W i e Ee). cbn [rbind]. reflexivity.
  - destruct (Iv (or_introl eq_refl)) as (m & -> & Em). cbn [token_detokenize] in Et. injection Et as <-. cbn [sub1]. rewrite (W m sv Em). cbn [rbind]. reflexivity.
  - now destruct O1.
Qed.

Lemma no_invocation_nil h hide : no_invocation (macros h) hide [].
Proof. intros p q E id d args post I. destruct p, q; try discriminate E. inversion I. Qed.
Lemma expansion_nil h hide e : expansion_in h hide [] (ROk e) -> e = [].
Proof.
  intro X. assert (E : @ROk xerr _ e = ROk []); [|now injection E].
  eapply expansion_fun; [constructor|exact X|]. change (@ROk xerr (list token) []) with (@ROk xerr _ (map (mark hide) [])). apply xp_done, no_invocation_nil.
Qed.
Lemma given_in h args ews a : Forall2 (fun a ew => given h a (fst ew) (snd ew)) args ews -> In a args -> exists ew, In ew ews /\ given h a (fst ew) (snd ew).
Proof.
  induction 1 as [|a1 x1 l1 l2 A G IH]; [intros []|]. intros [<-|I]; [exists x1; split; [now left|exact A]|].
  destruct (IH I) as (ew & E1 & E2). exists ew. split; [now right|exact E2].
Qed.
Lemma given_ew h args ews ew : Forall2 (fun a ew => given h a (fst ew) (snd ew)) args ews -> In ew ews -> exists a, given h a (fst ew) (snd ew).
Proof. induction 1 as [|a1 x1 l1 l2 A G IH]; [intros []|]. intros [<-|I]; eauto. Qed.
Lemma given_nth h args ews : Forall2 (fun a ew => given h a (fst ew) (snd ew)) args ews -> forall i a, nth_error (map (map from_str) args) i = Some a ->
  expansion_in h [[]] a (ROk (fill (map fst ews) i)) /\ stays h (fill (map fst ews) i).
Proof.
  intros G i a E. assert (K : exists e, nth_error (map fst ews) i = Some e /\ expansion_in h [[]] a (ROk e) /\ stays h e).
  { revert i a E. induction G as [|a1 x1 l1 l2 A G IH]; intros [|i] a E; cbn in E; try discriminate E.
    - injection E as <-. exists (fst x1). split; [reflexivity|]. split; apply A.
    - exact (IH i a E). }
  destruct K as (e & K1 & K2). unfold fill. now rewrite K1.
Qed.
Lemma given_words h args ews : Forall2 (fun a ew => given h a (fst ew) (snd ew)) args ews -> Forall2 (fun e w => detokenize 0 e = ROk w) (map fst ews) (map snd ews).
Proof. induction 1 as [|a1 x1 l1 l2 A G IH]; constructor; [apply A|exact IH]. Qed.

(** The expanded text has nothing left to expand. *)
Lemma settled_expansion h f hide l e : expand_macro_body (run h) f hide l = ROk e -> In [] hide -> expansion_in h [[]] e (ROk e).
Proof.
  intros X I. pose proof (expand_macro_body_expanded _ _ _ _ _ X) as S.
  assert (M : map (mark [[]]) e = e).
  { clear X. assert (K : forall id, In (TIdent id) e -> id <> []).
    { intros id J ->. apply in_split in J as (x & y & E). now destruct (S x [] y E) as [S1 _]. }
    clear S. induction e as [|t e IH]; [reflexivity|]. cbn [map]. rewrite IH by (intros id J; apply K; now right). f_equal.
    destruct t; try reflexivity. cbn [mark]. destruct (in_dec _ _ _) as [[E|[]]|]; [|reflexivity]. exfalso. apply (K id); [now left|now symmetry]. }
  rewrite <- M at 2. apply xp_done. intros p q E id d args post Iv.
  assert (Mc : forall x d, macros h x = Some d -> ~ quiet (run h) x /\ ((exists bd, d = Object bd) -> sm_get (var_macros (run h)) x <> None) /\ (function_like d -> sm_get (fn_macros (run h)) x <> None)).
  { intros x d0 Mx. unfold macros, macro_of in Mx. destruct (sm_get (fn_macros (run h)) x) as [[ps0 b0]|] eqn:F0.
    - split; [intros [_ Q]; congruence|]. split; [|discriminate]. intros [bd ->]. destruct (tokenize_arg_names ps0); discriminate Mx.
    - destruct (sm_get (var_macros (run h)) x) eqn:V0; [|discriminate Mx]. injection Mx as <-. split; [intros [Q _]; congruence|]. split; [discriminate|]. intro Fl. now destruct (Fl _ eq_refl). }
  inversion Iv as [id0 bd po Ni Mi E1 E2|id0 d0 text a0 po Ni Mi Fl Ct E1 E2]; subst.
  - destruct (S p id _ eq_refl) as (_ & Sv & _). destruct (Mc _ _ Mi) as (_ & M2 & _). apply M2; [now eexists|exact Sv].
  - destruct (S p id _ eq_refl) as (_ & _ & Sf). destruct (Mc _ _ Mi) as (_ & _ & M3). apply collect_args_iff in Ct. rewrite (Sf (M3 Fl)) in Ct. discriminate Ct.
Qed.

Definition in_range (m : nat) (v : bool) (t : token) : Prop := match t with TArg i => i < m | TVarArgs => v = true | _ => True end.
Lemma in_range_closed m v : expand_closed (in_range m v).
Proof. split; [split|..]; simpl; easy. Qed.
Lemma in_range_spell m v s : s <> st "__VA_ARGS__" -> in_range m v (from_str s).
Proof. intros Hs. apply from_str_cases; simpl; easy. Qed.

(** A macro whose parameters are given tokens that stay: the call is replaced by
    the expansion of the macro by itself, with the parameters filled in.  A
    variadic macro is given one argument for [__VA_ARGS__], and has no comments
    in its parameter list (see C22). *)
Theorem C69_partial h n params ids variadic body args ews fuel ps b :
  operator_free h -> defined (rev h) n = Some (DFn params body) -> parameter_list params ids variadic -> ~ In (st "__VA_ARGS__") ids ->
  (variadic = true -> length params = length (parameter_words ids variadic)) ->
  is_identifier n = true -> n <> st "__VA_ARGS__" ->
  length args = length (parameter_words ids variadic) -> Forall2 (fun a ew => given h a (fst ew) (snd ew)) args ews ->
  expand_fn_macro (run h) fuel n = ROk (ps, b) ->
  gives h (call_of n args) (ROk (filled_in (map snd ews) b)).
Proof.
  set (v := variadic).
  intros OF D PL NI NC Idn NV La G X. fold v in PL, NC, La.
  assert (Nn : n <> []) by (intros ->; discriminate Idn).
  assert (Fn : from_str n = TIdent n).
  { unfold from_str. destruct (str_eqb_spec n (st "__VA_ARGS__")); [contradiction|]. now rewrite identifier_try_from_id. }
  set (es := map fst ews). set (toks := map (body_token ids) body).
  assert (Le : length es = length args) by (unfold es; rewrite map_length; symmetry; clear -G; induction G; cbn; congruence).
  assert (Inert : forall i, inert (run h) (fill es i)).
  { intro i. unfold fill. destruct (nth_error es i) as [e|] eqn:E.
    - apply nth_error_In in E. unfold es in E. apply in_map_iff in E as (ew & <- & I). destruct (given_ew _ _ _ _ G I) as (a & A). eapply given_inert; exact A.
    - split; [discriminate|]. split; [|split; [reflexivity|split; [|intros id [K|[]]; discriminate K]]].
      + apply arg_token; [intros [u [K|K]]; inversion K|discriminate|constructor].
      + constructor; [exact Logic.I|constructor]. }
  set (sv := fill es (length ids)).
  assert (Iv : inert (run h) sv) by apply Inert.
  assert (Lw : length args = length ids + (if v then 1 else 0)) by (rewrite La; unfold parameter_words; rewrite app_length; destruct v; reflexivity).
  assert (Hv : forall id b, sm_get (var_macros (run h)) id = Some b -> Forall okb (tokenize [] b)).
  { intros id b0 E. pose proof (run_holds h id) as R. destruct (defined (rev h) id) as [[b1|ps1 b1]|] eqn:D1; destruct R as [R1 R2]; rewrite E in R1; try discriminate R1.
    injection R1 as <-. rewrite tokenize_nil. exact (body_ok [] b0 (OF _ _ D1)). }
  assert (Hf : forall id ps b an, sm_get (fn_macros (run h)) id = Some (ps, b) -> tokenize_arg_names ps = ROk an -> Forall okb (tokenize an b)).
  { intros id ps0 b0 an E T. pose proof (run_holds h id) as R. destruct (defined (rev h) id) as [[b1|ps1 b1]|] eqn:D1; destruct R as [R1 R2]; rewrite E in R2; try discriminate R2.
    injection R2 as <- <-. pose proof T as T2. apply tokenize_arg_names_iff in T as (_ & ids1 & v1 & Hp).
    destruct (parameter_list_names ps0 ids1 v1 Hp) as (an' & E' & _ & _ & Hb). rewrite T2 in E'. injection E' as <-. rewrite Hb. exact (body_ok ids1 b0 (OF _ _ D1)). }
  (* the macro by itself *)
  destruct (parameter_list_names params ids v PL) as (an & Ean & Eids & Ev & Etok).
  pose proof (run_holds h n) as Rn. rewrite D in Rn. destruct Rn as [Rv Rf].
  unfold expand_fn_macro in X. rewrite Rf, Ean in X. cbn [rbind] in X. unfold expand_fn_macro_body in X. cbn zeta in X. rewrite Ev, Etok in X. fold toks in X.
  destruct (negb v && contains_var_args toks) eqn:Cv; [discriminate X|]. rewrite (no_dup_names params an Ean) in X. cbn [rbind] in X.
  replace (if negb v then None else None) with (@None xerr) in X by (now case v).
  assert (Ot : Forall okb toks) by exact (body_ok ids body (OF _ _ D)).
  assert (Vt : In TVarArgs toks -> v = true).
  { intro I. destruct v; [reflexivity|]. exfalso. cbn [negb andb] in Cv. apply contains_var_args_In in Cv. contradiction. }
  rewrite (rescan_id _ _ _ _ Ot) in X. change (set_insert n []) with [n] in X.
  destruct (expand_macro_body (run h) fuel [n] toks) as [e0| | |] eqn:E0; try discriminate X. cbn [rbind] in X.
  destruct (detokenize (length an) e0) as [b0| | |] eqn:Eb; try discriminate X. cbn [rbind] in X.
  destruct (detokenize 0 an) as [a0| | |]; try discriminate X. cbn [rbind] in X. injection X as <- <-.
  (* with the parameters filled in *)
  assert (Ag : agree [n; []] [n]) by (intros id I; cbn; intuition congruence).
  assert (Fr : fresh (fill es) sv [n; []]).
  { intros id K. assert (K' : exists i, In (TIdent id) (fill es i)) by (destruct K as [K|K]; [exact K|now exists (length ids)]). destruct K' as [i I]. intros [<-|[<-|[]]].
    - destruct (Inert i) as (_ & _ & _ & _ & Q). destruct (Q n I) as [_ Q2]. congruence.
    - destruct (Inert i) as (_ & _ & _ & O & _). rewrite Forall_forall in O. exact (O _ I eq_refl). }
  destruct (expand_sub (run h) (fill es) sv Inert Iv Hv Hf fuel [n; []] [n] toks Ag Fr Ot) as [S1 S2]. rewrite E0 in S1, S2. cbn [rmap] in S1. specialize (S2 e0 eq_refl).
  (* the arguments of the call *)
  set (argt := match args with [] => [[]] | _ => map (map from_str) args end).
  assert (In_arg : forall a, In a argt -> a = [] \/ exists s, a = map from_str s /\ In s args).
  { unfold argt. intros a I. destruct args as [|ar0 args0]; [destruct I as [<-|[]]; now left|]. right. apply in_map_iff in I as (s & <- & I). now exists s. }
  assert (Arg : Forall argument argt).
  { apply Forall_forall. intros a I. destruct (In_arg a I) as [->|(s & -> & J)]; [constructor|]. destruct (given_in _ _ _ _ G J) as (ew & _ & A). apply A. }
  assert (Cl : forall a, In a argt -> Forall ordinary_or_comment a).
  { intros a I. destruct (In_arg a I) as [->|(s & -> & J)]; [constructor|]. destruct (given_in _ _ _ _ G J) as (ew & _ & A). now apply clean_object, no_va_text, A. }
  assert (Call : map from_str (call_of n args) = TIdent n :: TPunct (st "(") :: comma_separated argt ++ [TPunct (st ")")]).
  { unfold call_of. cbn [map]. rewrite Fn, map_app, text_args. unfold argt. now destruct args. }
  assert (Nth : forall i a, nth_error argt i = Some a -> i < length args -> expansion_in h [[]] a (ROk (fill es i)) /\ stays h (fill es i)).
  { intros i a E L. unfold argt in E. destruct args as [|ar0 args0]; [cbn in L; lia|]. exact (given_nth _ _ _ G i a E). }
  assert (Beyond : forall i a, nth_error argt i = Some a -> length args <= i -> a = []).
  { intros i a E L. unfold argt in E. destruct args as [|ar0 args0].
    - destruct i as [|i]; cbn in E; [now injection E as <-|]. now destruct i.
    - exfalso. assert (Hn : nth_error (map (map from_str) (ar0 :: args0)) i = None) by (apply nth_error_None; now rewrite map_length). congruence. }
  assert (Rest : v = false /\ comma_separated (skipn (length ids) argt) = [] \/ length ids < length args /\ nth_error argt (length ids) = Some (comma_separated (skipn (length ids) argt))).
  { unfold argt. destruct v.
    - right. split; [lia|]. destruct args as [|ar0 args0]; [cbn in Lw; lia|]. rewrite <- (map_length (map from_str)) in Lw.
      revert Lw. generalize (map (map from_str) (ar0 :: args0)). generalize (length ids). clear. induction n as [|n IH]; intros l L.
      + destruct l as [|x [|y l]]; try discriminate L. reflexivity.
      + destruct l as [|x l]; [discriminate L|]. cbn [nth_error skipn]. apply IH. cbn in L. lia.
    - left. split; [reflexivity|]. rewrite Nat.add_0_r in Lw. rewrite <- Lw. destruct args as [|ar0 args0]; [reflexivity|]. rewrite <- (map_length (map from_str)). now rewrite skipn_all. }
  assert (Acc : v = false -> accepted (length ids) argt).
  { intro Vf. rewrite Vf, Nat.add_0_r in Lw. unfold accepted, argt. destruct args; [right; split; [now rewrite <- Lw|now exists []]|left; rewrite map_length; exact Lw]. }
  assert (FC : first_call h (call_of n args) [] n (Function (length ids) v toks) argt []).
  { split; [|split].
    - intros [E|[E|I]]; [congruence|discriminate E|]. apply in_app_iff in I as [I|[E|[]]]; [|discriminate E].
      apply in_separated in I as [E|(a & I & I2)]; [discriminate E|]. destruct (given_in _ _ _ _ G I) as (ew & _ & A). destruct A as (_ & A & _). contradiction.
    - intro I. apply in_map_iff in I as (s & Es & [<-|[<-|I]]); [rewrite Fn in Es; discriminate Es|discriminate Es|].
      apply in_app_iff in I as [I|[<-|[]]]; [|discriminate Es]. apply in_separated in I as [->|(a & I & I2)]; [discriminate Es|].
      apply (in_map from_str) in I2. rewrite Es in I2. destruct (given_in _ _ _ _ G I) as (ew & _ & A). destruct A as (_ & _ & A & _). contradiction.
    - rewrite Call. eexists. split; [reflexivity|]. split.
      + apply iv_function; [intros [E|[]]; congruence| |discriminate|].
        * pose proof (C52_macros h n) as M. rewrite D in M. destruct M as [M _]. exact (M ids v PL).
        * split; [unfold argt; destruct args; discriminate|]. split; [exact Arg|reflexivity].
      + intros p q E Q. destruct p, q; try discriminate E. now destruct Q. }
  assert (Vb : v = false -> ~ In (st "__VA_ARGS__") body).
  { intros Vf I. cut (v = true); [congruence|]. apply Vt. unfold toks. apply in_map_iff. exists (st "__VA_ARGS__"). split; [|exact I].
    unfold body_token. rewrite index_of_none by exact NI. now apply from_str_var_args. }
  assert (Range : forall i, In (TArg i) toks -> i < length ids).
  { intros i I. unfold toks in I. apply in_map_iff in I as (s & Es & _). unfold body_token in Es. destruct (index_of ids s) eqn:Ei.
    - injection Es as <-. eapply index_of_lt; exact Ei.
    - now apply from_str_not_arg in Es. }
  assert (PR : parameters_replaced (fun a e => expansion_in h [[]] a (ROk e)) (length ids) argt toks (sub (fill es) sv toks)).
  { clear -Ot Vt Range Nth Rest Lw. assert (Ni : forall i, i < length args -> exists a, nth_error argt i = Some a).
    { intros i L. unfold argt. destruct args as [|ar0 args0]; [cbn in L; lia|]. destruct (nth_error (map (map from_str) (ar0 :: args0)) i) eqn:E; [now eexists|].
      apply nth_error_None in E. rewrite map_length in E. lia. }
    clearbody toks. induction Ot as [|t l T1 O IH]; [constructor|]. specialize (IH (fun I => Vt (or_intror I)) (fun i I => Range i (or_intror I))).
    change (sub (fill es) sv (t :: l)) with (sub1 (fill es) sv t ++ sub (fill es) sv l). destruct t as [u|i| |p|id|s|lt s|s|c|];
      try (apply pm_keep; [intros [K|[j K]]; discriminate K|exact IH]).
    - assert (L : i < length args) by (pose proof (Range i (or_introl eq_refl)); lia). destruct (Ni i L) as [a E]. eapply pm_named; [exact E|apply (Nth i a E L)|exact IH].
    - assert (Vv : v = true) by (apply Vt; now left). rewrite Vv in Lw. assert (L : length ids < length args) by lia. destruct (Ni _ L) as [a E].
      assert (Lq : length ids <= length argt) by (apply Nat.lt_le_incl, nth_error_Some; congruence).
      apply pm_variadic; [exact Lq| |exact IH]. destruct Rest as [[R _]|[_ R]].
      + congruence.
      + exact (proj1 (Nth _ _ R L)). }
  assert (Cs : Forall ordinary_or_comment (sub (fill es) sv toks)).
  { eapply parameters_replaced_tidy; [| |exact PR].
    - apply Forall_forall. intros a I. destruct (In_arg a I) as [->|(s & -> & J)]; [split; constructor|].
      destruct (given_in _ _ _ _ G J) as (ew & _ & A). destruct A as (_ & A & _). now apply tidy_text, no_va_text.
    - intros t I. unfold toks in I. eapply body_tidy; exact I. }
  apply (C14_call h (call_of n args) [] n params ids v body argt [] _ FC D PL).
  - intro Vf. split; [exact (Vb Vf)|exact (Acc Vf)].
  - fold toks. split; intro I; rewrite Forall_forall in Ot; destruct (Ot _ I) as [K1 K2]; congruence.
  - intros t a e A Ea. assert (Nil : a = [] -> no_operators e).
    { intros ->. apply expansion_nil in Ea. subst e. split; intros []. }
    assert (Kept : forall i, nth_error argt i = Some a -> i < length args -> no_operators e).
    { intros i Ai L. destruct (Nth i a Ai L) as [Xa (_ & _ & _ & Op & _)].
      assert (Ce : @ROk xerr _ (fill es i) = ROk e) by (eapply expansion_fun; [apply Cl; eapply nth_error_In; exact Ai|exact Xa|exact Ea]).
      injection Ce as <-. exact Op. }
    destruct t; try discriminate A; cbn [argument_for] in A.
    + destruct (Nat.lt_ge_cases i (length args)) as [L|L]; [|apply Nil; eapply Beyond; eassumption].
      eapply Kept; eassumption.
    + destruct (Nat.leb _ _); [|discriminate A]. injection A as <-. destruct Rest as [[_ R]|[L R]]; [now apply Nil|]. eapply Kept; eassumption.
  - exists (sub (fill es) sv toks), (sub (fill es) sv e0), (ROk (sub (fill es) sv e0)). split; [exact PR|]. split; [|split].
    + apply expansion_iff; [apply run_excl|exact Cs|]. split; [discriminate|]. exists fuel. intros f L.
      pose proof (expand_macro_body_le (run h) fuel [n; []] (sub (fill es) sv toks) f L) as Q. rewrite S1 in Q. destruct Q as [Q|Q]; [discriminate Q|symmetry; exact Q].
    + cbn [app]. rewrite app_nil_r. eapply settled_expansion; [exact S1|now right; left].
    + unfold delivered. cbn [rbind].
      assert (Rg : Forall (thru (in_range (length ids) v)) e0).
      { eapply macro_body_result; [apply in_range_closed|apply in_range_spell| |exact E0]. apply Forall_forall. intros t I.
        destruct t; try exact Logic.I; [|now apply Range|now apply Vt].
        exfalso. unfold toks in I. apply in_map_iff in I as (s & Es & _). unfold body_token in Es. destruct (index_of ids s); [discriminate Es|]. now apply from_str_no_nr in Es. }
      rewrite Forall_forall in Rg. eapply detokenize_sub; [eapply given_words; exact G|exact S2| | |exact Eb].
      * intros i I. rewrite Le. pose proof (Rg _ I) as L. cbn in L. lia.
      * intro I. assert (Vv : v = true) by exact (Rg _ I). exists (length ids). split.
        { apply tokenize_arg_names_iff in Ean as [-> _]. rewrite map_length, (NC Vv). unfold parameter_words. rewrite app_length, Vv. cbn. lia. }
        unfold sv, fill. destruct (nth_error es (length ids)) eqn:En; [reflexivity|]. apply nth_error_None in En. rewrite Vv in Lw. lia.
Qed.

(** The parameters that are left are parameters of the macro. *)
Lemma parameters_in_range h n params ids body fuel ps b i :
  defined (rev h) n = Some (DFn params body) -> parameter_list params ids false -> ~ In (st "__VA_ARGS__") ids ->
  expand_fn_macro (run h) fuel n = ROk (ps, b) -> In (MArg i) b -> i < length ids.
Proof.
  intros D PL NI X I. destruct (parameter_list_names params ids false PL) as (an & Ean & Eids & Ev & Etok).
  pose proof (run_holds h n) as Rn. rewrite D in Rn. destruct Rn as [Rv Rf].
  eapply (expand_fn_macro_result (in_range (length ids) false)) in X; [|apply in_range_closed|apply in_range_spell|exact Rf|].
  2:{ intros an' t Ea It At Vt. rewrite Ean in Ea. injection Ea as <-. rewrite Etok in It. apply in_map_iff in It as (s & Es & _). unfold body_token in Es.
      destruct (index_of ids s) eqn:Ei; [subst t; eapply index_of_lt; exact Ei|]. destruct t; try exact Logic.I; [now apply from_str_not_arg in Es|].
      specialize (Vt eq_refl). congruence. }
  destruct X as (an' & toks & Ha & Hd & Hdt & Hok & Hnp). apply detokenize_ok in Hdt; [|exact Hnp].
  destruct (Forall2_In_r _ _ _ _ Hdt I) as (t & Ht & Hs). rewrite Forall_forall in Hok. specialize (Hok t Ht). apply shows_thru in Hs. unfold thru in Hok.
  assert (Nr : forall u, strip_nr t <> TNonRepl u) by (clear; induction t; try discriminate; exact IHt).
  destruct (strip_nr t) as [u|j| |p|id|s|lt s|s|c|]; try discriminate Hs; [now destruct (Nr u)| |discriminate Hok]. cbn in Hs. injection Hs as ->. exact Hok.
Qed.
End S.

(** ** Instances *)
Local Open Scope string_scope.
Section Demo.
#[local] Existing Instance demo_unicode.
Let w (l : list string) : list str := map st l.
(** [#define BASE 16], [#define G(y) y << 1] and [#define F(x, y) G(x) | BASE | y]. *)
Definition hist := [DefineVar (st "BASE") (w ["16"]); DefineFn (st "G") (w ["y"]) (w ["y"; "<<"; "1"]);
             DefineFn (st "F") (w ["x"; "y"]) (w ["G"; "("; "x"; ")"; "|"; "BASE"; "|"; "y"])].
Let num (z : Z) := MLit (LInt (mk_int z None)).
Let p (s : string) := MPunct (st s).

Lemma demo_operator_free : operator_free hist.
Proof.
  intros n d D. change (rev hist) with [DefineFn (st "F") (w ["x"; "y"]) (w ["G"; "("; "x"; ")"; "|"; "BASE"; "|"; "y"]); DefineFn (st "G") (w ["y"]) (w ["y"; "<<"; "1"]);
    DefineVar (st "BASE") (w ["16"])] in D. cbn [defined] in D.
  repeat (destruct (same_name _ n); [injection D as <-; split; vm_compute; intuition discriminate|]). discriminate D.
Qed.
Lemma demo_given h a e m : ~ In (st "__VA_ARGS__") a -> ~ In hashhash (map from_str a) -> argument (map from_str a) ->
  expand_macro_body (run h) 10 [[]] (map from_str a) = ROk e -> stays h e -> delivered (ROk e) = ROk m -> given h a e m.
Proof.
  intros V Hh A X S M. split; [exact A|]. split; [exact V|]. split; [exact Hh|]. split; [|split; [exact S|exact M]].
  apply expansion_iff; [apply run_excl|now apply clean_object, no_va_text|]. split; [discriminate|]. exists 10. intros f L.
  destruct (expand_macro_body_le (run h) 10 [[]] (map from_str a) f L) as [Q|Q]; congruence.
Qed.

Lemma demo_args : Forall2 (fun a ew => given hist a (fst ew) (snd ew)) [w ["BASE"]; w ["5"]]
  [(map from_str (w ["16"]), [num 16]); (map from_str (w ["5"]), [num 5])].
Proof.
  assert (S : forall s, In s ["16"; "5"] -> stays hist (map from_str (w [s]))).
  { intros s I. repeat split; try discriminate.
    - apply arg_token; destruct I as [<-|[<-|[]]]; try discriminate; try constructor; intros [u [K|K]]; inversion K.
    - intros [l K]. destruct I as [<-|[<-|[]]]; discriminate K.
    - destruct I as [<-|[<-|[]]]; vm_compute; intuition discriminate.
    - destruct I as [<-|[<-|[]]]; vm_compute; intuition discriminate.
    - intros id K. destruct I as [<-|[<-|[]]]; vm_compute in K; intuition discriminate. }
  constructor; [|constructor; [|constructor]]; apply demo_given; try (vm_compute; intuition discriminate); try reflexivity; try (apply S; cbn; tauto).
  all: apply arg_token; try discriminate; try constructor; intros [u [K|K]]; inversion K.
Qed.
(** The call [F(BASE, 5)]: its result is the result for [F] by itself, which is
    [x << 1 | 16 | y], with [16] and [5] in it. *)
Example C69_case :
  expand_fn_macro (run hist) 20 (st "F") = ROk ([MIdent (st "x"); MIdent (st "y")], [MArg 0; p "<<"; num 1; p "|"; num 16; p "|"; MArg 1]) /\
  gives hist (call_of (st "F") [w ["BASE"]; w ["5"]]) (ROk [num 16; p "<<"; num 1; p "|"; num 16; p "|"; num 5]).
Proof.
  assert (X : expand_fn_macro (run hist) 20 (st "F") = ROk ([MIdent (st "x"); MIdent (st "y")], [MArg 0; p "<<"; num 1; p "|"; num 16; p "|"; MArg 1])) by (vm_compute; reflexivity).
  split; [exact X|].
  refine (C69_partial hist (st "F") (w ["x"; "y"]) [st "x"; st "y"] false _ [w ["BASE"]; w ["5"]] [(map from_str (w ["16"]), [num 16]); (map from_str (w ["5"]), [num 5])]
    20 _ _ demo_operator_free eq_refl _ _ _ eq_refl _ eq_refl _ X).
  - split; [reflexivity|]. repeat constructor; cbn; intuition discriminate.
  - intros [E|[E|[]]]; discriminate E.
  - discriminate.
  - discriminate.
  - exact demo_args.
Qed.
(** With [#define P(...) (__VA_ARGS__)] and [#define V(x, ...) P(__VA_ARGS__) | x],
    the call [V(1, f(2, 3))]. *)
Let va := st "__VA_ARGS__".
Definition rest_hist := [DefineFn (st "P") [st "..."] [st "("; va; st ")"]; DefineFn (st "V") (w ["x"; "..."]) [st "P"; st "("; va; st ")"; st "|"; st "x"]].
Let fcall := w ["f"; "("; "2"; ","; "3"; ")"].
Let fwords := [MIdent (st "f"); p "("; num 2; p ","; num 3; p ")"].
Example C69_rest_case :
  expand_fn_macro (run rest_hist) 20 (st "V") = ROk ([MIdent (st "x"); p "..."], [p "("; MArg 1; p ")"; p "|"; MArg 0]) /\
  gives rest_hist (call_of (st "V") [w ["1"]; fcall]) (ROk (p "(" :: fwords ++ [p ")"; p "|"; num 1])%list).
Proof.
  assert (X : expand_fn_macro (run rest_hist) 20 (st "V") = ROk ([MIdent (st "x"); p "..."], [p "("; MArg 1; p ")"; p "|"; MArg 0])) by (vm_compute; reflexivity).
  split; [exact X|].
  assert (Nb : forall t, In t (map from_str (w ["f"; "2"; "3"; "1"; ","])) -> ~ bracket t).
  { intros t I [u [K|K]]; inversion K; subst; vm_compute in I; intuition discriminate. }
  assert (Af : argument (map from_str fcall)).
  { apply arg_token; [apply Nb; cbn; tauto|discriminate|].
    apply (arg_group (TPunct (st "(")) (TPunct (st ")")) (map from_str (w ["2"; ","; "3"])) []); [constructor| |constructor].
    repeat (apply bal_token; [apply Nb; cbn; tauto|]). apply bal_nil. }
  assert (A1 : argument (map from_str (w ["1"]))) by (apply arg_token; [apply Nb; cbn; tauto|discriminate|constructor]).
  refine (C69_partial rest_hist (st "V") (w ["x"; "..."]) [st "x"] true _ [w ["1"]; fcall] [(map from_str (w ["1"]), [num 1]); (map from_str fcall, fwords)]
    20 _ _ _ eq_refl _ _ _ eq_refl _ eq_refl _ X).
  - intros n d D. change (rev rest_hist) with [DefineFn (st "V") (w ["x"; "..."]) [st "P"; st "("; va; st ")"; st "|"; st "x"]; DefineFn (st "P") [st "..."] [st "("; va; st ")"]] in D.
    cbn [defined] in D. repeat (destruct (same_name _ n); [injection D as <-; split; vm_compute; intuition discriminate|]). discriminate D.
  - split; [reflexivity|]. repeat constructor; cbn; intuition discriminate.
  - intros [E|[]]; discriminate E.
  - reflexivity.
  - discriminate.
  - constructor; [|constructor; [|constructor]]; (apply demo_given; [vm_compute; intuition discriminate|vm_compute; intuition discriminate|assumption|vm_compute; reflexivity| |vm_compute; reflexivity]).
    + split; [discriminate|]. split; [exact A1|]. split; [intros [l K]; discriminate K|]. split; [split; vm_compute; intuition discriminate|].
      intros id K. vm_compute in K. intuition discriminate.
    + split; [discriminate|]. split; [exact Af|]. split; [intros [l K]; discriminate K|]. split; [split; vm_compute; intuition discriminate|].
      intros id K. assert (E : id = st "f") by (vm_compute in K; vm_compute; intuition congruence). subst id. reflexivity.
Qed.
End Demo.

(** What is missing.  A name that only becomes a call with what is given: in
    [F((3))] with [#define G(y) y y] and [#define F(x) G x], and in [F(G)] with
    [#define F(x) x(3)]. *)
Theorem C69_parenthesis_refuted `{Unicode} : exists h body, let call := map st ["F"; "("; "("; "3"; ")"; ")"] in
  defined (rev h) (st "F") = Some (DFn [st "x"] body) /\
  exists b w, (exists ps, expand_fn_macro (run h) 20 (st "F") = ROk (ps, b)) /\ gives h (map st ["("; "3"; ")"]) (ROk w) /\ ~ gives h call (ROk (filled_in [w] b)).
Proof.
  exists [DefineFn (st "G") [st "y"] (map st ["y"; "y"]); DefineFn (st "F") [st "x"] (map st ["G"; "x"])], (map st ["G"; "x"]). cbn zeta.
  split; [reflexivity|]. eexists [MIdent (st "G"); MArg 0], _. split; [eexists; reflexivity|]. split.
  - exists 10. intros f L. do 10 (destruct f as [|f]; [lia|]). reflexivity.
  - intros [F G]. specialize (G (F + 20) ltac:(lia)). replace (F + 20) with (20 + F) in G by lia. cbv in G. discriminate G.
Qed.
Theorem C69_macro_name_refuted `{Unicode} : exists h body, let call := map st ["F"; "("; "G"; ")"] in
  defined (rev h) (st "F") = Some (DFn [st "x"] body) /\
  exists b w, (exists ps, expand_fn_macro (run h) 20 (st "F") = ROk (ps, b)) /\ gives h (map st ["G"]) (ROk w) /\ ~ gives h call (ROk (filled_in [w] b)).
Proof.
  exists [DefineFn (st "G") [st "y"] (map st ["y"; "y"]); DefineFn (st "F") [st "x"] (map st ["x"; "("; "3"; ")"])], (map st ["x"; "("; "3"; ")"]). cbn zeta.
  split; [reflexivity|]. eexists _, [MIdent (st "G")]. split; [eexists; reflexivity|]. split.
  - exists 10. intros f L. do 10 (destruct f as [|f]; [lia|]). reflexivity.
  - intros [F G]. specialize (G (F + 20) ltac:(lia)). replace (F + 20) with (20 + F) in G by lia. cbv in G. discriminate G.
Qed.
(** More than one argument for [__VA_ARGS__], which may be arguments of another
    macro: with [#define A(x, ...) x] and [#define F(...) A(__VA_ARGS__)], [F] by
    itself is [__VA_ARGS__], and [F(1, 2)] is [1]. *)
Theorem C69_commas_refuted `{Unicode} : exists h body, let call := map st ["F"; "("; "1"; ","; "2"; ")"] in
  defined (rev h) (st "F") = Some (DFn [st "..."] body) /\ (exists ps, expand_fn_macro (run h) 20 (st "F") = ROk (ps, [MArg 0])) /\
  gives h call (ROk [MLit (LInt (mk_int 1 None))]) /\
  ~ gives h call (ROk (filled_in [[MLit (LInt (mk_int 1 None)); MPunct (st ","); MLit (LInt (mk_int 2 None))]] [MArg 0])).
Proof.
  exists [DefineFn (st "A") [st "x"; st "..."] [st "x"]; DefineFn (st "F") [st "..."] (map st ["A"; "("; "__VA_ARGS__"; ")"])].
  eexists. cbn zeta. split; [reflexivity|]. split; [eexists; reflexivity|]. split.
  - exists 10. intros f L. do 10 (destruct f as [|f]; [lia|]). reflexivity.
  - intros [F G]. specialize (G (F + 20) ltac:(lia)). replace (F + 20) with (20 + F) in G by lia. cbv in G. discriminate G.
Qed.
(** Histories with [#]: with [#define P(...) #__VA_ARGS__] and
    [#define L(...) P(__VA_ARGS__)], [L] by itself is the string ["__VA_ARGS__"],
    and [L(1)] is ["1"]; with [#define S(x) #x] and [#define T(x) S(a x)], [T]
    by itself is [#x "a"], and [T(1)] is ["a 1"]. *)
Theorem C69_rest_string_refuted `{Unicode} : exists h body b,
  defined (rev h) (st "L") = Some (DFn [st "..."] body) /\ (exists ps, expand_fn_macro (run h) 20 (st "L") = ROk (ps, b)) /\
  b = [MLit (LString (SOrdinary (st "__VA_ARGS__")))] /\ gives h (map st ["L"; "("; "1"; ")"]) (ROk [MLit (LString (SOrdinary (st "1")))]) /\
  forall ws, ~ gives h (map st ["L"; "("; "1"; ")"]) (ROk (filled_in ws b)).
Proof.
  exists [DefineFn (st "P") [st "..."] (map st ["#"; "__VA_ARGS__"]); DefineFn (st "L") [st "..."] (map st ["P"; "("; "__VA_ARGS__"; ")"])].
  eexists _, _. split; [reflexivity|]. split; [eexists; reflexivity|]. split; [reflexivity|]. split.
  - exists 10. intros f L. do 10 (destruct f as [|f]; [lia|]). reflexivity.
  - intros ws [F G]. specialize (G (F + 20) ltac:(lia)). replace (F + 20) with (20 + F) in G by lia. cbv in G. discriminate G.
Qed.
Theorem C69_string_refuted `{Unicode} : exists h body b, let call := map st ["T"; "("; "1"; ")"] in
  defined (rev h) (st "T") = Some (DFn [st "x"] body) /\ (exists ps, expand_fn_macro (run h) 20 (st "T") = ROk (ps, b)) /\
  b = [MPunct (st "#"); MArg 0; MLit (LString (SOrdinary (st "a")))] /\ gives h call (ROk [MLit (LString (SOrdinary (st "a 1")))]) /\
  forall ws, ~ gives h call (ROk (filled_in ws b)).
Proof.
  exists [DefineFn (st "S") [st "x"] (map st ["#"; "x"]); DefineFn (st "T") [st "x"] (map st ["S"; "("; "a"; "x"; ")"])].
  eexists _, _. cbn zeta. split; [reflexivity|]. split; [eexists; reflexivity|]. split; [reflexivity|]. split.
  - exists 10. intros f L. do 10 (destruct f as [|f]; [lia|]). reflexivity.
  - intros ws [F G]. specialize (G (F + 20) ltac:(lia)). replace (F + 20) with (20 + F) in G by lia. cbv in G. discriminate G.
Qed.

Print Assumptions C69_partial.
Print Assumptions C69_commas_refuted.
Print Assumptions C69_rest_string_refuted.
Print Assumptions C69_string_refuted.
Print Assumptions C69_parenthesis_refuted.
Print Assumptions C69_macro_name_refuted.
