(** C45: function or macro. *)
From Verif Require Import Base Utf Lex LexFloat Token Ast ParseStmt Rust Finish Codegen SpecGen StrFacts FinishFacts.
From Coq Require Import String List Lia Bool.
Import ListNotations.
Local Open Scope string_scope.
Local Open Scope list_scope.

(** ** The two kinds of items *)

(** [#[allow(..)] #[inline(always)] pub unsafe extern "C" fn name(params) -> ret { body }],
    without the arrow and with a trailing semicolon in the body when nothing is
    returned. *)
Definition function_item (name : str) (params : list (list rtok)) (ret : option (list rtok)) (body : list rtok) : list rtok :=
  [rp "#"; brackets [ri "allow"; parens [ri "non_snake_case"; rp ","; ri "unused_mut"; rp ","; ri "unsafe_code"]];
   rp "#"; brackets [ri "inline"; parens [ri "always"]];
   ri "pub"; ri "unsafe"; ri "extern"; RLit (RlStr (st "C")); ri "fn"; RId name; parens (sep_by (rp ",") params)] ++
  match ret with
  | Some r => rp "->" :: r ++ [braces body]
  | None => [braces (body ++ [rp ";"])]
  end.
(** [#[doc(hidden)] #[macro_export] macro_rules! __cmacro__name { (patterns) => { body }; } pub use __cmacro__name as name;] *)
Definition macro_item (name : str) (patterns : list (list rtok)) (body : list rtok) : list rtok :=
  [rp "#"; brackets [ri "doc"; parens [ri "hidden"]]; rp "#"; brackets [ri "macro_export"];
   ri "macro_rules"; rp "!"; RId (st "__cmacro__" ++ name);
   braces [parens (sep_by (rp ",") patterns); rp "=>"; braces body; rp ";"];
   ri "pub"; ri "use"; RId (st "__cmacro__" ++ name); ri "as"; RId name; rp ";"].

(** One parameter of a function: [mut name: type]. *)
Definition is_param (name : str) (ts : list rtok) : Prop := exists ty, ts = ri "mut" :: RId name :: rp ":" :: ty.
(** One parameter of a macro: [$name:kind], or all remaining arguments. *)
Definition is_pattern (name : str) (ts : list rtok) : Prop :=
  (name <> st "..." /\ exists kind, In kind ["ident"; "ty"; "tt"; "expr"] /\ ts = [rp "$"; RId name; rp ":"; ri kind]) \/
  (name = st "..." /\ ts = [rp "$"; parens [rp "$"; ri "__VA_ARGS__"; rp ":"; ri "expr"]; rp ","; rp "*"]).

(** What inference found out. *)
Record inferred := mk_inferred { inf_body : macro_body; inf_types : list arg_ty; inf_ret : option ctype }.
(** Everything is known and nothing requires a macro. *)
Definition expressible (cx : cgctx) (m : fn_macro) (i : inferred) : Prop :=
  (forall t, In t (inf_types i) -> exists t', t = AKnown t') /\
  (exists t, inf_ret i = Some t) /\
  (forall l, fm_args m <> l ++ [st "..."]) /\
  cx_fn cx (fm_name m) = None /\
  ~ Exists (needs_macro cx) (body_mentions (inf_body i)).

Section G.
Context {U : Unicode}.
Variable cx : cgctx.

(** Inference: the context gives the types of some parameters, the body is then
    finished. *)
Definition infers (m : fn_macro) (i : inferred) : Prop :=
  exists tys c, arg_types cx (fm_name m) (fm_args m) = ROk tys /\
    body_finish cx (fm_body m) (mk_lctx (fm_args m) tys false true true false) = (inf_body i, c, FOk (inf_ret i)) /\
    lc_types c = inf_types i.

Lemma arg_types_length name l : forall tys, arg_types cx name l = ROk tys -> length tys = length l.
Proof.
  induction l as [|a l IH]; intros tys; cbn [arg_types].
  - intros E; injection E as <-; reflexivity.
  - unfold rbind at 1. destruct (match cx_arg_ty cx name a with Some t => _ | None => _ end); try discriminate.
    unfold rbind. destruct (arg_types cx name l); try discriminate. intros E; injection E as <-. cbn. f_equal. apply IH. reflexivity.
Qed.
Lemma ident_tok_inv s t : ident_tok s = Some t -> t = RId s.
Proof. unfold ident_tok. destruct (is_identifier s); [|discriminate]. congruence. Qed.
Lemma opanic_inv {E A} (o : option A) (x : A) : @opanic E A o = ROk x -> o = Some x.
Proof. destruct o; cbn; congruence. Qed.
Lemma rbind_inv {E A B} (r : res E A) (k : A -> res E B) b : rbind r k = ROk b -> exists a, r = ROk a /\ k a = ROk b.
Proof. destruct r; cbn; try discriminate. intros H. eexists; split; [reflexivity | exact H]. Qed.

Lemma pattern_toks_spec names : forall tys ps, length tys = length names -> pattern_toks names tys = Some ps ->
  Forall2 is_pattern names ps.
Proof.
  induction names as [|n names IH]; intros [|t tys] ps L; cbn in L; try discriminate; cbn [pattern_toks].
  - intros E; injection E as <-; constructor.
  - destruct (str_eqb_spec n (st "...")) as [->|N].
    + cbn [obind]. destruct (pattern_toks names tys) as [r|] eqn:R; cbn; [|discriminate]. intros E; injection E as <-.
      constructor; [right; split; reflexivity | eapply IH; [|exact R]; lia].
    + destruct (ident_tok n) as [id|] eqn:D; cbn [obind]; [|discriminate]. apply ident_tok_inv in D as ->.
      destruct (pattern_toks names tys) as [r|] eqn:R; cbn [obind]; [|discriminate]. intros E; injection E as <-.
      constructor; [|eapply IH; [|exact R]; lia]. left. split; [exact N|]. destruct t; eexists; (split; [|reflexivity]); cbn; auto.
Qed.
Lemma param_toks_spec c names : forall tys ps, length tys = length names -> param_toks cx c names tys = Some ps ->
  Forall2 is_param names ps.
Proof.
  induction names as [|n names IH]; intros [|t tys] ps L; cbn in L; try discriminate; cbn [param_toks].
  - intros E; injection E as <-; constructor.
  - destruct t; try discriminate. destruct (ident_tok n) as [id|] eqn:D; cbn [obind]; [|discriminate]. apply ident_tok_inv in D as ->.
    destruct (ty_toks cx c t) as [ts|]; cbn [obind]; [|discriminate].
    destruct (param_toks cx c names tys) as [r|] eqn:R; cbn [obind]; [|discriminate]. intros E; injection E as <-.
    constructor; [eexists; reflexivity | eapply IH; [|exact R]; lia].
Qed.
(** The types of the parameters are printed, too. *)
Lemma param_toks_types c names : forall tys ps, length tys = length names -> param_toks cx c names tys = Some ps ->
  Forall2 (fun t p => exists t' n ts, t = AKnown t' /\ ty_toks cx c t' = Some ts /\ p = ri "mut" :: RId n :: rp ":" :: ts) tys ps.
Proof.
  induction names as [|n names IH]; intros [|t tys] ps L; cbn in L; try discriminate; cbn [param_toks].
  - intros E; injection E as <-; constructor.
  - destruct t; try discriminate. destruct (ident_tok n) as [id|] eqn:D; cbn [obind]; [|discriminate]. apply ident_tok_inv in D as ->.
    destruct (ty_toks cx c t) as [ts|] eqn:T; cbn [obind]; [|discriminate].
    destruct (param_toks cx c names tys) as [r|] eqn:R; cbn [obind]; [|discriminate]. intros E; injection E as <-.
    constructor; [eauto 6 | eapply IH; [|exact R]; lia].
Qed.

Lemma variadic_iff c : is_variadic c = true <-> exists l, lc_names c = l ++ [st "..."].
Proof.
  unfold is_variadic. split.
  - destruct (rev (lc_names c)) as [|n r] eqn:E; [discriminate|]. intros H. apply str_eqb_eq in H as ->.
    exists (rev r). rewrite <- (rev_involutive (lc_names c)), E. reflexivity.
  - intros [l ->]. rewrite rev_app_distr. apply str_eqb_refl.
Qed.
Lemma known_iff l : forallb is_known l = true <-> forall t, In t l -> exists t', t = AKnown t'.
Proof.
  rewrite forallb_forall. split; intros H t I0; specialize (H t I0).
  - destruct t; try discriminate. eauto.
  - destruct H as [t' ->]. reflexivity.
Qed.

Theorem C45 m m' ts : fn_generate cx m = (m', ROk ts) ->
  exists i, infers m i /\ length (inf_types i) = length (fm_args m) /\
    ((expressible cx m i /\ exists params ret body, ts = function_item (fm_name m) params ret body /\ Forall2 is_param (fm_args m) params) \/
     (~ expressible cx m i /\ exists patterns body, ts = macro_item (fm_name m) patterns body /\ Forall2 is_pattern (fm_args m) patterns)).
Proof.
  unfold fn_generate. destruct (arg_types cx (fm_name m) (fm_args m)) as [tys|er| |] eqn:A;
    try (intros E; apply (f_equal snd) in E; discriminate E).
  destruct (body_finish cx (fm_body m) _) as [[b c1] f] eqn:F. intros E. apply (f_equal snd) in E. cbn [snd] in E.
  destruct f as [ret|er| |]; cbn [ofres] in E; try discriminate E.
  pose proof (body_sgood cx _ _ _ _ _ F) as (_ & S & O). destruct (O I) as [M1 M2]. clear O.
  destruct S as (S1 & _ & _ & _ & S5 & _). cbn in S1, S5. rewrite (arg_types_length _ _ _ A) in S5.
  exists (mk_inferred b (lc_types c1) ret). split; [exists tys, c1; auto|]. split; [exact S5|].
  set (mac := lc_macro c1 || _ || _ || _ || _) in E.
  assert (D : mac = false <-> expressible cx m (mk_inferred b (lc_types c1) ret)).
  { subst mac. rewrite !orb_false_iff. unfold expressible. cbn [inf_types inf_ret inf_body].
    rewrite negb_false_iff, known_iff.
    assert (V : is_variadic c1 = false <-> forall l, fm_args m <> l ++ [st "..."]).
    { rewrite <- not_true_iff_false, variadic_iff, S1. split; [intros H l Q; apply H; eauto | intros H [l Q]; apply (H l Q)]. }
    assert (R : match ret with None => true | Some _ => false end = false <-> exists t, ret = Some t).
    { destruct ret; split; eauto; try discriminate. intros [t Q]; discriminate. }
    assert (C : match cx_fn cx (fm_name m) with Some _ => true | None => false end = false <-> cx_fn cx (fm_name m) = None)
      by (destruct (cx_fn cx (fm_name m)); split; congruence).
    assert (Mm : lc_macro c1 = false <-> ~ Exists (needs_macro cx) (body_mentions b)).
    { split.
      - intros Q X. apply Exists_exists in X as (x & X1 & X2). rewrite Forall_forall in M2. destruct (M2 x X1) as [Y _].
        rewrite (Y X2) in Q. discriminate.
      - intros X. apply not_true_iff_false. intros Q. destruct (M1 Q) as [Q1|Q1]; [discriminate | exact (X Q1)]. }
    rewrite V, R, C, Mm. tauto. }
  apply rbind_inv in E as (name & E1 & E). apply opanic_inv, ident_tok_inv in E1 as ->.
  apply rbind_inv in E as (body & _ & E).
  cbn [lc_macro set_macro] in E. destruct mac.
  - right. split; [intros X; apply D in X; discriminate|].
    apply rbind_inv in E as (args & E1 & E). apply opanic_inv in E1.
    apply rbind_inv in E as (mid & E2 & E). apply opanic_inv, ident_tok_inv in E2 as ->. injection E as <-.
    exists args, body. split; [reflexivity|]. eapply pattern_toks_spec; [|exact E1]. exact S5.
  - left. split; [apply D; reflexivity|].
    apply rbind_inv in E as (args & E1 & E). apply opanic_inv in E1.
    apply rbind_inv in E as (rt & _ & E). injection E as <-.
    exists args, rt, body. split; [reflexivity|]. eapply param_toks_spec; [|exact E1]. exact S5.
Qed.
End G.

(** The two shapes are different, so the theorem decides which one it is. *)
Theorem C45_distinct name ps r b name' qs b' : function_item name ps r b <> macro_item name' qs b'.
Proof. discriminate. Qed.

(** Both cases occur: with the type of the parameter, and without. *)
Definition demo_cx : cgctx :=
  mk_cgctx None None None (fun m a => if str_eqb m (st "TWICE") && str_eqb a (st "x") then Some (plain_ty "c_int") else None)
    (fun _ => None) (fun _ => None) (fun _ _ => None) (fun _ => None).
Definition demo_macro (name : string) : fn_macro :=
  mk_fn_macro (st name) [st "x"] (MbExpr (EBinary (EVar (IArg 0)) OMul (EVar (IArg 0)))).
Example C45_function :
  snd (@fn_generate demo_unicode demo_cx (demo_macro "TWICE")) =
  ROk (function_item (st "TWICE") [[ri "mut"; ri "x"; rp ":"; ri "c_int"]] (Some [ri "c_int"]) [ri "x"; rp "*"; ri "x"]).
Proof. vm_compute. reflexivity. Qed.
Example C45_macro :
  snd (@fn_generate demo_unicode demo_cx (demo_macro "OTHER")) =
  ROk (macro_item (st "OTHER") [[rp "$"; ri "x"; rp ":"; ri "expr"]] [rp "$"; ri "x"; rp "*"; rp "$"; ri "x"]).
Proof. vm_compute. reflexivity. Qed.

Print Assumptions C45.
