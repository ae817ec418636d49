(** C66: what a generated macro accepts for a parameter suits the uses of the
    parameter. *)
From Verif Require Import Base Utf Lex LexFloat Token Ast ParseStmt MacroSet Rust Finish Codegen SpecGen StrFacts FinishFacts
  SpecFragment FragmentFacts PropFnGen.
From Coq Require Import String List Lia Bool.
Import ListNotations.
Local Open Scope string_scope.
Local Open Scope list_scope.

Section P.
Context {U : Unicode}.
Variable cx : cgctx.

Definition kind_of (t : arg_ty) : string := match t with AIdent => "ident" | ATy => "ty" | ATt => "tt" | _ => "expr" end.
Lemma pattern_toks_kind names : forall tys ps, pattern_toks names tys = Some ps -> forall i x t,
  nth_error names i = Some x -> nth_error tys i = Some t -> x <> st "..." -> nth_error ps i = Some [rp "$"; RId x; rp ":"; ri (kind_of t)].
Proof.
  induction names as [|n names IH]; intros tys ps; cbn [pattern_toks].
  - intros _ [|i] x t; cbn; discriminate.
  - destruct tys as [|t0 tys]; [intros _ i x t _; destruct i; cbn; discriminate|].
    destruct (str_eqb_spec n (st "...")) as [->|N].
    + cbn [obind]. destruct (pattern_toks names tys) as [r|] eqn:R; cbn; [|discriminate]. intros E; injection E as <-.
      intros [|i] x t; cbn [nth_error]; [|apply IH; exact R]. intros X _ Y; injection X as <-. contradiction.
    + destruct (ident_tok n) as [id|] eqn:D; cbn [obind]; [|discriminate]. apply ident_tok_inv in D as ->.
      destruct (pattern_toks names tys) as [r|] eqn:R; cbn [obind]; [|discriminate]. intros E; injection E as <-.
      intros [|i] x t; cbn [nth_error]; [|apply IH; exact R]. intros X Y _; injection X as <-; injection Y as <-. destruct t0; reflexivity.
Qed.
Lemma param_toks_nth c names : forall tys ps, length tys = length names -> param_toks cx c names tys = Some ps -> forall i x,
  nth_error names i = Some x -> exists t ts, nth_error tys i = Some (AKnown t) /\ ty_toks cx c t = Some ts /\
  nth_error ps i = Some (ri "mut" :: RId x :: rp ":" :: ts).
Proof.
  induction names as [|n names IH]; intros [|t tys] ps L; cbn in L; try discriminate; cbn [param_toks].
  - intros _ [|i] x; cbn; discriminate.
  - destruct t; try discriminate. destruct (ident_tok n) as [id|] eqn:D; cbn [obind]; [|discriminate]. apply ident_tok_inv in D as ->.
    destruct (ty_toks cx c t) as [ts|] eqn:T; cbn [obind]; [|discriminate].
    destruct (param_toks cx c names tys) as [r|] eqn:R; cbn [obind]; [|discriminate]. intros E; injection E as <-.
    intros [|i] x; cbn [nth_error]; [|eapply IH; [lia|exact R]]. intro X; injection X as <-. eauto.
Qed.
Lemma arg_types_nth name l : forall tys, arg_types cx name l = ROk tys -> forall i x, nth_error l i = Some x ->
  match cx_arg_ty cx name x with
  | Some r => exists t, from_rust_ty (cx_ffi cx) r = ROk t /\ nth_error tys i = Some (AKnown t)
  | None => nth_error tys i = Some AUnknown
  end.
Proof.
  induction l as [|a l IH]; intros tys; cbn [arg_types].
  - intros _ [|i] x; cbn; discriminate.
  - intro E. apply rbind_inv in E as (t & T & E). apply rbind_inv in E as (r & R & E). injection E as <-.
    intros [|i] x; cbn [nth_error]; [|apply IH; exact R]. intro X; injection X as <-.
    destruct (cx_arg_ty cx name a) as [ty|].
    + apply rbind_inv in T as (t' & T & E). injection E as <-. eauto.
    + injection T as <-. reflexivity.
Qed.

(** What is known about a parameter in the end. *)
Lemma inferred_use m tys b c f i x : arg_types cx (fm_name m) (fm_args m) = ROk tys ->
  body_finish cx (fm_body m) (mk_lctx (fm_args m) tys false true true false) = (b, c, f) -> isok f -> nth_error (fm_args m) i = Some x ->
  exists t0 t, arg_type c i = Some t /\ explained cx (fun k => body_uses cx k i (fm_body m)) t0 t /\
    (forall k, body_uses cx k i (fm_body m) -> settles k t) /\
    match cx_arg_ty cx (fm_name m) x with
    | Some r => exists t1, from_rust_ty (cx_ffi cx) r = ROk t1 /\ t0 = AKnown t1
    | None => t0 = AUnknown
    end.
Proof.
  intros A B F X. apply body_sfrag in B as [C O]. specialize (O F). pose proof (arg_types_nth _ _ _ A _ _ X) as N.
  assert (exists t0, nth_error tys i = Some t0 /\ match cx_arg_ty cx (fm_name m) x with
    | Some r => exists t1, from_rust_ty (cx_ffi cx) r = ROk t1 /\ t0 = AKnown t1 | None => t0 = AUnknown end) as (t0 & T0 & K).
  { destruct (cx_arg_ty cx (fm_name m) x); [destruct N as (t & E & N)|]; eauto. }
  specialize (C i). unfold arg_type at 1 in C. cbn [lc_types] in C. rewrite T0 in C. destruct (arg_type c i) as [t|] eqn:T; [|contradiction].
  exists t0, t. split; [reflexivity|]. split; [exact C|]. split; [|exact K].
  intros k S. destruct (O k i S) as (t' & T' & Z). congruence.
Qed.

(** The function or macro that is generated.  [_partial]: what accepts a type or a
    name where the parameter is used as one is shown for the uses that [body_uses]
    lists; the theorems below show uses that the code overlooks. *)
Theorem C66_partial m m' ts : fn_generate cx m = (m', ROk ts) ->
  (exists params ret body, ts = function_item (fm_name m) params ret body /\ length params = length (fm_args m) /\
    forall i x, nth_error (fm_args m) i = Some x ->
      (exists t c toks, type_for cx m i x t /\ ty_toks cx c t = Some toks /\ nth_error params i = Some (ri "mut" :: RId x :: rp ":" :: toks)) /\
      ~ body_uses cx AsName i (fm_body m) /\ ~ body_uses cx AsText i (fm_body m)) \/
  (exists patterns body, ts = macro_item (fm_name m) patterns body /\ length patterns = length (fm_args m) /\
    forall i x, nth_error (fm_args m) i = Some x -> x <> st "..." ->
      exists kind, nth_error patterns i = Some [rp "$"; RId x; rp ":"; ri kind] /\ fragment_for cx m i x kind).
Proof.
  unfold fn_generate. destruct (arg_types cx (fm_name m) (fm_args m)) as [tys|er| |] eqn:A;
    try (intros E; apply (f_equal snd) in E; discriminate E).
  destruct (body_finish cx (fm_body m) _) as [[b c1] f] eqn:F. intros E. apply (f_equal snd) in E. cbn [snd] in E.
  destruct f as [ret|er| |]; cbn [ofres] in E; try discriminate E.
  assert (L : length (lc_types c1) = length (fm_args m)).
  { pose proof (body_sgood cx _ _ _ _ _ F) as (_ & S & _). destruct S as (_ & _ & _ & _ & S5 & _). cbn in S5. now rewrite (arg_types_length _ _ _ _ A) in S5. }
  set (mac := lc_macro c1 || _ || _ || _ || _) in E.
  apply rbind_inv in E as (name & E1 & E). apply opanic_inv, ident_tok_inv in E1 as ->.
  apply rbind_inv in E as (body & _ & E).
  cbn [lc_macro set_macro] in E. destruct mac.
  - right.
    apply rbind_inv in E as (args & E1 & E). apply opanic_inv in E1.
    apply rbind_inv in E as (mid & E2 & E). apply opanic_inv, ident_tok_inv in E2 as ->. injection E as <-.
    exists args, body. split; [reflexivity|].
    split; [pose proof (pattern_toks_spec _ _ _ L E1) as Z; clear - Z; induction Z; cbn; auto|].
    intros i x X N. destruct (inferred_use _ _ _ _ _ _ _ A F I X) as (t0 & t & T & Ex & St & K).
    exists (kind_of t). split; [eapply pattern_toks_kind; eauto|]. unfold fragment_for.
    assert (ST : cx_arg_ty cx (fm_name m) x = None <-> t0 = AUnknown).
    { destruct (cx_arg_ty cx (fm_name m) x); [destruct K as (t1 & _ & ->); split; discriminate|tauto]. }
    assert (ST' : ~ cx_arg_ty cx (fm_name m) x <> None <-> t0 = AUnknown).
    { rewrite <- ST. destruct (cx_arg_ty cx (fm_name m) x); split; try tauto; try congruence. intro Z. exfalso. apply Z. discriminate. }
    split; [destruct t; cbn; tauto|]. split; [split|split; [|split; [|split]]].
    + intro Q. assert (t = AIdent) as -> by (destruct t; cbn in Q; try discriminate; reflexivity).
      destruct Ex as [Z|[[_ Z]|[[Z _]|(_ & [[Z _]|[[Z _]|(? & ? & Z & _)]])]]]; try discriminate; auto.
      subst t0. destruct (cx_arg_ty cx (fm_name m) x); [destruct K as (? & _ & K)|]; discriminate.
    + intro Q. rewrite (St _ Q : t = AIdent). reflexivity.
    + intro Q. assert (t = ATy) as -> by (destruct t; cbn in Q; try discriminate; reflexivity).
      destruct Ex as [Z|[[Z _]|[[Z _]|(Q0 & [[_ Z]|[[Z _]|(? & ? & Z & _)]])]]]; try discriminate.
      * subst t0. destruct (cx_arg_ty cx (fm_name m) x); [destruct K as (? & _ & K)|]; discriminate.
      * split; [exact Z|]. split; [|now apply ST']. intro Y. destruct (St _ Y); discriminate.
    + intro Q. assert (t = ATt) as -> by (destruct t; cbn in Q; try discriminate; reflexivity).
      destruct Ex as [Z|[[Z _]|[[Z _]|(Q0 & [[Z _]|[[_ Z]|(? & ? & Z & _)]])]]]; try discriminate.
      * subst t0. destruct (cx_arg_ty cx (fm_name m) x); [destruct K as (? & _ & K)|]; discriminate.
      * split; [exact Z|]. split; [|now apply ST']. intro Y. destruct (St _ Y); discriminate.
    + intros Q1 Q2 Q3 Q4 Q5 Q6. apply ST' in Q6 as ->. specialize (St _ Q1). cbn in St.
      destruct Ex as [Z|[[_ Z]|[(_ & _ & Z)|(Q0 & [[-> Z]|[[_ Z]|(? & ? & _ & Z & _)]])]]]; try contradiction; [reflexivity|exfalso; eauto].
    + intros Q1 Q2 Q3 Q4 Q5 Q6. apply ST' in Q6 as ->. specialize (St _ Q1). cbn in St.
      destruct Ex as [Z|[[_ Z]|[(_ & _ & Z)|(Q0 & [[_ Z]|[[-> Z]|(? & ? & _ & Z & _)]])]]]; try contradiction; [reflexivity|exfalso; eauto].
  - left.
    apply rbind_inv in E as (args & E1 & E). apply opanic_inv in E1.
    apply rbind_inv in E as (rt & _ & E). injection E as <-.
    exists args, rt, body. split; [reflexivity|].
    split; [pose proof (param_toks_spec _ _ _ _ _ L E1) as Z; clear - Z; induction Z; cbn; auto|].
    intros i x X. destruct (param_toks_nth _ _ _ _ L E1 _ _ X) as (t & toks & T & Tt & Np).
    destruct (inferred_use _ _ _ _ _ _ _ A F I X) as (t0 & t' & T' & Ex & St & K).
    assert (t' = AKnown t) as -> by (unfold arg_type in T'; cbn in T; congruence).
    split; [|split; intro Y; [discriminate (St _ Y)|destruct (St _ Y); discriminate]].
    eexists t, _, toks. split; [|split; [exact Tt|exact Np]]. unfold type_for.
    destruct Ex as [<-|[[Z _]|[[Z _]|(-> & [[Z _]|[[Z _]|(r & t1 & Z & Y & R)]])]]]; try discriminate.
    + destruct (cx_arg_ty cx (fm_name m) x); [destruct K as (t1 & K & Z); injection Z as ->; exact K|discriminate].
    + injection Z as <-. destruct (cx_arg_ty cx (fm_name m) x); [destruct K as (? & _ & K); discriminate|eauto].
Qed.
End P.

(** ** The uses that are overlooked *)

(** [#define F(params) body] becomes a macro with these patterns and this body. *)
Definition becomes (params body : list string) (patterns : list (list rtok)) (out : list rtok) : Prop :=
  exists ps b m, @expand_fn_macro demo_unicode (fst (define_fn_macro (mk_set [] []) (st "F") (map st params) (map st body))) 10 (st "F") = ROk (ps, b) /\
    @fn_macro_parse demo_unicode (st "F") ps b = ROk m /\
    snd (@fn_generate demo_unicode cx_unit m) = ROk (macro_item (st "F") patterns out).
Ltac becomes := do 3 eexists; split; [vm_compute; reflexivity|]; split; [vm_compute; reflexivity|]; vm_compute; reflexivity.
(** [(t)x]: the type of a cast is accepted as an expression, and so is that of
    [sizeof] and of a declared variable. *)
Theorem C66_cast_refuted : becomes ["t"; "x"] ["("; "t"; ")"; "x"]
  [[rp "$"; ri "t"; rp ":"; ri "expr"]; [rp "$"; ri "x"; rp ":"; ri "expr"]]
  [rp "$"; ri "x"; ri "as"; rp "$"; ri "t"].
Proof. becomes. Qed.
Theorem C66_sizeof_refuted : becomes ["t"] ["sizeof"; "("; "t"; ")"]
  [[rp "$"; ri "t"; rp ":"; ri "expr"]]
  [ri "mem"; rp "::"; ri "size_of"; rp "::"; rp "<"; rp "$"; ri "t"; rp ">"; parens []; ri "as"; ri "c_size_t"].
Proof. becomes. Qed.
(** [struct t *x = 0;]: the name of a variable is accepted as an expression. *)
Theorem C66_declared_refuted : becomes ["t"; "x"] ["struct"; "t"; "*"; "x"; "="; "0"; ";"]
  [[rp "$"; ri "t"; rp ":"; ri "expr"]; [rp "$"; ri "x"; rp ":"; ri "expr"]]
  [ri "let"; ri "mut"; rp "$"; ri "x"; rp ":"; rp "*"; ri "mut"; rp "$"; ri "t"; rp "="; RLit (RlInt 0 []); rp ";"].
Proof. becomes. Qed.
(** [__builtin_offsetof(t, f)] beside [#t] accepts an expression for the type. *)
Theorem C66_text_refuted : exists out, becomes ["t"; "f"] ["__builtin_offsetof"; "("; "t"; ","; "f"; ")"; "+"; "g"; "("; "#"; "t"; ")"]
  [[rp "$"; ri "t"; rp ":"; ri "expr"]; [rp "$"; ri "f"; rp ":"; ri "tt"]] out /\
  firstn 5 out = [ri "mem"; rp "::"; ri "offsetof"; rp "!"; parens [rp "$"; ri "t"; rp ","; rp "$"; ri "f"]].
Proof.
  eexists [_; _; _; _; _; _; _; parens [parens [braces [_; _; _; _; _; _; _; _; parens [_; _; parens _; _; _]; _; _; _; _; _; _; _; _; _; _; _; _]]; _; _; _]].
  split; [becomes|reflexivity].
Qed.

(** A case of the theorem: [#define F(a, b, t, f) p(a->b, __builtin_offsetof(t, f))]. *)
Example C66_case : exists out, becomes ["a"; "b"; "t"; "f"]
  ["p"; "("; "a"; "->"; "b"; ","; "__builtin_offsetof"; "("; "t"; ","; "f"; ")"; ")"]
  [[rp "$"; ri "a"; rp ":"; ri "expr"]; [rp "$"; ri "b"; rp ":"; ri "ident"]; [rp "$"; ri "t"; rp ":"; ri "ty"]; [rp "$"; ri "f"; rp ":"; ri "tt"]] out.
Proof. eexists [_; parens [parens [parens _; _; _; _]; _; _; _; _; parens [_; _; _; _; parens _]; _; _; _]]. becomes. Qed.
(** And of a function: [f(x)] with [f(int) -> int] known. *)
Definition f_cx : cgctx :=
  mk_cgctx None None None (fun _ _ => None) (fun _ => None) (fun _ => None) (fun _ _ => None)
    (fun n => if str_eqb n (st "f") then Some ([plain_ty "c_int"], plain_ty "c_long") else None).
Example C66_function_case : let m := mk_fn_macro (st "F") [st "x"] (MbExpr (ECall (IPlain (st "f")) [EVar (IArg 0)])) in
  snd (@fn_generate demo_unicode f_cx m) =
    ROk (function_item (st "F") [[ri "mut"; ri "x"; rp ":"; ri "c_int"]] (Some [ri "c_long"]) [ri "f"; parens [ri "x"]]) /\
  body_uses f_cx (Passed (plain_ty "c_int")) 0 (fm_body m).
Proof.
  split; [vm_compute; reflexivity|]. cbn. right. left.
  eapply cu_passed with (j := 0); [vm_compute; reflexivity|reflexivity|reflexivity|reflexivity|reflexivity].
Qed.
Print Assumptions C66_partial.
Print Assumptions C66_cast_refuted.
Print Assumptions C66_sizeof_refuted.
Print Assumptions C66_declared_refuted.
Print Assumptions C66_text_refuted.
