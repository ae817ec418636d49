(** C67: a string that is made of several parts has their text. *)
From Verif Require Import Base Utf Lex LexFloat Token Ast ParseStmt MacroSet Rust Finish Codegen SpecGen StrFacts FinishFacts FinishEq
  SpecRust SpecText PropGenStr PropFnGen PropFragment.
From Coq Require Import String List Lia Bool.
Import ListNotations.
Local Open Scope string_scope.
Local Open Scope list_scope.

Section P.
Context {U : Unicode}.
Variable cx : cgctx.
Variable u : user.
Hypothesis TC : tidy_ctx cx.
Hypothesis TS : free_of ";" (pfx (cx_trait cx)).

Lemma literal_bytes e b : literal_part e b -> exists s, e = ELit (LString s) /\ lit_string_as_bytes s = Some b.
Proof. intros []; eauto. Qed.

(** ** Inference *)
Lemma literals_finish l bs : Forall2 literal_part l bs -> forall done acc cur c,
  concat_finish (expr_finish cx) done l acc cur c =
  (EConcat (done ++ l), push_string acc (match l, cur with [], _ => cur | _, Some a => Some (a ++ concat bs) | _, None => Some (concat bs) end), c, FOk None).
Proof.
  induction 1 as [|e b l bs E F IH]; intros done acc cur c; [cbn; now rewrite app_nil_r|].
  apply literal_bytes in E as (s & -> & B). cbn [concat_finish]. rewrite expr_finish_eq. cbn [finish_step].
  assert (exists t, lit_finish cx (LString s) c = FOk t) as (t & ->).
  { destruct s; try discriminate B; cbn; eauto. }
  rewrite B. rewrite IH, <- app_assoc. cbn [app]. do 3 f_equal. destruct l, cur; cbn [concat]; f_equal; inversion F; subst; cbn [concat]; rewrite ?app_nil_r, ?app_assoc; reflexivity.
Qed.
Lemma others_finish names l bs : Forall2 (other_part u names) l bs -> forall done acc c self ns c' f,
  concat_finish (expr_finish cx) done l acc None c = (self, ns, c', f) -> isok f -> ns = acc ++ l.
Proof.
  induction 1 as [|e b l bs E F IH]; intros done acc c self ns c' f; [cbn; intros Q; injection Q as <- <- <- <-; now rewrite app_nil_r|].
  assert (S : exists c1 r, expr_finish cx e c = (e, c1, r)).
  { rewrite expr_finish_eq. destruct E; cbn [finish_step].
    - destruct (stringify_finish _ c); eauto.
    - destruct (var_finish _ _ c); eauto.
    - destruct (var_finish _ _ c); eauto. }
  destruct S as (c1 & r & S). cbn [concat_finish]. rewrite S.
  destruct r; try (intros Q K; injection Q as <- <- <- <-; exfalso; exact K).
  intros Q K. assert (G : concat_finish (expr_finish cx) (done ++ [e]) l (acc ++ [e]) None c1 = (self, ns, c', f)).
  { destruct E; exact Q. }
  apply IH in G; [|exact K]. now rewrite G, <- app_assoc.
Qed.
Lemma text_finish names e bs c e' c' f : text_of u names e bs -> expr_finish cx e c = (e', c', f) -> isok f ->
  literal_part e' bs \/
  (exists l bss, (e' = EConcat l /\ l <> [] \/ l = [e'] /\ forall i, e' <> EVar (IArg i)) /\ Forall2 (other_part u names) l bss /\ bs = concat bss).
Proof.
  intros T. rewrite expr_finish_eq. destruct T as [e b L|i x N V| |e b l bs F|e e0 l bs F].
  - destruct L; cbn [finish_step]; intros Q _; injection Q as <- <- <-; left; constructor.
  - cbn [finish_step]. destruct (stringify_finish _ c). intros Q _; injection Q as <- <- <-. right. exists [EStringify (EVar (IArg i))]. eexists [_].
    split; [right; split; [reflexivity|discriminate]|]. split; [repeat constructor; eassumption|cbn; now rewrite app_nil_r].
  - cbn [finish_step]. destruct (var_finish _ _ c). intros Q _; injection Q as <- <- <-. right. exists [EVar (IPlain (st "__FILE__"))]. eexists [_].
    split; [right; split; [reflexivity|discriminate]|]. split; [repeat constructor; eassumption|cbn [concat]; now rewrite app_nil_r].
  - cbn [finish_step]. rewrite (literals_finish _ _ F). cbn [push_string app]. rewrite expr_finish_eq. cbn [finish_step lit_finish string_finish].
    intros Q _; injection Q as <- <- <-. left. constructor.
  - cbn [finish_step]. destruct (concat_finish _ _ _ _ _ _) as [[[self ns] c1] r] eqn:G. intros Q K.
    assert (O : isok r).
    { destruct r; [exact I| | |]; destruct ns as [|? [|]]; injection Q as <- <- <-; exact K. }
    pose proof (others_finish _ _ _ F _ _ _ _ _ _ _ G O) as ->. cbn [app] in Q. destruct r; try (exfalso; exact O).
    injection Q as <- <- <-. right. exists (e :: e0 :: l), bs. split; [left; split; [reflexivity|discriminate]|]. split; [exact F|reflexivity].
Qed.

(** ** Printing *)
Lemma operand_macro m l : (m = "file" \/ m = "stringify") -> operand u (pfx (cx_trait cx) ++ [ri m; rp "!"; parens l]) = operand u [ri m; rp "!"; parens l].
Proof. intros H. unfold operand. rewrite rev_app_distr. destruct H as [-> | ->]; reflexivity. Qed.
Definition piece_toks (c : lctx) (e : expr) : option (list rtok) :=
  match e with
  | EVar (IPlain n) => if str_eqb n (st "__FILE__") then Some (file_toks cx) else etoks cx c e
  | EStringify a => stringify_inner cx c a
  | _ => etoks cx c e
  end.
Lemma other_operand c e b ts : other_part u (lc_names c) e b -> (lc_macro c = true \/ forall i, e <> EVar (IArg i)) ->
  piece_toks c e = Some ts -> operand u ts = Some b /\ free_of "," ts.
Proof.
  intros [i x N V|i x s N V L|] M; cbn [piece_toks].
  - cbn [stringify_inner]. unfold arg_name. rewrite N. cbn [obind]. destruct (ident_tok x) as [t|] eqn:D; cbn [obind]; [|discriminate].
    apply ident_tok_inv in D as ->. intros Q; injection Q as <-. split; [|apply free_app; split; [apply TC|reflexivity]].
    rewrite operand_macro by auto. reflexivity.
  - cbn [etoks var_toks ident_toks]. unfold arg_toks, arg_name. rewrite N. cbn [obind]. destruct (str_eqb_spec x (st "...")); [contradiction|].
    destruct (ident_tok x) as [t|] eqn:D; cbn [obind]; [|discriminate]. apply ident_tok_inv in D as ->.
    destruct M as [-> |M]; [|destruct (M i); reflexivity]. intros Q; injection Q as <-. split; [|reflexivity].
    cbn. now rewrite L.
  - rewrite str_eqb_refl. intros Q; injection Q as <-. unfold file_toks. split; [|apply free_app; split; [apply TC|reflexivity]].
    rewrite operand_macro by auto. reflexivity.
Qed.
Lemma concat_points c (tss : list (list rtok)) bs : Forall2 (fun ts b => operand u ts = Some b /\ free_of "," ts) tss bs -> tss <> [] ->
  points_at u (c_char_ptr cx c (concat_toks cx (sep_by (rp ",") tss ++ [rp ","; nul]))) = Some (concat bs ++ [0%N]).
Proof.
  intros F NE. unfold points_at, c_char_ptr.
  set (v := concat_toks cx (sep_by (rp ",") tss ++ [rp ","; nul]) ++ [rp "."; ri "as_bytes"; parens []]).
  assert (E : const_block (ptr_block "BYTES" (static_ref c [brackets [ri "u8"]]) v (ri "as" :: rp "*" :: ri "const" :: pfx (cx_ffi cx) ++ [ri "c_char"])) = Some (static_ref c [brackets [ri "u8"]], v)).
  { apply block_read.
    - unfold static_ref. intros p I. simpl in I. destruct (lc_elide c); decompose [or] I; subst; try tauto; reflexivity.
    - unfold v, concat_toks. apply free_app. split; [apply free_app; split; [exact TS|reflexivity]|reflexivity]. }
  unfold ptr_block in E. unfold v in E at 1. rewrite <- app_assoc in E. cbn [app] in E. cbn [app]. rewrite E. clear E.
  assert (C : commas (sep_by (rp ",") tss ++ [rp ","; nul]) = tss ++ [[nul]]).
  { clear - F NE. induction F as [|ts b tss bs [_ P] F IH]; [contradiction|]. destruct tss as [|t tss].
    - cbn [sep_by]. change (ts ++ [rp ","; nul]) with (ts ++ rp "," :: [nul]). rewrite (commas_one ts [nul] P). reflexivity.
    - change (sep_by (rp ",") (ts :: t :: tss)) with (ts ++ rp "," :: sep_by (rp ",") (t :: tss)). rewrite <- app_assoc. cbn [app].
      rewrite (commas_one ts _ P), IH by discriminate. reflexivity. }
  assert (D : option_map (@concat N) (all_some (map (operand u) (tss ++ [[nul]]))) = Some (concat bs ++ [0%N])).
  { clear - F. rewrite map_app.
    assert (A : forall z y, all_some z = Some y -> all_some (map (operand u) tss ++ z) = Some (bs ++ y)).
    { induction F as [|ts b tss bs [O _] F IH]; intros z y Y; [exact Y|]. cbn [map app all_some]. rewrite O, (IH z y Y). reflexivity. }
    rewrite (A (map (operand u) [[nul]]) [[0%N]] eq_refl). cbn [option_map]. now rewrite concat_app. }
  unfold bytes_of, v, concat_toks. rewrite <- app_assoc. cbn [app].
  assert (R : rev (pfx (cx_trait cx) ++ [ri "concat"; rp "!"; parens (sep_by (rp ",") tss ++ [rp ","; nul]); rp "."; ri "as_bytes"; parens []]) =
    [parens []; ri "as_bytes"; rp "."; parens (sep_by (rp ",") tss ++ [rp ","; nul]); rp "!"; ri "concat"] ++ rev (pfx (cx_trait cx))).
  { now rewrite rev_app_distr. }
  rewrite R. cbn [app parens]. rewrite C, D.
  destruct (pfx (cx_trait cx)) as [|t0 p]; [reflexivity|]. cbn [app]. destruct t0 as [| | |l|]; try reflexivity. destruct l; try reflexivity. destruct p; reflexivity.
Qed.

Lemma text_points names e bs c e' c' f ts : text_of u names e bs -> expr_finish cx e c = (e', c', f) -> isok f -> forall c2, lc_names c2 = names ->
  lc_macro c2 = true \/ (forall l i, e = EConcat l -> ~ In (EVar (IArg i)) l) -> etoks cx c2 e' = Some ts -> points_at u ts = Some (bs ++ [0%N]).
Proof.
  intros T F K c2 NM M E. destruct (text_finish _ _ _ _ _ _ _ T F K) as [L|(l & bss & X & P & ->)].
  - unfold points_at. destruct L; cbn [etoks lit_toks string_toks omap snd] in E; injection E as <-.
    + rewrite block_read; [reflexivity| |reflexivity]. unfold static_ref. intros p I. simpl in I. destruct (lc_elide c2); decompose [or] I; subst; try tauto; reflexivity.
    + rewrite block_read; [reflexivity| |reflexivity]. intros p I. simpl in I. decompose [or] I; subst; try tauto; reflexivity.
  - assert (MM : forall e0, In e0 l -> lc_macro c2 = true \/ forall i, e0 <> EVar (IArg i)).
    { destruct M as [M|M]; [auto|]. intros e0 I0. right. intros i ->. destruct X as [[-> X]|[-> X]].
      - assert (expr_finish cx e c = (EConcat l, c', f) -> False); [|tauto]. clear - T K M I0 P TC TS.
        intro F. destruct T as [e b L|? ? N V| |e b l0 bs F0|e e0 l0 bs F0].
        + apply literal_bytes in L as (s & -> & B). rewrite expr_finish_eq in F. cbn [finish_step] in F. discriminate F.
        + rewrite expr_finish_eq in F. cbn [finish_step] in F. destruct (stringify_finish _ c). discriminate F.
        + rewrite expr_finish_eq in F. cbn [finish_step] in F. destruct (var_finish _ _ c). discriminate F.
        + rewrite expr_finish_eq in F. cbn [finish_step] in F. rewrite (literals_finish _ _ F0) in F. cbn [push_string app] in F.
          rewrite expr_finish_eq in F. cbn [finish_step lit_finish string_finish] in F. discriminate F.
        + rewrite expr_finish_eq in F. cbn [finish_step] in F. destruct (concat_finish _ _ _ _ _ _) as [[[self ns] c1] r] eqn:G.
          assert (O : isok r).
          { destruct r; [exact I| | |]; destruct ns as [|? [|]]; injection F as _ _ <-; exact K. }
          pose proof (others_finish _ _ _ F0 _ _ _ _ _ _ _ G O) as ->. cbn [app] in F. destruct r; try (exfalso; exact O).
          injection F as <- _ _. eapply M; [reflexivity|exact I0].
      - destruct I0 as [->|[]]. destruct (X i); reflexivity. }
    assert (Z : forall tss, Forall2 (fun e ts => piece_toks c2 e = Some ts) l tss -> Forall2 (fun ts b => operand u ts = Some b /\ free_of "," ts) tss bss).
    { clear X. revert P MM. clear - NM TC. induction 1 as [|e0 b l bss O P IH]; intros MM tss H; inversion H; subst; constructor.
      - eapply other_operand; [exact O|apply MM; now left|assumption].
      - apply IH; [|assumption]. intros e1 I1. apply MM. now right. }
    destruct X as [[-> X]|[-> X]].
    + cbn [etoks] in E. change (fun e : expr => match e with EVar (IPlain n) => _ | EStringify a => _ | _ => _ end) with (piece_toks c2) in E.
      destruct (exprs_toks (piece_toks c2) l) as [tss|] eqn:Q; cbn [obind] in E; [|discriminate]. injection E as <-.
      assert (Q' : Forall2 (fun e ts => piece_toks c2 e = Some ts) l tss).
      { clear - Q. revert tss Q. induction l as [|e0 l IH]; cbn [exprs_toks]; intros tss Q; [injection Q as <-; constructor|].
        destruct (piece_toks c2 e0) as [t|] eqn:A; cbn [obind] in Q; [|discriminate]. destruct (exprs_toks _ l) as [r|]; cbn [obind] in Q; [|discriminate].
        injection Q as <-. constructor; auto. }
      apply concat_points; [auto|]. intros ->. inversion Q'; subst. contradiction.
    + assert (Q : exists t, piece_toks c2 e' = Some t /\ ts = c_char_ptr cx c2 (concat_toks cx (sep_by (rp ",") [t] ++ [rp ","; nul]))).
      { inversion P as [|? b ? ? O R]; subst. inversion O; subst; cbn [etoks stringify_toks] in E; cbn [piece_toks].
        - unfold stringify_toks in E. destruct (stringify_inner cx c2 _); cbn [obind] in E; [|discriminate]. injection E as <-. eauto.
        - exfalso. eapply X. reflexivity.
        - cbn [var_toks] in E. replace (str_eqb (st "__FILE__") (st "__LINE__")) with false in E by reflexivity. rewrite str_eqb_refl in E. injection E as <-.
          rewrite str_eqb_refl. eauto. }
      destruct Q as (t & Q & ->). apply concat_points; [|discriminate]. apply Z. constructor; [exact Q|constructor].
Qed.

(** A function-like macro.  The string that is generated has the text of the
    parts and is terminated.  [_partial]: without the parts for which this fails,
    see below; and parameters as parts only if a macro is generated. *)
Theorem C67_partial m m' e bs ts : fm_body m = MbExpr e -> text_of u (fm_args m) e bs -> fn_generate cx m = (m', ROk ts) ->
  (exists patterns body, ts = macro_item (fm_name m) patterns body /\ points_at u body = Some (bs ++ [0%N])) \/
  (exists params ret body, ts = function_item (fm_name m) params ret body /\
    ((forall l i, e = EConcat l -> ~ In (EVar (IArg i)) l) -> points_at u body = Some (bs ++ [0%N]))).
Proof.
  unfold fn_generate. intros B T. rewrite B. destruct (arg_types cx (fm_name m) (fm_args m)) as [tys|er| |] eqn:A;
    try (intros E; apply (f_equal snd) in E; discriminate E).
  destruct (body_finish cx (MbExpr e) _) as [[b c1] f] eqn:F. intros E. apply (f_equal snd) in E. cbn [snd] in E.
  destruct f as [ret|er| |]; cbn [ofres] in E; try discriminate E.
  assert (N : lc_names c1 = fm_args m).
  { pose proof (body_sgood cx _ _ _ _ _ F) as (_ & S & _). destruct S as (S1 & _). cbn in S1. congruence. }
  cbn [body_finish] in F. destruct (expr_finish cx e _) as [[e' c2] f] eqn:F'. injection F as <- <- ->.
  set (mac := lc_macro c2 || _ || _ || _ || _) in E.
  apply rbind_inv in E as (name & E1 & E). apply opanic_inv, ident_tok_inv in E1 as ->.
  apply rbind_inv in E as (body & Bd & E). apply opanic_inv in Bd. cbn [body_toks] in Bd.
  pose proof (fun H => text_points _ _ _ _ _ _ _ body T F' I (set_macro mac c2) N H Bd) as P. cbn [lc_macro set_macro] in P, E.
  destruct mac.
  - left.
    apply rbind_inv in E as (args & E1 & E). apply opanic_inv in E1.
    apply rbind_inv in E as (mid & E2 & E). apply opanic_inv, ident_tok_inv in E2 as ->. injection E as <-.
    exists args, body. split; [reflexivity|]. auto.
  - right.
    apply rbind_inv in E as (args & E1 & E). apply rbind_inv in E as (rt & _ & E). injection E as <-.
    exists args, rt, body. split; [reflexivity|]. auto.
Qed.

(** A variable-like macro of adjacent literals: the constant has their bytes. *)
Theorem C67_variable name e b l bs : Forall2 literal_part (e :: l) (b :: bs) ->
  exists v ty, snd (var_generate cx (mk_var_macro name (MbExpr (EConcat (e :: l))))) = ROk (v, Some ty) /\
    let units := map Z.of_N (concat (b :: bs)) ++ [0%Z] in
    (declared_length ty = Some (Z.of_nat (length units)) /\ array_elements v = Some units \/ cstr_elements v = Some units).
Proof.
  intros F. unfold var_generate. cbn [vm_body]. rewrite expr_finish_eq. cbn [finish_step]. rewrite (literals_finish _ _ F). cbn [push_string app].
  rewrite expr_finish_eq. cbn [finish_step lit_finish string_finish snd ofres].
  set (bytes := concat (b :: bs)). destruct (string_toks cx (var_lctx cx) (SOrdinary bytes) true) as [[ty v]|] eqn:S.
  - cbn [opanic rbind fst snd lc_macro var_lctx]. exists v, ty. split; [reflexivity|].
    destruct (string_array cx _ _ _ _ TC S) as [[X Y]|[X _]]; [left; split; [exact X|exact Y]|right; exact X].
  - exfalso. unfold string_toks in S. destruct (lc_cstr _ && _); discriminate S.
Qed.
End P.

(** ** The parts for which it fails *)

(** [$x:kind]. *)
Definition param_of (x kind : string) : list rtok := [rp "$"; ri x; rp ":"; ri kind].
(** A literal beside another part, here [#x "a"], is generated as a block, which
    is not an operand of [concat!]; there is no text whatever is given for [x]. *)
Theorem C67_literal_refuted : exists out, becomes ["x"] ["#"; "x"; """a"""] [param_of "x" "expr"] out /\ forall u, points_at u out = None.
Proof. eexists. split; [becomes|]. intro u. vm_compute. reflexivity. Qed.
(** So is a pasted name, [concat_idents!]: [a ## b c]. *)
Theorem C67_paste_refuted : exists out, becomes ["a"; "b"; "c"] ["a"; "##"; "b"; "c"] [param_of "a" "ident"; param_of "b" "ident"; param_of "c" "expr"] out /\
  forall u, points_at u out = None.
Proof. eexists. split; [becomes|]. intro u. vm_compute. reflexivity. Qed.
(** [#define STR(s) #s], [#define STR2(s) STR(s)], [#define F() STR2(arg)]. *)
Definition stringified (arg : string) (out : list rtok) : Prop :=
  exists ps b m,
    let d s name params body := fst (define_fn_macro s (st name) (map st params) (map st body)) in
    let s := d (d (d (mk_set [] []) "STR" ["s"] ["#"; "s"]) "STR2" ["s"] ["STR"; "("; "s"; ")"]) "F" [] ["STR2"; "("; arg; ")"] in
    @expand_fn_macro demo_unicode s 20 (st "F") = ROk (ps, b) /\
    @fn_macro_parse demo_unicode (st "F") ps b = ROk m /\
    snd (@fn_generate demo_unicode cx_unit m) = ROk (macro_item (st "F") [] out).
(** The number of the line is not in the text of [STR2(__LINE__)]. *)
Theorem C67_line_refuted : exists out, stringified "__LINE__" out /\ forall u, points_at u out = Some (st "line!()" ++ [0%N]).
Proof. eexists. split; [becomes|]. intro u. vm_compute. reflexivity. Qed.
(** [STR2(__FILE__)] is [concat!(format!(..))], which is not a literal. *)
Theorem C67_file_refuted : exists out, stringified "__FILE__" out /\ forall u, points_at u out = None.
Proof. eexists. split; [becomes|]. intro u. vm_compute. reflexivity. Qed.
(** If the type of [x] is known, [x x] becomes a function that passes its
    parameter to [concat!]. *)
Definition ptr_cx : cgctx :=
  mk_cgctx None None None (fun _ _ => Some (STPtr false (plain_ty "c_char"))) (fun _ => None) (fun _ => None) (fun _ _ => None) (fun _ => None).
Theorem C67_function_refuted : let x := EVar (IArg 0) in exists ret out,
  snd (@fn_generate demo_unicode ptr_cx (mk_fn_macro (st "F") [st "x"] (MbExpr (EConcat [x; x])))) =
    ROk (function_item (st "F") [[ri "mut"; ri "x"; rp ":"; rp "*"; ri "const"; ri "c_char"]] (Some ret) out) /\
  forall u, points_at u out = None.
Proof. eexists [_; _; _]. eexists. split; [vm_compute; reflexivity|]. intro u. vm_compute. reflexivity. Qed.

(** ** Cases of the theorems *)

(** [__FILE__ #x x], used as [F("y")] in [a.rs]. *)
Definition demo_user : user := mk_user (fun _ => st """y""") (fun _ => Some (st "y")) (st "a.rs").
Definition demo_text : expr := EConcat [EVar (IPlain (st "__FILE__")); EStringify (EVar (IArg 0)); EVar (IArg 0)].
Example C67_case : tidy_ctx cx_unit /\ free_of ";" (pfx (cx_trait cx_unit)) /\
  text_of demo_user [st "x"] demo_text (st "a.rs""y""y") /\
  exists ts, snd (@fn_generate demo_unicode cx_unit (mk_fn_macro (st "F") [st "x"] (MbExpr demo_text))) = ROk ts.
Proof.
  split; [apply C31_unit_tidy|]. split; [reflexivity|]. split; [|eexists; vm_compute; reflexivity].
  change (st "a.rs""y""y") with (concat [st "a.rs"; st """y"""; st "y"]). apply TO_others.
  constructor; [exact (OP_file demo_user _)|]. constructor; [apply (OP_spelled demo_user _ 0 (st "x")); [reflexivity|discriminate]|].
  constructor; [|constructor]. apply (OP_given demo_user _ 0 (st "x") (st "y")); [reflexivity|discriminate|reflexivity].
Qed.
Example C67_variable_case : Forall2 literal_part [ELit (LString (SOrdinary (st "a"))); ELit (LString (SUtf8 [0xE9%N]))] [st "a"; [0xC3; 0xA9]%N].
Proof. constructor; [constructor|]. constructor; [apply (LP_utf8 [0xE9%N])|constructor]. Qed.

Print Assumptions C67_partial.
Print Assumptions C67_variable.
Print Assumptions C67_literal_refuted.
Print Assumptions C67_paste_refuted.
Print Assumptions C67_line_refuted.
Print Assumptions C67_file_refuted.
Print Assumptions C67_function_refuted.
