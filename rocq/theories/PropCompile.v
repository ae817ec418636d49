(** C68: from the text of the definitions to the value of the generated code. *)
From Verif Require Import Base Utf Lex LexFloat Token Ast Nom MacroSet StrFacts SpecSet SetFacts SpecExpand SpecTokens PropExpand PropComplete SelfFacts PropSelf
  ParseTok ParseExpr ParseStmt Rust Finish Codegen SpecInt SpecAsm SpecType SpecGrammar SpecRustExpr SpecTree SpecFold SpecValue PropFnGen PropTree PropGrammar PropValue.
From Coq Require Import String ZArith Lia List.
Import ListNotations.
Local Open Scope string_scope.
Local Open Scope list_scope.
Local Open Scope Z_scope.

Notation replaced_in h := (replaced token_concat stringify (macros h)).

Lemma Forall2_len {A B} (R : A -> B -> Prop) l1 l2 : Forall2 R l1 l2 -> Datatypes.length l1 = Datatypes.length l2.
Proof. induction 1; cbn; congruence. Qed.

Section Theorems.
Context {U : Unicode}.
(** As in C56: the type of the variables and casts, its name, the platform. *)
Variables (T : int_ty) (bt : builtin) (model : builtin -> option int_ty) (int : Z) (lit_ty : lit_int -> int_ty).
Notation value vars e := (c_val model int lit_ty vars e).

(** The Rust expression [x] has the value that the C expression [e] has, for all
    values of variables and parameters: if Rust accepts it and it does not
    panic, and with a signed type it does not panic. *)
Definition same_value (cx : cgctx) (c : lctx) (e : expr) (x : rx) : Prop :=
  forall vars rvars rint v k,
    full T model int lit_ty vars e -> rint (builtin_toks cx bt) = true -> same_vars T cx c vars rvars ->
    r_kind T rint x = Some k -> value vars e = Some v ->
    (forall r, r_val T rint rvars x = Some r -> r = stands_for k v) /\
    (fst T = true -> r_val T rint rvars x = Some (stands_for k v)).

(** A variable-like macro, after any history of definitions: suppose C replaces
    its text by [toks], which are the expression [e].  Then expanding it, parsing
    the result and generating code succeed or refuse the expression, and
    generated code has the value of [e]. *)
Theorem C68_variable_partial h n text toks body types e cx :
  defined (rev h) n = Some (DVar text) -> is_identifier n = true ->
  replaced_in h [] n (Object (map from_str text)) [] (ROk toks) -> delivered (ROk toks) = ROk body ->
  supported_expression types (uncomment body) e -> of_type T bt model int lit_ty e -> plain_context cx ->
  (exists F, forall fuel, (F <= fuel)%nat -> expand_var_macro (run h) fuel n = ROk body) /\
  exists m, var_macro_parse n body = ROk m /\
    forall m' ts ty, var_generate cx m = (m', ROk (ts, ty)) ->
    exists c e', lc_names c = [] /\ vm_body m' = MbExpr e' /\
      (fine cx c e' -> exists x, reads ts x /\ (forall y, reads ts y -> y = x) /\ same_value cx c e x).
Proof.
  intros D Id R Dl S O P. split.
  - apply (proj2 (C52_expand_var_macro h n text (ROk body) ltac:(discriminate) D)). eauto.
  - destruct (C35_parse_partial types body e S) as [_ Pv]. specialize (Pv n). unfold var_macro_parse in *. rewrite Id in *. cbn [negb] in *.
    destruct (macro_body_parse body) as [r b| |]; try (now destruct Pv); try discriminate.
    eexists. split; [reflexivity|]. intros m' ts ty G. exact (C56_constant_partial T bt model int lit_ty cx _ m' e ts ty P Pv G O).
Qed.

(** *** Calls *)

(** The tokens [w] are the expression [a], whatever they are put next to. *)
Definition operand (types : str -> bool) (w : list mtoken) (a : expr) : Prop :=
  w <> [] /\ uncomment w = w /\ forall r, derives types false Primary (w ++ r) a r.
(** An expression with expressions for its parameters. *)
Fixpoint put (args : list expr) (e : expr) : expr :=
  match e with
  | EVar (IArg i) => nth i args e
  | EUnary op e => EUnary op (put args e)
  | ECast t e => ECast t (put args e)
  | EBinary a op b => EBinary (put args a) op (put args b)
  | ETernary a b d => ETernary (put args a) (put args b) (put args d)
  | e => e
  end.
(** The variables, with values of the type [T] for the parameters. *)
Definition with_values (vals : list Z) (vars : ident_expr -> option (int_ty * Z)) (n : ident_expr) : option (int_ty * Z) :=
  match n with
  | IArg i => match nth_error vals i with Some v => Some (T, v) | None => vars n end
  | _ => vars n
  end.
Definition has_value vars (a : expr) (v : Z) : Prop :=
  c_type model int lit_ty vars a = Some T /\ value vars a = Some v /\ holds T v = true.

Section Put.
Variables (types : str -> bool) (ws : list (list mtoken)) (args : list expr).
Hypothesis Hops : Forall2 (operand types) ws args.
Let g (i : nat) : list mtoken := nth i ws [MArg i].
Let F (l : list mtoken) : list mtoken := flat_map (fun t => match t with MArg i => g i | _ => [t] end) l.

Lemma g_operand i : operand types (g i) (nth i args (EVar (IArg i))).
Proof.
  assert (D : operand types [MArg i] (EVar (IArg i))).
  { split; [discriminate|]. split; [reflexivity|]. intro r. apply d_arg. }
  unfold g. revert D. generalize (MArg i) (EVar (IArg i)). revert i. induction Hops as [|w a l1 l2 O H IH]; intros i m e D; [destruct i; exact D|].
  destruct i as [|i]; [exact O|now apply IH].
Qed.
Lemma F_app a b : F (a ++ b) = F a ++ F b.
Proof. apply flat_map_app. Qed.
Lemma F_cons t l : (forall i, t <> MArg i) -> F (t :: l) = t :: F l.
Proof. intro K. destruct t; try reflexivity. now destruct (K i). Qed.
Lemma F_uncomment l : F (uncomment l) = uncomment (F l).
Proof.
  induction l as [|t l IH]; [reflexivity|]. destruct t; try reflexivity; [|exact IH].
  cbn [uncomment]. change (F (MArg i :: l)) with (g i ++ F l). destruct (g_operand i) as (N & Un & _). destruct (g i) as [|u w]; [now destruct N|].
  destruct u; try reflexivity. exfalso. cbn in Un. apply (f_equal (@Datatypes.length _)) in Un. cbn in Un.
  assert (Le : forall l, (Datatypes.length (uncomment l) <= Datatypes.length l)%nat) by (clear; induction l as [|[] l IH]; cbn; lia).
  specialize (Le w). lia.
Qed.
Lemma F_punct r1 p r2 : uncomment r1 = P p :: r2 -> uncomment (F r1) = P p :: F r2.
Proof. intro E. rewrite <- F_uncomment, E. reflexivity. Qed.
Lemma F_same l : (forall i, ~ In (MArg i) l) -> F l = l.
Proof.
  induction l as [|t l IH]; intro K; [reflexivity|]. rewrite F_cons by (intros i ->; apply (K i); now left). f_equal. apply IH. intros i I. apply (K i). now right.
Qed.
Lemma type_name_no_arg ts t : type_name types ts t -> forall i, ~ In (MArg i) ts.
Proof.
  assert (Q : forall q i, ~ In (MArg i) (quals_tokens q)) by (intros q i; destruct q; cbn; intuition discriminate).
  assert (St : forall ps i, ~ In (MArg i) (concat (map star_tokens ps))).
  { intros ps i I. apply in_concat in I as (l & L & I). apply in_map_iff in L as (x & <- & _). unfold star_tokens in I. destruct I as [I|I]; [discriminate I|].
    apply in_app_iff in I as [I|I]; [apply in_map_iff in I as (y & E & _); discriminate E|now apply Q in I]. }
  intros T0 i I. destruct T0 as [ws0 b pre post ps _ _ _|pre mid post ps _|sw x pre post ps _ _ _].
  - apply in_app_iff in I as [I|I]; [now apply Q in I|]. apply in_app_iff in I as [I|I]; [apply in_map_iff in I as (x & E & _); discriminate E|].
    apply in_app_iff in I as [I|I]; [now apply Q in I|now apply St in I].
  - apply in_app_iff in I as [I|[I|I]]; [now apply Q in I|discriminate I|]. apply in_app_iff in I as [I|[I|I]]; [now apply Q in I|discriminate I|].
    apply in_app_iff in I as [I|I]; [now apply Q in I|now apply St in I].
  - apply in_app_iff in I as [I|I]; [now apply Q in I|]. apply in_app_iff in I as [I|[I|I]]; [destruct sw; cbn in I; intuition discriminate|discriminate I|].
    apply in_app_iff in I as [I|I]; [now apply Q in I|now apply St in I].
Qed.

Lemma derives_put s l ts e r : derives types s l ts e r -> int_expr (eq bt) e -> derives types false l (F ts) (put args e) (F r).
Proof.
  induction 1; intro I; try (now destruct I).
  - eapply d_up; eauto.
  - now apply d_name.
  - destruct (g_operand i) as (_ & _ & D). apply D.
  - now apply d_literal.
  - rewrite F_cons by discriminate. eapply d_paren; [|eapply F_punct; eassumption|intro K; discriminate K]. rewrite <- F_uncomment. auto.
  - exfalso. clear -H1 I. cbn in H1. destruct H1 as [E|[E|[]]]; injection E as <- <-; exact I.
  - exfalso. clear -H I. cbn in H. destruct H as [E|[E|[]]]; injection E as <- <-; exact I.
  - rewrite F_cons by discriminate. cbn [put]. eapply d_unary; [eassumption|]. rewrite <- F_uncomment. apply IHderives. clear -H I. cbn in H. repeat destruct H as [H|H]; try (injection H as <- <-; first [exact I|now destruct I]). destruct H.
  - assert (Ie : int_expr (eq bt) e) by (destruct t; try (now destruct I); apply I). rewrite F_cons by discriminate. cbn [put].
    eapply d_cast; [|eapply F_punct; eassumption|eassumption| |intro K; discriminate K|intro K; discriminate K].
    + rewrite <- F_uncomment, H, F_app, (F_same T0) by (eapply type_name_no_arg; eassumption). reflexivity.
    + rewrite <- F_uncomment. auto.
  - destruct I as (_ & I1 & I2). cbn [put]. eapply d_binary; [eassumption|eassumption|auto|eapply F_punct; eassumption| |intro K; discriminate K]. rewrite <- F_uncomment. auto.
  - destruct I as (I1 & I2 & I3). cbn [put]. eapply d_conditional; [auto|eapply F_punct; eassumption| |eapply F_punct; eassumption|]; rewrite <- F_uncomment; auto.
  - exfalso. destruct I as (I & _). clear -H1 I. cbn in H1. repeat destruct H1 as [H1|H1]; try (injection H1 as <- <-; discriminate I). destruct H1.
Qed.
Lemma F_filled l : (forall i, In (MArg i) l -> (i < Datatypes.length ws)%nat) -> filled_in ws l = F l.
Proof.
  induction l as [|t l IH]; intro K; [reflexivity|]. unfold filled_in, F in *. cbn [flat_map]. rewrite IH by (intros i I; apply K; now right).
  destruct t; try reflexivity. f_equal. unfold g. apply nth_indep, K. now left.
Qed.

(** The value of the expression at the values of what is put in. *)
Lemma value_put vals vars e : Forall2 (has_value vars) args vals -> int_expr (eq bt) e ->
  c_type model int lit_ty vars (put args e) = c_type model int lit_ty (with_values vals vars) e /\
  value vars (put args e) = value (with_values vals vars) e.
Proof.
  intros Hv. assert (A : forall i, nth_error args i = None /\ nth_error vals i = None \/ exists a v, nth_error args i = Some a /\ nth_error vals i = Some v /\ has_value vars a v).
  { clear -Hv. induction Hv as [|a v l1 l2 A H IH]; intros [|i]; cbn; auto. right. exists a, v. auto. }
  induction e as [n|n l IHl|t e IHe|l|a IHa|l IHl|t|op e IHe|a op b IHa IHb|a b d IHa IHb IHd] using expr_ind'; intro I; try (now destruct I); try (split; reflexivity).
  - destruct n as [i|x|l]; try (split; reflexivity). cbn [put c_type c_val with_values]. specialize (A i) as [[A1 A2]|(a & v & A1 & A2 & A3 & A4 & A5)].
    + rewrite A2, nth_overflow by now apply nth_error_None. split; reflexivity.
    + rewrite A2, (nth_error_nth _ _ _ A1). cbn [omap obind fst snd]. rewrite A5. auto.
  - destruct t; try (now destruct I). destruct I as [_ I]. destruct (IHe I) as [_ Ev]. cbn [put c_type c_val]. rewrite Ev. split; reflexivity.
  - assert (Ie : int_expr (eq bt) e) by (destruct op; try exact I; now destruct I). destruct (IHe Ie) as [Et Ev]. cbn [put c_type c_val]. rewrite Et, Ev. split; reflexivity.
  - destruct I as (_ & I1 & I2). destruct (IHa I1) as [Et1 Ev1], (IHb I2) as [Et2 Ev2]. cbn [put c_type c_val]. rewrite Et1, Ev1, Et2, Ev2. split; reflexivity.
  - destruct I as (I0 & I1 & I2). destruct (IHa I0) as [Et0 Ev0], (IHb I1) as [Et1 Ev1], (IHd I2) as [Et2 Ev2]. cbn [put c_type c_val]. rewrite Ev0, Et1, Ev1, Et2, Ev2. split; reflexivity.
Qed.
End Put.

(** A function-like macro and its calls, after any history of definitions that use
    neither # nor ##.  Suppose the macro by itself is expanded to [body], which
    is the expression [e], and a call has the arguments [args], which are
    delivered as the operands [ws].  Then the call is expanded to the expression
    [e] with the operands for the parameters.  And the generated function, for
    parameters with the values of the operands, has the value that C gives to
    the expanded call. *)
Theorem C68_call_partial h n params ids text args ews trees fuel ps body types e cx m m' ts :
  operator_free h -> defined (rev h) n = Some (DFn params text) -> parameter_list params ids false -> ~ In (st "__VA_ARGS__") ids ->
  is_identifier n = true -> n <> st "__VA_ARGS__" ->
  Datatypes.length args = Datatypes.length ids -> Forall2 (fun a ew => given h a (fst ew) (snd ew)) args ews ->
  Forall2 (operand types) (map snd ews) trees ->
  expand_fn_macro (run h) fuel n = ROk (ps, body) ->
  supported_expression types (uncomment body) e -> of_type T bt model int lit_ty e -> plain_context cx ->
  fn_macro_parse n ps body = ROk m -> fn_generate cx m = (m', ROk ts) ->
  (exists out, gives h (call_of n args) (ROk out) /\ c_expression types (uncomment out) (put trees e)) /\
  exists c e' b, lc_names c = fm_args m /\ fm_body m' = MbExpr e' /\
    ((exists params ret, ts = function_item (fm_name m) params ret b) \/
     (exists patterns, ts = macro_item (fm_name m) patterns b)) /\
    (fine cx c e' -> is_tail cx c e' -> exists x, reads_block b (RB [] (Some x)) /\
       forall vars vals rvars rint v k,
         Forall2 (has_value vars) trees vals -> full T model int lit_ty (with_values vals vars) e ->
         rint (builtin_toks cx bt) = true -> same_vars T cx c (with_values vals vars) rvars ->
         r_kind T rint x = Some k -> value vars (put trees e) = Some v ->
         (forall r, r_val T rint rvars x = Some r -> r = stands_for k v) /\
         (fst T = true -> r_val T rint rvars x = Some (stands_for k v))).
Proof.
  intros OF D PL NI Idn NV La G Ops X S O Pc M Ge.
  assert (Ie : int_expr (eq bt) e) by apply O. split.
  - exists (filled_in (map snd ews) body). split; [eapply (C69_partial h n params ids false); try eassumption; [discriminate|unfold parameter_words; now rewrite app_nil_r]|].
    pose proof (derives_put types _ _ Ops _ _ _ _ _ S Ie) as Dp. cbn [flat_map] in Dp. unfold c_expression.
    rewrite (F_filled (map snd ews) body).
    + rewrite <- (F_uncomment types _ _ Ops). exact Dp.
    + intros i I. rewrite map_length. rewrite <- (Forall2_len _ _ _ G), La. eapply parameters_in_range; eassumption.
  - destruct (C35_parse_partial types body e S) as [Pf _]. specialize (Pf n ps). rewrite M in Pf.
    destruct (C56_generate_partial T bt model int lit_ty cx m m' e ts Pc Pf Ge O) as (c & e' & b & Nm & Eb & Sh & H).
    exists c, e', b. split; [exact Nm|]. split; [exact Eb|]. split; [exact Sh|]. intros Fi Tl. destruct (H Fi Tl) as (x & Rx & Hx). exists x. split; [exact Rx|].
    intros vars vals rvars rint v k Hv Fu Ri Sv K V. destruct (value_put trees vals vars e Hv Ie) as [_ Ev]. rewrite Ev in V. eapply Hx; eassumption.
Qed.
End Theorems.

(** ** Cases *)
Section Demo.
#[local] Existing Instance demo_unicode.
Let p (s : string) := MPunct (st s).
Let num (z : Z) := MLit (LInt (mk_int z None)).
Let n (z : Z) := ELit (LInt (mk_int z None)).
Let none : str -> bool := fun _ => false.
Let w (l : list string) : list str := map st l.

Ltac demo_fine := cbn [fine valued]; repeat first [apply demo_param; lia | split];
  try (let Hp := fresh in intro Hp; vm_compute in Hp; exfalso; lia); try (let ts := fresh in let Tk := fresh in left; intros ts Tk; vm_compute in Tk; injection Tk as <-; reflexivity); try discriminate; try (intros _; unfold tight; vm_compute; lia).
Ltac demo_type := unfold of_type; cbn; repeat split; try lia; auto.
Ltac up := eapply d_up; [reflexivity|].
Ltac atom := repeat up; first [apply d_arg | apply d_literal].
Ltac binary p o l r :=
  first [eapply (d_binary _ _ _ _ _ _ _ p o); [reflexivity|solve [cbn; tauto]|l|reflexivity|r|try (intros _ [K|K]; discriminate K)] | up; binary p o l r].

(** [#define BASE 16] and [#define X BASE << 2 | 1]. *)
Let vhist := [DefineVar (st "BASE") (w ["16"]); DefineVar (st "X") (w ["BASE"; "<<"; "2"; "|"; "1"])].
Let vbody := [num 16; p "<<"; num 2; p "|"; num 1].
Let vtree := EBinary (EBinary (n 16) OShl (n 2)) OBitOr (n 1).
Example C68_variable_case : let T := (true, 32) in
  defined (rev vhist) (st "X") = Some (DVar (w ["BASE"; "<<"; "2"; "|"; "1"])) /\
  (exists toks, replaced_in vhist [] (st "X") (Object (map from_str (w ["BASE"; "<<"; "2"; "|"; "1"]))) [] (ROk toks) /\ delivered (ROk toks) = ROk vbody) /\
  supported_expression none (uncomment vbody) vtree /\ of_type T BInt lp64 32 lit64 vtree /\
  exists m' ts ty x, var_generate cx_unit (mk_var_macro (st "X") (MbExpr vtree)) = (m', ROk (ts, ty)) /\ reads ts x /\
    c_val lp64 32 lit64 (fun _ => None) vtree = Some 65 /\ r_val T (is_ty "c_int") (fun _ => None) x = Some (VInt 65).
Proof.
  cbn zeta. split; [reflexivity|]. split.
  - destruct (proj1 (C52_expand_var_macro vhist (st "X") _ (ROk vbody) ltac:(discriminate) eq_refl)) as (x & R & E); [|destruct x as [toks| | |]; try discriminate E; exists toks; auto].
    exists 10%nat. intros f L. do 10 (destruct f as [|f]; [lia|]). vm_compute. reflexivity.
  - split; [binary "|" OBitOr ltac:(binary "<<" OShl ltac:(atom) ltac:(atom)) ltac:(atom)|]. split; [demo_type|].
    do 4 eexists. split; [vm_compute; reflexivity|]. split; [exists 30%nat; vm_compute; reflexivity|]. split; vm_compute; reflexivity.
Qed.

(** The call [F(BASE, 5)] of C69. *)
Let fbody := [MArg 0; p "<<"; num 1; p "|"; num 16; p "|"; MArg 1].
Let ftree := EBinary (EBinary (EBinary (EVar (IArg 0)) OShl (n 1)) OBitOr (n 16)) OBitOr (EVar (IArg 1)).
Let m0 := mk_fn_macro (st "F") [st "x"; st "y"] (MbExpr ftree).
Example C68_call_case : let T := (true, 32) in
  supported_expression none (uncomment fbody) ftree /\ of_type T BInt lp64 32 lit64 ftree /\ plain_context ints /\
  fn_macro_parse (st "F") [MIdent (st "x"); MIdent (st "y")] fbody = ROk m0 /\
  Forall2 (operand none) [[num 16]; [num 5]] [n 16; n 5] /\ Forall2 (has_value T lp64 32 lit64 (fun _ => None)) [n 16; n 5] [16; 5] /\
  same_vars T ints (two (TyBuiltIn BInt)) (with_values T [16; 5] (fun _ => None)) (names_are 16 5) /\
  fine ints (two (TyBuiltIn BInt)) ftree /\ is_tail ints (two (TyBuiltIn BInt)) ftree /\
  exists m' params ret b x, fn_generate ints m0 = (m', ROk (function_item (st "F") params ret b)) /\ fm_body m' = MbExpr ftree /\ reads b x /\
    c_val lp64 32 lit64 (fun _ => None) (put [n 16; n 5] ftree) = Some 53 /\ r_val T (is_ty "c_int") (names_are 16 5) x = Some (VInt 53).
Proof.
  cbn zeta. split; [binary "|" OBitOr ltac:(binary "|" OBitOr ltac:(binary "<<" OShl ltac:(atom) ltac:(atom)) ltac:(atom)) ltac:(atom)|].
  split; [demo_type|]. split; [split; exact Logic.I|]. split; [vm_compute; reflexivity|].
  split; [repeat constructor; try discriminate|]. split; [repeat constructor|].
  split; [|split; [unfold ftree; demo_fine|split; [left; intros ts Tk; vm_compute in Tk; injection Tk as <-; reflexivity|]]].
  - intros v t z E. apply (demo_vars (true, 32) ints (TyBuiltIn BInt) 16 5). destruct v as [[|[|i]]|s|l]; try exact E. destruct i; discriminate E.
  - eexists _, (map (fun a => [ri "mut"; ri a; rp ":"; ri "c_int"]) ["x"; "y"]), (Some [ri "c_int"]), _, _. split; [vm_compute; reflexivity|]. split; [reflexivity|]. split; [exists 30%nat; vm_compute; reflexivity|]. split; vm_compute; reflexivity.
Qed.
End Demo.

Print Assumptions C68_variable_partial.
Print Assumptions C68_call_partial.
