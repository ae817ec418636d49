(** C71: a macro that is one literal is generated as a constant with the value of
    the literal. *)
From Verif Require Import Base Utf Lex LexFloat Token MacroSet Ast Nom ParseTok ParseStmt Rust Finish Codegen SpecInt SpecString SpecSet SpecFloatGen SpecRustExpr SpecTree SpecRustType SpecGrammar SpecGen SpecValue SpecMixed StrFacts RustExprFacts TreeFacts RustTypeFacts SetFacts PropSet PropPaste PropInt PropString PropFloatGen PropGrammar PropTree SpecFloatLit SpecLexical PropFloat PropLexical PropLexKind PropGenStr SpecRust UtfFacts TokenFacts.
From Verif Require PropValue.
From Coq Require Import String List Lia Bool ZArith.
Import ListNotations.
Local Open Scope string_scope.
Local Open Scope list_scope.
Local Open Scope Z_scope.

(** ** Specification *)

(** What a context may say [wchar_t] is: one of the types for C, or a type of Rust. *)
Inductive integer_name {U : Unicode} (cx : cgctx) : sty -> Prop :=
| in_ffi n : In n c_names -> n <> "c_void" -> integer_name cx (ffi_ty cx n)
| in_primitive n : In n ["u8"; "u16"; "u32"] -> integer_name cx (plain_ty n)
| in_named n : is_identifier (st n) = true -> keyword (st n) = false -> rust_name rust_names (st n) = None -> integer_name cx (plain_ty n).
(** The Rust type of a character constant: that of [char], [char8_t], [char16_t],
    [char32_t], or what the context says for [wchar_t]. *)
Definition char_rust_type {U : Unicode} (cx : cgctx) (x : lit_char) (t : list rtok) : Prop :=
  match x with
  | COrdinary _ => t = pfx (cx_ffi cx) ++ [ri "c_char"]
  | CUtf8 _ => t = [ri "u8"]
  | CUtf16 _ => t = [ri "u16"]
  | CUtf32 _ => t = [ri "u32"]
  | CWide _ => exists r, cx_ty cx (st "wchar_t") = Some r /\ integer_name cx r /\ t = sty_toks r
  end.

Section P.
Context {U : Unicode}.

(** ** Expansion and parsing of one literal *)

Lemma numeral_head b s v : numeral b s v -> exists c r d, s = c :: r /\ digit b c d.
Proof. induction 1 as [c d D|s v c d N (x & r & y & -> & D) _]; [now exists c, [], d|]. exists x, (r ++ [c]), y. auto. Qed.
Definition no_start (s : str) : Prop := exists c r, s = c :: r /\ is_xid_start c = false /\ c <> 95%N /\ c <> 92%N.
Lemma ascii_digit c r : (48 <= c <= 57)%N -> no_start (c :: r).
Proof.
  intro L. exists c, r. repeat split; try lia. unfold is_xid_start. destruct (N.ltb_spec c 128); [|lia].
  unfold is_upper, is_lower. destruct (N.leb_spec 65 c), (N.leb_spec 97 c); try lia; reflexivity.
Qed.
Lemma decimal_start s v r : numeral 10 s v -> no_start (s ++ r).
Proof.
  intro N. apply numeral_head in N as (c & t & d & -> & [D L]). apply ascii_digit. lia.
Qed.
Lemma int_start s v ty : int_literal s v ty \/ misread_decimal s v ty -> no_start s.
Proof.
  intros [(c & sx & -> & C & _)|(c & sx & r & -> & _ & N & _)]; [|now eapply decimal_start; eauto].
  destruct C as [s v N _| |s v _|p s v I _|p s v I _]; [now eapply decimal_start; eauto|..].
  - apply (ascii_digit 48). lia.
  - apply (ascii_digit 48). lia.
  - destruct I as [<-|[<-|[]]]; apply (ascii_digit 48); lia.
  - destruct I as [<-|[<-|[]]]; apply (ascii_digit 48); lia.
Qed.
Lemma float_start s ty m k : float_constant s ty m k -> no_start s.
Proof.
  intros [s' sx m' k' ss ty' D _ _]. destruct D as [i f x m0 k0 N _|i x m0 k0 N _].
  - destruct i as [|c i].
    + exists 46%N, ((f ++ x) ++ sx). repeat split; discriminate.
    + apply numeral_head in N as (c' & t & d & E & [D L]). injection E as <- <-. apply ascii_digit. lia.
  - rewrite <- app_assoc. now eapply decimal_start; eauto.
Qed.
Lemma not_named s : no_start s \/ (exists p q r, In p ["u8"; "u"; "U"; "L"; ""] /\ (q = 34%N \/ q = 39%N) /\ s = st p ++ q :: r) -> identifier_try_from s = None.
Proof.
  intro K. apply name_none. intros (id & [(c & r & -> & S & F) _] & [->|[r' ->]]).
  - destruct K as [(c' & r' & E & K)|(p & q & r' & I & Q & E)].
    + injection E as <- <-. destruct K as (K1 & K2 & _), S; congruence.
    + assert (X : is_xid_continue q = false /\ is_xid_start q = false /\ q <> 95%N) by (destruct Q as [-> | ->]; repeat split; discriminate).
      destruct X as (X1 & X2 & X3). destruct (st p) as [|a p'] eqn:P; [injection E as <- <-; destruct S; congruence|]. injection E as -> ->.
      rewrite Forall_forall in F. specialize (F q). rewrite F in X1; [discriminate|]. apply in_or_app. right. now left.
  - destruct K as [(c' & r'' & E & _ & _ & K)|(p & q & r'' & I & Q & E)]; [injection E as <- _; contradiction|].
    cbn [In] in I. repeat (destruct I as [<-|I]; [injection E as E _; try discriminate; destruct Q; congruence|]). destruct I.
Qed.
Lemma literal_not_named s : c_literal s -> identifier_try_from s = None.
Proof.
  intros K. apply not_named. destruct K as [(v & ty & K)|[(ty & m & k & K)|[[l K]|[l K]]]].
  - left. now eapply int_start; eauto.
  - left. now eapply float_start; eauto.
  - right. destruct K as (p & mx & mk & body & v & I & -> & _). exists p, 39%N, (body ++ [39%N]). split; [|split; [now right|reflexivity]].
    cbn [char_kinds In] in I |- *. intuition congruence.
  - right. destruct K; match goal with Q : quoted_text ?p ?b _ |- _ => red in Q; exists p, 34%N, (b ++ [34%N]); split; [cbn; tauto|]; split; [now left|exact Q] end.
Qed.

(** What the crate makes of a macro: it is expanded, parsed and generated. *)
Definition made (cx : cgctx) (h : list call) (n : str) (ts : list rtok) (ty : option (list rtok)) : Prop :=
  exists body m, (exists F, forall fuel, (F <= fuel)%nat -> expand_var_macro (run h) fuel n = ROk body) /\
    var_macro_parse n body = ROk m /\ snd (var_generate cx m) = ROk (ts, ty).

Lemma parses n l : is_identifier n = true -> var_macro_parse n [MLit l] = ROk (mk_var_macro n (MbExpr (ELit l))).
Proof.
  intro I. assert (D : supported_expression (fun _ => false) (uncomment [MLit l]) (ELit l)).
  { unfold supported_expression. do 16 (eapply d_up; [reflexivity|]). apply d_literal. }
  destruct (C35_parse_partial _ _ _ D) as [_ P]. specialize (P n). revert P. unfold var_macro_parse. rewrite I. cbn [negb].
  destruct (macro_body_parse [MLit l]); cbn; [intros ->; reflexivity|intro E; discriminate E|intros []].
Qed.
Lemma expands h n s l : defined (rev h) n = Some (DVar [s]) -> c_literal s -> lit_try_from s = Some l ->
  forall fuel, (1 <= fuel)%nat -> expand_var_macro (run h) fuel n = ROk [MLit l].
Proof.
  intros D C L fuel F. pose proof (literal_not_named s C) as I.
  assert (T : from_str s = TLit l s).
  { unfold from_str. destruct (str_eqb_spec s (st "__VA_ARGS__")) as [->|_]; [vm_compute in I; discriminate|]. now rewrite I, L. }
  unfold expand_var_macro. pose proof (run_holds h n) as Hh. rewrite D in Hh. destruct Hh as [-> _]. rewrite tokenize_nil. cbn [map]. rewrite T.
  destruct fuel as [|fuel]; [lia|]. reflexivity.
Qed.
Lemma makes cx h n s l ts ty : defined (rev h) n = Some (DVar [s]) -> is_identifier n = true -> c_literal s -> lit_try_from s = Some l ->
  snd (var_generate cx (mk_var_macro n (MbExpr (ELit l)))) = ROk (ts, ty) -> made cx h n ts ty.
Proof.
  intros D I C L G. exists [MLit l]. eexists. split; [exists 1%nat; now apply expands with s|]. split; [now apply parses|exact G].
Qed.

(** ** Characters *)

Lemma numeral_below b s v : numeral b s v -> 0 <= v < Z.of_N b ^ Z.of_nat (length s).
Proof.
  induction 1 as [c d [D L]|s v c d N IH [D L]]; [change (Z.of_nat (length [c])) with 1; rewrite Z.pow_1_r; lia|].
  rewrite app_length, Nat2Z.inj_add, Z.pow_add_r by lia. change (Z.of_nat (length [c])) with 1. rewrite Z.pow_1_r. nia.
Qed.
Definition units32 : N := 4294967296.
Lemma digits_below b s v : numeral b s (Z.of_N v) -> (b <= 16)%N -> (length s <= 8)%nat -> (v < units32)%N.
Proof.
  intros N B L. apply numeral_below in N. unfold units32.
  assert (Z.of_N b ^ Z.of_nat (length s) <= 16 ^ 8); [|change (16 ^ 8) with 4294967296 in *; lia].
  transitivity (16 ^ Z.of_nat (length s)); [apply Z.pow_le_mono_l; lia|apply Z.pow_le_mono_r; lia].
Qed.
Lemma escape_below t v : escape t v -> (v < units32)%N.
Proof.
  intro E. inversion E as [c w I|s w N L|x s w I N L|s w N L|s w N L]; subst; try (eapply digits_below; [exact N|discriminate|lia]).
  cbn in I. repeat (destruct I as [I|I]; [injection I as <- <-; reflexivity|]). destruct I.
Qed.

Lemma char_below s x : Forall scalar s -> char_literal s x -> ~ is_character (char_code x) -> 0 <= Z.of_N (char_code x) < 2 ^ char_width x.
Proof.
  intros S (p & mx & mk & body & v & I & -> & B & M & ->) N.
  assert (V : is_character v \/ (v < units32)%N).
  { destruct B as [c C|t v E]; [|right; now eapply escape_below; eauto]. left. rewrite Forall_forall in S. apply (S c).
    apply in_or_app. right. right. now left. }
  cbn in I. repeat (destruct I as [I|I]; [injection I as <- <- <-; cbn [char_code char_width] in *|]); [..|destruct I];
    try (destruct V as [V|V]; [contradiction|]; unfold units32 in V); split; try lia.
Qed.
Lemma suffix_unique name (t : SpecFold.int_ty) name' (t' : SpecFold.int_ty) : In (name, t) suffix_types -> In (name', t') suffix_types -> st name = st name' -> t = t'.
Proof.
  intros I I' E. cbn in I, I'. repeat (destruct I as [I|I]; [injection I as <- <-; repeat (destruct I' as [I'|I']; [injection I' as <- <-; try discriminate E; reflexivity|]); destruct I'|]). destruct I.
Qed.
(** The value of the generated literal. *)
Lemma literal_evals x l t named vars numbers w k o :
  char_literal_of x l -> (~ is_character (char_code x) -> 0 <= Z.of_N (char_code x) < 2 ^ char_width x) -> named t = Some w ->
  evals named vars numbers (XCast (XLit l) t) k o <-> k = RInt w /\ o = Some (VInt (low w (Z.of_N (char_code x)))).
Proof.
  intros [[C ->]|[C (name & -> & I)]] B Nm.
  - split.
    + intro E. inversion E; subst; [match goal with Y : evals _ _ _ (XLit (RlChar _)) _ _ |- _ => inversion Y end|]. split; congruence.
    + intros [-> ->]. now constructor.
  - specialize (B C).
    assert (F : SpecValue.fits (false, char_width x) (Z.of_N (char_code x)) = Some (Z.of_N (char_code x))).
    { unfold SpecValue.fits. now rewrite (proj2 (PropValue.holds_iff (false, char_width x) _) B). }
    split.
    + intro E. inversion E; subst. match goal with Y : evals _ _ _ (XLit (RlInt _ _)) _ _ |- _ => inversion Y; subst end.
      match goal with Y : literal_ty _ _ _ |- _ => destruct Y as [[E0 _]|(name' & E0 & I')] end.
      * clear - I E0. cbn in I. repeat (destruct I as [I|I]; [injection I as <- _; discriminate E0|]). destruct I.
      * match goal with Y : In (name', ?w') _ |- _ => pose proof (suffix_unique _ _ _ w' I Y E0) as Et; cbn in Et; subst w' end.
        rewrite F. cbn [omap as_int]. split; [congruence|]. do 2 f_equal. congruence.
    + intros [-> ->]. eapply eq_ind; [eapply E_cast; [apply E_number; right; exists name; split; [reflexivity|exact I]|exact Nm]|]. now rewrite F.
Qed.

Lemma plain_ok cx n : exists T, from_rust_ty (cx_ffi cx) (plain_ty n) = ROk T.
Proof. unfold plain_ty. cbn [from_rust_ty]. destruct (builtin_from_rust _ _ _); eexists; reflexivity. Qed.
Lemma char_type_toks cx c x t : plain_context cx -> char_rust_type cx x t -> rd_ty t = Some (t, []) /\
  exists T, char_finish cx x c = FOk (Some T) /\ ty_toks cx c T = Some t /\ ty_is_void T = false /\ is_null T (ELit (LChar x)) = None.
Proof.
  intros PC K. destruct x as [n|n|n|n|n]; cbn [char_rust_type] in K.
  - subst t. split; [apply path_is_ty; now apply (ffi1 cx PC)|]. exists (TyBuiltIn BChar). repeat split.
    cbn [ty_toks]. unfold builtin_toks. cbn [builtin_to_rust]. now rewrite (ffi_toks cx PC).
  - subst t. split; [reflexivity|]. now exists (TyBuiltIn BChar8T).
  - subst t. split; [reflexivity|]. now exists (TyBuiltIn BChar16T).
  - subst t. split; [reflexivity|]. now exists (TyBuiltIn BChar32T).
  - destruct K as (r & Cx & Hr & ->). unfold char_finish, wchar_finish. cbn [ty_finish ident_finish]. rewrite Cx.
    destruct Hr as [n' I V|n' I|n' I Ky Nm].
    + assert (B : exists b, rust_name rust_names (st n') = Some b /\ builtin_to_rust cx b = ffi_ty cx n' /\ b <> BVoid).
      { cbn [c_names In] in I. repeat (destruct I as [<- | I]; [eexists; split; [reflexivity|]; split; [reflexivity|first [discriminate|now destruct V]]|]). destruct I. }
      destruct B as (b & B1 & B2 & B3). rewrite (ffi_builtin cx _ _ B1). rewrite (ffi_toks cx PC).
      assert (Kw : keyword (st n') = false) by (clear - I; cbn [c_names In] in I; repeat (destruct I as [<- | I]; [reflexivity|]); destruct I).
      split; [apply path_is_ty; now apply (ffi1 cx PC)|]. exists (TyBuiltIn b). split; [reflexivity|]. split; [|split; [|reflexivity]].
      * cbn [ty_toks]. unfold builtin_toks. now rewrite B2, (ffi_toks cx PC).
      * destruct b; try reflexivity. now destruct B3.
    + destruct (plain_ok cx n') as [T E]. rewrite E. split; [cbn in I; repeat (destruct I as [<- | I]; [reflexivity|]); destruct I|].
      assert (Id : ident_tok (st n') = Some (RId (st n'))) by (cbn in I; repeat (destruct I as [<- | I]; [reflexivity|]); destruct I).
      exists T. split; [reflexivity|]. apply plain_from in E as [-> | (b & B & ->)].
      * cbn [ty_toks ident_toks]. rewrite Id. repeat split.
      * cbn [ty_toks]. cbn in I. repeat (destruct I as [<- | I]; [vm_compute in B; injection B as <-; repeat split|]). destruct I.
    + destruct (plain_ok cx n') as [T E]. rewrite E. split; [apply path_is_ty; cbn [plain_ty sty_toks path_toks sp_colon sp_segs map sep_by app fst snd rd_path rd_segs]; now rewrite Ky|].
      exists T. split; [reflexivity|]. apply plain_from in E as [-> | (b & B & ->)]; [|congruence].
      cbn [ty_toks ident_toks]. unfold ident_tok. rewrite I. repeat split.
Qed.

(** ** The theorems *)

(** A macro that is a character constant becomes a constant of the type of its
    prefix.  The Rust expression is a cast of the character, or of the number if
    no character has that code; and whatever integer type [w] the Rust type is,
    its value is the code, converted to [w]. *)
Theorem C71_character cx h n s x t :
  defined (rev h) n = Some (DVar [s]) -> is_identifier n = true -> plain_context cx ->
  Forall scalar s -> char_literal s x -> char_rust_type cx x t ->
  exists ts l, made cx h n ts (Some t) /\
    reads ts (XCast (XLit l) t) /\ (forall y, reads ts y -> y = XCast (XLit l) t) /\ char_literal_of x l /\
    forall named vars numbers w k o, named t = Some w ->
      (evals named vars numbers (XCast (XLit l) t) k o <-> k = RInt w /\ o = Some (VInt (low w (Z.of_N (char_code x))))).
Proof.
  intros D Id PC S Ch Ty. destruct (char_type_toks cx (var_lctx cx) x t PC Ty) as (R & T & F & Tt & V & Nu).
  destruct (char_one x) as (l & Ec & Cl).
  assert (Et : etoks cx (var_lctx cx) (ECast T (ELit (LChar x))) = Some ([RLit l] ++ ri "as" :: t)).
  { cbn [etoks]. cbn [is_int_zero].
    assert (Z : match T with TyQual (TyPtr _) q => if q_is_const q && false then Some "null" else None | TyPtr _ => None | _ => None end = None).
    { destruct T as [| | | |[] q]; try reflexivity. now rewrite andb_false_r. }
    rewrite Z, V. cbn [etoks lit_toks]. rewrite Ec. cbn [obind expr_prec]. change (3 <? 0)%nat with false. cbn [group_if]. rewrite Tt. reflexivity. }
  assert (Rd : reads ([RLit l] ++ ri "as" :: t) (XCast (XLit l) t)).
  { eapply (op_whole _ _ _ _ 0); [eapply op_cast; [apply op_lit| |exact R]; lia|lia]. }
  exists ([RLit l] ++ ri "as" :: t), l. split; [|split; [exact Rd|split; [intros y Y; now apply (reads_fun _ _ _ Y)|split; [exact Cl|]]]].
  - apply makes with s (LChar x); auto.
    + right; right; left. now exists x.
    + now apply C27_token_iff, C27_meaning.
    + unfold var_generate. cbn [vm_body]. change (expr_finish cx (ELit (LChar x)) (var_lctx cx)) with
        (match char_finish cx x (var_lctx cx) with
         | FOk (Some t) => (ECast t (ELit (LChar x)), var_lctx cx, FOk (Some t))
         | FOk None => (ELit (LChar x), var_lctx cx, FPanic)
         | r => (ELit (LChar x), var_lctx cx, r)
         end).
      rewrite F. cbn [snd ofres]. rewrite Et. cbn [opanic rbind]. rewrite Tt. reflexivity.
  - intros named vars numbers w k o N. apply literal_evals; [exact Cl| |exact N]. intro C. now apply char_below with s.
Qed.
(** A macro that is an integer constant becomes that number, without a type: the
    caller chooses one. *)
Theorem C71_integer cx h n s v ty :
  defined (rev h) n = Some (DVar [s]) -> is_identifier n = true -> int_literal s v ty ->
  made cx h n [RLit (RlInt v [])] None /\ reads [RLit (RlInt v [])] (XLit (RlInt v [])).
Proof.
  intros D I L. split; [|apply (op_whole _ _ _ _ 0 (op_lit _)); lia]. apply makes with s (LInt (mk_int v ty)); auto.
  - left. exists v, ty. now left.
  - now apply C25_token_iff, C25_accepted; left.
  - assert (P : 0 <= v).
    { destruct L as (c & sx & _ & C & _). destruct C as [? ? N _| |? ? N|? ? ? _ N|? ? ? _ N]; [..|lia| | |]; apply numeral_below in N; lia. }
    change (snd (var_generate cx (mk_var_macro n (MbExpr (ELit (LInt (mk_int v ty))))))) with
      (@ROk cgerr (list rtok * option (list rtok)) (int_toks v "", None)).
    unfold int_toks. destruct (Z.ltb_spec v 0); [lia|reflexivity].
Qed.
(** A macro that is a floating constant becomes a number of its type, which is the
    rounded value of the constant. *)
Theorem C71_float cx h n s ty m k :
  defined (rev h) n = Some (DVar [s]) -> is_identifier n = true -> float_constant s ty m k ->
  exists lit f, made cx h n lit (Some [ri (float_name (is_float (ft_lit ty f)))]) /\
    denotes (pfx (cx_trait cx)) (is_float (ft_lit ty f)) lit f /\ rounded (ft_prec ty) (ft_emax ty) (decimal_value m k) f.
Proof.
  intros D I L. destruct (C32_value s ty m k L) as (f & E & R & _). destruct (C65_literal cx n (ft_lit ty f)) as (lit & G & Dn).
  exists lit, f. split; [|split; [|exact R]].
  - apply makes with s (LFloat (ft_lit ty f)); auto; [right; left; eauto|]. now apply C32_token_iff.
  - assert (V : lit_value (ft_lit ty f) = f); [|now rewrite V in Dn].
    destruct L as [? ? ? ? ss ty' _ Hi _]. cbn in Hi. repeat (destruct Hi as [Hi|Hi]; [injection Hi as <- <-; reflexivity|]). destruct Hi.
Qed.
(** A macro that is a string literal without the prefix [L] becomes an array of
    its code units and a zero, or a [CStr] of them. *)
Theorem C71_string cx h n s x :
  defined (rev h) n = Some (DVar [s]) -> is_identifier n = true -> tidy_ctx cx -> Forall scalar s -> string_literal s x ->
  (forall w, x <> SWide w) ->
  exists ts ty, made cx h n ts (Some ty) /\
    (declared_length ty = Some (Z.of_nat (length (string_units x ++ [0]))) /\ array_elements ts = Some (string_units x ++ [0]) \/
     cstr_elements ts = Some (string_units x ++ [0]) /\ ~ In 0 (string_units x) /\ exists b, x = SOrdinary b).
Proof.
  intros D I T S L W. pose proof (C31_variable cx n x T) as G. cbv zeta in G.
  destruct (snd (var_generate cx _)) as [[ts [ty|]]|e| |] eqn:E; try (now destruct G as [w G]; destruct (W w)); try (now destruct G).
  exists ts, ty. split; [|exact G]. apply makes with s (LString x); auto.
  - right; right; right. eauto.
  - apply C28_token_iff; [exact S|]. now apply C28_meaning.
Qed.
End P.

(** ** Cases *)

Section Demo.
#[local] Existing Instance demo_unicode.
(** [#define E u'\xE9'] and [#define D u'\uD800'], half of a surrogate pair. *)
Definition chars : list call := [DefineVar (st "E") [st "u'\xE9'"]; DefineVar (st "D") [st "u'\uD800'"]; DefineVar (st "A") [st "'a'"]].
Example C71_case : defined (rev chars) (st "E") = Some (DVar [st "u'\xE9'"]) /\ char_literal (st "u'\xE9'") (CUtf16 233) /\
  defined (rev chars) (st "D") = Some (DVar [st "u'\uD800'"]) /\ char_literal (st "u'\uD800'") (CUtf16 0xD800) /\
  char_rust_type cx_unit (CUtf16 233) [ri "u16"] /\ plain_context cx_unit.
Proof.
  split; [reflexivity|]. split; [apply C27_meaning; vm_compute; reflexivity|]. split; [reflexivity|]. split; [apply C27_meaning; vm_compute; reflexivity|].
  split; [reflexivity|]. split; exact I.
Qed.
Let gen s := match expand_var_macro (run chars) 9 (st s) with
  | ROk b => match var_macro_parse (st s) b with ROk m => snd (var_generate cx_unit m) | _ => RFuel end
  | _ => RFuel
  end.
Example C71_generated : gen "E" = ROk ([RLit (RlChar 233); ri "as"; ri "u16"], Some [ri "u16"]) /\
  gen "D" = ROk ([RLit (RlInt 0xD800 (st "u16")); ri "as"; ri "u16"], Some [ri "u16"]) /\
  gen "A" = ROk ([RLit (RlChar 97); ri "as"; ri "c_char"], Some [ri "c_char"]).
Proof. vm_compute. auto. Qed.

(** In an expression a character constant of C is an [int].  The generated one is
    a [char], and where that has 8 bits, ['a' + 'a'] is refused by Rust. *)
Theorem C71_sum_refuted : exists m ts x, let e := EBinary (ELit (LChar (COrdinary 97))) OAdd (ELit (LChar (COrdinary 97))) in
  snd (var_generate cx_unit (mk_var_macro (st "X") (MbExpr e))) = ROk (ts, m) /\ m = Some [ri "c_char"] /\ reads ts x /\
  forall named vars numbers k o, named [ri "c_char"] = Some (true, 8) -> evals named vars numbers x k o -> o = None.
Proof.
  exists (Some [ri "c_char"]), [RLit (RlChar 97); ri "as"; ri "c_char"; rp "+"; RLit (RlChar 97); ri "as"; ri "c_char"].
  exists (XBin (st "+") (XCast (XLit (RlChar 97)) [ri "c_char"]) (XCast (XLit (RlChar 97)) [ri "c_char"])). cbv zeta.
  split; [vm_compute; reflexivity|]. split; [reflexivity|]. split; [exists 20%nat; vm_compute; reflexivity|].
  intros named vars numbers k o N E.
  inversion E as [| | | | | | | | |op' x' y' t t' o1 o2 Sh|op' x' y' k0 k' o1 o2 Ot K1 K2 E1 E2 E3| |]; subst; [vm_compute in Sh; discriminate|].
  assert (C : forall k o, evals named vars numbers (XCast (XLit (RlChar 97)) [ri "c_char"]) k o -> k = RInt (true, 8) /\ o = Some (VInt 97)).
  { intros k1 o3 K. inversion K; subst; [match goal with Y : evals _ _ _ (XLit (RlChar _)) _ _ |- _ => inversion Y end|].
    match goal with Y : named _ = Some _ |- _ => rewrite N in Y; injection Y as <- end. split; reflexivity. }
  destruct (C _ _ K1) as [-> ->]. destruct (C _ _ K2) as [_ ->]. vm_compute. reflexivity.
Qed.
End Demo.

Print Assumptions C71_character.
Print Assumptions C71_integer.
Print Assumptions C71_float.
Print Assumptions C71_string.
Print Assumptions C71_sum_refuted.
