(** C84: the arguments of generated calls are converted, except those that need
    no conversion. *)
From Verif Require Import Base Utf Lex LexFloat Token Ast Nom ParseTok ParseStmt Rust Finish Codegen SpecRustExpr SpecTree StrFacts FinishFacts RustExprFacts TreeFacts PropFnGen PropTree.
From Coq Require Import String List Lia Bool.
Import ListNotations.
Local Open Scope string_scope.
Local Open Scope list_scope.

(** [called args ys]: [ys] are the arguments of a Rust call for the C arguments
    [args].  [SpecTree.unconverted]: literals, null pointers, the rest of the
    arguments, and parameters of functions. *)
Definition called `{Unicode} (cx : cgctx) (c : lctx) (args : list expr) (ys : list rx) : Prop :=
  Forall2 (fun e y => exists x, tree cx c e x /\
    (unconverted c e -> y = x) /\ (~ unconverted c e -> y = XMethod x (st "into") [])) args ys.

(** The tokens of a call are read as a call, in one way. *)
Theorem C84_call_partial `{Unicode} cx c n args ts :
  plain_context cx -> fine cx c (ECall n args) -> is_offsetof n args = false -> etoks cx c (ECall n args) = Some ts ->
  exists f ys, reads ts (XCall f ys) /\ (forall y, reads ts y -> y = XCall f ys) /\ tree_name cx c n f /\ called cx c args ys.
Proof.
  intros P F O T. destruct (C36_partial cx c _ ts P F T) as (x & X & R & V & _).
  inversion X; subst; try congruence.
  - match goal with K : is_leaf _ = true |- _ => cbn in K end. congruence.
  - exists f, ys. auto.
  - match goal with K : volatile_access _ _ |- _ => destruct K as (? & ? & ? & ? & ?) || destruct K as (? & ? & ? & ?) || destruct K as (? & ? & ?) || destruct K as (? & ?) end; congruence.
Qed.

(** A function-like macro that is a call: so is the body of its function or its
    macro. *)
Theorem C84_generate_partial `{Unicode} cx m m' n args ts :
  plain_context cx -> fn_generate cx m = (m', ROk ts) -> fm_body m' = MbExpr (ECall n args) -> is_offsetof n args = false ->
  exists c body, lc_names c = fm_args m /\
    ((lc_macro c = false /\ exists params ret, ts = function_item (fm_name m) params ret body) \/
     (lc_macro c = true /\ exists patterns, ts = macro_item (fm_name m) patterns body)) /\
    (fine cx c (ECall n args) -> exists f ys, reads body (XCall f ys) /\ tree_name cx c n f /\ called cx c args ys).
Proof.
  intros P G B O. destruct (fn_body cx m m' ts G) as (c & body & N & T & S). rewrite B in T. cbn [body_toks] in T.
  exists c, body. split; [exact N|]. split; [exact S|]. intro F.
  destruct (C84_call_partial cx c n args body P F O T) as (f & ys & R & _ & Tn & C). eauto 6.
Qed.

(** The two arguments of [__builtin_offsetof] are written as they are. *)
Theorem C84_offsetof `{Unicode} cx c n args ts :
  is_offsetof n args = true -> etoks cx c (ECall n args) = Some ts ->
  exists a b ta tb, args = [a; b] /\ etoks cx c a = Some ta /\ etoks cx c b = Some tb /\
    ts = std_path cx ["mem"; "offsetof"] ++ [rp "!"; parens (ta ++ [rp ","] ++ tb)].
Proof.
  intros O T. destruct n as [i|s|l]; try discriminate. pose proof O as O0. cbn in O. apply andb_prop in O as [_ L].
  destruct args as [|a [|b [|d args]]]; try discriminate.
  assert (D : str_eqb s (st "__builtin_offsetof") && Nat.eqb (length [a; b]) 2 = true) by exact O0.
  cbn [etoks] in T. rewrite D in T. cbn [obind] in T.
  cbn [exprs_toks] in T. destruct (etoks cx c a) as [ta|] eqn:Ea; [|discriminate]. cbn [obind] in T.
  destruct (etoks cx c b) as [tb|] eqn:Eb; [|discriminate]. cbn [obind call_args_toks] in T.
  exists a, b, ta, tb. split; [reflexivity|]. split; [exact Ea|]. split; [exact Eb|].
  assert (Pl : forall e t u, call_arg_toks c true e t = Some u -> u = t).
  { intros e t u. destruct e as [[i|x|k]|m k|t0 e|k|x|k|t0|op e|k op r|x y z]; cbn [call_arg_toks]; try congruence.
    - destruct (arg_name c i) as [n0|]; [|discriminate]. cbn [obind]. destruct (str_eqb n0 (st "...") || negb (lc_macro c)); intro K; injection K as <-; reflexivity.
    - destruct (ty_is_ptr t0 && is_int_zero e); intro K; injection K as <-; reflexivity. }
  destruct (call_arg_toks c true a ta) as [u|] eqn:Ua; [|discriminate]. apply Pl in Ua as ->.
  destruct (call_arg_toks c true b tb) as [u|] eqn:Ub; [|discriminate]. apply Pl in Ub as ->.
  cbn [obind sep_by] in T. injection T as <-. unfold std_path. cbn [map sep_by app]. rewrite <- !app_assoc. reflexivity.
Qed.

(** ** Cases *)

Section Demo.
#[local] Existing Instance demo_unicode.
Let I (s : string) := MIdent (st s).
Let P (s : string) := MPunct (st s).
Let L (z : Z) := MLit (LInt (mk_int z None)).
(** [f(x, x + 1, 2, (void * )0, (int)0)] as a macro. *)
Let body := [I "f"; P "("; MArg 0; P ","; MArg 0; P "+"; L 1; P ","; L 2; P ","; P "("; I "void"; P "*"; P ")"; L 0; P ","; P "("; I "int"; P ")"; L 0; P ")"].
Example C84_case : exists m m' n args ts patterns,
  fn_macro_parse (st "F") [I "x"] body = ROk m /\ fn_generate cx_unit m = (m', ROk (macro_item (st "F") patterns ts)) /\
  fm_body m' = MbExpr (ECall n args) /\ is_offsetof n args = false /\
  (forall c, lc_names c = [st "x"] -> fine cx_unit c (ECall n args)) /\
  ts = [ri "f"; parens [parens [rp "$"; ri "x"]; rp "."; ri "into"; parens []; rp ",";
    parens [rp "$"; ri "x"; rp "+"; RLit (RlInt 1 [])]; rp "."; ri "into"; parens []; rp ","; RLit (RlInt 2 []); rp ",";
    ri "ptr"; rp "::"; ri "null_mut"; parens []; rp ",";
    parens [RLit (RlInt 0 (st "u8")); ri "as"; ri "c_int"]; rp "."; ri "into"; parens []]].
Proof.
  do 5 eexists. exists [[rp "$"; ri "x"; rp ":"; ri "expr"]].
  split; [vm_compute; reflexivity|]. split; [vm_compute; reflexivity|]. split; [reflexivity|]. split; [reflexivity|].
  split; [|vm_compute; reflexivity].
  intros c N. assert (V : plain_var cx_unit c (IArg 0)).
  { split; [|exact Logic.I]. intros s Hs. unfold arg_name in Hs. rewrite N in Hs. injection Hs as <-. split; [discriminate|now right]. }
  cbn. intros _. split; [reflexivity|]. split; [right; exact V|]. split; [exact (conj V Logic.I)|]. repeat split.
  intros _ ts T. vm_compute in T. injection T as <-. reflexivity.
Qed.
(** [__builtin_offsetof(T, x)]. *)
Example C84_offsetof_case : is_offsetof (IPlain (st "__builtin_offsetof")) [EVar (IPlain (st "T")); EVar (IArg 0)] = true /\
  etoks cx_unit (mk_lctx [st "x"] [AUnknown] true true true false) (ECall (IPlain (st "__builtin_offsetof")) [EVar (IPlain (st "T")); EVar (IArg 0)]) =
    Some [ri "mem"; rp "::"; ri "offsetof"; rp "!"; parens [ri "T"; rp ","; rp "$"; ri "x"]].
Proof. split; vm_compute; reflexivity. Qed.
End Demo.

Print Assumptions C84_call_partial.
Print Assumptions C84_generate_partial.
Print Assumptions C84_offsetof.
