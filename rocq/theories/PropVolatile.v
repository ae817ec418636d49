(** C39: assignments to a volatile location. *)
From Verif Require Import Base Utf Lex LexFloat Token Ast Nom ParseTok ParseStmt Rust Finish Codegen SpecRustExpr SpecTree SpecVolatile StrFacts RustExprFacts TreeFacts PropFnGen PropTree.
From Coq Require Import String List Lia Bool ZArith.
Import ListNotations.
Local Open Scope string_scope.
Local Open Scope list_scope.

(** The module [ptr]. *)
Definition ptr_module (cx : cgctx) : list rtok := pfx (cx_trait cx) ++ [ri "ptr"; rp "::"].

Section Runs.
Context {U : Unicode} {V : Type}.
Variables (cx : cgctx) (c : lctx) (apply : str -> V -> V -> V -> Prop) (prim : list (str * V) -> rx -> V -> list (access V) -> Prop).
Let run := run (ptr_module cx) apply prim.
Let run_body := run_body (ptr_module cx) apply prim.

Lemma read_eq x : x_read cx x = XCall (read_path (ptr_module cx)) [x].
Proof. unfold x_read, read_path, ptr_module, std_path. rewrite <- app_assoc. reflexivity. Qed.
Lemma write_eq x y : x_write cx x y = RsExpr (XCall (write_path (ptr_module cx)) [x; y]).
Proof. unfold x_write, write_path, ptr_module, std_path. rewrite <- app_assoc. reflexivity. Qed.
Lemma read_not_write : read_path (ptr_module cx) <> write_path (ptr_module cx).
Proof. intro E. injection E as E. apply app_inv_head in E. discriminate. Qed.

Lemma run_value env s a v t : run ((s, a) :: env) (XPath [RId s]) v t <-> v = a /\ t = [].
Proof.
  split.
  - intro R. inversion R; subst.
    + split; [|reflexivity]. match goal with K : bound _ _ _ |- _ => inversion K; subst; congruence end.
    + match goal with K : is_prim _ _ _ |- _ => destruct K; left; reflexivity end.
  - intros [-> ->]. apply run_local, bound_here.
Qed.
Lemma run_read_iff env x v t : run env (x_read cx x) v t <-> exists a t', run env x a t' /\ t = t' ++ [ARead a v].
Proof.
  rewrite read_eq. split.
  - intro R. inversion R; subst; [|eauto].
    match goal with K : is_prim _ _ _ |- _ => destruct K as [K _]; now destruct K end.
  - intros (a & t' & R & ->). now apply run_read.
Qed.
Lemma run_bin_iff env op x y v t : run env (XBin op x y) v t <-> exists a b t1 t2, run env x a t1 /\ run env y b t2 /\ apply op a b v /\ t = t1 ++ t2.
Proof.
  split.
  - intro R. inversion R; subst; [match goal with K : is_prim _ _ _ |- _ => destruct K end|]. do 4 eexists. repeat split; eassumption.
  - intros (a & b & t1 & t2 & R1 & R2 & A & ->). eapply run_bin; eassumption.
Qed.
(** [{ let value = vx; write_volatile(px, wx); value }]. *)
Lemma run_write_block env vx px wx v t :
  run env (x_write_block cx vx px wx) v t <->
  exists t1 p t2 b t3, run env vx v t1 /\ run ((st "value", v) :: env) px p t2 /\ run ((st "value", v) :: env) wx b t3 /\
    t = t1 ++ t2 ++ t3 ++ [AWrite p b].
Proof.
  unfold x_write_block. rewrite write_eq. split.
  - intro R. inversion R as [| x0 v0 t0 K| | | b0 v0 t0 B]; subst; [destruct K|].
    inversion B as [|kind s ty x l e a v0 t1 t2 B1 B2|]; subst.
    inversion B2 as [| |x y l e p w v0 t3 t4 t5 B3 B4 B5]; subst.
    inversion B5 as [x v0 t6 B6| |]; subst. apply run_value in B6 as [-> ->].
    exists t1, p, t3, w, t4. auto.
  - intros (t1 & p & t2 & b & t3 & R1 & R2 & R3 & ->). apply run_block. eapply body_let; [exact R1|].
    eapply body_write; [exact R2|exact R3|]. apply body_value. apply run_local, bound_here.
Qed.

(** The pointer of a volatile access is a primitive expression. *)
Lemma pointer_prim e p px env : volatile_access e p -> tree cx c p px -> is_prim (V := V) (ptr_module cx) env px.
Proof.
  intros (-> & ty & q & e' & -> & Q) T. inversion T; subst; try discriminate; try exact I.
  all: try match goal with K : volatile_access _ _ |- _ => destruct K as [K _]; discriminate K end.
  cbn. unfold read_path, write_path, ptr_module, std_path. cbn [map sep_by]. rewrite <- !app_assoc. cbn [app].
  cbn in H2. destruct e' as [| | |[]| | | | | |]; try discriminate. destruct (int_value i =? 0)%Z; [|discriminate]. injection H2 as <-.
  split; intro E; injection E as E; apply app_inv_head in E; discriminate.
Qed.
Lemma run_ignores env x s a v t : (forall env, is_prim (V := V) (ptr_module cx) env x) -> ignores prim s x ->
  run ((st s, a) :: env) x v t <-> run env x v t.
Proof.
  intros P G.
  assert (R : forall env v t, run env x v t <-> prim env x v t).
  { clear env v t. intros env v t. split; [|intro; now apply run_prim].
    intro R. pose proof (P env) as Pe. inversion R; subst; try assumption; try now destruct Pe.
    exfalso. specialize (P [(s0, v)]). apply P. left. reflexivity. }
  rewrite !R. apply G.
Qed.
End Runs.

(** ** The trees of accesses *)

Ltac no_access := match goal with K : volatile_access _ _ |- _ => destruct K as [K _]; discriminate K end.
Lemma access_fun e p q : volatile_access e p -> volatile_access e q -> p = q.
Proof. intros (-> & _) (E & _). congruence. Qed.
Lemma tree_update {U : Unicode} cx c l p r x : volatile_access l p -> tree cx c (EBinary l OAddAssign r) x ->
  exists px y, tree cx c p px /\ tree cx c r y /\ x = x_write_block cx (XBin (st "+") (x_read cx px) y) px (x_name "value").
Proof.
  intros Va T. inversion T; subst; try discriminate.
  - no_access.
  - match goal with K : forall p, ~ volatile_access l p |- _ => now destruct (K p) end.
  - match goal with K : volatile_access l ?q |- _ => pose proof (access_fun _ _ _ Va K); subst q end.
    match goal with K : applied OAddAssign = Some _ |- _ => injection K as <- end. eauto.
Qed.
Lemma tree_write {U : Unicode} cx c l p r x : volatile_access l p -> tree cx c (EBinary l OAssign r) x ->
  exists px y, tree cx c p px /\ tree cx c r y /\ x = x_write_block cx y px (x_name "value").
Proof.
  intros Va T. inversion T; subst; try discriminate.
  - no_access.
  - match goal with K : forall p, ~ volatile_access l p |- _ => now destruct (K p) end.
  - match goal with K : volatile_access l ?q |- _ => pose proof (access_fun _ _ _ Va K); subst q end. eauto.
Qed.
Lemma tree_step {U : Unicode} cx c op s e p x : volatile_access e p -> step_op op = Some s -> tree cx c (EUnary op e) x ->
  exists px, tree cx c p px /\
    x = if is_post op then x_write_block cx (x_read cx px) px (XBin (st s) (x_name "value") x_one)
        else x_write_block cx (XBin (st s) (x_read cx px) x_one) px (x_name "value").
Proof.
  intros Va S T. inversion T; subst; try discriminate; try (destruct op; discriminate).
  - match goal with K : _ \/ _ |- _ => destruct K as [-> | ->]; discriminate end.
  - match goal with K : volatile_access (EUnary op e) _ |- _ => destruct K as [K _]; injection K as -> _; discriminate S end.
  - match goal with K : forall p, ~ volatile_access e p |- _ => now destruct (K p) end.
  - match goal with K : volatile_access e ?q |- _ => pose proof (access_fun _ _ _ Va K); subst q end.
    match goal with K : step_op op = Some ?s' |- _ => assert (s = s') by congruence; subst s' end. eauto.
Qed.
Lemma access_fine {U : Unicode} cx c e p : volatile_access e p -> fine cx c p -> fine cx c e /\ volatile_deref e = true.
Proof. intros (-> & ty & q & e' & -> & Q) F. split; [|exact Q]. split; [exact F|exact I]. Qed.

(** ** Assignment and addition

    [*p += r] with a volatile [p]: the pointer is evaluated, the location is
    read, [r] is evaluated, the pointer is evaluated once more, and the sum is
    written, which is also the value. *)
Theorem C39_add_partial {U : Unicode} cx c l p r ts :
  plain_context cx -> volatile_access l p -> fine cx c p -> fine cx c r -> tight 12 r ->
  etoks cx c (EBinary l OAddAssign r) = Some ts ->
  exists x px y, reads ts x /\ (forall x', reads ts x' -> x' = x) /\ tree cx c p px /\ tree cx c r y /\
  forall V apply prim env (v : V) t, ignores prim "value" px ->
    let run := run (ptr_module cx) apply prim in
    run env x v t <->
    exists a old b t1 t2 a' t3, run env px a t1 /\ run env y b t2 /\ run env px a' t3 /\ apply (st "+") old b v /\
      t = t1 ++ [ARead a old] ++ t2 ++ t3 ++ [AWrite a' v].
Proof.
  intros P Va Fp Fr Ti T. destruct (access_fine cx c l p Va Fp) as [Fl Vl].
  assert (F : fine cx c (EBinary l OAddAssign r)) by (cbn [fine valued]; rewrite Vl; auto).
  destruct (C36_partial cx c _ ts P F T) as (x & X & R & Un & _).
  destruct (tree_update cx c l p r x Va X) as (px & y & Tp & Tr & ->).
  eexists. exists px, y. split; [exact R|]. split; [exact Un|]. split; [exact Tp|]. split; [exact Tr|].
  intros V apply prim env v t Ig run. subst run. pose proof (fun env => pointer_prim (V := V) cx c l p px env Va Tp) as Pp.
  rewrite run_write_block. split.
  - intros (t1 & p' & t2 & b & t3 & R1 & R2 & R3 & ->). apply run_bin_iff in R1 as (old & b' & u1 & u2 & R1 & Rr & A & ->).
    apply run_read_iff in R1 as (a & u & R1 & ->). apply run_value in R3 as [-> ->]. apply run_ignores in R2; [|assumption..].
    exists a, old, b', u, u2, p', t2. repeat split; auto. rewrite <- !app_assoc. reflexivity.
  - intros (a & old & b & t1 & t2 & a' & t3 & R1 & R2 & R3 & A & ->). exists (t1 ++ [ARead a old] ++ t2), a', t3, v, [].
    split; [|split; [|split]].
    + apply run_bin_iff. exists old, b, (t1 ++ [ARead a old]), t2. split; [apply run_read_iff; eauto|]. split; [exact R2|].
      split; [exact A|]. rewrite <- app_assoc. reflexivity.
    + apply run_ignores; assumption.
    + now apply run_value.
    + rewrite <- !app_assoc. reflexivity.
Qed.

(** For a pointer without effects and with only one value, the location is read
    once and written once, and nothing else is accessed but by [r]. *)
Corollary C39_once_partial {U : Unicode} cx c l p r ts :
  plain_context cx -> volatile_access l p -> fine cx c p -> fine cx c r -> tight 12 r ->
  etoks cx c (EBinary l OAddAssign r) = Some ts ->
  exists x px y, reads ts x /\ tree cx c p px /\ tree cx c r y /\
  forall V apply prim env (a : V), ignores prim "value" px ->
    let run := run (ptr_module cx) apply prim in
    (forall a' t, run env px a' t <-> a' = a /\ t = []) ->
    forall v t, run env x v t <->
      exists old b t', run env y b t' /\ apply (st "+") old b v /\ t = ARead a old :: t' ++ [AWrite a v].
Proof.
  intros P Va Fp Fr Ti T. destruct (C39_add_partial cx c l p r ts P Va Fp Fr Ti T) as (x & px & y & R & _ & Tp & Tr & S).
  exists x, px, y. split; [exact R|]. split; [exact Tp|]. split; [exact Tr|].
  intros V apply prim env a Ig run Pu v t. pose proof (S V apply prim env v t Ig) as Sv. cbn zeta in Sv. subst run. rewrite Sv. split.
  - intros (a1 & old & b & t1 & t2 & a2 & t3 & R1 & R2 & R3 & A & ->). apply Pu in R1 as [-> ->]. apply Pu in R3 as [-> ->].
    exists old, b, t2. auto.
  - intros (old & b & t' & R2 & A & ->). exists a, old, b, [], t', a, []. repeat split; try (apply Pu; auto); assumption.
Qed.

(** [*p = r]: [r] is evaluated, and written. *)
Theorem C39_assign_partial {U : Unicode} cx c l p r ts :
  plain_context cx -> volatile_access l p -> fine cx c p -> fine cx c r ->
  etoks cx c (EBinary l OAssign r) = Some ts ->
  exists x px y, reads ts x /\ (forall x', reads ts x' -> x' = x) /\ tree cx c p px /\ tree cx c r y /\
  forall V apply prim env (v : V) t, ignores prim "value" px ->
    let run := run (ptr_module cx) apply prim in
    run env x v t <-> exists t1 a t2, run env y v t1 /\ run env px a t2 /\ t = t1 ++ t2 ++ [AWrite a v].
Proof.
  intros P Va Fp Fr T. destruct (access_fine cx c l p Va Fp) as [Fl Vl].
  assert (F : fine cx c (EBinary l OAssign r)) by (cbn [fine valued]; rewrite Vl; auto).
  destruct (C36_partial cx c _ ts P F T) as (x & X & R & Un & _).
  destruct (tree_write cx c l p r x Va X) as (px & y & Tp & Tr & ->).
  eexists. exists px, y. split; [exact R|]. split; [exact Un|]. split; [exact Tp|]. split; [exact Tr|].
  intros V apply prim env v t Ig run. subst run. pose proof (fun env => pointer_prim (V := V) cx c l p px env Va Tp) as Pp.
  rewrite run_write_block. split.
  - intros (t1 & p' & t2 & b & t3 & R1 & R2 & R3 & ->). apply run_value in R3 as [-> ->]. apply run_ignores in R2; [|assumption..].
    exists t1, p', t2. auto.
  - intros (t1 & a & t2 & R1 & R2 & ->). exists t1, a, t2, v, []. repeat split; auto; [apply run_ignores; assumption|now apply run_value].
Qed.

(** ** Increment and decrement

    [++*p], [--*p], [*p++], [*p--]: one read, one write of the next value; the
    value is the new one or the old one. *)
Theorem C39_step_partial {U : Unicode} cx c op s l p ts :
  plain_context cx -> step_op op = Some s -> volatile_access l p -> fine cx c p ->
  etoks cx c (EUnary op l) = Some ts ->
  exists x px, reads ts x /\ (forall x', reads ts x' -> x' = x) /\ tree cx c p px /\
  forall V apply prim env (v : V) t, ignores prim "value" px -> ignores prim "value" x_one ->
    let run := run (ptr_module cx) apply prim in
    run env x v t <->
    exists a old one new t1 t2 a' t3, run env px a t1 /\ run env x_one one t2 /\ run env px a' t3 /\ apply (st s) old one new /\
      v = (if is_post op then old else new) /\
      t = if is_post op then t1 ++ [ARead a old] ++ t3 ++ t2 ++ [AWrite a' new] else t1 ++ [ARead a old] ++ t2 ++ t3 ++ [AWrite a' new].
Proof.
  intros P S Va Fp T. destruct (access_fine cx c l p Va Fp) as [Fl Vl].
  assert (F : fine cx c (EUnary op l)).
  { cbn [fine]. split; [exact Fl|]. destruct op; try discriminate; intro; congruence. }
  destruct (C36_partial cx c _ ts P F T) as (x & X & R & Un & _).
  destruct (tree_step cx c op s l p x Va S X) as (px & Tp & ->).
  eexists. exists px. split; [exact R|]. split; [exact Un|]. split; [exact Tp|].
  intros V apply prim env v t Ig Io run. subst run. pose proof (fun env => pointer_prim (V := V) cx c l p px env Va Tp) as Pp.
  assert (Po : forall env, is_prim (V := V) (ptr_module cx) env x_one) by (intro; exact I).
  destruct (is_post op); rewrite run_write_block; split.
  - intros (t1 & p' & t2 & b & t3 & R1 & R2 & R3 & ->). apply run_read_iff in R1 as (a & u & R1 & ->).
    apply run_bin_iff in R3 as (v' & o & u1 & u2 & R3 & Ro & A & ->). apply run_value in R3 as [-> ->].
    apply run_ignores in R2; [|assumption..]. apply run_ignores in Ro; [|assumption..].
    exists a, v, o, b, u, u2, p', t2. repeat split; auto. rewrite <- !app_assoc. reflexivity.
  - intros (a & old & o & new & t1 & t2 & a' & t3 & R1 & R2 & R3 & A & -> & ->).
    exists (t1 ++ [ARead a old]), a', t3, new, t2. split; [apply run_read_iff; eauto|]. split; [apply run_ignores; assumption|]. split.
    + apply run_bin_iff. exists old, o, [], t2. split; [now apply run_value|]. split; [apply run_ignores; assumption|]. auto.
    + rewrite <- !app_assoc. reflexivity.
  - intros (t1 & p' & t2 & b & t3 & R1 & R2 & R3 & ->). apply run_bin_iff in R1 as (old & o & u1 & u2 & R1 & Ro & A & ->).
    apply run_read_iff in R1 as (a & u & R1 & ->). apply run_value in R3 as [-> ->]. apply run_ignores in R2; [|assumption..].
    exists a, old, o, v, u, u2, p', t2. repeat split; auto. rewrite <- !app_assoc. reflexivity.
  - intros (a & old & o & new & t1 & t2 & a' & t3 & R1 & R2 & R3 & A & -> & ->).
    exists (t1 ++ [ARead a old] ++ t2), a', t3, new, [].
    split; [|split; [|split]].
    + apply run_bin_iff. exists old, o, (t1 ++ [ARead a old]), t2. split; [apply run_read_iff; eauto|]. split; [exact R2|].
      split; [exact A|]. rewrite <- app_assoc. reflexivity.
    + apply run_ignores; assumption.
    + now apply run_value.
    + rewrite <- !app_assoc. reflexivity.
Qed.

(** ** Cases *)

Section Demo.
#[local] Existing Instance demo_unicode.
Let I (s : string) := MIdent (st s).
Let P (s : string) := MPunct (st s).
Let L (z : Z) := MLit (LInt (mk_int z None)).
(** [*(volatile int * )x]. *)
Let star : list mtoken := [P "*"; P "("; I "volatile"; I "int"; P "*"; P ")"; MArg 0].
Let c0 : lctx := mk_lctx [st "x"; st "y"; st "z"] [AUnknown; AUnknown; AUnknown] true true true false.
Let xp : expr := ECast (TyPtr (TyQual (TyBuiltIn BInt) QVolatile)) (EVar (IArg 0)).

(** The hypotheses hold: [*(volatile int * )x += y * 2]. *)
Example C39_case :
  let r := EBinary (EVar (IArg 1)) OMul (ELit (LInt (mk_int 2 None))) in
  volatile_access (EUnary UDeref xp) xp /\ fine cx_unit c0 xp /\ fine cx_unit c0 r /\ tight 12 r /\
  etoks cx_unit c0 (EBinary (EUnary UDeref xp) OAddAssign r) =
    Some [braces [ri "let"; ri "value"; rp "="; ri "ptr"; rp "::"; ri "read_volatile"; parens [rp "$"; ri "x"; ri "as"; rp "*"; ri "mut"; ri "c_int"];
                  rp "+"; rp "$"; ri "y"; rp "*"; RLit (RlInt 2 []); rp ";";
                  ri "ptr"; rp "::"; ri "write_volatile"; parens [rp "$"; ri "x"; ri "as"; rp "*"; ri "mut"; ri "c_int"; rp ","; ri "value"]; rp ";"; ri "value"]].
Proof.
  cbn zeta. split; [|split; [|split; [|split]]].
  - split; [reflexivity|]. repeat eexists.
  - repeat split; cbn; intros; try congruence; try (injection H as <-; try discriminate; auto).
    intros ts T. vm_compute in T. injection T as <-. reflexivity.
  - repeat split; cbn; intros; try congruence; try (injection H as <-; try discriminate; auto).
  - unfold tight. cbn. lia.
  - vm_compute. reflexivity.
Qed.
(** A run: integers as values; [x] is 100, [y] is 4, the location holds 7. *)
Definition int_apply (op : str) (a b v : Z) : Prop :=
  (op = st "+" /\ v = (a + b)%Z) \/ (op = st "-" /\ v = (a - b)%Z) \/ (op = st "*" /\ v = (a * b)%Z).
Inductive int_prim (env : list (str * Z)) : rx -> Z -> list (access Z) -> Prop :=
| ip_lit z s : int_prim env (XLit (RlInt z s)) z []
| ip_x : int_prim env (XPath [rp "$"; ri "x"]) 100%Z []
| ip_y : int_prim env (XPath [rp "$"; ri "y"]) 4%Z []
| ip_local s v : bound s v env -> int_prim env (XPath [RId s]) v []
| ip_cast x ty v t : int_prim env x v t -> int_prim env (XCast x ty) v t.
Let int_run := run (ptr_module cx_unit) int_apply int_prim.
Let x_ptr : rx := XCast (XPath [rp "$"; ri "x"]) [rp "*"; ri "mut"; ri "c_int"].
Example C39_run :
  int_run [] (x_write_block cx_unit (XBin (st "+") (x_read cx_unit x_ptr) (XPath [rp "$"; ri "y"])) x_ptr (x_name "value")) 11%Z [ARead 100%Z 7%Z; AWrite 100%Z 11%Z].
Proof.
  apply run_write_block. exists [ARead 100%Z 7%Z], 100%Z, [], 11%Z, []. split; [|split; [|split; [|reflexivity]]].
  - apply run_bin_iff. exists 7%Z, 4%Z, [ARead 100%Z 7%Z], []. split; [|split; [|split]].
    + apply run_read_iff. exists 100%Z, []. split; [|reflexivity]. apply run_prim; [exact Logic.I|]. repeat constructor.
    + apply run_prim; [exact Logic.I|constructor].
    + left. auto.
    + reflexivity.
  - apply run_prim; [exact Logic.I|]. repeat constructor.
  - now apply run_value.
Qed.

(** ** Other operators *)

Let exprs (l : list string) : list (list rtok) := map (fun a => [rp "$"; ri a; rp ":"; ri "expr"]) l.
Ltac gen l := do 2 eexists; split; [do 2 eexists; exists (exprs l); split; [vm_compute; reflexivity|split; [vm_compute; reflexivity|reflexivity]]|].

(** [*p -= r], [*p &= r], [*p ^= r] and [*p |= r] are generated as [*p += r]. *)
Theorem C39_operator_refuted {U : Unicode} cx c l p op r :
  volatile_access l p -> In op [OSubAssign; OBitAndAssign; OBitXorAssign; OBitOrAssign] ->
  etoks cx c (EBinary l op r) = etoks cx c (EBinary l OAddAssign r).
Proof.
  intros (-> & ty & q & e' & -> & Q) O. cbn [etoks].
  destruct O as [<- | [<- | [<- | [<- | []]]]]; cbn [block_assign volatile_deref volatile_ptr]; rewrite Q; reflexivity.
Qed.
(** So [*p -= y] adds. *)
Theorem C39_sub_refuted : exists e ts, generated [I "x"; I "y"] (star ++ [P "-="; MArg 1]) e ts /\
  e = EBinary (EUnary UDeref xp) OSubAssign (EVar (IArg 1)) /\
  exists x, reads ts x /\ int_run [] x 11%Z [ARead 100%Z 7%Z; AWrite 100%Z 11%Z] /\
    forall v t, int_run [] x v t -> exists old, v = (old + 4)%Z /\ t = [ARead 100%Z old; AWrite 100%Z v].
Proof.
  gen (["x"; "y"] : list string). split; [reflexivity|].
  exists (x_write_block cx_unit (XBin (st "+") (x_read cx_unit x_ptr) (XPath [rp "$"; ri "y"])) x_ptr (x_name "value")).
  split; [exists 20; vm_compute; reflexivity|]. split; [exact C39_run|].
  assert (Px : forall env v t, int_run env x_ptr v t -> v = 100%Z /\ t = []).
  { intros env v t R. inversion R as [|? ? ? _ Q| | |]; subst. inversion Q as [| | | |? ? ? ? Q']; subst. inversion Q'; auto. }
  intros v t R. apply run_write_block in R as (t1 & p' & t2 & b & t3 & R1 & R2 & R3 & ->).
  apply run_value in R3 as [-> ->]. apply Px in R2 as [-> ->].
  apply run_bin_iff in R1 as (old & y & u1 & u2 & R1 & Ry & A & ->).
  apply run_read_iff in R1 as (a & u & R1 & ->). apply Px in R1 as [-> ->].
  assert (y = 4%Z /\ u2 = []) as [-> ->] by (inversion Ry as [|? ? ? _ Q| | |]; subst; inversion Q; auto).
  exists old. split; [|reflexivity]. destruct A as [[_ A]|[[A _]|[A _]]]; [exact A|discriminate A..].
Qed.
(** The operators [*=], [/=], [%=], [<<=] and [>>=] assign to the result of the
    read: nothing is ever written (and it is not a place, so it is not accepted
    by the compiler). *)
Theorem C39_place_refuted {U : Unicode} cx c l p op r ts :
  plain_context cx -> volatile_access l p -> fine cx c p -> fine cx c r ->
  In op [OMulAssign; ODivAssign; ORemAssign; OShlAssign; OShrAssign] ->
  etoks cx c (EBinary l op r) = Some ts ->
  exists px y, tree cx c p px /\ tree cx c r y /\ reads ts (XAssign (rust_op op) (x_read cx px) y).
Proof.
  intros Pc Va Fp Fr O T. destruct (access_fine cx c l p Va Fp) as [Fl Vl].
  assert (F : fine cx c (EBinary l op r)) by (destruct O as [<- | [<- | [<- | [<- | [<- | []]]]]]; split; assumption).
  destruct (C36_partial cx c _ ts Pc F T) as (x & X & R & _).
  assert (Tl : forall x, tree cx c l x -> exists px, tree cx c p px /\ x = x_read cx px).
  { intros z Z. pose proof Va as (-> & _). inversion Z; subst; try discriminate.
    all: try (destruct Va as (_ & ? & ? & ? & Q & _); discriminate Q).
    all: try (match goal with K : UDeref = UNot \/ _ |- _ => destruct K; discriminate end).
    all: try (match goal with K : forall p, ~ volatile_access _ p |- _ => now destruct (K p) end).
    match goal with Va : volatile_access _ p, K : volatile_access _ ?q |- _ => pose proof (access_fun _ _ _ Va K); subst q end. eauto. }
  inversion X; subst; try (destruct O as [E | [E | [E | [E | [E | []]]]]]; subst; discriminate).
  - no_access.
  - match goal with K : tree cx c l _ |- _ => apply Tl in K as (px & Tp & ->) end. eauto.
Qed.
(** [*p += y << z] is [read(p) + y << z], where the sum is shifted. *)
Theorem C39_group_refuted : exists e ts, generated [I "x"; I "y"; I "z"] (star ++ [P "+="; MArg 1; P "<<"; MArg 2]) e ts /\
  e = EBinary (EUnary UDeref xp) OAddAssign (EBinary (EVar (IArg 1)) OShl (EVar (IArg 2))) /\
  reads ts (x_write_block cx_unit (XBin (st "<<") (XBin (st "+") (x_read cx_unit x_ptr) (XPath [rp "$"; ri "y"])) (XPath [rp "$"; ri "z"]))
    x_ptr (x_name "value")).
Proof. gen (["x"; "y"; "z"] : list string). split; [reflexivity|]. exists 20. vm_compute. reflexivity. Qed.
(** The local variable of the block hides a parameter of the same name:
    [*(volatile int * )value = 1] writes to the address 1. *)
Let words : cgctx :=
  mk_cgctx None None None (fun _ _ => Some (plain_ty "c_uint")) (fun _ => None) (fun _ => None) (fun _ _ => None) (fun _ => None).
Theorem C39_capture_refuted : exists m m' params ret body,
  fn_macro_parse (st "F") [I "value"] (star ++ [P "="; L 1]) = ROk m /\
  fn_generate words m = (m', ROk (function_item (st "F") params ret body)) /\
  exists x, reads_block body (RB [] (Some x)) /\
    forall v t, int_run [(st "value", 100%Z)] x v t -> t = [AWrite 1%Z 1%Z].
Proof.
  do 2 eexists. exists [[ri "mut"; ri "value"; rp ":"; ri "c_uint"]], (Some [ri "c_int"]). eexists.
  split; [vm_compute; reflexivity|]. split; [vm_compute; reflexivity|].
  exists (x_write_block cx_unit x_one (XCast (x_name "value") [rp "*"; ri "mut"; ri "c_int"]) (x_name "value")).
  split; [exists 20; vm_compute; reflexivity|].
  intros v t R. apply run_write_block in R as (t1 & p' & t2 & b & t3 & R1 & R2 & R3 & ->).
  inversion R1 as [|? ? ? _ Q| | |]; subst. inversion Q; subst.
  inversion R2 as [|? ? ? _ Q2| | |]; subst. inversion Q2 as [| | | |? ? ? ? Q3]; subst. inversion Q3 as [| | |? ? B|]; subst.
  inversion B; subst; [|congruence]. apply run_value in R3 as [-> ->]. reflexivity.
Qed.
End Demo.

Print Assumptions C39_add_partial.
Print Assumptions C39_once_partial.
Print Assumptions C39_assign_partial.
Print Assumptions C39_step_partial.
Print Assumptions C39_operator_refuted.
Print Assumptions C39_sub_refuted.
Print Assumptions C39_place_refuted.
Print Assumptions C39_group_refuted.
Print Assumptions C39_capture_refuted.
