(** Finishing a finished tree leaves it as it is. *)
From Verif Require Import Base Utf Lex LexFloat Token Ast ParseStmt Rust Finish SpecGen StrFacts FinishFacts SpecAccept.
From Verif Require Import SpecAgain.
From Coq Require Import String List SpecFloat Lia Bool.
Import ListNotations.
Local Open Scope list_scope.

(** What finishing does to the context: it asks for a macro, or for another kind
    of parameter (an identifier, or an expression). *)
Inductive act := Flag | Level (i : nat) (ident : bool).
Definition kty (a : arg_ty) : option ctype := match a with AKnown t => Some t | _ => None end.
Definition up (ident : bool) (a : arg_ty) : arg_ty :=
  match a with
  | AKnown t => AKnown t
  | AIdent => AIdent
  | _ => if ident then AIdent else AExpr
  end.
Fixpoint upd {A} (i : nat) (f : A -> A) (l : list A) : list A :=
  match l, i with
  | [], _ => []
  | x :: l', O => f x :: l'
  | x :: l', S i' => x :: upd i' f l'
  end.
Definition do_act (a : act) (c : lctx) : lctx :=
  match a with
  | Flag => set_macro true c
  | Level i b => set_types (upd i (up b) (lc_types c)) c
  end.
Definition eff : Type := list act.
Definition fl (b : bool) : eff := if b then [Flag] else [].
Coercion fl : bool >-> eff.
Definition join (a b : eff) : eff := a ++ b.
Definition add (l : eff) (c : lctx) : lctx := fold_right do_act c l.

Lemma add_add a b c : add a (add b c) = add (join a b) c.
Proof. unfold add, join. now rewrite fold_right_app. Qed.
Lemma add_fl (a b : bool) c : add a (add b c) = add (a || b) c.
Proof. destruct a, b; reflexivity. Qed.
Lemma upd_upd {A} i j (f g : A -> A) l : (forall x, f (g x) = g (f x)) -> upd i f (upd j g l) = upd j g (upd i f l).
Proof. intro C. revert i j. induction l as [|x l IH]; intros [|i] [|j]; cbn; try reflexivity; [now rewrite C|now rewrite IH]. Qed.
Lemma upd_twice {A} i (f g : A -> A) l : upd i f (upd i g l) = upd i (fun x => f (g x)) l.
Proof. revert i. induction l as [|x l IH]; intros [|i]; cbn; try reflexivity. now rewrite IH. Qed.
Lemma upd_ext {A} i (f g : A -> A) l : (forall x, f x = g x) -> upd i f l = upd i g l.
Proof. intro C. revert i. induction l as [|x l IH]; intros [|i]; cbn; try reflexivity; [now rewrite C|now rewrite IH]. Qed.
Lemma upd_same {A} i (f : A -> A) l x : nth_error l i = Some x -> f x = x -> upd i f l = l.
Proof. revert i. induction l as [|y l IH]; intros [|i]; cbn; try discriminate; [intros [= ->] ->; reflexivity|]. intros N F. now rewrite IH. Qed.
Lemma upd_nth {A} i j (f : A -> A) l : nth_error (upd i f l) j = if Nat.eqb i j then option_map f (nth_error l j) else nth_error l j.
Proof. revert i j. induction l as [|y l IH]; intros [|i] [|j]; cbn; try reflexivity; [now destruct (Nat.eqb i j)|apply IH]. Qed.
Lemma up_comm a b x : up a (up b x) = up b (up a x).
Proof. now destruct a, b, x. Qed.
Lemma up_twice a x : up a (up a x) = up a x.
Proof. now destruct a, x. Qed.
Lemma kty_up b x : kty (up b x) = kty x.
Proof. now destruct b, x. Qed.
Lemma act_comm a b c : do_act a (do_act b c) = do_act b (do_act a c).
Proof.
  destruct a as [|i x], b as [|j y]; try reflexivity. unfold do_act. cbn [lc_types set_types]. rewrite upd_upd; [reflexivity|]. intro. apply up_comm.
Qed.
Lemma act_idem a c : do_act a (do_act a c) = do_act a c.
Proof.
  destruct a as [|i x]; try reflexivity. unfold do_act. cbn [lc_types set_types]. rewrite upd_twice, (upd_ext _ _ (up x)); [reflexivity|]. intro. apply up_twice.
Qed.
Lemma add_act l a c : add l (do_act a c) = do_act a (add l c).
Proof. induction l as [|b l IH]; [reflexivity|]. cbn. unfold add in IH. now rewrite IH, act_comm. Qed.
Lemma add_twice l c : add l (add l c) = add l c.
Proof. induction l as [|a l IH]; [reflexivity|]. change (do_act a (add l (do_act a (add l c))) = do_act a (add l c)). now rewrite add_act, act_idem, IH. Qed.

(** Contexts that differ only in whether a macro is needed and in the kinds of
    parameters without a type. *)
Definition same (c c2 : lctx) : Prop :=
  lc_names c2 = lc_names c /\ lc_cstr c2 = lc_cstr c /\ lc_elide c2 = lc_elide c /\ lc_var c2 = lc_var c /\
  forall i, option_map kty (arg_type c2 i) = option_map kty (arg_type c i).
Lemma same_refl c : same c c.
Proof. repeat split. Qed.
Lemma same_act a c : same c (do_act a c).
Proof.
  destruct a as [|i b]; repeat split. intro j. unfold arg_type. cbn. rewrite upd_nth. destruct (Nat.eqb i j); [|reflexivity].
  destruct (nth_error _ j); cbn; [now rewrite kty_up|reflexivity].
Qed.
Lemma same_trans a b c : same a b -> same b c -> same a c.
Proof. unfold same. intros (A1 & A2 & A3 & A4 & A5) (B1 & B2 & B3 & B4 & B5). repeat split; congruence. Qed.
Lemma same_sym a b : same a b -> same b a.
Proof. unfold same. intros (A1 & A2 & A3 & A4 & A5). repeat split; congruence. Qed.
Lemma same_add b c : same c (add b c).
Proof. induction b as [|a b IH]; [apply same_refl|]. eapply same_trans; [exact IH|]. apply (same_act a (add b c)). Qed.
Lemma same_of b c c2 : same (add b c) c2 <-> same c c2.
Proof. split; intro S; (eapply same_trans; [|exact S]); [apply same_add|apply same_sym, same_add]. Qed.
Lemma same_both b d c c2 : same c c2 -> same (add b c) (add d c2).
Proof. intro S. apply same_of. eapply same_trans; [exact S|]. apply same_add. Qed.
Lemma same_var c c2 : same c c2 -> lc_var c2 = lc_var c.
Proof. unfold same. tauto. Qed.
Lemma var_add b c : lc_var (add b c) = lc_var c.
Proof. apply same_var, same_add. Qed.
Definition param (c : lctx) (i : nat) : option (option ctype) := option_map kty (arg_type c i).
Lemma same_param c c2 i : same c c2 -> param c2 i = param c i.
Proof. unfold same. intros (_ & _ & _ & _ & S). apply S. Qed.
Lemma param_add b c i : param (add b c) i = param c i.
Proof. apply same_param, same_add. Qed.

Lemma all_in {A} (P : A -> Prop) l : all P l <-> Forall P l.
Proof. induction l; cbn; split; intro H; auto; [constructor; [apply H|apply IHl, H] | inversion H; split; auto; now apply IHl]. Qed.

Section F.
Context {U : Unicode}.
Variable cx : cgctx.
Hypothesis ST : settled cx.

Variable known : nat -> bool.

Definition kn (c : lctx) : Prop := forall i t, param c i = Some t -> known i = match t with Some _ => true | None => false end.
Lemma kn_same c c2 : same c c2 -> kn c -> kn c2.
Proof. intros S K i t. rewrite (same_param _ _ _ S). apply K. Qed.
Lemma kn_add b c : kn c -> kn (add b c).
Proof. apply kn_same, same_add. Qed.

(** ** Names and types *)

Lemma set_level c i (b : bool) : kn c -> known i = false ->
  match set_arg_type c i (if b then AIdent else AExpr) with
  | Some c' => param c i <> None /\ (arg_type c i <> Some AIdent \/ b = true -> c' = do_act (Level i b) c)
  | None => param c i = None
  end.
Proof.
  intros K Q. unfold kn, param, arg_type in *. specialize (K i). unfold set_arg_type, do_act, set_types.
  assert (E : match set_nth (lc_types c) i (if b then AIdent else AExpr) with
    | Some l => nth_error (lc_types c) i <> None /\ (nth_error (lc_types c) i <> Some AIdent \/ b = true -> l = upd i (up b) (lc_types c))
    | None => nth_error (lc_types c) i = None end).
  { revert K. generalize (lc_types c) as l. clear c. intro l. revert Q. generalize (known i) as k. revert i. induction l as [|x l IH]; intros [|i] k -> K; cbn; try reflexivity.
    - split; [discriminate|]. cbn in K. specialize (K _ eq_refl). destruct x; cbn; try discriminate K; destruct b; try reflexivity. intros [N|N]; [now elim N|discriminate].
    - specialize (IH i false eq_refl K). destruct (set_nth l i _) as [l'|]; cbn; [|exact IH]. destruct IH as [I1 I2]. split; [exact I1|]. intro N. now rewrite (I2 N). }
  destruct (set_nth _ _ _) as [l|]; cbn; [|now rewrite E]. destruct E as [E1 E2]. split; [destruct (nth_error _ i); [discriminate|now elim E1]|]. intro N. now rewrite (E2 N).
Qed.

Fixpoint parts_eff (l : list idpart) : eff :=
  match l with
  | [] => []
  | IpArg i :: l => join (parts_eff l) [Level i true]
  | _ :: l => parts_eff l
  end.
Definition name_eff (n : ident_expr) : eff := match n with IConcat l => parts_eff l | _ => [] end.
Definition name_here (c : lctx) (n : ident_expr) : Prop :=
  match n with IConcat l => all (fun p => match p with IpArg i => param c i <> None | _ => True end) l | _ => True end.
Lemma name_same c c2 n : same c c2 -> name_here c n -> name_here c2 n.
Proof.
  intro S. destruct n as [i|x|l]; auto. cbn. induction l as [|[i|x|v] l IH]; cbn; auto; intros [A B]; split; auto. now rewrite (same_param _ _ _ S).
Qed.
Lemma name_again n c : kn c -> good_name known n -> name_here c n -> ident_finish n c = (add (name_eff n) c, FOk None).
Proof.
  intros K G P. destruct n as [i|x|l]; try reflexivity. cbn in *. revert c K P. induction l as [|[i|x|v] l IH]; intros c K P; cbn in *; try reflexivity.
  - destruct G as [G1 G2], P as [P1 P2]. pose proof (set_level c i true K G1) as S. cbn in S. destruct (set_arg_type c i AIdent) as [c1|]; [|now elim P1].
    destruct S as [_ S]. rewrite (S (or_intror eq_refl)). rewrite IH; [|exact G2|apply (kn_add [Level i true]), K|].
    + unfold add, join. now rewrite fold_right_app.
    + apply (name_same c (do_act (Level i true) c) (IConcat l)); [apply same_act|exact P2].
  - apply IH; tauto.
  - destruct G as [[] _].
Qed.
Lemma name_out n c c' f : good_name known n -> kn c -> ident_finish n c = (c', f) -> (f = FOk None /\ name_here c n) \/ f = FPanic.
Proof.
  intros G K E. destruct n as [i|x|l]; try (injection E as <- <-; left; split; [reflexivity|exact I]). cbn in *. revert c K E. induction l as [|[i|x|v] l IH]; intros c K E; cbn in *.
  - injection E as <- <-. auto.
  - destruct G as [G1 G2]. pose proof (set_level c i true K G1) as S. cbn in S. destruct (set_arg_type c i AIdent) as [c1|]; [|injection E as <- <-; now right].
    destruct S as [S0 S]. rewrite (S (or_intror eq_refl)) in E. apply IH in E; [|exact G2|apply (kn_add [Level i true]), K].
    destruct E as [[-> E]|E]; [left|now right]. split; [reflexivity|]. split; [exact S0|].
    apply (name_same (do_act (Level i true) c) c (IConcat l)); [apply same_sym, same_act|exact E].
  - apply IH in E; tauto.
  - destruct G as [[] _].
Qed.
Lemma name_err n c c' f : good_name known n -> ident_finish n c = (c', f) -> f = FOk None \/ f = FPanic.
Proof.
  intros G E. destruct n as [i|x|l]; try (injection E as <- <-; now left). cbn in *. revert c E. induction l as [|[i|x|v] l IH]; intros c E; cbn in *.
  - injection E as <- <-. auto.
  - destruct G as [G1 G2]. destruct (set_arg_type c i AIdent) as [c1|]; [|injection E as <- <-; now right]. now apply IH in E.
  - apply IH in E; tauto.
  - destruct G as [[] _].
Qed.
Lemma ident_again n c c' t : kn c -> good_name known n -> ident_finish n c = (c', FOk t) ->
  c' = add (name_eff n) c /\ t = None /\ forall c2, same c c2 -> ident_finish n c2 = (add (name_eff n) c2, FOk None).
Proof.
  intros K G E. destruct (name_out _ _ _ _ G K E) as [[T P]|T]; [|discriminate]. rewrite (name_again _ _ K G P) in E. injection E as <- <-.
  split; [reflexivity|]. split; [reflexivity|]. intros c2 S. apply name_again; [exact (kn_same _ _ S K)|exact G|exact (name_same _ _ _ S P)].
Qed.

Definition fixed (c : lctx) (b : eff) (t : ctype) : Prop := forall c2, same c c2 -> ty_finish cx t c2 = (t, add b c2, FOk None).
Lemma settled_fixed t : settled_type cx t -> good_type known t /\ forall c, ty_finish cx t c = (t, c, FOk None).
Proof.
  induction t as [b|n s|c l|t IH|t IH q]; cbn; intro S; try (split; [exact I | intro c0; reflexivity]).
  - destruct n as [i|x|l]; try contradiction. destruct S as (s0 & Q & R). split; [exact I|]. intro c. cbn. now rewrite Q, R.
  - destruct (IH S) as [P F]. split; [exact P|]. intro c. cbn. now rewrite F.
  - destruct (IH S) as [P F]. split; [exact P|]. intro c. cbn. now rewrite F.
Qed.
Lemma type_err t c t' c' f : good_type known t -> ty_finish cx t c = (t', c', f) -> forall m, f <> FErr (UnsupportedExpression m).
Proof.
  revert c t' c' f. induction t as [b|n s|lc l|t IH|t IH q]; cbn [good_type ty_finish]; intros c t' c' f P E m.
  - inversion E; subst. discriminate.
  - destruct (ident_finish n c) as [c1 f1] eqn:N. destruct (name_err _ _ _ _ P N) as [-> | ->]; [|inversion E; subst; discriminate].
    destruct n as [i|x|l]; try (inversion E; subst; discriminate). destruct (cx_ty cx x) as [rt|] eqn:Q; [|inversion E; subst; discriminate].
    destruct (from_rust_ty (cx_ffi cx) rt) as [t1|e| |] eqn:R; inversion E; subst; try discriminate.
    clear - R. intros [= ->]. revert m R. induction rt; cbn; intros m R; try discriminate.
    + destruct (from_rust_ty (cx_ffi cx) rt) eqn:Q; try discriminate. cbn in R. injection R as ->. now apply (IHrt m).
    + destruct (builtin_from_rust _ _ (cx_ffi cx)); [discriminate|]. destruct (sp_colon _), (sp_segs _) as [|? []]; discriminate.
  - inversion E; subst. discriminate.
  - destruct (ty_finish cx t c) as [[t1 c1] f1] eqn:Q. inversion E; subst. eapply IH; eauto.
  - destruct (ty_finish cx t c) as [[t1 c1] f1] eqn:Q. inversion E; subst. eapply IH; eauto.
Qed.
Lemma type_again t c t' c' o : kn c -> good_type known t -> ty_finish cx t c = (t', c', FOk o) ->
  exists b, c' = add b c /\ o = None /\ good_type known t' /\ fixed c b t'.
Proof.
  intro K. revert t' c' o. induction t as [b|n s|lc l|t IH|t IH q]; cbn [good_type ty_finish]; intros t' c' o P E.
  - inversion E; subst. exists []. repeat split.
  - destruct (ident_finish n c) as [c1 f1] eqn:N. destruct f1 as [o1| | |]; try discriminate. destruct (ident_again _ _ _ _ K P N) as (-> & -> & N').
    assert (X : (forall x, n <> IPlain x) -> (TyIdent n s, add (name_eff n) c, FOk (@None ctype)) = (t', c', FOk o) -> exists b, c' = add b c /\ o = None /\ good_type known t' /\ fixed c b t').
    { intros NP [= <- <- <-]. exists (name_eff n). split; [reflexivity|]. split; [reflexivity|]. split; [exact P|]. intros c2 S. cbn [ty_finish]. rewrite N' by exact S. destruct n; try reflexivity. now elim (NP id). }
    destruct n as [i|x|l]; [apply X; [discriminate|exact E]| |apply X; [discriminate|exact E]]. clear X.
    destruct (cx_ty cx x) as [rt|] eqn:Q; [|discriminate]. destruct (from_rust_ty (cx_ffi cx) rt) as [t1|e| |] eqn:R; inversion E; subst.
    exists []. split; [reflexivity|]. split; [reflexivity|]. destruct (settled_fixed _ (ST _ _ _ Q R)) as [A B]. split; [exact A|]. intros c2 S. apply B.
  - inversion E; subst. exists []. repeat split.
  - destruct (ty_finish cx t c) as [[t1 c1] f1] eqn:Q. inversion E; subst. destruct (IH _ _ _ P eq_refl) as (b & -> & -> & P1 & F1). exists b. repeat split; auto.
    intros c2 S. cbn. now rewrite F1.
  - destruct (ty_finish cx t c) as [[t1 c1] f1] eqn:Q. inversion E; subst. destruct (IH _ _ _ P eq_refl) as (b & -> & -> & P1 & F1). exists b. repeat split; auto.
    intros c2 S. cbn. now rewrite F1.
Qed.

(** ** Variables *)

Lemma var_arg i c : var_finish cx (IArg i) c = match param c i with Some t => (c, FOk t) | None => (c, FPanic) end.
Proof. unfold var_finish, param. cbn [ident_finish]. now destruct (arg_type c i) as [[]|]. Qed.
Lemma var_again n c c' t : kn c -> good_name known n -> var_finish cx n c = (c', FOk t) ->
  exists b, c' = add b c /\ ((forall x, n <> IPlain x) -> b = name_eff n) /\ forall c2, same c c2 -> var_finish cx n c2 = (add b c2, FOk t).
Proof.
  intros K P E. destruct n as [i|x|l].
  - exists []. rewrite var_arg in E. destruct (param c i) as [t0|] eqn:A; [|discriminate]. injection E as <- <-. split; [reflexivity|]. split; [reflexivity|].
    intros c2 S. now rewrite var_arg, (same_param _ _ _ S), A.
  - revert E. unfold var_finish. cbn [ident_finish]. destruct (str_eqb x _); [|destruct (str_eqb x _); [|destruct (rust_name limit_types x); [|destruct (cx_enum cx x) as [[t1 n1]|]]]]; intro E.
    + inversion E; subst. exists true. split; [reflexivity|]. split; [intro N; now elim (N x)|]. intros. reflexivity.
    + inversion E; subst. exists true. split; [reflexivity|]. split; [intro N; now elim (N x)|]. intros. reflexivity.
    + inversion E; subst. exists false. split; [reflexivity|]. split; [intro N; now elim (N x)|]. intros. reflexivity.
    + injection E as <- E. exists false. split; [reflexivity|]. split; [intro N; now elim (N x)|]. intros. now rewrite E.
    + inversion E; subst. exists true. split; [reflexivity|]. split; [intro N; now elim (N x)|]. intros. reflexivity.
  - revert E. unfold var_finish. destruct (ident_finish (IConcat l) c) as [c1 f1] eqn:N. destruct f1 as [o| | |]; try discriminate.
    destruct (ident_again _ _ _ _ K P N) as (-> & -> & N'). intros [= <- <-]. exists (name_eff (IConcat l)). split; [reflexivity|]. split; [reflexivity|].
    intros c2 S. now rewrite N' by exact S.
Qed.

(** ** Stringification *)

Definition stringify_eff (a : expr) : eff := match a with EVar (IArg i) => [Level i false] | EVar (IPlain _) => [Flag] | _ => [] end.
Definition stringified (c : lctx) (a : expr) : Prop :=
  match a with
  | EVar (IArg i) => param c i <> None
  | EVar (IPlain n) => str_eqb n (st "__LINE__") || str_eqb n (st "__FILE__") = true
  | _ => False
  end.
Lemma stringified_same c c2 a : same c c2 -> stringified c a -> stringified c2 a.
Proof. intros S. destruct a as [[i|x|l]| | | | | | | | |]; cbn; auto. now rewrite (same_param _ _ _ S). Qed.
Lemma stringify_again a c : kn c -> parameter_known known false a -> stringified c a -> stringify_finish a c = (add (stringify_eff a) c, FOk (Some ty_const_char_ptr)).
Proof.
  intros K G P. destruct a as [[i|x|l]| | | | | | | | |]; try contradiction; cbn in *.
  - pose proof (set_level c i false K G) as S. cbn in S. destruct (set_arg_type c i AExpr) as [c1|]; [|now elim P]. destruct S as [_ S].
    unfold param in P. destruct (arg_type c i) as [a|] eqn:A; [|now elim P].
    destruct a; try (rewrite S; [reflexivity|left; discriminate]).
    f_equal. unfold set_types. rewrite (upd_same _ _ _ _ A eq_refl). now destruct c.
  - now rewrite P.
Qed.
Lemma stringify_out a c c' t : kn c -> parameter_known known false a -> stringify_finish a c = (c', FOk t) -> stringified c a.
Proof.
  intros K G E. destruct a as [[i|x|l]| | | | | | | | |]; try discriminate; cbn in *.
  - unfold param. destruct (arg_type c i); [discriminate|]. discriminate.
  - destruct (_ || _); [reflexivity|discriminate].
Qed.

(** ** Sequences of strings *)

Definition bytes_of (s : lit_string) : list N := match lit_string_as_bytes s with Some b => b | None => [] end.
Fixpoint merge (cur : option (list N)) (l : list expr) : list expr :=
  match l with
  | [] => push_string [] cur
  | ELit (LString s) :: l' => merge (Some (match cur with Some a => a ++ bytes_of s | None => bytes_of s end)) l'
  | e :: l' => push_string [] cur ++ e :: merge None l'
  end.
Definition item_eff (e : expr) : eff :=
  match e with
  | EVar (IPlain n) => fl (str_eqb n (st "__FILE__"))
  | EVar n => name_eff n
  | EStringify a => stringify_eff a
  | _ => []
  end.
Fixpoint items_eff (l : list expr) : eff := match l with [] => [] | e :: l => join (items_eff l) (item_eff e) end.
(** An item that is accepted. *)
Definition item (c : lctx) (e : expr) : Prop :=
  match e with
  | ELit (LString s) => lit_string_as_bytes s <> None
  | EVar (IArg i) => param c i <> None
  | EVar (IPlain n) => str_eqb n (st "__FILE__") = true
  | EVar (IConcat l) => good_name known (IConcat l) /\ name_here c (IConcat l)
  | EStringify a => parameter_known known false a /\ stringified c a
  | _ => False
  end.
Definition item_type (c : lctx) (e : expr) : option ctype :=
  match e with
  | ELit (LString s) => match string_finish cx s c with FOk t => t | _ => None end
  | EVar (IArg i) => match param c i with Some t => t | _ => None end
  | EVar (IConcat _) => None
  | _ => Some ty_const_char_ptr
  end.
Lemma push_eq acc cur : push_string acc cur = acc ++ push_string [] cur.
Proof. destruct cur; cbn; [reflexivity|now rewrite app_nil_r]. Qed.

Lemma item_finish n c e c0 : kn c -> item c e -> same c c0 -> finish cx n e c0 = (e, add (item_eff e) c0, FOk (item_type c e)).
Proof.
  intros K I S. rewrite finish_eq. destruct e as [[i|x|l]| | |[ch|s|fl|it]|a| | | | |]; cbn [item] in I; try contradiction; cbn [finish_step item_eff item_type].
  - rewrite var_arg, (same_param _ _ _ S). destruct (param c i); try reflexivity. now elim I.
  - apply str_eqb_eq in I. subst x. reflexivity.
  - destruct I as [I1 I2]. unfold var_finish. rewrite name_again; [reflexivity|exact (kn_same _ _ S K)|exact I1|exact (name_same _ _ _ S I2)].
  - unfold lit_finish. destruct s; try (now elim I); reflexivity.
  - destruct I as [I1 I2]. rewrite stringify_again; [reflexivity|exact (kn_same _ _ S K)|exact I1|exact (stringified_same _ _ _ S I2)].
Qed.
Lemma item_inv n c e e' c' t : kn c -> string_item known e -> finish cx n e c = (e', c', FOk t) ->
  e' = e /\ (item c e \/ (exists s, e = ELit (LString s) /\ lit_string_as_bytes s = None /\ c' = c) \/ (exists x, e = EVar (IPlain x) /\ str_eqb x (st "__FILE__") = false)).
Proof.
  intros K I. rewrite finish_eq. destruct e as [[i|x|l]| | |[ch|s|fl|it]|a| | | | |]; cbn [string_item] in I; try contradiction; cbn [finish_step].
  - rewrite var_arg. destruct (param c i) eqn:A; intro E; [|discriminate]. split; [now inversion E|]. left. cbn. now rewrite A.
  - destruct (var_finish cx (IPlain x) c) as [c1 f] eqn:V. intro E. inversion E; subst. split; [reflexivity|].
    destruct (str_eqb x (st "__FILE__")) eqn:Q; [left; exact Q | right; right; now exists x].
  - unfold var_finish. destruct (ident_finish (IConcat l) c) as [c1 f1] eqn:N. destruct f1 as [o| | |]; try discriminate. intros [= <- <- <-]. split; [reflexivity|].
    left. split; [exact I|]. destruct (name_out _ _ _ _ I K N) as [[_ P]|P]; [exact P|discriminate].
  - intro E. inversion E; subst. split; [reflexivity|]. destruct (lit_string_as_bytes s) eqn:B; [left; cbn; congruence|]. right; left. now exists s.
  - destruct (stringify_finish a c) as [c1 f1] eqn:N. intros [= <- <- ->]. split; [reflexivity|]. left. split; [exact I|]. eapply stringify_out; eauto.
Qed.
Lemma item_same c c2 e : same c c2 -> item c e -> item c2 e.
Proof.
  intros S. destruct e as [[i|x|l]| | |[]|a| | | | |]; cbn [item]; auto.
  - now rewrite (same_param _ _ _ S).
  - intros [A B]. split; [exact A|exact (name_same _ _ _ S B)].
  - intros [A B]. split; [exact A|exact (stringified_same _ _ _ S B)].
Qed.

Lemma concat_inv n : forall l done acc cur c self names c' o, kn c -> all (string_item known) l ->
  concat_finish (finish cx n) done l acc cur c = (self, names, c', FOk o) ->
  names = acc ++ merge cur l /\ c' = add (items_eff l) c /\ Forall (item c) l.
Proof.
  induction l as [|e l IH]; cbn [concat_finish]; intros done acc cur c self names c' o KN A E.
  - inversion E; subst. rewrite push_eq. cbn. auto.
  - destruct A as [A1 A2]. destruct (finish cx n e c) as [[e1 c1] f] eqn:F. destruct f as [t|er| |]; try discriminate.
    destruct (item_inv _ _ _ _ _ _ KN A1 F) as (-> & I). destruct I as [I|[(s & -> & B & ->)|(x & -> & B)]].
    + pose proof (item_finish n c e c KN I (same_refl c)) as F2. rewrite F in F2. injection F2 as -> _.
      assert (K : forall cc done acc cur, concat_finish (finish cx n) done l acc cur cc = (self, names, c', FOk o) -> cc = add (item_eff e) c ->
        names = acc ++ merge cur l /\ c' = add (items_eff (e :: l)) c /\ Forall (item c) (e :: l)).
      { intros cc d a cu G ->. apply IH in G as (-> & -> & G); [|apply kn_add, KN|exact A2]. split; [reflexivity|]. rewrite add_add. split; [reflexivity|].
        constructor; [exact I|]. eapply Forall_impl; [|exact G]. intros y Y. eapply item_same; [|exact Y]. apply same_sym, same_add. }
      destruct e as [[i|x|l0]| | |[ch|s|fl|it]|a| | | | |]; cbn [item] in I; try contradiction; cbn [merge].
      * apply K in E; [|reflexivity]. destruct E as (-> & E). split; [|exact E]. rewrite push_eq, <- !app_assoc. reflexivity.
      * rewrite I in E. apply K in E; [|reflexivity]. destruct E as (-> & E). split; [|exact E]. rewrite push_eq, <- !app_assoc. reflexivity.
      * apply K in E; [|reflexivity]. destruct E as (-> & E). split; [|exact E]. rewrite push_eq, <- !app_assoc. reflexivity.
      * unfold bytes_of. destruct (lit_string_as_bytes s) as [b|] eqn:B; [|now elim I]. apply K in E; [|reflexivity]. exact E.
      * apply K in E; [|reflexivity]. destruct E as (-> & E). split; [|exact E]. rewrite push_eq, <- !app_assoc. reflexivity.
    + rewrite B in E. discriminate.
    + rewrite B in E. discriminate.
Qed.
Lemma concat_again m c : kn c -> forall l done acc cur c2, same c c2 -> Forall (item c) l ->
  concat_finish (finish cx m) done l acc cur c2 = (EConcat (done ++ l), acc ++ merge cur l, add (items_eff l) c2, FOk None).
Proof.
  intro KN. induction l as [|e l IH]; cbn [concat_finish]; intros done acc cur c2 S A.
  - rewrite push_eq, app_nil_r. reflexivity.
  - inversion A as [|x y A1 A2]; subst. rewrite (item_finish m c e c2 KN A1 S).
    assert (S' : same c (add (item_eff e) c2)) by (apply (same_both false _ _ _ S)).
    destruct e as [[i|x|l0]| | |[ch|s|fl|it]|a| | | | |]; cbn [item] in A1; try contradiction; cbn [merge items_eff]; rewrite <- add_add.
    + rewrite IH by assumption. rewrite push_eq, <- !app_assoc. reflexivity.
    + rewrite A1. rewrite IH by assumption. rewrite push_eq, <- !app_assoc. reflexivity.
    + rewrite IH by assumption. rewrite push_eq, <- !app_assoc. reflexivity.
    + unfold bytes_of. destruct (lit_string_as_bytes s) as [b|]; [|now elim A1]. rewrite IH by assumption. rewrite <- app_assoc. reflexivity.
    + rewrite IH by assumption. rewrite push_eq, <- !app_assoc. reflexivity.
Qed.

Lemma merge_merge : forall l cur, merge None (merge cur l) = merge cur l.
Proof.
  assert (V : forall e l cur, (forall s, e <> ELit (LString s)) -> merge cur (e :: l) = push_string [] cur ++ e :: merge None l).
  { intros e l cur N. destruct e as [| | |[]| | | | | |]; try reflexivity. now elim (N s). }
  assert (P : forall e l cur, (forall s, e <> ELit (LString s)) -> merge None (merge None l) = merge None l ->
    merge None (push_string [] cur ++ e :: merge None l) = push_string [] cur ++ e :: merge None l).
  { intros e l cur N H. destruct cur as [b|]; cbn [push_string app].
    - change (merge None (ELit (LString (SOrdinary b)) :: e :: merge None l)) with (merge (Some b) (e :: merge None l)). rewrite V, H by exact N. reflexivity.
    - rewrite V, H by exact N. reflexivity. }
  induction l as [|e l IH]; intro cur.
  - destruct cur; reflexivity.
  - assert (D : (exists s, e = ELit (LString s)) \/ forall s, e <> ELit (LString s)).
    { destruct e as [| | |[]| | | | | |]; try (right; discriminate). left. eauto. }
    destruct D as [[s ->]|N]; [cbn [merge]; apply IH|]. rewrite V by exact N. apply P; [exact N|apply IH].
Qed.
Lemma items_app l l' : items_eff (l ++ l') = join (items_eff l') (items_eff l).
Proof. unfold join. induction l as [|e l IH]; cbn; [now rewrite app_nil_r|]. unfold join. now rewrite IH, app_assoc. Qed.
Lemma merge_items c : forall l cur, Forall (item c) l -> Forall (item c) (merge cur l) /\ items_eff (merge cur l) = items_eff l.
Proof.
  assert (P : forall cur, Forall (item c) (push_string [] cur) /\ items_eff (push_string [] cur) = []).
  { intros [b|]; cbn; auto. split; [|reflexivity]. constructor; [cbn; discriminate|constructor]. }
  induction l as [|e l IH]; intros cur A.
  - apply P.
  - inversion A as [|x y A1 A2]; subst.
    assert (K : Forall (item c) (push_string [] cur ++ e :: merge None l) /\ items_eff (push_string [] cur ++ e :: merge None l) = items_eff (e :: l)).
    { destruct (P cur) as [P1 P2]. destruct (IH None A2) as [I1 I2]. split; [apply Forall_app; auto|]. rewrite items_app, P2. cbn. rewrite I2. unfold join. now rewrite app_nil_r. }
    destruct e as [[i|x|l0]| | |[ch|s|fl|it]|a| | | | |]; try exact K. cbn [merge items_eff item_eff]. unfold join. rewrite app_nil_r. apply IH, A2.
Qed.
Lemma item_string c e : item c e -> string_item known e.
Proof. destruct e as [[i|x|l]| | |[]|a| | | | |]; cbn; tauto. Qed.
(** The parameters of the items stay the same. *)
Lemma merge_known k : forall l cur, all (parameter_known known k) l -> all (parameter_known known k) (merge cur l).
Proof.
  assert (P : forall cur l, all (parameter_known known k) l -> all (parameter_known known k) (push_string [] cur ++ l)) by (intros [b|] l A; cbn; auto).
  induction l as [|e l IH]; intros cur A; [apply (P cur []) in A; now rewrite app_nil_r in A|].
  destruct A as [A1 A2]. assert (K : all (parameter_known known k) (push_string [] cur ++ e :: merge None l)) by (apply P; split; [exact A1|apply IH, A2]).
  destruct e as [| | |[]| | | | | |]; try exact K. cbn [merge]. apply IH, A2.
Qed.

(** ** Numbers *)

Lemma lit_same l c c2 : same c c2 -> lit_finish cx l c2 = lit_finish cx l c.
Proof.
  intros _. assert (W : forall k, wchar_finish cx c2 k = wchar_finish cx c k).
  { intro k. unfold wchar_finish. cbn [ty_finish ident_finish]. destruct (cx_ty cx _) as [rt|]; [|reflexivity]. now destruct (from_rust_ty _ _). }
  destruct l as [[]|[]|[]|]; try reflexivity; apply W.
Qed.

Definition number (e : expr) : bool := match e with ELit (LInt _ | LFloat _) => true | _ => false end.
Definition floating (e : expr) : bool := match e with ELit (LFloat _) => true | _ => false end.
Lemma number_fold e : number e = true -> may_fold e = true.
Proof. now destruct e as [| | |[]| | | | | |]. Qed.
Lemma floating_float e : floating e = true -> may_float e = true.
Proof. now destruct e as [| | |[]| | | | | |]. Qed.
Lemma float_fold e : may_float e = true -> may_fold e = true.
Proof.
  induction e as [v|v l IHl|t e IHe|l|a IHa|l IHl|t|op e IHe|a op b IHa IHb|a b d IHa IHb IHd] using expr_ind'; try discriminate.
  - now destruct l.
  - destruct op; try discriminate; exact IHe.
  - cbn. intros [H _]%andb_prop. exact H.
Qed.

(** ** Binary expressions *)

(** The conversions of [binary_types]. *)
Definition converted (l : expr) (op : binop) (r : expr) (lt rt : option ctype) (l' r' : expr) (lt' rt' : option ctype) : Prop :=
  (l' = l /\ r' = r /\ lt' = lt /\ rt' = rt) \/
  (exists v f, l = ELit (LInt (mk_int v None)) /\ r = ELit (LFloat f) /\ l' = ELit (LFloat (FFloat (i128_to_f32 v))) /\ r' = r /\ lt' = ty_b BFloat /\ rt' = rt) \/
  (exists v f, r = ELit (LInt (mk_int v None)) /\ l = ELit (LFloat f) /\ r' = ELit (LFloat (FFloat (i128_to_f32 v))) /\ l' = l /\ rt' = ty_b BFloat /\ lt' = lt) \/
  (exists x b, l = EVar (IPlain x) /\ number r = true /\ l' = ECast (TyBuiltIn b) l /\ r' = r /\ lt' = ty_b b /\ rt' = rt /\ mul_or_add op = true) \/
  (exists x b, r = EVar (IPlain x) /\ number l = true /\ r' = ECast (TyBuiltIn b) r /\ l' = l /\ rt' = ty_b b /\ lt' = lt /\ mul_or_add op = true).
Lemma max_inv e t : max_ty_cast e = Some t -> exists x b, e = EVar (IPlain x) /\ t = TyBuiltIn b.
Proof. destruct e as [[]| | | | | | | | |]; try discriminate. cbn [max_ty_cast]. destruct (rust_name _ id) eqn:Q; [|discriminate]. intros [= <-]. eauto. Qed.

Definition settles (op : binop) (l : expr) : bool := is_assignment op && match l with EVar (IArg _) => true | _ => false end.
Definition conv (l : expr) (op : binop) (r : expr) (lt rt : option ctype) : expr * expr * option ctype * option ctype :=
  match l, r with
  | ELit (LInt (mk_int v None)), ELit (LFloat _) => (ELit (LFloat (FFloat (i128_to_f32 v))), r, ty_b BFloat, rt)
  | ELit (LFloat _), ELit (LInt (mk_int v None)) => (l, ELit (LFloat (FFloat (i128_to_f32 v))), lt, ty_b BFloat)
  | _, ELit (LInt _) =>
    if mul_or_add op then match max_ty_cast l with Some t => (ECast t l, r, Some t, rt) | None => (l, r, lt, rt) end else (l, r, lt, rt)
  | ELit (LInt _), _ =>
    if mul_or_add op then match max_ty_cast r with Some t => (l, ECast t r, lt, Some t) | None => (l, r, lt, rt) end else (l, r, lt, rt)
  | _, _ => (l, r, lt, rt)
  end.
Definition outcome (op : binop) (r : expr) (lt rt : option ctype) : fres :=
  match op with
  | OMember =>
    match lt, r with
    | Some (TyIdent (IPlain tn) _), EVar (IPlain fn) =>
      match cx_field cx tn fn with Some t => from_rust cx t (fun t' => FOk (Some t')) | None => FOk None end
    | _, _ => FOk None
    end
  | _ => FOk (join_ty lt rt)
  end.
Definition member_eff (op : binop) (r : expr) : eff := match op, r with OMember, EVar (IArg i) => [Level i true] | _, _ => [] end.
(** A member that is a parameter is one without a type. *)
Definition member_ok (c : lctx) (op : binop) (r : expr) : Prop := op = OMember -> forall i, r = EVar (IArg i) -> known i = false /\ param c i <> None.
Lemma member_same c c2 op r : same c c2 -> member_ok c op r -> member_ok c2 op r.
Proof. intros S M O i E. rewrite (same_param _ _ _ S). now apply M. Qed.
Lemma types_eq l op r lt rt c : kn c -> member_ok c op r ->
  binary_types cx l op r lt rt c =
  (let '(l', r', lt', rt') := conv l op r lt rt in ((l', r'), add (settles op l) (add (member_eff op r) c), outcome op r' lt' rt')).
Proof.
  intros K N. unfold binary_types.
  assert (M : match op, r with OMember, EVar (IArg i) => set_arg_type c i AIdent | _, _ => Some c end = Some (add (member_eff op r) c)).
  { destruct op; try reflexivity. specialize (N eq_refl). destruct r as [[i|x|l0]| | | | | | | | |]; try reflexivity. destruct (N i eq_refl) as [N1 N2].
    pose proof (set_level c i true K N1) as S. cbn in S. destruct (set_arg_type c i AIdent) as [c1|]; [|now elim N2]. destruct S as [_ S]. cbn. now rewrite S by now right. }
  rewrite M. unfold settles.
  destruct (is_assignment op); [|reflexivity]. destruct l as [[]| | | | | | | | |]; reflexivity.
Qed.
Lemma conv_inv l op r lt rt l' r' lt' rt' : conv l op r lt rt = (l', r', lt', rt') -> converted l op r lt rt l' r' lt' rt'.
Proof.
  unfold conv. set (same := (l, r, lt, rt)). 
  assert (K : same = (l', r', lt', rt') -> converted l op r lt rt l' r' lt' rt') by (unfold same; intros [= <- <- <- <-]; left; auto).
  assert (R : number r = true -> (if mul_or_add op then match max_ty_cast l with Some t => (ECast t l, r, Some t, rt) | None => same end else same) = (l', r', lt', rt') ->
    converted l op r lt rt l' r' lt' rt').
  { intro M. destruct (mul_or_add op) eqn:O; [|exact K]. destruct (max_ty_cast l) as [t|] eqn:X; [|exact K]. intros [= <- <- <- <-].
    destruct (max_inv _ _ X) as (x & b & -> & ->). right; right; right; left. exists x, b. auto 10. }
  assert (L : number l = true -> (if mul_or_add op then match max_ty_cast r with Some t => (l, ECast t r, lt, Some t) | None => same end else same) = (l', r', lt', rt') ->
    converted l op r lt rt l' r' lt' rt').
  { intro M. destruct (mul_or_add op) eqn:O; [|exact K]. destruct (max_ty_cast r) as [t|] eqn:X; [|exact K]. intros [= <- <- <- <-].
    destruct (max_inv _ _ X) as (x & b & -> & ->). right; right; right; right. exists x, b. auto 10. }
  destruct l as [| | |[|s|fl|[v [su|]]]| | | | | |]; destruct r as [| | |[|s2|fl2|[v2 [su2|]]]| | | | | |];
    try exact K; try (apply R; reflexivity); try (apply L; reflexivity).
  - intros [= <- <- <- <-]. right; right; left. exists v2, fl. auto 10.
  - intros [= <- <- <- <-]. right; left. exists v, fl2. auto 10.
Qed.
Lemma conv_conv l op r lt rt l' r' lt' rt' : conv l op r lt rt = (l', r', lt', rt') -> conv l' op r' lt' rt' = (l', r', lt', rt').
Proof.
  intro E. pose proof (conv_inv _ _ _ _ _ _ _ _ _ E) as C.
  destruct C as [(-> & -> & -> & ->)|[(v & f & -> & -> & -> & -> & -> & ->)|[(v & f & -> & -> & -> & -> & -> & ->)|[(x & b & -> & N & -> & -> & -> & -> & O)|(x & b & -> & N & -> & -> & -> & -> & O)]]]].
  - exact E.
  - reflexivity.
  - reflexivity.
  - destruct r as [| | |[|s2|fl2|[v2 [su2|]]]| | | | | |]; try discriminate; unfold conv; cbn [max_ty_cast]; now rewrite ?O.
  - destruct l as [| | |[|s2|fl2|[v2 [su2|]]]| | | | | |]; try discriminate; unfold conv; cbn [max_ty_cast]; now rewrite ?O.
Qed.
Lemma settles_conv l op r lt rt l' r' lt' rt' : converted l op r lt rt l' r' lt' rt' -> settles op l' = settles op l.
Proof.
  intros [(-> & -> & -> & ->)|[(v & f & -> & -> & -> & -> & -> & ->)|[(v & f & -> & -> & -> & -> & -> & ->)|[(x & b & -> & N & -> & -> & -> & -> & O)|(x & b & -> & N & -> & -> & -> & -> & O)]]]];
    unfold settles; reflexivity.
Qed.

(** Results of a binary expression. *)
Lemma fold_inv l op r t c e f : binary_fold cx l op r t c = (e, f) ->
  (number l = true /\ number r = true /\ floating l = floating r /\ number e = true /\ floating e = floating l /\ (forall t', f = FOk t' -> f = match e with ELit x => lit_finish cx x c | _ => f end)) \/
  (number l = true /\ number r = true /\ e = EBinary l op r /\ f = FPanic) \/
  (e = EBinary l op r /\ f = FOk (if is_comparison op then ty_b BBool else t) /\
   forall t2 c2, binary_fold cx l op r t2 c2 = (EBinary l op r, FOk (if is_comparison op then ty_b BBool else t2))).
Proof.
  unfold binary_fold. set (P := _ \/ _).
  assert (K : (forall t2 c2, binary_fold cx l op r t2 c2 = (EBinary l op r, FOk (if is_comparison op then ty_b BBool else t2))) ->
    (EBinary l op r, FOk (if is_comparison op then ty_b BBool else t)) = (e, f) -> P).
  { intros Q [= <- <-]. right; right. auto. }
  unfold binary_fold in K.
  destruct l as [| | |[|s|fl|it]| | | | | |]; try (apply K; reflexivity).
  - destruct r as [| | |[|s2|fl2|it2]| | | | | |]; try (apply K; reflexivity).
    destruct (float_op op) as [g|]; [|apply K; reflexivity]. intros [= <- <-]. left. repeat split. 
  - destruct r as [| | |[|s2|fl2|it2]| | | | | |]; try (apply K; reflexivity).
    destruct (int_folds op); [|apply K; reflexivity]. destruct (int_op op _ _) as [v|]; intros [= <- <-].
    + left. repeat split.
    + right; left. repeat split.
Qed.

(** ** Which trees come out *)

Definition is_deref (e : expr) : Prop := exists x, e = EUnary UDeref x.
Lemma binary_out n l op r c e' c' f : finish cx n (EBinary l op r) c = (e', c', f) -> ~ is_deref e' /\ ~ deref_cast e'.
Proof.
  intro E. assert (K : (exists a b, e' = EBinary a op b) \/ number e' = true).
  { revert E. rewrite finish_eq. cbn [finish_step]. unfold fbind.
    destruct (finish cx n l c) as [[l1 c1] [t1|e1| |]]; try (intros [= <- <- <-]; left; eauto; fail).
    destruct (finish cx n r c1) as [[r1 c2] [t2|e2| |]]; try (intros [= <- <- <-]; left; eauto; fail).
    destruct (binary_types cx l1 op r1 t1 t2 c2) as [[x c3] [t3|e3| |]]; try (intros [= <- <- <-]; left; eauto; fail).
    destruct (binary_fold cx (fst x) op (snd x) t3 c3) as [e4 f4] eqn:Q. intros [= <- <- <-].
    apply fold_inv in Q. destruct Q as [(_ & _ & _ & Q & _)|[(_ & _ & Q & _)|(Q & _)]]; eauto. }
  split.
  - intros [x ->]. now destruct K as [(a & b & K)|K].
  - intros (t & x & ->). now destruct K as [(a & b & K)|K].
Qed.

Lemma shape n : forall e c e' c' f, kn c -> repeatable known e -> finish cx n e c = (e', c', f) ->
  (is_deref e' -> is_deref e) /\ (deref_cast e' -> deref_cast e).
Proof.
  assert (AG : forall b c e' c' f, (exists l op r, b = EBinary l op r) -> again_of cx n b c = (e', c', f) -> ~ is_deref e' /\ ~ deref_cast e').
  { intros b c e' c' f (l & op & r & ->). destruct n as [|n']; cbn [again_of]; [|apply binary_out].
    intros [= <- <- <-]. split; [intros [x X] | intros (t & x & X)]; discriminate. }
  assert (BAD : forall e, (forall x, e <> EUnary UDeref x) -> (forall t x, e <> ECast t (EUnary UDeref x)) -> ~ is_deref e /\ ~ deref_cast e).
  { intros e A B. split; [intros [x X]; exact (A _ X) | intros (t & x & X); exact (B _ _ X)]. }
  induction e as [v|v l IHl|t e IHe|l|a IHa|l IHl|t|op e IHe|a op b IHa IHb|a b d IHa IHb IHd] using expr_ind'; intros c e' c' f K R E;
    revert E; rewrite finish_eq; cbn [finish_step]; cbn [repeatable] in R.
  - destruct (var_finish cx v c) as [c1 f1]. intros [= <- <- <-]. auto.
  - enough (KK : (lc_var c = lc_var c) -> forall X, X = (e', c', f) -> (exists l', e' = ECall v l') -> (is_deref e' -> is_deref (ECall v l)) /\ (deref_cast e' -> deref_cast (ECall v l))).
    { intro E. apply (KK eq_refl _ E). revert E. destruct (lc_var c); [intros [= <- <- <-]; eauto|]. destruct (ident_finish v c) as [c1 []]; try (intros [= <- <- <-]; eauto; fail).
      unfold fbind. destruct (list_finish _ l c1) as [[l1 c2] []]; try (intros [= <- <- <-]; eauto; fail). destruct (call_types cx v l1 c2). intros [= <- <- <-]; eauto. }
    intros _ X _ [l' ->]. split; [intros [x Y] | intros (t & x & Y)]; discriminate.
  - destruct R as (PT & R & ND). destruct (ty_finish cx t c) as [[t1 c1] r1] eqn:T. pose proof (type_err _ _ _ _ _ PT T) as TE.
    destruct r1 as [o|x| |].
    + destruct (type_again _ _ _ _ _ K PT T) as (b0 & -> & _). destruct (finish cx n e (add b0 c)) as [[e2 c2] r2] eqn:F. destruct (IHe _ _ _ _ (kn_add _ _ K) R F) as [D1 D2].
      assert (C : (is_deref (ECast t1 e2) -> is_deref (ECast t e)) /\ (deref_cast (ECast t1 e2) -> deref_cast (ECast t e))).
      { split; [intros [x X]; discriminate|]. intros (t0 & x & [= -> ->]). destruct D1 as [y ->]; [now exists x|]. now exists t, y. }
      destruct r2 as [o2|[x| | |x|x]| |]; try (intros [= <- <- <-]; exact C).
      * destruct (cast_as_binary cx t1 e2) as [b|] eqn:B.
        -- intro E. apply AG in E; [tauto|]. revert B. unfold cast_as_binary. destruct e2; try discriminate. destruct t1 as [|n1 [|]| | |]; try discriminate.
           destruct (match n1 with IPlain _ => _ | _ => _ end); [|discriminate]. destruct op; intros [= <-]; eauto.
        -- destruct (redundant_cast t1 e2) eqn:Q; [|intros [= <- <- <-]; exact C]. intros [= <- <- <-]. destruct e2 as [| | |[]| | | | | |]; try discriminate. split; [intros [x X] | intros (t0 & x & X)]; discriminate.
      * destruct (cast_of_deref t1 e2) as [b|] eqn:B; [|intros [= <- <- <-]; exact C]. exfalso. apply ND, D2. revert B. unfold cast_of_deref.
        destruct e2 as [| |[|n1 [|]| | |] e2| | | | | | |]; try discriminate. destruct e2 as [| | | | | | |[] e2| |]; try discriminate. intros _. now exists (TyIdent n1 false), e2.
    + assert (C : forall x, (is_deref (ECast t1 x) -> is_deref (ECast t x)) /\ (deref_cast (ECast t1 x) -> deref_cast (ECast t x))).
      { intro y. split; [intros [z X]; discriminate|]. intros (t0 & z & [= -> ->]). now exists t, z. }
      destruct x as [x| | |x|x]; try (intros [= <- <- <-]; apply C). now elim (TE x).
    + intros [= <- <- <-]. split; [intros [x X]; discriminate|]. intros (t0 & x & [= -> ->]). now exists t, x.
    + intros [= <- <- <-]. split; [intros [x X]; discriminate|]. intros (t0 & x & [= -> ->]). now exists t, x.
  - destruct l; [destruct R| | |]; intros [= <- <- <-]; auto.
  - destruct (stringify_finish a c) as [c1 f1]. intros [= <- <- <-]. auto.
  - destruct (concat_finish (finish cx n) [] l [] None c) as [[[self names] c1] r] eqn:Q.
    assert (SB : ~ is_deref self /\ ~ deref_cast self -> (self, c1, r) = (e', c', f) -> (is_deref e' -> is_deref (EConcat l)) /\ (deref_cast e' -> deref_cast (EConcat l))).
    { intros SB [= <- <- <-]. tauto. }
    assert (SC : exists l', self = EConcat l').
    { clear - Q. revert Q. generalize (@nil expr) at 1 as done. generalize (@nil expr) as acc. generalize (@None (list N)) as cur. revert c. 
      induction l as [|x l IH]; cbn [concat_finish]; intros c cur acc done; [intros [= <- _ _ _]; eauto|].
      destruct (finish cx n x c) as [[x1 c2] []]; try (intros [= <- _ _ _]; eauto; fail).
      destruct x1 as [[]| | |[]| | | | | |]; try apply IH; [destruct (str_eqb _ _)|destruct (lit_string_as_bytes _)]; try apply IH; intros [= <- _ _ _]; eauto. }
    destruct SC as [l' ->].
    assert (NC : forall l, ~ is_deref (EConcat l) /\ ~ deref_cast (EConcat l)) by (intro; apply BAD; discriminate).
    destruct r as [o|x| |]; try (destruct names as [|x1 [|x2 names]]; apply SB, NC).
    apply concat_inv in Q; [|exact K|exact R]. destruct Q as (-> & -> & HI). cbn [app].
    destruct (merge_items c l None HI) as [MI _].
    destruct (merge None l) as [|x1 [|x2 names]]; try (intros [= <- <- <-]; specialize (NC l'); split; intro X; exfalso; revert X; apply BAD; discriminate).
    inversion MI as [|x y I1 _]; subst. intro E.
    assert (e' = x1).
    { revert E. destruct n as [|n']; cbn [again_of]; [intros [= <- <- <-]; reflexivity|]. rewrite (item_finish n' c x1 _ K) by (try exact I1; apply same_add). now intros [= <- <- <-]. }
    subst e'. apply item_string in I1. destruct x1 as [| | |[]| | | | | |]; try (now destruct I1); split; intros X; exfalso; revert X; apply BAD; discriminate.
  - unfold fbind. destruct (ty_finish cx t c) as [[t1 c1] []]; intros [= <- <- <-]; split; intro X; exfalso; revert X; apply BAD; discriminate.
  - destruct R as [R NF]. unfold fbind. destruct (finish cx n e c) as [[e2 c2] r2] eqn:F.
    assert (C : (is_deref (EUnary op e2) -> is_deref (EUnary op e)) /\ (deref_cast (EUnary op e2) -> deref_cast (EUnary op e))).
    { split; [intros [x [= -> _]]; now exists e | intros (t0 & x & X); discriminate]. }
    destruct r2 as [o|x| |]; try (intros [= <- <- <-]; exact C).
    destruct (unary_type op c2 o) as [t'|x| |]; try (intros [= <- <- <-]; exact C).
    destruct (unary_fold op e2 t') as [e3 r3] eqn:Q. intros [= <- <- <-].
    assert (KK : e3 = EUnary op e2 \/ number e3 = true \/ exists a b, e3 = EBinary a OEq b).
    { revert Q. unfold unary_fold. destruct op; try (intros [= <- <-]; now left); destruct e2 as [| | |[|s|fl|[v [su|]]]| | | | | |]; try (intros [= <- <-]; now auto);
        try (intros [= <- <-]; right; left; reflexivity); destruct (oty_eqb t' _); intros [= <- <-]; eauto. }
    destruct KK as [->|[KK|(x & b & ->)]]; [exact C|destruct e3 as [| | |[]| | | | | |]; try discriminate KK| ]; split; intro X; exfalso; revert X; apply BAD; discriminate.
  - intro E. assert (E' : finish cx n (EBinary a op b) c = (e', c', f)) by (rewrite finish_eq; exact E). apply binary_out in E'. tauto.
  - intro E. assert (KK : exists x y z, e' = ETernary x y z).
    { revert E. unfold fbind. destruct (condition_finish _ a c) as [[a1 c1] []]; try (intros [= <- <- <-]; eauto; fail).
      destruct (finish cx n b c1) as [[b1 c2] []]; try (intros [= <- <- <-]; eauto; fail). destruct (finish cx n d c2) as [[d1 c3] []]; intros [= <- <- <-]; eauto. }
    destruct KK as (x & y & z & ->). split; intro X; exfalso; revert X; apply BAD; discriminate.
Qed.

(** ** Expressions *)

Definition steady (n : nat) (e : expr) (c : lctx) (e' : expr) (c' : lctx) (t : option ctype) : Prop :=
  exists b, c' = add b c /\ repeatable known e' /\ (may_fold e = false -> may_fold e' = false) /\ (may_float e = false -> may_float e' = false) /\
    (forall k, parameters_known known k e -> parameters_known known k e') /\
    (forall o x, e' = EUnary o x -> exists t0, forall m c2, same c c2 -> finish cx m x c2 = (x, add b c2, FOk t0)) /\
    forall m c2, same c c2 -> finish cx m e' c2 = (e', add b c2, FOk t).

Lemma list_again n : forall l c l' c' t, Forall (fun e => forall c e' c' t, kn c -> repeatable known e -> finish cx n e c = (e', c', FOk t) -> steady n e c e' c' t) l ->
  kn c -> all (repeatable known) l -> list_finish (finish cx n) l c = (l', c', FOk t) ->
  exists b, c' = add b c /\ t = None /\ all (repeatable known) l' /\ length l' = length l /\ (forall k, all (parameters_known known k) l -> all (parameters_known known k) l') /\
    forall m c2, same c c2 -> list_finish (finish cx m) l' c2 = (l', add b c2, FOk None).
Proof.
  induction l as [|e l IH]; intros c l' c' t HF K R; cbn [list_finish].
  - intros [= <- <- <-]. exists false. repeat split; auto.
  - inversion HF as [|x y H1 H2]; subst. destruct R as [R1 R2]. unfold fbind.
    destruct (finish cx n e c) as [[e1 c1] [t1|x1| |]] eqn:F; try discriminate.
    destruct (H1 _ _ _ _ K R1 F) as (b1 & -> & P1 & _ & _ & P4 & _ & P5).
    destruct (list_finish (finish cx n) l (add b1 c)) as [[l1 c2] f2] eqn:G. intros [= <- <- ->].
    destruct (IH _ _ _ _ H2 (kn_add _ _ K) R2 G) as (b2 & -> & -> & Q1 & Q2 & Q3 & Q4).
    exists (join b2 b1). rewrite add_add. split; [reflexivity|]. split; [reflexivity|]. split; [split; assumption|]. split; [cbn; now rewrite Q2|].
    split; [intros k [A1 A2]; split; auto|]. intros m c3 S. cbn [list_finish]. unfold fbind. rewrite P5 by exact S.
    rewrite Q4 by (apply same_both, S). now rewrite add_add.
Qed.

Lemma infer_no e x c : kn c -> parameter_known known true e -> forall c' f, infer_arg e x c = (c', f) ->
  c' = c /\ (forall o, f = FOk o -> o = None /\ forall c2, same c c2 -> infer_arg e x c2 = (c2, FOk None)).
Proof.
  intros K H c' f. destruct e as [[i|y|l]| | | | | | | | |]; cbn [infer_arg]; try (intros [= <- <-]; split; [reflexivity|]; intros o [= <-]; split; [reflexivity|]; intros c2 S; reflexivity).
  cbn in H. specialize (K i). pose proof (fun c2 => same_param c c2 i) as SP. unfold param in *.
  destruct (arg_type c i) as [a|] eqn:A; [|intros [= <- <-]; split; [reflexivity|discriminate]].
  specialize (K _ eq_refl). destruct a as [| | | |t|]; cbn in K; try congruence. intros [= <- <-]. split; [reflexivity|]. intros o [= <-]. split; [reflexivity|].
  intros c2 S. specialize (SP c2 S). destruct (arg_type c2 i) as [[]|]; try discriminate SP. reflexivity.
Qed.
Lemma infers_no : forall l tys c, kn c -> all (parameters_known known true) l -> forall c' f, infer_args cx l tys c = (c', FOk f) ->
  c' = c /\ forall c2, same c c2 -> infer_args cx l tys c2 = (c2, FOk None).
Proof.
  induction l as [|e l IH]; intros [|t tys] c K H c' f; cbn [infer_args]; try (intros [= <- <-]; split; [reflexivity|]; intros c2 S; reflexivity).
  destruct H as [[H1 _] H2]. destruct (infer_arg e (known_arg cx t) c) as [c1 f1] eqn:Q. apply infer_no in Q; [|exact K|exact H1]. destruct Q as [-> Q].
  destruct f1 as [o|x| |]; try discriminate. destruct (Q o eq_refl) as [-> Q'].
  intro E. apply IH in E; [|exact K|exact H2]. destruct E as [-> E]. split; [reflexivity|]. intros c2 S. rewrite Q' by exact S. now apply E.
Qed.
Lemma call_again n l c c' t : kn c -> all (parameters_known known true) l -> call_types cx n l c = (c', FOk t) ->
  exists b, c' = add b c /\ forall c2, same c c2 -> call_types cx n l c2 = (add b c2, FOk t).
Proof.
  intros K H. unfold call_types. destruct n as [i|x|ps]; try (intros [= <- <-]; exists false; split; [reflexivity|]; intros; reflexivity).
  destruct (cx_fn cx x) as [[tys ret]|].
  - destruct (Nat.eqb (length tys) (length l)); [|intros [= <- <-]; exists false; split; [reflexivity|]; intros; reflexivity].
    destruct (from_rust_ty (cx_ffi cx) ret) as [t0| | |]; try discriminate.
    destruct (infer_args cx l tys c) as [c1 [o| | |]] eqn:Q; try discriminate. intros [= <- <-].
    apply infers_no in Q; [|exact K|exact H]. destruct Q as [-> Q]. exists false. split; [reflexivity|]. intros c2 S. now rewrite Q.
  - destruct (str_eqb x (st "__builtin_offsetof")); [|intros [= <- <-]; exists true; split; [reflexivity|]; intros; reflexivity].
    destruct l as [|a [|b [|d l]]]; try (intros [= <- <-]; exists true; split; [reflexivity|]; intros; reflexivity).
    destruct H as [[H1 _] [[H2 _] _]]. pose proof (kn_add true c K) as K1. change (add true c) with (set_macro true c) in K1.
    destruct (infer_arg a (FOk None, Some ATy) (set_macro true c)) as [c1 f1] eqn:Q. apply infer_no in Q; [|exact K1|exact H1]. destruct Q as [-> Q].
    destruct f1 as [o|y| |]; try discriminate. destruct (Q o eq_refl) as [-> Q'].
    intro E. apply infer_no in E; [|exact K1|exact H2]. destruct E as [-> E]. destruct (E t eq_refl) as [-> E'].
    exists true. split; [reflexivity|]. intros c2 S. rewrite Q' by exact (same_both true true _ _ S). rewrite E' by exact (same_both true true _ _ S). reflexivity.
Qed.

Lemma lit_flag (n : nat) c l b t : (forall m c2, same c c2 -> finish cx m (ELit l) c2 = (ELit l, add b c2, FOk t)) -> (forall y, l <> LChar y) ->
  (forall c2, same c c2 -> add b c2 = c2) /\ lit_finish cx l c = FOk t.
Proof.
  intros Q NC. assert (Z : forall c2, same c c2 -> c2 = add b c2 /\ lit_finish cx l c2 = FOk t).
  { intros c2 S. specialize (Q n c2 S). rewrite finish_eq in Q. cbn [finish_step] in Q. destruct l as [y| | |]; [now elim (NC y)|exact (conj (f_equal (fun x => snd (fst x)) Q) (f_equal snd Q))..]. }
  split; [intros c2 S; symmetry; now apply Z|]. apply Z, same_refl.
Qed.
Lemma lit_again m c l c2 t : (forall y, l <> LChar y) -> same c c2 -> lit_finish cx l c = FOk t -> finish cx m (ELit l) c2 = (ELit l, c2, FOk t).
Proof. intros NC S E. rewrite finish_eq. cbn [finish_step]. destruct l as [y| | |]; [now elim (NC y)| | |]; now rewrite (lit_same _ _ _ S), E. Qed.
Lemma side_again l b c t : forall ty, (exists x, l = EVar (IPlain x)) -> (forall m c2, same c c2 -> finish cx m l c2 = (l, add b c2, FOk t)) ->
  forall m c2, same c c2 -> finish cx m (ECast (TyBuiltIn ty) l) c2 = (ECast (TyBuiltIn ty) l, add b c2, FOk (ty_b ty)).
Proof. intros ty [x ->] Q m c2 S. rewrite finish_eq. cbn [finish_step ty_finish]. rewrite Q by exact S. reflexivity. Qed.

Lemma condition_again n e c e' c' t : (forall c e' c' t, kn c -> repeatable known e -> finish cx n e c = (e', c', FOk t) -> steady n e c e' c' t) ->
  kn c -> repeatable known e -> may_float e = false -> condition_finish (finish cx n) e c = (e', c', FOk t) ->
  exists b, c' = add b c /\ t = ty_b BBool /\ repeatable known e' /\ may_float e' = false /\
    forall m c2, same c c2 -> condition_finish (finish cx m) e' c2 = (e', add b c2, FOk (ty_b BBool)).
Proof.
  intros H K R M. unfold condition_finish, fbind. destruct (finish cx n e c) as [[e1 c1] [t1| | |]] eqn:F; try discriminate. intros [= <- <- <-].
  destruct (H _ _ _ _ K R F) as (b & -> & R' & _ & MG & _ & _ & Q). specialize (MG M). exists b. split; [reflexivity|]. split; [reflexivity|].
  destruct (oty_eqb t1 (ty_b BBool)) eqn:B.
  - split; [exact R'|]. split; [exact MG|]. intros m c2 S. rewrite Q by exact S. now rewrite B.
  - split; [cbn; split; [exact R'|split; [exact I|discriminate]]|]. split; [cbn; rewrite MG; now rewrite andb_false_r|]. intros m c2 S.
    rewrite finish_eq. cbn [finish_step]. unfold fbind. rewrite Q by exact S.
    assert (Z : forall c0, finish cx m int_zero c0 = (int_zero, c0, FOk None)) by (intro; rewrite finish_eq; reflexivity). rewrite Z.
    rewrite types_eq; [|apply kn_add, (kn_same _ _ S), K|intros ? ? ?; discriminate].
    assert (CV : forall lt rt, conv e1 ONeq int_zero lt rt = (e1, int_zero, lt, rt)).
    { intros lt rt. unfold conv, int_zero. destruct e1 as [| | |[|s|fl|[v [su|]]]| | | | | |]; try reflexivity. discriminate MG. }
    rewrite CV. cbn [outcome settles is_assignment andb fst snd member_eff].
    assert (BF : forall t0 c0, binary_fold cx e1 ONeq int_zero t0 c0 = (EBinary e1 ONeq int_zero, FOk (ty_b BBool))).
    { intros. unfold binary_fold, int_zero. destruct e1 as [| | |[|s|fl|it]| | | | | |]; reflexivity. }
    rewrite BF. reflexivity.
Qed.

Lemma finish_again n : forall e c e' c' t, kn c -> repeatable known e -> finish cx n e c = (e', c', FOk t) -> steady n e c e' c' t.
Proof.
  induction e as [v|v l IHl|ty e IHe|l|a IHa|l IHl|ty|op e IHe|a op b IHa IHb|a b d IHa IHb IHd] using expr_ind'; intros c e' c' t K R E;
    revert E; rewrite finish_eq; cbn [finish_step]; cbn [repeatable] in R.
  - (* variable *)
    destruct (var_finish cx v c) as [c1 f1] eqn:V. intros [= <- <- ->]. destruct (var_again _ _ _ _ K R V) as (b & -> & _ & V').
    exists b. split; [reflexivity|]. split; [exact R|]. do 3 (split; [auto|]). split; [discriminate|]. intros m c2 S. rewrite finish_eq. cbn [finish_step]. now rewrite V'.
  - (* call *)
    destruct R as (R1 & R2 & R3). destruct (lc_var c) eqn:LV; [discriminate|]. destruct (ident_finish v c) as [c0 f0] eqn:N. destruct f0 as [o0| | |]; try discriminate. destruct (ident_again _ _ _ _ K R1 N) as (-> & _ & N'). set (b0 := name_eff v) in *. unfold fbind.
    destruct (list_finish (finish cx n) l (add b0 c)) as [[l1 c1] [t1| | |]] eqn:F; try discriminate.
    destruct (list_again _ _ _ _ _ _ IHl (kn_add _ _ K) R2 F) as (b1 & -> & -> & Q1 & Q2 & Q3 & Q4).
    destruct (call_types cx v l1 (add b1 (add b0 c))) as [c2 f2] eqn:G. intros [= <- <- ->].
    apply call_again in G; [|now apply kn_add, kn_add|now apply Q3]. destruct G as (b2 & -> & G').
    exists (join (join b2 b1) b0). rewrite !add_add. split; [reflexivity|]. split; [cbn; auto|]. do 3 (split; [auto|]). split; [discriminate|]. intros m c3 S. rewrite finish_eq. cbn [finish_step].
    rewrite (same_var _ _ S), LV, N' by exact S. unfold fbind. rewrite Q4 by (apply same_both, S). rewrite G' by (apply same_both, same_both, S). now rewrite !add_add.
  - (* cast *)
    destruct R as (PT & R & ND). destruct (ty_finish cx ty c) as [[t1 c1] r1] eqn:T. pose proof (type_err _ _ _ _ _ PT T) as TE.
    destruct r1 as [o|x| |]; [| |discriminate|discriminate].
    2:{ destruct x; try discriminate. now elim (TE s). }
    destruct (type_again _ _ _ _ _ K PT T) as (b0 & -> & -> & PT1 & FX).
    destruct (finish cx n e (add b0 c)) as [[e2 c2] r2] eqn:F. destruct (shape n _ _ _ _ _ (kn_add _ _ K) R F) as [SH1 SH2].
    destruct r2 as [o2|[x| | |x|x]| |]; try discriminate.
    2:{ destruct (cast_of_deref t1 e2) as [b|] eqn:B; [|discriminate]. exfalso. apply ND, SH2. revert B. unfold cast_of_deref.
        destruct e2 as [| |[|n1 [|]| | |] e2| | | | | | |]; try discriminate. destruct e2 as [| | | | | | |[] e2| |]; try discriminate. intros _. now exists (TyIdent n1 false), e2. }
    destruct (IHe _ _ _ _ (kn_add _ _ K) R F) as (b1 & -> & R' & MF & MG & NP & UN & Q).
    destruct (cast_as_binary cx t1 e2) as [b|] eqn:B.
    + (* a binary operation with a parameter *)
      assert (X : exists n1 uop bop e0, (forall x, n1 <> IPlain x) /\ good_name known n1 /\ t1 = TyIdent n1 false /\ e2 = EUnary uop e0 /\ b = EBinary (EVar n1) bop e0 /\
        is_comparison bop = false /\ is_assignment bop = false /\ bop <> OMember).
      { revert B. unfold cast_as_binary. destruct e2 as [| | | | | | |uop e0| |]; try discriminate. destruct t1 as [|n1 [|]| | |]; try discriminate.
        destruct n1 as [i|x|ps].
        - destruct uop; intros [= <-]; exists (IArg i); do 3 eexists; repeat split; discriminate.
        - specialize (FX c (same_refl c)). cbn in FX. destruct (cx_ty cx x) eqn:CT; discriminate.
        - destruct uop; intros [= <-]; exists (IConcat ps); do 3 eexists; (split; [discriminate|]); (split; [exact PT1|]); repeat split; discriminate. }
      destruct X as (n1 & uop & bop & e0 & NP1 & GN & -> & -> & -> & O1 & O2 & O3).
      destruct (UN _ _ eq_refl) as [t0 Q0].
      intro E. destruct n as [|n']; cbn [again_of] in E; [discriminate|].
      assert (KK : kn (add b1 (add b0 c))) by now apply kn_add, kn_add.
      assert (SS : same c (add b1 (add b0 c))) by (eapply same_trans; apply same_add).
      destruct (var_finish cx n1 (add b1 (add b0 c))) as [cv fv] eqn:V. destruct fv as [tv| | |];
        try (rewrite finish_eq in E; cbn [finish_step] in E; rewrite finish_eq in E; cbn [finish_step] in E; rewrite V in E; discriminate).
      destruct (var_again _ _ _ _ KK GN V) as (bv & -> & BV & V'). specialize (BV NP1). subst bv.
      assert (V2 : forall c2, same c c2 -> var_finish cx n1 c2 = (add (name_eff n1) c2, FOk tv)) by (intros c2 S; apply V'; now apply same_of, same_of).
      assert (B0 : forall c2, same c c2 -> add b0 c2 = add (name_eff n1) c2).
      { intros c2 S. specialize (FX c2 S). cbn [ty_finish] in FX. specialize (V2 c2 S). unfold var_finish in V2. destruct (ident_finish n1 c2) as [ci [oi| | |]] eqn:N; try discriminate.
        destruct (ident_again _ _ _ _ (kn_same _ _ S K) GN N) as (-> & _). destruct n1 as [?|nx|ps]; [|now elim (NP1 nx)|]; injection FX as <-; reflexivity. }
      assert (ON : outcome bop e0 tv t0 = FOk (join_ty tv t0)) by (unfold outcome; destruct bop; try reflexivity; now elim O3).
      assert (BN : forall m c2, same c c2 -> finish cx m (EBinary (EVar n1) bop e0) c2 = (EBinary (EVar n1) bop e0, add b1 (add (name_eff n1) c2), FOk (join_ty tv t0))).
      { intros m c2 S. rewrite finish_eq. cbn [finish_step]. rewrite finish_eq. cbn [finish_step]. rewrite V2 by exact S.
        unfold fbind at 1. rewrite Q0 by (apply same_both, S). unfold fbind at 1. rewrite types_eq; [|apply kn_add, kn_add, (kn_same _ _ S), K|intro Y; now elim O3].
        assert (CV : forall lt rt, conv (EVar n1) bop e0 lt rt = (EVar n1, e0, lt, rt)).
        { intros lt rt. unfold conv. destruct e0 as [| | |[]| | | | | |]; try reflexivity. destruct n1 as [?|nx|ps]; [|now elim (NP1 nx)|]; cbn [max_ty_cast]; now destruct (mul_or_add bop). }
        rewrite CV. unfold settles. rewrite O2. cbn [andb fst snd]. rewrite ON. unfold fbind, binary_fold. rewrite O1.
        replace (member_eff bop e0) with (@nil act) by (destruct bop; try reflexivity; now elim O3). reflexivity. }
      rewrite BN in E by exact SS. injection E as <- <- <-.
      exists (join b1 (name_eff n1)). destruct R' as [R' _].
      split; [rewrite B0 by apply same_refl; rewrite !(add_add b1 (name_eff n1)), add_twice; reflexivity|].
      split; [cbn; split; [exact GN|split; [exact R'|intro Y; now elim O3]]|].
      split; [reflexivity|]. split; [reflexivity|]. split; [intros k _; split; exact I|]. split; [discriminate|].
      intros m c2 S. rewrite BN by exact S. now rewrite add_add.
    + assert (Q' : forall m c2, same c c2 -> finish cx m e2 (add b0 c2) = (e2, add b1 (add b0 c2), FOk o2)) by (intros m c2 S; apply Q, same_both, S).
      destruct (redundant_cast t1 e2) eqn:RC.
      * intros [= <- <- <-]. destruct e2 as [| | |[|[s|s|s|s|s]| |]| | | | | |]; try discriminate.
        assert (Z0 : forall c2, same c c2 -> add b0 c2 = c2).
        { destruct t1 as [|? ?|? ?|[]|[|? ?|? ?|[]|] q]; try discriminate. intros c2 S. specialize (FX c2 S). cbn in FX. now injection FX. }
        exists []. rewrite (Z0 _ (same_refl c)).
        destruct (lit_flag n _ _ _ _ Q ltac:(discriminate)) as [B1 _]. rewrite (B1 c) by (apply same_of, same_refl). split; [reflexivity|]. split; [exact I|]. split; [reflexivity|]. split; [reflexivity|]. split; [intros k _; split; exact I|]. split; [discriminate|].
        intros m c2 S. apply (lit_again m c); [discriminate|exact S|reflexivity].
      * intros [= <- <- <-]. exists (join b1 b0). rewrite add_add. split; [reflexivity|]. split; [cbn; split; [exact PT1|split; [exact R'|intro Y; apply ND, SH2, Y]]|]. split; [reflexivity|]. split; [reflexivity|]. split; [intros k _; split; exact I|]. split; [discriminate|].
        intros m c2 S. rewrite finish_eq. cbn [finish_step]. rewrite FX, Q' by exact S. now rewrite B, RC, add_add.
  - (* literal *)
    assert (NC : forall y, l <> LChar y) by (intros y ->; destruct R).
    enough (G : forall lf, lf = lit_finish cx l c -> (ELit l, c, lf) = (e', c', FOk t) -> steady n (ELit l) c e' c' t) by (destruct l; [destruct R|exact (G _ eq_refl)..]).
    intros lf LF [= <- <- ->]. exists false. split; [reflexivity|]. split; [exact R|]. split; [auto|]. split; [auto|]. split; [auto|]. split; [discriminate|].
    intros m c2 S. apply (lit_again m c); auto.
  - (* stringification *)
    destruct (stringify_finish a c) as [c1 f1] eqn:Q. intros [= <- <- ->]. pose proof (stringify_out _ _ _ _ K R Q) as SO. rewrite (stringify_again _ _ K R SO) in Q. injection Q as <- <-.
    exists (stringify_eff a). split; [reflexivity|]. split; [exact R|]. do 3 (split; [auto|]). split; [discriminate|]. intros m c2 S. rewrite finish_eq. cbn [finish_step].
    rewrite stringify_again; [reflexivity|exact (kn_same _ _ S K)|exact R|exact (stringified_same _ _ _ S SO)].
  - (* sequence *)
    destruct (concat_finish (finish cx n) [] l [] None c) as [[[self names] c1] r] eqn:Q. destruct r as [o| | |]; try (destruct names as [|x1 [|x2 names]]; discriminate).
    apply concat_inv in Q; [|exact K|exact R]. destruct Q as (-> & -> & HI). cbn [app]. destruct (merge_items c l None HI) as [MI MF]. pose proof (merge_merge l None) as MM.
    rewrite <- MF. pose proof (fun k => merge_known k l None) as MK. remember (merge None l) as names eqn:EN.
    assert (ML : (forall x, names <> [x]) -> (EConcat names, add (items_eff names) c, FOk (Some ty_const_char_ptr)) = (e', c', FOk t) -> steady n (EConcat l) c e' c' t).
    { intros NS [= <- <- <-]. exists (items_eff names). split; [reflexivity|]. split.
      { cbn. apply all_in. eapply Forall_impl; [|exact MI]. apply item_string. }
      split; [reflexivity|]. split; [reflexivity|]. split; [intros k [_ PK]; split; [exact I|exact (MK k PK)]|]. split; [discriminate|]. intros m c2 S. rewrite finish_eq. cbn [finish_step].
      rewrite (concat_again m c) by assumption. rewrite MM. cbn [app]. destruct names as [|x1 [|x2 names]]; try reflexivity. now elim (NS x1). }
    destruct names as [|x1 [|x2 names]]; try (apply ML; discriminate). clear ML.
    inversion MI as [|x y I1 _]; subst. intro E. destruct n as [|n']; cbn [again_of] in E; [discriminate|].
    rewrite (item_finish n' c x1) in E by (try exact K; try exact I1; apply same_add). cbn [items_eff] in E. unfold join in E. cbn [app] in E. rewrite add_twice in E. injection E as <- <- <-.
    exists (item_eff x1). split; [reflexivity|]. pose proof (item_string _ _ I1) as SI.
    split; [destruct x1 as [| | |[]| | | | | |]; try (now destruct SI); cbn; auto|].
    split; [intros _; now destruct x1 as [| | |[]| | | | | |]|]. split; [intros _; now destruct x1 as [| | |[]| | | | | |]|].
    split; [intros k [_ PK]; specialize (MK k PK); destruct MK as [MK _]; split; [exact MK|destruct x1 as [| | |[]| | | | | |]; try exact I; now destruct SI]|].
    split; [intros o0 x0 ->; destruct SI|]. intros m c2 S. now apply item_finish.
  - (* sizeof *)
    unfold fbind. destruct (ty_finish cx ty c) as [[t1 c1] r1] eqn:T. destruct r1 as [o|x| |]; try discriminate. destruct (type_again _ _ _ _ _ K R T) as (b0 & -> & -> & PT1 & FX). intros [= <- <- <-].
    exists b0. split; [reflexivity|]. split; [exact PT1|]. split; [reflexivity|]. split; [reflexivity|]. split; [intros ? _; split; exact I|]. split; [discriminate|].
    intros m c2 S. rewrite finish_eq. cbn [finish_step]. unfold fbind. now rewrite FX by exact S.
  - (* unary *)
    destruct R as [R NF]. unfold fbind. destruct (finish cx n e c) as [[e2 c2] [o| | |]] eqn:F; try discriminate.
    destruct (IHe _ _ _ _ K R F) as (b1 & -> & R' & MF & MG & NP & UN & Q).
    destruct (unary_type op (add b1 c) o) as [t'| | |] eqn:UT; try discriminate. destruct (unary_fold op e2 t') as [e3 r3] eqn:UF. intros [= <- <- ->].
    assert (UT' : forall c2, same c c2 -> unary_type op (add b1 c2) o = FOk t').
    { intros c2 S. rewrite <- UT. unfold unary_type. rewrite !var_add, (same_var _ _ S). reflexivity. }
    assert (KEEP : e3 = EUnary op e2 -> steady n (EUnary op e) c e3 (add b1 c) t).
    { intros ->. exists b1. split; [reflexivity|]. split; [cbn; auto|]. split; [destruct op; cbn; auto|]. split; [destruct op; cbn; auto|]. split; [intros ? _; split; exact I|].
      split; [intros o0 x0 [= -> ->]; exists o; exact Q|]. intros m c2 S. rewrite finish_eq. cbn [finish_step]. unfold fbind. rewrite Q by exact S. now rewrite UT', UF. }
    assert (NUM : number e3 = true -> (op = UPlus \/ op = UMinus) /\ number e2 = true /\ floating e3 = floating e2 -> (forall m c2, same c c2 -> finish cx m e3 c2 = (e3, add b1 c2, FOk t)) -> steady n (EUnary op e) c e3 (add b1 c) t).
    { intros N (OP & N2 & FL) QQ. exists b1. split; [reflexivity|]. split; [destruct e3 as [| | |[]| | | | | |]; try discriminate N; exact I|].
      assert (X1 : may_fold (EUnary op e) = may_fold e) by (destruct OP as [-> | ->]; reflexivity). assert (X2 : may_float (EUnary op e) = may_float e) by (destruct OP as [-> | ->]; reflexivity).
      rewrite X1, X2. split; [intro Y; apply MF in Y; apply number_fold in N2; congruence|].
      split; [intro Y; apply MG in Y; destruct e3 as [| | |[]| | | | | |]; try discriminate N; cbn in FL; try reflexivity; symmetry in FL; apply floating_float in FL; congruence|].
      split; [intros ? _; destruct e3 as [| | |[]| | | | | |]; try discriminate N; split; exact I|].
      split; [intros o0 x0 ->; discriminate N|]. exact QQ. }
    assert (LIT : forall x, e2 = ELit x -> (forall y, x <> LChar y) -> (forall c2, same c c2 -> add b1 c2 = c2) /\ lit_finish cx x c = FOk o).
    { intros x -> NC. exact (lit_flag n _ _ _ _ Q NC). }
    revert UF. unfold unary_fold. destruct op; try (intros [= <- _]; apply KEEP; reflexivity).
    + (* plus *)
      cbn in UT. injection UT as <-.
      destruct e2 as [| | |[|s|fl|it]| | | | | |]; try (intros [= <- _]; apply KEEP; reflexivity); intros [= <- <-]; (apply NUM; [reflexivity|auto|exact Q]).
    + (* minus *)
      cbn in UT. injection UT as <-.
      destruct e2 as [| | |[|s|fl|it]| | | | | |]; try (intros [= <- _]; apply KEEP; reflexivity); intros [= <- <-]; (apply NUM; [reflexivity|auto|]); intros m c2 S; rewrite finish_eq; cbn [finish_step].
      * destruct (LIT _ eq_refl) as [B1 L]; [discriminate|]. rewrite B1 by exact S. rewrite <- L. now destruct fl.
      * destruct (LIT _ eq_refl) as [B1 L]; [discriminate|]. rewrite B1 by exact S. now rewrite <- L.
    + (* not *)
      cbn in UT. injection UT as <-. pose proof (MF (NF eq_refl)) as M2.
      destruct e2 as [| | |[|s|fl|it]| | | | | |]; try discriminate M2; intros [= <- _]; apply KEEP; reflexivity.
    + (* complement *)
      destruct e2 as [| | |[|s|fl|it]| | | | | |]; try discriminate; intros [= <- _]; apply KEEP; reflexivity.
  - (* binary *)
    destruct R as (RA & RB & RM). unfold fbind. destruct (finish cx n a c) as [[a1 c1] [ta| | |]] eqn:FA; try discriminate.
    destruct (IHa _ _ _ _ K RA FA) as (b1 & -> & RA' & MFA & MGA & NPA & _ & QA).
    destruct (finish cx n b (add b1 c)) as [[r1 c2] [tb| | |]] eqn:FB; try discriminate.
    destruct (IHb _ _ _ _ (kn_add _ _ K) RB FB) as (b2 & -> & RB' & MFB & MGB & NPB & _ & QB).
    assert (NM : member_ok c op r1).
    { intros OM i ->. destruct (NPB _ (RM OM)) as [NM _]. split; [exact NM|]. specialize (QB n (add b1 c) (same_refl _)). rewrite finish_eq in QB. cbn [finish_step] in QB. rewrite var_arg, param_add in QB.
      destruct (param c i); [discriminate|discriminate QB]. }
    rewrite types_eq; [|now apply kn_add, kn_add|apply (member_same c); [eapply same_trans; apply same_add|exact NM]]. destruct (conv a1 op r1 ta tb) as [[[l' r'] lt'] rt'] eqn:CV. pose proof (conv_inv _ _ _ _ _ _ _ _ _ CV) as CI.
    pose proof (conv_conv _ _ _ _ _ _ _ _ _ CV) as CC. pose proof (settles_conv _ _ _ _ _ _ _ _ _ CI) as SC.
    destruct (outcome op r' lt' rt') as [t3| | |] eqn:OC; try discriminate. cbn [fst snd].
    set (b3 := settles op a1) in *.
    destruct (binary_fold cx l' op r' t3 _) as [e3 f3] eqn:BF. intros [= <- <- ->].
    assert (NM' : member_ok c op r' /\ member_eff op r' = member_eff op r1 /\ (op = OMember -> parameters_known known false r')).
    { assert (OM : op = OMember -> parameters_known known false r1) by auto.
      destruct CI as [(-> & -> & -> & ->)|[(v & f & -> & -> & -> & -> & -> & ->)|[(v & f & -> & -> & -> & -> & -> & ->)|[(x & b0 & -> & N & -> & -> & -> & -> & O)|(x & b0 & -> & N & -> & -> & -> & -> & O)]]]]; try (split; [exact NM|split; [reflexivity|exact OM]]).
      - split; [intros ? ? ?; discriminate|]. split; [now destruct op|]. intros _. split; exact I.
      - split; [intros ? ? ?; discriminate|]. split; [now destruct op|]. intros _. split; exact I. }
    destruct NM' as (NM' & ME & PM'). set (b4 := member_eff op r1) in *.
    (* the sides, finished again *)
    assert (FL : (forall m c2, same c c2 -> finish cx m l' c2 = (l', add b1 c2, FOk lt')) /\ repeatable known l' /\ (may_fold a1 = false -> may_fold l' = false) /\ (number l' = true -> number a1 = true)).
    { destruct CI as [(-> & -> & -> & ->)|[(v & f & -> & -> & -> & -> & -> & ->)|[(v & f & -> & -> & -> & -> & -> & ->)|[(x & b0 & -> & N & -> & -> & -> & -> & O)|(x & b0 & -> & N & -> & -> & -> & -> & O)]]]]; try (split; [exact QA|]; split; [exact RA'|]; now split; auto).
      - split; [|split; [exact I|split; [discriminate|reflexivity]]]. destruct (lit_flag n _ _ _ _ QA ltac:(discriminate)) as [B1 _]. intros m c2 S. rewrite B1 by exact S. now apply (lit_again m c).
      - split; [now apply side_again with (t := ta); [exists x|]|]. split; [cbn; split; [exact I|split; [exact I|intros (t0 & x0 & X0); discriminate]]|]. split; [reflexivity|discriminate]. }
    assert (QB' : forall m c2, same c c2 -> finish cx m r1 c2 = (r1, add b2 c2, FOk tb)) by (intros m c2 S; apply QB, same_of, S).
    assert (FR : (forall m c2, same c c2 -> finish cx m r' c2 = (r', add b2 c2, FOk rt')) /\ repeatable known r' /\ (may_fold r1 = false -> may_fold r' = false) /\ (number r' = true -> number r1 = true)).
    { destruct CI as [(-> & -> & -> & ->)|[(v & f & -> & -> & -> & -> & -> & ->)|[(v & f & -> & -> & -> & -> & -> & ->)|[(x & b0 & -> & N & -> & -> & -> & -> & O)|(x & b0 & -> & N & -> & -> & -> & -> & O)]]]]; try (split; [exact QB'|]; split; [exact RB'|]; now split; auto).
      - split; [|split; [exact I|split; [discriminate|reflexivity]]]. destruct (lit_flag n _ _ _ _ QB' ltac:(discriminate)) as [B1 _]. intros m c2 S. rewrite B1 by exact S. now apply (lit_again m c).
      - split; [now apply side_again with (t := tb); [exists x|]|]. split; [cbn; split; [exact I|split; [exact I|intros (t0 & x0 & X0); discriminate]]|]. split; [reflexivity|discriminate]. }
    assert (FF : may_float a1 = false -> may_float r1 = false -> may_float l' = false /\ may_float r' = false).
    { intros A1 A2. destruct CI as [(-> & -> & -> & ->)|[(v & f & -> & -> & -> & -> & -> & ->)|[(v & f & -> & -> & -> & -> & -> & ->)|[(x & b0 & -> & N & -> & -> & -> & -> & O)|(x & b0 & -> & N & -> & -> & -> & -> & O)]]]]; try discriminate; auto. }
    destruct FL as (FL & RL & ML & NL). destruct FR as (FR & RR & MR & NR).
    assert (MFE : may_fold a && may_fold b = false -> may_fold l' = false \/ may_fold r' = false).
    { intro X. apply andb_false_iff in X. destruct X as [X|X]; auto. }
    assert (MGE : may_fold a && may_fold b && (may_float a || may_float b) = false -> may_fold l' = false \/ may_fold r' = false \/ (may_float l' = false /\ may_float r' = false)).
    { intro X. apply andb_false_iff in X. destruct X as [X|X]; [destruct (MFE X); auto|]. apply orb_false_iff in X. destruct X. right; right. auto. }
    destruct (fold_inv _ _ _ _ _ _ _ BF) as [(N1 & N2 & N3 & N4 & N5 & N6)|[(_ & _ & _ & ?)|(-> & TE & BF')]]; [|discriminate|].
    + (* a number *)
      assert (B1 : add b1 c = c). { specialize (NL N1). destruct a1 as [| | |la| | | | | |]; try discriminate. destruct (lit_flag n c la b1 ta) as [B1 _]; [exact QA|intros y ->; discriminate|]. apply B1, same_refl. }
      assert (B2 : add b2 c = c). { specialize (NR N2). destruct r1 as [| | |la| | | | | |]; try discriminate. destruct (lit_flag n c la b2 tb) as [B2 _]; [exact QB'|intros y ->; discriminate|]. apply B2, same_refl. }
      assert (B4 : b4 = []). { unfold b4. specialize (NR N2). destruct r1 as [| | |la| | | | | |]; try discriminate. now destruct op. }
      assert (B3 : b3 = false). { unfold b3, settles. specialize (NL N1). destruct a1 as [| | |la| | | | | |]; try discriminate. apply andb_false_r. }
      assert (BA : add b3 (add b4 (add b2 (add b1 c))) = c) by (rewrite B1, B2, B3, B4; reflexivity). rewrite BA in *. exists false. split; [reflexivity|].
      destruct e3 as [| | |l3| | | | | |]; try discriminate N4.
      split; [destruct l3; try discriminate N4; exact I|]. cbn [may_fold may_float].
      split; [intro X; destruct (MFE X) as [Y|Y]; [apply number_fold in N1; congruence|apply number_fold in N2; congruence]|].
      split; [intro X; destruct (MGE X) as [Y|[Y|[Y1 Y2]]]; [apply number_fold in N1; congruence|apply number_fold in N2; congruence|]|].
      { destruct l3; try reflexivity. cbn in N5. symmetry in N5. apply floating_float in N5. congruence. }
      split; [intros ? _; split; exact I|]. split; [discriminate|]. intros m c2 S. apply (lit_again m c); [intros y ->; discriminate N4|exact S|]. symmetry. apply (N6 t eq_refl).
    + exists (join (join (join b3 b4) b2) b1). rewrite !add_add. split; [reflexivity|]. split; [cbn; auto|]. cbn [may_fold may_float].
      split; [intro X; apply andb_false_iff; exact (MFE X)|].
      split; [intro X; destruct (MGE X) as [Y|[Y|[Y1 Y2]]]; rewrite ?Y, ?Y1, ?Y2, ?andb_false_r; reflexivity|].
      split; [intros ? _; split; exact I|]. split; [discriminate|]. intros m c2 S. rewrite finish_eq. cbn [finish_step]. unfold fbind.
      rewrite FL by exact S. rewrite FR by (apply (same_both false _ _ _ S)).
      rewrite types_eq; [|apply kn_add, kn_add, (kn_same _ _ S), K|apply (member_same c); [apply (same_both false _ c (add b1 c2)), (same_both false b1 c c2), S|exact NM']]. rewrite CC, OC, SC, ME. cbn [fst snd]. fold b3. rewrite BF', <- TE, !add_add. reflexivity.
  - (* ternary *)
    destruct R as (RA & RB & RD & MA). unfold fbind. destruct (condition_finish (finish cx n) a c) as [[a1 c1] [ta| | |]] eqn:FA; try discriminate.
    destruct (condition_again _ _ _ _ _ _ IHa K RA MA FA) as (b1 & -> & -> & RA' & MA' & QA).
    destruct (finish cx n b (add b1 c)) as [[b' c2] [tb| | |]] eqn:FB; try discriminate.
    destruct (IHb _ _ _ _ (kn_add _ _ K) RB FB) as (b2 & -> & RB' & _ & _ & _ & _ & QB).
    destruct (finish cx n d (add b2 (add b1 c))) as [[d' c3] [td| | |]] eqn:FD; try discriminate.
    destruct (IHd _ _ _ _ (kn_add _ _ (kn_add _ _ K)) RD FD) as (b3 & -> & RD' & _ & _ & _ & _ & QD).
    intros [= <- <- <-]. exists (join (join b3 b2) b1). rewrite !add_add. split; [reflexivity|]. split; [cbn; auto|]. split; [reflexivity|]. split; [reflexivity|].
    split; [intros ? _; split; exact I|]. split; [discriminate|]. intros m c2 S. rewrite finish_eq. cbn [finish_step]. unfold fbind. rewrite QA by exact S.
    rewrite QB by (apply same_both, S). rewrite QD by (apply same_both, same_both, S). now rewrite !add_add.
Qed.

(** ** Statements *)

(** Finishing again changes nothing and has the same outcome. *)
Definition again {X} (f : X -> lctx -> fin X) (c : lctx) (x' : X) (c' : lctx) (t : option ctype) : Prop :=
  exists b, c' = add b c /\ forall c2, same c c2 -> f x' c2 = (x', add b c2, FOk t).

Lemma expr_again e c e' c' t : kn c -> repeatable known e -> expr_finish cx e c = (e', c', FOk t) -> again (expr_finish cx) c e' c' t.
Proof. intros K R E. destruct (finish_again _ _ _ _ _ _ K R E) as (b & -> & _ & _ & _ & _ & _ & Q). exists b. split; [reflexivity|]. intros c2 S. now apply Q. Qed.
Lemma cond_again e c e' c' t : kn c -> repeatable_condition known e -> condition_finish (expr_finish cx) e c = (e', c', FOk t) ->
  again (condition_finish (expr_finish cx)) c e' c' t.
Proof.
  intros K [R M] E. change (condition_finish (finish cx (weight e)) e c = (e', c', FOk t)) in E.
  destruct (condition_again _ _ _ _ _ _ (finish_again (weight e) e) K R M E) as (b & -> & -> & _ & _ & Q). exists b. split; [reflexivity|]. intros c2 S. exact (Q (weight e') c2 S).
Qed.
Lemma exprs_again : forall l c l' c' t, kn c -> all (repeatable known) l -> list_finish (expr_finish cx) l c = (l', c', FOk t) ->
  length l' = length l /\ again (list_finish (expr_finish cx)) c l' c' t.
Proof.
  induction l as [|e l IH]; intros c l' c' t K R; cbn [list_finish].
  - intros [= <- <- <-]. split; [reflexivity|]. exists false. split; [reflexivity|]. intros; reflexivity.
  - destruct R as [R1 R2]. unfold fbind. destruct (expr_finish cx e c) as [[e1 c1] [t1|x1| |]] eqn:F; try discriminate.
    destruct (expr_again _ _ _ _ _ K R1 F) as (b1 & -> & P).
    destruct (list_finish (expr_finish cx) l (add b1 c)) as [[l1 c2] f2] eqn:G. intros [= <- <- ->].
    destruct (IH _ _ _ _ (kn_add _ _ K) R2 G) as (L & b2 & -> & Q). split; [cbn; now rewrite L|].
    exists (join b2 b1). rewrite add_add. split; [reflexivity|]. intros c3 S. cbn [list_finish]. unfold fbind. rewrite P by exact S.
    rewrite Q by (apply same_both, S). now rewrite add_add.
Qed.

Lemma put_snd {A B} (l : list (A * B)) (l' : list B) : length l' = length l -> map snd (map (fun '((a, _), e) => (a, e)) (combine l l')) = l'.
Proof. revert l'. induction l as [|[a b] l IH]; intros [|x l']; try discriminate; intro L; [reflexivity|]. cbn. now rewrite IH by (cbn in L; congruence). Qed.
Lemma put_put {A B} (l : list (A * B)) (l' : list B) : length l' = length l ->
  map (fun '((a, _), e) => (a, e)) (combine (map (fun '((a, _), e) => (a, e)) (combine l l')) l') = map (fun '((a, _), e) => (a, e)) (combine l l').
Proof. revert l'. induction l as [|[a b] l IH]; intros [|x l']; try discriminate; intro L; [reflexivity|]. cbn. now rewrite IH by (cbn in L; congruence). Qed.
Lemma all_map {A B} (P : B -> Prop) (g : A -> B) l : all (fun x => P (g x)) l -> all P (map g l).
Proof. induction l; cbn; intuition. Qed.

Lemma asm_again a c a' c' t : kn c -> repeatable_stmt known (SAsm a) -> asm_finish cx a c = (a', c', FOk t) -> again (asm_finish cx) c a' c' t.
Proof.
  intros K [R1 R2]. unfold asm_finish at 1, fbind.
  assert (EO : forall (l : list (asm_dir * reg_constraint * expr)) (l' : list expr),
    map (fun '((d, r, _), e) => (d, r, e)) (combine l l') = map (fun '((a, _), e) => (a, e)) (combine l l')).
  { intros l l'. apply map_ext. now intros [[[d r] y] e]. }
  destruct (list_finish _ (map snd (asm_outputs a)) c) as [[lo c1] [t1| | |]] eqn:F; try discriminate.
  destruct (exprs_again _ _ _ _ _ K (all_map _ _ _ R1) F) as (L1 & b1 & -> & Q1). rewrite map_length in L1.
  destruct (list_finish _ (map snd (asm_inputs a)) (add b1 c)) as [[li c2] [t2| | |]] eqn:G; try discriminate.
  destruct (exprs_again _ _ _ _ _ (kn_add _ _ K) (all_map _ _ _ R2) G) as (L2 & b2 & -> & Q2). rewrite map_length in L2.
  intros [= <- <- <-]. exists (join (join (asm_global a) b2) b1). split; [rewrite <- !add_add; now destruct (asm_global a)|].
  intros c2 S. unfold asm_finish, fbind. cbn [asm_outputs asm_inputs asm_template asm_clobbers].
  rewrite !EO, put_snd by exact L1. rewrite Q1 by exact S. rewrite put_snd by exact L2. rewrite Q2 by (apply same_both, S).
  rewrite !EO, (put_put _ _ L1), (put_put _ _ L2). f_equal. f_equal.
  rewrite <- !add_add. unfold asm_global. cbn [asm_template]. now destruct (existsb _ _).
Qed.

Lemma var_decl_again d c d' c' t : kn c -> repeatable_stmt known (SVarDecl d) -> var_decl_finish cx d c = (d', c', FOk t) -> again (var_decl_finish cx) c d' c' t.
Proof.
  intros K (R1 & R2 & R3). unfold var_decl_finish at 1, fbind.
  destruct (ty_finish cx (vd_ty d) c) as [[t1 c1] r1] eqn:T. destruct r1 as [o| | |]; try discriminate.
  destruct (type_again _ _ _ _ _ K R1 T) as (b0 & -> & -> & _ & FX).
  destruct (ident_finish (vd_name d) (add b0 c)) as [c0 f0] eqn:N. destruct f0 as [o0| | |]; try discriminate. destruct (ident_again _ _ _ _ (kn_add _ _ K) R2 N) as (-> & -> & N').
  set (b1 := name_eff (vd_name d)) in *.
  destruct (expr_finish cx (vd_rhs d) (add b1 (add b0 c))) as [[e1 c1] [t2| | |]] eqn:F; try discriminate. destruct (expr_again _ _ _ _ _ (kn_add _ _ (kn_add _ _ K)) R3 F) as (b & -> & Q).
  intros [= <- <- <-]. exists (join (join b b1) b0). rewrite !add_add. split; [reflexivity|]. intros c2 S. unfold var_decl_finish, fbind. cbn [vd_ty vd_name vd_rhs vd_static].
  rewrite FX by exact S. rewrite N' by (apply same_both, S). rewrite Q by (apply same_both, same_both, S). now rewrite !add_add.
Qed.
Lemma fn_args_again : forall l c l' c' t, kn c -> all (fun a => good_type known (fst a)) l -> fn_args_finish cx l c = (l', c', FOk t) ->
  t = None /\ again (fn_args_finish cx) c l' c' t.
Proof.
  induction l as [|[ty n] l IH]; intros c l' c' t K R; cbn [fn_args_finish]; [intros [= <- <- <-]; split; [reflexivity|]; exists []; split; [reflexivity|]; reflexivity|].
  destruct R as [R1 R2]. cbn in R1. unfold fbind.
  destruct (ty_finish cx ty c) as [[t1 c1] r1] eqn:T. destruct r1 as [o| | |]; try discriminate.
  destruct (type_again _ _ _ _ _ K R1 T) as (b0 & -> & -> & _ & FX). destruct (fn_args_finish cx l (add b0 c)) as [[l1 c1] r1] eqn:G. intros [= <- <- ->].
  destruct (IH _ _ _ _ (kn_add _ _ K) R2 G) as (-> & b1 & -> & Q). split; [reflexivity|]. exists (join b1 b0). rewrite add_add. split; [reflexivity|]. intros c2 S. cbn [fn_args_finish]. unfold fbind.
  rewrite FX by exact S. rewrite Q by (apply same_both, S). now rewrite add_add.
Qed.
Lemma fn_decl_again d c d' c' t : kn c -> repeatable_stmt known (SFnDecl d) -> fn_decl_finish cx d c = (d', c', FOk t) -> again (fn_decl_finish cx) c d' c' t.
Proof.
  intros K (R1 & R2 & R3). unfold fn_decl_finish at 1, fbind.
  destruct (ty_finish cx (fd_ret d) c) as [[t1 c1] r1] eqn:T. destruct r1 as [o| | |]; try discriminate.
  destruct (type_again _ _ _ _ _ K R1 T) as (b0 & -> & -> & _ & FX).
  set (N := fun c => match fd_name d with IArg i => set_arg_type c i AIdent | _ => Some c end).
  assert (NA : forall c1 c2, kn c1 -> N c1 = Some c2 -> exists b, c2 = add b c1 /\ forall c3, same c1 c3 -> N c3 = Some (add b c3)).
  { intros ca cb KA. unfold N. destruct (fd_name d) as [i|x|ps]; try (intros [= <-]; exists []; split; [reflexivity|]; intros; reflexivity).
    cbn in R2. pose proof (set_level ca i true KA R2) as SL. cbn in SL. intro E. rewrite E in SL. destruct SL as [P SL]. exists [Level i true]. split; [apply SL; now right|].
    intros c3 S. pose proof (set_level c3 i true (kn_same _ _ S KA) R2) as SL3. cbn in SL3. rewrite (same_param _ _ _ S) in SL3. destruct (set_arg_type c3 i AIdent); [|now elim P].
    f_equal. apply SL3. now right. }
  change (match fd_name d with IArg i => set_arg_type (add b0 c) i AIdent | _ => Some (add b0 c) end) with (N (add b0 c)).
  destruct (N (add b0 c)) as [c1|] eqn:NE; [|discriminate]. destruct (NA _ _ (kn_add _ _ K) NE) as (b1 & -> & NA').
  destruct (fn_args_finish cx (fd_args d) (add b1 (add b0 c))) as [[l1 c1] r1] eqn:G. intros [= <- <- ->]. destruct (fn_args_again _ _ _ _ _ (kn_add _ _ (kn_add _ _ K)) R3 G) as (-> & b2 & -> & Q).
  exists (join (join b2 b1) b0). rewrite !add_add. split; [reflexivity|]. intros c2 S. unfold fn_decl_finish, fbind. cbn [fd_ret fd_name fd_args]. rewrite FX by exact S.
  change (match fd_name d with IArg i => set_arg_type (add b0 c2) i AIdent | _ => Some (add b0 c2) end) with (N (add b0 c2)).
  rewrite NA' by (apply same_both, S). rewrite Q by (apply same_both, same_both, S). now rewrite !add_add.
Qed.

Lemma void_again {X} (f : X -> lctx -> fin X) (w : X -> stmt) (c : lctx) (r : fin X) s' c' t :
  fbind r w (fun x c1 _ => (w x, c1, FOk (ty_b BVoid))) = (s', c', FOk t) ->
  exists x' t', r = (x', c', FOk t') /\ s' = w x' /\ t = ty_b BVoid.
Proof. destruct r as [[x c1] [t1| | |]]; cbn; try discriminate. intros [= <- <- <-]. eauto. Qed.

Lemma stmts_again : forall l c l' c' t, Forall (fun s => forall c s' c' t, kn c -> repeatable_stmt known s -> stmt_finish cx s c = (s', c', FOk t) -> again (stmt_finish cx) c s' c' t) l ->
  kn c -> all (repeatable_stmt known) l -> stmts_finish (stmt_finish cx) l c = (l', c', FOk t) -> again (stmts_finish (stmt_finish cx)) c l' c' t.
Proof.
  induction l as [|s l IH]; intros c l' c' t HF K R; cbn [stmts_finish].
  - intros [= <- <- <-]. exists false. split; [reflexivity|]. intros; reflexivity.
  - inversion HF as [|x y H1 H2]; subst. destruct R as [R1 R2]. unfold fbind. destruct (stmt_finish cx s c) as [[s1 c1] [t1|x1| |]] eqn:F; try discriminate.
    destruct (H1 _ _ _ _ K R1 F) as (b1 & -> & P).
    destruct (stmts_finish (stmt_finish cx) l (add b1 c)) as [[l1 c2] f2] eqn:G. intros [= <- <- ->].
    destruct (IH _ _ _ _ H2 (kn_add _ _ K) R2 G) as (b2 & -> & Q).
    exists (join b2 b1). rewrite add_add. split; [reflexivity|]. intros c3 S. cbn [stmts_finish]. unfold fbind. rewrite P by exact S.
    rewrite Q by (apply same_both, S). now rewrite add_add.
Qed.

Lemma stmt_again s : forall c s' c' t, kn c -> repeatable_stmt known s -> stmt_finish cx s c = (s', c', FOk t) -> again (stmt_finish cx) c s' c' t.
Proof.
  induction s as [a|e|d|d|l IHl|e a b IHa IHb|l e IHl] using stmt_ind'; intros c s' c' t K R E; cbn [stmt_finish] in E.
  - apply (void_again (asm_finish cx) _ c) in E as (x & t' & E & -> & ->). apply asm_again in E as (b & -> & Q); [|exact K|exact R].
    exists b. split; [reflexivity|]. intros c2 S. cbn [stmt_finish]. rewrite Q by exact S. reflexivity.
  - apply (void_again (expr_finish cx) _ c) in E as (x & t' & E & -> & ->). apply expr_again in E as (b & -> & Q); [|exact K|exact R].
    exists b. split; [reflexivity|]. intros c2 S. cbn [stmt_finish]. rewrite Q by exact S. reflexivity.
  - apply (void_again (fn_decl_finish cx) _ c) in E as (x & t' & E & -> & ->). apply fn_decl_again in E as (b & -> & Q); [|exact K|exact R].
    exists b. split; [reflexivity|]. intros c2 S. cbn [stmt_finish]. rewrite Q by exact S. reflexivity.
  - apply (void_again (var_decl_finish cx) _ c) in E as (x & t' & E & -> & ->). apply var_decl_again in E as (b & -> & Q); [|exact K|exact R].
    exists b. split; [reflexivity|]. intros c2 S. cbn [stmt_finish]. rewrite Q by exact S. reflexivity.
  - apply (void_again (stmts_finish (stmt_finish cx)) _ c) in E as (x & t' & E & -> & ->). apply stmts_again in E as (b & -> & Q); [|exact IHl|exact K|exact R].
    exists b. split; [reflexivity|]. intros c2 S. cbn [stmt_finish]. rewrite Q by exact S. reflexivity.
  - destruct R as (R1 & R2 & R3). unfold fbind at 1 in E. destruct (condition_finish (expr_finish cx) e c) as [[e1 c1] [t1| | |]] eqn:F1; try discriminate.
    apply cond_again in F1 as (b1 & -> & Q1); [|exact K|exact R1]. unfold fbind at 1 in E.
    destruct (stmts_finish (stmt_finish cx) a (add b1 c)) as [[a1 c2] [t2| | |]] eqn:F2; try discriminate.
    apply stmts_again in F2 as (b2 & -> & Q2); [|exact IHa|now apply kn_add|exact R2].
    apply (void_again (stmts_finish (stmt_finish cx)) _ c) in E as (x & t' & E & -> & ->).
    apply stmts_again in E as (b3 & -> & Q3); [|exact IHb|now apply kn_add, kn_add|exact R3].
    exists (join (join b3 b2) b1). rewrite !add_add. split; [reflexivity|]. intros c2 S. cbn [stmt_finish]. rewrite Q1 by exact S. unfold fbind at 1.
    rewrite Q2 by (apply same_both, S). unfold fbind at 1. rewrite Q3 by (apply same_both, same_both, S). cbn [fbind]. now rewrite !add_add.
  - destruct R as (R1 & R2). unfold fbind at 1 in E. destruct (stmts_finish (stmt_finish cx) l c) as [[l1 c1] [t1| | |]] eqn:F1; try discriminate.
    apply stmts_again in F1 as (b1 & -> & Q1); [|exact IHl|exact K|exact R1].
    apply (void_again (condition_finish (expr_finish cx)) _ c) in E as (x & t' & E & -> & ->). apply cond_again in E as (b2 & -> & Q2); [|now apply kn_add|exact R2].
    exists (join b2 b1). rewrite add_add. split; [reflexivity|]. intros c2 S. cbn [stmt_finish]. rewrite Q1 by exact S. unfold fbind at 1. rewrite Q2 by (apply same_both, S). cbn [fbind]. now rewrite add_add.
Qed.

Lemma body_again b c b' c' t : kn c -> repeatable_body known b -> body_finish cx b c = (b', c', FOk t) -> again (body_finish cx) c b' c' t.
Proof.
  intros K R. destruct b as [s|e]; cbn [body_finish].
  - destruct (stmt_finish cx s c) as [[s1 c1] f] eqn:F. intros [= <- <- ->]. apply stmt_again in F as (b & -> & Q); [|exact K|exact R].
    exists b. split; [reflexivity|]. intros c2 S. cbn [body_finish]. now rewrite Q.
  - destruct (expr_finish cx e c) as [[s1 c1] f] eqn:F. intros [= <- <- ->]. apply expr_again in F as (b & -> & Q); [|exact K|exact R].
    exists b. split; [reflexivity|]. intros c2 S. cbn [body_finish]. now rewrite Q.
Qed.

End F.
