(** Statements: what they do in C, and what the generated Rust does (C51).

    Both sides are given as traces.  An expression, a declaration or an assembly
    statement is one event, and so is a condition together with its outcome.
    The outcomes of conditions are not computed: a statement has one trace for
    every sequence of outcomes. *)
From Verif Require Import Base Utf Lex LexFloat Token Ast ParseStmt Rust Finish Codegen SpecRustExpr SpecTree.
From Coq Require Import String List.
Import ListNotations.
Local Open Scope string_scope.
Local Open Scope list_scope.

(** ** C *)

Inductive cevent := CDo (s : stmt) | CTest (e : expr) (b : bool).

(** [c_run s t]: executing [s] to its end makes the events [t]. *)
Inductive c_run : stmt -> list cevent -> Prop :=
| CR_asm a : c_run (SAsm a) [CDo (SAsm a)]
| CR_expr e : c_run (SExpr e) [CDo (SExpr e)]
| CR_fn d : c_run (SFnDecl d) [CDo (SFnDecl d)]
| CR_var d : c_run (SVarDecl d) [CDo (SVarDecl d)]
| CR_block l t : c_runs l t -> c_run (SBlock l) t
| CR_then e a b t : c_runs a t -> c_run (SIf e a b) (CTest e true :: t)
| CR_else e a b t : c_runs b t -> c_run (SIf e a b) (CTest e false :: t)
| CR_last l e t : c_runs l t -> c_run (SDoWhile l e) (t ++ [CTest e false])
| CR_repeat l e t t' : c_runs l t -> c_run (SDoWhile l e) t' -> c_run (SDoWhile l e) (t ++ CTest e true :: t')
with c_runs : list stmt -> list cevent -> Prop :=
| CR_nil : c_runs [] []
| CR_cons s l t t' : c_run s t -> c_runs l t' -> c_runs (s :: l) (t ++ t').

(** ** Rust *)

Inductive revent := RvDo (s : rstmt) | RvTest (x : rx) (b : bool).
(** How an expression ends. *)
Inductive outcome := Normal | Break | Continue.

(** The statements of a block: its value is evaluated last. *)
Definition flat (b : rblock) : list rstmt := match b with RB l t => l ++ match t with Some x => [RsExpr x] | None => [] end end.
(** Expressions that control what is executed.  Any other expression is one
    event: jumps inside the operands of an operator are not modelled. *)
Definition is_control (x : rx) : bool :=
  match x with XIf _ _ _ | XLoop _ | XBlock _ | XBreak | XContinue => true | _ => false end.

Inductive r_run : rx -> list revent -> outcome -> Prop :=
| RR_other x : is_control x = false -> r_run x [RvDo (RsExpr x)] Normal
| RR_break : r_run XBreak [] Break
| RR_continue : r_run XContinue [] Continue
| RR_block b t o : r_runs (flat b) t o -> r_run (XBlock b) t o
| RR_then x a b t o : r_runs (flat a) t o -> r_run (XIf x a b) (RvTest x true :: t) o
| RR_else x a b t o : r_runs (flat b) t o -> r_run (XIf x a (Some b)) (RvTest x false :: t) o
| RR_skip x a : r_run (XIf x a None) [RvTest x false] Normal
| RR_exit b t : r_runs (flat b) t Break -> r_run (XLoop b) t Normal
| RR_again b t t' o o' : r_runs (flat b) t o -> o <> Break -> r_run (XLoop b) t' o' -> r_run (XLoop b) (t ++ t') o'
with r_runs : list rstmt -> list revent -> outcome -> Prop :=
| RR_nil : r_runs [] [] Normal
| RR_next s l t t' o : r_step s t Normal -> r_runs l t' o -> r_runs (s :: l) (t ++ t') o
| RR_stop s l t o : r_step s t o -> o <> Normal -> r_runs (s :: l) t o
with r_step : rstmt -> list revent -> outcome -> Prop :=
| RR_expr x t o : r_run x t o -> r_step (RsExpr x) t o
| RR_let k n ty x : r_step (RsLet k n ty x) [RvDo (RsLet k n ty x)] Normal
| RR_item ts : r_step (RsItem ts) [RvDo (RsItem ts)] Normal.

(** ** The Rust statement of a C statement *)

Section Stmt.
Context `{Unicode}.
Variables (cx : cgctx) (c : lctx).

(** [do l while (x)] is [loop { l; if x { continue } break }]. *)
Definition do_while (l : list rstmt) (x : rx) : rx :=
  XLoop (RB (l ++ [RsExpr (XIf x (RB [] (Some XContinue)) None)]) (Some XBreak)).

(** The item [extern C { pub fn name(a: t, ..) -> r; }]. *)
Definition extern_fn (name : list rtok) (params : list (list rtok * list rtok)) (r : list rtok) : list rtok :=
  let param p := fst p ++ rp ":" :: snd p in
  [ri "extern"; RLit (RlStr (st "C"));
   braces (ri "pub" :: ri "fn" :: name ++ parens (sep_by (rp ",") (map param params)) :: rp "->" :: r ++ [rp ";"])].

Inductive stree : stmt -> rstmt -> Prop :=
| ST_asm a ts p g : asm_toks cx c a = Some ts -> reads ts (XMac p DParen g) -> stree (SAsm a) (RsExpr (XMac p DParen g))
| ST_expr e x : tree cx c e x -> stree (SExpr e) (RsExpr x)
| ST_fn d n l r : ident_toks cx c (fd_name d) = Some n -> ty_toks cx c (fd_ret d) = Some r ->
    Forall2 (fun a p => ident_toks cx c (snd a) = Some (fst p) /\ ty_toks cx c (fst a) = Some (snd p)) (fd_args d) l ->
    stree (SFnDecl d) (RsItem (extern_fn n l r))
| ST_var d n t x : ident_toks cx c (vd_name d) = Some [RId n] -> ty_toks cx c (vd_ty d) = Some t -> tree cx c (vd_rhs d) x ->
    stree (SVarDecl d) (RsLet [ri (if vd_static d then "static" else "let"); ri "mut"] n (Some t) x)
| ST_block l b : strees l (flat b) -> stree (SBlock l) (RsExpr (XBlock b))
| ST_if e a x ba : tree cx c e x -> strees a (flat ba) -> stree (SIf e a []) (RsExpr (XIf x ba None))
| ST_else e a b x ba bb : b <> [] -> tree cx c e x -> strees a (flat ba) -> strees b (flat bb) ->
    stree (SIf e a b) (RsExpr (XIf x ba (Some bb)))
| ST_do l e x lb : strees l lb -> tree cx c e x -> stree (SDoWhile l e) (RsExpr (do_while lb x))
with strees : list stmt -> list rstmt -> Prop :=
| ST_nil : strees [] []
| ST_cons s l r lr : stree s r -> strees l lr -> strees (s :: l) (r :: lr).

(** The events of the generated code for the events of the C code: a statement
    is an execution of the Rust statement for it, a condition is its tree with
    the same outcome. *)
Inductive same_events : list cevent -> list revent -> Prop :=
| SE_nil : same_events [] []
| SE_do s r t l l' : stree s r -> r_step r t Normal -> same_events l l' -> same_events (CDo s :: l) (t ++ l')
| SE_test e x b l l' : tree cx c e x -> same_events l l' -> same_events (CTest e b :: l) (RvTest x b :: l').

(** Statements whose expressions are [fine], and whose expression statements do
    not start with a block that would end the statement. *)
Fixpoint sfine (s : stmt) : Prop :=
  let all := fix all (l : list stmt) : Prop := match l with [] => True | s :: l' => sfine s /\ all l' end in
  match s with
  | SAsm _ | SFnDecl _ => True
  | SExpr e => fine cx c e /\ is_tail cx c e
  | SVarDecl d =>
    fine cx c (vd_rhs d) /\ plain_type cx c (vd_ty d) /\
    forall ts, ident_toks cx c (vd_name d) = Some ts -> exists n, ts = [RId n]
  | SBlock l => all l
  | SIf e a b => fine cx c e /\ all a /\ all b
  | SDoWhile l e => all l /\ fine cx c e
  end.
End Stmt.

(** ** Inference

    [settled s s']: [s'] is [s] with every expression replaced by what inference
    makes of it, and every condition made a [bool]. *)
Section Settled.
Context `{Unicode}.
Variable cx : cgctx.
Definition infers_to (e e' : expr) (t : option ctype) : Prop := exists c c', expr_finish cx e c = (e', c', FOk t).
Definition resolved (t t' : ctype) : Prop := exists c c' r, ty_finish cx t c = (t', c', FOk r).
Definition as_condition (e e' : expr) : Prop :=
  exists e1 t, infers_to e e1 t /\
    (t = Some (TyBuiltIn BBool) /\ e' = e1 \/ t <> Some (TyBuiltIn BBool) /\ e' = EBinary e1 ONeq (ELit (LInt (mk_int 0 None)))).
Inductive settled : stmt -> stmt -> Prop :=
| S_asm a a' :
    asm_template a' = asm_template a -> asm_clobbers a' = asm_clobbers a ->
    Forall2 (fun o o' => fst o' = fst o /\ exists t, infers_to (snd o) (snd o') t) (asm_outputs a) (asm_outputs a') ->
    Forall2 (fun i i' => fst i' = fst i /\ exists t, infers_to (snd i) (snd i') t) (asm_inputs a) (asm_inputs a') ->
    settled (SAsm a) (SAsm a')
| S_expr e e' t : infers_to e e' t -> settled (SExpr e) (SExpr e')
| S_fn d d' : fd_name d' = fd_name d -> resolved (fd_ret d) (fd_ret d') ->
    Forall2 (fun p p' => snd p' = snd p /\ resolved (fst p) (fst p')) (fd_args d) (fd_args d') -> settled (SFnDecl d) (SFnDecl d')
| S_var d d' t : vd_name d' = vd_name d -> vd_static d' = vd_static d -> resolved (vd_ty d) (vd_ty d') -> infers_to (vd_rhs d) (vd_rhs d') t ->
    settled (SVarDecl d) (SVarDecl d')
| S_block l l' : settled_all l l' -> settled (SBlock l) (SBlock l')
| S_if e e' a a' b b' : as_condition e e' -> settled_all a a' -> settled_all b b' -> settled (SIf e a b) (SIf e' a' b')
| S_do l l' e e' : settled_all l l' -> as_condition e e' -> settled (SDoWhile l e) (SDoWhile l' e')
with settled_all : list stmt -> list stmt -> Prop :=
| S_nil : settled_all [] []
| S_cons s s' l l' : settled s s' -> settled_all l l' -> settled_all (s :: l) (s' :: l').
End Settled.
