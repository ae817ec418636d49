(** Running the Rust expressions that access volatile locations (C39, C57).

    The values, the operators and the expressions below are left open: what is
    described is the order in which operands are evaluated, the local variables,
    and the accesses that are made. *)
From Verif Require Import Base Rust SpecRustExpr.
From Coq Require Import String List.
Import ListNotations.
Local Open Scope string_scope.
Local Open Scope list_scope.

(** An access to memory at an address: the value read or written. *)
Inductive access (V : Type) := ARead (p v : V) | AWrite (p v : V).
Arguments ARead {V} p v.
Arguments AWrite {V} p v.

Section Run.
Context {V : Type}.
(** The path of the module [ptr], the operators ([apply op a b v]: the result of
    [a op b] is [v]), and all other expressions ([prim env x v t]: with the local
    variables [env], [x] has the value [v] and makes the accesses [t]). *)
Variables (ptr : list rtok) (apply : str -> V -> V -> V -> Prop)
          (prim : list (str * V) -> rx -> V -> list (access V) -> Prop).

Definition read_path : rx := XPath (ptr ++ [ri "read_volatile"]).
Definition write_path : rx := XPath (ptr ++ [ri "write_volatile"]).
(** Expressions that are not described here. *)
Definition is_prim (env : list (str * V)) (x : rx) : Prop :=
  match x with
  | XPath [RId s] => ~ In s (map fst env)
  | XBin _ _ _ | XBlock _ | XAssign _ _ _ => False
  | XCall f _ => f <> read_path /\ f <> write_path
  | _ => True
  end.

(** The most recent binding of a local variable. *)
Inductive bound (s : str) (v : V) : list (str * V) -> Prop :=
| bound_here env : bound s v ((s, v) :: env)
| bound_later s' v' env : s <> s' -> bound s v env -> bound s v ((s', v') :: env).

(** [run env x v t]: with the local variables [env], [x] has the value [v] and
    makes the accesses [t], in this order. *)
Inductive run (env : list (str * V)) : rx -> V -> list (access V) -> Prop :=
| run_local s v : bound s v env -> run env (XPath [RId s]) v []
| run_prim x v t : is_prim env x -> prim env x v t -> run env x v t
| run_read x a v t : run env x a t -> run env (XCall read_path [x]) v (t ++ [ARead a v])
| run_bin op x y a b v t t' : run env x a t -> run env y b t' -> apply op a b v -> run env (XBin op x y) v (t ++ t')
| run_block b v t : run_body env b v t -> run env (XBlock b) v t
with run_body (env : list (str * V)) : rblock -> V -> list (access V) -> Prop :=
| body_value x v t : run env x v t -> run_body env (RB [] (Some x)) v t
| body_let kind s ty x l e a v t t' : run env x a t -> run_body ((s, a) :: env) (RB l e) v t' ->
    run_body env (RB (RsLet kind s ty x :: l) e) v (t ++ t')
| body_write x y l e a b v t t' t'' : run env x a t -> run env y b t' -> run_body env (RB l e) v t'' ->
    run_body env (RB (RsExpr (XCall write_path [x; y]) :: l) e) v (t ++ t' ++ AWrite a b :: t'').

(** The expression does not depend on a local variable. *)
Definition ignores (s : string) (x : rx) : Prop :=
  forall env a v t, prim ((st s, a) :: env) x v t <-> prim env x v t.
End Run.
