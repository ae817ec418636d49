(** The value of a C expression of integer constants. *)
From Verif Require Import Base Utf Lex LexFloat Token Ast.
From Coq Require Import List ZArith.
Local Open Scope Z_scope.

(** An integer type that operands have after promotion: signedness and width.
    The width is left open, so the specification covers every data model. *)
Definition int_ty : Type := (bool * Z)%type.
Definition promoted (t : int_ty) : Prop := 16 <= snd t <= 64.
Definition in_range (t : int_ty) (v : Z) : Prop :=
  if fst t then - 2 ^ (snd t - 1) <= v < 2 ^ (snd t - 1) else 0 <= v < 2 ^ snd t.

(** The usual arithmetic conversions (C23 6.3.1.8). *)
Definition common (a b : int_ty) : int_ty :=
  match a, b with
  | (true, x), (true, y) => (true, Z.max x y)
  | (false, x), (false, y) => (false, Z.max x y)
  | (true, s), (false, u) | (false, u), (true, s) => if u <? s then (true, s) else (false, u)
  end.

(** The mathematical result of an operator on operands of type [t]. *)
Inductive math (t : int_ty) : binop -> Z -> Z -> Z -> Prop :=
| m_add a b : math t OAdd a b (a + b)
| m_sub a b : math t OSub a b (a - b)
| m_mul a b : math t OMul a b (a * b)
| m_div a b q r : b <> 0 -> a = b * q + r -> Z.abs r < Z.abs b -> (r = 0 \/ Z.sgn r = Z.sgn a) -> math t ODiv a b q
| m_rem a b q r : b <> 0 -> a = b * q + r -> Z.abs r < Z.abs b -> (r = 0 \/ Z.sgn r = Z.sgn a) -> math t ORem a b r
| m_and a b r : (forall i, 0 <= i -> Z.testbit r i = (Z.testbit a i && Z.testbit b i)%bool) -> math t OBitAnd a b r
| m_or a b r : (forall i, 0 <= i -> Z.testbit r i = (Z.testbit a i || Z.testbit b i)%bool) -> math t OBitOr a b r
| m_xor a b r : (forall i, 0 <= i -> Z.testbit r i = xorb (Z.testbit a i) (Z.testbit b i)) -> math t OBitXor a b r.

(** No literal carries a suffix. *)
Fixpoint unsuffixed (e : expr) : Prop :=
  match e with
  | ELit (LInt i) => int_suffix i = None
  | EUnary _ e => unsuffixed e
  | EBinary a _ b => unsuffixed a /\ unsuffixed b
  | _ => True
  end.

(** [c_value e t v]: the expression has type [t] and value [v], and no operand,
    after conversion, and no intermediate result leaves the range of its type.
    A literal has any type that can hold it: the type depends on its spelling
    and on the platform. *)
Inductive c_value : expr -> int_ty -> Z -> Prop :=
| cv_lit i t : promoted t -> 0 <= int_value i -> in_range t (int_value i) -> c_value (ELit (LInt i)) t (int_value i)
| cv_plus e t v : c_value e t v -> c_value (EUnary UPlus e) t v
| cv_minus e t v : c_value e t v -> in_range t (- v) -> c_value (EUnary UMinus e) t (- v)
| cv_not e t v n : c_value e t v -> unsuffixed e -> promoted n -> fst n = true ->
    c_value (EUnary UNot e) n (if v =? 0 then 1 else 0)
| cv_arith op l r t1 t2 a b v : c_value l t1 a -> c_value r t2 b -> in_range (common t1 t2) a -> in_range (common t1 t2) b ->
    math (common t1 t2) op a b v -> in_range (common t1 t2) v -> c_value (EBinary l op r) (common t1 t2) v
| cv_shl l r t1 t2 a b : c_value l t1 a -> c_value r t2 b -> 0 <= a -> 0 <= b < snd t1 ->
    in_range t1 (a * 2 ^ b) -> c_value (EBinary l OShl r) t1 (a * 2 ^ b)
| cv_shr l r t1 t2 a b q : c_value l t1 a -> c_value r t2 b -> 0 <= b < snd t1 ->
    q * 2 ^ b <= a < (q + 1) * 2 ^ b -> c_value (EBinary l OShr r) t1 q.
