(** Values of floating-point expressions (C65): C11 6.3.1.8, with IEEE 754
    arithmetic (annex F), evaluated in the types of the operands. *)
From Verif Require Import Base Ast LexFloat Rust SpecFloatLit.
From Coq Require Import String List SpecFloat Reals.
Import ListNotations.
Local Open Scope string_scope.
Local Open Scope list_scope.
Local Open Scope R_scope.

Definition is_float (l : lit_float) : bool := match l with FFloat _ => true | _ => false end.
Definition prec (single : bool) : Z := if single then 24 else 53.
Definition emax (single : bool) : Z := if single then 128 else 1024.
(** [r] is [z] rounded to the type, without overflow. *)
Definition rounds (single : bool) (z r : R) : Prop :=
  nearest_even (prec single) (emax single) z r /\ Rabs r < powerRZ 2 (emax single).
Inductive exact_result : binop -> R -> R -> R -> Prop :=
| er_add x y : exact_result OAdd x y (x + y)
| er_sub x y : exact_result OSub x y (x - y)
| er_mul x y : exact_result OMul x y (x * y)
| er_div x y : y <> 0 -> exact_result ODiv x y (x / y).

(** [c_float e single x]: [e] is an expression of floating-point constants, with
    signs and arithmetic, that has the value [x], and the type [float] if
    [single] and [double] or [long double] otherwise. *)
Inductive c_float : expr -> bool -> R -> Prop :=
| cf_constant s f ty m k r : float_constant s ty m k -> float_try_from s = Some f ->
    rounds (is_float f) (decimal_value m k) r -> c_float (ELit (LFloat f)) (is_float f) r
| cf_plus e t x : c_float e t x -> c_float (EUnary UPlus e) t x
| cf_minus e t x : c_float e t x -> c_float (EUnary UMinus e) t (- x)
| cf_op op l r t1 t2 x y z v : c_float l t1 x -> c_float r t2 y -> exact_result op x y z -> rounds (t1 && t2) z v ->
    c_float (EBinary l op r) (t1 && t2) v.

(** ** Constants of Rust *)

Definition float_name (single : bool) : string := if single then "f32" else "f64".
Definition float_width (single : bool) : Z := if single then 32%Z else 64%Z.
Definition special : list (string * spec_float) :=
  [("NAN", S754_nan); ("INFINITY", S754_infinity false); ("NEG_INFINITY", S754_infinity true)].
(** The number that tokens denote; [prefix] is the path of the standard library. *)
Inductive denotes (prefix : list rtok) (single : bool) : list rtok -> spec_float -> Prop :=
| dn_zero : denotes prefix single [RLit (RlFloat (float_width single) (S754_zero false))] (S754_zero false)
| dn_finite m e : denotes prefix single [RLit (RlFloat (float_width single) (S754_finite false m e))] (S754_finite false m e)
| dn_negative f x : denotes prefix single [RLit (RlFloat (float_width single) f)] x ->
    denotes prefix single [rp "-"; RLit (RlFloat (float_width single) f)] (SFopp x)
| dn_special n x : In (n, x) special -> denotes prefix single (prefix ++ [ri (float_name single); rp "::"; ri n]) x.
(** Its value. *)
Definition real_value (f : spec_float) (x : R) : Prop :=
  match f with
  | S754_zero _ => x = 0
  | S754_finite s m e => x = (if s then - IZR (Zpos m) else IZR (Zpos m)) * powerRZ 2 e
  | _ => False
  end.
