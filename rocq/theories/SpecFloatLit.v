(** Specification of C decimal floating constants (C11 6.4.4.2) and of IEEE
    754 round-to-nearest, independent of the model. *)
From Verif Require Import Base SpecInt LexFloat.
From Coq Require Import String List SpecFloat Reals.
Local Open Scope string_scope.
Local Open Scope list_scope.

(** An exponent part: its text and its value. *)
Inductive exponent_part : str -> Z -> Prop :=
| xp e sign ds v : In e (map st ["e"; "E"]) -> In sign (map st [""; "+"]) -> numeral 10 ds v -> exponent_part (e ++ sign ++ ds) v
| xp_minus e ds v : In e (map st ["e"; "E"]) -> numeral 10 ds v -> exponent_part (e ++ st "-" ++ ds) (- v).

(** An unsuffixed constant denotes [m * 10 ^ k]. *)
Inductive decimal : str -> Z -> Z -> Prop :=
| dec_point i f x m k : numeral 10 (i ++ f) m -> (x = [] /\ k = 0%Z \/ exponent_part x k) ->
    decimal (i ++ st "." ++ f ++ x) m (k - Z.of_nat (length f))
| dec_integer i x m k : numeral 10 i m -> exponent_part x k -> decimal (i ++ x) m k.

(** Types and suffixes.  A [long double] is kept as a binary64 number. *)
Record float_type := mk_type { ft_prec : Z; ft_emax : Z; ft_lit : spec_float -> lit_float }.
Definition float_types : list (list str * float_type) :=
  [([[]], mk_type 53 1024 FDouble); (map st ["f"; "F"], mk_type 24 128 FFloat); (map st ["l"; "L"], mk_type 53 1024 FLongDouble)].

Inductive float_constant : str -> float_type -> Z -> Z -> Prop :=
| flc s sx m k ss ty : decimal s m k -> In (ss, ty) float_types -> In sx ss -> float_constant (s ++ sx) ty m k.

(** ** Rounding *)
Local Open Scope R_scope.

Definition decimal_value (m k : Z) : R := IZR m * powerRZ 10 k.

(** [y] is a binary floating-point number of precision [prec] with exponents
    from [3 - emax - prec] on, without an upper limit. *)
Definition fp_repr (prec emax : Z) (y : R) (m e : Z) : Prop :=
  (Z.abs m < 2 ^ prec)%Z /\ (3 - emax - prec <= e)%Z /\ y = IZR m * powerRZ 2 e.
Definition fp_number (prec emax : Z) (y : R) : Prop := exists m e, fp_repr prec emax y m e.

(** [r] is the one nearest to [x]; of two equally near ones it is the one with
    an even significand. *)
Definition nearest_even (prec emax : Z) (x r : R) : Prop :=
  fp_number prec emax r /\
  (forall y, fp_number prec emax y -> Rabs (r - x) <= Rabs (y - x)) /\
  (forall y, fp_number prec emax y -> y <> r -> Rabs (y - x) = Rabs (r - x) -> exists m e, Z.even m = true /\ fp_repr prec emax r m e).

(** The value [f] is [x] rounded: overflow gives an infinity. *)
Definition rounded (prec emax : Z) (x : R) (f : spec_float) : Prop :=
  exists r, nearest_even prec emax x r /\
  match f with
  | S754_zero _ => r = 0
  | S754_finite s m e => r = (if s then - IZR (Zpos m) else IZR (Zpos m)) * powerRZ 2 e /\ Rabs r < powerRZ 2 emax
  | S754_infinity s => powerRZ 2 emax <= Rabs r /\ (s = true <-> x < 0)
  | S754_nan => False
  end.
