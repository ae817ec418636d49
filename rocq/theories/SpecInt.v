(** Specification of C integer constants (C23 6.4.4.1, with the [z] suffixes of
    C++23), independent of the model. *)
From Verif Require Import Base Lex.
From Coq Require Import String List.
Local Open Scope string_scope.
Local Open Scope list_scope.

(** The character [c] is a digit of value [d] in base [base]. *)
Definition digit (base c : N) (d : Z) : Prop :=
  (((48 <= c <= 57)%N /\ d = (Z.of_N c - 48)%Z) \/ ((97 <= c <= 102)%N /\ d = (Z.of_N c - 87)%Z) \/
   ((65 <= c <= 70)%N /\ d = (Z.of_N c - 55)%Z)) /\ (d < Z.of_N base)%Z.

(** A non-empty string of digits and its value in positional notation. *)
Inductive numeral (base : N) : str -> Z -> Prop :=
| num_digit c d : digit base c d -> numeral base [c] d
| num_more s v c d : numeral base s v -> digit base c d -> numeral base (s ++ [c]) (v * Z.of_N base + d)%Z.

(** An integer constant without suffix: decimal constants do not start with
    0, octal constants (among them 0) do. *)
Inductive constant : str -> Z -> Prop :=
| k_decimal s v : numeral 10 s v -> (forall r, s <> st "0" ++ r) -> constant s v
| k_octal_zero : constant (st "0") 0
| k_octal s v : numeral 8 s v -> constant (st "0" ++ s) v
| k_hex p s v : In p (map st ["0x"; "0X"]) -> numeral 16 s v -> constant (p ++ s) v
| k_binary p s v : In p (map st ["0b"; "0B"]) -> numeral 2 s v -> constant (p ++ s) v.

Definition u_suffix : list str := map st ["u"; "U"].
(** Size suffixes with the signed and the unsigned type. *)
Definition size_suffixes : list (str * (builtin * builtin)) :=
  [(st "l", (BLong, BULong)); (st "L", (BLong, BULong)); (st "ll", (BLongLong, BULongLong)); (st "LL", (BLongLong, BULongLong));
   (st "z", (BSSizeT, BSizeT)); (st "Z", (BSSizeT, BSizeT))].

Inductive suffixed : str -> option builtin -> Prop :=
| sx_none : suffixed [] None
| sx_u u : In u u_suffix -> suffixed u (Some BUInt)
| sx_size z ts tu : In (z, (ts, tu)) size_suffixes -> suffixed z (Some ts)
| sx_u_size u z ts tu : In u u_suffix -> In (z, (ts, tu)) size_suffixes -> suffixed (u ++ z) (Some tu)
| sx_size_u u z ts tu : In u u_suffix -> In (z, (ts, tu)) size_suffixes -> suffixed (z ++ u) (Some tu).

(** The largest value of a signed 128-bit integer. *)
Definition int_max : Z := 170141183460469231731687303715884105727.

Definition int_literal (s : str) (v : Z) (ty : option builtin) : Prop :=
  exists c sx, s = c ++ sx /\ constant c v /\ suffixed sx ty /\ (v <= int_max)%Z.

(** Not C, but accepted: decimal digits that start with 0 followed by 8 or 9. *)
Definition misread_decimal (s : str) (v : Z) (ty : option builtin) : Prop :=
  exists c sx r, s = c ++ sx /\ (c = st "08" ++ r \/ c = st "09" ++ r) /\ numeral 10 c v /\ suffixed sx ty /\ (v <= int_max)%Z.
