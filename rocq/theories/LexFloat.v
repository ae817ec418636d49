(** Model of src/ast/literal/float.rs (parsing and arithmetic) and of
    [Lit::parse_str] (src/ast/literal.rs).

    [f32] and [f64] are modelled by the standard library's [spec_float] at
    precision 24 / 53 (binary32 / binary64); this is executable and uses no
    axiom.  NaN payloads are not modelled (no operation of the crate can
    observe them). *)
From Verif Require Import Base Utf Lex.
From Coq Require Import String List SpecFloat.
Local Open Scope list_scope.
Local Open Scope N_scope.

(** [LitFloat], src/ast/literal/float.rs:45-53. *)
Inductive lit_float := FFloat (f : spec_float) | FDouble (f : spec_float) | FLongDouble (f : spec_float).

(** binary32 and binary64 parameters. *)
Definition f32_prec : Z := 24. Definition f32_emax : Z := 128.
Definition f64_prec : Z := 53. Definition f64_emax : Z := 1024.

(** The text recognised before the suffix: digits before the point, digits
    after it, and the exponent. *)
Record float_repr := mk_repr { fr_int : str; fr_frac : str; fr_exp : option (bool * str) }.

(** [decimal], src/ast/literal/float.rs:73: [.] followed by [digit1]. *)
Definition float_decimal (s : str) : option (str * str) :=
  s1 <-? char1 46 s ;; take_while1 is_digit s1.

(** [scientific], src/ast/literal/float.rs:74; [true] is a minus sign. *)
Definition float_scientific (s : str) : option (str * (bool * str)) :=
  s1 <-? tag_no_case "e" s ;;
  let '(s2, neg) := match char1 43 s1 with
                    | Some s2 => (s2, false)
                    | None => match char1 45 s1 with Some s2 => (s2, true) | None => (s1, false) end
                    end in
  r <-? take_while1 is_digit s2 ;; Some (fst r, (neg, snd r)).

Definition float_opt_scientific (s : str) : str * option (bool * str) :=
  match float_scientific s with Some (r, e) => (r, Some e) | None => (s, None) end.

(** [LitFloatSuffix::parse], src/ast/literal/float.rs:27-35; [true] is f/F. *)
Definition float_suffix (s : str) : option (str * bool) :=
  match tag_no_case "f" s with
  | Some r => Some (r, true)
  | None => match tag_no_case "l" s with Some r => Some (r, false) | None => None end
  end.

(** The recogniser, src/ast/literal/float.rs:78-90. *)
Definition float_recognize (s : str) : option (str * float_repr) :=
  (* 1.1 | .1 *)
  let p1 :=
    let '(i, s1) := take_while is_digit s in
    r <-? float_decimal s1 ;;
    let '(s2, e) := float_opt_scientific (fst r) in
    Some (s2, mk_repr i (snd r) e) in
  (* 1. *)
  let p2 :=
    r <-? take_while1 is_digit s ;; s1 <-? char1 46 (fst r) ;;
    let '(s2, e) := float_opt_scientific s1 in
    Some (s2, mk_repr (snd r) [] e) in
  (* 1e1 *)
  let p3 :=
    r <-? take_while1 is_digit s ;; r2 <-? float_scientific (fst r) ;;
    Some (fst r2, mk_repr (snd r) [] (Some (snd r2))) in
  oor p1 (oor p2 p3).

(** Value of a digit string. *)
Definition dec_val (s : str) : Z := fold_left (fun a c => a * 10 + (Z.of_N c - 48))%Z s 0%Z.

(** The exact decimal value of the recognised text is [m * 10 ^ k]. *)
Definition repr_mantissa (r : float_repr) : Z := dec_val (fr_int r ++ fr_frac r).
Definition repr_exponent (r : float_repr) : Z :=
  ((match fr_exp r with
    | None => 0
    | Some (neg, d) => if neg then - dec_val d else dec_val d
    end) - Z.of_nat (length (fr_frac r)))%Z.

(** [m * 10 ^ k] correctly rounded (ties to even): what [str::parse::<f32>] /
    [::<f64>] (std, used through nom's [parse_to]) return for a decimal. *)
Definition round_decimal (prec emax : Z) (m k : Z) : spec_float :=
  match m with
  | Zpos p =>
    if (0 <=? k)%Z then binary_normalize prec emax (Zpos p * 10 ^ k) 0 false
    else let '(q, e, l) := SFdiv_core_binary prec emax (Zpos p) 0 (10 ^ (- k)) 0 in
         binary_round_aux prec emax false q e l
  | _ => S754_zero false
  end.

Definition repr_value (prec emax : Z) (r : float_repr) : spec_float :=
  round_decimal prec emax (repr_mantissa r) (repr_exponent r).

(** [LitFloat::parse_str], src/ast/literal/float.rs:58-99. *)
Definition float_parse_str (s : str) : option (str * lit_float) :=
  r <-? float_recognize s ;;
  let '(s1, rp) := r in
  match float_suffix s1 with
  | Some (s2, true) => Some (s2, FFloat (repr_value f32_prec f32_emax rp))
  | Some (s2, false) => Some (s2, FLongDouble (repr_value f64_prec f64_emax rp))
  | None => Some (s1, FDouble (repr_value f64_prec f64_emax rp))
  end.

(** [LitFloat::try_from], src/ast/literal/float.rs:214-221. *)
Definition float_try_from (s : str) : option lit_float := all_consuming float_parse_str s.

(** [f as f64] for [f : f32] (exact). *)
Definition f32_to_f64 (f : spec_float) : spec_float :=
  match f with
  | S754_finite s m e => binary_normalize f64_prec f64_emax (cond_Zopp s (Zpos m)) e s
  | f => f
  end.

(** [impl Add/Sub/Mul/Div for LitFloat], src/ast/literal/float.rs:151-213. *)
Definition float_arith (op : Z -> Z -> spec_float -> spec_float -> spec_float) (a b : lit_float) : lit_float :=
  match a, b with
  | FFloat f1, FFloat f2 => FFloat (op f32_prec f32_emax f1 f2)
  | FFloat f1, (FDouble f2 | FLongDouble f2) => FDouble (op f64_prec f64_emax (f32_to_f64 f1) f2)
  | (FDouble f1 | FLongDouble f1), FFloat f2 => FDouble (op f64_prec f64_emax f1 (f32_to_f64 f2))
  | (FDouble f1 | FLongDouble f1), (FDouble f2 | FLongDouble f2) => FDouble (op f64_prec f64_emax f1 f2)
  end.

(** ** src/ast/literal.rs *)

(** [Lit], src/ast/literal.rs:29-40. *)
Inductive lit := LChar (c : lit_char) | LString (s : lit_string) | LFloat (f : lit_float) | LInt (i : lit_int).

(** [Lit::parse_str], src/ast/literal.rs:61-68. *)
Definition lit_parse_str (s : str) : option (str * lit) :=
  oor (omap (fun r => (fst r, LChar (snd r))) (char_parse_str s))
  (oor (omap (fun r => (fst r, LString (snd r))) (string_parse_str s))
  (oor (omap (fun r => (fst r, LFloat (snd r))) (float_parse_str s))
       (omap (fun r => (fst r, LInt (snd r))) (int_parse_str s)))).

(** [Lit::try_from], src/ast/literal.rs:112-119. *)
Definition lit_try_from (s : str) : option lit := all_consuming lit_parse_str s.
