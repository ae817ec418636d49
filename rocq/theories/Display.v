(** Model of the messages of the errors: the [Display] instances of src/error.rs and of
    src/macro_set/mod.rs. *)
From Verif Require Import Base Token ParseStmt Rust.
From Coq Require Import NArith String List.
Local Open Scope list_scope.
Local Open Scope N_scope.

(** The digit [d] in lower case, as [std::fmt] writes it in base 10 and in base 16. *)
Definition digit_char (d : N) : N := if d <? 10 then 48 + d else 87 + d.

(** [n] in base [b] before [acc], most significant digit first; [fuel] bounds the number of digits. *)
Fixpoint digits (b : N) (fuel : nat) (n : N) (acc : str) : str :=
  match fuel with
  | O => acc
  | S f => let acc := digit_char (n mod b) :: acc in if n / b =? 0 then acc else digits b f (n / b) acc
  end.

(** A number as [std::fmt] writes it without padding: base 10 for [usize] (src/macro_set/mod.rs:95),
    base 16 within [\u{...}].  A number has at most as many digits as bits. *)
Definition number (b n : N) : str := digits b (S (N.to_nat (N.size n))) n [].

(** How [fmt::Debug for str] writes one character ([char::escape_debug_ext] of the standard library,
    used at src/macro_set/mod.rs:93).  Which other characters are written as they are depends on
    the tables of Unicode in the standard library, here the parameter [pr]. *)
Definition debug_char (pr : N -> bool) (c : N) : str :=
  if c =? 0 then st "\0"
  else if c =? 9 then st "\t"
  else if c =? 13 then st "\r"
  else if c =? 10 then st "\n"
  else if (c =? 34) || (c =? 92) then [92; c]
  else if pr c then [c]
  else st "\u{" ++ number 16 c ++ st "}".

(** [{:?}] of a string, src/macro_set/mod.rs:93. *)
Definition debug_str (pr : N -> bool) (s : str) : str := [34] ++ concat (map (debug_char pr) s) ++ [34].

(** [Display for ParserError], src/error.rs:14-22. *)
Definition parser_message (e : parser_error) : str :=
  match e with
  | InvalidMacroName => st "invalid macro name"
  | InvalidMacroArgs => st "invalid macro arguments"
  | InvalidMacroBody => st "invalid macro body"
  end.

(** [Display for CodegenError], src/error.rs:41-51. *)
Definition codegen_message (e : cgerr) : str :=
  match e with
  | RecursiveDefinition n => st "recursive macro definition " ++ n
  | NonExpressionVarMacro => st "non-expression variable-like macro"
  | NonConstantVarMacro => st "non-constant variable-like macro"
  | UnsupportedExpression x => st "unsupported expression: " ++ x
  | UnsupportedType t => st "unsupported type " ++ t
  end.

(** [Display for ExpansionError], src/macro_set/mod.rs:89-106. *)
Definition expansion_message (pr : N -> bool) (e : xerr) : str :=
  match e with
  | MacroNotFound => st "macro not found"
  | InvalidToken t => st "macro contains an invalid token: " ++ debug_str pr t
  | FnMacroArgumentError name required given =>
      st "macro " ++ name ++ st " requires " ++ number 10 (N.of_nat required) ++
      st " arguments, " ++ number 10 (N.of_nat given) ++ st " given"
  | ConcatBegin => st "macro starts with `##`"
  | ConcatEnd => st "macro ends with `##`"
  | NonVariadicVarArgs => st "`__VA_ARGS__` found in non-variadic macro"
  | NonUniqueArgument a => st "macro argument " ++ a ++ st " is not unique"
  | StringifyNonArgument => st "`#` is not followed by a macro argument"
  | InvalidConcat => st "concatenation does not produce a valid pre-processing token"
  | InvalidArgumentName => st "argument name is not an identifier"
  end.
