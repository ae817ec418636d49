(** Specification of character and string literals. *)
From Verif Require Import Base Utf Lex SpecInt.
From Coq Require Import String List.
Local Open Scope string_scope.
Local Open Scope list_scope.

(** Simple escape sequences (C23 6.4.4.4, and \e): the letter after the backslash and the value. *)
Definition simple_escapes : list (N * N) :=
  [(97, 7); (98, 8); (101, 27); (102, 12); (110, 10); (114, 13); (116, 9); (118, 11);
   (92, 92); (39, 39); (34, 34); (63, 63)]%N.

(** An escape sequence without its backslash, and its value.  (C allows any
    number of digits after \x, this crate requires exactly two.) *)
Inductive escape : str -> N -> Prop :=
| es_simple c v : In (c, v) simple_escapes -> escape [c] v
| es_octal s v : numeral 8 s (Z.of_N v) -> length s <= 3 -> escape s v
| es_hex x s v : In x [120; 88]%N -> numeral 16 s (Z.of_N v) -> length s = 2 -> escape (x :: s) v
| es_u s v : numeral 16 s (Z.of_N v) -> length s = 4 -> escape (117%N :: s) v
| es_U s v : numeral 16 s (Z.of_N v) -> length s = 8 -> escape (85%N :: s) v.

(** [t] is an escape sequence that the following text [r] does not lengthen. *)
Definition maximal (t r : str) : Prop :=
  forall v d r', numeral 8 t v -> length t < 3 -> r = d :: r' -> ~ exists n, digit 8 d n.

(** The text between the quotes as a sequence of characters and escapes. *)
Inductive element := Raw (c : N) | Escaped (v : N).
Inductive elements : str -> list element -> Prop :=
| el_nil : elements [] []
| el_raw c s l : ~ In c [92; 34; 10]%N -> elements s l -> elements (c :: s) (Raw c :: l)
| el_escape t v s l : escape t v -> maximal t s -> elements s l -> elements (92%N :: t ++ s) (Escaped v :: l).

Definition scalar (c : N) : Prop := (c < 0xD800 \/ 0xE000 <= c < 0x110000)%N.

(** The code units of an element in UTF-8, UTF-16 and UTF-32; an escape
    stands for one code unit if it fits, otherwise for a character. *)
Definition code_units (limit : N) (encode : N -> list N) (e : element) (us : list N) : Prop :=
  match e with
  | Raw c => us = encode c
  | Escaped v => if (v <? limit)%N then us = [v] else scalar v /\ us = encode v
  end.
Definition all_units (limit : N) (encode : N -> list N) (l : list element) (us : list N) : Prop :=
  exists uss, Forall2 (code_units limit encode) l uss /\ us = concat uss.

Definition quoted_text (prefix : string) (body s : str) : Prop := s = st prefix ++ [34%N] ++ body ++ [34%N].

(** What a string literal means. *)
Inductive string_literal : str -> lit_string -> Prop :=
| sl_ordinary s body l bytes : quoted_text "" body s -> elements body l ->
    all_units 256 utf8_char l bytes -> string_literal s (SOrdinary bytes)
| sl_utf8 s body l t : quoted_text "u8" body s -> elements body l ->
    all_units 256 utf8_char l (utf8_encode t) -> Forall scalar t -> string_literal s (SUtf8 t)
| sl_utf16 s body l t : quoted_text "u" body s -> elements body l ->
    all_units 65536 utf16_char l (utf16_encode t) -> Forall scalar t -> string_literal s (SUtf16 t)
| sl_utf32 s body l t : quoted_text "U" body s -> elements body l ->
    all_units 0 (fun c => [c]) l t -> Forall scalar t -> string_literal s (SUtf32 t)
| sl_wide s body l ws : quoted_text "L" body s -> elements body l ->
    ws = map (fun e => match e with Raw c => c | Escaped v => v end) l -> string_literal s (SWide ws).

(** Character literals: prefix, largest value, result. *)
Definition char_kinds : list (string * option N * (N -> lit_char)) :=
  [("", Some 255%N, COrdinary); ("u8", Some 127%N, CUtf8); ("u", Some 65535%N, CUtf16); ("U", None, CUtf32); ("L", None, CWide)].
Inductive char_body : str -> N -> Prop :=
| cb_raw c : ~ In c [92; 39; 10]%N -> char_body [c] c
| cb_escape t v : escape t v -> char_body (92%N :: t) v.
Definition char_literal (s : str) (l : lit_char) : Prop :=
  exists prefix max mk body v, In (prefix, max, mk) char_kinds /\ s = st prefix ++ [39%N] ++ body ++ [39%N] /\
    char_body body v /\ match max with Some m => (v <= m)%N | None => True end /\ l = mk v.

(** A text and the spelling that escapes backslash, quote and newline. *)
Definition spell_char (quote c : N) : str :=
  if (c =? 92)%N then st "\\" else if (c =? quote)%N then [92; quote]%N else if (c =? 10)%N then st "\n" else [c].
Definition spell_text (t : str) : str := flat_map (spell_char 34) t.
