(** Model of the lexical parsers on strings:
    src/ast/{identifier,punctuation,comment,literal}.rs and
    src/ast/literal/{char,string,int}.rs.

    A nom 7 string parser [fn(&str) -> IResult<&str, A>] is modelled as
    [str -> option (str * A)] (remaining input, value); [nom::Err::Error] is
    [None] (the crate uses neither [cut] nor streaming input). *)
From Verif Require Import Base Utf.
From Coq Require Import String List.
Local Open Scope string_scope.
Local Open Scope list_scope.
Local Open Scope N_scope.

(** ** nom combinators *)

(** [tag]. *)
Definition tag (t : string) (s : str) : option str := strip_prefix (st t) s.

(** [to_lowercase] on the ASCII range; the tags compared below are single
    ASCII letters or digits that are not the lower case of any non-ASCII
    character, so this agrees with nom's Unicode comparison. *)
Definition lower (c : N) : N := if is_upper c then c + 32 else c.

(** [tag_no_case] (the pattern is given in lower case). *)
Fixpoint strip_prefix_nc (p s : str) : option str :=
  match p, s with
  | [], _ => Some s
  | x :: p', y :: s' => if x =? lower y then strip_prefix_nc p' s' else None
  | _ :: _, [] => None
  end.
Definition tag_no_case (t : string) (s : str) : option str := strip_prefix_nc (st t) s.

(** [char(c)]. *)
Definition char1 (c : N) (s : str) : option str :=
  match s with
  | x :: s' => if x =? c then Some s' else None
  | [] => None
  end.

(** [all_consuming(p)] followed by dropping the (empty) rest: the shape of all
    [TryFrom<&str>] impls. *)
Definition all_consuming {A} (p : str -> option (str * A)) (s : str) : option A :=
  match p s with
  | Some ([], a) => Some a
  | _ => None
  end.

(** [take_while1]-style parsers ([digit1], [hex_digit1], [oct_digit1],
    [is_a], [is_not]). *)
Definition take_while1 (p : N -> bool) (s : str) : option (str * str) :=
  match take_while p s with
  | ([], _) => None
  | (a, b) => Some (b, a)
  end.

(** [fold_many_m_n(m, n, digit, 0, |acc, d| acc * radix + d)] where [digit] is
    [map_opt(verify(anychar, |c| is_X_digit(c as u8)), |c| c.to_digit(radix))]
    (src/ast/literal.rs:152-157, 161-166, 179-184, 189-194).  The verified
    truncation [c as u8] is implied by [to_digit] succeeding and is not
    modelled separately. *)
Fixpoint digits_m_n (radix : N) (m n : nat) (acc : N) (s : str) : option (str * N) :=
  match n with
  | O => Some (s, acc)
  | S n' =>
    match s with
    | c :: s' =>
      match to_digit radix c with
      | Some d => digits_m_n radix (Nat.pred m) n' (acc * radix + d) s'
      | None => match m with O => Some (s, acc) | S _ => None end
      end
    | [] => match m with O => Some (s, acc) | S _ => None end
    end
  end.

(** ** src/ast/literal.rs *)

(** [simple_escape_sequence], src/ast/literal.rs:124-141. *)
Definition simple_escape (s : str) : option (str * N) :=
  match s with
  | [] => None
  | c :: s' =>
    let ret v := Some (s', v) in
    if c =? 97 (* a *) then ret 7
    else if c =? 98 (* b *) then ret 8
    else if c =? 101 (* e *) then ret 27
    else if c =? 102 (* f *) then ret 12
    else if c =? 110 (* n *) then ret 10
    else if c =? 114 (* r *) then ret 13
    else if c =? 116 (* t *) then ret 9
    else if c =? 118 (* v *) then ret 11
    else if (c =? 92) || (c =? 39) || (c =? 34) || (c =? 63) (* backslash ' dquote ? *) then ret c
    else None
  end.

(** [numeric_escape_sequence], src/ast/literal.rs:144-169. *)
Definition numeric_escape (s : str) : option (str * N) :=
  match digits_m_n 8 1 3 0 s with
  | Some r => Some r
  | None =>
    match tag_no_case "x" s with
    | Some s' => digits_m_n 16 2 2 0 s'
    | None => None
    end
  end.

(** [universal_char], src/ast/literal.rs:172-199. *)
Definition universal_char (s : str) : option (str * N) :=
  match (match char1 117 s with Some s' => digits_m_n 16 4 4 0 s' | None => None end) with
  | Some r => Some r
  | None => match char1 85 s with Some s' => digits_m_n 16 8 8 0 s' | None => None end
  end.

(** [escaped_char], src/ast/literal.rs:202-209. *)
Definition escaped_char (s : str) : option (str * N) :=
  match char1 92 s with
  | None => None
  | Some s' => oor (simple_escape s') (oor (numeric_escape s') (universal_char s'))
  end.

(** [unescaped_char], src/ast/literal.rs:212-219. *)
Definition unescaped_char (s : str) : option (str * N) :=
  match s with
  | c :: s' => if (c =? 92) || (c =? 39) || (c =? 10) then None else Some (s', c)
  | [] => None
  end.

(** ** src/ast/identifier.rs *)
Section Ident.
Context `{Unicode}.

(** [is_identifier_start], src/ast/identifier.rs:18-20. *)
Definition is_identifier_start (c : N) : bool := is_xid_start c || (c =? 95).

(** [is_identifier], src/ast/identifier.rs:22-30. *)
Definition is_identifier (s : str) : bool :=
  match s with
  | c :: s' => is_identifier_start c && forallb is_xid_continue s'
  | [] => false
  end.

(** The [identifier_char] parser, src/ast/identifier.rs:54 and 112:
    [alt((map_opt(preceded(char('\\'), universal_char), char::from_u32), anychar))]. *)
Definition identifier_char (s : str) : option (str * N) :=
  let escaped := s' <-? char1 92 s ;; r <-? universal_char s' ;;
                 c <-? char_from_u32 (snd r) ;; Some (fst r, c) in
  oor escaped (match s with c :: s' => Some (s', c) | [] => None end).

(** [fold_many0(verify(identifier_char, is_xid_continue), ...)],
    src/ast/identifier.rs:58-65: every accepted character consumes input, so
    the length of the input bounds the number of iterations. *)
Fixpoint id_chars (fuel : nat) (s : str) : str * str :=
  match fuel with
  | O => (s, [])
  | S f =>
    match identifier_char s with
    | Some (s', c) =>
      if is_xid_continue c then let (r, cs) := id_chars f s' in (r, c :: cs) else (s, [])
    | None => (s, [])
    end
  end.

(** [Identifier::parse_str], src/ast/identifier.rs:44-68. *)
Definition identifier_parse_str (s : str) : option (str * str) :=
  match s with
  | c :: s' =>
    if is_identifier_start c
    then let (a, b) := take_while is_xid_continue s' in Some (b, c :: a)
    else
      match identifier_char s with
      | Some (s1, c1) =>
        if is_identifier_start c1
        then let (r, cs) := id_chars (length s1) s1 in Some (r, c1 :: cs)
        else None
      | None => None
      end
  | [] => None
  end.

(** [Identifier::try_from], src/ast/identifier.rs:84-91. *)
Definition identifier_try_from (s : str) : option str := all_consuming identifier_parse_str s.

(** [IdentifierContinue::parse_str], src/ast/identifier.rs:105-123. *)
Definition identifier_continue_parse_str (s : str) : option (str * str) :=
  match take_while1 is_xid_continue s with
  | Some r => Some r
  | None =>
    match id_chars (length s) s with
    | (_, []) => None
    | (r, cs) => Some (r, cs)
    end
  end.

(** [IdentifierContinue::try_from], src/ast/identifier.rs:130-137. *)
Definition identifier_continue_try_from (s : str) : option str :=
  all_consuming identifier_continue_parse_str s.
End Ident.

(** ** src/ast/punctuation.rs *)

(** The list at src/ast/punctuation.rs:87-91. *)
Definition puncts : list str := map st
  ["["; "]"; "("; ")"; "{"; "}"; "."; "->"; "++"; "--"; "&"; "*"; "+"; "-"; "~"; "!"; "/"; "%";
   "<<"; ">>"; "<"; ">"; "<="; ">="; "=="; "!="; "^"; "|"; "&&"; "||"; "?"; ":"; ";"; "..."; "=";
   "*="; "/="; "%="; "+="; "-="; "<<="; ">>="; "&="; "^="; "|="; ","; "#"; "##"; "<:"; ":>"; "<%";
   "%>"; "%:"; "%:%:"].

(** [Punctuation::try_from], src/ast/punctuation.rs:54-65.  Each recursive
    call strips at least two characters; the length bounds the depth. *)
Fixpoint punct_try_from_aux (fuel : nat) (s : str) : option str :=
  if str_mem s puncts then Some s
  else match fuel with
       | O => None
       | S f =>
         match oor (strip_prefix [92; 10] s) (strip_prefix [92; 13; 10] s) with
         | Some s' => punct_try_from_aux f s'
         | None => None
         end
       end.
Definition punct_try_from (s : str) : option str := punct_try_from_aux (length s) s.

(** The table of [Punctuation::concat], src/ast/punctuation.rs:16-46. *)
Definition punct_concat_table : list (string * string * string) :=
  [("-", ">", "->"); ("+", "+", "++"); ("-", "-", "--"); ("<", "<", "<<"); (">", ">", ">>");
   ("<", "=", "<="); (">", "=", ">="); ("=", "=", "=="); ("!", "=", "!="); ("&", "&", "&&");
   ("|", "|", "||"); ("*", "=", "*="); ("/", "=", "/="); ("%", "=", "%="); ("+", "=", "+=");
   ("-", "=", "-="); ("<<", "=", "<<="); ("<", "<=", "<<="); (">>", "=", ">>="); (">", ">=", ">>=");
   ("&", "=", "&="); ("^", "=", "^="); ("|", "=", "|="); ("#", "#", "##"); ("<", ":", "<:");
   (":", ">", ":>"); ("<", "%", "<%"); ("%", ">", "%>"); ("%", ":", "%:"); ("%:", "%:", "%:%:")].

(** [Punctuation::concat], src/ast/punctuation.rs:13-49. *)
Definition punct_concat (a b : str) : option str :=
  match find (fun e => str_eqb a (st (fst (fst e))) && str_eqb b (st (snd (fst e)))) punct_concat_table with
  | Some e => Some (st (snd e))
  | None => None
  end.

(** ** src/ast/comment.rs *)

(** [take_until] of the comment terminator (42, 47): everything before its
    first occurrence. *)
Fixpoint take_until_star_slash (s : str) : option (str * str) :=
  match strip_prefix [42; 47] s with
  | Some _ => Some (s, [])
  | None =>
    match s with
    | [] => None
    | c :: s' =>
      match take_until_star_slash s' with
      | Some (r, a) => Some (r, c :: a)
      | None => None
      end
    end
  end.

(** [Comment::try_from], src/ast/comment.rs:15-22. *)
Definition comment_try_from (s : str) : option str :=
  s1 <-? tag "/*" s ;; r <-? take_until_star_slash s1 ;; s2 <-? tag "*/" (fst r) ;;
  match s2 with [] => Some (snd r) | _ => None end.

(** ** src/ast/ty.rs: the built-in types (lines 19-62) *)
Inductive builtin :=
| BFloat | BDouble | BLongDouble | BBool | BChar | BSChar | BUChar | BChar8T | BChar16T | BChar32T
| BShort | BUShort | BInt | BUInt | BLong | BULong | BLongLong | BULongLong | BSizeT | BSSizeT | BVoid.

Definition builtin_eq_dec (a b : builtin) : {a = b} + {a <> b}.
Proof. decide equality. Defined.

(** ** src/ast/literal/char.rs *)

(** [LitCharPrefix], src/ast/literal/char.rs:20-26. *)
Inductive char_prefix := PUtf8 | PUtf16 | PUtf32 | PWide.

(** [LitChar], src/ast/literal/char.rs:44-75. *)
Inductive lit_char :=
| COrdinary (c : N) | CUtf8 (c : N) | CUtf16 (c : N) | CUtf32 (c : N) | CWide (c : N).

(** [LitCharPrefix::parse], src/ast/literal/char.rs:29-40. *)
Definition char_prefix_parse (s : str) : option (str * char_prefix) :=
  match tag "u8" s with
  | Some r => Some (r, PUtf8)
  | None =>
    match char1 117 s with
    | Some r => Some (r, PUtf16)
    | None =>
      match char1 85 s with
      | Some r => Some (r, PUtf32)
      | None => match char1 76 s with Some r => Some (r, PWide) | None => None end
      end
    end
  end.

(** [LitChar::parse_unprefixed], src/ast/literal/char.rs:82-84. *)
Definition char_parse_unprefixed (s : str) : option (str * N) :=
  s1 <-? char1 39 s ;; r <-? oor (escaped_char s1) (unescaped_char s1) ;;
  s2 <-? char1 39 (fst r) ;; Some (s2, snd r).

(** [LitChar::with_prefix], src/ast/literal/char.rs:86-95. *)
Definition char_with_prefix (p : option char_prefix) (c : N) : option lit_char :=
  match p with
  | None => if c <=? 0xff then Some (COrdinary c) else None
  | Some PUtf8 => if c <=? 0x7f then Some (CUtf8 c) else None
  | Some PUtf16 => if c <=? 0xffff then Some (CUtf16 c) else None
  | Some PUtf32 => Some (CUtf32 c)
  | Some PWide => Some (CWide c)
  end.

(** [LitChar::parse_str], src/ast/literal/char.rs:78-80. *)
Definition char_parse_str (s : str) : option (str * lit_char) :=
  let '(s1, p) := match char_prefix_parse s with Some (r, p) => (r, Some p) | None => (s, None) end in
  r <-? char_parse_unprefixed s1 ;; c <-? char_with_prefix p (snd r) ;; Some (fst r, c).

(** [LitChar::try_from], src/ast/literal/char.rs:193-200. *)
Definition char_try_from (s : str) : option lit_char := all_consuming char_parse_str s.

(** ** src/ast/literal/string.rs *)

(** [LitString], src/ast/literal/string.rs:33-64. *)
Inductive lit_string :=
| SOrdinary (bytes : list N) | SUtf8 (s : str) | SUtf16 (s : str) | SUtf32 (s : str) | SWide (words : list N).

(** [is_not] of backslash, double quote and newline. *)
Definition plain_run (s : str) : option (str * str) :=
  take_while1 (fun c => negb ((c =? 92) || (c =? 34) || (c =? 10))) s.

(** [fold_many0(alt((p, q)), ...)] collecting the items; each item consumes
    input, so the length of the input bounds the number of iterations. *)
Fixpoint many_items {A} (item : str -> option (str * A)) (fuel : nat) (s : str) : str * list A :=
  match fuel with
  | O => (s, [])
  | S f =>
    match item s with
    | Some (s', a) => let (r, l) := many_items item f s' in (r, a :: l)
    | None => (s, [])
    end
  end.

(** [delimited] by double quotes of [fold_many0(item)]. *)
Definition quoted {A} (item : str -> option (str * A)) (s : str) : option (str * list A) :=
  s1 <-? char1 34 s ;;
  let (s2, l) := many_items item (length s1) s1 in
  s3 <-? char1 34 s2 ;; Some (s3, l).

(** One item of [parse_ordinary], src/ast/literal/string.rs:73-85. *)
Definition ordinary_item (s : str) : option (str * list N) :=
  let esc := r <-? escaped_char s ;;
    if snd r <? 256 then Some (fst r, [snd r])
    else c <-? char_from_u32 (snd r) ;; Some (fst r, utf8_char c) in
  oor esc (r <-? plain_run s ;; Some (fst r, utf8_encode (snd r))).

(** [LitString::parse_ordinary], src/ast/literal/string.rs:68-98. *)
Definition string_parse_ordinary (s : str) : option (str * list N) :=
  r <-? quoted ordinary_item s ;; Some (fst r, concat (snd r)).

(** [LitString::parse_utf8], src/ast/literal/string.rs:100-107. *)
Definition string_parse_utf8 (s : str) : option (str * str) :=
  r <-? string_parse_ordinary s ;; t <-? utf8_decode (snd r) ;; Some (fst r, t).

(** [Part], src/ast/literal/string.rs:110-122. *)
Inductive part := PartVec (v : list N) | PartString (s : str).
Definition part_into_vec (p : part) : list N :=
  match p with PartVec v => v | PartString s => utf16_encode s end.

(** One item of [parse_utf16], src/ast/literal/string.rs:128-139. *)
Definition utf16_item (s : str) : option (str * part) :=
  let esc := r <-? escaped_char s ;;
    if snd r <? 65536 then Some (fst r, PartVec [snd r])
    else c <-? char_from_u32 (snd r) ;; Some (fst r, PartVec (utf16_char c)) in
  oor esc (r <-? plain_run s ;; Some (fst r, PartString (snd r))).

(** The accumulator of [parse_utf16], src/ast/literal/string.rs:141-152. *)
Definition part_append (acc c : part) : part :=
  match acc, c with
  | PartString [], c => c
  | PartString s, PartString c => PartString (s ++ c)
  | s, c => PartVec (part_into_vec s ++ part_into_vec c)
  end.

(** [LitString::parse_utf16], src/ast/literal/string.rs:109-163. *)
Definition string_parse_utf16 (s : str) : option (str * str) :=
  r <-? quoted utf16_item s ;;
  match fold_left part_append (snd r) (PartString []) with
  | PartString t => Some (fst r, t)
  | PartVec v => t <-? utf16_decode v ;; Some (fst r, t)
  end.

(** One item of [parse_utf32], src/ast/literal/string.rs:175-178. *)
Definition utf32_item (s : str) : option (str * str) :=
  oor (r <-? escaped_char s ;; c <-? char_from_u32 (snd r) ;; Some (fst r, [c])) (plain_run s).

(** [LitString::parse_utf32], src/ast/literal/string.rs:165-198. *)
Definition string_parse_utf32 (s : str) : option (str * str) :=
  r <-? quoted utf32_item s ;; Some (fst r, concat (snd r)).

(** One item of [parse_wide], src/ast/literal/string.rs:201. *)
Definition wide_item (s : str) : option (str * N) :=
  oor (escaped_char s)
    (match s with
     | c :: s' => if (c =? 92) || (c =? 34) || (c =? 10) then None else Some (s', c)
     | [] => None
     end).

(** [LitString::parse_wide], src/ast/literal/string.rs:200-202. *)
Definition string_parse_wide (s : str) : option (str * list N) := quoted wide_item s.

(** [LitString::parse_str], src/ast/literal/string.rs:204-212. *)
Definition string_parse_str (s : str) : option (str * lit_string) :=
  let p1 := r <-? string_parse_ordinary s ;; Some (fst r, SOrdinary (snd r)) in
  let p2 := s' <-? tag "u8" s ;; r <-? string_parse_utf8 s' ;; Some (fst r, SUtf8 (snd r)) in
  let p3 := s' <-? tag "u" s ;; r <-? string_parse_utf16 s' ;; Some (fst r, SUtf16 (snd r)) in
  let p4 := s' <-? tag "U" s ;; r <-? string_parse_utf32 s' ;; Some (fst r, SUtf32 (snd r)) in
  let p5 := s' <-? tag "L" s ;; r <-? string_parse_wide s' ;; Some (fst r, SWide (snd r)) in
  oor p1 (oor p2 (oor p3 (oor p4 p5))).

(** [LitString::try_from], src/ast/literal/string.rs:544-551. *)
Definition string_try_from (s : str) : option lit_string := all_consuming string_parse_str s.

(** ** src/ast/literal/int.rs *)

(** [LitInt], src/ast/literal/int.rs:61-67. *)
Record lit_int := mk_int { int_value : Z; int_suffix : option builtin }.

Definition i128_max : Z := (2 ^ 127 - 1)%Z.

(** [LitInt::parse_i128(base)], src/ast/literal/int.rs:70-85: checked
    multiply-add; [to_digit(base).unwrap()] cannot fail on the digits it is
    applied to (the digit parsers guarantee it), failure is [None] here too. *)
Fixpoint parse_i128_from (base : N) (value : Z) (s : str) : option Z :=
  match s with
  | [] => Some value
  | c :: s' =>
    match to_digit base c with
    | None => None
    | Some d =>
      let v1 := (value * Z.of_N base)%Z in
      if (v1 <=? i128_max)%Z then
        let v2 := (v1 + Z.of_N d)%Z in
        if (v2 <=? i128_max)%Z then parse_i128_from base v2 s' else None
      else None
    end
  end.
Definition parse_i128 (base : N) (s : str) : option Z := parse_i128_from base 0 s.

(** [LitIntSizeSuffix], src/ast/literal/int.rs:34-52. *)
Inductive size_suffix := SzLongLong | SzLong | SzSizeT.

Definition size_suffix_parse (s : str) : option (str * size_suffix) :=
  match oor (tag "ll" s) (tag "LL" s) with
  | Some r => Some (r, SzLongLong)
  | None =>
    match tag_no_case "l" s with
    | Some r => Some (r, SzLong)
    | None => match tag_no_case "z" s with Some r => Some (r, SzSizeT) | None => None end
    end
  end.

(** [LitInt::parse_suffix], src/ast/literal/int.rs:87-106; the first component
    says whether [u]/[U] is present. *)
Definition int_parse_suffix (s : str) : option (bool * option size_suffix) :=
  all_consuming (fun s =>
    match tag_no_case "u" s with
    | Some s1 =>
      match size_suffix_parse s1 with
      | Some (s2, z) => Some (s2, (true, Some z))
      | None => Some (s1, (true, None))
      end
    | None =>
      match size_suffix_parse s with
      | Some (s1, z) =>
        match tag_no_case "u" s1 with
        | Some s2 => Some (s2, (true, Some z))
        | None => Some (s1, (false, Some z))
        end
      | None => match s with [] => Some ([], (false, None)) | _ => None end
      end
    end) s.

(** The suffix table, src/ast/literal/int.rs:130-139. *)
Definition suffix_type (u : bool) (z : option size_suffix) : option builtin :=
  match u, z with
  | false, None => None
  | true, None => Some BUInt
  | true, Some SzLong => Some BULong
  | false, Some SzLong => Some BLong
  | true, Some SzLongLong => Some BULongLong
  | false, Some SzLongLong => Some BLongLong
  | true, Some SzSizeT => Some BSizeT
  | false, Some SzSizeT => Some BSSizeT
  end.

Definition is_radix_digit (radix c : N) : bool :=
  match to_digit radix c with Some _ => true | None => false end.

(** The [digits] alternatives, src/ast/literal/int.rs:121-126. *)
Definition int_digits (s : str) : option (str * Z) :=
  let hex := s1 <-? tag_no_case "0x" s ;; r <-? take_while1 (is_radix_digit 16) s1 ;;
             v <-? parse_i128 16 (snd r) ;; Some (fst r, v) in
  let bin := s1 <-? tag_no_case "0b" s ;; r <-? take_while1 (is_radix_digit 2) s1 ;;
             v <-? parse_i128 2 (snd r) ;; Some (fst r, v) in
  let oct := s1 <-? tag "0" s ;; r <-? take_while1 (is_radix_digit 8) s1 ;;
             v <-? parse_i128 8 (snd r) ;; Some (fst r, v) in
  let dec := r <-? take_while1 is_digit s ;; v <-? parse_i128 10 (snd r) ;; Some (fst r, v) in
  oor hex (oor bin (oor oct dec)).

(** [LitInt::parse_str], src/ast/literal/int.rs:108-142 (the suffix parser is
    itself [all_consuming], so success consumes everything). *)
Definition int_parse_str (s : str) : option (str * lit_int) :=
  r <-? int_digits s ;; z <-? int_parse_suffix (fst r) ;;
  Some ([], mk_int (snd r) (suffix_type (fst z) (snd z))).

(** [LitInt::try_from], src/ast/literal/int.rs:296-303. *)
Definition int_try_from (s : str) : option lit_int := all_consuming int_parse_str s.
