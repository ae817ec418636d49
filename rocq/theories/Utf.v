(** UTF-8 and UTF-16, as used by [str::as_bytes], [String::from_utf8],
    [str::encode_utf16], [String::from_utf16] (Rust std). *)
From Verif Require Import Base.
Local Open Scope N_scope.

(** [char::encode_utf8]. *)
Definition utf8_char (c : N) : list N :=
  if c <? 0x80 then [c]
  else if c <? 0x800 then [0xC0 + c / 64; 0x80 + c mod 64]
  else if c <? 0x10000 then [0xE0 + c / 4096; 0x80 + (c / 64) mod 64; 0x80 + c mod 64]
  else [0xF0 + c / 262144; 0x80 + (c / 4096) mod 64; 0x80 + (c / 64) mod 64; 0x80 + c mod 64].

(** [str::as_bytes]. *)
Definition utf8_encode (s : str) : list N := flat_map utf8_char s.

Definition is_cont (b : N) : bool := (0x80 <=? b) && (b <? 0xC0).

(** [String::from_utf8] / [str::from_utf8]: [None] for any byte sequence that
    is not well-formed UTF-8 (overlong forms, surrogates, values above
    0x10FFFF and stray or missing continuation bytes are rejected). *)
Fixpoint utf8_decode (l : list N) : option str :=
  match l with
  | [] => Some []
  | b0 :: l0 =>
    if b0 <? 0x80 then omap (cons b0) (utf8_decode l0)
    else if (0xC2 <=? b0) && (b0 <? 0xE0) then
      match l0 with
      | b1 :: l1 =>
        if is_cont b1 then omap (cons ((b0 - 0xC0) * 64 + (b1 - 0x80))) (utf8_decode l1) else None
      | _ => None
      end
    else if (0xE0 <=? b0) && (b0 <? 0xF0) then
      match l0 with
      | b1 :: b2 :: l2 =>
        let c := (b0 - 0xE0) * 4096 + (b1 - 0x80) * 64 + (b2 - 0x80) in
        if is_cont b1 && is_cont b2 && (0x800 <=? c) && is_scalar c
        then omap (cons c) (utf8_decode l2) else None
      | _ => None
      end
    else if (0xF0 <=? b0) && (b0 <? 0xF5) then
      match l0 with
      | b1 :: b2 :: b3 :: l3 =>
        let c := (b0 - 0xF0) * 262144 + (b1 - 0x80) * 4096 + (b2 - 0x80) * 64 + (b3 - 0x80) in
        if is_cont b1 && is_cont b2 && is_cont b3 && (0x10000 <=? c) && is_scalar c
        then omap (cons c) (utf8_decode l3) else None
      | _ => None
      end
    else None
  end.

(** [char::encode_utf16]. *)
Definition utf16_char (c : N) : list N :=
  if c <? 0x10000 then [c]
  else [0xD800 + (c - 0x10000) / 1024; 0xDC00 + (c - 0x10000) mod 1024].

(** [str::encode_utf16]. *)
Definition utf16_encode (s : str) : list N := flat_map utf16_char s.

Definition is_high (u : N) : bool := (0xD800 <=? u) && (u <? 0xDC00).
Definition is_low (u : N) : bool := (0xDC00 <=? u) && (u <? 0xE000).

(** [String::from_utf16]: [None] for unpaired surrogates. *)
Fixpoint utf16_decode (l : list N) : option str :=
  match l with
  | [] => Some []
  | u0 :: l0 =>
    if is_high u0 then
      match l0 with
      | u1 :: l1 =>
        if is_low u1
        then omap (cons (0x10000 + (u0 - 0xD800) * 1024 + (u1 - 0xDC00))) (utf16_decode l1)
        else None
      | [] => None
      end
    else if is_low u0 then None
    else omap (cons u0) (utf16_decode l0)
  end.
