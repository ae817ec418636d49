(** Runs of adjacent string literal tokens. *)
From Verif Require Import Base Utf Lex LexFloat Token.
From Coq Require Import String List.
Import ListNotations.
Local Open Scope string_scope.
Local Open Scope list_scope.

Inductive str_kind := KOrdinary | KUtf8 | KUtf16 | KUtf32 | KWide.
Definition kind_of (s : lit_string) : str_kind :=
  match s with SOrdinary _ => KOrdinary | SUtf8 _ => KUtf8 | SUtf16 _ => KUtf16 | SUtf32 _ => KUtf32 | SWide _ => KWide end.
(** Bytes, characters or words, depending on the kind. *)
Definition content_of (s : lit_string) : list N :=
  match s with SOrdinary b => b | SUtf8 s => s | SUtf16 s => s | SUtf32 s => s | SWide w => w end.
Definition prefix_of (k : str_kind) : option str :=
  match k with KOrdinary => None | KUtf8 => Some (st "u8") | KUtf16 => Some (st "u") | KUtf32 => Some (st "U") | KWide => Some (st "L") end.

(** One literal that can continue a string of kind [k]: a literal of the same
    kind, or an ordinary literal, optionally after the prefix of [k] as a
    separate token; the bytes of an ordinary literal are read as UTF-8 text by
    the Unicode kinds and one by one by wide strings. *)
Inductive piece : str_kind -> list mtoken -> list N -> Prop :=
| piece_same s : piece (kind_of s) [MLit (LString s)] (content_of s)
| piece_ordinary k b c pre :
    k <> KOrdinary ->
    (pre = [] \/ exists p, prefix_of k = Some p /\ pre = [MIdent p]) ->
    (match k with KWide => c = b | _ => utf8_decode b = Some c end) ->
    piece k (pre ++ [MLit (LString (SOrdinary b))]) c.

(** No literal that continues a string of kind [k] starts [ts]. *)
Definition no_piece (k : str_kind) (ts : list mtoken) : Prop :=
  forall toks c r, piece k toks c -> ts <> toks ++ r.
