(** The text of strings that are made of several parts (C67): in the macro, and
    in the generated code. *)
From Verif Require Import Base Utf Lex LexFloat Token Ast Rust SpecRust.
From Coq Require Import String List.
Import ListNotations.
Local Open Scope string_scope.
Local Open Scope list_scope.

(** Who uses the generated macro gives for each parameter a text, which may be a
    string literal, in some source file. *)
Record user := mk_user { spelled : str -> str; literal : str -> option str; source : str }.

Section Text.
Variable u : user.

(** ** In the macro *)

(** One part: a literal, [#x], [x] and [__FILE__]. *)
Inductive literal_part : expr -> list N -> Prop :=
| LP_ordinary b : literal_part (ELit (LString (SOrdinary b))) b
| LP_utf8 s : literal_part (ELit (LString (SUtf8 s))) (utf8_encode s).
Inductive other_part (params : list str) : expr -> list N -> Prop :=
| OP_spelled i x : nth_error params i = Some x -> x <> st "..." -> other_part params (EStringify (EVar (IArg i))) (utf8_encode (spelled u x))
| OP_given i x s : nth_error params i = Some x -> x <> st "..." -> literal u x = Some s -> other_part params (EVar (IArg i)) (utf8_encode s)
| OP_file : other_part params (EVar (IPlain (st "__FILE__"))) (utf8_encode (source u)).
(** Adjacent parts: literals only, or none. *)
Inductive text_of (params : list str) : expr -> list N -> Prop :=
| TO_literal e b : literal_part e b -> text_of params e b
| TO_spelled i x : nth_error params i = Some x -> x <> st "..." -> text_of params (EStringify (EVar (IArg i))) (utf8_encode (spelled u x))
| TO_file : text_of params (EVar (IPlain (st "__FILE__"))) (utf8_encode (source u))
| TO_literals e b l bs : Forall2 literal_part (e :: l) (b :: bs) -> text_of params (EConcat (e :: l)) (concat (b :: bs))
| TO_others e e' l bs : Forall2 (other_part params) (e :: e' :: l) bs -> text_of params (EConcat (e :: e' :: l)) (concat bs).

(** ** In the generated code *)

(** An operand of [concat!]; [stringify!] does not expand its operand. *)
Definition operand (ts : list rtok) : option (list N) :=
  match rev ts with
  | RGroup DParen l :: b :: m :: _ =>
    if is_punct_tok "!" b then
      if is_id_tok "file" m then match l with [] => Some (utf8_encode (source u)) | _ => None end
      else if is_id_tok "stringify" m then
        match l with
        | [RPunct d; RId x] => if str_eqb d (st "$") then Some (utf8_encode (spelled u x)) else None
        | [RId a; RPunct p; RGroup DParen []] => Some (a ++ p ++ st "()")
        | _ => None
        end
      else None
    else None
  | [RId x; RPunct d] => if str_eqb d (st "$") then option_map utf8_encode (literal u x) else None
  | [RLit (RlChar n)] => Some (utf8_encode [n])
  | [RLit (RlStr s)] => Some (utf8_encode s)
  | _ => None
  end.
(** [b".."] and [concat!(..).as_bytes()]. *)
Definition bytes_of (v : list rtok) : option (list N) :=
  match v with
  | [RLit (RlBytes b)] => Some b
  | _ =>
    match rev v with
    | RGroup DParen [] :: m :: d :: RGroup DParen l :: b :: n :: _ =>
      if is_id_tok "as_bytes" m && is_punct_tok "." d && is_punct_tok "!" b && is_id_tok "concat" n
      then option_map (@concat N) (all_some (map operand (commas l))) else None
    | _ => None
    end
  end.
(** What [{ const BYTES: T = v; BYTES.as_ptr() .. }] points at. *)
Definition points_at (ts : list rtok) : option (list N) :=
  match const_block ts with Some (_, v) => bytes_of v | None => None end.
End Text.
