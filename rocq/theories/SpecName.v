(** Names built with ##: the spelling of the operands, and the name denoted by
    generated tokens. *)
From Verif Require Import Base Utf Lex LexFloat Token Ast Rust SpecRust.
From Coq Require Import String List.
Import ListNotations.
Local Open Scope string_scope.
Local Open Scope list_scope.

(** The operands of ##: parameters of the macro, identifiers, and texts that can
    continue an identifier. [given i] is the text the user of the macro gives for
    its parameter number [i]. *)
Definition operand_text (given : nat -> str) (t : mtoken) : option str :=
  match t with
  | MArg i => Some (given i)
  | MIdent s | MIdCont s => Some s
  | _ => None
  end.

(** [t0 ## t1 ## ..], with comments before and after each ##. *)
Definition paste_step (x : list str * list str * mtoken) : list mtoken :=
  map MComment (fst (fst x)) ++ MPunct (st "##") :: map MComment (snd (fst x)) ++ [snd x].
Definition paste_tokens (t0 : mtoken) (ops : list (list str * list str * mtoken)) : list mtoken :=
  t0 :: concat (map paste_step ops).
Definition operands (t0 : mtoken) (ops : list (list str * list str * mtoken)) : list mtoken := t0 :: map snd ops.

(** No further ## after the name, with or without comments before it. *)
Fixpoint no_operator (rest : list mtoken) : Prop :=
  match rest with
  | MComment _ :: rest' => no_operator rest'
  | MPunct p :: _ => p <> st "##"
  | _ => True
  end.

(** The name denoted by Rust tokens: an identifier, a parameter [$x] of the
    generated macro, or [concat_idents!] of such; [given x] is the text for [$x]. *)
Definition part_text (given : str -> str) (ts : list rtok) : option str :=
  match ts with
  | [RId s] => Some s
  | [RPunct d; RId x] => if str_eqb d (st "$") then Some (given x) else None
  | _ => None
  end.
Definition name_text (given : str -> str) (ts : list rtok) : option str :=
  match rev ts with
  | RGroup DParen l :: b :: m :: _ =>
    if is_punct_tok "!" b && is_id_tok "concat_idents" m
    then option_map (@concat N) (all_some (map (part_text given) (commas l)))
    else None
  | _ => part_text given ts
  end.
