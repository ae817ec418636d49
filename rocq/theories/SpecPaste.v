(** Specification of the [##] operator in a replacement list whose parameters
    have been replaced. *)
From Verif Require Import Base Token.
From Coq Require Import List String.
Local Open Scope list_scope.

Definition hashhash : token := TPunct (st "##").
Definition comment (t : token) : Prop := exists s, t = TComment s.

(** [l] continues with a [##] (comments aside). *)
Definition continues (l : list token) : Prop :=
  exists cs l', Forall comment cs /\ l = cs ++ hashhash :: l'.

(** The operand after a [##]: the next token (comments skipped); of two
    adjacent [##] the first has an empty operand, i.e. they count as one. *)
Inductive operand : list token -> token -> list token -> Prop :=
| op_next cs r l : Forall comment cs -> ~ comment r -> (cs = [] -> r <> hashhash) -> operand (cs ++ r :: l) r l
| op_repeated l : operand (hashhash :: l) TPlacemarker (hashhash :: l).

Section S.
(** How two tokens are pasted (C17). *)
Variable paste : token -> token -> res xerr token.

(** [chain t l r]: the operand [t], followed by the text [l], is pasted from
    left to right with all operands that follow; [r] is the resulting token and
    the remaining text, or the error. *)
Inductive chain : token -> list token -> res xerr (token * list token) -> Prop :=
| ch_end t l : ~ continues l -> chain t l (ROk (t, l))
| ch_next t cs l u l' v r : Forall comment cs -> operand l u l' -> paste t u = ROk v -> chain v l' r ->
    chain t (cs ++ hashhash :: l) r
| ch_error t cs l u l' e : Forall comment cs -> operand l u l' -> paste t u = RErr e ->
    chain t (cs ++ hashhash :: l) (RErr e)
| ch_panic t cs l u l' : Forall comment cs -> operand l u l' -> paste t u = RPanic ->
    chain t (cs ++ hashhash :: l) RPanic
| ch_missing t cs cs' : Forall comment cs -> Forall comment cs' ->
    chain t (cs ++ hashhash :: cs') (RErr ConcatEnd).

(** A whole replacement list. *)
Inductive pasted : list token -> res xerr (list token) -> Prop :=
| pa_nil : pasted [] (ROk [])
| pa_comment c l r : comment c -> pasted l r -> pasted (c :: l) (rmap (cons c) r)
| pa_begin cs l : Forall comment cs -> pasted (cs ++ hashhash :: l) (RErr ConcatBegin)
| pa_chain t l v rest r : ~ comment t -> t <> hashhash -> chain t l (ROk (v, rest)) -> pasted rest r ->
    pasted (t :: l) (rmap (cons v) r)
| pa_error t l e : ~ comment t -> t <> hashhash -> chain t l (RErr e) -> pasted (t :: l) (RErr e)
| pa_panic t l : ~ comment t -> t <> hashhash -> chain t l RPanic -> pasted (t :: l) RPanic.
End S.
