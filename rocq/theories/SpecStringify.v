(** Specification of [#]: the spellings of the tokens, separated by single
    spaces except next to certain punctuation. *)
From Verif Require Import Base Token.
From Coq Require Import String List.
Local Open Scope list_scope.

(** The spelling of a token; comments (and the markers used during expansion)
    contribute nothing. *)
Fixpoint spelling (t : token) : list str :=
  match t with
  | TIdent s | TIdCont s | TLit _ s | TPlain s | TPunct s => [s]
  | TNonRepl t => spelling t
  | TVarArgs => [st "__VA_ARGS__"]
  | TArg _ | TComment _ | TPlacemarker => []
  end.

(** No space before [) ] } . , (], none after [( [ { .]. *)
Definition tight_before : list str := map st [")"; "]"; "}"; "."; ","; "("]%string.
Definition tight_after : list str := map st ["("; "["; "{"; "."]%string.
Definition str_in_dec (s : str) (l : list str) : {In s l} + {~ In s l} := in_dec (list_eq_dec N.eq_dec) s l.
Definition gap (a b : str) : str :=
  if str_in_dec a tight_after then [] else if str_in_dec b tight_before then [] else [32%N].

Fixpoint joined (l : list str) : str :=
  match l with
  | [] => []
  | a :: l' => a ++ match l' with [] => [] | b :: _ => gap a b ++ joined l' end
  end.

(** What [#] makes of an argument. *)
Definition contents (l : list token) : str := joined (flat_map spelling l).

(** Tokens [#] can spell: everything but parameters; and, when the [#] is
    reached inside the expansion of another macro, not [__LINE__] and
    [__FILE__]. *)
Fixpoint spellable (nested : bool) (t : token) : Prop :=
  match t with
  | TNonRepl t => spellable nested t
  | TArg _ => False
  | TVarArgs => nested = false
  | TIdent id => nested = true -> id <> st "__LINE__" /\ id <> st "__FILE__"
  | _ => True
  end.

(** The other tokens: they are kept, as the operand of a [#] each. *)
Fixpoint deferred (nested : bool) (t : token) : bool :=
  match t with
  | TNonRepl t => deferred nested t
  | TArg _ => true
  | TVarArgs => nested
  | TIdent id => if str_in_dec id [st "__LINE__"; st "__FILE__"] then nested else false
  | _ => false
  end.
