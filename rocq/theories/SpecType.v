(** The C spellings of the built-in types. *)
From Verif Require Import Base Utf Lex LexFloat Token Ast.
From Coq Require Import String List Permutation.
Import ListNotations.
Local Open Scope string_scope.
Local Open Scope list_scope.

(** C11 6.7.2p2, the multisets of type specifiers (with [bool] for [_Bool]); the
    specifiers may occur in any order. *)
Definition c_types : list (list string * builtin) :=
  [ (["void"], BVoid);
    (["char"], BChar); (["signed"; "char"], BSChar); (["unsigned"; "char"], BUChar);
    (["short"], BShort); (["signed"; "short"], BShort); (["short"; "int"], BShort); (["signed"; "short"; "int"], BShort);
    (["unsigned"; "short"], BUShort); (["unsigned"; "short"; "int"], BUShort);
    (["int"], BInt); (["signed"], BInt); (["signed"; "int"], BInt);
    (["unsigned"], BUInt); (["unsigned"; "int"], BUInt);
    (["long"], BLong); (["signed"; "long"], BLong); (["long"; "int"], BLong); (["signed"; "long"; "int"], BLong);
    (["unsigned"; "long"], BULong); (["unsigned"; "long"; "int"], BULong);
    (["long"; "long"], BLongLong); (["signed"; "long"; "long"], BLongLong); (["long"; "long"; "int"], BLongLong);
    (["signed"; "long"; "long"; "int"], BLongLong);
    (["unsigned"; "long"; "long"], BULongLong); (["unsigned"; "long"; "long"; "int"], BULongLong);
    (["float"], BFloat); (["double"], BDouble); (["long"; "double"], BLongDouble); (["bool"], BBool) ].

(** [ws] spells the built-in type [b]. *)
Definition spells (ws : list string) (b : builtin) : Prop :=
  exists l, In (l, b) c_types /\ Permutation ws l.

Definition kw (w : string) : mtoken := MIdent (st w).
Definition type_keywords : list string :=
  ["const"; "volatile"; "void"; "bool"; "float"; "double"; "long"; "short"; "int"; "char"; "signed"; "unsigned"].

(** An optional qualifier: absent, one of the two, or both in either order. *)
Inductive quals := QNone | QC | QV | QCV | QVC.
Definition quals_tokens (q : quals) : list mtoken :=
  match q with QNone => [] | QC => [kw "const"] | QV => [kw "volatile"] | QCV => [kw "const"; kw "volatile"] | QVC => [kw "volatile"; kw "const"] end.
Definition has_const (q : quals) : bool := match q with QNone | QV => false | _ => true end.
Definition has_volatile (q : quals) : bool := match q with QNone | QC => false | _ => true end.
Definition qualified (c v : bool) (t : ctype) : ctype :=
  match c, v with
  | false, false => t
  | true, false => TyQual t QConst
  | false, true => TyQual t QVolatile
  | true, true => TyQual t QConstVolatile
  end.

(** A pointer declarator: stars, each followed by comments and qualifiers. *)
Definition star_tokens (x : list str * quals) : list mtoken :=
  MPunct (st "*") :: map MComment (fst x) ++ quals_tokens (snd x).
Definition point (t : ctype) (x : list str * quals) : ctype := qualified (has_const (snd x)) (has_volatile (snd x)) (TyPtr t).

(** The tokens after a type name: not a keyword of a type name, a star or a
    comment. *)
Definition ends_type (rest : list mtoken) : Prop :=
  match rest with
  | MIdent id :: _ => ~ In id (map st type_keywords)
  | MPunct p :: _ => p <> st "*"
  | MComment _ :: _ => False
  | _ => True
  end.

(** The orders the parser understands: a signedness keyword comes first and is
    not alone, and [long] precedes [double]. *)
Definition is_sign (w : string) : bool := (w =? "unsigned")%string || (w =? "signed")%string.
Definition sign_first (ws : list string) : bool :=
  match ws with
  | [] => false
  | [w] => negb (is_sign w)
  | ["double"; "long"] => false
  | _ :: ws' => negb (existsb is_sign ws')
  end.
