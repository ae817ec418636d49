(** Specifications about single tokens and parameter lists. *)
From Verif Require Import Base Lex LexFloat Token.
From Coq Require Import String List.
Local Open Scope list_scope.

Section S.
Context `{Unicode}.

(** An identifier Rust's [Ident::new] accepts (raw identifiers aside). *)
Definition well_formed_identifier (id : str) : Prop :=
  exists c r, id = c :: r /\ (is_xid_start c = true \/ c = 95%N) /\ Forall (fun c => is_xid_continue c = true) r.

(** What an entry of a parameter list is. *)
Inductive parameter := PName (id : str) | PEllipsis | PComment | POther.
Definition parameter_kind (s : str) : parameter :=
  match from_str s with
  | TIdent id => PName id
  | TPunct p => if list_eq_dec N.eq_dec p (st "...") then PEllipsis else POther
  | TComment _ => PComment
  | _ => POther
  end.

Definition is_pcomment (p : parameter) : bool := match p with PComment => true | _ => false end.

(** Distinct names, then possibly [...]; comments anywhere. *)
Definition parameter_list (names : list str) (ids : list str) (variadic : bool) : Prop :=
  filter (fun p => negb (is_pcomment p)) (map parameter_kind names) =
    map PName ids ++ (if variadic then [PEllipsis] else []) /\ NoDup ids.
End S.

(** The parameters [FnMacro::parse] extracts: everything but comments
    (src/fn_macro.rs:41-71; see C47). *)
Definition not_mcomment (m : mtoken) : bool := match m with MComment _ => false | _ => true end.
Definition parameters (l : list mtoken) : list mtoken := filter not_mcomment l.
