(** Specification of macro calls: balanced token runs and argument lists. *)
From Verif Require Import Base Token.
From Coq Require Import List String.
Local Open Scope list_scope.

(** The brackets that nest inside macro arguments. *)
Inductive matching : token -> token -> Prop :=
| m_paren : matching (TPunct (st "(")) (TPunct (st ")"))
| m_square : matching (TPunct (st "[")) (TPunct (st "]"))
| m_brace : matching (TPunct (st "{")) (TPunct (st "}")).

Definition bracket (t : token) : Prop := exists u, matching t u \/ matching u t.
Definition comma : token := TPunct (st ",").

(** Runs in which every bracket is matched. *)
Inductive balanced : list token -> Prop :=
| bal_nil : balanced []
| bal_token t l : ~ bracket t -> balanced l -> balanced (t :: l)
| bal_group o c inner l : matching o c -> balanced inner -> balanced l -> balanced (o :: inner ++ c :: l).

(** One macro argument: a balanced run without a comma outside of brackets. *)
Inductive argument : list token -> Prop :=
| arg_nil : argument []
| arg_token t l : ~ bracket t -> t <> comma -> argument l -> argument (t :: l)
| arg_group o c inner l : matching o c -> balanced inner -> argument l -> argument (o :: inner ++ c :: l).

(** [a1 , a2 , ... , an] *)
Fixpoint comma_separated (args : list (list token)) : list token :=
  match args with
  | [] => []
  | [a] => a
  | a :: args' => a ++ comma :: comma_separated args'
  end.

(** [text] starts with a complete argument list [( a1 , ... , an )], followed
    by [rest]. *)
Definition call_text (text : list token) (args : list (list token)) (rest : list token) : Prop :=
  args <> [] /\ Forall argument args /\
  text = TPunct (st "(") :: comma_separated args ++ TPunct (st ")") :: rest.
