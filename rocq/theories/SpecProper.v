(** Texts without mistakes in the use of macros: brackets are matched, every
    function-like macro is called, with the number of arguments it takes, [#]
    stands in front of parameters only, and [##] does not occur.  A comma is
    only found inside of brackets, so that a replacement cannot change the
    number of the arguments of another call. *)
From Verif Require Import Base Token SpecCall SpecPaste SpecSet SpecTokens SpecExpand PropExpand SpecComplete.
From Coq Require Import String List.
Local Open Scope list_scope.

(** Where a text stands: [Piece] is a single argument or a replacement text,
    [Item] may contain [__VA_ARGS__], [Items] commas as well. *)
Inductive level := Piece | Item | Items.

Section S.
(** [takes id k variadic]: a function-like macro with [k] named parameters. *)
Variable takes : str -> nat -> bool -> Prop.

Inductive proper : level -> list token -> Prop :=
| pr_nil v : proper v []
| pr_token v t l : ~ bracket t -> t <> comma -> t <> hash -> t <> hashhash -> t <> TVarArgs ->
    (forall id k va, t = TIdent id -> ~ takes id k va) -> proper v l -> proper v (t :: l)
| pr_comma l : proper Items l -> proper Items (comma :: l)
| pr_rest v l : v <> Piece -> proper v l -> proper v (TVarArgs :: l)
| pr_string v t l : parameter_token t -> proper v l -> proper v (hash :: t :: l)
| pr_group v o c inner l : matching o c -> proper Items inner -> proper v l -> proper v (o :: inner ++ c :: l)
(* The right number of arguments; [f ( )] for a macro without parameters. *)
| pr_call v id k args l : takes id k false -> args <> [] -> length args = k \/ k = 0 /\ args = [[]] ->
    Forall (proper Piece) args -> proper v l ->
    proper v (TIdent id :: TPunct (st "(") :: comma_separated args ++ TPunct (st ")") :: l)
| pr_variadic v id k args l : takes id k true -> args <> [] -> k <= length args ->
    Forall (proper Item) args -> proper v l ->
    proper v (TIdent id :: TPunct (st "(") :: comma_separated args ++ TPunct (st ")") :: l).
End S.

(** The function-like macros after a history. *)
Definition takes `{Unicode} (h : list call) (id : str) (k : nat) (variadic : bool) : Prop :=
  exists ps b ids, defined (rev h) id = Some (DFn ps b) /\ parameter_list ps ids variadic /\ length ids = k.
Definition proper_in `{Unicode} (h : list call) : level -> list token -> Prop := proper (takes h).
(** Every word is a C token. *)
Definition known_words `{Unicode} (b : list str) : Prop := Forall (fun s => forall w, from_str s <> TPlain w) b.

(** All macros are without mistakes: the parameter lists are right, the
    replacement texts proper, and [__VA_ARGS__] is only used where [...] is a
    parameter. *)
Definition proper_set `{Unicode} (h : list call) : Prop :=
  (forall n b, defined (rev h) n = Some (DVar b) ->
     proper_in h Piece (map from_str b) /\ known_words b /\ ~ In (st "__VA_ARGS__") b) /\
  (forall n ps b, defined (rev h) n = Some (DFn ps b) -> exists ids v, parameter_list ps ids v /\
     proper_in h Piece (map (body_token ids) b) /\ known_words b /\ (v = false -> ~ In (st "__VA_ARGS__") b)) /\
  ~ names_function h (st "__LINE__") /\ ~ names_function h (st "__FILE__").
