(** Specification of macro expansion in general: the leftmost invocation is
    replaced again and again; the replacement of an invocation is its body
    with the parameters substituted, [##] applied, and expanded while the macro
    itself is excluded. *)
From Verif Require Import Base Token SpecCall SpecPaste SpecRescan.
From Coq Require Import String List.
Local Open Scope list_scope.

(** A macro: its body; for function-like macros the number of named parameters
    and whether [...] follows them.  In the body, parameters are [TArg i] and
    [TVarArgs]. *)
Inductive macro_def :=
| Object (body : list token)
| Function (named : nat) (variadic : bool) (body : list token)
| Malformed (e : xerr).   (* a function-like macro whose parameter list is rejected *)

Definition function_like (d : macro_def) : Prop := forall b, d <> Object b.
Definition parameter_token (t : token) : Prop := t = TVarArgs \/ exists i, t = TArg i.
Definition hash : token := TPunct (st "#").

(** The argument a parameter stands for: [__VA_ARGS__] is the list of all
    arguments after the named ones, with the commas. *)
Definition argument_for (named : nat) (args : list (list token)) (t : token) : option (list token) :=
  match t with
  | TArg i => nth_error args i
  | TVarArgs => if Nat.leb named (length args) then Some (comma_separated (skipn named args)) else None
  | _ => None
  end.

(** The number of arguments is right; a macro without parameters is called
    with an empty (first) argument. *)
Definition accepted (named : nat) (args : list (list token)) : Prop :=
  length args = named \/ (named = 0 /\ exists rest, args = [] :: rest).

(** An identifier that names a macro being replaced is never replaced later. *)
Definition mark (hide : list str) (t : token) : token :=
  match t with
  | TIdent id => if in_dec (list_eq_dec N.eq_dec) id hide then TNonRepl t else t
  | _ => t
  end.

Definition is_placeholder (t : token) : bool := match t with TPlacemarker => true | _ => false end.
Definition ends_with (out : list token) (t : token) : Prop := exists o, out = o ++ [t].
Definition starts_with (l : list token) (t : token) : Prop := exists l', l = t :: l'.

Section S.
Variable paste : token -> token -> res xerr token.           (* C17 *)
Variable stringified : bool -> list token -> list token.      (* C20 *)
Variable macro : str -> option macro_def.

(** [text] starts with an invocation. *)
Inductive invokes (hide : list str) : list token -> str -> macro_def -> list (list token) -> list token -> Prop :=
| iv_object id b post : ~ In id hide -> macro id = Some (Object b) ->
    invokes hide (TIdent id :: post) id (Object b) [] post
| iv_function id d text args post : ~ In id hide -> macro id = Some d -> function_like d ->
    call_text text args post -> invokes hide (TIdent id :: text) id d args post.

(** The first invocation in [l], after [pre]. *)
Definition leftmost (hide : list str) (l pre : list token) (id : str) (d : macro_def) (args : list (list token)) (post : list token) : Prop :=
  exists text, l = pre ++ text /\ invokes hide text id d args post /\
  forall p q, pre = p ++ q -> q <> [] -> forall id' d' args' post', ~ invokes hide (q ++ text) id' d' args' post'.

Definition no_invocation (hide : list str) (l : list token) : Prop :=
  forall p q, l = p ++ q -> forall id d args post, ~ invokes hide q id d args post.

Inductive expansion : list str -> list token -> res xerr (list token) -> Prop :=
| xp_done hide l : no_invocation hide l -> expansion hide l (ROk (map (mark hide) l))
| xp_step hide l pre id d args post e r : leftmost hide l pre id d args post ->
    replaced hide id d args (ROk e) -> expansion hide (map (mark hide) pre ++ e ++ post) r ->
    expansion hide l r
| xp_fail hide l pre id d args post p : leftmost hide l pre id d args post ->
    replaced hide id d args p -> ~ succeeded p -> expansion hide l p

(** What an invocation is replaced by. *)
with replaced : list str -> str -> macro_def -> list (list token) -> res xerr (list token) -> Prop :=
| rl_object hide id b args r : ~ In TVarArgs b -> processed hide id b r -> replaced hide id (Object b) args r
| rl_object_va hide id b args : In TVarArgs b -> replaced hide id (Object b) args (RErr NonVariadicVarArgs)
| rl_malformed hide id e args : replaced hide id (Malformed e) args (RErr e)
| rl_va hide id k b args : In TVarArgs b -> replaced hide id (Function k false b) args (RErr NonVariadicVarArgs)
| rl_count hide id k b args : ~ In TVarArgs b -> ~ accepted k args ->
    replaced hide id (Function k false b) args (RErr (FnMacroArgumentError id k (length args)))
| rl_function hide id k v b args s r : (v = false -> ~ In TVarArgs b /\ accepted k args) ->
    substituted hide k args [] b (ROk s) -> processed hide id s r -> replaced hide id (Function k v b) args r
| rl_function_fail hide id k v b args p : (v = false -> ~ In TVarArgs b /\ accepted k args) ->
    substituted hide k args [] b p -> ~ succeeded p -> replaced hide id (Function k v b) args p

(** [##] applied, then expanded with the macro excluded. *)
with processed : list str -> str -> list token -> res xerr (list token) -> Prop :=
| pr_rescan hide id b c r : pasted paste b (ROk c) ->
    expansion (id :: hide) (filter (fun t => negb (is_placeholder t)) c) r -> processed hide id b r
| pr_fail hide id b p : pasted paste b p -> ~ succeeded p -> processed hide id b p

(** [substituted hide k args out body r]: [out] has been produced so far. *)
with substituted : list str -> nat -> list (list token) -> list token -> list token -> res xerr (list token) -> Prop :=
| sb_end hide k args out : substituted hide k args out [] (ROk out)
| sb_keep hide k args out t l r : ~ parameter_token t -> t <> hash ->
    substituted hide k args (out ++ [t]) l r -> substituted hide k args out (t :: l) r
| sb_stringify hide k args out t a l r : parameter_token t -> argument_for k args t = Some a ->
    substituted hide k args (out ++ stringified (Nat.ltb 1 (length hide)) a) l r ->
    substituted hide k args out (hash :: t :: l) r
| sb_stringify_missing hide k args out t l : parameter_token t -> argument_for k args t = None ->
    substituted hide k args out (hash :: t :: l) RPanic
| sb_stringify_other hide k args out l : (forall t, parameter_token t -> ~ starts_with l t) ->
    substituted hide k args out (hash :: l) (RErr StringifyNonArgument)
| sb_stringify_stray hide k args out t a l r : parameter_token t -> argument_for k args t = Some a ->
    substituted hide k args (out ++ stringified (Nat.ltb 1 (length hide)) a) l r ->
    substituted hide k args (out ++ [hash]) (t :: l) r
| sb_argument hide k args out t a e l r : parameter_token t -> argument_for k args t = Some a ->
    ~ ends_with out hash -> ~ ends_with out hashhash -> ~ starts_with l hashhash ->
    expansion hide a (ROk e) -> substituted hide k args (out ++ e) l r ->
    substituted hide k args out (t :: l) r
| sb_operand hide k args out t a e l r : parameter_token t -> argument_for k args t = Some a ->
    ~ ends_with out hash -> ends_with out hashhash \/ starts_with l hashhash ->
    expansion hide a (ROk e) -> substituted hide k args (out ++ match e with [] => [TPlacemarker] | _ => e end) l r ->
    substituted hide k args out (t :: l) r
| sb_argument_fail hide k args out t a p l : parameter_token t -> argument_for k args t = Some a ->
    ~ ends_with out hash -> expansion hide a p -> ~ succeeded p ->
    substituted hide k args out (t :: l) p
| sb_missing hide k args out t l : parameter_token t -> argument_for k args t = None ->
    substituted hide k args out (t :: l) RPanic.

End S.

(** For bodies without [#] and [##]: every parameter replaced by what [exp]
    makes of its argument, everything else kept in place. *)
Inductive parameters_replaced (exp : list token -> list token -> Prop) (named : nat) (args : list (list token))
  : list token -> list token -> Prop :=
| pm_end : parameters_replaced exp named args [] []
| pm_keep t l r : ~ parameter_token t -> parameters_replaced exp named args l r ->
    parameters_replaced exp named args (t :: l) (t :: r)
| pm_named i a e l r : nth_error args i = Some a -> exp a e -> parameters_replaced exp named args l r ->
    parameters_replaced exp named args (TArg i :: l) (e ++ r)
| pm_variadic e l r : named <= length args -> exp (comma_separated (skipn named args)) e ->
    parameters_replaced exp named args l r ->
    parameters_replaced exp named args (TVarArgs :: l) (e ++ r).
