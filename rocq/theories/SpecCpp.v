(** Specification of macro replacement as the C standard describes it (C11
    6.10.3 and 6.10.3.4), for texts in which a replacement never ends in the
    name of a function-like macro, without [##]: the text is read once
    from left to right; an invocation is replaced by the expansion of its body,
    made while the macro is excluded, and reading goes on after the
    invocation.  What has been read is never looked at again. *)
From Verif Require Import Base Utf Lex LexFloat Token SpecCall SpecExpand SpecStringify.
From Coq Require Import String List.
Local Open Scope list_scope.

Section S.
Context `{Unicode}.

(** A body with its parameters replaced: [exp] is the expansion of an argument
    on its own.  [#] in front of a parameter makes the argument, as written, a
    string literal; elsewhere it is not allowed. *)
Inductive filled (exp : list token -> list token -> Prop) (named : nat) (args : list (list token))
  : list token -> list token -> Prop :=
| fl_end : filled exp named args [] []
| fl_keep t l r : ~ parameter_token t -> t <> hash -> filled exp named args l r -> filled exp named args (t :: l) (t :: r)
| fl_string t a l r : parameter_token t -> argument_for named args t = Some a -> filled exp named args l r ->
    filled exp named args (hash :: t :: l)
      (TLit (LString (SOrdinary (utf8_encode (contents a)))) (debug_str (contents a)) :: r)
| fl_argument t a e l r : parameter_token t -> argument_for named args t = Some a -> exp a e -> filled exp named args l r ->
    filled exp named args (t :: l) (e ++ r).

Variable macro : str -> option macro_def.

(** [preprocessed hide text out]; the macros named in [hide] are excluded. *)
Inductive preprocessed : list str -> list token -> list token -> Prop :=
| pp_end hide : preprocessed hide [] []
| pp_token hide t l out : (forall id, t <> TIdent id) -> preprocessed hide l out ->
    preprocessed hide (t :: l) (t :: out)
(* An identifier that is no macro, or a function-like macro without arguments. *)
| pp_name hide id l out : ~ In id hide ->
    (forall d, macro id = Some d -> function_like d /\ ~ starts_with l (TPunct (st "("))) ->
    preprocessed hide l out -> preprocessed hide (TIdent id :: l) (TIdent id :: out)
(* The name of an excluded macro is never replaced later either. *)
| pp_excluded hide id l out : In id hide -> preprocessed hide l out ->
    preprocessed hide (TIdent id :: l) (TNonRepl (TIdent id) :: out)
| pp_object hide id body e l out : ~ In id hide -> macro id = Some (Object body) -> ~ In TVarArgs body ->
    preprocessed (id :: hide) body e -> preprocessed hide l out ->
    preprocessed hide (TIdent id :: l) (e ++ out)
(* The arguments are expanded on their own first. *)
| pp_function hide id named variadic body text args l body' e out :
    ~ In id hide -> macro id = Some (Function named variadic body) ->
    call_text text args l ->
    (variadic = false -> ~ In TVarArgs body /\ accepted named args) ->
    filled (preprocessed hide) named args body body' ->
    preprocessed (id :: hide) body' e -> preprocessed hide l out ->
    preprocessed hide (TIdent id :: text) (e ++ out).
End S.
