(** Macro sets that differ in the names of the parameters only. *)
From Verif Require Import Base Lex LexFloat Token MacroSet SpecTokens.
From Coq Require Import String List.
Import ListNotations.
Local Open Scope list_scope.

Section S.
Context `{Unicode}.

(** A name that a parameter can have. *)
Definition parameter_name (s : str) : Prop := well_formed_identifier s /\ s <> st "__VA_ARGS__".

(** [f] gives other names to the parameters of the macro with the parameters
    [params] and the replacement text [body]: names become names, different tokens of
    the definition stay different, and everything else stays what it is. *)
Record renaming (f : str -> str) (params body : list str) : Prop := {
  rn_name : forall p, In p params -> parameter_name p -> parameter_name (f p);
  rn_other : forall t, In t (params ++ body) -> ~ (In t params /\ parameter_name t) -> f t = t;
  rn_distinct : forall s t, In s (params ++ body) -> In t (params ++ body) -> f s = f t -> s = t;
  (* universal character names are not used in parameters *)
  rn_plain : forall p, In p params -> ~ In 92%N p
}.

(** The same macros, except that those that are called have other parameters. *)
Record renamed_set (m1 m2 : macro_set) : Prop := {
  rs_var : forall n, sm_get (var_macros m2) n = sm_get (var_macros m1) n;
  rs_fn : forall n,
    match sm_get (fn_macros m1) n with
    | None => sm_get (fn_macros m2) n = None
    | Some (params, body) => exists f, renaming f params body /\ sm_get (fn_macros m2) n = Some (map f params, map f body)
    end
}.

(** The same result.  The error about a repeated parameter contains its name. *)
Definition same_result {A} (r1 r2 : res xerr A) : Prop :=
  r1 = r2 \/ exists a b, r1 = RErr (NonUniqueArgument a) /\ r2 = RErr (NonUniqueArgument b).
End S.

(** A parameter as it is reported, with its new name. *)
Definition rename_token (f : str -> str) (t : mtoken) : mtoken := match t with MIdent x => MIdent (f x) | t => t end.
