(** Specification of the macro set as a map from names to definitions,
    independent of the model: what a history of API calls means. *)
From Verif Require Import Base.
From Coq Require Import String List NArith.
Import ListNotations.
Local Open Scope string_scope.
Local Open Scope list_scope.

(** What can be defined under a name. *)
Inductive definition :=
| DVar (body : list str)
| DFn (params body : list str).

(** The calls that change a macro set. *)
Inductive call :=
| DefineVar (name : str) (body : list str)
| DefineFn (name : str) (params body : list str)
| UndefineVar (name : str)
| UndefineFn (name : str).

Definition same_name (a b : str) : bool := if list_eq_dec N.eq_dec a b then true else false.

(** The definition of [n] after a history, most recent call first: the last
    call that concerns [n] decides. *)
Fixpoint defined (latest_first : list call) (n : str) : option definition :=
  match latest_first with
  | [] => None
  | DefineVar m b :: h => if same_name m n then Some (DVar b) else defined h n
  | DefineFn m p b :: h => if same_name m n then Some (DFn p b) else defined h n
  | UndefineVar m :: h =>
    if same_name m n
    then match defined h n with Some (DVar _) => None | d => d end
    else defined h n
  | UndefineFn m :: h =>
    if same_name m n
    then match defined h n with Some (DFn _ _) => None | d => d end
    else defined h n
  end.

(** ** Tokens that do not count when definitions are compared *)

(** The characters with the Unicode property White_Space. *)
Definition white_space (c : N) : Prop :=
  In c [9; 10; 11; 12; 13; 32; 0x85; 0xA0; 0x1680; 0x2000; 0x2001; 0x2002; 0x2003; 0x2004; 0x2005; 0x2006; 0x2007;
        0x2008; 0x2009; 0x200A; 0x2028; 0x2029; 0x202F; 0x205F; 0x3000]%N.
Definition comment_text (s : str) : Prop :=
  (exists x, s = st "//" ++ x) \/ ((exists x, s = st "/*" ++ x) /\ exists x, s = x ++ st "*/").

(** White space, or a comment between white space. *)
Definition ignored (t : str) : Prop :=
  exists a s b, t = a ++ s ++ b /\ Forall white_space a /\ Forall white_space b /\ (s = [] \/ comment_text s).

(** [significant l r]: [r] is [l] without the tokens that do not count. *)
Inductive significant : list str -> list str -> Prop :=
| sg_nil : significant [] []
| sg_ignored t l r : ignored t -> significant l r -> significant (t :: l) r
| sg_kept t l r : ~ ignored t -> significant l r -> significant (t :: l) (t :: r).
