(** What type inference may do to an expression without changing how it is
    grouped. *)
From Verif Require Import Base Utf Lex LexFloat Token Ast Rust Finish.
From Coq Require Import String List.
Import ListNotations.
Local Open Scope string_scope.
Local Open Scope list_scope.

(** Operators applied to literals. *)
Inductive constant : expr -> Prop :=
| co_lit l : constant (ELit l)
| co_unary op e : constant e -> constant (EUnary op e)
| co_binary a op b : constant a -> constant b -> constant (EBinary a op b).
Definition number (l : lit) : Prop := match l with LInt _ | LFloat _ => True | _ => False end.

(** A sequence of strings, with each run of literals made one: the literals stand
    for their bytes in UTF-8. *)
Definition literal_bytes (s : lit_string) : option (list N) :=
  match s with
  | SOrdinary b => Some b
  | SUtf8 s | SUtf16 s | SUtf32 s => Some (utf8_encode s)
  | SWide _ => None
  end.
Definition text (s : lit_string) : expr := ELit (LString s).
Inductive strung : list expr -> list expr -> Prop :=
| sg_end : strung [] []
| sg_name n l l' : strung l l' -> strung (EVar n :: l) (EVar n :: l')
| sg_stringify e l l' : strung l l' -> strung (EStringify e :: l) (EStringify e :: l')
| sg_run ss bs l l' : ss <> [] -> Forall2 (fun s b => literal_bytes s = Some b) ss bs -> strung l l' ->
    strung (map text ss ++ l) (text (SOrdinary (concat bs)) :: l').

(** [keeps e e']: [e'] has the operators of [e] applied to the same operands,
    except that
    - a part with only literals may be one literal (its value is the subject of
      C37),
    - a cast may be added to an operand, or left out on a string literal, and the
      type of a cast may be another one,
    - the condition of [?:] may be compared with zero,
    - adjacent string literals may be one literal. *)
Inductive keeps : expr -> expr -> Prop :=
| k_var n : keeps (EVar n) (EVar n)
| k_lit l : keeps (ELit l) (ELit l)
| k_stringify e : keeps (EStringify e) (EStringify e)
| k_sizeof t t' : keeps (ESizeOf t) (ESizeOf t')
| k_call n args args' : Forall2 keeps args args' -> keeps (ECall n args) (ECall n args')
| k_cast t t' e e' : keeps e e' -> keeps (ECast t e) (ECast t' e')
| k_unary op e e' : keeps e e' -> keeps (EUnary op e) (EUnary op e')
| k_binary a a' op b b' : keeps a a' -> keeps b b' -> keeps (EBinary a op b) (EBinary a' op b')
| k_ternary c c' a a' b b' : keeps c c' -> keeps a a' -> keeps b b' -> keeps (ETernary c a b) (ETernary c' a' b')
| k_condition c c' a a' b b' : keeps c c' -> keeps a a' -> keeps b b' ->
    keeps (ETernary c a b) (ETernary (EBinary c' ONeq int_zero) a' b')
| k_constant e l : constant e -> number l -> keeps e (ELit l)
| k_add_cast e e' t : keeps e e' -> keeps e (ECast t e')
| k_string t e s : keeps e (ELit (LString s)) -> keeps (ECast t e) (ELit (LString s))
| k_strings l l' : strung l l' -> keeps (EConcat l) (EConcat l')
| k_whole l x : strung l [x] -> keeps (EConcat l) x.

(** The context resolves the names of the types that it gives for type names. *)
Definition closed_context (cx : cgctx) : Prop :=
  forall T rt m, cx_ty cx T = Some rt -> from_rust_ty (cx_ffi cx) rt = ROk (TyIdent (IPlain m) false) -> cx_ty cx m <> None.

(** No cast of a dereference to a named type is cast again: the code would take
    it for a product when the dereference is not supported. *)
Inductive no_recast : expr -> Prop :=
| n_var n : no_recast (EVar n)
| n_lit l : no_recast (ELit l)
| n_stringify e : no_recast (EStringify e)
| n_sizeof t : no_recast (ESizeOf t)
| n_call n args : Forall no_recast args -> no_recast (ECall n args)
| n_cast t e : no_recast e -> (forall n s e', e <> ECast (TyIdent n s) (EUnary UDeref e')) -> no_recast (ECast t e)
| n_unary op e : no_recast e -> no_recast (EUnary op e)
| n_binary a op b : no_recast a -> no_recast b -> no_recast (EBinary a op b)
| n_ternary c a b : no_recast c -> no_recast a -> no_recast b -> no_recast (ETernary c a b)
| n_strings l : no_recast (EConcat l).
