(** What the tree of an expression must satisfy to be a tree of the C grammar
    when the names that are types are given. *)
From Verif Require Import Base Utf Lex LexFloat Token Ast SpecType SpecAsm SpecGrammar SpecAsmGrammar SpecStmtGrammar.
From Coq Require Import String List.
Import ListNotations.
Local Open Scope string_scope.
Local Open Scope list_scope.

(** Ordinary texts: no identifier is spelled like the prefix of a literal (the
    parser would take [L "x"], with a blank, for a wide string), what continues a
    name after ## is a name, a parameter or a number, a text with wide strings has
    only ASCII in its ordinary strings, and no type is [const] or [volatile] twice. *)
Definition ordinary (ts : list mtoken) : Prop :=
  (forall p, In p prefixes -> ~ In (MIdent (st p)) ts) /\
  (forall s, In (MIdCont s) ts -> exists v, decimal s v /\ (v < 2 ^ 64)%Z) /\
  (forall w b, In (MLit (LString (SWide w))) ts -> In (MLit (LString (SOrdinary b))) ts -> Forall (fun c => (c < 128)%N) b) /\
  (forall q a b c, q = "const" \/ q = "volatile" -> ts = a ++ kw q :: b ++ kw q :: c -> exists t, In t b /\ forall x, t <> MIdent x).

(** The expressions that are unary expressions of the grammar, if they are not in
    parentheses. *)
Definition unary_form (e : expr) : Prop :=
  match e with
  | ECast _ _ | ETernary _ _ _ => False
  | EBinary _ o _ => o = OMember
  | _ => True
  end.
(** A size is a unary expression but not a postfix expression: it is not indexed,
    incremented or dereferenced. *)
Definition is_size (e : expr) : Prop := exists t, e = ESizeOf t.
Definition of_size (o : unop) (e : expr) : Prop :=
  match o with
  | UPostInc | UPostDec => is_size e
  | UDeref => is_size e \/ exists a b, e = EBinary a OAdd b /\ is_size a
  | _ => False
  end.
Definition assigns (o : binop) : Prop := In o (map snd assignment_operators).
(** No two literals side by side. *)
Definition apart (l : list expr) : Prop := forall l1 a b l2, l = l1 ++ a :: b :: l2 -> ~ (is_literal a /\ is_literal b).
Definition all {A} (f : A -> Prop) : list A -> Prop :=
  fix all (l : list A) : Prop := match l with [] => True | x :: l' => f x /\ all l' end.

Section Consistent.
(** The names of types. *)
Variable types : str -> bool.

(** A name used as a value is no keyword and no type. *)
Definition value_name (n : ident_expr) : Prop :=
  match n with
  | IPlain x | IConcat (IpPlain x :: _) => is_name types x
  | _ => True
  end.
(** A name used as a type is a type. *)
Fixpoint type_ok (t : ctype) : Prop :=
  match t with
  | TyBuiltIn _ => True
  | TyIdent (IPlain x) struct => ~ In x (map st keywords) /\ (struct = false -> types x = true)
  | TyIdent _ _ | TyPath _ _ => False
  | TyPtr t | TyQual t _ => type_ok t
  end.
(** The tree uses names as C does; only parameters are stringified; what is
    assigned to, incremented or decremented in front is a unary expression. *)
Fixpoint consistent (e : expr) : Prop :=
  match e with
  | EVar n => value_name n
  | ECall n l => value_name n /\ all consistent l
  | ECast t e => type_ok t /\ consistent e
  | ELit _ => True
  | EStringify a => exists i, a = EVar (IArg i)
  | EConcat l => all consistent l /\ apart l
  | EUnary o e => consistent e /\ (o = UInc \/ o = UDec -> unary_form e) /\ ~ of_size o e
  | EBinary a o b => consistent a /\ match o with OMember => ~ is_size a | _ => consistent b end /\ (assigns o -> unary_form a)
  | ETernary a b c => consistent a /\ consistent b /\ consistent c
  | ESizeOf t => type_ok t
  end.
End Consistent.

(** ** Statements *)

(** Ordinary texts with assembly: the strings have no prefix, no brace of a
    template comes after a plain character (C48), and a constraint with the
    letter i, a constant, also allows a register (C59). *)
Definition letter_i : N := 105.
Definition assembly_text (ts : list mtoken) : Prop :=
  (forall s, In (MLit (LString s)) ts -> exists b, s = SOrdinary b) /\
  (forall a u s r, ts = a ++ u -> text_literal false u s r ->
    (forall ps, pieces ps -> text ps = s -> run_braces false ps) /\
    (next_is (P "(") r -> In letter_i s -> exists c k, In (c, k) letter_classes /\ In c s)).

Section Statements.
Variable types : str -> bool.
(** The text of all the statements. *)
Variable body : list mtoken.

(** No name is a keyword of statements. *)
Definition free_name (n : ident_expr) : Prop :=
  match n with
  | IPlain x | IConcat (IpPlain x :: _) => ~ In x (map st statement_keywords)
  | _ => True
  end.
Fixpoint free_type (t : ctype) : Prop :=
  match t with
  | TyIdent n false => free_name n
  | TyPtr t | TyQual t _ => free_type t
  | _ => True
  end.
Fixpoint free (e : expr) : Prop :=
  match e with
  | EVar n => free_name n
  | ECall n l => free_name n /\ all free l
  | ECast _ e | EUnary _ e => free e
  | EConcat l => all free l
  | EBinary a o b => free a /\ match o with OMember => True | _ => free b end
  | ETernary a b c => free a /\ free b /\ free c
  | ELit _ | EStringify _ | ESizeOf _ => True
  end.
(** What is declared: a name that is no keyword, with a type. *)
Definition declared (t : ctype) (n : ident_expr) : Prop :=
  type_ok types t /\ free_type t /\ exists x, n = IPlain x /\ ~ In x (map st (keywords ++ statement_keywords)).
Definition declared_parameter (a : ctype * ident_expr) : Prop :=
  type_ok types (fst a) /\ exists x, snd a = IPlain x /\ ~ In x (map st keywords).
Definition consistent_asm (a : asm_stmt) : Prop :=
  all (fun x => consistent types (snd x)) (asm_outputs a) /\ all (fun x => consistent types (snd x)) (asm_inputs a).
(** The statements, without do. *)
Fixpoint consistent_stmt (s : stmt) : Prop :=
  match s with
  | SExpr e => consistent types e /\ free e
  | SVarDecl d => declared (vd_ty d) (vd_name d) /\ consistent types (vd_rhs d)
  | SFnDecl f => declared (fd_ret f) (fd_name f) /\ all declared_parameter (fd_args f)
  | SBlock l => all consistent_stmt l
  | SIf c a b => consistent types c /\ all consistent_stmt a /\ all consistent_stmt b
  | SAsm a => assembly_text body /\ consistent_asm a
  | SDoWhile _ _ => False
  end.
(** A do statement around such statements, or an if statement whose last branch
    is one. *)
Fixpoint consistent_end (s : stmt) : Prop :=
  match s with
  | SDoWhile l c => all consistent_stmt l /\ consistent types c
  | SIf c [x] [] => consistent types c /\ consistent_end x
  | SIf c a [x] => consistent types c /\ all consistent_stmt a /\ consistent_end x
  | _ => False
  end.
(** The text ends with a block. *)
Definition ends_in_block (ts : list mtoken) : Prop :=
  exists a r, uncomment r = [] /\ (ts = a ++ P "}" :: r \/ ts = a ++ P "}" :: P ";" :: r).
(** The statements of a body: a do statement is at the end, and not in a block. *)
Definition consistent_body (s : stmt) : Prop :=
  consistent_stmt s \/
  exists l last, s = body_tree (l ++ [last]) /\ all consistent_stmt l /\ consistent_end last /\ ~ ends_in_block body.
End Statements.
