(** The expression grammar of C11 6.5, over macro tokens.

    [derives types supported l ts e r] says: [ts] begins with an expression of
    the grammar level [l] whose tree is [e], and [r] is what follows it.  The
    parameter [types] tells which names are type names (the C grammar depends on
    it).  With [supported = false] this is the grammar of C, restricted to what
    the syntax trees can hold (no comma operator, no sizeof of an expression, no
    call of anything but a name, no compound literal).  With [supported = true] it is the part
    for which the theorems are proved, with the extra premises marked so in the
    rules below. *)
From Verif Require Import Base Utf Lex LexFloat Token Ast SpecType SpecInt SpecAsm.
From Coq Require Import String List.
Import ListNotations.
Local Open Scope string_scope.
Local Open Scope list_scope.

(** Comments count as white space. *)
Fixpoint uncomment (ts : list mtoken) : list mtoken :=
  match ts with MComment _ :: ts' => uncomment ts' | _ => ts end.

(** The levels of 6.5, tightest first. *)
Inductive level :=
  | Primary | Postfix | Unary | Cast | Multiplicative | Additive | Shift | Relational | Equality
  | And | Xor | Or | LogicalAnd | LogicalOr | Conditional | Assignment | Comma.

Definition tighter (l : level) : option level :=
  match l with
  | Primary => None
  | Postfix => Some Primary
  | Unary => Some Postfix
  | Cast => Some Unary
  | Multiplicative => Some Cast
  | Additive => Some Multiplicative
  | Shift => Some Additive
  | Relational => Some Shift
  | Equality => Some Relational
  | And => Some Equality
  | Xor => Some And
  | Or => Some Xor
  | LogicalAnd => Some Or
  | LogicalOr => Some LogicalAnd
  | Conditional => Some LogicalOr
  | Assignment => Some Conditional
  | Comma => Some Assignment
  end.

(** The left-associative binary operators, 6.5.5 to 6.5.14. *)
Definition binary_operators (l : level) : list (string * binop) :=
  match l with
  | Multiplicative => [("*", OMul); ("/", ODiv); ("%", ORem)]
  | Additive => [("+", OAdd); ("-", OSub)]
  | Shift => [("<<", OShl); (">>", OShr)]
  | Relational => [("<", OLt); ("<=", OLte); (">", OGt); (">=", OGte)]
  | Equality => [("==", OEq); ("!=", ONeq)]
  | And => [("&", OBitAnd)]
  | Xor => [("^", OBitXor)]
  | Or => [("|", OBitOr)]
  | LogicalAnd => [("&&", OAnd)]
  | LogicalOr => [("||", OOr)]
  | _ => []
  end.
Definition logical (l : level) : Prop := l = LogicalAnd \/ l = LogicalOr.

(** The assignment operators, 6.5.16. *)
Definition assignment_operators : list (string * binop) :=
  [("=", OAssign); ("+=", OAddAssign); ("-=", OSubAssign); ("*=", OMulAssign); ("/=", ODivAssign); ("%=", ORemAssign);
   ("<<=", OShlAssign); (">>=", OShrAssign); ("&=", OBitAndAssign); ("^=", OBitXorAssign); ("|=", OBitOrAssign)].

(** The prefix operators, 6.5.3: increments apply to unary expressions, the
    others to cast expressions. *)
Definition increments : list (string * unop) := [("++", UInc); ("--", UDec)].
Definition unary_operators : list (string * unop) :=
  [("&", UAddrOf); ("*", UDeref); ("+", UPlus); ("-", UMinus); ("~", UComp); ("!", UNot)].
Definition postfix_increments : list (string * unop) := [("++", UPostInc); ("--", UPostDec)].

(** Keywords that may occur in an expression or a type, 6.4.1 (with [bool]). *)
Definition keywords : list string := type_keywords ++ ["struct"; "sizeof"].
Definition is_name (types : str -> bool) (x : str) : Prop := ~ In x (map st keywords) /\ types x = false.

(** [volatile] is not repeated. *)
Definition quals_once (pre mid post : quals) : Prop :=
  has_volatile pre && has_volatile mid = false /\ (has_volatile pre || has_volatile mid) && has_volatile post = false.
(** The tokens of a type name, with the specifiers in an order that C42 covers. *)
Inductive type_name (types : str -> bool) : list mtoken -> ctype -> Prop :=
| tn_builtin ws b pre post ps :
    spells ws b -> sign_first ws = true -> has_volatile pre && has_volatile post = false ->
    type_name types (quals_tokens pre ++ map kw ws ++ quals_tokens post ++ concat (map star_tokens ps))
      (fold_left point ps
        (qualified (has_const pre || has_const post) (has_volatile pre || has_volatile post) (TyBuiltIn b)))
| tn_long_double pre mid post ps :
    quals_once pre mid post ->
    type_name types (quals_tokens pre ++ kw "long" :: quals_tokens mid ++ kw "double" :: quals_tokens post ++ concat (map star_tokens ps))
      (fold_left point ps
        (qualified (has_const pre || has_const mid || has_const post) (has_volatile pre || has_volatile mid || has_volatile post)
          (TyBuiltIn BLongDouble)))
| tn_named struct x pre post ps :
    ~ In x (map st keywords) -> (struct = false -> types x = true) -> has_volatile pre && has_volatile post = false ->
    type_name types (quals_tokens pre ++ (if struct : bool then [kw "struct"] else []) ++ MIdent x :: quals_tokens post ++ concat (map star_tokens ps))
      (fold_left point ps
        (qualified (has_const pre || has_const post) (has_volatile pre || has_volatile post) (TyIdent (IPlain x) struct))).

(** [ts] begins like an operand: with a name, a literal, a parenthesis, a
    stringified argument or a prefix operator. *)
Definition starts_operand (ts : list mtoken) : Prop :=
  match ts with
  | MIdent _ :: _ | MArg _ :: _ | MLit _ :: _ => True
  | MPunct p :: _ => In p (map st ["("; "#"; "&"; "*"; "+"; "-"; "~"; "!"; "++"; "--"])
  | _ => False
  end.
(** A tree that is just a name. *)
Definition bare (e : expr) : Prop := exists n, e = EVar n.
(** A tree whose last operation is a postfix increment. *)
Definition incremented (e : expr) : Prop := exists e', e = EUnary UPostInc e' \/ e = EUnary UPostDec e'.

Definition P (p : string) : mtoken := MPunct (st p).

(** ** Names *)

(** The operands of ## that continue a name: parameters, identifiers, and
    numbers, 6.10.3.3. *)
Inductive continues : mtoken -> idpart -> Prop :=
| c_arg i : continues (MArg i) (IpArg i)
| c_ident x : continues (MIdent x) (IpPlain x)
| c_number s v : decimal s v -> (v < 2 ^ 64)%Z -> continues (MIdCont s) (IpInt v).
(** [pasted ts l r]: [ts] begins with a name and at least one ##. *)
Inductive pasted : list mtoken -> list idpart -> list mtoken -> Prop :=
| ps_first t p r1 r2 t' p' r :
    continues t p -> (forall s, t <> MIdCont s) -> uncomment r1 = P "##" :: r2 -> uncomment r2 = t' :: r -> continues t' p' ->
    pasted (t :: r1) [p; p'] r
| ps_next ts l r1 r2 t p r :
    pasted ts l r1 -> uncomment r1 = P "##" :: r2 -> uncomment r2 = t :: r -> continues t p -> pasted ts (l ++ [p]) r.
(** [names ts n r]: [ts] begins with the name [n]: an identifier, a parameter, or
    several of them joined by ##. *)
Inductive names : list mtoken -> ident_expr -> list mtoken -> Prop :=
| na_arg i r : names (MArg i :: r) (IArg i) r
| na_plain x r : names (MIdent x :: r) (IPlain x) r
| na_pasted ts l r : pasted ts l r -> names ts (IConcat l) r.
(** The identifier at the beginning, if there is one, is an ordinary name. *)
Definition begins (types : str -> bool) (ts : list mtoken) : Prop := forall x r, ts = MIdent x :: r -> is_name types x.

(** ** Strings *)

(** Adjacent string literals are one literal, 6.4.5: both of the same kind, or
    the second without a prefix.  (C also allows the first to be the one without
    a prefix, which is not supported.) *)
Definition join (a b : lit_string) : option lit_string :=
  let text := fun (f : str -> lit_string) a b => option_map (fun t => f (a ++ t)) (utf8_decode b) in
  match a, b with
  | SOrdinary a, SOrdinary b => Some (SOrdinary (a ++ b))
  | SUtf8 a, SUtf8 b => Some (SUtf8 (a ++ b))
  | SUtf16 a, SUtf16 b => Some (SUtf16 (a ++ b))
  | SUtf32 a, SUtf32 b => Some (SUtf32 (a ++ b))
  | SWide a, SWide b => Some (SWide (a ++ b))
  | SUtf8 a, SOrdinary b => text SUtf8 a b
  | SUtf16 a, SOrdinary b => text SUtf16 a b
  | SUtf32 a, SOrdinary b => text SUtf32 a b
  | SWide a, SOrdinary b => text SWide a b
  | _, _ => None
  end.
Definition ascii_only (s : lit_string) : Prop := match s with SOrdinary b => Forall (fun c => c < 128)%N b | _ => True end.
Definition is_wide (s : lit_string) : Prop := match s with SWide _ => True | _ => False end.
(** The prefixes of literals. *)
Definition prefixes : list string := ["u8"; "u"; "U"; "L"].
Definition is_literal (e : expr) : Prop := match e with ELit _ => True | _ => False end.

Section Grammar.
Variable types : str -> bool.
Variable supported : bool.

Inductive string_run : list mtoken -> lit_string -> list mtoken -> Prop :=
| sr_one s r : string_run (MLit (LString s) :: r) s r
| sr_more ts a r1 b c r :
    string_run ts a r1 -> uncomment r1 = MLit (LString b) :: r -> join a b = Some c ->
    (* supported: no comment between the literals *)
    (supported = true -> uncomment r1 = r1) ->
    (* supported: what joins a wide literal is ASCII *)
    (supported = true -> is_wide a -> ascii_only b) ->
    string_run ts c r.
(** What strings are made of: literals, stringified parameters, and names of
    strings (parameters, or macros of the compiler like [__FILE__]). *)
Inductive string_part : list mtoken -> expr -> list mtoken -> Prop :=
| sp_run ts s r : string_run ts s r -> string_part ts (ELit (LString s)) r
| sp_stringify i ts r : uncomment ts = MArg i :: r -> string_part (P "#" :: ts) (EStringify (EVar (IArg i))) r
| sp_name ts n r : names ts n r -> begins types ts -> (forall x r', ts = MIdent x :: r' -> ~ In x (map st prefixes)) -> string_part ts (EVar n) r.
(** Two or more parts; adjacent literals are in the same part. *)
Inductive string_parts : list mtoken -> list expr -> list mtoken -> Prop :=
| sq_two ts a r1 b r :
    string_part ts a r1 -> string_part (uncomment r1) b r -> ~ (is_literal a /\ is_literal b) -> string_parts ts [a; b] r
| sq_more ts l a r1 b r :
    string_parts ts (l ++ [a]) r1 -> string_part (uncomment r1) b r -> ~ (is_literal a /\ is_literal b) ->
    string_parts ts (l ++ [a; b]) r.

Inductive derives : level -> list mtoken -> expr -> list mtoken -> Prop :=
(* A tighter expression is an expression. *)
| d_up l l' ts e r : tighter l = Some l' -> derives l' ts e r -> derives l ts e r
(* 6.5.1 *)
| d_name x r : is_name types x -> derives Primary (MIdent x :: r) (EVar (IPlain x)) r
| d_arg i r : derives Primary (MArg i :: r) (EVar (IArg i)) r
| d_pasted ts l r : pasted ts l r -> begins types ts -> derives Primary ts (EVar (IConcat l)) r
| d_literal l r : derives Primary (MLit l :: r) (ELit l) r
| d_joined ts s r : string_run ts s r -> derives Primary ts (ELit (LString s)) r
| d_stringify i ts r : uncomment ts = MArg i :: r -> derives Primary (P "#" :: ts) (EStringify (EVar (IArg i))) r
| d_strings ts l r : string_parts ts l r -> derives Primary ts (EConcat l) r
| d_paren ts e r1 r :
    derives Comma (uncomment ts) e r1 -> uncomment r1 = P ")" :: r ->
    (* supported: a name in parentheses is not followed by what could be the
       operand of a cast *)
    (supported = true -> bare e -> ~ starts_operand r) ->
    derives Primary (P "(" :: ts) e r
(* 6.5.2; E1[E2] is *(E1 + E2) and E->M is the member M of *E *)
| d_index ts e r1 r2 i r3 r :
    derives Postfix ts e r1 -> uncomment r1 = P "[" :: r2 ->
    derives Comma (uncomment r2) i r3 -> uncomment r3 = P "]" :: r ->
    (* supported: not after a postfix increment *)
    (supported = true -> ~ incremented e) ->
    derives Postfix ts (EUnary UDeref (EBinary e OAdd i)) r
| d_call ts f r1 r2 args r3 r :
    derives Postfix ts (EVar f) r1 -> uncomment r1 = P "(" :: r2 ->
    arguments (uncomment r2) args r3 -> uncomment r3 = P ")" :: r ->
    derives Postfix ts (ECall f args) r
| d_member ts e r1 r2 m r :
    derives Postfix ts e r1 -> uncomment r1 = P "." :: r2 -> names (uncomment r2) m r ->
    (* supported: not after a postfix increment *)
    (supported = true -> ~ incremented e) ->
    derives Postfix ts (EBinary e OMember (EVar m)) r
| d_arrow ts e r1 r2 m r :
    derives Postfix ts e r1 -> uncomment r1 = P "->" :: r2 -> names (uncomment r2) m r ->
    derives Postfix ts (EBinary (EUnary UDeref e) OMember (EVar m)) r
| d_postfix ts e r1 p o r :
    derives Postfix ts e r1 -> uncomment r1 = P p :: r -> In (p, o) postfix_increments ->
    (* supported: not after a postfix increment *)
    (supported = true -> ~ incremented e) ->
    derives Postfix ts (EUnary o e) r
(* 6.5.3 *)
| d_increment p o ts e r : In (p, o) increments -> derives Unary (uncomment ts) e r -> derives Unary (P p :: ts) (EUnary o e) r
| d_unary p o ts e r : In (p, o) unary_operators -> derives Cast (uncomment ts) e r -> derives Unary (P p :: ts) (EUnary o e) r
| d_sizeof ts ts1 T t r0 r :
    uncomment ts1 = P "(" :: ts -> uncomment ts = T ++ r0 -> uncomment r0 = P ")" :: r -> type_name types T t ->
    (* supported: no comment beside the parentheses *)
    (supported = true -> uncomment ts1 = ts1) -> (supported = true -> uncomment r0 = r0) ->
    derives Unary (kw "sizeof" :: ts1) (ESizeOf t) r
(* 6.5.4 *)
| d_cast ts T t r0 r1 e r :
    uncomment ts = T ++ r0 -> uncomment r0 = P ")" :: r1 -> type_name types T t -> derives Cast (uncomment r1) e r ->
    (* supported: no comment beside the parenthesis *)
    (supported = true -> uncomment r0 = r0) -> (supported = true -> uncomment r1 = r1) ->
    derives Cast (P "(" :: ts) (ECast t e) r
(* 6.5.5 to 6.5.14 *)
| d_binary l l' ts a r1 p o r2 b r :
    tighter l = Some l' -> In (p, o) (binary_operators l) ->
    derives l ts a r1 -> uncomment r1 = P p :: r2 -> derives l' (uncomment r2) b r ->
    (* supported: no logical operator *)
    (supported = true -> ~ logical l) ->
    derives l ts (EBinary a o b) r
(* 6.5.15 *)
| d_conditional ts c r1 r2 a r3 r4 b r :
    derives LogicalOr ts c r1 -> uncomment r1 = P "?" :: r2 ->
    derives Comma (uncomment r2) a r3 -> uncomment r3 = P ":" :: r4 ->
    derives Conditional (uncomment r4) b r ->
    derives Conditional ts (ETernary c a b) r
(* 6.5.16 *)
| d_assign ts a r1 p o r2 b r :
    derives Unary ts a r1 -> uncomment r1 = P p :: r2 -> In (p, o) assignment_operators ->
    derives Assignment (uncomment r2) b r ->
    derives Assignment ts (EBinary a o b) r
(* The arguments of a call. *)
with arguments : list mtoken -> list expr -> list mtoken -> Prop :=
| a_none r : arguments r [] r
| a_some ts e r1 es r : derives Assignment ts e r1 -> more_arguments r1 es r -> arguments ts (e :: es) r
with more_arguments : list mtoken -> list expr -> list mtoken -> Prop :=
| m_none r : more_arguments r [] r
| m_some r1 r2 e r3 es r :
    uncomment r1 = P "," :: r2 -> derives Assignment (uncomment r2) e r3 -> more_arguments r3 es r ->
    more_arguments r1 (e :: es) r.
End Grammar.

(** [ts] is a C expression with the tree [e]. *)
Definition c_expression (types : str -> bool) (ts : list mtoken) (e : expr) : Prop := derives types false Comma ts e [].
(** ... and within the supported part. *)
Definition supported_expression (types : str -> bool) (ts : list mtoken) (e : expr) : Prop := derives types true Comma ts e [].
