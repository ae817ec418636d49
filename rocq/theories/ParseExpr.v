(** The expression parser, src/ast/expr.rs:46-340 and src/ast/stringify.rs:30-38.

    The Rust functions are mutually recursive.  Each is modelled by a
    definition over [rec], which stands for the recursive calls; [pexpr] ties
    the knot with explicit fuel and answers [PFuel] when it runs out.
    ParseFacts.v proves that the fuel used by [expr_parse] never runs out. *)
From Verif Require Import Base Utf Lex LexFloat Token Ast Nom ParseTok.
From Coq Require Import String List.
Local Open Scope list_scope.

(** One level per Rust parsing function. *)
Inductive lvl := LFactor | LPrec1 | LPrec2 | LPrec3 | LPrec4 | LPrec5 | LPrec6 | LPrec7 | LPrec8 | LPrec9 | LPrec10 | LPrec13 | LPrec14.

Section ParseExpr.
Context `{Unicode}.

(** [Stringify::parse], src/ast/stringify.rs:30-38. *)
Definition stringify_parse : parser expr :=
  preceded (terminated (punct "#") meta)
    (palt (pmap (fun a => EStringify (EVar (IArg a))) macro_arg)
          (pmap (fun i => EStringify (EVar (IPlain i))) macro_id)).

(** [Expr::parse_concat_string], 47-66. *)
Definition concat_part : parser expr :=
  palt (palt (pmap (fun s => ELit (LString s)) lit_string_parse) stringify_parse)
       (pmap EVar parse_concat_ident).
Definition concat_add (acc e : expr) : expr :=
  match acc with EConcat l => EConcat (l ++ [e]) | _ => EConcat [acc; e] end.
Definition parse_concat_string : parser expr :=
  s <~ concat_part ;; fold_many0 (preceded meta concat_part) concat_add s.

(** [Access], 81-87. *)
Inductive access := AFn (args : list expr) | AField (field : ident_expr) (deref : bool) | AArray (index : expr) | AUnary (op : unop).
Definition access_is_postfix (a : access) : bool :=
  match a with AUnary UPostInc | AUnary UPostDec => true | _ => false end.

(** The closure of the [fold_many0] of [parse_term_prec1], 114-146; [None] is
    its [Err(())]. *)
Definition access_apply (e : expr) (was : bool) (a : access) : option expr :=
  match e, a with
  | _, AUnary op => if was then None else Some (EUnary op e)
  | EVar name, AFn args => Some (ECall name args)
  | _, AField f deref =>
    if negb was || deref
    then Some (EBinary (if deref then EUnary UDeref e else e) OMember (EVar f))
    else None
  | _, AArray i => if was then None else Some (EUnary UDeref (EBinary e OAdd i))
  | _, AFn _ => None
  end.
Definition access_step (acc : option (expr * bool)) (a : access) : option (expr * bool) :=
  match acc with
  | Some (e, was) => omap (fun e' => (e', access_is_postfix a)) (access_apply e was a)
  | None => None
  end.

Section Step.
Variable rec : lvl -> parser expr.

(** [parse_factor], 68-76. *)
Definition parse_factor : parser expr :=
  palts [pmap ESizeOf (preceded (keyword "sizeof") (parenthesized type_parse));
         pmap (fun c => ELit (LChar c)) lit_char_parse;
         parse_concat_string;
         pmap ELit lit_parse;
         parenthesized (rec LPrec14)].

(** The postfix operators of [parse_term_prec1], 93-112. *)
Definition parse_access : parser access :=
  palts [pmap AFn (parenthesized (separated_list0 (meta ;;> (punct "," ;;> meta)) (rec LPrec14)));
         pmap (fun f => AField f false) (preceded (terminated (punct ".") meta) parse_concat_ident);
         pmap AArray (delimited (terminated (punct "[") meta) (rec LPrec14) (preceded meta (punct "]")));
         pmap (fun f => AField f true) (preceded (terminated (punct "->") meta) parse_concat_ident);
         pmap AUnary (palt (pvalue UPostInc (punct "++")) (pvalue UPostDec (punct "--")))].

(** [parse_term_prec1], 78-149. *)
Definition parse_term_prec1 : parser expr :=
  factor <~ rec LFactor ;;
  pmap_opt (omap fst) (fold_many0 (preceded meta parse_access) access_step (Some (factor, false))).

(** [parse_term_prec2], 151-177. *)
Definition parse_prefix_op : parser unop :=
  palts [pvalue UDeref (punct "*"); pvalue UAddrOf (punct "&"); pvalue UInc (punct "++"); pvalue UDec (punct "--");
         pvalue UPlus (punct "+"); pvalue UMinus (punct "-"); pvalue UNot (punct "!"); pvalue UComp (punct "~")].
Definition parse_term_prec2 : parser expr :=
  palts [pmap (fun x => ECast (fst x) (snd x)) (ppair (parenthesized type_parse) (rec LPrec2));
         pmap (fun x => EUnary (fst x) (snd x)) (ppair (terminated parse_prefix_op meta) (rec LPrec2));
         rec LPrec1].

(** A left-associative level: a term and a fold over (operator, term) pairs. *)
Definition parse_left (term : parser expr) (op : parser binop) : parser expr :=
  t <~ term ;;
  fold_many0 (ppair (delimited meta op meta) term) (fun lhs x => EBinary lhs (fst x) (snd x)) t.

(** [parse_term_prec3] to [parse_term_prec10], 179-285. *)
Definition parse_term_prec3 : parser expr :=
  parse_left (rec LPrec2) (palts [pvalue OMul (punct "*"); pvalue ODiv (punct "/"); pvalue ORem (punct "%")]).
Definition parse_term_prec4 : parser expr :=
  parse_left (rec LPrec3) (palts [pvalue OAdd (punct "+"); pvalue OSub (punct "-")]).
Definition parse_term_prec5 : parser expr :=
  parse_left (rec LPrec4) (palts [pvalue OShl (punct "<<"); pvalue OShr (punct ">>")]).
Definition parse_term_prec6 : parser expr :=
  parse_left (rec LPrec5)
    (palts [pvalue OLt (punct "<"); pvalue OLte (punct "<="); pvalue OGt (punct ">"); pvalue OGte (punct ">=")]).
Definition parse_term_prec7 : parser expr :=
  parse_left (rec LPrec6) (palts [pvalue OEq (punct "=="); pvalue ONeq (punct "!=")]).
Definition parse_term_prec8 : parser expr := parse_left (rec LPrec7) (palts [pvalue OBitAnd (punct "&")]).
Definition parse_term_prec9 : parser expr := parse_left (rec LPrec8) (palts [pvalue OBitXor (punct "^")]).
Definition parse_term_prec10 : parser expr := parse_left (rec LPrec9) (palts [pvalue OBitOr (punct "|")]).

(** [parse_term_prec13], 287-306. *)
Definition parse_term_prec13 : parser expr :=
  term <~ rec LPrec10 ;;
  q <~ popt (delimited meta (punct "?") meta) ;;
  match q with
  | Some _ =>
    a <~ rec LPrec14 ;; delimited meta (punct ":") meta ;;> b <~ rec LPrec13 ;; pret (ETernary term a b)
  | None => pret term
  end.

(** [parse_term_prec14], 308-335. *)
Definition parse_assign_op : parser binop :=
  palts [pvalue OAssign (punct "="); pvalue OAddAssign (punct "+="); pvalue OSubAssign (punct "-=");
         pvalue OMulAssign (punct "*="); pvalue ODivAssign (punct "/="); pvalue ORemAssign (punct "%=");
         pvalue OShlAssign (punct "<<="); pvalue OShrAssign (punct ">>="); pvalue OBitAndAssign (punct "&=");
         pvalue OBitXorAssign (punct "^="); pvalue OBitOrAssign (punct "|=")].
Definition parse_term_prec14 : parser expr :=
  t <~ rec LPrec13 ;;
  fold_many0 (ppair (delimited meta parse_assign_op meta) (rec LPrec14)) (fun lhs x => EBinary lhs (fst x) (snd x)) t.

Definition expr_step (l : lvl) : parser expr :=
  match l with
  | LFactor => parse_factor
  | LPrec1 => parse_term_prec1
  | LPrec2 => parse_term_prec2
  | LPrec3 => parse_term_prec3
  | LPrec4 => parse_term_prec4
  | LPrec5 => parse_term_prec5
  | LPrec6 => parse_term_prec6
  | LPrec7 => parse_term_prec7
  | LPrec8 => parse_term_prec8
  | LPrec9 => parse_term_prec9
  | LPrec10 => parse_term_prec10
  | LPrec13 => parse_term_prec13
  | LPrec14 => parse_term_prec14
  end.
End Step.

Fixpoint pexpr (fuel : nat) (l : lvl) (ts : list mtoken) : pres expr :=
  match fuel with
  | O => PFuel
  | S n => expr_step (pexpr n) l ts
  end.

(** [Expr::parse], 338-340. *)
Definition expr_fuel (n : nat) : nat := 14 * S n.
Definition expr_parse : parser expr := fun ts => pexpr (expr_fuel (length ts)) LPrec14 ts.

End ParseExpr.
