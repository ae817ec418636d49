(** A reader of Rust expressions: the grammar, precedence and associativity of
    the Rust reference, for the forms of expressions that are generated.

    The reader is independent of the code that is modelled: it takes tokens and
    returns a tree, or nothing if the tokens are not an expression of this
    fragment. *)
From Verif Require Import Base Utf Lex LexFloat Token Rust.
From Coq Require Import String List.
Import ListNotations.
Local Open Scope string_scope.
Local Open Scope list_scope.

(** ** Trees *)

(** Expressions, without parentheses.  A path keeps its tokens, and so do types,
    macros (other than [addr_of_mut!]) and repetitions. *)
Inductive rx :=
| XPath (p : list rtok)
| XLit (l : rlit)
| XUnit
| XUn (op : str) (e : rx)
| XBin (op : str) (a b : rx)
| XAssign (op : str) (a b : rx)
| XCast (e : rx) (ty : list rtok)
| XCall (f : rx) (args : list rx)
| XMethod (e : rx) (name : str) (args : list rx)
| XField (e : rx) (name : list rtok)
| XMac (p : list rtok) (d : delim) (ts : list rtok)
| XAddrOf (e : rx)
| XRepeat (ts : list rtok)
| XArray (l : list rx)
| XIf (c : rx) (a : rblock) (b : option rblock)
| XLoop (b : rblock)
| XBlock (b : rblock)
| XBreak | XContinue
with rblock := RB (l : list rstmt) (tail : option rx)
with rstmt :=
| RsLet (kind : list rtok) (name : str) (ty : option (list rtok)) (e : rx)
| RsExpr (e : rx)
| RsItem (ts : list rtok).

(** ** Tokens *)

Definition is_p (p : string) (t : rtok) : bool := match t with RPunct q => str_eqb q (st p) | _ => false end.
Arguments is_p p%string t.
Definition is_id (s : string) (t : rtok) : bool := match t with RId q => str_eqb q (st s) | _ => false end.
Arguments is_id s%string t.
Definition one_of (l : list string) (s : str) : bool := existsb (fun x => str_eqb s (st x)) l.

(** Words that do not start a path. *)
Definition keyword (s : str) : bool :=
  one_of ["as"; "break"; "const"; "continue"; "else"; "enum"; "extern"; "false"; "fn"; "for"; "if"; "impl"; "in"; "let"; "loop";
          "match"; "mod"; "move"; "mut"; "pub"; "ref"; "return"; "static"; "struct"; "trait"; "true"; "type";
          "unsafe"; "use"; "where"; "while"] s.

(** ** Precedence

    From the Rust reference, weakest to strongest: assignment (right), [||],
    [&&], comparisons (not associative), [|], [^], [&], shifts, sums, products,
    [as], unary operators, calls and fields. *)
Definition binop_level (p : str) : option nat :=
  if one_of ["*"; "/"; "%"] p then Some 12
  else if one_of ["+"; "-"] p then Some 11
  else if one_of ["<<"; ">>"] p then Some 10
  else if one_of ["&"] p then Some 9
  else if one_of ["^"] p then Some 8
  else if one_of ["|"] p then Some 7
  else if one_of ["=="; "!="; "<"; ">"; "<="; ">="] p then Some 6
  else if one_of ["&&"] p then Some 5
  else if one_of ["||"] p then Some 4
  else None.
Definition is_assign_op (p : str) : bool :=
  one_of ["="; "+="; "-="; "*="; "/="; "%="; "&="; "|="; "^="; "<<="; ">>="] p.
Definition is_unary_op (p : str) : bool := one_of ["-"; "!"; "*"; "&"] p.
Definition assign_level := 2.
Definition cmp_level := 6.
Definition as_level := 13.
Definition unary_level := 14.
Definition postfix_level := 15.

(** ** Types and paths *)

(** A path: names separated by [::]. *)
Fixpoint rd_segs (ts : list rtok) : list rtok * list rtok :=
  match ts with
  | RPunct p :: RId s :: r =>
    if str_eqb p (st "::") && negb (keyword s) then
      let (a, b) := rd_segs r in (RPunct p :: RId s :: a, b)
    else ([], ts)
  | _ => ([], ts)
  end.
Definition rd_path (ts : list rtok) : option (list rtok * list rtok) :=
  match ts with
  | RId s :: r => if keyword s then None else let (a, b) := rd_segs r in Some (RId s :: a, b)
  | RPunct p :: RId s :: r =>
    if str_eqb p (st "$") then Some ([RPunct p; RId s], r)
    else match rd_segs ts with ([], _) => None | x => Some x end
  | _ => None
  end.
(** What may not follow the path of a type: it would continue the type. *)
Definition continues_type (t : rtok) : bool :=
  match t with
  | RPunct p => one_of ["<"; "<<"; "::"] p
  | RGroup DParen _ => true
  | _ => false
  end.
Definition rd_path_ty (ts : list rtok) : option (list rtok * list rtok) :=
  match rd_path ts with
  | Some (p, RPunct q :: RGroup d g :: r) =>
    if str_eqb q (st "!") then Some (p ++ [RPunct q; RGroup d g], r)
    else if continues_type (RPunct q) then None else Some (p, RPunct q :: RGroup d g :: r)
  | Some (p, t :: r) => if continues_type t then None else Some (p, t :: r)
  | x => x
  end.
(** A type: raw pointers, references to arrays and slices, the empty tuple,
    paths, macros. *)
Fixpoint rd_ty (ts : list rtok) : option (list rtok * list rtok) :=
  match ts with
  | RPunct p :: RId q :: r =>
    if str_eqb p (st "*") && one_of ["const"; "mut"] q then
      match rd_ty r with Some (a, b) => Some (RPunct p :: RId q :: a, b) | None => None end
    else rd_path_ty ts
  | RPunct p :: RGroup DBracket g :: r => if str_eqb p (st "&") then Some ([RPunct p; RGroup DBracket g], r) else None
  | RPunct p :: RLife l :: RGroup DBracket g :: r =>
    if str_eqb p (st "&") then Some ([RPunct p; RLife l; RGroup DBracket g], r) else None
  | RGroup DParen [] :: r => Some ([RGroup DParen []], r)
  | _ => rd_path_ty ts
  end.

(** ** Expressions *)

(** The functions of the reader: an expression of at least some level, what
    follows an operand, an operand with its prefix operators, comma-separated
    expressions, a block.  All but the last two return the tokens left over. *)
Record reader := mk_reader {
  r_expr : nat -> list rtok -> option (rx * list rtok);
  r_loop : nat -> rx -> list rtok -> option (rx * list rtok);
  r_pre : list rtok -> option (rx * list rtok);
  r_args : list rtok -> option (list rx);
  r_block : list rtok -> option rblock }.

(** The whole of [ts] is one expression. *)
Definition whole (x : option (rx * list rtok)) : option rx :=
  match x with Some (e, []) => Some e | _ => None end.
Definition is_cmp (t : rtok) : bool :=
  match t with RPunct p => match binop_level p with Some l => Nat.eqb l cmp_level | None => false end | _ => false end.
Definition head_is (f : rtok -> bool) (ts : list rtok) : bool := match ts with t :: _ => f t | [] => false end.
Definition last_is (s : string) (p : list rtok) : bool := head_is (is_id s) (rev p).
Arguments last_is s%string p.

(** An expression that is a statement without semicolon. *)
Definition blocklike (ts : list rtok) : bool :=
  match ts with
  | RGroup DBrace _ :: _ => true
  | RId s :: _ => one_of ["if"; "loop"; "unsafe"] s
  | _ => false
  end.

Section Step.
Variable self : reader.

Definition expr_step (p : nat) (ts : list rtok) : option (rx * list rtok) :=
  x <-? r_pre self ts ;; r_loop self p (fst x) (snd x).

(** After an operand: a field, a method, a call, a cast, a binary operator or an
    assignment, if it binds strongly enough. *)
Definition binary_step (p : nat) (x : rx) (q : str) (r ts : list rtok) : option (rx * list rtok) :=
  match binop_level q with
  | Some l =>
    if Nat.leb p l then
      y <-? r_expr self (S l) r ;;
      if Nat.eqb l cmp_level && head_is is_cmp (snd y) then None else r_loop self p (XBin q x (fst y)) (snd y)
    else Some (x, ts)
  | None =>
    if is_assign_op q && Nat.leb p assign_level then
      y <-? r_expr self assign_level r ;; r_loop self p (XAssign q x (fst y)) (snd y)
    else Some (x, ts)
  end.
Definition loop_step (p : nat) (x : rx) (ts : list rtok) : option (rx * list rtok) :=
  match ts with
  | RPunct q :: r =>
    if str_eqb q (st ".") then
      match r with
      | RId f :: r' =>
        if keyword f then None
        else match r' with
             | RGroup DParen g :: r'' => l <-? r_args self g ;; r_loop self p (XMethod x f l) r''
             | _ => r_loop self p (XField x [RId f]) r'
             end
      | RPunct d :: RId f :: r' => if str_eqb d (st "$") then r_loop self p (XField x [RPunct d; RId f]) r' else None
      | _ => None
      end
    else binary_step p x q r ts
  | RGroup DParen g :: r => l <-? r_args self g ;; r_loop self p (XCall x l) r
  | RId a :: r =>
    if str_eqb a (st "as") && Nat.leb p as_level then
      y <-? rd_ty r ;; r_loop self p (XCast x (fst y)) (snd y)
    else Some (x, ts)
  | _ => Some (x, ts)
  end.

(** An operand that starts with a path: a macro, a generic path, or the path. *)
Definition path_step (ts : list rtok) : option (rx * list rtok) :=
  x <-? rd_path ts ;;
  let (p, r) := x in
  match r with
  | RPunct q :: RGroup d g :: r' =>
    if str_eqb q (st "!") then
      if last_is "addr_of_mut" p then
        y <-? whole (r_expr self 0 g) ;; Some (XAddrOf y, r')
      else Some (XMac p d g, r')
    else Some (XPath p, r)
  | RPunct q :: RPunct q' :: r' =>
    if str_eqb q (st "::") && str_eqb q' (st "<") then
      y <-? rd_ty r' ;;
      match snd y with
      | RPunct q'' :: r'' => if str_eqb q'' (st ">") then Some (XPath (p ++ RPunct q :: RPunct q' :: fst y ++ [RPunct q'']), r'') else None
      | _ => None
      end
    else Some (XPath p, r)
  | _ => Some (XPath p, r)
  end.
Definition word_step (s : str) (r ts : list rtok) : option (rx * list rtok) :=
  if str_eqb s (st "if") then
    c <-? r_expr self 0 r ;;
    match snd c with
    | RGroup DBrace a :: RId e :: RGroup DBrace b :: r' =>
      if str_eqb e (st "else") then
        x <-? r_block self a ;; y <-? r_block self b ;; Some (XIf (fst c) x (Some y), r')
      else x <-? r_block self a ;; Some (XIf (fst c) x None, RId e :: RGroup DBrace b :: r')
    | RGroup DBrace a :: r' => x <-? r_block self a ;; Some (XIf (fst c) x None, r')
    | _ => None
    end
  else if str_eqb s (st "loop") then
    match r with
    | RGroup DBrace a :: r' => x <-? r_block self a ;; Some (XLoop x, r')
    | _ => None
    end
  else if str_eqb s (st "unsafe") then
    match r with
    | RGroup DBrace a :: r' => x <-? r_block self a ;; Some (XBlock x, r')
    | _ => None
    end
  else if str_eqb s (st "break") then Some (XBreak, r)
  else if str_eqb s (st "continue") then Some (XContinue, r)
  else path_step ts.
Definition pre_step (ts : list rtok) : option (rx * list rtok) :=
  match ts with
  | RLit l :: r => Some (XLit l, r)
  | RId s :: r => word_step s r ts
  | RGroup DParen [] :: r => Some (XUnit, r)
  | RGroup DParen g :: r => x <-? whole (r_expr self 0 g) ;; Some (x, r)
  | RGroup DBrace g :: r => b <-? r_block self g ;; Some (XBlock b, r)
  | RGroup DBracket g :: r => l <-? r_args self g ;; Some (XArray l, r)
  | RPunct p :: r =>
    if is_unary_op p then
      x <-? r_expr self unary_level r ;; Some (XUn p (fst x), snd x)
    else path_step ts
  | _ => None
  end.

Definition args_step (ts : list rtok) : option (list rx) :=
  match ts with
  | [] => Some []
  | _ =>
    x <-? match ts with
          | RPunct a :: RGroup DParen g :: RPunct b :: RPunct d :: r =>
            if str_eqb a (st "$") && str_eqb b (st ",") && str_eqb d (st "*") then Some (XRepeat g, r) else r_expr self 0 ts
          | _ => r_expr self 0 ts
          end ;;
    match snd x with
    | [] => Some [fst x]
    | RPunct c :: r => if str_eqb c (st ",") then l <-? r_args self r ;; Some (fst x :: l) else None
    | _ => None
    end
  end.

Definition add_stmt (s : rstmt) (b : rblock) : rblock := match b with RB l t => RB (s :: l) t end.
(** [let name [: ty] = e;] after the keywords. *)
Definition let_step (kind ts : list rtok) : option rblock :=
  match ts with
  | RId x :: RPunct q :: r =>
    t <-? (if str_eqb q (st ":") then
             y <-? rd_ty r ;;
             match snd y with
             | RPunct e :: r' => if str_eqb e (st "=") then Some (Some (fst y), r') else None
             | _ => None
             end
           else if str_eqb q (st "=") then Some (None, r) else None) ;;
    v <-? r_expr self 0 (snd t) ;;
    match snd v with
    | RPunct e :: r' => if str_eqb e (st ";") then omap (add_stmt (RsLet kind x (fst t) (fst v))) (r_block self r') else None
    | _ => None
    end
  | _ => None
  end.
Definition stmt_step (ts : list rtok) : option rblock :=
  if blocklike ts then
    x <-? r_pre self ts ;;
    match snd x with
    | [] => Some (RB [] (Some (fst x)))
    | t :: _ => if is_p "." t then None else omap (add_stmt (RsExpr (fst x))) (r_block self (snd x))
    end
  else
    x <-? r_expr self 0 ts ;;
    match snd x with
    | [] => Some (RB [] (Some (fst x)))
    | RPunct e :: r => if str_eqb e (st ";") then omap (add_stmt (RsExpr (fst x))) (r_block self r) else None
    | _ => None
    end.
Definition block_step (ts : list rtok) : option rblock :=
  match ts with
  | [] => Some (RB [] None)
  | RId a :: RId b :: r =>
    if one_of ["let"; "static"] a && str_eqb b (st "mut") then let_step [RId a; RId b] r
    else if one_of ["let"; "const"; "static"] a then let_step [RId a] (RId b :: r)
    else stmt_step ts
  | RId a :: RLit l :: RGroup DBrace g :: r =>
    if str_eqb a (st "extern") then omap (add_stmt (RsItem [RId a; RLit l; RGroup DBrace g])) (r_block self r) else stmt_step ts
  | RPunct q :: r => if str_eqb q (st ";") then r_block self r else stmt_step ts
  | _ => stmt_step ts
  end.
Definition step_reader : reader := mk_reader expr_step loop_step pre_step args_step block_step.
End Step.

(** With enough steps. *)
Definition no_reader : reader :=
  mk_reader (fun _ _ => None) (fun _ _ _ => None) (fun _ => None) (fun _ => None) (fun _ => None).
Fixpoint rd (n : nat) : reader := match n with O => no_reader | S n => step_reader (rd n) end.

(** [ts] is the Rust expression [x]; [ts] is the body of the Rust block [b]. *)
Definition reads (ts : list rtok) (x : rx) : Prop := exists n, r_expr (rd n) 0 ts = Some (x, []).
Definition reads_block (ts : list rtok) (b : rblock) : Prop := exists n, r_block (rd n) ts = Some b.
