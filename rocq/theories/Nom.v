(** The nom combinators used on token slices, and src/ast/tokens.rs.

    A nom parser over [&[MacroToken]] returns the remaining slice and a value,
    or an error.  Only [Err::Error] occurs ([complete] parsers on slices never
    return [Incomplete] or [Failure]), so errors carry no data here.  The third
    outcome, [PFuel], is not a nom outcome: it marks exhaustion of the fuel of
    a recursive parser, and is proved unreachable (ParseFacts.v). *)
From Verif Require Import Base Utf Lex LexFloat Token Ast.
From Coq Require Import String List.
Local Open Scope list_scope.

Inductive pres (A : Type) : Type :=
| POk (rest : list mtoken) (a : A)
| PErr
| PFuel.
Arguments POk {A} rest a.
Arguments PErr {A}.
Arguments PFuel {A}.

Definition parser (A : Type) : Type := list mtoken -> pres A.

(** Sequencing ([tuple], [pair], the [?] operator between parsers). *)
Definition pbind {A B} (p : parser A) (k : A -> parser B) : parser B := fun ts =>
  match p ts with POk r a => k a r | PErr => PErr | PFuel => PFuel end.
Notation "x <~ p ;; k" := (pbind p (fun x => k)) (at level 61, p at next level, right associativity).
Notation "p ;;> k" := (pbind p (fun _ => k)) (at level 61, right associativity).

Definition pret {A} (a : A) : parser A := fun ts => POk ts a.
(** [combinator::fail]. *)
Definition pfail {A} : parser A := fun _ => PErr.

(** [combinator::map], [combinator::value], [combinator::map_opt]. *)
Definition pmap {A B} (f : A -> B) (p : parser A) : parser B := x <~ p ;; pret (f x).
Definition pvalue {A B} (b : B) (p : parser A) : parser B := p ;;> pret b.
Definition pmap_opt {A B} (f : A -> option B) (p : parser A) : parser B :=
  x <~ p ;; match f x with Some y => pret y | None => pfail end.

(** [sequence::terminated], [preceded], [delimited]. *)
Definition terminated {A B} (p : parser A) (q : parser B) : parser A := x <~ p ;; q ;;> pret x.
Definition preceded {A B} (p : parser A) (q : parser B) : parser B := p ;;> q.
Definition delimited {A B C} (p : parser A) (q : parser B) (r : parser C) : parser B := p ;;> (x <~ q ;; r ;;> pret x).
Definition ppair {A B} (p : parser A) (q : parser B) : parser (A * B) := x <~ p ;; y <~ q ;; pret (x, y).

(** [branch::alt] of two parsers (longer [alt]s are nested to the right): the
    first that succeeds; a success is final. *)
Definition palt {A} (p q : parser A) : parser A := fun ts =>
  match p ts with PErr => q ts | r => r end.
Fixpoint palts {A} (l : list (parser A)) : parser A :=
  match l with [] => pfail | p :: l' => palt p (palts l') end.

(** [combinator::opt]. *)
Definition popt {A} (p : parser A) : parser (option A) := fun ts =>
  match p ts with POk r a => POk r (Some a) | PErr => POk ts None | PFuel => PFuel end.

(** [combinator::eof] and [combinator::all_consuming]. *)
Definition peof : parser unit := fun ts => match ts with [] => POk [] tt | _ => PErr end.
Definition pall_consuming {A} (p : parser A) : parser A := x <~ p ;; peof ;;> pret x.

(** [multi::fold_many0]: repeat until the parser errors; an iteration that
    consumes nothing is an error (nom's infinite-loop check).  Each iteration
    consumes at least one token, so [S (length ts)] iterations suffice. *)
Fixpoint fold_many0_n {A B} (n : nat) (p : parser B) (f : A -> B -> A) (acc : A) (ts : list mtoken) : pres A :=
  match n with
  | O => PFuel
  | S n' =>
    match p ts with
    | PErr => POk ts acc
    | PFuel => PFuel
    | POk r b =>
      if Nat.eqb (length r) (length ts) then PErr
      else fold_many0_n n' p f (f acc b) r
    end
  end.
Definition fold_many0 {A B} (p : parser B) (f : A -> B -> A) (acc : A) : parser A := fun ts =>
  fold_many0_n (S (length ts)) p f acc ts.

(** [multi::many0]. *)
Definition many0 {A} (p : parser A) : parser (list A) := fold_many0 p (fun acc x => acc ++ [x]) [].

(** [multi::separated_list0]. *)
Fixpoint sep_list_n {A X} (n : nat) (sep : parser X) (p : parser A) (acc : list A) (ts : list mtoken) : pres (list A) :=
  match n with
  | O => PFuel
  | S n' =>
    match sep ts with
    | PErr => POk ts acc
    | PFuel => PFuel
    | POk r _ =>
      if Nat.eqb (length r) (length ts) then PErr
      else match p r with
      | PErr => POk ts acc
      | PFuel => PFuel
      | POk r2 x => sep_list_n n' sep p (acc ++ [x]) r2
      end
    end
  end.
Definition separated_list0 {A X} (sep : parser X) (p : parser A) : parser (list A) := fun ts =>
  match p ts with
  | PErr => POk ts []
  | PFuel => PFuel
  | POk r x => sep_list_n (S (length r)) sep p [x] r
  end.

(** [branch::permutation]: in each round the parsers not applied yet are tried
    in order and the first that succeeds is applied; an error when parsers
    remain and all of them fail.  The tuple of results is represented by a
    state [X] that each parser updates. *)
Fixpoint perm_try {X} (ps : list (bool * parser (X -> X))) (s : X) (ts : list mtoken)
  : pres (list (bool * parser (X -> X)) * X) :=
  match ps with
  | [] => PErr
  | (true, p) :: ps' =>
    match perm_try ps' s ts with
    | POk r (ps2, s2) => POk r ((true, p) :: ps2, s2)
    | PErr => PErr
    | PFuel => PFuel
    end
  | (false, p) :: ps' =>
    match p ts with
    | POk r f => POk r ((true, p) :: ps', f s)
    | PFuel => PFuel
    | PErr =>
      match perm_try ps' s ts with
      | POk r (ps2, s2) => POk r ((false, p) :: ps2, s2)
      | PErr => PErr
      | PFuel => PFuel
      end
    end
  end.
Fixpoint perm_loop {X} (n : nat) (ps : list (bool * parser (X -> X))) (s : X) (ts : list mtoken) : pres X :=
  if forallb fst ps then POk ts s
  else match n with
  | O => PErr
  | S n' =>
    match perm_try ps s ts with
    | POk r (ps2, s2) => perm_loop n' ps2 s2 r
    | PErr => PErr
    | PFuel => PFuel
    end
  end.
Definition permutation {X} (ps : list (parser (X -> X))) (s : X)   : parser X :=
  perm_loop (length ps) (map (pair false) ps) s.

(** ** src/ast/tokens.rs *)

(** [take_one], 20-29. *)
Definition take_one : parser mtoken := fun ts => match ts with t :: ts' => POk ts' t | [] => PErr end.

(** [macro_arg], 12-14, [macro_id], 16-18, [comment], 31-36. *)
Definition macro_arg : parser nat := pmap_opt (fun t => match t with MArg i => Some i | _ => None end) take_one.
Definition macro_id : parser str := pmap_opt (fun t => match t with MIdent id => Some id | _ => None end) take_one.
Definition comment : parser str := pmap_opt (fun t => match t with MComment c => Some c | _ => None end) take_one.

(** [meta], 38-40. *)
Definition meta : parser (list str) := many0 comment.

(** [punct], 42-54, and [id] / [keyword], 56-76. *)
Definition punct (p : string) : parser str :=
  pmap_opt (fun t => match t with MPunct q => if str_eqb (st p) q then Some (st p) else None | _ => None end) take_one.
Definition id (i : string) : parser str :=
  pmap_opt (fun t => match t with MIdent j => if str_eqb j (st i) then Some (st i) else None | _ => None end) take_one.
Definition keyword := id.
Arguments punct p%string.
Arguments id i%string.
Arguments keyword i%string.

(** [parenthesized], 78-86. *)
Definition parenthesized {A} (p : parser A) : parser A := delimited (ppair (punct "(") meta) p (ppair meta (punct ")")).
