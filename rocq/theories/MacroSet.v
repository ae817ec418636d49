(** Model of [MacroSet], src/macro_set/mod.rs:51-870. *)
From Verif Require Import Base Utf Lex LexFloat Token.
From Coq Require Import String List.
Local Open Scope list_scope.

(** ** Finite maps with string keys ([HashMap<String, V>]) *)
Definition smap (V : Type) := list (str * V).

(** [get]. *)
Fixpoint sm_get {V} (m : smap V) (k : str) : option V :=
  match m with
  | [] => None
  | (k', v) :: m' => if str_eqb k k' then Some v else sm_get m' k
  end.

(** [remove] (the map afterwards). *)
Definition sm_remove {V} (m : smap V) (k : str) : smap V :=
  filter (fun e => negb (str_eqb k (fst e))) m.

(** [insert]. *)
Definition sm_insert {V} (m : smap V) (k : str) (v : V) : smap V := (k, v) :: sm_remove m k.

(** [MacroSet], src/macro_set/mod.rs:51-55. *)
Record macro_set := mk_set {
  var_macros : smap (list str);
  fn_macros : smap (list str * list str)
}.

(** [MacroSet::new], src/macro_set/mod.rs:424-427. *)
Definition ms_new : macro_set := mk_set [] [].

(** [old.zip(new).all(|(t1, t2)| t1 == t2)] over the non-whitespace tokens,
    e.g. src/macro_set/mod.rs:768-771: [zip] stops at the shorter one. *)
Fixpoint zip_all_equal (a b : list str) : bool :=
  match a, b with
  | x :: a', y :: b' => str_eqb x y && zip_all_equal a' b'
  | _, _ => true
  end.
Definition non_white (l : list str) : list str := filter (fun t => negb (is_whitespace t)) l.
Definition same_tokens (old new : list str) : bool := zip_all_equal (non_white old) (non_white new).

(** [define_var_macro], src/macro_set/mod.rs:755-780; returns the new set and
    whether the macro was reported as redefined. *)
Definition define_var_macro (m : macro_set) (name : str) (body : list str) : macro_set * bool :=
  match sm_get (var_macros m) name with
  | Some old =>
    (mk_set (sm_insert (sm_remove (var_macros m) name) name body) (fn_macros m),
     negb (same_tokens old body))
  | None =>
    (mk_set (sm_insert (var_macros m) name body) (sm_remove (fn_macros m) name),
     match sm_get (fn_macros m) name with Some _ => true | None => false end)
  end.

(** [undefine_var_macro], src/macro_set/mod.rs:793-798. *)
Definition undefine_var_macro (m : macro_set) (name : str) : macro_set * bool :=
  (mk_set (sm_remove (var_macros m) name) (fn_macros m),
   match sm_get (var_macros m) name with Some _ => true | None => false end).

(** [define_fn_macro], src/macro_set/mod.rs:800-834. *)
Definition define_fn_macro (m : macro_set) (name : str) (args body : list str) : macro_set * bool :=
  match sm_get (fn_macros m) name with
  | Some (old_args, old_body) =>
    (mk_set (var_macros m) (sm_insert (sm_remove (fn_macros m) name) name (args, body)),
     negb (same_tokens old_args args && same_tokens old_body body))
  | None =>
    (mk_set (sm_remove (var_macros m) name) (sm_insert (fn_macros m) name (args, body)),
     match sm_get (var_macros m) name with Some _ => true | None => false end)
  end.

(** [undefine_fn_macro], src/macro_set/mod.rs:852-857. *)
Definition undefine_fn_macro (m : macro_set) (name : str) : macro_set * bool :=
  (mk_set (var_macros m) (sm_remove (fn_macros m) name),
   match sm_get (fn_macros m) name with Some _ => true | None => false end).

(** ** Sets of names ([HashSet<&str>]) as lists without duplicates *)
Definition set_insert (x : str) (s : list str) : list str := if str_mem x s then s else x :: s.

(** ** [collect_args], src/macro_set/mod.rs:576-638 *)

(** The loop; [stack] holds the open brackets, [args]/[cur] are reversed.
    [None] is [Err(CollectArgsError)] (only tested for [Ok] by the caller, who
    then keeps its iterator unchanged). *)
Fixpoint collect_loop (stack : list str) (args : list (list token)) (cur : list token) (it : list token)
  : option (list (list token) * list token) :=
  match it with
  | [] => None
  | t :: it' =>
    match t with
    | TPunct p =>
      if str_eqb p (st "(") then collect_loop (st "(" :: stack) args (t :: cur) it'
      else if str_eqb p (st ")") then
        match stack with
        | [] => Some (rev (rev cur :: args), it')
        | q :: stack' => if str_eqb q (st "(") then collect_loop stack' args (t :: cur) it' else None
        end
      else if str_eqb p (st "[") then collect_loop (st "[" :: stack) args (t :: cur) it'
      else if str_eqb p (st "]") then
        match stack with
        | [] => None
        | q :: stack' => if str_eqb q (st "[") then collect_loop stack' args (t :: cur) it' else None
        end
      else if str_eqb p (st "{") then collect_loop (st "{" :: stack) args (t :: cur) it'
      else if str_eqb p (st "}") then
        match stack with
        | [] => None
        | q :: stack' => if str_eqb q (st "{") then collect_loop stack' args (t :: cur) it' else None
        end
      else if str_eqb p (st ",") then
        match stack with
        | [] => collect_loop stack (rev cur :: args) [] it'
        | _ => collect_loop stack args (t :: cur) it'
        end
      else collect_loop stack args (t :: cur) it'
    | _ => collect_loop stack args (t :: cur) it'
    end
  end.

Definition collect_args (it : list token) : option (list (list token) * list token) :=
  match it with
  | TPunct p :: it' => if str_eqb p (st "(") then collect_loop [] [] [] it' else None
  | _ => None
  end.

(** [contains_var_args], src/macro_set/mod.rs:428-430. *)
Definition contains_var_args (body : list token) : bool := existsb is_var_args body.

(** [remove_placemarkers], src/macro_set/mod.rs:751-753. *)
Definition remove_placemarkers (l : list token) : list token := filter (fun t => negb (is_placemarker t)) l.

(** [tokens.pop()] until a token that is not a comment,
    src/macro_set/mod.rs:733 ([acc] is reversed). *)
Fixpoint pop_lhs (acc : list token) : option (token * list token) :=
  match acc with
  | [] => None
  | TComment _ :: acc' => pop_lhs acc'
  | t :: acc' => Some (t, acc')
  end.

Section Expand.
Context `{Unicode}.

(** [expand_concat], src/macro_set/mod.rs:710-749.  [pending] is the left
    operand while comments before the right operand are being skipped. *)
Fixpoint concat_loop (pending : option token) (acc : list token) (it : list token) : res xerr (list token) :=
  match it with
  | [] => match pending with None => ROk (rev acc) | Some _ => RErr ConcatEnd end
  | t :: it' =>
    match pending with
    | Some lhs =>
      if is_comment_token t then concat_loop pending acc it'
      else r <- token_concat lhs t ;; concat_loop None (r :: acc) it'
    | None =>
      if is_punct (st "##") t && negb (peek_is is_arg_token acc) && negb (peek_is is_arg_token it') then
        match pop_lhs acc with
        | None => RErr ConcatBegin
        | Some (lhs, acc') =>
          if peek_is (is_punct (st "##")) it'
          then r <- token_concat lhs TPlacemarker ;; concat_loop None (r :: acc') it'
          else concat_loop (Some lhs) acc' it'
        end
      else concat_loop None (t :: acc) it'
    end
  end.
Definition expand_concat (tokens : list token) : res xerr (list token) := concat_loop None [] tokens.

(** Everything below is open recursion through [expand_macro_body]: [rec
    names body] is the recursive call. *)
Section Rec.
Variable ms : macro_set.
Variable rec : list str -> list token -> res xerr (list token).

(** The argument a parameter token stands for, src/macro_set/mod.rs:662-675;
    [nparams] is [arg_names.len()].  Out-of-range indexing/slicing panics. *)
Fixpoint join_args (args : list (list token)) : list token :=
  match args with
  | [] => []
  | [a] => a
  | a :: args' => a ++ TPunct (st ",") :: join_args args'
  end.
Definition argument_of (nparams : nat) (args : list (list token)) (t : token) : option (list token) :=
  match t with
  | TArg i => nth_error args i
  | _ => match nparams with
         | O => None
         | S n => if Nat.leb n (length args) then Some (join_args (skipn n args)) else None
         end
  end.

(** [expand_arguments], src/macro_set/mod.rs:640-708 ([acc] is [tokens]
    reversed). *)
Fixpoint expand_arguments_loop (names : list str) (nparams : nat) (args : list (list token))
  (acc : list token) (it : list token) : res xerr (list token) :=
  match it with
  | [] => ROk (rev acc)
  | t :: it' =>
    if is_punct (st "#") t then
      if peek_is is_arg_token it' then expand_arguments_loop names nparams args (t :: acc) it'
      else RErr StringifyNonArgument
    else if is_arg_token t then
      match argument_of nparams args t with
      | None => RPanic
      | Some arg =>
        if peek_is (is_punct (st "#")) acc then
          expand_arguments_loop names nparams args
            (rev (stringify (Nat.ltb 1 (length names)) arg) ++ tl acc) it'
        else if peek_is (is_punct (st "##")) acc || peek_is (is_punct (st "##")) it' then
          e <- rec names arg ;;
          expand_arguments_loop names nparams args
            (match e with [] => TPlacemarker :: acc | _ => rev e ++ acc end) it'
        else
          e <- rec names arg ;; expand_arguments_loop names nparams args (rev e ++ acc) it'
      end
    else expand_arguments_loop names nparams args (t :: acc) it'
  end.
Definition expand_arguments (names : list str) (nparams : nat) (args : list (list token)) (body : list token)
  : res xerr (list token) := expand_arguments_loop names nparams args [] body.

(** Shared tail of [expand_var_macro_body] (500-506) and
    [expand_fn_macro_body] (567-572). *)
Definition concat_and_rescan (names : list str) (name : str) (body : list token) : res xerr (list token) :=
  b <- expand_concat body ;;
  rec (set_insert name names) (remove_placemarkers b).

(** [expand_var_macro_body], src/macro_set/mod.rs:487-507. *)
Definition expand_var_macro_body (names : list str) (name : str) (body : list token) : res xerr (list token) :=
  if contains_var_args body then RErr NonVariadicVarArgs
  else concat_and_rescan names name body.

(** First parameter (in order) that occurs again later,
    src/macro_set/mod.rs:545-560. *)
Definition param_name (t : token) : option str :=
  match t with TPunct p => Some p | TIdent id => Some id | _ => None end.
Fixpoint filter_map {A B} (f : A -> option B) (l : list A) : list B :=
  match l with
  | [] => []
  | a :: l' => match f a with Some b => b :: filter_map f l' | None => filter_map f l' end
  end.
Fixpoint first_duplicate (l : list str) : option str :=
  match l with
  | [] => None
  | x :: l' => if str_mem x l' then Some x else first_duplicate l'
  end.

(** [arg_names] without comments, src/macro_set/mod.rs:520. *)
Definition drop_comments (l : list token) : list token := filter (fun t => negb (is_comment_token t)) l.
(** [matches!(arg_names.last(), Some(Token::Punctuation(p)) if p == "...")], line 522. *)
Definition is_variadic (arg_names : list token) : bool := peek_is (is_punct (st "...")) (rev arg_names).

(** [expand_fn_macro_body], src/macro_set/mod.rs:509-574. *)
Definition expand_fn_macro_body (names : list str) (name : str) (arg_names : list token)
  (args : option (list (list token))) (body : list token) : res xerr (list token) :=
  let arg_names := drop_comments arg_names in
  let arity_error :=
    match args with
    | Some args =>
      if negb (Nat.eqb (length arg_names) (length args))
         && negb (match arg_names with [] => match args with [] => true | a :: _ => match a with [] => true | _ => false end end | _ => false end)
      then Some (FnMacroArgumentError name (length arg_names) (length args)) else None
    | None => None
    end in
  if negb (is_variadic arg_names) && contains_var_args body then RErr NonVariadicVarArgs
  else match (if negb (is_variadic arg_names) then arity_error else None) with
  | Some e => RErr e
  | None =>
    match first_duplicate (filter_map param_name arg_names) with
    | Some d => RErr (NonUniqueArgument d)
    | None =>
      b <- match args with
           | Some args => expand_arguments names (length arg_names) args body
           | None => ROk body
           end ;;
      concat_and_rescan names name b
    end
  end.

(** The scan of [expand_macro_body], src/macro_set/mod.rs:441-484 ([acc] is
    [tokens] reversed); a replacement restarts on the whole token list. *)
Fixpoint scan (names : list str) (acc : list token) (it : list token) : res xerr (list token) :=
  match it with
  | [] => ROk (rev acc)
  | t :: it' =>
    match t with
    | TIdent id =>
      if str_mem id names then scan names (TNonRepl t :: acc) it'
      else
        let var_macro :=
          match sm_get (var_macros ms) id with
          | Some body =>
            e <- expand_var_macro_body names id (tokenize [] body) ;;
            rec names (rev acc ++ e ++ it')
          | None => scan names (t :: acc) it'
          end in
        if peek_is (is_punct (st "(")) it' then
          match sm_get (fn_macros ms) id with
          | Some (params, body) =>
            match collect_args it' with
            | Some (args, it'') =>
              arg_names <- tokenize_arg_names params ;;
              e <- expand_fn_macro_body names id arg_names (Some args) (tokenize arg_names body) ;;
              rec names (rev acc ++ e ++ it'')
            | None => var_macro
            end
          | None => var_macro
          end
        else var_macro
    | _ => scan names (t :: acc) it'
    end
  end.
End Rec.

(** [expand_macro_body], src/macro_set/mod.rs:432-485.  The fuel bounds the
    depth of recursive calls. *)
Fixpoint expand_macro_body (ms : macro_set) (fuel : nat) (names : list str) (body : list token)
  : res xerr (list token) :=
  match fuel with
  | O => RFuel
  | S f => scan ms (expand_macro_body ms f) names [] body
  end.

(** [expand_var_macro], src/macro_set/mod.rs:782-791. *)
Definition expand_var_macro (ms : macro_set) (fuel : nat) (name : str) : res xerr (list mtoken) :=
  match sm_get (var_macros ms) name with
  | None => RErr MacroNotFound
  | Some body =>
    t <- expand_var_macro_body (expand_macro_body ms fuel) [] name (tokenize [] body) ;;
    detokenize 0 t
  end.

(** [expand_fn_macro], src/macro_set/mod.rs:836-850. *)
Definition expand_fn_macro (ms : macro_set) (fuel : nat) (name : str) : res xerr (list mtoken * list mtoken) :=
  match sm_get (fn_macros ms) name with
  | None => RErr MacroNotFound
  | Some (params, body) =>
    arg_names <- tokenize_arg_names params ;;
    t <- expand_fn_macro_body (expand_macro_body ms fuel) [] name arg_names None (tokenize arg_names body) ;;
    b <- detokenize (length arg_names) t ;;
    a <- detokenize 0 arg_names ;;
    ROk (a, b)
  end.

(** [expand], src/macro_set/mod.rs:859-869. *)
Definition expand (ms : macro_set) (fuel : nat) (body : list str) : res xerr (list mtoken) :=
  t <- expand_var_macro_body (expand_macro_body ms fuel) [] [] (tokenize [] body) ;;
  detokenize 0 t.
End Expand.
