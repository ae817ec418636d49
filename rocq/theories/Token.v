(** Model of the preprocessing tokens of src/macro_set/mod.rs and of
    src/macro_token/mod.rs. *)
From Verif Require Import Base Utf Lex LexFloat.
From Coq Require Import String List.
Local Open Scope list_scope.

(** [ExpansionError], src/macro_set/mod.rs:59-87. *)
Inductive xerr :=
| MacroNotFound
| InvalidToken (s : str)
| FnMacroArgumentError (name : str) (required given : nat)
| ConcatBegin
| ConcatEnd
| NonVariadicVarArgs
| NonUniqueArgument (s : str)
| StringifyNonArgument
| InvalidConcat
| InvalidArgumentName.

(** [Token], src/macro_set/mod.rs:399-421.  [Cow]/[Box] are erased; a
    [Punctuation]/[Identifier]/... is represented by its string. *)
Inductive token :=
| TNonRepl (t : token)
| TArg (i : nat)
| TVarArgs
| TPunct (p : str)
| TIdent (id : str)
| TIdCont (s : str)
| TLit (l : lit) (spelling : str)
| TPlain (s : str)
| TComment (s : str)
| TPlacemarker.

(** [MacroToken], src/macro_token/mod.rs:18-31. *)
Inductive mtoken :=
| MArg (i : nat)
| MIdent (id : str)
| MIdCont (s : str)
| MLit (l : lit)
| MPunct (p : str)
| MComment (s : str).

(** [t == Token::Punctuation(Punctuation { punctuation: p })]. *)
Definition is_punct (p : str) (t : token) : bool :=
  match t with TPunct q => str_eqb q p | _ => false end.
Definition is_comment_token (t : token) : bool :=
  match t with TComment _ => true | _ => false end.
(** [matches!(t, Token::MacroArg(_) | Token::VarArgs)]. *)
Definition is_arg_token (t : token) : bool :=
  match t with TArg _ | TVarArgs => true | _ => false end.
Definition is_var_args (t : token) : bool :=
  match t with TVarArgs => true | _ => false end.
Definition is_placemarker (t : token) : bool :=
  match t with TPlacemarker => true | _ => false end.

(** [it.peek()] satisfies [p]. *)
Definition peek_is (p : token -> bool) (it : list token) : bool :=
  match it with t :: _ => p t | [] => false end.

(** [is_comment], src/macro_set/mod.rs:110-112. *)
Definition is_comment (s : str) : bool :=
  (starts_with s (st "/*") && ends_with s (st "*/")) || starts_with s (st "//").

(** [is_whitespace], src/macro_set/mod.rs:114-117. *)
Definition is_whitespace (s : str) : bool :=
  let s := trim s in
  match s with [] => true | _ => is_comment s end.

Section Tokens.
Context `{Unicode}.

(** [Token::from_str], src/macro_set/mod.rs:190-206. *)
Definition from_str (s : str) : token :=
  if str_eqb s (st "__VA_ARGS__") then TVarArgs
  else match identifier_try_from s with
  | Some id => TIdent id
  | None =>
  match lit_try_from s with
  | Some l => TLit l s
  | None =>
  match identifier_continue_try_from s with
  | Some c => TIdCont c
  | None =>
  match punct_try_from s with
  | Some p => TPunct p
  | None =>
  match comment_try_from s with
  | Some c => TComment c
  | None => TPlain s
  end end end end end.

(** [Token] equality restricted to identifiers, for [arg_names.contains(&token)]
    at src/macro_set/mod.rs:137 (the token looked for is an identifier). *)
Definition contains_ident (id : str) (l : list token) : bool :=
  existsb (fun t => match t with TIdent id' => str_eqb id id' | _ => false end) l.

(** Loop of [tokenize_arg_names], src/macro_set/mod.rs:129-154; [acc] is
    [arg_names] so far. *)
Fixpoint tokenize_arg_names_loop (variadic : bool) (acc : list token) (names : list str)
  : res xerr (list token) :=
  match names with
  | [] => ROk acc
  | n :: names' =>
    let t := from_str n in
    match t with
    | TIdent id =>
      if variadic then RErr InvalidArgumentName
      else if contains_ident id acc then RErr (NonUniqueArgument id)
      else tokenize_arg_names_loop variadic (acc ++ [t]) names'
    | TPunct p =>
      if str_eqb p (st "...") then
        if variadic then RErr (NonUniqueArgument (st "..."))
        else tokenize_arg_names_loop true (acc ++ [t]) names'
      else RErr InvalidArgumentName
    | TComment _ => tokenize_arg_names_loop variadic (acc ++ [t]) names'
    | _ => RErr InvalidArgumentName
    end
  end.

(** [tokenize_arg_names], src/macro_set/mod.rs:119-157. *)
Definition tokenize_arg_names (names : list str) : res xerr (list token) :=
  tokenize_arg_names_loop false [] names.

(** [position] of the parameter named [t] among the punctuation and identifier
    parameters, src/macro_set/mod.rs:167-171. *)
Fixpoint arg_position (t : str) (i : nat) (arg_names : list token) : option nat :=
  match arg_names with
  | [] => None
  | TIdent id :: l => if str_eqb id t then Some i else arg_position t (S i) l
  | TPunct _ :: l => arg_position t (S i) l
  | _ :: l => arg_position t i l
  end.

(** [tokenize], src/macro_set/mod.rs:159-178. *)
Definition tokenize (arg_names : list token) (tokens : list str) : list token :=
  map (fun t => match arg_position t 0 arg_names with
                | Some i => TArg i
                | None => from_str t
                end) tokens.

(** [StringifyAction], src/macro_set/mod.rs:180-187. *)
Inductive stringify_action := SKeep | SSkip | SAppend (s : str).

(** [Token::stringify], src/macro_set/mod.rs:208-232. *)
Fixpoint token_stringify (nested : bool) (t : token) : stringify_action :=
  match t with
  | TArg _ => SKeep
  | TVarArgs => if nested then SKeep else SAppend (st "__VA_ARGS__")
  | TIdent id =>
    if nested && (str_eqb id (st "__LINE__") || str_eqb id (st "__FILE__")) then SKeep else SAppend id
  | TIdCont s => SAppend s
  | TNonRepl t => token_stringify nested t
  | TLit _ s => SAppend s
  | TPlain s => SAppend s
  | TPunct s => SAppend s
  | TComment _ => SSkip
  | TPlacemarker => SSkip
  end.

(** Hexadecimal digits without leading zeros, as printed in [\u{..}]. *)
Definition hex_digit (d : N) : N := if (d <? 10)%N then (48 + d)%N else (87 + d)%N.
Fixpoint hex_aux (fuel : nat) (n : N) (acc : str) : str :=
  match fuel with
  | O => acc
  | S f => if (n <? 16)%N then hex_digit n :: acc
           else hex_aux f (n / 16)%N (hex_digit (n mod 16)%N :: acc)
  end.
Definition hex (n : N) : str := hex_aux 8 n [].

(** One character as printed by [format!("{:?}", s)] (std, [str]'s [Debug]). *)
Definition debug_char (c : N) : str :=
  (if c =? 0 then [92; 48]
   else if c =? 9 then [92; 116]
   else if c =? 13 then [92; 114]
   else if c =? 10 then [92; 110]
   else if c =? 34 then [92; 34]
   else if c =? 92 then [92; 92]
   else if (32 <=? c) && (c <? 127) then [c]
   else if (128 <=? c) && negb (u_escape c) then [c]
   else [92; 117; 123] ++ hex c ++ [125])%N.

(** [format!("{s:?}")], src/macro_set/mod.rs:378. *)
Definition debug_str (s : str) : str := [34%N] ++ flat_map debug_char s ++ [34%N].

(** State of [stringify]: tokens kept so far (reversed), the current string,
    and [space_before_next]. *)
Fixpoint stringify_loop (nested : bool) (kept : list token) (cur : option str) (space : bool)
  (l : list token) : list token * option str :=
  match l with
  | [] => (kept, cur)
  | t :: l' =>
    match token_stringify nested t with
    | SKeep => stringify_loop nested (t :: TPunct (st "#") :: kept) cur space l'
    | SSkip => stringify_loop nested kept cur space l'
    | SAppend tok =>
      let s := match cur with Some s => s | None => [] end in
      let no_space_before := existsb (str_eqb tok) [st ")"; st "]"; st "}"; st "."; st ","; st "("] in
      let s := if negb no_space_before && space then s ++ [32%N] else s in
      let space' := negb (existsb (str_eqb tok) [st "("; st "["; st "{"; st "."]) in
      stringify_loop nested kept (Some (s ++ tok)) space' l'
    end
  end.

(** [stringify], src/macro_set/mod.rs:345-385. *)
Definition stringify (nested : bool) (l : list token) : list token :=
  let '(kept, cur) := stringify_loop nested [] None false l in
  let tokens := rev kept ++
    match cur with
    | Some s => [TLit (LString (SOrdinary (utf8_encode s))) (debug_str s)]
    | None => []
    end in
  match tokens with
  | [] => [TLit (LString (SOrdinary [])) (st """""")]
  | _ => tokens
  end.

(** [Token::detokenize], src/macro_set/mod.rs:234-247.  [arg_names.len() - 1]
    underflows (panics in a build with overflow checks) without parameters. *)
Fixpoint token_detokenize (nparams : nat) (t : token) : res xerr (option mtoken) :=
  match t with
  | TArg i => ROk (Some (MArg i))
  | TVarArgs => match nparams with O => RPanic | S n => ROk (Some (MArg n)) end
  | TIdent id => ROk (Some (MIdent id))
  | TIdCont s => ROk (Some (MIdCont s))
  | TLit l _ => ROk (Some (MLit l))
  | TPlain s => RErr (InvalidToken s)
  | TPunct p => ROk (Some (MPunct p))
  | TComment c => ROk (Some (MComment c))
  | TNonRepl t => token_detokenize nparams t
  | TPlacemarker => ROk None
  end.

(** [detokenize], src/macro_set/mod.rs:387-389: the parameter list is only
    used for its length; collecting stops at the first error. *)
Fixpoint detokenize (nparams : nat) (l : list token) : res xerr (list mtoken) :=
  match l with
  | [] => ROk []
  | t :: l' =>
    o <- token_detokenize nparams t ;;
    r <- detokenize nparams l' ;;
    ROk (match o with Some m => m :: r | None => r end)
  end.

(** [NonReplacable] wrappers removed. *)
Fixpoint strip_nr (t : token) : token :=
  match t with TNonRepl t => strip_nr t | t => t end.

(** Reclassification of a pasted spelling, src/macro_set/mod.rs:333-342. *)
Definition reclassify (s : str) : token :=
  match identifier_try_from s with
  | Some id => TIdent id
  | None =>
  match lit_try_from s with
  | Some l => TLit l s
  | None =>
  match identifier_continue_try_from s with
  | Some c => TIdCont c
  | None => TPlain s
  end end end.

(** Spelling of the operands of the textual paste, src/macro_set/mod.rs:314-326. *)
Definition textual (t : token) : option str :=
  match t with
  | TIdent s | TIdCont s | TLit _ s | TPlain s => Some s
  | _ => None
  end.

(** [matches!(id, "u8" | "u" | "U" | "L")]. *)
Definition is_encoding_prefix (id : str) : bool :=
  existsb (str_eqb id) [st "u8"; st "u"; st "U"; st "L"].

(** [Token::concat] on operands without [NonReplacable],
    src/macro_set/mod.rs:249-331, arms in source order. *)
Definition concat_stripped (lhs rhs : token) : res xerr token :=
  match lhs, rhs with
  | TPlacemarker, r => ROk r
  | l, TPlacemarker => ROk l
  | TIdent l, (TIdent r | TIdCont r) => ROk (TIdent (l ++ r))
  | TPunct l, TPunct r =>
    match punct_concat l r with
    | Some p => ROk (TNonRepl (TPunct p))
    | None => RErr InvalidConcat
    end
  | TLit (LString _ | LChar _) _, _ => RErr InvalidConcat
  | TPunct l, TLit lt r =>
    if str_eqb l (st ".") then
      match lt with
      | LString _ | LChar _ => RErr InvalidConcat
      | LInt _ | LFloat _ =>
        let s := l ++ r in
        match lit_try_from s with
        | Some lt' => ROk (TLit lt' s)
        | None => RErr InvalidConcat
        end
      end
    else RErr InvalidConcat
  | TIdent l, TLit lt r =>
    match lt with
    | LString (SOrdinary _) | LChar (COrdinary _) =>
      if is_encoding_prefix l then
        match lit_try_from (l ++ r) with
        | Some lt' => ROk (TLit lt' (l ++ r))
        | None => RPanic
        end
      else RErr InvalidConcat
    | LString _ | LChar _ => RErr InvalidConcat
    | LInt _ => ROk (TIdent (l ++ r))
    | LFloat _ =>
      if forallb is_xid_continue r then
        match identifier_try_from (l ++ r) with
        | Some id => ROk (TIdent id)
        | None => RPanic
        end
      else RErr InvalidConcat
    end
  | l, r =>
    match textual l, textual r with
    | Some a, Some b => ROk (reclassify (a ++ b))
    | _, _ =>
      match l, r with
      | TPunct _, _ => RErr InvalidConcat
      | _, TPunct _ => RErr InvalidConcat
      | _, _ => RPanic (* unreachable!() *)
      end
    end
  end.

(** [Token::concat], src/macro_set/mod.rs:249-342: the first two arms strip
    [NonReplacable] from both operands before anything else. *)
Definition token_concat (lhs rhs : token) : res xerr token :=
  concat_stripped (strip_nr lhs) (strip_nr rhs).

End Tokens.
