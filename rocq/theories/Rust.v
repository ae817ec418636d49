(** The Rust side of code generation: tokens, [syn] types, the code generation
    context and the conversion of types (src/context.rs, src/codegen/mod.rs,
    src/ast/ty.rs). *)
From Verif Require Import Base Utf Lex LexFloat Token Ast ParseStmt.
From Coq Require Import String SpecFloat List.
Local Open Scope string_scope.
Local Open Scope list_scope.

(** ** Tokens *)

(** Literals of [proc_macro2].  A negative number is not one token:
    [proc_macro2] splits it into a minus sign and the literal of its absolute
    value.  A floating-point literal is kept as the (non-negative, finite)
    number whose decimal expansion is printed, with its width; strings as their
    characters, byte strings as their bytes. *)
Inductive rlit :=
| RlInt (v : Z) (suffix : str)
| RlFloat (w : Z) (f : spec_float)
| RlChar (c : N)
| RlStr (s : str)
| RlBytes (b : list N).

Inductive delim := DParen | DBrace | DBracket.

(** [proc_macro2::TokenTree]; an operator of several characters is one token. *)
Inductive rtok :=
| RId (s : str)
| RPunct (p : str)
| RLife (s : str)
| RLit (l : rlit)
| RGroup (d : delim) (ts : list rtok).

Definition rp (p : string) : rtok := RPunct (st p).
Definition ri (s : string) : rtok := RId (st s).
Arguments rp p%string.
Arguments ri s%string.
Definition parens (ts : list rtok) : rtok := RGroup DParen ts.
Definition braces (ts : list rtok) : rtok := RGroup DBrace ts.
Definition brackets (ts : list rtok) : rtok := RGroup DBracket ts.

(** [#(#l),*] and the like. *)
Fixpoint sep_by (sep : rtok) (l : list (list rtok)) : list rtok :=
  match l with
  | [] => []
  | [x] => x
  | x :: l' => x ++ sep :: sep_by sep l'
  end.

(** A number as [Literal::..._unsuffixed] or [..._suffixed] appends it. *)
Definition int_toks (v : Z) (suffix : string) : list rtok :=
  if (v <? 0)%Z then [rp "-"; RLit (RlInt (- v) (st suffix))] else [RLit (RlInt v (st suffix))].
Arguments int_toks v suffix%string.

(** [Ident::new]: panics unless the text is an identifier or keyword
    ([proc_macro2]'s fallback accepts keywords and [_]). *)
Definition ident_tok `{Unicode} (s : str) : option rtok := if is_identifier s then Some (RId s) else None.

(** ** Types and paths of [syn] *)

(** [syn::Path]: leading colon, segments with the tokens of their generic
    arguments. *)
Record spath := mk_path { sp_colon : bool; sp_segs : list (str * list rtok) }.

(** [syn::Type]: raw pointers, the empty tuple, paths (with the tokens of the
    qualified self type), verbatim tokens with their text, and all other types
    with their text. *)
Inductive sty :=
| STPtr (mutable : bool) (t : sty)
| STUnit
| STPath (qself : option (list rtok)) (p : spath)
| STVerbatim (text : str) (toks : list rtok)
| STOther (text : str) (toks : list rtok).

Definition path_toks (p : spath) : list rtok :=
  (if sp_colon p then [rp "::"] else []) ++ sep_by (rp "::") (map (fun s => RId (fst s) :: snd s) (sp_segs p)).
(** [#(#prefix::)*]. *)
Definition pfx (o : option spath) : list rtok :=
  match o with Some p => path_toks p ++ [rp "::"] | None => [] end.

(** [impl ToTokens for syn::Type].  For a qualified self type the tokens are
    those carried along. *)
Fixpoint sty_toks (t : sty) : list rtok :=
  match t with
  | STPtr m t => rp "*" :: ri (if m then "mut" else "const") :: sty_toks t
  | STUnit => [parens []]
  | STPath (Some q) _ => q
  | STPath None p => path_toks p
  | STVerbatim _ ts | STOther _ ts => ts
  end.

(** ** src/context.rs *)

(** [CodegenContext], 104-184.  Simplification: the methods are functions of
    their arguments (an implementation with interior mutability could answer
    differently each time). *)
Record cgctx := mk_cgctx {
  cx_target : option str;
  cx_ffi : option spath;
  cx_trait : option spath;
  cx_arg_ty : str -> str -> option sty;
  cx_enum : str -> option (sty * list rtok);
  cx_ty : str -> option sty;
  cx_field : str -> str -> option sty;
  cx_fn : str -> option (list sty * sty) }.

(** [impl CodegenContext for ()], 235: the default methods. *)
Definition cx_unit : cgctx :=
  mk_cgctx None None None (fun _ _ => None) (fun _ => None) (fun _ => None) (fun _ _ => None) (fun _ => None).

(** [MacroArgType], 5-19. *)
Inductive arg_ty := AIdent | AExpr | ATy | ATt | AKnown (t : ctype) | AUnknown.

(** [LocalContext], 22-31; the global context is a parameter of the functions. *)
Record lctx := mk_lctx {
  lc_names : list str;
  lc_types : list arg_ty;
  lc_macro : bool;
  lc_cstr : bool;
  lc_elide : bool;
  lc_var : bool }.

(** [LocalContext::new], 37-47. *)
Definition lctx_new : lctx := mk_lctx [] [] false true true false.
Definition set_macro (b : bool) (c : lctx) : lctx := mk_lctx (lc_names c) (lc_types c) b (lc_cstr c) (lc_elide c) (lc_var c).
Definition set_types (l : list arg_ty) (c : lctx) : lctx := mk_lctx (lc_names c) l (lc_macro c) (lc_cstr c) (lc_elide c) (lc_var c).

(** [is_variadic], 51-53. *)
Definition is_variadic (c : lctx) : bool :=
  match rev (lc_names c) with n :: _ => str_eqb n (st "...") | [] => false end.

(** [arg_name], 55-57, [arg_type], 59-61: [None] is an index panic. *)
Definition arg_name (c : lctx) (i : nat) : option str := nth_error (lc_names c) i.
Definition arg_type (c : lctx) (i : nat) : option arg_ty := nth_error (lc_types c) i.
(** [*arg_type_mut(i) = t], 63-65. *)
Fixpoint set_nth {A} (l : list A) (i : nat) (x : A) : option (list A) :=
  match l, i with
  | [], _ => None
  | _ :: l', O => Some (x :: l')
  | y :: l', S i' => omap (cons y) (set_nth l' i' x)
  end.
Definition set_arg_type (c : lctx) (i : nat) (t : arg_ty) : option lctx :=
  omap (fun l => set_types l c) (set_nth (lc_types c) i t).

(** ** src/error.rs, 31-44 ([RecursiveDefinition] is never built). *)
Inductive cgerr :=
| RecursiveDefinition (s : str)
| NonExpressionVarMacro
| NonConstantVarMacro
| UnsupportedExpression (s : str)
| UnsupportedType (s : str).

(** ** src/ast/ty.rs *)

(** [BuiltInType::from_rust_ty], 81-153. *)
Definition rust_names : list (string * builtin) :=
  [("f32", BFloat); ("f64", BDouble); ("f128", BLongDouble); ("bool", BBool);
   ("c_char", BChar); ("c_schar", BSChar); ("c_uchar", BUChar);
   ("u8", BChar8T); ("u16", BChar16T); ("u32", BChar32T);
   ("c_short", BShort); ("c_ushort", BUShort); ("c_int", BInt); ("c_uint", BUInt);
   ("c_long", BLong); ("c_ulong", BULong); ("c_longlong", BLongLong); ("c_ulonglong", BULongLong);
   ("c_size_t", BSizeT); ("c_ssize_t", BSSizeT); ("c_void", BVoid)].
Fixpoint rust_name (l : list (string * builtin)) (s : str) : option builtin :=
  match l with
  | [] => None
  | (n, b) :: l' => if str_eqb s (st n) then Some b else rust_name l' s
  end.
(** The loop over the segments of the prefix, 90-94: what is left. *)
Fixpoint strip_segs (p s : list (str * list rtok)) : option (list (str * list rtok)) :=
  match p, s with
  | [], _ => Some s
  | x :: p', y :: s' => if str_eqb (fst y) (fst x) then strip_segs p' s' else None
  | _ :: _, [] => None
  end.
Definition builtin_from_rust (q : option (list rtok)) (p : spath) (prefix : option spath) : option builtin :=
  match q with
  | Some _ => None
  | None =>
    let rest := match prefix with
      | Some f => if Bool.eqb (sp_colon p) (sp_colon f) then strip_segs (sp_segs f) (sp_segs p) else None
      | None => Some (sp_segs p)
      end in
    match rest with
    | Some [s] => rust_name rust_names (fst s)
    | _ => None
    end
  end.

(** [str::contains]. *)
Fixpoint contains (s p : str) : bool :=
  starts_with s p || match s with [] => false | _ :: s' => contains s' p end.

(** [#(#ffi_prefix::)*name] parsed as a type. *)
Definition ffi_ty (cx : cgctx) (name : string) : sty :=
  STPath None (match cx_ffi cx with
    | Some p => mk_path (sp_colon p) (sp_segs p ++ [(st name, [])])
    | None => mk_path false [(st name, [])]
    end).
Arguments ffi_ty cx name%string.
Definition plain_ty (name : string) : sty := STPath None (mk_path false [(st name, [])]).
Arguments plain_ty name%string.

(** [BuiltInType::to_rust_ty], 155-190. *)
Definition builtin_to_rust (cx : cgctx) (b : builtin) : sty :=
  match b with
  | BFloat => plain_ty "f32"
  | BDouble | BLongDouble => plain_ty "f64"
  | BBool => plain_ty "bool"
  | BChar => ffi_ty cx "c_char"
  | BSChar => ffi_ty cx "c_schar"
  | BUChar => ffi_ty cx "c_uchar"
  | BChar8T => plain_ty "u8"
  | BChar16T => plain_ty "u16"
  | BChar32T => plain_ty "u32"
  | BShort => ffi_ty cx "c_short"
  | BUShort => ffi_ty cx "c_ushort"
  | BInt => ffi_ty cx "c_int"
  | BUInt => ffi_ty cx "c_uint"
  | BLong => ffi_ty cx "c_long"
  | BULong => ffi_ty cx "c_ulong"
  | BLongLong => ffi_ty cx "c_longlong"
  | BULongLong => ffi_ty cx "c_ulonglong"
  | BSizeT =>
    match cx_ty cx (st "size_t") with
    | Some t => t
    | None =>
      if match cx_target cx with Some t => contains t (st "nightly") | None => true end
      then ffi_ty cx "c_size_t" else plain_ty "usize"
    end
  | BSSizeT => ffi_ty cx "c_ssize_t"
  | BVoid => ffi_ty cx "c_void"
  end.
(** [BuiltInType::to_token_stream], [to_tokens], 192-198. *)
Definition builtin_toks (cx : cgctx) (b : builtin) : list rtok := sty_toks (builtin_to_rust cx b).

(** [Type::from_rust_ty], 485-517. *)
Fixpoint from_rust_ty (prefix : option spath) (t : sty) : res cgerr ctype :=
  match t with
  | STPtr m t =>
    t' <- from_rust_ty prefix t ;;
    ROk (if m then TyPtr t' else TyQual (TyPtr t') QConst)
  | STUnit => ROk (TyBuiltIn BVoid)
  | STVerbatim s _ => ROk (TyIdent (IPlain s) false)
  | STPath q p =>
    match builtin_from_rust q p prefix with
    | Some b => ROk (TyBuiltIn b)
    | None =>
      match sp_colon p, sp_segs p with
      | false, [s] => ROk (TyIdent (IPlain (fst s)) false)
      | c, l => ROk (TyPath c (map fst l))
      end
    end
  | STOther s _ => RErr (UnsupportedType s)
  end.

Section WithUnicode.
Context `{Unicode}.

(** [Type::to_rust_ty], 519-551; the inner option is the [None] of the code,
    the outer one a panic. *)
Fixpoint idents (l : list str) : option (list (str * list rtok)) :=
  match l with
  | [] => Some []
  | s :: l' => _ <-? ident_tok s ;; r <-? idents l' ;; Some ((s, []) :: r)
  end.
Fixpoint to_rust_ty (cx : cgctx) (t : ctype) : option (option sty) :=
  match t with
  | TyBuiltIn b => Some (Some (builtin_to_rust cx b))
  | TyIdent (IPlain n) _ => _ <-? ident_tok n ;; Some (Some (STPath None (mk_path false [(n, [])])))
  | TyIdent _ _ => Some None
  | TyPath c l => segs <-? idents l ;; Some (Some (STPath None (mk_path c segs)))
  | TyPtr t => o <-? to_rust_ty cx t ;; Some (omap (STPtr true) o)
  | TyQual t q =>
    match t with
    | TyPtr t' =>
      if q_is_const q then o <-? to_rust_ty cx t' ;; Some (omap (STPtr false) o) else to_rust_ty cx t
    | _ => to_rust_ty cx t
    end
  end.

(** [MacroArg::to_tokens], src/ast/macro_arg.rs:24-37. *)
Definition arg_toks (c : lctx) (i : nat) : option (list rtok) :=
  n <-? arg_name c i ;;
  if str_eqb n (st "...") then
    Some [rp "$"; parens [rp "$"; ri "__VA_ARGS__"]; rp ","; rp "*"]
  else
    t <-? ident_tok n ;;
    Some (if lc_macro c then [rp "$"; t] else [t]).

(** [IdentifierExpr::to_tokens], src/ast/identifier_expr.rs:133-143, and
    [IdentifierContinuationExpr::to_token_stream], 155-167. *)
Definition idpart_toks (c : lctx) (p : idpart) : option (list rtok) :=
  match p with
  | IpArg i => arg_toks c i
  | IpPlain s => omap (fun t => [t]) (ident_tok s)
  | IpInt v => Some (int_toks v "")
  end.
(** All results of a list of token streams, if none panics. *)
Fixpoint all_toks {A} (f : A -> option (list rtok)) (l : list A) : option (list (list rtok)) :=
  match l with
  | [] => Some []
  | x :: l' => a <-? f x ;; r <-? all_toks f l' ;; Some (a :: r)
  end.
Definition ident_toks (cx : cgctx) (c : lctx) (n : ident_expr) : option (list rtok) :=
  match n with
  | IArg i => arg_toks c i
  | IPlain s => omap (fun t => [t]) (ident_tok s)
  | IConcat l =>
    ts <-? all_toks (idpart_toks c) l ;;
    Some (pfx (cx_trait cx) ++ [ri "concat_idents"; rp "!"; parens (sep_by (rp ",") ts)])
  end.

(** [Type::to_tokens], src/ast/ty.rs:453-477. *)
Fixpoint ty_toks (cx : cgctx) (c : lctx) (t : ctype) : option (list rtok) :=
  match t with
  | TyBuiltIn b => Some (builtin_toks cx b)
  | TyIdent n _ => ident_toks cx c n
  | TyPath colon l =>
    ts <-? all_toks (fun s => omap (fun t => [t]) (ident_tok s)) l ;;
    Some ((if colon then [rp "::"] else []) ++ sep_by (rp "::") ts)
  | TyPtr t => ts <-? ty_toks cx c t ;; Some (rp "*" :: ri "mut" :: ts)
  | TyQual t q =>
    match t with
    | TyPtr t' =>
      if q_is_const q then ts <-? ty_toks cx c t' ;; Some (rp "*" :: ri "const" :: ts) else ty_toks cx c t
    | _ => ty_toks cx c t
    end
  end.

End WithUnicode.

(** ** src/codegen/mod.rs *)

(** [quote_static_ref], 6-15. *)
Definition static_ref (c : lctx) (ty : list rtok) : list rtok :=
  if lc_elide c then rp "&" :: ty else rp "&" :: RLife (st "static") :: ty.

(** [quote_c_char_ptr], 18-32. *)
Definition c_char_ptr (cx : cgctx) (c : lctx) (bytes : list rtok) : list rtok :=
  [braces ([ri "const"; ri "BYTES"; rp ":"] ++ static_ref c [brackets [ri "u8"]] ++ [rp "="] ++ bytes ++
            [rp "."; ri "as_bytes"; parens []; rp ";"] ++
           [ri "BYTES"; rp "."; ri "as_ptr"; parens []; ri "as"; rp "*"; ri "const"] ++ pfx (cx_ffi cx) ++ [ri "c_char"])].

(** ** [Version::parse] and [VersionReq::matches] of the [semver] crate, as used
    at src/var_macro.rs:59-75 for the requirements [>=1.17] and [>=1.59]. *)
Definition is_alnum (c : N) : bool := is_digit c || is_upper c || is_lower c || (c =? 45)%N.
(** A numeric identifier: digits without leading zero, at most [u64::MAX]. *)
Definition semver_num (s : str) : option Z :=
  match s with
  | [] => None
  | c :: s' =>
    if forallb is_digit s then
      if (c =? 48)%N && match s' with [] => false | _ => true end then None
      else let v := dec_val s in if (v <=? 0xFFFFFFFFFFFFFFFF)%Z then Some v else None
    else None
  end.
(** Dot-separated identifiers; in a pre-release, numeric ones have no leading
    zero. *)
Definition semver_ids (pre : bool) (s : str) : bool :=
  forallb (fun p => negb (match p with [] => true | _ => false end) && forallb is_alnum p &&
    negb (pre && forallb is_digit p && match p with 48%N :: _ :: _ => true | _ => false end)) (split_on 46 s).
(** Major and minor version, and whether there is a pre-release part. *)
Definition semver_parse (s : str) : option (Z * Z * bool) :=
  let (core0, build) := take_while (fun c => negb (c =? 43)%N) s in
  let (core, pre) := take_while (fun c => negb (c =? 45)%N) core0 in
  if match build with [] => true | _ :: b => semver_ids false b end &&
     match pre with [] => true | _ :: p => semver_ids true p end
  then match split_on 46 core with
       | [a; b; d] =>
         x <-? semver_num a ;; y <-? semver_num b ;; _ <-? semver_num d ;;
         Some (x, y, match pre with [] => false | _ => true end)
       | _ => None
       end
  else None.
(** [>=1.minor]. *)
Definition semver_at_least (minor : Z) (v : Z * Z * bool) : bool :=
  match v with
  | (x, y, pre) => negb pre && ((1 <? x)%Z || (x =? 1)%Z && (minor <=? y)%Z)
  end.
Definition target_at_least (cx : cgctx) (minor : Z) : bool :=
  match cx_target cx with
  | Some t => match semver_parse t with Some v => semver_at_least minor v | None => true end
  | None => true
  end.
