(** Type inference and constant folding: the [finish] methods of src/ast.

    The code mutates the tree and the context in place and keeps the mutations
    made before an error; the cast rule of [Expr::finish] inspects and reuses
    the tree after an error.  So every function here returns the tree and the
    context together with the outcome. *)
From Verif Require Import Base Utf Lex LexFloat Token Ast ParseStmt Rust.
From Coq Require Import String SpecFloat List.
Local Open Scope string_scope.
Local Open Scope list_scope.

(** [Result<Option<Type>, CodegenError>], a panic, or exhausted fuel. *)
Inductive fres := FOk (t : option ctype) | FErr (e : cgerr) | FPanic | FFuel.
Definition fin (X : Type) : Type := (X * lctx * fres)%type.

(** Run the rest only after success; [w] rebuilds the enclosing tree. *)
Definition fbind {X Y} (r : fin X) (w : X -> Y) (k : X -> lctx -> option ctype -> fin Y) : fin Y :=
  match r with
  | (x, c, FOk t) => k x c t
  | (x, c, f) => (w x, c, f)
  end.

Definition unsupported (s : string) : fres := FErr (UnsupportedExpression (st s)).
Arguments unsupported s%string.
Definition ty_b (b : builtin) : option ctype := Some (TyBuiltIn b).
(** [const char*]. *)
Definition ty_const_char_ptr : ctype := TyQual (TyPtr (TyBuiltIn BChar)) QConst.
(** [Option::xor] after the test for equality. *)
Definition join_ty (a b : option ctype) : option ctype :=
  if oty_eqb a b then a else match a, b with Some _, None => a | None, Some _ => b | _, _ => None end.

(** ** src/ast/literal/int.rs: arithmetic *)

(** Two's complement [i128]. *)
Definition wrap (z : Z) : Z := ((z + 2 ^ 127) mod 2 ^ 128 - 2 ^ 127)%Z.
(** The suffix of the result, e.g. 171-174. *)
Definition join_suffix (a b : option builtin) : option builtin :=
  match a, b with
  | Some x, Some y => if builtin_eq_dec x y then Some x else None
  | Some x, None => Some x
  | None, b => b
  end.
(** [other.value.min(u32::MAX as i128) as u32], then modulo 128, 235, 248. *)
Definition shift_count (z : Z) : Z := ((Z.min z (2 ^ 32 - 1)) mod 2 ^ 32 mod 128)%Z.
(** 166-294; [None] is a panic (division by zero). *)
Definition int_op (op : binop) (a b : Z) : option Z :=
  match op with
  | OMul => Some (wrap (a * b))
  | ODiv => if (b =? 0)%Z then None else Some (wrap (Z.quot a b))
  | ORem => if (b =? 0)%Z then None else Some (Z.rem a b)
  | OAdd => Some (wrap (a + b))
  | OSub => Some (wrap (a - b))
  | OShl => Some (wrap (a * 2 ^ shift_count b))
  | OShr => Some (a / 2 ^ shift_count b)%Z
  | OBitAnd => Some (Z.land a b)
  | OBitOr => Some (Z.lor a b)
  | OBitXor => Some (Z.lxor a b)
  | _ => None
  end.
Definition int_folds (op : binop) : bool :=
  match op with OMul | ODiv | ORem | OAdd | OSub | OShl | OShr | OBitAnd | OBitOr | OBitXor => true | _ => false end.
(** src/ast/literal/float.rs:154-212. *)
Definition float_op (op : binop) : option (Z -> Z -> spec_float -> spec_float -> spec_float) :=
  match op with
  | OMul => Some SFmul
  | ODiv => Some SFdiv
  | OAdd => Some SFadd
  | OSub => Some SFsub
  | _ => None
  end.
(** [i as f32] for [i : i128] (round to nearest, ties to even). *)
Definition i128_to_f32 (z : Z) : spec_float := binary_normalize f32_prec f32_emax z 0 false.
Definition float_neg (f : lit_float) : lit_float :=
  match f with FFloat f => FFloat (SFopp f) | FDouble f => FDouble (SFopp f) | FLongDouble f => FLongDouble (SFopp f) end.
Definition float_is_zero (f : lit_float) : bool :=
  match f with FFloat f | FDouble f | FLongDouble f => SFeqb f (S754_zero false) end.

(** The suffix of a negated literal, src/ast/expr.rs:505-511. *)
Definition neg_suffix (s : option builtin) : option builtin :=
  match s with
  | Some (BUChar | BSChar) => Some BSChar
  | Some (BUInt | BInt) => Some BInt
  | Some (BULong | BLong) => Some BLong
  | Some (BULongLong | BLongLong) => Some BLongLong
  | _ => None
  end.

Definition int_zero : expr := ELit (LInt (mk_int 0 None)).

Section Finish.
Context `{Unicode}.
Variable cx : cgctx.

(** ** Identifiers and types *)

(** [IdentifierExpr::finish], src/ast/identifier_expr.rs:94-125. *)
Fixpoint idparts_finish (l : list idpart) (c : lctx) : lctx * fres :=
  match l with
  | [] => (c, FOk None)
  | IpArg i :: l' =>
    match set_arg_type c i AIdent with
    | Some c' => idparts_finish l' c'
    | None => (c, FPanic)
    end
  | IpPlain _ :: l' => idparts_finish l' c
  | IpInt v :: _ => if (0 <=? v)%Z then (c, unsupported "concatenation of identifiers and literals") else (c, FPanic)
  end.
Definition ident_finish (n : ident_expr) (c : lctx) : lctx * fres :=
  match n with
  | IArg _ | IPlain _ => (c, FOk None)
  | IConcat l => idparts_finish l c
  end.

(** The outcome of [from_rust_ty(..)?]. *)
Definition from_rust (t : sty) (k : ctype -> fres) : fres :=
  match from_rust_ty (cx_ffi cx) t with
  | ROk t' => k t'
  | RErr e => FErr e
  | RPanic => FPanic
  | RFuel => FFuel
  end.

(** [Type::finish], src/ast/ty.rs:428-451. *)
Fixpoint ty_finish (t : ctype) (c : lctx) : fin ctype :=
  match t with
  | TyBuiltIn _ => (t, c, FOk None)
  | TyIdent n s =>
    match ident_finish n c with
    | (c', FOk _) =>
      match n with
      | IPlain id =>
        match cx_ty cx id with
        | Some rt =>
          match from_rust_ty (cx_ffi cx) rt with
          | ROk t' => (t', c', FOk None)
          | RErr e => (t, c', FErr e)
          | RPanic => (t, c', FPanic)
          | RFuel => (t, c', FFuel)
          end
        | None => (t, c', FErr (UnsupportedType id))
        end
      | _ => (t, c', FOk None)
      end
    | (c', f) => (t, c', f)
    end
  | TyPath _ _ => (t, c, FOk None)
  | TyPtr t0 => match ty_finish t0 c with (t', c', f) => (TyPtr t', c', f) end
  | TyQual t0 q => match ty_finish t0 c with (t', c', f) => (TyQual t' q, c', f) end
  end.

(** ** Literals *)

(** The type [wchar_t], e.g. src/ast/literal/char.rs:136-143. *)
Definition wchar_finish (c : lctx) (k : ctype -> fres) : fres :=
  match ty_finish (TyIdent (IPlain (st "wchar_t")) false) c with
  | (t, _, FOk _) => k t
  | (_, _, f) => f
  end.
(** [LitChar::finish], src/ast/literal/char.rs:124-145. *)
Definition char_finish (x : lit_char) (c : lctx) : fres :=
  match x with
  | COrdinary _ => FOk (ty_b BChar)
  | CUtf8 _ => FOk (ty_b BChar8T)
  | CUtf16 _ => FOk (ty_b BChar16T)
  | CUtf32 _ => FOk (ty_b BChar32T)
  | CWide _ => wchar_finish c (fun t => FOk (Some t))
  end.
(** [LitString::finish], src/ast/literal/string.rs:340-360. *)
Definition string_finish (x : lit_string) (c : lctx) : fres :=
  let ptr t := FOk (Some (TyQual (TyPtr t) QConst)) in
  match x with
  | SOrdinary _ => ptr (TyBuiltIn BChar)
  | SUtf8 _ => ptr (TyBuiltIn BChar8T)
  | SUtf16 _ => ptr (TyBuiltIn BChar16T)
  | SUtf32 _ => ptr (TyBuiltIn BChar32T)
  | SWide _ => wchar_finish c ptr
  end.
(** [LitFloat::finish], src/ast/literal/float.rs:107-119; [LitInt::finish],
    src/ast/literal/int.rs:150-158; [Lit::finish], src/ast/literal.rs:80-90. *)
Definition lit_finish (l : lit) (c : lctx) : fres :=
  match l with
  | LChar x => char_finish x c
  | LString x => string_finish x c
  | LFloat (FFloat _) => FOk (ty_b BFloat)
  | LFloat (FDouble _) => FOk (ty_b BDouble)
  | LFloat (FLongDouble _) => FOk (ty_b BLongDouble)
  | LInt _ => FOk None
  end.

(** ** Variables and stringification *)

(** [Var::finish], src/ast/var.rs:19-65. *)
Definition limit_types : list (string * builtin) :=
  [("__SCHAR_MAX__", BSChar); ("__SHRT_MAX__", BShort); ("__INT_MAX__", BInt); ("__LONG_MAX__", BLong);
   ("__LONG_LONG_MAX__", BLongLong)].
Definition var_finish (n : ident_expr) (c : lctx) : lctx * fres :=
  match ident_finish n c with
  | (c', FOk _) =>
    match n with
    | IArg i =>
      match arg_type c' i with
      | Some (AKnown t) => (c', FOk (Some t))
      | Some _ => (c', FOk None)
      | None => (c', FPanic)
      end
    | IPlain id =>
      if str_eqb id (st "__LINE__") then (set_macro true c', FOk (ty_b BUInt))
      else if str_eqb id (st "__FILE__") then (set_macro true c', FOk (Some ty_const_char_ptr))
      else match rust_name limit_types id with
           | Some b => (c', FOk (ty_b b))
           | None =>
             match cx_enum cx id with
             | Some (t, _) => (c', from_rust t (fun t' => FOk (Some t')))
             | None => (set_macro true c', FOk None)
             end
           end
    | IConcat _ => (c', FOk None)
    end
  | r => r
  end.

(** [Stringify::finish], src/ast/stringify.rs:40-61. *)
Definition stringify_finish (a : expr) (c : lctx) : lctx * fres :=
  match a with
  | EVar (IArg i) =>
    match arg_type c i with
    | Some AIdent => (c, FOk (Some ty_const_char_ptr))
    | Some _ =>
      match set_arg_type c i AExpr with
      | Some c' => (c', FOk (Some ty_const_char_ptr))
      | None => (c, FPanic)
      end
    | None => (c, FPanic)
    end
  | EVar (IPlain n) =>
    if str_eqb n (st "__LINE__") || str_eqb n (st "__FILE__") then (set_macro true c, FOk (Some ty_const_char_ptr))
    else (c, unsupported "stringification")
  | _ => (c, unsupported "stringification")
  end.

(** ** Calls *)

(** A loop over expressions with [?]. *)
Definition list_finish (f : expr -> lctx -> fin expr) : list expr -> lctx -> fin (list expr) :=
  fix list_finish (l : list expr) (c : lctx) {struct l} : fin (list expr) :=
  match l with
  | [] => ([], c, FOk None)
  | e :: l' =>
    fbind (f e c) (fun e' => e' :: l') (fun e' c' _ =>
    match list_finish l' c' with (l'', c'', r) => (e' :: l'', c'', r) end)
  end.
(** The type of an unknown macro argument, src/ast/function_call.rs:52-55 etc. *)
Definition infer_arg (e : expr) (t : fres * option arg_ty) (c : lctx) : lctx * fres :=
  match e with
  | EVar (IArg i) =>
    match arg_type c i with
    | Some AUnknown =>
      match t with
      | (_, Some a) => match set_arg_type c i a with Some c' => (c', FOk None) | None => (c, FPanic) end
      | (f, None) => (c, f)
      end
    | Some _ => (c, FOk None)
    | None => (c, FPanic)
    end
  | _ => (c, FOk None)
  end.
Definition known_arg (t : sty) : fres * option arg_ty :=
  match from_rust_ty (cx_ffi cx) t with
  | ROk t' => (FOk None, Some (AKnown t'))
  | RErr e => (FErr e, None)
  | RPanic => (FPanic, None)
  | RFuel => (FFuel, None)
  end.
Fixpoint infer_args (args : list expr) (tys : list sty) (c : lctx) : lctx * fres :=
  match args, tys with
  | e :: args', t :: tys' =>
    match infer_arg e (known_arg t) c with
    | (c', FOk _) => infer_args args' tys' c'
    | r => r
    end
  | _, _ => (c, FOk None)
  end.

(** [FunctionCall::finish] after the arguments are finished,
    src/ast/function_call.rs:37-82. *)
Definition call_types (n : ident_expr) (args : list expr) (c : lctx) : lctx * fres :=
  match n with
  | IPlain id =>
    match cx_fn cx id with
    | Some (tys, ret) =>
      if Nat.eqb (length tys) (length args) then
        match from_rust_ty (cx_ffi cx) ret with
        | ROk t =>
          match infer_args args tys c with
          | (c', FOk _) => (c', FOk (Some t))
          | r => r
          end
        | RErr e => (c, FErr e)
        | RPanic => (c, FPanic)
        | RFuel => (c, FFuel)
        end
      else (c, FOk None)
    | None =>
      let c := set_macro true c in
      if str_eqb id (st "__builtin_offsetof") then
        match args with
        | [a; b] =>
          match infer_arg a (FOk None, Some ATy) c with
          | (c', FOk _) => infer_arg b (FOk None, Some ATt) c'
          | r => r
          end
        | _ => (c, FOk None)
        end
      else (c, FOk None)
    end
  | _ => (c, FOk None)
  end.

(** ** Unary and binary expressions *)

(** The type of a unary expression, src/ast/unary_expr.rs:73-90. *)
Definition unary_type (op : unop) (c : lctx) (t : option ctype) : fres :=
  match op with
  | UNot => FOk (ty_b BBool)
  | UDeref =>
    if lc_var c then unsupported "dereference in variable-like macro"
    else match t with
         | Some (TyPtr t') => FOk (Some t')
         | None => FOk None
         | _ => unsupported "dereference of non-pointer"
         end
  | UAddrOf => FOk (omap TyPtr t)
  | _ => FOk t
  end.
(** Folding of unary expressions, src/ast/expr.rs:499-555. *)
Definition unary_fold (op : unop) (e : expr) (t : option ctype) : expr * fres :=
  match op, e with
  | UPlus, (ELit (LInt _) | ELit (LFloat _)) => (e, FOk t)
  | UMinus, ELit (LInt i) => (ELit (LInt (mk_int (wrap (- int_value i)) (neg_suffix (int_suffix i)))), FOk t)
  | UMinus, ELit (LFloat f) => (ELit (LFloat (float_neg f)), FOk t)
  | UNot, ELit (LInt (mk_int v None)) => (ELit (LInt (mk_int (if (v =? 0)%Z then 1 else 0) None)), FOk t)
  | UNot, ELit (LFloat f) => (ELit (LInt (mk_int (if float_is_zero f then 1 else 0) None)), FOk t)
  | UNot, _ =>
    if oty_eqb t (ty_b BBool) then (EUnary op e, FOk t)
    else
      let zero := match t with
        | Some (TyBuiltIn BFloat) => ELit (LFloat (FFloat (S754_zero false)))
        | Some (TyBuiltIn BDouble) => ELit (LFloat (FDouble (S754_zero false)))
        | Some (TyBuiltIn BLongDouble) => ELit (LFloat (FLongDouble (S754_zero false)))
        | _ => int_zero
        end in
      (EBinary e OEq zero, FOk t)
  | UComp, (ELit (LFloat _) | ELit (LString _)) => (EUnary op e, unsupported "complement of float or string")
  | _, _ => (EUnary op e, FOk t)
  end.

(** [max_ty_cast], src/ast/binary_expr.rs:194-207. *)
Definition max_ty_cast (e : expr) : option ctype :=
  match e with
  | EVar (IPlain n) =>
    omap TyBuiltIn (rust_name [("__SCHAR_MAX__", BUChar); ("__SHRT_MAX__", BUShort); ("__INT_MAX__", BUInt);
                               ("__LONG_MAX__", BULong); ("__LONG_LONG_MAX__", BULongLong)] n)
  | _ => None
  end.
Definition is_assignment (op : binop) : bool :=
  match op with
  | OAssign | OAddAssign | OSubAssign | OMulAssign | ODivAssign | ORemAssign
  | OShlAssign | OShrAssign | OBitAndAssign | OBitXorAssign | OBitOrAssign => true
  | _ => false
  end.
Definition mul_or_add (op : binop) : bool := match op with OMul | OAdd => true | _ => false end.

(** [BinaryExpr::finish] after both sides are finished, 213-281.  The
    conversion of an integer to [f32] covers both branches of the test of lines
    227 and 236, which always succeeds: [f32::MAX as i128] saturates to
    [i128::MAX], and likewise for the minimum. *)
Definition binary_types (lhs : expr) (op : binop) (rhs : expr) (lt rt : option ctype) (c : lctx) : fin (expr * expr) :=
  let c1 :=
    match op, rhs with
    | OMember, EVar (IArg i) => set_arg_type c i AIdent
    | _, _ => Some c
    end in
  match c1 with
  | None => ((lhs, rhs), c, FPanic)
  | Some c1 =>
    let c2 := match is_assignment op, lhs with true, EVar (IArg _) => set_macro true c1 | _, _ => c1 end in
    let '(lhs', rhs', lt', rt') :=
      match lhs, rhs with
      | ELit (LInt (mk_int v None)), ELit (LFloat _) =>
        (ELit (LFloat (FFloat (i128_to_f32 v))), rhs, ty_b BFloat, rt)
      | ELit (LFloat _), ELit (LInt (mk_int v None)) =>
        (lhs, ELit (LFloat (FFloat (i128_to_f32 v))), lt, ty_b BFloat)
      | _, ELit (LInt _) =>
        if mul_or_add op then
          match max_ty_cast lhs with Some t => (ECast t lhs, rhs, Some t, rt) | None => (lhs, rhs, lt, rt) end
        else (lhs, rhs, lt, rt)
      | ELit (LInt _), _ =>
        if mul_or_add op then
          match max_ty_cast rhs with Some t => (lhs, ECast t rhs, lt, Some t) | None => (lhs, rhs, lt, rt) end
        else (lhs, rhs, lt, rt)
      | _, _ => (lhs, rhs, lt, rt)
      end in
    let r :=
      match op with
      | OMember =>
        match lt', rhs' with
        | Some (TyIdent (IPlain tn) _), EVar (IPlain fn) =>
          match cx_field cx tn fn with
          | Some t => from_rust t (fun t' => FOk (Some t'))
          | None => FOk None
          end
        | _, _ => FOk None
        end
      | _ => FOk (join_ty lt' rt')
      end in
    ((lhs', rhs'), c2, r)
  end.
Definition is_comparison (op : binop) : bool :=
  match op with OEq | ONeq | OAnd | OOr | OLt | OLte | OGt | OGte => true | _ => false end.
(** Folding of binary expressions, src/ast/expr.rs:561-647; finishing the
    resulting literal gives its type. *)
Definition binary_fold (lhs : expr) (op : binop) (rhs : expr) (t : option ctype) (c : lctx) : expr * fres :=
  let other := (EBinary lhs op rhs, FOk (if is_comparison op then ty_b BBool else t)) in
  match lhs, rhs with
  | ELit (LFloat a), ELit (LFloat b) =>
    match float_op op with
    | Some f => let l := LFloat (float_arith f a b) in (ELit l, lit_finish l c)
    | None => other
    end
  | ELit (LInt a), ELit (LInt b) =>
    if int_folds op then
      match int_op op (int_value a) (int_value b) with
      | Some v => (ELit (LInt (mk_int v (join_suffix (int_suffix a) (int_suffix b)))), FOk None)
      | None => (EBinary lhs op rhs, FPanic)
      end
    else other
  | _, _ => other
  end.

(** ** Casts *)

(** Multiplication parsed as a dereference, after an error,
    src/ast/expr.rs:370-399. *)
Definition cast_of_deref (t1 : ctype) (e : expr) : option expr :=
  match e with
  | ECast (TyIdent n false) (EUnary UDeref (ECast t3 e3)) =>
    if ctype_eqb t1 t3 then Some (EBinary (ECast t1 (EVar n)) OMul (ECast t3 e3)) else None
  | _ => None
  end.
(** Cast or binary operation, 405-437. *)
Definition cast_as_binary (t : ctype) (e : expr) : option expr :=
  match e, t with
  | EUnary op e0, TyIdent n false =>
    let binop := match n with
      | IArg _ | IConcat _ => true
      | IPlain id => match cx_ty cx id with None => true | Some _ => false end
      end in
    if binop then
      match op with
      | UPlus => Some (EBinary (EVar n) OAdd e0)
      | UMinus => Some (EBinary (EVar n) OSub e0)
      | UDeref => Some (EBinary (EVar n) OMul e0)
      | UAddrOf => Some (EBinary (EVar n) OBitAnd e0)
      | _ => None
      end
    else None
  | _, _ => None
  end.
(** Redundant cast of a string literal, 439-446. *)
Definition redundant_cast (t : ctype) (e : expr) : bool :=
  match e, t with
  | ELit (LString (SOrdinary _)), TyQual (TyPtr (TyBuiltIn BChar)) q => q_is_const q
  | _, _ => false
  end.

(** ** String concatenation, src/ast/expr.rs:459-520 *)

Definition push_string (acc : list expr) (cur : option (list N)) : list expr :=
  match cur with Some b => acc ++ [ELit (LString (SOrdinary b))] | None => acc end.
(** The loop: [done] are the finished names, [acc] the merged ones, [cur] the
    bytes collected so far. *)
Definition concat_finish (f : expr -> lctx -> fin expr) : list expr -> list expr -> list expr ->
    option (list N) -> lctx -> expr * list expr * lctx * fres :=
  fix concat_finish (done : list expr) (l : list expr)
    (acc : list expr) (cur : option (list N)) (c : lctx) {struct l} : expr * list expr * lctx * fres :=
  match l with
  | [] => (EConcat done, push_string acc cur, c, FOk None)
  | e :: l' =>
    match f e c with
    | (e', c', FOk _) =>
      let self := EConcat (done ++ e' :: l') in
      match e' with
      | ELit (LString s) =>
        match lit_string_as_bytes s with
        | Some b => concat_finish (done ++ [e']) l' acc (Some (match cur with Some a => a ++ b | None => b end)) c'
        | None => (self, [], c', unsupported "concatenation of wide strings")
        end
      | EVar (IPlain n) =>
        if str_eqb n (st "__FILE__") then concat_finish (done ++ [e']) l' (push_string acc cur ++ [e']) None c'
        else (self, [], c', unsupported "concatenation of variables")
      | _ => concat_finish (done ++ [e']) l' (push_string acc cur ++ [e']) None c'
      end
    | (e', c', r) => (EConcat (done ++ e' :: l'), [], c', r)
    end
  end.

(** ** Expressions *)

(** [Expr::finish_condition], src/ast/expr.rs:342-360. *)
Definition condition_finish (f : expr -> lctx -> fin expr) (e : expr) (c : lctx) : fin expr :=
  fbind (f e c) (fun e' => e') (fun e' c' t =>
  ((if oty_eqb t (ty_b BBool) then e' else EBinary e' ONeq int_zero), c', FOk (ty_b BBool))).

(** [Expr::finish], src/ast/expr.rs:362-657: [again] finishes a rewritten
    expression, [go] a subexpression. *)
Definition finish_step (again go : expr -> lctx -> fin expr) (e : expr) (c : lctx) : fin expr :=
  match e with
  | ECast t e0 =>
    (* [Cast::finish], src/ast/cast.rs:27-34. *)
    let '(t', c1, r1) := ty_finish t c in
    let '(e', c2, r2) := match r1 with FOk _ => go e0 c1 | _ => (e0, c1, r1) end in
    match r2 with
    | FOk _ =>
      match cast_as_binary t' e' with
      | Some b => again b c2
      | None =>
        if redundant_cast t' e' then (e', c2, FOk (Some ty_const_char_ptr))
        else (ECast t' e', c2, FOk (Some t'))
      end
    | FErr (UnsupportedExpression m) =>
      match cast_of_deref t' e' with
      | Some b => again b c2
      | None => (ECast t' e', c2, r2)
      end
    | _ => (ECast t' e', c2, r2)
    end
  | EVar n => match var_finish n c with (c', r) => (e, c', r) end
  | ECall n args =>
    (* [FunctionCall::finish], src/ast/function_call.rs:23-82. *)
    if lc_var c then (e, c, unsupported "function call in variable-like macro")
    else match ident_finish n c with
         | (c1, FOk _) =>
           fbind (list_finish go args c1) (ECall n) (fun args' c2 _ =>
           match call_types n args' c2 with (c3, r) => (ECall n args', c3, r) end)
         | (c1, r) => (e, c1, r)
         end
  | ELit (LChar x) =>
    match char_finish x c with
    | FOk (Some t) => (ECast t e, c, FOk (Some t))
    | FOk None => (e, c, FPanic)
    | r => (e, c, r)
    end
  | ELit l => (e, c, lit_finish l c)
  | EStringify a => match stringify_finish a c with (c', r) => (e, c', r) end
  | EConcat l =>
    match concat_finish go [] l [] None c with
    | (_, [x], c', FOk _) => again x c'
    | (_, names, c', FOk _) => (EConcat names, c', FOk (Some ty_const_char_ptr))
    | (self, _, c', r) => (self, c', r)
    end
  | EUnary op e0 =>
    fbind (go e0 c) (EUnary op) (fun e' c' t =>
    match unary_type op c' t with
    | FOk t' => match unary_fold op e' t' with (e'', r) => (e'', c', r) end
    | r => (EUnary op e', c', r)
    end)
  | EBinary l op r =>
    fbind (go l c) (fun l' => EBinary l' op r) (fun l' c1 lt =>
    fbind (go r c1) (fun r' => EBinary l' op r') (fun r' c2 rt =>
    fbind (binary_types l' op r' lt rt c2) (fun x => EBinary (fst x) op (snd x)) (fun x c3 t =>
    match binary_fold (fst x) op (snd x) t c3 with (e', f) => (e', c3, f) end)))
  | ETernary a b d =>
    (* [TernaryExpr::finish], src/ast/ternary_expr.rs:24-38. *)
    fbind (condition_finish go a c) (fun a' => ETernary a' b d) (fun a' c1 _ =>
    fbind (go b c1) (fun b' => ETernary a' b' d) (fun b' c2 bt =>
    fbind (go d c2) (fun d' => ETernary a' b' d') (fun d' c3 dt =>
    (ETernary a' b' d', c3, FOk (join_ty bt dt)))))
  | ESizeOf t =>
    fbind (ty_finish t c) ESizeOf (fun t' c' _ => (ESizeOf t', c', FOk (ty_b BSizeT)))
  end.

(** The recursion: structural, except that a rewritten expression is finished
    with one unit of fuel less.  A rewriting consumes a unary operator or a
    string concatenation, so [weight] is fuel enough. *)
Fixpoint finish (n : nat) : expr -> lctx -> fin expr :=
  fix go (e : expr) (c : lctx) {struct e} : fin expr :=
    finish_step (match n with O => fun e c => (e, c, FFuel) | S n' => finish n' end) go e c.
Definition weights (f : expr -> nat) : list expr -> nat :=
  fix weights (l : list expr) : nat := match l with [] => 0 | e :: l' => f e + weights l' end.
Fixpoint weight (e : expr) : nat :=
  match e with
  | EVar _ | ELit _ | ESizeOf _ => 0
  | ECall _ l => weights weight l
  | ECast _ e => weight e
  | EStringify e => weight e
  | EConcat l => S (weights weight l)
  | EUnary _ e => S (weight e)
  | EBinary a _ b => weight a + weight b
  | ETernary a b d => weight a + weight b + weight d
  end.
Definition expr_finish (e : expr) (c : lctx) : fin expr := finish (weight e) e c.

(** ** Statements *)

(** [Asm::finish], src/ast/asm.rs:198-215, with [is_global], 230-235. *)
Definition asm_global (a : asm_stmt) : bool :=
  existsb (fun l => starts_with l (st ".globl") || starts_with l (st ".global") || starts_with l (st ".section"))
    (asm_template a).
Definition asm_finish (a : asm_stmt) (c : lctx) : fin asm_stmt :=
  let outs := asm_outputs a in
  let ins := asm_inputs a in
  let put_outs l := map (fun '((d, r, _), e) => (d, r, e)) (combine outs l) in
  let put_ins l := map (fun '((r, _), e) => (r, e)) (combine ins l) in
  let mk o i := mk_asm (asm_template a) o i (asm_clobbers a) in
  fbind (list_finish expr_finish (map snd outs) c) (fun l => mk (put_outs l) ins) (fun lo c1 _ =>
  fbind (list_finish expr_finish (map snd ins) c1) (fun l => mk (put_outs lo) (put_ins l)) (fun li c2 _ =>
  (mk (put_outs lo) (put_ins li), (if asm_global a then set_macro true c2 else c2), FOk None))).

(** [VarDecl::finish], src/ast/var_decl.rs:37-46. *)
Definition var_decl_finish (d : var_decl) (c : lctx) : fin var_decl :=
  fbind (ty_finish (vd_ty d) c) (fun t => mk_var_decl t (vd_name d) (vd_rhs d) (vd_static d)) (fun t c1 _ =>
  match ident_finish (vd_name d) c1 with
  | (c2, FOk _) =>
    fbind (expr_finish (vd_rhs d) c2) (fun e => mk_var_decl t (vd_name d) e (vd_static d)) (fun e c3 _ =>
    (mk_var_decl t (vd_name d) e (vd_static d), c3, FOk None))
  | (c2, r) => (mk_var_decl t (vd_name d) (vd_rhs d) (vd_static d), c2, r)
  end).

(** [FunctionDecl::finish], src/ast/function_decl.rs:43-59. *)
Fixpoint fn_args_finish (l : list (ctype * ident_expr)) (c : lctx) : fin (list (ctype * ident_expr)) :=
  match l with
  | [] => ([], c, FOk None)
  | (t, n) :: l' =>
    fbind (ty_finish t c) (fun t' => (t', n) :: l') (fun t' c' _ =>
    match fn_args_finish l' c' with (l'', c'', r) => ((t', n) :: l'', c'', r) end)
  end.
Definition fn_decl_finish (d : fn_decl) (c : lctx) : fin fn_decl :=
  fbind (ty_finish (fd_ret d) c) (fun t => mk_fn_decl t (fd_name d) (fd_args d)) (fun t c1 _ =>
  let c2 := match fd_name d with IArg i => set_arg_type c1 i AIdent | _ => Some c1 end in
  match c2 with
  | None => (mk_fn_decl t (fd_name d) (fd_args d), c1, FPanic)
  | Some c2 =>
    match fn_args_finish (fd_args d) c2 with (l, c3, r) => (mk_fn_decl t (fd_name d) l, c3, r) end
  end).

(** A block of statements: a loop with [?]. *)
Definition stmts_finish (f : stmt -> lctx -> fin stmt) : list stmt -> lctx -> fin (list stmt) :=
  fix stmts_finish (l : list stmt) (c : lctx) {struct l} : fin (list stmt) :=
  match l with
  | [] => ([], c, FOk None)
  | s :: l' =>
    fbind (f s c) (fun s' => s' :: l') (fun s' c' _ =>
    match stmts_finish l' c' with (l'', c'', r) => (s' :: l'', c'', r) end)
  end.

(** [Statement::finish], src/ast/statement.rs:101-144. *)
Fixpoint stmt_finish (s : stmt) (c : lctx) {struct s} : fin stmt :=
  let void {X} (r : fin X) (w : X -> stmt) : fin stmt := fbind r w (fun x c' _ => (w x, c', FOk (ty_b BVoid))) in
  match s with
  | SAsm a => void (asm_finish a c) SAsm
  | SExpr e => void (expr_finish e c) SExpr
  | SFnDecl d => void (fn_decl_finish d c) SFnDecl
  | SVarDecl d => void (var_decl_finish d c) SVarDecl
  | SBlock l => void (stmts_finish stmt_finish l c) SBlock
  | SIf e a b =>
    fbind (condition_finish expr_finish e c) (fun e' => SIf e' a b) (fun e' c1 _ =>
    fbind (stmts_finish stmt_finish a c1) (fun a' => SIf e' a' b) (fun a' c2 _ =>
    void (stmts_finish stmt_finish b c2) (SIf e' a')))
  | SDoWhile l e =>
    fbind (stmts_finish stmt_finish l c) (fun l' => SDoWhile l' e) (fun l' c1 _ =>
    void (condition_finish expr_finish e c1) (SDoWhile l'))
  end.

(** [MacroBody::finish], src/macro_body.rs:55-63. *)
Definition body_finish (b : macro_body) (c : lctx) : fin macro_body :=
  match b with
  | MbStatement s => match stmt_finish s c with (s', c', r) => (MbStatement s', c', r) end
  | MbExpr e => match expr_finish e c with (e', c', r) => (MbExpr e', c', r) end
  end.

End Finish.
