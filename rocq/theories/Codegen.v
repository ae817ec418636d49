(** Code generation: the [to_tokens] methods of src/ast and the [generate]
    methods of src/var_macro.rs and src/fn_macro.rs.

    A token stream is a list of tokens; [None] is a panic.  [quote!] builds the
    list written in the template. *)
From Verif Require Import Base Utf Lex LexFloat Token Ast ParseStmt Rust Finish.
From Coq Require Import String SpecFloat List.
Local Open Scope string_scope.
Local Open Scope list_scope.

(** ** Precedence *)

Inductive assoc := AssocLeft | AssocRight | AssocNone.

(** [UnaryOp::precedence], src/ast/unary_expr.rs:34-42. *)
Definition unop_prec (op : unop) : nat * assoc :=
  match op with
  | UPostInc | UPostDec => (1, AssocLeft)
  | UAddrOf => (0, AssocRight)
  | _ => (2, AssocRight)
  end.
(** [BinaryOp::precedence], src/ast/binary_expr.rs:83-110. *)
Definition binop_prec (op : binop) : nat * assoc :=
  match op with
  | OMember => (1, AssocLeft)
  | OMul | ODiv | ORem => (5, AssocLeft)
  | OAdd | OSub => (6, AssocLeft)
  | OShl | OShr => (7, AssocLeft)
  | OBitAnd => (8, AssocLeft)
  | OBitXor => (9, AssocLeft)
  | OBitOr => (10, AssocLeft)
  | OEq | ONeq | OLt | OLte | OGt | OGte => (11, AssocNone)
  | OAnd => (12, AssocLeft)
  | OOr => (13, AssocLeft)
  | OAssign | OAddAssign | OSubAssign | OMulAssign | ODivAssign | ORemAssign
  | OShlAssign | OShrAssign | OBitAndAssign | OBitXorAssign | OBitOrAssign => (14, AssocRight)
  end.
(** [Expr::precedence], src/ast/expr.rs:33-44. *)
Definition expr_prec (e : expr) : nat :=
  match e with
  | ELit _ | EVar _ | ETernary _ _ _ => 0
  | ECall _ _ => 1
  | ECast _ _ | EStringify _ | EConcat _ | ESizeOf _ => 3
  | EUnary op _ => fst (unop_prec op)
  | EBinary _ op _ => fst (binop_prec op)
  end.

(** [impl ToTokens for BinaryOp], src/ast/binary_expr.rs:130-165. *)
Definition binop_tok (op : binop) : rtok :=
  rp match op with
     | OMul => "*" | ODiv => "/" | ORem => "%" | OAdd => "+" | OSub => "-" | OShl => "<<" | OShr => ">>"
     | OLt => "<" | OLte => "<=" | OGt => ">" | OGte => ">=" | OEq => "==" | ONeq => "!="
     | OBitAnd => "&" | OBitXor => "^" | OBitOr => "|" | OAnd => "&&" | OOr => "||"
     | OAssign => "=" | OAddAssign => "+=" | OSubAssign => "-=" | OMulAssign => "*=" | ODivAssign => "/="
     | ORemAssign => "%=" | OShlAssign => "<<=" | OShrAssign => ">>=" | OBitAndAssign => "&="
     | OBitXorAssign => "^=" | OBitOrAssign => "|=" | OMember => "."
     end.

(** ** Literals *)

(** A code unit, printed as a character if it is one; src/ast/literal/char.rs:148-190. *)
Definition unit_toks (n : N) (suffix : string) : list rtok :=
  match char_from_u32 n with
  | Some c => [RLit (RlChar c)]
  | None => [RLit (RlInt (Z.of_N n) (st suffix))]
  end.
Arguments unit_toks n suffix%string.
Definition char_toks (x : lit_char) : list rtok :=
  match x with
  | COrdinary n | CUtf8 n => unit_toks n "u8"
  | CUtf16 n => unit_toks n "u16"
  | CUtf32 n | CWide n => unit_toks n "u32"
  end.

Definition usize_tok (n : nat) : rtok := RLit (RlInt (Z.of_nat n) []).
(** [{ const NAME: ty = value; NAME.as_ptr() tail }]. *)
Definition ptr_block (name : string) (ty value tail : list rtok) : list rtok :=
  [braces ([ri "const"; ri name; rp ":"] ++ ty ++ [rp "="] ++ value ++
           [rp ";"; ri name; rp "."; ri "as_ptr"; parens []] ++ tail)].
Arguments ptr_block name%string.
(** [&[ty; n]]. *)
Definition array_ref (ty : list rtok) (n : nat) : list rtok := [rp "&"; brackets (ty ++ [rp ";"; usize_tok n])].

Section Codegen.
Context `{Unicode}.
Variable cx : cgctx.

(** [LitString::to_token_stream], src/ast/literal/string.rs:362-509: the type
    and the value. *)
Definition string_toks (c : lctx) (x : lit_string) (as_array : bool) : option (list rtok * list rtok) :=
  match x with
  | SOrdinary b =>
    let bytes := b ++ [0%N] in
    let array_ty := static_ref c [brackets [ri "u8"; rp ";"; usize_tok (length bytes)]] in
    let lit := [RLit (RlBytes bytes)] in
    if as_array then
      if lc_cstr c && negb (existsb (N.eqb 0) b) then
        let ty := match cx_trait cx with
          | Some p => path_toks p ++ [rp "::"; ri "ffi"; rp "::"]
          | None => []
          end ++ [ri "CStr"] in
        Some (rp "&" :: ty,
              [braces [rp "#"; brackets [ri "allow"; parens [ri "unsafe_code"]]; ri "unsafe";
                       braces (ty ++ [rp "::"; ri "from_bytes_with_nul_unchecked"; parens lit])]])
      else Some (array_ty, lit)
    else
      let ty := rp "*" :: ri "const" :: pfx (cx_ffi cx) ++ [ri "c_char"] in
      Some (ty, ptr_block "BYTES" array_ty lit (ri "as" :: ty))
  | SUtf8 s =>
    let bytes := utf8_encode s ++ [0%N] in
    let array_ty := array_ref [ri "u8"] (length bytes) in
    let lit := [RLit (RlBytes bytes)] in
    Some (if as_array then (array_ty, lit) else ([rp "*"; ri "const"; ri "u8"], ptr_block "BYTES" array_ty lit []))
  | SUtf16 s =>
    let words := utf16_encode s ++ [0%N] in
    let array := [rp "&"; brackets (sep_by (rp ",") (map (fun w => [RLit (RlInt (Z.of_N w) (st "u16"))]) words))] in
    let array_ty := array_ref [ri "u16"] (length words) in
    Some (if as_array then (array_ty, array) else ([rp "*"; ri "const"; ri "u16"], ptr_block "WORDS" array_ty array []))
  | SUtf32 s =>
    let dwords := s ++ [0%N] in
    let array := [rp "&"; brackets (sep_by (rp ",") (map (fun w => [RLit (RlInt (Z.of_N w) (st "u32"))]) dwords))] in
    let array_ty := array_ref [ri "u32"] (length dwords) in
    Some (if as_array then (array_ty, array) else ([rp "*"; ri "const"; ri "u32"], ptr_block "DWORDS" array_ty array []))
  | SWide s =>
    let wchars := s ++ [0%N] in
    wchar_ty <-?
      match cx_ty cx (st "wchar_t") with
      | Some t => match from_rust_ty (cx_ffi cx) t with ROk t' => ty_toks cx c t' | _ => None end
      | None => Some [ri "wchar_t"]
      end ;;
    let array := [rp "&"; brackets (sep_by (rp ",") (map (fun w => RLit (RlInt (Z.of_N w) []) :: ri "as" :: wchar_ty) wchars))] in
    let array_ty := array_ref wchar_ty (length wchars) in
    Some (if as_array then (array_ty, array) else (rp "*" :: ri "const" :: wchar_ty, ptr_block "WCHARS" array_ty array []))
  end.

(** [LitFloat::to_tokens], src/ast/literal/float.rs:121-151. *)
Definition float_toks_w (w : Z) (name : string) (f : spec_float) : list rtok :=
  match f with
  | S754_nan => pfx (cx_trait cx) ++ [ri name; rp "::"; ri "NAN"]
  | S754_infinity false => pfx (cx_trait cx) ++ [ri name; rp "::"; ri "INFINITY"]
  | S754_infinity true => pfx (cx_trait cx) ++ [ri name; rp "::"; ri "NEG_INFINITY"]
  | S754_zero true => [rp "-"; RLit (RlFloat w (S754_zero false))]
  | S754_finite true m e => [rp "-"; RLit (RlFloat w (S754_finite false m e))]
  | _ => [RLit (RlFloat w f)]
  end.
Definition float_toks (f : lit_float) : list rtok :=
  match f with
  | FFloat f => float_toks_w 32 "f32" f
  | FDouble f | FLongDouble f => float_toks_w 64 "f64" f
  end.

(** [Lit::to_tokens], src/ast/literal.rs:92-102, with [LitInt::to_tokens],
    src/ast/literal/int.rs:160-163. *)
Definition lit_toks (c : lctx) (l : lit) : option (list rtok) :=
  match l with
  | LChar x => Some (char_toks x)
  | LString x => omap snd (string_toks c x false)
  | LFloat f => Some (float_toks f)
  | LInt i => Some (int_toks (int_value i) "")
  end.

(** ** Variables and stringification *)

(** [Var::to_tokens], src/ast/var.rs:67-101. *)
Definition limit_names : list (string * string) :=
  [("__SCHAR_MAX__", "c_schar"); ("__SHRT_MAX__", "c_short"); ("__INT_MAX__", "c_int"); ("__LONG_MAX__", "c_long");
   ("__LONG_LONG_MAX__", "c_longlong")].
Fixpoint limit_name (l : list (string * string)) (s : str) : option string :=
  match l with
  | [] => None
  | (n, x) :: l' => if str_eqb s (st n) then Some x else limit_name l' s
  end.
Definition nul : rtok := RLit (RlChar 0).
Definition file_toks : list rtok := pfx (cx_trait cx) ++ [ri "file"; rp "!"; parens []].
Definition line_toks : list rtok := pfx (cx_trait cx) ++ [ri "line"; rp "!"; parens []].
Definition concat_toks (l : list rtok) : list rtok := pfx (cx_trait cx) ++ [ri "concat"; rp "!"; parens l].
Definition var_toks (c : lctx) (n : ident_expr) : option (list rtok) :=
  match n with
  | IPlain id =>
    if str_eqb id (st "__LINE__") then Some (line_toks ++ [ri "as"] ++ pfx (cx_ffi cx) ++ [ri "c_uint"])
    else if str_eqb id (st "__FILE__") then Some (c_char_ptr cx c (concat_toks (file_toks ++ [rp ","; nul])))
    else match limit_name limit_names id with
         | Some t => Some (pfx (cx_ffi cx) ++ [ri t; rp "::"; ri "MAX"])
         | None =>
           match cx_enum cx id with
           | Some (_, ts) => Some ts
           | None => ident_toks cx c n
           end
         end
  | _ => ident_toks cx c n
  end.

(** [Stringify::to_token_stream_inner], src/ast/stringify.rs:67-92. *)
Definition stringify_inner (c : lctx) (a : expr) : option (list rtok) :=
  let of_toks ts := pfx (cx_trait cx) ++ [ri "stringify"; rp "!"; parens ts] in
  match a with
  | EVar (IArg i) => n <-? arg_name c i ;; t <-? ident_tok n ;; Some (of_toks [rp "$"; t])
  | EVar (IPlain n) =>
    if str_eqb n (st "__LINE__") then Some (of_toks line_toks)
    else if str_eqb n (st "__FILE__") then
      Some (pfx (cx_trait cx) ++ [ri "format"; rp "!"; parens ([RLit (RlStr (st "{:?}")); rp ","] ++ file_toks)])
    else Some (of_toks [])
  | _ => Some (of_toks [])
  end.
(** [Stringify::to_token_stream], 94-100. *)
Definition stringify_toks (c : lctx) (a : expr) : option (list rtok) :=
  ts <-? stringify_inner c a ;;
  Some (c_char_ptr cx c (concat_toks (ts ++ [rp ","; nul]))).

(** ** Expressions *)

Definition group_if (b : bool) (ts : list rtok) : list rtok := if b then [parens ts] else ts.

(** The integer literal under a cast, src/ast/cast.rs:63-86. *)
Definition cast_int_toks (v : Z) : list rtok :=
  int_toks v
    (if (v <? -9223372036854775808)%Z then "i128"
     else if (v <? -2147483648)%Z then "i64"
     else if (v <? -32768)%Z then "i32"
     else if (v <? -128)%Z then "i16"
     else if (v <? 0)%Z then "i8"
     else if (v <=? 255)%Z then "u8"
     else if (v <=? 65535)%Z then "u16"
     else if (v <=? 4294967295)%Z then "u32"
     else if (v <=? 18446744073709551615)%Z then "u64"
     else "i128").
Definition is_int_zero (e : expr) : bool := match e with ELit (LInt i) => (int_value i =? 0)%Z | _ => false end.

(** [*(T volatile * )e]: the pattern tested by the assignment, increment and
    dereference rules, e.g. src/ast/binary_expr.rs:311-313. *)
Definition volatile_ptr (e : expr) : bool :=
  match e with ECast (TyPtr (TyQual _ q)) _ => q_is_volatile q | _ => false end.
Definition volatile_deref (e : expr) : bool := match e with EUnary UDeref e' => volatile_ptr e' | _ => false end.
Definition read_volatile (p : list rtok) : list rtok :=
  pfx (cx_trait cx) ++ [ri "ptr"; rp "::"; ri "read_volatile"; parens p].
(** [{ let value = v; ptr::write_volatile(p, w); value }]. *)
Definition write_volatile (v p w : list rtok) : list rtok :=
  [braces ([ri "let"; ri "value"; rp "="] ++ v ++ [rp ";"] ++ pfx (cx_trait cx) ++
           [ri "ptr"; rp "::"; ri "write_volatile"; parens (p ++ rp "," :: w); rp ";"; ri "value"])].
Definition one : rtok := RLit (RlInt 1 []).

(** [Inc], [Dec], [PostInc], [PostDec], src/ast/unary_expr.rs:109-206; [p] is the
    operand below the dereference. *)
Definition step_toks (post : bool) (op : string) (volatile : bool) (raw p : list rtok) : list rtok :=
  let val := [ri "value"; rp op; one] in
  if volatile then
    if post then write_volatile (read_volatile p) p val
    else write_volatile (read_volatile p ++ [rp op; one]) p [ri "value"]
  else if post then
    [braces ([ri "let"; ri "prev"; rp "="] ++ raw ++ [rp ";"] ++ raw ++ [rp (op ++ "="); one; rp ";"; ri "prev"])]
  else
    [braces (raw ++ [rp (op ++ "="); one; rp ";"] ++ raw)].
(** [*p++] and the like, 232-243. *)
Definition deref_step_toks (post : bool) (f : string) (raw : list rtok) : list rtok :=
  let upd := raw ++ [rp "="] ++ raw ++ [rp "."; ri f; parens [one]; rp ";"] in
  if post then [rp "*"; braces ([ri "let"; ri "prev"; rp "="] ++ raw ++ [rp ";"] ++ upd ++ [ri "prev"])]
  else [rp "*"; braces (upd ++ raw)].

Definition block_assign (op : binop) : bool :=
  match op with OAssign | OAddAssign | OSubAssign | OBitAndAssign | OBitXorAssign | OBitOrAssign => true | _ => false end.
(** The parentheses of a binary expression, src/ast/binary_expr.rs:291-307. *)
Definition binary_parens (l : expr) (op : binop) (r : expr) : bool * bool :=
  let lp := expr_prec l in
  let rp := expr_prec r in
  let '(p, a) := binop_prec op in
  let '(bl, br) :=
    match a with
    | AssocNone => (p <=? lp, p <=? rp)%nat
    | AssocLeft => (p <? lp, p <=? rp)%nat
    | AssocRight => (lp <=? p, rp <? p)%nat
    end in
  (match l, op with (ECast _ _ | ESizeOf _), OShl => true | _, _ => bl end, br).

Definition exprs_toks (f : expr -> option (list rtok)) : list expr -> option (list (list rtok)) :=
  fix exprs_toks (l : list expr) : option (list (list rtok)) :=
    match l with
    | [] => Some []
    | e :: l' => a <-? f e ;; r <-? exprs_toks l' ;; Some (a :: r)
    end.

(** How an argument is passed to a call, src/ast/function_call.rs:93-122;
    [None] is a panic of [arg_name]. *)
Definition call_arg_toks (c : lctx) (offsetof : bool) (e : expr) (ts : list rtok) : option (list rtok) :=
  let into := Some (if offsetof then ts else [parens ts; rp "."; ri "into"; parens []]) in
  match e with
  | ECast t e' => if ty_is_ptr t && is_int_zero e' then Some ts else into
  | ELit _ => Some ts
  | EVar (IArg i) =>
    n <-? arg_name c i ;;
    if str_eqb n (st "...") || negb (lc_macro c) then Some ts else into
  | _ => into
  end.
Fixpoint call_args_toks (c : lctx) (offsetof : bool) (l : list expr) (ts : list (list rtok)) : option (list (list rtok)) :=
  match l, ts with
  | e :: l', t :: ts' => a <-? call_arg_toks c offsetof e t ;; r <-? call_args_toks c offsetof l' ts' ;; Some (a :: r)
  | _, _ => Some []
  end.

(** [Expr::to_tokens], src/ast/expr.rs:659-700, with [Cast::to_tokens],
    src/ast/cast.rs:36-100, [FunctionCall::to_tokens],
    src/ast/function_call.rs:84-128, [UnaryExpr::to_token_stream],
    src/ast/unary_expr.rs:97-261, [BinaryExpr::to_token_stream],
    src/ast/binary_expr.rs:287-352 and [TernaryExpr::to_tokens],
    src/ast/ternary_expr.rs:40-53.  [format!(..).parse()] prefixes a token. *)
Fixpoint etoks (c : lctx) (e : expr) {struct e} : option (list rtok) :=
  match e with
  | EVar n => var_toks c n
  | ELit l => lit_toks c l
  | EStringify a => stringify_toks c a
  | ESizeOf t =>
    ts <-? ty_toks cx c t ;;
    Some (pfx (cx_trait cx) ++ [ri "mem"; rp "::"; ri "size_of"; rp "::"; rp "<"] ++ ts ++ [rp ">"; parens []; ri "as"] ++
          builtin_toks cx BSizeT)
  | EConcat l =>
    names <-? exprs_toks (fun e =>
      match e with
      | EVar (IPlain n) => if str_eqb n (st "__FILE__") then Some file_toks else etoks c e
      | EStringify a => stringify_inner c a
      | _ => etoks c e
      end) l ;;
    Some (c_char_ptr cx c (concat_toks (sep_by (rp ",") names ++ [rp ","; nul])))
  | ECast t e0 =>
    let to_ptr_null := match t with
      | TyQual (TyPtr _) q => if q_is_const q && is_int_zero e0 then Some "null" else None
      | TyPtr _ => if is_int_zero e0 then Some "null_mut" else None
      | _ => None
      end in
    match to_ptr_null with
    | Some f => Some (pfx (cx_trait cx) ++ [ri "ptr"; rp "::"; ri f; parens []])
    | None =>
      if ty_is_void t then
        ts <-? etoks c e0 ;;
        Some [braces ([ri "let"; ri "_"; rp "="] ++ ts ++ [rp ";"])]
      else
        es <-? match e0 with
               | ELit (LInt i) => Some (cast_int_toks (int_value i))
               | _ => ts <-? etoks c e0 ;; Some (group_if (3 <? expr_prec e0)%nat ts)
               end ;;
        ts <-? ty_toks cx c t ;;
        Some (es ++ [ri "as"] ++ ts)
    end
  | ECall n args =>
    let offsetof := match n with
      | IPlain id => str_eqb id (st "__builtin_offsetof") && Nat.eqb (length args) 2
      | _ => false
      end in
    name <-? (if offsetof then Some (pfx (cx_trait cx) ++ [ri "mem"; rp "::"; ri "offsetof"; rp "!"])
              else ident_toks cx c n) ;;
    ts <-? exprs_toks (etoks c) args ;;
    ts <-? call_args_toks c offsetof args ts ;;
    Some (name ++ [parens (sep_by (rp ",") ts)])
  | EUnary op e0 =>
    let prec := fst (unop_prec op) in
    raw <-? etoks c e0 ;;
    let es := group_if (prec <? expr_prec e0)%nat raw in
    (* [expr] below a dereference; only used when [volatile_deref e0]. *)
    let below := match e0 with EUnary _ e1 => etoks c e1 | _ => Some [] end in
    match op with
    | UInc => p <-? below ;; Some (step_toks false "+" (volatile_deref e0) raw p)
    | UDec => p <-? below ;; Some (step_toks false "-" (volatile_deref e0) raw p)
    | UPostInc => p <-? below ;; Some (step_toks true "+" (volatile_deref e0) raw p)
    | UPostDec => p <-? below ;; Some (step_toks true "-" (volatile_deref e0) raw p)
    | UNot | UComp => Some (rp "!" :: es)
    | UPlus => Some (rp "+" :: es)
    | UMinus => Some (rp "-" :: es)
    | UAddrOf => Some (pfx (cx_trait cx) ++ [ri "ptr"; rp "::"; ri "addr_of_mut"; rp "!"; parens raw])
    | UDeref =>
      match e0 with
      | ECast _ _ => Some (if volatile_ptr e0 then read_volatile raw else rp "*" :: es)
      | EBinary l op2 r =>
        ls <-? etoks c l ;;
        rs <-? etoks c r ;;
        let ls := group_if ((prec <? expr_prec l)%nat || (1 <? expr_prec l)%nat) ls in
        Some match op2 with
             | OAdd => rp "*" :: ls ++ [rp "."; ri "add"; parens rs]
             | OSub => rp "*" :: ls ++ [rp "."; ri "sub"; parens rs]
             | _ => rp "*" :: es
             end
      | EUnary op2 e1 =>
        r1 <-? etoks c e1 ;;
        Some match op2 with
             | UInc => deref_step_toks false "add" r1
             | UDec => deref_step_toks false "sub" r1
             | UPostInc => deref_step_toks true "add" r1
             | UPostDec => deref_step_toks true "sub" r1
             | _ => rp "*" :: es
             end
      | _ => Some (rp "*" :: es)
      end
    end
  | EBinary l op r =>
    ls <-? etoks c l ;;
    rs <-? etoks c r ;;
    if block_assign op then
      p <-? match l with EUnary _ e1 => etoks c e1 | _ => Some [] end ;;
      Some (if volatile_deref l then
              let v := match op with OAssign => rs | _ => read_volatile p ++ rp "+" :: rs end in
              write_volatile v p [ri "value"]
            else [braces (ls ++ [binop_tok op] ++ rs ++ [rp ";"] ++ ls)])
    else
      let '(bl, br) := binary_parens l op r in
      Some (group_if bl ls ++ [binop_tok op] ++ group_if br rs)
  | ETernary a b d =>
    x <-? etoks c a ;;
    y <-? etoks c b ;;
    z <-? etoks c d ;;
    Some ([ri "if"] ++ x ++ [braces y; ri "else"; braces z])
  end.

(** ** Statements *)

(** [impl ToTokens for Dir], [for RegConstraint], src/ast/asm.rs:26-56. *)
Definition dir_tok (d : asm_dir) : rtok := match d with DOut => ri "out" | DInOut => ri "inout" end.
Definition reg_tok (r : reg_constraint) : rtok :=
  match r with
  | RcReg => ri "reg"
  | RcRegAbcd => ri "reg_abcd"
  | RcRegByte => ri "reg_byte"
  | RcFreg => ri "freg"
  | RcDigit d => RLit (RlInt (Z.of_N d) [])
  end.
(** [is_att_syntax], 217-228. *)
Definition asm_att (a : asm_stmt) : bool :=
  existsb (fun s => contains s (st "({") || existsb (N.eqb 37) s || existsb (N.eqb 36) s) (asm_template a).

(** [Vec::remove]; [None] is a panic. *)
Fixpoint remove_nth {A} (l : list A) (i : nat) : option (list A) :=
  match l, i with
  | [], _ => None
  | _ :: l', O => Some l'
  | y :: l', S i' => omap (cons y) (remove_nth l' i')
  end.
(** The loop over the inputs, 243-250. *)
Fixpoint asm_tie (cs : list reg_constraint) (outs : list (asm_dir * reg_constraint * expr)) (ins : list (reg_constraint * expr))
    : option (list (asm_dir * reg_constraint * expr) * list (reg_constraint * expr)) :=
  match cs with
  | [] => Some (outs, ins)
  | RcDigit d :: cs' =>
    match nth_error outs (N.to_nat d) with
    | Some (_, r, e) =>
      ins' <-? remove_nth ins (N.to_nat d) ;;
      outs' <-? set_nth outs (N.to_nat d) (DInOut, r, e) ;;
      asm_tie cs' outs' ins'
    | None => asm_tie cs' outs ins
    end
  | _ :: cs' => asm_tie cs' outs ins
  end.

(** [BTreeSet<_>] of strings: sorted by code points, without duplicates. *)
Fixpoint str_compare (a b : str) : comparison :=
  match a, b with
  | [], [] => Eq
  | [], _ => Lt
  | _, [] => Gt
  | x :: a', y :: b' => match (x ?= y)%N with Eq => str_compare a' b' | o => o end
  end.
Fixpoint str_insert (s : str) (l : list str) : list str :=
  match l with
  | [] => [s]
  | x :: l' => match str_compare s x with Lt => s :: l | Eq => l | Gt => x :: str_insert s l' end
  end.
Definition str_set (l : list str) : list str := fold_left (fun acc s => str_insert s acc) l [].
Definition str_remove (s : str) (l : list str) : list str := filter (fun x => negb (str_eqb x s)) l.
Definition str_in (s : str) (l : list str) : bool := existsb (str_eqb s) l.

(** [#(#l,)*]. *)
Definition terminated_by (l : list (list rtok)) : list rtok := flat_map (fun ts => ts ++ [rp ","]) l.

(** [Asm::to_tokens], 237-306. *)
Definition asm_toks (c : lctx) (a : asm_stmt) : option (list rtok) :=
  tied <-? asm_tie (map fst (asm_inputs a)) (asm_outputs a) (asm_inputs a) ;;
  let '(outs, ins) := tied in
  os <-? exprs_toks (etoks c) (map snd outs) ;;
  is <-? exprs_toks (etoks c) (map snd ins) ;;
  let outputs := map (fun '((d, r, _), ts) => dir_tok d :: parens [reg_tok r] :: ts) (combine outs os) in
  let inputs := map (fun '((r, _), ts) => ri "in" :: parens [reg_tok r] :: ts) (combine ins is) in
  let clobbers := str_set (asm_clobbers a) in
  let global := asm_global a in
  let mem := negb global && negb (str_in (st "memory") clobbers) in
  let flags := negb global && negb (str_in (st "cc") clobbers) in
  let clobbers' := if global then clobbers else str_remove (st "cc") (str_remove (st "memory") clobbers) in
  let options := (if asm_att a then [[ri "att_syntax"]] else []) ++ (if mem then [[ri "nomem"]] else []) ++
                 (if flags then [[ri "preserves_flags"]] else []) in
  let abi := match global, clobbers' with
    | false, _ :: _ => [ri "clobber_abi"; parens [RLit (RlStr (st "C"))]; rp ","]
    | _, _ => []
    end in
  let opts := match options with [] => [] | _ => [ri "options"; parens (sep_by (rp ",") options); rp ","] end in
  Some (pfx (cx_trait cx) ++ [ri "arch"; rp "::"; ri (if global then "global_asm" else "asm"); rp "!";
    parens (terminated_by (map (fun s => [RLit (RlStr s)]) (asm_template a)) ++ terminated_by outputs ++
            terminated_by inputs ++
            terminated_by (map (fun s => [ri "out"; parens [RLit (RlStr s)]; ri "_"]) clobbers') ++ abi ++ opts)]).

(** [VarDecl::to_tokens], src/ast/var_decl.rs:48-58. *)
Definition var_decl_toks (c : lctx) (d : var_decl) : option (list rtok) :=
  t <-? ty_toks cx c (vd_ty d) ;;
  n <-? ident_toks cx c (vd_name d) ;;
  e <-? etoks c (vd_rhs d) ;;
  Some ([ri (if vd_static d then "static" else "let"); ri "mut"] ++ n ++ [rp ":"] ++ t ++ [rp "="] ++ e).

(** [FunctionDecl::to_tokens], src/ast/function_decl.rs:61-79. *)
Definition fn_decl_toks (c : lctx) (d : fn_decl) : option (list rtok) :=
  n <-? ident_toks cx c (fd_name d) ;;
  args <-? all_toks (fun '(t, a) => ts <-? ty_toks cx c t ;; n <-? ident_toks cx c a ;; Some (n ++ [rp ":"] ++ ts)) (fd_args d) ;;
  r <-? ty_toks cx c (fd_ret d) ;;
  Some [ri "extern"; RLit (RlStr (st "C"));
        braces ([ri "pub"; ri "fn"] ++ n ++ [parens (sep_by (rp ",") args); rp "->"] ++ r ++ [rp ";"])].

Definition stmts_toks (f : stmt -> option (list rtok)) : list stmt -> option (list (list rtok)) :=
  fix stmts_toks (l : list stmt) : option (list (list rtok)) :=
    match l with
    | [] => Some []
    | s :: l' => a <-? f s ;; r <-? stmts_toks l' ;; Some (a :: r)
    end.

(** [Statement::to_tokens], src/ast/statement.rs:146-199. *)
Fixpoint stmt_toks (c : lctx) (s : stmt) {struct s} : option (list rtok) :=
  match s with
  | SAsm a => ts <-? asm_toks c a ;; Some (ts ++ [rp ";"])
  | SExpr e => ts <-? etoks c e ;; Some (ts ++ [rp ";"])
  | SFnDecl d => fn_decl_toks c d
  | SVarDecl d => ts <-? var_decl_toks c d ;; Some (ts ++ [rp ";"])
  | SBlock l => ts <-? stmts_toks (stmt_toks c) l ;; Some [braces (concat ts)]
  | SIf e a b =>
    es <-? etoks c e ;;
    xs <-? stmts_toks (stmt_toks c) a ;;
    ys <-? stmts_toks (stmt_toks c) b ;;
    Some ([ri "if"] ++ es ++ [braces (concat xs)] ++
          match ys with [] => [] | _ => [ri "else"; braces (sep_by (rp ";") ys)] end)
  | SDoWhile l e =>
    xs <-? stmts_toks (stmt_toks c) l ;;
    es <-? etoks c e ;;
    Some [ri "loop"; braces (concat xs ++ [ri "if"] ++ es ++ [braces [ri "continue"]; ri "break"])]
  end.

Definition body_toks (c : lctx) (b : macro_body) : option (list rtok) :=
  match b with MbStatement s => stmt_toks c s | MbExpr e => etoks c e end.

(** ** Variable-like macros *)

Definition ofres {A} (f : fres) (k : option ctype -> res cgerr A) : res cgerr A :=
  match f with FOk t => k t | FErr e => RErr e | FPanic => RPanic | FFuel => RFuel end.
Definition opanic {E A} (o : option A) : res E A := match o with Some a => ROk a | None => RPanic end.

(** The context of [VarMacro::generate], src/var_macro.rs:54-75. *)
Definition var_lctx : lctx := mk_lctx [] [] false (target_at_least cx 59) (target_at_least cx 17) true.

(** [VarMacro::generate], src/var_macro.rs:49-97: the macro afterwards (its body
    has been rewritten), and the value and type. *)
Definition var_generate (m : var_macro) : var_macro * res cgerr (list rtok * option (list rtok)) :=
  match vm_body m with
  | MbStatement _ => (m, RErr NonExpressionVarMacro)
  | MbExpr e =>
    let '(e', c, f) := expr_finish cx e var_lctx in
    (mk_var_macro (vm_name m) (MbExpr e'),
     ofres f (fun t =>
     x <- match e' with
          | ELit (LString s) => x <- opanic (string_toks c s true) ;; ROk (snd x, Some (fst x))
          | _ =>
            ts <- opanic (etoks c e') ;;
            match t with
            | Some t => y <- opanic (ty_toks cx c t) ;; ROk (ts, Some y)
            | None => ROk (ts, None)
            end
          end ;;
     if lc_macro c then RErr NonConstantVarMacro else ROk x))
  end.

(** ** Function-like macros *)

(** The argument types known from the context, src/fn_macro.rs:155-168. *)
Fixpoint arg_types (name : str) (l : list str) : res cgerr (list arg_ty) :=
  match l with
  | [] => ROk []
  | a :: l' =>
    t <- match cx_arg_ty cx name a with
         | Some t => t' <- from_rust_ty (cx_ffi cx) t ;; ROk (AKnown t')
         | None => ROk AUnknown
         end ;;
    r <- arg_types name l' ;;
    ROk (t :: r)
  end.
Definition is_known (t : arg_ty) : bool := match t with AKnown _ => true | _ => false end.
(** The macro patterns, 194-211. *)
Fixpoint pattern_toks (names : list str) (tys : list arg_ty) : option (list (list rtok)) :=
  match names, tys with
  | n :: names', t :: tys' =>
    p <-? (if str_eqb n (st "...") then
             Some [rp "$"; parens [rp "$"; ri "__VA_ARGS__"; rp ":"; ri "expr"]; rp ","; rp "*"]
           else
             id <-? ident_tok n ;;
             Some [rp "$"; id; rp ":"; ri match t with AIdent => "ident" | ATy => "ty" | ATt => "tt" | _ => "expr" end]) ;;
    r <-? pattern_toks names' tys' ;;
    Some (p :: r)
  | _, _ => Some []
  end.
(** The parameters of a function, 227-240; the [unreachable!()] is a panic. *)
Fixpoint param_toks (c : lctx) (names : list str) (tys : list arg_ty) : option (list (list rtok)) :=
  match names, tys with
  | n :: names', t :: tys' =>
    p <-? match t with
          | AKnown t => id <-? ident_tok n ;; ts <-? ty_toks cx c t ;; Some (ri "mut" :: id :: rp ":" :: ts)
          | _ => None
          end ;;
    r <-? param_toks c names' tys' ;;
    Some (p :: r)
  | _, _ => Some []
  end.

(** [FnMacro::generate], src/fn_macro.rs:149-261: the macro afterwards, and the
    generated item. *)
Definition fn_generate (m : fn_macro) : fn_macro * res cgerr (list rtok) :=
  match arg_types (fm_name m) (fm_args m) with
  | ROk tys =>
    let c0 := mk_lctx (fm_args m) tys false true true false in
    let '(b, c1, f) := body_finish cx (fm_body m) c0 in
    (mk_fn_macro (fm_name m) (fm_args m) b,
     ofres f (fun ret =>
     let c := set_macro (lc_macro c1 || match cx_fn cx (fm_name m) with Some _ => true | None => false end ||
                         is_variadic c1 || negb (forallb is_known (lc_types c1)) ||
                         match ret with None => true | Some _ => false end) c1 in
     name <- opanic (ident_tok (fm_name m)) ;;
     body <- opanic (body_toks c b) ;;
     if lc_macro c then
       args <- opanic (pattern_toks (fm_args m) (lc_types c)) ;;
       macro_id <- opanic (ident_tok (st "__cmacro__" ++ fm_name m)) ;;
       ROk ([rp "#"; brackets [ri "doc"; parens [ri "hidden"]];
             rp "#"; brackets [ri "macro_export"];
             ri "macro_rules"; rp "!"; macro_id;
             braces [parens (sep_by (rp ",") args); rp "=>"; braces body; rp ";"];
             ri "pub"; ri "use"; macro_id; ri "as"; name; rp ";"])
     else
       args <- opanic (param_toks c (fm_args m) (lc_types c)) ;;
       rt <- match ret with
             | Some t => if ty_is_void t then ROk None else (ts <- opanic (ty_toks cx c t) ;; ROk (Some ts))
             | None => ROk None
             end ;;
       ROk ([rp "#"; brackets [ri "allow"; parens [ri "non_snake_case"; rp ","; ri "unused_mut"; rp ","; ri "unsafe_code"]];
             rp "#"; brackets [ri "inline"; parens [ri "always"]];
             ri "pub"; ri "unsafe"; ri "extern"; RLit (RlStr (st "C")); ri "fn"; name; parens (sep_by (rp ",") args)] ++
            match rt with
            | Some ts => rp "->" :: ts ++ [braces body]
            | None => [braces (body ++ [rp ";"])]
            end)))
  | RErr e => (m, RErr e)
  | RPanic => (m, RPanic)
  | RFuel => (m, RFuel)
  end.

End Codegen.
