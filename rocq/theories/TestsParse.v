(** The parser tests of src/ast ([parse_tokens!] and friends), run against the
    model. *)
From Verif Require Import Base Utf Lex LexFloat Token Ast Nom ParseTok ParseExpr ParseStmt.
From Coq Require Import String List.
Import ListNotations.
Local Open Scope string_scope.
Local Open Scope list_scope.

(** src/ast/expr.rs *)
Example parse_expr_1 : @expr_parse demo_unicode [MIdent (st "u8"); MLit (LChar (COrdinary 97))] =
  POk [] (ELit (LChar (CUtf8 97))).
Proof. vm_compute. reflexivity. Qed.
(** src/ast/expr.rs *)
Example parse_expr_2 : @expr_parse demo_unicode [MLit (LChar (CUtf32 127849))] =
  POk [] (ELit (LChar (CUtf32 127849))).
Proof. vm_compute. reflexivity. Qed.
(** src/ast/expr.rs *)
Example parse_expr_3 : @expr_parse demo_unicode [MPunct (st "#"); MArg 0] =
  POk [] (EStringify (EVar (IArg 0))).
Proof. vm_compute. reflexivity. Qed.
(** src/ast/expr.rs *)
Example parse_expr_4 : @expr_parse demo_unicode [MLit (LString (SOrdinary (st "abc"))); MLit (LString (SOrdinary (st "def")))] =
  POk [] (ELit (LString (SOrdinary (st "abcdef")))).
Proof. vm_compute. reflexivity. Qed.
(** src/ast/expr.rs *)
Example parse_expr_5 : @expr_parse demo_unicode [MLit (LString (SOrdinary (st "def"))); MPunct (st "#"); MArg 0] =
  POk [] (EConcat [(ELit (LString (SOrdinary (st "def")))); (EStringify (EVar (IArg 0)))]).
Proof. vm_compute. reflexivity. Qed.
(** src/ast/expr.rs *)
Example parse_expr_6 : @expr_parse demo_unicode [MArg 0; MPunct (st "##"); MIdent (st "def")] =
  POk [] (EVar (IConcat [(IpArg 0); (IpPlain (st "def"))])).
Proof. vm_compute. reflexivity. Qed.
(** src/ast/expr.rs *)
Example parse_expr_7 : @expr_parse demo_unicode [MArg 0; MPunct (st "##"); MIdent (st "def"); MPunct (st "##"); MIdent (st "ghi")] =
  POk [] (EVar (IConcat [(IpArg 0); (IpPlain (st "def")); (IpPlain (st "ghi"))])).
Proof. vm_compute. reflexivity. Qed.
(** src/ast/expr.rs *)
Example parse_expr_8 : @expr_parse demo_unicode [MArg 0; MPunct (st "##"); MIdent (st "_def")] =
  POk [] (EVar (IConcat [(IpArg 0); (IpPlain (st "_def"))])).
Proof. vm_compute. reflexivity. Qed.
(** src/ast/expr.rs *)
Example parse_expr_9 : @expr_parse demo_unicode [MArg 0; MPunct (st "##"); MIdCont (st "123")] =
  POk [] (EVar (IConcat [(IpArg 0); (IpInt 123)])).
Proof. vm_compute. reflexivity. Qed.
(** src/ast/expr.rs *)
Example parse_expr_10 : @expr_parse demo_unicode [MArg 0; MPunct (st "##"); MIdCont (st "123def")] =
  POk [] (EVar (IConcat [(IpArg 0); (IpInt 123); (IpPlain (st "def"))])).
Proof. vm_compute. reflexivity. Qed.
(** src/ast/expr.rs *)
Example parse_expr_11 : @expr_parse demo_unicode [MArg 0; MPunct (st "##"); MIdCont (st "123def456ghi")] =
  POk [] (EVar (IConcat [(IpArg 0); (IpInt 123); (IpPlain (st "def456ghi"))])).
Proof. vm_compute. reflexivity. Qed.
(** src/ast/expr.rs *)
Example parse_expr_12 : @expr_parse demo_unicode [MIdent (st "__INT"); MPunct (st "##"); MIdent (st "_MAX__")] =
  POk [] (EVar (IConcat [(IpPlain (st "__INT")); (IpPlain (st "_MAX__"))])).
Proof. vm_compute. reflexivity. Qed.
(** src/ast/expr.rs *)
Example parse_expr_13 : @expr_parse demo_unicode [MIdent (st "a"); MPunct (st "."); MIdent (st "b")] =
  POk [] (EBinary (EVar (IPlain (st "a"))) OMember (EVar (IPlain (st "b")))).
Proof. vm_compute. reflexivity. Qed.
(** src/ast/expr.rs *)
Example parse_expr_14 : @expr_parse demo_unicode [MIdent (st "a"); MPunct (st "->"); MIdent (st "b")] =
  POk [] (EBinary (EUnary UDeref (EVar (IPlain (st "a")))) OMember (EVar (IPlain (st "b")))).
Proof. vm_compute. reflexivity. Qed.
(** src/ast/expr.rs *)
Example parse_expr_15 : @expr_parse demo_unicode [MIdent (st "a"); MPunct (st "["); MLit (LInt (mk_int 0 None)); MPunct (st "]")] =
  POk [] (EUnary UDeref (EBinary (EVar (IPlain (st "a"))) OAdd (ELit (LInt (mk_int 0 None))))).
Proof. vm_compute. reflexivity. Qed.
(** src/ast/expr.rs *)
Example parse_expr_16 : @expr_parse demo_unicode [MIdent (st "a"); MPunct (st "["); MLit (LInt (mk_int 0 None)); MPunct (st "]"); MPunct (st "["); MLit (LInt (mk_int 1 None)); MPunct (st "]")] =
  POk [] (EUnary UDeref (EBinary (EUnary UDeref (EBinary (EVar (IPlain (st "a"))) OAdd (ELit (LInt (mk_int 0 None))))) OAdd (ELit (LInt (mk_int 1 None))))).
Proof. vm_compute. reflexivity. Qed.
(** src/ast/expr.rs *)
Example parse_expr_17 : @expr_parse demo_unicode [MIdent (st "a"); MPunct (st "["); MIdent (st "b"); MPunct (st "]")] =
  POk [] (EUnary UDeref (EBinary (EVar (IPlain (st "a"))) OAdd (EVar (IPlain (st "b"))))).
Proof. vm_compute. reflexivity. Qed.
(** src/ast/expr.rs *)
Example parse_expr_18 : @expr_parse demo_unicode [MIdent (st "a"); MPunct (st "="); MIdent (st "b"); MPunct (st "="); MIdent (st "c")] =
  POk [] (EBinary (EVar (IPlain (st "a"))) OAssign (EBinary (EVar (IPlain (st "b"))) OAssign (EVar (IPlain (st "c"))))).
Proof. vm_compute. reflexivity. Qed.
(** src/ast/expr.rs *)
Example parse_expr_19 : @expr_parse demo_unicode [MIdent (st "my_function"); MPunct (st "("); MIdent (st "arg1"); MPunct (st ","); MIdent (st "arg2"); MPunct (st ")")] =
  POk [] (ECall (IPlain (st "my_function")) [(EVar (IPlain (st "arg1"))); (EVar (IPlain (st "arg2")))]).
Proof. vm_compute. reflexivity. Qed.
(** src/ast/expr.rs *)
Example parse_expr_20 : @expr_parse demo_unicode [MPunct (st "("); MPunct (st "-"); MLit (LInt (mk_int 123456789012 (Some BULongLong))); MPunct (st ")")] =
  POk [] (EUnary UMinus (ELit (LInt (mk_int 123456789012 (Some BULongLong))))).
Proof. vm_compute. reflexivity. Qed.
(** src/ast/ty.rs *)
Example parse_ty_21 : @type_parse demo_unicode [MIdent (st "float")] =
  POk [] (TyBuiltIn BFloat).
Proof. vm_compute. reflexivity. Qed.
(** src/ast/ty.rs *)
Example parse_ty_22 : @type_parse demo_unicode [MIdent (st "double")] =
  POk [] (TyBuiltIn BDouble).
Proof. vm_compute. reflexivity. Qed.
(** src/ast/ty.rs *)
Example parse_ty_23 : @type_parse demo_unicode [MIdent (st "long"); MIdent (st "double")] =
  POk [] (TyBuiltIn BLongDouble).
Proof. vm_compute. reflexivity. Qed.
(** src/ast/ty.rs *)
Example parse_ty_24 : @type_parse demo_unicode [MIdent (st "bool")] =
  POk [] (TyBuiltIn BBool).
Proof. vm_compute. reflexivity. Qed.
(** src/ast/ty.rs *)
Example parse_ty_25 : @type_parse demo_unicode [MIdent (st "char")] =
  POk [] (TyBuiltIn BChar).
Proof. vm_compute. reflexivity. Qed.
(** src/ast/ty.rs *)
Example parse_ty_26 : @type_parse demo_unicode [MIdent (st "short")] =
  POk [] (TyBuiltIn BShort).
Proof. vm_compute. reflexivity. Qed.
(** src/ast/ty.rs *)
Example parse_ty_27 : @type_parse demo_unicode [MIdent (st "int")] =
  POk [] (TyBuiltIn BInt).
Proof. vm_compute. reflexivity. Qed.
(** src/ast/ty.rs *)
Example parse_ty_28 : @type_parse demo_unicode [MIdent (st "long")] =
  POk [] (TyBuiltIn BLong).
Proof. vm_compute. reflexivity. Qed.
(** src/ast/ty.rs *)
Example parse_ty_29 : @type_parse demo_unicode [MIdent (st "long"); MIdent (st "long")] =
  POk [] (TyBuiltIn BLongLong).
Proof. vm_compute. reflexivity. Qed.
(** src/ast/ty.rs *)
Example parse_ty_30 : @type_parse demo_unicode [MIdent (st "void")] =
  POk [] (TyBuiltIn BVoid).
Proof. vm_compute. reflexivity. Qed.
(** src/ast/ty.rs *)
Example parse_ty_31 : @type_parse demo_unicode [MIdent (st "MyType")] =
  POk [] (TyIdent (IPlain (st "MyType")) false).
Proof. vm_compute. reflexivity. Qed.
(** src/ast/ty.rs *)
Example parse_ty_32 : @type_parse demo_unicode [MIdent (st "struct"); MIdent (st "MyType")] =
  POk [] (TyIdent (IPlain (st "MyType")) true).
Proof. vm_compute. reflexivity. Qed.
(** src/ast/ty.rs *)
Example parse_ty_33 : @type_parse demo_unicode [MIdent (st "int8_t")] =
  POk [] (TyIdent (IPlain (st "int8_t")) false).
Proof. vm_compute. reflexivity. Qed.
(** src/ast/ty.rs *)
Example parse_ty_34 : @type_parse demo_unicode [MIdent (st "signed"); MIdent (st "char")] =
  POk [] (TyBuiltIn BSChar).
Proof. vm_compute. reflexivity. Qed.
(** src/ast/ty.rs *)
Example parse_ty_35 : @type_parse demo_unicode [MIdent (st "signed"); MIdent (st "short")] =
  POk [] (TyBuiltIn BShort).
Proof. vm_compute. reflexivity. Qed.
(** src/ast/ty.rs *)
Example parse_ty_36 : @type_parse demo_unicode [MIdent (st "signed"); MIdent (st "int")] =
  POk [] (TyBuiltIn BInt).
Proof. vm_compute. reflexivity. Qed.
(** src/ast/ty.rs *)
Example parse_ty_37 : @type_parse demo_unicode [MIdent (st "signed"); MIdent (st "long")] =
  POk [] (TyBuiltIn BLong).
Proof. vm_compute. reflexivity. Qed.
(** src/ast/ty.rs *)
Example parse_ty_38 : @type_parse demo_unicode [MIdent (st "signed"); MIdent (st "long"); MIdent (st "long")] =
  POk [] (TyBuiltIn BLongLong).
Proof. vm_compute. reflexivity. Qed.
(** src/ast/ty.rs *)
Example parse_ty_39 : @type_parse demo_unicode [MIdent (st "unsigned"); MIdent (st "char")] =
  POk [] (TyBuiltIn BUChar).
Proof. vm_compute. reflexivity. Qed.
(** src/ast/ty.rs *)
Example parse_ty_40 : @type_parse demo_unicode [MIdent (st "unsigned"); MIdent (st "short")] =
  POk [] (TyBuiltIn BUShort).
Proof. vm_compute. reflexivity. Qed.
(** src/ast/ty.rs *)
Example parse_ty_41 : @type_parse demo_unicode [MIdent (st "unsigned"); MIdent (st "int")] =
  POk [] (TyBuiltIn BUInt).
Proof. vm_compute. reflexivity. Qed.
(** src/ast/ty.rs *)
Example parse_ty_42 : @type_parse demo_unicode [MIdent (st "unsigned"); MIdent (st "long")] =
  POk [] (TyBuiltIn BULong).
Proof. vm_compute. reflexivity. Qed.
(** src/ast/ty.rs *)
Example parse_ty_43 : @type_parse demo_unicode [MIdent (st "unsigned"); MIdent (st "long"); MIdent (st "long")] =
  POk [] (TyBuiltIn BULongLong).
Proof. vm_compute. reflexivity. Qed.
(** src/ast/ty.rs *)
Example parse_ty_44 : @type_parse demo_unicode [MIdent (st "void"); MPunct (st "*")] =
  POk [] (TyPtr (TyBuiltIn BVoid)).
Proof. vm_compute. reflexivity. Qed.
(** src/ast/ty.rs *)
Example parse_ty_45 : @type_parse demo_unicode [MIdent (st "void"); MPunct (st "*"); MIdent (st "const")] =
  POk [] (TyQual (TyPtr (TyBuiltIn BVoid)) QConst).
Proof. vm_compute. reflexivity. Qed.
(** src/ast/ty.rs *)
Example parse_ty_46 : @type_parse demo_unicode [MIdent (st "void"); MPunct (st "*"); MIdent (st "const"); MPunct (st "*")] =
  POk [] (TyPtr (TyQual (TyPtr (TyBuiltIn BVoid)) QConst)).
Proof. vm_compute. reflexivity. Qed.
(** src/ast/ty.rs *)
Example parse_ty_47 : @type_parse demo_unicode [MIdent (st "const"); MIdent (st "int")] =
  POk [] (TyQual (TyBuiltIn BInt) QConst).
Proof. vm_compute. reflexivity. Qed.
(** src/ast/ty.rs *)
Example parse_ty_48 : @type_parse demo_unicode [MIdent (st "int"); MIdent (st "const")] =
  POk [] (TyQual (TyBuiltIn BInt) QConst).
Proof. vm_compute. reflexivity. Qed.
(** src/ast/ty.rs *)
Example parse_ty_49 : @type_parse demo_unicode [MIdent (st "const"); MIdent (st "int"); MIdent (st "const")] =
  POk [] (TyQual (TyBuiltIn BInt) QConst).
Proof. vm_compute. reflexivity. Qed.
(** src/ast/ty.rs *)
Example parse_ty_50 : @type_parse demo_unicode [MIdent (st "const"); MIdent (st "int"); MPunct (st "*"); MIdent (st "const")] =
  POk [] (TyQual (TyPtr (TyQual (TyBuiltIn BInt) QConst)) QConst).
Proof. vm_compute. reflexivity. Qed.
(** src/ast/stringify.rs *)
Example parse_stringify_51 : stringify_parse [MPunct (st "#"); MArg 0] =
  POk [] (EStringify (EVar (IArg 0))).
Proof. vm_compute. reflexivity. Qed.
(** src/ast/statement.rs *)
Example parse_statement_52 : @stmt_parse demo_unicode [MIdent (st "a"); MPunct (st "+="); MLit (LInt (mk_int 2 None)); MPunct (st ";")] =
  POk [] (SExpr (EBinary (EVar (IPlain (st "a"))) OAddAssign (ELit (LInt (mk_int 2 None))))).
Proof. vm_compute. reflexivity. Qed.
(** src/ast/statement.rs *)
Example parse_statement_53 : @stmt_parse demo_unicode [MPunct (st "{"); MPunct (st "}")] =
  POk [] (SBlock []).
Proof. vm_compute. reflexivity. Qed.
(** src/ast/statement.rs *)
Example parse_statement_54 : @stmt_parse demo_unicode [MPunct (st "{"); MIdent (st "int"); MIdent (st "a"); MPunct (st "="); MLit (LInt (mk_int 0 None)); MPunct (st ";"); MPunct (st "}")] =
  POk [] (SBlock [(SVarDecl (mk_var_decl (TyBuiltIn BInt) (IPlain (st "a")) (ELit (LInt (mk_int 0 None))) false))]).
Proof. vm_compute. reflexivity. Qed.
(** src/ast/statement.rs *)
Example parse_statement_55 : @stmt_parse demo_unicode [MPunct (st "{"); MPunct (st "}")] =
  POk [] (SBlock []).
Proof. vm_compute. reflexivity. Qed.
(** src/ast/statement.rs *)
Example parse_statement_56 : @stmt_parse demo_unicode [MPunct (st "{"); MPunct (st "}"); MPunct (st ";")] =
  POk [] (SBlock []).
Proof. vm_compute. reflexivity. Qed.
(** src/ast/statement.rs *)
Example parse_statement_57 : @stmt_parse demo_unicode [MIdent (st "if"); MPunct (st "("); MIdent (st "a"); MPunct (st ")"); MIdent (st "b"); MPunct (st ";")] =
  POk [] (SIf (EVar (IPlain (st "a"))) [(SExpr (EVar (IPlain (st "b"))))] []).
Proof. vm_compute. reflexivity. Qed.
(** src/ast/statement.rs *)
Example parse_statement_58 : @stmt_parse demo_unicode [MIdent (st "if"); MPunct (st "("); MIdent (st "a"); MPunct (st ")"); MIdent (st "b"); MPunct (st ";"); MIdent (st "else"); MIdent (st "c"); MPunct (st ";")] =
  POk [] (SIf (EVar (IPlain (st "a"))) [(SExpr (EVar (IPlain (st "b"))))] [(SExpr (EVar (IPlain (st "c"))))]).
Proof. vm_compute. reflexivity. Qed.
(** src/ast/statement.rs *)
Example parse_statement_59 : @stmt_parse demo_unicode [MIdent (st "if"); MPunct (st "("); MIdent (st "a"); MPunct (st ")"); MPunct (st "{"); MIdent (st "b"); MPunct (st ";"); MPunct (st "}")] =
  POk [] (SIf (EVar (IPlain (st "a"))) [(SExpr (EVar (IPlain (st "b"))))] []).
Proof. vm_compute. reflexivity. Qed.
(** src/ast/statement.rs *)
Example parse_statement_60 : @stmt_parse demo_unicode [MIdent (st "if"); MPunct (st "("); MIdent (st "a"); MPunct (st ")"); MPunct (st "{"); MIdent (st "b"); MPunct (st ";"); MPunct (st "}"); MIdent (st "else"); MPunct (st "{"); MIdent (st "c"); MPunct (st ";"); MPunct (st "}")] =
  POk [] (SIf (EVar (IPlain (st "a"))) [(SExpr (EVar (IPlain (st "b"))))] [(SExpr (EVar (IPlain (st "c"))))]).
Proof. vm_compute. reflexivity. Qed.
(** src/ast/statement.rs *)
Example parse_statement_61 : @stmt_parse demo_unicode [MIdent (st "do"); MIdent (st "a"); MPunct (st ";"); MIdent (st "while"); MPunct (st "("); MIdent (st "b"); MPunct (st ")")] =
  POk [] (SDoWhile [(SExpr (EVar (IPlain (st "a"))))] (EVar (IPlain (st "b")))).
Proof. vm_compute. reflexivity. Qed.
(** src/ast/statement.rs *)
Example parse_statement_62 : @stmt_parse demo_unicode [MIdent (st "do"); MPunct (st "{"); MIdent (st "a"); MPunct (st ";"); MPunct (st "}"); MIdent (st "while"); MPunct (st "("); MIdent (st "b"); MPunct (st ")")] =
  POk [] (SDoWhile [(SExpr (EVar (IPlain (st "a"))))] (EVar (IPlain (st "b")))).
Proof. vm_compute. reflexivity. Qed.
(** src/ast/var_decl.rs *)
Example parse_var_decl_63 : @var_decl_parse demo_unicode [MIdent (st "int"); MPunct (st "*"); MIdent (st "abc"); MPunct (st "="); MLit (LInt (mk_int 123 None))] =
  POk [] (mk_var_decl (TyPtr (TyBuiltIn BInt)) (IPlain (st "abc")) (ELit (LInt (mk_int 123 None))) false).
Proof. vm_compute. reflexivity. Qed.
(** src/ast/asm.rs *)
Example parse_asm_64 : @asm_parse demo_unicode [MIdent (st "__asm__"); MPunct (st "("); MLit (LString (SOrdinary (st "leal (%0,%0,4),%0"))); MPunct (st ":"); MLit (LString (SOrdinary (st "=r"))); MPunct (st "("); MIdent (st "n"); MPunct (st ")"); MPunct (st ":"); MLit (LString (SOrdinary (st "0"))); MPunct (st "("); MIdent (st "n"); MPunct (st ")"); MPunct (st ")")] =
  POk [] (mk_asm [(st "leal ({0},{0},4),{0}")] [(DOut, RcReg, (EVar (IPlain (st "n"))))] [((RcDigit 0), (EVar (IPlain (st "n"))))] []).
Proof. vm_compute. reflexivity. Qed.
(** src/ast/asm.rs *)
Example parse_asm_65 : @asm_parse demo_unicode [MIdent (st "__asm__"); MIdent (st "volatile"); MPunct (st "("); MLit (LString (SOrdinary (st ""))); MPunct (st ":"); MPunct (st ":"); MPunct (st ":"); MLit (LString (SOrdinary (st "memory"))); MPunct (st ")")] =
  POk [] (mk_asm [(st "")] [] [] [(st "memory")]).
Proof. vm_compute. reflexivity. Qed.
(** src/ast/ty.rs, [from_str]. *)
Example type_from_str_1 : @type_from_str demo_unicode (st "unsigned int") = Some (TyBuiltIn BUInt).
Proof. vm_compute. reflexivity. Qed.
Example type_from_str_2 : @type_from_str demo_unicode (st "unsigned int*") = Some (TyPtr (TyBuiltIn BUInt)).
Proof. vm_compute. reflexivity. Qed.
Example type_from_str_3 : @type_from_str demo_unicode (st "char *") = Some (TyPtr (TyBuiltIn BChar)).
Proof. vm_compute. reflexivity. Qed.
(** src/ast/asm.rs, [parse_template]; 10 is a newline and 9 a tab. *)
Example parse_template_1 : parse_template (st "btsl %2,%1" ++ [10%N; 9%N] ++ st "sbb %0,%0") = Some [st "btsl {2},{1}"; st "sbb {0},{0}"].
Proof. vm_compute. reflexivity. Qed.
