(** The crate's own unit tests of [MacroSet] (src/macro_set/mod.rs:871-1596),
    replayed on the model.  Generated by a script from the test source; these are
    sanity checks of the model, not proofs of properties. *)
From Verif Require Import Base Utf Lex LexFloat Token MacroSet.
From Coq Require Import String List.
Local Open Scope list_scope.
Import ListNotations.

Definition ex_float (s : str) : lit :=
  match lit_try_from s with Some l => l | None => LInt (mk_int 0 None) end.

Definition ms_macro_set_1 := fst (define_var_macro ms_new (st "VAR") [(st "A"); (st "+"); (st "B")]).
Definition ms_macro_set_2 := fst (define_var_macro ms_macro_set_1 (st "A") [(st "2")]).
Definition ms_macro_set_3 := fst (define_var_macro ms_macro_set_2 (st "B") [(st "3")]).
Definition ms_macro_set_4 := fst (define_fn_macro ms_macro_set_3 (st "PLUS") [(st "A"); (st "B")] [(st "A"); (st "+"); (st "B")]).
Definition ms_macro_set_5 := fst (define_fn_macro ms_macro_set_4 (st "F1") [(st "A"); (st "B")] [(st "A"); (st "+"); (st "VAR"); (st "+"); (st "B")]).
Definition ms_macro_set_6 := fst (define_var_macro ms_macro_set_5 (st "PLUS_VAR") [(st "PLUS"); (st "("); (st "7"); (st ","); (st "8"); (st ")")]).
Definition ms_macro_set_7 := fst (define_var_macro ms_macro_set_6 (st "PLUS_PLUS_VAR") [(st "PLUS"); (st "("); (st "PLUS"); (st "("); (st "3"); (st ","); (st "1"); (st ")"); (st ","); (st "8"); (st ")")]).
Definition ms_macro_set_8 := fst (define_var_macro ms_macro_set_7 (st "PLUS_VAR_VAR") [(st "PLUS"); (st "("); (st "7"); (st ","); (st "VAR"); (st ")")]).
Example ex_macro_set_1 : expand_var_macro ms_macro_set_8 30 (st "VAR") = ROk [MLit (LInt (mk_int 2 None)); MPunct (st "+"); MLit (LInt (mk_int 3 None))].
Proof. vm_compute. reflexivity. Qed.
Example ex_macro_set_2 : expand_fn_macro ms_macro_set_8 30 (st "F1") = ROk ([MIdent (st "A"); MIdent (st "B")], [MArg 0; MPunct (st "+"); MLit (LInt (mk_int 2 None)); MPunct (st "+"); MLit (LInt (mk_int 3 None)); MPunct (st "+"); MArg 1]).
Proof. vm_compute. reflexivity. Qed.
Example ex_macro_set_3 : expand_var_macro ms_macro_set_8 30 (st "PLUS_VAR") = ROk [MLit (LInt (mk_int 7 None)); MPunct (st "+"); MLit (LInt (mk_int 8 None))].
Proof. vm_compute. reflexivity. Qed.
Example ex_macro_set_4 : expand_var_macro ms_macro_set_8 30 (st "PLUS_PLUS_VAR") = ROk [MLit (LInt (mk_int 3 None)); MPunct (st "+"); MLit (LInt (mk_int 1 None)); MPunct (st "+"); MLit (LInt (mk_int 8 None))].
Proof. vm_compute. reflexivity. Qed.
Example ex_macro_set_5 : expand_var_macro ms_macro_set_8 30 (st "PLUS_VAR_VAR") = ROk [MLit (LInt (mk_int 7 None)); MPunct (st "+"); MLit (LInt (mk_int 2 None)); MPunct (st "+"); MLit (LInt (mk_int 3 None))].
Proof. vm_compute. reflexivity. Qed.
Definition ms_non_unique_arg_name_1 := fst (define_fn_macro ms_new (st "X") [(st "x"); (st "x")] [(st "x"); (st "*"); (st "x")]).
Example ex_non_unique_arg_name_1 : expand_fn_macro ms_non_unique_arg_name_1 30 (st "X") = RErr (NonUniqueArgument (st "x")).
Proof. vm_compute. reflexivity. Qed.
Definition ms_parse_args_whitespace_1 := fst (define_fn_macro ms_new (st "TIMES") [(st "x"); (st "/* X coordinate */"); (st "y"); (st "/* Y coordinate */")] [(st "x"); (st "*"); (st "y")]).
Example ex_parse_args_whitespace_1 : expand_fn_macro ms_parse_args_whitespace_1 30 (st "TIMES") = ROk ([MIdent (st "x"); MComment (st " X coordinate "); MIdent (st "y"); MComment (st " Y coordinate ")], [MArg 0; MPunct (st "*"); MArg 1]).
Proof. vm_compute. reflexivity. Qed.
Definition ms_parse_concat_var_args_1 := fst (define_fn_macro ms_new (st "CONCAT_VAR_ARGS") [(st "...")] [(st "__VA_"); (st "##"); (st "ARGS__")]).
Definition ms_parse_concat_var_args_2 := fst (define_var_macro ms_parse_concat_var_args_1 (st "CALL_CONCAT_VAR_ARGS") [(st "CONCAT_VAR_ARGS"); (st "("); (st ")")]).
Example ex_parse_concat_var_args_1 : expand_fn_macro ms_parse_concat_var_args_2 30 (st "CONCAT_VAR_ARGS") = ROk ([MPunct (st "...")], [MIdent (st "__VA_ARGS__")]).
Proof. vm_compute. reflexivity. Qed.
Example ex_parse_concat_var_args_2 : expand_var_macro ms_parse_concat_var_args_2 30 (st "CALL_CONCAT_VAR_ARGS") = ROk [MIdent (st "__VA_ARGS__")].
Proof. vm_compute. reflexivity. Qed.
Definition ms_concat_begin_end_1 := fst (define_var_macro ms_new (st "CONCAT_BEGIN") [(st "##"); (st "b")]).
Definition ms_concat_begin_end_2 := fst (define_var_macro ms_concat_begin_end_1 (st "CONCAT_END") [(st "a"); (st "##")]).
Definition ms_concat_begin_end_3 := fst (define_var_macro ms_concat_begin_end_2 (st "CONCAT_BEGIN_END") [(st "##")]).
Definition ms_concat_begin_end_4 := fst (define_var_macro ms_concat_begin_end_3 (st "CONCAT_COMMENT_BEGIN") [(st "/* a */"); (st "##"); (st "b")]).
Definition ms_concat_begin_end_5 := fst (define_var_macro ms_concat_begin_end_4 (st "CONCAT_COMMENT_END") [(st "a"); (st "##"); (st "/* b */")]).
Definition ms_concat_begin_end_6 := fst (define_var_macro ms_concat_begin_end_5 (st "CONCAT_COMMENT_BEGIN_END") [(st "/* a */"); (st "##"); (st "/* b */")]).
Example ex_concat_begin_end_1 : expand_var_macro ms_concat_begin_end_6 30 (st "CONCAT_BEGIN") = RErr ConcatBegin.
Proof. vm_compute. reflexivity. Qed.
Example ex_concat_begin_end_2 : expand_var_macro ms_concat_begin_end_6 30 (st "CONCAT_END") = RErr ConcatEnd.
Proof. vm_compute. reflexivity. Qed.
Example ex_concat_begin_end_3 : expand_var_macro ms_concat_begin_end_6 30 (st "CONCAT_BEGIN_END") = RErr ConcatBegin.
Proof. vm_compute. reflexivity. Qed.
Example ex_concat_begin_end_4 : expand_var_macro ms_concat_begin_end_6 30 (st "CONCAT_COMMENT_BEGIN") = RErr ConcatBegin.
Proof. vm_compute. reflexivity. Qed.
Example ex_concat_begin_end_5 : expand_var_macro ms_concat_begin_end_6 30 (st "CONCAT_COMMENT_END") = RErr ConcatEnd.
Proof. vm_compute. reflexivity. Qed.
Example ex_concat_begin_end_6 : expand_var_macro ms_concat_begin_end_6 30 (st "CONCAT_COMMENT_BEGIN_END") = RErr ConcatBegin.
Proof. vm_compute. reflexivity. Qed.
Definition ms_parse_disjunct_1 := fst (define_var_macro ms_new (st "THREE_PLUS") [(st "3"); (st "+")]).
Definition ms_parse_disjunct_2 := fst (define_var_macro ms_parse_disjunct_1 (st "FOUR") [(st "4")]).
Definition ms_parse_disjunct_3 := fst (define_var_macro ms_parse_disjunct_2 (st "THREE_PLUS_FOUR") [(st "THREE_PLUS"); (st "FOUR")]).
Example ex_parse_disjunct_1 : expand_var_macro ms_parse_disjunct_3 30 (st "THREE_PLUS_FOUR") = ROk [MLit (LInt (mk_int 3 None)); MPunct (st "+"); MLit (LInt (mk_int 4 None))].
Proof. vm_compute. reflexivity. Qed.
Definition ms_parse_fn_no_args_1 := fst (define_fn_macro ms_new (st "FUNC") [] [(st "123")]).
Definition ms_parse_fn_no_args_2 := fst (define_var_macro ms_parse_fn_no_args_1 (st "ONE_TWO_THREE") [(st "FUNC"); (st "("); (st ")")]).
Example ex_parse_fn_no_args_1 : expand_var_macro ms_parse_fn_no_args_2 30 (st "ONE_TWO_THREE") = ROk [MLit (LInt (mk_int 123 None))].
Proof. vm_compute. reflexivity. Qed.
Definition ms_parse_disjunct_fn_1 := fst (define_fn_macro ms_new (st "FUNC1") [(st "a"); (st "b")] [(st "a"); (st "+"); (st "b")]).
Definition ms_parse_disjunct_fn_2 := fst (define_var_macro ms_parse_disjunct_fn_1 (st "FUNC1_PARTIAL") [(st "FUNC1"); (st "("); (st "1"); (st ",")]).
Definition ms_parse_disjunct_fn_3 := fst (define_fn_macro ms_parse_disjunct_fn_2 (st "FUNC2") [] [(st "FUNC1_PARTIAL"); (st "2"); (st ")")]).
Example ex_parse_disjunct_fn_1 : expand_fn_macro ms_parse_disjunct_fn_3 30 (st "FUNC2") = ROk ([], [MLit (LInt (mk_int 1 None)); MPunct (st "+"); MLit (LInt (mk_int 2 None))]).
Proof. vm_compute. reflexivity. Qed.
Definition ms_parse_disjunct_fn_call_1 := fst (define_fn_macro ms_new (st "BAR") [(st "a"); (st "b")] [(st "a"); (st "+"); (st "b")]).
Definition ms_parse_disjunct_fn_call_2 := fst (define_fn_macro ms_parse_disjunct_fn_call_1 (st "FOO") [] [(st "BAR")]).
Definition ms_parse_disjunct_fn_call_3 := fst (define_var_macro ms_parse_disjunct_fn_call_2 (st "APLUSB") [(st "FOO"); (st "("); (st ")"); (st "("); (st "3"); (st ","); (st "1"); (st ")")]).
Example ex_parse_disjunct_fn_call_1 : expand_var_macro ms_parse_disjunct_fn_call_3 30 (st "APLUSB") = ROk [MLit (LInt (mk_int 3 None)); MPunct (st "+"); MLit (LInt (mk_int 1 None))].
Proof. vm_compute. reflexivity. Qed.
Definition ms_parse_recursive_1 := fst (define_fn_macro ms_new (st "FUNC1") [(st "arg")] [(st "FUNC2"); (st "("); (st "arg"); (st ")")]).
Definition ms_parse_recursive_2 := fst (define_fn_macro ms_parse_recursive_1 (st "FUNC2") [(st "arg")] [(st "FUNC1"); (st "("); (st "arg"); (st ")")]).
Definition ms_parse_recursive_3 := fst (define_var_macro ms_parse_recursive_2 (st "VAR1") [(st "1"); (st "+"); (st "VAR1")]).
Example ex_parse_recursive_1 : expand_fn_macro ms_parse_recursive_3 30 (st "FUNC1") = ROk ([MIdent (st "arg")], [MIdent (st "FUNC1"); MPunct (st "("); MArg 0; MPunct (st ")")]).
Proof. vm_compute. reflexivity. Qed.
Example ex_parse_recursive_2 : expand_fn_macro ms_parse_recursive_3 30 (st "FUNC2") = ROk ([MIdent (st "arg")], [MIdent (st "FUNC2"); MPunct (st "("); MArg 0; MPunct (st ")")]).
Proof. vm_compute. reflexivity. Qed.
Example ex_parse_recursive_3 : expand_var_macro ms_parse_recursive_3 30 (st "VAR1") = ROk [MLit (LInt (mk_int 1 None)); MPunct (st "+"); MIdent (st "VAR1")].
Proof. vm_compute. reflexivity. Qed.
Definition ms_parse_stringify_1 := fst (define_var_macro ms_new (st "s") [(st "377")]).
Definition ms_parse_stringify_2 := fst (define_fn_macro ms_parse_stringify_1 (st "STRINGIFY") [(st "s")] [(st "#"); (st "s")]).
Example ex_parse_stringify_1 : expand_fn_macro ms_parse_stringify_2 30 (st "STRINGIFY") = ROk ([MIdent (st "s")], [MPunct (st "#"); MArg 0]).
Proof. vm_compute. reflexivity. Qed.
Definition ms_parse_stringify_nested_1 := fst (define_fn_macro ms_new (st "STRINGIFY") [(st "s")] [(st "#"); (st "s")]).
Definition ms_parse_stringify_nested_2 := fst (define_var_macro ms_parse_stringify_nested_1 (st "s") [(st "STRINGIFY"); (st "("); (st "asdf"); (st ")")]).
Definition ms_parse_stringify_nested_3 := fst (define_var_macro ms_parse_stringify_nested_2 (st "e") [(st "STRINGIFY"); (st "("); (st "a"); (st "+"); (st "b"); (st ")")]).
Example ex_parse_stringify_nested_1 : expand_var_macro ms_parse_stringify_nested_3 30 (st "s") = ROk [MLit (LString (SOrdinary (st "asdf")))].
Proof. vm_compute. reflexivity. Qed.
Example ex_parse_stringify_nested_2 : expand_var_macro ms_parse_stringify_nested_3 30 (st "e") = ROk [MLit (LString (SOrdinary (st "a + b")))].
Proof. vm_compute. reflexivity. Qed.
Definition ms_parse_stringify_double_nested_1 := fst (define_fn_macro ms_new (st "STRINGIFY1") [(st "s")] [(st "#"); (st "s")]).
Definition ms_parse_stringify_double_nested_2 := fst (define_fn_macro ms_parse_stringify_double_nested_1 (st "STRINGIFY2") [(st "s")] [(st "STRINGIFY1"); (st "("); (st "s"); (st ")")]).
Definition ms_parse_stringify_double_nested_3 := fst (define_var_macro ms_parse_stringify_double_nested_2 (st "LINE_STRING1") [(st "STRINGIFY1"); (st "("); (st "__LINE__"); (st ")")]).
Definition ms_parse_stringify_double_nested_4 := fst (define_var_macro ms_parse_stringify_double_nested_3 (st "LINE_STRING2") [(st "STRINGIFY2"); (st "("); (st "__LINE__"); (st ")")]).
Example ex_parse_stringify_double_nested_1 : expand_fn_macro ms_parse_stringify_double_nested_4 30 (st "STRINGIFY1") = ROk ([MIdent (st "s")], [MPunct (st "#"); MArg 0]).
Proof. vm_compute. reflexivity. Qed.
Example ex_parse_stringify_double_nested_2 : expand_fn_macro ms_parse_stringify_double_nested_4 30 (st "STRINGIFY2") = ROk ([MIdent (st "s")], [MPunct (st "#"); MArg 0]).
Proof. vm_compute. reflexivity. Qed.
Example ex_parse_stringify_double_nested_3 : expand_var_macro ms_parse_stringify_double_nested_4 30 (st "LINE_STRING1") = ROk [MLit (LString (SOrdinary (st "__LINE__")))].
Proof. vm_compute. reflexivity. Qed.
Example ex_parse_stringify_double_nested_4 : expand_var_macro ms_parse_stringify_double_nested_4 30 (st "LINE_STRING2") = ROk [MPunct (st "#"); MIdent (st "__LINE__")].
Proof. vm_compute. reflexivity. Qed.
Definition ms_parse_stringify_var_args_1 := fst (define_fn_macro ms_new (st "STRINGIFY") [(st "...")] [(st "#"); (st "__VA_ARGS__")]).
Definition ms_parse_stringify_var_args_2 := fst (define_var_macro ms_parse_stringify_var_args_1 (st "ZERO") [(st "STRINGIFY"); (st "("); (st ")")]).
Definition ms_parse_stringify_var_args_3 := fst (define_var_macro ms_parse_stringify_var_args_2 (st "ONE") [(st "STRINGIFY"); (st "("); (st "asdf"); (st ")")]).
Definition ms_parse_stringify_var_args_4 := fst (define_var_macro ms_parse_stringify_var_args_3 (st "TWO") [(st "STRINGIFY"); (st "("); (st "a"); (st ","); (st "b"); (st ")")]).
Example ex_parse_stringify_var_args_1 : expand_var_macro ms_parse_stringify_var_args_4 30 (st "ZERO") = ROk [MLit (LString (SOrdinary (st "")))].
Proof. vm_compute. reflexivity. Qed.
Example ex_parse_stringify_var_args_2 : expand_var_macro ms_parse_stringify_var_args_4 30 (st "ONE") = ROk [MLit (LString (SOrdinary (st "asdf")))].
Proof. vm_compute. reflexivity. Qed.
Example ex_parse_stringify_var_args_3 : expand_var_macro ms_parse_stringify_var_args_4 30 (st "TWO") = ROk [MLit (LString (SOrdinary (st "a, b")))].
Proof. vm_compute. reflexivity. Qed.
Definition ms_parse_wrong_arity_1 := fst (define_fn_macro ms_new (st "func") [(st "x")] [(st "func"); (st "("); (st "x"); (st ","); (st "3"); (st ")")]).
Definition ms_parse_wrong_arity_2 := fst (define_fn_macro ms_parse_wrong_arity_1 (st "wrapper_func") [(st "x")] [(st "func"); (st "("); (st "x"); (st ","); (st "3"); (st ")")]).
Example ex_parse_wrong_arity_1 : expand_fn_macro ms_parse_wrong_arity_2 30 (st "wrapper_func") = RErr (FnMacroArgumentError (st "func") 1 2).
Proof. vm_compute. reflexivity. Qed.
Definition ms_parse_concat_1 := fst (define_var_macro ms_new (st "A") [(st "1")]).
Definition ms_parse_concat_2 := fst (define_var_macro ms_parse_concat_1 (st "B") [(st "2")]).
Definition ms_parse_concat_3 := fst (define_var_macro ms_parse_concat_2 (st "CONCAT") [(st "A"); (st "##"); (st "B")]).
Example ex_parse_concat_1 : expand_var_macro ms_parse_concat_3 30 (st "CONCAT") = ROk [MIdent (st "AB")].
Proof. vm_compute. reflexivity. Qed.
Definition ms_parse_concat_comment_1 := fst (define_var_macro ms_new (st "CONCAT_COMMENT1") [(st "A"); (st "/* 1 */"); (st "##"); (st "B")]).
Definition ms_parse_concat_comment_2 := fst (define_var_macro ms_parse_concat_comment_1 (st "CONCAT_COMMENT2") [(st "A"); (st "##"); (st "/* 2 */"); (st "B")]).
Definition ms_parse_concat_comment_3 := fst (define_var_macro ms_parse_concat_comment_2 (st "CONCAT_COMMENT3") [(st "A"); (st "/* 1 */"); (st "##"); (st "/* 2 */"); (st "B")]).
Example ex_parse_concat_comment_1 : expand_var_macro ms_parse_concat_comment_3 30 (st "CONCAT_COMMENT1") = ROk [MIdent (st "AB")].
Proof. vm_compute. reflexivity. Qed.
Example ex_parse_concat_comment_2 : expand_var_macro ms_parse_concat_comment_3 30 (st "CONCAT_COMMENT2") = ROk [MIdent (st "AB")].
Proof. vm_compute. reflexivity. Qed.
Example ex_parse_concat_comment_3 : expand_var_macro ms_parse_concat_comment_3 30 (st "CONCAT_COMMENT3") = ROk [MIdent (st "AB")].
Proof. vm_compute. reflexivity. Qed.
Definition ms_parse_concat_string_1 := fst (define_var_macro ms_new (st "A") [(st "1")]).
Definition ms_parse_concat_string_2 := fst (define_var_macro ms_parse_concat_string_1 (st "B") [(st "2")]).
Definition ms_parse_concat_string_3 := fst (define_var_macro ms_parse_concat_string_2 (st "C") [(st """, world!""")]).
Definition ms_parse_concat_string_4 := fst (define_var_macro ms_parse_concat_string_3 (st "AB") [(st """Hello""")]).
Definition ms_parse_concat_string_5 := fst (define_fn_macro ms_parse_concat_string_4 (st "CONCAT_STRING") [(st "A"); (st "B")] [(st "A"); (st "##"); (st "B"); (st "C")]).
Example ex_parse_concat_string_1 : expand_fn_macro ms_parse_concat_string_5 30 (st "CONCAT_STRING") = ROk ([MIdent (st "A"); MIdent (st "B")], [MArg 0; MPunct (st "##"); MArg 1; MLit (LString (SOrdinary (st ", world!")))]).
Proof. vm_compute. reflexivity. Qed.
Definition ms_parse_concat_string_prefix_1 := fst (define_var_macro ms_new (st "A") [(st "u8"); (st "##"); (st """abc""")]).
Definition ms_parse_concat_string_prefix_2 := fst (define_var_macro ms_parse_concat_string_prefix_1 (st "B") [(st "u8"); (st """abc""")]).
Definition ms_parse_concat_string_prefix_3 := fst (define_fn_macro ms_parse_concat_string_prefix_2 (st "PREFIX") [(st "prefix")] [(st "prefix"); (st "##"); (st """abc""")]).
Definition ms_parse_concat_string_prefix_4 := fst (define_var_macro ms_parse_concat_string_prefix_3 (st "C") [(st "PREFIX"); (st "("); (st "u8"); (st ")")]).
Definition ms_parse_concat_string_prefix_5 := fst (define_fn_macro ms_parse_concat_string_prefix_4 (st "PREFIX_STRINGIFY") [(st "prefix")] [(st "prefix"); (st "##"); (st "#"); (st "prefix")]).
Definition ms_parse_concat_string_prefix_6 := fst (define_var_macro ms_parse_concat_string_prefix_5 (st "D") [(st "PREFIX_STRINGIFY"); (st "("); (st "u8"); (st ")")]).
Definition ms_parse_concat_string_prefix_7 := fst (define_fn_macro ms_parse_concat_string_prefix_6 (st "PREFIX_HASH") [(st "prefix")] [(st "prefix"); (st "##"); (st "#")]).
Definition ms_parse_concat_string_prefix_8 := fst (define_var_macro ms_parse_concat_string_prefix_7 (st "E") [(st "PREFIX_HASH"); (st "("); (st "u8"); (st ")")]).
Example ex_parse_concat_string_prefix_1 : expand_var_macro ms_parse_concat_string_prefix_8 30 (st "A") = ROk [MLit (LString (SUtf8 (st "abc")))].
Proof. vm_compute. reflexivity. Qed.
Example ex_parse_concat_string_prefix_2 : expand_var_macro ms_parse_concat_string_prefix_8 30 (st "B") = ROk [MIdent (st "u8"); MLit (LString (SOrdinary (st "abc")))].
Proof. vm_compute. reflexivity. Qed.
Example ex_parse_concat_string_prefix_3 : expand_var_macro ms_parse_concat_string_prefix_8 30 (st "C") = ROk [MLit (LString (SUtf8 (st "abc")))].
Proof. vm_compute. reflexivity. Qed.
Example ex_parse_concat_string_prefix_4 : expand_var_macro ms_parse_concat_string_prefix_8 30 (st "D") = ROk [MLit (LString (SUtf8 (st "u8")))].
Proof. vm_compute. reflexivity. Qed.
Example ex_parse_concat_string_prefix_5 : expand_var_macro ms_parse_concat_string_prefix_8 30 (st "E") = RErr StringifyNonArgument.
Proof. vm_compute. reflexivity. Qed.
Definition ms_parse_concat_ident_int_1 := fst (define_var_macro ms_new (st "CONCAT") [(st "FUNC"); (st "##"); (st "123")]).
Example ex_parse_concat_ident_int_1 : expand_var_macro ms_parse_concat_ident_int_1 30 (st "CONCAT") = ROk [MIdent (st "FUNC123")].
Proof. vm_compute. reflexivity. Qed.
Definition ms_parse_concat_ident_float_1 := fst (define_var_macro ms_new (st "CONCAT") [(st "FUNC"); (st "##"); (st "123e4")]).
Example ex_parse_concat_ident_float_1 : expand_var_macro ms_parse_concat_ident_float_1 30 (st "CONCAT") = ROk [MIdent (st "FUNC123e4")].
Proof. vm_compute. reflexivity. Qed.
Definition ms_parse_concat_dot_float_1 := fst (define_var_macro ms_new (st "CONCAT") [(st "."); (st "##"); (st "123e4")]).
Example ex_parse_concat_dot_float_1 : expand_var_macro ms_parse_concat_dot_float_1 30 (st "CONCAT") = ROk [MLit (ex_float (st "0.123e4"))].
Proof. vm_compute. reflexivity. Qed.
Definition ms_parse_concat_dot_int_1 := fst (define_var_macro ms_new (st "CONCAT") [(st "."); (st "##"); (st "01234")]).
Example ex_parse_concat_dot_int_1 : expand_var_macro ms_parse_concat_dot_int_1 30 (st "CONCAT") = ROk [MLit (ex_float (st "0.01234"))].
Proof. vm_compute. reflexivity. Qed.
Definition ms_parse_concat_empty_1 := fst (define_fn_macro ms_new (st "CONCAT") [(st "a"); (st "b")] [(st "a"); (st "##"); (st "b")]).
Definition ms_parse_concat_empty_2 := fst (define_var_macro ms_parse_concat_empty_1 (st "EMPTY") [(st "CONCAT"); (st "("); (st ","); (st ")")]).
Example ex_parse_concat_empty_1 : expand_var_macro ms_parse_concat_empty_2 30 (st "EMPTY") = ROk [].
Proof. vm_compute. reflexivity. Qed.
Definition ms_parse_c_std_6_10_3_3_example_1 := fst (define_var_macro ms_new (st "hash_hash") [(st "#"); (st "##"); (st "#")]).
Definition ms_parse_c_std_6_10_3_3_example_2 := fst (define_fn_macro ms_parse_c_std_6_10_3_3_example_1 (st "mkstr") [(st "a")] [(st "#"); (st "a")]).
Definition ms_parse_c_std_6_10_3_3_example_3 := fst (define_fn_macro ms_parse_c_std_6_10_3_3_example_2 (st "in_between") [(st "a")] [(st "mkstr"); (st "("); (st "a"); (st ")")]).
Definition ms_parse_c_std_6_10_3_3_example_4 := fst (define_fn_macro ms_parse_c_std_6_10_3_3_example_3 (st "join") [(st "c"); (st "d")] [(st "in_between"); (st "("); (st "c"); (st "hash_hash"); (st "d"); (st ")")]).
Definition ms_parse_c_std_6_10_3_3_example_5 := fst (define_var_macro ms_parse_c_std_6_10_3_3_example_4 (st "join_x_y") [(st "join"); (st "("); (st "x"); (st ","); (st "y"); (st ")")]).
Example ex_parse_c_std_6_10_3_3_example_1 : expand_var_macro ms_parse_c_std_6_10_3_3_example_5 30 (st "join_x_y") = ROk [MLit (LString (SOrdinary (st "x ## y")))].
Proof. vm_compute. reflexivity. Qed.
Definition ms_parse_c_std_6_10_3_5_example_3_1 := fst (define_var_macro ms_new (st "x") [(st "3")]).
Definition ms_parse_c_std_6_10_3_5_example_3_2 := fst (define_fn_macro ms_parse_c_std_6_10_3_5_example_3_1 (st "f") [(st "a")] [(st "f"); (st "("); (st "x"); (st "*"); (st "("); (st "a"); (st ")"); (st ")")]).
Definition ms_parse_c_std_6_10_3_5_example_3_3 := fst (define_var_macro ms_parse_c_std_6_10_3_5_example_3_2 (st "x") [(st "2")]).
Definition ms_parse_c_std_6_10_3_5_example_3_4 := fst (define_var_macro ms_parse_c_std_6_10_3_5_example_3_3 (st "g") [(st "f")]).
Definition ms_parse_c_std_6_10_3_5_example_3_5 := fst (define_var_macro ms_parse_c_std_6_10_3_5_example_3_4 (st "z") [(st "z"); (st "["); (st "0"); (st "]")]).
Definition ms_parse_c_std_6_10_3_5_example_3_6 := fst (define_var_macro ms_parse_c_std_6_10_3_5_example_3_5 (st "h") [(st "g"); (st "("); (st "~")]).
Definition ms_parse_c_std_6_10_3_5_example_3_7 := fst (define_fn_macro ms_parse_c_std_6_10_3_5_example_3_6 (st "m") [(st "a")] [(st "a"); (st "("); (st "w"); (st ")")]).
Definition ms_parse_c_std_6_10_3_5_example_3_8 := fst (define_var_macro ms_parse_c_std_6_10_3_5_example_3_7 (st "w") [(st "0"); (st ","); (st "1")]).
Definition ms_parse_c_std_6_10_3_5_example_3_9 := fst (define_fn_macro ms_parse_c_std_6_10_3_5_example_3_8 (st "t") [(st "a")] [(st "a")]).
Definition ms_parse_c_std_6_10_3_5_example_3_10 := fst (define_fn_macro ms_parse_c_std_6_10_3_5_example_3_9 (st "p") [] [(st "int")]).
Definition ms_parse_c_std_6_10_3_5_example_3_11 := fst (define_fn_macro ms_parse_c_std_6_10_3_5_example_3_10 (st "q") [(st "x")] [(st "x")]).
Definition ms_parse_c_std_6_10_3_5_example_3_12 := fst (define_fn_macro ms_parse_c_std_6_10_3_5_example_3_11 (st "r") [(st "x"); (st "y")] [(st "x"); (st "##"); (st "y")]).
Definition ms_parse_c_std_6_10_3_5_example_3_13 := fst (define_fn_macro ms_parse_c_std_6_10_3_5_example_3_12 (st "str") [(st "x")] [(st "#"); (st "x")]).
Example ex_parse_c_std_6_10_3_5_example_3_1 : expand ms_parse_c_std_6_10_3_5_example_3_13 30 [(st "f"); (st "("); (st "y"); (st "+"); (st "1"); (st ")"); (st "+"); (st "f"); (st "("); (st "f"); (st "("); (st "z"); (st ")"); (st ")"); (st "%"); (st "t"); (st "("); (st "t"); (st "("); (st "g"); (st ")"); (st "("); (st "0"); (st ")"); (st "+"); (st "t"); (st ")"); (st "("); (st "1"); (st ")"); (st ";")] = ROk [MIdent (st "f"); MPunct (st "("); MLit (LInt (mk_int 2 None)); MPunct (st "*"); MPunct (st "("); MIdent (st "y"); MPunct (st "+"); MLit (LInt (mk_int 1 None)); MPunct (st ")"); MPunct (st ")"); MPunct (st "+"); MIdent (st "f"); MPunct (st "("); MLit (LInt (mk_int 2 None)); MPunct (st "*"); MPunct (st "("); MIdent (st "f"); MPunct (st "("); MLit (LInt (mk_int 2 None)); MPunct (st "*"); MPunct (st "("); MIdent (st "z"); MPunct (st "["); MLit (LInt (mk_int 0 None)); MPunct (st "]"); MPunct (st ")"); MPunct (st ")"); MPunct (st ")"); MPunct (st ")"); MPunct (st "%"); MIdent (st "f"); MPunct (st "("); MLit (LInt (mk_int 2 None)); MPunct (st "*"); MPunct (st "("); MLit (LInt (mk_int 0 None)); MPunct (st ")"); MPunct (st ")"); MPunct (st "+"); MIdent (st "t"); MPunct (st "("); MLit (LInt (mk_int 1 None)); MPunct (st ")"); MPunct (st ";")].
Proof. vm_compute. reflexivity. Qed.
Example ex_parse_c_std_6_10_3_5_example_3_2 : expand ms_parse_c_std_6_10_3_5_example_3_13 30 [(st "g"); (st "("); (st "x"); (st "+"); (st "("); (st "3"); (st ","); (st "4"); (st ")"); (st "-"); (st "w"); (st ")"); (st "|"); (st "h"); (st "5"); (st ")"); (st "&"); (st "m"); (st "("); (st "f"); (st ")"); (st "^"); (st "m"); (st "("); (st "m"); (st ")"); (st ";")] = ROk [MIdent (st "f"); MPunct (st "("); MLit (LInt (mk_int 2 None)); MPunct (st "*"); MPunct (st "("); MLit (LInt (mk_int 2 None)); MPunct (st "+"); MPunct (st "("); MLit (LInt (mk_int 3 None)); MPunct (st ","); MLit (LInt (mk_int 4 None)); MPunct (st ")"); MPunct (st "-"); MLit (LInt (mk_int 0 None)); MPunct (st ","); MLit (LInt (mk_int 1 None)); MPunct (st ")"); MPunct (st ")"); MPunct (st "|"); MIdent (st "f"); MPunct (st "("); MLit (LInt (mk_int 2 None)); MPunct (st "*"); MPunct (st "("); MPunct (st "~"); MLit (LInt (mk_int 5 None)); MPunct (st ")"); MPunct (st ")"); MPunct (st "&"); MIdent (st "f"); MPunct (st "("); MLit (LInt (mk_int 2 None)); MPunct (st "*"); MPunct (st "("); MLit (LInt (mk_int 0 None)); MPunct (st ","); MLit (LInt (mk_int 1 None)); MPunct (st ")"); MPunct (st ")"); MPunct (st "^"); MIdent (st "m"); MPunct (st "("); MLit (LInt (mk_int 0 None)); MPunct (st ","); MLit (LInt (mk_int 1 None)); MPunct (st ")"); MPunct (st ";")].
Proof. vm_compute. reflexivity. Qed.
Example ex_parse_c_std_6_10_3_5_example_3_3 : expand ms_parse_c_std_6_10_3_5_example_3_13 30 [(st "p"); (st "("); (st ")"); (st "i"); (st "["); (st "q"); (st "("); (st ")"); (st "]"); (st "="); (st "{"); (st "q"); (st "("); (st "1"); (st ")"); (st ","); (st "r"); (st "("); (st "2"); (st ","); (st "3"); (st ")"); (st ","); (st "r"); (st "("); (st "4"); (st ","); (st ")"); (st ","); (st "r"); (st "("); (st ","); (st "5"); (st ")"); (st ","); (st "r"); (st "("); (st ","); (st ")"); (st "}"); (st ";")] = ROk [MIdent (st "int"); MIdent (st "i"); MPunct (st "["); MPunct (st "]"); MPunct (st "="); MPunct (st "{"); MLit (LInt (mk_int 1 None)); MPunct (st ","); MLit (LInt (mk_int 23 None)); MPunct (st ","); MLit (LInt (mk_int 4 None)); MPunct (st ","); MLit (LInt (mk_int 5 None)); MPunct (st ","); MPunct (st "}"); MPunct (st ";")].
Proof. vm_compute. reflexivity. Qed.
Example ex_parse_c_std_6_10_3_5_example_3_4 : expand ms_parse_c_std_6_10_3_5_example_3_13 30 [(st "char"); (st "c"); (st "["); (st "2"); (st "]"); (st "["); (st "6"); (st "]"); (st "="); (st "{"); (st "str"); (st "("); (st "hello"); (st ")"); (st ","); (st "str"); (st "("); (st ")"); (st "}"); (st ";")] = ROk [MIdent (st "char"); MIdent (st "c"); MPunct (st "["); MLit (LInt (mk_int 2 None)); MPunct (st "]"); MPunct (st "["); MLit (LInt (mk_int 6 None)); MPunct (st "]"); MPunct (st "="); MPunct (st "{"); MLit (LString (SOrdinary (st "hello"))); MPunct (st ","); MLit (LString (SOrdinary (st ""))); MPunct (st "}"); MPunct (st ";")].
Proof. vm_compute. reflexivity. Qed.
Definition ms_parse_c_std_6_10_3_5_example_4_1 := fst (define_fn_macro ms_new (st "str") [(st "s")] [(st "#"); (st "s")]).
Definition ms_parse_c_std_6_10_3_5_example_4_2 := fst (define_fn_macro ms_parse_c_std_6_10_3_5_example_4_1 (st "xstr") [(st "s")] [(st "str"); (st "("); (st "s"); (st ")")]).
Definition ms_parse_c_std_6_10_3_5_example_4_3 := fst (define_fn_macro ms_parse_c_std_6_10_3_5_example_4_2 (st "debug") [(st "s"); (st "t")] [(st "printf"); (st "("); (st """x"""); (st "#"); (st "s"); (st """= %d, x"""); (st "#"); (st "t"); (st """= %s"""); (st ","); (st "x"); (st "##"); (st "s"); (st ","); (st "x"); (st "##"); (st "t"); (st ")")]).
Definition ms_parse_c_std_6_10_3_5_example_4_4 := fst (define_fn_macro ms_parse_c_std_6_10_3_5_example_4_3 (st "INCFILE") [(st "n")] [(st "vers"); (st "##"); (st "n")]).
Definition ms_parse_c_std_6_10_3_5_example_4_5 := fst (define_fn_macro ms_parse_c_std_6_10_3_5_example_4_4 (st "glue") [(st "a"); (st "b")] [(st "a"); (st "##"); (st "b")]).
Definition ms_parse_c_std_6_10_3_5_example_4_6 := fst (define_fn_macro ms_parse_c_std_6_10_3_5_example_4_5 (st "xglue") [(st "a"); (st "b")] [(st "glue"); (st "("); (st "a"); (st ","); (st "b"); (st ")")]).
Definition ms_parse_c_std_6_10_3_5_example_4_7 := fst (define_var_macro ms_parse_c_std_6_10_3_5_example_4_6 (st "HIGHLOW") [(st """hello""")]).
Definition ms_parse_c_std_6_10_3_5_example_4_8 := fst (define_var_macro ms_parse_c_std_6_10_3_5_example_4_7 (st "LOW") [(st "LOW"); (st """, world""")]).
Example ex_parse_c_std_6_10_3_5_example_4_1 : expand ms_parse_c_std_6_10_3_5_example_4_8 30 [(st "debug"); (st "("); (st "1"); (st ","); (st "2"); (st ")"); (st ";")] = ROk [MIdent (st "printf"); MPunct (st "("); MLit (LString (SOrdinary (st "x"))); MLit (LString (SOrdinary (st "1"))); MLit (LString (SOrdinary (st "= %d, x"))); MLit (LString (SOrdinary (st "2"))); MLit (LString (SOrdinary (st "= %s"))); MPunct (st ","); MIdent (st "x1"); MPunct (st ","); MIdent (st "x2"); MPunct (st ")"); MPunct (st ";")].
Proof. vm_compute. reflexivity. Qed.
Example ex_parse_c_std_6_10_3_5_example_4_2 : expand ms_parse_c_std_6_10_3_5_example_4_8 30 [(st "fputs"); (st "("); (st "str"); (st "("); (st "strncmp"); (st "("); (st """abc\0d"""); (st ","); (st """abc"""); (st ","); (st "'\4'"); (st ")"); (st "=="); (st "0"); (st ")"); (st "str"); (st "("); (st ":"); (st "@"); (st "\n"); (st ")"); (st ","); (st "s"); (st ")"); (st ";")] = ROk [MIdent (st "fputs"); MPunct (st "("); MLit (LString (SOrdinary (st "strncmp(""abc\0d"", ""abc"", '\4') == 0"))); MLit (LString (SOrdinary (st ": @ \n"))); MPunct (st ","); MIdent (st "s"); MPunct (st ")"); MPunct (st ";")].
Proof. vm_compute. reflexivity. Qed.
Example ex_parse_c_std_6_10_3_5_example_4_3 : expand ms_parse_c_std_6_10_3_5_example_4_8 30 [(st "xstr"); (st "("); (st "INCFILE"); (st "("); (st "2"); (st ")"); (st "."); (st "h"); (st ")")] = ROk [MLit (LString (SOrdinary (st "vers2.h")))].
Proof. vm_compute. reflexivity. Qed.
Definition ms_parse_c_std_6_10_3_5_example_5_1 := fst (define_fn_macro ms_new (st "t") [(st "x"); (st "y"); (st "z")] [(st "x"); (st "##"); (st "y"); (st "##"); (st "z")]).
Example ex_parse_c_std_6_10_3_5_example_5_1 : expand ms_parse_c_std_6_10_3_5_example_5_1 30 [(st "int"); (st "j"); (st "["); (st "]"); (st "="); (st "{"); (st "t"); (st "("); (st "1"); (st ","); (st "2"); (st ","); (st "3"); (st ")"); (st ","); (st "t"); (st "("); (st ","); (st "4"); (st ","); (st "5"); (st ")"); (st ","); (st "t"); (st "("); (st "6"); (st ","); (st ","); (st "7"); (st ")"); (st ","); (st "t"); (st "("); (st "8"); (st ","); (st "9"); (st ","); (st ")"); (st ","); (st "t"); (st "("); (st "10"); (st ","); (st ","); (st ")"); (st ","); (st "t"); (st "("); (st ","); (st "11"); (st ","); (st ")"); (st ","); (st "t"); (st "("); (st ","); (st ","); (st "12"); (st ")"); (st ","); (st "t"); (st "("); (st ","); (st ","); (st ")"); (st "}"); (st ";")] = ROk [MIdent (st "int"); MIdent (st "j"); MPunct (st "["); MPunct (st "]"); MPunct (st "="); MPunct (st "{"); MLit (LInt (mk_int 123 None)); MPunct (st ","); MLit (LInt (mk_int 45 None)); MPunct (st ","); MLit (LInt (mk_int 67 None)); MPunct (st ","); MLit (LInt (mk_int 89 None)); MPunct (st ","); MLit (LInt (mk_int 10 None)); MPunct (st ","); MLit (LInt (mk_int 11 None)); MPunct (st ","); MLit (LInt (mk_int 12 None)); MPunct (st ","); MPunct (st "}"); MPunct (st ";")].
Proof. vm_compute. reflexivity. Qed.
Definition ms_parse_c_std_6_10_3_5_example_6_1 := fst (define_var_macro ms_new (st "OBJ_LIKE") [(st "/* whie space */"); (st "("); (st "1"); (st "-"); (st "1"); (st ")"); (st "/* other */")]).
Example ex_parse_c_std_6_10_3_5_example_6_redef2 : snd (define_var_macro ms_parse_c_std_6_10_3_5_example_6_1 (st "OBJ_LIKE") [(st "("); (st "1"); (st "-"); (st "1"); (st ")")]) = false.
Proof. vm_compute. reflexivity. Qed.
Definition ms_parse_c_std_6_10_3_5_example_6_2 := fst (define_var_macro ms_parse_c_std_6_10_3_5_example_6_1 (st "OBJ_LIKE") [(st "("); (st "1"); (st "-"); (st "1"); (st ")")]).
Example ex_parse_c_std_6_10_3_5_example_6_redef3 : snd (define_fn_macro ms_parse_c_std_6_10_3_5_example_6_2 (st "FUNC_LIKE") [(st "a")] [(st "("); (st "a"); (st ")")]) = false.
Proof. vm_compute. reflexivity. Qed.
Definition ms_parse_c_std_6_10_3_5_example_6_3 := fst (define_fn_macro ms_parse_c_std_6_10_3_5_example_6_2 (st "FUNC_LIKE") [(st "a")] [(st "("); (st "a"); (st ")")]).
Example ex_parse_c_std_6_10_3_5_example_6_redef4 : snd (define_fn_macro ms_parse_c_std_6_10_3_5_example_6_3 (st "FUNC_LIKE") [(st "a")] [(st "("); (st "/* note the white space */"); (st "a"); ([47;42;32;111;116;104;101;114;32;115;116;117;102;102;32;111;110;32;116;104;105;115;32;108;105;110;101;32;10;32;42;47]%N); (st ")")]) = false.
Proof. vm_compute. reflexivity. Qed.
Definition ms_parse_c_std_6_10_3_5_example_6_4 := fst (define_fn_macro ms_parse_c_std_6_10_3_5_example_6_3 (st "FUNC_LIKE") [(st "a")] [(st "("); (st "/* note the white space */"); (st "a"); ([47;42;32;111;116;104;101;114;32;115;116;117;102;102;32;111;110;32;116;104;105;115;32;108;105;110;101;32;10;32;42;47]%N); (st ")")]).
Definition ms_parse_c_std_6_10_3_5_example_6_5 := fst (define_var_macro ms_new (st "OBJ_LIKE") [(st "("); (st "0"); (st ")")]).
Example ex_parse_c_std_6_10_3_5_example_6_redef6 : snd (define_var_macro ms_parse_c_std_6_10_3_5_example_6_5 (st "OBJ_LIKE") [(st "("); (st "1"); (st "-"); (st "1"); (st ")")]) = true.
Proof. vm_compute. reflexivity. Qed.
Definition ms_parse_c_std_6_10_3_5_example_6_6 := fst (define_var_macro ms_parse_c_std_6_10_3_5_example_6_5 (st "OBJ_LIKE") [(st "("); (st "1"); (st "-"); (st "1"); (st ")")]).
Definition ms_parse_c_std_6_10_3_5_example_6_7 := fst (define_fn_macro ms_parse_c_std_6_10_3_5_example_6_6 (st "FUNC_LIKE") [(st "b")] [(st "("); (st "a"); (st ")")]).
Example ex_parse_c_std_6_10_3_5_example_6_redef8 : snd (define_fn_macro ms_parse_c_std_6_10_3_5_example_6_7 (st "FUNC_LIKE") [(st "b")] [(st "("); (st "b"); (st ")")]) = true.
Proof. vm_compute. reflexivity. Qed.
Definition ms_parse_c_std_6_10_3_5_example_6_8 := fst (define_fn_macro ms_parse_c_std_6_10_3_5_example_6_7 (st "FUNC_LIKE") [(st "b")] [(st "("); (st "b"); (st ")")]).
Definition ms_parse_c_std_6_10_3_5_example_7_1 := fst (define_fn_macro ms_new (st "debug") [(st "...")] [(st "fprintf"); (st "("); (st "stderr"); (st ","); (st "__VA_ARGS__"); (st ")")]).
Definition ms_parse_c_std_6_10_3_5_example_7_2 := fst (define_fn_macro ms_parse_c_std_6_10_3_5_example_7_1 (st "showlist") [(st "...")] [(st "puts"); (st "("); (st "#"); (st "__VA_ARGS__"); (st ")")]).
Definition ms_parse_c_std_6_10_3_5_example_7_3 := fst (define_fn_macro ms_parse_c_std_6_10_3_5_example_7_2 (st "report") [(st "test"); (st "...")] [(st "("); (st "("); (st "test"); (st ")"); (st "?"); (st "puts"); (st "("); (st "#"); (st "test"); (st ")"); (st ":"); (st "printf"); (st "("); (st "__VA_ARGS__"); (st ")"); (st ")")]).
Example ex_parse_c_std_6_10_3_5_example_7_1 : expand ms_parse_c_std_6_10_3_5_example_7_3 30 [(st "debug"); (st "("); (st """Flag"""); (st ")"); (st ";")] = ROk [MIdent (st "fprintf"); MPunct (st "("); MIdent (st "stderr"); MPunct (st ","); MLit (LString (SOrdinary (st "Flag"))); MPunct (st ")"); MPunct (st ";")].
Proof. vm_compute. reflexivity. Qed.
Example ex_parse_c_std_6_10_3_5_example_7_2 : expand ms_parse_c_std_6_10_3_5_example_7_3 30 [(st "debug"); (st "("); (st """X = %d\n"""); (st ","); (st "x"); (st ")"); (st ";")] = ROk [MIdent (st "fprintf"); MPunct (st "("); MIdent (st "stderr"); MPunct (st ","); MLit (LString (SOrdinary ([88;32;61;32;37;100;10]%N))); MPunct (st ","); MIdent (st "x"); MPunct (st ")"); MPunct (st ";")].
Proof. vm_compute. reflexivity. Qed.
Example ex_parse_c_std_6_10_3_5_example_7_3 : expand ms_parse_c_std_6_10_3_5_example_7_3 30 [(st "showlist"); (st "("); (st "The"); (st "first"); (st ","); (st "second"); (st ","); (st "and"); (st "third"); (st "items"); (st "."); (st ")"); (st ";")] = ROk [MIdent (st "puts"); MPunct (st "("); MLit (LString (SOrdinary (st "The first, second, and third items."))); MPunct (st ")"); MPunct (st ";")].
Proof. vm_compute. reflexivity. Qed.
Example ex_parse_c_std_6_10_3_5_example_7_4 : expand ms_parse_c_std_6_10_3_5_example_7_3 30 [(st "report"); (st "("); (st "x"); (st ">"); (st "y"); (st ","); (st """x is %d but y is %d"""); (st ","); (st "x"); (st ","); (st "y"); (st ")"); (st ";")] = ROk [MPunct (st "("); MPunct (st "("); MIdent (st "x"); MPunct (st ">"); MIdent (st "y"); MPunct (st ")"); MPunct (st "?"); MIdent (st "puts"); MPunct (st "("); MLit (LString (SOrdinary (st "x > y"))); MPunct (st ")"); MPunct (st ":"); MIdent (st "printf"); MPunct (st "("); MLit (LString (SOrdinary (st "x is %d but y is %d"))); MPunct (st ","); MIdent (st "x"); MPunct (st ","); MIdent (st "y"); MPunct (st ")"); MPunct (st ")"); MPunct (st ";")].
Proof. vm_compute. reflexivity. Qed.
