{"claims": [
{"property": "C01", "status": "proved", "theorems": ["C01_kinds_exclusive", "C01_not_both_found"], "note": ""},
{"property": "C02", "status": "proved", "theorems": ["C02_refines_map_var", "C02_refines_map_fn"], "note": ""},
{"property": "C03", "status": "partial", "theorems": ["C03_define_var_reports", "C03_define_fn_reports", "C03_redefined_same_length_partial", "C03_redefined_fn_same_length_partial", "C03_redefined_refuted", "C03_redefined_fn_refuted"], "note": "The returned flag is described exactly, with the ignored tokens specified in SpecSet.v (C03_define_var_reports, C03_define_fn_reports). It is the documented one whenever old and new definition have equally many tokens, for both kinds of macros. Refuted otherwise: only the common prefix is compared, so a longer or shorter definition, or one more parameter, is not reported."},
{"property": "C04", "status": "proved", "theorems": ["C04_undefine_var", "C04_undefine_fn", "C04_undefine_twice"], "note": ""},
{"property": "C05", "status": "proved", "theorems": ["C05_var_not_found", "C05_fn_not_found"], "note": ""},
{"property": "C06", "status": "proved", "theorems": ["C06_history_independent"], "note": ""},
{"property": "C07", "status": "proved", "theorems": ["C07_object_like_expansion", "C07_object_like_macro"], "note": "For sets with object-like macros only: equal to the ISO C rescanning relation (SpecRescan), both for expand and for expand_var_macro."},
{"property": "C08", "status": "partial", "theorems": ["C08_object_like_terminates_partial", "C08_object_like_macro_terminates_partial", "C08_written_out_text_partial", "C08_written_out_macros_partial", "C08_termination_refuted", "C08_acyclic_refuted"], "note": "Proved: object-like sets end; so do sets and texts in which every call is written out (brackets matched, every function-like name followed by an opening parenthesis, no ##), however recursive they are. In general the claim is false of the code: two mutually recursive function-like macros whose names are completed by the following text make expand diverge (C08_termination_refuted), and so do two macros that do not call each other in a circle, with all brackets matched (C08_acyclic_refuted)."},
{"property": "C09", "status": "partial", "theorems": ["C09_own_name_not_expanded", "C09_own_name_not_called", "C09_painted_name_pasted_refuted"], "note": "Proved for a macro's own expansion through expand_var_macro / expand_fn_macro. Missing: the exclusion surviving into the text of the caller, which is false in one case (C09_painted_name_pasted_refuted); for object-like sets it follows from C07."},
{"property": "C10", "status": "proved", "theorems": ["C10_expand_fully_expanded", "C10_expand_var_macro_fully_expanded", "C10_expand_fn_macro_fully_expanded"], "note": "For arbitrary sets and texts."},
{"property": "C11", "status": "proved", "theorems": ["C11_inert_text_unchanged", "C11_va_args_reported"], "note": "Text with no macro name, no ## and no __VA_ARGS__ (reported as an error) maps one to one to the values of its spellings."},
{"property": "C12", "status": "proved", "theorems": ["C12_arguments_split", "C12_not_a_call", "C12_split_unique"], "note": ""},
{"property": "C13", "status": "partial", "theorems": ["C13_wrong_count", "C13_right_count_never_rejected", "C13_no_parameters_refuted"], "note": "Wrong counts are rejected exactly (C13_wrong_count) and right counts never (C13_right_count_never_rejected). Missing: a macro without parameters accepts any arguments when the first one is empty (C13_no_parameters_refuted)."},
{"property": "C14", "status": "partial", "theorems": ["C14_call", "C52_expand"], "note": "Proved when neither the body nor the expanded arguments hold # or ##; with operators the replacement is the one of C52 (C52_expand). Missing: operators that arrive through arguments (C53, refuted)."},
{"property": "C15", "status": "proved", "theorems": ["C15_non_variadic_function", "C15_non_variadic_object", "C15_non_variadic_definition", "C14_call"], "note": "Non-variadic use is an error; in variadic macros __VA_ARGS__ is the comma-separated trailing arguments (pm_variadic in C14_call)."},
{"property": "C16", "status": "partial", "theorems": ["C16_without_pasting_partial", "C16_without_prefix_partial", "C16_missing_argument_refuted", "C16_prefix_refuted", "C16_comment_refuted"], "note": "No panic when variadic macros have at most one named parameter and either no ## occurs or no encoding prefix (u8, u, U, L), and for expand_fn_macro no comment, occurs. The excluded cases do panic (refuted theorems)."},
{"property": "C17", "status": "partial", "theorems": ["C17_paste_classified", "C17_paste_spelling", "C17_paste_empty", "C17_paste_punctuators", "C17_paste_error", "C17_paste_words", "C17_paste_complete_refuted"], "note": "Successful pastes have the concatenated spelling and its class; the only error is InvalidConcat. Missing: completeness - '1 ## .' spells a literal and is refused (refuted); the panics of C16 on prefixed literals."},
{"property": "C18", "status": "partial", "theorems": ["C18_pasting", "C18_pasting_total", "C18_concat_begin", "C18_concat_end", "C18_no_operator_left", "C18_plain_text", "C18_empty_argument_refuted"], "note": "Pasting equals an independent relation; ConcatBegin exact; a text ending in ## never succeeds; no ## left. Missing: with an empty argument and a comment between two ## a ## is left (refuted)."},
{"property": "C19", "status": "proved", "theorems": ["C19_expand_no_markers", "C19_expand_no_arguments", "C19_expand_var_macro_no_arguments"], "note": ""},
{"property": "C20", "status": "partial", "theorems": ["C20_one_string", "C20_deferred", "C20_spelling", "C20_control_character_refuted", "C20_nul_refuted", "C20_line_reordered_refuted", "C20_told_apart"], "note": "One string literal with the specified contents (general form C20_deferred); its spelling denotes it when no control characters occur. Refuted for control characters, NUL, and __LINE__/__FILE__ in nested calls. C20_told_apart: different strings have different spellings, for all characters."},
{"property": "C21", "status": "proved", "theorems": ["C21_parameter_list_accepted", "C21_parameter_list_rejected", "C21_parameter_list_total"], "note": ""},
{"property": "C22", "status": "partial", "theorems": ["C22_argument_references", "C22_argument_references_refuted", "C22_escaped_parameter_refuted"], "note": "refuted for __VA_ARGS__ when the parameter list contains comments, and for parameters spelled with escapes; proved otherwise"},
{"property": "C23", "status": "proved", "theorems": ["C23_expand_identifiers", "C23_expand_var_macro_identifiers", "C23_expand_fn_macro_identifiers"], "note": ""},
{"property": "C24", "status": "partial", "theorems": ["C24_invalid_token_is_no_token", "C24_invalid_token_is_no_token_var", "C24_invalid_token_is_no_token_fn", "C24_invalid_token_fails", "C24_pasted_comment_refuted", "C24_inert_text_invalid_exact", "C24_reported"], "note": "a comment or punctuator that only arises by pasting is reported as InvalidToken too"},
{"property": "C25", "status": "partial", "theorems": ["C25_accepted", "C25_c_constants", "C25_unambiguous", "C25_too_large", "C25_token_iff", "C25_leading_zero_refuted"], "note": "Full characterisation: C constants that fit, plus the misreading of 08.../09... as decimal (refuted)."},
{"property": "C26", "status": "proved", "theorems": ["C26_suffix_types", "C25_accepted"], "note": "Suffix grammar and type table, from C25_accepted's suffixed relation."},
{"property": "C27", "status": "proved", "theorems": ["C27_meaning", "C27_token_iff", "C27_tokens", "C27_prefix_apart"], "note": "C27_meaning: exact characterisation for every input string; C27_token_iff lifts it to macro tokens. Hex escapes of one digit are rejected (C28_hex_escape_refuted). LitChar::parse: a character literal token, or an encoding prefix followed by an ordinary literal that fits (C27_tokens, C27_prefix_apart)."},
{"property": "C28", "status": "partial", "theorems": ["C28_meaning", "C28_token_iff", "C28_universal_name_refuted", "C28_hex_escape_refuted"], "note": "C28_meaning characterises acceptance and contents exactly, for every string, against a specification of escapes and code units. The C reading fails for universal names below 256 in ordinary and u8 strings and for hex escapes that are not two digits long; both are refuted with witnesses."},
{"property": "C29", "status": "proved", "theorems": ["C29_strings", "C29_characters"], "note": "For every text and every prefix; for every character in range."},
{"property": "C30", "status": "proved", "theorems": ["C30_concatenation", "C30_mixed_prefix_refuted", "C30_wide_refuted"], "note": "C30_mixed_prefix_refuted records that strings with two different prefixes are not joined but left over; C30_wide_refuted that an ordinary literal after a wide one is appended byte by byte instead of character by character"},
{"property": "C31", "status": "proved", "theorems": ["C31_variable", "C31_pointer", "C31_parsed"], "note": "Element list, declared length and CStr condition are read back from the generated tokens (SpecRust). tidy_ctx: user-supplied prefix and type tokens contain no top-level comma. A wide string may fail with an error or panic when wchar_t is unresolved."},
{"property": "C32", "status": "proved", "theorems": ["C32_grammar", "C32_value", "C32_token_iff", "C32_integer_with_f_refuted", "C32_hexadecimal_refuted"], "note": "C32_grammar: accepted texts are exactly the C decimal floating constants. C32_value: the result is the exact value rounded to nearest even in binary32 (f) or binary64 (none, l), overflow to infinity. std's decimal parser is modelled as exact rational rounding (trusted). long double is kept as binary64. C32_value uses the standard library's real-number axioms; 314f (documented) and hexadecimal constants are rejected (refuted)."},
{"property": "C33", "status": "proved", "theorems": ["C33_punctuation", "C33_punctuation_unspliced"], "note": "Exact set, with any number of leading line splices."},
{"property": "C34", "status": "proved", "theorems": ["C34_fn_macro", "C34_var_macro", "C34_all_consumed"], "note": "Recursion depth of the parsers is bounded by fuel linear in the token count (never exhausted); an accepted body leaves no token."},
{"property": "C35", "status": "partial", "theorems": ["C35_parse_partial", "C35_unique", "C35_generate_partial", "C35_var_partial", "C35_logical_rejected", "C35_minus_refuted", "C35_chain_refuted", "C35_product_refuted", "C35_difference_refuted", "C35_comment_refuted", "C35_typedef_refuted", "C35_rejected_refuted", "C35_postfix_refuted"], "note": "Proved for every expression of the supported part of the C grammar (SpecGrammar.v), of any size: the parsed tree is the tree of the grammar, type inference keeps the grouping, and (with C36) the generated tokens are read that way. The grammar has names pasted with ##, joined string literals, strings made of several parts, and type names with qualifiers, struct and comments beside the parentheses. Not covered: a comment between two literals, and characters outside ASCII after a wide literal (C30_wide_refuted). Refuted where a name in parentheses precedes an operator ((x)-1, (x)-(y)-(z), (x)*(y)+(z), (x)-y*z), where a comment follows a cast, and for an unresolved typedef; logical operators and p++[1] are rejected."},
{"property": "C36", "status": "partial", "theorems": ["C36_partial", "C36_operators", "C36_generate_partial", "C36_receiver_refuted", "C36_less_refuted", "C36_shift_refuted", "C36_plus_refuted", "C36_line_refuted", "C36_step_refuted", "C36_body_refuted"], "note": "The generated tokens, read by an independent reader of Rust expressions (SpecRustExpr), give the operator tree of the expression (SpecTree), for all expressions satisfying the syntactic conditions 'fine'; without conditions for operators on names, numbers and calls (C36_operators). The excluded forms are not read as written: refuted theorems (negative receiver, cast before < or <<, unary plus, __LINE__ under an operator, *++*p, ternary at the start of a function body)."},
{"property": "C37", "status": "partial", "theorems": ["C37_fold_partial", "C37_fold_anywhere_partial", "C37_fold_refuted", "C37_wrap_refuted"], "note": "Proved for every tree of integer literals under unary +, -, ! (unsuffixed) and + - * / % << >> & | ^, for every data model with promoted types of 16 to 64 bits. ~, comparisons, && and ||, casts and ternaries of constants are not folded by the code (C37_fold_refuted), so they are not generated as one literal. Unsigned results that wrap around in C are generated as negative numbers (C37_wrap_refuted); the hypothesis of C37_fold_partial excludes them."},
{"property": "C38", "status": "partial", "theorems": ["C38_fn_partial", "C38_var_partial", "C38_expanded_fn_partial", "C38_expanded_var_partial", "C38_division_refuted", "C38_remainder_refuted", "C38_stringify_refuted", "C38_stringify_expanded_refuted", "C38_asm_refuted", "C38_raw_refuted", "C38_comment_refuted", "C76_fn_generates_partial", "C76_var_generates_partial"], "note": "Generation returns code or an error whenever the tokens are well-formed, the context names no raw identifiers and the body is harmless (no division by a constant zero, no stringified '...', matching asm constraints in range); for bodies expanded by a macro set the token conditions are proved to hold. The other cases are refuted by witnesses that panic. With C76, such macros without a cause of an error are generated."},
{"property": "C39", "status": "partial", "theorems": ["C39_add_partial", "C39_once_partial", "C39_assign_partial", "C39_step_partial", "C39_operator_refuted", "C39_sub_refuted", "C39_place_refuted", "C39_group_refuted", "C39_capture_refuted"], "note": "Proved for = and += (right operand binding at least as tightly as *), ++ and --: exact runs (order of accesses, values, one read, one write). Refuted: -=, &=, ^=, |= are generated as +=; *=, /=, %=, <<=, >>= assign to the result of the read; a right operand of lower precedence is regrouped; the block's variable captures a parameter called value."},
{"property": "C40", "status": "partial", "theorems": ["C40_truth_partial", "C40_number", "C40_finish", "C40_refuted", "C40_suffix_refuted"], "note": "Proved where the operand is a truth value (comparison, &&, ||) or an unsuffixed number: the generated Rust is true, respectively 1, exactly when the operand is zero. Every other operand is printed with Rust's !, which is the complement for an integer: refuted for an int parameter and for a suffixed number."},
{"property": "C41", "status": "proved", "theorems": ["C41_cast_literal", "C41_null"], "note": "Every i128 value, every non-void target type; the null pointer case is C41_null."},
{"property": "C42", "status": "partial", "theorems": ["C42_types_partial", "C42_order_refuted", "C42_sign_alone_refuted", "C42_inner_qualifier_refuted"], "note": "Proved for every type of the C11 table in every specifier order with the signedness first; other orders, a lone signedness keyword and inner or repeated qualifiers are refuted"},
{"property": "C43", "status": "partial", "theorems": ["C43_round_trip_partial", "C43_round_trip_refuted", "C43_size_t_refuted", "C43_named", "C43_stated_partial", "C43_tokens", "C43_constant_partial"], "note": "Proved for every built-in and pointer type when no ffi prefix meets a primitive type and size_t is spelled c_size_t. With any ffi prefix every primitive type (f32, f64, bool, u8, u16, u32) comes back as a user type, and with a stable target so does size_t: the rest of that direction is false. The other direction (C43_stated_partial): a path or pointer that the caller states is kept segment by segment, except f128, c_size_t, a primitive name under the ffi prefix and ::c_int without a prefix; its tokens are what is generated (C43_tokens), and C43_constant_partial shows it for a constant. Paths with generic arguments and other forms of Rust types are not covered."},
{"property": "C44", "status": "partial", "theorems": ["C44_accumulate_partial", "C44_volatile_refuted"], "note": "Holds for all pairs except volatile twice, which becomes const (refuted by C44_volatile_refuted)."},
{"property": "C45", "status": "proved", "theorems": ["C45", "C45_distinct"], "note": "The theorem says which of the two items is produced and that it has one parameter per macro parameter, in order. What is inferred (types of the parameters, result type, rewritten body) is the outcome of the modelled finish methods; what requires a macro is specified independently on the rewritten body (SpecGen.needs_macro)."},
{"property": "C46", "status": "partial", "theorems": ["C46_partial", "C46_statement", "C46_refuted"], "note": "Everything except pasted names: A ## B is generated as concat_idents!(A, B) without being looked up (C46_refuted). Calls, variables, stringification and assignments are excluded from the body as parsed, dereferences from the body as rewritten (what the parser took for a dereference may be a product)."},
{"property": "C47", "status": "proved", "theorems": ["C47_params", "C47_fn_macro"], "note": "Exactly identifiers plus optional final ellipsis, comments anywhere."},
{"property": "C48", "status": "partial", "theorems": ["C48_template_partial", "C48_accepted", "C48_exact", "C48_unescaped", "C48_template_refuted"], "note": "Acceptance and output are characterised exactly: the output is the specified one iff no brace follows a plain character in its run (C48_unescaped). For other templates the property is false: a brace after a plain character is not escaped (C48_template_refuted). Missing: nothing provable; the code violates the rest."},
{"property": "C49", "status": "proved", "theorems": ["C49_clobbers"], "note": "Every asm statement that is generated as asm! (no .globl/.global/.section line); the arguments are read from the generated tokens."},
{"property": "C50", "status": "partial", "theorems": ["C50_outputs", "C50_merge_partial", "C50_merge_refuted", "C50_panic_refuted"], "note": "The outputs are always merged correctly (C50_outputs). The inputs are right when every matching constraint n is preceded by exactly n other inputs (aligned); otherwise the code removes another input or panics, so the full statement is false: C50_merge_refuted, C50_panic_refuted."},
{"property": "C51", "status": "partial", "theorems": ["C51_parse_partial", "C51_else", "C51_macro_partial", "C51_partial", "C51_finish", "C51_generate_partial", "C51_continue_refuted", "C51_if_refuted", "C51_declaration_refuted", "C51_void_refuted", "C51_do_refuted"], "note": "Parser (C51_parse_partial): every list of statements of the supported part of the C grammar (SpecStmtGrammar.v) is parsed to the tree of the grammar, with every else at the nearest if (C51_else); inference keeps the structure of all statements; generated statements whose expressions are in the fragment of C36 (fine) are read as one Rust statement with the same statements, branches and loops, and its traces are exactly those of the C statement; C51_macro_partial composes these. Refuted: continue inside do-while skips the condition; 'if (x) *p = 1' is taken for an expression; 'x * f();' is taken for a declaration. 'int f(void);' and 'do s while (c);' with its semicolon are rejected (C51_void_refuted, C51_do_refuted). Missing: expressions outside the fragment, and comments in the positions excluded by 'supported'."},
{"property": "C52", "status": "proved", "theorems": ["C52_macros", "C52_expand", "C52_expand_diverges", "C52_expand_var_macro"], "note": "Equivalence of expand with the relation of SpecExpand.v, both for results and for divergence."},
{"property": "C53", "status": "partial", "theorems": ["C53_hash_in_argument_refuted", "C53_paste_in_argument_refuted"], "note": "False of the code; witnesses given."},
{"property": "C54", "status": "partial", "theorems": ["C54_stringify_unexpanded", "C54_paste_operand_expanded_refuted"], "note": "Holds for #, false for ##."},
{"property": "C55", "status": "proved", "theorems": ["C55_expand_errors", "C55_expand_var_macro_errors", "C55_expand_fn_macro_errors", "C13_right_count_never_rejected"], "note": ""},
{"property": "C56", "status": "partial", "theorems": ["C56_value_partial", "C56_generate_partial", "C56_constant_partial", "C56_complement_refuted", "C56_short_refuted", "C56_narrow_refuted", "C56_unsigned_refuted"], "note": "End to end through inference, folding, printing and reading the tokens back with an independent Rust reader, for parameters and casts of any signed or unsigned type at least as wide as int, on any platform. C evaluation is typed (promotions, usual arithmetic conversions, wrap-around). With a signed type the Rust value exists; with an unsigned type a Rust value, if there is one, is the C value. Missing: the expressions excluded by fine (see C36), ! of an integer (C40); mixed types are C70. Refuted: ~ of a truth value, types narrower than int (promotion), ~ of an int constant beside unsigned operands, folding of unsigned constants."},
{"property": "C57", "status": "partial", "theorems": ["C57_builtin_partial", "C57_named_tokens", "C57_named_partial", "C57_bad_word", "C57_blank", "C57_rest_refuted"], "note": "Every text written with the words of a built-in type (in the orders of C42) or of a named type (with or without struct), with qualifiers and any pointers, is accepted with that type; texts with a word that is no token and blank texts are refused. Missing: what follows the type is ignored, so other texts are accepted (C57_rest_refuted), and the spellings refuted in C42. C57_named_tokens is the statement about tokens, with macro parameters as type names."},
{"property": "C58", "status": "partial", "theorems": ["C58_name", "C58_accepted", "C58_number_refuted", "C58_digits_refuted", "C58_variadic_refuted"], "note": "Whenever a name is read to its end and generated (no variadic parameter), its tokens denote the concatenation (C58_name); names of identifiers and parameters are always read (C58_accepted). Missing: a number after ## is refused by the parser, a continuation with digits by inference, and __VA_ARGS__ pastes all arguments (refuted)."},
{"property": "C59", "status": "partial", "theorems": ["C59_assembly_partial", "C59_input_constraint_partial", "C59_output_constraint_partial", "C59_wide", "C59_volatile_refuted", "C59_call_refuted", "C59_immediate_refuted"], "note": "Every assembly statement of the supported part of the grammar (SpecAsmGrammar.v) is parsed to the tree of the grammar, with any number of operands and clobbers and any operand expressions of C35 (C59_assembly_partial); for every constraint text of an operand, the class is one that the text allows, or the macro is rejected, unless the text has the letter i. Wide strings are rejected as template, constraint and clobber (C59_wide). Refuted: '__volatile__' is rejected, '__asm__(\"nop\")' without a semicolon becomes a function call, and the constraint i becomes a register. Missing: what 'supported' excludes."},
{"property": "C60", "status": "partial", "theorems": ["C60_identifier_partial", "C60_continuation_partial", "C60_comment", "C60_identifier_token", "C60_comment_token", "C60_reported", "C60_universal_name_refuted"], "note": "Exact description of the accepted identifiers, identifier continuations and comments for every text; a text expansion leaves alone is reported as invalid exactly when no grammar has it. Refuted: a universal character name after an ordinary character ('a\\u03b1') is an invalid token; so identifiers are proved only up to that."},
{"property": "C61", "status": "partial", "theorems": ["C61_function_partial", "C61_constant_partial", "C61_not_literal_refuted", "C61_not_variable_refuted", "C61_update_refuted"], "note": "Proved for functions and for constants that are not string literals: every Rust type of the generated expression is the declared one. Excluded (hypotheses truths_negated, settled): ! applied to a number or variable, *= /= %= <<= >>= as values, null pointers and functions without result inside a typed expression, members, wide strings; and what C36 excludes. Refuted: !0 and !x are declared bool but are integers, *p *= 2 is declared c_int but has no value."},
{"property": "C62", "status": "proved", "theorems": ["C62_parts", "C62_call", "C62_name_alone_refuted"], "note": "For every set in which each call is written out. Without that it fails as it should: a function-like name at the end of the first part takes its arguments from the second (C62_name_alone_refuted shows that the hypothesis is needed)."},
{"property": "C63", "status": "partial", "theorems": ["C63_function_partial", "C63_constant_partial", "C63_statement_partial", "C63_double_refuted", "C63_limit_refuted", "C63_prefix_refuted", "C63_product_refuted"], "note": "For every macro and every context that knows the types it states: the generated expression is the parsed one rewritten by meaning-keeping steps, and the text is read as it (C36, C51). Up to four approximations of the code, each refuted: integers next to a floating-point constant become float (C63_double_refuted), type limits plus a number are converted (C63_limit_refuted), joined strings lose the prefixes u and U (C63_prefix_refuted), (T)(n)*(T)e with a type n (C63_product_refuted). Without these the steps are exact and no use of a name is added, lost or moved (in C63_function_partial and C63_constant_partial)."},
{"property": "C64", "status": "partial", "theorems": ["C64_version", "C64_string", "C64_short_refuted", "C64_prefix_refuted", "C64_function_refuted"], "note": "Targets are read exactly as SemVer versions, and ordinary string constants get the stated form for every target. Refuted for the rest: versions without a patch number count as the newest (C64_short_refuted), strings with a prefix (C64_prefix_refuted) and strings in functions (C64_function_refuted) leave out the lifetime for every target."},
{"property": "C65", "status": "proved", "theorems": ["C65_literal", "C65_value", "C65_anywhere", "C65_mixed_refuted"], "note": "long double is treated as double, as the code does. With integer constants in the expression it fails (C65_mixed_refuted): they are rounded to float first."},
{"property": "C66", "status": "partial", "theorems": ["C66_partial", "C66_cast_refuted", "C66_sizeof_refuted", "C66_declared_refuted", "C66_text_refuted"], "note": "For the uses listed in SpecFragment. Types in casts, sizeof and declarations, and names of declared variables, are accepted as expressions, which Rust then refuses (C66_*_refuted)."},
{"property": "C67", "status": "partial", "theorems": ["C67_partial", "C67_variable", "C67_literal_refuted", "C67_paste_refuted", "C67_line_refuted", "C67_file_refuted", "C67_function_refuted"], "note": "For literals only, or parts other than literals. A literal beside other parts, a pasted name and #__FILE__ give no string at all, #__LINE__ gives the text line!(), and a parameter of a generated function is passed to concat! (C67_*_refuted). Parsing such sequences is C35 (C30 for literals)."},
{"property": "C68", "status": "partial", "theorems": ["C68_variable_partial", "C68_call_partial"], "note": "From definitions to values, for variable-like macros and for calls of function-like macros. Missing: what C35, C36 and C56 miss (logical operators in parsing, expressions excluded by fine, mixed types), and for calls what C69 misses; arguments are literals or names."},
{"property": "C69", "status": "partial", "theorems": ["C69_partial", "C69_parenthesis_refuted", "C69_macro_name_refuted", "C69_commas_refuted", "C69_rest_string_refuted", "C69_string_refuted"], "note": "For histories without # and ##, and arguments that are fully expanded, non-empty and do not begin with a parenthesis; a variadic macro is called with one argument for __VA_ARGS__ (and has no comments in its parameter list, see C22). Without the conditions on arguments the claim fails, in C as well: G x becomes a call if x is (3), x(3) if x names a function-like macro, and several arguments for __VA_ARGS__ may be passed on to several parameters (C69_commas_refuted). With # the claim fails of the code: a string made of __VA_ARGS__ or of a parameter between other words is made too early (C69_rest_string_refuted, C69_string_refuted)."},
{"property": "C70", "status": "partial", "theorems": ["C70_value_partial", "C70_generate_partial", "C70_constant_partial", "C70_suffix_refuted"], "note": "End to end like C56, with Rust typing and evaluation as one relation over several integer types: casts truncate and extend, a literal without suffix may have any type at least as wide as int. Missing: the expressions excluded by fine (see C36), ! of an integer (C40), variables narrower than int (C56_short_refuted). Refuted: literals with a suffix, which Rust types by their context."},
{"property": "C71", "status": "proved", "theorems": ["C71_character", "C71_integer", "C71_float", "C71_string", "C71_sum_refuted"], "note": "From the text to the generated constant, for every history. C71_sum_refuted shows that it does not extend to expressions: a character constant is an int in C but a char here."},
{"property": "C72", "status": "partial", "theorems": ["C72_accepted_partial", "C72_prefix_partial", "C72_type_partial", "C72_keyword_refuted", "C72_assignment_refuted", "C72_increment_refuted", "C72_size_refuted", "C72_prefix_refuted"], "note": "Proved for every body of ordinary text that is kept as an expression, of any size: the C grammar (SpecGrammar.v, all of it, not only the supported part) derives the kept tree from the body, given any set of type names with which the tree is consistent (SpecAccept.v: names used as values are no types or keywords, names used as types are types, assigned and incremented operands are unary expressions, sizes are not indexed or incremented). Also for prefixes and for type names. Each departure from C that the conditions exclude is accepted by the parser, C72_*_refuted. Missing: qualifiers that occur twice in one type, and a wide literal joined with a non-ASCII one (C30_wide_refuted)."},
{"property": "C73", "status": "partial", "theorems": ["C73_accepted_partial", "C73_prefix_partial", "C73_do_refuted", "C73_block_refuted", "C73_keyword_refuted"], "note": "Proved for every body of ordinary text that is kept as a statement, of any size and nesting: the C grammar (SpecStmtGrammar.v, all of it, not only the supported part) derives the kept trees from the body, given any set of type names with which the trees are consistent (SpecAccept.v: C72's conditions in the expressions, declared names are no keywords, a do statement only at the end, possibly as the last branch of an if; if there is inline assembly, its strings have no prefix, no brace after a plain character, C48, and no constraint i alone, C59). C73_prefix_partial is for one statement followed by other text. What the conditions exclude is accepted by the parser, C73_*_refuted, C48_template_refuted, C59_immediate_refuted. Missing: texts that are not ordinary (SpecAccept.v, as in C72)."},
{"property": "C74", "status": "partial", "theorems": ["C74_var_partial", "C74_fn_partial", "C74_character_refuted", "C74_not_refuted", "C74_condition_refuted", "C74_typedef_refuted", "C74_infer_refuted", "C74_stringify_refuted", "C74_paste_refuted", "C74_member_refuted"], "note": "Proved for bodies of SpecAgain.repeatable and contexts whose types are settled, however often generate is called; #, ## and members may be parameters whose type the context does not give. Refuted outside: character literals, negated numbers, floating-point conditions, typedefs resolved to unresolved names, types inferred from calls, and #, ## or members that are parameters with a type. Missing without a counterexample: products of casts ((T)(n)*(T)e)."},
{"property": "C75", "status": "proved", "theorems": ["C75_var", "C75_fn", "C75_other", "C75_resolved_needed", "C75_implied_needed"], "note": "For every set of names that contains those of the macro, wchar_t and size_t, and is closed under the types the context states. Both conditions are shown to be needed."},
{"property": "C76", "status": "proved", "theorems": ["C76_var", "C76_fn", "C76_statement", "C76_var_otherwise", "C76_fn_otherwise"], "note": "Every error that generate returns has the cause its variant and message name (SpecCause); without a cause the result is code or a panic. A statement in a variable-like macro always gives NonExpressionVarMacro. For macros that C38 shows not to panic, absence of a cause gives code (C76_*_generates_partial, listed under C38)."},
{"property": "C77", "status": "proved", "theorems": ["C77_var", "C77_fn"], "note": "Success of generate implies that type names are known and that #, ##, string concatenation and calls are as generable (SpecCause) says, by induction on fuel and trees; the retry of a cast of a dereference as a multiplication does not let anything else through."},
{"property": "C78", "status": "proved", "theorems": ["C78_text", "C78_var", "C78_fn", "C78_distinct_needed", "C78_plain_needed"], "note": "For every consistent renaming of the parameters of any macros of a set. Parameters written with universal character names are excluded by the definition of a renaming (C78_plain_needed)."},
{"property": "C79", "status": "proved", "theorems": ["C79_text", "C79_var", "C79_fn", "C79_paste_text", "C79_paste_var", "C79_paste_fn", "C79_unmentioned", "C79_paste_needed"], "note": "Both for texts without ## and, for sets of names closed under extension, for all texts."},
{"property": "C80", "status": "proved", "theorems": ["C80_message", "C80_displayable", "C80_counts"], "note": "For the messages of all three error types together; the table of printable characters is a parameter."},
{"property": "C81", "status": "partial", "theorems": ["C81_expand_partial", "C81_var_macro_partial", "C81_refuted", "C81_fn_macro_partial"], "note": "Proved for sets and texts in which every call is written out (brackets matched, every function-like name followed by an opening parenthesis) without ##, with # before parameters (then no __LINE__ or __FILE__ occurs). Missing: ##, # in constant macros and in the text, and function-like names without arguments; for the latter the claim is false of the code (C81_refuted: with f(x) for <x> and g(x) for (x), f g(1) becomes <1> where C leaves f (1)). C81_fn_macro_partial: the same for expand_fn_macro, also for variadic macros, without #, with any names that are no macros in place of the parameters and of __VA_ARGS__ (a variadic macro without comments between its parameters, see C22)."},
{"property": "C82", "status": "proved", "theorems": ["C82_expand", "C82_constant", "C82_comma_needed"], "note": "Without mistakes is defined in SpecProper.v (proper, proper_set), with # but without ##; if # is used, __LINE__ and __FILE__ are left out (C20). C82_comma_needed: with a comma outside of brackets in a replacement text there can be an arity error, as in C."},
{"property": "C83", "status": "proved", "theorems": ["C83_function"], "note": "For all function-like macros, variadic or not, in sets without mistakes as in C82: # before parameters is covered (then no __LINE__ or __FILE__ occurs), ## is left out of the meaning of 'without mistakes'."},
{"property": "C84", "status": "partial", "theorems": ["C84_call_partial", "C84_generate_partial", "C84_offsetof"], "note": "For calls whose arguments are in the fragment of C36 (fine); for __builtin_offsetof without conditions (C84_offsetof)."},
{"property": "C85", "status": "partial", "theorems": ["C85_syntax", "C85_template_partial", "C85_att_refuted"], "note": "The option is in the generated call exactly if some line of the template contains a percent sign, a dollar sign or an operand right after a parenthesis, for all templates, operands and clobbers (C85_syntax); in terms of the template of GCC, under the condition of C48 on braces: exactly if it names a register, has a dollar sign or has an operand right after a parenthesis (C85_template_partial). Refuted for the full claim: 'movl %1, %0' is generated without the option, although GCC reads it in AT&T syntax, so the operands change places."},
{"property": "C86", "status": "partial", "theorems": ["C86_call", "C86_global_refuted"], "note": "C86_call gives all arguments of the generated call, for every template, operands and clobbers: lines, merged outputs, inputs, clobbers (each once), clobber_abi, options; and says which of asm! and global_asm! it is. Which inputs are there is C50. Refuted: the clobbers of global assembly are generated as operands of global_asm!, which has none."},
{"property": "C87", "status": "partial", "theorems": ["C87_operands_partial", "C87_outputs_partial", "C87_inputs", "C87_shift_refuted"], "note": "Without inputs that name an output, the operands of the call are those of the statement in GCC's order (C87_operands_partial); references to outputs are right for all statements (C87_outputs_partial). If inputs are merged (aligned as in C50), an input stands after the outputs and the inputs before it that are not merged (C87_inputs), so references past a merged input are wrong: C87_shift_refuted. That the numbers in the template are those of C is C48."}
]}
