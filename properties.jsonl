{"id": "C01", "title": "A name is never both variable-like and function-like", "statement": "After any sequence of define_var_macro, define_fn_macro, undefine_var_macro and undefine_fn_macro calls on a new MacroSet, no name is defined both as a variable-like and as a function-like macro: expand_var_macro(n) and expand_fn_macro(n) cannot both get past the lookup.", "quantifier": "every finite history of define/undefine calls with arbitrary names, parameters and bodies, and every name", "why_tests_cant": "The claim is about every history; a test fixes a handful of call sequences.", "anchors": ["src/macro_set/mod.rs: MacroSet::define_var_macro, define_fn_macro, undefine_var_macro, undefine_fn_macro"]}
{"id": "C02", "title": "The macro set behaves like one map from names to definitions", "statement": "After any history, what is defined under a name is decided by the last define/undefine call that concerns that name: a define replaces whatever was there, an undefine of the matching kind removes it, an undefine of the other kind and any call on another name changes nothing.", "quantifier": "every history, every name", "why_tests_cant": "Refinement to an abstract map has to hold for all interleavings of calls on all names.", "anchors": ["src/macro_set/mod.rs: MacroSet (var_macros, fn_macros) and its define_*/undefine_* methods"]}
{"id": "C03", "title": "define_* reports a redefinition exactly when the definition changed", "statement": "define_var_macro / define_fn_macro return true iff the name was already defined and the new definition differs from the old one once whitespace and comment tokens are ignored (the documented meaning of `redefined`).", "quantifier": "every earlier state and every old and new parameter list and body, of any length", "why_tests_cant": "Needs all pairs of bodies, in particular pairs where one is a prefix of the other.", "anchors": ["src/macro_set/mod.rs: define_var_macro (767-778), define_fn_macro (814-831), is_whitespace, is_comment"]}
{"id": "C04", "title": "undefine_* reports and removes exactly the macro of that kind", "statement": "undefine_var_macro(n) returns true iff n is currently a variable-like macro and removes only it; likewise undefine_fn_macro; a second undefine returns false.", "quantifier": "every history and name", "why_tests_cant": "Quantifies over all reachable states.", "anchors": ["src/macro_set/mod.rs: undefine_var_macro, undefine_fn_macro"]}
{"id": "C05", "title": "MacroNotFound is reported exactly for undefined names", "statement": "expand_var_macro(n) (expand_fn_macro(n)) returns MacroNotFound iff n is not currently defined as a variable-like (function-like) macro; no nested expansion error is ever reported as MacroNotFound.", "quantifier": "every reachable macro set and every name", "why_tests_cant": "The `only if` half ranges over every body that could be expanded.", "anchors": ["src/macro_set/mod.rs: expand_var_macro, expand_fn_macro"]}
{"id": "C06", "title": "Expansion depends only on the current definitions", "statement": "Two macro sets that hold the same definitions (whatever the order and history in which they were built) give identical results for every expand, expand_var_macro and expand_fn_macro call.", "quantifier": "every pair of histories ending in the same definitions, every body", "why_tests_cant": "Hash-map order and history independence cannot be sampled exhaustively.", "anchors": ["src/macro_set/mod.rs: MacroSet::expand, expand_var_macro, expand_fn_macro"]}
{"id": "C07", "title": "Object-like expansion is the C preprocessor's", "statement": "If only variable-like macros are defined, expanding any token list gives exactly the list the C rescanning rule prescribes: every identifier naming a macro not currently being expanded is replaced by the expansion of its body, every other token is kept, in order, and names currently being expanded are kept as identifiers.", "quantifier": "every set of variable-like macros (including self- and mutually recursive ones) and every token list", "why_tests_cant": "The result must be right for every nesting and recursion pattern.", "anchors": ["src/macro_set/mod.rs: MacroSet::expand_macro_body, expand_var_macro_body"]}
{"id": "C08", "title": "Expansion terminates", "statement": "expand, expand_var_macro and expand_fn_macro return (a value or an error) after finitely many steps for every macro set, including recursive ones.", "quantifier": "every macro set and every body", "why_tests_cant": "A test that hangs or passes says nothing about the other inputs.", "anchors": ["src/macro_set/mod.rs: MacroSet::expand_macro_body (restart at 464 and 474)"]}
{"id": "C09", "title": "A macro is not expanded again inside its own expansion", "statement": "While a macro is being expanded, every occurrence of its name that comes from its body stays an ordinary identifier of the output, and it is not picked up again when the surrounding text is rescanned.", "quantifier": "every macro set, macro, body", "why_tests_cant": "Recursion through arbitrarily many other macros.", "anchors": ["src/macro_set/mod.rs: expand_macro_body (446-447), Token::NonReplacable"]}
{"id": "C10", "title": "The result of an expansion is fully expanded", "statement": "When expansion succeeds, the output contains no remaining invocation: no identifier eligible for replacement names a variable-like macro, and none names a function-like macro followed by a well-formed argument list.", "quantifier": "every macro set and body", "why_tests_cant": "Requires an invariant of the rescanning loop.", "anchors": ["src/macro_set/mod.rs: expand_macro_body"]}
{"id": "C11", "title": "Text that mentions no macro is returned unchanged", "statement": "A token list containing no defined macro name and no `##` expands to itself: one output token per input token, in the same order, each with the value its spelling denotes.", "quantifier": "every macro set and every token list with no defined name", "why_tests_cant": "All lengths and spellings.", "anchors": ["src/macro_set/mod.rs: expand, tokenize, detokenize, expand_concat"]}
{"id": "C12", "title": "Macro call arguments are split exactly at top-level commas", "statement": "For a call `NAME (` ... the argument list ends at the first `)` not enclosed in (), [] or {}; arguments are the comma-separated balanced token runs in between, in order, with no token lost, added or moved; if the brackets do not balance the text is not treated as a call.", "quantifier": "every token list following a function-like macro name, any nesting depth", "why_tests_cant": "Unbounded nesting.", "anchors": ["src/macro_set/mod.rs: MacroSet::collect_args"]}
{"id": "C13", "title": "Argument count errors are exact", "statement": "Calling a non-variadic function-like macro with a number of arguments different from its number of parameters gives FnMacroArgumentError naming the macro, the required and the given number (a single empty argument is accepted for a macro without parameters); calling it with the right number never does.", "quantifier": "every macro and argument list", "why_tests_cant": "All arities.", "anchors": ["src/macro_set/mod.rs: expand_fn_macro_body (530-541)"]}
{"id": "C14", "title": "Parameters are replaced by their fully expanded arguments", "statement": "In a call, each occurrence of a parameter that is not an operand of `#` or `##` is replaced by the complete macro expansion of the corresponding argument; all other body tokens are kept in place.", "quantifier": "every macro set, call and body", "why_tests_cant": "Simultaneous substitution for all bodies.", "anchors": ["src/macro_set/mod.rs: expand_arguments"]}
{"id": "C15", "title": "`__VA_ARGS__` is the comma-separated list of the trailing arguments", "statement": "In a call of a variadic macro, `__VA_ARGS__` is replaced by the expansion of all arguments after the named ones, separated by commas; `__VA_ARGS__` in any non-variadic macro is reported as NonVariadicVarArgs.", "quantifier": "every variadic macro, any number of arguments", "why_tests_cant": "Any number of trailing arguments.", "anchors": ["src/macro_set/mod.rs: expand_arguments (664-675), contains_var_args, expand_var_macro_body, expand_fn_macro_body"]}
{"id": "C16", "title": "Expansion never panics", "statement": "No call of expand, expand_var_macro or expand_fn_macro panics, whatever macros are defined and whatever is expanded: malformed input is reported as an ExpansionError.", "quantifier": "every macro set built with the public API and every body", "why_tests_cant": "Absence of index-out-of-bounds, unwrap and unreachable! failures over all inputs.", "anchors": ["src/macro_set/mod.rs: expand_arguments (663, 667), Token::concat (293, 307, 330), Token::detokenize (237)"]}
{"id": "C17", "title": "`##` pastes spellings", "statement": "Pasting two tokens yields one token spelled as the concatenation of the operands' spellings and classified as that spelling would be; a pasted operator is one of the C punctuators; pasting with an empty argument yields the other operand; anything else is InvalidConcat.", "quantifier": "every pair of tokens", "why_tests_cant": "All spellings.", "anchors": ["src/macro_set/mod.rs: Token::concat", "src/ast/punctuation.rs: Punctuation::concat"]}
{"id": "C18", "title": "`##` at the ends of a body is reported, and no other `##` error exists", "statement": "A body starting with `##` gives ConcatBegin, one ending with `##` gives ConcatEnd (comments aside); otherwise every run of `##`-separated tokens is pasted left to right and no `##` operator between two ordinary tokens survives.", "quantifier": "every body", "why_tests_cant": "All bodies, with any number of `##` and comments.", "anchors": ["src/macro_set/mod.rs: MacroSet::expand_concat"]}
{"id": "C19", "title": "No internal marker leaks out of an expansion", "statement": "A successful expansion yields only macro arguments, identifiers, identifier continuations, literals, punctuation and comments; empty-argument placeholders never appear and never leave a gap or an extra token.", "quantifier": "every expansion", "why_tests_cant": "All code paths that may create a placeholder.", "anchors": ["src/macro_set/mod.rs: remove_placemarkers, Token::detokenize"]}
{"id": "C20", "title": "`#` turns an argument into one string literal of its tokens", "statement": "Stringifying an argument whose tokens are ordinary gives exactly one string literal whose contents are the spellings of the argument's tokens in order, separated only by single spaces placed by the documented spacing rule; an empty argument gives the empty string; the literal's spelling denotes the same contents.", "quantifier": "every argument token list", "why_tests_cant": "All token lists and spellings (quotes, backslashes, control characters).", "anchors": ["src/macro_set/mod.rs: stringify, Token::stringify"]}
{"id": "C21", "title": "Parameter lists are validated", "statement": "A parameter list is accepted iff it consists of identifiers (comments aside) that are pairwise different, optionally followed by a final `...`; repeated names give NonUniqueArgument with that name, anything else InvalidArgumentName.", "quantifier": "every list of parameter spellings", "why_tests_cant": "All lengths and positions of the offending entry.", "anchors": ["src/macro_set/mod.rs: tokenize_arg_names"]}
{"id": "C22", "title": "Argument references in an expanded function-like macro denote its parameters", "statement": "Every argument reference in the body returned by expand_fn_macro has an index below the number of parameters FnMacro::parse extracts from the returned parameter list, and the parameter at that index is the one the body named (`...` for `__VA_ARGS__`).", "quantifier": "every function-like macro definition", "why_tests_cant": "All parameter lists and bodies, including comments between parameters.", "anchors": ["src/macro_set/mod.rs: tokenize, Token::detokenize, expand_fn_macro", "src/fn_macro.rs: FnMacro::parse_args"]}
{"id": "C23", "title": "Identifiers in an expansion are well-formed", "statement": "Every identifier of a successful expansion is non-empty, starts with an identifier-start character and continues with identifier-continue characters, so turning it into a Rust identifier cannot fail.", "quantifier": "every expansion", "why_tests_cant": "Pasting can build identifiers of any shape.", "anchors": ["src/macro_set/mod.rs: Token::from_str, Token::concat", "src/ast/identifier.rs: Identifier::parse_str, is_identifier"]}
{"id": "C24", "title": "Errors are reported for exactly the tokens that are not C tokens", "statement": "Expansion fails with InvalidToken(t) only if t is the spelling of a token of the expanded text that is none of identifier, identifier continuation, literal, punctuator or comment; and any such token in the result makes it fail.", "quantifier": "every expansion", "why_tests_cant": "All spellings.", "anchors": ["src/macro_set/mod.rs: Token::from_str, Token::detokenize"]}
{"id": "C25", "title": "Integer literals have their C value", "statement": "LitInt::try_from accepts exactly digit strings in C notation (0x hexadecimal, 0b binary, leading-0 octal, decimal) with an optional suffix whose value fits in an i128, and returns the value positional notation gives; larger literals are rejected, never truncated.", "quantifier": "every string", "why_tests_cant": "All digit strings of any length, in particular near 2^127.", "anchors": ["src/ast/literal/int.rs: LitInt::parse_str, parse_i128"]}
{"id": "C26", "title": "Integer suffixes determine the type", "statement": "The suffix of an accepted literal is one of u, l, ll, z and their unsigned combinations in either order and in the capitalisations C allows, and it determines the recorded type (unsigned iff it contains u, size by l/ll/z).", "quantifier": "every suffix string", "why_tests_cant": "All suffix strings, including ill-formed ones that must be rejected.", "anchors": ["src/ast/literal/int.rs: LitInt::parse_suffix, LitIntSizeSuffix::parse"]}
{"id": "C27", "title": "Character literals denote one in-range code unit", "statement": "LitChar::try_from returns the value of the single (possibly escaped) character between the quotes, under the type of its prefix, and rejects it when it does not fit that type (255 for ordinary, 127 for u8, 65535 for u).", "quantifier": "every string", "why_tests_cant": "All characters, escapes and prefixes.", "anchors": ["src/ast/literal/char.rs: LitChar::parse_str, with_prefix", "src/ast/literal.rs: escaped_char, unescaped_char"]}
{"id": "C28", "title": "String literals decode to the bytes C gives them", "statement": "LitString::try_from yields the contents of the literal with escapes replaced: bytes for ordinary strings, and valid Unicode text for u8, u and U strings, where escaped code units are combined as in C; malformed text is rejected.", "quantifier": "every string", "why_tests_cant": "All contents and escape sequences.", "anchors": ["src/ast/literal/string.rs: LitString::parse_str, parse_ordinary, parse_utf8, parse_utf16, parse_utf32, parse_wide"]}
{"id": "C29", "title": "Every text can be written as a literal and read back", "statement": "For every Unicode text there is a spelling (backslash-escaping quote, backslash and newline) that each string prefix reads back as exactly that text; likewise for every character literal.", "quantifier": "every Unicode text", "why_tests_cant": "Round trip over all texts.", "anchors": ["src/ast/literal/string.rs: LitString::parse_str", "src/ast/literal/char.rs: LitChar::parse_str"]}
{"id": "C30", "title": "Adjacent string literals are concatenated", "statement": "LitString::parse consumes a maximal run of string literals compatible with the first and returns their contents in order under the first literal's kind; tokens after the run are left alone.", "quantifier": "every token list", "why_tests_cant": "Any number of adjacent literals.", "anchors": ["src/ast/literal/string.rs: LitString::parse"]}
{"id": "C31", "title": "Generated strings are NUL-terminated and of the declared length", "statement": "The array generated for a string literal contains its code units followed by one zero, its declared length is the number of elements, and a CStr is generated only when there is no interior NUL.", "quantifier": "every string literal and target", "why_tests_cant": "All contents.", "anchors": ["src/ast/literal/string.rs: LitString::to_token_stream"]}
{"id": "C32", "title": "Floating-point literals are read with correct rounding", "statement": "LitFloat::try_from accepts exactly C decimal floating constants (digits with a point and/or exponent, suffix f or l) and returns the nearest representable value of the suffix's type.", "quantifier": "every string", "why_tests_cant": "All digit strings and exponents.", "anchors": ["src/ast/literal/float.rs: LitFloat::parse_str"]}
{"id": "C33", "title": "Punctuation is the closed set of C punctuators", "statement": "Punctuation::try_from accepts exactly the C punctuators and digraphs, optionally preceded by line splices, which are dropped.", "quantifier": "every string", "why_tests_cant": "All strings.", "anchors": ["src/ast/punctuation.rs: impl_punct!, Punctuation::try_from"]}
{"id": "C34", "title": "Parsing terminates and accounts for every token", "statement": "VarMacro::parse and FnMacro::parse return after finitely many steps on every token list; an accepted body has been consumed entirely.", "quantifier": "every token list", "why_tests_cant": "Unbounded nesting and mutual recursion.", "anchors": ["src/ast/expr.rs: Expr::parse", "src/macro_body.rs: MacroBody::parse", "src/ast/statement.rs: Statement::parse"]}
{"id": "C35", "title": "Expressions are grouped as in C", "statement": "An expression macro body is generated with the grouping the C grammar gives it: the precedence and associativity of all C operators, casts and parentheses.", "quantifier": "every expression token list", "why_tests_cant": "All combinations of operators at any depth.", "anchors": ["src/ast/expr.rs: parse_term_prec1 .. parse_term_prec14, Expr::finish (402-433)"]}
{"id": "C36", "title": "Generated Rust groups like the parsed expression", "statement": "The Rust tokens generated for an expression, read with Rust's precedence and associativity, form the same operator tree as the parsed expression.", "quantifier": "every expression tree", "why_tests_cant": "All pairs of nested operators at any depth.", "anchors": ["src/ast/binary_expr.rs: BinaryExpr::to_token_stream, BinaryOp::precedence", "src/ast/unary_expr.rs: to_token_stream", "src/ast/cast.rs: to_tokens"]}
{"id": "C37", "title": "Constant folding computes the value of the expression", "statement": "An expression of integer literals is generated as one literal whose value is the value of the C expression, provided no intermediate result leaves the range of the operands' C type.", "quantifier": "every integer-literal expression tree", "why_tests_cant": "All trees and all values.", "anchors": ["src/ast/expr.rs: Expr::finish (575-650)", "src/ast/literal/int.rs: Add, Sub, Mul, Div, Rem, Shl, Shr, BitAnd, BitOr, BitXor"]}
{"id": "C38", "title": "Code generation never panics", "statement": "VarMacro::generate and FnMacro::generate return Ok or a CodegenError for every macro accepted by parse and every context.", "quantifier": "every parsed macro and context", "why_tests_cant": "Arithmetic, index and identifier panics over all inputs.", "anchors": ["src/ast/expr.rs: Expr::finish", "src/ast/literal/int.rs: Div, Rem", "src/context.rs: arg_name, arg_type, arg_type_mut", "src/ast/asm.rs: Asm::to_tokens"]}
{"id": "C39", "title": "Compound assignment to a volatile pointer performs the written operation", "statement": "For `*(volatile T*)p OP= e` the generated code reads the location once, applies OP to the value read and e, and writes the result back once.", "quantifier": "every compound assignment operator and operand", "why_tests_cant": "All operators and operand expressions.", "anchors": ["src/ast/binary_expr.rs: BinaryExpr::to_token_stream (308-337)"]}
{"id": "C40", "title": "Logical negation is logical", "statement": "`!e` is generated as a Rust expression that is true exactly when e is zero (not as a bitwise complement).", "quantifier": "every operand expression", "why_tests_cant": "All operand types.", "anchors": ["src/ast/expr.rs: Expr::finish (541-566)", "src/ast/unary_expr.rs: UnaryExpr::finish, to_token_stream"]}
{"id": "C41", "title": "A cast integer literal keeps its value", "statement": "The literal generated under a cast carries a Rust integer type that can represent its value, and it is the smallest of the candidate types.", "quantifier": "every i128 value", "why_tests_cant": "All 2^128 values.", "anchors": ["src/ast/cast.rs: Cast::to_tokens"]}
{"id": "C42", "title": "C type names are recognised whatever the order of their keywords", "statement": "Type parsing maps every permutation of the keywords C allows for a built-in type (signedness, short/long, int, char, double, const/volatile, pointers) to that type, and consumes all of them.", "quantifier": "every keyword sequence", "why_tests_cant": "All permutations and qualifier positions, any pointer depth.", "anchors": ["src/ast/ty.rs: Type::parse, ty, int_ty, const_volatile_qualifier"]}
{"id": "C43", "title": "Types survive conversion to Rust and back", "statement": "Converting a built-in or pointer type to a Rust type and back with the same ffi prefix gives the same type (long double, which Rust lacks, becomes double). A Rust type of paths and pointers that the caller states is generated as it was stated.", "quantifier": "every type and prefix", "why_tests_cant": "All prefixes and pointer nestings.", "anchors": ["src/ast/ty.rs: BuiltInType::from_rust_ty, to_rust_ty, Type::from_rust_ty, Type::to_rust_ty"]}
{"id": "C44", "title": "Type qualifiers accumulate", "statement": "Qualifying a type twice gives a type that is const (volatile) iff one of the two qualifiers is.", "quantifier": "all pairs of qualifiers", "why_tests_cant": "Semantic requirement on the merge function, needed for every nested qualification.", "anchors": ["src/ast/ty.rs: TypeQualifier::or, Type::qualify"]}
{"id": "C45", "title": "A function is generated exactly when everything is known", "statement": "FnMacro::generate emits a Rust function iff every parameter has a known type, the result type is known, the macro is not variadic, no C function has the same name and nothing in the body requires a macro; otherwise it emits a macro_rules macro; either has one parameter per macro parameter in order.", "quantifier": "every macro and context", "why_tests_cant": "All contexts.", "anchors": ["src/fn_macro.rs: FnMacro::generate"]}
{"id": "C46", "title": "Variable-like macros are generated only as constants", "statement": "VarMacro::generate succeeds only for expression macros that mention no unresolved variable, no function call, no dereference and no source-location macro.", "quantifier": "every macro body and context", "why_tests_cant": "All nestings of the offending construct.", "anchors": ["src/var_macro.rs: VarMacro::generate", "src/ast/var.rs: Var::finish", "src/ast/function_call.rs: finish", "src/ast/unary_expr.rs: finish"]}
{"id": "C47", "title": "Parameter lists are parsed completely", "statement": "FnMacro::parse accepts exactly the parameter token lists made of identifiers and an optional final `...`, interspersed with comments, and returns them in order.", "quantifier": "every token list", "why_tests_cant": "Any length, any comment placement.", "anchors": ["src/fn_macro.rs: FnMacro::parse_args"]}
{"id": "C48", "title": "Assembly templates are translated faithfully", "statement": "In a generated assembly template every operand reference %n of the C template becomes {n}, every literal brace is escaped, and all other characters are kept (lines trimmed).", "quantifier": "every template string", "why_tests_cant": "All templates.", "anchors": ["src/ast/asm.rs: Asm::parse_template"]}
{"id": "C49", "title": "Assembly clobbers determine the options", "statement": "The generated asm! has nomem iff memory is not clobbered and preserves_flags iff cc is not clobbered, and every other clobber appears as an output exactly once.", "quantifier": "every clobber list", "why_tests_cant": "All lists and orders, including duplicates.", "anchors": ["src/ast/asm.rs: Asm::to_tokens"]}
{"id": "C50", "title": "A matching constraint merges exactly that operand", "statement": "An input operand with constraint n is merged with output n (which becomes inout), all other inputs stay, and generation does not panic.", "quantifier": "every operand list", "why_tests_cant": "All positions and counts of matching constraints.", "anchors": ["src/ast/asm.rs: Asm::to_tokens (243-250)"]}
{"id": "C51", "title": "Statement structure is preserved", "statement": "Blocks, if/else and do-while bodies are generated with the same statements in the same order, an else belongs to the nearest if, and the loop repeats exactly while its condition is non-zero.", "quantifier": "every statement", "why_tests_cant": "All nestings.", "anchors": ["src/ast/statement.rs: Statement::parse_single, finish, to_tokens"]}
{"id": "C52", "title": "Expansion replaces the leftmost invocation and rescans", "statement": "The result of expanding a text under any history of definitions is exactly what the rule gives: find the leftmost macro invocation that is not hidden, replace it by its replacement list with arguments substituted (# and ## applied) and expanded with the macro hidden, continue with the rest of the text; when nothing is left the text is delivered without place markers. If the rule does not terminate neither does expand.", "quantifier": "every history of definitions, every text, every outcome (tokens, error)", "why_tests_cant": "It characterises the output of every program of macro definitions, of any nesting depth.", "anchors": ["src/macro_set/mod.rs: MacroSet::expand, expand_macro_body, expand_var_macro_body, expand_fn_macro_body"]}
{"id": "C53", "title": "# and ## that arrive through arguments are ordinary tokens", "statement": "As C requires, a # or ## token that enters a replacement list through an argument is not treated as an operator.", "quantifier": "every macro call whose arguments contain # or ##", "why_tests_cant": "All calls and arguments.", "anchors": ["src/macro_set/mod.rs: expand_fn_macro_body, expand_concat"]}
{"id": "C54", "title": "Operands of # and ## are not macro-expanded first", "statement": "An argument next to # or ## is used as it was written, without expanding macros in it.", "quantifier": "every macro call whose body uses # or ##", "why_tests_cant": "All macros and arguments.", "anchors": ["src/macro_set/mod.rs: expand_fn_macro_body"]}
{"id": "C55", "title": "Every expansion error has a cause in the input", "statement": "Each error value returned by expand, expand_var_macro or expand_fn_macro is justified: the named macro is defined with that many parameters, a replacement list really has __VA_ARGS__ without being variadic, a # or ## is really there, or a token is really not a C token; in particular the reported required count is the macro's and the given count is a different one.", "quantifier": "every history of definitions, every text or macro name", "why_tests_cant": "All error paths at any nesting depth.", "anchors": ["src/macro_set/mod.rs: ExpansionError", "src/macro_set/mod.rs: MacroSet::expand, expand_var_macro, expand_fn_macro"]}
{"id": "C56", "title": "Generated integer expressions have the C value", "statement": "An expression over parameters of one integer type and integer constants, built with arithmetic, shifts, bitwise operators, comparisons, logical operators, casts to that type and the conditional operator, is generated as a Rust expression that, whenever Rust accepts it and C defines a value, evaluates to that value (a Rust bool standing for 0 or 1); for a signed type it does not panic, for an unsigned type it may panic only where C wraps.", "quantifier": "every such expression, every nesting, every value of the parameters, every signed or unsigned type, every width of int and of the type up to 64 bits", "why_tests_cant": "Infinitely many expressions and parameter values; the property relates two languages.", "anchors": ["src/ast/expr.rs: Expr::finish, Expr::to_token_stream", "src/ast/binary_expr.rs: BinaryExpr::to_token_stream", "src/ast/unary_expr.rs: UnaryExpr::to_token_stream", "src/fn_macro.rs: FnMacro::generate"]}
{"id": "C57", "title": "A type given as text is understood as C would", "statement": "Parsing a type from a string (Type::from_str) accepts exactly the texts that are a C type name - qualifiers, built-in keywords or a (struct) name, then stars with qualifiers, with any white space and none needed around stars - and returns the type named; any other text is refused.", "quantifier": "every string, any number of pointers and qualifiers", "why_tests_cant": "Unbounded texts, any white space and any pointer depth; acceptance must be exact.", "anchors": ["src/ast/ty.rs: impl FromStr for Type, Type::parse, Type::to_static"]}
{"id": "C58", "title": "A pasted name denotes the concatenation of its operands", "statement": "A name written with ## in a macro body (identifiers, parameters and texts continuing an identifier, comments anywhere) is accepted, and the tokens generated for it denote, for whatever the user of the generated macro passes, exactly the concatenation of the operands' spellings in order.", "quantifier": "any number of operands, any arguments of the generated macro", "why_tests_cant": "Unbounded chains, and the claim is about every use of the generated macro.", "anchors": ["src/ast/identifier_expr.rs: IdentifierExpr::parse_concat_ident, finish, to_tokens", "src/ast/macro_arg.rs: MacroArg::to_tokens"]}
{"id": "C59", "title": "Inline assembly is parsed as in the GCC manual", "statement": "A macro whose body is an inline assembly statement (`asm`, `__asm` or `__asm__`, an optional qualifier, and in parentheses a template string, output operands, input operands and clobbers separated by colons) is accepted, and has the template of its strings, the operands in the order in which they are written, each with the direction, the register class and the expression that it is written with, and the clobbers. A text that stands as the constraint of an operand gives the operand a register class that the constraint allows, or the macro is rejected.", "quantifier": "every inline assembly statement of the grammar: all templates, all numbers of operands and clobbers, all operand expressions, all constraint texts, all comments between tokens", "why_tests_cant": "the grammar has infinitely many statements, with lists of any length and expressions of any depth, and the constraint is an arbitrary text; tests cover a handful of statements", "anchors": ["src/ast/asm.rs: Asm::parse, parse_template, parse_reg_constraint, parse_output_operands, parse_input_operands", "src/ast/literal/string.rs: LitString::parse", "src/macro_body.rs: MacroBody::parse"]}
{"id": "C60", "title": "Identifiers and comments are recognised as in C", "statement": "A text is accepted as an identifier exactly when it is a C identifier, with universal character names replaced by the characters they name; it is accepted as a comment exactly when it starts with the opening, ends with its first terminator and has nothing after it. A text that is no identifier, literal, punctuator or comment is reported by MacroSet::expand.", "quantifier": "every text and every set of definitions", "why_tests_cant": "All texts, all Unicode characters.", "anchors": ["src/ast/identifier.rs: Identifier::parse_str, IdentifierContinue::parse_str", "src/ast/comment.rs: Comment::try_from", "src/macro_set/mod.rs: Token::from_str"]}
{"id": "C61", "title": "A generated item has the type it is declared with", "statement": "The function that FnMacro::generate emits for a function-like macro, and the value that VarMacro::generate returns for a variable-like one, have in Rust the type that is declared for them: whatever type Rust gives to the generated expression, in a scope where the parameters have their declared types and the names of the context the types it states, is the declared return type.", "quantifier": "every macro, every CodegenContext, every scope that agrees with it (whatever the C type aliases stand for)", "why_tests_cant": "The type is inferred from operands of arbitrarily nested expressions and from the context; all combinations, for every platform.", "anchors": ["src/ast/expr.rs: Expr::finish", "src/ast/unary_expr.rs, src/ast/binary_expr.rs, src/ast/ternary_expr.rs, src/ast/cast.rs: finish", "src/fn_macro.rs: FnMacro::generate", "src/var_macro.rs: VarMacro::generate"]}
{"id": "C62", "title": "The parts of a text are expanded independently", "statement": "In a macro set in which every call is written out (brackets are matched, each function-like name is followed by its parenthesis, no ##), expanding a text that begins with a written-out part gives the expansion of that part followed by the expansion of the rest; and a text that is one call gives the body of the macro with the expanded arguments, expanded once more with the macro itself excluded.", "quantifier": "every such macro set and every text whose first part is written out, of any length", "why_tests_cant": "The exclusion of active macros and the position where scanning resumes are global state; only for all texts does it follow that they never leak from one part to the next.", "anchors": ["src/macro_set/mod.rs: MacroSet::expand, MacroSet::expand_macro_body, MacroSet::collect_args"]}
{"id": "C63", "title": "What is generated means what was written", "statement": "The expression or statements that FnMacro::generate and VarMacro::generate emit are those of the macro body, changed only by steps that keep their meaning in C: constants are evaluated, names of types replaced by the types that the context states, adjacent strings joined, character literals given their type, conditions compared with zero, and what can only be told from a cast by knowing the types is made the operation it is. No use of a parameter, variable or function is added, lost or moved.", "quantifier": "every macro body of any size and nesting, every CodegenContext that knows the types it states", "why_tests_cant": "Rewriting is applied bottom-up to arbitrarily nested expressions, with results feeding further steps; only for all trees does it follow that no combination of steps changes the meaning.", "anchors": ["src/ast/expr.rs: Expr::finish", "src/ast/unary_expr.rs, src/ast/binary_expr.rs, src/ast/ternary_expr.rs, src/ast/cast.rs, src/ast/concat.rs", "src/ast/literal/int.rs, src/ast/literal/float.rs: Add, Sub, Mul, Div, Neg", "src/fn_macro.rs: FnMacro::generate", "src/var_macro.rs: VarMacro::generate"]}
{"id": "C64", "title": "String constants suit the Rust version that is targeted", "statement": "The target that a CodegenContext states is read as a SemVer version. A string constant is generated as a CStr exactly if it has no NUL and the target is a release from 1.59 on (or is not stated as a version), and otherwise as a byte array behind a reference, which has the lifetime 'static exactly if the target is older than 1.17.", "quantifier": "every target text, every string and context", "why_tests_cant": "All version texts, including pre-releases, build metadata, leading zeros and huge numbers.", "anchors": ["src/var_macro.rs: VarMacro::generate (56-75)", "src/ast/literal/string.rs: LitString::to_token_stream", "src/codegen/mod.rs: quote_static_ref"]}
{"id": "C65", "title": "Floating-point constants are generated with their value", "statement": "A macro that is an expression of floating-point constants with signs and + - * / is generated as one constant of type f32 if all constants are of type float and f64 otherwise. Its value is that of the C expression, with every constant and every operation rounded to nearest even in its type. Infinities and NaN are generated as such.", "quantifier": "every such expression of any size whose operations do not overflow or divide by zero; every single constant", "why_tests_cant": "All numbers and trees; rounding and conversion between the types at every level.", "anchors": ["src/ast/expr.rs: Expr::finish (499-647)", "src/ast/literal/float.rs: Add, Sub, Mul, Div, LitFloat::finish, LitFloat::to_tokens"]}
{"id": "C66", "title": "A generated macro accepts for each parameter what its uses need", "statement": "In the macro that is generated, a parameter is accepted as $x:ident exactly if its uses make it part of a name (pasted with ##, selected as a member, declared as a function). It is accepted as a type or as a token tree only if it is the type or the member of __builtin_offsetof, is not also turned into text, and the caller did not state its type; and it is if this is its only use. Everything else is accepted as an expression. If a function is generated, each parameter has the type that the caller stated, or else the type of a known function's parameter for which it is passed, and no parameter is used as a name or as text.", "quantifier": "every function-like macro with any body of expressions and statements, every context", "why_tests_cant": "The kind of each parameter is gathered while the whole body is traversed, and the order of uses matters; all trees have to be considered.", "anchors": ["src/codegen.rs: LocalContext::arg_type_mut, MacroArgType", "src/ast/ident.rs, expr.rs, function_call.rs, stringify.rs, decl.rs: finish", "src/ast/fn_macro.rs: FnMacro::generate"]}
{"id": "C67", "title": "A string made of several parts has their text", "statement": "A macro that is a sequence of adjacent string literals is generated as one string with all their bytes. A function-like macro that is a sequence of stringified parameters, parameters given as string literals, and __FILE__ is generated as code that points at the concatenation of these texts. Either is followed by one NUL.", "quantifier": "every such sequence of any length; every user of the generated macro, whatever they give for the parameters and in whatever file", "why_tests_cant": "Any number and order of parts, any texts; what the generated code denotes depends on who uses it.", "anchors": ["src/ast/expr.rs: Expr::finish (ConcatString), Expr::to_tokens (ConcatString)", "src/ast/stringify.rs: to_token_stream_inner, to_token_stream", "src/ast/var.rs: Var::to_tokens", "src/codegen.rs: quote_c_char_ptr"]}
{"id": "C68", "title": "The generated code has the value that C gives to the macro's text", "statement": "Take any history of definitions. If C replaces a variable-like macro by the text of an integer expression, then expanding it, parsing the result and generating code yields that expression, and the generated Rust value is its C value. If a function-like macro is expanded by itself to an integer expression and code is generated, then a call of it is expanded to that expression with the arguments in it, and calling the generated function with the values of the arguments has the value that C gives to the expanded call.", "quantifier": "every history of definitions, every macro, every call with as many arguments as parameters, every integer type and platform, all values", "why_tests_cant": "It relates the output of the whole pipeline to the semantics of two languages, for all programs and values.", "anchors": ["src/macro_set.rs: expand_var_macro, expand_fn_macro", "src/ast/var_macro.rs, src/ast/fn_macro.rs: parse, generate", "src/ast/expr.rs: parse, finish, to_tokens"]}
{"id": "C69", "title": "A function-like macro expanded by itself stands for its calls", "statement": "A caller may ask for the expansion of a function-like macro without a call, with placeholders for its parameters. Filling in what the arguments of a call expand to gives the expansion of that call.", "quantifier": "every history of definitions without # and ##, every function-like macro with any number of parameters, nested to any depth and recursive or not, every call whose arguments leave no macro name to replace and do not begin with a parenthesis", "why_tests_cant": "Both expansions run through arbitrarily nested macros with different texts and different sets of excluded names; their agreement is a simulation between two executions.", "anchors": ["src/macro_set.rs: expand_fn_macro (arguments: None), expand_arguments, expand_macro_body"]}
{"id": "C70", "title": "Generated expressions on integers of several types have the C value and type", "statement": "An expression over parameters of several integer types at least as wide as int and int constants, built with arithmetic, shifts, bitwise operators, comparisons, logical operators, the conditional operator and casts between those types (and, where the cast is not an operand of an operator, to narrower types), is generated as a Rust expression that, whenever Rust gives it a type and C defines a value, evaluates to that value, and has the C type unless it consists of constants or is a truth value; with signed types only it does not panic, with unsigned types it may panic only where C wraps.", "quantifier": "every such expression, every nesting, every assignment of types and values to the parameters, every platform, every type Rust may infer for a literal", "why_tests_cant": "Infinitely many expressions, types and values; the property relates the typing and evaluation of two languages.", "anchors": ["src/ast/expr.rs: Expr::finish, Expr::to_token_stream", "src/ast/cast.rs: Cast::finish, Cast::to_tokens", "src/ast/ty.rs: BuiltInType::to_tokens", "src/ast/literal/int.rs: LitInt::to_tokens", "src/fn_macro.rs: FnMacro::generate", "src/var_macro.rs: VarMacro::generate"]}
{"id": "C71", "title": "A macro that is one literal is a constant with the literal's value", "statement": "A variable-like macro whose text is one character, integer, floating-point or string literal (wide strings, whose width is the context's, are in C31) is expanded, parsed and generated without error, and the constant has the value of the literal: a character constant becomes a cast, to the Rust type of its prefix, of the character with that code, or of the code as a number of the prefix's width when it is no character, whose value in every such integer type is the code converted to it; an integer becomes that number; a floating constant the rounded number of its type; a string the array of its code units and a terminating zero, or a CStr of them.", "quantifier": "every literal text of scalar characters, every name, every history of definitions in which the name is defined as that text, every CodegenContext (that gives wchar_t an integer type, for wide characters)", "why_tests_cant": "Infinitely many literals, prefixes, escapes and contexts; codes that are no characters, like lone surrogates, need a different Rust literal.", "anchors": ["src/ast/literal/char.rs: LitChar::finish, LitChar::to_tokens", "src/ast/literal/int.rs: LitInt::to_tokens", "src/ast/literal/float.rs: LitFloat::to_tokens", "src/ast/literal/string.rs: LitString::to_token_stream", "src/var_macro.rs: VarMacro::parse, VarMacro::generate", "src/macro_set/mod.rs: MacroSet::expand_var_macro"]}
{"id": "C72", "title": "What is accepted as an expression is a C expression with that tree", "statement": "If a function-like or variable-like macro is parsed successfully and its body is kept as an expression, then the body is an expression of the C grammar (6.5) and the kept tree is one that the grammar gives it. Nothing that is no C expression is accepted as one, and nothing is grouped in a way that C does not allow, except where the text or the tree departs from C in a listed way: a keyword or type used as a value, an assignment to or increment of what is no unary expression, sizeof indexed or incremented, the prefix of a literal apart from it.", "quantifier": "every token list as a body, every name and parameter list, every set of type names", "why_tests_cant": "Infinitely many token lists; the property is about all texts that are accepted, including ones nobody thought to write.", "anchors": ["src/ast/expr.rs: Expr::parse, Expr::parse_factor, Expr::parse_term_prec1 to parse_term_prec14", "src/ast/ty.rs: Type::parse", "src/ast/identifier_expr.rs: IdentifierExpr::parse_concat_ident", "src/ast/literal/string.rs: LitString::parse", "src/macro_body.rs: MacroBody::parse", "src/fn_macro.rs: FnMacro::parse", "src/var_macro.rs: VarMacro::parse"]}
{"id": "C73", "title": "What is accepted as statements is C statements with those trees", "statement": "If a function-like or variable-like macro is parsed successfully and its body is kept as a statement, then the body is a list of statements of the C grammar (6.8, 6.7) and the kept trees are ones that the grammar gives them: every block, branch, loop, declaration and expression is where C puts it, and nothing that is no C statement is accepted, except where the text or the tree departs from C in a listed way: a do statement without its semicolon before the end, a keyword used as a name, or an assembly template or constraint of which C48 and C59 say that it is not handled.", "quantifier": "every token list as a body, every name and parameter list, every set of type names", "why_tests_cant": "Infinitely many token lists and nesting depths; the property is about all texts that are accepted, including ones nobody thought to write.", "anchors": ["src/ast/statement.rs: Statement::parse, Statement::parse_single", "src/ast/var_decl.rs: VarDecl::parse", "src/ast/function_decl.rs: FunctionDecl::parse", "src/macro_body.rs: MacroBody::parse", "src/fn_macro.rs: FnMacro::parse", "src/var_macro.rs: VarMacro::parse"]}
{"id": "C74", "title": "Generating the code of a macro again gives the same code", "statement": "generate takes the macro by mutable reference and rewrites its body in place. However often it has been called on a macro with the same context, the next call returns the same tokens and type as the first successful one.", "quantifier": "every macro, every codegen context, every number of earlier calls", "why_tests_cant": "A property of histories of calls: infinitely many bodies, contexts and numbers of calls, and the tests call generate once on each macro.", "anchors": ["src/var_macro.rs: VarMacro::generate", "src/fn_macro.rs: FnMacro::generate", "src/ast/expr.rs: Expr::finish, Expr::finish_condition", "src/ast/statement.rs: Statement::finish", "src/ast/ty.rs: Type::finish"]}
{"id": "C75", "title": "Only what the context says about the names of the macro matters", "statement": "The result of generate, and what is left of the macro, depend on the codegen context only through its target, its paths, and what it states about the names in the macro (its own name and its parameters if it is function-like, the variables, functions, types and fields in its body), about wchar_t and size_t, and about the names in the types it states for these. Two contexts that agree on those give the same result: what a context knows about other names never changes the code of a macro.", "quantifier": "every macro with every body, every two codegen contexts, every set of names they agree on", "why_tests_cant": "It compares all pairs of contexts, which are arbitrary functions, on all macros; a test uses a few fixed contexts.", "anchors": ["src/context.rs: CodegenContext", "src/var_macro.rs: VarMacro::generate", "src/fn_macro.rs: FnMacro::generate", "src/ast/ty.rs: Type::finish", "src/ast/var.rs: Var::finish, Var::to_tokens", "src/ast/function_call.rs: FunctionCall::finish", "src/ast/binary_expr.rs: BinaryExpr::finish", "src/ast/literal/string.rs: LitString::to_token_stream"]}
{"id": "C76", "title": "An error of generate is about something in the macro and the context", "statement": "When generate returns an error, the macro holds what the error is about. UnsupportedType names a type name that the macro uses (in a cast, in sizeof, in a declaration, wchar_t for a wide literal, or the name that the context states for such a name) and that the context does not know, or a type that the context states for something the macro uses and that is neither a path nor a pointer to one. Each UnsupportedExpression message comes with the construct it names: a ## with an integer, a # of something other than a parameter, __LINE__ or __FILE__, a dereference, a complement, a wide string or a variable among strings that are concatenated, a call in a variable-like macro. NonConstantVarMacro is returned for variable-like macros only, and only if there is a variable that the context does not know as a constant, __LINE__, __FILE__ or an assignment. NonExpressionVarMacro is returned exactly for variable-like macros that are statements. generate never returns RecursiveDefinition. So a macro without any of these is generated, unless generate panics.", "quantifier": "every variable-like and function-like macro, every body, every codegen context, every error", "why_tests_cant": "It excludes spurious errors for all macros and contexts; a test can only show for one macro that it is not rejected.", "anchors": ["src/error.rs: CodegenError", "src/var_macro.rs: VarMacro::generate", "src/fn_macro.rs: FnMacro::generate", "src/ast/expr.rs: Expr::finish", "src/ast/ty.rs: Type::finish, Type::from_rust_ty", "src/ast/identifier_expr.rs: IdentifierExpr::finish", "src/ast/stringify.rs: Stringify::finish", "src/ast/unary_expr.rs: UnaryExpr::finish", "src/ast/function_call.rs: FunctionCall::finish"]}
{"id": "C77", "title": "Code is generated only for macros whose types are known and whose # , ## and strings are supported", "statement": "If generate succeeds, then the context knows every type name written in the macro, and wchar_t if there is a wide literal; # is applied to parameters, __LINE__ and __FILE__ only; no ## has an integer operand; no wide string and no variable except __FILE__ stands among strings that are concatenated; ~ is not applied to a floating-point or string literal; and a variable-like macro is an expression without calls. This holds although an unsupported expression under a cast is retried as a multiplication.", "quantifier": "every variable-like and function-like macro, every body however deeply nested, every codegen context", "why_tests_cant": "A test shows that one offending macro is rejected; that none is let through, at any depth and through any rewriting, ranges over all macros and contexts.", "anchors": ["src/var_macro.rs: VarMacro::generate", "src/fn_macro.rs: FnMacro::generate", "src/ast/expr.rs: Expr::finish", "src/ast/ty.rs: Type::finish", "src/ast/statement.rs: Statement::finish"]}
{"id": "C78", "title": "The names of the parameters of a macro do not matter", "statement": "If the parameters of function-like macros are given other names, consistently in the parameter list and the replacement text and without clashing with other tokens of the definition, then expand and expand_var_macro give the same tokens or the same error (the error about a repeated parameter contains its name), and expand_fn_macro gives the same replacement text together with the renamed parameters.", "quantifier": "every macro set, every consistent renaming of the parameters of any of its function-like macros (variadic ones included), every text and every macro expanded", "why_tests_cant": "A test renames one parameter of one macro; that no expansion, however nested and whatever it stringifies or pastes, depends on the names ranges over all macro sets, renamings and texts.", "anchors": ["src/macro_set/mod.rs: MacroSet::expand", "src/macro_set/mod.rs: MacroSet::expand_fn_macro", "src/macro_set/mod.rs: MacroSet::expand_var_macro", "src/macro_set/mod.rs: tokenize_arg_names", "src/macro_set/mod.rs: tokenize"]}
{"id": "C79", "title": "Only the macros whose names occur matter for an expansion", "statement": "Take a set of names that contains the names in a text and, for each macro whose name is in the set, the names in its replacement text that are not its parameters. Two macro sets that agree on these names expand the text to the same tokens or with the same error. Without ## any such set of names will do; with ## the set has to contain, with a name, the longer names that begin with it, since pasting makes such names. In particular a name that is spelled nowhere can be defined, redefined and undefined without changing any expansion.", "quantifier": "every pair of macro sets, every set of names they agree on that contains what occurs, every text, variable-like and function-like macro", "why_tests_cant": "A test adds one unrelated definition; that no definition outside the mentioned names can be reached through any chain of expansions, arguments or pastes ranges over all macro sets and texts.", "anchors": ["src/macro_set/mod.rs: MacroSet::expand", "src/macro_set/mod.rs: MacroSet::expand_fn_macro", "src/macro_set/mod.rs: MacroSet::expand_var_macro", "src/macro_set/mod.rs: expand_macro_body"]}
{"id": "C80", "title": "An error's message tells which error it is", "statement": "Two errors returned by parsing, expansion or code generation that have the same message are the same error, with the same name, type, expression, token and numbers of arguments in it, whatever characters these hold. The numbers of arguments that a macro requires and was given are in the message in decimal. A token that is quoted in a message is written with displayable characters only.", "quantifier": "every pair of errors of the three error types with any strings and numbers in them, and every choice of the characters that the standard library takes for printable", "why_tests_cant": "Tests compare a few messages; that no name, however odd, makes two errors look alike, and that quoting can be undone for every token, ranges over all strings and numbers.", "anchors": ["src/error.rs: impl fmt::Display for ParserError", "src/error.rs: impl fmt::Display for CodegenError", "src/macro_set/mod.rs: impl fmt::Display for ExpansionError"]}
{"id": "C81", "title": "Expansion gives what the C preprocessor gives", "statement": "Expanding a text, or the replacement text of a macro, gives the tokens that the C standard's description gives: the text is read once from left to right, each invocation is replaced by its body with the fully expanded arguments (after # the argument as written, as a string literal), expanded again while the macro itself is excluded, the name of an excluded macro is never replaced later, and reading goes on behind the invocation; what has been read is not looked at again.", "quantifier": "every macro set and text, with any recursion between object-like and function-like macros, any nesting of calls and any number of arguments", "why_tests_cant": "Tests compare the output for a few macros with that of a compiler; that restarting from the beginning after every replacement never gives anything else than a single pass ranges over all sets, texts and depths of nesting.", "anchors": ["src/macro_set/mod.rs: MacroSet::expand", "src/macro_set/mod.rs: MacroSet::expand_var_macro", "src/macro_set/mod.rs: expand_macro_body", "src/macro_set/mod.rs: expand_fn_macro_body", "src/macro_set/mod.rs: MacroSet::expand_fn_macro"]}
{"id": "C82", "title": "Macros without mistakes are expanded", "statement": "If no macro is used wrongly, expansion succeeds: when in every replacement text and in the text to expand the brackets are matched, every function-like macro is called with the number of arguments it takes, # stands in front of parameters only, a comma outside of brackets does not occur in replacement texts and arguments, and every word is a C token, then MacroSet::expand and MacroSet::expand_var_macro return tokens, whatever recursion there is between the macros: no arity error, no invalid concatenation, no missing macro and no endless expansion arises on the way.", "quantifier": "every macro set without ## and, if # is used, without __LINE__ and __FILE__, with any recursion, variadic macros and nesting of calls, and every text", "why_tests_cant": "A test shows that some correct macros are expanded; that no correct set and text, after any number of replacements, runs into one of the errors ranges over all of them.", "anchors": ["src/macro_set/mod.rs: MacroSet::expand", "src/macro_set/mod.rs: MacroSet::expand_var_macro", "src/macro_set/mod.rs: expand_fn_macro_body"]}
{"id": "C83", "title": "A function-like macro without mistakes is expanded by itself", "statement": "In a set of macros that are used without mistakes (as in C82), MacroSet::expand_fn_macro returns the parameters and a replacement text for every function-like macro, whatever recursion there is between the macros.", "quantifier": "every macro set without mistakes, without ## and, if # is used, without __LINE__ and __FILE__, and every function-like macro in it", "why_tests_cant": "A test expands some macros by themselves; that parameters left in calls of other macros never lead to an error ranges over all sets.", "anchors": ["src/macro_set/mod.rs: MacroSet::expand_fn_macro", "src/macro_set/mod.rs: expand_fn_macro_body"]}
{"id": "C84", "title": "Arguments of generated calls are converted", "statement": "A call in a macro is generated as a call of the same function with the same arguments in the same order. An argument is passed as it is if it is a literal, a null pointer (zero as a pointer), the rest of the arguments, or a parameter of a generated function, whose types are known; every other argument is followed by .into(), so that it gets the type of the parameter. The arguments of __builtin_offsetof are never converted.", "quantifier": "every call with any number of arguments of any form, in functions and macros", "why_tests_cant": "The arguments may be any expressions; a test shows the conversion of some.", "anchors": ["src/ast/function_call.rs: FunctionCall::to_tokens", "src/ast/ty.rs: Type::is_ptr"]}
{"id": "C85", "title": "Assembly in AT&T syntax is generated with the option att_syntax", "statement": "GCC reads the templates of assembly statements in AT&T syntax, Rust's asm! in Intel syntax unless the option att_syntax is given. The generated call has this option whenever its template is AT&T syntax: if a register or an immediate value is written the AT&T way, if an operand stands right after a parenthesis, and also if the order of the operands is all that tells.", "quantifier": "every assembly statement, with any template, operands and clobbers", "why_tests_cant": "The option depends on the whole template, on every line of it; tests show a few templates, and the ones in the project do not look at templates that have operands only.", "anchors": ["src/ast/asm.rs: Asm::is_att_syntax, Asm::to_tokens, Asm::parse_template"]}
{"id": "C86", "title": "The call generated for an assembly statement is complete and valid", "statement": "The generated asm! call consists of the lines of the template, the outputs (merged with the inputs that name them), inputs of the statement, every clobber but memory and cc exactly once, clobber_abi(\"C\") exactly if there are such clobbers, and exactly the options att_syntax, nomem and preserves_flags that apply, each once. Assembly with a line that starts with .globl, .global or .section is generated as global_asm!, with arguments that global_asm! accepts.", "quantifier": "every assembly statement, with any template, operands and clobbers", "why_tests_cant": "The arguments depend on all of the template, the operands and the clobbers together.", "anchors": ["src/ast/asm.rs: Asm::to_tokens, Asm::is_global"]}
{"id": "C87", "title": "References of an assembly template mean the operands they mean in C", "statement": "GCC counts the operands of an assembly statement from 0, the outputs and then the inputs, and so does asm!. In the generated call the n-th operand is the one that %n means in the C template, for outputs and inputs, whether or not inputs are merged with outputs.", "quantifier": "every assembly statement with any number of operands, any constraints and any expressions", "why_tests_cant": "The positions depend on the number and order of all operands and on which of them are merged.", "anchors": ["src/ast/asm.rs: Asm::to_tokens (243-250), Asm::parse_template"]}
