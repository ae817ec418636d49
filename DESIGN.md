# Formal model of cmacro-rs in Rocq

Everything below is about `/repo/src` at the pinned commit, read as text. The model lives in
`rocq/theories` (logical name `Verif`); the properties are in `properties.jsonl`, the theorems that
settle them in `MANIFEST.json`.

## Layout

| layer | files | content |
|---|---|---|
| base | `Base`, `Utf` | strings as lists of code points, the Unicode oracle, the result type `ROk / RErr / RPanic / RFuel`; UTF-8/16 |
| lexical model | `Lex`, `LexFloat` | parsers on strings: `src/ast/{identifier,punctuation,comment,literal}.rs`, `src/ast/literal/*.rs` |
| macro set model | `Token`, `MacroSet` | `src/macro_set/mod.rs`, `src/macro_token/mod.rs` |
| syntax and parser model | `Ast`, `Nom`, `ParseTok`, `ParseExpr`, `ParseStmt` | the parsers on token slices: `src/ast/*.rs`, `src/macro_body.rs`, `parse` of `FnMacro`/`VarMacro` |
| generation model | `Rust`, `Finish`, `Codegen` | Rust tokens and `syn` types, `src/context.rs`, `src/codegen/mod.rs`; the `finish` methods; the `to_tokens` and `generate` methods |
| replayed unit tests | `TestsMacroSet`, `TestsParse`, `TestsCodegen` | the crate's own tests, evaluated in the model (a check of the model, not proofs of properties) |
| specifications | `Spec*` | small definitions the theorems talk about, independent of the model's helpers |
| lemmas | `*Facts`, `FinishEq`, `ExpandInv` | |
| properties | `Prop*` | the theorems, beside each a non-trivial case, and `Print Assumptions` |

Conventions:

* A Rust panic (index, slice, `unwrap`, `unreachable!`, division by zero, `Ident::new` on something that
  is no identifier) is an explicit value (`RPanic`, `FPanic`, `None` of a token function).
* Recursion that is not structural is driven by explicit fuel; running out of it is an explicit value
  (`RFuel`, `PFuel`, `FFuel`). For the parsers and for type inference it is proved that it never runs out
  (C34, `expr_fuel`). For expansion the theorems say when some fuel suffices (C08, C52) and when none does.
* Where the code violates a property, the theorem is named `..._refuted` and exhibits an input (through the
  public entry points where possible); next to it stands the strongest version that was proved (`..._partial`).
* Every definition of the model cites the lines of `/repo/src` it models; simplifications are stated there.

## How each property is proved

* C01, C02, C04-C06: define/undefine as a state machine; refinement to a function from names to definitions
  by induction over the history. C03: exact description of the returned flag, with the tokens that do not count specified in `SpecSet`; refuted (prefix comparison).
* C07: inductive relation of ISO C rescanning with hide sets (`SpecRescan`); soundness and completeness.
* C08: termination for object-like sets by a measure, and for sets in which every call is written out (`SpecComplete`)
  by induction on the macros not yet excluded; divergence for every fuel of two mutually recursive macros, and of two that are not recursive.
* C09-C11, C19, C22-C24: invariants of the scan, carried by a general preservation lemma (`ExpandInv`).
* C12: grammar of balanced runs (`SpecCall`), equivalent to the collector.
* C13-C15, C52-C55: relation of leftmost replacement with arguments (`SpecExpand`), equivalent to `expand`
  including divergence; every error has a cause.
* C16: panics of expansion: conditions under which none occurs, witnesses otherwise.
* C17, C18: spelling and pasting relation (`SpecPaste`). C20: stringification (`SpecStringify`).
* C21, C47: parameter lists (`SpecTokens`, `SpecParams`).
* C25-C33: declarative grammars and values of literals (`SpecInt`, `SpecString`, `SpecFloatLit`), parser iff grammar.
* C34: fuel linear in the number of tokens suffices.
* C35, C51, C59 (parsing): the supported part of the C grammar as inductive relations (`SpecGrammar`,
  `SpecStmtGrammar`, `SpecAsmGrammar`), with the token classes that make them unambiguous, including pasted names and strings
  of several parts; the parser returns the tree of the grammar; inference keeps the grouping (`SpecKeep`).
* C36, C51 (printing), C56: an independent reader of Rust tokens (`SpecRustExpr`, `SpecStmt`); the generated
  tokens are read as the intended tree, and evaluated (`SpecValue`) to the C value.
* C40, C56: C values with types, promotions and the usual arithmetic conversions, for every platform, and Rust
  values in which all numbers have one type (`SpecValue`); parameters and casts have one signed or unsigned type at
  least as wide as `int`.
* C37, C41: C values of constants for every data model (`SpecFold`).
* C38: an invariant of parsed trees (`ParseSafeFacts`), kept by inference (`SafeFacts`) and sufficient for
  printing (`SafeGenFacts`).
* C39: runs of volatile accesses (`SpecVolatile`).
* C42-C44: table of C11 type specifiers (`SpecType`); Rust types and back.
* C45, C46: which item is generated, from an independent list of what needs a macro (`SpecGen`).
* C48-C50: translation of assembly templates and operands (`SpecAsm`); the translation is unique (`C48_exact`).
* C57: types given as text by the context are read back as the type they denote. C58: a pasted name denotes
  the concatenation of its operands.
* C60: grammar of identifiers with universal character names and of comments (`SpecLexical`), parser iff grammar.
* C61: the typing rules of Rust expressions, over any meaning of the names (`SpecRustType`); every typing of the
  tree that the generated tokens are read as gives the declared type. By an invariant of inference that relates
  the type found for an expression to every typing of its tree (`RustTypeFacts`).
* C62: an automaton over brackets and function-like names shows that no call of a written-out part reaches past its end;
  then the expansion of a text is the concatenation of those of its parts, by the relation of C14.
* C63: a preorder on expressions generated by the C rules for constants, strings, types, conditions and ambiguous casts
  (`SpecMeaning`); every result of inference is in it, by induction on the weight of the expression, up to the
  approximations that are listed there and refuted one by one. The text is read as that expression by C36 and C51.
* C64: grammar of SemVer versions (`SpecTarget`), parser iff grammar; then the form of a string constant by cases.
* C65: evaluation of floating-point expressions over the reals with rounding to nearest even (`SpecFloatGen`), by induction
  on the expression with Flocq's correctness of the operations and uniqueness of the rounding (`FloatOpFacts`).
* C66: the uses of a parameter as an independent relation over the syntax (`SpecFragment`); by induction over the body,
  every change that inference makes to what is known of a parameter is explained by a use, and every use settles it
  (`FragmentFacts`). Uses as the type of a cast, of `sizeof` or of a variable, and as the name of a variable, are
  overlooked by the code (`C66_cast_refuted`, `C66_sizeof_refuted`, `C66_declared_refuted`); of two kinds of use the
  text wins (`C66_text_refuted`).
* C67: the text of the parts, and what `concat!`, `stringify!` and `file!` denote in generated tokens (`SpecText`); the
  merging of literals by induction over the list, then reading the generated block back. Literals beside other parts,
  pasted names, `#__LINE__`, `#__FILE__` and parameters of generated functions fail (`C67_*_refuted`).
* C68: the chain C52, C35, C56 for a variable-like macro, from the C replacement of its text (`SpecExpand`) to the value of
  the tokens of its value; for a function-like macro also C69 and a substitution lemma for the C grammar: the expanded call
  is a C expression, and its C value is that of the generated function at the values of the arguments
  (`C68_variable_partial`, `C68_call_partial`).
* C69: simulation between the expansion of the body with placeholders and with the expanded arguments (`SelfFacts`).  Without
  the hypotheses on arguments it fails, as it must in C (`C69_*_refuted`).
* C70: Rust typing and evaluation over several integer types as one relation (`SpecMixed`): every type that Rust may give the
  tree. By induction on the tree; first its types, then its values, then that inference keeps the C type and value.
* C71: expansion and parsing of one literal (C25, C27, C28, C32, C35) composed with generation (C31, C65); for characters the
  tree of C36 and the evaluation relation of C70 (`PropChar`).
* C72: the converse of C35. By induction on the fuel of the parser, each of its levels returns a tree that the grammar derives
  from the tokens it consumed (`AcceptFacts`); the conditions on text and tree (`SpecAccept`) are shown to be needed by
  `C72_*_refuted`.
* C73: the converse of C51, from C72 by induction on the fuel of the statement parser (`StmtAcceptFacts`). An else is read with
  the nearest if because the text after an if that was read without one has no else that can follow (`else_ok`).
  Inline assembly is in `AsmAcceptFacts`: a string ends where no string follows, because the parser then found a colon, a comma or a parenthesis.
* C74: `var_generate` and `fn_generate` return the rewritten macro, so a history of calls is an iteration. Finishing a finished
  tree changes nothing and has the same outcome (`AgainFacts`, by induction on trees), for trees in the fragment of `SpecAgain`
  and contexts that resolve type names to types they resolve to themselves. Outside the fragment the property is false:
  character literals are cast again, `!0` loses its type, a floating-point condition is compared with `0.0` the second time, a
  resolved typedef is looked up again and fails, and inference finds less when a rewritten cast is finished only once. `#`,
  `##` and members change the kinds of parameters: what finishing does to the context is a list of actions (`act`) that commute and
  may be repeated, so parameters without a type may be used in these ways. For parameters with a type it is refuted. Products of
  casts `(T)(n)*(T)e` are left out without a counterexample.
* C75: `SpecLocal` says which names occur in a tree, when two contexts agree on a set of names, and when the set is closed under
  the types that a context states. Finishing keeps the names in the set and gives equal outcomes (`LocalFacts`, by induction on
  fuel and trees); so does printing. Closure is needed (`C75_resolved_needed`): a cast that is rewritten to an operator is
  finished again, after its types have been replaced.
* C76: `SpecCause` lists what occurs in a macro and, for each error, its cause. Finishing keeps a tree within a set of names and
  features, and its errors are about those (`CauseFacts`, by induction on fuel and trees); a body is within its own
  (`CauseSelf`). A finding: `*"x"` in a function-like macro is a "dereference of non-pointer", as the type of a string is a
  qualified pointer.
* C77: the converse for the causes that always give an error (`CleanFacts`). The only error that generation recovers from is an
  unsupported expression under a cast, which it finishes again as a multiplication; the invariant says that a partly finished
  tree still holds the offending part. That `~` is not applied to a literal it has no meaning for is `ComplFacts`.
* C78: `SpecRename` says what a renaming of parameters is. Parameters are replaced by numbers before anything else happens, so
  that renamed definitions become the same tokens (`RenameFacts`), and equal tokens are expanded alike, by induction on fuel
  and text. A parameter written with a universal character name is excluded: it is never found in the replacement text
  (`C78_plain_needed`).
* C79: `SpecMention` says what it means that the names of a text and of macros are in a set. The tokens of an expansion stay in
  the set, and each step looks up names of the set only (`MentionFacts`). For texts with `##` the invariant also says that no
  token other than a name begins with a name; names that are pasted then begin with a name of the set.
* C80: `Display` models the messages of the three error types, with the quoting that `{:?}` does; which characters the standard
  library prints is a parameter. Messages of different errors differ at their ends or beginnings; numbers and quoted characters
  are read back (`DisplayFacts`).
* C81: `SpecCpp` is a big-step description of a single pass over the text, independent of the restarts of the code. Equivalent to
  the relation of C52 by induction on the macros not yet excluded and the length of the text; a text splits after every call
  (`CppFacts`). `#` before a parameter is covered: the string is made of the argument as written. Refuted for function-like names
  without arguments.
* C82: `SpecProper` says what a text without mistakes is. In such a text every reading goes on (`ProgressFacts`): the expanded
  arguments and the filled bodies are again without mistakes, so that a single pass (C81) reaches the end; what comes out can be
  delivered. By induction on the macros not yet excluded and the length of the text.
* C83: C82 carried over to function-like macros expanded by themselves. Without `#` the substitution lemma of C69 is enough: the
  parameters become names (`PropAlone`, for C81). With `#` what is expanded alone and what is expanded with names differ where a
  string is made, so the two runs are compared by a simulation that lets such blocks differ (`BlockFacts`, `PropFunction`).
* C84: the tree of a call (`SpecTree.passed`) says which arguments are converted; the theorem is C36's reading of the tokens, for calls.
* C85: `PropAsmSyntax`: the option is in the generated call exactly if some line of the template contains %, $ or `({` (C85_syntax);
  with C48's reading of templates: exactly if the template of GCC names a register, has a $ or has an operand right after a
  parenthesis (C85_template_partial). Refuted for templates with operands only, e.g. `movl %1, %0`.
* C86: `PropAsmSyntax`: the arguments of the generated call, completely, as five lists with their specification; refuted for
  `global_asm!`, whose clobbers are generated as operands.
* C87: `PropAsmRef`: the arguments of the call that count as operands, in order, against the operands of the statement; exact position
  of an input when inputs are merged; refuted there (`%2` after a matching constraint has no operand).

No property in the list is inexpressible in the model. A property whose formal part is incomplete is marked
`partial` in `MANIFEST.json`, with the missing part in the note and above the theorem.

## What is modelled, and what is not

Modelled function by function: all of `src/macro_set/mod.rs`, `src/ast`, `src/macro_body.rs`,
`src/fn_macro.rs`, `src/var_macro.rs`, `src/context.rs`, `src/codegen/mod.rs`.

Not modelled: `Debug`/`Error` implementations and `Display` other than of errors, the accessors (`name`, `args`, `body`, `value`,
`as_str`), `From` conversions between token types, test macros, lifetimes and borrowing
(`Cow` is a plain string), and memory exhaustion and stack overflow (fuel is not stack depth).

Simplifications, each repeated at its definition:

* `str` is a list of scalar values; byte slices are computed by UTF-8 encoding where the code asks for bytes.
* Unicode classes (`XID_Start`, `XID_Continue`, the escaping of `{:?}`) beyond ASCII are an oracle, a class
  `Unicode` with one law (start implies continue); every theorem holds for every such oracle. `demo_unicode`
  is an instance for the examples.
* `HashMap` is an association list; iteration order is never used by the code.
* `CodegenContext` methods are functions of their arguments (no interior mutability).
* nom's error values carry no data, as the crate discards them. nom's combinators are modelled in `Nom`/`Lex`.
* `f32`/`f64` are the standard library's `spec_float`; std's decimal-to-float conversion is modelled as exact
  rational rounding to nearest even (specified by std's documentation; trusted). NaN payloads are not modelled.
* `proc_macro2` tokens: identifiers, punctuation strings, literals, groups. Joint/alone spacing of punctuation
  is abstracted (`quote!` emits multi-character operators as one unit). `syn` types are raw pointers, unit,
  paths, verbatim tokens, others.
* `i128` arithmetic of constants is exact with the overflow behaviour of the code's `wrapping`/`checked` calls.

## Trusted base

* Coq 8.16.1's kernel (with `vm_compute`, used for examples and refutation witnesses).
* The correspondence between the model and the Rust source, which is by reading, supported by the replayed
  unit tests.
* The specifications in `Spec*.v`.
* Axioms: `Print Assumptions` answers `Closed under the global context` for every theorem named in
  `MANIFEST.json`, except `C32_value`, `C71_float`, `C65_value`, `C65_anywhere` and `C65_mixed_refuted`, which are stated over the
  real numbers and use the standard library's
  `ClassicalDedekindReals.sig_not_dec`, `ClassicalDedekindReals.sig_forall_dec`,
  `FunctionalExtensionality.functional_extensionality_dep` and `Classical_Prop.classic` (through Flocq's
  theory of rounding).

## Tests of the theorems

`seeded/LOG.jsonl` records edits of the model that mimic realistic bugs, made in a scratch copy, with the
theorems that stopped proving and the theorems tightened as a consequence.
