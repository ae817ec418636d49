(** The crate's end-to-end tests (tests/headers.rs), run against the model: each
    header of tests/fixtures is tokenised as clang does it, every macro is
    expanded, parsed and generated, and the tokens are compared with the expected
    Rust file.  (The pretty-printer used by the tests drops the empty statements of
    volatile_ptr and the trailing comma of an array; here the empty statements
    are added and the commas removed.)  Generated by a script from the fixtures; sanity checks of the
    model, not proofs of properties. *)
From Verif Require Import Base Utf Lex LexFloat Token MacroSet Ast Nom ParseTok ParseExpr ParseStmt Rust Finish Codegen.
From Coq Require Import String SpecFloat List.
Import ListNotations.
Local Open Scope string_scope.
Local Open Scope list_scope.

#[local] Existing Instance demo_unicode.
Definition name_ty (n : str) : sty := STPath None (mk_path false [(n, [])]).
(** [TestContext], tests/headers.rs:95-127. *)
Definition test_ctx (fns : list (str * (list sty * sty))) : cgctx :=
  mk_cgctx None None None (fun _ _ => None) (fun _ => None)
    (fun n => if str_eqb n (st "size_t") then None else Some (name_ty n))
    (fun _ _ => None)
    (fun n => sm_get fns n).
Inductive def := DVar (name : str) (body : list str) | DFn (name : str) (args body : list str).
Definition def_name (d : def) : str := match d with DVar n _ => n | DFn n _ _ => n end.
Definition test_set (l : list def) : macro_set :=
  fold_left (fun m d => match d with
    | DVar n b => fst (define_var_macro m n b)
    | DFn n a b => fst (define_fn_macro m n a b)
    end) l ms_new.
(** [main], 158-188: errors are only printed. *)
Definition test_gen (cx : cgctx) (l : list def) : list rtok :=
  let ms := test_set l in
  flat_map (fun d =>
    let n := def_name d in
    match expand_fn_macro ms 60 n with
    | ROk (args, body) =>
      match fn_macro_parse n args body with
      | ROk m => match snd (fn_generate cx m) with ROk ts => ts | _ => [] end
      | _ => []
      end
    | _ => []
    end ++
    match expand_var_macro ms 60 n with
    | ROk body =>
      match var_macro_parse n body with
      | ROk m =>
        match snd (var_generate cx m) with
        | ROk (v, t) =>
          [ri "pub"; ri "const"; RId n; rp ":"] ++ match t with Some t => t | None => [ri "_"] end ++
          [rp "="] ++ v ++ [rp ";"]
        | _ => []
        end
      | _ => []
      end
    | _ => []
    end) l.

(** tests/fixtures/arg_call.h *)
Definition h_arg_call : list def :=
  [DFn (st "F") [] [(st "777")];
   DFn (st "ARG_CALL") [(st "F")] [(st "F"); (st "("); (st ")")]].
Example fixture_arg_call : test_gen (test_ctx []) h_arg_call =
  [rp "#"; RGroup DBracket [ri "doc"; RGroup DParen [ri "hidden"]]; rp "#"; RGroup DBracket [ri "macro_export"]; ri "macro_rules"; rp "!"; ri "__cmacro__F"; RGroup DBrace [RGroup DParen []; rp "=>"; RGroup DBrace [RLit (RlInt 777 (st ""))]; rp ";"]; ri "pub"; ri "use"; ri "__cmacro__F"; ri "as"; ri "F"; rp ";"; rp "#"; RGroup DBracket [ri "doc"; RGroup DParen [ri "hidden"]]; rp "#"; RGroup DBracket [ri "macro_export"]; ri "macro_rules"; rp "!"; ri "__cmacro__ARG_CALL"; RGroup DBrace [RGroup DParen [rp "$"; ri "F"; rp ":"; ri "expr"]; rp "=>"; RGroup DBrace [rp "$"; ri "F"; RGroup DParen []]; rp ";"]; ri "pub"; ri "use"; ri "__cmacro__ARG_CALL"; ri "as"; ri "ARG_CALL"; rp ";"].
Proof. vm_compute. reflexivity. Qed.

(** tests/fixtures/array_access.h *)
Definition h_array_access : list def :=
  [DFn (st "_REENT_INIT_PTR_ZEROED") [(st "var")] [(st "{"); (st "("); (st "var"); (st ")"); (st "->"); (st "_stdin"); (st "="); (st "&"); (st "__sf"); (st "["); (st "0"); (st "]"); (st ";"); (st "("); (st "var"); (st ")"); (st "->"); (st "_stdout"); (st "="); (st "&"); (st "__sf"); (st "["); (st "1"); (st "]"); (st ";"); (st "("); (st "var"); (st ")"); (st "->"); (st "_stderr"); (st "="); (st "&"); (st "__sf"); (st "["); (st "2"); (st "]"); (st ";"); (st "}")];
   DFn (st "ARRAY_ACCESS") [(st "a")] [(st "a"); (st "["); (st "0"); (st "]")];
   DFn (st "ARRAY_FIELD_ACCESS") [(st "a")] [(st "a"); (st "["); (st "0"); (st "]"); (st "."); (st "field")];
   DFn (st "FIELD_ARRAY_ACCESS") [(st "a")] [(st "a"); (st "."); (st "field"); (st "["); (st "0"); (st "]")];
   DFn (st "NESTED_ARRAY_ACCESS") [(st "a")] [(st "a"); (st "["); (st "1"); (st "]"); (st "["); (st "2"); (st "]")];
   DFn (st "NESTED_ARRAY_ACCESS_CONVOLUTED") [(st "a")] [(st "("); (st "*"); (st "("); (st "&"); (st "a"); (st "["); (st "1"); (st "]"); (st ")"); (st ")"); (st "["); (st "2"); (st "]")]].
Example fixture_array_access : test_gen (test_ctx []) h_array_access =
  [rp "#"; RGroup DBracket [ri "doc"; RGroup DParen [ri "hidden"]]; rp "#"; RGroup DBracket [ri "macro_export"]; ri "macro_rules"; rp "!"; ri "__cmacro___REENT_INIT_PTR_ZEROED"; RGroup DBrace [RGroup DParen [rp "$"; ri "var"; rp ":"; ri "expr"]; rp "=>"; RGroup DBrace [RGroup DBrace [RGroup DBrace [RGroup DParen [rp "*"; rp "$"; ri "var"]; rp "."; ri "_stdin"; rp "="; ri "ptr"; rp "::"; ri "addr_of_mut"; rp "!"; RGroup DParen [rp "*"; ri "__sf"; rp "."; ri "add"; RGroup DParen [RLit (RlInt 0 (st ""))]]; rp ";"; RGroup DParen [rp "*"; rp "$"; ri "var"]; rp "."; ri "_stdin"]; rp ";"; RGroup DBrace [RGroup DParen [rp "*"; rp "$"; ri "var"]; rp "."; ri "_stdout"; rp "="; ri "ptr"; rp "::"; ri "addr_of_mut"; rp "!"; RGroup DParen [rp "*"; ri "__sf"; rp "."; ri "add"; RGroup DParen [RLit (RlInt 1 (st ""))]]; rp ";"; RGroup DParen [rp "*"; rp "$"; ri "var"]; rp "."; ri "_stdout"]; rp ";"; RGroup DBrace [RGroup DParen [rp "*"; rp "$"; ri "var"]; rp "."; ri "_stderr"; rp "="; ri "ptr"; rp "::"; ri "addr_of_mut"; rp "!"; RGroup DParen [rp "*"; ri "__sf"; rp "."; ri "add"; RGroup DParen [RLit (RlInt 2 (st ""))]]; rp ";"; RGroup DParen [rp "*"; rp "$"; ri "var"]; rp "."; ri "_stderr"]; rp ";"]]; rp ";"]; ri "pub"; ri "use"; ri "__cmacro___REENT_INIT_PTR_ZEROED"; ri "as"; ri "_REENT_INIT_PTR_ZEROED"; rp ";"; rp "#"; RGroup DBracket [ri "doc"; RGroup DParen [ri "hidden"]]; rp "#"; RGroup DBracket [ri "macro_export"]; ri "macro_rules"; rp "!"; ri "__cmacro__ARRAY_ACCESS"; RGroup DBrace [RGroup DParen [rp "$"; ri "a"; rp ":"; ri "expr"]; rp "=>"; RGroup DBrace [rp "*"; rp "$"; ri "a"; rp "."; ri "add"; RGroup DParen [RLit (RlInt 0 (st ""))]]; rp ";"]; ri "pub"; ri "use"; ri "__cmacro__ARRAY_ACCESS"; ri "as"; ri "ARRAY_ACCESS"; rp ";"; rp "#"; RGroup DBracket [ri "doc"; RGroup DParen [ri "hidden"]]; rp "#"; RGroup DBracket [ri "macro_export"]; ri "macro_rules"; rp "!"; ri "__cmacro__ARRAY_FIELD_ACCESS"; RGroup DBrace [RGroup DParen [rp "$"; ri "a"; rp ":"; ri "expr"]; rp "=>"; RGroup DBrace [RGroup DParen [rp "*"; rp "$"; ri "a"; rp "."; ri "add"; RGroup DParen [RLit (RlInt 0 (st ""))]]; rp "."; ri "field"]; rp ";"]; ri "pub"; ri "use"; ri "__cmacro__ARRAY_FIELD_ACCESS"; ri "as"; ri "ARRAY_FIELD_ACCESS"; rp ";"; rp "#"; RGroup DBracket [ri "doc"; RGroup DParen [ri "hidden"]]; rp "#"; RGroup DBracket [ri "macro_export"]; ri "macro_rules"; rp "!"; ri "__cmacro__FIELD_ARRAY_ACCESS"; RGroup DBrace [RGroup DParen [rp "$"; ri "a"; rp ":"; ri "expr"]; rp "=>"; RGroup DBrace [rp "*"; rp "$"; ri "a"; rp "."; ri "field"; rp "."; ri "add"; RGroup DParen [RLit (RlInt 0 (st ""))]]; rp ";"]; ri "pub"; ri "use"; ri "__cmacro__FIELD_ARRAY_ACCESS"; ri "as"; ri "FIELD_ARRAY_ACCESS"; rp ";"; rp "#"; RGroup DBracket [ri "doc"; RGroup DParen [ri "hidden"]]; rp "#"; RGroup DBracket [ri "macro_export"]; ri "macro_rules"; rp "!"; ri "__cmacro__NESTED_ARRAY_ACCESS"; RGroup DBrace [RGroup DParen [rp "$"; ri "a"; rp ":"; ri "expr"]; rp "=>"; RGroup DBrace [rp "*"; RGroup DParen [rp "*"; rp "$"; ri "a"; rp "."; ri "add"; RGroup DParen [RLit (RlInt 1 (st ""))]]; rp "."; ri "add"; RGroup DParen [RLit (RlInt 2 (st ""))]]; rp ";"]; ri "pub"; ri "use"; ri "__cmacro__NESTED_ARRAY_ACCESS"; ri "as"; ri "NESTED_ARRAY_ACCESS"; rp ";"; rp "#"; RGroup DBracket [ri "doc"; RGroup DParen [ri "hidden"]]; rp "#"; RGroup DBracket [ri "macro_export"]; ri "macro_rules"; rp "!"; ri "__cmacro__NESTED_ARRAY_ACCESS_CONVOLUTED"; RGroup DBrace [RGroup DParen [rp "$"; ri "a"; rp ":"; ri "expr"]; rp "=>"; RGroup DBrace [rp "*"; RGroup DParen [rp "*"; ri "ptr"; rp "::"; ri "addr_of_mut"; rp "!"; RGroup DParen [rp "*"; rp "$"; ri "a"; rp "."; ri "add"; RGroup DParen [RLit (RlInt 1 (st ""))]]]; rp "."; ri "add"; RGroup DParen [RLit (RlInt 2 (st ""))]]; rp ";"]; ri "pub"; ri "use"; ri "__cmacro__NESTED_ARRAY_ACCESS_CONVOLUTED"; ri "as"; ri "NESTED_ARRAY_ACCESS_CONVOLUTED"; rp ";"].
Proof. vm_compute. reflexivity. Qed.

(** tests/fixtures/asm.h *)
Definition h_asm : list def :=
  [DFn (st "secureportREAD_PSP") [(st "pucOutCurrentStackPointer")] [(st "__asm"); (st "volatile"); (st "("); (st """mrs %0, psp"""); (st ":"); (st """=r"""); (st "("); (st "pucOutCurrentStackPointer"); (st ")"); (st ")")];
   DFn (st "secureportSET_PSP") [(st "pucCurrentStackPointer")] [(st "__asm"); (st "volatile"); (st "("); (st """msr psp, %0"""); (st ":"); (st ":"); (st """r"""); (st "("); (st "pucCurrentStackPointer"); (st ")"); (st ")")];
   DFn (st "i386_example1") [(st "old"); (st "base"); (st "offset")] [(st "__asm__"); (st "("); (st """btsl %2,%1\n\t"""); (st """sbb %0,%0"""); (st ":"); (st """=r"""); (st "("); (st "old"); (st ")"); (st ","); (st """+rm"""); (st "("); (st "*"); (st "base"); (st ")"); (st ":"); (st """Ir"""); (st "("); (st "offset"); (st ")"); (st ":"); (st """cc"""); (st ")"); (st ";")];
   DFn (st "i386_example2") [(st "src"); (st "dst")] [(st "asm"); (st "("); (st """mov %1, %0\n\t"""); (st """add $1, %0"""); (st ":"); (st """=r"""); (st "("); (st "dst"); (st ")"); (st ":"); (st """r"""); (st "("); (st "src"); (st ")"); (st ")"); (st ";")];
   DFn (st "vax_example") [(st "from"); (st "to"); (st "count")] [(st "asm"); (st "volatile"); (st "("); (st """movc3 %0, %1, %2"""); (st ":"); (st "/* No outputs. */"); (st ":"); (st """g"""); (st "("); (st "from"); (st ")"); (st ","); (st """g"""); (st "("); (st "to"); (st ")"); (st ","); (st """g"""); (st "("); (st "count"); (st ")"); (st ":"); (st """r0"""); (st ","); (st """r1"""); (st ","); (st """r2"""); (st ","); (st """r3"""); (st ","); (st """r4"""); (st ","); (st """r5"""); (st ","); (st """memory"""); (st ")"); (st ";")];
   DFn (st "func") [] [(st "__asm__"); (st "("); (st """.globl func\n\t"""); (st """.type func, @function\n\t"""); (st """func:\n\t"""); (st """.cfi_startproc\n\t"""); (st """movl $7, %eax\n\t"""); (st """ret\n\t"""); (st """.cfi_endproc"""); (st ")"); (st ";")];
   DFn (st "times5") [(st "n")] [(st "__asm__"); (st "("); (st """leal (%0,%0,4),%0"""); (st ":"); (st """=r"""); (st "("); (st "n"); (st ")"); (st ":"); (st """0"""); (st "("); (st "n"); (st ")"); (st ")"); (st ";")]].
Example fixture_asm : test_gen (test_ctx []) h_asm =
  [rp "#"; RGroup DBracket [ri "doc"; RGroup DParen [ri "hidden"]]; rp "#"; RGroup DBracket [ri "macro_export"]; ri "macro_rules"; rp "!"; ri "__cmacro__secureportREAD_PSP"; RGroup DBrace [RGroup DParen [rp "$"; ri "pucOutCurrentStackPointer"; rp ":"; ri "expr"]; rp "=>"; RGroup DBrace [ri "arch"; rp "::"; ri "asm"; rp "!"; RGroup DParen [RLit (RlStr [109%N; 114%N; 115%N; 32%N; 123%N; 48%N; 125%N; 44%N; 32%N; 112%N; 115%N; 112%N]); rp ","; ri "out"; RGroup DParen [ri "reg"]; rp "$"; ri "pucOutCurrentStackPointer"; rp ","; ri "options"; RGroup DParen [ri "nomem"; rp ","; ri "preserves_flags"]; rp ","]; rp ";"]; rp ";"]; ri "pub"; ri "use"; ri "__cmacro__secureportREAD_PSP"; ri "as"; ri "secureportREAD_PSP"; rp ";"; rp "#"; RGroup DBracket [ri "doc"; RGroup DParen [ri "hidden"]]; rp "#"; RGroup DBracket [ri "macro_export"]; ri "macro_rules"; rp "!"; ri "__cmacro__secureportSET_PSP"; RGroup DBrace [RGroup DParen [rp "$"; ri "pucCurrentStackPointer"; rp ":"; ri "expr"]; rp "=>"; RGroup DBrace [ri "arch"; rp "::"; ri "asm"; rp "!"; RGroup DParen [RLit (RlStr [109%N; 115%N; 114%N; 32%N; 112%N; 115%N; 112%N; 44%N; 32%N; 123%N; 48%N; 125%N]); rp ","; ri "in"; RGroup DParen [ri "reg"]; rp "$"; ri "pucCurrentStackPointer"; rp ","; ri "options"; RGroup DParen [ri "nomem"; rp ","; ri "preserves_flags"]; rp ","]; rp ";"]; rp ";"]; ri "pub"; ri "use"; ri "__cmacro__secureportSET_PSP"; ri "as"; ri "secureportSET_PSP"; rp ";"; rp "#"; RGroup DBracket [ri "doc"; RGroup DParen [ri "hidden"]]; rp "#"; RGroup DBracket [ri "macro_export"]; ri "macro_rules"; rp "!"; ri "__cmacro__i386_example1"; RGroup DBrace [RGroup DParen [rp "$"; ri "old"; rp ":"; ri "expr"; rp ","; rp "$"; ri "base"; rp ":"; ri "expr"; rp ","; rp "$"; ri "offset"; rp ":"; ri "expr"]; rp "=>"; RGroup DBrace [ri "arch"; rp "::"; ri "asm"; rp "!"; RGroup DParen [RLit (RlStr [98%N; 116%N; 115%N; 108%N; 32%N; 123%N; 50%N; 125%N; 44%N; 123%N; 49%N; 125%N]); rp ","; RLit (RlStr [115%N; 98%N; 98%N; 32%N; 123%N; 48%N; 125%N; 44%N; 123%N; 48%N; 125%N]); rp ","; ri "out"; RGroup DParen [ri "reg"]; rp "$"; ri "old"; rp ","; ri "inout"; RGroup DParen [ri "reg"]; rp "*"; rp "$"; ri "base"; rp ","; ri "in"; RGroup DParen [ri "reg"]; rp "$"; ri "offset"; rp ","; ri "options"; RGroup DParen [ri "nomem"]; rp ","]; rp ";"]; rp ";"]; ri "pub"; ri "use"; ri "__cmacro__i386_example1"; ri "as"; ri "i386_example1"; rp ";"; rp "#"; RGroup DBracket [ri "doc"; RGroup DParen [ri "hidden"]]; rp "#"; RGroup DBracket [ri "macro_export"]; ri "macro_rules"; rp "!"; ri "__cmacro__i386_example2"; RGroup DBrace [RGroup DParen [rp "$"; ri "src"; rp ":"; ri "expr"; rp ","; rp "$"; ri "dst"; rp ":"; ri "expr"]; rp "=>"; RGroup DBrace [ri "arch"; rp "::"; ri "asm"; rp "!"; RGroup DParen [RLit (RlStr [109%N; 111%N; 118%N; 32%N; 123%N; 49%N; 125%N; 44%N; 32%N; 123%N; 48%N; 125%N]); rp ","; RLit (RlStr [97%N; 100%N; 100%N; 32%N; 36%N; 49%N; 44%N; 32%N; 123%N; 48%N; 125%N]); rp ","; ri "out"; RGroup DParen [ri "reg"]; rp "$"; ri "dst"; rp ","; ri "in"; RGroup DParen [ri "reg"]; rp "$"; ri "src"; rp ","; ri "options"; RGroup DParen [ri "att_syntax"; rp ","; ri "nomem"; rp ","; ri "preserves_flags"]; rp ","]; rp ";"]; rp ";"]; ri "pub"; ri "use"; ri "__cmacro__i386_example2"; ri "as"; ri "i386_example2"; rp ";"; rp "#"; RGroup DBracket [ri "doc"; RGroup DParen [ri "hidden"]]; rp "#"; RGroup DBracket [ri "macro_export"]; ri "macro_rules"; rp "!"; ri "__cmacro__vax_example"; RGroup DBrace [RGroup DParen [rp "$"; ri "from"; rp ":"; ri "expr"; rp ","; rp "$"; ri "to"; rp ":"; ri "expr"; rp ","; rp "$"; ri "count"; rp ":"; ri "expr"]; rp "=>"; RGroup DBrace [ri "arch"; rp "::"; ri "asm"; rp "!"; RGroup DParen [RLit (RlStr [109%N; 111%N; 118%N; 99%N; 51%N; 32%N; 123%N; 48%N; 125%N; 44%N; 32%N; 123%N; 49%N; 125%N; 44%N; 32%N; 123%N; 50%N; 125%N]); rp ","; ri "in"; RGroup DParen [ri "reg"]; rp "$"; ri "from"; rp ","; ri "in"; RGroup DParen [ri "reg"]; rp "$"; ri "to"; rp ","; ri "in"; RGroup DParen [ri "reg"]; rp "$"; ri "count"; rp ","; ri "out"; RGroup DParen [RLit (RlStr [114%N; 48%N])]; ri "_"; rp ","; ri "out"; RGroup DParen [RLit (RlStr [114%N; 49%N])]; ri "_"; rp ","; ri "out"; RGroup DParen [RLit (RlStr [114%N; 50%N])]; ri "_"; rp ","; ri "out"; RGroup DParen [RLit (RlStr [114%N; 51%N])]; ri "_"; rp ","; ri "out"; RGroup DParen [RLit (RlStr [114%N; 52%N])]; ri "_"; rp ","; ri "out"; RGroup DParen [RLit (RlStr [114%N; 53%N])]; ri "_"; rp ","; ri "clobber_abi"; RGroup DParen [RLit (RlStr [67%N])]; rp ","; ri "options"; RGroup DParen [ri "preserves_flags"]; rp ","]; rp ";"]; rp ";"]; ri "pub"; ri "use"; ri "__cmacro__vax_example"; ri "as"; ri "vax_example"; rp ";"; rp "#"; RGroup DBracket [ri "doc"; RGroup DParen [ri "hidden"]]; rp "#"; RGroup DBracket [ri "macro_export"]; ri "macro_rules"; rp "!"; ri "__cmacro__func"; RGroup DBrace [RGroup DParen []; rp "=>"; RGroup DBrace [ri "arch"; rp "::"; ri "global_asm"; rp "!"; RGroup DParen [RLit (RlStr [46%N; 103%N; 108%N; 111%N; 98%N; 108%N; 32%N; 102%N; 117%N; 110%N; 99%N]); rp ","; RLit (RlStr [46%N; 116%N; 121%N; 112%N; 101%N; 32%N; 102%N; 117%N; 110%N; 99%N; 44%N; 32%N; 64%N; 102%N; 117%N; 110%N; 99%N; 116%N; 105%N; 111%N; 110%N]); rp ","; RLit (RlStr [102%N; 117%N; 110%N; 99%N; 58%N]); rp ","; RLit (RlStr [46%N; 99%N; 102%N; 105%N; 95%N; 115%N; 116%N; 97%N; 114%N; 116%N; 112%N; 114%N; 111%N; 99%N]); rp ","; RLit (RlStr [109%N; 111%N; 118%N; 108%N; 32%N; 36%N; 55%N; 44%N; 32%N; 37%N; 101%N; 97%N; 120%N]); rp ","; RLit (RlStr [114%N; 101%N; 116%N]); rp ","; RLit (RlStr [46%N; 99%N; 102%N; 105%N; 95%N; 101%N; 110%N; 100%N; 112%N; 114%N; 111%N; 99%N]); rp ","; ri "options"; RGroup DParen [ri "att_syntax"]; rp ","]; rp ";"]; rp ";"]; ri "pub"; ri "use"; ri "__cmacro__func"; ri "as"; ri "func"; rp ";"; rp "#"; RGroup DBracket [ri "doc"; RGroup DParen [ri "hidden"]]; rp "#"; RGroup DBracket [ri "macro_export"]; ri "macro_rules"; rp "!"; ri "__cmacro__times5"; RGroup DBrace [RGroup DParen [rp "$"; ri "n"; rp ":"; ri "expr"]; rp "=>"; RGroup DBrace [ri "arch"; rp "::"; ri "asm"; rp "!"; RGroup DParen [RLit (RlStr [108%N; 101%N; 97%N; 108%N; 32%N; 40%N; 123%N; 48%N; 125%N; 44%N; 123%N; 48%N; 125%N; 44%N; 52%N; 41%N; 44%N; 123%N; 48%N; 125%N]); rp ","; ri "inout"; RGroup DParen [ri "reg"]; rp "$"; ri "n"; rp ","; ri "options"; RGroup DParen [ri "att_syntax"; rp ","; ri "nomem"; rp ","; ri "preserves_flags"]; rp ","]; rp ";"]; rp ";"]; ri "pub"; ri "use"; ri "__cmacro__times5"; ri "as"; ri "times5"; rp ";"].
Proof. vm_compute. reflexivity. Qed.

(** tests/fixtures/assign_pointer.h *)
Definition h_assign_pointer : list def :=
  [DFn (st "portYIELD") [] [(st "{"); (st "/* Set a PendSV to request a context switch. */"); (st "portNVIC_INT_CTRL_REG"); (st "="); (st "portNVIC_PENDSVSET_BIT"); (st ";"); (st "__asm"); (st "("); [34%N; 9%N; 100%N; 115%N; 98%N; 34%N]; (st ")"); (st ";"); (st "__asm"); (st "("); [34%N; 9%N; 105%N; 115%N; 98%N; 34%N]; (st ")"); (st ";"); (st "}")];
   DVar (st "portNVIC_INT_CTRL_REG") [(st "("); (st "*"); (st "("); (st "("); (st "volatile"); (st "uint32_t"); (st "*"); (st ")"); (st "0xe000ed04"); (st ")"); (st ")")];
   DVar (st "portNVIC_PENDSVSET_BIT") [(st "("); (st "1UL"); (st "<<"); (st "28UL"); (st ")")];
   DFn (st "portEND_SWITCHING_ISR") [(st "xSwitchRequired")] [(st "do"); (st "{"); (st "if"); (st "("); (st "xSwitchRequired"); (st "!="); (st "pdFALSE"); (st ")"); (st "portYIELD"); (st "("); (st ")"); (st ";"); (st "}"); (st "while"); (st "("); (st "0"); (st ")")];
   DFn (st "portYIELD_FROM_ISR") [(st "x")] [(st "portEND_SWITCHING_ISR"); (st "("); (st "x"); (st ")")]].
Example fixture_assign_pointer : test_gen (test_ctx []) h_assign_pointer =
  [rp "#"; RGroup DBracket [ri "allow"; RGroup DParen [ri "non_snake_case"; rp ","; ri "unused_mut"; rp ","; ri "unsafe_code"]]; rp "#"; RGroup DBracket [ri "inline"; RGroup DParen [ri "always"]]; ri "pub"; ri "unsafe"; ri "extern"; RLit (RlStr [67%N]); ri "fn"; ri "portYIELD"; RGroup DParen []; RGroup DBrace [RGroup DBrace [RGroup DBrace [ri "let"; ri "value"; rp "="; RLit (RlInt 268435456 (st "")); rp ";"; ri "ptr"; rp "::"; ri "write_volatile"; RGroup DParen [RLit (RlInt 3758157060 (st "u32")); ri "as"; rp "*"; ri "mut"; ri "uint32_t"; rp ","; ri "value"]; rp ";"; ri "value"]; rp ";"; ri "arch"; rp "::"; ri "asm"; rp "!"; RGroup DParen [RLit (RlStr [100%N; 115%N; 98%N]); rp ","; ri "options"; RGroup DParen [ri "nomem"; rp ","; ri "preserves_flags"]; rp ","]; rp ";"; ri "arch"; rp "::"; ri "asm"; rp "!"; RGroup DParen [RLit (RlStr [105%N; 115%N; 98%N]); rp ","; ri "options"; RGroup DParen [ri "nomem"; rp ","; ri "preserves_flags"]; rp ","]; rp ";"]; rp ";"]; ri "pub"; ri "const"; ri "portNVIC_PENDSVSET_BIT"; rp ":"; ri "_"; rp "="; RLit (RlInt 268435456 (st "")); rp ";"; rp "#"; RGroup DBracket [ri "doc"; RGroup DParen [ri "hidden"]]; rp "#"; RGroup DBracket [ri "macro_export"]; ri "macro_rules"; rp "!"; ri "__cmacro__portEND_SWITCHING_ISR"; RGroup DBrace [RGroup DParen [rp "$"; ri "xSwitchRequired"; rp ":"; ri "expr"]; rp "=>"; RGroup DBrace [ri "loop"; RGroup DBrace [ri "if"; rp "$"; ri "xSwitchRequired"; rp "!="; ri "pdFALSE"; RGroup DBrace [RGroup DBrace [ri "let"; ri "value"; rp "="; RLit (RlInt 268435456 (st "")); rp ";"; ri "ptr"; rp "::"; ri "write_volatile"; RGroup DParen [RLit (RlInt 3758157060 (st "u32")); ri "as"; rp "*"; ri "mut"; ri "uint32_t"; rp ","; ri "value"]; rp ";"; ri "value"]; rp ";"; ri "arch"; rp "::"; ri "asm"; rp "!"; RGroup DParen [RLit (RlStr [100%N; 115%N; 98%N]); rp ","; ri "options"; RGroup DParen [ri "nomem"; rp ","; ri "preserves_flags"]; rp ","]; rp ";"; ri "arch"; rp "::"; ri "asm"; rp "!"; RGroup DParen [RLit (RlStr [105%N; 115%N; 98%N]); rp ","; ri "options"; RGroup DParen [ri "nomem"; rp ","; ri "preserves_flags"]; rp ","]; rp ";"]; ri "if"; RLit (RlInt 0 (st "")); rp "!="; RLit (RlInt 0 (st "")); RGroup DBrace [ri "continue"]; ri "break"]]; rp ";"]; ri "pub"; ri "use"; ri "__cmacro__portEND_SWITCHING_ISR"; ri "as"; ri "portEND_SWITCHING_ISR"; rp ";"; rp "#"; RGroup DBracket [ri "doc"; RGroup DParen [ri "hidden"]]; rp "#"; RGroup DBracket [ri "macro_export"]; ri "macro_rules"; rp "!"; ri "__cmacro__portYIELD_FROM_ISR"; RGroup DBrace [RGroup DParen [rp "$"; ri "x"; rp ":"; ri "expr"]; rp "=>"; RGroup DBrace [ri "loop"; RGroup DBrace [ri "if"; rp "$"; ri "x"; rp "!="; ri "pdFALSE"; RGroup DBrace [RGroup DBrace [ri "let"; ri "value"; rp "="; RLit (RlInt 268435456 (st "")); rp ";"; ri "ptr"; rp "::"; ri "write_volatile"; RGroup DParen [RLit (RlInt 3758157060 (st "u32")); ri "as"; rp "*"; ri "mut"; ri "uint32_t"; rp ","; ri "value"]; rp ";"; ri "value"]; rp ";"; ri "arch"; rp "::"; ri "asm"; rp "!"; RGroup DParen [RLit (RlStr [100%N; 115%N; 98%N]); rp ","; ri "options"; RGroup DParen [ri "nomem"; rp ","; ri "preserves_flags"]; rp ","]; rp ";"; ri "arch"; rp "::"; ri "asm"; rp "!"; RGroup DParen [RLit (RlStr [105%N; 115%N; 98%N]); rp ","; ri "options"; RGroup DParen [ri "nomem"; rp ","; ri "preserves_flags"]; rp ","]; rp ";"]; ri "if"; RLit (RlInt 0 (st "")); rp "!="; RLit (RlInt 0 (st "")); RGroup DBrace [ri "continue"]; ri "break"]]; rp ";"]; ri "pub"; ri "use"; ri "__cmacro__portYIELD_FROM_ISR"; ri "as"; ri "portYIELD_FROM_ISR"; rp ";"].
Proof. vm_compute. reflexivity. Qed.

(** tests/fixtures/cast_big_to_small.h *)
Definition h_cast_big_to_small : list def :=
  [DVar (st "BIG_TO_SMALL") [(st "("); (st "unsigned"); (st "short"); (st ")"); (st "4294967295")]].
Example fixture_cast_big_to_small : test_gen (test_ctx []) h_cast_big_to_small =
  [ri "pub"; ri "const"; ri "BIG_TO_SMALL"; rp ":"; ri "c_ushort"; rp "="; RLit (RlInt 4294967295 (st "u32")); ri "as"; ri "c_ushort"; rp ";"].
Proof. vm_compute. reflexivity. Qed.

(** tests/fixtures/cast_multiplication.h *)
Definition h_cast_multiplication : list def :=
  [DFn (st "pdMS_TO_TICKS_NO_PAR") [(st "xTimeInMs")] [(st "("); (st "("); (st "TickType_t"); (st ")"); (st "xTimeInMs"); (st "*"); (st "("); (st "TickType_t"); (st ")"); (st "configTICK_RATE_HZ"); (st ")"); (st "/"); (st "("); (st "TickType_t"); (st ")"); (st "1000U")];
   DFn (st "pdMS_TO_TICKS") [(st "xTimeInMs")] [(st "("); (st "("); (st "TickType_t"); (st ")"); (st "("); (st "xTimeInMs"); (st ")"); (st "*"); (st "("); (st "TickType_t"); (st ")"); (st "configTICK_RATE_HZ"); (st ")"); (st "/"); (st "("); (st "TickType_t"); (st ")"); (st "1000U")]].
Example fixture_cast_multiplication : test_gen (test_ctx []) h_cast_multiplication =
  [rp "#"; RGroup DBracket [ri "doc"; RGroup DParen [ri "hidden"]]; rp "#"; RGroup DBracket [ri "macro_export"]; ri "macro_rules"; rp "!"; ri "__cmacro__pdMS_TO_TICKS_NO_PAR"; RGroup DBrace [RGroup DParen [rp "$"; ri "xTimeInMs"; rp ":"; ri "expr"]; rp "=>"; RGroup DBrace [rp "$"; ri "xTimeInMs"; ri "as"; ri "TickType_t"; rp "*"; ri "configTICK_RATE_HZ"; ri "as"; ri "TickType_t"; rp "/"; RLit (RlInt 1000 (st "u16")); ri "as"; ri "TickType_t"]; rp ";"]; ri "pub"; ri "use"; ri "__cmacro__pdMS_TO_TICKS_NO_PAR"; ri "as"; ri "pdMS_TO_TICKS_NO_PAR"; rp ";"; rp "#"; RGroup DBracket [ri "doc"; RGroup DParen [ri "hidden"]]; rp "#"; RGroup DBracket [ri "macro_export"]; ri "macro_rules"; rp "!"; ri "__cmacro__pdMS_TO_TICKS"; RGroup DBrace [RGroup DParen [rp "$"; ri "xTimeInMs"; rp ":"; ri "expr"]; rp "=>"; RGroup DBrace [rp "$"; ri "xTimeInMs"; ri "as"; ri "TickType_t"; rp "*"; ri "configTICK_RATE_HZ"; ri "as"; ri "TickType_t"; rp "/"; RLit (RlInt 1000 (st "u16")); ri "as"; ri "TickType_t"]; rp ";"]; ri "pub"; ri "use"; ri "__cmacro__pdMS_TO_TICKS"; ri "as"; ri "pdMS_TO_TICKS"; rp ";"].
Proof. vm_compute. reflexivity. Qed.

(** tests/fixtures/cast_neg_to_pos.h *)
Definition h_cast_neg_to_pos : list def :=
  [DVar (st "NEG_TO_POS") [(st "("); (st "unsigned"); (st "int"); (st ")"); (st "-"); (st "1")]].
Example fixture_cast_neg_to_pos : test_gen (test_ctx []) h_cast_neg_to_pos =
  [ri "pub"; ri "const"; ri "NEG_TO_POS"; rp ":"; ri "c_uint"; rp "="; rp "-"; RLit (RlInt 1 (st "i8")); ri "as"; ri "c_uint"; rp ";"].
Proof. vm_compute. reflexivity. Qed.

(** tests/fixtures/cast_shift.h *)
Definition h_cast_shift : list def :=
  [DVar (st "CAST_SHIFT") [(st "("); (st "int"); (st ")"); (st "2"); (st "<<"); (st "3")]].
Example fixture_cast_shift : test_gen (test_ctx []) h_cast_shift =
  [ri "pub"; ri "const"; ri "CAST_SHIFT"; rp ":"; ri "c_int"; rp "="; RGroup DParen [RLit (RlInt 2 (st "u8")); ri "as"; ri "c_int"]; rp "<<"; RLit (RlInt 3 (st "")); rp ";"].
Proof. vm_compute. reflexivity. Qed.

(** tests/fixtures/chars.h *)
Definition h_chars : list def :=
  [DVar (st "MY_FF") [(st "'\xff'")];
   DVar (st "MY_A1") [(st "u8'\x61'")];
   DVar (st "MY_A2") [(st "u8'a'")];
   DVar (st "MY_CAT1") [(st "u'\u732b'")];
   DVar (st "MY_CAT2") [[117%N; 39%N; 29483%N; 39%N]];
   DVar (st "MY_DONUT1") [(st "U'\U0001f369'")];
   DVar (st "MY_DONUT2") [[85%N; 39%N; 127849%N; 39%N]]].
Example fixture_chars : test_gen (test_ctx []) h_chars =
  [ri "pub"; ri "const"; ri "MY_FF"; rp ":"; ri "c_char"; rp "="; RLit (RlChar 255); ri "as"; ri "c_char"; rp ";"; ri "pub"; ri "const"; ri "MY_A1"; rp ":"; ri "u8"; rp "="; RLit (RlChar 97); ri "as"; ri "u8"; rp ";"; ri "pub"; ri "const"; ri "MY_A2"; rp ":"; ri "u8"; rp "="; RLit (RlChar 97); ri "as"; ri "u8"; rp ";"; ri "pub"; ri "const"; ri "MY_CAT1"; rp ":"; ri "u16"; rp "="; RLit (RlChar 29483); ri "as"; ri "u16"; rp ";"; ri "pub"; ri "const"; ri "MY_CAT2"; rp ":"; ri "u16"; rp "="; RLit (RlChar 29483); ri "as"; ri "u16"; rp ";"; ri "pub"; ri "const"; ri "MY_DONUT1"; rp ":"; ri "u32"; rp "="; RLit (RlChar 127849); ri "as"; ri "u32"; rp ";"; ri "pub"; ri "const"; ri "MY_DONUT2"; rp ":"; ri "u32"; rp "="; RLit (RlChar 127849); ri "as"; ri "u32"; rp ";"].
Proof. vm_compute. reflexivity. Qed.

(** tests/fixtures/comments.h *)
Definition h_comments : list def :=
  [DFn (st "INLINE_COMMENTS") [(st "a"); (st "b"); (st "c")] [(st "a"); (st "/* pre % */"); (st "%"); (st "/* post % */"); (st "("); (st "b"); (st "/* pre / */"); (st "/"); (st "/*post / */"); (st "c"); (st ")")]].
Example fixture_comments : test_gen (test_ctx []) h_comments =
  [rp "#"; RGroup DBracket [ri "doc"; RGroup DParen [ri "hidden"]]; rp "#"; RGroup DBracket [ri "macro_export"]; ri "macro_rules"; rp "!"; ri "__cmacro__INLINE_COMMENTS"; RGroup DBrace [RGroup DParen [rp "$"; ri "a"; rp ":"; ri "expr"; rp ","; rp "$"; ri "b"; rp ":"; ri "expr"; rp ","; rp "$"; ri "c"; rp ":"; ri "expr"]; rp "=>"; RGroup DBrace [rp "$"; ri "a"; rp "%"; RGroup DParen [rp "$"; ri "b"; rp "/"; rp "$"; ri "c"]]; rp ";"]; ri "pub"; ri "use"; ri "__cmacro__INLINE_COMMENTS"; ri "as"; ri "INLINE_COMMENTS"; rp ";"].
Proof. vm_compute. reflexivity. Qed.

(** tests/fixtures/concat.h *)
Definition h_concat : list def :=
  [DFn (st "__CONCAT") [(st "a"); (st "b"); (st "c")] [(st "a"); (st "b"); (st "##"); (st "c")];
   DFn (st "CONCAT__") [(st "a"); (st "b"); (st "c")] [(st "a"); (st "##"); (st "b"); (st "c")]].
Example fixture_concat : test_gen (test_ctx []) h_concat =
  [rp "#"; RGroup DBracket [ri "doc"; RGroup DParen [ri "hidden"]]; rp "#"; RGroup DBracket [ri "macro_export"]; ri "macro_rules"; rp "!"; ri "__cmacro____CONCAT"; RGroup DBrace [RGroup DParen [rp "$"; ri "a"; rp ":"; ri "expr"; rp ","; rp "$"; ri "b"; rp ":"; ri "ident"; rp ","; rp "$"; ri "c"; rp ":"; ri "ident"]; rp "=>"; RGroup DBrace [RGroup DBrace [ri "const"; ri "BYTES"; rp ":"; rp "&"; RGroup DBracket [ri "u8"]; rp "="; ri "concat"; rp "!"; RGroup DParen [rp "$"; ri "a"; rp ","; ri "concat_idents"; rp "!"; RGroup DParen [rp "$"; ri "b"; rp ","; rp "$"; ri "c"]; rp ","; RLit (RlChar 0)]; rp "."; ri "as_bytes"; RGroup DParen []; rp ";"; ri "BYTES"; rp "."; ri "as_ptr"; RGroup DParen []; ri "as"; rp "*"; ri "const"; ri "c_char"]]; rp ";"]; ri "pub"; ri "use"; ri "__cmacro____CONCAT"; ri "as"; ri "__CONCAT"; rp ";"; rp "#"; RGroup DBracket [ri "doc"; RGroup DParen [ri "hidden"]]; rp "#"; RGroup DBracket [ri "macro_export"]; ri "macro_rules"; rp "!"; ri "__cmacro__CONCAT__"; RGroup DBrace [RGroup DParen [rp "$"; ri "a"; rp ":"; ri "ident"; rp ","; rp "$"; ri "b"; rp ":"; ri "ident"; rp ","; rp "$"; ri "c"; rp ":"; ri "expr"]; rp "=>"; RGroup DBrace [RGroup DBrace [ri "const"; ri "BYTES"; rp ":"; rp "&"; RGroup DBracket [ri "u8"]; rp "="; ri "concat"; rp "!"; RGroup DParen [ri "concat_idents"; rp "!"; RGroup DParen [rp "$"; ri "a"; rp ","; rp "$"; ri "b"]; rp ","; rp "$"; ri "c"; rp ","; RLit (RlChar 0)]; rp "."; ri "as_bytes"; RGroup DParen []; rp ";"; ri "BYTES"; rp "."; ri "as_ptr"; RGroup DParen []; ri "as"; rp "*"; ri "const"; ri "c_char"]]; rp ";"]; ri "pub"; ri "use"; ri "__cmacro__CONCAT__"; ri "as"; ri "CONCAT__"; rp ";"].
Proof. vm_compute. reflexivity. Qed.

(** tests/fixtures/concat_int_suffix.h *)
Definition h_concat_int_suffix : list def :=
  [DVar (st "MY_UL") [(st "1"); (st "##"); (st "UL")];
   DVar (st "MY_ULL") [(st "1"); (st "##"); (st "ULL")];
   DVar (st "MY_U_L") [(st "1"); (st "##"); (st "U"); (st "##"); (st "L")];
   DFn (st "UL") [(st "X")] [(st "X"); (st "##"); (st "UL")];
   DVar (st "ONE") [(st "UL"); (st "("); (st "1"); (st ")")]].
Example fixture_concat_int_suffix : test_gen (test_ctx []) h_concat_int_suffix =
  [ri "pub"; ri "const"; ri "MY_UL"; rp ":"; ri "_"; rp "="; RLit (RlInt 1 (st "")); rp ";"; ri "pub"; ri "const"; ri "MY_ULL"; rp ":"; ri "_"; rp "="; RLit (RlInt 1 (st "")); rp ";"; ri "pub"; ri "const"; ri "MY_U_L"; rp ":"; ri "_"; rp "="; RLit (RlInt 1 (st "")); rp ";"; rp "#"; RGroup DBracket [ri "doc"; RGroup DParen [ri "hidden"]]; rp "#"; RGroup DBracket [ri "macro_export"]; ri "macro_rules"; rp "!"; ri "__cmacro__UL"; RGroup DBrace [RGroup DParen [rp "$"; ri "X"; rp ":"; ri "ident"]; rp "=>"; RGroup DBrace [ri "concat_idents"; rp "!"; RGroup DParen [rp "$"; ri "X"; rp ","; ri "UL"]]; rp ";"]; ri "pub"; ri "use"; ri "__cmacro__UL"; ri "as"; ri "UL"; rp ";"; ri "pub"; ri "const"; ri "ONE"; rp ":"; ri "_"; rp "="; RLit (RlInt 1 (st "")); rp ";"].
Proof. vm_compute. reflexivity. Qed.

(** tests/fixtures/concat_nested.h *)
Definition h_concat_nested : list def :=
  [DFn (st "__int_c_join") [(st "a"); (st "b")] [(st "a"); (st "##"); (st "b")];
   DFn (st "__int_c") [(st "v"); (st "suffix")] [(st "__int_c_join"); (st "("); (st "v"); (st ","); (st "suffix"); (st ")")];
   DFn (st "__uint_c") [(st "v"); (st "suffix")] [(st "__int_c_join"); (st "("); (st "v"); (st "##"); (st "U"); (st ","); (st "suffix"); (st ")")];
   DFn (st "UINT64_C") [(st "v")] [(st "__uint_c"); (st "("); (st "v"); (st ","); (st "__int64_c_suffix"); (st ")")]].
Example fixture_concat_nested : test_gen (test_ctx []) h_concat_nested =
  [rp "#"; RGroup DBracket [ri "doc"; RGroup DParen [ri "hidden"]]; rp "#"; RGroup DBracket [ri "macro_export"]; ri "macro_rules"; rp "!"; ri "__cmacro____int_c_join"; RGroup DBrace [RGroup DParen [rp "$"; ri "a"; rp ":"; ri "ident"; rp ","; rp "$"; ri "b"; rp ":"; ri "ident"]; rp "=>"; RGroup DBrace [ri "concat_idents"; rp "!"; RGroup DParen [rp "$"; ri "a"; rp ","; rp "$"; ri "b"]]; rp ";"]; ri "pub"; ri "use"; ri "__cmacro____int_c_join"; ri "as"; ri "__int_c_join"; rp ";"; rp "#"; RGroup DBracket [ri "doc"; RGroup DParen [ri "hidden"]]; rp "#"; RGroup DBracket [ri "macro_export"]; ri "macro_rules"; rp "!"; ri "__cmacro____int_c"; RGroup DBrace [RGroup DParen [rp "$"; ri "v"; rp ":"; ri "ident"; rp ","; rp "$"; ri "suffix"; rp ":"; ri "ident"]; rp "=>"; RGroup DBrace [ri "concat_idents"; rp "!"; RGroup DParen [rp "$"; ri "v"; rp ","; rp "$"; ri "suffix"]]; rp ";"]; ri "pub"; ri "use"; ri "__cmacro____int_c"; ri "as"; ri "__int_c"; rp ";"; rp "#"; RGroup DBracket [ri "doc"; RGroup DParen [ri "hidden"]]; rp "#"; RGroup DBracket [ri "macro_export"]; ri "macro_rules"; rp "!"; ri "__cmacro____uint_c"; RGroup DBrace [RGroup DParen [rp "$"; ri "v"; rp ":"; ri "ident"; rp ","; rp "$"; ri "suffix"; rp ":"; ri "ident"]; rp "=>"; RGroup DBrace [ri "concat_idents"; rp "!"; RGroup DParen [rp "$"; ri "v"; rp ","; ri "U"; rp ","; rp "$"; ri "suffix"]]; rp ";"]; ri "pub"; ri "use"; ri "__cmacro____uint_c"; ri "as"; ri "__uint_c"; rp ";"; rp "#"; RGroup DBracket [ri "doc"; RGroup DParen [ri "hidden"]]; rp "#"; RGroup DBracket [ri "macro_export"]; ri "macro_rules"; rp "!"; ri "__cmacro__UINT64_C"; RGroup DBrace [RGroup DParen [rp "$"; ri "v"; rp ":"; ri "ident"]; rp "=>"; RGroup DBrace [ri "concat_idents"; rp "!"; RGroup DParen [rp "$"; ri "v"; rp ","; ri "U__int64_c_suffix"]]; rp ";"]; ri "pub"; ri "use"; ri "__cmacro__UINT64_C"; ri "as"; ri "UINT64_C"; rp ";"].
Proof. vm_compute. reflexivity. Qed.

(** tests/fixtures/concat_non_ident.h *)
Definition h_concat_non_ident : list def :=
  [DFn (st "CONCAT_123") [(st "var")] [(st "var"); (st "##"); (st "123")];
   DFn (st "CONCAT_123DEF") [(st "var")] [(st "var"); (st "##"); (st "123def")];
   DFn (st "CONCAT_123DEF456GHI") [(st "var")] [(st "var"); (st "##"); (st "123def456ghi")]].
Example fixture_concat_non_ident : test_gen (test_ctx []) h_concat_non_ident =
  [].
Proof. vm_compute. reflexivity. Qed.

(** tests/fixtures/deref.h *)
Definition h_deref : list def :=
  [DVar (st "FLASH_SIZE_DATA_REGISTER") [(st "("); (st "("); (st "uint32_t"); (st ")"); (st "0x1FFF75E0"); (st ")")];
   DVar (st "FLASH_SIZE1") [(st "*"); (st "("); (st "("); (st "uint16_t"); (st "*"); (st ")"); (st "FLASH_SIZE_DATA_REGISTER"); (st ")")];
   DFn (st "FLASH_SIZE2") [] [(st "*"); (st "("); (st "("); (st "uint16_t"); (st "*"); (st ")"); (st "FLASH_SIZE_DATA_REGISTER"); (st ")")]].
Example fixture_deref : test_gen (test_ctx []) h_deref =
  [ri "pub"; ri "const"; ri "FLASH_SIZE_DATA_REGISTER"; rp ":"; ri "uint32_t"; rp "="; RLit (RlInt 536835552 (st "u32")); ri "as"; ri "uint32_t"; rp ";"; rp "#"; RGroup DBracket [ri "allow"; RGroup DParen [ri "non_snake_case"; rp ","; ri "unused_mut"; rp ","; ri "unsafe_code"]]; rp "#"; RGroup DBracket [ri "inline"; RGroup DParen [ri "always"]]; ri "pub"; ri "unsafe"; ri "extern"; RLit (RlStr [67%N]); ri "fn"; ri "FLASH_SIZE2"; RGroup DParen []; rp "->"; ri "uint16_t"; RGroup DBrace [rp "*"; RGroup DParen [RLit (RlInt 536835552 (st "u32")); ri "as"; ri "uint32_t"; ri "as"; rp "*"; ri "mut"; ri "uint16_t"]]].
Proof. vm_compute. reflexivity. Qed.

(** tests/fixtures/empty.h *)
Definition h_empty : list def :=
  [DVar (st "__IO") [];
   DVar (st "VAR") [(st "__IO"); (st "3")]].
Example fixture_empty : test_gen (test_ctx []) h_empty =
  [ri "pub"; ri "const"; ri "VAR"; rp ":"; ri "_"; rp "="; RLit (RlInt 3 (st "")); rp ";"].
Proof. vm_compute. reflexivity. Qed.

(** tests/fixtures/empty_fn_macro.h *)
Definition h_empty_fn_macro : list def :=
  [DFn (st "func") [] []].
Example fixture_empty_fn_macro : test_gen (test_ctx []) h_empty_fn_macro =
  [rp "#"; RGroup DBracket [ri "allow"; RGroup DParen [ri "non_snake_case"; rp ","; ri "unused_mut"; rp ","; ri "unsafe_code"]]; rp "#"; RGroup DBracket [ri "inline"; RGroup DParen [ri "always"]]; ri "pub"; ri "unsafe"; ri "extern"; RLit (RlStr [67%N]); ri "fn"; ri "func"; RGroup DParen []; RGroup DBrace [RGroup DBrace []; rp ";"]].
Proof. vm_compute. reflexivity. Qed.

(** tests/fixtures/field_access.h *)
Definition h_field_access : list def :=
  [DFn (st "access") [(st "x"); (st "field")] [(st "x"); (st "."); (st "field")];
   DFn (st "access_field") [(st "x")] [(st "x"); (st "."); (st "field")];
   DFn (st "access_pointer_field") [(st "x")] [(st "x"); (st "->"); (st "field")];
   DFn (st "access_inc_pointer_field") [(st "x")] [(st "x"); (st "++"); (st "->"); (st "field")];
   DVar (st "old_name") [(st "new_name")];
   DFn (st "access_renamed_field") [(st "x")] [(st "x"); (st "."); (st "old_name")];
   DFn (st "access_address") [(st "x")] [(st "("); (st "&"); (st "x"); (st ")"); (st "->"); (st "new_name")]].
Example fixture_field_access : test_gen (test_ctx []) h_field_access =
  [rp "#"; RGroup DBracket [ri "doc"; RGroup DParen [ri "hidden"]]; rp "#"; RGroup DBracket [ri "macro_export"]; ri "macro_rules"; rp "!"; ri "__cmacro__access"; RGroup DBrace [RGroup DParen [rp "$"; ri "x"; rp ":"; ri "expr"; rp ","; rp "$"; ri "field"; rp ":"; ri "ident"]; rp "=>"; RGroup DBrace [rp "$"; ri "x"; rp "."; rp "$"; ri "field"]; rp ";"]; ri "pub"; ri "use"; ri "__cmacro__access"; ri "as"; ri "access"; rp ";"; rp "#"; RGroup DBracket [ri "doc"; RGroup DParen [ri "hidden"]]; rp "#"; RGroup DBracket [ri "macro_export"]; ri "macro_rules"; rp "!"; ri "__cmacro__access_field"; RGroup DBrace [RGroup DParen [rp "$"; ri "x"; rp ":"; ri "expr"]; rp "=>"; RGroup DBrace [rp "$"; ri "x"; rp "."; ri "field"]; rp ";"]; ri "pub"; ri "use"; ri "__cmacro__access_field"; ri "as"; ri "access_field"; rp ";"; rp "#"; RGroup DBracket [ri "doc"; RGroup DParen [ri "hidden"]]; rp "#"; RGroup DBracket [ri "macro_export"]; ri "macro_rules"; rp "!"; ri "__cmacro__access_pointer_field"; RGroup DBrace [RGroup DParen [rp "$"; ri "x"; rp ":"; ri "expr"]; rp "=>"; RGroup DBrace [RGroup DParen [rp "*"; rp "$"; ri "x"]; rp "."; ri "field"]; rp ";"]; ri "pub"; ri "use"; ri "__cmacro__access_pointer_field"; ri "as"; ri "access_pointer_field"; rp ";"; rp "#"; RGroup DBracket [ri "doc"; RGroup DParen [ri "hidden"]]; rp "#"; RGroup DBracket [ri "macro_export"]; ri "macro_rules"; rp "!"; ri "__cmacro__access_inc_pointer_field"; RGroup DBrace [RGroup DParen [rp "$"; ri "x"; rp ":"; ri "expr"]; rp "=>"; RGroup DBrace [RGroup DParen [rp "*"; RGroup DBrace [ri "let"; ri "prev"; rp "="; rp "$"; ri "x"; rp ";"; rp "$"; ri "x"; rp "="; rp "$"; ri "x"; rp "."; ri "add"; RGroup DParen [RLit (RlInt 1 (st ""))]; rp ";"; ri "prev"]]; rp "."; ri "field"]; rp ";"]; ri "pub"; ri "use"; ri "__cmacro__access_inc_pointer_field"; ri "as"; ri "access_inc_pointer_field"; rp ";"; rp "#"; RGroup DBracket [ri "doc"; RGroup DParen [ri "hidden"]]; rp "#"; RGroup DBracket [ri "macro_export"]; ri "macro_rules"; rp "!"; ri "__cmacro__access_renamed_field"; RGroup DBrace [RGroup DParen [rp "$"; ri "x"; rp ":"; ri "expr"]; rp "=>"; RGroup DBrace [rp "$"; ri "x"; rp "."; ri "new_name"]; rp ";"]; ri "pub"; ri "use"; ri "__cmacro__access_renamed_field"; ri "as"; ri "access_renamed_field"; rp ";"; rp "#"; RGroup DBracket [ri "doc"; RGroup DParen [ri "hidden"]]; rp "#"; RGroup DBracket [ri "macro_export"]; ri "macro_rules"; rp "!"; ri "__cmacro__access_address"; RGroup DBrace [RGroup DParen [rp "$"; ri "x"; rp ":"; ri "expr"]; rp "=>"; RGroup DBrace [RGroup DParen [rp "*"; ri "ptr"; rp "::"; ri "addr_of_mut"; rp "!"; RGroup DParen [rp "$"; ri "x"]]; rp "."; ri "new_name"]; rp ";"]; ri "pub"; ri "use"; ri "__cmacro__access_address"; ri "as"; ri "access_address"; rp ";"].
Proof. vm_compute. reflexivity. Qed.

(** tests/fixtures/file_line.h *)
Definition h_file_line : list def :=
  [DVar (st "LINE_VAR") [(st "__LINE__")];
   DFn (st "LINE") [] [(st "LINE_VAR")];
   DVar (st "FILE_VAR") [(st "__FILE__")];
   DFn (st "FILE") [] [(st "FILE_VAR")];
   DFn (st "STRINGIFY") [(st "s")] [(st "#"); (st "s")];
   DFn (st "STRINGIFY2") [(st "s")] [(st "STRINGIFY"); (st "("); (st "s"); (st ")")];
   DFn (st "LINE_AND_FILE") [] [(st "FILE"); (st "("); (st ")"); (st "STRINGIFY2"); (st "("); (st "__LINE__"); (st ")")];
   DFn (st "STRINGIFY_FILE") [] [(st "STRINGIFY2"); (st "("); (st "__FILE__"); (st ")")]].
Example fixture_file_line : test_gen (test_ctx []) h_file_line =
  [rp "#"; RGroup DBracket [ri "doc"; RGroup DParen [ri "hidden"]]; rp "#"; RGroup DBracket [ri "macro_export"]; ri "macro_rules"; rp "!"; ri "__cmacro__LINE"; RGroup DBrace [RGroup DParen []; rp "=>"; RGroup DBrace [ri "line"; rp "!"; RGroup DParen []; ri "as"; ri "c_uint"]; rp ";"]; ri "pub"; ri "use"; ri "__cmacro__LINE"; ri "as"; ri "LINE"; rp ";"; rp "#"; RGroup DBracket [ri "doc"; RGroup DParen [ri "hidden"]]; rp "#"; RGroup DBracket [ri "macro_export"]; ri "macro_rules"; rp "!"; ri "__cmacro__FILE"; RGroup DBrace [RGroup DParen []; rp "=>"; RGroup DBrace [RGroup DBrace [ri "const"; ri "BYTES"; rp ":"; rp "&"; RGroup DBracket [ri "u8"]; rp "="; ri "concat"; rp "!"; RGroup DParen [ri "file"; rp "!"; RGroup DParen []; rp ","; RLit (RlChar 0)]; rp "."; ri "as_bytes"; RGroup DParen []; rp ";"; ri "BYTES"; rp "."; ri "as_ptr"; RGroup DParen []; ri "as"; rp "*"; ri "const"; ri "c_char"]]; rp ";"]; ri "pub"; ri "use"; ri "__cmacro__FILE"; ri "as"; ri "FILE"; rp ";"; rp "#"; RGroup DBracket [ri "doc"; RGroup DParen [ri "hidden"]]; rp "#"; RGroup DBracket [ri "macro_export"]; ri "macro_rules"; rp "!"; ri "__cmacro__STRINGIFY"; RGroup DBrace [RGroup DParen [rp "$"; ri "s"; rp ":"; ri "expr"]; rp "=>"; RGroup DBrace [RGroup DBrace [ri "const"; ri "BYTES"; rp ":"; rp "&"; RGroup DBracket [ri "u8"]; rp "="; ri "concat"; rp "!"; RGroup DParen [ri "stringify"; rp "!"; RGroup DParen [rp "$"; ri "s"]; rp ","; RLit (RlChar 0)]; rp "."; ri "as_bytes"; RGroup DParen []; rp ";"; ri "BYTES"; rp "."; ri "as_ptr"; RGroup DParen []; ri "as"; rp "*"; ri "const"; ri "c_char"]]; rp ";"]; ri "pub"; ri "use"; ri "__cmacro__STRINGIFY"; ri "as"; ri "STRINGIFY"; rp ";"; rp "#"; RGroup DBracket [ri "doc"; RGroup DParen [ri "hidden"]]; rp "#"; RGroup DBracket [ri "macro_export"]; ri "macro_rules"; rp "!"; ri "__cmacro__STRINGIFY2"; RGroup DBrace [RGroup DParen [rp "$"; ri "s"; rp ":"; ri "expr"]; rp "=>"; RGroup DBrace [RGroup DBrace [ri "const"; ri "BYTES"; rp ":"; rp "&"; RGroup DBracket [ri "u8"]; rp "="; ri "concat"; rp "!"; RGroup DParen [ri "stringify"; rp "!"; RGroup DParen [rp "$"; ri "s"]; rp ","; RLit (RlChar 0)]; rp "."; ri "as_bytes"; RGroup DParen []; rp ";"; ri "BYTES"; rp "."; ri "as_ptr"; RGroup DParen []; ri "as"; rp "*"; ri "const"; ri "c_char"]]; rp ";"]; ri "pub"; ri "use"; ri "__cmacro__STRINGIFY2"; ri "as"; ri "STRINGIFY2"; rp ";"; rp "#"; RGroup DBracket [ri "doc"; RGroup DParen [ri "hidden"]]; rp "#"; RGroup DBracket [ri "macro_export"]; ri "macro_rules"; rp "!"; ri "__cmacro__LINE_AND_FILE"; RGroup DBrace [RGroup DParen []; rp "=>"; RGroup DBrace [RGroup DBrace [ri "const"; ri "BYTES"; rp ":"; rp "&"; RGroup DBracket [ri "u8"]; rp "="; ri "concat"; rp "!"; RGroup DParen [ri "file"; rp "!"; RGroup DParen []; rp ","; ri "stringify"; rp "!"; RGroup DParen [ri "line"; rp "!"; RGroup DParen []]; rp ","; RLit (RlChar 0)]; rp "."; ri "as_bytes"; RGroup DParen []; rp ";"; ri "BYTES"; rp "."; ri "as_ptr"; RGroup DParen []; ri "as"; rp "*"; ri "const"; ri "c_char"]]; rp ";"]; ri "pub"; ri "use"; ri "__cmacro__LINE_AND_FILE"; ri "as"; ri "LINE_AND_FILE"; rp ";"; rp "#"; RGroup DBracket [ri "doc"; RGroup DParen [ri "hidden"]]; rp "#"; RGroup DBracket [ri "macro_export"]; ri "macro_rules"; rp "!"; ri "__cmacro__STRINGIFY_FILE"; RGroup DBrace [RGroup DParen []; rp "=>"; RGroup DBrace [RGroup DBrace [ri "const"; ri "BYTES"; rp ":"; rp "&"; RGroup DBracket [ri "u8"]; rp "="; ri "concat"; rp "!"; RGroup DParen [ri "format"; rp "!"; RGroup DParen [RLit (RlStr [123%N; 58%N; 63%N; 125%N]); rp ","; ri "file"; rp "!"; RGroup DParen []]; rp ","; RLit (RlChar 0)]; rp "."; ri "as_bytes"; RGroup DParen []; rp ";"; ri "BYTES"; rp "."; ri "as_ptr"; RGroup DParen []; ri "as"; rp "*"; ri "const"; ri "c_char"]]; rp ";"]; ri "pub"; ri "use"; ri "__cmacro__STRINGIFY_FILE"; ri "as"; ri "STRINGIFY_FILE"; rp ";"].
Proof. vm_compute. reflexivity. Qed.

(** tests/fixtures/float.h *)
Definition h_float : list def :=
  [DVar (st "float0_0") [(st "0.")];
   DVar (st "float1_0") [(st "1.0f")];
   DVar (st "float_1") [(st ".1")];
   DVar (st "float2_0") [(st "2.0")];
   DVar (st "float1000_0") [(st "1e3")];
   DVar (st "float2000_0") [(st "2e+3")];
   DVar (st "float_001") [(st "1e-3")];
   DVar (st "float80_0") [(st "10.0"); (st "*"); (st "("); (st "1"); (st "<<"); (st "3"); (st ")")]].
Example fixture_float : test_gen (test_ctx []) h_float =
  [ri "pub"; ri "const"; ri "float0_0"; rp ":"; ri "f64"; rp "="; RLit (RlFloat 64 (S754_zero false)); rp ";"; ri "pub"; ri "const"; ri "float1_0"; rp ":"; ri "f32"; rp "="; RLit (RlFloat 32 (S754_finite false 8388608 (-23))); rp ";"; ri "pub"; ri "const"; ri "float_1"; rp ":"; ri "f64"; rp "="; RLit (RlFloat 64 (S754_finite false 7205759403792794 (-56))); rp ";"; ri "pub"; ri "const"; ri "float2_0"; rp ":"; ri "f64"; rp "="; RLit (RlFloat 64 (S754_finite false 4503599627370496 (-51))); rp ";"; ri "pub"; ri "const"; ri "float1000_0"; rp ":"; ri "f64"; rp "="; RLit (RlFloat 64 (S754_finite false 8796093022208000 (-43))); rp ";"; ri "pub"; ri "const"; ri "float2000_0"; rp ":"; ri "f64"; rp "="; RLit (RlFloat 64 (S754_finite false 8796093022208000 (-42))); rp ";"; ri "pub"; ri "const"; ri "float_001"; rp ":"; ri "f64"; rp "="; RLit (RlFloat 64 (S754_finite false 4611686018427388 (-62))); rp ";"; ri "pub"; ri "const"; ri "float80_0"; rp ":"; ri "f64"; rp "="; RLit (RlFloat 64 (S754_finite false 5629499534213120 (-46))); rp ";"].
Proof. vm_compute. reflexivity. Qed.

(** tests/fixtures/fn_alias.h *)
Definition h_fn_alias : list def :=
  [DFn (st "A") [] [(st "123")];
   DVar (st "B") [(st "A")];
   DFn (st "C") [] [(st "B"); (st "("); (st ")")]].
Example fixture_fn_alias : test_gen (test_ctx []) h_fn_alias =
  [rp "#"; RGroup DBracket [ri "doc"; RGroup DParen [ri "hidden"]]; rp "#"; RGroup DBracket [ri "macro_export"]; ri "macro_rules"; rp "!"; ri "__cmacro__A"; RGroup DBrace [RGroup DParen []; rp "=>"; RGroup DBrace [RLit (RlInt 123 (st ""))]; rp ";"]; ri "pub"; ri "use"; ri "__cmacro__A"; ri "as"; ri "A"; rp ";"; rp "#"; RGroup DBracket [ri "doc"; RGroup DParen [ri "hidden"]]; rp "#"; RGroup DBracket [ri "macro_export"]; ri "macro_rules"; rp "!"; ri "__cmacro__C"; RGroup DBrace [RGroup DParen []; rp "=>"; RGroup DBrace [RLit (RlInt 123 (st ""))]; rp ";"]; ri "pub"; ri "use"; ri "__cmacro__C"; ri "as"; ri "C"; rp ";"].
Proof. vm_compute. reflexivity. Qed.

(** tests/fixtures/fn_same_name.h *)
Definition h_fn_same_name : list def :=
  [DFn (st "func") [(st "x")] [(st "func"); (st "("); (st "x"); (st ")")];
   DFn (st "wrapper_func") [(st "x")] [(st "func"); (st "("); (st "x"); (st ")")]].
Example fixture_fn_same_name : test_gen (test_ctx [(st "func", ([plain_ty "c_int"], plain_ty "c_void"))]) h_fn_same_name =
  [rp "#"; RGroup DBracket [ri "doc"; RGroup DParen [ri "hidden"]]; rp "#"; RGroup DBracket [ri "macro_export"]; ri "macro_rules"; rp "!"; ri "__cmacro__func"; RGroup DBrace [RGroup DParen [rp "$"; ri "x"; rp ":"; ri "expr"]; rp "=>"; RGroup DBrace [ri "func"; RGroup DParen [RGroup DParen [rp "$"; ri "x"]; rp "."; ri "into"; RGroup DParen []]]; rp ";"]; ri "pub"; ri "use"; ri "__cmacro__func"; ri "as"; ri "func"; rp ";"; rp "#"; RGroup DBracket [ri "allow"; RGroup DParen [ri "non_snake_case"; rp ","; ri "unused_mut"; rp ","; ri "unsafe_code"]]; rp "#"; RGroup DBracket [ri "inline"; RGroup DParen [ri "always"]]; ri "pub"; ri "unsafe"; ri "extern"; RLit (RlStr [67%N]); ri "fn"; ri "wrapper_func"; RGroup DParen [ri "mut"; ri "x"; rp ":"; ri "c_int"]; RGroup DBrace [ri "func"; RGroup DParen [ri "x"]; rp ";"]].
Proof. vm_compute. reflexivity. Qed.

(** tests/fixtures/fn_same_name_different_arity.h *)
Definition h_fn_same_name_different_arity : list def :=
  [DFn (st "func") [(st "x")] [(st "func"); (st "("); (st "x"); (st ","); (st "3"); (st ")")];
   DFn (st "wrapper_func") [(st "x")] [(st "func"); (st "("); (st "x"); (st ","); (st "3"); (st ")")]].
Example fixture_fn_same_name_different_arity : test_gen (test_ctx [(st "func", ([plain_ty "c_int"; plain_ty "c_int"], plain_ty "c_void"))]) h_fn_same_name_different_arity =
  [rp "#"; RGroup DBracket [ri "doc"; RGroup DParen [ri "hidden"]]; rp "#"; RGroup DBracket [ri "macro_export"]; ri "macro_rules"; rp "!"; ri "__cmacro__func"; RGroup DBrace [RGroup DParen [rp "$"; ri "x"; rp ":"; ri "expr"]; rp "=>"; RGroup DBrace [ri "func"; RGroup DParen [RGroup DParen [rp "$"; ri "x"]; rp "."; ri "into"; RGroup DParen []; rp ","; RLit (RlInt 3 (st ""))]]; rp ";"]; ri "pub"; ri "use"; ri "__cmacro__func"; ri "as"; ri "func"; rp ";"].
Proof. vm_compute. reflexivity. Qed.

(** tests/fixtures/int.h *)
Definition h_int : list def :=
  [DVar (st "int_9223372036854775808") [(st "-"); (st "9223372036854775808")];
   DVar (st "int_5") [(st "-"); (st "3"); (st "-"); (st "2")];
   DVar (st "int_3") [(st "-"); (st "("); (st "-"); (st "("); (st "-"); (st "3"); (st ")"); (st ")")];
   DVar (st "int6") [(st "("); (st "("); (st "32"); (st "|"); (st "15"); (st ")"); (st "^"); (st "9"); (st ")"); (st "&"); (st "7")];
   DVar (st "int13") [(st "1"); (st "|"); (st "8"); (st "^"); (st "6"); (st "&"); (st "2"); (st "<<"); (st "1")];
   DVar (st "int16") [(st "("); (st "("); (st "("); (st "1"); (st ")"); (st "<<"); (st "4ULL"); (st ")"); (st ")")];
   DVar (st "int12") [(st "("); (st "("); (st "("); (st "32"); (st "|"); (st "15"); (st ")"); (st "^"); (st "9"); (st ")"); (st "&"); (st "7"); (st ")"); (st "<<"); (st "1")];
   DVar (st "int17") [(st "("); (st "("); (st "("); (st "("); (st "32"); (st "|"); (st "15"); (st ")"); (st "^"); (st "9"); (st ")"); (st "&"); (st "7"); (st ")"); (st "<<"); (st "1"); (st ")"); (st "+"); (st "5")];
   DVar (st "int15") [(st "("); (st "("); (st "("); (st "("); (st "("); (st "32"); (st "|"); (st "15"); (st ")"); (st "^"); (st "9"); (st ")"); (st "&"); (st "7"); (st ")"); (st "<<"); (st "1"); (st ")"); (st "+"); (st "5"); (st ")"); (st "-"); (st "2")];
   DVar (st "int30") [(st "("); (st "("); (st "("); (st "("); (st "("); (st "("); (st "("); (st "32"); (st "|"); (st "15"); (st ")"); (st "^"); (st "9"); (st ")"); (st "&"); (st "7"); (st ")"); (st "<<"); (st "1"); (st ")"); (st "+"); (st "5"); (st ")"); (st "-"); (st "2"); (st ")"); (st "*"); (st "4"); (st ")"); (st "/"); (st "2")];
   DVar (st "int38") [(st "("); (st "32"); (st "|"); (st "15"); (st ")"); (st "^"); (st "9")];
   DVar (st "int39") [(st "32"); (st "|"); (st "15"); (st "^"); (st "9"); (st "&"); (st "7"); (st "<<"); (st "1"); (st "+"); (st "5"); (st "-"); (st "2"); (st "*"); (st "4"); (st "/"); (st "2")];
   DVar (st "int47") [(st "32"); (st "|"); (st "15")];
   DVar (st "int60") [(st "("); (st "("); (st "("); (st "("); (st "("); (st "("); (st "32"); (st "|"); (st "15"); (st ")"); (st "^"); (st "9"); (st ")"); (st "&"); (st "7"); (st ")"); (st "<<"); (st "1"); (st ")"); (st "+"); (st "5"); (st ")"); (st "-"); (st "2"); (st ")"); (st "*"); (st "4")]].
Example fixture_int : test_gen (test_ctx []) h_int =
  [ri "pub"; ri "const"; ri "int_9223372036854775808"; rp ":"; ri "_"; rp "="; rp "-"; RLit (RlInt 9223372036854775808 (st "")); rp ";"; ri "pub"; ri "const"; ri "int_5"; rp ":"; ri "_"; rp "="; rp "-"; RLit (RlInt 5 (st "")); rp ";"; ri "pub"; ri "const"; ri "int_3"; rp ":"; ri "_"; rp "="; rp "-"; RLit (RlInt 3 (st "")); rp ";"; ri "pub"; ri "const"; ri "int6"; rp ":"; ri "_"; rp "="; RLit (RlInt 6 (st "")); rp ";"; ri "pub"; ri "const"; ri "int13"; rp ":"; ri "_"; rp "="; RLit (RlInt 13 (st "")); rp ";"; ri "pub"; ri "const"; ri "int16"; rp ":"; ri "_"; rp "="; RLit (RlInt 16 (st "")); rp ";"; ri "pub"; ri "const"; ri "int12"; rp ":"; ri "_"; rp "="; RLit (RlInt 12 (st "")); rp ";"; ri "pub"; ri "const"; ri "int17"; rp ":"; ri "_"; rp "="; RLit (RlInt 17 (st "")); rp ";"; ri "pub"; ri "const"; ri "int15"; rp ":"; ri "_"; rp "="; RLit (RlInt 15 (st "")); rp ";"; ri "pub"; ri "const"; ri "int30"; rp ":"; ri "_"; rp "="; RLit (RlInt 30 (st "")); rp ";"; ri "pub"; ri "const"; ri "int38"; rp ":"; ri "_"; rp "="; RLit (RlInt 38 (st "")); rp ";"; ri "pub"; ri "const"; ri "int39"; rp ":"; ri "_"; rp "="; RLit (RlInt 39 (st "")); rp ";"; ri "pub"; ri "const"; ri "int47"; rp ":"; ri "_"; rp "="; RLit (RlInt 47 (st "")); rp ";"; ri "pub"; ri "const"; ri "int60"; rp ":"; ri "_"; rp "="; RLit (RlInt 60 (st "")); rp ";"].
Proof. vm_compute. reflexivity. Qed.

(** tests/fixtures/limits.h *)
Definition h_limits : list def :=
  [DVar (st "UCHAR_MAX") [(st "__SCHAR_MAX__"); (st "*"); (st "2"); (st "+"); (st "1")];
   DVar (st "UINT_MAX") [(st "__INT_MAX__"); (st "*"); (st "2"); (st "+"); (st "1")];
   DVar (st "ULONG_MAX") [(st "__LONG_MAX__"); (st "*"); (st "2"); (st "+"); (st "1")];
   DVar (st "ULONGLONG_MAX") [(st "__LONG_LONG_MAX__"); (st "*"); (st "2"); (st "+"); (st "1")]].
Example fixture_limits : test_gen (test_ctx []) h_limits =
  [ri "pub"; ri "const"; ri "UCHAR_MAX"; rp ":"; ri "c_uchar"; rp "="; ri "c_schar"; rp "::"; ri "MAX"; ri "as"; ri "c_uchar"; rp "*"; RLit (RlInt 2 (st "")); rp "+"; RLit (RlInt 1 (st "")); rp ";"; ri "pub"; ri "const"; ri "UINT_MAX"; rp ":"; ri "c_uint"; rp "="; ri "c_int"; rp "::"; ri "MAX"; ri "as"; ri "c_uint"; rp "*"; RLit (RlInt 2 (st "")); rp "+"; RLit (RlInt 1 (st "")); rp ";"; ri "pub"; ri "const"; ri "ULONG_MAX"; rp ":"; ri "c_ulong"; rp "="; ri "c_long"; rp "::"; ri "MAX"; ri "as"; ri "c_ulong"; rp "*"; RLit (RlInt 2 (st "")); rp "+"; RLit (RlInt 1 (st "")); rp ";"; ri "pub"; ri "const"; ri "ULONGLONG_MAX"; rp ":"; ri "c_ulonglong"; rp "="; ri "c_longlong"; rp "::"; ri "MAX"; ri "as"; ri "c_ulonglong"; rp "*"; RLit (RlInt 2 (st "")); rp "+"; RLit (RlInt 1 (st "")); rp ";"].
Proof. vm_compute. reflexivity. Qed.

(** tests/fixtures/literal_ptr.h *)
Definition h_literal_ptr : list def :=
  [DVar (st "__IO") [];
   DVar (st "PERIPH_BASE") [(st "("); (st "("); (st "uint32_t"); (st ")"); (st "0x40000000U"); (st ")")];
   DVar (st "APB2PERIPH_BASE") [(st "("); (st "PERIPH_BASE"); (st "+"); (st "0x00010000U"); (st ")")];
   DVar (st "SYSCFG_BASE") [(st "("); (st "APB2PERIPH_BASE"); (st "+"); (st "0x0000U"); (st ")")];
   DVar (st "SYSCFG") [(st "("); (st "("); (st "SYSCFG_TypeDef"); (st "*"); (st ")"); (st "SYSCFG_BASE"); (st ")")]].
Example fixture_literal_ptr : test_gen (test_ctx []) h_literal_ptr =
  [ri "pub"; ri "const"; ri "PERIPH_BASE"; rp ":"; ri "uint32_t"; rp "="; RLit (RlInt 1073741824 (st "u32")); ri "as"; ri "uint32_t"; rp ";"; ri "pub"; ri "const"; ri "APB2PERIPH_BASE"; rp ":"; ri "uint32_t"; rp "="; RLit (RlInt 1073741824 (st "u32")); ri "as"; ri "uint32_t"; rp "+"; RLit (RlInt 65536 (st "")); rp ";"; ri "pub"; ri "const"; ri "SYSCFG_BASE"; rp ":"; ri "uint32_t"; rp "="; RLit (RlInt 1073741824 (st "u32")); ri "as"; ri "uint32_t"; rp "+"; RLit (RlInt 65536 (st "")); rp "+"; RLit (RlInt 0 (st "")); rp ";"; ri "pub"; ri "const"; ri "SYSCFG"; rp ":"; rp "*"; ri "mut"; ri "SYSCFG_TypeDef"; rp "="; RGroup DParen [RLit (RlInt 1073741824 (st "u32")); ri "as"; ri "uint32_t"; rp "+"; RLit (RlInt 65536 (st "")); rp "+"; RLit (RlInt 0 (st ""))]; ri "as"; rp "*"; ri "mut"; ri "SYSCFG_TypeDef"; rp ";"].
Proof. vm_compute. reflexivity. Qed.

(** tests/fixtures/multiline.h *)
Definition h_multiline : list def :=
  [DFn (st "MULTILINE") [(st "a"); (st "b"); (st "c")] [(st "a"); (st "%"); (st "b"); (st "/"); (st "c")];
   DVar (st "MULTILINE_OP") [(st "a"); (st "+"); (st "3")];
   DFn (st "MULTILINE_BRACES") [(st "a")] [(st "{"); (st "a"); (st ";"); (st "}")];
   DFn (st "MULTILINE_BRACES_NO_INDENT") [(st "a")] [(st "{"); (st "a"); (st ";"); (st "}")]].
Example fixture_multiline : test_gen (test_ctx []) h_multiline =
  [rp "#"; RGroup DBracket [ri "doc"; RGroup DParen [ri "hidden"]]; rp "#"; RGroup DBracket [ri "macro_export"]; ri "macro_rules"; rp "!"; ri "__cmacro__MULTILINE"; RGroup DBrace [RGroup DParen [rp "$"; ri "a"; rp ":"; ri "expr"; rp ","; rp "$"; ri "b"; rp ":"; ri "expr"; rp ","; rp "$"; ri "c"; rp ":"; ri "expr"]; rp "=>"; RGroup DBrace [rp "$"; ri "a"; rp "%"; rp "$"; ri "b"; rp "/"; rp "$"; ri "c"]; rp ";"]; ri "pub"; ri "use"; ri "__cmacro__MULTILINE"; ri "as"; ri "MULTILINE"; rp ";"; rp "#"; RGroup DBracket [ri "doc"; RGroup DParen [ri "hidden"]]; rp "#"; RGroup DBracket [ri "macro_export"]; ri "macro_rules"; rp "!"; ri "__cmacro__MULTILINE_BRACES"; RGroup DBrace [RGroup DParen [rp "$"; ri "a"; rp ":"; ri "expr"]; rp "=>"; RGroup DBrace [RGroup DBrace [rp "$"; ri "a"; rp ";"]]; rp ";"]; ri "pub"; ri "use"; ri "__cmacro__MULTILINE_BRACES"; ri "as"; ri "MULTILINE_BRACES"; rp ";"; rp "#"; RGroup DBracket [ri "doc"; RGroup DParen [ri "hidden"]]; rp "#"; RGroup DBracket [ri "macro_export"]; ri "macro_rules"; rp "!"; ri "__cmacro__MULTILINE_BRACES_NO_INDENT"; RGroup DBrace [RGroup DParen [rp "$"; ri "a"; rp ":"; ri "expr"]; rp "=>"; RGroup DBrace [RGroup DBrace [rp "$"; ri "a"; rp ";"]]; rp ";"]; ri "pub"; ri "use"; ri "__cmacro__MULTILINE_BRACES_NO_INDENT"; ri "as"; ri "MULTILINE_BRACES_NO_INDENT"; rp ";"].
Proof. vm_compute. reflexivity. Qed.

(** tests/fixtures/nested_fn_macros.h *)
Definition h_nested_fn_macros : list def :=
  [DFn (st "f1") [(st "x")] [(st "x"); (st "*"); (st "2")];
   DFn (st "f2") [(st "y")] [(st "y"); (st "*"); (st "f1"); (st "("); (st "y"); (st ")")];
   DVar (st "y") [(st "x")];
   DFn (st "f3") [(st "x")] [(st "y"); (st "+"); (st "y")];
   DFn (st "f4") [(st "x"); (st "y"); (st "z")] [(st "("); (st "x"); (st "+"); (st "y"); (st ")"); (st "*"); (st "z")]].
Example fixture_nested_fn_macros : test_gen (test_ctx []) h_nested_fn_macros =
  [rp "#"; RGroup DBracket [ri "doc"; RGroup DParen [ri "hidden"]]; rp "#"; RGroup DBracket [ri "macro_export"]; ri "macro_rules"; rp "!"; ri "__cmacro__f1"; RGroup DBrace [RGroup DParen [rp "$"; ri "x"; rp ":"; ri "expr"]; rp "=>"; RGroup DBrace [rp "$"; ri "x"; rp "*"; RLit (RlInt 2 (st ""))]; rp ";"]; ri "pub"; ri "use"; ri "__cmacro__f1"; ri "as"; ri "f1"; rp ";"; rp "#"; RGroup DBracket [ri "doc"; RGroup DParen [ri "hidden"]]; rp "#"; RGroup DBracket [ri "macro_export"]; ri "macro_rules"; rp "!"; ri "__cmacro__f2"; RGroup DBrace [RGroup DParen [rp "$"; ri "y"; rp ":"; ri "expr"]; rp "=>"; RGroup DBrace [rp "$"; ri "y"; rp "*"; rp "$"; ri "y"; rp "*"; RLit (RlInt 2 (st ""))]; rp ";"]; ri "pub"; ri "use"; ri "__cmacro__f2"; ri "as"; ri "f2"; rp ";"; rp "#"; RGroup DBracket [ri "doc"; RGroup DParen [ri "hidden"]]; rp "#"; RGroup DBracket [ri "macro_export"]; ri "macro_rules"; rp "!"; ri "__cmacro__f3"; RGroup DBrace [RGroup DParen [rp "$"; ri "x"; rp ":"; ri "expr"]; rp "=>"; RGroup DBrace [ri "x"; rp "+"; ri "x"]; rp ";"]; ri "pub"; ri "use"; ri "__cmacro__f3"; ri "as"; ri "f3"; rp ";"; rp "#"; RGroup DBracket [ri "doc"; RGroup DParen [ri "hidden"]]; rp "#"; RGroup DBracket [ri "macro_export"]; ri "macro_rules"; rp "!"; ri "__cmacro__f4"; RGroup DBrace [RGroup DParen [rp "$"; ri "x"; rp ":"; ri "expr"; rp ","; rp "$"; ri "y"; rp ":"; ri "expr"; rp ","; rp "$"; ri "z"; rp ":"; ri "expr"]; rp "=>"; RGroup DBrace [RGroup DParen [rp "$"; ri "x"; rp "+"; rp "$"; ri "y"]; rp "*"; rp "$"; ri "z"]; rp ";"]; ri "pub"; ri "use"; ri "__cmacro__f4"; ri "as"; ri "f4"; rp ";"].
Proof. vm_compute. reflexivity. Qed.

(** tests/fixtures/null_check.h *)
Definition h_null_check : list def :=
  [DVar (st "NULL") [(st "("); (st "void"); (st "*"); (st ")"); (st "0")];
   DFn (st "IS_NULL") [(st "ptr")] [(st "ptr"); (st "=="); (st "NULL")];
   DFn (st "IS_NONNULL") [(st "ptr")] [(st "ptr"); (st "!="); (st "NULL")]].
Example fixture_null_check : test_gen (test_ctx []) h_null_check =
  [ri "pub"; ri "const"; ri "NULL"; rp ":"; rp "*"; ri "mut"; ri "c_void"; rp "="; ri "ptr"; rp "::"; ri "null_mut"; RGroup DParen []; rp ";"; rp "#"; RGroup DBracket [ri "doc"; RGroup DParen [ri "hidden"]]; rp "#"; RGroup DBracket [ri "macro_export"]; ri "macro_rules"; rp "!"; ri "__cmacro__IS_NULL"; RGroup DBrace [RGroup DParen [rp "$"; ri "ptr"; rp ":"; ri "expr"]; rp "=>"; RGroup DBrace [rp "$"; ri "ptr"; rp "=="; ri "ptr"; rp "::"; ri "null_mut"; RGroup DParen []]; rp ";"]; ri "pub"; ri "use"; ri "__cmacro__IS_NULL"; ri "as"; ri "IS_NULL"; rp ";"; rp "#"; RGroup DBracket [ri "doc"; RGroup DParen [ri "hidden"]]; rp "#"; RGroup DBracket [ri "macro_export"]; ri "macro_rules"; rp "!"; ri "__cmacro__IS_NONNULL"; RGroup DBrace [RGroup DParen [rp "$"; ri "ptr"; rp ":"; ri "expr"]; rp "=>"; RGroup DBrace [rp "$"; ri "ptr"; rp "!="; ri "ptr"; rp "::"; ri "null_mut"; RGroup DParen []]; rp ";"]; ri "pub"; ri "use"; ri "__cmacro__IS_NONNULL"; ri "as"; ri "IS_NONNULL"; rp ";"].
Proof. vm_compute. reflexivity. Qed.

(** tests/fixtures/offsetof.h *)
Definition h_offsetof : list def :=
  [DFn (st "offsetof") [(st "type"); (st "member")] [(st "__builtin_offsetof"); (st "("); (st "type"); (st ","); (st "member"); (st ")")]].
Example fixture_offsetof : test_gen (test_ctx []) h_offsetof =
  [rp "#"; RGroup DBracket [ri "doc"; RGroup DParen [ri "hidden"]]; rp "#"; RGroup DBracket [ri "macro_export"]; ri "macro_rules"; rp "!"; ri "__cmacro__offsetof"; RGroup DBrace [RGroup DParen [rp "$"; ri "type"; rp ":"; ri "ty"; rp ","; rp "$"; ri "member"; rp ":"; ri "tt"]; rp "=>"; RGroup DBrace [ri "mem"; rp "::"; ri "offsetof"; rp "!"; RGroup DParen [rp "$"; ri "type"; rp ","; rp "$"; ri "member"]]; rp ";"]; ri "pub"; ri "use"; ri "__cmacro__offsetof"; ri "as"; ri "offsetof"; rp ";"].
Proof. vm_compute. reflexivity. Qed.

(** tests/fixtures/pointer_arithmetic.h *)
Definition h_pointer_arithmetic : list def :=
  [DFn (st "PREV") [(st "x")] [(st "*"); (st "("); (st "x"); (st "-"); (st "1"); (st ")")];
   DFn (st "NEXT") [(st "x")] [(st "*"); (st "("); (st "x"); (st "+"); (st "1"); (st ")")];
   DFn (st "NEXT_INC") [(st "x")] [(st "*"); (st "("); (st "++"); (st "x"); (st ")")];
   DFn (st "CURR_INC") [(st "x")] [(st "*"); (st "("); (st "x"); (st "++"); (st ")")];
   DFn (st "PREV_DEC") [(st "x")] [(st "*"); (st "("); (st "--"); (st "x"); (st ")")];
   DFn (st "CURR_DEC") [(st "x")] [(st "*"); (st "("); (st "x"); (st "--"); (st ")")]].
Example fixture_pointer_arithmetic : test_gen (test_ctx []) h_pointer_arithmetic =
  [rp "#"; RGroup DBracket [ri "doc"; RGroup DParen [ri "hidden"]]; rp "#"; RGroup DBracket [ri "macro_export"]; ri "macro_rules"; rp "!"; ri "__cmacro__PREV"; RGroup DBrace [RGroup DParen [rp "$"; ri "x"; rp ":"; ri "expr"]; rp "=>"; RGroup DBrace [rp "*"; rp "$"; ri "x"; rp "."; ri "sub"; RGroup DParen [RLit (RlInt 1 (st ""))]]; rp ";"]; ri "pub"; ri "use"; ri "__cmacro__PREV"; ri "as"; ri "PREV"; rp ";"; rp "#"; RGroup DBracket [ri "doc"; RGroup DParen [ri "hidden"]]; rp "#"; RGroup DBracket [ri "macro_export"]; ri "macro_rules"; rp "!"; ri "__cmacro__NEXT"; RGroup DBrace [RGroup DParen [rp "$"; ri "x"; rp ":"; ri "expr"]; rp "=>"; RGroup DBrace [rp "*"; rp "$"; ri "x"; rp "."; ri "add"; RGroup DParen [RLit (RlInt 1 (st ""))]]; rp ";"]; ri "pub"; ri "use"; ri "__cmacro__NEXT"; ri "as"; ri "NEXT"; rp ";"; rp "#"; RGroup DBracket [ri "doc"; RGroup DParen [ri "hidden"]]; rp "#"; RGroup DBracket [ri "macro_export"]; ri "macro_rules"; rp "!"; ri "__cmacro__NEXT_INC"; RGroup DBrace [RGroup DParen [rp "$"; ri "x"; rp ":"; ri "expr"]; rp "=>"; RGroup DBrace [rp "*"; RGroup DBrace [rp "$"; ri "x"; rp "="; rp "$"; ri "x"; rp "."; ri "add"; RGroup DParen [RLit (RlInt 1 (st ""))]; rp ";"; rp "$"; ri "x"]]; rp ";"]; ri "pub"; ri "use"; ri "__cmacro__NEXT_INC"; ri "as"; ri "NEXT_INC"; rp ";"; rp "#"; RGroup DBracket [ri "doc"; RGroup DParen [ri "hidden"]]; rp "#"; RGroup DBracket [ri "macro_export"]; ri "macro_rules"; rp "!"; ri "__cmacro__CURR_INC"; RGroup DBrace [RGroup DParen [rp "$"; ri "x"; rp ":"; ri "expr"]; rp "=>"; RGroup DBrace [rp "*"; RGroup DBrace [ri "let"; ri "prev"; rp "="; rp "$"; ri "x"; rp ";"; rp "$"; ri "x"; rp "="; rp "$"; ri "x"; rp "."; ri "add"; RGroup DParen [RLit (RlInt 1 (st ""))]; rp ";"; ri "prev"]]; rp ";"]; ri "pub"; ri "use"; ri "__cmacro__CURR_INC"; ri "as"; ri "CURR_INC"; rp ";"; rp "#"; RGroup DBracket [ri "doc"; RGroup DParen [ri "hidden"]]; rp "#"; RGroup DBracket [ri "macro_export"]; ri "macro_rules"; rp "!"; ri "__cmacro__PREV_DEC"; RGroup DBrace [RGroup DParen [rp "$"; ri "x"; rp ":"; ri "expr"]; rp "=>"; RGroup DBrace [rp "*"; RGroup DBrace [rp "$"; ri "x"; rp "="; rp "$"; ri "x"; rp "."; ri "sub"; RGroup DParen [RLit (RlInt 1 (st ""))]; rp ";"; rp "$"; ri "x"]]; rp ";"]; ri "pub"; ri "use"; ri "__cmacro__PREV_DEC"; ri "as"; ri "PREV_DEC"; rp ";"; rp "#"; RGroup DBracket [ri "doc"; RGroup DParen [ri "hidden"]]; rp "#"; RGroup DBracket [ri "macro_export"]; ri "macro_rules"; rp "!"; ri "__cmacro__CURR_DEC"; RGroup DBrace [RGroup DParen [rp "$"; ri "x"; rp ":"; ri "expr"]; rp "=>"; RGroup DBrace [rp "*"; RGroup DBrace [ri "let"; ri "prev"; rp "="; rp "$"; ri "x"; rp ";"; rp "$"; ri "x"; rp "="; rp "$"; ri "x"; rp "."; ri "sub"; RGroup DParen [RLit (RlInt 1 (st ""))]; rp ";"; ri "prev"]]; rp ";"]; ri "pub"; ri "use"; ri "__cmacro__CURR_DEC"; ri "as"; ri "CURR_DEC"; rp ";"].
Proof. vm_compute. reflexivity. Qed.

(** tests/fixtures/precedence.h *)
Definition h_precedence : list def :=
  [DFn (st "prec_rem_div1") [(st "a"); (st "b"); (st "c")] [(st "a"); (st "%"); (st "b"); (st "/"); (st "c")];
   DFn (st "prec_rem_div2") [(st "a"); (st "b"); (st "c")] [(st "("); (st "a"); (st "%"); (st "b"); (st ")"); (st "/"); (st "c")];
   DFn (st "prec_rem_div3") [(st "a"); (st "b"); (st "c")] [(st "a"); (st "%"); (st "("); (st "b"); (st "/"); (st "c"); (st ")")]].
Example fixture_precedence : test_gen (test_ctx []) h_precedence =
  [rp "#"; RGroup DBracket [ri "doc"; RGroup DParen [ri "hidden"]]; rp "#"; RGroup DBracket [ri "macro_export"]; ri "macro_rules"; rp "!"; ri "__cmacro__prec_rem_div1"; RGroup DBrace [RGroup DParen [rp "$"; ri "a"; rp ":"; ri "expr"; rp ","; rp "$"; ri "b"; rp ":"; ri "expr"; rp ","; rp "$"; ri "c"; rp ":"; ri "expr"]; rp "=>"; RGroup DBrace [rp "$"; ri "a"; rp "%"; rp "$"; ri "b"; rp "/"; rp "$"; ri "c"]; rp ";"]; ri "pub"; ri "use"; ri "__cmacro__prec_rem_div1"; ri "as"; ri "prec_rem_div1"; rp ";"; rp "#"; RGroup DBracket [ri "doc"; RGroup DParen [ri "hidden"]]; rp "#"; RGroup DBracket [ri "macro_export"]; ri "macro_rules"; rp "!"; ri "__cmacro__prec_rem_div2"; RGroup DBrace [RGroup DParen [rp "$"; ri "a"; rp ":"; ri "expr"; rp ","; rp "$"; ri "b"; rp ":"; ri "expr"; rp ","; rp "$"; ri "c"; rp ":"; ri "expr"]; rp "=>"; RGroup DBrace [rp "$"; ri "a"; rp "%"; rp "$"; ri "b"; rp "/"; rp "$"; ri "c"]; rp ";"]; ri "pub"; ri "use"; ri "__cmacro__prec_rem_div2"; ri "as"; ri "prec_rem_div2"; rp ";"; rp "#"; RGroup DBracket [ri "doc"; RGroup DParen [ri "hidden"]]; rp "#"; RGroup DBracket [ri "macro_export"]; ri "macro_rules"; rp "!"; ri "__cmacro__prec_rem_div3"; RGroup DBrace [RGroup DParen [rp "$"; ri "a"; rp ":"; ri "expr"; rp ","; rp "$"; ri "b"; rp ":"; ri "expr"; rp ","; rp "$"; ri "c"; rp ":"; ri "expr"]; rp "=>"; RGroup DBrace [rp "$"; ri "a"; rp "%"; RGroup DParen [rp "$"; ri "b"; rp "/"; rp "$"; ri "c"]]; rp ";"]; ri "pub"; ri "use"; ri "__cmacro__prec_rem_div3"; ri "as"; ri "prec_rem_div3"; rp ";"].
Proof. vm_compute. reflexivity. Qed.

(** tests/fixtures/sizeof.h *)
Definition h_sizeof : list def :=
  [DVar (st "SIZEOF_INT") [(st "sizeof"); (st "("); (st "int"); (st ")")];
   DVar (st "SIZEOF_SHIFT") [(st "sizeof"); (st "("); (st "int"); (st ")"); (st "<<"); (st "3")]].
Example fixture_sizeof : test_gen (test_ctx []) h_sizeof =
  [ri "pub"; ri "const"; ri "SIZEOF_INT"; rp ":"; ri "c_size_t"; rp "="; ri "mem"; rp "::"; ri "size_of"; rp "::"; rp "<"; ri "c_int"; rp ">"; RGroup DParen []; ri "as"; ri "c_size_t"; rp ";"; ri "pub"; ri "const"; ri "SIZEOF_SHIFT"; rp ":"; ri "c_size_t"; rp "="; RGroup DParen [ri "mem"; rp "::"; ri "size_of"; rp "::"; rp "<"; ri "c_int"; rp ">"; RGroup DParen []; ri "as"; ri "c_size_t"]; rp "<<"; RLit (RlInt 3 (st "")); rp ";"].
Proof. vm_compute. reflexivity. Qed.

(** tests/fixtures/statements.h *)
Definition h_statements : list def :=
  [DFn (st "vTaskDelayUntil") [(st "pxPreviousWakeTime"); (st "xTimeIncrement")] [(st "do"); (st "{"); (st "("); (st "void"); (st ")"); (st "xTaskDelayUntil"); (st "("); (st "("); (st "pxPreviousWakeTime"); (st ")"); (st ","); (st "("); (st "xTimeIncrement"); (st ")"); (st ")"); (st ";"); (st "}"); (st "while"); (st "("); (st "0"); (st ")")];
   DVar (st "pdFALSE") [(st "0")];
   DFn (st "portEND_SWITCHING_ISR") [(st "xSwitchRequired")] [(st "if"); (st "("); (st "xSwitchRequired"); (st "!="); (st "pdFALSE"); (st ")"); (st "vPortYield"); (st "("); (st ")")];
   DVar (st "JSVAL_TAG_MAX_DOUBLE") [(st "("); (st "("); (st "uint32_t"); (st ")"); (st "("); (st "0x1FFF0"); (st ")"); (st ")")];
   DVar (st "JSVAL_TAG_SHIFT") [(st "47")];
   DFn (st "JSVAL_TYPE_TO_TAG") [(st "type")] [(st "("); (st "("); (st "JSValueTag"); (st ")"); (st "("); (st "JSVAL_TAG_MAX_DOUBLE"); (st "|"); (st "("); (st "type"); (st ")"); (st ")"); (st ")")];
   DFn (st "JSVAL_TYPE_TO_SHIFTED_TAG") [(st "type")] [(st "("); (st "("); (st "("); (st "uint64_t"); (st ")"); (st "JSVAL_TYPE_TO_TAG"); (st "("); (st "type"); (st ")"); (st ")"); (st "<<"); (st "JSVAL_TAG_SHIFT"); (st ")")]].
Example fixture_statements : test_gen (test_ctx []) h_statements =
  [rp "#"; RGroup DBracket [ri "doc"; RGroup DParen [ri "hidden"]]; rp "#"; RGroup DBracket [ri "macro_export"]; ri "macro_rules"; rp "!"; ri "__cmacro__vTaskDelayUntil"; RGroup DBrace [RGroup DParen [rp "$"; ri "pxPreviousWakeTime"; rp ":"; ri "expr"; rp ","; rp "$"; ri "xTimeIncrement"; rp ":"; ri "expr"]; rp "=>"; RGroup DBrace [ri "loop"; RGroup DBrace [RGroup DBrace [ri "let"; ri "_"; rp "="; ri "xTaskDelayUntil"; RGroup DParen [RGroup DParen [rp "$"; ri "pxPreviousWakeTime"]; rp "."; ri "into"; RGroup DParen []; rp ","; RGroup DParen [rp "$"; ri "xTimeIncrement"]; rp "."; ri "into"; RGroup DParen []]; rp ";"]; rp ";"; ri "if"; RLit (RlInt 0 (st "")); rp "!="; RLit (RlInt 0 (st "")); RGroup DBrace [ri "continue"]; ri "break"]]; rp ";"]; ri "pub"; ri "use"; ri "__cmacro__vTaskDelayUntil"; ri "as"; ri "vTaskDelayUntil"; rp ";"; ri "pub"; ri "const"; ri "pdFALSE"; rp ":"; ri "_"; rp "="; RLit (RlInt 0 (st "")); rp ";"; rp "#"; RGroup DBracket [ri "doc"; RGroup DParen [ri "hidden"]]; rp "#"; RGroup DBracket [ri "macro_export"]; ri "macro_rules"; rp "!"; ri "__cmacro__portEND_SWITCHING_ISR"; RGroup DBrace [RGroup DParen [rp "$"; ri "xSwitchRequired"; rp ":"; ri "expr"]; rp "=>"; RGroup DBrace [ri "if"; rp "$"; ri "xSwitchRequired"; rp "!="; RLit (RlInt 0 (st "")); RGroup DBrace [ri "vPortYield"; RGroup DParen []; rp ";"]]; rp ";"]; ri "pub"; ri "use"; ri "__cmacro__portEND_SWITCHING_ISR"; ri "as"; ri "portEND_SWITCHING_ISR"; rp ";"; ri "pub"; ri "const"; ri "JSVAL_TAG_MAX_DOUBLE"; rp ":"; ri "uint32_t"; rp "="; RLit (RlInt 131056 (st "u32")); ri "as"; ri "uint32_t"; rp ";"; ri "pub"; ri "const"; ri "JSVAL_TAG_SHIFT"; rp ":"; ri "_"; rp "="; RLit (RlInt 47 (st "")); rp ";"; rp "#"; RGroup DBracket [ri "doc"; RGroup DParen [ri "hidden"]]; rp "#"; RGroup DBracket [ri "macro_export"]; ri "macro_rules"; rp "!"; ri "__cmacro__JSVAL_TYPE_TO_TAG"; RGroup DBrace [RGroup DParen [rp "$"; ri "type"; rp ":"; ri "expr"]; rp "=>"; RGroup DBrace [RGroup DParen [RLit (RlInt 131056 (st "u32")); ri "as"; ri "uint32_t"; rp "|"; rp "$"; ri "type"]; ri "as"; ri "JSValueTag"]; rp ";"]; ri "pub"; ri "use"; ri "__cmacro__JSVAL_TYPE_TO_TAG"; ri "as"; ri "JSVAL_TYPE_TO_TAG"; rp ";"; rp "#"; RGroup DBracket [ri "doc"; RGroup DParen [ri "hidden"]]; rp "#"; RGroup DBracket [ri "macro_export"]; ri "macro_rules"; rp "!"; ri "__cmacro__JSVAL_TYPE_TO_SHIFTED_TAG"; RGroup DBrace [RGroup DParen [rp "$"; ri "type"; rp ":"; ri "expr"]; rp "=>"; RGroup DBrace [RGroup DParen [RGroup DParen [RLit (RlInt 131056 (st "u32")); ri "as"; ri "uint32_t"; rp "|"; rp "$"; ri "type"]; ri "as"; ri "JSValueTag"; ri "as"; ri "uint64_t"]; rp "<<"; RLit (RlInt 47 (st ""))]; rp ";"]; ri "pub"; ri "use"; ri "__cmacro__JSVAL_TYPE_TO_SHIFTED_TAG"; ri "as"; ri "JSVAL_TYPE_TO_SHIFTED_TAG"; rp ";"].
Proof. vm_compute. reflexivity. Qed.

(** tests/fixtures/stringify.h *)
Definition h_stringify : list def :=
  [DFn (st "__STRING") [(st "x")] [(st "#"); (st "x")];
   DFn (st "DOUBLE_STRING") [(st "x")] [(st "#"); (st "x"); (st "#"); (st "x")]].
Example fixture_stringify : test_gen (test_ctx []) h_stringify =
  [rp "#"; RGroup DBracket [ri "doc"; RGroup DParen [ri "hidden"]]; rp "#"; RGroup DBracket [ri "macro_export"]; ri "macro_rules"; rp "!"; ri "__cmacro____STRING"; RGroup DBrace [RGroup DParen [rp "$"; ri "x"; rp ":"; ri "expr"]; rp "=>"; RGroup DBrace [RGroup DBrace [ri "const"; ri "BYTES"; rp ":"; rp "&"; RGroup DBracket [ri "u8"]; rp "="; ri "concat"; rp "!"; RGroup DParen [ri "stringify"; rp "!"; RGroup DParen [rp "$"; ri "x"]; rp ","; RLit (RlChar 0)]; rp "."; ri "as_bytes"; RGroup DParen []; rp ";"; ri "BYTES"; rp "."; ri "as_ptr"; RGroup DParen []; ri "as"; rp "*"; ri "const"; ri "c_char"]]; rp ";"]; ri "pub"; ri "use"; ri "__cmacro____STRING"; ri "as"; ri "__STRING"; rp ";"; rp "#"; RGroup DBracket [ri "doc"; RGroup DParen [ri "hidden"]]; rp "#"; RGroup DBracket [ri "macro_export"]; ri "macro_rules"; rp "!"; ri "__cmacro__DOUBLE_STRING"; RGroup DBrace [RGroup DParen [rp "$"; ri "x"; rp ":"; ri "expr"]; rp "=>"; RGroup DBrace [RGroup DBrace [ri "const"; ri "BYTES"; rp ":"; rp "&"; RGroup DBracket [ri "u8"]; rp "="; ri "concat"; rp "!"; RGroup DParen [ri "stringify"; rp "!"; RGroup DParen [rp "$"; ri "x"]; rp ","; ri "stringify"; rp "!"; RGroup DParen [rp "$"; ri "x"]; rp ","; RLit (RlChar 0)]; rp "."; ri "as_bytes"; RGroup DParen []; rp ";"; ri "BYTES"; rp "."; ri "as_ptr"; RGroup DParen []; ri "as"; rp "*"; ri "const"; ri "c_char"]]; rp ";"]; ri "pub"; ri "use"; ri "__cmacro__DOUBLE_STRING"; ri "as"; ri "DOUBLE_STRING"; rp ";"].
Proof. vm_compute. reflexivity. Qed.

(** tests/fixtures/strings.h *)
Definition h_strings : list def :=
  [DVar (st "s1") [(st """\xff""")];
   DVar (st "s2") [(st "s1"); (st "s1")];
   DVar (st "s3") [(st "s"); (st "##"); (st "1"); (st "s1")];
   DVar (st "HELLO1") [(st """WORLD""")];
   DVar (st "HELLO2") [(st "("); (st "char"); (st "*"); (st "const"); (st ")"); (st """WORLD""")];
   DFn (st "HELLO3") [] [(st """!""")];
   DVar (st "CAST_STRING") [(st "("); (st "int"); (st "*"); (st ")"); (st """STRINGINT""")];
   DVar (st "UTF8") [(st "u8""UTF-8""")];
   DFn (st "UTF8_FN") [] [(st "u8""UTF-8""")];
   DVar (st "UTF8_CONCAT") [(st "u8""UTF-8"""); (st """ and then some""")];
   DVar (st "UTF8_CONCAT_UTF8") [(st "u8""UTF-8"""); (st "u8"" and then some""")];
   DVar (st "UTF16") [(st "u""UTF-16""")];
   DFn (st "UTF16_FN") [] [(st "u""UTF-16""")];
   DVar (st "UTF16_CONCAT") [(st "u""UTF-16"""); (st """and then some""")];
   DVar (st "UTF16_CONCAT_UTF16") [(st "u""UTF-16"""); (st "u""and then some""")];
   DVar (st "UTF32") [(st "U""UTF-32""")];
   DFn (st "UTF32_FN") [] [(st "U""UTF-32""")];
   DVar (st "UTF32_CONCAT") [(st "U""UTF-32"""); (st """and then some""")];
   DVar (st "UTF32_CONCAT_UTF32") [(st "U""UTF-32"""); (st "U""and then some""")];
   DVar (st "WIDE") [(st "L""WIDE""")];
   DFn (st "WIDE_FN") [] [(st "L""WIDE""")];
   DVar (st "WIDE_CONCAT") [(st "L""WIDE"""); (st """and then some""")];
   DVar (st "WIDE_CONCAT_WIDE") [(st "L""WIDE"""); (st "L""and then some""")];
   DVar (st "ORDINARY_BANANA1") [[34%N; 97%N; 29483%N; 127820%N; 34%N]];
   DVar (st "ORDINARY_BANANA2") [(st """a\u732B\U0001F34C""")];
   DVar (st "UTF8_BANANA1") [[117%N; 56%N; 34%N; 97%N; 29483%N; 127820%N; 34%N]];
   DVar (st "UTF8_BANANA2") [(st "u8""a\u732B\U0001F34C""")];
   DVar (st "UTF16_BANANA1") [[117%N; 34%N; 97%N; 29483%N; 127820%N; 34%N]];
   DVar (st "UTF16_BANANA2") [(st "u""a\u732B\U0001F34C""")];
   DVar (st "UTF32_BANANA1") [[85%N; 34%N; 97%N; 29483%N; 127820%N; 34%N]];
   DVar (st "UTF32_BANANA2") [(st "U""a\u732B\U0001F34C""")];
   DVar (st "WIDE_BANANA1") [[76%N; 34%N; 97%N; 29483%N; 127820%N; 34%N]];
   DVar (st "WIDE_BANANA2") [(st "L""a\u732B\U0001F34C""")];
   DVar (st "INTERIOR_NULL_BYTE") [(st """a\0b""")]].
Example fixture_strings : test_gen (test_ctx []) h_strings =
  [ri "pub"; ri "const"; ri "s1"; rp ":"; rp "&"; ri "CStr"; rp "="; RGroup DBrace [rp "#"; RGroup DBracket [ri "allow"; RGroup DParen [ri "unsafe_code"]]; ri "unsafe"; RGroup DBrace [ri "CStr"; rp "::"; ri "from_bytes_with_nul_unchecked"; RGroup DParen [RLit (RlBytes [255%N; 0%N])]]]; rp ";"; ri "pub"; ri "const"; ri "s2"; rp ":"; rp "&"; ri "CStr"; rp "="; RGroup DBrace [rp "#"; RGroup DBracket [ri "allow"; RGroup DParen [ri "unsafe_code"]]; ri "unsafe"; RGroup DBrace [ri "CStr"; rp "::"; ri "from_bytes_with_nul_unchecked"; RGroup DParen [RLit (RlBytes [255%N; 255%N; 0%N])]]]; rp ";"; ri "pub"; ri "const"; ri "s3"; rp ":"; rp "&"; ri "CStr"; rp "="; RGroup DBrace [rp "#"; RGroup DBracket [ri "allow"; RGroup DParen [ri "unsafe_code"]]; ri "unsafe"; RGroup DBrace [ri "CStr"; rp "::"; ri "from_bytes_with_nul_unchecked"; RGroup DParen [RLit (RlBytes [255%N; 255%N; 0%N])]]]; rp ";"; ri "pub"; ri "const"; ri "HELLO1"; rp ":"; rp "&"; ri "CStr"; rp "="; RGroup DBrace [rp "#"; RGroup DBracket [ri "allow"; RGroup DParen [ri "unsafe_code"]]; ri "unsafe"; RGroup DBrace [ri "CStr"; rp "::"; ri "from_bytes_with_nul_unchecked"; RGroup DParen [RLit (RlBytes [87%N; 79%N; 82%N; 76%N; 68%N; 0%N])]]]; rp ";"; ri "pub"; ri "const"; ri "HELLO2"; rp ":"; rp "&"; ri "CStr"; rp "="; RGroup DBrace [rp "#"; RGroup DBracket [ri "allow"; RGroup DParen [ri "unsafe_code"]]; ri "unsafe"; RGroup DBrace [ri "CStr"; rp "::"; ri "from_bytes_with_nul_unchecked"; RGroup DParen [RLit (RlBytes [87%N; 79%N; 82%N; 76%N; 68%N; 0%N])]]]; rp ";"; rp "#"; RGroup DBracket [ri "allow"; RGroup DParen [ri "non_snake_case"; rp ","; ri "unused_mut"; rp ","; ri "unsafe_code"]]; rp "#"; RGroup DBracket [ri "inline"; RGroup DParen [ri "always"]]; ri "pub"; ri "unsafe"; ri "extern"; RLit (RlStr [67%N]); ri "fn"; ri "HELLO3"; RGroup DParen []; rp "->"; rp "*"; ri "const"; ri "c_char"; RGroup DBrace [RGroup DBrace [ri "const"; ri "BYTES"; rp ":"; rp "&"; RGroup DBracket [ri "u8"; rp ";"; RLit (RlInt 2 (st ""))]; rp "="; RLit (RlBytes [33%N; 0%N]); rp ";"; ri "BYTES"; rp "."; ri "as_ptr"; RGroup DParen []; ri "as"; rp "*"; ri "const"; ri "c_char"]]; ri "pub"; ri "const"; ri "CAST_STRING"; rp ":"; rp "*"; ri "mut"; ri "c_int"; rp "="; RGroup DBrace [ri "const"; ri "BYTES"; rp ":"; rp "&"; RGroup DBracket [ri "u8"; rp ";"; RLit (RlInt 10 (st ""))]; rp "="; RLit (RlBytes [83%N; 84%N; 82%N; 73%N; 78%N; 71%N; 73%N; 78%N; 84%N; 0%N]); rp ";"; ri "BYTES"; rp "."; ri "as_ptr"; RGroup DParen []; ri "as"; rp "*"; ri "const"; ri "c_char"]; ri "as"; rp "*"; ri "mut"; ri "c_int"; rp ";"; ri "pub"; ri "const"; ri "UTF8"; rp ":"; rp "&"; RGroup DBracket [ri "u8"; rp ";"; RLit (RlInt 6 (st ""))]; rp "="; RLit (RlBytes [85%N; 84%N; 70%N; 45%N; 56%N; 0%N]); rp ";"; rp "#"; RGroup DBracket [ri "allow"; RGroup DParen [ri "non_snake_case"; rp ","; ri "unused_mut"; rp ","; ri "unsafe_code"]]; rp "#"; RGroup DBracket [ri "inline"; RGroup DParen [ri "always"]]; ri "pub"; ri "unsafe"; ri "extern"; RLit (RlStr [67%N]); ri "fn"; ri "UTF8_FN"; RGroup DParen []; rp "->"; rp "*"; ri "const"; ri "u8"; RGroup DBrace [RGroup DBrace [ri "const"; ri "BYTES"; rp ":"; rp "&"; RGroup DBracket [ri "u8"; rp ";"; RLit (RlInt 6 (st ""))]; rp "="; RLit (RlBytes [85%N; 84%N; 70%N; 45%N; 56%N; 0%N]); rp ";"; ri "BYTES"; rp "."; ri "as_ptr"; RGroup DParen []]]; ri "pub"; ri "const"; ri "UTF8_CONCAT"; rp ":"; rp "&"; RGroup DBracket [ri "u8"; rp ";"; RLit (RlInt 20 (st ""))]; rp "="; RLit (RlBytes [85%N; 84%N; 70%N; 45%N; 56%N; 32%N; 97%N; 110%N; 100%N; 32%N; 116%N; 104%N; 101%N; 110%N; 32%N; 115%N; 111%N; 109%N; 101%N; 0%N]); rp ";"; ri "pub"; ri "const"; ri "UTF8_CONCAT_UTF8"; rp ":"; rp "&"; RGroup DBracket [ri "u8"; rp ";"; RLit (RlInt 20 (st ""))]; rp "="; RLit (RlBytes [85%N; 84%N; 70%N; 45%N; 56%N; 32%N; 97%N; 110%N; 100%N; 32%N; 116%N; 104%N; 101%N; 110%N; 32%N; 115%N; 111%N; 109%N; 101%N; 0%N]); rp ";"; ri "pub"; ri "const"; ri "UTF16"; rp ":"; rp "&"; RGroup DBracket [ri "u16"; rp ";"; RLit (RlInt 7 (st ""))]; rp "="; rp "&"; RGroup DBracket [RLit (RlInt 85 (st "u16")); rp ","; RLit (RlInt 84 (st "u16")); rp ","; RLit (RlInt 70 (st "u16")); rp ","; RLit (RlInt 45 (st "u16")); rp ","; RLit (RlInt 49 (st "u16")); rp ","; RLit (RlInt 54 (st "u16")); rp ","; RLit (RlInt 0 (st "u16"))]; rp ";"; rp "#"; RGroup DBracket [ri "allow"; RGroup DParen [ri "non_snake_case"; rp ","; ri "unused_mut"; rp ","; ri "unsafe_code"]]; rp "#"; RGroup DBracket [ri "inline"; RGroup DParen [ri "always"]]; ri "pub"; ri "unsafe"; ri "extern"; RLit (RlStr [67%N]); ri "fn"; ri "UTF16_FN"; RGroup DParen []; rp "->"; rp "*"; ri "const"; ri "u16"; RGroup DBrace [RGroup DBrace [ri "const"; ri "WORDS"; rp ":"; rp "&"; RGroup DBracket [ri "u16"; rp ";"; RLit (RlInt 7 (st ""))]; rp "="; rp "&"; RGroup DBracket [RLit (RlInt 85 (st "u16")); rp ","; RLit (RlInt 84 (st "u16")); rp ","; RLit (RlInt 70 (st "u16")); rp ","; RLit (RlInt 45 (st "u16")); rp ","; RLit (RlInt 49 (st "u16")); rp ","; RLit (RlInt 54 (st "u16")); rp ","; RLit (RlInt 0 (st "u16"))]; rp ";"; ri "WORDS"; rp "."; ri "as_ptr"; RGroup DParen []]]; ri "pub"; ri "const"; ri "UTF16_CONCAT"; rp ":"; rp "&"; RGroup DBracket [ri "u16"; rp ";"; RLit (RlInt 20 (st ""))]; rp "="; rp "&"; RGroup DBracket [RLit (RlInt 85 (st "u16")); rp ","; RLit (RlInt 84 (st "u16")); rp ","; RLit (RlInt 70 (st "u16")); rp ","; RLit (RlInt 45 (st "u16")); rp ","; RLit (RlInt 49 (st "u16")); rp ","; RLit (RlInt 54 (st "u16")); rp ","; RLit (RlInt 97 (st "u16")); rp ","; RLit (RlInt 110 (st "u16")); rp ","; RLit (RlInt 100 (st "u16")); rp ","; RLit (RlInt 32 (st "u16")); rp ","; RLit (RlInt 116 (st "u16")); rp ","; RLit (RlInt 104 (st "u16")); rp ","; RLit (RlInt 101 (st "u16")); rp ","; RLit (RlInt 110 (st "u16")); rp ","; RLit (RlInt 32 (st "u16")); rp ","; RLit (RlInt 115 (st "u16")); rp ","; RLit (RlInt 111 (st "u16")); rp ","; RLit (RlInt 109 (st "u16")); rp ","; RLit (RlInt 101 (st "u16")); rp ","; RLit (RlInt 0 (st "u16"))]; rp ";"; ri "pub"; ri "const"; ri "UTF16_CONCAT_UTF16"; rp ":"; rp "&"; RGroup DBracket [ri "u16"; rp ";"; RLit (RlInt 20 (st ""))]; rp "="; rp "&"; RGroup DBracket [RLit (RlInt 85 (st "u16")); rp ","; RLit (RlInt 84 (st "u16")); rp ","; RLit (RlInt 70 (st "u16")); rp ","; RLit (RlInt 45 (st "u16")); rp ","; RLit (RlInt 49 (st "u16")); rp ","; RLit (RlInt 54 (st "u16")); rp ","; RLit (RlInt 97 (st "u16")); rp ","; RLit (RlInt 110 (st "u16")); rp ","; RLit (RlInt 100 (st "u16")); rp ","; RLit (RlInt 32 (st "u16")); rp ","; RLit (RlInt 116 (st "u16")); rp ","; RLit (RlInt 104 (st "u16")); rp ","; RLit (RlInt 101 (st "u16")); rp ","; RLit (RlInt 110 (st "u16")); rp ","; RLit (RlInt 32 (st "u16")); rp ","; RLit (RlInt 115 (st "u16")); rp ","; RLit (RlInt 111 (st "u16")); rp ","; RLit (RlInt 109 (st "u16")); rp ","; RLit (RlInt 101 (st "u16")); rp ","; RLit (RlInt 0 (st "u16"))]; rp ";"; ri "pub"; ri "const"; ri "UTF32"; rp ":"; rp "&"; RGroup DBracket [ri "u32"; rp ";"; RLit (RlInt 7 (st ""))]; rp "="; rp "&"; RGroup DBracket [RLit (RlInt 85 (st "u32")); rp ","; RLit (RlInt 84 (st "u32")); rp ","; RLit (RlInt 70 (st "u32")); rp ","; RLit (RlInt 45 (st "u32")); rp ","; RLit (RlInt 51 (st "u32")); rp ","; RLit (RlInt 50 (st "u32")); rp ","; RLit (RlInt 0 (st "u32"))]; rp ";"; rp "#"; RGroup DBracket [ri "allow"; RGroup DParen [ri "non_snake_case"; rp ","; ri "unused_mut"; rp ","; ri "unsafe_code"]]; rp "#"; RGroup DBracket [ri "inline"; RGroup DParen [ri "always"]]; ri "pub"; ri "unsafe"; ri "extern"; RLit (RlStr [67%N]); ri "fn"; ri "UTF32_FN"; RGroup DParen []; rp "->"; rp "*"; ri "const"; ri "u32"; RGroup DBrace [RGroup DBrace [ri "const"; ri "DWORDS"; rp ":"; rp "&"; RGroup DBracket [ri "u32"; rp ";"; RLit (RlInt 7 (st ""))]; rp "="; rp "&"; RGroup DBracket [RLit (RlInt 85 (st "u32")); rp ","; RLit (RlInt 84 (st "u32")); rp ","; RLit (RlInt 70 (st "u32")); rp ","; RLit (RlInt 45 (st "u32")); rp ","; RLit (RlInt 51 (st "u32")); rp ","; RLit (RlInt 50 (st "u32")); rp ","; RLit (RlInt 0 (st "u32"))]; rp ";"; ri "DWORDS"; rp "."; ri "as_ptr"; RGroup DParen []]]; ri "pub"; ri "const"; ri "UTF32_CONCAT"; rp ":"; rp "&"; RGroup DBracket [ri "u32"; rp ";"; RLit (RlInt 20 (st ""))]; rp "="; rp "&"; RGroup DBracket [RLit (RlInt 85 (st "u32")); rp ","; RLit (RlInt 84 (st "u32")); rp ","; RLit (RlInt 70 (st "u32")); rp ","; RLit (RlInt 45 (st "u32")); rp ","; RLit (RlInt 51 (st "u32")); rp ","; RLit (RlInt 50 (st "u32")); rp ","; RLit (RlInt 97 (st "u32")); rp ","; RLit (RlInt 110 (st "u32")); rp ","; RLit (RlInt 100 (st "u32")); rp ","; RLit (RlInt 32 (st "u32")); rp ","; RLit (RlInt 116 (st "u32")); rp ","; RLit (RlInt 104 (st "u32")); rp ","; RLit (RlInt 101 (st "u32")); rp ","; RLit (RlInt 110 (st "u32")); rp ","; RLit (RlInt 32 (st "u32")); rp ","; RLit (RlInt 115 (st "u32")); rp ","; RLit (RlInt 111 (st "u32")); rp ","; RLit (RlInt 109 (st "u32")); rp ","; RLit (RlInt 101 (st "u32")); rp ","; RLit (RlInt 0 (st "u32"))]; rp ";"; ri "pub"; ri "const"; ri "UTF32_CONCAT_UTF32"; rp ":"; rp "&"; RGroup DBracket [ri "u32"; rp ";"; RLit (RlInt 20 (st ""))]; rp "="; rp "&"; RGroup DBracket [RLit (RlInt 85 (st "u32")); rp ","; RLit (RlInt 84 (st "u32")); rp ","; RLit (RlInt 70 (st "u32")); rp ","; RLit (RlInt 45 (st "u32")); rp ","; RLit (RlInt 51 (st "u32")); rp ","; RLit (RlInt 50 (st "u32")); rp ","; RLit (RlInt 97 (st "u32")); rp ","; RLit (RlInt 110 (st "u32")); rp ","; RLit (RlInt 100 (st "u32")); rp ","; RLit (RlInt 32 (st "u32")); rp ","; RLit (RlInt 116 (st "u32")); rp ","; RLit (RlInt 104 (st "u32")); rp ","; RLit (RlInt 101 (st "u32")); rp ","; RLit (RlInt 110 (st "u32")); rp ","; RLit (RlInt 32 (st "u32")); rp ","; RLit (RlInt 115 (st "u32")); rp ","; RLit (RlInt 111 (st "u32")); rp ","; RLit (RlInt 109 (st "u32")); rp ","; RLit (RlInt 101 (st "u32")); rp ","; RLit (RlInt 0 (st "u32"))]; rp ";"; ri "pub"; ri "const"; ri "WIDE"; rp ":"; rp "&"; RGroup DBracket [ri "wchar_t"; rp ";"; RLit (RlInt 5 (st ""))]; rp "="; rp "&"; RGroup DBracket [RLit (RlInt 87 (st "")); ri "as"; ri "wchar_t"; rp ","; RLit (RlInt 73 (st "")); ri "as"; ri "wchar_t"; rp ","; RLit (RlInt 68 (st "")); ri "as"; ri "wchar_t"; rp ","; RLit (RlInt 69 (st "")); ri "as"; ri "wchar_t"; rp ","; RLit (RlInt 0 (st "")); ri "as"; ri "wchar_t"]; rp ";"; rp "#"; RGroup DBracket [ri "allow"; RGroup DParen [ri "non_snake_case"; rp ","; ri "unused_mut"; rp ","; ri "unsafe_code"]]; rp "#"; RGroup DBracket [ri "inline"; RGroup DParen [ri "always"]]; ri "pub"; ri "unsafe"; ri "extern"; RLit (RlStr [67%N]); ri "fn"; ri "WIDE_FN"; RGroup DParen []; rp "->"; rp "*"; ri "const"; ri "wchar_t"; RGroup DBrace [RGroup DBrace [ri "const"; ri "WCHARS"; rp ":"; rp "&"; RGroup DBracket [ri "wchar_t"; rp ";"; RLit (RlInt 5 (st ""))]; rp "="; rp "&"; RGroup DBracket [RLit (RlInt 87 (st "")); ri "as"; ri "wchar_t"; rp ","; RLit (RlInt 73 (st "")); ri "as"; ri "wchar_t"; rp ","; RLit (RlInt 68 (st "")); ri "as"; ri "wchar_t"; rp ","; RLit (RlInt 69 (st "")); ri "as"; ri "wchar_t"; rp ","; RLit (RlInt 0 (st "")); ri "as"; ri "wchar_t"]; rp ";"; ri "WCHARS"; rp "."; ri "as_ptr"; RGroup DParen []]]; ri "pub"; ri "const"; ri "WIDE_CONCAT"; rp ":"; rp "&"; RGroup DBracket [ri "wchar_t"; rp ";"; RLit (RlInt 18 (st ""))]; rp "="; rp "&"; RGroup DBracket [RLit (RlInt 87 (st "")); ri "as"; ri "wchar_t"; rp ","; RLit (RlInt 73 (st "")); ri "as"; ri "wchar_t"; rp ","; RLit (RlInt 68 (st "")); ri "as"; ri "wchar_t"; rp ","; RLit (RlInt 69 (st "")); ri "as"; ri "wchar_t"; rp ","; RLit (RlInt 97 (st "")); ri "as"; ri "wchar_t"; rp ","; RLit (RlInt 110 (st "")); ri "as"; ri "wchar_t"; rp ","; RLit (RlInt 100 (st "")); ri "as"; ri "wchar_t"; rp ","; RLit (RlInt 32 (st "")); ri "as"; ri "wchar_t"; rp ","; RLit (RlInt 116 (st "")); ri "as"; ri "wchar_t"; rp ","; RLit (RlInt 104 (st "")); ri "as"; ri "wchar_t"; rp ","; RLit (RlInt 101 (st "")); ri "as"; ri "wchar_t"; rp ","; RLit (RlInt 110 (st "")); ri "as"; ri "wchar_t"; rp ","; RLit (RlInt 32 (st "")); ri "as"; ri "wchar_t"; rp ","; RLit (RlInt 115 (st "")); ri "as"; ri "wchar_t"; rp ","; RLit (RlInt 111 (st "")); ri "as"; ri "wchar_t"; rp ","; RLit (RlInt 109 (st "")); ri "as"; ri "wchar_t"; rp ","; RLit (RlInt 101 (st "")); ri "as"; ri "wchar_t"; rp ","; RLit (RlInt 0 (st "")); ri "as"; ri "wchar_t"]; rp ";"; ri "pub"; ri "const"; ri "WIDE_CONCAT_WIDE"; rp ":"; rp "&"; RGroup DBracket [ri "wchar_t"; rp ";"; RLit (RlInt 18 (st ""))]; rp "="; rp "&"; RGroup DBracket [RLit (RlInt 87 (st "")); ri "as"; ri "wchar_t"; rp ","; RLit (RlInt 73 (st "")); ri "as"; ri "wchar_t"; rp ","; RLit (RlInt 68 (st "")); ri "as"; ri "wchar_t"; rp ","; RLit (RlInt 69 (st "")); ri "as"; ri "wchar_t"; rp ","; RLit (RlInt 97 (st "")); ri "as"; ri "wchar_t"; rp ","; RLit (RlInt 110 (st "")); ri "as"; ri "wchar_t"; rp ","; RLit (RlInt 100 (st "")); ri "as"; ri "wchar_t"; rp ","; RLit (RlInt 32 (st "")); ri "as"; ri "wchar_t"; rp ","; RLit (RlInt 116 (st "")); ri "as"; ri "wchar_t"; rp ","; RLit (RlInt 104 (st "")); ri "as"; ri "wchar_t"; rp ","; RLit (RlInt 101 (st "")); ri "as"; ri "wchar_t"; rp ","; RLit (RlInt 110 (st "")); ri "as"; ri "wchar_t"; rp ","; RLit (RlInt 32 (st "")); ri "as"; ri "wchar_t"; rp ","; RLit (RlInt 115 (st "")); ri "as"; ri "wchar_t"; rp ","; RLit (RlInt 111 (st "")); ri "as"; ri "wchar_t"; rp ","; RLit (RlInt 109 (st "")); ri "as"; ri "wchar_t"; rp ","; RLit (RlInt 101 (st "")); ri "as"; ri "wchar_t"; rp ","; RLit (RlInt 0 (st "")); ri "as"; ri "wchar_t"]; rp ";"; ri "pub"; ri "const"; ri "ORDINARY_BANANA1"; rp ":"; rp "&"; ri "CStr"; rp "="; RGroup DBrace [rp "#"; RGroup DBracket [ri "allow"; RGroup DParen [ri "unsafe_code"]]; ri "unsafe"; RGroup DBrace [ri "CStr"; rp "::"; ri "from_bytes_with_nul_unchecked"; RGroup DParen [RLit (RlBytes [97%N; 231%N; 140%N; 171%N; 240%N; 159%N; 141%N; 140%N; 0%N])]]]; rp ";"; ri "pub"; ri "const"; ri "ORDINARY_BANANA2"; rp ":"; rp "&"; ri "CStr"; rp "="; RGroup DBrace [rp "#"; RGroup DBracket [ri "allow"; RGroup DParen [ri "unsafe_code"]]; ri "unsafe"; RGroup DBrace [ri "CStr"; rp "::"; ri "from_bytes_with_nul_unchecked"; RGroup DParen [RLit (RlBytes [97%N; 231%N; 140%N; 171%N; 240%N; 159%N; 141%N; 140%N; 0%N])]]]; rp ";"; ri "pub"; ri "const"; ri "UTF8_BANANA1"; rp ":"; rp "&"; RGroup DBracket [ri "u8"; rp ";"; RLit (RlInt 9 (st ""))]; rp "="; RLit (RlBytes [97%N; 231%N; 140%N; 171%N; 240%N; 159%N; 141%N; 140%N; 0%N]); rp ";"; ri "pub"; ri "const"; ri "UTF8_BANANA2"; rp ":"; rp "&"; RGroup DBracket [ri "u8"; rp ";"; RLit (RlInt 9 (st ""))]; rp "="; RLit (RlBytes [97%N; 231%N; 140%N; 171%N; 240%N; 159%N; 141%N; 140%N; 0%N]); rp ";"; ri "pub"; ri "const"; ri "UTF16_BANANA1"; rp ":"; rp "&"; RGroup DBracket [ri "u16"; rp ";"; RLit (RlInt 5 (st ""))]; rp "="; rp "&"; RGroup DBracket [RLit (RlInt 97 (st "u16")); rp ","; RLit (RlInt 29483 (st "u16")); rp ","; RLit (RlInt 55356 (st "u16")); rp ","; RLit (RlInt 57164 (st "u16")); rp ","; RLit (RlInt 0 (st "u16"))]; rp ";"; ri "pub"; ri "const"; ri "UTF16_BANANA2"; rp ":"; rp "&"; RGroup DBracket [ri "u16"; rp ";"; RLit (RlInt 5 (st ""))]; rp "="; rp "&"; RGroup DBracket [RLit (RlInt 97 (st "u16")); rp ","; RLit (RlInt 29483 (st "u16")); rp ","; RLit (RlInt 55356 (st "u16")); rp ","; RLit (RlInt 57164 (st "u16")); rp ","; RLit (RlInt 0 (st "u16"))]; rp ";"; ri "pub"; ri "const"; ri "UTF32_BANANA1"; rp ":"; rp "&"; RGroup DBracket [ri "u32"; rp ";"; RLit (RlInt 4 (st ""))]; rp "="; rp "&"; RGroup DBracket [RLit (RlInt 97 (st "u32")); rp ","; RLit (RlInt 29483 (st "u32")); rp ","; RLit (RlInt 127820 (st "u32")); rp ","; RLit (RlInt 0 (st "u32"))]; rp ";"; ri "pub"; ri "const"; ri "UTF32_BANANA2"; rp ":"; rp "&"; RGroup DBracket [ri "u32"; rp ";"; RLit (RlInt 4 (st ""))]; rp "="; rp "&"; RGroup DBracket [RLit (RlInt 97 (st "u32")); rp ","; RLit (RlInt 29483 (st "u32")); rp ","; RLit (RlInt 127820 (st "u32")); rp ","; RLit (RlInt 0 (st "u32"))]; rp ";"; ri "pub"; ri "const"; ri "WIDE_BANANA1"; rp ":"; rp "&"; RGroup DBracket [ri "wchar_t"; rp ";"; RLit (RlInt 4 (st ""))]; rp "="; rp "&"; RGroup DBracket [RLit (RlInt 97 (st "")); ri "as"; ri "wchar_t"; rp ","; RLit (RlInt 29483 (st "")); ri "as"; ri "wchar_t"; rp ","; RLit (RlInt 127820 (st "")); ri "as"; ri "wchar_t"; rp ","; RLit (RlInt 0 (st "")); ri "as"; ri "wchar_t"]; rp ";"; ri "pub"; ri "const"; ri "WIDE_BANANA2"; rp ":"; rp "&"; RGroup DBracket [ri "wchar_t"; rp ";"; RLit (RlInt 4 (st ""))]; rp "="; rp "&"; RGroup DBracket [RLit (RlInt 97 (st "")); ri "as"; ri "wchar_t"; rp ","; RLit (RlInt 29483 (st "")); ri "as"; ri "wchar_t"; rp ","; RLit (RlInt 127820 (st "")); ri "as"; ri "wchar_t"; rp ","; RLit (RlInt 0 (st "")); ri "as"; ri "wchar_t"]; rp ";"; ri "pub"; ri "const"; ri "INTERIOR_NULL_BYTE"; rp ":"; rp "&"; RGroup DBracket [ri "u8"; rp ";"; RLit (RlInt 4 (st ""))]; rp "="; RLit (RlBytes [97%N; 0%N; 98%N; 0%N]); rp ";"].
Proof. vm_compute. reflexivity. Qed.

(** tests/fixtures/ternary.h *)
Definition h_ternary : list def :=
  [DVar (st "OK") [(st "0")];
   DFn (st "IS_OK") [(st "val")] [(st "val"); (st "=="); (st "OK"); (st "?"); (st "true"); (st ":"); (st "false")];
   DFn (st "ZERO_OR_EVEN") [(st "val")] [(st "val"); (st "=="); (st "0"); (st "?"); (st "true"); (st ":"); (st "val"); (st "%"); (st "2"); (st "=="); (st "0"); (st "?"); (st "true"); (st ":"); (st "false")];
   DVar (st "TERNARY_PRECEDENCE1") [(st "1"); (st "?"); (st "2"); (st ":"); (st "3"); (st "=="); (st "3")];
   DVar (st "TERNARY_PRECEDENCE2") [(st "1"); (st "?"); (st "2"); (st ":"); (st "("); (st "3"); (st "=="); (st "3"); (st ")")];
   DVar (st "TERNARY_PRECEDENCE3") [(st "("); (st "1"); (st "?"); (st "2"); (st ":"); (st "3"); (st ")"); (st "=="); (st "3")]].
Example fixture_ternary : test_gen (test_ctx []) h_ternary =
  [ri "pub"; ri "const"; ri "OK"; rp ":"; ri "_"; rp "="; RLit (RlInt 0 (st "")); rp ";"; rp "#"; RGroup DBracket [ri "doc"; RGroup DParen [ri "hidden"]]; rp "#"; RGroup DBracket [ri "macro_export"]; ri "macro_rules"; rp "!"; ri "__cmacro__IS_OK"; RGroup DBrace [RGroup DParen [rp "$"; ri "val"; rp ":"; ri "expr"]; rp "=>"; RGroup DBrace [ri "if"; rp "$"; ri "val"; rp "=="; RLit (RlInt 0 (st "")); RGroup DBrace [ri "true"]; ri "else"; RGroup DBrace [ri "false"]]; rp ";"]; ri "pub"; ri "use"; ri "__cmacro__IS_OK"; ri "as"; ri "IS_OK"; rp ";"; rp "#"; RGroup DBracket [ri "doc"; RGroup DParen [ri "hidden"]]; rp "#"; RGroup DBracket [ri "macro_export"]; ri "macro_rules"; rp "!"; ri "__cmacro__ZERO_OR_EVEN"; RGroup DBrace [RGroup DParen [rp "$"; ri "val"; rp ":"; ri "expr"]; rp "=>"; RGroup DBrace [ri "if"; rp "$"; ri "val"; rp "=="; RLit (RlInt 0 (st "")); RGroup DBrace [ri "true"]; ri "else"; RGroup DBrace [ri "if"; rp "$"; ri "val"; rp "%"; RLit (RlInt 2 (st "")); rp "=="; RLit (RlInt 0 (st "")); RGroup DBrace [ri "true"]; ri "else"; RGroup DBrace [ri "false"]]]; rp ";"]; ri "pub"; ri "use"; ri "__cmacro__ZERO_OR_EVEN"; ri "as"; ri "ZERO_OR_EVEN"; rp ";"; ri "pub"; ri "const"; ri "TERNARY_PRECEDENCE1"; rp ":"; ri "bool"; rp "="; ri "if"; RLit (RlInt 1 (st "")); rp "!="; RLit (RlInt 0 (st "")); RGroup DBrace [RLit (RlInt 2 (st ""))]; ri "else"; RGroup DBrace [RLit (RlInt 3 (st "")); rp "=="; RLit (RlInt 3 (st ""))]; rp ";"; ri "pub"; ri "const"; ri "TERNARY_PRECEDENCE2"; rp ":"; ri "bool"; rp "="; ri "if"; RLit (RlInt 1 (st "")); rp "!="; RLit (RlInt 0 (st "")); RGroup DBrace [RLit (RlInt 2 (st ""))]; ri "else"; RGroup DBrace [RLit (RlInt 3 (st "")); rp "=="; RLit (RlInt 3 (st ""))]; rp ";"; ri "pub"; ri "const"; ri "TERNARY_PRECEDENCE3"; rp ":"; ri "bool"; rp "="; ri "if"; RLit (RlInt 1 (st "")); rp "!="; RLit (RlInt 0 (st "")); RGroup DBrace [RLit (RlInt 2 (st ""))]; ri "else"; RGroup DBrace [RLit (RlInt 3 (st ""))]; rp "=="; RLit (RlInt 3 (st "")); rp ";"].
Proof. vm_compute. reflexivity. Qed.

(** tests/fixtures/undefined_variable.h *)
Definition h_undefined_variable : list def :=
  [DVar (st "UNDEFINED_VARIABLE") [(st "("); (st "int"); (st ")"); (st "VAR")]].
Example fixture_undefined_variable : test_gen (test_ctx []) h_undefined_variable =
  [].
Proof. vm_compute. reflexivity. Qed.

(** tests/fixtures/var_args.h *)
Definition h_var_args : list def :=
  [DFn (st "USBD_UsrLog") [(st "...")] [(st "printf"); (st "("); (st "__VA_ARGS__"); (st ")"); (st ";"); (st "printf"); (st "("); (st """\n"""); (st ")"); (st ";")]].
Example fixture_var_args : test_gen (test_ctx []) h_var_args =
  [rp "#"; RGroup DBracket [ri "doc"; RGroup DParen [ri "hidden"]]; rp "#"; RGroup DBracket [ri "macro_export"]; ri "macro_rules"; rp "!"; ri "__cmacro__USBD_UsrLog"; RGroup DBrace [RGroup DParen [rp "$"; RGroup DParen [rp "$"; ri "__VA_ARGS__"; rp ":"; ri "expr"]; rp ","; rp "*"]; rp "=>"; RGroup DBrace [RGroup DBrace [ri "printf"; RGroup DParen [rp "$"; RGroup DParen [rp "$"; ri "__VA_ARGS__"]; rp ","; rp "*"]; rp ";"; ri "printf"; RGroup DParen [RGroup DBrace [ri "const"; ri "BYTES"; rp ":"; rp "&"; RGroup DBracket [ri "u8"; rp ";"; RLit (RlInt 2 (st ""))]; rp "="; RLit (RlBytes [10%N; 0%N]); rp ";"; ri "BYTES"; rp "."; ri "as_ptr"; RGroup DParen []; ri "as"; rp "*"; ri "const"; ri "c_char"]]; rp ";"]]; rp ";"]; ri "pub"; ri "use"; ri "__cmacro__USBD_UsrLog"; ri "as"; ri "USBD_UsrLog"; rp ";"].
Proof. vm_compute. reflexivity. Qed.

(** tests/fixtures/void_cast.h *)
Definition h_void_cast : list def :=
  [DFn (st "VOID_CAST") [(st "x")] [(st "("); (st "void"); (st ")"); (st "x")]].
Example fixture_void_cast : test_gen (test_ctx []) h_void_cast =
  [rp "#"; RGroup DBracket [ri "doc"; RGroup DParen [ri "hidden"]]; rp "#"; RGroup DBracket [ri "macro_export"]; ri "macro_rules"; rp "!"; ri "__cmacro__VOID_CAST"; RGroup DBrace [RGroup DParen [rp "$"; ri "x"; rp ":"; ri "expr"]; rp "=>"; RGroup DBrace [RGroup DBrace [ri "let"; ri "_"; rp "="; rp "$"; ri "x"; rp ";"]]; rp ";"]; ri "pub"; ri "use"; ri "__cmacro__VOID_CAST"; ri "as"; ri "VOID_CAST"; rp ";"].
Proof. vm_compute. reflexivity. Qed.

(** tests/fixtures/volatile_ptr.h *)
Definition h_volatile_ptr : list def :=
  [DVar (st "PTR") [(st "("); (st "*"); (st "("); (st "("); (st "volatile"); (st "int"); (st "*"); (st ")"); (st "0xdeafbeef"); (st ")"); (st ")")];
   DFn (st "ASSIGN") [] [(st "PTR"); (st "="); (st "42"); (st ";")];
   DFn (st "ADD_ASSIGN") [] [(st "PTR"); (st "+="); (st "42"); (st ";")];
   DFn (st "INC") [] [(st "++"); (st "PTR"); (st ";")];
   DFn (st "POST_INC") [] [(st "PTR"); (st "++"); (st ";")];
   DFn (st "DEC") [] [(st "--"); (st "PTR"); (st ";")];
   DFn (st "POST_DEC") [] [(st "PTR"); (st "--"); (st ";")]].
Example fixture_volatile_ptr : test_gen (test_ctx []) h_volatile_ptr =
  [rp "#"; RGroup DBracket [ri "allow"; RGroup DParen [ri "non_snake_case"; rp ","; ri "unused_mut"; rp ","; ri "unsafe_code"]]; rp "#"; RGroup DBracket [ri "inline"; RGroup DParen [ri "always"]]; ri "pub"; ri "unsafe"; ri "extern"; RLit (RlStr [67%N]); ri "fn"; ri "ASSIGN"; RGroup DParen []; RGroup DBrace [RGroup DBrace [ri "let"; ri "value"; rp "="; RLit (RlInt 42 (st "")); rp ";"; ri "ptr"; rp "::"; ri "write_volatile"; RGroup DParen [RLit (RlInt 3736059631 (st "u32")); ri "as"; rp "*"; ri "mut"; ri "c_int"; rp ","; ri "value"]; rp ";"; ri "value"]; rp ";"; rp ";"]; rp "#"; RGroup DBracket [ri "allow"; RGroup DParen [ri "non_snake_case"; rp ","; ri "unused_mut"; rp ","; ri "unsafe_code"]]; rp "#"; RGroup DBracket [ri "inline"; RGroup DParen [ri "always"]]; ri "pub"; ri "unsafe"; ri "extern"; RLit (RlStr [67%N]); ri "fn"; ri "ADD_ASSIGN"; RGroup DParen []; RGroup DBrace [RGroup DBrace [ri "let"; ri "value"; rp "="; ri "ptr"; rp "::"; ri "read_volatile"; RGroup DParen [RLit (RlInt 3736059631 (st "u32")); ri "as"; rp "*"; ri "mut"; ri "c_int"]; rp "+"; RLit (RlInt 42 (st "")); rp ";"; ri "ptr"; rp "::"; ri "write_volatile"; RGroup DParen [RLit (RlInt 3736059631 (st "u32")); ri "as"; rp "*"; ri "mut"; ri "c_int"; rp ","; ri "value"]; rp ";"; ri "value"]; rp ";"; rp ";"]; rp "#"; RGroup DBracket [ri "allow"; RGroup DParen [ri "non_snake_case"; rp ","; ri "unused_mut"; rp ","; ri "unsafe_code"]]; rp "#"; RGroup DBracket [ri "inline"; RGroup DParen [ri "always"]]; ri "pub"; ri "unsafe"; ri "extern"; RLit (RlStr [67%N]); ri "fn"; ri "INC"; RGroup DParen []; RGroup DBrace [RGroup DBrace [ri "let"; ri "value"; rp "="; ri "ptr"; rp "::"; ri "read_volatile"; RGroup DParen [RLit (RlInt 3736059631 (st "u32")); ri "as"; rp "*"; ri "mut"; ri "c_int"]; rp "+"; RLit (RlInt 1 (st "")); rp ";"; ri "ptr"; rp "::"; ri "write_volatile"; RGroup DParen [RLit (RlInt 3736059631 (st "u32")); ri "as"; rp "*"; ri "mut"; ri "c_int"; rp ","; ri "value"]; rp ";"; ri "value"]; rp ";"; rp ";"]; rp "#"; RGroup DBracket [ri "allow"; RGroup DParen [ri "non_snake_case"; rp ","; ri "unused_mut"; rp ","; ri "unsafe_code"]]; rp "#"; RGroup DBracket [ri "inline"; RGroup DParen [ri "always"]]; ri "pub"; ri "unsafe"; ri "extern"; RLit (RlStr [67%N]); ri "fn"; ri "POST_INC"; RGroup DParen []; RGroup DBrace [RGroup DBrace [ri "let"; ri "value"; rp "="; ri "ptr"; rp "::"; ri "read_volatile"; RGroup DParen [RLit (RlInt 3736059631 (st "u32")); ri "as"; rp "*"; ri "mut"; ri "c_int"]; rp ";"; ri "ptr"; rp "::"; ri "write_volatile"; RGroup DParen [RLit (RlInt 3736059631 (st "u32")); ri "as"; rp "*"; ri "mut"; ri "c_int"; rp ","; ri "value"; rp "+"; RLit (RlInt 1 (st ""))]; rp ";"; ri "value"]; rp ";"; rp ";"]; rp "#"; RGroup DBracket [ri "allow"; RGroup DParen [ri "non_snake_case"; rp ","; ri "unused_mut"; rp ","; ri "unsafe_code"]]; rp "#"; RGroup DBracket [ri "inline"; RGroup DParen [ri "always"]]; ri "pub"; ri "unsafe"; ri "extern"; RLit (RlStr [67%N]); ri "fn"; ri "DEC"; RGroup DParen []; RGroup DBrace [RGroup DBrace [ri "let"; ri "value"; rp "="; ri "ptr"; rp "::"; ri "read_volatile"; RGroup DParen [RLit (RlInt 3736059631 (st "u32")); ri "as"; rp "*"; ri "mut"; ri "c_int"]; rp "-"; RLit (RlInt 1 (st "")); rp ";"; ri "ptr"; rp "::"; ri "write_volatile"; RGroup DParen [RLit (RlInt 3736059631 (st "u32")); ri "as"; rp "*"; ri "mut"; ri "c_int"; rp ","; ri "value"]; rp ";"; ri "value"]; rp ";"; rp ";"]; rp "#"; RGroup DBracket [ri "allow"; RGroup DParen [ri "non_snake_case"; rp ","; ri "unused_mut"; rp ","; ri "unsafe_code"]]; rp "#"; RGroup DBracket [ri "inline"; RGroup DParen [ri "always"]]; ri "pub"; ri "unsafe"; ri "extern"; RLit (RlStr [67%N]); ri "fn"; ri "POST_DEC"; RGroup DParen []; RGroup DBrace [RGroup DBrace [ri "let"; ri "value"; rp "="; ri "ptr"; rp "::"; ri "read_volatile"; RGroup DParen [RLit (RlInt 3736059631 (st "u32")); ri "as"; rp "*"; ri "mut"; ri "c_int"]; rp ";"; ri "ptr"; rp "::"; ri "write_volatile"; RGroup DParen [RLit (RlInt 3736059631 (st "u32")); ri "as"; rp "*"; ri "mut"; ri "c_int"; rp ","; ri "value"; rp "-"; RLit (RlInt 1 (st ""))]; rp ";"; ri "value"]; rp ";"; rp ";"]].
Proof. vm_compute. reflexivity. Qed.
