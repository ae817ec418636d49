(** The parsers of inline assembly, declarations, statements, macro bodies and
    macro parameters: src/ast/asm.rs, src/ast/function_decl.rs,
    src/ast/var_decl.rs, src/ast/statement.rs, src/macro_body.rs,
    src/fn_macro.rs and src/var_macro.rs. *)
From Verif Require Import Base Utf Lex LexFloat Token Ast Nom ParseTok ParseExpr.
From Coq Require Import String List.
Local Open Scope list_scope.

(** Decimal printing of a natural number ([format!("{}", n)]). *)
Fixpoint dec_digits (fuel : nat) (n : N) (acc : str) : str :=
  match fuel with
  | O => acc
  | S f =>
    let acc' := (48 + N.modulo n 10)%N :: acc in
    if (n <? 10)%N then acc' else dec_digits f (N.div n 10) acc'
  end.
Definition dec_str (n : N) : str := dec_digits (S (N.size_nat n)) n [].

(** [s.split('\n')]. *)
Fixpoint split_on_aux (sep : N) (cur : str) (s : str) : list str :=
  match s with
  | [] => [rev cur]
  | c :: s' => if N.eqb c sep then rev cur :: split_on_aux sep [] s' else split_on_aux sep (c :: cur) s'
  end.
Definition split_on (sep : N) (s : str) : list str := split_on_aux sep [] s.

Section ParseStmt.
Context `{Unicode}.

(** ** src/ast/asm.rs *)

(** [alpha1]: ASCII letters. *)
Definition is_alpha (c : N) : bool := (((65 <=? c) && (c <=? 90)) || ((97 <=? c) && (c <=? 122)))%N.

(** One piece of an assembly template, [Asm::parse_template], 81-98. *)
Definition template_piece (s : str) : option (str * str) :=
  oor (r <-? char1 37 s ;;
       oor (x <-? take_while1 is_digit r ;;
            let n := dec_val (snd x) in
            if (n <? 2 ^ 64)%Z then Some (fst x, [123%N] ++ dec_str (Z.to_N n) ++ [125%N]) else None)
           (x <-? take_while1 is_alpha r ;; Some (fst x, 37%N :: snd x)))
 (oor (r <-? oor (omap (fun r => (r, 123%N)) (char1 123 s)) (omap (fun r => (r, 125%N)) (char1 125 s)) ;;
       Some (fst r, [snd r; snd r]))
      (take_while1 (fun c => negb (N.eqb c 37)) s)).

(** [Asm::parse_template], 78-107. *)
Definition parse_template (s : str) : option (list str) :=
  match many_items template_piece (length s) s with
  | ([], l) => Some (map trim (split_on 10 (concat l)))
  | _ => None
  end.

(** [Asm::parse_reg_constraint], 109-130.  The [parse::<u8>] of a run of
    letters never succeeds. *)
Definition has_char (c : N) (s : str) : bool := existsb (N.eqb c) s.
Definition parse_reg_constraint (s : str) : option (str * reg_constraint) :=
  oor (x <-? take_while1 is_alpha s ;;
       let w := snd x in
       omap (pair (fst x))
         (if has_char 114 w then Some RcReg
          else if has_char 81 w then Some RcRegAbcd
          else if has_char 113 w then Some RcRegByte
          else if has_char 102 w then Some RcFreg
          else if has_char 105 w || has_char 103 w then Some RcReg
          else None))
      (x <-? take_while1 is_digit s ;;
       let n := dec_val (snd x) in
       if (n <? 256)%Z then Some (fst x, RcDigit (Z.to_N n)) else None).

(** [Asm::parse_output_operands], 132-136, [parse_input_operands], 138-140. *)
Definition parse_output_operands (s : str) : option (asm_dir * reg_constraint) :=
  x <-? oor (omap (fun r => (r, DOut)) (char1 61 s)) (omap (fun r => (r, DInOut)) (char1 43 s)) ;;
  omap (pair (snd x)) (all_consuming parse_reg_constraint (fst x)).
Definition parse_input_operands (s : str) : option reg_constraint := all_consuming parse_reg_constraint s.

(** [LitString::as_bytes], src/ast/literal/string.rs:512-520, and
    [LitString::as_str], 523-531. *)
Definition lit_string_as_bytes (s : lit_string) : option (list N) :=
  match s with
  | SOrdinary b => Some b
  | SUtf8 s | SUtf16 s | SUtf32 s => Some (utf8_encode s)
  | SWide _ => None
  end.
Definition lit_string_as_str (s : lit_string) : option str :=
  match s with
  | SOrdinary b => utf8_decode b
  | SUtf8 s | SUtf16 s | SUtf32 s => Some s
  | SWide _ => None
  end.
Definition string_with {A} (f : str -> option A) : parser A :=
  pmap_opt (fun s => t <-? lit_string_as_str s ;; f t) lit_string_parse.

(** [Asm::parse], 142-195. *)
Definition colon_section {A} (p : parser (list A)) : parser (list A) :=
  pmap (fun o => match o with Some l => l | None => [] end)
    (popt (preceded (delimited meta (punct ":") meta) p)).
Definition asm_parse : parser asm_stmt :=
  preceded (terminated (palts [id "__asm__"; id "__asm"; id "asm"])
                       (popt (palts [id "volatile"; id "inline"; id "goto"])))
    (parenthesized
      (t <~ delimited meta (string_with parse_template) meta ;;
       outs <~ colon_section (separated_list0 (delimited meta (punct ",") meta)
                 (pmap (fun x => (fst (fst x), snd (fst x), snd x))
                   (ppair (string_with parse_output_operands) (parenthesized expr_parse)))) ;;
       ins <~ colon_section (separated_list0 (delimited meta (punct ",") meta)
                (ppair (string_with parse_input_operands) (parenthesized expr_parse))) ;;
       cl <~ colon_section (separated_list0 (meta ;;> (punct "," ;;> meta)) (string_with Some)) ;;
       pret (mk_asm t outs ins cl))).

(** ** Declarations *)

(** [permutation((opt(id("static")), Type::parse))] of function_decl.rs:35 and
    var_decl.rs:28. *)
Definition static_type : parser (bool * ctype) :=
  permutation [pmap (fun (o : option str) x => (match o with Some _ => true | None => false end, snd x)) (popt (id "static"));
               pmap (fun t x => (fst x, t)) type_parse] (false, TyBuiltIn BVoid).

(** [FunctionDecl::parse], src/ast/function_decl.rs:33-41. *)
Definition fn_decl_parse : parser fn_decl :=
  t <~ static_type ;; n <~ parse_concat_ident ;;
  a <~ parenthesized (separated_list0 (ppair meta (punct ",")) (ppair type_parse parse_concat_ident)) ;;
  pret (mk_fn_decl (snd t) n a).

(** [VarDecl::parse], src/ast/var_decl.rs:26-35. *)
Definition var_decl_parse : parser var_decl :=
  t <~ static_type ;; n <~ parse_concat_ident ;; punct "=" ;;> e <~ expr_parse ;;
  pret (mk_var_decl (snd t) n e (fst t)).

(** ** src/ast/statement.rs *)

(** [semicolon_or_eof], 57. *)
Definition semicolon_or_eof : parser unit := palt (pvalue tt (punct ";")) (pvalue tt peof).
Definition stmt_block (s : stmt) : list stmt := match s with SBlock l => l | _ => [s] end.

(** [Statement::parse_single], 53-88, over its recursive calls [rec]. *)
Definition stmt_step (rec : parser stmt) : parser stmt :=
  palts [pmap SAsm (terminated asm_parse semicolon_or_eof);
         (c <~ preceded (terminated (id "if") meta) (parenthesized expr_parse) ;;
          a <~ pmap stmt_block rec ;;
          b <~ popt (preceded (delimited meta (id "else") meta) (pmap stmt_block rec)) ;;
          pret (SIf c a (match b with Some b => b | None => [] end)));
         pmap (fun x => SDoWhile (fst x) (snd x))
           (preceded (terminated (id "do") meta)
             (ppair (pmap stmt_block rec) (preceded (id "while") (parenthesized expr_parse))));
         pmap SBlock (delimited (terminated (punct "{") meta) (many0 (preceded meta rec))
                                (terminated (preceded meta (punct "}")) (popt (punct ";"))));
         pmap SFnDecl (terminated fn_decl_parse semicolon_or_eof);
         pmap SVarDecl (terminated var_decl_parse semicolon_or_eof);
         pmap SExpr (terminated expr_parse semicolon_or_eof)].
Fixpoint pstmt (fuel : nat) (ts : list mtoken) : pres stmt :=
  match fuel with
  | O => PFuel
  | S n => stmt_step (pstmt n) ts
  end.
Definition stmt_parse_single : parser stmt := fun ts => pstmt (S (length ts)) ts.

(** [Statement::parse], 91-99. *)
Definition stmt_parse : parser stmt :=
  pmap (fun l => match l with [s] => s | _ => SBlock l end) (many0 (delimited meta stmt_parse_single meta)).

(** [MacroBody::parse], src/macro_body.rs:40-53. *)
Definition macro_body_parse : parser macro_body :=
  meta ;;> (fun ts =>
    match ts with
    | [] => POk [] (MbStatement (SBlock []))
    | _ => palt (pall_consuming (pmap MbExpr expr_parse)) (pall_consuming (pmap MbStatement stmt_parse)) ts
    end).

(** ** Macros *)

(** [ParserError], src/error.rs. *)
Inductive parser_error := InvalidMacroName | InvalidMacroArgs | InvalidMacroBody.

(** [FnMacro::parse_args], src/fn_macro.rs:110-135. *)
Definition parse_args : parser (list str) :=
  pall_consuming (terminated
    (palt (pmap (fun v => [v]) (preceded meta (punct "...")))
          (a <~ fold_many0 (preceded meta macro_id) (fun acc i => acc ++ [i]) [] ;;
           v <~ preceded meta (popt (punct "...")) ;;
           pret (a ++ match v with Some v => [v] | None => [] end)))
    meta).

(** [FnMacro::parse], src/fn_macro.rs:138-146. *)
Record fn_macro := mk_fn_macro { fm_name : str; fm_args : list str; fm_body : macro_body }.
Definition fn_macro_parse (name : str) (args body : list mtoken) : res parser_error fn_macro :=
  if negb (is_identifier name) then RErr InvalidMacroName
  else match parse_args args with
  | POk _ a =>
    match macro_body_parse body with
    | POk _ b => ROk (mk_fn_macro name a b)
    | PErr => RErr InvalidMacroBody
    | PFuel => RFuel
    end
  | PErr => RErr InvalidMacroArgs
  | PFuel => RFuel
  end.

(** [VarMacro::parse], src/var_macro.rs:38-47. *)
Record var_macro := mk_var_macro { vm_name : str; vm_body : macro_body }.
Definition var_macro_parse (name : str) (body : list mtoken) : res parser_error var_macro :=
  if negb (is_identifier name) then RErr InvalidMacroName
  else match macro_body_parse body with
  | POk _ b => ROk (mk_var_macro name b)
  | PErr => RErr InvalidMacroBody
  | PFuel => RFuel
  end.

End ParseStmt.
