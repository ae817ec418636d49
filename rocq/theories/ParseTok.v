(** Token-level parsers without recursion on expressions: identifiers,
    literals and types. *)
From Verif Require Import Base Utf Lex LexFloat Token Ast Nom.
From Coq Require Import String List.
Local Open Scope list_scope.

Section ParseTok.
Context `{Unicode}.

(** ** src/ast/identifier_expr.rs *)

(** [nom::character::complete::u64] on a string: the longest run of ASCII
    digits, an error if it is empty or its value exceeds [u64::MAX]. *)
Definition nom_u64 (s : str) : option (str * Z) :=
  match take_while1 is_digit s with
  | Some (r, ds) => let v := dec_val ds in if (v <? 2 ^ 64)%Z then Some (r, v) else None
  | None => None
  end.

(** [unsuffixed_int], 45-52: a leading zero is an integer of its own. *)
Definition unsuffixed_int (s : str) : option (str * idpart) :=
  match char1 48 s with
  | Some r => Some (r, IpInt 0)
  | None => omap (fun x => (fst x, IpInt (snd x))) (nom_u64 s)
  end.

(** One item of the [many1] at 56-59 and 63-66. *)
Definition id_cont_item (s : str) : option (str * idpart) :=
  oor (unsuffixed_int s) (omap (fun x => (fst x, IpPlain (snd x))) (identifier_parse_str s)).

(** [many1(...)] applied to the text of an [IdentifierContinue] token, 54-71:
    the text that cannot be split further is dropped ([let (_, ids)]). *)
Definition split_id_cont (s : str) : option (list idpart) :=
  match many_items id_cont_item (length s) s with
  | (_, []) => None
  | (_, l) => Some l
  end.

(** The accumulator of [parse_concat_ident], 77-90. *)
Definition concat_ident (acc : ident_expr) (item : list idpart) : ident_expr :=
  match acc with
  | IArg i => IConcat (IpArg i :: item)
  | IPlain s => IConcat (IpPlain s :: item)
  | IConcat l => IConcat (l ++ item)
  end.

(** [IdentifierExpr::parse_concat_ident], 34-92. *)
Definition parse_concat_ident : parser ident_expr :=
  i <~ palt (pmap IArg macro_arg) (pmap IPlain macro_id) ;;
  fold_many0
    (preceded (delimited meta (punct "##") meta)
      (palts [pmap (fun a => [IpArg a]) macro_arg;
              pmap (fun s => [IpPlain s]) macro_id;
              pmap_opt (fun t => match t with MIdCont s => split_id_cont s | _ => None end) take_one]))
    concat_ident i.

(** ** Literals *)

(** [LitChar::parse], src/ast/literal/char.rs:99-121. *)
Definition lit_char_parse : parser lit_char :=
  palt
    (pmap_opt (fun pc => char_with_prefix (Some (fst pc)) (snd pc))
      (ppair (palts [pvalue PUtf8 (id "u8"); pvalue PUtf16 (id "u"); pvalue PUtf32 (id "U"); pvalue PWide (id "L")])
             (pmap_opt (fun t => match t with MLit (LChar (COrdinary c)) => Some c | _ => None end) take_one)))
    (pmap_opt (fun t => match t with MLit (LChar c) => Some c | _ => None end) take_one).

(** The ordinary string following an optional prefix identifier, converted to
    text ([str::from_utf8]), src/ast/literal/string.rs:243-251, 268-276, 293-301. *)
Definition text_after (prefix : string) : parser str :=
  preceded (popt (id prefix))
    (pmap_opt (fun t => match t with MLit (LString (SOrdinary b)) => utf8_decode b | _ => None end) take_one).

(** [LitString::parse], src/ast/literal/string.rs:215-337. *)
Definition lit_string_parse : parser lit_string :=
  s <~ pmap_opt (fun t => match t with MLit (LString s) => Some s | _ => None end) take_one ;;
  match s with
  | SOrdinary b =>
    pmap SOrdinary (fold_many0
      (pmap_opt (fun t => match t with MLit (LString (SOrdinary b)) => Some b | _ => None end) take_one)
      (fun acc b => acc ++ b) b)
  | SUtf8 s =>
    pmap SUtf8 (fold_many0
      (palt (pmap_opt (fun t => match t with MLit (LString (SUtf8 s)) => Some s | _ => None end) take_one)
            (text_after "u8"))
      (fun acc b => acc ++ b) s)
  | SUtf16 s =>
    pmap SUtf16 (fold_many0
      (palt (pmap_opt (fun t => match t with MLit (LString (SUtf16 s)) => Some s | _ => None end) take_one)
            (text_after "u"))
      (fun acc b => acc ++ b) s)
  | SUtf32 s =>
    pmap SUtf32 (fold_many0
      (palt (pmap_opt (fun t => match t with MLit (LString (SUtf32 s)) => Some s | _ => None end) take_one)
            (text_after "U"))
      (fun acc b => acc ++ b) s)
  | SWide w =>
    pmap SWide (fold_many0
      (palt (pmap_opt (fun t => match t with MLit (LString (SWide w)) => Some w | _ => None end) take_one)
            (preceded (popt (id "L"))
              (pmap_opt (fun t => match t with MLit (LString (SOrdinary b)) => Some b | _ => None end) take_one)))
      (fun acc b => acc ++ b) w)
  end.

(** [LitFloat::parse], src/ast/literal/float.rs:102-104; [LitInt::parse],
    src/ast/literal/int.rs:145-147. *)
Definition lit_float_parse : parser lit_float :=
  pmap_opt (fun t => match t with MLit (LFloat f) => Some f | _ => None end) take_one.
Definition lit_int_parse : parser lit_int :=
  pmap_opt (fun t => match t with MLit (LInt i) => Some i | _ => None end) take_one.

(** [Lit::parse], src/ast/literal.rs:71-78. *)
Definition lit_parse : parser lit :=
  palts [pmap LChar lit_char_parse; pmap LString lit_string_parse; pmap LFloat lit_float_parse; pmap LInt lit_int_parse].

(** ** src/ast/ty.rs *)

(** [const_volatile_qualifier], 354-360. *)
Definition const_volatile_qualifier : parser tyqual :=
  palts [pvalue QConstVolatile
           (permutation [pvalue (fun u : unit => u) (keyword "const"); pvalue (fun u : unit => u) (keyword "volatile")] tt);
         pvalue QConst (keyword "const");
         pvalue QVolatile (keyword "volatile")].

(** [int_signedness], 200-202, [int_length], 204-206. *)
Definition int_signedness : parser str := palt (keyword "unsigned") (keyword "signed").
Definition int_length : parser str := palt (keyword "short") (keyword "long").

(** The results of the [permutation]s of [int_ty]: qualifier, signedness and
    the (second) keyword. *)
Record int_parts := mk_parts { ip_q : option tyqual; ip_s : option str; ip_k : str }.
Definition set_q (q : option tyqual) (x : int_parts) := mk_parts q (ip_s x) (ip_k x).
Definition set_s (s : option str) (x : int_parts) := mk_parts (ip_q x) s (ip_k x).
Definition set_k (k : str) (x : int_parts) := mk_parts (ip_q x) (ip_s x) k.
Definition no_parts := mk_parts None None [].
Definition is_unsigned (s : option str) : bool := match s with Some w => str_eqb w (st "unsigned") | None => false end.
Definition is_signed (s : option str) : bool := match s with Some w => str_eqb w (st "signed") | None => false end.

(** The three alternatives of [int_ty], 210-229, 231-252, 254-272. *)
Definition int_ty_long_long : parser ctype :=
  pmap (fun x => ty_qualify_opt (TyBuiltIn (if is_unsigned (ip_s x) then BULongLong else BLongLong)) (ip_q x))
    (permutation [pmap set_q (popt const_volatile_qualifier); pmap set_s (popt int_signedness);
                  pmap set_k (keyword "long"); pmap set_k (keyword "long");
                  pvalue (fun x => x) (popt (keyword "int"))] no_parts).
Definition int_ty_length : parser ctype :=
  pmap (fun x => ty_qualify_opt (TyBuiltIn
          (if str_eqb (ip_k x) (st "short") then (if is_unsigned (ip_s x) then BUShort else BShort)
           else (if is_unsigned (ip_s x) then BULong else BLong))) (ip_q x))
    (permutation [pmap set_q (popt const_volatile_qualifier); pmap set_s (popt int_signedness);
                  pmap set_k int_length; pvalue (fun x => x) (popt (keyword "int"))] no_parts).
Definition int_ty_plain : parser ctype :=
  pmap (fun x => ty_qualify_opt (TyBuiltIn
          (if str_eqb (ip_k x) (st "int") then (if is_unsigned (ip_s x) then BUInt else BInt)
           else if is_unsigned (ip_s x) then BUChar else if is_signed (ip_s x) then BSChar else BChar)) (ip_q x))
    (permutation [pmap set_q (popt const_volatile_qualifier); pmap set_s (popt int_signedness);
                  pmap set_k (palt (keyword "char") (keyword "int"))] no_parts).
Definition int_ty : parser ctype := palts [int_ty_long_long; int_ty_length; int_ty_plain].

(** [ty], 273-321. *)
Definition ty_simple : parser ctype :=
  pmap (fun x => ty_qualify_opt (snd x) (fst x))
    (ppair (popt const_volatile_qualifier)
      (palts [pvalue (TyBuiltIn BVoid) (keyword "void");
              pvalue (TyBuiltIn BBool) (keyword "bool");
              pvalue (TyBuiltIn BFloat) (keyword "float");
              pmap (fun x => ty_qualify_opt (TyBuiltIn (match fst x with Some _ => BLongDouble | None => BDouble end)) (snd x))
                (terminated (ppair (popt (keyword "long")) (popt const_volatile_qualifier)) (keyword "double"))])).
Definition ty_ident : parser ctype :=
  q <~ popt const_volatile_qualifier ;; s <~ popt (keyword "struct") ;; n <~ parse_concat_ident ;;
  pret (ty_qualify_opt (TyIdent n (match s with Some _ => true | None => false end)) q).
Definition ty_base : parser ctype := palts [ty_simple; int_ty; ty_ident].

(** [Type::parse], 383-403. *)
Definition type_parse : parser ctype :=
  x <~ ppair ty_base (popt const_volatile_qualifier) ;;
  fold_many0 (preceded (ppair (punct "*") meta) (popt const_volatile_qualifier))
    (fun acc q => ty_qualify_opt (TyPtr acc) q)
    (ty_qualify_opt (fst x) (snd x)).

(** [Type::to_static], 553-573. *)
Fixpoint ty_to_static (t : ctype) : option ctype :=
  match t with
  | TyBuiltIn b => Some (TyBuiltIn b)
  | TyIdent (IPlain n) s => Some (TyIdent (IPlain n) s)
  | TyIdent _ _ => None
  | TyPath l s => Some (TyPath l s)
  | TyPtr t => omap TyPtr (ty_to_static t)
  | TyQual t q => omap (fun t => TyQual t q) (ty_to_static t)
  end.

(** [s.split_whitespace()]: the maximal runs of non-whitespace. *)
Fixpoint split_ws_aux (cur : str) (s : str) : list str :=
  match s with
  | [] => match cur with [] => [] | _ => [rev cur] end
  | c :: s' =>
    if is_white c then (match cur with [] => split_ws_aux [] s' | _ => rev cur :: split_ws_aux [] s' end)
    else split_ws_aux (c :: cur) s'
  end.
Definition split_whitespace (s : str) : list str := split_ws_aux [] s.

(** One word of [Type::from_str], 583-591. *)
Definition type_word (w : str) : option mtoken :=
  match identifier_try_from w with
  | Some i => Some (MIdent i)
  | None => match punct_try_from w with Some p => Some (MPunct p) | None => None end
  end.

(** [Type::from_str], 575-600; every failure is [UnsupportedType] of the
    string.  The tokens after the type are ignored ([let (_, ty)]). *)
Definition type_from_str (s : str) : option ctype :=
  let spaced := flat_map (fun c => if N.eqb c 42 then st " * " else [c]) s in
  let fix words l := match l with
    | [] => Some []
    | w :: l' => t <-? type_word w ;; ts <-? words l' ;; Some (t :: ts)
    end in
  ts <-? words (split_whitespace spaced) ;;
  match type_parse ts with POk _ t => ty_to_static t | _ => None end.

End ParseTok.
