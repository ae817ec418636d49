(** Reading generated Rust tokens: arrays, constants in blocks, literals. *)
From Verif Require Import Base Utf Lex LexFloat Token Rust.
From Coq Require Import String List.
Import ListNotations.
Local Open Scope string_scope.
Local Open Scope list_scope.

Definition is_punct_tok (p : string) (t : rtok) : bool := match t with RPunct q => str_eqb q (st p) | _ => false end.
Arguments is_punct_tok p%string t.
Definition is_id_tok (s : string) (t : rtok) : bool := match t with RId q => str_eqb q (st s) | _ => false end.
Arguments is_id_tok s%string t.

(** The tokens up to the first [p], and those after it. *)
Fixpoint cut (p : string) (ts : list rtok) : option (list rtok * list rtok) :=
  match ts with
  | [] => None
  | t :: ts' =>
    if is_punct_tok p t then Some ([], ts')
    else match cut p ts' with Some (a, b) => Some (t :: a, b) | None => None end
  end.
(** A list separated by commas. *)
Fixpoint commas (ts : list rtok) : list (list rtok) :=
  match ts with
  | [] => [[]]
  | t :: ts' =>
    if is_punct_tok "," t then [] :: commas ts'
    else match commas ts' with l :: ls => (t :: l) :: ls | [] => [[t]] end
  end.

(** [n] in [&[T; n]] or [&'static [T; n]]. *)
Definition declared_length (ty : list rtok) : option Z :=
  match ty with
  | [RPunct _; RGroup DBracket l] | [RPunct _; RLife _; RGroup DBracket l] =>
    match rev l with RLit (RlInt n _) :: RPunct _ :: _ => Some n | _ => None end
  | _ => None
  end.

(** An integer, possibly cast: [72u16] or [72 as T]. *)
Definition element_value (ts : list rtok) : option Z :=
  match ts with
  | [RLit (RlInt n _)] => Some n
  | RLit (RlInt n _) :: t :: _ => if is_id_tok "as" t then Some n else None
  | _ => None
  end.
Fixpoint all_some {A} (l : list (option A)) : option (list A) :=
  match l with
  | [] => Some []
  | Some x :: l' => match all_some l' with Some r => Some (x :: r) | None => None end
  | None :: _ => None
  end.
(** The elements of a byte string literal or of [&[a, b, ..]]. *)
Definition array_elements (v : list rtok) : option (list Z) :=
  match v with
  | [RLit (RlBytes b)] => Some (map Z.of_N b)
  | [RPunct _; RGroup DBracket l] => all_some (map element_value (commas l))
  | _ => None
  end.
(** The elements of [{ .. unsafe { CStr::from_bytes_with_nul_unchecked(b"..") } }]. *)
Definition cstr_elements (v : list rtok) : option (list Z) :=
  match v with
  | [RGroup DBrace l] =>
    match rev l with
    | RGroup DBrace l' :: u :: _ =>
      if is_id_tok "unsafe" u then
        match rev l' with
        | RGroup DParen a :: f :: _ => if is_id_tok "from_bytes_with_nul_unchecked" f then array_elements a else None
        | _ => None
        end
      else None
    | _ => None
    end
  | _ => None
  end.
(** [{ const N: T = V; N.as_ptr() .. }]: [T] and [V]. *)
Definition const_block (v : list rtok) : option (list rtok * list rtok) :=
  match v with
  | [RGroup DBrace (k :: RId n :: c :: l)] =>
    if is_id_tok "const" k && is_punct_tok ":" c then
      match cut "=" l with
      | Some (ty, l') =>
        match cut ";" l' with
        | Some (val, RId n' :: d :: p :: RGroup DParen [] :: _) =>
          if str_eqb n n' && is_punct_tok "." d && is_id_tok "as_ptr" p then Some (ty, val) else None
        | _ => None
        end
      | None => None
      end
    else None
  | _ => None
  end.

(** The code units of a string literal. *)
Definition string_units (s : lit_string) : list Z :=
  map Z.of_N match s with
             | SOrdinary b => b
             | SUtf8 t => utf8_encode t
             | SUtf16 t => utf16_encode t
             | SUtf32 t => t
             | SWide w => w
             end.
