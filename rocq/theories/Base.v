(** Strings, results and the Unicode oracle shared by the whole model. *)
From Coq Require Export List NArith ZArith Bool Lia.
From Coq Require Import String Ascii.
Export ListNotations.

(** A Rust [&str] / [String]: the list of its [char]s (Unicode scalar values)
    as numbers.  Models [str] as used everywhere in /repo/src; the UTF-8
    representation only matters where the code asks for bytes and is then
    computed by [utf8_encode] (Utf.v). *)
Definition str := list N.

(** String literals of the Rust source, e.g. ["##"] (ASCII only). *)
Definition st (s : string) : str := map N_of_ascii (list_ascii_of_string s).
Arguments st s%string.

(** [==] on [&str]. *)
Fixpoint str_eqb (a b : str) : bool :=
  match a, b with
  | [], [] => true
  | x :: a', y :: b' => N.eqb x y && str_eqb a' b'
  | _, _ => false
  end.

(** [s.strip_prefix(p)]. *)
Fixpoint strip_prefix (p s : str) : option str :=
  match p, s with
  | [], _ => Some s
  | x :: p', y :: s' => if N.eqb x y then strip_prefix p' s' else None
  | _ :: _, [] => None
  end.

(** [s.starts_with(p)]. *)
Definition starts_with (s p : str) : bool :=
  match strip_prefix p s with Some _ => true | None => false end.

(** [s.ends_with(p)]. *)
Definition ends_with (s p : str) : bool := starts_with (rev s) (rev p).

(** Membership of a string in a list ([slice::contains], [HashSet::contains]). *)
Definition str_mem (x : str) (l : list str) : bool := existsb (str_eqb x) l.

(** Longest prefix whose characters satisfy [p], and the rest
    ([fold_many0(satisfy(p))], [take_while]). *)
Fixpoint take_while {A} (p : A -> bool) (s : list A) : list A * list A :=
  match s with
  | [] => ([], [])
  | c :: s' => if p c then let (a, b) := take_while p s' in (c :: a, b) else ([], s)
  end.

(** Outcome of a modelled Rust function: a value, an [Err], a panic, or - only
    for functions driven by fuel - exhaustion of the fuel. *)
Inductive res (E A : Type) : Type :=
| ROk (a : A)
| RErr (e : E)
| RPanic
| RFuel.
Arguments ROk {E A} a.
Arguments RErr {E A} e.
Arguments RPanic {E A}.
Arguments RFuel {E A}.

(** The [?] operator. *)
Definition rbind {E A B} (r : res E A) (k : A -> res E B) : res E B :=
  match r with
  | ROk a => k a
  | RErr e => RErr e
  | RPanic => RPanic
  | RFuel => RFuel
  end.

Notation "x <- r ;; k" := (rbind r (fun x => k))
  (at level 61, r at next level, right associativity).

Definition rmap {E A B} (f : A -> B) (r : res E A) : res E B :=
  rbind r (fun a => ROk (f a)).

(** Option bind, for the parsers on strings. *)
Definition obind {A B} (o : option A) (k : A -> option B) : option B :=
  match o with Some a => k a | None => None end.
Notation "x <-? o ;; k" := (obind o (fun x => k))
  (at level 61, o at next level, right associativity).
Definition omap {A B} (f : A -> B) (o : option A) : option B :=
  match o with Some a => Some (f a) | None => None end.
Definition oor {A} (a b : option A) : option A :=
  match a with Some _ => a | None => b end.

(** Tables of the [unicode_ident] crate and of [char::escape_debug] beyond
    ASCII.  They are data of crates/std outside /repo, so the model is
    parametrised by them; the only law assumed is that identifier-start
    characters may also continue an identifier (XID_Start is a subset of
    XID_Continue by UAX 31).  Every theorem holds for every instance. *)
Class Unicode := {
  u_start : N -> bool;       (* XID_Start, for c >= 128 *)
  u_cont : N -> bool;        (* XID_Continue, for c >= 128 *)
  u_escape : N -> bool;      (* is the character \u{..}-escaped by [{:?}], c >= 128 *)
  u_start_cont : forall c, u_start c = true -> u_cont c = true
}.

(** A concrete instance used in the examples: a few letters beyond ASCII
    (Greek, Cyrillic, CJK), Arabic-Indic digits as continue-only. *)
Definition greek (c : N) : bool := ((0x391 <=? c) && (c <=? 0x3C9) || (0x400 <=? c) && (c <=? 0x45F)
  || (0x4E00 <=? c) && (c <=? 0x9FFF))%N%bool.
#[export] Program Instance demo_unicode : Unicode := {
  u_start := greek;
  u_cont := fun c => greek c || ((0x660 <=? c) && (c <=? 0x669))%N;
  u_escape := fun c => negb (greek c)
}.
Next Obligation. now rewrite H. Qed.

(** [char::is_ascii_digit], ... as ranges of code points. *)
Definition is_digit (c : N) : bool := ((48 <=? c) && (c <=? 57))%N.
Definition is_upper (c : N) : bool := ((65 <=? c) && (c <=? 90))%N.
Definition is_lower (c : N) : bool := ((97 <=? c) && (c <=? 122))%N.

(** Models [unicode_ident::is_xid_start]; ASCII part concrete. *)
Definition is_xid_start `{Unicode} (c : N) : bool :=
  if (c <? 128)%N then is_upper c || is_lower c else u_start c.

(** Models [unicode_ident::is_xid_continue]; ASCII part concrete. *)
Definition is_xid_continue `{Unicode} (c : N) : bool :=
  if (c <? 128)%N then is_upper c || is_lower c || is_digit c || (c =? 95)%N else u_cont c.

(** Models [char::from_u32] / [char::try_from(u32)]: Unicode scalar values. *)
Definition is_scalar (c : N) : bool :=
  ((c <? 0xD800) || ((0xDFFF <? c) && (c <=? 0x10FFFF)))%N.
Definition char_from_u32 (c : N) : option N := if is_scalar c then Some c else None.

(** Models [char::to_digit(radix)] for radix 2, 8, 10 and 16. *)
Definition to_digit (radix c : N) : option N :=
  let d := if is_digit c then Some (c - 48)%N
           else if is_lower c then Some (c - 97 + 10)%N
           else if is_upper c then Some (c - 65 + 10)%N
           else None in
  match d with
  | Some d => if (d <? radix)%N then Some d else None
  | None => None
  end.

(** Models [char::is_whitespace] (White_Space property), used by [str::trim]
    at src/macro_set/mod.rs:115 and src/ast/asm.rs. *)
Definition is_white (c : N) : bool :=
  ((9 <=? c) && (c <=? 13) || (c =? 32) || (c =? 0x85) || (c =? 0xA0) || (c =? 0x1680)
   || (0x2000 <=? c) && (c <=? 0x200A) || (c =? 0x2028) || (c =? 0x2029) || (c =? 0x202F)
   || (c =? 0x205F) || (c =? 0x3000))%N.

(** Models [str::trim]. *)
Definition trim_start (s : str) : str := snd (take_while is_white s).
Definition trim (s : str) : str := rev (trim_start (rev (trim_start s))).
