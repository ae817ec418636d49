(** Specification of inline assembly: templates, operands, clobbers. *)
From Verif Require Import Base Utf Lex LexFloat Token Ast Rust SpecInt.
From Coq Require Import String List.
Import ListNotations.
Local Open Scope string_scope.
Local Open Scope list_scope.

(** ** Templates *)

(** A template of GCC: operand references [%0], registers [%eax], braces and
    other characters. *)
Inductive piece := PRef (ds : str) | PReg (w : str) | PBrace (c : N) | PChar (c : N).

Definition percent : N := 37.
Definition ascii_digit (c : N) : Prop := (48 <= c <= 57)%N.
Definition ascii_letter (c : N) : Prop := ((65 <= c <= 90) \/ (97 <= c <= 122))%N.
Definition brace (c : N) : Prop := c = 123%N \/ c = 125%N.
Definition starts (P : N -> Prop) (s : str) : Prop := match s with c :: _ => P c | [] => False end.

Definition piece_text (p : piece) : str :=
  match p with PRef ds => percent :: ds | PReg w => percent :: w | PBrace c | PChar c => [c] end.
Definition text (ps : list piece) : str := concat (map piece_text ps).

(** The pieces of a text are determined: references and registers are as long
    as possible. *)
Inductive pieces : list piece -> Prop :=
| ps_nil : pieces []
| ps_ref ds ps : ds <> [] -> Forall ascii_digit ds -> ~ starts ascii_digit (text ps) -> pieces ps -> pieces (PRef ds :: ps)
| ps_reg w ps : w <> [] -> Forall ascii_letter w -> ~ starts ascii_letter (text ps) -> pieces ps -> pieces (PReg w :: ps)
| ps_brace c ps : brace c -> pieces ps -> pieces (PBrace c :: ps)
| ps_char c ps : c <> percent -> ~ brace c -> pieces ps -> pieces (PChar c :: ps).

(** A number without leading zeros. *)
Definition decimal (s : str) (v : Z) : Prop := numeral 10 s v /\ (s = st "0" \/ ~ starts (fun c => c = 48%N) s).

(** The Rust template: [{n}] for an operand, braces doubled. *)
Inductive rust_piece : piece -> str -> Prop :=
| rp_ref ds v s : numeral 10 ds v -> decimal s v -> rust_piece (PRef ds) ([123%N] ++ s ++ [125%N])
| rp_reg w : rust_piece (PReg w) (percent :: w)
| rp_brace c : rust_piece (PBrace c) [c; c]
| rp_char c : rust_piece (PChar c) [c].
Inductive rust_template : list piece -> str -> Prop :=
| rt_nil : rust_template [] []
| rt_cons p ps s out : rust_piece p s -> rust_template ps out -> rust_template (p :: ps) (s ++ out).

(** Every reference fits a [usize] of 64 bits. *)
Definition small_refs (ps : list piece) : Prop :=
  forall ds v, In (PRef ds) ps -> numeral 10 ds v -> (v < 2 ^ 64)%Z.

(** The lines of a text, without surrounding white space. *)
Definition newline : N := 10.
Fixpoint join_lines (l : list str) : str :=
  match l with [] => [] | [x] => x | x :: l' => x ++ newline :: join_lines l' end.
Definition white (c : N) : Prop := is_white c = true.
Definition trimmed (line s : str) : Prop :=
  exists a b, line = a ++ s ++ b /\ Forall white a /\ Forall white b /\ ~ starts white s /\ ~ starts white (rev s).
Definition trimmed_lines (out : str) (l : list str) : Prop :=
  exists raw, out = join_lines raw /\ raw <> [] /\ Forall (fun s => ~ In newline s) raw /\ Forall2 trimmed raw l.

(** No brace comes right after a plain character (the case in which the code
    forgets to double it). *)
Fixpoint run_braces (after_char : bool) (ps : list piece) : Prop :=
  match ps with
  | [] => True
  | PBrace _ :: ps' => after_char = false /\ run_braces after_char ps'
  | PChar _ :: ps' => run_braces true ps'
  | _ :: ps' => run_braces false ps'
  end.

(** ** Operands and clobbers *)

(** A line that makes the assembly global. *)
Definition global_line (l : str) : Prop :=
  exists d r, In d [st ".globl"; st ".global"; st ".section"] /\ l = d ++ r.

(** The arguments of [asm!], each followed by a comma. *)
Definition asm_args (args : list (list rtok)) : list rtok := concat (map (fun a => a ++ [RPunct (st ",")]) args).

Definition dir_name (d : asm_dir) : str := match d with DOut => st "out" | DInOut => st "inout" end.
Definition reg_class (r : reg_constraint) : rtok :=
  match r with
  | RcReg => RId (st "reg")
  | RcRegAbcd => RId (st "reg_abcd")
  | RcRegByte => RId (st "reg_byte")
  | RcFreg => RId (st "freg")
  | RcDigit d => RLit (RlInt (Z.of_N d) [])
  end.

(** The input [r] names output [d], one of [n]. *)
Definition matching (n : nat) (r : reg_constraint) : bool :=
  match r with RcDigit d => Nat.ltb (N.to_nat d) n | _ => false end.
Definition names_output (d : nat) (r : reg_constraint) : bool :=
  match r with RcDigit d' => Nat.eqb (N.to_nat d') d | _ => false end.
(** The outputs (from number [i] on) after merging: those named by an input
    are read and written. *)
Fixpoint merged_outputs (i : nat) (outs : list (asm_dir * reg_constraint * expr)) (ins : list (reg_constraint * expr))
    : list (asm_dir * reg_constraint * expr) :=
  match outs with
  | [] => []
  | (d, r, e) :: outs' =>
    ((if existsb (fun x => names_output i (fst x)) ins then DInOut else d), r, e) :: merged_outputs (S i) outs' ins
  end.
(** The inputs that are not merged. *)
Definition other_inputs (n : nat) (ins : list (reg_constraint * expr)) : list (reg_constraint * expr) :=
  filter (fun x => negb (matching n (fst x))) ins.

(** ** AT&T syntax *)

(** A line of a Rust template with a register or an immediate value of AT&T
    syntax, or an operand in parentheses. *)
Definition att_line (l : str) : Prop := In percent l \/ In 36%N l \/ exists x y, l = x ++ st "({" ++ y.
(** The same of a template of GCC. *)
Definition att_template (ps : list piece) : Prop :=
  (exists w, In (PReg w) ps) \/ In (PChar 36) ps \/ exists a ds b, ps = a ++ PChar 40 :: PRef ds :: b.

(** ** Calls *)

(** What [global_asm!] accepts, besides constants and symbols: lines, and the
    options about the syntax. *)
Definition global_argument (ts : list rtok) : Prop :=
  (exists s, ts = [RLit (RlStr s)]) \/
  (exists opts, ts = [RId (st "options"); RGroup DParen opts] /\
     forall t, In t opts -> t = RPunct (st ",") \/ t = RId (st "att_syntax") \/ t = RId (st "raw")).
