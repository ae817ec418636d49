(** C41: the integer literal generated under a cast. *)
From Verif Require Import Base Utf Lex LexFloat Token Ast ParseStmt Rust Finish Codegen SpecRust.
From Coq Require Import String List ZArith Lia.
Import ListNotations.
Local Open Scope string_scope.
Local Open Scope list_scope.

(** ** Specification *)

(** Rust's integer types: signedness and number of bits. *)
Definition int_types : list (string * (bool * Z)) :=
  [("i8", (true, 8)); ("i16", (true, 16)); ("i32", (true, 32)); ("i64", (true, 64)); ("i128", (true, 128));
   ("u8", (false, 8)); ("u16", (false, 16)); ("u32", (false, 32)); ("u64", (false, 64)); ("u128", (false, 128))]%Z.
(** The values of an integer type. *)
Definition fits (t : bool * Z) (v : Z) : Prop :=
  if fst t then (- 2 ^ (snd t - 1) <= v < 2 ^ (snd t - 1))%Z else (0 <= v < 2 ^ snd t)%Z.
(** The value and the suffix of an integer literal, possibly negative. *)
Definition read_int (ts : list rtok) : option (Z * str) :=
  match ts with
  | [RLit (RlInt v s)] => Some (v, s)
  | [m; RLit (RlInt v s)] => if is_punct_tok "-" m then Some ((- v)%Z, s) else None
  | _ => None
  end.
(** A value of [i128]. *)
Definition i128_value (v : Z) : Prop := (- 2 ^ 127 <= v < 2 ^ 127)%Z.

(** [(T)v] is a null pointer constant. *)
Definition null_cast (t : ctype) (v : Z) : Prop :=
  v = 0%Z /\ match t with TyPtr _ => True | TyQual (TyPtr _) q => q_is_const q = true | _ => False end.

(** ** The theorem *)

Lemma cast_suffix v : i128_value v -> exists name ty, In (name, ty) int_types /\ cast_int_toks v = int_toks v name /\
  fits ty v /\ forall name' ty', In (name', ty') int_types -> fits ty' v -> (snd ty <= snd ty')%Z.
Proof.
  intros R. unfold i128_value in R. change (2 ^ 127)%Z with 170141183460469231731687303715884105728%Z in R.
  unfold cast_int_toks.
  Ltac pick n t := exists n, t; split; [simpl; tauto|split; [reflexivity|split; [unfold fits; simpl; lia|]]];
    let N := fresh in let T := fresh in let I := fresh in intros N T I F; simpl in I;
    repeat (destruct I as [I | I]; [injection I as <- <-; unfold fits in F; simpl in *; lia|]); destruct I.
  repeat match goal with |- context [(v <? ?k)%Z] => destruct (Z.ltb_spec v k) end.
  1: pick "i128" (true, 128%Z).
  1: pick "i64" (true, 64%Z).
  1: pick "i32" (true, 32%Z).
  1: pick "i16" (true, 16%Z).
  1: pick "i8" (true, 8%Z).
  repeat match goal with |- context [(v <=? ?k)%Z] => destruct (Z.leb_spec v k) end.
  1: pick "u8" (false, 8%Z).
  1: pick "u16" (false, 16%Z).
  1: pick "u32" (false, 32%Z).
  1: pick "u64" (false, 64%Z).
  1: pick "i128" (true, 128%Z).
Qed.

Lemma read_int_toks v name : read_int (int_toks v name) = Some (v, st name).
Proof. unfold int_toks. destruct (v <? 0)%Z; simpl; rewrite ?Z.opp_involutive; reflexivity. Qed.

(** The literal generated for [(T)v], where [T] is not [void] and the cast is
    not a null pointer, has the value [v], and its suffix is the narrowest
    integer type that has this value. *)
Theorem C41_cast_literal {U : Unicode} cx c t i ts :
  i128_value (int_value i) -> ty_is_void t = false -> ~ null_cast t (int_value i) ->
  etoks cx c (ECast t (ELit (LInt i))) = Some ts ->
  exists lit ty name width tts, ts = lit ++ [RId (st "as")] ++ tts /\ ty_toks cx c t = Some tts /\
    In (name, (ty, width)) int_types /\ read_int lit = Some (int_value i, st name) /\ fits (ty, width) (int_value i) /\
    forall name' ty', In (name', ty') int_types -> fits ty' (int_value i) -> (width <= snd ty')%Z.
Proof.
  intros R V N E. cbn [etoks] in E.
  assert (Z : match t with TyQual (TyPtr _) q => if q_is_const q && is_int_zero (ELit (LInt i)) then Some "null" else None
                      | TyPtr _ => if is_int_zero (ELit (LInt i)) then Some "null_mut" else None | _ => None end = None).
  { destruct (is_int_zero (ELit (LInt i))) eqn:Z0.
    - apply Z.eqb_eq in Z0. destruct t as [| | | |[]]; try reflexivity; try (exfalso; apply N; now split).
      destruct (q_is_const q) eqn:Q; [|reflexivity]. exfalso. apply N. now split.
    - destruct t as [| | | |[]]; rewrite ?Bool.andb_false_r; reflexivity. }
  rewrite Z, V in E. cbn [obind] in E. destruct (ty_toks cx c t) as [tts|] eqn:T; [|discriminate E].
  injection E as <-. destruct (cast_suffix _ R) as (name & [ty w] & I & C & F & M).
  exists (cast_int_toks (int_value i)), ty, name, w, tts.
  repeat split; auto. rewrite C. apply read_int_toks.
Qed.

(** A null pointer constant becomes the null pointer of the right mutability. *)
Theorem C41_null {U : Unicode} cx c t i : null_cast t (int_value i) ->
  etoks cx c (ECast t (ELit (LInt i))) =
  Some (pfx (cx_trait cx) ++ [RId (st "ptr"); RPunct (st "::");
    RId (st (match t with TyPtr _ => "null_mut" | _ => "null" end)); RGroup DParen []]).
Proof.
  intros [Z N]. cbn [etoks]. unfold is_int_zero. rewrite Z.
  destruct t as [| | |t|[| | |t|] q]; try contradiction; [reflexivity|]. rewrite N. reflexivity.
Qed.

(** Not vacuous: the boundaries. *)
Example C41_boundaries : map (fun v => read_int (cast_int_toks v))
    [-129; -128; 255; 256; 18446744073709551615; 18446744073709551616]%Z =
  [Some (-129, st "i16"); Some (-128, st "i8"); Some (255, st "u8"); Some (256, st "u16");
   Some (18446744073709551615, st "u64"); Some (18446744073709551616, st "i128")]%Z.
Proof. reflexivity. Qed.
Example C41_case : exists ts, @etoks demo_unicode cx_unit lctx_new (ECast (TyBuiltIn BULong) (ELit (LInt (mk_int (-1) None)))) = Some ts /\
  i128_value (-1) /\ ~ null_cast (TyBuiltIn BULong) (-1).
Proof. eexists. split; [vm_compute; reflexivity|]. split; [unfold i128_value; lia|]. intros [E _]. discriminate E. Qed.

Print Assumptions C41_cast_literal.
Print Assumptions C41_null.
