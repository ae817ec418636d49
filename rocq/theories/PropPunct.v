(** C33: punctuation. *)
From Verif Require Import Base Utf Lex StrFacts LexFacts.
From Coq Require Import String List.
Local Open Scope string_scope.
Local Open Scope list_scope.

(** ** Specification: the punctuators of C (C11, 6.4.6), by length. *)
Definition c_punctuators : list string :=
  ["["; "]"; "("; ")"; "{"; "}"; "."; "&"; "*"; "+"; "-"; "~"; "!"; "/"; "%"; "<"; ">"; "^"; "|"; "?"; ":"; ";"; "="; ","; "#";
   "->"; "++"; "--"; "<<"; ">>"; "<="; ">="; "=="; "!="; "&&"; "||"; "*="; "/="; "%="; "+="; "-="; "&="; "^="; "|="; "##";
   "<:"; ":>"; "<%"; "%>"; "%:"; "..."; "<<="; ">>="; "%:%:"].
Definition c_punctuator (p : str) : Prop := exists x, In x c_punctuators /\ p = st x.

(** A backslash at the end of a line, LF or CR LF. *)
Inductive splices : str -> Prop :=
| sp_none : splices []
| sp_lf s : splices s -> splices (92%N :: 10%N :: s)
| sp_crlf s : splices s -> splices (92%N :: 13%N :: 10%N :: s).

Lemma puncts_same p : In p puncts <-> c_punctuator p.
Proof.
  assert (H : forall p, In p puncts <-> In p (map st c_punctuators)).
  { assert (E : forallb (fun p => str_mem p (map st c_punctuators)) puncts && forallb (fun p => str_mem p puncts) (map st c_punctuators) = true)
      by reflexivity.
    apply andb_prop in E. destruct E as [E1 E2]. rewrite forallb_forall in E1, E2. clear p. intros p. split; intros Hp.
    - apply str_mem_In, E1, Hp.
    - apply str_mem_In, E2, Hp. }
  rewrite H. unfold c_punctuator. rewrite in_map_iff. split; intros (x & H1 & H2); exists x; intuition.
Qed.

Lemma punct_no_splice p r : splices p -> p <> [] -> ~ In (p ++ r) puncts.
Proof.
  assert (E : forallb (fun p => match p with c :: _ => negb (c =? 92)%N | [] => false end) puncts = true) by reflexivity.
  rewrite forallb_forall in E. intros Hs Hne Hi. apply E in Hi. inversion Hs; subst; [contradiction|discriminate..].
Qed.

Theorem C33_punctuation : forall s p, punct_try_from s = Some p <-> exists sp, splices sp /\ s = sp ++ p /\ c_punctuator p.
Proof.
  assert (Haux : forall f s p, (length s <= f)%nat ->
    punct_try_from_aux f s = Some p <-> exists sp, splices sp /\ s = sp ++ p /\ c_punctuator p).
  2:{ intros s p. now apply Haux. }
  induction f as [|f IH]; intros s p Hl.
  - destruct s; [|simpl in Hl; lia]. simpl. split; [discriminate|]. intros (sp & _ & E & x & Hx & ->). exfalso.
    destruct sp; [|discriminate]. simpl in Hx. intuition (subst; discriminate).
  - cbn [punct_try_from_aux]. destruct (str_mem s puncts) eqn:Em.
    + apply str_mem_In in Em. split.
      * intros [= <-]. exists []. split; [constructor|]. split; [easy|now apply puncts_same].
      * intros (sp & Hs & -> & _). destruct sp as [|c sp]; [easy|]. now apply punct_no_splice in Em.
    + apply str_mem_not_In in Em. destruct (strip_prefix [92; 10]%N s) as [s'|] eqn:E1; cbn [oor].
      * apply strip_prefix_some in E1. subst s. rewrite IH by (simpl in Hl; lia). split; intros (sp & Hs & E & Hp).
        -- subst s'. exists (92%N :: 10%N :: sp). split; [now constructor|easy].
        -- destruct Hs as [|sp Hs|sp Hs]; [|injection E as ->; eauto|discriminate].
           exfalso. apply Em. rewrite E. now apply puncts_same.
      * destruct (strip_prefix [92; 13; 10]%N s) as [s'|] eqn:E2.
        -- apply strip_prefix_some in E2. subst s. rewrite IH by (simpl in Hl; lia). split; intros (sp & Hs & E & Hp).
           ++ subst s'. exists (92%N :: 13%N :: 10%N :: sp). split; [now constructor|easy].
           ++ destruct Hs as [|sp Hs|sp Hs]; [|discriminate|injection E as ->; eauto].
              exfalso. apply Em. rewrite E. now apply puncts_same.
        -- split; [discriminate|]. intros (sp & Hs & E & Hp). exfalso. destruct Hs as [|sp Hs|sp Hs]; subst s.
           ++ apply Em. now apply puncts_same.
           ++ change ((92%N :: 10%N :: sp) ++ p) with ([92; 10]%N ++ sp ++ p) in E1. rewrite strip_prefix_app in E1. discriminate.
           ++ change ((92%N :: 13%N :: 10%N :: sp) ++ p) with ([92; 13; 10]%N ++ sp ++ p) in E2. rewrite strip_prefix_app in E2. discriminate.
Qed.

(** Spellings determine the token. *)
Corollary C33_punctuation_unspliced : forall x, In x c_punctuators -> punct_try_from (st x) = Some (st x).
Proof. intros x Hx. apply C33_punctuation. exists []. split; [constructor|]. split; [easy|]. now exists x. Qed.

Example C33_example : map punct_try_from [st ">>="; 92%N :: 10%N :: 92%N :: 13%N :: 10%N :: st "%:%:"; st ".."; 92%N :: 10%N :: []; 92%N :: 13%N :: st "+"] =
  [Some (st ">>="); Some (st "%:%:"); None; None; None].
Proof. reflexivity. Qed.

Print Assumptions C33_punctuation.
Print Assumptions C33_punctuation_unspliced.
