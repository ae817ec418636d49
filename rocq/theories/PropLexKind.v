(** C24, C60: the texts that are no tokens. *)
From Verif Require Import Base Utf Lex LexFloat Token MacroSet StrFacts LexFacts SpecInt SpecString SpecFloatLit
  SpecTokens SpecLexical SpecSet SetFacts PropInt PropString PropFloat PropPunct PropPaste PropTokens PropLexical.
From Coq Require Import String List.
Local Open Scope string_scope.
Local Open Scope list_scope.

Section P.
Context `{Unicode}.

(** The texts the crate understands, by the grammars of C25, C27, C28, C32,
    C33 and C60. *)
Definition c_literal (s : str) : Prop :=
  (exists v ty, int_literal s v ty \/ misread_decimal s v ty) \/ (exists ty m k, float_constant s ty m k) \/
  (exists l, char_literal s l) \/ (exists l, string_literal s l).
Definition a_name (s : str) : Prop := exists id, c_identifier s id /\ names_first s id.
Definition a_continuation (s : str) : Prop := exists id, c_continuation s id /\ names_first s id.
Definition a_punctuator (s : str) : Prop := exists sp p, splices sp /\ s = sp ++ p /\ c_punctuator p.
Definition a_comment (s : str) : Prop := exists c, c_comment s c.

Lemma some_none {A} (o : option A) (P : Prop) : ((exists x, o = Some x) <-> P) -> (o = None <-> ~ P).
Proof.
  intros Hp. destruct o as [x|].
  - split; [discriminate|]. intros Hn. exfalso. apply Hn, Hp. eauto.
  - split; [|easy]. intros _ Hq. apply Hp in Hq. destruct Hq; discriminate.
Qed.

Lemma literal_none s : Forall scalar s -> (lit_try_from s = None <-> ~ c_literal s).
Proof.
  intros Hs. apply some_none. unfold c_literal. split.
  - intros [[c|x|f|i] E].
    + right. right. left. exists c. now apply C27_meaning, C27_token_iff.
    + right. right. right. exists x. apply C28_meaning; [easy|]. now apply C28_token_iff.
    + right. left. apply C32_grammar. exists f. now apply C32_token_iff.
    + left. apply C25_token_iff in E. destruct i as [v ty]. exists v, ty. now apply C25_accepted.
  - intros [(v & ty & Hi)|[Hf|[[c Hc]|[x Hx]]]].
    + exists (LInt (mk_int v ty)). now apply C25_token_iff, C25_accepted.
    + apply C32_grammar in Hf. destruct Hf as [f Hf]. exists (LFloat f). now apply C32_token_iff.
    + exists (LChar c). now apply C27_token_iff, C27_meaning.
    + exists (LString x). apply C28_token_iff; [easy|]. now apply C28_meaning.
Qed.

Lemma name_none s : identifier_try_from s = None <-> ~ a_name s.
Proof. apply some_none. split; intros [id E]; exists id; now apply C60_identifier_partial. Qed.
Lemma continuation_none s : identifier_continue_try_from s = None <-> ~ a_continuation s.
Proof. apply some_none. split; intros [id E]; exists id; now apply C60_continuation_partial. Qed.
Lemma punctuator_none s : punct_try_from s = None <-> ~ a_punctuator s.
Proof.
  apply some_none. split.
  - intros [p E]. apply C33_punctuation in E. destruct E as (sp & E). now exists sp, p.
  - intros (sp & p & E). exists p. apply C33_punctuation. now exists sp.
Qed.
Lemma comment_none s : comment_try_from s = None <-> ~ a_comment s.
Proof. apply some_none. split; intros [c E]; exists c; now apply C60_comment. Qed.

(** A text that expansion leaves alone is reported exactly when no grammar has it. *)
Theorem C60_reported : forall h fuel s, Forall scalar s -> inert h s ->
  (expand (run h) (S fuel) [s] = RErr (InvalidToken s) <->
   ~ (a_name s \/ c_literal s \/ a_continuation s \/ a_punctuator s \/ a_comment s)).
Proof.
  intros h fuel s Hs Hi. rewrite C24_inert_text_invalid_exact by (constructor; [easy|constructor]). split.
  - intros (pre & post & outs & E & _ & Hn). destruct pre as [|x pre]; [|destruct pre; discriminate].
    destruct (identifier_try_from s) as [id|] eqn:E1; [exfalso; eapply Hn, v_ident; eauto|].
    destruct (lit_try_from s) as [l|] eqn:E2; [exfalso; eapply Hn, v_lit; eauto|].
    destruct (identifier_continue_try_from s) as [c|] eqn:E3; [exfalso; eapply Hn, v_cont; eauto|].
    destruct (punct_try_from s) as [p|] eqn:E4; [exfalso; eapply Hn, v_punct; eauto|].
    destruct (comment_try_from s) as [c|] eqn:E5; [exfalso; eapply Hn, v_comment; eauto|].
    apply name_none in E1. apply literal_none in E2; [|easy]. apply continuation_none in E3.
    apply punctuator_none in E4. apply comment_none in E5. intuition.
  - intros Hn. exists [], [], []. split; [easy|]. split; [constructor|].
    intros m Hm. destruct Hm as [id E|l _ E|c _ _ E|p _ _ _ E|c _ _ _ _ E].
    + apply Hn. left. apply C60_identifier_partial in E. now exists id.
    + assert (Hl : lit_try_from s <> None) by congruence. apply Hl, literal_none; [easy|]. intros Hc. apply Hn. auto.
    + apply Hn. right. right. left. apply C60_continuation_partial in E. now exists c.
    + apply Hn. right. right. right. left. apply C33_punctuation in E. destruct E as (sp & E). now exists sp, p.
    + apply Hn. right. right. right. right. apply C60_comment in E. now exists c.
Qed.

(** Whatever the definitions and the text: what is reported is neither a name,
    nor a literal, nor the continuation of a name. *)
Theorem C24_reported : forall ms fuel b s, Forall scalar s ->
  expand ms fuel b = RErr (InvalidToken s) -> ~ a_name s /\ ~ c_literal s /\ ~ a_continuation s.
Proof.
  intros ms fuel b s Hs E. apply C24_invalid_token_is_no_token in E. destruct E as (E1 & E2 & E3).
  split; [now apply name_none|]. split; [now apply literal_none|now apply continuation_none].
Qed.
End P.

Example C60_reported_case : Forall scalar (st "/* a */ */") /\ inert [DefineVar (st "X") [st "1"]] (st "/* a */ */") /\
  expand (run [DefineVar (st "X") [st "1"]]) 9 [st "/* a */ */"] = RErr (InvalidToken (st "/* a */ */")).
Proof.
  split; [repeat (apply Forall_cons; [left; reflexivity|]); apply Forall_nil|]. split; [|vm_compute; reflexivity].
  split; [intros (id & d & E & _); vm_compute in E; discriminate|]. split; [vm_compute; discriminate|discriminate].
Qed.

Print Assumptions C60_reported.
Print Assumptions C24_reported.
