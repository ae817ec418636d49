(** C78: The names of the parameters of a macro do not matter. *)
From Verif Require Import Base Utf Lex LexFloat Token MacroSet SpecTokens SpecRename StrFacts PropLexical RenameFacts PropTokens.
From Coq Require Import String List Bool.
Import ListNotations.
Local Open Scope string_scope.
Local Open Scope list_scope.

(** A text and a variable-like macro are expanded to the same tokens, or with the same
    error, when the parameters of the macros are given other names. *)
Theorem C78_text : forall `{Unicode} m1 m2 fuel text, renamed_set m1 m2 ->
  same_result (expand m1 fuel text) (expand m2 fuel text).
Proof.
  intros U m1 m2 fuel text Hs. unfold expand. apply same_bind; [|intros; apply same_refl].
  apply var_body_rename. now apply expand_rename.
Qed.

Theorem C78_var : forall `{Unicode} m1 m2 fuel name, renamed_set m1 m2 ->
  same_result (expand_var_macro m1 fuel name) (expand_var_macro m2 fuel name).
Proof.
  intros U m1 m2 fuel name Hs. unfold expand_var_macro. rewrite (rs_var _ _ Hs).
  destruct (sm_get (var_macros m1) name) as [b|]; [|apply same_refl].
  apply same_bind; [|intros; apply same_refl]. apply var_body_rename. now apply expand_rename.
Qed.

(** A function-like macro expanded by itself has the same replacement text, where
    parameters are numbers, and the parameters with their new names. *)
Theorem C78_fn : forall `{Unicode} m1 m2 fuel name params body f, renamed_set m1 m2 ->
  sm_get (fn_macros m1) name = Some (params, body) -> renaming f params body ->
  sm_get (fn_macros m2) name = Some (map f params, map f body) ->
  same_result (rbind (expand_fn_macro m1 fuel name) (fun r => ROk (map (rename_token f) (fst r), snd r)))
              (expand_fn_macro m2 fuel name).
Proof.
  intros U m1 m2 fuel name params body f Hs E1 Hf E2. unfold expand_fn_macro. rewrite E1, E2.
  destruct (definition_rename f params body Hf) as [(an & T1 & T2 & T3)|(e1 & e2 & T1 & T2 & T3)]; rewrite T1, T2; cbn [rbind].
  - rewrite T3.
    pose proof (fn_body_rename _ _ (expand_rename _ _ Hs fuel) f params (map f params) an [] name None (tokenize an body) T1 T2) as Hb.
    destruct Hb as [Hb|(a & b & Hb1 & Hb2)].
    2:{ rewrite Hb1, Hb2. cbn. right. now exists a, b. }
    rewrite <- Hb. destruct (expand_fn_macro_body _ _ _ _ _ _) as [t| | |]; cbn [rbind]; try apply same_refl.
    rewrite map_length. destruct (detokenize (length an) t) as [b| | |]; cbn [rbind]; try apply same_refl.
    assert (Hk : forall t0, In t0 an -> match t0 with TIdent _ | TPunct _ | TComment _ => True | _ => False end).
    { apply C21_parameter_list_accepted in T1. destruct T1 as [-> (ids & v & Hp & _)]. intros t0 Ht.
      apply in_map_iff in Ht. destruct Ht as (s & <- & Hs0).
      assert (Hq : parameter_kind s <> POther).
      { intros Hq. assert (Hi : In POther (filter (fun p => negb (is_pcomment p)) (map parameter_kind params))).
        { apply filter_In. split; [|reflexivity]. rewrite <- Hq. now apply in_map. }
        rewrite Hp in Hi. apply in_app_or in Hi. destruct Hi as [Hi|Hi].
        - apply in_map_iff in Hi. destruct Hi as (x & Hx & _). discriminate.
        - destruct v; [destruct Hi as [Hi|[]]; discriminate|destruct Hi]. }
      unfold parameter_kind in Hq. destruct (from_str s); try exact I; now apply Hq. }
    destruct (detokenize 0 an) as [a|e| |] eqn:Ea; cbn [rbind fst snd].
    + rewrite (detokenize_rename f an 0 a Ea Hk). apply same_refl.
    + exfalso. revert Ea. clear -Hk. revert e. induction an as [|t0 l IH]; [discriminate|]. intros e. cbn [detokenize].
      pose proof (Hk t0 (or_introl eq_refl)) as H0. destruct t0; try destruct H0; cbn [token_detokenize rbind];
        (destruct (detokenize 0 l) eqn:El; cbn [rbind]; try discriminate; intros _; eapply IH; [|reflexivity]; intros; apply Hk; now right).
    + exfalso. revert Ea. clear -Hk. induction an as [|t0 l IH]; [discriminate|]. cbn [detokenize].
      pose proof (Hk t0 (or_introl eq_refl)) as H0. destruct t0; try destruct H0; cbn [token_detokenize rbind];
        (destruct (detokenize 0 l) eqn:El; cbn [rbind]; try discriminate; intros _; apply IH; [|reflexivity]; intros; apply Hk; now right).
    + exfalso. revert Ea. clear -Hk. induction an as [|t0 l IH]; [discriminate|]. cbn [detokenize].
      pose proof (Hk t0 (or_introl eq_refl)) as H0. destruct t0; try destruct H0; cbn [token_detokenize rbind];
        (destruct (detokenize 0 l) eqn:El; cbn [rbind]; try discriminate; intros _; apply IH; [|reflexivity]; intros; apply Hk; now right).
  - destruct T3 as [[= ->]|(x & y & [= ->] & [= ->])]; [apply same_refl|]. right. now exists x, y.
Qed.

(** ** Cases *)

(** [#define F(x, y) x + G(y) + z] and [#define F(a, x) a + G(x) + z]. *)
Definition swap_names (s : str) : str := if str_eqb s (st "x") then st "a" else if str_eqb s (st "y") then st "x" else s.
Definition F_params : list str := [st "x"; st "y"; st "..."].
Definition F_body : list str := map st ["x"; "+"; "G"; "("; "y"; ")"; "+"; "z"; "__VA_ARGS__"].
Definition set_of (f : str -> str) : macro_set :=
  fst (define_fn_macro (fst (define_var_macro ms_new (st "z") [st "3"])) (st "F") (map f F_params) (map f F_body)).
Example C78_case : renaming (H := demo_unicode) swap_names F_params F_body /\
  renamed_set (H := demo_unicode) (set_of (fun s => s)) (set_of swap_names) /\
  set_of (fun s => s) <> set_of swap_names /\
  expand (H := demo_unicode) (set_of swap_names) 20 (map st ["F"; "("; "1"; ","; "z"; ","; "7"; ")"]) =
    expand (H := demo_unicode) (set_of (fun s => s)) 20 (map st ["F"; "("; "1"; ","; "z"; ","; "7"; ")"]) /\
  exists a a' b, expand_fn_macro (H := demo_unicode) (set_of (fun s => s)) 20 (st "F") = ROk (a, b) /\
    expand_fn_macro (H := demo_unicode) (set_of swap_names) 20 (st "F") = ROk (a', b) /\ a <> a'.
Proof.
  assert (Hn : forall s, In s [st "x"; st "y"; st "a"] -> parameter_name (H := demo_unicode) s).
  { intros s Hs. destruct Hs as [<-|[<-|[<-|[]]]]; (split; [apply well_formed_iff; reflexivity|discriminate]). }
  assert (Hr : renaming (H := demo_unicode) swap_names F_params F_body).
  { split.
    - intros p Hp Hq. destruct Hp as [<-|[<-|[<-|[]]]]; cbn; try (apply Hn; cbn; tauto). exact Hq.
    - intros t Ht Hq. unfold swap_names. destruct (str_eqb t (st "x")) eqn:Ex.
      { apply str_eqb_eq in Ex as ->. exfalso. apply Hq. split; [cbn; tauto|apply Hn; cbn; tauto]. }
      destruct (str_eqb t (st "y")) eqn:Ey; [|reflexivity].
      apply str_eqb_eq in Ey as ->. exfalso. apply Hq. split; [cbn; tauto|apply Hn; cbn; tauto].
    - intros s t Hs Ht. cbn in Hs, Ht.
      repeat (destruct Hs as [<-|Hs]; [repeat (destruct Ht as [<-|Ht]; [vm_compute; (reflexivity || discriminate)|]); destruct Ht|]). destruct Hs.
    - intros p Hp. destruct Hp as [<-|[<-|[<-|[]]]]; cbn; intros Hi; repeat (destruct Hi as [Hi|Hi]; [discriminate|]); exact Hi. }
  split; [exact Hr|]. split.
  { split; [reflexivity|]. intros n. cbn. destruct (str_eqb n [70%N]); [|reflexivity]. exists swap_names. split; [exact Hr|reflexivity]. }
  split; [discriminate|]. split; [vm_compute; reflexivity|].
  do 3 eexists. split; [vm_compute; reflexivity|]. split; [vm_compute; reflexivity|]. discriminate.
Qed.

(** ** The conditions are needed *)

(** A new name that already stands in the replacement text captures what stands there:
    [#define F(x) x + z] and [#define F(z) z + z]. *)
Definition one (p : str) : macro_set := fst (define_fn_macro ms_new (st "F") [p] [p; st "+"; st "z"]).
Theorem C78_distinct_needed : 
  expand (H := demo_unicode) (one (st "x")) 20 (map st ["F"; "("; "1"; ")"]) = ROk [MLit (LInt (mk_int 1 None)); MPunct (st "+"); MIdent (st "z")] /\
  expand (H := demo_unicode) (one (st "z")) 20 (map st ["F"; "("; "1"; ")"]) = ROk [MLit (LInt (mk_int 1 None)); MPunct (st "+"); MLit (LInt (mk_int 1 None))].
Proof. split; vm_compute; reflexivity. Qed.

(** A parameter that is written with a universal character name is not found in the
    replacement text, so that another name for it changes the macro. *)
Theorem C78_plain_needed :  let e := 92%N :: st "u03b1" in
  expand (H := demo_unicode) (one (st "x")) 20 (map st ["F"; "("; "1"; ")"]) <> expand (H := demo_unicode) (one e) 20 (map st ["F"; "("; "1"; ")"]) /\
  exists t, expand (H := demo_unicode) (one e) 20 (map st ["F"; "("; "1"; ")"]) = ROk (MIdent [945%N] :: t).
Proof. split; [vm_compute; discriminate|]. eexists. vm_compute. reflexivity. Qed.

Print Assumptions C78_text.
Print Assumptions C78_var.
Print Assumptions C78_fn.
Print Assumptions C78_case.
Print Assumptions C78_distinct_needed.
Print Assumptions C78_plain_needed.
