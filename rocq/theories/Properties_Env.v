(* Properties C25, C26, C41: environments of the static type analysis. *)
From Verif Require Import M_Base L_Base M_Dict L_Dict M_Types L_Hier L_Types L_TypesUnion M_Env L_Env.
From Coq Require Import Permutation.

(* hierarchy for the examples: Top_ (0) over Normal (1) and not_set (14); Normal over String (6) and Undefined (7) *)
Definition exe_h : hier := [mkT 0 None 0; mkT 1 (Some 0) 1; mkT 14 (Some 0) 1; mkT 6 (Some 1) 2; mkT 7 (Some 1) 2].
Lemma exe_built : built exe_h.
Proof.
  apply b_add with (h := firstn 4 exe_h) (p := 1) (a := 7); [|reflexivity].
  apply b_add with (h := firstn 3 exe_h) (p := 1) (a := 6); [|reflexivity].
  apply b_add with (h := firstn 2 exe_h) (p := 0) (a := 14); [|reflexivity].
  apply b_add with (h := firstn 1 exe_h) (p := 0) (a := 1); [|reflexivity].
  eapply b_root. reflexivity.
Qed.
Lemma exe_par c m : par exe_h c m -> In (c, m) [(1, 0); (14, 0); (6, 1); (7, 1)].
Proof. intros (t & H & <- & E). cbn in H. repeat (destruct H as [<-|H]; [cbn in E; (discriminate || (injection E as <-; cbn; tauto))|]). destruct H. Qed.
Lemma exe_no2 c : ~ par exe_h c 2.
Proof. intros H. apply exe_par in H. cbn in H. repeat (destruct H as [H|H]; [discriminate|]). destruct H. Qed.
Lemma exe_leaf a : In a [14; 6; 7] -> leaf exe_h a.
Proof.
  intros Ha. split; [cbn in *; intuition|]. intros c H. apply exe_par in H. cbn in Ha, H.
  destruct Ha as [<-|[<-|[<-|[]]]]; repeat (destruct H as [H|H]; [discriminate|]); destruct H.
Qed.
Lemma exe_ht a : In a [0; 1; 14; 6; 7] -> htype exe_h (Hier a).
Proof. intros H. left. exists a. split; [reflexivity|exact H]. Qed.
Definition exe_e1 : env := mkEnv 0 0 0 [(100, Hier 6); (101, Hier 7)] None.
Definition exe_e2 : env := mkEnv 0 0 0 [(100, Hier 7)] None.

(* ---- C25 ---- *)

(* the call succeeds; what conforms to a reachable branch conforms to the join *)
Theorem C25_sound : forall h fuel sorted envs, built h -> (forall c, ~ par h c 2) -> In 14 (names h) -> (forall l, Permutation (sorted l) l) ->
  (forall e, In (Some e) envs -> env_ok h e) -> (forall e e', In (Some e) envs -> In (Some e') envs -> compatible e e') ->
  exists r, envs_or h (S fuel) sorted envs = Ok r /\
    forall s e, store_ok h s -> In (Some e) envs -> conforms h s e -> exists e', r = Some e' /\ conforms h s e'.
Proof.
  intros h fuel sorted envs Hb HL HN HS HE HC. destruct (envs_or_ok h (built_wf h Hb) HL HN fuel sorted HS envs HE HC) as (r & E & Hr). exists r. split; [exact E|].
  intros s e Hs He Hc. destruct r as [e'|]; [|destruct (Hr e He)]. exists e'. split; [reflexivity|]. destruct Hr as (_ & _ & _ & V). intros x. right.
  apply (V x (s x) (Hs x)). exists e. split; [exact He|]. destruct (Hc x) as [Q|Q]; [|exact Q]. pose proof (type_in_ok h HN e x (HE e He)) as T. rewrite Q in T.
  destruct T as [(a & ? & _)|(l & ? & _)]; discriminate.
Qed.
Print Assumptions C25_sound.

(* each expression's type in the join has exactly the values it has in some branch, an absent one counting as not_set *)
Theorem C25_exact : forall h fuel sorted envs e, built h -> (forall c, ~ par h c 2) -> In 14 (names h) -> (forall l, Permutation (sorted l) l) ->
  (forall e, In (Some e) envs -> env_ok h e) -> (forall e e', In (Some e) envs -> In (Some e') envs -> compatible e e') ->
  envs_or h (S fuel) sorted envs = Ok (Some e) ->
  (forall x, nget (e_vars e) x <> None <-> exists e', In (Some e') envs /\ nget (e_vars e') x <> None) /\
  forall x v, leaf h v -> (hmem h v (type_in e x) <-> exists e', In (Some e') envs /\ hmem h v (type_in e' x)).
Proof.
  intros h fuel sorted envs e Hb HL HN HS HE HC E. destruct (envs_or_ok h (built_wf h Hb) HL HN fuel sorted HS envs HE HC) as (r & E' & Hr).
  rewrite E in E'. injection E' as <-. destruct Hr as (_ & K & _ & V). split; [exact K|exact V].
Qed.
Print Assumptions C25_exact.

(* unreachable branches contribute nothing; all unreachable: unreachable *)
Theorem C25_unreachable : forall h fuel sorted a b, envs_or h (S fuel) sorted (a ++ None :: b) = envs_or h (S fuel) sorted (a ++ b).
Proof. intros. unfold envs_or. rewrite !flat_map_app. reflexivity. Qed.
Print Assumptions C25_unreachable.
Theorem C25_all_unreachable : forall h fuel sorted envs, envs_or h (S fuel) sorted envs = Ok None <-> forall o, In o envs -> o = None.
Proof.
  intros h fuel sorted envs. split.
  - intros H [e|] He; [|reflexivity]. exfalso. unfold envs_or in H. assert (FS := flat_some envs e). destruct (flat_map _ envs) as [|e0 [|e1 l]]; [now apply FS in He|discriminate|].
    destruct (map_r _ _); [|discriminate]. cbn [bind] in H. destruct (or_vars _ _ _ _ _); discriminate.
  - intros H. unfold envs_or. replace (flat_map _ envs) with (@nil env); [reflexivity|]. symmetry. induction envs as [|o envs IH]; [reflexivity|]. cbn.
    rewrite (H o) by now left. apply IH. intros; apply H; now right.
Qed.
Print Assumptions C25_all_unreachable.

(* branches of different algorithms are not joined *)
Theorem C25_incompatible : forall h fuel sorted envs e e', In (Some e) envs -> In (Some e') envs -> ~ compatible e e' ->
  envs_or h (S fuel) sorted envs = Err AssertionError.
Proof. intros h fuel sorted envs e e' H H' HC. exact (envs_or_incompatible h fuel sorted envs e e' H H' HC). Qed.
Print Assumptions C25_incompatible.

(* with an unknown type in one branch, the join takes the other branch's type: it no longer allows what the first does *)
Theorem C25_TBD_refuted : exists h e1 e2 e s, built h /\ (forall c, ~ par h c 2) /\ In 14 (names h) /\ compatible e1 e2 /\ store_ok h s /\
  conforms h s e1 /\ envs_or h 5 (fun l => l) [Some e1; Some e2] = Ok (Some e) /\ ~ conforms h s e.
Proof.
  exists exe_h, (mkEnv 0 0 0 [(100, TBD)] None), (mkEnv 0 0 0 [(100, Hier 6)] None), (mkEnv 0 0 0 [(100, Hier 6)] None), (fun x => if x =? 100 then 7 else 14).
  split; [exact exe_built|]. split; [exact exe_no2|]. split; [cbn; tauto|]. split; [repeat split|].
  split; [intros x; destruct (x =? 100); apply exe_leaf; cbn; tauto|]. split; [|split; [reflexivity|]].
  - intros x. unfold type_in. cbn [e_vars nget]. rewrite Nat.eqb_sym. destruct (x =? 100); [now left|right; constructor].
  - intros H. destruct (H 100) as [Q|Q]; [discriminate|]. cbn in Q. inversion Q as [|? ? p Hp Hq]; subst. apply exe_par in Hp. cbn in Hp.
    repeat (destruct Hp as [Hp|Hp]; [try discriminate; injection Hp as <-|]); [|destruct Hp].
    inversion Hq as [|? ? p' Hp' Hq']; subst. apply exe_par in Hp'. cbn in Hp'. repeat (destruct Hp' as [Hp'|Hp']; [try discriminate; injection Hp' as <-|]); [|destruct Hp'].
    inversion Hq' as [|? ? p'' Hp'' Hq'']; subst. apply exe_par in Hp''. cbn in Hp''. repeat (destruct Hp'' as [Hp''|Hp'']; [discriminate|]). destruct Hp''.
Qed.
Print Assumptions C25_TBD_refuted.

Example C25_ex : envs_or exe_h 5 (fun l => l) [Some exe_e1; None; Some exe_e2] =
  Ok (Some (mkEnv 0 0 0 [(100, Hier 1); (101, UnionT [Hier 7; Hier 14])] None)) /\ compatible exe_e1 exe_e2 /\
  conforms exe_h (fun x => if x =? 100 then 7 else 14) exe_e2 /\ store_ok exe_h (fun x => if x =? 100 then 7 else 14) /\ env_ok exe_h exe_e1.
Proof.
  split; [reflexivity|]. split; [repeat split|]. split; [|split].
  - intros x. unfold type_in. cbn [exe_e2 e_vars nget]. rewrite Nat.eqb_sym. destruct (x =? 100); right; constructor.
  - intros x. destruct (x =? 100); apply exe_leaf; cbn; tauto.
  - intros x t. cbn. destruct x; [discriminate|]. do 2 (match goal with |- context [if ?b then _ else _] => destruct b end; [intros [= <-]; apply exe_ht; cbn; tauto|]). discriminate.
Qed.

(* ---- C26 ---- *)

Definition ty_ok h t := t = TBD \/ htype h t.

(* in either outcome the store conforms to the outcome's environment; [inside] says whether the value is in the tested set,
   of which sub_t and sup_t are bounds *)
Theorem C26_sound : forall h schemas fuel x expr_t env1 c sub_t sup_t asserting te fe errs s inside,
  built h -> (forall c, ~ par h c 2) -> ty_ok h expr_t -> htype h sub_t -> htype h sup_t ->
  with_type_test h schemas (S fuel) x expr_t env1 c sub_t sup_t asserting = Ok ((te, fe), errs) ->
  store_ok h s -> conforms h s env1 -> allows h expr_t (s x) ->
  (hmem h (s x) sub_t -> inside = true) -> (inside = true -> hmem h (s x) sup_t) ->
  ((c = is_a /\ inside = true) \/ (c = isnt_a /\ inside = false) -> exists e, te = Some e /\ conforms h s e) /\
  ((c = is_a /\ inside = false) \/ (c = isnt_a /\ inside = true) -> (asserting = false \/ expr_t <> TBD) -> exists e, fe = Some e /\ conforms h s e).
Proof.
  intros h sc fuel x expr_t env1 c sub_t sup_t asserting te fe errs s inside Hb HL Ht Hsub Hsup E Hs HC HA B1 B2. pose proof (built_wf h Hb) as W.
  unfold with_type_test in E. destruct (ty_eqb expr_t T_0) eqn:E0.
  { exfalso. destruct Ht as [->|Ht]; [discriminate|]. assert (hmem h (s x) expr_t) as Q. { destruct HA as [->|Q]; [discriminate|exact Q]. }
    exact (proj1 (eqb_T_0' h W expr_t Ht) E0 (s x) (Hs x) Q). }
  rewrite (not_TBD h sup_t Hsup), (not_TBD h sub_t Hsub) in E. cbn [negb assert_ bind] in E.
  destruct (asserting && ty_eqb expr_t TBD) eqn:Ea.
  { apply andb_true_iff in Ea as [-> Ea]. assert (expr_t = TBD) as -> by (destruct expr_t; try discriminate; reflexivity).
    destruct c; injection E as <- <- <-.
    - split; [|intros _ [Q|Q]; [discriminate|now destruct Q]]. intros [[_ ->]|[Q _]]; [|discriminate]. eexists. split; [reflexivity|].
      apply conforms_set; [exact HC|]. right. now apply B2.
    - split; intros _; [|intros _]; eauto.
    - split; intros _; [|intros _]; eauto. }
  destruct (split_ok h W HL sc fuel expr_t sup_t Ht Hsup) as (i1 & o1 & E1 & _ & _ & V1). rewrite E1 in E. cbn [bind] in E.
  destruct (split_ok h W HL sc fuel expr_t sub_t Ht Hsub) as (i2 & o2 & E2 & _ & _ & V2). rewrite E2 in E. cbn [bind] in E.
  destruct (V1 (s x) (Hs x)) as [P1 _], (V2 (s x) (Hs x)) as [_ P2].
  assert (Cin : inside = true -> conforms h s (set_var env1 x i1)) by (intros Q; apply conforms_set; [exact HC|right; apply P1; auto]).
  assert (Cout : inside = false -> conforms h s (set_var env1 x o2)).
  { intros Q. apply conforms_set; [exact HC|]. right. apply P2. split; [exact HA|]. intros Q'. apply B1 in Q'. congruence. }
  match type of E with (do errs <- ?k ;; _) = _ => destruct k as [er|]; [|discriminate] end. cbn [bind] in E.
  destruct c; [injection E as <- <- <-|injection E as <- <- <-|discriminate].
  - split; [intros [[_ Q]|[Q _]]; [eauto|discriminate]|intros [[_ Q]|[Q _]] _; [eauto|discriminate]].
  - split; [intros [[Q _]|[_ Q]]; [discriminate|eauto]|intros [[Q _]|[_ Q]] _; [discriminate|eauto]].
Qed.
Print Assumptions C26_sound.

(* the new type is as narrow as the bounds allow, and nothing else changes *)
Theorem C26_exact : forall h schemas fuel x expr_t env1 c sub_t sup_t e e' errs,
  built h -> (forall c, ~ par h c 2) -> ty_ok h expr_t -> htype h sub_t -> htype h sup_t ->
  with_type_test h schemas (S fuel) x expr_t env1 c sub_t sup_t false = Ok ((Some e, Some e'), errs) ->
  (forall v, leaf h v -> (hmem h v (type_in (match c with is_a => e | _ => e' end) x) <-> allows h expr_t v /\ hmem h v sup_t) /\
                         (hmem h v (type_in (match c with is_a => e' | _ => e end) x) <-> allows h expr_t v /\ ~ hmem h v sub_t)) /\
  (forall y, y <> x -> type_in e y = type_in env1 y /\ type_in e' y = type_in env1 y).
Proof.
  intros h sc fuel x expr_t env1 c sub_t sup_t e e' errs Hb HL Ht Hsub Hsup E. pose proof (built_wf h Hb) as W. unfold with_type_test in E.
  destruct (ty_eqb expr_t T_0) eqn:E0; [discriminate|]. rewrite (not_TBD h sup_t Hsup), (not_TBD h sub_t Hsub) in E. cbn [negb assert_ bind andb] in E.
  destruct (split_ok h W HL sc fuel expr_t sup_t Ht Hsup) as (i1 & o1 & E1 & _ & _ & V1). rewrite E1 in E. cbn [bind] in E.
  destruct (split_ok h W HL sc fuel expr_t sub_t Ht Hsub) as (i2 & o2 & E2 & _ & _ & V2). rewrite E2 in E. cbn [bind] in E.
  assert (T : forall t, type_in (set_var env1 x t) x = t) by (intros t; unfold type_in, set_var, with_vars; cbn [e_vars]; now rewrite nget_nset_same).
  assert (N : forall t y, y <> x -> type_in (set_var env1 x t) y = type_in env1 y) by (intros t y Hy; unfold type_in, set_var, with_vars; cbn [e_vars]; now rewrite nget_nset_other by congruence).
  destruct c; [injection E as <- <- _|injection E as <- <- _|discriminate].
  - split; [|intros y Hy; now rewrite !N]. intros v Hv. rewrite !T. split; [apply V1|apply V2]; exact Hv.
  - split; [|intros y Hy; now rewrite !N]. intros v Hv. rewrite !T. split; [apply V1|apply V2]; exact Hv.
Qed.
Print Assumptions C26_exact.

(* a test outside an assertion never raises, and is called unnecessary exactly if its outcome is determined *)
Theorem C26_unnecessary : forall h schemas fuel x expr_t env1 c sub_t sup_t,
  built h -> (forall c, ~ par h c 2) -> ty_ok h expr_t -> htype h sub_t -> htype h sup_t -> c <> other_copula ->
  exists te fe errs, with_type_test h schemas (S fuel) x expr_t env1 c sub_t sup_t false = Ok ((te, fe), errs) /\
  ((exists v, leaf h v /\ allows h expr_t v) ->
   (In MustBe errs <-> forall v, leaf h v -> allows h expr_t v -> hmem h v sub_t) /\
   (In CantBeTest errs <-> forall v, leaf h v -> allows h expr_t v -> ~ hmem h v sup_t)).
Proof.
  intros h sc fuel x expr_t env1 c sub_t sup_t Hb HL Ht Hsub Hsup Hc. pose proof (built_wf h Hb) as W. unfold with_type_test.
  destruct (ty_eqb expr_t T_0) eqn:E0.
  { exists None, None, []. split; [reflexivity|]. intros (v & Hv & Q). exfalso. destruct Ht as [->|Ht]; [discriminate|]. destruct Q as [->|Q]; [discriminate|].
    exact (proj1 (eqb_T_0' h W expr_t Ht) E0 v Hv Q). }
  rewrite (not_TBD h sup_t Hsup), (not_TBD h sub_t Hsub). cbn [negb assert_ bind andb].
  destruct (split_ok h W HL sc fuel expr_t sup_t Ht Hsup) as (i1 & o1 & -> & Hi1 & _ & V1). cbn [bind].
  destruct (split_ok h W HL sc fuel expr_t sub_t Ht Hsub) as (i2 & o2 & -> & _ & Ho2 & V2). cbn [bind].
  set (errs := (if ty_eqb o2 T_0 then [MustBe] else []) ++ (if ty_eqb i1 T_0 then [CantBeTest] else [])).
  assert (K : (In MustBe errs <-> forall v, leaf h v -> allows h expr_t v -> hmem h v sub_t) /\ (In CantBeTest errs <-> forall v, leaf h v -> allows h expr_t v -> ~ hmem h v sup_t)).
  { assert (M : In MustBe errs <-> ty_eqb o2 T_0 = true).
    { unfold errs. destruct (ty_eqb o2 T_0), (ty_eqb i1 T_0); cbn; split; try discriminate; try tauto; intros [Q|Q]; try discriminate; try destruct Q. }
    assert (C : In CantBeTest errs <-> ty_eqb i1 T_0 = true).
    { unfold errs. destruct (ty_eqb o2 T_0), (ty_eqb i1 T_0); cbn; split; try discriminate; try tauto; intros [Q|Q]; try discriminate; try destruct Q. }
    rewrite M, C, (eqb_T_0' h W o2 Ho2), (eqb_T_0' h W i1 Hi1). split; split.
    - intros H v Hv Q. destruct (V2 v Hv) as [_ P]. specialize (H v Hv). rewrite P in H.
      assert (D : hmem h v sub_t \/ ~ hmem h v sub_t); [|tauto].
      clear -W Hv Hsub. assert (HA : htype h (Hier v)) by (left; exists v; split; [reflexivity|apply Hv]).
      destruct (sub_ok h [] W (Hier v) sub_t HA Hsub) as (r & _ & Hr). rewrite (hn_mem h v sub_t Hsub). destruct r.
      + left. apply (proj1 Hr eq_refl v). now left.
      + right. intros Q. assert (false = true); [|discriminate]. apply Hr. intros a [<-|[]]. exact Q.
    - intros H v Hv Q. apply (proj2 (V2 v Hv)) in Q as [Q1 Q2]. auto.
    - intros H v Hv Q Q'. apply (H v Hv). apply (V1 v Hv). auto.
    - intros H v Hv Q. apply (proj1 (V1 v Hv)) in Q as [Q1 Q2]. exact (H v Hv Q1 Q2). }
  destruct c; [| |contradiction]; (eexists; eexists; exists errs; split; [reflexivity|intros _; exact K]).
Qed.
Print Assumptions C26_unnecessary.

(* an assertion that a value is in the set adds an error exactly if the analysis can't confirm it *)
Theorem C26_assert_errors : forall h schemas fuel x expr_t env1 sub_t sup_t,
  built h -> (forall c, ~ par h c 2) -> htype h expr_t -> htype h sub_t -> htype h sup_t ->
  exists te fe errs, with_type_test h schemas (S fuel) x expr_t env1 is_a sub_t sup_t true = Ok ((te, fe), errs) /\
  (In FailsToConfirm errs <-> exists v, leaf h v /\ hmem h v expr_t /\ ~ hmem h v sup_t).
Proof.
  intros h sc fuel x expr_t env1 sub_t sup_t Hb HL Ht Hsub Hsup. pose proof (built_wf h Hb) as W. unfold with_type_test.
  destruct (ty_eqb expr_t T_0) eqn:E0.
  { exists None, None, []. split; [reflexivity|]. split; [intros []|]. intros (v & Hv & Q & _). exact (proj1 (eqb_T_0' h W expr_t Ht) E0 v Hv Q). }
  rewrite (not_TBD h sup_t Hsup), (not_TBD h sub_t Hsub), (not_TBD h expr_t Ht). cbn [negb assert_ bind andb].
  destruct (split_ok h W HL sc fuel expr_t sup_t (or_intror Ht) Hsup) as (i1 & o1 & -> & Hi1 & Ho1 & V1). cbn [bind].
  destruct (split_ok h W HL sc fuel expr_t sub_t (or_intror Ht) Hsub) as (i2 & o2 & -> & _ & Ho2 & V2). cbn [bind].
  eexists. eexists. eexists. split; [reflexivity|].
  assert (NT : forall v, allows h expr_t v <-> hmem h v expr_t).
  { intros v. unfold allows. split; [intros [->|Q]; [destruct Ht as [(a & ? & _)|(l & ? & _)]; discriminate|exact Q]|auto]. }
  transitivity (ty_eqb o1 T_0 = false).
  - destruct (ty_eqb i1 T_0), (ty_eqb o1 T_0); cbn; split; try discriminate; try tauto; intros [Q|Q]; try discriminate; try destruct Q; try discriminate.
  - rewrite (eqb_T_0'' h W o1 Ho1). split; intros (v & Hv & Q); exists v.
    + apply (proj2 (V1 v Hv)) in Q. rewrite NT in Q. tauto.
    + split; [exact Hv|]. apply (proj2 (V1 v Hv)). rewrite NT. exact Q.
Qed.
Print Assumptions C26_assert_errors.

(* an assertion that a value is not in the set fails with an exception when the analysis thinks it must be *)
Theorem C26_assert_not_raises : forall h schemas fuel x expr_t env1 sub_t sup_t,
  built h -> (forall c, ~ par h c 2) -> htype h expr_t -> htype h sub_t -> htype h sup_t -> (exists v, leaf h v /\ hmem h v expr_t) ->
  (with_type_test h schemas (S fuel) x expr_t env1 isnt_a sub_t sup_t true = Err AssertionError <-> forall v, leaf h v -> hmem h v expr_t -> hmem h v sub_t).
Proof.
  intros h sc fuel x expr_t env1 sub_t sup_t Hb HL Ht Hsub Hsup (v0 & Hv0 & Q0). pose proof (built_wf h Hb) as W. unfold with_type_test.
  destruct (ty_eqb expr_t T_0) eqn:E0; [exfalso; exact (proj1 (eqb_T_0' h W expr_t Ht) E0 v0 Hv0 Q0)|].
  rewrite (not_TBD h sup_t Hsup), (not_TBD h sub_t Hsub), (not_TBD h expr_t Ht). cbn [negb assert_ bind andb].
  destruct (split_ok h W HL sc fuel expr_t sup_t (or_intror Ht) Hsup) as (i1 & o1 & -> & Hi1 & Ho1 & V1). cbn [bind].
  destruct (split_ok h W HL sc fuel expr_t sub_t (or_intror Ht) Hsub) as (i2 & o2 & -> & _ & Ho2 & V2). cbn [bind].
  assert (NT : forall v, allows h expr_t v <-> hmem h v expr_t).
  { intros v. unfold allows. split; [intros [->|Q]; [destruct Ht as [(a & ? & _)|(l & ? & _)]; discriminate|exact Q]|auto]. }
  transitivity (ty_eqb o2 T_0 = true).
  - destruct (ty_eqb o2 T_0); cbn [negb assert_ bind]; split; congruence.
  - rewrite (eqb_T_0' h W o2 Ho2). split.
    + intros H v Hv Q. specialize (H v Hv). rewrite (proj2 (V2 v Hv)), NT in H.
      assert (D : hmem h v sub_t \/ ~ hmem h v sub_t); [|tauto].
      clear -W Hv Hsub. assert (HA : htype h (Hier v)) by (left; exists v; split; [reflexivity|apply Hv]).
      destruct (sub_ok h [] W (Hier v) sub_t HA Hsub) as (r & _ & Hr). rewrite (hn_mem h v sub_t Hsub). destruct r.
      * left. apply (proj1 Hr eq_refl v). now left.
      * right. intros Q. assert (false = true); [|discriminate]. apply Hr. intros a [<-|[]]. exact Q.
    + intros H v Hv Q. apply (proj2 (V2 v Hv)) in Q as [Q1 Q2]. rewrite NT in Q1. auto.
Qed.
Print Assumptions C26_assert_not_raises.

(* and otherwise reports exactly if the analysis thinks that it could be *)
Theorem C26_assert_not_errors : forall h schemas fuel x expr_t env1 sub_t sup_t te fe errs,
  built h -> (forall c, ~ par h c 2) -> htype h expr_t -> htype h sub_t -> htype h sup_t ->
  with_type_test h schemas (S fuel) x expr_t env1 isnt_a sub_t sup_t true = Ok ((te, fe), errs) ->
  (errs <> [] <-> exists v, leaf h v /\ hmem h v expr_t /\ hmem h v sub_t).
Proof.
  intros h sc fuel x expr_t env1 sub_t sup_t te fe errs Hb HL Ht Hsub Hsup E. pose proof (built_wf h Hb) as W. unfold with_type_test in E.
  destruct (ty_eqb expr_t T_0) eqn:E0.
  { injection E as <- <- <-. split; [intros Q; now destruct Q|]. intros (v & Hv & Q & _). destruct (proj1 (eqb_T_0' h W expr_t Ht) E0 v Hv Q). }
  rewrite (not_TBD h sup_t Hsup), (not_TBD h sub_t Hsub), (not_TBD h expr_t Ht) in E. cbn [negb assert_ bind andb] in E.
  destruct (split_ok h W HL sc fuel expr_t sup_t (or_intror Ht) Hsup) as (i1 & o1 & E1 & Hi1 & Ho1 & V1). rewrite E1 in E. cbn [bind] in E.
  destruct (split_ok h W HL sc fuel expr_t sub_t (or_intror Ht) Hsub) as (i2 & o2 & E2 & Hi2 & Ho2 & V2). rewrite E2 in E. cbn [bind] in E.
  destruct (ty_eqb o2 T_0); cbn [negb assert_ bind] in E; [discriminate|]. injection E as <- <- <-.
  assert (NT : forall v, allows h expr_t v <-> hmem h v expr_t).
  { intros v. unfold allows. split; [intros [->|Q]; [destruct Ht as [(a & ? & _)|(l & ? & _)]; discriminate|exact Q]|auto]. }
  transitivity (ty_eqb i2 T_0 = false); [destruct (ty_eqb i2 T_0); split; congruence|].
  rewrite (eqb_T_0'' h W i2 Hi2). split; intros (v & Hv & Q); exists v.
  - apply (proj1 (V2 v Hv)) in Q. rewrite NT in Q. tauto.
  - split; [exact Hv|]. apply (proj1 (V2 v Hv)). rewrite NT. exact Q.
Qed.
Print Assumptions C26_assert_not_errors.
Example C26_assert_not_ex : with_type_test exe_h [] 5 100 (Hier 1) exe_e2 isnt_a (Hier 6) (Hier 6) true
  = Ok ((Some (mkEnv 0 0 0 [(100, Hier 7)] None), Some (mkEnv 0 0 0 [(100, Hier 6)] None)), [CantConfirmNot]).
Proof. reflexivity. Qed.

(* narrowing to a type the value is known to have keeps the store conforming *)
Theorem C26_narrowed : forall h schemas x expr_t env1 t e s, with_expr_type_narrowed h schemas x expr_t env1 t = Ok e ->
  conforms h s env1 -> allows h t (s x) -> conforms h s e.
Proof.
  intros h sc x expr_t env1 t e s E HC HA. unfold with_expr_type_narrowed in E. destruct (is_a_subtype_of_or_equal_to h sc expr_t t) as [[]|]; [|cbn [bind] in E|discriminate].
  - injection E as <-. exact HC.
  - match type of E with (do _ <- ?k ;; _) = _ => destruct k as [u|]; [|discriminate] end. injection E as <-. now apply conforms_set.
Qed.
Print Assumptions C26_narrowed.

Example C26_ex : with_type_test exe_h [] 5 100 (Hier 1) exe_e2 isnt_a (Hier 6) (Hier 6) false
  = Ok ((Some (mkEnv 0 0 0 [(100, Hier 7)] None), Some (mkEnv 0 0 0 [(100, Hier 6)] None)), []) /\
  with_type_test exe_h [] 5 100 TBD exe_e2 is_a T_0 (Hier 1) false
  = Ok ((Some (mkEnv 0 0 0 [(100, Hier 1)] None), Some (mkEnv 0 0 0 [(100, Hier 0)] None)), []) /\
  with_type_test exe_h [] 5 100 (Hier 6) exe_e2 is_a (Hier 1) (Hier 1) false
  = Ok ((Some (mkEnv 0 0 0 [(100, Hier 6)] None), Some (mkEnv 0 0 0 [(100, T_0)] None)), [MustBe]) /\
  with_type_test exe_h [] 5 100 (Hier 6) exe_e2 isnt_a (Hier 1) (Hier 1) true = Err AssertionError.
Proof. repeat split; reflexivity. Qed.

(* ---- C41 ---- *)

(* what conforms to all environments conforms to their conjunction *)
Theorem C41_sound : forall h schemas fuel envs, built h -> (forall c, ~ par h c 2) -> In 14 (names h) -> envs <> [] -> (forall e, In e envs -> env_ok' h e) ->
  exists r, envs_and h schemas (S fuel) envs = Ok r /\ forall s, store_ok h s -> (forall e, In e envs -> conforms h s e) -> conforms h s r.
Proof.
  intros h sc fuel envs Hb HL HN Hne HE. destruct (envs_and_ok h (built_wf h Hb) HL HN sc fuel envs Hne HE) as (r & E & _ & K & V). exists r. split; [exact E|].
  intros s Hs HC x. destruct (nget (e_vars r) x) eqn:Ex.
  - apply (V x (s x) (Hs x)); [congruence|]. intros e He. now apply HC.
  - assert (T : type_in r x = Hier 14) by (unfold type_in; now rewrite Ex). rewrite T.
    assert (D : (exists e, In e envs /\ nget (e_vars e) x = None) \/ (forall e, In e envs -> nget (e_vars e) x <> None)).
    { clear. induction envs as [|e envs IH]; [right; intros e []|]. destruct (nget (e_vars e) x) eqn:Q; [|left; exists e; cbn; auto].
      destruct IH as [(e' & H & H')|H]; [left; exists e'; cbn; auto|right]. intros e' [<-|H']; [congruence|auto]. }
    destruct D as [(e & He & Q)|D]; [|apply K in D; congruence]. specialize (HC e He x). unfold type_in in HC. now rewrite Q in HC.
Qed.
Print Assumptions C41_sound.

(* it keeps the expressions that all of them have, with exactly the values that all of them allow *)
Theorem C41_exact : forall h schemas fuel envs r, built h -> (forall c, ~ par h c 2) -> In 14 (names h) -> envs <> [] -> (forall e, In e envs -> env_ok' h e) ->
  envs_and h schemas (S fuel) envs = Ok r ->
  (forall x, nget (e_vars r) x <> None <-> forall e, In e envs -> nget (e_vars e) x <> None) /\
  (forall x v, leaf h v -> nget (e_vars r) x <> None -> (allows h (type_in r x) v <-> forall e, In e envs -> allows h (type_in e x) v)).
Proof.
  intros h sc fuel envs r Hb HL HN Hne HE E. destruct (envs_and_ok h (built_wf h Hb) HL HN sc fuel envs Hne HE) as (r' & E' & _ & K & V). rewrite E in E'. injection E' as <-. auto.
Qed.
Print Assumptions C41_exact.

Example C41_ex : envs_and exe_h [] 5 [mkEnv 0 0 0 [(100, Hier 1); (101, TBD); (102, Hier 6)] None; mkEnv 0 0 0 [(101, Hier 7); (100, UnionT (map Hier [6; 14]))] None]
  = Ok (mkEnv 0 0 0 [(100, Hier 6); (101, Hier 7)] None).
Proof. reflexivity. Qed.
