(* The whole construction of DFA.py: invariants at the end, termination, runs (C14-C17). *)
From Verif Require Import M_Base L_Base M_DFA L_DFA.

Section Main.
  Variable tr : nat -> list (option nat * nat).
  Variable item0 : nat.

  Lemma main_loop_ok ifuel : forall fuel k a, Inv tr item0 k a ->
    main_loop tr fuel ifuel a = Err OutOfFuel \/
    exists a', main_loop tr fuel ifuel a = Ok a' /\ Inv tr item0 (length (states a')) a'.
  Proof.
    induction fuel as [|fuel IH]; intros k a I; cbn [main_loop]; [now left|].
    rewrite (i_open _ _ _ _ I). pose proof (i_k _ _ _ _ I) as Hk.
    destruct (length (states a) - k) as [|d] eqn:Ed; cbn [seq].
    - right. exists a. split; [reflexivity|]. replace (length (states a)) with k by lia. exact I.
    - destruct (nth_error (states a) k) as [st|] eqn:E; [|apply nth_error_None in E; lia].
      assert (Hd : length (states a) - S k = d) by lia.
      destruct (close_state_ok tr item0 ifuel k a st I E) as [H|(a' & H & I' & _)]; rewrite Hd in H; rewrite H; cbn [bind]; [now left|].
      eauto.
  Qed.

  Lemma Inv_start : Inv tr item0 0 (mkAut [mkState 0 [item0] [] None] [0]).
  Proof.
    constructor; cbn [states open_states]; cbn [length]; try lia; auto.
    - intros [|[|n]] st H; cbn in H; inversion H; reflexivity.
    - cbn. constructor; [intros []|constructor].
    - exists (mkState 0 [item0] [] None). auto.
    - intros [|[|n]] st H _; cbn in H; inversion H; reflexivity.
    - intros [|[|n]] st H Hn; cbn in H; inversion H; lia.
    - intros [|[|n]] [|[|m]] sn sm _ Hn Hm; cbn in Hn, Hm; inversion Hn; inversion Hm; cbn; lia.
    - intros sk Hsk st [<-|[]]. cbn. lia.
  Qed.

  Lemma build_ok fuel :
    build_automaton tr fuel item0 = Err OutOfFuel \/
    exists a, build_automaton tr fuel item0 = Ok a /\ Inv tr item0 (length (states a)) a.
  Proof. exact (main_loop_ok fuel fuel 0 _ Inv_start). Qed.

  Lemma build_inv fuel a : build_automaton tr fuel item0 = Ok a -> Inv tr item0 (length (states a)) a.
  Proof. intros H. destruct (build_ok fuel) as [E|(a' & E & I)]; congruence. Qed.

  Lemma build_only_fuel fuel e : build_automaton tr fuel item0 = Err e -> e = OutOfFuel.
  Proof. intros H. destruct (build_ok fuel) as [E|(a' & E & I)]; congruence. Qed.

  Lemma closed_state a n st : Inv tr item0 (length (states a)) a -> nth_error (states a) n = Some st ->
    exists c, clo st = Some c /\ closure_ok tr (states a) st c.
  Proof. intros I H. apply (i_closed _ _ _ _ I n st H). apply nth_error_Some. congruence. Qed.

  (* ---------------- termination ---------------- *)

  Lemma close_loop_total U K : (forall i s x, In i U -> In (s, x) (tr i) -> In x U) -> (forall k, In k K -> In k U) ->
    forall fuel proc its unp fin ti, CInv tr K proc its unp fin ti -> length U < fuel + length proc ->
    close_loop tr fuel its unp fin ti <> Err OutOfFuel.
  Proof.
    intros HU HK. assert (HP : forall i w j, path tr i w j -> In i U -> In j U).
    { induction 1; intros Hi; eauto. }
    induction fuel as [|fuel IH]; intros proc its unp fin ti I Hf.
    - exfalso. assert (length proc <= length U); [|lia]. apply NoDup_incl_length.
      + pose proof (ci_nd _ _ _ _ _ _ _ I) as H. rewrite (ci_split _ _ _ _ _ _ _ I) in H.
        clear -H. induction proc as [|x p IHp]; [constructor|]. cbn in H. inversion H; subst. constructor; [|auto].
        intros Hx. apply H2. apply in_or_app. now left.
      + intros i Hi. destruct (ci_sound _ _ _ _ _ _ _ I i) as (k & Hk & Hp).
        { rewrite (ci_split _ _ _ _ _ _ _ I). apply in_or_app. now left. }
        eauto.
    - cbn [close_loop]. destruct unp as [|item unp]; [discriminate|].
      destruct (scan_transitions (tr item) (its, unp) ti) as [[its' unp'] ti'] eqn:E.
      destruct I as [I1 I2 I3 I4 I5 I6 I7 I8].
      destruct (scan_ok tr _ _ _ _ _ _ _ E I2 I7) as (new & -> & -> & H1 & H2 & H3 & H4 & H5).
      apply (IH (proc ++ [item])).
      + constructor; auto.
        * rewrite I1, <- !app_assoc. reflexivity.
        * intros k Hk. apply in_or_app. left. auto.
        * intros i Hi. apply in_app_or in Hi as [Hi|Hi]; [auto|]. apply H3 in Hi.
          destruct (I4 item) as (k & Hk & Hp); [rewrite I1; apply in_or_app; right; now left|].
          exists k. split; [exact Hk|]. eapply path_eps_end; eauto.
        * intros i x Hi Hx. apply in_app_or in Hi as [Hi|[<-|[]]]; [apply in_or_app; left; eauto|auto].
        * rewrite filter_app. cbn. rewrite <- I6. destruct (tr item); [reflexivity|]. now rewrite app_nil_r.
        * intros s. rewrite H5, I8, flat_map_app. cbn. now rewrite app_nil_r.
      + rewrite app_length. cbn. lia.
  Qed.

  Fixpoint lists_upto (U : list nat) (M : nat) : list (list nat) :=
    match M with
    | O => [[]]
    | S M' => [] :: flat_map (fun l => map (fun x => x :: l) U) (lists_upto U M')
    end.
  Lemma lists_upto_In U : forall M l, length l <= M -> (forall x, In x l -> In x U) -> In l (lists_upto U M).
  Proof.
    induction M as [|M IH]; intros [|x l] Hl HU; cbn in *; try lia; auto.
    right. apply in_flat_map. exists l. split; [apply IH; [lia|auto]|]. apply in_map_iff. exists x. auto.
  Qed.
  Lemma sum_incl (f : nat -> nat) : forall l U, NoDup l -> incl l U -> list_sum (map f l) <= list_sum (map f U).
  Proof.
    induction l as [|x l IH]; intros U Hn Hi; [cbn; lia|]. inversion Hn; subst.
    assert (In x U) as Hx by (apply Hi; now left). apply in_split in Hx as (U1 & U2 & ->).
    assert (incl l (U1 ++ U2)) as Hi'.
    { intros y Hy. specialize (Hi y (or_intror Hy)). apply in_app_or in Hi as [H|[H|H]]; [apply in_or_app; auto|congruence|apply in_or_app; auto]. }
    specialize (IH _ H2 Hi'). rewrite map_app, list_sum_app in *. cbn [map].
    assert (Hc : forall y m, list_sum (y :: m) = y + list_sum m) by reflexivity. rewrite !Hc. lia.
  Qed.
  Lemma flat_targets_length s l : length (flat_map (targets tr s) l) <= list_sum (map (fun i => length (tr i)) l).
  Proof.
    induction l as [|i l IH]; [cbn; lia|]. cbn [flat_map map]. rewrite app_length. pose proof (tgt_length s (tr i)).
    assert (Hc : forall y m, list_sum (y :: m) = y + list_sum m) by reflexivity. rewrite Hc. unfold targets at 1. lia.
  Qed.

  (* every kernel is a short list of items of U *)
  Lemma kernels_bounded U : In item0 U -> (forall i s x, In i U -> In (s, x) (tr i) -> In x U) ->
    forall k a, Inv tr item0 k a -> length (states a) <= length (lists_upto U (S (list_sum (map (fun i => length (tr i)) U)))).
  Proof.
    intros H0 HU k a I. rewrite <- (map_length kernel). apply NoDup_incl_length; [apply (i_nd _ _ _ _ I)|].
    intros K HK. apply in_map_iff in HK as (st & <- & Hst). apply In_nth_error in Hst as [n Hn]. revert n st Hn.
    assert (HP : forall i w j, path tr i w j -> In i U -> In j U) by (induction 1; intros Hi; eauto).
    set (M := S _).
    assert (G : forall n st, nth_error (states a) n = Some st -> length (kernel st) <= M /\ forall x, In x (kernel st) -> In x U).
    { induction n as [n IH] using lt_wf_ind. intros st Hn. destruct n as [|n].
      - destruct (i_start _ _ _ _ I) as (st0 & A & B & _). rewrite Hn in A. inversion A; subst st0. rewrite B. unfold M. cbn. split; [lia|].
        intros x [<-|[]]. exact H0.
      - destruct (i_parent _ _ _ _ I (S n) st Hn) as (p & s & stp & A & B & _ & (st1 & c & A1 & A2 & A3)); [lia|].
        rewrite A in A1. inversion A1; subst st1.
        assert (p < k) as Hpk. { destruct (Nat.lt_ge_cases p k) as [|Hge]; [auto|]. rewrite (i_unclosed _ _ _ _ I p stp A Hge) in A2. discriminate. }
        destruct (i_closed _ _ _ _ I p stp A Hpk) as (c' & C1 & C2 & _ & _ & C3). rewrite A2 in C1. inversion C1; subst c'.
        destruct (C3 s (S n) A3) as (st' & D1 & D2 & _). rewrite Hn in D1. inversion D1; subst st'. rewrite D2.
        destruct (IH p B stp A) as [_ HKp].
        assert (HI : forall i, In i (items c) -> In i U).
        { intros i Hi. apply (ci_items _ _ _ _ C2) in Hi as (k0 & Hk0 & Hp). eauto. }
        split.
        + rewrite (Permutation_length (isort_perm _ _)). unfold M.
          pose proof (flat_targets_length s (items c)). pose proof (sum_incl (fun i => length (tr i)) (items c) U (ci_nodup _ _ _ _ C2) HI). lia.
        + intros x Hx. apply (Permutation_in _ (isort_perm _ _)) in Hx. apply in_flat_map in Hx as (i & Hi & Hx). apply tgt_In in Hx. eauto. }
    intros n st Hn. apply lists_upto_In; apply (G n st Hn).
  Qed.

  Lemma close_state_total U k a st fuel : In item0 U -> (forall i s x, In i U -> In (s, x) (tr i) -> In x U) ->
    (forall x, In x (kernel st) -> In x U) -> length U < fuel ->
    Inv tr item0 k a -> nth_error (states a) k = Some st ->
    close_state tr fuel (mkAut (states a) (seq (S k) (length (states a) - S k))) st <> Err OutOfFuel.
  Proof.
    intros H0 HU HK Hf I Hk. unfold close_state.
    destruct (fold_left include_item (kernel st) ([], [])) as [its unp] eqn:Ef.
    destruct (include_kernel tr _ _ _ _ _ Ef eq_refl (NoDup_nil _)) as (E1 & E2 & E3). subst unp.
    assert (CI : CInv tr (kernel st) [] its its [] []).
    { constructor; auto.
      - intros x Hx. apply E3. now right.
      - intros i Hi. apply E3 in Hi as [[]|Hi]. exists i. split; [exact Hi|constructor].
      - intros i x [].
      - split; constructor. }
    destruct (close_loop_inv tr (kernel st) fuel _ _ _ _ _ CI) as [Hof|(its' & fin & ti & Ec & CI')].
    { exfalso. eapply close_loop_total; eauto. cbn. lia. }
    rewrite Ec. cbn [bind].
    destruct (make_transitions_ok (eg_accessor st) (isort (fun p q => fst p <=? fst q) ti)
      (mkAut (states a) (seq (S k) (length (states a) - S k))) [] (i_num _ _ _ _ I) (i_nd _ _ _ _ I) (i_near _ _ _ _ I st Hk))
      as (a' & ts & new & Em & _).
    rewrite Em. discriminate.
  Qed.

  Lemma kernel_in_U U k a n st : In item0 U -> (forall i s x, In i U -> In (s, x) (tr i) -> In x U) ->
    Inv tr item0 k a -> nth_error (states a) n = Some st -> forall x, In x (kernel st) -> In x U.
  Proof.
    intros H0 HU I. assert (HP : forall i w j, path tr i w j -> In i U -> In j U) by (induction 1; intros Hi; eauto).
    revert st. induction n as [n IH] using lt_wf_ind. intros st Hn x Hx. destruct n as [|n].
    - destruct (i_start _ _ _ _ I) as (st0 & A & B & _). rewrite Hn in A. inversion A; subst st0. rewrite B in Hx. destruct Hx as [<-|[]]. exact H0.
    - destruct (i_parent _ _ _ _ I (S n) st Hn) as (p & s & stp & A & B & _ & (st1 & c & A1 & A2 & A3)); [lia|].
      rewrite A in A1. inversion A1; subst st1.
      assert (p < k) as Hpk. { destruct (Nat.lt_ge_cases p k) as [|Hge]; [auto|]. rewrite (i_unclosed _ _ _ _ I p stp A Hge) in A2. discriminate. }
      destruct (i_closed _ _ _ _ I p stp A Hpk) as (c' & C1 & C2 & _ & _ & C3). rewrite A2 in C1. inversion C1; subst c'.
      destruct (C3 s (S n) A3) as (st' & D1 & D2 & _). rewrite Hn in D1. inversion D1; subst st'. rewrite D2 in Hx.
      apply (Permutation_in _ (isort_perm _ _)) in Hx. apply in_flat_map in Hx as (i & Hi & Hx). apply tgt_In in Hx.
      apply (ci_items _ _ _ _ C2) in Hi as (k0 & Hk0 & Hp). eauto.
  Qed.

  Lemma main_loop_total U ifuel B : In item0 U -> (forall i s x, In i U -> In (s, x) (tr i) -> In x U) -> length U < ifuel ->
    (forall k a, Inv tr item0 k a -> length (states a) <= B) ->
    forall fuel k a, Inv tr item0 k a -> B < fuel + k -> main_loop tr fuel ifuel a <> Err OutOfFuel.
  Proof.
    intros H0 HU Hif HB. induction fuel as [|fuel IH]; intros k a I Hf; cbn [main_loop].
    - exfalso. pose proof (HB k a I). pose proof (i_k _ _ _ _ I). lia.
    - rewrite (i_open _ _ _ _ I). pose proof (i_k _ _ _ _ I) as Hk.
      destruct (length (states a) - k) as [|d] eqn:Ed; cbn [seq]; [discriminate|].
      destruct (nth_error (states a) k) as [st|] eqn:E; [|discriminate].
      assert (Hd : length (states a) - S k = d) by lia.
      pose proof (close_state_total U k a st ifuel H0 HU (kernel_in_U U k a k st H0 HU I E) Hif I E) as Hne.
      destruct (close_state_ok tr item0 ifuel k a st I E) as [H|(a' & H & I' & _)]; [congruence|].
      rewrite Hd in H. rewrite H. cbn [bind]. apply (IH (S k)); [exact I'|lia].
  Qed.

  Lemma build_terminates : finite_items tr item0 -> exists fuel a, build_automaton tr fuel item0 = Ok a.
  Proof.
    intros (U & H0 & HU). set (B := length (lists_upto U (S (list_sum (map (fun i => length (tr i)) U))))).
    exists (S (B + length U)). destruct (build_ok (S (B + length U))) as [H|(a & H & _)]; [|eauto].
    exfalso. revert H. assert (Hif : length U < S (B + length U)) by lia.
    apply (main_loop_total U (S (B + length U)) B H0 HU Hif (kernels_bounded U H0 HU) _ 0 _ Inv_start). lia.
  Qed.

  (* ---------------- runs ---------------- *)

  Lemma path_snoc x w s z : path tr x (w ++ [s]) z <-> exists y y', path tr x w y /\ In (Some s, y') (tr y) /\ path tr y' [] z.
  Proof.
    split.
    - intros H. remember (w ++ [s]) as v eqn:E. revert w E. induction H; intros v E.
      + destruct v; discriminate.
      + destruct (IHpath v E) as (a & b & A & B & C). exists a, b. split; [eapply path_eps; eauto|auto].
      + destruct v as [|t v].
        * inversion E; subst. exists x, y. split; [constructor|auto].
        * inversion E; subst. destruct (IHpath v eq_refl) as (a & b & A & B & C). exists a, b. split; [eapply path_sym; eauto|auto].
    - intros (y & y' & A & B & C). eapply path_app; [exact A|]. eapply path_sym; eauto.
  Qed.
  Lemma path_eps_split x w z : path tr x w z -> forall y, path tr y [] x -> path tr y w z.
  Proof. intros H y Hy. apply (path_app tr y [] x w z Hy H). Qed.

  Lemma arun_snoc sts n w s k : arun sts n (w ++ [s]) k <-> exists m, arun sts n w m /\ astep sts m s k /\ k < length sts.
  Proof.
    split.
    - revert n. induction w as [|t w IH]; intros n H; cbn in H; inversion H; subst.
      + inversion H5; subst. exists n. split; [|auto]. constructor. destruct H3 as (st & c & A & _). apply nth_error_Some. congruence.
      + destruct (IH _ H5) as (m' & A & B). exists m'. split; [econstructor; eauto|exact B].
    - intros (m & A & B & Hk). induction A; cbn; [econstructor; [exact B|now constructor]|]. econstructor; eauto.
  Qed.

  Lemma arun_end sts n w k : arun sts n w k -> k < length sts.
  Proof. induction 1; auto. Qed.

  Section Final.
    Variable a : automaton.
    Hypothesis I : Inv tr item0 (length (states a)) a.

    Lemma step_items n s m st st' c c' : astep (states a) n s m ->
      nth_error (states a) n = Some st -> clo st = Some c -> nth_error (states a) m = Some st' -> clo st' = Some c' ->
      forall i, In i (items c') <-> exists j y, In j (items c) /\ In (Some s, y) (tr j) /\ path tr y [] i.
    Proof.
      intros (s1 & c1 & A1 & A2 & A3) Hn Hc Hm Hc'. rewrite Hn in A1. inversion A1; subst s1. rewrite Hc in A2. inversion A2; subst c1.
      destruct (closed_state a n st I Hn) as (c2 & C1 & (C2 & _ & _ & C3)). rewrite Hc in C1. inversion C1; subst c2.
      destruct (closed_state a m st' I Hm) as (c3 & D1 & (D2 & _)). rewrite Hc' in D1. inversion D1; subst c3.
      destruct (C3 s m A3) as (st2 & E1 & E2 & _). rewrite Hm in E1. inversion E1; subst st2.
      intros i. rewrite (ci_items _ _ _ _ D2). rewrite E2. split.
      - intros (k & Hk & Hp). apply (Permutation_in _ (isort_perm _ _)) in Hk. apply in_flat_map in Hk as (j & Hj & Hk).
        apply tgt_In in Hk. eauto.
      - intros (j & y & Hj & Hy & Hp). exists y. split; [|exact Hp]. apply (Permutation_in _ (Permutation_sym (isort_perm _ _))).
        apply in_flat_map. exists j. split; [exact Hj|now apply tgt_In].
    Qed.

    Lemma run_items : forall w n st c, arun (states a) 0 w n -> nth_error (states a) n = Some st -> clo st = Some c ->
      forall i, In i (items c) <-> path tr item0 w i.
    Proof.
      induction w as [|s w IH] using rev_ind; intros n st c Hr Hn Hc i.
      - inversion Hr; subst. destruct (i_start _ _ _ _ I) as (st0 & A & B & _). rewrite Hn in A. inversion A; subst st0.
        destruct (closed_state a 0 st I Hn) as (c2 & C1 & (C2 & _)). rewrite Hc in C1. inversion C1; subst c2.
        rewrite (ci_items _ _ _ _ C2), B. split; [intros (k & [<-|[]] & Hp); exact Hp|]. intros Hp. exists item0. split; [now left|exact Hp].
      - apply arun_snoc in Hr as (m & Hr & Hs & _). pose proof Hs as (st1 & c1 & A1 & A2 & A3).
        rewrite (step_items m s n st1 st c1 c Hs A1 A2 Hn Hc). rewrite path_snoc. split.
        + intros (j & y & Hj & Hy & Hp). exists j, y. split; [|auto]. apply (IH m st1 c1 Hr A1 A2). exact Hj.
        + intros (j & y & Hj & Hy & Hp). exists j, y. split; [|auto]. apply (IH m st1 c1 Hr A1 A2). exact Hj.
    Qed.

    Lemma run_exists w : (exists n, arun (states a) 0 w n) <-> exists j, path tr item0 w j.
    Proof.
      split.
      - revert w. intros w. induction w as [|s w _] using rev_ind.
        + intros _. exists item0. constructor.
        + intros (n & Hr). apply arun_snoc in Hr as (m & Hr & (st1 & c1 & A1 & A2 & A3) & _).
          destruct (closed_state a m st1 I A1) as (c2 & C1 & (C2 & _ & C3 & _)). rewrite A2 in C1. inversion C1; subst c2.
          destruct (proj1 (C3 s)) as (i & x & Hi & Hx). { apply (in_map fst) in A3. exact A3. }
          exists x. apply path_snoc. exists i, x. split; [|split; [exact Hx|constructor]]. apply (run_items w m st1 c1 Hr A1 A2). exact Hi.
      - induction w as [|s w IH] using rev_ind.
        + intros _. exists 0. constructor. destruct (i_start _ _ _ _ I) as (st0 & A & _). apply nth_error_Some. congruence.
        + intros (j & Hp). apply path_snoc in Hp as (y & y' & Hy & Hs & _). destruct (IH (ex_intro _ y Hy)) as (m & Hr).
          pose proof (arun_end _ _ _ _ Hr) as Hm. destruct (nth_error (states a) m) as [st1|] eqn:E; [|apply nth_error_None in E; lia].
          destruct (closed_state a m st1 I E) as (c & C1 & (C2 & _ & C3 & C4)).
          assert (In s (map fst (transitions c))) as Hin.
          { apply C3. exists y, y'. split; [|exact Hs]. apply (run_items w m st1 c Hr E C1). exact Hy. }
          apply in_map_iff in Hin as ([s' k] & Es & Hk). cbn in Es. subst s'. exists k. apply arun_snoc. exists m. split; [exact Hr|].
          split; [exists st1, c; auto|]. destruct (C4 s k Hk) as (st' & D & _). apply nth_error_Some. congruence.
    Qed.

    Lemma step_det n s m m' : astep (states a) n s m -> astep (states a) n s m' -> m = m'.
    Proof.
      intros (st & c & A1 & A2 & A3) (st' & c' & B1 & B2 & B3). rewrite A1 in B1. inversion B1; subst st'. rewrite A2 in B2. inversion B2; subst c'.
      destruct (closed_state a n st I A1) as (c2 & C1 & (_ & C2 & _)). rewrite A2 in C1. inversion C1; subst c2.
      clear -A3 B3 C2. induction (transitions c) as [|[s' k] l IH]; [destruct A3|]. cbn in C2. inversion C2; subst.
      assert (Hno : forall z, ~ In (s', z) l).
      { intros z Hz. apply (in_map fst) in Hz. cbn in Hz. rewrite Forall_forall in H2. specialize (H2 _ Hz). lia. }
      destruct A3 as [E|A3], B3 as [E'|B3]; [congruence| | |auto].
      - inversion E; subst. exfalso. eapply Hno; eauto.
      - inversion E'; subst. exfalso. eapply Hno; eauto.
    Qed.

    Lemma accessor_run n st : nth_error (states a) n = Some st -> arun (states a) 0 (eg_accessor st) n.
    Proof.
      revert st. induction n as [n IH] using lt_wf_ind. intros st Hn. destruct n as [|n].
      - destruct (i_start _ _ _ _ I) as (st0 & A & _ & B). rewrite Hn in A. inversion A; subst st0. rewrite B. constructor. apply nth_error_Some. congruence.
      - destruct (i_parent _ _ _ _ I (S n) st Hn) as (p & s & stp & A & B & C & D); [lia|]. rewrite C. apply arun_snoc. exists p.
        split; [apply IH; auto|]. split; [exact D|]. apply nth_error_Some. congruence.
    Qed.
    Lemma run_length : forall w n m st st', arun (states a) n w m -> nth_error (states a) n = Some st -> nth_error (states a) m = Some st' ->
      length (eg_accessor st') <= length (eg_accessor st) + length w.
    Proof.
      intros w n m st st' Hr. revert st. induction Hr as [n Hn|n s m w k Hs Hr IH]; intros st E E'.
      - rewrite E in E'. inversion E'; subst. lia.
      - destruct Hs as (st1 & c & A1 & A2 & A3). rewrite E in A1. inversion A1; subst st1.
        destruct (closed_state a n st I E) as (c2 & C1 & (_ & _ & _ & C4)). rewrite A2 in C1. inversion C1; subst c2.
        destruct (C4 s m A3) as (stm & D1 & _ & D2). specialize (IH stm D1 E'). cbn. lia.
    Qed.
    Lemma accessor_shortest n st w : nth_error (states a) n = Some st -> arun (states a) 0 w n -> length (eg_accessor st) <= length w.
    Proof.
      intros Hn Hr. destruct (i_start _ _ _ _ I) as (st0 & A & _ & B). pose proof (run_length w 0 n st0 st Hr A Hn) as H. rewrite B in H. exact H.
    Qed.
  End Final.
End Main.
