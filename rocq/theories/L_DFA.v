(* Specification and lemmas for DFA.py (C14-C17). *)
From Verif Require Import M_Base L_Base M_DFA.

Lemma memb_In x l : memb x l = true <-> In x l.
Proof.
  unfold memb. rewrite existsb_exists. split.
  - intros (y & Hy & E). apply Nat.eqb_eq in E. now subst.
  - intros H. exists x. split; [exact H|apply Nat.eqb_refl].
Qed.
Lemma keqb_eq a : forall b, keqb a b = true <-> a = b.
Proof.
  induction a as [|x a IH]; intros [|y b]; cbn; split; intros H; try discriminate; auto.
  - apply andb_true_iff in H as [H1 H2]. apply Nat.eqb_eq in H1. apply IH in H2. now subst.
  - inversion H; subst. rewrite Nat.eqb_refl. now apply IH.
Qed.
Lemma NoDup_snoc {A} (l : list A) x : NoDup l -> ~ In x l -> NoDup (l ++ [x]).
Proof.
  intros H Hx. apply (Permutation_NoDup (l := x :: l)); [apply Permutation_cons_append|]. now constructor.
Qed.

(* ---------------- specification ---------------- *)

(* item paths; [w] is the string of symbols, epsilons skipped *)
Inductive path (tr : nat -> list (option nat * nat)) : nat -> list nat -> nat -> Prop :=
| path_nil x : path tr x [] x
| path_eps x y w z : In (None, y) (tr x) -> path tr y w z -> path tr x w z
| path_sym x s y w z : In (Some s, y) (tr x) -> path tr y w z -> path tr x (s :: w) z.

(* one step of the automaton: state number n has a transition on s to state number m *)
Definition astep (sts : list state) (n s m : nat) : Prop :=
  exists st c, nth_error sts n = Some st /\ clo st = Some c /\ In (s, m) (transitions c).
Inductive arun (sts : list state) : nat -> list nat -> nat -> Prop :=
| run_nil n : n < length sts -> arun sts n [] n
| run_cons n s m w k : astep sts n s m -> arun sts m w k -> arun sts n (s :: w) k.

(* finitely many items are reachable *)
Definition finite_items (tr : nat -> list (option nat * nat)) (item0 : nat) : Prop :=
  exists U, In item0 U /\ forall i s x, In i U -> In (s, x) (tr i) -> In x U.

Section DFA.
  Variable tr : nat -> list (option nat * nat).

  (* the items that transitions on s lead to *)
  Definition tgt (s : nat) (ts : list (option nat * nat)) : list nat :=
    flat_map (fun p => match fst p with Some s' => if s =? s' then [snd p] else [] | None => [] end) ts.
  Definition targets (s i : nat) : list nat := tgt s (tr i).
  Lemma tgt_In s x ts : In x (tgt s ts) <-> In (Some s, x) ts.
  Proof.
    unfold tgt. rewrite in_flat_map. split.
    - intros ([o y] & Hp & Hx). cbn in Hx. destruct o as [s'|]; [|destruct Hx].
      destruct (Nat.eqb_spec s s') as [<-|]; [|destruct Hx]. destruct Hx as [<-|[]]. exact Hp.
    - intros H. exists (Some s, x). split; [exact H|]. cbn. rewrite Nat.eqb_refl. now left.
  Qed.
  Lemma tgt_length s ts : length (tgt s ts) <= length ts.
  Proof.
    unfold tgt. induction ts as [|[[s'|] y] ts IH]; cbn; [lia| |lia]. rewrite app_length.
    destruct (s =? s'); cbn; lia.
  Qed.

  Record closure_items_ok (K : list nat) (its fin : list nat) : Prop := {
    ci_nodup : NoDup its;
    ci_items : forall i, In i its <-> exists k, In k K /\ path tr k [] i;
    ci_fnodup : NoDup fin;
    ci_final : forall i, In i fin <-> In i its /\ tr i = [] }.

  Definition closure_ok (sts : list state) (st : state) (c : closure) : Prop :=
    closure_items_ok (kernel st) (items c) (final_items c) /\
    StronglySorted lt (map fst (transitions c)) /\
    (forall s, In s (map fst (transitions c)) <-> exists i x, In i (items c) /\ In (Some s, x) (tr i)) /\
    (forall s m, In (s, m) (transitions c) -> exists st', nth_error sts m = Some st' /\
       kernel st' = isort Nat.leb (flat_map (targets s) (items c)) /\
       length (eg_accessor st') <= S (length (eg_accessor st))).

  (* ---------------- closing a state ---------------- *)

  Fixpoint look (s : nat) (ti : list (nat * list nat)) : list nat :=
    match ti with [] => [] | (s', l) :: ti' => if s =? s' then l else look s ti' end.
  Definition ti_wf (ti : list (nat * list nat)) := NoDup (map fst ti) /\ Forall (fun p => snd p <> []) ti.
  Lemma dd_look s x s' ti : look s' (dd_append s x ti) = look s' ti ++ (if s' =? s then [x] else []).
  Proof.
    induction ti as [|[k l] ti IH]; cbn.
    - destruct (s' =? s); reflexivity.
    - destruct (Nat.eqb_spec s k) as [<-|Hn]; cbn.
      + destruct (Nat.eqb_spec s' s) as [<-|]; [reflexivity|]. now rewrite app_nil_r.
      + rewrite IH. destruct (Nat.eqb_spec s' k) as [->|]; [|reflexivity].
        destruct (Nat.eqb_spec k s); [congruence|]. now rewrite app_nil_r.
  Qed.
  Lemma dd_keys s x ti k : In k (map fst (dd_append s x ti)) <-> k = s \/ In k (map fst ti).
  Proof.
    induction ti as [|[k' l] ti IH]; cbn; [intuition|].
    destruct (Nat.eqb_spec s k') as [<-|Hn]; cbn; [intuition|]. rewrite IH. intuition.
  Qed.
  Lemma dd_wf s x ti : ti_wf ti -> ti_wf (dd_append s x ti).
  Proof.
    intros [H1 H2]. split.
    - induction ti as [|[k l] ti IH]; cbn; [constructor; [intros []|constructor]|].
      cbn in H1. inversion H1; inversion H2; subst. destruct (Nat.eqb_spec s k) as [<-|Hn]; cbn; [constructor; auto|].
      constructor; [|auto]. rewrite dd_keys. intros [->|]; auto.
    - clear H1. induction ti as [|[k l] ti IH]; cbn; [repeat constructor; discriminate|].
      inversion H2; subst. destruct (s =? k); constructor; auto. cbn. intros E. apply app_eq_nil in E as [_ E]. discriminate.
  Qed.
  Lemma look_In ti s l : ti_wf ti -> (In (s, l) ti <-> look s ti = l /\ l <> []).
  Proof.
    intros [H1 H2]. induction ti as [|[k m] ti IH]; cbn.
    - split; [intros []|]. intros [<- H]. now apply H.
    - cbn in H1. inversion H1; inversion H2; subst. destruct (Nat.eqb_spec s k) as [->|Hn].
      + split.
        * intros [E|E]; [inversion E; subst; auto|]. exfalso. apply H3. apply (in_map fst) in E. exact E.
        * intros [-> _]. now left.
      + rewrite <- IH by assumption. split; [intros [E|E]; [congruence|exact E]|auto].
  Qed.

  Lemma scan_ok : forall ts its unp ti its' unp' ti',
    scan_transitions ts (its, unp) ti = ((its', unp'), ti') -> NoDup its -> ti_wf ti ->
    exists new, its' = its ++ new /\ unp' = unp ++ new /\ NoDup its' /\ ti_wf ti' /\
      (forall x, In x new -> In (None, x) ts) /\ (forall x, In (None, x) ts -> In x its') /\
      (forall s, look s ti' = look s ti ++ tgt s ts).
  Proof.
    induction ts as [|[[s|] y] ts IH]; intros its unp ti its' unp' ti' H Hn Hw; cbn [scan_transitions] in H.
    - inversion H; subst. exists []. rewrite !app_nil_r. do 6 (split; [solve [auto| intros x []]|]). intros s. cbn. now rewrite app_nil_r.
    - destruct (IH _ _ _ _ _ _ H Hn (dd_wf s y ti Hw)) as (new & E1 & E2 & H1 & H2 & H3 & H4 & H5).
      exists new. repeat (split; [solve [auto]|]). split; [intros x Hx; right; auto|].
      split; [intros x [E|Hx]; [discriminate|auto]|]. intros s'. rewrite H5, dd_look. cbn. fold (tgt s' ts).
      now rewrite app_assoc.
    - unfold include_item in H. destruct (memb y its) eqn:E.
      + apply memb_In in E. destruct (IH _ _ _ _ _ _ H Hn Hw) as (new & E1 & E2 & H1 & H2 & H3 & H4 & H5).
        exists new. repeat (split; [solve [auto]|]). split; [intros x Hx; right; auto|].
        split; [|exact H5]. intros x [Ex|Hx]; [|auto]. inversion Ex; subst. apply in_or_app. now left.
      + assert (~ In y its) as Hy by (intros Hy; apply memb_In in Hy; congruence).
        destruct (IH _ _ _ _ _ _ H (NoDup_snoc _ _ Hn Hy) Hw) as (new & E1 & E2 & H1 & H2 & H3 & H4 & H5).
        exists (y :: new). rewrite <- !app_assoc in *. cbn [app] in *. repeat (split; [solve [auto]|]).
        split; [intros x [<-|Hx]; [now left|right; auto]|]. split; [|exact H5].
        intros x [Ex|Hx]; [|auto]. inversion Ex; subst. apply in_or_app. right. now left.
  Qed.

  Lemma path_app x w y w' z : path tr x w y -> path tr y w' z -> path tr x (w ++ w') z.
  Proof. induction 1; intros Hp; cbn; [exact Hp|eapply path_eps; eauto|eapply path_sym; eauto]. Qed.
  Lemma path_eps_end x y z : path tr x [] y -> In (None, z) (tr y) -> path tr x [] z.
  Proof. intros H1 H2. apply (path_app x [] y [] z H1). eapply path_eps; [exact H2|constructor]. Qed.

  Record CInv (K proc its unp fin : list nat) (ti : list (nat * list nat)) : Prop := {
    ci_split : its = proc ++ unp;
    ci_nd : NoDup its;
    ci_kernel : forall k, In k K -> In k its;
    ci_sound : forall i, In i its -> exists k, In k K /\ path tr k [] i;
    ci_succ : forall i x, In i proc -> In (None, x) (tr i) -> In x its;
    ci_fin : fin = filter (fun i => match tr i with [] => true | _ => false end) proc;
    ci_wf : ti_wf ti;
    ci_look : forall s, look s ti = flat_map (targets s) proc }.

  Lemma close_loop_inv K : forall fuel proc its unp fin ti, CInv K proc its unp fin ti ->
    (close_loop tr fuel its unp fin ti = Err OutOfFuel) \/
    exists its' fin' ti', close_loop tr fuel its unp fin ti = Ok (its', fin', ti') /\ CInv K its' its' [] fin' ti'.
  Proof.
    induction fuel as [|fuel IH]; intros proc its unp fin ti I; cbn [close_loop]; [now left|].
    destruct unp as [|item unp].
    - right. exists its, fin, ti. split; [reflexivity|]. destruct I. rewrite app_nil_r in *. subst.
      constructor; auto. now rewrite app_nil_r.
    - destruct (scan_transitions (tr item) (its, unp) ti) as [[its' unp'] ti'] eqn:E.
      destruct I as [I1 I2 I3 I4 I5 I6 I7 I8].
      destruct (scan_ok _ _ _ _ _ _ _ E I2 I7) as (new & -> & -> & H1 & H2 & H3 & H4 & H5).
      apply (IH (proc ++ [item])). constructor; auto.
      + rewrite I1, <- !app_assoc. reflexivity.
      + intros k Hk. apply in_or_app. left. auto.
      + intros i Hi. apply in_app_or in Hi as [Hi|Hi]; [auto|]. apply H3 in Hi.
        destruct (I4 item) as (k & Hk & Hp); [rewrite I1; apply in_or_app; right; now left|].
        exists k. split; [exact Hk|]. eapply path_eps_end; eauto.
      + intros i x Hi Hx. apply in_app_or in Hi as [Hi|[<-|[]]]; [apply in_or_app; left; eauto|auto].
      + rewrite filter_app. cbn. rewrite <- I6. destruct (tr item); [reflexivity|]. now rewrite app_nil_r.
      + intros s. rewrite H5, I8, flat_map_app. cbn. now rewrite app_nil_r.
  Qed.

  Lemma include_kernel : forall K its unp its' unp',
    fold_left include_item K (its, unp) = (its', unp') -> its = unp -> NoDup its ->
    its' = unp' /\ NoDup its' /\ (forall x, In x its' <-> In x its \/ In x K).
  Proof.
    induction K as [|k K IH]; intros its unp its' unp' H E Hn; cbn [fold_left] in H.
    - inversion H; subst. repeat split; auto. intros [Hx|[]]; auto.
    - unfold include_item at 2 in H. destruct (memb k its) eqn:Em.
      + apply memb_In in Em. destruct (IH _ _ _ _ H E Hn) as (A & B & C). split; [exact A|]. split; [exact B|]. intros x. rewrite C. cbn. split; [intros [|]; auto|intros [|[<-|]]; auto].
      + assert (~ In k its) as Hk by (intros Hy; apply memb_In in Hy; congruence).
        assert (Es : its ++ [k] = unp ++ [k]) by congruence.
        destruct (IH _ _ _ _ H Es (NoDup_snoc _ _ Hn Hk)) as (A & B & C). split; [exact A|]. split; [exact B|]. intros x. rewrite C, in_app_iff. cbn. intuition.
  Qed.

  Lemma eps_closed its : (forall i x, In i its -> In (None, x) (tr i) -> In x its) ->
    forall i j w, path tr i w j -> w = [] -> In i its -> In j its.
  Proof. intros H i j w Hp. induction Hp; intros E Hi; auto; [|discriminate]. apply IHHp; eauto. Qed.

  Lemma CInv_final K its fin ti : CInv K its its [] fin ti -> closure_items_ok K its fin.
  Proof.
    intros [I1 I2 I3 I4 I5 I6 I7 I8]. constructor; auto.
    - intros i. split; [apply I4|]. intros (k & Hk & Hp). eapply eps_closed; eauto.
    - rewrite I6. now apply NoDup_filter.
    - intros i. rewrite I6, filter_In. destruct (tr i); split; intros [A B]; split; auto; discriminate.
  Qed.

  (* ---------------- adding states ---------------- *)

  Definition numbered (sts : list state) : Prop := forall n st, nth_error sts n = Some st -> number st = n.

  Lemma numbered_snoc sts k acc : numbered sts -> numbered (sts ++ [mkState (length sts) k acc None]).
  Proof.
    intros H n st Hn. destruct (Nat.lt_ge_cases n (length sts)).
    - rewrite nth_error_app1 in Hn by lia. auto.
    - rewrite nth_error_app2 in Hn by lia. destruct (n - length sts) as [|m] eqn:E; cbn in Hn; [|destruct m; discriminate].
      inversion Hn; subst. cbn. lia.
  Qed.
  Lemma nth_app_last {A} (l : list A) x : nth_error (l ++ [x]) (length l) = Some x.
  Proof. rewrite nth_error_app2, Nat.sub_diag by lia. reflexivity. Qed.
  Lemma nth_app_some {A} (l l' : list A) n x : nth_error l n = Some x -> nth_error (l ++ l') n = Some x.
  Proof. intros H. rewrite nth_error_app1; [exact H|]. apply nth_error_Some. congruence. Qed.

  Definition fits (L : nat) (sts : list state) : Prop := forall st, In st sts -> length (eg_accessor st) <= L.

  Lemma ensure_ok a k acc : numbered (states a) -> NoDup (map kernel (states a)) -> fits (length acc) (states a) ->
    exists a' n new st', ensure_state_for_kernel a k acc = Ok (a', n) /\
      states a' = states a ++ new /\ open_states a' = open_states a ++ seq (length (states a)) (length new) /\
      numbered (states a') /\ NoDup (map kernel (states a')) /\ fits (length acc) (states a') /\
      Forall (fun st => eg_accessor st = acc /\ clo st = None /\ number st = n) new /\
      nth_error (states a') n = Some st' /\ kernel st' = isort Nat.leb k.
  Proof.
    intros Hnum Hnd Hfit. unfold ensure_state_for_kernel.
    destruct (find (fun st => keqb (kernel st) (isort Nat.leb k)) (states a)) as [st|] eqn:E.
    - apply find_some in E as [Hin Hk]. apply keqb_eq in Hk.
      assert ((length (eg_accessor st) <=? length acc) = true) as -> by (apply Nat.leb_le; auto).
      cbn [assert_ bind]. exists a, (number st), [], st. cbn [length seq]. rewrite !app_nil_r.
      do 7 (split; [solve [auto]|]). split; [|exact Hk].
      apply In_nth_error in Hin as [n Hn]. rewrite (Hnum n st Hn). exact Hn.
    - eexists _, _, [_], _. split; [reflexivity|]. cbn [states open_states length seq].
      split; [reflexivity|]. split; [reflexivity|]. split; [now apply numbered_snoc|]. split.
      { rewrite map_app. apply NoDup_snoc; [exact Hnd|]. cbn. intros Hin. apply in_map_iff in Hin as (st & Ek & Hin).
        apply (find_none _ _ E) in Hin. cbn in Hin. assert (keqb (kernel st) (isort Nat.leb k) = true) by (now apply keqb_eq). congruence. }
      split. { intros st Hin. apply in_app_or in Hin as [Hin|[<-|[]]]; [auto|cbn; lia]. }
      split; [repeat constructor|]. split; [apply nth_app_last|reflexivity].
  Qed.

  Lemma make_transitions_ok acc : forall ti a done, numbered (states a) -> NoDup (map kernel (states a)) ->
    fits (S (length acc)) (states a) ->
    exists a' ts new, make_transitions a acc ti done = Ok (a', done ++ ts) /\
      states a' = states a ++ new /\ open_states a' = open_states a ++ seq (length (states a)) (length new) /\
      numbered (states a') /\ NoDup (map kernel (states a')) /\ fits (S (length acc)) (states a') /\
      (forall st, In st new -> clo st = None /\ exists s, eg_accessor st = acc ++ [s] /\ In (s, number st) ts) /\
      map fst ts = map fst ti /\
      (forall s n, In (s, n) ts -> exists l st', In (s, l) ti /\ nth_error (states a') n = Some st' /\ kernel st' = isort Nat.leb l).
  Proof.
    induction ti as [|[s l] ti IH]; intros a done Hnum Hnd Hfit; cbn [make_transitions].
    - exists a, [], []. cbn [length seq]. rewrite !app_nil_r. do 6 (split; [solve [auto]|]).
      split; [intros st []|]. split; [reflexivity|]. intros s n [].
    - assert (Hfit' : fits (length (acc ++ [s])) (states a)) by (rewrite app_length; cbn; now rewrite Nat.add_1_r).
      destruct (ensure_ok a l (acc ++ [s]) Hnum Hnd Hfit') as (a1 & n & new & st' & E & H1 & H2 & H3 & H4 & H5 & H6 & H7 & H8).
      rewrite E. cbn [bind]. rewrite app_length in H5. cbn in H5. rewrite Nat.add_1_r in H5.
      destruct (IH a1 (done ++ [(s, n)]) H3 H4 H5) as (a2 & ts & new2 & E2 & G1 & G2 & G3 & G4 & G5 & G6 & G7 & G8).
      exists a2, ((s, n) :: ts), (new ++ new2). rewrite E2. split; [now rewrite <- app_assoc|].
      split; [rewrite G1, H1, app_assoc; reflexivity|]. split.
      { rewrite G2, H2, H1, !app_length, seq_app, app_assoc. reflexivity. }
      repeat (split; [solve [auto]|]). split.
      { intros st Hin. apply in_app_or in Hin as [Hin|Hin].
        - rewrite Forall_forall in H6. destruct (H6 st Hin) as (A & B & C). split; [exact B|]. exists s. split; [exact A|]. left. now rewrite C.
        - destruct (G6 st Hin) as (A & s' & B & C). split; [exact A|]. exists s'. split; [exact B|]. now right. }
      split; [cbn; now rewrite G7|]. intros s' n' [Ein|Hin].
      + inversion Ein; subst s' n'. exists l, st'. split; [now left|]. split; [rewrite G1; now apply nth_app_some|exact H8].
      + destruct (G8 s' n' Hin) as (l' & st2 & A & B & C). exists l', st2. split; [now right|auto].
  Qed.

  Lemma set_clo_nth c : forall sts n m, nth_error (set_clo n c sts) m =
    match nth_error sts m with
    | Some st => Some (if n =? m then mkState (number st) (kernel st) (eg_accessor st) (Some c) else st)
    | None => None
    end.
  Proof.
    induction sts as [|st sts IH]; intros [|n] [|m]; cbn; auto.
    now destruct (nth_error sts m).
  Qed.
  Lemma set_clo_length c : forall sts n, length (set_clo n c sts) = length sts.
  Proof. induction sts as [|st sts IH]; intros [|n]; cbn; auto. Qed.
  Lemma set_clo_kernels c : forall sts n, map kernel (set_clo n c sts) = map kernel sts.
  Proof. induction sts as [|st sts IH]; intros [|n]; cbn; auto. now rewrite IH. Qed.

  (* ---------------- the main loop ---------------- *)

  Variable item0 : nat.

  Record Inv (k : nat) (a : automaton) : Prop := {
    i_k : k <= length (states a);
    i_open : open_states a = seq k (length (states a) - k);
    i_num : numbered (states a);
    i_nd : NoDup (map kernel (states a));
    i_start : exists st0, nth_error (states a) 0 = Some st0 /\ kernel st0 = [item0] /\ eg_accessor st0 = [];
    i_closed : forall n st, nth_error (states a) n = Some st -> n < k -> exists c, clo st = Some c /\ closure_ok (states a) st c;
    i_unclosed : forall n st, nth_error (states a) n = Some st -> k <= n -> clo st = None;
    i_parent : forall n st, nth_error (states a) n = Some st -> 0 < n ->
      exists p s stp, nth_error (states a) p = Some stp /\ p < n /\ eg_accessor st = eg_accessor stp ++ [s] /\ astep (states a) p s n;
    i_mono : forall n m sn sm, n <= m -> nth_error (states a) n = Some sn -> nth_error (states a) m = Some sm ->
      length (eg_accessor sn) <= length (eg_accessor sm);
    i_near : forall sk, nth_error (states a) k = Some sk -> fits (S (length (eg_accessor sk))) (states a) }.

  Lemma sort_keys_sorted (ti : list (nat * list nat)) : NoDup (map fst ti) ->
    StronglySorted lt (map fst (isort (fun p q => fst p <=? fst q) ti)).
  Proof.
    intros Hnd. set (l := isort _ ti).
    assert (HS : StronglySorted (fun p q : nat * list nat => (fst p <=? fst q) = true) l).
    { apply isort_sorted.
      - intros x y. destruct (Nat.leb_spec (fst x) (fst y)); [now left|right; apply Nat.leb_le; lia].
      - intros x y z Hx Hy. apply Nat.leb_le in Hx, Hy. apply Nat.leb_le. lia. }
    assert (Hnd' : NoDup (map fst l)) by (apply (Permutation_NoDup (Permutation_sym (Permutation_map fst (isort_perm _ ti))) Hnd)).
    clear Hnd. induction HS as [|p l' HS IH HF]; cbn; constructor.
    - inversion Hnd'; auto.
    - inversion Hnd'; subst. apply Forall_forall. intros s Hs. rewrite Forall_forall in HF.
      apply in_map_iff in Hs as (q & <- & Hq). specialize (HF q Hq). apply Nat.leb_le in HF.
      assert (fst p <> fst q) by (intros E; apply H1; rewrite E; now apply in_map). lia.
  Qed.

  Lemma closure_ok_ext sts sts' st st' c : kernel st' = kernel st -> eg_accessor st' = eg_accessor st ->
    (forall n s, nth_error sts n = Some s -> exists s', nth_error sts' n = Some s' /\ kernel s' = kernel s /\ eg_accessor s' = eg_accessor s) ->
    closure_ok sts st c -> closure_ok sts' st' c.
  Proof.
    intros Ek Ea Hx (H1 & H2 & H3 & H4). split; [now rewrite Ek|]. split; [exact H2|]. split; [exact H3|].
    intros s m Hm. destruct (H4 s m Hm) as (s1 & A & B & C). destruct (Hx m s1 A) as (s' & A' & B' & C').
    exists s'. split; [exact A'|]. rewrite B', C', Ea. auto.
  Qed.

  Lemma close_state_ok fuel k a st : Inv k a -> nth_error (states a) k = Some st ->
    close_state tr fuel (mkAut (states a) (seq (S k) (length (states a) - S k))) st = Err OutOfFuel \/
    exists a', close_state tr fuel (mkAut (states a) (seq (S k) (length (states a) - S k))) st = Ok a' /\ Inv (S k) a' /\
      length (states a) <= length (states a').
  Proof.
    intros I Hk. unfold close_state.
    destruct (fold_left include_item (kernel st) ([], [])) as [its unp] eqn:Ef.
    destruct (include_kernel _ _ _ _ _ Ef eq_refl (NoDup_nil _)) as (E1 & E2 & E3). subst unp.
    assert (CI : CInv (kernel st) [] its its [] []).
    { constructor; auto.
      - intros x Hx. apply E3. now right.
      - intros i Hi. apply E3 in Hi as [[]|Hi]. exists i. split; [exact Hi|constructor].
      - intros i x [].
      - split; constructor. }
    destruct (close_loop_inv (kernel st) fuel _ _ _ _ _ CI) as [Hof|(its' & fin & ti & Ec & CI')]; [left; now rewrite Hof|].
    right. rewrite Ec. cbn [bind].
    destruct I as [I1 I2 I3 I4 I5 I6 I7 I8 I9 I10].
    destruct (make_transitions_ok (eg_accessor st) (isort (fun p q => fst p <=? fst q) ti)
      (mkAut (states a) (seq (S k) (length (states a) - S k))) [] I3 I4 (I10 st Hk))
      as (a' & ts & new & Em & H1 & H2 & H3 & H4 & H5 & H6 & H7 & H8).
    rewrite Em. cbn [bind app] in *. cbn [states open_states] in *.
    rewrite (I3 k st Hk).
    assert (Hklt : k < length (states a)) by (apply nth_error_Some; congruence).
    set (c := mkClo its' fin ti ts). set (sts' := set_clo k c (states a')).
    eexists. split; [reflexivity|]. cbn [states open_states]. fold sts'.
    assert (Hlen : length sts' = length (states a')) by apply set_clo_length.
    assert (Hlen' : length (states a') = length (states a) + length new) by (rewrite H1, app_length; reflexivity).
    assert (Hnth : forall n s', nth_error sts' n = Some s' ->
      (n < length (states a) /\ exists s, nth_error (states a) n = Some s /\
         s' = if k =? n then mkState (number s) (kernel s) (eg_accessor s) (Some c) else s) \/
      (length (states a) <= n /\ In s' new /\ nth_error (states a') n = Some s')).
    { intros n s' Hn. unfold sts' in Hn. rewrite set_clo_nth in Hn. destruct (nth_error (states a') n) as [s|] eqn:En; [|discriminate].
      inversion Hn; subst s'. destruct (Nat.lt_ge_cases n (length (states a))) as [Hlt|Hge].
      - left. split; [exact Hlt|]. exists s. split; [|reflexivity]. rewrite H1, nth_error_app1 in En by lia. exact En.
      - right. destruct (Nat.eqb_spec k n); [lia|]. split; [exact Hge|]. split; [|reflexivity]. rewrite H1, nth_error_app2 in En by lia.
        eapply nth_error_In; eauto. }
    assert (Hfwd : forall n s, nth_error (states a') n = Some s -> exists s', nth_error sts' n = Some s' /\
        number s' = number s /\ kernel s' = kernel s /\ eg_accessor s' = eg_accessor s /\ (n <> k -> s' = s)).
    { intros n s Hn. unfold sts'. rewrite set_clo_nth, Hn. eexists. split; [reflexivity|]. destruct (Nat.eqb_spec k n); cbn; repeat split; auto. congruence. }
    assert (Hfwd0 : forall n s, nth_error (states a) n = Some s -> exists s', nth_error sts' n = Some s' /\ kernel s' = kernel s /\ eg_accessor s' = eg_accessor s).
    { intros n s Hn. destruct (Hfwd n s) as (s' & A & _ & B & C & _); [rewrite H1; now apply nth_app_some|]. eauto. }
    assert (Hstep : forall p s n, astep (states a) p s n -> astep sts' p s n).
    { intros p s n (sp & cp & A & B & C). assert (p <> k) as Hp.
      { intros ->. rewrite (I7 k sp A (le_n k)) in B. discriminate. }
      destruct (Hfwd p sp) as (s' & A' & _ & _ & _ & D); [rewrite H1; now apply nth_app_some|]. rewrite (D Hp) in A'. exists sp, cp. auto. }
    split; [|rewrite Hlen; lia]. constructor; cbn [states open_states].
    - rewrite Hlen. lia.
    - rewrite H2, Hlen, Hlen'. replace (length (states a) + length new - S k) with ((length (states a) - S k) + length new) by lia.
      rewrite seq_app. f_equal. f_equal. lia.
    - intros n s' Hn. destruct (Hnth n s' Hn) as [(Hlt & s & A & ->)|(Hge & A & B)].
      + specialize (I3 n s A). destruct (k =? n); cbn; exact I3.
      + apply H3. exact B.
    - unfold sts'. rewrite set_clo_kernels. exact H4.
    - destruct I5 as (st0 & A & B & C). destruct (Hfwd0 0 st0 A) as (s' & A' & B' & C'). exists s'. rewrite B', C'. auto.
    - intros n s' Hn Hnk. destruct (Hnth n s' Hn) as [(Hlt & s & A & ->)|(Hge & A & B)]; [|lia].
      destruct (Nat.eqb_spec k n) as [<-|Hne].
      + exists c. split; [reflexivity|]. rewrite Hk in A. inversion A; subst s.
        assert (Hci := CInv_final _ _ _ _ CI'). split; [exact Hci|]. destruct CI' as [_ _ _ _ _ _ W L].
        assert (Hkeys : forall s, In s (map fst ts) <-> In s (map fst ti)).
        { intros s. rewrite H7. 
          pose proof (Permutation_map fst (isort_perm (fun p q : nat * list nat => fst p <=? fst q) ti)) as HP.
          split; apply Permutation_in; [exact HP|now symmetry]. }
        split; [cbn [transitions c]; rewrite H7; apply sort_keys_sorted, W|]. split.
        * cbn [transitions items c]. intros s. rewrite Hkeys. split.
          -- intros Hs. apply in_map_iff in Hs as ([s1 l] & <- & Hl). cbn. apply (look_In ti s1 l W) in Hl as [Hl Hne].
             rewrite L in Hl. destruct l as [|x l]; [congruence|]. assert (In x (flat_map (targets s1) its')) as Hx by (rewrite Hl; now left).
             apply in_flat_map in Hx as (i & Hi & Hx). apply tgt_In in Hx. eauto.
          -- intros (i & x & Hi & Hx). assert (In x (look s ti)) as Hl by (rewrite L; apply in_flat_map; exists i; split; [exact Hi|now apply tgt_In]).
             assert (In (s, look s ti) ti) as Hin by (apply look_In; [exact W|]; split; [reflexivity|]; intros E; rewrite E in Hl; destruct Hl).
             apply (in_map fst) in Hin. exact Hin.
        * cbn [transitions items c eg_accessor]. intros s m Hm. destruct (H8 s m Hm) as (l & s1 & A1 & A2 & A3).
          destruct (Hfwd m s1 A2) as (s2 & B1 & _ & B2 & B3 & _). exists s2. split; [exact B1|].
          assert (In (s, l) ti) as A1' by (eapply Permutation_in; [apply isort_perm|exact A1]).
          apply (look_In ti s l W) in A1' as [A1' _]. rewrite L in A1'. rewrite B2, B3, A3, A1'. split; [reflexivity|].
          apply H5. eapply nth_error_In; eauto.
      + destruct (I6 n s A) as (cl & C1 & C2); [lia|]. exists cl. split; [exact C1|].
        eapply closure_ok_ext; [| | |exact C2]; auto.
    - intros n s' Hn Hnk. destruct (Hnth n s' Hn) as [(Hlt & s & A & ->)|(Hge & A & B)].
      + destruct (Nat.eqb_spec k n); [lia|]. apply (I7 n s A). lia.
      + apply H6. exact A.
    - intros n s' Hn Hpos. destruct (Hnth n s' Hn) as [(Hlt & s & A & ->)|(Hge & A & B)].
      + destruct (I8 n s A Hpos) as (p & sy & stp & B1 & B2 & B3 & B4). destruct (Hfwd0 p stp B1) as (sp' & C1 & C2 & C3).
        exists p, sy, sp'. split; [exact C1|]. split; [exact B2|]. split; [|auto]. rewrite C3, <- B3. destruct (k =? n); reflexivity.
      + destruct (H6 s' A) as (_ & sy & B1 & B2). destruct (Hfwd0 k st Hk) as (sk & C1 & C2 & C3).
        exists k, sy, sk. split; [exact C1|]. split; [lia|]. split; [now rewrite C3|].
        rewrite (H3 n s' B) in B2. exists (mkState (number st) (kernel st) (eg_accessor st) (Some c)), c. repeat split; auto.
        unfold sts'. rewrite set_clo_nth, Nat.eqb_refl, H1, (nth_app_some _ _ _ _ Hk). reflexivity.
    - intros n m sn sm Hnm Hn Hm. destruct (Hnth m sm Hm) as [(Hlt & s & A & ->)|(Hge & A & B)].
      + destruct (Hnth n sn Hn) as [(Hlt' & s' & A' & ->)|(Hge' & _)]; [|lia].
        specialize (I9 n m s' s Hnm A' A). destruct (k =? n), (k =? m); exact I9.
      + destruct (H6 sm A) as (_ & sy & B1 & B2). rewrite B1, app_length. cbn. rewrite Nat.add_1_r.
        destruct (Hnth n sn Hn) as [(Hlt' & s' & A' & ->)|(Hge' & A' & B')].
        * assert (length (eg_accessor s') <= S (length (eg_accessor st))) by (apply (I10 st Hk); eapply nth_error_In; eauto).
          destruct (k =? n); exact H.
        * apply H5. eapply nth_error_In; eauto.
    - intros sk Hsk s Hs. apply In_nth_error in Hs as [n Hn].
      assert (length (eg_accessor s) <= S (length (eg_accessor st))) as Hle.
      { destruct (Hnth n s Hn) as [(Hlt & s' & A & ->)|(Hge & A & B)].
        - assert (length (eg_accessor s') <= S (length (eg_accessor st))) by (apply (I10 st Hk); eapply nth_error_In; eauto).
          destruct (k =? n); exact H.
        - apply H5. eapply nth_error_In; eauto. }
      assert (length (eg_accessor st) <= length (eg_accessor sk)); [|lia].
      destruct (Hnth (S k) sk Hsk) as [(Hlt & s' & A & ->)|(Hge & A & B)].
      + assert (length (eg_accessor st) <= length (eg_accessor s')) by (apply (I9 k (S k) st s'); auto).
        destruct (k =? S k); exact H.
      + destruct (H6 sk A) as (_ & sy & B1 & B2). rewrite B1, app_length. cbn. lia.
  Qed.
End DFA.
