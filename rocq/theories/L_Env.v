(* Environments of the static type analysis: specification and lemmas. *)
From Verif Require Import M_Base L_Base M_Dict L_Dict M_Types L_Hier L_Types L_TypesUnion M_Env.
From Coq Require Import Permutation.

(* ---------------- specification ---------------- *)

(* the type an environment gives to an expression; 14 is not_set *)
Definition type_in (e : env) (x : nat) : ty := match nget (e_vars e) x with Some t => t | None => Hier 14 end.
(* the unknown type allows every value *)
Definition allows (h : hier) (t : ty) (v : nat) : Prop := t = TBD \/ hmem h v t.
(* a store gives a value to every expression; an unset variable has the value not_set *)
Definition store_ok (h : hier) (s : nat -> nat) : Prop := forall x, leaf h (s x).
Definition conforms (h : hier) (s : nat -> nat) (e : env) : Prop := forall x, allows h (type_in e x) (s x).
(* all types of the environment are hierarchy types or unions of them *)
Definition env_ok (h : hier) (e : env) : Prop := forall x t, nget (e_vars e) x = Some t -> htype h t.
(* the same, or unknown *)
Definition env_ok' (h : hier) (e : env) : Prop := forall x t, nget (e_vars e) x = Some t -> t = TBD \/ htype h t.
(* environments of the same algorithm *)
Definition compatible (e e' : env) : Prop := e_outer e = e_outer e' /\ e_species e = e_species e' /\ e_parret e = e_parret e'.
Definition reachable (envs : list (option env)) (e : env) : Prop := In (Some e) envs.

(* ---------------- lemmas ---------------- *)

Section EnvL.
  Variable h : hier.
  Hypothesis W : wf h.
  Hypothesis LL : forall c, ~ par h c 2.
  Hypothesis NS : In 14 (names h).
  Variable sc : list (nat * option nat).
  Variable f : nat.
  Variable sorted : list nat -> list nat.
  Hypothesis sorted_perm : forall l, Permutation (sorted l) l.

  Lemma type_in_ok e x : env_ok h e -> htype h (type_in e x).
  Proof. intros H. unfold type_in. destruct (nget (e_vars e) x) eqn:E; [now apply (H x)|]. left. exists 14. auto. Qed.

  Lemma fold_nadd_in l : forall s x, In x (fold_left (fun s x => nadd x s) l s) <-> In x s \/ In x l.
  Proof. induction l as [|a l IH]; intros s x; cbn; [tauto|]. rewrite IH, nadd_in. split; intuition auto. Qed.
  Lemma all_vars_in envs x : In x (all_vars envs) <-> exists e, In e envs /\ In x (map fst (e_vars e)).
  Proof.
    unfold all_vars. enough (E : forall s, In x (fold_left (fun s e => fold_left (fun s x => nadd x s) (map fst (e_vars e)) s) envs s) <-> In x s \/ exists e, In e envs /\ In x (map fst (e_vars e))).
    { rewrite E. cbn. tauto. }
    induction envs as [|e envs IH]; intros s; cbn; [split; [auto|intros [H|(e & [] & _)]; exact H]|]. rewrite IH, fold_nadd_in. split.
    - intros [[H|H]|(e' & H & H')]; [auto|right; exists e; auto|right; exists e'; auto].
    - intros [H|(e' & [<-|H] & H')]; eauto.
  Qed.

  Notation column envs x := (map (fun e => match nget (e_vars e) x with Some t => t | None => Hier T_not_set end) envs).

  Lemma column_eq envs x : column envs x = map (fun e => type_in e x) envs.
  Proof. reflexivity. Qed.

  Lemma or_vars_ok envs : (forall e, In e envs -> env_ok h e) -> forall xs acc, exists vs, or_vars h (S f) envs xs acc = Ok vs /\
    forall x, (In x xs -> exists t, union_of_types h (S f) (column envs x) = Ok t /\ nget vs x = Some t) /\ (~ In x xs -> nget vs x = nget acc x).
  Proof.
    intros HE. induction xs as [|y xs IH]; intros acc; cbn [or_vars].
    - exists acc. split; [reflexivity|]. intros x. split; [intros []|auto].
    - destruct (union_ok h W LL f (column envs y)) as (t & E & Ht & _).
      { intros t Ht. rewrite column_eq in Ht. apply in_map_iff in Ht as (e & <- & He). apply type_in_ok. auto. }
      rewrite E. cbn [bind]. destruct (IH (nset acc y t)) as (vs & -> & HV). exists vs. split; [reflexivity|]. intros x. destruct (HV x) as [V1 V2].
      destruct (in_dec Nat.eq_dec x xs) as [Hx|Hx]; [split; [intros _; auto|intros Q; destruct Q; now right]|]. specialize (V2 Hx). split.
      + intros [<-|Q]; [|contradiction]. exists t. split; [exact E|]. rewrite V2. apply nget_nset_same.
      + intros Q. rewrite V2. apply nget_nset_other. intros ->. apply Q. now left.
  Qed.

  Lemma flat_some (envs : list (option env)) e : In e (flat_map (fun o => match o with Some e => [e] | None => [] end) envs) <-> In (Some e) envs.
  Proof.
    rewrite in_flat_map. split; [|intros H; exists (Some e); cbn; auto]. intros ([e'|] & H & H'); cbn in H'; [destruct H' as [<-|[]]; exact H|destruct H'].
  Qed.

  Lemma outer_eqb_eq a b : outer_eqb a b = true <-> a = b.
  Proof. destruct a, b; cbn; try (split; [discriminate|intros H; inversion H]); [|tauto]. rewrite Nat.eqb_eq. split; [intros ->; reflexivity|now intros [= ->]]. Qed.

  Lemma map_r_assert {A} (p : A -> bool) l : (forall x, In x l -> p x = true) -> exists r, map_r (fun x => assert_ (p x)) l = Ok r.
  Proof.
    induction l as [|x l IH]; intros H; cbn [map_r]; [eauto|]. rewrite (H x) by now left. cbn [assert_ bind]. destruct IH as (r & ->); [intros; apply H; now right|]. cbn. eauto.
  Qed.
  Lemma map_r_assert_inv {A} (p : A -> bool) l r : map_r (fun x => assert_ (p x)) l = Ok r -> forall x, In x l -> p x = true.
  Proof.
    revert r. induction l as [|y l IH]; intros r H x []; cbn [map_r] in H.
    - subst y. destruct (p x); [reflexivity|discriminate].
    - destruct (p y); [|discriminate]. cbn [assert_ bind] in H. destruct (map_r _ l) eqn:E; [|discriminate]. eauto.
  Qed.

  Lemma envs_or_ok envs : (forall e, reachable envs e -> env_ok h e) -> (forall e e', reachable envs e -> reachable envs e' -> compatible e e') ->
    exists r, envs_or h (S f) sorted envs = Ok r /\
      match r with
      | None => forall e, ~ reachable envs e
      | Some e => (exists e0, reachable envs e0 /\ compatible e e0) /\
                  (forall x, nget (e_vars e) x <> None <-> exists e', reachable envs e' /\ nget (e_vars e') x <> None) /\
                  env_ok h e /\ forall x v, leaf h v -> (hmem h v (type_in e x) <-> exists e', reachable envs e' /\ hmem h v (type_in e' x))
      end.
  Proof.
    intros HE HC. unfold envs_or. assert (FS := flat_some envs). unfold reachable in *. revert FS. generalize (flat_map (fun o => match o with Some e => [e] | None => [] end) envs).
    intros l FS. destruct l as [|e0 [|e1 l]].
    - exists None. split; [reflexivity|]. intros e He. now apply FS in He.
    - exists (Some e0). split; [reflexivity|]. assert (H0 : In (Some e0) envs) by (apply FS; now left). split; [exists e0; split; [exact H0|repeat split]|].
      assert (U : forall e', In (Some e') envs -> e' = e0) by (intros e' H; apply FS in H as [<-|[]]; reflexivity).
      split; [|split; [auto|]].
      + intros x. split; [intros H; exists e0; auto|]. intros (e' & H & H'). now rewrite (U e' H) in H'.
      + intros x v Hv. split; [intros H; exists e0; auto|]. intros (e' & H & H'). now rewrite (U e' H) in H'.
    - set (es := e0 :: e1 :: l) in *.
      destruct (map_r_assert (fun e => outer_eqb (e_outer e) (e_outer e0) && (e_species e =? e_species e0) && (e_parret e =? e_parret e0)) es) as (r & ->).
      { intros e He. destruct (HC e e0) as (A & B & C); [now apply FS|apply FS; now left|]. rewrite A, B, C, !Nat.eqb_refl. rewrite (proj2 (outer_eqb_eq _ _) eq_refl). reflexivity. }
      cbn [bind]. assert (HE' : forall e, In e es -> env_ok h e) by (intros e He; apply HE; now apply FS).
      destruct (or_vars_ok es HE' (sorted (all_vars es)) []) as (vs & -> & HV). cbn [bind]. exists (Some (with_vars e0 vs)). split; [reflexivity|].
      assert (IS : forall x, In x (sorted (all_vars es)) <-> exists e, In (Some e) envs /\ In x (map fst (e_vars e))).
      { intros x. assert (Q : In x (sorted (all_vars es)) <-> In x (all_vars es)) by (split; apply Permutation_in; [|symmetry]; apply sorted_perm).
        rewrite Q, all_vars_in. split; intros (e & H & H'); exists e; (split; [now apply FS|exact H']). }
      assert (HT : forall x t, In t (column es x) -> htype h t).
      { intros x t Ht. rewrite column_eq in Ht. apply in_map_iff in Ht as (e & <- & He). apply type_in_ok. auto. }
      split; [exists e0; split; [apply FS; now left|repeat split]|]. split; [|split].
      + intros x. cbn [e_vars with_vars]. destruct (HV x) as [V1 V2]. destruct (in_dec Nat.eq_dec x (sorted (all_vars es))) as [Hx|Hx].
        * destruct (V1 Hx) as (t & _ & ->). split; [|discriminate]. intros _. apply IS in Hx as (e & H & H'). exists e. split; [exact H|]. now apply nget_keys.
        * rewrite (V2 Hx). cbn. split; [intros H; now destruct H|]. intros (e & H & H'). destruct Hx. apply IS. exists e. split; [exact H|]. now apply nget_keys.
      + intros x t E. cbn [e_vars with_vars] in E. destruct (HV x) as [V1 V2]. destruct (in_dec Nat.eq_dec x (sorted (all_vars es))) as [Hx|Hx].
        * destruct (V1 Hx) as (t' & Eu & E'). rewrite E in E'. injection E' as <-. destruct (union_ok h W LL f (column es x) (HT x)) as (r' & E' & Hr & _). congruence.
        * rewrite (V2 Hx) in E. discriminate.
      + intros x v Hv. unfold type_in at 1. cbn [e_vars with_vars]. destruct (HV x) as [V1 V2].
        assert (EQ : (exists t, In t (column es x) /\ hmem h v t) <-> (exists e', In (Some e') envs /\ hmem h v (type_in e' x))).
        { rewrite column_eq. split.
          - intros (t & Ht & Q). apply in_map_iff in Ht as (e & <- & He). exists e. split; [now apply FS|exact Q].
          - intros (e & He & Q). exists (type_in e x). split; [apply (in_map (fun e => type_in e x)); now apply FS|exact Q]. }
        rewrite <- EQ. destruct (in_dec Nat.eq_dec x (sorted (all_vars es))) as [Hx|Hx].
        * destruct (V1 Hx) as (t' & Eu & ->). destruct (union_ok h W LL f (column es x) (HT x)) as (r' & E' & Hr & V). rewrite Eu in E'. injection E' as <-. now apply V.
        * rewrite (V2 Hx). cbn [nget]. rewrite EQ.
          assert (U : forall e, In (Some e) envs -> type_in e x = Hier 14).
          { intros e He. unfold type_in. destruct (nget (e_vars e) x) eqn:E; [|reflexivity]. destruct Hx. apply IS. exists e. split; [exact He|]. apply nget_keys. congruence. }
          split.
          -- intros Q. exists e0. assert (He0 : In (Some e0) envs) by (apply FS; now left). split; [exact He0|]. now rewrite (U e0 He0).
          -- intros (e & He & Q). now rewrite (U e He) in Q.
  Qed.

  Lemma envs_or_incompatible envs e e' : reachable envs e -> reachable envs e' -> ~ compatible e e' -> envs_or h (S f) sorted envs = Err AssertionError.
  Proof.
    intros H H' HC. unfold reachable in *. unfold envs_or. assert (FS := flat_some envs). revert FS. generalize (flat_map (fun o => match o with Some e => [e] | None => [] end) envs).
    intros l FS. apply FS in H, H'. destruct l as [|e0 [|e1 l]]; [destruct H| |].
    - destruct H as [<-|[]], H' as [<-|[]]. destruct HC. repeat split.
    - set (es := e0 :: e1 :: l) in *. destruct (map_r (fun e => assert_ (outer_eqb (e_outer e) (e_outer e0) && (e_species e =? e_species e0) && (e_parret e =? e_parret e0))) es) as [r|er] eqn:E.
      + exfalso. assert (U : forall d, In d es -> compatible d e0).
        { intros d Hd. pose proof (map_r_assert_inv _ _ _ E d Hd) as Q. cbn in Q. apply andb_true_iff in Q as [Q Q3]. apply andb_true_iff in Q as [Q1 Q2].
          apply outer_eqb_eq in Q1. apply Nat.eqb_eq in Q2, Q3. repeat split; assumption. }
        destruct (U e H) as (A1 & A2 & A3), (U e' H') as (B1 & B2 & B3). apply HC. repeat split; congruence.
      + cbn [bind]. clear -E. f_equal. revert E. generalize es. intros l0. induction l0 as [|d l0 IH]; cbn [map_r]; [discriminate|].
        destruct (outer_eqb _ _ && _ && _); cbn [assert_ bind]; [|now intros [= <-]]. destruct (map_r _ l0); [discriminate|]. cbn [bind]. intros [= <-]. now apply IH.
  Qed.

  (* ---- and ---- *)

  Lemma not_TBD t : htype h t -> ty_eqb t TBD = false.
  Proof. intros [(a & -> & _)|(l & -> & _)]; reflexivity. Qed.

  Lemma inter_types_ok ts : forall t, htype h t -> (forall t', In t' ts -> htype h t') -> exists r, inter_types h sc (S f) t ts = Ok r /\ htype h r /\
    forall v, leaf h v -> (hmem h v r <-> hmem h v t /\ forall t', In t' ts -> hmem h v t').
  Proof.
    induction ts as [|t' ts IH]; intros t Ht HT; cbn [inter_types].
    - exists t. split; [reflexivity|]. split; [exact Ht|]. intros v Hv. split; [intros Q; split; [exact Q|intros t' []]|tauto].
    - destruct (split_by_ok h W LL sc f t t' Ht) as (i & o & -> & Hi & _ & V); [apply HT; now left|]. cbn [bind fst].
      destruct (IH i Hi) as (r & E & Hr & V'); [intros; apply HT; now right|]. exists r. split; [exact E|]. split; [exact Hr|]. intros v Hv. rewrite (V' v Hv).
      rewrite (proj1 (V v Hv)). split.
      + intros [[A B] C]. split; [exact A|]. intros u [<-|Hu]; auto.
      + intros [A B]. split; [split; [exact A|apply B; now left]|]. intros; apply B; now right.
  Qed.

  Lemma map_r_nidx envs x : (forall e, In e envs -> nget (e_vars e) x <> None) -> map_r (fun e => nidx (e_vars e) x) envs = Ok (map (fun e => type_in e x) envs).
  Proof.
    induction envs as [|e envs IH]; intros H; cbn [map_r map]; [reflexivity|]. unfold nidx at 1, type_in at 1. destruct (nget (e_vars e) x) eqn:E; [|now destruct (H e (or_introl eq_refl))].
    cbn [bind]. rewrite IH by (intros; apply H; now right). reflexivity.
  Qed.

  Lemma and_vars_ok envs : (forall e, In e envs -> env_ok' h e) -> forall xs acc, (forall x e, In x xs -> In e envs -> nget (e_vars e) x <> None) ->
    exists vs, and_vars h sc (S f) envs xs acc = Ok vs /\
    forall x, (In x xs -> exists t, nget vs x = Some t /\ (t = TBD \/ htype h t) /\ forall v, leaf h v -> (allows h t v <-> forall e, In e envs -> allows h (type_in e x) v)) /\
              (~ In x xs -> nget vs x = nget acc x).
  Proof.
    intros HE. induction xs as [|y xs IH]; intros acc HX; cbn [and_vars].
    - exists acc. split; [reflexivity|]. intros x. split; [intros []|auto].
    - rewrite map_r_nidx by (intros e He; apply HX; [now left|exact He]). cbn [bind].
      assert (HT : forall t, In t (map (fun e => type_in e y) envs) -> t = TBD \/ htype h t).
      { intros t Ht. apply in_map_iff in Ht as (e & <- & He). unfold type_in. destruct (nget (e_vars e) y) eqn:E; [eapply HE; eauto|]. right. left. exists 14. auto. }
      assert (HF : forall t, In t (filter (fun t => negb (ty_eqb t TBD)) (map (fun e => type_in e y) envs)) <-> In t (map (fun e => type_in e y) envs) /\ t <> TBD).
      { intros t. rewrite filter_In, negb_true_iff. split; intros [A B]; (split; [exact A|]).
        - intros ->. discriminate.
        - destruct (HT t A) as [->|Q]; [contradiction|]. now apply not_TBD. }
      assert (K : exists t, match filter (fun t => negb (ty_eqb t TBD)) (map (fun e => type_in e y) envs) with [] => Ok TBD | t :: ts' => inter_types h sc (S f) t ts' end = Ok t /\
        (t = TBD \/ htype h t) /\ forall v, leaf h v -> (allows h t v <-> forall e, In e envs -> allows h (type_in e y) v)).
      { destruct (filter _ _) as [|t0 ts] eqn:EF.
        - exists TBD. split; [reflexivity|]. split; [now left|]. intros v Hv. split; [|left; reflexivity]. intros _ e He. left.
          assert (Q : In (type_in e y) (map (fun e => type_in e y) envs)) by (now apply (in_map (fun e => type_in e y))).
          destruct (HT _ Q) as [E|E]; [exact E|]. exfalso. apply (HF (type_in e y)). split; [exact Q|]. intros Q'. rewrite Q' in E. destruct E as [(a & ? & _)|(l & ? & _)]; discriminate.
        - assert (HTs : forall t, In t (t0 :: ts) -> htype h t). { intros t Ht. apply HF in Ht as [Ht Hn]. destruct (HT t Ht); [contradiction|assumption]. }
          destruct (inter_types_ok ts t0) as (r & E & Hr & V); [apply HTs; now left|intros; apply HTs; now right|]. exists r. split; [exact E|]. split; [now right|].
          intros v Hv. assert (A : allows h r v <-> hmem h v r). { unfold allows. split; [intros [->|Q]; [destruct Hr as [(a & ? & _)|(l & ? & _)]; discriminate|exact Q]|auto]. }
          rewrite A, (V v Hv). split.
          + intros [B C] e He. assert (Q : In (type_in e y) (map (fun e => type_in e y) envs)) by (now apply (in_map (fun e => type_in e y))).
            destruct (HT _ Q) as [E'|E']; [now left|]. right.
            assert (Q' : In (type_in e y) (t0 :: ts)). { apply HF. split; [exact Q|]. intros Q'. rewrite Q' in E'. destruct E' as [(a & ? & _)|(l & ? & _)]; discriminate. }
            destruct Q' as [<-|Q']; auto.
          + intros Q. assert (Q' : forall t, In t (t0 :: ts) -> hmem h v t).
            { intros t Ht. apply HF in Ht as [Ht Hn]. apply in_map_iff in Ht as (e & <- & He). destruct (Q e He); [contradiction|assumption]. }
            split; [apply Q'; now left|]. intros; apply Q'; now right. }
      destruct K as (t & -> & Ht & V). cbn [bind]. destruct (IH (nset acc y t)) as (vs & -> & HV); [intros x e Hx; apply HX; now right|]. exists vs. split; [reflexivity|].
      intros x. destruct (HV x) as [V1 V2]. destruct (in_dec Nat.eq_dec x xs) as [Hx|Hx]; [split; [intros _; auto|intros Q; destruct Q; now right]|]. specialize (V2 Hx). split.
      + intros [<-|Q]; [|contradiction]. exists t. split; [|auto]. rewrite V2. apply nget_nset_same.
      + intros Q. rewrite V2. apply nget_nset_other. intros ->. apply Q. now left.
  Qed.

  Lemma vars_eqb_ok e e' : env_ok' h e -> env_ok' h e' -> vars_eqb (e_vars e) (e_vars e') = true ->
    forall x, (nget (e_vars e) x <> None <-> nget (e_vars e') x <> None) /\ forall v, leaf h v -> (allows h (type_in e x) v <-> allows h (type_in e' x) v).
  Proof.
    intros HE HE' H x. unfold vars_eqb in H. apply andb_true_iff in H as [A B]. rewrite forallb_forall in A, B. unfold type_in.
    destruct (nget (e_vars e) x) as [t|] eqn:E.
    - pose proof (A (x, t) (nget_in _ _ _ E)) as Q. cbn in Q. destruct (nget (e_vars e') x) as [t'|] eqn:E'; [|discriminate]. split; [split; discriminate|]. intros v Hv.
      destruct (HE x t E) as [->|Ht], (HE' x t' E') as [->|Ht']; try tauto.
      + exfalso. destruct Ht' as [(a & -> & _)|(l & -> & _)]; discriminate.
      + rewrite (not_TBD t Ht) in Q. discriminate.
      + pose proof (proj1 (htype_eqb h t t' Ht Ht') Q) as S. unfold allows. assert (M : hmem h v t <-> hmem h v t').
        { rewrite (hn_mem h v t Ht), (hn_mem h v t' Ht'). split; intros (a & Ha & Hv'); exists a; (split; [now apply S|exact Hv']). }
        assert (t <> TBD) by (intros ->; destruct Ht as [(a & ? & _)|(l & ? & _)]; discriminate).
        assert (t' <> TBD) by (intros ->; destruct Ht' as [(a & ? & _)|(l & ? & _)]; discriminate). tauto.
    - destruct (nget (e_vars e') x) as [t'|] eqn:E'; [|split; [tauto|intros; tauto]]. exfalso. pose proof (B (x, t') (nget_in _ _ _ E')) as Q. cbn in Q. rewrite E in Q. discriminate.
  Qed.

  Lemma envs_and_ok envs : envs <> [] -> (forall e, In e envs -> env_ok' h e) -> exists r, envs_and h sc (S f) envs = Ok r /\ env_ok' h r /\
    (forall x, nget (e_vars r) x <> None <-> forall e, In e envs -> nget (e_vars e) x <> None) /\
    (forall x v, leaf h v -> nget (e_vars r) x <> None -> (allows h (type_in r x) v <-> forall e, In e envs -> allows h (type_in e x) v)).
  Proof.
    intros Hne HE. unfold envs_and. destruct envs as [|e0 [|e1 es]]; [congruence| |].
    - exists e0. split; [reflexivity|]. split; [apply HE; now left|]. split.
      + intros x. split; [intros H e [<-|[]]; exact H|]. intros H. apply H. now left.
      + intros x v Hv _. split; [intros H e [<-|[]]; exact H|]. intros H. apply H. now left.
    - assert (Hcase : (es = [] /\ vars_eqb (e_vars e0) (e_vars e1) = true) \/
         match e1 :: es with [e1] => vars_eqb (e_vars e0) (e_vars e1) | _ => false end = false).
      { destruct es as [|e2 es]; [destruct (vars_eqb (e_vars e0) (e_vars e1)); auto|now right]. }
      destruct Hcase as [[-> Ev]|Ec].
      + rewrite Ev. exists e0. split; [reflexivity|]. split; [apply HE; now left|].
        pose proof (vars_eqb_ok e0 e1 (HE e0 (or_introl eq_refl)) (HE e1 (or_intror (or_introl eq_refl))) Ev) as K. split.
        * intros x. destruct (K x) as [K1 _]. split; [intros H e [<-|[<-|[]]]; tauto|]. intros H. apply H. now left.
        * intros x v Hv _. destruct (K x) as [_ K2]. specialize (K2 v Hv). split; [intros H e [<-|[<-|[]]]; tauto|]. intros H. apply H. now left.
      + rewrite Ec. clear Ec. set (envs := e0 :: e1 :: es) in *.
        assert (CV : forall x, In x (common_vars envs) <-> forall e, In e envs -> nget (e_vars e) x <> None).
        { intros x. unfold common_vars, envs. rewrite filter_In, forallb_forall. split.
          - intros [A B] e [<-|He]; [now apply nget_keys|]. apply nget_keys. apply nmem_in. now apply B.
          - intros H. split; [apply nget_keys; apply H; now left|]. intros e He. apply nmem_in. apply nget_keys. apply H. now right. }
        destruct (and_vars_ok envs HE (common_vars envs) []) as (vs & -> & HV). { intros x e Hx He. now apply (proj1 (CV x) Hx). }
        cbn [bind]. exists (with_vars e0 vs). split; [reflexivity|]. cbn [e_vars with_vars]. split; [|split].
        * intros x t E. cbn in E. destruct (HV x) as [V1 V2]. destruct (in_dec Nat.eq_dec x (common_vars envs)) as [Hx|Hx]; [|rewrite (V2 Hx) in E; discriminate].
          destruct (V1 Hx) as (t' & E' & Q & _). congruence.
        * intros x. rewrite <- CV. destruct (HV x) as [V1 V2]. split.
          -- intros H. destruct (in_dec Nat.eq_dec x (common_vars envs)) as [Hx|Hx]; [exact Hx|]. now rewrite (V2 Hx) in H.
          -- intros Hx. destruct (V1 Hx) as (t & -> & _). discriminate.
        * intros x v Hv H. destruct (HV x) as [V1 V2]. destruct (in_dec Nat.eq_dec x (common_vars envs)) as [Hx|Hx]; [|now rewrite (V2 Hx) in H].
          destruct (V1 Hx) as (t & E & _ & V). unfold type_in at 1. cbn [e_vars with_vars]. rewrite E. now apply V.
  Qed.

  (* ---- type tests ---- *)

  Lemma split_TBD B : htype h B -> split_by h sc (S f) TBD B = split_by h sc (S f) (Hier 0) B.
  Proof.
    intros HB. destruct (htype_set h B HB) as [EB _]. unfold split_by. rewrite EB. cbn [set_of_types].
    replace (same_set [TBD] (map Hier (hn B))) with false.
    2: { unfold same_set, tsubset, tmem. cbn [forallb]. enough (Q : existsb (ty_eqb TBD) (map Hier (hn B)) = false) by (rewrite Q; reflexivity). generalize (hn B). intros l. induction l as [|x l IH]; [reflexivity|exact IH]. }
    destruct (same_set [Hier 0] (map Hier (hn B))) eqn:Es; [|reflexivity].
    assert (B = Hier 0) as ->; [|reflexivity].
    unfold same_set in Es. apply andb_true_iff in Es as [S1 S2]. change [Hier 0] with (map Hier [0]) in S1, S2. apply tsubset_map in S1, S2.
    destruct HB as [(a & -> & _)|(l & -> & Hl & Hn & Hlen)]; unfold hn in S1, S2; cbn [set_of_types] in S1, S2.
    - cbn in S2. destruct (S2 a (or_introl eq_refl)) as [<-|[]]. reflexivity.
    - rewrite hn_map in S1, S2. exfalso. destruct l as [|a [|b l]]; [destruct (S1 0 (or_introl eq_refl))|cbn in Hlen; lia|].
      destruct (S2 a (or_introl eq_refl)) as [<-|[]]. destruct (S2 b (or_intror (or_introl eq_refl))) as [<-|[]]. inversion Hn. apply H1. now left.
  Qed.

  Definition ty_ok (t : ty) : Prop := t = TBD \/ htype h t.

  Lemma split_ok A B : ty_ok A -> htype h B -> exists i o, split_by h sc (S f) A B = Ok (i, o) /\ htype h i /\ htype h o /\
    forall v, leaf h v -> (hmem h v i <-> allows h A v /\ hmem h v B) /\ (hmem h v o <-> allows h A v /\ ~ hmem h v B).
  Proof.
    intros HA HB. assert (HT : htype h (Hier 0)) by (left; exists 0; split; [reflexivity|now apply root_in]). destruct HA as [->|HA].
    - rewrite (split_TBD B HB). destruct (split_by_ok h W LL sc f (Hier 0) B HT HB) as (i & o & E & Hi & Ho & V). exists i, o. repeat (split; [assumption|]).
      intros v Hv. destruct (V v Hv) as [V1 V2]. rewrite V1, V2. assert (hmem h v (Hier 0)) by (apply anc_root; [exact W|apply Hv]). unfold allows. tauto.
    - destruct (split_by_ok h W LL sc f A B HA HB) as (i & o & E & Hi & Ho & V). exists i, o. repeat (split; [assumption|]). intros v Hv. destruct (V v Hv) as [V1 V2].
      rewrite V1, V2. assert (A <> TBD) by (intros ->; destruct HA as [(a & ? & _)|(l & ? & _)]; discriminate). unfold allows. tauto.
  Qed.

  Lemma eqb_T_0' t : htype h t -> (ty_eqb t T_0 = true <-> forall v, leaf h v -> ~ hmem h v t).
  Proof.
    intros Ht. rewrite (htype_eqb h t T_0 Ht (htype_T_0 h)). change (hn T_0) with (@nil nat). split.
    - intros H v Hv Q. apply (hn_mem h v t Ht) in Q as (a & Ha & _). now apply H in Ha.
    - intros H x. split; [|intros []]. intros Hx. destruct (htype_set h t Ht) as [_ I]. destruct (leaf_below h W x (I x Hx)) as (v & Hv & Hxv). destruct (H v Hv).
      apply (hn_mem h v t Ht). eauto.
  Qed.
  Lemma eqb_T_0'' t : htype h t -> (ty_eqb t T_0 = false <-> exists v, leaf h v /\ hmem h v t).
  Proof.
    intros Ht. split.
    - intros H. destruct (htype_set h t Ht) as [_ I]. destruct (hn t) as [|x l] eqn:E.
      + exfalso. assert (Q : ty_eqb t T_0 = true); [|congruence]. apply (htype_eqb h t T_0 Ht (htype_T_0 h)). rewrite E. intros y. cbn. tauto.
      + destruct (leaf_below h W x (I x (or_introl eq_refl))) as (v & Hv & Hxv). exists v. split; [exact Hv|]. apply (hn_mem h v t Ht). exists x. rewrite E. split; [now left|exact Hxv].
    - intros (v & Hv & Q). destruct (ty_eqb t T_0) eqn:E; [|reflexivity]. destruct (proj1 (eqb_T_0' t Ht) E v Hv Q).
  Qed.

  Lemma conforms_set s e x t : conforms h s e -> allows h t (s x) -> conforms h s (set_var e x t).
  Proof.
    intros HC Ht y. unfold set_var, with_vars, type_in. cbn [e_vars]. destruct (Nat.eq_dec x y) as [<-|Hn].
    - now rewrite nget_nset_same.
    - rewrite nget_nset_other by exact Hn. apply HC.
  Qed.
End EnvL.
