(* Lemmas on unions, conjunctions and joins in which unknown types may occur. *)
From Verif Require Import M_Base L_Base M_Dict L_Dict M_Types L_Hier L_Types L_TypesUnion M_Env L_Env.
From Coq Require Import Permutation.

(* the value of every variable is in its type, which is known *)
Definition sconf (h : hier) (s : nat -> nat) (e : env) : Prop := store_ok h s /\ forall x, hmem h (s x) (type_in e x).
Definition tyok (h : hier) (t : ty) : Prop := t = TBD \/ htype h t.

Lemma ty_eqb_TBD t : ty_eqb t TBD = true -> t = TBD.
Proof. destruct t; cbn; congruence. Qed.
Lemma ty_eqb_TBD' t : ty_eqb TBD t = true -> t = TBD.
Proof. destruct t; cbn; congruence. Qed.

Section E.
  Variable h : hier.
  Hypothesis W : wf h.
  Hypothesis LL : forall c, ~ par h c 2.
  Hypothesis NS : In 14 (names h).
  Variable sc : list (nat * option nat).
  Variable f : nat.
  Variable sorted : list nat -> list nat.
  Hypothesis sorted_perm : forall l, Permutation (sorted l) l.

  Lemma htype_not_TBD t : htype h t -> t <> TBD.
  Proof. intros [(a & -> & _)|(l & -> & _)]; discriminate. Qed.
  Lemma hmem_not_TBD v t : hmem h v t -> t <> TBD.
  Proof. intros H ->. destruct H. Qed.
  Lemma tyok_hmem v t : tyok h t -> hmem h v t -> htype h t.
  Proof. intros [->|H] M; [destruct M|exact H]. Qed.
  Lemma sub_mem A B v : htype h A -> htype h B -> is_a_subtype_of_or_equal_to h sc A B = Ok true -> hmem h v A -> hmem h v B.
  Proof.
    intros HA HB E M. destruct (sub_ok h sc W A B HA HB) as (r & E' & R). rewrite E in E'. inversion E'; subst r. apply (hn_mem h v A HA) in M as (a & Ia & Aa). destruct (proj1 R eq_refl a Ia) as (b & Ib & Ab).
    apply (hn_mem h v B HB). exists b. split; [exact Ib|]. clear -Aa Ab. induction Aa; [exact Ab|]. econstructor; eauto.
  Qed.
  Lemma eqb_mem t t' v : htype h t -> htype h t' -> ty_eqb t t' = true -> hmem h v t -> hmem h v t'.
  Proof. intros H H' E M. pose proof (proj1 (htype_eqb h t t' H H') E) as S. apply (hn_mem h v t H) in M as (a & Ia & Aa). apply (hn_mem h v t' H'). exists a. split; [now apply S|exact Aa]. Qed.

  (* ---- unions ---- *)
  Lemma tdiscard_in x s y : In y (tdiscard x s) <-> In y s /\ ty_eqb x y = false.
  Proof. unfold tdiscard. rewrite filter_In. destruct (ty_eqb x y); intuition discriminate. Qed.
  Definition isT (t : ty) : bool := match t with TBD => true | _ => false end.
  Lemma eqb_isT a b : isT a <> isT b -> ty_eqb a b = false.
  Proof. destruct a, b; cbn; congruence. Qed.
  Lemma tmem_nonT x s : isT x = false -> tmem x (filter (fun t => negb (isT t)) s) = tmem x s.
  Proof.
    intros H. unfold tmem. induction s as [|y s IH]; [reflexivity|]. cbn [filter existsb]. destruct (isT y) eqn:E; cbn [negb existsb]; rewrite IH; [|reflexivity]. rewrite (eqb_isT x y) by congruence. reflexivity.
  Qed.
  Lemma tset_filter l : filter (fun t => negb (isT t)) (tset l) = tset (filter (fun t => negb (isT t)) l).
  Proof.
    unfold tset. enough (G : forall s, filter (fun t => negb (isT t)) (fold_left (fun s x => tadd x s) l s) = fold_left (fun s x => tadd x s) (filter (fun t => negb (isT t)) l) (filter (fun t => negb (isT t)) s)) by apply G.
    induction l as [|x l IH]; intros s; [reflexivity|]. cbn [fold_left filter]. rewrite IH. destruct (isT x) eqn:E; cbn [negb fold_left].
    - f_equal. unfold tadd. destruct (tmem x s); [reflexivity|]. rewrite filter_app. cbn [filter]. rewrite E. apply app_nil_r.
    - f_equal. unfold tadd. rewrite tmem_nonT by exact E. destruct (tmem x s); [reflexivity|]. rewrite filter_app. cbn [filter]. rewrite E. reflexivity.
  Qed.
  Lemma tdiscard_TBD s : tdiscard TBD s = filter (fun t => negb (isT t)) s.
  Proof. unfold tdiscard. apply filter_ext. intros t. destruct t; reflexivity. Qed.
  Lemma tdiscard_comm s : filter (fun t => negb (isT t)) (tdiscard T_0 s) = tdiscard T_0 (filter (fun t => negb (isT t)) s).
  Proof. unfold tdiscard. induction s as [|t s IH]; [reflexivity|]. cbn [filter]. destruct (ty_eqb T_0 t) eqn:E, (isT t) eqn:F; cbn [negb filter]; rewrite ?E, ?F; cbn [negb]; rewrite IH; reflexivity. Qed.
  Lemma filter_id {A} p (l : list A) : (forall x, In x l -> p x = true) -> filter p l = l.
  Proof. induction l as [|x l IH]; intros H; cbn; [reflexivity|]. rewrite H by now left. f_equal. apply IH. intros; apply H; now right. Qed.

  (* the only element, else the next step *)
  Definition one (s : list ty) (k : list ty -> res ty) : res ty := match s with [t] => Ok t | _ => k s end.
  (* the last steps of union_of_types *)
  Definition last_step (s : list ty) : res ty := match tdiscard TBD s with [t] => Ok t | q => union_rest h (union_of_types h f) q end.
  Lemma union_unfold types : types <> [] -> union_of_types h (S f) types = one (tset types) (fun s => one (tdiscard T_0 s) last_step).
  Proof.
    destruct types as [|t ts]; [congruence|]. intros _. cbn [union_of_types]. unfold last_step, one. generalize (tset (t :: ts)). intros s.
    assert (G : forall q, match tdiscard TBD q with [t0] => Ok t0 | _ => union_rest h (union_of_types h f) (tdiscard TBD q) end = match tdiscard TBD q with [t0] => Ok t0 | q' => union_rest h (union_of_types h f) q' end) by (intros q; destruct (tdiscard TBD q) as [|a [|b l]]; reflexivity).
    destruct s as [|a [|b l]]; try reflexivity.
    destruct (tdiscard T_0 (a :: b :: l)) as [|a' [|b' l']]; first [reflexivity|apply G].
  Qed.
  Lemma last_step_id s t : isT t = false -> s = [t] -> last_step s = Ok t.
  Proof. intros H ->. unfold last_step. rewrite tdiscard_TBD. cbn [filter]. rewrite H. reflexivity. Qed.
  Lemma tset_in' l x : In x (tset l) -> In x l.
  Proof. apply tset_in. Qed.
  Lemma empty_T_0 t : htype h t -> ty_eqb T_0 t = true -> t = T_0.
  Proof. intros H E. pose proof (eqb_T_0 h t H) as Q. apply Q in E. destruct H as [(a & -> & _)|(l & -> & _)]; unfold hn in E; cbn [set_of_types] in E; [discriminate|]. rewrite hn_map in E. subst. reflexivity. Qed.

  (* unknown types do not count, if there is a value in one of the known *)
  Lemma union_drop types v : (forall t, In t types -> tyok h t) -> leaf h v -> (exists t, In t types /\ hmem h v t) ->
    union_of_types h (S f) types = union_of_types h (S f) (filter (fun t => negb (isT t)) types).
  Proof.
    intros OK Lv (t0 & I0 & M0).
    assert (N : isT t0 = false) by (destruct t0; [destruct M0|..]; reflexivity).
    assert (H0 : htype h t0) by (eapply tyok_hmem; eauto).
    assert (NE : types <> []) by (intros ->; destruct I0).
    assert (NF : filter (fun t => negb (isT t)) types <> []). { intros Q. assert (I : In t0 (filter (fun t => negb (isT t)) types)) by (apply filter_In; rewrite N; auto). rewrite Q in I. destruct I. }
    rewrite (union_unfold types NE), (union_unfold _ NF). rewrite <- tset_filter.
    assert (K : forall t, In t (tset types) -> tyok h t) by (intros t I; apply OK; now apply tset_in').
    assert (C : exists z, In z (tset types) /\ isT z = false /\ ty_eqb T_0 z = false).
    { destruct (tset_cover types t0) as (z & Iz & Ez); [intros x Ix; destruct (OK x Ix) as [->|Hx]; [reflexivity|now apply htype_refl_eqb with h]|exact I0|].
      assert (Hz : htype h z). { destruct (K z Iz) as [->|Hz]; [|exact Hz]. destruct t0; cbn in Ez; try discriminate; destruct M0. }
      exists z. split; [exact Iz|]. split; [destruct z; [destruct (htype_not_TBD _ Hz eq_refl)|..]; reflexivity|].
      destruct (ty_eqb T_0 z) eqn:Q; [|reflexivity]. apply empty_T_0 in Q; [|exact Hz]. subst z. exfalso.
      assert (M : hmem h v T_0); [|destruct M as (a & [] & _)]. apply (eqb_mem t0 T_0 v H0 Hz); [|exact M0]. pose proof (htype_eqb h t0 T_0 H0 Hz) as Q1. pose proof (htype_eqb h T_0 t0 Hz H0) as Q2. first [exact Ez|apply Q1; intros x; symmetry; apply Q2; exact Ez]. }
    assert (CN : exists z, In z (tdiscard T_0 (tset types)) /\ isT z = false) by (destruct C as (z & C1 & C2 & C3); exists z; split; [apply tdiscard_in; auto|exact C2]).
    assert (G : forall S : list ty, (exists z, In z S /\ isT z = false) -> one S last_step = last_step (filter (fun t => negb (isT t)) S)).
    { intros S (z & Iz & Nz). assert (E2 : last_step (filter (fun t => negb (isT t)) S) = last_step S). { unfold last_step. rewrite !tdiscard_TBD. rewrite (filter_id _ (filter _ S)) by (intros x Ix; apply filter_In in Ix; tauto). reflexivity. }
      rewrite E2. destruct S as [|t [|t' S]]; [destruct Iz| |reflexivity]. destruct Iz as [<-|[]]. symmetry. now apply last_step_id. }
    assert (G2 : forall S : list ty, (exists z, In z S /\ isT z = false) -> (forall x, In x S -> isT x = false) -> one S last_step = last_step S).
    { intros S H1 H2. rewrite (G S H1). rewrite filter_id; [reflexivity|]. intros x Ix. rewrite (H2 x Ix). reflexivity. }
    (* left *)
    transitivity (last_step (tdiscard T_0 (filter (fun t => negb (isT t)) (tset types)))).
    - rewrite <- tdiscard_comm, <- (G _ CN). destruct C as (z & C1 & C2 & C3). destruct (tset types) as [|t [|t' q]]; [destruct C1| |reflexivity]. destruct C1 as [<-|[]]. unfold tdiscard. cbn [filter]. rewrite C3. reflexivity.
    - assert (C' : exists z, In z (tdiscard T_0 (filter (fun t => negb (isT t)) (tset types))) /\ isT z = false).
      { destruct C as (z & C1 & C2 & C3). exists z. split; [apply tdiscard_in; split; [apply filter_In; rewrite C2; auto|exact C3]|exact C2]. }
      assert (F' : forall x, In x (tdiscard T_0 (filter (fun t => negb (isT t)) (tset types))) -> isT x = false). { intros x Ix. apply tdiscard_in in Ix as [Ix _]. apply filter_In in Ix as [_ Ix]. destruct (isT x); [discriminate|reflexivity]. }
      rewrite <- (G2 _ C' F'). destruct C as (z & C1 & C2 & C3). assert (Z : In z (filter (fun t => negb (isT t)) (tset types))) by (apply filter_In; rewrite C2; auto).
      destruct (filter (fun t => negb (isT t)) (tset types)) as [|t [|t' q]]; [destruct Z| |reflexivity]. destruct Z as [<-|[]]. unfold tdiscard. cbn [filter]. rewrite C3. reflexivity.
  Qed.
  Lemma union_strong types r v : (forall t, In t types -> tyok h t) -> leaf h v -> (exists t, In t types /\ hmem h v t) ->
    union_of_types h (S f) types = Ok r -> htype h r /\ hmem h v r.
  Proof.
    intros OK Lv (t0 & I0 & M0) E. rewrite (union_drop types v) in E; eauto. destruct (union_ok h W LL f (filter (fun t => negb (isT t)) types)) as (r' & E' & Hr & V).
    { intros t It. apply filter_In in It as [It Nt]. destruct (OK t It) as [->|H]; [discriminate|exact H]. }
    rewrite E in E'. inversion E'; subst r'. split; [exact Hr|]. apply (V v Lv). exists t0. split; [|exact M0]. apply filter_In. split; [exact I0|]. destruct t0; [destruct M0|..]; reflexivity.
  Qed.
  Lemma union_tyok types r : types <> [] -> (forall t, In t types -> tyok h t) -> union_of_types h (S f) types = Ok r -> tyok h r.
  Proof.
    intros NE OK E. destruct (existsb (fun t => negb (isT t) && negb (ty_eqb t T_0)) types) eqn:Q.
    - apply existsb_exists in Q as (t & It & Qt). apply andb_true_iff in Qt as [Q1 Q2]. destruct (OK t It) as [->|Ht]; [discriminate|]. apply negb_true_iff in Q2. apply (eqb_T_0'' h W t Ht) in Q2 as (v & Lv & Mv). right. apply (union_strong types r v); eauto.
    - rewrite (union_unfold types NE) in E.
      assert (A : forall t, In t (tset types) -> t = TBD \/ t = T_0).
      { intros t It. apply tset_in' in It. destruct (OK t It) as [->|Ht]; [now left|]. right. assert (Z : negb (isT t) && negb (ty_eqb t T_0) = false). { destruct (negb (isT t) && negb (ty_eqb t T_0)) eqn:Z; [|reflexivity]. assert (Y : existsb (fun t => negb (isT t) && negb (ty_eqb t T_0)) types = true) by (apply existsb_exists; eauto). congruence. }
        assert (N : isT t = false) by (destruct t; [destruct (htype_not_TBD _ Ht eq_refl)|..]; reflexivity). rewrite N in Z. cbn in Z. apply negb_false_iff in Z. apply empty_T_0; [exact Ht|]. pose proof (htype_T_0 h) as H0. apply (htype_eqb h T_0 t H0 Ht). intros x. symmetry. apply (htype_eqb h t T_0 Ht H0). exact Z. }
      assert (B : forall t, In t (tdiscard T_0 (tset types)) -> t = TBD). { intros t It. apply tdiscard_in in It as [It E']. destruct (A t It) as [->| ->]; [reflexivity|discriminate]. }
      assert (P : forall x, x = TBD \/ x = T_0 -> tyok h x) by (intros x [->| ->]; [now left|right; apply htype_T_0]).
      assert (D : one (tdiscard T_0 (tset types)) last_step = Ok r -> tyok h r).
      { revert B. generalize (tdiscard T_0 (tset types)). intros q B E'. destruct q as [|t [|t' q]].
        - cbn in E'. discriminate.
        - inversion E'; subst. apply P. left. apply B. now left.
        - unfold one, last_step in E'. assert (Z : tdiscard TBD (t :: t' :: q) = []).
          { destruct (tdiscard TBD (t :: t' :: q)) as [|y l] eqn:Z; [reflexivity|]. assert (I : In y (tdiscard TBD (t :: t' :: q))) by (rewrite Z; now left). apply tdiscard_in in I as [I1 I2]. rewrite (B y I1) in I2. discriminate. }
          rewrite Z in E'. cbn in E'. discriminate. }
      destruct (tset types) as [|t [|t' q]]; [apply D; exact E| |apply D; exact E]. inversion E; subst. apply P. apply A. now left.
  Qed.

  (* ---- environments ---- *)
  Lemma type_in_tyok e x : env_ok' h e -> tyok h (type_in e x).
  Proof. intros H. unfold type_in. destruct (nget (e_vars e) x) eqn:E; [exact (H x t E)|]. right. left. exists 14. auto. Qed.
  Lemma or_vars_inv envs : forall xs acc vs, or_vars h (S f) envs xs acc = Ok vs -> forall x,
    (In x xs -> exists t, union_of_types h (S f) (map (fun e => type_in e x) envs) = Ok t /\ nget vs x = Some t) /\ (~ In x xs -> nget vs x = nget acc x).
  Proof.
    induction xs as [|y xs IH]; intros acc vs E x; cbn [or_vars] in E.
    - inversion E; subst. split; [intros []|auto].
    - match type of E with bind ?a _ = _ => destruct a as [t|] eqn:U end; [|discriminate]. cbn [bind] in E. destruct (IH _ _ E x) as [H1 H2]. destruct (in_dec Nat.eq_dec x xs) as [I|I].
      + split; [auto|]. intros N. destruct N. now right.
      + specialize (H2 I). split.
        * intros [<-|I']; [|contradiction]. exists t. split; [exact U|]. rewrite H2. apply nget_nset_same.
        * intros N. rewrite H2. apply nget_nset_other. intros ->. apply N. now left.
  Qed.
  Lemma envs_or_strong envs r : (forall e, In (Some e) envs -> env_ok' h e) -> envs_or h (S f) sorted envs = Ok r ->
    match r with
    | None => forall o, In o envs -> o = None
    | Some e' => env_ok' h e' /\ (forall x, nget (e_vars e') x <> None <-> exists e, In (Some e) envs /\ nget (e_vars e) x <> None) /\
                 (forall x v e, In (Some e) envs -> leaf h v -> hmem h v (type_in e x) -> hmem h v (type_in e' x))
    end.
  Proof.
    intros OK E. unfold envs_or in E. pose proof (flat_some envs) as FS. destruct (flat_map (fun o => match o with Some e => [e] | None => [] end) envs) as [|e0 [|e1 l]].
    - inversion E; subst r. intros [e|] I; [|reflexivity]. apply FS in I. destruct I.
    - inversion E; subst r. assert (U : forall e, In (Some e) envs <-> e = e0). { intros e. rewrite <- FS. cbn. split; [intros [H|[]]; auto|auto]. } split; [apply OK, U; reflexivity|]. split.
      + intros x. split; [intros H; exists e0; split; [now apply U|exact H]|]. intros (e & H & H'). apply U in H. now subst.
      + intros x v e I _. apply U in I. now subst.
    - set (es := e0 :: e1 :: l) in *. match type of E with bind ?a _ = _ => destruct a; [|discriminate] end. cbn [bind] in E. match type of E with bind ?a _ = _ => destruct a as [vs|] eqn:V; [|discriminate] end. cbn [bind] in E. inversion E; subst r. clear E.
      pose proof (or_vars_inv es _ _ _ V) as H. clear V.
      assert (SI : forall x, In x (sorted (all_vars es)) <-> exists e, In (Some e) envs /\ nget (e_vars e) x <> None).
      { intros x. split.
        - intros I. apply (Permutation_in x (sorted_perm _)) in I. apply all_vars_in in I as (e & I1 & I2). exists e. split; [now apply FS|now apply nget_keys].
        - intros (e & I1 & I2). apply (Permutation_in x (Permutation_sym (sorted_perm _))). apply all_vars_in. exists e. split; [now apply FS|now apply nget_keys]. }
      assert (CT : forall x t, In t (map (fun e => type_in e x) es) -> tyok h t). { intros x t I. apply in_map_iff in I as (e & <- & I). apply type_in_tyok. apply OK. now apply FS. }
      split; [|split].
      + intros x t Q. cbn [with_vars e_vars] in Q. destruct (H x) as [H1 H2]. destruct (in_dec Nat.eq_dec x (sorted (all_vars es))) as [I|I].
        * destruct (H1 I) as (t' & U & Q'). rewrite Q in Q'. inversion Q'; subst t'. apply (union_tyok (map (fun e => type_in e x) es)); [discriminate|apply CT|exact U].
        * rewrite (H2 I) in Q. discriminate.
      + intros x. cbn [with_vars e_vars]. rewrite <- SI. destruct (H x) as [H1 H2]. split; intros Q.
        * destruct (in_dec Nat.eq_dec x (sorted (all_vars es))) as [I|I]; [exact I|]. rewrite (H2 I) in Q. destruct (Q eq_refl).
        * destruct (H1 Q) as (t & _ & ->). discriminate.
      + intros x v e I S1 S2. unfold type_in. cbn [with_vars e_vars]. destruct (H x) as [H1 H2]. destruct (in_dec Nat.eq_dec x (sorted (all_vars es))) as [Ix|Ix].
        * destruct (H1 Ix) as (t & U & ->). apply (union_strong (map (fun e => type_in e x) es) t v); [apply CT|apply S1| |exact U]. exists (type_in e x). split; [|apply S2]. apply in_map_iff. exists e. split; [reflexivity|now apply FS].
        * rewrite (H2 Ix). cbn [nget]. unfold type_in in S2. destruct (nget (e_vars e) x) eqn:Q; [|exact S2]. exfalso. apply Ix, SI. exists e. split; [exact I|congruence].
  Qed.

  Lemma and_vars_known envs : (forall e, In e envs -> env_ok' h e) -> forall xs acc vs, (forall x e, In x xs -> In e envs -> nget (e_vars e) x <> None) ->
    and_vars h sc (S f) envs xs acc = Ok vs -> forall x, In x xs -> (exists e, In e envs /\ type_in e x <> TBD) -> nget vs x <> Some TBD.
  Proof.
    intros OK. induction xs as [|y xs IH]; intros acc vs K E x I T; [destruct I|]. destruct (in_dec Nat.eq_dec x xs) as [Ix|Ix].
    - cbn [and_vars] in E. match type of E with bind ?a _ = _ => destruct a as [ts|] eqn:V; [|discriminate] end. cbn [bind] in E. match type of E with bind ?a _ = _ => destruct a as [t|] eqn:V'; [|discriminate] end. cbn [bind] in E. eapply IH; eauto. intros; apply K; auto. now right.
    - destruct I as [->|I]; [|contradiction]. cbn [and_vars] in E. rewrite map_r_nidx in E by (intros e Ie; apply K; [now left|exact Ie]). cbn [bind] in E.
      match type of E with bind ?a _ = _ => destruct a as [t|] eqn:V'; [|discriminate] end. cbn [bind] in E.
      destruct (and_vars_ok h W LL NS sc f envs OK xs (nset acc x t)) as (vs' & E' & HV); [intros; apply K; auto; now right|]. rewrite E in E'. inversion E'; subst vs'. destruct (HV x) as [_ HV2]. rewrite (HV2 Ix), nget_nset_same. intros [= ->].
      destruct T as (e & Ie & Te). assert (In (type_in e x) (filter (fun t => negb (ty_eqb t TBD)) (map (fun e => type_in e x) envs))).
      { apply filter_In. split; [apply in_map_iff; eauto|]. destruct (ty_eqb (type_in e x) TBD) eqn:Q; [|reflexivity]. apply ty_eqb_TBD in Q. contradiction. }
      assert (HT : forall t, In t (filter (fun t => negb (ty_eqb t TBD)) (map (fun e => type_in e x) envs)) -> htype h t).
      { intros t It. apply filter_In in It as [It Nt]. apply in_map_iff in It as (e' & <- & Ie'). destruct (type_in_tyok e' x (OK _ Ie')) as [Q|Q]; [rewrite Q in Nt; discriminate|exact Q]. }
      destruct (filter (fun t => negb (ty_eqb t TBD)) (map (fun e => type_in e x) envs)) as [|t ts]; [contradiction|].
      destruct (inter_types_ok h W LL sc f ts t) as (r & Er & Hr & _); [apply HT; now left|intros; apply HT; now right|]. rewrite V' in Er. inversion Er; subst r. exact (htype_not_TBD _ Hr eq_refl).
  Qed.
  Lemma envs_and_strong a b r : env_ok' h a -> env_ok' h b -> envs_and h sc (S f) [a; b] = Ok r ->
    env_ok' h r /\ (forall x, nget (e_vars r) x <> None -> nget (e_vars a) x <> None) /\ (forall s, sconf h s a -> sconf h s b -> sconf h s r).
  Proof.
    intros Ha Hb E. assert (OK : forall e, In e [a; b] -> env_ok' h e) by (intros e [<-|[<-|[]]]; assumption).
    destruct (envs_and_ok h W LL NS sc f [a; b]) as (r' & E' & H1 & H2 & H3); [discriminate|exact OK|]. rewrite E in E'. inversion E'; subst r'. split; [exact H1|]. split; [intros x Q; apply (H2 x); [exact Q|now left]|].
    intros s [Sa1 Sa2] [_ Sb2]. split; [exact Sa1|]. intros x. destruct (nget (e_vars r) x) as [t|] eqn:Q.
    - assert (A : allows h (type_in r x) (s x)). { apply (H3 x (s x) (Sa1 x)); [congruence|]. intros e [<-|[<-|[]]]; right; auto. } destruct A as [A|A]; [|exact A]. exfalso.
      unfold type_in in A. rewrite Q in A. subst t. unfold envs_and in E. destruct (vars_eqb (e_vars a) (e_vars b)).
      + inversion E; subst. specialize (Sa2 x). unfold type_in in Sa2. rewrite Q in Sa2. exact Sa2.
      + match type of E with bind ?k _ = _ => destruct k as [vs|] eqn:V; [|discriminate] end. cbn [bind] in E. inversion E; subst r. cbn [with_vars e_vars] in Q.
        assert (KK : forall x e, In x (common_vars [a; b]) -> In e [a; b] -> nget (e_vars e) x <> None).
        { intros y e I Ie. unfold common_vars in I. apply filter_In in I as [I1 I2]. cbn [forallb] in I2. rewrite andb_true_r in I2. apply nmem_in in I2. destruct Ie as [<-|[<-|[]]]; now apply nget_keys. }
        destruct (in_dec Nat.eq_dec x (common_vars [a; b])) as [I|I].
        * apply (and_vars_known [a; b] OK (common_vars [a; b]) [] vs KK V x I); [|exact Q]. exists a. split; [now left|]. eapply hmem_not_TBD. apply Sa2.
        * destruct (and_vars_ok h W LL NS sc f [a; b] OK (common_vars [a; b]) [] KK) as (vs' & E'' & HV). rewrite V in E''. inversion E''; subst vs'. destruct (HV x) as [_ HV2]. rewrite (HV2 I) in Q. discriminate.
    - unfold type_in. rewrite Q. destruct (nget (e_vars a) x) eqn:Qa, (nget (e_vars b) x) eqn:Qb.
      + exfalso. apply (H2 x); [|exact Q]. intros e [<-|[<-|[]]]; congruence.
      + specialize (Sb2 x). unfold type_in in Sb2. now rewrite Qb in Sb2.
      + specialize (Sa2 x). unfold type_in in Sa2. now rewrite Qa in Sa2.
      + specialize (Sa2 x). unfold type_in in Sa2. now rewrite Qa in Sa2.
  Qed.
  Lemma vars_eqb_sconf a b s : env_ok' h a -> env_ok' h b -> vars_eqb (e_vars a) (e_vars b) = true -> sconf h s a -> sconf h s b.
  Proof.
    intros Ha Hb E [S1 S2]. split; [exact S1|]. intros x. specialize (S2 x). unfold vars_eqb in E. apply andb_true_iff in E as [A B]. rewrite forallb_forall in A, B. unfold type_in in *.
    destruct (nget (e_vars a) x) as [t|] eqn:Qa.
    - specialize (A (x, t) (nget_in _ _ _ Qa)). cbn in A. destruct (nget (e_vars b) x) as [t'|] eqn:Qb; [|discriminate]. destruct (Ha x t Qa) as [->|Ht]; [destruct S2|]. destruct (Hb x t' Qb) as [->|Ht'].
      + apply ty_eqb_TBD in A. subst. destruct S2.
      + exact (eqb_mem t t' (s x) Ht Ht' A S2).
    - destruct (nget (e_vars b) x) as [t'|] eqn:Qb; [|exact S2]. specialize (B (x, t') (nget_in _ _ _ Qb)). cbn in B. rewrite Qa in B. discriminate.
  Qed.
End E.
