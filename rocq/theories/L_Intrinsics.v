(* Specifications and lemmas for M_Intrinsics. *)
From Verif Require Import M_Base L_Base M_Dict L_Dict M_Intrinsics.

Lemma nset_nodup {V} (d : list (nat * V)) k v : NoDup (map fst d) -> NoDup (map fst (nset d k v)).
Proof.
  intros H. rewrite nset_keys. change (NoDup (nadd k (map fst d))). now apply nadd_nodup.
Qed.
Lemma nget_none_keys {V} (d : list (nat * V)) k : nget d k = None <-> ~ In k (map fst d).
Proof. rewrite <- nget_keys. destruct (nget d k); split; intros H; try discriminate; try reflexivity; try (intros Q; apply Q; reflexivity). destruct H. discriminate. Qed.

(* ---- merging attributes ---- *)

Notation dom a := (map fst a).
Definition agree (a b : attrs) : Prop := forall n v w, nget a n = Some v -> nget b n = Some w -> v = w.
Definition union_of (a b r : attrs) : Prop := forall n, nget r n = match nget a n with Some v => Some v | None => nget b n end.

Lemma merge_into_spec b : NoDup (dom b) -> forall m, NoDup (dom m) -> match merge_into m b with
  | Ok r => agree m b /\ NoDup (dom r) /\ union_of m b r
  | Err e => e = AssertionError /\ ~ agree m b
  end.
Proof.
  induction b as [|[n v] b IH]; intros Hb m Hm; cbn [merge_into].
  - split; [intros n v w _; discriminate|]. split; [exact Hm|]. intros n. cbn. now destruct (nget m n).
  - cbn in Hb. inversion Hb as [|? ? Hn Hb']; subst. assert (Nn : nget b n = None) by now apply nget_none_keys. destruct (nget m n) as [w|] eqn:E.
    + destruct (Nat.eqb_spec v w) as [->|Hne].
      * specialize (IH Hb' m Hm). destruct (merge_into m b) as [r|e].
        -- destruct IH as (A & N & U). split; [|split; [exact N|]].
           ++ intros n' v' w' H1. cbn [nget]. destruct (Nat.eqb_spec n n') as [<-|Hnn]; [intros [= <-]; congruence|]. intros H2. eapply A; eassumption.
           ++ intros n'. rewrite U. cbn [nget]. destruct (Nat.eqb_spec n n') as [<-|Hnn]; [now rewrite E|reflexivity].
        -- destruct IH as [-> A]. split; [reflexivity|]. intros Q. apply A. intros n' v' w' H1 H2. apply (Q n' v' w' H1). cbn [nget]. destruct (Nat.eqb_spec n n') as [<-|Hnn]; [congruence|exact H2].
      * split; [reflexivity|]. intros Q. apply Hne. symmetry. apply (Q n w v E). cbn. now rewrite Nat.eqb_refl.
    + specialize (IH Hb' (nset m n v) (nset_nodup m n v Hm)). destruct (merge_into (nset m n v) b) as [r|e].
      * destruct IH as (A & N & U). split; [|split; [exact N|]].
        -- intros n' v' w' H1. cbn [nget]. destruct (Nat.eqb_spec n n') as [<-|Hnn]; [congruence|]. intros H2. apply (A n'); [|exact H2]. now rewrite nget_nset_other.
        -- intros n'. rewrite U, nget_nset. cbn [nget]. destruct (Nat.eqb_spec n n') as [<-|Hnn]; [now rewrite E|reflexivity].
      * destruct IH as [-> A]. split; [reflexivity|]. intros Q. apply A. intros n' v' w'. rewrite nget_nset. destruct (Nat.eqb_spec n n') as [<-|Hnn]; [intros _ H2; congruence|].
        intros H1 H2. apply (Q n' v' w' H1). cbn [nget]. apply Nat.eqb_neq in Hnn. now rewrite Hnn.
Qed.
Lemma dict_eqb_get a b : NoDup (dom a) -> NoDup (dom b) -> dict_eqb a b = true -> forall n, nget a n = nget b n.
Proof.
  intros Ha Hb H. unfold dict_eqb in H. apply andb_true_iff in H as [HL HF]. apply Nat.eqb_eq in HL. rewrite forallb_forall in HF.
  assert (S1 : forall n v, nget a n = Some v -> nget b n = Some v).
  { intros n v E. apply nget_in in E. specialize (HF _ E). cbn in HF. destruct (nget b n) as [w|]; [|discriminate]. apply Nat.eqb_eq in HF. now subst. }
  assert (I : incl (dom a) (dom b)).
  { intros n Hn. apply nget_keys. apply nget_keys in Hn. destruct (nget a n) as [v|] eqn:E; [|contradiction]. rewrite (S1 n v E). discriminate. }
  assert (I' : incl (dom b) (dom a)) by (apply NoDup_length_incl; [exact Ha|rewrite !map_length; lia|exact I]).
  intros n. destruct (nget a n) as [v|] eqn:E; [symmetry; now apply S1|]. symmetry. apply nget_none_keys. intros Q. apply I' in Q. apply nget_none_keys in E. contradiction.
Qed.
Lemma merge_spec a b : NoDup (dom a) -> NoDup (dom b) -> match merge_propAttrs a b with
  | Ok r => agree a b /\ NoDup (dom r) /\ union_of a b r
  | Err e => e = AssertionError /\ ~ agree a b
  end.
Proof.
  intros Ha Hb. unfold merge_propAttrs. destruct (dict_eqb a b) eqn:E; [|now apply merge_into_spec].
  pose proof (dict_eqb_get a b Ha Hb E) as G. split; [intros n v w H1 H2; congruence|]. split; [exact Ha|]. intros n. rewrite <- G. now destruct (nget a n).
Qed.

(* ---- all facts ---- *)

Notation facts := (list (nat * fact)).
(* what the facts say about an intrinsic *)
Definition says_kind (fs : facts) (L k : nat) : Prop := In (L, is_ k) fs.
Definition says_slot (fs : facts) (L n : nat) (v : sval) : Prop := In (L, has_slot n v) fs.
Definition says_attr (fs : facts) (L key n v : nat) : Prop := exists a, In (L, has_prop key a) fs /\ In (n, v) a.
Definition kinds_agree (a b : nat) : Prop := a = b \/ (a = 0 /\ b = 1) \/ (a = 1 /\ b = 0).
(* no two of them conflict; slot 0 is [[ccb]] *)
Definition consistent (fs : facts) : Prop := forall L,
  (forall a b, says_kind fs L a -> says_kind fs L b -> kinds_agree a b) /\
  (forall n v w, n <> 0 -> says_slot fs L n v -> says_slot fs L n w -> v = w) /\
  (forall key n v w, says_attr fs L key n v -> says_attr fs L key n w -> v = w).
Definition facts_wf (fs : facts) : Prop := forall L key a, In (L, has_prop key a) fs -> NoDup (dom a).

Definition kind_is (fs : facts) (L : nat) (k : option nat) : Prop :=
  match k with
  | None => forall x, ~ says_kind fs L x
  | Some k => says_kind fs L k /\ (says_kind fs L 0 -> k = 0)
  end.
Definition slots_are (fs : facts) (L : nat) (s : list (nat * sval)) : Prop :=
  NoDup (map fst s) /\
  (forall n v, n <> 0 -> nget s n = Some v <-> says_slot fs L n v) /\
  (nget s 0 = None <-> forall v, ~ says_slot fs L 0 v).
Definition props_are (fs : facts) (L : nat) (ps : list (nat * attrs)) : Prop :=
  NoDup (map fst ps) /\
  (forall key, nget ps key <> None <-> exists a, In (L, has_prop key a) fs) /\
  (forall key a, nget ps key = Some a -> NoDup (dom a) /\ forall n v, nget a n = Some v <-> says_attr fs L key n v).
Definition intr_is (fs : facts) (L : nat) (i : intrinsic) : Prop := kind_is fs L (i_kind i) /\ slots_are fs L (i_slots i) /\ props_are fs L (i_properties i).
Definition state_is (fs : facts) (st : list (nat * intrinsic)) : Prop :=
  (forall L, In L (map fst st) <-> In L (map fst fs)) /\ forall L i, nget st L = Some i -> intr_is fs L i.

Lemma sval_eqb_eq a b : sval_eqb a b = true <-> a = b.
Proof. destruct a, b; cbn; try (split; discriminate); rewrite Nat.eqb_eq; split; congruence. Qed.

(* adding a fact that says nothing of the sort leaves it *)
Lemma in_snoc {A} (x y : A) l : In x (l ++ [y]) <-> In x l \/ x = y.
Proof. rewrite in_app_iff. cbn. intuition. Qed.

Section Step.
  Variables (fs : facts) (L : nat) (i : intrinsic).
  Hypothesis HI : intr_is fs L i.
  Hypothesis HC : consistent fs.
  Lemma kind_snoc f : (forall k, f <> (L, is_ k)) -> forall k, says_kind (fs ++ [f]) L k <-> says_kind fs L k.
  Proof. intros H k. unfold says_kind. rewrite in_snoc. split; [intros [Q|Q]; [exact Q|]; destruct (H k); auto|auto]. Qed.
  Lemma slot_snoc f : (forall n v, f <> (L, has_slot n v)) -> forall n v, says_slot (fs ++ [f]) L n v <-> says_slot fs L n v.
  Proof. intros H n v. unfold says_slot. rewrite in_snoc. split; [intros [Q|Q]; [exact Q|]; destruct (H n v); auto|auto]. Qed.
  Lemma prop_snoc f : (forall k a, f <> (L, has_prop k a)) -> forall key a, In (L, has_prop key a) (fs ++ [f]) <-> In (L, has_prop key a) fs.
  Proof. intros H k a. rewrite in_snoc. split; [intros [Q|Q]; [exact Q|]; destruct (H k a); auto|auto]. Qed.
  Lemma attr_snoc f : (forall k a, f <> (L, has_prop k a)) -> forall key n v, says_attr (fs ++ [f]) L key n v <-> says_attr fs L key n v.
  Proof. intros H key n v. unfold says_attr. split; intros (a & H1 & H2); exists a; (split; [|exact H2]); now apply (prop_snoc f H). Qed.
  Lemma kind_keep f : (forall k, f <> (L, is_ k)) -> kind_is (fs ++ [f]) L (i_kind i).
  Proof.
    intros H. destruct HI as (K & _). unfold kind_is in *. destruct (i_kind i).
    - rewrite !(kind_snoc f H). exact K.
    - intros x. rewrite (kind_snoc f H). apply K.
  Qed.
  Lemma slots_keep f : (forall n v, f <> (L, has_slot n v)) -> slots_are (fs ++ [f]) L (i_slots i).
  Proof.
    intros H. destruct HI as (_ & (S1 & S2 & S3) & _). split; [exact S1|]. split.
    - intros n v Hn. rewrite (slot_snoc f H). now apply S2.
    - rewrite S3. split; intros Q v; specialize (Q v); [now rewrite (slot_snoc f H)|now rewrite (slot_snoc f H) in Q].
  Qed.
  Lemma props_keep f : (forall k a, f <> (L, has_prop k a)) -> props_are (fs ++ [f]) L (i_properties i).
  Proof.
    intros H. destruct HI as (_ & _ & (P1 & P2 & P3)). split; [exact P1|]. split.
    - intros key. rewrite P2. split; intros (a & Q); exists a; now apply (prop_snoc f H).
    - intros key a E. destruct (P3 key a E) as [N A]. split; [exact N|]. intros n v. rewrite (attr_snoc f H). apply A.
  Qed.

  Lemma kind_step k : match merge_kind (i_kind i) k with
    | Ok k' => kind_is (fs ++ [(L, is_ k)]) L k' /\ forall a, says_kind fs L a -> kinds_agree a k
    | Err e => e = AssertionError /\ exists a, says_kind fs L a /\ ~ kinds_agree a k
    end.
  Proof.
    destruct HI as (K & _). unfold merge_kind, kind_is, kinds_agree in *. destruct (i_kind i) as [k0|].
    - destruct K as [K1 K2]. destruct (Nat.eqb_spec k0 k) as [->|Hne].
      + split.
        * unfold says_kind in *. rewrite !in_snoc. split; [auto|]. intros [Q|[= <-]]; auto.
        * intros a Ha. destruct (HC L) as (C & _). exact (C a k Ha K1).
      + destruct ((k0 =? 0) && (k =? 1) || (k0 =? 1) && (k =? 0)) eqn:E.
        * apply orb_true_iff in E as [E|E]; apply andb_true_iff in E as [E1 E2]; apply Nat.eqb_eq in E1, E2; subst k0 k; unfold says_kind in *; (split; [rewrite !in_snoc; split; auto|]); intros a Ha; destruct (HC L) as (C & _).
          -- destruct (C a 0 Ha K1) as [->|[[-> Q]|[-> Q]]]; [auto|discriminate|auto].
          -- destruct (C a 1 Ha K1) as [->|[[-> Q]|[-> Q]]]; [auto|auto|discriminate].
        * split; [reflexivity|]. exists k0. split; [exact K1|]. intros [Q|[[-> ->]|[-> ->]]]; [contradiction|discriminate|discriminate].
    - split; [|intros a Ha; destruct (K a Ha)]. unfold says_kind in *. rewrite !in_snoc. split; [auto|]. intros [Q|[= <-]]; [destruct (K 0 Q)|reflexivity].
  Qed.
  Lemma slot_step n v : match merge_slot (i_slots i) n v with
    | Ok s' => slots_are (fs ++ [(L, has_slot n v)]) L s' /\ (n <> 0 -> forall w, says_slot fs L n w -> w = v)
    | Err e => e = AssertionError /\ n <> 0 /\ exists w, says_slot fs L n w /\ w <> v
    end.
  Proof.
    destruct HI as (_ & (S1 & S2 & S3) & _). unfold merge_slot.
    assert (SN : forall n' v', says_slot (fs ++ [(L, has_slot n v)]) L n' v' <-> says_slot fs L n' v' \/ (n' = n /\ v' = v)).
    { intros n' v'. unfold says_slot. rewrite in_snoc. split; [intros [Q|[= -> ->]]; auto|intros [Q|[-> ->]]; auto]. }
    destruct (nget (i_slots i) n) as [curr|] eqn:E.
    - destruct (sval_eqb curr v) eqn:Ev.
      + apply sval_eqb_eq in Ev. subst curr. split.
        * split; [exact S1|]. split.
          -- intros n' v' Hn'. rewrite SN, <- (S2 n' v' Hn'). split; [auto|]. intros [Q|[-> ->]]; auto.
          -- destruct (Nat.eq_dec n 0) as [->|Hn].
             ++ split; [congruence|]. intros Q. destruct (Q v). apply SN. auto.
             ++ rewrite S3. split; intros Q v' Q'; [apply SN in Q' as [Q'|[Q' _]]; [exact (Q v' Q')|congruence]|]. apply (Q v'). apply SN. auto.
        * intros Hn w Hw. apply (S2 n w Hn) in Hw. congruence.
      + destruct (Nat.eqb_spec n 0) as [->|Hn].
        * split; [|congruence]. split; [now apply nset_nodup|]. split.
          -- intros n' v' Hn'. rewrite nget_nset_other by congruence. rewrite SN, (S2 n' v' Hn'). split; [auto|]. intros [Q|[-> _]]; [exact Q|congruence].
          -- rewrite nget_nset_same. split; [discriminate|]. intros Q. destruct (Q v). apply SN. auto.
        * split; [reflexivity|]. split; [exact Hn|]. exists curr. split; [now apply S2|]. intros Q. apply sval_eqb_eq in Q. congruence.
    - split.
      + split; [now apply nset_nodup|]. split.
        * intros n' v' Hn'. rewrite nget_nset, SN, <- (S2 n' v' Hn'). destruct (Nat.eqb_spec n n') as [<-|Hnn].
          -- split; [intros [= <-]; auto|]. intros [Q|[_ ->]]; [congruence|reflexivity].
          -- split; [auto|]. intros [Q|[Q _]]; [exact Q|congruence].
        * rewrite nget_nset. destruct (Nat.eqb_spec n 0) as [->|Hn].
          -- split; [discriminate|]. intros Q. destruct (Q v). apply SN. auto.
          -- rewrite S3. split; intros Q v' Q'; [apply SN in Q' as [Q'|[Q' _]]; [exact (Q v' Q')|congruence]|]. apply (Q v'). apply SN. auto.
      + intros Hn w Hw. apply (S2 n w Hn) in Hw. congruence.
  Qed.
  Lemma prop_step key a : NoDup (dom a) -> match ensure_property (i_properties i) key a with
    | Ok ps' => props_are (fs ++ [(L, has_prop key a)]) L ps' /\ forall n v w, says_attr fs L key n v -> In (n, w) a -> v = w
    | Err e => e = AssertionError /\ exists n v w, says_attr fs L key n v /\ In (n, w) a /\ v <> w
    end.
  Proof.
    intros Ha. destruct HI as (_ & _ & (P1 & P2 & P3)). unfold ensure_property.
    assert (PN : forall key' a', In (L, has_prop key' a') (fs ++ [(L, has_prop key a)]) <-> In (L, has_prop key' a') fs \/ (key' = key /\ a' = a)).
    { intros key' a'. rewrite in_snoc. split; [intros [Q|[= -> ->]]; auto|intros [Q|[-> ->]]; auto]. }
    assert (AN : forall key' n v, says_attr (fs ++ [(L, has_prop key a)]) L key' n v <-> says_attr fs L key' n v \/ (key' = key /\ In (n, v) a)).
    { intros key' n v. unfold says_attr. split.
      - intros (a' & H1 & H2). apply PN in H1 as [H1|[-> ->]]; [left; eauto|auto].
      - intros [(a' & H1 & H2)|[-> H2]]; [exists a'|exists a]; rewrite PN; auto. }
    assert (G : forall n v, nget a n = Some v <-> In (n, v) a) by (intros n v; split; [apply nget_in|now apply in_nget]).
    assert (KEY : forall ps' m, nget ps' key = Some m -> (forall k, k <> key -> nget ps' k = nget (i_properties i) k) -> NoDup (map fst ps') -> NoDup (dom m) ->
              (forall n v, nget m n = Some v <-> says_attr (fs ++ [(L, has_prop key a)]) L key n v) -> props_are (fs ++ [(L, has_prop key a)]) L ps').
    { intros ps' m E1 E2 N1 N2 E3. split; [exact N1|]. split.
      - intros k. destruct (Nat.eq_dec k key) as [->|Hk].
        + rewrite E1. split; [intros _; exists a; apply PN; auto|discriminate].
        + rewrite (E2 k Hk), P2. split; intros (a' & Q); exists a'; [apply PN; auto|]. apply PN in Q as [Q|[Q _]]; [exact Q|contradiction].
      - intros k b Eb. destruct (Nat.eq_dec k key) as [->|Hk].
        + rewrite E1 in Eb. injection Eb as <-. split; [exact N2|exact E3].
        + rewrite (E2 k Hk) in Eb. destruct (P3 k b Eb) as [N A]. split; [exact N|]. intros n v. rewrite A, AN. split; [auto|]. intros [Q|[Q _]]; [exact Q|contradiction]. }
    destruct (nget (i_properties i) key) as [old|] eqn:E.
    - destruct (P3 key old E) as [No Ao]. pose proof (merge_spec old a No Ha) as M. destruct (merge_propAttrs old a) as [m|e]; cbn [bind].
      + destruct M as (Ag & Nm & U). split.
        * apply (KEY _ m); [apply nget_nset_same|intros k Hk; apply nget_nset_other; congruence|now apply nset_nodup|exact Nm|].
          intros n v. rewrite U, AN, <- Ao, <- G. destruct (nget old n) as [w|] eqn:Ew; [|tauto || (split; [auto|intros [Q|[_ Q]]; [discriminate|exact Q]])].
          split; [auto|]. intros [Q|[_ Q]]; [exact Q|]. rewrite (Ag n w v Ew Q). reflexivity.
        * intros n v w H1 H2. apply Ao in H1. apply G in H2. exact (Ag n v w H1 H2).
      + destruct M as [-> M]. split; [reflexivity|].
        assert (D : exists n v w, nget old n = Some v /\ nget a n = Some w /\ v <> w).
        { destruct (forallb (fun e => match nget a (fst e) with Some w => w =? snd e | None => true end) old) eqn:F.
          - exfalso. apply M. intros n v w H1 H2. rewrite forallb_forall in F. specialize (F (n, v) (nget_in _ _ _ H1)). cbn in F. rewrite H2 in F. apply Nat.eqb_eq in F. auto.
          - assert (exists x, In x old /\ (match nget a (fst x) with Some w => w =? snd x | None => true end) = false) as ((n & v) & Hin & Hf).
            { clear -F. induction old as [|x l IH]; cbn in F; [discriminate|]. destruct (match nget a (fst x) with Some w => w =? snd x | None => true end) eqn:Q; cbn in F.
              - destruct (IH F) as (y & H1 & H2). exists y. split; [now right|exact H2].
              - exists x. split; [now left|exact Q]. }
            cbn in Hf. destruct (nget a n) as [w|] eqn:Ew; [|discriminate]. apply Nat.eqb_neq in Hf. exists n, v, w. split; [now apply in_nget|]. split; [exact Ew|congruence]. }
        destruct D as (n & v & w & D1 & D2 & D3). exists n, v, w. split; [now apply Ao|]. split; [now apply G|exact D3].
    - assert (NP : forall a', ~ In (L, has_prop key a') fs) by (intros a' Q; destruct (proj2 (P2 key)); eauto).
      split.
      + apply (KEY _ a); [apply nget_nset_same|intros k Hk; apply nget_nset_other; congruence|now apply nset_nodup|exact Ha|].
        intros n v. rewrite AN, G. split; [auto|]. intros [(a' & Q & _)|[_ Q]]; [destruct (NP a' Q)|exact Q].
      + intros n v w (a' & Q & _) _. destruct (NP a' Q).
  Qed.
End Step.

Lemma other_says fs L L' f : L <> L' -> forall i, intr_is fs L' i -> intr_is (fs ++ [(L, f)]) L' i.
Proof.
  intros H i HI. assert (K : forall x, (L, f) <> (L', x)) by (intros x [= Q _]; contradiction). split; [|split].
  - apply (kind_keep fs L' i HI). auto.
  - apply (slots_keep fs L' i HI). auto.
  - apply (props_keep fs L' i HI). auto.
Qed.
Lemma new_is fs L : ~ In L (map fst fs) -> intr_is fs L new_intrinsic.
Proof.
  intros H. assert (N : forall f, ~ In (L, f) fs) by (intros f Q; apply H; now apply (in_map fst) in Q). split; [|split].
  - intros x. apply N.
  - split; [constructor|]. split; [intros n v _; split; [discriminate|intros Q; destruct (N _ Q)]|]. split; [intros _ v; apply N|reflexivity].
  - split; [constructor|]. split; [|intros key a; discriminate]. intros key. split; [intros Q; destruct (Q eq_refl)|]. intros (a & Q). destruct (N _ Q).
Qed.
Lemma consistent_sub fs fs' : incl fs fs' -> consistent fs' -> consistent fs.
Proof.
  intros HI H L. destruct (H L) as (H1 & H2 & H3). split; [|split].
  - intros a b Ha Hb. apply H1; now apply HI.
  - intros n v w Hn Hv Hw. apply (H2 n); [exact Hn|now apply HI|now apply HI].
  - intros key n v w (a & Ha & Ha') (b & Hb & Hb'). apply (H3 key n); [exists a|exists b]; auto.
Qed.

Lemma step_spec fs st L f : facts_wf (fs ++ [(L, f)]) -> consistent fs -> state_is fs st ->
  match (do i' <- apply_fact (match nget st L with Some i => i | None => new_intrinsic end) f ;; Ok (nset st L i')) with
  | Ok st' => state_is (fs ++ [(L, f)]) st' /\ consistent (fs ++ [(L, f)])
  | Err e => e = AssertionError /\ ~ consistent (fs ++ [(L, f)])
  end.
Proof.
  intros WF HC [SK SI]. set (i := match nget st L with Some i => i | None => new_intrinsic end).
  assert (HI : intr_is fs L i).
  { unfold i. destruct (nget st L) as [j|] eqn:E; [now apply SI|]. apply new_is. rewrite <- SK. now apply nget_none_keys. }
  assert (ST : forall i', intr_is (fs ++ [(L, f)]) L i' -> state_is (fs ++ [(L, f)]) (nset st L i')).
  { intros i' H. split.
    - intros L'. rewrite nset_keys. change (In L' (nadd L (map fst st)) <-> In L' (map fst (fs ++ [(L, f)]))). rewrite nadd_in, map_app, in_app_iff, SK. cbn. intuition.
    - intros L' j. rewrite nget_nset. destruct (Nat.eqb_spec L L') as [<-|Hne]; [intros [= <-]; exact H|]. intros Q. apply other_says; auto. }
  assert (CO : forall L', L <> L' -> (forall a b, says_kind (fs ++ [(L, f)]) L' a -> says_kind (fs ++ [(L, f)]) L' b -> kinds_agree a b) /\
     (forall n v w, n <> 0 -> says_slot (fs ++ [(L, f)]) L' n v -> says_slot (fs ++ [(L, f)]) L' n w -> v = w) /\
     (forall key n v w, says_attr (fs ++ [(L, f)]) L' key n v -> says_attr (fs ++ [(L, f)]) L' key n w -> v = w)).
  { intros L' Hne. assert (K : forall x, (L, f) <> (L', x)) by (intros x [= Q _]; contradiction). destruct (HC L') as (C1 & C2 & C3). split; [|split].
    - intros a b. rewrite !(kind_snoc fs L'); auto.
    - intros n v w Hn. rewrite !(slot_snoc fs L'); eauto.
    - intros key n v w. rewrite !(attr_snoc fs L'); eauto. }
  assert (CON : ((forall a b, says_kind (fs ++ [(L, f)]) L a -> says_kind (fs ++ [(L, f)]) L b -> kinds_agree a b) /\
     (forall n v w, n <> 0 -> says_slot (fs ++ [(L, f)]) L n v -> says_slot (fs ++ [(L, f)]) L n w -> v = w) /\
     (forall key n v w, says_attr (fs ++ [(L, f)]) L key n v -> says_attr (fs ++ [(L, f)]) L key n w -> v = w)) -> consistent (fs ++ [(L, f)])).
  { intros H L'. destruct (Nat.eq_dec L L') as [<-|Hne]; [exact H|now apply CO]. }
  destruct (HC L) as (C1 & C2 & C3). clear CO. unfold apply_fact. destruct f as [|k|n v|key a].
  - cbn [bind]. split.
    + apply ST. split; [|split]; [apply (kind_keep fs L i HI)|apply (slots_keep fs L i HI)|apply (props_keep fs L i HI)]; congruence.
    + apply CON. split; [|split].
      * intros a b. rewrite !kind_snoc by congruence. auto.
      * intros n v w Hn. rewrite !slot_snoc by congruence. eauto.
      * intros key n v w. rewrite !attr_snoc by congruence. eauto.
  - pose proof (kind_step fs L i HI HC k) as K. destruct (merge_kind (i_kind i) k) as [k'|e]; cbn [bind].
    + destruct K as [K1 K2]. split.
      * apply ST. split; [exact K1|]. split; [apply (slots_keep fs L i HI)|apply (props_keep fs L i HI)]; congruence.
      * apply CON. split; [|split].
        -- assert (Sy : forall a b, kinds_agree a b -> kinds_agree b a) by (unfold kinds_agree; intuition).
           intros a b Ha Hb. unfold says_kind in Ha, Hb. apply in_snoc in Ha, Hb. destruct Ha as [Ha|[= ->]], Hb as [Hb|[= ->]]; [now apply C1|now apply K2|apply Sy; now apply K2|now left].
        -- intros n v w Hn. rewrite !slot_snoc by congruence. eauto.
        -- intros key n v w. rewrite !attr_snoc by congruence. eauto.
    + destruct K as [-> (a & Ha & Hn)]. split; [reflexivity|]. intros Q. apply Hn. destruct (Q L) as (Q1 & _). apply Q1; unfold says_kind in *; apply in_snoc; auto.
  - pose proof (slot_step fs L i HI n v) as K. destruct (merge_slot (i_slots i) n v) as [s'|e]; cbn [bind].
    + destruct K as [K1 K2]. split.
      * apply ST. split; [apply (kind_keep fs L i HI); congruence|]. split; [exact K1|apply (props_keep fs L i HI); congruence].
      * apply CON. split; [|split].
        -- intros a b. rewrite !kind_snoc by congruence. auto.
        -- intros n' v' w' Hn Hv Hw. unfold says_slot in Hv, Hw. apply in_snoc in Hv, Hw. destruct Hv as [Hv|[= -> ->]], Hw as [Hw|Hw]; [now apply (C2 n')| | |congruence].
           ++ injection Hw as -> ->. now apply K2.
           ++ symmetry. now apply K2.
        -- intros key n' v' w'. rewrite !attr_snoc by congruence. eauto.
    + destruct K as (-> & Hn & w & Hw & Hne). split; [reflexivity|]. intros Q. apply Hne. destruct (Q L) as (_ & Q2 & _). apply (Q2 n); [exact Hn| |]; unfold says_slot in *; apply in_snoc; auto.
  - assert (Na : NoDup (dom a)) by (apply (WF L key a); apply in_snoc; auto).
    pose proof (prop_step fs L i HI key a Na) as K. destruct (ensure_property (i_properties i) key a) as [ps'|e]; cbn [bind].
    + destruct K as [K1 K2]. split.
      * apply ST. split; [apply (kind_keep fs L i HI); congruence|]. split; [apply (slots_keep fs L i HI); congruence|exact K1].
      * apply CON. split; [|split].
        -- intros a' b'. rewrite !kind_snoc by congruence. auto.
        -- intros n v w Hn. rewrite !slot_snoc by congruence. eauto.
        -- intros key' n v w (a1 & H1 & H1') (a2 & H2 & H2'). apply in_snoc in H1, H2. destruct H1 as [H1|H1], H2 as [H2|H2].
           ++ apply (C3 key' n); [exists a1|exists a2]; auto.
           ++ injection H2 as -> ->. apply (K2 n); [exists a1; auto|exact H2'].
           ++ injection H1 as -> ->. symmetry. apply (K2 n); [exists a2; auto|exact H1'].
           ++ injection H1 as -> ->. injection H2 as ->. apply (in_nget _ _ _ Na) in H1', H2'. congruence.
    + destruct K as (-> & n & v & w & (a1 & H1 & H1') & Hw & Hne). split; [reflexivity|]. intros Q. apply Hne. destruct (Q L) as (_ & _ & Q3). apply (Q3 key n); [exists a1|exists a]; (split; [apply in_snoc; auto|assumption]).
Qed.
Lemma coalesce_step st L f fs : coalesce st ((L, f) :: fs) = do st' <- (do i' <- apply_fact (match nget st L with Some i => i | None => new_intrinsic end) f ;; Ok (nset st L i')) ;; coalesce st' fs.
Proof. cbn [coalesce]. cbv zeta. destruct (apply_fact _ f); reflexivity. Qed.
Lemma coalesce_spec rest : forall fs st, facts_wf (fs ++ rest) -> consistent fs -> state_is fs st ->
  match coalesce st rest with
  | Ok st' => state_is (fs ++ rest) st' /\ consistent (fs ++ rest)
  | Err e => e = AssertionError /\ ~ consistent (fs ++ rest)
  end.
Proof.
  induction rest as [|[L f] rest IH]; intros fs st WF HC HS.
  - cbn [coalesce]. rewrite app_nil_r. auto.
  - rewrite coalesce_step. assert (EQ : fs ++ (L, f) :: rest = (fs ++ [(L, f)]) ++ rest) by (rewrite <- app_assoc; reflexivity). rewrite EQ in *.
    assert (WF1 : facts_wf (fs ++ [(L, f)])) by (intros L' key a Q; apply (WF L' key a); apply in_or_app; now left).
    pose proof (step_spec fs st L f WF1 HC HS) as K.
    destruct (do i' <- apply_fact (match nget st L with Some i => i | None => new_intrinsic end) f ;; Ok (nset st L i')) as [st'|e]; cbn [bind].
    + destruct K as [K1 K2]. apply IH; auto.
    + destruct K as [-> K]. split; [reflexivity|]. intros Q. apply K. eapply consistent_sub; [|exact Q]. intros x Hx. apply in_or_app. now left.
Qed.
Lemma coalesce_start fs : facts_wf fs -> match coalesce [] fs with
  | Ok st => state_is fs st /\ consistent fs
  | Err e => e = AssertionError /\ ~ consistent fs
  end.
Proof.
  intros WF. apply (coalesce_spec fs [] []); [exact WF| |].
  - intros L. split; [intros a b []|]. split; [intros n v w _ []|]. intros key n v w (a & [] & _).
  - split; [cbn; tauto|]. intros L i. discriminate.
Qed.
Lemma perm_wf fs fs' : (forall x, In x fs <-> In x fs') -> facts_wf fs -> facts_wf fs'.
Proof. intros H WF L key a Q. apply (WF L key a). now apply H. Qed.

(* ---- defaults ---- *)

Lemma fill_get d : forall a n, nget (fill a d) n = match nget a n with Some v => Some v | None => nget d n end.
Proof.
  induction d as [|[k v] d IH]; intros a n; cbn [fill nget]; [now destruct (nget a n)|]. rewrite IH. destruct (nget a k) as [w|] eqn:E.
  - destruct (nget a n) eqn:E'; [reflexivity|]. destruct (Nat.eqb_spec k n) as [->|]; [congruence|reflexivity].
  - rewrite nget_nset. destruct (Nat.eqb_spec k n) as [->|]; [now rewrite E|reflexivity].
Qed.
Definition defaults_of (pk : pkind) : attrs :=
  match pk with
  | data => [(1, 1); (4, 0); (5, 1)]
  | accessor => [(4, 0); (5, 1)]
  | unknown => []
  end.
Lemma default_props_get k keys : NoDup keys -> forall ps ps', default_props k keys ps = Ok ps' ->
  (forall key, ~ In key keys \/ (nmem key [0; 1] && is_function k = true) -> nget ps' key = nget ps key) /\
  (forall key, In key keys -> nmem key [0; 1] && is_function k = false -> exists a pk, nget ps key = Some a /\ prop_kind a = Ok pk /\ nget ps' key = Some (fill a (defaults_of pk))).
Proof.
  induction 1 as [|key keys Hk HN IH]; intros ps ps'; cbn [default_props].
  - intros [= <-]. split; [auto|intros key []].
  - destruct (nmem key [0; 1] && is_function k) eqn:E.
    + intros H. apply IH in H as [H1 H2]. split.
      * intros key' [Q|Q]; apply H1; [left; intros Q'; apply Q; now right|auto].
      * intros key' [<-|Q] Q'; [congruence|auto].
    + intros H. apply bind_ok in H as (a & Ea & H). unfold nidx in Ea. destruct (nget ps key) as [a0|] eqn:Eg; [|discriminate]. injection Ea as ->.
      apply bind_ok in H as (pk & Ek & H). apply bind_ok in H as (ps1 & E1 & H). unfold apply_defaults_for_property in E1. rewrite Eg in E1. injection E1 as <-. apply IH in H as [H1 H2]. split.
      * intros key' Q. assert (key' <> key) by (intros ->; destruct Q as [Q|Q]; [apply Q; now left|congruence]). rewrite H1, nget_nset_other; [reflexivity|congruence|]. destruct Q as [Q|Q]; [left; intros Q'; apply Q; now right|auto].
      * intros key' [<-|Q] Q'.
        -- exists a, pk. split; [exact Eg|]. split; [exact Ek|]. rewrite H1 by (now left). rewrite nget_nset_same. destruct pk; reflexivity.
        -- destruct (H2 key' Q Q') as (a' & pk' & F1 & F2 & F3). rewrite nget_nset_other in F1 by (intros ->; contradiction). eauto.
Qed.
Lemma apply_one ps key d ps' : apply_defaults_for_property ps key d = Ok ps' ->
  nget ps' key = Some (match nget ps key with Some a => fill a d | None => d end) /\ (forall k, k <> key -> nget ps' k = nget ps k) /\ (NoDup (map fst ps) -> NoDup (map fst ps')).
Proof.
  unfold apply_defaults_for_property, ensure_property. destruct (nget ps key) as [a|] eqn:E.
  - intros [= <-]. split; [apply nget_nset_same|]. split; [intros k Hk; apply nget_nset_other; congruence|apply nset_nodup].
  - intros H. apply bind_ok in H as (u & _ & [= <-]). split; [apply nget_nset_same|]. split; [intros k Hk; apply nget_nset_other; congruence|apply nset_nodup].
Qed.

(* ---- creation order ---- *)

Section Ranks.
  Variable all : list cintr.
  Hypothesis HN : NoDup (map c_name all).
  (* the length of the chain of prototypes *)
  Inductive rank_of : cintr -> nat -> Prop :=
  | rk_null i : c_proto i = Some P_null -> rank_of i 0
  | rk_host i : c_proto i = Some P_host_defined -> rank_of i 0
  | rk_named i p j k : c_proto i = Some (P_named p) -> In j all -> c_name j = p -> rank_of j k -> rank_of i (S k).
  Lemma name_inj i j : In i all -> In j all -> c_name i = c_name j -> i = j.
  Proof.
    clear -HN. induction all as [|x l IH]; [intros []|]. cbn in HN. inversion HN as [|? ? Hx Hl]; subst. intros [<-|Hi] [<-|Hj] E; auto.
    - destruct Hx. rewrite E. now apply in_map.
    - destruct Hx. rewrite <- E. now apply in_map.
  Qed.
  Lemma rank_fun i a : rank_of i a -> forall b, rank_of i b -> a = b.
  Proof.
    induction 1 as [i E|i E|i p j k E Hj En Hr IH]; intros b Hb; inversion Hb as [i' E'|i' E'|i' p' j' k' E' Hj' En' Hr']; subst; try congruence; try reflexivity.
    f_equal. rewrite E in E'. injection E' as E'. assert (j = j') as <- by (apply name_inj; auto). now apply IH.
  Qed.
  Definition memo_ok (memo : list (nat * nat)) : Prop := forall n r, nget memo n = Some r -> exists i, In i all /\ c_name i = n /\ rank_of i r.
  Lemma memo_set memo i r : memo_ok memo -> In i all -> rank_of i r -> memo_ok (nset memo (c_name i) r).
  Proof. intros HM Hi Hr n r'. rewrite nget_nset. destruct (Nat.eqb_spec (c_name i) n) as [<-|]; [intros [= <-]; eauto|apply HM]. Qed.
  Lemma find_in p j : find (fun j => c_name j =? p) all = Some j <-> In j all /\ c_name j = p.
  Proof.
    split; [intros H; apply find_some in H as [H1 H2]; apply Nat.eqb_eq in H2; auto|]. intros [H1 H2]. destruct (find (fun j => c_name j =? p) all) as [j'|] eqn:F.
    - apply find_some in F as [F1 F2]. apply Nat.eqb_eq in F2. f_equal. apply name_inj; congruence.
    - apply find_none with (x := j) in F; [|exact H1]. cbn in F. apply Nat.eqb_neq in F. contradiction.
  Qed.
  Lemma rank_sound fuel : forall memo i r m, memo_ok memo -> In i all -> get_creation_rank fuel all memo i = Ok (r, m) -> rank_of i r /\ memo_ok m.
  Proof.
    induction fuel as [|fuel IH]; intros memo i r m HM Hi; cbn [get_creation_rank]; [discriminate|]. destruct (nget memo (c_name i)) as [r0|] eqn:E.
    - intros [= -> ->]. split; [|exact HM]. destruct (HM _ _ E) as (j & Hj & En & Hr). now rewrite (name_inj i j Hi Hj (eq_sym En)).
    - destruct (c_proto i) as [[| |p]|] eqn:Ep; [| | |discriminate].
      + intros [= <- <-]. assert (rank_of i 0) by now constructor. split; [assumption|now apply memo_set].
      + intros [= <- <-]. assert (rank_of i 0) by (now apply rk_host). split; [assumption|now apply memo_set].
      + destruct (find (fun j => c_name j =? p) all) as [j|] eqn:F; [|discriminate]. apply find_in in F as [F1 F2]. intros H. apply bind_ok in H as ([r' m'] & E' & [= <- <-]). cbn [fst snd] in *.
        apply IH in E' as [R M]; auto. assert (rank_of i (S r')) by exact (rk_named i p j r' Ep F1 F2 R). split; [assumption|now apply memo_set].
  Qed.
  Lemma rank_complete i k : rank_of i k -> forall fuel memo, In i all -> memo_ok memo -> k < fuel -> exists m, get_creation_rank fuel all memo i = Ok (k, m) /\ memo_ok m.
  Proof.
    induction 1 as [i E|i E|i p j k E Hj En Hr IH]; intros fuel memo Hi HM HF; (destruct fuel as [|fuel]; [lia|]); cbn [get_creation_rank]; destruct (nget memo (c_name i)) as [r0|] eqn:Em.
    1,3,5: destruct (HM _ _ Em) as (i' & Hi' & En' & Hr'); exists memo; rewrite <- (name_inj i i' Hi Hi' (eq_sym En')) in Hr'; split; [|exact HM]; f_equal; f_equal; eapply rank_fun; [exact Hr'|].
    - now constructor.
    - now apply rk_host.
    - exact (rk_named i p j k E Hj En Hr).
    - rewrite E. eexists. split; [reflexivity|]. apply memo_set; auto. now constructor.
    - rewrite E. eexists. split; [reflexivity|]. apply memo_set; auto. now apply rk_host.
    - rewrite E, (proj2 (find_in p j)) by auto. destruct (IH fuel memo Hj HM) as (m & -> & HM'); [lia|]. cbn [bind fst snd]. eexists. split; [reflexivity|]. apply memo_set; auto. exact (rk_named i p j k E Hj En Hr).
  Qed.
  (* a rank is less than the number of intrinsics *)
  Lemma rank_chain i k : rank_of i k -> In i all -> exists l, NoDup l /\ incl l all /\ length l = S k /\ forall x, In x l -> exists r, r <= k /\ rank_of x r.
  Proof.
    induction 1 as [i E|i E|i p j k E Hj En Hr IH]; intros Hi.
    - exists [i]. split; [repeat constructor; intros []|]. split; [intros x [<-|[]]; exact Hi|]. split; [reflexivity|]. intros x [<-|[]]. exists 0. split; [lia|now constructor].
    - exists [i]. split; [repeat constructor; intros []|]. split; [intros x [<-|[]]; exact Hi|]. split; [reflexivity|]. intros x [<-|[]]. exists 0. split; [lia|now apply rk_host].
    - destruct (IH Hj) as (l & L1 & L2 & L3 & L4). assert (Hri : rank_of i (S k)) by exact (rk_named i p j k E Hj En Hr). exists (i :: l). split.
      + constructor; [|exact L1]. intros Q. apply L4 in Q as (r & Hle & Hr'). pose proof (rank_fun _ _ Hri _ Hr'). lia.
      + split; [intros x [<-|Hx]; [exact Hi|now apply L2]|]. split; [cbn; now rewrite L3|]. intros x [<-|Hx]; [exists (S k); auto|]. destruct (L4 x Hx) as (r & Hle & Hr'). exists r. split; [lia|exact Hr'].
  Qed.
  Lemma rank_bound i k : rank_of i k -> In i all -> k < length all.
  Proof. intros Hr Hi. destruct (rank_chain i k Hr Hi) as (l & L1 & L2 & L3 & _). pose proof (NoDup_incl_length L1 L2). lia. Qed.

  (* groups *)
  Definition groups_ok (groups : list (nat * list cintr)) (l : list cintr) : Prop :=
    NoDup (map fst groups) /\ Permutation (flat_map snd groups) l /\ forall r g i, In (r, g) groups -> In i g -> rank_of i r.
  Lemma nset_append (groups : list (nat * list cintr)) (r : nat) (i : cintr) : Permutation (flat_map snd (nset groups r ((match nget groups r with Some g => g | None => [] end) ++ [i]))) (flat_map snd groups ++ [i]).
  Proof.
    induction groups as [|[r' g'] groups IH]; cbn [nget nset flat_map snd].
    - now cbn.
    - destruct (r' =? r) eqn:E; cbn [flat_map snd].
      + rewrite <- !app_assoc. apply Permutation_app_head, Permutation_app_comm.
      + rewrite <- app_assoc. apply Permutation_app_head. exact IH.
  Qed.
  Lemma in_nset {V} (d : list (nat * V)) k v k' v' : In (k', v') (nset d k v) -> (k' = k /\ v' = v) \/ In (k', v') d.
  Proof.
    induction d as [|[k0 v0] d IH]; cbn [nset]; [intros [[= -> ->]|[]]; auto|]. destruct (Nat.eqb_spec k0 k) as [->|Hne].
    - intros [[= -> ->]|H]; [auto|right; now right].
    - intros [[= -> ->]|H]; [right; now left|]. destruct (IH H) as [Q|Q]; [auto|right; now right].
  Qed.
  Lemma groups_add (groups : list (nat * list cintr)) (l : list cintr) (i : cintr) (r : nat) : groups_ok groups l -> rank_of i r -> groups_ok (nset groups r ((match nget groups r with Some g => g | None => [] end) ++ [i])) (l ++ [i]).
  Proof.
    intros (G1 & G2 & G3) Hr. split; [now apply nset_nodup|]. split; [rewrite nset_append; now apply Permutation_app_tail|].
    intros r' g' x H Hx. apply in_nset in H as [[-> ->]|H]; [|eauto]. apply in_app_iff in Hx as [Hx|[<-|[]]]; [|exact Hr]. destruct (nget groups r) as [g|] eqn:E; [|destruct Hx]. apply nget_in in E. eauto.
  Qed.
  Lemma group_sound fuel rest : forall memo done groups groups', incl rest all -> memo_ok memo -> groups_ok groups done -> group_by_rank fuel all memo rest groups = Ok groups' ->
    groups_ok groups' (done ++ rest) /\ forall i, In i rest -> exists r, rank_of i r.
  Proof.
    induction rest as [|i rest IH]; intros memo done groups groups' HI HM HG; cbn [group_by_rank].
    - intros [= <-]. rewrite app_nil_r. split; [exact HG|intros i []].
    - intros H. apply bind_ok in H as ([r m] & Er & H). cbn [fst snd] in H. assert (Hi : In i all) by (apply HI; now left). apply rank_sound in Er as [Hr HM']; auto.
      apply (IH m (done ++ [i])) in H as [H1 H2]; [|intros x Hx; apply HI; now right|exact HM'|now apply groups_add]. rewrite <- app_assoc in H1. split; [exact H1|]. intros x [<-|Hx]; eauto.
  Qed.
  Lemma group_complete fuel rest : (forall i, In i all -> exists r, rank_of i r) -> length all <= fuel -> forall memo groups, incl rest all -> memo_ok memo -> exists groups', group_by_rank fuel all memo rest groups = Ok groups'.
  Proof.
    intros HR HF. induction rest as [|i rest IH]; intros memo groups HI HM; cbn [group_by_rank]; [eauto|]. assert (Hi : In i all) by (apply HI; now left). destruct (HR i Hi) as (r & Hr).
    destruct (rank_complete i r Hr fuel memo Hi HM) as (m & -> & HM'); [pose proof (rank_bound i r Hr Hi); lia|]. cbn [bind fst snd]. apply IH; [intros x Hx; apply HI; now right|exact HM'].
  Qed.
  Definition before (a b : cintr) : Prop := exists ra rb, rank_of a ra /\ rank_of b rb /\ (ra < rb \/ ra = rb /\ c_name a <= c_name b).
  Lemma SS_app {A} (R : A -> A -> Prop) l l' : StronglySorted R l -> StronglySorted R l' -> (forall x y, In x l -> In y l' -> R x y) -> StronglySorted R (l ++ l').
  Proof.
    induction 1 as [|x l H IH HF]; cbn; intros H' HR; [exact H'|]. constructor; [apply IH; auto|]. apply Forall_app. split; [exact HF|]. apply Forall_forall. auto.
  Qed.
  Lemma order_sound groups l : groups_ok groups l ->
    let r := flat_map (fun g => isort (fun a b => c_name a <=? c_name b) (snd g)) (isort (fun a b => fst a <=? fst b) groups) in
    Permutation r l /\ StronglySorted before r.
  Proof.
    intros (G1 & G2 & G3) r. set (le := fun a b : cintr => c_name a <=? c_name b) in *. set (leg := fun a b : nat * list cintr => fst a <=? fst b) in *.
    assert (P1 : forall gs : list (nat * list cintr), Permutation (flat_map (fun g => isort le (snd g)) gs) (flat_map snd gs)).
    { induction gs as [|g gs IH]; cbn; [constructor|]. apply Permutation_app; [apply isort_perm|exact IH]. }
    assert (P2 : forall gs gs' : list (nat * list cintr), Permutation gs gs' -> Permutation (flat_map snd gs) (flat_map snd gs')).
    { induction 1; cbn; [constructor|now apply Permutation_app_head| |etransitivity; eassumption]. rewrite !app_assoc. apply Permutation_app_tail, Permutation_app_comm. }
    split.
    - unfold r. rewrite P1. rewrite (P2 _ _ (isort_perm leg groups)). exact G2.
    - assert (T : forall x y, le x y = true \/ le y x = true) by (intros x y; unfold le; rewrite !Nat.leb_le; lia).
      assert (Tr : forall x y z, le x y = true -> le y z = true -> le x z = true) by (intros x y z; unfold le; rewrite !Nat.leb_le; lia).
      assert (T' : forall x y, leg x y = true \/ leg y x = true) by (intros x y; unfold leg; rewrite !Nat.leb_le; lia).
      assert (Tr' : forall x y z, leg x y = true -> leg y z = true -> leg x z = true) by (intros x y z; unfold leg; rewrite !Nat.leb_le; lia).
      pose proof (isort_sorted leg T' Tr' groups) as SG. assert (PG := isort_perm leg groups).
      assert (ND : NoDup (map fst (isort leg groups))) by (eapply Permutation_NoDup; [apply Permutation_map, Permutation_sym, PG|exact G1]).
      assert (GR : forall rr g i, In (rr, g) (isort leg groups) -> In i g -> rank_of i rr) by (intros rr g i H; apply G3; now apply (Permutation_in _ PG)).
      unfold r. clear -SG ND GR T Tr. induction SG as [|[rr g] gs SG IH HF]; cbn [flat_map snd]; [constructor|]. cbn in ND. inversion ND as [|? ? Hn ND']; subst. apply SS_app.
      + assert (GI : forall x, In x (isort le g) -> rank_of x rr) by (intros x Hx; apply (GR rr g); [now left|now apply (Permutation_in _ (isort_perm le g))]).
        pose proof (isort_sorted le T Tr g) as SS. clear -SS GI. induction SS as [|x l SS IHs HF]; constructor; [apply IHs; intros; apply GI; now right|]. rewrite Forall_forall in *. intros y Hy. specialize (HF y Hy).
        unfold le in HF. apply Nat.leb_le in HF. exists rr, rr. split; [apply GI; now left|]. split; [apply GI; now right|]. right. auto.
      + apply IH; [exact ND'|]. intros r0 g0 i0 H. apply GR. now right.
      + intros x y Hx Hy. apply (Permutation_in _ (isort_perm le g)) in Hx. apply in_flat_map in Hy as ([rr' g'] & Hg & Hy). cbn in Hy. apply (Permutation_in _ (isort_perm le g')) in Hy.
        exists rr, rr'. split; [apply (GR rr g); [now left|exact Hx]|]. split; [apply (GR rr' g'); [now right|exact Hy]|]. left. rewrite Forall_forall in HF. specialize (HF _ Hg). unfold leg in HF. cbn in HF. apply Nat.leb_le in HF.
        destruct (Nat.eq_dec rr rr') as [->|]; [|lia]. exfalso. apply Hn. now apply (in_map fst) in Hg.
  Qed.
End Ranks.
