(* Properties C38, C39, C43, C45: facts about the intrinsic objects and their creation order. *)
From Verif Require Import M_Base L_Base M_Dict L_Dict M_Intrinsics L_Intrinsics.

(* ---- C38 ---- *)

(* every intrinsic occurs once; they are in the order of the lengths of their prototype chains, then of their names *)
Theorem C38_order : forall fuel all l, NoDup (map c_name all) -> determine_creation_order fuel all = Ok l ->
  Permutation l all /\ StronglySorted (before all) l.
Proof.
  intros fuel all l HN H. unfold determine_creation_order in H. apply bind_ok in H as (groups & E & [= <-]).
  apply (group_sound all HN fuel all [] [] [] groups) in E as [G _].
  - exact (order_sound all groups all G).
  - apply incl_refl.
  - intros n r. discriminate.
  - split; [constructor|]. split; [constructor|]. intros r g i [].
Qed.
Print Assumptions C38_order.
(* every intrinsic comes after its prototype *)
Theorem C38_prototype_first : forall fuel all l a x b p, NoDup (map c_name all) -> determine_creation_order fuel all = Ok l ->
  l = a ++ x :: b -> c_proto x = Some (P_named p) -> exists y, In y a /\ c_name y = p.
Proof.
  intros fuel all l a x b p HN H E Hp. destruct (C38_order fuel all l HN H) as [HP HS].
  assert (Hx : exists r, rank_of all x r).
  { unfold determine_creation_order in H. apply bind_ok in H as (groups & Eg & _).
    apply (group_sound all HN fuel all [] [] [] groups) in Eg as [_ G]; [|apply incl_refl|intros n r; discriminate|split; [constructor|]; split; [constructor|]; intros r g i []].
    apply G. apply (Permutation_in _ HP). rewrite E. apply in_or_app. right. now left. }
  destruct Hx as (r & Hr). inversion Hr as [? Q|? Q|? p' y k Q Hy En Hk]; subst; try congruence. rewrite Hp in Q. injection Q as Q. subst p.
  exists y. split; [|reflexivity]. assert (In y (a ++ x :: b)) as Hin by now apply (Permutation_in _ (Permutation_sym HP)).
  apply in_app_iff in Hin as [Hin|[<-|Hin]]; [exact Hin| |]; exfalso.
  - pose proof (rank_fun all HN _ _ Hr _ Hk). lia.
  - assert (SB : StronglySorted (before all) (x :: b)).
    { clear -HS. induction a as [|z a IH]; [exact HS|]. cbn in HS. inversion HS; subst. now apply IH. }
    inversion SB as [|? ? _ HF]; subst. rewrite Forall_forall in HF. destruct (HF y Hin) as (ra & rb & R1 & R2 & R3). pose proof (rank_fun all HN _ _ Hr _ R1). pose proof (rank_fun all HN _ _ Hk _ R2). lia.
Qed.
Print Assumptions C38_prototype_first.
(* it succeeds exactly if every chain of prototypes ends: none of them cyclic, unknown or not given *)
Theorem C38_success : forall fuel all, NoDup (map c_name all) -> length all <= fuel ->
  (exists l, determine_creation_order fuel all = Ok l) <-> forall i, In i all -> exists k, rank_of all i k.
Proof.
  intros fuel all HN HF. unfold determine_creation_order. split.
  - intros (l & H). apply bind_ok in H as (groups & E & _).
    apply (group_sound all HN fuel all [] [] [] groups) in E as [_ G]; [exact G|apply incl_refl|intros n r; discriminate|split; [constructor|]; split; [constructor|]; intros r g i []].
  - intros HR. destruct (group_complete all HN fuel all HR HF [] []) as (groups & ->); [apply incl_refl|intros n r; discriminate|]. cbn. eauto.
Qed.
Print Assumptions C38_success.
(* on a cycle it does not come to an end, whatever the fuel *)
Theorem C38_cycle : forall fuel all, NoDup (map c_name all) -> (exists i, In i all /\ forall k, ~ rank_of all i k) -> forall l, determine_creation_order fuel all <> Ok l.
Proof.
  intros fuel all HN (i & Hi & HR) l H. unfold determine_creation_order in H. apply bind_ok in H as (groups & E & _).
  apply (group_sound all HN fuel all [] [] [] groups) in E as [_ G]; [|apply incl_refl|intros n r; discriminate|split; [constructor|]; split; [constructor|]; intros r g j []].
  destruct (G i Hi) as (r & Hr). exact (HR r Hr).
Qed.
Print Assumptions C38_cycle.
Definition ex_all : list cintr := [mkC 5 (Some (P_named 3)); mkC 4 (Some (P_named 9)); mkC 3 (Some (P_named 9)); mkC 9 (Some P_null); mkC 1 (Some P_host_defined)].
Example C38_ex : NoDup (map c_name ex_all) /\ exists l, determine_creation_order 5 ex_all = Ok l /\ map c_name l = [1; 9; 3; 4; 5].
Proof. split; [repeat constructor; cbn; intuition discriminate|]. eexists. split; reflexivity. Qed.
Definition ex_cyclic : list cintr := [mkC 1 (Some (P_named 2)); mkC 2 (Some (P_named 1))].
Example C38_ex_cycle : exists i, In i ex_cyclic /\ forall k, ~ rank_of ex_cyclic i k.
Proof.
  assert (H : forall k i, In i ex_cyclic -> ~ rank_of ex_cyclic i k).
  { induction k as [|k IH]; intros i Hi Hr; inversion Hr as [? Q|? Q|? p j k' Q Hj En Hk]; subst.
    - destruct Hi as [<-|[<-|[]]]; discriminate.
    - destruct Hi as [<-|[<-|[]]]; discriminate.
    - exact (IH j Hj Hk). }
  exists (mkC 1 (Some (P_named 2))). split; [now left|]. intros k. apply H. now left.
Qed.

(* ---- C39 ---- *)

(* merging attributes fails exactly on a disagreement, by assertion, and otherwise gives the union *)
Theorem C39_merge : forall a b, NoDup (map fst a) -> NoDup (map fst b) ->
  match merge_propAttrs a b with
  | Ok r => NoDup (map fst r) /\ forall n v, In (n, v) r <-> In (n, v) a \/ In (n, v) b
  | Err e => e = AssertionError /\ ~ forall n v w, In (n, v) a -> In (n, w) b -> v = w
  end /\ ((forall n v w, In (n, v) a -> In (n, w) b -> v = w) -> exists r, merge_propAttrs a b = Ok r).
Proof.
  intros a b Ha Hb. pose proof (merge_spec a b Ha Hb) as M.
  assert (G : forall d : attrs, NoDup (map fst d) -> forall n v, nget d n = Some v <-> In (n, v) d) by (intros d Hd n v; split; [apply nget_in|now apply in_nget]).
  assert (A : agree a b <-> forall n v w, In (n, v) a -> In (n, w) b -> v = w).
  { split; intros H n v w H1 H2; apply (H n); now apply G. }
  destruct (merge_propAttrs a b) as [r|e].
  - destruct M as (M1 & M2 & M3). split; [|eauto]. split; [exact M2|]. intros n v. rewrite <- (G r M2), <- (G a Ha), <- (G b Hb), M3. destruct (nget a n) as [w|] eqn:E.
    + split; [auto|]. intros [Q|Q]; [exact Q|]. rewrite (M1 n w v E Q). reflexivity.
    + split; [auto|]. intros [Q|Q]; [discriminate|exact Q].
  - destruct M as [-> M]. rewrite A in M. split; [auto|]. intros Q. contradiction.
Qed.
Print Assumptions C39_merge.
Example C39_ex : merge_propAttrs [(0, 7); (4, 0)] [(4, 0); (5, 1)] = Ok [(0, 7); (4, 0); (5, 1)] /\ merge_propAttrs [(0, 7); (4, 0)] [(4, 1)] = Err AssertionError.
Proof. split; reflexivity. Qed.
(* attributes of a data property can be merged with those of an accessor property, each allowed for itself; the result has no kind *)
Theorem C39_mixed_refuted : exists a b r, S_Property_ok a = true /\ S_Property_ok b = true /\ merge_propAttrs a b = Ok r /\ S_Property_ok r = false /\ prop_kind r = Err AssertionError.
Proof. exists [(0, 7)], [(2, 8)], [(0, 7); (2, 8)]. repeat split; reflexivity. Qed.
Print Assumptions C39_mixed_refuted.
(* a set of attributes that passed the check at creation always has a kind *)
Theorem C39_kind : forall a, S_Property_ok a = true -> exists k, prop_kind a = Ok k.
Proof.
  intros a H. unfold prop_kind. cbv zeta. assert (negb ((nmem 0 (map fst a) || nmem 1 (map fst a)) && (nmem 2 (map fst a) || nmem 3 (map fst a))) = true) as ->; [|cbn; eauto].
  apply negb_true_iff, not_true_is_false. intros Q. apply andb_true_iff in Q as [Q1 Q2]. apply orb_true_iff in H as [H|H]; rewrite forallb_forall in H.
  - apply orb_true_iff in Q2 as [Q2|Q2]; apply nmem_in in Q2; specialize (H _ Q2); discriminate.
  - apply orb_true_iff in Q1 as [Q1|Q1]; apply nmem_in in Q1; specialize (H _ Q1); discriminate.
Qed.
Print Assumptions C39_kind.
Example C39_ex_kind : S_Property_ok [(0, 7); (5, 1)] = true /\ prop_kind [(0, 7); (5, 1)] = Ok data.
Proof. split; reflexivity. Qed.

(* ---- C43 ---- *)

(* coalescing succeeds exactly if no two facts conflict (a function object may be a constructor; the values of [[ccb]] are not compared) *)
Theorem C43_success : forall fs, facts_wf fs -> ((exists st, coalesce [] fs = Ok st) <-> consistent fs) /\ (~ consistent fs -> coalesce [] fs = Err AssertionError).
Proof.
  intros fs WF. pose proof (coalesce_start fs WF) as C. destruct (coalesce [] fs) as [st|e].
  - destruct C as [_ C]. split; [split; eauto|]. intros Q. contradiction.
  - destruct C as [-> C]. split; [split; [intros (st & Q); discriminate|intros Q; contradiction]|]. reflexivity.
Qed.
Print Assumptions C43_success.
(* the result: an entry per subject, with exactly what the facts say *)
Theorem C43_exact : forall fs st, facts_wf fs -> coalesce [] fs = Ok st ->
  (forall L, nget st L <> None <-> exists f, In (L, f) fs) /\
  forall L i, nget st L = Some i ->
    (forall k, i_kind i = Some k <-> In (L, is_ k) fs /\ (In (L, is_ 0) fs -> k = 0)) /\
    (forall n v, n <> 0 -> nget (i_slots i) n = Some v <-> In (L, has_slot n v) fs) /\
    (forall key, nget (i_properties i) key <> None <-> exists a, In (L, has_prop key a) fs) /\
    (forall key a n v, nget (i_properties i) key = Some a -> In (n, v) a <-> exists b, In (L, has_prop key b) fs /\ In (n, v) b).
Proof.
  intros fs st WF E. pose proof (coalesce_start fs WF) as C. rewrite E in C. destruct C as [[S1 S2] C]. split.
  - intros L. rewrite nget_keys, S1, in_map_iff. split; [intros ((L' & f) & <- & H); eauto|]. intros (f & H). exists (L, f). auto.
  - intros L i Hi. destruct (S2 L i Hi) as (K & (Sa & Sb & Sc) & (Pa & Pb & Pc)). split; [|split; [|split]].
    + intros k. unfold kind_is in K. destruct (i_kind i) as [k0|].
      * destruct K as [K1 K2]. split; [intros [= <-]; auto|]. intros [H1 H2]. destruct (C L) as (C1 & _). destruct (C1 k0 k K1 H1) as [->|[[-> ->]|[-> ->]]]; [reflexivity| |].
        -- specialize (H2 K1). discriminate.
        -- specialize (K2 H1). discriminate.
      * split; [discriminate|]. intros [H _]. destruct (K k H).
    + exact Sb.
    + exact Pb.
    + intros key a n v Ha. destruct (Pc key a Ha) as [Na A]. rewrite <- (A n v). split; [now apply in_nget|apply nget_in].
Qed.
Print Assumptions C43_exact.
(* so the order of the facts does not matter, [[ccb]] aside *)
Theorem C43_order : forall fs fs' st, facts_wf fs -> Permutation fs fs' -> coalesce [] fs = Ok st ->
  exists st', coalesce [] fs' = Ok st' /\ forall L, match nget st L, nget st' L with
    | Some i, Some i' => i_kind i = i_kind i' /\ (forall n, n <> 0 -> nget (i_slots i) n = nget (i_slots i') n) /\
        forall key, match nget (i_properties i) key, nget (i_properties i') key with
                    | Some a, Some a' => forall n v, In (n, v) a <-> In (n, v) a'
                    | None, None => True
                    | _, _ => False
                    end
    | None, None => True
    | _, _ => False
    end.
Proof.
  intros fs fs' st WF HP E. assert (HIn : forall x, In x fs <-> In x fs') by (intros x; split; apply Permutation_in; [exact HP|now apply Permutation_sym]).
  assert (WF' := perm_wf fs fs' HIn WF).
  assert (C' : consistent fs').
  { eapply consistent_sub; [|apply C43_success; [exact WF|eauto]]. intros x. apply HIn. }
  apply C43_success in C' as (st' & E'); [|exact WF']. exists st'. split; [exact E'|].
  destruct (C43_exact fs st WF E) as [X1 X2]. destruct (C43_exact fs' st' WF' E') as [Y1 Y2]. intros L. specialize (X1 L). specialize (Y1 L). specialize (X2 L). specialize (Y2 L).
  assert (S : (exists f, In (L, f) fs) <-> exists f, In (L, f) fs') by (split; intros (f & H); exists f; now apply HIn).
  destruct (nget st L) as [i|], (nget st' L) as [i'|].
  - destruct (X2 i eq_refl) as (Xa & Xb & Xc & Xd). destruct (Y2 i' eq_refl) as (Ya & Yb & Yc & Yd). split; [|split].
    + assert (KK : forall k, i_kind i = Some k <-> i_kind i' = Some k) by (intros k; rewrite Xa, Ya, !HIn; reflexivity).
      destruct (i_kind i) as [k|]; [symmetry; now apply KK|]. destruct (i_kind i') as [k|]; [|reflexivity]. apply KK. reflexivity.
    + intros n Hn. assert (VV : forall v, nget (i_slots i) n = Some v <-> nget (i_slots i') n = Some v) by (intros v; rewrite (Xb n v Hn), (Yb n v Hn), HIn; reflexivity).
      destruct (nget (i_slots i) n) as [v|]; [symmetry; now apply VV|]. destruct (nget (i_slots i') n) as [v|]; [|reflexivity]. apply VV. reflexivity.
    + intros key. assert (PP : nget (i_properties i) key <> None <-> nget (i_properties i') key <> None).
      { rewrite Xc, Yc. split; intros (a & Q); exists a; now apply HIn. }
      specialize (Xd key). specialize (Yd key). destruct (nget (i_properties i) key) as [a|], (nget (i_properties i') key) as [a'|].
      * intros n v. rewrite (Xd a n v eq_refl), (Yd a' n v eq_refl). split; intros (b & Q & Q'); exists b; (split; [now apply HIn|exact Q']).
      * destruct PP as [PP _]. apply PP; [discriminate|reflexivity].
      * destruct PP as [_ PP]. apply PP; [discriminate|reflexivity].
      * exact I.
  - destruct Y1 as [_ Y1]. apply Y1; [|reflexivity]. apply S. apply X1. discriminate.
  - destruct X1 as [_ X1]. apply X1; [|reflexivity]. apply S. apply Y1. discriminate.
  - exact I.
Qed.
Print Assumptions C43_order.
(* but for [[ccb]] it does: two different sections are accepted silently, and the first is kept *)
Theorem C43_ccb_refuted : exists f f' st st' s s', coalesce [] [(9, f); (9, f')] = Ok st /\ coalesce [] [(9, f'); (9, f)] = Ok st' /\
  (exists i, nget st 9 = Some i /\ nget (i_slots i) 0 = Some (emu_alg_in s)) /\ (exists i, nget st' 9 = Some i /\ nget (i_slots i) 0 = Some (emu_alg_in s')) /\ s <> s'.
Proof.
  exists (has_slot 0 (emu_alg_in 1)), (has_slot 0 (prose_in 2)). do 2 eexists. exists 1, 2. split; [reflexivity|]. split; [reflexivity|]. split; [eexists; split; reflexivity|]. split; [eexists; split; reflexivity|]. discriminate.
Qed.
Print Assumptions C43_ccb_refuted.
Definition ex_facts : list (nat * fact) :=
  [(9, is_ 1); (8, exists_); (9, has_prop 0 [(0, 7)]); (9, is_ 0); (9, has_slot 1 (other_val 4)); (8, is_ 2); (9, has_prop 0 [(0, 7); (1, 0)])].
Example C43_ex : facts_wf ex_facts /\ coalesce [] ex_facts = Ok [(9, mkI (Some 0) [(1, other_val 4)] [(0, [(0, 7); (1, 0)])]); (8, mkI (Some 2) [] [])].
Proof.
  split; [|reflexivity]. intros L key a H. unfold ex_facts in H. cbn [In] in H. repeat (destruct H as [H|H]; [try discriminate; injection H as <- <- <-; repeat constructor; cbn; intuition discriminate|]). destruct H.
Qed.
Example C43_ex_conflict : coalesce [] [(9, is_ 1); (9, is_ 2)] = Err AssertionError.
Proof. reflexivity. Qed.

(* ---- C45 ---- *)

(* defaults never change what is explicit, and complete it *)
Theorem C45_defaults : forall name i len nam i', NoDup (map fst (i_properties i)) -> apply_defaults name i len nam = Ok i' ->
  (forall n v, nget (i_slots i) n = Some v -> nget (i_slots i') n = Some v) /\
  nget (i_slots i') 1 <> None /\ nget (i_slots i') 2 <> None /\ i_kind i' <> None /\ (i_kind i <> None -> i_kind i' = i_kind i) /\
  (forall key a n v, nget (i_properties i) key = Some a -> nget a n = Some v -> exists a', nget (i_properties i') key = Some a' /\ nget a' n = Some v) /\
  (forall k, i_kind i' = Some k -> k <= 1 -> forall key, key <= 1 -> exists a', nget (i_properties i') key = Some a' /\ forall n, In n [0; 1; 4; 5] -> nget a' n <> None) /\
  (forall k key a', i_kind i' = Some k -> nget (i_properties i') key = Some a' -> 1 < k \/ 1 < key ->
     (nget a' 0 <> None \/ nget a' 1 <> None -> nget a' 1 <> None /\ nget a' 4 <> None /\ nget a' 5 <> None) /\
     (nget a' 2 <> None \/ nget a' 3 <> None -> nget a' 4 <> None /\ nget a' 5 <> None)).
Proof.
  intros name i len nam i' HN H. unfold apply_defaults in H. apply bind_ok in H as (k & Ek & H). apply bind_ok in H as (s & Es & H). apply bind_ok in H as (ps & Ep & H). apply bind_ok in H as (ps' & Ep' & [= <-]). cbn [i_slots i_kind i_properties].
  assert (SL : (forall n v, nget (i_slots i) n = Some v -> nget s n = Some v) /\ nget s 1 <> None /\ nget s 2 <> None).
  { unfold default_slots in Es. set (s0 := match nget (i_slots i) 2 with Some _ => i_slots i | None => nset (i_slots i) 2 (other_val 0) end) in *.
    assert (A : (forall n v, nget (i_slots i) n = Some v -> nget s0 n = Some v) /\ nget s0 2 <> None).
    { unfold s0. destruct (nget (i_slots i) 2) as [v|] eqn:E; [split; [auto|congruence]|]. split; [|rewrite nget_nset_same; discriminate]. intros n v Q. rewrite nget_nset. destruct (Nat.eqb_spec 2 n) as [<-|]; [congruence|exact Q]. }
    destruct A as [A1 A2]. destruct (nget s0 1) as [v|] eqn:E1; [injection Es as <-; split; [exact A1|]; split; [congruence|exact A2]|].
    assert (B : forall w, (forall n v, nget (i_slots i) n = Some v -> nget (nset s0 1 w) n = Some v) /\ nget (nset s0 1 w) 1 <> None /\ nget (nset s0 1 w) 2 <> None).
    { intros w. split; [|split; [rewrite nget_nset_same; discriminate|rewrite nget_nset_other by discriminate; exact A2]]. intros n v Q. rewrite nget_nset. destruct (Nat.eqb_spec 1 n) as [<-|]; [apply A1 in Q; congruence|now apply A1]. }
    destruct (is_function k); [injection Es as <-; apply B|]. destruct (name =? 1); [injection Es as <-; apply B|discriminate]. }
  destruct SL as (SL1 & SL2 & SL3). split; [exact SL1|]. split; [exact SL2|]. split; [exact SL3|]. split; [discriminate|].
  split.
  { intros Q. unfold default_kind in Ek. destruct (i_kind i) as [k0|]; [|contradiction]. destruct (name =? 0); [discriminate|]. destruct (name =? 1); [discriminate|]. apply bind_ok in Ek as (u & _ & [= ->]). reflexivity. }
  assert (PS : NoDup (map fst ps) /\ (forall key a n v, nget (i_properties i) key = Some a -> nget a n = Some v -> exists a', nget ps key = Some a' /\ nget a' n = Some v) /\
               (is_function k = true -> forall key, key <= 1 -> exists a', nget ps key = Some a' /\ forall n, In n [0; 1; 4; 5] -> nget a' n <> None)).
  { destruct (is_function k) eqn:F.
    - apply bind_ok in Ep as (c & _ & Ep). apply bind_ok in Ep as (ps1 & E1 & E2). apply apply_one in E1 as (A1 & A2 & A3). apply apply_one in E2 as (B1 & B2 & B3). split; [auto|]. split.
      + intros key a n v Ha Hn. destruct (Nat.eq_dec key 1) as [->|H1]; [|destruct (Nat.eq_dec key 0) as [->|H0]].
        * rewrite B1, (A2 1) by discriminate. rewrite Ha. eexists. split; [reflexivity|]. rewrite fill_get, Hn. reflexivity.
        * rewrite (B2 0) by discriminate. rewrite A1, Ha. eexists. split; [reflexivity|]. rewrite fill_get, Hn. reflexivity.
        * rewrite (B2 key H1), (A2 key H0). eauto.
      + assert (FL : forall o v n, In n [0; 1; 4; 5] -> nget (match o : option attrs with Some a => fill a [(0, v); (1, 0); (4, 0); (5, 1)] | None => [(0, v); (1, 0); (4, 0); (5, 1)] end) n <> None).
        { intros o v n Hn. assert (D : nget [(0, v); (1, 0); (4, 0); (5, 1)] n <> None) by (cbn in Hn; repeat (destruct Hn as [<-|Hn]; [discriminate|]); destruct Hn). destruct o as [a|]; [|exact D]. rewrite fill_get. destruct (nget a n); [discriminate|exact D]. }
        intros _ key Hk. destruct key as [|[|key]]; [| |lia].
        * rewrite (B2 0) by discriminate. rewrite A1. eexists. split; [reflexivity|]. apply FL.
        * rewrite B1. eexists. split; [reflexivity|]. apply FL.
    - injection Ep as <-. split; [exact HN|]. split; [eauto|discriminate]. }
  destruct PS as (PN & PP & PF). destruct (default_props_get k (map fst ps) PN ps ps' Ep') as [D1 D2].
  assert (FK : is_function k = true <-> k <= 1) by (unfold is_function; destruct k as [|[|k]]; cbn; split; intros; try lia; try discriminate; reflexivity).
  assert (FKEY : forall key, nmem key [0; 1] = true <-> key <= 1) by (intros [|[|key]]; cbn; split; intros; try lia; try discriminate; reflexivity).
  split; [|split].
  - intros key a n v Ha Hn. destruct (PP key a n v Ha Hn) as (a1 & E1 & E2). destruct (nmem key [0; 1] && is_function k) eqn:F; [rewrite D1 by auto; eauto|].
    destruct (D2 key) as (a2 & pk & E3 & _ & E4); [apply nget_keys; congruence|exact F|]. rewrite E4. eexists. split; [reflexivity|]. rewrite fill_get. replace a2 with a1 by congruence. now rewrite E2.
  - intros k0 [= <-] Hk key Hkey. apply FK in Hk. destruct (PF Hk key Hkey) as (a1 & E1 & E2). rewrite D1; [eauto|]. right. apply andb_true_iff. split; [now apply FKEY|exact Hk].
  - intros k0 key a' [= <-] Ha' Hor.
    assert (F : nmem key [0; 1] && is_function k = false).
    { destruct (nmem key [0; 1] && is_function k) eqn:F; [|reflexivity]. apply andb_true_iff in F as [F1 F2]. apply FKEY in F1. apply FK in F2. lia. }
    assert (Hin : In key (map fst ps)).
    { destruct (in_dec Nat.eq_dec key (map fst ps)) as [Q|Q]; [exact Q|]. rewrite D1 in Ha' by auto. apply nget_none_keys in Q. congruence. }
    destruct (D2 key Hin F) as (a2 & pk & E3 & E4 & E5). rewrite E5 in Ha'. injection Ha' as <-. clear -E4. unfold prop_kind in E4. apply bind_ok in E4 as (u & Eu & [= E4]). destruct u. apply assert_ok in Eu.
    assert (M : forall n, nmem n (map fst a2) = match nget a2 n with Some _ => true | None => false end).
    { intros n. destruct (nget a2 n) as [v|] eqn:E; [apply nmem_in, nget_keys; congruence|]. apply nmem_nin. now apply nget_none_keys. }
    rewrite !M in *. assert (FG : forall n, nget (fill a2 (defaults_of pk)) n = match nget a2 n with Some v => Some v | None => nget (defaults_of pk) n end) by (intros; apply fill_get).
    rewrite !FG. destruct (nget a2 0), (nget a2 1), (nget a2 2), (nget a2 3); cbn in E4, Eu; try discriminate; subst pk; cbn; destruct (nget a2 4), (nget a2 5); (split; intros [Q|Q]; try contradiction; repeat split; discriminate).
Qed.
Print Assumptions C45_defaults.
(* and what was not explicit gets exactly these values *)
Theorem C45_values : forall name i len nam i', NoDup (map fst (i_properties i)) -> apply_defaults name i len nam = Ok i' ->
  exists k, i_kind i' = Some k /\ match name with 0 => k = 6 | 1 => k = 2 | _ => i_kind i = Some k /\ k <= 5 end /\
  (nget (i_slots i) 2 = None -> nget (i_slots i') 2 = Some (other_val 0)) /\
  (nget (i_slots i) 1 = None -> (k <= 1 /\ nget (i_slots i') 1 = Some (other_val 1)) \/ (name = 1 /\ nget (i_slots i') 1 = Some (other_val 2))) /\
  (forall n, n = 0 \/ 2 < n -> nget (i_slots i') n = nget (i_slots i) n) /\
  (forall key n, match nget (i_properties i) key with Some a => nget a n | None => None end = None ->
     match nget (i_properties i') key with Some a' => nget a' n | None => None end =
       if (k <=? 1) && (key <=? 1) then nget [(0, if key =? 0 then len else nam); (1, 0); (4, 0); (5, 1)] n
       else match nget (i_properties i) key with
            | None => None
            | Some a => match nget a 0, nget a 1, nget a 2, nget a 3 with
                        | None, None, None, None => None
                        | None, None, _, _ => nget [(4, 0); (5, 1)] n
                        | _, _, _, _ => nget [(1, 1); (4, 0); (5, 1)] n
                        end
            end).
Proof.
  intros name i len nam i' HN H. unfold apply_defaults in H. apply bind_ok in H as (k & Ek & H). apply bind_ok in H as (s & Es & H). apply bind_ok in H as (ps & Ep & H). apply bind_ok in H as (ps' & Ep' & [= <-]). cbn [i_slots i_kind i_properties].
  exists k. split; [reflexivity|]. split.
  { unfold default_kind in Ek. destruct name as [|[|name]]; cbn [Nat.eqb] in Ek; destruct (i_kind i) as [k0|]; try discriminate; try (injection Ek as <-; reflexivity). apply bind_ok in Ek as (u & Eu & [= ->]). split; [reflexivity|]. destruct u. apply assert_ok, nmem_in in Eu. cbn in Eu. lia. }
  assert (FK : is_function k = (k <=? 1)) by (unfold is_function; destruct k as [|[|k]]; reflexivity).
  split; [|split; [|split]].
  - intros Q. unfold default_slots in Es. rewrite Q in Es. cbv zeta in Es. destruct (nget (nset (i_slots i) 2 (other_val 0)) 1); [injection Es as <-; apply nget_nset_same|].
    destruct (is_function k); [injection Es as <-; rewrite nget_nset_other by discriminate; apply nget_nset_same|]. destruct (name =? 1); [injection Es as <-; rewrite nget_nset_other by discriminate; apply nget_nset_same|discriminate].
  - intros Q. unfold default_slots in Es. cbv zeta in Es.
    assert (E1 : nget (match nget (i_slots i) 2 with Some _ => i_slots i | None => nset (i_slots i) 2 (other_val 0) end) 1 = None) by (destruct (nget (i_slots i) 2); [exact Q|rewrite nget_nset_other by discriminate; exact Q]).
    rewrite E1, FK in Es. destruct (k <=? 1) eqn:F; [injection Es as <-; left; apply Nat.leb_le in F; split; [exact F|apply nget_nset_same]|]. destruct (name =? 1) eqn:N; [|discriminate]. injection Es as <-. right. apply Nat.eqb_eq in N. split; [exact N|apply nget_nset_same].
  - intros n Hn. assert (H2 : 2 <> n) by lia. assert (H1 : 1 <> n) by lia. unfold default_slots in Es. cbv zeta in Es. set (s0 := match nget (i_slots i) 2 with Some _ => i_slots i | None => nset (i_slots i) 2 (other_val 0) end) in *.
    assert (E0 : nget s0 n = nget (i_slots i) n) by (unfold s0; destruct (nget (i_slots i) 2); [reflexivity|now apply nget_nset_other]). destruct (nget s0 1); [now injection Es as <-|].
    destruct (is_function k); [injection Es as <-; now rewrite nget_nset_other|]. destruct (name =? 1); [injection Es as <-; now rewrite nget_nset_other|discriminate].
  - intros key n HG.
    assert (FL : forall (o : option attrs) d, match o with Some a => nget a n | None => None end = None -> nget (match o with Some a => fill a d | None => d end) n = nget d n) by (intros [a|] d Q; [now rewrite fill_get, Q|reflexivity]).
    assert (PS : NoDup (map fst ps) /\ if (k <=? 1) && (key <=? 1) then exists a, nget ps key = Some a /\ nget a n = nget [(0, if key =? 0 then len else nam); (1, 0); (4, 0); (5, 1)] n else nget ps key = nget (i_properties i) key).
    { rewrite FK in Ep. destruct (k <=? 1) eqn:F; cbn [andb].
      - apply bind_ok in Ep as (c & _ & Ep). apply bind_ok in Ep as (ps1 & E1 & E2). apply apply_one in E1 as (A1 & A2 & A3). apply apply_one in E2 as (B1 & B2 & B3). split; [auto|]. destruct key as [|[|key]]; cbn [Nat.leb Nat.eqb].
        + rewrite (B2 0) by discriminate. rewrite A1. eexists. split; [reflexivity|]. now apply FL.
        + rewrite B1. eexists. split; [reflexivity|]. rewrite (A2 1) by discriminate. now apply FL.
        + rewrite (B2 (S (S key))), (A2 (S (S key))) by discriminate. reflexivity.
      - injection Ep as <-. auto. }
    destruct PS as [PN PS]. destruct (default_props_get k (map fst ps) PN ps ps' Ep') as [D1 D2].
    assert (FKEY : nmem key [0; 1] && is_function k = (k <=? 1) && (key <=? 1)) by (rewrite FK, andb_comm; destruct key as [|[|key]]; reflexivity).
    destruct ((k <=? 1) && (key <=? 1)) eqn:F.
    + destruct PS as (a & E1 & E2). rewrite D1 by auto. now rewrite E1.
    + destruct (in_dec Nat.eq_dec key (map fst ps)) as [Hin|Hin].
      * destruct (D2 key Hin FKEY) as (a2 & pk & E3 & E4 & E5). rewrite E5, fill_get. rewrite PS in E3. rewrite E3 in *. rewrite HG. clear -E4. unfold prop_kind in E4. apply bind_ok in E4 as (u & Eu & [= E4]). destruct u. apply assert_ok in Eu.
        assert (M : forall n, nmem n (map fst a2) = match nget a2 n with Some _ => true | None => false end).
        { intros m. destruct (nget a2 m) as [v|] eqn:E; [apply nmem_in, nget_keys; congruence|]. apply nmem_nin. now apply nget_none_keys. }
        rewrite !M in *. destruct (nget a2 0), (nget a2 1), (nget a2 2), (nget a2 3); cbn in E4, Eu; try discriminate; subst pk; reflexivity.
      * rewrite D1 by auto. apply nget_none_keys in Hin. rewrite Hin. rewrite <- PS, Hin. reflexivity.
Qed.
Print Assumptions C45_values.
Example C45_ex : apply_defaults 9 (mkI (Some 1) [(0, emu_alg_in 3)] [(5, [(0, 77)]); (1, [(0, 66)])]) 2 3 =
  Ok (mkI (Some 1) [(0, emu_alg_in 3); (2, other_val 0); (1, other_val 1)]
        [(5, [(0, 77); (1, 1); (4, 0); (5, 1)]); (1, [(0, 66); (1, 0); (4, 0); (5, 1)]); (0, [(0, 2); (1, 0); (4, 0); (5, 1)])]).
Proof. reflexivity. Qed.
(* an accessor property "length" of a function is given the attributes of a data property too *)
Theorem C45_length_refuted : exists i i' a, apply_defaults 9 i 2 3 = Ok i' /\ nget (i_properties i) 0 = Some [(2, 7)] /\ nget (i_properties i') 0 = Some a /\ prop_kind a = Err AssertionError.
Proof. exists (mkI (Some 1) [(0, emu_alg_in 3)] [(0, [(2, 7)])]). do 2 eexists. split; [reflexivity|]. split; [reflexivity|]. split; reflexivity. Qed.
Print Assumptions C45_length_refuted.
