(* union_of_types and split_by on hierarchy types: lemmas. *)
From Verif Require Import M_Base L_Base M_Types L_Hier L_Types.

(* ---- sets of types ---- *)

Lemma forallb_filter_id {A} (f : A -> bool) l : forallb f l = true -> filter f l = l.
Proof. induction l as [|x l IH]; cbn; [reflexivity|]. intros H. apply andb_true_iff in H as [-> H]. now rewrite IH. Qed.

Lemma tadd_in x y s : In y (tadd x s) -> In y s \/ y = x.
Proof. unfold tadd. destruct (tmem x s); [auto|]. intros H. apply in_app_or in H as [H|[H|[]]]; auto. Qed.
Lemma fold_tadd_in l : forall s y, In y (fold_left (fun s x => tadd x s) l s) -> In y s \/ In y l.
Proof.
  induction l as [|x l IH]; cbn; intros s y H; [auto|]. apply IH in H as [H|H]; [|auto]. apply tadd_in in H as [H| ->]; auto.
Qed.
Lemma tset_in l y : In y (tset l) -> In y l.
Proof. intros H. apply fold_tadd_in in H as [[]|H]. exact H. Qed.
Lemma tadd_keep x y s : In y s -> In y (tadd x s).
Proof. unfold tadd. destruct (tmem x s); [auto|]. intros H. apply in_or_app. now left. Qed.
Lemma fold_tadd_keep l : forall s y, In y s -> In y (fold_left (fun s x => tadd x s) l s).
Proof. induction l as [|x l IH]; cbn; intros s y H; [exact H|]. apply IH. now apply tadd_keep. Qed.
Lemma fold_tadd_cover l : (forall x, In x l -> ty_eqb x x = true) -> forall s y, In y l -> exists z, In z (fold_left (fun s x => tadd x s) l s) /\ ty_eqb y z = true.
Proof.
  induction l as [|x l IH]; cbn; intros Hr s y H; [destruct H|]. destruct H as [->|H]; [|apply IH; auto].
  assert (exists z, In z (tadd y s) /\ ty_eqb y z = true) as (z & Hz & E).
  { unfold tadd. destruct (tmem y s) eqn:E; [apply existsb_exists in E; exact E|]. exists y. split; [apply in_or_app; right; now left|apply Hr; now left]. }
  exists z. split; [now apply fold_tadd_keep|exact E].
Qed.
Lemma tset_cover l y : (forall x, In x l -> ty_eqb x x = true) -> In y l -> exists z, In z (tset l) /\ ty_eqb y z = true.
Proof. intros Hr H. now apply fold_tadd_cover. Qed.
(* no element equals an earlier one *)
Fixpoint distinct (s : list ty) : Prop :=
  match s with
  | [] => True
  | x :: s' => (forall y, In y s' -> ty_eqb y x = false) /\ distinct s'
  end.
Lemma distinct_snoc s x : distinct s -> tmem x s = false -> distinct (s ++ [x]).
Proof.
  induction s as [|y s IH]; cbn; intros Hd Hm; [split; [intros y []|exact I]|]. destruct Hd as [H1 H2]. apply orb_false_iff in Hm as [M1 M2].
  split; [|auto]. intros z Hz. apply in_app_or in Hz as [Hz|[<-|[]]]; auto.
Qed.
Lemma fold_tadd_distinct l : forall s, distinct s -> distinct (fold_left (fun s x => tadd x s) l s).
Proof.
  induction l as [|x l IH]; cbn; intros s H; [exact H|]. apply IH. unfold tadd. destruct (tmem x s) eqn:E; [exact H|]. now apply distinct_snoc.
Qed.
Lemma tset_distinct l : distinct (tset l).
Proof. apply fold_tadd_distinct. exact I. Qed.
Lemma distinct_filter f s : distinct s -> distinct (filter f s).
Proof.
  induction s as [|x s IH]; cbn; [auto|]. intros [H1 H2]. destruct (f x); cbn; auto. split; [|auto]. intros y Hy. apply filter_In in Hy as [Hy _]. auto.
Qed.

Lemma tset_map_hier l : exists l', tset (map Hier l) = map Hier l' /\ NoDup l' /\ forall x, In x l' <-> In x l.
Proof.
  unfold tset. assert (G : forall l s, NoDup s -> exists l', fold_left (fun s x => tadd x s) (map Hier l) (map Hier s) = map Hier l' /\ NoDup l' /\
    forall x, In x l' <-> In x s \/ In x l).
  { clear l. induction l as [|a l IH]; intros s Hs; cbn [map fold_left].
    - exists s. split; [reflexivity|]. split; [exact Hs|]. cbn. tauto.
    - unfold tadd at 2. destruct (tmem (Hier a) (map Hier s)) eqn:E.
      + apply tmem_map in E. destruct (IH s Hs) as (l' & E' & Hn & Hx). exists l'. split; [exact E'|]. split; [exact Hn|]. intros x. rewrite Hx. cbn.
        split; [tauto|]. intros [H|[<-|H]]; auto.
      + assert (Ha : ~ In a s) by (intros H; apply tmem_map in H; congruence).
        destruct (IH (s ++ [a])) as (l' & E' & Hn & Hx).
        { apply (Permutation_NoDup (Permutation_cons_append _ _)). now constructor. }
        rewrite map_app in E'. exists l'. split; [exact E'|]. split; [exact Hn|]. intros x. rewrite Hx, in_app_iff. cbn. tauto. }
  destruct (G l [] (NoDup_nil _)) as (l' & E & Hn & Hx). exists l'. split; [exact E|]. split; [exact Hn|]. intros x. rewrite Hx. cbn. tauto.
Qed.
Lemma tset_nodup_hier l : NoDup l -> length (tset (map Hier l)) = length l.
Proof.
  intros H. destruct (tset_map_hier l) as (l' & -> & Hn & Hx). rewrite map_length. apply Permutation_length. apply NoDup_Permutation; auto.
Qed.
Lemma tdiscard_TBD_hier l : tdiscard TBD (map Hier l) = map Hier l.
Proof. unfold tdiscard. apply forallb_filter_id, forallb_forall. intros x Hx. apply in_map_iff in Hx as (a & <- & _). reflexivity. Qed.

Section Union.
  Variable h : hier.
  Hypothesis W : wf h.
  Hypothesis LL : forall c, ~ par h c T_List.        (* List has no subtypes in the hierarchy *)

  Lemma htype_eqb t t' : htype h t -> htype h t' -> (ty_eqb t t' = true <-> forall x, In x (hn t) <-> In x (hn t')).
  Proof.
    intros [(a & -> & Ha)|(l & -> & Hl & Hn & Hlen)] [(a' & -> & Ha')|(l' & -> & Hl' & Hn' & Hlen')]; unfold hn; cbn [set_of_types]; rewrite ?hn_map; cbn.
    - rewrite Nat.eqb_eq. split; [intros ->; tauto|]. intros H. specialize (H a). intuition auto.
    - split; [discriminate|]. intros H. exfalso. apply Hlen'. change 1 with (length [a]). apply Permutation_length. apply NoDup_Permutation; [assumption|constructor; [intros []|constructor]|].
        intros x. rewrite <- H. cbn. tauto.
    - split; [discriminate|]. intros H. exfalso. apply Hlen. change 1 with (length [a']). apply Permutation_length. apply NoDup_Permutation; [assumption|constructor; [intros []|constructor]|].
        intros x. rewrite H. cbn. tauto.
    - rewrite andb_true_iff, !forallb_forall. split.
      + intros [H1 H2] x. split; intros Hx.
        * specialize (H1 _ (in_map Hier _ _ Hx)). now apply tmem_map in H1.
        * specialize (H2 _ (in_map Hier _ _ Hx)). apply existsb_exists in H2 as (y & Hy & E). apply in_map_iff in Hy as (b & <- & Hb). cbn in E. apply Nat.eqb_eq in E. now subst.
      + intros H. split; intros x Hx; apply in_map_iff in Hx as (a & <- & Ha).
        * apply tmem_map. now apply H.
        * apply existsb_exists. exists (Hier a). split; [apply in_map; now apply H|]. cbn. apply Nat.eqb_refl.
  Qed.
  Lemma htype_T_0 : htype h T_0.
  Proof. right. exists []. cbn. repeat split; [intros x []|constructor|discriminate]. Qed.
  Lemma htype_refl_eqb t : htype h t -> ty_eqb t t = true.
  Proof. intros H. apply htype_eqb; auto. tauto. Qed.
  Lemma eqb_T_0 t : htype h t -> (ty_eqb T_0 t = true <-> hn t = []).
  Proof.
    intros H. rewrite (htype_eqb T_0 t htype_T_0 H). change (hn T_0) with (@nil nat). cbn. split.
    - intros E. destruct (hn t) as [|x l]; [reflexivity|]. exfalso. apply (E x). now left.
    - intros ->. tauto.
  Qed.

  Definition all_names (types : list ty) (x : nat) : Prop := exists t, In t types /\ In x (hn t).

  (* the two ways union_of_types ends *)
  Definition shape (types : list ty) (r : ty) : Prop :=
    (In r types /\ forall t, In t types -> (forall x, In x (hn t) <-> In x (hn r)) \/ hn t = []) \/
    ((types = [] \/ exists t1 t2, In t1 types /\ In t2 types /\ hn t1 <> [] /\ hn t2 <> [] /\ ~ (forall x, In x (hn t1) <-> In x (hn t2))) /\
     exists l hs, NoDup l /\ (forall x, In x l <-> x <> T_List /\ all_names types x) /\ union_of_hier_memtypes h l = Ok hs /\
       forall x, In x (hn r) <-> In x hs \/ (x = T_List /\ all_names types x)).

  Lemma hier_names_map l : hier_names (map Hier l) = filter (fun x => negb (x =? T_List)) l.
  Proof. unfold hier_names. induction l as [|x l IH]; cbn [map flat_map filter]; [reflexivity|]. destruct (x =? T_List); cbn; now rewrite IH. Qed.
  Lemma list_memtypes_map l : filter is_list_memtype (map Hier l) = map Hier (filter (fun x => x =? T_List) l).
  Proof. induction l as [|x l IH]; cbn [map filter is_list_memtype]; [reflexivity|]. destruct (x =? T_List); cbn; now rewrite IH. Qed.
  Lemma no_rec_map l : filter is_record_memtype (map Hier l) = [].
  Proof. induction l; cbn; auto. Qed.
  Lemma no_proc_map l : filter is_proc_memtype (map Hier l) = [].
  Proof. induction l; cbn; auto. Qed.
  Lemma filter_eq_nodup l : NoDup l -> length (filter (fun x => x =? T_List) l) <= 1.
  Proof.
    intros H. assert (NoDup (filter (fun x => x =? T_List) l)) as Hn by now apply NoDup_filter.
    destruct (filter (fun x => x =? T_List) l) as [|a [|b r]] eqn:E; cbn; try lia. exfalso.
    assert (In a (filter (fun x => x =? T_List) l)) as Ha by (rewrite E; now left). assert (In b (filter (fun x => x =? T_List) l)) as Hb by (rewrite E; right; now left).
    apply filter_In in Ha as [_ Ha], Hb as [_ Hb]. apply Nat.eqb_eq in Ha, Hb. subst. inversion Hn as [|? ? Q _]. apply Q. now left.
  Qed.

  Lemma union_shape f types : (forall t, In t types -> htype h t) -> exists r, union_of_types h (S f) types = Ok r /\ htype h r /\ shape types r.
  Proof.
    intros HT. destruct types as [|t0 ts].
    { exists T_0. split; [reflexivity|]. split; [exact htype_T_0|]. right. split; [now left|]. exists [], []. split; [constructor|].
      split; [intros x; split; [intros []|intros [_ (t & [] & _)]]|]. split; [reflexivity|]. intros x. cbn. split; [tauto|]. intros [[]|[_ (t & [] & _)]]. }
    cbn [union_of_types]. set (types := t0 :: ts) in *.
    assert (H1 : forall t, In t (tset types) -> htype h t) by (intros t Ht; apply HT; now apply tset_in).
    assert (C1 : forall t, In t types -> exists z, In z (tset types) /\ forall x, In x (hn t) <-> In x (hn z)).
    { intros t Ht. destruct (tset_cover types t) as (z & Hz & E); [intros x Hx; apply htype_refl_eqb; auto|exact Ht|]. exists z. split; [exact Hz|]. apply htype_eqb; auto. }
    pose proof (tset_distinct types) as D1. pose proof (tset_in types) as I1. revert H1 C1 D1 I1. generalize (tset types). intros s1 H1 C1 D1 I1.
    assert (Single : forall t, s1 = [t] -> exists r, Ok t = Ok r /\ htype h r /\ shape types r).
    { intros t ->. exists t. split; [reflexivity|]. split; [apply H1; now left|]. left. split; [apply I1; now left|]. intros t' Ht'.
      destruct (C1 t' Ht') as (z & [<-|[]] & E). now left. }
    assert (Step2 : (length s1 <> 1) -> exists r,
      match tdiscard T_0 s1 with
      | [t] => Ok t
      | _ => match tdiscard TBD (tdiscard T_0 s1) with
             | [t] => Ok t
             | _ => union_rest h (union_of_types h f) (tdiscard TBD (tdiscard T_0 s1))
             end
      end = Ok r /\ htype h r /\ shape types r).
    { intros Hlen.
      assert (ET : tdiscard TBD (tdiscard T_0 s1) = tdiscard T_0 s1).
      { unfold tdiscard at 1. apply forallb_filter_id. apply forallb_forall. intros x Hx. apply filter_In in Hx as [Hx _].
        destruct (H1 x Hx) as [(a & -> & _)|(l & -> & _)]; reflexivity. }
      rewrite ET.
      assert (H2 : forall t, In t (tdiscard T_0 s1) <-> In t s1 /\ hn t <> []).
      { intros t. unfold tdiscard. rewrite filter_In, negb_true_iff. split; intros [A B]; (split; [exact A|]).
        - intros E. apply (eqb_T_0 t (H1 t A)) in E. congruence.
        - destruct (ty_eqb T_0 t) eqn:E; [|reflexivity]. apply (eqb_T_0 t (H1 t A)) in E. contradiction. }
      assert (D2 : distinct (tdiscard T_0 s1)) by now apply distinct_filter.
      assert (L2 : length (tdiscard T_0 s1) <> 0).
      { intros E. apply length_zero_iff_nil in E. assert (A : forall t, In t s1 -> hn t = []).
        { intros t Ht. destruct (hn t) eqn:Eh; [reflexivity|]. exfalso. assert (In t (tdiscard T_0 s1)) by (apply H2; split; [exact Ht|congruence]). rewrite E in H. destruct H. }
        destruct s1 as [|x [|y s]]; cbn in Hlen; try lia.
        - destruct (C1 t0 (or_introl eq_refl)) as (z & [] & _).
        - destruct D1 as [Dx _]. specialize (Dx y (or_introl eq_refl)). enough (ty_eqb y x = true) by congruence.
          apply htype_eqb; [apply H1; right; now left|apply H1; now left|]. rewrite (A x), (A y); [tauto|right; now left|now left]. }
      revert H2 D2 L2. generalize (tdiscard T_0 s1). intros s2 H2 D2 L2.
      assert (Single2 : forall t, s2 = [t] -> exists r, Ok t = Ok r /\ htype h r /\ shape types r).
      { intros t ->. assert (Ht : In t s1) by (apply H2; now left). exists t. split; [reflexivity|]. split; [auto|]. left. split; [auto|]. intros t' Ht'.
        destruct (C1 t' Ht') as (z & Hz & E). destruct (hn t') as [|y ys] eqn:Eh; [now right|]. left.
        assert (In z [t]) as [<-|[]].
        { apply H2. split; [exact Hz|]. intros Ez. rewrite Ez in E. apply (E y). now left. }
        exact E. }
      destruct s2 as [|x2 [|y2 s2]]; [cbn in L2; lia|now apply Single2|].
      set (s3 := x2 :: y2 :: s2) in *.
      assert (H3 : forall t, In t s3 -> htype h t) by (intros t Ht; apply H1; now apply H2).
      assert (EF : flat_map set_of_types s3 = map Hier (flat_map hn s3)).
      { clear -H3. induction s3 as [|t s IH]; cbn; [reflexivity|]. rewrite map_app, <- IH by (intros; apply H3; now right). f_equal.
        apply (htype_set h). apply H3. now left. }
      unfold union_rest. replace (forallb (fun t => forallb (fun m => negb (is_union m)) (set_of_types t)) s3) with true.
      2: { symmetry. apply forallb_forall. intros t Ht. apply forallb_forall. intros m Hm. destruct (htype_set h t (H3 t Ht)) as [E _]. rewrite E in Hm.
           apply in_map_iff in Hm as (a & <- & _). reflexivity. }
      cbn [assert_ bind]. rewrite EF. destruct (tset_map_hier (flat_map hn s3)) as (l & -> & Hnd & Hin). rewrite tdiscard_TBD_hier.
      assert (Hall : forall x, In x l <-> all_names types x).
      { intros x. rewrite Hin, in_flat_map. split.
        - intros (t & Ht & Hx). exists t. split; [|exact Hx]. apply I1. now apply H2.
        - intros (t & Ht & Hx). destruct (C1 t Ht) as (z & Hz & E). apply E in Hx. exists z. split; [|exact Hx]. apply H2. split; [exact Hz|].
          intros E'. rewrite E' in Hx. destruct Hx. }
      assert (Hincl : incl l (names h)).
      { intros x Hx. apply Hin, in_flat_map in Hx as (t & Ht & Hx). destruct (htype_set h t (H3 t Ht)) as [_ I]. auto. }
      assert (Hne : l <> []).
      { assert (hn x2 <> []) as Q by (apply H2; now left). destruct (hn x2) as [|a q] eqn:E; [congruence|]. intros El.
        assert (In a l) as Ha by (apply Hin, in_flat_map; exists x2; split; [now left|rewrite E; now left]). rewrite El in Ha. destruct Ha. }
      replace (0 <? length (map Hier l)) with true by (symmetry; apply Nat.ltb_lt; rewrite map_length; destruct l; [congruence|cbn; lia]).
      cbn [assert_ bind]. rewrite list_memtypes_map, no_rec_map, no_proc_map, hier_names_map.
      set (lt := filter (fun x => x =? T_List) l). set (lr := filter (fun x => negb (x =? T_List)) l).
      unfold union_of_list_memtypes. rewrite map_length. pose proof (filter_eq_nodup l Hnd) as Hlt. fold lt in Hlt.
      replace (length lt <=? 1) with true by (symmetry; now apply Nat.leb_le). cbn [bind union_of_record_memtypes union_of_proc_memtypes length Nat.leb app].
      assert (Hlr : forall x, In x lr <-> x <> T_List /\ In x l).
      { intros x. unfold lr. rewrite filter_In, negb_true_iff, Nat.eqb_neq. tauto. }
      assert (Hltin : forall x, In x lt <-> x = T_List /\ In x l).
      { intros x. unfold lt. rewrite filter_In, Nat.eqb_eq. tauto. }
      destruct (uh_ok h W lr) as (hs & Ehs & Ihs & Nhs & Ahs & Vhs & L1 & L2').
      { intros x Hx. apply Hincl. now apply Hlr. } { now apply NoDup_filter. }
      rewrite Ehs. cbn [bind]. rewrite <- map_app.
      assert (HnT : ~ In T_List hs).
      { intros Hx. destruct (Ahs _ Hx) as [Q|(c & Q)]; [apply Hlr in Q; tauto|exact (LL c Q)]. }
      assert (Nres : NoDup (lt ++ hs)).
      { assert (Nlt : NoDup lt) by now apply NoDup_filter. clear -Nlt Nhs HnT Hltin. induction lt as [|a q IH]; [exact Nhs|].
        cbn. inversion Nlt as [|? ? Qa Qn]; subst. assert (a = T_List) by (apply Hltin; now left). subst a. destruct q as [|b q].
        - constructor; [exact HnT|exact Nhs].
        - exfalso. assert (b = T_List) by (apply Hltin; right; now left). subst b. apply Qa. now left. }
      assert (Hres : lt ++ hs <> []).
      { destruct l as [|a q]; [congruence|]. destruct (Nat.eq_dec a T_List) as [->|Ha].
        - assert (In T_List lt) as Q by (apply Hltin; split; [reflexivity|now left]). destruct lt; [destruct Q|discriminate].
        - destruct (leaf_below h W a) as (v & Hv & Hav); [apply Hincl; now left|].
          destruct (proj2 (Vhs v Hv)) as (x & Hx & _); [exists a; split; [apply Hlr; split; [exact Ha|now left]|exact Hav]|].
          intros E. apply app_eq_nil in E as [_ E]. rewrite E in Hx. destruct Hx. }
      rewrite map_length. replace (0 <? length (lt ++ hs)) with true by (symmetry; apply Nat.ltb_lt; destruct (lt ++ hs); [congruence|cbn; lia]).
      cbn [assert_ bind].
      assert (Incl : incl (lt ++ hs) (names h)).
      { intros x Hx. apply in_app_or in Hx as [Hx|Hx]; [apply Hincl; now apply Hltin|auto]. }
      assert (Shape : forall r, (forall x, In x (hn r) <-> In x (lt ++ hs)) -> shape types r).
      { intros r Hr. right. split.
        - right. exists x2, y2. assert (X2 : In x2 s1 /\ hn x2 <> []) by (apply H2; now left). assert (Y2 : In y2 s1 /\ hn y2 <> []) by (apply H2; right; now left).
          destruct X2 as [X2 X2'], Y2 as [Y2 Y2']. do 4 (split; [solve [auto]|]). intros E. destruct D2 as [Dx _]. specialize (Dx y2 (or_introl eq_refl)).
          enough (ty_eqb y2 x2 = true) by congruence. apply htype_eqb; auto. intros x. symmetry. auto.
        - exists lr, hs. split; [now apply NoDup_filter|]. split; [intros x; rewrite Hlr, Hall; tauto|]. split.
          + exact Ehs.
          + intros x. rewrite Hr, in_app_iff, Hltin, Hall. tauto. }
      destruct (lt ++ hs) as [|a [|b q]] eqn:El; [congruence| |].
      + exists (Hier a). split; [reflexivity|]. split; [left; exists a; split; [reflexivity|apply Incl; now left]|]. apply Shape. intros x. unfold hn. cbn. tauto.
      + change (exists r, (do _ <- assert_ (negb (length (tset (map Hier (a :: b :: q))) =? 1)) ;; Ok (UnionT (tset (map Hier (a :: b :: q))))) = Ok r
          /\ htype h r /\ shape types r).
        rewrite (tset_nodup_hier _ Nres). cbn [length Nat.eqb negb assert_ bind].
        destruct (tset_map_hier (a :: b :: q)) as (l' & E' & N' & I'). rewrite E'. eexists. split; [reflexivity|]. split.
        * right. exists l'. split; [reflexivity|]. split; [intros x Hx; apply Incl; now apply I'|]. split; [exact N'|].
          assert (length l' = length (a :: b :: q)) as -> by (apply Permutation_length; now apply NoDup_Permutation). cbn. lia.
        * apply Shape. intros x. unfold hn. cbn [set_of_types]. rewrite hn_map. apply I'. }
    destruct s1 as [|a [|b q]]; [apply Step2; cbn; lia|now apply Single|apply Step2; cbn; lia].
  Qed.

  Notation anc' := (anc h).

  Lemma shape_values types r : (forall t, In t types -> htype h t) -> htype h r -> shape types r ->
    forall v, leaf h v -> (hmem h v r <-> exists t, In t types /\ hmem h v t).
  Proof.
    intros HT Hr S v Hv. rewrite (hn_mem h v r Hr).
    assert (E : (exists t, In t types /\ hmem h v t) <-> exists a, all_names types a /\ anc' a v).
    { split.
      - intros (t & Ht & Hm). apply (hn_mem h v t (HT t Ht)) in Hm as (a & Ha & Hav). exists a. split; [exists t; auto|exact Hav].
      - intros (a & (t & Ht & Ha) & Hav). exists t. split; [exact Ht|]. apply (hn_mem h v t (HT t Ht)). eauto. }
    rewrite E. clear E. destruct S as [[Hin Hall]|[_ (l & hs & Nl & Il & Eu & Ir)]].
    - split.
      + intros (a & Ha & Hav). exists a. split; [exists r; auto|exact Hav].
      + intros (a & (t & Ht & Ha) & Hav). destruct (Hall t Ht) as [Q|Q]; [exists a; split; [now apply Q|exact Hav]|]. rewrite Q in Ha. destruct Ha.
    - destruct (uh_ok h W l) as (hs' & Eu' & _ & _ & _ & V & _).
      { intros x Hx. apply Il in Hx as [_ (t & Ht & Hx)]. destruct (htype_set h t (HT t Ht)) as [_ I]. auto. } { exact Nl. }
      assert (hs' = hs) by congruence. subst hs'. specialize (V v Hv). split.
      + intros (a & Ha & Hav). apply Ir in Ha as [Ha|[-> Ha]]; [|eauto]. destruct (proj1 V) as (x & Hx & Hxv); [eauto|]. apply Il in Hx as [_ Hx]. eauto.
      + intros (a & Ha & Hav). destruct (Nat.eq_dec a T_List) as [->|Hn].
        * exists T_List. split; [apply Ir; right; auto|exact Hav].
        * destruct (proj2 V) as (x & Hx & Hxv); [exists a; split; [now apply Il|exact Hav]|]. exists x. split; [apply Ir; now left|exact Hxv].
  Qed.

  Lemma union_ok f types : (forall t, In t types -> htype h t) -> exists r, union_of_types h (S f) types = Ok r /\ htype h r /\
    forall v, leaf h v -> (hmem h v r <-> exists t, In t types /\ hmem h v t).
  Proof.
    intros HT. destruct (union_shape f types HT) as (r & E & Hr & S). exists r. split; [exact E|]. split; [exact Hr|]. now apply shape_values.
  Qed.

  (* no member of the result is a subtype of another *)
  Lemma union_antichain f types r : (forall t, In t types -> htype h t) -> ~ all_names types T_List ->
    (forall t x y, In t types -> is_member x t -> is_member y t -> anc' x y -> x = y) ->
    union_of_types h (S f) types = Ok r -> forall x y, is_member x r -> is_member y r -> anc' x y -> x = y.
  Proof.
    intros HT HL HA E x y Hx Hy Hxy. destruct (union_shape f types HT) as (r' & E' & Hr & S). assert (r' = r) by congruence. subst r'.
    destruct S as [[Hin _]|[_ (l & hs & Nl & Il & Eu & Ir)]]; [eapply HA; eauto|].
    apply hn_member, Ir in Hx. apply hn_member, Ir in Hy. destruct Hx as [Hx|[-> Hx]]; [|contradiction].
    destruct Hy as [Hy|[-> Hy]]; [|contradiction].
    destruct (uh_ok h W l) as (hs' & Eu' & _ & _ & _ & _ & L1 & L2).
    { intros z Hz. apply Il in Hz as [_ (t & Ht & Hz)]. destruct (htype_set h t (HT t Ht)) as [_ I]. auto. } { exact Nl. }
    assert (hs' = hs) by congruence. subst hs'. destruct (le_lt_dec (length l) 1) as [H|H].
    - rewrite (L1 H) in *. destruct l as [|a [|b q]]; cbn in H; try lia; [destruct Hx|]. destruct Hx as [<-|[]], Hy as [<-|[]]. reflexivity.
    - destruct (L2 H) as [R _]. now apply R.
  Qed.

  Lemma reduced_ext (P Q : nat -> Prop) : (forall x, P x <-> Q x) -> reduced h P -> reduced h Q.
  Proof.
    intros H [R1 R2]. split.
    - intros x y Hx Hy. apply R1; now apply H.
    - intros m c0 Hc. destruct (R2 m c0 Hc) as (c & Hc' & Hn). exists c. split; [exact Hc'|]. intros Q'. apply Hn. now apply H.
  Qed.

  Definition no_only_child : Prop := forall c m, par h c m -> exists c', par h c' m /\ c' <> c.

  Lemma union_reduced f types r : no_only_child -> (forall t, In t types -> htype h t) -> ~ all_names types T_List ->
    (forall t, In t types -> reduced h (fun a => is_member a t)) ->
    union_of_types h (S f) types = Ok r -> reduced h (fun a => is_member a r).
  Proof.
    intros NC HT HL HR E. destruct (union_shape f types HT) as (r' & E' & Hr & S). assert (r' = r) by congruence. subst r'.
    destruct S as [[Hin _]|[_ (l & hs & Nl & Il & Eu & Ir)]]; [auto|].
    destruct (uh_ok h W l) as (hs' & Eu' & _ & _ & _ & _ & L1 & L2).
    { intros z Hz. apply Il in Hz as [_ (t & Ht & Hz)]. destruct (htype_set h t (HT t Ht)) as [_ I]. auto. } { exact Nl. }
    assert (hs' = hs) by congruence. subst hs'.
    apply (reduced_ext (fun x => In x hs)).
    { intros x. rewrite <- hn_member, Ir. split; [auto|]. intros [Q|[-> Q]]; [exact Q|contradiction]. }
    destruct (le_lt_dec (length l) 1) as [H|H]; [|now apply L2]. rewrite (L1 H). destruct l as [|a [|b q]]; cbn in H; try lia.
    - split; [intros x y []|]. intros m c0 Hc. exists c0. split; [exact Hc|]. intros [].
    - split; [intros x y [<-|[]] [<-|[]] _; reflexivity|]. intros m c0 Hc. destruct (Nat.eq_dec c0 a) as [->|Hn].
      + destruct (NC a m Hc) as (c' & Hc' & Hn). exists c'. split; [exact Hc'|]. intros [->|[]]. congruence.
      + exists c0. split; [exact Hc|]. intros [->|[]]. congruence.
  Qed.

  Lemma reduced_types_eq t t' : htype h t -> htype h t' -> reduced h (fun a => is_member a t) -> reduced h (fun a => is_member a t') ->
    (forall v, leaf h v -> (hmem h v t <-> hmem h v t')) -> forall a, is_member a t <-> is_member a t'.
  Proof.
    intros Ht Ht' R R' H a. rewrite <- !hn_member. destruct (htype_set h t Ht) as [_ I], (htype_set h t' Ht') as [_ I'].
    apply (reduced_unique h W (hn t) (hn t') I I').
    - eapply reduced_ext; [|exact R]. intros x. symmetry. apply hn_member.
    - eapply reduced_ext; [|exact R']. intros x. symmetry. apply hn_member.
    - intros v Hv. rewrite <- (hn_mem h v t Ht), <- (hn_mem h v t' Ht'). auto.
  Qed.

  (* the result depends only on the set of the types *)
  Lemma union_order f types types' r r' : (forall t, In t types -> htype h t) -> (forall t, In t types <-> In t types') ->
    union_of_types h (S f) types = Ok r -> union_of_types h (S f) types' = Ok r' -> forall a, is_member a r <-> is_member a r'.
  Proof.
    intros HT HE E E' a. assert (HT' : forall t, In t types' -> htype h t) by (intros t Ht; apply HT; now apply HE).
    destruct (union_shape f types HT) as (r1 & E1 & Hr & S). assert (r1 = r) by congruence. subst r1.
    destruct (union_shape f types' HT') as (r1 & E1' & Hr' & S'). assert (r1 = r') by congruence. subst r1. rewrite <- !hn_member.
    assert (AN : forall x, all_names types x <-> all_names types' x).
    { intros x. unfold all_names. split; intros (t & Ht & Hx); exists t; (split; [now apply HE|exact Hx]). }
    assert (Mixed : forall types types' r, (forall t, In t types <-> In t types') -> In r types -> 
        (forall t, In t types -> (forall x, In x (hn t) <-> In x (hn r)) \/ hn t = []) ->
        (types' = [] \/ exists t1 t2, In t1 types' /\ In t2 types' /\ hn t1 <> [] /\ hn t2 <> [] /\ ~ (forall x, In x (hn t1) <-> In x (hn t2))) -> False).
    { clear. intros types types' r HE Hin Hall [->|(t1 & t2 & H1 & H2 & N1 & N2 & Hd)]; [now apply HE in Hin|].
      apply HE in H1, H2. destruct (Hall t1 H1) as [Q1|Q1], (Hall t2 H2) as [Q2|Q2]; try contradiction. apply Hd. intros x. rewrite Q1, Q2. tauto. }
    destruct S as [[Hin Hall]|[Hd (l & hs & Nl & Il & Eu & Ir)]], S' as [[Hin' Hall']|[Hd' (l' & hs' & Nl' & Il' & Eu' & Ir')]].
    - apply HE in Hin'. destruct (Hall r' Hin') as [Q|Q]; [now rewrite Q|]. apply HE in Hin. destruct (Hall' r Hin) as [Q'|Q']; [now rewrite Q'|]. now rewrite Q, Q'.
    - exfalso. now apply (Mixed types types' r).
    - exfalso. apply (Mixed types' types r'); auto. intros t. symmetry. apply HE.
    - rewrite Ir, Ir', AN. enough (In a hs <-> In a hs') by tauto.
      assert (Ell : forall x, In x l <-> In x l') by (intros x; rewrite Il, Il', AN; tauto).
      assert (IN : incl l (names h)).
      { intros z Hz. apply Il in Hz as [_ (t & Ht & Hz)]. destruct (htype_set h t (HT t Ht)) as [_ I]. auto. }
      assert (IN' : incl l' (names h)) by (intros z Hz; apply IN; now apply Ell).
      assert (Elen : length l = length l') by (apply Permutation_length; now apply NoDup_Permutation).
      destruct (uh_ok h W l IN Nl) as (h1 & F1 & I1 & _ & _ & V1 & L1 & M1). assert (h1 = hs) by congruence. subst h1.
      destruct (uh_ok h W l' IN' Nl') as (h1 & F1' & I1' & _ & _ & V1' & L1' & M1'). assert (h1 = hs') by congruence. subst h1.
      destruct (le_lt_dec (length l) 1) as [H|H].
      + rewrite L1, L1' by lia. apply Ell.
      + apply (reduced_unique h W hs hs' I1 I1'); [apply M1; lia|apply M1'; lia|]. intros v Hv. rewrite (V1 v Hv), (V1' v Hv).
        split; intros (x & Hx & Hxv); exists x; (split; [now apply Ell|exact Hxv]).
  Qed.

  (* ---------------- splitting ---------------- *)

  Variable sc : list (nat * option nat).

  Definition split_step (f : nat) (B a : ty) (Bs : list ty) (io : list ty * list ty) : res (list ty * list ty) :=
    if ty_eqb a (Hier T_Normal) && ty_eqb B T_Completion_Record then Ok (fst io, tadd a (snd io))
    else
      do s <- is_a_subtype_of_or_equal_to h sc a B ;;
      if s then Ok (tadd a (fst io), snd io)
      else
        do bs <- filter_r (fun b => is_a_subtype_of_or_equal_to h sc b a) Bs ;;
        match bs with
        | [] => Ok (fst io, tadd a (snd io))
        | _ =>
          match a with
          | Hier n =>
            if n =? T_List then
              match bs with
              | [ListT e] => Ok (tadd (ListT e) (fst io), tadd (ListT (Hier T_other_)) (snd io))
              | _ => Err AssertionError
              end
            else
              do _ <- tnode_for h n ;;
              split_recurse h sc f B (map Hier (children h n)) bs io
          | ListT e =>
            if ty_eqb a (ListT (UnionT [Hier T_String; Hier T_Undefined])) &&
               match bs with [b] => ty_eqb b (ListT (Hier T_String)) | _ => false end
            then Ok (tadd (ListT (Hier T_String)) (fst io), tadd (ListT (UnionT [Hier T_String; Hier T_Undefined])) (snd io))
            else Err AssertionError
          | RecT _ _ =>
            if ty_eqb a T_Completion_Record && tsubset bs ts_in_CR
            then Ok (fold_left (fun io t => if tmem t bs then (tadd t (fst io), snd io) else (fst io, tadd t (snd io))) ts_in_CR io)
            else Err AssertionError
          | _ => Err KeyError
          end
        end.
  Lemma split_recurse_nil f B Bs io : split_recurse h sc (S f) B [] Bs io = Ok io.
  Proof. reflexivity. Qed.
  Lemma split_recurse_cons f B a As Bs io : split_recurse h sc (S f) B (a :: As) Bs io =
    do io' <- split_step f B (if is_TBD a then Hier T_Top_ else a) Bs io ;; split_recurse h sc (S f) B As Bs io'.
  Proof. reflexivity. Qed.

  (* values of a list of hierarchy types *)
  Definition lval (l : list nat) (v : nat) : Prop := exists x, In x l /\ anc' x v.

  Lemma lval_nil v : ~ lval [] v.
  Proof. intros (x & [] & _). Qed.
  Lemma tadd_map a l : exists l', tadd (Hier a) (map Hier l) = map Hier l' /\ forall x, In x l' <-> In x l \/ x = a.
  Proof.
    unfold tadd. destruct (tmem (Hier a) (map Hier l)) eqn:E.
    - apply tmem_map in E. exists l. split; [reflexivity|]. intros x. split; [auto|]. intros [H| ->]; auto.
    - exists (l ++ [a]). rewrite map_app. split; [reflexivity|]. intros x. rewrite in_app_iff. cbn. intuition auto.
  Qed.

  Definition split_post (B : ty) (la li lo li' lo' : list nat) : Prop :=
    incl li' (names h) /\ incl lo' (names h) /\ forall v, leaf h v ->
      (lval li' v <-> lval li v \/ (lval la v /\ hmem h v B)) /\ (lval lo' v <-> lval lo v \/ (lval la v /\ ~ hmem h v B)).

  Lemma split_recurse_ok B : htype h B -> forall fuel la k lb li lo, (forall a, In a la -> In a (names h) /\ exists j, lev h a j /\ k <= j) ->
    length h <= fuel + k -> incl lb (hn B) -> (forall a b, In a la -> In b (hn B) -> anc' a b -> In b lb) ->
    incl li (names h) -> incl lo (names h) ->
    exists li' lo', split_recurse h sc (S fuel) B (map Hier la) (map Hier lb) (map Hier li, map Hier lo) = Ok (map Hier li', map Hier lo') /\
      split_post B la li lo li' lo'.
  Proof.
    intros HB. induction fuel as [|fuel IHf]; intros la k lb li lo Hla Hf Hlb Hwithin Hli Hlo.
    { destruct la as [|a la].
      - exists li, lo. split; [reflexivity|]. split; [exact Hli|]. split; [exact Hlo|]. intros v Hv. pose proof (lval_nil v). tauto.
      - exfalso. destruct (Hla a (or_introl eq_refl)) as (Ha & j & Hj & Hkj). destruct (lev_in h W a Ha) as (j' & Hj' & Hlt).
        rewrite (lev_fun h W _ _ _ Hj' Hj) in Hlt. lia. }
    revert li lo Hli Hlo. induction la as [|a la IHla]; intros li lo Hli Hlo.
    { exists li, lo. split; [reflexivity|]. split; [exact Hli|]. split; [exact Hlo|]. intros v Hv. pose proof (lval_nil v). tauto. }
    cbn [map]. rewrite split_recurse_cons. cbn [is_TBD].
    destruct (Hla a (or_introl eq_refl)) as (Ha & j & Hj & Hkj).
    assert (Step : exists li1 lo1, split_step (S fuel) B (Hier a) (map Hier lb) (map Hier li, map Hier lo) = Ok (map Hier li1, map Hier lo1) /\
       split_post B [a] li lo li1 lo1).
    { unfold split_step. cbn [fst snd]. replace (ty_eqb B T_Completion_Record) with false.
      2: { destruct HB as [(b & -> & _)|(l & -> & _)]; reflexivity. }
      rewrite andb_false_r.
      assert (HA : htype h (Hier a)) by (left; eauto).
      destruct (sub_ok h sc W (Hier a) B HA HB) as (r & -> & Hr). cbn [bind].
      assert (Hr' : r = true <-> exists b, In b (hn B) /\ anc' b a).
      { rewrite Hr. unfold hn at 1. cbn. split; [intros Q; apply Q; now left|]. intros Q x [<-|[]]. exact Q. }
      clear Hr. destruct r.
      - destruct (proj1 Hr' eq_refl) as (b & Hb & Hba). destruct (tadd_map a li) as (li1 & -> & I1). exists li1, lo. split; [reflexivity|].
        split; [intros x Hx; apply I1 in Hx as [Hx| ->]; auto|]. split; [exact Hlo|]. intros v Hv. split.
        + unfold lval. split.
          * intros (x & Hx & Hxv). apply I1 in Hx as [Hx| ->]; [left; eauto|]. right. split; [exists a; split; [now left|exact Hxv]|].
            apply (hn_mem h v B HB). exists b. split; [exact Hb|]. eapply anc_trans; eauto.
          * intros [(x & Hx & Hxv)|[(x & [<-|[]] & Hxv) _]]; [exists x; split; [apply I1; now left|exact Hxv]|]. exists a. split; [apply I1; now right|exact Hxv].
        + split; [now left|]. intros [Q|[(x & [<-|[]] & Hxv) Q]]; [exact Q|]. exfalso. apply Q. apply (hn_mem h v B HB). exists b. split; [exact Hb|]. eapply anc_trans; eauto.
      - assert (Hno : forall b, In b (hn B) -> ~ anc' b a) by (intros b Hb Q; assert (false = true) by (apply Hr'; eauto); discriminate). clear Hr'.
        assert (HlbN : incl lb (names h)) by (intros x Hx; apply (htype_set h B HB); auto).
        destruct (filter_r_ok (fun b => is_a_subtype_of_or_equal_to h sc b (Hier a)) (fun b => exists n, b = Hier n /\ anc' a n) (map Hier lb)) as (bs & -> & Hbs).
        { intros x Hx. apply in_map_iff in Hx as (b & <- & Hb). assert (HBb : htype h (Hier b)) by (left; exists b; auto).
          destruct (sub_ok h sc W (Hier b) (Hier a) HBb HA) as (r & E & Hr). exists r. split; [exact E|]. rewrite Hr. unfold hn. cbn. split.
          - intros Q. destruct (Q b (or_introl eq_refl)) as (c & [<-|[]] & Q'). eauto.
          - intros (n & [= <-] & Q) x [<-|[]]. exists a. auto. }
        cbn [bind]. assert (Ebs : exists lbs, bs = map Hier lbs /\ forall b, In b lbs <-> In b lb /\ anc' a b).
        { clear -Hbs. exists (flat_map (fun m => match m with Hier n => [n] | _ => [] end) bs). 
          assert (E : bs = map Hier (flat_map (fun m => match m with Hier n => [n] | _ => [] end) bs)).
          { assert (Q : forall x, In x bs -> exists n, x = Hier n) by (intros x Hx; apply Hbs in Hx as (_ & n & -> & _); eauto). clear -Q.
            induction bs as [|x bs IH]; cbn; [reflexivity|]. destruct (Q x (or_introl eq_refl)) as (n & ->). cbn. rewrite <- IH; [reflexivity|]. intros; apply Q; now right. }
          split; [exact E|]. intros b. split.
          - intros Hb. apply (in_map Hier) in Hb. rewrite <- E in Hb. apply Hbs in Hb as [Q (n & [= <-] & Q')]. split; [|exact Q'].
            apply in_map_iff in Q as (b' & [= ->] & Q). exact Q.
          - intros [Q1 Q2]. apply in_flat_map. exists (Hier b). split; [|now left]. apply Hbs. split; [now apply in_map|eauto]. }
        destruct Ebs as (lbs & -> & Hlbs). destruct lbs as [|b0 lbs0] eqn:Elbs.
        + cbn [map]. destruct (tadd_map a lo) as (lo1 & -> & I1). exists li, lo1. split; [reflexivity|]. split; [exact Hli|].
          split; [intros x Hx; apply I1 in Hx as [Hx| ->]; auto|]. intros v Hv.
          assert (Hout : anc' a v -> ~ hmem h v B).
          { intros Hav Hm. apply (hn_mem h v B HB) in Hm as (b & Hb & Hbv). destruct (anc_tree h W _ _ _ Hav Hbv) as [Q|Q]; [|exact (Hno b Hb Q)].
            apply (Hlbs b). split; [|exact Q]. apply (Hwithin a b); [now left|exact Hb|exact Q]. }
          split; [split; [now left|]; intros [Q|[(x & [<-|[]] & Hxv) Q]]; [exact Q|]; exfalso; now apply Hout in Q|].
          unfold lval. split.
          * intros (x & Hx & Hxv). apply I1 in Hx as [Hx| ->]; [left; eauto|]. right. split; [exists a; split; [now left|exact Hxv]|auto].
          * intros [(x & Hx & Hxv)|[(x & [<-|[]] & Hxv) _]]; [exists x; split; [apply I1; now left|exact Hxv]|]. exists a. split; [apply I1; now right|exact Hxv].
        + rewrite <- Elbs in *. assert (Hb0 : In b0 lbs) by (rewrite Elbs; now left).
          assert (HnL : a <> T_List).
          { intros ->. apply Hlbs in Hb0 as [Q1 Q2]. assert (T_List = b0) as <-; [|apply (Hno T_List); [auto|constructor]].
            apply anc_down in Q2 as [Q2|(d & Hd & _)]; [exact Q2|]. exfalso. exact (LL d Hd). }
          apply Nat.eqb_neq in HnL.
          assert (Eq : (match map Hier lbs with [] => Ok (map Hier li, tadd (Hier a) (map Hier lo)) | _ =>
              if a =? T_List then match map Hier lbs with
                | [ListT e] => Ok (tadd (ListT e) (map Hier li), tadd (ListT (Hier T_other_)) (map Hier lo)) | _ => Err AssertionError end
              else do _ <- tnode_for h a ;; split_recurse h sc (S fuel) B (map Hier (children h a)) (map Hier lbs) (map Hier li, map Hier lo) end) =
              split_recurse h sc (S fuel) B (map Hier (children h a)) (map Hier lbs) (map Hier li, map Hier lo)).
          { rewrite HnL. destruct (tnode_for_in h a (wf_nodup h W) Ha) as (t & -> & _). cbn [bind]. rewrite Elbs. reflexivity. }
          rewrite Eq. clear Eq.
          destruct (IHf (children h a) (S j) lbs li lo) as (li1 & lo1 & E & I1 & I2 & V); auto.
          * intros c Hc. apply in_children in Hc. split; [now apply par_in in Hc|]. destruct (lev_in h W c (proj1 (par_in h W _ _ Hc))) as (m & Hm & _).
            destruct (lev_par h W _ _ _ Hc Hm) as (m' & -> & Hm'). rewrite (lev_fun h W _ _ _ Hm' Hj) in *. eauto.
          * lia.
          * intros x Hx. apply Hlbs in Hx. apply Hlb. tauto.
          * intros c b Hc Hb Hcb. apply in_children in Hc. assert (anc' a b) as Hab by (eapply anc_trans; [apply anc_par; exact Hc|exact Hcb]).
            apply Hlbs. split; [|exact Hab]. apply (Hwithin a b); auto. now left.
          * exists li1, lo1. split; [exact E|]. split; [exact I1|]. split; [exact I2|]. intros v Hv. destruct (V v Hv) as [V1 V2].
            assert (Ech : lval (children h a) v <-> lval [a] v).
            { unfold lval. split.
              - intros (c & Hc & Hcv). apply in_children in Hc. exists a. split; [now left|]. eapply anc_trans; [apply anc_par; exact Hc|exact Hcv].
              - intros (x & [<-|[]] & Hav). apply anc_down in Hav as [->|(d & Hd & Hdv)]; [|exists d; split; [now apply in_children|exact Hdv]].
                exfalso. apply Hlbs in Hb0 as [Q1 Q2]. apply (anc_leaf h _ _ Hv) in Q2. subst b0. apply (Hno v); [auto|constructor]. }
            rewrite V1, V2, Ech. tauto. }
    destruct Step as (li1 & lo1 & -> & I1 & I2 & V). cbn [bind].
    destruct (IHla) with (li := li1) (lo := lo1) as (li2 & lo2 & E & J1 & J2 & V'); auto.
    { intros x Hx. apply Hla. now right. } { intros x b Hx. apply (Hwithin x b). now right. }
    exists li2, lo2. split; [exact E|]. split; [exact J1|]. split; [exact J2|]. intros v Hv. destruct (V v Hv) as [A1 A2], (V' v Hv) as [B1 B2].
    assert (Ec : lval (a :: la) v <-> lval [a] v \/ lval la v).
    { unfold lval. cbn. split; [intros (x & [<-|Hx] & Q); [left; exists a; auto|right; eauto]|]. intros [(x & [<-|[]] & Q)|(x & Hx & Q)]; [exists a; auto|eauto]. }
    rewrite B1, B2, A1, A2, Ec. tauto.
  Qed.

  Lemma split_by_ok uf A B : htype h A -> htype h B -> exists i o, split_by h sc (S uf) A B = Ok (i, o) /\ htype h i /\ htype h o /\
    forall v, leaf h v -> (hmem h v i <-> hmem h v A /\ hmem h v B) /\ (hmem h v o <-> hmem h v A /\ ~ hmem h v B).
  Proof.
    intros HA HB. unfold split_by. destruct (htype_set h A HA) as [EA IA], (htype_set h B HB) as [EB IB]. rewrite EA, EB.
    destruct (same_set (map Hier (hn A)) (map Hier (hn B))) eqn:Es.
    - unfold same_set in Es. apply andb_true_iff in Es as [S1 S2]. apply tsubset_map in S1, S2. exists A, T_0. split; [reflexivity|]. split; [exact HA|].
      split; [exact htype_T_0|]. intros v Hv. assert (E : hmem h v A <-> hmem h v B).
      { rewrite (hn_mem h v A HA), (hn_mem h v B HB). split; intros (x & Hx & Q); exists x; auto. }
      cbn. split; [tauto|]. split; [intros (a & [] & _)|tauto].
    - clear Es. destruct (split_recurse_ok B HB (S (length h)) (hn A) 0 (hn B) [] []) as (li & lo & E & I1 & I2 & V).
      { intros a Ha. split; [auto|]. destruct (lev_in h W a (IA a Ha)) as (j & Hj & _). exists j. split; [exact Hj|lia]. }
      { lia. } { apply incl_refl. } { auto. } { intros x []. } { intros x []. }
      cbn [map] in E. rewrite E. cbn [bind fst snd].
      assert (HT : forall l, incl l (names h) -> forall t, In t (map Hier l) -> htype h t).
      { intros l Hl t Ht. apply in_map_iff in Ht as (a & <- & Ha). left. eauto. }
      destruct (union_ok uf (map Hier li) (HT li I1)) as (i & -> & Hi & Vi). cbn [bind].
      destruct (union_ok uf (map Hier lo) (HT lo I2)) as (o & -> & Ho & Vo). cbn [bind].
      exists i, o. split; [reflexivity|]. split; [exact Hi|]. split; [exact Ho|]. intros v Hv. destruct (V v Hv) as [V1 V2].
      assert (EL : forall l, (exists t, In t (map Hier l) /\ hmem h v t) <-> lval l v).
      { intros l. unfold lval. split.
        - intros (t & Ht & Q). apply in_map_iff in Ht as (a & <- & Ha). eauto.
        - intros (a & Ha & Q). exists (Hier a). split; [now apply in_map|exact Q]. }
      rewrite (Vi v Hv), (Vo v Hv), !EL, V1, V2. assert (LA : lval (hn A) v <-> hmem h v A) by (rewrite (hn_mem h v A HA); reflexivity).
      rewrite LA. pose proof (lval_nil v). tauto.
  Qed.
End Union.
