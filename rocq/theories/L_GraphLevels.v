(* Specification and lemmas for prerequisites, cycle flags and levels of Graph.py (C11-C13). *)
From Coq Require Import Sorted Permutation.
From Verif Require Import M_Base L_Base M_Graph L_Graph.

(* ---------------- graphs built through the API ---------------- *)

Lemma set_add_In x y l : In y (set_add x l) <-> y = x \/ In y l.
Proof.
  unfold set_add. destruct (mem x l) eqn:E.
  - apply mem_In in E. split; [auto|]. intros [->|H]; auto.
  - rewrite in_app_iff. cbn. split; intros H; intuition.
Qed.

(* what the graph contains after a history of operations *)
Definition hist_vertex (h : list gop) (v : nat) : Prop :=
  exists o, In o h /\ match o with AddVertex x => v = x | AddArc s d => v = s \/ v = d end.
Definition hist_arc (h : list gop) (s d : nat) : Prop := In (AddArc s d) h.

Definition build (h : list gop) : graph := fold_left apply_gop h empty_graph.

Lemma build_spec h : (forall v, In v (vertices (build h)) <-> hist_vertex h v) /\
  (forall s d, arc (build h) s d <-> hist_arc h s d).
Proof.
  unfold build, hist_vertex, hist_arc. induction h as [|o h IH] using rev_ind.
  - cbn. split; [intros v; split; [intros []|intros (o & [] & _)]|intros s d; split; [intros []|intros []]].
  - rewrite fold_left_app. cbn [fold_left]. destruct IH as [IH1 IH2]. set (g := fold_left apply_gop h empty_graph) in *.
    assert (HV : forall x, (exists o', In o' (h ++ [o]) /\ match o' with AddVertex y => x = y | AddArc s d => x = s \/ x = d end) <->
       (match o with AddVertex y => x = y | AddArc s d => x = s \/ x = d end) \/ In x (vertices g)).
    { intros x. rewrite IH1. split.
      - intros (o' & Ho & Hx). apply in_app_or in Ho as [Ho|[<-|[]]]; [right; eauto|left; exact Hx].
      - intros [Hx|(o' & Ho & Hx)]; [exists o; split; [apply in_or_app; right; now left|exact Hx]|].
        exists o'. split; [apply in_or_app; now left|exact Hx]. }
    split.
    + intros x. rewrite HV. destruct o as [v|s d]; cbn [apply_gop add_vertex add_arc vertices]; rewrite ?set_add_In; tauto.
    + intros a b. assert (HA : In (AddArc a b) (h ++ [o]) <-> o = AddArc a b \/ In (AddArc a b) h).
      { rewrite in_app_iff. cbn. tauto. }
      rewrite HA, <- IH2. destruct o as [v|s d]; cbn [apply_gop].
      * unfold arc, arcs_from. cbn. split; [auto|]. intros [H|H]; [discriminate|exact H].
      * unfold arc, arcs_from at 1. cbn [add_arc arcs lookup]. destruct (Nat.eqb_spec s a) as [->|Hne].
        -- rewrite set_add_In. unfold arcs_from. cbn [add_vertex arcs]. split.
           ++ intros [->|H]; auto.
           ++ intros [H|H]; [inversion H; auto|auto].
        -- unfold arcs_from. cbn [add_vertex arcs]. split; [auto|]. intros [H|H]; [inversion H; congruence|exact H].
Qed.

Lemma build_closed h : closed (build h).
Proof.
  intros x y Hx Ha. destruct (build_spec h) as [H1 H2]. apply H2 in Ha. apply H1. exists (AddArc x y).
  split; [exact Ha|]. now right.
Qed.

(* ---------------- linking ---------------- *)

Section Link.
  Variable g : graph.
  Variable cf : list (nat * nat).

  Lemma scan_arcs_ok c : forall ps f pr, (forall p, In p ps -> exists k, lookup cf p = Some k) -> NoDup pr ->
    exists f' pr', scan_arcs cf c ps (f, pr) = Ok (f', pr') /\ NoDup pr' /\
      (f' = true <-> f = true \/ exists p, In p ps /\ lookup cf p = Some c) /\
      (forall k, In k pr' <-> In k pr \/ (k <> c /\ exists p, In p ps /\ lookup cf p = Some k)).
  Proof.
    induction ps as [|p ps IH]; intros f pr Hd Hn; cbn [scan_arcs].
    - exists f, pr. split; [reflexivity|]. split; [exact Hn|]. split; [|intros k]; split; auto.
      + intros [H|(p & [] & _)]. exact H.
      + intros [H|(_ & p & [] & _)]. exact H.
    - destruct (Hd p (or_introl eq_refl)) as [k Hk]. rewrite Hk. cbn [fst snd].
      assert (Hd' : forall q, In q ps -> exists k, lookup cf q = Some k) by (intros; apply Hd; now right).
      destruct (Nat.eqb_spec k c) as [->|Hne].
      + destruct (IH true pr Hd' Hn) as (f' & pr' & H1 & H2 & H3 & H4). exists f', pr'.
        split; [exact H1|]. split; [exact H2|]. split.
        * rewrite H3. split; [|auto]. intros _. right. exists p. split; [now left|exact Hk].
        * intros j. rewrite H4. split.
          -- intros [H|(Hj & q & Hq & Hl)]; [auto|]. right. split; [exact Hj|]. exists q. split; [now right|exact Hl].
          -- intros [H|(Hj & q & [<-|Hq] & Hl)]; [auto|congruence|]. right. eauto.
      + set (pr1 := if mem k pr then pr else pr ++ [k]).
        assert (HN1 : NoDup pr1 /\ forall j, In j pr1 <-> In j pr \/ j = k).
        { unfold pr1. destruct (mem k pr) eqn:Em.
          - apply mem_In in Em. split; [exact Hn|]. intros j. split; [auto|]. intros [H| ->]; auto.
          - apply mem_not_In in Em. split.
            + apply NoDup_app; [exact Hn|constructor; [intros []|constructor]|]. intros x Hx [<-|[]]. contradiction.
            + intros j. rewrite in_app_iff. cbn. intuition. }
        destruct HN1 as [HN1 HIn1].
        destruct (IH f pr1 Hd' HN1) as (f' & pr' & H1 & H2 & H3 & H4). exists f', pr'.
        split; [exact H1|]. split; [exact H2|]. split.
        * rewrite H3. split.
          -- intros [H|(q & Hq & Hl)]; [auto|]. right. exists q. split; [now right|exact Hl].
          -- intros [H|(q & [<-|Hq] & Hl)]; [auto|congruence|]. right. eauto.
        * intros j. rewrite H4, HIn1. split.
          -- intros [[H| ->]|(Hj & q & Hq & Hl)]; [auto| |].
             ++ right. split; [exact Hne|]. exists p. split; [now left|exact Hk].
             ++ right. split; [exact Hj|]. exists q. split; [now right|exact Hl].
          -- intros [H|(Hj & q & [<-|Hq] & Hl)]; [auto| |].
             ++ left. right. congruence.
             ++ right. eauto.
  Qed.

  Lemma scan_members_ok c : forall vs f pr, (forall v p, In v vs -> arc g v p -> exists k, lookup cf p = Some k) -> NoDup pr ->
    exists f' pr', scan_members g cf c vs (f, pr) = Ok (f', pr') /\ NoDup pr' /\
      (f' = true <-> f = true \/ exists v p, In v vs /\ arc g v p /\ lookup cf p = Some c) /\
      (forall k, In k pr' <-> In k pr \/ (k <> c /\ exists v p, In v vs /\ arc g v p /\ lookup cf p = Some k)).
  Proof.
    induction vs as [|v vs IH]; intros f pr Hd Hn; cbn [scan_members].
    - exists f, pr. split; [reflexivity|]. split; [exact Hn|]. split; [|intros k]; split; auto.
      + intros [H|(p & q & [] & _)]. exact H.
      + intros [H|(_ & p & q & [] & _)]. exact H.
    - destruct (scan_arcs_ok c (arcs_from g v) f pr) as (f1 & pr1 & H1 & H2 & H3 & H4); auto.
      { intros p Hp. apply (Hd v p (or_introl eq_refl) Hp). }
      rewrite H1. cbn [bind].
      destruct (IH f1 pr1) as (f' & pr' & R1 & R2 & R3 & R4); auto.
      { intros w p Hw Hp. apply (Hd w p (or_intror Hw) Hp). }
      exists f', pr'. split; [exact R1|]. split; [exact R2|]. split.
      + rewrite R3, H3. split.
        * intros [[H|(p & Hp & Hl)]|(w & p & Hw & Hp & Hl)]; [auto| |].
          -- right. exists v, p. split; [now left|auto].
          -- right. exists w, p. split; [now right|auto].
        * intros [H|(w & p & [<-|Hw] & Hp & Hl)]; [auto| |].
          -- left. right. exists p. auto.
          -- right. exists w, p. auto.
      + intros k. rewrite R4, H4. split.
        * intros [[H|(Hk & p & Hp & Hl)]|(Hk & w & p & Hw & Hp & Hl)]; [auto| |].
          -- right. split; [exact Hk|]. exists v, p. split; [now left|auto].
          -- right. split; [exact Hk|]. exists w, p. split; [now right|auto].
        * intros [H|(Hk & w & p & [<-|Hw] & Hp & Hl)]; [auto| |].
          -- left. right. split; [exact Hk|]. exists p. auto.
          -- right. split; [exact Hk|]. exists w, p. auto.
  Qed.

  Lemma link_ok : forall cls c,
    (forall cl v p, In cl cls -> In v (members cl) -> arc g v p -> exists k, lookup cf p = Some k) ->
    (forall cl, In cl cls -> direct_prereqs cl = []) ->
    (forall i cl, nth_error cls i = Some cl -> 1 < length (members cl) ->
       exists v p, In v (members cl) /\ arc g v p /\ lookup cf p = Some (c + i)) ->
    exists cls', link_clusters g cf c cls = Ok cls' /\ length cls' = length cls /\
      forall i cl, nth_error cls i = Some cl -> exists cl', nth_error cls' i = Some cl' /\
        members cl' = members cl /\ level cl' = level cl /\ NoDup (direct_prereqs cl') /\
        (contains_a_cycle cl' = true <-> exists v p, In v (members cl) /\ arc g v p /\ lookup cf p = Some (c + i)) /\
        (forall k, In k (direct_prereqs cl') <-> k <> c + i /\ exists v p, In v (members cl) /\ arc g v p /\ lookup cf p = Some k).
  Proof.
    induction cls as [|cl cls IH]; intros c Hd Hp Hm; cbn [link_clusters].
    - exists []. split; [reflexivity|]. split; [reflexivity|]. intros [|i] cl H; discriminate.
    - rewrite (Hp cl (or_introl eq_refl)).
      destruct (scan_members_ok c (members cl) false []) as (f & pr & H1 & H2 & H3 & H4).
      { intros v p Hv Ha. apply (Hd cl v p (or_introl eq_refl) Hv Ha). }
      { constructor. }
      rewrite H1. cbn [bind].
      assert ((if 1 <? length (members cl) then f else true) = true) as ->.
      { destruct (Nat.ltb_spec 1 (length (members cl))) as [Hlt|]; [|reflexivity].
        apply H3. right. destruct (Hm 0 cl eq_refl Hlt) as (v & p & Hv & Ha & Hl). rewrite Nat.add_0_r in Hl. eauto. }
      cbn [assert_ bind].
      destruct (IH (S c)) as (cls' & R1 & R2 & R3).
      { intros cl' v p Hc. apply Hd. now right. }
      { intros cl' Hc. apply Hp. now right. }
      { intros i cl' Hi Hlen. destruct (Hm (S i) cl' Hi Hlen) as (v & p & Hv & Ha & Hl). exists v, p.
        replace (S c + i) with (c + S i) by lia. auto. }
      rewrite R1. cbn [bind]. eexists. split; [reflexivity|]. split; [cbn; now rewrite R2|].
      intros [|i] cl' Hi; cbn in Hi.
      + inversion Hi; subst cl'. eexists. split; [reflexivity|]. cbn. rewrite Nat.add_0_r.
        split; [reflexivity|]. split; [reflexivity|]. split; [exact H2|]. split.
        * rewrite H3. split; [intros [H|H]; [discriminate|exact H]|auto].
        * intros k. rewrite H4. split; [intros [[]|H]; exact H|auto].
      + destruct (R3 i cl' Hi) as (cl2 & Q). exists cl2. cbn. replace (c + S i) with (S c + i) by lia. exact Q.
  Qed.
End Link.

(* ---------------- levels ---------------- *)

Definition level_of (cls : list cluster) (k : nat) : option nat :=
  match nth_error cls k with Some cl => level cl | None => None end.
(* 0 without prerequisites, otherwise one more than the largest level of a prerequisite *)
Definition is_level (cls : list cluster) (prereqs : list nat) (n : nat) : Prop :=
  (prereqs = [] /\ n = 0) \/
  exists m, n = S m /\ (exists p, In p prereqs /\ level_of cls p = Some m) /\
            (forall p, In p prereqs -> exists q, level_of cls p = Some q /\ q <= m).

Lemma upd_nth {A} (f : A -> A) : forall l i k, nth_error (upd i f l) k =
  match nth_error l k with Some x => Some (if i =? k then f x else x) | None => None end.
Proof.
  induction l as [|x l IH]; intros i k; [destruct i, k; reflexivity|].
  destruct i, k; cbn; try reflexivity; [now destruct (nth_error l k)|apply IH].
Qed.
Lemma upd_length {A} (f : A -> A) : forall l i, length (upd i f l) = length l.
Proof. induction l as [|x l IH]; intros [|i]; cbn; auto. Qed.

Lemma max_gen_ok get : forall ps cur st, 
  (forall p, In p ps -> exists n, get p st = Ok (st, Some n)) ->
  exists m, max_gen get (Some cur) ps st = Ok (st, Some m) /\ cur <= m /\
    (forall p n, In p ps -> get p st = Ok (st, Some n) -> n <= m) /\
    (m = cur \/ exists p, In p ps /\ get p st = Ok (st, Some m)).
Proof.
  induction ps as [|p ps IH]; intros cur st H; cbn [max_gen].
  - exists cur. split; [reflexivity|]. split; [lia|]. split; [intros p n []|now left].
  - destruct (H p (or_introl eq_refl)) as [n Hn]. rewrite Hn. cbn [bind].
    destruct (IH (Nat.max cur n) st) as (m & H1 & H2 & H3 & H4); [intros q Hq; apply H; now right|].
    exists m. split; [exact H1|]. split; [lia|]. split.
    + intros q k [<-|Hq] Hk; [|eauto]. rewrite Hn in Hk. inversion Hk; subst. lia.
    + destruct H4 as [->|(q & Hq & Hk)]; [|right; exists q; split; [now right|exact Hk]].
      destruct (Nat.max_spec cur n) as [[? ->]|[? ->]]; [|now left]. right. exists p. split; [now left|exact Hn].
Qed.

Section Levels.
  Variable cls0 : list cluster.
  Hypothesis Hfresh : forall k cl, nth_error cls0 k = Some cl -> level cl = None.
  Hypothesis Hback : forall k cl p, nth_error cls0 k = Some cl -> In p (direct_prereqs cl) -> p < k.

  (* after k clusters *)
  Record LInv (k : nat) (st : lstate) : Prop := {
    li_len : length (fst st) = length cls0;
    li_same : forall i cl cl', nth_error cls0 i = Some cl -> nth_error (fst st) i = Some cl' ->
      members cl' = members cl /\ direct_prereqs cl' = direct_prereqs cl /\ contains_a_cycle cl' = contains_a_cycle cl;
    li_later : forall i, k <= i -> level_of (fst st) i = None;
    li_done : forall i cl, i < k -> nth_error cls0 i = Some cl -> exists n, level_of (fst st) i = Some n /\
      is_level (fst st) (direct_prereqs cl) n;
    li_levels : forall n i, In i (nth n (snd st) []) <-> level_of (fst st) i = Some n;
    li_dense : Forall (fun l => l <> []) (snd st);
    li_nodup : NoDup (concat (snd st))
  }.

  Lemma get_done f c st n : level_of (fst st) c = Some n -> get_level_of_cluster (S f) c st = Ok (st, Some n).
  Proof.
    unfold level_of. cbn [get_level_of_cluster]. destruct (nth_error (fst st) c) as [cl|]; [|discriminate].
    intros ->. reflexivity.
  Qed.

  Lemma concat_upd_perm n c : forall ls, n < length ls ->
    Permutation (concat (upd n (fun l : list nat => l ++ [c]) ls)) (c :: concat ls).
  Proof.
    induction n as [|n IH]; intros [|l ls] H; cbn in *; try lia.
    - rewrite <- app_assoc. cbn. symmetry. apply Permutation_middle.
    - rewrite IH by lia. symmetry. apply Permutation_middle.
  Qed.

  Lemma get_level_step f k st cl : LInv k st -> nth_error cls0 k = Some cl ->
    exists st', get_level_of_cluster (S (S f)) k st = Ok (st', None) /\ LInv (S k) st'.
  Proof.
    intros HI Hk.
    assert (Hklt : k < length cls0) by (apply nth_error_Some; congruence).
    destruct (nth_error (fst st) k) as [cl'|] eqn:Ek.
    2:{ exfalso. apply nth_error_None in Ek. rewrite (li_len _ _ HI) in Ek. lia. }
    destruct (li_same _ _ HI k cl cl' Hk Ek) as (Em & Ep & Ec).
    assert (El : level cl' = None).
    { pose proof (li_later _ _ HI k (le_n k)) as H. unfold level_of in H. now rewrite Ek in H. }
    assert (Hpre : forall p, In p (direct_prereqs cl) -> exists n, level_of (fst st) p = Some n).
    { intros p Hp. pose proof (Hback k cl p Hk Hp) as Hlt.
      destruct (nth_error cls0 p) as [clp|] eqn:Eclp.
      - destruct (li_done _ _ HI p clp Hlt Eclp) as (n & Hn & _). eauto.
      - apply nth_error_None in Eclp. lia. }
    (* the level that is computed *)
    assert (exists n, is_level (fst st) (direct_prereqs cl) n /\
       get_level_of_cluster (S (S f)) k st = (do st'' <- put_level k n st ;; Ok (st'', None))) as (n & Hn & Hg).
    { remember (S f) as f1. cbn [get_level_of_cluster]. rewrite Ek, El, Ep.
      destruct (direct_prereqs cl) as [|p ps] eqn:Edp.
      - exists 0. split; [left; auto|]. reflexivity.
      - destruct (Hpre p (or_introl eq_refl)) as [n1 Hn1].
        subst f1. rewrite (get_done f p st n1 Hn1). cbn [bind].
        destruct (max_gen_ok (get_level_of_cluster (S f)) ps n1 st) as (m & H1 & H2 & H3 & H4).
        { intros q Hq. destruct (Hpre q (or_intror Hq)) as [nq Hnq]. exists nq. now apply get_done. }
        exists (S m). split.
        + right. exists m. split; [reflexivity|]. split.
          * destruct H4 as [->|(q & Hq & Hgq)]; [exists p; split; [now left|exact Hn1]|].
            exists q. split; [now right|]. destruct (Hpre q (or_intror Hq)) as [nq Hnq].
            rewrite (get_done f q st nq Hnq) in Hgq. congruence.
          * intros q [<-|Hq]; [exists n1; split; [exact Hn1|exact H2]|].
            destruct (Hpre q (or_intror Hq)) as [nq Hnq]. exists nq. split; [exact Hnq|].
            apply (H3 q nq Hq). now apply get_done.
        + rewrite H1. reflexivity. }
    rewrite Hg. destruct st as [cls levels]. cbn [fst snd] in *.
    (* density: n <= length levels *)
    assert (Hdense : n <= length levels).
    { destruct Hn as [[_ ->]|(m & -> & (p & Hp & Hl) & _)]; [lia|].
      apply (li_levels _ _ HI) in Hl. cbn [snd] in Hl.
      destruct (Nat.lt_ge_cases m (length levels)) as [|Hge]; [lia|].
      rewrite nth_overflow in Hl by exact Hge. destruct Hl. }
    set (cls' := upd k (set_level n) cls).
    assert (Hlk : forall i, level_of cls' i = if k =? i then Some n else level_of cls i).
    { intros i. unfold level_of, cls'. rewrite upd_nth. destruct (Nat.eqb_spec k i) as [<-|Hne].
      - rewrite Ek. reflexivity.
      - destruct (nth_error cls i); reflexivity. }
    assert (Hnk : level_of cls k = None) by (apply (li_later _ _ HI k (le_n k))).
    assert (Hkn : ~ In k (concat levels)).
    { intros Hc. apply in_concat in Hc as (l & Hl & Hk'). apply In_nth with (d := []) in Hl as (j & _ & Hj).
      subst l. apply (li_levels _ _ HI) in Hk'. cbn [fst] in Hk'. congruence. }
    assert (Hmono : forall i m, level_of cls i = Some m -> level_of cls' i = Some m).
    { intros i m H. rewrite Hlk. destruct (Nat.eqb_spec k i) as [<-|]; [congruence|exact H]. }
    assert (Hisl : forall ps m, is_level cls ps m -> is_level cls' ps m).
    { intros ps m [H|(m' & -> & (p & Hp & Hl) & Ha)]; [now left|]. right. exists m'. split; [reflexivity|]. split.
      - exists p. auto.
      - intros q Hq. destruct (Ha q Hq) as (q' & Hq' & Hle). exists q'. auto. }
    assert (exists levels', put_level k n (cls, levels) = Ok (cls', levels') /\
       (forall j i, In i (nth j levels' []) <-> In i (nth j levels []) \/ (j = n /\ i = k)) /\
       Forall (fun l => l <> []) levels' /\ Permutation (concat levels') (k :: concat levels)) as (levels' & Hput & Hin & Hne & Hperm).
    { unfold put_level. fold cls'. pose proof (li_dense _ _ HI) as HD. cbn [snd] in HD.
      destruct (Nat.ltb_spec n (length levels)) as [Hlt|Hge].
      - eexists. split; [reflexivity|]. split; [|split].
        + intros j i. destruct (nth_error levels j) as [lj|] eqn:Ej.
          * assert (nth j levels [] = lj) as -> by (now apply nth_error_nth).
            rewrite (nth_error_nth (upd n (fun l => l ++ [k]) levels) j [] (x := if n =? j then lj ++ [k] else lj)).
            2:{ rewrite upd_nth, Ej. reflexivity. }
            destruct (Nat.eqb_spec n j) as [->|Hnj].
            -- rewrite in_app_iff. cbn. split; [intros [H|[<-|[]]]; auto|intros [H|[_ ->]]; auto].
            -- split; [auto|]. intros [H|[H _]]; [exact H|congruence].
          * pose proof Ej as Ej'. apply nth_error_None in Ej'.
            rewrite !nth_overflow by (rewrite ?upd_length; exact Ej'). split; [auto|]. intros [[]|[-> _]]. lia.
        + rewrite Forall_forall in HD |- *. intros l Hl. apply In_nth_error in Hl as [j Hj]. rewrite upd_nth in Hj.
          destruct (nth_error levels j) as [lj|] eqn:Ej; [|discriminate]. inversion Hj; subst.
          destruct (n =? j); [|apply HD; eapply nth_error_In; eauto]. now destruct lj.
        + now apply concat_upd_perm.
      - assert (n = length levels) as -> by lia. rewrite Nat.eqb_refl.
        eexists. split; [reflexivity|]. split; [|split].
        + intros j i. destruct (Nat.lt_trichotomy j (length levels)) as [H|[->|H]].
          * rewrite app_nth1 by exact H. split; [auto|]. intros [Hi|[-> _]]; [exact Hi|lia].
          * rewrite app_nth2, Nat.sub_diag by lia. cbn. rewrite nth_overflow by lia. cbn.
            split; [intros [<-|[]]; auto|intros [[]|[_ ->]]; auto].
          * rewrite !nth_overflow by (rewrite ?app_length; cbn; lia). split; [auto|]. intros [Hi|[-> _]]; [exact Hi|lia].
        + apply Forall_app. split; [exact HD|]. constructor; [discriminate|constructor].
        + rewrite concat_app. cbn. symmetry. apply Permutation_cons_append. }
    rewrite Hput. cbn [bind]. eexists. split; [reflexivity|].
    constructor; cbn [fst snd].
    - unfold cls'. rewrite upd_length. apply (li_len _ _ HI).
    - intros i a b Ha Hb. unfold cls' in Hb. rewrite upd_nth in Hb.
      destruct (nth_error cls i) as [x|] eqn:Ex; [|discriminate]. inversion Hb; subst.
      pose proof (li_same _ _ HI i a x Ha Ex) as Hs. destruct (k =? i); cbn; exact Hs.
    - intros i Hi. rewrite Hlk. destruct (Nat.eqb_spec k i); [lia|]. apply (li_later _ _ HI i). lia.
    - intros i cli Hi Hcli. destruct (Nat.eq_dec i k) as [->|Hik].
      + exists n. rewrite Hlk, Nat.eqb_refl. split; [reflexivity|]. rewrite Hk in Hcli. inversion Hcli; subst. auto.
      + destruct (li_done _ _ HI i cli) as (m & Hm1 & Hm2); [lia|exact Hcli|]. exists m. split; auto.
    - intros m i. rewrite Hin, Hlk, (li_levels _ _ HI m i). cbn [fst].
      destruct (Nat.eqb_spec k i) as [<-|Hik].
      + rewrite Hnk. split; [intros [H|[-> _]]; [discriminate|reflexivity]|intros H; inversion H; auto].
      + split; [intros [H|[_ ->]]; [exact H|congruence]|auto].
    - exact Hne.
    - apply (Permutation_NoDup (Permutation_sym Hperm)). constructor; [exact Hkn|apply (li_nodup _ _ HI)].
  Qed.

  Lemma level_all_ok f : forall n k st, k + n = length cls0 -> LInv k st ->
    exists st', level_all (S (S f)) (seq k n) st = Ok st' /\ LInv (k + n) st'.
  Proof.
    induction n as [|n IH]; intros k st Hn HI; cbn [seq level_all].
    - exists st. rewrite Nat.add_0_r. auto.
    - destruct (nth_error cls0 k) as [cl|] eqn:Ek; [|apply nth_error_None in Ek; lia].
      destruct (get_level_step f k st cl HI Ek) as (st1 & H1 & H2). rewrite H1. cbn [bind].
      destruct (IH (S k) st1) as (st' & H3 & H4); [lia|exact H2|]. exists st'. split; [exact H3|].
      replace (k + S n) with (S k + n) by lia. exact H4.
  Qed.

  Lemma establish_ok : exists cls levels,
    establish_dependency_levels (S (length cls0)) cls0 = Ok (cls, levels) /\
    length cls = length cls0 /\
    (forall i cl cl', nth_error cls0 i = Some cl -> nth_error cls i = Some cl' ->
      members cl' = members cl /\ direct_prereqs cl' = direct_prereqs cl /\ contains_a_cycle cl' = contains_a_cycle cl) /\
    (forall i cl, nth_error cls i = Some cl -> exists n, level cl = Some n /\ is_level cls (direct_prereqs cl) n) /\
    (forall n i, In i (nth n levels []) <-> level_of cls i = Some n) /\
    Forall (fun l => l <> []) levels /\
    Permutation (concat levels) (seq 0 (length cls)) /\
    Forall (StronglySorted (fun a b => first_member cls a <= first_member cls b)) levels.
  Proof.
    unfold establish_dependency_levels.
    assert (HI0 : LInv 0 (cls0, [])).
    { constructor; cbn [fst snd].
      - reflexivity.
      - intros i cl cl' H1 H2. assert (cl = cl') by congruence. subst. auto.
      - intros i _. unfold level_of. destruct (nth_error cls0 i) as [cl|] eqn:E; [eauto|reflexivity].
      - intros i cl Hi. lia.
      - intros n i. assert (level_of cls0 i = None) as ->.
        { unfold level_of. destruct (nth_error cls0 i) as [cl|] eqn:E; [eauto|reflexivity]. }
        rewrite nth_overflow by (cbn; lia). split; [intros []|discriminate].
      - constructor.
      - constructor. }
    assert (exists st', level_all (S (length cls0)) (seq 0 (length cls0)) (cls0, []) = Ok st' /\ LInv (length cls0) st') as ([cls levels] & H1 & HI).
    { destruct (length cls0) as [|n] eqn:En.
      - cbn. exists (cls0, []). auto.
      - destruct (level_all_ok n (S n) 0 (cls0, [])) as (st' & Ha & Hb); [lia|exact HI0|]. exists st'. auto. }
    rewrite H1. cbn [bind]. exists cls, (map (sort_level cls) levels). split; [reflexivity|].
    destruct HI. cbn [fst snd] in *.
    split; [assumption|]. split; [assumption|]. split.
    { intros i cl Hi. assert (i < length cls0) by (rewrite <- li_len0; apply nth_error_Some; congruence).
      destruct (nth_error cls0 i) as [cl0|] eqn:E0; [|apply nth_error_None in E0; lia].
      destruct (li_done0 i cl0) as (n & Hn1 & Hn2); [lia|exact E0|]. exists n.
      destruct (li_same0 i cl0 cl E0 Hi) as (_ & Hp & _). rewrite Hp. split; [|exact Hn2].
      unfold level_of in Hn1. now rewrite Hi in Hn1. }
    assert (Hsp : forall l, Permutation (sort_level cls l) l) by (intros l; apply isort_perm).
    split.
    { intros n i. rewrite <- li_levels0. replace (nth n (map (sort_level cls) levels) []) with (sort_level cls (nth n levels [])).
      - split; apply Permutation_in; [apply Hsp|symmetry; apply Hsp].
      - symmetry. apply (map_nth (sort_level cls) levels []). }
    split.
    { apply Forall_forall. intros l Hl. apply in_map_iff in Hl as (l0 & <- & Hl0). rewrite Forall_forall in li_dense0.
      intros Hc. apply (li_dense0 l0 Hl0). apply Permutation_nil. rewrite <- Hc. apply Hsp. }
    split.
    { transitivity (concat levels).
      - clear -Hsp. induction levels as [|l ls IH]; cbn; [constructor|]. apply Permutation_app; auto.
      - apply NoDup_Permutation; [assumption|apply seq_NoDup|].
        intros i. rewrite in_seq. split.
        + intros Hi. apply in_concat in Hi as (l & Hl & Hi). apply In_nth with (d := []) in Hl as (n & _ & <-).
          apply li_levels0 in Hi. unfold level_of in Hi. destruct (nth_error cls i) as [x|] eqn:E; [|discriminate].
          assert (i < length cls) by (apply nth_error_Some; congruence). lia.
        + intros [_ Hi]. cbn in Hi. destruct (nth_error cls0 i) as [cl0|] eqn:E0; [|apply nth_error_None in E0; lia].
          destruct (li_done0 i cl0) as (n & Hn & _); [lia|exact E0|]. apply li_levels0 in Hn.
          apply in_concat. exists (nth n levels []). split; [|exact Hn].
          apply nth_In. destruct (Nat.lt_ge_cases n (length levels)) as [|Hge]; [assumption|].
          rewrite nth_overflow in Hn by exact Hge. destruct Hn. }
    apply Forall_forall. intros l Hl. apply in_map_iff in Hl as (l0 & <- & _). unfold sort_level.
    apply SS_impl with (R := fun a b => (first_member cls a <=? first_member cls b) = true).
    - intros a b H. now apply Nat.leb_le.
    - apply isort_sorted.
      + intros x y. destruct (Nat.leb_spec (first_member cls x) (first_member cls y)); [now left|right; apply Nat.leb_le; lia].
      + intros x y z Hx Hy. apply Nat.leb_le in Hx, Hy. apply Nat.leb_le. lia.
  Qed.
End Levels.

(* ---------------- the whole computation ---------------- *)

(* the members lists are exactly the strongly connected components *)
Definition components_ok (g : graph) (cls : list cluster) : Prop :=
  NoDup (concat (map members cls)) /\
  (forall x, In x (concat (map members cls)) <-> In x (vertices g)) /\
  (forall cl, In cl cls -> members cl <> []) /\
  (forall cl x y, In cl cls -> In x (members cl) -> (In y (members cl) <-> reach g x y /\ reach g y x)).
Definition prereqs_first (g : graph) (cls : list cluster) : Prop :=
  forall k cl x y, nth_error cls k = Some cl -> In x (members cl) -> arc g x y ->
    exists j cl', j <= k /\ nth_error cls j = Some cl' /\ In y (members cl').
(* x lies on a directed cycle *)
Definition on_cycle (g : graph) (x : nat) : Prop := exists y, arc g x y /\ reach g y x.
Definition flags_ok (g : graph) (cls : list cluster) : Prop :=
  forall k cl, nth_error cls k = Some cl ->
    (contains_a_cycle cl = true <-> exists x, In x (members cl) /\ on_cycle g x) /\
    NoDup (direct_prereqs cl) /\
    (forall j, In j (direct_prereqs cl) <->
       j <> k /\ exists x y cl', In x (members cl) /\ arc g x y /\ nth_error cls j = Some cl' /\ In y (members cl')).
Definition levels_ok (cls : list cluster) (levels : list (list nat)) : Prop :=
  (forall i cl, nth_error cls i = Some cl -> exists n, level cl = Some n /\ is_level cls (direct_prereqs cl) n) /\
  (forall n i, In i (nth n levels []) <-> level_of cls i = Some n) /\
  Forall (fun l => l <> []) levels /\
  Permutation (concat levels) (seq 0 (length cls)) /\
  Forall (StronglySorted (fun a b => forall ca cb x y lx ly, nth_error cls a = Some ca -> nth_error cls b = Some cb ->
     members ca = x :: lx -> members cb = y :: ly -> x <= y)) levels /\
  (forall cl, In cl cls -> StronglySorted le (members cl)).

Lemma isort_le_sorted l : StronglySorted le (isort Nat.leb l).
Proof.
  apply SS_impl with (R := fun a b => (a <=? b) = true).
  - intros a b H. now apply Nat.leb_le.
  - apply isort_sorted.
    + intros x y. destruct (Nat.leb_spec x y); [now left|right; apply Nat.leb_le; lia].
    + intros x y z Hx Hy. apply Nat.leb_le in Hx, Hy. apply Nat.leb_le. lia.
Qed.

Lemma concat_members_nth (cls : list cluster) x : In x (concat (map members cls)) <->
  exists k cl, nth_error cls k = Some cl /\ In x (members cl).
Proof.
  rewrite in_concat. split.
  - intros (l & Hl & Hx). apply in_map_iff in Hl as (cl & <- & Hcl). apply In_nth_error in Hcl as [k Hk]. eauto.
  - intros (k & cl & Hk & Hx). exists (members cl). split; [apply in_map; eapply nth_error_In; eauto|exact Hx].
Qed.

Lemma compute_ok g : closed g -> exists cls levels,
  compute_dependency_levels g [] = Ok (cls, levels) /\
  components_ok g cls /\ prereqs_first g cls /\ flags_ok g cls /\ levels_ok cls levels.
Proof.
  intros Hc. unfold compute_dependency_levels.
  destruct (find_scc_ok g [] Hc) as (st & new & H1 & H2 & H3 & H4 & H5 & H6).
  rewrite H1. cbn [bind]. rewrite H2. cbn [app length] in *.
  set (cls1 := map sort_members (map cl_of new)).
  assert (Hn1 : forall k cl, nth_error cls1 k = Some cl <-> exists ms, nth_error new k = Some ms /\ cl = sort_members (cl_of ms)).
  { intros k cl. unfold cls1. rewrite map_map. split.
    - intros H. destruct (nth_error new k) as [ms|] eqn:E.
      + rewrite (map_nth_error _ k new E) in H. exists ms. split; [reflexivity|congruence].
      + apply nth_error_None in E. assert (nth_error (map (fun x => sort_members (cl_of x)) new) k = None) as Hn by (apply nth_error_None; now rewrite map_length).
        congruence.
    - intros (ms & E & ->). now rewrite (map_nth_error _ k new E). }
  assert (Hmem : forall ms x, In x (members (sort_members (cl_of ms))) <-> In x ms).
  { intros ms x. cbn. split; apply Permutation_in; [apply isort_perm|symmetry; apply isort_perm]. }
  assert (Hcf : forall x k, lookup (cluster_for st) x = Some k <-> exists ms, nth_error new k = Some ms /\ In x ms).
  { intros x k. rewrite H5. split.
    - intros (ms & k' & Hk & Hx & ->). eauto.
    - intros (ms & Hk & Hx). exists ms, k. auto. }
  assert (Hnewarc : forall k ms x y, nth_error new k = Some ms -> In x ms -> arc g x y -> exists j ms', j <= k /\ nth_error new j = Some ms' /\ In y ms').
  { intros k ms x y Hk Hx Ha. destruct (H6 k ms Hk) as [_ H]. destruct (H x Hx) as [_ H']. auto. }
  assert (Hnewscc : forall k ms x y, nth_error new k = Some ms -> In x ms -> (In y ms <-> reach g x y /\ reach g y x)).
  { intros k ms x y Hk Hx. destruct (H6 k ms Hk) as [_ H]. destruct (H x Hx) as [H' _]. auto. }
  destruct (link_ok g (cluster_for st) cls1 0) as (cls2 & L1 & L2 & L3).
  { intros cl v p Hcl Hv Ha. apply In_nth_error in Hcl as [k Hk]. apply Hn1 in Hk as (ms & Hk & ->).
    apply (proj1 (Hmem ms v)) in Hv. destruct (Hnewarc k ms v p Hk Hv Ha) as (j & ms' & _ & Hj & Hp). exists j. apply Hcf. eauto. }
  { intros cl Hcl. apply In_nth_error in Hcl as [k Hk]. apply Hn1 in Hk as (ms & _ & ->). reflexivity. }
  { intros i cl Hi Hlen. apply Hn1 in Hi as (ms & Hi & ->). cbn [members sort_members] in Hlen.
    assert (length (isort Nat.leb ms) = length ms) as El by (apply Permutation_length, isort_perm).
    cbn [cl_of members] in Hlen. rewrite El in Hlen.
    destruct ms as [|v [|w ms']]; cbn in Hlen; try lia.
    assert (v <> w) as Hvw.
    { intros ->.
      assert (NoDup (w :: w :: ms')) as HN.
      { clear -H3 Hi. apply nth_error_split in Hi as (l1 & l2 & -> & _). rewrite concat_app in H3.
        apply NoDup_app_inv in H3 as (_ & H3 & _). cbn [concat] in H3. apply NoDup_app_inv in H3 as (H3 & _ & _). exact H3. }
      inversion HN as [|? ? Hn _]; subst. apply Hn. now left. }
    destruct (proj1 (Hnewscc i _ v w Hi (or_introl eq_refl)) (or_intror (or_introl eq_refl))) as [Hr1 Hr2].
    inversion Hr1 as [|? p ? Ha Hr]; subst; [congruence|].
    exists v, p. split; [apply (proj2 (Hmem (v :: w :: ms') v)); now left|]. split; [exact Ha|]. cbn [Nat.add]. apply Hcf. eexists. split; [exact Hi|].
    apply (Hnewscc i _ v p Hi (or_introl eq_refl)). split; [now apply reach_arc|]. apply (reach_trans g p w v); auto. }
  rewrite L1. cbn [bind]. cbn [Nat.add] in L3.
  (* clusters after linking *)
  assert (Hc2 : forall k cl, nth_error cls2 k = Some cl -> exists ms, nth_error new k = Some ms /\
     members cl = isort Nat.leb ms /\ level cl = None /\ NoDup (direct_prereqs cl) /\
     (contains_a_cycle cl = true <-> exists v p, In v ms /\ arc g v p /\ In p ms) /\
     (forall j, In j (direct_prereqs cl) <-> j <> k /\ exists v p ms', In v ms /\ arc g v p /\ nth_error new j = Some ms' /\ In p ms')).
  { intros k cl Hk. assert (k < length cls1) by (rewrite <- L2; apply nth_error_Some; congruence).
    destruct (nth_error cls1 k) as [cl1|] eqn:E1; [|apply nth_error_None in E1; lia].
    destruct (L3 k cl1 E1) as (cl' & E' & M1 & M2 & M3 & M4 & M5). rewrite Hk in E'. inversion E'; subst cl'.
    apply Hn1 in E1 as (ms & Ems & ->). exists ms. split; [exact Ems|]. split; [rewrite M1; reflexivity|].
    split; [rewrite M2; reflexivity|]. split; [exact M3|]. split.
    - rewrite M4. split.
      + intros (v & p & Hv & Ha & Hl). apply (proj1 (Hmem ms v)) in Hv. apply Hcf in Hl as (ms' & Hms' & Hp). exists v, p.
        split; [exact Hv|]. split; [exact Ha|]. congruence.
      + intros (v & p & Hv & Ha & Hp). exists v, p. split; [now apply (proj2 (Hmem ms v))|]. split; [exact Ha|]. apply Hcf. eauto.
    - intros j. rewrite M5. split.
      + intros (Hj & v & p & Hv & Ha & Hl). split; [exact Hj|]. apply (proj1 (Hmem ms v)) in Hv. apply Hcf in Hl as (ms' & Hms' & Hp).
        exists v, p, ms'. auto.
      + intros (Hj & v & p & ms' & Hv & Ha & Hms' & Hp). split; [exact Hj|]. exists v, p. split; [now apply (proj2 (Hmem ms v))|].
        split; [exact Ha|]. apply Hcf. eauto. }
  assert (Hdisj : forall j k msj msk x, nth_error new j = Some msj -> nth_error new k = Some msk -> In x msj -> In x msk -> j = k).
  { intros j k msj msk x Hj Hk Hxj Hxk.
    assert (lookup (cluster_for st) x = Some j) as A by (apply Hcf; eauto).
    assert (lookup (cluster_for st) x = Some k) as B by (apply Hcf; eauto). congruence. }
  destruct (establish_ok cls2) as (cls & levels & S1 & S2 & S3 & S4 & S5 & S6 & S7 & S8).
  { intros k cl Hk. destruct (Hc2 k cl Hk) as (ms & _ & _ & Hl & _). exact Hl. }
  { intros k cl p Hk Hp. destruct (Hc2 k cl Hk) as (ms & Hms & _ & _ & _ & _ & Hpr).
    destruct (proj1 (Hpr p) Hp) as (Hne & v & q & ms' & Hv & Ha & Hms' & Hq).
    destruct (Hnewarc k ms v q Hms Hv Ha) as (j & ms2 & Hj & Hms2 & Hq2).
    assert (j = p) by (exact (Hdisj j p ms2 ms' q Hms2 Hms' Hq2 Hq)). lia. }
  rewrite S1. exists cls, levels. split; [reflexivity|].
  assert (Hlen2 : length cls2 = length new) by (rewrite L2; unfold cls1; now rewrite !map_length).
  assert (Hc3 : forall k cl, nth_error cls k = Some cl -> exists ms, nth_error new k = Some ms /\
     members cl = isort Nat.leb ms /\ NoDup (direct_prereqs cl) /\
     (contains_a_cycle cl = true <-> exists v p, In v ms /\ arc g v p /\ In p ms) /\
     (forall j, In j (direct_prereqs cl) <-> j <> k /\ exists v p ms', In v ms /\ arc g v p /\ nth_error new j = Some ms' /\ In p ms')).
  { intros k cl Hk. assert (k < length cls2) by (rewrite <- S2; apply nth_error_Some; congruence).
    destruct (nth_error cls2 k) as [cl2|] eqn:E2; [|apply nth_error_None in E2; lia].
    destruct (S3 k cl2 cl E2 Hk) as (M1 & M2 & M3). destruct (Hc2 k cl2 E2) as (ms & Hms & N1 & N2 & N3 & N4 & N5).
    exists ms. rewrite M1, M2, M3. auto. }
  assert (Hc4 : forall k ms, nth_error new k = Some ms -> exists cl, nth_error cls k = Some cl /\ members cl = isort Nat.leb ms).
  { intros k ms Hk. assert (k < length new) by (apply nth_error_Some; congruence).
    destruct (nth_error cls k) as [cl|] eqn:E; [|apply nth_error_None in E; lia].
    exists cl. split; [reflexivity|]. destruct (Hc3 k cl E) as (ms' & Hms' & Hm & _). congruence. }
  assert (Hmm : forall ms x, In x (isort Nat.leb ms) <-> In x ms) by exact Hmem.
  assert (Hperm : Permutation (concat (map members cls)) (concat new)).
  { assert (map members cls = map (isort Nat.leb) new) as ->.
    { apply nth_ext with (d := []) (d' := []).
      - rewrite !map_length. lia.
      - intros k Hk. rewrite map_length in Hk. destruct (nth_error cls k) as [cl|] eqn:E; [|apply nth_error_None in E; lia].
        destruct (Hc3 k cl E) as (ms & Hms & Hm & _).
        rewrite (nth_error_nth (map members cls) k [] (map_nth_error members k cls E)).
        rewrite (nth_error_nth (map (isort Nat.leb) new) k [] (map_nth_error (isort Nat.leb) k new Hms)). exact Hm. }
    clear. induction new as [|ms new IH]; cbn; [constructor|]. apply Permutation_app; [apply isort_perm|exact IH]. }
  split; [|split; [|split]].
  - split; [apply (Permutation_NoDup (Permutation_sym Hperm)); exact H3|]. split; [|split].
    + intros x. rewrite <- H4. split; apply Permutation_in; [exact Hperm|now symmetry].
    + intros cl Hcl. apply In_nth_error in Hcl as [k Hk]. destruct (Hc3 k cl Hk) as (ms & Hms & Hm & _).
      destruct (H6 k ms Hms) as [Hne _]. rewrite Hm. intros Hn. apply Hne. apply Permutation_nil. rewrite <- Hn. apply isort_perm.
    + intros cl x y Hcl Hx. apply In_nth_error in Hcl as [k Hk]. destruct (Hc3 k cl Hk) as (ms & Hms & Hm & _).
      rewrite Hm in *. rewrite Hmm in *. exact (Hnewscc k ms x y Hms Hx).
  - intros k cl x y Hk Hx Ha. destruct (Hc3 k cl Hk) as (ms & Hms & Hm & _). rewrite Hm, Hmm in Hx.
    destruct (Hnewarc k ms x y Hms Hx Ha) as (j & ms' & Hj & Hms' & Hy). destruct (Hc4 j ms' Hms') as (cl' & Hcl' & Hm').
    exists j, cl'. split; [exact Hj|]. split; [exact Hcl'|]. rewrite Hm'. now apply Hmm.
  - intros k cl Hk. destruct (Hc3 k cl Hk) as (ms & Hms & Hm & Hnd & Hcyc & Hpr). split; [|split; [exact Hnd|]].
    + rewrite Hcyc. split.
      * intros (v & p & Hv & Ha & Hp). exists v. rewrite Hm. split; [now apply Hmm|]. exists p. split; [exact Ha|].
        apply (proj1 (Hnewscc k ms v p Hms Hv) Hp).
      * intros (x & Hx & y & Ha & Hr). rewrite Hm, Hmm in Hx. exists x, y. split; [exact Hx|]. split; [exact Ha|].
        apply (Hnewscc k ms x y Hms Hx). split; [now apply reach_arc|exact Hr].
    + intros j. rewrite Hpr. split.
      * intros (Hj & v & p & ms' & Hv & Ha & Hms' & Hp). split; [exact Hj|]. destruct (Hc4 j ms' Hms') as (cl' & Hcl' & Hm').
        exists v, p, cl'. rewrite Hm, Hm', !Hmm. auto.
      * intros (Hj & v & p & cl' & Hv & Ha & Hcl' & Hp). split; [exact Hj|]. destruct (Hc3 j cl' Hcl') as (ms' & Hms' & Hm' & _).
        rewrite Hm, Hmm in Hv. rewrite Hm', Hmm in Hp. exists v, p, ms'. auto.
  - split; [exact S4|]. split; [exact S5|]. split; [exact S6|]. split; [exact S7|]. split.
    { eapply Forall_impl; [|exact S8]. intros l. cbn beta. apply SS_impl. unfold first_member.
      intros a b Hab ca cb x y lx ly Ea Eb Ma Mb. rewrite Ea, Eb, Ma, Mb in Hab. exact Hab. }
    intros cl Hcl. apply In_nth_error in Hcl as [k Hk]. destruct (Hc3 k cl Hk) as (ms & _ & Hm & _). rewrite Hm.
    apply isort_le_sorted.
Qed.

(* ---------------- the latent crash ---------------- *)

Lemma get_level_none f c st st' v cl : nth_error (fst st) c = Some cl -> level cl = None ->
  get_level_of_cluster f c st = Ok (st', v) -> v = None.
Proof.
  intros Hn Hl H. destruct f as [|f]; [discriminate|]. cbn [get_level_of_cluster] in H. rewrite Hn, Hl in H.
  apply bind_ok in H as ([st1 n] & _ & H). apply bind_ok in H as (st2 & _ & H). congruence.
Qed.
Lemma get_level_memo f c st st' v cl n : nth_error (fst st) c = Some cl -> level cl = Some n ->
  get_level_of_cluster f c st = Ok (st', v) -> st' = st /\ v = Some n.
Proof.
  intros Hn Hl H. destruct f as [|f]; [discriminate|]. cbn [get_level_of_cluster] in H. rewrite Hn, Hl in H.
  inversion H; auto.
Qed.
Lemma max_gen_none get ps st st' m : max_gen get None ps st = Ok (st', m) -> m = None.
Proof.
  destruct ps as [|p ps]; cbn [max_gen]; intros H; [congruence|]. apply bind_ok in H as ([s v] & _ & H). discriminate.
Qed.
Definition unlevelled (cls : list cluster) (p : nat) : Prop := exists cl, nth_error cls p = Some cl /\ level cl = None.
Definition levelled (cls : list cluster) (p : nat) : Prop := exists cl n, nth_error cls p = Some cl /\ level cl = Some n.
Lemma max_gen_unlevelled f : forall ps cur st r, (exists p, In p ps /\ unlevelled (fst st) p) ->
  max_gen (get_level_of_cluster f) cur ps st <> Ok r.
Proof.
  induction ps as [|q ps IH]; intros cur st r (p & Hp & Hu) H; [destruct Hp|]. cbn [max_gen] in H.
  apply bind_ok in H as ([s v] & Hg & H).
  destruct (nth_error (fst st) q) as [cl|] eqn:E.
  2:{ destruct f; [discriminate|]. cbn [get_level_of_cluster] in Hg. rewrite E in Hg. discriminate. }
  destruct (level cl) as [n|] eqn:El.
  - destruct (get_level_memo _ _ _ _ _ _ _ E El Hg) as [-> ->]. destruct cur as [a|]; [|discriminate].
    apply IH in H; [exact H|]. destruct Hp as [->|Hp]; [|eauto]. destruct Hu as (cl' & E' & El'). congruence.
  - rewrite (get_level_none _ _ _ _ _ _ E El Hg) in H. destruct cur; discriminate.
Qed.
Lemma max_gen_levelled f : forall ps cur st st' m, (forall p, In p ps -> levelled (fst st) p) ->
  max_gen (get_level_of_cluster f) cur ps st = Ok (st', m) -> st' = st.
Proof.
  induction ps as [|q ps IH]; intros cur st st' m Hl H; cbn [max_gen] in H; [congruence|].
  apply bind_ok in H as ([s v] & Hg & H). destruct (Hl q (or_introl eq_refl)) as (cl & n & E & El).
  destruct (get_level_memo _ _ _ _ _ _ _ E El Hg) as [-> ->]. destruct cur as [a|]; [|discriminate].
  apply IH in H; [exact H|]. intros p Hp. apply Hl. now right.
Qed.
Lemma put_level_fst c n st st' : put_level c n st = Ok st' -> fst st' = upd c (set_level n) (fst st).
Proof.
  destruct st as [cls levels]. unfold put_level. destruct (n <? length levels); [intros [= <-]; reflexivity|].
  destruct (n =? length levels); [intros [= <-]; reflexivity|discriminate].
Qed.
Lemma get_level_unlevelled f c st cl r : nth_error (fst st) c = Some cl -> level cl = None ->
  (exists p, In p (direct_prereqs cl) /\ unlevelled (fst st) p) -> get_level_of_cluster f c st <> Ok r.
Proof.
  intros Hn Hl (p & Hp & Hu) H. destruct f as [|f]; [discriminate|]. cbn [get_level_of_cluster] in H. rewrite Hn, Hl in H.
  apply bind_ok in H as ([st1 n] & H & _). destruct (direct_prereqs cl) as [|q ps]; [destruct Hp|].
  apply bind_ok in H as ([s1 v1] & Hg & H). apply bind_ok in H as ([s2 m] & Hm & H).
  destruct (nth_error (fst st) q) as [clq|] eqn:E.
  2:{ destruct f; [discriminate|]. cbn [get_level_of_cluster] in Hg. rewrite E in Hg. discriminate. }
  destruct (level clq) as [k|] eqn:El.
  - destruct (get_level_memo _ _ _ _ _ _ _ E El Hg) as [-> ->]. apply max_gen_unlevelled in Hm; [exact Hm|].
    destruct Hp as [->|Hp]; [|eauto]. destruct Hu as (cl' & E' & El'). congruence.
  - rewrite (get_level_none _ _ _ _ _ _ E El Hg) in Hm. rewrite (max_gen_none _ _ _ _ _ Hm) in H. discriminate.
Qed.
Lemma get_level_levelled f c st cl st' v : nth_error (fst st) c = Some cl -> level cl = None ->
  (forall p, In p (direct_prereqs cl) -> levelled (fst st) p) -> get_level_of_cluster f c st = Ok (st', v) ->
  exists n, fst st' = upd c (set_level n) (fst st).
Proof.
  intros Hn Hl Hp H. destruct f as [|f]; [discriminate|]. cbn [get_level_of_cluster] in H. rewrite Hn, Hl in H.
  apply bind_ok in H as ([st1 n] & H & H2). apply bind_ok in H2 as (st2 & H2 & H3). apply put_level_fst in H2.
  exists n. assert (st1 = st) as ->; [|congruence]. clear H2 H3. destruct (direct_prereqs cl) as [|q ps]; [congruence|].
  apply bind_ok in H as ([s1 v1] & Hg & H). apply bind_ok in H as ([s2 m] & Hm & H).
  destruct (Hp q (or_introl eq_refl)) as (clq & k & E & El). destruct (get_level_memo _ _ _ _ _ _ _ E El Hg) as [-> ->].
  apply max_gen_levelled in Hm; [|intros p Hp'; apply Hp; now right]. destruct m; [|discriminate]. congruence.
Qed.

(* a list that is not in prerequisites-first order is never levelled *)
Lemma levels_crash cls i cl p fuel r :
  (forall cl', In cl' cls -> level cl' = None) ->
  nth_error cls i = Some cl -> In p (direct_prereqs cl) -> i <= p ->
  establish_dependency_levels fuel cls <> Ok r.
Proof.
  intros Hnone Hi Hp Hle H. unfold establish_dependency_levels in H.
  apply bind_ok in H as ([cls' levels] & H & _). clear r.
  assert (Hilt : i < length cls) by (apply nth_error_Some; congruence).
  assert (G : forall n k st r, k + n = length cls -> k <= i ->
    (forall j, j < k -> levelled (fst st) j) ->
    (forall j, k <= j -> nth_error (fst st) j = nth_error cls j) ->
    level_all fuel (seq k n) st <> Ok r).
  { clear H cls' levels. induction n as [|n IH]; intros k st r Hkn Hki Hlt Hge H; [lia|].
    cbn [seq level_all] in H. apply bind_ok in H as ([st' v] & Hg & H).
    assert (Hk : exists ck, nth_error cls k = Some ck) by (destruct (nth_error cls k) eqn:E; [eauto|apply nth_error_None in E; lia]).
    destruct Hk as [ck Hk]. assert (Hk' := Hge k (le_n k)). rewrite Hk in Hk'.
    assert (Hlk : level ck = None) by (apply Hnone; eapply nth_error_In; eauto).
    destruct (existsb (fun q => k <=? q) (direct_prereqs ck)) eqn:Ex.
    - apply existsb_exists in Ex as (q & Hq & Hkq). apply Nat.leb_le in Hkq.
      destruct (nth_error cls q) as [cq|] eqn:Eq.
      + apply get_level_unlevelled with (cl := ck) in Hg; auto. exists q. split; [exact Hq|]. exists cq. split; [rewrite Hge; auto|].
        apply Hnone. eapply nth_error_In; eauto.
      + (* q is no cluster *)
        clear -Hg Hk' Hlk Hq Eq Hge Hkq.
        assert (Enone : nth_error (fst st) q = None) by (rewrite Hge; auto). clear Eq Hge Hkq.
        destruct fuel as [|f]; [discriminate|]. cbn [get_level_of_cluster] in Hg. rewrite Hk', Hlk in Hg.
        apply bind_ok in Hg as ([st1 m] & Hg & _). destruct (direct_prereqs ck) as [|x ps]; [destruct Hq|].
        apply bind_ok in Hg as ([s1 v1] & Hg & H). apply bind_ok in H as ([s2 mm] & Hm & H).
        assert (Hxx : exists cx, nth_error (fst st) x = Some cx).
        { destruct f; [discriminate|]. cbn [get_level_of_cluster] in Hg. destruct (nth_error (fst st) x); [eauto|discriminate]. }
        destruct Hxx as [cx Ex]. destruct (level cx) as [lx|] eqn:Elx.
        2:{ rewrite (get_level_none _ _ _ _ _ _ Ex Elx Hg) in Hm. rewrite (max_gen_none _ _ _ _ _ Hm) in H. discriminate. }
        destruct (get_level_memo _ _ _ _ _ _ _ Ex Elx Hg) as [-> ->].
        destruct Hq as [->|Hq]; [congruence|]. clear Ex Elx Hg H Hk' Hlk. revert Hm. generalize (Some lx). revert ps Hq.
        induction ps as [|y ps IH]; intros Hq cur Hm; [destruct Hq|]. cbn [max_gen] in Hm. apply bind_ok in Hm as ([s w] & Hg & Hm).
        destruct f as [|f]; [discriminate|]. destruct (nth_error (fst st) y) as [cy|] eqn:Ey; [|cbn [get_level_of_cluster] in Hg; rewrite Ey in Hg; discriminate].
        destruct (level cy) as [ly|] eqn:Ely.
        * destruct (get_level_memo _ _ _ _ _ _ _ Ey Ely Hg) as [-> ->]. destruct cur; [|discriminate].
          destruct Hq as [->|Hq]; [congruence|]. eauto.
        * rewrite (get_level_none _ _ _ _ _ _ Ey Ely Hg) in Hm. destruct cur; discriminate.
    - destruct (Nat.eq_dec k i) as [->|Hne].
      { rewrite Hi in Hk. inversion Hk; subst ck. assert (existsb (fun q => i <=? q) (direct_prereqs cl) = true); [|congruence].
        apply existsb_exists. exists p. split; [exact Hp|]. now apply Nat.leb_le. }
      assert (Hall : forall q, In q (direct_prereqs ck) -> levelled (fst st) q).
      { intros q Hq. apply Hlt. destruct (Nat.lt_ge_cases q k) as [|Hge']; [auto|].
        assert (existsb (fun q => k <=? q) (direct_prereqs ck) = true); [|congruence]. apply existsb_exists. exists q. split; [exact Hq|]. now apply Nat.leb_le. }
      destruct (get_level_levelled _ _ _ _ _ _ Hk' Hlk Hall Hg) as [lv Hst].
      revert H. apply IH; try lia.
      + intros j Hj. rewrite Hst. unfold levelled. rewrite upd_nth. destruct (Nat.eqb_spec k j) as [<-|Hkj].
        * rewrite Hk'. cbn. eexists _, _; split; reflexivity.
        * destruct (Hlt j) as (cj & nj & Ej & Lj); [lia|]. exists cj, nj. rewrite Ej. auto.
      + intros j Hj. rewrite Hst, upd_nth. destruct (Nat.eqb_spec k j) as [<-|Hkj]; [lia|]. rewrite Hge by lia. now destruct (nth_error cls j). }
  revert H. apply G; [lia|lia|intros; lia|reflexivity].
Qed.

(* ---------------- the second analysis ---------------- *)

(* clusters of an earlier graph stay in the list *)
Lemma link_members g cf : forall cls c cls', link_clusters g cf c cls = Ok cls' -> map members cls' = map members cls.
Proof.
  induction cls as [|cl cls IH]; intros c cls' H; cbn [link_clusters] in H; [inversion H; reflexivity|].
  apply bind_ok in H as ([f pr] & _ & H). apply bind_ok in H as (u & _ & H). apply bind_ok in H as (rest & Hr & H).
  inversion H; subst. cbn. f_equal. eauto.
Qed.
Lemma upd_members c n : forall cls, map members (upd c (set_level n) cls) = map members cls.
Proof. revert c. intros c cls. revert c. induction cls as [|x cls IH]; intros [|c]; cbn; auto. now rewrite IH. Qed.
Lemma get_level_members f : forall c st st' v, get_level_of_cluster f c st = Ok (st', v) -> map members (fst st') = map members (fst st).
Proof.
  induction f as [|f IH]; intros c st st' v H; [discriminate|]. cbn [get_level_of_cluster] in H.
  destruct (nth_error (fst st) c) as [cl|]; [|discriminate]. destruct (level cl); [congruence|].
  apply bind_ok in H as ([st1 n] & H & H2). apply bind_ok in H2 as (st2 & H2 & H3). apply put_level_fst in H2.
  inversion H3; subst. rewrite H2, upd_members. clear H2 H3. destruct (direct_prereqs cl) as [|q ps]; [congruence|].
  apply bind_ok in H as ([s1 v1] & Hg & H). apply bind_ok in H as ([s2 m] & Hm & H). apply IH in Hg. rewrite <- Hg.
  assert (st1 = s2) as -> by (destruct m; congruence). clear H Hg. revert v1 s1 Hm.
  induction ps as [|p ps IHp]; intros v1 s1 Hm; cbn [max_gen] in Hm; [congruence|].
  apply bind_ok in Hm as ([s w] & Hg & Hm). apply IH in Hg. rewrite <- Hg. destruct v1, w; try discriminate. eauto.
Qed.
Lemma level_all_members f : forall cs st st', level_all f cs st = Ok st' -> map members (fst st') = map members (fst st).
Proof.
  induction cs as [|c cs IH]; intros st st' H; cbn [level_all] in H; [congruence|].
  apply bind_ok in H as ([s v] & Hg & H). apply get_level_members in Hg. apply IH in H. congruence.
Qed.

Lemma second_analysis g gl cls levels : closed g -> compute_dependency_levels g gl = Ok (cls, levels) ->
  exists rest, map members cls = map (fun cl => isort Nat.leb (members cl)) gl ++ rest.
Proof.
  intros Hc H. unfold compute_dependency_levels in H. destruct (find_scc_ok g gl Hc) as (st & new & H1 & H2 & _).
  rewrite H1 in H. cbn [bind] in H. apply bind_ok in H as (cls1 & Hl & H). apply link_members in Hl.
  unfold establish_dependency_levels in H. apply bind_ok in H as ([cls2 lv] & H & H'). apply level_all_members in H.
  inversion H'; subst. cbn [fst] in H. rewrite H, Hl, H2. rewrite !map_app, !map_map. eexists. reflexivity.
Qed.

(* ---------------- in terms of the history of calls ---------------- *)
From Coq Require Import Relations.Relation_Operators.
Definition hpath (h : list gop) : nat -> nat -> Prop := clos_refl_trans_1n nat (hist_arc h).
Lemma reach_hpath h x y : reach (build h) x y <-> hpath h x y.
Proof.
  destruct (build_spec h) as [_ Ha]. split.
  - induction 1; [constructor|]. econstructor; [apply Ha; eassumption|assumption].
  - induction 1; [constructor|]. econstructor; [apply Ha; eassumption|assumption].
Qed.

Definition scc_partition (h : list gop) (cls : list cluster) : Prop :=
  NoDup (concat (map members cls)) /\
  (forall x, In x (concat (map members cls)) <-> hist_vertex h x) /\
  (forall cl, In cl cls -> members cl <> []) /\
  (forall cl x y, In cl cls -> In x (members cl) -> (In y (members cl) <-> hpath h x y /\ hpath h y x)).
Definition prerequisites_first (h : list gop) (cls : list cluster) : Prop :=
  forall k cl x y, nth_error cls k = Some cl -> In x (members cl) -> hist_arc h x y ->
    exists j cl', j <= k /\ nth_error cls j = Some cl' /\ In y (members cl').
Definition flags_exact (h : list gop) (cls : list cluster) : Prop :=
  forall k cl, nth_error cls k = Some cl ->
    (contains_a_cycle cl = true <-> exists x y, In x (members cl) /\ hist_arc h x y /\ hpath h y x) /\
    NoDup (direct_prereqs cl) /\
    (forall j, In j (direct_prereqs cl) <->
       j <> k /\ exists x y cl', In x (members cl) /\ hist_arc h x y /\ nth_error cls j = Some cl' /\ In y (members cl')).

Lemma graph_total h : exists r, compute_dependency_levels (build h) [] = Ok r.
Proof. destruct (compute_ok (build h) (build_closed h)) as (cls & lv & H & _). eauto. Qed.
Lemma graph_components h cls lv : compute_dependency_levels (build h) [] = Ok (cls, lv) -> scc_partition h cls.
Proof.
  intros H. destruct (compute_ok (build h) (build_closed h)) as (cls' & lv' & H' & (A & B & C & D) & _).
  rewrite H in H'. inversion H'; subst cls' lv'. destruct (build_spec h) as [Hv _].
  split; [exact A|]. split; [intros x; rewrite B; apply Hv|]. split; [exact C|].
  intros cl x y Hc Hx. rewrite <- !reach_hpath. eauto.
Qed.
Lemma graph_order h cls lv : compute_dependency_levels (build h) [] = Ok (cls, lv) -> prerequisites_first h cls.
Proof.
  intros H. destruct (compute_ok (build h) (build_closed h)) as (cls' & lv' & H' & _ & A & _).
  rewrite H in H'. inversion H'; subst cls' lv'. destruct (build_spec h) as [_ Ha].
  intros k cl x y Hk Hx Hh. apply (A k cl x y Hk Hx). now apply Ha.
Qed.
Lemma graph_flags h cls lv : compute_dependency_levels (build h) [] = Ok (cls, lv) -> flags_exact h cls.
Proof.
  intros H. destruct (compute_ok (build h) (build_closed h)) as (cls' & lv' & H' & _ & _ & A & _).
  rewrite H in H'. inversion H'; subst cls' lv'. destruct (build_spec h) as [_ Ha].
  intros k cl Hk. destruct (A k cl Hk) as (A1 & A2 & A3). split; [|split; [exact A2|]].
  - rewrite A1. split.
    + intros (x & Hx & y & Hxy & Hr). exists x, y. split; [exact Hx|]. split; [now apply Ha|now apply reach_hpath].
    + intros (x & y & Hx & Hxy & Hr). exists x. split; [exact Hx|]. exists y. split; [now apply Ha|now apply reach_hpath].
  - intros j. rewrite A3. split; intros (Hj & x & y & cl' & Hx & Hxy & H1 & H2); (split; [exact Hj|]); exists x, y, cl'; repeat split; auto; now apply Ha.
Qed.
Lemma graph_levels h cls lv : compute_dependency_levels (build h) [] = Ok (cls, lv) -> levels_ok cls lv.
Proof.
  intros H. destruct (compute_ok (build h) (build_closed h)) as (cls' & lv' & H' & _ & _ & _ & A).
  rewrite H in H'. inversion H'; subst cls' lv'. exact A.
Qed.
Lemma graph_second h1 h2 cls1 lv1 cls2 lv2 :
  compute_dependency_levels (build h1) [] = Ok (cls1, lv1) ->
  compute_dependency_levels (build h2) cls1 = Ok (cls2, lv2) ->
  exists rest, map members cls2 = map members cls1 ++ rest.
Proof.
  intros H1 H2. destruct (second_analysis _ _ _ _ (build_closed h2) H2) as (rest & E). exists rest. rewrite E. f_equal.
  apply map_ext_in. intros cl Hcl. destruct (graph_levels _ _ _ H1) as (_ & _ & _ & _ & _ & S). specialize (S cl Hcl).
  clear -S. induction S as [|x l HS IH HF]; cbn [isort]; [reflexivity|]. rewrite IH. destruct l as [|y l]; [reflexivity|].
  cbn [insert]. inversion HF; subst. now apply Nat.leb_le in H1 as ->.
Qed.
