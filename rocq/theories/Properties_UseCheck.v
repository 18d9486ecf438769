(* C61: the comparison of the right-hand sides of a 'use' production with those of its definition. *)
From Coq Require Import Sorted.
From Verif Require Import M_Base L_Base M_GramCheck L_GramCheck M_UseCheck L_UseCheck Properties_Gram.

(* the keys under which rules for the production are filed: exactly those of the matches *)
Theorem C61_keys us ds red bits : In (red, bits) (use_puks us ds) <->
  exists i j os d, matched us ds i j os /\ nth_error ds j = Some d /\ red = d_reduced d /\ length bits = length os /\
    forall k o b, nth_error os k = Some o -> nth_error bits k = Some b -> (o = omitted -> b = false) /\ (o = required -> b = true).
Proof.
  unfold use_puks. rewrite in_flat_map. split.
  - intros (((i & j) & os) & M & H). apply matches_in in M. unfold di in H. cbn [fst snd] in H. destruct (nth_error ds j) as [d|] eqn:D; [|destruct H]. apply in_map_iff in H as (b & [= <- <-] & H). apply C31_exact in H as [L H]. exists i, j, os, d. auto.
  - intros (i & j & os & d & M & D & -> & L & H). exists (i, j, os). split; [now apply matches_in|]. unfold di. cbn [fst snd]. rewrite D. apply in_map_iff. exists bits. split; [reflexivity|]. apply C31_exact. auto.
Qed.
Print Assumptions C61_keys.
(* each key comes from a use that is the definition with annotations and optional symbols left out, and has one bit for each optional symbol *)
Theorem C61_keys_embed us ds red bits : In (red, bits) (use_puks us ds) -> exists u d os, In u us /\ In d ds /\ red = d_reduced d /\ embeds u (d_items d) os /\ In bits (each_optbits_covered_by os) /\
  length bits = length (filter (fun d => match d with QM _ => true | Plain _ => false end) (d_items d)).
Proof.
  intros H. apply C61_keys in H as (i & j & os & d & (u & d' & ns & U & D' & E & ->) & D & -> & L & H). rewrite D in D'. inversion D'; subst d'.
  assert (B : In bits (each_optbits_covered_by (optional_notes ns))) by (apply C31_exact; auto).
  exists u, d, (optional_notes ns). repeat split; [eapply nth_error_In; eauto|eapply nth_error_In; eauto|now apply C32_sound|assumption|]. eapply C32_bits; eauto.
Qed.
Print Assumptions C61_keys_embed.
(* and if the definition is without ambiguity, each use that is the definition with annotations and optional symbols left out has its keys *)
Theorem C61_keys_complete us ds u d os bits : In u us -> In d ds -> unambiguous (d_items d) -> embeds u (d_items d) os -> In bits (each_optbits_covered_by os) -> In (d_reduced d, bits) (use_puks us ds).
Proof.
  intros U D A E B. apply In_nth_error in U as [i U]. apply In_nth_error in D as [j D]. destruct (C32_complete u (d_items d) os A E) as (ns & X & <-). apply C31_exact in B as [L H]. apply C61_keys. exists i, j, (optional_notes ns), d.
  split; [exists u, d, ns; auto|auto].
Qed.
Print Assumptions C61_keys_complete.

Lemma in_dis us ds i j : In j (map di (filter (fun x => ui x =? i) (all_matches us ds))) <-> exists os, matched us ds i j os.
Proof.
  rewrite in_map_iff. split.
  - intros ([[i' j'] os] & E & H). apply filter_In in H as [H Q]. apply Nat.eqb_eq in Q. unfold ui, di in *. cbn in E, Q. subst. exists os. now apply matches_in.
  - intros [os M]. exists (i, j, os). split; [reflexivity|]. apply filter_In. split; [now apply matches_in|]. apply Nat.eqb_refl.
Qed.
Lemma in_uis us ds i j : In i (map ui (filter (fun x => di x =? j) (all_matches us ds))) <-> exists os, matched us ds i j os.
Proof.
  rewrite in_map_iff. split.
  - intros ([[i' j'] os] & E & H). apply filter_In in H as [H Q]. apply Nat.eqb_eq in Q. unfold ui, di in *. cbn in E, Q. subst. exists os. now apply matches_in.
  - intros [os M]. exists (i, j, os). split; [reflexivity|]. apply filter_In. split; [now apply matches_in|]. apply Nat.eqb_refl.
Qed.
Lemma ss_filter {A} (R : A -> A -> Prop) f l : StronglySorted R l -> StronglySorted R (filter f l).
Proof. induction 1 as [|x l S IH F]; cbn; [constructor|]. destruct (f x); [|assumption]. constructor; [assumption|]. apply Forall_forall. intros y I. apply filter_In in I as [I _]. rewrite Forall_forall in F. auto. Qed.
Lemma dis_sorted us ds i : StronglySorted lt (map di (filter (fun x => ui x =? i) (all_matches us ds))).
Proof.
  pose proof (ss_filter lex (fun x => ui x =? i) _ (matches_sorted us ds)) as S. assert (A : Forall (fun x => ui x = i) (filter (fun x => ui x =? i) (all_matches us ds))) by (apply Forall_forall; intros x H; apply filter_In in H as [_ H]; now apply Nat.eqb_eq).
  induction S as [|x l S IH F]; cbn [map]; [constructor|]. inversion A; subst. constructor; [auto|]. apply Forall_forall. intros y I. apply in_map_iff in I as (z & <- & I). rewrite Forall_forall in F, H2. specialize (F z I). specialize (H2 z I). destruct F as [F|[_ F]]; [lia|assumption].
Qed.
Lemma uis_sorted_lt us ds j : StronglySorted lt (map ui (filter (fun x => di x =? j) (all_matches us ds))).
Proof.
  pose proof (ss_filter lex (fun x => di x =? j) _ (matches_sorted us ds)) as S. assert (A : Forall (fun x => di x = j) (filter (fun x => di x =? j) (all_matches us ds))) by (apply Forall_forall; intros x H; apply filter_In in H as [_ H]; now apply Nat.eqb_eq).
  induction S as [|x l S IH F]; cbn [map]; [constructor|]. inversion A; subst. constructor; [auto|]. apply Forall_forall. intros y I. apply in_map_iff in I as (z & <- & I). rewrite Forall_forall in F, H2. specialize (F z I). specialize (H2 z I). destruct F as [F|[_ F]]; [assumption|lia].
Qed.
Lemma nth_error_ext' {A} : forall a b : list A, (forall i, nth_error a i = nth_error b i) -> a = b.
Proof. induction a as [|x a IH]; intros [|y b] H; [reflexivity|discriminate (H 0)|discriminate (H 0)|]. pose proof (H 0) as H0. inversion H0. f_equal. apply IH. intros i. exact (H (S i)). Qed.
Lemma matched_bounds us ds i j os : matched us ds i j os -> i < length us /\ j < length ds.
Proof. intros (u & d & ns & U & D & _). split; apply nth_error_Some; congruence. Qed.

(* The check does not fail; it notes for each right-hand side the first one of the definition that matches it, if any. *)
Theorem C61_first us ds : exists l ms, process_matches us ds = Ok (l, ms) /\ length l = length us /\ forall i x, nth_error l i = Some x ->
  match x with
  | None => forall j os, ~ matched us ds i j os
  | Some j => (exists os, matched us ds i j os) /\ forall j' os, matched us ds i j' os -> j <= j'
  end.
Proof.
  unfold process_matches. rewrite uis_sorted. cbn [assert_ bind]. eexists. eexists. split; [reflexivity|]. split; [now rewrite !map_length, seq_length|]. intros i x H. rewrite map_map in H.
  assert (L : i < length us). { apply nth_error_Some. intros Q. assert (X : nth_error (map (fun u => fst (match map di (filter (fun x0 => ui x0 =? u) (all_matches us ds)) with [] => (None, [no_match u]) | [d] => (Some d, []) | d :: (_ :: _) as dis => (Some (nat_min d dis), [many_matches u (S (length dis))]) end)) (seq 0 (length us))) i <> None) by congruence. apply nth_error_Some in X. rewrite map_length, seq_length in X. apply nth_error_None in Q. lia. }
  rewrite nth_error_map in H. rewrite (nth_error_nth' _ 0) in H by now rewrite seq_length. rewrite seq_nth in H by assumption. cbn [option_map Nat.add] in H. inversion H as [H']. clear H.
  pose proof (in_dis us ds i) as D. destruct (map di (filter (fun x0 => ui x0 =? i) (all_matches us ds))) as [|d l].
  - cbn [fst] in *. intros j os M. apply (D j). eauto.
  - assert (X : x = Some (nat_min d l)) by (rewrite <- H'; destruct l; reflexivity). rewrite H' , X. destruct (nat_min_spec l d) as (H1 & H2 & H3). split; [apply D; destruct H1 as [-> |H1]; [now left|now right]|].
    intros j' os M. assert (I : In j' (d :: l)) by (apply D; eauto). destruct I as [<-|I]; auto.
Qed.
Print Assumptions C61_first.

(* The messages, exactly. *)
Theorem C61_messages us ds l ms : process_matches us ds = Ok (l, ms) -> forall m, In m ms <->
  (exists i, i < length us /\ (forall j os, ~ matched us ds i j os) /\ m = no_match i) \/
  (exists i js, StronglySorted lt js /\ 2 <= length js /\ (forall j, In j js <-> exists os, matched us ds i j os) /\ m = many_matches i (length js)) \/
  (exists i j os i' j' os', matched us ds i j os /\ matched us ds i' j' os' /\ i < i' /\ j' < j /\ m = out_of_order (map di (all_matches us ds))) \/
  (exists j is, StronglySorted lt is /\ 2 <= length is /\ (forall i, In i is <-> exists os, matched us ds i j os) /\ m = all_match is j).
Proof.
  unfold process_matches. rewrite uis_sorted. cbn [assert_ bind]. intros [= _ <-] m. rewrite !in_app_iff. rewrite flat_map_concat_map, map_map, <- flat_map_concat_map.
  assert (OO : In m (if nat_sorted (map di (all_matches us ds)) then [] else [out_of_order (map di (all_matches us ds))]) <->
    exists i j os i' j' os', matched us ds i j os /\ matched us ds i' j' os' /\ i < i' /\ j' < j /\ m = out_of_order (map di (all_matches us ds))).
  { split.
    - destruct (nat_sorted _) eqn:E; [intros []|]. intros [<-|[]].
      assert (X : exists x y, In x (all_matches us ds) /\ In y (all_matches us ds) /\ lex x y /\ di y < di x).
      { pose proof (matches_sorted us ds) as S. induction S as [|x q S IH F]; [discriminate|]. destruct (nat_sorted (map di q)) eqn:Q.
        - destruct q as [|y q]; [discriminate|]. cbn [map nat_sorted] in E, Q. destruct (di x <=? di y) eqn:C; [rewrite Q in E; discriminate|]. apply Nat.leb_gt in C. exists x, y. rewrite Forall_forall in F. split; [now left|]. split; [right; now left|]. split; [apply F; now left|assumption].
        - destruct (IH eq_refl) as (a & b & IA & IB & H). exists a, b. split; [now right|]. split; [now right|assumption]. }
      destruct X as ([[i j] os] & [[i' j'] os'] & X1 & X2 & [X3|[_ X3]] & X4); unfold ui, di in X3, X4; cbn [fst snd] in X3, X4; [|lia]. apply matches_in in X1, X2. exists i, j, os, i', j', os'. auto.
    - intros (i & j & os & i' & j' & os' & M & M' & L & L' & ->). destruct (nat_sorted _) eqn:E; [|now left]. exfalso. apply nat_sorted_spec in E. apply matches_in in M, M'. pose proof (matches_sorted us ds) as S.
      induction S as [|x q S IH F]; [destruct M|]. cbn [map] in E. inversion E as [|? ? E1 E2]; subst. rewrite Forall_forall in F, E2. destruct M as [->|M], M' as [M'|M'].
      + inversion M'; subst. lia.
      + specialize (E2 j' (in_map di _ _ M')). unfold di in E2. cbn in E2. lia.
      + subst x. specialize (F _ M). unfold lex, ui, di in F. cbn in F. lia.
      + auto. }
  rewrite OO. clear OO. setoid_rewrite in_flat_map. split.
  - intros [(i & I & H)|[H|(j & J & H)]].
    + apply in_seq in I. pose proof (in_dis us ds i) as D. pose proof (dis_sorted us ds i) as S. destruct (map di (filter (fun x => ui x =? i) (all_matches us ds))) as [|a [|b q]]; cbn [snd] in H.
      * destruct H as [<-|[]]. left. exists i. split; [lia|]. split; [|reflexivity]. intros j os M. apply (D j). eauto.
      * destruct H.
      * destruct H as [<-|[]]. right. left. exists i, (a :: b :: q). split; [assumption|]. split; [cbn; lia|]. split; [exact D|reflexivity].
    + right. right. left. exact H.
    + pose proof (fun i => in_uis us ds i j) as D. pose proof (uis_sorted_lt us ds j) as S. destruct (map ui (filter (fun x => di x =? j) (all_matches us ds))) as [|a [|b q]]; cbn [snd] in H; [destruct H|destruct H|].
      destruct H as [<-|[]]. right. right. right. exists j, (a :: b :: q). split; [assumption|]. split; [cbn; lia|]. split; [exact D|reflexivity].
  - assert (SU : forall a b : list nat, StronglySorted lt a -> StronglySorted lt b -> (forall x, In x a <-> In x b) -> a = b).
    { clear. induction a as [|x a IH]; intros b SA SB E; [destruct b as [|y b]; [reflexivity|]; destruct (proj2 (E y)); now left|]. destruct b as [|y b]; [destruct (proj1 (E x)); now left|].
      inversion SA as [|? ? SA1 SA2]; inversion SB as [|? ? SB1 SB2]; subst. rewrite Forall_forall in SA2, SB2. assert (x = y).
      { destruct (proj1 (E x) (or_introl eq_refl)) as [Q|Q]; [now symmetry|]. destruct (proj2 (E y) (or_introl eq_refl)) as [Q'|Q']; [assumption|]. specialize (SA2 _ Q'). specialize (SB2 _ Q). lia. }
      subst y. f_equal. apply IH; auto. intros z. split; intros I; [destruct (proj1 (E z) (or_intror I)) as [<-|Q]|destruct (proj2 (E z) (or_intror I)) as [<-|Q]]; auto; [specialize (SA2 _ I)|specialize (SB2 _ I)]; lia. }
    intros [(i & L & H & ->)|[(i & js & S & L & D & ->)|[H|(j & is & S & L & D & ->)]]].
    + left. exists i. split; [apply in_seq; lia|]. pose proof (in_dis us ds i) as D. destruct (map di (filter (fun x => ui x =? i) (all_matches us ds))) as [|a q]; [now left|]. destruct (proj1 (D a) (or_introl eq_refl)) as [os M]. destruct (H _ _ M).
    + left. exists i. split; [destruct js as [|j js]; [cbn in L; lia|]; destruct (proj1 (D j) (or_introl eq_refl)) as [os M]; apply matched_bounds in M; apply in_seq; lia|].
      rewrite (SU _ js (dis_sorted us ds i) S) by (intros x; rewrite in_dis; symmetry; apply D). destruct js as [|a [|b q]]; cbn in L; try lia. now left.
    + right. left. exact H.
    + right. right. exists j. split; [destruct is as [|i is]; [cbn in L; lia|]; destruct (proj1 (D i) (or_introl eq_refl)) as [os M]; apply matched_bounds in M; apply in_seq; lia|].
      rewrite (SU _ is (uis_sorted_lt us ds j) S) by (intros x; rewrite in_uis; symmetry; apply D). destruct is as [|a [|b q]]; cbn in L; try lia. now left.
Qed.
Print Assumptions C61_messages.

(* No message: each right-hand side has exactly one of the definition that matches, and they stand in the order of the definition, none twice. *)
Theorem C61_silent us ds l : process_matches us ds = Ok (l, []) <->
  exists js, l = map Some js /\ length js = length us /\ StronglySorted lt js /\ forall i j, nth_error js i = Some j <-> exists os, matched us ds i j os.
Proof.
  split.
  - intros H. destruct (C61_first us ds) as (l' & ms & H' & L & F). rewrite H in H'. inversion H'; subst l' ms. clear H'.
    assert (X : exists js, l = map Some js).
    { assert (A : forall i x, nth_error l i = Some x -> exists j, x = Some j).
      { intros i [j|] N; [eauto|]. exfalso. apply (C61_messages us ds l [] H (no_match i)). left. exists i. split; [rewrite <- L; apply nth_error_Some; congruence|]. split; [exact (F i None N)|reflexivity]. }
      clear -A. induction l as [|x l IH]; [exists []; reflexivity|]. destruct (A 0 x eq_refl) as [j ->]. destruct IH as [js ->]; [intros i; exact (A (S i))|]. exists (j :: js). reflexivity. }
    destruct X as [js ->]. exists js. split; [reflexivity|]. split; [now rewrite map_length in L|].
    assert (G : forall i j, nth_error js i = Some j <-> exists os, matched us ds i j os).
    { intros i j. split.
      - intros N. apply (F i (Some j)). rewrite nth_error_map, N. reflexivity.
      - intros [os M]. destruct (nth_error js i) as [j'|] eqn:N; [|apply nth_error_None in N; apply matched_bounds in M; rewrite map_length in L; lia].
        destruct (F i (Some j')) as [M' _]; [rewrite nth_error_map, N; reflexivity|]. f_equal. pose proof (in_dis us ds i) as D. pose proof (dis_sorted us ds i) as S.
        destruct (map di (filter (fun x => ui x =? i) (all_matches us ds))) as [|a [|b q]] eqn:E.
        + destruct (proj2 (D j)). eauto.
        + destruct (proj2 (D j)) as [<-|[]]; [eauto|]. destruct (proj2 (D j')) as [<-|[]]; [exact M'|]. reflexivity.
        + exfalso. apply (C61_messages us ds _ [] H (many_matches i (length (a :: b :: q)))). right. left. exists i, (a :: b :: q). split; [exact S|]. split; [cbn; lia|]. split; [exact D|reflexivity]. }
    split; [|exact G].
    assert (O : forall i i' j j', nth_error js i = Some j -> nth_error js i' = Some j' -> i < i' -> j < j').
    { intros i i' j j' N N' LT. apply G in N as [os M]. apply G in N' as [os' M']. destruct (Nat.lt_trichotomy j j') as [Q|[<-|Q]]; [assumption| |].
      - exfalso. pose proof (fun i => in_uis us ds i j) as D. pose proof (uis_sorted_lt us ds j) as S. destruct (map ui (filter (fun x => di x =? j) (all_matches us ds))) as [|a [|b q]] eqn:E.
        + destruct (proj2 (D i)). eauto.
        + destruct (proj2 (D i)) as [Q|[]]; [eauto|]. destruct (proj2 (D i')) as [Q'|[]]; [eauto|]. lia.
        + apply (C61_messages us ds _ [] H (all_match (a :: b :: q) j)). right. right. right. exists j, (a :: b :: q). split; [exact S|]. split; [cbn; lia|]. split; [exact D|reflexivity].
      - exfalso. apply (C61_messages us ds _ [] H (out_of_order (map di (all_matches us ds)))). right. right. left. exists i, j, os, i', j', os'. auto. }
    clear -O. induction js as [|j js IH]; [constructor|]. constructor; [apply IH; intros i i' a b N N' Q; apply (O (S i) (S i') a b N N'); lia|]. apply Forall_forall. intros b I. apply In_nth_error in I as [k I]. apply (O 0 (S k) j b eq_refl I). lia.
  - intros (js & -> & L & S & G). destruct (C61_first us ds) as (l' & ms & H & L' & F). rewrite H. f_equal. f_equal.
    + apply nth_error_ext'. intros i. destruct (nth_error l' i) as [x|] eqn:N.
      * specialize (F i x N). rewrite nth_error_map. destruct x as [j|].
        -- destruct F as [M _]. apply G in M. rewrite M. reflexivity.
        -- exfalso. assert (i < length js) by (rewrite L, <- L'; apply nth_error_Some; congruence). destruct (nth_error js i) as [j|] eqn:Q; [|apply nth_error_None in Q; lia]. apply G in Q as [os M]. exact (F _ _ M).
      * symmetry. apply nth_error_None. rewrite map_length, L, <- L'. now apply nth_error_None.
    + destruct ms as [|m ms]; [reflexivity|]. exfalso. assert (O : forall i i' j j', nth_error js i = Some j -> nth_error js i' = Some j' -> i < i' -> j < j').
      { clear -S. induction S as [|x js S IH F]; intros [|i] [|i'] j j' N N' Q; try lia; try discriminate.
        - inversion N; subst. rewrite Forall_forall in F. apply F. eapply nth_error_In. exact N'.
        - apply (IH i i' j j' N N'). lia. }
      destruct (proj1 (C61_messages us ds l' (m :: ms) H m) (or_introl eq_refl)) as [(i & Li & M & _)|[(i & ks & Sk & Lk & D & _)|[(i & j & os & i' & j' & os' & M & M' & LT & LT' & _)|(j & ks & Sk & Lk & D & _)]]].
      * rewrite <- L in Li. destruct (nth_error js i) as [j|] eqn:Q; [|apply nth_error_None in Q; lia]. apply G in Q as [os Q]. exact (M _ _ Q).
      * destruct ks as [|a [|b ks]]; cbn in Lk; try lia. pose proof (proj2 (G i a) (proj1 (D a) (or_introl eq_refl))) as A. pose proof (proj2 (G i b) (proj1 (D b) (or_intror (or_introl eq_refl)))) as B. inversion Sk as [|? ? _ FA]; subst. inversion FA; subst. rewrite A in B. inversion B. lia.
      * assert (j < j'); [|lia]. apply (O i i'); [apply G; eauto|apply G; eauto|assumption].
      * destruct ks as [|a [|b ks]]; cbn in Lk; try lia. pose proof (proj2 (G a j) (proj1 (D a) (or_introl eq_refl))) as A. pose proof (proj2 (G b j) (proj1 (D b) (or_intror (or_introl eq_refl)))) as B. inversion Sk as [|? ? _ FA]; subst. inversion FA; subst. pose proof (O a b j j A B ltac:(assumption)). lia.
Qed.
Print Assumptions C61_silent.

(* A: X, A: Y against A: X, A: X Y?, A: Y; in the other order; and against a definition where both match one *)
Definition nt (n : nat) := Plain (GNT n []).
Definition ds1 := [mkD 10 [nt 1]; mkD 11 [nt 1; QM (GNT 2 [])]; mkD 12 [nt 2]].
Example C61_ex : process_matches [[nt 1]; [nt 2]] ds1 = Ok ([Some 0; Some 2], [many_matches 0 2]) /\ use_puks [[nt 1]; [nt 2]] ds1 = [(10, []); (11, [false]); (12, [])].
Proof. split; reflexivity. Qed.
Example C61_ex_order : process_matches [[nt 2]; [nt 1; nt 2]; [nt 3]] ds1 = Ok ([Some 2; Some 1; None], [no_match 2; out_of_order [2; 1]]).
Proof. reflexivity. Qed.
Example C61_ex_all : process_matches [[nt 1]; [nt 1; nt 2]] [mkD 11 [nt 1; QM (GNT 2 [])]] = Ok ([Some 0; Some 0], [all_match [0; 1] 0]).
Proof. reflexivity. Qed.
Example C61_ex_silent : process_matches [[nt 1; QM (GNT 2 [])]; [nt 2]] ds1 = Ok ([Some 1; Some 2], []) /\ use_puks [[nt 1; QM (GNT 2 [])]; [nt 2]] ds1 = [(11, [false]); (11, [true]); (12, [])].
Proof. split; reflexivity. Qed.
