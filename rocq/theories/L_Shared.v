(* Specifications and lemmas for shared.py. *)
From Verif Require Import M_Base L_Base M_Shared.

(* ================================================================== *)
(* C01: positions and lines *)

Definition count_nl (t : text) : nat := length (filter (N.eqb newline) t).

(* Specification: position p of t is at (1-based) line and column:
   the text before p is whole lines followed by a newline-free rest. *)
Definition is_linecol (t : text) (p line col : nat) : Prop :=
  exists a b, firstn p t = a ++ b /\ ~ In newline b /\
    (a = [] \/ exists a', a = a' ++ [newline]) /\
    line = S (count_nl a) /\ col = S (length b).

Lemma count_nl_app a b : count_nl (a ++ b) = count_nl a + count_nl b.
Proof. unfold count_nl. now rewrite filter_app, app_length. Qed.

Lemma count_nl_0 b : ~ In newline b <-> count_nl b = 0.
Proof.
  unfold count_nl. induction b as [|c b IH]; cbn [filter length In]; [intuition|].
  destruct (N.eqb_spec newline c) as [Hc|Hc]; cbn [filter length]; [split; [intros H; exfalso; apply H; now left|intros H; discriminate]|].
  rewrite <- IH. intuition congruence.
Qed.

Lemma is_linecol_fun t p l1 c1 l2 c2 :
  is_linecol t p l1 c1 -> is_linecol t p l2 c2 -> l1 = l2 /\ c1 = c2.
Proof.
  intros (a1 & b1 & E1 & N1 & L1 & -> & ->) (a2 & b2 & E2 & N2 & L2 & -> & ->).
  assert (a1 = a2 /\ b1 = b2) as [-> ->]; [|auto].
  rewrite E1 in E2. clear E1.
  destruct L1 as [->|[a1' ->]], L2 as [->|[a2' ->]].
  - auto.
  - exfalso. simpl in E2. subst b1. apply N1. rewrite !in_app_iff. simpl. auto.
  - exfalso. simpl in E2. subst b2. apply N2. rewrite !in_app_iff. simpl. auto.
  - assert (a1' = a2' /\ b1 = b2) as [-> ->]; [|auto].
    rewrite <- !app_assoc in E2. simpl in E2.
    revert a2' E2. induction a1' as [|x a1' IH]; intros [|y a2'] E2; simpl in E2.
    + now inversion E2.
    + inversion E2; subst. exfalso. apply N1. rewrite in_app_iff. simpl. auto.
    + inversion E2; subst. exfalso. apply N2. rewrite in_app_iff. simpl. auto.
    + inversion E2; subst. destruct (IH _ H1) as [-> ->]. auto.
Qed.

Lemma newline_starts_nth t : forall i k q,
  nth_error (newline_starts i t) k = Some q ->
  exists m, q = (i + Z.of_nat m)%Z /\ nth_error t m = Some newline /\ count_nl (firstn m t) = k.
Proof.
  induction t as [|c t IH]; intros i k q H; simpl in H.
  - destruct k; discriminate.
  - destruct (N.eqb_spec c newline) as [->|Hc].
    + destruct k as [|k]; simpl in H.
      * inversion H; subst. exists 0. repeat split; simpl; auto. lia.
      * apply IH in H as (m & -> & H1 & H2). exists (S m). repeat split; [lia|exact H1|].
        cbn [firstn]. unfold count_nl in *. simpl. now rewrite H2.
    + apply IH in H as (m & -> & H1 & H2). exists (S m). repeat split; [lia|exact H1|].
      cbn [firstn]. unfold count_nl in *. cbn [filter].
      destruct (N.eqb_spec newline c); [congruence|exact H2].
Qed.

Lemma newline_starts_mem t : forall i m,
  nth_error t m = Some newline ->
  nth_error (newline_starts i t) (count_nl (firstn m t)) = Some (i + Z.of_nat m)%Z.
Proof.
  induction t as [|c t IH]; intros i m H.
  - destruct m; discriminate.
  - destruct m as [|m]; simpl in H.
    + inversion H; subst. simpl. f_equal. lia.
    + cbn [firstn]. unfold count_nl in *. cbn [filter newline_starts].
      rewrite (N.eqb_sym newline c).
      destruct (N.eqb_spec c newline); cbn [length nth_error]; rewrite (IH (i+1)%Z m H); f_equal; lia.
Qed.

Lemma count_nl_firstn_le t m1 m2 : m1 <= m2 -> count_nl (firstn m1 t) <= count_nl (firstn m2 t).
Proof.
  intros H. replace m2 with (m1 + (m2 - m1)) by lia.
  generalize (m2 - m1) as d. intros d. clear.
  revert t. induction m1 as [|m1 IH]; intros t; [unfold count_nl; simpl; lia|].
  destruct t as [|c t]; [cbn; lia|]. specialize (IH t).
  cbn [Nat.add firstn]. unfold count_nl in *. cbn [filter].
  destruct (newline =? c)%N; cbn [length]; lia.
Qed.

Lemma count_nl_firstn_lt t m1 m2 :
  nth_error t m1 = Some newline -> m1 < m2 -> count_nl (firstn m1 t) < count_nl (firstn m2 t).
Proof.
  intros Hn H. assert (count_nl (firstn (S m1) t) = S (count_nl (firstn m1 t))).
  { clear H. revert t Hn. induction m1 as [|m1 IH]; intros [|c t] Hn; try discriminate; simpl in Hn.
    - inversion Hn; subst. reflexivity.
    - specialize (IH _ Hn). cbn [firstn] in *. unfold count_nl in *. cbn [filter].
      destruct (newline =? c)%N; cbn [length]; lia. }
  pose proof (count_nl_firstn_le t (S m1) m2). lia.
Qed.

(* the table is strictly increasing *)
Lemma newline_posns_lt t j k a b :
  nth_error (newline_posns t) j = Some a -> nth_error (newline_posns t) k = Some b ->
  j < k -> (a < b)%Z.
Proof.
  intros Ha Hb Hjk. unfold newline_posns in *.
  destruct k as [|k]; [lia|]. simpl in Hb.
  apply newline_starts_nth in Hb as (m & -> & Hm & Hk).
  destruct j as [|j]; simpl in Ha.
  - inversion Ha. lia.
  - apply newline_starts_nth in Ha as (m' & -> & Hm' & Hk').
    destruct (le_lt_dec m m') as [Hle|]; [|lia].
    exfalso. pose proof (count_nl_firstn_le t m m' Hle). lia.
Qed.

Lemma bisect_ok t p : forall fuel lo hi a b,
  let np := newline_posns t in
  nth_error np lo = Some a -> nth_error np hi = Some b -> (a < p <= b)%Z ->
  hi - lo < fuel ->
  exists lo' a' b', nth_error np lo' = Some a' /\ nth_error np (S lo') = Some b' /\
    (a' < p <= b')%Z /\ bisect fuel t np p lo hi = Ok (S lo', p - a')%Z.
Proof.
  induction fuel as [|f IH]; intros lo hi a b np Ha Hb Hp Hf; [lia|].
  assert (lo < hi) as Hlt.
  { destruct (le_lt_dec hi lo) as [Hle|]; [|assumption]. exfalso.
    destruct (Nat.eq_dec hi lo) as [->|Hne]; [rewrite Ha in Hb; inversion Hb; lia|].
    assert (b < a)%Z by (eapply newline_posns_lt; eauto; lia). lia. }
  cbn [bisect]. apply Nat.ltb_lt in Hlt as Hlt'. rewrite Hlt'. cbn [negb].
  rewrite Ha, Hb.
  replace ((a <? p)%Z && (p <=? b)%Z) with true by (symmetry; apply andb_true_iff; lia).
  cbn [negb].
  destruct (Nat.eqb_spec (lo + 1) hi) as [Heq|Hne].
  - exists lo, a, b. subst hi. rewrite Nat.add_1_r in *. auto.
  - set (mid := (lo + hi) / 2).
    assert (lo < mid < hi) as [Hm1 Hm2].
    { unfold mid. split.
      - apply Nat.div_le_lower_bound; lia.
      - apply Nat.div_lt_upper_bound; lia. }
    replace ((lo <? mid) && (mid <? hi)) with true
      by (symmetry; apply andb_true_iff; split; apply Nat.ltb_lt; assumption).
    cbn [negb].
    destruct (nth_error np mid) as [m|] eqn:Em.
    2:{ exfalso. apply nth_error_None in Em.
        assert (hi < length np) by (apply nth_error_Some; congruence). lia. }
    destruct (Z.ltb_spec m p).
    { eapply IH; eauto; lia. }
    destruct (Z.ltb_spec p m).
    { eapply IH; eauto; lia. }
    assert (m = p) by lia. subst m.
    destruct mid as [|k] eqn:Emid; [lia|].
    unfold np, newline_posns in Em. simpl in Em.
    pose proof Em as Em0.
    apply newline_starts_nth in Em0 as (q & Hq & Hnl & _).
    replace (Z.to_nat p) with q by lia. rewrite Hnl.
    rewrite N.eqb_refl.
    simpl. rewrite Nat.sub_0_r.
    destruct (nth_error np k) as [a'|] eqn:Ek.
    2:{ exfalso. apply nth_error_None in Ek.
        assert (hi < length np) by (apply nth_error_Some; congruence). lia. }
    assert (a' < p)%Z by (eapply (newline_posns_lt t k (S k)); eauto).
    eapply (IH k (S k)); eauto; lia.
Qed.

Lemma newline_posns_last t q : nth_error t q = Some newline ->
  exists b, nth_error (newline_posns t) (length (newline_posns t) - 1) = Some b /\ (Z.of_nat q <= b)%Z.
Proof.
  intros H. set (np := newline_posns t).
  pose proof (newline_starts_mem t 0 q H) as Hq.
  destruct (nth_error np (length np - 1)) as [b|] eqn:E.
  - exists b. split; [reflexivity|].
    assert (nth_error np (S (count_nl (firstn q t))) = Some (Z.of_nat q)) as Hq' by exact Hq.
    assert (S (count_nl (firstn q t)) < length np) by (apply nth_error_Some; congruence).
    destruct (Nat.eq_dec (S (count_nl (firstn q t))) (length np - 1)) as [He|He].
    + rewrite He in Hq'. rewrite E in Hq'. inversion Hq'. lia.
    + assert (Z.of_nat q < b)%Z by (eapply (newline_posns_lt t); eauto; fold np; lia). lia.
  - apply nth_error_None in E. unfold np, newline_posns in E. simpl in E. lia.
Qed.

Lemma linecol_exact_aux t p :
  (exists q, p <= q /\ nth_error t q = Some newline) ->
  exists lo a b, nth_error (newline_posns t) lo = Some a /\
    nth_error (newline_posns t) (S lo) = Some b /\ (a < Z.of_nat p <= b)%Z /\
    convert_posn_to_linecol t (Z.of_nat p) = Ok (S lo, Z.of_nat p - a)%Z.
Proof.
  intros (q & Hpq & Hq).
  destruct (newline_posns_last t q Hq) as (b & Hb & Hqb).
  unfold convert_posn_to_linecol.
  eapply bisect_ok; [reflexivity|exact Hb|lia|lia].
Qed.


Lemma linecol_exact t p :
  (exists q, p <= q /\ nth_error t q = Some newline) ->
  exists line col, convert_posn_to_linecol t (Z.of_nat p) = Ok (line, Z.of_nat col) /\
    is_linecol t p line col.
Proof.
  intros Hq. destruct (linecol_exact_aux t p Hq) as (lo & a & b & Ha & Hb & Hp & Hc).
  assert (-1 <= a)%Z as Ham1.
  { destruct lo as [|lo]; simpl in Ha; [inversion Ha; lia|].
    apply newline_starts_nth in Ha as (m & -> & _). lia. }
  set (s := Z.to_nat (a + 1)).
  destruct Hq as (q & Hpq & Hq).
  assert (q < length t) by (apply nth_error_Some; congruence).
  exists (S lo), (p - s + 1). split; [rewrite Hc; f_equal; f_equal; lia|].
  exists (firstn s t), (slice s p t).
  assert (s <= p) by lia.
  repeat split.
  - now apply firstn_split.
  - intros Hin. apply In_nth_error in Hin as (m & Hm). apply slice_nth in Hm as [Hm Hlt].
    apply (newline_starts_mem t 0) in Hm as Hm'.
    assert (nth_error (newline_posns t) (S (count_nl (firstn (s+m) t))) = Some (Z.of_nat (s+m))) as HH
      by exact Hm'.
    set (k := S (count_nl (firstn (s + m) t))) in *.
    destruct (lt_eq_lt_dec k lo) as [[Hk|Hk]|Hk].
    + assert (Z.of_nat (s+m) < a)%Z by (eapply newline_posns_lt; eauto). lia.
    + subst lo. rewrite Ha in HH. inversion HH. lia.
    + destruct (Nat.eq_dec k (S lo)) as [Hk'|Hk'].
      * rewrite Hk', Hb in HH. inversion HH. lia.
      * assert (b < Z.of_nat (s+m))%Z by (eapply (newline_posns_lt t (S lo) k); eauto; lia). lia.
  - destruct lo as [|lo]; simpl in Ha.
    + inversion Ha; subst a. left. reflexivity.
    + apply newline_starts_nth in Ha as (m & -> & Hm & _). right.
      exists (firstn m t). replace s with (S m) by lia.
      rewrite (firstn_split t m (S m)) by lia. f_equal.
      unfold slice. replace (S m - m) with 1 by lia.
      pose proof (nth_error_skipn t m 0) as E. rewrite Nat.add_0_r, Hm in E.
      destruct (skipn m t) as [|x r]; simpl in E; [discriminate|]. inversion E. reflexivity.
  - destruct lo as [|lo]; simpl in Ha.
    + inversion Ha; subst a. reflexivity.
    + apply newline_starts_nth in Ha as (m & -> & Hm & Hcn).
      replace s with (S m) by lia. rewrite (firstn_split t m (S m)) by lia.
      rewrite count_nl_app, Hcn. f_equal. unfold slice. replace (S m - m) with 1 by lia.
      pose proof (nth_error_skipn t m 0) as E. rewrite Nat.add_0_r, Hm in E.
      destruct (skipn m t) as [|x r]; simpl in E; [discriminate|]. inversion E. unfold count_nl. simpl. lia.
  - rewrite slice_length by lia. lia.
Qed.

Lemma bisect_roundtrip t z line col : forall fuel lo hi,
  bisect fuel t (newline_posns t) z lo hi = Ok (line, col) ->
  convert_HTMLParser_getpos_to_posn t line (col - 1) = Ok z.
Proof.
  unfold convert_HTMLParser_getpos_to_posn.
  induction fuel as [|f IH]; intros lo hi H; [discriminate|]. cbn [bisect] in H.
  destruct (lo <? hi); cbn [negb] in H; [|discriminate].
  destruct (nth_error (newline_posns t) lo) as [a|] eqn:Ea; [|discriminate].
  destruct (nth_error (newline_posns t) hi) as [b|] eqn:Eb; [|discriminate].
  destruct ((a <? z)%Z && (z <=? b)%Z); cbn [negb] in H; [|discriminate].
  destruct (Nat.eqb_spec (lo + 1) hi) as [He|He].
  - inversion H; subst. rewrite Nat.add_1_r. rewrite Ea. f_equal. lia.
  - destruct ((lo <? (lo + hi) / 2) && ((lo + hi) / 2 <? hi)); cbn [negb] in H; [|discriminate].
    destruct (nth_error (newline_posns t) ((lo + hi) / 2)) as [m|]; [|discriminate].
    destruct (m <? z)%Z; [eapply IH; exact H|].
    destruct (z <? m)%Z; [eapply IH; exact H|].
    destruct (nth_error t (Z.to_nat z)) as [c|]; [|discriminate].
    destruct (c =? newline)%N; [eapply IH; exact H|discriminate].
Qed.

Lemma linecol_roundtrip t z line col :
  convert_posn_to_linecol t z = Ok (line, col) ->
  convert_HTMLParser_getpos_to_posn t line (col - 1) = Ok z.
Proof.
  unfold convert_posn_to_linecol, convert_HTMLParser_getpos_to_posn.
  apply (bisect_roundtrip t z line col).
Qed.

Lemma linecol_injective t z1 z2 r :
  convert_posn_to_linecol t z1 = Ok r -> convert_posn_to_linecol t z2 = Ok r -> z1 = z2.
Proof.
  destruct r as [l c]. intros H1 H2.
  apply linecol_roundtrip in H1, H2. congruence.
Qed.

Lemma linecol_fails t z :
  (z < 0)%Z \/ (forall q, (z <= Z.of_nat q)%Z -> nth_error t q <> Some newline) ->
  convert_posn_to_linecol t z = Err AssertionError.
Proof.
  intros H. unfold convert_posn_to_linecol.
  rewrite Nat.add_1_r. cbn [bisect].
  destruct (Nat.ltb_spec 0 (length (newline_posns t) - 1)) as [Hl|]; cbn [negb]; [|reflexivity].
  cbn [nth_error newline_posns]. fold (newline_posns t).
  destruct (nth_error (newline_posns t) (length (newline_posns t) - 1)) as [b|] eqn:Eb.
  2:{ apply nth_error_None in Eb. lia. }
  destruct ((-1 <? z)%Z && (z <=? b)%Z) eqn:E; cbn [negb]; [|reflexivity].
  exfalso. apply andb_true_iff in E as [E1 E2].
  apply Z.ltb_lt in E1. apply Z.leb_le in E2.
  destruct H as [H|H]; [lia|].
  destruct (length (newline_posns t) - 1) as [|k]; [lia|]. simpl in Eb.
  apply newline_starts_nth in Eb as (m & -> & Hm & _). apply (H m); [lia|exact Hm].
Qed.
