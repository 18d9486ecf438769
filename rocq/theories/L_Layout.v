(* Specification of the checks of whitespace and characters, and lemmas about their model. *)
From Coq Require Import Ascii String.
From Verif Require Import M_Base L_Base M_HTML M_Layout.
Open Scope list_scope.
Notation length := List.length.

(* ---------- specification ---------- *)
Definition has (s : text) (i : nat) (c : N) : Prop := nth_error s i = Some c.
(* all characters from i up to (not including) j satisfy f *)
Definition all_in (s : text) (f : N -> Prop) (i j : nat) : Prop := forall k, i <= k < j -> exists c, has s k c /\ f c.
Definition space_or_tab (c : N) : Prop := c = 32%N \/ c = 9%N.
(* the ends of two consecutive lines, of which the second is empty or has only spaces *)
Definition blank_line (s : text) (i j : nat) : Prop := i < j /\ has s i 10%N /\ has s j 10%N /\ all_in s (eq 32%N) (S i) j.
(* consecutive blank lines *)
Fixpoint blank_lines (s : text) (i : nat) (l : list nat) : Prop :=
  match l with [] => True | j :: l' => blank_line s i j /\ blank_lines s j l' end.

Definition usual (c : N) : Prop :=
  c = 10%N \/ (32 <= c <= 126)%N \/
  In c [171; 187; 215; 960; 8212; 8220; 8221; 8230; 8477; 8484; 8594; 8734; 8800; 8804; 8805; 120125]%N.

(* ---------- lemmas ---------- *)
Definition good_try (try : text -> option nat) : Prop := forall s n, try s = Some n -> 1 <= n.

Lemma skipn_S : forall A (c : A) s k, skipn (S k) (c :: s) = skipn k s. Proof. reflexivity. Qed.

Lemma finditer_spec : forall try, good_try try -> forall s p skip,
  (forall q n, In (q, n) (finditer try p skip s) -> p + skip <= q < p + length s /\ try (skipn (q - p) s) = Some n) /\
  (forall q n, p + skip <= q -> try (skipn (q - p) s) = Some n -> q < p + length s ->
     In (q, n) (finditer try p skip s) \/ exists q' n', In (q', n') (finditer try p skip s) /\ q' < q < q' + n') /\
  (forall a b l1 l2 l3, finditer try p skip s = l1 ++ a :: l2 ++ b :: l3 -> fst a + snd a <= fst b).
Proof.
  intros try G. induction s as [|c s IH]; intros p skip.
  - cbn [finditer length]. split; [intros q n []|]. split; [intros; lia|]. intros a b l1 l2 l3 E. destruct l1; discriminate.
  - cbn [finditer]. destruct skip as [|k].
    + destruct (try (c :: s)) as [n|] eqn:Et.
      * pose proof (G _ _ Et) as Hn. destruct (IH (S p) (n - 1)) as (A & B & C). split; [|split].
        -- intros q m [E|H].
           ++ injection E as <- <-. rewrite Nat.sub_diag. cbn [length skipn]. split; [lia|exact Et].
           ++ destruct (A q m H) as [H1 H2]. cbn [length]. split; [lia|]. replace (q - p) with (S (q - S p)) by lia. exact H2.
        -- intros q m H1 H2 H3. cbn [length] in H3. destruct (Nat.eq_dec q p) as [->|Hq].
           ++ rewrite Nat.sub_diag in H2. cbn [skipn] in H2. left. left. congruence.
           ++ replace (q - p) with (S (q - S p)) in H2 by lia. rewrite skipn_S in H2.
              destruct (le_lt_dec (p + n) q) as [Hl|Hl].
              ** destruct (B q m) as [H|(q' & n' & H & Hq')]; [lia|exact H2|lia|left; now right|]. right. exists q', n'. split; [now right|exact Hq'].
              ** right. exists p, n. split; [now left|lia].
        -- intros a b l1 l2 l3 E. destruct l1 as [|x l1]; cbn [app] in E; injection E as E1 E2.
           ++ subst a. destruct b as [q m]. cbn [fst snd]. destruct (A q m) as [H _]; [rewrite E2; apply in_app_iff; right; now left|lia].
           ++ exact (C a b l1 l2 l3 E2).
      * destruct (IH (S p) 0) as (A & B & C). split; [|split].
        -- intros q m H. destruct (A q m H) as [H1 H2]. cbn [length]. split; [lia|]. replace (q - p) with (S (q - S p)) by lia. exact H2.
        -- intros q m H1 H2 H3. cbn [length] in H3. destruct (Nat.eq_dec q p) as [->|Hq].
           ++ rewrite Nat.sub_diag in H2. cbn [skipn] in H2. congruence.
           ++ replace (q - p) with (S (q - S p)) in H2 by lia. rewrite skipn_S in H2. apply B; [lia|exact H2|lia].
        -- exact C.
    + destruct (IH (S p) k) as (A & B & C). split; [|split].
      * intros q m H. destruct (A q m H) as [H1 H2]. cbn [length]. split; [lia|]. replace (q - p) with (S (q - S p)) by lia. exact H2.
      * intros q m H1 H2 H3. cbn [length] in H3. replace (q - p) with (S (q - S p)) in H2 by lia. rewrite skipn_S in H2. apply B; [lia|exact H2|lia].
      * exact C.
Qed.
Lemma in_two : forall A (x y : A) l, In x l -> In y l -> x <> y -> (exists l1 l2 l3, l = l1 ++ x :: l2 ++ y :: l3) \/ (exists l1 l2 l3, l = l1 ++ y :: l2 ++ x :: l3).
Proof.
  intros A x y l. induction l as [|z l IH]; intros Hx Hy N; [destruct Hx|]. destruct Hx as [->|Hx], Hy as [->|Hy].
  - congruence.
  - apply in_split in Hy as (l2 & l3 & ->). left. exists [], l2, l3. reflexivity.
  - apply in_split in Hx as (l2 & l3 & ->). right. exists [], l2, l3. reflexivity.
  - destruct (IH Hx Hy N) as [(l1 & l2 & l3 & ->)|(l1 & l2 & l3 & ->)]; [left|right]; exists (z :: l1), l2, l3; reflexivity.
Qed.
(* the three facts, from the start of a text *)
Lemma find_sound : forall try s q n, good_try try -> In (q, n) (finditer try 0 0 s) -> q < length s /\ try (skipn q s) = Some n.
Proof. intros try s q n G H. destruct (finditer_spec try G s 0 0) as (A & _ & _). destruct (A q n H) as [H1 H2]. rewrite Nat.sub_0_r in H2. split; [lia|exact H2]. Qed.
Lemma find_complete : forall try s q n, good_try try -> try (skipn q s) = Some n -> q < length s ->
  In (q, n) (finditer try 0 0 s) \/ exists q' n', In (q', n') (finditer try 0 0 s) /\ q' < q < q' + n'.
Proof. intros try s q n G H Hq. destruct (finditer_spec try G s 0 0) as (_ & B & _). apply B; [lia|rewrite Nat.sub_0_r; exact H|lia]. Qed.
Lemma find_apart : forall try s q n q' n', good_try try -> In (q, n) (finditer try 0 0 s) -> In (q', n') (finditer try 0 0 s) -> q < q' -> q + n <= q'.
Proof.
  intros try s q n q' n' G H H' L. destruct (finditer_spec try G s 0 0) as (A & _ & C).
  destruct (in_two _ (q, n) (q', n') _ H H') as [(l1 & l2 & l3 & E)|(l1 & l2 & l3 & E)].
  - intros E. injection E as -> ->. lia.
  - exact (C _ _ _ _ _ E).
  - pose proof (C _ _ _ _ _ E) as X. cbn in X. pose proof (G _ _ (proj2 (A _ _ H'))). lia.
Qed.
Lemma find_increasing : forall try s l1 a l2 b l3, good_try try -> finditer try 0 0 s = l1 ++ a :: l2 ++ b :: l3 -> fst a < fst b /\ fst a + snd a <= fst b.
Proof.
  intros try s l1 a l2 b l3 G E. destruct (finditer_spec try G s 0 0) as (A & _ & C). pose proof (C _ _ _ _ _ E) as X.
  destruct a as [q n]. destruct (A q n) as [_ H]; [rewrite E; apply in_app_iff; right; now left|]. apply G in H. cbn [fst snd] in *. lia.
Qed.

Lemma has_skipn : forall s q k c, has (skipn q s) k c <-> has s (q + k) c.
Proof. intros s q. revert s. induction q as [|q IH]; intros s k c; [reflexivity|]. destruct s as [|d s]; [unfold has; cbn; destruct k; split; discriminate|]. cbn [skipn]. rewrite IH. reflexivity. Qed.
Lemma has_lt : forall s i c, has s i c -> i < length s. Proof. intros s i c H. apply nth_error_Some. unfold has in H. congruence. Qed.
Lemma has_fun : forall s i c d, has s i c -> has s i d -> c = d. Proof. unfold has. congruence. Qed.

Lemma count_spec : forall f s, (forall k, k < count_while f s -> exists c, has s k c /\ f c = true) /\
  (has s (count_while f s) = has s (count_while f s)) /\ (forall c, has s (count_while f s) c -> f c = false) /\ count_while f s <= length s.
Proof.
  intros f. induction s as [|c s (A & _ & B & C)]; cbn [count_while].
  - split; [intros; lia|]. split; [reflexivity|]. split; [|cbn; lia]. intros c H. destruct (count_while f []); discriminate.
  - destruct (f c) eqn:E.
    + split; [|split; [reflexivity|split; [exact B|cbn; lia]]]. intros [|k] Hk; [exists c; split; [reflexivity|exact E]|]. apply A. lia.
    + split; [intros; lia|]. split; [reflexivity|]. split; [|cbn; lia]. intros d H. unfold has in H. cbn in H. congruence.
Qed.
(* the number is determined by what it counts *)
Lemma count_unique : forall f s n, (forall k, k < n -> exists c, has s k c /\ f c = true) -> (forall c, has s n c -> f c = false) -> count_while f s = n.
Proof.
  intros f s n H1 H2. destruct (count_spec f s) as (A & _ & B & C). destruct (lt_eq_lt_dec (count_while f s) n) as [[L|E]|L]; [|exact E|].
  - destruct (H1 _ L) as (c & Hc & F). specialize (B c Hc). congruence.
  - destruct (A _ L) as (c & Hc & F). specialize (H2 c Hc). congruence.
Qed.

(* --- trailing whitespace --- *)
Lemma blank_iff : forall c, is_blank c = true <-> space_or_tab c.
Proof. intros c. unfold is_blank, space_or_tab. rewrite orb_true_iff, !N.eqb_eq. tauto. Qed.
Lemma trailing_try : forall s n, try_trailing s = Some n <-> 1 <= n /\ all_in s space_or_tab 0 n /\ n <= length s /\ (n = length s \/ has s n 10%N).
Proof.
  intros s n. unfold try_trailing. destruct (count_spec is_blank s) as (A & _ & B & C).
  assert (SS : forall m, all_in s space_or_tab 0 m <-> forall k, k < m -> exists c, has s k c /\ is_blank c = true).
  { intros m. unfold all_in. split.
    - intros H k Hk. destruct (H k) as (c & Hc & F); [lia|]. exists c. rewrite blank_iff. auto.
    - intros H k Hk. destruct (H k) as (c & Hc & F); [lia|]. exists c. rewrite <- blank_iff. auto. }
  assert (U : 1 <= n /\ all_in s space_or_tab 0 n /\ n <= length s /\ (n = length s \/ has s n 10%N) -> count_while is_blank s = n).
  { intros (_ & H1 & H2 & H3). apply count_unique; [now apply SS|]. intros c Hc. destruct H3 as [->|H3]; [apply has_lt in Hc; lia|].
    rewrite (has_fun _ _ _ _ Hc H3). reflexivity. }
  destruct (count_while is_blank s) as [|m] eqn:Em.
  - split; [discriminate|]. intros H. specialize (U H). lia.
  - assert (K : forall c r, skipn (S m) s = c :: r -> has s (S m) c).
    { intros c r E. replace (S m) with (S m + 0) by lia. apply has_skipn. rewrite E. reflexivity. }
    destruct (skipn (S m) s) as [|c r] eqn:Es.
    + assert (length s = S m).
      { assert (length (skipn (S m) s) = 0) as L by (rewrite Es; reflexivity). rewrite skipn_length in L. lia. }
      split.
      * intros E. injection E as <-. split; [lia|]. split; [now apply SS|]. split; [lia|]. now left.
      * intros H1. now rewrite (U H1).
    + specialize (K c r eq_refl). destruct (c =? 10)%N eqn:Ec.
      * apply N.eqb_eq in Ec. subst c. split.
        -- intros E. injection E as <-. split; [lia|]. split; [now apply SS|]. split; [apply has_lt in K; lia|now right].
        -- intros H1. now rewrite (U H1).
      * apply N.eqb_neq in Ec. split; [discriminate|]. intros H1. pose proof (U H1) as E. subst n. destruct H1 as (_ & _ & _ & [H1|H1]).
        -- apply has_lt in K. lia.
        -- exfalso. apply Ec. exact (has_fun _ _ _ _ K H1).
Qed.
Lemma good_trailing : good_try try_trailing. Proof. intros s n H. now apply trailing_try in H as (H & _). Qed.

(* a maximal piece of blanks at the end of a line *)
Definition trailing_at (s : text) (i j : nat) : Prop :=
  i < j /\ all_in s space_or_tab i j /\ (j = length s \/ has s j 10%N) /\ (forall c k, i = S k -> has s k c -> ~ space_or_tab c).
Lemma all_shift : forall s f q n, all_in (skipn q s) f 0 n <-> all_in s f q (q + n).
Proof.
  intros s f q n. unfold all_in. split.
  - intros H k Hk. destruct (H (k - q)) as (c & Hc & F); [lia|]. exists c. split; [|exact F]. apply has_skipn in Hc. replace (q + (k - q)) with k in Hc by lia. exact Hc.
  - intros H k Hk. destruct (H (q + k)) as (c & Hc & F); [lia|]. exists c. split; [|exact F]. now apply has_skipn.
Qed.
Lemma trailing_skip : forall s q n, q <= length s -> (try_trailing (skipn q s) = Some n <-> 1 <= n /\ all_in s space_or_tab q (q + n) /\ (q + n = length s \/ has s (q + n) 10%N)).
Proof.
  intros s q n Hq. rewrite trailing_try, all_shift, has_skipn, skipn_length. split.
  - intros (A & B & C & D). split; [exact A|]. split; [exact B|]. destruct D as [D|D]; [left; lia|now right].
  - intros (A & B & C). split; [exact A|]. split; [exact B|]. destruct C as [C|C]; [split; [lia|left; lia]|]. pose proof (has_lt _ _ _ C). split; [lia|now right].
Qed.
Lemma trailing_spec : forall s i n, In (i, n) (finditer try_trailing 0 0 s) <-> trailing_at s i (i + n).
Proof.
  assert (E : forall s q n q' n', q <= q' -> q' < q + n -> try_trailing (skipn q s) = Some n -> q < length s -> q' < length s -> try_trailing (skipn q' s) = Some n' -> q + n = q' + n').
  { intros s q n q' n' L1 L2 T L3 L4 T'. apply trailing_skip in T as (A & B & C); [|lia]. apply trailing_skip in T' as (A' & B' & C'); [|lia].
    destruct (lt_eq_lt_dec (q + n) (q' + n')) as [[L|X]|L]; [|exact X|].
    - destruct (B' (q + n)) as (c & Hc & F); [lia|]. destruct C as [C|C]; [apply has_lt in Hc; lia|]. rewrite (has_fun _ _ _ _ Hc C) in F. destruct F; discriminate.
    - destruct (B (q' + n')) as (c & Hc & F); [lia|]. destruct C' as [C'|C']; [apply has_lt in Hc; lia|]. rewrite (has_fun _ _ _ _ Hc C') in F. destruct F; discriminate. }
  intros s i n. split.
  - intros H. destruct (find_sound _ _ _ _ good_trailing H) as [L T]. pose proof T as T0. apply trailing_skip in T as (A & B & C); [|lia].
    split; [lia|]. split; [exact B|]. split; [exact C|]. intros c k -> Hc Hs.
    assert (Tk : try_trailing (skipn k s) = Some (S n)).
    { apply trailing_skip; [lia|]. split; [lia|]. replace (k + S n) with (S k + n) by lia. split; [|exact C].
      intros j Hj. destruct (Nat.eq_dec j k) as [->|Hn]; [eauto|]. apply B. lia. }
    destruct (find_complete _ _ _ _ good_trailing Tk) as [Hk|(q' & n' & Hk & Hq)]; [lia| |].
    + pose proof (find_apart _ _ _ _ _ _ good_trailing Hk H). lia.
    + pose proof (find_apart _ _ _ _ _ _ good_trailing Hk H). destruct (find_sound _ _ _ _ good_trailing Hk) as [L' T'].
      pose proof (E s q' n' k (S n) ltac:(lia) ltac:(lia) T' ltac:(lia) ltac:(lia) Tk). lia.
  - intros (L & B & C & M). assert (Hi : i < length s) by (destruct (B i) as (c & Hc & _); [lia|]; exact (has_lt _ _ _ Hc)).
    assert (T : try_trailing (skipn i s) = Some n) by (apply trailing_skip; [lia|]; split; [lia|auto]).
    destruct (find_complete _ _ _ _ good_trailing T Hi) as [H|(q' & n' & H & Hq)]; [exact H|].
    destruct (find_sound _ _ _ _ good_trailing H) as [L' T']. apply trailing_skip in T' as (A' & B' & C'); [|lia].
    destruct i as [|k]; [lia|]. destruct (B' k) as (c & Hc & F); [lia|]. exfalso. exact (M c k eq_refl Hc F).
Qed.

(* --- blank lines --- *)
Lemma blank_line_fun : forall s i j j', blank_line s i j -> blank_line s i j' -> j = j'.
Proof.
  intros s i j j' (L & _ & H & A) (L' & _ & H' & A'). destruct (lt_eq_lt_dec j j') as [[X|X]|X]; [|exact X|].
  - destruct (A' j) as (c & Hc & <-); [lia|]. pose proof (has_fun _ _ _ _ H Hc). discriminate.
  - destruct (A j') as (c & Hc & <-); [lia|]. pose proof (has_fun _ _ _ _ H' Hc). discriminate.
Qed.
Lemma blank_line_inj : forall s i i' j, blank_line s i j -> blank_line s i' j -> i = i'.
Proof.
  intros s i i' j (L & H & _ & A) (L' & H' & _ & A'). destruct (lt_eq_lt_dec i i') as [[X|X]|X]; [|exact X|].
  - destruct (A i') as (c & Hc & <-); [lia|]. pose proof (has_fun _ _ _ _ H' Hc). discriminate.
  - destruct (A' i) as (c & Hc & <-); [lia|]. pose proof (has_fun _ _ _ _ H Hc). discriminate.
Qed.

Definition fullrun (s : text) (i : nat) (l : list nat) : Prop := blank_lines s i l /\ forall j, ~ blank_line s (last l i) j.
Lemma last_cons : forall A (x d : A) l, last (x :: l) d = last l x.
Proof. intros A x d l. revert x d. induction l as [|y l IH]; intros x d; [reflexivity|]. change (last (y :: l) d = last (y :: l) x). now rewrite (IH y d), (IH y x). Qed.

(* reading blank lines from inside a line that began after the line end at i, the spaces so far reach up to m *)
Lemma blanks_run : forall s r i m cnt len, r = skipn m s -> has s i 10%N -> i < m -> m <= length s -> all_in s (eq 32%N) (S i) m ->
  exists l, fullrun s i l /\ blanks (m - S i) cnt len r = (cnt + length l, len + (last l i - i)).
Proof.
  intros s r. revert s. induction r as [|c r IH]; intros s i m cnt len Er Hi L Lm A.
  - exists []. cbn [blanks length last]. split; [|f_equal; lia]. split; [exact I|]. cbn [last]. intros j (Lj & _ & Hj & Aj).
    assert (length s <= m). { assert (length (skipn m s) = 0) as X by (rewrite <- Er; reflexivity). rewrite skipn_length in X. lia. }
    pose proof (has_lt _ _ _ Hj). destruct (A j) as (c & Hc & <-); [lia|]. pose proof (has_fun _ _ _ _ Hj Hc). discriminate.
  - assert (Hm : has s m c). { replace m with (m + 0) by lia. apply has_skipn. rewrite <- Er. reflexivity. }
    assert (Er' : r = skipn (S m) s). { replace (S m) with (1 + m) by lia. rewrite <- skipn_skipn, <- Er. reflexivity. }
    pose proof (has_lt _ _ _ Hm) as Lt. cbn [blanks]. destruct (c =? 32)%N eqn:Ec.
    + apply N.eqb_eq in Ec. subst c. replace (S (m - S i)) with (S m - S i) by lia. apply IH; [exact Er'|exact Hi|lia|lia|].
      intros k Hk. destruct (Nat.eq_dec k m) as [->|]; [eauto|]. apply A. lia.
    + apply N.eqb_neq in Ec. destruct (c =? 10)%N eqn:En.
      * apply N.eqb_eq in En. subst c. destruct (IH s m (S m) (S cnt) (len + (m - S i) + 1) Er' Hm) as (l & (Hl & Hx) & E); [lia|lia|intros k Hk; lia|].
        rewrite Nat.sub_diag in E. exists (m :: l). split.
        -- split; [split; [|exact Hl]|rewrite last_cons; exact Hx]. split; [exact L|]. auto.
        -- rewrite E, last_cons. cbn [length]. assert (m <= last l m).
           { clear - Hl. revert m Hl. induction l as [|j l IH]; intros m H; [cbn; lia|]. destruct H as ((H & _) & H'). rewrite last_cons. specialize (IH j H'). lia. }
           f_equal; lia.
      * apply N.eqb_neq in En. exists []. cbn [length last]. split; [|f_equal; lia]. split; [exact I|]. cbn [last]. intros j (Lj & _ & Hj & Aj).
        destruct (lt_eq_lt_dec j m) as [[X|X]|X].
        -- destruct (A j) as (d & Hd & <-); [lia|]. pose proof (has_fun _ _ _ _ Hj Hd). discriminate.
        -- subst j. apply En. exact (has_fun _ _ _ _ Hm Hj).
        -- destruct (Aj m) as (d & Hd & <-); [lia|]. apply Ec. exact (has_fun _ _ _ _ Hm Hd).
Qed.
Lemma run_le : forall s l i, blank_lines s i l -> i <= last l i.
Proof. intros s. induction l as [|j l IH]; intros i H; [cbn; lia|]. destruct H as ((H & _) & H'). rewrite last_cons. specialize (IH j H'). lia. Qed.
Lemma run_unique : forall s l l' i, fullrun s i l -> fullrun s i l' -> l = l'.
Proof.
  intros s. induction l as [|j l IH]; intros [|j' l'] i (H & X) (H' & X'); [reflexivity| | |].
  - destruct H' as (H' & _). exfalso. exact (X j' H').
  - destruct H as (H & _). exfalso. exact (X' j H).
  - destruct H as (B & H), H' as (B' & H'). pose proof (blank_line_fun _ _ _ _ B B') as <-. f_equal. apply (IH l' j).
    + split; [exact H|]. rewrite last_cons in X. exact X. + split; [exact H'|]. rewrite last_cons in X'. exact X'.
Qed.
Lemma blank_try : forall s i n, i < length s -> (try_blank_lines (skipn i s) = Some n <->
  has s i 10%N /\ exists l, fullrun s i l /\ 2 <= length l /\ i + n = S (last l i)).
Proof.
  intros s i n Hi. destruct (skipn i s) as [|c r] eqn:Es. { assert (length (skipn i s) = 0) as X by (rewrite Es; reflexivity). rewrite skipn_length in X. lia. }
  assert (Hc : has s i c). { replace i with (i + 0) by lia. apply has_skipn. rewrite Es. reflexivity. }
  unfold try_blank_lines. destruct (c =? 10)%N eqn:Ec.
  - apply N.eqb_eq in Ec. subst c. assert (Er : r = skipn (S i) s). { replace (S i) with (1 + i) by lia. rewrite <- skipn_skipn, Es. reflexivity. }
    destruct (blanks_run s r i (S i) 0 0 Er Hc) as (l & Hl & E); [lia|lia|intros k Hk; lia|]. rewrite Nat.sub_diag in E. rewrite E. cbn [plus].
    pose proof (run_le _ _ _ (proj1 Hl)) as Hle. destruct (2 <=? length l) eqn:E2.
    + apply Nat.leb_le in E2. split.
      * intros H. injection H as <-. split; [exact Hc|]. exists l. split; [exact Hl|]. split; [exact E2|lia].
      * intros (_ & l' & Hl' & _ & H). rewrite (run_unique _ _ _ _ Hl Hl') in *. f_equal. lia.
    + apply Nat.leb_gt in E2. split; [discriminate|]. intros (_ & l' & Hl' & H & _). rewrite (run_unique _ _ _ _ Hl Hl') in E2. lia.
  - apply N.eqb_neq in Ec. split; [discriminate|]. intros (H & _). exfalso. apply Ec. exact (has_fun _ _ _ _ Hc H).
Qed.
Lemma good_blank : good_try try_blank_lines.
Proof. intros s n H. unfold try_blank_lines in H. destruct s as [|c s]; [discriminate|]. destruct (c =? 10)%N; [|discriminate]. destruct (blanks 0 0 0 s) as [a b]. destruct (2 <=? a); [|discriminate]. injection H as <-. lia. Qed.

Lemma run_inside : forall s l i p, blank_lines s i l -> i < p <= last l i -> has s p 10%N -> exists q, i <= q /\ blank_line s q p.
Proof.
  intros s. induction l as [|j l IH]; intros i p H Hp Hn; [cbn in Hp; lia|]. destruct H as (B & H). rewrite last_cons in Hp.
  destruct (lt_eq_lt_dec p j) as [[X|X]|X].
  - destruct B as (_ & _ & _ & A). destruct (A p) as (c & Hc & <-); [lia|]. pose proof (has_fun _ _ _ _ Hn Hc). discriminate.
  - subst p. exists i. split; [lia|exact B].
  - destruct (IH j p H) as (q & Hq & Hb); [lia|exact Hn|]. destruct B as (B & _). exists q. split; [lia|exact Hb].
Qed.
Lemma run_from_inside : forall s l i p, fullrun s i l -> i <= p <= last l i -> has s p 10%N -> exists l', fullrun s p l' /\ last l' p = last l i.
Proof.
  intros s. induction l as [|j l IH]; intros i p (H & X) Hp Hn.
  - cbn in Hp. assert (p = i) by lia. subst p. exists []. split; [split; [exact I|exact X]|reflexivity].
  - destruct (Nat.eq_dec p i) as [->|Hne]; [exists (j :: l); split; [split; [exact H|exact X]|reflexivity]|].
    destruct H as (B & H). rewrite last_cons in *. destruct (le_lt_dec j p) as [L|L].
    + apply IH; [split; assumption|lia|exact Hn].
    + destruct B as (_ & _ & _ & A). destruct (A p) as (c & Hc & <-); [lia|]. pose proof (has_fun _ _ _ _ Hn Hc). discriminate.
Qed.

Lemma blank_spec : forall s p n, In (p, n) (finditer try_blank_lines 0 0 s) <->
  has s p 10%N /\ (forall j, ~ blank_line s j p) /\ exists l, fullrun s p l /\ 2 <= length l /\ p + n = S (last l p).
Proof.
  intros s p n. split.
  - intros H. destruct (find_sound _ _ _ _ good_blank H) as [L T]. apply blank_try in T as (Hp & l & Hl & H2 & E); [|exact L].
    split; [exact Hp|]. split; [|exists l; auto]. intros j Hb.
    assert (Lj : j < p) by apply Hb. assert (Hj : has s j 10%N) by apply Hb.
    assert (Hl' : fullrun s j (p :: l)). { split; [split; [exact Hb|apply Hl]|]. rewrite last_cons. apply Hl. }
    assert (Tj : try_blank_lines (skipn j s) = Some (S (last l p) - j)).
    { apply blank_try; [lia|]. split; [exact Hj|]. exists (p :: l). split; [exact Hl'|]. rewrite last_cons. cbn [length]. pose proof (run_le _ _ _ (proj1 Hl)). split; lia. }
    pose proof (run_le _ _ _ (proj1 Hl)) as Hle.
    destruct (find_complete _ _ _ _ good_blank Tj) as [Hk|(q' & n' & Hk & Hq)]; [lia| |].
    + pose proof (find_apart _ _ _ _ _ _ good_blank Hk H). lia.
    + pose proof (find_apart _ _ _ _ _ _ good_blank Hk H) as Hap. destruct (find_sound _ _ _ _ good_blank Hk) as [L' T'].
      apply blank_try in T' as (Hq' & l2 & Hl2 & H22 & E2); [|exact L'].
      destruct (run_from_inside s l2 q' j Hl2) as (l3 & Hl3 & E3); [lia|exact Hj|]. rewrite (run_unique _ _ _ _ Hl3 Hl') in E3. rewrite last_cons in E3. lia.
  - intros (Hp & Hm & l & Hl & H2 & E). pose proof (has_lt _ _ _ Hp) as L.
    assert (T : try_blank_lines (skipn p s) = Some n) by (apply blank_try; [exact L|]; split; [exact Hp|]; exists l; auto).
    destruct (find_complete _ _ _ _ good_blank T L) as [H|(q' & n' & H & Hq)]; [exact H|]. exfalso.
    destruct (find_sound _ _ _ _ good_blank H) as [L' T']. apply blank_try in T' as (Hq' & l2 & Hl2 & H22 & E2); [|exact L'].
    destruct (run_inside s l2 q' p (proj1 Hl2)) as (q & _ & Hb); [lia|exact Hp|]. exact (Hm q Hb).
Qed.

(* --- a blank line before the end of a clause --- *)
Definition end_clause_at (s : text) (i : nat) : Prop :=
  exists j k, blank_line s i j /\ j < k /\ all_in s (eq 32%N) (S j) k /\ exists r, skipn k s = tx "</emu-clause>" ++ r.
Lemma starts_with_iff : forall p s, starts_with p s = true <-> exists r, s = p ++ r.
Proof.
  induction p as [|c p IH]; intros s; cbn [starts_with]. { split; [exists s; reflexivity|reflexivity]. }
  destruct s as [|d s]. { split; [discriminate|intros (r & E); discriminate]. }
  rewrite andb_true_iff, N.eqb_eq, IH. split.
  - intros [-> (r & ->)]. exists r. reflexivity.
  - intros (r & E). injection E as -> ->. split; [reflexivity|exists r; reflexivity].
Qed.
Lemma count_space : forall s q, all_in s (eq 32%N) q (q + count_while is_space (skipn q s)) /\ ~ has s (q + count_while is_space (skipn q s)) 32%N.
Proof.
  intros s q. destruct (count_spec is_space (skipn q s)) as (A & _ & B & _). split.
  - apply all_shift. intros k Hk. destruct (A k) as (c & Hc & F); [lia|]. exists c. split; [exact Hc|]. apply N.eqb_eq in F. congruence.
  - intros H. apply has_skipn in H. specialize (B _ H). discriminate.
Qed.
Lemma skipn_has : forall s k c r, skipn k s = c :: r -> has s k c /\ r = skipn (S k) s.
Proof.
  intros s k c r E. split.
  - replace k with (k + 0) by lia. apply has_skipn. rewrite E. reflexivity.
  - replace (S k) with (1 + k) by lia. rewrite <- skipn_skipn, E. reflexivity.
Qed.
Lemma has_skipn_ex : forall s k c, has s k c -> exists r, skipn k s = c :: r.
Proof. intros s k c H. replace k with (k + 0) in H by lia. apply has_skipn in H. destruct (skipn k s) as [|d r]; [discriminate|]. unfold has in H. cbn in H. exists r. congruence. Qed.
Lemma spaces_end : forall s q j c, all_in s (eq 32%N) q j -> has s j c -> c <> 32%N -> q <= j -> q + count_while is_space (skipn q s) = j.
Proof.
  intros s q j c A H N L. rewrite (count_unique is_space (skipn q s) (j - q)).
  - lia.
  - intros k Hk. destruct (A (q + k)) as (d & Hd & <-); [lia|]. exists 32%N. split; [now apply has_skipn|reflexivity].
  - intros d Hd. apply has_skipn in Hd. replace (q + (j - q)) with j in Hd by lia. rewrite (has_fun _ _ _ _ Hd H). now apply N.eqb_neq.
Qed.
Lemma end_clause_try : forall s i, i < length s -> (forall n, try_end_clause (skipn i s) = Some n -> end_clause_at s i /\ exists j k, blank_line s i j /\ j < k /\ all_in s (eq 32%N) (S j) k /\ i + n = k + 13) /\
  (end_clause_at s i -> exists n, try_end_clause (skipn i s) = Some n).
Proof.
  intros s i Hi. destruct (has_skipn_ex s i (nth i s 0%N)) as (r & Es); [unfold has; now apply nth_error_nth'|]. revert Es. generalize (nth i s 0%N). intros c Es.
  rewrite Es. destruct (skipn_has _ _ _ _ Es) as [Hc Er]. unfold try_end_clause. destruct (c =? 10)%N eqn:Ec.
  2:{ apply N.eqb_neq in Ec. split; [discriminate|]. intros (j & k & (_ & H & _) & _). exfalso. apply Ec. exact (has_fun _ _ _ _ Hc H). }
  apply N.eqb_eq in Ec. subst c. rewrite Er. set (a := count_while is_space (skipn (S i) s)). destruct (count_space s (S i)) as [A1 A2]. fold a in A1, A2.
  rewrite skipn_skipn. replace (a + S i) with (S i + a) by lia.
  destruct (skipn (S i + a) s) as [|d s2] eqn:Ed.
  { split; [discriminate|]. intros (j & k & (Hl & _ & Hj & Aj) & _). assert (S i + a = j) by (apply (spaces_end s (S i) j 10%N); [exact Aj|exact Hj|discriminate|lia]).
    destruct (has_skipn_ex _ _ _ Hj) as (r' & E'). rewrite <- H in E'. congruence. }
  destruct (skipn_has _ _ _ _ Ed) as [Hd E2]. destruct (d =? 10)%N eqn:Edn.
  2:{ apply N.eqb_neq in Edn. split; [discriminate|]. intros (j & k & (Hl & _ & Hj & Aj) & _). assert (S i + a = j) as <- by (apply (spaces_end s (S i) j 10%N); [exact Aj|exact Hj|discriminate|lia]).
      exfalso. apply Edn. exact (has_fun _ _ _ _ Hd Hj). }
  apply N.eqb_eq in Edn. subst d. rewrite E2. set (j := S i + a) in *. set (b := count_while is_space (skipn (S j) s)). destruct (count_space s (S j)) as [B1 B2]. fold b in B1, B2.
  rewrite skipn_skipn. replace (b + S j) with (S j + b) by lia.
  assert (Bl : blank_line s i j) by (split; [unfold j; lia|auto]).
  destruct (starts_with (tx "</emu-clause>") (skipn (S j + b) s)) eqn:Est.
  - apply starts_with_iff in Est as (q & Eq). split.
    + intros n E. injection E as <-. split.
      * exists j, (S j + b). split; [exact Bl|]. split; [lia|]. split; [exact B1|]. exists q. exact Eq.
      * exists j, (S j + b). split; [exact Bl|]. split; [lia|]. split; [exact B1|]. unfold j. lia.
    + intros _. eexists. reflexivity.
  - split; [discriminate|]. intros (j' & k & Hb & Lk & Ak & q & Eq). pose proof (blank_line_fun _ _ _ _ Bl Hb) as <-.
    assert (Hk : has s k 60%N). { replace k with (k + 0) by lia. apply has_skipn. rewrite Eq. reflexivity. }
    assert (S j + b = k) as X by (apply (spaces_end s (S j) k 60%N); [exact Ak|exact Hk|discriminate|lia]). rewrite X in Est.
    assert (starts_with (tx "</emu-clause>") (skipn k s) = true) by (apply starts_with_iff; eauto). congruence.
Qed.
Lemma good_end_clause : good_try try_end_clause.
Proof.
  intros s n H. unfold try_end_clause in H. destruct s as [|c s]; [discriminate|]. destruct (c =? 10)%N; [|discriminate]. destruct (skipn _ s) as [|d s2]; [discriminate|].
  destruct (d =? 10)%N; [|discriminate]. destruct (starts_with _ _); [|discriminate]. injection H as <-. lia.
Qed.
Lemma end_clause_chars : forall s k i, (exists r, skipn k s = tx "</emu-clause>" ++ r) -> k <= i < k + 13 -> ~ has s i 10%N.
Proof.
  intros s k i (r & E) Hi H. replace i with (k + (i - k)) in H by lia. apply has_skipn in H. rewrite E in H. unfold has in H. rewrite nth_error_app1 in H by (cbn; lia).
  apply nth_error_In in H. cbn in H. repeat (destruct H as [H|H]; [discriminate|]). exact H.
Qed.
Lemma end_clause_spec : forall s i, (exists n, In (i, n) (finditer try_end_clause 0 0 s)) <-> end_clause_at s i.
Proof.
  intros s i. split.
  - intros (n & H). destruct (find_sound _ _ _ _ good_end_clause H) as [L T]. apply (proj1 (end_clause_try s i L)) in T. apply T.
  - intros H. assert (L : i < length s) by (destruct H as (j & k & (_ & Hi & _) & _); exact (has_lt _ _ _ Hi)).
    destruct (proj2 (end_clause_try s i L) H) as (n & T). destruct (find_complete _ _ _ _ good_end_clause T L) as [Hin|(q & m & Hq & Hlt)]; [eauto|]. exfalso.
    destruct (find_sound _ _ _ _ good_end_clause Hq) as [L' T']. destruct (proj1 (end_clause_try s q L') m T') as ((j0 & k0 & Hb0 & Hk0 & A0 & E0) & j & k & Hb & Hk & A & E).
    pose proof (blank_line_fun _ _ _ _ Hb Hb0) as <-.
    assert (k0 = k).
    { destruct E0 as (r0 & E0). assert (has s k0 60%N) as Hk0' by (replace k0 with (k0 + 0) by lia; apply has_skipn; rewrite E0; reflexivity).
      destruct (lt_eq_lt_dec k0 k) as [[X|X]|X]; [|exact X|].
      - destruct (A k0) as (c & Hc & <-); [lia|]. pose proof (has_fun _ _ _ _ Hk0' Hc). discriminate.
      - exfalso. destruct (end_clause_try s q L') as [P _]. unfold try_end_clause in T'.
        (* both are the first non-space after j *)
        pose proof (spaces_end s (S j) k0 60%N A0 Hk0' ltac:(discriminate) ltac:(lia)) as X1.
        destruct (has_skipn_ex s q 10%N (proj1 (proj2 Hb))) as (r1 & Er1). rewrite Er1 in T'. change ((10 =? 10)%N) with true in T'. cbn iota in T'.
        destruct (skipn_has _ _ _ _ Er1) as [_ ->].
        pose proof (spaces_end s (S q) j 10%N (proj2 (proj2 (proj2 Hb))) (proj1 (proj2 (proj2 Hb))) ltac:(discriminate) ltac:(destruct Hb; lia)) as X2.
        set (a := count_while is_space (skipn (S q) s)) in *. rewrite skipn_skipn in T'. replace (a + S q) with j in T' by lia.
        destruct (has_skipn_ex s j 10%N (proj1 (proj2 (proj2 Hb)))) as (r2 & Er2). rewrite Er2 in T'. change ((10 =? 10)%N) with true in T'. cbn iota in T'.
        destruct (skipn_has _ _ _ _ Er2) as [_ ->].
        set (b := count_while is_space (skipn (S j) s)) in *. destruct (starts_with (tx "</emu-clause>") (skipn b (skipn (S j) s))); [|discriminate].
        injection T' as T'. lia. }
    subst k0. destruct H as (j' & k' & Hb' & _). assert (Hi : has s i 10%N) by apply Hb'.
    destruct (lt_eq_lt_dec i j) as [[X|X]|X].
    + destruct Hb as (_ & _ & _ & Ab). destruct (Ab i) as (c & Hc & <-); [lia|]. pose proof (has_fun _ _ _ _ Hi Hc). discriminate.
    + subst i. (* a blank line after j, but the tag follows *)
      destruct Hb' as (L1 & _ & Hj' & A'). destruct E0 as (r0 & E0). assert (has s k 60%N) as Hk60 by (replace k with (k + 0) by lia; apply has_skipn; rewrite E0; reflexivity).
      destruct (lt_eq_lt_dec j' k) as [[Y|Y]|Y].
      * destruct (A j') as (c & Hc & <-); [lia|]. pose proof (has_fun _ _ _ _ Hj' Hc). discriminate.
      * subst j'. pose proof (has_fun _ _ _ _ Hj' Hk60). discriminate.
      * destruct (A' k) as (c & Hc & <-); [lia|]. pose proof (has_fun _ _ _ _ Hk60 Hc). discriminate.
    + destruct (le_lt_dec k i) as [Y|Y].
      * apply (end_clause_chars s k i E0); [lia|exact Hi].
      * destruct (A i) as (c & Hc & <-); [lia|]. pose proof (has_fun _ _ _ _ Hi Hc). discriminate.
Qed.

(* --- characters --- *)
Definition the_items : list (N * N) := match negated_set char_pattern with Some l => l | None => [] end.
Lemma items_usual : forall c, in_items the_items c = true <-> usual c.
Proof.
  assert (Small : forallb (fun n => Bool.eqb (in_items the_items (N.of_nat n)) ((n =? 10) || ((32 <=? n) && (n <=? 126)))) (seq 0 171) = true) by (vm_compute; reflexivity).
  assert (Big : filter (fun r => (170 <? snd r)%N) the_items = map (fun c => (c, c)) [171; 187; 215; 960; 8212; 8220; 8221; 8230; 8477; 8484; 8594; 8734; 8800; 8804; 8805; 120125]%N) by (vm_compute; reflexivity).
  intros c. destruct (N.ltb_spec c 171) as [L|L].
  - rewrite forallb_forall in Small. specialize (Small (N.to_nat c)). rewrite N2Nat.id in Small. rewrite Bool.eqb_true_iff in Small. rewrite Small by (apply in_seq; lia).
    rewrite orb_true_iff, andb_true_iff, Nat.eqb_eq, !Nat.leb_le. unfold usual. cbn [In]. split; [lia|]. intros [H|[H|H]]; [lia|lia|].
    exfalso. repeat (destruct H as [H|H]; [lia|]). exact H.
  - assert (E : in_items the_items c = in_items (filter (fun r => (170 <? snd r)%N) the_items) c).
    { unfold in_items. generalize the_items. induction l as [|[lo hi] l IH]; [reflexivity|]. cbn [filter existsb fst snd]. destruct (170 <? hi)%N eqn:E; cbn [existsb fst snd]; rewrite IH; [reflexivity|].
      apply N.ltb_ge in E. assert ((c <=? hi)%N = false) as -> by (apply N.leb_gt; lia). now rewrite andb_false_r. }
    rewrite E, Big. unfold in_items, usual. rewrite existsb_exists. split.
    + intros (r & Hr & H). apply in_map_iff in Hr as (d & <- & Hd). cbn [fst snd] in H. apply andb_true_iff in H as [H1 H2]. apply N.leb_le in H1, H2. assert (c = d) by lia. subst d. auto.
    + intros [H|[H|H]]; [lia|lia|]. exists (c, c). split; [apply in_map_iff; eauto|]. cbn [fst snd]. now rewrite N.leb_refl.
Qed.
