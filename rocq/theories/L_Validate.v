(* Specification of the validation of the document, and lemmas about its model. *)
From Coq Require Import Ascii String Sorting.Sorted.
From Verif Require Import M_Base L_Base M_HTML M_Shared L_Entities M_Layout L_Layout M_Indent M_Defs M_Refs M_Validate.
Open Scope list_scope.
Open Scope nat_scope.
Notation length := List.length.

(* ---------- regular expressions ---------- *)
Inductive lang : re -> text -> Prop :=
| L_eps : lang REps []
| L_char c : lang (RChar c) [c]
| L_cat a b s t : lang a s -> lang b t -> lang (RCat a b) (s ++ t)
| L_altl a b s : lang a s -> lang (RAlt a b) s
| L_altr a b s : lang b s -> lang (RAlt a b) s
| L_star0 a : lang (RStar a) []
| L_starS a s t : lang a s -> lang (RStar a) t -> lang (RStar a) (s ++ t).
Lemma lang_none t : ~ lang RNone t. Proof. intros H. inversion H. Qed.
Lemma lang_eps t : lang REps t <-> t = []. Proof. split; [intros H; now inversion H|intros ->; constructor]. Qed.
Lemma lang_cat a b t : lang (RCat a b) t <-> exists s u, t = s ++ u /\ lang a s /\ lang b u.
Proof. split; [intros H; inversion H; subst; eauto|intros (s & u & -> & A & B); now constructor]. Qed.
Lemma lang_alt a b t : lang (RAlt a b) t <-> lang a t \/ lang b t.
Proof. split; [intros H; inversion H; auto|intros [H|H]; [now apply L_altl|now apply L_altr]]. Qed.
Lemma cat_iff a b t : lang (cat a b) t <-> lang (RCat a b) t.
Proof.
  destruct a; cbn [cat]; try reflexivity.
  - split; [intros H; now apply lang_none in H|]. rewrite lang_cat. intros (s & u & _ & A & _). now apply lang_none in A.
  - rewrite lang_cat. split; [intros H; exists [], t; split; [reflexivity|split; [constructor|assumption]]|]. intros (s & u & -> & A & B). apply lang_eps in A. now subst s.
Qed.
Lemma alt_iff a b t : lang (alt a b) t <-> lang a t \/ lang b t.
Proof.
  rewrite <- lang_alt. destruct a; cbn [alt]; [rewrite lang_alt; split; [tauto|]; intros [H|H]; [now apply lang_none in H|assumption]|..];
    (destruct b; try reflexivity; rewrite (lang_alt _ RNone); (split; [tauto|]); intros [H|H]; [assumption|now apply lang_none in H]).
Qed.
Lemma nullable_iff r : nullable r = true <-> lang r [].
Proof.
  induction r as [| |c|a IHa b IHb|a IHa b IHb|a IHa]; cbn [nullable].
  - split; [discriminate|intros H; now apply lang_none in H].
  - split; [constructor|reflexivity].
  - split; [discriminate|intros H; inversion H].
  - rewrite andb_true_iff, IHa, IHb, lang_cat. split; [intros (A & B); exists [], []; auto|]. intros (s & u & E & A & B). symmetry in E. apply app_eq_nil in E. destruct E as (-> & ->). auto.
  - now rewrite orb_true_iff, IHa, IHb, lang_alt.
  - split; [constructor|reflexivity].
Qed.
Lemma star_cons a c t : lang (RStar a) (c :: t) -> exists s u, t = s ++ u /\ lang a (c :: s) /\ lang (RStar a) u.
Proof.
  intros H. remember (RStar a) as r eqn:R. remember (c :: t) as w eqn:W. revert c t W. induction H as [| | | | |a'|a' s u A _ B IH]; intros c0 w0 W; try discriminate. injection R as ->.
  destruct s as [|d s]; [now apply IH|]. injection W as -> <-. exists s, u. auto.
Qed.
Lemma deriv_iff c r : forall t, lang (deriv c r) t <-> lang r (c :: t).
Proof.
  induction r as [| |d|a IHa b IHb|a IHa b IHb|a IHa]; intros t; cbn [deriv].
  - split; intros H; now apply lang_none in H.
  - split; intros H; [now apply lang_none in H|inversion H].
  - destruct (N.eqb_spec c d) as [->|E].
    + rewrite lang_eps. split; [intros ->; constructor|intros H; now inversion H].
    + split; intros H; [now apply lang_none in H|]. inversion H. congruence.
  - assert (K : lang (cat (deriv c a) b) t <-> exists s u, t = s ++ u /\ lang a (c :: s) /\ lang b u).
    { rewrite cat_iff, lang_cat. split; intros (s & u & E & A & B); exists s, u; (split; [assumption|split; [now apply IHa|assumption]]). }
    assert (K' : lang (RCat a b) (c :: t) <-> (lang a [] /\ lang b (c :: t)) \/ exists s u, t = s ++ u /\ lang a (c :: s) /\ lang b u).
    { rewrite lang_cat. split.
      - intros ([|d s] & u & E & A & B); [left; cbn in E; subst; auto|]. injection E as -> ->. right. exists s, u. auto.
      - intros [(A & B)|(s & u & -> & A & B)]; [exists [], (c :: t); auto|exists (c :: s), u; auto]. }
    rewrite K'. destruct (nullable a) eqn:N.
    + rewrite alt_iff, K, IHb. apply nullable_iff in N. tauto.
    + rewrite K. split; [tauto|]. intros [(A & _)|H]; [apply nullable_iff in A; congruence|assumption].
  - now rewrite alt_iff, IHa, IHb, lang_alt.
  - rewrite cat_iff, lang_cat. split.
    + intros (s & u & -> & A & B). apply IHa in A. change (c :: s ++ u) with ((c :: s) ++ u). now constructor.
    + intros H. apply star_cons in H. destruct H as (s & u & -> & A & B). exists s, u. split; [reflexivity|]. split; [now apply IHa|assumption].
Qed.
Lemma fullmatch_iff : forall t r, fullmatch r t = true <-> lang r t.
Proof. induction t as [|c t IH]; intros r; cbn [fullmatch]; [apply nullable_iff|]. now rewrite IH, deriv_iff. Qed.

(* ---------- dictionaries ---------- *)
(* the value of a key, which is the first in the list *)
Definition maps {A} (d : list (text * A)) (k : text) (v : A) : Prop := exists l1 l2, d = l1 ++ (k, v) :: l2 /\ ~ In k (map fst l1).
Lemma tget_iff {A} k (d : list (text * A)) v : tget_ k d = Some v <-> maps d k v.
Proof.
  unfold tget_, maps. induction d as [|(k', v') d IH]; cbn [find fst].
  - split; [discriminate|]. intros ([|? ?] & l2 & E & _); discriminate.
  - destruct (text_eqb k k') eqn:E.
    + apply text_eqb_eq in E. subst k'. cbn [snd]. split; [intros H; injection H as ->; exists [], d; split; [reflexivity|intros []]|]. intros ([|e l1] & l2 & Q & N); [now injection Q as -> ->|]. injection Q as <- _. exfalso. apply N. now left.
    + assert (NE : k <> k') by (intros ->; now rewrite (proj2 (text_eqb_eq k' k') eq_refl) in E). rewrite IH. split.
      * intros (l1 & l2 & -> & N). exists ((k', v') :: l1), l2. split; [reflexivity|]. intros [Q|Q]; [cbn in Q; congruence|now apply N].
      * intros ([|e l1] & l2 & Q & N); [injection Q as -> _; congruence|]. injection Q as <- Q. exists l1, l2. split; [assumption|]. intros I. apply N. now right.
Qed.
Lemma tget_none {A} k (d : list (text * A)) : tget_ k d = None <-> ~ In k (map fst d).
Proof.
  unfold tget_. induction d as [|(k', v') d IH]; cbn [find fst map In]; [tauto|]. destruct (text_eqb k k') eqn:E.
  - apply text_eqb_eq in E. subst. split; [discriminate|tauto].
  - assert (NE : k <> k') by (intros ->; now rewrite (proj2 (text_eqb_eq k' k') eq_refl) in E). rewrite IH. intuition congruence.
Qed.
Lemma tmem_iff_ k l : tmem_ k l = true <-> In k l.
Proof. unfold tmem_. rewrite existsb_exists. split; [intros (x & I & E); apply text_eqb_eq in E; now subst|]. intros I. exists k. split; [assumption|now apply text_eqb_eq]. Qed.
Lemma maps_in {A} d k (v : A) : maps d k v -> In k (map fst d).
Proof. intros (l1 & l2 & -> & _). rewrite map_app, in_app_iff. right. now left. Qed.
Lemma maps_fun {A} d k (v w : A) : maps d k v -> maps d k w -> v = w.
Proof. rewrite <- !tget_iff. congruence. Qed.

(* a listing in alphabetical order, without repetitions *)
Definition listing (l : list text) (P : text -> Prop) : Prop :=
  StronglySorted (fun a b => text_leb a b = true) l /\ NoDup l /\ forall x, In x l <-> P x.
Lemma sorted_set_ok l : listing (sorted_set l) (fun x => In x l).
Proof.
  unfold sorted_set, listing. split; [apply isort_sorted; [apply text_leb_total|intros x y z; apply text_leb_trans]|]. split.
  - eapply Permutation.Permutation_NoDup; [apply Permutation.Permutation_sym, isort_perm|apply NoDup_nodup].
  - intros x. rewrite <- (nodup_In (list_eq_dec N.eq_dec) l x). split; apply Permutation.Permutation_in; [apply isort_perm|apply Permutation.Permutation_sym, isort_perm].
Qed.

(* ---------- spaces ---------- *)
Lemma has_slice s e t i c : has (slice s e t) i c <-> has t (s + i) c /\ s + i < e.
Proof.
  unfold has. split; [apply slice_nth|]. intros (H & L). unfold slice. rewrite nth_error_firstn_lt by lia. now rewrite nth_error_skipn.
Qed.
(* the longest run of spaces between a and b, of at least two *)
Definition run_of_spaces (t : text) (a b p n : nat) : Prop :=
  2 <= n /\ a <= p /\ p + n <= b /\ all_in t (eq 32%N) p (p + n) /\ (p = a \/ ~ has t (p - 1) 32%N) /\ (p + n = b \/ ~ has t (p + n) 32%N).
Lemma good_spaces : good_try try_spaces.
Proof. intros s n. unfold try_spaces. destruct (2 <=? _) eqn:E; [|discriminate]. apply Nat.leb_le in E. intros H. injection H as <-. lia. Qed.
Lemma try_spaces_iff s n : try_spaces s = Some n <-> 2 <= n /\ all_in s (eq 32%N) 0 n /\ ~ has s n 32%N.
Proof.
  unfold try_spaces. destruct (count_spec is_space s) as (A & _ & B & C).
  assert (SP : forall c, is_space c = true <-> 32%N = c) by (intros c; unfold is_space; rewrite N.eqb_eq; split; congruence). split.
  - destruct (2 <=? _) eqn:E; [|discriminate]. apply Nat.leb_le in E. intros H. injection H as <-. split; [assumption|]. split.
    + intros k K. destruct (A k) as (c & H & F); [lia|]. exists c. split; [assumption|now apply SP].
    + intros H. specialize (B _ H). discriminate.
  - intros (L & R & M). assert (E : count_while is_space s = n).
    { apply count_unique; [intros k K; destruct (R k) as (c & H & F); [lia|]; exists c; split; [assumption|now apply SP]|]. intros c H. destruct (is_space c) eqn:F; [|reflexivity]. apply SP in F. subst c. contradiction. }
    rewrite E. destruct (Nat.leb_spec 2 n); [reflexivity|lia].
Qed.
Lemma all_skipn s f q n : all_in (skipn q s) f 0 n <-> all_in s f q (q + n).
Proof.
  unfold all_in. split.
  - intros H k K. destruct (H (k - q)) as (c & A & F); [lia|]. exists c. split; [|assumption]. apply (proj1 (has_skipn _ _ _ _)) in A. now replace (q + (k - q)) with k in A by lia.
  - intros H k K. destruct (H (q + k)) as (c & A & F); [lia|]. exists c. split; [|assumption]. now apply has_skipn.
Qed.
Lemma all_slice s e t f i j : s + j <= e -> (all_in (slice s e t) f i j <-> all_in t f (s + i) (s + j)).
Proof.
  intros E. unfold all_in. split.
  - intros H k K. destruct (H (k - s)) as (c & A & F); [lia|]. apply (proj1 (has_slice _ _ _ _ _)) in A. destruct A as (A & _). replace (s + (k - s)) with k in A by lia. now exists c.
  - intros H k K. destruct (H (s + k)) as (c & A & F); [lia|]. exists c. split; [|assumption]. apply has_slice. split; [assumption|lia].
Qed.
Lemma find_spaces t s e q n : In (q, n) (finditer try_spaces 0 0 (slice s e t)) <-> run_of_spaces t s e (s + q) n.
Proof.
  set (l := slice s e t). split.
  - intros I. destruct (find_sound _ _ _ _ good_spaces I) as (Q & T). apply try_spaces_iff in T. destruct T as (T1 & T2 & T3). rewrite all_skipn in T2. rewrite has_skipn in T3. unfold l in T3. rewrite has_slice in T3.
    assert (B : s + q + n <= e) by (destruct (T2 (q + n - 1)) as (c & H & _); [lia|]; apply (proj1 (has_slice _ _ _ _ _)) in H; lia).
    split; [assumption|]. split; [lia|]. split; [assumption|]. split; [rewrite <- Nat.add_assoc; apply all_slice in T2; [assumption|lia]|]. split.
    + destruct q as [|q]; [left; lia|]. right. intros H. replace (s + S q - 1) with (s + q) in H by lia.
      assert (H' : has l q 32%N) by (apply has_slice; split; [assumption|lia]).
      (* a match would have begun before *)
      assert (T' : exists m, try_spaces (skipn q l) = Some m).
      { exists (S n). apply try_spaces_iff. split; [lia|]. split; [apply all_skipn; intros k K; destruct (Nat.eq_dec k q) as [->|NE]; [now exists 32%N|apply T2; lia]|]. rewrite has_skipn. replace (q + S n) with (S q + n) by lia. intros X. apply T3. now apply (proj1 (has_slice _ _ _ _ _)) in X. }
      destruct T' as (m & T'). destruct (find_complete _ _ _ _ good_spaces T') as [J|(q' & n' & J & L)]; [apply has_lt in H'; assumption| |].
      * pose proof (find_apart _ _ _ _ _ _ good_spaces J I ltac:(lia)). destruct (find_sound _ _ _ _ good_spaces J) as (_ & TJ). apply try_spaces_iff in TJ. lia.
      * pose proof (find_apart _ _ _ _ _ _ good_spaces J I ltac:(lia)) as AP. destruct (find_sound _ _ _ _ good_spaces J) as (_ & TJ). apply try_spaces_iff in TJ. destruct TJ as (_ & _ & TJ). apply TJ. rewrite has_skipn. replace (q' + n') with (S q) by lia. destruct (T2 (S q)) as (c & X & <-); [lia|assumption].
    + destruct (Nat.eq_dec (s + q + n) e) as [E|E]; [now left|]. right. intros H. apply T3. split; [now rewrite Nat.add_assoc|lia].
  - intros (R1 & R2 & R3 & R4 & R5 & R6). assert (T : try_spaces (skipn q l) = Some n).
    { apply try_spaces_iff. split; [assumption|]. split; [apply all_skipn, all_slice; [lia|]; now rewrite Nat.add_assoc|]. rewrite has_skipn. intros H. apply (proj1 (has_slice _ _ _ _ _)) in H. rewrite Nat.add_assoc in H. destruct R6 as [R6|R6]; [lia|]. now apply R6. }
    assert (Q : q < length l) by (apply (has_lt l q 32%N); destruct (R4 (s + q)) as (c & H & <-); [lia|]; apply has_slice; split; [assumption|lia]).
    destruct (find_complete _ _ _ _ good_spaces T Q) as [J|(q' & n' & J & L)]; [assumption|]. exfalso.
    destruct (find_sound _ _ _ _ good_spaces J) as (_ & TJ). apply try_spaces_iff in TJ. destruct TJ as (_ & TJ & _). apply all_skipn in TJ. destruct R5 as [R5|R5]; [lia|]. apply R5. destruct (TJ (q - 1)) as (c & H & <-); [lia|]. apply (proj1 (has_slice _ _ _ _ _)) in H. now replace (s + (q - 1)) with (s + q - 1) in H by lia.
Qed.

(* ---------- entities and characters ---------- *)
Section Pieces.
  Variable uniword : N -> bool.
  Definition word (c : N) : Prop := (48 <= c <= 57 \/ 65 <= c <= 90 \/ 97 <= c <= 122 \/ c = 95)%N \/ ((128 <= c)%N /\ uniword c = true).
  Lemma word_iff c : wordc uniword c = true <-> word c.
  Proof. unfold wordc, digit, upper, lowerc, word. rewrite !orb_true_iff, !andb_true_iff, !N.leb_le, N.eqb_eq. tauto. Qed.
  (* n characters at p: an ampersand, perhaps a number sign, word characters, a semicolon *)
  Definition is_entity (t : text) (p n : nat) : Prop :=
    has t p 38%N /\ has t (p + n - 1) 59%N /\ exists q, (q = p + 1 \/ q = p + 2 /\ has t (p + 1) 35%N) /\ q < p + n - 1 /\ all_in t word q (p + n - 1).
  Lemma word_not c : word c -> c <> 38%N /\ c <> 59%N /\ c <> 35%N. Proof. unfold word. lia. Qed.
  (* what is in an entity after its first character *)
  Lemma inside t p n i : is_entity t p n -> p < i < p + n -> ~ has t i 38%N.
  Proof.
    intros (_ & B & q & Q & L & W) I H. destruct (Nat.eq_dec i (p + n - 1)) as [->|NE]; [pose proof (has_fun _ _ _ _ B H); discriminate|].
    destruct (le_lt_dec q i) as [G|G].
    - destruct (W i) as (c & C & F); [lia|]. pose proof (has_fun _ _ _ _ C H). subst c. now apply word_not in F.
    - destruct Q as [->|(-> & Q)]; [lia|]. assert (i = p + 1) by lia. subst i. pose proof (has_fun _ _ _ _ Q H). discriminate.
  Qed.
  Lemma entity_3 t p n : is_entity t p n -> 3 <= n. Proof. intros (_ & _ & q & Q & L & _). lia. Qed.
  Lemma entity_skip t p q n : is_entity (skipn q t) p n <-> is_entity t (q + p) n.
  Proof.
    assert (E : 3 <= n -> q + p + n - 1 = q + (p + n - 1)) by lia. split.
    - intros H. pose proof (entity_3 _ _ _ H) as N. destruct H as (A & B & r & R & L & W). apply has_skipn in A, B. split; [assumption|]. rewrite E by assumption. split; [assumption|]. exists (q + r). split; [destruct R as [->|(-> & R)]; [left; lia|right; split; [lia|apply (proj1 (has_skipn _ _ _ _)) in R; replace (q + p + 1) with (q + (p + 1)) by lia; exact R]]|]. split; [lia|]. intros k K. destruct (W (k - q)) as (c & C & F); [lia|]. apply (proj1 (has_skipn _ _ _ _)) in C. replace (q + (k - q)) with k in C by lia. now exists c.
    - intros H. pose proof (entity_3 _ _ _ H) as N. destruct H as (A & B & r & R & L & W). rewrite E in B by assumption. split; [now apply has_skipn|]. split; [now apply has_skipn|]. exists (r - q). split; [destruct R as [->|(-> & R)]; [left; lia|right; split; [lia|apply has_skipn; now rewrite Nat.add_assoc]]|]. split; [lia|]. intros k K. destruct (W (q + k)) as (c & C & F); [lia|]. exists c. split; [now apply has_skipn|assumption].
  Qed.
  Lemma entity_iff s n : entity_length uniword s = Some n <-> is_entity s 0 n.
  Proof.
    split.
    - intros H. destruct s as [|c s]; [discriminate|]. cbn [entity_length] in H. destruct (N.eqb_spec c 38) as [->|]; [|discriminate].
      set (k := match s with d :: _ => if (d =? 35)%N then 1 else 0 | [] => 0 end) in H. set (m := count_while (wordc uniword) (skipn k s)) in H.
      destruct (count_spec (wordc uniword) (skipn k s)) as (A & _ & B & L). fold m in A, B, L. destruct m as [|m']; [discriminate|].
      destruct (skipn (k + S m') s) as [|d r] eqn:E; [discriminate|]. destruct (N.eqb_spec d 59) as [->|]; [|discriminate]. injection H as <-.
      split; [reflexivity|]. assert (H59 : has s (k + S m') 59%N) by (rewrite <- (Nat.add_0_r (k + S m')); apply has_skipn; rewrite E; reflexivity).
      replace (0 + S (k + S m' + 1) - 1) with (S (k + S m')) by lia. split; [exact H59|]. exists (S k). split.
      + unfold k. destruct s as [|x s]; [now left|]. destruct (N.eqb_spec x 35) as [->|NE]; [right; split; reflexivity|now left].
      + split; [lia|]. intros i I. destruct (A (i - S k)) as (c & C & F); [lia|]. exists c. split; [|now apply word_iff]. apply (proj1 (has_skipn _ _ _ _)) in C. replace i with (S (k + (i - S k))) by lia. exact C.
    - intros H. pose proof (entity_3 _ _ _ H) as N3. destruct H as (A & B & q & Q & L & W). destruct s as [|c s]; [discriminate|]. injection A as ->. cbn [entity_length]. rewrite N.eqb_refl.
      assert (K : match s with d :: _ => if (d =? 35)%N then 1 else 0 | [] => 0 end = q - 1).
      { destruct Q as [->|(-> & Q)].
        - destruct (W 1) as (x & X & F); [lia|]. destruct s as [|y s]; [discriminate|]. injection X as ->. apply word_not in F. destruct (N.eqb_spec x 35); [tauto|reflexivity].
        - destruct s as [|y s]; [discriminate|]. injection Q as ->. reflexivity. }
      rewrite K. assert (Q1 : 1 <= q) by (destruct Q as [->|(-> & _)]; lia).
      assert (B' : has s (n - 2) 59%N) by (replace (0 + n - 1) with (S (n - 2)) in B by lia; exact B).
      assert (C : count_while (wordc uniword) (skipn (q - 1) s) = n - 1 - q).
      { apply count_unique.
        - intros k Hk. destruct (W (q + k)) as (x & X & F); [lia|]. exists x. split; [|now apply word_iff]. apply has_skipn. replace (q + k) with (S (q - 1 + k)) in X by lia. exact X.
        - intros x X. apply (proj1 (has_skipn _ _ _ _)) in X. replace (q - 1 + (n - 1 - q)) with (n - 2) in X by lia. pose proof (has_fun _ _ _ _ X B'). subst x. destruct (wordc uniword 59) eqn:F; [|reflexivity]. apply word_iff, word_not in F. tauto. }
      rewrite C. replace (n - 1 - q) with (S (n - 2 - q)) by lia. replace (q - 1 + S (n - 2 - q)) with (n - 2) by lia.
      destruct (skipn (n - 2) s) as [|d r] eqn:E; [apply has_lt in B'; apply (f_equal (@List.length N)) in E; rewrite skipn_length in E; cbn in E; lia|].
      assert (D : d = 59%N) by (pose proof (proj2 (has_skipn s (n - 2) 0 59%N) ltac:(now rewrite Nat.add_0_r)) as X; rewrite E in X; now injection X).
      subst d. rewrite N.eqb_refl. f_equal. lia.
  Qed.
  Lemma good_piece : good_try (try_piece uniword).
  Proof.
    intros s n. unfold try_piece. destruct (entity_length uniword s) as [m|] eqn:E; [apply entity_iff, entity_3 in E; intros H; injection H as <-; lia|]. destruct s as [|c s]; [discriminate|]. destruct (c =? 10)%N; [discriminate|]. intros H. injection H as <-. lia.
  Qed.
  Lemma find_pieces t s e q n : In (q, n) (finditer (try_piece uniword) 0 0 (slice s e t)) <->
    (is_entity t (s + q) n /\ s + q + n <= e) \/
    (n = 1 /\ (exists c, has t (s + q) c /\ c <> 10%N) /\ s + q < e /\ ~ exists p m, is_entity t p m /\ s <= p /\ p + m <= e /\ p <= s + q < p + m).
  Proof.
    set (l := slice s e t).
    assert (EL : forall p m, is_entity l p m <-> is_entity t (s + p) m /\ s + p + m <= e).
    { intros p m. split.
      - intros H. pose proof (entity_3 _ _ _ H) as N3. destruct H as (A & B & r & R & L & W). apply has_slice in A, B. destruct A as (A & A'), B as (B & B'). split; [|lia]. split; [assumption|]. replace (s + p + m - 1) with (s + (p + m - 1)) by lia. split; [assumption|]. exists (s + r). split; [destruct R as [->|(-> & R)]; [left; lia|right; split; [lia|apply (proj1 (has_slice _ _ _ _ _)) in R; rewrite <- Nat.add_assoc; tauto]]|]. split; [lia|]. apply all_slice in W; [assumption|lia].
      - intros (H & LE). pose proof (entity_3 _ _ _ H) as N3. destruct H as (A & B & r & R & L & W). split; [apply has_slice; split; [assumption|lia]|]. split; [apply has_slice; replace (s + (p + m - 1)) with (s + p + m - 1) by lia; split; [assumption|lia]|]. exists (r - s). split; [destruct R as [->|(-> & R)]; [left; lia|right; split; [lia|apply has_slice; rewrite Nat.add_assoc; split; [assumption|lia]]]|]. split; [lia|]. apply all_slice; [lia|]. replace (s + (r - s)) with r by lia. now replace (s + (p + m - 1)) with (s + p + m - 1) by lia. }
    assert (TE : forall p m, is_entity l p m -> try_piece uniword (skipn p l) = Some m).
    { intros p m H. unfold try_piece. replace (entity_length uniword (skipn p l)) with (Some m); [reflexivity|]. symmetry. apply entity_iff, entity_skip. now rewrite Nat.add_0_r. }
    assert (LG : forall p m, In (p, m) (finditer (try_piece uniword) 0 0 l) -> 2 <= m -> is_entity l p m).
    { intros p m I M. destruct (find_sound _ _ _ _ good_piece I) as (_ & T). unfold try_piece in T. destruct (entity_length uniword (skipn p l)) as [m'|] eqn:E; [injection T as ->; apply entity_iff, entity_skip in E; now rewrite Nat.add_0_r in E|]. destruct (skipn p l) as [|c r]; [discriminate|]. destruct (c =? 10)%N; [discriminate|]. injection T as <-. lia. }
    assert (EI : forall p m, is_entity l p m -> In (p, m) (finditer (try_piece uniword) 0 0 l)).
    { intros p m H. pose proof H as (A & _). destruct (find_complete _ _ _ _ good_piece (TE _ _ H)) as [J|(q' & n' & J & L)]; [now apply has_lt in A|assumption|]. exfalso. apply LG in J; [|lia]. now apply (inside _ _ _ _ J) in A. }
    split.
    - intros I. destruct (le_lt_dec 2 n) as [G|G]; [left; apply EL; now apply LG|]. right. destruct (find_sound _ _ _ _ good_piece I) as (Q & T). pose proof (good_piece _ _ T) as G'. assert (n = 1) by lia. subst n. split; [reflexivity|].
      unfold try_piece in T. destruct (entity_length uniword (skipn q l)) as [m'|] eqn:E; [injection T as ->; apply entity_iff, entity_3 in E; lia|]. destruct (skipn q l) as [|c r] eqn:S; [discriminate|]. destruct (N.eqb_spec c 10) as [->|NE]; [discriminate|].
      assert (H : has l q c) by (rewrite <- (Nat.add_0_r q); apply has_skipn; rewrite S; reflexivity). apply (proj1 (has_slice _ _ _ _ _)) in H. destruct H as (H & L). split; [now exists c|]. split; [assumption|]. intros (p & m & P & P1 & P2 & P3).
      assert (P' : is_entity l (p - s) m) by (apply EL; replace (s + (p - s)) with p by lia; now split). pose proof (entity_3 _ _ _ P'). apply EI in P'.
      destruct (Nat.eq_dec (p - s) q) as [D|D]; [|pose proof (find_apart _ _ _ _ _ _ good_piece P' I ltac:(lia)); lia].
      apply find_sound in P'; [|apply good_piece]. destruct P' as (_ & P'). rewrite D, S in P'. unfold try_piece in P'. rewrite E in P'. destruct (N.eqb_spec c 10); [contradiction|]. injection P' as <-. lia.
    - intros [(H & L)|(-> & (c & H & NE) & L & NO)]; [apply EI, EL; now split|].
      assert (Hl : has l q c) by (apply has_slice; now split).
      assert (T : try_piece uniword (skipn q l) = Some 1).
      { unfold try_piece. destruct (entity_length uniword (skipn q l)) as [m|] eqn:E.
        - exfalso. apply entity_iff, entity_skip in E. rewrite Nat.add_0_r in E. pose proof (entity_3 _ _ _ E). apply EL in E. apply NO. exists (s + q), m. split; [tauto|lia].
        - destruct (skipn q l) as [|d r] eqn:S; [apply has_lt in Hl; apply (f_equal (@List.length N)) in S; rewrite skipn_length in S; cbn in S; lia|]. assert (D : d = c) by (pose proof (proj2 (has_skipn l q 0 c) ltac:(now rewrite Nat.add_0_r)) as X; rewrite S in X; now injection X). subst d. destruct (N.eqb_spec c 10); [contradiction|reflexivity]. }
      destruct (find_complete _ _ _ _ good_piece T) as [J|(q' & n' & J & L')]; [now apply has_lt in Hl|assumption|]. exfalso. apply LG in J; [|lia]. apply EL in J. apply NO. exists (s + q'), n'. split; [tauto|]. lia.
  Qed.
End Pieces.
