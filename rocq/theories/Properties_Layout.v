(* C73: what the checks of whitespace and characters report. *)
From Coq Require Import Ascii String Sorted.
From Verif Require Import M_Base L_Base M_HTML M_Layout L_Layout.
Open Scope list_scope.
Notation length := List.length.

Lemma sorted_splits : forall A (R : A -> A -> Prop) l, (forall l1 a l2 b l3, l = l1 ++ a :: l2 ++ b :: l3 -> R a b) -> StronglySorted R l.
Proof.
  intros A R. induction l as [|x l IH]; intros H; [constructor|]. constructor.
  - apply IH. intros l1 a l2 b l3 ->. apply (H (x :: l1) a l2 b l3). reflexivity.
  - apply Forall_forall. intros y Hy. apply in_split in Hy as (l2 & l3 & ->). apply (H [] x l2 y l3). reflexivity.
Qed.
Lemma sorted_map : forall A B (R : A -> A -> Prop) (Q : B -> B -> Prop) (f : A -> B) l, (forall a b, In a l -> In b l -> R a b -> Q (f a) (f b)) -> StronglySorted R l -> StronglySorted Q (map f l).
Proof.
  intros A B R Q f l H S. induction S as [|x l S IH F]; [constructor|]. cbn [map]. constructor.
  - apply IH. intros a b Ha Hb. apply H; now right.
  - rewrite Forall_forall in F |- *. intros y Hy. apply in_map_iff in Hy as (z & <- & Hz). apply H; [now left|now right|auto].
Qed.
Lemma finditer_sorted : forall try s, good_try try -> StronglySorted (fun a b => fst a < fst b /\ fst a + snd a <= fst b) (finditer try 0 0 s).
Proof. intros try s G. apply sorted_splits. intros l1 a l2 b l3 E. exact (find_increasing try s l1 a l2 b l3 G E). Qed.

Definition nl : string := String (ascii_of_nat 10) EmptyString.
Definition ex_text : text := tx ("one  " ++ nl ++ "two" ++ nl ++ "  " ++ nl ++ nl ++ nl ++ "three" ++ nl ++ nl ++ "  </emu-clause> ").

(* C73.1  Reported is, for every line that ends in spaces or tabs, the position of the first of them; in the order of the text. *)
Theorem C73_trailing : forall s,
  (forall i, In i (check_trailing_whitespace s) <->
     exists j, i < j /\ all_in s (fun c => c = 32%N \/ c = 9%N) i j /\ (j = length s \/ has s j 10%N) /\
       (forall c k, i = S k -> has s k c -> c <> 32%N /\ c <> 9%N)) /\
  StronglySorted lt (check_trailing_whitespace s).
Proof.
  intros s. split.
  - intros i. unfold check_trailing_whitespace. rewrite in_map_iff. split.
    + intros ([q n] & <- & H). apply trailing_spec in H as (A & B & C & D). exists (q + n). cbn [fst]. split; [exact A|]. split; [exact B|]. split; [exact C|].
      intros c k E Hc. specialize (D c k E Hc). unfold space_or_tab in D. tauto.
    + intros (j & A & B & C & D). exists (i, j - i). split; [reflexivity|]. apply trailing_spec. replace (i + (j - i)) with j by lia.
      split; [exact A|]. split; [exact B|]. split; [exact C|]. intros c k E Hc Hs. specialize (D c k E Hc). unfold space_or_tab in Hs. tauto.
  - unfold check_trailing_whitespace. apply (sorted_map _ _ (fun a b => fst a < fst b /\ fst a + snd a <= fst b)); [intros a b _ _ H; lia|]. apply finditer_sorted. exact good_trailing.
Qed.
Print Assumptions C73_trailing.
Example C73_trailing_ex : check_trailing_whitespace ex_text = [3; 10; 37] /\ length ex_text = 38.
Proof. vm_compute. auto. Qed.

(* C73.2  Reported is, for every maximal sequence of two or more blank lines, each of which follows the end of some line, the end of its last line. *)
Theorem C73_blank_lines : forall s,
  (forall q, In q (check_blank_lines s) <->
     exists p l, has s p 10%N /\ 2 <= length l /\ blank_lines s p l /\ last l p = q /\ (forall j, ~ blank_line s j p) /\ (forall j, ~ blank_line s q j)) /\
  StronglySorted lt (check_blank_lines s).
Proof.
  intros s. split.
  - intros q. unfold check_blank_lines. rewrite in_map_iff. split.
    + intros ([p n] & <- & H). apply blank_spec in H as (A & B & l & (C1 & C2) & D & E). exists p, l. cbn [fst snd]. replace (p + n - 1) with (last l p) by lia. auto 8.
    + intros (p & l & A & D & C1 & <- & B & C2). pose proof (run_le _ _ _ C1). exists (p, S (last l p) - p). cbn [fst snd]. split; [lia|]. apply blank_spec.
      split; [exact A|]. split; [exact B|]. exists l. split; [split; assumption|]. split; [exact D|lia].
  - unfold check_blank_lines. apply (sorted_map _ _ (fun a b => fst a < fst b /\ fst a + snd a <= fst b)).
    + intros [a n] [b m] Ha Hb H. cbn [fst snd] in *. destruct (find_sound _ _ _ _ good_blank Ha) as [_ Ta]. destruct (find_sound _ _ _ _ good_blank Hb) as [_ Tb].
      apply good_blank in Ta. apply good_blank in Tb. lia.
    + apply finditer_sorted. exact good_blank.
Qed.
Print Assumptions C73_blank_lines.
Example C73_blank_lines_ex : check_blank_lines ex_text = [14].
Proof. vm_compute. reflexivity. Qed.

(* C73.3  So nothing is reported exactly if no blank line follows a blank line - *)
Theorem C73_blank_lines_none : forall s, check_blank_lines s = [] <-> ~ exists i j k, blank_line s i j /\ blank_line s j k.
Proof.
  intros s. destruct (C73_blank_lines s) as [H _]. split.
  - intros E (i & j & k & B1 & B2). rewrite E in H.
    (* the start of the sequence *)
    assert (Up : forall n i j k, i <= n -> blank_line s i j -> blank_line s j k -> exists i' j', (forall x, ~ blank_line s x i') /\ blank_line s i' j' /\ exists k', blank_line s j' k').
    { assert (Dec : forall p, (exists x, blank_line s x p) \/ (forall x, ~ blank_line s x p)).
      { intros p. assert (D1 : forall x, blank_line s x p \/ ~ blank_line s x p).
        { intros x. unfold blank_line, has, all_in. destruct (lt_dec x p) as [L|L]; [|right; tauto].
          destruct (option_map N.eqb (nth_error s x)) as [f|] eqn:E1. 2:{ right. intros (_ & Q & _). destruct (nth_error s x); discriminate. }
          destruct (nth_error s x) as [c|] eqn:Ex; [|discriminate]. destruct (N.eq_dec c 10) as [->|Nc]; [|right; intros (_ & Q & _); congruence].
          destruct (nth_error s p) as [d|] eqn:Ep; [|right; intros (_ & _ & Q & _); discriminate]. destruct (N.eq_dec d 10) as [->|Nd]; [|right; intros (_ & _ & Q & _); congruence].
          assert (D : (forall k, S x <= k < p -> exists c, nth_error s k = Some c /\ 32%N = c) \/ ~ (forall k, S x <= k < p -> exists c, nth_error s k = Some c /\ 32%N = c)).
          { clear. induction p as [|p IH]; [left; intros; lia|]. destruct IH as [IH|IH]; [|right; intros Q; apply IH; intros k Hk; apply Q; lia].
            destruct (le_lt_dec (S x) p) as [L|L]; [|left; intros; lia]. destruct (nth_error s p) as [c|] eqn:Ec.
            - destruct (N.eq_dec 32 c) as [<-|Nc]; [left|right].
              + intros k Hk. destruct (Nat.eq_dec k p) as [->|]; [eauto|]. apply IH. lia.
              + intros Q. destruct (Q p) as (c' & A & B); [lia|]. congruence.
            - right. intros Q. destruct (Q p) as (c' & A & B); [lia|]. congruence. }
          destruct D as [D|D]; [left; auto|right; tauto]. }
        assert (D2 : forall n, (exists x, x < n /\ blank_line s x p) \/ (forall x, x < n -> ~ blank_line s x p)).
        { induction n as [|n [(x & Hx & Q)|IH]]; [right; intros; lia|left; exists x; split; [lia|exact Q]|]. destruct (D1 n) as [Q|Q]; [left; exists n; split; [lia|exact Q]|right].
          intros x Hx. destruct (Nat.eq_dec x n) as [->|]; [exact Q|apply IH; lia]. }
        destruct (D2 p) as [(x & _ & Q)|Q]; [left; eauto|right]. intros x Hx. apply (Q x); [apply Hx|exact Hx]. }
      induction n as [|n IHn]; intros i0 j0 k0 L C1 C2.
      - exists i0, j0. split; [|split; [exact C1|eauto]]. intros x Hx. destruct Hx. lia.
      - destruct (Dec i0) as [(x & Hx)|Hx]; [|exists i0, j0; split; [exact Hx|split; [exact C1|eauto]]].
        apply (IHn x i0 j0); [destruct Hx; lia|exact Hx|exact C1]. }
    destruct (Up i i j k (Nat.le_refl i) B1 B2) as (i' & j' & M & C1 & k' & C2).
    assert (Hi : has s i' 10%N) by apply C1. assert (Li : i' < length s) by exact (has_lt _ _ _ Hi).
    destruct (blanks_run s (skipn (S i') s) i' (S i') 0 0 eq_refl Hi) as (l & (Hl & Hx) & _); [lia|lia|intros q Hq; lia|].
    assert (2 <= length l).
    { destruct l as [|a l]; [exfalso; exact (Hx _ C1)|]. destruct l as [|b l]; [|cbn; lia]. exfalso. destruct Hl as (Ha & _). cbn in Hx.
      pose proof (blank_line_fun _ _ _ _ C1 Ha) as <-. exact (Hx _ C2). }
    apply (proj2 (H (last l i'))). exists i', l. auto 8.
  - intros N. destruct (check_blank_lines s) as [|q r]; [reflexivity|]. exfalso. destruct (proj1 (H q) (or_introl eq_refl)) as (p & l & A & D & C & _).
    destruct l as [|a [|b l]]; cbn in D; try lia. destruct C as (C1 & C2 & _). apply N. exists p, a, b. auto.
Qed.
Print Assumptions C73_blank_lines_none.
Example C73_blank_lines_none_ex : check_blank_lines (tx ("a" ++ nl ++ " " ++ nl ++ "b" ++ nl ++ nl)) = [].
Proof. vm_compute. reflexivity. Qed.

(* - so two blank lines at the very start of the text are not reported. *)
Theorem C73_start_refuted : exists s, (exists r, s = 10%N :: 10%N :: r /\ r <> []) /\ check_blank_lines s = [].
Proof. exists (tx (nl ++ nl ++ "a")). split; [eexists; split; [reflexivity|discriminate]|vm_compute; reflexivity]. Qed.
Print Assumptions C73_start_refuted.

(* C73.4  Reported is every start of a blank line that follows the end of a line and that is followed by a line that starts,
   after spaces, with the end tag of an emu-clause. *)
Theorem C73_end_clause : forall s,
  (forall q, In q (check_end_clause s) <->
     exists i j k r, q = S i /\ blank_line s i j /\ j < k /\ all_in s (eq 32%N) (S j) k /\ skipn k s = tx "</emu-clause>" ++ r) /\
  StronglySorted lt (check_end_clause s).
Proof.
  intros s. split.
  - intros q. unfold check_end_clause. rewrite in_map_iff. split.
    + intros ([i n] & <- & H). assert (end_clause_at s i) as (j & k & A & B & C & r & D) by (apply end_clause_spec; eauto). exists i, j, k, r. cbn [fst]. split; [lia|auto].
    + intros (i & j & k & r & -> & A & B & C & D). assert (exists n, In (i, n) (finditer try_end_clause 0 0 s)) as (n & H).
      { apply end_clause_spec. exists j, k. eauto 6. }
      exists (i, n). cbn [fst]. split; [lia|exact H].
  - unfold check_end_clause. apply (sorted_map _ _ (fun a b => fst a < fst b /\ fst a + snd a <= fst b)); [intros a b _ _ H; lia|]. apply finditer_sorted. exact good_end_clause.
Qed.
Print Assumptions C73_end_clause.
Example C73_end_clause_ex : check_end_clause ex_text = [21].
Proof. vm_compute. reflexivity. Qed.

(* C73.5  Reported are the characters other than newline, space, the printable characters of ASCII and sixteen others, each with its
   position: although the comments in the pattern are part of its set, they add nothing to it. *)
Theorem C73_characters : forall s, exists l, check_characters s = Ok l /\
  (forall i c, In (i, c) l <-> has s i c /\ ~ usual c) /\ StronglySorted lt (map fst l).
Proof.
  intros s. unfold check_characters. destruct (negated_set char_pattern) as [items|] eqn:E; [|vm_compute in E; discriminate].
  assert (Hi : items = the_items) by (unfold the_items; rewrite E; reflexivity). clear E. eexists. split; [reflexivity|].
  set (try := fun t : text => match t with c :: _ => if in_items items c then None else Some 1 | [] => None end).
  assert (G : good_try try) by (intros [|c t] n H; cbn in H; [discriminate|]; destruct (in_items items c); [discriminate|]; injection H as <-; lia).
  assert (T1 : forall q n, try (skipn q s) = Some n <-> n = 1 /\ exists c, has s q c /\ ~ usual c).
  { intros q n. unfold try. split.
    - destruct (skipn q s) as [|c r] eqn:E; [discriminate|]. destruct (in_items items c) eqn:Ei; [discriminate|]. intros H. injection H as <-. split; [reflexivity|].
      exists c. split; [exact (proj1 (skipn_has _ _ _ _ E))|]. rewrite <- items_usual, <- Hi. congruence.
    - intros (-> & c & Hc & N). destruct (has_skipn_ex _ _ _ Hc) as (r & ->). rewrite <- items_usual, <- Hi in N. destruct (in_items items c); [congruence|reflexivity]. }
  split.
  - intros i c. rewrite in_map_iff. split.
    + intros ([q n] & E & H). cbn [fst] in E. injection E as -> E. destruct (find_sound _ _ _ _ G H) as [L T]. apply T1 in T as (_ & d & Hd & N).
      assert (nth i s 0%N = d) by (apply nth_error_nth; exact Hd). assert (d = c) as <- by congruence. split; [exact Hd|exact N].
    + intros (Hc & N). exists (i, 1). cbn [fst]. split; [f_equal; apply nth_error_nth; exact Hc|].
      assert (T : try (skipn i s) = Some 1) by (apply T1; eauto). destruct (find_complete _ _ _ _ G T (has_lt _ _ _ Hc)) as [H|(q & n & H & Hq)]; [exact H|].
      destruct (find_sound _ _ _ _ G H) as [_ T']. apply T1 in T' as (-> & _). lia.
  - rewrite map_map. cbn [fst]. apply (sorted_map _ _ (fun a b => fst a < fst b /\ fst a + snd a <= fst b)); [intros a b _ _ H; lia|]. apply finditer_sorted. exact G.
Qed.
Print Assumptions C73_characters.
Example C73_characters_ex : check_characters (tx "a" ++ [9; 171; 170; 10; 127; 120125]%N) = Ok [(1, 9%N); (3, 170%N); (5, 127%N)].
Proof. vm_compute. reflexivity. Qed.
