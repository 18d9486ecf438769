(* Specification of the layout of elements, and lemmas: lines of a text, and the check of a tree. *)
From Coq Require Import Ascii String Sorted.
From Verif Require Import M_Base L_Base M_HTML M_Layout L_Layout Properties_Layout M_Indent L_Indent.
Open Scope list_scope.
Notation length := List.length.

(* ---------- specification ---------- *)
Definition white (c : N) : Prop :=
  ((9 <= c <= 13) \/ (28 <= c <= 32) \/ c = 133 \/ c = 160 \/ c = 5760 \/ (8192 <= c <= 8202) \/ c = 8232 \/ c = 8233 \/ c = 8239 \/ c = 8287 \/ c = 12288)%N.
(* between a and b, at x, after ind spaces, is the first character of a line that is not blank *)
Definition line_at (s : text) (a b ind x : nat) : Prop :=
  exists i c, a <= i /\ has s i 10%N /\ x = i + 1 + ind /\ all_in s (eq 32%N) (i + 1) x /\ has s x c /\ ~ white c /\ x < b.
(* ls is the start of the line of p *)
Definition starts_line (s : text) (ls p : nat) : Prop :=
  ls <= p /\ (ls = 0 \/ has s (ls - 1) 10%N) /\ (forall i, ls <= i < p -> ~ has s i 10%N).
(* what is at p is the first thing on its line, after e characters of whitespace *)
Definition placed (s : text) (p e : nat) : Prop := exists ls, starts_line s ls p /\ p = ls + e /\ all_in s white ls p.
Definition one_line (s : text) (p q : nat) : Prop := forall i, p <= i < q -> ~ has s i 10%N.
(* the lines of the content from a to b form an outline of indentation e *)
Definition content (s : text) (a b e : nat) : Prop :=
  exists l, outline e (map fst l) /\ StronglySorted lt (map snd l) /\ forall ind x, In (ind, x) l <-> line_at s a b ind x.
(* after the line of p, a line starts with at least n characters of whitespace (or the text ends before) *)
Definition deeper (s : text) (p n : nat) : Prop :=
  exists i, p <= i /\ one_line s p i /\ has s i 10%N /\ i + 1 < length s /\ all_in s white (i + 1) (Nat.min (i + 1 + n) (length s)).

Definition the_code (n : elem) : option elem :=
  match n with Elem _ _ _ _ _ _ _ _ [c] => if list_eq_dec N.eq_dec (ename n) (tx "pre") then if list_eq_dec N.eq_dec (ename c) (tx "code") then Some c else None else None | _ => None end.
Definition has_block (n : elem) := let '(Elem _ _ _ _ _ b _ _ _) := n in b.
Definition has_br (n : elem) := let '(Elem _ _ _ _ _ _ b _ _) := n in b.
Definition inline (n : elem) : Prop := In (ename n) [tx "emu-grammar"; tx "emu-alg"; tx "emu-eqn"] \/ has_block n = false.
(* the end tag need not be at the beginning of a line *)
Definition open_ended (s : text) (n : elem) : Prop := ename n = tx "p" /\ has_br n = true /\ ~ (isp n < iep n /\ has s (isp n) 10%N).
(* the indentation of the children of n *)
Definition inner (s : text) (n : elem) (e c : nat) : Prop :=
  (In (ename n) [tx "html"; tx "head"; tx "body"] /\ c = e) \/
  (In (ename n) [tx "thead"; tx "tbody"] /\ (deeper s (sp n) (e + 2) /\ c = e + 2 \/ ~ deeper s (sp n) (e + 2) /\ c = e)) \/
  (~ In (ename n) [tx "html"; tx "head"; tx "body"; tx "thead"; tx "tbody"] /\ c = e + 2).

Inductive laid (s : text) : nat -> elem -> Prop :=
| LLit e n : ename n = tx "#LITERAL" -> laid s e n
| LOne e n : ename n <> tx "#LITERAL" -> placed s (sp n) e -> one_line s (sp n) (ep n) -> laid s e n
| LComment e n : ename n = tx "#COMMENT" -> placed s (sp n) e -> ~ one_line s (sp n) (ep n) -> content s (sp n + 4) (ep n - 3) (e + 2) -> laid s e n
| LPre e n c : the_code n = Some c -> placed s (sp n) e -> ~ one_line s (sp n) (ep n) -> cls c = Some (tx "javascript") ->
    content s (isp c) (iep c) (e + 2) -> placed s (iep c) e -> laid s e n
| LText e n : ename n <> tx "#LITERAL" -> ename n <> tx "#COMMENT" -> the_code n = None -> inline n -> placed s (sp n) e -> ~ one_line s (sp n) (ep n) ->
    content s (isp n) (iep n) (e + 2) -> (open_ended s n \/ placed s (iep n) e) -> laid s e n
| LBlock e n c : ename n <> tx "#LITERAL" -> ename n <> tx "#COMMENT" -> the_code n = None -> ~ inline n -> placed s (sp n) e -> ~ one_line s (sp n) (ep n) ->
    inner s n e c -> Forall (laid s c) (kids n) -> (open_ended s n \/ placed s (iep n) e) -> laid s e n.

(* positions as the parser of the document gives them: an end tag is on one line *)
Inductive wf (s : text) : elem -> Prop :=
| Wf n : sp n <= ep n -> ep n <= length s -> isp n <= iep n -> iep n <= ep n ->
    (ename n <> tx "#LITERAL" -> ename n <> tx "#COMMENT" -> one_line s (iep n) (ep n)) ->
    (ename n = tx "#COMMENT" -> sp n + 7 <= ep n) ->
    (forall c, the_code n = Some c -> isp c <= iep c /\ iep c <= ep n /\ one_line s (iep c) (ep n)) -> Forall (wf s) (kids n) -> wf s n.

(* ---------- lemmas: lines ---------- *)
Lemma white_iff : forall c, py_space c = true <-> white c.
Proof.
  intros c. unfold py_space, white. cbn [existsb fst snd]. rewrite !orb_true_iff, !andb_true_iff, !N.leb_le. split; intros H; [|].
  - repeat (destruct H as [H|H]; [lia|]). discriminate.
  - repeat (destruct H as [H|H]; [lia|]). lia.
Qed.
Lemma white_false : forall c, py_space c = false <-> ~ white c.
Proof. intros c. rewrite <- white_iff. destruct (py_space c); split; congruence. Qed.
Lemma has_slice : forall s a b k c, has (slice a b s) k c <-> has s (a + k) c /\ a + k < b.
Proof.
  intros s a b k c. unfold slice, has. destruct (lt_dec k (b - a)) as [L|L].
  - assert (E : nth_error (firstn (b - a) (skipn a s)) k = nth_error (skipn a s) k).
    { clear - L. revert k L. generalize (b - a), (skipn a s). induction n as [|n IH]; intros t k L; [lia|]. destruct t as [|d t]; [reflexivity|]. destruct k; [reflexivity|]. cbn. apply IH. lia. }
    rewrite E. fold (has (skipn a s) k c). rewrite has_skipn. split; [intros H; split; [exact H|lia]|tauto].
  - split; [|intros [_ H]; lia]. intros H. exfalso. assert (k < length (firstn (b - a) (skipn a s))) by (apply nth_error_Some; congruence). rewrite firstn_length in H0. lia.
Qed.
Lemma try_line_spec : forall t q n, try_line (skipn q t) = Some n <->
  exists k c, n = k + 2 /\ has t q 10%N /\ all_in t (eq 32%N) (S q) (S q + k) /\ has t (S q + k) c /\ ~ white c.
Proof.
  intros t q n. unfold try_line. split.
  - destruct (skipn q t) as [|c s1] eqn:E; [discriminate|]. destruct (c =? 10)%N eqn:E1; [|discriminate]. apply N.eqb_eq in E1. subst c. apply skipn_has in E as [A ->].
    pose proof (count_space t (S q)) as [B C]. set (k := count_while is_space (skipn (S q) t)) in *. rewrite skipn_skipn.
    destruct (skipn (k + S q) t) as [|d r] eqn:E2; [discriminate|]. destruct (py_space d) eqn:E3; [discriminate|]. intros H. injection H as <-.
    apply skipn_has in E2 as [F _]. exists k, d. split; [reflexivity|]. split; [exact A|]. split; [exact B|]. replace (S q + k) with (k + S q) by lia. split; [exact F|now apply white_false].
  - intros (k & c & -> & A & B & C & D). destruct (has_skipn_ex _ _ _ A) as (r & E). rewrite E, N.eqb_refl. apply skipn_has in E as [_ ->].
    assert (Ec : S q + count_while is_space (skipn (S q) t) = S q + k).
    { apply (spaces_end t (S q) (S q + k) c B C); [|lia]. intros ->. apply D. unfold white. lia. }
    assert (Ek : count_while is_space (skipn (S q) t) = k) by lia. rewrite Ek, skipn_skipn. replace (k + S q) with (S q + k) by lia. destruct (has_skipn_ex _ _ _ C) as (r & E2). rewrite E2.
    rewrite (proj2 (white_false c) D). reflexivity.
Qed.
Lemma good_line : good_try try_line.
Proof. intros s n H. replace s with (skipn 0 s) in H by reflexivity. apply try_line_spec in H as (k & c & -> & _). lia. Qed.
Lemma lines_spec : forall s a b ind x, In (ind, x) (lines_between s a b) <-> line_at s a b ind x.
Proof.
  intros s a b ind x. unfold lines_between. rewrite in_map_iff. set (t := slice a b s). split.
  - intros ([q n] & E & H). cbn [fst snd] in E. injection E as E1 E2. apply (find_sound _ _ _ _ good_line) in H as [_ H]. apply try_line_spec in H as (k & c & -> & A & B & C & D).
    assert (ind = k) by lia. subst k. apply has_slice in A as [A _]. apply has_slice in C as [C L]. exists (a + q), c. split; [lia|]. split; [exact A|]. split; [lia|]. split.
    + intros j Hj. destruct (B (j - a)) as (d & Hd & <-); [lia|]. apply has_slice in Hd as [Hd _]. replace (a + (j - a)) with j in Hd by lia. exists 32%N. auto.
    + replace (a + (S q + ind)) with x in * by lia. auto.
  - intros (i & c & Ha & Hi & -> & Hs & Hc & Hw & Hb). exists (i - a, ind + 2). cbn [fst snd]. split; [f_equal; lia|].
    assert (T : try_line (skipn (i - a) t) = Some (ind + 2)).
    { apply try_line_spec. exists ind, c. split; [reflexivity|]. split; [apply has_slice; replace (a + (i - a)) with i by lia; split; [exact Hi|lia]|]. split.
      - intros j Hj. exists 32%N. split; [|reflexivity]. apply has_slice. destruct (Hs (a + j)) as (d & Hd & <-); [lia|]. split; [exact Hd|lia].
      - split; [|exact Hw]. apply has_slice. replace (a + (S (i - a) + ind)) with (i + 1 + ind) by lia. split; assumption. }
    assert (Hn : has t (i - a) 10%N). { apply try_line_spec in T as (k & d & _ & T & _). exact T. }
    destruct (find_complete _ t (i - a) (ind + 2) good_line T (has_lt _ _ _ Hn)) as [H|(q' & n' & H & L)]; [exact H|exfalso].
    apply (find_sound _ _ _ _ good_line) in H as [_ H]. apply try_line_spec in H as (k & d & -> & A & B & C & D).
    destruct (Nat.eq_dec (i - a) (S q' + k)) as [E|N].
    + rewrite E in Hn. pose proof (has_fun _ _ _ _ C Hn) as ->. apply D. unfold white. lia.
    + destruct (B (i - a)) as (y & Hy & <-); [lia|]. pose proof (has_fun _ _ _ _ Hy Hn). discriminate.
Qed.
Lemma lines_sorted : forall s a b, StronglySorted lt (map snd (lines_between s a b)).
Proof.
  intros s a b. unfold lines_between. rewrite map_map. cbn [snd]. apply (sorted_map _ _ (fun a b => fst a < fst b /\ fst a + snd a <= fst b)); [|apply finditer_sorted; exact good_line].
  intros [q n] [q' n'] H H' L. cbn [fst snd] in *. apply (find_sound _ _ _ _ good_line) in H' as [_ H']. apply try_line_spec in H' as (k & _ & -> & _). lia.
Qed.
Lemma sorted_same : forall l l' : list nat, StronglySorted lt l -> StronglySorted lt l' -> (forall x, In x l <-> In x l') -> l = l'.
Proof.
  induction l as [|a l IH]; intros [|b l'] S1 S2 H; [reflexivity|destruct (proj2 (H b) (or_introl eq_refl))|destruct (proj1 (H a) (or_introl eq_refl))|].
  apply StronglySorted_inv in S1 as [S1 F1]. apply StronglySorted_inv in S2 as [S2 F2]. rewrite Forall_forall in F1, F2.
  assert (a = b). { destruct (proj1 (H a) (or_introl eq_refl)) as [E|E]; [auto|]. destruct (proj2 (H b) (or_introl eq_refl)) as [E'|E']; [auto|]. specialize (F1 _ E'). specialize (F2 _ E). lia. }
  subst b. f_equal. apply IH; [exact S1|exact S2|]. intros x. split; intros Hx.
  - destruct (proj1 (H x) (or_intror Hx)) as [E|E]; [|exact E]. subst. specialize (F1 _ Hx). lia.
  - destruct (proj2 (H x) (or_intror Hx)) as [E|E]; [|exact E]. subst. specialize (F2 _ Hx). lia.
Qed.
Lemma pairs_same : forall l l' : list (nat * nat), StronglySorted lt (map snd l) -> StronglySorted lt (map snd l') -> (forall i x, In (i, x) l <-> In (i, x) l') -> l = l'.
Proof.
  intros l l' S1 S2 H. assert (E : map snd l = map snd l').
  { apply sorted_same; [exact S1|exact S2|]. intros x. rewrite !in_map_iff. split; intros ([i y] & E & Hy); exists (i, y); (split; [exact E|now apply H]). }
  revert l' S2 E H. induction l as [|[i x] l IH]; intros [|[j y] l'] S2 E H; try discriminate; [reflexivity|]. cbn [map snd] in *. injection E as <- E.
  apply StronglySorted_inv in S1 as [S1 F1]. apply StronglySorted_inv in S2 as [S2 F2]. rewrite Forall_forall in F1, F2.
  assert (i = j). { destruct (proj1 (H i x) (or_introl eq_refl)) as [Q|Q]; [congruence|]. apply (in_map snd) in Q. specialize (F2 _ Q). cbn in F2. lia. }
  subst j. f_equal. apply IH; [exact S1|exact S2|exact E|]. intros k z. split; intros Hz.
  - destruct (proj1 (H k z) (or_intror Hz)) as [Q|Q]; [|exact Q]. injection Q as <- <-. apply (in_map snd) in Hz. specialize (F1 _ Hz). cbn in F1. lia.
  - destruct (proj2 (H k z) (or_intror Hz)) as [Q|Q]; [|exact Q]. injection Q as <- <-. apply (in_map snd) in Hz. specialize (F2 _ Hz). cbn in F2. lia.
Qed.
Lemma content_iff : forall s a b e, content s a b e <-> outline e (map fst (lines_between s a b)).
Proof.
  intros s a b e. split.
  - intros (l & O & St & H). rewrite <- (pairs_same l (lines_between s a b) St (lines_sorted s a b)); [exact O|]. intros i x. rewrite lines_spec. apply H.
  - intros O. exists (lines_between s a b). split; [exact O|]. split; [apply lines_sorted|]. intros. apply lines_spec.
Qed.
Lemma slice_all : forall A (l : list A), slice 0 (length l) l = l.
Proof. intros. unfold slice. rewrite Nat.sub_0_r. cbn [skipn]. apply firstn_all. Qed.
Lemma inline_eq : forall s c n e, check_inline s c n e = (lchk (if c then lines_between s (sp n + 4) (ep n - 3) else lines_between s (isp n) (iep n)) e, Ok tt).
Proof. intros s c n e. unfold check_inline. rewrite check_lines_list; [|lia|lia|lia]. rewrite slice_all. reflexivity. Qed.

(* --- the start of a line --- *)
Lemma line_start_spec : forall s p, starts_line s (line_start s p) p.
Proof.
  intros s. induction p as [|p IH]; cbn [line_start]; [split; [lia|]; split; [now left|intros; lia]|].
  assert (K : nth_error s p <> Some 10%N -> starts_line s (line_start s p) (S p)).
  { intros N. destruct IH as (A & B & C). split; [lia|]. split; [exact B|]. intros i Hi. destruct (Nat.eq_dec i p) as [->|]; [exact N|apply C; lia]. }
  destruct (nth_error s p) as [c|] eqn:E; [|apply K; discriminate]. destruct (c =? 10)%N eqn:Ec.
  - apply N.eqb_eq in Ec. subst c. split; [lia|]. split; [right; replace (S p - 1) with p by lia; exact E|]. intros; lia.
  - apply K. apply N.eqb_neq in Ec. congruence.
Qed.
Lemma starts_line_fun : forall s p a b, starts_line s a p -> starts_line s b p -> a = b.
Proof.
  intros s p a b (A1 & A2 & A3) (B1 & B2 & B3). destruct (lt_eq_lt_dec a b) as [[L|E]|L]; [|exact E|].
  - destruct B2 as [B2|B2]; [lia|]. destruct (A3 (b - 1)); [lia|exact B2].
  - destruct A2 as [A2|A2]; [lia|]. destruct (B3 (a - 1)); [lia|exact A2].
Qed.
Lemma same_line : forall s p q, p <= q -> ((line_start s p =? line_start s q) = true <-> one_line s p q).
Proof.
  intros s p q L. rewrite Nat.eqb_eq. pose proof (line_start_spec s p) as Sp. pose proof (line_start_spec s q) as Sq. split.
  - intros E i Hi. apply Sq. destruct Sp as (A & _). lia.
  - intros O. apply (starts_line_fun s q); [|exact Sq]. destruct Sp as (A & B & C). split; [lia|]. split; [exact B|]. intros i Hi. destruct (lt_dec i p); [apply C; lia|apply O; lia].
Qed.
Lemma forallb_slice : forall s a b, b <= length s -> (forallb py_space (slice a b s) = true <-> all_in s white a b).
Proof.
  intros s a b Hb. rewrite forallb_forall. split.
  - intros H k Hk. destruct (nth_error s k) as [c|] eqn:E; [|apply nth_error_None in E; lia]. exists c. split; [exact E|]. apply white_iff, H.
    apply nth_error_In with (n := k - a). apply has_slice. replace (a + (k - a)) with k by lia. split; [exact E|lia].
  - intros H c Hc. apply In_nth_error in Hc as (k & Hk). apply has_slice in Hk as [Hk L]. destruct (H (a + k)) as (d & Hd & W); [lia|]. rewrite (has_fun _ _ _ _ Hk Hd). now apply white_iff.
Qed.
Lemma check_tag_spec : forall s e ls p name, p <= length s -> starts_line s ls p -> (check_tag s e ls p name = [] <-> placed s p e).
Proof.
  intros s e ls p name Hp St. unfold check_tag. destruct (forallb py_space (slice ls p s)) eqn:E.
  - apply forallb_slice in E; [|exact Hp]. rewrite slice_len by exact Hp. pose proof (proj1 St). destruct (p - ls =? e) eqn:El.
    + apply Nat.eqb_eq in El. split; [intros _|reflexivity]. exists ls. split; [exact St|]. split; [lia|exact E].
    + apply Nat.eqb_neq in El. split; [discriminate|]. intros (ls' & St' & -> & _). pose proof (starts_line_fun _ _ _ _ St St'). lia.
  - split; [discriminate|]. intros (ls' & St' & _ & W). rewrite (starts_line_fun _ _ _ _ St' St) in W. apply forallb_slice in W; [|exact Hp]. congruence.
Qed.
Lemma starts_before : forall s ls p q, starts_line s ls q -> p <= q -> one_line s p q -> starts_line s ls p.
Proof.
  intros s ls p q (A & B & C) L O. assert (ls <= p). { destruct (le_lt_dec ls p) as [|L']; [assumption|]. destruct B as [B|B]; [lia|]. destruct (O (ls - 1)); [lia|exact B]. }
  split; [assumption|]. split; [exact B|]. intros i Hi. apply C. lia.
Qed.
Lemma deeper_spec : forall s p n, p <= length s -> 0 < n ->
  (negb (length (slice (line_end s p + 1) (line_end s p + 1 + n) s) =? 0) && forallb py_space (slice (line_end s p + 1) (line_end s p + 1 + n) s) = true <-> deeper s p n).
Proof.
  intros s p n Hp Hn. unfold line_end. set (f := fun c : N => negb (c =? 10)%N). destruct (count_spec f (skipn p s)) as (A & _ & B & C). set (k := count_while f (skipn p s)) in *.
  rewrite skipn_length in C. set (t := slice (p + k + 1) (p + k + 1 + n) s). assert (Lt : length t = Nat.min (p + k + 1 + n) (length s) - (p + k + 1)).
  { unfold t, slice. rewrite firstn_length, skipn_length. lia. }
  assert (Et : t = slice (p + k + 1) (Nat.min (p + k + 1 + n) (length s)) s).
  { unfold t, slice. destruct (le_lt_dec (p + k + 1 + n) (length s)); [f_equal; lia|]. rewrite !firstn_all2; [reflexivity|rewrite skipn_length; lia|rewrite skipn_length; lia]. }
  assert (O : one_line s p (p + k)).
  { intros i Hi Hc. destruct (A (i - p)) as (c & Hc' & F); [lia|]. apply has_skipn in Hc'. replace (p + (i - p)) with i in Hc' by lia. rewrite (has_fun _ _ _ _ Hc' Hc) in F. discriminate. }
  assert (E10 : p + k < length s -> has s (p + k) 10%N).
  { intros L. destruct (nth_error s (p + k)) as [c|] eqn:E; [|apply nth_error_None in E; lia]. pose proof (B c (proj2 (has_skipn _ _ _ _) E)) as F. unfold f in F. apply negb_false_iff, N.eqb_eq in F. subst c. exact E. }
  rewrite andb_true_iff, negb_true_iff, Nat.eqb_neq. split.
  - intros [N F]. exists (p + k). split; [lia|]. split; [exact O|]. split; [apply E10; lia|]. split; [lia|]. rewrite Et in F. apply forallb_slice in F; [exact F|lia].
  - intros (i & Hi & O' & H10 & L & W). assert (i = p + k).
    { destruct (lt_eq_lt_dec i (p + k)) as [[X|X]|X]; [|exact X|].
      - destruct (O i); [lia|exact H10].
      - destruct (O' (p + k)); [lia|]. apply E10. lia. }
    subst i. split; [lia|]. rewrite Et. apply forallb_slice; [lia|exact W].
Qed.
