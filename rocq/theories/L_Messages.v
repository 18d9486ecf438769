(* Specification and lemmas for the annotated copy of the spec (C03). *)
From Verif Require Import M_Base L_Base M_Shared L_Shared.

(* Specification: a typewriter walking over p characters. *)
Fixpoint walk (p : nat) (t : text) (line col : nat) : nat * nat :=
  match p, t with
  | S p', c :: t' => if (c =? newline)%N then walk p' t' (S line) 1 else walk p' t' line (S col)
  | _, _ => (line, col)
  end.
Definition line_of (t : text) (p : nat) : nat := fst (walk p t 1 1).
Definition col_of (t : text) (p : nat) : nat := snd (walk p t 1 1).

Lemma walk_spec : forall p t l0 c0,
  exists a b, firstn p t = a ++ b /\ ~ In newline b /\
    ((a = [] /\ walk p t l0 c0 = (l0, c0 + length b)) \/
     ((exists a', a = a' ++ [newline]) /\ walk p t l0 c0 = (l0 + count_nl a, S (length b)))).
Proof.
  induction p as [|p IH]; intros t l0 c0.
  - exists [], []. cbn. split; [reflexivity|]. split; [tauto|]. left. split; [reflexivity|]. f_equal. lia.
  - destruct t as [|c t].
    { exists [], []. cbn. split; [reflexivity|]. split; [tauto|]. left. split; [reflexivity|]. f_equal. lia. }
    cbn [firstn walk]. destruct (N.eqb_spec c newline) as [->|Hc].
    + destruct (IH t (S l0) 1) as (a & b & E & Hb & H).
      exists (newline :: a), b. rewrite E. repeat split; auto. right.
      destruct H as [[-> H]|[[a' ->] H]]; rewrite H.
      * split; [now exists []|]. f_equal. unfold count_nl; simpl. lia.
      * split; [now exists (newline :: a')|]. f_equal.
        change (newline :: a' ++ [newline]) with ([newline] ++ (a' ++ [newline])).
        rewrite (count_nl_app [newline]). unfold count_nl at 2. simpl. lia.
    + destruct (IH t l0 (S c0)) as (a & b & E & Hb & H).
      destruct H as [[-> H]|[[a' ->] H]].
      * exists [], (c :: b). rewrite E. simpl. repeat split; auto.
        { intros [?|?]; [congruence|auto]. }
        left. split; [reflexivity|]. rewrite H. f_equal. lia.
      * exists (c :: a' ++ [newline]), b. rewrite E. repeat split; auto. right.
        split; [now exists (c :: a')|]. rewrite H. f_equal.
        change (c :: a' ++ [newline]) with ([c] ++ (a' ++ [newline])).
        rewrite (count_nl_app [c]). unfold count_nl at 2. cbn [filter].
        destruct (N.eqb_spec newline c); [congruence|]. simpl. lia.
Qed.

Lemma walk_is_linecol t p : is_linecol t p (line_of t p) (col_of t p).
Proof.
  destruct (walk_spec p t 1 1) as (a & b & E & Hb & H).
  exists a, b. split; [exact E|]. split; [exact Hb|]. unfold line_of, col_of.
  destruct H as [[-> H]|[[a' ->] H]]; rewrite H; simpl; repeat split; eauto.
Qed.

Lemma convert_ok_nonneg t z r : convert_posn_to_linecol t z = Ok r ->
  exists p q, z = Z.of_nat p /\ p <= q /\ nth_error t q = Some newline.
Proof.
  intros H. destruct (Z.ltb_spec z 0) as [Hz|Hz].
  { rewrite linecol_fails in H by auto. discriminate. }
  exists (Z.to_nat z).
  destruct (existsb (N.eqb newline) (skipn (Z.to_nat z) t)) eqn:E.
  - apply existsb_exists in E as (x & Hx & Ex). apply N.eqb_eq in Ex. subst x.
    apply In_nth_error in Hx as [m Hm]. rewrite nth_error_skipn in Hm.
    exists (Z.to_nat z + m). repeat split; auto; lia.
  - exfalso. rewrite linecol_fails in H; [discriminate|]. right. intros q Hq Hn.
    assert (existsb (N.eqb newline) (skipn (Z.to_nat z) t) = true); [|congruence].
    apply existsb_exists. exists newline. split; [|apply N.eqb_refl].
    apply nth_error_In with (n := q - Z.to_nat z). rewrite nth_error_skipn.
    now replace (Z.to_nat z + (q - Z.to_nat z)) with q by lia.
Qed.

Lemma convert_walk t z l c : convert_posn_to_linecol t z = Ok (l, c) ->
  (0 <= z)%Z /\ l = line_of t (Z.to_nat z) /\ c = Z.of_nat (col_of t (Z.to_nat z)).
Proof.
  intros H. destruct (convert_ok_nonneg t z _ H) as (p & q & -> & Hpq & Hq).
  destruct (linecol_exact t p) as (l' & c' & H' & Hs); [eauto|].
  rewrite H in H'. inversion H'; subst. rewrite Nat2Z.id.
  destruct (is_linecol_fun _ _ _ _ _ _ Hs (walk_is_linecol t p)) as [-> ->]. repeat split. lia.
Qed.

(* the messages of a history that belong to a line, with their columns *)
Definition on_line (t : text) (line : nat) (h : list (Z * message)) : list (Z * message) :=
  map (fun x => (Z.of_nat (col_of t (Z.to_nat (fst x))), snd x))
      (filter (fun x => line_of t (Z.to_nat (fst x)) =? line) h).

Lemma md_get_append d l l' x :
  md_get (md_append d l x) l' = if l =? l' then md_get d l' ++ [x] else md_get d l'.
Proof.
  induction d as [|[k ms] d IH]; simpl.
  - destruct (l =? l'); reflexivity.
  - destruct (Nat.eqb_spec k l) as [->|Hk]; simpl.
    + destruct (Nat.eqb_spec l l'); reflexivity.
    + rewrite IH. destruct (Nat.eqb_spec k l') as [->|]; [|reflexivity].
      destruct (Nat.eqb_spec l l'); [congruence|reflexivity].
Qed.

Lemma msg_history_get t h : forall d d',
  msg_history t d h = Ok d' ->
  forall line, md_get d' line = md_get d line ++ on_line t line h.
Proof.
  induction h as [|[p m] h IH]; intros d d' H line.
  - inversion H; subst. unfold on_line; simpl. now rewrite app_nil_r.
  - cbn [msg_history] in H. apply bind_ok in H as (d1 & H1 & H2).
    unfold msg_at_posn in H1. apply bind_ok in H1 as ([l c] & Hc & Hd). inversion Hd; subst d1.
    apply convert_walk in Hc as (_ & -> & ->).
    rewrite (IH _ _ H2). rewrite md_get_append. unfold on_line. cbn [filter fst].
    destruct (line_of t (Z.to_nat p) =? line); cbn [map fst snd]; [|reflexivity].
    now rewrite <- app_assoc.
Qed.

(* Specification of joining lines with newlines *)
Fixpoint join_lines (ls : list text) : text :=
  match ls with
  | [] => []
  | [l] => l
  | l :: ls' => l ++ newline :: join_lines ls'
  end.

Lemma split_nonempty t : split_lines t <> [].
Proof.
  induction t as [|c t IH]; simpl; [discriminate|].
  destruct (c =? newline)%N; [discriminate|]. destruct (split_lines t); discriminate.
Qed.

Lemma join_split t : join_lines (split_lines t) = t.
Proof.
  induction t as [|c t IH]; [reflexivity|]. cbn [split_lines].
  destruct (N.eqb_spec c newline) as [->|Hc].
  - pose proof (split_nonempty t). destruct (split_lines t) as [|l ls] eqn:E; [congruence|].
    change (join_lines ([] :: l :: ls)) with ([] ++ newline :: join_lines (l :: ls)). now rewrite IH.
  - destruct (split_lines t) as [|l ls] eqn:E; [now destruct (split_nonempty t)|].
    destruct ls as [|l' ls]; simpl in *; now rewrite IH.
Qed.

Lemma split_no_newline t l : In l (split_lines t) -> ~ In newline l.
Proof.
  revert l. induction t as [|c t IH]; intros l; cbn [split_lines].
  - intros [<-|[]]. simpl. tauto.
  - destruct (N.eqb_spec c newline) as [->|Hc].
    + intros [<-|H]; [simpl; tauto|auto].
    + destruct (split_lines t) as [|l0 ls].
      * intros [<-|[]]. simpl. intros [?|[]]. congruence.
      * intros [<-|H].
        -- intros [?|H]; [congruence|]. apply (IH l0); [now left|exact H].
        -- apply IH. now right.
Qed.

Lemma split_length t : length (split_lines t) = S (count_nl t).
Proof.
  induction t as [|c t IH]; [reflexivity|]. cbn [split_lines]. unfold count_nl in *. cbn [filter].
  rewrite (N.eqb_sym newline c).
  destruct (c =? newline)%N; cbn [length]; [now rewrite IH|].
  destruct (split_lines t) as [|l ls] eqn:E; [now destruct (split_nonempty t)|]. simpl in *. lia.
Qed.

Lemma colmsg_leb_total a b : colmsg_leb a b = true \/ colmsg_leb b a = true.
Proof.
  unfold colmsg_leb. destruct (Z.ltb_spec (fst a) (fst b)), (Z.ltb_spec (fst b) (fst a)); auto.
  apply text_leb_total.
Qed.
Lemma colmsg_leb_trans a b c : colmsg_leb a b = true -> colmsg_leb b c = true -> colmsg_leb a c = true.
Proof.
  unfold colmsg_leb.
  destruct (Z.ltb_spec (fst a) (fst b)), (Z.ltb_spec (fst b) (fst a)),
    (Z.ltb_spec (fst b) (fst c)), (Z.ltb_spec (fst c) (fst b)),
    (Z.ltb_spec (fst a) (fst c)), (Z.ltb_spec (fst c) (fst a)); auto; try lia; try discriminate.
  apply text_leb_trans.
Qed.

Definition print_block (b : text * list (Z * message)) : list out_line :=
  SpecLine (fst b) :: flat_map (fun x => [CaretLine (fst x - 1); MsgLine (snd x)]) (snd b).

Definition block_ok (t : text) (h : list (Z * message)) (line : nat) (ms : list (Z * message)) : Prop :=
  Permutation ms (on_line t line h) /\ StronglySorted (fun a b => (fst a <= fst b)%Z) ms.

Lemma finish_blocks t h d : msg_history t [] h = Ok d ->
  forall ls i, exists blocks,
    finish_lines d i ls = flat_map print_block blocks /\
    map fst blocks = ls /\
    (forall k l ms, nth_error blocks k = Some (l, ms) -> block_ok t h (S (i + k)) ms).
Proof.
  intros Hd. induction ls as [|l ls IH]; intros i.
  - exists []. split; [reflexivity|]. split; [reflexivity|]. intros [|k] l ms Hk; discriminate.
  - destruct (IH (i + 1)) as (blocks & E1 & E2 & E3).
    exists ((l, isort colmsg_leb (md_get d (i + 1))) :: blocks).
    split; [|split].
    + cbn [finish_lines flat_map]. rewrite E1. reflexivity.
    + simpl. now rewrite E2.
    + intros [|k] l' ms H; cbn [nth_error] in H.
      * inversion H; subst. rewrite (msg_history_get _ _ _ _ Hd). cbn [md_get app].
        replace (S (i + 0)) with (i + 1) by lia. split; [apply isort_perm|].
        pose proof (isort_sorted colmsg_leb colmsg_leb_total colmsg_leb_trans (on_line t (i + 1) h)) as HS.
        clear -HS. induction HS as [|x l HS IH HF]; constructor; auto.
        eapply Forall_impl; [|exact HF]. intros y Hy. unfold colmsg_leb in Hy.
        destruct (Z.ltb_spec (fst x) (fst y)), (Z.ltb_spec (fst y) (fst x)); try discriminate; lia.
      * replace (S (i + S k)) with (S (i + 1 + k)) by lia. eapply E3; eauto.
Qed.

(* no message is lost: every message of the history belongs to exactly one line *)
Lemma flat_map_on_line t h n :
  (forall x, In x h -> 1 <= line_of t (Z.to_nat (fst x)) <= n) ->
  Permutation (flat_map (fun i => map snd (on_line t (S i) h)) (seq 0 n)) (map snd h).
Proof.
  induction h as [|x h IH]; intros Hx.
  - unfold on_line. simpl. induction (seq 0 n); simpl; auto.
  - assert (forall x, In x h -> 1 <= line_of t (Z.to_nat (fst x)) <= n) as Hh by (intros; apply Hx; now right).
    specialize (IH Hh). specialize (Hx x (or_introl eq_refl)).
    set (k := line_of t (Z.to_nat (fst x)) - 1).
    assert (line_of t (Z.to_nat (fst x)) = S k) as Ek by lia.
    replace n with (k + (1 + (n - k - 1))) in * by lia.
    rewrite seq_app, flat_map_app in *. simpl seq in *. cbn [flat_map] in *.
    assert (forall l, (forall i, In i l -> i <> k) ->
      flat_map (fun i => map snd (on_line t (S i) (x :: h))) l =
      flat_map (fun i => map snd (on_line t (S i) h)) l) as Hsame.
    { induction l as [|i l IHl]; intros Hl; [reflexivity|]. cbn [flat_map]. rewrite IHl.
      - f_equal. unfold on_line. cbn [filter]. rewrite Ek.
        destruct (Nat.eqb_spec (S k) (S i)) as [E|]; [|reflexivity].
        exfalso. apply (Hl i); [now left|lia].
      - intros; apply Hl; now right. }
    rewrite !Hsame.
    2:{ intros i Hi. apply in_seq in Hi. lia. }
    2:{ intros i Hi. apply in_seq in Hi. lia. }
    assert (on_line t (S k) (x :: h) = (Z.of_nat (col_of t (Z.to_nat (fst x))), snd x) :: on_line t (S k) h) as ->.
    { unfold on_line. cbn [filter]. rewrite Ek, Nat.eqb_refl. reflexivity. }
    cbn [map snd]. etransitivity; [symmetry; apply Permutation_middle|].
    now constructor.
Qed.

Lemma line_of_le t p q : p <= q -> nth_error t q = Some newline -> line_of t p <= count_nl t.
Proof.
  intros Hpq Hq. destruct (walk_is_linecol t p) as (a & b & E & Hb & _ & -> & _).
  assert (count_nl (firstn p t) = count_nl a) as E1.
  { rewrite E, count_nl_app. apply count_nl_0 in Hb. lia. }
  rewrite <- E1.
  pose proof (count_nl_firstn_le t p q Hpq).
  pose proof (count_nl_firstn_lt t q (S q) Hq ltac:(lia)).
  assert (count_nl (firstn (S q) t) <= count_nl t).
  { rewrite <- (firstn_skipn (S q) t) at 2. rewrite count_nl_app. lia. }
  lia.
Qed.

Lemma line_of_pos t p : 1 <= line_of t p.
Proof. destruct (walk_is_linecol t p) as (a & b & _ & _ & _ & -> & _). lia. Qed.

Lemma msg_history_lines t h : forall d d', msg_history t d h = Ok d' ->
  forall x, In x h -> 1 <= line_of t (Z.to_nat (fst x)) <= count_nl t.
Proof.
  induction h as [|[p m] h IH]; intros d d' H x Hx; [destruct Hx|].
  cbn [msg_history] in H. apply bind_ok in H as (d1 & H1 & H2).
  destruct Hx as [<-|Hx]; [|eapply IH; eauto].
  unfold msg_at_posn in H1. apply bind_ok in H1 as ([l c] & Hc & _).
  apply convert_ok_nonneg in Hc as (p' & q & -> & Hpq & Hq). cbn [fst]. rewrite Nat2Z.id.
  split; [apply line_of_pos|]. eapply line_of_le; eauto.
Qed.

Lemma messages_ok t h d : msg_history t [] h = Ok d ->
  exists blocks,
    msg_at_posn_finish t d = flat_map print_block blocks /\
    join_lines (map fst blocks) = t /\
    (forall l, In l (map fst blocks) -> ~ In newline l) /\
    (forall k l ms, nth_error blocks k = Some (l, ms) -> block_ok t h (S k) ms) /\
    Permutation (flat_map (fun b => map snd (snd b)) blocks) (map snd h).
Proof.
  intros H. destruct (finish_blocks t h d H (split_lines t) 0) as (blocks & E1 & E2 & E3).
  exists blocks. split; [exact E1|]. split; [rewrite E2; apply join_split|].
  split; [rewrite E2; apply split_no_newline|]. split; [exact E3|].
  rewrite <- (flat_map_on_line t h (length blocks)).
  2:{ intros x Hx. pose proof (msg_history_lines t h _ _ H x Hx) as HL.
      assert (length blocks = S (count_nl t)) as El.
      { rewrite <- (map_length fst), E2. apply split_length. }
      lia. }
  assert (forall (bl : list (text * list (Z * message))) i, (forall k l ms, nth_error bl k = Some (l, ms) -> block_ok t h (S (i + k)) ms) ->
    Permutation (flat_map (fun b => map snd (snd b)) bl)
      (flat_map (fun j => map snd (on_line t (S j) h)) (seq i (length bl)))) as HG.
  { clear. induction bl as [|[l ms] bl IH]; intros i Hb; [reflexivity|].
    cbn [flat_map length seq snd]. apply Permutation_app.
    - apply Permutation_map. destruct (Hb 0 l ms eq_refl) as [HP _]. now rewrite Nat.add_0_r in HP.
    - apply IH. intros k l' ms' Hk. replace (S (S i + k)) with (S (i + S k)) by lia. eapply Hb. exact Hk. }
  apply HG. exact E3.
Qed.

