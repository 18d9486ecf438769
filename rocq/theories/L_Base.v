(* General lemmas: sorting, slices, text order. *)
From Verif Require Import M_Base.
From Coq Require Export Permutation Sorted.

Section SortLemmas.
  Context {A : Type} (le : A -> A -> bool).

  Lemma insert_perm x l : Permutation (insert le x l) (x :: l).
  Proof.
    induction l as [|y l IH]; simpl; [reflexivity|].
    destruct (le x y); [reflexivity|].
    rewrite IH. apply perm_swap.
  Qed.

  Lemma isort_perm l : Permutation (isort le l) l.
  Proof.
    induction l as [|x l IH]; simpl; [reflexivity|].
    rewrite insert_perm. now constructor.
  Qed.

  Hypothesis le_total : forall x y, le x y = true \/ le y x = true.
  Hypothesis le_trans : forall x y z, le x y = true -> le y z = true -> le x z = true.

  Let R x y := le x y = true.

  Lemma insert_sorted x l : StronglySorted R l -> StronglySorted R (insert le x l).
  Proof.
    induction l as [|y l IH]; simpl; intros HS.
    - constructor; constructor.
    - inversion HS as [|? ? HS' HF]; subst.
      destruct (le x y) eqn:E.
      + constructor; [assumption|]. constructor; [exact E|].
        rewrite Forall_forall in *. intros z Hz. unfold R. eapply le_trans; [exact E|].
        now apply HF.
      + constructor; [now apply IH|].
        rewrite Forall_forall in *. intros z Hz.
        apply (Permutation_in _ (insert_perm x l)) in Hz. destruct Hz as [->|Hz].
        * destruct (le_total z y) as [H|H]; [congruence|exact H].
        * now apply HF.
  Qed.

  Lemma isort_sorted l : StronglySorted R (isort le l).
  Proof. induction l as [|x l IH]; simpl; [constructor|now apply insert_sorted]. Qed.

  Hypothesis le_antisym : forall x y, le x y = true -> le y x = true -> x = y.

  Lemma sorted_perm_eq l1 : forall l2,
    StronglySorted R l1 -> StronglySorted R l2 -> Permutation l1 l2 -> l1 = l2.
  Proof.
    induction l1 as [|x l1 IH]; intros l2 H1 H2 HP.
    - now apply Permutation_nil in HP.
    - destruct l2 as [|y l2].
      { apply Permutation_sym, Permutation_nil in HP. discriminate. }
      inversion H1 as [|? ? H1' F1]; inversion H2 as [|? ? H2' F2]; subst.
      assert (x = y) as ->.
      { rewrite Forall_forall in F1, F2.
        assert (In x (y :: l2)) as [->|Hx] by (eapply Permutation_in; [exact HP|now left]); [reflexivity|].
        assert (In y (x :: l1)) as [->|Hy]
          by (eapply Permutation_in; [apply Permutation_sym; exact HP|now left]); [reflexivity|].
        apply le_antisym; [now apply F1|now apply F2]. }
      f_equal. apply IH; auto. now apply Permutation_cons_inv in HP.
  Qed.

  Lemma isort_ext l1 l2 : Permutation l1 l2 -> isort le l1 = isort le l2.
  Proof.
    intros H. apply sorted_perm_eq; auto using isort_sorted.
    rewrite !isort_perm. exact H.
  Qed.
End SortLemmas.

Lemma text_leb_total a : forall b, text_leb a b = true \/ text_leb b a = true.
Proof.
  induction a as [|x a IH]; intros [|y b]; simpl; auto.
  destruct (N.ltb_spec x y), (N.ltb_spec y x); auto.
Qed.

Lemma text_leb_trans a : forall b c, text_leb a b = true -> text_leb b c = true -> text_leb a c = true.
Proof.
  induction a as [|x a IH]; intros [|y b] [|z c]; simpl; auto; try discriminate.
  destruct (N.ltb_spec x y), (N.ltb_spec y x), (N.ltb_spec y z), (N.ltb_spec z y),
    (N.ltb_spec x z), (N.ltb_spec z x); intros; try discriminate; try lia; auto.
  eapply IH; eassumption.
Qed.

Lemma text_leb_antisym a : forall b, text_leb a b = true -> text_leb b a = true -> a = b.
Proof.
  induction a as [|x a IH]; intros [|y b]; simpl; auto; try discriminate.
  destruct (N.ltb_spec x y), (N.ltb_spec y x); intros; try discriminate; try lia.
  assert (x = y) by lia. subst. f_equal. now apply IH.
Qed.

Lemma text_eqb_eq a : forall b, text_eqb a b = true <-> a = b.
Proof.
  induction a as [|x a IH]; intros [|y b]; simpl; split; intros H; try discriminate; auto.
  - apply andb_true_iff in H as [H1 H2]. apply N.eqb_eq in H1. apply IH in H2. now subst.
  - inversion H; subst. apply andb_true_iff. split; [apply N.eqb_refl|now apply IH].
Qed.

Lemma bind_ok {A B} (r : res A) (k : A -> res B) b :
  bind r k = Ok b <-> exists a, r = Ok a /\ k a = Ok b.
Proof.
  destruct r as [a|e]; simpl; split.
  - intros H. eauto.
  - intros (a' & H1 & H2). congruence.
  - discriminate.
  - intros (a' & H1 & H2). discriminate.
Qed.

Lemma assert_ok b : assert_ b = Ok tt <-> b = true.
Proof. unfold assert_. destruct b; split; congruence. Qed.

Lemma nth_error_skipn {A} (t : list A) : forall s m, nth_error (skipn s t) m = nth_error t (s + m).
Proof. induction t as [|y t IH]; intros [|s] m; simpl; auto. now destruct m. Qed.

Lemma nth_error_firstn_lt {A} (t : list A) : forall p m, m < p -> nth_error (firstn p t) m = nth_error t m.
Proof.
  induction t as [|y t IH]; intros [|p] [|m] H; simpl; auto; try lia. apply IH. lia.
Qed.

Lemma firstn_split {A} (t : list A) s p : s <= p -> firstn p t = firstn s t ++ slice s p t.
Proof.
  intros H. unfold slice. rewrite <- (firstn_skipn s t) at 1.
  rewrite firstn_app, firstn_firstn, Nat.min_r by lia.
  destruct (le_lt_dec s (length t)).
  - rewrite firstn_length, Nat.min_l by lia. reflexivity.
  - rewrite (skipn_all2 t) by lia. now rewrite !firstn_nil.
Qed.

Lemma slice_nth {A} (t : list A) s p m x :
  nth_error (slice s p t) m = Some x -> nth_error t (s + m) = Some x /\ s + m < p.
Proof.
  unfold slice. intros H.
  assert (m < length (firstn (p - s) (skipn s t))) as Hl by (apply nth_error_Some; congruence).
  rewrite firstn_length in Hl.
  rewrite nth_error_firstn_lt, nth_error_skipn in H by lia.
  split; [exact H|lia].
Qed.

Lemma slice_length {A} (t : list A) s p : p <= length t -> length (slice s p t) = p - s.
Proof. intros H. unfold slice. rewrite firstn_length, skipn_length. lia. Qed.

Lemma skipn_skipn {A} (n m : nat) (l : list A) : skipn n (skipn m l) = skipn (n + m) l.
Proof.
  revert l. induction m as [|m IH]; intros l; [now rewrite Nat.add_0_r|].
  rewrite Nat.add_succ_r. destruct l as [|x l]; [now rewrite !skipn_nil|]. cbn [skipn]. apply IH.
Qed.

Lemma Forall2_length {A B} (P : A -> B -> Prop) l l' : Forall2 P l l' -> length l = length l'.
Proof. induction 1; cbn; auto. Qed.

Lemma SS_impl {A} (R R' : A -> A -> Prop) l : (forall x y, R x y -> R' x y) -> StronglySorted R l -> StronglySorted R' l.
Proof. intros H. induction 1 as [|x l HS IH HF]; constructor; [exact IH|]. eapply Forall_impl; [|exact HF]. auto. Qed.
