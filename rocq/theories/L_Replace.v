(* Specification and lemmas for shared.write_spec_with_replacements (C02). *)
From Verif Require Import M_Base L_Base M_Shared.

(* Specification: one plain splice. *)
Definition splice (r : replacement) (t : text) : text :=
  firstn (r_start r) t ++ r_str r ++ skipn (r_end r) t.

Definition disjoint (a b : replacement) : Prop := r_end a <= r_start b \/ r_end b <= r_start a.
Definition before (a b : replacement) : Prop := r_end a <= r_start b.
Definition forward (t : text) (r : replacement) : Prop := r_start r <= r_end r <= length t.

Lemma repl_leb_total a b : repl_leb a b = true \/ repl_leb b a = true.
Proof.
  unfold repl_leb.
  destruct (Nat.ltb_spec (r_start a) (r_start b)), (Nat.ltb_spec (r_start b) (r_start a)),
    (Nat.ltb_spec (r_end a) (r_end b)), (Nat.ltb_spec (r_end b) (r_end a)); auto; try lia.
  apply text_leb_total.
Qed.

Lemma repl_leb_trans a b c : repl_leb a b = true -> repl_leb b c = true -> repl_leb a c = true.
Proof.
  unfold repl_leb.
  destruct (Nat.ltb_spec (r_start a) (r_start b)), (Nat.ltb_spec (r_start b) (r_start a)),
    (Nat.ltb_spec (r_start b) (r_start c)), (Nat.ltb_spec (r_start c) (r_start b)),
    (Nat.ltb_spec (r_start a) (r_start c)), (Nat.ltb_spec (r_start c) (r_start a));
    auto; try lia; try discriminate;
  destruct (Nat.ltb_spec (r_end a) (r_end b)), (Nat.ltb_spec (r_end b) (r_end a)),
    (Nat.ltb_spec (r_end b) (r_end c)), (Nat.ltb_spec (r_end c) (r_end b)),
    (Nat.ltb_spec (r_end a) (r_end c)), (Nat.ltb_spec (r_end c) (r_end a));
    auto; try lia; try discriminate.
  apply text_leb_trans.
Qed.

Lemma repl_leb_antisym a b : repl_leb a b = true -> repl_leb b a = true -> a = b.
Proof.
  unfold repl_leb.
  destruct (Nat.ltb_spec (r_start a) (r_start b)), (Nat.ltb_spec (r_start b) (r_start a)),
    (Nat.ltb_spec (r_end a) (r_end b)), (Nat.ltb_spec (r_end b) (r_end a));
    try discriminate; try lia; intros H3 H4.
  destruct a, b; simpl in *. f_equal; try lia. now apply text_leb_antisym.
Qed.

Lemma fold_splice_prefix t rs k :
  k <= length t -> Forall (fun r => k <= r_start r) rs ->
  firstn k (fold_right splice t rs) = firstn k t.
Proof.
  intros Hk HF. induction rs as [|r rs IH]; simpl; [reflexivity|].
  inversion HF as [|? ? H1 H2]; subst. specialize (IH H2).
  unfold splice at 1. rewrite firstn_app, firstn_firstn, Nat.min_l by lia.
  rewrite IH. rewrite firstn_length.
  assert (k <= length (fold_right splice t rs)) as Hlen.
  { assert (length (firstn k (fold_right splice t rs)) = length (firstn k t)) as E by now rewrite IH.
    rewrite !firstn_length in E. lia. }
  replace (k - Nat.min (r_start r) (length (fold_right splice t rs))) with 0 by lia.
  simpl. now rewrite app_nil_r.
Qed.

Lemma repl_loop_ok t : forall rs prev,
  prev <= length t ->
  Forall (forward t) rs -> Forall (fun r => prev <= r_start r) rs -> StronglySorted before rs ->
  repl_loop t prev rs = Ok (skipn prev (fold_right splice t rs)).
Proof.
  induction rs as [|r rs IH]; intros prev Hp Hf Hprev HS; [reflexivity|].
  cbn [repl_loop]. inversion Hf as [|? ? F1 F2]; inversion Hprev as [|? ? P1 P2];
    inversion HS as [|? ? S1 S2]; subst.
  unfold assert_. destruct (Nat.leb_spec prev (r_start r)); [|lia]. cbn [bind].
  unfold forward in F1.
  rewrite (IH (r_end r)); auto; [|lia]. cbn [bind]. f_equal.
  cbn [fold_right]. set (T := fold_right splice t rs) in *. unfold splice.
  assert (firstn (r_start r) T = firstn (r_start r) t) as E.
  { apply fold_splice_prefix; [lia|]. rewrite Forall_forall in *. intros x Hx.
    specialize (S2 x Hx). unfold before in S2. lia. }
  rewrite E, skipn_app, firstn_length, Nat.min_l by lia.
  replace (prev - r_start r) with 0 by lia. cbn [skipn].
  rewrite skipn_firstn_comm. reflexivity.
Qed.

Lemma sorted_before t rs :
  StronglySorted (fun a b => repl_leb a b = true) rs ->
  Forall (forward t) rs -> ForallOrdPairs disjoint rs -> StronglySorted before rs.
Proof.
  induction rs as [|r rs IH]; intros HS HF HD; constructor;
    inversion HS as [|? ? S1 S2]; inversion HF as [|? ? F1 F2]; inversion HD as [|? ? D1 D2]; subst.
  - auto.
  - rewrite Forall_forall in *. intros x Hx. specialize (S2 x Hx). specialize (D1 x Hx).
    specialize (F2 x Hx). unfold before, disjoint, forward in *.
    revert S2. unfold repl_leb.
    destruct (Nat.ltb_spec (r_start r) (r_start x)), (Nat.ltb_spec (r_start x) (r_start r)),
      (Nat.ltb_spec (r_end r) (r_end x)), (Nat.ltb_spec (r_end x) (r_end r));
      try discriminate; intros; lia.
Qed.

Lemma FOP_perm rs rs' : Permutation rs rs' -> ForallOrdPairs disjoint rs -> ForallOrdPairs disjoint rs'.
Proof.
  assert (forall a b, disjoint a b -> disjoint b a) as Hsym by (unfold disjoint; intuition).
  induction 1 as [|x l l' HP IH|x y l|l l' l'' HP1 IH1 HP2 IH2]; intros H.
  - constructor.
  - inversion H; subst. constructor; auto. now rewrite <- HP.
  - inversion H as [|? ? Ha Hb]; inversion Hb as [|? ? Hc Hd]; inversion Ha; subst.
    constructor; [constructor; auto|constructor; auto].
  - auto.
Qed.

Lemma repl_ok t rs :
  Forall (forward t) rs -> ForallOrdPairs disjoint rs ->
  exists s, Permutation s rs /\ StronglySorted before s /\
    write_spec_with_replacements t rs = Ok (fold_right splice t s).
Proof.
  intros HF HD. exists (isort repl_leb rs).
  assert (Permutation (isort repl_leb rs) rs) as HP by apply isort_perm.
  assert (StronglySorted before (isort repl_leb rs)) as HB.
  { eapply (sorted_before t).
    - apply isort_sorted; [apply repl_leb_total|apply repl_leb_trans].
    - now rewrite HP.
    - eapply FOP_perm; [symmetry; exact HP|exact HD]. }
  split; [exact HP|]. split; [exact HB|].
  unfold write_spec_with_replacements. rewrite repl_loop_ok; auto; [lia|now rewrite HP|].
  apply Forall_forall. intros; lia.
Qed.

Lemma repl_order_irrelevant t rs rs' :
  Permutation rs rs' -> write_spec_with_replacements t rs = write_spec_with_replacements t rs'.
Proof.
  intros H. unfold write_spec_with_replacements. f_equal.
  apply isort_ext; auto using repl_leb_total, repl_leb_antisym.
  intros; eapply repl_leb_trans; eauto.
Qed.

Lemma repl_loop_err t : forall rs prev,
  (exists s, repl_loop t prev rs = Ok s) \/ repl_loop t prev rs = Err AssertionError.
Proof.
  induction rs as [|r rs IH]; intros prev; cbn [repl_loop]; [eauto|].
  unfold assert_. destruct (prev <=? r_start r); cbn [bind]; [|auto].
  destruct (IH (r_end r)) as [[s ->]| ->]; cbn [bind]; eauto.
Qed.

Lemma repl_loop_ok_inv t : forall rs prev out,
  Forall (fun r => r_start r <= r_end r) rs ->
  repl_loop t prev rs = Ok out ->
  Forall (fun r => prev <= r_start r) rs /\ StronglySorted before rs.
Proof.
  induction rs as [|r rs IH]; intros prev out HF H; cbn [repl_loop] in H.
  - split; constructor.
  - unfold assert_ in H. destruct (Nat.leb_spec prev (r_start r)); cbn [bind] in H; [|discriminate].
    apply bind_ok in H as (rest & H1 & H2). inversion HF; subst.
    apply IH in H1 as [Ha Hb]; auto. split.
    + constructor; auto. eapply Forall_impl; [|exact Ha]. intros x Hx. simpl in Hx. lia.
    + constructor; auto.
Qed.

Lemma repl_overlap_fails t rs :
  Forall (fun r => r_start r <= r_end r) rs -> ~ ForallOrdPairs disjoint rs ->
  write_spec_with_replacements t rs = Err AssertionError.
Proof.
  intros HF HN. unfold write_spec_with_replacements.
  destruct (repl_loop_err t (isort repl_leb rs) 0) as [[s Hs]|Hs]; [|exact Hs].
  exfalso. apply HN. clear HN.
  assert (Permutation (isort repl_leb rs) rs) as HP by apply isort_perm.
  apply repl_loop_ok_inv in Hs as [_ HS]; [|now rewrite HP].
  eapply FOP_perm; [exact HP|]. clear -HS.
  induction HS; constructor; auto. eapply Forall_impl; [|eassumption].
  unfold before, disjoint. auto.
Qed.

(* A backward span is not rejected and duplicates text. *)
Lemma repl_backward_refuted :
  exists t rs out, ~ Forall (fun r => r_start r <= r_end r) rs /\
    write_spec_with_replacements t rs = Ok out /\
    count_occ N.eq_dec t 66%N = 1 /\ count_occ N.eq_dec out 66%N = 2.
Proof.
  exists [65;66;67]%N, [mkRepl 2 1 [88%N]], [65;66;88;66;67]%N. repeat split.
  intros H. inversion H; subst. simpl in *. lia.
Qed.
