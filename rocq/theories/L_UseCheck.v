(* Vocabulary and lemmas for the comparison of 'use' productions. *)
From Coq Require Import Sorted.
From Verif Require Import M_Base L_Base M_GramCheck L_GramCheck M_UseCheck.

(* the j-th definition is reported to match the i-th use, with these notes about its optional symbols *)
Definition matched (us : list (list gitem)) (ds : list drhs) (i j : nat) (os : list optionality) : Prop :=
  exists u d ns, nth_error us i = Some u /\ nth_error ds j = Some d /\ fst (u_rhs_matches_d_rhs u (d_items d)) = Some ns /\ os = optional_notes ns.
Lemma enumerate_in {A} (l : list A) : forall k i x, In (i, x) (enumerate_from k l) <-> k <= i /\ nth_error l (i - k) = Some x.
Proof.
  induction l as [|a l IH]; intros k i x; cbn [enumerate_from In].
  - split; [intros []|]. intros [_ H]. destruct (i - k); discriminate.
  - rewrite IH. split.
    + intros [[= <- <-]|[L H]]; [split; [lia|now rewrite Nat.sub_diag]|]. split; [lia|]. replace (i - k) with (S (i - S k)) by lia. exact H.
    + intros [L H]. destruct (i - k) as [|n] eqn:E; [left; cbn in H; inversion H; f_equal; lia|]. right. split; [lia|]. replace (i - S k) with n by lia. exact H.
Qed.
Lemma matches_in us ds i j os : In (i, j, os) (all_matches us ds) <-> matched us ds i j os.
Proof.
  unfold all_matches, matched. rewrite in_flat_map. split.
  - intros ([i' u] & I & H). apply in_flat_map in H as ([j' d] & J & H). cbn [fst snd] in H. apply enumerate_in in I as [_ I]. apply enumerate_in in J as [_ J]. rewrite Nat.sub_0_r in I, J.
    destruct (fst (u_rhs_matches_d_rhs u (d_items d))) as [ns|] eqn:E; [|destruct H]. destruct H as [[= <- <- <-]|[]]. exists u, d, ns. auto.
  - intros (u & d & ns & I & J & E & ->). exists (i, u). split; [apply enumerate_in; rewrite Nat.sub_0_r; split; [lia|assumption]|]. apply in_flat_map. exists (j, d). split; [apply enumerate_in; rewrite Nat.sub_0_r; split; [lia|assumption]|]. cbn [fst snd]. rewrite E. now left.
Qed.
(* the pairs are in lexicographic order *)
Definition lex (x y : nat * nat * list optionality) : Prop := ui x < ui y \/ (ui x = ui y /\ di x < di y).
Lemma matches_sorted us ds : StronglySorted lex (all_matches us ds).
Proof.
  unfold all_matches.
  assert (G : forall i u, StronglySorted lex (flat_map (fun jd : nat * drhs => match fst (u_rhs_matches_d_rhs u (d_items (snd jd))) with Some notes => [(i, fst jd, optional_notes notes)] | None => [] end) (enumerate_from 0 ds)) /\
    Forall (fun x => ui x = i) (flat_map (fun jd : nat * drhs => match fst (u_rhs_matches_d_rhs u (d_items (snd jd))) with Some notes => [(i, fst jd, optional_notes notes)] | None => [] end) (enumerate_from 0 ds))).
  { intros i u. generalize 0 as k. induction ds as [|d ds' IH]; intros k; cbn [enumerate_from flat_map fst snd]; [split; constructor|]. destruct (IH (S k)) as [IH1 IH2]. destruct (fst (u_rhs_matches_d_rhs u (d_items d))) as [ns|]; cbn [app]; [|split; assumption].
    split; [constructor; [assumption|]|constructor; [reflexivity|assumption]]. apply Forall_forall. intros x I. right. rewrite Forall_forall in IH2. split; [cbn; symmetry; auto|]. apply in_flat_map in I as ([j d'] & J & I). apply enumerate_in in J as [J _]. destruct (fst _) in I; [|destruct I]. destruct I as [<-|[]]. cbn. lia. }
  generalize 0 at 2 as k. induction us as [|u us IH]; intros k; cbn [enumerate_from flat_map]; [constructor|]. cbn [fst snd]. destruct (G k u) as [G1 G2]. revert G1 G2. match goal with |- _ -> _ -> StronglySorted lex (?L ++ ?R) => generalize L; assert (RI : Forall (fun x => k < ui x) R) end.
  { apply Forall_forall. intros x I. apply in_flat_map in I as ([i u'] & J & I). apply enumerate_in in J as [J _]. apply in_flat_map in I as ([j d] & _ & I). cbn [fst snd] in I. destruct (fst _) in I; [|destruct I]. destruct I as [<-|[]]. cbn. lia. }
  intros L G1 G2. induction L as [|x L IHL]; cbn [app]; [apply IH|]. inversion G1; inversion G2; subst. constructor; [auto|]. apply Forall_app. split; [assumption|]. eapply Forall_impl; [|exact RI]. intros y Y. left. unfold ui in *. lia.
Qed.
Lemma nat_sorted_spec l : nat_sorted l = true <-> StronglySorted le l.
Proof.
  split.
  - intros H. apply Sorted_StronglySorted; [intros a b c; lia|]. induction l as [|a l IH]; [constructor|]. destruct l as [|b l]; [repeat constructor|]. cbn [nat_sorted] in H. apply andb_true_iff in H as [H1 H2]. apply Nat.leb_le in H1. constructor; [now apply IH|now constructor].
  - induction 1 as [|a l S IH F]; [reflexivity|]. destruct l as [|b l]; [reflexivity|]. cbn [nat_sorted] in *. inversion F; subst. apply andb_true_iff. split; [now apply Nat.leb_le|assumption].
Qed.
Lemma uis_sorted us ds : nat_sorted (map ui (all_matches us ds)) = true.
Proof.
  apply nat_sorted_spec. pose proof (matches_sorted us ds) as S. induction S as [|x l S IH F]; [constructor|]. cbn [map]. constructor; [assumption|]. apply Forall_forall. intros y I. apply in_map_iff in I as (z & <- & I). rewrite Forall_forall in F. destruct (F z I) as [H|[H _]]; lia.
Qed.
Lemma nat_min_spec l : forall a, (nat_min a l = a \/ In (nat_min a l) l) /\ nat_min a l <= a /\ forall x, In x l -> nat_min a l <= x.
Proof.
  induction l as [|b l IH]; intros a; cbn [nat_min]; [split; [auto|split; [lia|intros x []]]|]. destruct (b <? a) eqn:E.
  - apply Nat.ltb_lt in E. destruct (IH b) as (H1 & H2 & H3). split; [right; destruct H1 as [->|H1]; [now left|now right]|]. split; [lia|]. intros x [->|I]; auto.
  - apply Nat.ltb_ge in E. destruct (IH a) as (H1 & H2 & H3). split; [destruct H1 as [H1|H1]; [left; assumption|right; now right]|]. split; [lia|]. intros x [->|I]; [lia|auto].
Qed.
