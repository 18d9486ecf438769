(* Specifications and lemmas about the hierarchy of Record schemas. *)
From Coq Require Import Ascii String Sorted.
From Verif Require Import M_Base M_HTML L_Base M_Records.
Open Scope list_scope.
Notation length := List.length.

(* ---- dictionaries ---- *)
Lemma teqb_refl : forall k, text_eqb k k = true. Proof. intros; now apply text_eqb_eq. Qed.
Lemma teqb_neq : forall a b, a <> b -> text_eqb a b = false.
Proof. intros a b H. destruct (text_eqb a b) eqn:E; auto. apply text_eqb_eq in E; contradiction. Qed.
Lemma tget_tset_same : forall A (d : list (text * A)) k v, tget (tset d k v) k = Some v.
Proof.
  induction d as [|[k' v'] d IH]; intros k v; cbn; [now rewrite teqb_refl|].
  destruct (text_eqb k' k) eqn:E; cbn; [now rewrite teqb_refl | now rewrite E].
Qed.
Lemma tget_tset_other : forall A (d : list (text * A)) k v k', k <> k' -> tget (tset d k v) k' = tget d k'.
Proof.
  induction d as [|[k1 v1] d IH]; intros k v k' N; cbn; [now rewrite teqb_neq|].
  destruct (text_eqb k1 k) eqn:E; cbn.
  - apply text_eqb_eq in E; subst. now rewrite teqb_neq.
  - destruct (text_eqb k1 k'); auto.
Qed.
Lemma set_nth_length : forall A (l : list A) n a, length (set_nth l n a) = length l.
Proof. induction l; intros [|n] b; cbn; auto. Qed.
Lemma set_nth_eq : forall A (l : list A) n a, n < length l -> nth_error (set_nth l n a) n = Some a.
Proof. induction l; intros [|n] b H; cbn in *; auto; try lia. apply IHl; lia. Qed.
Lemma set_nth_neq : forall A (l : list A) n a m, n <> m -> nth_error (set_nth l n a) m = nth_error l m.
Proof. induction l; intros [|n] b [|m] H; cbn; auto; try lia. Qed.
Lemma get_ok : forall s i x, get s i = Ok x <-> nth_error (schemas s) i = Some x.
Proof. intros; unfold get; destruct (nth_error (schemas s) i); split; congruence. Qed.

(* ---- specification ---- *)
(* the super-schema *)
Definition parent (s : st) (j : nat) : option nat := match nth_error (schemas s) j with Some x => s_super x | None => None end.
(* j is i, or below it *)
Inductive under (s : st) : nat -> nat -> Prop :=
| under_self i : i < length (schemas s) -> under s i i
| under_step j p i : parent s j = Some p -> under s p i -> under s j i.
Definition name_of (s : st) (i : nat) : option text := option_map s_name (nth_error (schemas s) i).

Record wf (s : st) : Prop := mkWf {
  wf_root : exists l f m d, nth_error (schemas s) 0 = Some (mkSchema (tx "Empty Record") None 0 l f m d);
  wf_super : forall i x, nth_error (schemas s) i = Some x -> i <> 0 ->
    s_name x <> tx "Empty Record" /\ exists j y, s_super x = Some j /\ j < i /\ nth_error (schemas s) j = Some y /\ s_level x = S (s_level y);
  wf_subs : forall i x j, nth_error (schemas s) i = Some x -> (In j (s_subs x) <-> parent s j = Some i);
  wf_sorted : forall i x, nth_error (schemas s) i = Some x -> StronglySorted lt (s_subs x);
  wf_reg : forall n i, tget (registry s) n = Some i <-> (i <> 0 /\ name_of s i = Some n);
  wf_keys : forall i x, nth_error (schemas s) i = Some x -> NoDup (map fst (s_fields x)) }.

Lemma parent_lt : forall s j p, wf s -> parent s j = Some p -> p < j /\ j < length (schemas s).
Proof.
  intros s j p W H. unfold parent in H. destruct (nth_error (schemas s) j) eqn:E; [|discriminate].
  split; [|apply nth_error_Some; congruence].
  destruct j. { destruct (wf_root s W) as (l & f & m & d & R). rewrite R in E. injection E as <-. discriminate. }
  destruct (wf_super s W _ _ E) as (_ & k & y & A & B & _); [lia|]. congruence.
Qed.
Lemma parent_some : forall s j, wf s -> j <> 0 -> j < length (schemas s) -> exists p, parent s j = Some p.
Proof.
  intros s j W N L. unfold parent. destruct (nth_error (schemas s) j) eqn:E; [|apply nth_error_None in E; lia].
  destruct (wf_super s W _ _ E N) as (_ & k & y & A & _). eauto.
Qed.
Lemma parent_root : forall s, wf s -> parent s 0 = None.
Proof. intros s W. unfold parent. destruct (wf_root s W) as (l & f & m & d & R). now rewrite R. Qed.
Lemma under_le : forall s j i, wf s -> under s j i -> i <= j /\ j < length (schemas s) /\ i < length (schemas s).
Proof. intros s j i W H. induction H; [lia|]. apply parent_lt in H; auto; lia. Qed.
Lemma under_trans : forall s k j i, under s k j -> under s j i -> under s k i.
Proof. intros s k j i H. induction H; eauto using under. Qed.
Lemma under_root : forall s i, wf s -> i < length (schemas s) -> under s i 0.
Proof.
  intros s i W. induction i as [i IH] using lt_wf_ind. intros L.
  destruct (Nat.eq_dec i 0) as [->|N]; [now constructor|].
  destruct (parent_some s i W N L) as (p & P). destruct (parent_lt s i p W P). eapply under_step; eauto. apply IH; lia.
Qed.
Lemma under_linear : forall s k a b, under s k a -> under s k b -> under s a b \/ under s b a.
Proof.
  intros s k a b H. induction H as [i L | j p i P H IH]; intros U; auto.
  inversion U as [i' L'|j' p' i' P' U']; subst.
  - right. eapply under_step; eauto.
  - apply IH. congruence.
Qed.
Lemma siblings_apart : forall s i a b k, wf s -> parent s a = Some i -> parent s b = Some i -> under s k a -> under s k b -> a = b.
Proof.
  assert (H : forall s i a b, wf s -> parent s a = Some i -> parent s b = Some i -> under s a b -> a = b).
  { intros s i a b W A B U. inversion U as [|j p i' P U']; subst; auto.
    rewrite A in P; injection P as <-. apply under_le in U'; auto. apply parent_lt in B; auto. lia. }
  intros s i a b k W A B Ua Ub. destruct (under_linear s k a b Ua Ub); [|symmetry]; eauto.
Qed.
Lemma under_child : forall s k i, wf s -> (under s k i <-> (k = i /\ i < length (schemas s)) \/ exists c, parent s c = Some i /\ under s k c).
Proof.
  intros s k i W; split.
  - intros H. induction H as [i L | j p i P H IH]; [left; auto|]. right.
    destruct IH as [[-> L] | (c & C & U)].
    + exists j. split; auto. constructor. now apply parent_lt in P.
    + exists c. split; auto. eapply under_step; eauto.
  - intros [[-> L] | (c & C & U)]; [now constructor|].
    eapply under_trans; eauto. eapply under_step; eauto. constructor. apply parent_lt in C; auto; lia.
Qed.

(* ---- going up ---- *)
Lemma name_root : forall s j y, wf s -> nth_error (schemas s) j = Some y -> text_eqb (s_name y) root_name = (j =? 0).
Proof.
  intros s j y W E. destruct j.
  - destruct (wf_root s W) as (l & f & m & d & R). rewrite R in E. injection E as <-. apply teqb_refl.
  - destruct (wf_super s W _ _ E) as (N & _); [lia|]. now apply teqb_neq.
Qed.
Lemma supers_step : forall f s i, wf s -> i <> 0 -> i < length (schemas s) -> exists p, parent s i = Some p /\ p < i /\
  supers (S f) s i = if p =? 0 then Ok [] else do r <- supers f s p ;; Ok (p :: r).
Proof.
  intros f s i W N L. destruct (parent_some s i W N L) as (p & P). exists p. destruct (parent_lt s i p W P). split; auto. split; auto.
  cbn [supers]. unfold parent in P. unfold get. destruct (nth_error (schemas s) i) as [x|] eqn:E; [|discriminate]. cbn [bind]. rewrite P.
  destruct (nth_error (schemas s) p) as [y|] eqn:Y; [|apply nth_error_None in Y; lia]. cbn [bind].
  rewrite (name_root s p y W Y). reflexivity.
Qed.
(* each is followed by its super-schema, the last one is just below the root *)
Inductive chain (s : st) : list nat -> Prop :=
| chain_last i : parent s i = Some 0 -> chain s [i]
| chain_more i j l : parent s i = Some j -> j <> 0 -> chain s (j :: l) -> chain s (i :: j :: l).
Lemma supers_chain : forall f s i, wf s -> i <> 0 -> i < length (schemas s) -> i <= f -> exists r, supers f s i = Ok r /\ chain s (i :: r).
Proof.
  induction f as [|f IH]; intros s i W N L F; [lia|].
  destruct (supers_step f s i W N L) as (p & P & Q & ->).
  destruct (Nat.eqb_spec p 0) as [->|Np]; [exists []; split; auto; now constructor|].
  destruct (IH s p W Np) as (r & -> & C); try lia. exists (p :: r). split; auto. now constructor.
Qed.
Lemma self_and_supers_chain : forall s i, wf s -> i <> 0 -> i < length (schemas s) -> exists r, self_and_supers s i = Ok (i :: r) /\ chain s (i :: r).
Proof.
  intros s i W N L. unfold self_and_supers. destruct (supers_chain (length (schemas s)) s i W N L) as (r & -> & C); [lia|]. exists r. auto.
Qed.
Lemma chain_under : forall s l, wf s -> chain s l -> forall i r, l = i :: r -> forall j, In j l <-> j <> 0 /\ under s i j.
Proof.
  intros s l W C. induction C as [i P | i j l P N C IH]; intros i0 r E k; injection E as <- <-.
  - destruct (parent_lt s i 0 W P) as (A & B). split.
    + intros [<-|[]]. split; [lia|now constructor].
    + intros (K & U). inversion U as [|j p i' P' U']; subst; [now left|]. rewrite P in P'. injection P' as <-.
      apply under_le in U'; auto. lia.
  - destruct (parent_lt s i j W P) as (A & B). specialize (IH j l eq_refl). split.
    + intros [<-|H]; [split; [lia|now constructor]|]. apply IH in H as (H1 & H2). split; auto. eapply under_step; eauto.
    + intros (K & U). inversion U as [|j' p i' P' U']; subst; [now left|]. rewrite P in P'. injection P' as <-. right. now apply IH.
Qed.

(* ---- going down ---- *)
Lemma flatM_ok : forall A B (f : A -> res (list B)) l, (forall a, In a l -> exists r, f a = Ok r) -> exists r, flatM f l = Ok r.
Proof.
  induction l as [|a l IH]; intros H; cbn; [eauto|]. destruct (H a (or_introl eq_refl)) as (x & ->). cbn.
  destruct IH as (y & ->); [firstorder|]. cbn. eauto.
Qed.
Lemma flatM_in : forall A B (f : A -> res (list B)) l r, flatM f l = Ok r -> forall b, In b r <-> exists a x, In a l /\ f a = Ok x /\ In b x.
Proof.
  induction l as [|a l IH]; intros r H b; cbn in H.
  - injection H as <-. split; [intros []| intros (? & ? & [] & _)].
  - apply bind_ok in H as (x & X & H). apply bind_ok in H as (y & Y & H). injection H as <-. rewrite in_app_iff, (IH y Y b). split.
    + intros [H|(a' & x' & I & E & H)]; [exists a, x|exists a', x']; split; auto; [now left|now right].
    + intros (a' & x' & [->|I] & E & H); [left; congruence|right; eauto].
Qed.
Lemma flatM_split : forall A B (f : A -> res (list B)) l1 a l2 r, flatM f (l1 ++ a :: l2) = Ok r ->
  exists r1 x r2, flatM f l1 = Ok r1 /\ f a = Ok x /\ flatM f l2 = Ok r2 /\ r = r1 ++ x ++ r2.
Proof.
  induction l1 as [|b l1 IH]; intros a l2 r H; cbn in H.
  - apply bind_ok in H as (x & X & H). apply bind_ok in H as (y & Y & H). injection H as <-. exists [], x, y. auto.
  - apply bind_ok in H as (x & X & H). apply bind_ok in H as (y & Y & H). injection H as <-.
    destruct (IH _ _ _ Y) as (r1 & x1 & r2 & A1 & A2 & A3 & ->). exists (x ++ r1), x1, r2. cbn. rewrite X, A1. cbn. rewrite <- app_assoc. auto.
Qed.
Lemma NoDup_app_intro : forall A (a b : list A), NoDup a -> NoDup b -> (forall x, In x a -> In x b -> False) -> NoDup (a ++ b).
Proof.
  induction a as [|x a IH]; intros b N M D; auto. inversion N; subst. cbn. constructor.
  - rewrite in_app_iff. intros [H|H]; [auto|]. eapply D; eauto. now left.
  - apply IH; auto. intros y Y1 Y2. eapply D; eauto. now right.
Qed.
Lemma sorted_nodup : forall l, StronglySorted lt l -> NoDup l.
Proof.
  induction l as [|a l IH]; intros H; constructor; inversion H; subst; auto. intros I. rewrite Forall_forall in H3. apply H3 in I. lia.
Qed.
Lemma subs_lt : forall s i x j, wf s -> nth_error (schemas s) i = Some x -> In j (s_subs x) -> parent s j = Some i /\ i < j /\ j < length (schemas s).
Proof. intros s i x j W E I. apply (wf_subs s W i x j E) in I. destruct (parent_lt s j i W I). auto. Qed.
Lemma nodup_flatM : forall A B (f : A -> res (list B)) l r, flatM f l = Ok r -> NoDup l -> (forall a x, In a l -> f a = Ok x -> NoDup x) ->
  (forall a b x y k, In a l -> In b l -> f a = Ok x -> f b = Ok y -> In k x -> In k y -> a = b) -> NoDup r.
Proof.
  induction l as [|a l IH]; intros r H N E D; cbn in H; [injection H as <-; constructor|].
  apply bind_ok in H as (x & X & H). apply bind_ok in H as (y & Y & H). injection H as <-. inversion N; subst.
  apply NoDup_app_intro.
  - eapply E; eauto. now left.
  - eapply IH; eauto. { intros; eapply E; eauto. now right. } intros; eapply D; eauto; now right.
  - intros k K1 K2. eapply flatM_in in K2; eauto. destruct K2 as (b & z & I & F & K2).
    assert (a = b) by (eapply (D a b); eauto; [now left|now right]). subst. contradiction.
Qed.
Definition earlier (s : st) (i : nat) (l : list nat) : Prop := forall l1 j l2, l = l1 ++ j :: l2 -> j <> i -> exists p, parent s j = Some p /\ In p l1.
Lemma flatM_at : forall A B (f : A -> res (list B)) l r l1 b l2, flatM f l = Ok r -> r = l1 ++ b :: l2 ->
  exists a x x1 x2 y, In a l /\ f a = Ok x /\ x = x1 ++ b :: x2 /\ l1 = y ++ x1.
Proof.
  induction l as [|a l IH]; intros r l1 b l2 H E; cbn in H.
  - injection H as <-. destruct l1; discriminate.
  - apply bind_ok in H as (x & X & H). apply bind_ok in H as (y & Y & H). injection H as <-.
    assert (K : (exists x2, x = l1 ++ b :: x2) \/ exists z, l1 = x ++ z /\ y = z ++ b :: l2).
    { clear - E. revert l1 E. induction x as [|c x IH]; intros l1 E; [right; exists l1; auto|].
      destruct l1 as [|d l1]; cbn in E; injection E as -> E; [left; eexists; reflexivity|].
      destruct (IH l1 E) as [(x2 & ->)|(z & -> & ->)]; [left; eexists; reflexivity|right; eexists; split; reflexivity]. }
    destruct K as [(x2 & ->)|(z & -> & ->)].
    + exists a, (l1 ++ b :: x2), l1, x2, []. cbn; auto.
    + destruct (IH _ z b l2 Y eq_refl) as (a' & x' & x1 & x2 & w & I & F & -> & ->).
      exists a', (x1 ++ b :: x2), x1, x2, (x ++ w). rewrite app_assoc. cbn; auto.
Qed.
Lemma preorder_spec : forall f s i, wf s -> i < length (schemas s) -> length (schemas s) <= f + i ->
  exists r, preorder f s i = Ok (i :: r) /\ NoDup (i :: r) /\ (forall k, In k (i :: r) <-> under s k i) /\ earlier s i (i :: r).
Proof.
  induction f as [|f IH]; intros s i W L F; [lia|].
  cbn [preorder]. destruct (nth_error (schemas s) i) as [x|] eqn:E; [|apply nth_error_None in E; lia].
  rewrite (proj2 (get_ok s i x) E). cbn [bind].
  assert (C : forall j, In j (s_subs x) -> exists r, preorder f s j = Ok (j :: r) /\ NoDup (j :: r) /\ (forall k, In k (j :: r) <-> under s k j) /\ earlier s j (j :: r)).
  { intros j J. destruct (subs_lt s i x j W E J) as (P & A & B). apply IH; auto; lia. }
  destruct (flatM_ok _ _ (preorder f s) (s_subs x)) as (r & R). { intros a I. destruct (C a I) as (q & Q & _). eauto. }
  rewrite R. cbn [bind]. exists r. split; auto.
  assert (U : forall k, In k r <-> exists c, parent s c = Some i /\ under s k c).
  { intros k. rewrite (flatM_in _ _ _ _ _ R k). split.
    - intros (a & q & I & Q & K). destruct (C a I) as (q' & Q' & _ & M & _). rewrite Q in Q'; injection Q' as ->.
      exists a. split; [now apply (wf_subs s W i x a E)|now apply M].
    - intros (c & P & K). apply (wf_subs s W i x c E) in P. destruct (C c P) as (q' & Q' & _ & M & _).
      exists c, (c :: q'). split; auto. split; auto. now apply M. }
  split; [|split].
  - constructor.
    + rewrite U. intros (c & P & K). apply under_le in K; auto. apply parent_lt in P; auto. lia.
    + eapply nodup_flatM; eauto.
      * eapply sorted_nodup, (wf_sorted s W); eauto.
      * intros a q I Q. destruct (C a I) as (q' & Q' & N & _). congruence.
      * intros a b q q1 k I J Q Q1 K K1. destruct (C a I) as (p1 & A1 & _ & M1 & _). destruct (C b J) as (p2 & A2 & _ & M2 & _).
        rewrite Q in A1. injection A1 as ->. rewrite Q1 in A2. injection A2 as ->. apply M1 in K. apply M2 in K1.
        apply (siblings_apart s i a b k W); auto; eapply wf_subs; eauto.
  - intros k. rewrite under_child by auto. cbn [In]. rewrite U. split; [intros [<-|H]; auto|]. intros [[-> _]|H]; auto.
  - intros l1 j l2 Q N. destruct l1 as [|c l1]; injection Q as -> Q; [congruence|].
    destruct (flatM_at _ _ _ _ _ l1 j l2 R Q) as (a & q & x1 & x2 & y & I & A & B & ->).
    destruct (C a I) as (q' & Q' & _ & _ & G). rewrite A in Q'. injection Q' as ->.
    destruct (Nat.eq_dec j a) as [->|Na].
    + exists c. split; [eapply wf_subs; eauto|now left].
    + destruct (G x1 j x2 B Na) as (p & P1 & P2). exists p. split; auto. right. apply in_or_app. now right.
Qed.
Lemma subtree_spec : forall s i, wf s -> i < length (schemas s) ->
  exists r, subtree s i = Ok (i :: r) /\ NoDup (i :: r) /\ (forall k, In k (i :: r) <-> under s k i) /\ earlier s i (i :: r).
Proof. intros s i W L. apply preorder_spec; auto; lia. Qed.

(* ---- depth ---- *)
Definition level_of (s : st) (i : nat) : nat := match nth_error (schemas s) i with Some x => s_level x | None => 0 end.
Lemma level_parent : forall s j p, wf s -> parent s j = Some p -> level_of s j = S (level_of s p).
Proof.
  intros s j p W P. destruct (parent_lt s j p W P) as (A & B). unfold parent, level_of in *. destruct (nth_error (schemas s) j) as [x|] eqn:E; [|discriminate].
  destruct (wf_super s W j x E) as (_ & k & y & K & _ & Y & L); [lia|]. rewrite P in K. injection K as <-. now rewrite Y.
Qed.
Lemma level_under : forall s k i, wf s -> under s k i -> level_of s i <= level_of s k.
Proof. intros s k i W U. induction U; auto. rewrite (level_parent s j p W H). lia. Qed.
Lemma depths_ok : forall f l, (forall a, In a l -> exists r, f a = Ok r) -> exists r, depths f l = Ok r.
Proof.
  induction l as [|a l IH]; intros H; cbn; [eauto|]. destruct (H a (or_introl eq_refl)) as (x & ->). cbn.
  destruct IH as (y & ->); [firstorder|]. cbn. eauto.
Qed.
Lemma depths_in : forall f l r, depths f l = Ok r -> forall d, In d r <-> exists a, In a l /\ f a = Ok d.
Proof.
  induction l as [|a l IH]; intros r H b; cbn in H.
  - injection H as <-. split; [intros []| intros (? & [] & _)].
  - apply bind_ok in H as (x & X & H). apply bind_ok in H as (y & Y & H). injection H as <-. cbn [In]. rewrite (IH y Y b). split.
    + intros [<-|(a' & I & E)]; [exists a|exists a']; split; auto.
    + intros (a' & [->|I] & E); [left; congruence|right; eauto].
Qed.
Lemma list_max_spec : forall l, l <> [] -> In (list_max l) l /\ forall x, In x l -> x <= list_max l.
Proof.
  induction l as [|a l IH]; intros N; [congruence|]. cbn [list_max fold_right]. fold (list_max l).
  destruct l as [|b l]; [cbn; split; [left; lia | intros x [->|[]]; lia]|].
  destruct IH as (I & M); [congruence|]. split.
  - destruct (Nat.max_spec a (list_max (b :: l))) as [(_ & ->)|(_ & ->)]; [now right|now left].
  - intros x [->|H]; [lia|]. apply M in H. lia.
Qed.
Lemma depth_spec : forall f s i, wf s -> i < length (schemas s) -> length (schemas s) <= f + i ->
  exists d, depth f s i = Ok (S d) /\ (exists k, under s k i /\ level_of s k = level_of s i + d) /\ forall k, under s k i -> level_of s k <= level_of s i + d.
Proof.
  induction f as [|f IH]; intros s i W L F; [lia|].
  cbn [depth]. destruct (nth_error (schemas s) i) as [x|] eqn:E; [|apply nth_error_None in E; lia].
  rewrite (proj2 (get_ok s i x) E). cbn [bind].
  assert (C : forall j, In j (s_subs x) -> exists d, depth f s j = Ok (S d) /\ (exists k, under s k j /\ level_of s k = level_of s j + d) /\ forall k, under s k j -> level_of s k <= level_of s j + d).
  { intros j J. destruct (subs_lt s i x j W E J) as (P & A & B). apply IH; auto; lia. }
  assert (S0 : forall k, under s k i -> k = i \/ exists c, In c (s_subs x) /\ under s k c).
  { intros k K. apply under_child in K; auto. destruct K as [[-> _]|(c & P & K)]; auto. right. exists c. split; auto. now apply (wf_subs s W i x c E). }
  destruct (s_subs x) as [|c0 cs] eqn:SX.
  - exists 0. split; auto. split; [exists i; split; [now constructor|lia]|]. intros k K. destruct (S0 k K) as [->|(c & [] & _)]. lia.
  - rewrite <- SX in *. destruct (depths_ok (depth f s) (s_subs x)) as (ds & D). { intros a I. destruct (C a I) as (q & Q & _). eauto. }
    rewrite D. cbn [bind]. exists (list_max ds). split; auto.
    destruct (list_max_spec ds) as (M1 & M2). { intros ->. rewrite SX in D. cbn in D. apply bind_ok in D as (? & _ & D). apply bind_ok in D as (? & _ & D). discriminate. }
    split.
    + apply (depths_in _ _ _ D) in M1 as (a & I & A). destruct (C a I) as (q & Q & (k & K1 & K2) & _). rewrite A in Q. injection Q as Q.
      destruct (subs_lt s i x a W E I) as (P & _). exists k. split; [apply under_child; eauto|]. rewrite K2, (level_parent s a i W P), Q. lia.
    + intros k K. destruct (S0 k K) as [->|(c & I & U)]; [lia|]. destruct (C c I) as (q & Q & _ & B). specialize (B k U).
      destruct (subs_lt s i x c W E I) as (P & _). rewrite (level_parent s c i W P) in B.
      assert (S q <= list_max ds) by (apply M2, (depths_in _ _ _ D); eauto). lia.
Qed.

(* ---- what each schema declares ---- *)
Definition field_decl (s : st) (i : nat) (f : text) (d : nat) : Prop := exists x, nth_error (schemas s) i = Some x /\ tget (s_fields x) f = Some d.
Definition method_decl (s : st) (i : nat) (f : text) (d : nat) : Prop := exists x, nth_error (schemas s) i = Some x /\ tget (s_methods x) f = Some d.
Definition method_defn (s : st) (i : nat) (f : text) (d : nat) : Prop := exists x, nth_error (schemas s) i = Some x /\ tget (s_defns x) f = Some d.
Definition decl (sel : schema -> list (text * nat)) (s : st) (i : nat) (f : text) (d : nat) : Prop := exists x, nth_error (schemas s) i = Some x /\ tget (sel x) f = Some d.

Lemma thas_true : forall A (d : list (text * A)) k, thas d k = true <-> exists v, tget d k = Some v.
Proof. intros; unfold thas; destruct (tget d k); split; eauto; try discriminate. intros (? & ?); discriminate. Qed.
Lemma declared_up_spec : forall sel n f s i, wf s -> i <> 0 -> i < length (schemas s) -> i <= f ->
  exists b, declared_up sel f s i n = Ok b /\ (b = true <-> exists j d, j <> 0 /\ under s i j /\ decl sel s j n d).
Proof.
  intros sel n. induction f as [|f IH]; intros s i W N L F; [lia|]. cbn [declared_up].
  destruct (parent_some s i W N L) as (p & P). destruct (parent_lt s i p W P) as (Q & _).
  destruct (nth_error (schemas s) i) as [x|] eqn:E; [|apply nth_error_None in E; lia].
  rewrite (proj2 (get_ok s i x) E). cbn [bind]. destruct (thas (sel x) n) eqn:T.
  - exists true. split; auto. split; auto. intros _. apply thas_true in T as (v & T). exists i, v. split; auto. split; [now constructor|]. exists x; auto.
  - assert (NI : forall d, ~ decl sel s i n d).
    { intros d (x' & X & D). rewrite E in X; injection X as <-. assert (thas (sel x) n = true) by (apply thas_true; eauto). congruence. }
    unfold parent in P. rewrite E in P. rewrite P.
    destruct (nth_error (schemas s) p) as [y|] eqn:Y; [|apply nth_error_None in Y; lia].
    rewrite (proj2 (get_ok s p y) Y). cbn [bind]. rewrite (name_root s p y W Y).
    assert (PA : parent s i = Some p) by (unfold parent; now rewrite E).
    destruct (Nat.eqb_spec p 0) as [->|Np].
    + exists false. split; auto. split; [discriminate|]. intros (j & d & J & U & D). exfalso.
      inversion U as [|j' p' i' P' U']; subst; [eapply NI; eauto|]. rewrite PA in P'. injection P' as <-. apply under_le in U'; auto. lia.
    + destruct (IH s p W Np) as (b & -> & B); try lia. exists b. split; auto. rewrite B. split.
      * intros (j & d & J & U & D). exists j, d. split; auto. split; auto. eapply under_step; eauto.
      * intros (j & d & J & U & D). inversion U as [|j' p' i' P' U']; subst; [exfalso; eapply NI; eauto|]. rewrite PA in P'. injection P' as <-. eauto.
Qed.

(* ---- changes that leave the hierarchy alone ---- *)
Definition alike (x y : schema) : Prop := s_name x = s_name y /\ s_super x = s_super y /\ s_level x = s_level y /\ s_subs x = s_subs y.
Definition same_tree (s s' : st) : Prop := registry s = registry s' /\ Forall2 alike (schemas s) (schemas s').
Lemma forall2_nth : forall A B (R : A -> B -> Prop) l l', Forall2 R l l' -> forall i x', nth_error l' i = Some x' -> exists x, nth_error l i = Some x /\ R x x'.
Proof. induction 1; intros [|i] z Z; cbn in *; try discriminate; [injection Z as <-; eauto|eauto]. Qed.
Lemma forall2_nth_l : forall A B (R : A -> B -> Prop) l l', Forall2 R l l' -> forall i x, nth_error l i = Some x -> exists x', nth_error l' i = Some x' /\ R x x'.
Proof. induction 1; intros [|i] z Z; cbn in *; try discriminate; [injection Z as <-; eauto|eauto]. Qed.
Lemma same_parent : forall s s' j, same_tree s s' -> parent s' j = parent s j.
Proof.
  intros s s' j (_ & F). unfold parent. destruct (nth_error (schemas s) j) as [x|] eqn:E.
  - destruct (forall2_nth_l _ _ _ _ _ F _ _ E) as (x' & -> & _ & A & _). auto.
  - destruct (nth_error (schemas s') j) as [x'|] eqn:E'; auto. destruct (forall2_nth _ _ _ _ _ F _ _ E') as (x & X & _). congruence.
Qed.
Lemma same_name : forall s s' j, same_tree s s' -> name_of s' j = name_of s j.
Proof.
  intros s s' j (_ & F). unfold name_of. destruct (nth_error (schemas s) j) as [x|] eqn:E.
  - destruct (forall2_nth_l _ _ _ _ _ F _ _ E) as (x' & -> & A & _). cbn. now rewrite A.
  - destruct (nth_error (schemas s') j) as [x'|] eqn:E'; auto. destruct (forall2_nth _ _ _ _ _ F _ _ E') as (x & X & _). congruence.
Qed.
Lemma same_length : forall s s', same_tree s s' -> length (schemas s') = length (schemas s).
Proof. intros s s' (_ & F). now rewrite (Forall2_length _ _ _ F). Qed.
Lemma under_incl : forall s s', length (schemas s) <= length (schemas s') -> (forall j p, parent s j = Some p -> parent s' j = Some p) -> forall j i, under s j i -> under s' j i.
Proof. intros s s' L P j i U. induction U; [constructor; lia|eapply under_step; eauto]. Qed.
Lemma same_under : forall s s', same_tree s s' -> forall j i, under s j i <-> under s' j i.
Proof.
  intros s s' T j i. split; apply under_incl; try (now rewrite (same_length s s' T)); intros; now rewrite <- H, (same_parent s s').
Qed.
Lemma same_wf : forall s s', wf s -> same_tree s s' -> (forall i x, nth_error (schemas s') i = Some x -> NoDup (map fst (s_fields x))) -> wf s'.
Proof.
  intros s s' W T K. pose proof T as (R & F). split; auto.
  - destruct (wf_root s W) as (l & f & m & d & Z). destruct (forall2_nth_l _ _ _ _ _ F _ _ Z) as (x' & Z' & A1 & A2 & A3 & A4).
    destruct x'; cbn in *; subst. eauto.
  - intros i x' E N. destruct (forall2_nth _ _ _ _ _ F _ _ E) as (x & X & A1 & A2 & A3 & A4).
    destruct (wf_super s W i x X N) as (B1 & j & y & B2 & B3 & B4 & B5). split; [congruence|].
    destruct (forall2_nth_l _ _ _ _ _ F _ _ B4) as (y' & Y & C1 & C2 & C3 & C4). exists j, y'. repeat split; auto; congruence.
  - intros i x' j E. destruct (forall2_nth _ _ _ _ _ F _ _ E) as (x & X & A1 & A2 & A3 & A4).
    rewrite (same_parent s s' j T), <- A4. now apply (wf_subs s W).
  - intros i x' E. destruct (forall2_nth _ _ _ _ _ F _ _ E) as (x & X & A1 & A2 & A3 & A4). rewrite <- A4. eapply (wf_sorted s W); eauto.
  - intros n i. rewrite <- R, (same_name s s' i T). apply (wf_reg s W).
Qed.
Lemma put_tree : forall s i x y, nth_error (schemas s) i = Some x -> alike x y -> same_tree s (put s i y).
Proof.
  intros s i x y E A. split; auto. cbn. revert i E. induction (schemas s) as [|z l IH]; intros [|i] E; cbn in *; try discriminate.
  - injection E as ->. constructor; auto. clear. induction l; constructor; auto. repeat split.
  - constructor; [repeat split|auto].
Qed.
Lemma put_nth : forall s i y j, i < length (schemas s) -> nth_error (schemas (put s i y)) j = if i =? j then Some y else nth_error (schemas s) j.
Proof. intros s i y j L. cbn. destruct (Nat.eqb_spec i j) as [->|N]; [now apply set_nth_eq|now apply set_nth_neq]. Qed.
Lemma put_decl : forall sel s i x y, nth_error (schemas s) i = Some x -> forall j f d,
  decl sel (put s i y) j f d <-> (j = i /\ tget (sel y) f = Some d) \/ (j <> i /\ decl sel s j f d).
Proof.
  intros sel s i x y E j f d. assert (L : i < length (schemas s)) by (apply nth_error_Some; congruence). unfold decl. rewrite put_nth by auto. destruct (Nat.eqb_spec i j) as [->|N].
  - split; [intros (z & Z & T); injection Z as <-; auto|]. intros [(_ & T)|(N & _)]; [eauto|congruence].
  - split; [intros (z & Z & T); right; split; eauto|]. intros [(M & _)|(_ & T)]; [congruence|auto].
Qed.
Lemma tset_keys : forall A (d : list (text * A)) k v, NoDup (map fst d) -> NoDup (map fst (tset d k v)) /\ forall k', In k' (map fst (tset d k v)) <-> k' = k \/ In k' (map fst d).
Proof.
  induction d as [|[k1 v1] d IH]; intros k v N; cbn.
  - split; [repeat constructor; intros []|]. intros k'. split; intros [H|[]]; auto.
  - inversion N as [|? ? NI N1]; subst. destruct (text_eqb k1 k) eqn:E; cbn.
    + apply text_eqb_eq in E; subst. split; auto. intros k'. split; intuition congruence.
    + destruct (IH k v N1) as (K1 & K2). split.
      * constructor; auto. intros H. apply K2 in H as [->|H]; [rewrite teqb_refl in E; discriminate|contradiction].
      * intros k'. rewrite K2. intuition congruence.
Qed.
Lemma tget_keys : forall A (d : list (text * A)) k, In k (map fst d) <-> exists v, tget d k = Some v.
Proof.
  induction d as [|[k1 v1] d IH]; intros k; cbn; [split; [intros []|intros (? & ?); discriminate]|].
  destruct (text_eqb k1 k) eqn:E.
  - apply text_eqb_eq in E; subst. split; eauto.
  - rewrite <- IH. split; [intros [->|H]; auto; rewrite teqb_refl in E; discriminate|auto].
Qed.

Lemma add_field_spec : forall s i f d, wf s -> i <> 0 -> i < length (schemas s) ->
  ((exists j e, j <> 0 /\ under s i j /\ field_decl s j f e) /\ add_field s i f d = Err AssertionError) \/
  (~ (exists j e, j <> 0 /\ under s i j /\ field_decl s j f e) /\ exists s', add_field s i f d = Ok s' /\ same_tree s s' /\ wf s' /\ warnings s' = warnings s /\
     (forall j g e, field_decl s' j g e <-> (j = i /\ g = f /\ e = d) \/ field_decl s j g e) /\
     (forall j g e, method_decl s' j g e <-> method_decl s j g e) /\ (forall j g e, method_defn s' j g e <-> method_defn s j g e)).
Proof.
  intros s i f d W N L. unfold add_field, somebody_declares_field.
  destruct (declared_up_spec s_fields f (length (schemas s)) s i W N L) as (b & -> & B); [lia|]. cbn [bind].
  destruct b; [left; split; [now apply B|reflexivity]|]. right. cbn [negb assert_ bind].
  assert (NB : ~ (exists j e, j <> 0 /\ under s i j /\ field_decl s j f e)) by (intros H; apply B in H; discriminate).
  split; auto. destruct (nth_error (schemas s) i) as [x|] eqn:E; [|apply nth_error_None in E; lia].
  rewrite (proj2 (get_ok s i x) E). cbn [bind]. eexists. split; [reflexivity|].
  set (y := mkSchema _ _ _ _ _ _ _). assert (T : same_tree s (put s i y)) by (eapply put_tree; eauto; repeat split). split; auto.
  assert (NX : forall e, tget (s_fields x) f <> Some e). { intros e H. apply NB. exists i, e. split; auto. split; [now constructor|exists x; auto]. }
  split; [|split; [reflexivity|]].
  - apply (same_wf s); auto. intros j z Z. rewrite put_nth in Z by auto. destruct (i =? j); [|eapply (wf_keys s W); eauto].
    injection Z as <-. cbn. apply tset_keys. eapply (wf_keys s W); eauto.
  - split; [|split].
    + intros j g e. eapply iff_trans; [exact (put_decl s_fields s i x y E j g e)|]. cbn [s_fields y]. unfold decl, field_decl. destruct (Nat.eq_dec j i) as [->|Nj].
      * rewrite E. split.
        -- intros [(_ & G)|(Q & _)]; [|congruence]. destruct (list_eq_dec N.eq_dec f g) as [->|Ng].
           ++ rewrite tget_tset_same in G. injection G as <-. left; auto.
           ++ rewrite tget_tset_other in G by auto. right; eauto.
        -- intros [(_ & -> & ->)|(x' & X & G)]; left; split; auto; [apply tget_tset_same|]. injection X as <-. rewrite tget_tset_other; auto.
           intros ->. eapply NX; eauto.
      * split; [intros [(Q & _)|(_ & G)]; [congruence|auto]|]. intros [(Q & _)|G]; [congruence|auto].
    + intros j g e. eapply iff_trans; [exact (put_decl s_methods s i x y E j g e)|]. cbn. unfold decl, method_decl. destruct (Nat.eq_dec j i) as [->|Nj].
      * rewrite E. split; [intros [(_ & G)|(Q & _)]; [eauto|congruence]|]. intros (x' & X & G). injection X as <-. auto.
      * split; [intros [(Q & _)|(_ & G)]; [congruence|auto]|]. auto.
    + intros j g e. eapply iff_trans; [exact (put_decl s_defns s i x y E j g e)|]. cbn. unfold decl, method_defn. destruct (Nat.eq_dec j i) as [->|Nj].
      * rewrite E. split; [intros [(_ & G)|(Q & _)]; [eauto|congruence]|]. intros (x' & X & G). injection X as <-. auto.
      * split; [intros [(Q & _)|(_ & G)]; [congruence|auto]|]. auto.
Qed.
Lemma add_method_spec : forall s i f d, wf s -> i <> 0 -> i < length (schemas s) ->
  ((exists j e, j <> 0 /\ under s i j /\ method_decl s j f e) /\ add_method s i f d = Err AssertionError) \/
  (~ (exists j e, j <> 0 /\ under s i j /\ method_decl s j f e) /\ exists s', add_method s i f d = Ok s' /\ same_tree s s' /\ wf s' /\ warnings s' = warnings s /\
     (forall j g e, method_decl s' j g e <-> (j = i /\ g = f /\ e = d) \/ method_decl s j g e) /\
     (forall j g e, field_decl s' j g e <-> field_decl s j g e) /\ (forall j g e, method_defn s' j g e <-> method_defn s j g e)).
Proof.
  intros s i f d W N L. unfold add_method, somebody_declares_method.
  destruct (declared_up_spec s_methods f (length (schemas s)) s i W N L) as (b & -> & B); [lia|]. cbn [bind].
  destruct b; [left; split; [now apply B|reflexivity]|]. right. cbn [negb assert_ bind].
  assert (NB : ~ (exists j e, j <> 0 /\ under s i j /\ method_decl s j f e)) by (intros H; apply B in H; discriminate).
  split; auto. destruct (nth_error (schemas s) i) as [x|] eqn:E; [|apply nth_error_None in E; lia].
  rewrite (proj2 (get_ok s i x) E). cbn [bind]. eexists. split; [reflexivity|].
  set (y := mkSchema _ _ _ _ _ _ _). assert (T : same_tree s (put s i y)) by (eapply put_tree; eauto; repeat split). split; auto.
  assert (NX : forall e, tget (s_methods x) f <> Some e). { intros e H. apply NB. exists i, e. split; auto. split; [now constructor|exists x; auto]. }
  split; [|split; [reflexivity|]].
  - apply (same_wf s); auto. intros j z Z. rewrite put_nth in Z by auto. destruct (i =? j); [|eapply (wf_keys s W); eauto].
    injection Z as <-. cbn. eapply (wf_keys s W); eauto.
  - split; [|split].
    + intros j g e. eapply iff_trans; [exact (put_decl s_methods s i x y E j g e)|]. cbn [s_methods y]. unfold decl, method_decl. destruct (Nat.eq_dec j i) as [->|Nj].
      * rewrite E. split.
        -- intros [(_ & G)|(Q & _)]; [|congruence]. destruct (list_eq_dec N.eq_dec f g) as [->|Ng].
           ++ rewrite tget_tset_same in G. injection G as <-. left; auto.
           ++ rewrite tget_tset_other in G by auto. right; eauto.
        -- intros [(_ & -> & ->)|(x' & X & G)]; left; split; auto; [apply tget_tset_same|]. injection X as <-. rewrite tget_tset_other; auto.
           intros ->. eapply NX; eauto.
      * split; [intros [(Q & _)|(_ & G)]; [congruence|auto]|]. intros [(Q & _)|G]; [congruence|auto].
    + intros j g e. eapply iff_trans; [exact (put_decl s_fields s i x y E j g e)|]. cbn. unfold decl, field_decl. destruct (Nat.eq_dec j i) as [->|Nj].
      * rewrite E. split; [intros [(_ & G)|(Q & _)]; [eauto|congruence]|]. intros (x' & X & G). injection X as <-. auto.
      * split; [intros [(Q & _)|(_ & G)]; [congruence|auto]|]. auto.
    + intros j g e. eapply iff_trans; [exact (put_decl s_defns s i x y E j g e)|]. cbn. unfold decl, method_defn. destruct (Nat.eq_dec j i) as [->|Nj].
      * rewrite E. split; [intros [(_ & G)|(Q & _)]; [eauto|congruence]|]. intros (x' & X & G). injection X as <-. auto.
      * split; [intros [(Q & _)|(_ & G)]; [congruence|auto]|]. auto.
Qed.
Lemma add_defn_spec : forall s i f d, wf s -> i <> 0 -> i < length (schemas s) ->
  ((exists e, method_defn s i f e) /\ add_defn s i f d = Err AssertionError) \/
  (~ (exists e, method_defn s i f e) /\ exists s', add_defn s i f d = Ok s' /\ same_tree s s' /\ wf s' /\
     ((exists j e, j <> 0 /\ under s i j /\ method_decl s j f e) /\ warnings s' = warnings s \/
      ~ (exists j e, j <> 0 /\ under s i j /\ method_decl s j f e) /\ warnings s' = warnings s ++ [(i, f)]) /\
     (forall j g e, method_defn s' j g e <-> (j = i /\ g = f /\ e = d) \/ method_defn s j g e) /\
     (forall j g e, field_decl s' j g e <-> field_decl s j g e) /\ (forall j g e, method_decl s' j g e <-> method_decl s j g e)).
Proof.
  intros s i f d W N L. unfold add_defn, somebody_declares_method.
  destruct (declared_up_spec s_methods f (length (schemas s)) s i W N L) as (b & -> & B); [lia|]. cbn [bind].
  destruct (nth_error (schemas s) i) as [x|] eqn:E; [|apply nth_error_None in E; lia].
  set (s1 := if b then s else _). assert (S1 : schemas s1 = schemas s /\ registry s1 = registry s) by (unfold s1; destruct b; auto). destruct S1 as (S1 & S2).
  assert (G1 : get s1 i = Ok x) by (apply get_ok; now rewrite S1). rewrite G1. cbn [bind].
  destruct (thas (s_defns x) f) eqn:T.
  { left. split; auto. apply thas_true in T as (v & T). exists v, x. auto. }
  right. cbn [negb assert_ bind].
  assert (NX : forall e, tget (s_defns x) f <> Some e). { intros e H. assert (thas (s_defns x) f = true) by (apply thas_true; eauto). congruence. }
  split. { intros (e & x' & X & H). rewrite E in X. injection X as <-. eapply NX; eauto. }
  eexists. split; [reflexivity|].
  set (y := mkSchema _ _ _ _ _ _ _). assert (L1 : i < length (schemas s1)) by now rewrite S1. assert (E1 : nth_error (schemas s1) i = Some x) by now rewrite S1.
  assert (T1 : same_tree s1 (put s1 i y)) by (eapply put_tree; eauto; repeat split).
  assert (T2 : same_tree s (put s1 i y)). { destruct T1 as (A1 & A2). split; [now rewrite <- S2|now rewrite <- S1]. }
  split; auto. split.
  - apply (same_wf s); auto. intros j z Z. rewrite put_nth in Z by auto. rewrite S1 in Z. destruct (i =? j); [|eapply (wf_keys s W); eauto].
    injection Z as <-. cbn. eapply (wf_keys s W); eauto.
  - split.
    { unfold s1. cbn [put warnings]. destruct b; [left|right]; split; auto. { now apply B. } intros H. apply B in H. discriminate. }
    split; [|split].
    + intros j g e. eapply iff_trans; [exact (put_decl s_defns s1 i x y E1 j g e)|]. cbn [s_defns y]. unfold decl, method_defn. rewrite S1. destruct (Nat.eq_dec j i) as [->|Nj].
      * rewrite E. split.
        -- intros [(_ & G)|(Q & _)]; [|congruence]. destruct (list_eq_dec N.eq_dec f g) as [->|Ng].
           ++ rewrite tget_tset_same in G. injection G as <-. left; auto.
           ++ rewrite tget_tset_other in G by auto. right; eauto.
        -- intros [(_ & -> & ->)|(x' & X & G)]; left; split; auto; [apply tget_tset_same|]. injection X as <-. rewrite tget_tset_other; auto.
           intros ->. eapply NX; eauto.
      * split; [intros [(Q & _)|(_ & G)]; [congruence|auto]|]. intros [(Q & _)|G]; [congruence|auto].
    + intros j g e. eapply iff_trans; [exact (put_decl s_fields s1 i x y E1 j g e)|]. cbn [s_fields y]. unfold decl, field_decl. rewrite S1. destruct (Nat.eq_dec j i) as [->|Nj].
      * rewrite E. split; [intros [(_ & G)|(Q & _)]; [eauto|congruence]|]. intros (x' & X & G). injection X as <-. auto.
      * split; [intros [(Q & _)|(_ & G)]; [congruence|auto]|]. auto.
    + intros j g e. eapply iff_trans; [exact (put_decl s_methods s1 i x y E1 j g e)|]. cbn [s_methods y]. unfold decl, method_decl. rewrite S1. destruct (Nat.eq_dec j i) as [->|Nj].
      * rewrite E. split; [intros [(_ & G)|(Q & _)]; [eauto|congruence]|]. intros (x' & X & G). injection X as <-. auto.
      * split; [intros [(Q & _)|(_ & G)]; [congruence|auto]|]. auto.
Qed.

(* ---- a new schema ---- *)
(* what is kept of the schemas that are there already: all but the list of sub-schemas *)
Definition kept (x y : schema) : Prop :=
  s_name x = s_name y /\ s_super x = s_super y /\ s_level x = s_level y /\ s_fields x = s_fields y /\ s_methods x = s_methods y /\ s_defns x = s_defns y.
Definition extends (s s' : st) : Prop := forall i x, nth_error (schemas s) i = Some x -> exists x', nth_error (schemas s') i = Some x' /\ kept x x'.
Lemma kept_refl : forall x, kept x x. Proof. repeat split. Qed.
Lemma extends_refl : forall s, extends s s. Proof. intros s i x E. exists x. split; auto. apply kept_refl. Qed.
Lemma extends_trans : forall a b c, extends a b -> extends b c -> extends a c.
Proof.
  intros a b c H K i x E. destruct (H i x E) as (y & Y & A). destruct (K i y Y) as (z & Z & B). exists z. split; auto.
  unfold kept in *. intuition congruence.
Qed.
Lemma extends_name : forall s s' i n, extends s s' -> name_of s i = Some n -> name_of s' i = Some n.
Proof.
  unfold name_of. intros s s' i n H E. destruct (nth_error (schemas s) i) as [x|] eqn:X; [|discriminate].
  destruct (H i x X) as (x' & -> & A & _). cbn in *. congruence.
Qed.
Lemma extends_parent : forall s s' i p, extends s s' -> parent s i = Some p -> parent s' i = Some p.
Proof.
  unfold parent. intros s s' i n H E. destruct (nth_error (schemas s) i) as [x|] eqn:X; [|discriminate].
  destruct (H i x X) as (x' & -> & _ & A & _). cbn in *. congruence.
Qed.
Lemma extends_length : forall s s', extends s s' -> length (schemas s) <= length (schemas s').
Proof.
  intros s s' H. destruct (le_lt_dec (length (schemas s)) (length (schemas s'))) as [|L]; auto.
  destruct (nth_error (schemas s) (length (schemas s'))) as [x|] eqn:X; [|apply nth_error_None in X; lia].
  destruct (H _ _ X) as (x' & E & _). assert (nth_error (schemas s') (length (schemas s')) <> None) by congruence.
  apply nth_error_Some in H0. lia.
Qed.
Lemma snoc_sorted : forall l n, StronglySorted lt l -> (forall x, In x l -> x < n) -> StronglySorted lt (l ++ [n]).
Proof.
  induction l as [|a l IH]; intros n S H; cbn; [repeat constructor|]. inversion S; subst. constructor.
  - apply IH; auto. intros; apply H; now right.
  - apply Forall_app. split; auto. repeat constructor. apply H. now left.
Qed.
Lemma attach_spec : forall s n j, wf s -> j < length (schemas s) -> tget (registry s) n = None -> n <> tx "Empty Record" ->
  exists s', attach s n j = Ok (length (schemas s), s') /\ wf s' /\ extends s s' /\ length (schemas s') = S (length (schemas s)) /\
    name_of s' (length (schemas s)) = Some n /\ parent s' (length (schemas s)) = Some j /\
    registry s' = tset (registry s) n (length (schemas s)) /\ warnings s' = warnings s /\
    (exists x, nth_error (schemas s') (length (schemas s)) = Some x /\ s_fields x = [] /\ s_methods x = [] /\ s_defns x = []).
Proof.
  intros s n j W L F NR. unfold attach. destruct (nth_error (schemas s) j) as [p|] eqn:E; [|apply nth_error_None in E; lia].
  rewrite (proj2 (get_ok s j p) E). cbn [bind]. eexists. split; [reflexivity|].
  set (len := length (schemas s)) in *.
  set (p' := mkSchema _ _ _ (s_subs p ++ _) _ _ _). set (x := mkSchema n _ _ _ _ _ _). set (s' := mkSt _ _ _).
  assert (SL : length (schemas s') = S len). { cbn [schemas s']. rewrite app_length, set_nth_length. cbn. lia. }
  assert (NL : nth_error (schemas s') len = Some x).
  { cbn [schemas s']. rewrite nth_error_app2; rewrite set_nth_length; [|lia]. now rewrite Nat.sub_diag. }
  assert (NJ : nth_error (schemas s') j = Some p').
  { cbn [schemas s']. rewrite nth_error_app1; [|now rewrite set_nth_length]. now apply set_nth_eq. }
  assert (NO : forall k, k <> len -> k <> j -> nth_error (schemas s') k = nth_error (schemas s) k).
  { intros k K1 K2. destruct (le_lt_dec len k) as [G|G].
    - rewrite (proj2 (nth_error_None _ _)), (proj2 (nth_error_None _ _)); auto; fold len; lia.
    - cbn [schemas s']. rewrite nth_error_app1; [|now rewrite set_nth_length]. apply set_nth_neq; auto. }
  assert (EX : extends s s').
  { intros i y Y. destruct (Nat.eq_dec i j) as [->|Nj].
    - rewrite E in Y. injection Y as <-. exists p'. split; auto. repeat split.
    - exists y. split; [|apply kept_refl]. rewrite NO; auto. assert (i < len) by (apply nth_error_Some; congruence). lia. }
  assert (PL : parent s' len = Some j) by (unfold parent; now rewrite NL).
  assert (PO : forall k, k <> len -> parent s' k = parent s k).
  { intros k K. unfold parent. destruct (Nat.eq_dec k j) as [->|Nj]; [rewrite NJ, E; reflexivity|now rewrite NO]. }
  assert (NMO : forall k, k <> len -> name_of s' k = name_of s k).
  { intros k K. unfold name_of. destruct (Nat.eq_dec k j) as [->|Nj]; [rewrite NJ, E; reflexivity|now rewrite NO]. }
  assert (NML : name_of s' len = Some n) by (unfold name_of; now rewrite NL).
  assert (NN : nth_error (schemas s) len = None) by (apply nth_error_None; unfold len; lia).
  assert (PN : parent s len = None) by (unfold parent; now rewrite NN).
  repeat split; auto.
  - destruct (wf_root s W) as (l & f & m & d & R). destruct (Nat.eq_dec j 0) as [->|Nj].
    + rewrite R in E. injection E as <-. rewrite NJ. unfold p'. cbn. eauto.
    + exists l, f, m, d. rewrite NO; auto. lia.
  - intros C. destruct (Nat.eq_dec i len) as [->|Ni]; [rewrite NL in H; injection H as <-; exact (NR C)|].
    destruct (Nat.eq_dec i j) as [->|Nj].
    + rewrite NJ in H. injection H as <-. now destruct (wf_super s W j p E H0).
    + rewrite NO in H by auto. now destruct (wf_super s W i x0 H H0).
  - destruct (Nat.eq_dec i len) as [->|Ni].
    { rewrite NL in H. injection H as <-. exists j, p'. cbn. repeat split; auto. }
    assert (G : exists z, nth_error (schemas s) i = Some z /\ s_super x0 = s_super z /\ s_level x0 = s_level z).
    { destruct (Nat.eq_dec i j) as [->|Nj]; [rewrite NJ in H; injection H as <-; exists p; auto|rewrite NO in H by auto; eauto]. }
    destruct G as (z & Z1 & Z2 & Z3). destruct (wf_super s W i z Z1 H0) as (_ & k & y & A1 & A2 & A3 & A4).
    destruct (EX k y A3) as (y' & Y1 & Y2). exists k, y'. unfold kept in Y2. repeat split; auto; try congruence. destruct Y2 as (_ & _ & Y2 & _). congruence.
  - intros I. destruct (Nat.eq_dec j0 len) as [->|Nk].
    + destruct (Nat.eq_dec i len) as [->|Ni]; [rewrite NL in H; injection H as <-; destruct I|].
      destruct (Nat.eq_dec i j) as [->|Nj]; auto. rewrite NO in H by auto. apply (wf_subs s W i x0 len H) in I. congruence.
    + rewrite PO by auto. destruct (Nat.eq_dec i len) as [->|Ni]; [rewrite NL in H; injection H as <-; destruct I|].
      destruct (Nat.eq_dec i j) as [->|Nj].
      * rewrite NJ in H. injection H as <-. cbn in I. apply in_app_or in I as [I|[I|[]]]; [now apply (wf_subs s W j p _ E)|congruence].
      * rewrite NO in H by auto. now apply (wf_subs s W i x0 _ H).
  - intros P. destruct (Nat.eq_dec j0 len) as [->|Nk].
    + rewrite PL in P. injection P as <-. rewrite NJ in H. injection H as <-. cbn. apply in_or_app. right. now left.
    + rewrite PO in P by auto. destruct (Nat.eq_dec i len) as [->|Ni].
      { apply parent_lt in P; auto. fold len in P. lia. }
      destruct (Nat.eq_dec i j) as [->|Nj].
      * rewrite NJ in H. injection H as <-. cbn. apply in_or_app. left. now apply (wf_subs s W j p _ E).
      * rewrite NO in H by auto. now apply (wf_subs s W i x0 _ H).
  - intros i y H. destruct (Nat.eq_dec i len) as [->|Ni]; [rewrite NL in H; injection H as <-; constructor|].
    destruct (Nat.eq_dec i j) as [->|Nj].
    + rewrite NJ in H. injection H as <-. cbn. apply snoc_sorted; [eapply (wf_sorted s W); eauto|].
      intros k K. apply (wf_subs s W j p _ E) in K. apply parent_lt in K; auto. fold len in K. lia.
    + rewrite NO in H by auto. eapply (wf_sorted s W); eauto.
  - cbn [registry s'] in H. destruct (list_eq_dec N.eq_dec n n0) as [->|Nn].
    + rewrite tget_tset_same in H. injection H as <-. lia.
    + rewrite tget_tset_other in H by auto. now apply (wf_reg s W) in H.
  - cbn [registry s'] in H. destruct (list_eq_dec N.eq_dec n n0) as [->|Nn].
    + rewrite tget_tset_same in H. injection H as <-. auto.
    + rewrite tget_tset_other in H by auto. apply (wf_reg s W) in H as (A & B). rewrite NMO; auto.
      intros ->. unfold name_of in B. now rewrite NN in B.
  - intros (A & B). cbn [registry s']. destruct (Nat.eq_dec i len) as [->|Ni].
    + rewrite NML in B. injection B as <-. apply tget_tset_same.
    + rewrite NMO in B by auto. rewrite tget_tset_other; [now apply (wf_reg s W)|]. intros ->.
      assert (tget (registry s) n0 = Some i) by now apply (wf_reg s W). congruence.
  - intros i y H. destruct (Nat.eq_dec i len) as [->|Ni]; [rewrite NL in H; injection H as <-; constructor|].
    destruct (Nat.eq_dec i j) as [->|Nj].
    + rewrite NJ in H. injection H as <-. cbn. eapply (wf_keys s W); eauto.
    + rewrite NO in H by auto. eapply (wf_keys s W); eauto.
  - exists x. auto.
Qed.

(* ---- the table of super-schemas, written down again ---- *)
Definition spec_table : list (text * list text) := [
  (tx "Environment Record", [tx "Declarative Environment Record"; tx "Object Environment Record"; tx "Global Environment Record"]);
  (tx "Declarative Environment Record", [tx "Function Environment Record"; tx "Module Environment Record"]);
  (tx "Module Record", [tx "Synthetic Module Record"; tx "Cyclic Module Record"]);
  (tx "Cyclic Module Record", [tx "Source Text Module Record"]) ].
Definition listed (n m : text) : Prop := exists l, In (m, l) spec_table /\ In n l.
(* the schemas made by calling the constructor, with their super-schemas, come first; a schema that is not in the table is put under the root *)
Definition super_in (cs : list (text * text)) (n m : text) : Prop :=
  In (n, m) cs \/ (~ In n (map fst cs) /\ (listed n m \/ ((forall k, ~ listed n k) /\ m = tx "Empty Record"))).

Lemma listed_iff : forall n m, listed n m <-> tget sub_to_super n = Some m.
Proof.
  intros n m. split.
  - intros (l & I & J). cbn [In spec_table] in I.
    repeat (destruct I as [I|I]; [injection I as <- <-; cbn [In] in J; repeat (destruct J as [<-|J]; [reflexivity|]); destruct J|]). destruct I.
  - intros H. unfold sub_to_super in H. cbn [tget] in H.
    repeat match type of H with (if text_eqb ?a n then _ else _) = _ => let Q := fresh in destruct (text_eqb a n) eqn:Q; [apply text_eqb_eq in Q; subst n; injection H as <-|clear Q] end; try discriminate;
    unfold listed, spec_table; eexists; (split; [repeat (first [left; reflexivity|right])|]); repeat (first [left; reflexivity|right]).
Qed.
Definition rank (n : text) : nat :=
  match tget [(tx "Empty Record", 0); (tx "Declarative Environment Record", 2); (tx "Object Environment Record", 2); (tx "Global Environment Record", 2);
     (tx "Function Environment Record", 3); (tx "Module Environment Record", 3); (tx "Synthetic Module Record", 2); (tx "Cyclic Module Record", 2); (tx "Source Text Module Record", 3)] n with
  | Some r => r | None => 1 end.
Lemma rank_listed : forall n m, listed n m -> rank m < rank n.
Proof.
  intros n m (l & I & J). cbn [In spec_table] in I.
  repeat (destruct I as [I|I]; [injection I as <- <-; cbn [In] in J; repeat (destruct J as [<-|J]; [vm_compute; lia|]); destruct J|]). destruct I.
Qed.
Lemma rank_pos : forall n, n <> tx "Empty Record" -> 0 < rank n.
Proof.
  intros n N. unfold rank. cbn [tget]. rewrite teqb_neq by congruence.
  repeat match goal with |- context [text_eqb ?a n] => destruct (text_eqb a n); [lia|] end. lia.
Qed.
Lemma rank_max : forall n, rank n <= 3.
Proof. intros n. unfold rank. cbn [tget]. repeat match goal with |- context [text_eqb ?a n] => destruct (text_eqb a n); [lia|] end. lia. Qed.

Definition registered (s : st) (n : text) : Prop := exists i, i <> 0 /\ name_of s i = Some n.
(* the name of the super-schema of the schema of that name *)
Definition super_name (s : st) (n m : text) : Prop := exists i j, i <> 0 /\ name_of s i = Some n /\ parent s i = Some j /\ name_of s j = Some m.
(* every super-schema is as written in the table, or as given to the constructor *)
Definition agrees (cs : list (text * text)) (s : st) : Prop := forall n m, super_name s n m -> super_in cs n m.
(* the name and those above it *)
Inductive above (cs : list (text * text)) : text -> text -> Prop :=
| above_self n : above cs n n
| above_more n m k : n <> tx "Empty Record" -> super_in cs n m -> above cs m k -> above cs n k.

Lemma above_root : forall cs k, above cs (tx "Empty Record") k -> k = tx "Empty Record".
Proof. intros cs k H. remember (tx "Empty Record") as r eqn:R. destruct H; [reflexivity|exfalso; auto]. Qed.
Lemma reg_some : forall s n, wf s -> (registered s n <-> exists i, tget (registry s) n = Some i).
Proof. intros s n W. unfold registered. split; intros (i & H); exists i; now apply (wf_reg s W). Qed.
Lemma reg_root : forall s, wf s -> tget (registry s) (tx "Empty Record") = None.
Proof.
  intros s W. destruct (tget (registry s) (tx "Empty Record")) as [i|] eqn:E; auto. apply (wf_reg s W) in E as (A & B).
  unfold name_of in B. destruct (nth_error (schemas s) i) as [x|] eqn:X; [|discriminate]. injection B as B.
  destruct (wf_super s W i x X A) as (C & _). contradiction.
Qed.
Lemma name_root0 : forall s, wf s -> name_of s 0 = Some (tx "Empty Record").
Proof. intros s W. destruct (wf_root s W) as (l & f & m & d & R). unfold name_of. now rewrite R. Qed.
Lemma name_lt : forall s i n, name_of s i = Some n -> i < length (schemas s).
Proof. intros s i n H. unfold name_of in H. destruct (nth_error (schemas s) i) eqn:E; [|discriminate]. apply nth_error_Some. congruence. Qed.
Lemma name_some : forall s i, i < length (schemas s) -> exists n, name_of s i = Some n.
Proof. intros s i L. unfold name_of. destruct (nth_error (schemas s) i) eqn:E; [cbn; eauto|apply nth_error_None in E; lia]. Qed.
Lemma name_inj : forall s i j n, wf s -> name_of s i = Some n -> name_of s j = Some n -> i = j.
Proof.
  assert (Z : forall s j, wf s -> name_of s 0 = name_of s j -> j = 0).
  { intros s j W E. destruct (Nat.eq_dec j 0) as [|N]; auto. exfalso. rewrite name_root0 in E by auto.
    assert (tget (registry s) (tx "Empty Record") = Some j) by (apply (wf_reg s W); auto). rewrite reg_root in H; auto. discriminate. }
  intros s i j n W A B. destruct (Nat.eq_dec i 0) as [->|Ni]; [symmetry; apply (Z s j W); congruence|].
  destruct (Nat.eq_dec j 0) as [->|Nj]; [apply (Z s i W); congruence|].
  assert (tget (registry s) n = Some i) by (apply (wf_reg s W); auto). assert (tget (registry s) n = Some j) by (apply (wf_reg s W); auto). congruence.
Qed.
Lemma reg_not_root : forall s n, wf s -> registered s n -> n <> tx "Empty Record".
Proof. intros s n W H ->. apply reg_some in H as (i & H); auto. rewrite reg_root in H; auto. discriminate. Qed.
Lemma super_in_fun : forall cs n m k, NoDup (map fst cs) -> super_in cs n m -> super_in cs n k -> m = k.
Proof.
  intros cs n m k N A B. assert (F : forall a b, In (n, a) cs -> In (n, b) cs -> a = b).
  { clear A B. induction cs as [|[c d] cs IH]; intros a b A B; [destruct A|]. inversion N; subst. destruct A as [A|A], B as [B|B]; try congruence; [| |eauto];
    exfalso; [injection A as -> ->|injection B as -> ->]; apply H1; apply in_map_iff; [exists (n, b)|exists (n, a)]; auto. }
  assert (I : forall a, In (n, a) cs -> In n (map fst cs)) by (intros a H; apply in_map_iff; exists (n, a); auto).
  destruct A as [A|(A & A')], B as [B|(B & B')]; eauto; try (exfalso; eauto; fail).
  destruct A' as [A'|(A' & ->)], B' as [B'|(B' & ->)]; auto; try (exfalso; eapply A'; eauto; fail); try (exfalso; eapply B'; eauto; fail).
  apply listed_iff in A'. apply listed_iff in B'. congruence.
Qed.

(* the names and their super-schemas are never changed by ensure, and what is added are the names above the given one *)
Lemma ensure_spec : forall cs f s n, wf s -> agrees cs s -> (forall m, In m (map fst cs) -> registered s m) -> NoDup (map fst cs) -> rank n < f ->
  exists i s', ensure f s n = Ok (i, s') /\ wf s' /\ agrees cs s' /\ extends s s' /\ name_of s' i = Some n /\ warnings s' = warnings s /\
    (forall m, registered s' m <-> registered s m \/ (m <> tx "Empty Record" /\ above cs n m)) /\
    (forall j g e, (field_decl s' j g e <-> field_decl s j g e) /\ (method_decl s' j g e <-> method_decl s j g e) /\ (method_defn s' j g e <-> method_defn s j g e)).
Proof.
  intros cs. induction f as [|f IH]; intros s n W G C ND R; [lia|]. cbn [ensure].
  destruct (tget (registry s) n) as [i|] eqn:E.
  { pose proof E as E'. apply (wf_reg s W) in E as (A & B). exists i, s. split; [reflexivity|]. split; [exact W|]. split; [exact G|]. split; [apply extends_refl|]. split; [exact B|]. split; [reflexivity|]. split; [|intros; tauto].
    intros m. split; [auto|]. intros [H|(N & H)]; auto. revert N. assert (RN : registered s n) by (exists i; auto). clear - W G ND RN H.
    induction H as [n | n m k NR S H IHa]; intros N; auto.
    destruct RN as (i & A & B). destruct (parent_some s i W A (name_lt _ _ _ B)) as (p & P). destruct (parent_lt s i p W P) as (L1 & L2).
    destruct (name_some s p) as (q & Q); [lia|]. assert (SU : super_in cs n q) by (apply G; exists i, p; auto).
    rewrite (super_in_fun cs n m q ND S SU) in *. destruct (Nat.eq_dec p 0) as [->|Np].
    - rewrite name_root0 in Q by auto. injection Q as <-. apply above_root in H. contradiction.
    - apply IHa; auto. exists p; auto. }
  destruct (text_eqb n root_name) eqn:ER.
  { apply text_eqb_eq in ER. subst n. exists 0, s. split; [reflexivity|]. split; [exact W|]. split; [exact G|]. split; [apply extends_refl|]. split; [now apply name_root0|]. split; [reflexivity|]. split; [|intros; tauto].
    intros m. split; [auto|]. intros [H|(N & H)]; auto. apply above_root in H. contradiction. }
  assert (NR : n <> tx "Empty Record") by (intros ->; rewrite teqb_refl in ER; discriminate).
  set (m := match tget sub_to_super n with Some k => k | None => root_name end).
  assert (NC : ~ In n (map fst cs)). { intros H. apply C in H. apply reg_some in H as (i & H); auto. congruence. }
  assert (SM : super_in cs n m /\ rank m < rank n).
  { unfold m. destruct (tget sub_to_super n) as [k|] eqn:T.
    - apply listed_iff in T. split; [right; auto|now apply rank_listed].
    - split; [right; split; auto; right; split; auto; intros k K; apply listed_iff in K; congruence|]. apply rank_pos in NR. apply NR. }
  destruct SM as (SM & RM). destruct (IH s m W G C ND) as (j & s1 & -> & W1 & G1 & X1 & N1 & WA & R1 & D1); [lia|]. cbn [bind].
  assert (F1 : tget (registry s1) n = None).
  { destruct (tget (registry s1) n) as [i|] eqn:T; auto. exfalso. assert (registered s1 n) by (apply reg_some; eauto). apply R1 in H as [H|(_ & H)].
    - apply reg_some in H as (i' & H); auto. congruence.
    - assert (above_rank : forall a b, above cs a b -> a = b \/ exists c, In c (map fst cs) /\ above cs c b \/ rank b < rank a).
      { clear - ND C W. intros a b H. induction H as [|a b c Na S H IHa]; auto. right.
        destruct S as [S|(S & [S1|(S1 & ->)])].
        - exists a. left. split; [apply in_map_iff; exists (a, b); auto|]. eapply above_more; eauto. now left.
        - destruct IHa as [->|(d & [(D1 & D2)|D])]; [exists c; right; now apply rank_listed|exists d; auto|]. exists c. right. apply rank_listed in S1. lia.
        - apply above_root in H. subst. exists a. right. apply rank_pos in Na. exact Na. }
      assert (CL : forall c b, registered s c -> above cs c b -> b = tx "Empty Record" \/ registered s b).
      { clear - W G ND. intros c b RC H. induction H as [|a b c Na S H IHa]; auto.
        destruct RC as (i & A & B). destruct (parent_some s i W A (name_lt _ _ _ B)) as (p & P). destruct (parent_lt s i p W P) as (L1 & L2).
        destruct (name_some s p) as (q & Q); [lia|]. assert (SU : super_in cs a q) by (apply G; exists i, p; auto).
        rewrite (super_in_fun cs a b q ND S SU) in *. destruct (Nat.eq_dec p 0) as [->|Np].
        - rewrite name_root0 in Q by auto. injection Q as <-. apply above_root in H. auto.
        - apply IHa. exists p; auto. }
      destruct (above_rank m n H) as [Q|(c & [(I1 & I2)|Q])]; [rewrite Q in RM; lia| |lia].
      apply CL in I2; auto. destruct I2 as [I2|I2]; [congruence|]. apply reg_some in I2 as (i' & I2); auto. congruence. }
  destruct (attach_spec s1 n j W1 (name_lt _ _ _ N1) F1 NR) as (s' & -> & W' & X' & L' & N' & P' & RG & WA' & (x & Xx & X3 & X4 & X5)).
  exists (length (schemas s1)), s'. set (len := length (schemas s1)) in *.
  assert (NJ : name_of s' j = Some m) by (eapply extends_name; eauto).
  assert (OLD : forall k q, k <> len -> name_of s' k = Some q -> name_of s1 k = Some q).
  { intros k q K Q. assert (k < len). { apply name_lt in Q. lia. } destruct (name_some s1 k H) as (q' & Q'). pose proof (extends_name _ _ _ _ X' Q'). congruence. }
  split; [reflexivity|]. split; auto. split; [|split; [eapply extends_trans; eauto|split; auto; split; [congruence|split]]].
  - intros a b (i & p & A & B & P & Q). destruct (Nat.eq_dec i len) as [->|Ni].
    + rewrite N' in B. injection B as <-. rewrite P' in P. injection P as <-. rewrite NJ in Q. injection Q as <-. auto.
    + apply G1. assert (B1 := OLD i a Ni B). assert (i < len) by (eapply name_lt; eauto).
      destruct (parent_some s1 i W1 A H) as (p1 & P1). pose proof (extends_parent _ _ _ _ X' P1). rewrite P in H0. injection H0 as <-.
      exists i, p. repeat split; auto. apply OLD; auto. apply parent_lt in P1; auto. lia.
  - intros k. split.
    + intros (i & A & B). destruct (Nat.eq_dec i len) as [->|Ni].
      * rewrite N' in B. injection B as <-. right. split; auto. constructor.
      * assert (H : registered s1 k) by (exists i; split; auto). apply R1 in H as [H|(H1 & H2)]; auto. right. split; auto. eapply above_more; eauto.
    + intros [H|(K & H)].
      * assert (H' : registered s1 k) by (apply R1; auto). destruct H' as (i & A & B). exists i. split; auto. eapply extends_name; eauto.
      * inversion H as [n0|n0 m' k' Na S Hm]; subst; [exists len; split; auto; apply name_lt in N1; unfold len; lia|].
        rewrite <- (super_in_fun cs n m m' ND SM S) in Hm. assert (H' : registered s1 k) by (apply R1; auto). destruct H' as (i & A & B). exists i. split; auto. eapply extends_name; eauto.
  - assert (OLDX : forall k, k <> len -> forall y', nth_error (schemas s') k = Some y' -> exists y, nth_error (schemas s1) k = Some y /\ kept y y').
    { intros k K y' Y. destruct (nth_error (schemas s1) k) as [y|] eqn:Z.
      - destruct (X' k y Z) as (y2 & Y2 & Y3). assert (y' = y2) by congruence. subst. eauto.
      - apply nth_error_None in Z. fold len in Z. assert (k < S len) by (rewrite <- L'; apply nth_error_Some; congruence). lia. }
    assert (D : forall sel, (forall a b, kept a b -> sel a = sel b) -> sel x = [] -> forall k g e, decl sel s' k g e <-> decl sel s1 k g e).
    { intros sel KS SX k g e. split.
      - intros (y & Y1 & Y2). destruct (Nat.eq_dec k len) as [->|Nk]; [rewrite Xx in Y1; injection Y1 as <-; rewrite SX in Y2; discriminate|].
        destruct (OLDX k Nk y Y1) as (y1 & Z1 & Z2). exists y1. split; auto. now rewrite (KS _ _ Z2).
      - intros (y & Y1 & Y2). destruct (X' k y Y1) as (y1 & Z1 & Z2). exists y1. split; auto. now rewrite <- (KS _ _ Z2). }
    intros k g e. destruct (D1 k g e) as (D2 & D3 & D4). split; [|split].
    + eapply iff_trans; [apply (D s_fields)|exact D2]; auto. unfold kept; intuition.
    + eapply iff_trans; [apply (D s_methods)|exact D3]; auto. unfold kept; intuition.
    + eapply iff_trans; [apply (D s_defns)|exact D4]; auto. unfold kept; intuition.
Qed.

(* ---- histories ---- *)
Definition made (os : list op) : list (text * text) := flat_map (fun o => match o with OConstruct n p => [(n, p)] | _ => [] end) os.
Definition asked (os : list op) (n : text) : Prop := In (OEnsure n) os \/ exists p, In (OConstruct n p) os.
(* the constructor is called with a new name, which is not that of a super-schema in the table *)
Definition fresh (s : st) (o : op) : Prop :=
  match o with OConstruct n p => ~ registered s n /\ n <> tx "Empty Record" /\ n <> p /\ forall k, ~ listed k n | _ => True end.
Inductive reach : list op -> st -> Prop :=
| reach_start : reach [] start
| reach_more os s o s' : reach os s -> fresh s o -> do_op s o = Ok s' -> reach (os ++ [o]) s'.
Record inv (os : list op) (s : st) : Prop := mkInv {
  inv_wf : wf s; inv_agrees : agrees (made os) s; inv_made : forall m, In m (map fst (made os)) -> registered s m; inv_nodup : NoDup (map fst (made os));
  inv_reg : forall m, registered s m <-> m <> tx "Empty Record" /\ exists n, asked os n /\ above (made os) n m }.

Lemma wf_start : wf start.
Proof.
  assert (O : forall i x, nth_error (schemas start) i = Some x -> i = 0 /\ x = mkSchema root_name None 0 [] [] [] []).
  { intros [|i] x E; [injection E as <-; auto|destruct i; discriminate]. }
  assert (P : forall j, parent start j = None) by (intros [|[|j]]; reflexivity).
  split.
  - exists [], [], [], []. reflexivity.
  - intros i x E N. apply O in E as (-> & _). congruence.
  - intros i x j E. apply O in E as (-> & ->). rewrite P. split; [intros []|discriminate].
  - intros i x E. apply O in E as (-> & ->). constructor.
  - intros n i. split; [discriminate|]. intros (A & B). destruct i as [|[|i]]; [congruence|discriminate|discriminate].
  - intros i x E. apply O in E as (-> & ->). constructor.
Qed.
Lemma made_snoc : forall os o, made (os ++ [o]) = made os ++ match o with OConstruct n p => [(n, p)] | _ => [] end.
Proof. intros os o. unfold made. rewrite flat_map_app. cbn. now rewrite app_nil_r. Qed.
Lemma asked_snoc : forall os o n, asked (os ++ [o]) n <-> asked os n \/ match o with OEnsure m => m = n | OConstruct m _ => m = n | _ => False end.
Proof.
  intros os o n. unfold asked. split.
  - intros [H|(p & H)]; apply in_app_or in H as [H|[H|[]]]; eauto; subst; auto.
  - intros [[H|(p & H)]|H]; [left; apply in_or_app; auto|right; exists p; apply in_or_app; auto|].
    destruct o; try destruct H; [left|right; eexists]; apply in_or_app; right; left; reflexivity.
Qed.
(* the registered names are closed under super-schemas *)
Lemma closed_up : forall cs s c b, wf s -> agrees cs s -> NoDup (map fst cs) -> registered s c -> above cs c b -> b = tx "Empty Record" \/ registered s b.
Proof.
  intros cs s c b W G ND RC H. induction H as [|a b c Na S H IHa]; auto.
  destruct RC as (i & A & B). destruct (parent_some s i W A (name_lt _ _ _ B)) as (p & P). destruct (parent_lt s i p W P) as (L1 & L2).
  destruct (name_some s p) as (q & Q); [lia|]. assert (SU : super_in cs a q) by (apply G; exists i, p; auto).
  rewrite (super_in_fun cs a b q ND S SU) in *. destruct (Nat.eq_dec p 0) as [->|Np].
  - rewrite name_root0 in Q by auto. injection Q as <-. apply above_root in H. auto.
  - apply IHa. exists p; auto.
Qed.
Lemma super_in_snoc : forall cs n p a b, a <> n -> (super_in cs a b <-> super_in (cs ++ [(n, p)]) a b).
Proof.
  intros cs n p a b N. unfold super_in. rewrite map_app. cbn [map fst]. rewrite !in_app_iff. cbn [In]. split.
  - intros [H|(H & K)]; auto. right. split; auto. intros [I|[I|[]]]; auto.
  - intros [[H|[H|[]]]|(H & K)]; auto; [congruence|]. right. split; auto.
Qed.
Lemma above_snoc : forall cs s n p a b, wf s -> agrees cs s -> NoDup (map fst cs) -> ~ registered s n -> n <> tx "Empty Record" -> registered s a \/ a = tx "Empty Record" ->
  (above cs a b <-> above (cs ++ [(n, p)]) a b).
Proof.
  intros cs s n p a b W G ND NR N0 RA. split; intros H.
  - induction H as [|a b c Na S H IHa]; [constructor|]. assert (R : registered s a) by (destruct RA; auto; contradiction).
    apply (above_more _ a b c Na).
    + apply super_in_snoc; auto. intros ->. auto.
    + apply IHa. destruct (closed_up cs s a b W G ND R); auto. eapply above_more; eauto; constructor.
  - induction H as [|a b c Na S H IHa]; [constructor|]. assert (R : registered s a) by (destruct RA; auto; contradiction).
    apply super_in_snoc in S; [|intros ->; auto].
    eapply above_more; eauto. apply IHa. destruct (closed_up cs s a b W G ND R); auto. eapply above_more; eauto; constructor.
Qed.
Lemma same_registered : forall s s' m, same_tree s s' -> (registered s' m <-> registered s m).
Proof. intros s s' m T. unfold registered. split; intros (i & H); exists i; rewrite (same_name s s' i T) in *; auto. Qed.
Lemma same_agrees : forall cs s s', same_tree s s' -> agrees cs s -> agrees cs s'.
Proof.
  intros cs s s' T G n m (i & j & A & B & P & Q). apply G. exists i, j. rewrite <- (same_name s s' i T), <- (same_name s s' j T), <- (same_parent s s' i T). auto.
Qed.
Lemma inv_same : forall os o s s', inv os s -> same_tree s s' -> wf s' -> made (os ++ [o]) = made os -> (forall n, asked (os ++ [o]) n <-> asked os n) -> inv (os ++ [o]) s'.
Proof.
  intros os o s s' I T W M A. split; auto; try rewrite M.
  - apply (same_agrees _ s); auto. apply (inv_agrees os s I).
  - intros m H. apply (same_registered s s' m T). now apply (inv_made os s I).
  - apply (inv_nodup os s I).
  - intros m. rewrite (same_registered s s' m T), (inv_reg os s I m). split; intros (N & n & B & C); split; auto; exists n; split; auto; now apply A.
Qed.
Lemma find_lt : forall s n i, wf s -> find_schema s n = Ok i -> i <> 0 /\ i < length (schemas s) /\ name_of s i = Some n.
Proof.
  unfold find_schema. intros s n i W H. destruct (tget (registry s) n) eqn:E; [|discriminate]. injection H as ->. apply (wf_reg s W) in E as (A & B).
  repeat split; auto. eapply name_lt; eauto.
Qed.
Lemma enough_rank : forall n, rank n < enough. Proof. intros n. pose proof (rank_max n). change enough with 10. lia. Qed.
Theorem reach_inv : forall os s, reach os s -> inv os s.
Proof.
  induction 1 as [|os s o s' R I F E].
  { split; [apply wf_start| |intros m []|constructor|].
    - intros n m (i & j & A & B & _). destruct i as [|[|i]]; [congruence|discriminate|discriminate].
    - intros m. split; [intros (i & A & B); destruct i as [|[|i]]; [congruence|discriminate|discriminate]|].
      intros (_ & n & [[]|(p & [])] & _). }
  pose proof (inv_wf os s I) as W. destruct o as [n|n p|n f d|n f d|n f d]; cbn [do_op] in E.
  - apply bind_ok in E as ((i & s1) & E & E'). injection E' as <-.
    destruct (ensure_spec (made os) enough s n W (inv_agrees _ _ I) (inv_made _ _ I) (inv_nodup _ _ I) (enough_rank n)) as (i' & s2 & E2 & W2 & G2 & X2 & N2 & WA & R2 & _).
    rewrite E in E2. injection E2 as <- <-.
    assert (M : made (os ++ [OEnsure n]) = made os) by (rewrite made_snoc; apply app_nil_r).
    split; auto; try rewrite M; auto.
    + intros m H. apply R2. left. now apply (inv_made _ _ I).
    + apply (inv_nodup _ _ I).
    + intros m. rewrite R2, (inv_reg _ _ I m). split.
      * intros [(A & k & B & C)|(A & B)]; split; auto; [exists k|exists n]; split; auto; apply asked_snoc; auto.
      * intros (A & k & B & C). apply asked_snoc in B as [B|B]; [left; eauto|]. subst. right; auto.
  - apply bind_ok in E as ((i & s1) & E & E'). injection E' as <-. unfold construct in E.
    destruct (ensure_spec (made os) enough s p W (inv_agrees _ _ I) (inv_made _ _ I) (inv_nodup _ _ I) (enough_rank p)) as (j & s2 & E2 & W2 & G2 & X2 & N2 & WA & R2 & _).
    rewrite E2 in E. cbn [bind] in E. destruct F as (F1 & F2 & F3 & F4). pose proof (inv_nodup _ _ I) as ND.
    assert (F5 : ~ registered s2 n).
    { intros H. apply R2 in H as [H|(_ & H)]; [auto|].
      assert (Q : n = p \/ exists k, super_in (made os) k n).
      { clear - H. induction H; auto. destruct IHabove as [->|K]; eauto. }
      destruct Q as [Q|(k & [K|(_ & [K|(_ & K)])])]; [auto| |eapply F4; eauto|auto].
      assert (RK : registered s k). { apply (inv_made _ _ I). apply in_map_iff. exists (k, n); auto. }
      destruct (closed_up (made os) s k n W (inv_agrees _ _ I) ND RK); auto. apply (above_more _ k n n); [exact (reg_not_root s k W RK)|left; exact K|constructor]. }
    assert (T2 : tget (registry s2) n = None).
    { destruct (tget (registry s2) n) eqn:T; auto. exfalso. apply F5. apply reg_some; eauto. }
    destruct (attach_spec s2 n j W2 (name_lt _ _ _ N2) T2 F2) as (s' & E3 & W' & X' & L' & N' & P' & _).
    rewrite E in E3. injection E3 as -> <-. set (len := length (schemas s2)) in *.
    assert (NJ : name_of s1 j = Some p) by (eapply extends_name; eauto).
    assert (OLD : forall k q, k <> len -> name_of s1 k = Some q -> name_of s2 k = Some q).
    { intros k q K Q. assert (k < len). { apply name_lt in Q. lia. } destruct (name_some s2 k H) as (q' & Q'). pose proof (extends_name _ _ _ _ X' Q'). congruence. }
    assert (RS : forall m, registered s1 m <-> m = n \/ registered s2 m).
    { intros m. split.
      - intros (k & A & B). destruct (Nat.eq_dec k len) as [->|Nk]; [left; congruence|right; exists k; split; auto].
      - intros [->|(k & A & B)]; [exists len; split; auto; apply name_lt in N2; unfold len; lia|exists k; split; auto; eapply extends_name; eauto]. }
    assert (NM : ~ In n (map fst (made os))). { intros H. apply F1. now apply (inv_made _ _ I). }
    assert (M : made (os ++ [OConstruct n p]) = made os ++ [(n, p)]) by apply made_snoc.
    assert (NDN : NoDup (map fst (made os ++ [(n, p)]))).
    { rewrite map_app. apply NoDup_app_intro; auto; [repeat constructor; intros []|]. intros x X1 [X3|[]]. cbn in X3. congruence. }
    assert (RP : registered s2 p \/ p = tx "Empty Record").
    { destruct (Nat.eq_dec j 0) as [->|Nj]; [right; rewrite name_root0 in N2; congruence|left; exists j; auto]. }
    split; auto; try rewrite M.
    + intros a b (k & q & A & B & P & Q). destruct (Nat.eq_dec k len) as [->|Nk].
      * rewrite N' in B. injection B as <-. rewrite P' in P. injection P as <-. rewrite NJ in Q. injection Q as <-. left. apply in_or_app. right. now left.
      * assert (B1 := OLD k a Nk B). apply super_in_snoc; [intros ->; apply F5; exists k; auto|]. apply G2. assert (k < len) by (eapply name_lt; eauto).
        destruct (parent_some s2 k W2 A H) as (p1 & P1). pose proof (extends_parent _ _ _ _ X' P1). rewrite P in H0. injection H0 as <-.
        exists k, q. repeat split; auto. apply OLD; auto. apply parent_lt in P1; auto. lia.
    + intros m H. apply RS. rewrite map_app in H. apply in_app_or in H as [H|[H|[]]]; [right; apply R2; left; now apply (inv_made _ _ I)|left; cbn in H; congruence].
    + auto.
    + assert (AK : forall k m, asked os k -> (above (made os) k m <-> above (made os ++ [(n, p)]) k m)).
      { intros k m K. apply (above_snoc (made os) s); auto; [apply (inv_agrees _ _ I)|].
        destruct (list_eq_dec N.eq_dec k (tx "Empty Record")); auto. left. apply (inv_reg _ _ I). split; auto. exists k. split; auto. constructor. }
      assert (AP : forall m, above (made os) p m <-> above (made os ++ [(n, p)]) p m) by (intros m; apply (above_snoc (made os) s2); auto).
      intros m. rewrite RS, R2, (inv_reg _ _ I m). split.
      * intros [->|[(A & k & B & C)|(A & B)]]; split; auto.
        -- exists n. split; [apply asked_snoc; auto|constructor].
        -- exists k. split; [apply asked_snoc; auto|]. now apply AK.
        -- exists n. split; [apply asked_snoc; auto|]. eapply above_more; [auto|left; apply in_or_app; right; left; reflexivity|]. now apply AP.
      * intros (A & k & B & C). apply asked_snoc in B as [B|B].
        -- right. left. split; auto. exists k. split; auto. now apply AK.
        -- subst k. inversion C as [n0|n0 m' k' Na S Hm]; subst; auto. right. right. split; auto. apply AP.
           assert (SP : super_in (made os ++ [(n, p)]) n p) by (left; apply in_or_app; right; now left).
           rewrite <- (super_in_fun _ n p m' NDN SP S) in Hm. exact Hm.
  - apply bind_ok in E as (i & E & E'). destruct (find_lt s n i W E) as (A & B & _).
    destruct (add_field_spec s i f d W A B) as [(_ & Q)|(_ & s2 & Q & T & W' & _)]; [congruence|]. assert (s2 = s') by congruence. subst.
    eapply inv_same; eauto; [rewrite made_snoc; apply app_nil_r|]. intros k. rewrite asked_snoc. tauto.
  - apply bind_ok in E as (i & E & E'). destruct (find_lt s n i W E) as (A & B & _).
    destruct (add_method_spec s i f d W A B) as [(_ & Q)|(_ & s2 & Q & T & W' & _)]; [congruence|]. assert (s2 = s') by congruence. subst.
    eapply inv_same; eauto; [rewrite made_snoc; apply app_nil_r|]. intros k. rewrite asked_snoc. tauto.
  - apply bind_ok in E as (i & E & E'). destruct (find_lt s n i W E) as (A & B & _).
    destruct (add_defn_spec s i f d W A B) as [(_ & Q)|(_ & s2 & Q & T & W' & _)]; [congruence|]. assert (s2 = s') by congruence. subst.
    eapply inv_same; eauto; [rewrite made_snoc; apply app_nil_r|]. intros k. rewrite asked_snoc. tauto.
Qed.

(* ---- the fields of a schema, those of its super-schemas included ---- *)
Lemma update_get : forall l d f, NoDup (map fst l) -> tget (update d l) f = match tget l f with Some v => Some v | None => @tget nat d f end.
Proof.
  induction l as [|[k v] l IH]; intros d f N; [reflexivity|]. unfold update in *. inversion N as [|? ? NI N1]; subst. cbn [fold_left tget fst snd]. rewrite (IH _ f N1).
  destruct (text_eqb k f) eqn:E.
  - apply text_eqb_eq in E; subst. destruct (tget l f) eqn:T; [exfalso; apply NI; apply tget_keys; eauto|]. now rewrite tget_tset_same.
  - rewrite tget_tset_other; auto. intros ->. rewrite teqb_refl in E. discriminate.
Qed.
Lemma along_app : forall s a b d, fields_along s (a ++ b) d = do d1 <- fields_along s a d ;; fields_along s b d1.
Proof. induction a as [|i a IH]; intros b d; cbn; auto. destruct (get s i); cbn; auto. Qed.
Definition nearest (s : st) (i j : nat) (f : text) (v : nat) : Prop :=
  under s i j /\ j <> 0 /\ field_decl s j f v /\ forall k e, k <> 0 -> under s i k -> under s k j -> field_decl s k f e -> k = j.
Lemma under_antisym : forall s i j, wf s -> under s i j -> under s j i -> i = j.
Proof. intros s i j W A B. apply under_le in A; auto. apply under_le in B; auto. lia. Qed.
Lemma along_spec : forall s l, wf s -> chain s l -> forall i r, l = i :: r -> exists d, fields_along s (rev l) [] = Ok d /\ forall f v, tget d f = Some v <-> exists j, nearest s i j f v.
Proof.
  intros s l W C. assert (ONE : forall i x d, nth_error (schemas s) i = Some x -> fields_along s [i] d = Ok (update d (s_fields x))).
  { intros i x d E. cbn. now rewrite (proj2 (get_ok s i x) E). }
  induction C as [i P | i j l P N C IH]; intros i0 r E; injection E as <- <-.
  - destruct (parent_lt s i 0 W P) as (A & B). destruct (nth_error (schemas s) i) as [x|] eqn:X; [|apply nth_error_None in X; lia].
    cbn [rev app]. rewrite (ONE i x [] X). eexists. split; [reflexivity|]. intros f v. rewrite update_get by (eapply (wf_keys s W); eauto). cbn [tget].
    split.
    + destruct (tget (s_fields x) f) eqn:T; [|discriminate]. intros Q. injection Q as <-. exists i. split; [now constructor|]. split; [lia|]. split; [exists x; auto|].
      intros k e _ K1 K2 _. now apply (under_antisym s).
    + intros (j & U & J & (y & Y & D) & _). inversion U as [|a b c P' U']; subst; [rewrite X in Y; injection Y as <-; now rewrite D|].
      rewrite P in P'. injection P' as <-. apply under_le in U'; auto. lia.
  - destruct (parent_lt s i j W P) as (A & B). destruct (nth_error (schemas s) i) as [x|] eqn:X; [|apply nth_error_None in X; lia].
    destruct (IH j l eq_refl) as (d & D & S). change (rev (i :: j :: l)) with (rev (j :: l) ++ [i]). rewrite along_app, D. cbn [bind]. rewrite (ONE i x d X).
    eexists. split; [reflexivity|]. intros f v. rewrite update_get by (eapply (wf_keys s W); eauto).
    assert (UI : under s i i) by (constructor; auto).
    destruct (tget (s_fields x) f) as [w|] eqn:T.
    + split.
      * intros Q. injection Q as <-. exists i. split; auto. split; [lia|]. split; [exists x; auto|]. intros k e _ K1 K2 _. now apply (under_antisym s).
      * intros (k & U & K & (y & Y & Dk) & M). assert (i = k) by (eapply M; [lia|exact UI|exact U|exists x; eauto]). subst k. congruence.
    + rewrite S. assert (ND : forall e, ~ field_decl s i f e) by (intros e (y & Y & Dy); congruence).
      split; intros (k & U & K & Dk & M).
      * exists k. split; [eapply under_step; eauto|]. split; auto. split; auto. intros k' e N0 U1 U2 D'.
        inversion U1 as [|a b c P' U']; subst; [exfalso; eapply ND; eauto|]. rewrite P in P'. injection P' as <-. eapply M; eauto.
      * exists k. split; [|split; auto; split; auto; intros k' e N0 U1 U2 D'; eapply M; eauto; eapply under_step; eauto].
        inversion U as [|a b c P' U']; subst; [exfalso; eapply ND; eauto|]. rewrite P in P'. injection P' as <-. auto.
Qed.
Lemma fields_of_spec : forall s i, wf s -> i <> 0 -> i < length (schemas s) -> exists d, fields_of s i = Ok d /\ forall f v, tget d f = Some v <-> exists j, nearest s i j f v.
Proof.
  intros s i W N L. unfold fields_of. destruct (self_and_supers_chain s i W N L) as (r & -> & C). cbn [bind]. eapply along_spec; eauto.
Qed.

(* ---- the topmost declarations of a method ---- *)
Definition topmost (s : st) (b j : nat) (m : text) : Prop :=
  under s j b /\ (exists d, method_decl s j m d) /\ forall k e, under s j k -> under s k b -> method_decl s k m e -> k = j.
Lemma declarers_spec : forall m f s i, wf s -> i < length (schemas s) -> length (schemas s) <= f + i ->
  exists l, declarers f s m i = Ok l /\ NoDup l /\ forall j, In j l <-> topmost s i j m.
Proof.
  intros m. induction f as [|f IH]; intros s i W L F; [lia|]. cbn [declarers].
  destruct (nth_error (schemas s) i) as [x|] eqn:E; [|apply nth_error_None in E; lia].
  rewrite (proj2 (get_ok s i x) E). cbn [bind]. destruct (thas (s_methods x) m) eqn:T.
  - apply thas_true in T as (v & T). exists [i]. split; auto. split; [repeat constructor; intros []|]. intros j. split.
    + intros [<-|[]]. split; [now constructor|]. split; [exists v, x; auto|]. intros k e A B _. now apply (under_antisym s).
    + intros (U & D & M). left. eapply M; eauto; [now constructor|]. exists x; eauto.
  - assert (ND : forall e, ~ method_decl s i m e).
    { intros e (y & Y & D). assert (y = x) by congruence. subst. assert (thas (s_methods x) m = true) by (apply thas_true; eauto). congruence. }
    assert (C : forall j, In j (s_subs x) -> exists l, declarers f s m j = Ok l /\ NoDup l /\ forall k, In k l <-> topmost s j k m).
    { intros j J. destruct (subs_lt s i x j W E J) as (P & A & B). apply IH; auto; lia. }
    destruct (flatM_ok _ _ (declarers f s m) (s_subs x)) as (r & R). { intros a I. destruct (C a I) as (q & Q & _). eauto. }
    exists r. split; auto. split.
    + eapply nodup_flatM; eauto.
      * eapply sorted_nodup, (wf_sorted s W); eauto.
      * intros a q I Q. destruct (C a I) as (q' & Q' & N & _). congruence.
      * intros a b q q1 k I J Q Q1 K K1. destruct (C a I) as (p1 & A1 & _ & M1). destruct (C b J) as (p2 & A2 & _ & M2).
        assert (p1 = q) by congruence. assert (p2 = q1) by congruence. subst. apply M1 in K as (K & _). apply M2 in K1 as (K1 & _).
        apply (siblings_apart s i a b k W); auto; eapply wf_subs; eauto.
    + intros j. rewrite (flatM_in _ _ _ _ _ R j). split.
      * intros (c & q & I & Q & J). destruct (C c I) as (q' & Q' & _ & M). assert (q' = q) by congruence. subst. apply M in J as (U & D & J).
        destruct (subs_lt s i x c W E I) as (P & _). split; [apply under_child; eauto|]. split; auto. intros k e U1 U2 Dk.
        apply under_child in U2; auto. destruct U2 as [[-> _]|(c' & P' & U2)]; [exfalso; eapply ND; eauto|].
        assert (c = c') by (apply (siblings_apart s i c c' j W); auto; eapply under_trans; eauto). subst c'. eauto.
      * intros (U & D & J). apply under_child in U; auto. destruct U as [[-> _]|(c & P & U)]; [destruct D as (e & D); exfalso; eapply ND; eauto|].
        pose proof P as P'. apply (wf_subs s W i x c E) in P'. destruct (C c P') as (q & Q & _ & M). exists c, q. split; auto. split; auto.
        apply M. split; auto. split; auto. intros k e U1 U2 Dk. eapply J; eauto. apply under_child; eauto.
Qed.
Lemma topmost_or_none : forall s b m j, wf s -> under s j b -> (exists t, topmost s b t m /\ under s j t) \/ (forall q e, under s j q -> under s q b -> ~ method_decl s q m e).
Proof.
  intros s b m j W U. assert (DEC : forall i, i < length (schemas s) -> (exists d, method_decl s i m d) \/ forall d, ~ method_decl s i m d).
  { intros i L. destruct (nth_error (schemas s) i) as [x|] eqn:E; [|apply nth_error_None in E; lia].
    destruct (tget (s_methods x) m) as [v|] eqn:T; [left; exists v, x; auto|]. right. intros d (y & Y & D). congruence. }
  induction U as [b L | j p b P U IH].
  - destruct (DEC b L) as [D|D].
    + left. exists b. split; [|now constructor]. split; [now constructor|]. split; auto. intros k e A B _. now apply (under_antisym s).
    + right. intros q e A B. replace q with b; [apply D|]. apply (under_antisym s); auto.
  - destruct IH as [(t & T & V)|NO]; [left; exists t; split; auto; eapply under_step; eauto|].
    assert (UJ : under s j b) by (eapply under_step; eauto). assert (LJ : j < length (schemas s)) by (apply under_le in UJ; auto; lia).
    assert (UP : forall q, under s j q -> q = j \/ under s p q).
    { intros q Q. inversion Q as [|a c d P' U']; subst; auto. rewrite P in P'. injection P' as <-. auto. }
    destruct (DEC j LJ) as [D|D].
    + left. exists j. split; [|now constructor]. split; auto. split; auto. intros k e A B C. destruct (UP k A) as [|V]; auto. exfalso. eapply NO; eauto.
    + right. intros q e A B. destruct (UP q A) as [->|V]; [apply D|apply NO; auto].
Qed.
(* every schema that has the method by a declaration not above b, is under exactly one topmost one *)
Lemma topmost_covers : forall s b m k j e, wf s -> under s k j -> under s j b -> method_decl s j m e -> exists t, topmost s b t m /\ under s k t.
Proof.
  intros s b m k j e W U1 U2 D. destruct (topmost_or_none s b m j W U2) as [(t & T & V)|NO].
  - exists t. split; auto. eapply under_trans; eauto.
  - exfalso. refine (NO j e _ U2 D). constructor. apply under_le in U2; auto. lia.
Qed.
Lemma topmost_apart : forall s b m k t t', wf s -> topmost s b t m -> topmost s b t' m -> under s k t -> under s k t' -> t = t'.
Proof.
  intros s b m k t t' W (A1 & (d & A2) & A3) (B1 & (e & B2) & B3) U V. destruct (under_linear s k t t' U V) as [H|H].
  - symmetry. eapply A3; eauto.
  - eapply B3; eauto.
Qed.
Lemma ensure_again : forall f s i n, wf s -> 0 < f -> name_of s i = Some n -> ensure f s n = Ok (i, s).
Proof.
  intros [|f] s i n W L N; [lia|]. cbn [ensure]. destruct (Nat.eq_dec i 0) as [->|Ni].
  - assert (NE : n = tx "Empty Record") by (rewrite name_root0 in N by auto; congruence). rewrite NE, (reg_root s W). change (tx "Empty Record") with root_name. now rewrite teqb_refl.
  - assert (T : tget (registry s) n = Some i) by (apply (wf_reg s W); auto). now rewrite T.
Qed.
