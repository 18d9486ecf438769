(* Lemmas about dicts and sets with numbered keys. *)
From Verif Require Import M_Base M_Dict.

Section Dict.
  Context {V : Type}.
  Implicit Types d : list (nat * V).
  Lemma nget_nset d k v k' : nget (nset d k v) k' = if k =? k' then Some v else nget d k'.
  Proof.
    induction d as [|[k0 v0] d IH]; cbn [nset nget]; [reflexivity|]. destruct (k0 =? k) eqn:E; cbn [nget].
    - apply Nat.eqb_eq in E. subst k0. destruct (k =? k'); reflexivity.
    - destruct (k0 =? k') eqn:E'; [|exact IH]. apply Nat.eqb_eq in E'. subst k0. rewrite Nat.eqb_sym, E. reflexivity.
  Qed.
  Lemma nget_nset_same d k v : nget (nset d k v) k = Some v.
  Proof. now rewrite nget_nset, Nat.eqb_refl. Qed.
  Lemma nget_nset_other d k v k' : k <> k' -> nget (nset d k v) k' = nget d k'.
  Proof. intros H. apply Nat.eqb_neq in H. now rewrite nget_nset, H. Qed.
  Lemma nget_keys d k : nget d k <> None <-> In k (map fst d).
  Proof.
    induction d as [|[k0 v0] d IH]; cbn; [tauto|]. destruct (k0 =? k) eqn:E.
    - apply Nat.eqb_eq in E. split; [auto|discriminate].
    - rewrite IH. apply Nat.eqb_neq in E. split; [auto|]. intros [H|H]; [contradiction|exact H].
  Qed.
  Lemma nget_in d k v : nget d k = Some v -> In (k, v) d.
  Proof.
    induction d as [|[k0 v0] d IH]; cbn; [discriminate|]. destruct (k0 =? k) eqn:E; [|auto]. apply Nat.eqb_eq in E. intros [= <-]. subst. now left.
  Qed.
  Lemma in_nget d k v : NoDup (map fst d) -> In (k, v) d -> nget d k = Some v.
  Proof.
    induction d as [|[k0 v0] d IH]; cbn; [intros _ []|]. intros Hn [[= <- <-]|H]; [now rewrite Nat.eqb_refl|]. inversion Hn; subst.
    destruct (k0 =? k) eqn:E; [|auto]. apply Nat.eqb_eq in E. subst. exfalso. apply H2. now apply (in_map fst) in H.
  Qed.
  Lemma nset_keys d k v : map fst (nset d k v) = if nmem k (map fst d) then map fst d else map fst d ++ [k].
  Proof.
    unfold nmem. induction d as [|[k0 v0] d IH]; cbn; [reflexivity|]. rewrite (Nat.eqb_sym k k0). destruct (k0 =? k); cbn; [reflexivity|]. rewrite IH.
    destruct (existsb (Nat.eqb k) (map fst d)); reflexivity.
  Qed.
End Dict.
Lemma nmem_in k l : nmem k l = true <-> In k l.
Proof. unfold nmem. rewrite existsb_exists. split; [intros (x & H & E); apply Nat.eqb_eq in E; now subst|]. intros H. exists k. split; [exact H|apply Nat.eqb_refl]. Qed.
Lemma nmem_nin k l : nmem k l = false <-> ~ In k l.
Proof. rewrite <- nmem_in. destruct (nmem k l); split; [discriminate|intros H; destruct (H eq_refl)|intros _ Q; discriminate|reflexivity]. Qed.
Lemma nadd_in k l x : In x (nadd k l) <-> x = k \/ In x l.
Proof.
  unfold nadd. destruct (nmem k l) eqn:E.
  - apply nmem_in in E. split; [auto|]. intros [->|H]; auto.
  - rewrite in_app_iff. cbn. split; [intros [H|[H|[]]]; auto|]. intros [->|H]; auto.
Qed.
Lemma nadd_nodup k l : NoDup l -> NoDup (nadd k l).
Proof.
  intros H. unfold nadd. destruct (nmem k l) eqn:E; [exact H|]. apply nmem_nin in E.
  induction H as [|a l Ha H IH]; cbn; [constructor; [intros []|constructor]|]. cbn in E. constructor; [|apply IH; tauto].
  rewrite in_app_iff. cbn. intros [Q|[Q|[]]]; [contradiction|]. subst. apply E. now left.
Qed.
