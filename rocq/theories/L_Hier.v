(* The type hierarchy of static_types.py: specification and lemmas. *)
From Verif Require Import M_Base L_Base M_Types.

(* ---------------- specification ---------------- *)

(* a hierarchy as it is built by TNode(...) calls: the root Top_ first, then nodes with an existing parent *)
Inductive built : hier -> Prop :=
| b_root h : new_TNode [] 0 None = Ok h -> built h
| b_add h a p h' : built h -> new_TNode h a (Some p) = Ok h' -> built h'.

Definition names (h : hier) : list nat := map tn_type h.
(* p is the parent of a *)
Definition par (h : hier) (a p : nat) : Prop := exists t, In t h /\ tn_type t = a /\ tn_parent t = Some p.
(* a is b or one of its ancestors *)
Inductive anc (h : hier) : nat -> nat -> Prop :=
| anc_refl a : anc h a a
| anc_up a b p : par h b p -> anc h a p -> anc h a b.
(* the values of the hierarchy are identified with the leaves: what a leaf stands for is not looked into *)
Definition leaf (h : hier) (v : nat) : Prop := In v (names h) /\ forall c, ~ par h c v.

(* ---------------- lemmas ---------------- *)

Record wf (h : hier) : Prop := {
  wf_nodup : NoDup (names h);
  wf_root : exists t, In t h /\ tn_type t = 0 /\ tn_parent t = None /\ tn_level t = 0;
  wf_parent : forall t, In t h -> match tn_parent t with
     | None => tn_type t = 0 /\ tn_level t = 0
     | Some p => exists tp, In tp h /\ tn_type tp = p /\ tn_level t = S (tn_level tp) end;
  wf_level : forall t, In t h -> tn_level t < length h }.

Lemma find_some_in {A} (f : A -> bool) l x : find f l = Some x -> In x l /\ f x = true.
Proof. apply find_some. Qed.

Lemma nodup_types h t t' : NoDup (names h) -> In t h -> In t' h -> tn_type t = tn_type t' -> t = t'.
Proof.
  unfold names. induction h as [|x h IH]; intros Hn H1 H2 E; [destruct H1|]. cbn in Hn. inversion Hn as [|? ? Hx Hn']; subst.
  destruct H1 as [->|H1], H2 as [->|H2]; auto.
  - exfalso. apply Hx. rewrite E. now apply in_map.
  - exfalso. apply Hx. rewrite <- E. now apply in_map.
Qed.

Lemma tnode_for_ok h a t : NoDup (names h) -> (tnode_for h a = Ok t <-> In t h /\ tn_type t = a).
Proof.
  intros Hn. unfold tnode_for. destruct (find (fun t => tn_type t =? a) h) as [x|] eqn:E.
  - apply find_some in E as [E1 E2]. apply Nat.eqb_eq in E2. split.
    + intros [= <-]. auto.
    + intros [H1 H2]. f_equal. eapply nodup_types; eauto. congruence.
  - split; [discriminate|]. intros [H1 H2]. eapply find_none in E; [|exact H1]. cbn in E. apply Nat.eqb_neq in E. congruence.
Qed.
Lemma tnode_for_in h a : NoDup (names h) -> In a (names h) -> exists t, tnode_for h a = Ok t /\ In t h /\ tn_type t = a.
Proof.
  intros Hn H. apply in_map_iff in H as (t & E & Ht). exists t. split; [|auto]. now apply tnode_for_ok.
Qed.

Lemma new_TNode_ok h a p h' : new_TNode h a p = Ok h' -> ~ In a (names h) /\
  exists lev, h' = h ++ [mkT a p lev] /\ match p with None => lev = 0 | Some q => exists t, tnode_for h q = Ok t /\ lev = S (tn_level t) end.
Proof.
  unfold new_TNode. intros H. apply bind_ok in H as (lev & Hl & H). apply bind_ok in H as (u & Ha & H). inversion H; subst; clear H.
  destruct u. apply assert_ok in Ha. apply negb_true_iff in Ha. split.
  - intros Hin. apply in_map_iff in Hin as (t & E & Ht). enough (existsb (fun t => tn_type t =? a) h = true) by congruence.
    apply existsb_exists. exists t. split; [exact Ht|]. now apply Nat.eqb_eq.
  - exists lev. split; [reflexivity|]. destruct p as [q|]; [|congruence]. apply bind_ok in Hl as (t & Ht & Hl). exists t. split; [exact Ht|congruence].
Qed.

Lemma built_wf h : built h -> wf h.
Proof.
  induction 1 as [h H|h a p h' Hb IH H].
  - apply new_TNode_ok in H as (_ & lev & -> & ->). cbn. constructor; cbn.
    + constructor; [intros []|constructor].
    + exists (mkT 0 None 0). cbn. auto.
    + intros t [<-|[]]. cbn. auto.
    + intros t [<-|[]]. cbn. lia.
  - apply new_TNode_ok in H as (Hn & lev & -> & tp & Htp & ->). destruct IH as [W1 W2 W3 W4].
    apply tnode_for_ok in Htp as [Htp Ep]; [|exact W1]. constructor.
    + unfold names in *. rewrite map_app. cbn. apply (Permutation_NoDup (Permutation_cons_append _ _)). constructor; assumption.
    + destruct W2 as (t & Ht & R). exists t. split; [apply in_or_app; now left|exact R].
    + intros t Ht. apply in_app_or in Ht as [Ht|[<-|[]]].
      * specialize (W3 t Ht). destruct (tn_parent t) as [q|]; [|exact W3]. destruct W3 as (tp' & A & B). exists tp'. split; [apply in_or_app; now left|exact B].
      * cbn. exists tp. split; [apply in_or_app; now left|auto].
    + intros t Ht. rewrite app_length. cbn. apply in_app_or in Ht as [Ht|[<-|[]]]; [specialize (W4 t Ht); lia|]. cbn. specialize (W4 tp Htp). lia.
Qed.

Lemma in_children h a c : In c (children h a) <-> par h c a.
Proof.
  unfold children, par. rewrite in_map_iff. split.
  - intros (t & E & H). apply filter_In in H as [H1 H2]. exists t. destruct (tn_parent t) as [p|]; [|discriminate]. apply Nat.eqb_eq in H2. subst. auto.
  - intros (t & H1 & H2 & H3). exists t. split; [exact H2|]. apply filter_In. split; [exact H1|]. rewrite H3. apply Nat.eqb_refl.
Qed.

Section Hier.
  Variable h : hier.
  Hypothesis W : wf h.

  Lemma par_fun a p p' : par h a p -> par h a p' -> p = p'.
  Proof.
    intros (t & H1 & H2 & H3) (t' & H1' & H2' & H3'). assert (t = t') by (eapply nodup_types; eauto using wf_nodup; congruence). congruence.
  Qed.
  Lemma par_in a p : par h a p -> In a (names h) /\ In p (names h).
  Proof.
    intros (t & H1 & H2 & H3). split; [subst; now apply in_map|]. pose proof (wf_parent h W t H1) as Hp. rewrite H3 in Hp.
    destruct Hp as (tp & A & B & _). subst. now apply in_map.
  Qed.

  (* level of a name *)
  Definition lev (a n : nat) : Prop := exists t, In t h /\ tn_type t = a /\ tn_level t = n.
  Lemma lev_fun a n n' : lev a n -> lev a n' -> n = n'.
  Proof. intros (t & H1 & H2 & H3) (t' & H1' & H2' & H3'). assert (t = t') by (eapply nodup_types; eauto using wf_nodup; congruence). congruence. Qed.
  Lemma lev_in a : In a (names h) -> exists n, lev a n /\ n < length h.
  Proof. intros H. apply in_map_iff in H as (t & E & Ht). exists (tn_level t). split; [exists t; auto|]. now apply wf_level. Qed.
  Lemma lev_in' a n : lev a n -> In a (names h).
  Proof. intros (t & H1 & <- & _). now apply in_map. Qed.
  Lemma lev_par a p n : par h a p -> lev a n -> exists m, n = S m /\ lev p m.
  Proof.
    intros (t & H1 & H2 & H3) (t' & H1' & H2' & H3'). assert (t = t') as <- by (eapply nodup_types; eauto using wf_nodup; congruence).
    pose proof (wf_parent h W t H1) as Hp. rewrite H3 in Hp. destruct Hp as (tp & A & B & C). exists (tn_level tp). split; [congruence|]. exists tp. auto.
  Qed.
  Lemma par_dec a : In a (names h) -> (exists p, par h a p) \/ (a = 0 /\ lev a 0 /\ forall p, ~ par h a p).
  Proof.
    intros H. apply in_map_iff in H as (t & E & Ht). pose proof (wf_parent h W t Ht) as Hp. destruct (tn_parent t) as [p|] eqn:Ep.
    - left. exists p, t. auto.
    - right. destruct Hp as [Hp1 Hp2]. split; [congruence|]. split; [exists t; auto|]. intros p (t' & A & B & C).
      assert (t = t') by (eapply nodup_types; eauto using wf_nodup; congruence). congruence.
  Qed.

  Lemma anc_trans a b c : anc h a b -> anc h b c -> anc h a c.
  Proof. intros H1 H2. induction H2 as [b|b c p Hp H2 IH]; [exact H1|]. econstructor; [exact Hp|auto]. Qed.
  Lemma anc_in a b : anc h a b -> In b (names h) -> In a (names h).
  Proof. induction 1 as [a|a b p Hp H IH]; intros Hb; [exact Hb|]. apply IH. now apply par_in in Hp. Qed.
  Lemma anc_lev a b m n : anc h a b -> lev a m -> lev b n -> m <= n /\ (m = n -> a = b).
  Proof.
    intros H. revert n. induction H as [a|a b p Hp H IH]; intros n Ha Hb.
    - rewrite (lev_fun _ _ _ Ha Hb). auto.
    - destruct (lev_par _ _ _ Hp Hb) as (k & -> & Hk). destruct (IH k Ha Hk). split; [lia|]. intros ->. lia.
  Qed.
  Lemma anc_antisym a b : anc h a b -> anc h b a -> In a (names h) -> a = b.
  Proof.
    intros H1 H2 Ha. pose proof (anc_in _ _ H2 Ha) as Hb. destruct (lev_in _ Ha) as (m & Hm & _), (lev_in _ Hb) as (n & Hn & _).
    destruct (anc_lev _ _ _ _ H1 Hm Hn) as [A1 A2], (anc_lev _ _ _ _ H2 Hn Hm) as [B1 B2]. apply A2. lia.
  Qed.
  (* tree shape: two ancestors of a node are related *)
  Lemma anc_tree a b c : anc h a c -> anc h b c -> anc h a b \/ anc h b a.
  Proof.
    intros H1. revert b. induction H1 as [a|a c p Hp H1 IH]; intros b H2.
    - now right.
    - inversion H2 as [|? ? p' Hp' H2']; subst.
      + left. econstructor; eauto.
      + rewrite (par_fun _ _ _ Hp' Hp) in H2'. auto.
  Qed.
  (* below a, on the way to c *)
  Lemma anc_down a c : anc h a c -> a = c \/ exists d, par h d a /\ anc h d c.
  Proof.
    induction 1 as [a|a c p Hp H IH]; [now left|]. right. destruct IH as [->|(d & Hd & H')].
    - exists c. split; [exact Hp|constructor].
    - exists d. split; [exact Hd|]. econstructor; eauto.
  Qed.
  Lemma anc_par a p : par h a p -> anc h p a.
  Proof. intros H. econstructor; [exact H|constructor]. Qed.
  Lemma anc_leaf a v : leaf h v -> anc h v a -> v = a.
  Proof. intros [_ Hl] H. apply anc_down in H as [H|(d & Hd & _)]; [exact H|]. exfalso. eapply Hl; eauto. Qed.
  Lemma anc_root a : In a (names h) -> anc h 0 a.
  Proof.
    intros H. destruct (lev_in _ H) as (n & Hn & _). revert a H Hn. induction n as [|n IH]; intros a H Hn.
    - destruct (par_dec a H) as [(p & Hp)|(-> & _)]; [|constructor]. destruct (lev_par _ _ _ Hp Hn) as (m & E & _). discriminate.
    - destruct (par_dec a H) as [(p & Hp)|(-> & Hl & _)]; [|constructor]. econstructor; [exact Hp|].
      destruct (lev_par _ _ _ Hp Hn) as (m & E & Hm). apply IH; [now apply par_in in Hp|]. now inversion E; subst.
  Qed.
  Lemma root_in : In 0 (names h).
  Proof. destruct (wf_root h W) as (t & Ht & E & _). rewrite <- E. now apply in_map. Qed.

  (* induction from the leaves upwards *)
  Lemma down_ind (P : nat -> Prop) : (forall a, In a (names h) -> (forall c, par h c a -> P c) -> P a) -> forall a, In a (names h) -> P a.
  Proof.
    intros H. assert (G : forall k a n, lev a n -> length h - n <= k -> P a).
    { induction k as [|k IH]; intros a n Hl Hk.
      - destruct (lev_in a (lev_in' _ _ Hl)) as (m & Hm & Hlt). rewrite (lev_fun _ _ _ Hl Hm) in Hk. lia.
      - apply H; [eapply lev_in'; eauto|]. intros c Hc. destruct (lev_in c (proj1 (par_in _ _ Hc))) as (m & Hm & Hlt).
        destruct (lev_par _ _ _ Hc Hm) as (j & -> & Hj). rewrite (lev_fun _ _ _ Hj Hl) in *. apply (IH c (S n) Hm). lia. }
    intros a Ha. destruct (lev_in a Ha) as (n & Hn & _). now apply (G (length h) a n Hn); lia.
  Qed.
  Lemma leaf_below a : In a (names h) -> exists v, leaf h v /\ anc h a v.
  Proof.
    intros Ha. revert a Ha. apply down_ind. intros a Ha IH.
    destruct (children h a) as [|c cs] eqn:E.
    - exists a. split; [|constructor]. split; [exact Ha|]. intros c Hc. apply in_children in Hc. rewrite E in Hc. destruct Hc.
    - assert (Hc : par h c a) by (apply in_children; rewrite E; now left). destruct (IH c Hc) as (v & Hv & Hcv). exists v. split; [exact Hv|].
      eapply anc_trans; [apply anc_par; exact Hc|exact Hcv].
  Qed.

  (* ---- the subtype test on two hierarchy types ---- *)

  Lemma up_ok : forall n t, In t h -> n <= tn_level t -> exists t', up h n t = Ok t' /\ In t' h /\ tn_level t' = tn_level t - n /\ anc h (tn_type t') (tn_type t).
  Proof.
    induction n as [|n IH]; intros t Ht Hn; cbn [up].
    - exists t. repeat split; auto; [lia|constructor].
    - pose proof (wf_parent h W t Ht) as Hp. destruct (tn_parent t) as [p|] eqn:Ep; [|lia].
      destruct Hp as (tp & Htp & E & El). rewrite (proj2 (tnode_for_ok h p tp (wf_nodup h W))) by auto. cbn [bind].
      destruct (IH tp Htp) as (t' & U & I & L & A); [lia|]. exists t'. repeat split; auto; [lia|].
      eapply anc_up; [|exact A]. exists t. rewrite E. auto.
  Qed.

  Lemma hsub_ok a b : In a (names h) -> In b (names h) -> a <> b -> exists r, hsub h a b = Ok r /\ (r = true <-> anc h b a).
  Proof.
    intros Ha Hb Hne. unfold hsub. destruct (tnode_for_in h a (wf_nodup h W) Ha) as (ta & -> & Ita & Ea). cbn [bind].
    destruct (tnode_for_in h b (wf_nodup h W) Hb) as (tb & -> & Itb & Eb). cbn [bind].
    assert (La : lev a (tn_level ta)) by (exists ta; auto). assert (Lb : lev b (tn_level tb)) by (exists tb; auto).
    destruct (Nat.ltb_spec (tn_level ta) (tn_level tb)) as [H|H].
    { exists false. split; [reflexivity|]. split; [discriminate|]. intros An. destruct (anc_lev _ _ _ _ An Lb La). lia. }
    destruct (Nat.eqb_spec (tn_level ta) (tn_level tb)) as [H'|H'].
    { exists false. split; [reflexivity|]. split; [discriminate|]. intros An. destruct (anc_lev _ _ _ _ An Lb La) as [_ A]. exfalso. apply Hne. symmetry. apply A. lia. }
    destruct (up_ok (tn_level ta - tn_level tb) ta Ita) as (t' & U & I & L & A); [lia|]. rewrite U. cbn [bind].
    assert (Hl : tn_level t' = tn_level tb) by lia. rewrite (proj2 (Nat.eqb_eq _ _) Hl). cbn.
    exists (tn_type t' =? tn_type tb). split; [reflexivity|]. rewrite Nat.eqb_eq, Eb, Ea in *. split.
    - intros <-. exact A.
    - intros An. assert (Lt' : lev (tn_type t') (tn_level tb)) by (exists t'; auto).
      destruct (anc_tree _ _ _ A An) as [Q|Q]; [destruct (anc_lev _ _ _ _ Q Lt' Lb); auto|].
      destruct (anc_lev _ _ _ _ Q Lb Lt') as [_ Q']. symmetry. auto.
  Qed.
End Hier.
