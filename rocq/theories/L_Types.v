(* The subtype test, union and splitting on hierarchy types and unions of them: specification and lemmas. *)
From Verif Require Import M_Base L_Base M_Types L_Hier.

(* ---------------- specification ---------------- *)

(* a hierarchy type or a union of hierarchy types, all in the hierarchy; a union never has exactly one member
   (static_types.py:594) *)
Definition htype (h : hier) (t : ty) : Prop :=
  (exists a, t = Hier a /\ In a (names h)) \/ (exists l, t = UnionT (map Hier l) /\ incl l (names h) /\ NoDup l /\ length l <> 1).
(* the value (leaf) v belongs to the type t *)
Definition hmem (h : hier) (v : nat) (t : ty) : Prop :=
  match t with
  | Hier a => anc h a v
  | UnionT ms => exists a, In (Hier a) ms /\ anc h a v
  | _ => False
  end.
(* the names a type consists of *)
Definition is_member (a : nat) (t : ty) : Prop := t = Hier a \/ exists ms, t = UnionT ms /\ In (Hier a) ms.

(* no member is a subtype of another, and no node's children are all there *)
Definition reduced (h : hier) (S : nat -> Prop) : Prop :=
  (forall x y, S x -> S y -> anc h x y -> x = y) /\
  (forall m c0, par h c0 m -> exists c, par h c m /\ ~ S c).

(* ---------------- subtype ---------------- *)

Definition hn (t : ty) : list nat := flat_map (fun m => match m with Hier n => [n] | _ => [] end) (set_of_types t).

Lemma hn_map l : flat_map (fun m => match m with Hier n => [n] | _ => [] end) (map Hier l) = l.
Proof. induction l as [|x l IH]; cbn; [reflexivity|]. now rewrite IH. Qed.
Lemma htype_set h t : htype h t -> set_of_types t = map Hier (hn t) /\ incl (hn t) (names h).
Proof.
  intros [(a & -> & Ha)|(l & -> & Hl & _)]; unfold hn; cbn [set_of_types].
  - cbn. split; [reflexivity|]. intros x [<-|[]]. exact Ha.
  - rewrite hn_map. auto.
Qed.
Lemma hn_mem h v t : htype h t -> (hmem h v t <-> exists a, In a (hn t) /\ anc h a v).
Proof.
  intros [(a & -> & Ha)|(l & -> & Hl & _)]; unfold hn; cbn [set_of_types hmem].
  - cbn. split; [intros H; exists a; auto|]. intros (b & [<-|[]] & H). exact H.
  - rewrite hn_map. split; intros (a & H1 & H2); exists a; (split; [|exact H2]).
    + apply in_map_iff in H1 as (b & [= ->] & Hb). exact Hb.
    + now apply in_map.
Qed.
Lemma hn_member t a : In a (hn t) <-> is_member a t.
Proof.
  unfold hn, is_member. destruct t; cbn [set_of_types]; try (cbn; split; [intros []|intros [H|(ms & H & _)]; discriminate]).
  - cbn. split; [intros [->|[]]; now left|]. intros [[= ->]|(ms & H & _)]; [now left|discriminate].
  - rewrite in_flat_map. split.
    + intros (x & H1 & H2). right. exists member_types. split; [reflexivity|]. destruct x; cbn in H2; try tauto. destruct H2 as [->|[]]. exact H1.
    + intros [H|(ms & [= <-] & H)]; [discriminate|]. exists (Hier a). cbn. auto.
Qed.

Lemma tmem_map a l : tmem (Hier a) (map Hier l) = true <-> In a l.
Proof.
  unfold tmem. rewrite existsb_exists. split.
  - intros (x & H1 & H2). apply in_map_iff in H1 as (b & <- & Hb). cbn in H2. apply Nat.eqb_eq in H2. now subst.
  - intros H. exists (Hier a). split; [now apply in_map|]. cbn. apply Nat.eqb_refl.
Qed.
Lemma tsubset_map l l' : tsubset (map Hier l) (map Hier l') = true <-> incl l l'.
Proof.
  unfold tsubset. rewrite forallb_forall. split.
  - intros H x Hx. apply tmem_map. apply H. now apply in_map.
  - intros H x Hx. apply in_map_iff in Hx as (a & <- & Ha). apply tmem_map. auto.
Qed.
Lemma no_TBD l : existsb is_TBD (map Hier l) = false.
Proof. induction l; cbn; auto. Qed.

Lemma any_r_ok {A} (f : A -> res bool) (P : A -> Prop) l : (forall x, In x l -> exists r, f x = Ok r /\ (r = true <-> P x)) ->
  exists r, any_r f l = Ok r /\ (r = true <-> exists x, In x l /\ P x).
Proof.
  induction l as [|x l IH]; intros H; cbn [any_r].
  - exists false. split; [reflexivity|]. split; [discriminate|]. intros (x & [] & _).
  - destruct (H x (or_introl eq_refl)) as (r & -> & Hr). cbn [bind]. destruct r.
    + exists true. split; [reflexivity|]. split; [|reflexivity]. intros _. exists x. split; [now left|]. now apply Hr.
    + destruct IH as (r & E & Hr'); [intros y Hy; apply H; now right|]. exists r. split; [exact E|]. rewrite Hr'. split.
      * intros (y & H1 & H2). exists y. split; [now right|exact H2].
      * intros (y & [->|H1] & H2); [apply Hr in H2; discriminate|]. eauto.
Qed.
Lemma all_r_ok {A} (f : A -> res bool) (P : A -> Prop) l : (forall x, In x l -> exists r, f x = Ok r /\ (r = true <-> P x)) ->
  exists r, all_r f l = Ok r /\ (r = true <-> forall x, In x l -> P x).
Proof.
  induction l as [|x l IH]; intros H; cbn [all_r].
  - exists true. split; [reflexivity|]. split; [|reflexivity]. intros _ x [].
  - destruct (H x (or_introl eq_refl)) as (r & -> & Hr). cbn [bind]. destruct r.
    + destruct IH as (r & E & Hr'); [intros y Hy; apply H; now right|]. exists r. split; [exact E|]. rewrite Hr'. split.
      * intros Hy y [<-|Hin]; [now apply Hr|auto].
      * intros Hy y Hin. apply Hy. now right.
    + exists false. split; [reflexivity|]. split; [discriminate|]. intros Hy. apply Hr. apply Hy. now left.
Qed.
Lemma filter_r_ok {A} (f : A -> res bool) (P : A -> Prop) l : (forall x, In x l -> exists r, f x = Ok r /\ (r = true <-> P x)) ->
  exists l', filter_r f l = Ok l' /\ forall x, In x l' <-> In x l /\ P x.
Proof.
  induction l as [|x l IH]; intros H; cbn [filter_r].
  - exists []. split; [reflexivity|]. cbn. tauto.
  - destruct (H x (or_introl eq_refl)) as (r & -> & Hr). cbn [bind]. destruct IH as (l' & -> & Hl'); [intros y Hy; apply H; now right|]. cbn [bind].
    eexists. split; [reflexivity|]. intros y. destruct r.
    + cbn. rewrite Hl'. split; [intros [<-|[H1 H2]]; [split; [auto|now apply Hr]|auto]|]. intros [[<-|H1] H2]; auto.
    + rewrite Hl'. cbn. split; [intros [H1 H2]; auto|]. intros [[<-|H1] H2]; [apply Hr in H2; discriminate|auto].
Qed.

Section Types.
  Variable h : hier.
  Variable sc : list (nat * option nat).
  Hypothesis W : wf h.

  Notation anc' := (anc h).
  Notation N' := (names h).

  Lemma member_sub_ok a b : In a N' -> In b N' -> exists r, member_sub h sc (Hier a) (Hier b) = Ok r /\ (r = true <-> anc' b a).
  Proof.
    intros Ha Hb. cbn [member_sub ty_eqb]. destruct (Nat.eqb_spec a b) as [->|Hne].
    - exists true. split; [reflexivity|]. split; [constructor|reflexivity].
    - now apply hsub_ok.
  Qed.

  Lemma sub_members_ok la lb : incl la N' -> incl lb N' -> exists r, sub_members (member_sub h sc) (map Hier la) (map Hier lb) = Ok r /\
    (r = true <-> forall a, In a la -> exists b, In b lb /\ anc' b a).
  Proof.
    intros Ha Hb. unfold sub_members. rewrite !no_TBD. cbn [orb]. destruct (tsubset (map Hier la) (map Hier lb)) eqn:E.
    - apply tsubset_map in E. exists true. split; [reflexivity|]. split; [|reflexivity]. intros _ a Hin. exists a. split; [auto|constructor].
    - clear E. edestruct (all_r_ok (fun a => any_r (fun b => member_sub h sc a b) (map Hier lb))
        (fun x => exists a, x = Hier a /\ exists b, In b lb /\ anc' b a) (map Hier la)) as (r & Hr & Hr').
      + intros x Hx. apply in_map_iff in Hx as (a & <- & Hin).
        edestruct (any_r_ok (fun b => member_sub h sc (Hier a) b) (fun y => exists b, y = Hier b /\ anc' b a) (map Hier lb)) as (r & Hr & Hr').
        * intros y Hy. apply in_map_iff in Hy as (b & <- & Hinb). destruct (member_sub_ok a b) as (r & E & Hr); auto. exists r. split; [exact E|].
          rewrite Hr. split; [intros H; eauto|]. intros (b' & [= <-] & H). exact H.
        * exists r. split; [exact Hr|]. rewrite Hr'. split.
          -- intros (y & Hy & b & -> & H). exists a. split; [reflexivity|]. exists b. split; [|exact H]. apply in_map_iff in Hy as (b' & [= ->] & Hin'). exact Hin'.
          -- intros (a' & [= <-] & b & Hin' & H). exists (Hier b). split; [now apply in_map|eauto].
      + exists r. split; [exact Hr|]. rewrite Hr'. split.
        * intros H a Hin. destruct (H (Hier a) (in_map _ _ _ Hin)) as (a' & [= <-] & Q). exact Q.
        * intros H x Hx. apply in_map_iff in Hx as (a & <- & Hin). eauto.
  Qed.

  Lemma sub_member_eq f A Bs : sub_member f A Bs = sub_members f [A] Bs.
  Proof.
    unfold sub_member, sub_members. cbn. rewrite orb_false_r, andb_true_r. destruct (is_TBD A || existsb is_TBD Bs); [reflexivity|].
    destruct (tmem A Bs); [reflexivity|]. destruct (any_r (fun b => f A b) Bs) as [[|]|]; reflexivity.
  Qed.
  Lemma sub_with_eq f A B : sub_with f A B = if ty_eqb B (Hier T_Top_) then Ok true else sub_members f (set_of_types A) (set_of_types B).
  Proof. unfold sub_with. destruct (ty_eqb B (Hier T_Top_)); [reflexivity|]. destruct A; try apply sub_member_eq. reflexivity. Qed.

  Lemma sub_ok A B : htype h A -> htype h B -> exists r, is_a_subtype_of_or_equal_to h sc A B = Ok r /\
    (r = true <-> forall a, In a (hn A) -> exists b, In b (hn B) /\ anc' b a).
  Proof.
    intros HA HB. unfold is_a_subtype_of_or_equal_to. rewrite sub_with_eq.
    destruct (htype_set h A HA) as [EA IA], (htype_set h B HB) as [EB IB].
    destruct (ty_eqb B (Hier T_Top_)) eqn:E.
    - assert (B = Hier 0) as ->. { destruct B; cbn in E; try discriminate. apply Nat.eqb_eq in E. now subst. }
      exists true. split; [reflexivity|]. split; [|reflexivity]. intros _ a Ha. exists 0. split; [now left|]. apply anc_root; auto.
    - rewrite EA, EB. apply sub_members_ok; auto.
  Qed.

  Lemma sub_sound A B : htype h A -> htype h B -> is_a_subtype_of_or_equal_to h sc A B = Ok true ->
    forall v, hmem h v A -> hmem h v B.
  Proof.
    intros HA HB E v Hv. destruct (sub_ok A B HA HB) as (r & E' & Hr). assert (r = true) as -> by congruence.
    apply (hn_mem h v A HA) in Hv as (a & Ha & Hv). destruct (proj1 Hr eq_refl a Ha) as (b & Hb & Hba).
    apply (hn_mem h v B HB). exists b. split; [exact Hb|]. eapply anc_trans; eauto.
  Qed.

  (* a reduced type has every type whose values it covers as a subtype *)
  Lemma reduced_covers (S : nat -> Prop) : (forall x, {S x} + {~ S x}) -> reduced h S -> forall a, In a N' ->
    (forall v, leaf h v -> anc' a v -> exists b, S b /\ anc' b v) -> exists b, S b /\ anc' b a.
  Proof.
    intros dec [_ R]. apply (down_ind h W (fun a => (forall v, leaf h v -> anc' a v -> exists b, S b /\ anc' b v) -> exists b, S b /\ anc' b a)).
    intros a Ha IH Hv. destruct (children h a) as [|c0 cs] eqn:E.
    - apply Hv; [|constructor]. split; [exact Ha|]. intros c Hc. apply in_children in Hc. rewrite E in Hc. destruct Hc.
    - assert (Hc0 : par h c0 a) by (apply in_children; rewrite E; now left). destruct (R a c0 Hc0) as (c & Hc & Hn).
      destruct (IH c Hc) as (b & Hb & Hbc).
      + intros v Hl Hcv. apply Hv; [exact Hl|]. eapply anc_trans; [apply anc_par; exact Hc|exact Hcv].
      + exists b. split; [exact Hb|]. inversion Hbc as [|? ? p Hp Hbp]; subst; [contradiction|]. now rewrite (par_fun h W _ _ _ Hp Hc) in Hbp.
  Qed.

  Lemma sub_complete A B : htype h A -> htype h B -> reduced h (fun a => is_member a B) ->
    (forall v, leaf h v -> hmem h v A -> hmem h v B) -> is_a_subtype_of_or_equal_to h sc A B = Ok true.
  Proof.
    intros HA HB R H. destruct (sub_ok A B HA HB) as (r & E & Hr). rewrite E. f_equal. apply Hr. intros a Ha.
    assert (R' : reduced h (fun a => In a (hn B))).
    { destruct R as [R1 R2]. split.
      - intros x y Hx Hy. apply hn_member in Hx, Hy. auto.
      - intros m c0 Hc. destruct (R2 m c0 Hc) as (c & Hc' & Hn). exists c. split; [exact Hc'|]. intros Q. apply Hn. now apply hn_member. }
    destruct (htype_set h A HA) as [_ IA].
    apply (reduced_covers (fun a => In a (hn B)) (fun x => in_dec Nat.eq_dec x (hn B)) R' a (IA a Ha)).
    intros v Hl Hav. apply (hn_mem h v B HB). apply H; [exact Hl|]. apply (hn_mem h v A HA). eauto.
  Qed.

  (* ---------------- union ---------------- *)

  Lemma forallb_exists_false {A} (f : A -> bool) l : forallb f l = false -> exists x, In x l /\ f x = false.
  Proof.
    induction l as [|x l IH]; cbn; [discriminate|]. destruct (f x) eqn:E; cbn; intros H; [|exists x; auto]. destruct (IH H) as (y & Hy & Ey). exists y. auto.
  Qed.
  Lemma existsb_eqb a l : existsb (Nat.eqb a) l = true <-> In a l.
  Proof. rewrite existsb_exists. split; [intros (x & H & E); apply Nat.eqb_eq in E; now subst|]. intros H. exists a. split; [exact H|apply Nat.eqb_refl]. Qed.
  Lemma existsb_eqb' a l : existsb (Nat.eqb a) l = false <-> ~ In a l.
  Proof. rewrite <- existsb_eqb. destruct (existsb (Nat.eqb a) l); split; congruence. Qed.

  Lemma rm_ok : forall fuel n k s, lev h n k -> length h <= fuel + k -> exists s', rm_all_descendants_of h (S fuel) n s = Ok s' /\
    forall x, In x s' <-> In x s /\ ~ (exists c, par h c n /\ anc' c x).
  Proof.
    induction fuel as [|fuel IH]; intros n k s Hk Hf.
    - destruct (lev_in h W n (lev_in' h _ _ Hk)) as (k' & Hk' & Hlt). rewrite (lev_fun h W _ _ _ Hk' Hk) in Hlt. exfalso. lia.
    - remember (S fuel) as F eqn:EF. cbn [rm_all_descendants_of]. 
      assert (G : forall cs s, (forall c, In c cs -> par h c n) -> exists s',
        (fix go (cs : list nat) (s : list nat) : res (list nat) :=
         match cs with
         | [] => Ok s
         | c :: cs' => do s' <- rm_all_descendants_of h F c (filter (fun x => negb (x =? c)) s) ;; go cs' s'
         end) cs s = Ok s' /\ forall x, In x s' <-> In x s /\ ~ (exists c, In c cs /\ anc' c x)).
      { induction cs as [|c cs IHcs]; intros s0 Hcs.
        - exists s0. split; [reflexivity|]. intros x. split; [intros H; split; [exact H|]; intros (c & [] & _)|tauto].
        - destruct (lev_in h W c) as (kc & Hkc & _); [exact (proj1 (par_in h W _ _ (Hcs c (or_introl eq_refl))))|].
          destruct (lev_par h W _ _ _ (Hcs c (or_introl eq_refl)) Hkc) as (k' & -> & Hk'). rewrite (lev_fun h W _ _ _ Hk' Hk) in Hkc.
          destruct (IH c (S k) (filter (fun x => negb (x =? c)) s0) Hkc) as (s1 & E1 & H1); [lia|]. rewrite E1. cbn [bind].
          destruct (IHcs s1) as (s2 & E2 & H2); [intros; apply Hcs; now right|]. exists s2. split; [exact E2|].
          intros x. rewrite H2, H1, filter_In, negb_true_iff, Nat.eqb_neq. split.
          + intros (((A & B) & C) & D). split; [exact A|]. intros (c' & [<-|Hc'] & Hx); [|apply D; eauto].
            apply anc_down in Hx as [Hx|(d & Hd & Hx)]; [congruence|]. apply C. eauto.
          + intros (A & B). split; [split; [split; [exact A|]|]|].
            * intros ->. apply B. exists c. split; [now left|constructor].
            * intros (d & Hd & Hx). apply B. exists c. split; [now left|]. eapply anc_trans; [apply anc_par; exact Hd|exact Hx].
            * intros (d & Hd & Hx). apply B. exists d. split; [now right|exact Hx]. }
      destruct (G (children h n) s) as (s' & E & H); [intros c; apply in_children|]. exists s'. split; [exact E|]. intros x. rewrite H.
      split; intros (A & B); (split; [exact A|]); intros (c & Hc & Hx); apply B; exists c; (split; [|exact Hx]); now apply in_children.
  Qed.

  (* what union_recurse achieves below node n *)
  Definition local_spec (n : nat) (s s' : list nat) : Prop :=
    (forall v, leaf h v -> anc' n v -> ((exists x, In x s' /\ anc' n x /\ anc' x v) <-> (exists x, In x s /\ anc' n x /\ anc' x v))) /\
    (forall x y, In x s' -> In y s' -> anc' n x -> anc' x y -> x = y) /\
    (forall m c0, anc' n m -> par h c0 m -> exists c, par h c m /\ ~ In c s').
  Definition rec_spec (n : nat) (s s' : list nat) : Prop :=
    (forall x, ~ anc' n x -> (In x s' <-> In x s)) /\ local_spec n s s'.
  Lemma local_ext n s s' t t' : (forall x, anc' n x -> (In x s <-> In x t)) -> (forall x, anc' n x -> (In x s' <-> In x t')) ->
    local_spec n s s' -> local_spec n t t'.
  Proof.
    intros H H' (A3 & A4 & A5). split; [|split].
    - intros v Hl Hv. split; intros (x & Hx & Hnx & Hxv).
      + destruct (proj1 (A3 v Hl Hv)) as (y & Hy & Hny & Hyv); [exists x; split; [now apply H'|auto]|]. exists y. split; [now apply H|auto].
      + destruct (proj2 (A3 v Hl Hv)) as (y & Hy & Hny & Hyv); [exists x; split; [now apply H|auto]|]. exists y. split; [now apply H'|auto].
    - intros x y Hx Hy Hnx Hxy. apply A4; auto; [now apply H'|]. apply H'; [|exact Hy]. eapply anc_trans; eauto.
    - intros m c0 Hm Hc0. destruct (A5 m c0 Hm Hc0) as (c & Hc & Hn). exists c. split; [exact Hc|]. intros Hin. apply Hn. apply H'; [|exact Hin].
      eapply anc_trans; [exact Hm|apply anc_par; exact Hc].
  Qed.

  Lemma sibling_disjoint n c d x : par h c n -> par h d n -> anc' c x -> anc' d x -> c = d.
  Proof.
    intros Hc Hd H1 H2. destruct (lev_in h W c (proj1 (par_in h W _ _ Hc))) as (k & Hk & _). destruct (lev_in h W d (proj1 (par_in h W _ _ Hd))) as (j & Hj & _).
    destruct (lev_par h W _ _ _ Hc Hk) as (k' & -> & Hk'), (lev_par h W _ _ _ Hd Hj) as (j' & -> & Hj').
    rewrite (lev_fun h W _ _ _ Hk' Hj') in *. destruct (anc_tree h W _ _ _ H1 H2) as [Q|Q].
    - apply (anc_lev h W _ _ _ _ Q Hk Hj). reflexivity.
    - symmetry. apply (anc_lev h W _ _ _ _ Q Hj Hk). reflexivity.
  Qed.
  Lemma par_not_anc c n : par h c n -> ~ anc' c n.
  Proof.
    intros Hc H. destruct (lev_in h W c (proj1 (par_in h W _ _ Hc))) as (k & Hk & _).
    destruct (lev_par h W _ _ _ Hc Hk) as (k' & -> & Hk'). destruct (anc_lev h W _ _ _ _ H Hk Hk'). lia.
  Qed.

  Lemma union_recurse_eq f n s : union_recurse h (S f) n s =
    if (match children h n with [] => true | _ => false end) then Ok s
    else if existsb (Nat.eqb n) s then rm_all_descendants_of h (S (length h)) n s
    else
      do s1 <- (fix go (cs : list nat) (s : list nat) : res (list nat) :=
                  match cs with
                  | [] => Ok s
                  | c :: cs' => do s' <- union_recurse h f c s ;; go cs' s'
                  end) (children h n) s ;;
      if forallb (fun c => existsb (Nat.eqb c) s1) (children h n)
      then Ok (filter (fun x => negb (existsb (Nat.eqb x) (children h n))) s1 ++ [n])
      else Ok s1.
  Proof. cbn [union_recurse]. destruct (children h n); reflexivity. Qed.

  Lemma union_recurse_ok : forall fuel n k s, lev h n k -> length h <= fuel + k -> incl s N' ->
    exists s', union_recurse h (S fuel) n s = Ok s' /\ incl s' N' /\ rec_spec n s s'.
  Proof.
    induction fuel as [|fuel IH]; intros n k s Hk Hf Hs.
    - destruct (lev_in h W n (lev_in' h _ _ Hk)) as (k' & Hk' & Hlt). rewrite (lev_fun h W _ _ _ Hk' Hk) in Hlt. exfalso. lia.
    - remember (S fuel) as F eqn:EF. rewrite union_recurse_eq. destruct (match children h n with [] => true | _ => false end) eqn:Ec.
      + exists s. split; [reflexivity|]. split; [exact Hs|]. assert (Hl : leaf h n).
        { split; [eapply lev_in'; eauto|]. intros c Hc. apply in_children in Hc. destruct (children h n); [destruct Hc|discriminate]. }
        split; [tauto|]. split; [tauto|]. split.
        * intros x y Hx Hy Hnx Hxy. pose proof (anc_leaf h _ _ Hl Hnx). subst x. now apply (anc_leaf h).
        * intros m d Hnm Hd. pose proof (anc_leaf h _ _ Hl Hnm). subst m. exfalso. eapply Hl; eauto.
      + assert (Hch0 : children h n <> []) by (intros E; now rewrite E in Ec). clear Ec. destruct (existsb (Nat.eqb n) s) eqn:En.
        * apply existsb_eqb in En. destruct (rm_ok (length h) n k s Hk) as (s' & E & H'); [lia|]. exists s'. split; [exact E|].
          assert (Hincl : incl s' N') by (intros x Hx; apply Hs; now apply H' in Hx). split; [exact Hincl|].
          assert (Hstrict : forall x, In x s' -> anc' n x -> x = n).
          { intros x Hx Hnx. apply H' in Hx as [_ Hx]. apply anc_down in Hnx as [->|(d & Hd & Hdx)]; [reflexivity|]. exfalso. eauto. }
          assert (Hn : In n s').
          { apply H'. split; [exact En|]. intros (c & Hc & Hcn). exact (par_not_anc c n Hc Hcn). }
          split; [|split; [|split]].
          -- intros x Hx. rewrite H'. split; [tauto|]. intros Hin. split; [exact Hin|]. intros (c & Hc & Hcx). apply Hx.
             eapply anc_trans; [apply anc_par; exact Hc|exact Hcx].
          -- intros v Hl Hnv. split; intros _; exists n; (split; [assumption|]); (split; [constructor|exact Hnv]).
          -- intros x y Hx Hy Hnx Hxy. rewrite (Hstrict x Hx Hnx). rewrite (Hstrict y Hy); [reflexivity|]. eapply anc_trans; eauto.
          -- intros m d Hnm Hd. exists d. split; [exact Hd|]. intros Hin. assert (anc' n d) as Hnd by (eapply anc_trans; [exact Hnm|apply anc_par; exact Hd]).
             pose proof (Hstrict d Hin Hnd). subst d. exact (par_not_anc n m Hd Hnm).
        * apply existsb_eqb' in En.
          assert (G : forall cs s, (forall c, In c cs -> par h c n) -> NoDup cs -> incl s N' -> exists s1,
            (fix go (cs : list nat) (s : list nat) : res (list nat) :=
               match cs with
               | [] => Ok s
               | c :: cs' => do s' <- union_recurse h F c s ;; go cs' s'
               end) cs s = Ok s1 /\ incl s1 N' /\
            (forall x, ~ (exists c, In c cs /\ anc' c x) -> (In x s1 <-> In x s)) /\ (forall c, In c cs -> local_spec c s s1)).
          { induction cs as [|c cs IHcs]; intros s0 Hcs Hnd Hs0.
            - exists s0. split; [reflexivity|]. split; [exact Hs0|]. split; [tauto|]. intros c [].
            - inversion Hnd as [|? ? Hnc Hnd']; subst.
              assert (Hpc := Hcs c (or_introl eq_refl)). destruct (lev_in h W c) as (kc & Hkc & _); [exact (proj1 (par_in h W _ _ Hpc))|].
              destruct (lev_par h W _ _ _ Hpc Hkc) as (k' & -> & Hk'). rewrite (lev_fun h W _ _ _ Hk' Hk) in Hkc.
              destruct (IH c (S k) s0 Hkc) as (s1 & E1 & I1 & R1); [lia|exact Hs0|]. rewrite E1. cbn [bind].
              destruct (IHcs s1) as (s2 & E2 & I2 & F2 & R2); [intros; apply Hcs; now right|exact Hnd'|exact I1|]. exists s2. split; [exact E2|]. split; [exact I2|].
              assert (Q : forall x, anc' c x -> (In x s2 <-> In x s1)).
              { intros x Hcx. apply F2. intros (d & Hd & Hdx). rewrite (sibling_disjoint n c d x Hpc (Hcs d (or_intror Hd)) Hcx Hdx) in Hnc. contradiction. }
              assert (Q' : forall d x, In d cs -> anc' d x -> (In x s1 <-> In x s0)).
              { intros d x Hd Hdx. apply R1. intros Hcx. rewrite (sibling_disjoint n c d x Hpc (Hcs d (or_intror Hd)) Hcx Hdx) in Hnc. contradiction. }
              split.
              + intros x Hx. rewrite F2; [apply R1|]; [intros Hcx; apply Hx; exists c; split; [now left|exact Hcx]|].
                intros (d & Hd & Hdx). apply Hx. exists d. split; [now right|exact Hdx].
              + intros d [<-|Hd].
                * eapply local_ext; [| |exact (proj2 R1)]; [tauto|]. intros x Hcx. symmetry. now apply Q.
                * eapply local_ext; [| |exact (R2 d Hd)]; [|tauto]. intros x Hdx. eapply Q'; eauto. }
          destruct (G (children h n) s) as (s1 & E1 & I1 & F1 & R1); [intros c; apply in_children| |exact Hs|].
          { unfold children. generalize (wf_nodup h W). unfold names. clear. induction h as [|t l IHl]; intros Hn; cbn; [constructor|].
            inversion Hn as [|? ? Hx Hn']; subst. destruct (tn_parent t) as [p|]; [|auto]. destruct (p =? n); cbn; [|auto]. constructor; [|auto].
            intros Hin. apply Hx. apply in_map_iff in Hin as (t' & Et & Ht). apply filter_In in Ht as [Ht _]. rewrite <- Et. now apply in_map. }
          rewrite E1. cbn [bind].
          assert (Hn1 : ~ In n s1).
          { intros Hin. apply En. apply F1; [|exact Hin]. intros (c & Hc & Hcn). apply in_children in Hc. exact (par_not_anc c n Hc Hcn). }
          assert (Hout : forall x, ~ anc' n x -> (In x s1 <-> In x s)).
          { intros x Hx. apply F1. intros (c & Hc & Hcx). apply in_children in Hc. apply Hx. eapply anc_trans; [apply anc_par; exact Hc|exact Hcx]. }
          assert (HV : forall v, leaf h v -> anc' n v -> ((exists x, In x s1 /\ anc' n x /\ anc' x v) <-> (exists x, In x s /\ anc' n x /\ anc' x v))).
          { intros v Hl Hnv. assert (T : forall t t', ~ In n t -> (forall c, par h c n -> anc' c v ->
                (exists x, In x t /\ anc' c x /\ anc' x v) -> (exists x, In x t' /\ anc' c x /\ anc' x v)) ->
                (exists x, In x t /\ anc' n x /\ anc' x v) -> (exists x, In x t' /\ anc' n x /\ anc' x v)).
            { intros t t' Hnt Ht (x & Hx & Hnx & Hxv). apply anc_down in Hnx as [<-|(c & Hc & Hcx)]; [contradiction|].
              destruct (Ht c Hc) as (y & Hy & Hcy & Hyv); [eapply anc_trans; eauto|exists x; auto|]. exists y. split; [exact Hy|]. split; [|exact Hyv].
              eapply anc_trans; [apply anc_par; exact Hc|exact Hcy]. }
            split; apply T; auto; intros c Hc Hcv; destruct (R1 c (proj2 (in_children h n c) Hc)) as (A & _); apply (A v Hl Hcv). }
          destruct (forallb (fun c => existsb (Nat.eqb c) s1) (children h n)) eqn:Eall.
          -- assert (Hall : forall c, par h c n -> In c s1).
             { intros c Hc. apply existsb_eqb. rewrite forallb_forall in Eall. apply Eall. now apply in_children. }
             eexists. split; [reflexivity|]. set (s2 := filter _ s1 ++ [n]).
             assert (H2 : forall x, In x s2 <-> (In x s1 /\ ~ par h x n) \/ x = n).
             { intros x. unfold s2. rewrite in_app_iff, filter_In, negb_true_iff, existsb_eqb', in_children. cbn. intuition auto. }
             assert (Hbelow : forall x, In x s2 -> anc' n x -> x = n).
             { intros x Hx Hnx. apply H2 in Hx as [[Hx Hp]|Hx]; [|exact Hx]. exfalso. apply anc_down in Hnx as [<-|(c & Hc & Hcx)]; [contradiction|].
               destruct (R1 c (proj2 (in_children h n c) Hc)) as (_ & A & _). apply Hp. rewrite <- (A c x (Hall c Hc) Hx (anc_refl h c) Hcx). exact Hc. }
             assert (Hn2 : In n s2) by (apply H2; now right).
             split.
             { intros x Hx. apply H2 in Hx as [[Hx _] | ->]; [auto|]. eapply lev_in'; eauto. }
             split; [|split; [|split]].
             ++ intros x Hx. rewrite H2, <- (Hout x Hx). split; [intros [[A _] | ->]; [exact A|destruct Hx; constructor]|]. intros A. left. split; [exact A|].
                intros Hp. apply Hx. now apply anc_par.
             ++ intros v Hl Hnv. rewrite <- (HV v Hl Hnv). split.
                ** intros _. destruct (anc_down h _ _ Hnv) as [->|(c & Hc & Hcv)].
                   --- exfalso. destruct (children h v) as [|c cs] eqn:E; [congruence|].
                       apply (proj2 Hl c). apply in_children. rewrite E. now left.
                   --- exists c. split; [auto|]. split; [now apply anc_par|exact Hcv].
                ** intros _. exists n. split; [exact Hn2|]. split; [constructor|exact Hnv].
             ++ intros x y Hx Hy Hnx Hxy. rewrite (Hbelow x Hx Hnx). symmetry. apply Hbelow; [exact Hy|]. eapply anc_trans; eauto.
             ++ intros m c Hnm Hc. exists c. split; [exact Hc|]. intros Hin. assert (anc' n c) as Hnc by (eapply anc_trans; [exact Hnm|apply anc_par; exact Hc]).
                pose proof (Hbelow c Hin Hnc). subst c. exact (par_not_anc n m Hc Hnm).
          -- exists s1. split; [reflexivity|]. split; [exact I1|]. split; [exact Hout|]. split; [exact HV|]. split.
             ++ intros x y Hx Hy Hnx Hxy. apply anc_down in Hnx as [<-|(c & Hc & Hcx)]; [contradiction|].
                destruct (R1 c (proj2 (in_children h n c) Hc)) as (_ & A & _). now apply A.
             ++ intros m c Hnm Hc. apply anc_down in Hnm as [<-|(d & Hd & Hdm)].
                ** destruct (forallb_exists_false _ _ Eall) as (d & Hd & Hd'). exists d. split; [now apply in_children|]. now apply existsb_eqb'.
                ** destruct (R1 d (proj2 (in_children h n d) Hd)) as (_ & _ & A). eapply A; eauto.
  Qed.

  Lemma rm_sub : forall fuel n s s', rm_all_descendants_of h fuel n s = Ok s' -> (NoDup s -> NoDup s') /\ incl s' s.
  Proof.
    induction fuel as [|fuel IH]; intros n s s' H; [discriminate|]. cbn [rm_all_descendants_of] in H. revert s s' H. generalize (children h n).
    induction l as [|c cs IHcs]; intros s s' H.
    - inversion H; subst. split; [auto|apply incl_refl].
    - apply bind_ok in H as (s1 & H1 & H2). destruct (IH _ _ _ H1) as [A1 B1], (IHcs _ _ H2) as [A2 B2]. split.
      + intros Hn. apply A2, A1. now apply NoDup_filter.
      + intros x Hx. apply B2, B1, filter_In in Hx. tauto.
  Qed.
  Lemma union_recurse_aux : forall fuel n s s', union_recurse h fuel n s = Ok s' -> NoDup s ->
    NoDup s' /\ forall x, In x s' -> In x s \/ (anc' n x /\ exists c, par h c x).
  Proof.
    induction fuel as [|fuel IH]; intros n s s' H Hn; [discriminate|]. rewrite union_recurse_eq in H.
    destruct (match children h n with [] => true | _ => false end) eqn:Ec; [inversion H; subst; auto|].
    destruct (existsb (Nat.eqb n) s) eqn:En.
    { apply rm_sub in H as [A B]. split; [auto|]. intros x Hx. left. auto. }
    apply existsb_eqb' in En. apply bind_ok in H as (s1 & H1 & H).
    assert (G : forall cs s s1, (fix go (cs : list nat) (s : list nat) : res (list nat) :=
                  match cs with
                  | [] => Ok s
                  | c :: cs' => do s' <- union_recurse h fuel c s ;; go cs' s'
                  end) cs s = Ok s1 -> NoDup s -> (forall c, In c cs -> par h c n) -> NoDup s1 /\ forall x, In x s1 -> In x s \/ (exists d, par h d n /\ anc' d x /\ exists c, par h c x)).
    { induction cs as [|c cs IHcs]; intros t t1 Ht Hnt Hcs.
      - inversion Ht; subst. auto.
      - apply bind_ok in Ht as (t2 & H2 & Ht). destruct (IH _ _ _ H2 Hnt) as [A B], (IHcs _ _ Ht A (fun c' Hc' => Hcs c' (or_intror Hc'))) as [A' B']. split; [exact A'|].
        intros x Hx. destruct (B' x Hx) as [Q|Q]; [|now right]. destruct (B x Q) as [Q'|[Q1 Q2]]; [now left|]. right. exists c. split; [apply Hcs; now left|auto]. }
    destruct (G _ _ _ H1 Hn) as [A B]; [intros c; apply in_children|]. clear G H1.
    assert (B' : forall x, In x s1 -> In x s \/ (anc' n x /\ exists c, par h c x)).
    { intros x Hx. destruct (B x Hx) as [Q|(d & Hd & Hdx & Q)]; [now left|]. right. split; [|exact Q]. eapply anc_trans; [apply anc_par; exact Hd|exact Hdx]. }
    destruct (forallb (fun c => existsb (Nat.eqb c) s1) (children h n)) eqn:Eall; inversion H; subst; clear H; [|auto].
    destruct (children h n) as [|c0 cs0] eqn:Ech; [discriminate|].
    assert (Hp : par h c0 n) by (apply in_children; rewrite Ech; now left). split.
    - apply (Permutation_NoDup (Permutation_cons_append _ _)). constructor; [|now apply NoDup_filter]. intros Hin. apply filter_In in Hin as [Hin _].
      destruct (B n Hin) as [Q|(d & Hd & Hdn & _)]; [contradiction|]. exact (par_not_anc d n Hd Hdn).
    - intros x Hx. apply in_app_or in Hx as [Hx|[<-|[]]]; [|right; split; [constructor|eauto]]. apply filter_In in Hx as [Hx _]. auto.
  Qed.

  (* union of hierarchy types *)
  Lemma uh_ok l : incl l N' -> NoDup l -> exists l', union_of_hier_memtypes h l = Ok l' /\ incl l' N' /\ NoDup l' /\
    (forall x, In x l' -> In x l \/ exists c, par h c x) /\
    (forall v, leaf h v -> ((exists x, In x l' /\ anc' x v) <-> (exists x, In x l /\ anc' x v))) /\
    (length l <= 1 -> l' = l) /\ (2 <= length l -> reduced h (fun x => In x l')).
  Proof.
    intros Hl Hn. unfold union_of_hier_memtypes. destruct (Nat.leb_spec (length l) 1) as [H|H].
    - exists l. split; [reflexivity|]. split; [exact Hl|]. split; [exact Hn|]. split; [auto|]. split; [tauto|]. split; [auto|lia].
    - destruct (lev_in h W 0 (root_in h W)) as (k & Hk & _). destruct (union_recurse_ok (length h) 0 k l Hk) as (l' & E & I & R1 & R2 & R3 & R4); [lia|exact Hl|].
      unfold T_Top_. exists l'. destruct (union_recurse_aux _ _ _ _ E Hn) as [A B]. split; [exact E|]. split; [exact I|]. split; [exact A|]. split.
      { intros x Hx. destruct (B x Hx) as [Q|[_ Q]]; auto. }
      split; [|split; [lia|]].
      + intros v Hv. assert (Hv0 : anc' 0 v) by (apply anc_root; [exact W|apply Hv]). specialize (R2 v Hv Hv0). split.
        * intros (x & Hx & Hxv). destruct (proj1 R2) as (y & Hy & _ & Hyv); [|eauto]. exists x. split; [exact Hx|]. split; [apply anc_root; auto|exact Hxv].
        * intros (x & Hx & Hxv). destruct (proj2 R2) as (y & Hy & _ & Hyv); [|eauto]. exists x. split; [exact Hx|]. split; [apply anc_root; auto|exact Hxv].
      + intros _. split.
        * intros x y Hx Hy Hxy. apply R3; auto. apply anc_root; auto.
        * intros m c0 Hc. apply (R4 m c0); [|exact Hc]. apply anc_root; [exact W|]. eapply par_in; eauto.
  Qed.

  (* reduced sets with the same values are the same *)
  Lemma reduced_unique (l l' : list nat) : incl l N' -> incl l' N' -> reduced h (fun x => In x l) -> reduced h (fun x => In x l') ->
    (forall v, leaf h v -> ((exists x, In x l /\ anc' x v) <-> (exists x, In x l' /\ anc' x v))) -> forall x, In x l <-> In x l'.
  Proof.
    assert (G : forall l l', incl l N' -> incl l' N' -> reduced h (fun x => In x l) -> reduced h (fun x => In x l') ->
      (forall v, leaf h v -> ((exists x, In x l /\ anc' x v) <-> (exists x, In x l' /\ anc' x v))) -> forall x, In x l -> In x l').
    { clear l l'. intros l l' Hl Hl' R R' H x Hx.
      destruct (reduced_covers (fun a => In a l') (fun y => in_dec Nat.eq_dec y l') R' x (Hl x Hx)) as (y & Hy & Hyx).
      { intros v Hv Hxv. apply (H v Hv). eauto. }
      destruct (reduced_covers (fun a => In a l) (fun y => in_dec Nat.eq_dec y l) R y (Hl' y Hy)) as (z & Hz & Hzy).
      { intros v Hv Hyv. apply (H v Hv). eauto. }
      assert (z = x) by (apply (proj1 R); auto; eapply anc_trans; eauto). subst z.
      rewrite (anc_antisym h W x y Hzy Hyx (Hl x Hx)). exact Hy. }
    intros Hl Hl' R R' H x. split; apply G; auto. intros v Hv. symmetry. auto.
  Qed.
End Types.
