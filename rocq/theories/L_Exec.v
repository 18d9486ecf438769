(* Specifications and lemmas for M_Exec. *)
From Verif Require Import M_Base L_Base M_Dict L_Dict L_Intrinsics M_Exec.

Notation contour := (list (nat * val)).

Lemma bindM_val {A B} (m : M A) (k : A -> M B) s s' b : bindM m k s = (s', Val b) <-> exists s1 a, m s = (s1, Val a) /\ k a s1 = (s', Val b).
Proof.
  unfold bindM. split.
  - destruct (m s) as [s1 [a|e]]; [intros H; exists s1, a; auto|discriminate].
  - intros (s1 & a & -> & H). exact H.
Qed.
Lemma bindM_eq {A B} (m : M A) (k : A -> M B) s s1 a : m s = (s1, Val a) -> bindM m k s = k a s1.
Proof. unfold bindM. now intros ->. Qed.

(* ---- C34: contours ---- *)

(* a history of one frame, last operation first *)
Inductive op := OStart | OEnd | OLet (x : nat) (v : val) | OSet (x : nat) (v : val).
Definition apply_op (cs : list contour) (o : op) : res (list contour) :=
  match o with
  | OStart => Ok (start_contour cs)
  | OEnd => end_contour cs
  | OLet x v => let_var cs x v
  | OSet x v => set_var cs x v
  end.
Fixpoint history (cs : list contour) (os : list op) : res (list contour) :=
  match os with [] => Ok cs | o :: os' => do cs' <- apply_op cs o ;; history cs' os' end.
(* never more ends than starts: the contour open at first stays open *)
Fixpoint stays_open (depth : nat) (os : list op) : bool :=
  match os with
  | [] => true
  | OStart :: os' => stays_open (S depth) os'
  | OEnd :: os' => match depth with 0 => false | S d => stays_open d os' end
  | _ :: os' => stays_open depth os'
  end.
(* the last value given to x *)
Fixpoint last_given (x : nat) (v : val) (os : list op) : val :=
  match os with
  | [] => v
  | OSet y w :: os' => last_given x (if y =? x then w else v) os'
  | _ :: os' => last_given x v os'
  end.
(* x was introduced in a contour that is still open, and v is the last value given to it *)
Definition visible (os : list op) (x : nat) (v : val) : Prop :=
  exists h1 w h2, os = h1 ++ OLet x w :: h2 /\ stays_open 0 h2 = true /\ last_given x w h2 = v.

Lemma history_app cs a b : history cs (a ++ b) = do cs' <- history cs a ;; history cs' b.
Proof. revert cs. induction a as [|o a IH]; intros cs; [reflexivity|]. cbn. destruct (apply_op cs o); [apply IH|reflexivity]. Qed.
Lemma stays_open_snoc o os : forall d, stays_open d (os ++ [o]) = true -> stays_open d os = true.
Proof. induction os as [|p os IH]; intros d H; [reflexivity|]. destruct p; cbn in *; auto. destruct d; auto. Qed.
(* how deep the contour is after these *)
Fixpoint depth (d : nat) (os : list op) : option nat :=
  match os with
  | [] => Some d
  | OStart :: os' => depth (S d) os'
  | OEnd :: os' => match d with 0 => None | S d => depth d os' end
  | _ :: os' => depth d os'
  end.
Lemma stays_depth os : forall d, stays_open d os = true <-> exists d', depth d os = Some d'.
Proof.
  induction os as [|o os IH]; intros d; cbn; [split; eauto|]. destruct o; try apply IH. destruct d; [|apply IH]. split; [discriminate|]. intros (? & [=]).
Qed.
Lemma depth_snoc o os : forall d, depth d (os ++ [o]) = match depth d os with None => None | Some d' => depth d' [o] end.
Proof. induction os as [|p os IH]; intros d; [reflexivity|]. destruct p; cbn [depth app]; auto. destruct d; auto. Qed.
Lemma last_given_snoc x os o : forall v, last_given x v (os ++ [o]) = match o with OSet y w => if y =? x then w else last_given x v os | _ => last_given x v os end.
Proof. induction os as [|p os IH]; intros v; cbn; [destruct o; try reflexivity; now destruct (x0 =? x)|]. destruct p; apply IH. Qed.

(* the contours hold exactly the visible variables, each once, at the depth where it was introduced *)
Definition represents (os : list op) (cs : list contour) : Prop :=
  (forall x v d, (exists h1 w h2, os = h1 ++ OLet x w :: h2 /\ depth 0 h2 = Some d /\ last_given x w h2 = v) <-> (exists c, nth_error cs d = Some c /\ nget c x = Some v)) /\
  (forall x d d' c c', nth_error cs d = Some c -> nth_error cs d' = Some c' -> in_contour x c = true -> in_contour x c' = true -> d = d').

Lemma in_contour_spec x c : in_contour x c = true <-> exists v, nget c x = Some v.
Proof. unfold in_contour. destruct (nget c x); split; eauto; [discriminate|intros (? & [=])]. Qed.
Lemma snoc_split {A} (l : list A) a h1 b h2 : l ++ [a] = h1 ++ b :: h2 -> (h2 = [] /\ l = h1 /\ a = b) \/ (exists h2', h2 = h2' ++ [a] /\ l = h1 ++ b :: h2').
Proof.
  destruct (@exists_last _ (b :: h2)) as (q & z & E); [discriminate|]. intros H. rewrite E, app_assoc in H. apply app_inj_tail in H as [H1 H2]. subst z.
  destruct q as [|b' q]; cbn in E; injection E as -> E; [left; repeat split; auto; now rewrite H1, app_nil_r|right; exists q; split; [exact E|exact H1]].
Qed.
Lemma let_var_ok cs x v cs' : let_var cs x v = Ok cs' <-> (forall c, In c cs -> in_contour x c = false) /\ exists c t, cs = c :: t /\ cs' = nset c x v :: t.
Proof.
  unfold let_var. destruct (forallb (fun c => negb (in_contour x c)) cs) eqn:E; cbn [assert_ bind].
  - rewrite forallb_forall in E. assert (E' : forall c, In c cs -> in_contour x c = false) by (intros c H; apply E in H; now destruct (in_contour x c)). destruct cs as [|c t].
    + split; [discriminate|]. intros (_ & c & t & [=] & _).
    + split; [intros [= <-]; split; [exact E'|eauto]|]. intros (_ & c0 & t0 & [= <- <-] & ->). reflexivity.
  - split; [discriminate|]. intros (H & _). enough (forallb (fun c => negb (in_contour x c)) cs = true) by congruence. apply forallb_forall. intros c Hc. now rewrite (H c Hc).
Qed.
Lemma represents_step os cs o cs' : represents os cs -> apply_op cs o = Ok cs' -> represents (os ++ [o]) cs'.
Proof.
  intros [HR HU] HO. split.
  - intros x v d. destruct o as [| |y w|y w]; cbn [apply_op] in HO.
    + injection HO as <-. split.
      * intros (h1 & w & h2 & E & D & L). apply snoc_split in E as [(-> & -> & [=])|(h2' & -> & E)]. rewrite depth_snoc in D. rewrite last_given_snoc in L. destruct (depth 0 h2') as [d'|] eqn:D'; [|discriminate]. cbn in D. injection D as <-. cbn.
        apply HR. exists h1, w, h2'. auto.
      * intros (c & H1 & H2). destruct d as [|d]; [cbn in H1; injection H1 as <-; discriminate|]. cbn in H1. destruct (proj2 (HR x v d)) as (h1 & w & h2 & -> & D & L); [eauto|]. exists h1, w, (h2 ++ [OStart]). split; [now rewrite <- app_assoc|]. rewrite depth_snoc, D, last_given_snoc. auto.
    + destruct cs as [|c0 cs]; [discriminate|]. injection HO as <-. split.
      * intros (h1 & w & h2 & E & D & L). apply snoc_split in E as [(-> & -> & [=])|(h2' & -> & E)]. rewrite depth_snoc in D. rewrite last_given_snoc in L. destruct (depth 0 h2') as [d'|] eqn:D'; [|discriminate]. cbn in D. destruct d' as [|d']; [discriminate|]. injection D as <-.
        apply (HR x v (S d')). exists h1, w, h2'. auto.
      * intros (c & H1 & H2). destruct (proj2 (HR x v (S d))) as (h1 & w & h2 & -> & D & L); [exists c; auto|]. exists h1, w, (h2 ++ [OEnd]). split; [now rewrite <- app_assoc|]. rewrite depth_snoc, D, last_given_snoc. auto.
    + apply let_var_ok in HO as (N & c0 & t & -> & ->). split.
      * intros (h1 & w' & h2 & E & D & L). apply snoc_split in E as [(-> & -> & [= <- <-])|(h2' & -> & E)].
        -- cbn in D, L. injection D as <-. subst v. eexists. split; [reflexivity|]. apply nget_nset_same.
        -- rewrite depth_snoc in D. rewrite last_given_snoc in L. destruct (depth 0 h2') as [d'|] eqn:D'; [|discriminate]. cbn in D. injection D as <-.
           destruct (proj1 (HR x v d')) as (c & H1 & H2); [exists h1, w', h2'; auto|]. destruct d' as [|d']; [|exists c; auto]. cbn in H1. injection H1 as <-. exists (nset c0 y w). split; [reflexivity|]. rewrite nget_nset_other; [exact H2|].
           intros ->. enough (in_contour x c0 = true) by (rewrite N in H; [discriminate|now left]). apply in_contour_spec. eauto.
      * intros (c & H1 & H2).
        assert (OLD : (exists c, nth_error (c0 :: t) d = Some c /\ nget c x = Some v) -> exists h1 w0 h2, os ++ [OLet y w] = h1 ++ OLet x w0 :: h2 /\ depth 0 h2 = Some d /\ last_given x w0 h2 = v).
        { intros Q. apply HR in Q as (h1 & w0 & h2 & -> & D & L). exists h1, w0, (h2 ++ [OLet y w]). split; [now rewrite <- app_assoc|]. rewrite depth_snoc, D, last_given_snoc. auto. }
        destruct d as [|d]; [|apply OLD; exists c; auto]. cbn in H1. injection H1 as <-. rewrite nget_nset in H2. destruct (y =? x) eqn:Exy.
        -- apply Nat.eqb_eq in Exy. subst y. injection H2 as ->. exists os, v, []. auto.
        -- apply OLD. exists c0. auto.
    + unfold set_var in HO. apply bind_ok in HO as (u & HA & [= <-]). split.
      * intros (h1 & w' & h2 & E & D & L). apply snoc_split in E as [(-> & -> & [=])|(h2' & -> & E)]. rewrite depth_snoc in D. rewrite last_given_snoc in L. destruct (depth 0 h2') as [d'|] eqn:D'; [|discriminate]. cbn in D. injection D as <-.
        destruct (proj1 (HR x (last_given x w' h2') d')) as (c & H1 & H2); [exists h1, w', h2'; auto|]. rewrite nth_error_map, H1. cbn [option_map]. eexists. split; [reflexivity|]. destruct (y =? x) eqn:Exy.
        -- apply Nat.eqb_eq in Exy. subst y. subst v. replace (in_contour x c) with true by (symmetry; apply in_contour_spec; eauto). apply nget_nset_same.
        -- apply Nat.eqb_neq in Exy. subst v. destruct (in_contour y c); [rewrite nget_nset_other; auto|exact H2].
      * intros (c & H1 & H2). rewrite nth_error_map in H1. destruct (nth_error cs d) as [c0|] eqn:Hc; [|discriminate]. cbn in H1. injection H1 as <-.
        assert (OLD : forall v', nget c0 x = Some v' -> (if y =? x then w else v') = v -> exists h1 w0 h2, os ++ [OSet y w] = h1 ++ OLet x w0 :: h2 /\ depth 0 h2 = Some d /\ last_given x w0 h2 = v).
        { intros v' Q1 Q2. destruct (proj2 (HR x v' d)) as (h1 & w0 & h2 & -> & D & L); [exists c0; auto|]. exists h1, w0, (h2 ++ [OSet y w]). split; [now rewrite <- app_assoc|]. rewrite depth_snoc, D, last_given_snoc, L. auto. }
        destruct (y =? x) eqn:Exy.
        -- apply Nat.eqb_eq in Exy. subst y. destruct (in_contour x c0) eqn:Q.
           ++ rewrite nget_nset_same in H2. injection H2 as ->. apply in_contour_spec in Q as (v' & Q). exact (OLD v' Q eq_refl).
           ++ exfalso. enough (in_contour x c0 = true) by congruence. apply in_contour_spec. eauto.
        -- apply Nat.eqb_neq in Exy. destruct (in_contour y c0); [rewrite nget_nset_other in H2 by exact Exy|]; exact (OLD v H2 eq_refl).
  - destruct o as [| |y w|y w]; cbn [apply_op] in HO.
    + injection HO as <-. intros x [|d] [|d'] c c' H1 H2 Q1 Q2; cbn in H1, H2; [reflexivity|injection H1 as <-; discriminate|injection H2 as <-; discriminate|]. f_equal. eapply HU; eauto.
    + destruct cs as [|c0 cs]; [discriminate|]. injection HO as <-. intros x d d' c c' H1 H2 Q1 Q2. enough (S d = S d') by lia. eapply (HU x); eauto.
    + apply let_var_ok in HO as (N & c0 & t & -> & ->). intros x d d' c c' H1 H2 Q1 Q2.
      assert (K : forall d c, nth_error (nset c0 y w :: t) d = Some c -> in_contour x c = true -> x <> y -> exists c2, nth_error (c0 :: t) d = Some c2 /\ in_contour x c2 = true).
      { intros [|e] c2 G1 G2 Hne; [|exists c2; auto]. cbn in G1. injection G1 as <-. exists c0. split; [reflexivity|]. unfold in_contour in *. rewrite nget_nset_other in G2; auto. }
      assert (K' : forall d c, nth_error (nset c0 y w :: t) d = Some c -> in_contour x c = true -> x = y -> d = 0).
      { intros [|e] c2 G1 G2 ->; [reflexivity|]. cbn in G1. rewrite N in G2; [discriminate|]. right. eapply nth_error_In; exact G1. }
      destruct (Nat.eq_dec x y) as [E|E]; [rewrite (K' _ _ H1 Q1 E), (K' _ _ H2 Q2 E); reflexivity|].
      apply (K _ _ H1 Q1) in E as E1. apply (K _ _ H2 Q2) in E as E2. destruct E1 as (? & ? & ?), E2 as (? & ? & ?). eapply HU; eauto.
    + unfold set_var in HO. apply bind_ok in HO as (u & HA & [= <-]). intros x d d' c c' H1 H2 Q1 Q2. rewrite nth_error_map in H1, H2. destruct (nth_error cs d) as [c1|] eqn:G1; [|discriminate]. destruct (nth_error cs d') as [c2|] eqn:G2; [|discriminate]. cbn in H1, H2. injection H1 as <-. injection H2 as <-.
      assert (K : forall c, in_contour x (if in_contour y c then nset c y w else c) = true -> in_contour x c = true).
      { intros c. destruct (in_contour y c) eqn:Q; [|auto]. unfold in_contour at 1. rewrite nget_nset. destruct (y =? x) eqn:Exy; [apply Nat.eqb_eq in Exy; subst; now rewrite Q|]. fold (in_contour x c). auto. }
      eapply HU; eauto.
Qed.
Lemma represents_init : represents [] [[]].
Proof.
  split.
  - intros x v d. split; [intros ([|] & w & h2 & [=] & _)|]. intros (c & H1 & H2). destruct d as [|[|]]; cbn in H1; try discriminate. injection H1 as <-. discriminate.
  - intros x d d' c c' H1 H2 Q1. destruct d as [|[|]]; cbn in H1; try discriminate. injection H1 as <-. discriminate.
Qed.
Lemma represents_history os : forall pre cs cs', represents pre cs -> history cs os = Ok cs' -> represents (pre ++ os) cs'.
Proof.
  induction os as [|o os IH]; intros pre cs cs' HR H; cbn in H.
  - injection H as <-. now rewrite app_nil_r.
  - apply bind_ok in H as (c1 & H1 & H2). replace (pre ++ o :: os) with ((pre ++ [o]) ++ os) by now rewrite <- app_assoc. eapply IH; [|exact H2]. eapply represents_step; eassumption.
Qed.
Lemma get_var_spec cs x v : get_var cs x = Ok v <-> exists d c, nth_error cs d = Some c /\ nget c x = Some v /\ forall d' c', d' < d -> nth_error cs d' = Some c' -> in_contour x c' = false.
Proof.
  induction cs as [|c cs IH]; cbn [get_var].
  - split; [discriminate|]. intros ([|] & c & [=] & _).
  - destruct (nget c x) as [w|] eqn:E.
    + split.
      * intros [= ->]. exists 0, c. split; [reflexivity|]. split; [exact E|]. intros; lia.
      * intros ([|d] & c0 & H1 & H2 & H3); [cbn in H1; congruence|]. exfalso. specialize (H3 0 c). unfold in_contour in H3. rewrite E in H3. discriminate H3; [lia|reflexivity].
    + rewrite IH. split.
      * intros (d & c0 & H1 & H2 & H3). exists (S d), c0. split; [exact H1|]. split; [exact H2|]. intros [|d'] c' Hd Hc; cbn in Hc; [injection Hc as <-; unfold in_contour; now rewrite E|]. apply (H3 d'); [lia|exact Hc].
      * intros ([|d] & c0 & H1 & H2 & H3); cbn in H1; [congruence|]. exists d, c0. split; [exact H1|]. split; [exact H2|]. intros d' c' Hd Hc. apply (H3 (S d')); [lia|exact Hc].
Qed.
Lemma get_var_err cs x e : get_var cs x = Err e -> e = AssertionError.
Proof. induction cs as [|c cs IH]; cbn [get_var]; [now intros [=]|]. destruct (nget c x); [discriminate|exact IH]. Qed.
Lemma visible_spec os cs x v : represents os cs -> visible os x v <-> exists d c, nth_error cs d = Some c /\ nget c x = Some v.
Proof.
  intros [HR _]. split.
  - intros (h1 & w & h2 & E & D & L). apply stays_depth in D as (d & D). exists d. apply HR. exists h1, w, h2. auto.
  - intros (d & H). apply HR in H as (h1 & w & h2 & E & D & L). exists h1, w, h2. split; [exact E|]. split; [apply stays_depth; eauto|exact L].
Qed.
Lemma filter_one {A} (f : A -> bool) l : (forall d d' c c', nth_error l d = Some c -> nth_error l d' = Some c' -> f c = true -> f c' = true -> d = d') -> length (filter f l) <= 1.
Proof.
  induction l as [|a l IH]; intros H; [cbn; lia|]. cbn. destruct (f a) eqn:E.
  - enough (filter f l = []) as -> by (cbn; lia). destruct (filter f l) as [|b t] eqn:F; [reflexivity|]. exfalso. assert (Hb : In b (filter f l)) by (rewrite F; now left). apply filter_In in Hb as [Hb Fb]. apply In_nth_error in Hb as (d & Hd).
    specialize (H 0 (S d) a b eq_refl Hd E Fb). discriminate.
  - apply IH. intros d d' c c' H1 H2 Q1 Q2. enough (S d = S d') by lia. eapply H; eauto.
Qed.
