(* Specifications and lemmas about what tables declare about Records. *)
From Coq Require Import Ascii String Lia ZArith.
From Verif Require Import M_Base L_Base M_HTML M_Shared M_Records M_Values M_Refs M_PropPath M_Style M_Tables M_RecTables L_Records Properties_Records L_ValLists L_ValTree L_StyleDesc L_PropPath.
Open Scope list_scope.
Open Scope nat_scope.
Notation length := List.length.

(* ---- histories ---- *)
Fixpoint run (s : st) (os : list op) : res st := match os with [] => Ok s | o :: os' => do s1 <- do_op s o ;; run s1 os' end.
Definition simple (o : op) : Prop := match o with OEnsure _ | OField _ _ _ | OMethod _ _ _ => True | _ => False end.
Lemma run_app s a b : run s (a ++ b) = do s1 <- run s a ;; run s1 b.
Proof. revert s. induction a as [|o a IH]; intros s; [reflexivity|]. cbn [app run]. destruct (do_op s o) as [s1|e]; cbn [bind]; auto. Qed.
Lemma run_reach pre s os s' : reach pre s -> (forall o, In o os -> simple o) -> run s os = Ok s' -> reach (pre ++ os) s'.
Proof.
  revert pre s. induction os as [|o os IH]; intros pre s R F H.
  - apply ok_inj in H. subst s'. now rewrite app_nil_r.
  - cbn [run] in H. destruct (do_op s o) as [s1|e] eqn:E; cbn [bind] in H; [|discriminate].
    replace (pre ++ o :: os) with ((pre ++ [o]) ++ os) by now rewrite <- app_assoc. apply IH with (s := s1); auto.
    + eapply reach_more; eauto. specialize (F o (or_introl eq_refl)). destruct o; cbn [fresh simple] in *; auto; contradiction.
    + intros; apply F; now right.
Qed.
Lemma reach_run os s : reach os s -> run start os = Ok s.
Proof. induction 1 as [|os s o s' R IH F E]; [reflexivity|]. rewrite run_app, IH. cbn [bind run]. rewrite E. reflexivity. Qed.
Lemma reach_iff os s : (forall o, In o os -> simple o) -> (reach os s <-> run start os = Ok s).
Proof. intros F. split; [apply reach_run|]. intros H. apply (run_reach [] start os s reach_start F H). Qed.
Lemma reach_wf os s : reach os s -> wf s.
Proof. intros R. exact (inv_wf _ _ (reach_inv _ _ R)). Qed.
Lemma made_simple os : (forall o, In o os -> simple o) -> made os = [].
Proof. induction os as [|o os IH]; intros F; [reflexivity|]. unfold made. cbn [flat_map]. fold (made os). rewrite IH by (intros; apply F; now right). specialize (F o (or_introl eq_refl)). destruct o; cbn [fresh simple] in *; auto; contradiction. Qed.

(* a declaration, and the same by the name of the schema *)
Lemma root_field s f d : wf s -> exists e, add_field s 0 f d = Err e.
Proof.
  intros W. unfold add_field, somebody_declares_field. destruct (wf_root s W) as (l & fl & m & g & Z). assert (L : 0 < length (schemas s)) by (apply nth_error_Some; congruence).
  destruct (length (schemas s)) as [|k]; [lia|]. cbn [declared_up]. unfold get. rewrite Z. cbn [bind s_fields s_super]. destruct (thas fl f); cbn [bind assert_ negb]; eauto.
Qed.
Lemma root_method s f d : wf s -> exists e, add_method s 0 f d = Err e.
Proof.
  intros W. unfold add_method, somebody_declares_method. destruct (wf_root s W) as (l & fl & m & g & Z). assert (L : 0 < length (schemas s)) by (apply nth_error_Some; congruence).
  destruct (length (schemas s)) as [|k]; [lia|]. cbn [declared_up]. unfold get. rewrite Z. cbn [bind s_methods s_super]. destruct (thas m f); cbn [bind assert_ negb]; eauto.
Qed.
Lemma find_root s : wf s -> find_schema s (tx "Empty Record") = Err KeyError.
Proof. intros W. unfold find_schema. now rewrite (reg_root s W). Qed.
Lemma find_named s i n : wf s -> name_of s i = Some n -> i <> 0 -> find_schema s n = Ok i.
Proof. intros W N Z. unfold find_schema. assert (T : tget (registry s) n = Some i) by (apply (wf_reg s W); auto). now rewrite T. Qed.
Lemma field_op s i n f d s' : wf s -> name_of s i = Some n -> (add_field s i f d = Ok s' <-> do_op s (OField n f d) = Ok s').
Proof.
  intros W N. cbn [do_op]. destruct (Nat.eq_dec i 0) as [->|Z].
  - rewrite (name_root0 s W) in N. assert (n = tx "Empty Record") by congruence. subst n. rewrite find_root by assumption. cbn [bind]. destruct (root_field s f d W) as (e & ->). split; discriminate.
  - rewrite (find_named s i n W N Z). reflexivity.
Qed.
Lemma method_op s i n f d s' : wf s -> name_of s i = Some n -> (add_method s i f d = Ok s' <-> do_op s (OMethod n f d) = Ok s').
Proof.
  intros W N. cbn [do_op]. destruct (Nat.eq_dec i 0) as [->|Z].
  - rewrite (name_root0 s W) in N. assert (n = tx "Empty Record") by congruence. subst n. rewrite find_root by assumption. cbn [bind]. destruct (root_method s f d W) as (e & ->). split; discriminate.
  - rewrite (find_named s i n W N Z). reflexivity.
Qed.
Lemma names_kept os s o s' i n : reach os s -> simple o -> do_op s o = Ok s' -> name_of s i = Some n -> name_of s' i = Some n.
Proof.
  intros R S E N. pose proof (reach_wf os s R) as W. destruct o as [m|m p|m f d|m f d|m f d]; cbn [simple] in S; try contradiction; cbn [do_op] in E.
  - apply bind_ok in E as ((j & s1) & E & E'). apply ok_inj in E'. subst s1. destruct (C70_ensure os s m R) as (j' & s2 & E2 & _ & _ & _ & X & _).
    assert (s2 = s') by congruence. subst s2. unfold name_of in *. destruct (nth_error (schemas s) i) as [x|] eqn:Q; [|discriminate].
    destruct (X i x Q) as (x' & X1 & X2 & _). rewrite X1. cbn [option_map] in *. now rewrite X2.
  - apply bind_ok in E as (j & E & E'). destruct (find_lt s m j W E) as (A & B & _). destruct (C71_add_field os s j f d R A B) as (_ & _ & C). destruct (C s' E') as (T & _). now rewrite (same_name s s' i T).
  - apply bind_ok in E as (j & E & E'). destruct (find_lt s m j W E) as (A & B & _). destruct (C71_add_method os s j f d R A B) as (_ & _ & C). destruct (C s' E') as (T & _). now rewrite (same_name s s' i T).
Qed.
Lemma simple_more os s o s' : reach os s -> simple o -> do_op s o = Ok s' -> reach (os ++ [o]) s'.
Proof. intros R S E. eapply reach_more; eauto. destruct o; cbn [fresh simple] in *; auto; contradiction. Qed.
Lemma ensure_op os s n : reach os s -> exists i s', ensure enough s n = Ok (i, s') /\ do_op s (OEnsure n) = Ok s' /\ reach (os ++ [OEnsure n]) s' /\ name_of s' i = Some n.
Proof. intros R. destruct (C70_ensure os s n R) as (i & s' & E & R' & N & _). exists i, s'. split; [exact E|]. split; [|split; assumption]. cbn [do_op]. rewrite E. reflexivity. Qed.

(* in terms of names *)
Definition declares_field (s : st) (n f : text) (d : nat) : Prop := exists i, i <> 0 /\ name_of s i = Some n /\ field_decl s i f d.
Definition declares_method (s : st) (n f : text) : Prop := exists i d, i <> 0 /\ name_of s i = Some n /\ method_decl s i f d.

Lemma under_above os s i j n m : reach os s -> name_of s i = Some n -> name_of s j = Some m -> i <> 0 -> j <> 0 -> (under s i j <-> above (made os) n m).
Proof.
  intros R. pose proof (reach_inv os s R) as I. pose proof (inv_wf _ _ I) as W. intros Ni Nj Zi Zj. split.
  - intros U. revert n Ni Zi. induction U as [k L|k p j P U IH]; intros n Ni Zi.
    + assert (n = m) by congruence. subst m. constructor.
    + assert (p <> 0) by (intros ->; destruct (under_le s 0 j W U); lia). destruct (parent_lt s k p W P) as (_ & L). destruct (name_some s p) as (q & Q); [destruct (under_le s p j W U); lia|].
      apply above_more with (m := q); [|apply (inv_agrees _ _ I); exists k, p; auto|apply IH; auto].
      apply (reg_not_root s n W). exists k. auto.
  - intros A. revert i Ni Zi. induction A as [n|n q k Nn S A IH]; intros i Ni Zi.
    + rewrite (name_inj s i j n W Ni Nj). constructor. eapply name_lt; eauto.
    + destruct (parent_some s i W Zi (name_lt _ _ _ Ni)) as (p & P). destruct (parent_lt s i p W P) as (L1 & L2). destruct (name_some s p) as (q' & Q'); [lia|].
      assert (q' = q) by (apply (super_in_fun (made os) n q' q (inv_nodup _ _ I)); [apply (inv_agrees _ _ I); exists i, p; auto|assumption]). subst q'.
      apply under_step with (p := p); [assumption|]. apply IH; auto. intros ->. rewrite (name_root0 s W) in Q'. injection Q' as <-. apply above_root in A. subst k.
      apply Zj. apply (name_inj s j 0 (tx "Empty Record") W Nj). now apply name_root0.
Qed.

Lemma reach_snoc os o s' : reach (os ++ [o]) s' -> exists s, reach os s /\ do_op s o = Ok s'.
Proof. intros R. inversion R as [E|os0 s0 o0 s1 R0 F E X]; [destruct os; discriminate|]. apply app_inj_tail in X as (-> & ->). eauto. Qed.
Lemma decls_in os s : (forall o, In o os -> simple o) -> reach os s ->
  (forall n f d, declares_field s n f d <-> In (OField n f d) os) /\ (forall n f, declares_method s n f <-> exists d, In (OMethod n f d) os).
Proof.
  revert s. induction os as [|o os IH] using rev_ind; intros s F R.
  { inversion R as [E|os0 s0 o0 s1 R0 F0 E X]; [|destruct os0; discriminate]. split.
    - intros n f d. split; [|intros []]. intros ([|i] & Z & N & _); [congruence|]. destruct i; discriminate.
    - intros n f. split; [|intros (d & [])]. intros ([|i] & d & Z & N & _); [congruence|]. destruct i; discriminate. }
  destruct (reach_snoc _ _ _ R) as (s0 & R0 & E). assert (F0 : forall o, In o os -> simple o) by (intros; apply F, in_or_app; auto). assert (So : simple o) by (apply F, in_or_app; right; now left).
  destruct (IH s0 F0 R0) as (A & B). pose proof (reach_wf _ _ R0) as W0. pose proof (reach_wf _ _ R) as W.
  assert (LAST : forall x, In x (os ++ [o]) <-> In x os \/ o = x) by (intros x; rewrite in_app_iff; cbn [In]; tauto).
  destruct o as [m|m p|m f0 d0|m f0 d0|m f0 d0]; cbn [simple] in So; try contradiction.
  - destruct (C70_ensure os s0 m R0) as (j & s2 & E2 & R2 & _ & _ & X & _ & D). assert (s2 = s). { cbn [do_op] in E. rewrite E2 in E. cbn [bind] in E. now apply ok_inj in E. } subst s2.
    assert (LT : forall i, i < length (schemas s0) -> name_of s i = name_of s0 i).
    { intros i L. unfold name_of. destruct (nth_error (schemas s0) i) as [x|] eqn:Q; [|apply nth_error_None in Q; lia]. destruct (X i x Q) as (x' & X1 & X2 & _). rewrite X1. cbn [option_map]. now rewrite X2. }
    assert (DL : forall sel i g e, decl sel s0 i g e -> i < length (schemas s0)) by (intros sel i g e (x & Q & _); apply nth_error_Some; congruence).
    split; intros n f.
    + intros d. rewrite LAST. rewrite <- A. split.
      * intros (i & Z & N & G). left. exists i. apply (proj1 (D i f d)) in G. split; [assumption|]. split; [|assumption]. now rewrite <- (LT i (DL s_fields i f d G)).
      * intros [(i & Z & N & G)|Q]; [|discriminate Q]. exists i. split; [assumption|]. split; [now rewrite (LT i (DL s_fields i f d G))|]. now apply (proj1 (D i f d)).
    + transitivity (declares_method s0 n f).
      * split; intros (i & d & Z & N & G); exists i, d.
        -- apply (proj1 (proj2 (D i f d))) in G. split; [assumption|]. split; [|assumption]. now rewrite <- (LT i (DL s_methods i f d G)).
        -- split; [assumption|]. split; [now rewrite (LT i (DL s_methods i f d G))|]. now apply (proj1 (proj2 (D i f d))).
      * rewrite B. split; intros (d & Q); exists d; [rewrite LAST; auto|]. apply LAST in Q as [Q|Q]; [assumption|discriminate Q].
  - cbn [do_op] in E. apply bind_ok in E as (j & E & E'). destruct (find_lt s0 m j W0 E) as (Z & L & N). destruct (C71_add_field os s0 j f0 d0 R0 Z L) as (_ & _ & C). destruct (C s E') as (T & _ & DF & DM & _).
    split; intros n f.
    + intros d. rewrite LAST, <- A. split.
      * intros (i & Zi & Ni & G). apply DF in G as [(-> & -> & ->)|G].
        -- right. rewrite (same_name s0 s j T), N in Ni. injection Ni as ->. reflexivity.
        -- left. exists i. rewrite (same_name s0 s i T) in Ni. auto.
      * intros [(i & Zi & Ni & G)|Q].
        -- exists i. rewrite (same_name s0 s i T). split; [assumption|]. split; [assumption|]. apply DF. auto.
        -- injection Q as <- <- <-. exists j. rewrite (same_name s0 s j T). split; [assumption|]. split; [assumption|]. apply DF. auto.
    + transitivity (declares_method s0 n f).
      * split; intros (i & d & Zi & Ni & G); exists i, d.
        -- rewrite (same_name s0 s i T) in Ni. apply DM in G. auto.
        -- rewrite (same_name s0 s i T). apply DM in G. auto.
      * rewrite B. split; intros (d & Q); exists d; [rewrite LAST; auto|]. apply LAST in Q as [Q|Q]; [assumption|discriminate Q].
  - cbn [do_op] in E. apply bind_ok in E as (j & E & E'). destruct (find_lt s0 m j W0 E) as (Z & L & N). destruct (C71_add_method os s0 j f0 d0 R0 Z L) as (_ & _ & C). destruct (C s E') as (T & _ & DM & DF & _).
    split; intros n f.
    + intros d. rewrite LAST, <- A. split.
      * intros (i & Zi & Ni & G). left. exists i. rewrite (same_name s0 s i T) in Ni. apply DF in G. auto.
      * intros [(i & Zi & Ni & G)|Q]; [|discriminate Q]. exists i. rewrite (same_name s0 s i T). apply DF in G. auto.
    + split.
      * intros (i & d & Zi & Ni & G). apply DM in G as [(-> & -> & ->)|G].
        -- exists d0. apply LAST. right. rewrite (same_name s0 s j T), N in Ni. injection Ni as ->. reflexivity.
        -- assert (Q : declares_method s0 n f) by (exists i, d; rewrite (same_name s0 s i T) in Ni; auto). apply B in Q as (e & Q). exists e. apply LAST. auto.
      * intros (d & Q). apply LAST in Q as [Q|Q].
        -- assert (Y : declares_method s0 n f) by (apply B; eauto). destruct Y as (i & e & Zi & Ni & G). exists i, e. rewrite (same_name s0 s i T). split; [assumption|]. split; [assumption|]. apply DM. auto.
        -- injection Q as <- <- <-. exists j, d0. rewrite (same_name s0 s j T). split; [assumption|]. split; [assumption|]. apply DM. auto.
Qed.

(* a declaration is in order after others: its schema is there, and neither the schema nor one above it has it already *)
Definition fits (a : list op) (o : op) : Prop :=
  match o with
  | OField n f _ => n <> tx "Empty Record" /\ (exists k, In (OEnsure k) a /\ above [] k n) /\ forall m e, In (OField m f e) a -> ~ above [] n m
  | OMethod n f _ => n <> tx "Empty Record" /\ (exists k, In (OEnsure k) a /\ above [] k n) /\ forall m e, In (OMethod m f e) a -> ~ above [] n m
  | _ => True
  end.
Lemma there os s n : (forall o, In o os -> simple o) -> reach os s -> (registered s n <-> n <> tx "Empty Record" /\ exists k, In (OEnsure k) os /\ above [] k n).
Proof.
  intros F R. rewrite (inv_reg _ _ (reach_inv _ _ R) n). rewrite (made_simple os F). unfold asked. split; intros (A & k & B & C); (split; [assumption|]); exists k; split; auto.
  destruct B as [B|(p & B)]; [assumption|]. specialize (F _ B). contradiction.
Qed.
Lemma step_ok os s o : (forall o, In o os -> simple o) -> simple o -> reach os s -> ((exists s', do_op s o = Ok s') <-> fits os o).
Proof.
  intros F So R. pose proof (reach_wf _ _ R) as W. destruct (decls_in os s F R) as (DF & DM). destruct o as [m|m p|n f d|n f d|m f d]; cbn [simple] in So; try contradiction; cbn [fits].
  - split; [tauto|]. intros _. destruct (ensure_op os s m R) as (i & s' & _ & E & _). eauto.
  - assert (AG : n <> tx "Empty Record" /\ (exists k, In (OEnsure k) os /\ above [] k n) <-> exists i, find_schema s n = Ok i).
    { rewrite <- (there os s n F R), (reg_some s n W). unfold find_schema. split; intros (i & Q); [rewrite Q; eauto|]. destruct (tget (registry s) n); [eauto|discriminate]. }
    cbn [do_op]. split.
    + intros (s' & E). apply bind_ok in E as (i & E & E'). assert (X : exists i, find_schema s n = Ok i) by eauto. apply AG in X as (X1 & X2). split; [assumption|]. split; [assumption|].
      intros m e Q A. destruct (find_lt s n i W E) as (Z & L & N). destruct (C71_add_field os s i f d R Z L) as (C & _). apply DF in Q as (j & Zj & Nj & G).
      assert (Y : add_field s i f d = Err AssertionError); [|congruence]. apply C. exists j, e. split; [assumption|]. split; [|assumption]. apply (under_above os s i j n m R N Nj Z Zj). now rewrite (made_simple os F).
    + intros (X1 & X2 & X3). destruct (proj1 AG (conj X1 X2)) as (i & E). rewrite E. cbn [bind]. destruct (find_lt s n i W E) as (Z & L & N). destruct (C71_add_field os s i f d R Z L) as (C & C2 & _).
      destruct (add_field s i f d) as [s'|e] eqn:Q; [eauto|]. exfalso. assert (e = AssertionError) by (now apply C2). subst e. destruct (proj1 C eq_refl) as (j & e & Zj & U & G).
      destruct (name_some s j) as (m & Nm); [destruct (under_le s i j W U); lia|]. apply (X3 m e); [apply DF; exists j; auto|]. apply (under_above os s i j n m R N Nm Z Zj) in U. now rewrite (made_simple os F) in U.
  - assert (AG : n <> tx "Empty Record" /\ (exists k, In (OEnsure k) os /\ above [] k n) <-> exists i, find_schema s n = Ok i).
    { rewrite <- (there os s n F R), (reg_some s n W). unfold find_schema. split; intros (i & Q); [rewrite Q; eauto|]. destruct (tget (registry s) n); [eauto|discriminate]. }
    cbn [do_op]. split.
    + intros (s' & E). apply bind_ok in E as (i & E & E'). assert (X : exists i, find_schema s n = Ok i) by eauto. apply AG in X as (X1 & X2). split; [assumption|]. split; [assumption|].
      intros m e Q A. destruct (find_lt s n i W E) as (Z & L & N). destruct (C71_add_method os s i f d R Z L) as (C & _). assert (Q' : declares_method s m f) by (apply DM; eauto). destruct Q' as (j & e' & Zj & Nj & G).
      assert (Y : add_method s i f d = Err AssertionError); [|congruence]. apply C. exists j, e'. split; [assumption|]. split; [|assumption]. apply (under_above os s i j n m R N Nj Z Zj). now rewrite (made_simple os F).
    + intros (X1 & X2 & X3). destruct (proj1 AG (conj X1 X2)) as (i & E). rewrite E. cbn [bind]. destruct (find_lt s n i W E) as (Z & L & N). destruct (C71_add_method os s i f d R Z L) as (C & C2 & _).
      destruct (add_method s i f d) as [s'|e] eqn:Q; [eauto|]. exfalso. assert (e = AssertionError) by (now apply C2). subst e. destruct (proj1 C eq_refl) as (j & e & Zj & U & G).
      destruct (name_some s j) as (m & Nm); [destruct (under_le s i j W U); lia|]. assert (Q' : declares_method s m f) by (exists j, e; auto). apply DM in Q' as (e' & Q'). apply (X3 m e'); [assumption|].
      apply (under_above os s i j n m R N Nm Z Zj) in U. now rewrite (made_simple os F) in U.
Qed.
Lemma reach_fits os : (forall o, In o os -> simple o) -> ((exists s, reach os s) <-> forall a o b, os = a ++ o :: b -> fits a o).
Proof.
  induction os as [|o os IH] using rev_ind; intros F.
  { split; [intros _ a o b E; destruct a; discriminate|]. intros _. exists start. constructor. }
  assert (F0 : forall o, In o os -> simple o) by (intros; apply F, in_or_app; auto). assert (So : simple o) by (apply F, in_or_app; right; now left). specialize (IH F0). split.
  - intros (s & R). destruct (reach_snoc _ _ _ R) as (s0 & R0 & E). intros a x b Q. destruct b as [|y b] using rev_ind.
    + apply app_inj_tail in Q as (<- & <-). apply (step_ok os s0 o F0 So R0). eauto.
    + clear IHb. assert (Q' : os = a ++ x :: b /\ o = y) by (apply app_inj_tail; rewrite Q, <- app_assoc; reflexivity). destruct Q' as (Q1 & _). apply (proj1 IH) with (b := b); eauto.
  - intros H. destruct (proj2 IH) as (s & R). { intros a x b E. apply (H a x (b ++ [o])). now rewrite E, <- app_assoc. }
    destruct (proj2 (step_ok os s o F0 So R) (H os o [] eq_refl)) as (s' & E). exists s'. now apply simple_more with (s := s).
Qed.
