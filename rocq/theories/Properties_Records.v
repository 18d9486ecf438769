(* C70 and C71: the hierarchy of Record schemas, and the fields and methods they declare. *)
From Coq Require Import Ascii String Sorted.
From Verif Require Import M_Base M_HTML L_Base M_Records L_Records.
Open Scope list_scope.
Notation length := List.length.

(* C70: the schemas are always a tree with one root: each one but the root has one super-schema, made before it, which lists it once; the names are different and each schema is found under its name. *)
Theorem C70_tree : forall os s, reach os s ->
  (forall i x, nth_error (schemas s) i = Some x -> i <> 0 ->
     s_name x <> tx "Empty Record" /\ tget (registry s) (s_name x) = Some i /\
     exists j y, s_super x = Some j /\ j < i /\ nth_error (schemas s) j = Some y /\ s_level x = S (s_level y) /\ In i (s_subs y)) /\
  (forall j y, nth_error (schemas s) j = Some y -> NoDup (s_subs y) /\ forall i, In i (s_subs y) -> exists x, nth_error (schemas s) i = Some x /\ s_super x = Some j) /\
  (exists r, nth_error (schemas s) 0 = Some r /\ s_name r = tx "Empty Record" /\ s_super r = None /\ s_level r = 0) /\
  (forall n i, tget (registry s) n = Some i -> exists x, nth_error (schemas s) i = Some x /\ s_name x = n /\ i <> 0).
Proof.
  intros os s R. pose proof (inv_wf os s (reach_inv os s R)) as W. split; [|split; [|split]].
  - intros i x E N. destruct (wf_super s W i x E N) as (A & j & y & B1 & B2 & B3 & B4). split; auto. split.
    + apply (wf_reg s W). split; auto. unfold name_of. now rewrite E.
    + exists j, y. repeat split; auto. apply (wf_subs s W j y i B3). unfold parent. now rewrite E.
  - intros j y E. split; [apply sorted_nodup; eapply (wf_sorted s W); eauto|]. intros i I. apply (wf_subs s W j y i E) in I. unfold parent in I.
    destruct (nth_error (schemas s) i) as [x|]; [exists x; auto|discriminate].
  - destruct (wf_root s W) as (l & f & m & d & Z). eexists. split; [exact Z|]. auto.
  - intros n i T. apply (wf_reg s W) in T as (A & B). unfold name_of in B. destruct (nth_error (schemas s) i) as [x|]; [|discriminate]. exists x. injection B as B. auto.
Qed.
(* Asking for a schema never fails, gives the schema of that name, and gives the same one when asked again; nothing already there is changed, but for new sub-schemas; what is new is what is above that name in the table. *)
Theorem C70_ensure : forall os s n, reach os s -> exists i s',
  ensure enough s n = Ok (i, s') /\ reach (os ++ [OEnsure n]) s' /\ name_of s' i = Some n /\ ensure enough s' n = Ok (i, s') /\
  (forall j x, nth_error (schemas s) j = Some x -> exists x', nth_error (schemas s') j = Some x' /\ s_name x' = s_name x /\ s_super x' = s_super x /\ s_level x' = s_level x /\
     s_fields x' = s_fields x /\ s_methods x' = s_methods x /\ s_defns x' = s_defns x) /\
  (forall m, registered s' m <-> registered s m \/ (m <> tx "Empty Record" /\ above (made os) n m)) /\
  (forall j g e, (field_decl s' j g e <-> field_decl s j g e) /\ (method_decl s' j g e <-> method_decl s j g e) /\ (method_defn s' j g e <-> method_defn s j g e)).
Proof.
  intros os s n R. pose proof (reach_inv os s R) as I.
  destruct (ensure_spec (made os) enough s n (inv_wf _ _ I) (inv_agrees _ _ I) (inv_made _ _ I) (inv_nodup _ _ I) (enough_rank n)) as (i & s' & E & W & G & X & N & WA & RG & D).
  exists i, s'. split; auto. split. { apply (reach_more os s (OEnsure n) s' R Logic.I). unfold do_op. now rewrite E. } split; auto. split; [|split; [|split; auto]].
  - apply ensure_again; auto. change enough with 10. lia.
  - intros j x Q. destruct (X j x Q) as (x' & X' & K). exists x'. unfold kept in K. intuition.
Qed.
(* The hierarchy is that of the table, or what the constructor was given; which schemas there are depends only on what was asked for. *)
Theorem C70_hierarchy : forall os s, reach os s ->
  (forall n m, super_name s n m -> super_in (made os) n m) /\
  (forall n, registered s n -> exists m, super_name s n m) /\
  (forall m, registered s m <-> m <> tx "Empty Record" /\ exists n, asked os n /\ above (made os) n m).
Proof.
  intros os s R. pose proof (reach_inv os s R) as I. pose proof (inv_wf _ _ I) as W. split; [exact (inv_agrees _ _ I)|]. split; [|exact (inv_reg _ _ I)].
  intros n (i & A & B). destruct (parent_some s i W A (name_lt _ _ _ B)) as (p & P). destruct (parent_lt s i p W P).
  destruct (name_some s p) as (q & Q); [lia|]. exists q, i, p. auto.
Qed.
(* Hence the order does not matter. *)
Theorem C70_order : forall os os' s s', reach os s -> reach os' s' -> (forall o, In o os <-> In o os') ->
  (forall n, registered s n <-> registered s' n) /\ (forall n m, super_name s n m <-> super_name s' n m).
Proof.
  assert (M : forall os os', (forall o, In o os -> In o os') -> forall x, In x (made os) -> In x (made os')).
  { intros os os' H x X. unfold made in *. apply in_flat_map in X as (o & O & X). apply in_flat_map. exists o. auto. }
  assert (SI : forall cs cs', (forall x, In x cs <-> In x cs') -> forall n m, super_in cs n m -> super_in cs' n m).
  { intros cs cs' H n m [K|(K & L)]; [left; now apply H|right; split; auto]. intros Q. apply K. apply in_map_iff in Q as (x & <- & Q). apply in_map. now apply H. }
  assert (AB : forall cs cs', (forall x, In x cs <-> In x cs') -> forall n m, above cs n m -> above cs' n m).
  { intros cs cs' H n m K. induction K; [constructor|]. eapply above_more; eauto. }
  assert (ALL : forall os os' s s', reach os s -> reach os' s' -> (forall o, In o os <-> In o os') ->
     (forall n, registered s n -> registered s' n) /\ (forall n m, super_name s n m -> super_name s' n m)).
  { intros os os' s s' R R' H. pose proof (reach_inv _ _ R) as I. pose proof (reach_inv _ _ R') as I'.
    assert (MM : forall x, In x (made os) <-> In x (made os')) by (intros x; split; apply M; intros o; apply H).
    assert (G : forall n, registered s n -> registered s' n).
    { intros n Q. apply (inv_reg _ _ I) in Q as (A & k & B & C). apply (inv_reg _ _ I'). split; auto. exists k. split; [|eapply AB; eauto].
      destruct B as [B|(p & B)]; [left; now apply H|right; exists p; now apply H]. }
    split; auto. intros n m Q. assert (RN : registered s n) by (destruct Q as (i & j & A & B & _); exists i; auto). apply G in RN.
    destruct (proj1 (proj2 (C70_hierarchy _ _ R')) n RN) as (m' & Q'). replace m with m'; auto.
    apply (super_in_fun (made os') n m' m); [apply (inv_nodup _ _ I')|exact (inv_agrees _ _ I' n m' Q')|]. eapply SI; [exact MM|]. now apply (inv_agrees _ _ I). }
  intros os os' s s' R R' H. destruct (ALL os os' s s' R R' H) as (A & B). destruct (ALL os' os s' s R' R) as (A' & B'); [intros o; symmetry; apply H|].
  split; intros; split; auto.
Qed.
(* Going down from a schema gives the schemas below it, each once and after its super-schema; from the root, all of them. *)
Theorem C70_down : forall os s i, reach os s -> i < length (schemas s) -> exists l,
  subtree s i = Ok l /\ NoDup l /\ hd_error l = Some i /\ (forall k, In k l <-> under s k i) /\
  (forall l1 j l2, l = l1 ++ j :: l2 -> j <> i -> exists p, parent s j = Some p /\ In p l1) /\
  (i = 0 -> forall k, In k l <-> k < length (schemas s)).
Proof.
  intros os s i R L. pose proof (inv_wf _ _ (reach_inv _ _ R)) as W. destruct (subtree_spec s i W L) as (r & E & N & M & Q).
  exists (i :: r). repeat split; auto; try apply M.
  - intros H0. apply M in H0. apply under_le in H0; auto. lia.
  - intros H0. apply M. subst. now apply under_root.
Qed.
(* Going up from a schema, other than the root, gives the schema and what it is below, without the root. *)
Theorem C70_up : forall os s i, reach os s -> i <> 0 -> i < length (schemas s) -> exists l,
  self_and_supers s i = Ok l /\ hd_error l = Some i /\ (forall k, In k l <-> k <> 0 /\ under s i k) /\
  (forall l1 a b l2, l = l1 ++ a :: b :: l2 -> parent s a = Some b) /\ length l = level_of s i.
Proof.
  intros os s i R N L. pose proof (inv_wf _ _ (reach_inv _ _ R)) as W. destruct (self_and_supers_chain s i W N L) as (r & E & C).
  exists (i :: r). split; auto. split; auto. split; [eapply chain_under; eauto|]. split.
  - clear E. remember (i :: r) as l. clear Heql. induction C as [j P|a b l P Nb C IH]; intros l1 c d l2 Q.
    + destruct l1 as [|? [|? l1]]; discriminate.
    + destruct l1 as [|e l1]; injection Q as; [congruence|eauto].
  - assert (LV : forall l, chain s l -> forall j q, l = j :: q -> length l = level_of s j); [|eapply LV; eauto].
    clear - W. intros l C. induction C as [j P|a b l P Nb C IH]; intros j0 q Q; injection Q as <- <-.
    + rewrite (level_parent s j 0 W P). unfold level_of. destruct (wf_root s W) as (? & ? & ? & ? & ->). reflexivity.
    + rewrite (level_parent s a b W P). cbn [length]. f_equal. now apply (IH b l).
Qed.
(* The two agree, and with the test for being a sub-schema in the type system. *)
Theorem C70_dual : forall os s a b la lb, reach os s -> a <> 0 -> b <> 0 -> self_and_supers s a = Ok la -> subtree s b = Ok lb ->
  (In b la <-> In a lb) /\ (is_sub_schema s a b = Ok true <-> In a lb) /\ (is_sub_schema s a b = Ok false <-> ~ In a lb).
Proof.
  intros os s a b la lb R A B UP DN. pose proof (inv_wf _ _ (reach_inv _ _ R)) as W.
  assert (LA : a < length (schemas s)).
  { destruct (nth_error (schemas s) a) eqn:E; [apply nth_error_Some; congruence|]. unfold self_and_supers in UP. apply bind_ok in UP as (r & UP & _).
    destruct (length (schemas s)); [discriminate|]. cbn [supers] in UP. unfold get in UP. rewrite E in UP. discriminate. }
  assert (LB : b < length (schemas s)).
  { destruct (nth_error (schemas s) b) eqn:E; [apply nth_error_Some; congruence|]. unfold subtree in DN.
    destruct (length (schemas s)); [discriminate|]. cbn [preorder] in DN. unfold get in DN. rewrite E in DN. discriminate. }
  destruct (C70_up os s a R A LA) as (l & E1 & _ & U & _). destruct (C70_down os s b R LB) as (l' & E2 & _ & _ & D & _).
  assert (l = la) by congruence. assert (l' = lb) by congruence. subst. rewrite U, D.
  assert (EB : existsb (Nat.eqb b) la = true <-> under s a b).
  { rewrite existsb_exists. split; [intros (x & X & Q); apply Nat.eqb_eq in Q; subst; now apply U|]. intros Q. exists b. split; [now apply U|apply Nat.eqb_refl]. }
  split; [tauto|]. unfold is_sub_schema. rewrite UP. cbn [bind]. split; [rewrite <- EB; split; congruence|].
  rewrite <- EB. destruct (existsb (Nat.eqb b) la); split; congruence.
Qed.
(* The depth of a subtree is the number of levels in it; the levels of the tables printed for a top-level schema are thus those of its subtree. *)
Theorem C70_depth : forall os s i, reach os s -> i < length (schemas s) -> exists d,
  get_depth_of_subtree s i = Ok (S d) /\ (exists k, under s k i /\ level_of s k = level_of s i + d) /\ (forall k, under s k i -> level_of s i <= level_of s k <= level_of s i + d) /\
  (parent s i = Some 0 -> forall k, under s k i -> 1 <= level_of s k <= S d).
Proof.
  intros os s i R L. pose proof (inv_wf _ _ (reach_inv _ _ R)) as W. destruct (depth_spec (length (schemas s)) s i W L) as (d & E & K & B); [lia|].
  exists d. split; auto. split; auto. assert (B2 : forall k, under s k i -> level_of s i <= level_of s k <= level_of s i + d).
  { intros k U. split; auto. now apply level_under. }
  split; auto. intros P k U. specialize (B2 k U). rewrite (level_parent s i 0 W P) in B2. unfold level_of at 1 4 in B2.
  destruct (wf_root s W) as (? & ? & ? & ? & Z). rewrite Z in B2. cbn [s_level] in B2. lia.
Qed.
(* The generator self_and_supers does not work for the root itself: its super-schema is None. *)
Theorem C70_root_refuted : exists os s, reach os s /\ self_and_supers s 0 = Err AttributeError.
Proof. exists [], start. split; [constructor|reflexivity]. Qed.
(* The constructor does not look whether there is a schema of that name: the old one stays in the hierarchy, but is not found by its name any more. *)
Theorem C70_constructor_refuted : exists os s s', reach os s /\ do_op s (OConstruct (tx "Module Record") (tx "Empty Record")) = Ok s' /\
  name_of s' 1 = Some (tx "Module Record") /\ name_of s' 2 = Some (tx "Module Record") /\ tget (registry s') (tx "Module Record") = Some 2 /\
  subtree s' 0 = Ok [0; 1; 2].
Proof.
  exists [OEnsure (tx "Module Record")]. eexists. eexists. split; [apply (reach_more [] start (OEnsure (tx "Module Record")) _ reach_start I); vm_compute; reflexivity|].
  split; [vm_compute; reflexivity|]. repeat split; vm_compute; reflexivity.
Qed.

(* histories for the examples *)
Lemma run_history : forall os pre s s', reach pre s -> (forall o, In o os -> match o with OConstruct _ _ => False | _ => True end) ->
  fold_left (fun r o => bind r (fun t => do_op t o)) os (Ok s) = Ok s' -> reach (pre ++ os) s'.
Proof.
  assert (ERR : forall os e s', fold_left (fun r o => bind r (fun t => do_op t o)) os (Err e) <> Ok s') by (induction os as [|o os IH]; intros e s'; cbn [fold_left bind]; [discriminate|apply IH]).
  induction os as [|o os IH]; intros pre s s' R F H; [rewrite app_nil_r; injection H as <-; auto|].
  cbn [fold_left bind] in H. destruct (do_op s o) as [t|e] eqn:E; [|exfalso; eapply ERR; eauto].
  replace (pre ++ o :: os) with ((pre ++ [o]) ++ os) by now rewrite <- app_assoc. eapply IH; eauto; [|intros; apply F; now right].
  eapply reach_more; eauto. specialize (F o (or_introl eq_refl)). destruct o; cbn; auto.
Qed.
Definition ex_ops : list op :=
  [OEnsure (tx "Source Text Module Record"); OEnsure (tx "Module Record"); OField (tx "Module Record") (tx "[[Realm]]") 1; OMethod (tx "Cyclic Module Record") (tx "InitializeEnvironment") 2;
   OEnsure (tx "PrivateElement"); OEnsure (tx "Synthetic Module Record"); OMethod (tx "Synthetic Module Record") (tx "InitializeEnvironment") 3;
   OField (tx "Source Text Module Record") (tx "[[Context]]") 4; ODefn (tx "Source Text Module Record") (tx "InitializeEnvironment") 5; ODefn (tx "PrivateElement") (tx "Link") 6].
Definition run_ops (os : list op) : st := match fold_left (fun r o => bind r (fun t => do_op t o)) os (Ok start) with Ok s => s | Err _ => start end.
Definition ex_st : st := run_ops ex_ops.
Lemma ex_reach : reach ex_ops ex_st.
Proof. apply (run_history ex_ops [] start ex_st reach_start); [|vm_compute; reflexivity]. intros o H. cbn in H. repeat (destruct H as [<-|H]; [exact I|]). destruct H. Qed.
Definition names_in (s : st) (r : res (list nat)) : list (option text) := match r with Ok l => map (name_of s) l | Err _ => [] end.
Example C70_ex_tree : map s_level (schemas ex_st) = [0; 1; 2; 3; 1; 2] /\ map s_super (schemas ex_st) = [None; Some 0; Some 1; Some 2; Some 0; Some 1].
Proof. vm_compute. auto. Qed.
Example C70_ex_down : names_in ex_st (subtree ex_st 1) = [Some (tx "Module Record"); Some (tx "Cyclic Module Record"); Some (tx "Source Text Module Record"); Some (tx "Synthetic Module Record")].
Proof. vm_compute. reflexivity. Qed.
Example C70_ex_up : names_in ex_st (self_and_supers ex_st 3) = [Some (tx "Source Text Module Record"); Some (tx "Cyclic Module Record"); Some (tx "Module Record")].
Proof. vm_compute. reflexivity. Qed.
Example C70_ex_dual : is_sub_schema ex_st 3 1 = Ok true /\ is_sub_schema ex_st 1 3 = Ok false /\ is_sub_schema ex_st 3 4 = Ok false /\ get_depth_of_subtree ex_st 1 = Ok 3.
Proof. vm_compute. auto. Qed.
(* the two calls of the constructor in static_types.py:1168-1169, in a state where the schemas are there already, and before *)
Example C70_ex_constructor : exists s, reach (ex_ops ++ [OConstruct (tx "other Module Record") (tx "Module Record")]) s /\ super_name s (tx "other Module Record") (tx "Module Record").
Proof.
  eexists. split; [eapply reach_more; [exact ex_reach| |vm_compute; reflexivity]|].
  - cbn [fresh]. split; [|split; [discriminate|split; [discriminate|]]].
    + intros Q. apply reg_some in Q as (i & Q); [vm_compute in Q; discriminate|exact (inv_wf _ _ (reach_inv _ _ ex_reach))].
    + intros k (l & A & B). cbn [In spec_table] in A. repeat (destruct A as [A|A]; [injection A as A _; discriminate|]). destruct A.
  - exists 6, 1. repeat split; try discriminate; vm_compute; reflexivity.
Qed.
Example C70_ex_order : forall s s', reach [OEnsure (tx "Module Record"); OEnsure (tx "Source Text Module Record")] s -> reach [OEnsure (tx "Source Text Module Record"); OEnsure (tx "Module Record")] s' ->
  forall n m, super_name s n m <-> super_name s' n m.
Proof. intros s s' R R'. eapply C70_order; eauto. intros o. cbn. tauto. Qed.

(* ================================================================ C71 ================================================================ *)
(* C71: a field is added unless the schema or one above it declares it already; then that schema, and no other, declares it. *)
Theorem C71_add_field : forall os s i f d, reach os s -> i <> 0 -> i < length (schemas s) ->
  (add_field s i f d = Err AssertionError <-> exists j e, j <> 0 /\ under s i j /\ field_decl s j f e) /\
  (forall e, add_field s i f d = Err e -> e = AssertionError) /\
  (forall s', add_field s i f d = Ok s' -> same_tree s s' /\ warnings s' = warnings s /\
     (forall j g e, field_decl s' j g e <-> (j = i /\ g = f /\ e = d) \/ field_decl s j g e) /\
     (forall j g e, method_decl s' j g e <-> method_decl s j g e) /\ (forall j g e, method_defn s' j g e <-> method_defn s j g e)).
Proof.
  intros os s i f d R N L. pose proof (inv_wf _ _ (reach_inv _ _ R)) as W.
  destruct (add_field_spec s i f d W N L) as [(A & B)|(A & s1 & B & C & _ & D & E)]; rewrite B.
  - split; [tauto|]. split; [congruence|discriminate].
  - split; [split; [discriminate|contradiction]|]. split; [discriminate|]. intros s' Q. injection Q as <-. auto.
Qed.
Theorem C71_add_method : forall os s i f d, reach os s -> i <> 0 -> i < length (schemas s) ->
  (add_method s i f d = Err AssertionError <-> exists j e, j <> 0 /\ under s i j /\ method_decl s j f e) /\
  (forall e, add_method s i f d = Err e -> e = AssertionError) /\
  (forall s', add_method s i f d = Ok s' -> same_tree s s' /\ warnings s' = warnings s /\
     (forall j g e, method_decl s' j g e <-> (j = i /\ g = f /\ e = d) \/ method_decl s j g e) /\
     (forall j g e, field_decl s' j g e <-> field_decl s j g e) /\ (forall j g e, method_defn s' j g e <-> method_defn s j g e)).
Proof.
  intros os s i f d R N L. pose proof (inv_wf _ _ (reach_inv _ _ R)) as W.
  destruct (add_method_spec s i f d W N L) as [(A & B)|(A & s1 & B & C & _ & D & E)]; rewrite B.
  - split; [tauto|]. split; [congruence|discriminate].
  - split; [split; [discriminate|contradiction]|]. split; [discriminate|]. intros s' Q. injection Q as <-. auto.
Qed.
(* A definition of a method is recorded unless that schema has one of that name already; there is a warning exactly when nobody in the chain declares the method. *)
Theorem C71_add_defn : forall os s i f d, reach os s -> i <> 0 -> i < length (schemas s) ->
  (add_defn s i f d = Err AssertionError <-> exists e, method_defn s i f e) /\
  (forall e, add_defn s i f d = Err e -> e = AssertionError) /\
  (forall s', add_defn s i f d = Ok s' -> same_tree s s' /\
     ((exists j e, j <> 0 /\ under s i j /\ method_decl s j f e) -> warnings s' = warnings s) /\
     (~ (exists j e, j <> 0 /\ under s i j /\ method_decl s j f e) -> warnings s' = warnings s ++ [(i, f)]) /\
     (forall j g e, method_defn s' j g e <-> (j = i /\ g = f /\ e = d) \/ method_defn s j g e) /\
     (forall j g e, field_decl s' j g e <-> field_decl s j g e) /\ (forall j g e, method_decl s' j g e <-> method_decl s j g e)).
Proof.
  intros os s i f d R N L. pose proof (inv_wf _ _ (reach_inv _ _ R)) as W.
  destruct (add_defn_spec s i f d W N L) as [(A & B)|(A & s1 & B & C & _ & D & E)]; rewrite B.
  - split; [tauto|]. split; [congruence|discriminate].
  - split; [split; [discriminate|contradiction]|]. split; [discriminate|]. intros s' Q. injection Q as <-. split; auto. destruct D as [(D1 & D2)|(D1 & D2)]; (split; [|split; [|exact E]]); intros D3; auto; contradiction.
Qed.
(* The fields of a record type are those declared by its schema and those above; of two declarations of one field the nearer one counts. *)
Theorem C71_fields : forall os s i, reach os s -> i <> 0 -> i < length (schemas s) -> exists d, fields_of s i = Ok d /\
  forall f v, tget d f = Some v <->
    exists j, j <> 0 /\ under s i j /\ field_decl s j f v /\ (forall k e, k <> 0 -> under s i k -> under s k j -> field_decl s k f e -> k = j).
Proof.
  intros os s i R N L. pose proof (inv_wf _ _ (reach_inv _ _ R)) as W. destruct (fields_of_spec s i W N L) as (d & E & S). exists d. split; auto.
  intros f v. rewrite S. unfold nearest. split; intros (j & H); exists j; tauto.
Qed.
(* no schema declares a field that one above it declares *)
Definition no_shadow (s : st) : Prop := forall i j f d e, i <> 0 -> j <> 0 -> under s i j -> field_decl s i f d -> field_decl s j f e -> i = j.
(* That remains so when a field is added, if no schema below declares the field ... *)
Theorem C71_no_shadow : forall os s i f d s', reach os s -> i <> 0 -> i < length (schemas s) -> add_field s i f d = Ok s' -> no_shadow s ->
  (no_shadow s' <-> forall k e, under s k i -> k <> i -> ~ field_decl s k f e).
Proof.
  intros os s i f d s' R N L E NS. pose proof (inv_wf _ _ (reach_inv _ _ R)) as W. destruct (C71_add_field os s i f d R N L) as (A1 & _ & A). destruct (A s' E) as (T & _ & D & _). clear A.
  assert (NO : ~ exists j e, j <> 0 /\ under s i j /\ field_decl s j f e) by (intros H; apply A1 in H; congruence). split.
  - intros NS' k e U K F. apply K. apply (NS' k i f e d); auto.
    + intros ->. apply under_le in U; auto. lia.
    + now apply (same_under s s' T).
    + apply D. auto.
    + apply D. auto.
  - intros H a b g x y A B U DA DB. apply (same_under s s' T) in U. apply D in DA. apply D in DB.
    destruct DA as [(-> & -> & ->)|DA], DB as [(-> & Q & ->)|DB]; auto.
    + exfalso. apply NO. exists b, y. auto.
    + subst g. destruct (Nat.eq_dec a i); auto. exfalso. eapply H; eauto.
    + apply (NS a b g x y); auto.
Qed.
(* ... and in that case a field has one declaration in the chain *)
Theorem C71_one_declaration : forall os s i d f v, reach os s -> no_shadow s -> i <> 0 -> i < length (schemas s) -> fields_of s i = Ok d ->
  (tget d f = Some v <-> exists j, j <> 0 /\ under s i j /\ field_decl s j f v).
Proof.
  intros os s i d f v R NS N L E. destruct (C71_fields os s i R N L) as (d' & E' & S). assert (d' = d) by congruence. subst. rewrite S. split.
  - intros (j & A & B & C & _). eauto.
  - intros (j & A & B & C). exists j. repeat split; auto. intros k e K U1 U2 D. apply (NS k j f e v); auto.
Qed.
(* ... but that is not checked: the tables of the specification may come in an order where the field is declared below first. *)
Theorem C71_shadow_refuted : exists os s d, reach os s /\ ~ no_shadow s /\ fields_of s 3 = Ok d /\ tget d (tx "[[Realm]]") = Some 1.
Proof.
  exists [OEnsure (tx "Source Text Module Record"); OField (tx "Source Text Module Record") (tx "[[Realm]]") 1; OField (tx "Module Record") (tx "[[Realm]]") 2].
  exists (run_ops [OEnsure (tx "Source Text Module Record"); OField (tx "Source Text Module Record") (tx "[[Realm]]") 1; OField (tx "Module Record") (tx "[[Realm]]") 2]).
  eexists. split; [|split; [|split; [vm_compute; reflexivity|vm_compute; reflexivity]]].
  - refine (run_history _ [] start _ reach_start _ _); [|vm_compute; reflexivity]. intros o H. cbn in H. repeat (destruct H as [<-|H]; [exact I|]). destruct H.
  - intros NS. assert (Q : 3 = 1); [|discriminate]. apply (NS 3 1 (tx "[[Realm]]") 1 2); try discriminate.
    + eapply under_step; [vm_compute; reflexivity|]. eapply under_step; [vm_compute; reflexivity|]. constructor. vm_compute. lia.
    + eexists. split; vm_compute; reflexivity.
    + eexists. split; vm_compute; reflexivity.
Qed.
(* The schemas for which a method is declared, from some schema down: the topmost ones; each schema below that has the method, by a declaration in its chain up to there, is below exactly one of these. *)
Theorem C71_declarers : forall os s m b, reach os s -> b < length (schemas s) -> exists l, schemas_that_declare s m b = Ok l /\ NoDup l /\
  (forall j, In j l <-> under s j b /\ (exists d, method_decl s j m d) /\ forall k e, under s j k -> under s k b -> method_decl s k m e -> k = j) /\
  (forall k, under s k b -> ((exists j e, under s k j /\ under s j b /\ method_decl s j m e) <-> exists t, In t l /\ under s k t)) /\
  (forall k t t', In t l -> In t' l -> under s k t -> under s k t' -> t = t').
Proof.
  intros os s m b R L. pose proof (inv_wf _ _ (reach_inv _ _ R)) as W. destruct (declarers_spec m (length (schemas s)) s b W L) as (l & E & N & S); [lia|].
  exists l. split; auto. split; auto. split; [exact S|]. split.
  - intros k U. split.
    + intros (j & e & A & B & C). destruct (topmost_covers s b m k j e W A B C) as (t & T & V). exists t. split; auto. now apply S.
    + intros (t & T & V). apply S in T as (A & (e & B) & _). exists t, e. auto.
  - intros k t t' T T' U V. apply S in T. apply S in T'. eapply topmost_apart; eauto.
Qed.
(* When no schema declares a method that one above it declares, these are all the schemas that declare it: going deeper would give nothing more. *)
Theorem C71_all_declarers : forall os s m b l, reach os s -> b < length (schemas s) -> schemas_that_declare s m b = Ok l ->
  (forall i j d e, under s i j -> method_decl s i m d -> method_decl s j m e -> i = j) -> forall j, In j l <-> under s j b /\ exists d, method_decl s j m d.
Proof.
  intros os s m b l R L E NS j. destruct (C71_declarers os s m b R L) as (l' & E' & _ & S & _). assert (l' = l) by congruence. subst. rewrite S. split; [tauto|].
  intros (A & (d & D)). split; auto. split; eauto. intros k e U _ K. symmetry. eapply NS; eauto.
Qed.
(* ... and the assertion does not see a declaration of a method below either, the deeper one is then left out. *)
Theorem C71_all_declarers_refuted : exists os s, reach os s /\ (exists d, method_decl s 2 (tx "Link") d) /\ under s 2 1 /\ schemas_that_declare s (tx "Link") 1 = Ok [1].
Proof.
  exists [OEnsure (tx "Cyclic Module Record"); OMethod (tx "Cyclic Module Record") (tx "Link") 1; OMethod (tx "Module Record") (tx "Link") 2].
  exists (run_ops [OEnsure (tx "Cyclic Module Record"); OMethod (tx "Cyclic Module Record") (tx "Link") 1; OMethod (tx "Module Record") (tx "Link") 2]).
  split; [|split; [|split; [|vm_compute; reflexivity]]].
  - refine (run_history _ [] start _ reach_start _ _); [|vm_compute; reflexivity]. intros o H. cbn in H. repeat (destruct H as [<-|H]; [exact I|]). destruct H.
  - eexists. eexists. split; vm_compute; reflexivity.
  - eapply under_step; [vm_compute; reflexivity|]. constructor. vm_compute. lia.
Qed.

Example C71_ex_fields : fields_of ex_st 3 = Ok [(tx "[[Realm]]", 1); (tx "[[Context]]", 4)] /\ fields_of ex_st 2 = Ok [(tx "[[Realm]]", 1)] /\ fields_of ex_st 4 = Ok [].
Proof. vm_compute. auto. Qed.
Example C71_ex_add : add_field ex_st 3 (tx "[[Realm]]") 7 = Err AssertionError /\ (exists s, add_field ex_st 4 (tx "[[Realm]]") 7 = Ok s /\ fields_of s 4 = Ok [(tx "[[Realm]]", 7)]).
Proof. split; [vm_compute; reflexivity|]. eexists. split; vm_compute; reflexivity. Qed.
Example C71_ex_defn : warnings ex_st = [(4, tx "Link")] /\ add_defn ex_st 3 (tx "InitializeEnvironment") 8 = Err AssertionError.
Proof. vm_compute. auto. Qed.
Example C71_ex_declarers : names_in ex_st (schemas_that_declare ex_st (tx "InitializeEnvironment") 1) = [Some (tx "Cyclic Module Record"); Some (tx "Synthetic Module Record")] /\ schemas_that_declare ex_st (tx "Link") 1 = Ok [].
Proof. vm_compute. auto. Qed.
Example C71_ex_no_shadow : no_shadow ex_st.
Proof.
  intros i j f d e I J U (x & X & D) (y & Y & E). pose proof (inv_wf _ _ (reach_inv _ _ ex_reach)) as W. pose proof (under_le _ _ _ W U) as (A & B & _).
  assert (T : forall k z, nth_error (schemas ex_st) k = Some z -> forall g v, tget (s_fields z) g = Some v -> (k = 1 /\ g = tx "[[Realm]]") \/ (k = 3 /\ g = tx "[[Context]]")).
  { clear. intros k z Z g v G. assert (F : map s_fields (schemas ex_st) = [[]; [(tx "[[Realm]]", 1)]; []; [(tx "[[Context]]", 4)]; []; []]) by (vm_compute; reflexivity).
    apply (map_nth_error s_fields) in Z. rewrite F in Z. clear F. remember (s_fields z) as fs. clear Heqfs z.
    destruct k as [|[|[|[|[|[|k]]]]]]; [| | | | | |destruct k; discriminate]; cbn [nth_error] in Z; assert (Z' := f_equal (fun o => match o with Some a => a | None => fs end) Z); cbn beta iota in Z'; subst fs; cbn [tget] in G; try discriminate.
    - destruct (text_eqb (tx "[[Realm]]") g) eqn:Q; [apply text_eqb_eq in Q; auto|discriminate].
    - destruct (text_eqb (tx "[[Context]]") g) eqn:Q; [apply text_eqb_eq in Q; auto|discriminate]. }
  destruct (T _ _ X _ _ D) as [(-> & P)|(-> & P)], (T _ _ Y _ _ E) as [(-> & Q)|(-> & Q)]; auto; subst; discriminate.
Qed.

Print Assumptions C70_tree.
Print Assumptions C70_ensure.
Print Assumptions C70_hierarchy.
Print Assumptions C70_order.
Print Assumptions C70_down.
Print Assumptions C70_up.
Print Assumptions C70_dual.
Print Assumptions C70_depth.
Print Assumptions C70_root_refuted.
Print Assumptions C70_constructor_refuted.
Print Assumptions C71_add_field.
Print Assumptions C71_add_method.
Print Assumptions C71_add_defn.
Print Assumptions C71_fields.
Print Assumptions C71_no_shadow.
Print Assumptions C71_one_declaration.
Print Assumptions C71_shadow_refuted.
Print Assumptions C71_declarers.
Print Assumptions C71_all_declarers.
Print Assumptions C71_all_declarers_refuted.
