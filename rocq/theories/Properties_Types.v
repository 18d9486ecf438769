(* Properties C21-C24: static types. *)
From Verif Require Import M_Base L_Base M_Types L_Hier L_Types L_TypesUnion L_TypesFull L_TypesCover.

(* a small hierarchy for the examples: Top_ (0) over Normal (1) and 20; Normal over List (2), Record (3), proc_ (4),
   other_ (5) and 30; 30 over String (6) and Undefined (7) *)
Definition ex_h : hier :=
  [mkT 0 None 0; mkT 1 (Some 0) 1; mkT 20 (Some 0) 1; mkT 2 (Some 1) 2; mkT 3 (Some 1) 2; mkT 4 (Some 1) 2; mkT 5 (Some 1) 2; mkT 30 (Some 1) 2;
   mkT 6 (Some 30) 3; mkT 7 (Some 30) 3].
Lemma ex_built : built ex_h.
Proof.
  apply b_add with (h := firstn 9 ex_h) (p := 30) (a := 7); [|reflexivity].
  apply b_add with (h := firstn 8 ex_h) (p := 30) (a := 6); [|reflexivity].
  apply b_add with (h := firstn 7 ex_h) (p := 1) (a := 30); [|reflexivity].
  apply b_add with (h := firstn 6 ex_h) (p := 1) (a := 5); [|reflexivity].
  apply b_add with (h := firstn 5 ex_h) (p := 1) (a := 4); [|reflexivity].
  apply b_add with (h := firstn 4 ex_h) (p := 1) (a := 3); [|reflexivity].
  apply b_add with (h := firstn 3 ex_h) (p := 1) (a := 2); [|reflexivity].
  apply b_add with (h := firstn 2 ex_h) (p := 0) (a := 20); [|reflexivity].
  apply b_add with (h := firstn 1 ex_h) (p := 0) (a := 1); [|reflexivity].
  eapply b_root. reflexivity.
Qed.
Lemma ex_par c m : par ex_h c m -> In (c, m) [(1, 0); (20, 0); (2, 1); (3, 1); (4, 1); (5, 1); (30, 1); (6, 30); (7, 30)].
Proof.
  intros (t & H & <- & E). cbn in H. repeat (destruct H as [<-|H]; [cbn in E; (discriminate || (injection E as <-; cbn; tauto))|]). destruct H.
Qed.
Lemma ex_no_list_child c : ~ par ex_h c 2.
Proof. intros H. apply ex_par in H. cbn in H. repeat (destruct H as [H|H]; [discriminate|]). destruct H. Qed.
Lemma ex_par_of i t p : nth_error ex_h i = Some t -> tn_parent t = Some p -> par ex_h (tn_type t) p.
Proof. intros H E. exists t. split; [eapply nth_error_In; eauto|auto]. Qed.
Lemma ex_leaf7 : leaf ex_h 7.
Proof. split; [cbn; tauto|]. intros c H. apply ex_par in H. cbn in H. repeat (destruct H as [H|H]; [discriminate|]). destruct H. Qed.

(* ---- C21 ---- *)

(* for hierarchy types and unions of them the call succeeds and the parts are intersection and difference *)
Theorem C21_split : forall h schemas fuel A B, built h -> (forall c, ~ par h c 2) -> htype h A -> htype h B ->
  exists i o, split_by h schemas (S fuel) A B = Ok (i, o) /\ htype h i /\ htype h o /\
  forall v, leaf h v -> (hmem h v i <-> hmem h v A /\ hmem h v B) /\ (hmem h v o <-> hmem h v A /\ ~ hmem h v B).
Proof. intros h schemas fuel A B Hb HL HA HB. exact (split_by_ok h (built_wf h Hb) HL schemas fuel A B HA HB). Qed.
Print Assumptions C21_split.

(* the parts have no value in common and together have all values *)
Theorem C21_partition : forall h schemas fuel A B i o, built h -> (forall c, ~ par h c 2) -> htype h A -> htype h B ->
  split_by h schemas (S fuel) A B = Ok (i, o) ->
  forall v, leaf h v -> ~ (hmem h v i /\ hmem h v o) /\ (hmem h v A -> hmem h v i \/ hmem h v o) /\ (hmem h v i \/ hmem h v o -> hmem h v A).
Proof.
  intros h schemas fuel A B i o Hb HL HA HB E v Hv. destruct (C21_split h schemas fuel A B Hb HL HA HB) as (i' & o' & E' & Hi & Ho & V).
  assert (i' = i /\ o' = o) as [-> ->] by (rewrite E in E'; injection E' as <- <-; auto). destruct (V v Hv) as [V1 V2].
  rewrite V1, V2. split; [tauto|]. split; [|tauto]. intros HAv.
  assert (D : hmem h v B \/ ~ hmem h v B); [|tauto]. clear -Hb HB Hv.
  assert (DA : forall a, In a (names h) -> anc h a v \/ ~ anc h a v).
  { intros a Ha. destruct (Nat.eq_dec v a) as [->|Hn]; [left; constructor|]. destruct Hv as [Hv _].
    destruct (hsub_ok h (built_wf h Hb) v a Hv Ha Hn) as ([] & _ & Q); [left; now apply Q|right]. intros Q'. apply Q in Q'. discriminate. }
  destruct HB as [(a & -> & Ha)|(l & -> & Hl & _)]; cbn [hmem]; [now apply DA|].
  assert (K : (exists a, In a l /\ anc h a v) \/ ~ (exists a, In a l /\ anc h a v)).
  { induction l as [|x l IH]; [right; intros (a & [] & _)|]. destruct (DA x) as [Q|Q]; [apply Hl; now left|left; exists x; cbn; auto|].
    destruct IH as [(a & Q1 & Q2)|N]; [intros y Hy; apply Hl; now right|left; exists a; cbn; auto|]. right. intros (a & [<-|Q1] & Q2); [auto|]. apply N. eauto. }
  destruct K as [(a & Q1 & Q2)|N]; [left; exists a; split; [now apply in_map|exact Q2]|]. right. intros (a & Q1 & Q2). apply N.
  apply in_map_iff in Q1 as (b & [= ->] & Q1). eauto.
Qed.
Print Assumptions C21_partition.

(* for list types the parts can overlap: a list of strings is also a list of (string or undefined), which is given as
   the part outside *)
Theorem C21_list_refuted : exists h schemas A B i o v, built h /\ split_by h schemas 5 A B = Ok (i, o) /\ mem h schemas v A /\
  mem h schemas v B /\ mem h schemas v i /\ mem h schemas v o.
Proof.
  exists ex_h, [], (ListT (UnionT [Hier 6; Hier 7])), (ListT (Hier 6)), (ListT (Hier 6)), (ListT (UnionT [Hier 6; Hier 7])), (VList []).
  split; [exact ex_built|]. split; [reflexivity|]. repeat (split; [exists []; split; [reflexivity|intros x []]|]). exists []. split; [reflexivity|intros x []].
Qed.
Print Assumptions C21_list_refuted.

Example C21_ex : split_by ex_h [] 5 (Hier 1) (UnionT (map Hier [6; 20])) =
  Ok (Hier 6, UnionT (map Hier [2; 3; 4; 5; 7])) /\ htype ex_h (Hier 1) /\ htype ex_h (UnionT (map Hier [6; 20])) /\ leaf ex_h 7 /\
  split_by ex_h [] 5 TBD (Hier 20) = Ok (Hier 20, Hier 1).
Proof.
  split; [reflexivity|]. split; [left; exists 1; cbn; auto|]. split; [|split; [exact ex_leaf7|reflexivity]].
  right. exists [6; 20]. split; [reflexivity|]. split; [intros x [<-|[<-|[]]]; cbn; tauto|]. split; [|discriminate].
  constructor; [intros [H|[]]; discriminate|]. constructor; [intros []|constructor].
Qed.

(* ---- C22 ---- *)

(* the test never raises on these types *)
Theorem C22_total : forall h schemas A B, built h -> htype h A -> htype h B -> exists r, is_a_subtype_of_or_equal_to h schemas A B = Ok r.
Proof. intros h sc A B Hb HA HB. destruct (sub_ok h sc (built_wf h Hb) A B HA HB) as (r & E & _). eauto. Qed.
Print Assumptions C22_total.

Theorem C22_reflexive : forall h schemas A, built h -> htype h A -> is_a_subtype_of_or_equal_to h schemas A A = Ok true.
Proof.
  intros h sc A Hb HA. destruct (sub_ok h sc (built_wf h Hb) A A HA HA) as (r & -> & Hr). f_equal. apply Hr. intros a Ha. exists a. split; [exact Ha|constructor].
Qed.
Print Assumptions C22_reflexive.

Theorem C22_transitive : forall h schemas A B C, built h -> htype h A -> htype h B -> htype h C ->
  is_a_subtype_of_or_equal_to h schemas A B = Ok true -> is_a_subtype_of_or_equal_to h schemas B C = Ok true ->
  is_a_subtype_of_or_equal_to h schemas A C = Ok true.
Proof.
  intros h sc A B C Hb HA HB HC E1 E2. destruct (sub_ok h sc (built_wf h Hb) A B HA HB) as (r1 & F1 & H1), (sub_ok h sc (built_wf h Hb) B C HB HC) as (r2 & F2 & H2),
    (sub_ok h sc (built_wf h Hb) A C HA HC) as (r3 & -> & H3).
  rewrite F1 in E1. injection E1 as ->. rewrite F2 in E2. injection E2 as ->. f_equal. apply H3. intros a Ha.
  destruct (proj1 H1 eq_refl a Ha) as (b & Hbn & Hba). destruct (proj1 H2 eq_refl b Hbn) as (c & Hc & Hcb). exists c. split; [exact Hc|]. eapply anc_trans; eauto.
Qed.
Print Assumptions C22_transitive.

(* a yes is right, for all types without procedure types, lists and records included *)
Theorem C22_sound : forall h schemas A B, built h -> In 2 (names h) -> In 3 (names h) -> noproc A -> fields_ok B ->
  is_a_subtype_of_or_equal_to h schemas A B = Ok true -> forall v, mem h schemas v A -> mem h schemas v B.
Proof. intros h sc A B Hb HL HR HA HB E. exact (sub_sound_full h sc (built_wf h Hb) HL HR A B HA HB E). Qed.
Print Assumptions C22_sound.

(* a no is right too, on hierarchy types and unions, if the second is reduced (as union_of_types makes it) *)
Theorem C22_complete : forall h schemas A B, built h -> htype h A -> htype h B -> reduced h (fun a => is_member a B) ->
  (forall v, leaf h v -> hmem h v A -> hmem h v B) -> is_a_subtype_of_or_equal_to h schemas A B = Ok true.
Proof. intros h sc A B Hb HA HB HR HV. exact (sub_complete h sc (built_wf h Hb) A B HA HB HR HV). Qed.
Print Assumptions C22_complete.

(* the unknown type is not a subtype of itself *)
Theorem C22_TBD_reflexive_refuted : exists h schemas, built h /\ is_a_subtype_of_or_equal_to h schemas TBD TBD = Ok false.
Proof. exists ex_h, []. split; [exact ex_built|reflexivity]. Qed.
Print Assumptions C22_TBD_reflexive_refuted.

Example C22_ex : is_a_subtype_of_or_equal_to ex_h [] (UnionT (map Hier [6; 20])) (UnionT (map Hier [30; 20])) = Ok true /\
  is_a_subtype_of_or_equal_to ex_h [] (Hier 1) (Hier 30) = Ok false /\ is_a_subtype_of_or_equal_to ex_h [] (UnionT (map Hier [30; 20])) (Hier 0) = Ok true.
Proof. repeat split; reflexivity. Qed.
Example C22_ex_records : is_a_subtype_of_or_equal_to ex_h [(1, None); (2, Some 1)] (RecT 2 [(0, ListT (Hier 6)); (1, Hier 7)]) (RecT 1 [(0, ListT (Hier 30))]) = Ok true /\
  noproc (RecT 2 [(0, ListT (Hier 6)); (1, Hier 7)]) /\ fields_ok (RecT 1 [(0, ListT (Hier 30))]) /\
  mem ex_h [(1, None); (2, Some 1)] (VRec 2 [(0, VList [VAtom 6]); (1, VAtom 7)]) (RecT 2 [(0, ListT (Hier 6)); (1, Hier 7)]).
Proof.
  split; [reflexivity|]. split; [cbn; auto|]. split; [cbn; split; [constructor; [intros []|constructor]|auto]|].
  cbn [mem]. exists 2, [(0, VList [VAtom 6]); (1, VAtom 7)]. split; [reflexivity|]. split; [constructor|]. split; [|split; [|exact I]].
  - exists (VList [VAtom 6]). split; [now left|]. intros x [[= <-]|[H|[]]]; [|discriminate]. exists [VAtom 6]. split; [reflexivity|].
    intros y [<-|[]]. split; [cbn; tauto|constructor].
  - exists (VAtom 7). split; [right; now left|]. intros x [H|[[= <-]|[]]]; [discriminate|]. split; [cbn; tauto|constructor].
Qed.

(* ---- C23 ---- *)

(* the union has exactly the values of the given types *)
Theorem C23_values : forall h fuel types, built h -> (forall c, ~ par h c 2) -> (forall t, In t types -> htype h t) ->
  exists r, union_of_types h (S fuel) types = Ok r /\ htype h r /\ forall v, leaf h v -> (hmem h v r <-> exists t, In t types /\ hmem h v t).
Proof. intros h fuel types Hb HL HT. exact (union_ok h (built_wf h Hb) HL fuel types HT). Qed.
Print Assumptions C23_values.

(* order and repetition do not matter *)
Theorem C23_order : forall h fuel types types' r r', built h -> (forall c, ~ par h c 2) -> (forall t, In t types -> htype h t) ->
  (forall t, In t types <-> In t types') -> union_of_types h (S fuel) types = Ok r -> union_of_types h (S fuel) types' = Ok r' ->
  forall a, is_member a r <-> is_member a r'.
Proof. intros h fuel types types' r r' Hb HL HT HE E E'. exact (union_order h (built_wf h Hb) HL fuel types types' r r' HT HE E E'). Qed.
Print Assumptions C23_order.

(* no member of the result is a subtype of another, provided List is not among the members *)
Theorem C23_antichain : forall h fuel types r, built h -> (forall c, ~ par h c 2) -> (forall t, In t types -> htype h t) ->
  (forall t, In t types -> ~ is_member 2 t) ->
  (forall t x y, In t types -> is_member x t -> is_member y t -> anc h x y -> x = y) ->
  union_of_types h (S fuel) types = Ok r -> forall x y, is_member x r -> is_member y r -> anc h x y -> x = y.
Proof.
  intros h fuel types r Hb HL HT H2 HA. apply (union_antichain h (built_wf h Hb) HL fuel types r HT); [|exact HA].
  intros (t & Ht & Q). apply (H2 t Ht). now apply hn_member.
Qed.
Print Assumptions C23_antichain.

(* it is the one reduced type with these values: reduced types with the same values have the same members *)
Theorem C23_canonical : forall h fuel types types' r r', built h -> (forall c, ~ par h c 2) ->
  (forall c m, par h c m -> exists c', par h c' m /\ c' <> c) ->
  (forall t, In t (types ++ types') -> htype h t /\ ~ is_member 2 t /\ reduced h (fun a => is_member a t)) ->
  (forall v, leaf h v -> ((exists t, In t types /\ hmem h v t) <-> (exists t, In t types' /\ hmem h v t))) ->
  union_of_types h (S fuel) types = Ok r -> union_of_types h (S fuel) types' = Ok r' -> forall a, is_member a r <-> is_member a r'.
Proof.
  intros h fuel types types' r r' Hb HL NC HT HV E E'. pose proof (built_wf h Hb) as W.
  assert (T1 : forall t, In t types -> htype h t) by (intros; apply HT, in_app_iff; now left).
  assert (T2 : forall t, In t types' -> htype h t) by (intros; apply HT, in_app_iff; now right).
  destruct (union_ok h W HL fuel types T1) as (r1 & F1 & Hr1 & V1). rewrite E in F1. injection F1 as <-.
  destruct (union_ok h W HL fuel types' T2) as (r1 & F2 & Hr2 & V2). rewrite E' in F2. injection F2 as <-.
  apply (reduced_types_eq h W r r' Hr1 Hr2).
  - apply (union_reduced h W HL fuel types r NC T1); auto.
    + intros (t & Ht & Q). apply (proj1 (proj2 (HT t (proj2 (in_app_iff _ _ _) (or_introl Ht))))). now apply hn_member.
    + intros t Ht. apply (HT t). apply in_app_iff. now left.
  - apply (union_reduced h W HL fuel types' r' NC T2); auto.
    + intros (t & Ht & Q). apply (proj1 (proj2 (HT t (proj2 (in_app_iff _ _ _) (or_intror Ht))))). now apply hn_member.
    + intros t Ht. apply (HT t). apply in_app_iff. now right.
  - intros v Hv. rewrite (V1 v Hv), (V2 v Hv). auto.
Qed.
Print Assumptions C23_canonical.

(* List is handled apart from the other hierarchy types: it stays beside its supertype *)
Theorem C23_antichain_refuted : exists h types r, built h /\ (forall c, ~ par h c 2) /\ (forall t, In t types -> exists a, t = Hier a /\ In a (names h)) /\
  union_of_types h 5 types = Ok r /\ exists x y, is_member x r /\ is_member y r /\ x <> y /\ anc h x y.
Proof.
  exists ex_h, [Hier 2; Hier 1], (UnionT [Hier 2; Hier 1]). split; [exact ex_built|]. split; [exact ex_no_list_child|]. split; [|split; [reflexivity|]].
  - intros t [<-|[<-|[]]]; eexists; (split; [reflexivity|cbn; tauto]).
  - exists 1, 2. split; [right; eexists; split; [reflexivity|right; now left]|]. split; [right; eexists; split; [reflexivity|now left]|]. split; [discriminate|].
    apply anc_par. exact (ex_par_of 3 _ 1 eq_refl eq_refl).
Qed.
Print Assumptions C23_antichain_refuted.

(* with list types the union can lose values: List is dropped in favour of a particular list type *)
Theorem C23_list_refuted : exists h types r v, built h /\ union_of_types h 5 types = Ok r /\ (exists t, In t types /\ mem h [] v t) /\ ~ mem h [] v r.
Proof.
  exists ex_h, [Hier 2; ListT (Hier 6)], (ListT (Hier 6)), (VList [VAtom 7]). split; [exact ex_built|]. split; [reflexivity|]. split.
  - exists (Hier 2). split; [now left|]. split; [cbn; tauto|constructor].
  - intros (vs & [= <-] & H). destruct (H (VAtom 7) (or_introl eq_refl)) as [_ Q]. cbn in Q.
    inversion Q as [|? ? p Hp Hq]; subst. apply ex_par in Hp. cbn in Hp. repeat (destruct Hp as [Hp|Hp]; [try discriminate; injection Hp as <-|]); [|destruct Hp].
    inversion Hq as [|? ? p' Hp' Hq']; subst. apply ex_par in Hp'. cbn in Hp'. repeat (destruct Hp' as [Hp'|Hp']; [try discriminate; injection Hp' as <-|]); [|destruct Hp'].
    inversion Hq' as [|? ? p'' Hp'' Hq'']; subst. apply ex_par in Hp''. cbn in Hp''. repeat (destruct Hp'' as [Hp''|Hp'']; [try discriminate; injection Hp'' as <-|]); [|destruct Hp''].
    inversion Hq'' as [|? ? p3 Hp3 Hq3]; subst. apply ex_par in Hp3. cbn in Hp3. repeat (destruct Hp3 as [Hp3|Hp3]; [discriminate|]). destruct Hp3.
Qed.
Print Assumptions C23_list_refuted.

(* list types and record types too: the union has every value of the types, if bare List and the unknown type are nowhere in them *)
Theorem C23_covers : forall h schemas fuel types r, built h -> (forall t, In t types -> plain h t) -> union_of_types h fuel types = Ok r ->
  forall v, proper v -> (exists t, In t types /\ mem h schemas v t) -> mem h schemas v r.
Proof. intros h sc fuel types r Hb P H v PV A. exact (union_covers h sc (built_wf h Hb) fuel types r H P v PV A). Qed.
Print Assumptions C23_covers.
(* and it has at most one list type, if no given union has two *)
Theorem C23_one_list : forall h fuel types r, union_of_types h fuel types = Ok r ->
  (forall t, In t types -> forall ms a b i j, t = UnionT ms -> nth_error ms i = Some (ListT a) -> nth_error ms j = Some (ListT b) -> i = j) ->
  forall ms a b i j, r = UnionT ms -> nth_error ms i = Some (ListT a) -> nth_error ms j = Some (ListT b) -> i = j.
Proof.
  assert (K : forall ms, (forall a b i j, nth_error ms i = Some (ListT a) -> nth_error ms j = Some (ListT b) -> i = j) <-> length (lists_in (UnionT ms)) <= 1).
  { unfold lists_in. cbn [set_of_types]. induction ms as [|m ms IH]; [split; [cbn; lia|intros _ a b [|i] j; discriminate]|]. cbn [filter]. destruct (is_ListT m) eqn:E.
    - destruct m as [| |e| | |]; try discriminate. split.
      + intros H. cbn. enough (filter is_ListT ms = []) as -> by (cbn; lia). apply filter_none. intros x I. destruct x as [| |e'| | |]; try reflexivity. apply In_nth_error in I as (n & I). discriminate (H e e' 0 (S n) eq_refl I).
      + cbn. intros H a b i j. assert (L : forall n x, nth_error ms n = Some (ListT x) -> False). { intros n x I. apply nth_error_In in I. assert (I' : In (ListT x) (filter is_ListT ms)) by (apply filter_In; auto). destruct (filter is_ListT ms); [destruct I'|cbn in H; lia]. }
        destruct i as [|i], j as [|j]; cbn; intros A B; [reflexivity| | |]; exfalso; eauto.
    - rewrite <- IH. split.
      + intros H a b i j A B. assert (S i = S j) by (apply (H a b); assumption). lia.
      + intros H a b i j. destruct i as [|i], j as [|j]; cbn; intros A B; try (injection A as ->; discriminate); try (injection B as ->; discriminate). f_equal. eauto. }
  intros h fuel types r H P ms a b i j -> A B. eapply (proj2 (K ms)); eauto. apply (union_one h fuel types _ H). intros t I. destruct t as [|n|e|s fs|pp rr|ms']; try (unfold lists_in; cbn; lia). apply K. intros a' b' i' j'. apply (P _ I ms' a' b' i' j' eq_refl).
Qed.
Print Assumptions C23_one_list.
Example C23_covers_ex :
  let types := [ListT (Hier 6); RecT 1 [(0, UnionT [Hier 5; Hier 20]); (1, Hier 6)]; ListT (Hier 7); RecT 1 [(0, Hier 5); (1, ListT (Hier 7))]; RecT 1 [(0, Hier 20)]; Hier 30] in
  let r := UnionT [ListT (Hier 30); RecT 1 [(0, Hier 5); (1, UnionT [ListT (Hier 7); Hier 6])]; RecT 1 [(0, Hier 20)]; Hier 30] in
  union_of_types ex_h 5 types = Ok r /\ (forall t, In t types -> plain ex_h t) /\
  let v := VRec 1 [(0, VAtom 5); (1, VList [VAtom 7])] in proper v /\ mem ex_h [] v (RecT 1 [(0, Hier 5); (1, ListT (Hier 7))]) /\ mem ex_h [] v r.
Proof.
  cbv zeta. assert (E : union_of_types ex_h 5 [ListT (Hier 6); RecT 1 [(0, UnionT [Hier 5; Hier 20]); (1, Hier 6)]; ListT (Hier 7); RecT 1 [(0, Hier 5); (1, ListT (Hier 7))]; RecT 1 [(0, Hier 20)]; Hier 30]
    = Ok (UnionT [ListT (Hier 30); RecT 1 [(0, Hier 5); (1, UnionT [ListT (Hier 7); Hier 6])]; RecT 1 [(0, Hier 20)]; Hier 30])) by (vm_compute; reflexivity).
  assert (P : forall t, In t [ListT (Hier 6); RecT 1 [(0, UnionT [Hier 5; Hier 20]); (1, Hier 6)]; ListT (Hier 7); RecT 1 [(0, Hier 5); (1, ListT (Hier 7))]; RecT 1 [(0, Hier 20)]; Hier 30] -> plain ex_h t).
  { intros t H. cbn in H. repeat (destruct H as [<-|H]; [cbn; intuition (discriminate || lia)|]). destruct H. }
  assert (M : mem ex_h [] (VRec 1 [(0, VAtom 5); (1, VList [VAtom 7])]) (RecT 1 [(0, Hier 5); (1, ListT (Hier 7))])).
  { exists 1, [(0, VAtom 5); (1, VList [VAtom 7])]. split; [reflexivity|]. split; [constructor|]. split; [|split; [|exact I]].
    - exists (VAtom 5). split; [now left|]. intros x [Q|[Q|[]]]; [injection Q as <-|discriminate]. split; [cbn; tauto|constructor].
    - exists (VList [VAtom 7]). split; [right; now left|]. intros x [Q|[Q|[]]]; [discriminate|injection Q as <-]. exists [VAtom 7]. split; [reflexivity|]. intros y [<-|[]]. split; [cbn; tauto|constructor]. }
  assert (PV : proper (VRec 1 [(0, VAtom 5); (1, VList [VAtom 7])])).
  { cbn. split; [|tauto]. constructor; [intros [Q|[]]; discriminate|constructor; [intros []|constructor]]. }
  split; [exact E|]. split; [exact P|]. split; [exact PV|]. split; [exact M|].
  apply (C23_covers ex_h [] 5 _ _ ex_built P E _ PV). exists (RecT 1 [(0, Hier 5); (1, ListT (Hier 7))]). split; [cbn; tauto|exact M].
Qed.

Example C23_ex : union_of_types ex_h 5 [Hier 7; UnionT (map Hier [20; 6]); Hier 6] = Ok (UnionT (map Hier [20; 30])) /\
  union_of_types ex_h 5 [Hier 6; Hier 7; Hier 6; UnionT (map Hier [6; 20])] = Ok (UnionT (map Hier [20; 30])) /\ union_of_types ex_h 5 [] = Ok (UnionT []).
Proof. repeat split; reflexivity. Qed.

(* ---- C24 ---- *)

(* with related return types, any parameters are accepted as long as their number is the same *)
Theorem C24_params_ignored : forall h schemas ps ps' r r', length ps = length ps' -> is_a_subtype_of_or_equal_to h schemas r r' = Ok true ->
  is_a_subtype_of_or_equal_to h schemas (ProcT ps r) (ProcT ps' r') = Ok true.
Proof.
  intros h sc ps ps' r r' HL HR. unfold is_a_subtype_of_or_equal_to, sub_with, sub_member. cbn [ty_eqb set_of_types is_TBD existsb orb tmem].
  match goal with |- context [if ?b then Ok true else any_r _ _] => destruct b eqn:E end; [reflexivity|]. cbn [any_r member_sub].
  match goal with |- context [if ?b then Ok true else _] => destruct b end; [reflexivity|].
  rewrite HL, Nat.eqb_refl. cbn [assert_ bind]. unfold is_a_subtype_of_or_equal_to in HR. rewrite HR. reflexivity.
Qed.
Print Assumptions C24_params_ignored.

(* and the answer for different procedure types is the answer for the return types *)
Theorem C24_returns : forall h schemas ps ps' r r', length ps = length ps' -> ty_eqb (ProcT ps r) (ProcT ps' r') = false ->
  is_a_subtype_of_or_equal_to h schemas (ProcT ps r) (ProcT ps' r') = is_a_subtype_of_or_equal_to h schemas r r'.
Proof.
  intros h sc ps ps' r r' HL E. unfold is_a_subtype_of_or_equal_to at 1, sub_with, sub_member.
  change (ty_eqb (ProcT ps' r') (Hier T_Top_)) with false. cbn [set_of_types existsb is_TBD orb tmem]. unfold tmem. cbn [existsb]. rewrite E. cbn [orb any_r].
  assert (M : member_sub h sc (ProcT ps r) (ProcT ps' r') = is_a_subtype_of_or_equal_to h sc r r').
  { cbn [member_sub]. rewrite E, HL, Nat.eqb_refl. reflexivity. }
  rewrite M. destruct (is_a_subtype_of_or_equal_to h sc r r') as [[]|]; reflexivity.
Qed.
Print Assumptions C24_returns.

(* a different number of parameters is an assertion failure, not a no *)
Theorem C24_arity : forall h schemas ps ps' r r', length ps <> length ps' ->
  is_a_subtype_of_or_equal_to h schemas (ProcT ps r) (ProcT ps' r') = Err AssertionError.
Proof.
  intros h sc ps ps' r r' HL. assert (E : ty_eqb (ProcT ps r) (ProcT ps' r') = false).
  { cbn [ty_eqb]. apply andb_false_iff. left. revert ps' HL. induction ps as [|p ps IH]; intros [|p' ps'] HL; cbn in *; try reflexivity; [congruence|].
    apply andb_false_iff. right. apply IH. congruence. }
  unfold is_a_subtype_of_or_equal_to, sub_with, sub_member. change (ty_eqb (ProcT ps' r') (Hier T_Top_)) with false. cbn [set_of_types existsb is_TBD orb tmem].
  unfold tmem. cbn [existsb]. rewrite E. cbn [orb any_r].
  assert (M : member_sub h sc (ProcT ps r) (ProcT ps' r') = Err AssertionError).
  { cbn [member_sub]. rewrite E. apply Nat.eqb_neq in HL. now rewrite HL. }
  now rewrite M.
Qed.
Print Assumptions C24_arity.

(* so a procedure that wants a string is accepted where one that is given undefined is wanted *)
Theorem C24_contravariance_refuted : exists h schemas p p' r, built h /\
  is_a_subtype_of_or_equal_to h schemas (ProcT [p] r) (ProcT [p'] r) = Ok true /\
  is_a_subtype_of_or_equal_to h schemas p' p = Ok false /\ is_a_subtype_of_or_equal_to h schemas p p' = Ok false.
Proof. exists ex_h, [], (Hier 6), (Hier 7), (Hier 6). split; [exact ex_built|]. repeat split; reflexivity. Qed.
Print Assumptions C24_contravariance_refuted.

Example C24_ex : is_a_subtype_of_or_equal_to ex_h [] (ProcT [Hier 6; Hier 7] (Hier 6)) (ProcT [Hier 20; ListT (Hier 1)] (Hier 30)) = Ok true /\
  is_a_subtype_of_or_equal_to ex_h [] (ProcT [Hier 6; Hier 7] (Hier 30)) (ProcT [Hier 6; Hier 7] (Hier 6)) = Ok false.
Proof. split; reflexivity. Qed.
