(* C86: the variables of an algorithm that are reported as not used or not defined. *)
From Coq Require Import Ascii String Sorted Permutation.
From Verif Require Import M_Base M_HTML M_Shared M_Records M_Values M_Style L_Base L_Records L_Defs L_Style L_StyleVars L_StyleMore.
Open Scope list_scope.
Open Scope nat_scope.
Notation length := List.length.

(* nothing in the 100 characters before the algorithm says that it is part of another one;
   the beginning of the document is not searched *)
Definition whole_algorithm (st : text) (s : nat) : Prop :=
  (100 <= s <= length st /\ ~ shortly_before replaces st s /\ ~ shortly_before prepares st s) \/ (s < 100 <= length st).

(* The reports about a whole algorithm are exactly: the names that its header or its body
   defines and that it does not use, at the first definition; the names that it uses and that
   nothing defines, at the first use; sorted by name, one for a name. *)
Theorem C86_vars_exact : forall st root h s ms,
  (exists l r e ch, root = Node l r s e ch) -> whole_algorithm st s ->
  check_vars_in_anode st (Some root) h = Ok ms ->
  exists cs, ms = map rendered cs /\ StronglySorted text_lt (map name_of cs) /\ forall c, In c cs <-> holds st root h c.
Proof.
  intros st root h s ms (l & r & e & ch & ->) W H. apply vars_exact; [|exact H]. intros s' E. cbn in E. injection E as <-.
  destruct W as [(B & N1 & N2) | (B1 & B2)].
  - destruct (incomplete st s) eqn:I; auto. apply (incomplete_iff st s B) in I. tauto.
  - apply incomplete_early; auto.
Qed.
(* It does not fail on what the grammar provides for. *)
Theorem C86_vars_total : forall st root h, head_formed h -> body_formed root -> exists ms, check_vars_in_anode st (Some root) h = Ok ms.
Proof. exact vars_total. Qed.
(* Nothing is reported about an algorithm that follows one of the two marks closely, nor about a missing one. *)
Theorem C86_vars_skipped : forall st h root s, (exists l r e ch, root = Node l r s e ch) ->
  100 <= s <= length st -> shortly_before replaces st s \/ shortly_before prepares st s ->
  check_vars_in_anode st (Some root) h = Ok [] /\ check_vars_in_anode st None h = Ok [].
Proof.
  intros st h root s (l & r & e & ch & ->) B X. split; [|reflexivity]. cbn [check_vars_in_anode posn_of bind].
  rewrite (proj2 (incomplete_iff st s B) X). reflexivity.
Qed.

(* The order in which the algorithms were found is of no importance. *)
Lemma sorted_items_perm {A} (d d' : list (text * A)) : NoDup (map fst d) -> Permutation d d' -> sorted_items d = sorted_items d'.
Proof.
  intros N P. assert (K := sorted_keys d N). assert (N' : NoDup (map fst d')) by (eapply Permutation_NoDup; [apply Permutation_map; exact P | exact N]).
  assert (K' := sorted_keys d' N').
  assert (Q : Permutation (sorted_items d) (sorted_items d')).
  { unfold sorted_items. rewrite !isort_perm. exact P. }
  revert K K' Q. generalize (sorted_items d) (sorted_items d'). clear.
  induction l as [|x l IH]; intros m K K' Q.
  - apply Permutation_nil in Q. now subst.
  - destruct m as [|y m]; [symmetry in Q; apply Permutation_nil in Q; discriminate|]. cbn [map] in K, K'.
    inversion K as [|? ? K1 K2]; subst. inversion K' as [|? ? K1' K2']; subst. rewrite Forall_forall in K2, K2'.
    assert (x = y).
    { assert (X : In x (y :: m)) by (eapply Permutation_in; [exact Q | now left]). destruct X as [X | X]; auto.
      assert (Y : In y (x :: l)) by (eapply Permutation_in; [symmetry; exact Q | now left]). destruct Y as [Y | Y]; auto.
      exfalso. destruct (K2 (fst y) (in_map fst _ _ Y)) as [A1 A2]. destruct (K2' (fst x) (in_map fst _ _ X)) as [B1 B2].
      apply A2. now apply text_leb_antisym. }
    subst y. f_equal. apply IH; auto. now apply Permutation_cons_inv in Q.
Qed.
Theorem C86_vars_order : forall st ops ops' bifs bifs',
  NoDup (map fst ops) -> NoDup (map fst bifs) -> Permutation ops ops' -> Permutation bifs bifs' ->
  check_vars st ops bifs = check_vars st ops' bifs'.
Proof.
  intros st ops ops' bifs bifs' N1 N2 P1 P2. unfold check_vars, in_order. now rewrite (sorted_items_perm ops ops'), (sorted_items_perm bifs bifs').
Qed.
(* Everything reported is reported about one of the trees with the header of its algorithm;
   the operations come before the functions, and both are in the order of their names. *)
Theorem C86_vars_each : forall st ops bifs ms, NoDup (map fst ops) -> NoDup (map fst bifs) -> check_vars st ops bifs = Ok ms ->
  exists os bs, Permutation os ops /\ Permutation bs bifs /\ StronglySorted text_lt (map fst os) /\ StronglySorted text_lt (map fst bs) /\
  exists mss, ms = concat mss /\
    Forall2 (fun (x : header * option anode) m => check_vars_in_anode st (snd x) (fst x) = Ok m)
      (concat (map (fun al => concat (map (fun hd => map (pair (fst hd)) (concat (snd hd))) (snd al))) (os ++ bs))) mss.
Proof.
  intros st ops bifs ms N1 N2 H. exists (sorted_items ops), (sorted_items bifs).
  split; [apply isort_perm|]. split; [apply isort_perm|]. split; [now apply sorted_keys|]. split; [now apply sorted_keys|].
  unfold check_vars, in_order in H. revert H. generalize (sorted_items ops ++ sorted_items bifs) as als. intros als. revert ms.
  assert (G0 : forall (h : header) defns ms, each_msg (fun a => check_vars_in_anode st a h) defns = Ok ms ->
     exists mss, ms = concat mss /\ Forall2 (fun (x : header * option anode) m => check_vars_in_anode st (snd x) (fst x) = Ok m) (map (pair h) defns) mss).
  { intros h defns. induction defns as [|a defns IH]; intros ms H; cbn [each_msg] in H.
    - injection H as <-. exists []. split; [reflexivity | constructor].
    - apply bind_ok in H. destruct H as [x [X H]]. apply bind_ok in H. destruct H as [y [Y H]]. injection H as <-.
      destruct (IH _ Y) as [mss [-> F]]. exists (x :: mss). split; [reflexivity|]. cbn [map]. constructor; auto. }
  assert (G : forall {A} (f : A -> res (list msg)) (g : A -> list (header * option anode)),
     (forall x ms, f x = Ok ms -> exists mss, ms = concat mss /\ Forall2 (fun (x : header * option anode) m => check_vars_in_anode st (snd x) (fst x) = Ok m) (g x) mss) ->
     forall l ms, each_msg f l = Ok ms -> exists mss, ms = concat mss /\ Forall2 (fun (x : header * option anode) m => check_vars_in_anode st (snd x) (fst x) = Ok m) (concat (map g l)) mss).
  { intros A f g K. induction l as [|a l IH]; intros ms H; cbn [each_msg] in H.
    - injection H as <-. exists []. split; [reflexivity | constructor].
    - apply bind_ok in H. destruct H as [x [X H]]. apply bind_ok in H. destruct H as [y [Y H]]. injection H as <-.
      destruct (K _ _ X) as [m1 [-> F1]]. destruct (IH _ Y) as [mss [-> F]]. exists (m1 ++ mss). split; [now rewrite concat_app|].
      cbn [map concat]. now apply Forall2_app. }
  intros ms H.
  destruct (G alg _ (fun al => concat (map (fun hd => map (pair (fst hd)) (concat (snd hd))) al))
     (fun al => G (header * list (list (option anode)))%type (fun hd => each_msg (fun defn => each_msg (fun a => check_vars_in_anode st a (fst hd)) defn) (snd hd))
        (fun hd => map (pair (fst hd)) (concat (snd hd)))
        (fun hd ms K => eq_rect _ (fun x => exists mss, ms = concat mss /\ Forall2 _ x mss)
           (G (list (option anode)) (fun defn => each_msg (fun a => check_vars_in_anode st a (fst hd)) defn) (map (pair (fst hd))) (G0 (fst hd)) (snd hd) ms K)
           _ (eq_sym (concat_map (pair (fst hd)) (snd hd)))) al) (map snd als) ms H) as [mss [E F]].
  exists mss. split; [exact E|]. rewrite map_map in F. exact F.
Qed.

(* ------------------------------------------------------------------ *)
(* A small algorithm. Its text starts at 100. *)
Definition pad : text := repeat 46%N 100.
Definition body_text : text := tx "Let _x_ be _y_. Return _z_.".
Definition doc : text := pad ++ body_text ++ tx " _this_ _q_".
Definition var (s e : nat) : anode := Node (tx "{var}") (tx "\b _ [A-Za-z]\w* _ \b") s e [Leaf (slice s e doc)].
Definition defvar (s e : nat) : anode := Node (tx "{DEFVAR}") (tx "{var}") s e [var s e].
Definition let_ (a b : anode) (s e : nat) : anode := Node (tx "{COMMAND}") (tx "Let {DEFVAR} be {EX}.") s e [a; b].
Definition ret (a : anode) (s e : nat) : anode := Node (tx "{COMMAND}") (tx "Return {EX}.") s e [a].
Definition seq_ (a b : anode) (s e : nat) : anode := Node (tx "{COMMANDS}") (tx "{COMMANDS}{_NL_N} {COMMAND}") s e [a; b].
Definition body : anode := seq_ (let_ (defvar 104 107) (var 111 114) 100 115) (ret (var 123 126) 116 127) 100 127.
Definition head_ (sp : text) (ps : list param) : header := mkHeader sp ps None.

Example C86_exact_ex :
  whole_algorithm doc 100 /\
  check_vars_in_anode doc (Some body) (head_ (tx "op: singular") [mkParam (tx "_y_") None; mkParam (tx "_w_") None]) =
    Ok [(100, tx "_w_ is not used in this algorithm"); (104, tx "_x_ is not used in this algorithm"); (123, tx "_z_ is not defined in this algorithm")].
Proof.
  split; [|vm_compute; reflexivity]. left. split; [vm_compute; lia|].
  split; intros (a & mid & rest & E & L1 & L2).
  - assert (I : text_in replaces doc = true) by (apply L_ValLists.text_in_iff; exists a, (mid ++ rest); exact E). vm_compute in I. discriminate.
  - assert (I : text_in prepares doc = true) by (apply L_ValLists.text_in_iff; exists a, (mid ++ rest); exact E). vm_compute in I. discriminate.
Qed.
Example C86_total_ex : head_formed (head_ (tx "op: singular") [mkParam (tx "_y_") None]) /\ body_formed body.
Proof.
  split; [split; [|left; reflexivity]|].
  - intros p [<- | []]. left. reflexivity.
  - split; [unfold is_node, body, seq_; eauto 8|]. split; [intros r s e ch X; discriminate|].
    intros q l r s e ch A E.
    assert (G : forall q l r s e ch, at_path body q (Node l r s e ch) -> prod_str l r <> sorted_prod).
    { clear. intros q l r s e ch A E. destruct (walk_all body [] 0) as [ps W].
      destruct (visit_ex _ [] 0 _ _ _ _ _ _ A) as [v [V N]]. pose proof (visit_in _ _ _ _ _ _ _ W V) as I.
      assert (F : forallb (fun v => match v_node v with Node l r _ _ _ => negb (text_eqb (prod_str l r) sorted_prod) | Leaf _ => true end) (each_desc [] 0 body) = true) by (vm_compute; reflexivity).
      rewrite forallb_forall in F. specialize (F v I). rewrite N in F. rewrite E in F. rewrite teqb_refl in F. discriminate. }
    exfalso. exact (G _ _ _ _ _ _ A E).
Qed.
(* a parameter of an operation with a definition for each production may be unused; a variable of the body may not *)
Example C86_excused_ex :
  check_vars_in_anode doc (Some body) (head_ (tx "op: discriminated by syntax: steps") [mkParam (tx "_y_") None; mkParam (tx "_w_") None; mkParam (tx "_z_") None]) =
    Ok [(104, tx "_x_ is not used in this algorithm")].
Proof. vm_compute; reflexivity. Qed.
Example C86_order_ex :
  let hd := head_ (tx "op: singular") [mkParam (tx "_y_") None; mkParam (tx "_z_") None] in
  let hd2 := head_ (tx "bif: function") [mkParam (tx "_y_") None] in
  check_vars doc [(tx "B", [(hd, [[None; Some body]])]); (tx "A", [(hd2, [[Some body]])])] [(tx "A", [(hd, [[Some body]])])] =
    Ok [(104, tx "_x_ is not used in this algorithm"); (123, tx "_z_ is not defined in this algorithm");
        (104, tx "_x_ is not used in this algorithm"); (104, tx "_x_ is not used in this algorithm")].
Proof. vm_compute; reflexivity. Qed.
Definition replaced_doc : text := repeat 46%N 60 ++ tx "<emu-alg replaces-step=""s""></emu-alg><emu-alg>" ++ body_text.
Definition body_at (s : nat) : anode := seq_ (let_ (defvar (s + 4) (s + 7)) (var (s + 11) (s + 14)) s (s + 15)) (ret (var (s + 23) (s + 26)) (s + 16) (s + 27)) s (s + 27).
Example C86_skipped_ex : 100 <= 106 <= length replaced_doc /\ shortly_before replaces replaced_doc 106.
Proof.
  split; [vm_compute; lia|]. exists (repeat 46%N 60 ++ tx "<emu-alg"), (tx """s""></emu-alg><emu-alg>"), body_text.
  split; [vm_compute; reflexivity|]. split; vm_compute; [reflexivity | lia].
Qed.
(* An algorithm of its own is not checked if a short one before it is the replacement of a step. *)
Theorem C86_neighbour_refuted : exists st root h s,
  (exists l r e ch, root = Node l r s e ch) /\ 100 <= s <= length st /\
  slice (s - 19) s st = tx "</emu-alg><emu-alg>" /\
  check_vars_in_anode st (Some root) h = Ok [] /\ exists c, holds st root h c.
Proof.
  exists replaced_doc, (body_at 106), (head_ (tx "op: singular") []), 106. split; [unfold body_at, seq_; eauto|]. split; [vm_compute; lia|].
  split; [vm_compute; reflexivity|]. split; [vm_compute; reflexivity|].
  assert (V : exists cs, map rendered cs = [(110, tx "_x_ is not used in this algorithm"); (117, tx "_y_ is not defined in this algorithm"); (129, tx "_z_ is not defined in this algorithm")]
     /\ forall c, In c cs -> holds replaced_doc (body_at 106) (head_ (tx "op: singular") []) c).
  { set (hd := head_ (tx "op: singular") []). set (root := body_at 106).
    assert (HL : head_list replaced_doc hd = Ok []) by reflexivity.
    assert (NR : forall r s e ch, root <> Node (tx "{var}") r s e ch) by (intros r s e ch X; discriminate).
    destruct (report_claims replaced_doc root hd [] HL NR (tx "_x_") [(110, tx "_x_ is not used in this algorithm")]) as (c1 & E1 & _ & C1); [vm_compute; reflexivity|].
    destruct (report_claims replaced_doc root hd [] HL NR (tx "_y_") [(117, tx "_y_ is not defined in this algorithm")]) as (c2 & E2 & _ & C2); [vm_compute; reflexivity|].
    destruct (report_claims replaced_doc root hd [] HL NR (tx "_z_") [(129, tx "_z_ is not defined in this algorithm")]) as (c3 & E3 & _ & C3); [vm_compute; reflexivity|].
    exists (c1 ++ c2 ++ c3). split; [rewrite !map_app, <- E1, <- E2, <- E3; reflexivity|]. intros c I. rewrite !in_app_iff in I.
    destruct I as [I | [I | I]]; [apply C1 in I | apply C2 in I | apply C3 in I]; tauto. }
  destruct V as (cs & E & H). destruct cs as [|c cs]; [discriminate|]. exists c. apply H. now left.
Qed.
(* A replacement of a step at the beginning of the document is checked like a whole algorithm. *)
Theorem C86_beginning_refuted : exists st root h s m ms,
  shortly_before replaces st s /\ (exists l r e ch, root = Node l r s e ch) /\ check_vars_in_anode st (Some root) h = Ok (m :: ms).
Proof.
  exists (tx "<emu-alg replaces-step=""s"">" ++ body_text ++ repeat 46%N 100), (body_at 27), (head_ (tx "op: singular") []), 27.
  do 2 eexists. split.
  - exists (tx "<emu-alg"), (tx """s"">"), (body_text ++ repeat 46%N 100). split; [reflexivity|]. split; [reflexivity|]. vm_compute; lia.
  - split; [unfold body_at, seq_; eauto|]. vm_compute. reflexivity.
Qed.
(* A variable may be used before it is defined. *)
Definition wrong_text : text := pad ++ tx "Return _x_. Let _x_ be _y_.".
Definition wrong_body : anode := seq_ (ret (var 107 110) 100 111) (let_ (defvar 116 119) (var 123 126) 112 127) 100 127.
Theorem C86_use_before_def_refuted : exists st root h q q' name s s',
  body_use st root name q s /\ body_def st root name q' s' /\ before q q' /\
  (forall q1 s1, body_def st root name q1 s1 -> q1 = q') /\ (forall k d, ~ head_defines st h k name d) /\
  check_vars_in_anode st (Some root) h = Ok [].
Proof.
  exists wrong_text, wrong_body, (head_ (tx "op: singular") [mkParam (tx "_y_") None]), [0; 0], [1; 0; 0], (tx "_x_"), 107, 116.
  set (root := wrong_body). set (hd := head_ (tx "op: singular") [mkParam (tx "_y_") None]).
  assert (NR : forall r s e ch, root <> Node (tx "{var}") r s e ch) by (intros r s e ch X; discriminate).
  assert (V1 : visit_of root [] 0 [0; 0] (mkV (var 107 110) 0 [ret (var 107 110) 100 111; root])).
  { split; [repeat econstructor|]. split; [unfold var; cbn; eauto 8|]. split; [reflexivity|]. exists [ret (var 107 110) 100 111; root].
    split; [|reflexivity]. eapply (ch_below _ _ _ _ _ _ _ _ [ret (var 107 110) 100 111]); [reflexivity|]. eapply (ch_below _ _ _ _ _ _ _ _ []); [reflexivity | constructor]. }
  split; [|split; [|split; [|split; [|split]]]].
  - assert (C := proj1 (class_kind wrong_text root _ _ (tx "_x_") KUse NR V1)). destruct C as (s & O & D); [vm_compute; reflexivity|].
    split; [|exact D]. pose proof (occ_start wrong_text root _ _ _ _ _ _ _ _ _ V1 O eq_refl) as E. now subst s.
  - split.
    + exists (tx "\b _ [A-Za-z]\w* _ \b"), 119, [Leaf (slice 116 119 doc)]. split; [repeat econstructor | reflexivity].
    + exists [1; 0], 0, (defvar 116 119). split; [reflexivity|]. split; [repeat econstructor|]. unfold defvar, written. do 5 eexists. split; reflexivity.
  - constructor. lia.
  - intros q1 s1 (O & q' & i & p & -> & P & l & r & s & e & ch & -> & W).
    destruct (walk_all root [] 0) as [ps Wk]. destruct (visit_ex _ [] 0 _ _ _ _ _ _ P) as [v [V N]]. pose proof (visit_in _ _ _ _ _ _ _ Wk V) as I.
    assert (Q : q' = [1; 0]).
    { destruct V as [A _]. rewrite N in A.
      assert (F : forallb (fun x => match snd x with Node l r _ _ _ => negb (text_eqb (prod_str l r) defvar_prod) || (if list_eq_dec Nat.eq_dec (fst x) [1; 0] then true else false) | Leaf _ => true end) (paths root) = true) by (vm_compute; reflexivity).
      rewrite forallb_forall in F. specialize (F _ (paths_all _ _ _ A)). cbn [fst snd] in F.
      assert (E : text_eqb (prod_str l r) defvar_prod = true) by (apply text_eqb_eq; symmetry; exact W). rewrite E in F. cbn [negb orb] in F.
      destruct (list_eq_dec Nat.eq_dec q' [1; 0]); [assumption | discriminate]. }
    subst q'. f_equal. destruct O as (r1 & e1 & c1 & A1 & _). apply at_split in A1. destruct A1 as (m & M1 & M2).
    rewrite (at_fun _ _ _ M1 _ P) in M2. pose proof (at_fun _ _ _ P (defvar 116 119)) as X. rewrite X in M2 by repeat econstructor.
    inversion M2; subst. destruct i as [|i]; [reflexivity|]. match goal with K : nth_error _ (Datatypes.S i) = Some _ |- _ => cbn in K; destruct i; discriminate K end.
  - intros k d X. apply (head_list_spec wrong_text hd [(tx "_y_", None)] eq_refl) in X. destruct k as [|[|k]]; cbn [nth_error] in X; try discriminate X.
  - vm_compute. reflexivity.
Qed.
(* A parameter that no definition of an operation with several definitions uses is never reported. *)
Theorem C86_never_used_refuted : exists st h roots name,
  (exists k d, head_defines st h k name d) /\ roots <> [] /\
  Forall (fun root => ~ used st root name /\ check_vars_in_anode st (Some root) h = Ok []) roots.
Proof.
  exists (pad ++ tx "Return _x_."), (head_ (tx "op: discriminated by type: object") [mkParam (tx "_x_") None; mkParam (tx "_w_") None]), [ret (var 107 110) 100 111], (tx "_w_").
  split; [exists 1, None; apply (hd_plain _ _ 1 (mkParam (tx "_w_") None)); reflexivity|]. split; [discriminate|]. constructor; [|constructor].
  split; [|vm_compute; reflexivity].
  assert (NR : forall r s e ch, ret (var 107 110) 100 111 <> Node (tx "{var}") r s e ch) by (intros r s e ch X; discriminate).
  apply (uses_none (pad ++ tx "Return _x_.") (ret (var 107 110) 100 111) NR (tx "_w_")). vm_compute. reflexivity.
Qed.

Print Assumptions C86_vars_exact.
Print Assumptions C86_vars_total.
Print Assumptions C86_vars_skipped.
Print Assumptions C86_vars_order.
Print Assumptions C86_vars_each.
Print Assumptions C86_neighbour_refuted.
Print Assumptions C86_beginning_refuted.
Print Assumptions C86_use_before_def_refuted.
Print Assumptions C86_never_used_refuted.
