(* Properties C37, C44: section tree and section numbers. *)
From Verif Require Import M_Base L_Base M_Sections L_Sections.

(* ---- C37 ---- *)

(* each section gets one number: at the top 0 for the introduction, the rank among the clauses, the letter of the rank
   among the annexes; below, the parent's number and the rank, separated by a dot *)
Theorem C37_numbers : forall cs r, number_sections cs = Ok r ->
  NoDup (map fst r) /\
  (forall p, In p (map fst r) <-> sub_root cs p <> None) /\
  (forall i n, In ([i], n) r -> exists c, nth_error cs i = Some c /\
     match s_elt c with
     | Intro => n = [48%N]
     | Clause => n = str (1 + count Clause (firstn i cs))
     | Annex => n = [(65 + N.of_nat (count Annex (firstn i cs)))%N]
     | OtherElt => False
     end) /\
  (forall p i n n', In (p, n) r -> In (p ++ [i], n') r -> n' = n ++ 46%N :: str (i + 1)).
Proof.
  intros cs r H. pose proof (number_root_spec cs 0 0 0 (Nat.le_0_l 26)) as HS. unfold number_sections in H. rewrite H in HS. destruct HS as (Hid & _ & HN & HI). split; [exact HN|]. split; [|split].
  - intros p. rewrite in_fst. split.
    + intros (n & Hn). apply HI in Hn as (j & p' & c & -> & H1 & H2 & _). cbn [sub_root Nat.add]. now rewrite H1.
    + intros Hp. destruct p as [|i p]; [contradiction|]. cbn [sub_root] in Hp. destruct (nth_error cs i) as [c|] eqn:E; [|contradiction]. eexists. apply HI. exists i, p, c. auto.
  - intros i n Hn. apply HI in Hn as (j & p' & c & Q & H1 & H2 & H3). injection Q as -> <-. rewrite app_nil_r in H3. exists c. split; [exact H1|]. subst n. cbn [Nat.add]. destruct (s_elt c) eqn:E; try reflexivity.
    destruct (Hid c) as [_ Q]; [eapply nth_error_In; exact H1|]. contradiction.
  - intros p i n n' Hn Hn'. apply HI in Hn as (j & p' & c & -> & H1 & H2 & ->). apply HI in Hn' as (j' & p2 & c' & Q & H1' & H2' & ->). cbn in Q. injection Q as <- <-. rewrite H1 in H1'. injection H1' as <-.
    unfold suffix. rewrite flat_map_app, <- app_assoc. cbn [flat_map]. now rewrite app_nil_r, Nat.add_1_r.
Qed.
Print Assumptions C37_numbers.
(* no two sections have the same number, if there is at most one introduction *)
Theorem C37_unique : forall cs r p p' n, count Intro cs <= 1 -> number_sections cs = Ok r -> In (p, n) r -> In (p', n) r -> p = p'.
Proof.
  intros cs r p p' n HC H Hp Hp'. pose proof (number_root_spec cs 0 0 0 (Nat.le_0_l 26)) as HS. unfold number_sections in H. rewrite H in HS. destruct HS as (Hid & _ & HN & HI).
  apply HI in Hp as (j & q & c & -> & H1 & H2 & ->). apply HI in Hp' as (j' & q' & c' & -> & H1' & H2' & E). cbn [Nat.add] in *.
  apply app_dot in E as [E1 E2]; auto using top_nodot, suffix_head. apply suffix_inj in E2. subst q'. f_equal.
  eapply top_inj; try eassumption; [apply (Hid c)|apply (Hid c')]; eapply nth_error_In; eassumption.
Qed.
Print Assumptions C37_unique.
(* with two introductions, not *)
Theorem C37_unique_refuted : exists cs r p p' n, number_sections cs = Ok r /\ In (p, n) r /\ In (p', n) r /\ p <> p'.
Proof. exists [Sec Intro true []; Sec Intro true []]. eexists. exists [0], [1], [48%N]. split; [reflexivity|]. cbn. repeat split; auto. discriminate. Qed.
Print Assumptions C37_unique_refuted.
(* it succeeds exactly if every top section is an introduction, clause or annex, there are at most 26 annexes, and every section has an id *)
Theorem C37_success : forall cs, (exists r, number_sections cs = Ok r) <->
  (forall c, In c cs -> s_elt c <> OtherElt) /\ count Annex cs <= 26 /\ forall p s, sub_root cs p = Some s -> s_id s = true.
Proof.
  intros cs. pose proof (number_root_spec cs 0 0 0 (Nat.le_0_l 26)) as HS. unfold number_sections. split.
  - intros (r & E). rewrite E in HS. destruct HS as (Hid & HA & _). split; [intros c Hc; now apply Hid|]. split; [exact HA|]. intros [|i p] s; cbn [sub_root]; [discriminate|].
    destruct (nth_error cs i) as [c|] eqn:Ec; [|discriminate]. intros Hs. destruct (Hid c) as [Q _]; [eapply nth_error_In; exact Ec|]. eapply Q. exact Hs.
  - intros (HO & HA & Hid). destruct (number_root cs 0 0 0) as [r|e]; [eauto|]. exfalso. cbn [Nat.add] in HS. destruct e; try contradiction.
    + destruct HS as (c & Hc & Q). exact (HO c Hc Q).
    + destruct HS as (c & Hc & Q). apply Q. intros p s Hs. apply In_nth_error in Hc as (i & Hi). apply (Hid (i :: p)). cbn. now rewrite Hi.
    + lia.
Qed.
Print Assumptions C37_success.
Definition ex_cs : list sec := [Sec Intro true []; Sec Clause true [Sec Clause true []; Sec Clause true [Sec Clause true []]]; Sec Clause true []; Sec Annex true [Sec Annex true []]].
(* 0, 1, 1.1, 1.2, 1.2.1, 2, A, A.1 *)
Example C37_ex : count Intro ex_cs <= 1 /\ number_sections ex_cs = Ok
  [([0], [48%N]); ([1], [49%N]); ([1; 0], [49%N; 46%N; 49%N]); ([1; 1], [49%N; 46%N; 50%N]); ([1; 1; 0], [49%N; 46%N; 50%N; 46%N; 49%N]); ([2], [50%N]); ([3], [65%N]); ([3; 0], [65%N; 46%N; 49%N])].
Proof. split; [cbn; lia|reflexivity]. Qed.
Example C37_ex_fail : number_sections (repeat (Sec Annex true []) 27) = Err IndexError.
Proof. reflexivity. Qed.

(* ---- C44 ---- *)

(* blank children and comments aside, each child of a section is in exactly one part, in the order of the document *)
Theorem C44_parts : forall cs,
  block_children (classify cs) = filter relevant (before_h2 cs) /\
  section_children (classify cs) = filter is_section cs /\
  unfold_numless (numless_children (classify cs)) = filter (fun c => is_h2 c || relevant c) (from_h2 cs) /\
  (forall t bs c, In (t, bs) (numless_children (classify cs)) -> In c bs -> is_h2 c = false /\ is_section c = false).
Proof.
  intros cs. destruct (classify_spec cs) as (A & B & C & D). split; [exact A|]. split; [exact B|]. split; [exact C|]. intros t bs c H Hc. rewrite Forall_forall in D. specialize (D _ H). cbn in D.
  rewrite Forall_forall in D. specialize (D c Hc). destruct c; try discriminate; auto.
Qed.
Print Assumptions C44_parts.
Theorem C44_count : forall cs, length cs = length (filter (fun c => match c with White | Comment => true | _ => false end) cs) +
  length (block_children (classify cs)) + length (section_children (classify cs)) + length (unfold_numless (numless_children (classify cs))).
Proof.
  intros cs. destruct (classify_spec cs) as (A & B & C & _). rewrite A, B, C. clear. induction cs as [|c cs IH]; [reflexivity|].
  assert (L : length cs = length (filter (fun c => match c with White | Comment => true | _ => false end) cs) + length (filter is_section cs) + length (filter (fun c => is_h2 c || relevant c) cs)).
  { clear. induction cs as [|c cs IH]; [reflexivity|]. destruct c; cbn; lia. }
  destruct c; cbn; lia.
Qed.
Print Assumptions C44_count.
(* the tree is made exactly if in every section the first block, before any h2, is an h1 *)
Theorem C44_success : forall e b cs, (exists r, make_tree (Section_ e b cs) = Ok r) <-> well_headed (Section_ e b cs).
Proof. intros e b cs. rewrite make_tree_ok. split; [intros H; now apply H|auto]. Qed.
Print Assumptions C44_success.
Definition ex_children : list hnode := [White; H1; OtherBlock 1; Section_ Clause true [H1]; H2 7; OtherBlock 2; Comment; OtherBlock 3; H2 8; OtherBlock 4].
Example C44_ex : classify ex_children = mkParts [H1; OtherBlock 1] [(7, [OtherBlock 2; OtherBlock 3]); (8, [OtherBlock 4])] [Section_ Clause true [H1]].
Proof. reflexivity. Qed.
Example C44_ex_headed : well_headed (Section_ Clause true ex_children).
Proof.
  econstructor; [reflexivity|]. intros c H Hs. unfold ex_children in H. cbn [In] in H.
  repeat (destruct H as [<-|H]; [try discriminate Hs|]); [|destruct H].
  econstructor; [reflexivity|]. intros c [<-|[]] Q. discriminate.
Qed.
Example C44_ex_fail : make_tree (Section_ Clause true [White]) = Err IndexError /\ make_tree (Section_ Clause true [OtherBlock 1; H1]) = Err AssertionError.
Proof. split; reflexivity. Qed.
