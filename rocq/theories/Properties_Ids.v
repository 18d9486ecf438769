(* C72: what the check of ids reports, and when it fails. *)
From Coq Require Import Ascii String Sorted Permutation.
From Verif Require Import M_Base L_Base M_HTML M_Records L_Records M_Ids L_Ids L_IdsMain.
Open Scope list_scope.
Notation length := List.length.

(* a document for the examples *)
Definition ex_lower : text -> text := map (fun c => if is_upper c then (c + 32)%N else c).
Definition no_uni : N -> bool := fun _ => false.
Definition ex_xref (k : nat) (h : string) (t : string) : node := Node k (tx "emu-xref") [(tx "href", tx h)] (tx t) [].
Definition ex_doc : node :=
  Node 0 (tx "body") [] [] [
    Node 1 (tx "emu-clause") [(tx "id", tx "sec-tobool"); (tx "aoid", tx "ToBool"); (tx "oldids", tx "sec-a,sec-b")] [] [
      Node 2 (tx "dfn") [(tx "id", tx "dfn-cow"); (tx "variants", tx "cows,kine")] (tx "cow") [];
      Node 3 (tx "emu-alg") [] (tx "1. [id=""step-one""] Return. 1. [id=""step-two""] Return.") [];
      ex_xref 4 "#dfn-cow" "kine"; ex_xref 5 "#step-one" "step 1"; ex_xref 6 "#sec-nowhere" ""];
    Node 7 (tx "emu-table") [(tx "id", tx "tab-x")] [] [];
    Node 8 (tx "p") [(tx "id", tx "sec-tobool")] [] [];
    Node 9 (tx "emu-clause") [(tx "id", tx "sec-is-bool"); (tx "aoid", tx "TryBool")] [] [] ].

(* C72.1  The check comes to its end exactly if: an element with an id and an aoid is a clause or an equation; an id found in
   the text of an algorithm starts with step-; no old id occurs twice; no old id is also an id; and every emu-xref has an href
   that starts with # and, if it leads to a dfn, the dfn is not empty. *)
Theorem C72_accepts : forall uniword lower doc,
  (exists r, snd (check_ids uniword lower doc) = Ok r) <->
  (forall n i a, In n (elements doc) -> attr n (tx "id") i -> attr n (tx "aoid") a -> ename n = tx "emu-clause" \/ ename n = tx "emu-eqn") /\
  (forall n x, In n (elements doc) -> In x (step_ids uniword n) -> begins (tx "step-") x) /\
  NoDup (old_ids (elements doc)) /\
  (forall x, In x (old_ids (elements doc)) -> ~ In x (ids_of uniword doc)) /\
  (forall r, In r (elements doc) -> ename r = tx "emu-xref" ->
     exists x, attr r (tx "href") (tx "#" ++ x) /\ forall def, target uniword doc x def -> ename def = tx "dfn" -> inner def <> []).
Proof.
  intros uniword lower doc. pose proof (check_spec uniword lower doc) as H.
  assert (A : acceptable uniword doc <-> (forall n i a, In n (elements doc) -> attr n (tx "id") i -> attr n (tx "aoid") a -> ename n = tx "emu-clause" \/ ename n = tx "emu-eqn") /\
  (forall n x, In n (elements doc) -> In x (step_ids uniword n) -> begins (tx "step-") x) /\
  NoDup (old_ids (elements doc)) /\
  (forall x, In x (old_ids (elements doc)) -> ~ In x (ids_of uniword doc)) /\
  (forall r, In r (elements doc) -> ename r = tx "emu-xref" ->
     exists x, attr r (tx "href") (tx "#" ++ x) /\ forall def, target uniword doc x def -> ename def = tx "dfn" -> inner def <> [])).
  { unfold acceptable, good, ok_ref. rewrite !Forall_forall. split.
    - intros (G & N & D & R). split; [intros n i a Hn; apply (proj1 (G n Hn))|]. split; [|auto].
      intros n x Hn Hx. pose proof (proj2 (G n Hn)) as F. rewrite Forall_forall in F. auto.
    - intros (G1 & G2 & N & D & R). split; [|auto]. intros n Hn. split; [intros i a; apply G1; exact Hn|]. rewrite Forall_forall. intros x. apply G2. exact Hn. }
  rewrite <- A. destruct (snd (check_ids uniword lower doc)) as [[f d]|e].
  - split; [intros _; apply H|eauto].
  - split; [intros (r & E); discriminate|]. intros Ha. destruct H as [H _]. contradiction.
Qed.
Print Assumptions C72_accepts.
Example C72_accepts_ex : exists r, snd (check_ids no_uni ex_lower ex_doc) = Ok r.
Proof. eexists. vm_compute. reflexivity. Qed.

(* C72.2  Otherwise an assertion fails, or the program exits because some emu-xref has no href. *)
Theorem C72_fails : forall uniword lower doc e, snd (check_ids uniword lower doc) = Err e ->
  e = AssertionError \/ (e = SystemExit /\ exists r, In r (elements doc) /\ ename r = tx "emu-xref" /\ tget (attrs r) (tx "href") = None).
Proof. intros uniword lower doc e E. pose proof (check_spec uniword lower doc) as H. rewrite E in H. apply H. Qed.
Print Assumptions C72_fails.
Example C72_fails_ex : snd (check_ids no_uni ex_lower (Node 0 (tx "body") [] [] [Node 7 (tx "emu-xref") [] (tx "x") []])) = Err SystemExit
  /\ snd (check_ids no_uni ex_lower (Node 0 (tx "emu-alg") [] (tx "1. [id=""one""] Return.") [])) = Err AssertionError
  /\ snd (check_ids no_uni ex_lower (Node 0 (tx "body") [] [] [Node 1 (tx "p") [(tx "oldids", tx "a,b")] [] []; Node 2 (tx "p") [(tx "oldids", tx "b")] [] []])) = Err AssertionError.
Proof. vm_compute. auto. Qed.

(* C72.3  Every occurrence of an id but the first is reported as a duplicate, at its element; nothing else is. *)
Theorem C72_duplicates : forall uniword lower doc r, snd (check_ids uniword lower doc) = Ok r ->
  (forall k x, In (k, Duplicate x) (fst (check_ids uniword lower doc)) <->
     exists l1 n l2, occurrences uniword (elements doc) = l1 ++ (n, x) :: l2 /\ In x (map snd l1) /\ k = num n) /\
  (forall x, length (filter (dup_of x) (fst (check_ids uniword lower doc))) = count_occ text_dec (ids_of uniword doc) x - 1).
Proof.
  intros uniword lower doc [f d] E. pose proof (check_spec uniword lower doc) as H. rewrite E in H. destruct H as (_ & _ & _ & M & C).
  split; [|exact C]. intros k x. rewrite M. split.
  - intros [(l1 & n & y & l2 & A & B & Ek & Ew)|[(n & _ & _ & i & _ & Q)|[(r & _ & y & _ & Q)|(y & def & _ & _ & _ & _ & _ & _ & Q)]]]; try discriminate.
    + injection Ew as <-. exists l1, n, l2. auto.
    + destruct Q as [(p & _ & _ & Q)|[(_ & _ & Q)|(a & p & _ & _ & Q & _)]]; discriminate.
    + destruct Q as [(d' & _ & _ & _ & _ & Q)|[(d' & _ & _ & _ & _ & _ & Q)|[(d' & _ & _ & _ & _ & Q)|(_ & _ & _ & Q)]]]; discriminate.
  - intros (l1 & n & l2 & A & B & Ek). left. exists l1, n, x, l2. auto.
Qed.
Print Assumptions C72_duplicates.
Example C72_duplicates_ex : ids_of no_uni ex_doc = [tx "sec-tobool"; tx "dfn-cow"; tx "step-one"; tx "step-two"; tx "tab-x"; tx "sec-tobool"; tx "sec-is-bool"]
  /\ In (8, Duplicate (tx "sec-tobool")) (fst (check_ids no_uni ex_lower ex_doc)).
Proof. vm_compute. intuition. Qed.

(* C72.4  The form of ids: sec- for introductions, clauses and annexes, eqn- for equations, figure- for figures, table- for tables, none of
   these for any other element; and the id of an element with an aoid has one of five forms. *)
Theorem C72_names : forall uniword lower doc r, snd (check_ids uniword lower doc) = Ok r ->
  (forall k p, In (k, WantPrefix p) (fst (check_ids uniword lower doc)) <->
     exists n i, In n (elements doc) /\ k = num n /\ attr n (tx "id") i /\ wants (ename n) p /\ ~ begins p i) /\
  (forall k, In (k, BadPrefix) (fst (check_ids uniword lower doc)) <->
     exists n i, In n (elements doc) /\ k = num n /\ attr n (tx "id") i /\ (~ exists p, wants (ename n) p) /\
       (begins (tx "sec-") i \/ begins (tx "eqn-") i \/ begins (tx "figure-") i \/ begins (tx "table-") i)) /\
  (forall k want, In (k, WantId want) (fst (check_ids uniword lower doc)) <->
     exists n i a p, In n (elements doc) /\ k = num n /\ attr n (tx "id") i /\ attr n (tx "aoid") a /\ wants (ename n) p /\
       want = p ++ dash_colons (dash_spaces (lower a)) /\
       i <> p ++ dash_colons (dash_spaces (lower a)) /\ i <> p ++ a /\ i <> p ++ kebab a /\
       i <> p ++ tx "static-semantics-" ++ lower a /\ i <> p ++ tx "runtime-semantics-" ++ lower a).
Proof.
  intros uniword lower doc [f d] E. pose proof (check_spec uniword lower doc) as H. rewrite E in H. destruct H as (_ & _ & _ & M & _).
  assert (X : forall k w, (forall x, w <> Duplicate x) -> (forall r, ~ about_ref (target uniword doc) r k w) -> (forall x, w <> Unreferenced x) ->
    (In (k, w) (fst (check_ids uniword lower doc)) <-> exists n, In n (elements doc) /\ about_id lower n k w)).
  { intros k w N1 N2 N3. rewrite M. split; [|tauto]. intros [(l1 & n & y & l2 & _ & _ & _ & Q)|[H|[(r & _ & Q)|(y & def & _ & _ & _ & _ & _ & _ & Q)]]].
    - exfalso. exact (N1 _ Q). - exact H. - exfalso. exact (N2 r Q). - exfalso. exact (N3 _ Q). }
  split; [|split].
  - intros k p. rewrite X; try discriminate.
    2:{ intros r (y & _ & Q). destruct Q as [(d' & _ & _ & _ & _ & Q)|[(d' & _ & _ & _ & _ & _ & Q)|[(d' & _ & _ & _ & _ & Q)|(_ & _ & _ & Q)]]]; discriminate. }
    split.
    + intros (n & Hn & -> & i & Hi & [(q & A & B & Q)|[(_ & _ & Q)|(a & q & _ & _ & Q & _)]]); try discriminate. injection Q as ->. exists n, i. auto 6.
    + intros (n & i & Hn & -> & Hi & A & B). exists n. split; [exact Hn|]. split; [reflexivity|]. exists i. split; [exact Hi|]. left. exists p. auto.
  - intros k. rewrite X; try discriminate.
    2:{ intros r (y & _ & Q). destruct Q as [(d' & _ & _ & _ & _ & Q)|[(d' & _ & _ & _ & _ & _ & Q)|[(d' & _ & _ & _ & _ & Q)|(_ & _ & _ & Q)]]]; discriminate. }
    split.
    + intros (n & Hn & -> & i & Hi & [(q & A & B & Q)|[(A & B & Q)|(a & q & _ & _ & Q & _)]]); try discriminate. exists n, i. auto 6.
    + intros (n & i & Hn & -> & Hi & A & B). exists n. split; [exact Hn|]. split; [reflexivity|]. exists i. split; [exact Hi|]. right. left. auto.
  - intros k want. rewrite X; try discriminate.
    2:{ intros r (y & _ & Q). destruct Q as [(d' & _ & _ & _ & _ & Q)|[(d' & _ & _ & _ & _ & _ & Q)|[(d' & _ & _ & _ & _ & Q)|(_ & _ & _ & Q)]]]; discriminate. }
    split.
    + intros (n & Hn & -> & i & Hi & [(q & A & B & Q)|[(A & B & Q)|(a & q & A & B & Q & N)]]); try discriminate. injection Q as ->.
      exists n, i, a, q. cbn [In] in N. repeat (split; [solve [assumption | reflexivity | intros ->; tauto]|]). intros ->. tauto.
    + intros (n & i & a & p & Hn & -> & Hi & Ha & Hw & -> & N1 & N2 & N3 & N4 & N5). exists n. split; [exact Hn|]. split; [reflexivity|]. exists i. split; [exact Hi|].
      right. right. exists a, p. split; [exact Ha|]. split; [exact Hw|]. split; [reflexivity|]. cbn [In]. intros [Q|[Q|[Q|[Q|[Q|[]]]]]]; symmetry in Q; contradiction.
Qed.
Print Assumptions C72_names.
Example C72_names_ex : let ms := fst (check_ids no_uni ex_lower ex_doc) in
  In (7, WantPrefix (tx "table-")) ms /\ In (8, BadPrefix) ms /\ In (9, WantId (tx "sec-trybool")) ms /\ ~ In (1, WantPrefix (tx "sec-")) ms /\ ~ In (1, WantId (tx "sec-tobool")) ms.
Proof. vm_compute. repeat split; try tauto; intros H; repeat (destruct H as [H|H]; [discriminate|]); exact H. Qed.

(* C72.5  References: an emu-xref to an id that no element has is reported (but for five ids of imported tables); one to a dfn is reported
   if its text is empty or is one that gets linked anyway; one to an element of an unexpected kind is reported at that element. *)
Theorem C72_references : forall uniword lower doc r, snd (check_ids uniword lower doc) = Ok r ->
  (forall k x, In (k, Nonexistent x) (fst (check_ids uniword lower doc)) <->
     exists r, In r (elements doc) /\ k = num r /\ refers r x /\ ~ In x (ids_of uniword doc) /\ ~ In x imported) /\
  (forall k e, In (k, UnexpectedDef e) (fst (check_ids uniword lower doc)) <->
     exists r x def, In r (elements doc) /\ refers r x /\ target uniword doc x def /\ k = num def /\ e = ename def /\ ~ In e (tx "dfn" :: plain_targets)) /\
  (forall k t x, In (k, UnneededEmpty t x) (fst (check_ids uniword lower doc)) <->
     exists r def, In r (elements doc) /\ k = num r /\ refers r x /\ target uniword doc x def /\ ename def = tx "dfn" /\ t = inner def /\ inner r = []) /\
  (forall k t x, In (k, UnneededTags t x) (fst (check_ids uniword lower doc)) <->
     exists r def, In r (elements doc) /\ k = num r /\ refers r x /\ target uniword doc x def /\ ename def = tx "dfn" /\ t = inner r /\ t <> [] /\
       (t = inner def \/ exists v, attr def (tx "variants") v /\ In t (split_comma v))).
Proof.
  intros uniword lower doc [f d] E. pose proof (check_spec uniword lower doc) as H. rewrite E in H. destruct H as (_ & _ & _ & M & _).
  assert (X : forall k w, (forall x, w <> Duplicate x) -> (forall n, ~ about_id lower n k w) -> (forall x, w <> Unreferenced x) ->
    (In (k, w) (fst (check_ids uniword lower doc)) <-> exists r, In r (elements doc) /\ about_ref (target uniword doc) r k w)).
  { intros k w N1 N2 N3. rewrite M. split; [|tauto]. intros [(l1 & n & y & l2 & _ & _ & _ & Q)|[(r & _ & Q)|[H|(y & def & _ & _ & _ & _ & _ & _ & Q)]]].
    - exfalso. exact (N1 _ Q). - exfalso. exact (N2 r Q). - exact H. - exfalso. exact (N3 _ Q). }
  assert (T : forall x, (exists def, target uniword doc x def) <-> In x (ids_of uniword doc)).
  { intros x. destruct (record_keys (occurrences uniword (elements doc)) [] (NoDup_nil _)) as [_ K]. specialize (K x). cbn [map In] in K. unfold ids_of.
    rewrite tget_keys in K. split.
    - intros (n & Hn). apply target_get in Hn. destruct (proj1 K (ex_intro _ n Hn)) as [H|[]]. exact H.
    - intros H. destruct (proj2 K (or_introl H)) as (n & Hn). exists n. now apply target_get. }
  split; [|split; [|split]].
  - intros k x. rewrite X; try discriminate.
    2:{ intros n (_ & i & _ & [(q & _ & _ & Q)|[(_ & _ & Q)|(a & q & _ & _ & Q & _)]]); discriminate. }
    split.
    + intros (r & Hr & y & Hy & [(d' & _ & _ & _ & _ & Q)|[(d' & _ & _ & _ & _ & _ & Q)|[(d' & _ & _ & _ & _ & Q)|(A & B & -> & Q)]]]); try discriminate.
      injection Q as ->. exists r. rewrite <- T. solve [auto 6].
    + intros (r & Hr & -> & Hx & A & B). exists r. split; [exact Hr|]. exists x. split; [exact Hx|]. right. right. right. rewrite T. solve [auto].
  - intros k e. rewrite X; try discriminate.
    2:{ intros n (_ & i & _ & [(q & _ & _ & Q)|[(_ & _ & Q)|(a & q & _ & _ & Q & _)]]); discriminate. }
    split.
    + intros (r & Hr & y & Hy & [(d' & _ & _ & _ & _ & Q)|[(d' & _ & _ & _ & _ & _ & Q)|[(d' & A & B & B' & -> & Q)|(_ & _ & _ & Q)]]]); try discriminate.
      injection Q as ->. exists r, y, d'. cbn [In]. intuition congruence.
    + intros (r & x & def & Hr & Hx & Ht & -> & -> & N). exists r. split; [exact Hr|]. exists x. split; [exact Hx|]. right. right. left. exists def. cbn [In] in N. intuition congruence.
  - intros k t x. rewrite X; try discriminate.
    2:{ intros n (_ & i & _ & [(q & _ & _ & Q)|[(_ & _ & Q)|(a & q & _ & _ & Q & _)]]); discriminate. }
    split.
    + intros (r & Hr & y & Hy & [(d' & A & B & C & -> & Q)|[(d' & _ & _ & _ & _ & _ & Q)|[(d' & _ & _ & _ & _ & Q)|(_ & _ & _ & Q)]]]); try discriminate.
      injection Q as -> ->. exists r, d'. auto 8.
    + intros (r & def & Hr & -> & Hx & Ht & A & -> & B). exists r. split; [exact Hr|]. exists x. split; [exact Hx|]. left. exists def. auto 6.
  - intros k t x. rewrite X; try discriminate.
    2:{ intros n (_ & i & _ & [(q & _ & _ & Q)|[(_ & _ & Q)|(a & q & _ & _ & Q & _)]]); discriminate. }
    split.
    + intros (r & Hr & y & Hy & [(d' & _ & _ & _ & _ & Q)|[(d' & A & B & C & D & -> & Q)|[(d' & _ & _ & _ & _ & Q)|(_ & _ & _ & Q)]]]); try discriminate.
      injection Q as -> ->. exists r, d'. auto 9.
    + intros (r & def & Hr & -> & Hx & Ht & A & -> & B & C). exists r. split; [exact Hr|]. exists x. split; [exact Hx|]. right. left. exists def. auto 7.
Qed.
Print Assumptions C72_references.
Example C72_references_ex : let ms := fst (check_ids no_uni ex_lower ex_doc) in
  In (6, Nonexistent (tx "sec-nowhere")) ms /\ In (4, UnneededTags (tx "kine") (tx "dfn-cow")) ms.
Proof. vm_compute. intuition. Qed.

(* C72.6  An id to which no emu-xref refers is reported, at the last element that has it, unless the element is of one of seven kinds or
   the id is one of two that the style sheet uses. *)
Theorem C72_unreferenced : forall uniword lower doc r, snd (check_ids uniword lower doc) = Ok r ->
  forall k x, In (k, Unreferenced x) (fst (check_ids uniword lower doc)) <->
    exists def, target uniword doc x def /\ k = num def /\ (forall r, In r (elements doc) -> ~ refers r x) /\
      x <> tx "metadata-block" /\ x <> tx "ecma-logo" /\ ~ In (ename def) exempt.
Proof.
  intros uniword lower doc [f d] E k x. pose proof (check_spec uniword lower doc) as H. rewrite E in H. destruct H as (_ & _ & _ & M & _).
  rewrite M. split.
  - intros [(l1 & n & y & l2 & _ & _ & _ & Q)|[(n & _ & _ & i & _ & Q)|[(r & _ & y & _ & Q)|(y & def & A & B & C & D & F & -> & Q)]]]; try discriminate.
    + destruct Q as [(p & _ & _ & Q)|[(_ & _ & Q)|(a & p & _ & _ & Q & _)]]; discriminate.
    + destruct Q as [(d' & _ & _ & _ & _ & Q)|[(d' & _ & _ & _ & _ & _ & Q)|[(d' & _ & _ & _ & _ & Q)|(_ & _ & _ & Q)]]]; discriminate.
    + injection Q as ->. exists def. split; [exact A|]. split; [reflexivity|]. split; [|auto]. intros r Hr Hx. apply B. eauto.
  - intros (def & A & -> & B & C & D & F). right. right. right. exists x, def. split; [exact A|]. split; [|auto]. intros (r & Hr & Hx). exact (B r Hr Hx).
Qed.
Print Assumptions C72_unreferenced.
Example C72_unreferenced_ex : let ms := fst (check_ids no_uni ex_lower ex_doc) in
  In (3, Unreferenced (tx "step-two")) ms /\ In (8, Unreferenced (tx "sec-tobool")) ms /\ ~ In (3, Unreferenced (tx "step-one")) ms.
Proof. vm_compute. repeat split; try tauto; intros H; repeat (destruct H as [H|H]; [discriminate|]); exact H. Qed.

(* C72.7  The index that is left for the rest of the program leads from each id to the last element that has it; the file of ids has
   every id and every old id once, in order. *)
Theorem C72_result : forall uniword lower doc file d, snd (check_ids uniword lower doc) = Ok (file, d) ->
  (forall x n, tget d x = Some n <-> exists l1 l2, occurrences uniword (elements doc) = l1 ++ (n, x) :: l2 /\ ~ In x (map snd l2)) /\
  NoDup (map fst d) /\ (forall x, In x (map fst d) <-> In x (ids_of uniword doc)) /\
  StronglySorted (fun a b => text_leb a b = true) file /\ NoDup file /\
  (forall x, In x file <-> In x (ids_of uniword doc) \/ In x (old_ids (elements doc))).
Proof.
  intros uniword lower doc file d E. pose proof (check_spec uniword lower doc) as H. rewrite E in H. destruct H as (_ & Ed & Ef & _).
  destruct (record_keys (occurrences uniword (elements doc)) [] (NoDup_nil _)) as [K1 K2].
  assert (Kd : forall x, In x (map fst d) <-> In x (ids_of uniword doc)) by (intros x; rewrite Ed, K2; unfold ids_of; cbn; tauto).
  split; [intros x n; rewrite Ed; apply target_get|]. split; [rewrite Ed; exact K1|]. split; [exact Kd|].
  destruct (dedup_spec (old_ids (elements doc) ++ map fst d)) as [N I]. rewrite Ef.
  split; [apply isort_sorted; [intros; apply text_leb_total|intros ? ? ?; apply text_leb_trans]|]. split.
  - apply (Permutation_NoDup (Permutation_sym (isort_perm text_leb _))). exact N.
  - intros x. rewrite <- Kd. split.
    + intros Hx. apply (Permutation_in _ (isort_perm text_leb _)) in Hx. apply I, in_app_iff in Hx. tauto.
    + intros Hx. apply (Permutation_in _ (Permutation_sym (isort_perm text_leb _))). apply I, in_app_iff. tauto.
Qed.
Print Assumptions C72_result.
Example C72_result_ex : match snd (check_ids no_uni ex_lower ex_doc) with
  | Ok (file, d) => file = [tx "dfn-cow"; tx "sec-a"; tx "sec-b"; tx "sec-is-bool"; tx "sec-tobool"; tx "step-one"; tx "step-two"; tx "tab-x"]
      /\ option_map num (tget d (tx "sec-tobool")) = Some 8
  | Err _ => False end.
Proof. vm_compute. auto. Qed.

(* C72.8  If nothing is reported, then no id is shared by two elements, and every emu-xref leads to the one element with its id
   (or to an imported table). *)
Theorem C72_clean : forall uniword lower doc r, check_ids uniword lower doc = ([], Ok r) ->
  NoDup (ids_of uniword doc) /\
  forall r, In r (elements doc) -> ename r = tx "emu-xref" -> exists x, attr r (tx "href") (tx "#" ++ x) /\
    (In x imported \/ exists def, In (def, x) (occurrences uniword (elements doc)) /\ forall def', In (def', x) (occurrences uniword (elements doc)) -> def' = def).
Proof.
  intros uniword lower doc [file d] E. pose proof (check_spec uniword lower doc) as H. rewrite E in H. cbn [snd fst] in H.
  destruct H as ((_ & _ & _ & O) & _ & _ & M & C).
  assert (N : NoDup (ids_of uniword doc)).
  { apply (NoDup_count_occ text_dec). intros x. specialize (C x). cbn in C. lia. }
  split; [exact N|]. intros r Hr Er. rewrite Forall_forall in O. destruct (O r Hr Er) as (x & A & _). exists x. split; [exact A|].
  destruct (in_dec text_dec x imported) as [Hi|Hi]; [now left|right].
  destruct (record_keys (occurrences uniword (elements doc)) [] (NoDup_nil _)) as [_ K]. specialize (K x). rewrite tget_keys in K.
  destruct (in_dec text_dec x (ids_of uniword doc)) as [Hx|Hx].
  - destruct (proj2 K (or_introl Hx)) as (def & Hd). apply target_get in Hd as (l1 & l2 & El & Hn). exists def.
    split; [rewrite El; apply in_app_iff; right; now left|]. intros def' H'. rewrite El in H'. apply in_app_iff in H'.
    unfold ids_of in N. rewrite El, map_app in N. cbn [map snd] in N. destruct H' as [H'|[H'|H']].
    + exfalso. apply NoDup_remove_2 in N. apply N. apply in_app_iff. left. apply in_map_iff. exists (def', x). auto.
    + congruence.
    + exfalso. apply Hn. apply in_map_iff. exists (def', x). auto.
  - exfalso. apply (M (num r) (Nonexistent x)). right. right. left. exists r. split; [exact Hr|]. exists x. split; [split; assumption|].
    right. right. right. split; [|auto]. intros (def & Hd). apply Hx. apply target_get in Hd. destruct (proj1 K (ex_intro _ def Hd)) as [Q|[]]. exact Q.
Qed.
Print Assumptions C72_clean.
Definition ex_clean : node :=
  Node 0 (tx "body") [] [] [
    Node 1 (tx "emu-clause") [(tx "id", tx "sec-tobool"); (tx "aoid", tx "ToBool")] [] [
      Node 3 (tx "emu-alg") [] (tx "1. [id=""step-one""] Return.") []; ex_xref 5 "#step-one" "step 1"; ex_xref 6 "#table-unicode-script-values" ""]].
Example C72_clean_ex : exists r, check_ids no_uni ex_lower ex_clean = ([], Ok r).
Proof. eexists. vm_compute. reflexivity. Qed.

(* C72.9  The search in the text of an algorithm, the parts of a list of old ids or variants, and kebab case. *)
Theorem C72_search : forall uniword s l, find_ids uniword false 0 s = l <-> found_in uniword false s l.
Proof. intros uniword s l. split; [intros <-; apply (find_spec uniword (length s)); lia|]. intros H. symmetry. now apply found_find. Qed.
Print Assumptions C72_search.
Example C72_search_ex : find_ids no_uni false 0 (tx "1. [id=""step-a""] If void=""b"" or id="""" or data-id=""c"", id=""d""") = [tx "step-a"; tx "c"; tx "d"].
Proof. vm_compute. reflexivity. Qed.

Theorem C72_split : forall s ws, split_comma s = ws <-> ws <> [] /\ Forall (fun w => ~ In 44%N w) ws /\ join (tx ",") ws = s.
Proof.
  intros s ws. destruct (split_comma_spec s) as (A & B & C). split; [intros <-; auto|]. intros (A' & B' & C').
  apply join_inj; auto. change (tx ",") with [44%N] in C'. congruence.
Qed.
Print Assumptions C72_split.
Example C72_split_ex : split_comma (tx "a,bc,,d") = [tx "a"; tx "bc"; []; tx "d"].
Proof. vm_compute. reflexivity. Qed.

(* words that begin with a capital and have no other get a hyphen between them, and their capitals become small *)
Theorem C72_kebab : forall ws, ws <> [] -> (forall u w, In (u, w) ws -> (65 <= u <= 90)%N /\ forall c, In c w -> ~ (65 <= c <= 90)%N) ->
  kebab (flat_map (fun uw => fst uw :: snd uw) ws) = join (tx "-") (map (fun uw => (fst uw + 32)%N :: snd uw) ws).
Proof.
  assert (U : forall c, is_upper c = true <-> (65 <= c <= 90)%N) by (intros c; unfold is_upper; rewrite andb_true_iff, !N.leb_le; tauto).
  assert (W : forall w, (forall c, In c w -> ~ (65 <= c <= 90)%N) -> flat_map (fun d => if is_upper d then [45%N; (d + 32)%N] else [d]) w = w).
  { induction w as [|c w IH]; intros H; [reflexivity|]. cbn [flat_map]. destruct (is_upper c) eqn:E; [exfalso; apply (H c); [now left|now apply U]|].
    cbn [app]. f_equal. apply IH. intros d Hd. apply H. now right. }
  assert (R : forall ws, (forall u w, In (u, w) ws -> (65 <= u <= 90)%N /\ forall c, In c w -> ~ (65 <= c <= 90)%N) ->
    flat_map (fun d => if is_upper d then [45%N; (d + 32)%N] else [d]) (flat_map (fun uw => fst uw :: snd uw) ws) = flat_map (fun uw => 45%N :: (fst uw + 32)%N :: snd uw) ws).
  { induction ws as [|[u w] ws IH]; intros H; [reflexivity|]. cbn [flat_map fst snd app]. destruct (H u w (or_introl eq_refl)) as [Hu Hw].
    rewrite (proj2 (U u) Hu). cbn [app]. rewrite flat_map_app, (W w Hw), IH; [reflexivity|]. intros; apply H; now right. }
  assert (J : forall (ws : list (N * text)) a, join (tx "-") (a :: map (fun uw => (fst uw + 32)%N :: snd uw) ws) = a ++ flat_map (fun uw => 45%N :: (fst uw + 32)%N :: snd uw) ws).
  { induction ws as [|[u w] ws IH]; intros a; [cbn; now rewrite app_nil_r|].
    transitivity (a ++ tx "-" ++ join (tx "-") (((u + 32)%N :: w) :: map (fun uw => (fst uw + 32)%N :: snd uw) ws)); [reflexivity|].
    rewrite (IH ((u + 32)%N :: w)). reflexivity. }
  intros ws Hne H. destruct ws as [|[u w] ws]; [congruence|]. destruct (H u w (or_introl eq_refl)) as [Hu Hw].
  cbn [flat_map map fst snd app kebab]. rewrite (proj2 (U u) Hu). etransitivity; [|symmetry; apply (J ws ((u + 32)%N :: w))].
  rewrite flat_map_app, (W w Hw), R; [reflexivity|]. intros; apply H; now right.
Qed.
Print Assumptions C72_kebab.
Example C72_kebab_ex : kebab (tx "IsBigEndian") = tx "is-big-endian" /\ kebab (tx "toURI") = tx "to-u-r-i".
Proof. vm_compute. auto. Qed.

(* words without a colon, put together with double colons, get hyphens instead; likewise with spaces *)
Theorem C72_dashes : (forall ws, Forall (fun w => ~ In 58%N w) ws -> dash_colons (join (tx "::") ws) = join (tx "-") ws) /\
  (forall ws, Forall (fun w => ~ In 32%N w) ws -> dash_spaces (join (tx " ") ws) = join (tx "-") ws).
Proof.
  assert (Q : forall a b s, dash_colons (a :: b :: s) = if (a =? 58)%N && (b =? 58)%N then 45%N :: dash_colons s else a :: dash_colons (b :: s)) by reflexivity.
  assert (C : forall w r, ~ In 58%N w -> dash_colons (w ++ tx "::" ++ r) = w ++ tx "-" ++ dash_colons r).
  { induction w as [|c w IH]; intros r N; [reflexivity|]. assert (E : (c =? 58)%N = false) by (apply N.eqb_neq; intros ->; apply N; now left).
    assert (N' : ~ In 58%N w) by (intros X; apply N; now right). specialize (IH r N'). destruct w as [|d w]; [change (([c] ++ tx "::" ++ r)) with (c :: 58%N :: (58%N :: r)); rewrite Q, E; cbn [andb]; exact (f_equal (cons c) IH)|]. change ((c :: d :: w) ++ tx "::" ++ r) with (c :: d :: (w ++ tx "::" ++ r)). rewrite Q, E. cbn [andb]. change (d :: w ++ tx "::" ++ r) with ((d :: w) ++ tx "::" ++ r). rewrite IH. reflexivity. }
  assert (C0 : forall w, ~ In 58%N w -> dash_colons w = w).
  { induction w as [|c w IH]; intros N; [reflexivity|]. destruct w as [|d w]; [reflexivity|]. assert (E : (c =? 58)%N = false) by (apply N.eqb_neq; intros ->; apply N; now left).
    rewrite Q, E. cbn [andb]. f_equal. apply IH. intros X. apply N. now right. }
  assert (S0 : forall w, ~ In 32%N w -> dash_spaces w = w).
  { induction w as [|c w IH]; intros N; [reflexivity|]. unfold dash_spaces in *. cbn [map]. assert (E : (c =? 32)%N = false) by (apply N.eqb_neq; intros ->; apply N; now left). rewrite E, IH; [reflexivity|]. intros X. apply N. now right. }
  split; (induction ws as [|w ws IH]; intros F; [reflexivity|]); inversion F as [|? ? F1 F2]; subst; (destruct ws as [|w' ws]; [cbn [join]; auto|]); specialize (IH F2).
  - change (dash_colons (w ++ tx "::" ++ join (tx "::") (w' :: ws)) = w ++ tx "-" ++ join (tx "-") (w' :: ws)). rewrite C by exact F1. now rewrite IH.
  - change (dash_spaces (w ++ tx " " ++ join (tx " ") (w' :: ws)) = w ++ tx "-" ++ join (tx "-") (w' :: ws)). unfold dash_spaces in *. rewrite !map_app, IH, (S0 w F1). reflexivity.
Qed.
Print Assumptions C72_dashes.
Example C72_dashes_ex : dash_colons (dash_spaces (tx "number::same value")) = tx "number-same-value" /\ dash_colons (tx "a:b:::c") = tx "a:b-:c".
Proof. vm_compute. auto. Qed.

(* what counts as a letter before id *)
Theorem C72_letters : forall uniword c, word_char uniword c = true <->
  (48 <= c <= 57 \/ 65 <= c <= 90 \/ 97 <= c <= 122)%N \/ c = 95%N \/ ((128 <= c)%N /\ uniword c = true).
Proof.
  intros u c. unfold word_char, is_upper. rewrite !orb_true_iff, !andb_true_iff, !N.leb_le, N.eqb_eq. tauto.
Qed.
Print Assumptions C72_letters.
Example C72_letters_ex : find_ids no_uni false 0 (tx "_id=""a"" 9id=""b"" -id=""c""") = [tx "c"].
Proof. vm_compute. reflexivity. Qed.

(* C72.10  An element with an id inside an algorithm is counted twice, once as an element and once in the text of the algorithm:
   it is reported as a duplicate though no other element has the id. *)
Theorem C72_nested_refuted : exists doc r k x, snd (check_ids no_uni ex_lower doc) = Ok r /\
  In (k, Duplicate x) (fst (check_ids no_uni ex_lower doc)) /\
  (exists n, filter (fun n => tin (own_ids n) x) (elements doc) = [n] /\ k = num n).
Proof.
  set (doc := Node 0 (tx "emu-alg") [] (tx "1. Let <span id=""step-x"">_x_</span> be 1.") [Node 1 (tx "span") [(tx "id", tx "step-x")] (tx "_x_") []]).
  destruct (snd (check_ids no_uni ex_lower doc)) as [r|e] eqn:E; [|vm_compute in E; discriminate].
  exists doc, r, 1, (tx "step-x"). split; [exact E|]. split; [vm_compute; auto|]. eexists. split; vm_compute; reflexivity.
Qed.
Print Assumptions C72_nested_refuted.
