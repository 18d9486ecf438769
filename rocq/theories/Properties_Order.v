(* C94: the order of the sections of properties, and the aoid attributes. *)
From Coq Require Import Ascii String Sorted Lia List.
From Verif Require Import M_Base L_Base M_HTML M_Shared M_Records M_Refs L_Refs L_Entities L_ValTree L_Style L_StyleVars L_StyleIfs L_StyleDesc M_PropPath L_PropPath M_Order L_Order.
Open Scope list_scope.
Open Scope nat_scope.
Notation length := List.length.

(* ---------- aoids ---------- *)
(* a section whose aoid should be its title *)
Definition relation_clause (par : option sec) (s : sec) : Prop :=
  s_kind s = tx "catchall" /\ exists p, par = Some p /\ s_title p = tx "Relations of Candidate Executions".
(* what is said about an aoid *)
Inductive aoid_fault (par : option sec) (s : sec) : text -> Prop :=
| lacking : relation_clause par s -> s_aoid s = None -> aoid_fault par s (tx "Should this clause have aoid=""" ++ s_title s ++ tx """?")
| different a : relation_clause par s -> s_aoid s = Some a -> a <> s_title s -> aoid_fault par s (tx "Expected aoid=""" ++ s_title s ++ tx """")
| surplus a : ~ relation_clause par s -> s_kind s <> tx "shorthand" -> s_aoid s = Some a -> aoid_fault par s (tx "Didn't expect this clause to have an aoid").
(* a section that cannot define an operation has a header with a name *)
Definition odd_header (s : sec) : Prop := (s_kind s = tx "shorthand" \/ s_kind s = tx "catchall") /\ exists n hs, s_heads s = Some n :: hs.

Lemma opt_eqb_iff a b : opt_eqb a b = true <-> a = b.
Proof. destruct a, b; cbn; split; intros H; try discriminate; try reflexivity; [apply text_eqb_eq in H; congruence|apply text_eqb_eq; congruence]. Qed.
Lemma text_eqb_no a b : text_eqb a b = false <-> a <> b.
Proof. rewrite <- (text_eqb_eq a b). destruct (text_eqb a b); split; congruence. Qed.
Lemma expected_iff par s : (relation_clause par s /\ expected_aoid par s = Some (s_title s)) \/ (~ relation_clause par s /\ expected_aoid par s = None).
Proof.
  unfold expected_aoid, relation_clause. destruct (text_eqb (s_kind s) (tx "catchall")) eqn:K; [|right; split; [|reflexivity]; intros (A & _); apply text_eqb_no in K; contradiction].
  apply text_eqb_eq in K. destruct par as [p|]; [|right; split; [|reflexivity]; intros (_ & p & X & _); discriminate].
  destruct (text_eqb (s_title p) (tx "Relations of Candidate Executions")) eqn:T.
  - left. apply text_eqb_eq in T. split; [|reflexivity]. split; [exact K|]. now exists p.
  - right. split; [|reflexivity]. intros (_ & p' & E & T'). replace p' with p in T' by congruence. apply text_eqb_no in T. contradiction.
Qed.
Lemma op_name_iff s n : op_name s = Some n <-> exists hs, s_heads s = Some n :: hs.
Proof. unfold op_name. destruct (s_heads s) as [|h hs]; split; [discriminate|intros (hs & X); discriminate|intros ->; now exists hs|intros (hs' & X); congruence]. Qed.
Lemma aoid_one_spec p par s :
  (odd_header s /\ aoid_one tt (p, par, s) = ([], Err AssertionError)) \/
  (~ odd_header s /\ snd (aoid_one tt (p, par, s)) = Ok tt /\ forall q m, In (q, m) (fst (aoid_one tt (p, par, s))) <-> q = p /\ aoid_fault par s m).
Proof.
  assert (NN : forall b : bool, (opt_eqb (op_name s) None = true /\ ~ (exists n hs, s_heads s = Some n :: hs)) \/ (opt_eqb (op_name s) None = false /\ exists n hs, s_heads s = Some n :: hs)).
  { intros _. destruct (op_name s) as [n|] eqn:O; [right|left]; (split; [reflexivity|]).
    - apply op_name_iff in O as (hs & O). now exists n, hs.
    - intros (n & hs & E). assert (X : op_name s = Some n) by (apply op_name_iff; now exists hs). congruence. }
  specialize (NN true). unfold aoid_one. destruct (text_eqb (s_kind s) (tx "shorthand")) eqn:KS.
  - apply text_eqb_eq in KS. destruct NN as [(-> & NN)|(-> & NN)]; cbn.
    + right. split; [intros (_ & X); contradiction|]. split; [reflexivity|]. intros q m. split; [intros []|]. intros (_ & F). inversion F as [(A & _) ?|? (A & _) ?|? ? A ?]; try contradiction; rewrite KS in A; vm_compute in A; discriminate.
    + left. split; [|reflexivity]. split; [now left|exact NN].
  - apply text_eqb_no in KS.
    assert (REST : forall o, o = (if opt_eqb (s_aoid s) (expected_aoid par s) then mret tt else mtell [(p, aoid_msg (s_aoid s) (expected_aoid par s))]) ->
        snd o = Ok tt /\ forall q m, In (q, m) (fst o) <-> q = p /\ aoid_fault par s m).
    { intros o ->. destruct (opt_eqb (s_aoid s) (expected_aoid par s)) eqn:E; cbn [mret mtell fst snd]; (split; [reflexivity|]); intros q m.
      - split; [intros []|]. apply opt_eqb_iff in E. intros (_ & F). destruct (expected_iff par s) as [(R & X)|(R & X)]; rewrite X in E; inversion F; try contradiction; congruence.
      - cbn [In]. split.
        + intros [H|[]]. injection H as <- <-. split; [reflexivity|]. destruct (expected_iff par s) as [(R & X)|(R & X)]; rewrite X in E |- *; destruct (s_aoid s) as [a|] eqn:A; cbn [aoid_msg shown].
          * apply different with a; auto. intros ->. cbn [opt_eqb] in E. apply text_eqb_no in E. now apply E.
          * now apply lacking.
          * now apply surplus with a.
          * discriminate.
        + intros (-> & F). left. f_equal. destruct (expected_iff par s) as [(R & X)|(R & X)]; rewrite X; destruct F as [R' A|a R' A D|a R' K A]; try contradiction; rewrite A; reflexivity. }
    destruct (text_eqb (s_kind s) (tx "catchall")) eqn:KC.
    + apply text_eqb_eq in KC. destruct NN as [(-> & NN)|(-> & NN)].
      * right. rewrite mbind_assert. split; [intros (_ & X); contradiction|]. now apply REST.
      * left. rewrite mbind_assert. split; [|reflexivity]. split; [now right|exact NN].
    + right. apply text_eqb_no in KC. rewrite mbind_ret. split; [intros ([X|X] & _); contradiction|]. now apply REST.
Qed.
(* the messages: each fault of a section before which, in reading order, no section has an odd header; once each, in order *)
Theorem C94_aoids tops p m :
  In (p, m) (fst (check_aoids tops)) <->
  exists par s, sec_at None tops p par s /\ aoid_fault par s m /\ forall p' par' s', sec_at None tops p' par' s' -> odd_header s' -> before p p'.
Proof.
  unfold check_aoids. rewrite munit_in. split.
  - intros (l1 & [[p0 par] s] & l2 & E & F & I). destruct (aoid_one_spec p0 par s) as [(_ & X)|(NO & _ & X)]; [rewrite X in I; destruct I|]. apply X in I as (-> & FA).
    assert (W : In (p0, par, s) (visits_all 0 tops)) by (rewrite E; apply in_app_iff; right; now left). exists par, s. split; [now apply walk_in|]. split; [exact FA|].
    intros p' par' s' A O. destruct (before_total p0 p') as [<-|[H|H]]; [|exact H|].
    + apply walk_in in W. destruct (sec_at_fun _ _ _ _ _ W _ _ A) as (-> & ->). contradiction.
    + exfalso. apply walk_in in A. rewrite E in A. assert (S0 := walk_sorted tops). rewrite E in S0. apply (split_sorted before v_path l1 _ l2 (p', par', s') before_irrefl before_trans S0) in A; [|exact H].
      rewrite Forall_forall in F. specialize (F _ A). destruct (aoid_one_spec p' par' s') as [(_ & Y)|(NO' & _)]; [rewrite Y in F; discriminate|contradiction].
  - intros (par & s & A & FA & O). assert (W := A). apply walk_in in W. apply in_split in W as (l1 & l2 & E). exists l1, (p, par, s), l2. split; [exact E|]. split.
    + apply Forall_forall. intros [[p' par'] s'] I. assert (S0 := walk_sorted tops). rewrite E in S0. assert (B := sorted_before before v_path l1 _ l2 _ S0 I). cbn [v_path fst] in B.
      destruct (aoid_one_spec p' par' s') as [(OD & _)|(_ & X & _)]; [|exact X]. exfalso. assert (A' : sec_at None tops p' par' s') by (apply walk_in; rewrite E; apply in_app_iff; now left).
      specialize (O _ _ _ A' OD). exact (before_irrefl _ (before_trans _ _ _ O B)).
    + destruct (aoid_one_spec p par s) as [(OD & _)|(_ & _ & X)]; [|now apply X]. exfalso. exact (before_irrefl _ (O _ _ _ A OD)).
Qed.
Print Assumptions C94_aoids.
Theorem C94_aoids_in_order tops : StronglySorted before (map fst (fst (check_aoids tops))).
Proof.
  apply sorted_map_in with (R := fun a b => before (fst a) (fst b)); [auto|]. apply mfold_sorted.
  - intros [[p par] s]. unfold aoid_one. destruct (text_eqb (s_kind s) (tx "shorthand")); [cbn; constructor|]. destruct (text_eqb (s_kind s) (tx "catchall")); [rewrite mbind_assert; destruct (opt_eqb (op_name s) None); [|constructor]|rewrite mbind_ret]; (destruct (opt_eqb (s_aoid s) (expected_aoid par s)); [constructor|repeat constructor]).
  - apply sorted_weaken with (R := fun a b => before (v_path a) (v_path b)); [|apply sorted_unmap, walk_sorted]. intros [[p par] s] [[p' par'] s'] B [q m] [q' m'] I I'.
    destruct (aoid_one_spec p par s) as [(_ & X)|(_ & _ & X)]; [rewrite X in I; destruct I|]. apply X in I as (-> & _). destruct (aoid_one_spec p' par' s') as [(_ & Y)|(_ & _ & Y)]; [rewrite Y in I'; destruct I'|]. apply Y in I' as (-> & _). exact B.
Qed.
Print Assumptions C94_aoids_in_order.
Theorem C94_aoids_fail tops e : snd (check_aoids tops) = Err e <-> e = AssertionError /\ exists p par s, sec_at None tops p par s /\ odd_header s.
Proof.
  assert (OKS : snd (check_aoids tops) = Ok tt <-> forall p par s, sec_at None tops p par s -> ~ odd_header s).
  { unfold check_aoids. rewrite munit_ok, Forall_forall. split.
    - intros H p par s A O. apply walk_in in A. specialize (H _ A). destruct (aoid_one_spec p par s) as [(_ & X)|(NO & _)]; [rewrite X in H; discriminate|contradiction].
    - intros H [[p par] s] A. apply walk_in in A. destruct (aoid_one_spec p par s) as [(O & _)|(_ & X & _)]; [destruct (H _ _ _ A O)|exact X]. }
  split.
  - intros H. apply munit_err in H as (l1 & [[p par] s] & l2 & E & X & _). destruct (aoid_one_spec p par s) as [(O & Y)|(_ & Y & _)]; [|congruence]. rewrite Y in X. cbn [snd] in X. split; [congruence|]. exists p, par, s. split; [|exact O]. apply walk_in. rewrite E. apply in_app_iff. right. now left.
  - intros (-> & p & par & s & A & O). destruct (snd (check_aoids tops)) as [[]|e] eqn:S0; [exfalso; now apply (proj1 OKS eq_refl _ _ _ A)|].
    apply munit_err in S0 as (l1 & [[p' par'] s'] & l2 & E & X & _). destruct (aoid_one_spec p' par' s') as [(_ & Y)|(_ & Y & _)]; [|congruence]. rewrite Y in X. cbn [snd] in X. congruence.
Qed.
Print Assumptions C94_aoids_fail.

(* a clause of relations with children in which everything can be wrong *)
Definition some_relations : list sec :=
  [Sec (tx "group") (tx "Memory Model") None [] [
     Sec (tx "catchall") (tx "Relations of Candidate Executions") None [] [
       Sec (tx "catchall") (tx "is-agent-order-before") (Some (tx "is-agent-order-before")) [] [];
       Sec (tx "catchall") (tx "reads-bytes-from") None [] [];
       Sec (tx "catchall") (tx "reads-from") (Some (tx "reads")) [None] [];
       Sec (tx "abstract_operation") (tx "ValueOf") (Some (tx "ValueOf")) [Some (tx "ValueOf")] []];
     Sec (tx "shorthand") (tx "NormalCompletion") (Some (tx "NormalCompletion")) [] []]].
Example C94_aoids_ex :
  check_aoids some_relations =
  ([([0; 0; 1], tx "Should this clause have aoid=""reads-bytes-from""?"); ([0; 0; 2], tx "Expected aoid=""reads-from""");
    ([0; 0; 3], tx "Didn't expect this clause to have an aoid")], Ok tt).
Proof. vm_compute. reflexivity. Qed.
Example C94_aoids_fail_ex :
  check_aoids [Sec (tx "catchall") (tx "A") (Some (tx "A")) [] []; Sec (tx "catchall") (tx "B") None [Some (tx "B")] []; Sec (tx "catchall") (tx "C") (Some (tx "C")) [] []] =
  ([([0], tx "Didn't expect this clause to have an aoid")], Err AssertionError).
Proof. vm_compute. reflexivity. Qed.

(* ---------- the order of properties ---------- *)
Definition property_kind (k : text) : Prop :=
  k = tx "accessor_property" \/ k = tx "function_property" \/ k = tx "function_property_xref" \/ k = tx "other_property" \/ k = tx "other_property_xref".
(* what else can be a child of a section with this title *)
Definition other_child (section k : text) : Prop :=
  section = tx "URI Handling Functions" /\ k = tx "abstract_operation" \/ section <> tx "URI Handling Functions" /\ (k = tx "- // properties" \/ k = tx "catchall").
Definition properties_at (tops : list sec) (p : list nat) (s : sec) : Prop :=
  exists par, sec_at None tops p par s /\ exists a, s_kind s = a ++ tx "// properties".
Definition odd_child (tops : list sec) (p : list nat) (j : nat) : Prop :=
  exists s c, properties_at tops p s /\ nth_error (s_kids s) j = Some c /\ ~ property_kind (s_kind c) /\ ~ other_child (s_title s) (s_kind c).
(* the child c' comes next before the child number j = c among the properties *)
Definition next_before (l : list sec) (j : nat) (c' c : sec) : Prop :=
  nth_error l j = Some c /\ property_kind (s_kind c) /\
  exists i, i < j /\ nth_error l i = Some c' /\ property_kind (s_kind c') /\ forall k d, i < k < j -> nth_error l k = Some d -> ~ property_kind (s_kind d).
(* a child comes before another in the list of messages *)
Definition earlier (a b : list nat * nat) : Prop := before (fst a) (fst b) \/ fst a = fst b /\ snd a < snd b.

Lemma ordered_iff k : ordered k = true <-> property_kind k.
Proof. unfold ordered, property_kind. cbn [existsb]. rewrite !Bool.orb_true_iff, !text_eqb_eq. intuition discriminate. Qed.
Lemma property_dec k : property_kind k \/ ~ property_kind k.
Proof. rewrite <- ordered_iff. destruct (ordered k); auto. Qed.
Definition else_ok (section k : text) : bool :=
  if text_eqb section (tx "URI Handling Functions") then text_eqb k (tx "abstract_operation") else existsb (text_eqb k) [tx "- // properties"; tx "catchall"].
Lemma else_iff section k : else_ok section k = true <-> other_child section k.
Proof.
  unfold else_ok, other_child. destruct (text_eqb section (tx "URI Handling Functions")) eqn:E; [apply text_eqb_eq in E|apply text_eqb_no in E]; cbn [existsb]; rewrite ?Bool.orb_true_iff, !text_eqb_eq; intuition (try contradiction; discriminate).
Qed.
Section Keys.
  Variable lower : text -> text.
  Variable uniword : N -> bool.
  Notation key := (order_key lower uniword).
  Definition wrong_order (section : text) (c' c : sec) : Prop := ~ text_lt (key section (s_title c')) (key section (s_title c)).
  Lemma leb_not_lt a b : text_leb b a = true <-> ~ text_lt a b.
  Proof.
    unfold text_lt. split; [intros L (L' & D); apply D; now apply text_leb_antisym|]. intros H. destruct (text_leb_total b a) as [L|L]; [exact L|]. destruct (list_eq_dec N.eq_dec a b) as [->|D]; [exact L|]. exfalso. auto.
  Qed.
  (* the child before, also with what came before the list *)
  Definition prior (section : text) (prev : option (text * text)) (l : list sec) (j : nat) (x : text * text) : Prop :=
    (exists i c', i < j /\ nth_error l i = Some c' /\ property_kind (s_kind c') /\ (forall k d, i < k < j -> nth_error l k = Some d -> ~ property_kind (s_kind d)) /\ x = (key section (s_title c'), s_title c')) \/
    prev = Some x /\ forall k d, k < j -> nth_error l k = Some d -> ~ property_kind (s_kind d).
  Lemma prior_prop section prev c l j x : property_kind (s_kind c) -> (prior section prev (c :: l) (S j) x <-> prior section (Some (key section (s_title c), s_title c)) l j x).
  Proof.
    intros P. split.
    - intros [([|i] & c' & L & E & P' & B & ->)|(-> & B)].
      + right. cbn in E. replace c' with c by congruence. split; [reflexivity|]. intros k d K E'. apply (B (S k) d); [lia|exact E'].
      + left. exists i, c'. split; [lia|]. split; [exact E|]. split; [exact P'|]. split; [|reflexivity]. intros k d K E'. apply (B (S k) d); [lia|exact E'].
      + exfalso. apply (B 0 c); [lia|reflexivity|exact P].
    - intros [(i & c' & L & E & P' & B & ->)|(EX & B)]; left.
      + exists (S i), c'. split; [lia|]. split; [exact E|]. split; [exact P'|]. split; [|reflexivity]. intros [|k] d K E'; [lia|]. apply (B k d); [lia|exact E'].
      + exists 0, c. split; [lia|]. split; [reflexivity|]. split; [exact P|]. split; [|congruence]. intros [|k] d K E'; [lia|]. apply (B k d); [lia|exact E'].
  Qed.
  Lemma prior_other section prev c l j x : ~ property_kind (s_kind c) -> (prior section prev (c :: l) (S j) x <-> prior section prev l j x).
  Proof.
    intros P. split.
    - intros [([|i] & c' & L & E & P' & B & ->)|(-> & B)].
      + exfalso. cbn in E. replace c' with c in P' by congruence. contradiction.
      + left. exists i, c'. split; [lia|]. split; [exact E|]. split; [exact P'|]. split; [|reflexivity]. intros k d K E'. apply (B (S k) d); [lia|exact E'].
      + right. split; [reflexivity|]. intros k d K E'. apply (B (S k) d); [lia|exact E'].
    - intros [(i & c' & L & E & P' & B & ->)|(EX & B)]; [left|right].
      + exists (S i), c'. split; [lia|]. split; [exact E|]. split; [exact P'|]. split; [|reflexivity]. intros [|k] d K E'; [lia|]. apply (B k d); [lia|exact E'].
      + split; [exact EX|]. intros [|k] d K E'; [|apply (B k d); [lia|exact E']]. cbn in E'. now replace d with c by congruence.
  Qed.
  Definition odd_in (section : text) (l : list sec) (j : nat) : Prop := exists c, nth_error l j = Some c /\ ~ property_kind (s_kind c) /\ ~ other_child section (s_kind c).
  Definition said (c title0 : text) : text := tx """" ++ c ++ tx """ should be before """ ++ title0 ++ tx """".
  Lemma odd_in_S section c l j : odd_in section (c :: l) (S j) <-> odd_in section l j.
  Proof. reflexivity. Qed.
  Lemma order_kids_spec p section : forall l j prev,
    (snd (order_kids lower uniword p section j prev l) = Ok tt <-> forall i, ~ odd_in section l i) /\
    (forall e, snd (order_kids lower uniword p section j prev l) = Err e -> e = AssertionError) /\
    (forall q k m, In (q, k, m) (fst (order_kids lower uniword p section j prev l)) <->
       q = p /\ exists i c x, k = j + i /\ nth_error l i = Some c /\ property_kind (s_kind c) /\ prior section prev l i x /\ ~ text_lt (fst x) (key section (s_title c)) /\ m = said (s_title c) (snd x) /\ forall i', odd_in section l i' -> i < i') /\
    StronglySorted earlier (map fst (fst (order_kids lower uniword p section j prev l))).
  Proof.
    induction l as [|c l IH]; intros j prev; cbn [order_kids].
    - cbn. split; [split; [|reflexivity]; intros _ i (c & E & _); destruct i; discriminate|]. split; [discriminate|]. split; [|constructor]. intros q k m. split; [intros []|]. intros (_ & i & c & x & _ & E & _). destruct i; discriminate.
    - destruct (ordered (s_kind c)) eqn:O.
      + apply ordered_iff in O. set (k0 := key section (s_title c)) in *. destruct (IH (S j) (Some (k0, s_title c))) as (A & B & C & D).
        set (o := match prev with Some (t0, title0) => if text_leb k0 t0 then mtell [(p, j, tx """" ++ s_title c ++ tx """ should be before """ ++ title0 ++ tx """")] else mret tt | None => mret tt end).
        assert (OO : snd o = Ok tt /\ forall q k m, In (q, k, m) (fst o) <-> q = p /\ k = j /\ exists x, prev = Some x /\ ~ text_lt (fst x) k0 /\ m = said (s_title c) (snd x)).
        { unfold o. destruct prev as [[t0 title0]|].
          - destruct (text_leb k0 t0) eqn:L; cbn [mtell mret fst snd In]; (split; [reflexivity|]); intros q k m.
            + apply leb_not_lt in L. split; [intros [E|[]]; injection E as <- <- <-; split; [reflexivity|]; split; [reflexivity|]; now exists (t0, title0)|].
              intros (-> & -> & x & E & _ & ->). replace x with (t0, title0) by congruence. left. reflexivity.
            + split; [intros []|]. intros (_ & _ & x & E & N0 & _). replace x with (t0, title0) in N0 by congruence. cbn [fst] in N0. apply leb_not_lt in N0. congruence.
          - cbn. split; [reflexivity|]. intros q k m. split; [intros []|]. intros (_ & _ & x & E & _). discriminate. }
        destruct OO as (O1 & O2). rewrite (mbind_msgs _ _ _ o _ tt O1). unfold mbind. rewrite O1. cbn [snd].
        assert (ODD : forall i, odd_in section (c :: l) i -> exists i', i = S i' /\ odd_in section l i').
        { intros [|i] X; [|now exists i]. exfalso. destruct X as (d & E & P & _). cbn in E. replace d with c in P by congruence. contradiction. }
        split; [|split; [exact B|split]].
        * rewrite A. split; [intros H i X; apply ODD in X as (i' & -> & X); exact (H i' X)|intros H i X; exact (H (S i) X)].
        * intros q k m. rewrite in_app_iff, O2, C. split.
          -- intros [(-> & -> & x & E & N0 & ->)|(-> & i & d & x & -> & E & P & PR & N0 & -> & F)]; (split; [reflexivity|]).
             ++ exists 0, c, x. split; [lia|]. split; [reflexivity|]. split; [exact O|]. split; [right; split; [exact E|intros; lia]|]. split; [exact N0|]. split; [reflexivity|]. intros i' X. apply ODD in X as (? & -> & _). lia.
             ++ exists (S i), d, x. split; [lia|]. split; [exact E|]. split; [exact P|]. split; [now apply prior_prop|]. split; [exact N0|]. split; [reflexivity|]. intros i' X. apply ODD in X as (i2 & -> & X). apply F in X. lia.
          -- intros (-> & i & d & x & -> & E & P & PR & N0 & -> & F). destruct i as [|i].
             ++ left. split; [reflexivity|]. split; [lia|]. cbn in E. replace d with c in * by congruence. exists x. split; [|auto]. destruct PR as [(i & c' & L & _)|(-> & _)]; [lia|reflexivity].
             ++ right. split; [reflexivity|]. exists i, d, x. split; [lia|]. split; [exact E|]. split; [exact P|]. split; [now apply prior_prop in PR|]. split; [exact N0|]. split; [reflexivity|]. intros i' X. specialize (F (S i') X). lia.
        * rewrite map_app. apply sorted_app; [|exact D|].
          -- unfold o. destruct prev as [[t0 title0]|]; [destruct (text_leb k0 t0)|]; cbn; repeat constructor.
          -- intros a b I I'. apply in_map_iff in I as ([[q k] m] & <- & I). apply in_map_iff in I' as ([[q' k'] m'] & <- & I'). apply O2 in I as (-> & -> & _). apply C in I' as (-> & i & d & x & -> & _). right. cbn. split; [reflexivity|lia].
      + assert (NP : ~ property_kind (s_kind c)) by (rewrite <- ordered_iff; congruence). fold (else_ok section (s_kind c)). rewrite mbind_assert. destruct (else_ok section (s_kind c)) eqn:EL.
        * apply else_iff in EL. destruct (IH (S j) prev) as (A & B & C & D).
          assert (ODD : forall i, odd_in section (c :: l) i -> exists i', i = S i' /\ odd_in section l i').
          { intros [|i] X; [|now exists i]. exfalso. destruct X as (d & E & _ & P). cbn in E. replace d with c in P by congruence. contradiction. }
          split; [|split; [exact B|split; [|exact D]]].
          -- rewrite A. split; [intros H i X; apply ODD in X as (i' & -> & X); exact (H i' X)|intros H i X; exact (H (S i) X)].
          -- intros q k m. rewrite C. split.
             ++ intros (-> & i & d & x & -> & E & P & PR & N0 & -> & F). split; [reflexivity|]. exists (S i), d, x. split; [lia|]. split; [exact E|]. split; [exact P|]. split; [now apply prior_other|]. split; [exact N0|]. split; [reflexivity|]. intros i' X. apply ODD in X as (i2 & -> & X). apply F in X. lia.
             ++ intros (-> & [|i] & d & x & -> & E & P & PR & N0 & -> & F); [cbn in E; replace d with c in P by congruence; contradiction|]. split; [reflexivity|]. exists i, d, x. split; [lia|]. split; [exact E|]. split; [exact P|]. split; [now apply prior_other in PR|]. split; [exact N0|]. split; [reflexivity|]. intros i' X. specialize (F (S i') X). lia.
        * assert (NE : ~ other_child section (s_kind c)) by (rewrite <- else_iff; congruence). assert (OD : odd_in section (c :: l) 0) by (exists c; auto). cbn [fst snd map].
          split; [split; [discriminate|intros H; destruct (H 0 OD)]|]. split; [intros e [= <-]; reflexivity|]. split; [|constructor]. intros q k m. split; [intros []|]. intros (_ & i & d & x & _ & _ & _ & _ & _ & _ & F). specialize (F 0 OD). lia.
  Qed.
  Definition odd_section (s : sec) : Prop := (exists a, s_kind s = a ++ tx "// properties") /\ exists j, odd_in (s_title s) (s_kids s) j.
  Lemma ends_iff e t : ends_with e t = true <-> exists a, t = a ++ e.
  Proof.
    unfold ends_with. rewrite begins_iff. split; intros (u & E); [exists (rev u); rewrite <- (rev_involutive t), E, rev_app_distr; now rewrite rev_involutive|exists (rev u); now rewrite E, rev_app_distr].
  Qed.
  Lemma odd_in_dec section l : (exists j, odd_in section l j) \/ forall j, ~ odd_in section l j.
  Proof.
    induction l as [|c l IH]; [right; intros j (c & E & _); destruct j; discriminate|]. destruct IH as [(j & O)|IH]; [left; now exists (S j)|].
    destruct (property_dec (s_kind c)) as [P|P]; [right; intros [|j] X; [destruct X as (d & E & N0 & _); cbn in E; replace d with c in N0 by congruence; contradiction|exact (IH j X)]|].
    destruct (else_ok section (s_kind c)) eqn:E; [apply else_iff in E; right; intros [|j] X; [destruct X as (d & E' & _ & N0); cbn in E'; replace d with c in N0 by congruence; contradiction|exact (IH j X)]|].
    left. exists 0, c. split; [reflexivity|]. split; [exact P|]. rewrite <- else_iff. congruence.
  Qed.
  Lemma order_one_spec p par s :
    (snd (order_one lower uniword tt (p, par, s)) = Ok tt <-> ~ odd_section s) /\
    (forall e, snd (order_one lower uniword tt (p, par, s)) = Err e -> e = AssertionError) /\
    (forall q j m, In (q, j, m) (fst (order_one lower uniword tt (p, par, s))) <->
      q = p /\ (exists a, s_kind s = a ++ tx "// properties") /\ exists c' c, next_before (s_kids s) j c' c /\ wrong_order (s_title s) c' c /\ m = said (s_title c) (s_title c') /\ forall i, odd_in (s_title s) (s_kids s) i -> j < i) /\
    StronglySorted earlier (map fst (fst (order_one lower uniword tt (p, par, s)))).
  Proof.
    unfold order_one. destruct (ends_with (tx "// properties") (s_kind s)) eqn:K.
    - apply ends_iff in K. destruct (order_kids_spec p (s_title s) (s_kids s) 0 None) as (A & B & C & D). split; [|split; [exact B|split; [|exact D]]].
      + rewrite A. unfold odd_section. split; [intros H (_ & j & X); exact (H j X)|intros H j X; apply H; eauto].
      + intros q j m. rewrite C. split.
        * intros (-> & i & c & x & -> & E & P & PR & N0 & -> & F). split; [reflexivity|]. split; [exact K|]. destruct PR as [(i0 & c' & L & E' & P' & BT & ->)|(X & _)]; [|discriminate]. exists c', c. cbn [fst snd Nat.add] in *. split; [|split; [exact N0|split; [reflexivity|exact F]]].
          split; [exact E|]. split; [exact P|]. exists i0. auto.
        * intros (-> & _ & c' & c & (E & P & i0 & L & E' & P' & BT) & W & -> & F). split; [reflexivity|]. exists j, c, (key (s_title s) (s_title c'), s_title c'). split; [reflexivity|]. split; [exact E|]. split; [exact P|]. split; [left; exists i0, c'; auto|]. split; [exact W|]. split; [reflexivity|exact F].
    - assert (NK : ~ exists a, s_kind s = a ++ tx "// properties") by (rewrite <- ends_iff; congruence). cbn. split; [split; [intros _ (X & _); contradiction|reflexivity]|]. split; [discriminate|]. split; [|constructor]. intros q j m. split; [intros []|]. intros (_ & X & _). contradiction.
  Qed.
  Lemma odd_child_iff tops p par s : sec_at None tops p par s -> forall j, odd_child tops p j <-> (exists a, s_kind s = a ++ tx "// properties") /\ odd_in (s_title s) (s_kids s) j.
  Proof.
    intros A j. split.
    - intros (s' & c & (par' & A' & K) & E & P & NE). destruct (sec_at_fun _ _ _ _ _ A _ _ A') as (_ & ES). rewrite ES in K, E, NE. split; [exact K|]. exists c. auto.
    - intros (K & c & E & P & NE). exists s, c. split; [exists par; auto|auto].
  Qed.
  (* what is said: each property whose key is not greater than that of the property before it, as long as no section contains what it should not *)
  Theorem C94_order tops p j m :
    In (p, j, m) (fst (check_section_order lower uniword tops)) <->
    exists s c' c, properties_at tops p s /\ next_before (s_kids s) j c' c /\ ~ text_lt (key (s_title s) (s_title c')) (key (s_title s) (s_title c)) /\
      m = tx """" ++ s_title c ++ tx """ should be before """ ++ s_title c' ++ tx """" /\
      forall p' j', odd_child tops p' j' -> earlier (p, j) (p', j').
  Proof.
    unfold check_section_order. rewrite munit_in. split.
    - intros (l1 & [[p0 par] s] & l2 & E & F & I). destruct (order_one_spec p0 par s) as (_ & _ & C & _). apply C in I as (-> & K & c' & c & NB & W & -> & O). clear C.
      assert (A : In (p0, par, s) (visits_all 0 tops)) by (rewrite E; apply in_app_iff; right; now left). assert (A' := A). apply walk_in in A'. exists s, c', c. split; [exists par; auto|]. split; [exact NB|]. split; [exact W|]. split; [reflexivity|].
      intros p' j' OD. assert (OD' := OD). destruct OD' as (s' & d & (par' & AT & K') & _). destruct (proj1 (odd_child_iff _ _ _ _ AT j') OD) as (_ & OI). clear OD. rename OI into OD.
      destruct (before_total p0 p') as [<-|[H|H]].
      + destruct (sec_at_fun _ _ _ _ _ A' _ _ AT) as (_ & ES). rewrite ES in OD. right. split; [reflexivity|]. now apply O.
      + left. exact H.
      + exfalso. apply walk_in in AT. rewrite E in AT. assert (S0 := walk_sorted tops). rewrite E in S0. apply (split_sorted before v_path l1 _ l2 (p', par', s') before_irrefl before_trans S0) in AT; [|exact H].
        rewrite Forall_forall in F. specialize (F _ AT). apply (proj1 (order_one_spec p' par' s')) in F. apply F. split; [exact K'|]. now exists j'.
    - intros (s & c' & c & (par & A & K) & NB & W & -> & O). assert (W' := A). apply walk_in in W'. apply in_split in W' as (l1 & l2 & E). exists l1, (p, par, s), l2. split; [exact E|]. split.
      + apply Forall_forall. intros [[p' par'] s'] I. apply (proj1 (order_one_spec p' par' s')). intros (K' & j' & OD). assert (S0 := walk_sorted tops). rewrite E in S0. assert (B := sorted_before before v_path l1 _ l2 _ S0 I). cbn [v_path fst] in B.
        assert (A' : sec_at None tops p' par' s') by (apply walk_in; rewrite E; apply in_app_iff; now left).
        destruct (O p' j') as [X|(X & _)]; [apply (odd_child_iff _ _ _ _ A'); auto| |]; cbn [fst] in X; [exact (before_irrefl _ (before_trans _ _ _ X B))|subst p'; exact (before_irrefl _ B)].
      + apply (proj1 (proj2 (proj2 (order_one_spec p par s)))). split; [reflexivity|]. split; [exact K|]. exists c', c. split; [exact NB|]. split; [exact W|]. split; [reflexivity|]. intros i OD.
        destruct (O p i) as [X|(_ & X)]; [apply (odd_child_iff _ _ _ _ A); auto| |]; [destruct (before_irrefl _ X)|exact X].
  Qed.
  (* each message once, in the order of the sections and of the properties in them *)
  Theorem C94_order_in_order tops : StronglySorted earlier (map fst (fst (check_section_order lower uniword tops))).
  Proof.
    apply sorted_map_in with (R := fun a b => earlier (fst a) (fst b)); [auto|]. apply mfold_sorted.
    - intros [[p par] s]. apply sorted_unmap. apply (order_one_spec p par s).
    - apply sorted_weaken with (R := fun a b => before (v_path a) (v_path b)); [|apply sorted_unmap, walk_sorted]. intros [[p par] s] [[p' par'] s'] B [[q j] m] [[q' j'] m'] I I'.
      apply (order_one_spec p par s) in I as (-> & _). apply (order_one_spec p' par' s') in I' as (-> & _). left. exact B.
  Qed.
  Theorem C94_order_fails tops e : snd (check_section_order lower uniword tops) = Err e <-> e = AssertionError /\ exists p j, odd_child tops p j.
  Proof.
    assert (OKS : snd (check_section_order lower uniword tops) = Ok tt <-> forall p j, ~ odd_child tops p j).
    { unfold check_section_order. rewrite munit_ok, Forall_forall. split.
      - intros H p j OD. assert (OD' := OD). destruct OD' as (s & c & (par & A & K) & _). destruct (proj1 (odd_child_iff _ _ _ _ A j) OD) as (_ & OI). clear OD. rename OI into OD. apply walk_in in A. specialize (H _ A). apply (proj1 (order_one_spec p par s)) in H. apply H. split; [exact K|]. now exists j.
      - intros H [[p par] s] A. apply walk_in in A. apply (proj1 (order_one_spec p par s)). intros (K & j & OD). apply (H p j). apply (odd_child_iff _ _ _ _ A). auto. }
    split.
    - intros H. assert (E := H). apply munit_err in E as (l1 & [[p par] s] & l2 & E & X & _). split; [exact (proj1 (proj2 (order_one_spec p par s)) e X)|].
      destruct (odd_in_dec (s_title s) (s_kids s)) as [(j & OD)|NO].
      + exists p, j. assert (A : sec_at None tops p par s) by (apply walk_in; rewrite E; apply in_app_iff; right; now left). apply (odd_child_iff _ _ _ _ A). split; [|exact OD]. unfold order_one in X. destruct (ends_with (tx "// properties") (s_kind s)) eqn:K; [now apply ends_iff|discriminate].
      + assert (Y : snd (order_one lower uniword tt (p, par, s)) = Ok tt) by (apply (proj1 (order_one_spec p par s)); intros (_ & j & OD); exact (NO j OD)). congruence.
    - intros (-> & p & j & OD). destruct (snd (check_section_order lower uniword tops)) as [[]|e] eqn:S0; [destruct (proj1 OKS eq_refl p j OD)|].
      assert (E := S0). apply munit_err in E as (l1 & [[p' par'] s'] & l2 & E & X & _). f_equal. exact (proj1 (proj2 (order_one_spec p' par' s')) e X).
  Qed.
  Lemma lt_trans a b c : text_lt a b -> text_lt b c -> text_lt a c.
  Proof. intros [A1 A2] [B1 B2]. split; [eapply text_leb_trans; eauto|]. intros ->. apply A2. now apply text_leb_antisym. Qed.
  Lemma not_not_lt a b : ~ ~ text_lt a b -> text_lt a b.
  Proof. intros H. destruct (text_leb b a) eqn:E; [apply leb_not_lt in E; contradiction|]. destruct (text_leb_total a b) as [L|L]; [|congruence]. split; [exact L|]. intros ->. congruence. Qed.
  Lemma last_prop l j i c' : i < j -> nth_error l i = Some c' -> property_kind (s_kind c') ->
    exists k d, i <= k < j /\ nth_error l k = Some d /\ property_kind (s_kind d) /\ forall n x, k < n < j -> nth_error l n = Some x -> ~ property_kind (s_kind x).
  Proof.
    intros L E P. induction j as [|j IH]; [lia|]. destruct (nth_error l j) as [d|] eqn:Ej; [destruct (property_dec (s_kind d)) as [Pd|Pd]|].
    - exists j, d. split; [lia|]. split; [exact Ej|]. split; [exact Pd|]. intros; lia.
    - assert (D : i <> j) by (intros ->; replace d with c' in Pd by congruence; contradiction). destruct (IH ltac:(lia)) as (k & x & K & Ek & Pk & B). exists k, x. split; [lia|]. split; [exact Ek|]. split; [exact Pk|].
      intros n y Hn En. destruct (Nat.eq_dec n j) as [->|D']; [now replace y with d by congruence|apply (B n y); [lia|exact En]].
    - assert (D : i <> j) by congruence. destruct (IH ltac:(lia)) as (k & x & K & Ek & Pk & B). exists k, x. split; [lia|]. split; [exact Ek|]. split; [exact Pk|].
      intros n y Hn En. destruct (Nat.eq_dec n j) as [->|D']; [congruence|apply (B n y); [lia|exact En]].
  Qed.
  (* nothing is said if and only if in each section of properties, a property has a smaller key than any later one; so no two have the same key *)
  Theorem C94_silent tops : (forall p j, ~ odd_child tops p j) ->
    (fst (check_section_order lower uniword tops) = [] <->
     forall p s i j c' c, properties_at tops p s -> i < j -> nth_error (s_kids s) i = Some c' -> nth_error (s_kids s) j = Some c -> property_kind (s_kind c') -> property_kind (s_kind c) ->
       text_lt (key (s_title s) (s_title c')) (key (s_title s) (s_title c))).
  Proof.
    intros NO. split.
    - intros NIL p s i j c' c PS. revert c. induction j as [j IH] using lt_wf_ind. intros c L E' E P' P.
      destruct (last_prop (s_kids s) j i c' L E' P') as (k & d & K & Ek & Pk & B).
      assert (STEP : text_lt (key (s_title s) (s_title d)) (key (s_title s) (s_title c))).
      { apply not_not_lt. intros NL. assert (I : In (p, j, said (s_title c) (s_title d)) (fst (check_section_order lower uniword tops))); [|rewrite NIL in I; destruct I].
        apply C94_order. exists s, d, c. split; [exact PS|]. split; [split; [exact E|]; split; [exact P|]; exists k; split; [lia|auto]|]. split; [exact NL|]. split; [reflexivity|]. intros p' j' OD. destruct (NO _ _ OD). }
      destruct (Nat.eq_dec k i) as [->|D]; [now replace c' with d by congruence|]. apply lt_trans with (key (s_title s) (s_title d)); [apply (IH k); auto; lia|exact STEP].
    - intros H. destruct (fst (check_section_order lower uniword tops)) as [|[[p j] m] ms] eqn:E; [reflexivity|]. exfalso. assert (I : In (p, j, m) (fst (check_section_order lower uniword tops))) by (rewrite E; now left).
      apply C94_order in I as (s & c' & c & PS & (E1 & P1 & i & L & E2 & P2 & _) & NL & _). apply NL. eapply H; eauto.
  Qed.
End Keys.
Print Assumptions C94_order.
Print Assumptions C94_order_in_order.
Print Assumptions C94_order_fails.
Print Assumptions C94_silent.

(* ---------- the keys ---------- *)
(* a small letter for a capital one *)
Definition low (c : N) : N := if (65 <=? c)%N && (c <=? 90)%N then (c + 32)%N else c.
Definition ascii (t : text) : Prop := forall c, In c t -> (c < 128)%N.
(* what is assumed of str.lower *)
Definition lowers (lower : text -> text) : Prop := forall t, ascii t -> lower t = map low t.
(* a title: perhaps get, a name or an intrinsic, components, and the rest, which is empty or begins with a space *)
Inductive head : Type := Named (w : text) | Intrinsic (w : text).
Definition write_head (b : head) : text := match b with Named w => w | Intrinsic w => tx "%" ++ w ++ tx "%" end.
Inductive part : Type := Dotted (w : text) | Symbolic (w : text).
Definition write_part (c : part) : text := match c with Dotted w => tx "." ++ w | Symbolic w => tx " [ %Symbol." ++ w ++ tx "% ]" end.
Definition write_title (get : bool) (b : head) (cs : list part) (rest : text) : text := (if get then tx "get " else []) ++ write_head b ++ concat (map write_part cs) ++ rest.
(* ASCII letters, digits and underscores *)
Definition plain (w : text) : Prop := w <> [] /\ ascii w /\ forall c, In c w -> wordc (fun _ => false) c = true.
Definition part_plain (c : part) : Prop := match c with Dotted w => plain w | Symbolic w => plain w end.
Definition part_word (c : part) : text := match c with Dotted w => w | Symbolic w => w end.
Definition head_plain (b : head) : Prop := match b with Named w => plain w /\ map low w <> tx "get" | Intrinsic w => plain w end.
Definition rest_plain (rest : text) : Prop :=
  ascii rest /\ (rest = [] \/ exists r, rest = tx " " ++ r) /\ ~ In 37%N rest /\ ~ In 56%N rest /\ forall a b, rest <> a ++ tx ".__" ++ b.
(* the key: small letters, 08 for 8 after int, zz before two underscores, and zz_ before a symbol (but not for regular expressions) *)
Definition key_name (w : text) : text :=
  (if is_prefix (tx "__") w then tx "zz" else []) ++ str_replace (tx "int8") (tx "int08") (map low w).
Definition key_head (b : head) : text := match b with Named w => key_name w | Intrinsic w => tx "%" ++ str_replace (tx "int8") (tx "int08") (map low w) ++ tx "%" end.
Definition key_part (regexp : bool) (c : part) : text :=
  match c with Dotted w => tx "." ++ key_name w | Symbolic w => (if regexp then tx "." else tx ".zz_") ++ key_name w end.
Definition key_title (regexp : bool) (b : head) (cs : list part) (rest : text) : text := key_head b ++ concat (map (key_part regexp) cs) ++ map low rest.

Notation rep := (str_replace (tx "int8") (tx "int08")).
Lemma rep_nil : rep [] = []. Proof. reflexivity. Qed.
(* where a replacement cannot go across *)
Definition cut (u : text) : Prop := match u with [] => True | c :: _ => ~ In c (tx "int8") end.
Lemma rep_cut : forall n x u, length x <= n -> cut u -> rep (x ++ u) = rep x ++ rep u.
Proof.
  induction n as [|n IH]; intros [|a x] u L C; cbn [length] in L; try lia; [reflexivity|reflexivity|].
  assert (PRE : is_prefix (tx "int8") ((a :: x) ++ u) = true <-> is_prefix (tx "int8") (a :: x) = true).
  { rewrite !begins_iff. split.
    - intros (v & E). apply app_eq_app in E as (l & [(E & _)|(E & U)]); [now exists l|]. destruct l as [|d l]; [exists []; rewrite app_nil_r in *; congruence|]. exfalso. rewrite U in C. cbn [app cut] in C. apply C. rewrite E. apply in_app_iff. right. now left.
    - intros (v & ->). exists (v ++ u). now rewrite app_assoc. }
  destruct (is_prefix (tx "int8") (a :: x)) eqn:P.
  - apply begins_iff in P as (v & E). rewrite E, <- app_assoc, !replace_match by discriminate. rewrite (IH v u), app_assoc; [reflexivity| |exact C]. assert (LL := f_equal (@length _) E). rewrite app_length in LL. cbn in LL. lia.
  - assert (P' : is_prefix (tx "int8") ((a :: x) ++ u) = false) by (apply Bool.not_true_iff_false; rewrite PRE; congruence). cbn [app] in *. rewrite (replace_nomatch _ _ _ _ P'), (replace_nomatch _ _ _ _ P). cbn [app]. f_equal. apply IH; [lia|exact C].
Qed.
Lemma rep_app x u : cut u -> rep (x ++ u) = rep x ++ rep u.
Proof. now apply (rep_cut (length x)). Qed.
Lemma rep_no8 x : ~ In 56%N x -> rep x = x.
Proof.
  induction x as [|a x IH]; intros N8; [reflexivity|]. rewrite replace_nomatch; [f_equal; apply IH; intros H; apply N8; now right|]. apply Bool.not_true_iff_false. rewrite begins_iff. intros (v & E). apply N8. rewrite E. apply in_app_iff. left. vm_compute. auto.
Qed.
Lemma low_word c : wordc (fun _ => false) c = true -> wordc (fun _ => false) (low c) = true.
Proof.
  unfold low. destruct ((65 <=? c)%N && (c <=? 90)%N) eqn:E; [|exact (fun H => H)]. intros _. rewrite Bool.andb_true_iff, !N.leb_le in E. unfold wordc. assert (L : M_Defs.lowerc (c + 32) = true) by (unfold M_Defs.lowerc; rewrite Bool.andb_true_iff, !N.leb_le; lia). rewrite L. now rewrite ?Bool.orb_true_r.
Qed.
Lemma low_other c d : ~ (97 <= d <= 122)%N -> low c = d -> c = d.
Proof. unfold low. destruct ((65 <=? c)%N && (c <=? 90)%N) eqn:E; [|auto]. rewrite Bool.andb_true_iff, !N.leb_le in E. lia. Qed.
Definition wordish (uniword : N -> bool) (w : text) : Prop := w <> [] /\ forall c, In c w -> wordc uniword c = true.
Lemma word_weak uniword c : wordc (fun _ => false) c = true -> wordc uniword c = true.
Proof. unfold wordc. rewrite !Bool.orb_true_iff, !Bool.andb_true_iff. intuition discriminate. Qed.
Lemma rep_in c x : In c (rep x) -> In c x \/ In c (tx "int08").
Proof.
  assert (G : forall n x, length x <= n -> In c (rep x) -> In c x \/ In c (tx "int08")).
  { clear. induction n as [|n IH]; intros [|a x] L I; cbn [length] in L; try lia; [destruct I|destruct I|].
    destruct (is_prefix (tx "int8") (a :: x)) eqn:P.
    - apply begins_iff in P as (v & E). rewrite E, replace_match in I by discriminate. apply in_app_iff in I as [I|I]; [now right|]. assert (LL := f_equal (@length _) E). rewrite app_length in LL. cbn in LL. destruct (IH v ltac:(lia) I) as [X|X]; [left; rewrite E; apply in_app_iff; now right|now right].
    - rewrite (replace_nomatch _ _ _ _ P) in I. destruct I as [->|I]; [left; now left|]. destruct (IH x ltac:(lia) I) as [X|X]; [left; now right|now right]. }
  apply (G (length x)). lia.
Qed.
Lemma rep_word uniword w : plain w -> wordish uniword (rep (map low w)).
Proof.
  intros (NE & _ & W). split.
  - destruct w as [|a w]; [congruence|]. cbn [map]. destruct (is_prefix (tx "int8") (low a :: map low w)) eqn:P; [apply begins_iff in P as (v & ->); rewrite replace_match by discriminate; discriminate|rewrite (replace_nomatch _ _ _ _ P); discriminate].
  - intros c I. apply rep_in in I as [I|I]; [apply in_map_iff in I as (d & <- & I); now apply word_weak, low_word, W|]. vm_compute in I. intuition (subst; reflexivity).
Qed.
Lemma rep_dunder w : plain w -> is_prefix (tx "__") (rep (map low w)) = is_prefix (tx "__") w.
Proof.
  intros (NE & _ & W). apply Bool.eq_true_iff_eq. rewrite !begins_iff. split.
  - intros (v & E). destruct w as [|a w]; [congruence|]. cbn [map] in E. destruct (is_prefix (tx "int8") (low a :: map low w)) eqn:P; [apply begins_iff in P as (u & X); rewrite X, replace_match in E by discriminate; discriminate|]. rewrite (replace_nomatch _ _ _ _ P) in E.
    destruct w as [|b w]; [discriminate|]. cbn [map] in E. destruct (is_prefix (tx "int8") (low b :: map low w)) eqn:P2; [apply begins_iff in P2 as (u & X); rewrite X, replace_match in E by discriminate; discriminate|]. rewrite (replace_nomatch _ _ _ _ P2) in E.
    cbn in E. injection E as Ea Eb _. apply low_other in Ea; [|lia]. apply low_other in Eb; [|lia]. subst. now exists w.
  - intros (v & ->). cbn [app tx map]. exists (rep (map low v)). cbn. reflexivity.
Qed.
Lemma rep_pre x u : ~ In 105%N x -> rep (x ++ u) = x ++ rep u.
Proof.
  induction x as [|a x IH]; intros H; [reflexivity|]. cbn [app]. rewrite replace_nomatch; [f_equal; apply IH; intros I; apply H; now right|]. apply Bool.not_true_iff_false. rewrite begins_iff. intros (v & E). apply H. left. cbn in E. congruence.
Qed.
Lemma low_under : forall t a b, a ++ tx ".__" ++ b = map low t -> exists a' b', t = a' ++ tx ".__" ++ b'.
Proof.
  intros t a. revert t. induction a as [|x a IH]; intros t b E.
  - destruct t as [|c1 [|c2 [|c3 t]]]; try discriminate. cbn in E. injection E as E1 E2 E3 _. symmetry in E1, E2, E3. apply low_other in E1; [|lia]. apply low_other in E2; [|lia]. apply low_other in E3; [|lia]. subst. now exists [], t.
  - destruct t as [|c t]; [discriminate|]. cbn [app map] in E. injection E as _ E. destruct (IH t b E) as (a' & b' & ->). now exists (c :: a'), b'.
Qed.
Lemma rep_get t : rep t = tx "get" -> t = tx "get".
Proof.
  intros E. assert (N8 : ~ In 56%N t \/ In 56%N t) by (destruct (in_dec N.eq_dec 56%N t); auto). destruct N8 as [N8|N8]; [now rewrite rep_no8 in E|]. exfalso.
  assert (G : forall n t, length t <= n -> In 56%N t -> In 56%N (rep t)).
  { clear. induction n as [|n IH]; intros [|a x] L I; cbn [length] in L; try lia; try destruct I as [[]|[]]; [destruct I|destruct I|].
    destruct (is_prefix (tx "int8") (a :: x)) eqn:P; [apply begins_iff in P as (v & X); rewrite X, replace_match by discriminate; apply in_app_iff; left; vm_compute; auto 10|]. rewrite (replace_nomatch _ _ _ _ P). destruct I as [->|I]; [now left|right; apply IH; [lia|exact I]]. }
  specialize (G (length t) t (le_n _) N8). rewrite E in G. vm_compute in G. intuition discriminate.
Qed.
(* sub_under from left to right *)
Lemma under_skip : forall k st x u, length x = k -> sub_under k st (x ++ u) = sub_under 0 (if k =? 0 then st else false) u.
Proof. induction k as [|k IH]; intros st [|a x] u L; try discriminate; [reflexivity|]. cbn [app sub_under length Nat.eqb] in *. rewrite IH by lia. destruct (k =? 0); reflexivity. Qed.
Lemma under_char c u : c <> 46%N -> sub_under 0 false (c :: u) = c :: sub_under 0 false u.
Proof. intros D. cbn [sub_under andb]. replace (is_prefix (tx ".__") (c :: u)) with false; [reflexivity|]. symmetry. apply Bool.not_true_iff_false. rewrite begins_iff. intros (v & E). cbn in E. congruence. Qed.
Lemma under_over x u : ~ In 46%N x -> sub_under 0 false (x ++ u) = x ++ sub_under 0 false u.
Proof. induction x as [|a x IH]; intros H; [reflexivity|]. cbn [app]. rewrite under_char; [f_equal; apply IH; intros I; apply H; now right|]. intros ->. apply H. now left. Qed.
Definition dz (w : text) : text := if is_prefix (tx "__") w then tx "zz" else [].
Definition no_word (uniword : N -> bool) (u : text) : Prop := match u with [] => True | c :: _ => wordc uniword c = false end.
Lemma dunder_app uniword w u : wordish uniword w -> no_word uniword u -> is_prefix (tx "__") (w ++ u) = is_prefix (tx "__") w.
Proof.
  intros (NE & W) C. destruct w as [|a [|b w]]; [congruence| |reflexivity]. cbn [app]. destruct u as [|c u]; [reflexivity|]. apply Bool.eq_true_iff_eq. rewrite !begins_iff. split; intros (v & E); [|discriminate].
  exfalso. assert (Ec : c = 95%N) by (cbn in E; congruence). cbn [no_word] in C. rewrite Ec in C. unfold wordc in C. cbn in C. discriminate.
Qed.
Lemma wordish_no46 uniword w : wordish uniword w -> ~ In 46%N w.
Proof. intros (_ & W) I. apply W in I. unfold wordc in I. cbn in I. discriminate. Qed.
Lemma wordish_no32 uniword w : wordish uniword w -> ~ In 32%N w.
Proof. intros (_ & W) I. apply W in I. unfold wordc in I. cbn in I. discriminate. Qed.
Lemma under_start uniword w u : wordish uniword w -> no_word uniword u -> sub_under 0 true (w ++ u) = dz w ++ w ++ sub_under 0 false u.
Proof.
  intros W C. assert (D := dunder_app _ _ _ W C). assert (N46 := wordish_no46 _ _ W). destruct W as (NE & W). unfold dz. destruct w as [|a w]; [congruence|]. cbn [app] in *. cbn [sub_under andb]. rewrite D. destruct (is_prefix (tx "__") (a :: w)) eqn:P.
  - apply begins_iff in P as (v & E). destruct w as [|b w]; [discriminate|]. cbn in E. injection E as -> -> ->. cbn [app sub_under]. rewrite under_over; [reflexivity|]. intros I. apply N46. right. now right.
  - replace (is_prefix (tx ".__") (a :: w ++ u)) with false; [cbn [app]; f_equal; apply under_over; intros I; apply N46; now right|]. symmetry. apply Bool.not_true_iff_false. rewrite begins_iff. intros (v & E). cbn in E. apply N46. left. congruence.
Qed.
Lemma under_dot uniword w u : wordish uniword w -> no_word uniword u -> sub_under 0 false (tx "." ++ w ++ u) = tx "." ++ dz w ++ w ++ sub_under 0 false u.
Proof.
  intros W C. assert (D := dunder_app _ _ _ W C). assert (N46 := wordish_no46 _ _ W). destruct W as (NE & W). unfold dz. change (tx "." ++ w ++ u) with (46%N :: (w ++ u)). cbn [sub_under andb].
  replace (is_prefix (tx ".__") (46%N :: w ++ u)) with (is_prefix (tx "__") (w ++ u)) by reflexivity. rewrite D. destruct (is_prefix (tx "__") w) eqn:P.
  - apply begins_iff in P as (v & ->). cbn [app sub_under tx]. cbn. rewrite under_over; [reflexivity|]. intros I. apply N46. right. now right.
  - cbn [app]. change (tx ".") with [46%N]. cbn [app]. f_equal. apply under_over; exact N46.
Qed.
Lemma under_none t : (forall a b, t <> a ++ tx ".__" ++ b) -> sub_under 0 false t = t.
Proof.
  induction t as [|c t IH]; intros H; [reflexivity|]. cbn [sub_under andb]. replace (is_prefix (tx ".__") (c :: t)) with false.
  - f_equal. apply IH. intros a b ->. apply (H (c :: a) b). reflexivity.
  - symmetry. apply Bool.not_true_iff_false. rewrite begins_iff. intros (v & E). now apply (H [] v).
Qed.
Section Symbols.
  Variable uniword : N -> bool.
  Lemma the_word_app w u : (forall c, In c w -> wordc uniword c = true) -> no_word uniword u -> the_word uniword (w ++ u) = w.
  Proof. induction w as [|a w IH]; intros W C; cbn [app the_word]; [destruct u as [|c u]; [reflexivity|]; cbn [no_word] in C; cbn [the_word]; now rewrite C|]. rewrite (W a (or_introl eq_refl)). f_equal. apply IH; [|exact C]. intros; apply W; now right. Qed.
  Lemma eat_app p u : eat p (p ++ u) = Some u.
  Proof. unfold eat. replace (is_prefix p (p ++ u)) with true; [now rewrite skipn_app, skipn_all, Nat.sub_diag|]. symmetry. apply begins_iff. now exists u. Qed.
  Lemma eat_none p t : ~ (exists u, t = p ++ u) -> eat p t = None.
  Proof. intros H. unfold eat. replace (is_prefix p t) with false; [reflexivity|]. symmetry. apply Bool.not_true_iff_false. rewrite begins_iff. intros (v & E). apply H. now exists v. Qed.
  Lemma symbol_here w u : wordish uniword w -> symbol_at uniword (tx " [ %symbol." ++ w ++ tx "% ]" ++ u) = Some w.
  Proof.
    intros (NE & W). unfold symbol_at. rewrite eat_app. unfold and_then at 1. rewrite the_word_app; [|exact W|reflexivity]. replace (length w =? 0) with false by (destruct w; [congruence|reflexivity]).
    rewrite skipn_app, skipn_all, Nat.sub_diag. cbn [app skipn]. now rewrite eat_app.
  Qed.
  Lemma symbol_not t : (match t with c :: _ => c <> 32%N | [] => True end \/ ~ In 37%N t) -> symbol_at uniword t = None.
  Proof.
    intros H. unfold symbol_at. rewrite eat_none; [reflexivity|]. intros (u & ->). destruct H as [H|H]; [now apply H|]. apply H. apply in_app_iff. left. vm_compute. auto 20.
  Qed.
  Lemma sym_over before x u : ~ In 32%N x -> sub_symbol uniword before 0 (x ++ u) = x ++ sub_symbol uniword before 0 u.
  Proof. induction x as [|a x IH]; intros H; [reflexivity|]. cbn [app sub_symbol]. rewrite symbol_not; [f_equal; apply IH; intros I; apply H; now right|]. left. intros ->. apply H. now left. Qed.
  Lemma sym_none before t : ~ In 37%N t -> sub_symbol uniword before 0 t = t.
  Proof. induction t as [|a t IH]; intros H; [reflexivity|]. cbn [sub_symbol]. rewrite symbol_not by now right. f_equal. apply IH. intros I. apply H. now right. Qed.
  Lemma sym_skip before : forall k x u, length x = k -> sub_symbol uniword before k (x ++ u) = sub_symbol uniword before 0 u.
  Proof. induction k as [|k IH]; intros [|a x] u L; try discriminate; [reflexivity|]. cbn [app sub_symbol]. apply IH. cbn in L. lia. Qed.
  Lemma sym_here before w u : wordish uniword w -> sub_symbol uniword before 0 (tx " [ %symbol." ++ w ++ tx "% ]" ++ u) = before ++ w ++ sub_symbol uniword before 0 u.
  Proof.
    intros W. assert (H := symbol_here w u W). replace (tx " [ %symbol." ++ w ++ tx "% ]" ++ u) with (32%N :: (tx "[ %symbol." ++ w ++ tx "% ]") ++ u) in * by (cbn [tx app]; rewrite <- app_assoc; reflexivity).
    cbn [sub_symbol]. rewrite H. do 2 f_equal. apply sym_skip. rewrite !app_length. cbn. lia.
  Qed.
  (* the pieces, in small letters and with 08 *)
  Definition rw (w : text) : text := rep (map low w).
  Definition part1 (c : part) : text := match c with Dotted w => tx "." ++ rw w | Symbolic w => tx " [ %symbol." ++ rw w ++ tx "% ]" end.
  Definition part2 (c : part) : text := match c with Dotted w => tx "." ++ key_name w | Symbolic w => tx " [ %symbol." ++ key_name w ++ tx "% ]" end.
  Definition head1 (b : head) : text := match b with Named w => rw w | Intrinsic w => tx "%" ++ rw w ++ tx "%" end.
  (* what can follow a word *)
  Definition sep (u : text) : Prop := u = [] \/ exists v, u = tx "." ++ v \/ u = tx " " ++ v \/ u = tx "%" ++ v.
  Lemma sep_cut u : sep u -> cut u.
  Proof. intros [->|(v & [->| [-> | ->]])]; cbn; intuition discriminate. Qed.
  Lemma sep_word u : sep u -> no_word uniword u.
  Proof. intros [->|(v & [->| [-> | ->]])]; reflexivity. Qed.
  Lemma sep_parts (f : part -> text) cs rest : (forall c, exists v, f c = tx "." ++ v \/ f c = tx " " ++ v) -> (rest = [] \/ exists r, rest = tx " " ++ r) -> sep (concat (map f cs) ++ rest).
  Proof.
    intros F R. destruct cs as [|c cs]; cbn [map concat app].
    - destruct R as [->|(r & ->)]; [now left|]. right. exists r. auto.
    - right. destruct (F c) as (v & [-> | ->]); rewrite <- !app_assoc; eexists; [left|right; left]; reflexivity.
  Qed.
  Lemma low_rest rest : rest = [] \/ (exists r, rest = tx " " ++ r) -> map low rest = [] \/ exists r, map low rest = tx " " ++ r.
  Proof. intros [->|(r & ->)]; [now left|right]. rewrite map_app. eexists. reflexivity. Qed.
  Lemma low_not_in d t : ~ (97 <= d <= 122)%N -> ~ In d t -> ~ In d (map low t).
  Proof. intros D H I. apply in_map_iff in I as (c & E & I). apply low_other in E; [|exact D]. subst. contradiction. Qed.
  Lemma plain_rw w : plain w -> wordish uniword (rw w). Proof. apply rep_word. Qed.
  Lemma key_dz w : plain w -> key_name w = dz (rw w) ++ rw w.
  Proof. intros P. unfold key_name, dz, rw. now rewrite rep_dunder. Qed.
  Lemma key_wordish w : plain w -> wordish uniword (key_name w).
  Proof.
    intros P. rewrite key_dz by exact P. destruct (plain_rw w P) as (NE & W). split; [intros E; apply app_eq_nil in E as (_ & E); contradiction|]. intros c I. apply in_app_iff in I as [I|I]; [|now apply W].
    unfold dz in I. destruct (is_prefix (tx "__") (rw w)); [|destruct I]. vm_compute in I. intuition (subst; reflexivity).
  Qed.
  (* after the replacement of int8 *)
  Lemma rep_parts cs rest : Forall part_plain cs -> rest_plain rest -> rep (concat (map (fun c => map low (write_part c)) cs) ++ map low rest) = concat (map part1 cs) ++ map low rest.
  Proof.
    intros F (A & R & N37 & N56 & _). assert (LR := low_rest _ R). induction F as [|c cs P F IH]; cbn [map concat app].
    - apply rep_no8. apply low_not_in; [lia|exact N56].
    - rewrite <- app_assoc. set (u := concat (map (fun c => map low (write_part c)) cs) ++ map low rest) in *.
      assert (SU : sep u). { apply sep_parts; [|exact LR]. intros [w|w]; cbn [write_part]; rewrite map_app; eexists; [left|right]; reflexivity. }
      assert (RW : forall v, sep v -> rep (map low (part_word c) ++ v) = rw (part_word c) ++ rep v) by (intros v SV; now rewrite rep_app by (now apply sep_cut)).
      destruct c as [w|w]; cbn [write_part part1 part_word] in *.
      + rewrite map_app, <- !app_assoc. change (map low (tx ".")) with (tx "."). rewrite rep_pre by (cbn; intuition discriminate). f_equal. rewrite RW by exact SU. now rewrite IH.
      + rewrite !map_app, <- !app_assoc. change (map low (tx " [ %Symbol.")) with (tx " [ %symbol."). change (map low (tx "% ]")) with (tx "% ]"). rewrite rep_pre by (cbn; intuition discriminate). f_equal.
        rewrite RW by (right; eexists; right; right; reflexivity). f_equal. rewrite rep_pre by (cbn; intuition discriminate). now rewrite IH.
  Qed.
  Lemma under_parts cs rest : Forall part_plain cs -> rest_plain rest -> sub_under 0 false (concat (map part1 cs) ++ map low rest) = concat (map part2 cs) ++ map low rest.
  Proof.
    intros F (A & R & N37 & N56 & NU). assert (LR := low_rest _ R). induction F as [|c cs P F IH]; cbn [map concat app].
    - apply under_none. intros a b E. symmetry in E. apply low_under in E as (a' & b' & E). exact (NU a' b' E).
    - rewrite <- !app_assoc. set (u := concat (map part1 cs) ++ map low rest) in *.
      assert (SU : sep u). { apply sep_parts; [|exact LR]. intros [w|w]; cbn [part1]; eexists; [left|right]; reflexivity. }
      destruct c as [w|w]; cbn [part1 part2 part_plain] in *; rewrite <- ?app_assoc.
      + rewrite (under_dot uniword); [|now apply plain_rw|now apply sep_word]. rewrite key_dz by exact P. rewrite IH, <- ?app_assoc. reflexivity.
      + change (tx " [ %symbol.") with (tx " [ %symbol" ++ tx "."). rewrite <- !app_assoc. rewrite under_over by (vm_compute; intuition discriminate). f_equal.
        rewrite (under_dot uniword); [|now apply plain_rw|reflexivity]. rewrite key_dz by exact P. rewrite <- ?app_assoc. do 3 f_equal. rewrite under_over by (vm_compute; intuition discriminate). now rewrite IH.
  Qed.
  Lemma symbol_parts (regexp : bool) cs rest : Forall part_plain cs -> rest_plain rest ->
    sub_symbol uniword (if regexp then tx "." else tx ".zz_") 0 (concat (map part2 cs) ++ map low rest) = concat (map (key_part regexp) cs) ++ map low rest.
  Proof.
    intros F (A & R & N37 & N56 & NU). induction F as [|c cs P F IH]; cbn [map concat app].
    - apply sym_none. apply low_not_in; [lia|exact N37].
    - rewrite <- !app_assoc. destruct c as [w|w]; cbn [part2 key_part part_plain] in *; rewrite <- ?app_assoc.
      + rewrite sym_over by (cbn; intuition discriminate). f_equal. rewrite sym_over by (apply (wordish_no32 uniword), key_wordish, P). now rewrite IH.
      + rewrite sym_here by (now apply key_wordish). now rewrite IH.
  Qed.
  Lemma head_rep b v : head_plain b -> sep v -> rep (map low (write_head b) ++ v) = head1 b ++ rep v.
  Proof.
    intros P S0. destruct b as [w|w]; cbn [write_head head1].
    - now rewrite rep_app by (now apply sep_cut).
    - rewrite !map_app, <- !app_assoc. change (map low (tx "%")) with (tx "%"). rewrite rep_pre by (cbn; intuition discriminate). f_equal. rewrite rep_app by (cbn; intuition discriminate). unfold rw. f_equal.
  Qed.
  Lemma head_get b v : head_plain b -> sep v -> strip_get (head1 b ++ v) = head1 b ++ v.
  Proof.
    intros P S0. unfold strip_get. rewrite eat_none; [reflexivity|]. intros (u & E). destruct b as [w|w]; cbn [head1 head_plain] in *; [|discriminate]. destruct P as (P & NG). assert (W := plain_rw w P).
    change (tx "get ") with (tx "get" ++ tx " ") in E. rewrite <- app_assoc in E.
    apply (word_app uniword) in E as (E & _); [|apply W|intros c I; vm_compute in I; intuition (subst; reflexivity)| |reflexivity].
    - apply NG. unfold rw in E. clear - E. apply rep_get. exact E.
    - destruct S0 as [->|(x & [-> | [-> | ->]])]; reflexivity.
  Qed.
  Lemma head_under b v : head_plain b -> sep v -> sub_under 0 true (head1 b ++ v) = key_head b ++ sub_under 0 false v.
  Proof.
    intros P S0. destruct b as [w|w]; cbn [head1 key_head head_plain] in *.
    - destruct P as (P & _). rewrite (under_start uniword); [|now apply plain_rw|now apply sep_word]. now rewrite key_dz, <- app_assoc by exact P.
    - change ((tx "%" ++ rw w ++ tx "%") ++ v) with (37%N :: (rw w ++ tx "%") ++ v). cbn [sub_under andb]. replace (is_prefix (tx "__") _) with false by reflexivity. replace (is_prefix (tx ".__") _) with false by reflexivity.
      change ((tx "%" ++ rep (map low w) ++ tx "%") ++ sub_under 0 false v) with (37%N :: (rw w ++ tx "%") ++ sub_under 0 false v). f_equal. apply under_over. intros I. apply in_app_iff in I as [I|I]; [now apply (wordish_no46 uniword (rw w) (plain_rw w P))|]. vm_compute in I. intuition discriminate.
  Qed.
  Lemma head_no32 b : head_plain b -> ~ In 32%N (key_head b).
  Proof.
    intros P. destruct b as [w|w]; cbn [key_head head_plain] in *; [destruct P as (P & _); apply (wordish_no32 uniword), key_wordish, P|]. intros I. apply in_app_iff in I as [I|I]; [vm_compute in I; intuition discriminate|]. apply in_app_iff in I as [I|I]; [now apply (wordish_no32 uniword (rw w) (plain_rw w P))|vm_compute in I; intuition discriminate].
  Qed.
End Symbols.
Lemma ascii_app a b : ascii a -> ascii b -> ascii (a ++ b).
Proof. intros A B c I. apply in_app_iff in I as [I|I]; auto. Qed.
Lemma ascii_lit t : forallb (fun c => (c <? 128)%N) t = true -> ascii t.
Proof. rewrite forallb_forall. intros H c I. apply H in I. now apply N.ltb_lt. Qed.
(* the key of a title *)
Theorem C94_key lower uniword section get b cs rest : lowers lower -> head_plain b -> Forall part_plain cs -> rest_plain rest ->
  forall regexp : bool, (regexp = true <-> section = tx "Properties of the RegExp Prototype Object") ->
  order_key lower uniword section (write_title get b cs rest) = key_title regexp b cs rest.
Proof.
  intros LOW PB PC PR regexp RE.
  assert (AC : forall c, part_plain c -> ascii (write_part c)).
  { intros [w|w] P; cbn [write_part]; repeat (apply ascii_app; [now apply ascii_lit|]); [apply P|apply ascii_app; [apply P|now apply ascii_lit]]. }
  assert (AB : ascii (write_head b)) by (destruct b as [w|w]; cbn [write_head]; [apply PB|apply ascii_app; [now apply ascii_lit|apply ascii_app; [apply PB|now apply ascii_lit]]]).
  assert (AT : ascii (write_title get b cs rest)).
  { unfold write_title. apply ascii_app; [destruct get; [now apply ascii_lit|intros c []]|]. apply ascii_app; [exact AB|]. apply ascii_app; [|apply PR]. clear - PC AC. induction PC as [|c cs P PC IH]; [intros c []|]. cbn [map concat]. apply ascii_app; auto. }
  unfold order_key. rewrite (LOW _ AT). unfold write_title. rewrite !map_app.
  assert (CM : map low (concat (map write_part cs)) = concat (map (fun c => map low (write_part c)) cs)) by (rewrite concat_map, map_map; reflexivity). rewrite CM.
  assert (SV : forall f, (forall c, exists v, f c = tx "." ++ v \/ f c = tx " " ++ v) -> sep (concat (map f cs) ++ map low rest)) by (intros f Hf; apply sep_parts; [exact Hf|apply low_rest, PR]).
  assert (S1 : sep (concat (map (fun c => map low (write_part c)) cs) ++ map low rest)) by (apply SV; intros [w|w]; cbn [write_part]; rewrite map_app; eexists; [left|right]; reflexivity).
  assert (S2 : sep (concat (map part1 cs) ++ map low rest)) by (apply SV; intros [w|w]; cbn [part1]; eexists; [left|right]; reflexivity).
  assert (G : strip_get (rep (map low (if get then tx "get " else []) ++ map low (write_head b) ++ concat (map (fun c => map low (write_part c)) cs) ++ map low rest)) = head1 b ++ concat (map part1 cs) ++ map low rest).
  { destruct get.
    - change (map low (tx "get ")) with (tx "get "). rewrite rep_pre by (cbn; intuition discriminate). unfold strip_get. rewrite eat_app. rewrite head_rep by assumption. now rewrite rep_parts by assumption.
    - cbn [map app]. rewrite head_rep by assumption. rewrite rep_parts by assumption. now apply (head_get uniword). }
  rewrite G. rewrite (head_under uniword) by assumption. rewrite (under_parts uniword) by assumption.
  assert (Z : sub_symbol uniword (if regexp then tx "." else tx ".zz_") 0 (key_head b ++ concat (map part2 cs) ++ map low rest) = key_title regexp b cs rest).
  { rewrite sym_over by (now apply (head_no32 uniword)). now rewrite symbol_parts by assumption. }
  destruct (text_eqb section (tx "Properties of the RegExp Prototype Object")) eqn:E.
  - apply text_eqb_eq in E. rewrite (proj2 RE E) in *. exact Z.
  - destruct regexp; [|exact Z]. apply text_eqb_no in E. destruct (E (proj1 RE eq_refl)).
Qed.
Print Assumptions C94_key.
Lemma lt_pre a x y : text_lt x y -> text_lt (a ++ x) (a ++ y).
Proof.
  intros (L & D). split; [|intros E; apply app_inv_head in E; contradiction]. induction a as [|c a IH]; [exact L|]. cbn [app text_leb]. now rewrite N.ltb_irrefl.
Qed.
Lemma lt_char c d x y : (c < d)%N -> text_lt (c :: x) (d :: y).
Proof. intros H. split; [cbn [text_leb]; apply N.ltb_lt in H; now rewrite H|]. intros E. assert (c = d) by congruence. lia. Qed.
Lemma rep_first c w : exists w', rep (c :: w) = c :: w'.
Proof. destruct (is_prefix (tx "int8") (c :: w)) eqn:P; [|rewrite (replace_nomatch _ _ _ _ P); eauto]. apply begins_iff in P as (v & E). rewrite E, replace_match by discriminate. assert (c = 105%N) by (cbn in E; congruence). subst c. eexists. reflexivity. Qed.
Section Consequences.
  Variable lower : text -> text.
  Variable uniword : N -> bool.
  Hypothesis LOW : lowers lower.
  Notation key := (order_key lower uniword).
  Definition regexp_title : text := tx "Properties of the RegExp Prototype Object".
  (* an accessor has the key of a property of that name: both in one section are always reported if they are neighbours *)
  Theorem C94_get_same section b cs rest : head_plain b -> Forall part_plain cs -> rest_plain rest -> key section (write_title true b cs rest) = key section (write_title false b cs rest).
  Proof.
    intros PB PC PR. destruct (list_eq_dec N.eq_dec section regexp_title) as [E|E]; [rewrite !(C94_key lower uniword section _ b cs rest LOW PB PC PR true)|rewrite !(C94_key lower uniword section _ b cs rest LOW PB PC PR false)]; try reflexivity; split; auto; try discriminate; intros; contradiction.
  Qed.
  Lemma key_of section get b cs rest : section <> regexp_title -> head_plain b -> Forall part_plain cs -> rest_plain rest -> key section (write_title get b cs rest) = key_title false b cs rest.
  Proof. intros NR PB PC PR. apply (C94_key lower uniword section get b cs rest LOW PB PC PR false). split; [discriminate|intros; contradiction]. Qed.
  Lemma key_split regexp b cs c rest : key_title regexp b (cs ++ [c]) rest = (key_head b ++ concat (map (key_part regexp) cs)) ++ key_part regexp c ++ map low rest.
  Proof. unfold key_title. rewrite map_app, concat_app. cbn [map concat]. now rewrite app_nil_r, <- !app_assoc. Qed.
  (* symbols come after names, unless these begin with z *)
  Theorem C94_symbols_last section get get' b cs c w s rest rest' : section <> regexp_title -> head_plain b -> Forall part_plain cs -> plain (c :: w) -> plain s -> rest_plain rest -> rest_plain rest' ->
    is_prefix (tx "__") (c :: w) = false -> c <> 90%N -> c <> 122%N ->
    text_lt (key section (write_title get b (cs ++ [Dotted (c :: w)]) rest)) (key section (write_title get' b (cs ++ [Symbolic s]) rest')).
  Proof.
    intros NR PB PC PW PS PR PR' ND D1 D2. rewrite !key_of; auto; try (apply Forall_app; split; [exact PC|constructor; auto]). rewrite !key_split. apply lt_pre. cbn [key_part]. unfold key_name at 1. rewrite ND.
    change (tx ".zz_") with (tx "." ++ tx "zz_"). rewrite <- !app_assoc. apply lt_pre. cbn [app map]. destruct (rep_first (low c) (map low w)) as (w' & ->). change (tx "zz_") with [122%N; 122%N; 95%N]. cbn [app]. apply lt_char.
    destruct PW as (_ & _ & W). specialize (W c (or_introl eq_refl)). unfold wordc, M_Defs.digit, M_Defs.upper, M_Defs.lowerc in W. rewrite Bool.andb_false_r, Bool.orb_false_r, !Bool.orb_true_iff, !Bool.andb_true_iff, !N.leb_le, N.eqb_eq in W.
    unfold low. destruct ((65 <=? c)%N && (c <=? 90)%N) eqn:E; [rewrite Bool.andb_true_iff, !N.leb_le in E; lia|]. rewrite Bool.andb_false_iff, !N.leb_gt in E. lia.
  Qed.
  (* names with two underscores come between the names that do not begin with z and the symbols *)
  Theorem C94_underscores section get get' b cs c w s x rest rest' : section <> regexp_title -> head_plain b -> Forall part_plain cs -> plain (c :: w) -> plain (tx "__" ++ x) -> rest_plain rest -> rest_plain rest' ->
    (is_prefix (tx "__") (c :: w) = false -> c <> 90%N -> c <> 122%N ->
     text_lt (key section (write_title get b (cs ++ [Dotted (c :: w)]) rest)) (key section (write_title get' b (cs ++ [Dotted (tx "__" ++ x)]) rest'))) /\
    (plain s -> (exists d s', s = d :: s' /\ (65 <= d <= 90 \/ 97 <= d <= 122)%N) ->
     text_lt (key section (write_title get b (cs ++ [Dotted (tx "__" ++ x)]) rest)) (key section (write_title get' b (cs ++ [Symbolic s]) rest'))).
  Proof.
    intros NR PB PC PW PX PR PR'. split.
    - intros ND D1 D2. rewrite !key_of; auto; try (apply Forall_app; split; [exact PC|constructor; auto]). rewrite !key_split. apply lt_pre. cbn [key_part]. unfold key_name. rewrite ND.
      rewrite <- !app_assoc. apply lt_pre. cbn [app map]. destruct (rep_first (low c) (map low w)) as (w' & ->). replace (is_prefix (tx "__") (95%N :: 95%N :: x)) with true by reflexivity. change (tx "zz") with [122%N; 122%N]. cbn [app]. apply lt_char.
      destruct PW as (_ & _ & W). specialize (W c (or_introl eq_refl)). unfold wordc, M_Defs.digit, M_Defs.upper, M_Defs.lowerc in W. rewrite Bool.andb_false_r, Bool.orb_false_r, !Bool.orb_true_iff, !Bool.andb_true_iff, !N.leb_le, N.eqb_eq in W.
      unfold low. destruct ((65 <=? c)%N && (c <=? 90)%N) eqn:E; [rewrite Bool.andb_true_iff, !N.leb_le in E; lia|]. rewrite Bool.andb_false_iff, !N.leb_gt in E. lia.
    - intros PS (d & s' & -> & D). rewrite !key_of; auto; try (apply Forall_app; split; [exact PC|constructor; auto]). rewrite !key_split. apply lt_pre. cbn [key_part]. unfold key_name.
      replace (is_prefix (tx "__") (tx "__" ++ x)) with true by reflexivity. replace (is_prefix (tx "__") (d :: s')) with false; [|symmetry; apply Bool.not_true_iff_false; rewrite begins_iff; intros (v & E); assert (d = 95%N) by (cbn in E; congruence); lia].
      change (map low (d :: s')) with (low d :: map low s'). destruct (rep_first (low d) (map low s')) as (w' & E). rewrite E. change (tx ".zz_") with (tx ".zz" ++ [95%N]). change (tx ".") with [46%N]. change (tx "zz") with [122%N; 122%N].
      replace (rep (map low (tx "__" ++ x))) with (95%N :: 95%N :: rep (map low x)) by reflexivity. change (tx ".zz") with [46%N; 122%N; 122%N]. cbn [app].
      apply (lt_pre [46%N; 122%N; 122%N; 95%N]). apply lt_char. unfold low. destruct ((65 <=? d)%N && (d <=? 90)%N) eqn:E2; [rewrite Bool.andb_true_iff, !N.leb_le in E2; lia|]. rewrite Bool.andb_false_iff, !N.leb_gt in E2. lia.
  Qed.
  (* 8 bits come before 16 *)
  Theorem C94_int8 section get get' b cs p q q' rest rest' : section <> regexp_title -> head_plain b -> Forall part_plain cs -> plain (p ++ tx "Int8" ++ q) -> plain (p ++ tx "Int16" ++ q') -> ~ In 56%N p -> rest_plain rest -> rest_plain rest' ->
    text_lt (key section (write_title get b (cs ++ [Dotted (p ++ tx "Int8" ++ q)]) rest)) (key section (write_title get' b (cs ++ [Dotted (p ++ tx "Int16" ++ q')]) rest')).
  Proof.
    intros NR PB PC P1 P2 N8 PR PR'. rewrite !key_of; auto; try (apply Forall_app; split; [exact PC|constructor; auto]). rewrite !key_split. apply lt_pre. cbn [key_part]. rewrite <- !app_assoc. apply lt_pre. unfold key_name.
    assert (DU : forall a u v, a <> 95%N -> is_prefix (tx "__") (p ++ a :: u) = is_prefix (tx "__") (p ++ a :: v)).
    { intros a u v NA. destruct p as [|p1 [|p2 p]]; [| |reflexivity]; apply Bool.eq_true_iff_eq; rewrite !begins_iff; split; intros (z & E); exfalso; cbn in E; congruence. }
    change (tx "Int8" ++ q) with (73%N :: tx "nt8" ++ q). change (tx "Int16" ++ q') with (73%N :: tx "nt16" ++ q'). rewrite (DU 73%N _ (tx "nt16" ++ q')) by discriminate. rewrite <- !app_assoc. apply lt_pre. rewrite !map_app. cbn [map].
    assert (PRE : forall y, ~ In 56%N (map low p) -> rep (map low p ++ tx "int" ++ y) = map low p ++ rep (tx "int" ++ y)).
    { intros y. generalize (map low p). clear. induction l as [|a l IH]; intros N8; [reflexivity|]. cbn [app]. rewrite replace_nomatch; [f_equal; apply IH; intros I; apply N8; now right|]. apply Bool.not_true_iff_false. rewrite begins_iff. intros (v & E).
      destruct l as [|b [|c [|d l]]]; cbn in E; try discriminate. apply N8. right. right. right. left. congruence. }
    assert (NL : ~ In 56%N (map low p)) by (apply low_not_in; [lia|exact N8]).
    change (low 73 :: map low (tx "nt8" ++ q)) with (tx "int" ++ tx "8" ++ map low q). change (low 73 :: map low (tx "nt16" ++ q')) with (tx "int" ++ tx "16" ++ map low q'). rewrite !PRE by exact NL. rewrite <- !app_assoc. apply lt_pre.
    change (tx "int" ++ tx "8" ++ map low q) with (tx "int8" ++ map low q). rewrite replace_match by discriminate. 
    assert (R16 : rep (tx "int" ++ tx "16" ++ map low q') = tx "int" ++ tx "16" ++ rep (map low q')) by reflexivity. rewrite R16.
    change (tx "int08") with (tx "int" ++ tx "08") at 1. rewrite <- !app_assoc. apply lt_pre. apply (lt_char 48%N 49%N). reflexivity.
  Qed.
End Consequences.
Print Assumptions C94_get_same.
Print Assumptions C94_symbols_last.
Print Assumptions C94_underscores.
Print Assumptions C94_int8.

(* examples *)
Definition low_text : text -> text := map low.
Lemma low_text_lowers : lowers low_text. Proof. intros t _. reflexivity. Qed.
Definition fp (t : String.string) : sec := Sec (tx "function_property") (tx t) None [] [].
Definition acc (t : String.string) : sec := Sec (tx "accessor_property") (tx t) None [] [].
Definition an_object : sec :=
  Sec (tx "prototype_object // properties") (tx "Properties of the Object Prototype Object") None [] [
    fp "DataView.prototype.getInt8 ( _p_ )"; fp "DataView.prototype.getInt16 ( _p_ )"; Sec (tx "catchall") (tx "Note") None [] [];
    acc "get DataView.prototype.buffer"; fp "DataView.prototype.Buffer"; acc "get DataView.prototype.__proto__"; fp "DataView.prototype [ %Symbol.iterator% ] ( )"; fp "DataView.prototype.zoo"].
Example C94_order_ex :
  check_section_order low_text (fun _ => false) [an_object] =
  ([([0], 3, tx """get DataView.prototype.buffer"" should be before ""DataView.prototype.getInt16 ( _p_ )""");
    ([0], 4, tx """DataView.prototype.Buffer"" should be before ""get DataView.prototype.buffer""");
    ([0], 7, tx """DataView.prototype.zoo"" should be before ""DataView.prototype [ %Symbol.iterator% ] ( )""") ], Ok tt).
Proof. vm_compute. reflexivity. Qed.
(* a name beginning with z may have to come before a symbol or after it *)
Example C94_zoo_ex :
  fst (check_section_order low_text (fun _ => false) [Sec (tx "- // properties") (tx "P") None [] [fp "A.zoo"; fp "A [ %Symbol.iterator% ]"]]) = [] /\
  fst (check_section_order low_text (fun _ => false) [Sec (tx "- // properties") (tx "P") None [] [fp "A.zzz"; fp "A [ %Symbol.iterator% ]"]]) = [([0], 1, tx """A [ %Symbol.iterator% ]"" should be before ""A.zzz""")].
Proof. split; vm_compute; reflexivity. Qed.
Example C94_order_fails_ex :
  check_section_order low_text (fun _ => false) [Sec (tx "- // properties") (tx "P") None [] [fp "A.b"; fp "A.a"; Sec (tx "abstract_operation") (tx "Encode") None [] []; fp "A.0"]] =
  ([([0], 1, tx """A.a"" should be before ""A.b""")], Err AssertionError).
Proof. vm_compute. reflexivity. Qed.
Example C94_uri_ex :
  check_section_order low_text (fun _ => false) [Sec (tx "- // properties") (tx "URI Handling Functions") None [] [fp "decodeURI"; Sec (tx "abstract_operation") (tx "Encode") None [] []; fp "encodeURI"]] = ([], Ok tt).
Proof. vm_compute. reflexivity. Qed.
Example C94_key_ex : forall lower, lowers lower ->
  order_key lower (fun _ => false) (tx "P") (tx "get %TypedArray%.prototype.__x [ %Symbol.toStringTag% ] ( _uint_, ..._y_ )") = tx "%typedarray%.prototype.zz__x.zz_tostringtag ( _uint_, ..._y_ )" /\
  order_key lower (fun _ => false) (tx "Properties of the RegExp Prototype Object") (tx "RegExp.prototype [ %Symbol.match% ] ( _string_ )") = tx "regexp.prototype.match ( _string_ )".
Proof.
  intros lower LOW.
  assert (NU : forall t, (fix f (t : text) := match t with [] => true | c :: t' => negb (is_prefix (tx ".__") t) && f t' end) t = true -> forall a b, t <> a ++ tx ".__" ++ b).
  { intros t H a. revert t H. induction a as [|x a IH]; intros t H b ->; cbn [app] in H; [discriminate|]. apply Bool.andb_true_iff in H as (_ & H). exact (IH _ H b eq_refl). }
  split.
  - refine (eq_trans (C94_key lower _ _ true (Intrinsic (tx "TypedArray")) [Dotted (tx "prototype"); Dotted (tx "__x"); Symbolic (tx "toStringTag")] (tx " ( _uint_, ..._y_ )") LOW _ _ _ false _) _).
    + repeat split; try discriminate; [now apply ascii_lit|]. intros c I. vm_compute in I. intuition (subst; reflexivity).
    + repeat constructor; try discriminate; try (now apply ascii_lit); intros c I; vm_compute in I; intuition (subst; reflexivity).
    + split; [now apply ascii_lit|]. split; [right; eexists; reflexivity|]. split; [vm_compute; intuition discriminate|]. split; [vm_compute; intuition discriminate|]. apply NU. vm_compute. reflexivity.
    + split; [discriminate|]. intros X. vm_compute in X. discriminate.
    + vm_compute. reflexivity.
  - refine (eq_trans (C94_key lower _ _ false (Named (tx "RegExp")) [Dotted (tx "prototype"); Symbolic (tx "match")] (tx " ( _string_ )") LOW _ _ _ true _) _).
    + split; [repeat split; try discriminate; [now apply ascii_lit|]; intros c I; vm_compute in I; intuition (subst; reflexivity)|]. intros X. vm_compute in X. discriminate.
    + repeat constructor; try discriminate; try (now apply ascii_lit); intros c I; vm_compute in I; intuition (subst; reflexivity).
    + split; [now apply ascii_lit|]. split; [right; eexists; reflexivity|]. split; [vm_compute; intuition discriminate|]. split; [vm_compute; intuition discriminate|]. apply NU. vm_compute. reflexivity.
    + split; [reflexivity|reflexivity].
    + vm_compute. reflexivity.
Qed.
(* the hypotheses of the comparisons *)
Example C94_compare_ex : plain (tx "getInt8") /\ plain (tx "getInt16") /\ plain (tx "__proto__") /\ plain (tx "iterator") /\ rest_plain [] /\ head_plain (Named (tx "DataView")) /\ ~ In 56%N (tx "get").
Proof.
  assert (PL : forall w, negb (length w =? 0) && forallb (fun c => (c <? 128)%N && wordc (fun _ => false) c) w = true -> plain w).
  { intros w H. rewrite Bool.andb_true_iff, forallb_forall in H. destruct H as (A & B). split; [intros ->; discriminate|]. split; intros c I; specialize (B c I); rewrite Bool.andb_true_iff, N.ltb_lt in B; apply B. }
  split; [now apply PL|]. split; [now apply PL|]. split; [now apply PL|]. split; [now apply PL|]. split.
  - split; [intros c []|]. split; [now left|]. split; [intros []|]. split; [intros []|]. intros [|? ?] b X; discriminate.
  - split; [split; [now apply PL|discriminate]|]. vm_compute. intuition discriminate.
Qed.
