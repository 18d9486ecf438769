(* The paths of a tree of pseudocode, and what the walk through it meets. *)
From Coq Require Import Ascii String Sorted.
From Verif Require Import M_Base M_HTML M_Shared M_Records M_Values M_Style L_Base.
Open Scope list_scope.
Open Scope nat_scope.
Notation length := List.length.

(* the node at a path: the child with the first number, of it the child with the second, ... *)
Inductive at_path : anode -> list nat -> anode -> Prop :=
| ap_here n : at_path n [] n
| ap_below l r s e ch i c q m : nth_error ch i = Some c -> at_path c q m -> at_path (Node l r s e ch) (i :: q) m.
(* reading order: a node before what is below it, and below a child before what is below a later one *)
Inductive before : list nat -> list nat -> Prop :=
| bf_nil i q : before [] (i :: q)
| bf_lt i j q q' : i < j -> before (i :: q) (j :: q')
| bf_eq i q q' : before q q' -> before (i :: q) (i :: q').

Lemma before_irrefl q : ~ before q q.
Proof. intros H. remember q as q' eqn:E in H at 2. revert E. induction H; intros E; try discriminate; injection E; intros; subst; try lia; auto. Qed.
Lemma before_trans a b c : before a b -> before b c -> before a c.
Proof.
  intros H. revert c. induction H; intros c K; inversion K; subst.
  - constructor. - constructor. - constructor; lia. - constructor; auto. - constructor; auto. - apply bf_eq; auto.
Qed.

(* the ancestors of the node at a path, the closest first *)
Inductive chain : anode -> list nat -> list anode -> Prop :=
| ch_here n : chain n [] []
| ch_below l r s e ch i c q a : nth_error ch i = Some c -> chain c q a -> chain (Node l r s e ch) (i :: q) (a ++ [Node l r s e ch]).

Section Ind.
Variable P : anode -> Prop.
Hypothesis Hleaf : forall t, P (Leaf t).
Hypothesis Hnode : forall l r s e ch, Forall P ch -> P (Node l r s e ch).
Fixpoint anode_nested (n : anode) : P n :=
  match n with
  | Leaf t => Hleaf t
  | Node l r s e ch => Hnode l r s e ch
      ((fix go (c : list anode) : Forall P c := match c with [] => Forall_nil P | x :: c' => Forall_cons x (anode_nested x) (go c') end) ch)
  end.
End Ind.

Lemma at_fun n q a : at_path n q a -> forall b, at_path n q b -> a = b.
Proof. induction 1; intros b K; inversion K; subst; auto. apply IHat_path. congruence. Qed.
Lemma chain_fun n q a : chain n q a -> forall b, chain n q b -> a = b.
Proof. induction 1; intros b K; inversion K; subst; auto. f_equal. apply IHchain. replace c with c0 by congruence. assumption. Qed.
Lemma at_app n q m : at_path n q m -> forall q' k, at_path m q' k -> at_path n (q ++ q') k.
Proof. induction 1; intros; cbn [app]; auto. econstructor; eauto. Qed.
Lemma at_split q : forall n q' k, at_path n (q ++ q') k -> exists m, at_path n q m /\ at_path m q' k.
Proof.
  induction q as [|i q IH]; intros n q' k H; cbn [app] in H.
  - exists n. split; [constructor | exact H].
  - inversion H; subst. destruct (IH _ _ _ H5) as [m [A B]]. exists m. split; [econstructor; eauto | exact B].
Qed.
Lemma chain_at n q m : at_path n q m -> exists a, chain n q a.
Proof. induction 1. - eexists; constructor. - destruct IHat_path as [a A]. eexists. econstructor; eauto. Qed.
Lemma chain_parent q : forall n i c, chain n (q ++ [i]) c -> exists p a, c = p :: a /\ at_path n q p /\ chain n q a.
Proof.
  induction q as [|j q IH]; intros n i c H; cbn [app] in H; inversion H; subst.
  - match goal with K : chain _ [] _ |- _ => inversion K; subst end. exists (Node l r s e ch), []. repeat split; constructor.
  - match goal with K : chain _ (q ++ [i]) _ |- _ => destruct (IH _ _ _ K) as [p [b [E [P C]]]] end. subst a.
    exists p, (b ++ [Node l r s e ch]). repeat split; try (econstructor; eauto).
Qed.

(* a visit of the walk below a node that is itself the i-th child of the first of some ancestors *)
Definition visit_of (n : anode) (anc : list anode) (i : nat) (q : list nat) (v : visit) : Prop :=
  at_path n q (v_node v) /\ (exists l r s e ch, v_node v = Node l r s e ch) /\ v_index v = last (i :: q) 0 /\
  exists c, chain n q c /\ v_anc v = c ++ anc.

Definition walk_ok (n : anode) (anc : list anode) (i : nat) (ps : list (list nat)) (vs : list visit) : Prop :=
  Forall2 (visit_of n anc i) ps vs /\ StronglySorted before ps /\
  forall q l r s e ch, at_path n q (Node l r s e ch) -> In q ps.

Lemma last_cons (a b : nat) q d : last (a :: b :: q) d = last (b :: q) d.
Proof. reflexivity. Qed.
Lemma sorted_app {A} (R : A -> A -> Prop) l1 l2 :
  StronglySorted R l1 -> StronglySorted R l2 -> (forall a b, In a l1 -> In b l2 -> R a b) -> StronglySorted R (l1 ++ l2).
Proof.
  induction 1 as [|x l S IH F]; intros H2 X; cbn [app]; auto. constructor.
  - apply IH; auto. intros a b Ha Hb. apply X; [right|]; auto.
  - apply Forall_app. split; auto. apply Forall_forall. intros b Hb. apply X; [left|]; auto.
Qed.

Lemma walk_all n : forall anc i, exists ps, walk_ok n anc i ps (each_desc anc i n).
Proof.
  induction n as [t | l r s e ch IH] using anode_nested; intros anc i.
  - exists []. split; [constructor|]. split; [constructor|]. intros q l r s e ch H. inversion H.
  - cbn [each_desc]. set (n := Node l r s e ch).
    assert (G : forall sub k, Forall (fun n => forall anc i, exists ps, walk_ok n anc i ps (each_desc anc i n)) sub ->
              (forall j, nth_error sub j = nth_error ch (k + j)) ->
              exists ps, Forall2 (visit_of n anc i) ps
                ((fix go (j : nat) (l0 : list anode) : list visit := match l0 with [] => [] | c :: l' => each_desc (n :: anc) j c ++ go (S j) l' end) k sub)
                /\ StronglySorted before ps
                /\ (forall q, In q ps -> exists j q', q = j :: q' /\ k <= j)
                /\ (forall j q l r s e c, k <= j -> at_path n (j :: q) (Node l r s e c) -> In (j :: q) ps)).
    { induction sub as [|c sub IHs]; intros k F Q.
      - exists []. repeat split; try constructor. + intros q []. 
        + intros j q l0 r0 s0 e0 c0 Hj H. inversion H; subst. specialize (Q (j - k)). replace (k + (j - k)) with j in Q by lia.
          rewrite <- Q in H8. destruct (j - k); discriminate.
      - inversion F as [|? ? Fc Fs]; subst. destruct (Fc (n :: anc) k) as [pc [Wc [Sc Cc]]].
        destruct (IHs (S k) Fs) as [ps [W [S0 [L C]]]].
        { intros j. specialize (Q (S j)). cbn [nth_error] in Q. rewrite Q. f_equal. lia. }
        assert (Hc : nth_error ch k = Some c). { specialize (Q 0). cbn [nth_error] in Q. rewrite Nat.add_0_r in Q. auto. }
        exists (map (cons k) pc ++ ps). split; [|split; [|split]].
        + apply Forall2_app; auto. clear - Wc Hc. induction Wc as [|q v pc vs V Wc IHw]; cbn [map]; constructor; auto.
          destruct V as [A [N [I [b [B1 B2]]]]]. split; [econstructor; eauto|]. split; [exact N|]. split.
          * rewrite I. rewrite (last_cons i k q). reflexivity.
          * exists (b ++ [n]). split; [constructor 2 with (c := c); auto|]. rewrite B2, <- app_assoc. reflexivity.
        + apply sorted_app; auto.
          * clear - Sc. induction Sc; cbn [map]; constructor; auto. clear - H. induction H; cbn [map]; constructor; auto. apply bf_eq; auto.
          * intros a b Ha Hb. apply in_map_iff in Ha. destruct Ha as [q [<- _]]. destruct (L b Hb) as [j [q' [-> Hj]]]. constructor. lia.
        + intros q Hq. apply in_app_or in Hq. destruct Hq as [Hq | Hq].
          * apply in_map_iff in Hq. destruct Hq as [q' [<- _]]. exists k, q'. split; auto.
          * destruct (L q Hq) as [j [q' [-> Hj]]]. exists j, q'. split; auto. lia.
        + intros j q l0 r0 s0 e0 c0 Hj H. apply in_or_app. destruct (Nat.eq_dec j k) as [-> | D].
          * left. inversion H; subst. replace c1 with c in * by congruence. apply in_map. eapply Cc; eauto.
          * right. eapply C; eauto. lia. }
    destruct (G ch 0 IH (fun j => eq_refl)) as [ps [W [S0 [L C]]]].
    exists ([] :: ps). split; [|split].
    + constructor; auto. split; [constructor|]. split; [exists l, r, s, e, ch; reflexivity|]. split; [reflexivity|]. exists []. split; [constructor | reflexivity].
    + constructor; auto. apply Forall_forall. intros q Hq. destruct (L q Hq) as [j [q' [-> _]]]. constructor.
    + intros q l0 r0 s0 e0 c0 H. inversion H; subst; [left; reflexivity|]. right. apply (C i0 q0 l0 r0 s0 e0 c0); [lia | exact H].
Qed.

(* the nodes of a tree in reading order: the first for which something holds *)
Lemma first_of n anc i ps vs (f : visit -> bool) v rest :
  walk_ok n anc i ps vs -> filter f vs = v :: rest ->
  exists q, visit_of n anc i q v /\ f v = true /\ forall q' v', visit_of n anc i q' v' -> f v' = true -> q' = q \/ before q q'.
Proof.
  intros [W [S0 C]] F.
  assert (U : forall q v1 v2, visit_of n anc i q v1 -> visit_of n anc i q v2 -> v1 = v2).
  { intros q [n1 i1 a1] [n2 i2 a2] [A1 [_ [I1 [c1 [C1 E1]]]]] [A2 [_ [I2 [c2 [C2 E2]]]]]. cbn in *.
    f_equal; [eapply at_fun; eauto | congruence | subst; f_equal; eapply chain_fun; eauto]. }
  assert (G : forall ps vs, Forall2 (visit_of n anc i) ps vs -> StronglySorted before ps -> filter f vs = v :: rest ->
     exists q, In q ps /\ visit_of n anc i q v /\ f v = true /\ forall q' v', In q' ps -> visit_of n anc i q' v' -> f v' = true -> q' = q \/ before q q').
  { clear - U. intros ps vs W. induction W as [|q x ps vs V W IH]; intros S0 F; cbn [filter] in F; [discriminate|].
    inversion S0 as [|? ? S1 Fa]; subst. destruct (f x) eqn:E.
    - injection F as -> _. exists q. split; [left; reflexivity|]. split; [exact V|]. split; [exact E|].
      intros q' v' [<- | H] K1 K2; [left; reflexivity|]. right. rewrite Forall_forall in Fa. auto.
    - destruct (IH S1 F) as [q0 [I0 [V0 [F0 K]]]]. exists q0. split; [right; exact I0|]. split; [exact V0|]. split; [exact F0|].
      intros q' v' [<- | H] K1 K2; eauto. rewrite (U _ _ _ K1 V) in K2. congruence. }
  destruct (G ps vs W S0 F) as [q [_ [V [Fv K]]]]. exists q. split; [exact V|]. split; [exact Fv|].
  intros q' v' K1 K2. eapply K; eauto. destruct K1 as [A [[l [r [s [e [ch E]]]]] _]]. rewrite E in A. eauto.
Qed.
Lemma none_of n anc i ps vs (f : visit -> bool) :
  walk_ok n anc i ps vs -> filter f vs = [] -> forall q v, visit_of n anc i q v -> f v = false.
Proof.
  intros [W [S0 C]] F q v V.
  destruct V as [A [[l [r [s [e [ch E]]]]] K]]. assert (I : In q ps). { rewrite E in A. eauto. }
  assert (G : exists v', In v' vs /\ visit_of n anc i q v').
  { clear - W I. induction W as [|q0 x ps vs V W IH]; [destruct I|]; destruct I as [<- | I].
    - exists x. split; [left; reflexivity | exact V].
    - destruct (IH I) as [v' [I' V']]. exists v'. split; [right; exact I' | exact V']. }
  destruct G as [v' [I' [A' [_ [I2 [c2 [C2 E2]]]]]]]. destruct K as [I1 [c1 [C1 E1]]].
  assert (v' = v). { destruct v, v'; cbn in *. f_equal; [eapply at_fun; eauto | congruence | subst; f_equal; eapply chain_fun; eauto]. }
  subst v'. destruct (f v) eqn:Fv; auto. assert (X : In v (filter f vs)) by (apply filter_In; auto). rewrite F in X. destruct X.
Qed.
Lemma visit_ex n anc i q l r s e ch : at_path n q (Node l r s e ch) -> exists v, visit_of n anc i q v /\ v_node v = Node l r s e ch.
Proof.
  intros A. destruct (chain_at _ _ _ A) as [c C]. exists (mkV (Node l r s e ch) (last (i :: q) 0) (c ++ anc)).
  split; [|reflexivity]. split; [exact A|]. split; [exists l, r, s, e, ch; reflexivity|]. split; [reflexivity|]. exists c; auto.
Qed.
Lemma visit_in n anc i ps vs q v : walk_ok n anc i ps vs -> visit_of n anc i q v -> In v vs.
Proof.
  intros [W [S0 C]] V.
  destruct V as [A [[l [r [s [e [ch E]]]]] K]]. assert (I : In q ps). { rewrite E in A. eauto. }
  assert (G : exists v', In v' vs /\ visit_of n anc i q v').
  { clear - W I. induction W as [|q0 x ps vs V W IH]; [destruct I|]; destruct I as [<- | I].
    - exists x. split; [left; reflexivity | exact V].
    - destruct (IH I) as [v' [I' V']]. exists v'. split; [right; exact I' | exact V']. }
  destruct G as [v' [I' [A' [_ [I2 [c2 [C2 E2]]]]]]]. destruct K as [I1 [c1 [C1 E1]]].
  assert (v' = v). { destruct v, v'; cbn in *. f_equal; [eapply at_fun; eauto | congruence | subst; f_equal; eapply chain_fun; eauto]. }
  subst v'. exact I'.
Qed.
Lemma in_visit n anc i ps vs v : walk_ok n anc i ps vs -> In v vs -> exists q, visit_of n anc i q v.
Proof.
  intros [W _] I. induction W as [|q0 x ps vs V W IH]; [destruct I|]; destruct I as [<- | I]; eauto.
Qed.

(* all the paths of a tree, with their nodes: to check examples by computation *)
Fixpoint paths (n : anode) : list (list nat * anode) :=
  ([], n) ::
  match n with
  | Leaf _ => []
  | Node _ _ _ _ ch =>
    (fix go (j : nat) (l : list anode) : list (list nat * anode) :=
       match l with [] => [] | c :: l' => map (fun x => (j :: fst x, snd x)) (paths c) ++ go (S j) l' end) 0 ch
  end.
Lemma paths_all n : forall q m, at_path n q m -> In (q, m) (paths n).
Proof.
  intros q m A. induction A as [n | l r s e ch i c q m H A IH].
  - destruct n; left; reflexivity.
  - right. cbn [paths].
    assert (G : forall ch k i, nth_error ch i = Some c -> In ((k + i) :: q, m)
       ((fix go (j : nat) (l : list anode) : list (list nat * anode) :=
       match l with [] => [] | c :: l' => map (fun x => (j :: fst x, snd x)) (paths c) ++ go (S j) l' end) k ch)).
    { clear H i ch. induction ch as [|a ch IHc]; intros k [|i] H; try discriminate; cbn [nth_error] in H.
      - injection H as ->. apply in_or_app. left. rewrite Nat.add_0_r. apply in_map_iff. exists (q, m). auto.
      - apply in_or_app. right. replace (k + S i) with (S k + i) by lia. auto. }
    exact (G ch 0 i H).
Qed.
