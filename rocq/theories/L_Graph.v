(* Specification and lemmas for the strong-component search of Graph.py (C09, C10). *)
From Coq Require Import Sorted Permutation.
From Verif Require Import M_Base L_Base M_Graph.

(* ---------------- specification ---------------- *)

Definition arc (g : graph) (x y : nat) : Prop := In y (arcs_from g x).
Inductive reach (g : graph) : nat -> nat -> Prop :=
| reach_refl x : reach g x x
| reach_step x y z : arc g x y -> reach g y z -> reach g x z.
(* arcs lead to vertices, as add_arc guarantees *)
Definition closed (g : graph) : Prop := forall x y, In x (vertices g) -> arc g x y -> In y (vertices g).

Lemma reach_trans g x y z : reach g x y -> reach g y z -> reach g x z.
Proof. induction 1; eauto using reach. Qed.
Lemma reach_arc g x y : arc g x y -> reach g x y.
Proof. eauto using reach. Qed.

(* ---------------- small lemmas ---------------- *)

Lemma mem_In x l : mem x l = true <-> In x l.
Proof.
  unfold mem. rewrite existsb_exists. split.
  - intros (y & Hy & E). apply Nat.eqb_eq in E. now subst.
  - intros H. exists x. split; [exact H|]. apply Nat.eqb_refl.
Qed.
Lemma mem_not_In x l : mem x l = false <-> ~ In x l.
Proof. rewrite <- mem_In. destruct (mem x l); split; intros; congruence. Qed.

Definition bottom (l : list nat) : nat := last l 0.
Lemma bottom_app a b : b <> [] -> bottom (a ++ b) = bottom b.
Proof.
  intros Hb. unfold bottom. induction a as [|x a IH]; [reflexivity|]. cbn.
  destruct (a ++ b) eqn:E; [|exact IH]. apply app_eq_nil in E as [_ E]. congruence.
Qed.
Lemma bottom_split l : l <> [] -> l = removelast l ++ [bottom l].
Proof. intros H. apply app_removelast_last. exact H. Qed.
Lemma bottom_In l : l <> [] -> In (bottom l) l.
Proof. intros H. rewrite (bottom_split l H) at 2. apply in_or_app. right. now left. Qed.

Lemma SS_app_inv {A} (R : A -> A -> Prop) a b : StronglySorted R (a ++ b) ->
  StronglySorted R a /\ StronglySorted R b /\ forall x y, In x a -> In y b -> R x y.
Proof.
  induction a as [|h a IH]; intros H; cbn in *.
  - split; [constructor|]. split; [exact H|]. intros x y [].
  - inversion H as [|? ? HS HF]; subst. destruct (IH HS) as (H1 & H2 & H3). rewrite Forall_app in HF.
    split; [constructor; tauto|]. split; [exact H2|]. intros x y [->|Hx] Hy; [|auto].
    destruct HF as [_ HF]. rewrite Forall_forall in HF. auto.
Qed.
Lemma SS_app {A} (R : A -> A -> Prop) a b : StronglySorted R a -> StronglySorted R b ->
  (forall x y, In x a -> In y b -> R x y) -> StronglySorted R (a ++ b).
Proof.
  induction 1 as [|h a HS IH HF]; intros Hb Hx; cbn; [exact Hb|]. constructor.
  - apply IH; auto. intros x y Hi; apply Hx; now right.
  - apply Forall_app. split; [exact HF|]. apply Forall_forall. intros y Hy. apply Hx; [now left|exact Hy].
Qed.

Lemma NoDup_app_inv {A} (a b : list A) : NoDup (a ++ b) -> NoDup a /\ NoDup b /\ forall x, In x a -> ~ In x b.
Proof.
  induction a as [|h a IH]; cbn; intros H; [split; [constructor|split; [exact H|intros x []]]|].
  inversion H as [|? ? Hn HN]; subst. destruct (IH HN) as (H1 & H2 & H3).
  split; [constructor; [intros Hi; apply Hn, in_or_app; now left|exact H1]|]. split; [exact H2|].
  intros x [<-|Hx]; [intros Hi; apply Hn, in_or_app; now right|auto].
Qed.
Lemma NoDup_app {A} (a b : list A) : NoDup a -> NoDup b -> (forall x, In x a -> ~ In x b) -> NoDup (a ++ b).
Proof.
  induction 1 as [|h a Hn HN IH]; cbn; intros Hb Hx; [exact Hb|]. constructor.
  - intros Hi. apply in_app_or in Hi as [Hi|Hi]; [contradiction|]. exact (Hx h (or_introl eq_refl) Hi).
  - apply IH; auto.
Qed.

Lemma FOP_app_inv {A} (R : A -> A -> Prop) a b : ForallOrdPairs R (a ++ b) ->
  ForallOrdPairs R a /\ ForallOrdPairs R b /\ forall x y, In x a -> In y b -> R x y.
Proof.
  induction a as [|h a IH]; intros H; cbn in *.
  - split; [constructor|]. split; [exact H|]. intros x y [].
  - inversion H as [|? ? HF HS]; subst. destruct (IH HS) as (H1 & H2 & H3). rewrite Forall_app in HF.
    split; [constructor; tauto|]. split; [exact H2|]. intros x y [->|Hx] Hy; [|auto].
    destruct HF as [_ HF]. rewrite Forall_forall in HF. auto.
Qed.

(* ---------------- the search ---------------- *)

Section Search.
  Variable g : graph.
  Variable gl : list cluster.
  Hypothesis Hclosed : closed g.

  Notation reach := (reach g).
  Notation arc := (arc g).

  Definition cl_of (ms : list nat) : cluster := mkCl ms [] false None.
  Definition visited (st : sstate) (x : nat) : Prop := lookup (preorder st) x <> None.

  Definition pre_gt (pre : list (nat * nat)) (x y : nat) : Prop :=
    forall a b, lookup pre x = Some a -> lookup pre y = Some b -> b < a.

  (* exactness of the finished clusters, oldest first *)
  Definition new_ok (new : list (list nat)) : Prop :=
    forall k ms, nth_error new k = Some ms -> ms <> [] /\
      forall x, In x ms ->
        (forall y, In y ms <-> reach x y /\ reach y x) /\
        (forall y, arc x y -> exists j ms', j <= k /\ nth_error new j = Some ms' /\ In y ms').

  Record Inv (st : sstate) (segs new : list (list nat)) (G : list nat) (E : nat -> nat -> Prop) : Prop := {
    inv_S : stS st = concat segs;
    inv_P : stP st = map bottom segs;
    inv_ne : Forall (fun s => s <> []) segs;
    inv_cl : clusters st = gl ++ map cl_of new;
    inv_nd : NoDup (concat segs ++ concat new);
    inv_vis : forall x, In x (concat segs ++ concat new) <-> visited st x;
    inv_sub : forall x, visited st x -> In x (vertices g);
    inv_cf : forall x c, lookup (cluster_for st) x = Some c <->
      exists ms k, nth_error new k = Some ms /\ In x ms /\ c = length gl + k;
    inv_lt : forall x n, lookup (preorder st) x = Some n -> n < cnt st;
    inv_sorted : StronglySorted (pre_gt (preorder st)) (concat segs);
    inv_sc : Forall (fun s => forall x y, In x s -> In y s -> reach x y) segs;
    inv_up : ForallOrdPairs (fun up lo => forall x y, In x up -> In y lo -> reach y x) segs;
    inv_E : forall x y, E x y -> arc x y /\ visited st x /\ visited st y;
    inv_Eup : ForallOrdPairs (fun up lo => forall x y, In x up -> In y lo -> ~ E x y) segs;
    inv_fin : forall x, visited st x -> ~ In x G -> forall y, arc x y -> E x y;
    inv_G : incl G (concat segs);
    inv_new : new_ok new
  }.

  Definition unv (st : sstate) : nat :=
    length (filter (fun x => match lookup (preorder st) x with None => true | Some _ => false end) (vertices g)).

  Lemma filter_le {A} (p q : A -> bool) l : (forall x, In x l -> p x = true -> q x = true) ->
    length (filter p l) <= length (filter q l).
  Proof.
    induction l as [|x l IH]; intros H; cbn; [lia|].
    assert (length (filter p l) <= length (filter q l)) by (apply IH; intros; apply H; auto; now right).
    destruct (p x) eqn:Ep; [rewrite (H x (or_introl eq_refl) Ep); cbn; lia|]. destruct (q x); cbn; lia.
  Qed.
  Lemma filter_lt {A} (p q : A -> bool) l v : (forall x, In x l -> p x = true -> q x = true) ->
    In v l -> p v = false -> q v = true -> length (filter p l) < length (filter q l).
  Proof.
    induction l as [|x l IH]; intros H Hi Hp Hq; [destruct Hi|]. cbn.
    assert (length (filter p l) <= length (filter q l)) by (apply filter_le; intros; apply H; auto; now right).
    destruct Hi as [->|Hi].
    - rewrite Hp, Hq. cbn. lia.
    - assert (length (filter p l) < length (filter q l)) by (apply IH; auto; intros; apply H; auto; now right).
      destruct (p x) eqn:Ep; [rewrite (H x (or_introl eq_refl) Ep); cbn; lia|]. destruct (q x); cbn; lia.
  Qed.
  Lemma unv_mono st st' : (forall x, visited st x -> visited st' x) -> unv st' <= unv st.
  Proof.
    intros H. apply filter_le. intros x _. specialize (H x). unfold visited in H.
    destruct (lookup (preorder st') x), (lookup (preorder st) x); try discriminate; try reflexivity.
    intros _. destruct (H ltac:(discriminate) eq_refl).
  Qed.

  Lemma concat_cons_in (a : list nat) l x : In x (concat (a :: l)) <-> In x a \/ In x (concat l).
  Proof. cbn. rewrite in_app_iff. reflexivity. Qed.

  (* 105-106 *)
  Lemma pop_P_ok st segs new G E A seg B w : Inv st segs new G E -> segs = A ++ seg :: B -> In w seg ->
    pop_P (preorder st) w (stP st) = Ok (map bottom (seg :: B)).
  Proof.
    intros HI -> Hw. rewrite (inv_P _ _ _ _ _ HI).
    pose proof (inv_sorted _ _ _ _ _ HI) as HS. pose proof (inv_ne _ _ _ _ _ HI) as HN.
    assert (Hv : forall x, In x (concat (A ++ seg :: B)) -> exists n, lookup (preorder st) x = Some n).
    { intros x Hx. assert (visited st x) as H by (apply (inv_vis _ _ _ _ _ HI), in_or_app; now left).
      unfold visited in H. destruct (lookup (preorder st) x); [eauto|congruence]. }
    clear HI. induction A as [|a A IH]; cbn [app map] in *.
    - inversion HN as [|? ? Hne _]; subst. cbn [pop_P].
      destruct (Hv (bottom seg)) as [p Hp]; [apply concat_cons_in; left; now apply bottom_In|].
      destruct (Hv w) as [q Hq]; [apply concat_cons_in; now left|]. rewrite Hp, Hq.
      destruct (Nat.ltb_spec q p) as [Hlt|]; [|reflexivity]. exfalso.
      cbn [concat] in HS. apply SS_app_inv in HS as (HS & _ & _).
      rewrite (bottom_split seg Hne) in HS, Hw. apply SS_app_inv in HS as (_ & _ & HS).
      apply in_app_or in Hw as [Hw|[Hw|[]]].
      + specialize (HS w (bottom seg) Hw (or_introl eq_refl) _ _ Hq Hp). lia.
      + subst. assert (p = q) by congruence. lia.
    - inversion HN as [|? ? Hne HN']; subst. cbn [pop_P].
      destruct (Hv (bottom a)) as [p Hp]; [apply concat_cons_in; left; now apply bottom_In|].
      assert (In w (concat (A ++ seg :: B))) as Hw'.
      { rewrite concat_app. apply in_or_app. right. apply concat_cons_in. now left. }
      destruct (Hv w) as [q Hq]; [apply concat_cons_in; now right|]. rewrite Hp, Hq.
      cbn [concat] in HS. apply SS_app_inv in HS as (HS1 & HS2 & HS3).
      specialize (HS3 _ _ (bottom_In a Hne) Hw' _ _ Hp Hq).
      apply Nat.ltb_lt in HS3. rewrite HS3. apply IH; auto.
      intros x Hx. apply Hv. apply concat_cons_in. now right.
  Qed.

  (* 113-119 *)
  Lemma pop_S_ok v c rest : forall ex cf ms, NoDup (ex ++ [v]) ->
    (forall x, In x (ex ++ [v]) -> lookup cf x = None) ->
    exists cf', pop_S v c (ex ++ v :: rest) cf ms = Ok (rest, cf', ms ++ ex ++ [v]) /\
      forall x, lookup cf' x = if mem x (ex ++ [v]) then Some c else lookup cf x.
  Proof.
    induction ex as [|e ex IH]; intros cf ms Hnd Hcf.
    - cbn [app pop_S]. rewrite (Hcf v (or_introl eq_refl)), Nat.eqb_refl.
      eexists. split; [reflexivity|]. intros x. cbn. rewrite (Nat.eqb_sym v x). now destruct (x =? v).
    - cbn [app pop_S] in *. rewrite (Hcf e (or_introl eq_refl)).
      inversion Hnd as [|? ? Hn HN]; subst.
      assert (e =? v = false) as ->. { apply Nat.eqb_neq. intros ->. apply Hn, in_or_app. right. now left. }
      destruct (IH ((e, c) :: cf) (ms ++ [e]) HN) as (cf' & H1 & H2).
      + intros x Hx. cbn. destruct (Nat.eqb_spec e x) as [->|]; [contradiction|]. apply Hcf. now right.
      + exists cf'. split; [rewrite H1, <- app_assoc; reflexivity|].
        intros x. rewrite H2. change (mem x (e :: ex ++ [v])) with ((x =? e) || mem x (ex ++ [v])).
        cbn [lookup]. rewrite (Nat.eqb_sym e x). destruct (x =? e), (mem x (ex ++ [v])); reflexivity.
  Qed.

  Definition addE (E : nat -> nat -> Prop) v w : nat -> nat -> Prop := fun x y => E x y \/ (x = v /\ y = w).

  (* recording an arc that does not go below the top segment *)
  Lemma Inv_addE st T rest new G E v w : Inv st (T :: rest) new G E ->
    In v T -> arc v w -> visited st w -> ~ In w (concat rest) ->
    Inv st (T :: rest) new G (addE E v w).
  Proof.
    intros HI Hv Ha Hw Hn. destruct HI. constructor; auto.
    - intros x y [H|[-> ->]]; [auto|]. split; [exact Ha|]. split; [|exact Hw].
      apply inv_vis0, in_or_app. left. apply concat_cons_in. now left.
    - assert (~ In v (concat rest)) as Hvr.
      { cbn [concat] in inv_nd0. rewrite <- app_assoc in inv_nd0. apply NoDup_app_inv in inv_nd0 as (_ & _ & H).
        intros Hc. apply (H v Hv). apply in_or_app. now left. }
      inversion inv_Eup0 as [|? ? HF HO]; subst. constructor.
      + rewrite Forall_forall in HF |- *. intros lo Hlo x y Hx Hy [H|[-> ->]]; [exact (HF lo Hlo x y Hx Hy H)|].
        apply Hn. apply in_concat. eauto.
      + clear -HO Hvr. induction HO as [|up los HF HO IH]; constructor.
        * rewrite Forall_forall in HF |- *. intros lo Hlo x y Hx Hy [H|[-> ->]]; [exact (HF lo Hlo x y Hx Hy H)|].
          apply Hvr. apply concat_cons_in. now left.
        * apply IH. intros Hc. apply Hvr. apply concat_cons_in. now right.
    - intros x Hx Hg y Hy. left. auto.
  Qed.

  (* merging the top segments down to the one containing w *)
  Lemma Inv_merge st A seg B new G E v w :
    Inv st (A ++ seg :: B) new G E -> In v (hd [] (A ++ [seg])) -> In w seg -> arc v w ->
    Inv (mkSt (preorder st) (cluster_for st) (stS st) (map bottom (seg :: B)) (cnt st) (clusters st))
        ((concat A ++ seg) :: B) new G (addE E v w).
  Proof.
    intros HI Hv Hw Ha.
    assert (Hcc : concat (A ++ seg :: B) = concat ((concat A ++ seg) :: B)).
    { rewrite concat_app. cbn [concat]. now rewrite app_assoc. }
    assert (HvT : In v (concat A ++ seg)).
    { destruct A as [|a A]; cbn in Hv |- *; [exact Hv|]. apply in_or_app. left. apply in_or_app. now left. }
    assert (Hreach : forall x y, In x (concat A ++ seg) -> In y (concat A ++ seg) -> reach x y).
    { destruct HI. apply FOP_app_inv in inv_up0 as (HA & HB & HAB). apply Forall_app in inv_sc0 as [SA SB].
      inversion SB as [|? ? Sseg _]; subst.
      assert (forall y, In y (concat A ++ seg) -> reach w y) as H1.
      { intros y Hy. apply in_app_or in Hy as [Hy|Hy]; [|apply Sseg; auto].
        apply in_concat in Hy as (a & Ha' & Hy). apply (HAB a seg Ha' (or_introl eq_refl)); auto. }
      assert (forall x, In x (concat A ++ seg) -> reach x v) as H2.
      { intros x Hx. destruct A as [|a A]; cbn in Hv, Hx.
        - apply Sseg; auto.
        - inversion SA as [|? ? Sa _]; subst. inversion HA as [|? ? HaA _]; subst. rewrite Forall_forall in HaA.
          rewrite <- app_assoc in Hx. apply in_app_or in Hx as [Hx|Hx]; [apply Sa; auto|].
          apply in_app_or in Hx as [Hx|Hx].
          + apply in_concat in Hx as (b & Hb & Hx). apply (HaA b Hb); auto.
          + apply (HAB a seg (or_introl eq_refl) (or_introl eq_refl)); auto. }
      intros x y Hx Hy. apply (reach_trans g x v); [auto|]. apply (reach_trans g v w); [now apply reach_arc|auto]. }
    apply Inv_addE; [|exact HvT|exact Ha| |].
    2:{ cbn. unfold visited; cbn. apply (inv_vis _ _ _ _ _ HI), in_or_app. left. rewrite concat_app. apply in_or_app. right.
        apply concat_cons_in. now left. }
    2:{ intros Hc. pose proof (inv_nd _ _ _ _ _ HI) as HN. apply NoDup_app_inv in HN as (HN & _ & _).
        rewrite concat_app in HN. apply NoDup_app_inv in HN as (_ & HN & _). cbn [concat] in HN.
        apply NoDup_app_inv in HN as (_ & _ & HN). exact (HN w Hw Hc). }
    destruct HI. constructor; cbn [preorder cluster_for stS stP cnt clusters]; auto.
    - now rewrite inv_S0.
    - cbn [map]. f_equal. apply Forall_app in inv_ne0 as [_ Hne]. inversion Hne; subst. now rewrite bottom_app.
    - apply Forall_app in inv_ne0 as [_ Hne]. inversion Hne as [|? ? H1 H2]; subst. constructor; [|exact H2].
      intros Hc. apply app_eq_nil in Hc as [_ Hc]. contradiction.
    - rewrite <- Hcc. exact inv_nd0.
    - rewrite <- Hcc. exact inv_vis0.
    - rewrite <- Hcc. exact inv_sorted0.
    - apply Forall_app in inv_sc0 as [_ SB]. inversion SB; subst. constructor; auto.
    - apply FOP_app_inv in inv_up0 as (HA & HB & HAB). inversion HB as [|? ? HF HO]; subst. constructor; [|exact HO].
      rewrite Forall_forall in HF |- *. intros lo Hlo x y Hx Hy. apply in_app_or in Hx as [Hx|Hx].
      + apply in_concat in Hx as (a & Ha' & Hx). apply (HAB a lo Ha' (or_intror Hlo)); auto.
      + apply (HF lo Hlo); auto.
    - apply FOP_app_inv in inv_Eup0 as (HA & HB & HAB). inversion HB as [|? ? HF HO]; subst. constructor; [|exact HO].
      rewrite Forall_forall in HF |- *. intros lo Hlo x y Hx Hy. apply in_app_or in Hx as [Hx|Hx].
      + apply in_concat in Hx as (a & Ha' & Hx). apply (HAB a lo Ha' (or_intror Hlo)); auto.
      + apply (HF lo Hlo); auto.
    - rewrite <- Hcc. exact inv_G0.
  Qed.

  (* what a call rec_search(v) does *)
  Definition rec_post (v : nat) (st : sstate) (segs new : list (list nat)) (G : list nat) (E : nat -> nat -> Prop)
    (st' : sstate) : Prop :=
    exists segs' new' (E' : nat -> nat -> Prop),
      Inv st' segs' (new ++ new') G E' /\
      (forall x y, E x y -> E' x y) /\
      (forall x, visited st x -> visited st' x) /\
      visited st' v /\
      (In v (concat (new ++ new')) \/ In v (hd [] segs')) /\
      exists ex tops rest, segs = tops ++ rest /\
        segs' = match tops with [] => rest | _ => (ex ++ concat tops) :: rest end.

  Definition rec_pre (v : nat) (st : sstate) (segs : list (list nat)) : Prop :=
    In v (vertices g) /\ ~ visited st v /\ (forall x, In x (hd [] segs) -> reach x v).

  Definition rec_good (f : nat) (rec : nat -> sstate -> res sstate) : Prop :=
    forall v st segs new G E, Inv st segs new G E -> rec_pre v st segs -> unv st <= f ->
      exists st', rec v st = Ok st' /\ rec_post v st segs new G E st'.

  Lemma visit_succs_ok f rec v segs0 G : rec_good f rec -> forall ws st ex tops rest new E,
    Inv st ((ex ++ v :: concat tops) :: rest) new (v :: G) E ->
    segs0 = tops ++ rest ->
    (forall w, In w ws -> arc v w) ->
    (forall w, arc v w -> E v w \/ In w ws) ->
    In v (vertices g) ->
    unv st <= f ->
    exists st' ex' tops' rest' new' (E' : nat -> nat -> Prop),
      visit_succs rec ws st = Ok st' /\
      Inv st' ((ex' ++ v :: concat tops') :: rest') (new ++ new') (v :: G) E' /\
      segs0 = tops' ++ rest' /\
      (forall x y, E x y -> E' x y) /\
      (forall x, visited st x -> visited st' x) /\
      (forall w, arc v w -> E' v w).
  Proof.
    intros Hrec. induction ws as [|w ws IH]; intros st ex tops rest new E HI Hs Hws Hall Hvv Hu.
    - exists st, ex, tops, rest, [], E. rewrite app_nil_r. split; [reflexivity|]. split; [exact HI|].
      split; [exact Hs|]. split; [auto|]. split; [auto|]. intros w Hw. destruct (Hall w Hw) as [H|[]]. exact H.
    - assert (Haw : arc v w) by (apply Hws; now left).
      assert (HvT : In v (ex ++ v :: concat tops)) by (apply in_or_app; right; now left).
      cbn [visit_succs]. destruct (lookup (preorder st) w) as [pw|] eqn:Epw.
      + assert (visited st w) as Hvw by (unfold visited; congruence).
        destruct (mem w (stS st)) eqn:Em.
        * (* w is on S: merge *)
          apply mem_In in Em. rewrite (inv_S _ _ _ _ _ HI) in Em.
          apply in_concat in Em as (seg & Hseg & Hw). apply in_split in Hseg as (A & B & EAB).
          rewrite (pop_P_ok _ _ _ _ _ A seg B w HI EAB Hw). cbn [bind].
          pose proof HI as HI'. rewrite EAB in HI'.
          assert (In v (hd [] (A ++ [seg]))) as Hhd.
          { destruct A as [|a A]; cbn in EAB |- *; inversion EAB; subst; exact HvT. }
          apply (Inv_merge _ _ _ _ _ _ _ v w) in HI'; auto.
          assert (exists tops1 rest1, concat A ++ seg = ex ++ v :: concat tops1 /\ B = rest1 /\ segs0 = tops1 ++ rest1) as (tops1 & rest1 & E1 & E2 & E3).
          { destruct A as [|a A]; cbn in EAB; inversion EAB; subst.
            - exists tops, B. repeat split.
            - exists (tops ++ A ++ [seg]), B. cbn [concat]. rewrite <- !app_assoc. split; [|split; [reflexivity|]].
              + rewrite !concat_app. cbn [concat]. rewrite app_nil_r. cbn. reflexivity.
              + reflexivity. }
          rewrite E1, E2 in HI'. subst B.
          destruct (IH _ _ _ _ _ _ HI' E3) as (st' & ex' & tops' & rest' & new' & E' & R1 & R2 & R3 & R4 & R5 & R6).
          -- intros x Hx. apply Hws. now right.
          -- intros x Hx. destruct (Hall x Hx) as [H|[->|H]]; [left; now left|left; right; auto|now right].
          -- exact Hvv.
          -- exact Hu.
          -- exists st', ex', tops', rest', new', E'. split; [exact R1|]. split; [exact R2|]. split; [exact R3|].
             split; [intros x y Hxy; apply R4; now left|]. split; [exact R5|exact R6].
        * (* w already assigned *)
          apply mem_not_In in Em. rewrite (inv_S _ _ _ _ _ HI) in Em.
          pose proof HI as HI'. apply (Inv_addE _ _ _ _ _ _ v w) in HI'; auto.
          2:{ intros Hc. apply Em, concat_cons_in. now right. }
          destruct (IH _ _ _ _ _ _ HI' Hs) as (st' & ex' & tops' & rest' & new' & E' & R1 & R2 & R3 & R4 & R5 & R6).
          -- intros x Hx. apply Hws. now right.
          -- intros x Hx. destruct (Hall x Hx) as [H|[->|H]]; [left; now left|left; right; auto|now right].
          -- exact Hvv.
          -- exact Hu.
          -- exists st', ex', tops', rest', new', E'. split; [exact R1|]. split; [exact R2|]. split; [exact R3|].
             split; [intros x y Hxy; apply R4; now left|]. split; [exact R5|exact R6].
      + (* w unvisited: recurse *)
        assert (rec_pre w st ((ex ++ v :: concat tops) :: rest)) as Hpre.
        { split; [apply (Hclosed v w); auto|]. split; [unfold visited; congruence|]. cbn [hd]. intros x Hx.
          apply (reach_trans g x v); [|now apply reach_arc].
          pose proof (inv_sc _ _ _ _ _ HI) as HS. inversion HS as [|? ? HT _]; subst. apply HT; auto. }
        destruct (Hrec w st _ _ _ _ HI Hpre Hu) as (st1 & Hr & segs1 & new1 & E1 & HI1 & HE1 & Hv1 & Hw1 & Hwhere & ex2 & tops2 & rest2 & Q1 & Q2).
        rewrite Hr. cbn [bind].
        assert (exists ex1 tops1 rest1, segs1 = (ex1 ++ v :: concat tops1) :: rest1 /\ segs0 = tops1 ++ rest1) as (ex1 & tops1 & rest1 & Q3 & Q4).
        { destruct tops2 as [|t tops2]; cbn in Q1.
          - subst. exists ex, tops, rest. split; reflexivity.
          - inversion Q1 as [[Qa Qb]]; subst. exists (ex2 ++ ex), (tops ++ tops2), rest2. split.
            + cbn [concat]. f_equal. rewrite <- !app_assoc. cbn. rewrite concat_app. reflexivity.
            + now rewrite app_assoc. }
        rewrite Q3 in HI1, Hwhere. cbn [hd] in Hwhere.
        assert (HvT1 : In v (ex1 ++ v :: concat tops1)) by (apply in_or_app; right; now left).
        pose proof HI1 as HI2. apply (Inv_addE _ _ _ _ _ _ v w) in HI2; auto.
        2:{ intros Hc. pose proof (inv_nd _ _ _ _ _ HI1) as HN. cbn [concat] in HN. destruct Hwhere as [Hw|Hw].
            - apply NoDup_app_inv in HN as (_ & _ & HN). apply (HN w); [apply in_or_app; now right|exact Hw].
            - rewrite <- app_assoc in HN. apply NoDup_app_inv in HN as (_ & _ & HN).
              apply (HN w Hw). apply in_or_app. now left. }
        assert (unv st1 <= f) as Hu1. { pose proof (unv_mono _ _ Hv1). lia. }
        destruct (IH _ _ _ _ _ _ HI2 Q4) as (st' & ex' & tops' & rest' & new' & E' & R1 & R2 & R3 & R4 & R5 & R6).
        * intros x Hx. apply Hws. now right.
        * intros x Hx. destruct (Hall x Hx) as [H|[->|H]]; [left; left; now apply HE1|left; right; auto|now right].
        * exact Hvv.
        * exact Hu1.
        * exists st', ex', tops', rest', (new1 ++ new'), E'. rewrite app_assoc. split; [exact R1|]. split; [exact R2|].
          split; [exact R3|]. split; [intros x y Hxy; apply R4; left; now apply HE1|]. split; [auto|exact R6].
  Qed.

  (* closing off the top segment *)
  Lemma top_is_scc st T rest new v G E : Inv st (T :: rest) new (v :: G) E -> In v T ->
    incl G (concat rest) -> (forall w, arc v w -> E v w) ->
    (forall x y, In x T -> arc x y -> In y T \/ In y (concat new)) /\
    (forall x y, In x T -> (In y T <-> reach x y /\ reach y x)).
  Proof.
    intros HI Hv HG Hall.
    assert (Hnd : (forall x, In x T -> ~ In x (concat rest)) /\ (forall x, In x T -> ~ In x (concat new))).
    { pose proof (inv_nd _ _ _ _ _ HI) as HN. cbn [concat] in HN. rewrite <- app_assoc in HN.
      apply NoDup_app_inv in HN as (_ & _ & HN). split; intros x Hx Hc; apply (HN x Hx), in_or_app; auto. }
    destruct Hnd as [Hnr Hnn].
    assert (Hstep : forall x y, In x T -> arc x y -> In y T \/ In y (concat new)).
    { intros x y Hx Ha. assert (E x y) as HE.
      { destruct (Nat.eq_dec x v) as [->|Hne]; [auto|].
        apply (inv_fin _ _ _ _ _ HI); auto.
        - apply (inv_vis _ _ _ _ _ HI), in_or_app. left. apply concat_cons_in. now left.
        - intros [->|Hg]; [congruence|]. exact (Hnr x Hx (HG x Hg)). }
      destruct (inv_E _ _ _ _ _ HI x y HE) as (_ & _ & Hvy). apply (inv_vis _ _ _ _ _ HI) in Hvy.
      apply in_app_or in Hvy as [Hy|Hy]; [|now right]. apply concat_cons_in in Hy as [Hy|Hy]; [now left|].
      exfalso. pose proof (inv_Eup _ _ _ _ _ HI) as HU. inversion HU as [|? ? HF _]; subst. rewrite Forall_forall in HF.
      apply in_concat in Hy as (lo & Hlo & Hy). exact (HF lo Hlo x y Hx Hy HE). }
    assert (Hnewstep : forall x y, In x (concat new) -> arc x y -> In y (concat new)).
    { intros x y Hx Ha. apply in_concat in Hx as (ms & Hms & Hx). apply In_nth_error in Hms as [k Hk].
      destruct (inv_new _ _ _ _ _ HI k ms Hk) as [_ H]. destruct (H x Hx) as [_ H2].
      destruct (H2 y Ha) as (j & ms' & _ & Hj & Hy). apply in_concat. exists ms'. split; [eapply nth_error_In; eauto|exact Hy]. }
    assert (Hnewreach : forall x y, reach x y -> In x (concat new) -> In y (concat new)).
    { induction 1 as [x|x y z Ha Hr IH]; auto. intros Hx. apply IH. eapply Hnewstep; eauto. }
    assert (HTreach : forall x y, reach x y -> In x T -> In y T \/ In y (concat new)).
    { induction 1 as [x|x y z Ha Hr IH]; auto. intros Hx. destruct (Hstep x y Hx Ha) as [Hy|Hy]; [auto|].
      right. eapply Hnewreach; eauto. }
    split; [exact Hstep|]. intros x y Hx. split.
    - intros Hy. pose proof (inv_sc _ _ _ _ _ HI) as HS. inversion HS as [|? ? HT _]; subst. split; apply HT; auto.
    - intros [H1 H2]. destruct (HTreach x y H1 Hx) as [Hy|Hy]; [exact Hy|]. exfalso.
      exact (Hnn x Hx (Hnewreach y x H2 Hy)).
  Qed.

  Lemma finish_ok st segs0 new v G E ex tops rest :
    Inv st ((ex ++ v :: concat tops) :: rest) new (v :: G) E ->
    segs0 = tops ++ rest -> Forall (fun s => s <> []) segs0 -> incl G (concat segs0) -> (forall w, arc v w -> E v w) ->
    exists st' segs' new',
      finish_vertex v st = Ok st' /\ Inv st' segs' (new ++ new') G E /\
      (forall x, visited st' x <-> visited st x) /\
      (In v (concat (new ++ new')) \/ In v (hd [] segs')) /\
      segs' = match tops with [] => rest | _ => ((ex ++ [v]) ++ concat tops) :: rest end.
  Proof.
    intros HI Hs Hne0 HG Hall.
    assert (HvT : In v (ex ++ v :: concat tops)) by (apply in_or_app; right; now left).
    assert (Hfin' : forall x, visited st x -> ~ In x G -> forall y, arc x y -> E x y).
    { intros x Hx Hg y Hy. destruct (Nat.eq_dec x v) as [->|Hne]; [auto|].
      apply (inv_fin _ _ _ _ _ HI); auto. intros [->|H]; [congruence|contradiction]. }
    unfold finish_vertex. rewrite (inv_P _ _ _ _ _ HI). cbn [map].
    destruct tops as [|t tops].
    - cbn [concat app] in *. subst segs0.
      replace (bottom (ex ++ [v])) with v by (rewrite bottom_app by discriminate; reflexivity).
      rewrite Nat.eqb_refl.
      destruct (top_is_scc _ _ _ _ _ _ _ HI HvT HG Hall) as [Hstep Hscc].
      pose proof (inv_nd _ _ _ _ _ HI) as HN. cbn [concat] in HN. rewrite <- app_assoc in HN.
      destruct (NoDup_app_inv _ _ HN) as (HN1 & HN2 & HN3).
      assert (stS st = ex ++ v :: concat rest) as ES.
      { rewrite (inv_S _ _ _ _ _ HI). cbn [concat]. rewrite <- app_assoc. reflexivity. }
      assert (Hcfn : forall x, In x (ex ++ [v]) -> lookup (cluster_for st) x = None).
      { intros x Hx. destruct (lookup (cluster_for st) x) as [c|] eqn:Ec; [|reflexivity]. exfalso.
        apply (inv_cf _ _ _ _ _ HI) in Ec as (ms & k & Hk & Hxm & _).
        apply (HN3 x Hx), in_or_app. right. apply in_concat. exists ms. split; [eapply nth_error_In; eauto|exact Hxm]. }
      destruct (pop_S_ok v (length (clusters st)) (concat rest) ex (cluster_for st) [] HN1 Hcfn) as (cf' & Hp & Hcf').
      rewrite ES, Hp. cbn [bind fst snd app]. cbn [assert_ bind].
      eexists _, rest, [ex ++ [v]]. split; [reflexivity|].
      assert (Hperm : forall x, In x (concat rest ++ concat (new ++ [ex ++ [v]])) <-> In x (concat ((ex ++ [v]) :: rest) ++ concat new)).
      { intros x. rewrite concat_app. cbn [concat]. rewrite app_nil_r, !in_app_iff. tauto. }
      split; [|split; [intros x; reflexivity|split; [|reflexivity]]].
      + destruct HI. constructor; cbn [preorder cluster_for stS stP cnt clusters].
        * reflexivity.
        * reflexivity.
        * inversion inv_ne0; auto.
        * rewrite inv_cl0, map_app, <- app_assoc. reflexivity.
        * rewrite concat_app. cbn [concat]. rewrite app_nil_r.
          apply NoDup_app_inv in HN2 as (Ha & Hb & Hc).
          apply NoDup_app; [exact Ha| |].
          -- apply NoDup_app; auto. intros x Hx Hx2. apply (HN3 x Hx2), in_or_app. now right.
          -- intros x Hx Hx2. apply in_app_or in Hx2 as [Hx2|Hx2]; [exact (Hc x Hx Hx2)|].
             apply (HN3 x Hx2), in_or_app. now left.
        * intros x. rewrite Hperm. apply inv_vis0.
        * exact inv_sub0.
        * intros x c. rewrite Hcf'. destruct (mem x (ex ++ [v])) eqn:Em.
          -- apply mem_In in Em. split.
             ++ intros H. inversion H; subst. exists (ex ++ [v]), (length new). rewrite inv_cl0, app_length, map_length.
                split; [rewrite nth_error_app2, Nat.sub_diag by lia; reflexivity|]. split; [exact Em|lia].
             ++ intros (ms & k & Hk & Hx & ->). f_equal. rewrite inv_cl0, app_length, map_length.
                destruct (Nat.lt_ge_cases k (length new)) as [Hlt|Hge].
                ** rewrite nth_error_app1 in Hk by lia. exfalso. apply (HN3 x Em), in_or_app. right.
                   apply in_concat. exists ms. split; [eapply nth_error_In; eauto|exact Hx].
                ** assert (k < length (new ++ [ex ++ [v]])) by (apply nth_error_Some; congruence).
                   rewrite app_length in *. cbn in *. lia.
          -- apply mem_not_In in Em. rewrite inv_cf0. split; intros (ms & k & Hk & Hx & ->).
             ++ exists ms, k. split; [|auto]. rewrite nth_error_app1; [exact Hk|]. apply nth_error_Some. congruence.
             ++ exists ms, k. split; [|auto]. destruct (Nat.lt_ge_cases k (length new)) as [Hlt|Hge].
                ** now rewrite nth_error_app1 in Hk by lia.
                ** rewrite nth_error_app2 in Hk by lia. destruct (k - length new) as [|[|]]; cbn in Hk; try discriminate.
                   inversion Hk; subst. contradiction.
        * exact inv_lt0.
        * cbn [concat] in inv_sorted0. apply SS_app_inv in inv_sorted0 as (_ & H & _). exact H.
        * inversion inv_sc0; auto.
        * inversion inv_up0; auto.
        * exact inv_E0.
        * inversion inv_Eup0; auto.
        * exact Hfin'.
        * exact HG.
        * intros k ms Hk. destruct (Nat.lt_ge_cases k (length new)) as [Hlt|Hge].
          -- rewrite nth_error_app1 in Hk by lia. destruct (inv_new0 k ms Hk) as [H0 H]. split; [exact H0|].
             intros x Hx. destruct (H x Hx) as [H1 H2]. split; [exact H1|].
             intros y Hy. destruct (H2 y Hy) as (j & ms' & Hj & Hn & Hy'). exists j, ms'. split; [exact Hj|].
             split; [|exact Hy']. rewrite nth_error_app1 by lia. exact Hn.
          -- rewrite nth_error_app2 in Hk by lia. destruct (k - length new) as [|[|]] eqn:Ek; cbn in Hk; try discriminate.
             inversion Hk; subst ms. split; [now destruct ex|]. intros x Hx. split; [intros y; apply (Hscc x y Hx)|].
             intros y Hy. destruct (Hstep x y Hx Hy) as [Hy'|Hy'].
             ++ exists k, (ex ++ [v]). split; [lia|]. split; [|exact Hy']. rewrite nth_error_app2 by lia. now rewrite Ek.
             ++ apply in_concat in Hy' as (ms' & Hms & Hy'). apply In_nth_error in Hms as [j Hj].
                assert (j < length new) by (apply nth_error_Some; congruence).
                exists j, ms'. split; [lia|]. split; [|exact Hy']. rewrite nth_error_app1 by lia. exact Hj.
      + left. rewrite concat_app. apply in_or_app. right. cbn [concat]. rewrite app_nil_r. exact HvT.
    - assert (concat (t :: tops) <> []) as Hne.
      { subst segs0. cbn [app] in Hne0. inversion Hne0 as [|? ? Ht _]; subst. cbn. intros Hc.
        apply app_eq_nil in Hc as [Hc _]. contradiction. }
      assert (v =? bottom (ex ++ v :: concat (t :: tops)) = false) as ->.
      { apply Nat.eqb_neq. intros Hb.
        replace (ex ++ v :: concat (t :: tops)) with ((ex ++ [v]) ++ concat (t :: tops)) in Hb by (now rewrite <- app_assoc).
        rewrite bottom_app in Hb by exact Hne. pose proof (bottom_In _ Hne) as Hi. rewrite <- Hb in Hi.
        pose proof (inv_nd _ _ _ _ _ HI) as HN. apply NoDup_app_inv in HN as (HN & _ & _).
        remember (concat (t :: tops)) as L. cbn [concat] in HN.
        apply NoDup_app_inv in HN as (HN & _ & _). apply NoDup_app_inv in HN as (_ & HN & _).
        inversion HN; contradiction. }
      exists st, ((ex ++ v :: concat (t :: tops)) :: rest), []. rewrite app_nil_r. split; [reflexivity|].
      split; [|split; [intros x; reflexivity|split; [right; exact HvT|]]].
      + destruct HI. constructor; auto. intros x Hx. apply inv_G0. now right.
      + now rewrite <- app_assoc.
  Qed.

  Lemma rec_search_good : forall f, rec_good f (rec_search f g).
  Proof.
    induction f as [|f IH]; intros v st segs new G E HI (Hvv & Hnv & Hrv) Hu.
    - exfalso. assert (0 < unv st); [|lia]. unfold unv.
      assert (In v (filter (fun x => match lookup (preorder st) x with None => true | Some _ => false end) (vertices g))) as Hi.
      { apply filter_In. split; [exact Hvv|]. unfold visited in Hnv. destruct (lookup (preorder st) v); [exfalso; apply Hnv; discriminate|reflexivity]. }
      destruct (filter _ (vertices g)); [destruct Hi|cbn; lia].
    - cbn [rec_search]. assert (mem v (vertices g) = true) as -> by now apply mem_In.
      assert (lookup (preorder st) v = None) as Hlv.
      { unfold visited in Hnv. destruct (lookup (preorder st) v); [exfalso; apply Hnv; discriminate|reflexivity]. }
      rewrite Hlv. cbn [assert_ bind].
      set (st1 := mkSt _ _ _ _ _ _).
      assert (Hnin : ~ In v (concat segs ++ concat new)).
      { rewrite (inv_vis _ _ _ _ _ HI). exact Hnv. }
      assert (Hvis1 : forall x, visited st1 x <-> x = v \/ visited st x).
      { intros x. unfold visited, st1. cbn [preorder lookup]. destruct (Nat.eqb_spec v x) as [->|Hne].
        - split; [auto|discriminate].
        - split; [auto|]. intros [->|H]; [congruence|exact H]. }
      assert (Hu1 : unv st1 <= f).
      { assert (unv st1 < unv st); [|lia]. apply filter_lt with (v := v); auto.
        - intros x _. unfold st1. cbn [preorder lookup]. destruct (v =? x); [discriminate|auto].
        - unfold st1. cbn [preorder lookup]. now rewrite Nat.eqb_refl.
        - now rewrite Hlv. }
      assert (HI1 : Inv st1 ([v] :: segs) new (v :: G) E).
      { destruct HI. unfold st1. constructor; cbn [preorder cluster_for stS stP cnt clusters].
        - cbn. now rewrite inv_S0.
        - cbn. now rewrite inv_P0.
        - constructor; [discriminate|assumption].
        - assumption.
        - cbn. constructor; assumption.
        - intros x. fold st1. rewrite Hvis1, <- inv_vis0. cbn. split; intros [H|H]; auto.
        - intros x. fold st1. rewrite Hvis1. intros [->|H]; auto.
        - assumption.
        - intros x n. cbn [lookup]. destruct (v =? x); [intros H; inversion H; lia|].
          intros H. apply inv_lt0 in H. lia.
        - cbn [concat app]. assert (forall x y, In x (concat segs) -> In y (concat segs) ->
             pre_gt (preorder st) x y -> pre_gt ((v, cnt st) :: preorder st) x y) as Hext.
          { intros x y Hx Hy H a b. cbn [lookup].
            destruct (Nat.eqb_spec v x) as [->|]; [exfalso; apply Hnin, in_or_app; now left|].
            destruct (Nat.eqb_spec v y) as [->|]; [exfalso; apply Hnin, in_or_app; now left|]. apply H. }
          constructor.
          + clear -inv_sorted0 Hext. induction inv_sorted0 as [|h l HS IHS HF]; constructor.
            * apply IHS. intros x y Hx Hy. apply Hext; now right.
            * rewrite Forall_forall in HF |- *. intros y Hy. apply Hext; [now left|now right|auto].
          + apply Forall_forall. intros y Hy a b. cbn [lookup]. rewrite Nat.eqb_refl. intros Ha Hb.
            inversion Ha; subst. destruct (Nat.eqb_spec v y) as [->|]; [exfalso; apply Hnin, in_or_app; now left|].
            apply inv_lt0 in Hb. lia.
        - constructor; [|assumption]. intros x y [<-|[]] [<-|[]]. constructor.
        - constructor; [|assumption]. apply Forall_forall. intros lo Hlo x y [<-|[]] Hy.
          destruct segs as [|top segs]; [destruct Hlo|]. cbn [hd] in Hrv.
          destruct Hlo as [<-|Hlo]; [auto|].
          inversion inv_ne0 as [|? ? Hne _]; subst.
          inversion inv_up0 as [|? ? HF _]; subst. rewrite Forall_forall in HF.
          apply (reach_trans g y (bottom top)); [|apply Hrv; now apply bottom_In].
          apply (HF lo Hlo); [now apply bottom_In|exact Hy].
        - intros x y H. fold st1. rewrite !Hvis1. destruct (inv_E0 x y H) as (H1 & H2 & H3). auto.
        - constructor; [|assumption]. apply Forall_forall. intros lo Hlo x y [<-|[]] Hy HE.
          apply inv_E0 in HE as (_ & HE & _). contradiction.
        - intros x. fold st1. rewrite Hvis1. intros [->|Hx] Hg; [exfalso; apply Hg; now left|].
          apply inv_fin0; [exact Hx|]. intros Hc. apply Hg. now right.
        - intros x [<-|Hx]; [now left|]. right. apply inv_G0. exact Hx.
        - assumption. }
      destruct (visit_succs_ok f (rec_search f g) v segs G IH (arcs_from g v) st1 [] [] segs new E HI1 eq_refl) as
        (st2 & ex & tops & rest & new2 & E2 & R1 & R2 & R3 & R4 & R5 & R6); auto.
      rewrite R1. cbn [bind].
      destruct (finish_ok st2 segs (new ++ new2) v G E2 ex tops rest R2 R3 (inv_ne _ _ _ _ _ HI) (inv_G _ _ _ _ _ HI) R6) as
        (st3 & segs3 & new3 & F1 & F2 & F3 & F4 & F5).
      exists st3. split; [exact F1|]. rewrite <- app_assoc in F2, F4.
      exists segs3, (new2 ++ new3), E2. split; [exact F2|]. split; [exact R4|].
      split; [intros x Hx; apply F3, R5, Hvis1; auto|]. split; [apply F3, R5, Hvis1; auto|]. split; [exact F4|].
      exists (ex ++ [v]), tops, rest. split; [exact R3|exact F5].
  Qed.

  Lemma search_all_ok fuel : forall vs st new E, unv st <= fuel -> incl vs (vertices g) ->
    Inv st [] new [] E -> exists st' new' E', search_all fuel g vs st = Ok st' /\
      Inv st' [] (new ++ new') [] E' /\ (forall x, visited st x -> visited st' x) /\ (forall x, In x vs -> visited st' x).
  Proof.
    induction vs as [|v vs IH]; intros st new E Hu Hin HI; cbn [search_all].
    - exists st, [], E. rewrite app_nil_r. split; [reflexivity|]. split; [exact HI|]. split; [auto|intros x []].
    - destruct (lookup (preorder st) v) as [n|] eqn:Ev.
      + destruct (IH st new E Hu) as (st' & new' & E' & R1 & R2 & R3 & R4); auto; [intros x Hx; apply Hin; now right|].
        exists st', new', E'. split; [exact R1|]. split; [exact R2|]. split; [exact R3|].
        intros x [<-|Hx]; [apply R3; unfold visited; congruence|auto].
      + destruct (rec_search_good fuel v st [] new [] E HI) as (st1 & Hr & segs1 & new1 & E1 & HI1 & HE1 & Hv1 & Hw1 & _ & ex2 & tops2 & rest2 & Q1 & Q2); auto.
        { split; [apply Hin; now left|]. split; [unfold visited; congruence|intros x []]. }
        symmetry in Q1. apply app_eq_nil in Q1 as [-> ->]. subst segs1.
        rewrite Hr. cbn [bind].
        destruct (IH st1 (new ++ new1) E1) as (st' & new' & E' & R1 & R2 & R3 & R4); auto.
        * pose proof (unv_mono _ _ Hv1). lia.
        * intros x Hx; apply Hin; now right.
        * exists st', (new1 ++ new'), E'. rewrite app_assoc. split; [exact R1|]. split; [exact R2|]. split; [auto|].
          intros x [<-|Hx]; auto.
  Qed.

  Lemma find_scc_ok : exists st new,
    find_strongly_connected_components g gl = Ok st /\
    clusters st = gl ++ map cl_of new /\
    NoDup (concat new) /\ (forall x, In x (concat new) <-> In x (vertices g)) /\
    (forall x c, lookup (cluster_for st) x = Some c <->
      exists ms k, nth_error new k = Some ms /\ In x ms /\ c = length gl + k) /\
    new_ok new.
  Proof.
    unfold find_strongly_connected_components.
    set (st0 := mkSt [] [] [] [] 0 gl).
    assert (Inv st0 [] [] [] (fun _ _ => False)) as HI.
    { unfold st0. constructor; cbn; auto.
      - now rewrite app_nil_r.
      - constructor.
      - intros x. split; [intros []|intros H; unfold visited in H; cbn in H; congruence].
      - intros x H. unfold visited in H. cbn in H. congruence.
      - intros x c. split; [discriminate|]. intros (ms & k & H & _). destruct k; discriminate.
      - discriminate.
      - constructor.
      - constructor.
      - intros x y [].
      - constructor.
      - intros x [].
      - intros k ms H. destruct k; discriminate. }
    destruct (search_all_ok (S (length (vertices g))) (vertices g) st0 [] (fun _ _ => False)) as (st & new & E & R1 & R2 & R3 & R4) ; [|intros x Hx; exact Hx|exact HI|].
    - unfold unv, st0. cbn [preorder lookup]. 
      assert (forall l : list nat, length (filter (fun _ => true) l) = length l) as Hl
        by (intros l; induction l as [|x l IHl]; cbn; auto).
      rewrite Hl. lia.
    - exists st, new. cbn [app] in R2. destruct R2. split; [exact R1|]. split; [assumption|]. split; [assumption|].
      split; [|split; assumption]. intros x. split.
      + intros H. apply inv_sub0, inv_vis0. exact H.
      + intros H. apply R4 in H. apply inv_vis0 in H. exact H.
  Qed.
End Search.
