(* Sections by their paths, and what the checks of sections say about them. *)
From Coq Require Import Ascii String Sorted Lia List.
From Verif Require Import M_Base L_Base M_HTML M_Shared M_Records M_Refs L_Refs L_Style L_StyleIfs L_StyleDesc M_PropPath M_Order.
Open Scope list_scope.
Open Scope nat_scope.
Notation length := List.length.

(* the section at a path, below a list of sections of the same parent; and its parent *)
Inductive sec_at : option sec -> list sec -> list nat -> option sec -> sec -> Prop :=
| at_top par l i s : nth_error l i = Some s -> sec_at par l [i] par s
| at_below par l i s q par' s' : nth_error l i = Some s -> sec_at (Some s) (s_kids s) q par' s' -> sec_at par l (i :: q) par' s'.

Fixpoint sec_ind' (P : sec -> Prop) (f : forall k t a h l, Forall P l -> P (Sec k t a h l)) (s : sec) : P s :=
  match s with Sec k t a h l => f k t a h l ((fix go (l : list sec) : Forall P l := match l with [] => Forall_nil P | c :: l' => Forall_cons c (sec_ind' P f c) (go l') end) l) end.

Definition v_path (v : list nat * option sec * sec) : list nat := fst (fst v).
Definition shift (i : nat) (v : list nat * option sec * sec) := (i :: fst (fst v), snd (fst v), snd v).
Fixpoint below (par : option sec) (i : nat) (l : list sec) : list (list nat * option sec * sec) :=
  match l with [] => [] | c :: l' => map (shift i) (visits par c) ++ below par (S i) l' end.
Lemma visits_below par s : visits par s = ([], par, s) :: below (Some s) 0 (s_kids s).
Proof.
  destruct s as [k t a h l]. cbn [visits s_kids]. f_equal. generalize 0. generalize (Some (Sec k t a h l)). intros o. induction l as [|c l IH]; intros i; cbn [below]; [reflexivity|]. f_equal. apply IH.
Qed.
Lemma visits_all_below l : forall i, visits_all i l = below None i l.
Proof. induction l as [|c l IH]; intros i; cbn [below visits_all]; [reflexivity|]. f_equal. apply IH. Qed.

Lemma in_below par p par' s l : forall i, (forall c par p par' s, In c l -> (In (p, par', s) (visits par c) <-> p = [] /\ par' = par /\ s = c \/ sec_at (Some c) (s_kids c) p par' s)) ->
  (In (p, par', s) (below par i l) <-> exists j q, p = (i + j) :: q /\ sec_at par l (j :: q) par' s).
Proof.
  induction l as [|c l IH]; intros i F; cbn [below].
  - split; [intros []|]. intros (j & q & _ & A). inversion A as [? ? ? ? E|? ? ? ? ? ? ? E]; destruct j; discriminate.
  - rewrite in_app_iff, in_map_iff, (IH (S i)); [|intros; apply F; now right]. split.
    + intros [([[q' o] s'] & E & H)|(j & q & -> & A)].
      * unfold shift in E. cbn [fst snd] in E. injection E as <- -> ->. exists 0, q'. rewrite Nat.add_0_r. split; [reflexivity|]. apply F in H; [|now left]. destruct H as [(-> & -> & ->)|A]; [now constructor|]. eapply at_below; [reflexivity|exact A].
      * exists (S j), q. split; [f_equal; lia|]. inversion A as [? ? ? ? E|? ? ? ? ? ? ? E A']; subst; [now constructor|eapply at_below; [exact E|exact A']].
    + intros ([|j] & q & -> & A).
      * left. exists (q, par', s). unfold shift. cbn [fst snd]. rewrite Nat.add_0_r. split; [reflexivity|]. apply F; [now left|]. inversion A as [? ? ? ? E|? ? ? ? ? ? ? E A']; subst; cbn in E; [left; split; [reflexivity|split; congruence]|right]. now replace c with s0 by congruence.
      * right. exists j, q. split; [f_equal; lia|]. inversion A as [? ? ? ? E|? ? ? ? ? ? ? E A']; subst; [now constructor|eapply at_below; [exact E|exact A']].
Qed.
Lemma in_visits c : forall par p par' s, In (p, par', s) (visits par c) <-> p = [] /\ par' = par /\ s = c \/ sec_at (Some c) (s_kids c) p par' s.
Proof.
  induction c as [k t a h l IH] using sec_ind'. intros par p par' s. rewrite visits_below. cbn [In]. rewrite (in_below _ p par' s _ 0); [|intros c ? ? ? ? I; rewrite Forall_forall in IH; apply (IH c I)].
  split.
  - intros [E|(j & q & -> & A)]; [left; repeat split; congruence|right; exact A].
  - intros [(-> & -> & ->)|A]; [now left|]. right. destruct p as [|j q]; [inversion A|]. exists j, q. split; [reflexivity|exact A].
Qed.
(* the walk meets each section *)
Lemma walk_in tops p par s : In (p, par, s) (visits_all 0 tops) <-> sec_at None tops p par s.
Proof.
  rewrite visits_all_below, in_below; [|intros; apply in_visits]. split; [intros (j & q & -> & A); exact A|]. intros A. destruct p as [|j q]; [inversion A|]. exists j, q. auto.
Qed.
Lemma sorted_map_in {A B} (R : A -> A -> Prop) (R' : B -> B -> Prop) (f : A -> B) l : (forall a b, R a b -> R' (f a) (f b)) -> StronglySorted R l -> StronglySorted R' (map f l).
Proof. intros H S0. induction S0 as [|a l S0 IH F]; cbn [map]; constructor; auto. clear - H F. induction F; cbn [map]; constructor; auto. Qed.
Lemma below_sorted par l : forall i, (forall c par, In c l -> StronglySorted before (map v_path (visits par c))) ->
  StronglySorted before (map v_path (below par i l)) /\ forall v, In v (below par i l) -> exists j q, v_path v = j :: q /\ i <= j.
Proof.
  induction l as [|c l IH]; intros i F; cbn [below]; [split; [constructor|intros v []]|]. destruct (IH (S i)) as (S1 & L1); [intros; apply F; now right|]. split.
  - rewrite map_app. apply sorted_app; [|exact S1|].
    + rewrite map_map. replace (map (fun x => v_path (shift i x)) (visits par c)) with (map (cons i) (map v_path (visits par c))) by (rewrite map_map; reflexivity).
      apply sorted_map_in with (R := before); [intros; now apply bf_eq|]. apply F. now left.
    + intros a b A B. apply in_map_iff in A as (v & <- & A). apply in_map_iff in A as (v' & <- & A). apply in_map_iff in B as (w & <- & B). destruct (L1 w B) as (j & q & -> & L). unfold v_path, shift. cbn [fst]. constructor. lia.
  - intros v H. apply in_app_iff in H as [H|H]; [apply in_map_iff in H as (v' & <- & H); unfold v_path, shift; cbn [fst]; eauto|]. destruct (L1 v H) as (j & q & -> & L). exists j, q. split; [reflexivity|lia].
Qed.
Lemma visits_sorted c : forall par, StronglySorted before (map v_path (visits par c)).
Proof.
  induction c as [k t a h l IH] using sec_ind'. intros par. rewrite visits_below. cbn [map v_path fst s_kids]. destruct (below_sorted (Some (Sec k t a h l)) l 0) as (S1 & L1); [intros c par' I; rewrite Forall_forall in IH; now apply IH|].
  constructor; [exact S1|]. apply Forall_forall. intros q I. apply in_map_iff in I as (v & <- & I). destruct (L1 v I) as (j & q & -> & _). constructor.
Qed.
(* in reading order *)
Lemma walk_sorted tops : StronglySorted before (map v_path (visits_all 0 tops)).
Proof. rewrite visits_all_below. apply (below_sorted None tops 0). intros c par _. apply visits_sorted. Qed.
Lemma sec_at_fun par l p o s : sec_at par l p o s -> forall o' s', sec_at par l p o' s' -> o' = o /\ s' = s.
Proof.
  intros A. induction A as [par l i s E|par l i s q o s' E A IH]; intros o2 s2 A2; inversion A2 as [? ? ? ? E2|? ? ? ? ? ? ? E2 A2']; subst.
  - split; congruence. - inversion A2'. - inversion A. - replace s0 with s in * by congruence. now apply IH.
Qed.
(* what a section of the walk was preceded by *)
Lemma split_sorted {A B} (R : B -> B -> Prop) (f : A -> B) l1 x l2 y : (forall b, ~ R b b) -> (forall a b c, R a b -> R b c -> R a c) -> StronglySorted R (map f (l1 ++ x :: l2)) -> In y (l1 ++ x :: l2) -> R (f y) (f x) -> In y l1.
Proof.
  intros IR TR S0 I H. rewrite map_app in S0. apply in_app_iff in I as [I|[<-|I]]; [exact I|now apply IR in H|]. exfalso.
  assert (S1 : StronglySorted R (map f (x :: l2))). { clear - S0. induction l1 as [|a l1 IH]; [exact S0|]. cbn [map app] in S0. inversion S0; auto. }
  cbn [map] in S1. inversion S1 as [|? ? S2 F]; subst. rewrite Forall_forall in F. specialize (F (f y) (in_map f _ _ I)). exact (IR _ (TR _ _ _ H F)).
Qed.
Lemma sorted_before {A B} (R : B -> B -> Prop) (f : A -> B) l1 x l2 y : StronglySorted R (map f (l1 ++ x :: l2)) -> In y l1 -> R (f y) (f x).
Proof.
  intros S0 I. induction l1 as [|a l1 IH]; [destruct I|]. cbn [map app] in S0. inversion S0 as [|? ? S1 F]; subst. destruct I as [->|I]; [|auto].
  rewrite Forall_forall in F. apply F, in_map, in_app_iff. right. now left.
Qed.
(* the messages of a loop, also of one that ends with an error *)
Lemma munit_in {M B} (f : unit -> B -> outm M unit) l m : In m (fst (mfold f tt l)) <-> exists l1 x l2, l = l1 ++ x :: l2 /\ Forall (fun y => snd (f tt y) = Ok tt) l1 /\ In m (fst (f tt x)).
Proof.
  induction l as [|a l IH]; cbn [mfold].
  - split; [intros []|intros (l1 & x & l2 & E & _)]. destruct l1; discriminate.
  - unfold mbind. destruct (f tt a) as [ms [[]|e]] eqn:E; cbn [fst snd].
    + rewrite in_app_iff, IH. split.
      * intros [H|(l1 & x & l2 & -> & F & H)]; [exists [], a, l; rewrite E; auto|]. exists (a :: l1), x, l2. split; [reflexivity|]. split; [constructor; [now rewrite E|exact F]|exact H].
      * intros ([|a' l1] & x & l2 & E' & F & H); cbn [app] in E'.
        -- injection E' as <- <-. left. now rewrite E in H.
        -- injection E' as <- ->. right. exists l1, x, l2. inversion F; auto.
    + split; [intros H; exists [], a, l; rewrite E; auto|]. intros ([|a' l1] & x & l2 & E' & F & H); cbn [app] in E'.
      * injection E' as <- <-. now rewrite E in H.
      * injection E' as <- ->. inversion F as [|? ? X ?]; subst. rewrite E in X. discriminate.
Qed.
Lemma before_total : forall q q', q = q' \/ before q q' \/ before q' q.
Proof.
  induction q as [|i q IH]; intros [|j q']; [now left|right; left; constructor|right; right; constructor|]. destruct (Nat.lt_trichotomy i j) as [L|[->|L]]; [right; left; now constructor| |right; right; now constructor].
  destruct (IH q') as [->|[H|H]]; [now left|right; left; now apply bf_eq|right; right; now apply bf_eq].
Qed.
(* the messages of a loop are in order if those of each round are and the rounds are *)
Lemma mfold_sorted {M B} (f : unit -> B -> outm M unit) (R : M -> M -> Prop) l :
  (forall x, StronglySorted R (fst (f tt x))) -> StronglySorted (fun x y => forall a b, In a (fst (f tt x)) -> In b (fst (f tt y)) -> R a b) l -> StronglySorted R (fst (mfold f tt l)).
Proof.
  intros E S0. induction S0 as [|x l S0 IH F]; [constructor|]. cbn [mfold]. unfold mbind. destruct (snd (f tt x)) as [[]|e]; cbn [fst]; [|apply E]. apply sorted_app; [apply E|exact IH|].
  intros a b A B'. apply munit_in in B' as (l1 & y & l2 & -> & _ & B'). rewrite Forall_forall in F. refine (F y _ a b A B'). apply in_app_iff. right. now left.
Qed.
Lemma sorted_unmap {A B} (R : B -> B -> Prop) (f : A -> B) l : StronglySorted R (map f l) -> StronglySorted (fun a b => R (f a) (f b)) l.
Proof.
  induction l as [|a l IH]; cbn [map]; intros S0; constructor; inversion S0 as [|? ? S1 F]; subst; [now apply IH|]. apply Forall_forall. intros b I. rewrite Forall_forall in F. apply F, in_map, I.
Qed.
Lemma sorted_weaken {A} (R R' : A -> A -> Prop) l : (forall a b, R a b -> R' a b) -> StronglySorted R l -> StronglySorted R' l.
Proof. intros H S0. induction S0 as [|a l S0 IH F]; constructor; auto. eapply Forall_impl; [|exact F]. auto. Qed.
