(* union_of_types on list and record types too: the result has every value of the types. *)
From Verif Require Import M_Base L_Base M_Types L_Hier L_Types L_TypesUnion L_TypesFull.

(* ---- specification ---- *)
(* no record has two values for a field *)
Fixpoint proper (v : val) : Prop :=
  match v with
  | VAtom _ => True
  | VList vs => (fix all (vs : list val) : Prop := match vs with [] => True | x :: vs' => proper x /\ all vs' end) vs
  | VRec _ fs => NoDup (map fst fs) /\ (fix all (fs : list (nat * val)) : Prop := match fs with [] => True | (_, x) :: fs' => proper x /\ all fs' end) fs
  end.
(* nothing unknown in it, no bare List, and only names of the hierarchy *)
Fixpoint plain (h : hier) (t : ty) : Prop :=
  match t with
  | TBD => False
  | Hier a => In a (names h) /\ a <> 2
  | ListT e => plain h e
  | RecT _ fs => (fix all (fs : list (nat * ty)) : Prop := match fs with [] => True | (_, ft) :: fs' => plain h ft /\ all fs' end) fs
  | ProcT _ _ => True
  | UnionT ms => (fix all (ms : list ty) : Prop := match ms with [] => True | m :: ms' => plain h m /\ all ms' end) ms
  end.

(* ---- lemmas ---- *)
Lemma proper_list vs : proper (VList vs) <-> forall x, In x vs -> proper x.
Proof. cbn [proper]. induction vs as [|y vs IH]; [split; [intros _ x []|auto]|]. rewrite IH. split; [intros [A B] x [<-|I]; auto|]. intros H. split; [apply H; now left|]. intros x I. apply H. now right. Qed.
Lemma proper_rec s fs : proper (VRec s fs) <-> NoDup (map fst fs) /\ forall n x, In (n, x) fs -> proper x.
Proof.
  cbn [proper]. enough (E : (fix all (fs : list (nat * val)) : Prop := match fs with [] => True | (_, x) :: fs' => proper x /\ all fs' end) fs <-> forall n x, In (n, x) fs -> proper x) by (rewrite E; tauto).
  induction fs as [|[n x] fs IH]; [split; [intros _ n x []|auto]|]. rewrite IH. split; [intros [A B] m y [E|I]; [injection E as <- <-; auto|eauto]|]. intros H. split; [apply (H n x); now left|]. intros m y I. apply (H m y). now right.
Qed.
Lemma plain_union h ms : plain h (UnionT ms) <-> forall m, In m ms -> plain h m.
Proof. cbn [plain]. induction ms as [|m ms IH]; [split; [intros _ m []|auto]|]. rewrite IH. split; [intros [A B] x [<-|Hx]; auto|]. intros H. split; [apply H; now left|]. intros; apply H; now right. Qed.
Lemma plain_rec h s fs : plain h (RecT s fs) <-> forall n t, In (n, t) fs -> plain h t.
Proof. cbn [plain]. induction fs as [|[n t] fs IH]; [split; [intros _ n t []|auto]|]. rewrite IH. split; [intros [A B] n' t' [[= <- <-]|Hx]; eauto|]. intros H. split; [apply (H n t); now left|]. intros n' t' H'. apply (H n' t'). now right. Qed.
Lemma plain_set h t : plain h t -> forall m, In m (set_of_types t) -> plain h m.
Proof. destruct t; cbn [set_of_types]; try (intros H m [<-|[]]; exact H). apply plain_union. Qed.
Lemma ty_refl : forall t, ty_eqb t t = true.
Proof.
  apply ty_ind'.
  - reflexivity.
  - intros n. cbn. apply Nat.eqb_refl.
  - auto.
  - intros s fs F. cbn [ty_eqb]. rewrite Nat.eqb_refl. cbn [andb]. induction F as [|[n t] fs P F IH]; [reflexivity|]. rewrite Nat.eqb_refl, IH. cbn in P. now rewrite P.
  - intros ps r F R. cbn [ty_eqb]. rewrite R, andb_true_r. induction F as [|t ps P F IH]; [reflexivity|]. now rewrite P, IH.
  - intros ms F. cbn [ty_eqb]. rewrite Forall_forall in F. apply andb_true_iff. split; apply forallb_forall; intros x I; apply existsb_exists; exists x; auto.
Qed.

Section Cover.
  Variable h : hier.
  Variable sc : list (nat * option nat).
  Hypothesis W : wf h.
  Notation mem' := (mem h sc).
  Notation mem_set := (mem_set h sc).
  Notation mem_union := (mem_union h sc).
  Notation mem_rec := (mem_rec h sc).

  Lemma eqb_mem' : forall a b, ty_eqb a b = true -> forall v, mem' v a <-> mem' v b.
  Proof.
    apply (ty_ind' (fun a => forall b, ty_eqb a b = true -> forall v, mem' v a <-> mem' v b)).
    - intros [] H v; try discriminate. tauto.
    - intros n [] H v; try discriminate. cbn in H. apply Nat.eqb_eq in H. subst. tauto.
    - intros e IH [] H v; try discriminate. cbn in H. cbn [mem]. split; intros (vs & -> & A); exists vs; (split; [reflexivity|]); intros x Hx; apply (IH _ H); auto.
    - intros s fs IH b H v. destruct b; try discriminate. rename fields_info into fs', schema_name into s'. cbn [ty_eqb] in H.
      apply andb_true_iff in H as [E H]. apply Nat.eqb_eq in E. subst s'. rewrite !mem_rec.
      assert (F : Forall2 (fun e e' => fst e = fst e' /\ forall v, mem' v (snd e) <-> mem' v (snd e')) fs fs').
      { revert fs' H. induction IH as [|[n t] fs P Q IHF]; intros [|[n' t'] fs'] H; try discriminate; [constructor|].
        apply andb_true_iff in H as [H H3]. apply andb_true_iff in H as [H H2]. apply Nat.eqb_eq in H. subst n'. constructor; [|apply IHF; exact H3].
        split; [reflexivity|]. intros w. apply P. exact H2. }
      clear -F. split; intros (s' & vs & A & B & C); exists s', vs; (split; [exact A|]); (split; [exact B|]); clear -F C; induction F as [|[n t] [n' t'] fs fs' [E Q] F IH]; intros m u Hm; try contradiction; cbn in *.
      + destruct Hm as [[= <- <-]|Hm].
        * subst n'. destruct (C n t (or_introl eq_refl)) as (x & Hx & Hall). exists x. split; [exact Hx|]. intros y Hy. apply Q. auto.
        * apply IH; [|exact Hm]. intros n0 t0 H0. apply C. now right.
      + destruct Hm as [[= <- <-]|Hm].
        * subst n'. destruct (C n t' (or_introl eq_refl)) as (x & Hx & Hall). exists x. split; [exact Hx|]. intros y Hy. apply Q. auto.
        * apply IH; [|exact Hm]. intros n0 t0 H0. apply C. now right.
    - intros ps r _ _ b H v. destruct b; try discriminate. tauto.
    - intros ms IH b H v. destruct b; try discriminate. rename member_types into ms'. cbn [ty_eqb] in H. apply andb_true_iff in H as [A B].
      rewrite Forall_forall in IH. rewrite forallb_forall in A, B. rewrite !mem_union. split.
      + intros (m & Hm & Q). specialize (A m Hm). apply existsb_exists in A as (m' & Hm' & E). exists m'. split; [exact Hm'|]. now apply (IH m Hm m' E).
      + intros (m' & Hm' & Q). specialize (B m' Hm'). apply existsb_exists in B as (m & Hm & E). exists m. split; [exact Hm|]. now apply (IH m Hm m' E).
  Qed.
  Definition among (v : val) (l : list ty) : Prop := exists t, In t l /\ mem' v t.
  Lemma among_tset v l : among v l -> among v (tset l).
  Proof. intros (t & I & M). destruct (tset_cover l t (fun x _ => ty_refl x) I) as (z & IZ & E). exists z. split; [auto|]. now apply (eqb_mem' t z E). Qed.
  Lemma among_app v l l' : among v (l ++ l') <-> among v l \/ among v l'.
  Proof. unfold among. split; [intros (t & I & M); apply in_app_or in I as [I|I]; eauto|intros [(t & I & M)|(t & I & M)]; exists t; (split; [apply in_or_app; auto|auto])]. Qed.
  Lemma among_discard v x l : (forall y, ty_eqb x y = true -> ~ mem' v y) -> among v l -> among v (tdiscard x l).
  Proof. intros N (t & I & M). exists t. split; [|auto]. apply filter_In. split; [auto|]. destruct (ty_eqb x t) eqn:E; [destruct (N t E M)|reflexivity]. Qed.
  Lemma discard_T0 v l : among v l -> among v (tdiscard T_0 l).
  Proof. apply among_discard. intros y E M. destruct y; try discriminate. cbn [T_0 ty_eqb] in E. destruct member_types as [|m ms]; [destruct M|discriminate]. Qed.
  Lemma discard_TBD v l : (forall t, In t l -> plain h t) -> among v l -> among v (tdiscard TBD l).
  Proof. intros P (t & I & M). exists t. split; [|auto]. apply filter_In. split; [auto|]. specialize (P t I). destruct t; try reflexivity. destruct P. Qed.
  Lemma discard_in x l t : In t (tdiscard x l) -> In t l.
  Proof. intros I. now apply filter_In in I. Qed.

  Lemma hier_cover l l' : incl l (names h) -> NoDup l -> union_of_hier_memtypes h l = Ok l' -> forall x, In x l -> exists y, In y l' /\ anc h y x.
  Proof.
    intros Hl Hn E x Hx. destruct (uh_ok h W l Hl Hn) as (l2 & E2 & I2 & _ & _ & V & S1 & S2). rewrite E in E2. injection E2 as <-. destruct (Nat.le_gt_cases (length l) 1) as [L|L].
    - rewrite (S1 L). exists x. split; [auto|constructor].
    - apply (reduced_covers h W (fun a => In a l') (fun y => in_dec Nat.eq_dec y l') (S2 L) x (Hl x Hx)). intros v Hv A. apply (V v Hv). eauto.
  Qed.
  Lemma hier_names_nodup l : distinct l -> NoDup (hier_names l).
  Proof.
    unfold hier_names. induction l as [|t l IH]; cbn; intros D; [constructor|]. destruct D as [D1 D2]. specialize (IH D2). destruct t as [|n| | | |]; cbn; auto. destruct (n =? T_List); cbn; auto. constructor; [|auto].
    intros I. apply in_flat_map in I as (y & IY & J). destruct y as [|m| | | |]; try (destruct J; fail). destruct (m =? T_List); [destruct J|]. destruct J as [<-|[]]. specialize (D1 _ IY). cbn in D1. rewrite Nat.eqb_refl in D1. discriminate.
  Qed.

  Variable rec : list ty -> res ty.
  Hypothesis REC : forall types r, rec types = Ok r -> (forall t, In t types -> plain h t) -> forall v, proper v -> among v types -> mem' v r.

  Lemma list_cover lm r : (forall t, In t lm -> plain h t /\ is_list_memtype t = true) -> union_of_list_memtypes rec lm = Ok r -> forall v, proper v -> among v lm -> among v r.
  Proof.
    intros P H v PV A. unfold union_of_list_memtypes in H. destruct (length lm <=? 1); [injection H as <-; auto|].
    assert (ALL : forall t, In t lm -> exists e, t = ListT e). { intros t I. destruct (P t I) as [P1 P2]. destruct t; try discriminate; [|eauto]. cbn in P1, P2. apply Nat.eqb_eq in P2. destruct P1 as [_ P1]. contradiction. }
    assert (ED : tdiscard (Hier T_List) lm = lm). { apply forallb_filter_id, forallb_forall. intros t I. destruct (ALL t I) as (e & ->). reflexivity. }
    rewrite ED in H. destruct (length lm =? 1); [injection H as <-; auto|]. destruct (element_types lm) as [es|] eqn:EE; cbn [bind] in H; [|discriminate]. destruct (rec es) as [e|] eqn:R; cbn [bind] in H; [|discriminate]. injection H as <-.
    assert (EL : forall t, In t lm <-> exists x, In x es /\ t = ListT x).
    { clear -EE. revert es EE. induction lm as [|t lm IH]; intros es EE; cbn in EE; [injection EE as <-; intros t; split; [intros []|intros (x & [] & _)]|]. destruct t; try discriminate. destruct (element_types lm) as [es'|]; cbn [bind] in EE; [|discriminate]. injection EE as <-. specialize (IH es' eq_refl). intros u. cbn. rewrite IH. split.
      - intros [<-|(x & I & ->)]; eauto.
      - intros (x & [<-|I] & ->); eauto. }
    destruct A as (t & I & M). apply EL in I as (x & IX & ->). exists (ListT e). split; [now left|]. destruct M as (vs & -> & MV). exists vs. split; [auto|]. rewrite proper_list in PV. intros y IY. apply (REC es e R); [|auto|exists x; auto].
    intros z IZ. destruct (P (ListT z)) as [PZ _]; [apply EL; eauto|exact PZ].
  Qed.

  (* completion records by their [[Type]] *)
  Definition in_group (g : list (nat * list ty)) (n : nat) (t : ty) : Prop := exists ts, In (n, ts) g /\ In t ts.
  Lemma group_add_in k x g n t : in_group (group_add k x g) n t <-> in_group g n t \/ (n = k /\ t = x).
  Proof.
    unfold in_group. induction g as [|[k' xs] g IH]; cbn [group_add].
    - split; [intros (ts & [E|[]] & I); injection E as <- <-; destruct I as [<-|[]]; auto|]. intros [(ts & [] & _)|[-> ->]]. exists [x]. split; [now left|now left].
    - destruct (k =? k') eqn:E; [apply Nat.eqb_eq in E; subst k'|].
      + split.
        * intros (ts & [Q|I] & IT); [injection Q as <- <-; apply in_app_or in IT as [IT|[<-|[]]]; [left; exists xs; cbn; auto|auto]|]. left. exists ts. cbn. auto.
        * intros [(ts & [Q|I] & IT)|[-> ->]]; [injection Q as <- <-; exists (xs ++ [x]); split; [now left|apply in_or_app; auto]|exists ts; cbn; auto|exists (xs ++ [x]); split; [now left|apply in_or_app; right; now left]].
      + split.
        * intros (ts & [Q|I] & IT); [left; exists ts; split; [now left|auto]|]. destruct (proj1 IH (ex_intro _ ts (conj I IT))) as [(ts' & I' & IT')|Q]; [left; exists ts'; cbn; auto|auto].
        * intros [(ts & [Q|I] & IT)|Q]; [exists ts; split; [now left|auto]| |].
          -- destruct (proj2 IH (or_introl (ex_intro _ ts (conj I IT)))) as (ts' & I' & IT'). exists ts'. cbn. auto.
          -- destruct (proj2 IH (or_intror Q)) as (ts' & I' & IT'). exists ts'. cbn. auto.
  Qed.
  Lemma group_plain (P : nat -> ty -> Prop) g k x : (forall n t, in_group g n t -> P n t) -> P k x -> forall n t, in_group (group_add k x g) n t -> P n t.
  Proof. intros H PX n t I. apply group_add_in in I as [I|[-> ->]]; auto. Qed.
  Definition crec (s : nat) (t : ty) : Prop := exists fs, t = RecT s fs /\ plain h t.
  Definition cgood (s n : nat) (t : ty) : Prop := exists rest, t = RecT s ((0, Hier n) :: rest) /\ plain h t.
  Lemma cr_group_ok s : forall crs g brk cg, (forall t, In t crs -> crec s t) -> (forall n t, in_group g n t -> cgood s n t) -> cr_group crs g = Ok (brk, cg) ->
    match brk with
    | Some t => exists s', t = RecT s' [] /\ s' = s
    | None => (forall n t, in_group cg n t -> cgood s n t) /\ (forall n t, in_group g n t -> in_group cg n t) /\ forall v, proper v -> among v crs -> exists n t, in_group cg n t /\ mem' v t
    end.
  Proof.
    induction crs as [|t crs IH]; intros g brk cg C G H; cbn [cr_group] in H.
    - injection H as <- <-. split; [auto|]. split; [auto|]. intros v _ (t & [] & _).
    - destruct (C t (or_introl eq_refl)) as (fs & -> & PL). destruct fs as [|[fn ft] rest].
      + injection H as <- <-. eauto.
      + destruct (fn =? Type_field) eqn:EF; cbn [assert_ bind] in H; [|discriminate]. apply Nat.eqb_eq in EF. change Type_field with 0 in EF. subst fn. destruct ft as [|n| | | |ms]; try discriminate.
        * apply IH in H; [|intros x I; apply C; now right|apply group_plain; [exact G|exists rest; auto]]. destruct brk as [t|]; [exact H|]. destruct H as (H1 & H2 & H3). split; [auto|]. split; [intros m t I; apply H2, group_add_in; auto|].
          intros v PV (t & [<-|I] & M); [|apply H3; [auto|exists t; auto]]. exists n, (RecT s ((0, Hier n) :: rest)). split; [apply H2, group_add_in; auto|exact M].
        * match type of H with (do g' <- ?g1 ;; _) = _ => destruct g1 as [g'|] eqn:EG end; cbn [bind] in H; [|discriminate].
          rewrite plain_rec in PL.
          assert (GG : (forall n t, in_group g' n t -> cgood s n t) /\ (forall n t, in_group g n t -> in_group g' n t) /\ forall m, In m ms -> exists n, m = Hier n /\ in_group g' n (RecT s ((0, Hier n) :: rest))).
          { assert (PM : forall m, In m ms -> plain h m) by (apply plain_union, (PL 0 (UnionT ms)); now left). assert (PR : forall n t, In (n, t) rest -> plain h t) by (intros n t I; apply (PL n t); now right). clear -EG G PM PR. revert g G EG. induction ms as [|m ms IHm]; intros g G EG.
            - injection EG as <-. split; [auto|]. split; [auto|]. intros m [].
            - destruct m as [|n| | | |]; try discriminate. apply IHm in EG; [|intros m I; apply PM; now right|].
              + destruct EG as (A & B & D). split; [auto|]. split; [intros k t I; apply B, group_add_in; auto|]. intros m [<-|I]; [|auto]. exists n. split; [auto|]. apply B, group_add_in. right. split; reflexivity.
              + apply group_plain; [exact G|]. exists rest. split; [reflexivity|]. apply plain_rec. intros k t [E|I]; [injection E as <- <-; apply PM; now left|now apply (PR k)]. }
          destruct GG as (GA & GB & GC). apply IH in H; [|intros x I; apply C; now right|exact GA]. destruct brk as [t|]; [exact H|]. destruct H as (H1 & H2 & H3). split; [auto|]. split; [auto|].
          intros v PV (t & [<-|I] & M); [|apply H3; [auto|exists t; auto]]. apply mem_rec in M as (s' & vs & -> & B & F). destruct (F 0 (UnionT ms) (or_introl eq_refl)) as (x & IX & AX). pose proof (AX x IX) as MX. apply mem_union in MX as (m & IM & MM). destruct (GC m IM) as (n & -> & IG).
          exists n, (RecT s ((0, Hier n) :: rest)). split; [auto|]. apply mem_rec. exists s', vs. split; [auto|]. split; [auto|]. intros k t [E|I]; [injection E as <- <-|apply F; now right].
          exists x. split; [auto|]. intros y IY. apply proper_rec in PV as [ND _]. assert (y = x) as ->; [|exact MM]. clear -ND IX IY. induction vs as [|[k z] vs IHv]; [destruct IX|]. cbn in ND. inversion ND as [|? ? NI ND']; subst. destruct IX as [E1|I1], IY as [E2|I2].
          -- congruence.
          -- injection E1 as -> ->. destruct NI. apply in_map_iff. exists (0, y). auto.
          -- injection E2 as -> ->. destruct NI. apply in_map_iff. exists (0, x). auto.
          -- auto.
  Qed.
  Lemma cr_values_ok s n : forall crs acc r, (forall t, In t crs -> cgood s n t) -> (forall t, In t acc -> plain h t) -> cr_values crs acc = Ok r ->
    match r with
    | inl t => t = RecT s [(0, Hier n)]
    | inr vts => (forall t, In t vts -> plain h t) /\ incl acc vts /\ forall t, In t crs -> exists ft rest, t = RecT s ((0, Hier n) :: (1, ft) :: rest) /\ In ft vts
    end.
  Proof.
    induction crs as [|t crs IH]; intros acc r C A H; cbn [cr_values] in H.
    - injection H as <-. split; [auto|]. split; [apply incl_refl|]. intros t [].
    - destruct (C t (or_introl eq_refl)) as (rest & -> & PL). destruct rest as [|[fn ft] rest].
      + injection H as <-. reflexivity.
      + destruct (fn =? Value_field) eqn:EF; cbn [assert_ bind] in H; [|discriminate]. apply Nat.eqb_eq in EF. change Value_field with 1 in EF. subst fn. rewrite plain_rec in PL. apply IH in H; [|intros x I; apply C; now right|].
        * destruct r as [t|vts]; [exact H|]. destruct H as (H1 & H2 & H3). split; [auto|]. split; [intros y I; apply H2, in_or_app; auto|]. intros t [<-|I]; [|auto]. exists ft, rest. split; [auto|]. apply H2, in_or_app. right. now left.
        * intros y I. apply in_app_or in I as [I|[<-|[]]]; [auto|]. apply (PL 1 ft). right. now left.
  Qed.
  Lemma cr_result_ok s : forall cg r, (forall n t, in_group cg n t -> cgood s n t) -> cr_result rec s cg = Ok r -> forall v, proper v -> (exists n t, in_group cg n t /\ mem' v t) -> among v r.
  Proof.
    induction cg as [|[n crs] cg IH]; intros r C H v PV (k & t & IG & M); cbn [cr_result] in H; [destruct IG as (ts & [] & _)|].
    match type of H with bind ?a _ = _ => destruct a as [r1|] eqn:E1 end; cbn [bind] in H; [|discriminate]. destruct (cr_result rec s cg) as [r2|] eqn:E2; cbn [bind] in H; [|discriminate]. injection H as <-.
    apply among_app. destruct IG as (ts & [Q|I] & IT); [left|right; apply (IH r2); auto; [intros n' t' (ts' & I' & IT'); apply C; exists ts'; cbn; auto|exists k, t; split; [exists ts; auto|auto]]].
    injection Q as <- <-. destruct (length crs =? 1); [injection E1 as <-; exists t; auto|]. destruct (cr_values crs []) as [r0|] eqn:EV; cbn [bind] in E1; [|discriminate].
    assert (CG : forall t, In t crs -> cgood s n t) by (intros t' I'; apply C; exists crs; cbn; auto). apply (cr_values_ok s n) in EV; [|auto|intros t' []]. destruct r0 as [t0|vts].
    - injection E1 as <-. subst t0. exists (RecT s [(0, Hier n)]). split; [now left|]. destruct (CG t IT) as (rest & -> & _). apply mem_rec in M as (s' & vs & -> & B & F). apply mem_rec. exists s', vs. split; [auto|]. split; [auto|]. intros m u [E|[]]. apply F. now left.
    - destruct EV as (V1 & _ & V3). destruct (rec vts) as [u|] eqn:R; cbn [bind] in E1; [|discriminate]. injection E1 as <-. exists (RecT s [(0, Hier n); (1, u)]). split; [now left|]. destruct (V3 t IT) as (ft & rest & -> & IF). apply mem_rec in M as (s' & vs & -> & B & F). apply proper_rec in PV as [ND PV]. apply mem_rec. exists s', vs. split; [auto|]. split; [auto|].
      intros m w [E|[E|[]]]; injection E as <- <-; [apply F; now left|]. destruct (F 1 ft) as (x & IX & AX); [right; now left|]. exists x. split; [auto|]. intros y IY. apply (REC vts u R V1 y); [eapply PV; eauto|]. exists ft. auto.
  Qed.
  Lemma record_groups_ok : forall g r, (forall s t, in_group g s t -> crec s t) -> record_groups rec g = Ok r -> forall v, proper v -> (exists s t, in_group g s t /\ mem' v t) -> among v r.
  Proof.
    induction g as [|[s ms] g IH]; intros r C H v PV (k & t & IG & M); cbn [record_groups] in H; [destruct IG as (ts & [] & _)|].
    match type of H with bind ?a _ = _ => destruct a as [r1|] eqn:E1 end; cbn [bind] in H; [|discriminate]. destruct (record_groups rec g) as [r2|] eqn:E2; cbn [bind] in H; [|discriminate]. injection H as <-.
    apply among_app. destruct IG as (ts & [Q|I] & IT); [left|right; apply (IH r2); auto; [intros n' t' (ts' & I' & IT'); apply C; exists ts'; cbn; auto|exists k, t; split; [exists ts; auto|auto]]].
    injection Q as <- <-. destruct (length ms =? 1); [injection E1 as <-; exists t; auto|]. destruct (s =? anonymous_schema); [injection E1 as <-; exists t; auto|]. destruct (s =? Completion_Record_schema); [|discriminate].
    destruct (cr_group ms []) as [[brk cg]|] eqn:EC; cbn [bind] in E1; [|discriminate]. assert (CR : forall t, In t ms -> crec s t) by (intros t' I'; apply C; exists ms; cbn; auto). apply (cr_group_ok s) in EC; [|auto|intros n t' (ts' & [] & _)]. destruct brk as [b|].
    - injection E1 as <-. destruct EC as (s' & -> & ->). exists (RecT s []). split; [now left|]. destruct (CR t IT) as (fs & -> & _). apply mem_rec in M as (s' & vs & -> & B & F). apply mem_rec. exists s', vs. split; [auto|]. split; [auto|]. intros m u [].
    - destruct EC as (A1 & _ & A3). apply (cr_result_ok s cg r1); auto. apply A3; [auto|exists t; auto].
  Qed.
  Lemma record_cover rm r : (forall t, In t rm -> plain h t /\ is_record_memtype t = true) -> union_of_record_memtypes rec rm = Ok r -> forall v, proper v -> among v rm -> among v r.
  Proof.
    intros P H v PV (t & I & M). unfold union_of_record_memtypes in H. destruct (length rm <=? 1); [injection H as <-; exists t; auto|].
    assert (G : forall rm g, (forall t, In t rm -> plain h t /\ is_record_memtype t = true) -> (forall s t, in_group g s t -> crec s t) ->
      (forall s t, in_group (fold_left (fun g t => match t with RecT s _ => group_add s t g | _ => g end) rm g) s t -> crec s t) /\
      (forall s t, in_group g s t -> in_group (fold_left (fun g t => match t with RecT s _ => group_add s t g | _ => g end) rm g) s t) /\
      (forall t, In t rm -> exists s, in_group (fold_left (fun g t => match t with RecT s _ => group_add s t g | _ => g end) rm g) s t)).
    { clear. induction rm as [|t rm IH]; intros g P C; cbn [fold_left]; [split; [auto|split; [auto|intros t []]]|]. destruct (P t (or_introl eq_refl)) as [PT RT]. destruct t as [| | |s fs| |]; try discriminate.
      destruct (IH (group_add s (RecT s fs) g)) as (A & B & D); [intros t I; apply P; now right|apply (group_plain crec); [exact C|exists fs; auto]|]. split; [auto|]. split; [intros k t I; apply B, group_add_in; auto|]. intros t [<-|I]; [|auto]. exists s. apply B, group_add_in. auto. }
    destruct (G rm [] P) as (A & _ & D); [intros s t' (ts & [] & _)|]. destruct (D t I) as (s & IS). eapply record_groups_ok; eauto.
  Qed.
  Lemma rest_cover types1 r : (forall t, In t types1 -> plain h t) -> union_rest h rec types1 = Ok r -> forall v, proper v -> among v types1 -> mem' v r.
  Proof.
    intros P H v PV A. unfold union_rest in H. match type of H with (do _ <- assert_ ?b ;; _) = _ => destruct b eqn:NU; cbn [assert_ bind] in H; [|discriminate] end.
    set (mt := tdiscard TBD (tset (flat_map set_of_types types1))) in *. cbv zeta in H.
    assert (PM : forall t, In t mt -> plain h t). { intros t I. apply discard_in, tset_in, in_flat_map in I as (x & IX & IT). eapply plain_set; eauto. }
    assert (AM : among v mt). { destruct A as (t & I & M). apply discard_TBD; [intros y IY; apply tset_in, in_flat_map in IY as (x & IX & IT); eapply plain_set; eauto|]. apply among_tset. apply mem_set in M as (m & IM & MM). exists m. split; [apply in_flat_map; eauto|auto]. }
    assert (DM : distinct mt) by (apply distinct_filter, tset_distinct).
    destruct (0 <? length mt); cbn [assert_ bind] in H; [|discriminate].
    destruct (union_of_list_memtypes rec (filter is_list_memtype mt)) as [ls|] eqn:E1; cbn [bind] in H; [|discriminate]. destruct (union_of_record_memtypes rec (filter is_record_memtype mt)) as [rs|] eqn:E2; cbn [bind] in H; [|discriminate].
    destruct (union_of_proc_memtypes (filter is_proc_memtype mt)) as [ps|] eqn:E3; cbn [bind] in H; [|discriminate]. destruct (union_of_hier_memtypes h (hier_names mt)) as [hs|] eqn:E4; cbn [bind] in H; [|discriminate]. cbv zeta in H.
    assert (AR : among v (ls ++ rs ++ ps ++ map Hier hs)).
    { destruct AM as (t & I & M). pose proof (PM t I) as PT. destruct t as [|n|e|s fs|pp rr|ms].
      - destruct PT.
      - apply among_app. right. apply among_app. right. apply among_app. right. assert (IH' : In n (hier_names mt)). { unfold hier_names. apply in_flat_map. exists (Hier n). split; [auto|]. destruct PT as [_ PT]. change T_List with 2. apply Nat.eqb_neq in PT. rewrite PT. now left. }
        destruct (hier_cover (hier_names mt) hs) with (x := n) as (y & IY & AY); auto.
        + intros x IX. unfold hier_names in IX. apply in_flat_map in IX as (z & IZ & IX). specialize (PM z IZ). destruct z as [|m| | | |]; try (destruct IX; fail). destruct (m =? T_List); [destruct IX|]. destruct IX as [<-|[]]. apply PM.
        + now apply hier_names_nodup.
        + exists (Hier y). split; [now apply in_map|]. destruct M as [M1 M2]. split; [auto|]. eapply anc_trans; eauto.
      - apply among_app. left. apply (list_cover (filter is_list_memtype mt) ls); auto; [intros t IT; apply filter_In in IT as [IT1 IT2]; auto|]. exists (ListT e). split; [apply filter_In; auto|auto].
      - apply among_app. right. apply among_app. left. apply (record_cover (filter is_record_memtype mt) rs); auto; [intros t IT; apply filter_In in IT as [IT1 IT2]; auto|]. exists (RecT s fs). split; [apply filter_In; auto|auto].
      - destruct M.
      - exfalso. apply discard_in, tset_in, in_flat_map in I as (x & IX & IT). rewrite forallb_forall in NU. specialize (NU x IX). rewrite forallb_forall in NU. specialize (NU _ IT). discriminate. }
    match type of H with (do _ <- assert_ ?b ;; _) = _ => destruct b; cbn [assert_ bind] in H; [|discriminate] end.
    assert (AU : mem' v (UnionT (tset (ls ++ rs ++ ps ++ map Hier hs)))) by (apply mem_union, among_tset; auto).
    destruct (ls ++ rs ++ ps ++ map Hier hs) as [|t1 [|t2 l]]; [destruct AR as (? & [] & _)|injection H as <-; destruct AR as (t & [<-|[]] & M); auto|].
    match type of H with (do _ <- assert_ ?b ;; _) = _ => destruct b; cbn [assert_ bind] in H; [|discriminate] end. injection H as <-. exact AU.
  Qed.
End Cover.

Lemma single h sc v l t : among h sc v l -> l = [t] -> mem h sc v t.
Proof. intros (x & I & M) ->. destruct I as [<-|[]]. auto. Qed.
Lemma pick (l : list ty) (K : res ty) r : match l with [t] => Ok t | _ => K end = Ok r -> l = [r] \/ K = Ok r.
Proof. destruct l as [|t [|t' l]]; auto. intros H. injection H as <-. auto. Qed.
Lemma union_covers h sc : wf h -> forall fuel types r, union_of_types h fuel types = Ok r -> (forall t, In t types -> plain h t) -> forall v, proper v -> among h sc v types -> mem h sc v r.
Proof.
  intros W. induction fuel as [|f IH]; intros types r H P v PV A; [discriminate|]. cbn [union_of_types] in H. destruct types as [|t0 types]; [destruct A as (? & [] & _)|].
  assert (P1 : forall t, In t (tset (t0 :: types)) -> plain h t) by (intros t I; apply P, tset_in, I). apply among_tset in A. set (l1 := tset (t0 :: types)) in *. cbv zeta in H.
  assert (P2 : forall t, In t (tdiscard T_0 l1) -> plain h t) by (intros t I; apply P1; eapply discard_in; eauto). pose proof (discard_T0 h sc v l1 A) as A2.
  assert (P3 : forall t, In t (tdiscard TBD (tdiscard T_0 l1)) -> plain h t) by (intros t I; apply P2; eapply discard_in; eauto). pose proof (discard_TBD h sc v _ P2 A2) as A3.
  assert (K : union_rest h (union_of_types h f) (tdiscard TBD (tdiscard T_0 l1)) = Ok r -> mem h sc v r).
  { intros E. eapply rest_cover; eauto. }
  clearbody l1. destruct (pick _ _ _ H) as [E|H1]; [exact (single h sc v l1 r A E)|]. destruct (pick _ _ _ H1) as [E|H2]; [exact (single h sc v _ r A2 E)|]. destruct (pick _ _ _ H2) as [E|H3]; [exact (single h sc v _ r A3 E)|]. auto.
Qed.

(* ---- at most one list type ---- *)
Definition is_ListT (t : ty) : bool := match t with ListT _ => true | _ => false end.
Definition lists_in (t : ty) : list ty := filter is_ListT (set_of_types t).
Lemma filter_none {A} (f : A -> bool) l : (forall x, In x l -> f x = false) -> filter f l = [].
Proof. induction l as [|x l IH]; cbn; intros H; [reflexivity|]. rewrite (H x) by now left. apply IH. intros y I. apply H. now right. Qed.
Lemma filter_le {A} (f : A -> bool) l : length (filter f l) <= length l.
Proof. induction l as [|x l IH]; cbn; [lia|]. destruct (f x); cbn; lia. Qed.
Lemma tset_filter_le f l : length (filter f (tset l)) <= length (filter f l).
Proof.
  unfold tset. enough (H : forall l acc, length (filter f (fold_left (fun acc t => tadd t acc) l acc)) <= length (filter f acc) + length (filter f l)) by (specialize (H l []); exact H).
  clear l. induction l as [|t l IH]; intros acc; cbn [fold_left]; [cbn; lia|]. eapply Nat.le_trans; [apply IH|]. unfold tadd. destruct (tmem t acc); cbn [filter]; [destruct (f t); cbn; lia|]. rewrite filter_app, app_length. cbn [filter]. destruct (f t); cbn; lia.
Qed.
Lemma group_add_rec k x : forall g, (forall n ts t, In (n, ts) g -> In t ts -> is_record_memtype t = true) -> is_record_memtype x = true -> forall n ts t, In (n, ts) (group_add k x g) -> In t ts -> is_record_memtype t = true.
Proof.
  induction g as [|[k' xs] g IH]; intros G X n ts t I IT; cbn [group_add] in I.
  - destruct I as [E|[]]. injection E as <- <-. destruct IT as [<-|[]]. exact X.
  - destruct (k =? k').
    + destruct I as [E|I]; [injection E as <- <-; apply in_app_or in IT as [IT|[<-|[]]]; [eapply G; [now left|exact IT]|exact X]|eapply G; [right; exact I|exact IT]].
    + destruct I as [E|I]; [eapply G; [left; exact E|exact IT]|]. eapply IH; eauto. intros m us u J. apply (G m us u). now right.
Qed.
Lemma cr_group_rec : forall crs g brk cg, (forall n ts t, In (n, ts) g -> In t ts -> is_record_memtype t = true) -> cr_group crs g = Ok (brk, cg) ->
  (forall t, brk = Some t -> is_record_memtype t = true) /\ forall n ts t, In (n, ts) cg -> In t ts -> is_record_memtype t = true.
Proof.
  induction crs as [|t crs IH]; intros g brk cg G H; cbn [cr_group] in H; [injection H as <- <-; split; [discriminate|exact G]|]. destruct t as [| | |s fs| |]; try discriminate.
  destruct fs as [|[fn ft] rest]; [injection H as <- <-; split; [intros t E; injection E as <-; reflexivity|exact G]|]. destruct (fn =? Type_field); cbn [assert_ bind] in H; [|discriminate]. destruct ft as [|n| | | |ms]; try discriminate.
  - apply IH in H; [exact H|]. apply group_add_rec; [exact G|reflexivity].
  - match type of H with bind ?g1 _ = _ => destruct g1 as [g'|] eqn:EG end; cbn [bind] in H; [|discriminate]. apply IH in H; [exact H|]. clear -G EG. revert g G EG. induction ms as [|m ms IHm]; intros g G EG; [injection EG as <-; exact G|]. destruct m; try discriminate. eapply IHm; [|exact EG]. apply group_add_rec; [exact G|reflexivity].
Qed.
Lemma cr_values_rec : forall crs acc t, cr_values crs acc = Ok (inl t) -> is_record_memtype t = true.
Proof.
  induction crs as [|c crs IH]; intros acc t H; cbn [cr_values] in H; [discriminate|]. destruct c as [| | |s fs| |]; try discriminate. destruct fs as [|f [|[fn ft] rest]]; try discriminate.
  - injection H as <-. reflexivity.
  - destruct (fn =? Value_field); cbn [assert_ bind] in H; [eauto|discriminate].
Qed.
Lemma cr_result_rec rec s : forall cg r, (forall n ts t, In (n, ts) cg -> In t ts -> is_record_memtype t = true) -> cr_result rec s cg = Ok r -> forall t, In t r -> is_record_memtype t = true.
Proof.
  induction cg as [|[n crs] cg IH]; intros r G H t I; cbn [cr_result] in H; [injection H as <-; destruct I|].
  match type of H with bind ?a _ = _ => destruct a as [r1|] eqn:E1 end; cbn [bind] in H; [|discriminate]. destruct (cr_result rec s cg) as [r2|] eqn:E2; cbn [bind] in H; [|discriminate]. injection H as <-. apply in_app_or in I as [I|I].
  - destruct (length crs =? 1); [injection E1 as <-; eapply G; [now left|exact I]|]. destruct (cr_values crs []) as [[u|vts]|] eqn:EV; cbn [bind] in E1; [| |discriminate].
    + injection E1 as <-. destruct I as [<-|[]]. eapply cr_values_rec; eauto.
    + destruct (rec vts); cbn [bind] in E1; [|discriminate]. injection E1 as <-. destruct I as [<-|[]]. reflexivity.
  - apply (IH r2); auto. intros m us u J. apply (G m us u). now right.
Qed.
Lemma record_groups_rec rec : forall g r, (forall n ts t, In (n, ts) g -> In t ts -> is_record_memtype t = true) -> record_groups rec g = Ok r -> forall t, In t r -> is_record_memtype t = true.
Proof.
  induction g as [|[s ms] g IH]; intros r G H t I; cbn [record_groups] in H; [injection H as <-; destruct I|].
  match type of H with bind ?a _ = _ => destruct a as [r1|] eqn:E1 end; cbn [bind] in H; [|discriminate]. destruct (record_groups rec g) as [r2|] eqn:E2; cbn [bind] in H; [|discriminate]. injection H as <-. apply in_app_or in I as [I|I].
  - assert (GM : forall t, In t ms -> is_record_memtype t = true) by (intros u J; eapply G; [now left|exact J]). destruct (length ms =? 1); [injection E1 as <-; auto|]. destruct (s =? anonymous_schema); [injection E1 as <-; auto|]. destruct (s =? Completion_Record_schema); [|discriminate].
    destruct (cr_group ms []) as [[brk cg]|] eqn:EC; cbn [bind] in E1; [|discriminate]. apply cr_group_rec in EC as [C1 C2]; [|intros ? ? ? []]. destruct brk as [b|]; [injection E1 as <-; destruct I as [<-|[]]; auto|]. eapply cr_result_rec; eauto.
  - apply (IH r2); auto. intros m us u J. apply (G m us u). now right.
Qed.
Lemma list_one rec lm r : (forall t, In t lm -> is_list_memtype t = true) -> union_of_list_memtypes rec lm = Ok r -> length r <= 1 /\ forall t, In t r -> is_list_memtype t = true.
Proof.
  intros A. unfold union_of_list_memtypes. destruct (length lm <=? 1) eqn:E; [intros H; injection H as <-; apply Nat.leb_le in E; auto|]. cbv zeta. destruct (length (tdiscard (Hier T_List) lm) =? 1) eqn:E1; [intros H; injection H as <-; apply Nat.eqb_eq in E1; split; [lia|intros t I; apply A; eapply discard_in; eauto]|].
  destruct (element_types _) as [es|]; cbn [bind]; [|discriminate]. destruct (rec es); cbn [bind]; [|discriminate]. intros H. injection H as <-. split; [auto|]. intros t [<-|[]]. reflexivity.
Qed.
Lemma rest_one h rec l r : union_rest h rec l = Ok r -> length (lists_in r) <= 1.
Proof.
  unfold union_rest. intros H. match type of H with bind (assert_ ?b) _ = _ => destruct b eqn:NU; cbn [assert_ bind] in H; [|discriminate] end. cbv zeta in H. set (mt := tdiscard TBD (tset (flat_map set_of_types l))) in *. destruct (0 <? length mt); cbn [assert_ bind] in H; [|discriminate].
  destruct (union_of_list_memtypes rec (filter is_list_memtype mt)) as [ls|] eqn:E1; cbn [bind] in H; [|discriminate]. destruct (union_of_record_memtypes rec (filter is_record_memtype mt)) as [rs|] eqn:E2; cbn [bind] in H; [|discriminate].
  destruct (union_of_proc_memtypes (filter is_proc_memtype mt)) as [ps|] eqn:E3; cbn [bind] in H; [|discriminate]. destruct (union_of_hier_memtypes h (hier_names mt)) as [hs|] eqn:E4; cbn [bind] in H; [|discriminate].
  match type of H with bind (assert_ ?b) _ = _ => destruct b; cbn [assert_ bind] in H; [|discriminate] end.
  apply list_one in E1 as [L1 L2]; [|intros t I; now apply filter_In in I].
  assert (RR : forall t, In t rs -> is_record_memtype t = true).
  { intros t I. unfold union_of_record_memtypes in E2. destruct (length (filter is_record_memtype mt) <=? 1).
    - injection E2 as <-. now apply filter_In in I.
    - eapply record_groups_rec; [|exact E2|exact I]. assert (G : forall l g, (forall n ts t, In (n, ts) g -> In t ts -> is_record_memtype t = true) -> forall n ts t, In (n, ts) (fold_left (fun g t => match t with RecT s _ => group_add s t g | _ => g end) l g) -> In t ts -> is_record_memtype t = true).
      { clear. induction l as [|u l IH]; intros g G; cbn [fold_left]; [exact G|]. apply IH. destruct u; auto. apply group_add_rec; [exact G|reflexivity]. }
      apply G. intros ? ? ? []. }
  assert (PP : forall t, In t ps -> is_proc_memtype t = true) by (intros t I; unfold union_of_proc_memtypes in E3; destruct (_ <=? 1) in E3; [injection E3 as <-; now apply filter_In in I|discriminate]).
  assert (L : length (filter is_ListT (ls ++ rs ++ ps ++ map Hier hs)) <= 1).
  { rewrite filter_app, app_length. rewrite (filter_none is_ListT (rs ++ ps ++ map Hier hs)); [cbn; pose proof (filter_le is_ListT ls); lia|]. intros t I. apply in_app_or in I as [I|I]; [|apply in_app_or in I as [I|I]].
    - specialize (RR t I). destruct t; try discriminate; reflexivity.
    - specialize (PP t I). destruct t; try discriminate; reflexivity.
    - apply in_map_iff in I as (x & <- & _). reflexivity. }
  assert (U : forall t, In t (ls ++ rs ++ ps ++ map Hier hs) -> is_union t = false).
  { intros t I. apply in_app_or in I as [I|I]; [specialize (L2 t I); destruct t; try discriminate; reflexivity|]. apply in_app_or in I as [I|I]; [specialize (RR t I); destruct t; try discriminate; reflexivity|]. apply in_app_or in I as [I|I]; [specialize (PP t I); destruct t; try discriminate; reflexivity|]. apply in_map_iff in I as (x & <- & _). reflexivity. }
  destruct (ls ++ rs ++ ps ++ map Hier hs) as [|t1 [|t2 l']] eqn:ER.
  - cbn in H. injection H as <-. cbn. lia.
  - injection H as <-. specialize (U t1 (or_introl eq_refl)). destruct t1; try discriminate; cbn; lia.
  - match type of H with bind (assert_ ?b) _ = _ => destruct b; cbn [assert_ bind] in H; [|discriminate] end. injection H as <-. unfold lists_in. cbn [set_of_types]. eapply Nat.le_trans; [apply tset_filter_le|exact L].
Qed.
Lemma union_one h fuel types r : union_of_types h fuel types = Ok r -> (forall t, In t types -> length (lists_in t) <= 1) -> length (lists_in r) <= 1.
Proof.
  destruct fuel as [|f]; [discriminate|]. cbn [union_of_types]. intros H P. destruct types as [|t0 types]; [injection H as <-; cbn; lia|].
  assert (P1 : forall t, In t (tset (t0 :: types)) -> length (lists_in t) <= 1) by (intros t I; apply P, tset_in, I). set (l1 := tset (t0 :: types)) in *. cbv zeta in H. clearbody l1.
  destruct (pick _ _ _ H) as [E|H1]; [apply P1; rewrite E; now left|]. destruct (pick _ _ _ H1) as [E|H2]; [apply P1; eapply discard_in; rewrite E; now left|]. destruct (pick _ _ _ H2) as [E|H3]; [apply P1; eapply discard_in; eapply discard_in; rewrite E; now left|]. eapply rest_one; eauto.
Qed.
