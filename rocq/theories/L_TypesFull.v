(* The subtype test on all types but procedure types: specification and lemmas. *)
From Verif Require Import M_Base L_Base M_Types L_Hier L_Types.

(* ---------------- specification ---------------- *)

(* a value: an atom (a name of the hierarchy), a list, a record of a schema *)
Inductive val :=
| VAtom (name : nat)
| VList (elements : list val)
| VRec (schema : nat) (fields : list (nat * val)).

(* schema s is s' or below it *)
Inductive below (schemas : list (nat * option nat)) : nat -> nat -> Prop :=
| below_refl s : below schemas s s
| below_up s p s' : find (fun e => fst e =? s) schemas = Some (s, Some p) -> below schemas p s' -> below schemas s s'.

(* where in the hierarchy a value sits: a list under List (2), a record under Record (3) *)
Definition place (v : val) : nat := match v with VAtom n => n | VList _ => 2 | VRec _ _ => 3 end.

(* v is a value of the type t.  What a procedure is is left open. *)
Fixpoint mem (h : hier) (schemas : list (nat * option nat)) (v : val) (t : ty) {struct t} : Prop :=
  match t with
  | TBD => In (place v) (names h)
  | Hier a => In (place v) (names h) /\ anc h a (place v)
  | ListT e => exists vs, v = VList vs /\ forall x, In x vs -> mem h schemas x e
  | RecT s fs => exists s' vs, v = VRec s' vs /\ below schemas s' s /\
    (fix all (fs : list (nat * ty)) : Prop :=
       match fs with
       | [] => True
       | (n, ft) :: fs' => (exists x, In (n, x) vs /\ forall x, In (n, x) vs -> mem h schemas x ft) /\ all fs'
       end) fs
  | ProcT _ _ => False
  | UnionT ms =>
    (fix any (ms : list ty) : Prop :=
       match ms with
       | [] => False
       | m :: ms' => mem h schemas v m \/ any ms'
       end) ms
  end.

(* no procedure types in it *)
Fixpoint noproc (t : ty) : Prop :=
  match t with
  | TBD | Hier _ => True
  | ListT e => noproc e
  | RecT _ fs => (fix all (fs : list (nat * ty)) : Prop := match fs with [] => True | (_, ft) :: fs' => noproc ft /\ all fs' end) fs
  | ProcT _ _ => False
  | UnionT ms => (fix all (ms : list ty) : Prop := match ms with [] => True | m :: ms' => noproc m /\ all ms' end) ms
  end.
(* the fields of every record type have different names *)
Fixpoint fields_ok (t : ty) : Prop :=
  match t with
  | TBD | Hier _ => True
  | ListT e => fields_ok e
  | RecT _ fs => NoDup (map fst fs) /\
    (fix all (fs : list (nat * ty)) : Prop := match fs with [] => True | (_, ft) :: fs' => fields_ok ft /\ all fs' end) fs
  | ProcT _ _ => True
  | UnionT ms => (fix all (ms : list ty) : Prop := match ms with [] => True | m :: ms' => fields_ok m /\ all ms' end) ms
  end.

(* ---------------- lemmas ---------------- *)

Section TyInd.
  Variable P : ty -> Prop.
  Hypothesis H1 : P TBD.
  Hypothesis H2 : forall n, P (Hier n).
  Hypothesis H3 : forall e, P e -> P (ListT e).
  Hypothesis H4 : forall s fs, Forall (fun e => P (snd e)) fs -> P (RecT s fs).
  Hypothesis H5 : forall ps r, Forall P ps -> P r -> P (ProcT ps r).
  Hypothesis H6 : forall ms, Forall P ms -> P (UnionT ms).
  Fixpoint ty_ind' (t : ty) : P t :=
    match t with
    | TBD => H1
    | Hier n => H2 n
    | ListT e => H3 e (ty_ind' e)
    | RecT s fs => H4 s fs ((fix go (fs : list (nat * ty)) : Forall (fun e => P (snd e)) fs :=
        match fs with [] => Forall_nil _ | e :: fs' => Forall_cons e (ty_ind' (snd e)) (go fs') end) fs)
    | ProcT ps r => H5 ps r ((fix go (l : list ty) : Forall P l := match l with [] => Forall_nil _ | x :: l' => Forall_cons x (ty_ind' x) (go l') end) ps) (ty_ind' r)
    | UnionT ms => H6 ms ((fix go (l : list ty) : Forall P l := match l with [] => Forall_nil _ | x :: l' => Forall_cons x (ty_ind' x) (go l') end) ms)
    end.
End TyInd.

Section Full.
  Variable h : hier.
  Variable sc : list (nat * option nat).
  Hypothesis W : wf h.
  Hypothesis LN : In 2 (names h).
  Hypothesis RN : In 3 (names h).
  Notation mem' := (mem h sc).

  Lemma mem_union v ms : mem' v (UnionT ms) <-> exists m, In m ms /\ mem' v m.
  Proof.
    cbn [mem]. induction ms as [|m ms IH]; [split; [intros []|intros (m & [] & _)]|]. rewrite IH. split.
    - intros [H|(x & Hx & H)]; [exists m|exists x]; cbn; auto.
    - intros (x & [<-|Hx] & H); [now left|right; eauto].
  Qed.
  Lemma mem_rec v s fs : mem' v (RecT s fs) <-> exists s' vs, v = VRec s' vs /\ below sc s' s /\
    forall n t, In (n, t) fs -> (exists x, In (n, x) vs /\ forall x, In (n, x) vs -> mem' x t).
  Proof.
    cbn [mem].
    enough (E : forall (vs : list (nat * val)), 
      (fix all (fs : list (nat * ty)) : Prop := match fs with [] => True | (n, ft) :: fs' => (exists x, In (n, x) vs /\ forall x, In (n, x) vs -> mem' x ft) /\ all fs' end) fs
      <-> forall n t, In (n, t) fs -> (exists x, In (n, x) vs /\ forall x, In (n, x) vs -> mem' x t)).
    { split; intros (s' & vs & A & B & C); exists s', vs; (split; [exact A|]); (split; [exact B|]); now apply E. }
    intros vs. induction fs as [|[n t] fs IH]; [split; [intros _ n t []|auto]|]. rewrite IH. split.
    - intros [A B] n' t' [[= <- <-]|H]; [exact A|now apply B].
    - intros H. split; [apply H; now left|]. intros n' t' H'. apply H. now right.
  Qed.
  Lemma noproc_union ms : noproc (UnionT ms) <-> forall m, In m ms -> noproc m.
  Proof. cbn [noproc]. induction ms as [|m ms IH]; [split; [intros _ m []|auto]|]. rewrite IH. split; [intros [A B] x [<-|Hx]; auto|]. intros H. split; [apply H; now left|]. intros; apply H; now right. Qed.
  Lemma noproc_rec s fs : noproc (RecT s fs) <-> forall n t, In (n, t) fs -> noproc t.
  Proof. cbn [noproc]. induction fs as [|[n t] fs IH]; [split; [intros _ n t []|auto]|]. rewrite IH. split; [intros [A B] n' t' [[= <- <-]|Hx]; eauto|]. intros H. split; [apply (H n t); now left|]. intros n' t' H'. apply (H n' t'). now right. Qed.
  Lemma fok_union ms : fields_ok (UnionT ms) <-> forall m, In m ms -> fields_ok m.
  Proof. cbn [fields_ok]. induction ms as [|m ms IH]; [split; [intros _ m []|auto]|]. rewrite IH. split; [intros [A B] x [<-|Hx]; auto|]. intros H. split; [apply H; now left|]. intros; apply H; now right. Qed.
  Lemma fok_rec s fs : fields_ok (RecT s fs) <-> NoDup (map fst fs) /\ forall n t, In (n, t) fs -> fields_ok t.
  Proof.
    cbn [fields_ok]. enough (E : (fix all (fs : list (nat * ty)) : Prop := match fs with [] => True | (_, ft) :: fs' => fields_ok ft /\ all fs' end) fs <-> forall n t, In (n, t) fs -> fields_ok t) by (rewrite E; tauto).
    induction fs as [|[n t] fs IH]; [split; [intros _ n t []|auto]|]. rewrite IH. split; [intros [A B] n' t' [[= <- <-]|Hx]; eauto|]. intros H. split; [apply (H n t); now left|]. intros n' t' H'. apply (H n' t'). now right.
  Qed.

  (* equal types have the same values *)
  Lemma eqb_mem : forall a b, noproc a -> ty_eqb a b = true -> forall v, mem' v a <-> mem' v b.
  Proof.
    apply (ty_ind' (fun a => forall b, noproc a -> ty_eqb a b = true -> forall v, mem' v a <-> mem' v b)).
    - intros [] _ H v; try discriminate. tauto.
    - intros n [] _ H v; try discriminate. cbn in H. apply Nat.eqb_eq in H. subst. tauto.
    - intros e IH [] Hp H v; try discriminate. cbn in H, Hp. cbn [mem]. split; intros (vs & -> & A); exists vs; (split; [reflexivity|]); intros x Hx; apply (IH _ Hp H); auto.
    - intros s fs IH b Hp H v. destruct b; try discriminate. rename fields_info into fs', schema_name into s'. cbn [ty_eqb] in H.
      apply andb_true_iff in H as [E H]. apply Nat.eqb_eq in E. subst s'. rewrite noproc_rec in Hp. rewrite !mem_rec.
      assert (F : Forall2 (fun e e' => fst e = fst e' /\ forall v, mem' v (snd e) <-> mem' v (snd e')) fs fs').
      { revert fs' H. induction IH as [|[n t] fs P Q IHF]; intros [|[n' t'] fs'] H; try discriminate; [constructor|].
        apply andb_true_iff in H as [H H3]. apply andb_true_iff in H as [H H2]. apply Nat.eqb_eq in H. subst n'. constructor.
        - split; [reflexivity|]. intros w. apply P; [apply (Hp n t); now left|exact H2].
        - apply IHF; [|exact H3]. intros n' t'' Hn. apply (Hp n' t''). now right. }
      clear -F. split; intros (s' & vs & A & B & C); exists s', vs; (split; [exact A|]); (split; [exact B|]); clear -F C; induction F as [|[n t] [n' t'] fs fs' [E Q] F IH]; intros m u Hm; try contradiction; cbn in *.
      + destruct Hm as [[= <- <-]|Hm].
        * subst n'. destruct (C n t (or_introl eq_refl)) as (x & Hx & Hall). exists x. split; [exact Hx|]. intros y Hy. apply Q. auto.
        * apply IH; [|exact Hm]. intros n0 t0 H0. apply C. now right.
      + destruct Hm as [[= <- <-]|Hm].
        * subst n'. destruct (C n t' (or_introl eq_refl)) as (x & Hx & Hall). exists x. split; [exact Hx|]. intros y Hy. apply Q. auto.
        * apply IH; [|exact Hm]. intros n0 t0 H0. apply C. now right.
    - intros ps r _ _ b [].
    - intros ms IH b Hp H v. destruct b; try discriminate. rename member_types into ms'. cbn [ty_eqb] in H. apply andb_true_iff in H as [A B].
      rewrite noproc_union in Hp. rewrite Forall_forall in IH. rewrite forallb_forall in A, B. rewrite !mem_union. split.
      + intros (m & Hm & Q). specialize (A m Hm). apply existsb_exists in A as (m' & Hm' & E). exists m'. split; [exact Hm'|]. now apply (IH m Hm m' (Hp m Hm) E).
      + intros (m' & Hm' & Q). specialize (B m' Hm'). apply existsb_exists in B as (m & Hm & E). exists m. split; [exact Hm|]. now apply (IH m Hm m' (Hp m Hm) E).
  Qed.

  Lemma mem_place v : forall t, mem' v t -> In (place v) (names h).
  Proof.
    apply (ty_ind' (fun t => mem' v t -> In (place v) (names h))); auto.
    - intros n [A _]. exact A.
    - intros e _ (vs & -> & _). exact LN.
    - intros s fs _ H. apply mem_rec in H as (s' & vs & -> & _). exact RN.
    - intros ps r _ _ [].
    - intros ms IH H. apply mem_union in H as (m & Hm & Q). rewrite Forall_forall in IH. eauto.
  Qed.
  Lemma mem_top v t : mem' v t -> mem' v (Hier 0).
  Proof. intros H. apply mem_place in H. split; [exact H|]. now apply anc_root. Qed.
  Lemma mem_set v t : mem' v t <-> exists m, In m (set_of_types t) /\ mem' v m.
  Proof. destruct t; try (cbn [set_of_types]; split; [intros H; eexists; split; [now left|exact H]|intros (m & [<-|[]] & H); exact H]). apply mem_union. Qed.

  Lemma hsub_true a b : hsub h a b = Ok true -> a <> b -> anc h b a.
  Proof.
    intros H Hn. unfold hsub in H. destruct (tnode_for h a) as [ta|] eqn:Ea; [|discriminate]. cbn [bind] in H. destruct (tnode_for h b) as [tb|] eqn:Eb; [|discriminate].
    assert (Ia : In a (names h)). { apply (tnode_for_ok h a ta (wf_nodup h W)) in Ea as [A <-]. now apply (in_map tn_type). }
    assert (Ib : In b (names h)). { apply (tnode_for_ok h b tb (wf_nodup h W)) in Eb as [A <-]. now apply (in_map tn_type). }
    destruct (hsub_ok h W a b Ia Ib Hn) as (r & E & Hr). unfold hsub in E. rewrite Ea, Eb in E. cbn [bind] in E, H. rewrite H in E. injection E as <-. now apply Hr.
  Qed.
  Lemma hier_sub_true a b : In a (names h) -> hier_sub h a b = Ok true -> anc h b a.
  Proof.
    unfold hier_sub. intros Ha H. change T_Top_ with 0 in H. destruct (b =? 0) eqn:E0; [apply Nat.eqb_eq in E0; subst; now apply anc_root|].
    destruct (a =? b) eqn:E; [apply Nat.eqb_eq in E; subst; constructor|]. apply hsub_true; [exact H|]. now apply Nat.eqb_neq.
  Qed.

  Lemma supers_below : forall f s l s', self_and_supers sc f s = Ok l -> In s' l -> below sc s s'.
  Proof.
    induction f as [|f IH]; [discriminate|]. intros s l s' H Hin. cbn [self_and_supers] in H. destruct (find (fun e => fst e =? s) sc) as [[k [p|]]|] eqn:E; try discriminate.
    - destruct (self_and_supers sc f p) as [r|] eqn:Er; [|discriminate]. cbn [bind] in H. injection H as <-. destruct Hin as [<-|Hin]; [constructor|].
      apply below_up with p; [|eapply IH; eauto]. rewrite E. apply find_some in E as [_ E]. cbn in E. apply Nat.eqb_eq in E. now subst.
    - injection H as <-. destruct Hin as [<-|[]]. constructor.
  Qed.
  Lemma below_trans a b c : below sc a b -> below sc b c -> below sc a c.
  Proof. induction 1; intros; [assumption|]. eapply below_up; eauto. Qed.

  Lemma any_r_true {A} (f : A -> res bool) l : any_r f l = Ok true -> exists x, In x l /\ f x = Ok true.
  Proof.
    induction l as [|x l IH]; [discriminate|]. cbn [any_r]. destruct (f x) as [[]|] eqn:E; cbn [bind]; intros H; try discriminate; [exists x; cbn; auto|].
    destruct (IH H) as (y & Hy & Q). exists y. cbn. auto.
  Qed.
  Lemma all_r_true {A} (f : A -> res bool) l : all_r f l = Ok true -> forall x, In x l -> f x = Ok true.
  Proof.
    induction l as [|x l IH]; [intros _ x []|]. cbn [all_r]. destruct (f x) as [[]|] eqn:E; cbn [bind]; intros H y [<-|Hy]; try discriminate; auto.
  Qed.

  Definition inclv (a b : ty) : Prop := forall v, mem' v a -> mem' v b.

  Lemma tmem_incl m l : noproc m -> tmem m l = true -> exists b, In b l /\ inclv m b.
  Proof. intros Hp H. unfold tmem in H. apply existsb_exists in H as (b & Hb & E). exists b. split; [exact Hb|]. intros v Hv. now apply (eqb_mem m b Hp E). Qed.

  Lemma fok_set B m : fields_ok B -> In m (set_of_types B) -> fields_ok m.
  Proof. destruct B; cbn [set_of_types]; intros H Hm; try (destruct Hm as [<-|[]]; exact H). rewrite fok_union in H. auto. Qed.

  (* what the subtype test does on the members, given the claim for each *)
  Lemma sub_set_incl A B : noproc A -> fields_ok B ->
    (forall a, In a (set_of_types A) -> noproc a -> forall b, fields_ok b -> member_sub h sc a b = Ok true -> inclv a b) ->
    sub_with (member_sub h sc) A B = Ok true -> inclv A B.
  Proof.
    intros Hp Hf Hm H. unfold sub_with in H. destruct (ty_eqb B (Hier T_Top_)) eqn:Et.
    { destruct B; try discriminate. apply Nat.eqb_eq in Et. subst. intros v Hv. eapply mem_top; eauto. }
    assert (K : forall a, In a (set_of_types A) -> exists b, In b (set_of_types B) /\ inclv a b).
    { assert (Pa : forall a, In a (set_of_types A) -> noproc a).
      { destruct A; cbn [set_of_types]; try (intros a [<-|[]]; exact Hp). now apply noproc_union. }
      destruct A; try (intros a Ha; cbn [set_of_types] in *; destruct Ha as [<-|[]]; unfold sub_member in H;
        destruct (is_TBD _ || existsb is_TBD (set_of_types B)); [discriminate|]; destruct (tmem _ (set_of_types B)) eqn:Em;
        [now apply tmem_incl in Em|]; apply any_r_true in H as (b & Hb & H); exists b; split; [exact Hb|];
        apply (Hm _ (or_introl eq_refl) Hp b); [eapply fok_set; eauto|exact H]).
      cbn [set_of_types] in *. intros a Ha. unfold sub_members in H. destruct (existsb is_TBD member_types || existsb is_TBD (set_of_types B)); [discriminate|].
      destruct (tsubset member_types (set_of_types B)) eqn:Es.
      - unfold tsubset in Es. rewrite forallb_forall in Es. apply tmem_incl; auto.
      - pose proof (all_r_true _ _ H a Ha) as Q. cbn in Q. apply any_r_true in Q as (b & Hb & Q). exists b. split; [exact Hb|]. apply (Hm a Ha); auto. eapply fok_set; eauto. }
    intros v Hv. apply mem_set in Hv as (a & Ha & Hv). destruct (K a Ha) as (b & Hb & Q). apply mem_set. exists b. split; [exact Hb|]. now apply Q.
  Qed.

  Definition claim (A : ty) : Prop := noproc A -> forall B, fields_ok B -> member_sub h sc A B = Ok true -> inclv A B.
  Lemma claim_sub A B : claim A -> (forall ms, A = UnionT ms -> Forall claim ms) -> noproc A -> fields_ok B -> sub_with (member_sub h sc) A B = Ok true -> inclv A B.
  Proof.
    intros C U Hp Hf. apply sub_set_incl; auto. intros a Ha Hpa b Hb H.
    destruct A; cbn [set_of_types] in Ha; try (destruct Ha as [<-|[]]; now apply C).
    specialize (U _ eq_refl). rewrite Forall_forall in U. now apply (U a Ha).
  Qed.

  Lemma find_rev_last {B} (n : nat) (l : list (nat * B)) e : NoDup (map fst l) -> In (n, e) l -> find (fun x => fst x =? n) (rev l) = Some (n, e).
  Proof.
    intros Hnd Hin. destruct (find (fun x => fst x =? n) (rev l)) as [[m e']|] eqn:E.
    - apply find_some in E as [E1 E2]. cbn in E2. apply Nat.eqb_eq in E2. subst m. apply in_rev in E1. f_equal. f_equal.
      clear -Hnd E1 Hin. induction l as [|[k x] l IH]; [destruct Hin|]. inversion Hnd as [|? ? Hn Hnd']; subst.
      destruct E1 as [Q1|E1], Hin as [Q2|Hin]; [congruence| | |auto]; exfalso; apply Hn.
      + injection Q1 as -> ->. exact (in_map fst _ _ Hin).
      + injection Q2 as -> ->. exact (in_map fst _ _ E1).
    - assert (Q := find_none _ _ E (n, e) (proj1 (in_rev _ _) Hin)). cbn in Q. rewrite Nat.eqb_refl in Q. discriminate.
  Qed.

  Lemma member_sub_claim : forall A, claim A /\ forall ms, A = UnionT ms -> Forall claim ms.
  Proof.
    apply (ty_ind' (fun A => claim A /\ forall ms, A = UnionT ms -> Forall claim ms)).
    - split; [|discriminate]. intros _ B _ H. destruct B; discriminate.
    - intros n. split; [|discriminate]. intros _ B _ H v Hv. cbn [member_sub] in H. destruct B; try discriminate; cbn [ty_eqb] in H.
      destruct (n =? name) eqn:E; [apply Nat.eqb_eq in E; now subst|]. apply Nat.eqb_neq in E. apply hsub_true in H; [|exact E].
      destruct Hv as [A B]. split; [exact A|]. eapply anc_trans; eauto.
    - intros e [IH IHU]. split; [|discriminate]. intros Hp B Hf H v Hv. cbn [member_sub] in H. destruct B; try discriminate; cbn [ty_eqb] in H.
      + destruct Hv as (vs & -> & Hv). split; [exact LN|]. apply hier_sub_true; [exact LN|exact H].
      + cbn in Hp, Hf. destruct (ty_eqb e B) eqn:E.
        * destruct Hv as (vs & -> & Hv). exists vs. split; [reflexivity|]. intros x Hx. apply (eqb_mem e B Hp E). auto.
        * destruct Hv as (vs & -> & Hv). exists vs. split; [reflexivity|]. intros x Hx. apply (claim_sub e B IH IHU Hp Hf H). auto.
    - intros s fs IH. split; [|discriminate]. intros Hp B Hf H v Hv. destruct B; try discriminate.
      + cbn [member_sub ty_eqb] in H. apply mem_rec in Hv as (s' & vs & -> & _). split; [exact RN|]. apply hier_sub_true; [exact RN|exact H].
      + rename schema_name into s', fields_info into fs'. destruct (ty_eqb (RecT s fs) (RecT s' fs')) eqn:E; [now apply (eqb_mem _ _ Hp E)|].
        assert (H' := H). cbn [member_sub] in H'. rewrite E in H'. clear H E. rename H' into H. rewrite noproc_rec in Hp. rewrite fok_rec in Hf. destruct Hf as [Hnd Hf].
        assert (Sub : forall n t t', In (n, t) fs -> fields_ok t' -> sub_with (member_sub h sc) t t' = Ok true -> inclv t t').
        { intros n t t' Hin Hft Hs. rewrite Forall_forall in IH. destruct (IH (n, t) Hin) as [C U]. apply (claim_sub t t' C U); auto. now apply (Hp n t). }
        destruct ((s =? anonymous_schema) && (s' =? anonymous_schema)) eqn:Ea.
        * apply andb_true_iff in Ea as [Ea1 Ea2]. apply Nat.eqb_eq in Ea1, Ea2. subst s s'.
          destruct (forallb _ fs && forallb _ fs') eqn:En in H; [|discriminate]. apply andb_true_iff in En as [_ En]. rewrite forallb_forall in En.
          assert (Each : forall n t t', In (n, t) fs -> In (n, t') fs' -> inclv t t').
          { intros n t t' Hin Hin'. assert (Q : sub_with (member_sub h sc) t t' = Ok true).
            { clear -H Hin Hin' Hnd. induction fs as [|[m u] fs IHf]; [destruct Hin|]. destruct (find (fun e => fst e =? m) (rev fs')) as [[m' u']|] eqn:Ef; [|discriminate].
              destruct (sub_with (member_sub h sc) u u') as [[]|] eqn:Es; cbn [bind] in H; try discriminate. destruct Hin as [[= -> ->]|Hin]; [|auto].
              rewrite (find_rev_last n fs' t' Hnd Hin') in Ef. now injection Ef as <- <-. }
            apply (Sub n t t'); auto. apply (Hf n t'). exact Hin'. }
          apply mem_rec in Hv as (s' & vs & -> & Hb & Hv). apply mem_rec. exists s', vs. split; [reflexivity|]. split; [exact Hb|]. intros n t' Hin'.
          specialize (En (n, t') Hin'). apply existsb_exists in En as ([m t] & Hin & Q). cbn in Q. apply Nat.eqb_eq in Q. subst m.
          destruct (Hv n t Hin) as (x & Hx & Hall). exists x. split; [exact Hx|]. intros y Hy. apply (Each n t t' Hin Hin'). auto.
        * destruct ((s =? anonymous_schema) || (s' =? anonymous_schema)); [discriminate|]. destruct (find (fun e => fst e =? s') sc); [|discriminate]. cbn [bind] in H.
          destruct (self_and_supers sc (S (length sc)) s) as [sup|] eqn:Es; [|discriminate]. cbn [bind] in H.
          destruct (existsb (Nat.eqb s') sup) eqn:Ex; [|discriminate]. apply existsb_exists in Ex as (y & Hy & Q). apply Nat.eqb_eq in Q. subst y.
          apply (supers_below _ _ _ s' Es) in Hy. apply mem_rec in Hv as (s0 & vs & -> & Hb & Hv). apply mem_rec. exists s0, vs. split; [reflexivity|].
          split; [eapply below_trans; eauto|]. intros n t' Hin'. pose proof (all_r_true _ _ H (n, t') Hin') as Q. cbn [fst snd] in Q.
          assert (K : exists t, In (n, t) fs /\ sub_with (member_sub h sc) t t' = Ok true).
          { clear -Q. induction fs as [|[m u] fs IHf]; [discriminate|]. destruct (m =? n) eqn:E.
            - apply Nat.eqb_eq in E. subst m. exists u. split; [now left|exact Q].
            - destruct (IHf Q) as (t & A & B). exists t. split; [now right|exact B]. }
          destruct K as (t & Hin & K). destruct (Hv n t Hin) as (x & Hx & Hall). exists x. split; [exact Hx|]. intros y Hy'. apply (Sub n t t' Hin); auto. now apply (Hf n t').
    - intros ps r _ _. split; [|discriminate]. intros [].
    - intros ms IH. split.
      + intros Hp B Hf H. cbn [member_sub] in H. destruct B; try discriminate.
      + intros ms' [= <-]. apply Forall_forall. intros m Hm. rewrite Forall_forall in IH. now apply IH.
  Qed.

  Lemma sub_sound_full A B : noproc A -> fields_ok B -> is_a_subtype_of_or_equal_to h sc A B = Ok true -> inclv A B.
  Proof. intros Hp Hf. unfold is_a_subtype_of_or_equal_to. destruct (member_sub_claim A) as [C U]. now apply claim_sub. Qed.
End Full.
