(* Termination of the Earley parser when no place has infinitely many trees. *)
From Verif Require Import M_Base M_Earley L_Earley L_EarleyMain L_EarleyParse.

(* ---- finite predicates ---- *)
Definition finite {A} (P : A -> Prop) : Prop := exists l, forall x, P x -> In x l.
Lemma finite_sub {A} (P Q : A -> Prop) : (forall x, P x -> Q x) -> finite Q -> finite P.
Proof. intros H [l L]. exists l. auto. Qed.
Lemma finite_map {A B} (f : A -> B) (P : A -> Prop) : finite P -> finite (fun y => exists x, P x /\ y = f x).
Proof. intros [l L]. exists (map f l). intros y (x & H & ->). apply in_map. auto. Qed.
Lemma finite_in {A} (l : list A) : finite (fun x => In x l).
Proof. now exists l. Qed.
Lemma finite_or {A} (P Q : A -> Prop) : finite P -> finite Q -> finite (fun x => P x \/ Q x).
Proof. intros [l L] [m M]. exists (l ++ m). intros x [H|H]; apply in_or_app; auto. Qed.
Lemma finite_bind {A B} (P : A -> Prop) (Q : A -> B -> Prop) : finite P -> (forall a, finite (Q a)) -> finite (fun b => exists a, P a /\ Q a b).
Proof.
  intros [l L] F. assert (H : exists m, forall b, (exists a, In a l /\ Q a b) -> In b m).
  { clear L. induction l as [|a l [m IH]]; [exists []; intros b (a & [] & _)|]. destruct (F a) as [m' M']. exists (m' ++ m).
    intros b (x & [<-|I] & H); apply in_or_app; [left; auto|right; apply IH; eauto]. }
  destruct H as [m M]. exists m. intros b (a & PA & QB). apply M. eauto.
Qed.
Lemma finite_le n : finite (fun i => i <= n).
Proof. exists (seq 0 (S n)). intros i L. apply in_seq. lia. Qed.

Section Universe.
  Variable prods : list prod.
  Variable tok : nat -> nat -> nat -> Prop.
  Variable chk : nat -> option tree -> nat -> Prop.
  Variable sp : prod.
  Hypothesis Htok : forall k t, finite (fun l => tok k t l).
  Hypothesis Hder : forall i a j, finite (fun t => der prods tok chk i a t j).
  Lemma finite_pders o rs : forall k, finite (fun tr => pders prods tok chk o rs tr k).
  Proof.
    induction rs as [|[a|t|c] rs IH]; intros k.
    - exists [[]]. intros tr H. inversion H. now left.
    - apply finite_sub with (Q := fun tr => exists i, i <= k /\ (exists t, der prods tok chk i a t k /\ (exists tr', pders prods tok chk o rs tr' i /\ tr = Some t :: tr'))).
      + intros tr H. inversion H; subst. match goal with D : der _ _ _ ?i _ ?t _ |- _ => exists i; split; [exact (proj1 (der_le _ _ _) _ _ _ _ D)|exists t; split; [auto|eexists; split; [eassumption|reflexivity]]] end.
      + apply finite_bind; [apply finite_le|]. intros i. apply finite_bind; [apply Hder|]. intros t. apply finite_map. apply IH.
    - apply finite_sub with (Q := fun tr => exists i, i <= k /\ (exists l, tok i t l /\ (exists tr', pders prods tok chk o rs tr' i /\ tr = Some (Leaf t l) :: tr'))).
      + intros tr H. inversion H; subst. match goal with D : tok ?i _ ?l |- _ => exists i; split; [lia|exists l; split; [auto|eexists; split; [eassumption|reflexivity]]] end.
      + apply finite_bind; [apply finite_le|]. intros i. apply finite_bind; [apply Htok|]. intros l. apply finite_map. apply IH.
    - apply finite_sub with (Q := fun tr => exists tr', pders prods tok chk o rs tr' k /\ tr = None :: tr'); [|apply finite_map; apply IH].
      intros tr H. inversion H; subst. eauto.
  Qed.
  Lemma finite_valid k : exists U, forall sets x, valid prods tok chk sp sets k x -> In x U.
  Proof.
    assert (F : finite (fun x => exists p, In p (sp :: prods) /\ (exists oo, In oo (None :: map Some (seq 0 (S k))) /\
      (exists m, m <= length (rhs p) /\ (exists tr, pders prods tok chk match oo with Some o => o | None => 0 end (rev (firstn m (rhs p))) tr k /\ x = mkItem oo p tr))))).
    { apply finite_bind; [apply finite_in|]. intros p. apply finite_bind; [apply finite_in|]. intros oo. apply finite_bind; [apply finite_le|]. intros m. apply finite_map. apply finite_pders. }
    destruct F as [U HU]. exists U. intros sets x V. apply HU. unfold valid in V. exists (pr x).
    assert (D : forall o, partial prods tok chk k o x -> exists m, m <= length (rhs (pr x)) /\ pders prods tok chk o (rev (firstn m (rhs (pr x)))) (trans x) k).
    { intros o (dn & rest & E & P). exists (length dn). rewrite E. rewrite app_length, rev_length. split; [lia|].
      replace (length dn) with (length (rev dn)) by apply rev_length. rewrite firstn_app, Nat.sub_diag, firstn_all, app_nil_r, rev_involutive. exact P. }
    destruct (origin x) as [o|] eqn:O.
    - destruct V as (IP & P & _). split; [now right|]. exists (Some o). split.
      + right. apply in_map. apply in_seq. apply partial_le in P. lia.
      + destruct (D o P) as (m & L & Q). exists m. split; [auto|]. exists (trans x). split; [auto|]. destruct x; cbn in *; subst; reflexivity.
    - destruct V as (E & P). split; [now left|]. exists None. split; [now left|]. destruct (D 0 P) as (m & L & Q). exists m. split; [auto|]. exists (trans x). split; [auto|]. destruct x; cbn in *; subst; reflexivity.
  Qed.
End Universe.

Section Close.
  Variable prods : list prod.
  Context {place : Type}.
  Variable check : option tree -> place -> nat -> res bool.
  Variable before : list (list item).
  Variable pos : place.
  Variable tok : nat -> nat -> nat -> Prop.
  Variable chk : nat -> option tree -> nat -> Prop.
  Variable sp : prod.
  Hypothesis Hbefore : forall o old x, nth_error before o = Some old -> In x old -> valid prods tok chk sp before o x.
  Hypothesis Hchk : forall prev c, check prev pos c = Ok true -> chk (cur before) prev c.
  Hypothesis Hcheck : forall prev c, check prev pos c <> Err OutOfFuel.
  Variable U : list item.
  Hypothesis HU : forall sets x, valid prods tok chk sp sets (cur before) x -> In x U.
  Notation run := (run prods check before pos).
  Notation step := (step prods check before pos).
  Notation inv := (inv prods before tok chk sp).
  Notation ready := (ready prods before tok chk sp).

  Lemma run_nodup n : forall t s s', NoDup (items s) -> run n t s = Ok s' -> NoDup (items s').
  Proof.
    induction n as [|n IH]; intros t s s' ND H; [discriminate|]. cbn [M_Earley.run] in H.
    assert (B : forall t1 t2 s s', NoDup (items s) -> (do s' <- run n t1 s ;; run n t2 s') = Ok s' -> NoDup (items s')).
    { clear -IH. intros t1 t2 s s' ND H. destruct (run n t1 s) as [s1|] eqn:E; [|discriminate]. eapply IH; [|exact H]. eapply IH; eauto. }
    destruct t as [i|is|i a k|a nd k]; cbn [M_Earley.step] in H.
    - destruct (existsb (item_eqb i) (items s)) eqn:EX; [injection H as <-; auto|]. apply has_no_item in EX.
      assert (ND1 : NoDup (items s ++ [i])).
      { apply NoDup_Add with (a := i) (l := items s); [|auto]. pose proof (Add_app i (items s) []) as X. rewrite app_nil_r in X. exact X. }
      destruct (after i) as [[a|t|c]|].
      + destruct (prods_of prods a); [destruct (run n (Nulls i a 0) _); discriminate|]. eapply B; [|exact H]. exact ND1.
      + injection H as <-. exact ND1.
      + destruct (check _ _ _) as [[|]|]; [eapply IH; [|exact H]; exact ND1|injection H as <-; exact ND1|discriminate].
      + destruct (origin i); [|discriminate]. destruct (_ =? _).
        * destruct (assert_ _); [|discriminate]. eapply IH; [|exact H]. exact ND1.
        * destruct (nth_error _ _); [|discriminate]. destruct (assert_ _); [|discriminate]. eapply IH; [|exact H]. exact ND1.
    - destruct is as [|i is]; [injection H as <-; auto|]. eapply B; [|exact H]. auto.
    - destruct (nth_error _ _) as [[b nd]|]; [|injection H as <-; auto]. destruct (b =? a); [eapply B; [|exact H]; auto|]. eapply IH; [|exact H]. auto.
    - destruct (nth_error _ _); [|injection H as <-; auto]. eapply B; [|exact H]. auto.
  Qed.

  Definition settles (f : nat -> res eset) : Prop := exists N r, r <> Err OutOfFuel /\ forall n, N <= n -> f n = r.
  Definition halts (t : task) (s : eset) : Prop := settles (fun n => run n t s).
  Lemma settles_now r : r <> Err OutOfFuel -> settles (fun _ => r).
  Proof. intros H. exists 0, r. auto. Qed.
  Lemma halts_step t s : settles (fun n => step (run n) t s) -> halts t s.
  Proof. intros (N & r & NE & H). exists (S N), r. split; [auto|]. intros [|n] L; [lia|]. cbn. apply H. lia. Qed.
  Lemma settles_bind t1 s (g : eset -> nat -> res eset) : halts t1 s -> (forall n s', run n t1 s = Ok s' -> settles (g s')) -> settles (fun n => do s' <- run n t1 s ;; g s' n).
  Proof.
    intros (N & r & NE & H) G. destruct r as [s'|e].
    - destruct (G N s' (H N (le_n _))) as (M & r & NE' & H'). exists (max N M), r. split; [auto|]. intros n L. rewrite H by lia. cbn. apply H'. lia.
    - exists N, (Err e). split; [congruence|]. intros n L. rewrite H by lia. reflexivity.
  Qed.
  Definition room (s : eset) : nat := length U - length (items s).
  Record fit (s : eset) : Prop := { f_inv : inv s; f_nodup : NoDup (items s) }.
  Lemma fit_run n t s s' : fit s -> ready t s -> run n t s = Ok s' -> fit s' /\ ext s s' /\ room s' <= room s.
  Proof.
    intros [IV ND] R H. pose proof (run_inv prods check before pos tok chk sp Hbefore Hchk n t s IV R) as I. rewrite H in I.
    pose proof (p_ext _ _ _ _ _ _ (proj1 (run_post _ _ _ _ n t s s' (ready_pre _ _ _ _ _ _ _ R) H))) as E.
    split; [split; [auto|eapply run_nodup; eauto]|]. split; [auto|]. destruct E as [[l E] _]. unfold room. rewrite E, app_length. lia.
  Qed.
  Lemma fit_length s : fit s -> length (items s) <= length U.
  Proof. intros [IV ND]. apply NoDup_incl_length; [auto|]. intros x I. eapply HU. now apply IV. Qed.
  Lemma room_less n i s s' : fit s -> ready (Add i) s -> run n (Add i) s = Ok s' -> s' = s \/ room s' < room s.
  Proof.
    intros F R H. destruct (in_item_dec i (items s)) as [I|I].
    - left. destruct n; [discriminate|]. cbn in H. apply has_item in I. rewrite I in H. congruence.
    - right. destruct (fit_run _ _ _ _ F R H) as (F' & E & L). destruct (run_post prods check before pos n (Add i) s s' Logic.I H) as [_ G]. cbn in G.
      destruct E as [[l E] _]. pose proof (fit_length _ F'). unfold room. rewrite E in *. rewrite app_length in *.
      destruct l as [|x l]; [rewrite app_nil_r in G; tauto|cbn in *; lia].
  Qed.
  Lemma run_halts m : forall t s, room s < m -> fit s -> ready t s -> halts t s.
  Proof.
    induction m as [|m IH]; intros t s L F R; [lia|].
    assert (HA : forall i s, room s < S m -> fit s -> ready (Add i) s -> halts (Add i) s).
    { clear t s L F R. intros i s L F R. apply halts_step. cbn [M_Earley.step]. destruct (existsb (item_eqb i) (items s)) eqn:EX; [apply settles_now; discriminate|].
      apply has_no_item in EX. cbv zeta. set (s1 := mkSet (items s ++ [i]) (nulls s)).
      assert (X1 : ext s s1) by (split; [now exists [i]|exists []; symmetry; apply app_nil_r]).
      assert (V1 : valid prods tok chk sp (sets_of before s1) (cur before) i) by (eapply valid_ext; [exact X1|exact R]).
      assert (F1 : fit s1).
      { destruct F as [IV ND]. split.
        - split; [|apply IV]. intros x I. cbn in I. apply in_app_or in I as [I|[<-|[]]]; [|auto]. eapply valid_ext; [exact X1|]. now apply IV.
        - cbn. apply NoDup_Add with (a := i) (l := items s); [|auto]. pose proof (Add_app i (items s) []) as X. rewrite app_nil_r in X. exact X. }
      assert (L1 : room s1 < m). { pose proof (fit_length _ F1) as Q. unfold room in *. cbn in *. rewrite app_length in *. cbn in *. lia. }
      destruct (after i) as [[a|t|c]|] eqn:A.
      - apply (settles_bind (Nulls i a 0) s1 (fun s2 n => match prods_of prods a with [] => Err UserError | ps => run n (Feed (map (fun p => mkItem (Some (cur before)) p []) ps)) s2 end)).
        + apply IH; [auto|auto|now split].
        + intros n s' H. destruct (fit_run n (Nulls i a 0) s1 s' F1 (conj V1 A) H) as (F' & E & L'). destruct (prods_of prods a) as [|p0 ps] eqn:PO; [apply settles_now; discriminate|].
          rewrite <- PO. apply IH; [lia|auto|]. intros x I. apply in_map_iff in I as (p & <- & IP). apply in_prods_of in IP as [IP LP].
          cbn. split; [auto|]. split; [apply partial_start|]. exists (items s'), i. rewrite nth_cur. split; [auto|]. split; [|cbn; congruence].
          eapply ext_in; [exact E|]. cbn. apply in_or_app. right. now left.
      - apply settles_now. discriminate.
      - destruct (check (transit i) pos c) as [[|]|e] eqn:C; cbn [bind]; [|apply settles_now; discriminate|apply settles_now; intros E; injection E as ->; now apply Hcheck in C].
        apply IH; [auto|auto|]. cbn. eapply valid_cn; eauto.
      - destruct (origin i) as [o|] eqn:O; [|apply settles_now; discriminate].
        assert (VI := V1). unfold valid in VI. rewrite O in VI. destruct VI as (IP & P & J & x & N & IX & AX).
        assert (D : der prods tok chk o (lhs (pr i)) (node_of i) (cur before)) by (apply partial_done; auto).
        destruct (Nat.eqb_spec o (cur before)) as [->|NC].
        + destruct (negb _); cbn [assert_ bind]; [|apply settles_now; discriminate]. apply IH; [exact L1| |exact D]. destruct F1 as [IV1 ND1]. split; [|exact ND1].
          split; [apply IV1|]. cbn. intros b q I. apply in_app_or in I as [I|[E|[]]]; [now apply IV1|]. injection E as <- <-. exact D.
        + destruct (nth_error before o) as [old|] eqn:OB; [|apply settles_now; discriminate]. destruct (negb _); cbn [assert_ bind]; [|apply settles_now; discriminate].
          apply IH; [exact L1|auto|]. intros y I. apply in_map_iff in I as (b & <- & IB). apply in_expecting in IB as [IB AB]. eapply valid_nt; [|exact AB|exact D]. apply valid_before. eapply Hbefore; eauto. }
    destruct t as [i|is|i a k|a nd k].
    - auto.
    - revert s L F R. induction is as [|i is IHis]; intros s L F R; apply halts_step; cbn [M_Earley.step]; [apply settles_now; discriminate|].
      apply (settles_bind (Add i) s (fun s' n => run n (Feed is) s')); [apply HA; auto; apply R; now left|].
      intros n s' H. assert (RA : ready (Add i) s) by (apply R; now left). destruct (fit_run n _ _ _ F RA H) as (F' & E & L'). apply IHis; [lia|auto|].
      intros x I. eapply valid_ext; [exact E|]. apply R. now right.
    - remember (length (nulls s) - k) as d eqn:Ed. revert s k L F R Ed. induction d as [|d IHd]; intros s k L F R Ed; apply halts_step; cbn [M_Earley.step].
      + destruct (nth_error (nulls s) k) eqn:K; [|apply settles_now; discriminate]. assert (k < length (nulls s)) by (apply nth_error_Some; congruence). lia.
      + destruct (nth_error (nulls s) k) as [[b nd]|] eqn:K; [|apply settles_now; discriminate]. destruct R as [V A].
        destruct (Nat.eqb_spec b a) as [->|NE].
        * assert (RA : ready (Add (advance i (Some nd))) s) by (cbn; eapply valid_nt; eauto; apply F; eapply nth_error_In; eauto).
          apply (settles_bind (Add (advance i (Some nd))) s (fun s' n => run n (Nulls i a (S k)) s')); [apply HA; auto|].
          intros n s' H. destruct (fit_run n _ _ _ F RA H) as (F' & E & L'). destruct (room_less n _ _ _ F RA H) as [->|LL].
          -- apply IHd; [auto|auto|now split|lia].
          -- apply IH; [lia|auto|]. split; [eapply valid_ext; eauto|auto].
        * cbn [bind]. apply IHd; [auto|auto|now split|lia].
    - remember (length (expecting (NT a) (items s)) - k) as d eqn:Ed. revert s k L F R Ed. induction d as [|d IHd]; intros s k L F R Ed; apply halts_step; cbn [M_Earley.step].
      + destruct (nth_error (expecting (NT a) (items s)) k) eqn:K; [|apply settles_now; discriminate]. assert (k < length (expecting (NT a) (items s))) by (apply nth_error_Some; congruence). lia.
      + destruct (nth_error (expecting (NT a) (items s)) k) as [b|] eqn:K; [|apply settles_now; discriminate]. apply nth_error_In in K. apply in_expecting in K as [IB AB].
        assert (RA : ready (Add (advance b (Some nd))) s) by (cbn; eapply valid_nt; eauto; apply F; auto).
        apply (settles_bind (Add (advance b (Some nd))) s (fun s' n => run n (Back a nd (S k)) s')); [apply HA; auto|].
        intros n s' H. destruct (fit_run n _ _ _ F RA H) as (F' & E & L'). destruct (room_less n _ _ _ F RA H) as [->|LL].
        * apply IHd; [auto|auto|exact R|lia].
        * apply IH; [lia|auto|exact R].
  Qed.
  Lemma close_halts kernel : (forall x, In x kernel -> valid prods tok chk sp before (cur before) x) ->
    exists N r, r <> Err OutOfFuel /\ forall n, N <= n -> close prods check before pos n kernel = r.
  Proof.
    intros K. destruct (run_halts (S (room (mkSet [] []))) (Feed kernel) (mkSet [] [])) as (N & r & NE & H).
    - lia.
    - split; [split; [intros ? []|intros ? ? []]|constructor].
    - intros x I. apply valid_before. auto.
    - exists N, (do s <- r ;; Ok (items s)). split; [destruct r as [s|[]]; cbn; congruence|]. intros n L. unfold close. rewrite H by auto. reflexivity.
  Qed.
End Close.
