(* Lemmas for whole sequences of calls on the source of tokens. *)
From Coq Require Import Sorted.
From Verif Require Import M_Base M_Tip L_Tip L_TipMain.

(* there is a token left to read *)
Definition readable (t : tip) : Prop :=
  match end_i t with Some m => (cur t < m)%Z | None => done t = true -> (cur t + 1 < Z.of_nat (length (toks t)))%Z end.
(* the calls of a parse: each asks at the position that the one before returned, the first at 0 *)
Inductive parse_calls (source : text) (lex : lgoal -> nat -> res (ekind * nat * nat)) : tip -> nat -> Prop :=
| pc_start t : new_tip source lex = Ok t -> parse_calls source lex t 0
| pc_next t p exp kl ms p' t' : parse_calls source lex t p -> gnti source lex t p exp kl = Ok (Some (ms, p'), t') -> parse_calls source lex t' p'.

Section Run.
  Variable source : text.
  Variable lex : lgoal -> nat -> res (ekind * nat * nat).
  Notation inv := (inv source).

  (* ---- every reachable state ---- *)
  Record inv2 (t : tip) : Prop := {
    r_front : done t = false -> lex InputElement_common (scout t) = Err UserError;
    r_end : forall m, end_i t = Some m -> (0 <= m < Z.of_nat (length (toks t)))%Z;
    r_cur : (cur t + 1 <= Z.of_nat (length (toks t)))%Z;
    r_known : (forall g p k s e, lex g p = Ok (k, s, e) -> k <> E_unknown) -> forall e, In e (elems t) -> ek e <> E_unknown }.
  Lemma scout_front n : forall t t', scout_ahead source lex n t = Ok t' -> done t' = false -> lex InputElement_common (scout t') = Err UserError.
  Proof.
    induction n as [|n IH]; intros t t' H D; cbn in H; [discriminate|]. destruct (get_one source lex t InputElement_common) as [[[|] t1]|e] eqn:G; [eauto| |].
    - injection H as <-. unfold get_one in G. destruct (done t) eqn:DT; [injection G as <-; congruence|]. destruct (scout t =? length source); [discriminate|].
      destruct (lex InputElement_common (scout t)) as [[[k s] e]|x] eqn:L; cbn [bind] in G; [|discriminate]. destruct (s =? scout t); cbn [assert_ bind] in G; [|discriminate]. destruct (s <? e); discriminate.
    - destruct e; try discriminate. injection H as <-. unfold get_one in G. rewrite D in G. destruct (scout t =? length source); [discriminate|].
      destruct (lex InputElement_common (scout t)) as [[[k s] e]|x] eqn:L; cbn [bind] in G; [|congruence]. destruct (s =? scout t); cbn [assert_ bind] in G; [|discriminate]. destruct (s <? e); discriminate.
  Qed.
  Lemma get_one_known t g b t' : get_one source lex t g = Ok (b, t') -> (forall g p k s e, lex g p = Ok (k, s, e) -> k <> E_unknown) -> (forall e, In e (elems t) -> ek e <> E_unknown) -> forall e, In e (elems t') -> ek e <> E_unknown.
  Proof.
    intros H U K e I. unfold get_one in H. destruct (done t); [injection H as <- <-; auto|]. destruct (scout t =? length source).
    - injection H as <- <-. cbn in I. apply in_app_iff in I as [I|[<-|[]]]; [auto|discriminate].
    - destruct (lex g (scout t)) as [[[k s] e0]|x] eqn:L; cbn [bind] in H; [|discriminate]. destruct (s =? scout t); cbn [assert_ bind] in H; [|discriminate]. destruct (s <? e0); cbn [assert_ bind] in H; [|discriminate].
      injection H as <- <-. cbn in I. apply in_app_iff in I as [I|[<-|[]]]; [auto|]. cbn. eauto.
  Qed.
  Lemma scout_known n : forall t t', scout_ahead source lex n t = Ok t' -> (forall g p k s e, lex g p = Ok (k, s, e) -> k <> E_unknown) -> (forall e, In e (elems t) -> ek e <> E_unknown) -> forall e, In e (elems t') -> ek e <> E_unknown.
  Proof.
    induction n as [|n IH]; intros t t' H U K; cbn in H; [discriminate|]. destruct (get_one source lex t InputElement_common) as [[[|] t1]|e] eqn:G.
    - apply (IH _ _ H U). eapply get_one_known; eauto.
    - injection H as <-. eapply get_one_known; eauto.
    - destruct e; try discriminate. injection H as <-. auto.
  Qed.
  Lemma advance_inv2 t g e t' : lexer_ok source lex -> inv t -> inv2 t -> advance_token_cursor source lex t g = Ok (e, t') -> inv2 t'.
  Proof.
    intros Hlex I J H. destruct (advance_inv source lex Hlex _ _ _ _ I H) as (I1 & C1 & E1 & A1 & (l1 & L1) & (m1 & M1) & e' & k & N & _). pose proof (i_cur _ _ I) as CI.
    assert (RC : (cur t' + 1 <= Z.of_nat (length (toks t')))%Z) by (assert (Z.to_nat (cur t') < length (toks t')) by (apply nth_error_Some; congruence); lia).
    assert (RE : forall m, end_i t' = Some m -> (0 <= m < Z.of_nat (length (toks t')))%Z) by (intros m EM; rewrite E1 in EM; pose proof (r_end _ J m EM); rewrite M1, app_length; lia).
    unfold advance_token_cursor in H. destruct (match end_i _ with Some m => (cur t + 1 <=? m)%Z | None => true end); cbn [assert_ bind] in H; [|discriminate]. destruct (match end_i _ with Some m => (cur t + 1 =? m)%Z | None => false end).
    - destruct (py_nth _ _); cbn [bind] in H; [|discriminate]. injection H as _ <-. destruct J. split; auto.
    - destruct (_ <=? _)%Z; cbn [assert_ bind] in H; [|discriminate]. destruct (_ <? _)%Z.
      + destruct (py_nth _ _); cbn [bind] in H; [|discriminate]. injection H as _ <-. destruct J. split; auto.
      + destruct (get_one source lex _ g) as [[b t1]|] eqn:G; cbn [bind] in H; [|discriminate]. destruct b; cbn [fst snd assert_ bind] in H; [|discriminate]. destruct (_ <? _)%Z; cbn [assert_ bind] in H; [|discriminate].
        destruct (scout_ahead source lex (fuel source) t1) as [t2|] eqn:S; cbn [bind] in H; [|discriminate]. destruct (py_nth _ _); cbn [bind] in H; [|discriminate]. injection H as _ <-. split; auto.
        * eapply scout_front; eauto.
        * intros U. eapply scout_known; eauto. eapply get_one_known; eauto. cbn. apply (r_known _ J U).
  Qed.
  Lemma insert_inv2 t s t' : inv t -> (0 <= cur t)%Z -> ek s = E_semicolon -> inv2 t -> insert_before_current t s = Ok t' -> inv2 t'.
  Proof.
    intros I C ES J H. assert (SD : scout t' = scout t /\ done t' = done t).
    { unfold insert_before_current in H. destruct (py_nth _ _) as [[ct i]|]; cbn [bind] in H; [|discriminate]. destruct (nth_error _ _); cbn [bind] in H; [|discriminate]. destruct (_ =? _); cbn [assert_ bind] in H; [|discriminate]. injection H as <-. auto. }
    assert (IS : inserted s = true) by (unfold inserted; now rewrite ES). destruct (insert_inv source _ _ _ I C IS H) as (I2 & C2 & E2 & A2 & O2 & la & ct & lb & EL & EL2 & TC & N1 & N2 & N3).
    assert (LT : length (toks t) <= length (toks t')).
    { rewrite (i_toks _ _ I2), EL2, (i_toks _ _ I), EL, !toks_from_count, !filter_app, !app_length. cbn. rewrite ES. cbn. destruct (is_token (ek ct)); cbn; lia. }
    destruct SD as [S1 S2], J. split.
    - rewrite S1, S2. auto.
    - intros m. rewrite E2. intros Q. specialize (r_end0 m Q). lia.
    - rewrite C2. lia.
    - intros U e. rewrite EL2, in_app_iff. intros [Q|[<-|Q]]; [|congruence|]; apply r_known0; auto; rewrite EL; apply in_or_app; auto.
  Qed.
  Lemma gnti_inv2 t posn exp kl r t' : lexer_ok source lex -> inv t -> inv2 t -> gnti source lex t posn exp kl = Ok (r, t') -> inv2 t'.
  Proof.
    intros Hlex I J H. unfold gnti in H. destruct (lexical_goal exp) as [g|]; cbn [bind] in H; [|discriminate]. destruct (advance_token_cursor source lex t g) as [[e t1]|] eqn:A; cbn [bind] in H; [|discriminate].
    pose proof (advance_inv2 _ _ _ _ Hlex I J A) as J1. destruct (advance_inv source lex Hlex _ _ _ _ I A) as (I1 & C1 & _). pose proof (i_cur _ _ I) as CI.
    destruct (named_token e) as [nt|]; cbn [bind] in H; [|discriminate]. destruct (matching source e nt exp); [|injection H as _ <-; auto].
    match type of H with bind ?x _ = _ => destruct x as [b|] end; cbn [bind] in H; [|discriminate]. destruct (negb b); [injection H as _ <-; auto|].
    destruct (match asi_posn t1 with Some p => p =? posn | None => false end); [injection H as _ <-; auto|].
    assert (JJ : forall a f, inv2 (mkTip a (elems t1) (toks t1) (cur t1) (scout t1) (done t1) (end_i t1) f)) by (intros a f; destruct J1; split; auto).
    destruct (filter is_semi exp) as [|s [|]]; [injection H as _ <-; apply JJ| |discriminate].
    assert (KL : kl = K_EmptyStatement \/ kl <> K_EmptyStatement) by (destruct kl; auto; right; discriminate). destruct KL as [->|KL]; [injection H as _ <-; apply JJ|].
    match type of H with context [insert_before_current ?x ?y] => destruct (insert_before_current x y) as [t2|] eqn:INS end; cbn [bind] in H; [|destruct kl; discriminate || congruence].
    assert (t' = t2) as -> by (destruct kl; [|congruence|]; injection H as _ <-; auto). eapply insert_inv2 in INS; eauto; [apply (inv_same source t1); auto; cbn; lia|cbn; lia].
  Qed.
  Lemma indices_spec {A} (f : A -> bool) (l : list A) i : In i (indices f l) <-> exists x, nth_error l i = Some x /\ f x = true.
  Proof.
    unfold indices. rewrite in_map_iff. assert (X : forall b j x, In (j, x) (combine (seq b (length l)) l) <-> b <= j /\ nth_error l (j - b) = Some x).
    { induction l as [|y l IH]; intros b j x; cbn; [split; [intros []|intros [_ H]; destruct (j - b); discriminate]|]. rewrite IH. split.
      - intros [E|[L N]]; [injection E as -> ->; rewrite Nat.sub_diag; auto|]. split; [lia|]. replace (j - b) with (S (j - S b)) by lia. exact N.
      - intros [L N]. destruct (Nat.eq_dec j b) as [->|]; [rewrite Nat.sub_diag in N; cbn in N; injection N as ->; auto|]. right. split; [lia|]. replace (j - b) with (S (j - S b)) in N by lia. exact N. }
    split.
    - intros ((j & x) & <- & H). apply filter_In in H as [H F]. apply X in H as [_ H]. rewrite Nat.sub_0_r in H. eauto.
    - intros (x & N & F). exists (i, x). split; [auto|]. apply filter_In. split; [|auto]. apply X. split; [lia|]. now rewrite Nat.sub_0_r.
  Qed.
  Lemma indices_sorted {A} (f : A -> bool) (l : list A) : StronglySorted lt (indices f l).
  Proof.
    unfold indices. generalize 0 as b. induction l as [|y l IH]; intros b; cbn; [constructor|]. destruct (f y); cbn; [|apply IH]. constructor; [apply IH|].
    apply Forall_forall. intros j H. apply in_map_iff in H as ((j' & x) & <- & H). apply filter_In in H as [H _]. apply in_combine_l in H. apply in_seq in H. cbn. lia.
  Qed.
  Lemma reparse_spec t s e t' : set_reparse_bounds t s e = Ok t' -> exists k m xk xm,
    nth_error (toks t) k = Some xk /\ estart (fst xk) = s /\ (forall j x, nth_error (toks t) j = Some x -> estart (fst x) = s -> j = k) /\
    nth_error (toks t) m = Some xm /\ e <= estart (fst xm) /\ (forall j x, nth_error (toks t) j = Some x -> j < m -> estart (fst x) < e) /\
    t' = mkTip (asi_posn t) (elems t) (toks t) (Z.of_nat k - 1) (scout t) (done t) (Some (Z.of_nat m)) (fresh t).
  Proof.
    unfold set_reparse_bounds. intros H. destruct (indices (fun x => estart (fst x) =? s) (toks t)) as [|k [|]] eqn:K; [discriminate| |discriminate]. destruct (indices (fun x => e <=? estart (fst x)) (toks t)) as [|m ms] eqn:M; [discriminate|]. injection H as <-.
    assert (IK : forall j, j = k <-> exists x, nth_error (toks t) j = Some x /\ (estart (fst x) =? s) = true) by (intros j; rewrite <- indices_spec, K; cbn; split; [auto|intros [|[]]; auto]).
    destruct (proj1 (IK k) eq_refl) as (xk & NK & EK). apply Nat.eqb_eq in EK.
    assert (IM : In m (indices (fun x => e <=? estart (fst x)) (toks t))) by (rewrite M; now left). apply indices_spec in IM as (xm & NM & EM). apply Nat.leb_le in EM.
    exists k, m, xk, xm. repeat (split; [solve [auto]|]). split; [|split; [auto|split; [auto|split; [|auto]]]].
    - intros j x N E. apply IK. exists x. split; [auto|]. now apply Nat.eqb_eq.
    - intros j x N L. destruct (Nat.le_gt_cases e (estart (fst x))) as [LE|]; [|lia]. exfalso. assert (IJ : In j (indices (fun x => e <=? estart (fst x)) (toks t))) by (apply indices_spec; exists x; split; [auto|]; now apply Nat.leb_le).
      pose proof (indices_sorted (fun x => e <=? estart (fst x)) (toks t)) as SS. rewrite M in SS, IJ. inversion SS as [|? ? S1 S2]; subst. rewrite Forall_forall in S2. destruct IJ as [->|IJ]; [lia|]. specialize (S2 j IJ). lia.
  Qed.
  Lemma reachable_inv t : lexer_ok source lex -> reachable source lex t -> inv t /\ inv2 t.
  Proof.
    intros Hlex R. induction R as [t H|t posn exp kl r t' R [I J] H|t s e t' R [I J] H].
    - destruct (new_inv source lex Hlex t H) as (I & C & E & A). split; [auto|]. unfold new_tip in H. destruct (scout_ahead source lex (fuel source) _) as [t1|] eqn:S; cbn [bind] in H; [|discriminate]. injection H as ->. split.
      + eapply scout_front; eauto.
      + rewrite E. discriminate.
      + rewrite C. lia.
      + intros U. eapply scout_known; eauto; cbn; tauto.
    - split; [|eapply gnti_inv2; eauto]. destruct (gnti_decision source lex Hlex _ _ _ _ _ _ I H) as [I' _]. auto.
    - destruct (reparse_spec _ _ _ _ H) as (k & m & xk & xm & NK & EK & UK & NM & EM & UM & ->).
      assert (k < length (toks t)) by (apply nth_error_Some; congruence). assert (m < length (toks t)) by (apply nth_error_Some; congruence).
      split; [apply (inv_same source t); auto; cbn; lia|]. destruct J. split; cbn; auto; [|lia]. intros m' Q. injection Q as <-. lia.
  Qed.

  (* ---- no failure ---- *)
  Lemma get_one_total t g : lexer_lawful source lex -> (exists r, get_one source lex t g = Ok r) \/ get_one source lex t g = Err UserError /\ done t = false.
  Proof.
    intros (Hlex & L1 & L2 & L3). unfold get_one. destruct (done t); [eauto|]. destruct (scout t =? length source); [eauto|]. destruct (lex g (scout t)) as [[[k s] e]|x] eqn:L; cbn [bind].
    - destruct (L1 _ _ _ _ _ L) as (-> & LT & _). rewrite Nat.eqb_refl. cbn [assert_ bind]. apply Nat.ltb_lt in LT. rewrite LT. cbn [assert_ bind]. eauto.
    - rewrite (L2 _ _ _ L). auto.
  Qed.
  Lemma scout_ok n : lexer_lawful source lex -> forall t, inv t -> (if done t then 0 else S (length source - scout t)) < n -> exists t', scout_ahead source lex n t = Ok t'.
  Proof.
    intros LW. pose proof (proj1 LW) as Hlex. induction n as [|n IH]; intros t I L; [lia|]. cbn. destruct (get_one_total t InputElement_common LW) as [[[b t1] G]|[G _]]; rewrite G; [|eauto].
    destruct b; [|eauto]. destruct (get_one_inv source lex Hlex _ _ _ _ I G) as (I1 & _ & _ & _ & _ & _ & _ & P). destruct (P eq_refl) as [D P']. rewrite D in L. apply IH; [auto|]. destruct (done t1); [lia|]. specialize (P' eq_refl). pose proof (i_scout _ _ I1). lia.
  Qed.
  Lemma new_total : lexer_lawful source lex -> exists t, new_tip source lex = Ok t.
  Proof.
    intros LW. unfold new_tip. destruct (scout_ok (fuel source) LW (mkTip None [] [] (-1) 0 false None 0)) as [t ->].
    - split; cbn; try lia; auto; split; [discriminate|intros (e & [] & _)|discriminate..].
    - cbn. unfold fuel. lia.
    - cbn. eauto.
  Qed.
  Lemma advance_total t g : lexer_lawful source lex -> inv t -> inv2 t -> readable t -> (exists r, advance_token_cursor source lex t g = Ok r) \/ advance_token_cursor source lex t g = Err UserError.
  Proof.
    intros LW I J R. pose proof LW as (Hlex & L1 & L2 & L3). pose proof (i_cur _ _ I) as CI. pose proof (r_cur _ J) as CJ. unfold advance_token_cursor, readable in *.
    set (t0 := mkTip (asi_posn t) (elems t) (toks t) (cur t + 1) (scout t) (done t) (end_i t) (fresh t)). change (end_i t0) with (end_i t). change (toks t0) with (toks t).
    assert (A : (match end_i t with Some m => (cur t + 1 <=? m)%Z | None => true end) = true) by (destruct (end_i t); [lia|auto]). rewrite A. cbn [assert_ bind]. 
    assert (PN : forall l : list (elem * nat), (cur t + 1 < Z.of_nat (length l))%Z -> exists x, py_nth l (cur t + 1) = Ok x).
    { intros l L. destruct (nth_error l (Z.to_nat (cur t + 1))) as [x|] eqn:N; [exists x; apply py_nth_pos; [lia|auto]|]. apply nth_error_None in N. lia. }
    destruct (match end_i t with Some m => (cur t + 1 =? m)%Z | None => false end) eqn:EQ.
    - destruct (end_i t) as [m|] eqn:EM; [|discriminate]. pose proof (r_end _ J m EM). destruct (PN (toks t)) as [x ->]; [lia|]. cbn [bind]. eauto.
    - assert (A2 : (cur t + 1 <=? Z.of_nat (length (toks t)))%Z = true) by lia. rewrite A2. cbn [assert_ bind]. destruct (Z.ltb_spec (cur t + 1) (Z.of_nat (length (toks t)))) as [LT|GE].
      { destruct (PN (toks t)) as [x ->]; [lia|]. cbn [bind]. eauto. }
      assert (D : done t = false).
      { destruct (end_i t) as [m|] eqn:EM; [pose proof (r_end _ J m EM); lia|]. destruct (done t); [|auto]. specialize (R eq_refl). lia. }
      assert (I0 : inv t0) by (apply (inv_same source t); auto; cbn; lia).
      destruct (get_one_total t0 g LW) as [[[b t1] G]|[G _]]; rewrite G; cbn [bind]; [|auto]. destruct (get_one_inv source lex Hlex _ _ _ _ I0 G) as (I1 & C1 & _ & _ & _ & _ & P0 & P1).
      destruct b; [|destruct (P0 eq_refl); cbn in *; congruence]. cbn [fst snd assert_ bind].
      assert (LT : (cur t + 1 < Z.of_nat (length (toks t1)))%Z).
      { unfold get_one, t0 in G. cbn [done scout elems toks cur end_i fresh asi_posn] in G. rewrite D in G. destruct (scout t =? length source).
        - injection G as <-. cbn. rewrite app_length. cbn. lia.
        - destruct (lex g (scout t)) as [[[k s] e]|x] eqn:LX; cbn [bind] in G; [|discriminate]. destruct (s =? scout t); cbn [assert_ bind] in G; [|discriminate]. destruct (s <? e); cbn [assert_ bind] in G; [|discriminate].
          injection G as <-. cbn. destruct k as [n| | | | |]; cbn; rewrite ?app_length; cbn; try lia. destruct (L3 _ _ _ _ _ LX) as [r E]. rewrite (r_front _ J D) in E. discriminate. }
      apply Z.ltb_lt in LT as LT'. rewrite LT'. cbn [assert_ bind]. destruct (scout_ok (fuel source) LW t1 I1) as [t2 S]; [unfold fuel; destruct (done t1); lia|]. rewrite S. cbn [bind].
      destruct (scout_inv source lex Hlex _ _ _ I1 S) as (_ & _ & _ & _ & _ & (l & E)). destruct (PN (toks t2)) as [x ->]; [rewrite E, app_length; lia|]. cbn [bind]. eauto.
  Qed.
  Lemma gnti_total t posn exp kl : lexer_lawful source lex -> inv t -> inv2 t -> readable t -> NoDup exp -> (In (Nam 2) exp <-> In (Nam 3) exp) ->
    (exists r, gnti source lex t posn exp kl = Ok r) \/ gnti source lex t posn exp kl = Err UserError.
  Proof.
    intros LW I J R ND TT. pose proof LW as (Hlex & L1 & L2 & L3). unfold gnti.
    assert (EX : forall n, existsb (Nat.eqb n) (names exp) = true <-> In (Nam n) exp).
    { intros n. rewrite existsb_exists. unfold names. split.
      - intros (x & H & E). apply Nat.eqb_eq in E. subst x. apply in_flat_map in H as ([c|m] & H & E); [destruct E|]. destruct E as [->|[]]. auto.
      - intros H. exists n. split; [|apply Nat.eqb_refl]. apply in_flat_map. exists (Nam n). split; [auto|now left]. }
    assert (LG : exists g, lexical_goal exp = Ok g).
    { unfold lexical_goal. assert (E : eqb (existsb (Nat.eqb 2) (names exp)) (existsb (Nat.eqb 3) (names exp)) = true). { apply eqb_true_iff. apply eq_true_iff_eq. rewrite !EX. exact TT. } rewrite E. cbn [assert_ bind]. eauto. }
    destruct LG as [g ->]. cbn [bind]. destruct (advance_total t g LW I J R) as [[[e t1] A]|A]; rewrite A; cbn [bind]; [|auto]. left.
    pose proof (advance_inv2 _ _ _ _ Hlex I J A) as J1. destruct (advance_inv source lex Hlex _ _ _ _ I A) as (I1 & C1 & E1 & A1 & _ & _ & e' & k & N & DV). pose proof (i_cur _ _ I) as CI.
    assert (C0 : (0 <= cur t1)%Z) by lia.
    assert (NT : exists nt, named_token e = Ok nt).
    { assert (KN : ek e <> E_unknown /\ is_token (ek e) = true).
      { destruct (match end_i t with Some m => (cur t1 =? m)%Z | None => false end); [destruct DV as [-> _]; split; [discriminate|auto]|]. subst e'. rewrite (i_toks _ _ I1) in N. destruct (toks_from_nth _ _ _ _ _ N) as (a & b & E & _ & _ & T). split; [|auto].
        apply (r_known _ J1); [intros g' p k0 s e0 Q; apply (L1 _ _ _ _ _ Q)|]. rewrite E. apply in_or_app. right. now left. }
      unfold named_token. destruct (ek e); eauto; destruct KN as [K1 K2]; [discriminate|congruence]. }
    destruct NT as [nt ->]. cbn [bind]. destruct (matching source e nt exp); [|eauto]. destruct (may_dec source t1 e kl e' k I1 C0 N) as (b & EB & _).
    match goal with |- context [bind ?x _] => replace x with (@Ok bool b) by (symmetry; exact EB) end. cbn [bind]. destruct (negb b); [eauto|]. destruct (match asi_posn t1 with Some p => p =? posn | None => false end); [eauto|].
    assert (SF : length (filter is_semi exp) <= 1).
    { clear - ND. induction exp as [|x l IH]; cbn; [lia|]. inversion ND as [|? ? NI ND']; subst. destruct (is_semi x) eqn:E; [|auto]. cbn. assert (Z : filter is_semi l = []); [|rewrite Z; auto].
      destruct (filter is_semi l) as [|y r] eqn:F; [auto|]. exfalso. assert (IY : In y (filter is_semi l)) by (rewrite F; now left). apply filter_In in IY as [IY SY]. destruct x as [c|], y as [d|]; try discriminate. cbn in E, SY. apply text_eqb_eq in E, SY. subst. auto. }
    destruct (filter is_semi exp) as [|s [|]]; [eauto| |cbn in SF; lia].
    match goal with |- context [insert_before_current ?x ?y] => assert (INS : exists t2, insert_before_current x y = Ok t2) end.
    { unfold insert_before_current. cbn [toks cur elems]. apply py_nth_pos in N as PN; [|lia]. rewrite PN. cbn [bind]. rewrite (i_toks _ _ I1) in N. destruct (toks_from_nth _ _ _ _ _ N) as (a & b0 & E & EK & _ & T). cbn in EK. subst k. rewrite E, nth_error_length_app. cbn [bind]. rewrite Nat.eqb_refl. cbn [assert_ bind]. eauto. }
    destruct INS as [t2 ->]. cbn [bind]. destruct kl; eauto.
  Qed.

  (* ---- at most one semicolon at each position ---- *)
  Lemma tiles_det a l b c : tiles a l b -> tiles a l c -> b = c.
  Proof. revert a. induction l as [|e l IH]; intros a; cbn; [congruence|]. intros (_ & _ & H) (_ & _ & H'). eauto. Qed.
  Lemma tiles_start a l b : tiles a l b -> forall e, In e l -> a <= estart e.
  Proof. revert a. induction l as [|x l IH]; intros a H e I; [destruct I|]. destruct H as (E & L & H). destruct I as [<-|I]; [lia|]. specialize (IH _ H e I). lia. Qed.
  Lemma toks_from_next i la r c e k : nth_error (toks_from i (la ++ r)) c = Some (e, k) -> c = length (toks_from i la) -> exists mid r', r = mid ++ e :: r' /\ k = i + length la + length mid /\ (forall x, In x mid -> exists n, ek x = E_non n) /\ is_token (ek e) = true.
  Proof.
    intros H ->. rewrite toks_from_app in H. rewrite nth_error_app2, Nat.sub_diag in H by lia. destruct (toks_from_nth _ _ _ _ _ H) as (_ & _ & _ & _ & _ & T). destruct (toks_first _ _ _ _ H) as (mid & l2 & -> & -> & M). eauto 8.
  Qed.
  Definition starts (l : list elem) : list nat := map estart (filter (fun e => is_token (ek e)) l).
  Lemma starts_app a b : starts (a ++ b) = starts a ++ starts b.
  Proof. unfold starts. now rewrite filter_app, map_app. Qed.
  Lemma starts_non l : (forall x, In x l -> exists n, ek x = E_non n) -> starts l = [].
  Proof. induction l as [|x l IH]; intros M; [auto|]. unfold starts in *. cbn. destruct (M x (or_introl eq_refl)) as [n Q]. rewrite Q. cbn. apply IH. intros y IY. apply M. now right. Qed.
  Lemma sorted_app a b p : StronglySorted le a -> (forall x, In x a -> x <= p) -> StronglySorted le b -> (forall x, In x b -> p <= x) -> StronglySorted le (a ++ b).
  Proof.
    induction a as [|x a IH]; intros SA LA SB LB; [auto|]. inversion SA as [|? ? S1 S2]; subst. cbn. constructor; [apply IH; auto; intros y I; apply LA; now right|].
    apply Forall_app. split; [auto|]. apply Forall_forall. intros y I. specialize (LA x (or_introl eq_refl)). specialize (LB y I). lia.
  Qed.
  Lemma starts_tiles l : forall a b, tiles a l b -> StronglySorted le (starts l).
  Proof.
    induction l as [|e l IH]; intros a b H; [constructor|]. destruct H as (E & L & H). unfold starts in *. cbn. destruct (is_token (ek e)); [|eapply IH; eauto]. cbn. constructor; [eapply IH; eauto|].
    apply Forall_forall. intros x I. apply in_map_iff in I as (y & <- & I). apply filter_In in I as [I _]. pose proof (tiles_start _ _ _ H y I). lia.
  Qed.
  Definition at_posn (t : tip) (p : nat) : Prop :=
    end_i t = None /\ p <= scout t /\
    (exists la lb, elems t = la ++ lb /\ Z.of_nat (length (toks_from 0 la)) = (cur t + 1)%Z /\ (forall x, In x lb -> inserted x = false /\ p <= estart x) /\
       StronglySorted le (starts la) /\ forall x, In x (starts la) -> x <= p) /\
    NoDup (map estart (filter inserted (elems t))) /\ (forall x, In x (elems t) -> inserted x = true -> estart x <= p /\ (estart x = p -> asi_posn t = Some p)).
  Lemma parse_calls_posn t p : lexer_ok source lex -> parse_calls source lex t p -> inv t /\ at_posn t p.
  Proof.
    intros Hlex PC. induction PC as [t H|t p exp kl ms p' t' PC [I (EN & PS & (la & lb & EL & CL & LB & SLA & LLA) & ND & IN)] H].
    - destruct (new_inv source lex Hlex t H) as (I & C & E & A). split; [auto|].
      assert (NI : filter inserted (elems t) = []). { unfold new_tip in H. destruct (scout_ahead source lex (fuel source) _) as [t1|] eqn:S; cbn [bind] in H; [|discriminate]. injection H as ->. apply (scout_new source lex Hlex) in S. exact S. }
      assert (NI' : forall x, In x (elems t) -> inserted x = false) by (intros x IX; destruct (inserted x) eqn:Q; [|auto]; assert (Q' : In x (filter inserted (elems t))) by (apply filter_In; auto); rewrite NI in Q'; destruct Q').
      split; [auto|]. split; [lia|]. split; [exists [], (elems t); rewrite C; cbn; split; [auto|]; split; [auto|]; split; [intros x IX; split; [auto|lia]|]; split; [constructor|intros x []]|]. rewrite NI. split; [constructor|]. intros x IX Q. rewrite (NI' x IX) in Q. discriminate.
    - destruct (gnti_decision source lex Hlex _ _ _ _ _ _ I H) as (I' & C' & E' & (lo & O') & _ & D). split; [auto|]. pose proof (i_cur _ _ I) as CI.
      assert (CC : Z.to_nat (cur t') = length (toks_from 0 la)) by lia.
      (* what was scouted lies after p *)
      assert (NEW : forall l, filter inserted l = [] -> original (elems t') = original (elems t) ++ original l -> forall x, In x l -> inserted x = false /\ p <= estart x).
      { intros l F OL x IX. assert (NX : inserted x = false) by (destruct (inserted x) eqn:Q; [|auto]; assert (Q' : In x (filter inserted l)) by (apply filter_In; auto); rewrite F in Q'; destruct Q'). split; [auto|].
        pose proof (i_tiles _ _ I') as T. rewrite OL in T. apply tiles_app in T as (c & T1 & T2). rewrite (tiles_det _ _ _ _ T1 (i_tiles _ _ I)) in T2. assert (IO : In x (original l)) by (apply filter_In; rewrite NX; auto). pose proof (tiles_start _ _ _ T2 x IO). lia. }
      destruct D as [D|[D|D]]; [| |destruct D as [D _]; discriminate].
      + destruct D as (ms' & e & ER & _ & (e0 & k & N & DV) & _ & AP & (l & L) & F). injection ER as <- ->.
        assert (e = e0) as ->. { destruct DV as [[Q _]|[_ Q]]; [congruence|auto]. }
        assert (FL : filter inserted l = []) by (rewrite L, filter_app in F; apply (f_equal (@length elem)) in F; rewrite app_length in F; apply length_zero_iff_nil; lia).
        specialize (NEW l FL). rewrite L, original_app in NEW. specialize (NEW eq_refl).
        rewrite (i_toks _ _ I'), CC, L, EL, <- app_assoc in N. destruct (toks_from_next _ _ _ _ _ _ N eq_refl) as (mid & r' & ER & EK & M & TE).
        assert (LBL : forall x, In x (lb ++ l) -> inserted x = false /\ p <= estart x) by (intros x IX; apply in_app_iff in IX as [IX|IX]; auto).
        destruct (LBL e0) as [NE PE]; [rewrite ER; apply in_or_app; right; now left|].
        assert (LT' : elems t' = (la ++ mid ++ [e0]) ++ r') by (rewrite L, EL, <- !app_assoc, ER; reflexivity).
        pose proof (i_tiles _ _ I') as T. rewrite LT', original_app in T. apply tiles_app in T as (c & T1 & T2). rewrite app_assoc, original_app in T1. apply tiles_app in T1 as (c1 & T0 & T1). unfold original in T1 at 1. cbn in T1. rewrite NE in T1. cbn in T1. destruct T1 as (ES & LE & <-).
        assert (R' : forall x, In x r' -> inserted x = false /\ eend e0 <= estart x).
        { intros x IX. assert (Q : inserted x = false) by (apply LBL; rewrite ER; apply in_or_app; right; now right). split; [auto|]. apply (tiles_start _ _ _ T2). apply filter_In. rewrite Q. auto. }
        split; [congruence|]. split; [apply (tiles_le _ _ _ T2)|]. split; [exists (la ++ mid ++ [e0]), r'; split; [auto|]; split; [|split; [auto|]]|].
        * rewrite toks_from_count, !filter_app, !app_length. cbn. rewrite TE. assert (Z : filter (fun e => is_token (ek e)) mid = []).
          { clear - M. induction mid as [|x m IH]; [auto|]. cbn. destruct (M x (or_introl eq_refl)) as [n Q]. rewrite Q. cbn. apply IH. intros y IY. apply M. now right. }
          rewrite Z. rewrite toks_from_count in CL. cbn. lia.
        * rewrite !starts_app, (starts_non mid M). unfold starts at 2 4. cbn. rewrite TE. cbn. split.
          -- apply (sorted_app _ _ p); auto; [repeat constructor|]. intros x [<-|[]]. auto.
          -- intros x IX. apply in_app_iff in IX as [IX|[<-|[]]]; [|lia]. specialize (LLA x IX). lia.
        * rewrite F. split; [auto|]. intros x IX Q. rewrite L in IX. apply in_app_iff in IX as [IX|IX]; [|destruct (NEW x IX); congruence]. destruct (IN x IX Q) as [Q1 Q2]. split; [lia|]. intros EX. rewrite AP. assert (estart x = p) by lia. rewrite (Q2 H0). congruence.
      + destruct D as (s & k & e & e' & k' & ER & _ & NS & ES & SS & SE & NE' & DV & _ & _ & _ & AN & AS & _ & l & la' & lb' & E1 & E2 & FL & EK). injection ER as -> ->.
        assert (OE : original (elems t') = original (elems t) ++ original l).
        { rewrite <- original_app, E1, E2, !original_app. f_equal. unfold original at 1. cbn. unfold inserted at 1. rewrite ES. reflexivity. }
        specialize (NEW l FL OE). assert (LBL : forall x, In x (lb ++ l) -> inserted x = false /\ p <= estart x) by (intros x IX; apply in_app_iff in IX as [IX|IX]; auto).
        assert (NIN : forall x, In x (elems t) -> inserted x = true -> estart x < p) by (intros x IX Q; destruct (IN x IX Q) as [Q1 Q2]; destruct (Nat.eq_dec (estart x) p) as [Q3|]; [destruct (AN (Q2 Q3))|lia]).
        rewrite (i_toks _ _ I'), E2 in NS. destruct (toks_from_nth _ _ _ _ _ NS) as (a & b & EA & KA & LA & TS). cbn in KA.
        assert (la' = a) as <- by (rewrite <- (firstn_length_app la' (s :: e' :: lb')), EA, <- EK, KA; apply firstn_length_app). clear EA KA.
        (* la is a prefix of la' *)
        assert (PRE : exists mid, la' = la ++ mid /\ e' :: lb' = skipn (length mid) (lb ++ l) /\ forall x, In x mid -> exists n, ek x = E_non n).
        { rewrite EL, <- app_assoc in E1. assert (TE' : is_token (ek e') = true). { rewrite (i_toks _ _ I'), E2, toks_from_app in NE'. rewrite <- LA in NE'. rewrite nth_error_app2 in NE' by lia. replace (S (length (toks_from 0 la')) - length (toks_from 0 la')) with 1 in NE' by lia. cbn [toks_from] in NE'. rewrite TS in NE'. cbn [nth_error] in NE'. cbn [Nat.add] in NE'. destruct (is_token (ek e')) eqn:Q; [auto|].
            exfalso. destruct (toks_from_nth (e' :: lb') (S (length la')) 0 e' k') as (z1 & z2 & _ & _ & _ & TT); [cbn [toks_from]; rewrite Q; exact NE'|congruence]. }
          assert (N : nth_error (toks_from 0 (la ++ lb ++ l)) (length (toks_from 0 la)) = Some (e', length la')).
          { rewrite E1, toks_from_app. cbn [toks_from]. rewrite TE', <- CC, <- LA, nth_error_app2, Nat.sub_diag by lia. reflexivity. }
          destruct (toks_from_next _ _ _ _ _ _ N eq_refl) as (mid & r' & ER & EK' & PM & _). exists mid. rewrite ER in E1 |- *. cbn in EK'. rewrite skipn_length_app. rewrite app_assoc in E1.
          assert (la' = la ++ mid) as -> by (rewrite <- (firstn_length_app la' (e' :: lb')), <- E1, EK', <- app_length; apply firstn_length_app). apply app_inv_head in E1. auto. }
        destruct PRE as (mid & PRE & SUF & PM).
        split; [congruence|]. split; [pose proof (i_tiles _ _ I') as T; rewrite OE in T; apply tiles_app in T as (c & T1 & T2); rewrite (tiles_det _ _ _ _ T1 (i_tiles _ _ I)) in T2; apply tiles_le in T2; lia|].
        split; [exists (la' ++ [s]), (e' :: lb'); split; [rewrite E2, <- app_assoc; reflexivity|]; split; [|split]|split].
        * rewrite toks_from_app, app_length. cbn [toks_from]. rewrite TS. cbn. rewrite LA. lia.
        * intros x IX. rewrite SUF in IX. apply LBL. rewrite <- (firstn_skipn (length mid) (lb ++ l)). apply in_or_app. auto.
        * rewrite !starts_app, PRE, starts_app, (starts_non mid PM), app_nil_r. unfold starts at 2 4. cbn. rewrite ES. cbn. split.
          -- apply (sorted_app _ _ p); auto; [repeat constructor|]. intros x [<-|[]]. lia.
          -- intros x IX. apply in_app_iff in IX as [IX|[<-|[]]]; [auto|lia].
        * assert (EQ : filter inserted la' ++ filter inserted (e' :: lb') = filter inserted (elems t)) by (rewrite <- filter_app, <- E1, filter_app, FL, app_nil_r; auto).
          rewrite E2, filter_app. change (s :: e' :: lb') with ([s] ++ (e' :: lb')). rewrite filter_app. cbn [filter]. unfold inserted at 2. rewrite ES. cbn [app]. rewrite map_app. cbn [map]. apply NoDup_Add with (a := estart s) (l := map estart (filter inserted (elems t))).
          -- rewrite <- EQ, map_app. apply Add_app.
          -- split; [auto|]. intros Q. apply in_map_iff in Q as (x & Q1 & Q2). apply filter_In in Q2 as [Q2 Q3]. specialize (NIN x Q2 Q3). lia.
        * intros x IX Q. rewrite AS. split; [|auto]. rewrite E2 in IX. apply in_app_iff in IX as [IX|[<-|IX]]; [|lia|].
          -- assert (Q2 : In x (elems t ++ l)) by (rewrite E1; apply in_or_app; auto). apply in_app_iff in Q2 as [Q2|Q2]; [specialize (NIN x Q2 Q); lia|destruct (NEW x Q2); congruence].
          -- assert (Q2 : In x (elems t ++ l)) by (rewrite E1; apply in_or_app; auto). apply in_app_iff in Q2 as [Q2|Q2]; [specialize (NIN x Q2 Q); lia|destruct (NEW x Q2); congruence].
  Qed.
  Lemma parse_calls_sorted t p : lexer_ok source lex -> parse_calls source lex t p -> StronglySorted le (map (fun x => estart (fst x)) (toks t)).
  Proof.
    intros Hlex PC. destruct (parse_calls_posn t p Hlex PC) as (I & _ & _ & (la & lb & EL & _ & LB & SLA & LLA) & _).
    assert (E : map (fun x => estart (fst x)) (toks t) = starts (elems t)).
    { rewrite (i_toks _ _ I). clear. generalize 0 as i. unfold starts. induction (elems t) as [|e l IH]; intros i; [auto|]. cbn. destruct (is_token (ek e)); cbn; now rewrite IH. }
    rewrite E, EL, starts_app. apply (sorted_app _ _ p); auto.
    - assert (OL : original lb = lb). { clear - LB. induction lb as [|x l IH]; [auto|]. unfold original in *. cbn. destruct (LB x (or_introl eq_refl)) as [-> _]. cbn. f_equal. apply IH. intros y IY. apply LB. now right. }
      pose proof (i_tiles _ _ I) as T. rewrite EL, original_app, OL in T. apply tiles_app in T as (c & _ & T). eapply starts_tiles; eauto.
    - intros x IX. unfold starts in IX. apply in_map_iff in IX as (y & <- & IX). apply filter_In in IX as [IX _]. apply LB. auto.
  Qed.
  Lemma parse_calls_reachable t p : parse_calls source lex t p -> reachable source lex t.
  Proof. induction 1; [now apply r_new|eapply r_next; eauto]. Qed.
End Run.
