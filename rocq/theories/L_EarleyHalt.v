(* Termination of the Earley parser for any source of terminals that is used up. *)
From Verif Require Import M_Base M_Earley L_Earley L_EarleyMain L_EarleyParse L_EarleyTerm L_EarleyLex L_EarleyTrace.

Section Halt.
  Variable prods : list prod.
  Context {place : Type}.
  Variable check : option tree -> place -> nat -> res bool.
  Variable all : bool.
  Variables goal START : nat.
  Variable tpos : place -> nat.
  Variable gnti : place -> list nat -> option nat -> res (option (list (nat * nat) * place)).
  Variable kludge : list item -> res (option nat).
  Variable nul : nat -> bool.
  Variable rank : nat -> nat.
  Hypothesis Hacyclic : acyclic prods nul rank.
  Variable P : place -> Prop.
  Variable left_over : place -> nat.
  Hypothesis Hstep : forall p exp kl ra p', P p -> gnti p exp kl = Ok (Some (ra, p')) -> P p' /\ left_over p' < left_over p.
  Hypothesis Hcheck : forall prev p c, P p -> check prev p c <> Err OutOfFuel.
  Hypothesis Hkludge : forall its, kludge its <> Err OutOfFuel.
  Hypothesis Hgnti : forall p exp kl, P p -> gnti p exp kl <> Err OutOfFuel.
  Notation sp := (start_prod all goal START).
  Notation tvalid ps rs := (valid prods (returned rs) (satisfied check ps) sp).
  Lemma returned_finite rs k t : finite (fun l => returned rs k t l).
  Proof.
    destruct (nth_error rs k) as [ra|] eqn:N.
    - exists (map snd ra). intros l (ra' & N' & I). rewrite N in N'. injection N' as <-. apply in_map_iff. exists (t, l). auto.
    - exists []. intros l (ra' & N' & _). congruence.
  Qed.
  Lemma main_halts_trace d : forall before kernel pos latest ps rs, left_over pos <= d -> P pos -> length rs = length before -> length ps = S (length before) -> nth_error ps (length before) = Some pos ->
    (forall o old x, nth_error before o = Some old -> In x old -> tvalid ps rs before o x) ->
    (forall x, In x kernel -> tvalid ps rs before (length before) x) ->
    settled (fun n f => main prods check all goal tpos gnti kludge n f before kernel pos latest).
  Proof.
    induction d as [d IH] using lt_wf_ind. intros before kernel pos latest ps rs LD HP LR LP NP HB HK.
    destruct (finite_valid prods (returned rs) (satisfied check ps) sp (returned_finite rs)) with (k := length before) as [U HU].
    { intros i a j. apply (acyclic_finite prods _ _ nul rank Hacyclic (returned_finite rs) (S (j - i)) (S (rank a))); lia. }
    assert (HC : forall prev c, check prev pos c = Ok true -> satisfied check ps (length before) prev c) by (intros prev c C; exists pos; auto).
    destruct (close_halts prods check before pos (returned rs) (satisfied check ps) sp HB HC (fun p c => Hcheck p pos c HP) U HU kernel HK) as (N & r & NE & H).
    pose proof (fun f => close_valid prods check (returned rs) (satisfied check ps) sp before pos f kernel HB HC HK) as V. specialize (V N). rewrite (H N) in V by auto.
    match goal with |- settled ?g => assert (W : settled (fun n f => g (S n) f) -> settled g) by (intros (N' & r' & NE' & H'); exists (S N'), r'; split; [exact NE'|]; intros [|n] f L1 L2; [lia|apply H'; lia]) end; apply W; clear W; cbn [main].
    destruct r as [its|e]; [|exists N, (Err e); split; [congruence|]; intros n f _ LF; rewrite H by auto; reflexivity].
    match goal with |- settled (fun n f => do its' <- _ ;; @?g n f its') => assert (W : settled (fun n f => g n f its) -> settled (fun n f => do its' <- close prods check before pos f kernel ;; g n f its'))
      by (intros (N' & r' & NE' & H'); exists (max N N'), r'; split; [exact NE'|]; intros n f L1 L2; rewrite H by lia; apply H'; lia) end; apply W; clear W; cbv beta.
    cbv zeta. destruct (terminals its []) as [|e0 es] eqn:EX; [apply settled_now; apply cannot_fuel|]. rewrite <- EX. set (latest' := if all then latest else _).
    destruct (kludge its) as [kl|e] eqn:KL; cbn [bind]; [|apply settled_now; intros Q; injection Q as ->; now apply Hkludge in KL].
    destruct (gnti pos (terminals its []) kl) as [[[rats next]|]|e] eqn:GN; cbn [bind]; [|apply settled_now; apply cannot_fuel|apply settled_now; intros Q; injection Q as ->; now apply Hgnti in GN].
    destruct (Hstep _ _ _ _ _ HP GN) as [HP' LT].
    destruct (tpos pos <=? tpos next); cbn [assert_ bind]; [|apply settled_now; discriminate].
    destruct (next_kernel its rats) as [k|e] eqn:EK; cbn [bind]; [|apply settled_now; intros Q; injection Q as ->; now apply next_kernel_fuel in EK].
    destruct (negb _); cbn [assert_ bind]; [|apply settled_now; discriminate].
    assert (CONT : settled (fun n f => main prods check all goal tpos gnti kludge n f (before ++ [its]) k next latest')).
    { pose proof (in_next_kernel its rats k EK) as IK.
      assert (V' : forall x, In x its -> tvalid (ps ++ [next]) (rs ++ [rats]) (before ++ [its]) (length before) x).
      { intros x I. specialize (V x I). pose proof (tvalid_app prods check all goal START ps rs [next] [rats] [] _ _ _ V) as Q. now rewrite app_nil_r in Q. }
      apply (IH (left_over next)) with (ps := ps ++ [next]) (rs := rs ++ [rats]); auto; rewrite ?app_length; cbn; try lia.
      - rewrite nth_error_app2 by lia. replace (length before + 1 - length ps) with 0 by lia. reflexivity.
      - intros o old x NO I. destruct (lt_eq_lt_dec o (length before)) as [[L|L]|L].
        + rewrite nth_error_app1 in NO by auto. apply tvalid_app. eauto.
        + subst o. rewrite nth_error_app2, Nat.sub_diag in NO by auto. injection NO as <-. auto.
        + assert (o < length (before ++ [its])) by (apply nth_error_Some; congruence). rewrite app_length in *. cbn in *. lia.
      - intros x I. apply IK in I as (u & l & i & I & II & A & ->). rewrite Nat.add_1_r. apply valid_tm; [auto|auto|].
        exists rats. split; [|auto]. rewrite <- LR. rewrite nth_error_app2, Nat.sub_diag by auto. reflexivity. }
    destruct rats as [|[t l] [|r2 rats]]; [exact CONT| |exact CONT]. destruct (t =? END); [|exact CONT].
    destruct (goal_nodes goal k) as [ns|e] eqn:GNS; cbn [bind]; [|apply settled_now; intros Q; injection Q as ->; now apply goal_nodes_fuel in GNS].
    destruct ns; apply settled_now; discriminate.
  Qed.
  Lemma parse_halts start : P start -> exists N r, r <> Err OutOfFuel /\ forall n f, N <= n -> N <= f -> parse prods check all goal START tpos gnti kludge n f start = r.
  Proof.
    intros HP. apply (main_halts_trace (left_over start) [] [initial all goal START] start None [start] []); auto.
    - intros [|o] old x E; discriminate.
    - intros x [<-|[]]. unfold valid. cbn [initial origin pr]. split; [auto|]. exists [], [NT goal; TM (if all then END else ACC)]. split; [reflexivity|constructor].
  Qed.
End Halt.
