(* Soundness of the Earley parser for any source of terminals: the tree is a derivation over what the source has returned. *)
From Verif Require Import M_Base M_Earley L_Earley L_EarleyMain L_EarleyParse.

(* the leaves of a tree, as (terminal, instance) *)
Fixpoint leaves (t : tree) : list (nat * nat) :=
  match t with Leaf t l => [(t, l)] | Node _ ch => flat_map leaves ch end.
Lemma der_leaves prods tok chk :
  (forall i a t j, der prods tok chk i a t j -> length (leaves t) = j - i /\ forall k x, nth_error (leaves t) k = Some x -> tok (i + k) (fst x) (snd x)) /\
  (forall i prev r ch j, derseq prods tok chk i prev r ch j -> length (flat_map leaves ch) = j - i /\ forall k x, nth_error (flat_map leaves ch) k = Some x -> tok (i + k) (fst x) (snd x)).
Proof.
  apply der_both.
  - intros i p ch j IP D IH. exact IH.
  - intros i prev. cbn. split; [lia|]. intros [|k] x E; discriminate.
  - intros i prev a t j r ch k D [L1 N1] S [L2 N2]. pose proof (proj1 (der_le _ _ _) _ _ _ _ D). pose proof (proj2 (der_le _ _ _) _ _ _ _ _ S).
    cbn. rewrite app_length, L1, L2. split; [lia|]. intros m x E. destruct (Nat.lt_ge_cases m (length (leaves t))) as [L|L].
    + rewrite nth_error_app1 in E by auto. auto.
    + rewrite nth_error_app2 in E by auto. apply N2 in E. replace (i + m) with (j + (m - length (leaves t))) by lia. exact E.
  - intros i prev t l r ch k T S [L2 N2]. pose proof (proj2 (der_le _ _ _) _ _ _ _ _ S). cbn. rewrite L2. split; [lia|].
    intros [|m] x E; cbn in E; [injection E as <-; rewrite Nat.add_0_r; exact T|]. apply N2 in E. now rewrite Nat.add_succ_r.
  - intros i prev c r ch k C S IH. exact IH.
Qed.

Section Trace.
  Variable prods : list prod.
  Context {place : Type}.
  Variable check : option tree -> place -> nat -> res bool.
  Variable all : bool.
  Variables goal START : nat.
  Variable tpos : place -> nat.
  Variable gnti : place -> list nat -> option nat -> res (option (list (nat * nat) * place)).
  Variable kludge : list item -> res (option nat).
  Hypothesis Hspecial : forall p, In p prods -> ~ In (TM END) (rhs p) /\ ~ In (TM ACC) (rhs p).
  Notation sp := (start_prod all goal START).
  Notation ini := (initial all goal START).
  (* rs: the terminals returned for each set, ps: the positions of the sets *)
  Definition returned (rs : list (list (nat * nat))) (k t l : nat) : Prop := exists ra, nth_error rs k = Some ra /\ In (t, l) ra.
  Definition satisfied (ps : list place) (k : nat) (prev : option tree) (c : nat) : Prop := exists p, nth_error ps k = Some p /\ check prev p c = Ok true.
  Definition chained (ps : list place) (rs : list (list (nat * nat))) : Prop :=
    length ps = S (length rs) /\
    forall k ra, nth_error rs k = Some ra -> exists p p' exp kl, nth_error ps k = Some p /\ nth_error ps (S k) = Some p' /\ tpos p <= tpos p' /\ gnti p exp kl = Ok (Some (ra, p')).
  Lemma returned_app rs r k t l : returned rs k t l -> returned (rs ++ r) k t l.
  Proof. intros (ra & N & I). exists ra. split; [|auto]. rewrite nth_error_app1; [auto|]. apply nth_error_Some. congruence. Qed.
  Lemma satisfied_app ps r k p c : satisfied ps k p c -> satisfied (ps ++ r) k p c.
  Proof. intros (x & N & I). exists x. split; [|auto]. rewrite nth_error_app1; [auto|]. apply nth_error_Some. congruence. Qed.
  Notation tder ps rs := (der prods (returned rs) (satisfied ps)).
  Notation tvalid ps rs := (valid prods (returned rs) (satisfied ps) sp).
  Lemma tvalid_app ps rs p r more sets k x : tvalid ps rs sets k x -> tvalid (ps ++ p) (rs ++ r) (sets ++ more) k x.
  Proof.
    unfold valid. pose proof (partial_mono prods _ _ _ _ (returned_app rs r) (satisfied_app ps p)) as M. destruct (origin x) as [o|].
    - intros (IP & P & J & y & N & I & A). split; [auto|]. split; [auto|]. exists J, y. split; [|auto]. rewrite nth_error_app1; [auto|]. apply nth_error_Some. congruence.
    - intros (E & P). auto.
  Qed.
  Lemma tvalid_end ps rs sets k x t : tvalid ps rs sets k x -> after x = Some (TM t) -> t = END \/ t = ACC -> exists g, t = (if all then END else ACC) /\ x = advance ini (Some g) /\ tder ps rs 0 goal g k.
  Proof.
    intros V A T. unfold valid in V. destruct (origin x) as [o|] eqn:O.
    - exfalso. destruct V as (IP & _). apply after_in in A. destruct (Hspecial _ IP) as [H1 H2]. destruct T; subst; auto.
    - destruct V as [E P]. destruct (partial_after _ _ _ _ _ _ _ P A) as (dn & rest & E2 & PD). rewrite E in E2. cbn in E2.
      destruct dn as [|r1 [|r2 dn]]; cbn in E2; [discriminate| |].
      + injection E2 as E3 E4 E5. subst r1 rest. inversion PD as [|ws tr i a g j PD' D| |]; subst. inversion PD'; subst. exists g. split; [auto|]. split; [|auto].
        destruct x as [xo xp xt]. cbn in *. subst. reflexivity.
      + exfalso. apply (f_equal (@length _)) in E2. cbn in E2. rewrite !app_length in E2. cbn in E2. lia.
  Qed.
  Definition conclusion (start : place) (t : tree) : Prop := exists ps rs j,
    chained ps rs /\ nth_error ps 0 = Some start /\ j <= length rs /\ tder ps rs 0 goal t j /\ (all = true -> exists l, nth_error rs j = Some [(END, l)]).
  Lemma main_trace start f : forall n before kernel pos latest ps rs t,
    chained ps rs -> nth_error ps 0 = Some start -> length rs = length before -> nth_error ps (length before) = Some pos ->
    (forall o old x, nth_error before o = Some old -> In x old -> tvalid ps rs before o x) ->
    (forall x, In x kernel -> tvalid ps rs before (length before) x) ->
    (forall g, latest = Some g -> exists j, j <= length rs /\ tder ps rs 0 goal g j) ->
    main prods check all goal tpos gnti kludge n f before kernel pos latest = Ok t -> conclusion start t.
  Proof.
    induction n as [|n IH]; intros before kernel pos latest ps rs t CH PS RL PL HB HK HL H; [discriminate|]. cbn [main] in H.
    assert (HC : forall prev c, check prev pos c = Ok true -> satisfied ps (length before) prev c) by (intros prev c C; exists pos; auto).
    pose proof (close_valid prods check (returned rs) (satisfied ps) sp before pos f kernel HB HC HK) as V.
    destruct (close prods check before pos f kernel) as [its|e] eqn:CL; cbn [bind] in H; [|discriminate].
    assert (STOP : forall latest', (forall g, latest' = Some g -> exists j, j <= length rs /\ tder ps rs 0 goal g j) -> cannot_continue all goal latest' = Ok t -> conclusion start t).
    { intros latest' HL' E. unfold cannot_continue in E. destruct all eqn:AL; [discriminate|]. destruct latest' as [[|p ch]|]; try discriminate. destruct (lhs p =? goal); [|discriminate]. injection E as <-.
      destruct (HL' _ eq_refl) as (j & LJ & D). exists ps, rs, j. repeat split; auto; try apply CH. rewrite AL. discriminate. }
    destruct (terminals its []) as [|e0 es] eqn:EX; [eapply STOP; eauto|]. rewrite <- EX in H. clear e0 es EX.
    set (latest' := if all then latest else match expecting (TM ACC) its with [] => latest | i :: _ => transit i end) in *.
    assert (HL' : forall g, latest' = Some g -> exists j, j <= length rs /\ tder ps rs 0 goal g j).
    { intros g E. unfold latest' in E. destruct all eqn:AL; [auto|]. destruct (expecting (TM ACC) its) as [|i is] eqn:EE; [auto|].
      assert (I : In i (expecting (TM ACC) its)) by (rewrite EE; now left). apply in_expecting in I as [I A]. specialize (V i I).
      rewrite <- AL in V. destruct (tvalid_end _ _ _ _ _ _ V A (or_intror eq_refl)) as (g' & _ & -> & D). cbn in E. injection E as <-. exists (length before). split; [lia|auto]. }
    destruct (kludge its) as [kl|e]; cbn [bind] in H; [|discriminate]. destruct (gnti pos (terminals its []) kl) as [[[rats next]|]|e] eqn:GN; cbn [bind] in H; [|eapply STOP; eauto|discriminate].
    destruct (Nat.leb_spec (tpos pos) (tpos next)) as [LE|LE]; cbn [assert_ bind] in H; [|discriminate].
    destruct (next_kernel its rats) as [k|e] eqn:EK; cbn [bind] in H; [|discriminate]. destruct (negb _) eqn:NK; cbn [assert_ bind] in H; [|discriminate].
    pose proof (in_next_kernel its rats k EK) as IK.
    assert (CH' : chained (ps ++ [next]) (rs ++ [rats])).
    { destruct CH as [C1 C2]. split; [rewrite !app_length, C1; cbn; lia|]. intros m ra N. destruct (Nat.lt_ge_cases m (length rs)) as [L|L].
      - rewrite nth_error_app1 in N by auto. destruct (C2 m ra N) as (p & p' & exp & kl' & P1 & P2 & P3 & P4). exists p, p', exp, kl'. rewrite !nth_error_app1 by lia. auto.
      - rewrite nth_error_app2 in N by auto. destruct (m - length rs) as [|d] eqn:D; [|destruct d; discriminate]. injection N as <-. assert (m = length before) as -> by lia.
        exists pos, next, (terminals its []), kl. rewrite nth_error_app1 by lia. rewrite nth_error_app2, C1, RL, Nat.sub_diag by lia. auto. }
    assert (NX : forall m, nth_error (before ++ [its]) m = nth_error before m \/ m = length before \/ length before < m).
    { intros m. destruct (lt_eq_lt_dec m (length before)) as [[L|L]|L]; auto. left. apply nth_error_app1. auto. }
    assert (V' : forall x, In x its -> tvalid (ps ++ [next]) (rs ++ [rats]) (before ++ [its]) (length before) x).
    { intros x I. specialize (V x I). pose proof (tvalid_app ps rs [next] [rats] [] _ _ _ V) as Q. now rewrite app_nil_r in Q. }
    assert (CONT : main prods check all goal tpos gnti kludge n f (before ++ [its]) k next latest' = Ok t -> conclusion start t).
    { intros M. eapply IH; [exact CH'| | | | | | |exact M].
      - rewrite nth_error_app1; [auto|]. destruct CH. lia.
      - rewrite !app_length. cbn. lia.
      - destruct CH as [C1 _]. rewrite app_length. cbn. rewrite nth_error_app2 by lia. replace (length before + 1 - length ps) with 0 by lia. reflexivity.
      - intros o old x N I. destruct (NX o) as [E|[E|E]].
        + rewrite E in N. apply tvalid_app. eauto.
        + subst o. rewrite nth_error_app2, Nat.sub_diag in N by auto. injection N as <-. auto.
        + assert (o < length (before ++ [its])) by (apply nth_error_Some; congruence). rewrite app_length in *. cbn in *. lia.
      - intros x I. apply IK in I as (u & l & i & I & II & A & ->). rewrite app_length. cbn. rewrite Nat.add_1_r. apply valid_tm; [auto|auto|].
        exists rats. split; [|auto]. rewrite <- RL. rewrite nth_error_app2, Nat.sub_diag by auto. reflexivity.
      - intros g E. destruct (HL' g E) as (j & LJ & D). exists j. split; [rewrite app_length; lia|]. eapply der_mono; [apply returned_app|apply satisfied_app|exact D]. }
    destruct rats as [|[u l] [|r2 rats]]; [auto| |auto]. destruct (Nat.eqb_spec u END) as [->|]; [|auto].
    destruct k as [|x k]; [discriminate|]. cbn [goal_nodes] in H. destruct (goal_node goal x) as [g|e] eqn:EG; cbn [bind] in H; [|discriminate]. destruct (goal_nodes goal k); cbn [bind] in H; [|discriminate].
    injection H as <-. assert (IX := proj1 (IK x) (or_introl eq_refl)). destruct IX as (t' & l' & i & [E1|[]] & II & A & ->). injection E1 as <- <-.
    destruct (tvalid_end _ _ _ _ _ _ (V' i II) A (or_introl eq_refl)) as (g' & AL & -> & D). cbn in EG. destruct g' as [|p ch]; [discriminate|]. destruct (lhs p =? goal); [|discriminate]. injection EG as <-.
    exists (ps ++ [next]), (rs ++ [[(END, l)]]), (length before). split; [auto|]. split; [rewrite nth_error_app1; [auto|destruct CH; lia]|]. split; [rewrite app_length; lia|]. split; [auto|].
    intros _. exists l. rewrite <- RL. rewrite nth_error_app2, Nat.sub_diag by auto. reflexivity.
  Qed.
  Lemma parse_trace n f start t : parse prods check all goal START tpos gnti kludge n f start = Ok t -> conclusion start t.
  Proof.
    intros H. eapply (main_trace start f n [] [ini] start None [start] []); [| | | | | | |exact H].
    - split; [reflexivity|]. intros [|k] ra E; discriminate.
    - reflexivity.
    - reflexivity.
    - reflexivity.
    - intros [|o] old x E; discriminate.
    - intros x [<-|[]]. unfold valid. cbn [initial origin pr]. split; [auto|]. exists [], [NT goal; TM (if all then END else ACC)]. split; [reflexivity|constructor].
    - discriminate.
  Qed.
End Trace.
