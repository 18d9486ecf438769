(* The main loop of the Earley parser. *)
From Verif Require Import M_Base M_Earley L_Earley L_EarleyMain.

Section Main.
  Variable prods : list prod.
  Context {place : Type}.
  Variable check : option tree -> place -> nat -> res bool.
  Variable all : bool.
  Variables goal START : nat.
  Variable tpos : place -> nat.
  Variable gnti : place -> list nat -> option nat -> res (option (list (nat * nat) * place)).
  Variable kludge : list item -> res (option nat).
  (* the input: where the k-th set is, and which terminals match there *)
  Variable posf : nat -> place.
  Variable tok : nat -> nat -> nat -> Prop.
  Definition chk (k : nat) (prev : option tree) (c : nat) : Prop := check prev (posf k) c = Ok true.
  Notation fin := (if all then END else ACC).
  Notation sp := (start_prod all goal START).
  Notation ini := (initial all goal START).
  Notation der := (der prods tok chk).
  Notation valid := (valid prods tok chk sp).
  Hypothesis Hspecial : forall p, In p prods -> ~ In (TM END) (rhs p) /\ ~ In (TM ACC) (rhs p).
  Hypothesis Htip : forall k exp kl rats next, exp <> [] -> gnti (posf k) exp kl = Ok (Some (rats, next)) ->
    next = posf (S k) /\ tpos (posf k) <= tpos next /\ rats <> [] /\ (forall t l, In (t, l) rats -> In t exp /\ tok k t l) /\ (forall t l, In t exp -> tok k t l -> In (t, l) rats).
  Hypothesis Htip_none : forall k exp kl t l, exp <> [] -> gnti (posf k) exp kl = Ok None -> In t exp -> ~ tok k t l.

  Record good (before : list (list item)) : Prop := {
    g_valid : forall o old x, nth_error before o = Some old -> In x old -> valid before o x;
    g_closed : forall k I, nth_error before k = Some I -> closed prods chk before k I;
    g_scan : forall k I J x t l, nth_error before k = Some I -> nth_error before (S k) = Some J -> In x I -> after x = Some (TM t) -> tok k t l -> In (advance x (Some (Leaf t l))) J;
    g_ini : forall I, nth_error before 0 = Some I -> In ini I }.
  Record good_kernel (before : list (list item)) (kernel : list item) : Prop := {
    k_valid : forall x, In x kernel -> valid before (length before) x;
    k_ini : before = [] -> In ini kernel;
    k_scan : forall k I x t l, S k = length before -> nth_error before k = Some I -> In x I -> after x = Some (TM t) -> tok k t l -> In (advance x (Some (Leaf t l))) kernel }.

  Lemma valid_app sets more k x : valid sets k x -> valid (sets ++ more) k x.
  Proof.
    unfold L_Earley.valid. destruct (origin x) as [o|]; [|auto]. intros (IP & P & J & y & N & I & A). split; [auto|]. split; [auto|].
    exists J, y. rewrite nth_error_app1; [auto|]. apply nth_error_Some. congruence.
  Qed.
  Lemma valid_origin sets k x o : valid sets k x -> origin x = Some o -> o < length sets.
  Proof. unfold L_Earley.valid. intros V O. rewrite O in V. destruct V as (_ & _ & J & y & N & _). apply nth_error_Some. congruence. Qed.
  Lemma good_close before kernel f its : good before -> good_kernel before kernel -> close prods check before (posf (length before)) f kernel = Ok its -> good (before ++ [its]).
  Proof.
    intros G K H. assert (HC : forall prev c, chk (length before) prev c <-> check prev (posf (length before)) c = Ok true) by (unfold chk; tauto).
    pose proof (close_valid prods check tok chk sp before _ f kernel (g_valid _ G) (fun p c => proj2 (HC p c)) (k_valid _ _ K)) as V. rewrite H in V.
    destruct (close_closed prods check chk before _ f kernel its (fun p c => proj1 (HC p c)) H) as [C S].
    assert (NL : forall k I, nth_error (before ++ [its]) k = Some I -> nth_error before k = Some I \/ (k = length before /\ I = its)).
    { intros k I N. destruct (Nat.lt_ge_cases k (length before)) as [L|L]; [rewrite nth_error_app1 in N by auto; auto|].
      rewrite nth_error_app2 in N by auto. destruct (k - length before) as [|d] eqn:D; [|destruct d; discriminate]. injection N as <-. right. split; [lia|auto]. }
    split.
    - intros o old x N I. destruct (NL _ _ N) as [N'|[-> ->]]; [apply valid_app; eapply g_valid; eauto|auto].
    - intros k I N. destruct (NL _ _ N) as [N'|[-> ->]]; [|exact C]. apply closed_more; [now apply G|]. intros y o IY O. eapply valid_origin; [eapply g_valid; eauto|exact O].
    - intros k I J x t l N1 N2 IX A T. destruct (NL _ _ N1) as [N1'|[E1 E2]].
      + destruct (NL _ _ N2) as [N2'|[E1 E2]]; [exact (g_scan _ G k I J x t l N1' N2' IX A T)|]. rewrite E2. apply S. exact (k_scan _ _ K k I x t l E1 N1' IX A T).
      + subst. assert (X : Datatypes.S (length before) < length (before ++ [its])) by (apply nth_error_Some; congruence). rewrite app_length in X. cbn in X. lia.
    - intros I N. destruct (NL _ _ N) as [N'|[E ->]]; [eapply (g_ini _ G); eauto|]. apply S. apply K. destruct before; [auto|discriminate].
  Qed.

  (* an item that expects the end *)
  Lemma at_end sets k x t : valid sets k x -> after x = Some (TM t) -> t = END \/ t = ACC -> exists g, t = fin /\ x = advance ini (Some g) /\ der 0 goal g k.
  Proof.
    intros V A T. unfold L_Earley.valid in V. destruct (origin x) as [o|] eqn:O.
    - exfalso. destruct V as (IP & _). apply after_in in A. destruct (Hspecial _ IP) as [H1 H2]. destruct T; subst; auto.
    - destruct V as [E P]. destruct (partial_after _ _ _ _ _ _ _ P A) as (dn & rest & E2 & PD). rewrite E in E2. cbn in E2.
      destruct dn as [|r1 [|r2 dn]]; cbn in E2; [discriminate| |].
      + injection E2 as E3 E4 E5. subst r1 rest. inversion PD as [|rs tr i a g j PD' D| |]; subst. inversion PD'; subst. exists g. split; [auto|]. split; [|auto].
        destruct x as [xo xp xt]. cbn in *. subst. reflexivity.
      + exfalso. apply (f_equal (@length _)) in E2. cbn in E2. rewrite !app_length in E2. cbn in E2. lia.
  Qed.

  Definition none_before (m : nat) : Prop := forall t j, j < m -> ~ der 0 goal t j.
  Definition longest_before (m : nat) (t : tree) : Prop := exists j, j < m /\ der 0 goal t j /\ forall t' j', j' < m -> der 0 goal t' j' -> j' <= j.
  Definition latest_ok (m : nat) (latest : option tree) : Prop := match latest with None => none_before m | Some t => longest_before m t end.

  Section Stop.
    Variables (before : list (list item)) (its : list item).
    Hypothesis G : good (before ++ [its]).
    Let n := length before.
    Let LEN : length (before ++ [its]) = S n. Proof. rewrite app_length. cbn. unfold n. lia. Qed.
    Lemma ini_at : at_ (before ++ [its]) 0 ini.
    Proof. destruct (nth_error (before ++ [its]) 0) as [I|] eqn:E; [exists I; split; [auto|]; now apply (g_ini _ G)|]. apply nth_error_None in E. lia. Qed.
    Lemma reached t j : der 0 goal t j -> (j <= n -> at_ (before ++ [its]) j (advance ini (Some t))) /\ (n < j -> awaits tok (before ++ [its]) n).
    Proof. intros D. refine (proj1 (follow prods tok chk (before ++ [its]) n LEN (g_closed _ G) (g_scan _ G)) 0 goal t j D _ ini ini_at eq_refl). lia. Qed.
    Lemma at_last x : at_ (before ++ [its]) n x <-> In x its.
    Proof.
      unfold at_, n. rewrite nth_error_app2, Nat.sub_diag by auto. cbn. split; [intros (I & E & X); now injection E as <-|eauto].
    Qed.
    Lemma awaited t j : der 0 goal t j -> n < j -> exists u l, In u (terminals its []) /\ tok n u l.
    Proof. intros D L. destruct (proj2 (reached t j D) L) as (y & u & l & AT & A & T). exists u, l. split; [|auto]. apply in_terminals. right. exists y. split; [now apply at_last|auto]. Qed.
    Lemma ending t : der 0 goal t n -> In fin (terminals its []) /\ In (advance ini (Some t)) (expecting (TM fin) its).
    Proof.
      intros D. assert (AT : In (advance ini (Some t)) its) by (apply at_last; apply (reached t n D); auto).
      split; [apply in_terminals; right; exists (advance ini (Some t)); split; [auto|now destruct all]|apply in_expecting; split; [auto|now destruct all]].
    Qed.
    Lemma no_further t j l : der 0 goal t j -> tok j fin l -> j < n -> False.
    Proof.
      intros D T L. destruct (reached t j D) as [H _]. destruct (H ltac:(lia)) as (I & NI & IX).
      destruct (nth_error (before ++ [its]) (S j)) as [J|] eqn:NJ; [|apply nth_error_None in NJ; lia].
      assert (IY := g_scan _ G j I J (advance ini (Some t)) fin l NI NJ IX ltac:(now destruct all) T).
      refine (c_start _ _ _ _ _ (g_closed _ G _ _ NJ) _ IY _ eq_refl). destruct all; reflexivity.
    Qed.
    Lemma accepting : match expecting (TM fin) its with
      | [] => forall t, ~ der 0 goal t n
      | i :: _ => exists t, transit i = Some t /\ der 0 goal t n
      end.
    Proof.
      destruct (expecting (TM fin) its) as [|i l] eqn:E.
      - intros t D. pose proof (proj2 (ending t D)) as H. rewrite E in H. destruct H.
      - assert (I : In i (expecting (TM fin) its)) by (rewrite E; now left). apply in_expecting in I as [I A].
        destruct (at_end (before ++ [its]) n i fin) as (g & _ & -> & D); [apply (g_valid _ G n its); [|auto]|auto|destruct all; auto|].
        { unfold n. rewrite nth_error_app2, Nat.sub_diag by auto. reflexivity. }
        exists g. split; [reflexivity|exact D].
    Qed.
    Lemma few_trees j : (forall t, der 0 goal t j -> j <= n) -> exists trees, forall t, der 0 goal t j -> In t trees.
    Proof.
      intros H. destruct (nth_error (before ++ [its]) j) as [I|] eqn:N.
      - exists (map (fun x => match transit x with Some t => t | None => Leaf 0 0 end) I). intros t D.
        destruct (proj1 (reached t j D) (H t D)) as (I' & N' & IX). rewrite N in N'. injection N' as <-. apply in_map_iff. exists (advance ini (Some t)). auto.
      - exists []. intros t D. apply nth_error_None in N. specialize (H t D). lia.
    Qed.
    Lemma latest_step latest : all = false -> latest_ok n latest -> latest_ok (S n) match expecting (TM ACC) its with [] => latest | i :: _ => transit i end.
    Proof.
      intros AF L. pose proof accepting as A. rewrite AF in A. destruct (expecting (TM ACC) its) as [|i l].
      - destruct latest as [t|]; cbn in *.
        + destruct L as (j & LJ & D & M). exists j. split; [lia|]. split; [auto|]. intros t' j' L' D'. destruct (Nat.eq_dec j' n) as [->|]; [destruct (A _ D')|apply (M t'); [lia|auto]].
        + intros t j LJ D. destruct (Nat.eq_dec j n) as [->|]; [exact (A _ D)|apply (L t j); [lia|auto]].
      - destruct A as (t & E & D). rewrite E. cbn. exists n. split; [lia|]. split; [auto|]. intros; lia.
    Qed.
  End Stop.

  Definition outcome_ok (t : tree) : Prop :=
    if all then exists j l, der 0 goal t j /\ tok j END l
    else (exists j, der 0 goal t j /\ forall t' j', der 0 goal t' j' -> j' <= j) /\ forall j, exists trees, forall t', der 0 goal t' j -> In t' trees.
  Definition no_parse : Prop :=
    if all then forall t j l, der 0 goal t j -> ~ tok j END l else forall t j, ~ der 0 goal t j.
  (* the k-th set is reached only when the call of the tip for the set before has found terminals *)
  Definition at_call (k : nat) : Prop := k = 0 \/ exists k' exp kl rats next, k = S k' /\ exp <> [] /\ gnti (posf k') exp kl = Ok (Some (rats, next)).
  Definition trouble (e : exn) : Prop :=
    e = OutOfFuel \/ (exists k prev c, check prev (posf k) c = Err e) \/ (exists its, kludge its = Err e) \/ (exists k exp kl its, at_call k /\ kludge its = Ok kl /\ gnti (posf k) exp kl = Err e) \/
    (e = UserError /\ exists p a, (In p prods \/ p = sp) /\ In (NT a) (rhs p) /\ forall q, In q prods -> lhs q <> a) \/
    (e = AssertionError /\ exists t j l, der 0 goal t j /\ tok j fin l).

  Lemma der_root i a t j : der i a t j -> exists p ch, t = Node p ch /\ lhs p = a.
  Proof. inversion 1; subst; eauto. Qed.
  Lemma stop_ok n latest : (all = false -> latest_ok (S n) latest) -> (all = true -> no_parse) -> (all = false -> forall t j, der 0 goal t j -> j <= n) ->
    (all = false -> forall j, exists trees, forall t', der 0 goal t' j -> In t' trees) ->
    match cannot_continue all goal latest with Ok t => outcome_ok t | Err e => e = UserError /\ no_parse end.
  Proof.
    intros L NA NM NF. unfold cannot_continue, outcome_ok, no_parse in *. destruct all; [split; [reflexivity|now apply NA]|]. specialize (L eq_refl). specialize (NM eq_refl). destruct latest as [t|]; cbn in L.
    - destruct L as (j & LJ & D & M). destruct (der_root _ _ _ _ D) as (p & ch & -> & E). rewrite E, Nat.eqb_refl. cbn. split; [|now apply NF]. exists j. split; [auto|].
      intros t' j' D'. apply (M t'); [|auto]. specialize (NM _ _ D'). lia.
    - split; [auto|]. intros t j D. apply (L t j); [|auto]. specialize (NM _ _ D). lia.
  Qed.

  Lemma next_kernel_ok its rats : (forall t l, In (t, l) rats -> exists i, In i its /\ after i = Some (TM t)) -> exists k, next_kernel its rats = Ok k.
  Proof.
    induction rats as [|[t l] rats IH]; cbn; intros H; [eauto|]. destruct (H t l (or_introl eq_refl)) as (i & I & A).
    assert (X : In i (expecting (TM t) its)) by (apply in_expecting; auto). destruct (expecting (TM t) its) as [|y ys]; [destruct X|]. cbn.
    destruct IH as [k ->]; [intros; eapply H; eauto|]. cbn. eauto.
  Qed.

  Lemma kernel_step before its kl rats next k : good (before ++ [its]) -> terminals its [] <> [] -> gnti (posf (length before)) (terminals its []) kl = Ok (Some (rats, next)) ->
    next_kernel its rats = Ok k -> good_kernel (before ++ [its]) k.
  Proof.
    intros G' NE GN EK. destruct (Htip _ _ _ _ _ NE GN) as (-> & LE & RN & RS & RC). pose proof (in_next_kernel its rats k EK) as IK.
    assert (NN : nth_error (before ++ [its]) (length before) = Some its) by (rewrite nth_error_app2, Nat.sub_diag by auto; reflexivity).
    split.
    - intros x I. apply IK in I as (t & l & i & I & II & A & ->). rewrite app_length. cbn. rewrite Nat.add_1_r. apply valid_tm; [|auto|apply (RS t l I)]. eapply (g_valid _ G'); eauto.
    - intros E. destruct before; discriminate.
    - intros m I x t l E N IX A T. rewrite app_length in E. cbn in E. assert (m = length before) as -> by lia. rewrite NN in N. injection N as <-.
      apply IK. exists t, l, x. repeat split; auto. apply RC; [|auto]. apply in_terminals. right. eauto.
  Qed.
  Lemma main_ok f : forall n before kernel latest, good before -> good_kernel before kernel -> at_call (length before) -> (all = false -> latest_ok (length before) latest) ->
    match main prods check all goal tpos gnti kludge n f before kernel (posf (length before)) latest with
    | Ok t => outcome_ok t
    | Err e => (e = UserError /\ no_parse) \/ trouble e
    end.
  Proof.
    induction n as [|n IH]; intros before kernel latest G K AC L; cbn [main]; [right; left; reflexivity|].
    pose proof (close_valid prods check tok chk sp before (posf (length before)) f kernel (g_valid _ G) (fun p c H => H) (k_valid _ _ K)) as V.
    destruct (close prods check before (posf (length before)) f kernel) as [its|e] eqn:CL; cbn [bind].
    2:{ right. unfold trouble. destruct V as [->|[(prev & c & E)|[(-> & p & a & IP & IA & E)|(-> & i & O & A & EP & P)]]]; [auto|right; left; eauto| |].
        - right; right; right; right; left. split; [auto|]. exists p, a. split; [auto|]. split; [auto|]. intros q IQ LQ.
          assert (X : In q (prods_of prods a)) by (apply in_prods_of; auto). rewrite E in X. destruct X.
        - right; right; right; right; right. split; [auto|]. destruct P as (dn & rest & E & PD). rewrite EP in E. unfold after in A. rewrite EP in A. cbn in A, E.
          pose proof (pders_length _ _ _ _ _ _ _ PD) as LN. destruct (trans i) as [|t1 [|t2 ts]]; cbn in A; [discriminate|discriminate|].
          destruct dn as [|r1 [|r2 dn]]; cbn in LN; try lia. cbn in E. rewrite <- !app_assoc in E. cbn in E.
          assert (dn = []) as ->. { apply (f_equal (@length _)) in E. cbn in E. rewrite app_length, rev_length in E. cbn in E. destruct dn; [auto|cbn in E; lia]. }
          cbn in E. injection E as E1 E2 E3. subst r1 r2. inversion PD as [| |rs tr i0 t l PD' T|]; subst. inversion PD' as [|rs' tr' i1 a g j PD'' D| |]; subst. inversion PD''; subst.
          exists g, i0, l. auto. }
    assert (G' := good_close _ _ _ _ G K CL).
    assert (NIL : terminals its [] = [] -> match cannot_continue all goal latest with Ok t => outcome_ok t | Err e => e = UserError /\ no_parse end).
    { intros E. assert (Q : forall t j, der 0 goal t j -> j < length before).
      { intros t j D. destruct (lt_eq_lt_dec (length before) j) as [[LJ|LJ]|LJ]; [| |auto].
        - destruct (awaited _ _ G' t j D LJ) as (u & l & I & _). rewrite E in I. destruct I.
        - subst j. destruct (ending _ _ G' t D) as [I _]. rewrite E in I. destruct I. }
      apply (stop_ok (length before)).
      - intros AF. specialize (L AF). destruct latest as [t|]; cbn in *.
        + destruct L as (j & LJ & D & M). exists j. split; [lia|]. split; [auto|]. intros t' j' _ D'. apply (M t'); [|auto]. apply (Q t'); auto.
        + intros t j _ D. apply (L t j); [|auto]. apply (Q t); auto.
      - intros AT. unfold no_parse. rewrite AT. intros t j l D T. apply (no_further _ _ G' t j l D); [now rewrite AT|]. apply (Q t j D).
      - intros _ t j D. specialize (Q t j D). lia.
      - intros _ j. apply (few_trees _ _ G'). intros t' D'. specialize (Q t' j D'). lia. }
    destruct (terminals its []) as [|e0 es] eqn:EX; [specialize (NIL eq_refl); destruct (cannot_continue all goal latest); auto|]. clear NIL.
    rewrite <- EX. set (latest' := if all then latest else _).
    assert (L' : all = false -> latest_ok (S (length before)) latest').
    { intros AF. unfold latest'. rewrite AF. apply (latest_step before its G' latest AF). auto. }
    destruct (kludge its) as [kl|e] eqn:KL; cbn [bind]; [|right; unfold trouble; right; right; left; eauto].
    assert (NE : terminals its [] <> []) by congruence.
    destruct (gnti (posf (length before)) (terminals its []) kl) as [r|e] eqn:GN; cbn [bind]; [|right; unfold trouble; right; right; right; left; exists (length before), (terminals its []), kl, its; auto].
    destruct r as [[rats next]|].
    2:{ assert (X : match cannot_continue all goal latest' with Ok t => outcome_ok t | Err e => e = UserError /\ no_parse end).
        { assert (Q : forall t j, der 0 goal t j -> j <= length before).
          { intros t j D. destruct (Nat.le_gt_cases j (length before)) as [|LJ]; [auto|]. exfalso. destruct (awaited _ _ G' t j D LJ) as (u & l & I & T). apply (Htip_none _ _ _ u l NE GN I T). }
          apply (stop_ok (length before)); [auto| |auto|intros _ j; apply (few_trees _ _ G'); intros t' D'; exact (Q t' j D')].
          intros AT. unfold no_parse. rewrite AT. intros t j l D T. destruct (Nat.eq_dec j (length before)) as [->|NJ].
          - pose proof (proj1 (ending _ _ G' t D)) as I. rewrite AT in I. exact (Htip_none _ _ _ _ l NE GN I T).
          - apply (no_further _ _ G' t j l D); [now rewrite AT|]. specialize (Q t j D). lia. }
        destruct (cannot_continue all goal latest'); auto. }
    destruct (Htip _ _ _ _ _ NE GN) as (-> & LE & RN & RS & RC). apply Nat.leb_le in LE. rewrite LE. cbn [assert_ bind].
    assert (RI : forall t l, In (t, l) rats -> exists i, In i its /\ after i = Some (TM t)).
    { intros t l I. destruct (RS t l I) as [I2 _]. apply in_terminals in I2 as [[]|X]. exact X. }
    destruct (next_kernel_ok its rats RI) as [k EK]. rewrite EK. cbn [bind]. pose proof (in_next_kernel its rats k EK) as IK.
    assert (KN : k <> []).
    { destruct rats as [|[t l] rats]; [congruence|]. destruct (RI t l (or_introl eq_refl)) as (i & I & A).
      intros ->. apply (proj2 (IK (advance i (Some (Leaf t l))))). exists t, l, i. cbn. auto. }
    assert (KX : negb (match k with [] => true | _ => false end) = true) by (destruct k; [congruence|reflexivity]). rewrite KX. cbn [assert_ bind].
    assert (NN : nth_error (before ++ [its]) (length before) = Some its) by (rewrite nth_error_app2, Nat.sub_diag by auto; reflexivity).
    assert (K' : good_kernel (before ++ [its]) k) by (eapply kernel_step; eauto).
    assert (CONT : match main prods check all goal tpos gnti kludge n f (before ++ [its]) k (posf (S (length before))) latest' with Ok t => outcome_ok t | Err e => (e = UserError /\ no_parse) \/ trouble e end).
    { assert (E : length (before ++ [its]) = S (length before)) by (rewrite app_length; cbn; lia). rewrite <- E. apply IH; auto; [|rewrite E; auto]. rewrite E. right. exists (length before), (terminals its []), kl, rats, (posf (S (length before))). auto. }
    destruct rats as [|[t l] [|r2 rats]]; [exact CONT| |exact CONT]. destruct (Nat.eqb_spec t END) as [->|NT]; [|exact CONT]. clear CONT.
    assert (GE : forall ks, (forall x, In x ks -> In x k) -> exists ns, goal_nodes goal ks = Ok ns /\ length ns = length ks /\ forall g, In g ns -> all = true /\ der 0 goal g (length before)).
    { induction ks as [|x ks IHk]; intros H; [exists []; cbn; repeat split; try tauto; intros ? []|]. destruct IHk as (ns & E & LN & D); [intros; apply H; now right|].
      assert (IX := H x (or_introl eq_refl)). apply IK in IX as (t & l' & i & [E1|[]] & II & A & ->). injection E1 as <- <-.
      destruct (at_end (before ++ [its]) (length before) i END) as (g & AL & -> & Dg); [eapply (g_valid _ G'); eauto|auto|auto|].
      assert (AT : all = true) by (destruct all; [auto|discriminate]).
      destruct (der_root _ _ _ _ Dg) as (p & ch & -> & EP). cbn [goal_nodes goal_node advance trans]. rewrite EP, Nat.eqb_refl. cbn [assert_ bind]. rewrite E. cbn [bind].
      exists (Node p ch :: ns). split; [auto|]. split; [cbn; auto|]. intros g' [<-|I']; [split; auto|auto]. }
    destruct (GE k (fun x H => H)) as (ns & E & LN & D). rewrite E. cbn [bind]. destruct ns as [|g ns]; [destruct k; [congruence|discriminate]|].
    destruct (D g (or_introl eq_refl)) as [AT Dg]. unfold outcome_ok. rewrite AT. exists (length before), l. split; [auto|]. apply (RS END l). now left.
  Qed.

  Lemma parse_ok n f : match parse prods check all goal START tpos gnti kludge n f (posf 0) with
    | Ok t => outcome_ok t
    | Err e => (e = UserError /\ no_parse) \/ trouble e
    end.
  Proof.
    apply (main_ok f n [] [ini] None).
    - split; intros; destruct k || destruct o || idtac; discriminate.
    - split; [|intros _; now left|intros; discriminate]. intros x [<-|[]]. unfold L_Earley.valid. cbn [initial origin pr]. split; [auto|].
      exists [], [NT goal; TM fin]. split; [reflexivity|constructor].
    - now left.
    - intros _ t j L. cbn in L. lia.
  Qed.
End Main.
