(* Completeness of the Earley parser for any source of terminals, by replaying the answers of the source. *)
From Verif Require Import M_Base M_Earley L_Earley L_EarleyMain L_EarleyParse.

Lemma run_place {A B} prods (check : option tree -> A -> nat -> res bool) (check' : option tree -> B -> nat -> res bool) before p p' :
  (forall prev c, check prev p c = check' prev p' c) -> forall n t s, run prods check before p n t s = run prods check' before p' n t s.
Proof.
  intros E. induction n as [|n IH]; intros t s; cbn [run]; [auto|]. destruct t as [i|is|i a k|a tr k]; cbn [step].
  - destruct (existsb _ _); [auto|]. destruct (after i) as [[a|t|c]|].
    + rewrite IH. destruct (run prods check' before p' n _ _) as [s2|e]; cbn [bind]; [|auto]. destruct (prods_of prods a); [auto|apply IH].
    + auto.
    + rewrite E. destruct (check' _ _ _) as [[|]|e]; cbn [bind]; auto.
    + destruct (origin i); [|auto]. destruct (_ =? _).
      * destruct (expecting _ _); cbn [negb assert_ bind]; [auto|apply IH].
      * destruct (nth_error before n0); [|auto]. destruct (expecting _ l); cbn [negb assert_ bind]; [auto|apply IH].
  - destruct is as [|i is]; [auto|]. rewrite IH. destruct (run prods check' before p' n _ _); cbn [bind]; auto.
  - destruct (nth_error (nulls s) k) as [[b m]|]; [|auto]. destruct (b =? a).
    + rewrite IH. destruct (run prods check' before p' n _ _); cbn [bind]; auto.
    + cbn [bind]. apply IH.
  - destruct (nth_error _ k) as [b|]; [|auto]. rewrite IH. destruct (run prods check' before p' n _ _); cbn [bind]; auto.
Qed.
Lemma close_place {A B} prods (check : option tree -> A -> nat -> res bool) (check' : option tree -> B -> nat -> res bool) before p p' n kernel :
  (forall prev c, check prev p c = check' prev p' c) -> close prods check before p n kernel = close prods check' before p' n kernel.
Proof. intros E. unfold close. now rewrite (run_place prods check check' before p p' E). Qed.

Section Replay.
  Variable prods : list prod.
  Context {place : Type}.
  Variable check : option tree -> place -> nat -> res bool.
  Variables goal START : nat.
  Variable tpos : place -> nat.
  Variable gnti : place -> list nat -> option nat -> res (option (list (nat * nat) * place)).
  Variable kludge : list item -> res (option nat).
  Hypothesis Hspecial : forall p, In p prods -> ~ In (TM END) (rhs p) /\ ~ In (TM ACC) (rhs p).
  Hypothesis Hdefined : (forall p a, In p prods -> In (NT a) (rhs p) -> exists q, In q prods /\ lhs q = a) /\ (exists q, In q prods /\ lhs q = goal).
  Hypothesis Hcheck : forall prev p c, check prev p c <> Err UserError.
  Hypothesis Hkludge : forall its, kludge its <> Err UserError.
  Hypothesis Hgnti : forall p exp kl rats next t l, gnti p exp kl = Ok (Some (rats, next)) -> In (t, l) rats -> In t exp.

  Definition nats_eqb : list nat -> list nat -> bool := list_eqb Nat.eqb.
  Lemma nats_eqb_eq a b : nats_eqb a b = true <-> a = b.
  Proof. revert b. induction a as [|x a IH]; intros [|y b]; cbn; try (split; congruence). rewrite andb_true_iff, Nat.eqb_eq, IH. split; [intros [-> ->]; auto|intros E; injection E; auto]. Qed.

  (* the places, and for each but the last what was asked for and what was returned; at the last place what was asked for in vain *)
  Definition rcheck (ps : list place) (prev : option tree) (k c : nat) : res bool := match nth_error ps k with Some p => check prev p c | None => Ok true end.
  Definition rgnti (qs : list (list nat * list (nat * nat))) (final : list nat) (k : nat) (exp : list nat) (kl : option nat) : res (option (list (nat * nat) * nat)) :=
    match nth_error qs k with
    | Some (e, ra) => if nats_eqb exp e && negb (match ra with [] => true | _ => false end) then Ok (Some (ra, S k)) else Err OutOfFuel
    | None => if (k =? length qs) && nats_eqb exp final then Ok None else Err OutOfFuel
    end.
  Definition asked (ps : list place) (qs : list (list nat * list (nat * nat))) : Prop :=
    length ps = S (length qs) /\
    forall k e ra, nth_error qs k = Some (e, ra) -> exists p p' kl, nth_error ps k = Some p /\ nth_error ps (S k) = Some p' /\ gnti p e kl = Ok (Some (ra, p')).
  Definition refused (ps : list place) (qs : list (list nat * list (nat * nat))) (final : list nat) : Prop :=
    final = [] \/ exists p kl, nth_error ps (length qs) = Some p /\ (gnti p final kl = Ok None \/ gnti p final kl = Err UserError).

  Lemma goal_nodes_user ks : goal_nodes goal ks <> Err UserError.
  Proof.
    induction ks as [|i ks IH]; cbn; [discriminate|]. unfold goal_node. destruct (trans i) as [|x [|[[t l|p ch]|] tr]]; cbn [bind]; try discriminate.
    destruct (lhs p =? goal); cbn [assert_ bind]; [|discriminate]. destruct (goal_nodes goal ks); cbn [bind]; congruence.
  Qed.
  Lemma next_kernel_user its rats : next_kernel its rats <> Err UserError.
  Proof.
    induction rats as [|[t l] rats IH]; cbn; [discriminate|]. destruct (_ || _); cbn [assert_ bind]; [|discriminate]. destruct (next_kernel its rats); cbn [bind]; congruence.
  Qed.

  Lemma replay f : forall n before kernel latest ps qs p,
    asked (ps ++ [p]) qs -> length qs = length before ->
    main prods check true goal tpos gnti kludge n f before kernel p latest = Err UserError ->
    exists ps' qs' final, asked (ps ++ [p] ++ ps') (qs ++ qs') /\ refused (ps ++ [p] ++ ps') (qs ++ qs') final /\
      main prods (rcheck (ps ++ [p] ++ ps')) true goal (fun _ => 0) (rgnti (qs ++ qs') final) kludge n f before kernel (length before) latest = Err UserError.
  Proof.
    induction n as [|n IH]; intros before kernel latest ps qs p AS LQ H; [discriminate|]. cbn [main] in H.
    assert (LP : length ps = length before) by (destruct AS as [AS _]; rewrite app_length in AS; cbn in AS; lia).
    assert (NP : forall ps', nth_error (ps ++ [p] ++ ps') (length before) = Some p) by (intros ps'; rewrite <- LP, nth_error_app2, Nat.sub_diag by auto; reflexivity).
    assert (CP : forall ps', close prods (rcheck (ps ++ [p] ++ ps')) before (length before) f kernel = close prods check before p f kernel).
    { intros ps'. apply close_place. intros prev c. unfold rcheck. now rewrite NP. }
    destruct (close prods check before p f kernel) as [its|e] eqn:CL; cbn [bind] in H.
    2:{ exists [], [], []. rewrite !app_nil_r. split; [exact AS|]. split; [now left|]. cbn [main]. pose proof (CP []) as CP'. rewrite app_nil_r in CP'. rewrite CP'. cbn [bind]. congruence. }
    destruct (terminals its []) as [|e0 es] eqn:EX.
    { exists [], [], []. rewrite !app_nil_r. split; [exact AS|]. split; [now left|]. cbn [main]. pose proof (CP []) as CP'. rewrite app_nil_r in CP'. rewrite CP'. cbn [bind]. rewrite EX. exact H. }
    rewrite <- EX in H. assert (NE : terminals its [] <> []) by congruence. clear e0 es EX.
    destruct (kludge its) as [kl|e] eqn:KL; cbn [bind] in H; [|exfalso; apply (Hkludge its); congruence].
    assert (STOP : gnti p (terminals its []) kl = Ok None \/ gnti p (terminals its []) kl = Err UserError ->
      exists ps' qs' final, asked (ps ++ [p] ++ ps') (qs ++ qs') /\ refused (ps ++ [p] ++ ps') (qs ++ qs') final /\
      main prods (rcheck (ps ++ [p] ++ ps')) true goal (fun _ => 0) (rgnti (qs ++ qs') final) kludge (S n) f before kernel (length before) latest = Err UserError).
    { intros G. exists [], [], (terminals its []). rewrite !app_nil_r. split; [exact AS|]. split.
      - right. exists p, kl. split; [|exact G]. rewrite LQ. pose proof (NP []) as N. now rewrite app_nil_r in N.
      - cbn [main]. pose proof (CP []) as CP'. rewrite app_nil_r in CP'. rewrite CP'. cbn [bind]. destruct (terminals its []) as [|e0 es] eqn:EX; [congruence|]. rewrite <- EX in *. rewrite KL. cbn [bind].
        unfold rgnti. assert (nth_error qs (length before) = None) as -> by (apply nth_error_None; lia). rewrite LQ, Nat.eqb_refl, (proj2 (nats_eqb_eq _ _) eq_refl). cbn [andb bind]. reflexivity. }
    destruct (gnti p (terminals its []) kl) as [[[rats next]|]|e] eqn:GN; cbn [bind] in H; [|now apply STOP; left|now apply STOP; right; congruence].
    clear STOP. destruct (tpos p <=? tpos next) eqn:TP; cbn [assert_ bind] in H; [|discriminate].
    destruct (next_kernel its rats) as [k|e] eqn:NK; cbn [bind] in H; [|exfalso; apply (next_kernel_user its rats); congruence].
    assert (RN : rats <> []) by (intros ->; cbn in NK; injection NK as <-; discriminate).
    destruct k as [|k0 ks] eqn:KE; cbn [negb assert_ bind] in H; [discriminate|]. rewrite <- KE in *.
    assert (CONT : main prods check true goal tpos gnti kludge n f (before ++ [its]) k next latest = Err UserError ->
      exists ps' qs' final, asked (ps ++ [p] ++ ps') (qs ++ qs') /\ refused (ps ++ [p] ++ ps') (qs ++ qs') final /\
        main prods (rcheck (ps ++ [p] ++ ps')) true goal (fun _ => 0) (rgnti (qs ++ qs') final) kludge n f (before ++ [its]) k (length (before ++ [its])) latest = Err UserError /\
        rgnti (qs ++ qs') final (length before) (terminals its []) kl = Ok (Some (rats, length (before ++ [its])))).
    { intros M. destruct (IH (before ++ [its]) k latest (ps ++ [p]) (qs ++ [(terminals its [], rats)]) next) as (ps' & qs' & final & A & R & E).
      - destruct AS as [A1 A2]. split; [rewrite !app_length in *; cbn in *; lia|]. intros j e ra N. destruct (Nat.lt_ge_cases j (length qs)) as [L|L].
        + rewrite nth_error_app1 in N by auto. destruct (A2 _ _ _ N) as (q & q' & kl' & N1 & N2 & Q). exists q, q', kl'. split; [|split; [|auto]]; (rewrite nth_error_app1; [auto|apply nth_error_Some; congruence]).
        + rewrite nth_error_app2 in N by auto. destruct (j - length qs) as [|d] eqn:D; [|destruct d; discriminate]. injection N as <- <-. assert (j = length before) as -> by lia.
          exists p, next, kl. split; [|split; [|auto]].
          * rewrite <- app_assoc. apply (NP [next]).
          * rewrite nth_error_app2 by (rewrite app_length; cbn; lia). rewrite app_length. cbn [length]. replace (S (length before) - (length ps + 1)) with 0 by lia. reflexivity.
      - rewrite !app_length. cbn. lia.
      - exact M.
      - rewrite <- !app_assoc in A, R, E. cbn [app] in A, R, E. exists (next :: ps'), ((terminals its [], rats) :: qs'), final. cbn [app]. split; [exact A|]. split; [exact R|]. split; [exact E|].
        unfold rgnti. rewrite <- LQ, nth_error_app2, Nat.sub_diag by auto. cbn [nth_error]. rewrite (proj2 (nats_eqb_eq _ _) eq_refl). destruct rats; [congruence|]. cbn [andb negb]. rewrite app_length, <- LQ. cbn. now rewrite Nat.add_1_r. }
    assert (M : main prods check true goal tpos gnti kludge n f (before ++ [its]) k next latest = Err UserError /\ forall (X : res tree),
      match rats with [(t, _)] => if t =? END then do ns <- goal_nodes goal k ;; match ns with [] => Err AssertionError | g :: _ => Ok g end else X | _ => X end = X).
    { destruct rats as [|[t l] [|r2 rats]].
      - congruence.
      - destruct (t =? END) eqn:TE; [|split; [exact H|reflexivity]]. destruct (goal_nodes goal k) as [[|g gs]|e] eqn:GE; cbn [bind] in H; try discriminate. exfalso. apply (goal_nodes_user k). congruence.
      - split; [exact H|reflexivity]. }
    destruct M as [M MX]. destruct (CONT M) as (ps' & qs' & final & A & R & E & G). exists ps', qs', final. split; [exact A|]. split; [exact R|].
    cbn [main]. rewrite CP. cbn [bind]. destruct (terminals its []) as [|e0 es] eqn:EX; [congruence|]. rewrite <- EX in *. rewrite KL. cbn [bind]. rewrite G. cbn [bind assert_]. rewrite Nat.leb_refl. cbn [assert_ bind].
    rewrite NK. cbn [bind]. rewrite KE at 1. cbn [negb assert_ bind]. rewrite MX. exact E.
  Qed.

  Lemma parse_refused n f start : parse prods check true goal START tpos gnti kludge n f start = Err UserError ->
    exists ps qs final, nth_error ps 0 = Some start /\ asked ps qs /\ refused ps qs final /\
    forall (tok : nat -> nat -> nat -> Prop) (hold : nat -> option tree -> nat -> Prop),
      (forall k e ra t l, nth_error qs k = Some (e, ra) -> tok k t l -> In t e -> In (t, l) ra) ->
      (forall t l, tok (length qs) t l -> ~ In t final) ->
      (forall k p prev c, nth_error ps k = Some p -> hold k prev c -> check prev p c = Ok true) ->
      ~ exists t j l, der prods tok hold 0 goal t j /\ tok j END l.
  Proof.
    intros H. unfold parse in H. destruct (replay f n [] [initial true goal START] None [] [] start) as (ps' & qs & final & A & R & E); auto.
    { split; [reflexivity|]. intros [|k] e ra N; discriminate. }
    cbn [app] in A, R, E. set (ps := start :: ps') in *. exists ps, qs, final. split; [reflexivity|]. split; [exact A|]. split; [exact R|].
    intros tok hold T1 T2 HC (t & j & l & D & TE).
    set (tok' := fun k t l => tok k t l \/ exists e ra, nth_error qs k = Some (e, ra) /\ In (t, l) ra).
    assert (QE : forall k e ra t l, nth_error qs k = Some (e, ra) -> In (t, l) ra -> In t e).
    { intros k e ra u m N I. destruct A as [_ A]. destruct (A _ _ _ N) as (p & p' & kl & _ & _ & G). eapply Hgnti; eauto. }
    pose proof (parse_ok prods (rcheck ps) true goal START (fun _ => 0) (rgnti qs final) kludge (fun k => k) tok' Hspecial) as P.
    assert (P1 : forall k exp kl rats next, exp <> [] -> rgnti qs final k exp kl = Ok (Some (rats, next)) ->
      next = S k /\ 0 <= 0 /\ rats <> [] /\ (forall t l, In (t, l) rats -> In t exp /\ tok' k t l) /\ (forall t l, In t exp -> tok' k t l -> In (t, l) rats)).
    { intros k exp kl rats next NE G. unfold rgnti in G. destruct (nth_error qs k) as [[e ra]|] eqn:N.
      - destruct (nats_eqb exp e) eqn:EE; [|discriminate]. apply nats_eqb_eq in EE as ->. destruct ra as [|r0 ra0] eqn:RE; [discriminate|]. rewrite <- RE in *. cbn in G. injection G as <- <-.
        split; [auto|]. split; [auto|]. split; [congruence|]. split.
        + intros u m I. split; [eapply QE; eauto|]. right. eauto.
        + intros u m I [T|(e' & ra' & N' & I')]; [eapply T1; eauto|]. rewrite N in N'. injection N' as <- <-. auto.
      - destruct (_ && _); discriminate. }
    assert (P2 : forall k exp kl t l, exp <> [] -> rgnti qs final k exp kl = Ok None -> In t exp -> ~ tok' k t l).
    { intros k exp kl u m NE G I T. unfold rgnti in G. destruct (nth_error qs k) as [[e ra]|] eqn:N; [destruct (_ && _); discriminate|].
      destruct (k =? length qs) eqn:KE; [|discriminate]. apply Nat.eqb_eq in KE as ->. destruct (nats_eqb exp final) eqn:EE; [|discriminate]. apply nats_eqb_eq in EE as ->.
      destruct T as [T|(e' & ra' & N' & I')]; [exact (T2 _ _ T I)|congruence]. }
    specialize (P P1 P2 n f). unfold parse in P. cbn [length] in E. rewrite E in P.
    destruct P as [[_ P]|[P|[(k & prev & c & P)|[(its & P)|[(k & exp & kl & its & _ & _ & P)|[(_ & p & a & IP & IA & P)|(P & _)]]]]]].
    - cbn in P. apply (P t j l); [|now left]. eapply der_mono; [| |exact D].
      + intros k u m T. now left.
      + intros k prev c HH. unfold chk, rcheck. destruct (nth_error ps k) as [p|] eqn:N; [eauto|reflexivity].
    - discriminate.
    - unfold rcheck in P. destruct (nth_error ps k); [exact (Hcheck _ _ _ P)|discriminate].
    - exact (Hkludge _ P).
    - unfold rgnti in P. destruct (nth_error qs k) as [[e ra]|]; [destruct (_ && _); discriminate|]. destruct (_ && _); discriminate.
    - destruct Hdefined as [D1 D2]. destruct IP as [IP| ->].
      + destruct (D1 p a IP IA) as (q & IQ & LQ). exact (P q IQ LQ).
      + cbn in IA. destruct IA as [EA|[EA|[]]]; [|discriminate]. injection EA as <-. destruct D2 as (q & IQ & LQ). exact (P q IQ LQ).
    - discriminate.
  Qed.
End Replay.
