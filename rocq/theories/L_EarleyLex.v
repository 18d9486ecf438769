(* Termination of the main loop, acyclic grammars, and parsing of text. *)
From Verif Require Import M_Base M_Earley L_Earley L_EarleyMain L_EarleyParse L_EarleyTerm.

Section Halts.
  Variable prods : list prod.
  Context {place : Type}.
  Variable check : option tree -> place -> nat -> res bool.
  Variable all : bool.
  Variables goal START : nat.
  Variable tpos : place -> nat.
  Variable gnti : place -> list nat -> option nat -> res (option (list (nat * nat) * place)).
  Variable kludge : list item -> res (option nat).
  Variable posf : nat -> place.
  Variable tok : nat -> nat -> nat -> Prop.
  Notation chk := (chk check posf).
  Notation sp := (start_prod all goal START).
  Notation ini := (initial all goal START).
  Hypothesis Htip : forall k exp kl rats next, exp <> [] -> gnti (posf k) exp kl = Ok (Some (rats, next)) ->
    next = posf (S k) /\ tpos (posf k) <= tpos next /\ rats <> [] /\ (forall t l, In (t, l) rats -> In t exp /\ tok k t l) /\ (forall t l, In t exp -> tok k t l -> In (t, l) rats).
  Hypothesis Hcheck : forall prev p c, check prev p c <> Err OutOfFuel.
  Hypothesis Hkludge : forall its, kludge its <> Err OutOfFuel.
  Hypothesis Hgnti : forall p exp kl, gnti p exp kl <> Err OutOfFuel.
  Variable bound : nat.
  Hypothesis Hbound : forall k exp kl r, gnti (posf k) exp kl = Ok (Some r) -> k < bound.
  Hypothesis Htok : forall k t, finite (fun l => tok k t l).
  Hypothesis Hder : forall i a j, finite (fun t => der prods tok chk i a t j).

  Lemma cannot_fuel latest : cannot_continue all goal latest <> Err OutOfFuel.
  Proof. unfold cannot_continue. destruct all; [discriminate|]. destruct latest as [[|p ch]|]; try discriminate. destruct (lhs p =? goal); discriminate. Qed.
  Lemma next_kernel_fuel its rats : next_kernel its rats <> Err OutOfFuel.
  Proof.
    induction rats as [|[t l] rats IH]; cbn; [discriminate|]. destruct (negb _ || _); cbn [assert_ bind]; [|discriminate].
    destruct (next_kernel its rats); cbn; congruence.
  Qed.
  Lemma goal_nodes_fuel ks : goal_nodes goal ks <> Err OutOfFuel.
  Proof.
    induction ks as [|k ks IH]; cbn; [discriminate|]. unfold goal_node. destruct (trans k) as [|? [|[[|p ch]|] ?]]; try discriminate.
    destruct (lhs p =? goal); cbn; [|discriminate]. destruct (goal_nodes goal ks); cbn; congruence.
  Qed.
  Definition settled (g : nat -> nat -> res tree) : Prop := exists N r, r <> Err OutOfFuel /\ forall n f, N <= n -> N <= f -> g n f = r.
  Lemma settled_now r : r <> Err OutOfFuel -> settled (fun _ _ => r).
  Proof. intros H. exists 0, r. auto. Qed.
  Lemma main_halts d : forall before kernel latest, bound - length before <= d -> good prods check all goal START posf tok before -> good_kernel prods check all goal START posf tok before kernel ->
    settled (fun n f => main prods check all goal tpos gnti kludge n f before kernel (posf (length before)) latest).
  Proof.
    induction d as [|d IH]; intros before kernel latest L G K.
    all: destruct (finite_valid prods tok chk sp Htok Hder (length before)) as [U HU].
    all: destruct (close_halts prods check before (posf (length before)) tok chk sp (g_valid _ _ _ _ _ _ _ _ G) (fun p c H => H) (fun p c => Hcheck p _ c) U HU kernel (k_valid _ _ _ _ _ _ _ _ _ K)) as (N & r & NE & H).
    all: match goal with |- settled ?g => assert (W : settled (fun n f => g (S n) f) -> settled g) by (intros (N' & r' & NE' & H'); exists (S N'), r'; split; [exact NE'|]; intros [|n] f L1 L2; [lia|apply H'; lia]) end; apply W; clear W; cbn [main].
    all: destruct r as [its|e]; [|exists N, (Err e); split; [congruence|]; intros n f _ LF; rewrite H by auto; reflexivity].
    all: match goal with |- settled (fun n f => do its' <- _ ;; @?g n f its') => assert (W : settled (fun n f => g n f its) -> settled (fun n f => do its' <- close prods check before (posf (length before)) f kernel ;; g n f its'))
      by (intros (N' & r' & NE' & H'); exists (max N N'), r'; split; [exact NE'|]; intros n f L1 L2; rewrite H by lia; apply H'; lia) end; apply W; clear W; cbv beta.
    all: assert (G' := good_close prods check all goal START kludge posf tok before kernel N its G K (H N (le_n _))).
    all: cbv zeta; destruct (terminals its []) as [|e0 es] eqn:EX; [apply settled_now; apply cannot_fuel|].
    all: rewrite <- EX; set (latest' := if all then latest else _).
    all: assert (NE2 : terminals its [] <> []) by congruence.
    all: destruct (kludge its) as [kl|e] eqn:KL; cbn [bind]; [|apply settled_now; intros Q; injection Q as ->; now apply Hkludge in KL].
    all: destruct (gnti (posf (length before)) (terminals its []) kl) as [[[rats next]|]|e] eqn:GN; cbn [bind]; [|apply settled_now; apply cannot_fuel|apply settled_now; intros Q; injection Q as ->; now apply Hgnti in GN].
    - exfalso. apply Hbound in GN. lia.
    - assert (LB := Hbound _ _ _ _ GN). destruct (tpos (posf (length before)) <=? tpos next); cbn [assert_ bind]; [|apply settled_now; discriminate].
      destruct (next_kernel its rats) as [k|e] eqn:EK; cbn [bind]; [|apply settled_now; intros Q; injection Q as ->; now apply next_kernel_fuel in EK].
      destruct (negb _); cbn [assert_ bind]; [|apply settled_now; discriminate].
      assert (CONT : settled (fun n f => main prods check all goal tpos gnti kludge n f (before ++ [its]) k next latest')).
      { assert (EN : next = posf (length (before ++ [its]))) by (rewrite app_length, Nat.add_1_r; apply (Htip _ _ _ _ _ NE2 GN)). rewrite EN.
        apply IH; [rewrite app_length; cbn; lia|auto|eapply kernel_step; eauto]. }
      destruct rats as [|[t l] [|r2 rats]]; [exact CONT| |exact CONT]. destruct (t =? END); [|exact CONT].
      destruct (goal_nodes goal k) as [ns|e] eqn:GNS; cbn [bind]; [|apply settled_now; intros Q; injection Q as ->; now apply goal_nodes_fuel in GNS].
      destruct ns; apply settled_now; discriminate.
  Qed.
End Halts.

(* ---- grammars in which no symbol derives itself ---- *)
Section Acyclic.
  Variable prods : list prod.
  Variable tok : nat -> nat -> nat -> Prop.
  Variable chk : nat -> option tree -> nat -> Prop.
  Variable nul : nat -> bool.
  Variable rank : nat -> nat.
  Definition may_vanish (r : rthing) : bool := match r with NT a => nul a | TM _ => false | CN _ => true end.
  Definition acyclic : Prop :=
    (forall p, In p prods -> forallb may_vanish (rhs p) = true -> nul (lhs p) = true) /\
    (forall p l b r, In p prods -> rhs p = l ++ NT b :: r -> forallb may_vanish l = true -> forallb may_vanish r = true -> rank b < rank (lhs p)).
  Hypothesis H : acyclic.
  Lemma empty_vanishes : (forall i a t j, der prods tok chk i a t j -> i = j -> nul a = true) /\ (forall i prev r ch j, derseq prods tok chk i prev r ch j -> i = j -> forallb may_vanish r = true).
  Proof.
    apply der_both.
    - intros i p ch j IP D IH E. apply H; auto.
    - auto.
    - intros i prev a t j r ch k D IH1 S IH2 E. pose proof (proj1 (der_le _ _ _) _ _ _ _ D). pose proof (proj2 (der_le _ _ _) _ _ _ _ _ S).
      cbn. rewrite IH1, IH2 by lia. reflexivity.
    - intros i prev t l r ch k T S IH E. pose proof (proj2 (der_le _ _ _) _ _ _ _ _ S). lia.
    - intros i prev c r ch k C S IH E. cbn. auto.
  Qed.
  Hypothesis Htok : forall k t, finite (fun l => tok k t l).
  Lemma finite_bind_in {A B} (l : list A) (Q : A -> B -> Prop) : (forall a, In a l -> finite (Q a)) -> finite (fun b => exists a, In a l /\ Q a b).
  Proof.
    induction l as [|a l IH]; intros F; [exists []; intros b (a & [] & _)|]. destruct IH as [m M]; [intros; apply F; now right|]. destruct (F a (or_introl eq_refl)) as [m' M'].
    exists (m' ++ m). intros b (x & [<-|I] & Q'); apply in_or_app; [left; auto|right; eauto].
  Qed.
  Lemma acyclic_finite n : forall m i a j, j - i < n -> rank a < m -> finite (fun t => der prods tok chk i a t j).
  Proof.
    induction n as [|n IHn]; [intros; lia|]. induction m as [|m IHm]; intros i a j LN LM; [lia|].
    apply finite_sub with (Q := fun t => exists p, In p (prods_of prods a) /\ (exists ch, derseq prods tok chk i None (rhs p) ch j /\ t = Node p ch)).
    { intros t D. inversion D as [? p ch ? IP S]; subst. exists p. split; [apply in_prods_of; auto|]. eauto. }
    apply finite_bind_in. intros p IP. apply in_prods_of in IP as [IP EA]. apply finite_map.
    assert (X : forall r l i' prev, rhs p = l ++ r -> i <= i' -> (i' = i -> forallb may_vanish l = true) -> finite (fun ch => derseq prods tok chk i' prev r ch j)).
    { induction r as [|[b|t|c] r IHr]; intros l i' prev E L V.
      - exists [[]]. intros ch S. inversion S. now left.
      - assert (E' : rhs p = (l ++ [NT b]) ++ r) by now rewrite <- app_assoc.
        apply finite_sub with (Q := fun ch => exists k, k <= j /\ (exists t, der prods tok chk i' b t k /\ (exists ch', derseq prods tok chk k (Some t) r ch' j /\ ch = t :: ch'))).
        { intros ch S. inversion S as [|? ? ? t k ? ch' ? D S'| |]; subst. exists k. split; [exact (proj2 (der_le _ _ _) _ _ _ _ _ S')|]. exists t. split; [auto|]. exists ch'. auto. }
        apply finite_bind; [apply finite_le|]. intros k.
        destruct (Nat.lt_ge_cases k i') as [LK|LK]; [exists []; intros ch (t & D & _); apply (proj1 (der_le _ _ _)) in D; lia|].
        assert (NB : (k = i -> nul b = true) \/ (k = i /\ nul b = false)) by (destruct (Nat.eq_dec k i); [destruct (nul b)|]; auto; left; tauto).
        destruct NB as [NB|[EK NB]].
        2:{ exists []. intros ch (t & D & _). exfalso. assert (i' = k) by lia. apply (proj1 empty_vanishes) in D; [congruence|auto]. }
        assert (R : forall t, finite (fun ch => exists ch', derseq prods tok chk k (Some t) r ch' j /\ ch = t :: ch')).
        { intros t. apply finite_map. apply (IHr (l ++ [NT b])); [auto|lia|]. intros EK. rewrite forallb_app, V by lia. cbn. now rewrite NB. }
        destruct (Nat.lt_ge_cases (k - i') (j - i)) as [LS|LS].
        + apply finite_bind; [|exact R]. apply (IHn (S (rank b))); lia.
        + destruct (Nat.le_gt_cases k j) as [KJ|KJ].
          2:{ exists []. intros ch (t & _ & ch' & S & _). apply (proj2 (der_le _ _ _)) in S. lia. }
          assert (i' = i /\ k = j) as [-> ->] by lia.
          destruct (forallb may_vanish r) eqn:VR.
          * apply finite_bind; [|exact R]. apply IHm; [lia|]. assert (rank b < rank (lhs p)) by (eapply (proj2 H); eauto). rewrite EA in *. lia.
          * exists []. intros ch (t & _ & ch' & S & _). exfalso. apply (proj2 empty_vanishes) in S; [congruence|auto].
      - apply finite_sub with (Q := fun ch => exists l0, tok i' t l0 /\ (exists ch', derseq prods tok chk (S i') (Some (Leaf t l0)) r ch' j /\ ch = Leaf t l0 :: ch')).
        { intros ch S. inversion S; subst. eexists. split; [eassumption|]. eexists. split; [eassumption|reflexivity]. }
        apply finite_bind; [apply Htok|]. intros l0. apply finite_map. apply (IHr (l ++ [TM t])); [now rewrite <- app_assoc|lia|lia].
      - apply finite_sub with (Q := fun ch => derseq prods tok chk i' None r ch j); [intros ch S; now inversion S|]. apply (IHr (l ++ [CN c])); [now rewrite <- app_assoc|auto|]. intros Q. rewrite forallb_app, V by auto. reflexivity. }
    apply (X (rhs p) [] i None); auto.
  Qed.
End Acyclic.

(* ---- parsing text ---- *)
Section Lex.
  Variable prods : list prod.
  Variable check : option tree -> nat -> nat -> res bool.
  Variables goal START : nat.
  Variable matches : nat -> N -> bool.
  Variable text : text.
  Variable start : nat.
  (* the terminal t matches the character at start + k; its instance is known by its position *)
  Definition char_at (k t l : nat) : Prop := l = start + k /\ exists c, nth_error text (start + k) = Some c /\ matches t c = true.
  Definition holds_at (k : nat) (prev : option tree) (c : nat) : Prop := check prev (start + k) c = Ok true.
  Notation parse_text := (fun n f => parse prods check false goal START (fun p => p) (lexical_gnti matches text) (fun _ => Ok None) n f start).
  Lemma lex_tip k exp kl rats next : exp <> [] -> lexical_gnti matches text (start + k) exp kl = Ok (Some (rats, next)) ->
    next = start + S k /\ start + k <= next /\ rats <> [] /\ (forall t l, In (t, l) rats -> In t exp /\ char_at k t l) /\ (forall t l, In t exp -> char_at k t l -> In (t, l) rats).
  Proof.
    intros _ H. unfold lexical_gnti in H. destruct kl; [discriminate|]. cbn [assert_ bind] in H. destruct (length text <? start + k); [discriminate|].
    destruct (nth_error text (start + k)) as [c|] eqn:NC; [|discriminate]. destruct (filter (fun r => matches r c) exp) as [|r rs] eqn:F; [discriminate|]. rewrite <- F in H. injection H as <- <-.
    split; [lia|]. split; [lia|]. split; [rewrite F; discriminate|]. split.
    - intros t l I. apply in_map_iff in I as (r' & E & I). injection E as -> <-. apply filter_In in I as [I M]. split; [auto|]. split; [auto|]. eauto.
    - intros t l I (-> & c' & NC' & M). rewrite NC in NC'. injection NC' as <-. apply in_map_iff. exists t. split; [auto|]. apply filter_In. auto.
  Qed.
  Lemma lex_none k exp kl t l : exp <> [] -> lexical_gnti matches text (start + k) exp kl = Ok None -> In t exp -> ~ char_at k t l.
  Proof.
    intros _ H I (-> & c & NC & M). unfold lexical_gnti in H. destruct kl; [discriminate|]. cbn [assert_ bind] in H. destruct (length text <? start + k); [discriminate|].
    rewrite NC in H. destruct (filter (fun r => matches r c) exp) as [|r rs] eqn:F; [|discriminate].
    assert (X : In t (filter (fun r => matches r c) exp)) by (apply filter_In; auto). rewrite F in X. destruct X.
  Qed.
  Hypothesis Hspecial : forall p, In p prods -> ~ In (TM END) (rhs p) /\ ~ In (TM ACC) (rhs p).
  Hypothesis Hacc : forall c, matches ACC c = false.
  Hypothesis Hcheck : forall prev p c, exists b, check prev p c = Ok b.
  Hypothesis Hgrammar : forall p a, In p prods -> In (NT a) (rhs p) -> exists q, In q prods /\ lhs q = a.
  Hypothesis Hgoal : exists q, In q prods /\ lhs q = goal.
  Hypothesis Hstart : start <= length text.
  Notation der := (der prods char_at holds_at).
  Lemma parse_text_ok n f : match parse_text n f with
    | Ok t => (exists j, der 0 goal t j /\ forall t' j', der 0 goal t' j' -> j' <= j) /\ forall j, exists trees, forall t', der 0 goal t' j -> In t' trees
    | Err e => (e = UserError /\ forall t j, ~ der 0 goal t j) \/ e = OutOfFuel
    end.
  Proof.
    pose proof (parse_ok prods check false goal START (fun p => p) (lexical_gnti matches text) (fun _ => Ok None) (fun k => start + k) char_at Hspecial lex_tip lex_none n f) as H.
    cbv beta in H. rewrite Nat.add_0_r in H. destruct (parse prods check false goal START (fun p => p) (lexical_gnti matches text) (fun _ => Ok None) n f start) as [t|e]; [exact H|].
    destruct H as [H|H]; [left; exact H|]. right. destruct H as [->|[(k & prev & c & E)|[(its & E)|[(k & exp & kl & its & AC & KL & E)|[(-> & p & a & IP & IA & E)|(-> & t & j & l & D & T)]]]]].
    - auto.
    - destruct (Hcheck prev (start + k) c) as [b B]. congruence.
    - discriminate.
    - exfalso. injection KL as <-. unfold lexical_gnti in E. cbn [assert_ bind] in E.
      assert (L : start + k <= length text).
      { destruct AC as [->|(k' & exp' & kl' & rats & next & -> & NE & GN)]; [lia|]. destruct (lex_tip _ _ _ _ _ NE GN) as (_ & _ & RN & RS & _).
        destruct rats as [|[t l] rats]; [congruence|]. destruct (RS t l (or_introl eq_refl)) as (_ & _ & c & NC & _). assert (start + k' < length text) by (apply nth_error_Some; congruence). lia. }
      apply Nat.ltb_ge in L. rewrite L in E. destruct (nth_error text (start + k)); [|discriminate]. destruct (filter _ exp); discriminate.
    - exfalso. destruct IP as [IP| ->].
      + destruct (Hgrammar p a IP IA) as (q & IQ & LQ). exact (E q IQ LQ).
      + cbn in IA. destruct IA as [EA|[EA|[]]]; [|discriminate]. injection EA as <-. destruct Hgoal as (q & IQ & LQ). exact (E q IQ LQ).
    - destruct T as (_ & c & _ & M). cbn in M. rewrite Hacc in M. discriminate.
  Qed.
  Lemma parse_text_halts : (forall i a j, finite (fun t => der i a t j)) -> exists N r, r <> Err OutOfFuel /\ forall n f, N <= n -> N <= f -> parse_text n f = r.
  Proof.
    intros FD. pose proof (main_halts prods check false goal START (fun p => p) (lexical_gnti matches text) (fun _ => Ok None) (fun k => start + k) char_at lex_tip) as H.
    assert (H1 : forall prev p c, check prev p c <> Err OutOfFuel) by (intros prev p c; destruct (Hcheck prev p c) as [b ->]; discriminate).
    assert (H2 : forall its : list item, @Ok (option nat) None <> Err OutOfFuel) by discriminate.
    assert (H3 : forall p exp kl, lexical_gnti matches text p exp kl <> Err OutOfFuel).
    { intros p exp kl. unfold lexical_gnti. destruct kl; cbn [assert_ bind]; [discriminate|]. destruct (length text <? p); [discriminate|]. destruct (nth_error text p); [|discriminate]. destruct (filter _ _); discriminate. }
    assert (H4 : forall k exp kl r, lexical_gnti matches text (start + k) exp kl = Ok (Some r) -> k < length text).
    { intros k exp kl r. unfold lexical_gnti. destruct kl; cbn [assert_ bind]; [discriminate|]. destruct (length text <? start + k); [discriminate|].
      destruct (nth_error text (start + k)) eqn:NE; [|discriminate]. intros _. assert (start + k < length text) by (apply nth_error_Some; congruence). lia. }
    assert (H5 : forall k t, finite (fun l => char_at k t l)) by (intros k t; exists [start + k]; intros l (-> & _); now left).
    destruct (H H1 H2 H3 (length text) H4 H5 FD (length text) [] [initial false goal START] None) as (N & r & NE & HH).
    - cbn. lia.
    - split; intros; destruct k || destruct o || idtac; discriminate.
    - split; [|intros _; now left|intros; discriminate]. intros x [<-|[]]. unfold valid. cbn [initial origin pr]. split; [auto|].
      exists [], [NT goal; TM ACC]. split; [reflexivity|constructor].
    - exists N, r. split; [auto|]. intros n f L1 L2. unfold parse. rewrite <- (HH n f L1 L2). cbn [length]. now rewrite Nat.add_0_r.
  Qed.
  Lemma char_finite : forall k t, finite (fun l => char_at k t l).
  Proof. intros k t. exists [start + k]. intros l (-> & _). now left. Qed.
End Lex.
