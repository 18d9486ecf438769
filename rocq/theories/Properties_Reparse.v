(* C51: parsing a stretch of a text once more. C50: which productions keep a semicolon from being inserted. *)
From Coq Require Import Cantor String Sorting.Sorted.
From Verif Require Import M_Base M_Earley M_Tip M_Parse L_Base L_Earley L_EarleyMain L_EarleyParse L_EarleyTerm L_EarleyLex L_EarleyTrace L_EarleyReplay L_EarleyHalt
  L_Tip L_TipMain L_TipRun L_Parse L_ParseRun L_ParseMain Properties_Earley Properties_Tip Properties_Parse.

Open Scope nat_scope.
Open Scope list_scope.
(* ---- specification ---- *)
(* xs is ys with semicolons of length zero added *)
Inductive with_semicolons : list elem -> list elem -> Prop :=
| ws_nil : with_semicolons [] []
| ws_token x xs ys : with_semicolons xs ys -> with_semicolons (x :: xs) (x :: ys)
| ws_semicolon x xs ys : ek x = E_semicolon -> estart x = eend x -> with_semicolons xs ys -> with_semicolons (x :: xs) ys.
(* the tokens of t that start at s or later and before e *)
Definition tokens_between (t : tip) (s e : nat) : list elem := filter (fun x => (s <=? estart x) && (estart x <? e)) (map fst (toks t)).

Lemma ws_app a b c d : with_semicolons a b -> with_semicolons c d -> with_semicolons (a ++ c) (b ++ d).
Proof. induction 1; intros; cbn; auto; constructor; auto. Qed.
Lemma ws_length a b : with_semicolons a b -> length b <= length a.
Proof. induction 1; cbn; lia. Qed.
Lemma ws_same a b : with_semicolons a b -> length a = length b -> a = b.
Proof. induction 1 as [|x xs ys H IH|x xs ys E1 E2 H IH]; intros L; cbn in L; [auto|f_equal; auto|]. apply ws_length in H. lia. Qed.

Section Reparse.
  Variable source : text.
  Variable lex : lgoal -> nat -> res (ekind * nat * nat).
  Hypothesis LW : lexer_lawful source lex.
  Variable tm : nat -> term.
  Notation syn_gnti := (syn_gnti source lex tm).
  Notation inst e := (instance (mkM (estart e) (eend e))).
  Lemma fst_toks t : inv source t -> map fst (toks t) = tokens (elems t).
  Proof.
    intros I. rewrite (i_toks _ _ I). generalize 0 as i. generalize (elems t) as l. induction l as [|y l IH]; intros i; [auto|]. cbn [toks_from tokens filter]. fold (tokens l). destruct (ek y); cbn [is_token map fst]; rewrite IH; auto.
  Qed.
  Lemma step t p exp kl ra t' p' m : inv source t -> inv2 lex t -> end_i t = Some m -> syn_gnti (t, p) exp kl = Ok (Some (ra, (t', p'))) ->
    inv source t' /\ inv2 lex t' /\ end_i t' = Some m /\ cur t' = (cur t + 1)%Z /\ (cur t' <= m)%Z /\
    ((exists l d, map fst (toks t') = map fst (toks t) ++ l /\ delivered t' (Z.to_nat (cur t')) d /\ forall u l, In (u, l) ra -> denotes source (tm u) d /\ l = inst d) \/
     (exists l x, map fst (toks t') = firstn (Z.to_nat (cur t')) (map fst (toks t) ++ l) ++ x :: skipn (Z.to_nat (cur t')) (map fst (toks t) ++ l) /\
        ek x = E_semicolon /\ estart x = p /\ eend x = p /\ forall u l, In (u, l) ra -> denotes source (tm u) x /\ l = inst x)).
  Proof.
    intros I J EM H. unfold M_Parse.syn_gnti in H. cbn [fst snd] in H. destruct (gnti source lex t p (map tm exp) (kludge_of kl)) as [[r t1]|x] eqn:G; cbn [bind fst snd] in H; [|discriminate].
    destruct r as [[ms next]|]; [|discriminate]. injection H as <- <- <-. destruct (gnti_decision source lex (proj1 LW) _ _ _ _ _ _ I G) as (I' & C & E' & _ & _ & D).
    pose proof (gnti_inv2 _ _ _ _ _ _ _ _ (proj1 LW) I J G) as J'. split; [auto|]. split; [auto|]. split; [congruence|]. split; [auto|]. split.
    { rewrite C. unfold gnti in G. destruct (lexical_goal _); cbn [bind] in G; [|discriminate]. unfold advance_token_cursor in G. cbn [end_i] in G. rewrite EM in G. destruct (cur t + 1 <=? m)%Z eqn:Q; [lia|]. cbn [assert_ bind] in G. discriminate. }
    assert (IR : forall u l, In (u, l) (flat_map (fun n => map (fun xm : term * match_node => (n, instance (snd xm))) (filter (fun xm : term * match_node => term_eqb (fst xm) (tm n)) ms)) exp) -> exists m, In (tm u, m) ms /\ l = instance m).
    { intros u l Q. apply in_flat_map in Q as (n & IN & IM). apply in_map_iff in IM as ((x & m') & Q & IM). apply filter_In in IM as [IM T]. cbn in Q, T. injection Q as -> <-. apply term_eqb_eq in T. subst x. eauto. }
    destruct D as [(ms' & d & ER & _ & DV & IM & _ & (l & EL) & _)|[(s & k & e & e' & k' & ER & IS & NS & ES & SS & SE & NE & _ & _ & _ & _ & _ & _ & _ & l & la & lb & E1 & E2 & _ & EK)|(Q & _)]]; [| |discriminate].
    - left. injection ER as <- ->. exists (tokens l), d. rewrite (fst_toks _ I), (fst_toks _ I'), EL, tokens_app. split; [auto|]. split; [auto|]. intros u l' IU. apply IR in IU as (m' & IM' & ->). apply IM in IM' as (_ & D & ->). auto.
    - right. injection ER as -> ->. exists (tokens l), s. rewrite (fst_toks _ I), (fst_toks _ I'), <- tokens_app, E1, E2. subst k.
      assert (TS : token s) by (intros n; congruence). assert (LC : length (tokens la) = Z.to_nat (cur t1)).
      { rewrite <- (insert_place source t1 la s e' lb I' E2 TS _ NS). symmetry. apply toks_from_count. }
      split.
      + change (s :: e' :: lb) with ([s] ++ e' :: lb). rewrite !tokens_app, (tokens_token s TS), <- LC, firstn_length_app, skipn_app, skipn_all, Nat.sub_diag. reflexivity.
      + split; [auto|]. split; [auto|]. split; [auto|]. intros u l' IU. apply IR in IU as (m' & [Q|[]] & ->). injection Q as Q <-. rewrite <- Q, SS, SE. split; [|auto]. cbn. unfold inserted. rewrite ES. auto.
  Qed.

  Variables t : tip.
  Variables p s e : nat.
  Hypothesis PC : parse_calls source lex t p.
  Variable t0 : tip.
  Hypothesis SB : set_reparse_bounds t s e = Ok t0.
  Notation O := (map fst (toks t)).
  Lemma bounds : exists k m, m < length O /\ end_i t0 = Some (Z.of_nat m) /\ cur t0 = (Z.of_nat k - 1)%Z /\ toks t0 = toks t /\ inv source t0 /\ inv2 lex t0 /\ k < length O /\
    (forall j x, nth_error O j = Some x -> (s <= estart x /\ estart x < e <-> k <= j < m)) /\ (forall j x, nth_error O j = Some x -> k <= j -> s <= estart x).
  Proof.
    destruct (reparse_spec _ _ _ _ SB) as (k & m & xk & xm & NK & EK & UK & NM & EM & UM & E0). exists k, m. rewrite map_length. split; [apply nth_error_Some; congruence|]. rewrite E0 at 1 2 3. cbn [end_i cur toks]. split; [auto|]. split; [auto|]. split; [auto|].
    assert (RC : reachable source lex t0) by (eapply r_reparse; eauto; eapply parse_calls_reachable; eauto). destruct (reachable_inv source lex t0 (proj1 LW) RC) as [I0 J0]. split; [auto|]. split; [auto|]. split; [apply nth_error_Some; congruence|].
    pose proof (parse_calls_sorted source lex t p (proj1 LW) PC) as SS.
    assert (LE : forall i j x y, nth_error (toks t) i = Some x -> nth_error (toks t) j = Some y -> i <= j -> estart (fst x) <= estart (fst y)).
    { clear - SS. induction (toks t) as [|z l IH]; intros i j x y NI NJ L; [destruct i; discriminate|]. inversion SS as [|? ? S1 S2]; subst. destruct i as [|i], j as [|j]; cbn in *; try lia.
      - injection NI as <-. injection NJ as <-. lia.
      - injection NI as <-. rewrite Forall_forall in S2. apply S2. apply in_map_iff. exists y. split; [auto|]. eapply nth_error_In; eauto.
      - eapply (IH S1 i j); eauto. lia. }
    split.
    - intros j x N. rewrite nth_error_map in N. destruct (nth_error (toks t) j) as [y|] eqn:NJ; [|discriminate]. cbn in N. injection N as <-. split.
      + intros [S1 S2]. split.
        * destruct (Nat.le_gt_cases k j); [auto|]. assert (Q : estart (fst y) <= estart (fst xk)) by (eapply LE; eauto; lia). assert (estart (fst y) = s) by lia. specialize (UK j y NJ). lia.
        * destruct (Nat.le_gt_cases m j); [|auto]. assert (Q : estart (fst xm) <= estart (fst y)) by (eapply LE; eauto). lia.
      + intros [L1 L2]. split; [rewrite <- EK; eapply LE; eauto|eapply UM; eauto].
    - intros j x N L. rewrite nth_error_map in N. destruct (nth_error (toks t) j) as [y|] eqn:NJ; [|discriminate]. cbn in N. injection N as <-. rewrite <- EK. eapply LE; eauto.
  Qed.
  Lemma filter_range {A} (f : A -> bool) (k m : nat) : forall l b, (forall j x, nth_error l j = Some x -> (f x = true <-> k <= b + j < m)) -> filter f l = firstn (m - Nat.max k b) (skipn (k - b) l).
  Proof.
    induction l as [|x l IH]; intros b H; [now rewrite skipn_nil, firstn_nil|]. cbn [filter]. assert (IH' := IH (S b)). rewrite IH'; [|intros j y N; rewrite (H (S j) y N); lia].
    specialize (H 0 x eq_refl). rewrite Nat.add_0_r in H. destruct (f x).
    - destruct (proj1 H eq_refl). replace (k - b) with 0 by lia. replace (k - S b) with 0 by lia. cbn [skipn]. replace (m - Nat.max k b) with (S (m - Nat.max k (S b))) by lia. reflexivity.
    - destruct (Nat.le_gt_cases k b) as [L|L].
      + assert (m <= b). { destruct (Nat.le_gt_cases m b); [auto|]. destruct H as [_ H]. discriminate H; lia. } replace (m - Nat.max k (S b)) with 0 by lia. replace (m - Nat.max k b) with 0 by lia. reflexivity.
      + replace (k - b) with (S (k - S b)) by lia. cbn [skipn]. f_equal. lia.
  Qed.

  (* the state after i calls *)
  Lemma run k m ps rs : m < length O -> k < length O -> end_i t0 = Some (Z.of_nat m) -> cur t0 = (Z.of_nat k - 1)%Z -> toks t0 = toks t -> inv source t0 -> inv2 lex t0 ->
    (forall j x, nth_error O j = Some x -> k <= j -> s <= estart x) ->
    chained snd syn_gnti ps rs -> nth_error ps 0 = Some (t0, s) -> forall i, i <= length rs ->
    exists ti pi xs ys z more, nth_error ps i = Some (ti, pi) /\ inv source ti /\ inv2 lex ti /\ end_i ti = Some (Z.of_nat m) /\ cur ti = (Z.of_nat (k + i) - 1)%Z /\ s <= pi /\
      map fst (toks ti) = firstn k O ++ xs ++ z ++ more /\ skipn k O = ys ++ z /\ length xs = i /\ with_semicolons xs ys /\ (forall x, In x xs -> s <= estart x) /\
      forall h ra, h < i -> k + h <> m -> nth_error rs h = Some ra -> exists x, nth_error xs h = Some x /\ forall u l, In (u, l) ra -> denotes source (tm u) x /\ l = inst x.
  Proof.
    intros LM LK E0 C0 T0 I0 J0 SK [LP CH] P0. induction i as [|i IH]; intros LI.
    - exists t0, s, [], [], (skipn k O), []. split; [auto|]. split; [auto|]. split; [auto|]. split; [auto|]. split; [rewrite C0; lia|]. split; [auto|]. split; [cbn [app]; now rewrite app_nil_r, T0, firstn_skipn|]. split; [auto|]. split; [auto|]. split; [constructor|]. split; [intros x []|intros; lia].
    - destruct IH as (ti & pi & xs & ys & z & more & NP & I & J & E & C & SP & TK & SK' & LX & WS & SX & MT); [lia|]. destruct (nth_error rs i) as [ra|] eqn:NR; [|apply nth_error_None in NR; lia].
      destruct (CH i ra NR) as (q & [t' p'] & exp & kl & N1 & N2 & LE & G). rewrite NP in N1. injection N1 as <-. cbn [snd] in LE. destruct (step _ _ _ _ _ _ _ _ I J E G) as (I' & J' & E' & C' & CM & D).
      assert (CC : Z.to_nat (cur t') = k + i) by lia. rewrite CC in D. assert (LF : length (firstn k O) = k) by (rewrite firstn_length; lia).
      assert (LZ : 0 < length z). { assert (Q : length (skipn k O) = length (ys ++ z)) by congruence. rewrite skipn_length, app_length in Q. apply ws_length in WS. lia. }
      assert (PRE : firstn (k + i) (map fst (toks ti)) = firstn k O ++ xs). { rewrite TK, app_assoc. replace (k + i) with (length (firstn k O ++ xs)) by (rewrite app_length; lia). apply firstn_length_app. }
      assert (POST : skipn (k + i) (map fst (toks ti)) = z ++ more). { rewrite TK, app_assoc. replace (k + i) with (length (firstn k O ++ xs)) by (rewrite app_length; lia). rewrite skipn_app, skipn_all, Nat.sub_diag. reflexivity. }
      assert (LT : k + i < length (map fst (toks ti))). { rewrite TK, !app_length. lia. }
      destruct D as [(l & d & EL & DV & ID)|(l & x & EL & EX & SX1 & SX2 & ID)].
      + destruct z as [|y z]; [cbn in LZ; lia|]. exists t', p', (xs ++ [y]), (ys ++ [y]), z, (more ++ l). split; [auto|]. split; [auto|]. split; [auto|]. split; [auto|]. split; [lia|]. split; [lia|].
        split; [rewrite EL, TK, <- !app_assoc; reflexivity|]. split; [rewrite SK', <- app_assoc; reflexivity|]. split; [rewrite app_length; cbn; lia|]. split; [apply ws_app; [auto|constructor; constructor]|].
        assert (NY : nth_error O (k + length ys) = Some y). { rewrite <- (firstn_skipn k O), nth_error_app2 by lia. rewrite LF, SK', nth_error_app2 by lia. replace (k + length ys - k - length ys) with 0 by lia. reflexivity. }
        split.
        * intros x IX. apply in_app_iff in IX as [IX|[<-|[]]]; [auto|]. apply (SK _ _ NY). lia.
        * intros h ra' LH NM NR'. destruct (Nat.eq_dec h i) as [->|NE]; [|destruct (MT h ra') as (x & NX & MX); [lia|auto|auto|]; exists x; split; [rewrite nth_error_app1; [auto|lia]|auto]].
          rewrite NR in NR'. injection NR' as <-. exists y. split; [rewrite nth_error_app2 by lia; rewrite LX, Nat.sub_diag; reflexivity|]. destruct DV as (d' & ix & ND & [(Q & _)|(_ & ->)]); [rewrite E' in Q; injection Q; lia|].
          assert (QD : nth_error (map fst (toks t')) (k + i) = Some d') by (rewrite nth_error_map, ND; reflexivity). rewrite EL, TK, !app_assoc, <- (app_assoc _ (y :: z)), <- !app_assoc in QD. rewrite app_assoc, nth_error_app2 in QD by (rewrite app_length; lia).
          rewrite app_length, LF, LX in QD. replace (k + i - (k + i)) with 0 in QD by lia. cbn in QD. injection QD as <-. auto.
      + exists t', p', (xs ++ [x]), ys, z, (more ++ l). split; [auto|]. split; [auto|]. split; [auto|]. split; [auto|]. split; [lia|]. split; [lia|].
        split; [rewrite EL, firstn_app, skipn_app; replace (k + i - length (map fst (toks ti))) with 0 by lia; cbn [firstn skipn]; rewrite PRE, POST, app_nil_r, <- !app_assoc; reflexivity|].
        split; [auto|]. split; [rewrite app_length; cbn; lia|]. split; [rewrite <- (app_nil_r ys); apply ws_app; [auto|apply ws_semicolon; [auto|congruence|constructor]]|]. split.
        * intros y IY. apply in_app_iff in IY as [IY|[<-|[]]]; [auto|lia].
        * intros h ra' LH NM NR'. destruct (Nat.eq_dec h i) as [->|NE]; [|destruct (MT h ra') as (y & NX & MX); [lia|auto|auto|]; exists y; split; [rewrite nth_error_app1; [auto|lia]|auto]].
          rewrite NR in NR'. injection NR' as <-. exists x. split; [rewrite nth_error_app2 by lia; rewrite LX, Nat.sub_diag; reflexivity|]. auto.
  Qed.
End Reparse.

(* C51. A tree got by parsing the stretch from s to e once more: its leaves are the tokens that start in the stretch, with semicolons of length zero added, and as many
   tokens left out at the end as were added (none of either, in the cases the code is made for); nothing starts before the stretch; and the tree is a derivation from the goal, each constraint
   of which has been found to be satisfied. *)
Theorem C51_tree : forall source lex reserved tm cn ident semicolon kind prods goal START n f t p s e r, lexer_lawful source lex -> (forall g p s e, lex g p <> Ok (E_named 0, s, e)) -> no_final prods -> tm 0 = Nam 0 ->
  parse_calls source lex t p -> parse_again source lex reserved tm cn ident semicolon kind prods goal START n f t s e = Ok r ->
  exists xs ys lost : list elem,
    tokens_between t s e = ys ++ lost /\ with_semicolons xs ys /\ length xs = length ys + length lost /\
    (forall x, In x xs -> s <= estart x) /\
    Forall2 (fun ul x => stands source tm (fst ul) (snd ul) x) (leaves r) xs /\
    der prods (fun k u l => exists x, nth_error xs k = Some x /\ stands source tm u l x)
      (fun k prev c => exists st, check_constraint source reserved st (match prev with Some p => Some (ident p) | None => None end) (cn c) = Ok true) 0 goal r (length xs).
Proof.
  intros source lex reserved tm cn ident semicolon kind prods goal START n f t p s e r LW N0 NF T0 PC H. unfold parse_again in H. destruct (set_reparse_bounds t s e) as [t0|] eqn:SB; cbn [bind] in H; [|discriminate].
  unfold parse_from in H. destruct (parse_trace _ _ _ _ _ _ _ _ NF _ _ _ _ H) as (ps & rs & j & CH & P0 & LJ & D & E). specialize (E eq_refl) as [l0 E].
  assert (JR : j < length rs) by (apply nth_error_Some; congruence).
  destruct (bounds source lex LW t p s e PC t0 SB) as (k & m & LM & E0 & C0 & TK0 & I0 & J0 & LK & RG & SK).
  destruct (run source lex LW tm t s t0 k m ps rs LM LK E0 C0 TK0 I0 J0 SK CH P0 j) as (tj & pj & xs & ys & z & more & NP & I & J & EI & C & SP & TK & SK' & LX & WS & SX & MT); [lia|].
  set (O := map fst (toks t)) in *.
  assert (LF : length (firstn k O) = k) by (rewrite firstn_length; lia).
  assert (JM : k + j = m).
  { destruct CH as [LP CH]. destruct (CH j _ E) as (q & [t' p'] & exp & kl & N1 & N2 & _ & G). rewrite NP in N1. injection N1 as <-. destruct (step source lex LW tm _ _ _ _ _ _ _ _ I J EI G) as (I' & J' & E' & C' & CM & DD).
    assert (CC : Z.to_nat (cur t') = k + j) by lia. rewrite CC in DD. destruct (Nat.eq_dec (k + j) m) as [Q|NE]; [auto|exfalso]. assert (LZ : 1 < length z).
    { assert (Q : length (skipn k O) = length (ys ++ z)) by congruence. rewrite skipn_length, app_length in Q. apply ws_length in WS. lia. }
    destruct DD as [(l & d & EL & DV & ID)|(l & x & EL & EX & SX1 & SX2 & ID)].
    2:{ destruct (ID 0 l0 (or_introl eq_refl)) as [DN _]. rewrite T0 in DN. cbn in DN. destruct DN as [[_ DN]|DN]; congruence. }
    destruct (ID 0 l0 (or_introl eq_refl)) as [DN _]. rewrite T0 in DN. cbn in DN. destruct DV as (d' & ix & ND & [(Q & _)|(_ & ->)]); [rewrite E' in Q; injection Q; lia|].
    destruct z as [|y [|y2 z]]; cbn in LZ; try lia.
    assert (QD : nth_error (map fst (toks t')) (k + j) = Some d') by (rewrite nth_error_map, ND; reflexivity). rewrite EL, TK, <- !app_assoc in QD. rewrite app_assoc, nth_error_app2 in QD by (rewrite app_length; lia).
    rewrite app_length, LF, LX in QD. replace (k + j - (k + j)) with 0 in QD by lia. cbn in QD. injection QD as ->.
    destruct (parse_calls_posn source lex t p (proj1 LW) PC) as (It & _). pose proof (parse_calls_lexed source lex t p PC) as LXD.
    assert (EO : O = firstn k O ++ ys ++ d' :: y2 :: z) by (rewrite <- SK'; symmetry; apply firstn_skipn).
    assert (FO := fst_toks source t It). fold O in FO. assert (ID' : In d' (elems t)). { assert (Q : In d' O) by (rewrite EO; apply in_or_app; right; apply in_or_app; right; now left). rewrite FO in Q. unfold tokens in Q. apply filter_In in Q. tauto. }
    destruct DN as [[_ DN]|DN].
    - assert (DT : done t = true) by (apply (i_done _ _ It); eauto). destruct (i_last _ _ It DT) as (_ & es & w & EQ & EW & NW). rewrite EQ, tokens_app, (tokens_token w) in FO by (intros ?; congruence).
      rewrite EO in FO. destruct (exists_last (l := y2 :: z)) as (z' & w' & EZ); [discriminate|]. rewrite EZ in FO. rewrite app_comm_cons, !app_assoc in FO. apply app_inj_tail in FO as [FO _].
      assert (Q : In d' (tokens es)) by (rewrite <- FO; apply in_or_app; right; now left). unfold tokens in Q. apply filter_In in Q as [Q _]. exact (NW _ Q DN).
    - destruct (LXD d' ID') as [[Q _]|[[Q _]|[g Q]]]; [congruence|congruence|]. rewrite DN in Q. exact (N0 _ _ _ _ Q). }
  assert (TB : tokens_between t s e = firstn (m - k) (skipn k O)).
  { unfold tokens_between. fold O. rewrite (filter_range _ k m O 0); [now rewrite Nat.sub_0_r, Nat.max_0_r|]. intros i x N. rewrite andb_true_iff, Nat.leb_le, Nat.ltb_lt. apply RG. auto. }
  pose proof (ws_length _ _ WS) as LY. exists xs, ys, (firstn (m - k - length ys) z). split; [|split; [auto|split; [|split; [auto|split]]]].
  - rewrite TB, SK', firstn_app. f_equal. apply firstn_all2. lia.
  - rewrite firstn_length. assert (Q : length (skipn k O) = length (ys ++ z)) by congruence. rewrite skipn_length, app_length in Q. lia.
  - destruct (proj1 (der_leaves _ _ _) _ _ _ _ D) as [L1 L2]. rewrite Nat.sub_0_r in L1.
    assert (G : forall (a : list (nat * nat)) b, length a = length b -> (forall k y, nth_error a k = Some y -> exists e, nth_error b k = Some e /\ stands source tm (fst y) (snd y) e) -> Forall2 (fun ul e => stands source tm (fst ul) (snd ul) e) a b).
    { induction a as [|y a IH]; intros [|x b] L Q; cbn in L; try discriminate; constructor; [destruct (Q 0 y eq_refl) as (e' & E1 & E2); injection E1 as <-; auto|]. apply IH; [lia|]. intros i y' NY. exact (Q (S i) y' NY). }
    apply G; [lia|]. intros i [u l] NY. assert (LI : i < j) by (rewrite <- L1; apply nth_error_Some; congruence). destruct (L2 _ _ NY) as (ra & NR & IR). cbn [fst snd Nat.add] in *. destruct (MT i ra) as (x & NX & MX); [lia|lia|auto|]. exists x. split; [auto|]. exact (MX _ _ IR).
  - rewrite LX. assert (DD := proj1 (der_range _ _ _) _ _ _ _ D 0 j (le_n _) (le_n _)). eapply der_mono; [| |exact DD]; cbv beta.
    + intros i u l [(ra & NR & IR) LI]. destruct (MT i ra) as (x & NX & MX); [lia|lia|auto|]. exists x. split; [auto|]. exact (MX _ _ IR).
    + intros i prev c ([[st q] [NS CK]] & _). unfold syn_check in CK. cbn [fst] in CK. eauto.
Qed.
(* so, when no semicolon is added, the leaves are exactly the tokens of the stretch *)
Theorem C51_tree_plain : forall source lex reserved tm cn ident semicolon kind prods goal START n f t p s e r, lexer_lawful source lex -> (forall g p s e, lex g p <> Ok (E_named 0, s, e)) -> no_final prods -> tm 0 = Nam 0 ->
  parse_calls source lex t p -> parse_again source lex reserved tm cn ident semicolon kind prods goal START n f t s e = Ok r ->
  (forall u l, In (u, l) (leaves r) -> fst (of_nat l) <> snd (of_nat l)) ->
  Forall2 (fun ul x => stands source tm (fst ul) (snd ul) x) (leaves r) (tokens_between t s e).
Proof.
  intros source lex reserved tm cn ident semicolon kind prods goal START n f t p s e r LW N0 NF T0 PC H NZ. destruct (C51_tree _ _ _ _ _ _ _ _ _ _ _ _ _ _ _ _ _ _ LW N0 NF T0 PC H) as (xs & ys & lost & E & WS & L & _ & F & _).
  assert (NX : forall x, In x xs -> estart x <> eend x).
  { intros x IX. destruct (In_nth_error _ _ IX) as [i NI]. clear - F NI NZ. revert i NI. induction F as [|[u l] y a b S F IH]; intros i NI; [destruct i; discriminate|]. destruct i as [|i]; cbn in NI.
    - injection NI as ->. destruct S as [_ S]. cbn [fst snd] in S. specialize (NZ u l (or_introl eq_refl)). rewrite S, cancel_of_to in NZ. exact NZ.
    - eapply IH; eauto. intros u' l' I. apply (NZ u' l'). now right. }
  assert (EQ : xs = ys). { clear - WS NX. induction WS as [|x xs ys W IH|x xs ys E1 E2 W IH]; [auto|f_equal; apply IH; intros; apply NX; now right|]. exfalso. exact (NX x (or_introl eq_refl) E2). }
  subst ys. assert (lost = []) as -> by (destruct lost; [auto|cbn in L; lia]). rewrite app_nil_r in E. now rewrite E.
Qed.
Print Assumptions C51_tree.
Print Assumptions C51_tree_plain.

(* C50. Among the items that expect a semicolon, those of EmptyStatement and DoWhileStatement decide what the insertion rules are told; there may be at most one. *)
Theorem C50_kludge : forall semicolon kind its,
  let special := filter (fun i => match kind (lhs (pr i)) with K_none => false | _ => true end) (expecting (TM semicolon) its) in
  match asi_kludge_in semicolon kind its with
  | Ok k =>
    (kludge_of k = K_EmptyStatement <-> exists i, special = [i] /\ kind (lhs (pr i)) = K_EmptyStatement) /\
    (kludge_of k = K_DoWhileStatement <-> exists i, special = [i] /\ kind (lhs (pr i)) = K_DoWhileStatement) /\
    (kludge_of k = K_none <-> special = [])
  | Err x => x = AssertionError /\ 2 <= length special
  end.
Proof.
  intros semicolon kind its special. unfold asi_kludge_in. subst special. generalize (expecting (TM semicolon) its) as l. set (sp := fun i : item => _).
  assert (G : forall l k, match kludge_from kind l (Some k) with Ok k' => k' = Some k /\ filter sp l = [] | Err x => x = AssertionError /\ 1 <= length (filter sp l) end).
  { induction l as [|i l IH]; intros k; cbn; [auto|]. assert (SI : sp i = match kind (lhs (pr i)) with K_none => false | _ => true end) by reflexivity. rewrite SI. destruct (kind (lhs (pr i))); cbn; [apply IH|split; [auto|lia]|split; [auto|lia]]. }
  induction l as [|i l IH]; cbn.
  - repeat split; try congruence; intros (j & Q & _); discriminate.
  - assert (SI : sp i = match kind (lhs (pr i)) with K_none => false | _ => true end) by reflexivity. rewrite SI. destruct (kind (lhs (pr i))) eqn:K; cbn [assert_ bind].
    + exact IH.
    + pose proof (G l 0) as Q. destruct (kludge_from kind l (Some 0)) as [k|x]; [|cbn; split; [tauto|lia]]. destruct Q as [-> ->]. cbn. repeat split; try congruence; eauto; intros (j & Q & E); injection Q as <-; congruence.
    + pose proof (G l 1) as Q. destruct (kludge_from kind l (Some 1)) as [k|x]; [|cbn; split; [tauto|lia]]. destruct Q as [-> ->]. cbn. repeat split; try congruence; eauto; intros (j & Q & E); injection Q as <-; congruence.
Qed.
Print Assumptions C50_kludge.

(* "a + b ; c" is read as words and signs; the part before the semicolon is an expression; a stretch after a line end may be an (inserted) semicolon, which costs the word *)
Definition rs_text : text := txt "a + b ; c".
Definition rs_calls : list (list term * asi_kludge) := [word; ([Lit (txt "+")], K_none); word; (semis, K_none); word; ([Nam 0], K_none)].
Definition rs_again (source : text) calls (prods : list prod) (goal s e : nat) : res tree :=
  parse_again source (toy source) (fun _ => false) st_tm (fun _ => C_no_LT_here) (fun _ => (false, [])) 3 (fun _ => K_none) prods goal 9 40 400 (after source calls) s e.
Definition rs_semicolon : list prod := [mkProd 0 [TM 3] 0].
Example C51_tree_case :
  parse_calls rs_text (toy rs_text) (after rs_text rs_calls) 9 /\ parse_calls tE (toy tE) (after tE [word; word; word; ([Nam 0], K_none)]) 5 /\ no_final rs_semicolon /\
  starts_of (rs_again rs_text rs_calls st_prods 3 0 5) = Ok [(2, (0, 1)); (4, (2, 3)); (2, (4, 5))] /\
  starts_of (rs_again rs_text rs_calls st_prods 3 8 9) = Ok [(2, (8, 9))] /\
  rs_again rs_text rs_calls st_prods 3 4 9 = Err UserError /\
  starts_of (rs_again tE [word; word; word; ([Nam 0], K_none)] rs_semicolon 0 2 3) = Ok [(3, (2, 2))] /\
  map estart (tokens_between (after tE [word; word; word; ([Nam 0], K_none)]) 2 3) = [2].
Proof.
  split; [apply after_parse; vm_compute; reflexivity|]. split; [apply after_parse; vm_compute; reflexivity|]. split; [intros q [<-|[]]; cbn; intuition discriminate|]. vm_compute. repeat split.
Qed.
(* lhs 5 is EmptyStatement, lhs 6 DoWhileStatement *)
Definition kl_kind (a : nat) : asi_kludge := match a with 5 => K_EmptyStatement | 6 => K_DoWhileStatement | _ => K_none end.
Definition kl_item (a : nat) : item := mkItem (Some 0) (mkProd a [TM 3] 0) [].
Example C50_kludge_case :
  asi_kludge_in 3 kl_kind [kl_item 4; kl_item 5] = Ok (Some 0) /\ kludge_of (Some 0) = K_EmptyStatement /\
  asi_kludge_in 3 kl_kind [kl_item 6; kl_item 4] = Ok (Some 1) /\ kludge_of (Some 1) = K_DoWhileStatement /\
  asi_kludge_in 3 kl_kind [kl_item 4] = Ok None /\ asi_kludge_in 2 kl_kind [kl_item 5] = Ok None /\ asi_kludge_in 3 kl_kind [kl_item 5; kl_item 6] = Err AssertionError.
Proof. vm_compute. repeat split. Qed.
