(* Lemmas for parsing a text: the tokens and gaps that the parser has seen stay. *)
From Coq Require Import Cantor.
From Verif Require Import M_Base M_Earley M_Tip M_Parse L_Earley L_EarleyTrace L_EarleyReplay L_Tip L_TipMain L_TipRun L_Parse.

Lemma choose {A B} (l : list A) : forall P : nat -> A -> B -> Prop, (forall k a, nth_error l k = Some a -> exists b, P k a b) ->
  exists m, length m = length l /\ forall k a, nth_error l k = Some a -> exists b, nth_error m k = Some b /\ P k a b.
Proof.
  induction l as [|a l IH]; intros P H; [exists []; split; [auto|]; intros [|k] x N; discriminate|].
  destruct (H 0 a eq_refl) as [b HB]. destruct (IH (fun k => P (S k)) (fun k x N => H (S k) x N)) as (m & L & HM). exists (b :: m). split; [cbn; congruence|].
  intros [|k] x N; cbn in N; [injection N as <-; exists b; auto|]. apply HM. exact N.
Qed.
Lemma app_split {A} (a b c d : list A) : a ++ b = c ++ d -> length a <= length c -> exists z, c = a ++ z /\ b = z ++ d.
Proof.
  revert c. induction a as [|x a IH]; intros c E L; cbn in *; [eauto|]. destruct c as [|y c]; cbn in *; [lia|]. injection E as -> E. destruct (IH c E) as (z & -> & ->); [lia|]. eauto.
Qed.
Lemma chained_asked {place} (tpos : place -> nat) gnti ps rs : chained tpos gnti ps rs -> exists qs, map snd qs = rs /\ asked gnti ps qs.
Proof.
  intros [L H]. destruct (choose rs (fun k ra e => exists p p' kl, nth_error ps k = Some p /\ nth_error ps (S k) = Some p' /\ gnti p e kl = Ok (Some (ra, p')))) as (m & LM & HM).
  { intros k ra N. destruct (H k ra N) as (p & p' & e & kl & N1 & N2 & _ & G). exists e, p, p', kl. auto. }
  exists (combine m rs). assert (E : map snd (combine m rs) = rs). { clear - LM. revert m LM. induction rs as [|r rs IH]; intros [|x m] LM; cbn in *; try discriminate; auto. f_equal. apply IH. lia. }
  split; [exact E|]. split; [rewrite <- E, map_length in L; exact L|]. intros k e ra N.
  assert (NR : nth_error rs k = Some ra) by (rewrite <- E, nth_error_map, N; reflexivity). destruct (HM k ra NR) as (e' & N' & Q).
  assert (E2 : map fst (combine m rs) = m). { clear - LM. revert rs LM. induction m as [|r m IH]; intros [|x rs] LM; cbn in *; try discriminate; auto. f_equal. apply IH. lia. }
  assert (NM : nth_error m k = Some e) by (rewrite <- E2, nth_error_map, N; reflexivity). rewrite NM in N'. injection N' as <-. exact Q.
Qed.

Section Run.
  Variable source : text.
  Variable lex : lgoal -> nat -> res (ekind * nat * nat).
  Hypothesis LW : lexer_lawful source lex.
  Notation inv := (inv source).
  Notation inv2 := (inv2 lex).

  Lemma insert_place t' la s e lb : inv t' -> elems t' = la ++ s :: e :: lb -> token s -> forall c, nth_error (toks t') c = Some (s, length la) -> length (toks_from 0 la) = c.
  Proof.
    intros I E TS c N. rewrite (i_toks _ _ I) in N. destruct (toks_from_nth _ _ _ _ _ N) as (l1 & l2 & E1 & LL & LC & _). cbn in LL. rewrite E in E1.
    assert (l1 = la) as -> by (rewrite <- (firstn_length_app l1 (s :: l2)), <- E1, <- LL; apply firstn_length_app). exact LC.
  Qed.
  Lemma step_tokens t posn exp kl r t' : inv t -> inv2 t -> gnti source lex t posn exp kl = Ok (r, t') -> firstn (Z.to_nat (cur t')) (toks t') = firstn (Z.to_nat (cur t')) (toks t).
  Proof.
    intros I J H. destruct (gnti_decision source lex (proj1 LW) _ _ _ _ _ _ I H) as (I' & C & _). pose proof (r_cur _ _ J) as RC. pose proof (i_cur _ _ I) as IC.
    destruct (gnti_elems source lex t posn exp kl r t' LW I J H) as (l & F & [E|(la & s & e & lb & E & E' & TE & TS & N)]).
    - rewrite (i_toks _ _ I'), E, toks_from_app, <- (i_toks _ _ I), firstn_app. replace (Z.to_nat (cur t') - length (toks t)) with 0 by lia. now rewrite app_nil_r.
    - pose proof (insert_place t' la s e lb I' E' TS _ N) as L. rewrite (i_toks _ _ I'), E', toks_from_app, <- L, firstn_length_app.
      assert (Q : toks_from 0 (elems t ++ l) = toks_from 0 la ++ toks_from (0 + length la) (e :: lb)) by (rewrite E; apply toks_from_app).
      rewrite toks_from_app, <- (i_toks _ _ I) in Q. apply (f_equal (firstn (length (toks_from 0 la)))) in Q. rewrite firstn_length_app, firstn_app in Q.
      replace (length (toks_from 0 la) - length (toks t)) with 0 in Q by lia. cbn [firstn] in Q. rewrite app_nil_r in Q. auto.
  Qed.
  Notation istok := (fun e => match ek e with E_non _ => false | _ => true end).
  Lemma istok_token e : istok e = true <-> token e.
  Proof. unfold token. destruct (ek e); split; intros; try congruence; auto. exfalso. eapply H. reflexivity. Qed.
  Lemma count_toks i l : length (toks_from i l) = length (filter istok l).
  Proof. rewrite toks_from_count. f_equal. Qed.
  Lemma step_gap t posn exp kl r t' k mid : inv t -> inv2 t -> gnti source lex t posn exp kl = Ok (r, t') -> k <= Z.to_nat (cur t') -> gap t k mid -> gap t' k mid.
  Proof.
    intros I J H LK (l1 & l2 & EL & NM & CN & H1 & H2). destruct (gnti_decision source lex (proj1 LW) _ _ _ _ _ _ I H) as (I' & C & _).
    destruct (gnti_elems source lex t posn exp kl r t' LW I J H) as (l & F & [E|(la & s & e & lb & E & E' & TE & TS & N)]).
    - exists l1, (l2 ++ l). rewrite E, EL, <- !app_assoc. split; [auto|]. split; [auto|]. split; [auto|]. split; [auto|]. destruct H2 as [->|(x & m & -> & T)]; [exact F|]. right. exists x, (m ++ l). auto.
    - pose proof (insert_place t' la s e lb I' E' TS _ N) as L. rewrite EL, <- !app_assoc in E.
      assert (LE : length (l1 ++ mid) <= length la).
      { destruct (Nat.le_gt_cases (length (l1 ++ mid)) (length la)) as [Q|Q]; [auto|exfalso].
        assert (X : exists z, l1 ++ mid = (la ++ [e]) ++ z).
        { destruct (app_split (la ++ [e]) lb (l1 ++ mid) (l2 ++ l)) as (z & Z & _); [rewrite <- !app_assoc; cbn [app]; now rewrite E|rewrite app_length; cbn; lia|]. eauto. }
        destruct X as [z X]. assert (CM : length (filter istok (l1 ++ mid)) = k).
        { rewrite filter_app, app_length, CN. assert (Z : filter istok mid = []); [|rewrite Z; cbn; lia]. clear - NM. induction mid as [|x m IH]; [auto|]. cbn. destruct (NM x (or_introl eq_refl)) as [n ->]. apply IH. intros y IY. apply NM. now right. }
        rewrite X, !filter_app, !app_length in CM. cbn in CM. rewrite count_toks in L. destruct (istok e) eqn:TK; [|apply istok_token in TE; congruence]. cbn in CM. lia. }
      assert (X : exists z, la = (l1 ++ mid) ++ z /\ l2 ++ l = z ++ e :: lb).
      { apply app_split; [now rewrite <- app_assoc|auto]. }
      destruct X as (z & EZ & E2). exists l1, (z ++ s :: e :: lb). rewrite E', EZ, <- !app_assoc. split; [auto|]. split; [auto|]. split; [auto|]. split; [auto|]. right.
      destruct z as [|x z]; [exists s, (e :: lb); auto|]. exists x, (z ++ s :: e :: lb). split; [auto|]. destruct H2 as [->|(y & m & -> & T)].
      + destruct F as [->|(y & m & -> & T)]; cbn in E2; [discriminate|]. injection E2 as -> _. auto.
      + cbn in E2. injection E2 as -> _. auto.
  Qed.

  Variable tm : nat -> term.
  Notation syn_gnti := (syn_gnti source lex tm).
  Notation inst e := (instance (mkM (estart e) (eend e))).
  Lemma term_eqb_eq a b : term_eqb a b = true <-> a = b.
  Proof.
    destruct a, b; cbn; try (split; congruence); [rewrite text_eqb_eq|rewrite Nat.eqb_eq]; (split; [intros ->; auto|intros Q; injection Q; auto]).
  Qed.
  Lemma syn_step t p exp kl ra t' p' : parse_calls source lex t p -> syn_gnti (t, p) exp kl = Ok (Some (ra, (t', p'))) ->
    parse_calls source lex t' p' /\ cur t' = (cur t + 1)%Z /\
    exists e i, nth_error (toks t') (Z.to_nat (cur t')) = Some (e, i) /\ forall u l, In (u, l) ra <-> In u exp /\ denotes source (tm u) e /\ l = inst e.
  Proof.
    intros PC H. unfold M_Parse.syn_gnti in H. cbn [fst snd] in H. destruct (gnti source lex t p (map tm exp) (kludge_of kl)) as [[r t1]|x] eqn:G; cbn [bind fst snd] in H; [|discriminate].
    destruct r as [[ms next]|]; [|discriminate]. injection H as <- <- <-. split; [econstructor; eauto|].
    destruct (parse_calls_posn source lex t p (proj1 LW) PC) as (I & EN & _). destruct (gnti_decision source lex (proj1 LW) _ _ _ _ _ _ I G) as (I' & C & E' & _ & _ & D). split; [auto|].
    assert (IR : forall u l, In (u, l) (flat_map (fun n => map (fun xm : term * match_node => (n, instance (snd xm))) (filter (fun xm : term * match_node => term_eqb (fst xm) (tm n)) ms)) exp) <-> In u exp /\ exists m, In (tm u, m) ms /\ l = instance m).
    { intros u l. rewrite in_flat_map. split.
      - intros (n & IN & IM). apply in_map_iff in IM as ((x & m) & Q & IM). apply filter_In in IM as [IM T]. cbn in Q, T. injection Q as -> <-. apply term_eqb_eq in T. subst x. eauto.
      - intros (IN & m & IM & ->). exists u. split; [auto|]. apply in_map_iff. exists (tm u, m). split; [auto|]. apply filter_In. split; [auto|]. now apply term_eqb_eq. }
    destruct D as [(ms' & e & ER & _ & (e0 & k & N & DV) & IM & _)|[(s & k & e & e' & k' & ER & IS & NS & ES & SS & SE & _)|(Q & _)]]; [| |discriminate].
    - injection ER as <- ->. assert (e = e0) as -> by (destruct DV as [[Q _]|[_ Q]]; [congruence|auto]). exists e0, k. split; [auto|]. intros u l. rewrite IR. split.
      + intros (IN & m & IX & ->). apply IM in IX as (_ & D & ->). auto.
      + intros (IN & D & ->). split; [auto|]. eexists. split; [|reflexivity]. apply IM. split; [now apply in_map|auto].
    - injection ER as -> ->. exists s, k. split; [auto|]. intros u l. rewrite IR. cbn [In]. rewrite SS, SE. unfold denotes, inserted. rewrite ES. split.
      + intros (IN & m & [Q|[]] & ->). injection Q as Q <-. rewrite <- Q. auto.
      + intros (IN & D & ->). split; [auto|]. eexists. split; [left|reflexivity]. destruct (tm u) as [c|n]; [now rewrite D|]. destruct D as [[_ D]|D]; congruence.
  Qed.
  Lemma chain_tokens ps qs t0 : asked syn_gnti ps qs -> nth_error ps 0 = Some (t0, 0) -> new_tip source lex = Ok t0 ->
    forall k, k <= length qs -> exists t p, nth_error ps k = Some (t, p) /\ parse_calls source lex t p /\ cur t = (Z.of_nat k - 1)%Z /\
      (forall i e ra, i < k -> nth_error qs i = Some (e, ra) -> exists x ix, nth_error (toks t) i = Some (x, ix) /\ forall u l, In (u, l) ra <-> In u e /\ denotes source (tm u) x /\ l = inst x) /\
      (forall i ti pi mid, i <= k -> nth_error ps i = Some (ti, pi) -> gap ti i mid -> gap t i mid).
  Proof.
    intros [L A] P0 NT. pose proof (proj1 LW) as Hlex. induction k as [|k IH]; intros LK.
    - exists t0, 0. split; [auto|]. split; [constructor; auto|]. destruct (new_inv source lex Hlex t0 NT) as (_ & C & _). split; [rewrite C; auto|]. split; [intros; lia|].
      intros i ti pi mid LI N G. assert (i = 0) as -> by lia. rewrite P0 in N. injection N as <- <-. auto.
    - destruct IH as (t & p & NP & PC & C & TK & GP); [lia|]. destruct (nth_error qs k) as [[e ra]|] eqn:NQ; [|apply nth_error_None in NQ; lia].
      destruct (A _ _ _ NQ) as (p1 & [t' p'] & kl & N1 & N2 & G). rewrite NP in N1. injection N1 as <-. destruct (syn_step _ _ _ _ _ _ _ PC G) as (PC' & C' & x & ix & NX & IX).
      destruct (reachable_inv source lex t Hlex (parse_calls_reachable _ _ _ _ PC)) as [I J].
      unfold M_Parse.syn_gnti in G. cbn [fst snd] in G. destruct (gnti source lex t p (map tm e) (kludge_of kl)) as [[r t1]|] eqn:GN; cbn [bind fst snd] in G; [|discriminate]. destruct r as [[ms next]|]; [|discriminate]. injection G as _ <- <-.
      exists t1, next. split; [auto|]. split; [auto|]. split; [lia|]. assert (CK : Z.to_nat (cur t1) = k) by lia. split.
      + intros i e' ra' LI N. destruct (Nat.eq_dec i k) as [->|NE].
        * rewrite NQ in N. injection N as <- <-. rewrite CK in NX. eauto.
        * destruct (TK i e' ra') as (y & iy & NY & IY); [lia|auto|]. exists y, iy. split; [|auto]. pose proof (step_tokens _ _ _ _ _ _ I J GN) as ST. rewrite CK in ST.
          rewrite <- (firstn_skipn k (toks t1)), nth_error_app1, ST, <- NY.
          -- rewrite <- (firstn_skipn k (toks t)) at 2. rewrite nth_error_app1; [auto|]. rewrite firstn_length. assert (i < length (toks t)) by (apply nth_error_Some; congruence). lia.
          -- rewrite ST, firstn_length. assert (i < length (toks t)) by (apply nth_error_Some; congruence). lia.
      + intros i ti pi mid LI N G. destruct (Nat.eq_dec i (S k)) as [->|NE]; [rewrite N2 in N; injection N as <- <-; auto|]. eapply step_gap; eauto; [lia|]. eapply GP; eauto. lia.
  Qed.
  Lemma no_lt_holds t p reserved prev : parse_calls source lex t p -> check_constraint source reserved t prev C_no_LT_here = Ok true ->
    exists mid, gap t (Z.to_nat (cur t + 1)) mid /\ forall e, In e mid -> ek e <> E_non LineTerminator /\ ek e <> E_non (Comment true).
  Proof.
    intros PC H. destruct (reachable_inv source lex t (proj1 LW) (parse_calls_reachable _ _ _ _ PC)) as [I J]. pose proof (r_cur _ _ J) as RC. pose proof (i_cur _ _ I) as IC.
    cbn [check_constraint] in H. assert (NE : toks t <> []).
    { intros Q. unfold rel_gap in H. rewrite Q in H. cbn [length] in H. destruct (cur t <? Z.of_nat 0)%Z; cbn [assert_ bind] in H; [|discriminate]. unfold py_nth in H. destruct (cur t <? 0)%Z; cbn [length] in H; (match type of H with context [if ?b then _ else _] => destruct b end; cbn [bind] in H; [discriminate|]); match type of H with context [nth_error [] ?n] => destruct n end; discriminate. }
    destruct (rel_gap_ok source t 1 I) as (mid & b & G & E & B); [lia|auto|lia|cbn; lia|]. cbn in G. rewrite E in H. cbn [bind] in H. destruct b; [discriminate|]. exists mid. split; [auto|].
    intros e IE. split; intros Q; assert (X : false = true) by (apply B; exists e; split; [auto|]; unfold breaks_line; auto); discriminate.
  Qed.
End Run.
