(* C52: parsing a text with a goal of the syntactic or of the lexical grammar. *)
From Coq Require Import Cantor String.
From Verif Require Import M_Base M_Earley M_Tip M_Parse L_Earley L_EarleyMain L_EarleyParse L_EarleyTerm L_EarleyLex L_EarleyTrace L_EarleyReplay L_EarleyHalt
  L_Tip L_TipMain L_TipRun L_Parse L_ParseRun L_ParseMain Properties_Earley Properties_Tip.

Open Scope nat_scope.
Open Scope list_scope.
Notation length := Datatypes.length.
Notation concat := List.concat.
(* ---- specification ---- *)
Definition tokens (es : list elem) : list elem := filter (fun e => match ek e with E_non _ => false | _ => true end) es.
(* e lies between token k - 1 and token k *)
Definition between (es : list elem) (k : nat) (e : elem) : Prop :=
  exists l1 l2, es = l1 ++ e :: l2 /\ (exists n, ek e = E_non n) /\ length (tokens l1) = k.
(* terminal u with instance l stands for the element *)
Definition stands (source : text) (tm : nat -> term) (u l : nat) (e : elem) : Prop := denotes source (tm u) e /\ l = to_nat (estart e, eend e).

Lemma tokens_app a b : tokens (a ++ b) = tokens a ++ tokens b.
Proof. apply filter_app. Qed.
Lemma tokens_in e : (exists n, ek e = E_non n) -> tokens [e] = [].
Proof. intros [n E]. cbn. now rewrite E. Qed.
Lemma tokens_token e : token e -> tokens [e] = [e].
Proof. intros T. cbn. destruct (ek e) eqn:E; auto. destruct (T _ E). Qed.
Lemma gap_between t k mid e : gap t k mid -> between (elems t) k e -> In e mid.
Proof.
  intros (g1 & g2 & EQ & NM & CT & B1 & B2) (l1 & l2 & EL & NE & CL). fold (tokens g1) in CT. rewrite EQ in EL.
  destruct (Nat.lt_ge_cases (length l1) (length g1)) as [L|L].
  - exfalso. symmetry in EL. change (e :: l2) with ([e] ++ l2) in EL. rewrite app_assoc in EL. destruct (app_split _ _ _ _ EL) as (z & E1 & _); [rewrite app_length; cbn; lia|].
    destruct B1 as [-> |(l & x & -> & TX)]; [cbn in L; lia|]. destruct z as [|z0 z] using rev_ind; [|clear IHz].
    + rewrite app_nil_r in E1. apply app_inj_tail in E1 as [_ ->]. destruct NE as [n NE]. destruct (TX _ NE).
    + rewrite app_assoc in E1. apply app_inj_tail in E1 as [-> ->]. rewrite !tokens_app, !app_length, (tokens_token _ TX) in CT. cbn [length] in CT. lia.
  - destruct (Nat.lt_ge_cases (length l1) (length (g1 ++ mid))) as [L2|L2].
    + destruct (app_split _ _ _ _ EL L) as (z & -> & E1). symmetry in E1. destruct (Nat.lt_ge_cases (length z) (length mid)) as [L3|L3]; [|rewrite !app_length in L2; lia].
      change (e :: l2) with ([e] ++ l2) in E1. rewrite app_assoc in E1. destruct (app_split _ _ _ _ E1) as (w & -> & _); [rewrite app_length; cbn; lia|]. apply in_or_app. left. apply in_or_app. right. now left.
    + exfalso. rewrite app_assoc in EL. destruct (app_split _ _ _ _ EL L2) as (z & -> & E1). destruct B2 as [-> |(x & l & -> & TX)]; [destruct z; discriminate|].
      destruct z as [|z0 z]; cbn [app] in E1; injection E1 as -> E1; [destruct NE as [n NE]; destruct (TX _ NE)|].
      rewrite !tokens_app, !app_length in CL. change (z0 :: z) with ([z0] ++ z) in CL. rewrite tokens_app, (tokens_token _ TX) in CL. cbn [length app] in CL. lia.
Qed.

Lemma der_range prods tok chk :
  (forall i a t j, der prods tok chk i a t j -> forall m n, m <= i -> j <= n -> der prods (fun k u l => tok k u l /\ k < n) (fun k prev c => chk k prev c /\ k <= n) i a t j) /\
  (forall i prev r ch j, derseq prods tok chk i prev r ch j -> forall m n, m <= i -> j <= n -> derseq prods (fun k u l => tok k u l /\ k < n) (fun k prev c => chk k prev c /\ k <= n) i prev r ch j).
Proof.
  apply der_both; intros.
  - constructor; eauto.
  - constructor.
  - econstructor; eauto. apply (H0 m); [auto|]. apply (proj2 (der_le _ _ _)) in H1. lia.
  - econstructor; eauto. split; [auto|]. apply (proj2 (der_le _ _ _)) in H0. lia.
  - econstructor; eauto. split; [auto|]. apply (proj2 (der_le _ _ _)) in H0. lia.
Qed.

Section Text.
  Variable source : text.
  Variable lex : lgoal -> nat -> res (ekind * nat * nat).
  Hypothesis LW : lexer_lawful source lex.
  Variable reserved : text -> bool.
  Variable tm : nat -> term.
  Variable cn : nat -> constraint.
  Variable ident : tree -> bool * text.
  Lemma chain_prefix ps qs t0 : asked (syn_gnti source lex tm) ps qs -> nth_error ps 0 = Some (t0, 0) -> new_tip source lex = Ok t0 ->
    forall k i ti pi t p, i <= k -> k <= length qs -> nth_error ps i = Some (ti, pi) -> nth_error ps k = Some (t, p) -> firstn i (toks ti) = firstn i (toks t).
  Proof.
    intros A P0 NT. induction k as [|k IH]; intros i ti pi t p LI LK NI NK; [assert (i = 0) as -> by lia; auto|].
    destruct (Nat.eq_dec i (S k)) as [->|NE]; [congruence|]. destruct (chain_tokens source lex LW tm ps qs t0 A P0 NT k) as (t1 & p1 & N1 & PC & C & _); [lia|].
    rewrite (IH i ti pi t1 p1) by (auto; lia). destruct A as [_ A]. destruct (nth_error qs k) as [[e ra]|] eqn:NQ; [|apply nth_error_None in NQ; lia].
    destruct (A _ _ _ NQ) as (q & q' & kl & N2 & N3 & G). rewrite N1 in N2. injection N2 as <-. rewrite NK in N3. injection N3 as <-. destruct (syn_step _ _ LW _ _ _ _ _ _ _ _ PC G) as (_ & C' & _).
    destruct (reachable_inv source lex t1 (proj1 LW) (parse_calls_reachable _ _ _ _ PC)) as [I J].
    unfold syn_gnti in G. cbn [fst snd] in G. destruct (gnti source lex t1 p1 (map tm e) (kludge_of kl)) as [[r t2]|] eqn:GN; cbn [bind fst snd] in G; [|discriminate]. destruct r as [[ms next]|]; [|discriminate]. injection G as _ <- <-.
    pose proof (step_tokens _ _ LW _ _ _ _ _ _ I J GN) as ST. replace (Z.to_nat (cur t2)) with k in ST by lia. replace i with (min i k) by lia. rewrite <- !firstn_firstn. now rewrite ST.
  Qed.
End Text.

(* C52. A tree returned accounts for the whole text: the text is the concatenation of input elements found by the lexical parser one after the other,
   to which zero-length semicolons were added; the leaves of the tree are exactly the tokens among them, in order; and the tree is a derivation from the goal
   with no line terminator where the grammar has [no LineTerminator here], and with identifiers that are not reserved words. Every constraint has been found to be satisfied
   by a state of the token source in which exactly the tokens before it had been read. *)
Theorem C52_whole : forall source lex reserved tm cn ident semicolon kind prods goal START n f t, lexer_lawful source lex -> (forall g p s e, lex g p <> Ok (E_named 0, s, e)) -> no_final prods -> tm 0 = Nam 0 ->
  parse_syntactic source lex reserved tm cn ident semicolon kind prods goal START n f = Ok t ->
  exists es : list elem,
    concat (map (fun e => firstn (eend e - estart e) (skipn (estart e) source)) (filter (fun e => match ek e with E_semicolon => false | _ => true end) es)) = source /\
    (forall e, In e es -> ek e = E_semicolon /\ estart e = eend e \/ exists g, lex g (estart e) = Ok (ek e, estart e, eend e)) /\
    Forall2 (fun ul e => stands source tm (fst ul) (snd ul) e) (leaves t) (tokens es) /\
    der prods (fun k u l => exists e, nth_error (tokens es) k = Some e /\ stands source tm u l e)
      (fun k prev c =>
         (cn c = C_no_LT_here -> forall e, between es k e -> ek e <> E_non LineTerminator /\ ek e <> E_non (Comment true)) /\
         (cn c = C_but_not -> exists p, prev = Some p /\ fst (ident p) = true /\ reserved (snd (ident p)) = false) /\
         exists s p, parse_calls source lex s p /\ map fst (firstn k (toks s)) = firstn k (tokens es) /\ cur s = (Z.of_nat k - 1)%Z /\
           check_constraint source reserved s (match prev with Some p => Some (ident p) | None => None end) (cn c) = Ok true)
      0 goal t (length (tokens es)).
Proof.
  intros source lex reserved tm cn ident semicolon kind prods goal START n f t LW N0 NF T0 H. unfold parse_syntactic in H. destruct (new_tip source lex) as [t0|] eqn:NT; cbn [bind] in H; [|discriminate].
  unfold parse_from in H. destruct (parse_trace _ _ _ _ _ _ _ _ NF _ _ _ _ H) as (ps & rs & j & CH & P0 & LJ & D & E). specialize (E eq_refl) as [l0 E].
  destruct (chained_asked _ _ _ _ CH) as (qs & QR & A). assert (LQ : length qs = length rs) by (rewrite <- QR, map_length; auto).
  assert (JQ : j < length qs) by (rewrite LQ; apply nth_error_Some; intros Q; rewrite E in Q; discriminate).
  destruct (chain_tokens source lex LW tm ps qs t0 A P0 NT (S j)) as (tf & pf & NP & PC & C & TK & GP); [lia|].
  destruct (parse_calls_posn source lex tf pf (proj1 LW) PC) as (I & EN & _). pose proof (parse_calls_lexed source lex tf pf PC) as LX.
  assert (EE : exists x ix, nth_error (toks tf) j = Some (x, ix) /\ ek x = E_end).
  { destruct (nth_error qs j) as [[e ra]|] eqn:NQ; [|apply nth_error_None in NQ; lia]. destruct (TK j e ra) as (x & ix & NX & IX); [lia|auto|]. exists x, ix. split; [auto|].
    assert (ra = [(0, l0)]) as -> by (rewrite <- QR, nth_error_map, NQ in E; cbn in E; injection E as ->; reflexivity). destruct (proj1 (IX 0 l0) (or_introl eq_refl)) as (_ & DN & _). rewrite T0 in DN. cbn in DN.
    destruct DN as [[_ DN]|DN]; [auto|]. exfalso. rewrite (i_toks _ _ I) in NX. assert (IE : In (x, ix) (toks_from 0 (elems tf))) by (eapply nth_error_In; eauto). apply toks_from_in in IE as (_ & IE & _). apply nth_error_In in IE.
    destruct (LX x IE) as [[Q _]|[[Q _]|[g Q]]]; [congruence|congruence|]. rewrite DN in Q. exact (N0 _ _ _ _ Q). }
  destruct EE as (x & ix & NX & EX). assert (NX2 := NX). rewrite (i_toks _ _ I) in NX2. destruct (toks_from_nth _ _ _ _ _ NX2) as (TI & IXX).
  assert (INX : In x (elems tf)). { apply nth_error_In, toks_from_in in NX2. destruct NX2 as (_ & Q & _). eapply nth_error_In; eauto. }
  assert (DN : done tf = true) by (apply (i_done _ _ I); eauto). destruct (i_last _ _ I DN) as (SC & es & z & EQ & EZ & NZ). exists es.
  assert (TT : forall l, map fst (toks_from 0 l) = tokens l).
  { assert (G : forall l i, map fst (toks_from i l) = tokens l); [|auto]. induction l as [|y l IH]; intros i; [auto|]. cbn [toks_from tokens filter]. fold (tokens l). destruct (ek y); cbn [is_token map fst]; rewrite IH; auto. }
  assert (TF : map fst (toks tf) = tokens es ++ [z]). { rewrite (i_toks _ _ I), TT, EQ, tokens_app, (tokens_token z); [auto|]. intros m. congruence. }
  assert (JL : length (tokens es) = j).
  { assert (NJ : nth_error (tokens es ++ [z]) j = Some x) by (rewrite <- TF, nth_error_map, NX; auto). destruct (Nat.lt_trichotomy j (length (tokens es))) as [L|[L|L]]; [|auto|].
    - exfalso. rewrite nth_error_app1 in NJ by auto. apply nth_error_In in NJ. unfold tokens in NJ. apply filter_In in NJ as [NJ _]. exact (NZ _ NJ EX).
    - assert (j < length (tokens es ++ [z])) by (apply nth_error_Some; congruence). rewrite app_length in *. cbn in *. lia. }
  assert (TOK : forall k u l, k < j -> returned rs k u l -> exists e, nth_error (tokens es) k = Some e /\ stands source tm u l e).
  { intros k u l LK (ra & NR & IR). rewrite <- QR in NR. rewrite nth_error_map in NR. destruct (nth_error qs k) as [[e ra']|] eqn:NQ; [|discriminate]. cbn in NR. injection NR as NR. subst ra'.
    destruct (TK k e ra) as (y & iy & NY & IY); [lia|auto|]. destruct (proj1 (IY _ _) IR) as (_ & DY & DL). exists y. split; [|split; [auto|exact DL]].
    assert (Q : nth_error (tokens es ++ [z]) k = Some y) by (rewrite <- TF, nth_error_map, NY; auto). rewrite nth_error_app1 in Q by lia. auto. }
  destruct (proj1 (der_leaves _ _ _) _ _ _ _ D) as [L1 L2]. rewrite Nat.sub_0_r in L1.
  split; [|split; [|split]].
  - pose proof (tiles_text source _ _ _ (i_tiles _ _ I)) as Q. rewrite SC in Q. specialize (Q (le_n _)). rewrite Nat.sub_0_r in Q. cbn [skipn] in Q. rewrite firstn_all in Q. unfold original in Q. rewrite EQ, filter_app, map_app, concat_app in Q.
    destruct (LX z) as [[Q1 _]|[[_ [Q1 Q2]]|[g Q1]]]; [rewrite EQ; apply in_or_app; right; now left|congruence| |apply (proj1 LW) in Q1; destruct Q1 as (_ & Q1 & _); congruence].
    etransitivity; [|exact Q]. clear Q. cbn [filter]. assert (Q : inserted z = false) by (unfold inserted; now rewrite EZ). rewrite Q. clear Q. cbn [negb map concat]. unfold etext. rewrite Q1, Q2, Nat.sub_diag. cbn [firstn]. rewrite !app_nil_r.
    clear. induction es as [|e es IH]; [auto|]. cbn [filter]. assert (Q : inserted e = match ek e with E_semicolon => true | _ => false end) by reflexivity. rewrite Q. clear Q. destruct (ek e) eqn:K; cbn [negb]; cbn [map concat]; rewrite ?IH, ?K; auto.
  - intros e IE. destruct (LX e) as [Q|[[Q _]|Q]]; [rewrite EQ; apply in_or_app; now left|auto|destruct (NZ e IE Q)|auto].
  - assert (G : forall (a : list (nat * nat)) b, length a = length b -> (forall k y, nth_error a k = Some y -> exists e, nth_error b k = Some e /\ stands source tm (fst y) (snd y) e) -> Forall2 (fun ul e => stands source tm (fst ul) (snd ul) e) a b).
    { induction a as [|y a IH]; intros [|e b] L Q; cbn in L; try discriminate; constructor; [destruct (Q 0 y eq_refl) as (e' & E1 & E2); injection E1 as <-; auto|]. apply IH; [lia|]. intros k y' NY. exact (Q (S k) y' NY). }
    apply G; [lia|]. intros k y NY. apply TOK; [|exact (L2 k y NY)]. rewrite <- L1. apply nth_error_Some. congruence.
  - rewrite JL. assert (DD : der prods (fun k u l => returned rs k u l /\ k < j) (fun k prev c => satisfied (syn_check source reserved cn ident) ps k prev c /\ k <= j) 0 goal t j) by (apply (proj1 (der_range _ _ _) _ _ _ _ D 0 j); auto).
    eapply der_mono; [| |exact DD]; cbv beta.
    + intros k u l [R L]. auto.
    + intros k prev c ([[s p] [NS CK]] & LK). unfold syn_check in CK. cbn [fst] in CK. destruct (chain_tokens source lex LW tm ps qs t0 A P0 NT k) as (s' & p' & NS' & PCs & Cs & _); [lia|]. rewrite NS in NS'. injection NS' as <- <-. split; [|split].
      * intros CN e BT. rewrite CN in CK. destruct (no_lt_holds _ _ LW _ _ _ _ PCs CK) as (mid & G & NB). apply NB. replace (Z.to_nat (cur s + 1)) with k in G by lia. assert (GF : gap tf k mid) by (eapply GP; eauto; lia).
        eapply gap_between; [exact GF|]. destruct BT as (l1 & l2 & -> & NE & CL). exists l1, (l2 ++ [z]). split; [rewrite EQ, <- app_assoc; auto|auto].
      * intros CN. rewrite CN in CK. cbn in CK. destruct prev as [p0|]; [|discriminate]. exists p0. split; [auto|]. destruct (ident p0) as [[|] tx]; [|discriminate]. cbn. split; [auto|]. injection CK as CK. destruct (reserved tx); auto.
      * exists s, p. split; [auto|]. split; [|auto]. rewrite (chain_prefix source lex LW tm ps qs t0 A P0 NT (S j) k s p tf pf); [|lia|lia|auto|auto]. rewrite <- firstn_map, TF, firstn_app. replace (k - length (tokens es)) with 0 by lia. cbn [firstn]. now rewrite app_nil_r.
Qed.
Print Assumptions C52_whole.

(* When the parser reports a syntax error: there is a state reached by reading tokens xs, and a set of expected terminals, such that no derivation from the
   goal begins with xs and continues with anything but an expected terminal; and either nothing is expected, or no input element can be found there,
   or the next token e is none of the expected ones and the rules do not allow a semicolon before it. Constraints are judged in the states ps. *)
Theorem C52_error : forall source lex reserved tm cn ident semicolon kind prods goal START n f, lexer_lawful source lex -> no_final prods -> defined prods goal ->
  parse_syntactic source lex reserved tm cn ident semicolon kind prods goal START n f = Err UserError ->
  exists (ps : list (tip * nat)) (xs : list elem) (exp : list nat) s p,
    length ps = S (length xs) /\ nth_error ps (length xs) = Some (s, p) /\ map fst (firstn (length xs) (toks s)) = xs /\
    (forall k si pi, nth_error ps k = Some (si, pi) -> parse_calls source lex si pi /\ cur si = (Z.of_nat k - 1)%Z /\ map fst (firstn k (toks si)) = firstn k xs) /\
    (exp = [] \/ (exists g, lex g (scout s) = Err UserError) \/
     exists e s' kl, delivered s' (length xs) e /\ (exists l, elems s' = elems s ++ l) /\ (forall u, In u exp -> ~ denotes source (tm u) e) /\
       (~ may_insert source s' (length xs) e kl \/ asi_posn s = Some p \/ ~ In (Lit [59%N]) (map tm exp) \/ kl = K_EmptyStatement)) /\
    forall (tok : nat -> nat -> nat -> Prop) (hold : nat -> option tree -> nat -> Prop),
      (forall k x u l, nth_error xs k = Some x -> tok k u l -> stands source tm u l x) ->
      (forall u l, tok (length xs) u l -> ~ In u exp) ->
      (forall k si pi prev c, nth_error ps k = Some (si, pi) -> hold k prev c -> check_constraint source reserved si (match prev with Some t => Some (ident t) | None => None end) (cn c) = Ok true) ->
      ~ exists t j l, der prods tok hold 0 goal t j /\ tok j 0 l.
Proof.
  intros source lex reserved tm cn ident semicolon kind prods goal START n f LW NF DF H. unfold parse_syntactic in H. destruct (new_total source lex LW) as [t0 NT]. rewrite NT in H. cbn [bind] in H. unfold parse_from in H.
  destruct (parse_refused prods (syn_check source reserved cn ident) goal START snd (syn_gnti source lex tm) (asi_kludge_in semicolon kind) NF DF) with (n := n) (f := f) (start := (t0, 0)) as (ps & qs & exp & P0 & A & R & CM); auto.
  { intros prev q c Q. unfold syn_check in Q. apply check_errors in Q. unfold plain_error in Q. intuition discriminate. }
  { intros its Q. unfold asi_kludge_in in Q. apply kludge_from_errors in Q. unfold plain_error in Q. intuition discriminate. }
  { intros [s p] e kl rats next u l Q I. unfold syn_gnti in Q. destruct (gnti source lex _ _ _ _) as [[[[ms nx]|] t1]|]; cbn [bind fst snd] in Q; try discriminate. injection Q as <- _. apply in_flat_map in I as (m & IM & I). apply in_map_iff in I as (y & Q & _). injection Q as <- _. exact IM. }
  destruct (chain_tokens source lex LW tm ps qs t0 A P0 NT (length qs)) as (s & p & NS & PC & C & TK & GP); [auto|].
  assert (LT : length qs <= length (toks s)).
  { destruct (Nat.le_gt_cases (length qs) (length (toks s))) as [L|L]; [auto|]. destruct (nth_error qs (length (toks s))) as [[e ra]|] eqn:NQ; [|apply nth_error_None in NQ; lia]. destruct (TK _ _ _ L NQ) as (x & ix & NX & _). exfalso. assert (length (toks s) < length (toks s)) by (apply nth_error_Some; congruence). lia. }
  set (xs := map fst (firstn (length qs) (toks s))). assert (LX : length xs = length qs) by (unfold xs; rewrite map_length, firstn_length; lia).
  exists ps, xs, exp, s, p. rewrite LX. split; [apply A|]. split; [auto|]. split; [auto|]. split; [|split].
  - intros k si pi NK. assert (LK : k <= length qs) by (assert (k < length ps) by (apply nth_error_Some; congruence); destruct A as [A _]; lia).
    destruct (chain_tokens source lex LW tm ps qs t0 A P0 NT k LK) as (si' & pi' & NK' & PCi & Ci & _). rewrite NK in NK'. injection NK' as <- <-. split; [auto|]. split; [auto|]. rewrite (chain_prefix source lex LW tm ps qs t0 A P0 NT (length qs) k si pi s p); auto.
    unfold xs. rewrite firstn_map, firstn_firstn, Nat.min_l; auto.
  - destruct R as [->|([s1 p1] & kl & N1 & R)]; [now left|right]. rewrite NS in N1. injection N1 as <- <-. destruct (reachable_inv source lex s (proj1 LW) (parse_calls_reachable _ _ _ _ PC)) as [I J].
    unfold syn_gnti in R. cbn [fst snd] in R. destruct (gnti source lex s p (map tm exp) (kludge_of kl)) as [[r s']|x] eqn:G; cbn [bind fst snd] in R.
    + right. destruct r as [[ms nx]|]; [destruct R; discriminate|]. destruct (gnti_decision source lex (proj1 LW) _ _ _ _ _ _ I G) as (I' & C' & _ & _ & _ & [D|[D|D]]).
      * destruct D as (? & ? & D & _). discriminate.
      * destruct D as (? & ? & ? & ? & ? & D & _). discriminate.
      * destruct D as (_ & _ & EL & e & DV & ND & WHY). replace (Z.to_nat (cur s')) with (length qs) in * by lia. exists e, s', (kludge_of kl). split; [auto|]. split; [auto|]. split; [|auto]. intros u IU. apply ND. now apply in_map.
    + left. assert (x = UserError) as -> by (destruct R as [R|R]; congruence). destruct (gnti_errors source lex LW s p _ _ _ I J G) as [PE|(_ & _ & g & Q)]; [unfold plain_error in PE; intuition discriminate|eauto].
  - intros tok hold T1 T2 HC. apply CM; auto.
    + intros k e ra u l NQ TU IU. assert (LK : k < length qs) by (apply nth_error_Some; congruence). destruct (TK k e ra LK NQ) as (x & ix & NX & IX). apply IX. split; [auto|]. apply (T1 k); [|auto]. unfold xs. rewrite nth_error_map.
      rewrite <- (firstn_skipn (length qs) (toks s)), nth_error_app1 in NX by (rewrite firstn_length; lia). now rewrite NX.
    + intros k [si pi] prev c NK HK. unfold syn_check. cbn [fst]. eapply HC; eauto.
Qed.
Print Assumptions C52_error.

(* When no symbol derives itself, parsing a text comes to an end. *)
Theorem C52_halts : forall source lex reserved tm cn ident semicolon kind prods goal START nul rank, lexer_lawful source lex -> acyclic prods nul rank ->
  exists N r, r <> Err OutOfFuel /\ forall n f, N <= n -> N <= f -> parse_syntactic source lex reserved tm cn ident semicolon kind prods goal START n f = r.
Proof.
  intros source lex reserved tm cn ident semicolon kind prods goal START nul rank LW AC. destruct (new_total source lex LW) as [t0 NT].
  destruct (parse_halts prods (syn_check source reserved cn ident) true goal START snd (syn_gnti source lex tm) (asi_kludge_in semicolon kind) nul rank AC
    (fun q => parse_calls source lex (fst q) (snd q)) (fun q => 2 * length source + 3 - Z.to_nat (cur (fst q) + 1))) with (start := (t0, 0)) as (N & r & NE & HR).
  - intros [s p] e kl ra [s' p'] PC G. cbn [fst snd] in *. destruct (syn_step source lex LW tm _ _ _ _ _ _ _ PC G) as (PC' & C' & x & ix & NX & _). split; [auto|].
    pose proof (tokens_bound source lex LW s' p' PC') as B. assert (Z.to_nat (cur s') < length (toks s')) by (apply nth_error_Some; congruence). destruct (parse_calls_posn source lex s p (proj1 LW) PC) as (I & _). pose proof (i_cur _ _ I). lia.
  - intros prev q c _ Q. unfold syn_check in Q. apply check_errors in Q. unfold plain_error in Q. intuition discriminate.
  - intros its Q. unfold asi_kludge_in in Q. apply kludge_from_errors in Q. unfold plain_error in Q. intuition discriminate.
  - intros [s p] e kl PC Q. cbn [fst snd] in PC. unfold syn_gnti in Q. cbn [fst snd] in Q. destruct (reachable_inv source lex s (proj1 LW) (parse_calls_reachable _ _ _ _ PC)) as [I J]. destruct (gnti source lex s p (map tm e) (kludge_of kl)) as [[r s']|x] eqn:G; cbn [bind] in Q; [discriminate|].
    injection Q as ->. apply (gnti_errors source lex LW) in G; auto. unfold plain_error in G. intuition discriminate.
  - now constructor.
  - exists N, r. split; [auto|]. intros n f LN LF. unfold parse_syntactic. rewrite NT. apply HR; auto.
Qed.
Print Assumptions C52_halts.

(* With a goal of the lexical grammar: a tree is returned exactly if the whole text has a derivation, and it is one; otherwise ParseError is raised. *)
Lemma count_leaves_length : forall t, count_leaves t = length (leaves t).
Proof.
  fix IH 1. intros [u l|p ch]; [reflexivity|]. cbn [count_leaves leaves]. induction ch as [|c ch IC]; [reflexivity|]. cbn [fold_right flat_map]. rewrite app_length, IC. f_equal. apply IH.
Qed.
Theorem C52_lexical : forall prods check goal START matches subject nul rank, no_final prods -> defined prods goal ->
  (forall c, matches 1 c = false) -> (forall prev p c, exists b, check prev p c = Ok b) -> acyclic prods nul rank ->
  exists N r, (forall n f, N <= n -> N <= f -> parse_lexical prods check goal START matches subject n f = r) /\
    ((exists t, r = Ok t /\ der prods (fun k u l => l = k /\ exists c, nth_error subject k = Some c /\ matches u c = true) (fun k prev c => check prev k c = Ok true) 0 goal t (length subject)) \/
     (r = Err UserError /\ forall t, ~ der prods (fun k u l => l = k /\ exists c, nth_error subject k = Some c /\ matches u c = true) (fun k prev c => check prev k c = Ok true) 0 goal t (length subject))).
Proof.
  intros prods check goal START matches subject nul rank NF DF HA HC AC.
  destruct (C29_complete prods check goal START matches subject 0 nul rank NF DF HA HC (Nat.le_0_l _) AC) as (N & r & HR & HD).
  pose proof (C30_longest prods check goal START matches subject 0 NF DF HA HC (Nat.le_0_l _) N N) as HL. rewrite HR in HL by auto.
  exists N, (do node <- r ;; if count_leaves node =? length subject then Ok node else Err UserError). split; [intros n f LN LF; unfold parse_lexical; now rewrite HR|].
  change (fun k u l => l = k /\ exists c, nth_error subject k = Some c /\ matches u c = true) with (char_at matches subject 0) in *. change (fun k prev c => check prev k c = Ok true) with (holds_at check 0) in *.
  assert (LE : forall t j, der prods (char_at matches subject 0) (holds_at check 0) 0 goal t j -> j <= length subject).
  { intros t j D. destruct (proj1 (der_leaves _ _ _) _ _ _ _ D) as [L1 L2]. rewrite Nat.sub_0_r in L1. destruct j as [|j]; [lia|]. destruct (nth_error (leaves t) j) as [x|] eqn:NX; [|apply nth_error_None in NX; lia].
    destruct (L2 _ _ NX) as (_ & c & NC & _). cbn in NC. assert (j < length subject) by (apply nth_error_Some; congruence). lia. }
  destruct HD as [(t & -> & _)|[-> ND]]; cbn [bind]; [|right; auto]. destruct HL as (j & D & MX). rewrite count_leaves_length. destruct (proj1 (der_leaves _ _ _) _ _ _ _ D) as [L1 _]. rewrite L1, Nat.sub_0_r.
  destruct (Nat.eqb_spec j (length subject)) as [->|NE]; [left; eauto|right]. split; [auto|]. intros t' D'. specialize (MX _ _ D'). specialize (LE _ _ D). lia.
Qed.
Print Assumptions C52_lexical.

(* ---- statements:  0 -> 1,  1 -> 1 2 | 2,  2 -> 3 ;,  3 -> word | 3 [no LineTerminator here] + word ---- *)
Definition st_prods : list prod :=
  [mkProd 0 [NT 1] 0; mkProd 1 [NT 1; NT 2] 1; mkProd 1 [NT 2] 2; mkProd 2 [NT 3; TM 3] 3; mkProd 3 [TM 2] 4; mkProd 3 [NT 3; CN 0; TM 4; TM 2] 5].
Definition st_tm (n : nat) : term := match n with 0 => Nam 0 | 2 => Nam 9 | 3 => Lit (txt ";") | 4 => Lit (txt "+") | _ => Nam 99 end.
Definition st_parse (source : text) : res tree :=
  parse_syntactic source (toy source) (fun _ => false) st_tm (fun _ => C_no_LT_here) (fun _ => (false, [])) 3 (fun _ => K_none) st_prods 0 9 40 400.
Definition st_word (s e : nat) : tree := Node (mkProd 3 [TM 2] 4) [Leaf 2 (to_nat (s, e))].
Definition nl (a b : string) : text := txt a ++ [10%N] ++ txt b.
Definition starts_of (r : res tree) : res (list (nat * (nat * nat))) := do t <- r ;; Ok (map (fun x => (fst x, of_nat (snd x))) (leaves t)).
Example C52_case :
  (* a semicolon is inserted at the end of the line and at the end *)
  starts_of (st_parse (nl "a" "b + cd")) = Ok [(2, (0, 1)); (3, (1, 1)); (2, (2, 3)); (4, (4, 5)); (2, (6, 8)); (3, (8, 8))] /\
  st_parse (txt "ab") = Ok (Node (mkProd 0 [NT 1] 0) [Node (mkProd 1 [NT 2] 2) [Node (mkProd 2 [NT 3; TM 3] 3) [st_word 0 2; Leaf 3 (to_nat (2, 2))]]]) /\
  (* a line that must not begin with + *)
  st_parse (nl "a" "+ b") = Err UserError /\
  (* no reason for a semicolon *)
  st_parse (txt "a b") = Err UserError.
Proof. vm_compute. repeat split. Qed.
Example C52_hyps : (forall source g p s e, toy source g p <> Ok (E_named 0, s, e)) /\ no_final st_prods /\ defined st_prods 0 /\ st_tm 0 = Nam 0 /\
  acyclic st_prods (fun _ => false) (fun a => match a with 0 => 3 | 1 => 2 | 2 => 1 | _ => 0 end).
Proof.
  split; [|split; [|split; [|split; [reflexivity|split]]]].
  - intros source g p s e H. unfold toy in H. destruct (skipn p source) as [|c l]; [discriminate|]. repeat match type of H with (if ?b then _ else _) = _ => destruct b end; try discriminate. destruct g; try discriminate; destruct (_ <? _); discriminate.
  - intros p H. cbn in H. intuition (subst; cbn in *; intuition discriminate).
  - split; [|exists (mkProd 0 [NT 1] 0); cbn; auto]. intros p a IP IA. exists match a with 1 => mkProd 1 [NT 2] 2 | 2 => mkProd 2 [NT 3; TM 3] 3 | _ => mkProd 3 [TM 2] 4 end.
    cbn in IP. intuition (subst; cbn in IA; intuition (try discriminate)); match goal with Q : NT _ = NT _ |- _ => injection Q as <- end; cbn; auto 10.
  - intros p H V. cbn in H. intuition (subst; cbn in V |- *; discriminate).
  - intros p l b r H E VL VR. cbn in H.
    repeat match goal with H : _ \/ _ |- _ => destruct H as [<-|H] | H : False |- _ => destruct H end; cbn in E;
      repeat first [discriminate | destruct l as [|? l]; cbn in E; inversion E; subst; clear E; cbn in VL, VR |- *; try discriminate; try lia |
        match goal with E : ?x = ?l ++ _ |- _ => is_var l; destruct l; cbn in E; inversion E; subst; clear E; cbn in VL, VR |- *; try discriminate; try lia end].
Qed.
(* the numbers of Properties_Earley.v: the whole text has to be one *)
Example C52_lexical_case :
  parse_lexical ex_prods (fun _ _ _ => Ok true) 0 9 ex_matches (txt "-12") 9 99 = Ok (Node (mkProd 0 [NT 2; NT 1; CN 7] 0) [Node (mkProd 2 [TM 3] 3) [Leaf 3 0]; ex_digits [1; 2]]) /\
  parse_lexical ex_prods (fun _ _ _ => Ok true) 0 9 ex_matches (txt "-12a") 9 99 = Err UserError.
Proof. vm_compute. repeat split. Qed.
