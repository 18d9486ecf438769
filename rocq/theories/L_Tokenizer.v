(* Specification and lemmas for Tokenizer.py (C06). *)
From Verif Require Import M_Base L_Base M_Tokenizer.

Section TokS.
  Context {Tok : Type}.
  Notation tspec := (@tspec Tok).
  Implicit Types specs : list tspec.

  (* pattern number i matches n characters at off, and every other pattern
     that matches there matches strictly fewer *)
  Definition longest (specs : list tspec) (line : text) (off i n : nat) : Prop :=
    (exists s, nth_error specs i = Some s /\ ts_match s line off = Some n) /\
    forall j s m, j <> i -> nth_error specs j = Some s -> ts_match s line off = Some m -> m < n.

  (* a sequence of (pattern, length) read from off to off' *)
  Inductive lexes (specs : list tspec) (line : text) : nat -> list (nat * nat) -> nat -> Prop :=
  | lex_nil off : lexes specs line off [] off
  | lex_cons off i n l off' : off < length line -> longest specs line off i n ->
      lexes specs line (off + n) l off' -> lexes specs line off ((i, n) :: l) off'.

  (* the lexemes, as pieces of the line *)
  Fixpoint pieces (line : text) (off : nat) (l : list (nat * nat)) : list text :=
    match l with
    | [] => []
    | (_, n) :: l' => slice off (off + n) line :: pieces line (off + n) l'
    end.

  (* the tokens: responses of the non-skipped lexemes *)
  Fixpoint responses (specs : list tspec) (line : text) (off : nat) (l : list (nat * nat)) : list Tok :=
    match l with
    | [] => []
    | (i, n) :: l' =>
      match nth_error specs i with
      | Some s => match ts_resp s with Some g => [g line off n] | None => [] end
      | None => []
      end ++ responses specs line (off + n) l'
    end.

  Definition uses (l : list (nat * nat)) (i : nat) : nat := count_occ Nat.eq_dec (map fst l) i.

  (* regular expressions match within the line *)
  Definition within (specs : list tspec) (line : text) : Prop :=
    forall s off n, In s specs -> ts_match s line off = Some n -> off + n <= length line.

  Lemma get_matches_spec specs line off : forall i m,
    In m (get_matches i specs line off) <->
    exists k, nth_error specs k = Some (snd m) /\ snd (fst m) = i + k /\ ts_match (snd m) line off = Some (m_len m).
  Proof.
    induction specs as [|s specs IH]; intros i m; cbn [get_matches].
    - split; [intros []|]. intros (k & H & _). destruct k; discriminate.
    - assert (In m (get_matches (S i) specs line off) <->
        exists k, nth_error (s :: specs) (S k) = Some (snd m) /\ snd (fst m) = i + S k /\ ts_match (snd m) line off = Some (m_len m)) as E.
      { rewrite IH. split; intros (k & H1 & H2 & H3); exists k; (split; [exact H1|split; [lia|exact H3]]). }
      assert (forall k, nth_error (s :: specs) (S k) = nth_error specs k) as En by reflexivity.
      destruct (ts_match s line off) as [n|] eqn:Em.
      + cbn [In]. rewrite E. split.
        * intros [<-|(k & H)]; [exists 0; unfold m_len; cbn; repeat split; auto; lia|exists (S k); exact H].
        * intros ([|k] & H1 & H2 & H3).
          -- left. destruct m as [[a b] c]. cbn in *. inversion H1; subst. unfold m_len in H3; cbn in H3.
             rewrite Em in H3. inversion H3; subst. f_equal. f_equal. lia.
          -- right. exists k. auto.
      + rewrite E. split.
        * intros (k & H); exists (S k); exact H.
        * intros ([|k] & H1 & H2 & H3); [cbn in H1; inversion H1; subst; congruence|]. exists k. auto.
  Qed.

  Lemma get_matches_idx specs line off : forall i, NoDup (map (fun m => snd (fst m)) (get_matches i specs line off)).
  Proof.
    induction specs as [|s specs IH]; intros i; cbn [get_matches]; [constructor|].
    destruct (ts_match s line off) as [n|]; [|apply IH]. cbn. constructor; [|apply IH].
    intros H. apply in_map_iff in H as (m & Hm & Hi). apply get_matches_spec in Hi as (k & _ & Hk & _). cbn in Hm. lia.
  Qed.

  Lemma get_matches_nodup specs line off i : NoDup (get_matches i specs line off).
  Proof. apply (NoDup_map_inv (fun m => snd (fst m))). apply get_matches_idx. Qed.

  Lemma longest_in specs line off i n : longest specs line off i n <->
    (exists s, In (n, i, s) (get_matches 0 specs line off)) /\
    (forall m, In m (get_matches 0 specs line off) -> snd (fst m) <> i -> m_len m < n).
  Proof.
    unfold longest. split.
    - intros [(s & H1 & H2) H3]. split.
      + exists s. apply get_matches_spec. exists i. cbn. auto.
      + intros m Hm Hne. apply get_matches_spec in Hm as (k & A & B & C).
        apply (H3 k (snd m)); auto. lia.
    - intros [(s & H1) H3]. apply get_matches_spec in H1 as (k & A & B & C). cbn in *. subst k. split.
      + exists s. auto.
      + intros j s' m Hj Hn Hm. apply (H3 (m, j, s')); [|cbn; auto].
        apply get_matches_spec. exists j. cbn. auto.
  Qed.

  Lemma choose_longest specs line off i n s :
    choose (get_matches 0 specs line off) = Ok (n, i, s) <->
    nth_error specs i = Some s /\ longest specs line off i n.
  Proof.
    set (ms := get_matches 0 specs line off).
    assert (HN : NoDup (map (fun m => snd (fst m)) ms)) by apply get_matches_idx.
    assert (HS : forall m, In m ms -> nth_error specs (snd (fst m)) = Some (snd m)).
    { intros m Hm. apply get_matches_spec in Hm as (k & A & B & C). rewrite B. exact A. }
    rewrite longest_in. fold ms.
    assert (Hfil : forall m, filter (fun m => m_len m =? list_max (map m_len ms)) ms = [m] ->
       In m ms /\ forall m', In m' ms -> snd (fst m') <> snd (fst m) -> m_len m' < m_len m).
    { intros m Hf. assert (In m (filter (fun m => m_len m =? list_max (map m_len ms)) ms)) as Hi by (rewrite Hf; now left).
      apply filter_In in Hi as [Hi He]. apply Nat.eqb_eq in He. split; [exact Hi|].
      intros m' Hm' Hne. assert (m_len m' <= list_max (map m_len ms)).
      { pose proof (proj1 (list_max_le (map m_len ms) _) (le_n _)) as HF. rewrite Forall_forall in HF.
        apply HF. apply in_map. exact Hm'. }
      assert (m_len m' <> list_max (map m_len ms)); [|lia]. intros E.
      assert (In m' (filter (fun m => m_len m =? list_max (map m_len ms)) ms)) as Hc.
      { apply filter_In. split; [exact Hm'|]. now apply Nat.eqb_eq. }
      rewrite Hf in Hc. destruct Hc as [->|[]]. congruence. }
    split.
    - intros H.
      assert (In (n, i, s) ms /\ forall m', In m' ms -> snd (fst m') <> i -> m_len m' < n) as [H1 H2].
      { unfold choose in H. destruct ms as [|m1 [|m2 ms']] eqn:Ems; [discriminate| |].
        - inversion H; subst m1. split; [now left|]. intros m' [<-|[]]. cbn. congruence.
        - destruct (filter _ (m1 :: m2 :: ms')) as [|ma [|mb mc]] eqn:Ef; try discriminate.
          inversion H; subst ma. apply (Hfil _ eq_refl). }
      split; [apply (HS _ H1)|]. split; [exists s; exact H1|exact H2].
    - intros (Hn & (s' & Hi) & Hmax).
      assert (s' = s) by (pose proof (HS _ Hi); cbn in *; congruence). subst s'.
      assert (Huniq : forall m, In m ms -> snd (fst m) = i -> m = (n, i, s)).
      { intros m Hm He. clear -HN Hm He Hi. induction ms as [|x ms IH]; [destruct Hm|].
        cbn in HN. inversion HN as [|? ? Hnx HN']; subst.
        destruct Hm as [->|Hm], Hi as [->|Hi]; auto.
        - exfalso. apply Hnx. apply in_map_iff. exists (n, snd (fst m), s). cbn. auto.
        - exfalso. apply Hnx. apply in_map_iff. exists m. auto. }
      assert (Hle : forall m, In m ms -> m_len m <= n).
      { intros m Hm. destruct (Nat.eq_dec (snd (fst m)) i) as [E|E].
        - rewrite (Huniq m Hm E). unfold m_len; cbn; lia.
        - specialize (Hmax m Hm E). lia. }
      assert (Hlm : list_max (map m_len ms) = n).
      { apply Nat.le_antisymm.
        - apply list_max_le. apply Forall_forall. intros x Hx. apply in_map_iff in Hx as (m & <- & Hm). auto.
        - pose proof (proj1 (list_max_le (map m_len ms) _) (le_n _)) as HF. rewrite Forall_forall in HF.
          apply HF. apply in_map_iff. exists (n, i, s). auto. }
      assert (Hf : filter (fun m => m_len m =? list_max (map m_len ms)) ms = [(n, i, s)]).
      { rewrite Hlm. clear -Huniq Hmax Hi HN.
        assert (forall m, In m ms -> (m_len m =? n) = true <-> m = (n, i, s)) as Hp.
        { intros m Hm. rewrite Nat.eqb_eq. split; [|intros ->; reflexivity].
          intros E. destruct (Nat.eq_dec (snd (fst m)) i) as [E'|E']; [auto|]. specialize (Hmax m Hm E'). lia. }
        assert (NoDup ms) as HD by (apply (NoDup_map_inv (fun m => snd (fst m))); exact HN).
        clear HN Huniq Hmax. induction ms as [|x ms IH]; [destruct Hi|].
        inversion HD as [|? ? Hx HD']; subst. cbn [filter].
        destruct Hi as [->|Hi].
        - replace (m_len (n, i, s) =? n) with true by (symmetry; apply Nat.eqb_refl).
          f_equal. assert (forall m, In m ms -> (m_len m =? n) = false) as Hz.
          { intros m Hm. destruct (m_len m =? n) eqn:E; [|reflexivity].
            apply (Hp m (or_intror Hm)) in E. subst. contradiction. }
          clear -Hz. induction ms as [|y ms IH]; [reflexivity|]. cbn. rewrite (Hz y (or_introl eq_refl)).
          apply IH. intros m Hm; apply Hz; now right.
        - destruct (m_len x =? n) eqn:E.
          + apply (Hp x (or_introl eq_refl)) in E. subst. contradiction.
          + apply IH; auto. intros m Hm. apply Hp. now right. }
      unfold choose. destruct ms as [|m1 [|m2 ms']] eqn:Ems; [destruct Hi| |].
      + destruct Hi as [->|[]]. reflexivity.
      + rewrite <- Ems in *. rewrite Ems in Hf |- *. cbv zeta. rewrite Hf. reflexivity.
  Qed.

  Lemma choose_err ms e : choose (Tok:=Tok) ms = Err e -> e = UserError.
  Proof.
    unfold choose. destruct ms as [|m1 [|m2 ms]]; intros H; try (inversion H; reflexivity).
    cbv zeta in H.
    destruct (filter _ _) as [|a [|b c]] eqn:Ef; inversion H; [exfalso|reflexivity].
    set (l := m1 :: m2 :: ms) in *.
    assert (exists m, In m l /\ m_len m = list_max (map m_len l)) as (m & Hm & Em).
    { clear. assert (l <> []) as Hl by discriminate. clearbody l.
      induction l as [|x l IH]; [congruence|]. destruct l as [|y l].
      - exists x. split; [now left|]. cbn. lia.
      - destruct IH as (m & Hm & Em); [discriminate|].
        change (list_max (map m_len (x :: y :: l))) with (Nat.max (m_len x) (list_max (map m_len (y :: l)))).
        destruct (Nat.le_gt_cases (list_max (map m_len (y :: l))) (m_len x)).
        + exists x. split; [now left|]. lia.
        + exists m. split; [now right|]. lia. }
    assert (In m (filter (fun m => m_len m =? list_max (map m_len l)) l)) as Hc.
    { apply filter_In. split; [exact Hm|]. now apply Nat.eqb_eq. }
    rewrite Ef in Hc. destruct Hc.
  Qed.

  Lemma bump_nth cs : forall i k, nth_error (bump i cs) k =
    match nth_error cs k with Some c => Some (if i =? k then S c else c) | None => None end.
  Proof.
    induction cs as [|c cs IH]; intros i k; [destruct i, k; reflexivity|].
    destruct i, k; cbn; try reflexivity; [now destruct (nth_error cs k)|apply IH].
  Qed.

  Lemma bump_length cs : forall i, length (bump i cs) = length cs.
  Proof. induction cs as [|c cs IH]; intros [|i]; cbn; auto. Qed.

  Lemma tok_loop_ok fuel specs line : forall off cs acc toks cs',
    tok_loop fuel specs line off cs acc = Ok (toks, cs') ->
    exists l off', lexes specs line off l off' /\ length line <= off' /\
      toks = acc ++ responses specs line off l /\
      (forall i, nth_error cs' i = match nth_error cs i with Some c => Some (c + uses l i) | None => None end).
  Proof.
    induction fuel as [|f IH]; intros off cs acc toks cs' H; cbn [tok_loop] in H; [discriminate|].
    destruct (Nat.ltb_spec off (length line)) as [Hlt|Hge].
    - apply bind_ok in H as ([[n i] s] & Hc & H). apply choose_longest in Hc as [Hn Hl].
      destruct (IH _ _ _ _ _ H) as (l & off' & H1 & H2 & H3 & H4).
      exists ((i, n) :: l), off'. split; [constructor; assumption|]. split; [exact H2|]. split.
      + rewrite H3. cbn [responses]. rewrite Hn. destruct (ts_resp s); [|reflexivity]. now rewrite <- app_assoc.
      + intros k. rewrite H4, bump_nth. destruct (nth_error cs k); [|reflexivity].
        unfold uses; cbn [map fst count_occ]. destruct (Nat.eq_dec i k) as [->|Hne].
        * rewrite Nat.eqb_refl. f_equal. lia.
        * apply Nat.eqb_neq in Hne. rewrite Hne. reflexivity.
    - inversion H; subst. exists [], off. split; [constructor|]. split; [exact Hge|].
      split; [now rewrite app_nil_r|]. intros i. destruct (nth_error cs' i); f_equal. unfold uses; cbn; lia.
  Qed.

  Lemma lexes_within specs line : within specs line -> forall off l off', lexes specs line off l off' ->
    off <= length line -> off' <= length line /\ off <= off' /\ concat (pieces line off l) = slice off off' line.
  Proof.
    intros HW off l off' H. induction H as [off|off i n l off' Hlt Hlg Hl IH]; intros Hle.
    - split; [exact Hle|]. split; [lia|]. unfold slice. now rewrite Nat.sub_diag.
    - destruct Hlg as [(s & Hs & Hm) _]. apply nth_error_In in Hs. specialize (HW _ _ _ Hs Hm).
      destruct (IH HW) as (H1 & H2 & H3). split; [exact H1|]. split; [lia|].
      cbn [pieces concat]. rewrite H3. unfold slice.
      replace (off + n - off) with n by lia. rewrite (Nat.add_comm off n), <- (skipn_skipn n off).
      replace (off' - (n + off)) with (off' - off - n) by lia.
      set (u := skipn off line). clearbody u.
      replace (off' - off) with (n + (off' - off - n)) at 2 by lia.
      symmetry. rewrite <- (firstn_skipn n u) at 1.
      assert (length (firstn n u) <= n) by apply firstn_le_length.
      destruct (Nat.le_gt_cases n (length u)).
      + rewrite firstn_app, firstn_length_le by lia.
        rewrite firstn_all2 by (rewrite firstn_length_le; lia). do 2 f_equal. lia.
      + rewrite (skipn_all2 u) by lia. rewrite app_nil_r, firstn_nil, app_nil_r.
        rewrite firstn_all2; [reflexivity|lia].
  Qed.

  Lemma tokenize_sound fuel specs line cs toks cs' :
    within specs line -> tokenize fuel specs line cs = Ok (toks, cs') ->
    exists l, lexes specs line 0 l (length line) /\ concat (pieces line 0 l) = line /\
      toks = responses specs line 0 l /\
      (forall i, nth_error cs' i = match nth_error cs i with Some c => Some (c + uses l i) | None => None end).
  Proof.
    intros HW H. apply tok_loop_ok in H as (l & off' & H1 & H2 & H3 & H4).
    destruct (lexes_within _ _ HW _ _ _ H1) as (H5 & H6 & H7); [lia|].
    assert (off' = length line) by lia. subst off'. exists l. split; [exact H1|].
    split; [|split; assumption]. rewrite H7. unfold slice. rewrite Nat.sub_0_r. apply firstn_all.
  Qed.

  Lemma tok_loop_err fuel specs line : forall off cs acc e,
    tok_loop fuel specs line off cs acc = Err e -> e <> OutOfFuel ->
    e = UserError /\ exists l off', lexes specs line off l off' /\ off' < length line /\
       (forall i n, ~ longest specs line off' i n).
  Proof.
    induction fuel as [|f IH]; intros off cs acc e H Hne; cbn [tok_loop] in H; [congruence|].
    destruct (Nat.ltb_spec off (length line)) as [Hlt|Hge]; [|discriminate].
    destruct (choose (get_matches 0 specs line off)) as [[[n i] s]|e'] eqn:Ec; cbn [bind] in H.
    - apply choose_longest in Ec as [Hn Hl].
      destruct (IH _ _ _ _ H Hne) as (He & l & off' & H1 & H2 & H3). split; [exact He|].
      exists ((i, n) :: l), off'. split; [constructor; assumption|]. auto.
    - inversion H; subst. split; [exact (choose_err _ _ Ec)|].
      exists [], off. split; [constructor|]. split; [exact Hlt|].
      intros i n Hl. destruct (proj1 Hl) as (s & Hs & _).
      assert (choose (get_matches 0 specs line off) = Ok (n, i, s)) by (apply choose_longest; auto). congruence.
  Qed.

  Lemma longest_fun specs line off i n i' n' :
    longest specs line off i n -> longest specs line off i' n' -> i = i' /\ n = n'.
  Proof.
    intros [(s & H1 & H2) H3] [(s' & H1' & H2') H3'].
    destruct (Nat.eq_dec i i') as [->|Hne].
    - split; [reflexivity|]. rewrite H1 in H1'. inversion H1'; subst. congruence.
    - pose proof (H3 i' s' n' (not_eq_sym Hne) H1' H2'). pose proof (H3' i s n Hne H1 H2). lia.
  Qed.

  (* if a scan reaches an offset with no unique longest match, tokenizing fails *)
  Lemma tok_loop_stuck fuel specs line l off off' : lexes specs line off l off' ->
    off' < length line -> (forall i n, ~ longest specs line off' i n) ->
    forall cs acc, length l < fuel -> tok_loop fuel specs line off cs acc = Err UserError.
  Proof.
    intros H. revert fuel. induction H as [off|off i n l off' Hlt Hlg Hl IH]; intros fuel Ho Hno cs acc Hf.
    - destruct fuel as [|f]; [lia|]. cbn [tok_loop]. apply Nat.ltb_lt in Ho. rewrite Ho.
      destruct (choose (get_matches 0 specs line off)) as [[[n i] s]|e'] eqn:Ec.
      + apply choose_longest in Ec as [_ Hl]. now apply Hno in Hl.
      + apply choose_err in Ec. subst. reflexivity.
    - destruct fuel as [|f]; [lia|]. cbn [tok_loop]. apply Nat.ltb_lt in Hlt. rewrite Hlt.
      destruct (proj1 Hlg) as (s & Hs & _).
      assert (choose (get_matches 0 specs line off) = Ok (n, i, s)) as -> by (apply choose_longest; auto).
      cbn [bind]. apply IH; auto. cbn in Hf. lia.
  Qed.

  Lemma tok_loop_complete fuel specs line l off off' : lexes specs line off l off' ->
    length line <= off' -> forall cs acc, length l < fuel ->
    exists cs', tok_loop fuel specs line off cs acc = Ok (acc ++ responses specs line off l, cs').
  Proof.
    intros H. revert fuel. induction H as [off|off i n l off' Hlt Hlg Hl IH]; intros fuel Ho cs acc Hf.
    - destruct fuel as [|f]; [lia|]. cbn [tok_loop]. apply Nat.ltb_ge in Ho. rewrite Ho.
      exists cs. cbn. now rewrite app_nil_r.
    - destruct fuel as [|f]; [lia|]. cbn [tok_loop]. apply Nat.ltb_lt in Hlt. rewrite Hlt.
      destruct (proj1 Hlg) as (s & Hs & _).
      assert (choose (get_matches 0 specs line off) = Ok (n, i, s)) as -> by (apply choose_longest; auto).
      cbn [bind]. edestruct (IH f) as [cs' E]; [exact Ho|cbn in Hf; lia|]. exists cs'. rewrite E.
      cbn [responses]. rewrite Hs. destruct (ts_resp s); [|reflexivity]. now rewrite <- app_assoc.
  Qed.

  Lemma tok_loop_terminates specs line :
    (forall s off, In s specs -> ts_match s line off <> Some 0) ->
    forall fuel off cs acc, length line < off + fuel -> 0 < fuel ->
    tok_loop fuel specs line off cs acc <> Err OutOfFuel.
  Proof.
    intros Hne. induction fuel as [|f IH]; intros off cs acc Hf Hp; [lia|]. cbn [tok_loop].
    destruct (Nat.ltb_spec off (length line)) as [Hlt|Hge]; [|discriminate].
    destruct (choose (get_matches 0 specs line off)) as [[[n i] s]|e'] eqn:Ec; cbn [bind].
    - apply choose_longest in Ec as [_ [(s' & Hs & Hm) _]]. apply nth_error_In in Hs.
      assert (n <> 0) by (intros ->; exact (Hne _ _ Hs Hm)). apply IH; lia.
    - apply choose_err in Ec. subst. discriminate.
  Qed.
End TokS.

(* a pattern matching the empty string makes the loop run forever *)
Definition empty_spec : @tspec unit :=
  mkTS (fun line off => if off <=? length line then Some 0 else None) None.
Lemma tokenize_loops_refuted : exists (specs : list (@tspec unit)) line,
  within specs line /\ forall fuel cs, tokenize fuel specs line cs = Err OutOfFuel.
Proof.
  exists [empty_spec], [97%N]. split.
  - intros s off n [<-|[]] H. unfold empty_spec in H. cbn [ts_match] in H.
    destruct (Nat.leb_spec off (length [97%N])) as [Hle|]; inversion H; subst. lia.
  - intros fuel cs. unfold tokenize. generalize (@nil unit) as acc. revert cs.
    induction fuel as [|f IH]; intros cs acc; [reflexivity|].
    cbn [tok_loop]. apply IH.
Qed.
