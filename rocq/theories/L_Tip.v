(* Specification and lemmas for the source of tokens. *)
From Verif Require Import M_Base M_Tip.

(* ---- specification ---- *)
(* what the lexical parser may return: a piece of the text, neither an inserted semicolon nor the end *)
Definition lexer_ok (source : text) (lex : lgoal -> nat -> res (ekind * nat * nat)) : Prop :=
  forall g p k s e, lex g p = Ok (k, s, e) -> k <> E_semicolon /\ k <> E_end /\ e <= length source.
Definition inserted (e : elem) : bool := match ek e with E_semicolon => true | _ => false end.
Definition token (e : elem) : Prop := forall n, ek e <> E_non n.
(* a line terminator, or a comment that contains one *)
Definition breaks_line (e : elem) : Prop := ek e = E_non LineTerminator \/ ek e = E_non (Comment true).
(* the element is an instance of the terminal *)
Definition denotes (source : text) (x : term) (e : elem) : Prop :=
  match x with
  | Nam n => (n = 0 /\ ek e = E_end) \/ ek e = E_named n
  | Lit c => if inserted e then c = [59%N] else c = firstn (eend e - estart e) (skipn (estart e) source)
  end.
(* states reached from a new one by any calls *)
Inductive reachable (source : text) (lex : lgoal -> nat -> res (ekind * nat * nat)) : tip -> Prop :=
| r_new t : new_tip source lex = Ok t -> reachable source lex t
| r_next t posn exp kl r t' : reachable source lex t -> gnti source lex t posn exp kl = Ok (r, t') -> reachable source lex t'
| r_reparse t s e t' : reachable source lex t -> set_reparse_bounds t s e = Ok t' -> reachable source lex t'.

(* gap p lies between token p - 1 and token p; the first gap starts at the start and the last ends at the end *)
Definition gap (t : tip) (p : nat) (mid : list elem) : Prop :=
  exists l1 l2, elems t = l1 ++ mid ++ l2 /\ (forall x, In x mid -> exists n, ek x = E_non n) /\
  length (filter (fun e => match ek e with E_non _ => false | _ => true end) l1) = p /\
  (l1 = [] \/ exists l e, l1 = l ++ [e] /\ token e) /\ (l2 = [] \/ exists e l, l2 = e :: l /\ token e).
(* the element given for token number c *)
Definition delivered (t : tip) (c : nat) (e : elem) : Prop :=
  exists e' k, nth_error (toks t) c = Some (e', k) /\
    (end_i t = Some (Z.of_nat c) /\ ek e = E_end /\ estart e = estart e' /\ eend e = estart e' \/ end_i t <> Some (Z.of_nat c) /\ e = e').
(* more about the lexical parser: it starts where it is told to and consumes something, its tokens are known ones,
   it fails with ParseError only, and the non-tokens are found with the goal InputElement_common too *)
Definition lexer_lawful (source : text) (lex : lgoal -> nat -> res (ekind * nat * nat)) : Prop :=
  lexer_ok source lex /\
  (forall g p k s e, lex g p = Ok (k, s, e) -> s = p /\ p < e /\ k <> E_unknown) /\
  (forall g p x, lex g p = Err x -> x = UserError) /\
  (forall g p n s e, lex g p = Ok (E_non n, s, e) -> exists r, lex InputElement_common p = Ok r).

(* ---- lists ---- *)
Lemma text_eqb_eq a b : text_eqb a b = true <-> a = b.
Proof.
  revert b. induction a as [|x a IH]; intros [|y b]; cbn; try (split; congruence).
  rewrite andb_true_iff, N.eqb_eq, IH. split; [intros [-> ->]; auto|intros E; injection E; auto].
Qed.
Lemma firstn_length_app {A} (a b : list A) : firstn (length a) (a ++ b) = a.
Proof. rewrite firstn_app, Nat.sub_diag, firstn_all, app_nil_r. reflexivity. Qed.
Lemma skipn_length_app {A} (a b : list A) : skipn (length a) (a ++ b) = b.
Proof. rewrite skipn_app, Nat.sub_diag, skipn_all. reflexivity. Qed.
Lemma nth_error_length_app {A} (a b : list A) x : nth_error (a ++ x :: b) (length a) = Some x.
Proof. rewrite nth_error_app2, Nat.sub_diag by auto. reflexivity. Qed.
Lemma py_nth_pos {A} (l : list A) (i : Z) x : (0 <= i)%Z -> py_nth l i = Ok x <-> nth_error l (Z.to_nat i) = Some x.
Proof.
  intros H. unfold py_nth. assert (E : (i <? 0)%Z = false) by lia. rewrite E, E. destruct (nth_error l (Z.to_nat i)); split; congruence.
Qed.

(* ---- the tokens of the elements, with their indices ---- *)
Fixpoint toks_from (i : nat) (l : list elem) : list (elem * nat) :=
  match l with [] => [] | e :: l' => if is_token (ek e) then (e, i) :: toks_from (S i) l' else toks_from (S i) l' end.
Lemma toks_from_app i a b : toks_from i (a ++ b) = toks_from i a ++ toks_from (i + length a) b.
Proof.
  revert i. induction a as [|e a IH]; intros i; cbn; [now rewrite Nat.add_0_r|]. rewrite <- Nat.add_succ_comm. destruct (is_token (ek e)); cbn; now rewrite IH.
Qed.
Lemma toks_from_S i l : toks_from (S i) l = map (fun x => (fst x, S (snd x))) (toks_from i l).
Proof. revert i. induction l as [|e l IH]; intros i; cbn; [auto|]. destruct (is_token (ek e)); cbn; now rewrite IH. Qed.
Lemma toks_from_nth l : forall i c e k, nth_error (toks_from i l) c = Some (e, k) ->
  exists l1 l2, l = l1 ++ e :: l2 /\ k = i + length l1 /\ length (toks_from i l1) = c /\ is_token (ek e) = true.
Proof.
  induction l as [|x l IH]; intros i c e k H; cbn in H; [destruct c; discriminate|]. destruct (is_token (ek x)) eqn:T.
  - destruct c as [|c]; [injection H as <- <-; exists [], l; cbn; repeat split; auto|]. cbn in H. destruct (IH _ _ _ _ H) as (l1 & l2 & -> & -> & L & TE).
    exists (x :: l1), l2. cbn. rewrite T. cbn. repeat split; auto; lia.
  - destruct (IH _ _ _ _ H) as (l1 & l2 & -> & -> & L & TE). exists (x :: l1), l2. cbn. rewrite T. repeat split; auto; lia.
Qed.
Lemma toks_from_ge i l e k : In (e, k) (toks_from i l) -> i <= k.
Proof. revert i. induction l as [|x l IH]; intros i; cbn; [tauto|]. destruct (is_token (ek x)); [intros [H|H]; [injection H; lia|]|intros H]; apply IH in H; lia. Qed.
Lemma toks_from_in i l e k : In (e, k) (toks_from i l) <-> i <= k /\ nth_error l (k - i) = Some e /\ is_token (ek e) = true.
Proof.
  revert i. induction l as [|x l IH]; intros i; cbn [toks_from].
  - split; [intros []|]. intros (_ & H & _). destruct (k - i); discriminate.
  - assert (X : i <= k /\ nth_error (x :: l) (k - i) = Some e /\ is_token (ek e) = true <-> (k = i /\ x = e /\ is_token (ek e) = true) \/ (S i <= k /\ nth_error l (k - S i) = Some e /\ is_token (ek e) = true)).
    { destruct (Nat.lt_trichotomy k i) as [L|[->|L]].
      - split; [lia|]. intros [H|H]; lia.
      - rewrite Nat.sub_diag. cbn. split; [intros (_ & H & T); injection H; auto|]. intros [(_ & -> & T)|H]; [auto|lia].
      - replace (k - i) with (S (k - S i)) by lia. cbn. split; [intros (_ & H & T); right; auto|]. intros [H|(_ & H & T)]; [lia|]. split; [lia|auto]. }
    rewrite X. destruct (is_token (ek x)) eqn:T; cbn [In]; rewrite IH.
    + split; [intros [H|H]; [injection H as -> ->; auto|auto]|]. intros [(-> & -> & _)|H]; auto.
    + split; [auto|]. intros [(-> & -> & T')|H]; [congruence|auto].
Qed.
Lemma is_token_spec e : is_token (ek e) = true <-> token e.
Proof. unfold token. destruct (ek e); cbn; split; try congruence; intros H; destruct (H n); auto. Qed.

(* ---- tiling ---- *)
Fixpoint tiles (a : nat) (l : list elem) (b : nat) : Prop :=
  match l with [] => a = b | e :: l' => estart e = a /\ a <= eend e /\ tiles (eend e) l' b end.
Lemma tiles_app a l m b : tiles a (l ++ m) b <-> exists c, tiles a l c /\ tiles c m b.
Proof.
  revert a. induction l as [|e l IH]; intros a; cbn; [split; [eauto|intros (c & -> & H); auto]|]. rewrite IH. split.
  - intros (E & L & c & H1 & H2). eauto.
  - intros (c & (E & L & H1) & H2). eauto.
Qed.
Lemma tiles_le a l b : tiles a l b -> a <= b.
Proof. revert a. induction l as [|e l IH]; intros a; cbn; [lia|]. intros (_ & L & H). apply IH in H. lia. Qed.
Lemma tiles_text source l : forall a b, tiles a l b -> b <= length source -> concat (map (etext source) l) = firstn (b - a) (skipn a source).
Proof.
  induction l as [|e l IH]; intros a b H L; cbn in *; [subst; now rewrite Nat.sub_diag|]. destruct H as (E & LE & H). rewrite (IH _ _ H L). unfold etext. rewrite E.
  pose proof (tiles_le _ _ _ H). rewrite <- (firstn_skipn (eend e - a) (firstn (b - a) (skipn a source))). f_equal.
  - rewrite firstn_firstn. f_equal. lia.
  - rewrite skipn_firstn_comm. f_equal; [lia|]. assert (X : forall m n (l : text), skipn n (skipn m l) = skipn (m + n) l) by (induction m; intros n [|? l0]; cbn; auto; destruct n; auto).
    rewrite X. f_equal. lia.
Qed.

Section Inv.
  Variable source : text.
  Variable lex : lgoal -> nat -> res (ekind * nat * nat).
  Hypothesis Hlex : lexer_ok source lex.
  Definition original (l : list elem) : list elem := filter (fun e => negb (inserted e)) l.
  Record inv (t : tip) : Prop := {
    i_toks : toks t = toks_from 0 (elems t);
    i_tiles : tiles 0 (original (elems t)) (scout t);
    i_scout : scout t <= length source;
    i_cur : (-1 <= cur t)%Z;
    i_done : done t = true <-> exists e, In e (elems t) /\ ek e = E_end;
    i_last : done t = true -> scout t = length source /\ exists l e, elems t = l ++ [e] /\ ek e = E_end /\ (forall x, In x l -> ek x <> E_end) }.
  Lemma original_app l m : original (l ++ m) = original l ++ original m.
  Proof. apply filter_app. Qed.

  Lemma inv_same t t' : inv t -> elems t' = elems t -> toks t' = toks t -> scout t' = scout t -> done t' = done t -> (-1 <= cur t')%Z -> inv t'.
  Proof. intros I E1 E2 E3 E4 C. destruct I. split; rewrite ?E1, ?E2, ?E3, ?E4; auto. Qed.
  Lemma install_inv t e : inv t -> done t = false -> inserted e = false -> ek e <> E_end -> estart e = scout t -> scout t <= eend e -> eend e <= length source ->
    inv (install (mkTip (asi_posn t) (elems t) (toks t) (cur t) (eend e) (done t) (end_i t) (fresh t)) e).
  Proof.
    intros I D NI NE ES LE LS. destruct I. split; cbn.
    - rewrite toks_from_app, i_toks0. cbn. destruct (is_token (ek e)); [auto|now rewrite app_nil_r].
    - rewrite original_app. apply tiles_app. exists (scout t). split; [auto|]. unfold original. cbn. rewrite NI. cbn. auto.
    - auto.
    - auto.
    - rewrite D. split; [discriminate|]. intros (x & IX & EX). apply in_app_iff in IX as [IX|[<-|[]]]; [|congruence]. rewrite <- D. apply i_done0. eauto.
    - congruence.
  Qed.
  Lemma get_one_inv t g b t' : inv t -> get_one source lex t g = Ok (b, t') ->
    inv t' /\ cur t' = cur t /\ end_i t' = end_i t /\ asi_posn t' = asi_posn t /\ (exists l, elems t' = elems t ++ l) /\ (exists l, toks t' = toks t ++ l) /\
    (b = false -> t' = t /\ done t = true) /\ (b = true -> done t = false /\ (done t' = false -> scout t < scout t')).
  Proof.
    intros I H. unfold get_one in H. destruct (done t) eqn:D.
    { injection H as <- <-. split; [auto|]. repeat (split; [solve [auto]|]). split; [exists []; now rewrite app_nil_r|]. split; [exists []; now rewrite app_nil_r|]. split; [auto|discriminate]. }
    destruct (Nat.eqb_spec (scout t) (length source)) as [E|NE].
    - injection H as <- <-. split.
      + destruct I. split; cbn.
        * rewrite toks_from_app, i_toks0. reflexivity.
        * rewrite original_app. apply tiles_app. exists (scout t). split; [auto|]. cbn. auto.
        * auto.
        * auto.
        * split; [intros _|auto]. eexists. split; [apply in_or_app; right; left; reflexivity|reflexivity].
        * intros _. split; [auto|]. eexists _, _. split; [reflexivity|]. split; [reflexivity|]. intros x IX EX. assert (X : done t = true) by (apply i_done0; eauto). congruence.
      + cbn. repeat (split; [solve [auto]|]). split; [eauto|]. split; [eauto|]. split; [discriminate|]. intros _. split; [auto|discriminate].
    - destruct (lex g (scout t)) as [[[k s] e]|x] eqn:L; cbn [bind] in H; [|discriminate]. destruct (Nat.eqb_spec s (scout t)) as [->|]; cbn [assert_ bind] in H; [|discriminate].
      destruct (Nat.ltb_spec (scout t) e) as [LE|]; cbn [assert_ bind] in H; [|discriminate]. injection H as <- <-. destruct (Hlex _ _ _ _ _ L) as (K1 & K2 & LS). split.
      + pose proof (install_inv t (mkE (fresh t) k (scout t) e)) as X. rewrite D in X. apply X; cbn; auto; [|lia]. unfold inserted. cbn. destruct k; auto; congruence.
      + cbn. repeat (split; [solve [auto]|]). split; [eauto|]. split; [destruct (is_token k); [eauto|exists []; now rewrite app_nil_r]|]. split; [discriminate|]. auto.
  Qed.
  Lemma scout_inv n : forall t t', inv t -> scout_ahead source lex n t = Ok t' ->
    inv t' /\ cur t' = cur t /\ end_i t' = end_i t /\ asi_posn t' = asi_posn t /\ (exists l, elems t' = elems t ++ l) /\ (exists l, toks t' = toks t ++ l).
  Proof.
    induction n as [|n IH]; intros t t' I H; cbn in H; [discriminate|].
    assert (SAME : inv t /\ cur t = cur t /\ end_i t = end_i t /\ asi_posn t = asi_posn t /\ (exists l, elems t = elems t ++ l) /\ (exists l, toks t = toks t ++ l)).
    { split; [auto|]. repeat (split; [solve [auto]|]). split; exists []; now rewrite app_nil_r. }
    destruct (get_one source lex t InputElement_common) as [[[|] t1]|e] eqn:G.
    - destruct (get_one_inv _ _ _ _ I G) as (I1 & C1 & E1 & A1 & (l1 & L1) & (m1 & M1) & _). destruct (IH _ _ I1 H) as (I2 & C2 & E2 & A2 & (l2 & L2) & (m2 & M2)).
      split; [auto|]. repeat (split; [congruence|]). split; [exists (l1 ++ l2)|exists (m1 ++ m2)]; rewrite app_assoc; congruence.
    - injection H as <-. destruct (get_one_inv _ _ _ _ I G) as (_ & _ & _ & _ & _ & _ & E & _). destruct (E eq_refl) as [-> _]. exact SAME.
    - destruct e; try discriminate. injection H as <-. exact SAME.
  Qed.
  Lemma new_inv t : new_tip source lex = Ok t -> inv t /\ cur t = (-1)%Z /\ end_i t = None /\ asi_posn t = None.
  Proof.
    unfold new_tip. intros H. destruct (scout_ahead source lex (fuel source) _) as [t1|] eqn:S; [|discriminate]. injection H as <-.
    apply scout_inv in S as (I & C & E & A & _); [cbn in *; auto|]. split; cbn; try lia; auto; split; [discriminate|intros (e & [] & _)|discriminate..].
  Qed.
  (* scouting comes to an end *)
  Lemma scout_total n : forall t, inv t -> (if done t then 0 else S (length source - scout t)) < n -> exists r, scout_ahead source lex n t = r /\ r <> Err OutOfFuel \/ exists g p, lex g p = Err OutOfFuel.
  Proof.
    induction n as [|n IH]; intros t I L; [lia|]. cbn. destruct (get_one source lex t InputElement_common) as [[[|] t1]|e] eqn:G.
    - destruct (get_one_inv _ _ _ _ I G) as (I1 & _ & _ & _ & _ & _ & _ & P). destruct (P eq_refl) as [D P']. rewrite D in L. apply (IH t1 I1). destruct (done t1); [lia|]. specialize (P' eq_refl). pose proof (i_scout _ I1). lia.
    - eexists. left. split; [reflexivity|discriminate].
    - destruct e; try (eexists; left; split; [reflexivity|discriminate]). exists (Ok t). right.
      unfold get_one in G. destruct (done t); [discriminate|]. destruct (scout t =? length source); [discriminate|]. destruct (lex InputElement_common (scout t)) as [[[k s] x]|x] eqn:LX; cbn [bind] in G.
      + destruct (s =? scout t); [|discriminate]. cbn [assert_ bind] in G. destruct (s <? x); discriminate.
      + injection G as ->. eauto.
  Qed.

  (* the cursor has moved to the token *)
  Lemma advance_inv t g e t' : inv t -> advance_token_cursor source lex t g = Ok (e, t') ->
    inv t' /\ cur t' = (cur t + 1)%Z /\ end_i t' = end_i t /\ asi_posn t' = asi_posn t /\ (exists l, elems t' = elems t ++ l) /\ (exists l, toks t' = toks t ++ l) /\
    exists e' k, nth_error (toks t') (Z.to_nat (cur t')) = Some (e', k) /\
      (if match end_i t with Some m => (cur t' =? m)%Z | None => false end then ek e = E_end /\ estart e = estart e' /\ eend e = estart e' else e = e').
  Proof.
    intros I H. pose proof (i_cur _ I) as C. unfold advance_token_cursor in H.
    set (t0 := mkTip (asi_posn t) (elems t) (toks t) (cur t + 1) (scout t) (done t) (end_i t) (fresh t)) in *.
    assert (I0 : inv t0) by (apply (inv_same t); auto; cbn; lia).
    assert (SAME0 : (exists l, elems t0 = elems t ++ l) /\ (exists l, toks t0 = toks t ++ l)) by (split; exists []; cbn; now rewrite app_nil_r).
    destruct (match end_i t0 with Some m => (cur t + 1 <=? m)%Z | None => true end) eqn:A; cbn [assert_ bind] in H; [|discriminate].
    change (end_i t0) with (end_i t) in *. destruct (match end_i t with Some m => (cur t + 1 =? m)%Z | None => false end) eqn:EQ.
    - destruct (py_nth (toks t0) (cur t + 1)) as [[e' k]|] eqn:N; cbn [bind] in H; [|discriminate]. injection H as <- <-. apply py_nth_pos in N; [|lia].
      split; [apply (inv_same t); auto; cbn; lia|]. cbn. repeat (split; [solve [auto]|]). split; [apply SAME0|]. split; [apply SAME0|].
      exists e', k. split; [exact N|]. cbn in EQ. rewrite EQ. auto.
    - destruct ((cur t + 1 <=? Z.of_nat (length (toks t0)))%Z); cbn [assert_ bind] in H; [|discriminate].
      assert (FIN : forall t1, inv t1 -> cur t1 = (cur t + 1)%Z -> end_i t1 = end_i t -> asi_posn t1 = asi_posn t -> (exists l, elems t1 = elems t ++ l) -> (exists l, toks t1 = toks t ++ l) ->
        (do k <- py_nth (toks t1) (cur t + 1) ;; Ok (fst k, t1)) = Ok (e, t') -> 
        inv t' /\ cur t' = (cur t + 1)%Z /\ end_i t' = end_i t /\ asi_posn t' = asi_posn t /\ (exists l, elems t' = elems t ++ l) /\ (exists l, toks t' = toks t ++ l) /\
        exists e' k, nth_error (toks t') (Z.to_nat (cur t')) = Some (e', k) /\
          (if match end_i t with Some m => (cur t' =? m)%Z | None => false end then ek e = E_end /\ estart e = estart e' /\ eend e = estart e' else e = e')).
      { intros t1 I1 C1 E1 A1 L1 M1 Q. destruct (py_nth (toks t1) (cur t + 1)) as [[e' k]|] eqn:N; cbn [bind] in Q; [|discriminate]. injection Q as <- <-. apply py_nth_pos in N; [|lia].
        repeat (split; [solve [auto]|]). exists e', k. rewrite C1, EQ. auto. }
      destruct ((cur t + 1 <? Z.of_nat (length (toks t0)))%Z); [apply (FIN t0); auto; apply SAME0|].
      destruct (get_one source lex t0 g) as [[b t1]|] eqn:G; cbn [bind] in H; [|discriminate]. destruct (get_one_inv _ _ _ _ I0 G) as (I1 & C1 & E1 & A1 & (l1 & L1) & (m1 & M1) & _).
      destruct b; cbn [fst snd assert_ bind] in H; [|discriminate]. destruct ((_ <? _)%Z); cbn [assert_ bind] in H; [|discriminate].
      destruct (scout_ahead source lex (fuel source) t1) as [t2|] eqn:S; cbn [bind] in H; [|discriminate]. destruct (scout_inv _ _ _ I1 S) as (I2 & C2 & E2 & A2 & (l2 & L2) & (m2 & M2)).
      apply (FIN t2); auto; try congruence.
      + rewrite C2, C1. reflexivity.
      + rewrite E2, E1. reflexivity.
      + rewrite A2, A1. reflexivity.
      + exists (l1 ++ l2). rewrite app_assoc, L2, L1. reflexivity.
      + exists (m1 ++ m2). rewrite app_assoc, M2, M1. reflexivity.
  Qed.

  (* inserting a semicolon *)
  Lemma insert_inv t s t' : inv t -> (0 <= cur t)%Z -> inserted s = true -> insert_before_current t s = Ok t' ->
    inv t' /\ cur t' = cur t /\ end_i t' = end_i t /\ asi_posn t' = asi_posn t /\ original (elems t') = original (elems t) /\
    exists l1 ct l2, elems t = l1 ++ ct :: l2 /\ elems t' = l1 ++ s :: ct :: l2 /\ token ct /\
      nth_error (toks t) (Z.to_nat (cur t)) = Some (ct, length l1) /\
      nth_error (toks t') (Z.to_nat (cur t)) = Some (s, length l1) /\ nth_error (toks t') (S (Z.to_nat (cur t))) = Some (ct, S (length l1)).
  Proof.
    intros I C IS H. unfold insert_before_current in H. destruct (py_nth (toks t) (cur t)) as [[ct i]|] eqn:N; cbn [bind] in H; [|discriminate]. apply py_nth_pos in N; [|auto].
    destruct (nth_error (elems t) i) as [x|] eqn:NX; cbn [bind] in H; [|discriminate]. destruct (eid x =? eid ct); cbn [assert_ bind] in H; [|discriminate]. injection H as <-.
    pose proof N as N'. rewrite (i_toks _ I) in N'. destruct (toks_from_nth _ _ _ _ _ N') as (l1 & l2 & E & EI & LC & TC). cbn in EI. subst i.
    assert (TE : token ct) by now apply is_token_spec. rewrite E in NX. rewrite nth_error_length_app in NX. injection NX as <-.
    assert (TS : is_token (ek s) = true) by (unfold inserted in IS; destruct (ek s); auto; discriminate).
    assert (ET : toks t = toks_from 0 l1 ++ (ct, length l1) :: toks_from (S (length l1)) l2) by (rewrite (i_toks _ I), E, toks_from_app; cbn; rewrite TC; reflexivity).
    assert (EL : insert_at (elems t) (length l1) s = l1 ++ s :: ct :: l2) by (rewrite E; unfold insert_at; now rewrite firstn_length_app, skipn_length_app).
    assert (EO : original (l1 ++ s :: ct :: l2) = original (l1 ++ ct :: l2)) by (rewrite !original_app; f_equal; unfold original; cbn; now rewrite IS).
    assert (ETK : firstn (Z.to_nat (cur t)) (toks t) ++ (s, length l1) :: map (fun x => (fst x, S (snd x))) (skipn (Z.to_nat (cur t)) (toks t)) = toks_from 0 (l1 ++ s :: ct :: l2)).
    { rewrite toks_from_app. cbn [toks_from]. rewrite TS, TC, ET, <- LC, firstn_length_app, skipn_length_app. cbn [map fst snd]. rewrite <- toks_from_S. reflexivity. }
    cbn [elems toks scout cur done end_i asi_posn]. split.
    - destruct I. split; cbn [elems toks scout cur done end_i asi_posn].
      + now rewrite EL.
      + rewrite EL, EO, <- E. auto.
      + auto.
      + auto.
      + rewrite EL, i_done0, E. assert (X : forall e, ek e = E_end -> In e (l1 ++ s :: ct :: l2) <-> In e (l1 ++ ct :: l2)).
        { intros e EE. rewrite !in_app_iff. cbn. split; [intros [H|[<-|H]]; auto|tauto]. unfold inserted in IS. rewrite EE in IS. discriminate. }
        split; intros (e & IE & EE); exists e; split; auto; apply X; auto.
      + intros D. destruct (i_last0 D) as (S1 & l & e & E1 & E2 & E3). split; [auto|]. rewrite EL. rewrite E in E1.
        destruct l2 as [|y l2] using rev_ind.
        * apply app_inj_tail in E1 as [<- <-]. exists (l1 ++ [s]), ct. rewrite <- app_assoc. split; [reflexivity|]. split; [auto|]. intros x IX. apply in_app_iff in IX as [IX|[<-|[]]]; [auto|]. unfold inserted in IS. intros Q. rewrite Q in IS. discriminate.
        * clear IHl2. assert (E4 : (l1 ++ ct :: l2) ++ [y] = l ++ [e]) by (rewrite <- E1, <- app_assoc; reflexivity). apply app_inj_tail in E4 as [<- <-].
          exists (l1 ++ s :: ct :: l2), y. split; [rewrite <- app_assoc; reflexivity|]. split; [auto|]. intros x IX. apply in_app_iff in IX as [IX|[<-|IX]].
          -- apply E3. apply in_app_iff. auto.
          -- unfold inserted in IS. intros Q. rewrite Q in IS. discriminate.
          -- apply E3. apply in_app_iff. auto.
    - repeat (split; [solve [auto]|]). rewrite EL, EO, <- E. split; [auto|]. exists l1, ct, l2. rewrite ETK. split; [auto|]. split; [auto|]. split; [auto|]. split; [auto|].
      rewrite toks_from_app. cbn [toks_from]. rewrite TS, TC, <- LC. split; [apply nth_error_length_app|]. rewrite nth_error_app2, Nat.sub_succ_l, Nat.sub_diag by lia. reflexivity.
  Qed.

  (* ---- gaps ---- *)
  Lemma lt_in_ok l : (forall e, In e l -> exists n, ek e = E_non n) -> exists b, lt_in l = Ok b /\ (b = true <-> exists e, In e l /\ breaks_line e).
  Proof.
    induction l as [|e l IH]; intros H; cbn.
    - exists false. split; [auto|]. split; [discriminate|]. intros (e & [] & _).
    - destruct IH as (b & E & B); [intros x I; apply H; now right|]. destruct (H e (or_introl eq_refl)) as [n EK]. rewrite EK.
      assert (NO : ~ breaks_line e -> b = true <-> exists x, (e = x \/ In x l) /\ breaks_line x).
      { intros NB. rewrite B. split; [intros (x & I & BX); eauto|]. intros (x & [<-|I] & BX); [tauto|eauto]. }
      destruct n as [| |[|]].
      + exists b. split; [auto|]. apply NO. intros [Q|Q]; congruence.
      + exists true. split; [auto|]. split; [|auto]. intros _. exists e. split; [auto|]. now left.
      + exists true. split; [auto|]. split; [|auto]. intros _. exists e. split; [auto|]. now right.
      + exists b. split; [auto|]. apply NO. intros [Q|Q]; congruence.
  Qed.
  (* the elements between two neighbouring tokens are not tokens *)
  Lemma toks_next l i c e k e' k' : nth_error (toks_from i l) c = Some (e, k) -> nth_error (toks_from i l) (S c) = Some (e', k') ->
    exists l1 mid l2, l = l1 ++ e :: mid ++ e' :: l2 /\ k = i + length l1 /\ k' = k + S (length mid) /\ forall x, In x mid -> exists n, ek x = E_non n.
  Proof.
    intros H1 H2. destruct (toks_from_nth _ _ _ _ _ H1) as (l1 & l2 & -> & -> & LC & TE). rewrite toks_from_app in H2. cbn [toks_from] in H2. rewrite TE in H2.
    rewrite nth_error_app2 in H2 by lia. rewrite LC in H2. replace (S c - c) with 1 in H2 by lia. cbn in H2.
    assert (X : forall l b, nth_error (toks_from b l) 0 = Some (e', k') -> exists mid l3, l = mid ++ e' :: l3 /\ k' = b + length mid /\ forall x, In x mid -> exists n, ek x = E_non n).
    { clear. induction l as [|y l IH]; intros b H; cbn in H; [discriminate|]. destruct (is_token (ek y)) eqn:T.
      - injection H as -> ->. exists [], l. cbn. split; [auto|]. split; [lia|]. intros ? [].
      - destruct (IH _ H) as (mid & l3 & -> & -> & M). exists (y :: mid), l3. cbn. split; [auto|]. split; [lia|]. intros x [<-|I]; [|auto]. destruct (ek y); try discriminate. eauto. }
    destruct (X _ _ H2) as (mid & l3 & -> & -> & M). exists l1, mid, l3. cbn. split; [auto|]. split; [auto|]. split; [lia|auto].
  Qed.
  Lemma toks_first l i e k : nth_error (toks_from i l) 0 = Some (e, k) -> exists mid l2, l = mid ++ e :: l2 /\ k = i + length mid /\ forall x, In x mid -> exists n, ek x = E_non n.
  Proof.
    revert i. induction l as [|y l IH]; intros i H; cbn in H; [discriminate|]. destruct (is_token (ek y)) eqn:T.
    - injection H as -> ->. exists [], l. cbn. split; [auto|]. split; [lia|]. intros ? [].
    - destruct (IH _ H) as (mid & l3 & -> & -> & M). exists (y :: mid), l3. cbn. split; [auto|]. split; [lia|]. intros x [<-|I]; [|auto]. destruct (ek y); try discriminate. eauto.
  Qed.
  Lemma toks_last l i c e k : nth_error (toks_from i l) c = Some (e, k) -> length (toks_from i l) = S c -> exists l1 mid, l = l1 ++ e :: mid /\ k = i + length l1 /\ forall x, In x mid -> exists n, ek x = E_non n.
  Proof.
    intros H L. destruct (toks_from_nth _ _ _ _ _ H) as (l1 & l2 & -> & -> & LC & TE). exists l1, l2. split; [auto|]. split; [auto|]. rewrite toks_from_app in L. cbn [toks_from] in L. rewrite TE, app_length, LC in L. cbn in L.
    assert (Z : toks_from (S (i + length l1)) l2 = []) by (apply length_zero_iff_nil; lia). intros x IX. destruct (ek x) eqn:K; eauto; exfalso; apply In_nth_error in IX as [m M];
    assert (Q : In (x, S (i + length l1) + m) (toks_from (S (i + length l1)) l2)) by (apply toks_from_in; split; [lia|]; replace (S (i + length l1) + m - S (i + length l1)) with m by lia; rewrite K; auto); rewrite Z in Q; destruct Q.
  Qed.
  Lemma toks_from_count i l : length (toks_from i l) = length (filter (fun e => is_token (ek e)) l).
  Proof. revert i. induction l as [|e l IH]; intros i; cbn; [auto|]. destruct (is_token (ek e)); cbn; rewrite IH; auto. Qed.
  Lemma gap_exists t p : inv t -> p <= length (toks t) -> exists mid, gap t p mid /\
    mid = slice (elems t) (match p with 0 => 0 | S q => match nth_error (toks t) q with Some k => S (snd k) | None => 0 end end) (match nth_error (toks t) p with Some k => snd k | None => length (elems t) end).
  Proof.
    intros I L. pose proof (i_toks _ I) as ET. destruct p as [|q].
    - destruct (nth_error (toks t) 0) as [[e k]|] eqn:N.
      + pose proof N as N'. rewrite ET in N'. destruct (toks_first _ _ _ _ N') as (mid & l2 & E & EK & M). cbn in EK. exists mid. split.
        * exists [], (e :: l2). rewrite E. split; [auto|]. split; [auto|]. split; [auto|]. split; [auto|]. right. exists e, l2. split; [auto|]. apply is_token_spec. destruct (toks_from_nth _ _ _ _ _ N') as (_ & _ & _ & _ & _ & T). auto.
        * unfold slice. rewrite E, EK, Nat.sub_0_r. cbn [skipn snd]. now rewrite firstn_length_app.
      + apply nth_error_None in N. assert (Z : toks t = []) by (apply length_zero_iff_nil; lia). exists (elems t). split.
        * exists [], []. rewrite app_nil_r. split; [auto|]. split; [|auto]. intros x IX. destruct (ek x) eqn:K; eauto; exfalso; apply In_nth_error in IX as [m M];
          assert (Q : In (x, m) (toks_from 0 (elems t))) by (apply toks_from_in; split; [lia|]; rewrite Nat.sub_0_r, K; auto); rewrite <- ET, Z in Q; destruct Q.
        * unfold slice. rewrite Nat.sub_0_r. cbn. now rewrite firstn_all.
    - destruct (nth_error (toks t) q) as [[e k]|] eqn:N; [|apply nth_error_None in N; lia]. pose proof N as N'. rewrite ET in N'. destruct (toks_from_nth _ _ _ _ _ N') as (_ & _ & _ & _ & _ & TE). apply is_token_spec in TE.
      destruct (nth_error (toks t) (S q)) as [[e' k']|] eqn:M.
      + pose proof M as M'. rewrite ET in M'. destruct (toks_next _ _ _ _ _ _ _ N' M') as (l1 & mid & l2 & E & EK & EK' & NT). destruct (toks_from_nth _ _ _ _ _ M') as (_ & _ & _ & _ & _ & TE'). apply is_token_spec in TE'.
        cbn in EK. exists mid. split.
        * exists (l1 ++ [e]), (e' :: l2). rewrite E, <- app_assoc. split; [reflexivity|]. split; [auto|]. split; [|split; right; eauto]. change (fun e => match ek e with E_non _ => false | _ => true end) with (fun e => is_token (ek e)). rewrite <- (toks_from_count 0).
          destruct (toks_from_nth _ _ _ _ _ N') as (a & b & E2 & EA & LA & TA). rewrite EK in EA. cbn in EA. rewrite toks_from_app. cbn [toks_from]. rewrite TA, app_length. cbn.
          rewrite E in E2. assert (l1 = a) as ->; [|lia]. rewrite <- (firstn_length_app l1 (e :: mid ++ e' :: l2)), E2, EA. apply firstn_length_app.
        * unfold slice. rewrite E, EK', EK. cbn [snd]. replace (length l1 + S (length mid) - S (length l1)) with (length mid) by lia.
          replace (l1 ++ e :: mid ++ e' :: l2) with ((l1 ++ [e]) ++ mid ++ e' :: l2) by (rewrite <- app_assoc; reflexivity). replace (S (length l1)) with (length (l1 ++ [e])) by (rewrite app_length; cbn; lia).
          rewrite skipn_length_app. symmetry. apply firstn_length_app.
      + apply nth_error_None in M. destruct (toks_last _ _ _ _ _ N') as (l1 & mid & E & EK & NT); [rewrite <- ET; lia|]. cbn in EK. exists mid. split.
        * exists (l1 ++ [e]), []. rewrite E, app_nil_r, <- app_assoc. split; [reflexivity|]. split; [auto|]. split; [|split; [right; eauto|auto]]. change (fun e => match ek e with E_non _ => false | _ => true end) with (fun e => is_token (ek e)). rewrite <- (toks_from_count 0).
          destruct (toks_from_nth _ _ _ _ _ N') as (a & b & E2 & EA & LA & TA). rewrite EK in EA. cbn in EA. rewrite toks_from_app. cbn [toks_from]. rewrite TA, app_length. cbn.
          rewrite E in E2. assert (l1 = a) as ->; [|lia]. rewrite <- (firstn_length_app l1 (e :: mid)), E2, EA. apply firstn_length_app.
        * unfold slice. rewrite E, EK, app_length. cbn [snd length]. replace (length l1 + S (length mid) - S (length l1)) with (length mid) by lia.
          replace (l1 ++ e :: mid) with ((l1 ++ [e]) ++ mid) by (rewrite <- app_assoc; reflexivity). replace (S (length l1)) with (length (l1 ++ [e])) by (rewrite app_length; cbn; lia).
          rewrite skipn_length_app. symmetry. apply firstn_all.
  Qed.
  Lemma rel_gap_ok t off : inv t -> (cur t < Z.of_nat (length (toks t)))%Z -> toks t <> [] -> off <> 0%Z ->
    let p := (cur t + (if off <? 0 then off + 1 else off))%Z in (0 <= p <= Z.of_nat (length (toks t)))%Z ->
    exists mid b, gap t (Z.to_nat p) mid /\ rel_gap t off = Ok b /\ (b = true <-> exists e, In e mid /\ breaks_line e).
  Proof.
    intros I C NT NZ p P. destruct (gap_exists t (Z.to_nat p) I) as (mid & G & EM); [lia|]. pose proof (i_cur _ I) as CC.
    assert (MID : forall x, In x mid -> exists n, ek x = E_non n) by (destruct G as (? & ? & _ & M & _); exact M). destruct (lt_in_ok mid MID) as (b & LB & B). exists mid, b. split; [auto|]. split; [|exact B].
    unfold rel_gap. apply Z.ltb_lt in C. rewrite C. cbn [assert_ bind].
    assert (PN : exists x, py_nth (toks t) (cur t) = Ok x).
    { unfold py_nth. apply Z.ltb_lt in C. assert (length (toks t) <> 0) by (intros Q; apply NT; apply length_zero_iff_nil; exact Q).
      destruct (Z.ltb_spec (cur t) 0).
      - assert ((cur t + Z.of_nat (length (toks t)) <? 0)%Z = false) as -> by lia. destruct (nth_error (toks t) (Z.to_nat (cur t + Z.of_nat (length (toks t))))) eqn:N; [eauto|]. apply nth_error_None in N. lia.
      - assert ((cur t <? 0)%Z = false) as -> by lia. destruct (nth_error (toks t) (Z.to_nat (cur t))) eqn:N; [eauto|]. apply nth_error_None in N. lia. }
    destruct PN as [x ->]. cbn [bind].
    assert (PO : (if (off <? 0)%Z then Ok off else if (0 <? off)%Z then Ok (off - 1)%Z else Err AssertionError) = Ok (p - 1 - cur t)%Z).
    { subst p. destruct (Z.ltb_spec off 0); [f_equal; lia|]. assert ((0 <? off)%Z = true) as -> by lia. f_equal. lia. }
    rewrite PO. cbn [bind]. replace (cur t + (p - 1 - cur t))%Z with (p - 1)%Z by lia. replace (p - 1 + 1)%Z with p by lia.
    assert (((-1 <=? p - 1) && (p - 1 <? Z.of_nat (length (toks t))))%Z = true) as -> by lia. cbn [assert_ bind].
    assert (((0 <=? p) && (p <=? Z.of_nat (length (toks t))))%Z = true) as -> by lia. cbn [assert_ bind].
    rewrite <- LB, EM. clear EM LB B MID G PO. clearbody p. destruct (Z.to_nat p) as [|q] eqn:EP.
    - assert (p = 0%Z) as EP0 by lia. rewrite EP0. cbn [Z.leb Z.sub Z.compare Z.pos_sub Z.opp Z.add]. cbn [bind]. destruct (Z.ltb_spec 0 (Z.of_nat (length (toks t)))).
      + destruct (nth_error (toks t) 0) as [[e k]|] eqn:N; [|apply nth_error_None in N; lia]. assert (py_nth (toks t) 0 = Ok (e, k)) as -> by (apply py_nth_pos; [lia|exact N]). reflexivity.
      + destruct (toks t); [congruence|cbn in *; lia].
    - assert ((0 <=? p - 1)%Z = true) as -> by lia. destruct (nth_error (toks t) q) as [[e k]|] eqn:N; [|apply nth_error_None in N; lia].
      assert (py_nth (toks t) (p - 1) = Ok (e, k)) as -> by (apply py_nth_pos; [lia|]; replace (Z.to_nat (p - 1)) with q by lia; exact N). cbn [bind snd].
      destruct (Z.ltb_spec p (Z.of_nat (length (toks t)))).
      + destruct (nth_error (toks t) (S q)) as [[e' k']|] eqn:M; [|apply nth_error_None in M; lia]. assert (py_nth (toks t) p = Ok (e', k')) as -> by (apply py_nth_pos; [lia|]; rewrite EP; exact M). reflexivity.
      + assert (nth_error (toks t) (S q) = None) as -> by (apply nth_error_None; lia). reflexivity.
  Qed.
End Inv.
