(* Specification and lemmas for DecoratedFuncDict.py (C05). *)
From Verif Require Import M_Base L_Base M_FuncDict.

Section FD.
  Context {K F : Type} (keq : K -> K -> bool).
  Hypothesis keq_spec : forall a b, keq a b = true <-> a = b.

  (* Specification by history: the function of a key is the first one put;
     its count is the number of gets of it after that. *)
  Fixpoint first_put (h : list (op (K:=K) (F:=F))) (k : K) : option F :=
    match h with
    | [] => None
    | Put k' f :: h' => if keq k' k then Some f else first_put h' k
    | _ :: h' => first_put h' k
    end.
  Fixpoint gets_after_put (seen : bool) (h : list (op (K:=K) (F:=F))) (k : K) : nat :=
    match h with
    | [] => 0
    | Put k' f :: h' => gets_after_put (seen || keq k' k) h' k
    | Get k' :: h' => (if seen && keq k' k then 1 else 0) + gets_after_put seen h' k
    | Contains _ :: h' => gets_after_put seen h' k
    end.
  (* result of operation o after history h *)
  Definition expected (h : list (op (K:=K) (F:=F))) (o : op (K:=K) (F:=F)) : res (out (F:=F)) :=
    match o with
    | Put k f => match first_put h k with Some _ => Err AssertionError | None => Ok OUnit end
    | Contains k => Ok (OBool (match first_put h k with Some _ => true | None => false end))
    | Get k => match first_put h k with Some f => Ok (OFunc f) | None => Err KeyError end
    end.

  Lemma keq_refl a : keq a a = true.
  Proof. now apply keq_spec. Qed.

  Lemma dget_dset {V} (d : list (K * V)) k v k' :
    dget keq (dset keq d k v) k' = if keq k k' then Some v else dget keq d k'.
  Proof.
    induction d as [|[a w] d IH]; simpl.
    - destruct (keq k k'); reflexivity.
    - destruct (keq a k) eqn:E; simpl.
      + apply keq_spec in E. subst a. destruct (keq k k'); reflexivity.
      + destruct (keq a k') eqn:E2; [|exact IH].
        apply keq_spec in E2. subst a. destruct (keq k k') eqn:E3; [|reflexivity].
        apply keq_spec in E3. subst. rewrite keq_refl in E. discriminate.
  Qed.

  Definition has {V} (d : list (K * V)) k := match dget keq d k with Some _ => true | None => false end.

  Definition agree (s : fdict (K:=K) (F:=F)) (h : list op) : Prop :=
    forall k, dget keq (funcs s) k = first_put h k /\
      dget keq (counts s) k = match first_put h k with Some _ => Some (gets_after_put false h k) | None => None end.

  Lemma first_put_app h1 h2 k : first_put (h1 ++ h2) k =
    match first_put h1 k with Some f => Some f | None => first_put h2 k end.
  Proof. induction h1 as [|o h1 IH]; simpl; [reflexivity|]. destruct o; auto. destruct (keq k0 k); auto. Qed.

  Lemma gets_app h1 h2 k : forall seen, gets_after_put seen (h1 ++ h2) k =
    gets_after_put seen h1 k +
    gets_after_put (seen || match first_put h1 k with Some _ => true | None => false end) h2 k.
  Proof.
    induction h1 as [|o h1 IH]; intros seen; simpl; [now rewrite orb_false_r|].
    destruct o as [k' f|k'|k'].
    - rewrite IH. destruct (keq k' k); [|now rewrite orb_false_r].
      now rewrite orb_true_r.
    - apply IH.
    - rewrite IH. lia.
  Qed.

  Lemma step_agree s h o : agree s h ->
    agree (fst (step keq s o)) (h ++ [o]) /\ snd (step keq s o) = expected h o.
  Proof.
    intros HA. unfold step, expected. destruct o as [k f|k|k].
    - destruct (HA k) as [Hf Hc]. rewrite Hf. destruct (first_put h k) as [g|] eqn:E; simpl; (split; [|reflexivity]).
      + intros k'. destruct (HA k') as [Hf' Hc']. rewrite first_put_app, gets_app, Hf', Hc'. simpl.
        destruct (first_put h k') as [g'|] eqn:E'; [split; [reflexivity|f_equal; lia]|].
        destruct (keq k k') eqn:Ek; [apply keq_spec in Ek; subst; congruence|auto].
      + intros k'. destruct (HA k') as [Hf' Hc']. rewrite first_put_app, gets_app. cbn [funcs counts].
        rewrite !dget_dset. rewrite Hf', Hc'. simpl.
        destruct (keq k k') eqn:Ek.
        * apply keq_spec in Ek; subst k'. rewrite E. split; [reflexivity|].
          f_equal. rewrite Nat.add_0_r.
          clear -E keq_spec. enough (gets_after_put false h k = 0) as -> by lia.
          induction h as [|o h IH]; [reflexivity|]. simpl in *. destruct o as [k' f|k'|k']; auto.
          destruct (keq k' k); [discriminate|]. apply IH; exact E.
        * destruct (first_put h k'); split; auto; f_equal; lia.
    - split; [|destruct (HA k) as [-> _]; reflexivity].
      intros k'. destruct (HA k') as [Hf' Hc']. rewrite first_put_app, gets_app. simpl.
      rewrite Hf', Hc'. destruct (first_put h k'); split; auto; f_equal; lia.
    - destruct (HA k) as [Hf Hc]. rewrite Hf. destruct (first_put h k) as [g|] eqn:E.
      + rewrite Hc. simpl. split; [|reflexivity].
        intros k'. destruct (HA k') as [Hf' Hc']. rewrite first_put_app, gets_app. cbn [funcs counts].
        rewrite dget_dset. rewrite Hf', Hc'. simpl.
        destruct (keq k k') eqn:Ek.
        * apply keq_spec in Ek; subst k'. rewrite E. simpl. split; [reflexivity|]. f_equal; lia.
        * rewrite andb_false_r. destruct (first_put h k'); split; auto; f_equal; lia.
      + simpl. split; [|reflexivity].
        intros k'. destruct (HA k') as [Hf' Hc']. rewrite first_put_app, gets_app. simpl.
        rewrite Hf', Hc'. destruct (first_put h k') eqn:E'; simpl; split; auto.
        destruct (keq k k') eqn:Ek; [apply keq_spec in Ek; subst; congruence|]. f_equal; lia.
  Qed.

  Lemma run_agree : forall h2 s h1, agree s h1 ->
    agree (fst (run keq s h2)) (h1 ++ h2) /\
    forall i o, nth_error h2 i = Some o -> nth_error (snd (run keq s h2)) i = Some (expected (h1 ++ firstn i h2) o).
  Proof.
    induction h2 as [|o h2 IH]; intros s h1 HA.
    - simpl. rewrite app_nil_r. split; [exact HA|]. intros [|i] o; discriminate.
    - cbn [run]. destruct (step_agree s h1 o HA) as [H1 H2].
      destruct (step keq s o) as [s1 r] eqn:E. cbn [fst snd] in *.
      destruct (IH s1 (h1 ++ [o]) H1) as [H3 H4].
      destruct (run keq s1 h2) as [s2 rs] eqn:E2. cbn [fst snd] in *.
      rewrite <- app_assoc in H3. split; [exact H3|].
      intros [|i] o' Hi; simpl in Hi.
      + inversion Hi; subst. simpl. now rewrite app_nil_r.
      + simpl. rewrite (H4 i o' Hi). do 2 f_equal. now rewrite <- app_assoc.
  Qed.

  Lemma funcdict_history h :
    let '(s, rs) := run keq fd_init h in
    length rs = length h /\
    (forall i o, nth_error h i = Some o -> nth_error rs i = Some (expected (firstn i h) o)) /\
    (forall k, dget keq (access_counts s) k =
       match first_put h k with Some _ => Some (gets_after_put false h k) | None => None end).
  Proof.
    destruct (run_agree h fd_init []) as [H1 H2]; [intros k; split; reflexivity|].
    destruct (run keq fd_init h) as [s rs] eqn:E. cbn [fst snd app] in *.
    split; [|split; [exact H2|intros k; apply H1]].
    clear -E. revert E. generalize (@fd_init K F) as s0. revert s rs.
    induction h as [|o h IH]; intros s rs s0 E; simpl in E; [inversion E; reflexivity|].
    destruct (step keq s0 o). destruct (run keq f h) eqn:E2. inversion E; subst. simpl. f_equal. eauto.
  Qed.

  (* a failed call changes nothing *)
  Lemma funcdict_fail_noop (s : fdict (K:=K) (F:=F)) o e : snd (step keq s o) = Err e -> fst (step keq s o) = s.
  Proof.
    unfold step. destruct o; simpl; try discriminate.
    - destruct (dget keq (funcs s) k); simpl; [reflexivity|discriminate].
    - destruct (dget keq (funcs s) k); simpl; [|reflexivity].
      destruct (dget keq (counts s) k); simpl; [discriminate|reflexivity].
  Qed.
End FD.
