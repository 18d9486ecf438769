(* Return as a jump: a semantics without the return flag, and its agreement with M_Exec. *)
From Verif Require Import M_Base L_Base M_Dict L_Dict M_Exec L_Exec L_ExecStack.

(* m' does what m does, unless m runs out of fuel *)
Definition lem {A} (m m' : M A) : Prop := forall s s' o, m s = (s', o) -> o <> Exc (Py OutOfFuel) -> m' s = (s', o).
Lemma lem_refl {A} (m : M A) : lem m m.
Proof. intros s s' o H _. exact H. Qed.
Lemma lem_bind {A B} (m m' : M A) (k k' : A -> M B) : lem m m' -> (forall a, lem (k a) (k' a)) -> lem (bindM m k) (bindM m' k').
Proof.
  intros Hm Hk s s' o. unfold bindM. destruct (m s) as [s1 [a|e]] eqn:E.
  - intros H Ho. rewrite (Hm _ _ _ E) by discriminate. now apply Hk.
  - intros [= <- <-] Ho. rewrite (Hm _ _ _ E); [reflexivity|]. intros [= ->]. now apply Ho.
Qed.
Lemma lem_try {A} (m m' h h' : M A) : lem m m' -> lem h h' -> lem (try_ m h) (try_ m' h').
Proof.
  intros Hm Hh s s' o. unfold try_. destruct (m s) as [s1 [a|[|e]]] eqn:E.
  - intros [= <- <-] Ho. now rewrite (Hm _ _ _ E) by discriminate.
  - intros H Ho. rewrite (Hm _ _ _ E) by discriminate. now apply Hh.
  - intros [= <- <-] Ho. now rewrite (Hm _ _ _ E).
Qed.
Lemma nothing_bind {A B} (m : M A) (k : A -> M B) s s' : bindM m k s = (s', Exc NoThing) -> m s = (s', Exc NoThing) \/ exists s1 a, m s = (s1, Val a) /\ k a s1 = (s', Exc NoThing).
Proof. unfold bindM. destruct (m s) as [s1 [a|e]]; [eauto|]. intros [= <- ->]. auto. Qed.
Lemma bindM_exc {A B} (m : M A) (k : A -> M B) s s' e : m s = (s', Exc e) -> bindM m k s = (s', Exc e).
Proof. unfold bindM. now intros ->. Qed.
Lemma try_nothing {A} (m h : M A) s s' : m s = (s', Exc NoThing) -> try_ m h s = h s'.
Proof. unfold try_. now intros ->. Qed.
Lemma try_val {A} (m h : M A) s s' a : m s = (s', Val a) -> try_ m h s = (s', Val a).
Proof. unfold try_. now intros ->. Qed.
Lemma lift_ok {A} (r : res A) s a : r = Ok a -> lift r s = (s, Val a).
Proof. now intros ->. Qed.
Lemma ex_eq {B} (m : M rv) (k : val -> M B) s s1 v : m s = (s1, Val (RVal v)) -> bindM (bindM m (fun r => as_val r)) k s = k v s1.
Proof. unfold bindM. now intros ->. Qed.
Lemma cd_eq {B} (m : M rv) (k : bool -> M B) s s1 v : m s = (s1, Val (RBool v)) -> bindM (bindM m (fun r => as_bool r)) k s = k v s1.
Proof. unfold bindM. now intros ->. Qed.
Lemma cm_eq {B} (m : M rv) (k : unit -> M B) s s1 : m s = (s1, Val RNone) -> bindM (bindM m (fun r => as_none r)) k s = k tt s1.
Proof. unfold bindM. now intros ->. Qed.
Lemma nothing_lift {A} (r : res A) s s' : lift r s <> (s', Exc NoThing).
Proof. unfold lift. destruct r; discriminate. Qed.

(* the frame on top is not returning *)
Definition quiet (s : st) : Prop := match stack s with f :: _ => f_ret f = None | [] => False end.
Definition with_contours (cs : list contour) (s : st) : st :=
  match stack s with f :: r => mkSt (mkFrame (fid f) (f_focus f) cs (f_ret f) :: r) (heap s) (errs s) (next s) | [] => s end.
Definition top_contours (s : st) : list contour := match stack s with f :: _ => contours f | [] => [] end.
Definition with_ret (o : option val) (s : st) : st :=
  match o, stack s with
  | Some v, f :: r => mkSt (mkFrame (fid f) (f_focus f) (contours f) (Some v) :: r) (heap s) (errs s) (next s)
  | _, _ => s
  end.

Section Exec.
  Variable prim : nat -> list (list val) -> list val -> res val.
  Variable test : nat -> list (list val) -> list val -> res bool.
  Variable resolve : nat -> option val -> res val.
  Variable covered : nat -> val -> option val.
  Variable algs : nat -> option alg.
  Variable dispatch : nat -> option val -> res ((nat * option val) + val).
  Notation run := (run prim test resolve covered algs dispatch).

  Ltac lems := repeat (first [progress auto using lem_refl | apply lem_bind; [|intros ?] | match goal with |- lem (match ?x with _ => _ end) (match ?x with _ => _ end) => destruct x end]).
  Notation step := (step prim test resolve covered algs dispatch).
  Lemma step_lem (g h : task -> M rv) : (forall t, lem (g t) (h t)) -> forall t, lem (step g t) (step h t).
  Proof.
    intros IH t.
    assert (IHe : forall e, lem (run! r <- g (TExpr e) ;; as_val r) (run! r <- h (TExpr e) ;; as_val r)) by (intros e; apply lem_bind; [apply IH|intros; apply lem_refl]).
    assert (IHes : forall e, lem (run! r <- g (TExprs e) ;; as_vals r) (run! r <- h (TExprs e) ;; as_vals r)) by (intros e; apply lem_bind; [apply IH|intros; apply lem_refl]).
    assert (IHc : forall e, lem (run! r <- g (TCond e) ;; as_bool r) (run! r <- h (TCond e) ;; as_bool r)) by (intros e; apply lem_bind; [apply IH|intros; apply lem_refl]).
    assert (IHm : forall e, lem (run! r <- g (TCmd e) ;; as_none r) (run! r <- h (TCmd e) ;; as_none r)) by (intros e; apply lem_bind; [apply IH|intros; apply lem_refl]).
    destruct t; cbn [M_Exec.step].
    - apply lem_bind; [apply lem_refl|intros _]. destruct e; lems.
    - destruct es; lems.
    - apply lem_bind; [apply lem_refl|intros _]. destruct c; lems.
    - destruct cs; lems.
    - destruct cs; lems.
    - apply lem_bind; [apply lem_refl|intros _]. destruct c; lems.
    - lems.
    - apply lem_bind; [apply lem_refl|intros _]. destruct r; lems.
    - destruct rs; [apply lem_refl|]. apply lem_bind; [apply lem_try; lems|]. intros _. lems.
    - lems.
    - destruct (algs a) as [al|]; [|apply lem_refl]. apply lem_bind; [apply lem_refl|]. intros cs. apply lem_bind; [apply lem_refl|]. intros i. apply lem_bind; [|intros; apply lem_refl]. destruct (a_body al); [apply IH| |lems]. apply lem_try; [|apply lem_refl]. lems.
    - destruct rules; lems.
  Qed.
  Lemma run_mono1 n : forall t, lem (run n t) (run (S n) t).
  Proof.
    induction n as [|n IH]; intros t; [intros s s' o [= <- <-] H; now destruct H|]. exact (step_lem _ _ IH t).
  Qed.
  Lemma run_mono n m t : n <= m -> lem (run n t) (run m t).
  Proof.
    induction 1 as [|m _ IH]; [apply lem_refl|]. intros s s' o H Ho. apply run_mono1; [|exact Ho]. now apply IH.
  Qed.

  (* a reference to a nonexistent thing escapes only from an algorithm that is a single expression *)
  Lemma rules_catch own rs : forall n s s', run n (TRules own rs) s <> (s', Exc NoThing).
  Proof.
    induction rs as [|r rs IH]; intros [|n] s s'; cbn [M_Exec.run step]; try discriminate. intros H.
    apply nothing_bind in H as [H|(s1 & u & _ & H)].
    - unfold try_ in H. match type of H with (let (_, _) := ?m in _) = _ => destruct m as [s1 [a|[|e]]] end; discriminate.
    - apply nothing_bind in H as [H|(s2 & f & _ & H)]; [unfold own_frame in H; destruct (find _ _); discriminate|]. apply nothing_bind in H as [H|(s3 & u' & _ & H)]; [now apply nothing_lift in H|]. now apply IH in H.
  Qed.
  Lemma pop_nothing i s s' : pop_frame i s <> (s', Exc NoThing).
  Proof. unfold pop_frame. destruct (stack s) as [|f r]; [discriminate|]. destruct (fid f =? i); discriminate. Qed.
  Lemma call_nothing n a fo args s s' : run n (TCall a fo args) s = (s', Exc NoThing) ->
    exists al e, algs a = Some al /\ a_body al = BExpr e /\ exists stale, stale <> [] /\ stack s' = stale ++ stack s.
  Proof.
    destruct n as [|n]; [discriminate|]. cbn [M_Exec.run M_Exec.step]. destruct (algs a) as [al|] eqn:Ea; [|discriminate]. intros H. exists al.
    apply nothing_bind in H as [H|(s1 & cs & Hc & H)]; [now apply nothing_lift in H|]. unfold lift in Hc. destruct (init_contours _ _) as [l|]; [|discriminate]. injection Hc as <- <-.
    apply nothing_bind in H as [H|(s1 & i & Hi & H)]; [discriminate|]. unfold push_frame in Hi. injection Hi as <- <-.
    apply nothing_bind in H as [H|(s2 & r & Hr & H)].
    - destruct (a_body al) as [rs|c|e].
      + now apply rules_catch in H.
      + exfalso. unfold try_ in H. match type of H with (let (_, _) := ?m in _) = _ => destruct m as [s2 [v|[|x]]] end; try discriminate. destruct (a_name al); discriminate.
      + exists e. split; [reflexivity|]. split; [reflexivity|].
        assert (Q : sufx (mkSt (mkFrame (next s) fo l None :: stack s) (heap s) (errs s) (S (next s))) s').
        { eapply (safe_bind _ _ (safe_bind _ _ (proj1 (run_safe _ _ _ _ _ _ n (TExpr e))) safe_as_val) (fun v => safe_ret (RVal v))). exact H. }
        destruct Q as [_ (stale & f' & E & _)]. exists (stale ++ [f']). split; [destruct stale; discriminate|]. now rewrite <- app_assoc.
    - exfalso. apply nothing_bind in H as [H|(s3 & u & _ & H)]; [now apply pop_nothing in H|discriminate].
  Qed.
  (* frames left behind make the next pop fail *)
  Lemma pop_stale i s s1 : next s1 = S i -> sufx s1 s -> (exists f r, stack s1 = f :: r /\ fid f = i /\ length (stack s) <> S (length r)) -> exists s', pop_frame i s = (s', Exc (Py AssertionError)).
  Proof.
    intros N [_ Q] (f & r & E & Ei & L). rewrite E in Q. destruct Q as (stale & f' & E' & Ef & F). unfold pop_frame. rewrite E' in *. destruct stale as [|g stale]; [cbn in L; lia|]. cbn. inversion F as [|? ? Q1 _]; subst. destruct (Nat.eqb_spec (fid g) (fid f)); [lia|]. eauto.
  Qed.
  Lemma steps_crash n a al c fo args cs s s2 :
    algs a = Some al -> a_body al = BSteps c -> a_name al <> OtherAlg -> init_contours (a_params al) args = Ok cs ->
    run n (TCmd c) (mkSt (mkFrame (next s) fo cs None :: stack s) (heap s) (errs s) (S (next s))) = (s2, Exc NoThing) ->
    length (stack s2) <> S (length (stack s)) ->
    exists s', run (S n) (TCall a fo args) s = (s', Exc (Py AssertionError)).
  Proof.
    intros Ea Eb En Ei Er L. cbn [M_Exec.run M_Exec.step]. rewrite Ea, Eb. rewrite (bindM_eq _ _ _ _ _ (lift_ok _ s _ Ei)). rewrite (bindM_eq _ _ _ _ _ (eq_refl : push_frame fo cs s = _)). set (s1 := mkSt _ _ _ _) in *. unfold bindM at 1. rewrite (try_nothing _ _ s1 s2) by apply (bindM_exc _ _ _ _ _ (bindM_exc _ _ _ _ _ Er)).
    assert (Q : sufx s1 s2) by (eapply (proj1 (run_safe _ _ _ _ _ _ n (TCmd c))); exact Er).
    assert (P : exists s', pop_frame (next s) s2 = (s', Exc (Py AssertionError))).
    { apply (pop_stale (next s) s2 s1); [reflexivity|exact Q|]. eexists _, _. split; [reflexivity|]. auto. }
    destruct P as (s' & P).
    destruct (a_name al); [| |now destruct En]; cbn [ret bindM new_list].
    - unfold bindM. rewrite P. eauto.
    - unfold bindM. pose proof P as P'. unfold pop_frame in P' |- *. cbn [stack]. destruct (stack s2); [discriminate|]. destruct (fid f =? next s); [discriminate|]. eauto.
  Qed.
  Lemma steps_keyerror n a al c fo args cs s s2 :
    algs a = Some al -> a_body al = BSteps c -> a_name al = OtherAlg -> init_contours (a_params al) args = Ok cs ->
    run n (TCmd c) (mkSt (mkFrame (next s) fo cs None :: stack s) (heap s) (errs s) (S (next s))) = (s2, Exc NoThing) ->
    run (S n) (TCall a fo args) s = (s2, Exc (Py KeyError)).
  Proof.
    intros Ea Eb En Ei Er. cbn [M_Exec.run M_Exec.step]. rewrite Ea, Eb, En. rewrite (bindM_eq _ _ _ _ _ (lift_ok _ s _ Ei)). rewrite (bindM_eq _ _ _ _ _ (eq_refl : push_frame fo cs s = _)). apply bindM_exc. rewrite (try_nothing _ _ _ s2) by apply (bindM_exc _ _ _ _ _ (bindM_exc _ _ _ _ _ Er)). reflexivity.
  Qed.
  Lemma rules_crash n a al r rs fo args cs s s2 :
    algs a = Some al -> a_body al = BRules (r :: rs) -> init_contours (a_params al) args = Ok cs ->
    run n (TRule r) (mkSt (mkFrame (next s) fo cs None :: stack s) (heap s) (errs s) (S (next s))) = (s2, Exc NoThing) ->
    length (stack s2) <> S (length (stack s)) ->
    forall s' v, run (S (S n)) (TCall a fo args) s <> (s', Val v).
  Proof.
    intros Ea Eb Ei Er L s' v H. remember (S n) as m eqn:Em. cbn [M_Exec.run M_Exec.step] in H. rewrite Ea, Eb in H. rewrite (bindM_eq _ _ _ _ _ (lift_ok _ s _ Ei)) in H. rewrite (bindM_eq _ _ _ _ _ (eq_refl : push_frame fo cs s = _)) in H. set (s1 := mkSt _ _ _ _) in *.
    apply bindM_val in H as (s3 & w & H & Hp). apply bindM_val in Hp as (s4 & u & Hp & _). rewrite Em in H. cbn [M_Exec.run M_Exec.step] in H.
    assert (Q : sufx s1 s2) by (eapply (proj1 (run_safe _ _ _ _ _ _ n (TRule r))); exact Er).
    assert (Q2 : sufx s2 s3).
    { unfold bindM at 1 in H. rewrite (try_nothing _ _ s1 s2 (bindM_exc _ _ _ _ _ Er)) in H. cbn [ret] in H. revert H. match goal with |- ?k s2 = _ -> _ => assert (S : safe k) end.
      { apply safe_bind; [auto with safe|]. intros f. apply safe_bind; [auto with safe|]. intros _. apply run_safe. }
      apply S. }
    assert (L3 : length (stack s3) <> S (length (stack s))).
    { destruct Q as [_ Q], Q2 as [_ Q2]. cbn in Q. destruct Q as (st & f' & E & _). rewrite E in L, Q2. destruct st as [|g st]; [cbn in L; lia|]. cbn in Q2. destruct Q2 as (st2 & g' & E2 & _). rewrite E2, !app_length. cbn. rewrite app_length. cbn. lia. }
    destruct (pop_stale (next s) s3 s1) as (s5 & P); [reflexivity|eapply sufx_trans; eassumption| |congruence]. eexists _, _. split; [reflexivity|]. auto.
  Qed.

  (* ---- return as a jump ---- *)
  Definition evals (e : expr) (s s' : st) (v : val) : Prop := exists n, run n (TExpr e) s = (s', Val (RVal v)).
  Definition holds (c : cond) (s s' : st) (b : bool) : Prop := exists n, run n (TCond c) s = (s', Val (RBool b)).
  (* None: the step was completed; Some v: it returned v *)
  Inductive big : cmd -> st -> st -> option val -> Prop :=
  | b_let x e s s1 v cs : evals e s s1 v -> let_var (top_contours s1) x v = Ok cs -> big (CLet x e) s (with_contours cs s1) None
  | b_set x e s s1 v cs : evals e s s1 v -> set_var (top_contours s1) x v = Ok cs -> big (CSet x e) s (with_contours cs s1) None
  | b_return e s s1 v : evals e s s1 v -> big (CReturn e) s s1 (Some v)
  | b_seq a b s s1 s2 o : big a s s1 None -> big b s1 s2 o -> big (CSeq a b) s s2 o
  | b_seq_return a b s s1 v : big a s s1 (Some v) -> big (CSeq a b) s s1 (Some v)
  | b_then c a b s s1 s2 o : holds c s s1 true -> big a s1 s2 o -> big (CIf c a b) s s2 o
  | b_else c a b s s1 s2 o : holds c s s1 false -> big b s1 s2 o -> big (CIf c a b) s s2 o
  | b_nop s : big CNop s s None
  | b_for x e b s s1 s2 l o : evals e s s1 (VList l) -> each x l 0 b s1 s2 o -> big (CFor x e b) s s2 o
  | b_assert c s s1 : holds c s s1 true -> big (CAssert c) s s1 None
  | b_append e le s s1 s2 v l vs : evals e s s1 v -> evals le s1 s2 (VList l) -> nth_error (heap s2) l = Some vs ->
      big (CAppend e le) s (mkSt (stack s2) (set_nth (heap s2) l (vs ++ [v])) (errs s2) (next s2)) None
  with each : nat -> nat -> nat -> cmd -> st -> st -> option val -> Prop :=
  | e_end x l i b s vs : nth_error (heap s) l = Some vs -> nth_error vs i = None -> each x l i b s s None
  | e_step x l i b s vs v cs s1 s2 o : nth_error (heap s) l = Some vs -> nth_error vs i = Some v -> let_var ([] :: top_contours s) x v = Ok cs ->
      big b (with_contours cs s) s1 None -> each x l (S i) b (with_contours (tl (top_contours s1)) s1) s2 o -> each x l i b s s2 o
  | e_return x l i b s vs v cs s1 w : nth_error (heap s) l = Some vs -> nth_error vs i = Some v -> let_var ([] :: top_contours s) x v = Ok cs ->
      big b (with_contours cs s) s1 (Some w) -> each x l i b s (with_contours (tl (top_contours s1)) s1) (Some w).
  Scheme big_mut := Induction for big Sort Prop with each_mut := Induction for each Sort Prop.
  Combined Scheme big_each from big_mut, each_mut.

  Lemma quiet_same s s' : stack s' = stack s -> quiet s -> quiet s'.
  Proof. unfold quiet. now intros ->. Qed.
  Lemma quiet_contours cs s : quiet (with_contours cs s) <-> quiet s.
  Proof. unfold quiet, with_contours. destruct (stack s) as [|f r] eqn:E; [now rewrite E|]. reflexivity. Qed.
  Lemma expr_same n e s s' v : run n (TExpr e) s = (s', Val v) -> stack s' = stack s.
  Proof. intros H. apply run_good in H. apply H. Qed.
  Lemma cond_same n e s s' v : run n (TCond e) s = (s', Val v) -> stack s' = stack s.
  Proof. intros H. apply run_good in H. apply H. Qed.
  Lemma guard_quiet s s' u : guard s = (s', Val u) -> s' = s /\ quiet s.
  Proof. intros H. apply guard_val in H as [-> (f & r & E & Q)]. split; [reflexivity|]. unfold quiet. now rewrite E. Qed.
  Lemma on_contours_with g s s' u : on_contours g s = (s', Val u) -> exists cs, g (top_contours s) = Ok cs /\ s' = with_contours cs s /\ stack s <> [].
  Proof. intros H. apply on_contours_val in H as (f & r & cs & E & G & ->). exists cs. unfold top_contours, with_contours. rewrite E. repeat split; auto. discriminate. Qed.
  Lemma with_contours_twice a b s : with_contours a (with_contours b s) = with_contours a s.
  Proof. unfold with_contours. destruct (stack s) as [|f r] eqn:E; [now rewrite E|]. reflexivity. Qed.
  Lemma top_contours_with cs s : stack s <> [] -> top_contours (with_contours cs s) = cs.
  Proof. unfold top_contours, with_contours. destruct (stack s); [easy|reflexivity]. Qed.
  Lemma with_ret_contours o cs s : with_contours cs (with_ret o s) = with_ret o (with_contours cs s).
  Proof. unfold with_contours, with_ret. destruct o; [|reflexivity]. destruct (stack s) eqn:E; [now rewrite E|]. reflexivity. Qed.
  Lemma top_contours_ret o s : top_contours (with_ret o s) = top_contours s.
  Proof. unfold top_contours, with_ret. destruct o; [|reflexivity]. destruct (stack s) eqn:E; [now rewrite E|]. reflexivity. Qed.
  Lemma quiet_stack s : quiet s -> stack s <> [].
  Proof. unfold quiet. now destruct (stack s). Qed.
  (* is the frame on top returning? *)
  Lemma curr_returning o s s' f : quiet s -> curr_frame (with_ret o s) = (s', Val f) -> s' = with_ret o s /\ is_returning f = match o with Some _ => true | None => false end.
  Proof.
    intros Q H. apply curr_val in H as [-> (r & E)]. split; [reflexivity|]. unfold with_ret in E. unfold quiet in Q. destruct (stack s) as [|g t] eqn:Es; [easy|]. destruct o as [v|]; cbn in E.
    - injection E as <- _. reflexivity.
    - rewrite Es in E. injection E as <- _. unfold is_returning. now rewrite Q.
  Qed.
  Ltac inv1 H :=
    lazymatch type of H with
    | bindM _ _ _ = (_, Val _) => let s := fresh "s" in let a := fresh "a" in let H1 := fresh "H" in apply bindM_val in H as (s & a & H1 & H); inv1 H1; inv1 H
    | guard _ = _ => apply guard_quiet in H as [-> H]
    | lift _ _ = _ => apply lift_val in H as [-> H]
    | assertM _ _ = _ => apply assertM_val in H as [-> H]
    | ret _ _ = _ => apply ret_val in H as [-> H]
    | raise _ _ = _ => discriminate H
    | get _ = _ => apply get_val in H as [-> H]
    | elements _ _ = _ => apply elements_val in H as [-> H]
    | list_at _ _ = _ => apply list_at_val in H as [-> H]
    | as_val _ _ = _ => apply as_val_val in H as [-> H]
    | as_bool _ _ = _ => apply as_bool_val in H as [-> H]
    | as_none _ _ = _ => apply as_none_val in H as [-> H]
    | _ => idtac
    end.
  Definition agree (s' s1 : st) (o : option val) (v : rv) : Prop := s' = with_ret o s1 /\ quiet s1 /\ v = RNone.
  Lemma big_sound n : (forall c s s' v, run n (TCmd c) s = (s', Val v) -> exists s1 o, big c s s1 o /\ agree s' s1 o v) /\
    (forall x l i b s s' v, run n (TLoop x l i b) s = (s', Val v) -> quiet s -> exists s1 o, each x l i b s s1 o /\ agree s' s1 o v).
  Proof.
    induction n as [|n [IHc IHl]]; [split; discriminate|]. split.
    - intros c s s' v H. cbn [M_Exec.run M_Exec.step] in H. apply bindM_val in H as (s0 & u & Hg & H). apply guard_quiet in Hg as [-> Q].
      assert (KE : forall e s1 v1, run n (TExpr e) s = (s1, Val (RVal v1)) -> evals e s s1 v1 /\ quiet s1) by (intros e s1 v1 K; split; [now exists n|]; eapply quiet_same; [eapply expr_same; exact K|exact Q]).
      assert (KC : forall e s1 v1, run n (TCond e) s = (s1, Val (RBool v1)) -> holds e s s1 v1 /\ quiet s1) by (intros e s1 v1 K; split; [now exists n|]; eapply quiet_same; [eapply cond_same; exact K|exact Q]).
      destruct c; inv1 H.
      + subst. match goal with H : run n _ _ = _ |- _ => apply KE in H as [H0 Q1] end. match goal with H : on_contours _ _ = _ |- _ => apply on_contours_with in H as (cs & G & -> & _) end.
        eexists _, None. split; [eapply b_let; eassumption|]. split; [reflexivity|]. split; [now apply quiet_contours|reflexivity].
      + subst. match goal with H : run n _ _ = _ |- _ => apply KE in H as [H0 Q1] end. match goal with H : on_contours _ _ = _ |- _ => apply on_contours_with in H as (cs & G & -> & _) end.
        eexists _, None. split; [eapply b_set; eassumption|]. split; [reflexivity|]. split; [now apply quiet_contours|reflexivity].
      + subst. match goal with H : run n _ _ = _ |- _ => apply KE in H as [H0 Q1] end. match goal with H : start_returning _ _ = _ |- _ => apply start_returning_val in H as (f & r & E & _ & ->) end.
        eexists _, (Some _). split; [apply b_return; eassumption|]. split; [|auto]. unfold with_ret. now rewrite E.
      + match goal with H : run n _ _ = _ |- _ => apply IHc in H as (s2 & o & B & -> & Q2 & _) end. match goal with H : curr_frame _ = _ |- _ => apply curr_returning in H as [-> R]; [|exact Q2] end. rewrite R in H. destruct o as [w|]; inv1 H.
        * exists s2, (Some w). split; [now apply b_seq_return|]. split; auto.
        * subst. match goal with H : run n _ _ = _ |- _ => apply IHc in H as (s3 & o & B' & -> & Q3 & _) end. exists s3, o. split; [eapply b_seq; eassumption|]. split; auto.
      + subst. match goal with H : run n (TCond _) _ = _ |- _ => apply KC in H as [Hc Q1] end. match goal with H : run n (TCmd _) _ = _ |- _ => apply IHc in H as (s3 & o & B' & -> & Q3 & _) end. exists s3, o. split; [|split; auto].
        match goal with b : bool |- _ => destruct b end; [eapply b_then; eassumption|eapply b_else; eassumption].
      + exists s, None. split; [constructor|]. split; auto.
      + subst. match goal with H : run n (TExpr _) _ = _ |- _ => apply KE in H as [He Q1] end. apply IHl in H as (s3 & o & B' & A); [|exact Q1]. exists s3, o. split; [eapply b_for; eassumption|exact A].
      + subst. match goal with H : run n (TCond _) _ = _ |- _ => apply KC in H as [Hc Q1] end. eexists _, None. split; [apply b_assert; eassumption|]. split; auto.
      + subst. match goal with H : run n (TExpr _) s = _ |- _ => apply KE in H as [He Q1] end. match goal with H : run n (TExpr _) _ = _ |- _ => pose proof (expr_same _ _ _ _ _ H) as ES; assert (He2 := ex_intro (fun n => run n _ _ = _) n H) end.
        match goal with H : append_one _ _ _ = _ |- _ => unfold append_one in H; apply bindM_val in H as (s9 & vs & HH & [= <-]); apply elements_val in HH as [-> HH] end.
        eexists _, None. split; [eapply b_append; [exact He|exact He2|exact HH]|]. split; [reflexivity|]. split; [|reflexivity]. unfold quiet in *. cbn. now rewrite ES.
    - intros x l i b s s' v H Q. cbn [M_Exec.run M_Exec.step] in H. apply bindM_val in H as (s0 & vs & Hg & H). apply elements_val in Hg as [-> Hg]. destruct (nth_error vs i) as [w|] eqn:Ei; inv1 H.
      + match goal with H : on_contours (fun cs => Ok (start_contour cs)) _ = _ |- _ => apply on_contours_with in H as (cs & [= <-] & -> & NE) end.
        match goal with H : on_contours (fun cs => let_var cs _ _) _ = _ |- _ => apply on_contours_with in H as (cs & G & -> & _) end. rewrite top_contours_with in G by exact NE. rewrite with_contours_twice in *.
        match goal with H : run n (TCmd _) _ = _ |- _ => apply IHc in H as (sB & o & B & -> & Q2 & _) end.
        match goal with H : on_contours end_contour _ = _ |- _ => apply on_contours_with in H as (cs2 & G2 & -> & _) end. rewrite top_contours_ret in G2. rewrite with_ret_contours in *.
        assert (E2 : cs2 = tl (top_contours sB)) by (destruct (top_contours sB); [discriminate|now injection G2 as <-]). subst cs2.
        match goal with H : curr_frame _ = _ |- _ => apply curr_returning in H as [-> R]; [|now apply quiet_contours] end. rewrite R in H. destruct o as [u|]; inv1 H.
        * eexists _, (Some u). split; [eapply e_return; eassumption|]. split; [reflexivity|]. split; [now apply quiet_contours|assumption].
        * apply IHl in H as (sC & o & B' & A); [|now apply quiet_contours]. exists sC, o. split; [eapply e_step; eassumption|exact A].
      + exists s, None. split; [eapply e_end; eassumption|]. split; auto.
  Qed.
  Lemma with_ret_none s : with_ret None s = s.
  Proof. reflexivity. Qed.
  Lemma guard_ok s : quiet s -> guard s = (s, Val tt).
  Proof. unfold quiet, guard, bindM, curr_frame. destruct (stack s) as [|f r]; [easy|]. intros Q. unfold is_returning. now rewrite Q. Qed.
  Lemma on_contours_ok g s cs : stack s <> [] -> g (top_contours s) = Ok cs -> on_contours g s = (with_contours cs s, Val tt).
  Proof. unfold on_contours, bindM, curr_frame, top_contours, with_contours, put_frame. destruct (stack s) as [|f r] eqn:E; [easy|]. intros _ G. unfold lift. rewrite G, E. reflexivity. Qed.
  Lemma evals_quiet e s s' v : evals e s s' v -> quiet s -> quiet s'.
  Proof. intros (n & H). apply quiet_same. eapply expr_same; exact H. Qed.
  Lemma holds_quiet e s s' v : holds e s s' v -> quiet s -> quiet s'.
  Proof. intros (n & H). apply quiet_same. eapply cond_same; exact H. Qed.
  Lemma curr_ret o s : quiet s -> exists f, curr_frame (with_ret o s) = (with_ret o s, Val f) /\ is_returning f = match o with Some _ => true | None => false end.
  Proof.
    unfold quiet, curr_frame, with_ret. destruct (stack s) as [|f r] eqn:E; [easy|]. intros Q. destruct o; cbn [stack]; [|rewrite E]; eexists; (split; [reflexivity|]); unfold is_returning; cbn; [reflexivity|now rewrite Q].
  Qed.
  Lemma up n m t s s' v : n <= m -> run n t s = (s', Val v) -> run m t s = (s', Val v).
  Proof. intros L H. apply (run_mono n m t L); [exact H|discriminate]. Qed.
  Lemma end_ok s2 o : quiet s2 -> top_contours s2 <> [] -> on_contours end_contour (with_ret o s2) = (with_ret o (with_contours (tl (top_contours s2)) s2), Val tt).
  Proof.
    intros Q N. rewrite <- with_ret_contours. apply on_contours_ok; [unfold with_ret; destruct o; [|now apply quiet_stack]; destruct (stack s2) eqn:E; [apply quiet_stack in Q; congruence|discriminate]|]. rewrite top_contours_ret. now destruct (top_contours s2).
  Qed.
  Lemma big_depth : (forall c s s1 o, big c s s1 o -> quiet s -> quiet s1 /\ cmdr s s1) /\ (forall x l i b s s1 o, each x l i b s s1 o -> quiet s -> quiet s1 /\ cmdr s s1).
  Proof.
    assert (E : forall e s s' v, evals e s s' v -> same s s') by (intros e s s' v (n & H); apply run_good in H; exact H).
    assert (C : forall e s s' v, holds e s s' v -> same s s') by (intros e s s' v (n & H); apply run_good in H; exact H).
    assert (W : forall g s cs, (forall cs cs', g cs = Ok cs' -> shape cs cs') -> quiet s -> g (top_contours s) = Ok cs -> cmdr s (with_contours cs s)).
    { intros g s cs Hg Q G. eapply cmdr_contours; [exact Hg|]. apply on_contours_ok; [now apply quiet_stack|exact G]. }
    assert (BR : forall s x v cs s1, quiet s -> let_var ([] :: top_contours s) x v = Ok cs -> cmdr (with_contours cs s) s1 -> cmdr s (with_contours (tl (top_contours s1)) s1) /\ top_contours s1 <> []).
    { intros s x v cs s1 Q G H. assert (N : stack s <> []) by now apply quiet_stack. assert (T : top_contours s1 <> []).
      { destruct H as [_ H]. unfold with_contours in H. destruct (stack s) as [|f r]; [easy|]. cbn in H. destruct H as (f' & E' & _ & _ & Sh). unfold top_contours. rewrite E'. cbn in Sh. apply let_var_ok in G as (_ & c & t & _ & ->). destruct Sh as (c' & t' & -> & _). discriminate. }
      split; [|exact T].
      eapply (bracket_cmdr x v s (with_contours ([] :: top_contours s) s) (with_contours cs s) s1); [apply on_contours_ok; [exact N|reflexivity]| |exact H|].
      - rewrite <- (with_contours_twice cs ([] :: top_contours s) s). apply on_contours_ok; [|now rewrite top_contours_with]. unfold with_contours. destruct (stack s); [easy|discriminate].
      - apply on_contours_ok; [unfold top_contours in T; now destruct (stack s1)|]. now destruct (top_contours s1). }
    apply (big_each (fun c s s1 o _ => quiet s -> quiet s1 /\ cmdr s s1) (fun x l i b s s1 o _ => quiet s -> quiet s1 /\ cmdr s s1)); intros.
    - assert (Q1 := evals_quiet _ _ _ _ e0 H). split; [now apply quiet_contours|]. eapply cmdr_trans; [apply same_cmdr; eapply E; eassumption|]. eapply (W (fun cs => let_var cs x v)); [intros; eapply let_var_shape; eassumption|exact Q1|eassumption].
    - assert (Q1 := evals_quiet _ _ _ _ e0 H). split; [now apply quiet_contours|]. eapply cmdr_trans; [apply same_cmdr; eapply E; eassumption|]. eapply (W (fun cs => set_var cs x v)); [intros; eapply set_var_shape; eassumption|exact Q1|eassumption].
    - split; [eapply evals_quiet; eassumption|]. apply same_cmdr. eapply E; eassumption.
    - destruct (H H1) as [Q1 C1]. destruct (H0 Q1) as [Q2 C2]. split; [exact Q2|eapply cmdr_trans; eassumption].
    - auto.
    - assert (Q1 := holds_quiet _ _ _ _ h H0). destruct (H Q1) as [Q2 C2]. split; [exact Q2|]. eapply cmdr_trans; [apply same_cmdr; eapply C; eassumption|exact C2].
    - assert (Q1 := holds_quiet _ _ _ _ h H0). destruct (H Q1) as [Q2 C2]. split; [exact Q2|]. eapply cmdr_trans; [apply same_cmdr; eapply C; eassumption|exact C2].
    - split; [assumption|]. apply same_cmdr, same_refl.
    - assert (Q1 := evals_quiet _ _ _ _ e0 H0). destruct (H Q1) as [Q2 C2]. split; [exact Q2|]. eapply cmdr_trans; [apply same_cmdr; eapply E; eassumption|exact C2].
    - split; [eapply holds_quiet; eassumption|]. apply same_cmdr. eapply C; eassumption.
    - assert (S2 : same s s2) by (eapply same_trans; eapply E; eassumption). split; [eapply quiet_same; [|exact H]; cbn; apply S2|]. apply same_cmdr. destruct S2 as [N2 S2]. split; [exact N2|exact S2].
    - split; [assumption|]. apply same_cmdr, same_refl.
    - destruct H as [Q1 C1]; [now apply quiet_contours|]. destruct (BR _ _ _ _ _ H1 e1 C1) as [C2 _]. destruct H0 as [Q3 C3]; [now apply quiet_contours|]. split; [exact Q3|eapply cmdr_trans; eassumption].
    - destruct H as [Q1 C1]; [now apply quiet_contours|]. destruct (BR _ _ _ _ _ H0 e1 C1) as [C2 _]. split; [now apply quiet_contours|exact C2].
  Qed.
  Lemma BRtop s x v cs s1 : quiet s -> let_var ([] :: top_contours s) x v = Ok cs -> cmdr (with_contours cs s) s1 -> top_contours s1 <> [].
  Proof.
    intros Q G [_ H]. apply quiet_stack in Q. unfold with_contours in H. destruct (stack s) as [|f r]; [easy|]. cbn in H. destruct H as (f' & E' & _ & _ & Sh). unfold top_contours. rewrite E'. cbn in Sh. apply let_var_ok in G as (_ & c & t & _ & ->). destruct Sh as (c' & t' & -> & _). discriminate.
  Qed.
  Ltac fuel n := exists (S n); cbn [M_Exec.run M_Exec.step]; match goal with Q : quiet ?s |- bindM guard _ ?s = _ => rewrite (bindM_eq _ _ _ _ _ (guard_ok s Q)) end.
  Ltac stp H := first [rewrite (ex_eq _ _ _ _ _ H) | rewrite (cd_eq _ _ _ _ _ H) | rewrite (cm_eq _ _ _ _ H)].
  Lemma big_complete : (forall c s s1 o, big c s s1 o -> quiet s -> exists n, run n (TCmd c) s = (with_ret o s1, Val RNone)) /\
    (forall x l i b s s1 o, each x l i b s s1 o -> quiet s -> exists n, run n (TLoop x l i b) s = (with_ret o s1, Val RNone)).
  Proof.
    apply (big_each (fun c s s1 o _ => quiet s -> exists n, run n (TCmd c) s = (with_ret o s1, Val RNone)) (fun x l i b s s1 o _ => quiet s -> exists n, run n (TLoop x l i b) s = (with_ret o s1, Val RNone))).
    - intros x e s s1 v cs (n & E) G Q. pose proof (evals_quiet _ _ _ _ (ex_intro _ n E) Q) as Q1. fuel n. stp E. rewrite (bindM_eq _ _ _ _ _ (on_contours_ok (fun cs => let_var cs x v) s1 cs (quiet_stack _ Q1) G)). reflexivity.
    - intros x e s s1 v cs (n & E) G Q. pose proof (evals_quiet _ _ _ _ (ex_intro _ n E) Q) as Q1. fuel n. stp E. rewrite (bindM_eq _ _ _ _ _ (on_contours_ok (fun cs => set_var cs x v) s1 cs (quiet_stack _ Q1) G)). reflexivity.
    - intros e s s1 v (n & E) Q. pose proof (evals_quiet _ _ _ _ (ex_intro _ n E) Q) as Q1. fuel n. stp E. unfold bindM, start_returning, bindM, curr_frame, with_ret. unfold quiet in Q1. destruct (stack s1) as [|f r] eqn:Es; [easy|]. unfold is_returning. rewrite Q1. cbn. unfold put_frame. rewrite Es. reflexivity.
    - intros a b s s1 s2 o B1 IH1 B2 IH2 Q. destruct (IH1 Q) as (n1 & E1). destruct (proj1 big_depth _ _ _ _ B1 Q) as [Q1 _]. destruct (IH2 Q1) as (n2 & E2). apply (up _ (n1 + n2)) in E1; [|lia]. apply (up _ (n1 + n2)) in E2; [|lia]. fuel (n1 + n2). stp E1.
      destruct (curr_ret None s1 Q1) as (f & C & R). rewrite (bindM_eq _ _ _ _ _ C), R. stp E2. reflexivity.
    - intros a b s s1 v B1 IH1 Q. destruct (IH1 Q) as (n & E1). destruct (proj1 big_depth _ _ _ _ B1 Q) as [Q1 _]. fuel n. stp E1. destruct (curr_ret (Some v) s1 Q1) as (f & C & R). rewrite (bindM_eq _ _ _ _ _ C), R. reflexivity.
    - intros c a b s s1 s2 o (n1 & E1) B IH Q. pose proof (holds_quiet _ _ _ _ (ex_intro _ n1 E1) Q) as Q1. destruct (IH Q1) as (n2 & E2). apply (up _ (n1 + n2)) in E1; [|lia]. apply (up _ (n1 + n2)) in E2; [|lia]. fuel (n1 + n2). stp E1. stp E2. reflexivity.
    - intros c a b s s1 s2 o (n1 & E1) B IH Q. pose proof (holds_quiet _ _ _ _ (ex_intro _ n1 E1) Q) as Q1. destruct (IH Q1) as (n2 & E2). apply (up _ (n1 + n2)) in E1; [|lia]. apply (up _ (n1 + n2)) in E2; [|lia]. fuel (n1 + n2). stp E1. stp E2. reflexivity.
    - intros s Q. fuel 0. reflexivity.
    - intros x e b s s1 s2 l o (n1 & E1) B IH Q. pose proof (evals_quiet _ _ _ _ (ex_intro _ n1 E1) Q) as Q1. destruct (IH Q1) as (n2 & E2). apply (up _ (n1 + n2)) in E1; [|lia]. apply (up _ (n1 + n2)) in E2; [|lia]. fuel (n1 + n2). stp E1. unfold bindM. cbn [list_at ret]. exact E2.
    - intros c s s1 (n & E) Q. fuel n. stp E. reflexivity.
    - intros e le s s1 s2 v l vs (n1 & E1) (n2 & E2) N Q. apply (up _ (n1 + n2)) in E1; [|lia]. apply (up _ (n1 + n2)) in E2; [|lia]. fuel (n1 + n2). stp E1. stp E2. unfold bindM, append_one, bindM, elements. cbn [list_at ret]. rewrite N. reflexivity.
    - intros x l i b s vs N E Q. exists 1. cbn [M_Exec.run M_Exec.step]. unfold bindM, elements. rewrite N, E. reflexivity.
    - intros x l i b s vs v cs s1 s2 o N E G B IH1 B2 IH2 Q. assert (NE := quiet_stack _ Q). assert (Qc : quiet (with_contours cs s)) by now apply quiet_contours. destruct (IH1 Qc) as (n1 & E1). destruct (proj1 big_depth _ _ _ _ B Qc) as [Q1 C1].
      destruct IH2 as (n2 & E2); [now apply quiet_contours|]. apply (up _ (n1 + n2)) in E1; [|lia]. apply (up _ (n1 + n2)) in E2; [|lia]. exists (S (n1 + n2)). cbn [M_Exec.run M_Exec.step].
      assert (EL : elements l s = (s, Val vs)) by (unfold elements; now rewrite N). rewrite (bindM_eq _ _ _ _ _ EL), E.
      rewrite (bindM_eq _ _ _ _ _ (on_contours_ok (fun cs => Ok (start_contour cs)) s _ NE eq_refl)).
      rewrite (bindM_eq _ _ _ (with_contours cs s) tt); [|rewrite <- (with_contours_twice cs (start_contour (top_contours s)) s); apply on_contours_ok; [unfold with_contours; destruct (stack s); [easy|discriminate]|now rewrite top_contours_with]].
      stp E1. rewrite (bindM_eq _ _ _ _ _ (end_ok s1 None Q1 (BRtop _ _ _ _ _ Q G C1))).
      destruct (curr_ret None (with_contours (tl (top_contours s1)) s1)) as (f & C & R); [now apply quiet_contours|]. rewrite (bindM_eq _ _ _ _ _ C), R. exact E2.
    - intros x l i b s vs v cs s1 w N E G B IH1 Q. assert (NE := quiet_stack _ Q). assert (Qc : quiet (with_contours cs s)) by now apply quiet_contours. destruct (IH1 Qc) as (n1 & E1). destruct (proj1 big_depth _ _ _ _ B Qc) as [Q1 C1].
      exists (S n1). cbn [M_Exec.run M_Exec.step].
      assert (EL : elements l s = (s, Val vs)) by (unfold elements; now rewrite N). rewrite (bindM_eq _ _ _ _ _ EL), E.
      rewrite (bindM_eq _ _ _ _ _ (on_contours_ok (fun cs => Ok (start_contour cs)) s _ NE eq_refl)).
      rewrite (bindM_eq _ _ _ (with_contours cs s) tt); [|rewrite <- (with_contours_twice cs (start_contour (top_contours s)) s); apply on_contours_ok; [unfold with_contours; destruct (stack s); [easy|discriminate]|now rewrite top_contours_with]].
      stp E1. rewrite (bindM_eq _ _ _ _ _ (end_ok s1 (Some w) Q1 (BRtop _ _ _ _ _ Q G C1))).
      destruct (curr_ret (Some w) (with_contours (tl (top_contours s1)) s1)) as (f & C & R); [now apply quiet_contours|]. rewrite (bindM_eq _ _ _ _ _ C), R. reflexivity.
  Qed.
End Exec.
