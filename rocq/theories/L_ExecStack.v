(* The frame stack during execution. *)
From Verif Require Import M_Base L_Base M_Dict L_Dict L_Intrinsics M_Exec L_Exec.

Notation keys c := (map (@fst nat val) c).
(* below the frame that was on top nothing has changed; on top of it there may be newer frames *)
Definition sufx (s s' : st) : Prop :=
  next s <= next s' /\
  match stack s with
  | [] => Forall (fun g => next s <= fid g) (stack s')
  | f :: r => exists stale f', stack s' = stale ++ f' :: r /\ fid f' = fid f /\ Forall (fun g => next s <= fid g) stale
  end.
Definition sufxC (s s' : st) : Prop := next s <= next s' /\ exists stale, stack s' = stale ++ stack s /\ Forall (fun g => next s <= fid g) stale.
Definition same (s s' : st) : Prop := next s <= next s' /\ stack s' = stack s.
(* the innermost contour may have more variables, the outer ones have the same *)
Definition shape (cs cs' : list contour) : Prop :=
  match cs with
  | [] => cs' = []
  | c :: t => exists c' t', cs' = c' :: t' /\ incl (keys c) (keys c') /\ map (fun c => keys c) t' = map (fun c => keys c) t
  end.
Definition cext (f f' : frame) : Prop := fid f' = fid f /\ f_focus f' = f_focus f /\ shape (contours f) (contours f').
Definition cmdr (s s' : st) : Prop :=
  next s <= next s' /\ match stack s with [] => stack s' = [] | f :: r => exists f', stack s' = f' :: r /\ cext f f' end.

Lemma sufx_refl s : sufx s s.
Proof. split; [lia|]. destruct (stack s) as [|f r]; [constructor|]. exists [], f. auto. Qed.
Lemma sufx_trans a b c : sufx a b -> sufx b c -> sufx a c.
Proof.
  intros [N1 H1] [N2 H2]. split; [lia|]. destruct (stack a) as [|f r].
  - destruct (stack b) as [|g t].
    + eapply Forall_impl; [|exact H2]. cbn. intros; lia.
    + destruct H2 as (st & g' & -> & E & F). inversion H1 as [|? ? Q1 Q2]; subst. apply Forall_app. split; [eapply Forall_impl; [|exact F]; cbn; intros; lia|]. constructor; [lia|exact Q2].
  - destruct H1 as (st & f' & E1 & Ef & F1). rewrite E1 in H2. destruct st as [|g st]; cbn in H2.
    + destruct H2 as (st2 & f2 & -> & Ef2 & F2). exists st2, f2. split; [reflexivity|]. split; [lia|]. eapply Forall_impl; [|exact F2]. cbn. intros; lia.
    + destruct H2 as (st2 & g' & -> & Eg & F2). exists (st2 ++ g' :: st), f'. split; [now rewrite <- app_assoc|]. split; [exact Ef|]. inversion F1 as [|? ? Q1 Q2]; subst. apply Forall_app. split; [eapply Forall_impl; [|exact F2]; cbn; intros; lia|]. constructor; [lia|exact Q2].
Qed.
Lemma sufxC_sufx a b : sufxC a b -> sufx a b.
Proof. intros [N (st & E & F)]. split; [exact N|]. destruct (stack a) as [|f r]; [rewrite E, app_nil_r; exact F|]. exists st, f. auto. Qed.
Lemma same_sufx a b : same a b -> sufx a b.
Proof. intros [N E]. apply sufxC_sufx. split; [exact N|]. exists []. auto. Qed.
Lemma shape_refl cs : shape cs cs.
Proof. destruct cs as [|c t]; [reflexivity|]. exists c, t. split; [reflexivity|]. split; [apply incl_refl|reflexivity]. Qed.
Lemma shape_trans a b c : shape a b -> shape b c -> shape a c.
Proof.
  unfold shape. destruct a as [|x t]; [now intros ->|]. intros (x' & t' & -> & I1 & E1) (x2 & t2 & -> & I2 & E2). exists x2, t2. split; [reflexivity|]. split; [eapply incl_tran; eauto|congruence].
Qed.
Lemma cext_refl f : cext f f.
Proof. repeat split. apply shape_refl. Qed.
Lemma cext_trans a b c : cext a b -> cext b c -> cext a c.
Proof. intros (A1 & A2 & A3) (B1 & B2 & B3). split; [congruence|]. split; [congruence|]. eapply shape_trans; eauto. Qed.
Lemma cmdr_trans a b c : cmdr a b -> cmdr b c -> cmdr a c.
Proof.
  intros [N1 H1] [N2 H2]. split; [lia|]. destruct (stack a) as [|f r]; [now rewrite H1 in H2|]. destruct H1 as (f' & E & C). rewrite E in H2. destruct H2 as (f2 & E2 & C2). exists f2. split; [exact E2|]. eapply cext_trans; eauto.
Qed.
Lemma same_cmdr a b : same a b -> cmdr a b.
Proof. intros [N E]. split; [exact N|]. rewrite E. destruct (stack a); [reflexivity|]. eexists. split; [reflexivity|apply cext_refl]. Qed.
Lemma same_refl a : same a a.
Proof. split; [lia|reflexivity]. Qed.
Lemma same_trans a b c : same a b -> same b c -> same a c.
Proof. intros [N1 E1] [N2 E2]. split; [lia|congruence]. Qed.

(* ---- whatever the outcome: sufx ---- *)
Definition safe {A} (m : M A) : Prop := forall s s' o, m s = (s', o) -> sufx s s'.
Lemma safe_bind {A B} (m : M A) (k : A -> M B) : safe m -> (forall a, safe (k a)) -> safe (bindM m k).
Proof.
  intros Hm Hk s s' o. unfold bindM. destruct (m s) as [s1 [a|e]] eqn:E; [|now intros [= <- <-]; apply Hm in E]. intros H. eapply sufx_trans; [eapply Hm; exact E|eapply Hk; exact H].
Qed.
Lemma safe_ret {A} (a : A) : safe (ret a).
Proof. intros s s' o [= <- <-]. apply sufx_refl. Qed.
Lemma safe_raise {A} e : safe (@raise A e).
Proof. intros s s' o [= <- <-]. apply sufx_refl. Qed.
Lemma safe_lift {A} (r : res A) : safe (lift r).
Proof. intros s s' o. unfold lift. destruct r; intros [= <- <-]; apply sufx_refl. Qed.
Lemma safe_assert b : safe (assertM b).
Proof. apply safe_lift. Qed.
Lemma safe_try {A} (m h : M A) : safe m -> safe h -> safe (try_ m h).
Proof.
  intros Hm Hh s s' o. unfold try_. destruct (m s) as [s1 [a|[|e]]] eqn:E; [intros [= <- <-]; eapply Hm; exact E| |intros [= <- <-]; eapply Hm; exact E]. intros H. eapply sufx_trans; [eapply Hm; exact E|eapply Hh; exact H].
Qed.
Lemma safe_get : safe get.
Proof. intros s s' o [= <- <-]. apply sufx_refl. Qed.
Lemma safe_curr : safe curr_frame.
Proof. intros s s' o. unfold curr_frame. destruct (stack s); intros [= <- <-]; apply sufx_refl. Qed.
Lemma safe_own i : safe (own_frame i).
Proof. intros s s' o. unfold own_frame. destruct (find _ _); intros [= <- <-]; apply sufx_refl. Qed.
Lemma safe_on_contours g : safe (on_contours g).
Proof.
  intros s s' o. unfold on_contours, bindM, curr_frame. destruct (stack s) as [|f r] eqn:E; [intros [= <- <-]; apply sufx_refl|]. unfold lift. destruct (g (contours f)) as [cs|e]; [|intros [= <- <-]; apply sufx_refl].
  unfold put_frame. rewrite E. intros [= <- <-]. split; [cbn; lia|]. rewrite E. cbn. eexists [], _. split; [reflexivity|]. auto.
Qed.
Lemma safe_start_returning v : safe (start_returning v).
Proof.
  intros s s' o. unfold start_returning, bindM, curr_frame. destruct (stack s) as [|f r] eqn:E; [intros [= <- <-]; apply sufx_refl|]. unfold assertM, lift. destruct (assert_ _); [|intros [= <- <-]; apply sufx_refl].
  unfold put_frame. rewrite E. intros [= <- <-]. split; [cbn; lia|]. rewrite E. cbn. eexists [], _. split; [reflexivity|]. auto.
Qed.
Lemma safe_stop_returning : safe stop_returning.
Proof.
  intros s s' o. unfold stop_returning, bindM, curr_frame. destruct (stack s) as [|f r] eqn:E; [intros [= <- <-]; apply sufx_refl|]. unfold lift. destruct (is_returning f); [|intros [= <- <-]; apply sufx_refl].
  unfold put_frame. rewrite E. intros [= <- <-]. split; [cbn; lia|]. rewrite E. cbn. eexists [], _. split; [reflexivity|]. auto.
Qed.
Lemma stack_eq_sufx s s' : stack s' = stack s -> next s' = next s -> sufx s s'.
Proof. intros E N. apply same_sufx. split; [lia|exact E]. Qed.
Lemma safe_syntax_error : safe it_is_a_syntax_error.
Proof. unfold it_is_a_syntax_error. apply safe_bind; [apply safe_curr|]. intros f s s' o [= <- <-]. now apply stack_eq_sufx. Qed.
Lemma safe_new_list vs : safe (new_list vs).
Proof. intros s s' o [= <- <-]. now apply stack_eq_sufx. Qed.
Lemma safe_list_at v : safe (list_at v).
Proof. destruct v; cbn; auto using safe_ret, safe_raise. Qed.
Lemma safe_elements l : safe (elements l).
Proof. intros s s' o. unfold elements. destruct (nth_error _ _); intros [= <- <-]; apply sufx_refl. Qed.
Lemma safe_append l v : safe (append_one l v).
Proof. unfold append_one. apply safe_bind; [apply safe_elements|]. intros vs s s' o [= <- <-]. now apply stack_eq_sufx. Qed.
Lemma safe_as_val r : safe (as_val r).
Proof. destruct r; cbn; auto using safe_ret, safe_raise. Qed.
Lemma safe_as_vals r : safe (as_vals r).
Proof. destruct r; cbn; auto using safe_ret, safe_raise. Qed.
Lemma safe_as_bool r : safe (as_bool r).
Proof. destruct r; cbn; auto using safe_ret, safe_raise. Qed.
Lemma safe_as_none r : safe (as_none r).
Proof. destruct r; cbn; auto using safe_ret, safe_raise. Qed.
Lemma safe_guard : safe guard.
Proof. unfold guard. apply safe_bind; [apply safe_curr|]. intros f. apply safe_assert. Qed.
Create HintDb safe.
Global Hint Resolve safe_ret safe_raise safe_lift safe_assert safe_get safe_curr safe_own safe_on_contours safe_start_returning safe_stop_returning safe_syntax_error
  safe_new_list safe_list_at safe_elements safe_append safe_as_val safe_as_vals safe_as_bool safe_as_none safe_guard : safe.

Section Exec.
  Variable prim : nat -> list (list val) -> list val -> res val.
  Variable test : nat -> list (list val) -> list val -> res bool.
  Variable resolve : nat -> option val -> res val.
  Variable covered : nat -> val -> option val.
  Variable algs : nat -> option alg.
  Variable dispatch : nat -> option val -> res ((nat * option val) + val).
  Notation run := (run prim test resolve covered algs dispatch).

  Ltac safes := repeat (first [progress auto with safe | apply safe_bind; intros | match goal with |- safe (match ?x with _ => _ end) => destruct x end]).
  Lemma run_safe n : forall t, safe (run n t) /\ match t with TCall _ _ _ => forall s s' o, run n t s = (s', o) -> sufxC s s' | _ => True end.
  Proof.
    induction n as [|n IH]; intros t.
    { split; [apply safe_raise|]. destruct t; auto. intros s s' o [= <- <-]. split; [lia|]. exists []. auto. }
    assert (IH' : forall t, safe (run n t)) by (intros t'; apply IH).
    assert (CALL : forall a fo args s s' o, run (S n) (TCall a fo args) s = (s', o) -> sufxC s s').
    { clear t. intros a fo args s s' o H.
      assert (SC : forall s, sufxC s s) by (intros q; split; [lia|]; exists []; auto).
      cbn [M_Exec.run step] in H. destruct (algs a) as [al|]; [|injection H as <- <-; apply SC].
      unfold bindM at 1 in H. unfold lift in H. destruct (init_contours (a_params al) args) as [cs|e]; [|injection H as <- <-; apply SC].
      unfold bindM at 1 in H. unfold push_frame in H.
      set (s1 := mkSt (mkFrame (next s) fo cs None :: stack s) (heap s) (errs s) (S (next s))) in *. unfold bindM at 1 in H.
      match type of H with (match ?m with _ => _ end = _) => destruct m as [s2 r] eqn:E end.
      assert (Q : sufx s1 s2).
      { revert E. match goal with |- ?m s1 = _ -> _ => assert (S : safe m) end.
        { destruct (a_body al); [apply IH'| |safes].
          apply safe_try; [safes|]. safes. }
        apply S. }
      destruct Q as [QN Q]. cbn in QN, Q. destruct Q as (stale & f' & E2 & Ef & F).
      assert (K : forall s3, stack s3 = stack s2 -> next s3 = next s2 -> sufxC s s3).
      { intros s3 K1 K2. split; [lia|]. exists (stale ++ [f']). rewrite K1, E2, <- app_assoc. split; [reflexivity|]. apply Forall_app. split; [eapply Forall_impl; [|exact F]; cbn; intros; lia|]. constructor; [lia|constructor]. }
      destruct r as [v|e]; [|injection H as <- <-; now apply K].
      unfold bindM, pop_frame in H. rewrite E2 in H.
      assert (KP : forall t, stale ++ f' :: stack s = t -> match t with [] => True | g :: t' => sufxC s (mkSt t' (heap s2) (errs s2) (next s2)) end).
      { intros [|g t'] Et; [exact I|]. split; [cbn; lia|]. cbn [stack]. destruct stale as [|h stale]; cbn in Et; injection Et as <- <-; [exists []; auto|]. exists (stale ++ [f']). rewrite <- app_assoc. split; [reflexivity|]. inversion F as [|? ? Q1 Q2]; subst.
        apply Forall_app. split; [eapply Forall_impl; [|exact Q2]; cbn; intros; lia|]. constructor; [lia|constructor]. }
      specialize (KP _ eq_refl). destruct (stale ++ f' :: stack s) as [|g t'] eqn:Et; [destruct stale; discriminate|]. destruct (fid g =? next s); injection H as <- <-; exact KP. }
    split.
    - destruct t; cbn [M_Exec.run step].
      + apply safe_bind; [auto with safe|]. intros _. destruct e; safes.
      + destruct es; safes.
      + safes.
      + destruct cs; safes.
      + destruct cs; safes.
      + apply safe_bind; [auto with safe|]. intros _. destruct c; safes.
      + safes.
      + apply safe_bind; [auto with safe|]. intros _. destruct r; safes.
      + destruct rs; safes. apply safe_try; safes.
      + safes.
      + intros s s' o H. apply sufxC_sufx. eapply CALL. cbn [M_Exec.run step]. exact H.
      + destruct rules; safes.
    - destruct t; try exact I. apply CALL.
  Qed.

  (* ---- a value: nothing left behind ---- *)
  Definition good (t : task) (s s' : st) : Prop :=
    match t with
    | TCmd _ | TLoop _ _ _ _ | TRule _ => cmdr s s'
    | TRules _ _ => sufx s s'
    | _ => same s s'
    end.
  Lemma guard_val s s' u : guard s = (s', Val u) -> s' = s /\ exists f r, stack s = f :: r /\ f_ret f = None.
  Proof.
    unfold guard, bindM, curr_frame. destruct (stack s) as [|f r] eqn:E; [discriminate|]. unfold assertM, lift, is_returning. destruct (f_ret f) eqn:Q; cbn; [discriminate|]. intros [= <- _]. split; [reflexivity|]. exists f, r. auto.
  Qed.
  Lemma lift_val {A} (r : res A) s s' a : lift r s = (s', Val a) -> s' = s /\ r = Ok a.
  Proof. unfold lift. destruct r; [now intros [= <- <-]|discriminate]. Qed.
  Lemma assertM_val b s s' u : assertM b s = (s', Val u) -> s' = s /\ b = true.
  Proof. intros H. apply lift_val in H as [-> H]. destruct b; [auto|discriminate]. Qed.
  Lemma ret_val {A} (x : A) s s' a : ret x s = (s', Val a) -> s' = s /\ a = x.
  Proof. now intros [= <- <-]. Qed.
  Lemma curr_val s s' f : curr_frame s = (s', Val f) -> s' = s /\ exists r, stack s = f :: r.
  Proof. unfold curr_frame. destruct (stack s) as [|g r]; [discriminate|]. intros [= <- <-]. eauto. Qed.
  Lemma get_val s s' q : get s = (s', Val q) -> s' = s /\ q = s.
  Proof. now intros [= <- <-]. Qed.
  Lemma elements_val l s s' vs : elements l s = (s', Val vs) -> s' = s /\ nth_error (heap s) l = Some vs.
  Proof. unfold elements. destruct (nth_error (heap s) l); [|discriminate]. now intros [= <- <-]. Qed.
  Lemma list_at_val v s s' l : list_at v s = (s', Val l) -> s' = s /\ v = VList l.
  Proof. destruct v; try discriminate. now intros [= <- <-]. Qed.
  Lemma as_val_val r s s' v : as_val r s = (s', Val v) -> s' = s /\ r = RVal v.
  Proof. destruct r; try discriminate. now intros [= <- <-]. Qed.
  Lemma as_vals_val r s s' v : as_vals r s = (s', Val v) -> s' = s /\ r = RVals v.
  Proof. destruct r; try discriminate. now intros [= <- <-]. Qed.
  Lemma as_bool_val r s s' v : as_bool r s = (s', Val v) -> s' = s /\ r = RBool v.
  Proof. destruct r; try discriminate. now intros [= <- <-]. Qed.
  Lemma as_none_val r s s' v : as_none r s = (s', Val v) -> s' = s /\ r = RNone.
  Proof. destruct r; try discriminate. now intros [= <- <-]. Qed.
  Lemma new_list_val vs s s' v : new_list vs s = (s', Val v) -> same s s'.
  Proof. intros [= <- <-]. split; [cbn; lia|reflexivity]. Qed.
  Lemma append_val l v s s' u : append_one l v s = (s', Val u) -> same s s'.
  Proof. unfold append_one. intros H. apply bindM_val in H as (s1 & vs & H1 & [= <- <-]). apply elements_val in H1 as [-> _]. split; [cbn; lia|reflexivity]. Qed.
  Lemma syntax_error_val s s' u : it_is_a_syntax_error s = (s', Val u) -> same s s'.
  Proof. unfold it_is_a_syntax_error. intros H. apply bindM_val in H as (s1 & f & H1 & [= <- <-]). apply curr_val in H1 as [-> _]. split; [cbn; lia|reflexivity]. Qed.
  Lemma maybe_error_val (b : bool) s s' u : (if b then it_is_a_syntax_error else ret tt) s = (s', Val u) -> same s s'.
  Proof. destruct b; [apply syntax_error_val|]. intros H. apply ret_val in H as [-> _]. apply same_refl. Qed.
  (* changes of the contours *)
  Lemma on_contours_val g s s' u : on_contours g s = (s', Val u) ->
    exists f r cs, stack s = f :: r /\ g (contours f) = Ok cs /\ s' = mkSt (mkFrame (fid f) (f_focus f) cs (f_ret f) :: r) (heap s) (errs s) (next s).
  Proof.
    unfold on_contours. intros H. apply bindM_val in H as (s1 & f & H1 & H). apply curr_val in H1 as [-> (r & E)]. apply bindM_val in H as (s1 & cs & H1 & H). apply lift_val in H1 as [-> H1].
    unfold put_frame in H. rewrite E in H. injection H as <- _. exists f, r, cs. auto.
  Qed.
  Lemma start_returning_val v s s' u : start_returning v s = (s', Val u) ->
    exists f r, stack s = f :: r /\ f_ret f = None /\ s' = mkSt (mkFrame (fid f) (f_focus f) (contours f) (Some v) :: r) (heap s) (errs s) (next s).
  Proof.
    unfold start_returning. intros H. apply bindM_val in H as (s1 & f & H1 & H). apply curr_val in H1 as [-> (r & E)]. apply bindM_val in H as (s1 & cs & H1 & H). apply assertM_val in H1 as [-> H1].
    unfold put_frame in H. rewrite E in H. injection H as <- _. exists f, r. split; [exact E|]. split; [|reflexivity]. unfold is_returning in H1. now destruct (f_ret f).
  Qed.
  Lemma stop_returning_val s s' u : stop_returning s = (s', Val u) ->
    exists f r, stack s = f :: r /\ s' = mkSt (mkFrame (fid f) (f_focus f) (contours f) None :: r) (heap s) (errs s) (next s).
  Proof.
    unfold stop_returning. intros H. apply bindM_val in H as (s1 & f & H1 & H). apply curr_val in H1 as [-> (r & E)]. apply bindM_val in H as (s1 & cs & H1 & H). apply lift_val in H1 as [-> H1].
    unfold put_frame in H. rewrite E in H. injection H as <- _. exists f, r. auto.
  Qed.
  Lemma own_val i s s' f : own_frame i s = (s', Val f) -> s' = s.
  Proof. unfold own_frame. destruct (find _ _); [|discriminate]. now intros [= <- <-]. Qed.
  Lemma let_var_shape cs x v cs' : let_var cs x v = Ok cs' -> shape cs cs'.
  Proof.
    intros H. apply let_var_ok in H as (_ & c & t & -> & ->). exists (nset c x v), t. split; [reflexivity|]. split; [|reflexivity]. intros k. rewrite <- !nget_keys, nget_nset. destruct (x =? k); [discriminate|auto].
  Qed.
  Lemma nset_keys_in c x v : in_contour x c = true -> keys (nset c x v) = keys c.
  Proof.
    unfold in_contour. induction c as [|[k w] c IH]; cbn; [discriminate|]. destruct (k =? x) eqn:E; cbn; [reflexivity|]. intros H. f_equal. auto.
  Qed.
  Lemma set_var_shape cs x v cs' : set_var cs x v = Ok cs' -> shape cs cs'.
  Proof.
    unfold set_var. intros H. apply bind_ok in H as (u & _ & [= <-]). destruct cs as [|c t]; [reflexivity|]. exists (if in_contour x c then nset c x v else c), (map (fun c => if in_contour x c then nset c x v else c) t). split; [reflexivity|].
    assert (K : forall c, keys (if in_contour x c then nset c x v else c) = keys c) by (intros c0; destruct (in_contour x c0) eqn:E; [now apply nset_keys_in|reflexivity]).
    split; [rewrite K; apply incl_refl|]. rewrite map_map. apply map_ext. exact K.
  Qed.
  Lemma cmdr_contours g s s' u : (forall cs cs', g cs = Ok cs' -> shape cs cs') -> on_contours g s = (s', Val u) -> cmdr s s'.
  Proof.
    intros Hg H. apply on_contours_val in H as (f & r & cs & E & G & ->). split; [cbn; lia|]. rewrite E. eexists. split; [reflexivity|]. repeat split. cbn. now apply Hg.
  Qed.
  (* a contour is opened, something is done and it is closed *)
  Lemma bracket_same x v s s1 s2 s3 s4 u1 u2 u4 :
    on_contours (fun cs => Ok (start_contour cs)) s = (s1, Val u1) -> on_contours (fun cs => let_var cs x v) s1 = (s2, Val u2) ->
    same s2 s3 -> on_contours end_contour s3 = (s4, Val u4) -> same s s4.
  Proof.
    intros H1 H2 HM H4. apply on_contours_val in H1 as (f & r & cs & E & [= <-] & ->). apply on_contours_val in H2 as (f2 & r2 & cs2 & E2 & G & ->). cbn in E2. injection E2 as <- <-. cbn in G. apply let_var_ok in G as (_ & c & t & [= <- <-] & ->).
    destruct HM as [N HM]. cbn in N, HM. apply on_contours_val in H4 as (f4 & r4 & cs4 & E4 & G4 & ->). rewrite HM in E4. injection E4 as <- <-. cbn in G4. injection G4 as <-. split; [cbn; lia|]. cbn. rewrite E. now destruct f.
  Qed.
  Lemma bracket_cmdr x v s s1 s2 s3 s4 u1 u2 u4 :
    on_contours (fun cs => Ok (start_contour cs)) s = (s1, Val u1) -> on_contours (fun cs => let_var cs x v) s1 = (s2, Val u2) ->
    cmdr s2 s3 -> on_contours end_contour s3 = (s4, Val u4) -> cmdr s s4.
  Proof.
    intros H1 H2 HM H4. apply on_contours_val in H1 as (f & r & cs & E & [= <-] & ->). apply on_contours_val in H2 as (f2 & r2 & cs2 & E2 & G & ->). cbn in E2. injection E2 as <- <-. cbn in G. apply let_var_ok in G as (_ & c & t & [= <- <-] & ->).
    destruct HM as [N HM]. cbn in N, HM. destruct HM as (f3 & E3 & C1 & C2 & C3). apply on_contours_val in H4 as (f4 & r4 & cs4 & E4 & G4 & ->). rewrite E3 in E4. injection E4 as <- <-.
    cbn in C1, C2, C3. destruct C3 as (c' & t' & Ec & _ & Et). rewrite Ec in G4. injection G4 as <-. split; [cbn; lia|]. rewrite E. cbn. eexists. split; [reflexivity|]. split; [exact C1|]. split; [exact C2|]. cbn.
    destruct (contours f) as [|c0 t0]; [destruct t'; [reflexivity|discriminate]|]. destruct t' as [|c1 t1]; [discriminate|]. cbn in Et. injection Et as Et1 Et2. exists c1, t1. split; [reflexivity|]. split; [rewrite Et1; apply incl_refl|exact Et2].
  Qed.

  Ltac inv1 H :=
    lazymatch type of H with
    | bindM _ _ _ = (_, Val _) => let s := fresh "s" in let a := fresh "a" in let H1 := fresh "H" in apply bindM_val in H as (s & a & H1 & H); inv1 H1; inv1 H
    | guard _ = _ => apply guard_val in H as [-> H]
    | lift _ _ = _ => apply lift_val in H as [-> H]
    | assertM _ _ = _ => apply assertM_val in H as [-> H]
    | ret _ _ = _ => apply ret_val in H as [-> H]
    | raise _ _ = _ => discriminate H
    | curr_frame _ = _ => apply curr_val in H as [-> H]
    | get _ = _ => apply get_val in H as [-> H]
    | elements _ _ = _ => apply elements_val in H as [-> H]
    | list_at _ _ = _ => apply list_at_val in H as [-> H]
    | as_val _ _ = _ => apply as_val_val in H as [-> H]
    | as_vals _ _ = _ => apply as_vals_val in H as [-> H]
    | as_bool _ _ = _ => apply as_bool_val in H as [-> H]
    | as_none _ _ = _ => apply as_none_val in H as [-> H]
    | _ => idtac
    end.
  Lemma run_good n : forall t s s' v, run n t s = (s', Val v) -> good t s s'.
  Proof.
    induction n as [|n IH]; intros t s s' v H; [discriminate|].
    assert (IHe : forall e s s' v, run n (TExpr e) s = (s', Val v) -> same s s') by (intros e0; apply (IH (TExpr e0))).
    assert (IHes : forall e s s' v, run n (TExprs e) s = (s', Val v) -> same s s') by (intros e0; apply (IH (TExprs e0))).
    assert (IHc : forall e s s' v, run n (TCond e) s = (s', Val v) -> same s s') by (intros e0; apply (IH (TCond e0))).
    assert (IHm : forall e s s' v, run n (TCmd e) s = (s', Val v) -> cmdr s s') by (intros e0; apply (IH (TCmd e0))).
    assert (IHy : forall e s s' v, run n (TAny e) s = (s', Val v) -> same s s') by (intros e0; apply (IH (TAny e0))).
    assert (IHl : forall e s s' v, run n (TAll e) s = (s', Val v) -> same s s') by (intros e0; apply (IH (TAll e0))).
    assert (IHca : forall a b c s s' v, run n (TCall a b c) s = (s', Val v) -> same s s') by (intros a0 b0 c0; apply (IH (TCall a0 b0 c0))).
    assert (IHap : forall e s s' v, run n (TApply e) s = (s', Val v) -> same s s') by (intros e0; apply (IH (TApply e0))).
    assert (IHlo : forall a b c d s s' v, run n (TLoop a b c d) s = (s', Val v) -> cmdr s s') by (intros a0 b0 c0 d0; apply (IH (TLoop a0 b0 c0 d0))).
    assert (IHrl : forall a b c d s s' v, run n (TRuleLoop a b c d) s = (s', Val v) -> same s s') by (intros a0 b0 c0 d0; apply (IH (TRuleLoop a0 b0 c0 d0))).
    clear IH.
    Ltac facts := repeat match goal with
      | IH : forall e s s' v, run _ _ s = (s', Val v) -> _, H : run _ _ _ = (_, Val _) |- _ => apply IH in H
      | IH : forall a b c s s' v, run _ _ s = (s', Val v) -> _, H : run _ _ _ = (_, Val _) |- _ => apply IH in H
      | IH : forall a b c d s s' v, run _ _ s = (s', Val v) -> _, H : run _ _ _ = (_, Val _) |- _ => apply IH in H
      | H : new_list _ _ = (_, Val _) |- _ => apply new_list_val in H
      | H : append_one _ _ _ = (_, Val _) |- _ => apply append_val in H
      | H : (if _ then it_is_a_syntax_error else ret tt) _ = (_, Val _) |- _ => apply maybe_error_val in H
      | H1 : same ?a ?b, H2 : same ?b ?c |- _ => let H := fresh in assert (H := same_trans _ _ _ H1 H2); clear H1 H2
      | H1 : on_contours (fun cs => Ok (start_contour cs)) ?s = (?s1, _), H2 : on_contours (fun cs => let_var cs ?x ?v) ?s1 = (?s2, _),
        H3 : same ?s2 ?s3, H4 : on_contours end_contour ?s3 = (_, Val _) |- _ => let H := fresh in assert (H := bracket_same _ _ _ _ _ _ _ _ _ _ H1 H2 H3 H4); clear H1 H2 H3 H4
      | H1 : on_contours (fun cs => Ok (start_contour cs)) ?s = (?s1, _), H2 : on_contours (fun cs => let_var cs ?x ?v) ?s1 = (?s2, _),
        H3 : cmdr ?s2 ?s3, H4 : on_contours end_contour ?s3 = (_, Val _) |- _ => let H := fresh in assert (H := bracket_cmdr _ _ _ _ _ _ _ _ _ _ H1 H2 H3 H4); clear H1 H2 H3 H4
      end.
    destruct t; cbn [M_Exec.run step] in H; cbn [good].
    - inv1 H. destruct e; inv1 H; try (facts; solve [apply same_refl | assumption]).
      + destruct (covered k _); inv1 H. facts. assumption.
      + match goal with d : ((nat * option val) + val)%type |- _ => destruct d as [[al fv]|w] end; inv1 H;
        (destruct focus as [fe|]; match goal with H1 : _ = (s0, Val _) |- _ => inv1 H1 end; facts; assumption).
    - destruct es; inv1 H; facts; [apply same_refl|assumption].
    - inv1 H. destruct c; inv1 H; try (facts; solve [assumption]). match type of H with (if ?b then _ else _) _ = _ => destruct b end; inv1 H; facts; assumption.
    - destruct cs; inv1 H; [apply same_refl|]. destruct a; inv1 H; facts; assumption.
    - destruct cs; inv1 H; [apply same_refl|]. destruct a; inv1 H; facts; assumption.
    - inv1 H. destruct c; inv1 H; try (facts; solve [apply same_cmdr; (assumption || apply same_refl)]).
      + facts. eapply cmdr_trans; [apply same_cmdr; eassumption|]. eapply cmdr_contours; [|eassumption]. intros cs cs' Hcs; eapply let_var_shape; exact Hcs.
      + facts. eapply cmdr_trans; [apply same_cmdr; eassumption|]. eapply cmdr_contours; [|eassumption]. intros cs cs' Hcs; eapply set_var_shape; exact Hcs.
      + facts. eapply cmdr_trans; [apply same_cmdr; eassumption|]. match goal with H : start_returning _ _ = _ |- _ => apply start_returning_val in H as (f & r & E & _ & ->) end. split; [cbn; lia|]. rewrite E. eexists. split; [reflexivity|]. repeat split. apply shape_refl.
      + match type of H with (if ?b then _ else _) _ = _ => destruct b end; inv1 H; facts; [assumption|eapply cmdr_trans; eassumption].
      + facts. eapply cmdr_trans; [apply same_cmdr; eassumption|eassumption].
      + facts. eapply cmdr_trans; [apply same_cmdr; eassumption|eassumption].
    - inv1 H. destruct (nth_error _ i) as [w|]; inv1 H; [|apply same_cmdr, same_refl].
      match type of H with (if ?b then _ else _) _ = _ => destruct b end; inv1 H; facts; [assumption|eapply cmdr_trans; eassumption].
    - inv1 H. destruct r; inv1 H; try (facts; solve [apply same_cmdr; (assumption || apply same_refl)]).
      + match type of H with (if ?b then _ else _) _ = _ => destruct b end; inv1 H; [|facts; apply same_cmdr; assumption].
        match type of H with (match ?b with _ => _ end) _ = _ => destruct b end; inv1 H.
        match goal with H : stop_returning _ = _ |- _ => apply stop_returning_val in H as (f & r & E & ->) end. facts.
        eapply cmdr_trans; [apply same_cmdr; eassumption|]. eapply cmdr_trans; [eassumption|]. eapply cmdr_trans; [|apply same_cmdr; eassumption].
        split; [cbn; lia|]. rewrite E. eexists. split; [reflexivity|]. repeat split. apply shape_refl.
      + match type of H with (if ?b then _ else _) _ = _ => destruct b end; inv1 H; facts; apply same_cmdr; assumption.
    - apply (proj1 (run_safe (S n) (TRules own rs)) s s' (Val v)). cbn [M_Exec.run step]. exact H.
    - inv1 H. destruct (nth_error _ i) as [w|]; inv1 H; [|apply same_refl]. facts. assumption.
    - destruct (algs a) as [al|]; [|discriminate]. apply bindM_val in H as (s1 & cs & H1 & H). apply lift_val in H1 as [-> H1]. apply bindM_val in H as (s1 & i & H2 & H). unfold push_frame in H2. injection H2 as <- <-.
      apply bindM_val in H as (s2 & r & H2 & H). set (s1 := mkSt (mkFrame (next s) focus cs None :: stack s) (heap s) (errs s) (S (next s))) in *.
      assert (Q : sufx s1 s2).
      { revert H2. match goal with |- ?m s1 = _ -> _ => assert (S : safe m) end; [|apply S]. pose proof (fun t => proj1 (run_safe n t)) as IH'. destruct (a_body al); [apply IH'| |safes]. apply safe_try; safes. }
      destruct Q as [QN Q]. cbn in QN, Q. destruct Q as (stale & f' & E2 & Ef & F). apply bindM_val in H as (s3 & u & H3 & H). apply ret_val in H as [-> _]. unfold pop_frame in H3. rewrite E2 in H3. destruct stale as [|g stale]; cbn in H3.
      + destruct (fid f' =? next s); [|discriminate]. injection H3 as <- _. split; [cbn; lia|reflexivity].
      + inversion F as [|? ? Q1 _]; subst. destruct (Nat.eqb_spec (fid g) (next s)); [lia|discriminate].
    - destruct rules; inv1 H; facts; [apply same_refl|assumption].
  Qed.
End Exec.
