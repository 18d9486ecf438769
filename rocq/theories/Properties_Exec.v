(* Properties C34-C36, C46, C47: execution of pseudocode. *)
From Verif Require Import M_Base L_Base M_Dict L_Dict M_Exec L_Exec L_ExecStack L_ExecBig.

(* ---- C34: variables ---- *)
(* After any successful history of a frame's contours, a reference gives v exactly if the variable was introduced in a contour
   that is still open and v is the value last given to it. *)
Theorem C34_reference : forall os cs x v, history [[]] os = Ok cs -> (get_var cs x = Ok v <-> visible os x v).
Proof.
  intros os cs x v H. assert (R := represents_history os [] _ _ represents_init H). cbn in R. rewrite (visible_spec os cs x v R), get_var_spec. split.
  - intros (d & c & A & B & _). eauto.
  - intros (d & c & A & B). exists d, c. split; [exact A|]. split; [exact B|]. intros d' c' L N. destruct (in_contour x c') eqn:E; [|reflexivity]. exfalso. destruct R as [_ U]. enough (d = d') by lia. eapply (U x d d'); eauto. apply in_contour_spec. eauto.
Qed.
Print Assumptions C34_reference.
(* otherwise it fails, by assertion *)
Theorem C34_unbound : forall os cs x, history [[]] os = Ok cs -> (forall v, ~ visible os x v) -> get_var cs x = Err AssertionError.
Proof.
  intros os cs x H N. destruct (get_var cs x) as [v|e] eqn:E; [exfalso; eapply N; apply (C34_reference os cs x v H); exact E|]. now apply get_var_err in E as ->.
Qed.
Print Assumptions C34_unbound.
Lemma history_open os cs : history [[]] os = Ok cs -> stays_open 0 os = true -> cs <> [].
Proof.
  enough (G : forall os d cs0 cs, length cs0 = S d -> history cs0 os = Ok cs -> stays_open d os = true -> cs <> []) by (intros H S; exact (G os 0 [[]] cs eq_refl H S)).
  clear. induction os as [|o os IH]; intros d cs0 cs L H S; cbn in H.
  - injection H as <-. destruct cs0; [discriminate|easy].
  - apply bind_ok in H as (c1 & H1 & H2). destruct o; cbn [apply_op stays_open] in H1, S.
    + injection H1 as <-. eapply (IH (Datatypes.S d)); [|exact H2|exact S]. cbn. lia.
    + destruct d; [discriminate|]. destruct cs0; [discriminate|]. injection H1 as <-. cbn in L. eapply (IH d); [|exact H2|exact S]. lia.
    + apply let_var_ok in H1 as (_ & c & t & -> & ->). eapply (IH d); [|exact H2|exact S]. exact L.
    + unfold set_var in H1. destruct (assert_ _); [|discriminate]. injection H1 as <-. eapply (IH d); [|exact H2|exact S]. now rewrite map_length.
Qed.
(* introducing a variable fails exactly if it is visible *)
Theorem C34_introduce : forall os cs x v, history [[]] os = Ok cs -> stays_open 0 os = true ->
  ((forall w, ~ visible os x w) -> exists cs', let_var cs x v = Ok cs') /\ (forall w, visible os x w -> let_var cs x v = Err AssertionError).
Proof.
  intros os cs x v H S. assert (N := history_open _ _ H S). assert (R := represents_history os [] _ _ represents_init H). cbn in R. unfold let_var. destruct (forallb (fun c => negb (in_contour x c)) cs) eqn:F; cbn [assert_ bind].
  - rewrite forallb_forall in F. split; [destruct cs; [easy|eauto]|]. intros w V. exfalso. apply (visible_spec os cs x w R) in V as (d & c & A & B). apply nth_error_In in A. apply F in A. assert (E : in_contour x c = true) by (apply in_contour_spec; eauto). now rewrite E in A.
  - split; [|reflexivity]. intros V. exfalso. enough (forallb (fun c => negb (in_contour x c)) cs = true) by congruence. apply forallb_forall. intros c I. destruct (in_contour x c) eqn:E; [|reflexivity]. exfalso. apply in_contour_spec in E as (w & E). apply In_nth_error in I as (d & I). apply (V w). apply (visible_spec os cs x w R). eauto.
Qed.
Print Assumptions C34_introduce.
(* assigning to it fails exactly if it is not *)
Theorem C34_assign : forall os cs x v, history [[]] os = Ok cs ->
  (forall w, visible os x w -> exists cs', set_var cs x v = Ok cs') /\ ((forall w, ~ visible os x w) -> set_var cs x v = Err AssertionError).
Proof.
  intros os cs x v H. assert (R := represents_history os [] _ _ represents_init H). cbn in R. unfold set_var. split.
  - intros w V. apply (visible_spec os cs x w R) in V as (d & c & A & B).
    assert (L : length (filter (in_contour x) cs) <= 1) by (apply filter_one; destruct R as [_ U]; eauto).
    assert (I : In c (filter (in_contour x) cs)) by (apply filter_In; split; [eapply nth_error_In; exact A|apply in_contour_spec; eauto]).
    assert (E : length (filter (in_contour x) cs) = 1) by (destruct (filter (in_contour x) cs) as [|? [|]]; cbn in *; [easy|reflexivity|lia]).
    rewrite E. cbn. eauto.
  - intros V. assert (E : filter (in_contour x) cs = []).
    { destruct (filter (in_contour x) cs) as [|c t] eqn:F; [reflexivity|]. exfalso. assert (I : In c (filter (in_contour x) cs)) by (rewrite F; now left). apply filter_In in I as [I E]. apply in_contour_spec in E as (w & E). apply In_nth_error in I as (d & I). apply (V w). apply (visible_spec os cs x w R). eauto. }
    rewrite E. reflexivity.
Qed.
Print Assumptions C34_assign.
Lemma depth_app a b : forall d, depth d (a ++ b) = match depth d a with None => None | Some d' => depth d' b end.
Proof. induction a as [|o a IH]; intros d; [reflexivity|]. destruct o; cbn [app depth]; auto. destruct d; auto. Qed.
Lemma depth_shift k os : forall d d', depth d os = Some d' -> depth (d + k) os = Some (d' + k).
Proof. induction os as [|o os IH]; intros d d' H; cbn in *; [congruence|]. destruct o; auto; [apply (IH (S d)); exact H|]. destruct d; [discriminate|]. apply (IH d). exact H. Qed.
(* what was introduced in a contour is gone after its end *)
Theorem C34_gone : forall pre mid x v, depth 0 mid = Some 0 -> visible (pre ++ [OStart] ++ mid ++ [OEnd]) x v -> exists w, visible pre x w.
Proof.
  intros pre mid x v D (h1 & w & h2 & E & S & _). assert (C : (exists h2', pre = h1 ++ OLet x w :: h2' /\ h2 = h2' ++ [OStart] ++ mid ++ [OEnd]) \/ exists k, h1 = pre ++ k /\ [OStart] ++ mid ++ [OEnd] = k ++ OLet x w :: h2).
  { clear -E. revert h1 E. induction pre as [|p pre IH]; intros h1 E; [right; exists h1; auto|]. destruct h1 as [|q h1]; cbn in E.
    - injection E as -> <-. left. exists pre. auto.
    - injection E as -> E. destruct (IH h1 E) as [(h2' & -> & ->)|(k & -> & Ek)]; [left; exists h2'; auto|right; exists k; auto]. }
  destruct C as [(h2' & -> & ->)|(k & -> & Ek)].
  - exists (last_given x w h2'), h1, w, h2'. split; [reflexivity|]. split; [|reflexivity]. apply stays_depth. apply stays_depth in S as (d & S). rewrite depth_app in S. destruct (depth 0 h2'); [eauto|discriminate].
  - exfalso. destruct k as [|o k]; cbn in Ek; [discriminate|]. injection Ek as <- Ek.
    apply snoc_split in Ek as [(_ & _ & [=])|(h2' & -> & ->)]. apply stays_depth in S as (d & S). rewrite depth_app in S. destruct (depth 0 h2') as [[|m]|] eqn:M; try discriminate.
    rewrite depth_app in D. destruct (depth 0 k) as [d0|] eqn:K; [|discriminate]. cbn [depth] in D. apply (depth_shift d0) in M. cbn in M. rewrite D in M. injection M as M. lia.
Qed.
Print Assumptions C34_gone.

Example C34_ex_history : exists cs,
  history [[]] [OLet 1 (VAtom 10); OStart; OLet 2 (VAtom 20); OSet 1 (VAtom 11); OEnd; OStart; OLet 2 (VAtom 21); OSet 2 (VAtom 22)] = Ok cs /\
  get_var cs 1 = Ok (VAtom 11) /\ get_var cs 2 = Ok (VAtom 22) /\ get_var cs 3 = Err AssertionError /\ let_var cs 1 (VAtom 5) = Err AssertionError /\ set_var cs 3 (VAtom 5) = Err AssertionError.
Proof. eexists. repeat split. Qed.
Example C34_ex_gone : depth 0 [OLet 2 (VAtom 20); OStart; OEnd; OSet 1 (VAtom 11)] = Some 0 /\
  visible ([OLet 1 (VAtom 10)] ++ [OStart] ++ [OLet 2 (VAtom 20); OStart; OEnd; OSet 1 (VAtom 11)] ++ [OEnd]) 1 (VAtom 11) /\
  (forall v, ~ visible ([OLet 1 (VAtom 10)] ++ [OStart] ++ [OLet 2 (VAtom 20); OStart; OEnd; OSet 1 (VAtom 11)] ++ [OEnd]) 2 v).
Proof.
  split; [reflexivity|]. split.
  - exists [], (VAtom 10), ([OStart] ++ [OLet 2 (VAtom 20); OStart; OEnd; OSet 1 (VAtom 11)] ++ [OEnd]). auto.
  - intros v V. apply C34_gone in V as (w & [|? [|]] & w' & h2 & [=] & _); [reflexivity].
Qed.

Section Exec.
  Variable prim : nat -> list (list val) -> list val -> res val.
  Variable test : nat -> list (list val) -> list val -> res bool.
  Variable resolve : nat -> option val -> res val.
  Variable covered : nat -> val -> option val.
  Variable algs : nat -> option alg.
  Variable dispatch : nat -> option val -> res ((nat * option val) + val).
  Notation run := (run prim test resolve covered algs dispatch).
  Notation big := (big prim test resolve covered algs dispatch).
  Notation each := (each prim test resolve covered algs dispatch).

  (* ---- C35: return ---- *)
  (* [big] is the semantics in which a return is a jump: nothing after it is executed.
     What the interpreter does, with its flag, is what [big] says ... *)
  Theorem C35_sound : forall n c s s' v, run n (TCmd c) s = (s', Val v) -> exists s1 o, big c s s1 o /\ s' = with_ret o s1.
  Proof. intros n c s s' v H. apply (proj1 (big_sound _ _ _ _ _ _ n)) in H as (s1 & o & B & -> & _). eauto. Qed.
  (* ... and conversely *)
  Theorem C35_complete : forall c s s1 o, quiet s -> big c s s1 o -> exists n, run n (TCmd c) s = (with_ret o s1, Val RNone).
  Proof. intros c s s1 o Q B. eapply (proj1 (big_complete _ _ _ _ _ _)); eassumption. Qed.
  (* the result of an algorithm is the value it returned (or what is given for a reference to a missing thing) *)
  Theorem C35_result : forall n a al c fo args s s' v, algs a = Some al -> a_body al = BSteps c -> run n (TCall a fo args) s = (s', Val v) ->
    exists cs, init_contours (a_params al) args = Ok cs /\
    let s0 := mkSt (mkFrame (next s) fo cs None :: stack s) (heap s) (errs s) (S (next s)) in
    (exists s1 w, big c s0 s1 (Some w) /\ v = RVal w /\ s' = mkSt (stack s) (heap s1) (errs s1) (next s1)) \/
    (exists m s1, run m (TCmd c) s0 = (s1, Exc NoThing) /\
      (a_name al = Contains /\ v = RVal (VBool false) \/ a_name al = BoundNames /\ v = RVal (VList (length (heap s1))) /\ heap s' = heap s1 ++ [[]])).
  Proof.
    intros n a al c fo args s s' v Ea Eb H. assert (SS := run_good _ _ _ _ _ _ _ _ _ _ _ H). cbn [good] in SS. destruct SS as [_ SS].
    destruct n as [|n]; [discriminate|]. cbn [M_Exec.run M_Exec.step] in H. rewrite Ea, Eb in H.
    apply bindM_val in H as (s1 & cs & Hc & H). apply lift_val in Hc as [-> Hc]. apply bindM_val in H as (s1 & i & Hi & H). unfold push_frame in Hi. injection Hi as <- <-. apply bindM_val in H as (s2 & r & Hr & H). apply bindM_val in H as (s3 & u & Hp & H). injection H as <- <-.
    exists cs. split; [exact Hc|]. intros s0. subst s0. set (s0 := mkSt _ _ _ _) in *.
    assert (P : heap s3 = heap s2 /\ errs s3 = errs s2 /\ next s3 = next s2).
    { unfold pop_frame in Hp. destruct (stack s2) as [|f t]; [discriminate|]. destruct (fid f =? next s); [|discriminate]. injection Hp as <- _. auto. }
    destruct P as (P1 & P2 & P3).
    unfold try_ in Hr. match type of Hr with (let (_, _) := ?m in _) = _ => destruct m as [s4 [w|[|x]]] eqn:Em end; [| |discriminate].
    - injection Hr as <- <-. left. apply bindM_val in Em as (s5 & u' & Em & Ef). apply bindM_val in Em as (s6 & q & Em & Eq). apply as_none_val in Eq as [-> ->].
      apply (proj1 (big_sound _ _ _ _ _ _ n)) in Em as (sB & o & B & -> & QB & _).
      assert (QD := proj1 (big_depth _ _ _ _ _ _) _ _ _ _ B eq_refl). destruct QD as [_ [_ QD]]. cbn [stack s0] in QD. destruct QD as (f' & Sk & Cx & _).
      apply bindM_val in Ef as (s7 & f & Ef & Er). unfold own_frame in Ef. assert (X : find (fun f => fid f =? next s) (stack (with_ret o sB)) = Some (mkFrame (fid f') (f_focus f') (contours f') o)).
      { unfold quiet in QB. rewrite Sk in QB. destruct f' as [i0 fo0 cs0 r0]. cbn in Cx, QB. subst i0 r0. unfold with_ret. destruct o; rewrite Sk; cbn [stack find fid]; rewrite Nat.eqb_refl; reflexivity. }
      rewrite X in Ef. injection Ef as <- <-. cbn [f_ret] in Er. destruct o as [w'|]; [|discriminate]. injection Er as <- <-. exists sB, w'. split; [exact B|]. split; [reflexivity|].
      destruct s3 as [k h e nx]. cbn in *. unfold with_ret in *. rewrite Sk in *. cbn in *. now subst.
    - right. assert (X : run n (TCmd c) s0 = (s4, Exc NoThing)).
      { apply nothing_bind in Em as [Em|(s5 & u' & _ & Em)].
        - apply nothing_bind in Em as [Em|(s5 & u' & _ & Em)]; [exact Em|]. destruct u'; discriminate.
        - apply nothing_bind in Em as [Em|(s6 & f & _ & Em)]; [unfold own_frame in Em; destruct (find _ _); discriminate|destruct (f_ret f); discriminate]. }
      exists n, s4. split; [exact X|]. destruct (a_name al).
      + injection Hr as <- <-. auto.
      + apply bindM_val in Hr as (s5 & w & Hn & Hr). injection Hn as <- <-. injection Hr as <- <-. cbn in P1. auto.
      + discriminate.
  Qed.
  (* an algorithm that ends without a return fails *)
  Theorem C35_no_return : forall a al c fo args s cs s1, algs a = Some al -> a_body al = BSteps c -> init_contours (a_params al) args = Ok cs ->
    big c (mkSt (mkFrame (next s) fo cs None :: stack s) (heap s) (errs s) (S (next s))) s1 None ->
    exists n s', run n (TCall a fo args) s = (s', Exc (Py AssertionError)).
  Proof.
    intros a al c fo args s cs s1 Ea Eb Ei B. set (s0 := mkSt _ _ _ _) in B. assert (Q : quiet s0) by reflexivity.
    assert (QD := proj1 (big_depth _ _ _ _ _ _) _ _ _ _ B Q). destruct QD as [QB [_ QD]]. cbn [stack s0] in QD. destruct QD as (f' & Sk & Cx & _).
    destruct (proj1 (big_complete _ _ _ _ _ _) _ _ _ _ B Q) as (n & R). exists (S n). cbn [M_Exec.run M_Exec.step]. rewrite Ea, Eb. rewrite (bindM_eq _ _ _ _ _ (lift_ok _ s _ Ei)). rewrite (bindM_eq _ _ _ _ _ (eq_refl : push_frame fo cs s = _)). fold s0.
    cbn [with_ret] in R. eexists. apply bindM_exc. unfold try_. rewrite (cm_eq _ _ _ _ R). unfold bindM, own_frame. rewrite Sk. cbn [find]. rewrite Cx. cbn [fid]. rewrite Nat.eqb_refl. unfold quiet in QB. rewrite Sk in QB. rewrite QB. reflexivity.
  Qed.
  (* however the step ends, every contour opened in it has been closed: the outer contours have the variables they had,
     and the current one at least those *)
  Theorem C35_contours : forall n c s s' v, run n (TCmd c) s = (s', Val v) ->
    exists f f' r, stack s = f :: r /\ stack s' = f' :: r /\ length (contours f') = length (contours f) /\
      forall d k k', nth_error (contours f) d = Some k -> nth_error (contours f') d = Some k' -> incl (keys k) (keys k') /\ (0 < d -> keys k' = keys k).
  Proof.
    intros n c s s' v H. assert (G := run_good _ _ _ _ _ _ _ _ _ _ _ H). cbn [good] in G. destruct G as [_ G]. destruct (stack s) as [|f r] eqn:E.
    - exfalso. destruct n as [|n]; [discriminate|]. cbn [M_Exec.run M_Exec.step] in H. apply bindM_val in H as (s1 & u & H & _). apply guard_val in H as [_ (f & r & E' & _)]. congruence.
    - destruct G as (f' & E' & _ & _ & Sh). exists f, f', r. split; [reflexivity|]. split; [exact E'|]. destruct (contours f) as [|c0 t]; cbn [shape] in Sh.
      + rewrite Sh. split; [reflexivity|]. intros [|] k k' [=].
      + destruct Sh as (c' & t' & -> & I & K). split; [cbn; f_equal; apply (f_equal (@length _)) in K; now rewrite !map_length in K|].
        intros [|d] k k' H1 H2; cbn in H1, H2; [injection H1 as <-; injection H2 as <-; split; [exact I|lia]|].
        assert (X : keys k' = keys k). { apply (map_nth_error (fun c => keys c)) in H1, H2. rewrite K in H2. congruence. }
        split; [rewrite X; apply incl_refl|auto].
  Qed.

  (* ---- C36: the stack ---- *)
  (* when a call gives a value, the stack is as before *)
  Theorem C36_balanced : forall n a fo args s s' v, run n (TCall a fo args) s = (s', Val v) -> stack s' = stack s.
  Proof. intros n a fo args s s' v H. assert (G := run_good _ _ _ _ _ _ _ _ _ _ _ H). apply G. Qed.
  (* in any case, what was on the stack is still there, unchanged, below what may have been left behind *)
  Theorem C36_below : forall n a fo args s s' o, run n (TCall a fo args) s = (s', o) -> exists stale, stack s' = stale ++ stack s.
  Proof. intros n a fo args s s' o H. apply (proj2 (run_safe _ _ _ _ _ _ n (TCall a fo args))) in H as [_ (st & E & _)]. eauto. Qed.
  (* a missing reference gets out of a call only from an algorithm that is an expression, and then frames are left behind *)
  Theorem C36_escape : forall n a fo args s s', run n (TCall a fo args) s = (s', Exc NoThing) ->
    exists al e stale, algs a = Some al /\ a_body al = BExpr e /\ stale <> [] /\ stack s' = stale ++ stack s.
  Proof. intros n a fo args s s' H. apply call_nothing in H as (al & e & A & B & st & C & D). exists al, e, st. auto. Qed.
  (* with frames left behind, a caller that handles the missing reference fails: Contains and BoundNames by assertion ... *)
  Theorem C36_crash_steps : forall n a al c fo args cs s s2,
    algs a = Some al -> a_body al = BSteps c -> a_name al <> OtherAlg -> init_contours (a_params al) args = Ok cs ->
    run n (TCmd c) (mkSt (mkFrame (next s) fo cs None :: stack s) (heap s) (errs s) (S (next s))) = (s2, Exc NoThing) ->
    length (stack s2) <> S (length (stack s)) ->
    exists s', run (S n) (TCall a fo args) s = (s', Exc (Py AssertionError)).
  Proof. apply steps_crash. Qed.
  (* ... a list of early error rules in some way, at the latest at its end ... *)
  Theorem C36_crash_rules : forall n a al r rs fo args cs s s2,
    algs a = Some al -> a_body al = BRules (r :: rs) -> init_contours (a_params al) args = Ok cs ->
    run n (TRule r) (mkSt (mkFrame (next s) fo cs None :: stack s) (heap s) (errs s) (S (next s))) = (s2, Exc NoThing) ->
    length (stack s2) <> S (length (stack s)) ->
    forall m s' v, run m (TCall a fo args) s <> (s', Val v).
  Proof.
    intros n a al r rs fo args cs s s2 Ea Eb Ei Er L m s' v H.
    assert (H' := up _ _ _ _ _ _ m (m + S (S n)) _ _ _ _ ltac:(lia) H).
    assert (E : m + S (S n) = S (S (m + n))) by lia. rewrite E in H'. clear E.
    eapply (rules_crash _ _ _ _ _ _ (m + n)); try eassumption. eapply run_mono; [|exact Er|discriminate]. lia.
  Qed.
  (* ... and any other algorithm with steps fails with a KeyError, frames or no frames *)
  Theorem C36_keyerror : forall n a al c fo args cs s s2,
    algs a = Some al -> a_body al = BSteps c -> a_name al = OtherAlg -> init_contours (a_params al) args = Ok cs ->
    run n (TCmd c) (mkSt (mkFrame (next s) fo cs None :: stack s) (heap s) (errs s) (S (next s))) = (s2, Exc NoThing) ->
    run (S n) (TCall a fo args) s = (s2, Exc (Py KeyError)).
  Proof. apply steps_keyerror. Qed.

  (* ---- C47: loops over Lists ---- *)
  (* a List that does not change: the body is executed for its elements, in order, until it returns *)
  Inductive in_turn (x : nat) (b : cmd) : list val -> st -> st -> option val -> Prop :=
  | t_end s : in_turn x b [] s s None
  | t_step v vs s cs s1 s2 o : let_var ([] :: top_contours s) x v = Ok cs -> big b (with_contours cs s) s1 None ->
      in_turn x b vs (with_contours (tl (top_contours s1)) s1) s2 o -> in_turn x b (v :: vs) s s2 o
  | t_return v vs s cs s1 w : let_var ([] :: top_contours s) x v = Ok cs -> big b (with_contours cs s) s1 (Some w) ->
      in_turn x b (v :: vs) s (with_contours (tl (top_contours s1)) s1) (Some w).
  Lemma skipn_nth {A} (vs : list A) : forall i v, nth_error vs i = Some v -> skipn i vs = v :: skipn (S i) vs.
  Proof. induction vs as [|w vs IH]; intros [|i] v H; cbn in *; try discriminate; [congruence|]. now apply IH. Qed.
  Lemma heap_with cs s : heap (with_contours cs s) = heap s.
  Proof. unfold with_contours. now destruct (stack s). Qed.
  Lemma evals_det e s s1 s2 v w : evals prim test resolve covered algs dispatch e s s1 v -> evals prim test resolve covered algs dispatch e s s2 w -> s1 = s2 /\ v = w.
  Proof.
    intros (n & H) (m & K). apply (up _ _ _ _ _ _ n (n + m)) in H; [|lia]. apply (up _ _ _ _ _ _ m (n + m)) in K; [|lia]. rewrite H in K. now injection K as -> ->.
  Qed.
  Theorem C47_in_turn : forall x e b l vs s s1 s2 o,
    (forall t t' q, big b t t' q -> nth_error (heap t) l = Some vs -> nth_error (heap t') l = Some vs) ->
    evals prim test resolve covered algs dispatch e s s1 (VList l) -> nth_error (heap s1) l = Some vs ->
    (big (CFor x e b) s s2 o <-> in_turn x b vs s1 s2 o).
  Proof.
    intros x e b l vs s s1 s2 o K He Hl. enough (each x l 0 b s1 s2 o <-> in_turn x b vs s1 s2 o) as <-.
    { split; [|intros H; eapply b_for; eassumption]. intros H. inversion H as [| | | | | | | |? ? ? ? s1' ? l' ? He' HE| |]; subst. destruct (evals_det _ _ _ _ _ _ He He') as [<- [= <-]]. exact HE. }
    assert (A : forall x0 l0 i b0 t t' q, each x0 l0 i b0 t t' q -> x0 = x -> l0 = l -> b0 = b -> nth_error (heap t) l = Some vs -> in_turn x b (skipn i vs) t t' q).
    { induction 1 as [x0 l0 i b0 t us H1 H2|x0 l0 i b0 t us v cs s0 t' q H1 H2 H3 H4 H5 IH|x0 l0 i b0 t us v cs s0 w H1 H2 H3 H4]; intros -> -> -> Ht; assert (us = vs) as -> by congruence.
      - apply nth_error_None in H2. rewrite skipn_all2 by lia. constructor.
      - rewrite (skipn_nth _ _ _ H2).
        eapply t_step; [exact H3|exact H4|]. apply IH; auto. rewrite heap_with. eapply K; [exact H4|]. now rewrite heap_with.
      - rewrite (skipn_nth _ _ _ H2).
        eapply t_return; [exact H3|exact H4]. }
    split; [intros H; apply (A _ _ 0 _ _ _ _ H); auto|].
    assert (B : forall us t t' q, in_turn x b us t t' q -> forall i, us = skipn i vs -> nth_error (heap t) l = Some vs -> each x l i b t t' q).
    { assert (N : forall i v us, v :: us = skipn i vs -> nth_error vs i = Some v /\ us = skipn (S i) vs).
      { clear. intros i. revert vs. induction i as [|i IH]; intros [|w vs] v us E; cbn in E; try discriminate; [injection E as -> ->; auto|apply IH; exact E]. }
      induction 1 as [t|v us t cs s0 t' q H1 H2 H3 IH|v us t cs s0 w H1 H2]; intros i E Ht.
      - eapply e_end; [exact Ht|]. apply nth_error_None. destruct (Nat.le_gt_cases (length vs) i) as [|G]; [auto|]. apply (f_equal (@length _)) in E. rewrite skipn_length in E. cbn in E. lia.
      - apply N in E as [E1 E2]. eapply e_step; [exact Ht|exact E1|exact H1|exact H2|]. apply IH; auto. rewrite heap_with. eapply K; [exact H2|]. now rewrite heap_with.
      - apply N in E as [E1 E2]. eapply e_return; [exact Ht|exact E1|exact H1|exact H2]. }
    intros H. apply (B _ _ _ _ H 0); auto.
  Qed.
  (* a List to which the body appends: the loop goes on and on *)
  Lemma get_inner x y v cs : y <> x -> get_var ([(x, v)] :: cs) y = get_var cs y.
  Proof. intros N. cbn. destruct (Nat.eqb_spec x y); [congruence|]. reflexivity. Qed.
  Lemma set_nth_same {A} (h : list A) l a b : nth_error h l = Some a -> nth_error (set_nth h l b) l = Some b.
  Proof. revert l. induction h as [|c h IH]; intros [|l] H; cbn in *; try discriminate; auto. Qed.
  Lemma endless_loop x y l : y <> x -> forall n i s f r vs,
    stack s = f :: r -> f_ret f = None -> get_var (contours f) y = Ok (VList l) -> (forall c, In c (contours f) -> in_contour x c = false) ->
    nth_error (heap s) l = Some vs -> i < length vs -> exists s', run n (TLoop x l i (CAppend (EVar x) (EVar y))) s = (s', Exc (Py OutOfFuel)).
  Proof.
    intros Nxy. induction n as [|n IH]; intros i s f r vs E R G X H L; [cbn; eexists; reflexivity|]. cbn [M_Exec.run M_Exec.step]. unfold elements. unfold bindM at 1. rewrite H.
    destruct (nth_error vs i) as [v|] eqn:Ev; [|apply nth_error_None in Ev; lia].
    assert (Ls : let_var ([] :: contours f) x v = Ok ([(x, v)] :: contours f)) by (apply let_var_ok; split; [intros c [<-|I]; [reflexivity|auto]|eexists _, _; split; reflexivity]).
    assert (Tc : top_contours s = contours f) by (unfold top_contours; now rewrite E).
    assert (Ns : stack s <> []) by (rewrite E; discriminate).
    rewrite (bindM_eq _ _ _ _ _ (on_contours_ok (fun cs => Ok (start_contour cs)) s _ Ns eq_refl)). set (s1 := with_contours (start_contour (top_contours s)) s).
    assert (E1 : stack s1 = mkFrame (fid f) (f_focus f) ([] :: contours f) None :: r) by (unfold s1, with_contours; rewrite E, Tc, R; reflexivity).
    assert (N1 : stack s1 <> []) by (rewrite E1; discriminate).
    assert (T1 : top_contours s1 = [] :: contours f) by (unfold top_contours; now rewrite E1).
    rewrite <- T1 in Ls. rewrite (bindM_eq _ _ _ _ _ (on_contours_ok (fun cs => let_var cs x v) s1 _ N1 Ls)). set (s2 := with_contours ([(x, v)] :: contours f) s1).
    assert (E2 : stack s2 = mkFrame (fid f) (f_focus f) ([(x, v)] :: contours f) None :: r) by (unfold s2, with_contours; rewrite E1; reflexivity).
    assert (H2 : heap s2 = heap s) by (unfold s2, s1, with_contours; rewrite E; cbn; reflexivity).
    assert (Q2 : quiet s2) by (unfold quiet; now rewrite E2).
    destruct n as [|[|n]].
    - cbn. eexists. reflexivity.
    - eexists. apply bindM_exc. apply bindM_exc. cbn [M_Exec.run M_Exec.step]. rewrite (bindM_eq _ _ _ _ _ (guard_ok s2 Q2)). reflexivity.
    - remember (S (S n)) as m eqn:Em. set (s3 := mkSt (stack s2) (set_nth (heap s2) l (vs ++ [v])) (errs s2) (next s2)).
      assert (B : run m (TCmd (CAppend (EVar x) (EVar y))) s2 = (s3, Val RNone)).
      { subst m. cbn [M_Exec.run]. remember (M_Exec.run prim test resolve covered algs dispatch n) as rn. cbn [M_Exec.step]. rewrite !(bindM_eq _ _ _ _ _ (guard_ok s2 Q2)).
        assert (V1 : (run! _ <- guard;; run! f0 <- curr_frame;; run! v0 <- lift (get_var (contours f0) x);; ret (RVal v0)) s2 = (s2, Val (RVal v))).
        { rewrite (bindM_eq _ _ _ _ _ (guard_ok s2 Q2)). unfold bindM, curr_frame. rewrite E2. cbn. now rewrite Nat.eqb_refl. }
        assert (V2 : (run! _ <- guard;; run! f0 <- curr_frame;; run! v0 <- lift (get_var (contours f0) y);; ret (RVal v0)) s2 = (s2, Val (RVal (VList l)))).
        { rewrite (bindM_eq _ _ _ _ _ (guard_ok s2 Q2)). unfold bindM, curr_frame. rewrite E2. cbn [contours]. rewrite (get_inner _ _ _ _ Nxy), G. reflexivity. }
        rewrite (ex_eq _ _ _ _ _ V1), (ex_eq _ _ _ _ _ V2). cbn [list_at]. unfold bindM, ret, append_one, elements, bindM. rewrite H2, H. unfold s3. now rewrite H2. }
      rewrite (cm_eq _ _ _ _ B).
      assert (E3 : stack s3 = mkFrame (fid f) (f_focus f) ([(x, v)] :: contours f) None :: r) by exact E2.
      set (s4 := with_contours (contours f) s3).
      assert (E4 : stack s4 = f :: r) by (unfold s4, with_contours; rewrite E3; cbn; rewrite <- R; now destruct f).
      assert (O4 : on_contours end_contour s3 = (s4, Val tt)) by (apply on_contours_ok; [rewrite E3; discriminate|unfold top_contours; rewrite E3; reflexivity]).
      rewrite (bindM_eq _ _ _ _ _ O4).
      assert (C4 : curr_frame s4 = (s4, Val f)) by (unfold curr_frame; now rewrite E4).
      rewrite (bindM_eq _ _ _ _ _ C4). unfold is_returning. rewrite R.
      eapply (IH (S i) s4 f r (vs ++ [v])); auto; [|rewrite app_length; cbn; lia].
      unfold s4, with_contours. rewrite E3. cbn [heap s3]. rewrite H2. eapply set_nth_same. exact H.
  Qed.
  Theorem C47_endless : forall x y l n s f r vs, y <> x ->
    stack s = f :: r -> f_ret f = None -> get_var (contours f) y = Ok (VList l) -> (forall v, get_var (contours f) x <> Ok v) ->
    nth_error (heap s) l = Some vs -> vs <> [] ->
    exists s', run n (TCmd (CFor x (EVar y) (CAppend (EVar x) (EVar y)))) s = (s', Exc (Py OutOfFuel)).
  Proof.
    intros x y l n s f r vs Nxy E R G X H L. assert (Q : quiet s) by (unfold quiet; now rewrite E).
    assert (X' : forall c, In c (contours f) -> in_contour x c = false).
    { clear -X. induction (contours f) as [|c cs IH]; [easy|]. intros c' [<-|I]; cbn in X; unfold in_contour; destruct (nget c x) as [w|] eqn:W; auto.
      - now destruct (X w).
      - now destruct (X w).
      - now apply IH. }
    destruct n as [|[|n]]; cbn [M_Exec.run]; [eexists; reflexivity|cbn [M_Exec.step]; rewrite (bindM_eq _ _ _ _ _ (guard_ok s Q)); eexists; reflexivity|].
    change (step prim test resolve covered algs dispatch (run n)) with (run (S n)). cbn [M_Exec.step]. rewrite (bindM_eq _ _ _ _ _ (guard_ok s Q)).
    assert (V2 : run (S n) (TExpr (EVar y)) s = (s, Val (RVal (VList l)))).
    { cbn [M_Exec.run M_Exec.step]. rewrite (bindM_eq _ _ _ _ _ (guard_ok s Q)). unfold bindM, curr_frame. rewrite E, G. reflexivity. }
    rewrite (ex_eq _ _ _ _ _ V2). cbn [list_at]. unfold bindM at 1. cbn [ret]. eapply endless_loop; eauto. destruct vs; [easy|cbn; lia].
  Qed.

  (* ---- C46: early error rules and the frame they share ---- *)
  (* a rule that is completed, and contains no algorithm, leaves the frame as it was *)
  Theorem C46_restored : forall n r s s' v, run n (TRule r) s = (s', Val v) -> (forall c b steps, r <> RAlg c b steps) -> stack s' = stack s.
  Proof.
    assert (LP : forall n x l i c s s' v, run n (TRuleLoop x l i c) s = (s', Val v) -> stack s' = stack s).
    { induction n as [|n IH]; intros x l i c s s' v H; [discriminate|]. cbn [M_Exec.run M_Exec.step] in H. apply bindM_val in H as (s1 & vs & H1 & H). apply elements_val in H1 as [-> _]. destruct (nth_error vs i); [|now apply ret_val in H as [-> _]].
      apply bindM_val in H as (s2 & u & H1 & H). apply on_contours_val in H1 as (f & t & cs & E & [= <-] & ->).
      apply bindM_val in H as (s2 & u' & H1 & H). apply on_contours_val in H1 as (f2 & t2 & cs & E2 & G & ->). cbn in E2. injection E2 as <- <-. cbn in G. apply let_var_ok in G as (_ & c0 & t0 & [= <- <-] & ->).
      apply bindM_val in H as (s2 & b & H1 & H). apply bindM_val in H1 as (s3 & q & H1 & H2). apply as_bool_val in H2 as [-> _]. apply cond_same in H1.
      apply bindM_val in H as (s4 & w & H2 & H). assert (E4 : stack s4 = stack s3).
      { destruct b; [|now apply ret_val in H2 as [-> _]]. unfold it_is_a_syntax_error in H2. apply bindM_val in H2 as (s5 & f5 & H2 & H3). injection H3 as <-. unfold curr_frame in H2. destruct (stack s3) eqn:E3; [discriminate|]. injection H2 as <- _. cbn. now rewrite E3. }
      apply bindM_val in H as (s5 & u5 & H5 & H). apply on_contours_val in H5 as (f5 & t5 & cs5 & E5 & G5 & ->). rewrite E4, H1 in E5. cbn in E5. injection E5 as <- <-. cbn in G5. injection G5 as <-. apply IH in H. rewrite H, E. cbn. f_equal. now destruct f. }
    intros n r s s' v H N. destruct n as [|n]; [discriminate|]. cbn [M_Exec.run M_Exec.step] in H. apply bindM_val in H as (s0 & u & Hg & H). apply guard_quiet in Hg as [-> _]. destruct r as [c|x e c|c b steps|c rules].
    - apply bindM_val in H as (s1 & b & H1 & H). apply bindM_val in H1 as (s3 & q & H1 & H2). apply as_bool_val in H2 as [-> _]. apply cond_same in H1. rewrite <- H1. apply bindM_val in H as (s4 & w & H2 & H). apply ret_val in H as [-> _].
      destruct b; [|now apply ret_val in H2 as [-> _]]. unfold it_is_a_syntax_error in H2. apply bindM_val in H2 as (s5 & f5 & H2 & H3). injection H3 as <-. unfold curr_frame in H2. destruct (stack s3) eqn:E3; [discriminate|]. injection H2 as <- _. cbn. now rewrite E3.
    - apply bindM_val in H as (s1 & w & H1 & H). apply bindM_val in H1 as (s3 & q & H1 & H2). apply as_val_val in H2 as [-> _]. apply expr_same in H1. rewrite <- H1. apply bindM_val in H as (s4 & l & H2 & H). apply list_at_val in H2 as [-> _]. eapply LP; exact H.
    - exfalso. eapply N. reflexivity.
    - apply bindM_val in H as (s1 & b & H1 & H). apply bindM_val in H1 as (s3 & q & H1 & H2). apply as_bool_val in H2 as [-> _]. apply cond_same in H1. rewrite <- H1. destruct b; [|now apply ret_val in H as [-> _]]. assert (G := run_good _ _ _ _ _ _ _ _ _ _ _ H). apply G.
  Qed.
End Exec.
Print Assumptions C35_sound.
Print Assumptions C35_complete.
Print Assumptions C35_result.
Print Assumptions C35_no_return.
Print Assumptions C35_contours.
Print Assumptions C36_balanced.
Print Assumptions C36_below.
Print Assumptions C36_escape.
Print Assumptions C36_crash_steps.
Print Assumptions C36_crash_rules.
Print Assumptions C36_keyerror.
Print Assumptions C47_in_turn.
Print Assumptions C47_endless.
Print Assumptions C46_restored.

(* ---- examples, with: test 0 is "always", test 1 compares two values, test 2 fails; covered 0 is a thing for atom 1 only ---- *)
Definition ex_prim (k : nat) (h : list (list val)) (vs : list val) : res val := match vs with [v] => Ok v | _ => Ok (VAtom k) end.
Definition ex_test (k : nat) (h : list (list val)) (vs : list val) : res bool :=
  match k, vs with 0, _ => Ok true | 1, [a; b] => Ok (val_eqb a b) | _, _ => Err AssertionError end.
Definition ex_resolve (k : nat) (fo : option val) : res val := match fo with Some v => Ok v | None => Err AssertionError end.
Definition ex_covered (k : nat) (v : val) : option val := match v with VAtom 1 => Some (VAtom 100) | _ => None end.
Definition ex_dispatch (op : nat) (fo : option val) : res ((nat * option val) + val) := Ok (inl (op, fo)).
(* 1: return the first element of the List that equals the second parameter; 2: an expression that refers to a covered thing;
   3: Contains, 4: BoundNames, 5: other steps, 6: a list of rules, each by way of 2; 7: Contains by itself; 8: no return;
   9-11: lists of rules *)
Definition always : cond := CTest 0 [].
Definition eq_ (a b : expr) : cond := CTest 1 [a; b].
Definition miss : expr := ECovered 0 (ELit (VAtom 2)).
Definition each_miss : rule := RForEach 5 (EList [ELit (VAtom 2)]) (eq_ (ECovered 0 (EVar 5)) (EVar 5)).
Definition each_same : rule := RForEach 5 (EList [ELit (VAtom 2)]) (eq_ (EVar 5) (EVar 5)).
Definition alg_rule : rule := RAlg always true (CSeq (CLet 6 (ELit (VBool true))) (CReturn (EVar 6))).
Definition ex_algs (a : nat) : option alg :=
  match a with
  | 1 => Some (mkAlg OtherAlg [1; 2] (BSteps (CSeq (CFor 3 (EVar 1) (CSeq (CIf (eq_ (EVar 3) (EVar 2)) (CReturn (EVar 3)) CNop) (CAssert always))) (CReturn (ELit (VAtom 0))))))
  | 2 => Some (mkAlg OtherAlg [] (BExpr miss))
  | 3 => Some (mkAlg Contains [] (BSteps (CReturn (ECall 2 None []))))
  | 4 => Some (mkAlg BoundNames [] (BSteps (CReturn (ECall 2 None []))))
  | 5 => Some (mkAlg OtherAlg [] (BSteps (CReturn miss)))
  | 6 => Some (mkAlg OtherAlg [] (BRules [RIf (eq_ (ECall 2 None []) (ELit (VAtom 1))); RIf always]))
  | 7 => Some (mkAlg Contains [] (BSteps (CReturn miss)))
  | 8 => Some (mkAlg OtherAlg [] (BSteps (CLet 1 (ELit (VAtom 1)))))
  | 9 => Some (mkAlg OtherAlg [] (BRules [each_same]))
  | 10 => Some (mkAlg OtherAlg [] (BRules [each_miss; each_same]))
  | 11 => Some (mkAlg OtherAlg [] (BRules [RIf (eq_ miss (ELit (VAtom 1))); RIf always; each_same]))
  | 12 => Some (mkAlg OtherAlg [] (BRules [alg_rule; alg_rule]))
  | _ => None
  end.
Notation ex_run := (run ex_prim ex_test ex_resolve ex_covered ex_algs ex_dispatch).
Definition ex_s0 : st := mkSt [] [[VAtom 7; VAtom 8; VAtom 9]] [] 0.
Definition outcome (r : st * out rv) : out rv := snd r.
(* returns from within the loop, at the second element *)
Example C35_ex_return : exists s', ex_run 20 (TCall 1 None [VList 0; VAtom 8]) ex_s0 = (s', Val (RVal (VAtom 8))) /\ stack s' = [].
Proof. eexists. split; [vm_compute; reflexivity|vm_compute; reflexivity]. Qed.
Example C35_ex_through : exists s', ex_run 20 (TCall 1 None [VList 0; VAtom 1]) ex_s0 = (s', Val (RVal (VAtom 0))) /\ stack s' = [].
Proof. eexists. split; [vm_compute; reflexivity|vm_compute; reflexivity]. Qed.
Example C35_ex_no_return : outcome (ex_run 20 (TCall 8 None []) ex_s0) = Exc (Py AssertionError).
Proof. vm_compute. reflexivity. Qed.
(* the step with a return in a loop: the step after it, which would fail, is not executed *)
Example C35_ex_big : exists s1, big ex_prim ex_test ex_resolve ex_covered ex_algs ex_dispatch
  (CSeq (CFor 3 (EList [ELit (VAtom 1)]) (CReturn (EVar 3))) (CAssert (CTest 2 []))) (mkSt [mkFrame 0 None [[]] None] [] [] 1) s1 (Some (VAtom 1)) /\ quiet s1.
Proof.
  eexists. split; [|shelve]. apply b_seq_return. eapply b_for; [exists 3; reflexivity|]. eapply e_return; [reflexivity..|]. apply b_return. exists 2. reflexivity. Unshelve. reflexivity.
Qed.
(* the missing reference by way of an expression; without it Contains gives false *)
Example C36_ex_escape : exists s', ex_run 20 (TCall 2 None []) ex_s0 = (s', Exc NoThing) /\ length (stack s') = 1.
Proof. eexists. split; [vm_compute; reflexivity|vm_compute; reflexivity]. Qed.
Example C36_ex_crash : outcome (ex_run 20 (TCall 3 None []) ex_s0) = Exc (Py AssertionError) /\ outcome (ex_run 20 (TCall 4 None []) ex_s0) = Exc (Py AssertionError) /\
  outcome (ex_run 20 (TCall 5 None []) ex_s0) = Exc (Py KeyError) /\ outcome (ex_run 20 (TCall 6 None []) ex_s0) = Exc (Py AssertionError) /\ outcome (ex_run 20 (TCall 7 None []) ex_s0) = Val (RVal (VBool false)).
Proof. vm_compute. repeat split. Qed.
(* the hypotheses of C36_crash_steps and C36_crash_rules *)
Example C36_ex_hyp : exists s2, ex_run 10 (TCmd (CReturn (ECall 2 None []))) (mkSt (mkFrame (next ex_s0) None [[]] None :: stack ex_s0) (heap ex_s0) (errs ex_s0) (S (next ex_s0))) = (s2, Exc NoThing) /\ length (stack s2) <> S (length (stack ex_s0)).
Proof. eexists. split; [vm_compute; reflexivity|vm_compute; discriminate]. Qed.
Example C36_ex_hyp_rules : exists s2, ex_run 10 (TRule (RIf (eq_ (ECall 2 None []) (ELit (VAtom 1))))) (mkSt (mkFrame (next ex_s0) None [[]] None :: stack ex_s0) (heap ex_s0) (errs ex_s0) (S (next ex_s0))) = (s2, Exc NoThing) /\ length (stack s2) <> S (length (stack ex_s0)).
Proof. eexists. split; [vm_compute; reflexivity|vm_compute; discriminate]. Qed.

Lemma run_stays prim test resolve covered algs dispatch m n t s e : m <= n -> snd (run prim test resolve covered algs dispatch m t s) = Exc e -> e <> Py OutOfFuel -> snd (run prim test resolve covered algs dispatch n t s) = Exc e.
Proof.
  intros L H N. destruct (run prim test resolve covered algs dispatch m t s) as [s' o] eqn:E. cbn in H. subst o. rewrite (run_mono _ _ _ _ _ _ m n t L _ _ _ E); [reflexivity|congruence].
Qed.
(* an abandoned rule leaves its contour open: a rule that by itself finds its error fails after it, if it uses the same variable *)
Theorem C46_refuted : exists prim test resolve covered algs dispatch r1 r2 s,
  algs 0 = Some (mkAlg OtherAlg [] (BRules [r2])) /\ algs 1 = Some (mkAlg OtherAlg [] (BRules [r1; r2])) /\
  (exists s', run prim test resolve covered algs dispatch 20 (TCall 0 None []) s = (s', Val RNone) /\ length (errs s') = 1) /\
  forall n, 20 <= n -> snd (run prim test resolve covered algs dispatch n (TCall 1 None []) s) = Exc (Py AssertionError).
Proof.
  exists ex_prim, ex_test, ex_resolve, ex_covered, (fun a => match a with 0 => ex_algs 9 | _ => ex_algs 10 end), ex_dispatch, each_miss, each_same, ex_s0.
  split; [reflexivity|]. split; [reflexivity|]. split; [eexists; split; vm_compute; reflexivity|].
  intros n L. apply (run_stays _ _ _ _ _ _ 20); [exact L|vm_compute; reflexivity|discriminate].
Qed.
Print Assumptions C46_refuted.
(* so do the variables of an algorithm in a rule, even one that is completed *)
Theorem C46_algorithms_refuted : exists prim test resolve covered algs dispatch r s,
  algs 0 = Some (mkAlg OtherAlg [] (BRules [r])) /\ algs 1 = Some (mkAlg OtherAlg [] (BRules [r; r])) /\
  (exists s', run prim test resolve covered algs dispatch 20 (TCall 0 None []) s = (s', Val RNone) /\ length (errs s') = 1) /\
  forall n, 20 <= n -> snd (run prim test resolve covered algs dispatch n (TCall 1 None []) s) = Exc (Py AssertionError).
Proof.
  exists ex_prim, ex_test, ex_resolve, ex_covered, (fun a => match a with 0 => Some (mkAlg OtherAlg [] (BRules [alg_rule])) | _ => ex_algs 12 end), ex_dispatch, alg_rule, ex_s0.
  split; [reflexivity|]. split; [reflexivity|]. split; [eexists; split; vm_compute; reflexivity|].
  intros n L. apply (run_stays _ _ _ _ _ _ 20); [exact L|vm_compute; reflexivity|discriminate].
Qed.
Print Assumptions C46_algorithms_refuted.
(* a rule abandoned outside of its contours does no harm *)
Example C46_ex_fine : exists s', ex_run 20 (TCall 11 None []) ex_s0 = (s', Val RNone) /\ length (errs s') = 2.
Proof. eexists. split; [vm_compute; reflexivity|vm_compute; reflexivity]. Qed.
Example C46_ex_restored : exists s', ex_run 20 (TRule each_same) (mkSt [mkFrame 0 None [[(1, VAtom 3)]] None] [] [] 1) = (s', Val RNone) /\ stack s' = [mkFrame 0 None [[(1, VAtom 3)]] None] /\ errs s' = [0].
Proof. eexists. split; [|split]; vm_compute; reflexivity. Qed.
Example C47_ex_endless : exists s', ex_run 100 (TCmd (CFor 3 (EVar 1) (CAppend (EVar 3) (EVar 1)))) (mkSt [mkFrame 0 None [[(1, VList 0)]] None] [[VAtom 7]] [] 1) = (s', Exc (Py OutOfFuel)).
Proof. eapply C47_endless; try reflexivity; discriminate. Qed.
Example C47_ex_in_turn : exists s1 s2, evals ex_prim ex_test ex_resolve ex_covered ex_algs ex_dispatch (EVar 1) s1 s1 (VList 0) /\ nth_error (heap s1) 0 = Some [VAtom 7; VAtom 8] /\
  (forall t t' q, big ex_prim ex_test ex_resolve ex_covered ex_algs ex_dispatch (CSet 2 (EVar 3)) t t' q -> nth_error (heap t) 0 = Some [VAtom 7; VAtom 8] -> nth_error (heap t') 0 = Some [VAtom 7; VAtom 8]) /\
  big ex_prim ex_test ex_resolve ex_covered ex_algs ex_dispatch (CFor 3 (EVar 1) (CSet 2 (EVar 3))) s1 s2 None /\ top_contours s2 = [[(1, VList 0); (2, VAtom 8)]].
Proof.
  exists (mkSt [mkFrame 0 None [[(1, VList 0); (2, VAtom 0)]] None] [[VAtom 7; VAtom 8]] [] 1). eexists.
  split; [exists 2; reflexivity|]. split; [reflexivity|]. split.
  { intros t t' q H K. inversion H as [|? ? ? s1 ? ? (n & E) G| | | | | | | | |]; subst. destruct n as [|n]; [discriminate|]. cbn [M_Exec.run M_Exec.step] in E. apply bindM_val in E as (sa & u & Eg & E). apply guard_quiet in Eg as [-> _]. apply bindM_val in E as (sb & f & Eg & E). apply curr_val in Eg as [-> _]. apply bindM_val in E as (sc & w & Eg & E). apply lift_val in Eg as [-> _]. injection E as <- _. now rewrite heap_with. }
  split; [|shelve]. eapply b_for; [exists 2; reflexivity|]. eapply e_step; [reflexivity..| |]. { eapply b_set; [exists 2; reflexivity|reflexivity]. }
  eapply e_step; [reflexivity..| |]. { eapply b_set; [exists 2; reflexivity|reflexivity]. } eapply e_end; reflexivity.
  Unshelve. reflexivity.
Qed.
