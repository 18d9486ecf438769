(* What conditions and expressions mean, what rules find, and which errors get recorded (M_Exec). *)
From Verif Require Import M_Base L_Base M_Dict L_Dict M_Exec L_Exec L_ExecStack L_ExecBig.

(* unless something else than a missing reference is raised, the recorded errors stay as they are *)
Definition keeps {A} (m : M A) : Prop := forall s s' o, m s = (s', o) -> (forall e, o <> Exc (Py e)) -> errs s' = errs s.
Lemma keeps_bind {A B} (m : M A) (k : A -> M B) : keeps m -> (forall a, keeps (k a)) -> keeps (bindM m k).
Proof.
  intros Hm Hk s s' o. unfold bindM. destruct (m s) as [s1 [a|e]] eqn:E.
  - intros H N. transitivity (errs s1); [exact (Hk a _ _ _ H N)|]. apply (Hm _ _ _ E). discriminate.
  - intros [= <- <-] N. apply (Hm _ _ _ E). intros x [= ->]. now apply (N x).
Qed.
Lemma keeps_ret {A} (a : A) : keeps (ret a).
Proof. intros s s' o [= <- <-] _. reflexivity. Qed.
Lemma keeps_raise {A} e : keeps (@raise A e).
Proof. intros s s' o [= <- <-] _. reflexivity. Qed.
Lemma keeps_lift {A} (r : res A) : keeps (lift r).
Proof. intros s s' o H _. unfold lift in H. destruct r; now injection H as <- _. Qed.
Lemma keeps_try {A} (m h : M A) : keeps m -> keeps h -> keeps (try_ m h).
Proof.
  intros Hm Hh s s' o. unfold try_. destruct (m s) as [s1 [a|[|e]]] eqn:E.
  - intros [= <- <-] N. exact (Hm _ _ _ E N).
  - intros H N. transitivity (errs s1); [exact (Hh _ _ _ H N)|]. apply (Hm _ _ _ E). discriminate.
  - intros [= <- <-] N. exact (Hm _ _ _ E N).
Qed.
Lemma keeps_curr : keeps curr_frame.
Proof. intros s s' o H _. unfold curr_frame in H. destruct (stack s); now injection H as <- _. Qed.
Lemma keeps_put f : keeps (put_frame f).
Proof. intros s s' o H _. unfold put_frame in H. destruct (stack s); now injection H as <- _. Qed.
Lemma keeps_on_contours g : keeps (on_contours g).
Proof. apply keeps_bind; [apply keeps_curr|]. intros f. apply keeps_bind; [apply keeps_lift|]. intros cs. apply keeps_put. Qed.
Lemma keeps_assert b : keeps (assertM b).
Proof. unfold assertM. destruct b; [apply keeps_ret|apply keeps_raise]. Qed.
Lemma keeps_guard : keeps guard.
Proof. apply keeps_bind; [apply keeps_curr|]. intros f. apply keeps_assert. Qed.
Lemma keeps_start v : keeps (start_returning v).
Proof. apply keeps_bind; [apply keeps_curr|]. intros f. apply keeps_bind; [apply keeps_assert|]. intros _. apply keeps_put. Qed.
Lemma keeps_elements l : keeps (elements l).
Proof. intros s s' o H _. unfold elements in H. destruct (nth_error _ _); now injection H as <- _. Qed.
Lemma keeps_append l v : keeps (append_one l v).
Proof. apply keeps_bind; [apply keeps_elements|]. intros vs s s' o [= <- <-] _. reflexivity. Qed.
Lemma keeps_list_at v : keeps (list_at v).
Proof. destruct v; [apply keeps_raise|apply keeps_raise|apply keeps_ret] || (destruct v; first [apply keeps_ret|apply keeps_raise]). Qed.
Lemma keeps_new_list vs : keeps (new_list vs).
Proof. intros s s' o [= <- <-] _. reflexivity. Qed.
Lemma keeps_get : keeps get.
Proof. intros s s' o [= <- <-] _. reflexivity. Qed.
Lemma keeps_own i : keeps (own_frame i).
Proof. intros s s' o H _. unfold own_frame in H. destruct (find _ _); now injection H as <- _. Qed.
Lemma keeps_push fo cs : keeps (push_frame fo cs).
Proof. intros s s' o [= <- <-] _. reflexivity. Qed.
Lemma keeps_pop i : keeps (pop_frame i).
Proof. intros s s' o H _. unfold pop_frame in H. destruct (stack s); [now injection H as <- _|]. destruct (fid f =? i); now injection H as <- _. Qed.
Lemma keeps_as_val r : keeps (as_val r).
Proof. destruct r; first [apply keeps_ret|apply keeps_raise]. Qed.
Lemma keeps_as_vals r : keeps (as_vals r).
Proof. destruct r; first [apply keeps_ret|apply keeps_raise]. Qed.
Lemma keeps_as_bool r : keeps (as_bool r).
Proof. destruct r; first [apply keeps_ret|apply keeps_raise]. Qed.
Lemma keeps_as_none r : keeps (as_none r).
Proof. destruct r; first [apply keeps_ret|apply keeps_raise]. Qed.
Create HintDb keeps.
#[export] Hint Resolve keeps_ret keeps_raise keeps_lift keeps_curr keeps_put keeps_on_contours keeps_assert keeps_guard keeps_start keeps_elements keeps_append keeps_list_at keeps_new_list keeps_get keeps_own keeps_push keeps_pop keeps_as_val keeps_as_vals keeps_as_bool keeps_as_none : keeps.

(* recorded errors are only added to *)
Definition grows {A} (m : M A) : Prop := forall s s' o, m s = (s', o) -> exists l, errs s' = errs s ++ l.
Lemma grows_bind {A B} (m : M A) (k : A -> M B) : grows m -> (forall a, grows (k a)) -> grows (bindM m k).
Proof.
  intros Hm Hk s s' o. unfold bindM. destruct (m s) as [s1 [a|e]] eqn:E; apply Hm in E as (l & E).
  - intros H. apply Hk in H as (l' & H). exists (l ++ l'). now rewrite H, E, app_assoc.
  - intros [= <- <-]. eauto.
Qed.
Lemma grows_try {A} (m h : M A) : grows m -> grows h -> grows (try_ m h).
Proof.
  intros Hm Hh s s' o. unfold try_. destruct (m s) as [s1 [a|[|e]]] eqn:E; apply Hm in E as (l & E).
  - intros [= <- <-]. eauto.
  - intros H. apply Hh in H as (l' & H). exists (l ++ l'). now rewrite H, E, app_assoc.
  - intros [= <- <-]. eauto.
Qed.
Definition fixed {A} (m : M A) : Prop := forall s s' o, m s = (s', o) -> errs s' = errs s.
Lemma fixed_grows {A} (m : M A) : fixed m -> grows m.
Proof. intros F s s' o H. exists []. rewrite app_nil_r. exact (F _ _ _ H). Qed.
Lemma fixed_bind {A B} (m : M A) (k : A -> M B) : fixed m -> (forall a, fixed (k a)) -> fixed (bindM m k).
Proof.
  intros Hm Hk s s' o. unfold bindM. destruct (m s) as [s1 [a|e]] eqn:E; apply Hm in E.
  - intros H. apply Hk in H. congruence.
  - intros [= <- <-]. exact E.
Qed.
Ltac fx := intros ? ? ? HH; cbv beta delta [ret raise lift curr_frame put_frame assertM elements list_at new_list get own_frame push_frame pop_frame as_val as_vals as_bool as_none] in HH;
  repeat match type of HH with context [match ?x with _ => _ end] => destruct x end; now injection HH as <- _.
Lemma grows_ret {A} (a : A) : grows (ret a). Proof. apply fixed_grows. fx. Qed.
Lemma grows_raise {A} e : grows (@raise A e). Proof. apply fixed_grows. fx. Qed.
Lemma grows_lift {A} (r : res A) : grows (lift r). Proof. apply fixed_grows. fx. Qed.
Lemma grows_curr : grows curr_frame. Proof. apply fixed_grows. fx. Qed.
Lemma grows_put f : grows (put_frame f). Proof. apply fixed_grows. fx. Qed.
Lemma grows_assert b : grows (assertM b). Proof. apply fixed_grows. fx. Qed.
Lemma grows_elements l : grows (elements l). Proof. apply fixed_grows. fx. Qed.
Lemma grows_list_at v : grows (list_at v). Proof. apply fixed_grows. fx. Qed.
Lemma grows_new_list v : grows (new_list v). Proof. apply fixed_grows. fx. Qed.
Lemma grows_get : grows get. Proof. apply fixed_grows. fx. Qed.
Lemma grows_own i : grows (own_frame i). Proof. apply fixed_grows. fx. Qed.
Lemma grows_push a b : grows (push_frame a b). Proof. apply fixed_grows. fx. Qed.
Lemma grows_pop i : grows (pop_frame i). Proof. apply fixed_grows. fx. Qed.
Lemma grows_as_val r : grows (as_val r). Proof. apply fixed_grows. fx. Qed.
Lemma grows_as_vals r : grows (as_vals r). Proof. apply fixed_grows. fx. Qed.
Lemma grows_as_bool r : grows (as_bool r). Proof. apply fixed_grows. fx. Qed.
Lemma grows_as_none r : grows (as_none r). Proof. apply fixed_grows. fx. Qed.
Lemma grows_on_contours g : grows (on_contours g).
Proof. apply grows_bind; [apply grows_curr|]. intros f. apply grows_bind; [apply grows_lift|]. intros cs. apply grows_put. Qed.
Lemma grows_guard : grows guard.
Proof. apply grows_bind; [apply grows_curr|]. intros f. apply grows_assert. Qed.
Lemma grows_start v : grows (start_returning v).
Proof. apply grows_bind; [apply grows_curr|]. intros f. apply grows_bind; [apply grows_assert|]. intros _. apply grows_put. Qed.
Lemma grows_stop : grows stop_returning.
Proof. apply grows_bind; [apply grows_curr|]. intros f. apply grows_bind; [apply grows_lift|]. intros _. apply grows_put. Qed.
Lemma grows_append l v : grows (append_one l v).
Proof. apply grows_bind; [apply grows_elements|]. intros vs s s' o [= <- <-]. exists []. now rewrite app_nil_r. Qed.
Lemma grows_error : grows it_is_a_syntax_error.
Proof. apply grows_bind; [apply grows_curr|]. intros f s s' o [= <- <-]. cbn. eauto. Qed.
Create HintDb grows.
#[export] Hint Resolve grows_ret grows_raise grows_lift grows_curr grows_put grows_on_contours grows_assert grows_guard grows_start grows_stop grows_elements grows_append grows_list_at grows_new_list grows_get grows_own grows_push grows_pop grows_as_val grows_as_vals grows_as_bool grows_as_none grows_error : grows.

(* the error is recorded under the identity of the frame on top *)
Definition top_id (s : st) : nat := match stack s with f :: _ => fid f | [] => 0 end.
Definition top_focus (s : st) : option val := match stack s with f :: _ => f_focus f | [] => None end.
Definition record (b : bool) (s : st) : st := mkSt (stack s) (heap s) (errs s ++ (if b then [top_id s] else [])) (next s).

Section Exec.
  Variable prim : nat -> list (list val) -> list val -> res val.
  Variable test : nat -> list (list val) -> list val -> res bool.
  Variable resolve : nat -> option val -> res val.
  Variable covered : nat -> val -> option val.
  Variable algs : nat -> option alg.
  Variable dispatch : nat -> option val -> res ((nat * option val) + val).
  Notation run := (run prim test resolve covered algs dispatch).
  Notation evals := (evals prim test resolve covered algs dispatch).
  Notation holds := (holds prim test resolve covered algs dispatch).
  Notation big := (big prim test resolve covered algs dispatch).

  Ltac grw := repeat (first [progress auto with grows | apply grows_bind; [|intros ?] | apply grows_try | match goal with |- grows (match ?x with _ => _ end) => destruct x end]).
  Lemma run_grows n : forall t, grows (run n t).
  Proof.
    induction n as [|n IH]; intros t; [apply grows_raise|]. destruct t; cbn [M_Exec.run step]; grw.
  Qed.
  Ltac kp := repeat (first [progress auto with keeps | apply keeps_bind; [|intros ?] | apply keeps_try | match goal with |- keeps (match ?x with _ => _ end) => destruct x end]).
  Lemma rules_none own rs : forall n s s' v, run n (TRules own rs) s = (s', Val v) -> v = RNone.
  Proof.
    induction rs as [|r rs IH]; intros [|n] s s' v H; cbn [M_Exec.run step] in H; try discriminate; [now apply ret_val in H|].
    apply bindM_val in H as (s1 & u & _ & H). apply bindM_val in H as (s2 & f & _ & H). apply bindM_val in H as (s3 & u' & _ & H). now apply IH in H.
  Qed.
  (* tasks other than the rules and what calls them *)
  Definition plain (t : task) : bool := match t with TRule _ | TRules _ _ | TRuleLoop _ _ _ _ | TApply _ | TCall _ _ _ => false | _ => true end.
  Lemma run_keeps n : (forall t, plain t = true -> keeps (run n t)) /\
    (forall a fo args, keeps (bindM (run n (TCall a fo args)) as_val)).
  Proof.
    induction n as [|n [IH IHc]]; [split; [intros; apply keeps_raise|intros a fo args s s' o [= <- <-] _; reflexivity]|]. split.
    - assert (K : forall a fo args, keeps (run! r <- run n (TCall a fo args) ;; run! v <- as_val r ;; ret (RVal v))).
      { intros a fo args s s' q H N. eapply (keeps_bind _ (fun v => ret (RVal v)) (IHc a fo args) (fun v => keeps_ret _)); [|exact N]. rewrite <- H. unfold bindM. destruct (run n _ s) as [s1 [r|e]]; [|reflexivity]. destruct (as_val r s1) as [s2 [w|e]]; reflexivity. }
      intros t P. destruct t; try discriminate P; cbn [M_Exec.run step]; kp.
    - intros a fo args. cbn [M_Exec.run step]. destruct (algs a) as [al|]; [|intros s s' o [= <- <-] _; reflexivity]. destruct (a_body al) as [rs|c|e].
      + intros s s' o H N. exfalso. unfold bindM at 1 in H. match type of H with (let (_, _) := ?m in _) = _ => destruct m as [s1 [r|x]] eqn:E end.
        * assert (r = RNone); [|subst r; injection H as _ <-; now apply (N AssertionError)]. apply bindM_val in E as (s2 & cs & _ & E). apply bindM_val in E as (s3 & i & _ & E). apply bindM_val in E as (s4 & r' & H4 & E). apply bindM_val in E as (s5 & u & _ & E). apply ret_val in E as [_ ->]. eapply rules_none; exact H4.
        * injection H as <- <-. destruct x as [|x]; [|now apply (N x)]. apply nothing_bind in E as [E|(s2 & cs & _ & E)]; [now apply nothing_lift in E|]. apply nothing_bind in E as [E|(s3 & i & _ & E)]; [discriminate|]. apply nothing_bind in E as [E|(s4 & r' & _ & E)]; [now apply rules_catch in E|]. apply nothing_bind in E as [E|(s5 & u & _ & E)]; [now apply pop_nothing in E|discriminate].
      + kp.
      + kp.
  Qed.
  Lemma evals_errs e s s' v : evals e s s' v -> errs s' = errs s.
  Proof. intros (n & H). apply (proj1 (run_keeps n) (TExpr e) eq_refl _ _ _ H). discriminate. Qed.
  Lemma holds_errs c s s' b : holds c s s' b -> errs s' = errs s.
  Proof. intros (n & H). apply (proj1 (run_keeps n) (TCond c) eq_refl _ _ _ H). discriminate. Qed.

  Ltac fuel n := exists (S n); cbn [M_Exec.run M_Exec.step]; try match goal with Q : quiet ?s |- bindM guard _ ?s = _ => rewrite (bindM_eq _ _ _ _ _ (guard_ok s Q)) end.
  Notation up := (up prim test resolve covered algs dispatch).

  (* the conditions are evaluated in turn, each giving b *)
  Fixpoint in_seq (b : bool) (cs : list cond) (s s' : st) : Prop :=
    match cs with [] => s' = s | c :: cs' => exists s1, holds c s s1 b /\ in_seq b cs' s1 s' end.
  Definition decided (w : bool) (cs : list cond) (s s' : st) (b : bool) : Prop :=
    (b = negb w /\ in_seq (negb w) cs s s') \/ (b = w /\ exists pre c post s1, cs = pre ++ c :: post /\ in_seq (negb w) pre s s1 /\ holds c s1 s' w).
  Lemma cd_val n c s s' b : bindM (run n (TCond c)) as_bool s = (s', Val b) -> holds c s s' b.
  Proof. intros H. apply bindM_val in H as (s1 & r & H & K). apply as_bool_val in K as [-> ->]. now exists n. Qed.
  Lemma ex_val n e s s' v : bindM (run n (TExpr e)) as_val s = (s', Val v) -> evals e s s' v.
  Proof. intros H. apply bindM_val in H as (s1 & r & H & K). apply as_val_val in K as [-> ->]. now exists n. Qed.
  Lemma decided_nil w s s' b : decided w [] s s' b <-> b = negb w /\ s' = s.
  Proof. split; [intros [[-> H]|(_ & pre & c & post & s1 & E & _)]; [now split|now destruct pre]|]. intros [-> ->]. left. now split. Qed.
  Lemma decided_cons w c cs s s' b : decided w (c :: cs) s s' b <-> (b = w /\ holds c s s' w) \/ exists s1, holds c s s1 (negb w) /\ decided w cs s1 s' b.
  Proof.
    split.
    - intros [[-> (s1 & H & K)]|(-> & pre & c' & post & s1 & E & K & H)].
      + right. exists s1. split; [exact H|]. left. now split.
      + destruct pre as [|p pre]; cbn in E; injection E as <- ->; [cbn in K; subst s1; left; now split|]. cbn in K. destruct K as (s2 & K1 & K2). right. exists s2. split; [exact K1|]. right. split; [reflexivity|]. exists pre, c', post, s1. auto.
    - intros [[-> H]|(s1 & H & [[-> K]|(-> & pre & c' & post & s2 & -> & K & J)])].
      + right. split; [reflexivity|]. exists [], c, cs, s. cbn. auto.
      + left. split; [reflexivity|]. cbn. eauto.
      + right. split; [reflexivity|]. exists (c :: pre), c', post, s2. cbn. repeat split; eauto.
  Qed.
  Lemma any_iff cs : forall s s' r, (exists n, run n (TAny cs) s = (s', Val r)) <-> exists b, r = RBool b /\ decided true cs s s' b.
  Proof.
    induction cs as [|c cs IH]; intros s s' r.
    - split.
      + intros ([|n] & H); [discriminate|]. cbn in H. injection H as <- <-. exists false. split; [reflexivity|]. now apply decided_nil.
      + intros (b & -> & D). apply decided_nil in D as [-> ->]. now exists 1.
    - split.
      + intros ([|n] & H); [discriminate|]. cbn [M_Exec.run step] in H. apply bindM_val in H as (s1 & b & H & K). apply cd_val in H. destruct b.
        * apply ret_val in K as [-> ->]. exists true. split; [reflexivity|]. apply decided_cons. left. now split.
        * assert (K' : exists n, run n (TAny cs) s1 = (s', Val r)) by now exists n. apply IH in K' as (b & -> & K'). exists b. split; [reflexivity|]. apply decided_cons. right. exists s1. now split.
      + intros (b & -> & D). apply decided_cons in D as [[-> (n & H)]|(s1 & (n & H) & D)].
        * exists (S n). cbn [M_Exec.run step]. rewrite (cd_eq _ _ _ _ _ H). reflexivity.
        * assert (K : exists b', RBool b = RBool b' /\ decided true cs s1 s' b') by now exists b. apply IH in K as (m & K). exists (S (n + m)). cbn [M_Exec.run step]. apply (up n (n + m)) in H; [|lia]. apply (up m (n + m)) in K; [|lia]. rewrite (cd_eq _ _ _ _ _ H). exact K.
  Qed.
  Lemma all_iff cs : forall s s' r, (exists n, run n (TAll cs) s = (s', Val r)) <-> exists b, r = RBool b /\ decided false cs s s' b.
  Proof.
    induction cs as [|c cs IH]; intros s s' r.
    - split.
      + intros ([|n] & H); [discriminate|]. cbn in H. injection H as <- <-. exists true. split; [reflexivity|]. now apply decided_nil.
      + intros (b & -> & D). apply decided_nil in D as [-> ->]. now exists 1.
    - split.
      + intros ([|n] & H); [discriminate|]. cbn [M_Exec.run step] in H. apply bindM_val in H as (s1 & b & H & K). apply cd_val in H. destruct b.
        * assert (K' : exists n, run n (TAll cs) s1 = (s', Val r)) by now exists n. apply IH in K' as (b & -> & K'). exists b. split; [reflexivity|]. apply decided_cons. right. exists s1. now split.
        * apply ret_val in K as [-> ->]. exists false. split; [reflexivity|]. apply decided_cons. left. now split.
      + intros (b & -> & D). apply decided_cons in D as [[-> (n & H)]|(s1 & (n & H) & D)].
        * exists (S n). cbn [M_Exec.run step]. rewrite (cd_eq _ _ _ _ _ H). reflexivity.
        * assert (K : exists b', RBool b = RBool b' /\ decided false cs s1 s' b') by now exists b. apply IH in K as (m & K). exists (S (n + m)). cbn [M_Exec.run step]. apply (up n (n + m)) in H; [|lia]. apply (up m (n + m)) in K; [|lia]. rewrite (cd_eq _ _ _ _ _ H). exact K.
  Qed.
  Lemma or_iff cs s s' b : quiet s -> holds (COr cs) s s' b <-> decided true cs s s' b.
  Proof.
    intros Q. split.
    - intros ([|n] & H); [discriminate|]. cbn [M_Exec.run step] in H. rewrite (bindM_eq _ _ _ _ _ (guard_ok s Q)) in H. assert (K : exists n, run n (TAny cs) s = (s', Val (RBool b))) by now exists n. apply any_iff in K as (b' & [= <-] & K). exact K.
    - intros D. assert (K : exists b', RBool b = RBool b' /\ decided true cs s s' b') by now exists b. apply any_iff in K as (n & K). fuel n. exact K.
  Qed.
  Lemma and_iff cs s s' b : quiet s -> holds (CAnd cs) s s' b <-> decided false cs s s' b.
  Proof.
    intros Q. split.
    - intros ([|n] & H); [discriminate|]. cbn [M_Exec.run step] in H. rewrite (bindM_eq _ _ _ _ _ (guard_ok s Q)) in H. assert (K : exists n, run n (TAll cs) s = (s', Val (RBool b))) by now exists n. apply all_iff in K as (b' & [= <-] & K). exact K.
    - intros D. assert (K : exists b', RBool b = RBool b' /\ decided false cs s s' b') by now exists b. apply all_iff in K as (n & K). fuel n. exact K.
  Qed.
  Lemma unless_iff a c s s' b : quiet s -> holds (CUnless a c) s s' b <-> (holds a s s' false /\ b = false) \/ exists s1, holds a s s1 true /\ holds c s1 s' (negb b).
  Proof.
    intros Q. split.
    - intros ([|n] & H); [discriminate|]. cbn [M_Exec.run step] in H. rewrite (bindM_eq _ _ _ _ _ (guard_ok s Q)) in H. apply bindM_val in H as (s1 & x & H & K). apply cd_val in H. destruct x.
      + apply bindM_val in K as (s2 & y & K & J). apply cd_val in K. apply ret_val in J as [-> [= ->]]. right. exists s1. rewrite negb_involutive. auto.
      + apply ret_val in K as [-> [= ->]]. auto.
    - intros [[(n & H) ->]|(s1 & (n & H) & (m & K))].
      + fuel n. rewrite (cd_eq _ _ _ _ _ H). reflexivity.
      + apply (up n (n + m)) in H; [|lia]. apply (up m (n + m)) in K; [|lia]. fuel (n + m). rewrite (cd_eq _ _ _ _ _ H). cbn iota. rewrite (cd_eq _ _ _ _ _ K). cbn. now rewrite negb_involutive.
  Qed.
  (* the expressions are evaluated in turn *)
  Fixpoint eval_seq (es : list expr) (s s' : st) (vs : list val) : Prop :=
    match es, vs with [], [] => s' = s | e :: es', v :: vs' => exists s1, evals e s s1 v /\ eval_seq es' s1 s' vs' | _, _ => False end.
  Lemma exprs_iff es : forall s s' r, (exists n, run n (TExprs es) s = (s', Val r)) <-> exists vs, r = RVals vs /\ eval_seq es s s' vs.
  Proof.
    induction es as [|e es IH]; intros s s' r.
    - split.
      + intros ([|n] & H); [discriminate|]. cbn in H. injection H as <- <-. now exists [].
      + intros ([|v vs] & -> & D); [|easy]. cbn in D. subst s'. now exists 1.
    - split.
      + intros ([|n] & H); [discriminate|]. cbn [M_Exec.run step] in H. apply bindM_val in H as (s1 & v & H & K). apply ex_val in H. apply bindM_val in K as (s2 & vs & K & J). apply ret_val in J as [-> ->]. apply bindM_val in K as (s3 & r & K & J). apply as_vals_val in J as [-> ->].
        assert (K' : exists n, run n (TExprs es) s1 = (s3, Val (RVals vs))) by now exists n. apply IH in K' as (vs' & [= <-] & K'). exists (v :: vs). split; [reflexivity|]. exists s1. now split.
      + intros ([|v vs] & -> & D); [easy|]. destruct D as (s1 & (n & H) & D). assert (K : exists vs', RVals vs = RVals vs' /\ eval_seq es s1 s' vs') by now exists vs. apply IH in K as (m & K). exists (S (n + m)). cbn [M_Exec.run step]. apply (up n (n + m)) in H; [|lia]. apply (up m (n + m)) in K; [|lia]. rewrite (ex_eq _ _ _ _ _ H). unfold bindM. rewrite K. reflexivity.
  Qed.

  Ltac opn H Q := destruct H as ([|n] & H); [discriminate|]; cbn [M_Exec.run M_Exec.step] in H; rewrite (bindM_eq _ _ _ _ _ (guard_ok _ Q)) in H.
  Lemma exs_val n es s s' vs : bindM (run n (TExprs es)) as_vals s = (s', Val vs) -> eval_seq es s s' vs.
  Proof. intros H. apply bindM_val in H as (s1 & r & H & K). apply as_vals_val in K as [-> ->]. assert (X : exists n, run n (TExprs es) s = (s1, Val (RVals vs))) by now exists n. apply exprs_iff in X as (vs' & [= <-] & X). exact X. Qed.
  Lemma exs_fuel es s s' vs : eval_seq es s s' vs -> exists n, run n (TExprs es) s = (s', Val (RVals vs)).
  Proof. intros H. apply exprs_iff. now exists vs. Qed.
  Lemma exs_eq {B} (m : M rv) (k : list val -> M B) s s1 v : m s = (s1, Val (RVals v)) -> bindM (bindM m (fun r => as_vals r)) k s = k v s1.
  Proof. unfold bindM. now intros ->. Qed.
  Lemma var_iff x s s' v : quiet s -> evals (EVar x) s s' v <-> s' = s /\ get_var (top_contours s) x = Ok v.
  Proof.
    intros Q. split.
    - intros H. opn H Q. apply bindM_val in H as (s1 & f & H & K). apply curr_val in H as [-> (r & E)]. apply bindM_val in K as (s2 & w & K & J). apply lift_val in K as [-> K]. apply ret_val in J as [-> [= ->]]. unfold top_contours. rewrite E. auto.
    - intros [-> G]. fuel 0. unfold bindM, curr_frame. unfold top_contours in G. apply quiet_stack in Q. destruct (stack s); [easy|]. now rewrite G.
  Qed.
  Lemma focus_iff k s s' v : quiet s -> evals (EFocus k) s s' v <-> s' = s /\ resolve k (top_focus s) = Ok v.
  Proof.
    intros Q. split.
    - intros H. opn H Q. apply bindM_val in H as (s1 & f & H & K). apply curr_val in H as [-> (r & E)]. apply bindM_val in K as (s2 & w & K & J). apply lift_val in K as [-> K]. apply ret_val in J as [-> [= ->]]. unfold top_focus. rewrite E. auto.
    - intros [-> G]. fuel 0. unfold bindM, curr_frame. unfold top_focus in G. apply quiet_stack in Q. destruct (stack s); [easy|]. now rewrite G.
  Qed.
  Lemma prim_iff k es s s' v : quiet s -> evals (EPrim k es) s s' v <-> exists vs, eval_seq es s s' vs /\ prim k (heap s') vs = Ok v.
  Proof.
    intros Q. split.
    - intros H. opn H Q. apply bindM_val in H as (s1 & vs & H & K). apply exs_val in H. apply bindM_val in K as (s2 & w & K & J). apply get_val in K as [-> ->]. apply bindM_val in J as (s3 & u & K & J). apply lift_val in K as [-> K]. apply ret_val in J as [-> [= ->]]. eauto.
    - intros (vs & H & G). apply exs_fuel in H as (n & H). fuel n. rewrite (exs_eq _ _ _ _ _ H). unfold bindM, get. now rewrite G.
  Qed.
  Lemma test_iff k es s s' b : quiet s -> holds (CTest k es) s s' b <-> exists vs, eval_seq es s s' vs /\ test k (heap s') vs = Ok b.
  Proof.
    intros Q. split.
    - intros H. opn H Q. apply bindM_val in H as (s1 & vs & H & K). apply exs_val in H. apply bindM_val in K as (s2 & w & K & J). apply get_val in K as [-> ->]. apply bindM_val in J as (s3 & u & K & J). apply lift_val in K as [-> K]. apply ret_val in J as [-> [= ->]]. eauto.
    - intros (vs & H & G). apply exs_fuel in H as (n & H). fuel n. rewrite (exs_eq _ _ _ _ _ H). unfold bindM, get. now rewrite G.
  Qed.
  Lemma list_iff es s s' v : quiet s -> evals (EList es) s s' v <-> exists s1 vs, eval_seq es s s1 vs /\ v = VList (length (heap s1)) /\ s' = mkSt (stack s1) (heap s1 ++ [vs]) (errs s1) (next s1).
  Proof.
    intros Q. split.
    - intros H. opn H Q. apply bindM_val in H as (s1 & vs & H & K). apply exs_val in H. apply bindM_val in K as (s2 & w & K & J). unfold new_list in K. injection K as <- <-. apply ret_val in J as [-> [= ->]]. exists s1, vs. auto.
    - intros (s1 & vs & H & -> & ->). apply exs_fuel in H as (n & H). fuel n. rewrite (exs_eq _ _ _ _ _ H). reflexivity.
  Qed.
  Lemma covered_iff k e s s' w : quiet s -> evals (ECovered k e) s s' w <-> exists v, evals e s s' v /\ covered k v = Some w.
  Proof.
    intros Q. split.
    - intros H. opn H Q. apply bindM_val in H as (s1 & v & H & K). apply ex_val in H. destruct (covered k v) eqn:E; [|discriminate]. apply ret_val in K as [-> [= ->]]. eauto.
    - intros (v & (n & H) & G). fuel n. rewrite (ex_eq _ _ _ _ _ H). now rewrite G.
  Qed.
  Lemma ifexpr_iff ea c eb s s' v : quiet s -> evals (EIf ea c eb) s s' v <-> exists s1, (holds c s s1 true /\ evals ea s1 s' v) \/ (holds c s s1 false /\ evals eb s1 s' v).
  Proof.
    intros Q. split.
    - intros H. opn H Q. apply bindM_val in H as (s1 & b & H & K). apply cd_val in H. apply bindM_val in K as (s2 & w & K & J). apply ex_val in K. apply ret_val in J as [-> [= ->]]. exists s1. destruct b; auto.
    - intros (s1 & [[(n & H) (m & K)]|[(n & H) (m & K)]]); apply (up n (n + m)) in H; try lia; apply (up m (n + m)) in K; try lia; fuel (n + m); rewrite (cd_eq _ _ _ _ _ H); cbn iota; now rewrite (ex_eq _ _ _ _ _ K).
  Qed.
  (* e's value is bound to x during the evaluation of ea only *)
  Lemma where_iff ea x eb s s' w : quiet s -> evals (EWhere ea x eb) s s' w <->
    exists s1 v cs s2, evals eb s s1 v /\ let_var ([] :: top_contours s1) x v = Ok cs /\ evals ea (with_contours cs s1) s2 w /\ s' = with_contours (top_contours s1) s2.
  Proof.
    intros Q. split.
    - intros H. opn H Q. apply bindM_val in H as (s1 & v & H & K). apply ex_val in H. assert (Q1 := evals_quiet _ _ _ _ _ _ _ _ _ _ H Q).
      apply bindM_val in K as (s2 & u & K1 & K). apply on_contours_with in K1 as (cs1 & [= <-] & -> & NE). unfold start_contour in K. apply bindM_val in K as (s3 & u3 & K1 & K). apply on_contours_with in K1 as (cs & G & -> & _). rewrite top_contours_with in G by exact NE. rewrite with_contours_twice in K.
      apply bindM_val in K as (s4 & w' & K1 & K). apply ex_val in K1. apply bindM_val in K as (s5 & u5 & K2 & K). apply ret_val in K as [-> [= ->]]. apply on_contours_with in K2 as (cs2 & G2 & -> & _). exists s1, v, cs, s4. split; [exact H|]. split; [exact G|]. split; [exact K1|]. f_equal.
      destruct K1 as (m & K1). apply expr_same in K1. apply let_var_ok in G as (_ & c & t & [= <- <-] & ->). unfold top_contours in G2 at 1. rewrite K1 in G2. unfold with_contours in G2. destruct (stack s1) eqn:E; [easy|]. cbn in G2. congruence.
    - intros (s1 & v & cs & s2 & H & G & K & ->). assert (Q1 := evals_quiet _ _ _ _ _ _ _ _ _ _ H Q). destruct H as (n & H), K as (m & K). pose proof (expr_same _ _ _ _ _ _ _ _ _ _ _ K) as S2. apply (up n (n + m)) in H; [|lia]. apply (up m (n + m)) in K; [|lia]. fuel (n + m). rewrite (ex_eq _ _ _ _ _ H).
      assert (NE := quiet_stack _ Q1). rewrite (bindM_eq _ _ _ _ _ (on_contours_ok (fun cs => Ok (start_contour cs)) s1 _ NE eq_refl)). unfold start_contour.
      assert (X : on_contours (fun cs => let_var cs x v) (with_contours ([] :: top_contours s1) s1) = (with_contours cs s1, Val tt)).
      { rewrite <- (with_contours_twice cs ([] :: top_contours s1) s1). apply on_contours_ok; [|now rewrite top_contours_with]. unfold with_contours. destruct (stack s1); [easy|discriminate]. }
      rewrite (bindM_eq _ _ _ _ _ X). rewrite (ex_eq _ _ _ _ _ K).
      assert (Y : on_contours end_contour s2 = (with_contours (top_contours s1) s2, Val tt)).
      { apply let_var_ok in G as (_ & c & t & [= <- <-] & ->). apply on_contours_ok; try unfold top_contours at 1; rewrite ?S2; unfold with_contours, top_contours; destruct (stack s1) eqn:Z; cbn; congruence. }
      now rewrite (bindM_eq _ _ _ _ _ Y).
  Qed.
  Definition eval_opt (fo : option expr) (s s' : st) (fv : option val) : Prop :=
    match fo, fv with None, None => s' = s | Some e, Some v => evals e s s' v | _, _ => False end.
  Lemma call_iff op fo es s s' v : quiet s -> evals (ECall op fo es) s s' v <->
    exists s1 fv s2 vs, eval_opt fo s s1 fv /\ eval_seq es s1 s2 vs /\
      ((dispatch op fv = Ok (inr v) /\ s' = s2) \/ exists a fv' n, dispatch op fv = Ok (inl (a, fv')) /\ run n (TCall a fv' vs) s2 = (s', Val (RVal v))).
  Proof.
    intros Q. split.
    - intros H. opn H Q. apply bindM_val in H as (s1 & fv & H & K). exists s1, fv. apply bindM_val in K as (s2 & vs & K1 & K). apply exs_val in K1. exists s2, vs. split.
      { destruct fo; cbn; [|apply ret_val in H as [-> ->]; reflexivity]. apply bindM_val in H as (s3 & w & H & J). apply ret_val in J as [-> ->]. eapply ex_val; exact H. }
      split; [exact K1|]. apply bindM_val in K as (s3 & d & K & J). apply lift_val in K as [-> K]. destruct d as [[a fv']|w].
      + right. apply bindM_val in J as (s4 & r & J & X). apply bindM_val in X as (s5 & w & X & Y). apply as_val_val in X as [-> ->]. apply ret_val in Y as [-> [= ->]]. exists a, fv', n. auto.
      + left. apply ret_val in J as [-> [= ->]]. auto.
    - intros (s1 & fv & s2 & vs & H & K & D). apply exs_fuel in K as (m & K).
      assert (F : exists n, forall n', n <= n' -> match fo with None => ret None | Some fe => run! v <- (run! r <- run n' (TExpr fe) ;; as_val r) ;; ret (Some v) end s = (s1, Val fv)).
      { destruct fo as [fe|], fv as [w|]; try easy; [|cbn in H; subst s1; exists 0; reflexivity]. destruct H as (n & H). exists n. intros n' L. apply (up n n') in H; [|exact L]. rewrite (ex_eq _ _ _ _ _ H). reflexivity. }
      destruct F as (n & F). destruct D as [[D ->]|(a & fv' & p & D & R)].
      + apply (up m (n + m)) in K; [|lia]. fuel (n + m). rewrite (bindM_eq _ _ _ _ _ (F (n + m) ltac:(lia))). rewrite (exs_eq _ _ _ _ _ K). unfold bindM. rewrite D. reflexivity.
      + apply (up m (n + m + p)) in K; [|lia]. apply (up p (n + m + p)) in R; [|lia]. fuel (n + m + p). rewrite (bindM_eq _ _ _ _ _ (F (n + m + p) ltac:(lia))). rewrite (exs_eq _ _ _ _ _ K). unfold bindM. rewrite D. cbn [lift]. rewrite R. reflexivity.
  Qed.

  (* ---- rules ---- *)
  Lemma error_eq b s : stack s <> [] -> (if b : bool then it_is_a_syntax_error else ret tt) s = (record b s, Val tt).
  Proof. intros N. unfold record, top_id. destruct b; [|cbn; rewrite app_nil_r; now destruct s]. unfold it_is_a_syntax_error, bindM, curr_frame. destruct s as [[|g t] h e x]; [now destruct N|reflexivity]. Qed.
  Definition done (r : rule) (s s' : st) : Prop := exists n, run n (TRule r) s = (s', Val RNone).
  Lemma if_iff c s s' : quiet s -> done (RIf c) s s' <-> exists s1 b, holds c s s1 b /\ s' = record b s1.
  Proof.
    intros Q. split.
    - intros H. opn H Q. apply bindM_val in H as (s1 & b & H & K). apply cd_val in H. assert (Q1 := holds_quiet _ _ _ _ _ _ _ _ _ _ H Q). apply bindM_val in K as (s2 & u & K & J). rewrite error_eq in K by now apply quiet_stack. injection K as <- _. apply ret_val in J as [-> _]. eauto.
    - intros (s1 & b & H & ->). assert (Q1 := holds_quiet _ _ _ _ _ _ _ _ _ _ H Q). destruct H as (n & H). fuel n. rewrite (cd_eq _ _ _ _ _ H). rewrite (bindM_eq _ _ _ _ _ (error_eq b s1 (quiet_stack _ Q1))). reflexivity.
  Qed.
  Lemma alg_iff c w steps s s' : quiet s -> done (RAlg c w steps) s s' <->
    holds c s s' false \/ exists s1 s2 v, holds c s s1 true /\ big steps s1 s2 (Some v) /\ s' = record (val_eqb v (VBool w)) s2.
  Proof.
    intros Q. split.
    - intros H. opn H Q. apply bindM_val in H as (s1 & b & H & K). apply cd_val in H. assert (Q1 := holds_quiet _ _ _ _ _ _ _ _ _ _ H Q). destruct b; [|apply ret_val in K as [-> _]; now left]. right. exists s1.
      apply bindM_val in K as (s2 & u & K1 & K). apply bindM_val in K1 as (s3 & r & K1 & J). apply as_none_val in J as [-> ->]. apply (proj1 (big_sound _ _ _ _ _ _ n)) in K1 as (s2 & o & B & -> & Q2 & _).
      apply bindM_val in K as (s4 & f & K1 & K). apply curr_val in K1 as [-> (r & E)]. destruct (f_ret f) as [v|] eqn:Ef; [|discriminate].
      assert (Ho : o = Some v). { unfold with_ret in E. unfold quiet in Q2. destruct (stack s2) as [|g t] eqn:Es; [easy|]. destruct o as [x|]; [|rewrite Es in E; injection E as <- _; congruence]. cbn in E. injection E as <- _. cbn in Ef. congruence. }
      subst o. exists s2, v. split; [exact H|]. split; [exact B|]. apply bindM_val in K as (s5 & u5 & K1 & K). apply bindM_val in K as (s6 & u6 & K2 & K). apply ret_val in K as [-> _].
      assert (Z : s5 = s2). { apply stop_returning_val in K1 as (g & t & E' & ->). unfold with_ret in E' |- *. unfold quiet in Q2. destruct (stack s2) as [|g' t'] eqn:Es; [easy|]. cbn in E'. injection E' as <- <-. cbn. destruct s2, g'. cbn in *. subst. reflexivity. }
      subst s5. rewrite error_eq in K2 by now apply quiet_stack. now injection K2 as <- _.
    - intros [(n & H)|(s1 & s2 & v & H & B & ->)]; [fuel n; now rewrite (cd_eq _ _ _ _ _ H)|]. assert (Q1 := holds_quiet _ _ _ _ _ _ _ _ _ _ H Q). destruct (proj1 (big_depth _ _ _ _ _ _) _ _ _ _ B Q1) as [Q2 _]. destruct (proj1 (big_complete _ _ _ _ _ _) _ _ _ _ B Q1) as (m & K). destruct H as (n & H). apply (up n (n + m)) in H; [|lia]. apply (up m (n + m)) in K; [|lia].
      fuel (n + m). rewrite (cd_eq _ _ _ _ _ H). cbn iota. rewrite (cm_eq _ _ _ _ K).
      assert (C : curr_frame (with_ret (Some v) s2) = (with_ret (Some v) s2, Val (mkFrame (top_id s2) (top_focus s2) (top_contours s2) (Some v)))).
      { unfold curr_frame, with_ret, top_id, top_focus, top_contours. apply quiet_stack in Q2. destruct (stack s2); [easy|]. reflexivity. }
      rewrite (bindM_eq _ _ _ _ _ C). cbn [f_ret].
      assert (D : stop_returning (with_ret (Some v) s2) = (s2, Val tt)).
      { unfold stop_returning. rewrite (bindM_eq _ _ _ _ _ C). cbn [is_returning f_ret fid f_focus contours]. unfold bindM, lift, put_frame, with_ret, top_id, top_focus, top_contours. unfold quiet in Q2. destruct s2 as [st h er nx]. cbn in *. destruct st as [|g t]; [easy|]. cbn. destruct g. cbn in *. now subst. }
      rewrite (bindM_eq _ _ _ _ _ D). now rewrite (bindM_eq _ _ _ _ _ (error_eq _ s2 (quiet_stack _ Q2))).
  Qed.
  (* the elements of the List, in turn, each in a contour of its own; bs tells for which the condition was met *)
  Inductive tested (x l : nat) (c : cond) : nat -> st -> st -> list bool -> Prop :=
  | t_end i s vs : nth_error (heap s) l = Some vs -> nth_error vs i = None -> tested x l c i s s []
  | t_step i s vs v cs s1 b s2 bs : nth_error (heap s) l = Some vs -> nth_error vs i = Some v -> let_var ([] :: top_contours s) x v = Ok cs ->
      holds c (with_contours cs s) s1 b -> tested x l c (S i) (record b (with_contours (top_contours s) s1)) s2 bs -> tested x l c i s s2 (b :: bs).
  Lemma quiet_record b s : quiet (record b s) <-> quiet s.
  Proof. reflexivity. Qed.
  Lemma tested_sound x l c n : forall i s s' v, quiet s -> run n (TRuleLoop x l i c) s = (s', Val v) -> v = RNone /\ exists bs, tested x l c i s s' bs.
  Proof.
    induction n as [|n IH]; intros i s s' v Q H; [discriminate|]. cbn [M_Exec.run step] in H. apply bindM_val in H as (s0 & vs & H0 & H). apply elements_val in H0 as [-> H0]. destruct (nth_error vs i) as [w|] eqn:E.
    - apply bindM_val in H as (s2 & u & K1 & K). apply on_contours_with in K1 as (cs1 & [= <-] & -> & NE). unfold start_contour in K. apply bindM_val in K as (s3 & u3 & K1 & K). apply on_contours_with in K1 as (cs & G & -> & _). rewrite top_contours_with in G by exact NE. rewrite with_contours_twice in K.
      apply bindM_val in K as (s4 & b & K1 & K). apply cd_val in K1. assert (Q4 : quiet s4) by (eapply holds_quiet; [exact K1|now apply quiet_contours]).
      apply bindM_val in K as (s5 & u5 & K2 & K). rewrite error_eq in K2 by now apply quiet_stack. injection K2 as <- _. apply bindM_val in K as (s6 & u6 & K2 & K). apply on_contours_with in K2 as (cs2 & G2 & -> & _).
      assert (T : cs2 = top_contours s). { destruct K1 as (m & K1). apply cond_same in K1. pose proof G as G'. apply let_var_ok in G' as (_ & c0 & t & [= <- <-] & ->). unfold top_contours in G2 at 1. cbn [record stack] in G2. rewrite K1 in G2. unfold with_contours in G2. destruct (stack s) eqn:Es; [easy|]. cbn in G2. congruence. }
      subst cs2. assert (R : with_contours (top_contours s) (record b s4) = record b (with_contours (top_contours s) s4)). { unfold with_contours, record, top_id. cbn. unfold quiet in Q4. destruct (stack s4) eqn:Es4; [easy|]. reflexivity. }
      rewrite R in K. apply IH in K as [-> (bs & K)]; [|apply quiet_record; now apply quiet_contours]. split; [reflexivity|]. exists (b :: bs). eapply t_step; eassumption.
    - apply ret_val in H as [-> ->]. split; [reflexivity|]. exists []. eapply t_end; eassumption.
  Qed.
  Lemma tested_complete x l c i s s' bs : tested x l c i s s' bs -> quiet s -> exists n, run n (TRuleLoop x l i c) s = (s', Val RNone).
  Proof.
    induction 1 as [i s vs H0 E|i s vs v cs s1 b s2 bs H0 E G H T IH]; intros Q.
    - exists 1. cbn. unfold elements, bindM. rewrite H0. now rewrite E.
    - assert (Q1 : quiet s1) by (eapply holds_quiet; [exact H|now apply quiet_contours]). destruct H as (n & H). destruct IH as (m & K); [apply quiet_record; now apply quiet_contours|]. pose proof (cond_same _ _ _ _ _ _ _ _ _ _ _ H) as S1. apply (up n (n + m)) in H; [|lia]. apply (up m (n + m)) in K; [|lia]. exists (S (n + m)). cbn [M_Exec.run step].
      unfold elements. unfold bindM at 1. rewrite H0. rewrite E. assert (NE := quiet_stack _ Q). rewrite (bindM_eq _ _ _ _ _ (on_contours_ok (fun cs => Ok (start_contour cs)) s _ NE eq_refl)). unfold start_contour.
      assert (X : on_contours (fun cs => let_var cs x v) (with_contours ([] :: top_contours s) s) = (with_contours cs s, Val tt)).
      { rewrite <- (with_contours_twice cs ([] :: top_contours s) s). apply on_contours_ok; [|now rewrite top_contours_with]. unfold with_contours. destruct (stack s); [easy|discriminate]. }
      rewrite (bindM_eq _ _ _ _ _ X). rewrite (cd_eq _ _ _ _ _ H). rewrite (bindM_eq _ _ _ _ _ (error_eq b s1 (quiet_stack _ Q1))).
      assert (R : with_contours (top_contours s) (record b s1) = record b (with_contours (top_contours s) s1)). { unfold with_contours, record, top_id. cbn. unfold quiet in Q1. destruct (stack s1) eqn:Es4; [easy|]. reflexivity. }
      assert (Y : on_contours end_contour (record b s1) = (with_contours (top_contours s) (record b s1), Val tt)).
      { apply let_var_ok in G as (_ & c0 & t & [= <- <-] & ->). apply on_contours_ok; try unfold top_contours at 1; cbn [record stack]; rewrite ?S1; unfold with_contours, top_contours; destruct (stack s) eqn:Z; cbn; congruence. }
      rewrite (bindM_eq _ _ _ _ _ Y), R. exact K.
  Qed.
  Lemma foreach_iff x e c s s' : quiet s -> done (RForEach x e c) s s' <-> exists s1 l bs, evals e s s1 (VList l) /\ tested x l c 0 s1 s' bs.
  Proof.
    intros Q. split.
    - intros H. opn H Q. apply bindM_val in H as (s1 & v & H & K). apply ex_val in H. assert (Q1 := evals_quiet _ _ _ _ _ _ _ _ _ _ H Q). apply bindM_val in K as (s2 & l & K1 & K). apply list_at_val in K1 as [-> ->]. apply tested_sound in K as [_ (bs & K)]; [|exact Q1]. exists s1, l, bs. auto.
    - intros (s1 & l & bs & H & T). assert (Q1 := evals_quiet _ _ _ _ _ _ _ _ _ _ H Q). destruct H as (n & H). apply tested_complete in T as (m & K); [|exact Q1]. apply (up n (n + m)) in H; [|lia]. apply (up m (n + m)) in K; [|lia]. fuel (n + m). rewrite (ex_eq _ _ _ _ _ H). unfold list_at. unfold bindM, ret. exact K.
  Qed.
  Definition met (bs : list bool) : nat := length (filter (fun b => b) bs).
  Lemma tested_errs x l c i s s' bs : tested x l c i s s' bs -> stack s' = stack s /\ errs s' = errs s ++ repeat (top_id s) (met bs).
  Proof.
    induction 1 as [i s vs H0 E|i s vs v cs s1 b s2 bs H0 E G H T IH]; [split; [reflexivity|]; cbn; now rewrite app_nil_r|].
    assert (S0 : stack s1 = stack (with_contours cs s)) by (destruct H as (n & H); now apply cond_same in H). destruct IH as [I1 I2].
    assert (S1 : stack (with_contours (top_contours s) s1) = stack s).
    { destruct (stack s) as [|f r] eqn:Es.
      - assert (Z : stack s1 = []) by (rewrite S0; unfold with_contours; rewrite Es; exact Es). unfold with_contours. rewrite Z. exact Z.
      - unfold with_contours in S0. rewrite Es in S0. cbn in S0. unfold with_contours, top_contours. rewrite S0, Es. cbn. now destruct f. }
    assert (E1 : errs (with_contours (top_contours s) s1) = errs s).
    { transitivity (errs s1); [unfold with_contours; now destruct (stack s1)|]. apply holds_errs in H. rewrite H. unfold with_contours. now destruct (stack s). }
    cbn [record stack] in I1. split; [congruence|]. rewrite I2. unfold record, top_id. cbn [errs stack]. rewrite S1, E1. destruct b; cbn; [now rewrite <- app_assoc|now rewrite app_nil_r].
  Qed.
  Lemma tested_length x l c vs : (forall t t' b, holds c t t' b -> nth_error (heap t) l = Some vs -> nth_error (heap t') l = Some vs) ->
    forall i s s' bs, tested x l c i s s' bs -> nth_error (heap s) l = Some vs -> i <= length vs -> i + length bs = length vs.
  Proof.
    intros P i s s' bs T. induction T as [i s ws H0 E|i s ws v cs s1 b s2 bs H0 E G H T IH]; intros V L; rewrite V in H0; injection H0 as <-.
    - apply nth_error_None in E. cbn. lia.
    - cbn. assert (i < length vs) by (apply nth_error_Some; congruence). rewrite <- IH; [lia| |lia]. cbn [record heap]. assert (HC : forall cs s, heap (with_contours cs s) = heap s) by (intros; unfold with_contours; now destruct (stack _)). rewrite HC. eapply P; [exact H|]. now rewrite HC.
  Qed.
  Fixpoint applied (fo : option val) (rules : list nat) (s s' : st) : Prop :=
    match rules with [] => s' = s | a :: rules' => exists n v s1, run n (TCall a fo []) s = (s1, Val v) /\ applied fo rules' s1 s' end.
  Lemma apply_sound rules : forall n s s' v, run n (TApply rules) s = (s', Val v) -> v = RNone /\ applied (top_focus s) rules s s'.
  Proof.
    induction rules as [|a rules IH]; intros [|n] s s' v H; try discriminate; cbn [M_Exec.run step] in H; [apply ret_val in H as [-> ->]; now split|].
    apply bindM_val in H as (s1 & f & H1 & H). apply curr_val in H1 as [-> (r & E)]. apply bindM_val in H as (s2 & w & H1 & H). assert (S2 : stack s2 = stack s) by (apply run_good in H1; apply H1). apply IH in H as [-> H]. split; [reflexivity|]. exists n, w, s2. unfold top_focus in *. rewrite S2 in H. rewrite E in *. auto.
  Qed.
  Lemma apply_complete rules : forall s s', stack s <> [] -> applied (top_focus s) rules s s' -> exists n, run n (TApply rules) s = (s', Val RNone).
  Proof.
    induction rules as [|a rules IH]; intros s s' N H; [cbn in H; subst s'; now exists 1|]. destruct H as (n & v & s1 & H & K). assert (S1 : stack s1 = stack s) by (apply run_good in H; apply H). destruct (IH s1 s') as (m & J); [congruence|unfold top_focus in *; now rewrite S1|]. apply (up n (n + m)) in H; [|lia]. apply (up m (n + m)) in J; [|lia].
    exists (S (n + m)). cbn [M_Exec.run step]. unfold bindM at 1, curr_frame. unfold top_focus in H. destruct (stack s); [easy|]. rewrite (bindM_eq _ _ _ _ _ H). exact J.
  Qed.
  Lemma applyrule_iff c rules s s' : quiet s -> done (RApply c rules) s s' <-> holds c s s' false \/ exists s1, holds c s s1 true /\ applied (top_focus s) rules s1 s'.
  Proof.
    intros Q. split.
    - intros H. opn H Q. apply bindM_val in H as (s1 & b & H & K). apply cd_val in H. destruct b; [|apply ret_val in K as [-> _]; now left]. right. exists s1. split; [exact H|]. apply apply_sound in K as [_ K]. destruct H as (m & H). apply cond_same in H. unfold top_focus in *. now rewrite <- H.
    - intros [(n & H)|(s1 & H & A)]; [fuel n; now rewrite (cd_eq _ _ _ _ _ H)|]. assert (Q1 := holds_quiet _ _ _ _ _ _ _ _ _ _ H Q). destruct H as (n & H). pose proof (cond_same _ _ _ _ _ _ _ _ _ _ _ H) as S1. destruct (apply_complete rules s1 s') as (m & J); [now apply quiet_stack|unfold top_focus in *; now rewrite S1|]. apply (up n (n + m)) in H; [|lia]. apply (up m (n + m)) in J; [|lia]. fuel (n + m). rewrite (cd_eq _ _ _ _ _ H). exact J.
  Qed.
  (* all the rules of a list, in turn; one that refers to something that is missing is abandoned *)
  Definition abandoned (r : rule) (s s' : st) : Prop := exists n, run n (TRule r) s = (s', Exc NoThing).
  Fixpoint in_order (i : nat) (rs : list rule) (s s' : st) : Prop :=
    match rs with
    | [] => s' = s
    | r :: rs' => exists s1, (done r s s1 \/ abandoned r s s1) /\ (exists f, find (fun f => fid f =? i) (stack s1) = Some f /\ f_ret f = None) /\ in_order i rs' s1 s'
    end.
  Lemma rules_sound i rs : forall n s s' v, run n (TRules i rs) s = (s', Val v) -> in_order i rs s s'.
  Proof.
    induction rs as [|r rs IH]; intros [|n] s s' v H; try discriminate; cbn [M_Exec.run step] in H; [now apply ret_val in H as [-> _]|].
    apply bindM_val in H as (s1 & u & H1 & H). apply bindM_val in H as (s2 & f & H2 & H). unfold own_frame in H2. destruct (find _ (stack s1)) as [f'|] eqn:F; [|discriminate]. injection H2 as <- <-. apply bindM_val in H as (s3 & u3 & H3 & H). apply assertM_val in H3 as [-> H3]. apply IH in H.
    exists s1. split; [|split; [|exact H]].
    - unfold try_, bindM in H1. destruct (run n (TRule r) s) as [s4 [w|[|e]]] eqn:E; [|injection H1 as <- _; right; now exists n|discriminate]. left. exists n. destruct w; try discriminate. injection H1 as <- _. exact E.
    - exists f'. split; [exact F|]. unfold is_returning in H3. now destruct (f_ret f').
  Qed.
  Lemma rules_complete i rs : forall s s', in_order i rs s s' -> exists n, run n (TRules i rs) s = (s', Val RNone).
  Proof.
    induction rs as [|r rs IH]; intros s s' H; [cbn in H; subst s'; now exists 1|]. destruct H as (s1 & D & (f & F & Ef) & H). apply IH in H as (m & H).
    assert (X : exists n, try_ (run! x <- run n (TRule r) ;; as_none x) (ret tt) s = (s1, Val tt) /\ m <= n).
    { destruct D as [(n & D)|(n & D)]; (exists (n + m); split; [|lia]).
      - apply (up n (n + m)) in D; [|lia]. unfold try_, bindM. rewrite D. reflexivity.
      - assert (D' : run (n + m) (TRule r) s = (s1, Exc NoThing)) by (apply (run_mono _ _ _ _ _ _ n (n + m)); [lia|exact D|discriminate]). unfold try_, bindM. rewrite D'. reflexivity. }
    destruct X as (n & X & L). exists (S n). cbn [M_Exec.run step]. rewrite (bindM_eq _ _ _ _ _ X). unfold own_frame. unfold bindM at 1. rewrite F. unfold is_returning. rewrite Ef. cbn [negb]. unfold assertM, bindM, ret. apply (up m n); [exact L|exact H].
  Qed.
End Exec.
