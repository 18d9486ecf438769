(* Properties C14-C17: DFA.py.  [tr] is the item system, item0 the initial item. *)
From Verif Require Import M_Base L_Base M_DFA L_DFA L_DFAMain.

(* ---------------- C14 ---------------- *)

Theorem C14_terminates : forall tr item0, finite_items tr item0 ->
  exists fuel a, build_automaton tr fuel item0 = Ok a.
Proof. exact build_terminates. Qed.
Print Assumptions C14_terminates.

Theorem C14_well_formed : forall tr item0 fuel a, build_automaton tr fuel item0 = Ok a ->
  (* states are numbered densely in order of creation *)
  (forall n st, nth_error (states a) n = Some st -> number st = n) /\
  NoDup (map kernel (states a)) /\
  (* the start state *)
  (exists st0, nth_error (states a) 0 = Some st0 /\ kernel st0 = [item0]) /\
  (* every state has been closed; it has at most one transition per symbol, each to a state of the automaton *)
  (forall n st, nth_error (states a) n = Some st -> exists c, clo st = Some c /\ NoDup (map fst (transitions c)) /\
     forall s m, In (s, m) (transitions c) -> m < length (states a)).
Proof.
  intros tr item0 fuel a H. pose proof (build_inv _ _ _ _ H) as I.
  split; [apply (i_num _ _ _ _ I)|]. split; [apply (i_nd _ _ _ _ I)|]. split.
  - destruct (i_start _ _ _ _ I) as (st0 & A & B & _). eauto.
  - intros n st Hn. destruct (closed_state _ _ _ _ _ I Hn) as (c & Hc & (_ & HS & _ & HT)). exists c. split; [exact Hc|]. split.
    + clear -HS. induction HS as [|x l HS IH HF]; constructor; [|exact IH]. intros Hx. rewrite Forall_forall in HF. specialize (HF x Hx). lia.
    + intros s m Hm. destruct (HT s m Hm) as (st' & E & _). apply nth_error_Some. congruence.
Qed.
Print Assumptions C14_well_formed.

(* ---------------- C15 ---------------- *)

Theorem C15_closure : forall tr item0 fuel a n st c, build_automaton tr fuel item0 = Ok a ->
  nth_error (states a) n = Some st -> clo st = Some c ->
  NoDup (items c) /\
  (forall i, In i (items c) <-> exists k, In k (kernel st) /\ path tr k [] i) /\
  NoDup (final_items c) /\
  (forall i, In i (final_items c) <-> In i (items c) /\ tr i = []).
Proof.
  intros tr item0 fuel a n st c H Hn Hc. destruct (closed_state _ _ _ _ _ (build_inv _ _ _ _ H) Hn) as (c' & Hc' & (C & _)).
  rewrite Hc in Hc'. inversion Hc'; subst c'. destruct C. auto.
Qed.
Print Assumptions C15_closure.

(* ---------------- C16 ---------------- *)

Theorem C16_runs : forall tr item0 fuel a w, build_automaton tr fuel item0 = Ok a ->
  ((exists n, arun (states a) 0 w n) <-> exists j, path tr item0 w j).
Proof. intros tr item0 fuel a w H. apply run_exists. exact (build_inv _ _ _ _ H). Qed.
Print Assumptions C16_runs.

Theorem C16_items : forall tr item0 fuel a w n st c, build_automaton tr fuel item0 = Ok a ->
  arun (states a) 0 w n -> nth_error (states a) n = Some st -> clo st = Some c ->
  forall i, In i (items c) <-> path tr item0 w i.
Proof. intros tr item0 fuel a w n st c H. apply run_items. exact (build_inv _ _ _ _ H). Qed.
Print Assumptions C16_items.

Theorem C16_deterministic : forall tr item0 fuel a n s m m', build_automaton tr fuel item0 = Ok a ->
  astep (states a) n s m -> astep (states a) n s m' -> m = m'.
Proof. intros tr item0 fuel a n s m m' H. exact (step_det _ _ a (build_inv _ _ _ _ H) n s m m'). Qed.
Print Assumptions C16_deterministic.

(* ---------------- C17 ---------------- *)

Theorem C17_accessor_reaches : forall tr item0 fuel a n st, build_automaton tr fuel item0 = Ok a ->
  nth_error (states a) n = Some st -> arun (states a) 0 (eg_accessor st) n.
Proof. intros tr item0 fuel a n st H. apply accessor_run with (tr := tr) (item0 := item0). exact (build_inv _ _ _ _ H). Qed.
Print Assumptions C17_accessor_reaches.

Theorem C17_accessor_shortest : forall tr item0 fuel a n st w, build_automaton tr fuel item0 = Ok a ->
  nth_error (states a) n = Some st -> arun (states a) 0 w n -> length (eg_accessor st) <= length w.
Proof. intros tr item0 fuel a n st w H. apply accessor_shortest with (tr := tr) (item0 := item0). exact (build_inv _ _ _ _ H). Qed.
Print Assumptions C17_accessor_shortest.

(* no assertion fails, no exception is raised *)
Theorem C17_no_exception : forall tr item0 fuel e, build_automaton tr fuel item0 = Err e -> e = OutOfFuel.
Proof. exact build_only_fuel. Qed.
Print Assumptions C17_no_exception.

(* an item system with an epsilon cycle 1 <-> 2, a self-loop and a dead end *)
Definition ex_tr (i : nat) : list (option nat * nat) :=
  match i with
  | 0 => [(None, 1); (Some 5, 3)]
  | 1 => [(None, 2); (Some 4, 0)]
  | 2 => [(None, 1); (Some 5, 3); (Some 5, 0)]
  | _ => []
  end.
Example C14_C17_hyp : finite_items ex_tr 0.
Proof.
  exists [0; 1; 2; 3]. split; [now left|]. intros i s x Hi Hx.
  destruct Hi as [<-|[<-|[<-|[<-|[]]]]]; cbn in Hx; repeat (destruct Hx as [E|Hx]; [inversion E; subst; cbn; auto 6|]); destruct Hx.
Qed.
Example C14_C17_case : exists a, build_automaton ex_tr 9 0 = Ok a /\
  map kernel (states a) = [[0]; [0; 3; 3]] /\ map eg_accessor (states a) = [[]; [5]] /\
  (exists st c, nth_error (states a) 1 = Some st /\ clo st = Some c /\ items c = [0; 3; 1; 2] /\ final_items c = [3] /\ transitions c = [(4, 0); (5, 1)]) /\
  arun (states a) 0 [5; 4; 5] 1.
Proof.
  eexists. split; [vm_compute; reflexivity|]. repeat split.
  - eexists _, _. repeat split.
  - econstructor; [eexists _, _; repeat split; cbn; eauto|]. econstructor; [eexists _, _; repeat split; cbn; eauto|].
    econstructor; [eexists _, _; repeat split; cbn; eauto|]. constructor. cbn. lia.
Qed.

(* Kernels keep repetitions, so two different states can have the same items: the automaton is not
   minimal even as a subset automaton. *)
Theorem C14_distinct_items_refuted : exists tr item0 fuel a st0 st1 c0 c1, build_automaton tr fuel item0 = Ok a /\
  nth_error (states a) 0 = Some st0 /\ nth_error (states a) 1 = Some st1 /\ clo st0 = Some c0 /\ clo st1 = Some c1 /\
  items c0 = items c1.
Proof.
  exists (fun i => [(Some 0, i); (Some 0, i)]), 0, 5. eexists _, _, _, _, _. split; [vm_compute; reflexivity|]. repeat split.
Qed.
Print Assumptions C14_distinct_items_refuted.
