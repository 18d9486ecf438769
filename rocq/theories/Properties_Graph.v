(* Properties C09-C13: Graph.py.  A graph is given by the history [h] of add_vertex/add_arc calls. *)
From Coq Require Import Sorted Permutation.
From Verif Require Import M_Base M_Graph L_Graph L_GraphLevels.

(* ---------------- C09 ---------------- *)

(* on a fresh process the analysis always returns, and the clusters are the strongly connected components *)
Theorem C09_total : forall h, exists r, compute_dependency_levels (build h) [] = Ok r.
Proof. exact graph_total. Qed.
Print Assumptions C09_total.

Theorem C09_components : forall h cls lv,
  compute_dependency_levels (build h) [] = Ok (cls, lv) -> scc_partition h cls.
Proof. exact graph_components. Qed.
Print Assumptions C09_components.

(* ---------------- C10 ---------------- *)

Theorem C10_prerequisites_first : forall h cls lv,
  compute_dependency_levels (build h) [] = Ok (cls, lv) -> prerequisites_first h cls.
Proof. exact graph_order. Qed.
Print Assumptions C10_prerequisites_first.

(* ---------------- C11 ---------------- *)

Theorem C11_levels : forall h cls lv,
  compute_dependency_levels (build h) [] = Ok (cls, lv) -> levels_ok cls lv.
Proof. exact graph_levels. Qed.
Print Assumptions C11_levels.

(* the level computation by itself depends on the prerequisites-first order: on any other list it does not return *)
Theorem C11_other_orders_never_return : forall cls i cl p fuel r,
  (forall cl', In cl' cls -> level cl' = None) ->
  nth_error cls i = Some cl -> In p (direct_prereqs cl) -> i <= p ->
  establish_dependency_levels fuel cls <> Ok r.
Proof. exact levels_crash. Qed.
Print Assumptions C11_other_orders_never_return.

(* the exception is the missing return value's TypeError on the smallest such list *)
Example C11_crash_case :
  establish_dependency_levels 9 [mkCl [5] [1] false None; mkCl [6] [] false None] = Err TypeError.
Proof. reflexivity. Qed.

(* ---------------- C12 ---------------- *)

Theorem C12_flags_and_prerequisites : forall h cls lv,
  compute_dependency_levels (build h) [] = Ok (cls, lv) -> flags_exact h cls.
Proof. exact graph_flags. Qed.
Print Assumptions C12_flags_and_prerequisites.

(* a two-cycle 3<->1, a self-loop on 4, and a diamond above them *)
Definition ex_h := [AddVertex 0; AddArc 0 3; AddArc 3 1; AddArc 1 3; AddArc 0 4; AddArc 4 4; AddArc 4 1; AddArc 5 0; AddArc 5 1].
Example C09_C12_case : compute_dependency_levels (build ex_h) [] =
  Ok ([mkCl [1; 3] [] true (Some 0); mkCl [4] [0] true (Some 1); mkCl [0] [0; 1] false (Some 2); mkCl [5] [2; 0] false (Some 3)],
      [[0]; [1]; [2]; [3]]).
Proof. vm_compute. reflexivity. Qed.

(* ---------------- C13 ---------------- *)

(* the clusters of the first graph are still there after the second analysis *)
Theorem C13_first_clusters_persist : forall h1 h2 cls1 lv1 cls2 lv2,
  compute_dependency_levels (build h1) [] = Ok (cls1, lv1) ->
  compute_dependency_levels (build h2) cls1 = Ok (cls2, lv2) ->
  exists rest, map members cls2 = map members cls1 ++ rest.
Proof. exact graph_second. Qed.
Print Assumptions C13_first_clusters_persist.

Example C13_persist_case : exists cls1 lv1 cls2 lv2,
  compute_dependency_levels (build [AddVertex 7]) [] = Ok (cls1, lv1) /\
  compute_dependency_levels (build [AddVertex 2]) cls1 = Ok (cls2, lv2) /\ map members cls2 = [[7]; [2]].
Proof. repeat eexists. Qed.

(* so isolation fails: the second graph's own analysis is disturbed, up to an assertion failure *)
Theorem C13_isolation_refuted : exists h1 h2 cls1 lv1,
  compute_dependency_levels (build h1) [] = Ok (cls1, lv1) /\
  (exists r, compute_dependency_levels (build h2) [] = Ok r) /\
  compute_dependency_levels (build h2) cls1 = Err AssertionError.
Proof. exists [AddArc 0 1; AddArc 1 0], [AddVertex 2]. repeat eexists. Qed.
Print Assumptions C13_isolation_refuted.
