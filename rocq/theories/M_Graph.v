(* Model of Graph.py.
   Vertices are natural numbers (any finite set of comparable Python values can be
   numbered in order). A Python set is a list in the (arbitrary) order in which it is
   iterated; the theorems quantify over these lists. *)
From Verif Require Import M_Base.

(* a dict with vertices as keys, latest binding first *)
Fixpoint lookup {V} (d : list (nat * V)) (k : nat) : option V :=
  match d with
  | [] => None
  | (k', v) :: d' => if k' =? k then Some v else lookup d' k
  end.
Definition mem (x : nat) (l : list nat) : bool := existsb (Nat.eqb x) l.

(* Graph.py:12-15  Graph: vertices and arcs_from_ (a defaultdict(set)) *)
Record graph := mkGraph { vertices : list nat; arcs : list (nat * list nat) }.
Definition arcs_from (g : graph) (v : nat) : list nat :=
  match lookup (arcs g) v with Some l => l | None => [] end.

(* Graph.py:17-23  add_vertex, add_arc; a set is kept without repetition *)
Definition set_add (x : nat) (l : list nat) : list nat := if mem x l then l else l ++ [x].
Definition add_vertex (g : graph) (v : nat) : graph := mkGraph (set_add v (vertices g)) (arcs g).
Definition add_arc (g : graph) (s d : nat) : graph :=
  let g1 := add_vertex (add_vertex g s) d in
  mkGraph (vertices g1) ((s, set_add d (arcs_from g1 s)) :: arcs g1).
Inductive gop := AddVertex (v : nat) | AddArc (s d : nat).
Definition apply_gop (g : graph) (o : gop) : graph :=
  match o with AddVertex v => add_vertex g v | AddArc s d => add_arc g s d end.
Definition empty_graph : graph := mkGraph [] [].

(* Graph.py:133-138  Cluster; its number is its index in the global list cluster_ (131).
   level (159) is an attribute set later. *)
Record cluster := mkCl {
  members : list nat;
  direct_prereqs : list nat;         (* cluster numbers *)
  contains_a_cycle : bool;
  level : option nat
}.

(* Graph.py:67-80  state of the search; stacks have their top first.
   [clusters] is the module-global cluster_. *)
Record sstate := mkSt {
  preorder : list (nat * nat);
  cluster_for : list (nat * nat);    (* vertex -> cluster number *)
  stS : list nat;
  stP : list nat;
  cnt : nat;
  clusters : list cluster
}.

(* Graph.py:105-106  the popping loop; recursion on P. *)
Fixpoint pop_P (pre : list (nat * nat)) (w : nat) (P : list nat) : res (list nat) :=
  match P with
  | [] => Err IndexError
  | p :: P' =>
    match lookup pre p, lookup pre w with
    | Some a, Some b => if b <? a then pop_P pre w P' else Ok P
    | _, _ => Err KeyError
    end
  end.

(* Graph.py:113-119  pop S until v, assigning to cluster number c; members in pop order *)
Fixpoint pop_S (v c : nat) (S : list nat) (cf : list (nat * nat)) (ms : list nat)
  : res (list nat * list (nat * nat) * list nat) :=
  match S with
  | [] => Err IndexError
  | w :: S' =>
    match lookup cf w with
    | Some _ => Err AssertionError                                   (* 116 *)
    | None =>
      let cf' := (w, c) :: cf in
      let ms' := ms ++ [w] in
      if w =? v then Ok (S', cf', ms') else pop_S v c S' cf' ms'
    end
  end.

(* Graph.py:108-123 *)
Definition finish_vertex (v : nat) (st : sstate) : res sstate :=
  match stP st with
  | [] => Err IndexError
  | p :: _ =>
    if v =? p then
      let c := length (clusters st) in                               (* 112, 135 *)
      do (S', cf', ms) <- pop_S v c (stS st) (cluster_for st) [] ;;
      match stP st with
      | [] => Err IndexError
      | w :: P' =>
        do _ <- assert_ (w =? v) ;;                                  (* 122-123 *)
        Ok (mkSt (preorder st) cf' S' P' (cnt st) (clusters st ++ [mkCl ms [] false None]))
      end
    else Ok st
  end.

(* Graph.py:95-106  the loop over the successors, [rec] being rec_search *)
Fixpoint visit_succs (rec : nat -> sstate -> res sstate) (ws : list nat) (st : sstate) : res sstate :=
  match ws with
  | [] => Ok st
  | w :: ws' =>
    match lookup (preorder st) w with
    | None => do st' <- rec w st ;; visit_succs rec ws' st'          (* 98-99 *)
    | Some _ =>
      if mem w (stS st) then                                         (* 102 *)
        do P' <- pop_P (preorder st) w (stP st) ;;
        visit_succs rec ws' (mkSt (preorder st) (cluster_for st) (stS st) P' (cnt st) (clusters st))
      else visit_succs rec ws' st
    end
  end.

(* Graph.py:82-123  rec_search *)
Fixpoint rec_search (fuel : nat) (g : graph) (v : nat) (st : sstate) : res sstate :=
  match fuel with
  | O => Err OutOfFuel
  | S f =>
    do _ <- assert_ (mem v (vertices g)) ;;                          (* 83 *)
    do _ <- assert_ (match lookup (preorder st) v with None => true | Some _ => false end) ;;  (* 84 *)
    let st1 := mkSt ((v, cnt st) :: preorder st) (cluster_for st) (v :: stS st) (v :: stP st)
                    (S (cnt st)) (clusters st) in                    (* 87-92 *)
    do st2 <- visit_succs (rec_search f g) (arcs_from g v) st1 ;;
    finish_vertex v st2
  end.

(* Graph.py:125-127 *)
Fixpoint search_all (fuel : nat) (g : graph) (vs : list nat) (st : sstate) : res sstate :=
  match vs with
  | [] => Ok st
  | v :: vs' =>
    match lookup (preorder st) v with
    | Some _ => search_all fuel g vs' st
    | None => do st' <- rec_search fuel g v st ;; search_all fuel g vs' st'
    end
  end.

(* Graph.py:63-127; every vertex is entered at most once, so the number of vertices
   bounds the depth of the recursion *)
Definition find_strongly_connected_components (g : graph) (global : list cluster) : res sstate :=
  search_all (S (length (vertices g))) g (vertices g) (mkSt [] [] [] [] 0 global).

(* Graph.py:43-51  flags and prerequisites of cluster number c *)
Fixpoint scan_arcs (cf : list (nat * nat)) (c : nat) (ps : list nat) (fp : bool * list nat) : res (bool * list nat) :=
  match ps with
  | [] => Ok fp
  | p :: ps' =>
    match lookup cf p with
    | None => Err KeyError
    | Some k =>
      if k =? c then scan_arcs cf c ps' (true, snd fp)
      else scan_arcs cf c ps' (fst fp, if mem k (snd fp) then snd fp else snd fp ++ [k])
    end
  end.
Fixpoint scan_members (g : graph) (cf : list (nat * nat)) (c : nat) (vs : list nat) (fp : bool * list nat) : res (bool * list nat) :=
  match vs with
  | [] => Ok fp
  | v :: vs' => do fp' <- scan_arcs cf c (arcs_from g v) fp ;; scan_members g cf c vs' fp'
  end.
(* Graph.py:42-54; [cls] are the clusters still to be processed, numbered from c *)
Fixpoint link_clusters (g : graph) (cf : list (nat * nat)) (c : nat) (cls : list cluster) : res (list cluster) :=
  match cls with
  | [] => Ok []
  | cl :: cls' =>
    do (cyc, pr) <- scan_members g cf c (members cl) (false, direct_prereqs cl) ;;
    do _ <- assert_ (if 1 <? length (members cl) then cyc else true) ;;          (* 53-54 *)
    do rest <- link_clusters g cf (S c) cls' ;;
    Ok (mkCl (members cl) pr cyc (level cl) :: rest)
  end.

(* Graph.py:37-38 *)
Definition sort_members (cl : cluster) : cluster :=
  mkCl (isort Nat.leb (members cl)) (direct_prereqs cl) (contains_a_cycle cl) (level cl).

Fixpoint upd {A} (i : nat) (f : A -> A) (l : list A) : list A :=
  match l, i with
  | [], _ => []
  | x :: l', O => f x :: l'
  | x :: l', S i' => x :: upd i' f l'
  end.
Definition set_level (n : nat) (cl : cluster) : cluster :=
  mkCl (members cl) (direct_prereqs cl) (contains_a_cycle cl) (Some n).

Definition lstate := (list cluster * list (list nat))%type.   (* cluster_, levels *)

(* Graph.py:155-158  max over the generator: values are computed one by one and compared
   as they come; a missing value (None) makes a comparison, or the final 1+, raise TypeError. *)
Fixpoint max_gen (get : nat -> lstate -> res (lstate * option nat)) (cur : option nat) (ps : list nat) (st : lstate)
  : res (lstate * option nat) :=
  match ps with
  | [] => Ok (st, cur)
  | p :: ps' =>
    do (st', v) <- get p st ;;
    match cur, v with
    | Some a, Some b => max_gen get (Some (Nat.max a b)) ps' st'
    | _, _ => Err TypeError
    end
  end.

(* Graph.py:161-167 *)
Definition put_level (c n : nat) (st : lstate) : res lstate :=
  let '(cls, levels) := st in
  let cls' := upd c (set_level n) cls in                              (* 159 *)
  if n <? length levels then Ok (cls', upd n (fun l => l ++ [c]) levels)
  else if n =? length levels then Ok (cls', levels ++ [[c]])
  else Err AssertionError.

(* Graph.py:147-167; the result None is Python's None: there is no return statement
   after the level has been computed *)
Fixpoint get_level_of_cluster (fuel : nat) (c : nat) (st : lstate) : res (lstate * option nat) :=
  match fuel with
  | O => Err OutOfFuel
  | S f =>
    match nth_error (fst st) c with
    | None => Err AttributeError
    | Some cl =>
      match level cl with
      | Some n => Ok (st, Some n)                                     (* 148-149 *)
      | None =>
        do (st', n) <-
          match direct_prereqs cl with
          | [] => Ok (st, 0)                                          (* 151-153 *)
          | p :: ps =>                                                (* 155-158 *)
            do (st1, v1) <- get_level_of_cluster f p st ;;
            do (st2, m) <- max_gen (get_level_of_cluster f) v1 ps st1 ;;
            match m with Some k => Ok (st2, S k) | None => Err TypeError end
          end ;;
        do st'' <- put_level c n st' ;;
        Ok (st'', None)
      end
    end
  end.

(* Graph.py:169-170 *)
Fixpoint level_all (fuel : nat) (cs : list nat) (st : lstate) : res lstate :=
  match cs with
  | [] => Ok st
  | c :: cs' => do (st', _) <- get_level_of_cluster fuel c st ;; level_all fuel cs' st'
  end.

(* Graph.py:174-175  sort each level by the first member *)
Definition first_member (cls : list cluster) (c : nat) : nat :=
  match nth_error cls c with Some cl => hd 0 (members cl) | None => 0 end.
Definition sort_level (cls : list cluster) (l : list nat) : list nat :=
  isort (fun a b => first_member cls a <=? first_member cls b) l.

(* Graph.py:142-177 *)
Definition establish_dependency_levels (fuel : nat) (cls : list cluster) : res lstate :=
  do (cls', levels) <- level_all fuel (seq 0 (length cls)) (cls, []) ;;
  Ok (cls', map (sort_level cls') levels).

(* Graph.py:30-59; [global] is cluster_ before the call; the result is cluster_ afterwards
   and the returned levels *)
Definition compute_dependency_levels (g : graph) (global : list cluster) : res lstate :=
  do st <- find_strongly_connected_components g global ;;
  do cls <- link_clusters g (cluster_for st) 0 (map sort_members (clusters st)) ;;
  establish_dependency_levels (S (length cls)) cls.
