(* Model of the comparison of a 'use' production with its definition, emu_grammars.py:1060-1216 (the messages about arguments and annotations of a matching pair, 1079-1099, are left out). *)
From Verif Require Import M_Base M_GramCheck.

(* a defining right-hand side: _reduced (numbered) and its items *)
Record drhs := mkD { d_reduced : nat; d_items : list gitem }.
Fixpoint enumerate_from {A} (i : nat) (l : list A) : list (nat * A) := match l with [] => [] | x :: l' => (i, x) :: enumerate_from (S i) l' end.
(* emu_grammars.py:1062-1077 the pairs (u_i, d_i) that match, in this order, each with notes['optional-symbol'] *)
Definition all_matches (us : list (list gitem)) (ds : list drhs) : list (nat * nat * list optionality) :=
  flat_map (fun iu => flat_map (fun jd => match fst (u_rhs_matches_d_rhs (snd iu) (d_items (snd jd))) with
                                          | Some notes => [(fst iu, fst jd, optional_notes notes)]
                                          | None => []
                                          end) (enumerate_from 0 ds)) (enumerate_from 0 us).
Definition ui (x : nat * nat * list optionality) : nat := fst (fst x).
Definition di (x : nat * nat * list optionality) : nat := snd (fst x).
(* emu_grammars.py:1146-1149  what is added to puk_set: _reduced of the definition, and the bits (lhs_nt is the same for all) *)
Definition use_puks (us : list (list gitem)) (ds : list drhs) : list (nat * list bool) :=
  flat_map (fun x => match nth_error ds (di x) with
                     | Some d => map (fun bits => (d_reduced d, bits)) (each_optbits_covered_by (snd x))
                     | None => []
                     end) (all_matches us ds).
(* "does not match any defining RHS", "matches L defining RHSs", "out-of-order", "all match def RHS#" *)
Inductive umsg := no_match (u_i : nat) | many_matches (u_i n : nat) | out_of_order (dis : list nat) | all_match (u_is : list nat) (d_i : nat).
Fixpoint nat_sorted (l : list nat) : bool := match l with a :: ((b :: _) as l') => (a <=? b) && nat_sorted l' | _ => true end.
(* min(dis) *)
Fixpoint nat_min (a : nat) (l : list nat) : nat := match l with [] => a | b :: l' => nat_min (if b <? a then b else a) l' end.
(* emu_grammars.py:1153-1216  "process matches": u_rhs.d_i for each, and the messages *)
Definition process_matches (us : list (list gitem)) (ds : list drhs) : res (list (option nat) * list umsg) :=
  let ms := all_matches us ds in
  let dis_for u_i := map di (filter (fun x => ui x =? u_i) ms) in
  let uis_for d_i := map ui (filter (fun x => di x =? d_i) ms) in
  let per_u := map (fun u_i => match dis_for u_i with
                               | [] => (None, [no_match u_i])
                               | [d] => (Some d, [])
                               | d :: dis => (Some (nat_min d dis), [many_matches u_i (S (length dis))])
                               end) (seq 0 (length us)) in
  do _ <- assert_ (nat_sorted (map ui ms)) ;;
  Ok (map fst per_u,
      flat_map snd per_u ++
      (if nat_sorted (map di ms) then [] else [out_of_order (map di ms)]) ++
      flat_map (fun d_i => match uis_for d_i with [] | [_] => [] | l => [all_match l d_i] end) (seq 0 (length ds))).
