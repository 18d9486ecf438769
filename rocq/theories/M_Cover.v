(* Model of the analysis of the coverage of a syntax-directed operation, Pseudocode.py. *)
From Verif Require Import M_Base M_PNode.
Open Scope list_scope.

(* the symbol of an RHS_SYMBOL_QM: a GNT, or a terminal *)
Inductive csym := C_GNT (nt_name : text) | C_term.
(* the items of a right-hand side by kind: GNT, RHS_SYMBOL_QM, others *)
Inductive citem := I_GNT (nt_name : text) | I_QM (s : csym) | I_other.
(* a right-hand side with its _reduced *)
Record crhs := mkRhs { reduced : text; citems : list citem }.
(* the nonterminals that have def_occs['A'], with the right-hand sides *)
Notation cgrammar := (list (text * list crhs)).
Definition def_occ (g : cgrammar) (nt : text) : option (list crhs) :=
  match find (fun e => text_eqb (fst e) nt) g with Some (_, rs) => Some rs | None => None end.
(* Pseudocode.py:1574-1599  each_opt_combo, what it yields (true for 'required') *)
Definition each_opt_combo (RSQs : list csym) : res (list (list (csym * bool))) :=
  let O := false in
  let R := true in
  match RSQs with
  | [] => Ok [[]]
  | [a] => Ok [[(a, O)]; [(a, R)]]
  | [a; b] => Ok [[(a, O); (b, O)]; [(a, O); (b, R)]; [(a, R); (b, O)]; [(a, R); (b, R)]]
  | [a; b; c] => Ok [[(a, O); (b, O); (c, O)]; [(a, O); (b, O); (c, R)]; [(a, O); (b, R); (c, O)]; [(a, O); (b, R); (c, R)];
                     [(a, R); (b, O); (c, O)]; [(a, R); (b, O); (c, R)]; [(a, R); (b, R); (c, O)]; [(a, R); (b, R); (c, R)]]
  | _ => Err AssertionError
  end.
(* Pseudocode.py:1601-1602  required_nts_in *)
Definition required_nts_in (combo : list (csym * bool)) : list text :=
  flat_map (fun e => match e with (C_GNT nt, true) => [nt] | _ => [] end) combo.
(* Pseudocode.py:1516, 1518 *)
Definition RSQs_of (r : crhs) : list csym := flat_map (fun i => match i with I_QM s => [s] | _ => [] end) (citems r).
Definition nGNTs_of (r : crhs) : list text := flat_map (fun i => match i with I_GNT nt => [nt] | _ => [] end) (citems r).

(* the lines put: "is handled by {n} rules!", "needs a rule", "has unused rule for" *)
Inductive cmsg := Handled (k : puk) (n : nat) | NeedsRule (k : puk) | Unused (k : puk).
Record cstate := mkC { nt_queue : list text; used_keys : list puk; out : list cmsg }.
Section Cover.
  Variable g : cgrammar.
  (* coverage_info_for_this_sdo; is_sdo_coverage_exception(sdo_name, lhs_nt, reduced) *)
  Variable m : sdo_map.
  Variable exc : text -> text -> bool.
  (* Pseudocode.py:1502-1503  queue_ensure *)
  Definition queue_ensure (nt : text) (st : cstate) : cstate :=
    if existsb (text_eqb nt) (nt_queue st) then st else mkC (nt_queue st ++ [nt]) (used_keys st) (out st).
  Definition say (x : cmsg) (st : cstate) : cstate := mkC (nt_queue st) (used_keys st) (out st ++ [x]).
  (* Pseudocode.py:1522-1563  the body for one combination *)
  Definition do_combo (lhs_nt : text) (r : crhs) (combo : list (csym * bool)) (st : cstate) : cstate :=
    let k : puk := (lhs_nt, reduced r, map (fun e : csym * bool => if snd e then 1 else 0) combo) in
    let st := mkC (nt_queue st) (k :: used_keys st) (out st) in
    match match pget m k with Some rules => List.length rules | None => 0 end with
    | 1 => st
    | 0 =>
      if exc lhs_nt (reduced r) then st
      else match nGNTs_of r ++ required_nts_in combo with
           | [nt] => queue_ensure nt st
           | _ => say (NeedsRule k) st
           end
    | n => say (Handled k n) st
    end.
  (* Pseudocode.py:1515-1563  the loop over the right-hand sides *)
  Fixpoint do_rhss (lhs_nt : text) (rs : list crhs) (st : cstate) : res cstate :=
    match rs with
    | [] => Ok st
    | r :: rs' =>
      do combos <- each_opt_combo (RSQs_of r) ;;
      do_rhss lhs_nt rs' (fold_left (fun st c => do_combo lhs_nt r c st) combos st)
    end.
  (* Pseudocode.py:1507-1563  the loop over nt_queue, which grows meanwhile *)
  Fixpoint do_queue (fuel i : nat) (st : cstate) : res cstate :=
    match fuel with
    | 0 => Err OutOfFuel
    | S f =>
      match nth_error (nt_queue st) i with
      | None => Ok st
      | Some nt =>
        do st' <- match def_occ g nt with None => Ok st | Some rs => do_rhss nt rs st end ;;
        do_queue f (S i) st'
      end
    end.
  (* Pseudocode.py:1374-1567  what is put for one operation that is neither in ops_with_implicit_defns nor 'Early Errors', given
     sorted(nt_set). The unused keys are not sorted here. *)
  Definition analyze (fuel : nat) (nts : list text) : res (list cmsg) :=
    do st <- do_queue fuel 0 (mkC nts [] []) ;;
    Ok (out st ++ map Unused (filter (fun k => negb (existsb (puk_eqb k) (used_keys st))) (map fst m))).
End Cover.
