(* Model of DFA.py: subset construction over an arbitrary item system.
   Items and symbols are natural numbers, standing for any hashable, totally ordered objects. *)
From Verif Require Import M_Base.

Section DFA.
  (* DFA.py:14-18, 77  item.each_transition(): the pairs (symbol, item); None is an epsilon transition *)
  Variable tr : nat -> list (option nat * nat).

  (* DFA.py:66-91  what _close adds to a state *)
  Record closure := mkClo {
    items : list nat;                         (* 66, keys of the OrderedDict in order *)
    final_items : list nat;                   (* 72 *)
    transition_items : list (nat * list nat); (* 73, insertion order *)
    transitions : list (nat * nat) }.         (* 88, symbol -> number of the next state *)

  (* DFA.py:54-58; [clo] is None until _close has run *)
  Record state := mkState { number : nat; kernel : list nat; eg_accessor : list nat; clo : option closure }.

  (* DFA.py:25-26  state_for_kernel_ (values, in insertion order) and _open_states (numbers) *)
  Record automaton := mkAut { states : list state; open_states : list nat }.

  Definition memb (x : nat) (l : list nat) : bool := existsb (Nat.eqb x) l.

  (* DFA.py:95-99  items, _unprocessed_items *)
  Definition include_item (iu : list nat * list nat) (item : nat) : list nat * list nat :=
    let '(its, unp) := iu in
    if memb item its then (its, unp) else (its ++ [item], unp ++ [item]).

  (* DFA.py:84  defaultdict(list)[symbol].append(next_item) *)
  Fixpoint dd_append (s : nat) (x : nat) (d : list (nat * list nat)) : list (nat * list nat) :=
    match d with
    | [] => [(s, [x])]
    | (s', l) :: d' => if s =? s' then (s', l ++ [x]) :: d' else (s', l) :: dd_append s x d'
    end.

  (* DFA.py:77-84 *)
  Fixpoint scan_transitions (ts : list (option nat * nat)) (iu : list nat * list nat) (ti : list (nat * list nat))
    : (list nat * list nat) * list (nat * list nat) :=
    match ts with
    | [] => (iu, ti)
    | (None, x) :: ts' => scan_transitions ts' (include_item iu x) ti
    | (Some s, x) :: ts' => scan_transitions ts' iu (dd_append s x ti)
    end.

  (* DFA.py:74-86 *)
  Fixpoint close_loop (fuel : nat) (its unp fin : list nat) (ti : list (nat * list nat))
    : res (list nat * list nat * list (nat * list nat)) :=
    match fuel with
    | O => Err OutOfFuel
    | S f =>
      match unp with
      | [] => Ok (its, fin, ti)
      | item :: unp' =>
        let '((its', unp''), ti') := scan_transitions (tr item) (its, unp') ti in
        let fin' := match tr item with [] => fin ++ [item] | _ => fin end in
        close_loop f its' unp'' fin' ti'
      end
    end.

  Fixpoint keqb (a b : list nat) : bool :=
    match a, b with
    | [], [] => true
    | x :: a', y :: b' => (x =? y) && keqb a' b'
    | _, _ => false
    end.

  (* DFA.py:35-46; returns the number of the state *)
  Definition ensure_state_for_kernel (a : automaton) (k acc : list nat) : res (automaton * nat) :=
    let k' := isort Nat.leb k in                                                       (* 36 *)
    match find (fun st => keqb (kernel st) k') (states a) with
    | Some st =>
      do _ <- assert_ (length (eg_accessor st) <=? length acc) ;;                      (* 39 *)
      Ok (a, number st)
    | None =>
      let n := length (states a) in                                                    (* 42 *)
      Ok (mkAut (states a ++ [mkState n k' acc None]) (open_states a ++ [n]), n)
    end.

  (* DFA.py:88-91 *)
  Fixpoint make_transitions (a : automaton) (acc : list nat) (ti : list (nat * list nat)) (done : list (nat * nat))
    : res (automaton * list (nat * nat)) :=
    match ti with
    | [] => Ok (a, done)
    | (s, next_items) :: ti' =>
      do (a', n) <- ensure_state_for_kernel a next_items (acc ++ [s]) ;;
      make_transitions a' acc ti' (done ++ [(s, n)])
    end.

  Fixpoint set_clo (n : nat) (c : closure) (sts : list state) : list state :=
    match sts, n with
    | [], _ => []
    | st :: sts', O => mkState (number st) (kernel st) (eg_accessor st) (Some c) :: sts'
    | st :: sts', S n' => st :: set_clo n' c sts'
    end.

  (* DFA.py:65-93; sorted() compares pairs, and the symbols are distinct, so it sorts by symbol *)
  Definition close_state (fuel : nat) (a : automaton) (st : state) : res automaton :=
    let '(its, unp) := fold_left include_item (kernel st) ([], []) in                  (* 66-70 *)
    do (its', fin, ti) <- close_loop fuel its unp [] [] ;;
    do (a', ts) <- make_transitions a (eg_accessor st) (isort (fun p q => fst p <=? fst q) ti) [] ;;
    Ok (mkAut (set_clo (number st) (mkClo its' fin ti ts) (states a')) (open_states a')).

  (* DFA.py:30-33; should_be_closed is the base class's: always true *)
  Fixpoint main_loop (fuel ifuel : nat) (a : automaton) : res automaton :=
    match fuel with
    | O => Err OutOfFuel
    | S f =>
      match open_states a with
      | [] => Ok a
      | n :: rest =>
        match nth_error (states a) n with
        | None => Err IndexError                       (* cannot happen: open states are references *)
        | Some st => do a' <- close_state ifuel (mkAut (states a) rest) st ;; main_loop f ifuel a'
        end
      end
    end.

  (* DFA.py:12-33 *)
  Definition build_automaton (fuel : nat) (item0 : nat) : res automaton :=
    do (a, _) <- ensure_state_for_kernel (mkAut [] []) [item0] [] ;;
    main_loop fuel fuel a.
End DFA.
