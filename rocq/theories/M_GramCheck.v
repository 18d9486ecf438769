(* Model of enumerations and checks of the grammar modules, es_parser.py and emu_grammars.py. *)
From Verif Require Import M_Base M_Dict.

(* es_parser.py:140-176  each_boolean_vector_of_length, the vectors yielded *)
Definition each_boolean_vector_of_length (n : nat) : res (list (list bool)) :=
  let F := false in
  let T := true in
  match n with
  | 0 => Ok [[]]
  | 1 => Ok [[F]; [T]]
  | 2 => Ok [[F; F]; [F; T]; [T; F]; [T; T]]
  | 3 => Ok [[F; F; F]; [F; F; T]; [F; T; F]; [F; T; T]; [T; F; F]; [T; F; T]; [T; T; F]; [T; T; T]]
  | 4 => Ok [[F; F; F; F]; [F; F; F; T]; [F; F; T; F]; [F; F; T; T]; [F; T; F; F]; [F; T; F; T]; [F; T; T; F]; [F; T; T; T];
             [T; F; F; F]; [T; F; F; T]; [T; F; T; F]; [T; F; T; T]; [T; T; F; F]; [T; T; F; T]; [T; T; T; F]; [T; T; T; T]]
  | _ => Err AssertionError
  end.
(* es_parser.py:129-138  each_params_setting; a setting is a sign (true for +) and a parameter name *)
Definition each_params_setting (params : list nat) : res (list (list (bool * nat))) :=
  do vs <- each_boolean_vector_of_length (length params) ;;
  Ok (map (fun bools => combine bools params) vs).

(* es_parser.py:179-197  expand_nt_wrt_params_setting; the arguments of a nonterminal have a prefix *)
Inductive arg_prefix := AQuestion | APlus | ATilde | AOther.
Fixpoint expand_args (args : list (arg_prefix * nat)) (setting : list (bool * nat)) : res (list (bool * nat)) :=
  match args with
  | [] => Ok []
  | (p, a) :: args' =>
    do s <- match p with
            | AQuestion => match find (fun e => snd e =? a) setting with
                           | Some e => Ok e
                           | None => Err AssertionError
                           end
            | APlus => Ok (true, a)
            | ATilde => Ok (false, a)
            | AOther => Err AssertionError
            end ;;
    do r <- expand_args args' setting ;; Ok (s :: r)
  end.
Definition expand_nt_wrt_params_setting (nt : nat) (args : list (arg_prefix * nat)) (setting : list (bool * nat)) : res (nat * list (bool * nat)) :=
  do r <- expand_args args setting ;; Ok (nt, r).

(* emu_grammars.py:1134-1146  each_optbits_covered_by, the bit strings yielded; the name in each pair is not used *)
Inductive optionality := omitted | required | either.
Fixpoint each_optbits_covered_by (optionals : list optionality) : list (list bool) :=
  match optionals with
  | [] => [[]]
  | o :: tail =>
    (match o with omitted | either => map (cons false) (each_optbits_covered_by tail) | _ => [] end) ++
    (match o with required | either => map (cons true) (each_optbits_covered_by tail) | _ => [] end)
  end.

(* ---- matching a used right-hand side with a defining one ---- *)

(* kinds of the items of a right-hand side other than GNT and RHS_SYMBOL_QM *)
Inductive ikind := BACKTICKED_THING | NAMED_CHAR | U_RANGE | U_PROP | U_ANY | PARAMS | LABEL | BUT_ONLY | BUT_NOT | LAC_SINGLE | LAC_SET | NLTH.
Definition ikind_eqb (a b : ikind) : bool :=
  match a, b with
  | BACKTICKED_THING, BACKTICKED_THING | NAMED_CHAR, NAMED_CHAR | U_RANGE, U_RANGE | U_PROP, U_PROP | U_ANY, U_ANY | PARAMS, PARAMS
  | LABEL, LABEL | BUT_ONLY, BUT_ONLY | BUT_NOT, BUT_NOT | LAC_SINGLE, LAC_SINGLE | LAC_SET, LAC_SET | NLTH, NLTH => true
  | _, _ => false
  end.
(* a symbol or other item: GNT with name and parameters, or another kind with its source text (numbered) *)
Inductive gsym := GNT (nt_name : nat) (params : list nat) | Sym (k : ikind) (source_text : nat).
Inductive gitem := Plain (s : gsym) | QM (s : gsym).    (* QM: RHS_SYMBOL_QM *)

(* the notes (without those named L-...) and messages *)
Inductive note :=
| optional_symbol (s : gsym) (o : optionality)
| nt_args_intact (nt : nat)
| nt_args_suppressed (nt : nat)
| annotations_intact (t : nat)
| annotations_suppressed (t : nat).
Inductive gmsg :=
| params_differ (u d : gsym)       (* "use says ... but def says ..." *)
| params_where_none (u : gsym).    (* "use has params where def has none" *)

Fixpoint params_eqb (a b : list nat) : bool :=
  match a, b with
  | [], [] => true
  | x :: a', y :: b' => (x =? y) && params_eqb a' b'
  | _, _ => false
  end.

(* emu_grammars.py:1284-1346  two items that are not RHS_SYMBOL_QM *)
Definition sym_matches (u d : gsym) : option (list note) * list gmsg :=
  match u, d with
  | GNT un ups, GNT dn dps =>
    if negb (un =? dn) then (None, [])
    else match dps with
         | _ :: _ =>
           match ups with
           | _ :: _ => (Some [nt_args_intact un], if params_eqb ups dps then [] else [params_differ u d])
           | [] => (Some [nt_args_suppressed un], [])
           end
         | [] => (Some [], match ups with [] => [] | _ => [params_where_none u] end)
         end
  | Sym uk ut, Sym dk dt =>
    if negb (ikind_eqb uk dk) then (None, [])
    else if negb (ut =? dt) then (None, [])
    else (Some (match uk with LAC_SINGLE | LAC_SET | NLTH => [annotations_intact ut] | _ => [] end), [])
  | _, _ => (None, [])
  end.
(* emu_grammars.py:1254-1346  u_item_matches_d_item *)
Definition item_matches (u d : gitem) : option (list note) * list gmsg :=
  match d with
  | QM ds =>
    let (us, o) := match u with QM us => (us, either) | Plain us => (us, required) end in
    let (m, msgs) := sym_matches us ds in
    (match m with Some n => Some (n ++ [optional_symbol ds o]) | None => None end, msgs)
  | Plain ds => match u with Plain us => sym_matches us ds | QM _ => (None, []) end
  end.
(* emu_grammars.py:1348-1356  d_item_doesnt_require_a_matching_u_item *)
Definition item_optional (d : gitem) : option (list note) :=
  match d with
  | Plain (Sym (PARAMS | LABEL | BUT_ONLY | BUT_NOT | LAC_SINGLE | LAC_SET | NLTH) t) => Some [annotations_suppressed t]
  | QM ds => Some [optional_symbol ds omitted]
  | _ => None
  end.
(* emu_grammars.py:1222-1252  u_rhs_matches_d_rhs_; the notes in the order in which they are made, and the messages *)
Fixpoint u_rhs_matches_d_rhs (us ds : list gitem) : option (list note) * list gmsg :=
  match ds with
  | [] => (match us with [] => Some [] | _ => None end, [])
  | d :: ds' =>
    let (m, msgs) := match us with u :: _ => item_matches u d | [] => (None, []) end in
    match m with
    | Some n =>
      let (r, msgs') := u_rhs_matches_d_rhs (tl us) ds' in
      (match r with Some n' => Some (n ++ n') | None => None end, msgs ++ msgs')
    | None =>
      match item_optional d with
      | Some n =>
        let (r, msgs') := u_rhs_matches_d_rhs us ds' in
        (match r with Some n' => Some (n ++ n') | None => None end, msgs ++ msgs')
      | None => (None, msgs)
      end
    end
  end.
(* notes['optional-symbol'] *)
Definition optional_notes (ns : list note) : list optionality :=
  flat_map (fun n => match n with optional_symbol _ o => [o] | _ => [] end) ns.

(* ---- reachability ---- *)

(* the parts of a right-hand side that check_reachability looks at *)
Inductive ritem :=
| R_QM_nt (n : nat) | R_QM_other
| R_GNT (n : nat)
| R_BUT_NOT (nts : list nat)          (* the nonterminals among the excludables *)
| R_LAC_SET (operand : option nat)    (* the operand, if it is a nonterminal *)
| R_other                             (* the kinds at which nothing is done *)
| R_unexpected.                       (* any other kind *)
(* info_for_nt_: name, definition in the main arena (if there is one) as the items of all its right-hand sides, num_colons *)
Record nt_info := mkNT { nt_name : nat; nt_def : option (list ritem); num_colons : nat }.

(* emu_grammars.py:742-751  reach, on (lexical_symbols, queue) *)
Definition reach (st : list nat * list nat) (x : nat) : list nat * list nat :=
  if nmem x (fst st) then st
  else (fst st ++ [x], if nmem x (snd st) then snd st else snd st ++ [x]).
(* emu_grammars.py:772-800 *)
Fixpoint reach_items (its : list ritem) (st : list nat * list nat) : res (list nat * list nat) :=
  match its with
  | [] => Ok st
  | it :: its' =>
    do st' <- match it with
              | R_QM_nt n | R_GNT n | R_LAC_SET (Some n) => Ok (reach st n)
              | R_QM_other | R_other | R_LAC_SET None => Ok st
              | R_BUT_NOT ns => Ok (fold_left reach ns st)
              | R_unexpected => Err AssertionError
              end ;;
    reach_items its' st'
  end.
(* emu_grammars.py:767-800  the loop on the queue *)
Fixpoint reach_loop (fuel : nat) (g : list nt_info) (st : list nat * list nat) : res (list nat) :=
  match fuel with
  | O => Err OutOfFuel
  | S f =>
    match snd st with
    | [] => Ok (fst st)
    | x :: q =>
      match find (fun i => nt_name i =? x) g with
      | None => Err KeyError
      | Some i =>
        match nt_def i with
        | None => Err KeyError
        | Some its => do st' <- reach_items its (fst st, q) ;; reach_loop f g st'
        end
      end
    end
  end.
(* emu_grammars.py:737-804  check_reachability from the given start symbols: the symbols logged as not reached (in some order) *)
Definition check_reachability (fuel : nat) (g : list nt_info) (starts : list nat) : res (list nat) :=
  do l <- reach_loop fuel g (fold_left reach starts ([], [])) ;;
  Ok (map nt_name (filter (fun i => match nt_def i with Some _ => true | None => false end && negb (num_colons i =? 1) && negb (nmem (nt_name i) l)) g)).
