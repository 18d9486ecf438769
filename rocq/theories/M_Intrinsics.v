(* Model of the facts about intrinsic objects, intrinsics.py. *)
From Verif Require Import M_Base M_Dict.

(* ---- properties ---- *)

(* names of attributes: 0 [[Value]], 1 [[Writable]], 2 [[Getter]], 3 [[Setter]], 4 [[Enumerable]], 5 [[Configurable]]; values are numbered *)
Notation attrs := (list (nat * nat)).
Notation A_Value := 0. Notation A_Writable := 1. Notation A_Getter := 2. Notation A_Setter := 3. Notation A_Enumerable := 4. Notation A_Configurable := 5.
(* intrinsics.py:195-213  the assertion in S_Property.__init__ *)
Definition S_Property_ok (a : attrs) : bool :=
  forallb (fun n => nmem n [A_Value; A_Writable; A_Enumerable; A_Configurable]) (map fst a) ||
  forallb (fun n => nmem n [A_Getter; A_Setter; A_Enumerable; A_Configurable]) (map fst a).
Inductive pkind := data | accessor | unknown.
(* intrinsics.py:215-225  S_Property.kind *)
Definition prop_kind (a : attrs) : res pkind :=
  let has n := nmem n (map fst a) in
  let is_data := has A_Value || has A_Writable in
  let is_accessor := has A_Getter || has A_Setter in
  do _ <- assert_ (negb (is_data && is_accessor)) ;;
  Ok (if is_data then data else if is_accessor then accessor else unknown).
(* a == b for dicts *)
Definition dict_eqb (a b : attrs) : bool :=
  (length a =? length b) && forallb (fun e => match nget b (fst e) with Some v => v =? snd e | None => false end) a.
(* intrinsics.py:722-731  merge_propAttrs *)
Fixpoint merge_into (m b : attrs) : res attrs :=
  match b with
  | [] => Ok m
  | (n, v) :: b' =>
    match nget m n with
    | Some w => if v =? w then merge_into m b' else Err AssertionError
    | None => merge_into (nset m n v) b'
    end
  end.
Definition merge_propAttrs (a b : attrs) : res attrs := if dict_eqb a b then Ok a else merge_into a b.
(* intrinsics.py:453-460  S_Intrinsic.ensure_property, on the properties *)
Definition ensure_property (ps : list (nat * attrs)) (key : nat) (a : attrs) : res (list (nat * attrs)) :=
  match nget ps key with
  | None => Ok (nset ps key a)
  | Some old => do m <- merge_propAttrs old a ;; Ok (nset ps key m)
  end.

(* ---- coalescing ---- *)

(* kinds are numbered: 0 'a constructor', 1 'a function object', 2-5 the other kinds listed in apply_defaults, 6 'host-defined non-function' *)
Notation K_constructor := 0. Notation K_function := 1. Notation K_ordinary := 2. Notation K_host := 6.
(* values of slots: the two forms of [[ccb]], with the section, and others *)
Inductive sval := prose_in (section : nat) | emu_alg_in (section : nat) | other_val (v : nat).
Definition sval_eqb (a b : sval) : bool :=
  match a, b with
  | prose_in x, prose_in y | emu_alg_in x, emu_alg_in y | other_val x, other_val y => x =? y
  | _, _ => false
  end.
(* curr_value.replace('prose in', 'emu-alg in') *)
Definition to_emu_alg (v : sval) : sval := match v with prose_in s => emu_alg_in s | _ => v end.
(* names of slots: 0 [[ccb]], 1 [[Prototype]], 2 [[Extensible]], others *)
Notation S_ccb := 0. Notation S_Prototype := 1. Notation S_Extensible := 2.
Record intrinsic := mkI { i_kind : option nat; i_slots : list (nat * sval); i_properties : list (nat * attrs) }.
Definition new_intrinsic : intrinsic := mkI None [] [].

Inductive fact := exists_ | is_ (kind : nat) | has_slot (name : nat) (value : sval) | has_prop (key : nat) (a : attrs).
(* intrinsics.py:251-268 *)
Definition merge_kind (curr : option nat) (kind : nat) : res (option nat) :=
  match curr with
  | None => Ok (Some kind)
  | Some k =>
    if k =? kind then Ok (Some k)
    else if (k =? K_constructor) && (kind =? K_function) || (k =? K_function) && (kind =? K_constructor) then Ok (Some K_constructor)
    else Err AssertionError
  end.
(* intrinsics.py:270-283 *)
Definition merge_slot (slots : list (nat * sval)) (name : nat) (value : sval) : res (list (nat * sval)) :=
  match nget slots name with
  | None => Ok (nset slots name value)
  | Some curr =>
    if sval_eqb curr value then Ok slots
    else if name =? S_ccb then Ok (nset slots name (to_emu_alg curr))
    else Err AssertionError
  end.
Definition apply_fact (i : intrinsic) (f : fact) : res intrinsic :=
  match f with
  | exists_ => Ok i
  | is_ k => do k' <- merge_kind (i_kind i) k ;; Ok (mkI k' (i_slots i) (i_properties i))
  | has_slot n v => do s <- merge_slot (i_slots i) n v ;; Ok (mkI (i_kind i) s (i_properties i))
  | has_prop k a => do p <- ensure_property (i_properties i) k a ;; Ok (mkI (i_kind i) (i_slots i) p)
  end.
(* intrinsics.py:238-289  coalesce_intrinsic_facts; the state is intrinsic_named_, in the order of all_intrinsics.
   (A fact with another verb would fail an assertion: not modelled.) *)
Fixpoint coalesce (st : list (nat * intrinsic)) (facts : list (nat * fact)) : res (list (nat * intrinsic)) :=
  match facts with
  | [] => Ok st
  | (L, f) :: facts' =>
    (* intrinsics.py:391-394  ensure_intrinsic_named *)
    let i := match nget st L with Some i => i | None => new_intrinsic end in
    do i' <- apply_fact i f ;;
    coalesce (nset st L i') facts'
  end.

(* ---- defaults ---- *)

(* intrinsics.py:687-704  apply_defaults_for_property *)
Fixpoint fill (a defaults : attrs) : attrs :=
  match defaults with
  | [] => a
  | (n, v) :: d => fill (match nget a n with Some _ => a | None => nset a n v end) d
  end.
Definition apply_defaults_for_property (ps : list (nat * attrs)) (key : nat) (defaults : attrs) : res (list (nat * attrs)) :=
  match nget ps key with
  | Some a => Ok (nset ps key (fill a defaults))
  | None => do _ <- assert_ (S_Property_ok defaults) ;; ensure_property ps key defaults
  end.
(* keys of properties: 0 "length", 1 "name"; values of attributes: 0 *false*, 1 *true*; names of intrinsics: 0 %(global)%,
   1 %Array.prototype[%Symbol.unscopables%]% ; values of slots: other_val 0 *true*, 1 %Function.prototype%, 2 *null* *)
Notation P_length := 0. Notation P_name := 1. Notation V_false := 0. Notation V_true := 1.
Notation N_global := 0. Notation N_unscopables := 1.
Definition is_function (k : nat) : bool := (k =? K_constructor) || (k =? K_function).
(* intrinsics.py:466-482 *)
Definition default_kind (name : nat) (k : option nat) : res nat :=
  if name =? N_global then match k with None => Ok K_host | Some _ => Err AssertionError end
  else if name =? N_unscopables then match k with None => Ok K_ordinary | Some _ => Err AssertionError end
  else match k with
       | Some k => do _ <- assert_ (nmem k [0; 1; 2; 3; 4; 5]) ;; Ok k
       | None => Err AssertionError
       end.
(* intrinsics.py:487-531 *)
Definition default_slots (name k : nat) (s : list (nat * sval)) : res (list (nat * sval)) :=
  let s := match nget s S_Extensible with Some _ => s | None => nset s S_Extensible (other_val 0) end in
  match nget s S_Prototype with
  | Some _ => Ok s
  | None =>
    if is_function k then Ok (nset s S_Prototype (other_val 1))
    else if name =? N_unscopables then Ok (nset s S_Prototype (other_val 2))
    else Err AssertionError
  end.
(* intrinsics.py:659-683  the loop on the properties *)
Fixpoint default_props (k : nat) (keys : list nat) (ps : list (nat * attrs)) : res (list (nat * attrs)) :=
  match keys with
  | [] => Ok ps
  | key :: keys' =>
    if nmem key [P_length; P_name] && is_function k then default_props k keys' ps
    else
      do a <- nidx ps key ;;
      do pk <- prop_kind a ;;
      let d := match pk with
               | data => [(A_Writable, V_true); (A_Enumerable, V_false); (A_Configurable, V_true)]
               | accessor => [(A_Enumerable, V_false); (A_Configurable, V_true)]
               | unknown => []
               end in
      do ps' <- apply_defaults_for_property ps key d ;;
      default_props k keys' ps'
  end.
(* intrinsics.py:462-683  S_Intrinsic.apply_defaults; [len] and [nam] are the default values of "length" and "name"
   (how they are found, lines 555-583 and 619-634, which can fail, is not modelled) *)
Definition apply_defaults (name : nat) (i : intrinsic) (len nam : nat) : res intrinsic :=
  do k <- default_kind name (i_kind i) ;;
  do s <- default_slots name k (i_slots i) ;;
  do ps <- (if is_function k then
              let d v := [(A_Value, v); (A_Writable, V_false); (A_Enumerable, V_false); (A_Configurable, V_true)] in
              do _ <- nidx s S_ccb ;;
              do ps <- apply_defaults_for_property (i_properties i) P_length (d len) ;;
              apply_defaults_for_property ps P_name (d nam)
            else Ok (i_properties i)) ;;
  do ps' <- default_props k (map fst ps) ps ;;
  Ok (mkI (Some k) s ps').

(* ---- creation order ---- *)

Inductive proto := P_null | P_host_defined | P_named (name : nat).
(* slots['[[Prototype]]'], if the slot is there; the number of an intrinsic stands for its name, in the order of the names *)
Record cintr := mkC { c_name : nat; c_proto : option proto }.
(* intrinsics.py:708-718  get_creation_rank; [memo]: the creation_rank attributes set so far *)
Fixpoint get_creation_rank (fuel : nat) (all : list cintr) (memo : list (nat * nat)) (i : cintr) : res (nat * list (nat * nat)) :=
  match fuel with
  | O => Err OutOfFuel
  | S f =>
    match nget memo (c_name i) with
    | Some r => Ok (r, memo)
    | None =>
      match c_proto i with
      | None => Err KeyError
      | Some (P_null | P_host_defined) => Ok (0, nset memo (c_name i) 0)
      | Some (P_named p) =>
        match find (fun j => c_name j =? p) all with
        | None => Err KeyError
        | Some j =>
          do rm <- get_creation_rank f all memo j ;;
          Ok (1 + fst rm, nset (snd rm) (c_name i) (1 + fst rm))
        end
      end
    end
  end.
(* intrinsics.py:309-312 *)
Fixpoint group_by_rank (fuel : nat) (all : list cintr) (memo : list (nat * nat)) (l : list cintr) (groups : list (nat * list cintr)) : res (list (nat * list cintr)) :=
  match l with
  | [] => Ok groups
  | i :: l' =>
    do rm <- get_creation_rank fuel all memo i ;;
    let g := match nget groups (fst rm) with Some g => g | None => [] end in
    group_by_rank fuel all (snd rm) l' (nset groups (fst rm) (g ++ [i]))
  end.
(* intrinsics.py:308-317  determine_creation_order *)
Definition determine_creation_order (fuel : nat) (all : list cintr) : res (list cintr) :=
  do groups <- group_by_rank fuel all [] all [] ;;
  Ok (flat_map (fun g => isort (fun a b => c_name a <=? c_name b) (snd g)) (isort (fun a b => fst a <=? fst b) groups)).
