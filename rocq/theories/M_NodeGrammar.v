(* Model of NodeGrammar.py.
   A compiled regular expression is an abstract function from the inner source
   text to the groups of its full match, if any. Everything a scan does besides
   returning a value is recorded, in order, as a list of events. *)
From Verif Require Import M_Base.

Section NG.
  Context {R : Type}.

  (* the parts of an HNode used by NodeGrammar.py:125, 143, 147-149 *)
  Record node := mkNode { n_name : text; n_inner : text; n_start : nat }.

  (* NodeGrammar.py:26-31, 42-47  compiled atoms *)
  Inductive atom := AName (name : text) | ARegex (name : text) (re : text -> option (list text)).

  (* result of node_matches_atom: a bool (or None), or a match object *)
  Inductive mres := MBool (b : bool) | MMatch (groups : list text).
  Definition truthy (m : mres) : bool := match m with MBool b => b | MMatch _ => true end.

  (* NodeGrammar.py:141-152 *)
  Definition node_matches_atom (n : node) (a : atom) : mres :=
    match a with
    | AName name => MBool (text_eqb (n_name n) name)
    | ARegex name re =>
      if text_eqb (n_name n) name then
        match re (n_inner n) with Some g => MMatch g | None => MBool false end
      else MBool false
    end.

  Inductive arg := ArgSection | ArgText (t : text) | ArgMatch (groups : list text) | ArgNode (n : node).
  Inductive presult := RNone | RList (rs : list R) | ROne (r : R).

  (* processors (86-121); a callable may raise *)
  Inductive processor := PNone | PPrint | PCall (f : list arg -> res presult) | PBad.

  (* NodeGrammar.py:134-139 *)
  Record unit_ := mkUnit { u_pattern : list atom; u_proc : processor }.

  (* NodeGrammar.py:54-59  None: assert 0 *)
  Inductive section_kind :=
    SK_sdo | SK_early_errors | SK_changes
  | SK_CallConstruct | SK_function_property | SK_accessor_property | SK_other_property
  | SK_other (name : text).
  Definition arguments_style (k : section_kind) : res nat :=
    match k with
    | SK_sdo | SK_early_errors | SK_changes => Ok 1
    | SK_CallConstruct | SK_function_property | SK_accessor_property | SK_other_property => Ok 2
    | SK_other _ => Err AssertionError
    end.

  Fixpoint zip_match (ns : list node) (ats : list atom) : list mres :=
    match ns, ats with
    | n :: ns', a :: ats' => node_matches_atom n a :: zip_match ns' ats'
    | _, _ => []
    end.

  (* NodeGrammar.py:68-79: does this unit match at the front of [rest]? *)
  Definition try_unit (u : unit_) (rest : list node) : option (list mres) :=
    if length rest <? length (u_pattern u) then None              (* 69-71 *)
    else
      let mrs := zip_match rest (u_pattern u) in                  (* 73-76 *)
      if forallb truthy mrs then Some mrs else None.              (* 77-79 *)

  (* NodeGrammar.py:65  for unit in self.units *)
  Fixpoint find_unit (i : nat) (us : list unit_) (rest : list node) : option (nat * unit_ * list mres) :=
    match us with
    | [] => None
    | u :: us' =>
      match try_unit u rest with
      | Some mrs => Some (i, u, mrs)
      | None => find_unit (S i) us' rest
      end
    end.

  (* NodeGrammar.py:97-105 *)
  Fixpoint args_of (style : nat) (ns : list node) (mrs : list mres) : list arg :=
    match ns, mrs with
    | n :: ns', m :: mrs' =>
      match m with
      | MMatch ((_ :: _) as g) =>
        (if style =? 1 then map ArgText g else [ArgMatch g]) ++ args_of style ns' mrs'
      | _ => ArgNode n :: args_of style ns' mrs'
      end
    | _, _ => []
    end.

  Inductive event :=
  | EMatch (i : nat)                      (* 82  unit.counter += 1 *)
  | EPrint (ns : list node)               (* 89-91 *)
  | ECall (i : nat) (args : list arg)     (* 107 *)
  | EMsg (posn : nat).                    (* 125 *)

  Definition res_list (r : presult) : list R :=                   (* 114-119 *)
    match r with RNone => [] | RList rs => rs | ROne r => [r] end.

  (* NodeGrammar.py:64-127, [rest] is hnodes[next_i:] *)
  Fixpoint scan_loop (fuel : nat) (style : nat) (us : list unit_) (rest : list node) (results : list R)
    : list event * res (list R) :=
    match fuel with
    | O => ([], Err OutOfFuel)
    | S f =>
      match rest with
      | [] => ([], Ok results)                                    (* 127 *)
      | n0 :: _ =>
        match find_unit 0 us rest with
        | None => ([EMsg (n_start n0)], Ok [])                    (* 125-126 *)
        | Some (i, u, mrs) =>
          let n := length (u_pattern u) in
          let matched := firstn n rest in                         (* 84 *)
          let next := skipn n rest in                             (* 122 *)
          match u_proc u with
          | PNone =>
            let (es, r) := scan_loop f style us next results in (EMatch i :: es, r)
          | PPrint =>
            let (es, r) := scan_loop f style us next results in (EMatch i :: EPrint matched :: es, r)
          | PCall g =>
            let args := (if style =? 2 then [ArgSection] else []) ++ args_of style matched mrs in
            match g args with
            | Err e => ([EMatch i; ECall i args], Err e)          (* 108-113 *)
            | Ok r0 =>
              let (es, r) := scan_loop f style us next (results ++ res_list r0) in
              (EMatch i :: ECall i args :: es, r)
            end
          | PBad => ([EMatch i], Err AssertionError)              (* 121 *)
          end
        end
      end
    end.

  (* NodeGrammar.py:53-62 *)
  Definition scan_section (fuel : nat) (us : list unit_) (k : section_kind) (hnodes : list node)
    : list event * res (list R) :=
    match arguments_style k with
    | Err e => ([], Err e)
    | Ok style => scan_loop fuel style us hnodes []
    end.
End NG.
