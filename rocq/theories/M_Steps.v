(* Model of the report on references to steps (Pseudocode.py:35-131): check_step_references, each_step_ref, find_deepest_node_covering_posn. *)
From Coq Require Import Ascii String.
From Verif Require Import M_Base M_HTML M_Shared M_Indent M_Defs M_Refs M_Style M_PropPath M_Tables.
Open Scope list_scope.
Open Scope nat_scope.
Notation length := List.length.

(* ---------- Pseudocode.py:117-129  find_deepest_node_covering_posn ---------- *)
(* a node of the document: its identity, element_name, start_posn, end_posn and children *)
Inductive snode := SNode (i : nat) (name : text) (s e : nat) (ch : list snode).
Definition s_id n := match n with SNode i _ _ _ _ => i end.
Definition s_name n := match n with SNode _ x _ _ _ => x end.
Definition s_start n := match n with SNode _ _ s _ _ => s end.
Definition s_end n := match n with SNode _ _ _ e _ => e end.
Definition s_children n := match n with SNode _ _ _ _ ch => ch end.
Definition covers (posn : nat) (n : snode) : bool := (s_start n <=? posn) && (posn <=? s_end n).
(* the node found with its ancestors, the nearest first *)
Fixpoint deepest (posn : nat) (anc : list snode) (n : snode) {struct n} : res (list snode) :=
  match n with
  | SNode _ _ _ _ ch =>
    if covers posn n then
      match ch with
      | [] => Ok (n :: anc)
      | _ => (fix go (l : list snode) : res (list snode) :=
                match l with
                | [] => Err AssertionError
                | c :: l' => if covers posn c then deepest posn (n :: anc) c else go l'
                end) ch
      end
    else Err AssertionError
  end.
(* HTML.py:218-219, 254-263  is_a_section, closest_containing_section, of a node given with its ancestors *)
Definition is_sec (n : snode) : bool := existsb (text_eqb (s_name n)) [tx "emu-intro"; tx "emu-clause"; tx "emu-annex"].
Definition closest_section (path : list snode) : option nat := match find is_sec path with Some n => Some (s_id n) | None => None end.

Section Steps.
Variable uniword : N -> bool.   (* which characters beyond ASCII are \w *)

(* re.IGNORECASE: a character of a pattern (here never i or k) against one of the text; U+017F is a form of s *)
Definition lower1 (c : N) : N := if upper c then (c + 32)%N else c.
Definition ieq (p c : N) : bool := (lower1 p =? lower1 c)%N || ((lower1 p =? 115)%N && (c =? 383)%N).
Fixpoint ieat (p t : text) : option text :=
  match p with
  | [] => Some t
  | x :: p' => match t with c :: t' => if ieq x c then ieat p' t' else None | [] => None end
  end.
(* [-a-z0-9] with IGNORECASE: four letters beyond ASCII, too *)
Definition idchar (c : N) : bool := (c =? 45)%N || upper c || lowerc c || digit c || existsb (N.eqb c) [304; 305; 383; 8490]%N.
Fixpoint take_id (t : text) : text * text := match t with c :: t' => if idchar c then let '(a, r) := take_id t' in (c :: a, r) else ([], t) | [] => ([], []) end.

(* ---------- Pseudocode.py:72: (?i)\bsteps* [0-9<] ---------- *)
Fixpoint skip_s (t : text) : text := match t with c :: t' => if ieq 115 c then skip_s t' else t | [] => [] end.
Definition wordb (o : option N) : bool := match o with Some c => wordc uniword c | None => false end.
(* prev is the character before; what is left after the match *)
Definition step_at (prev : option N) (t : text) : option text :=
  if Bool.eqb (wordb prev) (match t with c :: _ => wordc uniword c | [] => false end) then None
  else match ieat (tx "step") t with
       | Some r => match skip_s r with
                   | a :: d :: r' => if (a =? 32)%N && (digit d || (d =? 60)%N) then Some r' else None
                   | _ => None
                   end
       | None => None
       end.
(* re.finditer: the starts of the matches *)
Fixpoint find_steps (pos skip : nat) (prev : option N) (t : text) : list nat :=
  match t with
  | [] => []
  | c :: t' =>
    match skip with
    | S k => find_steps (S pos) k (Some c) t'
    | 0 => match step_at prev t with
           | Some r => pos :: find_steps (S pos) (length t - length r - 1) (Some c) t'
           | None => find_steps (S pos) 0 (Some c) t'
           end
    end
  end.

(* ---------- Pseudocode.py:71-113  each_step_ref ---------- *)
(* 75: the line, without its ends *)
Fixpoint until_nl (t : text) : option text := match t with [] => None | c :: t' => if (c =? 10)%N then Some [] else match until_nl t' with Some a => Some (c :: a) | None => None end end.
Definition line_at (spec : text) (st : nat) : res text :=
  match until_nl (rev (firstn st spec)) with
  | None => Err ValueError
  | Some a => match until_nl (skipn st spec) with None => Err ValueError | Some b => Ok (strip (rev a ++ b)) end
  end.
(* 82-92: the patterns; X is one reference *)
Inductive pat := L (t : text) | X.
Definition patterns : list (list pat) := [
  [L (tx "steps "); X; L (tx ", "); X; L (tx ", and "); X];
  [L (tx "steps "); X; L (tx "-"); X];
  [L (tx "steps "); X; L [8211%N]; X];
  [L (tx "steps "); X; L (tx " and "); X];
  [L (tx "step "); X; L (tx ", "); X; L (tx ", "); X; L (tx ", "); X; L (tx ", "); X];
  [L (tx "step "); X; L (tx ", "); X; L (tx ", "); X; L (tx ", "); X];
  [L (tx "step "); X]
].
Fixpoint groups_at (p : list pat) (t : text) : option (list text) :=
  match p with
  | [] => Some []
  | L x :: p' => match ieat x t with Some t' => groups_at p' t' | None => None end
  | X :: p' =>
      match ieat (tx "<emu-xref href=""#") t with
      | Some t' => match take_id t' with
                   | ([], _) => None
                   | (i, r) => match ieat (tx """></emu-xref>") r with
                               | Some r' => match groups_at p' r' with Some l => Some (i :: l) | None => None end
                               | None => None
                               end
                   end
      | None => None
      end
  end.
Definition step_ids (t : text) : option (list text) := first_some (fun p => groups_at p t) patterns.
(* 108-110: the first line of the element with id="..." in it *)
Fixpoint has_sub (p t : text) : bool := is_prefix p t || match t with [] => false | _ :: t' => has_sub p t' end.
Definition refd_line (src i : text) : option text :=
  match filter (has_sub (tx "id=""" ++ i ++ tx """")) (split_on [10%N] src) with l :: _ => Some (drop_spaces l) | [] => None end.
Record sref := mkSRef { r_sec : option nat; r_line : text; r_tsec : option nat; r_tline : text }.
Variable spec_text : text.
Variable root : snode.
Variable ids : list (text * (snode * list snode)).   (* spec.node_with_id_: nodes, each with its ancestors *)
Fixpoint find_id (l : list (text * (snode * list snode))) (i : text) : option (snode * list snode) := match l with [] => None | (k, p) :: l' => if text_eqb k i then Some p else find_id l' i end.
(* 102-113: one of the ids *)
Definition one_ref (sec : option nat) (line : text) (i : text) : outm sref unit :=
  match find_id ids i with
  | None => mfail KeyError
  | Some (alg, anc) =>
      mbind (massert (text_eqb (s_name alg) (tx "emu-alg"))) (fun _ =>
      match refd_line (slice (s_start alg) (s_end alg) spec_text) i with
      | None => mfail AssertionError
      | Some l => mtell [mkSRef sec line (closest_section (alg :: anc)) l]
      end)
  end.
Definition lift {M A} (r : res A) : outm M A := ([], r).
Definition one_step (st : nat) : outm sref unit :=
  mbind (lift (line_at spec_text st)) (fun line =>
  mbind (lift (deepest st [] root)) (fun path =>
  match path with
  | _ :: parent :: _ =>
      mbind (massert (existsb (text_eqb (s_name parent)) [tx "p"; tx "li"; tx "emu-alg"; tx "dd"])) (fun _ =>
      match step_ids (skipn st spec_text) with
      | None => mfail AssertionError
      | Some is => mfold (fun _ i => one_ref (closest_section path) line i) tt is
      end)
  | _ => mfail AttributeError
  end)).
(* what is yielded, and how it ends *)
Definition each_step_ref : outm sref unit := mfold (fun _ st => one_step st) tt (find_steps 0 0 None spec_text).

(* ---------- Pseudocode.py:35-67  check_step_references ---------- *)
Variable sec_num sec_title : nat -> text.
(* curr_referring_section, and curr_referring_line if it is bound *)
Record rstate := mkRState { cs : option nat; cl : option (option text) }.
Definition opt_nat_eqb (a b : option nat) : bool := match a, b with Some x, Some y => x =? y | None, None => true | _, _ => false end.
Definition put_ref (st : rstate) (r : sref) : outm text rstate :=
  mbind (if opt_nat_eqb (r_sec r) (cs st) then mret st
         else mbind (mtell [[]; repeat 45%N 40]) (fun _ =>
              match r_sec r with
              | None => mfail AttributeError
              | Some s => mbind (mtell [sec_num s; sec_title s]) (fun _ => mret (mkRState (r_sec r) (Some None)))
              end)) (fun st =>
  mbind (match cl st with
         | None => mfail NameError
         | Some o => if match o with Some l => text_eqb (r_line r) l | None => false end then mret st
                     else mbind (mtell [[]; tx "    " ++ r_line r]) (fun _ => mret (mkRState (cs st) (Some (Some (r_line r)))))
         end) (fun st =>
  mbind (mtell [[]]) (fun _ =>
  mbind (if opt_nat_eqb (r_tsec r) (r_sec r) then mtell [tx "        (same section):"]
         else match r_tsec r with
              | None => mfail AttributeError
              | Some s => mtell [tx "        " ++ sec_num s ++ tx " " ++ sec_title s ++ tx ":"]
              end) (fun _ =>
  mbind (mtell [tx "        " ++ r_tline r]) (fun _ => mret st))))).
Definition check_step_references : outm text unit :=
  mbind (mfold put_ref (mkRState None None) (fst each_step_ref)) (fun _ => lift (snd each_step_ref)).

End Steps.
