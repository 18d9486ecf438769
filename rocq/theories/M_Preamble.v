(* Model of the extraction from preambles (function_preambles.py). *)
From Coq Require Import Ascii String.
From Verif Require Import M_Base M_HTML M_Shared M_Indent M_Defs M_Records M_Refs M_Meta M_Style M_PropPath M_Tables M_Validate.
Open Scope list_scope.
Open Scope nat_scope.
Notation length := List.length.

(* re.split: f gives the length of the separator at a place (0: none), knowing the character before it *)
Fixpoint re_split (f : option N -> text -> nat) (skip : nat) (prev : option N) (acc : text) (t : text) : list text :=
  match t with
  | [] => [rev acc]
  | c :: t' =>
    match skip with
    | S k => re_split f k (Some c) acc t'
    | 0 => match f prev t with
           | 0 => re_split f 0 (Some c) (c :: acc) t'
           | S k => rev acc :: re_split f k (Some c) [] t'
           end
    end
  end.
Fixpoint run_of (x : N) (t : text) : nat := match t with c :: t' => if (c =? x)%N then S (run_of x t') else 0 | [] => 0 end.
(* 163: \n{2,} *; 166: \n *; 266: (?<=\.) + *)
Definition sep_chunk (_ : option N) (t : text) : nat := let n := run_of 10 t in if 2 <=? n then n + run_of 32 (skipn n t) else 0.
Definition sep_line (_ : option N) (t : text) : nat := match t with c :: t' => if (c =? 10)%N then S (run_of 32 t') else 0 | [] => 0 end.
Definition sep_sentence (prev : option N) (t : text) : nat := match prev with Some c => if (c =? 46)%N then run_of 32 t else 0 | None => 0 end.

(* ---------- function_preambles.py:225-242  HeaderConstructionRule ---------- *)
Record hrule := mkHRule { hr_pat : text; hr_tmpl : list (text * text); hr_count : nat }.
Section Preamble.
Variable uniword : N -> bool.   (* which characters beyond ASCII are \w *)
(* 231: ([\w ]+)=(.* ) *)
Fixpoint take_key (t : text) : text * text := match t with c :: t' => if wordc uniword c || (c =? 32)%N then let '(a, r) := take_key t' in (c :: a, r) else ([], t) | [] => ([], []) end.
Definition template_line (l : text) : option (text * text) :=
  match take_key l with
  | ([], _) => None
  | (k, c :: r) => if (c =? 61)%N && no_newline r then Some (k, r) else None
  | (_, []) => None
  end.
(* 230-238; sys is not imported, so 234 is a NameError *)
Fixpoint read_templates (d : list (text * text)) (ls : list text) : res (list (text * text)) :=
  match ls with
  | [] => Ok d
  | l :: ls' => match template_line l with
                | None => Err NameError
                | Some (k, v) => do _ <- assert_ (negb (existsb (fun e => text_eqb (fst e) k) d)) ;; read_templates (d ++ [(k, v)]) ls'
                end
  end.
Definition make_rule (pat : text) (ls : list text) : res hrule :=
  do d <- read_templates [] ls ;;
  Ok (mkHRule pat (if existsb (fun e => text_eqb (fst e) (tx "v")) d then d else d ++ [(tx "v", [])]) 0).

(* ---------- function_preambles.py:156-175  ExtractionRules.__init__ ---------- *)
Fixpoint read_chunks (cs : list text) : res (list hrule) :=
  match cs with
  | [] => Ok []
  | c :: cs' =>
    match filter (fun l => negb (is_prefix (tx "#") l)) (re_split sep_line 0 None [] c) with
    | [] => read_chunks cs'
    | pat :: ls => do r <- make_rule pat ls ;; do rs <- read_chunks cs' ;; Ok (r :: rs)
    end
  end.
Definition read_rules (s : text) : res (list hrule) :=
  match strip s with [] => Ok [] | s' => read_chunks (re_split sep_chunk 0 None [] s') end.

(* ---------- function_preambles.py:177-223  ExtractionRules.apply (without the trace) ---------- *)
(* a match: its named groups, and what expand gives for a template *)
Record hmatch := mkHMatch { hm_groups : list (text * text); hm_expand : text -> text }.
Variable fullmatch : text -> text -> option hmatch.   (* re.compile(pattern).fullmatch(subject) *)
Definition is_v (k : text) : bool := text_eqb k (tx "v").
(* 202-212: what is added, and what is passed down *)
Definition added (r : hrule) (m : hmatch) : list (text * text) :=
  hm_groups m ++ flat_map (fun e => if is_v (fst e) then [] else [(fst e, hm_expand m (snd e))]) (hr_tmpl r).
Definition passed (r : hrule) (m : hmatch) (subject : text) : text :=
  fold_left (fun s e => if is_v (fst e) then hm_expand m (snd e) else s) (hr_tmpl r) subject.
Definition counted (r : hrule) : hrule := mkHRule (hr_pat r) (hr_tmpl r) (S (hr_count r)).
Fixpoint apply_go (rs : list hrule) (s : text) : list hrule * list (text * text) * text :=
  match rs with
  | [] => ([], [], s)
  | r :: rs' =>
    match fullmatch (hr_pat r) s with
    | None => let '(rs2, a, s2) := apply_go rs' s in (r :: rs2, a, s2)
    | Some m =>
        match passed r m s with
        | [] => (counted r :: rs', added r m, [])
        | s1 => let '(rs2, a, s2) := apply_go rs' s1 in (counted r :: rs2, added r m ++ a, s2)
        end
    end
  end.
Definition apply (rs : list hrule) (s : text) : res (list hrule * list (text * text) * text) := do _ <- assert_ (match s with [] => false | _ => true end) ;; Ok (apply_go rs s).

(* ---------- function_preambles.py:247-277  extract_info_from_preamble ---------- *)
Record pnode := mkPNode { pn_name : text; pn_inner : text }.
(* the rules with their counts and what was added so far *)
Record pst := mkPst { ps_multi : list hrule; ps_single : list hrule; ps_adds : list (text * text) }.
(* 266-269 *)
Fixpoint sentences (st : pst) (rem : list text) (ss : list text) : res (pst * list text) :=
  match ss with
  | [] => Ok (st, rem)
  | s :: ss' => do x <- apply (ps_single st) s ;;
                let '(rs, a, s') := x in
                sentences (mkPst (ps_multi st) rs (ps_adds st ++ a)) (match s' with [] => rem | _ => rem ++ [s'] end) ss'
  end.
Definition paragraph (st : pst) (n : pnode) : res pst :=
  do _ <- assert_ (existsb (text_eqb (pn_name n)) [tx "p"; tx "emu-note"; tx "pre"]) ;;
  if text_eqb (pn_name n) (tx "p") then
    do x <- apply (ps_multi st) (strip (pn_inner n)) ;;
    let '(rs, a, s) := x in
    let st := mkPst rs (ps_single st) (ps_adds st ++ a) in
    match s with
    | [] => Ok st
    | _ => do y <- sentences st [] (re_split sep_sentence 0 None [] s) ;;
           let '(st, rem) := y in
           Ok (match joined (tx " ") rem with [] => st | d => mkPst (ps_multi st) (ps_single st) (ps_adds st ++ [(tx "desc", d)]) end)
    end
  else Ok st.
Fixpoint extract (st : pst) (ns : list pnode) : res pst := match ns with [] => Ok st | n :: ns' => do st <- paragraph st n ;; extract st ns' end.
(* 279-288  note_unused_rules: the lines about rules *)
Definition unused (rs : list hrule) : list text := flat_map (fun r => if hr_count r =? 0 then [tx "    " ++ hr_pat r] else []) rs.

(* ---------- function_preambles.py:290-307  PreambleInfoHolder ---------- *)
(* the values of a key, without repetitions: _dedupe *)
Fixpoint dedupe (seen : list text) (vs : list text) : list text :=
  match vs with [] => [] | v :: vs' => if existsb (text_eqb v) seen then dedupe (seen ++ [v]) vs' else v :: dedupe (seen ++ [v]) vs' end.
Definition field (adds : list (text * text)) (k : text) : list text := dedupe [] (map snd (filter (fun e => text_eqb (fst e) k) adds)).

(* ---------- function_preambles.py:309-497  compare_to_header ---------- *)
Record aparam := mkAParam { ap_name : text; ap_punct : text; ap_nature : text }.
Record aheader := mkAHeader { ah_species : option text; ah_name : option text; ah_params : option (list aparam); ah_desc : list text; ah_num : text; ah_title : text }.
(* a line of oh_warnings, or of stderr *)
Inductive pmsg := Warn (t : text) | Errs (t : text).
Variable repr : list text -> text.      (* str of a list of texts *)
Variable quoted : text -> text.         (* repr of a text *)
Variable lower : text -> text.          (* str.lower *)
Definition warn (t : text) : outm pmsg unit := mtell [Warn []; Warn t].
Definition at_most_one (vs : list text) : outm pmsg (option text) := match vs with [] => mret None | [v] => mret (Some v) | _ => mfail AssertionError end.
(* 330-346 *)
Definition compare_kind (h : aheader) (adds : list (text * text)) : outm pmsg unit :=
  match ah_species h with
  | None => mfail AssertionError
  | Some sp =>
    match field adds (tx "kind") with
    | [] => mret tt
    | ks => let vs := joined (tx " & ") ks in
            let against pr := if text_eqb pr sp then mret tt
                              else mbind (mtell [Errs (tx "mismatch of 'species' in heading/preamble for " ++ (match ah_name h with Some n => n | None => tx "None" end) ++ tx ": " ++ quoted sp ++ tx " != " ++ quoted pr)]) (fun _ => mfail AssertionError) in
            if text_eqb vs (tx "accessor property") then against (tx "bif: intrinsic: accessor function")
            else if text_eqb vs (tx "method") then against (tx "bif: intrinsic")
            else mfail KeyError
    end
  end.
(* 351-369 *)
Definition compare_name (h : aheader) (adds : list (text * text)) : outm pmsg text :=
  match ah_name h with
  | None => mfail AssertionError
  | Some n =>
    mbind (at_most_one (field adds (tx "name"))) (fun pr =>
    mbind (match pr with
           | None => mret tt
           | Some p => if text_eqb p n || text_eqb p (str_replace (tx " ]") (tx "]") (str_replace (tx " [ ") (tx "[") n)) || text_eqb (lower p) (lower n) then mret tt
                       else warn (tx "resolve_oi: name in heading (" ++ n ++ tx ") != name in preamble (" ++ p ++ tx ")")
           end) (fun _ => mret n))
  end.
(* 390: (an )?argument (_\w+_) *)
Definition under_name (t : text) : bool :=
  (3 <=? length t) && match t with c :: _ => (c =? 95)%N | [] => false end && match rev t with c :: _ => (c =? 95)%N | [] => false end && forallb (wordc uniword) t.
Definition one_argument (t : text) : option text :=
  match eat (tx "argument ") (match eat (tx "an ") t with Some t' => t' | None => t end) with Some x => if under_name x then Some x else None | None => None end.
(* 372-397 *)
Definition stated_params (n : text) (adds : list (text * text)) : outm pmsg (option (list aparam)) :=
  match field adds (tx "pl") with
  | [] => mret None
  | [pl] => if text_eqb pl (tx "no arguments") then mret (Some [])
            else if text_eqb pl (tx "zero or more arguments") then mret None
            else match one_argument pl with Some x => mret (Some [mkAParam x [] (tx "unknown")]) | None => mfail AssertionError end
  | pls => mbind (warn (n ++ tx " has multi-pl: " ++ repr pls)) (fun _ => mret None)
  end.
(* 414-428 *)
Definition compare_param (n : text) (a p : aparam) : list pmsg :=
  (if text_eqb (ap_punct a) (ap_punct p) then [] else [Warn []; Warn (n ++ tx " parameter " ++ ap_name a ++ tx " has param punct mismatch:"); Warn (tx "h: " ++ ap_punct a); Warn (tx "p: " ++ ap_punct p)]) ++
  (if text_eqb (ap_nature a) (ap_nature p) then [] else [Warn []; Warn (n ++ tx " parameter " ++ ap_name a ++ tx " has param nature mismatch:"); Warn (tx "h: " ++ ap_nature a); Warn (tx "p: " ++ ap_nature p)]).
Definition texts_eqb (a b : list text) : bool := if list_eq_dec (list_eq_dec N.eq_dec) a b then true else false.
(* 399-428: the parameters of the header afterwards; 412 calls a list *)
Definition compare_params (h : aheader) (n : text) (pr : option (list aparam)) : outm pmsg (list aparam) :=
  match ah_params h, pr with
  | None, None => mfail AssertionError
  | None, Some ps => mret ps
  | Some ps, None => mret ps
  | Some ps, Some qs =>
      if texts_eqb (map ap_name ps) (map ap_name qs) then mbind (mtell (flat_map (fun x => compare_param n (fst x) (snd x)) (combine ps qs))) (fun _ => mret ps)
      else mbind (mtell [Warn []; Warn (n ++ tx " has param name mismatch:"); Warn (repr (map ap_name ps))]) (fun _ => mfail TypeError)
  end.
(* 443: \b_\w+\b, all of them *)
Fixpoint vars_in (inword : bool) (cur : option text) (t : text) : list text :=
  match t with
  | [] => match cur with Some ((_ :: _ :: _) as x) => [rev x] | _ => [] end
  | c :: t' =>
    if wordc uniword c then
      match cur with
      | Some x => vars_in true (Some (c :: x)) t'
      | None => if negb inword && (c =? 95)%N then vars_in true (Some [c]) t' else vars_in true None t'
      end
    else (match cur with Some ((_ :: _ :: _) as x) => [rev x] | _ => [] end) ++ vars_in false None t'
  end.
(* 448-480 *)
Definition known_vars : list (text * text) := [
  (tx "_NativeError_", tx "_NativeError_"); (tx "_TypedArray_", tx "_TypedArray_");
  (tx "Math.exp", tx "_e_"); (tx "Math.expm1", tx "_e_");
  (tx "String.prototype.localeCompare", tx "_string_"); (tx "String.prototype.localeCompare", tx "_thatValue_");
  (tx "String.prototype.slice", tx "_sourceLength_"); (tx "String.prototype.substr", tx "_sourceLength_");
  (tx "Array.prototype.slice", tx "_length_");
  (tx "Array.prototype.sort", tx "_x_"); (tx "Array.prototype.sort", tx "_y_");
  (tx "%TypedArray%.prototype.set", tx "_TypedArray_"); (tx "%TypedArray%.prototype.subarray", tx "_TypedArray_");
  (tx "JSON.parse", tx "_key_"); (tx "JSON.parse", tx "_value_")
].
Definition strange_vars (n : text) (ps : list aparam) (paras : list text) : list text :=
  filter (fun v => negb (existsb (fun p => text_eqb (ap_name p) v) ps) && negb (existsb (fun e => text_eqb (fst e) n && text_eqb (snd e) v) known_vars)) (flat_map (vars_in false None) paras).
Definition compare_to_header (h : aheader) (adds : list (text * text)) : outm pmsg aheader :=
  mbind (compare_kind h adds) (fun _ =>
  mbind (compare_name h adds) (fun n =>
  mbind (stated_params n adds) (fun pr =>
  mbind (compare_params h n pr) (fun ps =>
  mbind (at_most_one (field adds (tx "reta"))) (fun _ =>
  let paras := field adds (tx "desc") in
  mbind (match sorted_set (strange_vars n ps paras) with
         | [] => mret tt
         | vs => mtell ([Warn []; Warn (tx "In " ++ ah_num h ++ tx " " ++ ah_title h ++ tx ","); Warn (tx "the preamble refers to non-parameter var(s):")] ++ map (fun v => Warn (tx "    " ++ v)) vs)
         end) (fun _ =>
  mbind (massert (match ah_desc h with [] => true | _ => false end)) (fun _ =>
  mret (mkAHeader (ah_species h) (ah_name h) (Some ps) paras (ah_num h) (ah_title h))))))))).

(* ---------- function_preambles.py:22-26  check_header_against_prose ---------- *)
Definition check_header_against_prose (h : aheader) (st : pst) (ns : list pnode) : outm pmsg aheader :=
  match ah_species h with
  | None => mfail AttributeError
  | Some sp =>
    mbind (massert (is_prefix (tx "bif:") sp)) (fun _ =>
    mbind (massert (match ns with [] => false | _ => true end)) (fun _ =>
    match extract (mkPst (ps_multi st) (ps_single st) []) ns with
    | Err e => mfail e
    | Ok st' => compare_to_header h (ps_adds st')
    end))
  end.

End Preamble.
