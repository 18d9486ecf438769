(* Model of shared.py: positions, annotated output, replacements, entities. *)
From Verif Require Import M_Base.

Definition newline : N := 10%N.

(* ------------------------------------------------------------------ *)
(* shared.py:57-65  install_spec_text: the table of newline positions *)

Fixpoint newline_starts (i : Z) (t : text) : list Z :=
  match t with
  | [] => []
  | c :: t' => if (c =? newline)%N then i :: newline_starts (i + 1) t'
               else newline_starts (i + 1) t'
  end.

(* shared.py:61  _newline_posns = [-1] + [mo.start() for ...] *)
Definition newline_posns (t : text) : list Z := (-1)%Z :: newline_starts 0 t.

(* shared.py:213-215  convert_HTMLParser_getpos_to_posn.
   Python's index -1 (for line_num = 0) denotes the last entry. *)
Definition convert_HTMLParser_getpos_to_posn (t : text) (line_num : nat) (offset : Z) : res Z :=
  let np := newline_posns t in
  match (match line_num with O => nth_error np (length np - 1) | S i => nth_error np i end) with
  | Some n => Ok (n + 1 + offset)%Z
  | None => Err IndexError
  end.

(* shared.py:217-244  convert_posn_to_linecol: one iteration of the bisection
   per unit of fuel. *)
Fixpoint bisect (fuel : nat) (t : text) (np : list Z) (posn : Z) (lo hi : nat)
  : res (nat * Z) :=
  match fuel with
  | O => Err OutOfFuel
  | S f =>
    if negb (lo <? hi) then Err AssertionError               (* 223 assert lo < hi *)
    else
      match nth_error np lo, nth_error np hi with
      | Some a, Some b =>
        if negb ((a <? posn)%Z && (posn <=? b)%Z) then Err AssertionError   (* 224 *)
        else if lo + 1 =? hi then Ok (hi, (posn - a)%Z)       (* 225-228 *)
        else
          let mid := (lo + hi) / 2 in                         (* 230 *)
          if negb ((lo <? mid) && (mid <? hi)) then Err AssertionError      (* 231 *)
          else
            match nth_error np mid with
            | None => Err IndexError
            | Some m =>
              if (m <? posn)%Z then bisect f t np posn mid hi               (* 233-234 *)
              else if (posn <? m)%Z then bisect f t np posn lo mid          (* 235-236 *)
              else                                                         (* 237-242 *)
                match nth_error t (Z.to_nat posn) with
                | Some c => if (c =? newline)%N then bisect f t np posn (mid - 1) mid
                            else Err AssertionError
                | None => Err IndexError
                end
            end
      | _, _ => Err IndexError
      end
  end.

Definition convert_posn_to_linecol (t : text) (posn : Z) : res (nat * Z) :=
  let np := newline_posns t in
  bisect (length np + 1) t np posn 0 (length np - 1).

(* ------------------------------------------------------------------ *)
(* shared.py:263-282  msg_at_posn_start / msg_at_posn / msg_at_posn_finish *)

Definition message := text.

(* The defaultdict msgs_for_line_: line number -> list of (column, message).
   Represented as an association list in order of first use of each line. *)
Definition msg_dict := list (nat * list (Z * message)).

Fixpoint md_get (d : msg_dict) (line : nat) : list (Z * message) :=
  match d with
  | [] => []
  | (l, ms) :: d' => if l =? line then ms else md_get d' line
  end.

Fixpoint md_append (d : msg_dict) (line : nat) (x : Z * message) : msg_dict :=
  match d with
  | [] => [(line, [x])]
  | (l, ms) :: d' => if l =? line then (l, ms ++ [x]) :: d' else (l, ms) :: md_append d' line x
  end.

(* shared.py:270-272 *)
Definition msg_at_posn (t : text) (d : msg_dict) (posn : Z) (m : message) : res msg_dict :=
  do (line, col) <- convert_posn_to_linecol t posn ;;
  Ok (md_append d line (col, m)).

(* a history of msg_at_posn calls, starting from msg_at_posn_start (263-265) *)
Fixpoint msg_history (t : text) (d : msg_dict) (h : list (Z * message)) : res msg_dict :=
  match h with
  | [] => Ok d
  | (p, m) :: h' => do d' <- msg_at_posn t d p m ;; msg_history t d' h'
  end.

(* Python's str.split('\n') *)
Fixpoint split_lines (t : text) : list text :=
  match t with
  | [] => [[]]
  | c :: t' =>
    if (c =? newline)%N then [] :: split_lines t'
    else match split_lines t' with
         | [] => [[c]]
         | l :: ls => (c :: l) :: ls
         end
  end.

(* Python's ordering of (col, msg) tuples *)
Definition colmsg_leb (a b : Z * message) : bool :=
  if (fst a <? fst b)%Z then true
  else if (fst b <? fst a)%Z then false
  else text_leb (snd a) (snd b).

(* What is printed: a line of the spec, a caret line ('-' * (col-1) + '^'),
   or a '-- ' message line. *)
Inductive out_line :=
| SpecLine (l : text)
| CaretLine (dashes : Z)
| MsgLine (m : message).

(* shared.py:279-281 *)
Definition print_msg (x : Z * message) : list out_line :=
  [CaretLine (fst x - 1); MsgLine (snd x)].

(* shared.py:276-281  the loop over enumerate(spec_text.split('\n')) *)
Fixpoint finish_lines (d : msg_dict) (line_i : nat) (ls : list text) : list out_line :=
  match ls with
  | [] => []
  | l :: ls' =>
    SpecLine l
    :: flat_map print_msg (isort colmsg_leb (md_get d (line_i + 1)))
    ++ finish_lines d (line_i + 1) ls'
  end.

(* shared.py:274-282 *)
Definition msg_at_posn_finish (t : text) (d : msg_dict) : list out_line :=
  finish_lines d 0 (split_lines t).

(* ------------------------------------------------------------------ *)
(* shared.py:291-306  write_spec_with_replacements *)

Record replacement := mkRepl { r_start : nat; r_end : nat; r_str : text }.

(* Python's ordering of the tuples (start_posn, end_posn, replacement_string) *)
Definition repl_leb (a b : replacement) : bool :=
  if r_start a <? r_start b then true
  else if r_start b <? r_start a then false
  else if r_end a <? r_end b then true
  else if r_end b <? r_end a then false
  else text_leb (r_str a) (r_str b).

(* shared.py:298-304  the loop; the text put so far is returned on success *)
Fixpoint repl_loop (t : text) (prev : nat) (rs : list replacement) : res (text) :=
  match rs with
  | [] => Ok (skipn prev t)                                     (* 304 *)
  | r :: rs' =>
    do _ <- assert_ (prev <=? r_start r) ;;                     (* 299 *)
    do rest <- repl_loop t (r_end r) rs' ;;                     (* 303 *)
    Ok (slice prev (r_start r) t ++ r_str r ++ rest)            (* 301-302 *)
  end.

Definition write_spec_with_replacements (t : text) (rs : list replacement) : res (text) :=
  repl_loop t 0 (isort repl_leb rs).                            (* 295-297 *)

(* ------------------------------------------------------------------ *)
(* shared.py:375-385  decode_entities *)

Fixpoint is_prefix (p t : text) : bool :=
  match p, t with
  | [], _ => true
  | x :: p', y :: t' => (x =? y)%N && is_prefix p' t'
  | _ :: _, [] => false
  end.

(* Python's str.replace(p, r) for non-empty p: leftmost, non-overlapping.
   [skip] is the number of characters of a match still to be passed over. *)
Fixpoint replace_go (p r : text) (skip : nat) (t : text) : text :=
  match t with
  | [] => []
  | c :: t' =>
    match skip with
    | S k => replace_go p r k t'
    | O => if is_prefix p t then r ++ replace_go p r (length p - 1) t'
           else c :: replace_go p r 0 t'
    end
  end.
Definition str_replace (p r t : text) : text := replace_go p r 0 t.

Definition c_lt : N := 60.  Definition c_gt : N := 62.  Definition c_amp : N := 38.
Definition c_ldquo : N := 8220.  Definition c_rdquo : N := 8221.
Definition e_lt : text := [38;108;116;59]%N.                       (* &lt; *)
Definition e_gt : text := [38;103;116;59]%N.                       (* &gt; *)
Definition e_ldquo : text := [38;108;100;113;117;111;59]%N.        (* &ldquo; *)
Definition e_rdquo : text := [38;114;100;113;117;111;59]%N.        (* &rdquo; *)
Definition e_amp : text := [38;97;109;112;59]%N.                   (* &amp; *)

Definition decode_entities (t : text) : res (text) :=
  do _ <- assert_ (negb (existsb (N.eqb c_lt) t)) ;;     (* 376 *)
  Ok (str_replace e_amp [c_amp]
       (str_replace e_rdquo [c_rdquo]
         (str_replace e_ldquo [c_ldquo]
           (str_replace e_gt [c_gt]
             (str_replace e_lt [c_lt] t))))).              (* 379-385 *)
