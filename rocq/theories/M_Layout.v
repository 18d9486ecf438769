(* Model of analyze_spec.py:288-334: the checks for extra blank lines, trailing whitespace and unusual characters. *)
From Coq Require Import Ascii String.
From Verif Require Import M_Base M_HTML.
Open Scope list_scope.
Notation length := List.length.

(* re.finditer, for expressions that never match the empty text: [try] makes one attempt at a position, given what follows it, and
   returns the length of the match; the results are the positions and lengths of the matches.  [skip]: how much of the last match
   is still to be passed over. *)
Fixpoint finditer (try : text -> option nat) (p skip : nat) (s : text) : list (nat * nat) :=
  match s with
  | [] => []
  | _ :: s' =>
      match skip with
      | S k => finditer try (S p) k s'
      | 0 => match try s with Some n => (p, n) :: finditer try (S p) (n - 1) s' | None => finditer try (S p) 0 s' end
      end
  end.

Fixpoint count_while (f : N -> bool) (s : text) : nat := match s with c :: s' => if f c then S (count_while f s') else 0 | [] => 0 end.
Definition is_space (c : N) : bool := (c =? 32)%N.
Definition is_blank (c : N) : bool := (c =? 32)%N || (c =? 9)%N.

(* analyze_spec.py:298-302  check_trailing_whitespace; the expression is (?m)[ \t]+$ ; a shorter match than the longest
   ends before a blank and therefore not at the end of a line *)
Definition try_trailing (s : text) : option nat :=
  match count_while is_blank s with
  | 0 => None
  | n => match skipn n s with [] => Some n | c :: _ => if (c =? 10)%N then Some n else None end
  end.
Definition check_trailing_whitespace (s : text) : list nat := map fst (finditer try_trailing 0 0 s).

(* analyze_spec.py:290-292  the expression \n( *\n){2,} ; [blanks] reads as many blank lines as possible: their number and length;
   a text cannot be read in two ways as a sequence of blank lines *)
Fixpoint blanks (cur cnt len : nat) (s : text) : nat * nat :=
  match s with
  | c :: s' => if (c =? 32)%N then blanks (S cur) cnt len s' else if (c =? 10)%N then blanks 0 (S cnt) (len + cur + 1) s' else (cnt, len)
  | [] => (cnt, len)
  end.
Definition try_blank_lines (s : text) : option nat :=
  match s with
  | c :: s' => if (c =? 10)%N then let '(cnt, len) := blanks 0 0 0 s' in if 2 <=? cnt then Some (1 + len) else None else None
  | [] => None
  end.
(* posn = mo.end() - 1 *)
Definition check_blank_lines (s : text) : list nat := map (fun m => fst m + snd m - 1) (finditer try_blank_lines 0 0 s).

Fixpoint starts_with (p s : text) : bool :=
  match p, s with [], _ => true | c :: p', d :: s' => (c =? d)%N && starts_with p' s' | _, _ => false end.
(* analyze_spec.py:294-296  the expression \n( *\n *</emu-clause>) ; posn = mo.start(1) *)
Definition try_end_clause (s : text) : option nat :=
  match s with
  | c :: s1 =>
      if (c =? 10)%N then
        let a := count_while is_space s1 in
        match skipn a s1 with
        | d :: s2 =>
            if (d =? 10)%N then
              let b := count_while is_space s2 in
              if starts_with (tx "</emu-clause>") (skipn b s2) then Some (2 + a + b + 13) else None
            else None
        | [] => None
        end
      else None
  | [] => None
  end.
Definition check_end_clause (s : text) : list nat := map (fun m => fst m + 1) (finditer try_end_clause 0 0 s).

(* analyze_spec.py:308-329  the pattern of check_characters.  The x flag has no effect within a set of characters: the spaces, the
   comments and the ends of the lines are all members of the set, and E-S in DOUBLE-STRUCK is a range. *)
Definition pattern_line (before : string) (c : list N) (after : string) : text := tx before ++ c ++ tx after ++ [10%N].
Definition char_pattern : text :=
  tx "(?x)[^" ++ [10%N] ++
  pattern_line "        \n    # newline" [] "" ++
  pattern_line "        \x20  # space" [] "" ++
  pattern_line "        !-~   # printable ASCII chars" [] "" ++
  pattern_line "" [] "" ++
  pattern_line "        " [171%N] " # U+000ab (&laquo;)" ++
  pattern_line "        " [187%N] " # U+000bb (&raquo;)" ++
  pattern_line "        " [215%N] " # U+000d7 (&times;)" ++
  pattern_line "        " [960%N] " # U+003c0 (&pi;)" ++
  pattern_line "        " [8212%N] " # U+02014 (&mdash;)" ++
  pattern_line "        " [8220%N] " # U+0201c (&ldquo;)" ++
  pattern_line "        " [8221%N] " # U+0201d (&rdquo;)" ++
  pattern_line "        " [8230%N] " # U+02026 (&hellip;)" ++
  pattern_line "        " [8477%N] " # U+0211d (DOUBLE-STRUCK CAPITAL R) {fancy_r}" ++
  pattern_line "        " [8484%N] " # U+02124 (DOUBLE-STRUCK CAPITAL Z) {fancy_z}" ++
  pattern_line "        " [8594%N] " # U+02192 (&rarr;)" ++
  pattern_line "        " [8734%N] " # U+0221e (&infin;)" ++
  pattern_line "        " [8800%N] " # U+02260 (&ne;)" ++
  pattern_line "        " [8804%N] " # U+02264 (&le;)" ++
  pattern_line "        " [8805%N] " # U+02265 (&ge;)" ++
  pattern_line "        " [120125%N] " # U+1d53d (DOUBLE-STRUCK CAPITAL F) {fancy_f}" ++
  tx "    ]".

(* re: the members of a set of characters, up to the closing bracket, as ranges; the escapes \n and \xhh *)
Definition hex (c : N) : option N :=
  if (48 <=? c)%N && (c <=? 57)%N then Some (c - 48)%N else if (97 <=? c)%N && (c <=? 102)%N then Some (c - 87)%N else None.
Definition set_char (s : text) : option (N * text) :=
  match s with
  | 92%N :: 110%N :: s' => Some (10%N, s')
  | 92%N :: 120%N :: a :: b :: s' => match hex a, hex b with Some x, Some y => Some ((16 * x + y)%N, s') | _, _ => None end
  | 92%N :: _ => None
  | c :: s' => Some (c, s')
  | [] => None
  end.
Fixpoint set_items (fuel : nat) (s : text) : option (list (N * N)) :=
  match fuel with
  | 0 => None
  | S f =>
      match s with
      | 93%N :: [] => Some []
      | _ =>
          match set_char s with
          | None => None
          | Some (lo, s1) =>
              let single := match set_items f s1 with Some l => Some ((lo, lo) :: l) | None => None end in
              match s1 with
              | 45%N :: 93%N :: _ => single
              | 45%N :: s2 =>
                  match set_char s2 with
                  | Some (hi, s3) => if (hi <? lo)%N then None else match set_items f s3 with Some l => Some ((lo, hi) :: l) | None => None end
                  | None => None
                  end
              | _ => single
              end
          end
      end
  end.
(* the set [^...] after the flags *)
Definition negated_set (pattern : text) : option (list (N * N)) :=
  if starts_with (tx "(?x)[^") pattern then set_items (length pattern) (skipn 6 pattern) else None.
Definition in_items (l : list (N * N)) (c : N) : bool := existsb (fun r => (fst r <=? c)%N && (c <=? snd r)%N) l.

(* analyze_spec.py:306-334  check_characters: the positions and characters that are reported *)
Definition check_characters (s : text) : res (list (nat * N)) :=
  match negated_set char_pattern with
  | None => Err ValueError
  | Some items =>
      Ok (map (fun m => (fst m, nth (fst m) s 0%N))
            (finditer (fun t => match t with c :: _ => if in_items items c then None else Some 1 | [] => None end) 0 0 s))
  end.
