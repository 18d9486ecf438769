(* Model of the examination of the files of test262, test262.py:71-372. *)
From Coq Require Import Ascii String.
From Verif Require Import M_Base M_HTML M_Shared M_Layout M_Indent M_Refs M_Values M_Validate.
Open Scope list_scope.
Open Scope nat_scope.
Notation length := List.length.

(* what the front matter says: a text, a list of texts, or a mapping with the keys in
   the order of their insertion *)
Inductive data := DStr (t : text) | DList (l : list text) | DMap (m : list (text * data)).

(* 222-226  for each line: the positions of its start, of the first character that is
   not a space, and of its end.  The expression (?m)^( * )(.* )$ (without the spaces after
   the asterisks) matches once at the start of every line. *)
Definition not_nl (c : N) : bool := negb (c =? 10)%N.
Fixpoint line_posns_from (fuel a : nat) (s : text) : list (nat * nat * nat) :=
  match fuel with
  | O => []
  | S f =>
    let k := count_while is_space s in
    let l := count_while not_nl s in
    (a, a + k, a + l) :: match skipn l s with [] => [] | _ :: s' => line_posns_from f (a + l + 1) s' end
  end.
Definition line_posns (s : text) : list (nat * nat * nat) := line_posns_from (S (length s)) 0 s.

(* re.split with a comma and any number of spaces *)
Fixpoint split_list (skip : bool) (s : text) : list text :=
  match s with
  | [] => [[]]
  | c :: s' =>
    if skip && (c =? 32)%N then split_list true s'
    else if (c =? 44)%N then [] :: split_list true s'
    else match split_list false s' with x :: xs => (c :: x) :: xs | [] => [] end
  end.
(* str.endswith with one character *)
Definition ends_with (c : N) (s : text) : bool := match rev s with d :: _ => (d =? c)%N | [] => false end.

Section Yaml.
  Variable uniword : N -> bool.                                 (* which characters beyond ASCII match \w *)
  Variable fm : text.
  Variable lines : list (nat * nat * nat).

  Definition nth_line (i : nat) : res (nat * nat * nat) := match nth_error lines i with Some l => Ok l | None => Err IndexError end.

  (* 264-276  the lines at the same indentation as the first; n: how many are still to be examined *)
  Fixpoint child_starts (first i n : nat) : res (list nat) :=
    match n with
    | O => Ok []
    | S n' =>
      do x <- nth_line i ;;
      let '(a, b, c) := x in
      do _ <- assert_ ((a <=? b) && (b <=? c)) ;;
      if b =? c then child_starts first (S i) n'
      else
        do _ <- assert_ (first <=? b - a) ;;
        do r <- child_starts first (S i) n' ;;
        Ok (if b - a =? first then i :: r else r)
    end.
  (* 287-292  without the empty lines at the end; line 0 is reached only if the first line is empty *)
  Fixpoint trim_end (e : nat) : res nat :=
    match e with
    | O => Err OutOfFuel
    | S e' => do x <- nth_line e' ;; let '(a, b, c) := x in if b =? c then trim_end e' else Ok e
    end.
  (* 299-304  an element of a sequence *)
  Definition seq_item (s e : nat) : res text :=
    do x <- nth_line s ;;
    let '(a, b, c) := x in
    do _ <- assert_ (e - s =? 1) ;;
    match slice b c fm with
    | x1 :: x2 :: v =>
      do _ <- assert_ ((x1 =? 45) && (x2 =? 32))%N ;;
      match v with
      | [] => Err AssertionError
      | d :: _ => do _ <- assert_ (negb ((d =? 32) || (d =? 91) || (d =? 123))%N) ;; Ok v
      end
    | _ => Err AssertionError
    end.
  (* 307-308  the key and the rest of the line *)
  Definition key_line (t : text) : res (text * text) :=
    let n := count_while (wordc uniword) t in
    match n, skipn n t with
    | S _, d :: rest => if (d =? 58)%N then Ok (firstn n t, rest) else Err AssertionError
    | _, _ => Err AssertionError
    end.
  (* 313-330  a value on the line of its key *)
  Definition flow_value (rest : text) : res data :=
    if is_prefix (tx " {") rest then Err AssertionError
    else if is_prefix (tx " [") rest then
      do _ <- assert_ (ends_with 93 rest) ;;
      let between := slice 2 (length rest - 1) rest in
      if forallb is_space between then Ok (DList []) else Ok (DList (split_list false between))
    else match rest with
         | c :: v => if (c =? 32)%N then Ok (DStr v) else Err AssertionError
         | [] => Err AssertionError
         end.
  (* 336-340, 347-351  the text of the lines after the first *)
  Definition block_text (s e : nat) : res data :=
    do x <- nth_line (s + 1) ;;
    do y <- nth_line (e - 1) ;;
    let '(a, _, _) := x in let '(_, _, c) := y in
    Ok (DStr (slice a c fm)).

  (* 234-370  yaml_parse_block_collection *)
  Definition has_key (k : text) (m : list (text * data)) : bool := tmem_ k (map fst m).
  Fixpoint collection (fuel s e : nat) {struct fuel} : res data :=
    match fuel with
    | O => Err OutOfFuel
    | S f =>
      do x <- nth_line s ;;
      let '(a, b, c) := x in
      let first := b - a in
      do _ <- assert_ (b <? c) ;;                                                      (* 239 *)
      do sequence <- (match slice b c fm with
                      | d :: _ => if (d =? 45)%N then Ok true
                                  else if text_in (tx ": ") (slice b c fm) then Ok false else Err AssertionError
                      | [] => Err IndexError
                      end) ;;                                                          (* 240-250 *)
      do starts <- child_starts first s (e - s) ;;
      let ranges := combine starts (tl starts ++ [e]) in                               (* 282 *)
      if (sequence : bool) then
        (fix items (rs : list (nat * nat)) (acc : list text) : res data :=
           match rs with
           | [] => Ok (DList acc)
           | (s1, e0) :: rs' =>
             do e1 <- trim_end e0 ;;
             do _ <- assert_ (1 <=? e1 - s1) ;;
             do v <- seq_item s1 e1 ;;
             items rs' (acc ++ [v])
           end) ranges []
      else
        (fix items (rs : list (nat * nat)) (acc : list (text * data)) : res data :=
           match rs with
           | [] => Ok (DMap acc)
           | (s1, e0) :: rs' =>
             do e1 <- trim_end e0 ;;
             do _ <- assert_ (1 <=? e1 - s1) ;;
             do y <- nth_line s1 ;;
             let '(_, b1, c1) := y in
             do kr <- key_line (slice b1 c1 fm) ;;
             let (key, rest) := kr in
             do _ <- assert_ (negb (has_key key acc)) ;;                               (* 310 *)
             do v <- (if e1 - s1 =? 1 then flow_value rest
                      else if text_eqb rest (tx " |") then block_text s1 e1
                      else if text_eqb rest (tx " >") then block_text s1 e1
                      else if forallb py_space rest then collection f (s1 + 1) e1      (* 353-355 *)
                      else Err AssertionError) ;;                                      (* 357-370 *)
             items rs' (acc ++ [(key, v)])
           end) ranges []
    end.
End Yaml.
(* 220-372  parse_frontmatter *)
Definition parse_frontmatter (uniword : N -> bool) (fm : text) : res data :=
  let ls := line_posns fm in collection uniword fm ls (length ls) 0 (length ls).

(* ------------------------------------------------------------------ *)
(* what is printed about a file: 106 | 112-113 | 130-131 | 175-176 *)
Inductive tmsg : Set := BadCopyright | BadFrontmatter | UnexpectedKey (k : text) | InvalidFlag (f : text).
Definition valid_keys : list text :=
  map tx ["description"; "esid"; "info"; "negative"; "includes"; "author"; "flags"; "features"; "es5id"; "es6id"; "locale"]%string.
Definition valid_flags : list text :=
  map tx ["onlyStrict"; "noStrict"; "module"; "raw"; "async"; "generated"; "CanBlockIsFalse"; "CanBlockIsTrue"; "non-deterministic"]%string.
(* 133-135  check with str *)
Definition check_str (d : list (text * data)) (key : text) : res unit :=
  match tget_ key d with None => Ok tt | Some (DStr _) => Ok tt | Some _ => Err AssertionError end.
Definition no_dup (l : list text) : bool := length (nodup (list_eq_dec N.eq_dec) l) =? length l.
Definition one_of (v : option data) (l : list text) : bool := match v with Some (DStr t) => tmem_ t l | _ => false end.
(* 142-147 *)
Definition check_negative (d : list (text * data)) : res unit :=
  match tget_ (tx "negative") d with
  | None => Ok tt
  | Some (DMap neg) =>
    do _ <- assert_ (forallb (fun k => tmem_ k [tx "type"; tx "phase"]) (map fst neg) && tmem_ (tx "type") (map fst neg) && tmem_ (tx "phase") (map fst neg)) ;;
    do _ <- assert_ (one_of (tget_ (tx "type") neg) (map tx ["RangeError"; "ReferenceError"; "SyntaxError"; "Test262Error"; "TypeError"]%string)) ;;
    assert_ (one_of (tget_ (tx "phase") neg) (map tx ["parse"; "resolution"; "runtime"]%string))
  | Some _ => Err AssertionError
  end.
(* 154  the expression: word characters and hyphens, and then .js; the whole text *)
Definition js_name (uniword : N -> bool) (t : text) : bool :=
  let n := count_while (fun c => wordc uniword c || (c =? 45)%N) t in
  (1 <=? n) && text_eqb (skipn n t) (tx ".js").
(* 149-154 *)
Definition check_includes (uniword : N -> bool) (d : list (text * data)) : res unit :=
  match tget_ (tx "includes") d with
  | None => Ok tt
  | Some (DList incs) => do _ <- assert_ (0 <? length incs) ;; assert_ (forallb (js_name uniword) incs)
  | Some _ => Err AssertionError
  end.
(* 158-186  the flags, and the messages *)
Definition check_flags (d : list (text * data)) : res (list text * list tmsg) :=
  match tget_ (tx "flags") d with
  | None => Ok ([], [])
  | Some (DList flags) =>
    do _ <- assert_ (no_dup flags) ;;
    let count x := if tmem_ (tx x) flags then 1 else 0 in
    do _ <- assert_ (count "onlyStrict"%string + count "noStrict"%string + count "raw"%string <=? 1) ;;
    Ok (flags, map InvalidFlag (sorted_set (filter (fun f => negb (tmem_ f valid_flags)) flags)))
  | Some _ => Err AssertionError
  end.
(* 188-195 *)
Definition check_features (d : list (text * data)) : res unit :=
  match tget_ (tx "features") d with
  | None => Ok tt
  | Some (DList fs) => do _ <- assert_ (0 <? length fs) ;; assert_ (no_dup fs)
  | Some _ => Err AssertionError
  end.
(* 115-208  the checks of the front matter; the messages and the number of runs *)
Definition check_data (uniword : N -> bool) (v : data) : res (list tmsg * nat) :=
  match v with
  | DMap d =>
    let m1 := map UnexpectedKey (sorted_set (filter (fun k => negb (tmem_ k valid_keys)) (map fst d))) in
    do _ <- assert_ (tmem_ (tx "description") (map fst d)) ;;
    do _ <- check_str d (tx "description") ;;
    do _ <- check_str d (tx "esid") ;;
    do _ <- check_str d (tx "info") ;;
    do _ <- check_negative d ;;
    do _ <- check_includes uniword d ;;
    do _ <- check_str d (tx "author") ;;
    do fm2 <- check_flags d ;;
    do _ <- check_features d ;;
    do _ <- check_str d (tx "es5id") ;;
    do _ <- check_str d (tx "es6id") ;;
    let (flags, m2) := fm2 in
    Ok (m1 ++ m2, if tmem_ (tx "onlyStrict") flags || tmem_ (tx "noStrict") flags || tmem_ (tx "raw") flags then 1 else 2)
  | _ => Err AssertionError                                                            (* 115 *)
  end.
Definition marker (m : text) (s : text) : option nat := if is_prefix m s then Some (length m) else None.
Definition open_marker : text := 10%N :: tx "/*---" ++ [10%N].
Definition close_marker : text := 10%N :: tx "---*/" ++ [10%N].
Fixpoint nl_split (s : text) : list text :=
  match s with
  | [] => [[]]
  | c :: s' => if (c =? 10)%N then [] :: nl_split s' else match nl_split s' with x :: xs => (c :: x) :: xs | [] => [] end
  end.
(* 88-107 *)
Definition good_copyright (path copyright : text) : bool :=
  forallb (fun l => is_prefix (tx "// ") l || match l with [] => true | _ => false end) (nl_split copyright)
  || is_prefix (tx "./language/comments/hashbang/") path || is_prefix (tx "language/comments/hashbang/") path
  || is_prefix (tx "./annexB/language/comments/single-line-html-close-first-line-") path.
(* 71-217  test_one: what is printed, and the number of runs if the test is counted.
   print of 253-256 and the like, within parse_frontmatter, is left out. *)
Definition test_one (uniword : N -> bool) (path file : text) : res (list tmsg * option nat) :=
  match finditer (marker open_marker) 0 0 file, finditer (marker close_marker) 0 0 file with
  | [(s1, n1)], [(s2, n2)] =>
    if negb (good_copyright path (slice 0 s1 file)) then Ok ([BadCopyright], None)
    else
      match parse_frontmatter uniword (slice (s1 + n1) s2 file) with
      | Err AssertionError => Ok ([BadFrontmatter], None)                              (* 110-113 *)
      | Err e => Err e
      | Ok d => do mr <- check_data uniword d ;; let (ms, r) := mr in Ok (ms, Some r)
      end
  | _, _ => Err ValueError                                                             (* 80-81 *)
  end.
