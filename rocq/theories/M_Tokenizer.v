(* Model of Tokenizer.py.
   Regular expressions are abstract: a pattern is a function giving, for a line
   and an offset, the length of the match starting there, if any. The match
   object is determined by line, offset and length. *)
From Verif Require Import M_Base.

Section Tok.
  Context {Tok : Type}.

  (* Tokenizer.py:91-96  TokenSpec; response None means "skip" (61-63);
     a callable or a constant response (64-71) is a function of the match. *)
  Record tspec := mkTS {
    ts_match : text -> nat -> option nat;
    ts_resp : option (text -> nat -> nat -> Tok)
  }.

  (* 21-27  the list of matches: (length, index of the spec, spec) *)
  Fixpoint get_matches (i : nat) (specs : list tspec) (line : text) (off : nat)
    : list (nat * nat * tspec) :=
    match specs with
    | [] => []
    | s :: rest =>
      match ts_match s line off with
      | Some n => (n, i, s) :: get_matches (S i) rest line off
      | None => get_matches (S i) rest line off
      end
    end.

  Definition m_len (m : nat * nat * tspec) : nat := fst (fst m).

  (* 28-56  choose the match *)
  Definition choose (ms : list (nat * nat * tspec)) : res (nat * nat * tspec) :=
    match ms with
    | [] => Err UserError                                         (* 28-35 *)
    | [m] => Ok m                                                 (* 36-37 *)
    | _ =>
      let maxlen := list_max (map m_len ms) in                    (* 42 *)
      match filter (fun m => m_len m =? maxlen) ms with           (* 43-47 *)
      | [] => Err AssertionError                                  (* 48-49 *)
      | [m] => Ok m                                               (* 50-51 *)
      | _ => Err UserError                                        (* 52-56 *)
      end
    end.

  (* 59  token_spec.n_matches += 1 *)
  Fixpoint bump (i : nat) (cs : list nat) : list nat :=
    match cs, i with
    | [], _ => []
    | c :: cs', O => S c :: cs'
    | c :: cs', S i' => c :: bump i' cs'
    end.

  (* 20-74  the while loop; the counters are those of the specs *)
  Fixpoint tok_loop (fuel : nat) (specs : list tspec) (line : text) (off : nat)
    (cs : list nat) (acc : list Tok) : res (list Tok * list nat) :=
    match fuel with
    | O => Err OutOfFuel
    | S f =>
      if off <? length line then
        do (n, i, s) <- choose (get_matches 0 specs line off) ;;
        let acc' := match ts_resp s with                          (* 61-71 *)
                    | None => acc
                    | Some g => acc ++ [g line off n]
                    end in
        tok_loop f specs line (off + n) (bump i cs) acc'          (* 73 *)
      else Ok (acc, cs)                                           (* 74 *)
    end.

  (* 17-19 *)
  Definition tokenize (fuel : nat) (specs : list tspec) (line : text) (cs : list nat) :=
    tok_loop fuel specs line 0 cs [].
End Tok.
