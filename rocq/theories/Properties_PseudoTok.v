(* Property C18: the pseudocode tokenizer, Pseudocode_Parser.py. *)
From Verif Require Import M_Base L_Base M_PseudoTok L_PseudoTok.

(* leaving out the generated tokens, the tokens divide the text as the patterns prescribe *)
Theorem C18_tiles : forall s stop other fuel start init toks,
  other_ok stop other -> start <= stop -> tokenize s stop other fuel start init = Ok toks ->
  lexed s stop other start (filter (fun t => negb (is_dent t)) toks).
Proof. intros s stop other fuel start init toks Ho Hs H. exact (proj1 (tokenize_loop_ok s stop other Ho _ _ _ _ _ Hs H)). Qed.
Print Assumptions C18_tiles.

(* at every line the depth is the indentation relative to the start, in units of two *)
Theorem C18_depth : forall s stop other fuel start init toks,
  other_ok stop other -> start <= stop -> tokenize s stop other fuel start init = Ok toks ->
  forall pre p e post, toks = pre ++ (KNlai, p, e) :: post ->
    (Z.of_nat init + 2 * depth pre = Z.of_nat (e - p - 1))%Z.
Proof. intros s stop other fuel start init toks Ho Hs H. exact (proj1 (proj2 (proj2 (tokenize_loop_ok s stop other Ho _ _ _ _ _ Hs H)))). Qed.
Print Assumptions C18_depth.

(* generated tokens are empty, of one kind per line, and directly precede the line's own token *)
Theorem C18_placement : forall s stop other fuel start init toks,
  other_ok stop other -> start <= stop -> tokenize s stop other fuel start init = Ok toks ->
  forall pre k p e post, toks = pre ++ (k, p, e) :: post -> k = KIndent \/ k = KOutdent ->
    e = p /\ exists t post', post = t :: post' /\ (t = (k, p, p) \/ exists e', t = (KNlai, p, e')).
Proof. intros s stop other fuel start init toks Ho Hs H. exact (proj1 (proj2 (tokenize_loop_ok s stop other Ho _ _ _ _ _ Hs H))). Qed.
Print Assumptions C18_placement.

(* balance: all indents are matched exactly when the last line is back at the initial indentation,
   and no prefix has more outdents than indents when no line is less indented than the start *)
Theorem C18_balance : forall s stop other fuel start init toks,
  other_ok stop other -> start <= stop -> tokenize s stop other fuel start init = Ok toks ->
  (depth toks = 0%Z <-> last (indents toks) init = init).
Proof.
  intros s stop other fuel start init toks Ho Hs H.
  pose proof (proj2 (proj2 (proj2 (tokenize_loop_ok s stop other Ho _ _ _ _ _ Hs H)))) as E.
  assert (Hl : forall l d, last (map Z.of_nat l) (Z.of_nat d) = Z.of_nat (last l d)).
  { induction l as [|x l IH]; intros d; [reflexivity|]. destruct l as [|y l]; [reflexivity|]. cbn [map] in *. exact (IH d). }
  rewrite Hl in E. lia.
Qed.
Print Assumptions C18_balance.

Theorem C18_never_negative : forall s stop other fuel start init toks,
  other_ok stop other -> start <= stop -> tokenize s stop other fuel start init = Ok toks ->
  (forall x, In x (indents toks) -> init <= x) ->
  forall pre post, toks = pre ++ post -> (0 <= depth pre)%Z.
Proof.
  intros s stop other fuel start init toks Ho Hs H Hall pre post E.
  pose proof (tokenize_prefix_nonneg s stop other fuel true (Z.of_nat init) start toks (Z.of_nat init) Ho Hs (Z.le_refl _) H) as G.
  specialize (G ltac:(intros x Hx; specialize (Hall x Hx); lia) pre post E). lia.
Qed.
Print Assumptions C18_never_negative.

(* conversely, a text that divides into tokens is accepted when its indentation changes by multiples of
   two, and rejected by an assertion otherwise *)
Theorem C18_accepts : forall s stop other start init l,
  lexed s stop other start l -> even_changes init (indents l) ->
  exists toks, tokenize s stop other (length l) start init = Ok toks /\ filter (fun t => negb (is_dent t)) toks = l.
Proof. intros s stop other start init l Hl. apply (tokenize_complete s stop other start l Hl true init). Qed.
Print Assumptions C18_accepts.

Theorem C18_odd_rejected : forall s stop other start init l,
  lexed s stop other start l -> ~ even_changes init (indents l) ->
  tokenize s stop other (length l) start init = Err AssertionError.
Proof. intros s stop other start init l Hl. apply (tokenize_odd s stop other start l Hl true init). Qed.
Print Assumptions C18_odd_rejected.

(* the start indentation handed to the tokenizer is that of the line containing the start *)
Theorem C18_initial : forall s p w, this_line_indentation s p = Ok w -> line_indent s p w.
Proof. exact this_line_ok. Qed.
Print Assumptions C18_initial.

(* an untokenizable text is meant to be reported; if the very first token fails the report itself fails *)
Theorem C18_error_report_refuted : exists s stop other start init,
  other_ok stop other /\ start <= stop /\ tokenize s stop other 5 start init = Err NameError.
Proof. exists [64%N], 1, (fun _ => None), 0, 0. split; [intros p k e H; discriminate|]. split; [lia|reflexivity]. Qed.
Print Assumptions C18_error_report_refuted.

(* "  a\n    b\n  c\n  " from position 2 *)
Definition ex_s : text := [32; 32; 97; 10; 32; 32; 32; 32; 98; 10; 32; 32; 99; 10; 32; 32]%N.
Definition ex_other (p : nat) : option (nat * nat) := if p <? 16 then Some (7, S p) else None.
Example C18_hyp : other_ok 16 ex_other.
Proof. intros p k e H. unfold ex_other in H. destruct (Nat.ltb_spec p 16); inversion H; lia. Qed.
Example C18_case : this_line_indentation ex_s 2 = Ok 2 /\
  tokenize ex_s 16 ex_other 20 2 2 =
  Ok [(KOther 7, 2, 3); (KIndent, 3, 3); (KNlai, 3, 8); (KOther 7, 8, 9); (KOutdent, 9, 9); (KNlai, 9, 12);
      (KOther 7, 12, 13); (KNlai, 13, 16); (KEos, 16, 16)].
Proof. split; reflexivity. Qed.
Example C18_odd_case : tokenize ex_s 16 ex_other 20 2 1 = Err AssertionError.
Proof. reflexivity. Qed.
