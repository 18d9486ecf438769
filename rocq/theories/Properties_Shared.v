(* Properties C01-C05: shared.py and DecoratedFuncDict.py. *)
From Coq Require Import Permutation Sorted.
From Verif Require Import M_Base M_Shared L_Shared L_Replace L_Entities L_Messages M_FuncDict L_FuncDict.

(* ---------------- C01 ---------------- *)

(* "ab\nc\n" *)
Definition ex_text : text := [97;98;10;99;10]%N.

Theorem C01_linecol_exact : forall (t : text) (p : nat),
  (exists q, p <= q /\ nth_error t q = Some 10%N) ->
  exists line col,
    convert_posn_to_linecol t (Z.of_nat p) = Ok (line, Z.of_nat col) /\ is_linecol t p line col.
Proof. exact linecol_exact. Qed.
Print Assumptions C01_linecol_exact.

Theorem C01_linecol_unique : forall t p line col line' col',
  is_linecol t p line col -> is_linecol t p line' col' -> line = line' /\ col = col'.
Proof. exact is_linecol_fun. Qed.
Print Assumptions C01_linecol_unique.

Theorem C01_linecol_roundtrip : forall t z line col,
  convert_posn_to_linecol t z = Ok (line, col) ->
  convert_HTMLParser_getpos_to_posn t line (col - 1) = Ok z.
Proof. exact linecol_roundtrip. Qed.
Print Assumptions C01_linecol_roundtrip.

Theorem C01_linecol_injective : forall t z1 z2 r,
  convert_posn_to_linecol t z1 = Ok r -> convert_posn_to_linecol t z2 = Ok r -> z1 = z2.
Proof. exact linecol_injective. Qed.
Print Assumptions C01_linecol_injective.

Theorem C01_linecol_fails : forall (t : text) (z : Z),
  (z < 0)%Z \/ (forall q, (z <= Z.of_nat q)%Z -> nth_error t q <> Some 10%N) ->
  convert_posn_to_linecol t z = Err AssertionError.
Proof. exact linecol_fails. Qed.
Print Assumptions C01_linecol_fails.

Example C01_case : convert_posn_to_linecol ex_text 3 = Ok (2, 1%Z)
  /\ convert_posn_to_linecol ex_text 2 = Ok (1, 3%Z)
  /\ convert_posn_to_linecol ex_text 5 = Err AssertionError
  /\ (exists q, 3 <= q /\ nth_error ex_text q = Some 10%N).
Proof. repeat split; try reflexivity. exists 4. split; [lia|reflexivity]. Qed.

(* ---------------- C02 ---------------- *)

Theorem C02_repl_splice : forall t rs,
  Forall (forward t) rs -> ForallOrdPairs disjoint rs ->
  exists s, Permutation s rs /\ StronglySorted before s /\
    write_spec_with_replacements t rs = Ok (fold_right splice t s).
Proof. exact repl_ok. Qed.
Print Assumptions C02_repl_splice.

Theorem C02_repl_order_irrelevant : forall t rs rs',
  Permutation rs rs' -> write_spec_with_replacements t rs = write_spec_with_replacements t rs'.
Proof. exact repl_order_irrelevant. Qed.
Print Assumptions C02_repl_order_irrelevant.

Theorem C02_repl_overlap_fails : forall t rs,
  Forall (fun r => r_start r <= r_end r) rs -> ~ ForallOrdPairs disjoint rs ->
  write_spec_with_replacements t rs = Err AssertionError.
Proof. exact repl_overlap_fails. Qed.
Print Assumptions C02_repl_overlap_fails.

Theorem C02_repl_backward_refuted : exists t rs out,
  ~ Forall (fun r => r_start r <= r_end r) rs /\
  write_spec_with_replacements t rs = Ok out /\
  count_occ N.eq_dec t 66%N = 1 /\ count_occ N.eq_dec out 66%N = 2.
Proof. exact repl_backward_refuted. Qed.
Print Assumptions C02_repl_backward_refuted.

Example C02_case :
  let rs := [mkRepl 3 4 [120;121]%N; mkRepl 0 1 []%N; mkRepl 4 4 [122]%N] in
  Forall (forward ex_text) rs /\ ForallOrdPairs disjoint rs /\
  write_spec_with_replacements ex_text rs = Ok [98;10;120;121;122;10]%N.
Proof.
  cbv zeta. split; [|split; [|reflexivity]].
  - repeat constructor.
  - constructor; [constructor; [right; simpl; lia|constructor; [left; simpl; lia|constructor]]|].
    constructor; [constructor; [left; simpl; lia|constructor]|]. constructor; constructor.
Qed.
Example C02_case_overlap :
  let rs := [mkRepl 0 2 []; mkRepl 1 3 []] in
  Forall (fun r => r_start r <= r_end r) rs /\ ~ ForallOrdPairs disjoint rs.
Proof.
  cbv zeta. split; [repeat constructor|]. intros H. inversion H as [|? ? H1 H2]; subst.
  inversion H1; subst. unfold disjoint in *. simpl in *. lia.
Qed.

(* ---------------- C03 ---------------- *)

Theorem C03_messages_exact : forall t h d,
  msg_history t [] h = Ok d ->
  exists blocks : list (text * list (Z * message)),
    msg_at_posn_finish t d = flat_map print_block blocks /\
    join_lines (map fst blocks) = t /\
    (forall l, In l (map fst blocks) -> ~ In 10%N l) /\
    (forall k l ms, nth_error blocks k = Some (l, ms) -> block_ok t h (S k) ms) /\
    Permutation (flat_map (fun b => map snd (snd b)) blocks) (map snd h).
Proof. exact messages_ok. Qed.
Print Assumptions C03_messages_exact.

(* the walk used by [block_ok] is the line/column of C01 *)
Theorem C03_line_col : forall t p, is_linecol t p (line_of t p) (col_of t p).
Proof. exact walk_is_linecol. Qed.
Print Assumptions C03_line_col.

Example C03_case : exists d,
  msg_history ex_text [] [(3%Z,[109]%N); (1%Z,[110]%N); (0%Z,[111]%N)] = Ok d /\
  msg_at_posn_finish ex_text d =
    [SpecLine [97;98]%N; CaretLine 0; MsgLine [111]%N; CaretLine 1; MsgLine [110]%N;
     SpecLine [99]%N; CaretLine 0; MsgLine [109]%N; SpecLine []].
Proof. eexists. split; reflexivity. Qed.

(* ---------------- C04 ---------------- *)

(* &lt; &gt; &ldquo; &rdquo; &amp; *)
Definition html_entities : list (text * text) :=
  [([38;108;116;59], [60]); ([38;103;116;59], [62]); ([38;108;100;113;117;111;59], [8220]);
   ([38;114;100;113;117;111;59], [8221]); ([38;97;109;112;59], [38])]%N.

Theorem C04_decode_is_scan : forall t,
  ~ In 60%N t -> decode_entities t = Ok (scan_entities html_entities 0 t).
Proof. exact decode_is_scan. Qed.
Print Assumptions C04_decode_is_scan.

Theorem C04_decode_lt_fails : forall t, In 60%N t -> decode_entities t = Err AssertionError.
Proof. exact decode_lt_fails. Qed.
Print Assumptions C04_decode_lt_fails.

Theorem C04_decode_escape : forall t, decode_entities (escape t) = Ok t.
Proof. exact decode_escape. Qed.
Print Assumptions C04_decode_escape.

(* "&amp;lt;" decodes to "&lt;" *)
Example C04_case : decode_entities [38;97;109;112;59;108;116;59]%N = Ok [38;108;116;59]%N.
Proof. reflexivity. Qed.
Example C04_case_escape : escape [60;38]%N = [38;108;116;59;38;97;109;112;59]%N.
Proof. reflexivity. Qed.

(* ---------------- C05 ---------------- *)

Theorem C05_registry_history : forall (K F : Type) (keq : K -> K -> bool),
  (forall a b, keq a b = true <-> a = b) ->
  forall h : list (op (K:=K) (F:=F)),
  let '(s, rs) := run keq fd_init h in
  length rs = length h /\
  (forall i o, nth_error h i = Some o -> nth_error rs i = Some (expected keq (firstn i h) o)) /\
  (forall k, dget keq (access_counts s) k =
     match first_put keq h k with Some _ => Some (gets_after_put keq false h k) | None => None end).
Proof. exact @funcdict_history. Qed.
Print Assumptions C05_registry_history.

Theorem C05_registry_failure_is_noop : forall (K F : Type) (keq : K -> K -> bool)
  (s : fdict (K:=K) (F:=F)) o e, snd (step keq s o) = Err e -> fst (step keq s o) = s.
Proof. exact @funcdict_fail_noop. Qed.
Print Assumptions C05_registry_failure_is_noop.

Example C05_case :
  run Nat.eqb fd_init [Put 1 10; Get 1; Put 1 20; Get 2; Contains 2; Get 1]
  = (mkFD [(1, 10)] [(1, 2)],
     [Ok OUnit; Ok (OFunc 10); Err AssertionError; Err KeyError; Ok (OBool false); Ok (OFunc 10)]).
Proof. reflexivity. Qed.
