(* Properties C19 and C20: the document tree, HTML.py, and the node lookup, Pseudocode.py:117-129. *)
From Coq Require Import Ascii String.
From Verif Require Import M_Base L_Base M_HTML L_HTML.
Open Scope list_scope.

(* ---- C19 ---- *)

(* exactly the well-nested documents are accepted, with the tree that the nesting prescribes *)
Theorem C19_accepts : forall len lex style_end, lex_ok len lex style_end -> forall doc sk,
  parse len lex style_end = Ok (doc, sk) <->
  exists cs, doc = HNode 0 len (tx "#DOC") None cs /\ forest lex style_end (tx "#DOC") 0 len cs sk.
Proof. intros len lex style_end H. exact (parse_iff len lex style_end H). Qed.
Print Assumptions C19_accepts.

(* with no stray end tags, the nodes tile the text *)
Theorem C19_tiles : forall len lex style_end, lex_ok len lex style_end -> forall doc,
  parse len lex style_end = Ok (doc, []) -> h_start doc = 0 /\ h_end doc = len /\ tiled_doc doc.
Proof.
  intros len lex style_end H doc E. apply (parse_iff len lex style_end H) in E as (cs & -> & Hf).
  destruct (forest_tiled len lex style_end H _ _ _ _ _ Hf eq_refl) as [T1 T2]. cbn. repeat split; auto.
Qed.
Print Assumptions C19_tiles.

(* putting tags and leaves together gives the document back *)
Theorem C19_text : forall t lex style_end, lex_ok (length t) lex style_end -> forall doc,
  parse (length t) lex style_end = Ok (doc, []) -> concat (map (flatten t) (h_children doc)) = t.
Proof.
  intros t lex style_end H doc E. apply (parse_iff _ lex style_end H) in E as (cs & -> & Hf).
  destruct (forest_tiled _ lex style_end H _ _ _ _ _ Hf eq_refl) as [T1 T2]. cbn [h_children].
  assert (G : forall cs a, tile a (length t) cs -> (forall c, In c cs -> tiled c) -> concat (map (flatten t) cs) = slice a (length t) t).
  { clear. induction cs as [|c cs IH]; intros a T1 T2; cbn in *; [subst; unfold slice; now rewrite Nat.sub_diag|].
    destruct T1 as [<- T1]. rewrite (IH _ T1) by auto. rewrite flatten_tiled by auto.
    apply slice_slice; [apply tiled_le; auto|]. eapply tile_le; eauto. }
  rewrite (G cs 0 T1 T2). unfold slice. now rewrite Nat.sub_0_r, firstn_all.
Qed.
Print Assumptions C19_text.

(* the parser stops on every text *)
Theorem C19_stops : forall len lex style_end, lex_ok len lex style_end -> parse len lex style_end <> Err OutOfFuel.
Proof. intros len lex style_end H. exact (parse_fuel len lex style_end H). Qed.
Print Assumptions C19_stops.

(* "<b>x</b>step 1" *)
Definition ex_lex (p : nat) : option (event * nat) :=
  match p with
  | 0 => Some (StartTag (tx "b"), 3)
  | 3 => Some (Literal, 4)
  | 4 => Some (EndTag (tx "b"), 8)
  | 8 => Some (Literal, 14)
  | _ => None
  end.
Definition ex_doc := HNode 0 14 (tx "#DOC") None
  [HNode 0 8 (tx "b") (Some (3, 4)) [HNode 3 4 (tx "#LITERAL") None []]; HNode 8 14 (tx "#LITERAL") None []].
Lemma ex_lex_ok : lex_ok 14 ex_lex (fun _ => None).
Proof.
  assert (A : forall p ev e, ex_lex p = Some (ev, e) ->
    (p, ev, e) = (0, StartTag (tx "b"), 3) \/ (p, ev, e) = (3, Literal, 4) \/ (p, ev, e) = (4, EndTag (tx "b"), 8) \/ (p, ev, e) = (8, Literal, 14)).
  { intros p ev e H. unfold ex_lex in H. do 9 (destruct p as [|p]; [try discriminate; inversion H; subst; tauto|]). discriminate. }
  assert (B : name_ok (tx "b")) by (exists 98%N, []; split; [reflexivity|discriminate]).
  constructor; try discriminate.
  - intros p ev e H. apply A in H. destruct H as [H|[H|[H|H]]]; inversion H; lia.
  - intros p n e H. apply A in H. destruct H as [H|[H|[H|H]]]; inversion H; exact B.
  - intros p n e H. apply A in H. destruct H as [H|[H|[H|H]]]; inversion H; exact B.
Qed.
Example C19_ex : lex_ok 14 ex_lex (fun _ => None) /\ parse 14 ex_lex (fun _ => None) = Ok (ex_doc, []) /\
  concat (map (flatten (tx "<b>x</b>step 1")) (h_children ex_doc)) = tx "<b>x</b>step 1".
Proof. split; [exact ex_lex_ok|]. split; reflexivity. Qed.
(* a stray end tag is left out of the tree: "x</b>y" *)
Example C19_ex_stray :
  parse 6 (fun p => match p with 0 => Some (Literal, 1) | 1 => Some (EndTag (tx "b"), 5) | 5 => Some (Literal, 6) | _ => None end) (fun _ => None)
  = Ok (HNode 0 6 (tx "#DOC") None [HNode 0 1 (tx "#LITERAL") None []; HNode 5 6 (tx "#LITERAL") None []], [1]).
Proof. reflexivity. Qed.

(* ---- C20 ---- *)

(* whatever is found is a childless node of the tree that covers the position *)
Theorem C20_sound : forall posn n m, find_deepest posn n = Ok m -> desc n m /\ h_start m <= posn <= h_end m /\ h_children m = [].
Proof. intros posn n m H. exact (find_sound posn n m H). Qed.
Print Assumptions C20_sound.

(* a position in a leaf (or at its right edge) finds that leaf; so at a boundary the earlier one is taken *)
Theorem C20_leaf : forall doc m posn, tiled_doc doc -> desc doc m -> h_children m = [] -> h_start m < posn <= h_end m ->
  find_deepest posn doc = Ok m.
Proof. intros doc m posn. exact (doc_inside doc posn m). Qed.
Print Assumptions C20_leaf.

(* a position within a tag of an element with children, or right after its end tag, fails *)
Theorem C20_tag_fails : forall doc m posn, tiled_doc doc -> desc doc m -> h_children m <> [] -> in_tags m posn ->
  find_deepest posn doc = Err AssertionError.
Proof. intros doc m posn. exact (doc_in_tags doc posn m). Qed.
Print Assumptions C20_tag_fails.

(* and those are the only failures, apart from positions right before a start tag *)
Theorem C20_only_tags_fail : forall doc posn er, tiled_doc doc -> h_start doc <= posn <= h_end doc -> find_deepest posn doc = Err er ->
  er = AssertionError /\ exists m, desc doc m /\ h_children m <> [] /\ at_tags m posn.
Proof. intros doc posn er. exact (doc_fails doc posn er). Qed.
Print Assumptions C20_only_tags_fail.

(* so a position at which a leaf starts can fail, in a document the parser accepts *)
Theorem C20_leaf_start_refuted : exists len lex style_end doc m,
  lex_ok len lex style_end /\ parse len lex style_end = Ok (doc, []) /\ tiled_doc doc /\ desc doc m /\ h_children m = [] /\
  h_start m < h_end m /\ find_deepest (h_start m) doc = Err AssertionError.
Proof.
  exists 14, ex_lex, (fun _ => None), ex_doc, (HNode 8 14 (tx "#LITERAL") None []).
  split; [exact ex_lex_ok|]. split; [reflexivity|]. split; [|split; [|cbn; repeat split; lia]].
  - now apply (C19_tiles 14 ex_lex (fun _ => None) ex_lex_ok ex_doc).
  - eapply d_step; [right; left; reflexivity|constructor].
Qed.
Print Assumptions C20_leaf_start_refuted.

Example C20_ex : find_deepest 9 ex_doc = Ok (HNode 8 14 (tx "#LITERAL") None []) /\ find_deepest 4 ex_doc = Ok (HNode 3 4 (tx "#LITERAL") None [])
  /\ find_deepest 2 ex_doc = Err AssertionError /\ in_tags (HNode 0 8 (tx "b") (Some (3, 4)) [HNode 3 4 (tx "#LITERAL") None []]) 2.
Proof. repeat (split; [reflexivity|]). exists 3, 4. cbn. split; [reflexivity|lia]. Qed.
