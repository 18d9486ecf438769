(* C74: what the check of indentation reports. *)
From Coq Require Import Ascii String Sorted Permutation.
From Verif Require Import M_Base L_Base M_HTML M_Layout L_Layout Properties_Layout M_Indent L_Indent L_IndentTree L_IndentMain.
Open Scope list_scope.
Notation length := List.length.

Definition ex_doc_text : text := tx ("<emu-clause>" ++ nl ++ "  <emu-alg>" ++ nl ++ "    1. A" ++ nl ++ "      1. B" ++ nl ++ "    1. C" ++ nl ++ "  </emu-alg>" ++ nl ++ "  <p>x</p>" ++ nl ++ "</emu-clause>" ++ nl).
Definition ex_lit (a b : nat) : elem := Elem (tx "#LITERAL") a b a b false false None [].
Definition ex_alg : elem := Elem (tx "emu-alg") 15 66 24 56 false false None [ex_lit 24 56].
Definition ex_p : elem := Elem (tx "p") 69 77 72 73 false false None [ex_lit 72 73].
Definition ex_clause : elem := Elem (tx "emu-clause") 0 91 12 78 true false None [ex_lit 12 15; ex_alg; ex_lit 66 69; ex_p; ex_lit 77 78].
Definition bad_text : text := tx ("<emu-clause>" ++ nl ++ "  <emu-alg>" ++ nl ++ "   1. A" ++ nl ++ "       1. B" ++ nl ++ " 1. C" ++ nl ++ "</emu-alg>" ++ nl ++ "</emu-clause>" ++ nl).
Definition bad_alg : elem := Elem (tx "emu-alg") 15 61 24 51 false false None [ex_lit 24 51].
Definition bad_clause : elem := Elem (tx "emu-clause") 0 75 12 62 true false None [ex_lit 12 15; bad_alg; ex_lit 61 62].
Definition pre_text : text := tx ("<pre><code>" ++ nl ++ "  f" ++ nl ++ "</code></pre>").
Definition ex_code (c : option text) : elem := Elem (tx "code") 5 23 11 16 false false c [ex_lit 11 16].
Definition ex_pre (c : option text) : elem := Elem (tx "pre") 0 29 5 23 false false None [ex_code c].

Lemma one_line_dec : forall s a b, forallb (fun c => negb (c =? 10)%N) (slice a b s) = true -> one_line s a b.
Proof.
  intros s a b H i Hi X. rewrite forallb_forall in H. assert (In 10%N (slice a b s)) as Y.
  { apply nth_error_In with (n := i - a). apply has_slice. replace (a + (i - a)) with i by lia. split; [exact X|lia]. }
  apply H in Y. discriminate.
Qed.
Ltac wf_tac := constructor;
  [vm_compute; lia|vm_compute; lia|vm_compute; lia|vm_compute; lia|intros _ _; apply one_line_dec; vm_compute; reflexivity|let H := fresh in intros H; vm_compute in H; discriminate|
   intros c H; first [discriminate H | assert (c = ex_code (Some (tx "javascript"))) as -> by (vm_compute in H; injection H as <-; reflexivity); split; [vm_compute; lia|split; [vm_compute; lia|apply one_line_dec; vm_compute; reflexivity]]]|
   cbn [kids ex_clause ex_alg ex_p ex_lit ex_pre ex_code bad_clause bad_alg]; repeat (constructor; [wf_tac|]); try constructor].
Lemma ex_wf : Forall (wf ex_doc_text) [ex_clause; ex_lit 91 92].
Proof. repeat (constructor; [wf_tac|]). constructor. Qed.
Lemma bad_wf : Forall (wf bad_text) [bad_clause; ex_lit 75 76].
Proof. repeat (constructor; [wf_tac|]). constructor. Qed.

(* C74.1  Nothing is reported exactly if every element is where its ancestors say: the tag first on its line, two columns further in than its
   parent's (html, head, body add nothing; thead and tbody as the next line has it), the end tag of one of several lines in the same column as the start tag
   (but for a p with br), and the lines of an element without block children an outline two columns further in. *)
Theorem C74_silent : forall s doc, Forall (wf s) doc -> (check_doc s doc = ([], Ok tt) <-> Forall (laid s 0) doc).
Proof. exact doc_silent. Qed.
Print Assumptions C74_silent.
Example C74_silent_ex : Forall (laid ex_doc_text 0) [ex_clause; ex_lit 91 92] /\ ~ Forall (laid bad_text 0) [bad_clause; ex_lit 75 76] /\
  check_doc bad_text [bad_clause; ex_lit 75 76] = ([(28, Expected 4 3); (46, ExpectedLess 3 1); (40, Expected 5 7); (51, Expected 2 0)], Ok tt).
Proof.
  split; [apply C74_silent; [exact ex_wf|vm_compute; reflexivity]|]. split; [|vm_compute; reflexivity]. intros H. apply (C74_silent _ _ bad_wf) in H. vm_compute in H. discriminate.
Qed.

(* C74.2  It fails exactly if some element that is looked at is a pre of several lines whose content is a code without the class javascript; by KeyError or AssertionError. *)
Theorem C74_failures : forall s doc, Forall (wf s) doc ->
  (snd (check_doc s doc) = Ok tt <-> forall n m, In n doc -> reached s n m -> ~ odd_code s m) /\
  (forall x, snd (check_doc s doc) = Err x -> x = KeyError \/ x = AssertionError).
Proof.
  intros s doc W. rewrite doc_list. induction W as [|c l Wc Wl [I1 I2]]; [split; [split; [intros _ n m []|reflexivity]|discriminate]|].
  cbn [check_list]. fold (check_list s 0 l). rewrite andthen_snd. destruct (node_fails s c Wc 0) as [N1 N2]. destruct (snd (check_node s 0 c)) as [[]|x].
  - split; [|exact I2]. rewrite I1. split.
    + intros H n m [<-|Hn]; [exact (proj1 N1 eq_refl m)|exact (H n m Hn)].
    + intros H n m Hn. exact (H n m (or_intror Hn)).
  - split; [|exact N2]. split; [discriminate|]. intros H. apply N1. intros m. exact (H c m (or_introl eq_refl)).
Qed.
Print Assumptions C74_failures.
Example C74_failures_ex : check_doc pre_text [ex_pre (Some (tx "javascript"))] = ([], Ok tt) /\ snd (check_doc pre_text [ex_pre (Some (tx "js"))]) = Err AssertionError /\
  snd (check_doc pre_text [ex_pre None]) = Err KeyError /\ wf pre_text (ex_pre (Some (tx "javascript"))).
Proof. split; [vm_compute; reflexivity|]. split; [vm_compute; reflexivity|]. split; [vm_compute; reflexivity|]. wf_tac. Qed.

(* C74.3  What is said is true: a tag or a line is in the column that is said, which is not the one expected, or is not the first thing on its line. *)
Theorem C74_messages : forall s doc m, Forall (wf s) doc -> In m (fst (check_doc s doc)) -> true_msg s m.
Proof.
  intros s doc m W. rewrite doc_list. induction W as [|c l Wc Wl IH]; [intros []|]. cbn [check_list]. fold (check_list s 0 l). intros H. apply andthen_in in H as [H|H]; [|auto].
  exact (node_true s c Wc 0 m H).
Qed.
Print Assumptions C74_messages.
Example C74_messages_ex : placed bad_text 46 1 /\ placed bad_text 40 7.
Proof.
  assert (H : forall m, In m (fst (check_doc bad_text [bad_clause; ex_lit 75 76])) -> true_msg bad_text m) by (intros m; apply C74_messages; exact bad_wf).
  split; [apply (H (46, ExpectedLess 3 1))|apply (H (40, Expected 5 7))]; vm_compute; tauto.
Qed.

(* C74.4  In one content, each line is reported at most once. *)
Theorem C74_once : forall s c n e, snd (check_inline s c n e) = Ok tt /\ NoDup (map fst (fst (check_inline s c n e))).
Proof.
  intros s c n e. rewrite inline_eq. cbn [fst snd]. split; [reflexivity|]. set (l := if c then _ else _).
  assert (S : StronglySorted lt (map snd l)) by (unfold l; destruct c; apply lines_sorted).
  assert (D : NoDup (map snd l)).
  { clear - S. revert S. generalize (map snd l). clear. induction l as [|a l IH]; intros H; [constructor|]. apply StronglySorted_inv in H as [H F]. constructor; [|auto].
    rewrite Forall_forall in F. intros X. apply F in X. lia. }
  apply (NoDup_count_occ Nat.eq_dec). intros x. pose proof (lchk_count _ l e x (Nat.le_refl _)) as C. apply (NoDup_count_occ Nat.eq_dec) with (x := x) in D. eapply Nat.le_trans; [exact C|exact D].
Qed.
Print Assumptions C74_once.
Example C74_once_ex : map fst (fst (check_inline bad_text false bad_alg 4)) = [28; 46; 40]. Proof. vm_compute. reflexivity. Qed.

(* C74.5  The first line with which a content is not an outline any more is reported, and no line before it is. *)
Theorem C74_first : forall s n e l1 ind x l2,
  StronglySorted lt (map snd (l1 ++ (ind, x) :: l2)) -> (forall i p, In (i, p) (l1 ++ (ind, x) :: l2) <-> line_at s (isp n) (iep n) i p) ->
  outline e (map fst l1) -> ~ outline e (map fst (l1 ++ [(ind, x)])) ->
  (exists w, In (x, w) (fst (check_inline s false n e))) /\ forall m, In m (fst (check_inline s false n e)) -> x <= fst m.
Proof.
  intros s n e l1 ind x l2 S H O N. rewrite inline_eq. cbn [fst].
  assert (E : lines_between s (isp n) (iep n) = (l1 ++ [(ind, x)]) ++ l2).
  { rewrite <- app_assoc. symmetry. apply pairs_same; [exact S|apply lines_sorted|]. intros i p. rewrite lines_spec. apply H. }
  rewrite E. destruct (lchk_app (length (l1 ++ [(ind, x)])) (l1 ++ [(ind, x)]) l2 e (Nat.le_refl _)) as (ex & P & Q). { destruct l1; discriminate. }
  assert (A : forall m, In m (lchk (l1 ++ [(ind, x)]) e) -> fst m = x).
  { destruct l1 as [|a l1].
    - intros m Hm. apply (lchk_in _ _ _ _ (Nat.le_refl _)) in Hm as (i & [Hi|[]] & _). congruence.
    - destruct (lchk_app (length (a :: l1)) (a :: l1) [(ind, x)] e (Nat.le_refl _) ltac:(discriminate)) as (ex' & P' & Q').
      apply (lchk_silent _ _ _ (Nat.le_refl _)) in O. rewrite O in P'. intros m Hm. apply (Permutation_in _ P') in Hm. cbn [app] in Hm. destruct (Q' m Hm) as [X|[]]. cbn in X. congruence. }
  split.
  - destruct (lchk (l1 ++ [(ind, x)]) e) as [|[p w] r] eqn:El.
    + exfalso. apply N. now apply (lchk_silent _ _ _ (Nat.le_refl _)).
    + exists w. pose proof (A (p, w) (or_introl eq_refl)) as Ap. cbn in Ap. subst p. apply (Permutation_in _ (Permutation_sym P)). apply in_app_iff. left. now left.
  - intros m Hm. apply (Permutation_in _ P) in Hm. apply in_app_iff in Hm as [Hm|Hm]; [rewrite (A m Hm); lia|]. apply Q in Hm.
    rewrite map_app in S. clear - S Hm. induction (map snd l1) as [|y r IH]; cbn [app] in S; apply StronglySorted_inv in S as [S F]; [|exact (IH S)].
    cbn [map snd] in F. rewrite Forall_forall in F. specialize (F _ Hm). lia.
Qed.
Print Assumptions C74_first.
Example C74_first_ex : forall m, In m (fst (check_inline bad_text false bad_alg 3)) -> 40 <= fst m.
Proof.
  apply (C74_first bad_text bad_alg 3 [(3, 28)] 7 40 [(1, 46)]).
  - assert (E : map snd ([(3, 28)] ++ (7, 40) :: [(1, 46)]) = map snd (lines_between bad_text 24 51)) by (vm_compute; reflexivity). rewrite E. apply lines_sorted.
  - intros i p. rewrite <- lines_spec. assert (E : lines_between bad_text (isp bad_alg) (iep bad_alg) = [(3, 28)] ++ (7, 40) :: [(1, 46)]) by (vm_compute; reflexivity). rewrite E. reflexivity.
  - apply outl_iff. cbn. auto.
  - intros H. apply outl_iff in H. cbn in H. lia.
Qed.

(* C74.6  What is said of a line depends on the lines of the content up to it only. *)
Theorem C74_prefix : forall s s' n n' e l l2 l2' m,
  StronglySorted lt (map snd (l ++ l2)) -> (forall i p, In (i, p) (l ++ l2) <-> line_at s (isp n) (iep n) i p) ->
  StronglySorted lt (map snd (l ++ l2')) -> (forall i p, In (i, p) (l ++ l2') <-> line_at s' (isp n') (iep n') i p) ->
  In (fst m) (map snd l) -> In m (fst (check_inline s false n e)) -> In m (fst (check_inline s' false n' e)).
Proof.
  intros s s' n n' e l l2 l2' m S H S' H' Hl. rewrite !inline_eq. cbn [fst].
  assert (E : lines_between s (isp n) (iep n) = l ++ l2) by (symmetry; apply pairs_same; [exact S|apply lines_sorted|intros i p; rewrite lines_spec; apply H]).
  assert (E' : lines_between s' (isp n') (iep n') = l ++ l2') by (symmetry; apply pairs_same; [exact S'|apply lines_sorted|intros i p; rewrite lines_spec; apply H']).
  rewrite E, E'. destruct l as [|a l]; [destruct Hl|].
  destruct (lchk_app _ (a :: l) l2 e (Nat.le_refl _) ltac:(discriminate)) as (ex & P & Q). destruct (lchk_app _ (a :: l) l2' e (Nat.le_refl _) ltac:(discriminate)) as (ex' & P' & _).
  intros Hm. apply (Permutation_in _ P) in Hm. apply in_app_iff in Hm as [Hm|Hm].
  - apply (Permutation_in _ (Permutation_sym P')). apply in_app_iff. now left.
  - exfalso. apply Q in Hm. rewrite map_app in S. clear - S Hl Hm. induction (map snd (a :: l)) as [|y r IH]; [destruct Hl|]. cbn [app] in S. apply StronglySorted_inv in S as [S F]. rewrite Forall_forall in F.
    destruct Hl as [->|Hl]; [|exact (IH S Hl)]. specialize (F (fst m)). assert (fst m < fst m) by (apply F, in_app_iff; now right). lia.
Qed.
Print Assumptions C74_prefix.
Example C74_prefix_ex : In (28, Expected 4 3) (fst (check_inline bad_text false bad_alg 4)) /\ In (28, Expected 4 3) (fst (check_inline (firstn 36 bad_text) false bad_alg 4)).
Proof. split; vm_compute; auto. Qed.

(* C74.7  So in a document about which nothing is reported, the column of an element that is looked at is twice the number of elements around it, html, head and body not
   counted (if none is a thead or tbody). *)
Inductive within (s : text) : nat -> elem -> elem -> Prop :=
| W0 n : within s 0 n n
| WSame k n c m : opened s n -> In (ename n) [tx "html"; tx "head"; tx "body"] -> In c (kids n) -> within s k c m -> within s k n m
| WMore k n c m : opened s n -> ~ In (ename n) [tx "html"; tx "head"; tx "body"; tx "thead"; tx "tbody"] -> In c (kids n) -> within s k c m -> within s (S k) n m.
Theorem C74_depth : forall s doc n k m, Forall (wf s) doc -> check_doc s doc = ([], Ok tt) -> In n doc -> within s k n m -> ename m <> tx "#LITERAL" -> placed s (sp m) (2 * k).
Proof.
  intros s doc n k m W H Hn Wi Nl. apply (doc_silent s doc W) in H. rewrite Forall_forall in H. specialize (H n Hn).
  assert (G : forall e, laid s e n -> placed s (sp m) (e + 2 * k)).
  { clear H Hn. induction Wi as [n|k n c m O I Hc _ IH|k n c m O I Hc _ IH]; intros e L.
    - replace (e + 2 * 0) with e by lia. inversion L; subst; try assumption. contradiction.
    - destruct O as (O1 & O2 & O3 & O4 & O5). inversion L as [| | | | |e' n' ch N1 N2 N3 N4 P M In Fo D]; subst; try contradiction; try congruence.
      rewrite Forall_forall in Fo. assert (ch = e). { apply (inner_unique s n e); [exact In|]. left. auto. } subst ch. apply (IH Nl e). auto.
    - destruct O as (O1 & O2 & O3 & O4 & O5). inversion L as [| | | | |e' n' ch N1 N2 N3 N4 P M In Fo D]; subst; try contradiction; try congruence.
      rewrite Forall_forall in Fo. assert (ch = e + 2). { apply (inner_unique s n e); [exact In|]. right. right. auto. } subst ch.
      replace (e + 2 * S k) with (e + 2 + 2 * k) by lia. apply (IH Nl (e + 2)). auto. }
  exact (G 0 H).
Qed.
Print Assumptions C74_depth.
Example C74_depth_ex : placed ex_doc_text (sp ex_p) 2.
Proof.
  apply (C74_depth ex_doc_text _ ex_clause 1 ex_p ex_wf); [vm_compute; reflexivity|now left| |discriminate].
  apply (WMore _ _ _ ex_p); [|intros [X|[X|[X|[X|[X|[]]]]]]; discriminate|cbn; tauto|constructor].
  split; [discriminate|]. split; [discriminate|]. split; [|split; [reflexivity|]].
  - intros X. apply (X 12); [vm_compute; lia|vm_compute; reflexivity].
  - intros [[X|[X|[X|[]]]]|X]; discriminate.
Qed.

(* C74.8  A line of a content that is indented by something other than spaces is not looked at. *)
Theorem C74_tab_refuted : exists s n x, wf s n /\ check_doc s [n] = ([], Ok tt) /\ isp n <= x < iep n /\ placed s x 1 /\ exists c, has s x c /\ ~ white c.
Proof.
  exists (tx ("<pre>" ++ nl ++ String (ascii_of_nat 9) "f" ++ nl ++ "</pre>")), (Elem (tx "pre") 0 15 5 9 false false None []), 7.
  split; [constructor; [vm_compute; lia|vm_compute; lia|vm_compute; lia|vm_compute; lia|intros _ _; apply one_line_dec; vm_compute; reflexivity|discriminate|discriminate|constructor]|].
  split; [vm_compute; reflexivity|]. split; [vm_compute; lia|]. split.
  - exists 6. split; [split; [lia|]; split; [right; reflexivity|]; intros i Hi; replace i with 6 by lia; discriminate|]. split; [reflexivity|].
    intros k Hk. replace k with 6 by lia. exists 9%N. split; [reflexivity|unfold white; lia].
  - exists 102%N. split; [reflexivity|unfold white; lia].
Qed.
Print Assumptions C74_tab_refuted.
