(* C54-C59: parse trees, and what the interpreter does with them. *)
From Coq Require Import Ascii String.
From Verif Require Import M_Base L_Base M_Dict L_Dict M_HTML M_PNode L_PNode.
Open Scope list_scope.
Notation length := Datatypes.length.
Notation concat := List.concat.

(* ---- C54 ---- *)

(* If the leaves of a tree do not overlap and are in the order of the text, a node lies within each of its ancestors, ... *)
Theorem C54_within len t m n : made len t -> in_order (leaves t) -> below n t -> below m n ->
  start_posn n <= start_posn m /\ start_posn m <= end_posn m /\ end_posn m <= end_posn n /\ end_posn n <= len.
Proof.
  intros M O B1 B2. pose proof (made_below len n t B1 M) as Mn. pose proof (made_below len m n B2 Mn) as Mm. destruct (made_shape len m Mm) as (V & _). destruct (made_shape len n Mn) as (_ & L & _).
  destruct (leaves_below n t B1) as (k1 & k2 & Et). rewrite Et in O. apply in_order_app in O as [_ O]. apply in_order_app in O as [On _]. destruct (leaves_below m n B2) as (l1 & l2 & En).
  destruct (ends_leaves len n Mn n) as [N1 N2]. destruct (ends_leaves len m Mm m) as [M1 M2]. pose proof (in_order_bounds _ (valid_leaves len n Mn) On n) as F. rewrite Forall_forall in F.
  assert (I1 : In (hd m (leaves m)) (leaves n)) by (rewrite En; apply in_or_app; right; apply in_or_app; left; pose proof (leaves_ne m); destruct (leaves m); [contradiction|now left]).
  assert (I2 : In (last (leaves m) m) (leaves n)).
  { rewrite En. apply in_or_app; right; apply in_or_app; left. pose proof (leaves_ne m) as NE. destruct (exists_last NE) as (l' & x & E). rewrite E, last_last. apply in_or_app. right. now left. }
  destruct (F _ I1) as [A _]. destruct (F _ I2) as [_ B]. unfold valid in V. lia.
Qed.
Print Assumptions C54_within.

(* ... of two children of a node the left one ends before the right one begins, and so do all their descendants, ... *)
Theorem C54_siblings len t n l1 x l2 y l3 : made len t -> in_order (leaves t) -> below n t -> kids n = l1 ++ x :: l2 ++ y :: l3 ->
  forall x' y', below x' x -> below y' y -> end_posn x' <= start_posn y'.
Proof.
  intros M O B K x' y' Bx By. assert (Ix : In x (kids n)) by (rewrite K; apply in_or_app; right; now left). assert (Iy : In y (kids n)) by (rewrite K; apply in_or_app; right; right; apply in_or_app; right; now left).
  pose proof (below_trans _ _ _ (below_kid x x n Ix (below_refl x)) B) as Bxt. pose proof (below_trans _ _ _ (below_kid y y n Iy (below_refl y)) B) as Byt.
  destruct (C54_within len t x' x M O Bxt Bx) as (_ & _ & E1 & _). destruct (C54_within len t y' y M O Byt By) as (E2 & _). enough (end_posn x <= start_posn y) by lia.
  destruct (leaves_below n t B) as (k1 & k2 & Et). rewrite Et in O. apply in_order_app in O as [_ O]. apply in_order_app in O as [On _]. rewrite leaves_kids in On by (rewrite K; now destruct l1). rewrite K, flat_map_app in On. apply in_order_app in On as [_ On]. cbn [flat_map] in On. rewrite flat_map_app in On. cbn [flat_map] in On.
  assert (Mx : made len x) by exact (made_below len x t Bxt M). assert (My : made len y) by exact (made_below len y t Byt M).
  assert (V : Forall valid (leaves x ++ flat_map leaves l2 ++ leaves y)).
  { apply Forall_app. split; [now apply (valid_leaves len)|]. apply Forall_app. split; [|now apply (valid_leaves len)]. apply Forall_forall. intros z I. apply in_flat_map in I as (w & I1 & I2).
    assert (Bw : below w n) by (apply (below_kid w w n); [rewrite K; apply in_or_app; right; right; apply in_or_app; now left|constructor]). pose proof (valid_leaves len w (made_below len w t (below_trans _ _ _ Bw B) M)) as F. rewrite Forall_forall in F. auto. }
  assert (O2 : in_order ((leaves x ++ flat_map leaves l2) ++ leaves y)) by (rewrite <- app_assoc; rewrite !app_assoc in On; apply in_order_app in On as [On _]; rewrite <- !app_assoc in On; exact On).
  destruct (ends_leaves len x Mx x) as [_ X2]. destruct (ends_leaves len y My y) as [Y1 _]. rewrite X2, Y1.
  apply (in_order_mid (leaves x ++ flat_map leaves l2) (leaves y) _ _ x y); [now rewrite <- app_assoc|exact O2| | |].
  - apply in_or_app. left. destruct (exists_last (leaves_ne x)) as (l' & z & E). rewrite E, last_last. apply in_or_app. right. now left.
  - pose proof (leaves_ne y). destruct (leaves y); [contradiction|now left].
  - apply in_order_seam; [|apply leaves_ne|exact O2]. pose proof (leaves_ne x). destruct (leaves x); [contradiction|discriminate].
Qed.
Print Assumptions C54_siblings.

(* ... and a node can be made of such children, however many there are, as long as an optional symbol has at most one child; its place is that of its children, or for no children the place where the parser is. *)
Theorem C54_makes len i s r ch posn : Forall (made len) ch -> in_order (flat_map leaves ch) -> posn <= len ->
  (forall c q, In c ch -> sym c = Some q -> optional q = true -> length (kids c) <= 1) ->
  exists n, new_node len i s r ch posn = Ok n /\ kids n = ch /\ pid n = i /\ sym n = Some s /\
    match ch with [] => start_posn n = posn /\ end_posn n = posn | c :: _ => start_posn n = start_posn c /\ end_posn n = end_posn (last ch c) end.
Proof.
  intros F O P Q. unfold new_node. cbv zeta.
  assert (B : forallb (fun b => b <=? 1) (option_bits ch) = true).
  { apply forallb_forall. intros b I. unfold option_bits in I. apply in_flat_map in I as (c & IC & I). destruct (sym c) as [q|] eqn:E; [|destruct I]. destruct (ends_q q) eqn:EQ; [rewrite ends_q_optional in EQ|destruct I]. destruct I as [<-|[]]. apply Nat.leb_le. eapply Q; eauto. }
  rewrite B. cbn [assert_ bind].
  assert (N : exists l, nt_children ch = Ok l).
  { clear - Q. induction ch as [|c ch IH]; [eexists; reflexivity|]. destruct IH as [l IH]; [intros c' q I; apply Q; now right|]. cbn [nt_children]. rewrite IH. destruct (sym c) as [q|] eqn:E; [|eexists; reflexivity]. destruct (ends_q q) eqn:EQ; [rewrite ends_q_optional in EQ|eexists; reflexivity].
    pose proof (Q c q (or_introl eq_refl) E EQ) as L. destruct (kids c) as [|x [|y k]]; cbn in L; [eexists; reflexivity|eexists; reflexivity|lia]. }
  destruct N as [l N]. rewrite N. destruct ch as [|c ch].
  - rewrite Nat.leb_refl, (proj2 (Nat.leb_le _ _) P). cbn. eexists. repeat split.
  - assert (Ic : In c (c :: ch)) by now left. assert (Il : In (last (c :: ch) c) (c :: ch)) by (destruct (exists_last (l := c :: ch)) as (l' & x & E); [discriminate|]; rewrite E, last_last; apply in_or_app; right; now left).
    pose proof F as F'. rewrite Forall_forall in F'. destruct (made_shape len c (F' _ Ic)) as (V1 & L1 & _). destruct (made_shape len _ (F' _ Il)) as (V2 & L2 & _).
    assert (LE : start_posn c <= end_posn (last (c :: ch) c)).
    { destruct (ends_leaves len c (F' _ Ic) c) as [C1 _]. destruct (ends_leaves len _ (F' _ Il) c) as [_ C2]. rewrite C1, C2.
      assert (V : Forall valid (flat_map leaves (c :: ch))) by (apply Forall_forall; intros z I; apply in_flat_map in I as (w & I1 & I2); pose proof (valid_leaves len w (F' w I1)) as FF; rewrite Forall_forall in FF; auto).
      pose proof (in_order_bounds _ V O c) as BB. rewrite Forall_forall in BB.
      assert (I1 : In (last (leaves (last (c :: ch) c)) c) (flat_map leaves (c :: ch))).
      { apply in_flat_map. exists (last (c :: ch) c). split; [assumption|]. destruct (exists_last (leaves_ne (last (c :: ch) c))) as (l' & x & E). rewrite E, last_last. apply in_or_app. right. now left. }
      destruct (BB _ I1) as [X _]. cbn [flat_map] in X. rewrite hd_app_ne in X by apply leaves_ne. pose proof V as V'. rewrite Forall_forall in V'. specialize (V' _ I1). unfold valid in V'. lia. }
    rewrite (proj2 (Nat.leb_le _ _) LE), (proj2 (Nat.leb_le _ _) L2). cbn [andb assert_ bind]. eexists. repeat split.
Qed.
Print Assumptions C54_makes.

(* So the text of a node is a part of that of its ancestors, ... *)
Lemma slice_split {A} (w : list A) a b c : a <= b -> b <= c -> slice a c w = slice a b w ++ slice b c w.
Proof.
  intros H1 H2. unfold slice. replace (c - a) with ((b - a) + (c - b)) by lia. revert w. induction a as [|a IH] in b, c, H1, H2 |- *; intros w.
  - rewrite !Nat.sub_0_r. cbn [skipn]. revert w. induction b as [|b IHb] in c, H2 |- *; intros w; [reflexivity|]. destruct w as [|x w]; [cbn; now rewrite !firstn_nil|]. cbn [plus firstn app skipn]. f_equal. destruct c as [|c]; [lia|]. cbn [Nat.sub]. apply IHb. lia.
  - destruct w as [|x w]; [cbn [skipn]; rewrite skipn_nil, !firstn_nil; reflexivity|]. destruct b as [|b]; [lia|]. destruct c as [|c]; [lia|]. cbn [skipn Nat.sub]. apply IH; lia.
Qed.
Theorem C54_text (w : text) t m n : made (length w) t -> in_order (leaves t) -> below n t -> below m n -> exists l r, node_text w n = l ++ node_text w m ++ r.
Proof.
  intros M O B1 B2. destruct (C54_within _ t m n M O B1 B2) as (H1 & H2 & H3 & _). exists (slice (start_posn n) (start_posn m) w), (slice (end_posn m) (end_posn n) w). unfold node_text.
  rewrite (slice_split w (start_posn n) (start_posn m)) by lia. f_equal. apply slice_split; lia.
Qed.
Print Assumptions C54_text.
(* ... and if moreover nothing is left out between the leaves (as in the lexical grammar), it is made up of the texts of the leaves. *)
Fixpoint adjacent (l : list pnode) : Prop := match l with [] => True | a :: l' => match l' with [] => True | b :: _ => end_posn a = start_posn b end /\ adjacent l' end.
Lemma adjacent_in_order l : adjacent l -> in_order l.
Proof. induction l as [|a l IH]; [auto|]. cbn [adjacent in_order]. intros [A1 A2]. split; [destruct l; [exact I|lia]|auto]. Qed.
Theorem C54_text_leaves (w : text) n : made (length w) n -> adjacent (leaves n) -> node_text w n = concat (map (node_text w) (leaves n)).
Proof.
  intros M A. destruct (ends_leaves _ n M n) as [E1 E2]. unfold node_text at 1. rewrite E1, E2. pose proof (leaves_ne n) as NE. pose proof (valid_leaves _ n M) as V. revert NE V A. generalize (leaves n) as l. clear. induction l as [|x l IH]; [contradiction|]. intros _ V A. inversion V as [|? ? V1 V2]; subst. unfold valid in V1.
  destruct l as [|y l]; [cbn; now rewrite app_nil_r|]. cbn [adjacent] in A. destruct A as [A1 A2]. change (concat (map (node_text w) (x :: y :: l))) with (node_text w x ++ concat (map (node_text w) (y :: l))). cbn [hd]. rewrite <- IH; [|discriminate|assumption|assumption]. cbn [hd]. change (last (x :: y :: l) n) with (last (y :: l) n).
  assert (LE : start_posn y <= end_posn (last (y :: l) n)).
  { assert (O : in_order (y :: l)) by (apply adjacent_in_order; assumption).
    pose proof (in_order_bounds _ V2 O n) as F. inversion F as [|? ? [F1 F2] _]; subst. inversion V2; subst. unfold valid in *. lia. }
  rewrite (slice_split w _ (end_posn x)); [|assumption|lia]. unfold node_text. rewrite A1. reflexivity.
Qed.
Print Assumptions C54_text_leaves.

(* ---- C55 ---- *)

(* An operation of the common kind, on a node of a tree in which no optional terminal is present: by the chain rule one comes from the node to a unique node for which there is a definition or from which the rule does not lead on.
   If there is one definition, it is executed with this node; if there are several (or none at all in the entry), an assertion fails; otherwise the result is that of [fallback]. *)
Theorem C55_chain cover name m n fuel : find (fun e => text_eqb (fst e) name) cover = Some (name, m) -> NoDup (map fst m) ->
  ~ In name [tx "Early Errors"; tx "Contains"; tx "AllPrivateIdentifiersValid"; tx "ContainsArguments"] ->
  is_terminal n = false -> sane n -> height n <= fuel ->
  exists f, chain_path m n f /\ stops m f /\ (forall f', chain_path m n f' -> stops m f' -> f' = f) /\ outcome m name f (choose fuel cover name n).
Proof.
  intros FD ND NI T SN HF. unfold choose. rewrite FD.
  assert (ST : style_of name = chain_style).
  { unfold style_of. destruct (text_eqb name (tx "Early Errors")) eqn:E; [apply text_eqb_eq in E; exfalso; apply NI; now left|]. destruct (existsb _ _) eqn:E2; [|reflexivity]. apply existsb_exists in E2 as (x & I & E2). apply text_eqb_eq in E2 as <-. exfalso. apply NI. now right. }
  rewrite ST. destruct (chain_outcome m name ND fuel n HF SN T) as (f & CP & OC). exists f. pose proof (outcome_stops _ _ _ _ OC) as SF. split; [assumption|]. split; [assumption|]. split; [|assumption]. intros f' CP' SF'. symmetry. exact (chain_path_unique m n f CP f' CP' SF SF').
Qed.
Print Assumptions C55_chain.

(* The other kind: the definition for the production of the node itself, or else the default one; always with the node itself. *)
Theorem C55_default cover name m n k fuel : find (fun e => text_eqb (fst e) name) cover = Some (name, m) -> NoDup (map fst m) ->
  In name [tx "Contains"; tx "AllPrivateIdentifiersValid"; tx "ContainsArguments"] -> production n k ->
  (forall d, In (k, [d]) m -> choose fuel cover name n = Ok (Run d n)) /\
  (forall d, ~ In k (map fst m) -> In ((tx "*default*", [], []), [d]) m -> choose fuel cover name n = Ok (Run d n)) /\
  (~ In k (map fst m) -> ~ In (tx "*default*", [], []) (map fst m) -> choose fuel cover name n = Err KeyError).
Proof.
  intros FD ND I P. unfold choose. rewrite FD. rewrite (proj2 (puk_of_ok n k) P).
  assert (ST : style_of name = default_style) by (destruct I as [<-|[<-|[<-|[]]]]; reflexivity). rewrite ST. cbn [bind]. repeat split.
  - intros d J. apply (in_pget _ _ _ ND) in J. unfold the_defn. now rewrite J.
  - intros d N J. apply (in_pget _ _ _ ND) in J. apply pget_none in N. rewrite N. unfold the_defn. change default_puk with ((tx "*default*", [], []) : puk). now rewrite J.
  - intros N N'. apply pget_none in N, N'. rewrite N. unfold the_defn. change default_puk with ((tx "*default*", [], []) : puk). now rewrite N'.
Qed.
Print Assumptions C55_default.

(* Early error rules are not invoked in this way, nor is an operation that the specification does not have. *)
Theorem C55_neither cover name n fuel :
  (find (fun e => text_eqb (fst e) name) cover = None -> choose fuel cover name n = Err KeyError) /\
  (forall m, find (fun e => text_eqb (fst e) name) cover = Some (name, m) -> name = tx "Early Errors" -> choose fuel cover name n = Err AssertionError).
Proof. unfold choose. split; [now intros ->|intros m -> ->; reflexivity]. Qed.
Print Assumptions C55_neither.

(* import ( AssignmentExpression ,opt ) *)
Definition lit (i a b : nat) := PN i None [] [] a b [].
Definition import_call (comma : bool) : pnode :=
  let x := PN 1 (Some (tx "AssignmentExpression")) (tx "Ident") [] 7 8 [lit 2 7 8] in
  let q := if comma then PN 3 (Some (tx ",?")) (tx ",") [] 8 9 [lit 4 8 9] else PN 3 (Some (tx ",?")) [] [] 8 8 [] in
  PN 0 (Some (tx "ImportCall")) (tx "`import` `(` AssignmentExpression `,`?") [if comma then 1 else 0] 0 10 [lit 5 0 6; lit 6 6 7; x; q; lit 7 9 10].
Definition an_sdo : list (text * sdo_map) := [(tx "IsFunctionDefinition", [((tx "AssignmentExpression", tx "Ident", []), [7])])].
(* If an optional terminal is present, the chain rule doesn't lead on although the production has exactly one nonterminal. *)
Theorem C55_optional_terminal_refuted : exists cover name n c m,
  find (fun e => text_eqb (fst e) name) cover = Some (name, m) /\ (exists k, production n k /\ ~ In k (map fst m)) /\ chains_to n c /\
  (exists d k, production c k /\ In (k, [d]) m) /\ forall fuel, 0 < fuel -> choose fuel cover name n = Err AssertionError.
Proof.
  exists an_sdo, (tx "IsFunctionDefinition"), (import_call true), (PN 1 (Some (tx "AssignmentExpression")) (tx "Ident") [] 7 8 [lit 2 7 8]), [((tx "AssignmentExpression", tx "Ident", []), [7])].
  split; [reflexivity|]. split; [eexists; split; [cbn; eauto|]; intros [E|[]]; discriminate|]. split; [reflexivity|]. split; [exists 7; eexists; split; [cbn; eauto|now left]|]. intros [|f] H; [lia|reflexivity].
Qed.
Print Assumptions C55_optional_terminal_refuted.
(* without the comma it does *)
Example C55_chain_ex : choose 5 an_sdo (tx "IsFunctionDefinition") (import_call false) = Ok (Run 7 (PN 1 (Some (tx "AssignmentExpression")) (tx "Ident") [] 7 8 [lit 2 7 8]))
  /\ is_terminal (import_call false) = false /\ height (import_call false) <= 5 /\ sane (import_call false).
Proof.
  split; [vm_compute; reflexivity|]. split; [reflexivity|]. split; [vm_compute; lia|]. intros m c s B IC E Q.
  assert (B' : m = import_call false \/ In m (kids (import_call false)) \/ m = lit 2 7 8).
  { inversion B as [|? x ? I1 B1]; subst; [now left|]. right. cbn [import_call kids In] in I1. destruct I1 as [<-|[<-|[<-|[<-|[<-|[]]]]]]; (inversion B1 as [|? y ? I2 B2]; subst; [left; cbn; tauto|]); cbn [kids lit In] in I2; try contradiction.
    destruct I2 as [<-|[]]. inversion B2 as [|? z ? I3 B3]; subst; [now right|destruct I3]. }
  destruct B' as [->|[B'| ->]]; [|cbn [import_call kids In] in B'; destruct B' as [<-|[<-|[<-|[<-|[<-|[]]]]]]; cbn [kids lit In] in IC; try contradiction; destruct IC as [<-|[]]; discriminate|destruct IC].
  cbn [import_call kids In] in IC. destruct IC as [<-|[<-|[<-|[<-|[<-|[]]]]]]; cbn in E; try discriminate; inversion E; subst; try discriminate. cbn. split; [lia|constructor].
Qed.
Example C55_default_ex : choose 0 [(tx "Contains", [((tx "*default*", [], []), [1]); ((tx "ImportCall", tx "x", []), [2])])] (tx "Contains") (import_call true) = Ok (Run 1 (import_call true)).
Proof. reflexivity. Qed.
Example C55_fallback_ex : choose 5 [(tx "SV", [])] (tx "SV") (import_call false) = Ok EmptyString_ /\ choose 5 [(tx "BoundNames", [])] (tx "BoundNames") (import_call false) = Err AssertionError.
Proof. split; vm_compute; reflexivity. Qed.

(* ---- C54 examples ---- *)
Example C54_within_ex : made 10 (import_call true) /\ in_order (leaves (import_call true)) /\ below (lit 4 8 9) (import_call true).
Proof.
  assert (L : forall i a b, a <= b -> b <= 10 -> made 10 (lit i a b)).
  { intros i a b H1 H2. apply (made_terminal 10 i a b). unfold new_terminal. rewrite (proj2 (Nat.leb_le _ _) H1), (proj2 (Nat.leb_le _ _) H2). reflexivity. }
  split; [|split].
  - refine (made_node 10 0 (tx "ImportCall") (tx "`import` `(` AssignmentExpression `,`?") (kids (import_call true)) 0 _ _ _); [|reflexivity]. repeat constructor; try (apply L; lia).
    + apply (made_node 10 1 (tx "AssignmentExpression") (tx "Ident") [lit 2 7 8] 0); [|reflexivity]. constructor; [apply L; lia|constructor].
    + apply (made_node 10 3 (tx ",?") (tx ",") [lit 4 8 9] 0); [|reflexivity]. constructor; [apply L; lia|constructor].
  - cbn. repeat split; lia.
  - apply (below_kid _ (PN 3 (Some (tx ",?")) (tx ",") [] 8 9 [lit 4 8 9])); [cbn; tauto|]. apply (below_kid _ (lit 4 8 9)); [now left|constructor].
Qed.
Example C54_siblings_ex : kids (import_call true) = [lit 5 0 6; lit 6 6 7] ++ PN 1 (Some (tx "AssignmentExpression")) (tx "Ident") [] 7 8 [lit 2 7 8] :: [] ++ PN 3 (Some (tx ",?")) (tx ",") [] 8 9 [lit 4 8 9] :: [lit 7 9 10].
Proof. reflexivity. Qed.
Example C54_text_ex : node_text (tx "import(x,)") (import_call true) = tx "import(x,)" /\ adjacent (leaves (import_call true)) /\ map (node_text (tx "import(x,)")) (leaves (import_call true)) = [tx "import"; tx "("; tx "x"; tx ","; tx ")"].
Proof. vm_compute. auto 10. Qed.
Example C54_makes_ex : new_node 10 9 (tx "A") (tx "b c?") [lit 1 2 3; PN 2 (Some (tx "c?")) [] [] 4 4 []] 5 = Ok (PN 9 (Some (tx "A")) (tx "b c?") [0] 2 4 [lit 1 2 3; PN 2 (Some (tx "c?")) [] [] 4 4 []])
  /\ new_node 10 9 (tx "A") (tx "b") [lit 1 5 6; lit 2 1 2] 5 = Err AssertionError.
Proof. split; reflexivity. Qed.

(* ---- C56 ---- *)

(* When looking for early errors is done, the rules of certain nodes have been executed, one node after the other and for each in the order of the specification. Provided that a node, once it covers something, keeps doing so:
   if none of those nodes covers anything in the end, they are exactly the nodes that count, in their order. *)
Theorem C56_traversal (S_ : Type) (covered : S_ -> nat -> option (option pnode)) exec rules fuel n s s' v :
  (forall r n s s', exec r n s = Ok s' -> forall i c, covered s i = Some c -> covered s' i = Some c) ->
  traverse S_ covered exec rules fuel n s = Ok (s', v) ->
  executed exec rules v s s' /\ ((forall x, In x v -> covered s' (pid x) = None) -> effective (covered s') n v).
Proof. intros P E. destruct (traverse_spec covered exec rules P fuel n s s' v E) as (H1 & _ & H3). split; [assumption|]. intros N. now apply H3. Qed.
Print Assumptions C56_traversal.

(* In particular, if nothing is covered: all the nodes that are not terminals, and it ends if the rules do. *)
Theorem C56_uncovered (S_ : Type) exec rules len n : made len n -> forall fuel s, height n <= fuel ->
  (forall r m s, below m n -> exists s', exec r m s = Ok s' :> res S_) ->
  exists s', traverse S_ (fun _ _ => None) exec rules fuel n s = Ok (s', preorder n).
Proof.
  induction n as [n IH] using pnode_ind_kids. intros M [|f] s HF T; [destruct n; cbn in HF; lia|]. cbn [traverse]. assert (PE : preorder n = (if is_terminal n then [] else [n]) ++ flat_map preorder (kids n)) by (destruct n as [? [?|] ? ? ? ? ?]; reflexivity).
  destruct (is_terminal n) eqn:TN.
  - inversion M as [i a b n' E|i y r ch posn n' F E]; subst.
    + unfold new_terminal in E. destruct (_ && _); cbn in E; [|discriminate]. inversion E; subst. exists s. reflexivity.
    + unfold new_node in E. cbv zeta in E. destruct (forallb _ _); cbn [assert_ bind] in E; [|discriminate]. destruct (match ch with [] => _ | c :: _ => _ end) as [a b]. destruct (_ && _); cbn [assert_ bind] in E; [|discriminate]. destruct (nt_children ch); cbn [bind] in E; [|discriminate]. inversion E; subst. discriminate.
  - assert (A : forall rs s, exists s', apply_rules S_ exec rs n s = Ok s').
    { induction rs as [|r rs IHr]; intros s0; [eexists; reflexivity|]. cbn [apply_rules]. destruct (T r n s0 (below_refl n)) as [s1 E]. rewrite E. cbn [bind]. apply IHr. }
    destruct (A (rules_for rules n) s) as [s1 E]. rewrite E. cbn [bind]. destruct (made_shape len n M) as (_ & _ & _ & F). rewrite Forall_forall in F. rewrite PE. cbn [app].
    match goal with |- context [bind (?G (kids n) s1) _] => set (each := G) end.
    assert (X : forall ch s, (forall c, In c ch -> In c (kids n)) -> exists s', each ch s = Ok (s', flat_map preorder ch)).
    { induction ch as [|c ch IHc]; intros s0 SUB; cbn; [eexists; reflexivity|]. assert (I : In c (kids n)) by (apply SUB; now left). destruct (IH c I (F c I) f s0) as [s2 E2].
      - pose proof (height_kid c n I). lia.
      - intros r m s3 B. apply T. exact (below_kid m c n I B).
      - rewrite E2. cbn [bind fst snd]. destruct (IHc s2) as [s3 E3]; [intros x Ix; apply SUB; now right|]. fold each. rewrite E3. cbn [bind fst snd]. eexists; reflexivity. }
    destruct (X (kids n) s1) as [s2 E2]; [auto|]. rewrite E2. cbn [bind fst snd]. eexists; reflexivity.
Qed.
Print Assumptions C56_uncovered.

(* A rule that makes its own node cover something comes too late: the node and its descendants are looked at, and what it covers is not. *)
Theorem C56_late_cover_refuted : exists (covered : list (nat * option pnode) -> nat -> option (option pnode)) exec rules n s' v,
  (forall r n s s', exec r n s = Ok s' -> forall i c, covered s i = Some c -> covered s' i = Some c) /\
  traverse _ covered exec rules 5 n [] = Ok (s', v) /\ ~ effective (covered s') n v /\ exists c, effective (covered s') n [c] /\ ~ In c v.
Proof.
  set (c := PN 9 (Some (tx "B")) [] [] 0 0 []). set (n := PN 1 (Some (tx "A")) [] [] 0 0 []).
  set (exec := fun (r : nat) (n : pnode) (s : list (nat * option pnode)) => match nget s (pid n) with Some _ => Ok s | None => Ok (nset s (pid n) (Some c)) end).
  exists (fun s i => nget s i), exec, [((tx "A", [], []), [0])], n, [(1, Some c)], [n]. split; [|split; [reflexivity|split]].
  - intros r m s s' E i d H. unfold exec in E. destruct (nget s (pid m)) eqn:G; inversion E; subst; [assumption|]. rewrite nget_nset. destruct (pid m =? i) eqn:EI; [apply Nat.eqb_eq in EI; subst; congruence|assumption].
  - intros H. inversion H as [? T|? d l T C H'|? T C|? ls T C F]; subst; try discriminate. cbn in C. inversion C; subst d. inversion H' as [? T'|? d l T' C' H2|? T' C'|? ls T' C' F]; subst; try discriminate.
  - exists c. split; [|intros [E|[]]; discriminate]. apply (eff_covering _ n c); [reflexivity|reflexivity|]. exact (eff_node (fun i => nget [(1, Some c)] i) c [] eq_refl eq_refl (Forall2_nil _)).
Qed.
Print Assumptions C56_late_cover_refuted.

(* a tree A[B[b] C] where the rule 1 of A makes B cover D *)
Definition nodeD := PN 9 (Some (tx "D")) [] [] 0 1 [lit 8 0 1].
Definition tree_ABC := PN 1 (Some (tx "A")) (tx "B C") [] 0 2 [PN 2 (Some (tx "B")) (tx "b") [] 0 1 [lit 3 0 1]; PN 4 (Some (tx "C")) [] [] 1 1 []; lit 5 1 2].
Definition exec_ABC (r : nat) (n : pnode) (s : list (nat * option pnode)) : res (list (nat * option pnode)) :=
  if r =? 1 then match nget s 2 with Some _ => Ok s | None => Ok (nset s 2 (Some nodeD)) end else Ok s.
Example C56_traversal_ex : (forall r n s s', exec_ABC r n s = Ok s' -> forall i c, nget s i = Some c -> nget s' i = Some c) /\
  traverse _ (fun s i => nget s i) exec_ABC [((tx "A", tx "B C", []), [0; 1]); ((tx "C", [], []), [2])] 5 tree_ABC [] = Ok ([(2, Some nodeD)], [tree_ABC; nodeD; PN 4 (Some (tx "C")) [] [] 1 1 []]).
Proof.
  split; [|vm_compute; reflexivity]. intros r m s s' E i d H. unfold exec_ABC in E. destruct (r =? 1); [|congruence]. destruct (nget s 2) eqn:G; inversion E; subst; [assumption|]. rewrite nget_nset. destruct (2 =? i) eqn:EI; [apply Nat.eqb_eq in EI; subst; congruence|assumption].
Qed.
Example C56_uncovered_ex : traverse nat (fun _ _ => None) (fun r _ s => Ok (r + s)) [((tx "C", [], []), [7])] 5 tree_ABC 0 = Ok (7, preorder tree_ABC) /\ length (preorder tree_ABC) = 3.
Proof. vm_compute. auto. Qed.

(* Looking for the early errors of a tree yields the errors found in it, in order, and not those of the patterns that were looked at in between; afterwards the agent is as if nothing had happened.
   While those of a pattern are looked for, the errors so far are kept. *)
Theorem C56_errors is_Pattern l : Forall simple_act l -> get_early_errors_in is_Pattern (perform_all l) (mkAgent None None) = (mkAgent None None, Ok (errors l)).
Proof. intros F. unfold get_early_errors_in. cbn [early_errors saved_early_errors]. rewrite perform_simple by assumption. reflexivity. Qed.
Print Assumptions C56_errors.
Theorem C56_nested l es : Forall (fun x => exists e, x = Error e) l -> get_early_errors_in true (perform_all l) (mkAgent (Some es) None) = (mkAgent (Some es) None, Ok (errors l)).
Proof. intros F. unfold get_early_errors_in. cbn [early_errors saved_early_errors assert_ bind]. rewrite perform_flat by assumption. reflexivity. Qed.
Print Assumptions C56_nested.
(* Within another tree only a Pattern may be looked at, and within a Pattern nothing. *)
Theorem C56_nested_error body a es :
  (early_errors a = Some es -> get_early_errors_in false body a = (a, Err AssertionError)) /\
  (forall p es', early_errors a = Some es -> saved_early_errors a = Some es' -> get_early_errors_in p body a = (a, Err AssertionError)).
Proof. unfold get_early_errors_in. split; [intros ->; reflexivity|intros p es' -> ->]. destruct p; reflexivity. Qed.
Print Assumptions C56_nested_error.
(* When a rule raises an exception, the list stays, and the next Script or Module cannot be looked at unless the state is reset. *)
Theorem C56_exception_refuted : exists body body' a1, get_early_errors_in false body (mkAgent None None) = (a1, Err KeyError) /\ snd (get_early_errors_in false body' (mkAgent None None)) = Ok [] /\ snd (get_early_errors_in false body' a1) = Err AssertionError.
Proof. exists (fun a => (a, Some KeyError)), (fun a => (a, None)), (mkAgent (Some []) None). repeat split. Qed.
Print Assumptions C56_exception_refuted.
Example C56_errors_ex : Forall simple_act [Error 1; Nested true [Error 2; Error 3]; Error 4] /\ errors [Error 1; Nested true [Error 2; Error 3]; Error 4] = [1; 4].
Proof. split; [|reflexivity]. repeat constructor; eauto. Qed.
Example C56_nested_ex : get_early_errors_in true (perform_all [Error 2]) (mkAgent (Some [1]) None) = (mkAgent (Some [1]) None, Ok [2]).
Proof. reflexivity. Qed.
Example C56_nested_error_ex : snd (perform_all [Nested true [Nested true []]] (mkAgent (Some []) None)) = Some AssertionError.
Proof. reflexivity. Qed.

(* ---- C57 ---- *)

(* After a parse, the ancestors of a node of the tree are its ancestors, and its root is that of the tree. *)
Theorem C57_ancestors t ps : NoDup (ids t) -> forall n, below n t -> exists l, ancestors t n l /\
  forall fuel, length l < fuel -> each_ancestor fuel (link t ps) (pid n) = Ok (map pid l) /\ root fuel (link t ps) (pid n) = Ok (pid t).
Proof. intros ND n B. destruct (below_ancestors n t B) as [l A]. exists l. split; [assumption|]. now apply each_ancestor_link. Qed.
Print Assumptions C57_ancestors.

(* And a node is nested within one of the given symbols, not crossing a boundary, if and only if one of its ancestors is one of these and none of the ancestors in between is a function, method or static block. *)
Theorem C57_nested t ps symbol targets n l : NoDup (ids t) -> (forall m, below m t -> symbol (pid m) = sym m) -> ancestors t n l ->
  let boundary m := exists b, sym m = Some b /\ In b
    [tx "FunctionDeclaration"; tx "FunctionExpression"; tx "GeneratorDeclaration"; tx "GeneratorExpression"; tx "AsyncFunctionDeclaration"; tx "AsyncFunctionExpression"; tx "AsyncGeneratorDeclaration";
     tx "AsyncGeneratorExpression"; tx "MethodDefinition"; tx "ArrowFunction"; tx "AsyncArrowFunction"; tx "ClassStaticBlock"] in
  (forall m s, sym m = Some s -> In s targets -> ~ boundary m) -> (forall s, sym n = Some s -> ~ In s targets) -> forall fuel, length l < fuel ->
  exists b, is_nested fuel symbol (link t ps) (pid n) targets = Ok b /\
    (b = true <-> exists l1 m l2 s, l = l1 ++ m :: l2 /\ sym m = Some s /\ In s targets /\ Forall (fun x => ~ boundary x) l1).
Proof.
  intros ND SY A boundary TB TN fuel F. unfold is_nested.
  assert (A1 : existsb (fun t0 => existsb (text_eqb t0) boundary_symbols) targets = false).
  { destruct (existsb _ targets) eqn:E; [|reflexivity]. exfalso. apply existsb_exists in E as (x & I & E). apply existsb_exists in E as (y & J & E). apply text_eqb_eq in E as <-. apply (TB (PN 0 (Some x) [] [] 0 0 []) x eq_refl I). exists x. auto. }
  rewrite A1. cbn [negb assert_ bind].
  assert (A2 : sym_in (symbol (pid n)) targets = false).
  { destruct (sym_in _ _) eqn:E; [|reflexivity]. apply sym_in_spec in E as (x & E & I). rewrite SY in E by exact (ancestors_below _ _ _ A). exfalso. exact (TN x E I). }
  rewrite A2. cbn [negb assert_ bind]. destruct (each_ancestor_link t ps ND n l A fuel F) as [-> _]. cbn [bind]. eexists. split; [reflexivity|].
  assert (AB : Forall (fun m => below m t) l).
  { clear - A. induction A as [|m c l A IH I]; [constructor|]. constructor; [exact (ancestors_below _ _ _ A)|assumption]. }
  clear - AB SY TB. induction AB as [|m l Bm AB IH]; cbn [map nested_in].
  - split; [discriminate|]. intros (l1 & m & l2 & s & E & _). destruct l1; discriminate.
  - rewrite (SY m Bm). destruct (sym_in (sym m) targets) eqn:ET.
    + split; [|auto]. intros _. apply sym_in_spec in ET as (s & E & I). exists [], m, l, s. repeat split; auto.
    + assert (NT : forall s, sym m = Some s -> ~ In s targets) by (intros s E I; assert (sym_in (sym m) targets = true) by (apply sym_in_spec; eauto); congruence).
      destruct (sym_in (sym m) boundary_symbols) eqn:EB.
      * split; [discriminate|]. intros (l1 & x & l2 & s & E & S1 & S2 & F). destruct l1 as [|y l1]; cbn [app] in E; inversion E; subst; [exfalso; exact (NT s S1 S2)|]. inversion F as [|? ? F1 F2]; subst. exfalso. apply F1. now apply sym_in_spec.
      * rewrite IH. split.
        -- intros (l1 & x & l2 & s & -> & S1 & S2 & F). exists (m :: l1), x, l2, s. repeat split; auto. constructor; [|assumption]. intros B. assert (sym_in (sym m) boundary_symbols = true) by now apply sym_in_spec. congruence.
        -- intros (l1 & x & l2 & s & E & S1 & S2 & F). destruct l1 as [|y l1]; cbn [app] in E; inversion E; subst; [exfalso; exact (NT s S1 S2)|]. inversion F; subst. exists l1, x, l2, s. auto.
Qed.
Print Assumptions C57_nested.

(* A symbol that is a boundary is no target. *)
Theorem C57_targets fuel symbol ps i targets b : In b targets -> In b [tx "FunctionDeclaration"; tx "MethodDefinition"; tx "ArrowFunction"; tx "ClassStaticBlock"] -> is_nested fuel symbol ps i targets = Err AssertionError.
Proof.
  intros I B. unfold is_nested. assert (E : existsb (fun t0 => existsb (text_eqb t0) boundary_symbols) targets = true).
  { apply existsb_exists. exists b. split; [assumption|]. destruct B as [<-|[<-|[<-|[<-|[]]]]]; reflexivity. }
  rewrite E. reflexivity.
Qed.
Print Assumptions C57_targets.

(* When a node is parsed again (because it covers something), the new tree shares the nodes of the named tokens with the old tree; then those of the old tree have their ancestors in the new one. *)
Theorem C57_shared_refuted : exists t1 t2 n l, NoDup (ids t1) /\ NoDup (ids t2) /\ ancestors t1 n l /\ each_ancestor 9 (link t2 (link t1 [])) (pid n) <> Ok (map pid l) /\ root 9 (link t2 (link t1 [])) (pid n) <> Ok (pid t1).
Proof.
  set (tok := PN 7 (Some (tx "IdentifierName")) [] [] 0 1 []). exists (PN 1 (Some (tx "A")) [] [] 0 1 [tok]), (PN 2 (Some (tx "B")) [] [] 0 1 [tok]), tok, [PN 1 (Some (tx "A")) [] [] 0 1 [tok]].
  split; [cbn; repeat constructor; cbn; lia|]. split; [cbn; repeat constructor; cbn; lia|]. split; [apply anc_kid; [constructor|now left]|]. split; vm_compute; congruence.
Qed.
Print Assumptions C57_shared_refuted.

(* while (1) { break } *)
Definition a_break := PN 5 (Some (tx "BreakStatement")) [] [] 12 17 [lit 6 12 17].
Definition a_while (inner : text) := PN 1 (Some (tx "IterationStatement")) [] [] 0 19 [lit 2 0 5; PN 3 (Some inner) [] [] 10 19 [lit 4 10 11; a_break]].
Definition symbols_of (t : pnode) (i : nat) : option text := match find (fun n => pid n =? i) (preorder t) with Some n => sym n | None => None end.
Example C57_nested_ex : let t := a_while (tx "Block") in NoDup (ids t) /\ ancestors t a_break [PN 3 (Some (tx "Block")) [] [] 10 19 [lit 4 10 11; a_break]; t]
  /\ is_nested 9 (symbols_of t) (link t []) 5 [tx "IterationStatement"; tx "SwitchStatement"] = Ok true
  /\ is_nested 9 (symbols_of (a_while (tx "ArrowFunction"))) (link (a_while (tx "ArrowFunction")) []) 5 [tx "IterationStatement"; tx "SwitchStatement"] = Ok false.
Proof.
  cbv zeta. split; [cbn; repeat constructor; cbn; lia|]. split; [|split; vm_compute; reflexivity]. apply anc_kid; [|cbn; tauto]. apply anc_kid; [constructor|cbn; tauto].
Qed.
Example C57_targets_ex : is_nested 9 (symbols_of a_break) (link a_break []) 5 [tx "ArrowFunction"] = Err AssertionError.
Proof. reflexivity. Qed.

(* ---- C58 ---- *)

(* The first time it is asked what a node covers, the node is parsed again; the answer is a tree for the wanted nonterminal, or nothing if that does not parse. *)
Theorem C58_first reparse setting name n cov r cov' : nget cov (pid n) = None -> the_covered reparse setting name n cov = Ok (r, cov') ->
  (exists c, r = Some c /\ reparse n (name ++ setting n) = Ok c /\ sym c = Some name) \/ (r = None /\ reparse n (name ++ setting n) = Err UserError).
Proof.
  intros G E. unfold the_covered in E. rewrite G in E. destruct (reparse n (name ++ setting n)) as [c|x] eqn:R.
  - destruct (sym c) as [s|] eqn:S; cbn [assert_ bind] in E; [|discriminate]. destruct (text_eqb s name) eqn:T; cbn [assert_ bind] in E; [|discriminate]. apply text_eqb_eq in T as ->. inversion E; subst. left. eauto.
  - destruct x; try discriminate. inversion E; subst. now right.
Qed.
Print Assumptions C58_first.
(* Whenever it is asked again, whatever happened to other nodes, the answer is the same node; and it is not parsed again. *)
Theorem C58_again reparse setting name n cov r cov' : the_covered reparse setting name n cov = Ok (r, cov') ->
  forall reparse' name' cov'', (forall i c, nget cov' i = Some c -> nget cov'' i = Some c) -> the_covered reparse' setting name' n cov'' = Ok (r, cov'').
Proof.
  intros E reparse' name' cov'' P. assert (G : nget cov' (pid n) = Some r).
  { unfold the_covered in E. destruct (nget cov (pid n)) as [c|] eqn:G; [congruence|]. destruct (reparse n (name ++ setting n)) as [c|x].
    - destruct (match sym c with Some s => text_eqb s name | None => false end); cbn [assert_ bind] in E; [|discriminate]. inversion E; subst. apply nget_nset_same.
    - destruct x; try discriminate. inversion E; subst. apply nget_nset_same. }
  unfold the_covered. now rewrite (P _ _ G).
Qed.
Print Assumptions C58_again.
(* And what other nodes cover stays. *)
Theorem C58_persist reparse setting name n cov r cov' : the_covered reparse setting name n cov = Ok (r, cov') -> forall i c, nget cov i = Some c -> nget cov' i = Some c.
Proof.
  intros E i d H. unfold the_covered in E. destruct (nget cov (pid n)) as [c|] eqn:G; [congruence|].
  assert (X : forall v, nget (nset cov (pid n) v) i = Some d) by (intros v; rewrite nget_nset; destruct (pid n =? i) eqn:EI; [apply Nat.eqb_eq in EI; subst; congruence|assumption]).
  destruct (reparse n (name ++ setting n)) as [c|x].
  - destruct (match sym c with Some s => text_eqb s name | None => false end); cbn [assert_ bind] in E; [|discriminate]. inversion E; subst. apply X.
  - destruct x; try discriminate. inversion E; subst. apply X.
Qed.
Print Assumptions C58_persist.
(* But it is the same even if another nonterminal is asked for: the answer is a tree for the first one. *)
Theorem C58_other_name_refuted : exists reparse setting n name name' c cov', the_covered reparse setting name n [] = Ok (Some c, cov') /\ the_covered reparse setting name' n cov' = Ok (Some c, cov') /\ sym c <> Some name' /\
  exists c', the_covered reparse setting name' n [] = Ok (Some c', [(pid n, Some c')]) /\ sym c' = Some name'.
Proof.
  exists (fun _ s => Ok (PN 9 (Some s) [] [] 0 1 [])), (fun _ => []), (lit 1 0 1), (tx "ParenthesizedExpression"), (tx "ArrowFormalParameters"), (PN 9 (Some (tx "ParenthesizedExpression")) [] [] 0 1 []). eexists.
  split; [vm_compute; reflexivity|]. split; [vm_compute; reflexivity|]. split; [vm_compute; congruence|]. eexists. split; vm_compute; reflexivity.
Qed.
Print Assumptions C58_other_name_refuted.
Example C58_again_ex : the_covered (fun _ _ => Err UserError) (fun _ => []) (tx "AssignmentPattern") (lit 1 0 1) [] = Ok (None, [(1, None)]) /\ the_covered (fun _ s => Ok (PN 9 (Some s) [] [] 0 1 [])) (fun _ => []) (tx "AssignmentPattern") (lit 1 0 1) [(1, None)] = Ok (None, [(1, None)]).
Proof. split; reflexivity. Qed.

(* ---- C59 ---- *)

Lemma made_terminal_kids len n : made len n -> is_terminal n = true -> kids n = [].
Proof.
  intros M T. inversion M as [i a b n' E|i y r ch posn n' F E]; subst.
  - unfold new_terminal in E. destruct (_ && _); cbn in E; [|discriminate]. inversion E; subst. reflexivity.
  - unfold new_node in E. cbv zeta in E. destruct (forallb _ _); cbn [assert_ bind] in E; [|discriminate]. destruct (match ch with [] => _ | c :: _ => _ end) as [a b]. destruct (_ && _); cbn [assert_ bind] in E; [|discriminate]. destruct (nt_children ch); cbn [bind] in E; [|discriminate]. inversion E; subst. discriminate.
Qed.
(* A node unit-derives the first node with the symbol on the way down through only children, if there is one. *)
Theorem C59_unit_symbol n s d : unit_derives_a n s = Some d <-> first_unit (fun x => sym x = Some s) n d.
Proof.
  revert d. induction n as [n IH] using pnode_ind_kids. intros d. destruct n as [i y r b a e ch]. cbn [unit_derives_a].
  assert (Y : match y with Some y0 => text_eqb y0 s | None => false end = true <-> y = Some s) by (destruct y as [y|]; [rewrite text_eqb_eq; split; congruence|split; discriminate]).
  destruct (match y with Some y0 => text_eqb y0 s | None => false end) eqn:E.
  - assert (Ey : y = Some s) by tauto. split; [intros X; inversion X; subst; now constructor|]. intros X. inversion X as [? P|? c ? N K F]; subst; [reflexivity|]. exfalso. apply N. reflexivity.
  - assert (NP : ~ sym (PN i y r b a e ch) = Some s) by (cbn; intros X; apply Y in X; discriminate). split.
    + intros X. destruct ch as [|c [|c' ch]]; try discriminate. apply (fu_on _ _ c); [assumption|reflexivity|]. apply IH; [now left|assumption].
    + intros X. inversion X as [? P|? c ? N K F]; subst; [contradiction|]. cbn in K. subst ch. apply IH in F; [assumption|now left].
Qed.
Print Assumptions C59_unit_symbol.
(* Likewise for the first node with one of the productions. *)
Theorem C59_unit_production len n ks d : made len n -> unit_derives_puk n ks = Some d <-> first_unit (fun x => exists k, production x k /\ In k ks) n d.
Proof.
  intros M. revert d M. induction n as [n IH] using pnode_ind_kids. intros d M. pose proof (made_terminal_kids len n M) as TK. destruct (made_shape len n M) as (_ & _ & _ & FM). destruct n as [i y r b a e ch]. cbn [unit_derives_puk kids] in *. destruct y as [y|].
  - assert (Y : existsb (puk_eqb (y, r, b)) ks = true <-> exists k, production (PN i (Some y) r b a e ch) k /\ In k ks).
    { rewrite existsb_exists. split.
      - intros (k & I & E). apply puk_eqb_eq in E as <-. exists (y, r, b). split; [cbn; eauto|assumption].
      - intros (k & (s' & E & ->) & I). inversion E; subst. eexists. split; [exact I|now apply puk_eqb_eq]. }
    destruct (existsb _ ks) eqn:E.
    + split; [intros X; inversion X; subst; constructor; now apply Y|]. intros X. inversion X as [? P|? c ? N K F]; subst; [reflexivity|]. exfalso. apply N. now apply Y.
    + split.
      * intros X. destruct ch as [|c [|c' ch]]; try discriminate. apply (fu_on _ _ c); [intros X'; apply Y in X'; discriminate|reflexivity|]. inversion FM; subst. apply IH; [now left|assumption|assumption].
      * intros X. inversion X as [? P|? c ? N K F]; subst; [apply Y in P; discriminate|]. cbn in K. subst ch. inversion FM; subst. apply IH in F; [assumption|now left|assumption].
  - rewrite (TK eq_refl). split; [discriminate|]. intros X. inversion X as [? P|? c ? N K F]; subst; [|discriminate]. destruct P as (k & (s' & E & _) & _). discriminate.
Qed.
Print Assumptions C59_unit_production.
(* A tree contains a symbol if one of its nodes has it. *)
Theorem C59_contains n s : contains_a n s = true <-> exists m, below m n /\ sym m = Some s.
Proof.
  induction n as [n IH] using pnode_ind_kids. destruct n as [i y r b a e ch]. cbn [contains_a kids] in *. rewrite orb_true_iff, existsb_exists. split.
  - intros [E|(c & I & E)].
    + destruct y as [y|]; [|discriminate]. apply text_eqb_eq in E as ->. eexists. split; [constructor|reflexivity].
    + apply IH in E as (m & B & E); [|assumption]. exists m. split; [exact (below_kid m c (PN i y r b a e ch) I B)|assumption].
  - intros (m & B & E). inversion B as [|? c ? I B']; subst; [left; cbn in E; subst y; now apply text_eqb_eq|]. right. exists c. split; [assumption|]. apply IH; eauto.
Qed.
Print Assumptions C59_contains.
Example C59_unit_ex : let n := PN 1 (Some (tx "Expression")) (tx "A") [] 0 1 [PN 2 (Some (tx "A")) (tx "Id") [] 0 1 [PN 3 (Some (tx "Id")) [] [] 0 1 []]] in
  unit_derives_a n (tx "Id") = Some (PN 3 (Some (tx "Id")) [] [] 0 1 []) /\ unit_derives_puk n [(tx "A", tx "Id", [])] = Some (PN 2 (Some (tx "A")) (tx "Id") [] 0 1 [PN 3 (Some (tx "Id")) [] [] 0 1 []])
  /\ unit_derives_a (a_while (tx "Block")) (tx "Block") = None /\ contains_a (a_while (tx "Block")) (tx "Block") = true.
Proof. cbv zeta. repeat split; vm_compute; reflexivity. Qed.
