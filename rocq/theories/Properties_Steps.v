(* C99: references to steps are found, resolved and reported exactly as they are written; where they are not. *)
From Coq Require Import Ascii String Lia List Sorted.
From Verif Require Import M_Base L_Base M_HTML M_Shared M_Indent M_Defs M_Records M_Refs L_Refs M_Meta M_Style L_StyleDesc L_ValTree M_PropPath L_PropPath Properties_PropPath Properties_PGrammar M_Tables M_Steps.
Open Scope list_scope.
Open Scope nat_scope.
Notation length := List.length.

(* ------------------------------------------------------------------ *)
(* the node at a position *)
Definition inside (posn : nat) (n : snode) : Prop := s_start n <= posn <= s_end n.
(* from a node down to one without children, always by the first child whose closed range has the position; the last node first *)
Inductive down (posn : nat) : snode -> list snode -> Prop :=
| D_leaf n : inside posn n -> s_children n = [] -> down posn n [n]
| D_child n a c b p : inside posn n -> s_children n = a ++ c :: b -> (forall x, In x a -> ~ inside posn x) -> down posn c p -> down posn n (p ++ [n]).
(* children in order and without overlap *)
Inductive ordered : snode -> Prop :=
| Ordered n : (forall c, In c (s_children n) -> ordered c) -> (forall a c b x, s_children n = a ++ c :: b -> In x a -> s_end x <= s_start c) -> ordered n.
(* a way down where every node is a first child or begins before the position *)
Inductive route (posn : nat) : snode -> list snode -> Prop :=
| R_leaf n : inside posn n -> s_children n = [] -> route posn n [n]
| R_child n a c b p : inside posn n -> s_children n = a ++ c :: b -> a = [] \/ s_start c < posn -> route posn c p -> route posn n (p ++ [n]).
Fixpoint snode_ind' (P : snode -> Prop) (f : forall i nm s e ch, Forall P ch -> P (SNode i nm s e ch)) (n : snode) : P n :=
  match n with SNode i nm s e ch => f i nm s e ch ((fix go (l : list snode) : Forall P l := match l with [] => Forall_nil P | c :: l' => Forall_cons c (snode_ind' P f c) (go l') end) ch) end.
Lemma covers_iff posn n : covers posn n = true <-> inside posn n.
Proof. unfold covers, inside. rewrite Bool.andb_true_iff, !Nat.leb_le. tauto. Qed.
Lemma covers_no posn n : covers posn n = false <-> ~ inside posn n.
Proof. rewrite <- covers_iff. symmetry. apply Bool.not_true_iff_false. Qed.
Definition go_children (posn : nat) (anc : list snode) := fix go (l : list snode) : res (list snode) :=
  match l with [] => Err AssertionError | c :: l' => if covers posn c then deepest posn anc c else go l' end.
Lemma deepest_eq posn anc n : deepest posn anc n = if covers posn n then match s_children n with [] => Ok (n :: anc) | l => go_children posn (n :: anc) l end else Err AssertionError.
Proof. destruct n as [i nm s e [|c ch]]; reflexivity. Qed.
Lemma down_inside posn n p : down posn n p -> inside posn n.
Proof. now destruct 1. Qed.
Lemma deepest_spec posn n : forall anc, (exists q, deepest posn anc n = Ok (q ++ anc) /\ down posn n q) \/ (deepest posn anc n = Err AssertionError /\ forall q, ~ down posn n q).
Proof.
  induction n as [i nm s e ch IH] using snode_ind'. intros anc. rewrite deepest_eq. set (n := SNode i nm s e ch). destruct (covers posn n) eqn:C.
  2:{ right. split; [reflexivity|]. intros q D. apply down_inside in D. apply covers_no in C. contradiction. }
  apply covers_iff in C. change (s_children n) with ch. destruct ch as [|c0 ch0] eqn:CH.
  - left. exists [n]. split; [reflexivity|]. now constructor.
  - assert (G : forall l a, (forall x, In x a -> ~ inside posn x) -> c0 :: ch0 = a ++ l -> (exists q, go_children posn (n :: anc) l = Ok (q ++ anc) /\ down posn n q) \/ (go_children posn (n :: anc) l = Err AssertionError /\ forall x, In x l -> inside posn x -> forall a' b', l = a' ++ x :: b' -> (forall y, In y a' -> ~ inside posn y) -> forall q, ~ down posn x q)).
    { induction l as [|c l IHl]; intros a A E; [right; split; [reflexivity|intros x []]|]. cbn [go_children]. destruct (covers posn c) eqn:K.
      - assert (Ic : In c (c0 :: ch0)) by (rewrite E; apply in_app_iff; right; now left). rewrite Forall_forall in IH. destruct (IH c Ic (n :: anc)) as [(q & Q & D)|(Q & N0)].
        + left. exists (q ++ [n]). split; [rewrite Q; now rewrite <- app_assoc|]. apply (D_child posn n a c l); try assumption.
        + right. split; [exact Q|]. intros x _ Ix [|y a'] b' E' A' q; cbn [app] in E'; [assert (x = c) by congruence; subst x; apply N0|]. exfalso. assert (y = c) by congruence. subst y. apply (A' c (or_introl eq_refl)). now apply covers_iff.
      - apply covers_no in K. destruct (IHl (a ++ [c])) as [R|(Q & N0)].
        + intros x I. apply in_app_iff in I as [I|[<-|[]]]; auto.
        + now rewrite <- app_assoc.
        + now left.
        + right. split; [exact Q|]. intros x I Ix [|y a'] b' E' A' q; cbn [app] in E'; [assert (x = c) by congruence; subst x; contradiction|]. assert (l = a' ++ x :: b') by congruence. apply (N0 x) with (a' := a') (b' := b'); [subst l; apply in_app_iff; right; now left|exact Ix|assumption|]. intros z Z. apply A'. now right. }
    destruct (G (c0 :: ch0) []) as [R|(Q & N0)]; [intros x []|reflexivity|now left|]. right. split; [exact Q|]. intros q D. inversion D as [m I0 E0|m a c b p I0 E0 A0 D0]; subst; [discriminate|]. change (s_children n) with (c0 :: ch0) in E0. refine (N0 c _ (down_inside _ _ _ D0) a b E0 A0 p D0). rewrite E0. apply in_app_iff. right. now left.
Qed.
Lemma down_fun posn n p : down posn n p -> forall q, down posn n q -> p = q.
Proof.
  intros D q D'. destruct (deepest_spec posn n []) as [(r & E & D0)|(_ & N0)]; [|now apply N0 in D].
  assert (U : forall p, down posn n p -> forall anc, deepest posn anc n = Ok (p ++ anc)).
  { clear. intros p D. induction D as [n I0 E0|n a c b p I0 E0 A0 D IH]; intros anc; rewrite deepest_eq, (proj2 (covers_iff posn n) I0).
    - now rewrite E0.
    - rewrite E0. assert (G : go_children posn (n :: anc) (a ++ c :: b) = Ok ((p ++ [n]) ++ anc)).
      { clear E0. induction a as [|x a IHa]; cbn [app go_children].
        - rewrite (proj2 (covers_iff posn c) (down_inside _ _ _ D)), IH, <- app_assoc. reflexivity.
        - rewrite (proj2 (covers_no posn x) (A0 x (or_introl eq_refl))). apply IHa. intros y I. apply A0. now right. }
      destruct (a ++ c :: b) as [|y l] eqn:Y; [destruct a; discriminate|exact G]. }
  assert (A := U p D []). assert (B := U q D' []). rewrite !app_nil_r in *. congruence.
Qed.
(* The node found is reached by always taking the first child that has the position; without one, the assertion fails. *)
Theorem C99_deepest posn root : (forall path, deepest posn [] root = Ok path <-> down posn root path) /\ (forall e, deepest posn [] root = Err e <-> e = AssertionError /\ forall path, ~ down posn root path).
Proof.
  destruct (deepest_spec posn root []) as [(q & E & D)|(E & N0)]; rewrite E.
  - rewrite app_nil_r. split.
    + intros path. split; [intros H; assert (q = path) by congruence; now subst|]. intros D'. now rewrite (down_fun posn root q D path D').
    + intros e. split; [discriminate|]. intros (_ & N0). now apply N0 in D.
  - split.
    + intros path. split; [discriminate|]. intros D. now apply N0 in D.
    + intros e. split; [intros H; split; [congruence|exact N0]|]. now intros (-> & _).
Qed.
(* In a document in order it is the text at the position if all nodes down to it begin before the position or are first children. *)
Theorem C99_deepest_text posn root path : ordered root -> route posn root path -> deepest posn [] root = Ok path.
Proof.
  intros O R. apply C99_deepest. revert O. induction R as [n I0 E0|n a c b p I0 E0 L R IH]; intros O; [now constructor|]. inversion O as [m OC OO]; subst m. apply (D_child posn n a c b); [exact I0|exact E0| |apply IH, OC; rewrite E0; apply in_app_iff; right; now left].
  destruct L as [->|L]; [intros x []|]. intros x I X. assert (Y := OO a c b x E0 I). unfold inside in X. lia.
Qed.
(* Otherwise the position may lie in a text and yet nothing be found. *)
Theorem C99_deepest_refuted : exists root b t, ordered root /\ s_children root = [b; t] /\ s_children t = [] /\ s_start t = 11 /\ s_end t = 16 /\ deepest 11 [] root = Err AssertionError.
Proof.
  pose (x := SNode 3 (tx "#LITERAL") 6 7 []). pose (b := SNode 2 (tx "b") 3 11 [x]). pose (t := SNode 4 (tx "#LITERAL") 11 16 []). exists (SNode 1 (tx "p") 0 20 [b; t]), b, t.
  assert (OX : forall i nm s e, ordered (SNode i nm s e [])) by (intros; constructor; [intros c []|intros a c b0 y E; destruct a; discriminate]).
  split; [|repeat split; vm_compute; reflexivity]. constructor.
  - intros c [<-|[<-|[]]]; [|apply OX]. constructor; [intros c [<-|[]]; apply OX|]. intros a c b0 y E. cbn in E. destruct a as [|z a]; [intros []|]. destruct a; discriminate.
  - intros a c b0 y E. cbn [s_children] in E. destruct a as [|z [|z' a]]; [intros []| |destruct a; discriminate]. cbn [app] in E. intros [<-|[]]. assert (z = b) by congruence. assert (c = t) by congruence. subst. cbn. lia.
Qed.

(* ------------------------------------------------------------------ *)
(* the search *)
(* a letter of a pattern in either case; an s may be the long one, too *)
Definition same (p c : N) : Prop := c = p \/ (97 <= p <= 122 /\ p = c + 32)%N \/ p = 115%N /\ c = 383%N.
Definition ci (p w : text) : Prop := Forall2 same p w.
(* a pattern in small letters *)
Definition small (p : text) : bool := forallb (fun c => negb (upper c)) p.
Lemma up_bounds c : upper c = true <-> (65 <= c <= 90)%N.
Proof. unfold upper. rewrite Bool.andb_true_iff, !N.leb_le. tauto. Qed.
Lemma ieq_iff p c : upper p = false -> ieq p c = true <-> same p c.
Proof.
  intros U. unfold ieq, same. rewrite Bool.orb_true_iff, Bool.andb_true_iff, !N.eqb_eq. unfold lower1 at 1 3. rewrite U. assert (UB : ~ (65 <= p <= 90)%N) by (rewrite <- up_bounds; congruence).
  unfold lower1. destruct (upper c) eqn:V; [apply up_bounds in V|assert (VB : ~ (65 <= c <= 90)%N) by (rewrite <- up_bounds; congruence)]; lia.
Qed.
Lemma ieat_iff p : small p = true -> forall t r, ieat p t = Some r <-> exists w, t = w ++ r /\ ci p w.
Proof.
  induction p as [|x p IH]; intros S0 t r; cbn [ieat].
  - split; [intros [= ->]; exists []; split; [reflexivity|constructor]|]. intros (w & -> & C). inversion C. reflexivity.
  - cbn [small forallb] in S0. apply andb_prop in S0 as (A & S0). apply Bool.negb_true_iff in A. destruct t as [|c t].
    + split; [discriminate|]. intros (w & E & C). inversion C; subst. discriminate.
    + destruct (ieq x c) eqn:I.
      * rewrite (IH S0). split.
        -- intros (w & -> & C). exists (c :: w). split; [reflexivity|]. constructor; [now apply ieq_iff|exact C].
        -- intros (w & E & C). inversion C as [|x' y p' w' Sx Cw]; subst. injection E as -> ->. eauto.
      * split; [discriminate|]. intros (w & E & C). inversion C as [|x' y p' w' Sx Cw]; subst. injection E as -> ->. apply (ieq_iff x y A) in Sx. congruence.
Qed.
Definition s_like (c : N) : Prop := c = 115%N \/ c = 83%N \/ c = 383%N.
Lemma s_like_iff c : ieq 115 c = true <-> s_like c.
Proof. rewrite ieq_iff by reflexivity. unfold same, s_like. lia. Qed.
Lemma skip_s_iff t r : skip_s t = r <-> exists ss, t = ss ++ r /\ Forall s_like ss /\ match r with c :: _ => ~ s_like c | [] => True end.
Proof.
  revert r. induction t as [|c t IH]; intros r; cbn [skip_s].
  - split; [intros <-; exists []; auto|]. intros (ss & E & _). destruct ss; [exact E|discriminate].
  - destruct (ieq 115 c) eqn:I.
    + rewrite IH. split.
      * intros (ss & -> & F & M). exists (c :: ss). split; [reflexivity|]. split; [constructor; [now apply s_like_iff|exact F]|exact M].
      * intros ([|x ss] & E & F & M); cbn [app] in E; [subst r; exfalso; apply M; now apply s_like_iff|]. injection E as -> ->. inversion F; subst. eauto.
    + split.
      * intros <-. exists []. split; [reflexivity|]. split; [constructor|]. intros S0. apply s_like_iff in S0. congruence.
      * intros ([|x ss] & E & F & M); cbn [app] in E; [now subst r|]. injection E as -> ->. inversion F as [|y l S0 F']; subst. apply s_like_iff in S0. congruence.
Qed.

Section Search.
Variable uw : N -> bool.
(* what is a word character, of the characters before and after a boundary *)
Definition word_char (c : N) : Prop := (48 <= c <= 57 \/ 65 <= c <= 90 \/ 97 <= c <= 122 \/ c = 95)%N \/ (128 <= c)%N /\ uw c = true.
Definition wordish (o : option N) : Prop := exists c, o = Some c /\ word_char c.
Definition last_of (prev : option N) (a : text) : option N := match rev a with c :: _ => Some c | [] => prev end.
(* at the end of a comes one of: step, Steps, ... and a digit or an angle bracket after one space, with what follows it *)
Definition step_word (prev : option N) (b r : text) : Prop :=
  exists w ss d, b = w ++ ss ++ 32%N :: d :: r /\ ci [115; 116; 101; 112]%N w /\ Forall s_like ss /\ (d = 60 \/ 48 <= d <= 57)%N /\ (wordish prev <-> ~ wordish (hd_error b)).
Lemma wordc_iff c : wordc uw c = true <-> word_char c.
Proof. unfold wordc, word_char, digit, upper, lowerc. rewrite !Bool.orb_true_iff, !Bool.andb_true_iff, !N.leb_le, N.eqb_eq. clear; intuition lia. Qed.
Lemma wordb_iff o : wordb uw o = true <-> wordish o.
Proof. unfold wordb, wordish. destruct o as [c|]; [rewrite wordc_iff; split; [intros W; eauto|intros (x & [= <-] & W); exact W]|]. split; [discriminate|]. intros (c & E & _). discriminate. Qed.
Lemma hd_word (t : text) : (match t with c :: _ => wordc uw c | [] => false end) = wordb uw (hd_error t).
Proof. now destruct t. Qed.
Lemma bool_flip a b (P Q : Prop) : (a = true <-> P) -> (b = true <-> Q) -> Bool.eqb a b = false <-> (P <-> ~ Q).
Proof.
  intros A B. assert (PA : (a = true /\ P) \/ (a = false /\ ~ P)) by (destruct a; [left; split; [reflexivity|now apply A]|right; split; [reflexivity|intros H; apply A in H; discriminate]]).
  assert (QB : (b = true /\ Q) \/ (b = false /\ ~ Q)) by (destruct b; [left; split; [reflexivity|now apply B]|right; split; [reflexivity|intros H; apply B in H; discriminate]]).
  clear A B. destruct PA as [(-> & p)|(-> & p)], QB as [(-> & q)|(-> & q)]; cbn; split; intros H; try discriminate; try reflexivity; clear - p q H; tauto.
Qed.
Lemma step_at_iff prev t r : step_at uw prev t = Some r <-> step_word prev t r.
Proof.
  unfold step_at, step_word. rewrite hd_word. assert (BF := bool_flip _ _ _ _ (wordb_iff prev) (wordb_iff (hd_error t))). destruct (Bool.eqb _ _).
  - split; [discriminate|]. intros (w & ss & d & _ & _ & _ & _ & W). apply BF in W. discriminate.
  - assert (W := proj1 BF eq_refl). clear BF. change (tx "step") with [115; 116; 101; 112]%N. split.
    + destruct (ieat _ t) as [t'|] eqn:E; [|discriminate]. apply ieat_iff in E as (w & Et & C); [|reflexivity]. destruct (skip_s t') as [|a [|d r']] eqn:K; try discriminate. apply skip_s_iff in K as (ss & -> & F & _).
      destruct (a =? 32)%N eqn:A; [|discriminate]. apply N.eqb_eq in A. subst a. cbn [andb]. destruct (digit d || (d =? 60)%N) eqn:D; [|discriminate]. intros [= ->]. exists w, ss, d. split; [exact Et|]. split; [exact C|]. split; [exact F|]. split; [|exact W].
      apply Bool.orb_true_iff in D as [D|D]; [right; unfold digit in D; apply andb_prop in D as (D1 & D2); apply N.leb_le in D1, D2; lia|left; now apply N.eqb_eq].
    + intros (w & ss & d & -> & C & F & D & _). rewrite (proj2 (ieat_iff [115; 116; 101; 112]%N eq_refl (w ++ ss ++ 32%N :: d :: r) (ss ++ 32%N :: d :: r)) (ex_intro _ w (conj eq_refl C))).
      rewrite (proj2 (skip_s_iff (ss ++ 32%N :: d :: r) (32%N :: d :: r))); [|exists ss; split; [reflexivity|]; split; [exact F|unfold s_like; lia]]. cbn [N.eqb Pos.eqb andb].
      replace (digit d || (d =? 60)%N) with true; [reflexivity|]. symmetry. apply Bool.orb_true_iff. destruct D as [->|D]; [now right|left; unfold digit; rewrite Bool.andb_true_iff, !N.leb_le; lia].
Qed.
Lemma step_head prev b r : step_word prev b r -> exists c d z, b = c :: d :: z /\ s_like c /\ (d = 116 \/ d = 84)%N.
Proof.
  intros (w & ss & d & -> & C & _). inversion C as [|p1 c1 l1 w1 S1 C1]; subst. inversion C1 as [|p2 c2 l2 w2 S2 C2]; subst. cbn [app]. exists c1, c2. eexists. split; [reflexivity|]. unfold same in S1, S2. unfold s_like. lia.
Qed.
(* no match begins within another *)
Lemma no_inner prev a b r : step_word prev (a ++ b) r -> a <> [] -> length r < length b -> forall q r', ~ step_word q b r'.
Proof.
  intros (w & ss & d & E & C & F & D & _) NE Lr q r' S0. destruct (step_head _ _ _ S0) as (c1 & c2 & z & -> & S1 & S2). clear S0.
  inversion C as [|p1 x1 l1 w1 T1 C1]; subst. inversion C1 as [|p2 x2 l2 w2 T2 C2]; subst. inversion C2 as [|p3 x3 l3 w3 T3 C3]; subst. inversion C3 as [|p4 x4 l4 w4 T4 C4]; subst. inversion C4; subst. cbn [app] in E.
  unfold s_like in *. unfold same in T2, T3, T4. destruct a as [|y1 a]; [congruence|]. cbn [app] in E. injection E as -> E.
  destruct a as [|y2 a]; cbn [app] in E; [injection E as -> _; lia|]. injection E as -> E.
  destruct a as [|y3 a]; cbn [app] in E; [injection E as -> _; lia|]. injection E as -> E.
  destruct a as [|y4 a]; cbn [app] in E; [injection E as -> _; lia|]. injection E as -> E.
  clear C C1 C2 C3 C4 T1 T2 T3 T4. revert a E NE. induction F as [|s ss Ss F IH]; intros a E NE.
  - cbn [app] in E. destruct a as [|y a]; cbn [app] in E; [injection E as -> _; lia|]. injection E as -> E. destruct a as [|y a]; cbn [app] in E; [injection E as -> _; lia|]. injection E as -> E.
    assert (length r = length (a ++ c1 :: c2 :: z)) by now rewrite E. rewrite app_length in H. cbn [length] in *. lia.
  - cbn [app] in E. destruct a as [|y a]; cbn [app] in E.
    + injection E as -> E. destruct F as [|s' ss Ss' F]; cbn [app] in E; injection E as -> _; lia.
    + injection E as -> E. apply (IH a E). discriminate.
Qed.
Lemma step_len prev b r : step_word prev b r -> length r < length b.
Proof. intros (w & ss & d & -> & _). rewrite !app_length. cbn [length]. lia. Qed.
Lemma last_cons prev c a : last_of prev (c :: a) = last_of (Some c) a.
Proof. unfold last_of. cbn [rev]. destruct (rev a); reflexivity. Qed.
Lemma find_steps_in t : forall pos skip prev x, In x (find_steps uw pos skip prev t) <-> exists a b r, t = a ++ b /\ x = pos + length a /\ skip <= length a /\ step_word (last_of prev a) b r.
Proof.
  induction t as [|c t IH]; intros pos skip prev x; cbn [find_steps].
  - split; [intros []|]. intros (a & b & r & E & _ & _ & S0). symmetry in E. apply app_eq_nil in E as (-> & ->). apply step_len in S0. cbn in S0. lia.
  - destruct skip as [|k].
    + assert (G : forall k, (forall a b r, t = a ++ b -> length a < k -> ~ step_word (last_of (Some c) a) b r) -> In x (find_steps uw (S pos) k (Some c) t) <-> exists a b r, c :: t = a ++ b /\ a <> [] /\ x = pos + length a /\ 0 <= length a /\ step_word (last_of prev a) b r).
      { intros k NK. rewrite IH. split.
        - intros (a & b & r & -> & -> & _ & S0). exists (c :: a), b, r. split; [reflexivity|]. split; [discriminate|]. split; [cbn; lia|]. split; [lia|]. now rewrite last_cons.
        - intros ([|c' a] & b & r & E & NE & -> & _ & S0); [congruence|]. injection E as <- ->. rewrite last_cons in S0. exists a, b, r. split; [reflexivity|]. split; [cbn; lia|]. split; [|exact S0]. destruct (Nat.le_gt_cases k (length a)) as [|K]; [assumption|]. now apply (NK a b r) in K. }
      destruct (step_at uw prev (c :: t)) as [r0|] eqn:E.
      * apply step_at_iff in E. cbn [In]. rewrite (G (length (c :: t) - length r0 - 1)).
        -- split.
           ++ intros [<-|(a & b & r & Ea & _ & H)]; [|exists a, b, r; auto]. exists [], (c :: t), r0. split; [reflexivity|]. split; [cbn; lia|]. split; [lia|exact E].
           ++ intros (a & b & r & Ea & -> & H & S0). destruct a as [|c' a]; [left; cbn; lia|]. right. exists (c' :: a), b, r. split; [exact Ea|]. split; [discriminate|auto].
        -- intros a b r -> K. apply (no_inner prev (c :: a) b r0 E); [discriminate|]. assert (SL := step_len _ _ _ E). cbn [length] in K, SL. rewrite app_length in K, SL. lia.
      * rewrite (G 0); [|intros; lia]. split; [intros (a & b & r & Ea & _ & H); exists a, b, r; auto|]. intros (a & b & r & Ea & -> & H & S0). destruct a as [|c' a]; [|exists (c' :: a), b, r; split; [exact Ea|]; split; [discriminate|auto]].
        cbn [app] in Ea. subst b. cbn [last_of rev] in S0. apply step_at_iff in S0. congruence.
    + rewrite IH. split.
      * intros (a & b & r & -> & -> & K & S0). exists (c :: a), b, r. split; [reflexivity|]. split; [cbn; lia|]. split; [cbn; lia|]. now rewrite last_cons.
      * intros ([|c' a] & b & r & E & -> & K & S0); [cbn in K; lia|]. injection E as <- ->. rewrite last_cons in S0. exists a, b, r. split; [reflexivity|]. split; [cbn; lia|]. split; [cbn in K; lia|exact S0].
Qed.
Lemma find_steps_sorted t : forall pos skip prev, StronglySorted lt (find_steps uw pos skip prev t).
Proof.
  induction t as [|c t IH]; intros pos skip prev; cbn [find_steps]; [constructor|]. destruct skip as [|k]; [|apply IH]. destruct (step_at _ _ _) as [r|]; [|apply IH]. constructor; [apply IH|]. apply Forall_forall. intros x I. apply find_steps_in in I as (a & b & r' & _ & -> & _). lia.
Qed.
(* The positions of the references, in order. *)
Definition positions (t : text) (ps : list nat) : Prop := StronglySorted lt ps /\ forall x, In x ps <-> exists a b r, t = a ++ b /\ x = length a /\ step_word (last_of None a) b r.
(* All and only the places that look like a reference are taken up, in order and once each. *)
Theorem C99_search t : positions t (find_steps uw 0 0 None t).
Proof.
  split; [apply find_steps_sorted|]. intros x. rewrite find_steps_in. split.
  - intros (a & b & r & E & -> & _ & S0). exists a, b, r. auto.
  - intros (a & b & r & E & -> & S0). exists a, b, r. split; [exact E|]. split; [reflexivity|]. split; [lia|exact S0].
Qed.
Lemma sorted_fun l : StronglySorted lt l -> forall m, StronglySorted lt m -> (forall x, In x l <-> In x m) -> l = m.
Proof.
  induction 1 as [|x l S0 IH F]; intros m M H.
  - destruct m as [|y m]; [reflexivity|]. exfalso. apply (H y). now left.
  - destruct M as [|y m M G]; [exfalso; apply (H x); now left|]. rewrite Forall_forall in F, G.
    assert (x = y). { destruct (proj1 (H x) (or_introl eq_refl)) as [E|I]; [congruence|]. apply G in I. destruct (proj2 (H y) (or_introl eq_refl)) as [E|J]; [congruence|]. apply F in J. lia. }
    subst y. f_equal. apply IH; [exact M|]. intros z. split; intros I.
    + destruct (proj1 (H z) (or_intror I)) as [<-|J]; [apply F in I; lia|exact J].
    + destruct (proj2 (H z) (or_intror I)) as [<-|J]; [apply G in I; lia|exact J].
Qed.
Lemma positions_fun t ps : positions t ps -> ps = find_steps uw 0 0 None t.
Proof. intros (S0 & H). destruct (C99_search t) as (S1 & H1). apply sorted_fun; try assumption. intros x. now rewrite H, H1. Qed.
End Search.

(* ------------------------------------------------------------------ *)
(* the ids *)
Definition id_char (c : N) : Prop := (c = 45 \/ 65 <= c <= 90 \/ 97 <= c <= 122 \/ 48 <= c <= 57 \/ c = 304 \/ c = 305 \/ c = 383 \/ c = 8490)%N.
(* <emu-xref href="#i"></emu-xref> *)
Definition xref (x i : text) : Prop := exists w1 w2, x = w1 ++ i ++ w2 /\ ci (tx "<emu-xref href=""#") w1 /\ i <> [] /\ all_are id_char i /\ ci (tx """></emu-xref>") w2.
(* references with what is between them *)
Inductive listed : list text -> text -> list text -> Prop :=
| L_one x i : xref x i -> listed [] x [i]
| L_more sep seps x w b i is : xref x i -> ci sep w -> listed seps b is -> listed (sep :: seps) (x ++ w ++ b) (i :: is).
Definition form := (text * list text)%type.
Definition forms : list form := [
  (tx "steps ", [tx ", "; tx ", and "]);
  (tx "steps ", [tx "-"]);
  (tx "steps ", [[8211%N]]);
  (tx "steps ", [tx " and "]);
  (tx "step ", [tx ", "; tx ", "; tx ", "; tx ", "]);
  (tx "step ", [tx ", "; tx ", "; tx ", "]);
  (tx "step ", [])
].
Definition fits_form (f : form) (t : text) (is : list text) : Prop := exists w b r, t = w ++ b ++ r /\ ci (fst f) w /\ listed (snd f) b is.
(* the first of the forms that fits *)
Definition ids_of (t : text) (is : list text) : Prop := exists l1 f l2, forms = l1 ++ f :: l2 /\ fits_form f t is /\ forall g js, In g l1 -> ~ fits_form g t js.

Lemma idchar_iff c : idchar c = true <-> id_char c.
Proof. unfold idchar, id_char, upper, lowerc, digit. cbn [existsb]. rewrite !Bool.orb_true_iff, !Bool.andb_true_iff, !N.leb_le, !N.eqb_eq. intuition (try lia; try discriminate). Qed.
Lemma take_id_iff t i r : take_id t = (i, r) <-> t = i ++ r /\ all_are id_char i /\ next_not id_char r.
Proof.
  revert i r. induction t as [|c t IH]; intros i r; cbn [take_id].
  - split; [intros [= <- <-]; repeat split; intros c []|]. intros (E & _). symmetry in E. apply app_eq_nil in E as (-> & ->). reflexivity.
  - destruct (idchar c) eqn:C.
    + destruct (take_id t) as (a, r0) eqn:T. destruct (proj1 (IH a r0) eq_refl) as (-> & A & H). apply idchar_iff in C. split.
      * intros [= <- <-]. split; [reflexivity|]. split; [|exact H]. intros d [<-|I]; auto.
      * intros (Ei & Ai & Hr); destruct i as [|c' i']; cbn [app] in *.
        -- destruct r as [|x r]; [discriminate|]. cbn [next_not] in Hr. congruence.
        -- assert (c' = c) by congruence. subst c'. assert (E : a ++ r0 = i' ++ r) by congruence. assert (X : (a, r0) = (i', r)) by (apply IH; split; [exact E|]; split; [intros d I; apply Ai; now right|exact Hr]). injection X as -> ->. reflexivity.
    + assert (NC : ~ id_char c) by (rewrite <- idchar_iff; congruence). split.
      * intros [= <- <-]. split; [reflexivity|]. split; [intros d []|exact NC].
      * intros (Ei & Ai & Hr); destruct i as [|c' i']; cbn [app] in *; [now subst r|]. exfalso. apply NC. assert (c' = c) by congruence. subst c'. apply Ai. now left.
Qed.
Lemma quote_not_id t w : ci (tx """></emu-xref>") w -> next_not id_char (w ++ t).
Proof. intros C. change (tx """></emu-xref>") with (34%N :: tx "></emu-xref>") in C. inversion C as [|p c l w' S0 C']; subst. cbn [app next_not]. unfold same, id_char in *. lia. Qed.
Lemma groups_x p t l : groups_at (X :: p) t = Some l <-> exists x i r is, t = x ++ r /\ xref x i /\ groups_at p r = Some is /\ l = i :: is.
Proof.
  cbn [groups_at]. split.
  - destruct (ieat (tx "<emu-xref href=""#") t) as [t'|] eqn:E1; [|discriminate]. apply ieat_iff in E1 as (w1 & -> & C1); [|reflexivity]. destruct (take_id t') as (i, r) eqn:T. apply take_id_iff in T as (-> & A & _). destruct i as [|c i]; [discriminate|].
    destruct (ieat (tx """></emu-xref>") r) as [r'|] eqn:E2; [|discriminate]. apply ieat_iff in E2 as (w2 & -> & C2); [|reflexivity]. destruct (groups_at p r') as [is|] eqn:G; [|discriminate]. intros [= <-].
    exists (w1 ++ (c :: i) ++ w2), (c :: i), r', is. split; [now rewrite <- !app_assoc|]. split; [|auto]. exists w1, w2. split; [reflexivity|]. split; [exact C1|]. split; [discriminate|auto].
  - intros (x & i & r & is & -> & (w1 & w2 & -> & C1 & NE & A & C2) & G & ->). rewrite <- !app_assoc. rewrite (proj2 (ieat_iff (tx "<emu-xref href=""#") eq_refl (w1 ++ i ++ w2 ++ r) (i ++ w2 ++ r)) (ex_intro _ w1 (conj eq_refl C1))).
    rewrite (proj2 (take_id_iff (i ++ w2 ++ r) i (w2 ++ r))) by (split; [reflexivity|]; split; [exact A|now apply quote_not_id]). destruct i as [|c i]; [congruence|].
    rewrite (proj2 (ieat_iff (tx """></emu-xref>") eq_refl (w2 ++ r) r) (ex_intro _ w2 (conj eq_refl C2))). now rewrite G.
Qed.
Lemma groups_l x p t l : small x = true -> groups_at (L x :: p) t = Some l <-> exists w r, t = w ++ r /\ ci x w /\ groups_at p r = Some l.
Proof.
  intros S0. cbn [groups_at]. split.
  - destruct (ieat x t) as [t'|] eqn:E; [|discriminate]. apply (ieat_iff x S0) in E as (w & -> & C). eauto.
  - intros (w & r & -> & C & G). now rewrite (proj2 (ieat_iff x S0 (w ++ r) r) (ex_intro _ w (conj eq_refl C))).
Qed.
Definition compile (f : form) : list pat := L (fst f) :: X :: flat_map (fun s => [L s; X]) (snd f).
Lemma listed_groups seps : forallb small seps = true -> forall t is, groups_at (X :: flat_map (fun s => [L s; X]) seps) t = Some is <-> exists b r, t = b ++ r /\ listed seps b is.
Proof.
  induction seps as [|s seps IH]; intros S0 t is; rewrite groups_x; cbn [flat_map app].
  - cbn [groups_at]. split.
    + intros (x & i & r & js & -> & H & [= <-] & ->). exists x, r. split; [reflexivity|now constructor].
    + intros (b & r & -> & H). inversion H; subst. exists b, i, r, []. auto.
  - cbn [forallb] in S0. apply andb_prop in S0 as (Ss & S0). split.
    + intros (x & i & r & js & -> & H & G & ->). apply (groups_l s _ _ _ Ss) in G as (w & r' & -> & C & G). apply (IH S0) in G as (b & r & -> & B). exists (x ++ w ++ b), r. split; [now rewrite <- !app_assoc|now constructor].
    + intros (b & r & -> & H). inversion H as [|sep seps' x w b' i is' Hx C B]; subst. exists x, i, (w ++ b' ++ r), is'. split; [now rewrite <- !app_assoc|]. split; [exact Hx|]. split; [|reflexivity]. apply (groups_l s _ _ _ Ss). exists w, (b' ++ r). split; [reflexivity|]. split; [exact C|]. apply (IH S0). eauto.
Qed.
Lemma compile_iff f t is : small (fst f) = true -> forallb small (snd f) = true -> groups_at (compile f) t = Some is <-> fits_form f t is.
Proof.
  intros S0 S1. unfold compile, fits_form. rewrite (groups_l _ _ _ _ S0). split.
  - intros (w & r & -> & C & G). apply (listed_groups _ S1) in G as (b & r' & -> & B). exists w, b, r'. auto.
  - intros (w & b & r & -> & C & B). exists w, (b ++ r). split; [reflexivity|]. split; [exact C|]. apply (listed_groups _ S1). eauto.
Qed.
Lemma step_ids_eq t : step_ids t = first_some (fun f => groups_at (compile f) t) forms.
Proof. reflexivity. Qed.
Lemma forms_small f : In f forms -> small (fst f) = true /\ forallb small (snd f) = true.
Proof. unfold forms. cbn [In]. intros H. repeat (destruct H as [<-|H]; [split; reflexivity|]). destruct H. Qed.
Lemma first_iff {A B} (g : A -> option B) l y : first_some g l = Some y <-> exists l1 x l2, l = l1 ++ x :: l2 /\ g x = Some y /\ forall z, In z l1 -> g z = None.
Proof.
  induction l as [|x l IH]; cbn [first_some].
  - split; [discriminate|]. intros ([|z l1] & x & l2 & E & _); discriminate.
  - destruct (g x) as [y0|] eqn:G.
    + split; [intros [= ->]; exists [], x, l; repeat split; [assumption|intros z []]|]. intros ([|z l1] & x' & l2 & E & G' & N0); cbn [app] in E; [congruence|]. assert (z = x) by congruence. subst z. rewrite (N0 x (or_introl eq_refl)) in G. discriminate.
    + rewrite IH. split.
      * intros (l1 & x' & l2 & -> & G' & N0). exists (x :: l1), x', l2. split; [reflexivity|]. split; [exact G'|]. intros z [<-|I]; auto.
      * intros ([|z l1] & x' & l2 & E & G' & N0); cbn [app] in E; [congruence|]. exists l1, x', l2. split; [congruence|]. split; [exact G'|]. intros z' I. apply N0. now right.
Qed.
(* The ids taken are those of the first of the seven forms of reference that fits; there are none only if none fits. *)
Theorem C99_ids t : (forall is, step_ids t = Some is <-> ids_of t is) /\ (step_ids t = None <-> forall f is, In f forms -> ~ fits_form f t is).
Proof.
  assert (S1 : forall is, step_ids t = Some is <-> ids_of t is).
  { intros is. rewrite step_ids_eq, first_iff. unfold ids_of. split.
    - intros (l1 & f & l2 & E & G & N0). exists l1, f, l2. split; [exact E|]. assert (Inf : forall g, In g (l1 ++ [f]) -> In g forms) by (intros g I; rewrite E; apply in_app_iff in I as [I|[<-|[]]]; apply in_app_iff; [now left|right; now left]).
      split; [apply compile_iff in G; [exact G|apply forms_small, Inf, in_app_iff; right; now left|apply forms_small, Inf, in_app_iff; right; now left]|]. intros g js I F. assert (J : In g forms) by (apply Inf, in_app_iff; now left). destruct (forms_small g J) as (A & B). apply (compile_iff g t js A B) in F. rewrite (N0 g I) in F. discriminate.
    - intros (l1 & f & l2 & E & G & N0). exists l1, f, l2. split; [exact E|]. assert (Inf : forall g, In g (l1 ++ [f]) -> In g forms) by (intros g I; rewrite E; apply in_app_iff in I as [I|[<-|[]]]; apply in_app_iff; [now left|right; now left]).
      split; [apply compile_iff; [apply forms_small, Inf, in_app_iff; right; now left|apply forms_small, Inf, in_app_iff; right; now left|exact G]|]. intros g I. destruct (groups_at (compile g) t) as [js|] eqn:J; [|reflexivity]. exfalso. assert (K : In g forms) by (apply Inf, in_app_iff; now left). destruct (forms_small g K) as (A & B). apply (compile_iff g t js A B) in J. now apply (N0 g js I). }
  split; [exact S1|]. split.
  - intros N0 f is I F. rewrite step_ids_eq in N0. assert (Q := first_none _ _ N0 f I). cbn beta in Q. destruct (forms_small f I) as (A & B). apply (compile_iff f t is A B) in F. congruence.
  - intros N0. destruct (step_ids t) as [is|] eqn:E; [|reflexivity]. exfalso. destruct (proj1 (S1 is) eq_refl) as (l1 & f & l2 & Ef & F & _). apply (N0 f is); [rewrite Ef; apply in_app_iff; right; now left|exact F].
Qed.

(* ------------------------------------------------------------------ *)
(* the references yielded *)
Definition blank (c : N) : Prop := py_space c = true.
Definition trimmed (t l : text) : Prop := exists u v, t = u ++ l ++ v /\ all_are blank u /\ all_are blank v /\ next_not blank l /\ next_not blank (rev l).
(* the line with a position in it, which must lie between two newlines *)
Definition line_of (t : text) (st : nat) (l : text) : Prop := exists pre a b post, t = pre ++ 10%N :: a ++ b ++ 10%N :: post /\ st = length (pre ++ 10%N :: a) /\ ~ In 10%N a /\ ~ In 10%N b /\ trimmed (a ++ b) l.
(* the nearest section in a path *)
Definition section_name (x : text) : Prop := x = tx "emu-intro" \/ x = tx "emu-clause" \/ x = tx "emu-annex".
Definition nearest (path : list snode) (o : option nat) : Prop :=
  match o with
  | Some i => exists a n b, path = a ++ n :: b /\ s_id n = i /\ section_name (s_name n) /\ forall x, In x a -> ~ section_name (s_name x)
  | None => forall x, In x path -> ~ section_name (s_name x)
  end.
Definition contains (p t : text) : Prop := exists a b, t = a ++ p ++ b.
(* the first line with id="i" in it, without the spaces before it *)
Definition id_line (src i l : text) : Prop :=
  exists pre x post u, lines_of src (pre ++ x :: post) /\ contains (tx "id=""" ++ i ++ tx """") x /\ (forall y, In y pre -> ~ contains (tx "id=""" ++ i ++ tx """") y) /\ x = u ++ l /\ all_are blank u /\ next_not blank l.

Lemma drop_iff t r : drop_spaces t = r <-> exists u, t = u ++ r /\ all_are blank u /\ next_not blank r.
Proof.
  split; [intros <-; destruct (drop_spaces_split t) as (z & E & A & H); exists z; split; [exact E|]; split; assumption|]. intros (u & -> & A & H). now apply drop_spaces_app.
Qed.
Lemma all_rev (P : N -> Prop) t : all_are P t <-> all_are P (rev t).
Proof. unfold all_are. split; intros H c I; apply H; [now apply in_rev|now apply in_rev in I]. Qed.
Lemma strip_iff t l : strip t = l <-> trimmed t l.
Proof.
  unfold strip, trimmed. split.
  - intros E. destruct (proj1 (drop_iff t _) eq_refl) as (u & Et & Au & Hu). set (r := drop_spaces t) in *. destruct (proj1 (drop_iff (rev r) _) eq_refl) as (v & Ev & Av & Hv). set (q := drop_spaces (rev r)) in *. assert (Er : r = rev q ++ rev v) by (rewrite <- rev_app_distr, <- Ev; now rewrite rev_involutive).
    exists u, (rev v). subst l. split; [congruence|]. split; [exact Au|]. split; [now apply all_rev in Av|]. rewrite rev_involutive. split; [|exact Hv]. rewrite Er in Hu. destruct (rev q); [exact I|exact Hu].
  - intros (u & v & -> & Au & Av & H1 & H2). assert (T : drop_spaces (u ++ l ++ v) = match l with [] => [] | _ => l ++ v end).
    { apply drop_iff. destruct l as [|c l]; [exists (u ++ v); cbn [app]; rewrite app_nil_r; split; [reflexivity|]; split; [|exact I]; intros d D; apply in_app_iff in D as [D|D]; auto|]. exists u. split; [reflexivity|]. split; [exact Au|exact H1]. }
    rewrite T. destruct l as [|c l]; [reflexivity|]. rewrite rev_app_distr. replace (drop_spaces (rev v ++ rev (c :: l))) with (rev (c :: l)); [apply rev_involutive|]. symmetry. apply drop_iff. exists (rev v). split; [reflexivity|]. split; [now apply all_rev in Av|exact H2].
Qed.
Lemma until_iff t a : until_nl t = Some a <-> exists z, t = a ++ 10%N :: z /\ ~ In 10%N a.
Proof.
  revert a. induction t as [|c t IH]; intros a; cbn [until_nl].
  - split; [discriminate|]. intros (z & E & _). destruct a; discriminate.
  - destruct (c =? 10)%N eqn:C.
    + apply N.eqb_eq in C. subst c. split; [intros [= <-]; exists t; split; [reflexivity|intros []]|]. intros (z & E & N0). destruct a as [|x a]; [reflexivity|]. exfalso. apply N0. left. cbn [app] in E. congruence.
    + apply N.eqb_neq in C. destruct (until_nl t) as [b|] eqn:U.
      * destruct (proj1 (IH b) eq_refl) as (z & -> & N0). split.
        -- intros [= <-]. exists z. split; [reflexivity|]. intros [->|I]; auto.
        -- intros (z' & E & N1). destruct a as [|x a]; cbn [app] in E; [congruence|]. assert (x = c) by congruence. subst x. assert (E' : b ++ 10%N :: z = a ++ 10%N :: z') by congruence. assert (Q : Some b = Some a) by (apply IH; exists z'; split; [exact E'|intros I; apply N1; now right]). injection Q as ->. reflexivity.
      * split; [discriminate|]. intros (z' & E & N1). destruct a as [|x a]; cbn [app] in E; [congruence|]. assert (Q : None = Some a) by (apply IH; exists z'; split; [congruence|intros I; apply N1; now right]). discriminate.
Qed.
Lemma line_at_spec t st : (forall l, line_at t st = Ok l <-> line_of t st l) /\ (forall e, line_at t st = Err e -> e = ValueError).
Proof.
  unfold line_at. split.
  - intros l. split.
    + destruct (until_nl (rev (firstn st t))) as [a|] eqn:A; [|discriminate]. destruct (until_nl (skipn st t)) as [b|] eqn:B; [|discriminate]. intros H. apply ok_inj in H. apply strip_iff in H.
      apply until_iff in A as (z & A & NA). apply until_iff in B as (y & B & NB). assert (F : firstn st t = rev z ++ 10%N :: rev a) by (rewrite <- (rev_involutive (firstn st t)), A, rev_app_distr; cbn [rev]; now rewrite <- app_assoc).
      exists (rev z), (rev a), b, y. split; [rewrite <- (firstn_skipn st t), F, B; rewrite <- app_assoc; reflexivity|]. split; [|repeat split; [intros I; apply NA; now apply in_rev|exact NB|exact H]]. rewrite <- F, firstn_length. assert (st < length t \/ length t <= st) as [?|O] by lia; [lia|]. rewrite skipn_all2 in B by exact O. destruct b; discriminate.
    + intros (pre & a & b & post & Et & Es & NA & NB & T). assert (Et' : t = (pre ++ 10%N :: a) ++ b ++ 10%N :: post) by (rewrite Et; now rewrite <- app_assoc).
      assert (F : firstn st t = pre ++ 10%N :: a) by (rewrite Es, Et', firstn_app, Nat.sub_diag, firstn_all, firstn_O, app_nil_r; reflexivity). assert (K : skipn st t = b ++ 10%N :: post) by (rewrite Es, Et', skipn_app, Nat.sub_diag, skipn_all, skipn_O; reflexivity).
      rewrite F, K. rewrite (proj2 (until_iff (rev (pre ++ 10%N :: a)) (rev a))); [|exists (rev pre); split; [rewrite rev_app_distr; cbn [rev]; now rewrite <- app_assoc|intros I; apply NA; now apply in_rev]].
      rewrite (proj2 (until_iff _ b)) by eauto. rewrite rev_involutive. f_equal. now apply strip_iff.
  - intros e. destruct (until_nl _); [destruct (until_nl _)|]; congruence.
Qed.
Lemma is_sec_iff n : is_sec n = true <-> section_name (s_name n).
Proof. unfold is_sec, section_name. cbn [existsb]. rewrite !Bool.orb_true_iff, !text_eqb_eq. intuition (try discriminate). Qed.
Lemma closest_iff path o : closest_section path = o <-> nearest path o.
Proof.
  assert (G : nearest path (closest_section path)).
  { unfold closest_section. induction path as [|n path IH]; cbn [find]; [intros x []|]. destruct (is_sec n) eqn:S0.
    - apply is_sec_iff in S0. exists [], n, path. repeat split; [assumption|intros x []].
    - assert (NS : ~ section_name (s_name n)) by (rewrite <- is_sec_iff; congruence). destruct (find is_sec path) as [m|]; cbn [nearest] in *.
      + destruct IH as (a & m' & b & -> & Em & Sm & A). exists (n :: a), m', b. repeat split; try assumption. intros x [<-|I]; auto.
      + intros x [<-|I]; auto. }
  split; [now intros <-|]. intros H. destruct (closest_section path) as [i|] eqn:E, o as [j|]; cbn [nearest] in G, H; [|exfalso|exfalso|reflexivity].
  - f_equal. destruct G as (a & n & b & -> & <- & Sn & A). destruct H as (a' & n' & b' & E' & <- & Sn' & A'). clear E. revert a' A' E'. induction a as [|x a IH]; intros [|x' a'] A' E'; cbn [app] in E'.
    + congruence.
    + exfalso. apply (A' x' (or_introl eq_refl)). assert (x' = n) by congruence. now subst.
    + exfalso. apply (A x (or_introl eq_refl)). assert (x = n') by congruence. now subst.
    + apply (IH) with (a' := a'); [intros y I; apply A; now right|intros y I; apply A'; now right|congruence].
  - destruct G as (a & n & b & -> & _ & Sn & _). apply (H n); [apply in_app_iff; right; now left|exact Sn].
  - destruct H as (a & n & b & -> & _ & Sn & _). apply (G n); [apply in_app_iff; right; now left|exact Sn].
Qed.
Lemma has_sub_iff p t : has_sub p t = true <-> contains p t.
Proof.
  unfold contains. induction t as [|c t IH]; cbn [has_sub]; rewrite Bool.orb_true_iff, begins_iff.
  - split; [intros [(z & E)|]; [exists [], z; exact E|discriminate]|]. intros (a & b & E). symmetry in E. apply app_eq_nil in E as (-> & E). left. exists b. congruence.
  - rewrite IH. split.
    + intros [(z & E)|(a & b & ->)]; [exists [], z; exact E|exists (c :: a), b; reflexivity].
    + intros ([|x a] & b & E); [left; exists b; exact E|right; exists a, b; cbn [app] in E; congruence].
Qed.
Lemma refd_spec src i : (forall l, refd_line src i = Some l <-> id_line src i l).
Proof.
  intros l. unfold refd_line, id_line. destruct (lines_exist src) as (ls & LS). rewrite (lines_split _ _ LS). set (p := tx "id=""" ++ i ++ tx """"). assert (FE : forall ls, match filter (has_sub p) ls with [] => forall y, In y ls -> ~ contains p y | x :: _ => exists pre post, ls = pre ++ x :: post /\ contains p x /\ forall y, In y pre -> ~ contains p y end).
  { clear. induction ls as [|x ls IH]; cbn [filter]; [intros y []|]. destruct (has_sub p x) eqn:H.
    - exists [], ls. split; [reflexivity|]. split; [now apply has_sub_iff|intros y []].
    - assert (NX : ~ contains p x) by (rewrite <- has_sub_iff; congruence). destruct (filter (has_sub p) ls) as [|y f]; [intros y [<-|I]; auto|]. destruct IH as (pre & post & -> & C & A). exists (x :: pre), post. split; [reflexivity|]. split; [exact C|]. intros z [<-|I]; auto. }
  specialize (FE ls). destruct (filter (has_sub p) ls) as [|x f] eqn:F.
  - split; [discriminate|]. intros (pre & x & post & u & LO & C & _). exfalso. apply (FE x); [|exact C]. rewrite (lines_fun _ _ _ LS LO). apply in_app_iff. right. now left.
  - destruct FE as (pre & post & -> & C & A). split.
    + intros [= E]. apply drop_iff in E as (u & Eu & Au & Hu). exists pre, x, post, u. auto 10.
    + intros (pre' & x' & post' & u & LO & C' & A' & Ex & Au & Hu). f_equal. apply drop_iff. exists u. split; [|split; assumption]. rewrite <- Ex. assert (E := lines_fun _ _ _ LS LO). clear - E A A' C C'. revert pre' A' E. induction pre as [|y pre IH]; intros [|y' pre'] A' E; cbn [app] in E.
      * congruence.
      * exfalso. apply (A' y' (or_introl eq_refl)). assert (y' = x) by congruence. now subst.
      * exfalso. apply (A y (or_introl eq_refl)). assert (y = x') by congruence. now subst.
      * apply (IH) with (pre' := pre'); [intros z I; apply A; now right|intros z I; apply A'; now right|congruence].
Qed.

Section Refs.
Variable uw : N -> bool.
Variable t : text.
Variable root : snode.
Variable ids : list (text * (snode * list snode)).
Definition source (n : snode) : text := firstn (s_end n - s_start n) (skipn (s_start n) t).
(* the node that has an id *)
Definition has_id (i : text) (n : snode) (anc : list snode) : Prop := exists l1 l2, ids = l1 ++ (i, (n, anc)) :: l2 /\ ~ In i (map fst l1).
(* what an id stands for: the section and the line of the step *)
Definition target (i : text) (s : option nat) (l : text) : Prop := exists n anc, has_id i n anc /\ s_name n = tx "emu-alg" /\ id_line (source n) i l /\ nearest (n :: anc) s.
(* why an id stands for nothing *)
Definition no_target (i : text) (e : exn) : Prop :=
  (~ In i (map fst ids) /\ e = KeyError) \/
  (exists n anc, has_id i n anc /\ (s_name n <> tx "emu-alg" \/ forall l, ~ id_line (source n) i l) /\ e = AssertionError).
Definition good_parent (path : list snode) : Prop := exists n parent anc, path = n :: parent :: anc /\ In (s_name parent) [tx "p"; tx "li"; tx "emu-alg"; tx "dd"].
(* the references made at a position *)
Definition gives (st : nat) (rs : list sref) : Prop :=
  exists line path is s, line_of t st line /\ down st root path /\ good_parent path /\ nearest path s /\ ids_of (skipn st t) is /\
  Forall2 (fun i r => r_sec r = s /\ r_line r = line /\ target i (r_tsec r) (r_tline r)) is rs.
(* why a position does not give its references, and which it gives before that *)
Inductive fails (st : nat) : list sref -> exn -> Prop :=
| F_line : (forall l, ~ line_of t st l) -> fails st [] ValueError
| F_node l : line_of t st l -> (forall p, ~ down st root p) -> fails st [] AssertionError
| F_top l n : line_of t st l -> down st root [n] -> fails st [] AttributeError
| F_parent l n m anc : line_of t st l -> down st root (n :: m :: anc) -> ~ In (s_name m) [tx "p"; tx "li"; tx "emu-alg"; tx "dd"] -> fails st [] AssertionError
| F_form l path : line_of t st l -> down st root path -> good_parent path -> (forall f is, In f forms -> ~ fits_form f (skipn st t) is) -> fails st [] AssertionError
| F_id l path is1 i is2 s rs e : line_of t st l -> down st root path -> good_parent path -> nearest path s -> ids_of (skipn st t) (is1 ++ i :: is2) ->
    Forall2 (fun i r => r_sec r = s /\ r_line r = l /\ target i (r_tsec r) (r_tline r)) is1 rs -> no_target i e -> fails st rs e.

Lemma find_id_some l i p : find_id l i = Some p <-> exists l1 l2, l = l1 ++ (i, p) :: l2 /\ ~ In i (map fst l1).
Proof.
  induction l as [|(k, q) l IH]; cbn [find_id].
  - split; [discriminate|]. intros ([|x l1] & l2 & E & _); discriminate.
  - destruct (text_eqb k i) eqn:K.
    + apply text_eqb_eq in K. subst k. split; [intros [= ->]; exists [], l; split; [reflexivity|intros []]|]. intros ([|x l1] & l2 & E & N0); cbn [app] in E; [congruence|]. exfalso. apply N0. left. assert (x = (i, q)) by congruence. now subst.
    + assert (NK : k <> i) by (intros ->; rewrite (proj2 (text_eqb_eq i i) eq_refl) in K; discriminate). rewrite IH. split.
      * intros (l1 & l2 & -> & N0). exists ((k, q) :: l1), l2. split; [reflexivity|]. intros [E|I]; [now apply NK|now apply N0].
      * intros ([|x l1] & l2 & E & N0); cbn [app] in E; [congruence|]. exists l1, l2. split; [congruence|]. intros I. apply N0. now right.
Qed.
Lemma find_id_none l i : find_id l i = None <-> ~ In i (map fst l).
Proof.
  induction l as [|(k, q) l IH]; cbn [find_id map In fst]; [tauto|]. destruct (text_eqb k i) eqn:K.
  - apply text_eqb_eq in K. subst k. split; [discriminate|]. intros H. exfalso. apply H. now left.
  - assert (NK : k <> i) by (intros ->; rewrite (proj2 (text_eqb_eq i i) eq_refl) in K; discriminate). rewrite IH. clear - NK. tauto.
Qed.
Lemma one_ref_cases s line i :
  (exists ts tl, target i ts tl /\ one_ref t ids s line i = ([mkSRef s line ts tl], Ok tt)) \/ (exists e, no_target i e /\ one_ref t ids s line i = ([], Err e)).
Proof.
  unfold one_ref. destruct (find_id ids i) as [(n, anc)|] eqn:F.
  - apply find_id_some in F. rewrite mbind_assert. destruct (text_eqb (s_name n) (tx "emu-alg")) eqn:E.
    + apply text_eqb_eq in E. change (slice (s_start n) (s_end n) t) with (source n). destruct (refd_line (source n) i) as [l|] eqn:R.
      * left. exists (closest_section (n :: anc)), l. split; [|reflexivity]. exists n, anc. split; [exact F|]. split; [exact E|]. split; [now apply refd_spec|]. now apply closest_iff.
      * right. exists AssertionError. split; [|reflexivity]. right. exists n, anc. split; [exact F|]. split; [|reflexivity]. right. intros l L. apply refd_spec in L. congruence.
    + right. exists AssertionError. split; [|reflexivity]. right. exists n, anc. split; [exact F|]. split; [|reflexivity]. left. intros H. rewrite H in E. rewrite (proj2 (text_eqb_eq _ _) eq_refl) in E. discriminate.
  - right. exists KeyError. split; [|reflexivity]. left. split; [now apply find_id_none|reflexivity].
Qed.
Lemma has_id_fun i n anc n' anc' : has_id i n anc -> has_id i n' anc' -> n = n' /\ anc = anc'.
Proof. intros H H'. assert (A : find_id ids i = Some (n, anc)) by now apply find_id_some. assert (B : find_id ids i = Some (n', anc')) by now apply find_id_some. split; congruence. Qed.
Lemma has_id_in i n anc : has_id i n anc -> In i (map fst ids).
Proof. intros (l1 & l2 & -> & _). rewrite map_app. apply in_app_iff. right. now left. Qed.
Lemma target_fun i ts tl ts' tl' : target i ts tl -> target i ts' tl' -> ts = ts' /\ tl = tl'.
Proof.
  intros (n & anc & H & _ & L & S0) (n' & anc' & H' & _ & L' & S1). destruct (has_id_fun _ _ _ _ _ H H') as (<- & <-). apply refd_spec in L, L'. apply closest_iff in S0, S1. split; congruence.
Qed.
Lemma target_no i ts tl e : target i ts tl -> ~ no_target i e.
Proof.
  intros (n & anc & H & E & L & _) [(N0 & _)|(n' & anc' & H' & [X|X] & _)]; [apply N0; now apply has_id_in in H| |]; destruct (has_id_fun _ _ _ _ _ H H') as (<- & <-); [contradiction|now apply X in L].
Qed.
Lemma no_target_fun i e e' : no_target i e -> no_target i e' -> e = e'.
Proof. intros [(A & ->)|(n & anc & H & _ & ->)] [(A' & ->)|(n' & anc' & H' & _ & ->)]; try reflexivity; [apply has_id_in in H'|apply has_id_in in H]; contradiction. Qed.
Definition ref_ok (s : option nat) (line i : text) (r : sref) : Prop := r_sec r = s /\ r_line r = line /\ target i (r_tsec r) (r_tline r).
Lemma one_ref_ok s line i r : ref_ok s line i r -> one_ref t ids s line i = ([r], Ok tt).
Proof.
  intros (A & B & T). destruct (one_ref_cases s line i) as [(ts & tl & T' & E)|(e & N0 & _)]; [|exfalso; now apply (target_no _ _ _ e T)]. rewrite E. destruct (target_fun _ _ _ _ _ T T') as (<- & <-). destruct r; cbn in *. now subst.
Qed.
Lemma one_ref_err s line i e : no_target i e -> one_ref t ids s line i = ([], Err e).
Proof.
  intros N0. destruct (one_ref_cases s line i) as [(ts & tl & T' & E)|(e' & N1 & E)]; [exfalso; now apply (target_no _ _ _ e T')|]. rewrite E. now rewrite (no_target_fun i e e').
Qed.
Lemma refs_ok s line is rs : Forall2 (ref_ok s line) is rs -> mfold (fun _ i => one_ref t ids s line i) tt is = (rs, Ok tt).
Proof. induction 1 as [|i r is rs R F IH]; [reflexivity|]. cbn [mfold]. rewrite (one_ref_ok _ _ _ _ R). unfold mbind. cbn [fst snd]. rewrite IH. reflexivity. Qed.
Lemma refs_cases s line is : (exists rs, Forall2 (ref_ok s line) is rs) \/ exists is1 i is2 rs e, is = is1 ++ i :: is2 /\ Forall2 (ref_ok s line) is1 rs /\ no_target i e.
Proof.
  induction is as [|i is IH]; [left; exists []; constructor|]. destruct (one_ref_cases s line i) as [(ts & tl & T & _)|(e & N0 & _)].
  - assert (R : ref_ok s line i (mkSRef s line ts tl)) by (repeat split; exact T). destruct IH as [(rs & F)|(is1 & j & is2 & rs & e & -> & F & N0)]; [left; eexists; constructor; eassumption|]. right. exists (i :: is1), j, is2, (mkSRef s line ts tl :: rs), e. split; [reflexivity|]. split; [now constructor|exact N0].
  - right. exists [], i, is, [], e. split; [reflexivity|]. split; [constructor|exact N0].
Qed.
Lemma refs_err s line is1 i is2 rs e : Forall2 (ref_ok s line) is1 rs -> no_target i e -> mfold (fun _ i => one_ref t ids s line i) tt (is1 ++ i :: is2) = (rs, Err e).
Proof. intros F N0. rewrite mfold_app, (refs_ok _ _ _ _ F). unfold mbind at 1. cbn [fst snd mfold]. rewrite (one_ref_err _ _ _ _ N0). cbn. now rewrite app_nil_r. Qed.

Lemma mbind_lift {M A B} (a : A) (k : A -> outm M B) : mbind (lift (Ok a)) k = k a.
Proof. unfold mbind, lift. cbn. now destruct (k a). Qed.
Lemma gives_step st rs : gives st rs -> one_step t root ids st = (rs, Ok tt).
Proof.
  intros (line & path & is & s & L & D & (n & m & anc & -> & P) & S0 & I0 & F). unfold one_step. rewrite (proj2 (proj1 (line_at_spec t st) line) L). apply C99_deepest in D. rewrite D, !mbind_lift, mbind_assert.
  assert (X : existsb (text_eqb (s_name m)) [tx "p"; tx "li"; tx "emu-alg"; tx "dd"] = true) by (apply existsb_exists; exists (s_name m); split; [exact P|now apply text_eqb_eq]). rewrite X.
  rewrite (proj2 (proj1 (C99_ids (skipn st t)) is) I0). apply closest_iff in S0. rewrite S0. rewrite (refs_ok s line is rs F). reflexivity.
Qed.
Lemma fails_step st rs e : fails st rs e -> one_step t root ids st = (rs, Err e).
Proof.
  destruct 1 as [NL|l L ND|l n L D|l n m anc L D NP|l path L D (n & m & anc & -> & P) NF|l path is1 i is2 s rs e L D (n & m & anc & -> & P) S0 I0 F N0]; unfold one_step.
  - destruct (line_at t st) as [x|e] eqn:E; [exfalso; apply (NL x); now apply line_at_spec|]. rewrite (proj2 (line_at_spec t st) e E). reflexivity.
  - rewrite (proj2 (proj1 (line_at_spec t st) l) L). rewrite (proj2 (proj2 (C99_deepest st root) AssertionError) (conj eq_refl ND)). reflexivity.
  - rewrite (proj2 (proj1 (line_at_spec t st) l) L). apply C99_deepest in D. rewrite D. reflexivity.
  - rewrite (proj2 (proj1 (line_at_spec t st) l) L). apply C99_deepest in D. rewrite D, !mbind_lift, mbind_assert. destruct (existsb _ _) eqn:X; [|reflexivity]. exfalso. apply NP. apply existsb_exists in X as (x & I & E). apply text_eqb_eq in E. now subst.
  - rewrite (proj2 (proj1 (line_at_spec t st) l) L). apply C99_deepest in D. rewrite D, !mbind_lift, mbind_assert.
    assert (X : existsb (text_eqb (s_name m)) [tx "p"; tx "li"; tx "emu-alg"; tx "dd"] = true) by (apply existsb_exists; exists (s_name m); split; [exact P|now apply text_eqb_eq]). rewrite X. rewrite (proj2 (proj2 (C99_ids (skipn st t))) NF). reflexivity.
  - rewrite (proj2 (proj1 (line_at_spec t st) l) L). apply C99_deepest in D. rewrite D, !mbind_lift, mbind_assert.
    assert (X : existsb (text_eqb (s_name m)) [tx "p"; tx "li"; tx "emu-alg"; tx "dd"] = true) by (apply existsb_exists; exists (s_name m); split; [exact P|now apply text_eqb_eq]). rewrite X. rewrite (proj2 (proj1 (C99_ids (skipn st t)) _) I0). apply closest_iff in S0. rewrite S0. rewrite (refs_err s l is1 i is2 rs e F N0). reflexivity.
Qed.
Lemma step_cases st : (exists rs, gives st rs) \/ exists rs e, fails st rs e.
Proof.
  destruct (line_at t st) as [l|e] eqn:L.
  2:{ right. exists [], ValueError. apply F_line. intros l H. apply line_at_spec in H. congruence. }
  apply line_at_spec in L. destruct (deepest st [] root) as [path|e] eqn:D; [|apply C99_deepest in D as (-> & D); right; exists [], AssertionError; now apply (F_node st l)]. apply C99_deepest in D.
  destruct path as [|n [|m anc]]; [exfalso; inversion D; match goal with H : ?p ++ [_] = [] |- _ => destruct p; discriminate end|right; exists [], AttributeError; now apply (F_top st l n)|].
  destruct (existsb (text_eqb (s_name m)) [tx "p"; tx "li"; tx "emu-alg"; tx "dd"]) eqn:X.
  2:{ right. exists [], AssertionError. apply (F_parent st l n m anc L D). intros I. assert (Y : existsb (text_eqb (s_name m)) [tx "p"; tx "li"; tx "emu-alg"; tx "dd"] = true) by (apply existsb_exists; exists (s_name m); split; [exact I|now apply text_eqb_eq]). congruence. }
  assert (P : good_parent (n :: m :: anc)). { exists n, m, anc. split; [reflexivity|]. apply existsb_exists in X as (x & I & E). apply text_eqb_eq in E. now subst. }
  destruct (step_ids (skipn st t)) as [is|] eqn:I0; [|right; exists [], AssertionError; apply (F_form st l _ L D P); now apply C99_ids]. apply C99_ids in I0.
  assert (S0 := proj1 (closest_iff (n :: m :: anc) _) eq_refl). destruct (refs_cases (closest_section (n :: m :: anc)) l is) as [(rs & F)|(is1 & i & is2 & rs & e & -> & F & N0)].
  - left. exists rs. exists l, (n :: m :: anc), is, (closest_section (n :: m :: anc)). auto 10.
  - right. exists rs, e. now apply (F_id st l (n :: m :: anc) is1 i is2 (closest_section (n :: m :: anc))).
Qed.
Lemma steps_ok ps rss : Forall2 gives ps rss -> mfold (fun _ st => one_step t root ids st) tt ps = (concat rss, Ok tt).
Proof. induction 1 as [|st rs ps rss G F IH]; [reflexivity|]. cbn [mfold concat]. rewrite (gives_step _ _ G). unfold mbind. cbn [fst snd]. rewrite IH. reflexivity. Qed.
Lemma steps_cases ps : (exists rss, Forall2 gives ps rss) \/ exists ps1 st ps2 rss rs e, ps = ps1 ++ st :: ps2 /\ Forall2 gives ps1 rss /\ fails st rs e.
Proof.
  induction ps as [|st ps IH]; [left; exists []; constructor|]. destruct (step_cases st) as [(rs & G)|(rs & e & F)]; [|right; exists [], st, ps, [], rs, e; repeat split; [constructor|exact F]].
  destruct IH as [(rss & G')|(ps1 & st' & ps2 & rss & rs' & e & -> & G' & F)]; [left; eexists; constructor; eassumption|]. right. exists (st :: ps1), st', ps2, (rs :: rss), rs', e. split; [reflexivity|]. split; [now constructor|exact F].
Qed.
Lemma steps_err ps1 st ps2 rss rs e : Forall2 gives ps1 rss -> fails st rs e -> mfold (fun _ st => one_step t root ids st) tt (ps1 ++ st :: ps2) = (concat rss ++ rs, Err e).
Proof. intros G F. rewrite mfold_app, (steps_ok _ _ G). unfold mbind at 1. cbn [fst snd mfold]. rewrite (fails_step _ _ _ F). reflexivity. Qed.
(* It ends well just if every place that looks like a reference is one; what is yielded are their references, in order. *)
Theorem C99_refs rs : each_step_ref uw t root ids = (rs, Ok tt) <-> exists ps rss, positions uw t ps /\ Forall2 gives ps rss /\ rs = concat rss.
Proof.
  unfold each_step_ref. split.
  - intros E. destruct (steps_cases (find_steps uw 0 0 None t)) as [(rss & G)|(ps1 & st & ps2 & rss & rs' & e & Ep & G & F)].
    + exists (find_steps uw 0 0 None t), rss. split; [apply C99_search|]. split; [exact G|]. rewrite (steps_ok _ _ G) in E. congruence.
    + rewrite Ep, (steps_err _ _ _ _ _ _ G F) in E. discriminate.
  - intros (ps & rss & P & G & ->). apply positions_fun in P. subst ps. now apply steps_ok.
Qed.
(* Otherwise it stops at the first that is not, with the error for that, after all references before it. *)
Theorem C99_stops rs e : each_step_ref uw t root ids = (rs, Err e) <-> exists ps1 st ps2 rss rs', positions uw t (ps1 ++ st :: ps2) /\ Forall2 gives ps1 rss /\ fails st rs' e /\ rs = concat rss ++ rs'.
Proof.
  unfold each_step_ref. split.
  - intros E. destruct (steps_cases (find_steps uw 0 0 None t)) as [(rss & G)|(ps1 & st & ps2 & rss & rs' & e' & Ep & G & F)].
    + rewrite (steps_ok _ _ G) in E. discriminate.
    + assert (P := C99_search uw t). rewrite Ep in E, P. rewrite (steps_err _ _ _ _ _ _ G F) in E. exists ps1, st, ps2, rss, rs'. assert (e' = e) by congruence. subst e'. split; [exact P|]. split; [exact G|]. split; [exact F|congruence].
  - intros (ps1 & st & ps2 & rss & rs' & P & G & F & ->). apply positions_fun in P. rewrite <- P. now apply steps_err.
Qed.
Lemma ci_inv c p w : ci (c :: p) w -> exists d w', w = d :: w' /\ same c d /\ ci p w'.
Proof. inversion 1; subst; eauto. Qed.
Lemma number_fails a b r : t = a ++ b -> step_word uw (last_of None a) b r -> (exists w ss d, b = w ++ ss ++ 32%N :: d :: r /\ length w = 4 /\ Forall s_like ss /\ (48 <= d <= 57)%N) -> snd (each_step_ref uw t root ids) <> Ok tt.
Proof.
  intros Et SW (w & ss & d & Eb & W & Fs & D) E. destruct (each_step_ref uw t root ids) as (rs, o) eqn:H. cbn [snd] in E. subst o. apply C99_refs in H as (ps & rss & (_ & P) & G & _).
  assert (I : In (length a) ps) by (apply P; exists a, b, r; auto). clear P. induction G as [|st rs0 ps rss0 G0 G IH]; [destruct I|]. destruct I as [->|I]; [|now apply IH].
  destruct G0 as (line & path & is & s & _ & _ & _ & _ & (l1 & f & l2 & Ef & (w' & b' & r' & Eq & C & Li) & _) & _). rewrite Et, skipn_app, Nat.sub_diag, skipn_all, skipn_O in Eq. cbn [app] in Eq. rewrite Eb in Eq.
  assert (Xb : exists z, b' ++ r' = 60%N :: z).
  { assert (Xx : forall x i, xref x i -> exists z, x = 60%N :: z) by (intros x i (w1 & w2 & -> & C1 & _); change (tx "<emu-xref href=""#") with (60%N :: tx "emu-xref href=""#") in C1; apply ci_inv in C1 as (c & w1' & -> & S1 & _); assert (c = 60%N) by (unfold same in S1; lia); subst; cbn [app]; eauto). destruct Li as [x i Xi|sep seps x w0 b0 i is0 Xi C0 L0]; destruct (Xx _ _ Xi) as (z & ->); cbn [app]; eauto. }
  destruct Xb as (z & Xb). rewrite Xb in Eq. assert (If : In f forms) by (rewrite Ef; apply in_app_iff; right; now left).
  destruct w as [|w1 [|w2 [|w3 [|w4 [|? w]]]]]; try discriminate. cbn [app] in Eq.
  assert (K : fst f = [115; 116; 101; 112; 115; 32]%N \/ fst f = [115; 116; 101; 112; 32]%N) by (unfold forms in If; cbn [In] in If; repeat (destruct If as [<-|If]; [vm_compute; auto|]); destruct If).
  destruct K as [K|K]; rewrite K in C; repeat (match goal with H : ci (_ :: _) _ |- _ => apply ci_inv in H as (? & ? & -> & ? & ?) end); match goal with H : ci [] _ |- _ => inversion H; subst end; cbn [app] in Eq; clear H; injection Eq as _ _ _ _ Eq; unfold same, s_like in *.
  - destruct Fs as [|s1 ss S1 Fs]; cbn [app] in Eq; [injection Eq as <- _; lia|]. injection Eq as -> Eq. destruct Fs as [|s2 ss S2 Fs]; cbn [app] in Eq; injection Eq as <- Eq; [assert (d = 60%N) by congruence|]; lia.
  - destruct Fs as [|s1 ss S1 Fs]; cbn [app] in Eq; injection Eq as <- Eq; [assert (d = 60%N) by congruence|]; lia.
Qed.
(* A reference by a number makes it fail, wherever it is. *)
Theorem C99_number a d r : t = a ++ tx "step " ++ d :: r -> ~ wordish uw (last_of None a) -> (48 <= d <= 57)%N -> snd (each_step_ref uw t root ids) <> Ok tt.
Proof.
  intros Et W D. apply (number_fails a (tx "step " ++ d :: r) r Et).
  - exists (tx "step"), [], d. split; [reflexivity|]. split; [repeat (constructor; [now left|]); constructor|]. split; [constructor|]. split; [now right|]. split; [contradiction|]. intros H. exfalso. apply H. exists 115%N. split; [reflexivity|]. left. lia.
  - exists (tx "step"), [], d. repeat split; [constructor|exact (proj1 D)|exact (proj2 D)].
Qed.
End Refs.

(* ------------------------------------------------------------------ *)
(* forms that are not foreseen *)
Definition xr (i : text) : text := tx "<emu-xref href=""#" ++ i ++ tx """></emu-xref>".
Lemma ci_refl p : ci p p.
Proof. induction p; constructor; [now left|assumption]. Qed.
Lemma groups_xr p i r : i <> [] -> all_are id_char i -> groups_at (X :: p) (xr i ++ r) = option_map (cons i) (groups_at p r).
Proof.
  intros NE A. assert (Hx : xref (xr i) i) by (exists (tx "<emu-xref href=""#"), (tx """></emu-xref>"); split; [reflexivity|]; split; [apply ci_refl|]; split; [exact NE|]; split; [exact A|apply ci_refl]).
  destruct (groups_at p r) as [is|] eqn:G; cbn [option_map].
  - apply groups_x. exists (xr i), i, r, is. auto.
  - unfold xr in *. rewrite <- !app_assoc. cbn [groups_at]. rewrite (proj2 (ieat_iff (tx "<emu-xref href=""#") eq_refl _ (i ++ tx """></emu-xref>" ++ r)) (ex_intro _ _ (conj eq_refl (ci_refl _)))).
    rewrite (proj2 (take_id_iff (i ++ tx """></emu-xref>" ++ r) i (tx """></emu-xref>" ++ r))) by (split; [reflexivity|]; split; [exact A|apply quote_not_id, ci_refl]). destruct i as [|c i]; [congruence|].
    rewrite (proj2 (ieat_iff (tx """></emu-xref>") eq_refl _ r) (ex_intro _ _ (conj eq_refl (ci_refl _)))). now rewrite G.
Qed.
(* Of two references after the singular only the first is taken. *)
Theorem C99_pair i j r : i <> [] -> all_are id_char i -> step_ids (tx "step " ++ xr i ++ tx " and " ++ xr j ++ r) = Some [i].
Proof.
  intros NE A. set (z := tx " and " ++ xr j ++ r). rewrite step_ids_eq. unfold forms. cbn [first_some].
  assert (P : forall seps, groups_at (compile (tx "steps ", seps)) (tx "step " ++ xr i ++ z) = None) by reflexivity. rewrite !P.
  assert (Q : forall seps, groups_at (compile (tx "step ", seps)) (tx "step " ++ xr i ++ z) = option_map (cons i) (groups_at (flat_map (fun s => [L s; X]) seps) z)) by (intros seps; rewrite <- (groups_xr _ i z NE A); reflexivity). rewrite !Q. reflexivity.
Qed.
(* A single reference after the plural is none. *)
Theorem C99_plural i c r : i <> [] -> all_are id_char i -> ~ In c [44; 45; 8211; 32]%N -> step_ids (tx "steps " ++ xr i ++ c :: r) = None.
Proof.
  intros NE A NC. rewrite step_ids_eq. unfold forms. cbn [first_some].
  assert (P : forall seps, groups_at (compile (tx "step ", seps)) (tx "steps " ++ xr i ++ c :: r) = None) by reflexivity. rewrite !P.
  assert (Q : forall seps, groups_at (compile (tx "steps ", seps)) (tx "steps " ++ xr i ++ c :: r) = option_map (cons i) (groups_at (flat_map (fun s => [L s; X]) seps) (c :: r))) by (intros seps; rewrite <- (groups_xr _ i (c :: r) NE A); reflexivity). rewrite !Q. clear P Q.
  assert (K : forall x y p, In x [44; 45; 8211; 32]%N -> groups_at (L (x :: y) :: p) (c :: r) = None).
  { intros x y p I. cbn [groups_at ieat]. destruct (ieq x c) eqn:E; [|reflexivity]. exfalso. apply NC. apply ieq_iff in E; [|cbn [In] in I; repeat (destruct I as [<-|I]; [reflexivity|]); destruct I]. assert (c = x) by (unfold same in E; cbn [In] in I; lia). now subst. }
  cbn [flat_map snd app]. change (tx ", ") with [44; 32]%N. change (tx "-") with [45]%N. change (tx " and ") with (32%N :: tx "and "). rewrite !K by (cbn [In]; tauto). reflexivity.
Qed.

(* ------------------------------------------------------------------ *)
(* the report *)
Section Report.
Variable uw : N -> bool.
Variable t : text.
Variable root : snode.
Variable ids : list (text * (snode * list snode)).
Variable sec_num sec_title : nat -> text.
Definition num (o : option nat) : text := match o with Some s => sec_num s | None => [] end.
Definition title (o : option nat) : text := match o with Some s => sec_title s | None => [] end.
Definition opt_dec (a b : option nat) : {a = b} + {a <> b}.
Proof. decide equality. apply Nat.eq_dec. Defined.
Definition text_dec (a b : text) : {a = b} + {a <> b} := list_eq_dec N.eq_dec a b.
(* what is written for a reference, knowing the one before it *)
Definition chunk (prev : option sref) (r : sref) : list text :=
  let new_section := match prev with Some p => if opt_dec (r_sec p) (r_sec r) then false else true | None => true end in
  let new_line := match prev with Some p => if text_dec (r_line p) (r_line r) then new_section else true | None => true end in
  (if new_section then [[]; tx "----------------------------------------"; num (r_sec r); title (r_sec r)] else []) ++
  (if new_line then [[]; tx "    " ++ r_line r] else []) ++
  [[]; if opt_dec (r_tsec r) (r_sec r) then tx "        (same section):" else tx "        " ++ num (r_tsec r) ++ tx " " ++ title (r_tsec r) ++ tx ":"; tx "        " ++ r_tline r].
Fixpoint report (prev : option sref) (rs : list sref) : list text := match rs with [] => [] | r :: rs' => chunk prev r ++ report (Some r) rs' end.
Definition sectioned (r : sref) : Prop := r_sec r <> None /\ r_tsec r <> None.
Definition knows (prev : option sref) (st : rstate) : Prop := match prev with None => cs st = None | Some p => cs st = r_sec p /\ cl st = Some (Some (r_line p)) end.
Lemma opt_nat_iff a b : opt_nat_eqb a b = true <-> a = b.
Proof. destruct a as [a|], b as [b|]; cbn; rewrite ?Nat.eqb_eq; split; congruence. Qed.
Lemma put_ref_chunk prev st r : knows prev st -> sectioned r -> exists st', put_ref sec_num sec_title st r = (chunk prev r, Ok st') /\ knows (Some r) st'.
Proof.
  intros K (S1 & S2). exists (mkRState (r_sec r) (Some (Some (r_line r)))). split; [|now split].
  assert (T : forall k : outm text rstate, mbind (if opt_nat_eqb (r_tsec r) (r_sec r) then mtell [tx "        (same section):"] else match r_tsec r with None => mfail AttributeError | Some s => mtell [tx "        " ++ sec_num s ++ tx " " ++ sec_title s ++ tx ":"] end) (fun _ => k) = ((if opt_dec (r_tsec r) (r_sec r) then tx "        (same section):" else tx "        " ++ num (r_tsec r) ++ tx " " ++ title (r_tsec r) ++ tx ":") :: fst k, snd k)).
  { intros k. destruct (opt_dec (r_tsec r) (r_sec r)) as [E|E].
    - rewrite (proj2 (opt_nat_iff _ _) E). reflexivity.
    - destruct (opt_nat_eqb (r_tsec r) (r_sec r)) eqn:Q; [apply opt_nat_iff in Q; contradiction|]. destruct (r_tsec r) as [s|]; [reflexivity|congruence]. }
  unfold put_ref, chunk. destruct st as (c, l). destruct prev as [p|]; cbn [knows cs cl] in *.
  - destruct K as (-> & ->). destruct (opt_dec (r_sec p) (r_sec r)) as [E|E].
    + rewrite E. rewrite (proj2 (opt_nat_iff _ _) eq_refl). cbn [mbind mret fst snd cl cs]. destruct (text_dec (r_line p) (r_line r)) as [El|El].
      * rewrite El. rewrite (proj2 (text_eqb_eq _ _) eq_refl). cbn [mbind mtell mret fst snd app cl cs]. rewrite T. reflexivity.
      * destruct (text_eqb (r_line r) (r_line p)) eqn:Q; [apply text_eqb_eq in Q; congruence|]. cbn [mbind mtell mret fst snd app cl cs]. rewrite T. reflexivity.
    + destruct (opt_nat_eqb (r_sec r) (r_sec p)) eqn:Q; [apply opt_nat_iff in Q; congruence|]. destruct (r_sec r) as [s|] eqn:Er; [|congruence]. destruct (text_dec (r_line p) (r_line r)); cbn [mbind mtell mret fst snd app cl cs]; rewrite T; reflexivity.
  - subst c. destruct (opt_nat_eqb (r_sec r) None) eqn:Q; [apply opt_nat_iff in Q; congruence|]. destruct (r_sec r) as [s|] eqn:Er; [|congruence]. cbn [mbind mtell mret fst snd app cl cs]. rewrite T. reflexivity.
Qed.
Lemma report_all rs : (forall r, In r rs -> sectioned r) -> forall prev st, knows prev st -> exists st', mfold (put_ref sec_num sec_title) st rs = (report prev rs, Ok st').
Proof.
  induction rs as [|r rs IH]; intros A prev st K; [exists st; reflexivity|]. cbn [mfold report]. destruct (put_ref_chunk prev st r K (A r (or_introl eq_refl))) as (st' & E & K'). rewrite E. unfold mbind. cbn [fst snd]. destruct (IH (fun x I => A x (or_intror I)) (Some r) st' K') as (st'' & E'). rewrite E'. exists st''. reflexivity.
Qed.
(* If all references are in sections and to sections, the report has all of them in order: a heading where the section is not that of the reference before, the line where it or the section is another, and the step meant. *)
Theorem C99_report rs o : each_step_ref uw t root ids = (rs, o) -> (forall r, In r rs -> sectioned r) -> check_step_references uw t root ids sec_num sec_title = (report None rs, o).
Proof.
  intros E A. unfold check_step_references. rewrite E. cbn [fst snd]. destruct (report_all rs A None (mkRState None None) eq_refl) as (st' & R). rewrite R. unfold mbind, lift. cbn [fst snd]. now rewrite app_nil_r.
Qed.
(* If the first reference is not in a section, a variable is read that was never set. *)
Theorem C99_unsectioned rs o r : each_step_ref uw t root ids = (r :: rs, o) -> r_sec r = None -> check_step_references uw t root ids sec_num sec_title = ([], Err NameError).
Proof. intros E N0. unfold check_step_references. rewrite E. cbn [fst snd mfold]. unfold put_ref at 1. rewrite N0. reflexivity. Qed.
End Report.

(* ------------------------------------------------------------------ *)
(* examples *)
Definition uw0 : N -> bool := fun _ => false.
Definition nl : text := [10%N].
Definition d_head : text := nl ++ tx "<emu-clause><p>".
Definition d_said : text := tx "See step <emu-xref href=""#step-a""></emu-xref>.".
Definition d_mid : text := tx "</p>" ++ nl.
Definition d_alg : text := tx "<emu-alg>" ++ nl ++ tx "  1. [id=""step-a""] Do." ++ nl ++ tx "</emu-alg>".
Definition doc_with (said : text) : text := d_head ++ said ++ d_mid ++ d_alg ++ tx "</emu-clause>" ++ nl.
Definition node_said (said : text) : snode := SNode 3 (tx "#LITERAL") 16 (16 + length said) [].
Definition node_p (said : text) : snode := SNode 2 (tx "p") 13 (20 + length said) [node_said said].
Definition node_alg (said : text) : snode := SNode 4 (tx "emu-alg") (21 + length said) (21 + length said + length d_alg) [].
Definition node_clause (said : text) : snode := SNode 1 (tx "emu-clause") 1 (34 + length said + length d_alg) [node_p said; node_alg said].
Definition node_doc (said : text) : snode := SNode 0 (tx "#DOC") 0 (35 + length said + length d_alg) [node_clause said].
Definition ids_with (said : text) : list (text * (snode * list snode)) := [(tx "step-a", (node_alg said, [node_clause said; node_doc said]))].
Definition num0 (s : nat) : text := tx "1.2".
Definition title0 (s : nat) : text := tx "Title".

Example C99_deepest_ex : deepest 20 [] (node_doc d_said) = Ok [node_said d_said; node_p d_said; node_clause d_said; node_doc d_said] /\ deepest 500 [] (node_doc d_said) = Err AssertionError.
Proof. split; vm_compute; reflexivity. Qed.
Example C99_deepest_text_ex : ordered (node_doc d_said) /\ route 20 (node_doc d_said) [node_said d_said; node_p d_said; node_clause d_said; node_doc d_said].
Proof.
  assert (OX : forall i nm s e, ordered (SNode i nm s e [])) by (intros; constructor; [intros c []|intros a c b0 y E; destruct a; discriminate]).
  assert (O1 : forall i nm s e n, ordered n -> ordered (SNode i nm s e [n])) by (intros i nm s e n On; constructor; [intros c [<-|[]]; exact On|]; intros a c b y E; cbn in E; destruct a as [|z [|? ?]]; [intros []| |]; discriminate).
  split.
  - apply O1. constructor; [intros c [<-|[<-|[]]]; [apply O1|]; apply OX|]. intros a c b y E. cbn [s_children node_clause] in E. destruct a as [|z [|z' a]]; [intros []| |destruct a; discriminate]. cbn [app] in E. intros [<-|[]]. assert (z = node_p d_said) by congruence. assert (c = node_alg d_said) by congruence. subst. vm_compute. lia.
  - assert (IN : forall n, covers 20 n = true -> inside 20 n) by (intros n; apply covers_iff).
    apply (R_child 20 (node_doc d_said) [] (node_clause d_said) [] [node_said d_said; node_p d_said; node_clause d_said]); [apply IN; vm_compute; reflexivity|reflexivity|now left|].
    apply (R_child 20 (node_clause d_said) [] (node_p d_said) [node_alg d_said] [node_said d_said; node_p d_said]); [apply IN; vm_compute; reflexivity|reflexivity|now left|].
    apply (R_child 20 (node_p d_said) [] (node_said d_said) [] [node_said d_said]); [apply IN; vm_compute; reflexivity|reflexivity|now left|]. constructor; [apply IN; vm_compute; reflexivity|reflexivity].
Qed.
(* in a word, before a letter, with capitals, with more than one s *)
Example C99_search_ex : find_steps uw0 0 0 None (tx "footstep 1, step one, Step 2, stepss <b>, step 3") = [22; 30; 42].
Proof. vm_compute. reflexivity. Qed.
Example C99_ids_ex :
  step_ids (tx "Steps " ++ xr (tx "a") ++ tx ", " ++ xr (tx "b-1") ++ tx ", and " ++ xr (tx "c") ++ tx ".") = Some [tx "a"; tx "b-1"; tx "c"] /\
  step_ids (tx "steps " ++ xr (tx "a") ++ [8211%N] ++ xr (tx "b")) = Some [tx "a"; tx "b"] /\
  step_ids (tx "step " ++ xr (tx "a") ++ tx ", " ++ xr (tx "b")) = Some [tx "a"] /\
  step_ids (tx "steps " ++ xr (tx "a") ++ tx ", " ++ xr (tx "b")) = None.
Proof. repeat split; vm_compute; reflexivity. Qed.
Example C99_refs_ex : each_step_ref uw0 (doc_with d_said) (node_doc d_said) (ids_with d_said) =
  ([mkSRef (Some 1) (tx "<emu-clause><p>See step <emu-xref href=""#step-a""></emu-xref>.</p>") (Some 1) (tx "1. [id=""step-a""] Do.")], Ok tt).
Proof. vm_compute. reflexivity. Qed.
(* the second reference has an id that is not there; the first is yielded *)
Definition d_two : text := d_said ++ tx " And step <emu-xref href=""#step-b""></emu-xref>.".
Example C99_stops_ex : exists r, each_step_ref uw0 (doc_with d_two) (node_doc d_two) (ids_with d_two) = ([r], Err KeyError) /\ r_tline r = tx "1. [id=""step-a""] Do.".
Proof. eexists. split; vm_compute; reflexivity. Qed.
Definition d_num : text := tx "See step 3.".
Example C99_number_ex : each_step_ref uw0 (doc_with d_num) (node_doc d_num) (ids_with d_num) = ([], Err AssertionError) /\ doc_with d_num = (d_head ++ tx "See ") ++ tx "step " ++ 51%N :: (tx "." ++ d_mid ++ d_alg ++ tx "</emu-clause>" ++ nl) /\ ~ wordish uw0 (last_of None (d_head ++ tx "See ")).
Proof. split; [vm_compute; reflexivity|]. split; [reflexivity|]. rewrite <- wordb_iff. vm_compute. discriminate. Qed.
Example C99_pair_ex : all_are id_char (tx "step-a") /\ step_ids (tx "step " ++ xr (tx "step-a") ++ tx " and " ++ xr (tx "step-b") ++ tx ".") = Some [tx "step-a"].
Proof. split; [intros c I; apply idchar_iff; revert c I; apply forallb_forall; vm_compute; reflexivity|vm_compute; reflexivity]. Qed.
Example C99_plural_ex : step_ids (tx "steps " ++ xr (tx "step-a") ++ 46%N :: tx " Then") = None.
Proof. vm_compute. reflexivity. Qed.
Example C99_report_ex : check_step_references uw0 (doc_with d_said) (node_doc d_said) (ids_with d_said) num0 title0 =
  ([[]; tx "----------------------------------------"; tx "1.2"; tx "Title"; []; tx "    <emu-clause><p>See step <emu-xref href=""#step-a""></emu-xref>.</p>"; []; tx "        (same section):"; tx "        1. [id=""step-a""] Do."], Ok tt) /\
  forall r, In r (fst (each_step_ref uw0 (doc_with d_said) (node_doc d_said) (ids_with d_said))) -> sectioned r.
Proof. split; [vm_compute; reflexivity|]. rewrite C99_refs_ex. intros r [<-|[]]. split; discriminate. Qed.
(* without a section around it *)
Definition node_bare (said : text) : snode := SNode 0 (tx "#DOC") 0 (35 + length said + length d_alg) [node_p said; node_alg said].
Example C99_unsectioned_ex : exists r, each_step_ref uw0 (doc_with d_said) (node_bare d_said) (ids_with d_said) = ([r], Ok tt) /\ r_sec r = None /\ check_step_references uw0 (doc_with d_said) (node_bare d_said) (ids_with d_said) num0 title0 = ([], Err NameError).
Proof. eexists. repeat split; vm_compute; reflexivity. Qed.

Print Assumptions C99_deepest.
Print Assumptions C99_deepest_text.
Print Assumptions C99_deepest_refuted.
Print Assumptions C99_search.
Print Assumptions C99_ids.
Print Assumptions C99_refs.
Print Assumptions C99_stops.
Print Assumptions C99_number.
Print Assumptions C99_pair.
Print Assumptions C99_plural.
Print Assumptions C99_report.
Print Assumptions C99_unsectioned.
