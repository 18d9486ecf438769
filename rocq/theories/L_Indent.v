(* Specification of the check of indentation, and lemmas about its model. *)
From Coq Require Import Ascii String Permutation.
From Verif Require Import M_Base L_Base M_HTML M_Layout L_Layout M_Indent.
Open Scope list_scope.
Notation length := List.length.

(* ---------- specification: the lines of a content ---------- *)
(* indentations that form an outline: the first is e, none is less, each differs from e by an even number, and none exceeds the one before by more than 2 *)
Definition outline (e : nat) (l : list nat) : Prop :=
  (forall x l', l = x :: l' -> x = e) /\ (forall x, In x l -> e <= x /\ Nat.Even (x - e)) /\
  (forall l1 x y l2, l = l1 ++ x :: y :: l2 -> y <= x + 2).

(* ---------- the check by lists ---------- *)
Fixpoint groups (top : nat) (l : list (nat * nat)) : list (list (nat * nat)) :=
  match l with
  | [] => [[]]
  | a :: l' => if fst a <=? top then [] :: groups top l' else match groups top l' with g :: gs => (a :: g) :: gs | [] => [[a]] end
  end.
Definition low (top : nat) (l : list (nat * nat)) : list msg :=
  flat_map (fun a : nat * nat => let '(ind, x) := a in if ind <? top then [(x, ExpectedLess top ind)] else []) l.
Fixpoint lcheck (fuel : nat) (l : list (nat * nat)) (emi : nat) : list msg :=
  match fuel, l with
  | S f, (top, x) :: rest => (if top =? emi then [] else [(x, Expected emi top)]) ++ low top rest ++ flat_map (fun g => lcheck f g (top + 2)) (groups top rest)
  | _, _ => []
  end.

Lemma groups_cons : forall top l, exists g gs, groups top l = g :: gs.
Proof. intros top. induction l as [|a l (g & gs & E)]; [exists [], []; reflexivity|]. cbn [groups]. destruct (fst a <=? top); [eauto|]. rewrite E. eauto. Qed.
Lemma groups_len : forall top l g, In g (groups top l) -> length g <= length l.
Proof.
  intros top. induction l as [|a l IH]; intros g H; cbn [groups] in H.
  - destruct H as [<-|[]]. cbn. lia.
  - destruct (fst a <=? top).
    + destruct H as [<-|H]; [cbn; lia|]. specialize (IH g H). cbn. lia.
    + destruct (groups_cons top l) as (h & hs & E). rewrite E in *. destruct H as [<-|H].
      * specialize (IH h (or_introl eq_refl)). cbn. lia.
      * specialize (IH g (or_intror H)). cbn. lia.
Qed.
Lemma flat_map_ext_in : forall A B (f g : A -> list B) l, (forall a, In a l -> f a = g a) -> flat_map f l = flat_map g l.
Proof. intros A B f g. induction l as [|a l IH]; intros H; [reflexivity|]. cbn [flat_map]. rewrite (H a) by now left. f_equal. apply IH. intros; apply H; now right. Qed.
Lemma lcheck_fuel : forall f f' l e, length l <= f -> length l <= f' -> lcheck f l e = lcheck f' l e.
Proof.
  induction f as [|f IH]; intros f' l e H H'.
  - destruct l as [|[t x] l]; [|cbn in H; lia]. destruct f'; reflexivity.
  - destruct l as [|[t x] l]; [destruct f'; reflexivity|]. destruct f' as [|f']; [cbn in H'; lia|]. cbn [lcheck]. do 2 f_equal.
    apply flat_map_ext_in. intros g Hg. apply groups_len in Hg. cbn in H, H'. apply IH; lia.
Qed.
Definition lchk (l : list (nat * nat)) (e : nat) : list msg := lcheck (length l) l e.
Lemma lchk_cons : forall t x l e, lchk ((t, x) :: l) e =
  (if t =? e then [] else [(x, Expected e t)]) ++ low t l ++ flat_map (fun g => lchk g (t + 2)) (groups t l).
Proof.
  intros t x l e. unfold lchk at 1. cbn [length lcheck]. do 2 f_equal. apply flat_map_ext_in. intros g Hg. apply groups_len in Hg.
  apply lcheck_fuel; [exact Hg|lia].
Qed.

(* --- the check by numbers is the check by lists --- *)
Lemma slice_cons : forall A (l : list A) lo hi a, lo < hi -> nth_error l lo = Some a -> slice lo hi l = a :: slice (S lo) hi l.
Proof.
  intros A l lo hi a L H. unfold slice. replace (hi - lo) with (S (hi - S lo)) by lia. revert l H. clear L. generalize (hi - S lo). intros n.
  induction lo as [|lo IH]; intros l H; destruct l as [|b l]; try discriminate.
  - cbn in H. injection H as ->. reflexivity.
  - cbn [skipn]. cbn in H. rewrite (IH l H). reflexivity.
Qed.
Lemma slice_nil : forall A (l : list A) lo, slice lo lo l = [].
Proof. intros. unfold slice. now rewrite Nat.sub_diag. Qed.
Lemma slice_snoc : forall A (l : list A) lo hi a, lo <= hi -> nth_error l hi = Some a -> slice lo (S hi) l = slice lo hi l ++ [a].
Proof.
  intros A l lo hi a L H. unfold slice. replace (S hi - lo) with (S (hi - lo)) by lia.
  assert (E : nth_error (skipn lo l) (hi - lo) = Some a).
  { clear - L H. revert hi L H. revert l. induction lo as [|lo IH]; intros l hi L H; [now rewrite Nat.sub_0_r|]. destruct l as [|b l]; [destruct hi; discriminate|].
    destruct hi as [|hi]; [lia|]. cbn [skipn]. replace (S hi - S lo) with (hi - lo) by lia. apply IH; [lia|exact H]. }
  revert E. generalize (hi - lo) (skipn lo l). clear. induction n as [|n IH]; intros [|b l] E; try discriminate.
  - cbn in E. injection E as ->. reflexivity.
  - cbn in E. cbn [firstn app]. f_equal. apply IH. exact E.
Qed.
Lemma slice_len : forall A (l : list A) lo hi, hi <= length l -> length (slice lo hi l) = hi - lo.
Proof. intros A l lo hi H. unfold slice. rewrite firstn_length, skipn_length. lia. Qed.

Definition sib (line : list (nat * nat)) (top i : nat) : bool := match nth_error line i with Some (ind, _) => ind <=? top | None => false end.
Lemma zip_groups : forall line top hi n a b, hi <= length line -> b + n = hi -> a < b ->
  let sibs := filter (sib line top) (seq b n) in
  map (fun ij => slice (fst ij + 1) (snd ij) line) (combine (a :: sibs) (sibs ++ [hi])) =
    match groups top (slice b hi line) with g :: gs => (slice (a + 1) b line ++ g) :: gs | [] => [] end /\
  Forall (fun ij => a <= fst ij /\ fst ij < snd ij /\ snd ij <= hi) (combine (a :: sibs) (sibs ++ [hi])).
Proof.
  intros line top hi. induction n as [|n IH]; intros a b Hh Hb Ha.
  - assert (b = hi) by lia. subst b. cbn [seq filter app combine map fst snd]. rewrite slice_nil. cbn [groups]. rewrite app_nil_r.
    split; [reflexivity|]. constructor; [cbn [fst snd]; lia|constructor].
  - cbn [seq filter]. destruct (nth_error line b) as [[ind x]|] eqn:E.
    2:{ apply nth_error_None in E. lia. }
    rewrite (slice_cons _ line b hi _ ltac:(lia) E). cbn [groups fst]. unfold sib at 1 4. rewrite E. cbv zeta.
    assert (Es : forall i, sib line top i = match nth_error line i with Some (ind, _) => ind <=? top | None => false end) by reflexivity.
    rewrite (Es b), E.
    destruct (ind <=? top) eqn:El.
    + destruct (IH b (S b) Hh ltac:(lia) ltac:(lia)) as [A B]. cbn [app combine map fst snd]. rewrite app_nil_r. split.
      * f_equal. cbn [combine map fst snd] in A. rewrite A. destruct (groups_cons top (slice (S b) hi line)) as (g & gs & ->).
        replace (b + 1) with (S b) by lia. rewrite slice_nil. reflexivity.
      * constructor; [cbn [fst snd]; lia|]. revert B. apply Forall_impl. intros [i j]. cbn [fst snd]. lia.
    + destruct (IH a (S b) Hh ltac:(lia) ltac:(lia)) as [A B]. split.
      * rewrite A. destruct (groups_cons top (slice (S b) hi line)) as (g & gs & ->). rewrite (slice_snoc _ line (a + 1) b (ind, x) ltac:(lia) E).
        rewrite <- app_assoc. reflexivity.
      * exact B.
Qed.
Lemma low_slice : forall line top n b hi, hi <= length line -> b + n = hi ->
  flat_map (fun i => match nth_error line i with Some (ind, x) => if ind <? top then [(x, ExpectedLess top ind)] else [] | None => [] end) (seq b n) = low top (slice b hi line).
Proof.
  intros line top. induction n as [|n IH]; intros b hi Hh Hb.
  - assert (b = hi) by lia. subst b. now rewrite slice_nil.
  - cbn [seq flat_map]. destruct (nth_error line b) as [[ind x]|] eqn:E; [|apply nth_error_None in E; lia].
    rewrite (slice_cons _ line b hi _ ltac:(lia) E). unfold low. cbn [flat_map]. f_equal. apply IH; lia.
Qed.
Lemma check_lines_list : forall fuel line lo hi emi, lo <= hi -> hi <= length line -> hi - lo < fuel ->
  check_lines fuel line lo hi emi = (lchk (slice lo hi line) emi, Ok tt).
Proof.
  induction fuel as [|f IH]; intros line lo hi emi H1 H2 H3; [lia|]. cbn [check_lines].
  destruct (lo =? hi) eqn:E1. { apply Nat.eqb_eq in E1. subst. rewrite slice_nil. reflexivity. }
  apply Nat.eqb_neq in E1. assert (L : lo < hi) by lia. rewrite (proj2 (Nat.ltb_lt _ _) L). cbn [negb].
  destruct (nth_error line lo) as [[top x]|] eqn:E; [|apply nth_error_None in E; lia].
  rewrite (slice_cons _ line lo hi _ L E), lchk_cons.
  replace (lo + 1) with (S lo) by lia.
  rewrite (low_slice line top (hi - S lo) (S lo) hi H2 ltac:(lia)).
  pose proof (zip_groups line top hi (hi - S lo) lo (S lo) H2 ltac:(lia) ltac:(lia)) as Z. cbv zeta in Z. unfold sib in Z.
  set (sibs := filter _ (seq (S lo) (hi - S lo))) in *. destruct Z as [Z1 Z2].
  replace (lo + 1) with (S lo) in Z1 by lia. rewrite slice_nil in Z1. destruct (groups_cons top (slice (S lo) hi line)) as (g & gs & Eg). rewrite Eg in *. cbn [app] in Z1.
  rewrite <- Z1. revert Z2. generalize (combine (lo :: sibs) (sibs ++ [hi])). intros prs Z2. clear Z1 Eg sibs.
  assert (Lp : (fix loop l := match l with
              | [] => ([], Ok tt)
              | (i, j) :: l' => let '(m, r) := check_lines f line (i + 1) j (top + 2) in match r with Err e => (m, Err e) | Ok _ => let '(m', r') := loop l' in (m ++ m', r') end
              end) prs = (flat_map (fun g => lchk g (top + 2)) (map (fun ij => slice (fst ij + 1) (snd ij) line) prs), Ok tt)).
  { induction Z2 as [|[i j] prs Hp _ IHp]; [reflexivity|]. cbn [fst snd] in Hp. rewrite (IH line (i + 1) j (top + 2)) by lia. rewrite IHp. reflexivity. }
  rewrite Lp. reflexivity.
Qed.

(* --- nothing is reported for outlines only --- *)
Fixpoint chain (e p : nat) (l : list nat) : Prop :=
  match l with [] => True | x :: l' => e <= x /\ Nat.Even (x - e) /\ x <= p + 2 /\ chain e x l' end.
Definition outl (e : nat) (l : list nat) : Prop := match l with [] => True | x :: l' => x = e /\ chain e x l' end.
Lemma chain_iff : forall e l p, chain e p l <-> (forall x, In x l -> e <= x /\ Nat.Even (x - e)) /\ (forall l1 x y l2, p :: l = l1 ++ x :: y :: l2 -> y <= x + 2).
Proof.
  intros e. induction l as [|a l IH]; intros p; cbn [chain].
  - split; [|intros _; exact I]. intros _. split; [intros x []|]. intros l1 x y l2 E. destruct l1 as [|? [|? ?]]; discriminate.
  - rewrite IH. split.
    + intros (A & B & C & D & F). split; [intros x [<-|Hx]; auto|]. intros l1 x y l2 E. destruct l1 as [|z l1]; cbn [app] in E; injection E as E1 E2.
      * subst. exact C. * exact (F l1 x y l2 E2).
    + intros (A & B). destruct (A a (or_introl eq_refl)) as [A1 A2]. split; [exact A1|]. split; [exact A2|]. split; [exact (B [] p a l eq_refl)|].
      split; [intros x Hx; apply A; now right|]. intros l1 x y l2 E. apply (B (p :: l1) x y l2). cbn [app]. now f_equal.
Qed.
Lemma outl_iff : forall e l, outl e l <-> outline e l.
Proof.
  intros e l. unfold outline. destruct l as [|a l]; cbn [outl].
  - split; [|intros _; exact I]. intros _. split; [discriminate|]. split; [intros x []|]. intros l1 x y l2 E. destruct l1; discriminate.
  - rewrite chain_iff. split.
    + intros (-> & A & B). split; [intros x l' E; congruence|]. split; [|exact B]. intros x [<-|Hx]; [|auto]. split; [lia|]. rewrite Nat.sub_diag. exists 0. reflexivity.
    + intros (A & B & C). split; [exact (A a l eq_refl)|]. split; [|exact C]. intros x Hx. apply B. now right.
Qed.

Lemma chain_groups : forall top rest p g gs, (p = top \/ (top + 2 <= p /\ Nat.Even (p - (top + 2)))) -> groups top rest = g :: gs ->
  (chain top p (map fst rest) <-> (Forall (fun a => top <= fst a) rest /\ (if p =? top then outl (top + 2) (map fst g) else chain (top + 2) p (map fst g)) /\ Forall (fun h => outl (top + 2) (map fst h)) gs)).
Proof.
  intros top. induction rest as [|[x q] rest IH]; intros p g gs Hp E; cbn [groups fst] in E.
  - injection E as <- <-. cbn [map chain]. split; [|intros _; exact I]. intros _. split; [constructor|]. split; [destruct (p =? top); exact I|constructor].
  - destruct (groups_cons top rest) as (g' & gs' & E'). rewrite E' in *. destruct (x <=? top) eqn:El.
    + injection E as <- <-. apply Nat.leb_le in El. cbn [map fst chain]. specialize (IH x g' gs').
      split.
      * intros (A & B & C & D). assert (x = top) by lia. subst x. apply (IH (or_introl eq_refl) eq_refl) in D as (D1 & D2 & D3). rewrite Nat.eqb_refl in D2.
        split; [constructor; [cbn; lia|exact D1]|]. split; [destruct (p =? top); exact I|]. constructor; assumption.
      * intros (A & _ & C). inversion A as [|? ? A1 A2]. subst. cbn in A1. assert (x = top) by lia. subst x. inversion C as [|? ? C1 C2]. subst.
        split; [lia|]. split; [rewrite Nat.sub_diag; exists 0; reflexivity|]. split; [lia|]. apply (IH (or_introl eq_refl) eq_refl). rewrite Nat.eqb_refl. auto.
    + injection E as <- <-. apply Nat.leb_gt in El. cbn [map fst chain].
      assert (Hx : Nat.Even (x - top) <-> (top + 2 <= x /\ Nat.Even (x - (top + 2)))).
      { split.
        - intros (k & Hk). destruct k as [|k]; [lia|]. split; [lia|]. exists k. lia.
        - intros (Hl & k & Hk). exists (S k). lia. }
      split.
      * intros (A & B & C & D). apply Hx in B. apply (IH x g' gs' (or_intror B) eq_refl) in D as (D1 & D2 & D3).
        assert (Hne : x =? top = false) by (apply Nat.eqb_neq; lia). rewrite Hne in D2.
        split; [constructor; [cbn; lia|exact D1]|]. split; [|exact D3]. destruct (p =? top) eqn:Ep.
        -- apply Nat.eqb_eq in Ep. subst p. cbn [outl]. split; [lia|]. exact D2.
        -- cbn [chain]. tauto.
      * intros (A & B & C). inversion A as [|? ? A1 A2]. subst. destruct (p =? top) eqn:Ep.
        -- apply Nat.eqb_eq in Ep. subst p. cbn [outl] in B. destruct B as (-> & B). assert (H2 : top + 2 <= top + 2 /\ Nat.Even (top + 2 - (top + 2))) by (split; [lia|exists 0; lia]).
           split; [lia|]. split; [now apply Hx|]. split; [lia|]. apply (IH (top + 2) g' gs' (or_intror H2) eq_refl).
           assert (Hne : top + 2 =? top = false) by (apply Nat.eqb_neq; lia). rewrite Hne. auto.
        -- cbn [chain] in B. destruct B as (B1 & B2 & B3 & B4). split; [lia|]. split; [apply Hx; auto|]. split; [exact B3|].
           apply (IH x g' gs' (or_intror (conj B1 B2)) eq_refl). assert (Hne : x =? top = false) by (apply Nat.eqb_neq; lia). rewrite Hne. auto.
Qed.
Lemma low_nil : forall top l, low top l = [] <-> Forall (fun a => top <= fst a) l.
Proof.
  intros top. induction l as [|[x q] l IH]; [split; [constructor|reflexivity]|]. unfold low in *. cbn [flat_map]. destruct (x <? top) eqn:E.
  - apply Nat.ltb_lt in E. split; [discriminate|]. intros H. inversion H as [|? ? H1 _]. cbn in H1. lia.
  - apply Nat.ltb_ge in E. cbn [app]. rewrite IH. split; [constructor; auto|]. intros H. now inversion H.
Qed.
Lemma flat_nil : forall A B (f : A -> list B) l, flat_map f l = [] <-> Forall (fun a => f a = []) l.
Proof.
  intros A B f. induction l as [|a l IH]; [split; [constructor|reflexivity]|]. cbn [flat_map]. split.
  - intros H. apply app_eq_nil in H as [H1 H2]. constructor; [exact H1|]. now apply IH.
  - intros H. inversion H as [|? ? H1 H2]. subst. rewrite H1. now apply IH.
Qed.
Lemma lchk_silent : forall n l e, length l <= n -> (lchk l e = [] <-> outline e (map fst l)).
Proof.
  induction n as [|n IH]; intros l e Hn.
  - destruct l; [|cbn in Hn; lia]. rewrite <- outl_iff. split; [intros; exact I|reflexivity].
  - destruct l as [|[t x] l]; [rewrite <- outl_iff; split; [intros; exact I|reflexivity]|]. rewrite lchk_cons, <- outl_iff. cbn [map fst outl].
    destruct (groups_cons t l) as (g & gs & E). pose proof (chain_groups t l t g gs (or_introl eq_refl) E) as K. rewrite Nat.eqb_refl in K. rewrite E.
    assert (G : flat_map (fun g => lchk g (t + 2)) (g :: gs) = [] <-> outl (t + 2) (map fst g) /\ Forall (fun h => outl (t + 2) (map fst h)) gs).
    { rewrite flat_nil. rewrite <- Forall_cons_iff with (P := fun h => outl (t + 2) (map fst h)). rewrite !Forall_forall. cbn in Hn.
      assert (Q : forall h, In h (g :: gs) -> (lchk h (t + 2) = [] <-> outl (t + 2) (map fst h))).
      { intros h Hh. rewrite outl_iff. apply IH. rewrite <- E in Hh. apply groups_len in Hh. lia. }
      split; intros H h Hh; apply Q; auto. }
    split.
    + intros H. apply app_eq_nil in H as [H1 H]. apply app_eq_nil in H as [H2 H]. apply low_nil in H2. apply G in H.
      destruct (t =? e) eqn:Et; [|discriminate]. apply Nat.eqb_eq in Et. subst. tauto.
    + intros (-> & H0). apply K in H0 as [H1 H2]. apply low_nil in H1. apply G in H2. rewrite Nat.eqb_refl, H1, H2. reflexivity.
Qed.

(* --- each line is reported at most once --- *)
Lemma count_app : forall (l1 l2 : list nat) p, count_occ Nat.eq_dec (l1 ++ l2) p = count_occ Nat.eq_dec l1 p + count_occ Nat.eq_dec l2 p.
Proof. intros. apply count_occ_app. Qed.
Lemma low_groups_count : forall top l p, count_occ Nat.eq_dec (map fst (low top l)) p + count_occ Nat.eq_dec (map snd (concat (groups top l))) p <= count_occ Nat.eq_dec (map snd l) p.
Proof.
  intros top l p. induction l as [|[x q] l IH]; [reflexivity|]. cbn [groups fst]. unfold low in *. cbn [flat_map].
  destruct (x <=? top) eqn:El.
  - cbn [concat app]. rewrite map_app, count_app. destruct (x <? top); cbn [map fst snd count_occ]; destruct (Nat.eq_dec q p); lia.
  - apply Nat.leb_gt in El. assert (x <? top = false) as -> by (apply Nat.ltb_ge; lia). destruct (groups_cons top l) as (g & gs & E). rewrite E in *.
    cbn [concat app map snd count_occ] in *. destruct (Nat.eq_dec q p); lia.
Qed.
Lemma lchk_count : forall n l e p, length l <= n -> count_occ Nat.eq_dec (map fst (lchk l e)) p <= count_occ Nat.eq_dec (map snd l) p.
Proof.
  induction n as [|n IH]; intros l e p Hn; [destruct l; [reflexivity|cbn in Hn; lia]|]. destruct l as [|[t x] l]; [reflexivity|]. cbn in Hn.
  rewrite lchk_cons, !map_app, !count_app.
  assert (G : count_occ Nat.eq_dec (map fst (flat_map (fun g => lchk g (t + 2)) (groups t l))) p <= count_occ Nat.eq_dec (map snd (concat (groups t l))) p).
  { assert (Q : forall gs, (forall g, In g gs -> length g <= n) -> count_occ Nat.eq_dec (map fst (flat_map (fun g => lchk g (t + 2)) gs)) p <= count_occ Nat.eq_dec (map snd (concat gs)) p).
    { induction gs as [|g gs IHg]; intros H; [reflexivity|]. cbn [flat_map concat]. rewrite !map_app, !count_app. apply Nat.add_le_mono; [exact (IH g (t + 2) p (H g (or_introl eq_refl)))|].
      exact (IHg (fun h Hh => H h (or_intror Hh))). }
    apply Q. intros g Hg. apply groups_len in Hg. lia. }
  pose proof (low_groups_count t l p) as L. unfold msg in *. cbn [map snd count_occ]. destruct (t =? e); cbn [map fst count_occ]; destruct (Nat.eq_dec x p); lia.
Qed.

(* --- what is reported of a line depends on the lines before it only --- *)
Lemma groups_app : forall top l1 l2, exists gs g, groups top l1 = gs ++ [g] /\ exists h hs, groups top l2 = h :: hs /\ groups top (l1 ++ l2) = gs ++ (g ++ h) :: hs.
Proof.
  intros top l1 l2. destruct (groups_cons top l2) as (h & hs & E). induction l1 as [|a l1 (gs & g & E1 & h' & hs' & E2 & E3)].
  - exists [], []. split; [reflexivity|]. exists h, hs. split; [exact E|]. cbn [app groups]. exact E.
  - cbn [app groups]. destruct (fst a <=? top).
    + exists ([] :: gs), g. rewrite E1. split; [reflexivity|]. exists h', hs'. split; [exact E2|]. rewrite E3. reflexivity.
    + rewrite E1, E3. destruct gs as [|g0 gs].
      * exists [], (a :: g). split; [reflexivity|]. exists h', hs'. split; [exact E2|reflexivity].
      * exists ((a :: g0) :: gs), g. split; [reflexivity|]. exists h', hs'. split; [exact E2|reflexivity].
Qed.
Lemma lchk_app : forall n l1 l2 e, length l1 <= n -> l1 <> [] -> exists extra, Permutation (lchk (l1 ++ l2) e) (lchk l1 e ++ extra) /\ forall m, In m extra -> In (fst m) (map snd l2).
Proof.
  assert (Sub : forall l e m, In m (lchk l e) -> In (fst m) (map snd l)).
  { intros l e m H. pose proof (lchk_count (length l) l e (fst m) (Nat.le_refl _)) as C. apply (count_occ_In Nat.eq_dec).
    assert (In (fst m) (map fst (lchk l e))) as Hin by (now apply in_map). apply (count_occ_In Nat.eq_dec) in Hin. lia. }
  induction n as [|n IH]; intros l1 l2 e Hn Hne; [destruct l1; [congruence|cbn in Hn; lia]|].
  destruct l1 as [|[t x] l1]; [congruence|]. cbn in Hn. cbn [app]. rewrite !lchk_cons.
  destruct (groups_app t l1 l2) as (gs & g & E1 & h & hs & E2 & E3). rewrite E1, E3.
  assert (G : exists ex, Permutation (lchk (g ++ h) (t + 2)) (lchk g (t + 2) ++ ex) /\ forall m, In m ex -> In (fst m) (map snd h)).
  { destruct g as [|a g]; [exists (lchk h (t + 2)); split; [reflexivity|apply Sub]|]. apply IH; [|discriminate].
    assert (length (a :: g) <= length l1); [|lia]. apply (groups_len t). rewrite E1. apply in_app_iff. right. now left. }
  destruct G as (ex & P & Q).
  exists (low t l2 ++ ex ++ flat_map (fun g => lchk g (t + 2)) hs). split.
  - assert (El : low t (l1 ++ l2) = low t l1 ++ low t l2) by (unfold low; now rewrite flat_map_app).
    rewrite El, !flat_map_app. cbn [flat_map]. rewrite app_nil_r, P. rewrite <- !app_assoc. apply Permutation_app_head. apply Permutation_app_head.
    rewrite (Permutation_app_comm (low t l2)). rewrite <- !app_assoc. do 2 apply Permutation_app_head. rewrite (Permutation_app_comm (low t l2)), <- app_assoc. reflexivity.
  - assert (Hh : forall k, In k (h :: hs) -> incl k l2).
    { rewrite <- E2. clear. revert l2. induction l2 as [|a l2 IH]; intros k H; cbn [groups] in H.
      - destruct H as [<-|[]]. intros y [].
      - destruct (fst a <=? t).
        + destruct H as [<-|H]; [intros y []|]. intros y Hy. right. exact (IH k H y Hy).
        + destruct (groups_cons t l2) as (h & hs & E). rewrite E in *. destruct H as [<-|H].
          * intros y [<-|Hy]; [now left|right]. exact (IH h (or_introl eq_refl) y Hy).
          * intros y Hy. right. exact (IH k (or_intror H) y Hy). }
    intros m Hm. apply in_app_iff in Hm as [Hm|Hm].
    + unfold low in Hm. apply in_flat_map in Hm as ([i q] & Hq & Hm). destruct (i <? t); [|destruct Hm]. destruct Hm as [<-|[]]. apply in_map_iff. exists (i, q). auto.
    + apply in_app_iff in Hm as [Hm|Hm].
      * specialize (Q m Hm). apply in_map_iff in Q as (y & Ey & Hy). apply in_map_iff. exists y. split; [exact Ey|]. exact (Hh h (or_introl eq_refl) y Hy).
      * apply in_flat_map in Hm as (k & Hk & Hm). apply Sub in Hm. apply in_map_iff in Hm as (y & Ey & Hy). apply in_map_iff. exists y. split; [exact Ey|]. exact (Hh k (or_intror Hk) y Hy).
Qed.
