(* Specification of the checks of emu-prodref elements and of references in the text, and lemmas about their model. *)
From Coq Require Import Ascii String Sorted Permutation.
From Verif Require Import M_Base L_Base M_HTML M_Records L_Records M_Defs L_Defs M_Refs L_Refs.
Open Scope list_scope.
Notation length := List.length.

(* ---------- emu-prodref ---------- *)
(* the main part of the document defines n *)
Definition in_main (L : list site) (n : text) : Prop := exists q, In q L /\ lhs q = n /\ in_arena (fst q) (tx "A").
(* the names that the elements without the attribute a have *)
Definition plain (refs : list prodref) : list text := flat_map (fun r => if r_a r then [] else opt_list (r_name r)) refs.
Lemma plain_in : forall refs n, In n (plain refs) <-> exists r, In r refs /\ r_a r = false /\ r_name r = Some n.
Proof.
  intros refs n. unfold plain. rewrite in_flat_map. split; intros (r & Hr & X); exists r; (split; [exact Hr|]).
  - destruct (r_a r); [destruct X|]. split; [reflexivity|]. destruct (r_name r) as [m|]; [|destruct X]. destruct X as [->|[]]. reflexivity.
  - destruct X as [-> ->]. now left.
Qed.
Definition ref_fine (L : list site) (earlier : list text) (r : prodref) : Prop := exists n, r_name r = Some n /\ in_main L n /\ (r_a r = true -> In n earlier).
Definition refs_fine (L : list site) (names : list text) (refs : list prodref) : Prop := forall l1 r l2, refs = l1 ++ r :: l2 -> ref_fine L (names ++ plain l1) r.
Lemma main_iff : forall L ds inf n, LInv L ds inf -> (in_main L n <-> exists i, tget inf n = Some i /\ thas (i_occs i) (tx "A") = true).
Proof.
  intros L ds inf n I. split.
  - intros (q & Hq & El & Ar). destruct (proj2 (li_has _ _ _ I n) (ex_intro _ q (conj Hq El))) as (i & Hi). exists i. split; [exact Hi|]. apply thas_true. destruct (In_nth_error _ _ Hq) as (k & Hk). exists k. apply (li_occs _ _ _ I n i _ k Hi). eauto.
  - intros (i & Hi & H). apply thas_true in H as (k & Hk). apply (li_occs _ _ _ I n i _ k Hi) in Hk as (q & Hq & El & Ar). exists q. split; [eapply nth_error_In; eauto|]. auto.
Qed.
Lemma refs_fine_cons : forall L names r refs, refs_fine L names (r :: refs) <-> ref_fine L names r /\ refs_fine L (names ++ plain [r]) refs.
Proof.
  intros L names r refs. split.
  - intros H. split; [specialize (H [] r refs eq_refl); cbn in H; now rewrite app_nil_r in H|]. intros l1 x l2 E. specialize (H (r :: l1) x l2). cbn [app] in H. rewrite E in H. specialize (H eq_refl).
    replace ((names ++ plain [r]) ++ plain l1) with (names ++ plain (r :: l1)); [exact H|]. rewrite <- app_assoc. unfold plain. cbn [flat_map]. now rewrite app_nil_r.
  - intros [A B] [|y l1] x l2 E; cbn [app] in E; injection E as <- E; [cbn; rewrite app_nil_r; exact A|]. specialize (B l1 x l2 E). rewrite <- app_assoc in B. unfold plain in B. cbn [flat_map] in B. now rewrite app_nil_r in B.
Qed.
Lemma prodref_one : forall L ds inf, LInv L ds inf -> forall names r,
  (exists ms, prodref_step inf names r = (ms, Ok (names ++ plain [r])) /\ ref_fine L names r /\ forall m, In m ms <-> r_a r = false /\ exists n, r_name r = Some n /\ In n names /\ m = (r_id r, DuplicateRef n)) \/
  (exists e, snd (prodref_step inf names r) = Err e /\ ((r_name r = None /\ e = KeyError) \/ (r_name r <> None /\ ~ ref_fine L names r /\ e = AssertionError))).
Proof.
  intros L ds inf I names r. unfold prodref_step, plain. cbn [flat_map]. destruct (r_name r) as [n|] eqn:En; [|right; exists KeyError; split; [reflexivity|left; auto]].
  assert (Bad : ~ in_main L n \/ (r_a r = true /\ ~ In n names) -> ~ ref_fine L names r).
  { intros X (n' & E' & M & Y). assert (n' = n) by congruence. subst n'. destruct X as [X|[X1 X2]]; auto. }
  destruct (tget inf n) as [i|] eqn:Ei.
  2:{ right. exists AssertionError. split; [reflexivity|]. right. split; [discriminate|]. split; [|reflexivity]. apply Bad. left. intros M. apply (main_iff _ _ _ _ I) in M as (i & X & _). congruence. }
  rewrite mbind_assert. destruct (thas (i_occs i) (tx "A")) eqn:Eo.
  2:{ right. exists AssertionError. split; [reflexivity|]. right. split; [discriminate|]. split; [|reflexivity]. apply Bad. left. intros M. apply (main_iff _ _ _ _ I) in M as (i' & X & Y). congruence. }
  assert (Mn : in_main L n) by (apply (main_iff _ _ _ _ I); eauto). destruct (r_a r) eqn:Ea.
  - rewrite mbind_assert. destruct (tin n names) eqn:Et.
    + apply tin_iff in Et. left. exists []. split; [cbn; now rewrite app_nil_r|]. split; [exists n; auto|]. intros m. split; [intros []|intros [X _]; discriminate].
    + apply tin_false in Et. right. exists AssertionError. split; [reflexivity|]. right. split; [discriminate|]. split; [|reflexivity]. apply Bad. auto.
  - left. eexists. split; [rewrite mbind_tell; cbn [mret fst snd opt_list app]; reflexivity|]. split; [exists n; split; [auto|]; split; [exact Mn|]; intros X; congruence|]. intros m. rewrite app_nil_r. destruct (tin n names) eqn:Et.
    + apply tin_iff in Et. split; [intros [<-|[]]; eauto 6|]. intros (_ & n' & E' & _ & ->). left. congruence.
    + apply tin_false in Et. split; [intros []|]. intros (_ & n' & E' & X & _). assert (n' = n) by congruence. subst n'. contradiction.
Qed.
Lemma prodref_fold : forall L ds inf, LInv L ds inf -> forall refs names, let o := mfold (prodref_step inf) names refs in
  (refs_fine L names refs /\ snd o = Ok (names ++ plain refs) /\
   forall m, In m (fst o) <-> exists l1 r l2 n, refs = l1 ++ r :: l2 /\ r_a r = false /\ r_name r = Some n /\ In n (names ++ plain l1) /\ m = (r_id r, DuplicateRef n)) \/
  (exists l1 r l2, refs = l1 ++ r :: l2 /\ refs_fine L names l1 /\ ((r_name r = None /\ snd o = Err KeyError) \/ (r_name r <> None /\ ~ ref_fine L (names ++ plain l1) r /\ snd o = Err AssertionError))).
Proof.
  intros L ds inf I. induction refs as [|r refs IH]; intros names o.
  - left. split; [intros [|? ?] ? ? E; discriminate|]. split; [cbn; now rewrite app_nil_r|]. intros m. split; [intros []|]. intros ([|? ?] & x & l2 & n & E & _); discriminate.
  - unfold o. cbn [mfold]. clear o.
    assert (Nil : refs_fine L names []) by (intros [|? ?] ? ? E; discriminate).
    assert (Bad : forall e, snd (prodref_step inf names r) = Err e -> ((r_name r = None /\ e = KeyError) \/ (r_name r <> None /\ ~ ref_fine L names r /\ e = AssertionError)) ->
      exists l1 r0 l2, r :: refs = l1 ++ r0 :: l2 /\ refs_fine L names l1 /\ ((r_name r0 = None /\ snd (mbind (prodref_step inf names r) (fun a' => mfold (prodref_step inf) a' refs)) = Err KeyError) \/
        (r_name r0 <> None /\ ~ ref_fine L (names ++ plain l1) r0 /\ snd (mbind (prodref_step inf names r) (fun a' => mfold (prodref_step inf) a' refs)) = Err AssertionError))).
    { intros e E H. exists [], r, refs. split; [reflexivity|]. split; [exact Nil|]. unfold plain. cbn [flat_map]. rewrite app_nil_r. destruct H as [[A ->]|(A & B & ->)]; [left|right]; repeat (split; [assumption|]); apply mbind_err; now left. }
    assert (Go : forall ms, prodref_step inf names r = (ms, Ok (names ++ plain [r])) -> ref_fine L names r ->
       (forall m, In m ms <-> r_a r = false /\ exists n, r_name r = Some n /\ In n names /\ m = (r_id r, DuplicateRef n)) ->
       let o := mbind (prodref_step inf names r) (fun a' => mfold (prodref_step inf) a' refs) in
       (refs_fine L names (r :: refs) /\ snd o = Ok (names ++ plain (r :: refs)) /\
        forall m, In m (fst o) <-> exists l1 r0 l2 n, r :: refs = l1 ++ r0 :: l2 /\ r_a r0 = false /\ r_name r0 = Some n /\ In n (names ++ plain l1) /\ m = (r_id r0, DuplicateRef n)) \/
       (exists l1 r0 l2, r :: refs = l1 ++ r0 :: l2 /\ refs_fine L names l1 /\ ((r_name r0 = None /\ snd o = Err KeyError) \/ (r_name r0 <> None /\ ~ ref_fine L (names ++ plain l1) r0 /\ snd o = Err AssertionError)))).
    { intros ms E Fi Hm o. unfold o. clear o. specialize (IH (names ++ plain [r])). cbv zeta in IH. rewrite E. unfold mbind. cbn [fst snd].
      assert (Pc : forall l, (names ++ plain [r]) ++ plain l = names ++ plain (r :: l)) by (intros l; rewrite <- app_assoc; unfold plain; cbn [flat_map]; now rewrite app_nil_r).
      destruct IH as [(F & R & M)|(l1 & x & l2 & El & F & H)].
      - left. split; [apply refs_fine_cons; auto|]. split; [rewrite R, Pc; reflexivity|]. intros m. rewrite in_app_iff, Hm, M. split.
        + intros [(A & n & B & C & D)|(l1 & x & l2 & n & -> & A & B & C & D)]; [exists [], r, refs, n|exists (r :: l1), x, l2, n]; repeat (split; [auto|]); auto; [cbn; rewrite app_nil_r; auto|rewrite <- Pc; auto].
        + intros ([|y l1] & x & l2 & n & El & A & B & C & D); cbn [app] in El; injection El as <- El; [left|right].
          * cbn in C. rewrite app_nil_r in C. eauto 6.
          * exists l1, x, l2, n. rewrite Pc. auto.
      - right. exists (r :: l1), x, l2. split; [cbn; congruence|]. split; [apply refs_fine_cons; auto|]. rewrite <- (Pc l1). exact H. }
    destruct (prodref_one L ds inf I names r) as [(ms & E & Fi & Hm)|(e & E & H)]; [exact (Go ms E Fi Hm)|right; exact (Bad e E H)].
Qed.
Lemma posn_total : forall a b, posn_leb a b = true \/ posn_leb b a = true.
Proof.
  intros [a x] [b y]. unfold posn_leb. cbn [fst snd]. destruct (Nat.eqb_spec a b) as [->|N]; [rewrite Nat.eqb_refl; apply text_leb_total|]. destruct (Nat.eqb_spec b a) as [->|N']; [congruence|].
  destruct (Nat.ltb_spec a b), (Nat.ltb_spec b a); auto. lia.
Qed.
Lemma posn_trans : forall a b c, posn_leb a b = true -> posn_leb b c = true -> posn_leb a c = true.
Proof.
  intros [a x] [b y] [c z]. unfold posn_leb. cbn [fst snd]. destruct (Nat.eqb_spec a b) as [->|N], (Nat.eqb_spec b c) as [->|N']; rewrite ?Nat.eqb_refl.
  - apply text_leb_trans.
  - auto.
  - destruct (Nat.eqb_spec a c); [congruence|]. auto.
  - intros A B. apply Nat.ltb_lt in A, B. destruct (Nat.eqb_spec a c); [lia|]. apply Nat.ltb_lt. lia.
Qed.
Lemma main_names_in : forall L ds inf posn p n, LInv L ds inf -> (In (p, n) (main_names posn inf) <-> exists k q, nth_error L k = Some q /\ lhs q = n /\ in_arena (fst q) (tx "A") /\ p = posn k).
Proof.
  intros L ds inf posn p n I. unfold main_names. rewrite in_flat_map. split.
  - intros ([n' i] & Hin & X). cbn [fst snd] in X. destruct (tget (i_occs i) (tx "A")) as [k|] eqn:E; [|destruct X]. destruct X as [X|[]]. injection X as <- <-. apply (tget_in _ _ _ _ (li_keys _ _ _ I)) in Hin. apply (li_occs _ _ _ I n' i _ k Hin) in E as (q & Hq & El & Ar). eauto 7.
  - intros (k & q & Hq & El & Ar & ->). destruct (proj2 (li_has _ _ _ I n) (ex_intro _ q (conj (nth_error_In _ _ Hq) El))) as (i & Hi). exists (n, i). split; [apply (tget_in _ _ _ _ (li_keys _ _ _ I)); exact Hi|]. cbn [fst snd].
    assert (E : tget (i_occs i) (tx "A") = Some k) by (apply (li_occs _ _ _ I n i _ k Hi); eauto). rewrite E. now left.
Qed.
Lemma main_names_nodup : forall L ds inf posn, LInv L ds inf -> NoDup (map snd (main_names posn inf)).
Proof.
  intros L ds inf posn I. pose proof (li_keys _ _ _ I) as K. revert K. unfold main_names. clear I. induction inf as [|[n i] inf IH]; intros K; [constructor|]. cbn [map fst] in K. inversion K as [|? ? N K']. subst. cbn [flat_map fst snd].
  destruct (tget (i_occs i) (tx "A")) as [k|]; [|now apply IH]. cbn [app map snd]. constructor; [|now apply IH]. intros X. apply N. apply in_map_iff in X as ([p n'] & E & X). cbn in E. subst n'. apply in_flat_map in X as ([n' i'] & Hin & X). cbn [fst snd] in X.
  destruct (tget (i_occs i') (tx "A")); [|destruct X]. destruct X as [X|[]]. injection X as _ <-. apply (in_map fst) in Hin. exact Hin.
Qed.
Lemma ss_map : forall A B (R : A -> A -> Prop) (S : B -> B -> Prop) (f : A -> B) l, (forall x y, In x l -> In y l -> R x y -> S (f x) (f y)) -> StronglySorted R l -> StronglySorted S (map f l).
Proof.
  intros A B R S f l H Ss. induction Ss as [|a l Ss IH F]; cbn [map]; constructor.
  - apply IH. intros x y Hx Hy. apply H; now right.
  - rewrite Forall_forall in *. intros y Hy. apply in_map_iff in Hy as (x & <- & Hx). apply H; [now left|now right|]. now apply F.
Qed.
Lemma ss_filter : forall A (R : A -> A -> Prop) f l, StronglySorted R l -> StronglySorted R (filter f l).
Proof.
  intros A R f l H. induction H as [|a l Ss IH F]; cbn [filter]; [constructor|]. destruct (f a); [|exact IH]. constructor; [exact IH|]. rewrite Forall_forall in *. intros x Hx. apply F. now apply filter_In in Hx.
Qed.
Lemma ss_strict : forall l, StronglySorted le l -> NoDup l -> StronglySorted lt l.
Proof. intros l H. induction H as [|a l Ss IH F]; intros N; [constructor|]. inversion N as [|? ? N1 N2]. subst. constructor; [now apply IH|]. rewrite Forall_forall in *. intros x Hx. specialize (F x Hx). assert (x <> a) by congruence. lia. Qed.

(* ---------- references in the text ---------- *)
Section Nonterminals.
Variable uniword : N -> bool.
(* \w *)
Definition word (c : N) : Prop := is_upper c \/ is_lower c \/ is_digit c \/ c = 95%N \/ ((128 <= c)%N /\ uniword c = true).
Lemma wordc_iff : forall c, wordc uniword c = true <-> word c.
Proof.
  intros c. unfold wordc, word, digit, upper, lowerc, is_upper, is_lower, is_digit. rewrite !orb_true_iff, !andb_true_iff, !N.leb_le, N.eqb_eq. tauto.
Qed.
Lemma word_not : forall c, word c -> c <> 124%N /\ c <> 91%N /\ c <> 63%N.
Proof. intros c [H|[H|[H|[H|[H _]]]]]; unfold is_upper, is_lower, is_digit in H; repeat split; lia. Qed.
(* what may stand between two bars so that they are taken for a reference: two or more characters, the first of a word *)
Definition body (b : text) : Prop := exists c r, b = c :: r /\ word c /\ r <> [] /\ ~ In 124%N r.
(* the references in a text that begins at p *)
Inductive scan : nat -> text -> list (nat * text) -> Prop :=
| Scan_end p : scan p [] []
| Scan_ref p b s l : body b -> scan (p + length b + 2) s l -> scan p (124%N :: b ++ 124%N :: s) ((p, b) :: l)
| Scan_not p c s l : (forall b r, c :: s = 124%N :: b ++ 124%N :: r -> ~ body b) -> scan (S p) s l -> scan p (c :: s) l.

Lemma to_bar_iff : forall s x r, to_bar s = Some (x, r) <-> s = x ++ 124%N :: r /\ ~ In 124%N x.
Proof.
  induction s as [|c s IH]; intros x r; cbn [to_bar]; [split; [discriminate|intros [E _]; destruct x; discriminate]|]. destruct (N.eqb_spec c 124) as [->|N].
  - split; [intros [= <- <-]; split; [reflexivity|intros []]|]. intros [E H]. destruct x as [|d x]; [cbn in E; injection E as ->; reflexivity|]. cbn [app] in E. injection E as <- E. destruct H. now left.
  - destruct (to_bar s) as [[y t]|] eqn:E.
    + split; [intros [= <- <-]; apply IH in E || idtac|].
      * destruct (proj1 (IH y t) eq_refl) as [-> H]. split; [reflexivity|]. intros [X|X]; [congruence|auto].
      * intros [X H]. destruct x as [|d x]; cbn [app] in X; [congruence|]. injection X as <- X. assert (Some (y, t) = Some (x, r)) as Y by (apply IH; split; [exact X|]; intros Z; apply H; now right). injection Y as -> ->. reflexivity.
    + split; [discriminate|]. intros [X H]. destruct x as [|d x]; cbn [app] in X; [congruence|]. injection X as <- X. assert (None = Some (x, r)) as Y by (apply IH; split; [exact X|]; intros Z; apply H; now right). discriminate.
Qed.
Lemma ref_at_iff : forall s b, ref_at uniword s = Some b <-> exists r, s = 124%N :: b ++ 124%N :: r /\ body b.
Proof.
  intros s b. split.
  - intros H. destruct s as [|d [|c s]]; [discriminate|discriminate|]. cbn [ref_at] in H. destruct ((d =? 124)%N && wordc uniword c) eqn:E; [|discriminate]. apply andb_true_iff in E as [E1 E2]. apply N.eqb_eq in E1. subst d. apply wordc_iff in E2.
    destruct (to_bar s) as [[[|x xs] r]|] eqn:T; [discriminate| |discriminate]. injection H as <-. apply to_bar_iff in T as [-> T]. exists r. split; [reflexivity|]. exists c, (x :: xs). split; [reflexivity|]. split; [exact E2|]. split; [discriminate|exact T].
  - intros (r & -> & c & t & -> & W & N & T). cbn [app ref_at]. replace (124 =? 124)%N with true by reflexivity. rewrite (proj2 (wordc_iff c) W). cbn [andb]. rewrite (proj2 (to_bar_iff (t ++ 124%N :: r) t r) (conj eq_refl T)). destruct t; [congruence|reflexivity].
Qed.
Lemma find_skip : forall k s pos, find_refs uniword pos k s = find_refs uniword (pos + min k (length s)) 0 (skipn k s).
Proof.
  induction k as [|k IH]; intros s pos; [cbn; rewrite Nat.add_0_r; reflexivity|]. destruct s as [|c s]; [reflexivity|]. cbn [find_refs skipn length Nat.min]. rewrite IH. f_equal. lia.
Qed.
Lemma find_scan : forall s l pos, scan pos s l <-> find_refs uniword pos 0 s = l.
Proof.
  intros s l pos. split.
  - intros H. induction H as [p|p b s l Hb H IH|p c s l Hn H IH]; [reflexivity| |].
    + cbn [find_refs]. rewrite (proj2 (ref_at_iff (124%N :: b ++ 124%N :: s) b)) by eauto. f_equal. rewrite find_skip. rewrite app_length. cbn [length].
      replace (skipn (S (length b)) (b ++ 124%N :: s)) with s. 2:{ change (S (length b)) with (1 + length b). rewrite <- skipn_skipn. rewrite skipn_app, skipn_all, Nat.sub_diag. reflexivity. }
      replace (S p + Nat.min (S (length b)) (length b + S (length s))) with (p + length b + 2) by lia. exact IH.
    + cbn [find_refs]. destruct (ref_at uniword (c :: s)) as [b|] eqn:E; [|exact IH]. apply ref_at_iff in E as (r & E & Hb). destruct (Hn b r E Hb).
  - intros <-. remember (length s) as n eqn:Hn. assert (Le : length s <= n) by lia. clear Hn. revert s pos Le. induction n as [|n IH]; intros s pos Le; destruct s as [|c s]; cbn [length] in Le; [constructor|lia|constructor|].
    cbn [find_refs]. destruct (ref_at uniword (c :: s)) as [b|] eqn:E.
    + apply ref_at_iff in E as (r & E & Hb). injection E as -> ->. rewrite find_skip, app_length. cbn [length].
      replace (skipn (S (length b)) (b ++ 124%N :: r)) with r. 2:{ change (S (length b)) with (1 + length b). rewrite <- skipn_skipn. rewrite skipn_app, skipn_all, Nat.sub_diag. reflexivity. }
      replace (S pos + Nat.min (S (length b)) (length b + S (length r))) with (pos + length b + 2) by lia. apply Scan_ref; [exact Hb|]. apply IH. rewrite app_length in Le. cbn in Le. lia.
    + apply Scan_not; [|apply IH; lia]. intros b r X Hb. rewrite (proj2 (ref_at_iff (c :: s) b)) in E by eauto. discriminate.
Qed.

(* the name, the arguments: Name, Name?, Name[args], Name[args]? *)
Definition form (b n : text) (args : option text) : Prop :=
  n <> [] /\ Forall word n /\
  ((args = None /\ (b = n \/ b = n ++ [63%N])) \/
   (exists x, args = Some x /\ x <> [] /\ ~ In 10%N x /\ (b = n ++ 91%N :: x ++ [93%N] \/ b = n ++ 91%N :: x ++ [93; 63]%N))).
Lemma take_word_spec : forall s, exists w r, take_word uniword s = (w, r) /\ s = w ++ r /\ Forall word w /\ match r with c :: _ => ~ word c | [] => True end.
Proof.
  induction s as [|c s (w & r & E & Es & F & H)]; [exists [], []; cbn; auto|]. cbn [take_word]. destruct (wordc uniword c) eqn:W.
  - rewrite E. exists (c :: w), r. split; [reflexivity|]. split; [cbn; congruence|]. split; [constructor; [now apply wordc_iff|exact F]|exact H].
  - exists [], (c :: s). split; [reflexivity|]. split; [reflexivity|]. split; [constructor|]. rewrite <- wordc_iff. congruence.
Qed.
Lemma take_word_app : forall w r, Forall word w -> match r with c :: _ => ~ word c | [] => True end -> take_word uniword (w ++ r) = (w, r).
Proof.
  induction w as [|c w IH]; intros r F H; cbn [app].
  - destruct r as [|d r]; [reflexivity|]. cbn [take_word]. destruct (wordc uniword d) eqn:W; [apply wordc_iff in W; contradiction|reflexivity].
  - inversion F as [|? ? F1 F2]. subst. cbn [take_word]. rewrite (proj2 (wordc_iff c) F1), (IH r F2 H). reflexivity.
Qed.
Lemma strip_close_iff : forall t x, strip_close t = Some x <-> t = x ++ [93%N] \/ t = x ++ [93; 63]%N.
Proof.
  intros t x. unfold strip_close. rewrite <- (rev_involutive t). rewrite rev_involutive at 1. destruct (rev t) as [|a l].
  - cbn [rev]. split; [discriminate|]. intros [H|H]; destruct x; discriminate.
  - destruct (N.eq_dec a 63) as [->|Na].
    + destruct l as [|b l]; [|destruct (N.eq_dec b 93) as [->|Nb]].
      * split; [discriminate|]. cbn. intros [H|H]; [apply (f_equal (@rev N)) in H; rewrite rev_app_distr in H; discriminate|destruct x as [|? [|? ?]]; discriminate].
      * cbn [rev]. rewrite <- !app_assoc. cbn [app]. split; [intros [= <-]; now right|]. intros [H|H]; apply (f_equal (@rev N)) in H; rewrite !rev_app_distr in H; cbn in H; [discriminate|]. f_equal. injection H as H. rewrite rev_involutive in H. rewrite H. now rewrite rev_involutive.
      * split; [intros H; exfalso; revert H; destruct b as [|p]; [discriminate|]; do 7 (destruct p as [p|p|]; try discriminate; try (exfalso; apply Nb; reflexivity))|]. intros [H|H]; apply (f_equal (@rev N)) in H; rewrite rev_involutive, rev_app_distr in H; cbn in H; [discriminate|]. injection H as H _. congruence.
    + destruct (N.eq_dec a 93) as [->|Nb].
      * cbn [rev]. split; [intros [= <-]; now left|]. intros [H|H]; apply (f_equal (@rev N)) in H; rewrite !rev_app_distr in H; cbn in H; [|discriminate]. f_equal. injection H as H. rewrite rev_involutive in H. rewrite H. now rewrite rev_involutive.
      * split; [intros H; exfalso; revert H; destruct a as [|p]; [discriminate|]; do 7 (destruct p as [p|p|]; try discriminate; try (exfalso; first [apply Na; reflexivity|apply Nb; reflexivity]))|]. intros [H|H]; apply (f_equal (@rev N)) in H; rewrite rev_involutive, rev_app_distr in H; cbn in H; injection H as H _; congruence.
Qed.
Lemma parse_ref_iff : forall b n args, parse_ref uniword b = Some (n, args) <-> form b n args.
Proof.
  intros b n args. unfold parse_ref. destruct (take_word_spec b) as (w & r & E & Eb & F & H). split.
  - rewrite E. destruct w as [|c w]; [discriminate|]. intros X. assert (K : n = c :: w /\ ((args = None /\ (r = [] \/ r = [63%N])) \/ exists x t, args = Some x /\ r = 91%N :: t /\ strip_close t = Some x /\ x <> [] /\ ~ In 10%N x)).
    { destruct r as [|d t]; [injection X as <- <-; split; auto|]. destruct (N.eq_dec d 63) as [->|N1]; [destruct t; [injection X as <- <-; split; auto|discriminate]|].
      destruct (N.eq_dec d 91) as [->|N2].
      - destruct (strip_close t) as [[|x xs]|] eqn:S; [discriminate| |discriminate]. destruct (existsb (N.eqb 10) (x :: xs)) eqn:Ex; [discriminate|]. injection X as <- <-. split; [reflexivity|]. right. exists (x :: xs), t. split; [reflexivity|]. split; [reflexivity|]. split; [exact S|]. split; [discriminate|].
        intros Y. assert (existsb (N.eqb 10) (x :: xs) = true) by (apply existsb_exists; exists 10%N; split; [exact Y|reflexivity]). congruence.
      - exfalso. revert X. destruct d as [|p]; [discriminate|]. do 7 (destruct p as [p|p|]; try discriminate; try (exfalso; first [apply N1; reflexivity|apply N2; reflexivity])). }
    destruct K as [-> K]. split; [discriminate|]. split; [exact F|]. destruct K as [(-> & [->| ->])|(x & t & -> & -> & S & N & I)].
    + left. rewrite app_nil_r in Eb. auto.
    + left. auto.
    + right. exists x. split; [reflexivity|]. split; [exact N|]. split; [exact I|]. apply strip_close_iff in S as [->| ->]; auto.
  - intros (Nn & Fn & K). assert (Tk : forall r', b = n ++ r' -> match r' with c :: _ => ~ word c | [] => True end -> take_word uniword b = (n, r')) by (intros r' -> Hr; now apply take_word_app). destruct n as [|c n]; [congruence|].
    assert (W1 : ~ word 63%N) by (intros X; apply word_not in X as (_ & _ & X); congruence). assert (W2 : ~ word 91%N) by (intros X; apply word_not in X as (_ & X & _); congruence).
    destruct K as [(-> & [X|X])|(x & -> & Nx & Ix & X)].
    + rewrite (Tk []); [reflexivity|now rewrite app_nil_r|exact Logic.I].
    + rewrite (Tk [63%N]); [reflexivity|exact X|exact W1].
    + assert (exists t, b = (c :: n) ++ 91%N :: t /\ strip_close t = Some x) as (t & Eb' & S) by (destruct X as [X|X]; eexists; (split; [exact X|]); apply strip_close_iff; auto).
      rewrite (Tk (91%N :: t) Eb' W2), S. destruct x as [|y ys]; [congruence|]. destruct (existsb (N.eqb 10) (y :: ys)) eqn:Ex; [|reflexivity]. apply existsb_exists in Ex as (z & Hz & Y). apply N.eqb_eq in Y. subst z. contradiction.
Qed.
Lemma parse_ref_none : forall b, parse_ref uniword b = None <-> forall n args, ~ form b n args.
Proof.
  intros b. split; [intros E n args H; apply parse_ref_iff in H; congruence|]. intros H. destruct (parse_ref uniword b) as [[n args]|] eqn:E; [|reflexivity]. apply parse_ref_iff in E. destruct (H n args E).
Qed.
Lemma form_fun : forall b n args n' args', form b n args -> form b n' args' -> n = n' /\ args = args'.
Proof. intros b n args n' args' H H'. apply parse_ref_iff in H, H'. rewrite H in H'. injection H' as <- <-. auto. Qed.
End Nonterminals.

(* arguments: separated by a comma and any number of spaces *)
Inductive splits : text -> list text -> Prop :=
| Split_last w : ~ In 44%N w -> splits w [w]
| Split_more w k s ws : ~ In 44%N w -> (forall r, s <> 32%N :: r) -> splits s ws -> splits (w ++ 44%N :: repeat 32%N k ++ s) (w :: ws).
Lemma split_word : forall w s, ~ In 44%N w -> split_args false (w ++ s) = match split_args false s with x :: xs => (w ++ x) :: xs | [] => [w] end.
Proof.
  induction w as [|c w IH]; intros s H; cbn [app]; [destruct (split_args false s) eqn:E; [|reflexivity]; exfalso; destruct s as [|d s]; [discriminate|]; cbn [split_args andb] in E; destruct (d =? 44)%N; [discriminate|destruct (split_args false s); discriminate]|].
  cbn [split_args andb]. destruct (N.eqb_spec c 44) as [->|N]; [destruct H; now left|]. rewrite IH by (intros X; apply H; now right). destruct (split_args false s); reflexivity.
Qed.
Lemma split_spaces : forall k s, split_args true (repeat 32%N k ++ s) = split_args true s.
Proof. induction k as [|k IH]; intros s; [reflexivity|]. cbn [repeat app split_args]. exact (IH s). Qed.
Lemma split_true : forall s, (forall r, s <> 32%N :: r) -> split_args true s = split_args false s.
Proof. intros [|c s] H; [reflexivity|]. cbn [split_args]. destruct (c =? 44)%N; [reflexivity|]. destruct (N.eqb_spec c 32) as [->|N]; [destruct (H s eq_refl)|reflexivity]. Qed.
Lemma splits_iff : forall s ws, splits s ws <-> split_args false s = ws.
Proof.
  intros s ws. split.
  - intros H. induction H as [w H|w k s ws H Hs S IH].
    + rewrite <- (app_nil_r w) at 1. rewrite split_word by exact H. cbn. now rewrite app_nil_r.
    + rewrite split_word by exact H. cbn [split_args]. replace (44 =? 44)%N with true by reflexivity. cbv iota. rewrite app_nil_r, split_spaces, split_true by exact Hs. now rewrite IH.
  - intros <-. remember (length s) as n eqn:Hn. assert (Le : length s <= n) by lia. clear Hn. revert s Le. induction n as [|n IH]; intros s Le.
    + destruct s; [|cbn in Le; lia]. cbn. constructor. intros [].
    + assert (C : ~ In 44%N s \/ exists w k r, s = w ++ 44%N :: repeat 32%N k ++ r /\ ~ In 44%N w /\ (forall t, r <> 32%N :: t)).
      { clear. induction s as [|c s IH]; [left; intros []|]. destruct (N.eq_dec c 44) as [->|N].
        - right. assert (exists k r, s = repeat 32%N k ++ r /\ forall t, r <> 32%N :: t) as (k & r & E & H).
          { clear. induction s as [|d s (k & r & E & H)]; [exists 0, []; split; [reflexivity|discriminate]|]. destruct (N.eq_dec d 32) as [->|N]; [exists (S k), r; split; [cbn; congruence|exact H]|]. exists 0, (d :: s). split; [reflexivity|]. congruence. }
          exists [], k, r. split; [cbn; congruence|]. split; [intros []|exact H].
        - destruct IH as [H|(w & k & r & E & H1 & H2)]; [left; intros [X|X]; [congruence|auto]|]. right. exists (c :: w), k, r. split; [cbn; congruence|]. split; [intros [X|X]; [congruence|auto]|exact H2]. }
      destruct C as [H|(w & k & r & E & H1 & H2)].
      * rewrite <- (app_nil_r s) at 2. rewrite split_word by exact H. cbn. rewrite app_nil_r. now constructor.
      * subst s. rewrite split_word by exact H1. cbn [split_args]. replace (44 =? 44)%N with true by reflexivity. cbv iota. rewrite app_nil_r, split_spaces, split_true by exact H2. apply Split_more; [exact H1|exact H2|]. apply IH. rewrite !app_length in Le. cbn in Le. rewrite app_length in Le. lia.
Qed.
(* an argument without its sign *)
Definition signed (a : text) : Prop := exists c r, a = c :: r /\ (c = 63 \/ c = 43 \/ c = 126)%N.
Inductive bare : text -> text -> Prop :=
| Bare_signed c r : (c = 63 \/ c = 43 \/ c = 126)%N -> bare (c :: r) r
| Bare_not a : ~ signed a -> bare a a.
Lemma arg_step_spec : forall pos acc a, (a = [] /\ arg_step pos acc a = ([], Err IndexError)) \/
  (a <> [] /\ exists x, bare a x /\ snd (arg_step pos acc a) = Ok (acc ++ [x]) /\ forall m, In m (fst (arg_step pos acc a)) <-> ~ signed a /\ m = (pos, NoPrefix a)).
Proof.
  intros pos acc [|c r]; [left; auto|]. right. split; [discriminate|]. cbn [arg_step]. destruct (existsb (N.eqb c) [63; 43; 126]%N) eqn:E.
  - assert (S : (c = 63 \/ c = 43 \/ c = 126)%N) by (cbn in E; rewrite !orb_true_iff, !N.eqb_eq in E; intuition discriminate). exists r. split; [now constructor|]. split; [reflexivity|]. intros m. split; [intros []|]. intros [X _]. destruct X. exists c, r. auto.
  - assert (S : ~ signed (c :: r)). { intros (d & t & X & Y). injection X as <- <-. destruct Y as [->|[->| ->]]; discriminate. } exists (c :: r). split; [now constructor|]. split; [reflexivity|]. rewrite mbind_tell. cbn [fst mret app]. intros m. split; [intros [<-|[]]; auto|]. intros [_ ->]. now left.
Qed.
Lemma args_spec : forall pos l acc, let o := mfold (arg_step pos) acc l in
  ((exists l1 l2, l = l1 ++ [] :: l2) /\ snd o = Err IndexError) \/
  (~ In [] l /\ exists xs, Forall2 bare l xs /\ snd o = Ok (acc ++ xs) /\ forall m, In m (fst o) <-> exists a, In a l /\ ~ signed a /\ m = (pos, NoPrefix a)).
Proof.
  intros pos. induction l as [|a l IH]; intros acc o.
  - right. split; [intros []|]. exists []. split; [constructor|]. split; [cbn; now rewrite app_nil_r|]. intros m. split; [intros []|intros (a & [] & _)].
  - unfold o. cbn [mfold]. clear o. destruct (arg_step_spec pos acc a) as [[-> E]|(Na & x & Hb & R & M)].
    + left. split; [exists [], l; reflexivity|]. apply mbind_err. left. rewrite E. reflexivity.
    + specialize (IH (acc ++ [x])). cbv zeta in IH. destruct IH as [((l1 & l2 & ->) & R2)|(N & xs & F & R2 & M2)].
      * left. split; [exists (a :: l1), l2; reflexivity|]. apply mbind_err. right. eauto.
      * right. split; [intros [X|X]; [congruence|auto]|]. exists (x :: xs). split; [constructor; assumption|]. split; [apply mbind_ok; eexists; split; [exact R|]; rewrite R2, <- app_assoc; reflexivity|].
        intros m. rewrite (mbind_msgs _ _ _ _ _ _ R), in_app_iff, M, M2. split.
        -- intros [[H1 H2]|(b & H0 & H1 & H2)]; [exists a; split; [now left|auto]|exists b; split; [now right|auto]].
        -- intros (b & [->|H0] & H1 & H2); [left; auto|right; eauto].
Qed.
Lemma bare_fun : forall a x y, bare a x -> bare a y -> x = y.
Proof.
  intros a x y H H'. inversion H as [c r S|b N]; subst; inversion H' as [c' r' S'|b' N']; subst; try reflexivity.
  - destruct N'. exists c, x. auto.
  - destruct N. exists c', y. auto.
Qed.
Lemma bares_fun : forall l x y, Forall2 bare l x -> Forall2 bare l y -> x = y.
Proof. induction l as [|a l IH]; intros x y H H'; inversion H; inversion H'; subst; [reflexivity|]. f_equal; [eapply bare_fun; eauto|eauto]. Qed.

(* which part of the document a position is taken to be in: the main part, if the text has the mark of annex B and only after it *)
Definition marked (s : text) (k : nat) : Prop := exists pre post, s = pre ++ tx "namespace=""annexB""" ++ post /\ length pre = k.
Inductive part (s : text) (p : nat) : text -> Prop :=
| Part_A k : marked s k -> (forall j, marked s j -> p < j) -> part s p (tx "A")
| Part_B j : marked s j -> j <= p -> part s p (tx "B")
| Part_none : (forall j, ~ marked s j) -> part s p (tx "B").
Lemma find_text_some : forall q s k, find_text q s = Some k -> (exists pre post, s = pre ++ q ++ post /\ length pre = k) /\ forall pre post, s = pre ++ q ++ post -> k <= length pre.
Proof.
  intros q. induction s as [|c s IH]; intros k H.
  - cbn [find_text] in H. destruct (starts q []) eqn:E; [|discriminate]. injection H as <-. apply starts_iff in E as (r & E). split; [exists [], r; auto|lia].
  - cbn [find_text] in H. destruct (starts q (c :: s)) eqn:E.
    + injection H as <-. apply starts_iff in E as (r & E). split; [exists [], r; auto|intros; lia].
    + destruct (find_text q s) as [j|]; [|discriminate]. cbn in H. injection H as <-. destruct (IH j eq_refl) as [(pre & post & -> & El) Hm]. split; [exists (c :: pre), post; cbn; auto|].
      intros [|d pre'] post' X; [exfalso; assert (starts q (c :: pre ++ q ++ post) = true) by (apply starts_iff; eauto); congruence|]. cbn [app] in X. injection X as _ X. cbn. apply le_n_S. eapply Hm; eauto.
Qed.
Lemma find_text_none : forall q s, find_text q s = None -> forall pre post, s <> pre ++ q ++ post.
Proof.
  intros q. induction s as [|c s IH]; intros H pre post X; cbn [find_text] in H.
  - destruct (starts q []) eqn:E; [discriminate|]. destruct pre; [|discriminate]. assert (starts q [] = true) by (apply starts_iff; cbn in X; eauto). congruence.
  - destruct (starts q (c :: s)) eqn:E; [discriminate|]. destruct (find_text q s) eqn:Ef; [discriminate|]. destruct pre as [|d pre]; [assert (starts q (c :: s) = true) by (apply starts_iff; cbn in X; eauto); congruence|]. cbn [app] in X. injection X as _ X. exact (IH eq_refl pre post X).
Qed.
Lemma part_spec : forall s p a, part s p a <-> a = if match find_text (tx "namespace=""annexB""") s with Some k => p <? k | None => false end then tx "A" else tx "B".
Proof.
  intros s p a. destruct (find_text (tx "namespace=""annexB""") s) as [k|] eqn:E.
  - apply find_text_some in E as [(pre & post & E & El) Hm]. assert (Mk : marked s k) by (exists pre, post; auto). destruct (Nat.ltb_spec p k) as [L|G].
    + split; [intros H; inversion H as [j A B|j (pr & po & A & <-) B|A]; subst; [reflexivity|specialize (Hm _ _ A); lia|destruct (A _ Mk)]|]. intros ->. apply (Part_A s p k Mk). intros j (pr & po & A & <-). specialize (Hm _ _ A). lia.
    + split; [intros H; inversion H as [j A B|j A B|A]; subst; [specialize (B _ Mk); lia|reflexivity|reflexivity]|]. intros ->. exact (Part_B s p k Mk G).
  - assert (N : forall j, ~ marked s j) by (intros j (pre & post & X & _); exact (find_text_none _ _ E _ _ X)). split; [intros H; inversion H as [j A B|j A B|A]; subst; [destruct (N _ A)|reflexivity|reflexivity]|]. intros ->. now constructor.
Qed.

Section Check.
Variable uniword : N -> bool.
Variables (L : list site) (ds0 ds : list dprod) (inf : infos).
Hypothesis I : LInv L ds0 inf.
Hypothesis V : view L ds.
Definition is_defined (n : text) : Prop := exists q, In q L /\ lhs q = n.
(* what is reported about the reference b at p *)
Inductive says (s : text) (p : nat) (b : text) : nat * nt_msg -> Prop :=
| Says_malformed : (forall n args, ~ form uniword b n args) -> says s p b (p, Malformed)
| Says_unknown n args : form uniword b n args -> ~ is_defined n -> says s p b (p, Unrecognized n)
| Says_prefix n args ws a : form uniword b n (Some args) -> is_defined n -> splits args ws -> In a ws -> ~ signed a -> says s p b (p, NoPrefix a)
| Says_args n args ws xs q arena : form uniword b n (Some args) -> splits args ws -> Forall2 bare ws xs -> part s p arena -> meant L arena n q -> xs <> p_params (snd q) -> says s p b (p, BadArgs args (p_params (snd q))).
(* what must hold for it to be checked without a failure *)
Definition checkable (s : text) (p : nat) (b : text) : Prop :=
  forall n args ws arena, form uniword b n (Some args) -> is_defined n -> splits args ws -> part s p arena -> ~ In [] ws /\ exists q, meant L arena n q.
Lemma ref_step_spec : forall s p b, let o := ref_step uniword ds inf (find_text (tx "namespace=""annexB""") s) tt (p, b) in
  (checkable s p b /\ snd o = Ok tt /\ forall m, In m (fst o) <-> says s p b m) \/
  (exists n args ws, form uniword b n (Some args) /\ is_defined n /\ splits args ws /\
     ((In [] ws /\ snd o = Err IndexError) \/ (~ In [] ws /\ (exists arena, part s p arena /\ forall q, ~ meant L arena n q) /\ snd o = Err AttributeError))).
Proof.
  intros s p b o. unfold o, ref_step. clear o. destruct (parse_ref uniword b) as [[n args]|] eqn:E.
  2:{ left. pose proof (proj1 (parse_ref_none _ b) E) as N. split; [intros n args ws a H; destruct (N _ _ H)|]. split; [reflexivity|]. cbn. intros m. split; [intros [<-|[]]; now constructor|]. intros H. inversion H; subst; [auto| | |]; exfalso; eapply N; eauto. }
  apply parse_ref_iff in E. destruct (tget inf n) as [i|] eqn:Ei.
  2:{ left. pose proof (proj1 (undefined L ds0 inf I n) Ei) as U. assert (U' : ~ is_defined n) by (intros (q & Hq & El); exact (U q Hq El)).
      split; [intros n' x ws a H Hd; destruct (form_fun _ _ _ _ _ _ E H) as [<- _]; contradiction|]. split; [reflexivity|]. cbn. intros m. split; [intros [<-|[]]; eapply Says_unknown; eauto|].
      intros H. inversion H as [N|n' x H1 H2|n' x ws a H1 H2 H3 H4 H5|n' x ws xs q a H1 H2 H3 H4 H5 H6]; subst.
      - destruct (N _ _ E).
      - destruct (form_fun _ _ _ _ _ _ E H1) as [<- _]. auto.
      - destruct (form_fun _ _ _ _ _ _ E H1) as [<- _]. contradiction.
      - destruct (form_fun _ _ _ _ _ _ E H1) as [<- _]. destruct (U q (proj1 H5) (proj1 (proj2 H5))). }
  assert (D : is_defined n) by (apply (li_has _ _ _ I n); eauto). destruct args as [args|].
  2:{ left. split; [intros n' x ws a H; destruct (form_fun _ _ _ _ _ _ E H) as [_ X]; discriminate|]. split; [reflexivity|]. cbn. intros m. split; [intros []|].
      intros H. inversion H as [N|n' x H1 H2|n' x ws a H1 H2 H3 H4 H5|n' x ws xs q a H1 H2 H3 H4 H5 H6]; subst.
      - destruct (N _ _ E).
      - destruct (form_fun _ _ _ _ _ _ E H1) as [<- _]. contradiction.
      - destruct (form_fun _ _ _ _ _ _ E H1) as [_ X]. discriminate.
      - destruct (form_fun _ _ _ _ _ _ E H1) as [_ X]. discriminate. }
  assert (Sp : splits args (split_args false args)) by now apply splits_iff. pose proof (args_spec p (split_args false args) []) as K. cbv zeta in K. destruct K as [((l1 & l2 & El) & R)|(N & xs & F & R & M)].
  - right. exists n, args, (split_args false args). split; [exact E|]. split; [exact D|]. split; [exact Sp|]. left. split; [rewrite El; apply in_app_iff; right; now left|]. apply mbind_err. now left.
  - cbn [app] in R. set (arena := if _ : bool then tx "A" else tx "B"). assert (Pa : part s p arena) by (now apply part_spec).
    destruct (look_ds L ds0 inf I ds n i arena V Ei) as [(d & q & Hd & Mq & Ed)|(Hd & Nq)].
    + left. split.
      * intros n' x ws a H1 H2 H3 H4. destruct (form_fun _ _ _ _ _ _ E H1) as [<- X]. injection X as <-. apply splits_iff in H3. subst ws. split; [exact N|]. apply part_spec in H4. subst a. exists q. exact Mq.
      * split; [apply mbind_ok; exists xs; split; [exact R|]; rewrite Hd; destruct (texts_eqb xs _); reflexivity|]. intros m. rewrite (mbind_msgs _ _ _ _ _ _ R), in_app_iff, M, Hd, Ed. cbn [fst mtell]. split.
        -- intros [(a & Ha & Ns & ->)|X]; [eapply Says_prefix; eauto|]. destruct (texts_eqb xs (p_params (snd q))) eqn:T; [destruct X|]. destruct X as [<-|[]]. eapply Says_args; eauto. intros Y. apply texts_eqb_iff in Y. congruence.
        -- intros H. inversion H as [N'|n' x H1 H2|n' x ws a H1 H2 H3 H4 H5|n' x ws xs' q' a H1 H2 H3 H4 H5 H6]; subst.
           ++ destruct (N' _ _ E).
           ++ destruct (form_fun _ _ _ _ _ _ E H1) as [<- _]. contradiction.
           ++ destruct (form_fun _ _ _ _ _ _ E H1) as [<- X]. injection X as <-. apply splits_iff in H3. subst ws. left. eauto.
           ++ destruct (form_fun _ _ _ _ _ _ E H1) as [<- X]. injection X as <-. apply splits_iff in H2. subst ws. apply part_spec in H4. subst a. assert (q' = q) by (eapply meant_fun; eauto). subst q'. assert (xs' = xs) by (eapply bares_fun; eauto). subst xs'.
              right. destruct (texts_eqb xs (p_params (snd q))) eqn:T; [apply texts_eqb_iff in T; contradiction|]. now left.
    + right. exists n, args, (split_args false args). split; [exact E|]. split; [exact D|]. split; [exact Sp|]. right. split; [exact N|]. split; [eauto|]. apply mbind_err. right. exists xs. split; [exact R|]. rewrite Hd. reflexivity.
Qed.
End Check.
