(* Specifications and lemmas for M_Sections. *)
From Verif Require Import M_Base L_Base M_Dict L_Dict M_GramCheck L_GramCheck M_Sections.
From Coq Require DecimalNat.

(* ---- decimal numerals ---- *)

Lemma uint_text_inj a : forall b, uint_text a = uint_text b -> a = b.
Proof. induction a; intros b; destruct b; cbn; try discriminate; auto; intros [= E]; f_equal; auto. Qed.
Lemma str_inj n m : str n = str m -> n = m.
Proof. unfold str. intros H. apply uint_text_inj in H. now apply DecimalNat.Unsigned.to_uint_inj in H. Qed.
Lemma uint_text_digits a : forall c, In c (uint_text a) -> (48 <= c <= 57)%N.
Proof. induction a; cbn; try contradiction; intros c [<-|H]; try (apply IHa; exact H); lia. Qed.
Lemma str_digits n c : In c (str n) -> (48 <= c <= 57)%N.
Proof. apply uint_text_digits. Qed.

(* ---- numbers ---- *)

Definition s_elt (s : sec) : elt := match s with Sec e _ _ => e end.
Definition s_id (s : sec) : bool := match s with Sec _ b _ => b end.
Definition s_children (s : sec) : list sec := match s with Sec _ _ cs => cs end.
(* the section at a path (0-based positions among the child sections) *)
Fixpoint sub (s : sec) (p : list nat) : option sec :=
  match p with
  | [] => Some s
  | i :: p' => match nth_error (s_children s) i with Some c => sub c p' | None => None end
  end.
Definition sub_root (cs : list sec) (p : list nat) : option sec :=
  match p with
  | [] => None
  | i :: p' => match nth_error cs i with Some c => sub c p' | None => None end
  end.
Definition suffix (js : list nat) : text := flat_map (fun j => dot :: str (S j)) js.

Fixpoint sec_ind' (P : sec -> Prop) (H : forall e b cs, Forall P cs -> P (Sec e b cs)) (s : sec) : P s :=
  match s with
  | Sec e b cs => H e b cs ((fix go (l : list sec) : Forall P l := match l with [] => Forall_nil P | c :: l' => Forall_cons c (sec_ind' P H c) (go l') end) cs)
  end.

Definition go_r (num : text) : list sec -> nat -> res (list (list nat * text)) :=
  fix go (l : list sec) (child_clause_counter : nat) : res (list (list nat * text)) :=
    match l with
    | [] => Ok []
    | c :: l' =>
      let k := S child_clause_counter in
      do a <- number_r c (num ++ dot :: str k) ;;
      do b <- go l' k ;;
      Ok (map (fun e => (child_clause_counter :: fst e, snd e)) a ++ b)
    end.
Lemma number_r_eq e b cs num : number_r (Sec e b cs) num = if negb b then Err KeyError else do r <- go_r num cs 0 ;; Ok (([], num) :: r).
Proof. reflexivity. Qed.

Definition all_ids (s : sec) : Prop := forall p t, sub s p = Some t -> s_id t = true.
Definition r_spec (s : sec) (num : text) (r : res (list (list nat * text))) : Prop :=
  match r with
  | Ok l => all_ids s /\ NoDup (map fst l) /\ forall p n, In (p, n) l <-> sub s p <> None /\ n = num ++ suffix p
  | Err e => e = KeyError /\ ~ all_ids s
  end.

Lemma map_fst_cons k (a : list (list nat * text)) : map fst (map (fun e => (k :: fst e, snd e)) a) = map (cons k) (map fst a).
Proof. rewrite !map_map. reflexivity. Qed.
Lemma in_map_cons k (a : list (list nat * text)) p n : In (p, n) (map (fun e => (k :: fst e, snd e)) a) <-> exists p', p = k :: p' /\ In (p', n) a.
Proof.
  rewrite in_map_iff. split.
  - intros ((p' & n') & [= <- <-] & H). eauto.
  - intros (p' & -> & H). exists (p', n). auto.
Qed.
Lemma in_fst (a : list (list nat * text)) p : In p (map fst a) <-> exists n, In (p, n) a.
Proof. rewrite in_map_iff. split; [intros ((p' & n) & <- & H); eauto|]. intros (n & H). exists (p, n). auto. Qed.

Lemma go_r_spec num l : Forall (fun s => forall num, r_spec s num (number_r s num)) l -> forall k,
  match go_r num l k with
  | Ok r => (forall c, In c l -> all_ids c) /\ NoDup (map fst r) /\
      forall p n, In (p, n) r <-> exists j p' c, p = (k + j) :: p' /\ nth_error l j = Some c /\ sub c p' <> None /\ n = num ++ suffix p
  | Err e => e = KeyError /\ exists c, In c l /\ ~ all_ids c
  end.
Proof.
  induction 1 as [|c l Hc Hl IH]; intros k; cbn [go_r].
  - split; [intros c []|]. split; [constructor|]. intros p n. split; [intros []|]. intros (j & p' & c & _ & H & _). destruct j; discriminate.
  - specialize (Hc (num ++ dot :: str (S k))). cbv zeta. destruct (number_r c _) as [a|e]; cbn [bind].
    2:{ destruct Hc as [-> Hc]. split; [reflexivity|]. exists c. split; [now left|exact Hc]. }
    destruct Hc as (Hid & Hn & HI). specialize (IH (S k)). fold (go_r num). destruct (go_r num l (S k)) as [b|e]; cbn [bind].
    2:{ destruct IH as [-> (c' & Hc' & Hn')]. split; [reflexivity|]. exists c'. split; [now right|exact Hn']. }
    destruct IH as (Hid' & Hn' & HI'). split; [intros c' [<-|H]; auto|]. split.
    + rewrite map_app, map_fst_cons. apply NoDup_app_intro; [apply NoDup_map_inj; [congruence|exact Hn]|exact Hn'|].
      intros p Hp Hp'. rewrite in_map_iff in Hp. destruct Hp as (p1 & <- & _). apply in_fst in Hp' as (n & H). apply HI' in H as (j & p' & c' & [= E _] & _). lia.
    + intros p n. rewrite in_app_iff, in_map_cons, HI'. split.
      * intros [(p' & -> & H)|(j & p' & c' & -> & H1 & H2 & H3)].
        -- apply HI in H as [H1 ->]. exists 0, p', c. rewrite Nat.add_0_r. split; [reflexivity|]. split; [reflexivity|]. split; [exact H1|]. cbn [suffix flat_map]. now rewrite <- app_assoc.
        -- exists (S j), p', c'. rewrite Nat.add_succ_r. auto.
      * intros ([|j] & p' & c' & -> & H1 & H2 & H3).
        -- left. exists p'. rewrite Nat.add_0_r in *. split; [reflexivity|]. apply HI. injection H1 as <-. split; [exact H2|]. rewrite H3. cbn [suffix flat_map]. now rewrite <- app_assoc.
        -- right. exists j, p', c'. rewrite Nat.add_succ_r in *. auto.
Qed.
Lemma number_r_spec s : forall num, r_spec s num (number_r s num).
Proof.
  induction s as [e b cs IH] using sec_ind'. intros num. rewrite number_r_eq. destruct b; cbn [negb].
  2:{ split; [reflexivity|]. intros H. specialize (H [] _ eq_refl). discriminate. }
  pose proof (go_r_spec num cs IH 0) as HG. destruct (go_r num cs 0) as [r|e']; cbn [bind r_spec].
  - destruct HG as (Hid & Hn & HI). split.
    + intros [|i p] t; cbn [sub s_children]; [intros [= <-]; reflexivity|]. destruct (nth_error cs i) as [c|] eqn:E; [|discriminate]. intros H. eapply Hid; [|exact H]. eapply nth_error_In; exact E.
    + split.
      * cbn [map fst]. constructor; [|exact Hn]. intros H. apply in_fst in H as (n & H). apply HI in H as (j & p' & c & Q & _). discriminate.
      * intros p n. cbn [In]. rewrite HI. split.
        -- intros [[= <- <-]|(j & p' & c & -> & H1 & H2 & ->)]; [split; [discriminate|now rewrite app_nil_r]|]. split; [|reflexivity]. cbn [sub s_children Nat.add]. now rewrite H1.
        -- intros [H ->]. destruct p as [|i p]; [left; cbn; now rewrite app_nil_r|]. right. cbn [sub s_children] in H. destruct (nth_error cs i) as [c|] eqn:E; [|contradiction].
           exists i, p, c. auto.
  - destruct HG as [-> (c & Hc & Hn)]. split; [reflexivity|]. intros H. apply Hn. intros p t Hp. apply In_nth_error in Hc as (i & Hi). apply (H (i :: p) t). cbn [sub s_children]. now rewrite Hi.
Qed.

(* ---- the root ---- *)

Definition is_elt (e : elt) (s : sec) : bool := match e, s_elt s with Intro, Intro | Clause, Clause | Annex, Annex | OtherElt, OtherElt => true | _, _ => false end.
Definition count (e : elt) (l : list sec) : nat := length (filter (is_elt e) l).
(* the number of the child at position i of the root, c clauses and a annexes having come before the list *)
Definition top_number (cc ac : nat) (l : list sec) (i : nat) (e : elt) : text :=
  match e with
  | Intro => [48%N]
  | Clause => str (S (cc + count Clause (firstn i l)))
  | Annex => [(65 + N.of_nat (ac + count Annex (firstn i l)))%N]
  | OtherElt => []
  end.
Lemma number_root_spec l : forall i cc ac, ac <= 26 ->
  match number_root l i cc ac with
  | Ok r => (forall c, In c l -> all_ids c /\ s_elt c <> OtherElt) /\ ac + count Annex l <= 26 /\ NoDup (map fst r) /\
      forall p n, In (p, n) r <-> exists j p' c, p = (i + j) :: p' /\ nth_error l j = Some c /\ sub c p' <> None /\ n = top_number cc ac l j (s_elt c) ++ suffix p'
  | Err KeyError => exists c, In c l /\ ~ all_ids c
  | Err IndexError => 26 < ac + count Annex l
  | Err AssertionError => exists c, In c l /\ s_elt c = OtherElt
  | Err _ => False
  end.
Proof.
  induction l as [|c l IH]; intros i cc ac Ha.
  - cbn [number_root]. split; [intros c []|]. split; [cbn; lia|]. split; [constructor|]. intros p n. split; [intros []|]. intros (j & p' & c & _ & H & _). destruct j; discriminate.
  - assert (K : forall sn cc' ac', ac' <= 26 -> s_elt c <> OtherElt -> ac' + count Annex l = ac + count Annex (c :: l) -> sn = top_number cc ac (c :: l) 0 (s_elt c) ->
      (forall j e, top_number cc' ac' l j e = top_number cc ac (c :: l) (S j) e) ->
      match (do a <- number_r c sn ;; do b <- number_root l (S i) cc' ac' ;; Ok (map (fun e => (i :: fst e, snd e)) a ++ b)) with
      | Ok r => (forall c', In c' (c :: l) -> all_ids c' /\ s_elt c' <> OtherElt) /\ ac + count Annex (c :: l) <= 26 /\ NoDup (map fst r) /\
          forall p n, In (p, n) r <-> exists j p' c', p = (i + j) :: p' /\ nth_error (c :: l) j = Some c' /\ sub c' p' <> None /\ n = top_number cc ac (c :: l) j (s_elt c') ++ suffix p'
      | Err KeyError => exists c', In c' (c :: l) /\ ~ all_ids c'
      | Err IndexError => 26 < ac + count Annex (c :: l)
      | Err AssertionError => exists c', In c' (c :: l) /\ s_elt c' = OtherElt
      | Err _ => False
      end).
    { intros sn cc' ac' Ha' Hno Hcount Hsn Htop. pose proof (number_r_spec c sn) as Hr. destruct (number_r c sn) as [a|e]; cbn [bind].
      2:{ destruct Hr as [-> Hr]. exists c. split; [now left|exact Hr]. }
      destruct Hr as (Hid & Hn & HI). specialize (IH (S i) cc' ac' Ha'). destruct (number_root l (S i) cc' ac') as [b|e]; cbn [bind].
      2:{ destruct e; try exact IH.
          - destruct IH as (c' & H1 & H2). exists c'. split; [now right|exact H2].
          - destruct IH as (c' & H1 & H2). exists c'. split; [now right|exact H2].
          - lia. }
      destruct IH as (Hids & Hcnt & Hn' & HI'). split; [intros c' [<-|H]; auto|]. split; [lia|]. split.
      - rewrite map_app, map_fst_cons. apply NoDup_app_intro; [apply NoDup_map_inj; [congruence|exact Hn]|exact Hn'|].
        intros p Hp Hp'. rewrite in_map_iff in Hp. destruct Hp as (p1 & <- & _). apply in_fst in Hp' as (n & H). apply HI' in H as (j & p' & c' & [= E _] & _). lia.
      - intros p n. rewrite in_app_iff, in_map_cons, HI'. split.
        + intros [(p' & -> & H)|(j & p' & c' & -> & H1 & H2 & H3)].
          * apply HI in H as [H1 ->]. exists 0, p', c. rewrite Nat.add_0_r, <- Hsn. auto.
          * exists (S j), p', c'. rewrite Nat.add_succ_r, <- Htop. auto.
        + intros ([|j] & p' & c' & -> & H1 & H2 & ->).
          * left. exists p'. rewrite Nat.add_0_r in *. split; [reflexivity|]. apply HI. injection H1 as <-. split; [exact H2|]. now rewrite Hsn.
          * right. exists j, p', c'. rewrite Nat.add_succ_r, <- Htop in *. auto. }
    cbn [number_root]. destruct c as [e b cs]. destruct e; cbn [bind].
    + apply K; auto; discriminate.
    + apply K; auto; [discriminate|cbn; now rewrite Nat.add_0_r|]. intros j e. destruct e; cbn; try reflexivity. now rewrite Nat.add_succ_r.
    + destruct (ac <? 26) eqn:E; cbn [bind].
      * apply Nat.ltb_lt in E. apply K; auto; [discriminate|cbn; unfold count; lia|cbn; now rewrite Nat.add_0_r|]. intros j e. destruct e; try reflexivity. cbn [top_number firstn]. unfold count. cbn [filter is_elt s_elt length]. rewrite Nat.add_succ_r. reflexivity.
      * apply Nat.ltb_ge in E. unfold count. cbn. lia.
    + eexists. split; [now left|reflexivity].
Qed.

(* ---- uniqueness ---- *)

Lemma app_dot a a' r r' : ~ In dot a -> ~ In dot a' -> (r = [] \/ exists t, r = dot :: t) -> (r' = [] \/ exists t, r' = dot :: t) -> a ++ r = a' ++ r' -> a = a' /\ r = r'.
Proof.
  revert a'. induction a as [|x a IH]; intros [|y a'] H H' Hr Hr'; cbn.
  - auto.
  - intros ->. exfalso. destruct Hr as [Q|(t & [= -> _])]; [discriminate|]. apply H'. now left.
  - intros <-. exfalso. destruct Hr' as [Q|(t & [= -> _])]; [discriminate|]. apply H. now left.
  - intros [= -> E]. apply IH in E as [-> ->]; auto; intros Q; [apply H|apply H']; now right.
Qed.
Lemma str_nodot n : ~ In dot (str n).
Proof. intros H. apply str_digits in H. lia. Qed.
Lemma suffix_head js : suffix js = [] \/ exists t, suffix js = dot :: t.
Proof. destruct js as [|j js]; [now left|]. right. cbn. eauto. Qed.
Lemma suffix_inj js : forall js', suffix js = suffix js' -> js = js'.
Proof.
  induction js as [|j js IH]; intros [|j' js']; cbn [suffix flat_map]; try discriminate; auto. cbn [app]. intros [= E].
  apply app_dot in E as [E1 E2]; auto using str_nodot, suffix_head. apply str_inj in E1. injection E1 as ->. f_equal. now apply IH.
Qed.
Lemma nat_same (a b k : N) : (a + k = b + k)%N -> a = b. Proof. lia. Qed.
Lemma top_nodot l i e : ~ In dot (top_number 0 0 l i e).
Proof. destruct e; cbn [top_number]; [cbn; intuition discriminate|apply str_nodot| |tauto]. intros [H|[]]. lia. Qed.
Lemma count_app e a b : count e (a ++ b) = count e a + count e b.
Proof. unfold count. now rewrite filter_app, app_length. Qed.
Lemma count_lt e l : forall i j c d, i < j -> nth_error l i = Some c -> nth_error l j = Some d -> s_elt c = e -> count e (firstn i l) < count e (firstn j l).
Proof.
  induction l as [|x l IH]; intros i j c d Hij Hi Hj He; [destruct i; discriminate|]. destruct j as [|j]; [lia|]. destruct i as [|i].
  - injection Hi as ->. cbn [firstn]. unfold count. cbn [filter]. assert (is_elt e c = true) as -> by (unfold is_elt; rewrite He; now destruct e). cbn. lia.
  - cbn [firstn] in *. specialize (IH i j c d). cbn in Hi, Hj. assert (i < j) as Hij' by lia. specialize (IH Hij' Hi Hj He).
    change (x :: firstn i l) with ([x] ++ firstn i l). change (x :: firstn j l) with ([x] ++ firstn j l). rewrite !count_app. lia.
Qed.
Lemma top_inj l i j c d : count Intro l <= 1 -> nth_error l i = Some c -> nth_error l j = Some d -> s_elt c <> OtherElt -> s_elt d <> OtherElt ->
  top_number 0 0 l i (s_elt c) = top_number 0 0 l j (s_elt d) -> i = j.
Proof.
  intros HI Hi Hj Hc Hd E. destruct (Nat.lt_trichotomy i j) as [Hlt|[Heq|Hlt]]; [|exact Heq|].
  - destruct (s_elt c) eqn:Ec, (s_elt d) eqn:Ed; cbn [top_number Nat.add] in E; try contradiction; try discriminate.
    + exfalso. pose proof (count_lt Intro l i j c d Hlt Hi Hj Ec). assert (count Intro (firstn j l) + 1 <= count Intro l); [|lia].
      rewrite <- (firstn_skipn j l) at 2. rewrite count_app. apply Nat.add_le_mono_l. assert (exists t, skipn j l = d :: t) as [t ->].
      { clear -Hj. revert j Hj. induction l as [|x l IH]; intros [|j] H; cbn in *; try discriminate; [injection H as ->; eauto|auto]. }
      unfold count. cbn [filter]. unfold is_elt. rewrite Ed. cbn. lia.
    + exfalso. change [48%N] with (str 0) in E. apply str_inj in E. discriminate.
    + exfalso. apply (f_equal (hd 0%N)) in E. cbn [hd] in E. lia.
    + exfalso. change [48%N] with (str 0) in E. apply str_inj in E. discriminate.
    + exfalso. apply str_inj in E. pose proof (count_lt Clause l i j c d Hlt Hi Hj Ec). lia.
    + exfalso. assert (In (65 + N.of_nat (count Annex (firstn j l)))%N (str (S (count Clause (firstn i l))))) as Q by (rewrite E; now left). apply str_digits in Q. lia.
    + exfalso. apply (f_equal (hd 0%N)) in E. cbn [hd] in E. lia.
    + exfalso. assert (In (65 + N.of_nat (count Annex (firstn i l)))%N (str (S (count Clause (firstn j l))))) as Q by (rewrite <- E; now left). apply str_digits in Q. lia.
    + exfalso. apply (f_equal (hd 0%N)) in E. cbn [hd] in E. pose proof (count_lt Annex l i j c d Hlt Hi Hj Ec). lia.
  - destruct (s_elt c) eqn:Ec, (s_elt d) eqn:Ed; cbn [top_number Nat.add] in E; try contradiction; try discriminate.
    + exfalso. pose proof (count_lt Intro l j i d c Hlt Hj Hi Ed). assert (count Intro (firstn i l) + 1 <= count Intro l); [|lia].
      rewrite <- (firstn_skipn i l) at 2. rewrite count_app. apply Nat.add_le_mono_l. assert (exists t, skipn i l = c :: t) as [t ->].
      { clear -Hi. revert i Hi. induction l as [|x l IH]; intros [|i] H; cbn in *; try discriminate; [injection H as ->; eauto|auto]. }
      unfold count. cbn [filter]. unfold is_elt. rewrite Ec. cbn. lia.
    + exfalso. change [48%N] with (str 0) in E. apply str_inj in E. discriminate.
    + exfalso. apply (f_equal (hd 0%N)) in E. cbn [hd] in E. lia.
    + exfalso. change [48%N] with (str 0) in E. apply str_inj in E. discriminate.
    + exfalso. apply str_inj in E. pose proof (count_lt Clause l j i d c Hlt Hj Hi Ed). lia.
    + exfalso. assert (In (65 + N.of_nat (count Annex (firstn j l)))%N (str (S (count Clause (firstn i l))))) as Q by (rewrite E; now left). apply str_digits in Q. lia.
    + exfalso. apply (f_equal (hd 0%N)) in E. cbn [hd] in E. lia.
    + exfalso. assert (In (65 + N.of_nat (count Annex (firstn i l)))%N (str (S (count Clause (firstn j l))))) as Q by (rewrite <- E; now left). apply str_digits in Q. lia.
    + exfalso. apply (f_equal (hd 0%N)) in E. cbn [hd] in E. pose proof (count_lt Annex l j i d c Hlt Hj Hi Ed). lia.
Qed.

(* ---- the parts of a section ---- *)

Definition relevant (c : hnode) : bool := match c with H1 | OtherBlock _ => true | _ => false end.
Definition is_h2 (c : hnode) : bool := match c with H2 _ => true | _ => false end.
Definition is_section (c : hnode) : bool := match c with Section_ _ _ _ => true | _ => false end.
(* the numless parts, written out again *)
Definition unfold_numless (l : list (nat * list hnode)) : list hnode := flat_map (fun p => H2 (fst p) :: snd p) l.
Fixpoint before_h2 (cs : list hnode) : list hnode := match cs with [] => [] | c :: cs' => if is_h2 c then [] else c :: before_h2 cs' end.
Fixpoint from_h2 (cs : list hnode) : list hnode := match cs with [] => [] | c :: cs' => if is_h2 c then cs else from_h2 cs' end.

Lemma before_from cs : cs = before_h2 cs ++ from_h2 cs.
Proof. induction cs as [|c cs IH]; cbn; [reflexivity|]. destruct (is_h2 c); cbn; [reflexivity|]. now rewrite <- IH. Qed.
Lemma add_last_snoc l t b c : add_last (l ++ [(t, b)]) c = l ++ [(t, b ++ [c])].
Proof. induction l as [|p l IH]; cbn; [reflexivity|]. destruct p as [t0 b0]. rewrite IH. destruct l; reflexivity. Qed.
Lemma place_after cs : forall b l t blk s, fold_left place cs (mkParts b (l ++ [(t, blk)]) s) =
   mkParts b (numless_children (fold_left place cs (mkParts b (l ++ [(t, blk)]) s))) (s ++ filter is_section cs) /\
   exists l', numless_children (fold_left place cs (mkParts b (l ++ [(t, blk)]) s)) = l ++ l' /\
     unfold_numless l' = H2 t :: blk ++ filter (fun c => is_h2 c || relevant c) cs.
Proof.
  induction cs as [|c cs IH]; intros b l t blk s; cbn [fold_left].
  - cbn. rewrite app_nil_r. split; [reflexivity|]. exists [(t, blk)]. split; [reflexivity|]. cbn. now rewrite !app_nil_r.
  - assert (NE : forall X (x y : X), match numless_children (mkParts b (l ++ [(t, blk)]) s) with [] => x | _ :: _ => y end = y) by (intros; cbn; destruct l; reflexivity).
    assert (B : relevant c = true -> place (mkParts b (l ++ [(t, blk)]) s) c = mkParts b (l ++ [(t, blk ++ [c])]) s).
    { intros H. unfold place. destruct c; try discriminate; rewrite NE; cbn [block_children numless_children section_children]; now rewrite add_last_snoc. }
    destruct c as [| | |ti|o|e hid ch].
    + cbn [place]. exact (IH b l t blk s).
    + cbn [place]. exact (IH b l t blk s).
    + rewrite B by reflexivity. destruct (IH b l t (blk ++ [H1]) s) as [E (l' & E1 & E2)]. split; [exact E|]. exists l'. split; [exact E1|]. rewrite E2. cbn. now rewrite <- app_assoc.
    + cbn [place block_children numless_children section_children]. destruct (IH b (l ++ [(t, blk)]) ti [] s) as [E (l' & E1 & E2)]. split; [exact E|]. exists ((t, blk) :: l'). split; [rewrite E1, <- app_assoc; reflexivity|].
      cbn [unfold_numless flat_map fst snd]. fold (unfold_numless l'). rewrite E2. cbn. reflexivity.
    + rewrite B by reflexivity. destruct (IH b l t (blk ++ [OtherBlock o]) s) as [E (l' & E1 & E2)]. split; [exact E|]. exists l'. split; [exact E1|]. rewrite E2. cbn. now rewrite <- app_assoc.
    + cbn [place block_children numless_children section_children]. destruct (IH b l t blk (s ++ [Section_ e hid ch])) as [E (l' & E1 & E2)]. split; [rewrite E at 1; cbn; now rewrite <- app_assoc|].
      exists l'. split; [exact E1|]. exact E2.
Qed.
Lemma place_before cs : forall b s, exists nl, fold_left place cs (mkParts b [] s) = mkParts (b ++ filter relevant (before_h2 cs)) nl (s ++ filter is_section cs) /\
   unfold_numless nl = filter (fun c => is_h2 c || relevant c) (from_h2 cs).
Proof.
  induction cs as [|c cs IH]; intros b s; cbn [fold_left].
  - exists []. cbn. now rewrite !app_nil_r.
  - destruct c as [| | |ti|o|e hid ch]; cbn [place block_children numless_children section_children].
    + destruct (IH b s) as (nl & E1 & E2). exists nl. split; [exact E1|exact E2].
    + destruct (IH b s) as (nl & E1 & E2). exists nl. split; [exact E1|exact E2].
    + destruct (IH (b ++ [H1]) s) as (nl & E1 & E2). exists nl. split; [rewrite E1; cbn; now rewrite <- app_assoc|exact E2].
    + destruct (place_after cs b [] ti [] s) as [E (l' & E1 & E2)]. cbn [app] in *. rewrite E, E1. exists l'. cbn. rewrite app_nil_r. split; [reflexivity|]. rewrite E2. reflexivity.
    + destruct (IH (b ++ [OtherBlock o]) s) as (nl & E1 & E2). exists nl. split; [rewrite E1; cbn; now rewrite <- app_assoc|exact E2].
    + destruct (IH b (s ++ [Section_ e hid ch])) as (nl & E1 & E2). exists nl. split; [rewrite E1; cbn; now rewrite <- app_assoc|exact E2].
Qed.
Lemma place_blocks p c : Forall (fun nb => Forall (fun x => relevant x = true) (snd nb)) (numless_children p) ->
  Forall (fun nb => Forall (fun x => relevant x = true) (snd nb)) (numless_children (place p c)).
Proof.
  intros H. assert (A : forall l x, relevant x = true -> Forall (fun nb => Forall (fun x => relevant x = true) (snd nb)) l -> Forall (fun nb : nat * list hnode => Forall (fun x => relevant x = true) (snd nb)) (add_last l x)).
  { induction l as [|[t b] l IH]; intros x Hx Hl; cbn [add_last]; [constructor|]. inversion Hl; subst. destruct l.
    - constructor; [|constructor]. cbn in *. apply Forall_app. split; [assumption|]. constructor; [exact Hx|constructor].
    - constructor; [assumption|]. apply IH; assumption. }
  destruct c; cbn [place]; auto.
  - destruct (numless_children p) eqn:E; cbn [numless_children]; [constructor|]. apply A; [reflexivity|]. exact H.
  - cbn [numless_children]. apply Forall_app. split; [exact H|]. repeat constructor.
  - destruct (numless_children p) eqn:E; cbn [numless_children]; [constructor|]. apply A; [reflexivity|]. exact H.
Qed.
Lemma classify_spec cs : let p := classify cs in
  block_children p = filter relevant (before_h2 cs) /\ section_children p = filter is_section cs /\
  unfold_numless (numless_children p) = filter (fun c => is_h2 c || relevant c) (from_h2 cs) /\
  Forall (fun nb => Forall (fun x => relevant x = true) (snd nb)) (numless_children p).
Proof.
  intros p. destruct (place_before cs [] []) as (nl & E1 & E2). unfold p, classify. split; [now rewrite E1|]. split; [now rewrite E1|]. split; [now rewrite E1|].
  clear. assert (forall p, Forall (fun nb => Forall (fun x => relevant x = true) (snd nb)) (numless_children p) -> Forall (fun nb => Forall (fun x => relevant x = true) (snd nb)) (numless_children (fold_left place cs p))) as K.
  { induction cs as [|c cs IH]; intros p Hp; cbn; [exact Hp|]. apply IH. now apply place_blocks. }
  apply K. constructor.
Qed.
(* the first block of the section, before any h2, is an h1; so for the sections in it *)
Inductive well_headed : hnode -> Prop :=
| wh e b cs rest : filter relevant (before_h2 cs) = H1 :: rest -> (forall c, In c cs -> is_section c = true -> well_headed c) -> well_headed (Section_ e b cs).

Fixpoint hnode_ind' (P : hnode -> Prop) (Ho : forall c, is_section c = false -> P c) (H : forall e b cs, Forall P cs -> P (Section_ e b cs)) (s : hnode) : P s :=
  match s as s return P s with
  | Section_ e b cs => H e b cs ((fix go (l : list hnode) : Forall P l := match l with [] => Forall_nil P | c :: l' => Forall_cons c (hnode_ind' P Ho H c) (go l') end) cs)
  | White => Ho White eq_refl
  | Comment => Ho Comment eq_refl
  | H1 => Ho H1 eq_refl
  | H2 t => Ho (H2 t) eq_refl
  | OtherBlock o => Ho (OtherBlock o) eq_refl
  end.
Definition go_tree : list hnode -> res (list parts) :=
  fix go (l : list hnode) : res (list parts) :=
    match l with
    | [] => Ok []
    | c :: l' => match c with
                 | Section_ _ _ _ => do a <- make_tree c ;; do b <- go l' ;; Ok (a ++ b)
                 | _ => go l'
                 end
    end.
Lemma make_tree_eq e b cs : make_tree (Section_ e b cs) = do p <- take_heading (classify cs) ;; do r <- go_tree cs ;; Ok (p :: r).
Proof. reflexivity. Qed.
Lemma take_heading_ok p q : take_heading p = Ok q <-> block_children p = H1 :: block_children q /\ numless_children q = numless_children p /\ section_children q = section_children p.
Proof.
  unfold take_heading. destruct p as [b n s], q as [b' n' s']. cbn. destruct b as [|[] b]; try (split; [discriminate|intros [Q _]; discriminate]).
  split; [intros [= <- <- <-]; auto|]. intros ([= ->] & -> & ->). reflexivity.
Qed.
Lemma make_tree_ok s : (exists r, make_tree s = Ok r) <-> (is_section s = true -> well_headed s).
Proof.
  induction s as [c Hc|e b cs IH] using hnode_ind'.
  - split; [intros _ Q; congruence|]. intros _. destruct c; try discriminate; cbn; eauto.
  - rewrite make_tree_eq. assert (G : (exists r, go_tree cs = Ok r) <-> forall c, In c cs -> is_section c = true -> well_headed c).
    { induction IH as [|c cs Hc _ IHcs]; cbn [go_tree]; [split; [intros _ c []|eauto]|]. fold go_tree. destruct (is_section c) eqn:Ec.
      - destruct c; try discriminate. split.
        + intros (r & H). apply bind_ok in H as (a & Ea & H). apply bind_ok in H as (bb & Eb & _). intros c [<-|Hin] Hs; [apply Hc; eauto|]. apply (proj1 IHcs); eauto.
        + intros H. destruct (proj2 Hc) as (a & ->); [intros _; apply H; [now left|reflexivity]|]. destruct (proj2 IHcs) as (bb & ->); [intros c Hin Hs; apply H; [now right|exact Hs]|]. cbn. eauto.
      - assert (match c with Section_ _ _ _ => do a <- make_tree c ;; do b0 <- go_tree cs ;; Ok (a ++ b0) | _ => go_tree cs end = go_tree cs) as -> by (destruct c; try reflexivity; discriminate).
        rewrite IHcs. split; intros H c' Hin Hs; [destruct Hin as [<-|Hin]; [congruence|auto]|apply H; [now right|exact Hs]]. }
    destruct (classify_spec cs) as (HB & HS & _). split.
    + intros (r & H) _. apply bind_ok in H as (p & Ep & H). apply bind_ok in H as (r' & Er & _). apply take_heading_ok in Ep as (Ep & _). rewrite HB in Ep. econstructor; [exact Ep|]. apply G. eauto.
    + intros H. specialize (H eq_refl). inversion H as [? ? ? rest Hf Hc]; subst. destruct (proj2 G Hc) as (r & ->). unfold take_heading. rewrite HB, Hf. cbn. eauto.
Qed.
