(* Specification of the check of ids, continued: references, and the check as a whole. *)
From Coq Require Import Ascii String Sorted Permutation.
From Verif Require Import M_Base L_Base M_HTML M_Records L_Records M_Ids L_Ids.
Open Scope list_scope.
Notation length := List.length.

(* the element r is a reference to the id x *)
Definition refers (r : node) (x : text) : Prop := ename r = tx "emu-xref" /\ attr r (tx "href") (tx "#" ++ x).
Definition imported : list text :=
  [tx "table-binary-unicode-properties"; tx "table-nonbinary-unicode-properties"; tx "table-binary-unicode-properties-of-strings";
   tx "table-unicode-general-category-values"; tx "table-unicode-script-values"].
Definition plain_targets : list text := [tx "emu-clause"; tx "emu-annex"; tx "emu-table"; tx "emu-alg"; tx "emu-note"].
Definition exempt : list text := [tx "emu-intro"; tx "emu-clause"; tx "emu-annex"; tx "emu-figure"; tx "emu-table"; tx "dfn"; tx "emu-eqn"].

Section Refs.
Variable target : text -> node -> Prop.      (* which element an id stands for *)

Definition ok_ref (r : node) : Prop :=
  ename r = tx "emu-xref" -> exists x, attr r (tx "href") (tx "#" ++ x) /\ forall def, target x def -> ename def = tx "dfn" -> inner def <> [].
Definition about_ref (r : node) (k : nat) (w : what) : Prop :=
  exists x, refers r x /\
  ((exists def, target x def /\ ename def = tx "dfn" /\ inner r = [] /\ k = num r /\ w = UnneededEmpty (inner def) x) \/
   (exists def, target x def /\ ename def = tx "dfn" /\ inner r <> [] /\
      (inner r = inner def \/ exists v, attr def (tx "variants") v /\ In (inner r) (split_comma v)) /\ k = num r /\ w = UnneededTags (inner r) x) \/
   (exists def, target x def /\ ~ In (ename def) plain_targets /\ ename def <> tx "dfn" /\ k = num def /\ w = UnexpectedDef (ename def)) \/
   ((~ exists def, target x def) /\ ~ In x imported /\ k = num r /\ w = Nonexistent x)).
End Refs.

Definition refs_of (ns : list node) : list text :=
  flat_map (fun r => if text_eqb (ename r) (tx "emu-xref") then match tget (attrs r) (tx "href") with Some h => [tl h] | None => [] end else []) ns.

Lemma about_ref_ext : forall (P Q : text -> node -> Prop) r k w, (forall x n, P x n <-> Q x n) -> about_ref P r k w -> about_ref Q r k w.
Proof.
  intros P Q r k w H (x & Hr & C). exists x. split; [exact Hr|].
  destruct C as [(d & A & B)|[(d & A & B)|[(d & A & B)|(A & B)]]].
  - left. exists d. rewrite <- H. auto.
  - right. left. exists d. rewrite <- H. auto.
  - right. right. left. exists d. rewrite <- H. auto.
  - right. right. right. split; [|exact B]. intros (d & Hd). apply A. exists d. now apply H.
Qed.
Lemma ok_ref_ext : forall (P Q : text -> node -> Prop) r, (forall x n, P x n <-> Q x n) -> ok_ref P r -> ok_ref Q r.
Proof. intros P Q r H O E. destruct (O E) as (x & A & B). exists x. split; [exact A|]. intros def Hd. apply B. now apply H. Qed.

Lemma ref_spec : forall d rs r,
  match snd (ref_one d rs r) with
  | Err e => ~ ok_ref (fun x n => tget d x = Some n) r /\ (e = AssertionError \/ (e = SystemExit /\ ename r = tx "emu-xref" /\ tget (attrs r) (tx "href") = None))
  | Ok rs' => ok_ref (fun x n => tget d x = Some n) r /\ rs' = rs ++ refs_of [r] /\
      forall k w, In (k, w) (fst (ref_one d rs r)) <-> about_ref (fun x n => tget d x = Some n) r k w
  end.
Proof.
  intros d rs r. unfold ref_one, refs_of. cbn [flat_map]. rewrite app_nil_r.
  destruct (text_eqb (ename r) (tx "emu-xref")) eqn:Ex.
  2:{ apply teqb_false in Ex. cbn. rewrite app_nil_r. split; [intros E; contradiction|]. split; [reflexivity|].
      intros k w. split; [intros []|]. intros (x & (E & _) & _). contradiction. }
  apply text_eqb_eq in Ex. destruct (tget (attrs r) (tx "href")) as [h|] eqn:Eh.
  2:{ cbn [ofail snd]. split; [|right; auto]. intros O. destruct (O Ex) as (x & A & _). unfold attr in A. congruence. }
  unfold obind, oassert, assert_. cbn [snd fst].
  destruct (starts (tx "#") h) eqn:Es.
  2:{ cbn [snd]. split; [|now left]. intros O. destruct (O Ex) as (x & A & _). unfold attr in A. apply starts_false in Es. apply Es.
      exists x. congruence. }
  apply starts_iff in Es as (id & ->). change (tl (tx "#" ++ id)) with id. cbn [snd fst].
  assert (Hr : forall x, refers r x <-> x = id).
  { intros x. unfold refers, attr. rewrite Eh. split.
    - intros (_ & E). assert (tx "#" ++ id = tx "#" ++ x) as E' by congruence. now apply app_inv_head in E'.
    - intros ->. auto. }
  assert (Ho : (forall def, tget d id = Some def -> ename def = tx "dfn" -> inner def <> []) <-> ok_ref (fun x n => tget d x = Some n) r).
  { split.
    - intros H _. exists id. unfold attr. auto.
    - intros O. destruct (O Ex) as (x & A & B). assert (x = id) as <- by (apply Hr; split; auto). exact B. }
  assert (Ha : forall k w, about_ref (fun x n => tget d x = Some n) r k w <->
     ((exists def, tget d id = Some def /\ ename def = tx "dfn" /\ inner r = [] /\ k = num r /\ w = UnneededEmpty (inner def) id) \/
      (exists def, tget d id = Some def /\ ename def = tx "dfn" /\ inner r <> [] /\
         (inner r = inner def \/ exists v, attr def (tx "variants") v /\ In (inner r) (split_comma v)) /\ k = num r /\ w = UnneededTags (inner r) id) \/
      (exists def, tget d id = Some def /\ ~ In (ename def) plain_targets /\ ename def <> tx "dfn" /\ k = num def /\ w = UnexpectedDef (ename def)) \/
      ((~ exists def, tget d id = Some def) /\ ~ In id imported /\ k = num r /\ w = Nonexistent id))).
  { intros k w. unfold about_ref. split.
    - intros (x & Hx & C). apply Hr in Hx. subst x. exact C.
    - intros C. exists id. split; [now apply Hr|exact C]. }
  destruct (tget d id) as [def|] eqn:Ed.
  - destruct (tin _ (ename def)) eqn:Ep.
    { apply tin_iff in Ep. change (In (ename def) plain_targets) in Ep. cbn [oret snd fst].
      assert (Hnd : ename def <> tx "dfn") by (intros E; rewrite E in Ep; cbn in Ep; intuition discriminate).
      split; [apply Ho; intros def' E1 E2; congruence|]. split; [reflexivity|]. intros k w. rewrite Ha. cbn [app]. split; [intros []|].
      intros [(d' & E & E' & _)|[(d' & E & E' & _)|[(d' & E & E' & _)|(E & _)]]].
      - congruence. - congruence. - assert (d' = def) by congruence. subst d'. contradiction. - exfalso. apply E. eauto. }
    apply tin_false in Ep. change (~ In (ename def) plain_targets) in Ep.
    destruct (text_eqb (ename def) (tx "dfn")) eqn:Edf.
    + apply text_eqb_eq in Edf. destruct (text_eqb (inner def) []) eqn:Ei.
      { apply text_eqb_eq in Ei. cbn [negb snd]. split; [|now left]. rewrite <- Ho. intros H. exact (H def eq_refl Edf Ei). }
      apply teqb_false in Ei. cbn [negb snd fst].
      assert (Hok : ok_ref (fun x n => tget d x = Some n) r) by (apply Ho; intros d' E1 _; congruence).
      destruct (text_eqb (inner r) []) eqn:Ei2.
      * apply text_eqb_eq in Ei2. cbn [say oret snd fst app]. split; [exact Hok|]. split; [reflexivity|]. intros k w. rewrite Ha. split.
        -- intros [E|[]]. injection E as <- <-. left. exists def. auto.
        -- intros [(d' & E & E' & E2 & -> & ->)|[(d' & E & E' & E2 & _)|[(d' & E & E' & E2 & _)|(E & _)]]].
           ++ left. congruence. ++ congruence. ++ congruence. ++ exfalso. apply E. eauto.
      * apply teqb_false in Ei2.
        set (b := text_eqb (inner r) (inner def) || tin (split_comma match tget (attrs def) (tx "variants") with Some v => v | None => [] end) (inner r)).
        assert (B : b = true <-> (inner r = inner def \/ exists v, attr def (tx "variants") v /\ In (inner r) (split_comma v))).
        { unfold b, attr. rewrite orb_true_iff, text_eqb_eq, tin_iff. destruct (tget (attrs def) (tx "variants")) as [v|].
          - split; (intros [H|H]; [now left|right]); [eauto|]. destruct H as (v' & E & H). congruence.
          - cbn [split_comma In]. split; (intros [H|H]; [now left|]).
            + destruct H as [H|[]]. congruence. + destruct H as (v' & E & _). discriminate. }
        clearbody b. cbn [say oret snd fst app]. rewrite app_nil_r. split; [exact Hok|]. split; [reflexivity|]. intros k w. rewrite Ha. split.
        -- intros H. destruct b; [|contradiction]. destruct H as [E|[]]. injection E as <- <-. right. left. exists def.
           pose proof (proj1 B eq_refl). auto 6.
        -- intros [(d' & E & E' & E2 & _)|[(d' & E & E' & E2 & Hc & -> & ->)|[(d' & E & E' & E2 & _)|(E & _)]]].
           ++ congruence. ++ assert (d' = def) by congruence. subst d'. apply B in Hc. rewrite Hc. now left. ++ congruence. ++ exfalso. apply E. eauto.
    + apply teqb_false in Edf. cbn [say oret snd fst app]. split; [apply Ho; intros d' E1 E2; congruence|]. split; [reflexivity|].
      intros k w. rewrite Ha. split.
      * intros [E|[]]. injection E as <- <-. right. right. left. exists def. auto.
      * intros [(d' & E & E' & _)|[(d' & E & E' & _)|[(d' & E & E' & E2 & -> & ->)|(E & _)]]].
        -- congruence. -- congruence. -- left. congruence. -- exfalso. apply E. eauto.
  - destruct (tin _ id) eqn:Et.
    + apply tin_iff in Et. change (In id imported) in Et. cbn [negb say oret snd fst app]. split; [apply Ho; intros; discriminate|]. split; [reflexivity|].
      intros k w. rewrite Ha. split; [intros []|]. intros [(d' & E & _)|[(d' & E & _)|[(d' & E & _)|(_ & E & _)]]]; congruence.
    + apply tin_false in Et. change (~ In id imported) in Et. cbn [negb say oret snd fst app]. split; [apply Ho; intros; discriminate|]. split; [reflexivity|].
      intros k w. rewrite Ha. split.
      * intros [E|[]]. injection E as <- <-. right. right. right. split; [intros (d' & E); discriminate|auto].
      * intros [(d' & E & _)|[(d' & E & _)|[(d' & E & _)|(_ & E & -> & ->)]]]; try congruence. now left.
Qed.

Lemma refs_cons : forall n ns, refs_of (n :: ns) = refs_of [n] ++ refs_of ns.
Proof. intros. unfold refs_of. cbn [flat_map]. now rewrite app_nil_r. Qed.

Lemma refs_spec : forall d ns rs,
  match snd (ofold (ref_one d) rs ns) with
  | Err e => ~ Forall (ok_ref (fun x n => tget d x = Some n)) ns /\
      (e = AssertionError \/ (e = SystemExit /\ exists r, In r ns /\ ename r = tx "emu-xref" /\ tget (attrs r) (tx "href") = None))
  | Ok rs' => Forall (ok_ref (fun x n => tget d x = Some n)) ns /\ rs' = rs ++ refs_of ns /\
      forall k w, In (k, w) (fst (ofold (ref_one d) rs ns)) <-> exists r, In r ns /\ about_ref (fun x n => tget d x = Some n) r k w
  end.
Proof.
  intros d. induction ns as [|n ns IH]; intros rs; cbn [ofold].
  - cbn. rewrite app_nil_r. split; [constructor|]. split; [reflexivity|]. intros k w. split; [intros []|intros (r & [] & _)].
  - pose proof (ref_spec d rs n) as H1. unfold obind. destruct (ref_one d rs n) as [m1 [r1|e1]]; cbn [snd fst] in H1; cbn [snd fst].
    2:{ destruct H1 as (H1 & H2). split; [intros H; inversion H; contradiction|]. destruct H2 as [H2|(-> & H2 & H3)]; [now left|right]. split; [reflexivity|].
        exists n. split; [now left|auto]. }
    destruct H1 as (O1 & E1 & M1). specialize (IH r1).
    destruct (ofold (ref_one d) r1 ns) as [m2 [r2|e2]]; cbn [snd fst] in IH; cbn [snd fst].
    2:{ destruct IH as (H1 & H2). split; [intros H; inversion H; contradiction|]. destruct H2 as [H2|(-> & r & Hr & H3)]; [now left|right].
        split; [reflexivity|]. exists r. split; [now right|exact H3]. }
    destruct IH as (O2 & E2 & M2). split; [constructor; assumption|]. split; [rewrite E2, E1, (refs_cons n ns), app_assoc; reflexivity|].
    intros k w. rewrite in_app_iff, M1, M2. split.
    + intros [H|(x & Hx & H)]; [exists n; split; [now left|exact H]|exists x; split; [now right|exact H]].
    + intros (x & [<-|Hx] & H); [now left|right; eauto].
Qed.

Lemma refs_of_in : forall ns x d, Forall (ok_ref d) ns -> (In x (refs_of ns) <-> exists r, In r ns /\ refers r x).
Proof.
  intros ns x d Hok. unfold refs_of. rewrite in_flat_map. rewrite Forall_forall in Hok. split.
  - intros (r & Hr & H). exists r. split; [exact Hr|]. destruct (text_eqb (ename r) (tx "emu-xref")) eqn:E; [|contradiction].
    apply text_eqb_eq in E. destruct (Hok r Hr E) as (y & A & _). unfold attr in A. rewrite A in H. destruct H as [H|[]].
    change (tl (tx "#" ++ y)) with y in H. subst y. split; assumption.
  - intros (r & Hr & E & A). exists r. split; [exact Hr|]. rewrite (proj2 (text_eqb_eq _ _) E). unfold attr in A. rewrite A. now left.
Qed.

Section Main.
Variable uniword : N -> bool.
Variable lower : text -> text.

(* the element an id stands for: the last one that has it *)
Definition target (doc : node) (x : text) (n : node) : Prop :=
  exists l1 l2, occurrences uniword (elements doc) = l1 ++ (n, x) :: l2 /\ ~ In x (map snd l2).
Definition unref_of (doc : node) (k : nat) (w : what) : Prop :=
  exists x def, target doc x def /\ (~ exists r, In r (elements doc) /\ refers r x) /\ x <> tx "metadata-block" /\ x <> tx "ecma-logo" /\
    ~ In (ename def) exempt /\ k = num def /\ w = Unreferenced x.
Definition acceptable (doc : node) : Prop :=
  Forall (good uniword) (elements doc) /\ NoDup (old_ids (elements doc)) /\
  (forall x, In x (old_ids (elements doc)) -> ~ In x (ids_of uniword doc)) /\ Forall (ok_ref (target doc)) (elements doc).

Lemma find_last : forall (occ : list (node * text)) x e, find (fun e => text_eqb (snd e) x) (rev occ) = Some e <->
  exists l1 l2, occ = l1 ++ e :: l2 /\ snd e = x /\ ~ In x (map snd l2).
Proof. clear uniword lower.
  induction occ as [|[n y] occ IH] using rev_ind; intros x e.
  - cbn. split; [discriminate|]. intros (l1 & l2 & E & _). destruct l1; discriminate.
  - rewrite rev_app_distr. cbn [rev app find snd]. destruct (text_eqb y x) eqn:E.
    + apply text_eqb_eq in E. subst y. split.
      * intros H. injection H as <-. exists occ, []. auto.
      * intros (l1 & l2 & E & E' & H). destruct l2 as [|z l2 _] using rev_ind.
        -- apply app_inj_tail in E as [_ E]. congruence.
        -- change (l1 ++ e :: l2 ++ [z]) with (l1 ++ (e :: l2) ++ [z]) in E. rewrite app_assoc in E. apply app_inj_tail in E as [_ <-]. exfalso. apply H.
           rewrite map_app, in_app_iff. right. now left.
    + apply teqb_false in E. rewrite IH. split.
      * intros (l1 & l2 & -> & E' & H). exists l1, (l2 ++ [(n, y)]). rewrite <- app_assoc. split; [reflexivity|]. split; [exact E'|].
        rewrite map_app, in_app_iff. cbn. intuition.
      * intros (l1 & l2 & E2 & E' & H). destruct l2 as [|z l2 _] using rev_ind.
        -- apply app_inj_tail in E2 as [_ <-]. cbn in E'. contradiction.
        -- change (l1 ++ e :: l2 ++ [z]) with (l1 ++ (e :: l2) ++ [z]) in E2. rewrite app_assoc in E2. apply app_inj_tail in E2 as [-> <-].
           exists l1, l2. split; [reflexivity|]. split; [exact E'|]. intros Hx. apply H. rewrite map_app, in_app_iff. now left.
Qed.
Lemma target_get : forall doc x n, tget (record_all [] (occurrences uniword (elements doc))) x = Some n <-> target doc x n.
Proof. clear lower.
  intros doc x n. rewrite record_get. unfold target. split.
  - destruct (find _ _) as [[m y]|] eqn:E; [|discriminate]. intros H. injection H as <-. apply find_last in E as (l1 & l2 & E & E' & H). cbn in E'. subst y. eauto.
  - intros (l1 & l2 & E & H). assert (find (fun e => text_eqb (snd e) x) (rev (occurrences uniword (elements doc))) = Some (n, x)) as ->; [|reflexivity].
    apply find_last. exists l1, l2. auto.
Qed.

Lemma unreferenced_in : forall refids x def k w, In (k, w) (unreferenced refids (x, def)) <->
  ~ In x refids /\ x <> tx "metadata-block" /\ x <> tx "ecma-logo" /\ ~ In (ename def) exempt /\ k = num def /\ w = Unreferenced x.
Proof. clear uniword lower.
  intros refids x def k w. unfold unreferenced.
  destruct (tin refids x) eqn:E1. { apply tin_iff in E1. split; [intros []|tauto]. } apply tin_false in E1.
  destruct (tin _ x) eqn:E2. { apply tin_iff in E2. split; [intros []|]. intros (_ & A & B & _). cbn [In] in E2. destruct E2 as [E|[E|[]]]; congruence. }
  apply tin_false in E2.
  assert (X : (tin [tx "emu-intro"; tx "emu-clause"; tx "emu-annex"] (ename def) = true \/ tin [tx "emu-figure"; tx "emu-table"] (ename def) = true \/ tin [tx "dfn"; tx "emu-eqn"] (ename def) = true) <-> In (ename def) exempt).
  { rewrite !tin_iff. unfold exempt. cbn [In]. tauto. }
  destruct (tin _ (ename def)) eqn:E3. { split; [intros []|]. intros H. exfalso. apply (proj1 (proj2 (proj2 (proj2 H)))). apply X. now left. }
  destruct (tin [tx "emu-figure"; tx "emu-table"] (ename def)) eqn:E4. { split; [intros []|]. intros H. exfalso. apply (proj1 (proj2 (proj2 (proj2 H)))). apply X. right. now left. }
  destruct (tin [tx "dfn"; tx "emu-eqn"] (ename def)) eqn:E5. { split; [intros []|]. intros H. exfalso. apply (proj1 (proj2 (proj2 (proj2 H)))). apply X. right. now right. }
  assert (Y : ~ In (ename def) exempt) by (intros H; apply X in H; intuition congruence).
  cbn [In] in E2. split.
  - intros [E|[]]. injection E as <- <-. split; [exact E1|]. split; [intros ->; tauto|]. split; [intros ->; tauto|]. auto.
  - intros (_ & _ & _ & _ & -> & ->). now left.
Qed.

Definition msg_is_dup (doc : node) (k : nat) (w : what) : Prop :=
  exists l1 n x l2, occurrences uniword (elements doc) = l1 ++ (n, x) :: l2 /\ In x (map snd l1) /\ k = num n /\ w = Duplicate x.

Lemma check_spec : forall doc,
  match snd (check_ids uniword lower doc) with
  | Err e => ~ acceptable doc /\ (e = AssertionError \/ (e = SystemExit /\ exists r, In r (elements doc) /\ ename r = tx "emu-xref" /\ tget (attrs r) (tx "href") = None))
  | Ok (file, d) => acceptable doc /\ d = record_all [] (occurrences uniword (elements doc)) /\
      file = isort text_leb (dedup (old_ids (elements doc) ++ map fst d)) /\
      (forall k w, In (k, w) (fst (check_ids uniword lower doc)) <->
         msg_is_dup doc k w \/ (exists n, In n (elements doc) /\ about_id lower n k w) \/
         (exists r, In r (elements doc) /\ about_ref (target doc) r k w) \/ unref_of doc k w) /\
      forall x, length (filter (dup_of x) (fst (check_ids uniword lower doc))) = count_occ text_dec (ids_of uniword doc) x - 1
  end.
Proof.
  intros doc. unfold check_ids. rewrite gather_flat.
  pose proof (all_spec uniword lower (elements doc) (mkIds [] []) (NoDup_nil _) (NoDup_nil _)) as H1.
  unfold obind. destruct (ofold (gather_one uniword lower) (mkIds [] []) (elements doc)) as [m1 [st|e]]; cbn [snd fst with_id oldids app] in H1; cbn [snd fst].
  2:{ destruct H1 as (-> & H1). split; [|now left]. intros (A & B & _). auto. }
  destruct H1 as (G & N & E & R & M). assert (Ew : with_id st = record_all [] (occurrences uniword (elements doc))) by (rewrite E; reflexivity).
  assert (Eo : oldids st = old_ids (elements doc)) by (rewrite E; reflexivity).
  destruct (record_keys (occurrences uniword (elements doc)) [] (NoDup_nil _)) as [K1 K2].
  assert (Kin : forall x, thas (with_id st) x = true <-> In x (ids_of uniword doc)).
  { intros x. rewrite thas_key, Ew, K2. unfold ids_of. cbn. tauto. }
  unfold oassert, assert_. cbn [snd fst].
  destruct (existsb (thas (with_id st)) (oldids st)) eqn:Ed; cbn [negb snd fst].
  { split; [|now left]. intros (_ & _ & H & _). apply existsb_exists in Ed as (x & A & B). apply Kin in B. rewrite Eo in A. exact (H x A B). }
  assert (Hd : forall x, In x (old_ids (elements doc)) -> ~ In x (ids_of uniword doc)).
  { intros x Hx Hi. apply Kin in Hi. assert (existsb (thas (with_id st)) (oldids st) = true); [|congruence]. apply existsb_exists. exists x. rewrite Eo. auto. }
  rewrite refs_flat. pose proof (refs_spec (with_id st) (elements doc) []) as H2.
  assert (T : forall x n, tget (with_id st) x = Some n <-> target doc x n) by (intros x n; rewrite Ew; apply target_get).
  destruct (ofold (ref_one (with_id st)) [] (elements doc)) as [m2 [rs|e]]; cbn [snd fst] in H2; cbn [snd fst].
  2:{ destruct H2 as (H2 & H3). split; [|exact H3]. intros (_ & _ & _ & H). apply H2. rewrite Forall_forall in H |- *. intros r Hr.
      apply (ok_ref_ext (target doc)); [intros; symmetry; apply T|auto]. }
  destruct H2 as (O & Er & M2). cbn [app] in Er. unfold oret. cbn [snd fst app]. rewrite app_nil_r.
  split; [split; [exact G|split; [exact N|split; [exact Hd|]]]|].
  { rewrite Forall_forall in O |- *. intros r Hr. apply (ok_ref_ext (fun x n => tget (with_id st) x = Some n)); [exact T|auto]. }
  split; [exact Ew|]. split; [unfold ids_file; rewrite Eo; reflexivity|].
  assert (D3 : forall k w, In (k, w) (flat_map (unreferenced rs) (with_id st)) <-> unref_of doc k w).
  { intros k w. rewrite in_flat_map. split.
    - intros ([x def] & Hin & H). apply unreferenced_in in H as (A & B). exists x, def.
      split; [|split; [|exact B]].
      + apply T. rewrite Ew in Hin |- *. clear - Hin K1. remember (record_all [] (occurrences uniword (elements doc))) as d. clear Heqd.
        induction d as [|[y v] d IH]; [destruct Hin|]. cbn [tget]. cbn [map fst] in K1. inversion K1 as [|? ? Hn K']. subst. destruct Hin as [E|Hin].
        * injection E as -> ->. now rewrite teqb_refl.
        * destruct (text_eqb y x) eqn:E; [|auto]. apply text_eqb_eq in E. subst y. exfalso. apply Hn. apply in_map_iff. exists (x, def). auto.
      + intros (r & Hr & Hx). apply A. rewrite Er. apply (refs_of_in _ _ _ O). eauto.
    - intros (x & def & Ht & Hn & B). exists (x, def). split.
      + apply T in Ht. clear - Ht. induction (with_id st) as [|[y v] d IH]; [discriminate|]. cbn [tget] in Ht.
        destruct (text_eqb y x) eqn:E; [|right; auto]. apply text_eqb_eq in E. subst y. injection Ht as ->. now left.
      + apply unreferenced_in. split; [|exact B]. rewrite Er. intros H. apply Hn. apply (refs_of_in _ _ _ O). exact H. }
  assert (D1 : forall k x, In (k, Duplicate x) m1 <-> msg_is_dup doc k (Duplicate x)).
  { intros k x. assert (In (k, Duplicate x) m1 <-> In (k, Duplicate x) (filter is_dup m1)) as -> by (rewrite filter_In; cbn; tauto).
    rewrite (repeats_in _ _ _ R). unfold msg_is_dup. split.
    - intros (l1 & n & y & l2 & E1 & E2 & [H|[]]). injection E2 as -> ->. exists l1, n, y, l2. auto.
    - intros (l1 & n & y & l2 & E1 & H & -> & E2). injection E2 as ->. exists l1, n, y, l2. auto. }
  split.
  - intros k w. rewrite !in_app_iff, M2, D3.
    assert (A2 : (exists r, In r (elements doc) /\ about_ref (fun x n => tget (with_id st) x = Some n) r k w) <-> (exists r, In r (elements doc) /\ about_ref (target doc) r k w)).
    { split; intros (r & Hr & H); exists r; (split; [exact Hr|]).
      - apply (about_ref_ext _ _ _ _ _ T). exact H.
      - apply (about_ref_ext (target doc)); [intros; symmetry; apply T|exact H]. }
    rewrite A2. destruct (is_dup (k, w)) eqn:Edup.
    + destruct w; try discriminate. rewrite D1. split; [tauto|]. intros [H|[(n & _ & (_ & i & _ & H))|H]]; [now left| |tauto].
      destruct H as [(p & _ & _ & H)|[(_ & _ & H)|(a & p & _ & _ & H & _)]]; discriminate.
    + rewrite (M k w Edup). split; [tauto|]. intros [(l1 & n & x & l2 & _ & _ & _ & ->)|H]; [discriminate|tauto].
  - intros x. rewrite !filter_app, !app_length. destruct (repeats_count _ _ _ R x) as [_ C].
    assert (F1 : filter (dup_of x) m1 = filter (dup_of x) (filter is_dup m1)).
    { clear. induction m1 as [|[k w] m1 IH]; [reflexivity|]. destruct w; cbn [filter is_dup dup_of snd]; try exact IH. destruct (text_eqb id x); [f_equal|]; exact IH. }
    rewrite F1, (C (fun H => H)). unfold ids_of.
    assert (Z : forall l : list msg, (forall k y, ~ In (k, Duplicate y) l) -> length (filter (dup_of x) l) = 0).
    { induction l as [|[k w] l IH]; intros H; [reflexivity|]. destruct w; cbn [filter dup_of snd]; try (apply IH; intros k' y Hy; apply (H k' y); now right).
      exfalso. apply (H k id). now left. }
    rewrite (Z m2), (Z (flat_map (unreferenced rs) (with_id st))); [lia| |].
    + intros k y H. apply D3 in H as (x' & def & _ & _ & _ & _ & _ & _ & H). discriminate.
    + intros k y H. apply M2 in H as (r & _ & x' & _ & H). destruct H as [(d' & _ & _ & _ & _ & H)|[(d' & _ & _ & _ & _ & _ & H)|[(d' & _ & _ & _ & _ & H)|(_ & _ & _ & H)]]]; discriminate.
Qed.
End Main.

Lemma dedup_spec : forall l, NoDup (dedup l) /\ forall x, In x (dedup l) <-> In x l.
Proof.
  induction l as [|y l [IH1 IH2]]; [split; [constructor|cbn; tauto]|]. cbn [dedup]. destruct (tin l y) eqn:E.
  - apply tin_iff in E. split; [exact IH1|]. intros x. rewrite IH2. cbn. intuition (subst; auto).
  - apply tin_false in E. split; [constructor; [now rewrite IH2|exact IH1]|]. intros x. cbn. rewrite IH2. tauto.
Qed.

Fixpoint join (sep : text) (ws : list text) : text :=
  match ws with [] => [] | [w] => w | w :: ws' => w ++ sep ++ join sep ws' end.
Lemma split_comma_spec : forall s, split_comma s <> [] /\ Forall (fun w => ~ In 44%N w) (split_comma s) /\ join [44%N] (split_comma s) = s.
Proof.
  induction s as [|c s (A & B & C)]; [split; [discriminate|]; split; [constructor; [intros []|constructor]|reflexivity]|]. cbn [split_comma].
  destruct (c =? 44)%N eqn:E.
  - apply N.eqb_eq in E. subst c. split; [discriminate|]. split; [constructor; [intros []|exact B]|].
    destruct (split_comma s) as [|w ws]; [congruence|]. cbn [join app] in *. now rewrite C.
  - apply N.eqb_neq in E. destruct (split_comma s) as [|w ws]; [congruence|]. inversion B as [|? ? B1 B2]. subst. split; [discriminate|]. split.
    + constructor; [|exact B2]. intros [H|H]; [congruence|contradiction].
    + destruct ws; cbn [join app] in *; reflexivity.
Qed.
Lemma join_inj : forall ws ws', ws <> [] -> ws' <> [] -> Forall (fun w => ~ In 44%N w) ws -> Forall (fun w => ~ In 44%N w) ws' ->
  join [44%N] ws = join [44%N] ws' -> ws = ws'.
Proof.
  assert (P : forall (u v : text) a b, ~ In 44%N u -> ~ In 44%N v -> u ++ 44%N :: a = v ++ 44%N :: b -> u = v /\ a = b).
  { induction u as [|c u IH]; intros [|d v] a b Hu Hv E; cbn [app] in E.
    - injection E as ->. auto.
    - exfalso. apply Hv. left. congruence.
    - exfalso. apply Hu. left. congruence.
    - injection E as -> E. destruct (IH v a b) as [-> ->]; [intros X; apply Hu; now right|intros X; apply Hv; now right|exact E|auto]. }
  induction ws as [|w ws IH]; intros [|w' ws'] H1 H2 F1 F2 E; try congruence. inversion F1 as [|? ? A1 B1]. inversion F2 as [|? ? A2 B2]. subst.
  destruct ws as [|x ws], ws' as [|x' ws']; cbn [join] in E.
  - congruence.
  - exfalso. apply A1. rewrite E. apply in_app_iff. right. now left.
  - exfalso. apply A2. rewrite <- E. apply in_app_iff. right. now left.
  - destruct (P w w' _ _ A1 A2 E) as [-> E']. f_equal. apply IH; auto; discriminate.
Qed.
