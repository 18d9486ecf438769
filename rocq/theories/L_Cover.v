(* Vocabulary and lemmas for the coverage of syntax-directed operations. *)
From Coq Require Import Permutation.
From Verif Require Import M_Base L_Base M_HTML M_PNode L_PNode M_Cover.
Open Scope list_scope.

(* the nonterminals that are present in a right-hand side, if bits tells which of the optional symbols are *)
Fixpoint present (its : list citem) (bits : list nat) : list text :=
  match its with
  | [] => []
  | I_GNT nt :: its' => nt :: present its' bits
  | I_QM s :: its' => match s, bits with C_GNT nt, 1 :: _ => [nt] | _, _ => [] end ++ present its' (tl bits)
  | I_other :: its' => present its' bits
  end.
Definition optionals (its : list citem) : nat := length (filter (fun i => match i with I_QM _ => true | _ => false end) its).
(* k is the key of the right-hand side r of nt with some choice of the optional symbols *)
Definition key_of (g : cgrammar) (nt : text) (r : crhs) (bits : list nat) : Prop :=
  (exists rs, def_occ g nt = Some rs /\ In r rs) /\ length bits = optionals (citems r) /\ Forall (fun b => b = 0 \/ b = 1) bits.
Definition puk_dec : forall a b : puk, {a = b} + {a <> b}.
Proof. repeat decide equality. Defined.
(* the number of rules for a key *)
Definition n_rules (m : sdo_map) (k : puk) : nat := match find (fun e => if puk_dec (fst e) k then true else false) m with Some e => length (snd e) | None => 0 end.
Lemma n_rules_pget m k : n_rules m k = match pget m k with Some ds => length ds | None => 0 end.
Proof.
  unfold n_rules. induction m as [|[k' ds] m IH]; [reflexivity|]. cbn [find pget fst]. destruct (puk_dec k' k) as [->|N]; [now rewrite (proj2 (puk_eqb_eq k k) eq_refl)|]. destruct (puk_eqb k' k) eqn:E; [apply puk_eqb_eq in E; contradiction|exact IH].
Qed.
(* the nonterminals on which the operation may be invoked: the given ones, and those to which the chain rule leads, where there is no rule *)
Inductive reached (g : cgrammar) (m : sdo_map) (exc : text -> text -> bool) (nts : list text) : text -> Prop :=
| re_start nt : In nt nts -> reached g m exc nts nt
| re_chain nt r bits nt' : reached g m exc nts nt -> key_of g nt r bits -> n_rules m (nt, reduced r, bits) = 0 -> exc nt (reduced r) = false ->
    present (citems r) bits = [nt'] -> reached g m exc nts nt'.

Lemma present_perm its : forall combo, length combo = optionals its ->
  map fst combo = flat_map (fun i => match i with I_QM s => [s] | _ => [] end) its ->
  Permutation (flat_map (fun i => match i with I_GNT nt => [nt] | _ => [] end) its ++ required_nts_in combo) (present its (map (fun e : csym * bool => if snd e then 1 else 0) combo)).
Proof.
  induction its as [|i its IH]; intros combo L E.
  - destruct combo; [reflexivity|discriminate].
  - destruct i as [nt|s|]; cbn [flat_map app present optionals filter length] in *.
    + constructor. now apply IH.
    + destruct combo as [|[s' b] combo]; [discriminate|]. cbn [map fst snd] in E. inversion E; subst s'. cbn [length] in L. inversion L as [L']. cbn [map snd tl]. specialize (IH combo L' H1).
      assert (X : Permutation (required_nts_in ((s, b) :: combo)) ((match s, (if b then 1 else 0) :: map (fun e : csym * bool => if snd e then 1 else 0) combo with C_GNT nt, 1 :: _ => [nt] | _, _ => [] end) ++ required_nts_in combo)) by (destruct s, b; reflexivity).
      rewrite X. rewrite app_assoc. rewrite (Permutation_app_comm (flat_map _ its)). rewrite <- app_assoc. now apply Permutation_app_head.
    + now apply IH.
Qed.
Lemma perm_one {A} (l l' : list A) : Permutation l l' -> forall x, l = [x] <-> l' = [x].
Proof. intros P x. split; intros ->; [|apply Permutation_sym in P]; now apply Permutation_length_1_inv in P. Qed.

Lemma rsq_len r : length (RSQs_of r) = optionals (citems r).
Proof. unfold RSQs_of, optionals. induction (citems r) as [|[nt|s|] its IH]; cbn; [reflexivity|exact IH|f_equal; exact IH|exact IH]. Qed.
(* the combinations *)
Lemma each_opt_combo_spec l cs : each_opt_combo l = Ok cs -> length l <= 3 /\
  forall c, In c cs <-> map fst c = l.
Proof.
  intros E. destruct l as [|a [|b [|c [|d l]]]]; cbn [each_opt_combo] in E; inversion E; subst; clear E; (split; [cbn; lia|]); intros x.
  - split; [intros [<-|[]]; reflexivity|]. destruct x; [now left|discriminate].
  - split; [intros H; repeat destruct H as [<-|H]; try reflexivity; destruct H|]. destruct x as [|[s []] [|]]; try discriminate; intros H; inversion H; subst; cbn; auto.
  - split; [intros H; repeat destruct H as [<-|H]; try reflexivity; destruct H|]. destruct x as [|[s []] [|[s' []] [|]]]; try discriminate; intros H; inversion H; subst; cbn; auto.
  - split; [intros H; repeat destruct H as [<-|H]; try reflexivity; destruct H|]. destruct x as [|[s []] [|[s' []] [|[s'' []] [|]]]]; try discriminate; intros H; inversion H; subst; cbn; tauto.
Qed.
Lemma each_opt_combo_ok l : length l <= 3 -> exists cs, each_opt_combo l = Ok cs.
Proof. destruct l as [|a [|b [|c [|d l]]]]; cbn; try (eexists; reflexivity). lia. Qed.

Lemma or_iff2 (A B C D : Prop) : (A <-> B) -> (C <-> D) -> (A \/ C <-> B \/ D).
Proof. tauto. Qed.
Section Cover.
  Variable g : cgrammar.
  Variable m : sdo_map.
  Variable exc : text -> text -> bool.
  Definition bits_of (c : list (csym * bool)) : list nat := map (fun e : csym * bool => if snd e then 1 else 0) c.
  Definition key (nt : text) (rc : crhs * list (csym * bool)) : puk := (nt, reduced (fst rc), bits_of (snd rc)).
  Definition target (nt : text) (rc : crhs * list (csym * bool)) (t : text) : Prop :=
    n_rules m (key nt rc) = 0 /\ exc nt (reduced (fst rc)) = false /\ nGNTs_of (fst rc) ++ required_nts_in (snd rc) = [t].
  Definition speaks (nt : text) (rc : crhs * list (csym * bool)) (x : cmsg) : Prop :=
    (2 <= n_rules m (key nt rc) /\ x = Handled (key nt rc) (n_rules m (key nt rc))) \/
    (n_rules m (key nt rc) = 0 /\ exc nt (reduced (fst rc)) = false /\ (forall t, nGNTs_of (fst rc) ++ required_nts_in (snd rc) <> [t]) /\ x = NeedsRule (key nt rc)).
  Definition extends (st st' : cstate) : Prop := exists l, nt_queue st' = nt_queue st ++ l.
  Lemma extends_refl st : extends st st. Proof. exists []. now rewrite app_nil_r. Qed.
  Lemma extends_trans a b c : extends a b -> extends b c -> extends a c.
  Proof. intros [l H] [l' H']. exists (l ++ l'). now rewrite H', H, app_assoc. Qed.
  Definition effect (nt : text) (L : list (crhs * list (csym * bool))) (st st' : cstate) : Prop :=
    extends st st' /\ (NoDup (nt_queue st) -> NoDup (nt_queue st')) /\
    (forall t, In t (nt_queue st') <-> In t (nt_queue st) \/ exists rc, In rc L /\ target nt rc t) /\
    (forall k, In k (used_keys st') <-> In k (used_keys st) \/ exists rc, In rc L /\ k = key nt rc) /\
    (forall x, In x (out st') <-> In x (out st) \/ exists rc, In rc L /\ speaks nt rc x).
  Lemma existsb_text t l : existsb (text_eqb t) l = true <-> In t l.
  Proof. rewrite existsb_exists. split; [intros (x & I & E); apply text_eqb_eq in E; now subst|intros I; exists t; split; [assumption|now apply text_eqb_eq]]. Qed.
  Lemma do_combo_effect nt r c st : effect nt [(r, c)] st (do_combo m exc nt r c st).
  Proof.
    unfold do_combo. cbv zeta. change (nt, reduced r, map (fun e : csym * bool => if snd e then 1 else 0) c) with (key nt (r, c)).
    assert (OUT : forall P : crhs * list (csym * bool) -> Prop, (exists rc, In rc [(r, c)] /\ P rc) <-> P (r, c)) by (intros P; split; [intros (rc & [<-|[]] & H); exact H|intros H; exists (r, c); split; [now left|assumption]]).
    unfold effect. setoid_rewrite OUT. unfold target, speaks. cbn [fst snd]. rewrite <- (n_rules_pget m (key nt (r, c))).
    assert (U : forall k, In k (key nt (r, c) :: used_keys st) <-> In k (used_keys st) \/ k = key nt (r, c)) by (intros k; cbn; split; intros [H|H]; auto).
    destruct (n_rules m (key nt (r, c))) as [|[|n]] eqn:NR.
    - destruct (exc nt (reduced r)) eqn:EX.
      + cbn [nt_queue used_keys out]. split; [exists []; now rewrite app_nil_r|]. split; [auto|]. split; [|split; [exact U|]]; intros; intuition; try discriminate; try lia.
      + destruct (nGNTs_of r ++ required_nts_in c) as [|t [|t' l]] eqn:EN.
        * cbn [say nt_queue used_keys out]. split; [exists []; now rewrite app_nil_r|]. split; [auto|]. split; [intros t; split; [auto|intros [H|(_ & _ & H)]; [assumption|discriminate]]|]. split; [exact U|].
          intros x. rewrite in_app_iff. cbn [In]. split; [intros [H|[<-|[]]]; [auto|right; right; repeat split; auto; intros ? ?; discriminate]|intros [H|[[H _]|(_ & _ & _ & ->)]]; [auto|lia|auto]].
        * unfold queue_ensure. cbn [nt_queue used_keys out]. destruct (existsb (text_eqb t) (nt_queue st)) eqn:EB.
          -- apply existsb_text in EB. cbn [nt_queue used_keys out]. split; [exists []; now rewrite app_nil_r|]. split; [auto|]. split; [intros t'; split; [auto|intros [H|(_ & _ & H)]; [assumption|inversion H; now subst]]|]. split; [exact U|].
             intros x. split; [auto|intros [H|[[H _]|(_ & _ & H & _)]]; [auto|lia|exfalso; exact (H t eq_refl)]].
          -- cbn [nt_queue used_keys out]. split; [eexists; reflexivity|]. split; [intros ND; apply (Permutation_NoDup (Permutation_cons_append (nt_queue st) t)); constructor; [intros I; apply existsb_text in I; congruence|assumption]|].
             split; [intros t'; rewrite in_app_iff; cbn [In]; split; [intros [H|[->|[]]]; [auto|right; auto]|intros [H|(_ & _ & H)]; [auto|inversion H; auto]]|]. split; [exact U|].
             intros x. split; [auto|intros [H|[[H _]|(_ & _ & H & _)]]; [auto|lia|exfalso; exact (H t eq_refl)]].
        * cbn [say nt_queue used_keys out]. split; [exists []; now rewrite app_nil_r|]. split; [auto|]. split; [intros t0; split; [auto|intros [H|(_ & _ & H)]; [assumption|discriminate]]|]. split; [exact U|].
          intros x. rewrite in_app_iff. cbn [In]. split; [intros [H|[<-|[]]]; [auto|right; right; repeat split; auto; intros ? ?; discriminate]|intros [H|[[H _]|(_ & _ & _ & ->)]]; [auto|lia|auto]].
    - cbn [nt_queue used_keys out]. split; [exists []; now rewrite app_nil_r|]. split; [auto|]. split; [|split; [exact U|]]; intros; intuition; try discriminate; try lia.
    - cbn [say nt_queue used_keys out]. split; [exists []; now rewrite app_nil_r|]. split; [auto|]. split; [intros t0; split; [auto|intros [H|(H & _)]; [assumption|discriminate]]|]. split; [exact U|].
      intros x. rewrite in_app_iff. cbn [In]. split; [intros [H|[<-|[]]]; [auto|right; left; split; [lia|reflexivity]]|intros [H|[[_ ->]|(H & _)]]; [auto|auto|discriminate]].
  Qed.
  Lemma effect_app nt L1 L2 a b c : effect nt L1 a b -> effect nt L2 b c -> effect nt (L1 ++ L2) a c.
  Proof.
    intros (E1 & N1 & Q1 & U1 & O1) (E2 & N2 & Q2 & U2 & O2). split; [exact (extends_trans _ _ _ E1 E2)|]. split; [auto|].
    assert (X : forall (A : Prop) (P : crhs * list (csym * bool) -> Prop), ((A \/ exists rc, In rc L1 /\ P rc) \/ exists rc, In rc L2 /\ P rc) <-> (A \/ exists rc, In rc (L1 ++ L2) /\ P rc)).
    { intros A P. setoid_rewrite in_app_iff. split; [intros [[H|(rc & I & H)]|(rc & I & H)]; eauto|intros [H|(rc & [I|I] & H)]; eauto]. }
    split; [intros t; rewrite Q2, Q1; apply X|]. split; [intros k; rewrite U2, U1; apply X|intros x; rewrite O2, O1; apply X].
  Qed.
  Lemma effect_nil nt st : effect nt [] st st.
  Proof. split; [apply extends_refl|]. split; [auto|]. split; [|split]; intros x; (split; [auto|intros [H|(rc & [] & _)]; assumption]). Qed.
  Lemma do_rhss_effect nt rs : forall st st', do_rhss m exc nt rs st = Ok st' -> exists L, effect nt L st st' /\ forall rc, In rc L <-> In (fst rc) rs /\ map fst (snd rc) = RSQs_of (fst rc).
  Proof.
    induction rs as [|r rs IH]; intros st st' E; cbn [do_rhss] in E.
    - inversion E; subst. exists []. split; [apply effect_nil|]. intros rc. cbn. tauto.
    - destruct (each_opt_combo (RSQs_of r)) as [cs|] eqn:C; cbn [bind] in E; [|discriminate]. destruct (each_opt_combo_spec _ _ C) as [_ CS]. destruct (IH _ _ E) as (L & EL & HL). exists (map (pair r) cs ++ L). split.
      + eapply effect_app; [|exact EL]. clear. revert st. induction cs as [|c cs IH]; intros st; [apply effect_nil|]. cbn [map fold_left]. apply (effect_app nt [(r, c)] (map (pair r) cs) st _ _ (do_combo_effect nt r c st) (IH _)).
      + intros [r' c']. rewrite in_app_iff, HL, in_map_iff. cbn [fst snd In]. split.
        * intros [(c & E' & I)|[I H]]; [inversion E'; subst; split; [auto|now apply CS]|auto].
        * intros [[<-|I] H]; [left; exists c'; split; [reflexivity|now apply CS]|auto].
  Qed.
  Lemma bits_combo its : forall bits, length bits = optionals its -> Forall (fun b => b = 0 \/ b = 1) bits -> exists c, map fst c = flat_map (fun i => match i with I_QM s => [s] | _ => [] end) its /\ bits_of c = bits.
  Proof.
    induction its as [|i its IH]; intros bits L F; [destruct bits; [exists []; auto|discriminate]|]. destruct i as [nt|s|]; cbn [flat_map app optionals filter length] in *; [now apply IH| |now apply IH].
    destruct bits as [|b bits]; [discriminate|]. inversion L as [L']. inversion F as [|? ? Hb F']; subst. destruct (IH bits L' F') as (c & E1 & E2). exists ((s, match b with 0 => false | _ => true end) :: c). cbn [map fst snd bits_of]. rewrite E1. split; [reflexivity|]. unfold bits_of in E2. rewrite E2. destruct Hb as [->| ->]; reflexivity.
  Qed.
  Lemma combo_bits its c : map fst c = flat_map (fun i => match i with I_QM s => [s] | _ => [] end) its -> length (bits_of c) = optionals its /\ Forall (fun b => b = 0 \/ b = 1) (bits_of c).
  Proof.
    intros E. split.
    - unfold bits_of. rewrite map_length, <- (map_length fst c), E. clear. induction its as [|[nt|s|] its IH]; cbn; [reflexivity|exact IH|f_equal; exact IH|exact IH].
    - apply Forall_forall. intros b I. apply in_map_iff in I as (e & <- & _). destruct (snd e); auto.
  Qed.
  (* what is said about a nonterminal *)
  Definition said (nt : text) (x : cmsg) : Prop :=
    (exists r bits, key_of g nt r bits /\ 2 <= n_rules m (nt, reduced r, bits) /\ x = Handled (nt, reduced r, bits) (n_rules m (nt, reduced r, bits))) \/
    (exists r bits, key_of g nt r bits /\ n_rules m (nt, reduced r, bits) = 0 /\ exc nt (reduced r) = false /\ length (present (citems r) bits) <> 1 /\ x = NeedsRule (nt, reduced r, bits)).
  Definition leads (nt nt' : text) : Prop := exists r bits, key_of g nt r bits /\ n_rules m (nt, reduced r, bits) = 0 /\ exc nt (reduced r) = false /\ present (citems r) bits = [nt'].
  Definition step_effect (nt : text) (st st' : cstate) : Prop :=
    extends st st' /\ (NoDup (nt_queue st) -> NoDup (nt_queue st')) /\
    (forall t, In t (nt_queue st') <-> In t (nt_queue st) \/ leads nt t) /\
    (forall k, In k (used_keys st') <-> In k (used_keys st) \/ exists r bits, key_of g nt r bits /\ k = (nt, reduced r, bits)) /\
    (forall x, In x (out st') <-> In x (out st) \/ said nt x).
  Lemma do_nt_effect nt st st' : match def_occ g nt with None => Ok st | Some rs => do_rhss m exc nt rs st end = Ok st' -> step_effect nt st st'.
  Proof.
    intros E. destruct (def_occ g nt) as [rs|] eqn:D.
    - destruct (do_rhss_effect nt rs st st' E) as (L & (EX & ND & Q & U & O) & HL).
      assert (KEY : forall r c, In (r, c) L -> key_of g nt r (bits_of c)) by (intros r c I; apply HL in I as [I1 I2]; cbn [fst snd] in *; split; [eauto|]; now apply combo_bits).
      assert (COM : forall r bits, key_of g nt r bits -> exists c, In (r, c) L /\ bits_of c = bits).
      { intros r bits ((rs' & D' & I) & L' & F). rewrite D in D'. inversion D'; subst rs'. destruct (bits_combo _ _ L' F) as (c & E1 & E2). exists c. split; [|assumption]. apply HL. auto. }
      assert (PR : forall r c, In (r, c) L -> Permutation (nGNTs_of r ++ required_nts_in c) (present (citems r) (bits_of c))).
      { intros r c I. apply HL in I as [I1 I2]. cbn [fst snd] in I2. apply present_perm; [|assumption]. rewrite <- (map_length fst), I2. unfold RSQs_of, optionals. clear. induction (citems r) as [|[nt|s|] its IH]; cbn; [reflexivity|exact IH|f_equal; exact IH|exact IH]. }
      split; [assumption|]. split; [assumption|]. split; [|split].
      + intros t. rewrite Q. apply or_iff_compat_l. split.
        * intros ([r c] & I & H1 & H2 & H3). cbn [fst snd] in *. exists r, (bits_of c). repeat split; auto; [apply (KEY r c I)..|]. exact (proj1 (perm_one _ _ (PR r c I) t) H3).
        * intros (r & bits & K & H1 & H2 & H3). destruct (COM r bits K) as (c & I & <-). exists (r, c). repeat split; auto. cbn [fst snd]. exact (proj2 (perm_one _ _ (PR r c I) t) H3).
      + intros k. rewrite U. apply or_iff_compat_l. split; [intros ([r c] & I & ->); exists r, (bits_of c); auto|]. intros (r & bits & K & ->). destruct (COM r bits K) as (c & I & <-). exists (r, c). auto.
      + intros x. rewrite O. apply or_iff_compat_l. unfold said, speaks. split.
        * intros ([r c] & I & [(H1 & ->)|(H1 & H2 & H3 & ->)]); cbn [fst snd] in *; [left; exists r, (bits_of c); auto|right]. exists r, (bits_of c). split; [auto|]. split; [exact H1|]. split; [assumption|]. split; [|reflexivity].
          intros LE. destruct (present (citems r) (bits_of c)) as [|t [|]] eqn:EP; try discriminate. apply (H3 t). apply (perm_one _ _ (PR r c I)). assumption.
        * intros [(r & bits & K & H1 & ->)|(r & bits & K & H1 & H2 & H3 & ->)]; destruct (COM r bits K) as (c & I & <-); exists (r, c); (split; [assumption|]); cbn [fst snd]; [left; auto|right].
          split; [exact H1|]. split; [assumption|]. split; [|reflexivity]. intros t H. apply (perm_one _ _ (PR r c I)) in H. rewrite H in H3. now apply H3.
    - inversion E; subst. assert (NK : forall r bits, ~ key_of g nt r bits) by (intros r bits ((rs & D' & _) & _); congruence).
      split; [apply extends_refl|]. split; [auto|]. split; [|split].
      + intros t. split; [auto|intros [H|(r & bits & K & _)]; [assumption|destruct (NK _ _ K)]].
      + intros t. split; [auto|intros [H|(r & bits & K & _)]; [assumption|destruct (NK _ _ K)]].
      + intros t. split; [auto|intros [H|[(r & bits & K & _)|(r & bits & K & _)]]; [assumption|destruct (NK _ _ K)..]].
  Qed.
  (* the loop *)
  Definition inv (nts : list text) (i : nat) (st : cstate) : Prop :=
    (forall t, In t nts -> In t (nt_queue st)) /\ (forall t, In t (nt_queue st) -> reached g m exc nts t) /\
    (forall t t', In t (firstn i (nt_queue st)) -> leads t t' -> In t' (nt_queue st)) /\
    (forall k, In k (used_keys st) <-> exists t r bits, In t (firstn i (nt_queue st)) /\ key_of g t r bits /\ k = (t, reduced r, bits)) /\
    (forall x, In x (out st) <-> exists t, In t (firstn i (nt_queue st)) /\ said t x).
  Lemma firstn_S {A} (l : list A) i x : nth_error l i = Some x -> firstn (S i) l = firstn i l ++ [x].
  Proof. revert i. induction l as [|a l IH]; intros [|i] E; try discriminate; [inversion E; reflexivity|]. cbn [firstn app]. f_equal. now apply IH. Qed.
  Lemma nth_len {A} (l : list A) i x : nth_error l i = Some x -> i < length l.
  Proof. intros E. apply nth_error_Some. congruence. Qed.
  Lemma inv_step nts i st st' nt : inv nts i st -> nth_error (nt_queue st) i = Some nt -> step_effect nt st st' -> inv nts (S i) st'.
  Proof.
    intros (I1 & I2 & I3 & I4 & I5) E ((l & EL) & ND & Q & U & O).
    assert (F : firstn (S i) (nt_queue st') = firstn i (nt_queue st) ++ [nt]).
    { rewrite EL. rewrite firstn_app. pose proof (nth_len _ _ _ E). replace (S i - length (nt_queue st)) with 0 by lia. cbn [firstn]. rewrite app_nil_r. now apply firstn_S. }
    assert (R : reached g m exc nts nt) by (apply I2; now apply nth_error_In in E). unfold inv. rewrite F. setoid_rewrite in_app_iff. cbn [In].
    split; [intros t H; apply Q; auto|]. split; [|split; [|split]].
    - intros t H. apply Q in H as [H|(r & bits & K & H1 & H2 & H3)]; [auto|]. exact (re_chain g m exc nts nt r bits t R K H1 H2 H3).
    - intros t t' [H|[<-|[]]] L; apply Q; [left; exact (I3 t t' H L)|now right].
    - intros k. rewrite U, I4. split.
      + intros [(t & r & bits & H & K & ->)|(r & bits & K & ->)]; [exists t, r, bits; auto|exists nt, r, bits; auto].
      + intros (t & r & bits & [H|[<-|[]]] & K & ->); [left; exists t, r, bits; auto|right; exists r, bits; auto].
    - intros x. rewrite O, I5. split.
      + intros [(t & H & S)|S]; [exists t; auto|exists nt; auto].
      + intros (t & [H|[<-|[]]] & S); [left; exists t; auto|right; auto].
  Qed.
  Lemma do_queue_inv nts fuel : forall i st st', inv nts i st -> do_queue g m exc fuel i st = Ok st' -> exists j, inv nts j st' /\ length (nt_queue st') <= j.
  Proof.
    induction fuel as [|f IH]; intros i st st' I E; cbn [do_queue] in E; [discriminate|]. destruct (nth_error (nt_queue st) i) as [nt|] eqn:N.
    - match type of E with bind ?a _ = _ => destruct a as [st1|] eqn:E1 end; cbn [bind] in E; [|discriminate]. apply do_nt_effect in E1. exact (IH _ _ _ (inv_step _ _ _ _ _ I N E1) E).
    - inversion E; subst. exists i. split; [assumption|]. now apply nth_error_None.
  Qed.
  Lemma inv_start nts : inv nts 0 (mkC nts [] []).
  Proof.
    split; [auto|]. split; [intros t H; now constructor|]. split; [intros t t' []|]. split; [intros k; split; [intros []|intros (t & r & bits & [] & _)]|intros x; split; [intros []|intros (t & [] & _)]].
  Qed.
  Lemma analyze_spec fuel nts ms : analyze g m exc fuel nts = Ok ms ->
    forall x, In x ms <->
      (exists nt, reached g m exc nts nt /\ said nt x) \/
      (exists k, In k (map fst m) /\ (forall nt r bits, reached g m exc nts nt -> key_of g nt r bits -> k <> (nt, reduced r, bits)) /\ x = Unused k).
  Proof.
    unfold analyze. intros E. destruct (do_queue g m exc fuel 0 (mkC nts [] [])) as [st|] eqn:D; cbn [bind] in E; [|discriminate]. inversion E; subst ms. clear E.
    destruct (do_queue_inv nts fuel 0 _ _ (inv_start nts) D) as (j & (I1 & I2 & I3 & I4 & I5) & LE). rewrite firstn_all2 in I3, I4, I5 by assumption.
    assert (R : forall t, reached g m exc nts t <-> In t (nt_queue st)).
    { intros t. split; [|apply I2]. induction 1 as [t H|t r bits t' R IH K H1 H2 H3]; [auto|]. apply (I3 t t' IH). exists r, bits. auto. }
    intros x. rewrite in_app_iff. apply or_iff2.
    - rewrite I5. split; intros (t & H & S); exists t; (split; [apply R; assumption|assumption]).
    - rewrite in_map_iff. split.
      + intros (k & <- & H). apply filter_In in H as [H1 H2]. exists k. split; [assumption|]. split; [|reflexivity]. intros nt r bits H K ->. apply negb_true_iff in H2. enough (existsb (puk_eqb (nt, reduced r, bits)) (used_keys st) = true) by congruence.
        apply existsb_exists. exists (nt, reduced r, bits). split; [|now apply puk_eqb_eq]. apply I4. exists nt, r, bits. split; [now apply R|auto].
      + intros (k & H1 & H2 & ->). exists k. split; [reflexivity|]. apply filter_In. split; [assumption|]. apply negb_true_iff. destruct (existsb _ _) eqn:E; [|reflexivity]. apply existsb_exists in E as (k' & I & E). apply puk_eqb_eq in E as <-. apply I4 in I as (t & r & bits & H & K & ->).
        exfalso. exact (H2 t r bits (proj2 (R t) H) K eq_refl).
  Qed.
End Cover.

(* ---- termination ---- *)

(* all nonterminals that occur on a right-hand side *)
Definition mentioned (g : cgrammar) : list text := flat_map (fun e => flat_map (fun r => present (citems r) (repeat 1 (optionals (citems r)))) (snd e)) g.
Lemma present_all its : forall bits, incl (present its bits) (present its (repeat 1 (optionals its))).
Proof.
  induction its as [|[nt|s|] its IH]; intros bits x I; cbn [present optionals filter length repeat tl] in *; [destruct I| | |exact (IH bits x I)].
  - destruct I as [->|I]; [now left|right; exact (IH bits x I)].
  - apply in_app_iff in I. apply in_app_iff. destruct I as [I|I]; [left|right; exact (IH _ x I)]. destruct s; [|destruct bits as [|[|[]]]; destruct I]. destruct bits as [|[|[|]] ?]; try destruct I. now left. destruct H.
Qed.
Lemma def_occ_in g nt rs : def_occ g nt = Some rs -> exists nt', In (nt', rs) g.
Proof. unfold def_occ. destruct (find _ g) as [[nt' rs']|] eqn:E; [|discriminate]. intros X. inversion X; subst. apply find_some in E as [E _]. eauto. Qed.
Lemma leads_mentioned g m exc nt t : leads g m exc nt t -> In t (mentioned g).
Proof.
  intros (r & bits & ((rs & D & I) & _) & _ & _ & P). destruct (def_occ_in _ _ _ D) as [nt' J]. apply in_flat_map. exists (nt', rs). split; [assumption|]. cbn [snd]. apply in_flat_map. exists r. split; [assumption|]. apply (present_all _ bits). rewrite P. now left.
Qed.
Lemma do_rhss_ok m exc nt rs : Forall (fun r => length (RSQs_of r) <= 3) rs -> forall st, exists st', do_rhss m exc nt rs st = Ok st'.
Proof.
  induction 1 as [|r rs H F IH]; intros st; [eexists; reflexivity|]. cbn [do_rhss]. destruct (each_opt_combo_ok _ H) as [cs E]. rewrite E. cbn [bind]. apply IH.
Qed.
Lemma do_queue_ok g m exc nts : (forall nt rs, def_occ g nt = Some rs -> Forall (fun r => length (RSQs_of r) <= 3) rs) ->
  forall fuel i st, NoDup (nt_queue st) -> incl (nt_queue st) (nts ++ mentioned g) -> length (nts ++ mentioned g) < fuel + i -> i <= length (nt_queue st) -> exists st', do_queue g m exc fuel i st = Ok st'.
Proof.
  intros W. induction fuel as [|f IH]; intros i st ND IN LF LI.
  - pose proof (NoDup_incl_length ND IN). lia.
  - cbn [do_queue]. destruct (nth_error (nt_queue st) i) as [nt|] eqn:N; [|eexists; reflexivity].
    assert (X : exists st1, match def_occ g nt with None => Ok st | Some rs => do_rhss m exc nt rs st end = Ok st1).
    { destruct (def_occ g nt) as [rs|] eqn:D; [|eexists; reflexivity]. apply do_rhss_ok. eauto. }
    destruct X as [st1 X]. rewrite X. cbn [bind]. destruct (do_nt_effect g m exc nt st st1 X) as ((l & EL) & ND' & Q & _). apply IH; [auto| |lia|].
    + intros t T. apply Q in T as [T|T]; [auto|]. apply in_or_app. right. exact (leads_mentioned _ _ _ _ _ T).
    + rewrite EL, app_length. pose proof (nth_len _ _ _ N). lia.
Qed.

(* ---- parse trees of the grammar ---- *)

Inductive tree_of (g : cgrammar) : pnode -> Prop :=
| to_node i s r bits a e ch rs rhs : def_occ g s = Some rs -> In rhs rs -> reduced rhs = r -> fits g (citems rhs) ch bits -> tree_of g (PN i (Some s) r bits a e ch)
with fits (g : cgrammar) : list citem -> list pnode -> list nat -> Prop :=
| fi_nil : fits g [] [] []
| fi_gnt nt its c ch bits : sym c = Some nt -> optional nt = false -> tree_of g c -> fits g its ch bits -> fits g (I_GNT nt :: its) (c :: ch) bits
| fi_absent s q qs its ch bits : sym q = Some qs -> optional qs = true -> kids q = [] -> fits g its ch bits -> fits g (I_QM s :: its) (q :: ch) (0 :: bits)
| fi_nt nt q qs c its ch bits : sym q = Some qs -> optional qs = true -> kids q = [c] -> sym c = Some nt -> tree_of g c -> fits g its ch bits -> fits g (I_QM (C_GNT nt) :: its) (q :: ch) (1 :: bits)
| fi_term q qs c its ch bits : sym q = Some qs -> optional qs = true -> kids q = [c] -> is_terminal c = true -> fits g its ch bits -> fits g (I_QM C_term :: its) (q :: ch) (1 :: bits)
| fi_other its ch bits : fits g its ch bits -> fits g (I_other :: its) ch bits
| fi_lit c its ch bits : is_terminal c = true -> fits g its ch bits -> fits g (I_other :: its) (c :: ch) bits.
Lemma fits_spec g its ch bits : fits g its ch bits -> length bits = optionals its /\ Forall (fun b => b = 0 \/ b = 1) bits /\ map sym (flat_map nonterminals_of_child ch) = map Some (present its bits) /\
  Forall (tree_of g) (flat_map nonterminals_of_child ch).
Proof.
  induction 1 as [|nt its c ch bits E Q T F (IH1 & IH2 & IH3 & IH4)|s q qs its ch bits E Q K F (IH1 & IH2 & IH3 & IH4)|nt q qs c its ch bits E Q K E2 T F (IH1 & IH2 & IH3 & IH4)|q qs c its ch bits E Q K T F (IH1 & IH2 & IH3 & IH4)|its ch bits F (IH1 & IH2 & IH3 & IH4)|c its ch bits T F (IH1 & IH2 & IH3 & IH4)];
    cbn [flat_map present optionals filter length app map tl] in *.
  - repeat split; constructor.
  - unfold nonterminals_of_child at 1 3. rewrite E, Q. cbn [app map]. rewrite E, IH3. repeat split; auto.
  - unfold nonterminals_of_child at 1 3. rewrite E, Q, K. cbn [filter app map]. repeat split; auto. destruct s; exact IH3.
  - unfold nonterminals_of_child at 1 3. rewrite E, Q, K. unfold is_terminal. cbn [filter]. rewrite E2. cbn [negb app map]. rewrite E2, IH3. repeat split; auto.
  - unfold nonterminals_of_child at 1 3. rewrite E, Q, K. cbn [filter]. rewrite T. cbn [negb app map]. repeat split; auto.
  - auto.
  - unfold nonterminals_of_child at 1 3. unfold is_terminal in T. destruct (sym c); [discriminate|]. cbn [app]. auto.
Qed.
Lemma tree_sound g m exc nts name fuel : NoDup (map fst m) -> Forall (fun e => snd e <> []) m ->
  (forall nt x, reached g m exc nts nt -> ~ said g m exc nt x) ->
  forall n s, height n <= fuel -> sane n -> tree_of g n -> sym n = Some s -> reached g m exc nts s ->
  exists f, chain_path m n f /\ ((exists d k, chain fuel m name n = Ok (Run d f) /\ production f k /\ In (k, [d]) m) \/ (exists s' r b, production f (s', r, b) /\ exc s' r = true)).
Proof.
  intros ND NE NS. induction fuel as [|fuel IH]; intros n s HF SN T ES R; [destruct n; cbn in HF; lia|].
  inversion T as [i s0 r bits a e ch rs rhs D IR ER FI]; subst n. cbn [sym] in ES. inversion ES; subst s0. clear ES. destruct (fits_spec _ _ _ _ FI) as (F1 & F2 & F3 & F4).
  assert (K : key_of g s rhs bits) by (split; [eauto|auto]). cbn [chain puk_of bind]. subst r. set (n := PN i (Some s) (reduced rhs) bits a e ch) in *.
  assert (PK : production n (s, reduced rhs, bits)) by (exists s; auto).
  destruct (pget m (s, reduced rhs, bits)) as [ds|] eqn:G.
  - unfold the_defn. rewrite G. pose proof (pget_in _ _ _ G) as IG. rewrite Forall_forall in NE. specialize (NE _ IG). cbn [snd] in NE. destruct ds as [|d [|d' ds]]; [contradiction| |].
    + exists n. split; [constructor|]. left. exists d, (s, reduced rhs, bits). auto.
    + exfalso. apply (NS s (Handled (s, reduced rhs, bits) (length (d :: d' :: ds))) R). left. exists rhs, bits. rewrite n_rules_pget, G. split; [assumption|]. split; [cbn; lia|reflexivity].
  - assert (N0 : n_rules m (s, reduced rhs, bits) = 0) by (now rewrite n_rules_pget, G). destruct (exc s (reduced rhs)) eqn:EX.
    + exists n. split; [constructor|]. right. exists s, (reduced rhs), bits. auto.
    + destruct (present (citems rhs) bits) as [|t [|t' l]] eqn:EP.
      * exfalso. apply (NS s (NeedsRule (s, reduced rhs, bits)) R). right. exists rhs, bits. rewrite EP. repeat split; auto; apply K.
      * assert (C : exists c, nonterminals n = [c] /\ sym c = Some t /\ tree_of g c).
        { unfold nonterminals. cbn [n kids]. destruct (flat_map nonterminals_of_child ch) as [|c [|c' l]]; cbn in F3; try discriminate. inversion F3. inversion F4; subst. eauto. }
        destruct C as (c & C & EC & TC). assert (DC : direct_chain n = Some c) by now apply (direct_chain_spec n SN). rewrite DC. destruct (nonterminals_below n c) as (B & HH & _); [rewrite C; now left|].
        destruct (IH c t) as (f & P & H); [lia|exact (sane_below c n B SN)|assumption|assumption|exact (re_chain g m exc nts s rhs bits t R K N0 EX EP)|]. exists f. split; [|assumption].
        exact (cp_on m n c f s (reduced rhs) bits i a e ch eq_refl (proj1 (pget_none _ _) G) C P).
      * exfalso. apply (NS s (NeedsRule (s, reduced rhs, bits)) R). right. exists rhs, bits. rewrite EP. cbn [length]. repeat split; auto; apply K.
Qed.
