(* Specifications and lemmas for M_GramCheck. *)
From Verif Require Import M_Base L_Base M_Dict L_Dict M_GramCheck.

Lemma NoDup_app_intro {A} (l l' : list A) : NoDup l -> NoDup l' -> (forall x, In x l -> In x l' -> False) -> NoDup (l ++ l').
Proof.
  induction 1 as [|x l Hx H IH]; cbn; intros H' HD; [exact H'|]. constructor.
  - rewrite in_app_iff. intros [Q|Q]; [contradiction|]. exact (HD x (or_introl eq_refl) Q).
  - apply IH; [exact H'|]. intros y Hy. apply HD. now right.
Qed.
Lemma NoDup_map_inj {A B} (f : A -> B) l : (forall x y, In x l -> In y l -> f x = f y -> x = y) -> NoDup l -> NoDup (map f l).
Proof.
  induction l as [|x l IH]; cbn; intros Hi Hn; [constructor|]. inversion Hn; subst. constructor.
  - rewrite in_map_iff. intros (y & E & Hy). apply Hi in E; [subst; contradiction|now right|now left].
  - apply IH; [|assumption]. intros; apply Hi; auto.
Qed.

(* ---- parameter settings ---- *)

Lemma vec_exact n vs : each_boolean_vector_of_length n = Ok vs -> NoDup vs /\ forall v, In v vs <-> length v = n.
Proof.
  assert (L : forall (v : list bool) m, length v = S m <-> exists b w, v = b :: w /\ length w = m).
  { intros v m. split; [|intros (b & w & -> & E); cbn; now rewrite E]. destruct v as [|b w]; [discriminate|]. cbn. intros [= E]. eauto. }
  assert (Z : forall v : list bool, length v = 0 <-> v = []) by (intros [|]; split; cbn; congruence).
  destruct n as [|[|[|[|[|n]]]]]; cbn [each_boolean_vector_of_length]; intros [= <-]; (split; [repeat (constructor; [cbn; intuition discriminate|]); constructor|]); intros v.
  - rewrite Z. cbn. intuition.
  - split.
    + cbn. intros H. repeat (destruct H as [<-|H]; [reflexivity|]). destruct H.
    + intros H. apply L in H as (a & w & -> & H). apply Z in H as ->. destruct a; cbn; auto.
  - split.
    + cbn. intros H. repeat (destruct H as [<-|H]; [reflexivity|]). destruct H.
    + intros H. apply L in H as (a & w & -> & H). apply L in H as (b & w' & -> & H). apply Z in H as ->. destruct a, b; cbn; auto 10.
  - split.
    + cbn. intros H. repeat (destruct H as [<-|H]; [reflexivity|]). destruct H.
    + intros H. apply L in H as (a & w & -> & H). apply L in H as (b & w' & -> & H). apply L in H as (c & w2 & -> & H). apply Z in H as ->.
      destruct a, b, c; cbn; auto 20.
  - split.
    + cbn. intros H. repeat (destruct H as [<-|H]; [reflexivity|]). destruct H.
    + intros H. apply L in H as (a & w & -> & H). apply L in H as (b & w' & -> & H). apply L in H as (c & w2 & -> & H). apply L in H as (d & w3 & -> & H). apply Z in H as ->.
      destruct a, b, c, d; cbn; auto 30.
Qed.
Lemma map_snd_combine {A B} (l : list A) : forall (l' : list B), length l = length l' -> map snd (combine l l') = l'.
Proof. induction l as [|x l IH]; intros [|y l'] H; cbn in *; try discriminate; auto. f_equal. auto. Qed.
Lemma combine_split_eq {A B} (s : list (A * B)) : combine (map fst s) (map snd s) = s.
Proof. induction s as [|[a b] s IH]; cbn; congruence. Qed.
Lemma map_fst_combine {A B} (l : list A) : forall (l' : list B), length l = length l' -> map fst (combine l l') = l.
Proof. induction l as [|x l IH]; intros [|y l'] H; cbn in *; try discriminate; auto. f_equal. auto. Qed.
Lemma settings_exact params ss : each_params_setting params = Ok ss ->
  NoDup ss /\ forall s, In s ss <-> map snd s = params.
Proof.
  unfold each_params_setting. intros H. apply bind_ok in H as (vs & E & [= <-]). destruct (vec_exact _ _ E) as [N X]. split.
  - apply NoDup_map_inj; [|exact N]. intros v w Hv Hw Q. apply X in Hv, Hw. rewrite <- (map_fst_combine v params), Q, (map_fst_combine w params); auto.
  - intros s. rewrite in_map_iff. split.
    + intros (v & <- & Hv). apply map_snd_combine. now apply X.
    + intros H. exists (map fst s). split; [|apply X; rewrite map_length, <- H, map_length; reflexivity]. rewrite <- H. apply combine_split_eq.
Qed.
Lemma settings_len params : (exists ss, each_params_setting params = Ok ss) <-> length params <= 4.
Proof.
  unfold each_params_setting. split.
  - intros [ss H]. apply bind_ok in H as (vs & E & _). destruct (length params) as [|[|[|[|[|n]]]]]; try lia. discriminate.
  - intros H. destruct (length params) as [|[|[|[|[|n]]]]]; try lia; eexists; reflexivity.
Qed.
Lemma settings_err params : 4 < length params -> each_params_setting params = Err AssertionError.
Proof. unfold each_params_setting. intros H. destruct (length params) as [|[|[|[|[|n]]]]]; try lia. reflexivity. Qed.
Lemma settings_count params ss : each_params_setting params = Ok ss -> length ss = 2 ^ length params.
Proof.
  unfold each_params_setting. intros H. apply bind_ok in H as (vs & E & [= <-]). rewrite map_length.
  destruct (length params) as [|[|[|[|[|n]]]]]; cbn in E; try discriminate; injection E as <-; reflexivity.
Qed.

(* ---- expansion of arguments ---- *)

(* the sign with which an argument is passed on in a setting *)
Definition arg_sign (setting : list (bool * nat)) (p : arg_prefix) (a : nat) (b : bool) : Prop :=
  match p with
  | AQuestion => In (b, a) setting
  | APlus => b = true
  | ATilde => b = false
  | AOther => False
  end.
Lemma expand_args_spec setting (HN : NoDup (map snd setting)) args : forall r, expand_args args setting = Ok r <->
  Forall2 (fun pa s => snd s = snd pa /\ arg_sign setting (fst pa) (snd pa) (fst s)) args r.
Proof.
  induction args as [|[p a] args IH]; intros r; cbn [expand_args].
  - split; [intros [= <-]; constructor|]. intros H. inversion H. reflexivity.
  - rewrite bind_ok. split.
    + intros (s & Es & H). apply bind_ok in H as (r' & Er & [= <-]). constructor; [|now apply IH]. cbn. destruct p; cbn.
      * destruct (find _ setting) as [e|] eqn:F; [|discriminate]. injection Es as <-. apply find_some in F as [F1 F2]. apply Nat.eqb_eq in F2. destruct e. cbn in *. now subst.
      * now injection Es as <-.
      * now injection Es as <-.
      * discriminate.
    + intros H. inversion H as [|? s ? r' [H1 H2] H3]; subst. cbn in H1, H2. apply IH in H3. exists s. rewrite H3. split; [|reflexivity]. destruct s as [b x]. cbn in H1, H2. subst x.
      destruct p; cbn in H2; subst; try reflexivity; [|contradiction].
      destruct (find (fun e => snd e =? a) setting) as [[b' x]|] eqn:F.
      * apply find_some in F as [F1 F2]. apply Nat.eqb_eq in F2. cbn in F2. subst x. f_equal. clear -HN F1 H2. induction setting as [|[c y] l IH]; [destruct F1|].
        cbn in HN. inversion HN; subst. destruct F1 as [Q1|Q1], H2 as [Q2|Q2].
        -- congruence.
        -- injection Q1 as -> ->. exfalso. apply H1. now apply (in_map snd) in Q2.
        -- injection Q2 as -> ->. exfalso. apply H1. now apply (in_map snd) in Q1.
        -- auto.
      * exfalso. apply find_none with (x := (b, a)) in F; [|exact H2]. cbn in F. rewrite Nat.eqb_refl in F. discriminate.
Qed.

(* ---- optional bits ---- *)

Definition covers (o : optionality) (b : bool) : Prop := match o with omitted => b = false | required => b = true | either => True end.
Lemma optbits_in os : forall bs, In bs (each_optbits_covered_by os) <-> Forall2 covers os bs.
Proof.
  induction os as [|o os IH]; intros bs; cbn [each_optbits_covered_by].
  - cbn. split; [intros [<-|[]]; constructor|]. intros H. inversion H. now left.
  - rewrite in_app_iff. split.
    + destruct o; cbn; rewrite ?in_map_iff; (intros [H|H]; [try destruct H as (w & <- & H)|try destruct H as (w & <- & H)]); try contradiction;
        constructor; cbn; auto; now apply IH.
    + intros H. inversion H as [|? b ? w Hb Hw]; subst. apply IH in Hw. destruct o, b; cbn in *; try discriminate; rewrite ?in_map_iff; eauto.
Qed.
Lemma optbits_nodup os : NoDup (each_optbits_covered_by os).
Proof.
  assert (C : forall b (l : list (list bool)), NoDup l -> NoDup (map (cons b) l)) by (intros; apply NoDup_map_inj; [congruence|assumption]).
  induction os as [|o os IH]; cbn [each_optbits_covered_by]; [repeat constructor; intros []|]. apply NoDup_app_intro.
  - destruct o; auto; constructor.
  - destruct o; auto; constructor.
  - intros x. destruct o; cbn; try tauto. rewrite !in_map_iff. intros (w & <- & _) (w' & Q & _). discriminate.
Qed.

(* ---- right-hand sides ---- *)

(* two symbols that are the same, up to the parameters of a nonterminal *)
Definition same_sym (u d : gsym) : Prop :=
  match u, d with
  | GNT n _, GNT n' _ => n = n'
  | Sym k t, Sym k' t' => k = k' /\ t = t'
  | _, _ => False
  end.
(* annotations *)
Definition annotation (d : gsym) : Prop :=
  match d with
  | Sym k _ => In k [PARAMS; LABEL; BUT_ONLY; BUT_NOT; LAC_SINGLE; LAC_SET; NLTH]
  | _ => False
  end.
(* the use is the definition with annotations and optional symbols left out; the list tells what became of the optional symbols *)
Inductive embeds : list gitem -> list gitem -> list optionality -> Prop :=
| em_nil : embeds [] [] []
| em_keep u d us ds os : same_sym u d -> embeds us ds os -> embeds (Plain u :: us) (Plain d :: ds) os
| em_required u d us ds os : same_sym u d -> embeds us ds os -> embeds (Plain u :: us) (QM d :: ds) (required :: os)
| em_either u d us ds os : same_sym u d -> embeds us ds os -> embeds (QM u :: us) (QM d :: ds) (either :: os)
| em_omitted d us ds os : embeds us ds os -> embeds us (QM d :: ds) (omitted :: os)
| em_annotation d us ds os : annotation d -> embeds us ds os -> embeds us (Plain d :: ds) os.

Lemma ikind_eqb_eq a b : ikind_eqb a b = true <-> a = b.
Proof. destruct a, b; cbn; split; congruence. Qed.
Lemma sym_matches_none u d : fst (sym_matches u d) = None <-> ~ same_sym u d.
Proof.
  destruct u as [n ps|k t], d as [n' ps'|k' t']; cbn; try (split; [intros _ []|reflexivity]).
  - destruct (Nat.eqb_spec n n') as [->|Hne]; cbn; [|now split].
    destruct ps', ps; cbn; (split; [discriminate|intros H; destruct (H eq_refl)]).
  - destruct (ikind_eqb k k') eqn:E; cbn.
    + apply ikind_eqb_eq in E. subst k'. destruct (Nat.eqb_spec t t') as [->|Hne]; cbn.
      * destruct k; cbn; (split; [discriminate|intros H; destruct (H (conj eq_refl eq_refl))]).
      * split; [|reflexivity]. intros _ [_ Q]. contradiction.
    + split; [|reflexivity]. intros _ [Q _]. apply ikind_eqb_eq in Q. congruence.
Qed.
Lemma sym_matches_notes u d n : fst (sym_matches u d) = Some n -> optional_notes n = [].
Proof.
  destruct u as [m ps|k t], d as [m' ps'|k' t']; cbn; try discriminate.
  - destruct (m =? m'); cbn; [|discriminate]. destruct ps', ps; cbn; intros [= <-]; reflexivity.
  - destruct (ikind_eqb k k'); cbn; [|discriminate]. destruct (t =? t'); cbn; [|discriminate]. destruct k; cbn; intros [= <-]; reflexivity.
Qed.
Lemma sym_matches_some u d : same_sym u d -> exists n, fst (sym_matches u d) = Some n /\ optional_notes n = [].
Proof.
  intros H. destruct (fst (sym_matches u d)) as [n|] eqn:E; [exists n; split; [reflexivity|]; eapply sym_matches_notes; eassumption|].
  apply sym_matches_none in E. contradiction.
Qed.

(* an item of the use stands for an item of the definition *)
Definition stands (u d : gitem) : Prop :=
  match u, d with
  | Plain u', Plain d' | Plain u', QM d' | QM u', QM d' => same_sym u' d'
  | QM _, Plain _ => False
  end.
Definition stands_opt (u d : gitem) : list optionality :=
  match u, d with Plain _, QM _ => [required] | QM _, QM _ => [either] | _, _ => [] end.
Lemma optional_notes_app a b : optional_notes (a ++ b) = optional_notes a ++ optional_notes b.
Proof. unfold optional_notes. apply flat_map_app. Qed.
Lemma item_matches_some u d n : fst (item_matches u d) = Some n -> stands u d /\ optional_notes n = stands_opt u d.
Proof.
  destruct d as [d|d], u as [u|u]; cbn [item_matches stands stands_opt].
  - intros H. split; [|eapply sym_matches_notes; eassumption]. destruct (sym_matches_none u d) as [_ Q].
    assert (D : same_sym u d \/ ~ same_sym u d).
    { destruct u as [m ps|k t], d as [m' ps'|k' t']; cbn; try tauto; [destruct (Nat.eq_dec m m'); auto|].
      destruct (ikind_eqb k k') eqn:E; [|right; intros [Q' _]; apply ikind_eqb_eq in Q'; congruence]. apply ikind_eqb_eq in E. destruct (Nat.eq_dec t t'); tauto. }
    destruct D as [D|D]; [exact D|]. rewrite (Q D) in H. discriminate.
  - discriminate.
  - destruct (sym_matches u d) as [m msgs] eqn:E. cbn. destruct m as [n'|]; [|discriminate]. intros [= <-].
    assert (fst (sym_matches u d) = Some n') as E' by now rewrite E. split.
    + destruct u as [m ps|k t], d as [m' ps'|k' t']; cbn in E' |- *; try discriminate.
      * destruct (Nat.eqb_spec m m'); cbn in E'; [assumption|discriminate].
      * destruct (ikind_eqb k k') eqn:Ek; cbn in E'; [|discriminate]. apply ikind_eqb_eq in Ek. destruct (Nat.eqb_spec t t'); cbn in E'; [auto|discriminate].
    + rewrite optional_notes_app, (sym_matches_notes _ _ _ E'). reflexivity.
  - destruct (sym_matches u d) as [m msgs] eqn:E. cbn. destruct m as [n'|]; [|discriminate]. intros [= <-].
    assert (fst (sym_matches u d) = Some n') as E' by now rewrite E. split.
    + destruct u as [m ps|k t], d as [m' ps'|k' t']; cbn in E' |- *; try discriminate.
      * destruct (Nat.eqb_spec m m'); cbn in E'; [assumption|discriminate].
      * destruct (ikind_eqb k k') eqn:Ek; cbn in E'; [|discriminate]. apply ikind_eqb_eq in Ek. destruct (Nat.eqb_spec t t'); cbn in E'; [auto|discriminate].
    + rewrite optional_notes_app, (sym_matches_notes _ _ _ E'). reflexivity.
Qed.
Lemma item_matches_none u d : fst (item_matches u d) = None -> ~ stands u d.
Proof.
  destruct d as [d|d], u as [u|u]; cbn [item_matches stands].
  - apply sym_matches_none.
  - intros _ [].
  - destruct (sym_matches u d) as [m msgs] eqn:E. cbn. destruct m; [discriminate|]. intros _. apply sym_matches_none. now rewrite E.
  - destruct (sym_matches u d) as [m msgs] eqn:E. cbn. destruct m; [discriminate|]. intros _. apply sym_matches_none. now rewrite E.
Qed.
Definition leavable (d : gitem) : Prop := match d with Plain s => annotation s | QM _ => True end.
Lemma item_optional_some d n : item_optional d = Some n -> leavable d /\ optional_notes n = match d with QM _ => [omitted] | _ => [] end.
Proof. destruct d as [[m ps|k t]|s]; cbn; [discriminate| |intros [= <-]; auto]. destruct k; try discriminate; intros [= <-]; cbn; split; auto 10. Qed.
Lemma item_optional_none d : item_optional d = None -> ~ leavable d.
Proof. destruct d as [[m ps|k t]|s]; cbn; [tauto| |discriminate]. destruct k; cbn; try discriminate; intros _ H; repeat (destruct H as [H|H]; [discriminate|]); exact H. Qed.

Lemma embeds_stand u d us ds os : stands u d -> embeds us ds os -> embeds (u :: us) (d :: ds) (stands_opt u d ++ os).
Proof. destruct u, d; cbn; intros H E; try contradiction; constructor; assumption. Qed.
Lemma embeds_leave d us ds os : leavable d -> embeds us ds os -> embeds us (d :: ds) (match d with QM _ => [omitted] | _ => [] end ++ os).
Proof. destruct d; cbn; intros H E; constructor; assumption. Qed.

Lemma rhs_sound ds : forall us n, fst (u_rhs_matches_d_rhs us ds) = Some n -> embeds us ds (optional_notes n).
Proof.
  induction ds as [|d ds IH]; intros us n; cbn [u_rhs_matches_d_rhs].
  - destruct us; cbn; [intros [= <-]; constructor|discriminate].
  - set (mm := match us with u :: _ => item_matches u d | [] => (None, []) end). assert (Hmm : mm = match us with u :: _ => item_matches u d | [] => (None, []) end) by reflexivity. clearbody mm.
    destruct mm as [m msgs]. destruct m as [n1|].
    + destruct us as [|u us]; [discriminate|]. cbn [tl]. specialize (IH us). destruct (u_rhs_matches_d_rhs us ds) as [r msgs']. cbn [fst] in *. destruct r as [n2|]; [|discriminate]. intros [= <-].
      destruct (item_matches_some u d n1) as [HS HO]; [now rewrite <- Hmm|]. rewrite optional_notes_app, HO. apply embeds_stand; auto.
    + destruct (item_optional d) as [n1|] eqn:Eo; [|discriminate]. specialize (IH us). destruct (u_rhs_matches_d_rhs us ds) as [r msgs']. cbn [fst] in *. destruct r as [n2|]; [|discriminate]. intros [= <-].
      destruct (item_optional_some d n1 Eo) as [HS HO]. rewrite optional_notes_app, HO. apply embeds_leave; auto.
Qed.

Lemma embeds_inv us ds os : embeds us ds os ->
  match ds with
  | [] => us = [] /\ os = []
  | d :: ds' => (exists u us' os', us = u :: us' /\ stands u d /\ embeds us' ds' os' /\ os = stands_opt u d ++ os') \/
                (exists os', leavable d /\ embeds us ds' os' /\ os = match d with QM _ => [omitted] | _ => [] end ++ os')
  end.
Proof.
  destruct 1; auto.
  - left. exists (Plain u), us, os. auto.
  - left. exists (Plain u), us, os. auto.
  - left. exists (QM u), us, os. auto.
  - right. exists os. cbn. auto.
  - right. exists os. auto.
Qed.
Lemma embeds_first ds : forall u us os, embeds (u :: us) ds os -> exists mid d post, ds = mid ++ d :: post /\ Forall leavable mid /\ stands u d.
Proof.
  induction ds as [|d ds IH]; intros u us os H; apply embeds_inv in H; [destruct H; discriminate|].
  destruct H as [(u' & us' & os' & [= -> ->] & S & _)|(os' & L & H & _)].
  - exists [], d, ds. auto.
  - apply IH in H as (mid & d' & post & -> & F & S). exists (d :: mid), d', post. auto.
Qed.
(* no item could stand both for something that may be left out and for the next things after it *)
Definition unambiguous (ds : list gitem) : Prop :=
  forall pre d mid d' post, ds = pre ++ d :: mid ++ d' :: post -> leavable d -> Forall leavable mid -> forall u, stands u d -> stands u d' -> False.
Lemma unambiguous_tl d ds : unambiguous (d :: ds) -> unambiguous ds.
Proof. intros H pre d1 mid d' post -> . apply (H (d :: pre) d1 mid d' post). reflexivity. Qed.
Lemma rhs_complete ds : unambiguous ds -> forall us os, embeds us ds os -> exists n, fst (u_rhs_matches_d_rhs us ds) = Some n /\ optional_notes n = os.
Proof.
  induction ds as [|d ds IH]; intros HU us os H; cbn [u_rhs_matches_d_rhs].
  - apply embeds_inv in H as [-> ->]. exists []. auto.
  - specialize (IH (unambiguous_tl _ _ HU)). pose proof H as H0. apply embeds_inv in H. destruct H as [(u & us' & os' & -> & S & H & ->)|(os' & L & H & ->)].
    + destruct (item_matches u d) as [m msgs] eqn:E. destruct m as [n1|].
      * destruct (item_matches_some u d n1) as [_ HO]; [now rewrite E|]. cbn [tl]. apply IH in H as (n2 & E2 & <-). destruct (u_rhs_matches_d_rhs us' ds) as [r msgs']. cbn in E2. subst r.
        exists (n1 ++ n2). cbn. split; [reflexivity|]. now rewrite optional_notes_app, HO.
      * exfalso. apply (item_matches_none u d); [now rewrite E|exact S].
    + assert (HL : forall msgs : list gmsg, exists n, fst (match item_optional d with
              | Some n0 => let (r, msgs') := u_rhs_matches_d_rhs us ds in (match r with Some n' => Some (n0 ++ n') | None => None end, msgs ++ msgs')
              | None => (None, msgs) end) = Some n /\ optional_notes n = match d with QM _ => [omitted] | _ => [] end ++ os').
      { intros msgs. destruct (item_optional d) as [n1|] eqn:Eo; [|destruct (item_optional_none d Eo L)]. destruct (item_optional_some d n1 Eo) as [_ HO].
        apply IH in H as (n2 & E2 & <-). destruct (u_rhs_matches_d_rhs us ds) as [r msgs']. cbn in E2. subst r. exists (n1 ++ n2). cbn [fst]. split; [reflexivity|]. now rewrite optional_notes_app, HO. }
      destruct us as [|u us]; [apply HL|]. destruct (item_matches u d) as [m msgs] eqn:E. destruct m as [n1|]; [|apply HL].
      exfalso. destruct (item_matches_some u d n1) as [S _]; [now rewrite E|]. apply embeds_first in H as (mid & d' & post & -> & F & S').
      exact (HU [] d mid d' post eq_refl L F u S S').
Qed.
Lemma embeds_len us ds os : embeds us ds os -> length os = length (filter (fun d => match d with QM _ => true | Plain _ => false end) ds).
Proof. induction 1; cbn; auto. Qed.

(* ---- reachability ---- *)

Definition refs (it : ritem) (y : nat) : Prop :=
  match it with
  | R_QM_nt n | R_GNT n | R_LAC_SET (Some n) => y = n
  | R_BUT_NOT ns => In y ns
  | _ => False
  end.
Definition defn (g : list nt_info) (x : nat) (its : list ritem) : Prop := exists i, In i g /\ nt_name i = x /\ nt_def i = Some its.
(* the definition of x mentions y *)
Definition mentions (g : list nt_info) (x y : nat) : Prop := exists its it, defn g x its /\ In it its /\ refs it y.
Inductive reachable (g : list nt_info) (starts : list nat) : nat -> Prop :=
| re_start x : In x starts -> reachable g starts x
| re_step x y : reachable g starts x -> mentions g x y -> reachable g starts y.
Definition sound_def (g : list nt_info) (x : nat) : Prop := exists its, defn g x its /\ ~ In R_unexpected its.

Definition inv (L : list nat) (done q : list nat) : Prop := L = done ++ q /\ NoDup L.
Lemma reach_spec done q x : NoDup (done ++ q) -> exists add, reach (done ++ q, q) x = (done ++ q ++ add, q ++ add) /\ NoDup (done ++ q ++ add) /\
  forall y, In y (done ++ q ++ add) <-> In y (done ++ q) \/ y = x.
Proof.
  intros HN. unfold reach. cbn [fst snd]. destruct (nmem x (done ++ q)) eqn:E.
  - exists []. rewrite app_nil_r. apply nmem_in in E. split; [reflexivity|split; [exact HN|]]. intros y. split; [auto|]. intros [H| ->]; assumption.
  - apply nmem_nin in E. exists [x]. assert (nmem x q = false) as -> by (apply nmem_nin; intros H; apply E; apply in_or_app; now right).
    rewrite <- app_assoc. split; [reflexivity|]. split.
    + rewrite app_assoc. apply NoDup_app_intro; [exact HN|repeat constructor; intros []|]. intros y Hy [<-|[]]. contradiction.
    + intros y. rewrite app_assoc, (in_app_iff (done ++ q)). cbn. split; [intros [H|[H|[]]]; auto|intros [H|H]; auto].
Qed.
Lemma reach_fold done ns : forall q, NoDup (done ++ q) -> exists add, fold_left reach ns (done ++ q, q) = (done ++ q ++ add, q ++ add) /\ NoDup (done ++ q ++ add) /\
  forall y, In y (done ++ q ++ add) <-> In y (done ++ q) \/ In y ns.
Proof.
  induction ns as [|n ns IH]; intros q HN; cbn [fold_left].
  - exists []. rewrite app_nil_r. split; [reflexivity|split; [exact HN|]]. cbn. tauto.
  - destruct (reach_spec done q n HN) as (a & -> & HN' & HI). destruct (IH (q ++ a) HN') as (b & -> & HN2 & HI2). exists (a ++ b). rewrite <- app_assoc in *. split; [reflexivity|]. split; [exact HN2|].
    intros y. rewrite HI2, HI. cbn. split; [intros [[H| ->]|H]; auto|intros [H|[H|H]]; auto].
Qed.
Lemma reach_items_spec done its : forall q, NoDup (done ++ q) -> match reach_items its (done ++ q, q) with
  | Err e => e = AssertionError /\ In R_unexpected its
  | Ok st => ~ In R_unexpected its /\ exists add, st = (done ++ q ++ add, q ++ add) /\ NoDup (done ++ q ++ add) /\
             forall y, In y (done ++ q ++ add) <-> In y (done ++ q) \/ exists it, In it its /\ refs it y
  end.
Proof.
  induction its as [|it its IH]; intros q HN; cbn [reach_items].
  - split; [intros []|]. exists []. rewrite app_nil_r. split; [reflexivity|split; [exact HN|]]. intros y. split; [auto|]. intros [H|(it & [] & _)]. exact H.
  - assert (K : forall ns, (forall y, refs it y <-> In y ns) -> it <> R_unexpected -> match reach_items its (fold_left reach ns (done ++ q, q)) with
      | Err e => e = AssertionError /\ In R_unexpected (it :: its)
      | Ok st => ~ In R_unexpected (it :: its) /\ exists add, st = (done ++ q ++ add, q ++ add) /\ NoDup (done ++ q ++ add) /\
             forall y, In y (done ++ q ++ add) <-> In y (done ++ q) \/ exists it', In it' (it :: its) /\ refs it' y
      end).
    { intros ns Hns Hne. destruct (reach_fold done ns q HN) as (a & -> & HN' & HI). specialize (IH (q ++ a) HN'). destruct (reach_items its _) as [st|e].
      - destruct IH as (HU & b & -> & HN2 & HI2). split; [intros [Q|Q]; [contradiction|exact (HU Q)]|]. exists (a ++ b). rewrite <- app_assoc in *. split; [reflexivity|]. split; [exact HN2|].
        intros y. rewrite HI2, HI, <- Hns. cbn. split.
        + intros [[H|H]|(it' & H & H')]; [auto|right; eauto|right; eauto].
        + intros [H|(it' & [<-|H] & H')]; [auto|auto|right; eauto].
      - destruct IH as [-> HU]. split; [reflexivity|now right]. }
    destruct it as [n| |n|ns|[n|]| |]; cbn [bind].
    + apply (K [n]); [cbn; intuition|discriminate].
    + apply (K []); [cbn; intuition|discriminate].
    + apply (K [n]); [cbn; intuition|discriminate].
    + apply (K ns); [cbn; intuition|discriminate].
    + apply (K [n]); [cbn; intuition|discriminate].
    + apply (K []); [cbn; intuition|discriminate].
    + apply (K []); [cbn; intuition|discriminate].
    + split; [reflexivity|now left].
Qed.

Lemma find_name g x : NoDup (map nt_name g) -> forall i, find (fun i => nt_name i =? x) g = Some i <-> In i g /\ nt_name i = x.
Proof.
  intros HN i. split.
  - intros H. apply find_some in H as [H1 H2]. apply Nat.eqb_eq in H2. auto.
  - intros [H1 H2]. induction g as [|j g IH]; [destruct H1|]. cbn in HN |- *. inversion HN; subst. destruct H1 as [->|H1].
    + now rewrite Nat.eqb_refl.
    + destruct (Nat.eqb_spec (nt_name j) (nt_name i)) as [Q|Q]; [|auto]. exfalso. apply H3. rewrite Q. now apply in_map.
Qed.
Lemma defn_fun g x a b : NoDup (map nt_name g) -> defn g x a -> defn g x b -> a = b.
Proof.
  intros HN (i & Hi & Ei & Di) (j & Hj & Ej & Dj). assert (Some i = Some j) as Q; [|injection Q as ->; congruence].
  rewrite <- (proj2 (find_name g x HN i)), <- (proj2 (find_name g x HN j)); auto.
Qed.

Section Reach.
  Variable g : list nt_info.
  Variable starts : list nat.
  Hypothesis HN : NoDup (map nt_name g).
  Notation R := (reachable g starts).
  Lemma loop_spec fuel : forall done q,
    NoDup (done ++ q) -> (forall x, In x (done ++ q) -> R x) -> incl starts (done ++ q) ->
    (forall x, In x done -> sound_def g x /\ forall y, mentions g x y -> In y (done ++ q)) -> length g < fuel + length done ->
    match reach_loop fuel g (done ++ q, q) with
    | Ok l => (forall x, In x l <-> R x) /\ forall x, R x -> sound_def g x
    | Err e => exists x, R x /\ ((e = KeyError /\ forall its, ~ defn g x its) \/ (e = AssertionError /\ exists its, defn g x its /\ In R_unexpected its))
    end.
  Proof.
    induction fuel as [|fuel IH]; intros done q Hnd HR HS HD HF.
    - exfalso. assert (incl done (map nt_name g)) as HI.
      { intros x Hx. destruct (HD x Hx) as [(its & (i & Hi & <- & _) & _) _]. now apply in_map. }
      assert (NoDup done) as Hdd. { clear -Hnd. induction done as [|x l IH]; [constructor|]. cbn in Hnd. inversion Hnd; subst. constructor; [|auto]. intros H. apply H1. apply in_or_app. now left. }
      pose proof (NoDup_incl_length Hdd HI) as Q. rewrite map_length in Q. cbn in HF. lia.
    - cbn [reach_loop fst snd]. destruct q as [|x q].
      + rewrite app_nil_r in *. assert (K : forall x, R x -> In x done) by (induction 1 as [x Hx|x y _ IHx Hm]; [now apply HS|now apply (proj2 (HD x IHx))]). split.
        * intros x. split; [apply HR|apply K].
        * intros x Hx. apply HD. now apply K.
      + assert (Rx : R x) by (apply HR; apply in_or_app; right; now left).
        destruct (find (fun i => nt_name i =? x) g) as [i|] eqn:F.
        2:{ exists x. split; [exact Rx|]. left. split; [reflexivity|]. intros its (i & Hi & <- & _). apply find_none with (x := i) in F; [|exact Hi]. cbn in F. rewrite Nat.eqb_refl in F. discriminate. }
        destruct (find_some _ _ F) as [Hi Ei]. apply Nat.eqb_eq in Ei.
        destruct (nt_def i) as [its|] eqn:D.
        2:{ exists x. split; [exact Rx|]. left. split; [reflexivity|]. intros its (j & Hj & Ej & Dj). apply (find_name g x HN) in F as [_ _].
            assert (Some i = Some j) as Q; [|injection Q as ->; congruence]. rewrite <- (proj2 (find_name g x HN i)), <- (proj2 (find_name g x HN j)); auto. }
        assert (Dx : defn g x its) by (exists i; auto).
        assert (Hnd' : NoDup ((done ++ [x]) ++ q)) by now rewrite <- app_assoc.
        pose proof (reach_items_spec (done ++ [x]) its q Hnd') as HI. replace (done ++ x :: q) with ((done ++ [x]) ++ q) by now rewrite <- app_assoc.
        destruct (reach_items its ((done ++ [x]) ++ q, q)) as [st|e]; cbn [bind].
        * destruct HI as (HU & add & -> & Hnd2 & HI). apply IH; clear IH.
          -- exact Hnd2.
          -- intros y Hy. apply HI in Hy as [Hy|(it & H1 & H2)]; [apply HR; now rewrite <- app_assoc in Hy|]. apply re_step with x; [exact Rx|]. exists its, it. auto.
          -- intros y Hy. apply HI. left. rewrite <- app_assoc. now apply HS.
          -- intros y Hy. apply in_app_iff in Hy as [Hy|[<-|[]]].
             ++ destruct (HD y Hy) as [H1 H2]. split; [exact H1|]. intros z Hz. apply HI. left. rewrite <- app_assoc. now apply H2.
             ++ split; [exists its; auto|]. intros z (its' & it & Dy & Hit & Hz). rewrite (defn_fun _ _ _ _ HN Dy Dx) in Hit. apply HI. right. eauto.
          -- rewrite app_length. cbn. lia.
        * destruct HI as [-> HU]. exists x. split; [exact Rx|]. right. split; [reflexivity|]. exists its. auto.
  Qed.
  Lemma loop_start fuel : length g < fuel -> match reach_loop fuel g (fold_left reach starts ([], [])) with
    | Ok l => (forall x, In x l <-> R x) /\ forall x, R x -> sound_def g x
    | Err e => exists x, R x /\ ((e = KeyError /\ forall its, ~ defn g x its) \/ (e = AssertionError /\ exists its, defn g x its /\ In R_unexpected its))
    end.
  Proof.
    intros HF. destruct (reach_fold [] starts [] (NoDup_nil _)) as (q & E & Hn & HI). cbn [app] in E, Hn, HI. rewrite E. apply (loop_spec fuel [] q).
    - exact Hn.
    - intros x Hx. apply re_start. apply HI in Hx as [[]|Hx]. exact Hx.
    - intros x Hx. apply HI. auto.
    - intros x [].
    - cbn. lia.
  Qed.
End Reach.
