(* Properties C27, C31, C32, C33, C42: enumerations and checks of the grammars. *)
From Verif Require Import M_Base L_Base M_Dict L_Dict M_GramCheck L_GramCheck.

(* ---- C27 ---- *)

(* every assignment of signs to the parameters, in their order, occurs exactly once *)
Theorem C27_exact : forall params ss, each_params_setting params = Ok ss ->
  NoDup ss /\ (forall s, In s ss <-> map snd s = params) /\ length ss = 2 ^ length params.
Proof. intros params ss H. destruct (settings_exact params ss H) as [N X]. split; [exact N|]. split; [exact X|]. now apply settings_count. Qed.
Print Assumptions C27_exact.
Theorem C27_limit : forall params, (length params <= 4 -> exists ss, each_params_setting params = Ok ss) /\
  (4 < length params -> each_params_setting params = Err AssertionError).
Proof. intros params. split; [apply settings_len|apply settings_err]. Qed.
Print Assumptions C27_limit.
Example C27_ex : each_params_setting [7; 8] = Ok [[(false, 7); (false, 8)]; [(false, 7); (true, 8)]; [(true, 7); (false, 8)]; [(true, 7); (true, 8)]].
Proof. reflexivity. Qed.

(* ---- C42 ---- *)

(* the arguments passed on: [+x] and [~x] as written, [?x] with the sign that x has in the setting *)
Theorem C42_exact : forall nt args setting r, NoDup (map snd setting) ->
  expand_nt_wrt_params_setting nt args setting = Ok (nt, r) <->
  Forall2 (fun pa s => snd s = snd pa /\
    match fst pa with AQuestion => In (fst s, snd pa) setting | APlus => fst s = true | ATilde => fst s = false | AOther => False end) args r.
Proof.
  intros nt args setting r HN. unfold expand_nt_wrt_params_setting. rewrite <- (expand_args_spec setting HN). rewrite bind_ok.
  split; [intros (a & E & [= <-]); exact E|]. intros E. eauto.
Qed.
Print Assumptions C42_exact.
(* it fails exactly if some [?x] has no x among the parameters of the production (or a prefix is unknown), and then by assertion *)
Theorem C42_fail : forall nt args setting, (forall x, expand_nt_wrt_params_setting nt args setting <> Ok x) <->
  exists p a, In (p, a) args /\ (p = AOther \/ p = AQuestion /\ ~ In a (map snd setting)).
Proof.
  intros nt args setting. unfold expand_nt_wrt_params_setting. induction args as [|[p a] args IH]; cbn [expand_args].
  - split; [intros H; destruct (H (nt, []) eq_refl)|]. intros (p & a & [] & _).
  - assert (D : (forall x, (do r <- expand_args args setting ;; Ok (nt, r)) <> Ok x) \/ exists r, expand_args args setting = Ok r).
    { destruct (expand_args args setting); [right; eauto|left; discriminate]. }
    assert (B : forall r1 : res (bool * nat), (forall s, r1 = Ok s -> (forall x, (do r <- (do s <- r1 ;; do r <- expand_args args setting ;; Ok (s :: r)) ;; Ok (nt, r)) <> Ok x) <->
               (forall x, (do r <- expand_args args setting ;; Ok (nt, r)) <> Ok x))).
    { intros r1 s ->. cbn [bind]. destruct (expand_args args setting) as [r|e]; cbn [bind]; [|split; discriminate]. split; intros H; [destruct (H (nt, s :: r) eq_refl)|destruct (H (nt, r) eq_refl)]. }
    assert (OK : forall s, (forall x, (do r <- (do s <- Ok s ;; do r <- expand_args args setting ;; Ok (s :: r)) ;; Ok (nt, r)) <> Ok x) <->
             exists p a, In (p, a) args /\ (p = AOther \/ p = AQuestion /\ ~ In a (map snd setting))) by (intros s; rewrite (B (Ok s) s eq_refl); exact IH).
    destruct p.
    + destruct (find (fun e => snd e =? a) setting) as [e|] eqn:F.
      * rewrite OK. split; [intros (p & b & H & H'); exists p, b; split; [now right|exact H']|]. intros (p & b & [[= <- <-]|H] & H'); [|eauto].
        destruct H' as [Q|[_ Q]]; [discriminate|]. destruct Q. apply find_some in F as [F1 F2]. apply Nat.eqb_eq in F2. rewrite <- F2. now apply in_map.
      * split; [|discriminate]. intros _. exists AQuestion, a. split; [now left|]. right. split; [reflexivity|]. rewrite in_map_iff. intros ((b & a') & E & H). cbn in E. subst a'.
        apply find_none with (x := (b, a)) in F; [|exact H]. cbn in F. rewrite Nat.eqb_refl in F. discriminate.
    + rewrite OK. split; [intros (p & b & H & H'); exists p, b; split; [now right|exact H']|]. intros (p & b & [[= <- <-]|H] & H'); [|eauto]. destruct H' as [Q|[Q _]]; discriminate.
    + rewrite OK. split; [intros (p & b & H & H'); exists p, b; split; [now right|exact H']|]. intros (p & b & [[= <- <-]|H] & H'); [|eauto]. destruct H' as [Q|[Q _]]; discriminate.
    + split; [|discriminate]. intros _. exists AOther, a. split; [now left|]. now left.
Qed.
Print Assumptions C42_fail.
Example C42_ex : NoDup (map snd [(true, 7); (false, 8)]) /\
  expand_nt_wrt_params_setting 1 [(AQuestion, 8); (APlus, 9); (AQuestion, 7)] [(true, 7); (false, 8)] = Ok (1, [(false, 8); (true, 9); (true, 7)]).
Proof. split; [repeat constructor; cbn; intuition discriminate|reflexivity]. Qed.
Example C42_ex_fail : forall x, expand_nt_wrt_params_setting 1 [(AQuestion, 9)] [(true, 7); (false, 8)] <> Ok x.
Proof. apply C42_fail. exists AQuestion, 9. split; [now left|]. right. split; [reflexivity|]. cbn. intuition discriminate. Qed.

(* ---- C31 ---- *)

(* exactly the bit strings with 0 at omitted, 1 at required and either at either, each once *)
Theorem C31_exact : forall os, NoDup (each_optbits_covered_by os) /\
  forall bs, In bs (each_optbits_covered_by os) <->
    length bs = length os /\ forall i o b, nth_error os i = Some o -> nth_error bs i = Some b ->
      (o = omitted -> b = false) /\ (o = required -> b = true).
Proof.
  intros os. split; [apply optbits_nodup|]. intros bs. rewrite optbits_in. split.
  - intros H. split; [symmetry; eapply Forall2_length; exact H|]. induction H as [|o b os bs Hc H IH]; intros [|i] o' b'; cbn; try discriminate; [|apply IH].
    intros [= <-] [= <-]. destruct o; cbn in Hc; split; congruence.
  - revert bs. induction os as [|o os IH]; intros [|b bs] [L H]; try discriminate; constructor.
    + specialize (H 0 o b eq_refl eq_refl). destruct o, b; cbn; auto; destruct H as [H1 H2]; [discriminate (H1 eq_refl)|discriminate (H2 eq_refl)].
    + apply IH. split; [now injection L|]. intros i. apply (H (S i)).
Qed.
Print Assumptions C31_exact.
Example C31_ex : each_optbits_covered_by [required; either; omitted; either] =
  [[true; false; false; false]; [true; false; false; true]; [true; true; false; false]; [true; true; false; true]].
Proof. reflexivity. Qed.

(* ---- C32 ---- *)

(* a reported match: the use is the definition with annotations and optional symbols left out, and the notes tell what
   became of each optional symbol *)
Theorem C32_sound : forall us ds ns, fst (u_rhs_matches_d_rhs us ds) = Some ns -> embeds us ds (optional_notes ns).
Proof. intros us ds ns H. now apply rhs_sound. Qed.
Print Assumptions C32_sound.
(* so the bit strings made from them have one bit per optional symbol of the definition *)
Theorem C32_bits : forall us ds ns bits, fst (u_rhs_matches_d_rhs us ds) = Some ns -> In bits (each_optbits_covered_by (optional_notes ns)) ->
  length bits = length (filter (fun d => match d with QM _ => true | Plain _ => false end) ds).
Proof.
  intros us ds ns bits H HB. apply rhs_sound in H. rewrite <- (embeds_len _ _ _ H). apply C31_exact in HB. tauto.
Qed.
Print Assumptions C32_bits.
(* for definitions without ambiguity, every such use is found, with the one way of reading it *)
Theorem C32_complete : forall us ds os, unambiguous ds -> embeds us ds os -> exists ns, fst (u_rhs_matches_d_rhs us ds) = Some ns /\ optional_notes ns = os.
Proof. intros us ds os HU HE. now apply rhs_complete. Qed.
Print Assumptions C32_complete.
(* in general not: X is not found to match X? X *)
Theorem C32_complete_refuted : exists us ds os, embeds us ds os /\ fst (u_rhs_matches_d_rhs us ds) = None.
Proof.
  exists [Plain (GNT 1 [])], [QM (GNT 1 []); Plain (GNT 1 [])], [omitted]. split; [|reflexivity].
  apply em_omitted, em_keep; [reflexivity|constructor].
Qed.
Print Assumptions C32_complete_refuted.
(* an error message about parameters can be made for a pair of right-hand sides that do not match *)
Theorem C32_message_refuted : exists us ds m, u_rhs_matches_d_rhs us ds = (None, [m]).
Proof. exists [Plain (GNT 1 [5]); Plain (GNT 2 [])], [Plain (GNT 1 [6]); Plain (GNT 3 [])], (params_differ (GNT 1 [5]) (GNT 1 [6])). reflexivity. Qed.
Print Assumptions C32_message_refuted.
(* `a` X `b` against [lookahead] `a` X[p]? Y? `b` #label *)
Definition ex_us : list gitem := [Plain (Sym BACKTICKED_THING 1); Plain (GNT 1 []); Plain (Sym BACKTICKED_THING 2)].
Definition ex_ds : list gitem := [Plain (Sym LAC_SINGLE 9); Plain (Sym BACKTICKED_THING 1); QM (GNT 1 [5]); QM (GNT 2 []); Plain (Sym BACKTICKED_THING 2); Plain (Sym LABEL 8)].
Example C32_ex : exists ns, fst (u_rhs_matches_d_rhs ex_us ex_ds) = Some ns /\ optional_notes ns = [required; omitted].
Proof. eexists. split; reflexivity. Qed.
Definition base (d : gitem) : gsym := match d with Plain s | QM s => s end.
Lemma unambiguous_bases ds : ForallOrdPairs (fun d d' => leavable d -> ~ same_sym (base d) (base d')) ds -> unambiguous ds.
Proof.
  intros H pre d mid d' post -> L _ u S S'. induction pre as [|x pre IH]; cbn in H; inversion H as [|? ? F HT]; subst; [|exact (IH HT)].
  rewrite Forall_forall in F. apply (F d'); [apply in_or_app; right; now left|exact L|]. clear -S S'.
  destruct u as [[n ps|k t]|[n ps|k t]], d as [[n1 ps1|k1 t1]|[n1 ps1|k1 t1]], d' as [[n2 ps2|k2 t2]|[n2 ps2|k2 t2]]; cbn in *; try contradiction; intuition congruence.
Qed.
Example C32_ex_unambiguous : unambiguous ex_ds /\ embeds ex_us ex_ds [required; omitted].
Proof.
  split.
  - apply unambiguous_bases. repeat constructor; cbn; intuition discriminate.
  - apply em_annotation; [cbn; auto 10|]. apply em_keep; [now split|]. apply em_required; [reflexivity|]. apply em_omitted. apply em_keep; [now split|].
    apply em_annotation; [cbn; auto|]. constructor.
Qed.

(* ---- C33 ---- *)

(* the symbols reported: those defined in the main arena, not by a one-colon production's count, that are not reachable *)
Theorem C33_exact : forall g starts fuel r, NoDup (map nt_name g) -> length g < fuel -> check_reachability fuel g starts = Ok r ->
  forall x, In x r <-> exists i, In i g /\ nt_name i = x /\ nt_def i <> None /\ num_colons i <> 1 /\ ~ reachable g starts x.
Proof.
  intros g starts fuel r HN HF H x. unfold check_reachability in H. apply bind_ok in H as (l & E & [= <-]).
  pose proof (loop_start g starts HN fuel HF) as HL. rewrite E in HL. destruct HL as [HL _]. rewrite in_map_iff. split.
  - intros (i & <- & Hi). apply filter_In in Hi as [Hi Hb]. apply andb_true_iff in Hb as [Hb Hm]. apply andb_true_iff in Hb as [Hd Hc]. exists i. split; [exact Hi|]. split; [reflexivity|].
    split; [destruct (nt_def i); discriminate|]. split; [intros Q; rewrite Q in Hc; discriminate|]. intros HR. apply HL in HR. apply nmem_in in HR. rewrite HR in Hm. discriminate.
  - intros (i & Hi & <- & Hd & Hc & HR). exists i. split; [reflexivity|]. apply filter_In. split; [exact Hi|]. apply Nat.eqb_neq in Hc. rewrite Hc.
    destruct (nt_def i); [|contradiction]. cbn. destruct (nmem (nt_name i) l) eqn:Q; [|reflexivity]. apply nmem_in in Q. apply HL in Q. contradiction.
Qed.
Print Assumptions C33_exact.
(* it terminates; it succeeds exactly if every reachable symbol has a definition made of the kinds of items provided for *)
Theorem C33_success : forall g starts fuel, NoDup (map nt_name g) -> length g < fuel ->
  (exists r, check_reachability fuel g starts = Ok r) <->
  forall x, reachable g starts x -> exists i its, In i g /\ nt_name i = x /\ nt_def i = Some its /\ ~ In R_unexpected its.
Proof.
  intros g starts fuel HN HF. pose proof (loop_start g starts HN fuel HF) as HL. unfold check_reachability. split.
  - intros [r H] x Hx. apply bind_ok in H as (l & E & _). rewrite E in HL. destruct HL as [_ HL]. destruct (HL x Hx) as (its & (i & H1 & H2 & H3) & H4). eauto 10.
  - intros H. destruct (reach_loop _ _ _) as [l|e]; [eexists; reflexivity|]. destruct HL as (x & Hx & HB). destruct (H x Hx) as (i & its & H1 & H2 & H3 & H4).
    assert (D : defn g x its) by (exists i; auto). destruct HB as [[_ Q]|(_ & its' & D' & Q)]; [destruct (Q its D)|]. rewrite (defn_fun _ _ _ _ HN D' D) in Q. contradiction.
Qed.
Print Assumptions C33_success.
(* otherwise: KeyError for a reachable symbol without definition, AssertionError for one with another kind of item *)
Theorem C33_failure : forall g starts fuel e, NoDup (map nt_name g) -> length g < fuel -> check_reachability fuel g starts = Err e ->
  exists x, reachable g starts x /\
    (e = KeyError /\ (forall i its, In i g -> nt_name i = x -> nt_def i <> Some its) \/
     e = AssertionError /\ exists i its, In i g /\ nt_name i = x /\ nt_def i = Some its /\ In R_unexpected its).
Proof.
  intros g starts fuel e HN HF H. pose proof (loop_start g starts HN fuel HF) as HL. unfold check_reachability in H. destruct (reach_loop _ _ _) as [l|e']; [discriminate|].
  injection H as ->. destruct HL as (x & Hx & [[-> HB]|(-> & its & (i & H1 & H2 & H3) & HB)]); exists x; (split; [exact Hx|]).
  - left. split; [reflexivity|]. intros i its H1 H2 H3. apply (HB its). exists i. auto.
  - right. split; [reflexivity|]. exists i, its. auto.
Qed.
Print Assumptions C33_failure.
Definition ex_g : list nt_info := [mkNT 1 (Some [R_GNT 2; R_BUT_NOT [3]]) 2; mkNT 2 (Some [R_QM_nt 1; R_other]) 2; mkNT 3 (Some [R_LAC_SET (Some 2)]) 3; mkNT 4 (Some [R_GNT 1]) 2; mkNT 5 (Some []) 1].
Example C33_ex : NoDup (map nt_name ex_g) /\ check_reachability 6 ex_g [1] = Ok [4].
Proof. split; [repeat constructor; cbn; intuition discriminate|reflexivity]. Qed.
Example C33_ex_fail : check_reachability 6 [mkNT 1 (Some [R_GNT 9]) 2] [1] = Err KeyError /\ check_reachability 6 [mkNT 1 (Some [R_unexpected]) 2] [1] = Err AssertionError.
Proof. split; reflexivity. Qed.
