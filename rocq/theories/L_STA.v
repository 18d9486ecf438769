(* Soundness of the static type analysis. *)
From Verif Require Import M_Base L_Base M_Dict L_Dict M_Types L_Hier L_Types L_TypesUnion M_Env L_Env L_STAEnv M_STA L_STASpec.
From Coq Require Import Permutation.

(* ---- the writer ---- *)
Lemma bindw_inv {A B} (m : out A) (k : A -> out B) y er rv : bindw m k = Ok (y, (er, rv)) ->
  exists x e1 r1 e2 r2, m = Ok (x, (e1, r1)) /\ k x = Ok (y, (e2, r2)) /\ er = e1 ++ e2 /\ rv = r1 ++ r2.
Proof.
  unfold bindw. destruct m as [[x [e1 r1]]|]; [|discriminate]. cbn [bind]. destruct (k x) as [[y' [e2 r2]]|] eqn:E; [|discriminate]. cbn [bind fst snd]. intros [= <- <- <-]. repeat eexists. exact E.
Qed.
Lemma ret_inv {A} (x y : A) er rv : ret x = Ok (y, (er, rv)) -> y = x /\ er = [] /\ rv = [].
Proof. unfold ret. intros [= <- <- <-]. auto. Qed.
Lemma lift_inv {A} (r : res A) y er rv : lift r = Ok (y, (er, rv)) -> r = Ok y /\ er = [] /\ rv = [].
Proof. unfold lift. destruct r; [|discriminate]. cbn. intros [= <- <- <-]. auto. Qed.
Lemma tell_inv e y er rv : tell e = Ok (y, (er, rv)) -> er = [e] /\ rv = [].
Proof. unfold tell. intros [= <- <- <-]. auto. Qed.
Lemma need_inv o e er rv : lift (need o) = Ok (e, (er, rv)) -> o = Some e /\ er = [] /\ rv = [].
Proof. intros H. apply lift_inv in H as (H & -> & ->). destruct o; [|discriminate]. cbn in H. inversion H. auto. Qed.
Lemma fine_app a b : fine (a ++ b) <-> fine a /\ fine b.
Proof. unfold fine. split; [intros H; split; intros e I; apply H, in_or_app; auto|]. intros [H1 H2] e I. apply in_app_or in I as [I|I]; auto. Qed.
Lemma fine_cons e l : fine (e :: l) -> serious e = false /\ fine l.
Proof. intros H. split; [apply H; now left|intros x I; apply H; now right]. Qed.

Tactic Notation "bwn" hyp(H) "as" ident(x) ident(A) ident(e1) ident(r1) ident(e2) ident(r2) := apply bindw_inv in H as (x & e1 & r1 & e2 & r2 & A & H & -> & ->).
Ltac bw H := let x := fresh "x" in let e1 := fresh "er" in let r1 := fresh "rv" in let e2 := fresh "er" in let r2 := fresh "rv" in let A := fresh "A" in
  apply bindw_inv in H as (x & e1 & r1 & e2 & r2 & A & H & -> & ->).

(* ---- induction on conditions ---- *)
Fixpoint cond_ind' (P : cond -> Prop) (pt : forall i e c a b, P (TypeTest i e c a b)) (po : forall i, P (Opaque i)) (pn : P Never)
  (pa : forall l, Forall P l -> P (And l)) (pr : forall l, Forall P l -> P (Or l)) (pb : forall a b, P a -> P b -> P (NotBoth a b)) (c : cond) : P c :=
  let all := fix all (l : list cond) : Forall P l := match l with [] => Forall_nil _ | x :: l' => Forall_cons x (cond_ind' P pt po pn pa pr pb x) (all l') end in
  match c with
  | TypeTest i e c a b => pt i e c a b
  | Opaque i => po i
  | Never => pn
  | And l => pa l (all l)
  | Or l => pr l (all l)
  | NotBoth a b => pb a b (cond_ind' P pt po pn pa pr pb a) (cond_ind' P pt po pn pa pr pb b)
  end.
Scheme cmd_ind2 := Induction for cmd Sort Prop with tail_ind2 := Induction for tail Sort Prop.
Combined Scheme cmd_tail_ind from cmd_ind2, tail_ind2.

Section S.
  Variable h : hier.
  Hypothesis W : wf h.
  Hypothesis LL : forall c, ~ par h c 2.
  Hypothesis L14 : leaf h 14.
  Hypothesis L15 : leaf h 15.
  Hypothesis L16 : leaf h 16.
  Variable sc : list (nat * option nat).
  Variable f : nat.
  Variable sorted : list nat -> list nat.
  Hypothesis sorted_perm : forall l, Permutation (sorted l) l.
  Variable params_of : nat -> list ty.
  Variable return_of : nat -> ty.
  Variable pnames : list nat.
  Variable expected : ty.
  Hypothesis Hparams : forall op t, In t (params_of op) -> htype h t.
  Hypothesis Hreturn : forall op, htype h (return_of op).
  Hypothesis Hexp : htype h expected.
  Variable isvar : nat -> bool.
  Variable inside : nat -> nat -> bool.
  Variable den : nat -> list nat -> option nat -> Prop.
  Hypothesis den_ok : forall op vs r, args_ok h params_of op vs -> Forall (leaf h) vs -> den op vs r -> exists v, r = Some v /\ leaf h v /\ hmem h v (return_of op).

  Notation uf := (S f).
  Notation ev := (eval h params_of den).
  Notation cev := (ceval h params_of inside den).
  Notation ex := (exec h params_of inside den).
  Notation ext := (exec_tail h params_of inside den).
  Notation T_cond := (tc_cond h sc uf sorted params_of return_of).
  Notation T_cmd := (tc h sc uf sorted params_of return_of pnames expected).
  Notation T_tail := (tc_tail h sc uf sorted params_of return_of pnames expected).
  Notation sub := (is_a_subtype_of_or_equal_to h sc).

  Definition good (e : env) : Prop := env_ok' h e /\ forall x, nget (e_vars e) x <> None -> isvar x = true.
  Definition goodo (o : option env) : Prop := match o with Some e => good e | None => True end.
  Definition sco (s : store) (o : option env) : Prop := match o with Some e => sconf h s e | None => False end.

  Lemma NS : In 14 (names h). Proof. apply L14. Qed.

  Lemma leaf_val v a : leaf h a -> hmem h v (Hier a) -> v = a.
  Proof. intros La M. symmetry. exact (anc_leaf h v a La M). Qed.
  Lemma T_0_mem v : ~ hmem h v T_0. Proof. intros (a & [] & _). Qed.
  Lemma not_T_0 t v : htype h t -> leaf h v -> hmem h v t -> ty_eqb t T_0 = false.
  Proof. intros H L M. apply (eqb_T_0'' h W t H). eauto. Qed.
  Lemma is_T_0 t v : htype h t -> leaf h v -> ty_eqb t T_0 = true -> ~ hmem h v t.
  Proof. intros H L E M. rewrite (not_T_0 t v H L M) in E. discriminate. Qed.
  Lemma nT t v : hmem h v t -> ty_eqb t TBD = false.
  Proof. intros M. destruct (ty_eqb t TBD) eqn:E; [|reflexivity]. apply ty_eqb_TBD in E. subst. destruct M. Qed.
  Lemma nTn t v : hmem h v t -> ty_eqb TBD t = false.
  Proof. intros M. destruct (ty_eqb TBD t) eqn:E; [|reflexivity]. apply ty_eqb_TBD' in E. subst. destruct M. Qed.

  Lemma good_type e x : good e -> tyok h (type_in e x).
  Proof. intros [H _]. now apply type_in_tyok; [apply NS|]. Qed.
  Lemma good_set e x t : good e -> isvar x = true -> tyok h t -> good (set_var e x t).
  Proof.
    intros [H1 H2] V T. unfold set_var, with_vars. split.
    - intros y t' Q. cbn [e_vars] in Q. destruct (Nat.eq_dec x y) as [<-|N]; [rewrite nget_nset_same in Q; inversion Q; subst; exact T|]. rewrite nget_nset_other in Q by exact N. eauto.
    - intros y Q. cbn [e_vars] in Q. destruct (Nat.eq_dec x y) as [<-|N]; [exact V|]. rewrite nget_nset_other in Q by exact N. auto.
  Qed.
  Lemma type_set e x t y : type_in (set_var e x t) y = if y =? x then t else type_in e y.
  Proof. unfold type_in, set_var, with_vars. cbn [e_vars]. destruct (Nat.eqb_spec y x) as [->|N]; [now rewrite nget_nset_same|rewrite nget_nset_other by congruence; reflexivity]. Qed.
  Lemma sconf_set s e x t : sconf h s e -> hmem h (s x) t -> sconf h s (set_var e x t).
  Proof. intros [H1 H2] M. split; [exact H1|]. intros y. rewrite type_set. destruct (Nat.eqb_spec y x) as [->|N]; auto. Qed.
  Lemma sconf_upd s e x t v : sconf h s e -> leaf h v -> hmem h v t -> sconf h (upd s x v) (set_var e x t).
  Proof.
    intros [H1 H2] L M. unfold upd. split.
    - intros y. destruct (Nat.eqb_spec y x) as [->|N]; auto.
    - intros y. rewrite type_set. destruct (Nat.eqb_spec y x) as [->|N]; auto.
  Qed.
  Lemma sconf_upd' s e x v : sconf h s e -> leaf h v -> hmem h v (type_in e x) -> sconf h (upd s x v) e.
  Proof. intros [H1 H2] L M. unfold upd. split; intros y; destruct (Nat.eqb_spec y x) as [->|N]; auto. Qed.
  Lemma type_some e x t : nget (e_vars e) x = Some t -> type_in e x = t.
  Proof. unfold type_in. now intros ->. Qed.

  Lemma or_good envs r : (forall o, In o envs -> goodo o) -> envs_or h uf sorted envs = Ok r -> goodo r /\ forall s o, In o envs -> sco s o -> sco s r.
  Proof.
    intros G E. pose proof (envs_or_strong h W LL NS f sorted sorted_perm envs r) as H. specialize (H (fun e I => proj1 (G (Some e) I)) E). destruct r as [e'|].
    - destruct H as (H1 & H2 & H3). split.
      + split; [exact H1|]. intros x Q. apply H2 in Q as (e & I & Q). apply (G (Some e) I). exact Q.
      + intros s [e|] I C; [|destruct C]. destruct C as [C1 C2]. split; [exact C1|]. intros x. eapply H3; [exact I|apply C1|apply C2].
    - split; [exact I|]. intros s o Io C. rewrite (H o Io) in C. exact C.
  Qed.
  Lemma env_or_good a b r er rv : goodo a -> goodo b -> env_or h uf sorted a b = Ok (r, (er, rv)) -> er = [] /\ rv = [] /\ goodo r /\ forall s, sco s a \/ sco s b -> sco s r.
  Proof.
    intros Ga Gb E. unfold env_or in E. apply lift_inv in E as (E & -> & ->). destruct (or_good [a; b] r) as [H1 H2]; [intros o [<-|[<-|[]]]; assumption|exact E|]. repeat split; auto.
    intros s [C|C]; [apply (H2 s a)|apply (H2 s b)]; cbn; auto.
  Qed.
  Lemma and_good a b r : good a -> good b -> envs_and h sc uf [a; b] = Ok r -> good r /\ forall s, sconf h s a -> sconf h s b -> sconf h s r.
  Proof. intros [Ga1 Ga2] [Gb1 Gb2] E. destruct (envs_and_strong h W LL NS sc f a b r Ga1 Gb1 E) as (H1 & H2 & H3). split; [split; [exact H1|intros x Q; apply Ga2, H2, Q]|exact H3]. Qed.

  (* ---- expressions ---- *)
  Lemma tc_var_ok x e t er rv : good e -> tc_var x e = Ok (t, (er, rv)) -> tyok h t /\ rv = [] /\ (fine er -> er = [] /\ nget (e_vars e) x = Some t /\ type_in e x = t).
  Proof.
    intros G E. unfold tc_var in E. destruct (nget (e_vars e) x) as [t'|] eqn:Q.
    - apply ret_inv in E as (-> & -> & ->). split; [exact (proj1 G x t' Q)|]. split; [reflexivity|]. intros _. split; [reflexivity|]. split; [reflexivity|]. exact (type_some _ _ _ Q).
    - bw E. apply tell_inv in A as (-> & ->). apply ret_inv in E as (-> & -> & ->). split; [now left|]. split; [reflexivity|]. intros F. apply fine_cons in F as [F _]. discriminate.
  Qed.
  Lemma ensure_ok e x t e' er rv : good e -> isvar x = true -> htype h t -> ensure_var h sc e x t = Ok (e', (er, rv)) ->
    good e' /\ rv = [] /\ (fine er -> forall s, sconf h s e -> sconf h s e' /\ hmem h (s x) t).
  Proof.
    intros G V T E. unfold ensure_var in E. bw E. apply lift_inv in A as (_ & -> & ->). bw E. destruct (tc_var_ok _ _ _ _ _ G A) as (H1 & -> & H3). destruct (ty_eqb x1 TBD) eqn:Q.
    - apply ret_inv in E as (-> & -> & ->). split; [apply good_set; auto; now right|]. split; [reflexivity|]. intros F s C. rewrite app_nil_r in F. cbn in F. destruct (H3 F) as (_ & _ & H4). exfalso. apply ty_eqb_TBD in Q. destruct C as [_ C]. specialize (C x). rewrite H4, Q in C. exact C.
    - bw E. apply lift_inv in A0 as (A0 & -> & ->). destruct x2.
      + apply ret_inv in E as (-> & -> & ->). split; [exact G|]. split; [reflexivity|]. intros F s C. split; [exact C|]. rewrite app_nil_r in F. cbn in F. destruct (H3 F) as (_ & _ & H4). destruct C as [_ C]. specialize (C x). rewrite H4 in C. exact (sub_mem h W sc x1 t _ (tyok_hmem h _ _ H1 C) T A0 C).
      + bw E. apply tell_inv in A1 as (-> & ->). apply ret_inv in E as (-> & -> & ->). split; [apply good_set; auto; now right|]. split; [reflexivity|]. intros F. exfalso. cbn in F. apply fine_app in F as [_ F]. apply fine_cons in F as [F _]. discriminate.
  Qed.

  Lemma tc_args_ok env0 : good env0 -> forall ps args oe r er rv, (forall t, In t ps -> htype h t) -> (forall x, In x args -> isvar x = true) -> good oe ->
    tc_args h sc uf ps args env0 oe = Ok (r, (er, rv)) ->
    good r /\ rv = [] /\ (fine er -> forall s, sconf h s env0 -> sconf h s oe -> sconf h s r /\ Forall2 (hmem h) (map s args ++ repeat 15 (length ps - length args)) ps).
  Proof.
    intros G0. induction ps as [|p ps IH]; intros args oe r er rv HP HV Go E.
    - destruct args; cbn [tc_args] in E; [|discriminate]. apply ret_inv in E as (-> & -> & ->). split; [exact Go|]. split; [reflexivity|]. intros _ s C0 C. split; [exact C|constructor].
    - cbn [tc_args] in E. bw E. assert (Hp : htype h p) by (apply HP; now left). rewrite (not_TBD h p Hp) in A. apply lift_inv in A as (A & -> & ->). destruct x as [np pa].
      destruct (split_ok h W LL sc f p (Hier 15)) as (i & o & S & Hi & Ho & SV); [now right|left; exists 15; split; [reflexivity|apply L15]|]. change T_not_passed with 15 in A. rewrite S in A. inversion A; subst np pa. clear A S.
      destruct args as [|x args].
      + bwn E as u A ea ra eb rb. assert (B : ra = [] /\ (fine ea -> ty_eqb i T_0 = false)). { destruct (ty_eqb i T_0); [apply tell_inv in A as (-> & ->)|apply ret_inv in A as (_ & -> & ->)]; (split; [reflexivity|]); auto. intros F. apply fine_cons in F as [F _]. discriminate. }
        destruct B as [-> B]. destruct (IH [] oe r eb rb) as (I1 & -> & I3); [intros; apply HP; now right|intros y []|exact Go|exact E|]. split; [exact I1|]. split; [reflexivity|]. intros F s C0 C. cbn in F. apply fine_app in F as [F1 F2]. destruct (I3 F2 s C0 C) as [J1 J2]. split; [exact J1|].
        cbn [map app length]. rewrite Nat.sub_0_r. cbn [repeat]. cbn [map app length] in J2. rewrite Nat.sub_0_r in J2. constructor; [|exact J2].
        apply (eqb_T_0'' h W i Hi) in B as (v & Lv & Mv); [|exact F1]. apply (SV v Lv) in Mv as [Ma M15]. rewrite (leaf_val v 15 L15 M15) in Ma. destruct Ma as [->|Ma]; [destruct (htype_not_TBD h _ Hp eq_refl)|exact Ma].
      + bwn E as t A ea ra eb rb. destruct (tc_var_ok _ _ _ _ _ G0 A) as (T1 & -> & T3). clear A. bwn E as env2 A ec rc ed rd. rewrite (not_TBD h o Ho) in A.
        assert (B : good env2 /\ rc = [] /\ (fine ea -> fine ec -> forall s, sconf h s env0 -> sconf h s env2 /\ hmem h (s x) p)).
        { assert (OP : forall v, leaf h v -> hmem h v o -> hmem h v p) by (intros v Lv M; apply (SV v Lv) in M as [[->|M] _]; [destruct (htype_not_TBD h _ Hp eq_refl)|exact M]).
          destruct (ty_eqb t TBD) eqn:Q.
          - destruct (ensure_ok env0 x o env2 ec rc G0 (HV x (or_introl eq_refl)) Ho A) as (B1 & B2 & B3). split; [exact B1|]. split; [exact B2|]. intros _ F s C. destruct (B3 F s C) as [D1 D2]. split; [exact D1|]. apply OP; [apply C|exact D2].
          - bw A. apply lift_inv in A0 as (A0 & -> & ->). destruct x0.
            + apply ret_inv in A as (-> & -> & ->). split; [exact G0|]. split; [reflexivity|]. intros F _ s C. split; [exact C|]. destruct (T3 F) as (_ & _ & T4). apply OP; [apply C|]. pose proof (proj2 C x) as M. rewrite T4 in M. exact (sub_mem h W sc t o _ (tyok_hmem h _ _ T1 M) Ho A0 M).
            + destruct (ty_eqb t (Hier T_List) && match o with ListT _ => true | _ => false end) eqn:Z.
              * exfalso. apply andb_true_iff in Z as [_ Z]. destruct Ho as [(a & -> & _)|(l & -> & _)]; discriminate.
              * bw A. apply tell_inv in A1 as (-> & ->). apply ret_inv in A as (-> & -> & ->). split; [exact G0|]. split; [reflexivity|]. intros _ F. cbn in F. apply fine_cons in F as [F _]. discriminate. }
        destruct B as (B1 & -> & B3). bwn E as x0 A0 ee re eg rg. apply lift_inv in A0 as (A0 & -> & ->). destruct (and_good _ _ _ Go B1 A0) as [C1 C2].
        destruct (IH args x0 r eg rg) as (I1 & -> & I3); [intros; apply HP; now right|intros; apply HV; now right|exact C1|exact E|]. split; [exact I1|]. split; [reflexivity|].
        intros F s D0 D. cbn in F. apply fine_app in F as [F1 F]. apply fine_app in F as [F2 F3]. cbn in F3. destruct (B3 F1 F2 s D0) as [K1 K2]. destruct (I3 F3 s D0 (C2 s D K1)) as [J1 J2]. split; [exact J1|]. cbn [map app length]. cbn. constructor; [exact K2|exact J2].
  Qed.

  Lemma tc_expr_ok e oe t e1 er rv : wf_expr isvar e -> goodo oe -> tc_expr h sc uf params_of return_of e oe = Ok ((t, e1), (er, rv)) ->
    exists e0, oe = Some e0 /\ good e1 /\ tyok h t /\ rv = [] /\ (forall k op args, e = EOp k op args -> t = return_of op) /\ (fine er -> forall s r, sconf h s e0 -> ev e s r -> exists v, r = Some v /\ leaf h v /\ hmem h v t /\ sconf h s e1 /\ forall x, e = EVar x -> e1 = e0 /\ nget (e_vars e0) x = Some t).
  Proof.
    intros WE G E. unfold tc_expr in E. bw E. apply need_inv in A as (-> & -> & ->). exists x. split; [reflexivity|]. cbn in G. destruct e as [y|k op args].
    - bw E. apply ret_inv in E as (E & -> & ->). inversion E; subst. destruct (tc_var_ok _ _ _ _ _ G A) as (H1 & -> & H3). split; [exact G|]. split; [exact H1|]. split; [reflexivity|]. split; [discriminate|]. intros F s r C R. cbn in F. rewrite app_nil_r in F. destruct (H3 F) as (_ & H4 & H5). cbn in R. subst r. exists (s y). split; [reflexivity|]. split; [apply C|]. split; [rewrite <- H5; apply C|]. split; [exact C|]. intros z [= ->]. auto.
    - destruct WE as [W1 W2]. destruct (nget (e_vars x) k) eqn:Q; [exfalso; destruct G as [_ G]; rewrite (G k) in W1; congruence|]. bw E. apply lift_inv in A as (A & -> & ->). bw E. apply ret_inv in E as (E & -> & ->). inversion E; subst.
      destruct (tc_args_ok x G (params_of op) args x x1 _ _ (Hparams op) W2 G A0) as (H1 & -> & H3). split; [exact H1|]. split; [right; apply Hreturn|]. split; [reflexivity|]. split; [intros k' op' args' Q'; inversion Q'; reflexivity|]. intros F s r C R. cbn in F. rewrite app_nil_r in F. destruct (H3 F s C C) as [J1 J2].
      cbn [eval] in R. unfold args_ok, pad in R. rewrite map_length in R. destruct R as [[R1 R2]|[R1 _]]; [|contradiction].
      destruct (den_ok op _ r R1) as (v & -> & Lv & Mv); [|exact R2|].
      { apply Forall_app. split; [apply Forall_map, Forall_forall; intros; apply C|]. apply Forall_forall. intros z Z. apply repeat_spec in Z. now subst. }
      exists v. repeat (split; [assumption||reflexivity|]). discriminate.
  Qed.

  (* ---- tests ---- *)
  Definition truth (id : nat) (cop : copula) (v : nat) : bool := match cop with is_a => inside id v | isnt_a => negb (inside id v) | other_copula => false end.
  Lemma wtt_ok id x t e cop a b asserting ro fo errs : good e -> tyok h t -> isvar x = true -> htype h a -> htype h b ->
    (forall v, leaf h v -> hmem h v a -> inside id v = true) -> (forall v, leaf h v -> inside id v = true -> hmem h v b) ->
    with_type_test h sc uf x t e cop a b asserting = Ok ((ro, fo), errs) ->
    goodo ro /\ goodo fo /\ forall s, sconf h s e -> hmem h (s x) t ->
      (truth id cop (s x) = true -> sco s ro) /\ (truth id cop (s x) = false -> sco s fo) /\ (asserting = true -> a = b -> fine (map TypeTestErr errs) -> truth id cop (s x) = true).
  Proof.
    intros G T V Ha Hb Ba Bb E. unfold with_type_test in E. destruct (ty_eqb t T_0) eqn:Q0.
    - inversion E; subst. split; [exact I|]. split; [exact I|]. intros s C M. exfalso. pose proof (tyok_hmem h _ _ T M) as Ht. exact (is_T_0 t (s x) Ht (proj1 C x) Q0 M).
    - rewrite (not_TBD h a Ha), (not_TBD h b Hb) in E. cbn [negb assert_ bind] in E. destruct (asserting && ty_eqb t TBD) eqn:QT.
      + apply andb_true_iff in QT as [_ QT]. apply ty_eqb_TBD in QT. subst t.
        assert (X : goodo ro /\ goodo fo). { destruct cop; inversion E; subst; cbn; auto. split; [|exact I]. apply good_set; auto. now right. }
        split; [apply X|]. split; [apply X|]. intros s C [].
      + destruct (split_ok h W LL sc f t b T Hb) as (isup & osup & E1 & Hi1 & Ho1 & V1). destruct (split_ok h W LL sc f t a T Ha) as (isub & osub & E2 & Hi2 & Ho2 & V2). rewrite E1, E2 in E. cbn [bind] in E.
        match type of E with bind ?m _ = _ => destruct m as [errs'|] eqn:M end; [|discriminate]. cbn [bind] in E.
        assert (G1 : good (set_var e x isup)) by (apply good_set; auto; now right). assert (G2 : good (set_var e x osub)) by (apply good_set; auto; now right).
        destruct cop; [| |discriminate]; inversion E; subst; (split; [assumption|]); (split; [assumption|]); intros s C Mt; pose proof (proj1 C x) as L; cbn [truth sco].
        * split; [|split].
          -- intros I. apply sconf_set; [exact C|]. apply (V1 _ L). split; [now right|auto].
          -- intros I. apply sconf_set; [exact C|]. apply (V2 _ L). split; [now right|]. intros Q. rewrite (Ba _ L Q) in I. discriminate.
          -- intros -> -> F. inversion M; subst. destruct (inside id (s x)) eqn:I; [reflexivity|]. exfalso. destruct (ty_eqb osup T_0) eqn:Z.
             ++ apply (is_T_0 osup (s x) Ho1 L Z). apply (V1 _ L). split; [now right|]. intros Q. rewrite (Ba _ L Q) in I. discriminate.
             ++ rewrite map_app in F. apply fine_app in F as [_ F]. apply fine_cons in F as [F _]. discriminate.
        * split; [|split].
          -- intros I. apply negb_true_iff in I. apply sconf_set; [exact C|]. apply (V2 _ L). split; [now right|]. intros Q. rewrite (Ba _ L Q) in I. discriminate.
          -- intros I. apply negb_false_iff in I. apply sconf_set; [exact C|]. apply (V1 _ L). split; [now right|auto].
          -- intros -> -> F. match type of M with bind ?m _ = _ => destruct m; [|discriminate] end. cbn [bind] in M. inversion M; subst. destruct (inside id (s x)) eqn:I; [|reflexivity]. exfalso. destruct (ty_eqb isub T_0) eqn:Z.
             ++ apply (is_T_0 isub (s x) Hi2 L Z). apply (V2 _ L). split; [now right|auto].
             ++ cbn in F. apply fine_cons in F as [F _]. discriminate.
  Qed.

  Definition cond_sound (c : cond) : Prop := forall oe asserting t_env f_env er rv, wf_cond h isvar inside c -> goodo oe -> T_cond c oe asserting = Ok ((t_env, f_env), (er, rv)) ->
    goodo t_env /\ goodo f_env /\ rv = [] /\ (fine er -> forall s, sco s oe -> forall r, cev c s r ->
      match r with None => False | Some true => sco s t_env | Some false => sco s f_env end /\ (asserting = true -> exact c -> r = Some true)).

  Lemma cond_ok c : cond_sound c.
  Proof.
    induction c as [id e cop a b|id| |l IHl|l IHl|c1 c2 IH1 IH2] using cond_ind'; intros oe asserting t_env f_env er rv WC G E.
    - cbn [tc_cond] in E. cbn [wf_cond] in WC. destruct WC as ((x & -> & Vx) & Ha & Hb & Ba & Bb). bwn E as x0 A ea ra eb rb. apply need_inv in A as (-> & -> & ->). bwn E as x1 A ea ra ec rc. destruct x1 as [t e1].
      assert (WE : wf_expr isvar (EVar x)) by exact Vx. destruct (tc_expr_ok (EVar x) (Some x0) t e1 _ _ WE G A) as (e0 & [= ->] & G1 & T1 & -> & _ & K). clear A.
      bwn E as x1 A ed rd ee re. apply lift_inv in A as (A & -> & ->). destruct x1 as [[ro fo] errs]. inversion E; subst. clear E. destruct (wtt_ok id x t e1 cop a b asserting _ _ _ G1 T1 Vx Ha Hb Ba Bb A) as (R1 & R2 & R3).
      split; [exact R1|]. split; [exact R2|]. split; [reflexivity|]. intros F s C r (ov & V & ->). cbn [eval] in V. subst ov. apply fine_app in F as [_ F]. apply fine_app in F as [F1 F2]. cbn [app] in F2.
      destruct (K F1 s (Some (s x)) C eq_refl) as (v & [= <-] & Lv & Mv & C1 & _). destruct (R3 s C1 Mv) as (S1 & S2 & S3). fold (truth id cop (s x)). split.
      + destruct (truth id cop (s x)); auto.
      + intros Z1 Z2. f_equal. apply S3; auto.
    - cbn [tc_cond] in E. apply ret_inv in E as (E & -> & ->). inversion E; subst. split; [exact G|]. split; [exact G|]. split; [reflexivity|]. intros _ s C r (b & ->). split; [destruct b; exact C|]. intros _ [].
    - cbn [tc_cond] in E. bw E. apply lift_inv in A as (_ & -> & ->). apply ret_inv in E as (E & -> & ->). inversion E; subst. split; [exact I|]. split; [exact G|]. split; [reflexivity|]. intros _ s C r ->. split; [exact C|]. intros _ [].
    - cbn [tc_cond] in E. bwn E as x A er0 rv0 ea ra. destruct x as [t1 fs]. bwn E as x A0 eb rb ec rc. apply lift_inv in A0 as (A0 & -> & ->). apply ret_inv in E as (E & -> & ->). inversion E; subst. clear E. cbn [wf_cond] in WC.
      match type of A with ?go _ _ _ = _ => set (GO := go) in A end.
      enough (H : goodo t1 /\ (forall o, In o fs -> goodo o) /\ rv0 = [] /\ (fine er0 -> forall s, sco s oe -> forall r, cev (And l) s r -> match r with None => False | Some true => sco s t1 | Some false => exists o, In o fs /\ sco s o end /\ (asserting = true -> exact (And l) -> r = Some true))).
      { destruct H as (H1 & H2 & -> & H4). destruct (or_good fs x H2 A0) as [H5 H6]. split; [exact H1|]. split; [exact H5|]. split; [reflexivity|]. intros F s C r R. cbn in F. rewrite app_nil_r in F. destruct (H4 F s C r R) as [J1 J2]. split; [|exact J2]. destruct r as [[|]|]; [exact J1| |exact J1]. destruct J1 as (o & J & J'). eauto. }
      clear A0. assert (Z : forall o, In o (@nil (option env)) -> goodo o) by (intros o []). revert oe G t1 fs er0 rv0 Z A. generalize (@nil (option env)). revert WC. induction l as [|c l IH]; intros WC fs0 oe G t1 fs er rv GF E.
      + cbn in E. inversion E; subst. split; [exact G|]. split; [exact GF|]. split; [reflexivity|]. intros _ s C r R. cbn in R. subst r. split; [exact C|auto].
      + inversion IHl; subst. destruct WC as [WC1 WC2]. cbn in E. bwn E as y A ea ra er1 rv1. destruct y as [t2 f2]. destruct (H1 oe asserting t2 f2 _ _ WC1 G A) as (K1 & K2 & -> & K4). fold GO in E.
        destruct (IH H2 WC2 (fs0 ++ [f2]) t2 K1 t1 fs er1 rv1) as (J1 & J2 & J3 & J4); [intros o I; apply in_app_or in I as [I|[<-|[]]]; auto|exact E|]. split; [exact J1|]. split; [exact J2|]. split; [exact J3|]. intros F s C r R. apply fine_app in F as [F1 F2].
        assert (FS : forall o, In o (fs0 ++ [f2]) -> In o fs). { clear -E. revert E. generalize (fs0 ++ [f2]). intros q. revert t2 q er1 rv1. unfold GO. clear. induction l as [|c l IH]; intros t2 q er1 rv1 E o I; cbn in E; [inversion E; subst; exact I|]. bwn E as x A ea ra er0 rb. destruct x as [t3 f3]. apply (IH t3 (q ++ [f3]) er0 rb E). apply in_or_app. now left. }
        cbn [ceval] in R. destruct R as [[R1 R2]|[[R1 ->]|[R1 ->]]].
        * destruct (K4 F1 s C _ R1) as [C2 X2]. destruct (J4 F2 s C2 r R2) as [C3 X3]. split; [exact C3|]. intros Z [Y1 Y2]. apply X3; auto.
        * destruct (K4 F1 s C _ R1) as [C2 X2]. split; [|intros Z [Y1 Y2]; apply X2; auto]. exists f2. split; [apply FS, in_or_app; right; now left|exact C2].
        * destruct (K4 F1 s C _ R1) as [C2 X2]. destruct C2.
    - cbn [tc_cond] in E. bwn E as x A er0 rv0 ea ra. destruct x as [ts f1]. bwn E as x A0 eb rb ec rc. apply lift_inv in A0 as (A0 & -> & ->). apply ret_inv in E as (E & -> & ->). inversion E; subst. clear E. cbn [wf_cond] in WC.
      match type of A with ?go _ _ _ = _ => set (GO := go) in A end.
      enough (H : goodo f1 /\ (forall o, In o ts -> goodo o) /\ rv0 = [] /\ (fine er0 -> forall s, sco s oe -> forall r, cev (Or l) s r -> match r with None => False | Some false => sco s f1 | Some true => exists o, In o ts /\ sco s o end /\ (asserting = true -> exact (Or l) -> r = Some true))).
      { destruct H as (H1 & H2 & -> & H4). destruct (or_good ts x H2 A0) as [H5 H6]. split; [exact H5|]. split; [exact H1|]. split; [reflexivity|]. intros F s C r R. cbn in F. rewrite app_nil_r in F. destruct (H4 F s C r R) as [J1 J2]. split; [|exact J2]. destruct r as [[|]|]; [|exact J1|exact J1]. destruct J1 as (o & J & J'). eauto. }
      clear A0. assert (Z : forall o, In o (@nil (option env)) -> goodo o) by (intros o []). revert oe G ts f1 er0 rv0 Z A. generalize (@nil (option env)). revert WC. induction l as [|c l IH]; intros WC fs0 oe G ts f1 er rv GF E.
      + cbn in E. inversion E; subst. split; [exact G|]. split; [exact GF|]. split; [reflexivity|]. intros _ s C r R. cbn in R. subst r. split; [exact C|intros _ []].
      + inversion IHl; subst. destruct WC as [WC1 WC2]. cbn in E. bwn E as y A ea ra er1 rv1. destruct y as [t2 f2]. destruct (H1 oe _ t2 f2 _ _ WC1 G A) as (K1 & K2 & -> & K4). fold GO in E.
        destruct (IH H2 WC2 (fs0 ++ [t2]) f2 K2 ts f1 er1 rv1) as (J1 & J2 & J3 & J4); [intros o I; apply in_app_or in I as [I|[<-|[]]]; auto|exact E|]. split; [exact J1|]. split; [exact J2|]. split; [exact J3|]. intros F s C r R. apply fine_app in F as [F1 F2].
        assert (FS : forall o, In o (fs0 ++ [t2]) -> In o ts). { clear -E. revert E. generalize (fs0 ++ [t2]). intros q. revert f2 q er1 rv1. unfold GO. clear. induction l as [|c l IH]; intros f2 q er1 rv1 E o I; cbn in E; [inversion E; subst; exact I|]. bwn E as x A ea ra er0 rb. destruct x as [t3 f3]. apply (IH f3 (q ++ [t3]) er0 rb E). apply in_or_app. now left. }
        cbn [ceval] in R. destruct R as [[R1 R2]|[[R1 ->]|[R1 ->]]].
        * destruct (K4 F1 s C _ R1) as [C2 X2]. destruct (J4 F2 s C2 r R2) as [C3 X3]. split; [exact C3|]. intros Z Y. destruct l as [|c' l]; [|apply X3; auto]. exfalso. specialize (X2 Z Y). discriminate.
        * destruct (K4 F1 s C _ R1) as [C2 X2]. split; [|auto]. exists t2. split; [apply FS, in_or_app; right; now left|exact C2].
        * destruct (K4 F1 s C _ R1) as [C2 X2]. destruct C2.
    - cbn [tc_cond] in E. destruct WC as [WC1 WC2]. bw E. destruct x as [t1 f1]. destruct (IH1 oe asserting t1 f1 _ _ WC1 G A) as (K1 & K2 & -> & K4). bw E. destruct x as [t2 f2]. destruct (IH2 t1 asserting t2 f2 _ _ WC2 K1 A0) as (J1 & J2 & -> & J4).
      bw E. apply lift_inv in A1 as (A1 & -> & ->). apply ret_inv in E as (E & -> & ->). inversion E; subst. destruct (or_good [f1; f2] x) as [O1 O2]; [intros o [<-|[<-|[]]]; assumption|exact A1|]. split; [exact O1|]. split; [exact J1|]. split; [reflexivity|].
      intros F s C r R. apply fine_app in F as [F1 F]. apply fine_app in F as [F2 _]. split; [|intros _ []]. cbn [ceval] in R. destruct R as [[R ->]|[[R ->]|[R (rb & R' & ->)]]].
      + apply (O2 s f1); [now left|]. apply (K4 F1 s C _ R).
      + apply (K4 F1 s C _ R).
      + destruct (K4 F1 s C _ R) as [C1 _]. destruct (J4 F2 s C1 rb R') as [C2 _]. destruct rb as [[|]|]; cbn [negb]; [exact C2| |exact C2]. apply (O2 s f2); [cbn; auto|exact C2].
  Qed.

  (* ---- commands ---- *)
  Lemma plus_ok e x t r er rv : good e -> isvar x = true -> tyok h t -> plus_new_entry h sc e x t = Ok (r, (er, rv)) ->
    good r /\ rv = [] /\ forall s v, sconf h s e -> leaf h v -> hmem h v t -> sconf h (upd s x v) r.
  Proof.
    intros G V T E. unfold plus_new_entry in E. destruct (nget (e_vars e) x) as [vt|] eqn:Q.
    - bw E. apply tell_inv in A as (-> & ->). pose proof (proj1 G x vt Q) as VT. pose proof (type_some _ _ _ Q) as TI.
      assert (HVT : forall s, sconf h s e -> htype h vt). { intros s C. pose proof (proj2 C x) as M. rewrite TI in M. eapply tyok_hmem; eauto. }
      destruct (ty_eqb t vt) eqn:Q1; [|destruct (ty_eqb t TBD) eqn:Q2].
      + apply ret_inv in E as (-> & -> & ->). split; [exact G|]. split; [reflexivity|]. intros s v C L M. apply sconf_upd'; [exact C|exact L|]. rewrite TI. apply (eqb_mem h t vt v); eauto. eapply tyok_hmem; eauto.
      + apply ret_inv in E as (-> & -> & ->). split; [exact G|]. split; [reflexivity|]. intros s v C L M. rewrite (nT _ _ M) in Q2. discriminate.
      + bw E. apply lift_inv in A as (A & -> & ->). bw E. apply tell_inv in A0 as (-> & ->). destruct x1.
        * apply lift_inv in E as (E & -> & ->). unfold with_expr_type_narrowed in E. match type of E with bind ?m _ = _ => destruct m as [[|]|] eqn:N; [| |discriminate] end; cbn [bind] in E.
          -- inversion E; subst r. split; [exact G|]. split; [reflexivity|]. intros s v C L M. apply sconf_upd'; [exact C|exact L|]. rewrite TI. exact (sub_mem h W sc t vt v (tyok_hmem h _ _ T M) (HVT s C) A M).
          -- match type of E with bind ?m _ = _ => destruct m; [|discriminate] end. cbn [bind] in E. inversion E; subst r. split; [now apply good_set|]. split; [reflexivity|]. intros s v C L M. now apply sconf_upd.
        * apply ret_inv in E as (-> & -> & ->). split; [now apply good_set|]. split; [reflexivity|]. intros s v C L M. now apply sconf_upd.
    - apply ret_inv in E as (-> & -> & ->). split; [now apply good_set|]. split; [reflexivity|]. intros s v C L M. now apply sconf_upd.
  Qed.

  Lemma set_ok self x e r er rv : good self -> isvar x = true -> wf_expr isvar e -> set_A_to_B h sc uf params_of return_of pnames self x e = Ok (r, (er, rv)) ->
    good r /\ rv = [] /\ (fine er -> forall s o, sconf h s self -> ev e s o -> exists v, o = Some v /\ leaf h v /\ sconf h (upd s x v) r).
  Proof.
    intros G V WE E. unfold set_A_to_B in E. bwn E as p A ea ra eb rb. destruct p as [et e1]. destruct (tc_expr_ok e (Some self) et e1 _ _ WE G A) as (e0 & [= <-] & G1 & T1 & -> & TO & K). clear A.
    bwn E as st A ec rc ed rd. destruct (tc_var_ok _ _ _ _ _ G1 A) as (S1 & -> & S3). clear A. bwn E as u A ee re eg rg.
    assert (re = []) as ->. { destruct (nmem x pnames); [apply tell_inv in A as (_ & ->)|apply ret_inv in A as (_ & _ & ->)]; reflexivity. } clear A.
    assert (GO : good r /\ rg = [] /\ forall s v, type_in e1 x = st -> sconf h s self -> sconf h s e1 -> leaf h v -> hmem h v et -> sconf h (upd s x v) r).
    { destruct (ty_eqb st TBD) eqn:Q1; cbn [andb] in E.
      - apply ty_eqb_TBD in Q1. assert (BAD : forall s, type_in e1 x = st -> sconf h s e1 -> False). { intros s Z C. pose proof (proj2 C x) as M. rewrite Z, Q1 in M. exact M. }
        destruct (ty_eqb et TBD); apply ret_inv in E as (-> & -> & ->); (split; [|split; [reflexivity|intros s v Z _ C; destruct (BAD s Z C)]]); [exact G1|now apply good_set].
      - destruct (ty_eqb et TBD) eqn:Q2.
        + apply ret_inv in E as (-> & -> & ->). apply ty_eqb_TBD in Q2. split; [|split; [reflexivity|intros s v _ _ _ _ M; subst et; destruct M]]. apply good_set; [exact G| |exact S1]. destruct e as [y|k op args]; [exact WE|]. exfalso. rewrite (TO k op args eq_refl) in Q2. exact (htype_not_TBD h _ (Hreturn op) Q2).
        + assert (HS : forall s, type_in e1 x = st -> sconf h s e1 -> htype h st). { intros s Z C. pose proof (proj2 C x) as M. rewrite Z in M. eapply tyok_hmem; eauto. }
          destruct (ty_eqb et st) eqn:Q3.
          * apply ret_inv in E as (-> & -> & ->). split; [exact G1|]. split; [reflexivity|]. intros s v Z C C1 L M. apply sconf_upd'; [exact C1|exact L|]. rewrite Z. apply (eqb_mem h et st v); eauto. eapply tyok_hmem; eauto.
          * destruct (ty_eqb et (Hier T_List) && match st with ListT _ => true | _ => false end) eqn:Q4.
            -- apply ret_inv in E as (-> & -> & ->). split; [exact G1|]. split; [reflexivity|]. intros s v Z C C1 L M. exfalso. apply andb_true_iff in Q4 as [_ Q4]. destruct (HS s Z C1) as [(a & -> & _)|(l & -> & _)]; discriminate.
            -- bwn E as b A ei ri ej rj. apply lift_inv in A as (_ & -> & ->). bwn E as u' A ek rk em rm. apply ret_inv in E as (-> & -> & ->).
               assert (rk = []) as ->. { destruct b; [|destruct (ty_eqb st (Hier T_not_passed))]; [apply ret_inv in A as (_ & _ & ->)|apply ret_inv in A as (_ & _ & ->)|apply tell_inv in A as (_ & ->)]; reflexivity. }
               split; [now apply good_set|]. split; [reflexivity|]. intros s v Z C C1 L M. now apply sconf_upd. }
    destruct GO as (GO1 & -> & GO3). split; [exact GO1|]. split; [reflexivity|]. intros F s o C R. apply fine_app in F as [F1 F]. apply fine_app in F as [F2 _]. destruct (K F1 s o C R) as (v & -> & L & M & C1 & _). destruct (S3 F2) as (_ & _ & S4). exists v. split; [reflexivity|]. split; [exact L|]. now apply GO3.
  Qed.

  Definition result (o : outcome) (r : option env) (rv : list env) : Prop :=
    match o with
    | Wrong => False
    | Next s' => sco s' r
    | Ret v s' => leaf h v /\ hmem h v expected /\ exists e, In e rv /\ sconf h (upd s' 0 v) e
    end.
  Lemma result_incl o r rv rv' : incl rv rv' -> result o r rv -> result o r rv'.
  Proof. intros I. destruct o; cbn; auto. intros (L & M & e & Ie & C). split; [exact L|]. split; [exact M|]. exists e. auto. Qed.
  Lemma result_stop o r r' rv : (forall s', o <> Next s') -> result o r rv -> result o r' rv.
  Proof. intros N. destruct o; cbn; auto. now destruct (N s). Qed.
  Lemma result_or o b r rv : (forall s, sco s b -> sco s r) -> result o b rv -> result o r rv.
  Proof. intros H. destruct o; cbn; auto. Qed.

  Lemma nget_filter (p : nat -> bool) (l : list (nat * ty)) x : nget (filter (fun b => p (fst b)) l) x = if p x then nget l x else None.
  Proof.
    induction l as [|[y t] l IH]; cbn [filter nget fst]; [destruct (p x); reflexivity|]. destruct (p y) eqn:P; cbn [nget]; rewrite ?IH; destruct (Nat.eqb_spec y x) as [->|N]; rewrite ?P; try reflexivity; destruct (p x); reflexivity.
  Qed.
  Lemma vars_eqb_sym a b : vars_eqb a b = vars_eqb b a.
  Proof. unfold vars_eqb. apply andb_comm. Qed.

  Section Loop.
    Variable pre : env.
    Variable check : env -> out (option env * option env).
    Variable body : option env -> out (option env).
    Variable enter : store -> store -> Prop.
    Variable exit bad : store -> Prop.
    Variable bodyx : store -> outcome -> Prop.
    Hypothesis Gpre : good pre.
    Hypothesis Hcheck : forall top stay ex er rv, good top -> check top = Ok ((stay, ex), (er, rv)) -> goodo stay /\ goodo ex /\ rv = [] /\
      (fine er -> forall s, sconf h s top -> (forall s0, enter s s0 -> sco s0 stay) /\ (exit s -> sco s ex) /\ ~ bad s).
    Hypothesis Hbody : forall oe r er rv, goodo oe -> body oe = Ok (r, (er, rv)) -> goodo r /\ (forall e, In e rv -> env_ok' h e) /\
      (fine er -> forall s, sco s oe -> forall o, bodyx s o -> result o r rv).

    Lemma loop_ok n : forall passi top r er rv, good top -> (forall x, nget (e_vars top) x <> None -> nget (e_vars pre) x <> None) -> (forall s, sconf h s pre -> sconf h s top) ->
      tc_loop h uf sorted n passi pre check body top = Ok (r, (er, rv)) ->
      goodo r /\ (forall e, In e rv -> env_ok' h e) /\ (fine er -> forall s, sconf h s pre -> forall o, iter enter exit bad bodyx s o -> result o r rv).
    Proof.
      induction n as [|n IH]; intros passi top r er rv G K PT E; cbn [tc_loop] in E; [discriminate|].
      match type of E with bind ?m _ = _ => destruct m as [[[ex nt] [w1 w2]]|] eqn:P; [|discriminate] end. cbn [bind] in E.
      bwn P as p A ea ra eb rb. destruct p as [stay ex']. destruct (Hcheck _ _ _ _ _ G A) as (C1 & C2 & -> & C4). clear A.
      bwn P as bo A ec rc ed rd. destruct (Hbody _ _ _ _ C1 A) as (B1 & B2 & B3). clear A.
      bwn P as b A ee re eg rg. apply need_inv in A as (-> & -> & ->). bwn P as nto A ei ri ej rj.
      set (rb := reduce b (map fst (e_vars pre))) in *.
      assert (RB : forall x, nget (e_vars rb) x = if nmem x (map fst (e_vars pre)) then nget (e_vars b) x else None) by (intros x; apply (nget_filter (fun x => nmem x (map fst (e_vars pre))))).
      assert (Grb : good rb). { split; intros x; [intros t|]; rewrite RB; destruct (nmem x _); try discriminate; [apply (proj1 B1)|apply (proj2 B1)|congruence]. }
      unfold env_or in A. apply lift_inv in A as (A & -> & ->). bwn P as nt' A' ek rk em rm. apply need_inv in A' as (-> & -> & ->). apply ret_inv in P as (P & -> & ->). inversion P; subst ex' nt'. clear P.
      pose proof (envs_or_strong h W LL NS f sorted sorted_perm [Some rb; Some pre] (Some nt)) as O. cbv beta iota in O. destruct O as (O1 & O2 & O3); [intros e [[= <-]|[[= <-]|[]]]; [apply Grb|apply Gpre]|exact A|].
      assert (Knt : forall x, nget (e_vars nt) x <> None -> nget (e_vars pre) x <> None).
      { intros x Q. apply O2 in Q as (e & [[= <-]|[[= <-]|[]]] & Q); [|exact Q]. rewrite RB in Q. destruct (nmem x (map fst (e_vars pre))) eqn:Z; [|congruence]. apply nmem_in in Z. now apply nget_keys. }
      assert (Gnt : good nt) by (split; [exact O1|]; intros x Q; apply Gpre; auto).
      cbn [fst snd] in E. rewrite !app_nil_r in E. cbn [app] in E. destruct (vars_eqb (e_vars nt) (e_vars top)) eqn:Q.
      - match type of E with bind ?m _ = _ => destruct m; [|discriminate] end. cbn [bind] in E. inversion E; subst r er rv. clear E. split; [exact C2|]. split; [exact B2|]. intros F s0 S0 o0 I0. apply fine_app in F as [F1 F2]. apply PT in S0. clear PT.
        specialize (C4 F1). specialize (B3 F2). revert S0. induction I0 as [s X|s X|s s0 o X1 X2 X3|s s0 s1 o X1 X2 X3 IHI]; intros S0; destruct (C4 s S0) as (D1 & D2 & D3).
        + cbn. auto.
        + destruct (D3 X).
        + apply result_stop with (r := Some b); [exact X3|]. apply (B3 s0 (D1 s0 X1) o X2).
        + apply IHI. pose proof (B3 s0 (D1 s0 X1) _ X2) as R. cbn in R.
          apply (vars_eqb_sconf h nt top _ O1 (proj1 G) Q). assert (SN : sconf h s nt) by (apply (vars_eqb_sconf h top nt _ (proj1 G) O1); [rewrite vars_eqb_sym; exact Q|exact S0]).
          unfold leave. split; [intros x; destruct (s x =? 14); [exact L14|apply R]|]. intros x. destruct (Nat.eqb_spec (s x) 14) as [Z|Z]; [rewrite <- Z; apply SN|].
          assert (KP : nget (e_vars pre) x <> None). { destruct (nget (e_vars top) x) eqn:Z'; [apply K; congruence|]. exfalso. apply Z. apply leaf_val; [exact L14|]. pose proof (proj2 S0 x) as M. unfold type_in in M. rewrite Z' in M. exact M. }
          apply (O3 x (s1 x) rb); [now left|apply R|]. unfold type_in. rewrite RB. replace (nmem x (map fst (e_vars pre))) with true by (symmetry; apply nmem_in; now apply nget_keys). apply R.
      - match type of E with bind ?m _ = _ => destruct m as [[r' [w1' w2']]|] eqn:L; [|discriminate] end. cbn [bind fst snd] in E. inversion E; subst r er rv. clear E.
        destruct (IH _ _ _ _ _ Gnt Knt (fun s C => conj (proj1 C) (fun x => O3 x (s x) pre (or_intror (or_introl eq_refl)) (proj1 C x) (proj2 C x))) L) as (I1 & I2 & I3). split; [exact I1|]. split; [intros e I; apply in_app_or in I as [I|I]; auto|].
        intros F s C o I. apply result_incl with (rv := w2'); [intros e Ie; apply in_or_app; now right|]. now apply (I3 F s C).
    Qed.
  End Loop.

  Definition cmd_sound (c : cmd) : Prop := forall oe r er rv, wf_cmd h isvar inside c -> goodo oe -> T_cmd c oe = Ok (r, (er, rv)) ->
    goodo r /\ (forall e, In e rv -> env_ok' h e) /\ (fine er -> forall s, sco s oe -> forall o, ex c s o -> result o r rv).
  Definition tail_sound (t : tail) : Prop := forall oe rs er rv, wf_tail h isvar inside t -> goodo oe -> T_tail t oe = Ok (rs, (er, rv)) ->
    (forall r, In r rs -> goodo r) /\ (forall e, In e rv -> env_ok' h e) /\ (fine er -> forall s, sco s oe -> forall o, ext t s o -> exists r, (match o with Next _ => In r rs | _ => True end) /\ result o r rv).

  Lemma asserts_ok c oe t_env f_env er rv s o : wf_cond h isvar inside c -> goodo oe -> T_cond c oe true = Ok ((t_env, f_env), (er, rv)) -> fine er -> sco s oe -> asserts h params_of inside den c s o -> exists s', o = Next s' /\ sco s' t_env.
  Proof.
    intros WC G E F C A. destruct (cond_ok c oe true t_env f_env er rv WC G E) as (_ & _ & _ & K). destruct A as [[A ->]|[(A & X & ->)|[A ->]]]; destruct (K F s C _ A) as [K1 K2]; [eauto| |destruct K1]. specialize (K2 eq_refl X). discriminate.
  Qed.

  Lemma expr_result e oe t e1 er rv k s o (r : option env) rs : wf_expr isvar e -> goodo oe -> tc_expr h sc uf params_of return_of e oe = Ok ((t, e1), (er, rv)) -> fine er -> sco s oe -> with_value h params_of den e s k o ->
    (forall v, leaf h v -> hmem h v t -> sconf h s e1 -> result (k v) r rs) -> result o r rs.
  Proof.
    intros WE G E F C (ov & V & ->) H. destruct (tc_expr_ok e oe t e1 er rv WE G E) as (e0 & -> & G1 & T1 & -> & _ & K). destruct (K F s ov C V) as (v & -> & L & M & C1 & _). auto.
  Qed.

  Theorem sound : (forall c, cmd_sound c) /\ (forall t, tail_sound t).
  Proof.
    apply cmd_tail_ind.
    - intros x e oe r er rv [Vx WE] G E. cbn [tc] in E. bwn E as p A ea ra eb rb. destruct p as [t e1]. bwn E as r' A' ec rc ed rd. apply ret_inv in E as (-> & -> & ->). destruct (tc_expr_ok e oe t e1 _ _ WE G A) as (e0 & -> & G1 & T1 & -> & _ & K).
      destruct (plus_ok e1 x t r' ec rc G1 Vx T1 A') as (P1 & -> & P3). split; [exact P1|]. split; [intros z []|]. intros F s C o X. apply fine_app in F as [F1 F2]. eapply expr_result; eauto. intros v L M C1. cbn. auto.
    - intros x e oe r er rv [Vx WE] G E. cbn [tc] in E. bwn E as p A ea ra eb rb. apply need_inv in A as (-> & -> & ->). bwn E as r' A' ec rc ed rd. apply ret_inv in E as (-> & -> & ->). destruct (set_ok p x e r' ec rc G Vx WE A') as (P1 & -> & P3).
      split; [exact P1|]. split; [intros z []|]. intros F s C o (ov & V & ->). cbn in F. rewrite app_nil_r in F. destruct (P3 F s ov C V) as (v & -> & L & C1). exact C1.
    - intros e oe r er rv WE G E. cbn [tc] in E. bwn E as p A ea ra eb rb. destruct p as [t e1]. apply ret_inv in E as (-> & -> & ->). destruct (tc_expr_ok e oe t e1 _ _ WE G A) as (e0 & -> & G1 & T1 & -> & _ & K).
      split; [exact G1|]. split; [intros z []|]. intros F s C o X. apply fine_app in F as [F1 F2]. eapply expr_result; eauto.
    - intros e oe r er rv WE G E. cbn [tc] in E. bwn E as p A ea ra eb rb. destruct p as [t e1]. bwn E as u A' ec rc ed rd. apply ret_inv in E as (-> & -> & ->). destruct (tc_expr_ok e oe t e1 _ _ WE G A) as (e0 & -> & G1 & T1 & -> & _ & K).
      unfold proc_add_return in A'. bwn A' as b A0 ee re eg rg. apply lift_inv in A0 as (A0 & -> & ->). bwn A' as u' A1 ei ri ej rj. inversion A'; subst ej rj. clear A'.
      assert (ri = [] /\ (fine ei -> b = true)) as [-> B]. { destruct b; [apply ret_inv in A1 as (_ & -> & ->)|apply tell_inv in A1 as (-> & ->)]; split; auto. intros F. apply fine_cons in F as [F _]. discriminate. }
      split; [exact I|]. split; [intros z [<-|[]]|].
      { intros y t' Q. unfold set_var, with_vars in Q. cbn [e_vars] in Q. destruct (Nat.eq_dec 0 y) as [<-|N]; [rewrite nget_nset_same in Q; inversion Q; subst; exact T1|rewrite nget_nset_other in Q by exact N; exact (proj1 G1 y t' Q)]. }
      intros F s C o X. apply fine_app in F as [F1 F]. rewrite app_nil_r in F. cbn in F. rewrite app_nil_r in F. specialize (B F). subst b. eapply expr_result; eauto. intros v L M C1. cbn. split; [exact L|]. split; [exact (sub_mem h W sc t expected v (tyok_hmem h _ _ T1 M) Hexp A0 M)|]. eexists. split; [now left|]. now apply sconf_upd.
    - intros oe r er rv _ G E. cbn [tc] in E. apply ret_inv in E as (-> & -> & ->). split; [exact G|]. split; [intros z []|]. intros _ s C o ->. exact C.
    - intros c1 IH1 c2 IH2 oe r er rv [W1 W2] G E. cbn [tc] in E. bwn E as oe1 A ea ra eb rb. destruct (IH1 oe oe1 _ _ W1 G A) as (G1 & R1 & S1). destruct (IH2 oe1 r _ _ W2 G1 E) as (G2 & R2 & S2). split; [exact G2|]. split; [intros z Z; apply in_app_or in Z as [Z|Z]; auto|].
      intros F s C o X. apply fine_app in F as [F1 F2]. cbn [exec] in X. destruct X as [(s1 & X1 & X2)|[X1 X2]].
      + apply result_incl with (rv := rb); [intros z Z; apply in_or_app; now right|]. apply (S2 F2 s1); [apply (S1 F1 s C _ X1)|exact X2].
      + apply result_incl with (rv := ra); [intros z Z; apply in_or_app; now left|]. apply result_stop with (r := oe1); [exact X2|]. apply (S1 F1 s C _ X1).
    - intros c oe r er rv WC G E. cbn [tc] in E. bwn E as p A ea ra eb rb. destruct p as [t_env f_env]. apply ret_inv in E as (-> & -> & ->). destruct (cond_ok c oe true t_env f_env _ _ WC G A) as (G1 & G2 & -> & K). split; [exact G1|]. split; [intros z []|].
      intros F s C o X. rewrite app_nil_r in F. destruct (asserts_ok c oe t_env f_env _ _ s o WC G A F C X) as (s' & -> & C'). exact C'.
    - intros c1 c2 oe r er rv [WC1 WC2] G E. cbn [tc] in E. bwn E as p A ea ra eb rb. destruct p as [t1 f1]. destruct (cond_ok c1 oe false t1 f1 _ _ WC1 G A) as (G1 & G2 & -> & K). bwn E as p A' ec rc ed rd. destruct p as [t2 f2]. destruct (cond_ok c2 t1 true t2 f2 _ _ WC2 G1 A') as (G3 & G4 & -> & K2).
      destruct (env_or_good f1 t2 r _ _ G2 G3 E) as (-> & -> & G5 & O). split; [exact G5|]. split; [intros z []|]. intros F s C o X. apply fine_app in F as [F1 F]. rewrite app_nil_r in F. cbn [exec] in X. destruct X as [[X1 X2]|[[X1 ->]|[X1 ->]]]; destruct (K F1 s C _ X1) as [C1 _].
      + destruct (asserts_ok c2 t1 t2 f2 _ _ s o WC2 G1 A' F C1 X2) as (s' & -> & C'). cbn. auto.
      + cbn. auto.
      + destruct C1.
    - intros c c1 IH1 c2 IH2 oe r er rv (WC & W1 & W2) G E. cbn [tc] in E. bwn E as p A ea ra eb rb. destruct p as [t1 f1]. destruct (cond_ok c oe false t1 f1 _ _ WC G A) as (G1 & G2 & -> & K). bwn E as b1 A1 ec rc ed rd. bwn E as b2 A2 ee re eg rg.
      destruct (IH1 t1 b1 _ _ W1 G1 A1) as (B1 & R1 & S1). destruct (IH2 f1 b2 _ _ W2 G2 A2) as (B2 & R2 & S2). destruct (env_or_good b1 b2 r _ _ B1 B2 E) as (-> & -> & G5 & O). split; [exact G5|]. rewrite !app_nil_r. cbn [app]. split; [intros z Z; apply in_app_or in Z as [Z|Z]; auto|].
      intros F s C o X. apply fine_app in F as [F1 F]. apply fine_app in F as [F2 F3]. cbn [exec] in X. destruct X as [[X1 X2]|[[X1 X2]|[X1 ->]]]; destruct (K F1 s C _ X1) as [C1 _].
      + apply result_or with (b := b1); [auto|]. apply result_incl with (rv := rc); [intros z Z; apply in_or_app; now left|]. now apply (S1 F2 s C1).
      + apply result_or with (b := b2); [auto|]. apply result_incl with (rv := re); [intros z Z; apply in_or_app; now right|]. now apply (S2 F3 s C1).
      + destruct C1.
    - intros c c1 IH1 t IHt oe r er rv (WC & W1 & W2) G E. cbn [tc] in E. bwn E as p A ea ra eb rb. destruct p as [t1 f1]. destruct (cond_ok c oe false t1 f1 _ _ WC G A) as (G1 & G2 & -> & K). bwn E as b1 A1 ec rc ed rd. bwn E as bs A2 ee re eg rg. apply lift_inv in E as (E & -> & ->).
      destruct (IH1 t1 b1 _ _ W1 G1 A1) as (B1 & R1 & S1). destruct (IHt f1 bs _ _ W2 G2 A2) as (B2 & R2 & S2). destruct (or_good (b1 :: bs) r) as [G5 O]; [intros z [<-|Z]; auto|exact E|]. split; [exact G5|]. rewrite !app_nil_r. cbn [app]. split; [intros z Z; apply in_app_or in Z as [Z|Z]; auto|].
      intros F s C o X. apply fine_app in F as [F1 F]. apply fine_app in F as [F2 F3]. cbn [exec] in X. destruct X as [[X1 X2]|[[X1 X2]|[X1 ->]]]; destruct (K F1 s C _ X1) as [C1 _].
      + apply result_or with (b := b1); [intros s' Z; apply (O s' b1); [now left|exact Z]|]. apply result_incl with (rv := rc); [intros z Z; apply in_or_app; now left|]. now apply (S1 F2 s C1).
      + destruct (S2 F3 s C1 o X2) as (b & I & R). apply result_incl with (rv := re); [intros z Z; apply in_or_app; now right|]. destruct o; cbn in *; auto. apply (O s0 b); auto.
      + destruct C1.
    - intros utl c body IH oe r er rv [WC WB] G E. cbn [tc] in E. bwn E as pre A ea ra eb rb. apply need_inv in A as (-> & -> & ->). cbn [app].
      eapply (loop_ok pre _ (T_cmd body) (fun s s0 => s0 = s /\ cev c s (Some (negb utl))) (fun s => cev c s (Some utl)) (fun s => cev c s None) (ex body)); [exact G| | |exact G|auto|auto|exact E].
      + intros top stay ex1 er rv Gt Ec. bwn Ec as p A ea ra ec rc. destruct p as [t1 f1]. apply ret_inv in Ec as (Ec & -> & ->). destruct (cond_ok c (Some top) false t1 f1 _ _ WC Gt A) as (G1 & G2 & -> & K).
        assert (goodo stay /\ goodo ex1) as [H1 H2] by (destruct utl; inversion Ec; subst; auto). split; [exact H1|]. split; [exact H2|]. split; [reflexivity|]. intros F s C. rewrite app_nil_r in F. split; [|split].
        * intros s0 [-> X]. destruct (K F s C _ X) as [C1 _]. destruct utl; inversion Ec; subst; exact C1.
        * intros X. destruct (K F s C _ X) as [C1 _]. destruct utl; inversion Ec; subst; exact C1.
        * intros X. apply (K F s C _ X).
      + intros oe1 r1 er1 rv1 G1 E1. apply (IH oe1 r1 er1 rv1 WB G1 E1).
    - intros body IH oe r er rv WB G E. cbn [tc] in E. bwn E as pre A ea ra eb rb. apply need_inv in A as (-> & -> & ->). cbn [app].
      eapply (loop_ok pre _ (T_cmd body) (fun s s0 => s0 = s) (fun _ => False) (fun _ => False) (ex body)); [exact G| | |exact G|auto|auto|exact E].
      + intros top stay ex1 er rv Gt Ec. apply ret_inv in Ec as (Ec & -> & ->). inversion Ec; subst. split; [exact Gt|]. split; [exact I|]. split; [reflexivity|]. intros _ s C. split; [intros s0 ->; exact C|]. split; [intros []|auto].
      + intros oe1 r1 er1 rv1 G1 E1. apply (IH oe1 r1 er1 rv1 WB G1 E1).
    - intros x it co ct body IH oe r er rv (Vx & Vc & Hit & Hct & WB) G E. cbn [tc] in E. bwn E as pre A ea ra eb rb. apply need_inv in A as (-> & -> & ->). cbn [app].
      eapply (loop_ok pre _ (T_cmd body) (fun s s0 => hmem h (s co) ct /\ exists v, leaf h v /\ hmem h v it /\ s0 = upd s x v) (fun s => hmem h (s co) ct) (fun s => ~ hmem h (s co) ct) (ex body)); [exact G| | |exact G|auto|auto|exact E].
      + intros top stay ex1 er rv Gt Ec. bwn Ec as e1 A ea ra ec rc. destruct (ensure_ok top co ct e1 _ _ Gt Vc Hct A) as (G1 & -> & K). bwn Ec as e2 A' ed rd ee re. destruct (plus_ok e1 x it e2 _ _ G1 Vx (or_intror Hit) A') as (G2 & -> & P). apply ret_inv in Ec as (Ec & -> & ->). inversion Ec; subst.
        split; [exact G2|]. split; [exact Gt|]. split; [reflexivity|]. intros F s C. apply fine_app in F as [F1 F2]. destruct (K F1 s C) as [C1 M]. split; [|split; [intros _; exact C|intros N; exact (N M)]]. intros s0 (_ & v & L & Mv & ->). cbn. auto.
      + intros oe1 r1 er1 rv1 G1 E1. apply (IH oe1 r1 er1 rv1 WB G1 E1).
    - intros c c1 IH1 t IHt oe rs er rv (WC & W1 & W2) G E. cbn [tc_tail] in E. bwn E as p A ea ra eb rb. destruct p as [t1 f1]. destruct (cond_ok c oe false t1 f1 _ _ WC G A) as (G1 & G2 & -> & K). bwn E as bs A1 ec rc ed rd.
      assert (B : (forall r, In r bs -> goodo r) /\ (forall e, In e rc -> env_ok' h e) /\ (fine ec -> forall s, sco s t1 -> forall o, ex c1 s o -> exists r, (match o with Next _ => In r bs | _ => True end) /\ result o r rc)).
      { destruct t1 as [t1|].
        - bwn A1 as b1 A2 ee re eg rg. apply ret_inv in A1 as (-> & -> & ->). destruct (IH1 (Some t1) b1 _ _ W1 G1 A2) as (B1 & R1 & S1). rewrite !app_nil_r. split; [intros z [<-|[]]; exact B1|]. split; [exact R1|]. intros F s C o X. exists b1. split; [destruct o; cbn; auto|]. now apply (S1 F s C).
        - bwn A1 as u A2 ee re eg rg. apply tell_inv in A2 as (-> & ->). apply ret_inv in A1 as (-> & -> & ->). split; [intros z []|]. split; [intros z []|]. intros F s []. }
      destruct B as (B1 & B2 & B3).
      assert (B' : (forall r, In r rs -> goodo r) /\ (forall e, In e rd -> env_ok' h e) /\ incl bs rs /\ (fine ed -> forall s, sco s f1 -> forall o, ext t s o -> exists r, (match o with Next _ => In r rs | _ => True end) /\ result o r rd)).
      { destruct f1 as [f1|].
        - bwn E as bs' A2 ee re eg rg. apply ret_inv in E as (-> & -> & ->). destruct (IHt (Some f1) bs' _ _ W2 G2 A2) as (B1' & R1 & S1). rewrite !app_nil_r. split; [intros z Z; apply in_app_or in Z as [Z|Z]; auto|]. split; [exact R1|]. split; [intros z Z; apply in_or_app; now left|]. intros F s C o X. destruct (S1 F s C o X) as (b & Ib & R). exists b. split; [destruct o; auto; apply in_or_app; now right|exact R].
        - bwn E as u A2 ee re eg rg. apply tell_inv in A2 as (-> & ->). apply ret_inv in E as (-> & -> & ->). split; [exact B1|]. split; [intros z []|]. split; [intros z Z; exact Z|]. intros F s []. }
      destruct B' as (B1' & B2' & BI & B3'). split; [exact B1'|]. cbn [app]. split; [intros z Z; apply in_app_or in Z as [Z|Z]; auto|]. intros F s C o X. apply fine_app in F as [F1 F]. apply fine_app in F as [F2 F3]. cbn [exec_tail] in X. destruct X as [[X1 X2]|[[X1 X2]|[X1 ->]]]; destruct (K F1 s C _ X1) as [C1 _].
      + destruct (B3 F2 s C1 o X2) as (b & Ib & R). exists b. split; [destruct o; auto|]. eapply result_incl; [|exact R]. intros z Z; apply in_or_app; now left.
      + destruct (B3' F3 s C1 o X2) as (b & Ib & R). exists b. split; [exact Ib|]. eapply result_incl; [|exact R]. intros z Z; apply in_or_app; now right.
      + destruct C1.
    - intros c1 IH1 oe rs er rv W1 G E. cbn [tc_tail] in E. bwn E as b A ea ra eb rb. apply ret_inv in E as (-> & -> & ->). destruct (IH1 oe b _ _ W1 G A) as (B1 & R1 & S1). rewrite !app_nil_r. split; [intros z [<-|[]]; exact B1|]. split; [exact R1|]. intros F s C o X. exists b. split; [destruct o; cbn; auto|]. now apply (S1 F s C).
    - intros oe rs er rv _ G E. cbn [tc_tail] in E. apply ret_inv in E as (-> & -> & ->). split; [intros z [<-|[]]; exact G|]. split; [intros z []|]. intros _ s C o ->. exists oe. split; [now left|exact C].
  Qed.

  (* the body of an algorithm *)
  Theorem body_sound c e0 er rv s r : wf_cmd h isvar inside c -> good e0 -> tc_body h sc uf sorted params_of return_of pnames expected c e0 = Ok (tt, (er, rv)) -> fine er -> sconf h s e0 -> returns h params_of inside den c s r ->
    exists v, r = Some v /\ leaf h v /\ hmem h v expected.
  Proof.
    intros WC G E F C (o & X & ->). unfold tc_body in E. bwn E as r A ea ra eb rb. destruct (proj1 sound c (Some e0) r _ _ WC G A) as (G1 & _ & S1). apply fine_app in F as [F1 F2]. specialize (S1 F1 s C o X). destruct o as [s'|v s'|]; cbn in S1.
    - destruct r as [e|]; [|destruct S1]. bwn E as u A' ec rc ed rd. apply tell_inv in A' as (-> & ->). unfold proc_add_return in E. bwn E as b A0 ee re eg rg. apply lift_inv in A0 as (A0 & -> & ->). bwn E as u' A1 ei ri ej rj.
      destruct b; [|exfalso; apply tell_inv in A1 as (-> & ->); apply fine_app in F2 as [_ F2]; apply fine_app in F2 as [_ F2]; apply fine_app in F2 as [F2 _]; apply fine_cons in F2 as [F2 _]; discriminate].
      exists 16. split; [reflexivity|]. split; [exact L16|]. assert (H16 : htype h (Hier 16)) by (left; exists 16; split; [reflexivity|apply L16]). apply (sub_mem h W sc (Hier 16) expected 16 H16 Hexp A0). apply anc_refl.
    - exists v. split; [reflexivity|]. split; apply S1.
    - destruct S1.
  Qed.

  Theorem defns_sound cs e0 : (forall c, In c cs -> wf_cmd h isvar inside c) -> good e0 -> forall er rv, tc_defns h sc uf sorted params_of return_of pnames expected cs e0 = Ok (tt, (er, rv)) -> fine er -> forall c s r, In c cs -> sconf h s e0 -> returns h params_of inside den c s r ->
    exists v, r = Some v /\ leaf h v /\ hmem h v expected.
  Proof.
    intros WC G. induction cs as [|c cs IH]; intros er rv E F c' s r I C R; [destruct I|]. cbn [tc_defns] in E. bwn E as u A ea ra eb rb. destruct u. apply fine_app in F as [F1 F2]. destruct I as [<-|I].
    - apply (body_sound c e0 ea ra s r); auto. apply WC. now left.
    - apply (IH (fun c I => WC c (or_intror I)) eb rb E F2 c' s r I C R).
  Qed.
End S.

Lemma header_ok h sc uf isvar ret_t ps ts e b vs v0 : leaf h 14 -> htype h ret_t -> (forall t, In t ts -> htype h t) -> isvar 0 = true -> (forall p, In p ps -> isvar p = true) ->
  make_env h sc uf ret_t (combine ps ts) = Ok (e, b) -> length ps = length ts ->
  good h isvar e /\ (Forall2 (hmem h) vs ts -> Forall (leaf h) vs -> leaf h v0 -> hmem h v0 ret_t -> sconf h (start ps vs v0) e).
Proof.
  intros L14 HR HT V0 VP E LE. unfold make_env in E. match type of E with bind ?m _ = _ => destruct m as [[cr ncr]|]; [|discriminate] end. cbn [bind] in E.
  set (e1 := fold_left (fun e p => set_var e (fst p) (snd p)) (combine ps ts) (mkEnv 0 0 0 [] None)) in *.
  assert (e = set_var e1 0 ret_t) as ->. { destruct (negb (ty_eqb cr T_0) && negb (ty_eqb ncr T_0)); [discriminate|]. destruct (negb (ty_eqb cr T_0)); [now inversion E|]. destruct (negb (ty_eqb ncr T_0)); [now inversion E|discriminate]. }
  clear E. assert (G1 : good h isvar e1).
  { assert (X : good h isvar (mkEnv 0 0 0 [] None)) by (split; [intros x t Q; discriminate|intros x Q; destruct (Q eq_refl)]). unfold e1. clear e1 LE. revert ts HT X. generalize (mkEnv 0 0 0 [] None). induction ps as [|p ps IH]; intros e0 ts HT X; [exact X|]. destruct ts as [|t ts]; [exact X|]. cbn [combine fold_left fst snd]. apply IH; [intros; apply VP; now right|intros; apply HT; now right|]. apply good_set; [exact X|apply VP; now left|right; apply HT; now left]. }
  split; [apply good_set; [exact G1|exact V0|now right]|]. intros FA FL L0 M0. unfold start. apply sconf_upd; [|exact L0|exact M0].
  assert (X : sconf h (fun _ => 14) (mkEnv 0 0 0 [] None)). { split; [intros _; exact L14|]. intros x. unfold type_in. cbn. apply anc_refl. }
  unfold e1. clear e1 G1 HT VP. revert ts vs LE FA FL X. generalize (fun _ : nat => 14). generalize (mkEnv 0 0 0 [] None). induction ps as [|p ps IH]; intros e0 s0 ts vs LE FA FL X; [exact X|].
  destruct FA as [|v t vs ts M FA]; [discriminate|]. inversion FL; subst. cbn [combine fold_left fst snd]. apply IH; auto. now apply sconf_upd.
Qed.

(* a checked program *)
Section P.
  Variable h : hier.
  Hypothesis W : wf h.
  Hypothesis LL : forall c, ~ par h c 2.
  Hypothesis L14 : leaf h 14.
  Hypothesis L15 : leaf h 15.
  Hypothesis L16 : leaf h 16.
  Variable sc : list (nat * option nat).
  Variable f : nat.
  Variable sorted : list nat -> list nat.
  Hypothesis sorted_perm : forall l, Permutation (sorted l) l.
  Variable params_of : nat -> list ty.
  Variable return_of : nat -> ty.
  Hypothesis Hparams : forall op t, In t (params_of op) -> htype h t.
  Hypothesis Hreturn : forall op, htype h (return_of op).
  Variable isvar : nat -> bool.
  Hypothesis V0 : isvar 0 = true.
  Variable inside : nat -> nat -> bool.
  Variable bodies : nat -> option (list nat * list cmd).
  Variable given : nat -> list nat -> option nat -> Prop.
  Hypothesis given_ok : forall op vs r, bodies op = None -> args_ok h params_of op vs -> Forall (leaf h) vs -> given op vs r -> exists v, r = Some v /\ leaf h v /\ hmem h v (return_of op).
  Hypothesis checked : forall op ps cs, bodies op = Some (ps, cs) -> length ps = length (params_of op) /\ (forall p, In p ps -> isvar p = true) /\ (forall c, In c cs -> wf_cmd h isvar inside c) /\
    exists e er rv, make_env h sc (S f) (return_of op) (combine ps (params_of op)) = Ok (e, false) /\
      tc_defns h sc (S f) sorted params_of return_of ps (return_of op) cs e = Ok (tt, (er, rv)) /\ fine er.
  Theorem program_sound n : forall op vs r, args_ok h params_of op vs -> Forall (leaf h) vs -> call h params_of return_of inside bodies given n op vs r -> exists v, r = Some v /\ leaf h v /\ hmem h v (return_of op).
  Proof.
    induction n as [|n IH]; intros op vs r A L C; cbn [call] in C; destruct (bodies op) as [[ps cs]|] eqn:B; [destruct C|now apply (given_ok op vs r)| |now apply (given_ok op vs r)].
    destruct C as (v0 & c & L0 & M0 & I & R). destruct (checked op ps cs B) as (LE & VP & WC & e & er & rv & E1 & E2 & F).
    destruct (header_ok h sc (S f) isvar (return_of op) ps (params_of op) e false vs v0 L14 (Hreturn op) (Hparams op) V0 VP E1 LE) as [G S].
    exact (defns_sound h W LL L14 L15 L16 sc f sorted sorted_perm params_of return_of ps (return_of op) Hparams Hreturn (Hreturn op) isvar inside _ IH cs e WC G er rv E2 F c _ r I (S A L L0 M0) R).
  Qed.
End P.
