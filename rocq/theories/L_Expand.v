(* Specification and lemmas for the expansion of grammars. *)
From Verif Require Import M_Base L_Base M_GramCheck L_GramCheck M_Expand.

(* ---- specification: derivations in a grammar with parameters and optional symbols ---- *)
(* what stands at a place: terminals are X_lit, X_named, X_u_p and X_u_r, constraints the rest; a constraint may depend on where the symbol before it starts *)
Definition terminal (x : xthing) : Prop := match x with X_lit _ | X_named _ | X_u_p _ | X_u_r _ _ => True | _ => False end.
Definition constraint (x : xthing) : Prop := match x with X_but_only_if _ | X_but_not _ | X_no_LT_here | X_lookahead _ _ => True | _ => False end.
(* the name of a nonterminal with given signs of its parameters *)
Definition name_of (a : text) (s : list (bool * text)) : text := a ++ concat (map (fun bp : bool * text => (if fst bp then 43%N else 126%N) :: snd bp) s).
(* the arguments of a nonterminal, in the scope of the parameters s *)
Definition passes (s : list (bool * text)) (args : list (arg_prefix * text)) (s' : list (bool * text)) : Prop :=
  Forall2 (fun pa b => snd b = snd pa /\ match fst pa with AQuestion => In b s | APlus => fst b = true | ATilde => fst b = false | AOther => False end) args s'.
Definition guard_holds (r : rhs_n) (s : list (bool * text)) : Prop :=
  match guard r with None => True | Some gs => forall g, In g gs -> match fst g with APlus => In (true, snd g) s | ATilde => In (false, snd g) s | _ => False end end.

Section Spec.
  Variable lexical : bool.
  Variable prodns : list prodn.
  Variable tok : nat -> xthing -> Prop.
  Variable chk : option nat -> nat -> xthing -> Prop.
  Definition defines (a : text) : Prop := exists p, In p prodns /\ p_lhs p = a.
  (* one thing after the other, from a place (and where the symbol before it starts) to a place *)
  Inductive xrun (R : text -> nat -> nat -> Prop) : option nat -> nat -> list xthing -> option nat -> nat -> Prop :=
  | xr_nil pv i : xrun R pv i [] pv i
  | xr_nt pv i n j r pv' k : R n i j -> xrun R (Some i) j r pv' k -> xrun R pv i (X_NT n :: r) pv' k
  | xr_tm pv i t r pv' k : terminal t -> tok i t -> xrun R (Some i) (S i) r pv' k -> xrun R pv i (t :: r) pv' k
  | xr_cn pv i c r pv' k : constraint c -> chk pv i c -> xrun R None i r pv' k -> xrun R pv i (c :: r) pv' k.
  (* derivations in the expanded grammar *)
  Inductive xder (ps : list exprod) : text -> nat -> nat -> Prop :=
  | xd p i pv j : In p ps -> xrun (xder ps) None i (ex_rhs p) pv j -> xder ps (ex_lhs p) i j.

  (* a constraint as it is meant *)
  Definition terminal_item (t : titem) : lthing := match t with TI_lit c => L_lit c | TI_char n => L_named n | TI_NLTH => L_no_LT end.
  Inductive sequences : operand -> list (list lthing) -> Prop :=
  | sq_set seqs : sequences (O_set seqs) (map (map terminal_item) seqs)
  | sq_nt p cs : In p prodns -> Forall2 (fun r c => guard r = None /\ items r = [R_sym (S_lit c)]) (p_rhss p) cs -> sequences (O_NT (p_lhs p)) (map (fun c => [L_lit c]) cs).
  Inductive excluded : excludable -> bthing -> Prop :=
  | ec_nt n : defines n -> excluded (E_NT n) (B_NT n)
  | ec_named n : ~ defines n -> excluded (E_NT n) (B_named n)
  | ec_lit c : excluded (E_lit c) (B_lit c).
  Inductive means : ritem -> xthing -> Prop :=
  | mn_single b ts : means (R_LAC_SINGLE b ts) (X_lookahead b [map terminal_item ts])
  | mn_set b o tss : sequences o tss -> means (R_LAC_SET b o) (X_lookahead b tss)
  | mn_only c : means (R_BUT_ONLY c) (X_but_only_if c)
  | mn_nlth : means R_NLTH X_no_LT_here
  | mn_not b b' : Forall2 excluded b b' -> means (R_BUT_NOT b) (X_but_not b').
  (* a symbol: a nonterminal with its arguments, a named terminal, a literal (character by character in the lexical grammar) or a character class *)
  Inductive psym (R : text -> list (bool * text) -> nat -> nat -> Prop) (s : list (bool * text)) : symbol -> nat -> option nat -> nat -> Prop :=
  | ps_nt n args s' i j : defines n -> passes s args s' -> R n s' i j -> psym R s (S_GNT n args) i (Some i) j
  | ps_named n args s' i : ~ defines n -> passes s args s' -> tok i (X_named (name_of n s')) -> psym R s (S_GNT n args) i (Some i) (S i)
  | ps_lit c i : (lexical = false \/ length c <= 1) -> tok i (X_lit c) -> psym R s (S_lit c) i (Some i) (S i)
  | ps_chars c i : lexical = true -> 1 < length c -> (forall k x, nth_error c k = Some x -> tok (i + k) (X_lit [x])) -> psym R s (S_lit c) i (Some (i + length c - 1)) (i + length c)
  | ps_char n i : tok i (X_named n) -> psym R s (S_char n) i (Some i) (S i).
  Inductive pitem (R : text -> list (bool * text) -> nat -> nat -> Prop) (s : list (bool * text)) : option nat -> nat -> ritem -> option nat -> nat -> Prop :=
  | pi_params pv i : pitem R s pv i R_PARAMS pv i
  | pi_label pv i : pitem R s pv i R_LABEL pv i
  | pi_sym pv i x pv' j : psym R s x i pv' j -> pitem R s pv i (R_sym x) pv' j
  | pi_absent pv i x : pitem R s pv i (R_QM x) (Some i) i
  | pi_present pv i x pv' j : psym R s x i pv' j -> pitem R s pv i (R_QM x) (Some i) j
  | pi_prop pv i p : tok i (X_u_p p) -> pitem R s pv i (R_U_PROP p) (Some i) (S i)
  | pi_range pv i lo hi : tok i (X_u_r lo hi) -> pitem R s pv i (R_U_RANGE lo hi) (Some i) (S i)
  | pi_any pv i : tok i (X_u_r 0 1114111) -> pitem R s pv i R_U_ANY (Some i) (S i)
  | pi_con pv i it c : means it c -> chk pv i c -> pitem R s pv i it None i.
  Inductive prun (R : text -> list (bool * text) -> nat -> nat -> Prop) (s : list (bool * text)) : option nat -> nat -> list ritem -> option nat -> nat -> Prop :=
  | pr_nil pv i : prun R s pv i [] pv i
  | pr_cons pv i it pv' j r pv'' k : pitem R s pv i it pv' j -> prun R s pv' j r pv'' k -> prun R s pv i (it :: r) pv'' k.
  (* nonterminal a with the signs s of its parameters *)
  Inductive pder : text -> list (bool * text) -> nat -> nat -> Prop :=
  | pd p s r i pv j : In p prodns -> map snd s = p_params p -> In r (p_rhss p) -> guard_holds r s -> prun pder s None i (items r) pv j -> pder (p_lhs p) s i j.
End Spec.

(* what is assumed of a grammar: names without + ~ ?, and no feature for which the expansion is wrong (see the refuted theorems) *)
Definition clean (w : text) : Prop := forall c, In c w -> c <> 43%N /\ c <> 126%N /\ c <> 63%N.
Record well_formed (lexical : bool) (prodns : list prodn) : Prop := {
  w_nodup : NoDup (map p_lhs prodns);
  w_names : forall p, In p prodns -> clean (p_lhs p) /\ (forall a, In a (p_params p) -> clean a) /\ NoDup (p_params p);
  w_guard : forall p r gs g, In p prodns -> In r (p_rhss p) -> guard r = Some gs -> In g gs -> clean (snd g);
  w_gnt : forall p r n args, In p prodns -> In r (p_rhss p) -> In (R_sym (S_GNT n args)) (items r) \/ In (R_QM (S_GNT n args)) (items r) -> clean n /\ forall a, In a args -> clean (snd a);
  w_opt_nt : forall p r n args, In p prodns -> In r (p_rhss p) -> In (R_QM (S_GNT n args)) (items r) -> defines prodns n;
  w_opt_lit : forall p r c, In p prodns -> In r (p_rhss p) -> In (R_QM (S_lit c)) (items r) -> (lexical = true -> length c <= 1) /\ forall n s, defines prodns n -> c <> name_of n s;
  w_set : forall p r b o, In p prodns -> In r (p_rhss p) -> In (R_LAC_SET b o) (items r) -> b = false;
  w_common : lexical = true -> ~ defines prodns InputElement_common }.

(* ---- names ---- *)
Notation flat1 := (fun bp : bool * text => (if fst bp then 43%N else 126%N) :: snd bp).
Notation flat s := (map flat1 s).
Definition clean_signs (s : list (bool * text)) : Prop := forall b, In b s -> clean (snd b).
Lemma clean_split a b r r' : clean a -> clean b -> (r = [] \/ exists c x, r = c :: x /\ (c = 43%N \/ c = 126%N)) -> (r' = [] \/ exists c x, r' = c :: x /\ (c = 43%N \/ c = 126%N)) ->
  a ++ r = b ++ r' -> a = b /\ r = r'.
Proof.
  revert b. induction a as [|x a IH]; intros [|y b] CA CB HR HR' E; cbn in E.
  - auto.
  - exfalso. destruct HR as [->|(c & w & -> & S)]; [discriminate|]. injection E as <- E. destruct (CB c) as (C1 & C2 & _); [now left|]. destruct S; congruence.
  - exfalso. destruct HR' as [->|(c & w & -> & S)]; [discriminate|]. injection E as -> E. destruct (CA c) as (C1 & C2 & _); [now left|]. destruct S; congruence.
  - injection E as -> E. destruct (IH b) as [-> ->]; auto; intros c I; [apply CA|apply CB]; now right.
Qed.
Lemma flat_start s : concat (flat s) = [] \/ exists c x, concat (flat s) = c :: x /\ (c = 43%N \/ c = 126%N).
Proof. destruct s as [|[[|] a] s]; [now left| |]; right; cbn; eauto. Qed.
Lemma flat_inj s : forall s', clean_signs s -> clean_signs s' -> concat (flat s) = concat (flat s') -> s = s'.
Proof.
  induction s as [|[b a] s IH]; intros [|[b' a'] s'] C C' E; cbn in E; [auto|discriminate|discriminate|].
  injection E as E1 E2. assert (b = b') by (destruct b, b'; congruence || discriminate). subst b'.
  destruct (clean_split a a' (concat (flat s)) (concat (flat s'))) as [-> E3]; auto using flat_start; [apply (C (b, a)); now left|apply (C' (b, a')); now left|].
  f_equal. apply IH; auto; intros x I; [apply C|apply C']; now right.
Qed.
Lemma name_inj a b s s' : clean a -> clean b -> clean_signs s -> clean_signs s' -> name_of a s = name_of b s' -> a = b /\ s = s'.
Proof. intros CA CB CS CS' E. unfold name_of in E. destruct (clean_split _ _ _ _ CA CB (flat_start s) (flat_start s') E) as [-> E2]. split; [auto|]. now apply flat_inj. Qed.
Lemma name_no_q a s x : clean a -> clean_signs s -> name_of a s <> x ++ [63%N].
Proof.
  intros CA CS E. assert (I : In 63%N (name_of a s)) by (rewrite E; apply in_or_app; right; now left). unfold name_of in I. apply in_app_or in I as [I|I]; [apply CA in I; tauto|].
  apply in_concat in I as (w & I & J). apply in_map_iff in I as ([b p] & <- & I). cbn in J. destruct J as [J|J]; [destruct b; discriminate|]. apply (CS _ I) in J. tauto.
Qed.
Lemma app_last_inj {A} (a b : list A) x : a ++ [x] = b ++ [x] -> a = b.
Proof. intros E. now apply app_inj_tail in E. Qed.

(* ---- arguments ---- *)
Lemma passes_det σ args : NoDup (map snd σ) -> forall s1 s2, passes σ args s1 -> passes σ args s2 -> s1 = s2.
Proof.
  intros ND. assert (U : forall b b' a, In (b, a) σ -> In (b', a) σ -> b = b').
  { intros b b' a I1 I2. destruct b, b'; auto; exfalso; clear -ND I1 I2; induction σ as [|[c d] σ IH]; cbn in *; [auto|inversion ND; subst|auto|inversion ND; subst];
      (destruct I1 as [E1|I1], I2 as [E2|I2]; [congruence| | |auto]); (injection E1 as -> -> || injection E2 as -> ->);
      match goal with N : ~ In _ _ |- _ => apply N; apply in_map_iff; eexists; split; [|eassumption]; reflexivity end. }
  unfold passes. induction args as [|[p a] args IH]; intros s1 s2 F1 F2; inversion F1; inversion F2; subst; [auto|]. destruct y as [b1 n1], y0 as [b2 n2]. cbn in *. destruct H1 as [-> H1], H6 as [-> H6]. f_equal; [|auto].
  f_equal. destruct p; [eapply U; eauto|congruence|congruence|contradiction].
Qed.
Lemma passes_clean σ args s : passes σ args s -> (forall a, In a args -> clean (snd a)) -> clean_signs s.
Proof. intros F C b I. unfold passes in F. induction F as [|pa x args s [E _] F IH]; [destruct I|]. destruct I as [<-|I]; [rewrite E; apply C; now left|]. apply IH; auto. intros a IA. apply C. now right. Qed.
Lemma find_flat σ a : (forall x, find (fun s => text_eqb (tl s) a) (flat σ) = Some x -> exists b, x = flat1 (b, a) /\ In (b, a) σ) /\
  (forall b, In (b, a) σ -> exists x, find (fun s => text_eqb (tl s) a) (flat σ) = Some x).
Proof.
  split.
  - intros x H. apply find_some in H as [I E]. apply in_map_iff in I as ([b p] & <- & I). cbn in E. apply text_eqb_eq in E. subst p. eauto.
  - intros b I. destruct (find _ _) eqn:F; [eauto|]. exfalso. apply (find_none _ _ F (flat1 (b, a))) in I as Q || idtac. assert (IM : In (flat1 (b, a)) (flat σ)) by (apply in_map_iff; exists (b, a); auto). apply (find_none _ _ F) in IM. cbn in IM. assert (text_eqb a a = true) by now apply text_eqb_eq. congruence.
Qed.
Lemma expand_spec σ : NoDup (map snd σ) -> forall args res e, expand_with res args (flat σ) = Ok e <-> exists s', passes σ args s' /\ e = res ++ concat (flat s').
Proof.
  intros ND. induction args as [|[p a] args IH]; intros res e; cbn [expand_with].
  - split; [intros H; injection H as <-; exists []; split; [constructor|now rewrite app_nil_r]|]. intros (s' & F & ->). inversion F; subst. cbn. now rewrite app_nil_r.
  - assert (STEP : forall b, (match p with AQuestion => In (b, a) σ | APlus => b = true | ATilde => b = false | AOther => False end) ->
      (expand_with (res ++ flat1 (b, a)) args (flat σ) = Ok e <-> exists s', passes σ ((p, a) :: args) s' /\ e = res ++ concat (flat s'))).
    { intros b H. rewrite IH. split.
      - intros (s' & F & ->). exists ((b, a) :: s'). split; [constructor; auto|]. cbn [map concat]. now rewrite app_assoc.
      - intros (s' & F & ->). inversion F as [|? y ? s2 [E1 E2] F2]; subst. destruct y as [b' n]. cbn in E1, E2. subst n. exists s2. split; [auto|]. cbn [map concat]. rewrite <- app_assoc. do 3 f_equal.
        assert (Q : [(b', a)] = [(b, a)]); [|injection Q as ->; auto]. apply (passes_det σ [(p, a)] ND); constructor; try constructor; auto. }
    destruct p; cbn [bind].
    + destruct (find_flat σ a) as [F1 F2]. destruct (find _ _) as [x|] eqn:F; cbn [bind].
      * destruct (F1 x eq_refl) as (b & -> & I). now apply STEP.
      * split; [discriminate|]. intros (s' & P & _). inversion P as [|? y ? s2 [E1 E2] P2]; subst. destruct y as [b n]. cbn in E1, E2. subst n. destruct (F2 b E2). discriminate.
    + exact (STEP true eq_refl).
    + exact (STEP false eq_refl).
    + split; [discriminate|]. intros (s' & P & _). inversion P as [|? y ? s2 [E1 E2] P2]; subst. destruct E2.
Qed.
Lemma setting_spec params ss : each_setting params = Ok ss -> forall x, In x ss <-> exists σ, map snd σ = params /\ x = flat σ.
Proof.
  unfold each_setting. destruct (each_boolean_vector_of_length (length params)) as [vs|] eqn:V; cbn [bind]; [|discriminate]. intros H x. injection H as <-. destruct (vec_exact _ _ V) as [_ VE]. rewrite in_map_iff. split.
  - intros (v & <- & I). apply VE in I. exists (combine v params). split; [|reflexivity]. clear -I. revert params I. induction v as [|b v IH]; intros [|p ps] I; cbn in *; try discriminate; auto. f_equal. apply IH. lia.
  - intros (σ & <- & ->). exists (map fst σ). split; [|apply VE; now rewrite !map_length]. f_equal. clear. induction σ as [|[b p] σ IH]; cbn; congruence.
Qed.
Lemma guard_spec r σ : (forall gs g, guard r = Some gs -> In g gs -> clean (snd g)) -> guard_ok r (flat σ) = true <-> guard_holds r σ.
Proof.
  intros C. unfold guard_ok, guard_holds. destruct (guard r) as [gs|]; [|tauto]. rewrite forallb_forall. split; intros H g I; specialize (H g I).
  - apply existsb_exists in H as (x & IX & E). apply text_eqb_eq in E. apply in_map_iff in IX as ([b a] & <- & IX). specialize (C gs g eq_refl I). destruct g as [[| | |] p]; cbn in *.
    + destruct b; discriminate.
    + destruct b; [injection E as ->; auto|discriminate].
    + destruct b; [discriminate|injection E as ->; auto].
    + destruct (C (if b then 43%N else 126%N)) as (C1 & C2 & _); [rewrite E; now left|]. destruct b; congruence.
  - apply existsb_exists. destruct g as [[| | |] p]; cbn in *; [destruct H| | |destruct H].
    + exists (43%N :: p). split; [apply in_map_iff; exists (true, p); auto|now apply text_eqb_eq].
    + exists (126%N :: p). split; [apply in_map_iff; exists (false, p); auto|now apply text_eqb_eq].
Qed.

(* ---- runs ---- *)
Section Runs.
  Variable tok : nat -> xthing -> Prop.
  Variable chk : option nat -> nat -> xthing -> Prop.
  Notation xrun := (xrun tok chk).
  Notation xder := (xder tok chk).
  Lemma xrun_app R a : forall b pv i pv' k, xrun R pv i (a ++ b) pv' k <-> exists pm j, xrun R pv i a pm j /\ xrun R pm j b pv' k.
  Proof.
    induction a as [|x a IH]; intros b pv i pv' k; cbn [app].
    - split; [intros H; exists pv, i; split; [constructor|auto]|]. intros (pm & j & H1 & H2). inversion H1; subst. auto.
    - split.
      + intros H. inversion H as [|? ? n0 j0 ? ? ? D0 X0|? ? ? ? ? ? T0 K0 X0|? ? ? ? ? ? T0 K0 X0]; subst; apply IH in X0 as (pm & j' & H1 & H2); exists pm, j'; (split; [|auto]); [eapply xr_nt|eapply xr_tm|eapply xr_cn]; eauto.
      + intros (pm & j & H1 & H2). inversion H1; subst; [eapply xr_nt|eapply xr_tm|eapply xr_cn]; eauto; apply IH; eauto.
  Qed.
  Lemma xrun_mono (R R' : text -> nat -> nat -> Prop) : (forall n i j, R n i j -> R' n i j) -> forall pv i xs pv' k, xrun R pv i xs pv' k -> xrun R' pv i xs pv' k.
  Proof. intros M pv i xs pv' k H. induction H; [constructor|eapply xr_nt|eapply xr_tm|eapply xr_cn]; eauto. Qed.
  Lemma xder_ind' ps (P : text -> nat -> nat -> Prop) :
    (forall p i pv j, In p ps -> xrun (fun n i j => xder ps n i j /\ P n i j) None i (ex_rhs p) pv j -> P (ex_lhs p) i j) -> forall n i j, xder ps n i j -> P n i j.
  Proof.
    intros H. fix IH 4. intros n i j D. destruct D as [p i pv j IP X]. apply (H p i pv j IP).
    revert X. generalize (None (A := nat)) as q. generalize (ex_rhs p) as xs. intros xs q X. induction X as [q i|q i n j r pv k D X IX|q i t r pv k T K X IX|q i c r pv k C K X IX].
    - constructor.
    - eapply xr_nt; [split; [exact D|exact (IH _ _ _ D)]|exact IX].
    - apply xr_tm; auto.
    - apply xr_cn; auto.
  Qed.
End Runs.
Section PRuns.
  Variable lexical : bool.
  Variable prodns : list prodn.
  Variable tok : nat -> xthing -> Prop.
  Variable chk : option nat -> nat -> xthing -> Prop.
  Notation psym := (psym lexical prodns tok).
  Notation pitem := (pitem lexical prodns tok chk).
  Notation prun := (prun lexical prodns tok chk).
  Notation pder := (pder lexical prodns tok chk).
  Lemma pder_ind' (P : text -> list (bool * text) -> nat -> nat -> Prop) :
    (forall p s r i pv j, In p prodns -> map snd s = p_params p -> In r (p_rhss p) -> guard_holds r s -> prun (fun n s i j => pder n s i j /\ P n s i j) s None i (items r) pv j -> P (p_lhs p) s i j) ->
    forall n s i j, pder n s i j -> P n s i j.
  Proof.
    intros H. fix IH 5. intros n s i j D. destruct D as [p s r i pv j IP ES IR G X]. apply (H p s r i pv j IP ES IR G).
    assert (Y : forall x i q j, psym pder s x i q j -> psym (fun n s i j => pder n s i j /\ P n s i j) s x i q j).
    { clear - IH. intros x i q j D. destruct D as [n args s' i j D1 PA D|n args s' i D1 PA T|c i L T|c i L1 L2 T|n i T]; [eapply ps_nt; eauto|eapply ps_named; eauto|apply ps_lit; auto|apply ps_chars; auto|apply ps_char; auto]. }
    revert X. generalize (None (A := nat)) as q. generalize (items r) as xs. intros xs q X. induction X as [q i|q i it q' j r' q'' k D X IX]; [constructor|]. econstructor; [|exact IX].
    destruct D as [q i|q i|q i x q' j D|q i x|q i x q' j D|q i p0 T|q i lo hi T|q i T|q i it c M C]; [constructor|constructor|apply pi_sym; auto|apply pi_absent|eapply pi_present; eauto|apply pi_prop; auto|apply pi_range; auto|apply pi_any; auto|eapply pi_con; eauto].
  Qed.
End PRuns.
