(* C64: references to the symbols of a production.  C65: asking for parts of a node. *)
From Coq Require Import Ascii String.
From Verif Require Import M_Base M_Dict M_HTML M_PNode M_Focus L_Base L_Dict L_PNode L_Focus.
Open Scope list_scope.

(* ---- C64 ---- *)

Definition spec_rhs_puks : list puk :=
  map (fun p : string * string => (tx (fst p), tx (fst p ++ snd p), [])) list_like
  ++ map (fun x => (tx (x ++ "Characters"), tx (x ++ "Character " ++ x ++ "Characters?"), [1])) string_like.
Lemma subset_dec (a b : list puk) : forallb (fun k => existsb (puk_eqb k) b) a = true -> forall k, In k a -> In k b.
Proof. rewrite forallb_forall. intros H k I. specialize (H k I). apply existsb_exists in H as (k' & I' & E). apply puk_eqb_eq in E as ->. assumption. Qed.
Lemma rhs_puks_spec k : In k rhs_puks <-> In k spec_rhs_puks.
Proof. split; apply subset_dec; vm_compute; reflexivity. Qed.
Lemma production_uses n k : production n k -> forall k', production n k' <-> k' = k.
Proof. intros P k'. split; [intros P'; exact (production_fun n _ _ P' P)|intros ->; assumption]. Qed.
Lemma means_rhs_iff n k : production n k -> (existsb (puk_eqb k) rhs_puks = true <-> means_rhs n).
Proof.
  intros P. rewrite existsb_exists. assert (X : (exists x, In x rhs_puks /\ puk_eqb k x = true) <-> In k rhs_puks) by (split; [intros (x & I & E); apply puk_eqb_eq in E as ->; assumption|intros I; exists k; split; [assumption|now apply puk_eqb_eq]]).
  rewrite X, rhs_puks_spec. unfold spec_rhs_puks, means_rhs. rewrite in_app_iff, !in_map_iff. split.
  - intros [([x y] & <- & I)|(x & <- & I)]; [left; exists x, y; split; assumption|right; exists x; split; assumption].
  - intros [(x & y & I & P')|(x & I & P')]; apply (production_uses n k P) in P'; subst k; [left; exists (x, y)|right; exists x]; split; auto.
Qed.
Lemma means_lhs_iff n k : production n k -> (existsb (puk_eqb k) lhs_puks = true <-> means_lhs n).
Proof.
  intros P. unfold lhs_puks, means_lhs. cbn [existsb]. rewrite !orb_true_iff, !puk_eqb_eq, !(production_uses n k P). intuition congruence.
Qed.
Lemma means_disjoint n : is_terminal n = false -> means_lhs n -> ~ means_rhs n.
Proof.
  intros T L R. destruct (production_exists n T) as (k & P). apply (means_lhs_iff n k P) in L. apply (means_rhs_iff n k P) in R.
  assert (D : forallb (fun a => negb (existsb (puk_eqb a) rhs_puks)) lhs_puks = true) by (vm_compute; reflexivity). rewrite forallb_forall in D.
  apply existsb_exists in L as (k' & I & E). apply puk_eqb_eq in E as <-. specialize (D k I). rewrite R in D. discriminate.
Qed.

Section Resolve.
  Variables (nt : text -> Prop) (n : pnode) (m : focus_map) (name : text).
  Hypotheses (O : names_ok nt) (R : regular nt n) (N : nt name) (M : make_focus_map n = Ok m).

  Lemma check_ref rs r : occurrences name (kids n) rs -> In r rs ->
    match r with Node d => do _ <- assert_ (match sym d with Some s => text_eqb s name | None => false end) ;; Ok r | Absent => Ok Absent end = Ok r.
  Proof.
    intros A I. destruct R as [_ F]. pose proof (occ_sym nt name _ O N F rs A) as S. rewrite Forall_forall in S. specialize (S r I). destruct r as [d|]; [|reflexivity]. rewrite S.
    replace (text_eqb name name) with true by (symmetry; now apply text_eqb_eq). reflexivity.
  Qed.
  Lemma resolve_self rs o : sym n = Some name -> occurrences name (kids n) rs -> forall r, resolve n m o name = Ok r <->
    (rs = [] /\ o = NoOrdinal /\ r = Node n) \/ (rs = [r] /\ o = Derived) \/ (exists r1, rs = [r1] /\ o = NoOrdinal /\ ((means_lhs n /\ r = Node n) \/ (means_rhs n /\ r = r1))).
  Proof.
    intros E A r. unfold resolve. rewrite (make_get nt n m name rs O R N M A), E. destruct (list_eq_dec N.eq_dec name name) as [_|D]; [|congruence].
    assert (T : text_eqb name name = true) by now apply text_eqb_eq. rewrite T.
    assert (Tn : is_terminal n = false) by (unfold is_terminal; now rewrite E). destruct (production_exists n Tn) as (k & P). pose proof P as P0. apply puk_of_ok in P0. rewrite P0.
    pose proof (check_ref rs) as CR. destruct rs as [|r1 [|r2 rs]].
    - cbn. destruct o; cbn; [rewrite E, T; cbn|..].
      + split; [intros X; inversion X; auto|intros [(_ & _ & ->)|[(X & _)|(r1 & X & _)]]; [reflexivity|discriminate|discriminate]].
      + split; [discriminate|intros [(_ & X & _)|[(X & _)|(r1 & X & _)]]; discriminate].
      + split; [discriminate|intros [(_ & X & _)|[(X & _)|(r1 & X & _)]]; discriminate].
    - specialize (CR r1 A (or_introl eq_refl)). cbn [length Nat.eqb assert_ bind nth_ref nth_error]. destruct o; cbn [bind].
      + pose proof (means_lhs_iff n k P) as ML. pose proof (means_rhs_iff n k P) as MR. destruct (existsb (puk_eqb k) lhs_puks).
        * cbn [nth_ref nth_error bind]. rewrite E, T. cbn. assert (L : means_lhs n) by tauto. pose proof (means_disjoint n Tn L) as ND. split; [intros X; inversion X; right; right; exists r1; repeat split; auto|].
          intros [(X & _)|[(_ & X)|(r1' & X & _ & [[_ ->]|[X' _]])]]; [discriminate|discriminate|reflexivity|contradiction].
        * assert (NL : ~ means_lhs n) by (intros X; apply ML in X; discriminate). destruct (existsb (puk_eqb k) rhs_puks).
          -- cbn [nth_ref nth_error bind]. rewrite CR. assert (L : means_rhs n) by tauto. split; [intros X; inversion X; right; right; exists r; repeat split; auto|].
             intros [(X & _)|[(_ & X)|(r1' & X & _ & [[X' _]|[_ ->]])]]; [discriminate|discriminate|contradiction|congruence].
          -- cbn [bind]. assert (NR : ~ means_rhs n) by (intros X; apply MR in X; discriminate). split; [discriminate|]. intros [(X & _)|[(_ & X)|(r1' & X & _ & [[X' _]|[X' _]])]]; try discriminate; contradiction.
      + cbn [nth_ref nth_error bind]. rewrite CR. split; [intros X; inversion X; right; left; auto|]. intros [(X & _)|[(X & _)|(r1' & _ & X & _)]]; [discriminate|congruence|discriminate].
      + split; [discriminate|]. intros [(X & _)|[(_ & X)|(r1' & _ & X & _)]]; discriminate.
    - cbn [length Nat.eqb]. destruct o; cbn [assert_ bind]; (split; [discriminate|]); intros [(X & _)|[(X & _)|(r1' & X & _)]]; discriminate.
  Qed.
  Lemma resolve_other rs o : sym n <> Some name -> occurrences name (kids n) rs -> forall r, resolve n m o name = Ok r <->
    (rs = [] /\ r = Absent) \/ (rs = [r] /\ o = NoOrdinal) \/ (2 <= length rs /\ exists k, o = Nth (S k) /\ nth_error rs k = Some r).
  Proof.
    intros E A r. unfold resolve. rewrite (make_get nt n m name rs O R N M A). destruct R as [(s & Es & Ns) F]. rewrite Es in *.
    destruct (list_eq_dec N.eq_dec name s) as [D|D]; [congruence|]. assert (T : text_eqb name s = false) by (destruct (text_eqb name s) eqn:X; [apply text_eqb_eq in X; congruence|reflexivity]).
    pose proof (check_ref rs) as CR. destruct rs as [|r1 [|r2 rs]].
    - split; [intros X; inversion X; auto|]. intros [(_ & ->)|[(X & _)|(X & _)]]; [reflexivity|discriminate|cbn in X; lia].
    - specialize (CR r1 A (or_introl eq_refl)). cbn [length Nat.eqb]. destruct o; cbn [assert_ bind nth_ref nth_error].
      + rewrite CR. split; [intros X; inversion X; auto|]. intros [(X & _)|[(X & _)|(X & _)]]; [discriminate|congruence|cbn in X; lia].
      + split; [discriminate|]. intros [(X & _)|[(_ & X)|(X & _)]]; [discriminate|discriminate|cbn in X; lia].
      + split; [discriminate|]. intros [(X & _)|[(_ & X)|(X & _)]]; [discriminate|discriminate|cbn in X; lia].
    - set (l := r1 :: r2 :: rs) in *. replace (length l =? 0) with false by reflexivity. replace (length l =? 1) with false by reflexivity. rewrite T. destruct o; cbn [assert_ bind].
      + split; [discriminate|]. intros [(X & _)|[(X & _)|(_ & k & X & _)]]; discriminate.
      + split; [discriminate|]. intros [(X & _)|[(X & _)|(_ & k & X & _)]]; discriminate.
      + destruct ((1 <=? k) && (k <=? length l)) eqn:B; cbn [assert_ bind].
        * apply andb_true_iff in B as [B1 B2]. apply Nat.leb_le in B1, B2. destruct k as [|k]; [lia|]. cbn [Nat.sub]. rewrite Nat.sub_0_r. unfold nth_ref. destruct (nth_error l k) as [r'|] eqn:X; [|apply nth_error_None in X; lia].
          cbn [bind]. rewrite (CR r' A (nth_error_In _ _ X)). split.
          -- intros Y. inversion Y; subst. right. right. split; [cbn; lia|eauto].
          -- intros [(Y & _)|[(Y & _)|(_ & k' & Y & Z)]]; [discriminate|discriminate|]. inversion Y; subst. congruence.
        * split; [discriminate|]. intros [(Y & _)|[(Y & _)|(_ & k' & Y & Z)]]; [discriminate|discriminate|]. inversion Y; subst. assert (k' < length l) by (apply nth_error_Some; congruence). apply andb_false_iff in B as [B|B]; apply Nat.leb_gt in B; lia.
  Qed.
End Resolve.

(* At run time, a reference gives a node, or the absence of one, exactly if it has a meaning, and then what is meant. In particular: it is ambiguous,
   and execution stops, if the symbol occurs several times and no ordinal says which is meant. *)
Theorem C64_resolve (nt : text -> Prop) n m o name r : names_ok nt -> regular nt n -> nt name -> make_focus_map n = Ok m -> (resolve n m o name = Ok r <-> refers n name o r).
Proof.
  intros H Rg N M. destruct (list_eq_dec N.eq_dec name (match sym n with Some s => s | None => [] end)) as [D|D].
  - assert (E : sym n = Some name) by (destruct Rg as [(s & E & _) _]; rewrite E in *; congruence). clear D.
    pose proof (under_occurrences nt name _ H N (proj2 Rg)) as A. rewrite (resolve_self nt n m name H Rg N M _ o E A r). set (rs := under (Some name) (kids n)) in *. split.
    + intros [(X & -> & ->)|[(X & ->)|(r1 & X & -> & [[L ->]|[L ->]])]]; rewrite X in A; [now apply ref_lhs|now apply ref_derived|now apply (ref_guess_lhs n name r1)|now apply ref_guess_rhs].
    + intros X. inversion X as [o' E' A'|E' A'|r' E' A'|rs' k r' E' A' L' X'|r' E' A'|r' E' A' L'|r' E' A' L']; subst; try congruence; rewrite (occurrences_fun nt name _ _ H N A _ A'); [left; auto|right; left; auto|right; right; eauto 8|right; right; eauto 8].
  - assert (E : sym n <> Some name) by (intros X; rewrite X in D; contradiction).
    pose proof (under_occurrences nt name _ H N (proj2 Rg)) as A. rewrite (resolve_other nt n m name H Rg N M _ o E A r). set (rs := under (Some name) (kids n)) in *. split.
    + intros [(X & ->)|[(X & ->)|(L & k & -> & X)]]; [rewrite X in A; now apply ref_nowhere|rewrite X in A; now apply ref_only|eapply ref_nth; eassumption].
    + intros X. inversion X as [o' E' A'|E' A'|r' E' A'|rs' k r' E' A' L' X'|r' E' A'|r' E' A' L'|r' E' A' L']; subst; try congruence; rewrite (occurrences_fun nt name _ _ H N A _ A'); [left; auto|right; left; auto|right; right; eauto].
Qed.
Print Assumptions C64_resolve.
(* The map can be made for every node as the parser makes it. *)
Theorem C64_map (nt : text -> Prop) n : names_ok nt -> regular nt n -> exists m, make_focus_map n = Ok m.
Proof. apply make_ok. Qed.
Print Assumptions C64_map.

(* The static check of a reference goes through exactly if its form is right for all productions; it then reports exactly the productions in which a
   reference without ordinal could mean several things; and the type it gives includes absence exactly if some production leaves that possible. *)
Theorem C64_check p name ps :
  ((exists x, s_resolve p name ps = Ok x) <-> forall lhs rhss rhs, In (lhs, rhss) ps -> In rhs rhss -> proper p name lhs rhs) /\
  (forall b es, s_resolve p name ps = Ok (b, es) ->
    (b = true <-> exists lhs rhss rhs, In (lhs, rhss) ps /\ In rhs rhss /\ may_be_absent p name lhs rhs) /\
    forall loc t, In (loc, t) es <-> p = Plain /\ exists i j lhs rhss rhs, nth_error ps i = Some (lhs, rhss) /\ nth_error rhss j = Some rhs /\
      t = meanings name lhs rhs /\ 2 <= t /\ loc = (if length (flat_map snd ps) =? 1 then None else Some (S i, S j))).
Proof.
  unfold s_resolve. set (single := length (flat_map snd ps) =? 1). destruct (check_prods_spec p name single ps 1) as [I1 I2].
  assert (FA : Forall (fun q => Forall (proper p name (fst q)) (snd q)) ps <-> forall lhs rhss rhs, In (lhs, rhss) ps -> In rhs rhss -> proper p name lhs rhs).
  { rewrite Forall_forall. split.
    - intros H lhs rhss rhs J1 J2. specialize (H _ J1). rewrite Forall_forall in H. exact (H _ J2).
    - intros H [lhs rhss] J1. rewrite Forall_forall. intros rhs J2. exact (H _ _ _ J1 J2). }
  split; [split; [intros (x & E); apply FA; eauto|intros H; apply FA in H; apply I2 in H as (b & es & E & _); eauto]|].
  intros b es E. destruct (I2 (I1 _ E)) as (b' & es' & E' & B & Ie). rewrite E in E'. inversion E'; subst b' es'. split.
  - rewrite B, Exists_exists. split.
    + intros ([lhs rhss] & J & X). apply Exists_exists in X as (rhs & J' & X). eauto 8.
    + intros (lhs & rhss & rhs & J & J' & X). exists (lhs, rhss). split; [assumption|]. apply Exists_exists. eauto.
  - intros loc t. rewrite Ie. split.
    + intros (i & j & lhs & rhss & rhs & Ei & Ej & X). unfold error_for in X. destruct p; try contradiction. split; [reflexivity|]. exists i, j, lhs, rhss, rhs. destruct (2 <=? meanings name lhs rhs) eqn:L; [|contradiction]. apply Nat.leb_le in L. destruct X as [X|[]]. inversion X; subst. auto.
    + intros (-> & i & j & lhs & rhss & rhs & Ei & Ej & Et & L & El). exists i, j, lhs, rhss, rhs. split; [assumption|]. split; [assumption|]. unfold error_for. subst t. apply Nat.leb_le in L. rewrite L. left. rewrite El. reflexivity.
Qed.
Print Assumptions C64_check.

(* If the static check of a reference finds nothing, then at every node that fits one of the productions it gives the occurrence it is for, which is
   an instance of the nonterminal, or is absent only if the type given by the check says so; provided that the production as written does not leave
   out an optional symbol of that name, and that ordinals are used only where the nonterminal occurs several times. *)
Theorem C64_sound (nt : text -> Prop) p name ps may lhs rhss rhs n m e : names_ok nt -> nt name ->
  s_resolve p name ps = Ok (may, []) -> In (lhs, rhss) ps -> In rhs rhss -> instance nt n lhs rhs e -> make_focus_map n = Ok m ->
  ~ In name e -> (forall k, p = TheNth k -> 2 <= mentions name rhs) ->
  exists r, exec_ref n m p name = Ok r /\ designates p n name r /\ match r with Node d => sym d = Some name | Absent => may = true end.
Proof.
  intros O N Sr Ip Ir Ins M NI K. pose proof (instance_regular _ _ _ _ _ Ins) as Rg. destruct Ins as (Nl & En & F).
  destruct (fits_occ nt name rhs (kids n) e O N F NI) as (rs & A & L & P). pose proof (occ_sym nt name _ O N (proj2 Rg) rs A) as OS. rewrite Forall_forall in OS.
  destruct (C64_check p name ps) as [C1 C2]. assert (PR : proper p name lhs rhs) by (apply (proj1 C1 (ex_intro _ _ Sr) lhs rhss rhs Ip Ir)). destruct (C2 _ _ Sr) as [B Er].
  assert (MB : may_be_absent p name lhs rhs -> may = true) by (intros X; apply B; eauto 8).
  assert (NE : p = Plain -> meanings name lhs rhs <= 1).
  { intros ->. destruct (le_lt_dec (meanings name lhs rhs) 1) as [X|X]; [assumption|exfalso]. apply In_nth_error in Ip as (i & Ei). apply In_nth_error in Ir as (j & Ej).
    destruct (Er (if length (flat_map snd ps) =? 1 then None else Some (S i, S j)) (meanings name lhs rhs)) as [_ Z]. apply Z. split; [reflexivity|]. exists i, j, lhs, rhss, rhs. repeat split; auto. }
  destruct p as [| | |k]; cbn [exec_ref proper designates] in *.
  - rewrite En. subst lhs. replace (text_eqb name name) with true by (symmetry; now apply text_eqb_eq). exists (Node n). cbn. auto.
  - specialize (NE eq_refl). unfold meanings in NE. destruct (list_eq_dec N.eq_dec lhs name) as [->|D].
    + destruct rs as [|r rs]; [|cbn in L; lia]. exists (Node n). split; [|split; [left; auto|assumption]]. apply (resolve_self nt n m name O Rg N M [] NoOrdinal En A). auto.
    + assert (En' : sym n <> Some name) by (rewrite En; congruence). destruct rs as [|r [|r2 rs]]; [| |cbn in L; lia].
      * exists Absent. split; [apply (resolve_other nt n m name O Rg N M [] NoOrdinal En' A); auto|]. split; [right; split; auto|]. apply MB. left. split; [assumption|now symmetry].
      * exists r. split; [apply (resolve_other nt n m name O Rg N M [r] NoOrdinal En' A); auto|]. split; [right; split; auto|]. destruct r as [d|]; [exact (OS (Node d) (or_introl eq_refl))|]. apply MB. right. exists 1. now apply P.
  - destruct PR as [-> PR]. rewrite PR in L. destruct rs as [|r [|r2 rs]]; [discriminate| |discriminate]. exists r. split; [apply (resolve_self nt n m name O Rg N M [r] Derived En A); auto|]. split; [auto|]. destruct r as [d|]; [exact (OS (Node d) (or_introl eq_refl))|]. apply MB. exists 1. now apply P.
  - destruct PR as [D PR]. assert (En' : sym n <> Some name) by (rewrite En; congruence). specialize (K k eq_refl). destruct k as [|k]; [lia|]. destruct (nth_error rs k) as [r|] eqn:E; [|apply nth_error_None in E; lia]. exists r.
    split; [apply (resolve_other nt n m name O Rg N M rs (Nth (S k)) En' A); right; right; split; [lia|eauto]|]. split; [split; [assumption|]; exists rs; split; [assumption|]; split; [lia|]; cbn; now rewrite Nat.sub_0_r|].
    destruct r as [d|]; [exact (OS (Node d) (nth_error_In _ _ E))|]. apply MB. now apply P.
Qed.
Print Assumptions C64_sound.

(* the words of letters are the names of nonterminals *)
Definition letters (x : text) : Prop := x <> [] /\ Forall (fun c => (65 <= c <= 122)%N) x.
Lemma letters_ok : names_ok letters.
Proof. intros x [_ F] y ->. apply Forall_app in F as [_ F]. inversion F as [|? ? X]; subst. lia. Qed.
Ltac is_word := split; [discriminate|repeat constructor; cbn; lia].
(* ForStatement : `for` `(` Expression? `;` Expression? `;` Expression? `)` Statement, with the second expression only *)
Definition kw (i : nat) : pnode := PN i None [] [] 0 0 [].
Definition an_expr (i : nat) : pnode := PN i (Some (tx "Expression")) (tx "E") [] 0 0 [].
Definition opt_expr (i : nat) (ch : list pnode) : pnode := PN i (Some (tx "Expression?")) [] [] 0 0 ch.
Definition a_stmt (i : nat) : pnode := PN i (Some (tx "Statement")) (tx "S") [] 0 0 [].
Definition a_for : pnode := PN 1 (Some (tx "ForStatement")) (tx "`for` `(` Expression? `;` Expression? `;` Expression? `)` Statement") [0; 1; 0] 0 0
  [kw 2; opt_expr 3 []; kw 4; opt_expr 5 [an_expr 6]; kw 7; opt_expr 8 []; kw 9; a_stmt 10].
Definition for_rhs : list ritem := [Other; Other; QM (tx "Expression"); Other; QM (tx "Expression"); Other; QM (tx "Expression"); Other; GNT (tx "Statement")].
Lemma for_fits : instance letters a_for (tx "ForStatement") for_rhs [].
Proof.
  split; [is_word|]. split; [reflexivity|]. unfold for_rhs. apply fit_nothing, fit_nothing, fit_terminal; [reflexivity|]. apply fit_optional_absent; [is_word|reflexivity|reflexivity|]. apply fit_nothing, fit_terminal; [reflexivity|].
  eapply fit_optional_present; [is_word|reflexivity|reflexivity|reflexivity|]. apply fit_nothing, fit_terminal; [reflexivity|]. apply fit_optional_absent; [is_word|reflexivity|reflexivity|]. apply fit_nothing, fit_terminal; [reflexivity|].
  apply fit_nonterminal; [is_word|reflexivity|]. constructor.
Qed.
Example C64_sound_ex : exists m, make_focus_map a_for = Ok m /\ regular letters a_for /\
  s_resolve (TheNth 2) (tx "Expression") [(tx "ForStatement", [for_rhs])] = Ok (true, []) /\ exec_ref a_for m (TheNth 2) (tx "Expression") = Ok (Node (an_expr 6)) /\
  exec_ref a_for m (TheNth 3) (tx "Expression") = Ok Absent /\ mentions (tx "Expression") for_rhs = 3 /\
  s_resolve Plain (tx "Statement") [(tx "ForStatement", [for_rhs])] = Ok (false, []) /\ exec_ref a_for m Plain (tx "Statement") = Ok (Node (a_stmt 10)) /\
  s_resolve Plain (tx "Expression") [(tx "ForStatement", [for_rhs])] = Ok (true, [(None, 3)]) /\ exec_ref a_for m Plain (tx "Expression") = Err AssertionError.
Proof. eexists. split; [vm_compute; reflexivity|]. split; [exact (instance_regular _ _ _ _ _ for_fits)|]. repeat split; vm_compute; reflexivity. Qed.
(* the example meets the hypotheses of C64_sound *)
Example C64_sound_hyp : exists m r, make_focus_map a_for = Ok m /\ exec_ref a_for m (TheNth 2) (tx "Expression") = Ok r /\ designates (TheNth 2) a_for (tx "Expression") r.
Proof.
  destruct (C64_map letters a_for letters_ok (instance_regular _ _ _ _ _ for_fits)) as (m & M). exists m.
  destruct (C64_sound letters (TheNth 2) (tx "Expression") [(tx "ForStatement", [for_rhs])] true (tx "ForStatement") [for_rhs] for_rhs a_for m []) as (r & E & D & _); eauto using letters_ok, for_fits.
  - is_word.
  - now left.
  - now left.
  - intros k _. vm_compute. lia.
Qed.
(* references in left-recursive productions: "X" is guessed, "the derived X" is right *)
Example C64_guess_ex : let inner := PN 2 (Some (tx "StatementList")) (tx "StatementListItem") [] 0 0 [] in
  let n := PN 1 (Some (tx "StatementList")) (tx "StatementList StatementListItem") [] 0 0 [inner; PN 3 (Some (tx "StatementListItem")) [] [] 0 0 []] in
  let m := [(Some (tx "StatementList"), [Node n; Node inner]); (Some (tx "StatementListItem"), [Node (PN 3 (Some (tx "StatementListItem")) [] [] 0 0 [])])] in
  make_focus_map n = Ok m /\ resolve n m NoOrdinal (tx "StatementList") = Ok (Node inner) /\ resolve n m Derived (tx "StatementList") = Ok (Node inner) /\
  resolve n m (Nth 1) (tx "StatementList") = Err AssertionError /\ means_rhs n /\ refers n (tx "StatementList") NoOrdinal (Node inner).
Proof.
  cbv zeta. split; [vm_compute; reflexivity|]. split; [vm_compute; reflexivity|]. split; [vm_compute; reflexivity|]. split; [vm_compute; reflexivity|].
  assert (MR : means_rhs (PN 1 (Some (tx "StatementList")) (tx "StatementList StatementListItem") [] 0 0 [PN 2 (Some (tx "StatementList")) (tx "StatementListItem") [] 0 0 []; PN 3 (Some (tx "StatementListItem")) [] [] 0 0 []])).
  { left. exists "StatementList"%string, " StatementListItem"%string. split; [cbn; auto 10|]. cbn [production]. eexists. split; reflexivity. }
  split; [exact MR|]. apply ref_guess_rhs; [reflexivity| |exact MR]. cbn [kids]. apply occ_this; [now constructor|]. apply occ_other; [|constructor]. intros r X. inversion X; discriminate.
Qed.

(* The provisos of C64_sound are needed. A production may leave out an optional occurrence of its own left-hand side: then "X" clearly means the
   left-hand side, the check finds nothing, and execution stops. *)
Theorem C64_left_out_refuted : exists nt name ps may lhs rhss rhs n m e, names_ok nt /\ nt name /\ s_resolve Plain name ps = Ok (may, []) /\ In (lhs, rhss) ps /\ In rhs rhss /\ instance nt n lhs rhs e /\
  make_focus_map n = Ok m /\ lhs = name /\ mentions name rhs = 0 /\ exec_ref n m Plain name = Err AssertionError.
Proof.
  exists letters, (tx "TemplateCharacters"), [(tx "TemplateCharacters", [[GNT (tx "TemplateCharacter")]])], false, (tx "TemplateCharacters"), [[GNT (tx "TemplateCharacter")]], [GNT (tx "TemplateCharacter")],
    (PN 1 (Some (tx "TemplateCharacters")) (tx "TemplateCharacter TemplateCharacters?") [0] 0 0 [PN 2 (Some (tx "TemplateCharacter")) [] [] 0 0 []; PN 3 (Some (tx "TemplateCharacters?")) [] [] 0 0 []]).
  eexists. exists [tx "TemplateCharacters"]. split; [apply letters_ok|]. split; [is_word|]. split; [vm_compute; reflexivity|]. split; [now left|]. split; [now left|].
  split; [split; [is_word|]; split; [reflexivity|]; apply fit_nonterminal; [is_word|reflexivity|]; apply fit_left_out; [is_word|reflexivity|reflexivity|constructor]|].
  split; [vm_compute; reflexivity|]. split; [reflexivity|]. split; [reflexivity|]. vm_compute. reflexivity.
Qed.
Print Assumptions C64_left_out_refuted.
(* Ordinals count symbols that the production leaves out: "the first X" can be absent although the production shows two of them and the check says
   that it cannot be absent. *)
Theorem C64_ordinal_refuted : exists nt name ps lhs rhss rhs n m e, names_ok nt /\ nt name /\ s_resolve (TheNth 1) name ps = Ok (false, []) /\ In (lhs, rhss) ps /\ In rhs rhss /\ instance nt n lhs rhs e /\
  make_focus_map n = Ok m /\ mentions name rhs = 2 /\ exec_ref n m (TheNth 1) name = Ok Absent.
Proof.
  set (rhs := [Other; Other; GNT (tx "Expression"); Other; GNT (tx "Expression"); Other; GNT (tx "Statement")]).
  exists letters, (tx "Expression"), [(tx "ForStatement", [rhs])], (tx "ForStatement"), [rhs], rhs,
    (PN 1 (Some (tx "ForStatement")) (tx "`for` `(` Expression? `;` Expression? `;` Expression? `)` Statement") [0; 1; 1] 0 0
      [kw 2; opt_expr 3 []; kw 4; opt_expr 5 [an_expr 6]; kw 7; opt_expr 8 [an_expr 11]; kw 9; a_stmt 10]).
  eexists. exists [tx "Expression"]. split; [apply letters_ok|]. split; [is_word|]. split; [vm_compute; reflexivity|]. split; [now left|]. split; [now left|].
  split; [split; [is_word|]; split; [reflexivity|]|split; [vm_compute; reflexivity|split; vm_compute; reflexivity]].
  apply fit_nothing, fit_nothing, fit_terminal; [reflexivity|]. apply fit_left_out; [is_word|reflexivity|reflexivity|]. apply fit_terminal; [reflexivity|]. eapply fit_written_as_present; [is_word|reflexivity|reflexivity|reflexivity|].
  apply fit_nothing, fit_terminal; [reflexivity|]. eapply fit_written_as_present; [is_word|reflexivity|reflexivity|reflexivity|]. apply fit_nothing, fit_terminal; [reflexivity|]. apply fit_nonterminal; [is_word|reflexivity|constructor].
Qed.
Print Assumptions C64_ordinal_refuted.
(* "the first X" passes the check where there is just one X, at which execution then stops. *)
Theorem C64_first_of_one_refuted : exists nt name ps may lhs rhss rhs n m, names_ok nt /\ nt name /\ s_resolve (TheNth 1) name ps = Ok (may, []) /\ In (lhs, rhss) ps /\ In rhs rhss /\ instance nt n lhs rhs [] /\
  make_focus_map n = Ok m /\ mentions name rhs = 1 /\ exec_ref n m (TheNth 1) name = Err AssertionError.
Proof.
  exists letters, (tx "Statement"), [(tx "ForStatement", [for_rhs])], false, (tx "ForStatement"), [for_rhs], for_rhs, a_for. eexists. split; [apply letters_ok|]. split; [is_word|]. split; [vm_compute; reflexivity|]. split; [now left|]. split; [now left|]. split; [exact for_fits|].
  split; [vm_compute; reflexivity|]. split; vm_compute; reflexivity.
Qed.
Print Assumptions C64_first_of_one_refuted.

(* ---- testing the production of a node ---- *)

Lemma augment_with_ok cs : forall m m', augment_with m cs = Ok m' ->
  NoDup (map sym cs) /\ (forall c, In c cs -> exists s, sym c = Some s /\ ends_q s = false /\ fget m (Some s) = None) /\
  forall k, fget m' k = match find (fun c => key_eqb (sym c) k) cs with Some c => Some [Node c] | None => fget m k end.
Proof.
  induction cs as [|c cs IH]; intros m m' E; cbn [augment_with] in E.
  - inversion E; subst. split; [constructor|]. split; [contradiction|reflexivity].
  - destruct (sym c) as [s|] eqn:Es; [|discriminate]. destruct (ends_q s) eqn:Q; cbn [negb assert_ bind] in E; [discriminate|]. destruct (fget m (Some s)) eqn:G; cbn [assert_ bind] in E; [discriminate|].
    destruct (IH _ _ E) as (ND & A & F). split.
    + cbn [map]. constructor; [|assumption]. rewrite Es. intros I. apply in_map_iff in I as (c' & E' & I). destruct (A c' I) as (s' & E2 & _ & G'). rewrite E' in E2. inversion E2; subst s'. rewrite fget_fappend, key_eqb_refl in G'. discriminate.
    + split.
      * intros c' [<-|I]; [eauto|]. destruct (A c' I) as (s' & E2 & Q' & G'). rewrite fget_fappend in G'. destruct (key_eqb (Some s) (Some s')); [discriminate|]. eauto.
      * intros k. rewrite F. cbn [find]. rewrite Es, fget_fappend. destruct (key_eqb (Some s) k) eqn:K; [|reflexivity]. apply key_eqb_eq in K as <-. rewrite G. cbn.
        destruct (find (fun c0 => key_eqb (sym c0) (Some s)) cs) as [c'|] eqn:Fd; [|reflexivity]. exfalso. apply find_some in Fd as [I K]. apply key_eqb_eq in K. destruct (A c' I) as (s' & E2 & _ & G'). rewrite K in E2. inversion E2; subst s'. rewrite fget_fappend, key_eqb_refl in G'. discriminate.
Qed.
Lemma augment_with_can cs : forall m, NoDup (map sym cs) -> (forall c, In c cs -> exists s, sym c = Some s /\ ends_q s = false /\ fget m (Some s) = None) -> exists m', augment_with m cs = Ok m'.
Proof.
  induction cs as [|c cs IH]; intros m ND A; [cbn; eauto|]. cbn [augment_with]. destruct (A c (or_introl eq_refl)) as (s & E & Q & G). rewrite E, Q, G. cbn. inversion ND as [|? ? N ND']; subst. apply IH; [assumption|].
  intros c' I. destruct (A c' (or_intror I)) as (s' & E' & Q' & G'). exists s'. split; [assumption|]. split; [assumption|]. rewrite fget_fappend. destruct (key_eqb (Some s) (Some s')) eqn:K; [|assumption]. apply key_eqb_eq in K. inversion K; subst s'. exfalso. apply N. rewrite E, <- E'. now apply in_map.
Qed.
(* Testing whether node c is an instance of a production gives the right answer; and from then on, in this frame, the names of the children of c
   mean these children, whatever the answer, and other names mean what they meant before. *)
Theorem C64_test m c ks b m' : is_production m c ks = Ok (b, m') ->
  (b = true <-> exists k, production c k /\ In k ks) /\
  (forall n d name, In d (kids c) -> sym d = Some name -> resolve n m' NoOrdinal name = Ok (Node d)) /\
  (forall n o name, (forall d, In d (kids c) -> sym d <> Some name) -> resolve n m' o name = resolve n m o name).
Proof.
  unfold is_production, augment. intros E. destruct (puk_of c) as [k|] eqn:P; cbn [bind] in E; [|discriminate]. apply puk_of_ok in P. destruct (match fget m (sym c) with Some rs => _ | None => _ end); cbn [assert_ bind] in E; [|discriminate].
  destruct (augment_with m (kids c)) as [m1|] eqn:A; cbn [bind] in E; [|discriminate]. inversion E; subst. destruct (augment_with_ok _ _ _ A) as (ND & AL & F). split; [|split].
  - rewrite existsb_exists. split; [intros (k' & I & X); apply puk_eqb_eq in X as <-; eauto|]. intros (k' & P' & I). rewrite (production_fun c _ _ P' P) in I. exists k. split; [assumption|now apply puk_eqb_eq].
  - intros n d name I S. unfold resolve. rewrite F. destruct (find (fun c0 => key_eqb (sym c0) (Some name)) (kids c)) as [d'|] eqn:Fd.
    + apply find_some in Fd as [I' K]. apply key_eqb_eq in K. assert (d' = d) as ->.
      { clear -ND I I' S K. induction (kids c) as [|x l IH]; [contradiction|]. inversion ND as [|? ? N ND']; subst. destruct I as [->|I], I' as [->|I']; [reflexivity| | |auto]; exfalso; apply N; [rewrite S, <- K|rewrite K, <- S]; now apply in_map. }
      cbn. rewrite K. replace (text_eqb name name) with true by (symmetry; now apply text_eqb_eq). reflexivity.
    + exfalso. apply (find_none _ _ Fd) in I. rewrite S, key_eqb_refl in I. discriminate.
  - intros n o name H. unfold resolve. rewrite F. destruct (find (fun c0 => key_eqb (sym c0) (Some name)) (kids c)) as [d'|] eqn:Fd; [|reflexivity]. exfalso. apply find_some in Fd as [I' K]. apply key_eqb_eq in K. exact (H _ I' K).
Qed.
Print Assumptions C64_test.
(* When a test succeeds: a nonterminal node that is known in the frame, with children that are all nonterminals, not optional, of different names,
   none of which has a meaning in the frame yet. *)
Theorem C64_test_possible m c ks : (exists x, is_production m c ks = Ok x) <->
  is_terminal c = false /\ (exists rs d, fget m (sym c) = Some rs /\ In (Node d) rs /\ pid d = pid c) /\ NoDup (map sym (kids c)) /\
  forall d, In d (kids c) -> exists s, sym d = Some s /\ optional s = false /\ fget m (Some s) = None.
Proof.
  unfold is_production, augment. split.
  - intros (x & E). destruct (puk_of c) as [k|] eqn:P; cbn [bind] in E; [|discriminate]. destruct (fget m (sym c)) as [rs|] eqn:G; cbn [assert_ bind] in E; [|discriminate]. destruct (existsb (is_node (pid c)) rs) eqn:X; cbn [assert_ bind] in E; [|discriminate].
    destruct (augment_with m (kids c)) as [m1|] eqn:A; cbn [bind] in E; [|discriminate]. destruct (augment_with_ok _ _ _ A) as (ND & AL & F). split; [unfold is_terminal; destruct c as [i [s|] r b a e ch]; [reflexivity|discriminate]|]. split.
    + apply existsb_exists in X as ([d|] & I & X); cbn in X; [|discriminate]. apply Nat.eqb_eq in X. exists rs, d. auto.
    + split; [assumption|]. intros d I. destruct (AL d I) as (s & ? & Q & ?). rewrite ends_q_optional in Q. eauto.
  - intros (T & (rs & d & G & I & Pd) & ND & H). destruct (production_exists c T) as (k & P). apply puk_of_ok in P. rewrite P. cbn [bind]. rewrite G. replace (existsb (is_node (pid c)) rs) with true by (symmetry; apply existsb_exists; exists (Node d); split; [assumption|cbn; now apply Nat.eqb_eq]).
    cbn [assert_ bind]. destruct (augment_with_can (kids c) m ND) as (m' & A); [intros d' I'; destruct (H d' I') as (s & ? & Q & ?); rewrite <- ends_q_optional in Q; eauto|]. rewrite A. cbn. eauto.
Qed.
Print Assumptions C64_test_possible.
(* A second test of the same node in the same frame always stops execution, if the node has children: asking "if X is A : B, ... else if X is A : C"
   is not possible. *)
Theorem C64_second_test m c ks b m' ks' : is_production m c ks = Ok (b, m') -> kids c <> [] -> is_production m' c ks' = Err AssertionError.
Proof.
  intros E NE. unfold is_production, augment in *. destruct (puk_of c) as [k|] eqn:P; cbn [bind] in *; [|discriminate]. destruct (match fget m (sym c) with Some rs => _ | None => _ end); cbn [assert_ bind] in E; [|discriminate].
  destruct (augment_with m (kids c)) as [m1|] eqn:A; cbn [bind] in E; [|discriminate]. inversion E; subst. destruct (augment_with_ok _ _ _ A) as (ND & AL & F).
  destruct (match fget m' (sym c) with Some rs => _ | None => _ end); cbn [assert_ bind]; [|reflexivity]. destruct (kids c) as [|d l] eqn:K; [contradiction|]. cbn [augment_with]. destruct (AL d (or_introl eq_refl)) as (s & Es & Q & _). rewrite Es, Q. cbn [negb assert_ bind].
  rewrite F. cbn [find]. rewrite Es, key_eqb_refl. reflexivity.
Qed.
Print Assumptions C64_second_test.
Example C64_test_ex : let d := PN 2 (Some (tx "Declaration")) (tx "HoistableDeclaration") [] 0 0 [PN 3 (Some (tx "HoistableDeclaration")) [] [] 0 0 []] in
  let n := PN 1 (Some (tx "StatementListItem")) (tx "Declaration") [] 0 0 [d] in
  exists m m', make_focus_map n = Ok m /\ resolve n m NoOrdinal (tx "HoistableDeclaration") = Ok Absent /\ is_production m d [(tx "Declaration", tx "HoistableDeclaration", [])] = Ok (true, m') /\
  resolve n m' NoOrdinal (tx "HoistableDeclaration") = Ok (Node (PN 3 (Some (tx "HoistableDeclaration")) [] [] 0 0 [])) /\ is_production m' d [(tx "Declaration", tx "ClassDeclaration", [])] = Err AssertionError /\
  exists m2, is_production m d [(tx "Declaration", tx "ClassDeclaration", [])] = Ok (false, m2) /\ resolve n m2 NoOrdinal (tx "HoistableDeclaration") = Ok (Node (PN 3 (Some (tx "HoistableDeclaration")) [] [] 0 0 [])).
Proof. cbv zeta. eexists. eexists. do 5 (split; [vm_compute; reflexivity|]). eexists. split; vm_compute; reflexivity. Qed.

(* ---- C65 ---- *)

Lemma named_spec name c : match sym c with Some s => text_eqb s name | None => false end = true <-> sym c = Some name.
Proof. destruct (sym c) as [s|]; [rewrite text_eqb_eq; split; congruence|split; discriminate]. Qed.
Lemma filter_one {A} (f : A -> bool) l x : filter f l = [x] <-> exists l1 l2, l = l1 ++ x :: l2 /\ f x = true /\ Forall (fun y => f y = false) l1 /\ Forall (fun y => f y = false) l2.
Proof.
  split.
  - induction l as [|a l IH]; [discriminate|]. cbn [filter]. destruct (f a) eqn:E.
    + intros X. inversion X as [[Y Z]]; subst. exists [], l. split; [reflexivity|]. split; [assumption|]. split; [constructor|]. apply Forall_forall. intros y I. destruct (f y) eqn:Fy; [|reflexivity]. assert (In y (filter f l)) by (apply filter_In; auto). rewrite Z in H. contradiction.
    + intros X. destruct (IH X) as (l1 & l2 & -> & Fx & F1 & F2). exists (a :: l1), l2. split; [reflexivity|]. split; [assumption|]. split; [constructor; assumption|assumption].
  - intros (l1 & l2 & -> & Fx & F1 & F2). rewrite filter_app. cbn [filter]. rewrite Fx.
    assert (Z : forall l, Forall (fun y => f y = false) l -> filter f l = []) by (induction 1 as [|a l E F IH]; cbn; [reflexivity|now rewrite E]). rewrite (Z l1 F1), (Z l2 F2). reflexivity.
Qed.
(* "the X of _y_" is the one child of the node that is an X, and execution stops if there is none or there are several. *)
Theorem C65_child n name c : child_named n name = Ok c <-> exists l1 l2, kids n = l1 ++ c :: l2 /\ sym c = Some name /\ Forall (fun d => sym d <> Some name) (l1 ++ l2).
Proof.
  unfold child_named. set (f := fun c0 => match sym c0 with Some s => text_eqb s name | None => false end). set (sel := filter f (kids n)).
  assert (X : (do _ <- assert_ (length sel =? 1) ;; match sel with [c0] => Ok c0 | _ => Err ValueError end) = Ok c <-> sel = [c]).
  { destruct sel as [|a [|b l]]; cbn; split; try discriminate; intros Y; inversion Y; reflexivity. }
  rewrite X. unfold sel. rewrite filter_one. split.
  - intros (l1 & l2 & E & Fc & F1 & F2). exists l1, l2. split; [assumption|]. split; [now apply named_spec|]. apply Forall_app. split; [revert F1|revert F2]; apply Forall_impl; intros d Fd Y; apply named_spec in Y; unfold f in Fd; congruence.
  - intros (l1 & l2 & E & Fc & F). apply Forall_app in F as [F1 F2]. exists l1, l2. split; [assumption|]. split; [now apply named_spec|]. split; [revert F1|revert F2]; apply Forall_impl; intros d Fd; (destruct (f d) eqn:Y; [|reflexivity]); apply named_spec in Y; contradiction.
Qed.
Print Assumptions C65_child.
Theorem C65_child_fails n name e : child_named n name = Err e -> e = AssertionError.
Proof. unfold child_named. destruct (filter _ (kids n)) as [|a [|b l]]; cbn; congruence. Qed.
Print Assumptions C65_child_fails.
(* So an optional child cannot be had in this way, even if it is present. *)
Theorem C65_optional_child_refuted : exists n c d name, In c (kids n) /\ sym c = Some (name ++ tx "?") /\ kids c = [d] /\ sym d = Some name /\ stands_for c name (Node d) /\ child_named n name = Err AssertionError.
Proof.
  exists a_for, (opt_expr 5 [an_expr 6]), (an_expr 6), (tx "Expression"). split; [cbn; tauto|]. split; [reflexivity|]. split; [reflexivity|]. split; [reflexivity|]. split; [econstructor 2; reflexivity|]. vm_compute. reflexivity.
Qed.
Print Assumptions C65_optional_child_refuted.
Example C65_child_ex : child_named a_for (tx "Statement") = Ok (a_stmt 10) /\ child_named a_for (tx "Block") = Err AssertionError.
Proof. split; vm_compute; reflexivity. Qed.

Lemma preorder_below m n : In m (preorder_traverse n) <-> below m n.
Proof.
  induction n as [n IH] using pnode_ind_kids. destruct n as [i y r b a e ch]. cbn [preorder_traverse kids] in *. split.
  - intros [<-|I]; [constructor|]. apply in_flat_map in I as (c & I & J). apply (IH c I) in J. exact (below_kid m c (PN i y r b a e ch) I J).
  - intros B. inversion B as [|? c ? I B']; subst; [now left|]. right. apply in_flat_map. exists c. split; [assumption|]. now apply IH.
Qed.
Lemma preorder_ids n : map pid (preorder_traverse n) = ids n.
Proof.
  induction n as [n IH] using pnode_ind_kids. destruct n as [i y r b a e ch]. cbn [preorder_traverse ids kids map pid] in *. f_equal. induction ch as [|c ch IHc]; [reflexivity|]. cbn [flat_map]. rewrite map_app, IH by now left. f_equal. apply IHc. intros c' I. apply IH. now right.
Qed.
(* Whether a node contains an X: if it is one or there is one among its descendants. The negated form is the negation. *)
Theorem C65_contains n name :
  (forall c, c = ContainsA \/ c = ContainsAnNode -> (containing_cond c n name = true <-> exists m, below m n /\ sym m = Some name)) /\
  (containing_cond DoesNotContainA n name = true <-> forall m, below m n -> sym m <> Some name).
Proof.
  assert (C : contains_a n name = true <-> exists m, below m n /\ sym m = Some name).
  { induction n as [n IH] using pnode_ind_kids. destruct n as [i y r b a e ch]. cbn [contains_a kids] in *. rewrite orb_true_iff, existsb_exists. split.
    - intros [E|(c & I & E)].
      + destruct y as [y|]; [|discriminate]. apply text_eqb_eq in E as ->. eexists. split; [constructor|reflexivity].
      + apply IH in E as (m & B & E); [|assumption]. exists m. split; [exact (below_kid m c (PN i y r b a e ch) I B)|assumption].
    - intros (m & B & E). inversion B as [|? c ? I B']; subst; [left; cbn in E; subst y; now apply text_eqb_eq|]. right. exists c. split; [assumption|]. apply IH; eauto. }
  split.
  - intros c [-> | ->]; exact C.
  - cbn. rewrite negb_true_iff. split.
    + intros E m B S. assert (X : contains_a n name = true) by (apply C; eauto). congruence.
    + intros H. destruct (contains_a n name) eqn:E; [|reflexivity]. destruct (proj1 C eq_refl) as (m & B & S). exfalso. eapply H; eassumption.
Qed.
Print Assumptions C65_contains.
(* "does not contain two Xs" is taken to mean "does not contain an X", so it is wrong exactly for the nodes that contain one. *)
Theorem C65_two_refuted : exists n m name, below m n /\ sym m = Some name /\ (forall m', below m' n -> sym m' = Some name -> m' = m) /\ containing_cond DoesNotContainTwo n name = false.
Proof.
  exists (PN 1 (Some (tx "Pattern")) [] [] 0 0 [PN 2 (Some (tx "GroupSpecifier")) [] [] 0 0 []]), (PN 2 (Some (tx "GroupSpecifier")) [] [] 0 0 []), (tx "GroupSpecifier").
  split; [apply below_kid with (c := PN 2 (Some (tx "GroupSpecifier")) [] [] 0 0 []); [now left|constructor]|]. split; [reflexivity|]. split; [|vm_compute; reflexivity].
  intros m' B E. apply preorder_below in B. cbn in B. destruct B as [<-|[<-|[]]]; [discriminate|reflexivity].
Qed.
Print Assumptions C65_two_refuted.
Theorem C65_two_when n name : containing_cond DoesNotContainTwo n name = containing_cond DoesNotContainA n name.
Proof. reflexivity. Qed.

(* The number of nodes of some productions within a node is that of all such nodes, the node itself included, each counted once. *)
Theorem C65_number n ks l : NoDup (ids n) -> NoDup l -> (forall i, In i l <-> exists m k, below m n /\ pid m = i /\ production m k /\ In k ks) -> number_within n ks = length l.
Proof.
  intros ND NL H. unfold number_within. set (f := fun d => match puk_of d with Ok k => existsb (puk_eqb k) ks | Err _ => false end).
  assert (F : forall d, f d = true <-> exists k, production d k /\ In k ks).
  { intros d. unfold f. destruct (puk_of d) as [k|] eqn:P.
    - apply puk_of_ok in P. rewrite existsb_exists. split; [intros (k' & I & E); apply puk_eqb_eq in E as <-; eauto|]. intros (k' & P' & I). rewrite (production_fun d _ _ P' P) in I. exists k. split; [assumption|now apply puk_eqb_eq].
    - split; [discriminate|]. intros (k & P' & _). apply puk_of_ok in P'. congruence. }
  assert (G : forall ds c, fold_left (fun count d => if f d then S count else count) ds c = length (filter f ds) + c).
  { induction ds as [|d ds IH]; intros c; [reflexivity|]. cbn [fold_left filter]. rewrite IH. destruct (f d); cbn [length]; lia. }
  change (fold_left (fun count d => if f d then S count else count) (preorder_traverse n) 0 = length l). rewrite G, Nat.add_0_r, <- (map_length pid). apply Nat.le_antisymm; apply NoDup_incl_length.
  - assert (Z : forall ds, NoDup (map pid ds) -> NoDup (map pid (filter f ds))).
    { induction ds as [|d ds IH]; intros X; [constructor|]. cbn [map filter] in *. inversion X as [|? ? N X']; subst. destruct (f d); [|auto]. cbn [map]. constructor; [|auto]. intros I. apply N. apply in_map_iff in I as (d' & E & I). apply filter_In in I as [I _]. rewrite <- E. now apply in_map. }
    apply Z. now rewrite preorder_ids.
  - intros i I. apply in_map_iff in I as (m & <- & I). apply filter_In in I as [I Fm]. apply F in Fm as (k & P & J). apply H. exists m, k. split; [now apply preorder_below|auto].
  - assumption.
  - intros i I. apply H in I as (m & k & B & <- & P & J). apply in_map, filter_In. split; [now apply preorder_below|]. apply F. eauto.
Qed.
Print Assumptions C65_number.
Example C65_number_ex : let q := (tx "Atom", tx "`(` GroupSpecifier? Disjunction `)`", [0]) in let a i ch := PN i (Some (tx "Atom")) (tx "`(` GroupSpecifier? Disjunction `)`") [0] 0 0 ch in
  let n := a 1 [kw 2; a 3 []; PN 4 (Some (tx "Term")) [] [] 0 0 [a 5 [kw 6]]] in NoDup (ids n) /\ number_within n [q] = 3 /\ NoDup [1; 3; 5] /\ (forall i, In i [1; 3; 5] <-> exists m k, below m n /\ pid m = i /\ production m k /\ In k [q]).
Proof.
  cbv zeta. split; [repeat constructor; cbn; lia|]. split; [vm_compute; reflexivity|]. split; [repeat constructor; cbn; lia|]. intros i. split.
  - intros [<-|[<-|[<-|[]]]]; (eexists; exists (tx "Atom", tx "`(` GroupSpecifier? Disjunction `)`", [0]); split; [apply preorder_below|]).
    + left. reflexivity.
    + split; [reflexivity|]. split; [cbn; eauto|now left].
    + right. right. left. reflexivity.
    + split; [reflexivity|]. split; [cbn; eauto|now left].
    + right. right. right. right. left. reflexivity.
    + split; [reflexivity|]. split; [cbn; eauto|now left].
  - intros (m & k & B & <- & P & [<-|[]]). apply preorder_below in B. cbn in B. destruct B as [<-|[<-|[<-|[<-|[<-|[<-|[]]]]]]]; cbn in P; destruct P as (s & E & P); try discriminate; [now left|right; now left|right; right; now left].
Qed.

(* "contains two distinct Xs such that ...": the answer no is given exactly if there are not two of them, and no other answer is ever given. *)
Theorem C65_two_distinct n name : NoDup (ids n) ->
  (contains_two_distinct n name = Ok false /\ (forall a b, below a n -> below b n -> sym a = Some name -> sym b = Some name -> pid a = pid b)) \/
  (contains_two_distinct n name = Err AssertionError /\ exists a b, below a n /\ below b n /\ sym a = Some name /\ sym b = Some name /\ pid a <> pid b).
Proof.
  intros ND. unfold contains_two_distinct. set (f := fun d => match sym d with Some s => text_eqb s name | None => false end). set (l := nodup Nat.eq_dec (map pid (filter f (preorder_traverse n)))).
  assert (L : forall i, In i l <-> exists a, below a n /\ sym a = Some name /\ pid a = i).
  { intros i. unfold l. rewrite nodup_In, in_map_iff. split.
    - intros (a & <- & I). apply filter_In in I as [I Fa]. exists a. split; [now apply preorder_below|]. split; [now apply named_spec|reflexivity].
    - intros (a & B & E & <-). exists a. split; [reflexivity|]. apply filter_In. split; [now apply preorder_below|now apply named_spec]. }
  assert (NL : NoDup l) by apply NoDup_nodup. clearbody l. destruct l as [|i [|j l']]; cbn [length Nat.ltb Nat.leb].
  - left. split; [reflexivity|]. intros a b Ba Bb Ea Eb. exfalso. destruct (proj2 (L (pid a))); eauto.
  - left. split; [reflexivity|]. intros a b Ba Bb Ea Eb. assert (X : In (pid a) [i]) by (apply L; eauto). assert (Y : In (pid b) [i]) by (apply L; eauto). destruct X as [<-|[]], Y as [<-|[]]. reflexivity.
  - right. split; [reflexivity|]. destruct (proj1 (L i) (or_introl eq_refl)) as (a & Ba & Ea & Pa). destruct (proj1 (L j) (or_intror (or_introl eq_refl))) as (b & Bb & Eb & Pb). exists a, b. repeat (split; [assumption|]). rewrite Pa, Pb. inversion NL as [|? ? N _]; subst. intros X. apply N. now left.
Qed.
Print Assumptions C65_two_distinct.
Example C65_two_distinct_ex : contains_two_distinct a_for (tx "Expression") = Ok false /\ contains_two_distinct a_for (tx "Expression?") = Err AssertionError.
Proof. split; vm_compute; reflexivity. Qed.

(* "the X containing _y_" is the ancestor that is an X, if there is exactly one; if Xs are nested, execution stops rather than giving the nearest. *)
Theorem C65_containing t ps symbol n l name fuel i : NoDup (ids t) -> (forall m, below m t -> symbol (pid m) = sym m) -> ancestors t n l -> length l < fuel ->
  (the_containing fuel symbol (link t ps) (pid n) name = Ok i <-> exists l1 m l2, l = l1 ++ m :: l2 /\ sym m = Some name /\ pid m = i /\ Forall (fun a => sym a <> Some name) (l1 ++ l2)).
Proof.
  intros ND SY A F. unfold the_containing. destruct (each_ancestor_link t ps ND n l A fuel F) as [-> _]. cbn [bind].
  assert (BL : forall m, In m l -> below m t).
  { clear -A. induction A as [|m c l A IH I]; [contradiction|]. intros x [<-|J]; [exact (ancestors_below _ _ _ A)|auto]. }
  set (g := fun m => match sym m with Some s => text_eqb s name | None => false end).
  assert (G : filter (fun a => match symbol a with Some s => text_eqb s name | None => false end) (map pid l) = map pid (filter g l)).
  { clear A F. induction l as [|m l IH]; [reflexivity|]. cbn [map filter]. rewrite (SY m) by (apply BL; now left). unfold g at 1. destruct (match sym m with Some s => _ | None => _ end); cbn [map]; rewrite IH by (intros x J; apply BL; now right); reflexivity. }
  rewrite G, map_length.
  assert (X : (do _ <- assert_ (length (filter g l) =? 1) ;; match map pid (filter g l) with c :: _ => Ok c | [] => Err IndexError end) = Ok i <-> exists m, filter g l = [m] /\ pid m = i).
  { destruct (filter g l) as [|a [|b l']]; cbn; split; try discriminate; try (intros (m & Y & _); discriminate); [intros Y; inversion Y; eauto|intros (m & Y & <-); inversion Y; reflexivity]. }
  rewrite X. split.
  - intros (m & E & P). apply filter_one in E as (l1 & l2 & E & Fm & F1 & F2). exists l1, m, l2. split; [assumption|]. split; [now apply named_spec|]. split; [assumption|]. apply Forall_app. split; [revert F1|revert F2]; apply Forall_impl; intros d Fd Y; apply named_spec in Y; unfold g in Fd; congruence.
  - intros (l1 & m & l2 & E & Sm & P & Fa). exists m. split; [|assumption]. apply filter_one. exists l1, l2. apply Forall_app in Fa as [F1 F2]. split; [assumption|]. split; [now apply named_spec|]. split; [revert F1|revert F2]; apply Forall_impl; intros d Fd; (destruct (g d) eqn:Y; [|reflexivity]); apply named_spec in Y; contradiction.
Qed.
Print Assumptions C65_containing.
Definition a_class (i : nat) (ch : list pnode) : pnode := PN i (Some (tx "ClassBody")) [] [] 0 0 ch.
Definition a_symbol (i : nat) : option text := match i with 1 | 3 => Some (tx "ClassBody") | 2 => Some (tx "Block") | _ => None end.
Example C65_containing_ex : let t := a_class 1 [PN 2 (Some (tx "Block")) [] [] 0 0 [kw 4]] in let t2 := a_class 1 [PN 2 (Some (tx "Block")) [] [] 0 0 [a_class 3 [kw 4]]] in
  NoDup (ids t) /\ ancestors t (kw 4) [PN 2 (Some (tx "Block")) [] [] 0 0 [kw 4]; t] /\ the_containing 5 a_symbol (link t []) 4 (tx "ClassBody") = Ok 1 /\ the_containing 5 a_symbol (link t2 []) 4 (tx "ClassBody") = Err AssertionError.
Proof.
  cbv zeta. split; [repeat constructor; cbn; lia|]. split; [|split; vm_compute; reflexivity]. apply anc_kid; [|now left]. apply anc_kid; [constructor|now left].
Qed.
