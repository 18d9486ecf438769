(* C106: the registry of algorithms: who has which headers *)
From Coq Require Import Ascii String Lia List Permutation Sorted.
From Verif Require Import M_Base L_Base M_HTML M_Shared M_Records M_Refs M_Style L_StyleDesc L_ValTree L_Entities M_PropPath L_PropPath M_SecId L_SecId M_AlgReg.
Open Scope list_scope.
Open Scope nat_scope.
Notation length := List.length.

(* ------------------------------------------------------------------ *)
(* headers *)
Definition no_brackets (t : text) : Prop := t <> [] /\ ~ In 60%N t /\ ~ In 62%N t.
(* a name, or one marked as a definition *)
Inductive named_as : text -> text -> Prop :=
| na_plain n : (forall t, n <> [60%N] ++ t) -> named_as n n
| na_dfn a n : no_brackets a -> no_brackets n -> named_as (tx "<dfn " ++ a ++ tx ">" ++ n ++ tx "</dfn>") n.
Definition bif (s : text) : bool := text_eqb (firstn 4 s) (tx "bif:").
Definition rest (p : rparam) : Prop := rp_punct p = tx "...".
(* what is known of a parameter *)
Inductive natured (s : text) : rparam -> rparam -> Prop :=
| nt_same p : bif s = false \/ rp_nature p <> tx "unknown" -> natured s p p
| nt_rest n : bif s = true -> natured s (mkRP n (tx "...") (tx "unknown")) (mkRP n (tx "...") (tx "a List of ECMAScript language values"))
| nt_value n c : bif s = true -> c <> tx "..." -> natured s (mkRP n c (tx "unknown")) (mkRP n c (tx "an ECMAScript language value")).
Definition together (ps : list text) : text := match ps with [] => [] | p :: ps' => p ++ concat (map (fun q => [32%N] ++ q) ps') end.
Inductive headless (ps : list text) : text -> text -> Prop :=
| hl_one p t : In p ps -> headless ps (p ++ t) t
| hl_none t : (forall p u, In p ps -> t <> p ++ u) -> headless ps t t.
Definition described (paras : list text) (d : text) : Prop :=
  exists d1 d2 d3, headless [tx "!OP "; tx "!FUNC "; tx "!CM "] (together paras) d1 /\ headless [tx "It "; tx "This operation "; tx "The job "] d1 d2 /\
    swapped (tx "!OP") (tx "This operation") d2 d3 /\ swapped (tx "!FUNC") (tx "This function") d3 d.
Inductive finished (h : hdr) : fhdr -> Prop :=
| fin n ps qs d : named_as (r_name h) n -> r_params h = Some ps -> (forall a p b q c, ps = a ++ p :: b ++ q :: c -> ~ (rest p /\ rest q)) -> Forall2 (natured (r_species h)) ps qs -> described (r_paras h) d ->
    finished h (mkFhdr (r_id h) (r_species h) (r_name h) n qs d).

Lemma plain_app a : forall c t, ~ In 60%N a -> ~ In 62%N a -> c = 60%N \/ c = 62%N -> plain (a ++ c :: t) = (a, c :: t).
Proof.
  induction a as [|x a IH]; intros c t N1 N2 C; cbn [app plain].
  - destruct C as [-> | ->]; reflexivity.
  - cbn [In] in N1, N2. replace ((x =? 60)%N || (x =? 62)%N) with false by (symmetry; apply Bool.orb_false_iff; rewrite !N.eqb_neq; intuition congruence). rewrite IH; [reflexivity|tauto|tauto|assumption].
Qed.
Lemma plain_inv t : forall a r, plain t = (a, r) -> t = a ++ r /\ ~ In 60%N a /\ ~ In 62%N a.
Proof.
  induction t as [|c t IH]; intros a r; cbn [plain]; [intros [= <- <-]; auto|]. destruct ((c =? 60)%N || (c =? 62)%N) eqn:E; [intros [= <- <-]; auto|]. apply Bool.orb_false_iff in E as (E1 & E2). apply N.eqb_neq in E1, E2. destruct (plain t) as (a', r') eqn:P. intros [= <- <-]. destruct (IH a' r' eq_refl) as (-> & N1 & N2). cbn [app In]. intuition congruence.
Qed.
Lemma name_iff t n : bare_name t = Ok n <-> named_as t n.
Proof.
  unfold bare_name. destruct (is_prefix (tx "<") t) eqn:B.
  - apply begins_iff in B as (u & B). unfold dfn_name. split.
    + destruct (eat (tx "<dfn ") t) as [t1|] eqn:E1; [|discriminate]. apply eat_inv in E1. destruct (plain t1) as (a, t2) eqn:P1. apply plain_inv in P1 as (-> & A1 & A2). destruct a as [|x a]; [discriminate|]. destruct (eat (tx ">") t2) as [t3|] eqn:E2; [|discriminate]. apply eat_inv in E2. subst t2. destruct (plain t3) as (m, t4) eqn:P2. apply plain_inv in P2 as (-> & M1 & M2). destruct m as [|y m]; [discriminate|].
      destruct (text_eqb t4 (tx "</dfn>")) eqn:E3; [|discriminate]. apply text_eqb_eq in E3. subst t4. intros [= <-]. rewrite E1. apply na_dfn; (split; [discriminate|auto]).
    + intros H. inversion H as [n' NP|a n' (A0 & A1 & A2) (M0 & M1 & M2)]; subst; [exfalso; now apply (NP u)|]. rewrite eat_ok. change (tx ">" ++ n ++ tx "</dfn>") with (62%N :: (n ++ tx "</dfn>")). rewrite (plain_app a 62%N _ A1 A2) by auto. destruct a as [|x a]; [congruence|]. cbn [eat is_prefix]. change (eat (tx ">") (62%N :: n ++ tx "</dfn>")) with (Some (n ++ tx "</dfn>")). cbv beta iota.
      change (tx "</dfn>") with (60%N :: tx "/dfn>") at 1. rewrite (plain_app n 60%N _ M1 M2) by auto. destruct n as [|y n]; [congruence|]. reflexivity.
  - split.
    + intros [= <-]. apply na_plain. intros u E. assert (is_prefix (tx "<") t = true) by (apply begins_iff; now exists u). congruence.
    + intros H. inversion H as [n' NP|a n' A M]; subst; [reflexivity|]. exfalso. assert (X : is_prefix (tx "<") (tx "<dfn " ++ a ++ tx ">" ++ n ++ tx "</dfn>") = true) by reflexivity. congruence.
Qed.
Lemma bif_iff s : is_prefix (tx "bif:") s = bif s.
Proof.
  unfold bif. change (tx "bif:") with [98%N; 105%N; 102%N; 58%N].
  assert (SY : forall a b, text_eqb a b = text_eqb b a) by (intros a b; apply Bool.eq_iff_eq_true; rewrite !text_eqb_eq; split; congruence).
  destruct s as [|a [|b [|c [|d s]]]]; cbn [is_prefix firstn]; rewrite SY; cbn [text_eqb];
    rewrite ?Bool.andb_false_r, ?Bool.andb_true_r; reflexivity.
Qed.
Lemma rest_iff ps : rest_ok ps = true <-> forall a p b q c, ps = a ++ p :: b ++ q :: c -> ~ (rest p /\ rest q).
Proof.
  unfold rest_ok. rewrite Nat.leb_le. induction ps as [|x ps IH]; [split; [intros _ [|] p b q c E; discriminate|cbn; lia]|]. cbn [filter]. destruct (text_eqb (rp_punct x) (tx "...")) eqn:X.
  - apply text_eqb_eq in X. cbn [length]. split.
    + intros L a p b q c E (P & Q). destruct a as [|y a]; cbn [app] in E; injection E as -> ->.
      * assert (I : In q (filter (fun p0 => text_eqb (rp_punct p0) (tx "...")) (b ++ q :: c))) by (apply filter_In; split; [apply in_or_app; right; now left|now apply text_eqb_eq]). destruct (filter _ _); [destruct I|cbn [length] in L; lia].
      * assert (I : In q (filter (fun p0 => text_eqb (rp_punct p0) (tx "...")) (a ++ p :: b ++ q :: c))) by (apply filter_In; split; [apply in_or_app; right; right; apply in_or_app; right; now left|now apply text_eqb_eq]). destruct (filter _ _); [destruct I|cbn [length] in L; lia].
    + intros H. destruct (filter _ ps) as [|q l] eqn:F; [cbn; lia|]. exfalso. assert (I : In q (filter (fun p => text_eqb (rp_punct p) (tx "...")) ps)) by (rewrite F; now left). apply filter_In in I as (I & Q). apply text_eqb_eq in Q. apply in_split in I as (b & c & ->). apply (H [] x b q c eq_refl). split; assumption.
  - rewrite IH. split.
    + intros H a p b q c E. destruct a as [|y a]; cbn [app] in E; injection E as -> ->; [|now apply (H a p b q c)]. intros (P & _). unfold rest in P. rewrite (proj2 (text_eqb_eq _ _) P) in X. discriminate.
    + intros H a p b q c ->. apply (H (x :: a) p b q c eq_refl).
Qed.
Lemma natures_iff s ps : forall qs, Forall2 (natured s) ps qs <-> qs = (if bif s then map give_nature ps else ps).
Proof.
  assert (ONE : forall p q, natured s p q <-> q = (if bif s then give_nature p else p)).
  { intros p q. split.
    - intros H. unfold give_nature. destruct H as [p [B|U]|n B|n c B C].
      + now rewrite B.
      + destruct (text_eqb (rp_nature p) (tx "unknown")) eqn:T; [apply text_eqb_eq in T; contradiction|]. now destruct (bif s).
      + rewrite B. cbn [rp_nature rp_punct rp_name]. now rewrite !(proj2 (text_eqb_eq _ _) eq_refl).
      + rewrite B. cbn [rp_nature rp_punct rp_name]. rewrite (proj2 (text_eqb_eq _ _) eq_refl). destruct (text_eqb c (tx "...")) eqn:T; [apply text_eqb_eq in T; contradiction|reflexivity].
    - intros ->. destruct (bif s) eqn:B; [|apply nt_same; now left]. destruct p as (n, c, t). unfold give_nature. cbn [rp_nature rp_punct rp_name]. destruct (text_eqb t (tx "unknown")) eqn:T.
      + apply text_eqb_eq in T. rewrite T. destruct (text_eqb c (tx "...")) eqn:C; [apply text_eqb_eq in C; rewrite C; now apply nt_rest|]. apply nt_value; [exact B|]. intros X. apply text_eqb_eq in X. rewrite X in C. discriminate.
      + apply nt_same. right. cbn [rp_nature]. intros X. apply text_eqb_eq in X. rewrite X in T. discriminate. }
  induction ps as [|p ps IH]; intros qs.
  - split; [intros H; inversion H; now destruct (bif s)|]. intros ->. destruct (bif s); constructor.
  - split.
    + intros H. inversion H as [|? q ? qs' A F]; subst. apply ONE in A. apply IH in F. subst. now destruct (bif s).
    + intros ->. assert (X : (if bif s then map give_nature (p :: ps) else p :: ps) = (if bif s then give_nature p else p) :: (if bif s then map give_nature ps else ps)) by (now destruct (bif s)). rewrite X. constructor; [now apply ONE|now apply IH].
Qed.
Lemma join_iff ps : join_sp ps = together ps.
Proof.
  destruct ps as [|p ps]; [reflexivity|]. cbn [together]. revert p. induction ps as [|q ps IH]; intros p; [cbn; now rewrite app_nil_r|]. change (join_sp (p :: q :: ps)) with (p ++ [32%N] ++ join_sp (q :: ps)). rewrite IH. cbn [map concat]. now rewrite <- app_assoc.
Qed.
Lemma drop_iff ps t t' : (forall p q u v, In p ps -> In q ps -> p ++ u = q ++ v -> p = q) -> drop_first ps t = t' <-> headless ps t t'.
Proof.
  intros D. assert (G : headless ps t (drop_first ps t)).
  { clear t' D. assert (X : (exists p u, In p ps /\ t = p ++ u /\ drop_first ps t = u) \/ ((forall p u, In p ps -> t <> p ++ u) /\ drop_first ps t = t)).
    { induction ps as [|p ps IH]; cbn [drop_first]; [right; split; [intros p u []|reflexivity]|]. destruct (eat p t) as [u|] eqn:E.
      - apply eat_inv in E. left. exists p, u. split; [now left|auto].
      - destruct IH as [(q & u & I & -> & X)|(N0 & X)]; [left; exists q, u; split; [now right|auto]|]. right. split; [|exact X]. intros q u [<-|I] ->; [rewrite eat_ok in E; discriminate|now apply (N0 q u)]. }
    destruct X as [(p & u & I & -> & X)|(N0 & X)]; rewrite X; [now apply hl_one|now apply hl_none]. }
  assert (HV : forall x y, headless ps x y -> (exists p, In p ps /\ x = p ++ y) \/ ((forall p u, In p ps -> x <> p ++ u) /\ y = x)) by (intros x y [p u I|u N0]; [left; eauto|right; auto]).
  split; [intros <-; exact G|]. intros H. apply HV in H. apply HV in G. destruct H as [(p & I & E)|(N0 & E)]; destruct G as [(q & J & F)|(M0 & F)].
  - assert (X : p = q) by (apply (D p q t' (drop_first ps t)); auto; now rewrite <- E, <- F). subst q. rewrite F in E at 1. now apply app_inv_head in E.
  - exfalso. exact (M0 p t' I E).
  - exfalso. exact (N0 q _ J F).
  - congruence.
Qed.
Lemma desc_iff ps d : description ps = d <-> described ps d.
Proof.
  assert (D1 : forall p q u v, In p [tx "!OP "; tx "!FUNC "; tx "!CM "] -> In q [tx "!OP "; tx "!FUNC "; tx "!CM "] -> p ++ u = q ++ v -> p = q) by (intros p q u v [<-|[<-|[<-|[]]]] [<-|[<-|[<-|[]]]] E; try reflexivity; discriminate E).
  assert (D2 : forall p q u v, In p [tx "It "; tx "This operation "; tx "The job "] -> In q [tx "It "; tx "This operation "; tx "The job "] -> p ++ u = q ++ v -> p = q) by (intros p q u v [<-|[<-|[<-|[]]]] [<-|[<-|[<-|[]]]] E; try reflexivity; discriminate E).
  unfold description, described. cbv zeta. rewrite join_iff. split.
  - intros <-. do 3 eexists. split; [apply (drop_iff _ _ _ D1); reflexivity|]. split; [apply (drop_iff _ _ _ D2); reflexivity|]. split; refine (proj2 (swapped_iff _ _ _ _ _) _); try reflexivity; discriminate.
  - intros (d1 & d2 & d3 & H1 & H2 & S1 & S2). apply (drop_iff _ _ _ D1) in H1. apply (drop_iff _ _ _ D2) in H2. apply swapped_iff in S1; [|discriminate]. apply swapped_iff in S2; [|discriminate]. now subst.
Qed.
(* A header is finished exactly if its name is a plain or a marked one, its parameters are known and at most one is a rest parameter; and this is what it then is. *)
Theorem C106_finish : forall h f, finish h = Ok f <-> finished h f.
Proof.
  intros h f. unfold finish. split.
  - intros E. apply bind_ok in E as (n & N0 & E). apply name_iff in N0. destruct (r_params h) as [ps|] eqn:P; [|discriminate]. apply bind_ok in E as ([] & R & E). apply ok_inj in E. subst f. rewrite bif_iff. apply (fin h n ps); [assumption|assumption| |now apply natures_iff|now apply desc_iff].
    apply rest_iff. destruct (rest_ok ps); [reflexivity|discriminate].
  - intros H. inversion H as [n ps qs d N0 P R F D]; subst. apply name_iff in N0. rewrite N0, P. cbn [bind]. rewrite (proj2 (rest_iff ps) R). cbn [assert_ bind]. apply natures_iff in F. apply desc_iff in D. now rewrite F, D, bif_iff.
Qed.
Print Assumptions C106_finish.

(* ------------------------------------------------------------------ *)
(* the registry *)
(* an algorithm is mentioned by its species and name, perhaps by a header *)
Definition mention := (text * text * list fhdr)%type.
Definition m_species (m : mention) : text := fst (fst m).
Definition m_name (m : mention) : text := snd (fst m).
Inductive mentions : action -> mention -> Prop :=
| mn_ensure s n : mentions (Ensure s n) (s, n, [])
| mn_make h f : finished h f -> mentions (Make h) (f_species f, f_name f, [f]).
(* the same name for functions, or for operations, must have the same species *)
Definition coherent (ms : list mention) : Prop := forall m m', In m ms -> In m' ms -> bif (m_species m) = bif (m_species m') -> m_name m = m_name m' -> m_species m = m_species m'.
Fixpoint uniq (l : list text) : list text := match l with [] => [] | x :: l' => x :: filter (fun y => negb (text_eqb y x)) (uniq l') end.
Definition about (b : bool) (n : text) (ms : list mention) : list mention := filter (fun m => Bool.eqb (bif (m_species m)) b && text_eqb (m_name m) n) ms.
Definition names (b : bool) (ms : list mention) : list text := uniq (map m_name (filter (fun m => Bool.eqb (bif (m_species m)) b) ms)).
Definition entry (b : bool) (ms : list mention) (n : text) : text * ralg :=
  (n, mkRalg n (if b then tx "bif" else tx "op") (match about b n ms with m :: _ => m_species m | [] => [] end) (flat_map snd (about b n ms))).
(* the names in the order in which they come up, each with all its headers, in order *)
Definition table (b : bool) (ms : list mention) : list (text * ralg) := map (entry b ms) (names b ms).

Lemma uniq_in l x : In x (uniq l) <-> In x l.
Proof.
  induction l as [|y l IH]; cbn [uniq In]; [reflexivity|]. rewrite filter_In, IH. split; [tauto|]. intros [->|I]; [now left|]. destruct (text_eqb x y) eqn:E; [apply text_eqb_eq in E; subst; now left|]. right. auto.
Qed.
Lemma uniq_nodup l : NoDup (uniq l).
Proof. induction l as [|y l IH]; cbn [uniq]; constructor; [|now apply NoDup_filter]. rewrite filter_In. intros (_ & E). rewrite (proj2 (text_eqb_eq y y) eq_refl) in E. discriminate. Qed.
Lemma uniq_snoc l n : uniq (l ++ [n]) = if existsb (text_eqb n) l then uniq l else uniq l ++ [n].
Proof.
  induction l as [|x l IH]; [reflexivity|]. cbn [app uniq existsb]. rewrite IH. destruct (existsb (text_eqb n) l); [now rewrite Bool.orb_true_r|]. rewrite Bool.orb_false_r, filter_app. cbn [filter]. destruct (text_eqb n x); cbn [negb]; [now rewrite app_nil_r|reflexivity].
Qed.
Lemma exists_iff n l : existsb (text_eqb n) l = true <-> In n l.
Proof. rewrite existsb_exists. split; [intros (x & I & E); apply text_eqb_eq in E; now subst|]. intros I. exists n. split; [exact I|now apply text_eqb_eq]. Qed.
Lemma names_in b ms n : In n (names b ms) <-> exists m, In m ms /\ bif (m_species m) = b /\ m_name m = n.
Proof.
  unfold names. rewrite uniq_in, in_map_iff. split; [intros (m & <- & I); apply filter_In in I as (I & E); apply Bool.eqb_prop in E; eauto|]. intros (m & I & E & <-). exists m. split; [reflexivity|]. apply filter_In. split; [exact I|]. subst b. apply Bool.eqb_reflx.
Qed.
Lemma about_in b n ms m : In m (about b n ms) <-> In m ms /\ bif (m_species m) = b /\ m_name m = n.
Proof. unfold about. rewrite filter_In, Bool.andb_true_iff, text_eqb_eq. split; intros (I & E & F); (split; [exact I|]); split; try assumption; [now apply Bool.eqb_prop|subst b; apply Bool.eqb_reflx]. Qed.
Lemma look_map b ms n : forall l, look n (map (entry b ms) l) = if existsb (text_eqb n) l then Some (snd (entry b ms n)) else None.
Proof.
  induction l as [|x l IH]; [reflexivity|]. cbn [map look existsb entry]. fold (entry b ms x). rewrite IH. destruct (text_eqb x n) eqn:E.
  - apply text_eqb_eq in E. subst x. now rewrite (proj2 (text_eqb_eq n n) eq_refl).
  - assert (F : text_eqb n x = false) by (apply Bool.not_true_iff_false; intros F; apply text_eqb_eq in F; subst; rewrite (proj2 (text_eqb_eq x x) eq_refl) in E; discriminate). now rewrite F.
Qed.
Lemma about_snoc b n ms m : about b n (ms ++ [m]) = about b n ms ++ (if Bool.eqb (bif (m_species m)) b && text_eqb (m_name m) n then [m] else []).
Proof. unfold about. now rewrite filter_app. Qed.
Lemma table_other b ms m : bif (m_species m) <> b -> table b (ms ++ [m]) = table b ms.
Proof.
  intros N0. assert (E : Bool.eqb (bif (m_species m)) b = false) by (apply Bool.not_true_iff_false; intros X; apply Bool.eqb_prop in X; contradiction). unfold table, names. rewrite filter_app. cbn [filter]. rewrite E, app_nil_r. apply map_ext. intros n. unfold entry. now rewrite about_snoc, E, app_nil_r.
Qed.
Lemma step_iff s n fs ms d : coherent ms -> ensure_in s n fs (table (bif s) ms) = Ok d <-> (forall m, In m ms -> bif (m_species m) = bif s -> m_name m = n -> m_species m = s) /\ d = table (bif s) (ms ++ [(s, n, fs)]).
Proof.
  intros CO. unfold ensure_in. unfold table at 1. rewrite look_map. set (b := bif s).
  assert (NM : names b (ms ++ [(s, n, fs)]) = if existsb (text_eqb n) (names b ms) then names b ms else names b ms ++ [n]).
  { unfold names. rewrite filter_app, map_app. cbn [filter]. unfold m_species at 2. cbn [fst]. unfold b at 2. rewrite Bool.eqb_reflx. cbn [map]. change (m_name (s, n, fs)) with n. rewrite uniq_snoc. assert (X : forall l, existsb (text_eqb n) (uniq l) = existsb (text_eqb n) l) by (intros l; apply Bool.eq_iff_eq_true; rewrite !exists_iff; apply uniq_in). now rewrite X. }
  assert (OTH : forall x, x <> n -> entry b (ms ++ [(s, n, fs)]) x = entry b ms x).
  { intros x NX. unfold entry. rewrite about_snoc. change (m_name (s, n, fs)) with n. assert (F : text_eqb n x = false) by (apply Bool.not_true_iff_false; intros F; apply text_eqb_eq in F; congruence). now rewrite F, Bool.andb_false_r, app_nil_r. }
  assert (AB : about b n (ms ++ [(s, n, fs)]) = about b n ms ++ [(s, n, fs)]) by (rewrite about_snoc; unfold m_species, m_name; cbn [fst snd]; unfold b at 2; now rewrite Bool.eqb_reflx, (proj2 (text_eqb_eq n n) eq_refl)).
  destruct (existsb (text_eqb n) (names b ms)) eqn:EX.
  - apply exists_iff, names_in in EX as (m0 & I0 & B0 & N0). cbn [entry snd l_name l_species]. rewrite (proj2 (text_eqb_eq n n) eq_refl). cbn [assert_ bind].
    destruct (about b n ms) as [|m1 l1] eqn:A1; [exfalso; assert (X : In m0 (about b n ms)) by (now apply about_in); rewrite A1 in X; destruct X|].
    assert (I1 : In m1 ms /\ bif (m_species m1) = b /\ m_name m1 = n) by (apply about_in; rewrite A1; now left). destruct I1 as (I1 & B1 & N1).
    assert (TB : add_header n fs (table b ms) = table b (ms ++ [(s, n, fs)])).
    { unfold table. rewrite NM. unfold add_header. rewrite map_map. apply map_ext. intros x. destruct (text_eqb (fst (entry b ms x)) n) eqn:E; cbn [entry fst] in E.
      - apply text_eqb_eq in E. subst x. unfold entry. cbn [fst snd l_name l_kind l_species l_headers]. rewrite AB, A1. cbn [app]. rewrite app_comm_cons, flat_map_app. cbn [flat_map snd]. now rewrite app_nil_r.
      - symmetry. apply OTH. intros ->. rewrite (proj2 (text_eqb_eq n n) eq_refl) in E. discriminate. }
    split.
    + intros E. apply bind_ok in E as ([] & E1 & E2). apply ok_inj in E2. subst d. split; [|exact TB]. destruct (text_eqb (m_species m1) s) eqn:S1; [|discriminate]. apply text_eqb_eq in S1. intros m I B N2. rewrite <- S1. apply CO; auto; congruence.
    + intros (SP & ->). rewrite (proj2 (text_eqb_eq _ _) (SP m1 I1 B1 N1)). cbn [assert_ bind]. now rewrite TB.
  - assert (NI : ~ In n (names b ms)) by (rewrite <- exists_iff; congruence).
    assert (A0 : about b n ms = []). { destruct (about b n ms) as [|m l] eqn:A; [reflexivity|]. exfalso. assert (I : In m (about b n ms)) by (rewrite A; now left). apply about_in in I as (I & B & M). apply NI, names_in. eauto. }
    assert (TB : table b ms ++ [(n, mkRalg n (kind_of s) s fs)] = table b (ms ++ [(s, n, fs)])).
    { unfold table. rewrite NM, map_app. f_equal; [apply map_ext_in; intros x I; symmetry; apply OTH; intros ->; contradiction|]. cbn [map]. unfold entry. rewrite AB, A0. cbn [app flat_map snd]. rewrite app_nil_r. unfold kind_of. rewrite bif_iff. reflexivity. }
    split.
    + intros E. apply ok_inj in E. subst d. split; [|exact TB]. intros m I B M. exfalso. apply NI, names_in. eauto.
    + intros (_ & ->). now rewrite TB.
Qed.
Definition reg_of (ms : list mention) : registry := mkReg (table true ms) (table false ms).
Lemma coherent_snoc ms m : coherent (ms ++ [m]) <-> coherent ms /\ forall m', In m' ms -> bif (m_species m') = bif (m_species m) -> m_name m' = m_name m -> m_species m' = m_species m.
Proof.
  unfold coherent. split.
  - intros H. split; intros; apply H; try assumption; apply in_or_app; auto. right. now left.
  - intros (H & K) x y I J B N0. apply in_app_iff in I as [I|[<-|[]]]; apply in_app_iff in J as [J|[<-|[]]]; [now apply H|now apply K|symmetry; apply K; congruence|reflexivity].
Qed.
Lemma ensure_step s n fs ms r : coherent ms -> ensure_alg s n fs (reg_of ms) = Ok r <-> coherent (ms ++ [(s, n, fs)]) /\ r = reg_of (ms ++ [(s, n, fs)]).
Proof.
  intros CO. unfold ensure_alg. rewrite bif_iff, coherent_snoc. change (m_species (s, n, fs)) with s. change (m_name (s, n, fs)) with n. assert (ST := fun d => step_iff s n fs ms d CO). unfold reg_of. cbn [g_bif g_op]. destruct (bif s) eqn:B.
  - rewrite (table_other false) by (unfold m_species; cbn [fst]; congruence). split.
    + intros E. apply bind_ok in E as (d & E1 & E2). apply ok_inj in E2. subst r. apply ST in E1 as (SP & ->). auto.
    + intros ((_ & SP) & ->). rewrite (proj2 (ST _) (conj SP eq_refl)). reflexivity.
  - rewrite (table_other true) by (unfold m_species; cbn [fst]; congruence). split.
    + intros E. apply bind_ok in E as (d & E1 & E2). apply ok_inj in E2. subst r. apply ST in E1 as (SP & ->). auto.
    + intros ((_ & SP) & ->). rewrite (proj2 (ST _) (conj SP eq_refl)). reflexivity.
Qed.
Lemma act_iff a ms r : coherent ms -> act a (reg_of ms) = Ok r <-> exists m, mentions a m /\ coherent (ms ++ [m]) /\ r = reg_of (ms ++ [m]).
Proof.
  intros CO. destruct a as [s n|h]; cbn [act].
  - rewrite (ensure_step s n [] ms r CO). split; [intros (A & B); exists (s, n, []); split; [constructor|auto]|]. intros (m & M & A & B). inversion M; subst. auto.
  - unfold make. split.
    + intros E. apply bind_ok in E as (f & F & E). apply C106_finish in F. apply (ensure_step _ _ _ _ _ CO) in E. exists (f_species f, f_name f, [f]). split; [now constructor|exact E].
    + intros (m & M & A). inversion M as [|h' f F]; subst. apply C106_finish in F. rewrite F. cbn [bind]. now apply ensure_step.
Qed.
Lemma run_iff : forall l ms r, coherent ms -> run l (reg_of ms) = Ok r <-> exists ms', Forall2 mentions l ms' /\ coherent (ms ++ ms') /\ r = reg_of (ms ++ ms').
Proof.
  induction l as [|a l IH]; intros ms r CO; cbn [run].
  - split; [intros E; apply ok_inj in E; subst; exists []; rewrite app_nil_r; auto|]. intros (ms' & F & _ & ->). inversion F. now rewrite app_nil_r.
  - split.
    + intros E. apply bind_ok in E as (r1 & E1 & E2). apply (act_iff _ _ _ CO) in E1 as (m & M & C1 & ->). apply (IH _ _ C1) in E2 as (ms' & F & C2 & ->). exists (m :: ms'). rewrite <- !app_assoc in *. cbn [app] in *. auto.
    + intros (ms' & F & C & ->). inversion F as [|? m ? ms1 M F']; subst. assert (C1 : coherent (ms ++ [m])) by (intros x y I J; apply C; rewrite in_app_iff in *; cbn [In] in *; tauto). rewrite (proj2 (act_iff a ms _ CO) (ex_intro _ m (conj M (conj C1 eq_refl)))). cbn [bind]. apply (IH _ _ C1). exists ms1. rewrite <- !app_assoc. cbn [app]. auto.
Qed.
(* Whatever is done: it goes well exactly if each header can be finished and no name is used for two species of functions, or of operations; and then the registry has every name once, with all headers of that name. *)
Theorem C106_run : forall l r, run l new_registry = Ok r <-> exists ms, Forall2 mentions l ms /\ coherent ms /\ r = reg_of ms.
Proof. intros l r. apply (run_iff l [] r). intros m m' []. Qed.
Theorem C106_fails : forall l r e, run l r = Err e -> e = AssertionError.
Proof.
  assert (EN : forall s n fs r e, ensure_alg s n fs r = Err e -> e = AssertionError).
  { assert (X : forall s n fs d e, ensure_in s n fs d = Err e -> e = AssertionError).
    { intros s n fs d e. unfold ensure_in. destruct (look n d) as [a|]; [|discriminate]. destruct (text_eqb (l_name a) n); cbn [assert_ bind]; [|congruence]. destruct (text_eqb (l_species a) s); cbn [assert_ bind]; [discriminate|congruence]. }
    intros s n fs r e. unfold ensure_alg. destruct (is_prefix _ s); (destruct (ensure_in s n fs _) as [d|e'] eqn:E; cbn [bind]; [discriminate|]); intros [= <-]; exact (X _ _ _ _ _ E). }
  assert (FI : forall h e, finish h = Err e -> e = AssertionError).
  { intros h e. unfold finish, bare_name. destruct (is_prefix _ (r_name h)); [destruct (dfn_name (r_name h)); cbn [bind]; [|congruence]|cbn [bind]]; (destruct (r_params h); [|congruence]); destruct (rest_ok l); cbn [assert_ bind]; congruence. }
  induction l as [|a l IH]; intros r e; cbn [run]; [discriminate|]. destruct (act a r) as [r'|e'] eqn:A; cbn [bind]; [apply IH|]. intros [= <-]. destruct a as [s n|h]; cbn [act] in A; [exact (EN _ _ _ _ _ A)|]. unfold make in A. destruct (finish h) as [f|e''] eqn:F; cbn [bind] in A; [exact (EN _ _ _ _ _ A)|]. injection A as <-. exact (FI _ _ F).
Qed.
Print Assumptions C106_run.
Print Assumptions C106_fails.
(* so every header made is in just one algorithm, that of its own name and species *)
Theorem C106_home : forall l r h, run l new_registry = Ok r -> In (Make h) l -> exists f, finished h f /\
  exists n a, In (n, a) (if bif (r_species h) then g_bif r else g_op r) /\ In f (l_headers a) /\ l_name a = n /\ n = f_name f /\ l_species a = r_species h.
Proof.
  intros l r h E I. apply C106_run in E as (ms & F & CO & ->). assert (M : exists m, In m ms /\ mentions (Make h) m).
  { clear CO. induction F as [|a m l ms M F IH]; [destruct I|]. destruct I as [->|I]; [exists m; split; [now left|exact M]|]. destruct (IH I) as (m' & J & K). exists m'. split; [now right|exact K]. }
  destruct M as (m & IM & M). inversion M as [|h' f FI]; subst. exists f. split; [exact FI|]. assert (SP : f_species f = r_species h) by (now inversion FI).
  set (b := bif (r_species h)). set (n := f_name f). assert (IA : In (f_species f, f_name f, [f]) (about b n ms)) by (apply about_in; split; [exact IM|]; unfold m_species, m_name; cbn [fst snd]; rewrite SP; auto).
  exists n, (snd (entry b ms n)). assert (IE : In (n, snd (entry b ms n)) (table b ms)). { unfold table. apply in_map_iff. exists n. split; [reflexivity|]. apply names_in. exists (f_species f, f_name f, [f]). split; [exact IM|]. unfold m_species, m_name. cbn [fst snd]. rewrite SP. auto. }
  split; [unfold reg_of; cbn [g_bif g_op]; now destruct b|]. cbn [entry snd l_headers l_name l_species]. split; [apply in_flat_map; exists (f_species f, f_name f, [f]); split; [exact IA|now left]|]. split; [reflexivity|]. split; [reflexivity|].
  destruct (about b n ms) as [|m1 l1] eqn:A; [destruct IA|]. assert (I1 : In m1 (about b n ms)) by (rewrite A; now left). apply about_in in I1 as (I1 & B1 & N1). rewrite <- SP. change (f_species f) with (m_species (f_species f, f_name f, [f])). apply CO; try assumption. unfold m_species at 2. cbn [fst]. rewrite SP. exact B1.
Qed.
Print Assumptions C106_home.

(* ------------------------------------------------------------------ *)
(* the report *)
Section Reporting.
  Variable defns : nat -> list nat.
  Definition listing (e : text * ralg) : list hline := AlgLine (fst e) (l_species (snd e)) (length (l_headers (snd e))) :: map (fun f => HeaderLine (f_id f) (length (defns (f_id f)))) (l_headers (snd e)).
  Definition in_order (d d' : list (text * ralg)) : Prop := Permutation d' d /\ Sorted (fun x y => text_leb (fst x) (fst y) = true) d'.
  Definition own (d : list (text * ralg)) : Prop := forall n a f p, In (n, a) d -> In f (l_headers a) -> In p (defns (f_id f)) -> p = f_id f.
  (* After any run the report is written exactly if the definitions under a header say that they belong to it: by name, operations first. *)
  Lemma alg_lines_iff k d ls : (forall n a, In (n, a) d -> l_name a = n /\ l_kind a = k /\ forall f, In f (l_headers a) -> f_name f = n /\ f_species f = l_species a) ->
    alg_lines defns k d = Ok ls <-> own d /\ ls = flat_map listing d.
  Proof.
    assert (SUM : forall fs z, fold_left (fun n f => n + length (defns (f_id f))) fs z = z + length (flat_map (fun f => defns (f_id f)) fs)) by (induction fs as [|f fs IHf]; intros z; cbn [fold_left flat_map]; [cbn; lia|rewrite IHf, app_length; lia]).
    assert (HL : forall n s fs ls, (forall f, In f fs -> f_name f = n /\ f_species f = s) -> header_lines defns n s fs = Ok ls <-> (forall f p, In f fs -> In p (defns (f_id f)) -> p = f_id f) /\ ls = map (fun f => HeaderLine (f_id f) (length (defns (f_id f)))) fs).
    { intros n s. induction fs as [|f fs IHf]; intros ls' H; cbn [header_lines map].
      - split; [intros E; apply ok_inj in E; subst; split; [intros f p []|reflexivity]|]. intros (_ & ->). reflexivity.
      - destruct (H f (or_introl eq_refl)) as (-> & ->). rewrite !(proj2 (text_eqb_eq _ _) eq_refl). cbn [assert_ bind]. destruct (forallb _ _) eqn:Q; cbn [assert_ bind].
        + rewrite forallb_forall in Q. split.
          * intros E. apply bind_ok in E as (l1 & E1 & E2). apply ok_inj in E2. subst ls'. apply IHf in E1 as (A & ->); [|intros g J; apply H; now right]. split; [|reflexivity]. intros g p [<-|J] P; [now apply Nat.eqb_eq, Q|now apply (A g)].
          * intros (A & ->). assert (R : header_lines defns n s fs = Ok (map (fun f => HeaderLine (f_id f) (length (defns (f_id f)))) fs)) by (apply (IHf _ (fun g J => H g (or_intror J))); split; [intros g p J; apply A; now right|reflexivity]). now rewrite R.
        + split; [discriminate|]. intros (A & _). exfalso. apply Bool.not_true_iff_false in Q. apply Q. apply forallb_forall. intros p P. apply Nat.eqb_eq. now apply (A f p (or_introl eq_refl)). }
    revert ls. induction d as [|(n, a) d IH]; intros ls H; cbn [alg_lines flat_map].
    - split; [intros E; apply ok_inj in E; subst; split; [intros n a f p []|reflexivity]|]. intros (_ & ->). reflexivity.
    - destruct (H n a (or_introl eq_refl)) as (N0 & K0 & F0). rewrite (proj2 (text_eqb_eq _ _) N0), (proj2 (text_eqb_eq _ _) K0). cbn [assert_ bind]. assert (SM : (defns_via_headers defns (l_headers a) =? length (all_definitions defns a)) = true) by (apply Nat.eqb_eq; unfold defns_via_headers, all_definitions; now rewrite SUM).
      assert (HL' := fun l => HL n (l_species a) (l_headers a) l F0). assert (IH' := fun l => IH l (fun n' a' I => H n' a' (or_intror I))). split.
      + intros E. apply bind_ok in E as (h1 & E1 & E). rewrite SM in E. cbn [assert_ bind] in E. apply bind_ok in E as (l1 & E2 & E). apply ok_inj in E. subst ls. apply HL' in E1 as (A & ->). apply IH' in E2 as (B & ->). split; [|unfold listing; cbn [fst snd app]; now rewrite N0]. intros n' a' f p [[= <- <-]|I] J P; [now apply A|now apply (B n' a')].
      + intros (B & ->). assert (R1 := proj2 (HL' _) (conj (fun f p J P => B n a f p (or_introl eq_refl) J P) eq_refl)). rewrite R1. cbn [bind]. rewrite SM. cbn [assert_ bind]. assert (R2 := proj2 (IH' _) (conj (fun n' a' f p I => B n' a' f p (or_intror I)) eq_refl)). rewrite R2. cbn [bind]. unfold listing at 1. cbn [fst snd app]. now rewrite N0.
  Qed.
  Lemma table_good l ms b : Forall2 mentions l ms -> coherent ms -> forall n a, In (n, a) (table b ms) -> l_name a = n /\ l_kind a = (if b then tx "bif" else tx "op") /\ forall f, In f (l_headers a) -> f_name f = n /\ f_species f = l_species a.
  Proof.
    intros F CO n a I. unfold table in I. apply in_map_iff in I as (x & E & I). unfold entry in E. injection E as <- <-. cbn [l_name l_kind l_species l_headers]. split; [reflexivity|]. split; [reflexivity|].
    intros f J. apply in_flat_map in J as (m & M & J). assert (M' := M). apply about_in in M as (M & B & N0). assert (X : m_species m = f_species f /\ m_name m = f_name f).
    { clear - F M J. induction F as [|c y l ms K F IH]; [destruct M|]. destruct M as [<-|M]; [|now apply IH]. inversion K; subst; cbn [snd] in J; [destruct J|]. destruct J as [<-|[]]. auto. }
    destruct X as (X & Y). split; [congruence|]. destruct (about b x ms) as [|m1 l1] eqn:A; [destruct M'|]. assert (I1 : In m1 (about b x ms)) by (rewrite A; now left). apply about_in in I1 as (I1 & B1 & N1). rewrite <- X. apply CO; auto; congruence.
  Qed.
  Lemma by_key_order d : in_order d (by_key d).
  Proof.
    split; [apply isort_perm|]. unfold by_key. induction d as [|x d IH]; cbn [isort]; [constructor|]. revert IH. generalize (isort (fun x y : text * ralg => text_leb (fst x) (fst y)) d). clear d. intros l. induction l as [|y l IHl]; intros S0; cbn [insert]; [repeat constructor|]. inversion S0 as [|? ? S1 H1]; subst. destruct (text_leb (fst x) (fst y)) eqn:E.
    - constructor; [constructor; assumption|]. constructor. exact E.
    - assert (E' : text_leb (fst y) (fst x) = true) by (destruct (text_leb_total (fst x) (fst y)) as [X|X]; [congruence|exact X]). specialize (IHl S1). constructor; [exact IHl|]. destruct l as [|z l]; cbn [insert]; [now constructor|]. destruct (text_leb (fst x) (fst z)); constructor; [exact E'|]. now inversion H1.
  Qed.
  Lemma order_one d a b : in_order d a -> in_order d b -> NoDup (map fst a) -> a = b.
  Proof.
    intros (PA & SA) (PB & SB) ND. assert (P : Permutation a b) by (now rewrite PA, PB). clear PA PB d.
    assert (TR : forall x y z : text * ralg, text_leb (fst x) (fst y) = true -> text_leb (fst y) (fst z) = true -> text_leb (fst x) (fst z) = true) by (intros x y z; apply text_leb_trans).
    apply Sorted_StronglySorted in SA; [|exact TR]. apply Sorted_StronglySorted in SB; [|exact TR]. revert b P SB. induction a as [|x a IH]; intros b P SB; [apply Permutation_nil in P; now subst|].
    destruct b as [|y b]; [symmetry in P; apply Permutation_nil in P; discriminate|]. inversion SA as [|? ? SA' FA]; subst. inversion SB as [|? ? SB' FB]; subst. rewrite Forall_forall in FA, FB. cbn [map] in ND. inversion ND as [|? ? NI ND']; subst.
    assert (E : x = y).
    { assert (I : In x (y :: b)) by (eapply Permutation_in; [exact P|now left]). assert (J : In y (x :: a)) by (eapply Permutation_in; [symmetry; exact P|now left]). destruct I as [->|I]; [reflexivity|]. destruct J as [->|J]; [reflexivity|]. exfalso. apply NI. assert (K : fst x = fst y) by (apply text_leb_antisym; auto). rewrite K. now apply in_map. }
    subst y. f_equal. apply IH; auto. now apply Permutation_cons_inv in P.
  Qed.
  Theorem C106_report : forall l r ls, run l new_registry = Ok r -> write_header_info defns r = Ok ls <->
    own (g_op r) /\ own (g_bif r) /\ exists os bs, in_order (g_op r) os /\ in_order (g_bif r) bs /\ NoDup (map fst os) /\ NoDup (map fst bs) /\
      ls = [Kind (tx "op")] ++ flat_map listing os ++ [Kind (tx "bif")] ++ flat_map listing bs.
  Proof.
    intros l r ls E. apply C106_run in E as (ms & F & CO & ->). unfold write_header_info, reg_of. cbn [g_op g_bif].
    assert (P : forall b, Permutation (by_key (table b ms)) (table b ms)) by (intros b; apply isort_perm).
    assert (OW : forall b, own (by_key (table b ms)) <-> own (table b ms)) by (intros b; unfold own; split; intros H n a f p I; apply (H n a f p); (eapply Permutation_in; [|exact I]); [symmetry|]; apply P).
    assert (AL : forall (b : bool) (k : text) (ls' : list hline), k = (if b then tx "bif" else tx "op") -> alg_lines defns k (by_key (table b ms)) = Ok ls' <-> own (table b ms) /\ ls' = flat_map listing (by_key (table b ms))).
    { intros b k ls' K. rewrite <- OW. apply alg_lines_iff. intros n a I. subst k. apply (table_good l ms b F CO). eapply Permutation_in; [apply P|exact I]. }
    assert (ND : forall b, NoDup (map fst (by_key (table b ms)))). { intros b. eapply Permutation_NoDup; [apply Permutation_map; symmetry; apply P|]. unfold table. rewrite map_map. cbn [entry fst]. rewrite map_id. apply uniq_nodup. }
    split.
    - intros E. apply bind_ok in E as (a & A & E). apply bind_ok in E as (b & B & E). apply ok_inj in E. subst ls. apply (AL false) in A as (A & ->); [|reflexivity]. apply (AL true) in B as (B & ->); [|reflexivity]. split; [exact A|]. split; [exact B|]. exists (by_key (table false ms)), (by_key (table true ms)). repeat split; try apply by_key_order; try apply ND.
    - intros (A & B & os & bs & O1 & O2 & N1 & N2 & ->). rewrite (order_one _ _ _ O1 (by_key_order _) N1), (order_one _ _ _ O2 (by_key_order _) N2). rewrite (proj2 (AL false (tx "op") _ eq_refl) (conj A eq_refl)). cbn [bind]. rewrite (proj2 (AL true (tx "bif") _ eq_refl) (conj B eq_refl)). reflexivity.
  Qed.
End Reporting.
Print Assumptions C106_report.

(* ------------------------------------------------------------------ *)
(* examples *)
Definition ex_h1 := mkHdr 1 (tx "op: singular") (tx "ToNumber") (Some [mkRP (tx "_a_") [] (tx "unknown")]) [tx "!OP converts its argument."].
Definition ex_h2 := mkHdr 2 (tx "bif: value") (tx "<dfn id=x>max</dfn>") (Some [mkRP (tx "_v_") [] (tx "unknown"); mkRP (tx "_args_") (tx "...") (tx "unknown")]) [tx "It returns"; tx "what !FUNC finds."].
Definition ex_h3 := mkHdr 3 (tx "op: singular") (tx "ToNumber") (Some []) [].
Definition ex_f2 := mkFhdr 2 (tx "bif: value") (tx "<dfn id=x>max</dfn>") (tx "max") [mkRP (tx "_v_") [] (tx "an ECMAScript language value"); mkRP (tx "_args_") (tx "...") (tx "a List of ECMAScript language values")] (tx "returns what This function finds.").
Example ex_C106_finish : finish ex_h2 = Ok ex_f2 /\ finish (mkHdr 4 (tx "op: singular") (tx "<b>x</b>") (Some []) []) = Err AssertionError /\ finish (mkHdr 4 (tx "op: singular") (tx "x") None []) = Err AssertionError /\
  finish (mkHdr 4 (tx "op: singular") (tx "x") (Some [mkRP (tx "_a_") (tx "...") []; mkRP (tx "_b_") (tx "...") []]) []) = Err AssertionError.
Proof. vm_compute. auto. Qed.
Definition ex_acts := [Make ex_h1; Ensure (tx "op: singular") (tx "Foo"); Make ex_h2; Make ex_h3].
Example ex_C106_run : exists r, run ex_acts new_registry = Ok r /\ map fst (g_op r) = [tx "ToNumber"; tx "Foo"] /\ map fst (g_bif r) = [tx "max"] /\ map (fun e => map f_id (l_headers (snd e))) (g_op r) = [[1; 3]; []] /\
  write_header_info (fun i => if i =? 3 then [3; 3] else []) r = Ok [Kind (tx "op"); AlgLine (tx "Foo") (tx "op: singular") 0; AlgLine (tx "ToNumber") (tx "op: singular") 2; HeaderLine 1 0; HeaderLine 3 2; Kind (tx "bif"); AlgLine (tx "max") (tx "bif: value") 1; HeaderLine 2 0] /\
  write_header_info (fun i => if i =? 3 then [1] else []) r = Err AssertionError.
Proof. eexists. split; [vm_compute; reflexivity|]. vm_compute. auto 10. Qed.
(* two species of operations may not share a name; an operation and a function may *)
Example ex_C106_clash : run [Make ex_h1; Ensure (tx "op: discriminated by type") (tx "ToNumber")] new_registry = Err AssertionError /\ exists r, run [Make ex_h1; Ensure (tx "bif: value") (tx "ToNumber")] new_registry = Ok r.
Proof. split; [vm_compute; reflexivity|]. eexists. vm_compute. reflexivity. Qed.
