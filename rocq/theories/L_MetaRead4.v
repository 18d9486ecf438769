(* The goals of the metagrammar read what has been written (C66): productions and the whole content. *)
From Coq Require Import Ascii String.
From Verif Require Import M_Base M_HTML M_Meta L_Base L_Meta L_MetaRx L_MetaFwd L_MetaRead L_MetaRead2 L_MetaRead3.
Open Scope string_scope.
Open Scope nat_scope.
Open Scope list_scope.
Notation length := Datatypes.length.

Section Read.
Variable uniword : N -> bool.
Notation first_match := (first_match uniword).
Notation no_match := (no_match uniword).
Notation wordb := (wordb uniword).
Variables (t : text) (e : nat).
Notation run d goal p i := (snd (attempt uniword metagrammar t e d goal p i)).
Notation seq d args p i := (snd (attempt_seq (attempt uniword metagrammar t e d) args p i)).
Notation reads := (reads uniword t e).

Lemma opt_none : forall d goal args p i q j cs, mget metagrammar goal = Some (POpt, RNone, args) ->
  seq d args p i = Ok (inl (q, j, cs)) -> run (S d) goal p i = Ok (Some (q, j, None)).
Proof. intros d goal args p i q j cs G H. rewrite (run_opt _ _ _ _ _ _ _ _ _ G). unfold attempt_opt. rewrite snd_wbind, H. reflexivity. Qed.
Lemma opt_none_no : forall d goal args p i j, mget metagrammar goal = Some (POpt, RNone, args) ->
  seq d args p i = Ok (inr j) -> run (S d) goal p i = Ok (Some (p, j, None)).
Proof. intros d goal args p i j G H. rewrite (run_opt _ _ _ _ _ _ _ _ _ G). unfold attempt_opt. rewrite snd_wbind, H. reflexivity. Qed.

(* the left-hand side *)
Lemma read_left : forall d p i lhs ps n rest, 4 <= d -> wf_left uniword lhs ps n -> at_ t p (w_left lhs ps n ++ rest) -> stops (N.eqb 58) rest ->
  exists g c, is_gnt t g lhs ps /\ leaf t c "COLONS" (repeat 58%N n) [] /\
  (forall args q j cs, seq d args (p + length (w_left lhs ps n)) i = Ok (inl (q, j, cs)) ->
     seq d ("GNT" :: " " :: "COLONS" :: args) p i = Ok (inl (q, j, g :: c :: cs))) /\
  (forall args j, seq d args (p + length (w_left lhs ps n)) i = Ok (inr j) -> seq d ("GNT" :: " " :: "COLONS" :: args) p i = Ok (inr j)).
Proof.
  intros d p i lhs ps n rest D [Wn [Wp Wc]] A St. unfold w_left in *.
  rewrite app_assoc in A |- *. rewrite <- app_assoc in A. pose proof (at_app _ _ _ _ A) as A1. at_assoc A1. pose proof (at_app _ _ _ _ A1) as A2.
  destruct (read_gnt uniword t e d p i lhs ps ((tx " " ++ repeat 58%N n) ++ rest) ltac:(lia) Wn Wp eq_refl eq_refl A) as [g [E R]].
  assert (Q : p + length ((lhs ++ w_opt w_params ps) ++ tx " " ++ repeat 58%N n) = p + length (lhs ++ w_opt w_params ps) + length (tx " ") + length (repeat 58%N n)).
  { rewrite (app_length (lhs ++ w_opt w_params ps)), (app_length (tx " ")). unfold text. lia. }
  rewrite Q. clear Q.
  assert (Es : run d " " (p + length (lhs ++ w_opt w_params ps)) i = Ok (Some (p + length (lhs ++ w_opt w_params ps) + length (tx " "), i, None))).
  { clear A. lit. }
  assert (Ec : run d "COLONS" (p + length (lhs ++ w_opt w_params ps) + length (tx " ")) i =
    Ok (Some (p + length (lhs ++ w_opt w_params ps) + length (tx " ") + length (repeat 58%N n), i,
      Some (GNode "COLONS" (p + length (lhs ++ w_opt w_params ps) + length (tx " ")) (p + length (lhs ++ w_opt w_params ps) + length (tx " ") + length (repeat 58%N n)) [] [])))).
  { clear A A1. hit. apply fm_colons; assumption. }
  exists g. eexists. split; [exact R|]. split; [apply (leaf_node t "COLONS" _ _ _ [] A2)|]. split.
  - intros args q j cs H.
    match goal with |- _ = Ok (inl (_, _, g :: ?c :: cs)) => change (g :: c :: cs) with (opt_list (Some g) ++ opt_list None ++ opt_list (Some c) ++ cs) end.
    eapply seq_ok; [exact E|]. eapply seq_ok; [exact Es|]. eapply seq_ok; [exact Ec|exact H].
  - intros args j H. eapply seq_later; [exact E|]. eapply seq_later; [exact Es|]. eapply seq_later; [exact Ec|exact H].
Qed.

Lemma left_no_space : forall lhs ps n r, wf_left uniword lhs ps n -> no_space (w_left lhs ps n ++ r).
Proof.
  intros lhs ps n r [[[c [w [-> [U _]]]]|[[w [-> _]]| ->]] _]; try exact eq_refl. unfold no_space, w_left. cbn [app stops]. clear - U. nbool.
Qed.

Lemma left_no_slash : forall lhs ps n r, wf_left uniword lhs ps n -> no_match (rx_of "// emu-format ignore") (w_left lhs ps n ++ r).
Proof.
  intros lhs ps n r [W _]. unfold w_left. rewrite <- app_assoc. destruct (nt_start uniword lhs ((w_opt w_params ps ++ tx " " ++ repeat 58%N n) ++ r) W) as [c [s [-> [_ [_ H]]]]].
  match goal with |- no_match ?r _ => let r' := eval vm_compute in r in change (no_match r' (c :: s)) end.
  apply nm_seq. apply nm_set. cbn [stops]. nbool.
Qed.

(* the first two goals of MULTILINE_PRODUCTION *)
Lemma read_comment : forall d p k (cm : bool) lhs ps n rest, 2 <= d -> 1 <= k -> Nat.Even k -> wf_left uniword lhs ps n ->
  at_ t p (w_comment k cm ++ nl k ++ w_left lhs ps n ++ rest) ->
  run d "OPTIONAL_COMMENT_LINE" p (Some (Z.of_nat k)) = Ok (Some (p + length (w_comment k cm), Some (Z.of_nat k), None)).
Proof.
  intros d p k cm lhs ps n rest D K Ev W A. deeper d. destruct cm; cbn [w_comment] in *.
  - at_assoc A. pose proof (at_app _ _ _ _ A) as A1. rewrite app_length, Nat.add_assoc. eapply opt_none with (cs := opt_list None ++ opt_list None ++ []); [reflexivity|].
    eapply seq_ok; [eapply read_nlai; [lia|exact K|exact Ev| |exact A]; exact eq_refl|]. clear A. eapply seq_ok; [lit|apply seq_nil].
  - cbn [app length] in *. rewrite Nat.add_0_r. pose proof (at_app _ _ _ _ A) as A1. eapply opt_none_no; [reflexivity|].
    eapply seq_later; [eapply read_nlai; [lia|exact K|exact Ev| |exact A]; apply left_no_space; exact W|]. apply seq_no.
    eapply lit_miss; [reflexivity|reflexivity|reflexivity|lia|exact A1|apply left_no_slash; exact W].
Qed.

(* what a node of a production stands for, before it is decorated *)
Definition is_prod_node (m : gnode) (x : gprod) : Prop :=
  exists g c r, g_children m = [g; c; r] /\
  match x with
  | Lines _ lhs ps n rs =>
      g_kind m = "MULTILINE_PRODUCTION" /\ is_gnt t g lhs ps /\ leaf t c "COLONS" (repeat 58%N n) [] /\ is_lines t r rs
  | LinesOneOf _ lhs ps n ls =>
      g_kind m = "MULTILINE_PRODUCTION" /\ is_gnt t g lhs ps /\ leaf t c "COLONS" (repeat 58%N n) [] /\
      g_kind r = "MULTILINE_ONE_OF" /\ exists l, g_children r = [l] /\ is_tok_lines t l ls
  | OneLine lhs ps n b =>
      g_kind m = "ONELINE_PRODUCTION" /\ is_gnt t g lhs ps /\ leaf t c "COLONS" (repeat 58%N n) [] /\ is_body t r b
  | OneLineOneOf lhs ps n l =>
      g_kind m = "ONELINE_PRODUCTION" /\ is_gnt t g lhs ps /\ leaf t c "COLONS" (repeat 58%N n) [] /\
      g_kind r = "ONELINE_ONE_OF" /\ exists l', g_children r = [l'] /\ is_toks t l' l
  end.

Definition w_line (x : gprod) : text :=
  match x with
  | OneLine lhs ps n b => w_oneline lhs ps n (w_body b)
  | OneLineOneOf lhs ps n l => w_oneline lhs ps n (tx "one of " ++ w_toks l)
  | _ => []
  end.
Definition on_a_line (x : gprod) : Prop := match x with OneLine _ _ _ _ | OneLineOneOf _ _ _ _ => True | _ => False end.
Definition line_end (s : text) : Prop := exists r, s = 10%N :: r \/ s = 60%N :: r.

Lemma line_body_end : forall s, line_end s -> body_end s.
Proof. intros s [r [-> | -> ]]; exists r; auto. Qed.

(* a body does not begin with an o *)
Lemma body_no_o : forall b r, wf_body uniword b -> stops (N.eqb 111) (w_body b ++ r).
Proof.
  intros [lo hi|n| | |l] r W; try exact eq_refl. cbn [w_body wf_body] in *. inversion W as [|? ? Wx _]; subst. unfold sep_by. rewrite <- app_assoc.
  destruct (fst l) as [[n ps|w|n] o|c]; cbn [w_item w_symbol wf_item wf_symbol] in *; try exact eq_refl.
  - destruct Wx as [Wn _]. rewrite <- !app_assoc. destruct Wn as [[c [w [-> [U _]]]]|[[w [-> _]]| ->]]; try exact eq_refl.
    cbn [app stops]. clear - U. nbool.
  - destruct c; exact eq_refl.
Qed.

Lemma read_oneline : forall d p i x rest, 13 <= d -> on_a_line x -> wf_prod uniword x -> clear_prod x -> line_end rest ->
  at_ t p (w_line x ++ rest) -> reads d "ONELINE_PRODUCTION" p i (w_line x) is_prod_node x.
Proof.
  intros d p i x rest D O W Cl En A. deeper d.
  destruct x as [| |lhs ps n b|lhs ps n l]; try contradiction; cbn [wf_prod clear_prod w_line] in *; destruct W as [Wl Wb]; unfold L_MetaRead.reads, w_oneline in *; at_assoc A;
    pose proof (at_app _ _ _ _ A) as A1; pose proof (at_app _ _ _ _ A1) as A2;
    destruct (read_left d p i lhs ps n _ ltac:(lia) Wl A eq_refl) as [g [c [Rg [Rc [Hs _]]]]].
  - destruct (read_body uniword t e (pred d) _ i b rest ltac:(lia) Wb Cl (line_body_end _ En) A2) as [m [E R]].
    eexists. split.
    + rewrite !app_length, !Nat.add_assoc. eapply cat_node; [reflexivity|]. eapply Hs.
      eapply seq_ok; [clear A; lit|]. eapply seq_ok; [|apply seq_nil]. deeper d. alt "ONELINE_R".
      apply alts_miss; [|apply alts_hit; exact E]. deeper d. eapply cat_no; [reflexivity|]. apply seq_no.
      eapply lit_miss; [reflexivity|reflexivity|vm_compute; reflexivity|lia|exact A2|]. apply nm_seq. apply nm_set.
      pose proof (body_no_o b rest Wb) as No. destruct (w_body b ++ rest) as [|ch s]; [exact I|]. cbn [stops] in *. clear - No. nbool.
    + exists g, c, m. split; [reflexivity|]. split; [reflexivity|]. auto.
  - pose proof (at_app _ _ _ _ A2) as A3.
    destruct (read_toks uniword t e (pred (pred d)) _ i l rest ltac:(lia) Wb En A3) as [m [E R]].
    eexists. split.
    + rewrite !app_length, !Nat.add_assoc. eapply cat_node; [reflexivity|]. eapply Hs.
      eapply seq_ok; [clear A; lit|]. eapply seq_ok; [|apply seq_nil]. deeper d. alt "ONELINE_R".
      apply alts_hit. deeper d. eapply cat_node; [reflexivity|]. eapply seq_ok; [clear A A1; lit|]. eapply seq_ok; [exact E|apply seq_nil].
    + eexists. eexists. eexists. split; [reflexivity|]. split; [reflexivity|]. split; [exact Rg|]. split; [exact Rc|]. split; [reflexivity|].
      eexists. split; [reflexivity|exact R].
Qed.

Definition is_multi (x : gprod) : Prop := match x with Lines _ _ _ _ _ | LinesOneOf _ _ _ _ _ => True | _ => False end.

Lemma read_multi : forall d p k x rest, 15 <= d -> 1 <= k -> Nat.Even k -> is_multi x -> wf_prod uniword x -> clear_prod x ->
  block_end (k + 2) rest -> at_ t p (w_prod k x ++ rest) ->
  reads d "MULTILINE_PRODUCTION" p (Some (Z.of_nat k)) (w_prod k x) is_prod_node x.
Proof.
  intros d p k x rest D K Ev M W Cl En A. deeper d. unfold L_MetaRead.reads.
  destruct x as [cm lhs ps n rs|cm lhs ps n ls| |]; try contradiction; cbn [wf_prod clear_prod w_prod] in *; destruct W as [Wl Wb]; at_assoc A;
    pose proof (at_app _ _ _ _ A) as A1; pose proof (at_app _ _ _ _ A1) as A2; pose proof (at_app _ _ _ _ A2) as A3;
    pose proof (read_comment d p k cm lhs ps n _ ltac:(lia) K Ev Wl A) as Ec;
    pose proof (read_nlai uniword t e d _ k _ ltac:(lia) K Ev (left_no_space lhs ps n _ Wl) A1) as En1;
    destruct (read_left d (p + length (w_comment k cm) + length (nl k)) (Some (Z.of_nat k)) lhs ps n _ ltac:(lia) Wl A2 eq_refl) as [g [c [Rg [Rc [Hs _]]]]].
  - destruct (read_lines uniword t e (pred d) _ k rs rest ltac:(lia) Ev Wb Cl En A3) as [m [E R]].
    eexists. split.
    + rewrite !app_length, !Nat.add_assoc. eapply cat_node; [reflexivity|].
      eapply seq_ok; [exact Ec|]. eapply seq_ok; [exact En1|]. eapply Hs.
      eapply seq_ok; [|apply seq_nil]. deeper d. alt "MULTILINE_R". apply alts_miss; [|apply alts_hit; exact E].
      deeper d. eapply cat_no; [reflexivity|]. apply seq_no. miss.
    + eexists. eexists. eexists. split; [reflexivity|]. split; [reflexivity|]. auto.
  - pose proof (at_app _ _ _ _ A3) as A4. pose proof (at_app _ _ _ _ A4) as A5. pose proof (at_app _ _ _ _ A5) as A6.
    assert (K2 : 1 <= k + 2) by lia.
    destruct (read_tok_lines uniword t e (pred (pred d)) _ (k + 2) ls rest ltac:(lia) K2 (even2 _ Ev) Wb En A5) as [m [E R]].
    eexists. split.
    + rewrite !app_length, !Nat.add_assoc. eapply cat_node; [reflexivity|].
      eapply seq_ok; [exact Ec|]. eapply seq_ok; [exact En1|]. eapply Hs.
      eapply seq_ok; [|apply seq_nil]. deeper d. alt "MULTILINE_R". apply alts_hit.
      deeper d. eapply cat_node; [reflexivity|].
      eapply seq_ok; [eapply lit_hit with (w := tx " one of"); [reflexivity|reflexivity|reflexivity|reflexivity|lia|exact A3|exists []; exists []; reflexivity]|].
      eapply seq_ok; [rewrite (read_shift uniword t e d _ _ (Z.of_nat k) "INDENT" 2 ltac:(lia) (or_introl (conj eq_refl eq_refl)) A4), indent_eq; reflexivity|].
      eapply seq_ok; [eapply read_nlai with (rest := sep_by (nl (k + 2)) w_toks ls ++ rest); [lia|exact K2|apply even2; exact Ev|exact eq_refl|exact A4]|].
      eapply seq_ok; [exact E|].
      eapply seq_ok; [rewrite (read_shift uniword t e d _ _ (Z.of_nat (k + 2)) "OUTDENT" (-2) ltac:(lia) (or_intror (conj eq_refl eq_refl)) A6), outdent_eq; reflexivity|].
      apply seq_nil.
    + eexists. eexists. eexists. split; [reflexivity|]. split; [reflexivity|]. split; [exact Rg|]. split; [exact Rc|]. split; [reflexivity|].
      eexists. split; [reflexivity|exact R].
Qed.

Lemma block_end_mono : forall k j s, k <= j -> block_end k s -> block_end j s.
Proof. intros k j s H [B|[m [r [-> [H1 [H2 H3]]]]]]; [left; exact B|]. right. exists m, r. repeat split; auto. lia. Qed.

Lemma block_line_end : forall k s, block_end k s -> line_end s.
Proof. intros k s B. destruct (block_end_nl _ _ B) as [r ->]. exists r. auto. Qed.

Lemma w_prod_line : forall k x, on_a_line x -> w_prod k x = nl k ++ w_line x.
Proof. intros k [| | |] O; try contradiction; reflexivity. Qed.

Lemma read_prod : forall d p k x rest, 16 <= d -> 1 <= k -> Nat.Even k -> wf_prod uniword x -> clear_prod x ->
  block_end k rest -> at_ t p (w_prod k x ++ rest) ->
  reads d "BLOCK_PRODUCTION" p (Some (Z.of_nat k)) (w_prod k x) is_prod_node x.
Proof.
  intros d p k x rest D K Ev W Cl En A. deeper d. unfold L_MetaRead.reads. alt "BLOCK_PRODUCTION".
  assert (O : is_multi x \/ on_a_line x) by (destruct x; cbn; auto).
  destruct O as [O|O].
  - destruct (read_multi d p k x rest ltac:(lia) K Ev O W Cl (block_end_mono k (k + 2) rest ltac:(lia) En) A) as [n [E R]]. exists n. split; [|exact R]. apply alts_hit. exact E.
  - rewrite (w_prod_line _ _ O) in *. pose proof A as A0. at_assoc A0. pose proof (at_app _ _ _ _ A0) as A1.
    destruct (read_oneline (pred d) _ (Some (Z.of_nat k)) x rest ltac:(lia) O W Cl (block_line_end _ _ En) A1) as [n [E R]].
    exists n. split; [|exact R]. apply alts_miss.
    + deeper d. eapply cat_no; [reflexivity|].
      assert (Lx : exists lhs ps m s, wf_left uniword lhs ps m /\ w_line x = w_left lhs ps m ++ tx " " ++ s /\
                   (stops (N.eqb 111) (s ++ rest) \/ exists s', s = tx "one of `" ++ s')).
      { destruct x as [| |lhs ps m b|lhs ps m [w l]]; try contradiction; cbn [wf_prod] in W; destruct W as [Wl Wb]; exists lhs, ps, m; eexists; (split; [exact Wl|]); (split; [reflexivity|]).
        - left. apply body_no_o. exact Wb.
        - right. eexists. unfold w_toks, sep_by, w_tok. cbn [fst]. rewrite <- !app_assoc. cbn. reflexivity. }
      destruct Lx as [lhs [ps [m [s [Wl [El Es]]]]]]. rewrite El in *. at_assoc A1. at_assoc A0.
      pose proof (at_app _ _ _ _ A1) as A2.
      eapply seq_later; [pose proof (read_comment d p k false lhs ps m _ ltac:(lia) K Ev Wl A0) as Ec; cbn [w_comment length] in Ec; rewrite Nat.add_0_r in Ec; exact Ec|].
      eapply seq_later; [eapply read_nlai; [lia|exact K|exact Ev|apply left_no_space; exact Wl|exact A0]|].
      destruct (read_left d (p + length (nl k)) (Some (Z.of_nat k)) lhs ps m _ ltac:(lia) Wl A1 eq_refl) as [g [c [_ [_ [_ Hno]]]]].
      eapply Hno. apply seq_no. deeper d. alt "MULTILINE_R". apply alts_miss.
      * deeper d. destruct Es as [Es|[s' ->]]; (eapply cat_no; [reflexivity|]).
        -- apply seq_no. eapply lit_miss; [reflexivity|reflexivity|vm_compute; reflexivity|lia|exact A2|]. cbn [tx app N_of_ascii].
           apply nm_seq_set; [reflexivity|]. apply nm_seq. apply nm_set. destruct (s ++ rest) as [|ch s']; [exact I|]. cbn [stops] in *. clear - Es. nbool.
        -- assert (A3 : at_ t (p + length (nl k) + length (w_left lhs ps m)) (tx " one of" ++ tx " `" ++ s' ++ rest)). { at_assoc A2. exact A2. }
           pose proof (at_app _ _ _ _ A3) as A4. eapply seq_later; [clear A A0 A1 A2; lit|].
           eapply seq_later; [rewrite (read_shift uniword t e d _ _ (Z.of_nat k) "INDENT" 2 ltac:(lia) (or_introl (conj eq_refl eq_refl)) A4); reflexivity|].
           apply seq_no. clear A A0 A1 A2 A3. miss.
      * apply alts_miss; [|apply alts_nil]. deeper d. deeper d. eapply list_no_elem; [reflexivity|reflexivity| |].
        { rewrite (read_shift uniword t e (S d) _ _ (Z.of_nat k) "INDENT" 2 ltac:(lia) (or_introl (conj eq_refl eq_refl)) A2); reflexivity. }
        eapply cat_no; [reflexivity|]. apply seq_no. clear A A0 A1. miss.
    + apply alts_hit. rewrite app_length, Nat.add_assoc. deeper d. eapply cat_up; [reflexivity|].
      change [n] with (opt_list None ++ opt_list (Some n) ++ []). eapply seq_ok.
      * eapply read_nlai; [lia|exact K|exact Ev| |exact A0].
        destruct x as [| |lhs ps m b|lhs ps m l]; try contradiction; cbn [wf_prod w_line] in *; unfold w_oneline; rewrite <- app_assoc; apply left_no_space; apply W.
      * eapply seq_ok; [exact E|apply seq_nil].
Qed.

(* no production at the end of a block *)
Lemma no_prod : forall d p k j r, 4 <= d -> 1 <= j -> j < k -> Nat.Even j -> at_ t p (nl j ++ 60%N :: r) -> run d "BLOCK_PRODUCTION" p (Some (Z.of_nat k)) = Ok None.
Proof.
  intros d p k j r D J1 J2 J3 A. deeper d. alt "BLOCK_PRODUCTION".
  assert (N0 : forall d, 1 <= d -> run d "NLAI" p (Some (Z.of_nat k)) = Ok None).
  { intros d0 D0. eapply no_nlai; [exact D0| |exact A]. right. exists j, r. repeat split; auto. }
  apply alts_miss; [|apply alts_miss; [|apply alts_nil]].
  - deeper d. eapply cat_no; [reflexivity|]. eapply seq_later.
    + deeper d. eapply opt_none_no; [reflexivity|]. apply seq_no. apply N0. lia.
    + apply seq_no. apply N0. lia.
  - deeper d. eapply cat_no; [reflexivity|]. apply seq_no. apply N0. lia.
Qed.

Lemma no_prod_char : forall d p i c r, 4 <= d -> c <> 10%N -> at_ t p (c :: r) -> run d "BLOCK_PRODUCTION" p i = Ok None.
Proof.
  intros d p i c r D H A. deeper d. alt "BLOCK_PRODUCTION".
  assert (N0 : forall d, 1 <= d -> run d "NLAI" p i = Ok None).
  { intros d0 D0. eapply re_miss with (r := rx_nlai); [reflexivity|reflexivity|exact D0|exact A|]. apply nm_seq. apply nm_set. cbn [stops]. clear - H. nbool. }
  apply alts_miss; [|apply alts_miss; [|apply alts_nil]].
  - deeper d. eapply cat_no; [reflexivity|]. eapply seq_later.
    + deeper d. eapply opt_none_no; [reflexivity|]. apply seq_no. apply N0. lia.
    + apply seq_no. apply N0. lia.
  - deeper d. eapply cat_no; [reflexivity|]. apply seq_no. apply N0. lia.
Qed.

Definition is_block (n : gnode) (g : ne gprod) : Prop := g_kind n = "BLOCK_PRODUCTIONS" /\ Forall2 is_prod_node (g_children n) (ne_list g).

Lemma prod_nl : forall k x, exists r, w_prod k x = nl k ++ r.
Proof. intros k [[] ? ? ? ?|[] ? ? ? ?| |]; eexists; cbn [w_prod w_comment]; rewrite <- ?app_assoc; reflexivity. Qed.

Lemma read_block : forall d p i g rest, 17 <= d -> 1 <= i -> Nat.Even i ->
  Forall (wf_prod uniword) (ne_list g) -> Forall clear_prod (ne_list g) ->
  at_ t p (sep_by [10%N] (w_prod (i + 2)) g ++ nl i ++ 60%N :: rest) ->
  reads d "BLOCK_PRODUCTIONS" p (Some (Z.of_nat (i + 2))) (sep_by [10%N] (w_prod (i + 2)) g) is_block g.
Proof.
  intros d p i g rest D I0 Ev W Cl A. deeper d. rewrite <- joinr_ne in *.
  edestruct (list_plain uniword t e gprod (w_prod (i + 2)) is_prod_node (fun x r => (wf_prod uniword x /\ clear_prod x) /\ block_end (i + 2) r) d "BLOCK_PRODUCTIONS" RNode "BLOCK_PRODUCTION" "\n" (Some (Z.of_nat (i + 2)))
      (fst g) (map (fun x => ([10%N], x)) (snd g)) p (nl i ++ 60%N :: rest)) as [ns [E F]]; [reflexivity| | | | | |exact A|].
  - intros x p0 r [[Wx Cx] Er] Ax. eapply read_prod; eauto; [lia|lia|apply even2; exact Ev].
  - intros s y p0 r I Ax. apply in_map_iff in I. destruct I as [z [Ez _]]. inversion Ez; subst. exists None.
    eapply lit_hit with (w := [10%N]); [reflexivity|reflexivity|reflexivity|reflexivity|lia|exact Ax|]. exists []. exists []. reflexivity.
  - assert (H : forall l x, Forall (fun x => wf_prod uniword x /\ clear_prod x) (x :: l) ->
        chain (fun x r => (wf_prod uniword x /\ clear_prod x) /\ block_end (i + 2) r) (w_prod (i + 2)) x (map (fun x => ([10%N], x)) l) (nl i ++ 60%N :: rest)).
    { induction l as [|y l IH]; intros x Hx; inversion Hx as [|? ? Hx1 Hx2]; subst; cbn [map chain].
      - split; [exact Hx1|]. right. exists i, rest. repeat split; auto. lia.
      - split; [split; [exact Hx1|]|apply IH; exact Hx2]. left. unfold joinr. destruct (prod_nl (i + 2) y) as [r ->]. eexists. reflexivity. }
    apply H. unfold ne_list in W, Cl. clear - W Cl. rewrite Forall_forall in *. intros r I. split; [apply W|apply Cl]; exact I.
  - intros p0 Ax. right. assert (Ax' : at_ t p0 ([10%N] ++ repeat 32%N i ++ 60%N :: rest)) by exact Ax.
    exists (p0 + length [10%N]), None. split.
    + eapply lit_hit with (w := [10%N]); [reflexivity|reflexivity|reflexivity|reflexivity|lia|exact Ax'|]. exists []. exists []. reflexivity.
    + apply at_app in Ax'. destruct i as [|i']; [lia|]. cbn [repeat app] in Ax'. eapply no_prod_char; [lia| |exact Ax']. discriminate.
  - intros y _. destruct (prod_nl (i + 2) y) as [r ->]. cbn. lia.
  - rewrite map_snd_pair in F. eexists. split; [exact E|]. split; [reflexivity|exact F].
Qed.

Lemma read_eoi : forall d p i, 1 <= d -> p = e -> p <= length t -> run d "EOI" p i = Ok (Some (p, i, None)).
Proof.
  intros d p i D E H. deeper d. cbn [attempt]. rewrite (eq_refl : mget metagrammar "EOI" = Some (PRe, RNone, [""])). unfold attempt_re.
  rewrite (re_match_hit uniword t "" REps p [] _ [] eq_refl (at_of_skipn _ _ H) (fm_eps uniword _)). rewrite Nat.add_0_r. cbn [String.eqb Ascii.eqb Bool.eqb].
  destruct (Nat.ltb_spec p e); [lia|]. reflexivity.
Qed.

Lemma read_content1 : forall d p i x rest, 14 <= d -> on_a_line x -> wf_prod uniword x -> clear_prod x -> line_end rest ->
  at_ t p (w_line x ++ rest) -> p + length (w_line x) = e -> reads d "EMU_GRAMMAR_CONTENT_1" p i (w_line x) is_prod_node x.
Proof.
  intros d p i x rest D O W Cl En A Ee. deeper d. destruct (read_oneline d p i x rest ltac:(lia) O W Cl En A) as [n [E R]]. exists n. split; [|exact R].
  eapply cat_up; [reflexivity|]. change [n] with (opt_list (Some n) ++ opt_list None ++ []). eapply seq_ok; [exact E|].
  eapply seq_ok; [apply read_eoi; [lia|exact Ee|]|apply seq_nil]. apply at_app in A. rewrite (at_length _ _ _ A). lia.
Qed.

Lemma read_content2 : forall d p i g rest, 18 <= d -> 1 <= i -> Nat.Even i ->
  Forall (wf_prod uniword) (ne_list g) -> Forall clear_prod (ne_list g) ->
  at_ t p (w_block i g ++ 60%N :: rest) -> p + length (w_block i g) = e ->
  reads d "EMU_GRAMMAR_CONTENT_2" p (Some (Z.of_nat i)) (w_block i g) is_block g.
Proof.
  intros d p i g rest D I0 Ev W Cl A Ee. deeper d. unfold w_block in *. at_assoc A. pose proof (at_app _ _ _ _ A) as A1. pose proof (at_app _ _ _ _ A1) as A2.
  destruct (read_block d p i g rest ltac:(lia) I0 Ev W Cl A) as [n [E R]]. exists n. split; [|exact R].
  rewrite app_length, Nat.add_assoc in Ee |- *. eapply cat_up; [reflexivity|].
  change [n] with (opt_list None ++ opt_list (Some n) ++ opt_list None ++ opt_list None ++ opt_list None ++ []).
  eapply seq_ok; [rewrite (read_shift uniword t e d _ _ (Z.of_nat i) "INDENT" 2 ltac:(lia) (or_introl (conj eq_refl eq_refl)) A), indent_eq; reflexivity|].
  eapply seq_ok; [exact E|].
  eapply seq_ok; [rewrite (read_shift uniword t e d _ _ (Z.of_nat (i + 2)) "OUTDENT" (-2) ltac:(lia) (or_intror (conj eq_refl eq_refl)) A1), outdent_eq; reflexivity|].
  eapply seq_ok; [eapply read_nlai; [lia|exact I0|exact Ev| |exact A1]; exact eq_refl|].
  eapply seq_ok; [apply read_eoi; [lia|exact Ee|rewrite (at_length _ _ _ A2); lia]|apply seq_nil].
Qed.
End Read.
