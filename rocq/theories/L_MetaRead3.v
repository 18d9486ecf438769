(* The goals of the metagrammar read what has been written (C66): constraints, items, right-hand sides,
   productions, the whole content. *)
From Coq Require Import Ascii String.
From Verif Require Import M_Base M_HTML M_Meta L_Base L_Meta L_MetaRx L_MetaFwd L_MetaRead L_MetaRead2.
Open Scope string_scope.
Open Scope nat_scope.
Open Scope list_scope.
Notation length := Datatypes.length.

Ltac alt G := rewrite (run_alt _ _ _ _ _ _ _ _ _ (eq_refl : mget metagrammar G = _)).
Ltac len := rewrite ?app_length; cbn [length tx]; unfold text in *; lia.

Section Read.
Variable uniword : N -> bool.
Notation first_match := (first_match uniword).
Notation no_match := (no_match uniword).
Notation set_has := (set_has uniword).
Notation wordb := (wordb uniword).
Variables (t : text) (e : nat).
Notation run d goal p i := (snd (attempt uniword metagrammar t e d goal p i)).
Notation reads := (reads uniword t e).

(* -------- constraints -------- *)

Definition constr_end (c : constr) (rest : text) : Prop :=
  match c with ButNotOneOf _ _ => excl_end rest | _ => ends rest end.

Lemma no_lookahead : forall d p i s, 3 <= d -> no_match (rx_of "\[lookahead ") s -> at_ t p s -> run d "LOOKAHEAD_CONSTRAINT" p i = Ok None.
Proof.
  intros d p i s D H A. deeper d. deeper d. alt "LOOKAHEAD_CONSTRAINT".
  apply alts_miss; [|apply alts_miss; [|apply alts_nil]]; (eapply cat_no; [reflexivity|]; apply seq_no;
    eapply lit_miss; [reflexivity|reflexivity|reflexivity|lia|exact A|exact H]).
Qed.

Lemma read_constr : forall d p i c rest, 8 <= d -> wf_constr uniword c -> constr_end c rest -> at_ t p (w_constr c ++ rest) ->
  reads d "RHS_CONSTRAINT" p i (w_constr c) (is_constr t) c.
Proof.
  intros d p i c rest D W En A. deeper d. unfold L_MetaRead.reads.
  assert (Say : forall kind gs cs, says t (GNode kind p (p + length (w_constr c)) gs cs) (w_constr c)).
  { intros kind gs cs. unfold says, g_text. cbn [g_start g_end]. apply (at_slice _ _ _ _ A). }
  alt "RHS_CONSTRAINT". destruct c as [neg ts|neg n|neg ss| |w|x|x l]; cbn [wf_constr constr_end] in *.
  - pose proof A as A0. cbn [w_constr] in A0. at_assoc A0.
    pose proof (at_app _ _ _ _ A0) as A1. pose proof (at_app _ _ _ _ A1) as A2. pose proof (at_app _ _ _ _ A2) as A3. pose proof (at_app _ _ _ _ A3) as A4.
    deeper d. deeper d.
    destruct (read_terms uniword t e d _ i ts (tx "]" ++ rest) ltac:(lia) W (ex_intro _ rest (or_introl eq_refl)) A3) as [n [E R]].
    eexists. split.
    + apply alts_hit. alt "LOOKAHEAD_CONSTRAINT". apply alts_hit.
      assert (Q : p + length (w_constr (LaSingle neg ts)) = p + length (tx "[lookahead ") + length (if neg then tx "!=" else tx "==") + length (tx " ") + length (w_terms ts) + length (tx "]")).
      { cbn [w_constr]. len. }
      rewrite Q. eapply cat_node; [reflexivity|]. eapply seq_ok; [clear A; lit|].
      eapply seq_ok; [eapply re_node with (w := if neg then tx "!=" else tx "=="); [reflexivity|reflexivity|reflexivity|lia|exact A1|destruct neg; exists []; reflexivity]|].
      eapply seq_ok; [lit|]. eapply seq_ok; [exact E|]. eapply seq_ok; [lit|]. apply seq_nil.
    + cbn [opt_list app]. split.
      * assert (Q : p + length (tx "[lookahead ") + length (if neg then tx "!=" else tx "==") + length (tx " ") + length (w_terms ts) + length (tx "]") = p + length (w_constr (LaSingle neg ts))) by (cbn [w_constr]; len).
        rewrite Q. apply Say.
      * split; [reflexivity|]. eexists. eexists. split; [reflexivity|]. split; [|exact R]. apply (leaf_node t _ _ _ _ _ A1).
  - pose proof A as A0. cbn [w_constr] in A0. at_assoc A0.
    pose proof (at_app _ _ _ _ A0) as A1. pose proof (at_app _ _ _ _ A1) as A2. pose proof (at_app _ _ _ _ A2) as A3. pose proof (at_app _ _ _ _ A3) as A4.
    deeper d. deeper d. deeper d.
    assert (Q : p + length (w_constr (LaNt neg n)) = p + length (tx "[lookahead ") + length (if neg then tx "&notin;" else tx "&isin;") + length (tx " ") + length n + length (tx "]")) by (cbn [w_constr]; len).
    eexists. split.
    + apply alts_hit. alt "LOOKAHEAD_CONSTRAINT". rewrite Q. apply alts_miss.
      { eapply cat_no; [reflexivity|]. eapply seq_later; [clear A; lit|]. apply seq_no. destruct neg; miss. }
      apply alts_hit. eapply cat_node; [reflexivity|]. eapply seq_ok; [clear A; lit|].
      eapply seq_ok; [eapply re_node with (w := if neg then tx "&notin;" else tx "&isin;"); [reflexivity|reflexivity|reflexivity|lia|exact A1|destruct neg; exists []; reflexivity]|].
      eapply seq_ok; [lit|]. eapply seq_ok.
      { alt "LAC_SET_OPERAND". apply alts_hit. eapply read_nt with (rest := tx "]" ++ rest); [lia|exact W|exact eq_refl|exact A3]. }
      eapply seq_ok; [lit|]. apply seq_nil.
    + cbn [opt_list app]. split; [rewrite <- Q; apply Say|].
      split; [reflexivity|]. eexists. eexists. split; [reflexivity|]. split; [apply (leaf_node t _ _ _ _ _ A1)|apply (leaf_node t _ _ _ _ _ A3)].
  - pose proof A as A0. cbn [w_constr] in A0. at_assoc A0.
    pose proof (at_app _ _ _ _ A0) as A1. pose proof (at_app _ _ _ _ A1) as A2. pose proof (at_app _ _ _ _ A2) as A3.
    assert (A3' : at_ t (p + length (tx "[lookahead ") + length (if neg then tx "&notin;" else tx "&isin;") + length (tx " ")) (w_set ss ++ tx "]" ++ rest)).
    { unfold w_set. rewrite <- !app_assoc. exact A3. }
    clear A3. pose proof (at_app _ _ _ _ A3') as A4.
    deeper d. deeper d. deeper d.
    destruct (read_set uniword t e d _ i ss _ ltac:(lia) W A3') as [n [E R]].
    assert (Q : p + length (w_constr (LaSet neg ss)) = p + length (tx "[lookahead ") + length (if neg then tx "&notin;" else tx "&isin;") + length (tx " ") + length (w_set ss) + length (tx "]")) by (cbn [w_constr]; unfold w_set; len).
    eexists. split.
    + apply alts_hit. alt "LOOKAHEAD_CONSTRAINT". rewrite Q. apply alts_miss.
      { eapply cat_no; [reflexivity|]. eapply seq_later; [clear A; lit|]. apply seq_no. destruct neg; miss. }
      apply alts_hit. eapply cat_node; [reflexivity|]. eapply seq_ok; [clear A; lit|].
      eapply seq_ok; [eapply re_node with (w := if neg then tx "&notin;" else tx "&isin;"); [reflexivity|reflexivity|reflexivity|lia|exact A1|destruct neg; exists []; reflexivity]|].
      eapply seq_ok; [lit|]. eapply seq_ok.
      { alt "LAC_SET_OPERAND". apply alts_miss; [miss|]. apply alts_hit. exact E. }
      eapply seq_ok; [lit|]. apply seq_nil.
    + cbn [opt_list app]. split; [rewrite <- Q; apply Say|].
      split; [reflexivity|]. eexists. eexists. split; [reflexivity|]. split; [apply (leaf_node t _ _ _ _ _ A1)|]. exact R.
  - eexists. split; [|split; [apply Say|split; reflexivity]].
    apply alts_miss; [eapply no_lookahead; [lia| |exact A]; exact eq_refl|]. apply alts_hit. eapply read_nlth; [lia|exact A].
  - destruct W as [N0 F]. eexists. split; [|split; [apply Say|split; [reflexivity|split; reflexivity]]].
    apply alts_miss; [eapply no_lookahead; [lia| |exact A]; exact eq_refl|]. apply alts_miss; [miss|]. apply alts_hit. hit.
    apply fm_butonly; assumption.
  - pose proof A as A0. cbn [w_constr] in A0. at_assoc A0. pose proof (at_app _ _ _ _ A0) as A1. deeper d.
    destruct (read_exclusion1 uniword t e d _ i x rest ltac:(lia) W (ends_word uniword _ En) A1) as [n [E R]].
    assert (Q : p + length (w_constr (ButNot x)) = p + length (tx "but not ") + length (w_excl x)) by (cbn [w_constr]; len).
    eexists. split.
    + apply alts_miss; [eapply no_lookahead; [lia| |exact A]; exact eq_refl|]. apply alts_miss; [miss|]. apply alts_miss; [miss|]. apply alts_hit.
      rewrite Q. eapply cat_node; [reflexivity|]. eapply seq_ok; [clear A; lit|]. eapply seq_ok; [exact E|apply seq_nil].
    + cbn [opt_list app]. split; [rewrite <- Q; apply Say|]. split; [reflexivity|]. eexists. split; [reflexivity|exact R].
  - destruct W as [Wx Wl]. pose proof A as A0. cbn [w_constr] in A0. rewrite <- app_assoc in A0.
    change (tx "one of " ++ w_excl x ++ _) with (tx "one of " ++ w_excls x l) in A0.
    pose proof (at_app _ _ _ _ A0) as A1. deeper d.
    destruct (read_exclusion uniword t e d _ i x l rest ltac:(lia) Wx Wl En A1) as [n [E R]].
    assert (Q : p + length (w_constr (ButNotOneOf x l)) = p + length (tx "but not ") + length (tx "one of " ++ w_excls x l)).
    { cbn [w_constr]. rewrite app_length, Nat.add_assoc. reflexivity. }
    eexists. split.
    + apply alts_miss; [eapply no_lookahead; [lia| |exact A]; exact eq_refl|]. apply alts_miss; [miss|]. apply alts_miss; [miss|]. apply alts_hit.
      rewrite Q. eapply cat_node; [reflexivity|]. eapply seq_ok; [clear A; lit|]. eapply seq_ok; [exact E|apply seq_nil].
    + cbn [opt_list app]. split; [rewrite <- Q; apply Say|]. split; [reflexivity|]. eexists. split; [reflexivity|exact R].
Qed.

(* -------- items -------- *)

Definition item_end (x : item) (rest : text) : Prop :=
  ends rest /\ match x with ICon c => constr_end c rest | _ => True end.

Lemma constr_start : forall c r, exists s, w_constr c ++ r = 91%N :: s \/ w_constr c ++ r = 98%N :: s.
Proof. intros c r. destruct c; eexists; ((left; reflexivity) || (right; reflexivity)). Qed.

Lemma no_symbol : forall d p i s, 3 <= d -> (exists r, s = 91 :: r \/ s = 98 :: r \/ s = 35 :: r)%N -> at_ t p s -> run d "RHS_SYMBOL" p i = Ok None.
Proof.
  intros d p i s D [r H] A. deeper d. alt "RHS_SYMBOL". deeper d.
  destruct H as [ -> |[ -> | -> ]]; (apply alts_miss; [eapply cat_no; [reflexivity|]; apply seq_no; miss|]; apply alts_miss; [miss|]; apply alts_miss; [miss|]; apply alts_nil).
Qed.

Lemma read_item : forall d p i x rest, 9 <= d -> wf_item uniword x -> item_end x rest -> at_ t p (w_item x ++ rest) ->
  reads d "RHS_ITEM" p i (w_item x) (is_item t) x.
Proof.
  intros d p i x rest D W [En Ec] A. deeper d. unfold L_MetaRead.reads. alt "RHS_ITEM". destruct x as [s o|c]; cbn [wf_item] in W.
  - destruct o.
    + pose proof A as A0. cbn [w_item] in A0. at_assoc A0. pose proof (at_app _ _ _ _ A0) as A1. deeper d.
      destruct (read_symbol uniword t e d p i s (tx "?" ++ rest) ltac:(lia) W eq_refl eq_refl A0) as [n [E R]].
      eexists. split.
      * cbn [w_item]. rewrite app_length, Nat.add_assoc. apply alts_hit. eapply cat_node; [reflexivity|]. eapply seq_ok; [exact E|]. eapply seq_ok; [lit|apply seq_nil].
      * cbn [opt_list app]. split; [reflexivity|]. split; [|eexists; split; [reflexivity|exact R]].
        unfold says, g_text. cbn [g_start g_end]. rewrite <- Nat.add_assoc, <- app_length. apply (at_slice _ _ _ _ A).
    + cbn [w_item] in *. rewrite app_nil_r in *. pose proof (at_app _ _ _ _ A) as A1.
      destruct (read_symbol uniword t e d p i s rest ltac:(lia) W (ends_word uniword _ En) (ends_bracket _ En) A) as [n [E R]].
      exists n. split; [|exact R]. apply alts_miss; [|apply alts_hit; exact E].
      deeper d. destruct (read_symbol uniword t e d p i s rest ltac:(lia) W (ends_word uniword _ En) (ends_bracket _ En) A) as [n' [E' _]].
      eapply cat_no; [reflexivity|]. eapply seq_later; [exact E'|]. apply seq_no.
      destruct En as [c [r [-> [ -> |[ -> | -> ]]]]]; miss.
  - cbn [w_item] in *. destruct (read_constr d p i c rest ltac:(lia) W Ec A) as [n [E R]]. exists n. split; [|exact R].
    assert (S0 : exists r, w_constr c ++ rest = 91%N :: r \/ w_constr c ++ rest = 98%N :: r \/ w_constr c ++ rest = 35%N :: r).
    { destruct (constr_start c rest) as [s [H|H]]; exists s; auto. }
    apply alts_miss. { deeper d. eapply cat_no; [reflexivity|]. apply seq_no. eapply no_symbol; [lia|exact S0|exact A]. }
    apply alts_miss; [eapply no_symbol; [lia|exact S0|exact A]|]. apply alts_hit. exact E.
Qed.

Lemma no_item : forall d p i r, 9 <= d -> at_ t p (35%N :: r) -> run d "RHS_ITEM" p i = Ok None.
Proof.
  intros d p i r D A. deeper d. alt "RHS_ITEM". deeper d. apply alts_miss.
  { eapply cat_no; [reflexivity|]. apply seq_no. eapply no_symbol; [lia|exists r; auto|exact A]. }
  apply alts_miss; [eapply no_symbol; [lia|exists r; auto|exact A]|]. apply alts_miss; [|apply alts_nil].
  alt "RHS_CONSTRAINT". apply alts_miss; [eapply no_lookahead; [lia| |exact A]; exact eq_refl|].
  apply alts_miss; [miss|]. apply alts_miss; [miss|]. apply alts_miss; [|apply alts_nil]. deeper d. eapply cat_no; [reflexivity|]. apply seq_no. miss.
Qed.

(* a right-hand side is followed by the end of the line, a tag, or a label *)
Definition body_end (s : text) : Prop := exists r, s = 10%N :: r \/ s = 60%N :: r \/ s = tx " #" ++ r.

Lemma body_end_ends : forall s, body_end s -> ends s.
Proof. intros s [r [-> |[ -> | -> ]]]; eexists; eexists; (split; [reflexivity|]); auto. Qed.

Lemma body_end_excl : forall s, body_end s -> excl_end s.
Proof.
  intros s B. split; [apply body_end_ends; exact B|]. intros q E. destruct B as [r [-> |[ -> | -> ]]]; inversion E; subst.
  split.
  - exists 35%N, r. repeat split; try reflexivity; discriminate.
  - intros q H. discriminate H.
Qed.

Lemma item_last : forall x s, body_end s -> item_end x s.
Proof.
  intros x s B. split; [apply body_end_ends; exact B|]. destruct x as [|c]; [exact I|]. destruct c; cbn; try (apply body_end_ends; exact B).
  apply body_end_excl. exact B.
Qed.

Lemma item_next : forall x y s, after_but_not x y -> wf_item uniword y -> item_end x (tx " " ++ w_item y ++ s).
Proof.
  intros x y s H Wy. assert (En : ends (tx " " ++ w_item y ++ s)) by (eexists; eexists; split; [reflexivity|auto]).
  split; [exact En|]. destruct x as [|c]; [exact I|]. destruct c as [neg ts|neg n|neg ss| |w|x|x l]; cbn [constr_end]; try exact En.
  split; [exact En|]. intros r E. inversion E; subst r. clear E. cbn [after_but_not] in H. destruct y as [[n ps|w|n] o|c]; [contradiction|contradiction| |].
  - split; [|intros q Hq; discriminate Hq]. eexists. eexists. split; [reflexivity|]. repeat split; try reflexivity; discriminate.
  - cbn [w_item]. split.
    + destruct (constr_start c s) as [r [-> | -> ]]; eexists; eexists; (split; [reflexivity|]); repeat split; try reflexivity; discriminate.
    + intros q Hq. destruct (constr_start c s) as [r [Er|Er]]; rewrite Er in Hq; discriminate Hq.
Qed.

Lemma item_long : forall x, wf_item uniword x -> 1 <= length (w_item x).
Proof.
  intros [[n ps|w|n] o|c] W; cbn [w_item w_symbol wf_item wf_symbol] in *; rewrite ?app_length.
  - pose proof (wf_nt_long uniword n (proj1 W)). lia.
  - pose proof (wf_tok_long w). lia.
  - unfold w_chr. len.
  - destruct c; cbn; lia.
Qed.

Lemma chain_items : forall l x rest, Forall (wf_item uniword) (x :: l) -> but_nots_end (x :: l) -> body_end rest ->
  chain (fun y r => wf_item uniword y /\ item_end y r) w_item x (map (fun y => (tx " ", y)) l) rest.
Proof.
  induction l as [|y l IH]; intros x rest W B En.
  - cbn. inversion W; subst. split; [assumption|apply item_last; exact En].
  - cbn [map chain]. inversion W as [|? ? Wx W']; subst. destruct B as [B1 B2]. split.
    + split; [exact Wx|]. inversion W'; subst. unfold joinr. rewrite <- app_assoc. apply item_next; assumption.
    + apply IH; assumption.
Qed.

Definition is_items (n : gnode) (l : ne item) : Prop := g_kind n = "RHS_ITEMS" /\ Forall2 (is_item t) (g_children n) (ne_list l).

Lemma read_items : forall d p i l rest, 10 <= d -> Forall (wf_item uniword) (ne_list l) -> but_nots_end (ne_list l) -> body_end rest ->
  at_ t p (sep_by (tx " ") w_item l ++ rest) -> reads d "RHS_ITEMS" p i (sep_by (tx " ") w_item l) is_items l.
Proof.
  intros d p i l rest D W B En A. deeper d. rewrite <- joinr_ne in *.
  edestruct (list_plain uniword t e item w_item (is_item t) (fun y r => wf_item uniword y /\ item_end y r) d "RHS_ITEMS" RNode "RHS_ITEM" " " i
      (fst l) (map (fun x => (tx " ", x)) (snd l)) p rest) as [ns [E F]]; [reflexivity| | | | | |exact A|].
  - intros x p0 r [Wx Ex] Ax. eapply read_item; eauto. lia.
  - intros s y p0 r I Ax. apply in_map_iff in I. destruct I as [z [Ez _]]. inversion Ez; subst. exists None. lit.
  - apply chain_items; assumption.
  - intros p0 Ax. destruct En as [r [-> |[ -> | -> ]]]; [left; miss|left; miss|].
    right. assert (Ax' : at_ t p0 (tx " " ++ tx "#" ++ r)) by exact Ax. exists (p0 + length (tx " ")), None. clear Ax. split; [lit|].
    eapply no_item; [lia|]. apply (at_app _ _ _ _ Ax').
  - intros y I. rewrite map_snd_pair in I. apply item_long. apply (Forall_in _ _ _ _ W I).
  - rewrite map_snd_pair in F. eexists. split; [exact E|]. split; [reflexivity|exact F].
Qed.

(* -------- right-hand sides -------- *)

Definition is_body (n : gnode) (b : body) : Prop :=
  match b with
  | BRange lo hi => leaf t n "U_RANGE" (w_body b) [lo; hi]
  | BProp x => leaf t n "U_PROP" (w_body b) [x]
  | BAny => leaf t n "U_ANY" (w_body b) []
  | BEmpty => leaf t n "EMPTY" (w_body b) []
  | BItems l => is_items n l
  end.

Definition rx_uany := Eval vm_compute in rx_of "&gt; any Unicode code point".
Definition rx_empty := Eval vm_compute in rx_of "\[empty\]".

Lemma nt_start : forall n r, wf_nt uniword n -> exists c s, n ++ r = c :: s /\ c <> 38%N /\ c <> 91%N /\ c <> 47%N.
Proof.
  intros n r [[c [w [-> [U _]]]]|[[w [-> _]]| ->]]; eexists; eexists; (split; [reflexivity|]); repeat split; try discriminate;
    intros ->; discriminate U.
Qed.

Lemma items_miss : forall x r, wf_item uniword x ->
  no_match rx_urange (w_item x ++ r) /\ no_match rx_uprop (w_item x ++ r) /\ no_match rx_uany (w_item x ++ r) /\ no_match rx_empty (w_item x ++ r).
Proof.
  intros [[n ps|w|n] o|c] r W; cbn [w_item w_symbol wf_item wf_symbol] in *.
  - destruct W as [W _]. rewrite <- !app_assoc. destruct (nt_start n (w_opt w_params ps ++ (if o then tx "?" else []) ++ r) W) as [c [s [-> [H1 [H2 H3]]]]].
    repeat split; apply nm_seq; apply nm_set; cbn [stops]; nbool.
  - repeat split; exact eq_refl.
  - repeat split; exact eq_refl.
  - destruct c; repeat split; exact eq_refl.
Qed.

Lemma read_body : forall d p i b rest, 11 <= d -> wf_body uniword b -> clear_body b -> body_end rest ->
  at_ t p (w_body b ++ rest) -> reads d "RHS_BODY" p i (w_body b) is_body b.
Proof.
  intros d p i b rest D W Cl En A. deeper d. unfold L_MetaRead.reads. alt "RHS_BODY".
  destruct b as [lo hi|n| | |l]; cbn [wf_body clear_body] in *.
  - destruct W as [[N1 F1] [N2 F2]]. eexists. split; [|apply (leaf_node t "U_RANGE" _ _ _ [lo; hi] A)].
    apply alts_hit. hit. apply fm_urange; auto. destruct En as [r [-> |[ -> | -> ]]]; exact eq_refl.
  - destruct W as [N1 F1]. eexists. split; [|apply (leaf_node t "U_PROP" _ _ _ [n] A)].
    apply alts_miss; [miss|]. apply alts_hit. hit. apply fm_uprop; auto.
  - eexists. split; [|apply (leaf_node t "U_ANY" _ _ _ [] A)].
    destruct En as [r [-> |[ -> | -> ]]]; (apply alts_miss; [miss|]; apply alts_miss; [miss|]; apply alts_hit; hit; exists []; reflexivity).
  - eexists. split; [|apply (leaf_node t "EMPTY" _ _ _ [] A)].
    do 3 (apply alts_miss; [miss|]). apply alts_hit. hit. exists []. reflexivity.
  - destruct (read_items d p i l rest ltac:(lia) W Cl En A) as [n [E R]]. exists n. split; [|exact R].
    pose proof A as A0. cbn [w_body] in A0. unfold sep_by in A0. rewrite <- app_assoc in A0.
    destruct (items_miss (fst l) (flat_map (fun x => tx " " ++ w_item x) (snd l) ++ rest)) as [M1 [M2 [M3 M4]]]; [inversion W; assumption|].
    apply alts_miss; [eapply re_miss with (r := rx_urange); [reflexivity|reflexivity|lia|exact A0|exact M1]|].
    apply alts_miss; [eapply re_miss with (r := rx_uprop); [reflexivity|reflexivity|lia|exact A0|exact M2]|].
    apply alts_miss; [eapply re_miss with (r := rx_uany); [reflexivity|reflexivity|lia|exact A0|exact M3]|].
    apply alts_miss; [eapply re_miss with (r := rx_empty); [reflexivity|reflexivity|lia|exact A0|exact M4]|].
    apply alts_hit. exact E.
Qed.

(* no guard is read where a right-hand side begins *)
Lemma no_guard : forall d p i b rest, 2 <= d -> wf_body uniword b -> at_ t p (w_body b ++ rest) -> run d "PARAMS" p i = Ok None.
Proof.
  intros d p i b rest D W A.
  assert (Br : forall s, at_ t p (tx "[" ++ s) -> no_match rx_param s -> run d "PARAMS" p i = Ok None).
  { intros s A' M. deeper d. pose proof (at_app _ _ _ _ A') as A1. clear A.
    eapply list_no_elem; [reflexivity|reflexivity|lit|]. eapply re_miss with (r := rx_param); [reflexivity|reflexivity|lia|exact A1|exact M]. }
  destruct b as [lo hi|n| | |l].
  - eapply no_params; [lia| |exact A]. exact eq_refl.
  - eapply no_params; [lia| |exact A]. exact eq_refl.
  - eapply no_params; [lia| |exact A]. exact eq_refl.
  - apply (Br (tx "empty]" ++ rest)); [exact A|exact eq_refl].
  - cbn [w_body wf_body] in *. unfold sep_by in A. rewrite <- app_assoc in A. inversion W as [|? ? Wx _]; subst.
    destruct (fst l) as [[n ps|w|n] o|c]; cbn [w_item w_symbol wf_item wf_symbol] in *.
    + destruct Wx as [Wn _]. at_assoc A.
      destruct (nt_start n (w_opt w_params ps ++ (if o then tx "?" else []) ++ flat_map (fun x : item => tx " " ++ w_item x) (snd l) ++ rest) Wn) as [c [s [E [_ [H _]]]]].
      rewrite E in A. eapply no_params; [lia| |exact A]. unfold no_bracket. cbn [stops]. clear - H. nbool.
    + eapply no_params; [lia| |exact A]. exact eq_refl.
    + eapply no_params; [lia| |exact A]. exact eq_refl.
    + destruct c as [neg ts|neg n|neg ss| |w|x|x l']; try (eapply Br; [exact A|exact eq_refl]); (eapply no_params; [lia| |exact A]; exact eq_refl).
Qed.

Definition is_opt_label (n : gnode) (o : option text) : Prop :=
  match o with Some l => leaf t n "LABEL" l [] | None => leaf t n "OMITTED_OPTIONAL" [] [] end.

Definition is_line (n : gnode) (r : rhs) : Prop :=
  g_kind n = "RHS_LINE" /\ exists g b l, g_children n = [g; b; l] /\ is_opt_params t g (r_guard r) /\ is_body b (r_body r) /\ is_opt_label l (r_label r).

(* -------- lines -------- *)

Definition no_space (s : text) : Prop := stops (N.eqb 32) s.
Definition rx_nlai := Eval vm_compute in rx_of "\n +".

Lemma match_nlai : forall p k rest, 1 <= k -> no_space rest -> at_ t p (nl k ++ rest) ->
  re_match uniword "\n +" t p = Ok (Some (p + length (nl k), [])).
Proof.
  intros p k rest K Ns A. eapply re_match_hit with (r := rx_nlai); [reflexivity|exact A|].
  unfold nl. cbn [app]. apply fm_seq_set; [reflexivity|]. apply fm_seq_eps. apply fm_plus.
  - destruct k; [lia|discriminate].
  - apply forallb_forall. intros c I. apply repeat_spec in I. subst c. reflexivity.
  - unfold no_space in Ns. destruct rest as [|c rest]; cbn [stops] in *; [exact I|]. nbool.
Qed.

Lemma nl_indent : forall p k, (Z.of_nat (p + length (nl k)) - Z.of_nat p - 1)%Z = Z.of_nat k.
Proof. intros p k. unfold nl. cbn [length]. rewrite repeat_length. lia. Qed.

Lemma even_mod : forall k, Nat.Even k -> (Z.of_nat k mod 2 =? 0)%Z = true.
Proof. intros k [m ->]. apply Z.eqb_eq. rewrite Nat2Z.inj_mul. replace (Z.of_nat 2) with 2%Z by reflexivity. rewrite Z.mul_comm. apply Z.mod_mul. lia. Qed.

Lemma read_nlai : forall d p k rest, 1 <= d -> 1 <= k -> Nat.Even k -> no_space rest -> at_ t p (nl k ++ rest) ->
  run d "NLAI" p (Some (Z.of_nat k)) = Ok (Some (p + length (nl k), Some (Z.of_nat k), None)).
Proof.
  intros d p k rest D K Ev Ns A. deeper d. cbn [attempt]. rewrite (eq_refl : mget metagrammar "NLAI" = Some (PRe, RNone, ["\n +"])).
  unfold attempt_re. rewrite (match_nlai _ _ _ K Ns A). rewrite nl_indent, (even_mod _ Ev). cbn [String.eqb Ascii.eqb Bool.eqb negb eqb_indent].
  rewrite Z.eqb_refl. reflexivity.
Qed.

Lemma no_nlai_indent : forall d p k i rest, 1 <= d -> 1 <= k -> Nat.Even k -> no_space rest -> i <> Some (Z.of_nat k) -> at_ t p (nl k ++ rest) ->
  run d "NLAI" p i = Ok None.
Proof.
  intros d p k i rest D K Ev Ns Ne A. deeper d. cbn [attempt]. rewrite (eq_refl : mget metagrammar "NLAI" = Some (PRe, RNone, ["\n +"])).
  unfold attempt_re. rewrite (match_nlai _ _ _ K Ns A). rewrite nl_indent, (even_mod _ Ev). cbn [String.eqb Ascii.eqb Bool.eqb negb eqb_indent].
  destruct i as [z|]; [|reflexivity]. destruct (Z.eqb_spec (Z.of_nat k) z); [congruence|]. reflexivity.
Qed.

Lemma body_no_space : forall b r, wf_body uniword b -> no_space (w_body b ++ r).
Proof.
  intros [lo hi|n| | |l] r W; try exact eq_refl. cbn [w_body wf_body] in *. inversion W as [|? ? Wx _]; subst. unfold sep_by. rewrite <- app_assoc.
  destruct (fst l) as [[n ps|w|n] o|c]; cbn [w_item w_symbol wf_item wf_symbol] in *; try exact eq_refl.
  - destruct Wx as [Wn _]. rewrite <- !app_assoc. destruct Wn as [[c [w [-> [U _]]]]|[[w [-> _]]| ->]]; try exact eq_refl.
    unfold no_space. cbn [app stops]. clear - U. nbool.
  - destruct c; exact eq_refl.
Qed.

Lemma read_line : forall d p k r rest, 12 <= d -> 1 <= k -> Nat.Even k -> wf_rhs uniword r -> clear_body (r_body r) ->
  (exists s, rest = 10%N :: s) -> at_ t p (w_rhs k r ++ rest) ->
  reads d "RHS_LINE" p (Some (Z.of_nat k)) (w_rhs k r) is_line r.
Proof.
  intros d p k [gu b la] rest D K Ev [Wg [Wb Wl]] Cl En A. cbn [r_guard r_body r_label] in *. deeper d. unfold L_MetaRead.reads.
  pose proof A as A0. unfold w_rhs in A0. cbn [r_guard r_body r_label] in A0. at_assoc A0. pose proof (at_app _ _ _ _ A0) as A1.
  pose proof (at_app _ _ _ _ A1) as A2. pose proof (at_app _ _ _ _ A2) as A3.
  set (i := Some (Z.of_nat k)). set (wg := w_opt (fun ps => w_params ps ++ tx " ") gu) in *. set (wl := w_opt (fun l => tx " " ++ l) la) in *.
  (* the guard *)
  assert (G : exists g, run d "OPTIONAL_GUARD" (p + length (nl k)) i = Ok (Some (p + length (nl k) + length wg, i, Some g)) /\ is_opt_params t g gu).
  { deeper d. destruct gu as [ps|].
    - unfold wg in A1 |- *. cbn [w_opt] in A1 |- *. at_assoc A1. pose proof (at_app _ _ _ _ A1) as A1'.
      destruct (read_params uniword t e d _ i ps _ ltac:(lia) (Wg _ eq_refl) A1) as [g [E R]]. exists g. split; [|exact R].
      rewrite app_length, Nat.add_assoc. eapply opt_up; [reflexivity|]. change [g] with (opt_list (Some g) ++ opt_list None ++ []).
      eapply seq_ok; [exact E|]. eapply seq_ok; [lit|apply seq_nil].
    - unfold wg in A1 |- *. cbn [w_opt app length] in A1 |- *. rewrite Nat.add_0_r. eexists. split.
      + eapply opt_up_no; [reflexivity|]. apply seq_no. eapply no_guard; [lia|exact Wb|exact A1].
      + unfold is_opt_params, leaf, says, g_text, slice. cbn. rewrite Nat.sub_diag. repeat split; reflexivity. }
  destruct G as [g [Eg Rg]].
  assert (Be : body_end (wl ++ rest)).
  { unfold wl. destruct la as [l|]; cbn [w_opt].
    - destruct (Wl l eq_refl) as [w [-> _]]. exists (w ++ rest). right. right. reflexivity.
    - destruct En as [s ->]. exists s. left. reflexivity. }
  destruct (read_body d _ i b _ ltac:(lia) Wb Cl Be A2) as [nb [Eb Rb]].
  assert (L : exists l, run d "OPTIONAL_LABEL" (p + length (nl k) + length wg + length (w_body b)) i = Ok (Some (p + length (nl k) + length wg + length (w_body b) + length wl, i, Some l)) /\ is_opt_label l la).
  { deeper d. destruct la as [l|].
    - unfold wl in A3 |- *. cbn [w_opt] in A3 |- *. at_assoc A3. pose proof (at_app _ _ _ _ A3) as A4. rewrite app_length, Nat.add_assoc.
      eexists. split; [|apply (leaf_node t "LABEL" _ _ _ [] A4)].
      eapply opt_up; [reflexivity|]. match goal with |- context [inl (_, _, [?n])] => change [n] with (opt_list None ++ opt_list (Some n) ++ []) end.
      eapply seq_ok; [lit|]. eapply seq_ok; [|apply seq_nil]. hit. apply fm_label; [apply Wl; reflexivity|]. destruct En as [s ->]. exact eq_refl.
    - unfold wl in A3 |- *. cbn [w_opt app length] in A3 |- *. rewrite Nat.add_0_r. eexists. split.
      + eapply opt_up_no; [reflexivity|]. apply seq_no. destruct En as [s ->]. miss.
      + unfold is_opt_label, leaf, says, g_text, slice. cbn. rewrite Nat.sub_diag. repeat split; reflexivity. }
  destruct L as [nl0 [El Rl]].
  assert (Q : p + length (w_rhs k {| r_guard := gu; r_body := b; r_label := la |}) = p + length (nl k) + length wg + length (w_body b) + length wl).
  { unfold w_rhs. cbn [r_guard r_body r_label]. fold wg. fold wl. rewrite !app_length. unfold text. lia. }
  rewrite Q. eexists. split.
  - eapply cat_node; [reflexivity|]. eapply seq_ok.
    { eapply read_nlai; [lia|exact K|exact Ev| |exact A0]. unfold wg. destruct gu; [exact eq_refl|]. apply body_no_space. exact Wb. }
    eapply seq_ok; [exact Eg|]. eapply seq_ok; [exact Eb|]. eapply seq_ok; [exact El|apply seq_nil].
  - cbn [opt_list app]. split; [reflexivity|]. exists g, nb, nl0. auto.
Qed.

(* a line of another indentation, or a blank line *)
Definition block_end (k : nat) (s : text) : Prop :=
  (exists r, s = 10%N :: 10%N :: r) \/ (exists j r, s = nl j ++ 60%N :: r /\ 1 <= j /\ j < k /\ Nat.Even j).

Lemma no_nlai : forall d p k s, 1 <= d -> block_end k s -> at_ t p s -> run d "NLAI" p (Some (Z.of_nat k)) = Ok None.
Proof.
  intros d p k s D [[r ->]|[j [r [-> [J1 [J2 J3]]]]]] A; [miss|].
  eapply no_nlai_indent; [exact D|exact J1|exact J3| | |exact A]; [exact eq_refl|]. intros E. inversion E. lia.
Qed.

Lemma no_line : forall d p k s, 2 <= d -> block_end k s -> at_ t p s -> run d "RHS_LINE" p (Some (Z.of_nat k)) = Ok None.
Proof. intros d p k s D B A. deeper d. eapply cat_no; [reflexivity|]. apply seq_no. eapply no_nlai; [lia|exact B|exact A]. Qed.

Lemma block_end_nl : forall k s, block_end k s -> exists r, s = 10%N :: r.
Proof. intros k s [[r ->]|[j [r [-> _]]]]; eexists; reflexivity. Qed.

Lemma read_shift : forall d p s k goal z, 1 <= d -> (goal = "INDENT" /\ z = 2%Z) \/ (goal = "OUTDENT" /\ z = (-2)%Z) -> at_ t p s ->
  run d goal p (Some k) = Ok (Some (p, Some (k + z)%Z, None)).
Proof.
  intros d p s k goal z D G A. deeper d. cbn [attempt].
  assert (M : re_match uniword "" t p = Ok (Some (p, []))).
  { rewrite (re_match_hit uniword t "" REps p [] s [] eq_refl A (fm_eps uniword s)). rewrite Nat.add_0_r. reflexivity. }
  destruct G as [[-> ->]|[-> ->]].
  - rewrite (eq_refl : mget metagrammar "INDENT" = Some (PRe, RNone, [""])). unfold attempt_re. rewrite M. reflexivity.
  - rewrite (eq_refl : mget metagrammar "OUTDENT" = Some (PRe, RNone, [""])). unfold attempt_re. rewrite M. reflexivity.
Qed.

Lemma indent_eq : forall k, (Z.of_nat k + 2)%Z = Z.of_nat (k + 2).
Proof. intros k. lia. Qed.
Lemma outdent_eq : forall k, (Z.of_nat (k + 2) + -2)%Z = Z.of_nat k.
Proof. intros k. lia. Qed.

Definition is_lines (n : gnode) (rs : ne rhs) : Prop := g_kind n = "MULTILINE_RHSS" /\ Forall2 is_line (g_children n) (ne_list rs).

Lemma rhs_long : forall k r, 1 <= length (w_rhs k r).
Proof. intros k r. unfold w_rhs, nl. cbn. lia. Qed.

Lemma flat_join : forall A (wr : A -> text) (l : ne A), flat_map wr (ne_list l) = joinr wr (fst l) (map (fun x => ([], x)) (snd l)).
Proof. intros A wr [x l]. unfold joinr, ne_list. cbn. f_equal. induction l as [|y l IH]; [reflexivity|]. cbn. rewrite IH. reflexivity. Qed.

Lemma even2 : forall k, Nat.Even k -> Nat.Even (k + 2).
Proof. intros k [m ->]. exists (m + 1). lia. Qed.

Lemma read_lines : forall d p k rs rest, 13 <= d -> Nat.Even k ->
  Forall (wf_rhs uniword) (ne_list rs) -> Forall (fun r => clear_body (r_body r)) (ne_list rs) ->
  block_end (k + 2) rest -> at_ t p (flat_map (w_rhs (k + 2)) (ne_list rs) ++ rest) ->
  reads d "MULTILINE_RHSS" p (Some (Z.of_nat k)) (flat_map (w_rhs (k + 2)) (ne_list rs)) is_lines rs.
Proof.
  intros d p k rs rest D Ev W Cl En A. deeper d. rewrite flat_join in *. pose proof (at_app _ _ _ _ A) as A1.
  edestruct (list_delim uniword t e rhs (w_rhs (k + 2)) is_line
      (fun r s => (wf_rhs uniword r /\ clear_body (r_body r)) /\ exists s', s = 10%N :: s')
      d "MULTILINE_RHSS" RNode "RHS_LINE" "" "INDENT" "OUTDENT" (Some (Z.of_nat k)) (Some (Z.of_nat (k + 2))) (fst rs) (map (fun x => ([], x)) (snd rs)) p)
    with (p0 := p) (rest := rest) (q := p + length (joinr (w_rhs (k + 2)) (fst rs) (map (fun x => ([], x)) (snd rs)))) as [ns [E F]];
    [reflexivity|reflexivity| | | | | | |exact A| |].
  - exists None. rewrite (read_shift d p _ (Z.of_nat k) "INDENT" 2 ltac:(lia) (or_introl (conj eq_refl eq_refl)) A), indent_eq. reflexivity.
  - intros r p0 s [[Wr Cr] Es] Ar. eapply read_line; eauto; [lia|lia|apply even2; exact Ev].
  - intros s y p0 r I Ay. apply in_map_iff in I. destruct I as [z [Ez _]]. inversion Ez; subst. exists None.
    eapply lit_hit with (w := []); [reflexivity|reflexivity|reflexivity|reflexivity|lia|exact Ay|]. exists []. apply fm_eps.
  - assert (H : forall l x, Forall (fun r => wf_rhs uniword r /\ clear_body (r_body r)) (x :: l) ->
        chain (fun r s => (wf_rhs uniword r /\ clear_body (r_body r)) /\ exists s', s = 10%N :: s') (w_rhs (k + 2)) x (map (fun x => ([], x)) l) rest).
    { induction l as [|y l IH]; intros x Hx; inversion Hx as [|? ? Hx1 Hx2]; subst; cbn [map chain].
      - split; [exact Hx1|apply (block_end_nl _ _ En)].
      - split; [split; [exact Hx1|eexists; reflexivity]|]. apply IH. exact Hx2. }
    apply H. unfold ne_list in W, Cl. clear - W Cl. rewrite Forall_forall in *. intros r I. split; [apply W|apply Cl]; exact I.
  - intros p0 Ay. right. exists p0, None. split; [|eapply no_line; [lia|exact En|exact Ay]].
    rewrite <- (Nat.add_0_r p0) at 2. change 0 with (length (@nil N)) at 1.
    eapply lit_hit with (w := []) (rest := rest); [reflexivity|reflexivity|reflexivity|reflexivity|lia|exact Ay|]. exists []. apply fm_eps.
  - intros y _. apply rhs_long.
  - cbn [String.eqb]. exists None. rewrite (read_shift d _ _ (Z.of_nat (k + 2)) "OUTDENT" (-2) ltac:(lia) (or_intror (conj eq_refl eq_refl)) A1), outdent_eq. reflexivity.
  - eexists. split; [exact E|]. split; [reflexivity|]. rewrite map_snd_pair in F. exact F.
Qed.

(* -------- lines of tokens -------- *)

Definition is_toks (n : gnode) (l : ne text) : Prop := g_kind n = "BACKTICKED_THINGS" /\ Forall2 (is_tok t) (g_children n) (ne_list l).

Lemma read_toks : forall d p i l rest, 2 <= d -> Forall wf_tok (ne_list l) -> (exists s, rest = 10%N :: s \/ rest = 60%N :: s) ->
  at_ t p (w_toks l ++ rest) -> reads d "BACKTICKED_THINGS" p i (w_toks l) is_toks l.
Proof.
  intros d p i l rest D W En A. deeper d. unfold w_toks in *. rewrite <- joinr_ne in *.
  edestruct (list_plain uniword t e text w_tok (is_tok t) (fun x _ => wf_tok x) d "BACKTICKED_THINGS" RNode "BACKTICKED_THING" " " i
      (fst l) (map (fun x => (tx " ", x)) (snd l)) p rest) as [ns [E F]]; [reflexivity| | | | | |exact A|].
  - intros x p0 r Wx Ax. eapply read_tok; eauto. lia.
  - intros s y p0 r I Ax. apply in_map_iff in I. destruct I as [z [Ez _]]. inversion Ez; subst. exists None. lit.
  - apply chain_all. intros y r I. rewrite map_snd_pair in I. pose proof (Forall_in _ _ _ _ W I) as Wy. split; [exact Wy|intros; exact Wy].
  - intros p0 Ax. left. destruct En as [s [-> | -> ]]; miss.
  - intros y _. apply wf_tok_long.
  - rewrite map_snd_pair in F. eexists. split; [exact E|]. split; [reflexivity|exact F].
Qed.

Definition is_tok_lines (n : gnode) (ls : ne (ne text)) : Prop :=
  g_kind n = "LINES_OF_BACKTICKED_THINGS" /\ Forall2 is_toks (g_children n) (ne_list ls).

Lemma toks_start : forall l r, no_space (w_toks l ++ r).
Proof. intros [x l] r. exact eq_refl. Qed.

Lemma read_tok_lines : forall d p k ls rest, 3 <= d -> 1 <= k -> Nat.Even k -> Forall (fun l => Forall wf_tok (ne_list l)) (ne_list ls) ->
  block_end k rest -> at_ t p (sep_by (nl k) w_toks ls ++ rest) ->
  reads d "LINES_OF_BACKTICKED_THINGS" p (Some (Z.of_nat k)) (sep_by (nl k) w_toks ls) is_tok_lines ls.
Proof.
  intros d p k ls rest D K Ev W En A. deeper d. rewrite <- joinr_ne in *.
  edestruct (list_plain uniword t e (ne text) w_toks is_toks (fun l r => Forall wf_tok (ne_list l) /\ exists s, r = 10%N :: s \/ r = 60%N :: s)
      d "LINES_OF_BACKTICKED_THINGS" RNode "BACKTICKED_THINGS" "NLAI" (Some (Z.of_nat k))
      (fst ls) (map (fun x => (nl k, x)) (snd ls)) p rest) as [ns [E F]]; [reflexivity| | | | | |exact A|].
  - intros x p0 r [Wx Er] Ax. eapply read_toks; eauto. lia.
  - intros s y p0 r I Ax. apply in_map_iff in I. destruct I as [z [Ez _]]. inversion Ez; subst. exists None.
    eapply read_nlai; [lia|exact K|exact Ev| |exact Ax]. apply toks_start.
  - apply chain_all. intros y r I. rewrite map_snd_pair in I. pose proof (Forall_in _ _ _ _ W I) as Wy. split.
    + split; [exact Wy|]. destruct (block_end_nl _ _ En) as [s ->]. exists s. auto.
    + intros s z I'. apply in_map_iff in I'. destruct I' as [z' [Ez _]]. inversion Ez; subst. split; [exact Wy|]. eexists. left. reflexivity.
  - intros p0 Ax. left. eapply no_nlai; [lia|exact En|exact Ax].
  - intros y _. unfold w_toks, sep_by. rewrite app_length. pose proof (wf_tok_long (fst y)). lia.
  - rewrite map_snd_pair in F. eexists. split; [exact E|]. split; [reflexivity|exact F].
Qed.
End Read.
