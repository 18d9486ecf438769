(* Vocabulary and lemmas for properties of parse trees. *)
From Coq Require Import Ascii String.
From Verif Require Import M_Base L_Base M_Dict L_Dict M_HTML M_PNode.
Open Scope list_scope.
Notation length := Datatypes.length.
Notation concat := List.concat.

Section Ind.
  Variable P : pnode -> Prop.
  Hypothesis H : forall i s r b a e ch, Forall P ch -> P (PN i s r b a e ch).
  Fixpoint pnode_ind' (n : pnode) : P n :=
    let 'PN i s r b a e ch := n in
    H i s r b a e ch ((fix each (l : list pnode) : Forall P l := match l with [] => Forall_nil _ | c :: l' => Forall_cons c (pnode_ind' c) (each l') end) ch).
End Ind.
Lemma pnode_ind_kids (P : pnode -> Prop) : (forall n, (forall c, In c (kids n) -> P c) -> P n) -> forall n, P n.
Proof. intros H. induction n as [i s r b a e ch IH] using pnode_ind'. apply H. now apply Forall_forall. Qed.

(* n is m or a descendant of it *)
Inductive below : pnode -> pnode -> Prop :=
| below_refl n : below n n
| below_kid n c m : In c (kids m) -> below n c -> below n m.
Lemma below_trans a b c : below a b -> below b c -> below a c.
Proof. intros H1 H2. induction H2 as [|n c m I B IH]; [assumption|]. exact (below_kid a c m I (IH H1)). Qed.
Fixpoint height (n : pnode) : nat := let 'PN _ _ _ _ _ _ ch := n in S (list_max (map height ch)).
Lemma height_kid c n : In c (kids n) -> height c < height n.
Proof.
  destruct n as [i s r b a e ch]; cbn [kids height]. intros I. apply Nat.lt_succ_r. pose proof (proj1 (list_max_le (map height ch) (list_max (map height ch))) (Nat.le_refl _)) as F.
  rewrite Forall_forall in F. apply F, in_map, I.
Qed.

(* ---- positions ---- *)

(* the tree is made by ES_ParseNode *)
Inductive made (len : nat) : pnode -> Prop :=
| made_terminal i a b n : new_terminal len i a b = Ok n -> made len n
| made_node i s r ch posn n : Forall (made len) ch -> new_node len i s r ch posn = Ok n -> made len n.
(* the nodes without children, from left to right *)
Fixpoint leaves (n : pnode) : list pnode :=
  let 'PN _ _ _ _ _ _ ch := n in match ch with [] => [n] | _ => flat_map leaves ch end.
(* no node of the list begins before the node before it ends *)
Fixpoint in_order (l : list pnode) : Prop :=
  match l with
  | [] => True
  | a :: l' => match l' with [] => True | b :: _ => end_posn a <= start_posn b end /\ in_order l'
  end.
Lemma in_order_app l1 l2 : in_order (l1 ++ l2) -> in_order l1 /\ in_order l2.
Proof.
  induction l1 as [|a l1 IH]; cbn [app in_order]; [auto|]. intros [H1 H2]. destruct (IH H2) as [H3 H4]. split; [|assumption]. split; [|assumption]. destruct l1; cbn [app] in *; auto.
Qed.
Definition valid (n : pnode) : Prop := start_posn n <= end_posn n.
Lemma in_order_bounds l : Forall valid l -> in_order l -> forall d, Forall (fun x => start_posn (hd d l) <= start_posn x /\ end_posn x <= end_posn (last l d)) l.
Proof.
  unfold valid. induction l as [|a l IH]; intros V O d; [constructor|]. inversion V as [|? ? V1 V2]; subst. cbn [in_order] in O. destruct O as [O1 O2]. specialize (IH V2 O2 a). cbn [hd].
  assert (EL : last (a :: l) d = last l a).
  { clear. revert a d. induction l as [|b l IH]; intros a d; [reflexivity|]. cbn [last] in *. destruct l; [reflexivity|]. exact (IH a d). }
  rewrite EL. destruct l as [|b l]; [cbn; constructor; [lia|constructor]|]. cbn [hd] in IH. inversion IH as [|? ? [B1 B2] B3]; subst. inversion V2; subst. constructor; [lia|].
  eapply Forall_impl; [|exact IH]. intros x [X1 X2]. lia.
Qed.
Lemma made_shape len n : made len n -> valid n /\ end_posn n <= len /\
  match kids n with [] => True | c :: _ => start_posn n = start_posn c /\ end_posn n = end_posn (last (kids n) c) end /\ Forall (made len) (kids n).
Proof.
  unfold valid. intros M. inversion M as [i a b n' E|i s r ch posn n' F E]; subst.
  - unfold new_terminal in E. destruct ((a <=? b) && (b <=? len)) eqn:C; cbn [assert_ bind] in E; [|discriminate]. inversion E; subst. apply andb_true_iff in C as [C1 C2]. apply Nat.leb_le in C1, C2. cbn. auto.
  - unfold new_node in E. cbv zeta in E. destruct (forallb _ _); cbn [assert_ bind] in E; [|discriminate]. destruct (match ch with [] => _ | c :: _ => _ end) as [a b] eqn:EX.
    destruct ((a <=? b) && (b <=? len)) eqn:C; cbn [assert_ bind] in E; [|discriminate]. destruct (nt_children ch); cbn [bind] in E; [|discriminate]. inversion E; subst. apply andb_true_iff in C as [C1 C2]. apply Nat.leb_le in C1, C2. cbn [start_posn end_posn kids].
    split; [assumption|]. split; [assumption|]. split; [|assumption]. destruct ch as [|c ch]; [exact I|]. injection EX as <- <-. auto.
Qed.
Lemma leaves_ne n : leaves n <> [].
Proof.
  induction n as [i s r b a e ch IH] using pnode_ind'. cbn [leaves]. destruct ch as [|c ch]; [discriminate|]. inversion IH; subst. cbn [flat_map]. destruct (leaves c); [contradiction|discriminate].
Qed.
Lemma leaves_kids n : kids n <> [] -> leaves n = flat_map leaves (kids n).
Proof. destruct n as [? ? ? ? ? ? ch]; cbn. destruct ch; [contradiction|reflexivity]. Qed.
Lemma leaves_leaf n : kids n = [] -> leaves n = [n].
Proof. destruct n as [? ? ? ? ? ? ch]; cbn. intros ->. reflexivity. Qed.
Lemma hd_app_ne {A} (l1 l2 : list A) d : l1 <> [] -> hd d (l1 ++ l2) = hd d l1.
Proof. destruct l1; [contradiction|reflexivity]. Qed.
Lemma last_app_ne {A} (l1 l2 : list A) d : l2 <> [] -> last (l1 ++ l2) d = last l2 d.
Proof.
  intros N. induction l1 as [|a l1 IH]; [reflexivity|]. cbn [app last]. destruct (l1 ++ l2) eqn:E; [|assumption]. apply app_eq_nil in E as [-> ->]. contradiction.
Qed.
Lemma last_d {A} (l : list A) d d' : l <> [] -> last l d = last l d'.
Proof. induction l as [|a l IH]; [contradiction|]. intros _. cbn [last]. destruct l; [reflexivity|]. apply IH. discriminate. Qed.
(* a node begins with its first leaf and ends with its last *)
Lemma ends_leaves len n : made len n -> forall d, start_posn n = start_posn (hd d (leaves n)) /\ end_posn n = end_posn (last (leaves n) d).
Proof.
  induction n as [n IH] using pnode_ind_kids. intros M d. destruct (made_shape len n M) as (_ & _ & SH & F). destruct (kids n) as [|c ch] eqn:K; [rewrite (leaves_leaf n K); auto|].
  rewrite leaves_kids by (rewrite K; discriminate). rewrite K. destruct SH as [S1 S2]. rewrite Forall_forall in F. split.
  - rewrite S1. cbn [flat_map]. rewrite hd_app_ne by apply leaves_ne. apply IH; [now left|]. apply F. now left.
  - rewrite S2. assert (N : c :: ch <> []) by discriminate. destruct (exists_last N) as (l' & x & E). rewrite E. rewrite last_last, flat_map_app. cbn [flat_map]. rewrite app_nil_r, last_app_ne by apply leaves_ne.
    assert (I : In x (c :: ch)) by (rewrite E; apply in_or_app; right; now left). apply IH; [assumption|]. now apply F.
Qed.
Lemma leaves_made len n : made len n -> Forall (made len) (leaves n).
Proof.
  induction n as [n IH] using pnode_ind_kids. intros M. destruct (made_shape len n M) as (_ & _ & _ & F). destruct (kids n) as [|c ch] eqn:K; [rewrite (leaves_leaf n K); auto|].
  rewrite leaves_kids by (rewrite K; discriminate). rewrite K. rewrite Forall_forall in *. intros x I. apply in_flat_map in I as (y & I1 & I2). specialize (IH y I1 (F y I1)). rewrite Forall_forall in IH. auto.
Qed.
Lemma leaves_kid c n : In c (kids n) -> exists l1 l2, leaves n = l1 ++ leaves c ++ l2.
Proof.
  intros I. rewrite leaves_kids by (intros E; rewrite E in I; contradiction). apply in_split in I as (k1 & k2 & ->). exists (flat_map leaves k1), (flat_map leaves k2). now rewrite flat_map_app.
Qed.
Lemma leaves_below m n : below m n -> exists l1 l2, leaves n = l1 ++ leaves m ++ l2.
Proof.
  induction 1 as [n|m c n I B (l1 & l2 & IH)]; [exists [], []; now rewrite app_nil_r|]. destruct (leaves_kid c n I) as (k1 & k2 & ->). rewrite IH. exists (k1 ++ l1), (l2 ++ k2). now rewrite <- !app_assoc.
Qed.
Lemma made_below len m n : below m n -> made len n -> made len m.
Proof. induction 1 as [|m c n I B IH]; [auto|]. intros M. apply IH. destruct (made_shape len n M) as (_ & _ & _ & F). rewrite Forall_forall in F. auto. Qed.
Lemma valid_leaves len n : made len n -> Forall valid (leaves n).
Proof. intros M. eapply Forall_impl; [|apply (leaves_made len n M)]. intros x X. now apply (made_shape len x). Qed.
Lemma in_order_mid l1 l2 a b d d' : Forall valid (l1 ++ l2) -> in_order (l1 ++ l2) -> In a l1 -> In b l2 -> end_posn (last l1 d) <= start_posn (hd d' l2) -> end_posn a <= start_posn b.
Proof.
  intros V O I1 I2 H. apply Forall_app in V as [V1 V2]. apply in_order_app in O as [O1 O2]. pose proof (in_order_bounds l1 V1 O1 d) as F1. pose proof (in_order_bounds l2 V2 O2 d') as F2. rewrite Forall_forall in *. destruct (F1 a I1), (F2 b I2). lia.
Qed.
Lemma in_order_seam l1 l2 d d' : l1 <> [] -> l2 <> [] -> in_order (l1 ++ l2) -> end_posn (last l1 d) <= start_posn (hd d' l2).
Proof.
  induction l1 as [|a l1 IH]; [contradiction|]. intros _ N2 O. cbn [app in_order] in O. destruct O as [O1 O2]. destruct l1 as [|b l1].
  - cbn [app] in O1. destruct l2; [contradiction|]. exact O1.
  - cbn [last]. apply IH; [discriminate|assumption|assumption].
Qed.

(* ---- the chain rule ---- *)

(* the name of an optional symbol ends with a question mark *)
Definition optional (s : text) : bool := text_eqb (skipn (length s - 1) s) (tx "?").
Lemma ends_q_optional s : ends_q s = optional s.
Proof.
  unfold ends_q, optional. destruct s as [|c s] using rev_ind; [reflexivity|]. clear IHs. rewrite rev_app_distr, app_length. cbn [rev app length]. replace (length s + 1 - 1) with (length s) by lia.
  rewrite skipn_app, Nat.sub_diag, skipn_all. cbn. now rewrite andb_true_r.
Qed.
(* the nonterminals of the right-hand side, as they are present: those children that are nonterminals, and for an optional symbol that is present and is a nonterminal, this nonterminal *)
Definition nonterminals_of_child (c : pnode) : list pnode :=
  match sym c with
  | None => []
  | Some s => if optional s then filter (fun x => negb (is_terminal x)) (kids c) else [c]
  end.
Definition nonterminals (n : pnode) : list pnode := flat_map nonterminals_of_child (kids n).
(* "exactly one nonterminal symbol on its right-hand side along with zero or more terminal symbols" *)
Definition chains_to (n c : pnode) : Prop := nonterminals n = [c].
(* no optional symbol is present that is a terminal, and the node of an optional symbol has at most one child *)
Definition sane (n : pnode) : Prop :=
  forall m c s, below m n -> In c (kids m) -> sym c = Some s -> optional s = true -> length (kids c) <= 1 /\ Forall (fun x => is_terminal x = false) (kids c).
Lemma nt_children_spec ch :
  (forall c s, In c ch -> sym c = Some s -> optional s = true -> length (kids c) <= 1 /\ Forall (fun x => is_terminal x = false) (kids c)) ->
  nt_children ch = Ok (flat_map nonterminals_of_child ch).
Proof.
  induction ch as [|c ch IH]; intros H; [reflexivity|]. cbn [nt_children flat_map]. rewrite IH by (intros c' s I; apply H; now right). generalize (flat_map nonterminals_of_child ch) as l. intros l. unfold nonterminals_of_child.
  destruct (sym c) as [s|] eqn:E; [|reflexivity]. rewrite ends_q_optional. destruct (optional s) eqn:Q; [|reflexivity]. destruct (H c s (or_introl eq_refl) E Q) as [L F]. destruct (kids c) as [|x [|y l']]; cbn in L; [reflexivity| |lia].
  inversion F as [|? ? F1 F2]; subst. cbn [filter]. rewrite F1. reflexivity.
Qed.
Lemma direct_chain_spec n : sane n -> forall c, direct_chain n = Some c <-> chains_to n c.
Proof.
  intros S c. unfold direct_chain, chains_to, nonterminals. rewrite nt_children_spec by (intros x s I E Q; exact (S n x s (below_refl n) I E Q)). destruct (flat_map _ _) as [|x [|y l]]; split; congruence.
Qed.
Lemma sane_below m n : below m n -> sane n -> sane m.
Proof. intros B S m' c s B'. apply S. exact (below_trans _ _ _ B' B). Qed.
Lemma nonterminals_below n c : In c (nonterminals n) -> below c n /\ height c < height n /\ is_terminal c = false.
Proof.
  intros I. apply in_flat_map in I as (x & I1 & I2). unfold nonterminals_of_child in I2. destruct (sym x) as [s|] eqn:E; [|contradiction]. pose proof (height_kid x n I1). destruct (optional s).
  - apply filter_In in I2 as [I2 I3]. pose proof (height_kid c x I2). split; [|split; [lia|now apply negb_true_iff]]. exact (below_kid c x n I1 (below_kid c c x I2 (below_refl c))).
  - destruct I2 as [->|[]]. split; [|split; [lia|unfold is_terminal; now rewrite E]]. exact (below_kid c c n I1 (below_refl c)).
Qed.
Lemma bits_eqb_eq a b : bits_eqb a b = true <-> a = b.
Proof. unfold bits_eqb. destruct (list_eq_dec _ _ _); split; congruence. Qed.
Lemma puk_eqb_eq a b : puk_eqb a b = true <-> a = b.
Proof. destruct a as [[s r] b1], b as [[s' r'] b2]. cbn. rewrite !andb_true_iff, !text_eqb_eq, bits_eqb_eq. split; [intros [[-> ->] ->]|intros E; inversion E]; auto. Qed.

Lemma pget_in m k v : pget m k = Some v -> In (k, v) m.
Proof.
  induction m as [|[k' v'] m IH]; [discriminate|]. cbn [pget]. destruct (puk_eqb k' k) eqn:E; [apply puk_eqb_eq in E as ->; intros X; inversion X; now left|right; auto].
Qed.
Lemma in_pget m k v : NoDup (map fst m) -> In (k, v) m -> pget m k = Some v.
Proof.
  induction m as [|[k' v'] m IH]; intros ND I; [destruct I|]. cbn [map fst] in ND. inversion ND as [|? ? N1 N2]; subst. cbn [pget]. destruct (puk_eqb k' k) eqn:E.
  - apply puk_eqb_eq in E as ->. destruct I as [I|I]; [congruence|]. exfalso. apply N1. apply in_map_iff. exists (k, v). auto.
  - destruct I as [I|I]; [|auto]. inversion I; subst. exfalso. assert (puk_eqb k k = true) by now apply puk_eqb_eq. congruence.
Qed.
Lemma pget_none m k : pget m k = None <-> ~ In k (map fst m).
Proof.
  induction m as [|[k' v'] m IH]; [cbn; tauto|]. cbn [pget map fst In]. destruct (puk_eqb k' k) eqn:E.
  - apply puk_eqb_eq in E as ->. split; [discriminate|intros H; exfalso; auto].
  - rewrite IH. assert (k' <> k) by (intros X; apply puk_eqb_eq in X; congruence). tauto.
Qed.
(* from n by the chain rule to f, through nodes for whose productions there is no definition *)
Inductive chain_path (m : sdo_map) : pnode -> pnode -> Prop :=
| cp_here n : chain_path m n n
| cp_on n c f s r b i a e ch : n = PN i (Some s) r b a e ch -> ~ In (s, r, b) (map fst m) -> chains_to n c -> chain_path m c f -> chain_path m n f.

(* the production of a nonterminal node *)
Definition production (n : pnode) (k : puk) : Prop := let 'PN _ s r b _ _ _ := n in exists s', s = Some s' /\ k = (s', r, b).
Lemma puk_of_ok n k : puk_of n = Ok k <-> production n k.
Proof. destruct n as [i [s|] r b a e ch]; cbn; split; [intros E; inversion E; eauto|intros (s' & E & ->); congruence|discriminate|intros (s' & E & _); discriminate]. Qed.
Lemma production_exists n : is_terminal n = false -> exists k, production n k.
Proof. destruct n as [i [s|] r b a e ch]; cbn; [eauto|discriminate]. Qed.
Lemma production_fun n k k' : production n k -> production n k' -> k = k'.
Proof. destruct n as [i [s|] r b a e ch]; cbn; intros (? & E & ->) (? & E' & ->); congruence. Qed.
(* what an operation gives where it has no definition *)
Inductive fallback (name : text) (k : puk) : res chosen -> Prop :=
| fb_PropName : name = tx "PropName" -> k = (tx "CoverInitializedName", tx "IdentifierReference Initializer", []) -> fallback name k (Ok EmptyString_)
| fb_SV : name = tx "SV" -> fallback name k (Ok EmptyString_)
| fb_Var : name = tx "VarDeclaredNames" -> fallback name k (Ok EmptyList)
| fb_Contains rest : name = tx "Contains" ++ rest -> fallback name k (Ok FalseV)
| fb_assert : (name = tx "PropName" -> k <> (tx "CoverInitializedName", tx "IdentifierReference Initializer", [])) -> name <> tx "SV" -> name <> tx "VarDeclaredNames" ->
    (forall rest, name <> tx "Contains" ++ rest) -> fallback name k (Err AssertionError).
Lemma starts_with_spec p s : starts_with p s = true <-> exists r, s = p ++ r.
Proof.
  revert s. induction p as [|c p IH]; intros s; cbn [starts_with app]; [split; eauto|]. destruct s as [|d s]; [split; [discriminate|intros (r & E); discriminate]|]. rewrite andb_true_iff, N.eqb_eq, IH. split.
  - intros (-> & r & ->). eauto.
  - intros (r & E). inversion E; subst. eauto.
Qed.
Lemma fallback_undefined name k : fallback name k (undefined name k).
Proof.
  unfold undefined. destruct (text_eqb name (tx "PropName") && puk_eqb k _) eqn:E1; [apply andb_true_iff in E1 as [E1 E2]; apply text_eqb_eq in E1; apply puk_eqb_eq in E2; now apply fb_PropName|].
  destruct (text_eqb name (tx "SV")) eqn:E2; [apply text_eqb_eq in E2; now apply fb_SV|]. destruct (text_eqb name (tx "VarDeclaredNames")) eqn:E3; [apply text_eqb_eq in E3; now apply fb_Var|].
  destruct (starts_with (tx "Contains") name) eqn:E4; [apply starts_with_spec in E4 as [r E4]; now apply (fb_Contains name k r)|]. apply fb_assert.
  - intros EN EK. apply andb_false_iff in E1 as [E1|E1]; [apply text_eqb_eq in EN; congruence|apply puk_eqb_eq in EK; congruence].
  - intros EN. apply text_eqb_eq in EN. congruence.
  - intros EN. apply text_eqb_eq in EN. congruence.
  - intros r EN. assert (starts_with (tx "Contains") name = true) by (apply starts_with_spec; eauto). congruence.
Qed.
(* what the operation gives at the end of the path *)
Inductive outcome (m : sdo_map) (name : text) (f : pnode) : res chosen -> Prop :=
| oc_run k d : production f k -> In (k, [d]) m -> outcome m name f (Ok (Run d f))
| oc_many k ds : production f k -> In (k, ds) m -> length ds <> 1 -> outcome m name f (Err AssertionError)
| oc_none k r : production f k -> ~ In k (map fst m) -> (forall c, ~ chains_to f c) -> fallback name k r -> outcome m name f r.
Lemma chain_outcome m name : NoDup (map fst m) -> forall fuel n, height n <= fuel -> sane n -> is_terminal n = false ->
  exists f, chain_path m n f /\ outcome m name f (chain fuel m name n).
Proof.
  intros ND. induction fuel as [|fuel IH]; intros n HF SN NT; [destruct n; cbn in HF; lia|]. destruct (production_exists n NT) as [k PK]. cbn [chain]. rewrite (proj2 (puk_of_ok n k) PK). cbn [bind]. destruct (pget m k) as [ds|] eqn:G.
  - exists n. split; [constructor|]. unfold the_defn. rewrite G. apply pget_in in G. destruct ds as [|d [|d' ds]]; [eapply oc_many; eauto; cbn; lia|eapply oc_run; eauto|eapply oc_many; eauto; cbn; lia].
  - apply pget_none in G. destruct (direct_chain n) as [c|] eqn:DC.
    + apply (direct_chain_spec n SN) in DC. destruct (nonterminals_below n c) as (B & HH & T); [rewrite DC; now left|]. destruct (IH c) as (f & CP & OC); [lia|now apply (sane_below c n)|assumption|]. exists f. split; [|assumption].
      destruct n as [i [s|] r b a e ch]; [|discriminate]. destruct PK as (s' & E & ->). inversion E; subst s'. exact (cp_on m _ c f s r b i a e ch eq_refl G DC CP).
    + exists n. split; [constructor|]. apply (oc_none m name n k _ PK G); [|apply fallback_undefined]. intros c DC'. apply (direct_chain_spec n SN) in DC'. congruence.
Qed.
(* the end of the path is determined *)
Definition stops (m : sdo_map) (f : pnode) : Prop := (exists k, production f k /\ In k (map fst m)) \/ forall c, ~ chains_to f c.
Lemma chain_path_unique m n f1 : chain_path m n f1 -> forall f2, chain_path m n f2 -> stops m f1 -> stops m f2 -> f1 = f2.
Proof.
  assert (X : forall n c s r b i a e ch, n = PN i (Some s) r b a e ch -> ~ In (s, r, b) (map fst m) -> chains_to n c -> ~ stops m n).
  { intros n0 c s r b i a e ch -> NI C [(k & PK & IK)|H]; [|exact (H c C)]. destruct PK as (s' & E & ->). inversion E; subst. contradiction. }
  induction 1 as [n|n c f s r b i a e ch E NI C P IH]; intros f2 P2 S1 S2.
  - inversion P2 as [|? c f s r b i a e ch E NI C P]; subst; [reflexivity|]. exfalso. exact (X _ c s r b i a e ch eq_refl NI C S1).
  - inversion P2 as [|? c' f' s' r' b' i' a' e' ch' E' NI' C' P']; subst; [exfalso; exact (X _ c s r b i a e ch eq_refl NI C S2)|]. unfold chains_to in C, C'. assert (c' = c) by congruence. subst. auto.
Qed.
Lemma outcome_stops m name f r : outcome m name f r -> stops m f.
Proof. intros []; [left; exists k; split; auto; apply in_map_iff; eexists; split; [|eassumption]; reflexivity|left; exists k; split; auto; apply in_map_iff; eexists; split; [|eassumption]; reflexivity|right; assumption]. Qed.

(* ---- early errors ---- *)

Section Traverse.
  Context {S_ : Type}.
  Variable covered : S_ -> nat -> option (option pnode).
  Variable exec : nat -> pnode -> S_ -> res S_.
  Variable rules : sdo_map.
  (* the nodes that count for early errors when these nodes cover something, parents before children and from left to right: instead of a node that covers something, what it covers *)
  Inductive effective (cov : nat -> option (option pnode)) : pnode -> list pnode -> Prop :=
  | eff_terminal n : is_terminal n = true -> effective cov n []
  | eff_covering n c l : is_terminal n = false -> cov (pid n) = Some (Some c) -> effective cov c l -> effective cov n l
  | eff_nothing n : is_terminal n = false -> cov (pid n) = Some None -> effective cov n []
  | eff_node n ls : is_terminal n = false -> cov (pid n) = None -> Forall2 (effective cov) (kids n) ls -> effective cov n (n :: concat ls).
  (* the rules of these nodes are executed one after the other *)
  Inductive executed : list pnode -> S_ -> S_ -> Prop :=
  | ex_nil s : executed [] s s
  | ex_cons n k rs l s s1 s2 : production n k -> In (k, rs) rules \/ (~ In k (map fst rules) /\ rs = []) -> apply_rules S_ exec rs n s = Ok s1 -> executed l s1 s2 -> executed (n :: l) s s2.
  Lemma executed_app l1 l2 s s1 s2 : executed l1 s s1 -> executed l2 s1 s2 -> executed (l1 ++ l2) s s2.
  Proof. induction 1 as [|n k rs l s0 sa sb P I A E IH]; intros H2; [assumption|]. cbn [app]. exact (ex_cons n k rs (l ++ l2) s0 sa s2 P I A (IH H2)). Qed.
  (* a cover persists *)
  Hypothesis persist : forall r n s s', exec r n s = Ok s' -> forall i c, covered s i = Some c -> covered s' i = Some c.
  Lemma persist_rules rs n s s' : apply_rules S_ exec rs n s = Ok s' -> forall i c, covered s i = Some c -> covered s' i = Some c.
  Proof.
    revert s. induction rs as [|r rs IH]; intros s E i c H; cbn [apply_rules] in E; [congruence|]. destruct (exec r n s) as [s1|] eqn:E1; cbn [bind] in E; [|discriminate]. eapply IH; [exact E|]. eapply persist; eauto.
  Qed.
  Lemma traverse_spec fuel : forall n s s' v, traverse S_ covered exec rules fuel n s = Ok (s', v) ->
    executed v s s' /\ (forall i c, covered s i = Some c -> covered s' i = Some c) /\
    forall sf, (forall i c, covered s' i = Some c -> covered sf i = Some c) -> (forall x, In x v -> covered sf (pid x) = None) -> effective (covered sf) n v.
  Proof.
    induction fuel as [|f IH]; intros n s s' v E; [discriminate|]. cbn [traverse] in E. destruct (is_terminal n) eqn:T.
    { inversion E; subst. split; [constructor|]. split; [auto|]. intros sf _ _. now constructor. }
    destruct (covered s (pid n)) as [[c|]|] eqn:C.
    - destruct (IH _ _ _ _ E) as (H1 & H2 & H3). split; [assumption|]. split; [assumption|]. intros sf P N. apply eff_covering with c; [assumption|auto|]. now apply H3.
    - inversion E; subst. split; [constructor|]. split; [auto|]. intros sf P _. apply eff_nothing; auto.
    - destruct (apply_rules S_ exec (rules_for rules n) n s) as [s1|] eqn:A; cbn [bind] in E; [|discriminate].
      match type of E with bind (?F _ _) _ = _ => set (each := F) in E end. destruct (each (kids n) s1) as [[s2 l]|] eqn:EE; cbn [bind fst snd] in E; [|discriminate]. inversion E; subst s2 v. clear E.
      assert (X : forall ch s1 s' l, each ch s1 = Ok (s', l) -> executed l s1 s' /\ (forall i c, covered s1 i = Some c -> covered s' i = Some c) /\
        forall sf, (forall i c, covered s' i = Some c -> covered sf i = Some c) -> (forall x, In x l -> covered sf (pid x) = None) -> exists ls, Forall2 (effective (covered sf)) ch ls /\ l = concat ls).
      { clear - IH. induction ch as [|c ch IHc]; intros s1 s' l EE; cbn in EE.
        - inversion EE; subst. split; [constructor|]. split; [auto|]. intros sf _ _. exists []. auto.
        - destruct (traverse S_ covered exec rules f c s1) as [[s2 la]|] eqn:E1; cbn [bind fst snd] in EE; [|discriminate]. destruct (each ch s2) as [[s3 lb]|] eqn:E2; cbn [bind fst snd] in EE; [|discriminate]. inversion EE; subst s3 l. clear EE.
          destruct (IH _ _ _ _ E1) as (H1 & H2 & H3). destruct (IHc _ _ _ E2) as (K1 & K2 & K3). split; [exact (executed_app _ _ _ _ _ H1 K1)|]. split; [auto|]. intros sf P N. destruct (K3 sf P) as (ls & F & ->); [intros x I; apply N; apply in_or_app; auto|].
          exists (la :: ls). split; [|reflexivity]. constructor; [|assumption]. apply H3; [auto|]. intros x I. apply N. apply in_or_app. auto. }
      destruct (X _ _ _ _ EE) as (H1 & H2 & H3). split; [|split].
      + destruct (production_exists n T) as [k P]. unfold rules_for in A. rewrite (proj2 (puk_of_ok n k) P) in A. destruct (pget rules k) as [rs|] eqn:G.
        * exact (ex_cons n k rs l s s1 s' P (or_introl (pget_in _ _ _ G)) A H1).
        * exact (ex_cons n k [] l s s1 s' P (or_intror (conj (proj1 (pget_none _ _) G) eq_refl)) A H1).
      + intros i c Hc. apply H2. eapply persist_rules; eauto.
      + intros sf P N. destruct (H3 sf P) as (ls & F & ->); [intros x I; apply N; now right|]. apply eff_node; [assumption| |assumption]. apply (N n). now left.
  Qed.
  (* a tree none of whose nodes gets covered is looked at completely *)
  Fixpoint preorder (n : pnode) : list pnode := let 'PN _ s _ _ _ _ ch := n in (match s with None => [] | Some _ => [n] end) ++ flat_map preorder ch.
End Traverse.

(* what happens while early errors of a tree are looked for: errors, and looking for early errors in other trees *)
Inductive act := Error (e : nat) | Nested (is_Pattern : bool) (l : list act).
Fixpoint perform (x : act) (a : agent) : agent * option exn :=
  match x with
  | Error e => match add_error e a with Ok a' => (a', None) | Err x => (a, Some x) end
  | Nested p l =>
    let (a', r) := get_early_errors_in p
      ((fix all (l : list act) (a : agent) : agent * option exn := match l with [] => (a, None) | x :: l' => let (a', r) := perform x a in match r with None => all l' a' | Some e => (a', Some e) end end) l) a in
    (a', match r with Ok _ => None | Err e => Some e end)
  end.
Fixpoint perform_all (l : list act) (a : agent) : agent * option exn :=
  match l with [] => (a, None) | x :: l' => let (a', r) := perform x a in match r with None => perform_all l' a' | Some e => (a', Some e) end end.
Definition errors (l : list act) : list nat := flat_map (fun x => match x with Error e => [e] | Nested _ _ => [] end) l.
Lemma perform_nested p l a : perform (Nested p l) a = let (a', r) := get_early_errors_in p (perform_all l) a in (a', match r with Ok _ => None | Err e => Some e end).
Proof. cbn [perform]. change (fix all (l : list act) (a : agent) := _) with perform_all. reflexivity. Qed.
Lemma perform_flat l : Forall (fun x => exists e, x = Error e) l -> forall es sv, perform_all l (mkAgent (Some es) sv) = (mkAgent (Some (es ++ errors l)) sv, None).
Proof.
  induction 1 as [|x l (e & ->) F IH]; intros es sv; [cbn; now rewrite app_nil_r|]. cbn [perform_all perform]. unfold add_error. cbn [early_errors saved_early_errors]. rewrite IH. cbn [errors flat_map app]. now rewrite <- app_assoc.
Qed.
(* the tree of a Pattern, in which no other tree is looked at *)
Definition simple_act (x : act) : Prop := match x with Error _ => True | Nested p l => p = true /\ Forall (fun y => exists e, y = Error e) l end.
Lemma perform_simple l : Forall simple_act l -> forall es, perform_all l (mkAgent (Some es) None) = (mkAgent (Some (es ++ errors l)) None, None).
Proof.
  induction 1 as [|x l S F IH]; intros es; [cbn; now rewrite app_nil_r|]. cbn [perform_all]. destruct x as [e|p l'].
  - cbn [perform]. unfold add_error. cbn [early_errors saved_early_errors]. rewrite IH. cbn [errors flat_map app]. now rewrite <- app_assoc.
  - destruct S as [-> S]. rewrite perform_nested. unfold get_early_errors_in. cbn [early_errors saved_early_errors assert_ bind]. rewrite perform_flat by assumption. cbn [early_errors saved_early_errors]. rewrite IH. reflexivity.
Qed.

(* ---- ancestors ---- *)

Fixpoint ids (n : pnode) : list nat := let 'PN i _ _ _ _ _ ch := n in i :: flat_map ids ch.
(* the ancestors of a node n within the tree t, the nearest first *)
Inductive ancestors (t : pnode) : pnode -> list pnode -> Prop :=
| anc_root : ancestors t t []
| anc_kid m c l : ancestors t m l -> In c (kids m) -> ancestors t c (m :: l).
Fixpoint link_each (i : nat) (ch : list pnode) (ps : parents) : parents :=
  match ch with [] => ps | c :: ch' => link_each i ch' (add_parent_links c (nset ps (pid c) (Some i))) end.
Lemma apl_eq n ps : add_parent_links n ps = link_each (pid n) (kids n) ps.
Proof.
  destruct n as [i s r b a e ch]. cbn [pid kids]. cbn [add_parent_links]. revert ps. induction ch as [|c ch IH]; intros ps; [reflexivity|]. cbn [link_each]. apply IH.
Qed.
Lemma ids_eq n : ids n = pid n :: flat_map ids (kids n).
Proof. destruct n; reflexivity. Qed.
Lemma apl_out n : forall ps i, ~ In i (flat_map ids (kids n)) -> nget (add_parent_links n ps) i = nget ps i.
Proof.
  induction n as [n IH] using pnode_ind_kids. intros ps i NI. rewrite apl_eq. revert ps. generalize (pid n) as p. revert IH NI. generalize (kids n) as ch. induction ch as [|c ch IHc]; intros IH NI p ps; [reflexivity|].
  cbn [link_each flat_map] in *. rewrite IHc; [|intros x I; apply IH; now right|intros X; apply NI, in_or_app; auto]. rewrite ids_eq in NI. cbn [app In] in NI. rewrite IH; [|now left|intros X; apply NI; right; apply in_or_app; auto].
  apply nget_nset_other. intros X. apply NI. auto.
Qed.
Lemma link_each_out p ch : forall ps i, ~ In i (flat_map ids ch) -> nget (link_each p ch ps) i = nget ps i.
Proof.
  induction ch as [|c ch IH]; intros ps i NI; [reflexivity|]. cbn [link_each flat_map] in *. rewrite IH by (intros X; apply NI, in_or_app; auto). rewrite ids_eq in NI. cbn [app In] in NI. rewrite apl_out by (intros X; apply NI; right; apply in_or_app; auto). apply nget_nset_other. intros X. apply NI. auto.
Qed.
Lemma nodup_app {A} (l1 l2 : list A) : NoDup (l1 ++ l2) -> NoDup l1 /\ NoDup l2 /\ forall x, In x l1 -> ~ In x l2.
Proof.
  induction l1 as [|a l1 IH]; cbn [app]; intros H; [split; [constructor|split; [assumption|intros x []]]|]. inversion H as [|? ? N1 N2]; subst. destruct (IH N2) as (A1 & A2 & A3). split; [constructor; [intros X; apply N1, in_or_app; auto|assumption]|]. split; [assumption|].
  intros x [->|I] J; [apply N1, in_or_app; auto|exact (A3 x I J)].
Qed.
Lemma ids_below m n : below m n -> In (pid m) (ids n).
Proof.
  induction 1 as [n|m c n I B IH]; [rewrite ids_eq; now left|]. rewrite (ids_eq n). right. apply in_flat_map. exists c. auto.
Qed.
Lemma apl_in n : NoDup (ids n) -> forall ps m c, below m n -> In c (kids m) -> nget (add_parent_links n ps) (pid c) = Some (Some (pid m)).
Proof.
  induction n as [n IH] using pnode_ind_kids. intros ND ps m c B IC. rewrite ids_eq in ND. inversion ND as [|? ? N1 N2]; subst. rewrite apl_eq.
  assert (X : forall ch ps, (forall x, In x ch -> In x (kids n)) -> NoDup (flat_map ids ch) -> (m = n /\ In c ch) \/ (exists x, In x ch /\ below m x) -> nget (link_each (pid n) ch ps) (pid c) = Some (Some (pid m))).
  { clear - IH IC. induction ch as [|x ch IHc]; intros ps SUB ND H; [destruct H as [[_ []]|(x & [] & _)]|]. cbn [flat_map link_each] in *. destruct (nodup_app _ _ ND) as (D1 & D2 & D3).
    assert (IN : forall y, below y x -> ~ In (pid y) (flat_map ids ch)) by (intros y B; apply D3, ids_below, B).
    destruct H as [[-> [->|H]]|(y & [->|I] & B)].
    - rewrite link_each_out by (apply IN; constructor). rewrite ids_eq in D1. inversion D1; subst. rewrite apl_out by assumption. apply nget_nset_same.
    - apply IHc; auto. intros z Z. apply SUB. now right.
    - rewrite link_each_out by (apply IN; exact (below_trans _ _ _ (below_kid c c m IC (below_refl c)) B)). apply IH; auto. apply SUB. now left.
    - apply IHc; eauto. intros z Z. apply SUB. now right. }
  apply X; auto. inversion B as [|? x ? I B']; subst; [left; auto|right; eauto].
Qed.
Lemma ancestors_below t n l : ancestors t n l -> below n t.
Proof. induction 1 as [|m c l A IH I]; [constructor|]. exact (below_trans _ _ _ (below_kid c c m I (below_refl c)) IH). Qed.
Lemma below_ancestors n t : below n t -> exists l, ancestors t n l.
Proof.
  induction 1 as [n|n c m I B (l & IH)]; [exists []; constructor|]. exists (l ++ [m]). clear B. induction IH as [|x y l A IH2 IY]; [cbn; apply anc_kid; [constructor|assumption]|]. cbn [app]. now apply anc_kid.
Qed.
Lemma link_root t ps : NoDup (ids t) -> nget (link t ps) (pid t) = Some None.
Proof. intros ND. rewrite ids_eq in ND. inversion ND; subst. unfold link. rewrite apl_out by assumption. apply nget_nset_same. Qed.
Lemma link_kid t ps m c : NoDup (ids t) -> below m t -> In c (kids m) -> nget (link t ps) (pid c) = Some (Some (pid m)).
Proof. intros ND B I. unfold link. now apply apl_in. Qed.
Lemma each_ancestor_link t ps : NoDup (ids t) -> forall n l, ancestors t n l -> forall fuel, length l < fuel -> each_ancestor fuel (link t ps) (pid n) = Ok (map pid l) /\ root fuel (link t ps) (pid n) = Ok (pid t).
Proof.
  intros ND. induction 1 as [|m c l A IH I]; intros fuel F; (destruct fuel as [|f]; [lia|]); cbn [each_ancestor root].
  - now rewrite link_root.
  - rewrite (link_kid t ps m c ND (ancestors_below _ _ _ A) I). cbn [length] in F. destruct (IH f) as [-> ->]; [lia|]. auto.
Qed.
Lemma sym_in_spec s l : sym_in s l = true <-> exists x, s = Some x /\ In x l.
Proof.
  destruct s as [s|]; cbn [sym_in]; [|split; [discriminate|intros (x & E & _); discriminate]]. rewrite existsb_exists. split.
  - intros (x & I & E). apply text_eqb_eq in E as ->. eauto.
  - intros (x & E & I). inversion E; subst. exists x. split; [assumption|now apply text_eqb_eq].
Qed.

(* ---- unit derivation ---- *)

(* the first node with the property on the way down from n, as long as there is one child *)
Inductive first_unit (P : pnode -> Prop) : pnode -> pnode -> Prop :=
| fu_here n : P n -> first_unit P n n
| fu_on n c d : ~ P n -> kids n = [c] -> first_unit P c d -> first_unit P n d.
