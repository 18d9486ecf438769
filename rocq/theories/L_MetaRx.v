(* Lemmas about the regular expressions and the combinators of the reader of <emu-grammar> elements
   (C66, C67). *)
From Coq Require Import Ascii String.
From Verif Require Import M_Base M_HTML M_Meta L_Base.
Open Scope string_scope.
Open Scope nat_scope.
Open Scope list_scope.
Notation length := Datatypes.length.

(* the text t continues with s at position p *)
Definition at_ (t : text) (p : nat) (s : text) : Prop := exists pre, t = pre ++ s /\ length pre = p.

Lemma at_skipn : forall t p s, at_ t p s -> skipn p t = s.
Proof. intros t p s [pre [-> <-]]. rewrite skipn_app, skipn_all, Nat.sub_diag. reflexivity. Qed.

Lemma at_length : forall t p s, at_ t p s -> length t = p + length s.
Proof. intros t p s [pre [-> <-]]. apply app_length. Qed.

Lemma at_app : forall t p a s, at_ t p (a ++ s) -> at_ t (p + length a) s.
Proof. intros t p a s [pre [-> <-]]. exists (pre ++ a). split; [apply app_assoc|apply app_length]. Qed.

Lemma at_slice : forall t p a s, at_ t p (a ++ s) -> slice p (p + length a) t = a.
Proof.
  intros t p a s A. unfold slice. rewrite (at_skipn _ _ _ A).
  replace (p + length a - p) with (length a + 0) by lia.
  rewrite firstn_app_2. cbn. apply app_nil_r.
Qed.

Lemma at_of_skipn : forall t p, p <= length t -> at_ t p (skipn p t).
Proof. intros t p H. exists (firstn p t). rewrite firstn_skipn. split; [reflexivity|]. apply firstn_length_le; exact H. Qed.

Section Rx.
Variable uniword : N -> bool.
Notation rx_matches := (rx_matches uniword).
Notation set_has := (set_has uniword).

(* the first match leaves s' and has the groups g *)
Definition first_match (r : rx) (s s' : text) (g : list text) : Prop := exists l, rx_matches r s = (s', g) :: l.

Definition no_match (r : rx) (s : text) : Prop := rx_matches r s = [].

Lemma fm_eps : forall s, first_match REps s s [].
Proof. intros s. exists []. reflexivity. Qed.

Lemma fm_set : forall neg items c s, set_has neg items c = true -> first_match (RSet neg items) (c :: s) s [].
Proof. intros neg items c s H. exists []. cbn. rewrite H. reflexivity. Qed.

Lemma fm_seq : forall a b s s1 g s2 h, first_match a s s1 g -> first_match b s1 s2 h -> first_match (RSeq a b) s s2 (g ++ h).
Proof.
  intros a b s s1 g s2 h [l A] [l' B]. unfold first_match. cbn. rewrite A. cbn. rewrite B. cbn. eexists. reflexivity.
Qed.

Lemma fm_alt1 : forall a b s s1 g, first_match a s s1 g -> first_match (RAlt a b) s s1 g.
Proof. intros a b s s1 g [l A]. unfold first_match. cbn. rewrite A. cbn. eexists. reflexivity. Qed.

Lemma fm_alt2 : forall a b s s1 g, no_match a s -> first_match b s s1 g -> first_match (RAlt a b) s s1 g.
Proof. intros a b s s1 g N0 [l A]. unfold first_match. cbn. rewrite N0, A. cbn. eexists. reflexivity. Qed.

Lemma fm_group : forall a w s g, first_match a (w ++ s) s g -> first_match (RGroup a) (w ++ s) s (w :: g).
Proof.
  intros a w s g [l A]. unfold first_match. cbn. rewrite A. cbn.
  rewrite app_length. replace (length w + length s - length s) with (length w + 0) by lia.
  rewrite firstn_app_2. cbn. rewrite app_nil_r. eexists. reflexivity.
Qed.

(* the next character, if there is one, is not in the set *)
Definition stops (P : N -> bool) (s : text) : Prop := match s with [] => True | c :: _ => P c = false end.

Definition star_of (a : rx) : nat -> text -> list (text * list text) :=
  fix star (n : nat) (s : text) : list (text * list text) :=
    match n with
    | O => [(s, [])]
    | S n' =>
        flat_map (fun '(s1, g) => if length s1 <? length s then map (fun '(s2, h) => (s2, g ++ h)) (star n' s1) else [])
                 (rx_matches a s) ++ [(s, [])]
    end.

Lemma rx_star : forall a s, rx_matches (RStar a) s = star_of a (length s) s.
Proof. reflexivity. Qed.

Lemma fm_star_n : forall neg items w s n,
  length w <= n ->
  forallb (set_has neg items) w = true -> stops (set_has neg items) s ->
  exists l, star_of (RSet neg items) n (w ++ s) = (s, []) :: l.
Proof.
  induction w as [|c w IH]; intros s n L H St.
  - destruct n; cbn; [eexists; reflexivity|]. destruct s as [|c s]; cbn; [eexists; reflexivity|].
    cbn in St. rewrite St. cbn. eexists. reflexivity.
  - cbn in H. apply andb_true_iff in H. destruct H as [Hc Hw]. cbn [length] in L.
    destruct n; [lia|]. cbn. rewrite Hc. cbn.
    rewrite (proj2 (Nat.leb_le (length (w ++ s)) (length (w ++ s))) (le_n _)).
    destruct (IH s n ltac:(lia) Hw St) as [l E]. rewrite E. cbn. eexists. reflexivity.
Qed.

Lemma fm_star : forall neg items w s,
  forallb (set_has neg items) w = true -> stops (set_has neg items) s ->
  first_match (RStar (RSet neg items)) (w ++ s) s [].
Proof.
  intros neg items w s H St. unfold first_match. rewrite rx_star.
  apply fm_star_n; auto. rewrite app_length. lia.
Qed.

Lemma fm_plus : forall neg items w s,
  w <> [] -> forallb (set_has neg items) w = true -> stops (set_has neg items) s ->
  first_match (RSeq (RSet neg items) (RStar (RSet neg items))) (w ++ s) s [].
Proof.
  intros neg items [|c w] s N0 H St; [congruence|]. cbn in H. apply andb_true_iff in H. destruct H as [Hc Hw].
  change (@nil text) with (@nil text ++ []). eapply fm_seq; [cbn [app]; apply fm_set; exact Hc|].
  apply fm_star; auto.
Qed.

Lemma nm_set : forall neg items s, stops (set_has neg items) s -> no_match (RSet neg items) s.
Proof. intros neg items [|c s] H; unfold no_match; cbn; [reflexivity|]. cbn in H. rewrite H. reflexivity. Qed.

Lemma nm_seq : forall a b s, no_match a s -> no_match (RSeq a b) s.
Proof. intros a b s H. unfold no_match. cbn. rewrite H. reflexivity. Qed.

Lemma rx_seq_set : forall neg items k c s,
  rx_matches (RSeq (RSet neg items) k) (c :: s) = if set_has neg items c then rx_matches k s else [].
Proof.
  intros neg items k c s. cbn. destruct (set_has neg items c); [|reflexivity].
  cbn. rewrite app_nil_r. rewrite <- (map_id (rx_matches k s)) at 2. apply map_ext. intros [x y]. reflexivity.
Qed.

Lemma nm_seq_set : forall neg items k c s, set_has neg items c = true -> no_match k s -> no_match (RSeq (RSet neg items) k) (c :: s).
Proof. intros neg items k c s H N0. unfold no_match. rewrite rx_seq_set, H. exact N0. Qed.

Lemma fm_seq_set : forall neg items k c s s' g,
  set_has neg items c = true -> first_match k s s' g -> first_match (RSeq (RSet neg items) k) (c :: s) s' g.
Proof. intros neg items k c s s' g H [l F]. exists l. rewrite rx_seq_set, H. exact F. Qed.

Lemma nm_alt : forall a b s, no_match a s -> no_match b s -> no_match (RAlt a b) s.
Proof. intros a b s A B. unfold no_match. cbn. rewrite A, B. reflexivity. Qed.

Lemma nm_group : forall a s, no_match a s -> no_match (RGroup a) s.
Proof. intros a s A. unfold no_match. cbn. rewrite A. reflexivity. Qed.

(* a sequence whose rest cannot match after any of the matches of its start *)
Lemma nm_seq_all : forall a b s, (forall s' g, In (s', g) (rx_matches a s) -> no_match b s') -> no_match (RSeq a b) s.
Proof.
  intros a b s H. unfold no_match. cbn. induction (rx_matches a s) as [|[s1 g] l IH]; [reflexivity|].
  cbn. rewrite (H s1 g (or_introl eq_refl)). cbn. apply IH. intros s' g' I. apply (H s' g'). right. exact I.
Qed.

(* -------- what the matches are -------- *)

(* the words of a regular expression, with the texts of its groups *)
Inductive word_of : rx -> text -> list text -> Prop :=
| w_eps : word_of REps [] []
| w_set : forall neg items c, set_has neg items c = true -> word_of (RSet neg items) [c] []
| w_seq : forall a b u v g h, word_of a u g -> word_of b v h -> word_of (RSeq a b) (u ++ v) (g ++ h)
| w_alt1 : forall a b u g, word_of a u g -> word_of (RAlt a b) u g
| w_alt2 : forall a b u g, word_of b u g -> word_of (RAlt a b) u g
| w_star0 : forall a, word_of (RStar a) [] []
| w_star1 : forall a u v g h, word_of a u g -> word_of (RStar a) v h -> word_of (RStar a) (u ++ v) (g ++ h)
| w_group : forall a u g, word_of a u g -> word_of (RGroup a) u (u :: g).

Lemma rx_sound : forall r s s' g, In (s', g) (rx_matches r s) -> exists w, s = w ++ s' /\ word_of r w g.
Proof.
  induction r as [|neg items|a IHa b IHb|a IHa b IHb|a IHa|a IHa]; intros s s' g I.
  - cbn in I. destruct I as [E|[]]. inversion E; subst. exists []. split; [reflexivity|constructor].
  - cbn in I. destruct s as [|c s]; [destruct I|]. destruct (set_has neg items c) eqn:E; [|destruct I].
    destruct I as [E'|[]]. inversion E'; subst. exists [c]. split; [reflexivity|constructor; exact E].
  - cbn in I. apply in_flat_map in I. destruct I as [[s1 g1] [I1 I2]]. apply in_map_iff in I2.
    destruct I2 as [[s2 h] [E I2]]. inversion E; subst. destruct (IHa _ _ _ I1) as [u [-> Wu]].
    destruct (IHb _ _ _ I2) as [v [-> Wv]]. exists (u ++ v). split; [apply app_assoc|constructor; assumption].
  - cbn in I. apply in_app_or in I. destruct I as [I|I].
    + destruct (IHa _ _ _ I) as [u [E W]]. exists u. split; [exact E|apply w_alt1; exact W].
    + destruct (IHb _ _ _ I) as [u [E W]]. exists u. split; [exact E|apply w_alt2; exact W].
  - rewrite rx_star in I. remember (length s) as n eqn:En. clear En.
    revert s s' g I. induction n as [|n IHn]; intros s s' g I.
    + cbn in I. destruct I as [E|[]]. inversion E; subst. exists []. split; [reflexivity|constructor].
    + cbn in I. apply in_app_or in I. destruct I as [I|[E|[]]].
      2:{ inversion E; subst. exists []. split; [reflexivity|constructor]. }
      apply in_flat_map in I. destruct I as [[s1 g1] [I1 I2]].
      match type of I2 with In _ (if ?b then _ else _) => destruct b; [|destruct I2] end. apply in_map_iff in I2.
      destruct I2 as [[s2 h] [E I2]]. inversion E; subst. destruct (IHa _ _ _ I1) as [u [-> Wu]].
      destruct (IHn _ _ _ I2) as [v [-> Wv]]. exists (u ++ v). split; [apply app_assoc|constructor; assumption].
  - cbn in I. apply in_map_iff in I. destruct I as [[s1 g1] [E I]]. inversion E; subst.
    destruct (IHa _ _ _ I) as [u [-> Wu]]. exists u. split; [reflexivity|].
    rewrite app_length. replace (length u + length s' - length s') with (length u + 0) by lia.
    rewrite firstn_app_2. cbn [firstn]. rewrite app_nil_r. constructor. exact Wu.
Qed.

Lemma word_star_set : forall neg items w g, word_of (RStar (RSet neg items)) w g -> g = [] /\ forallb (set_has neg items) w = true.
Proof.
  intros neg items w g W. remember (RStar (RSet neg items)) as r eqn:Er. revert Er.
  induction W; intros Er; try discriminate Er.
  - auto.
  - inversion Er; subst. destruct (IHW2 eq_refl) as [-> F].
    inversion W1; subst. cbn. split; [reflexivity|]. apply andb_true_iff. split; assumption.
Qed.
End Rx.
