(* Derivations, and what closing a set of items establishes. *)
From Verif Require Import M_Base M_Earley.

(* ---- comparisons ---- *)
Section TreeInd.
  Variable P : tree -> Prop.
  Hypothesis HL : forall t l, P (Leaf t l).
  Hypothesis HN : forall p ch, Forall P ch -> P (Node p ch).
  Fixpoint tree_ind2 (t : tree) : P t :=
    match t with
    | Leaf t l => HL t l
    | Node p ch => HN p ch ((fix go l : Forall P l := match l with [] => Forall_nil P | x :: l' => Forall_cons x (tree_ind2 x) (go l') end) ch)
    end.
End TreeInd.
Lemma rthing_eqb_ok a b : rthing_eqb a b = true <-> a = b.
Proof. destruct a, b; cbn; try (split; discriminate); rewrite Nat.eqb_eq; split; congruence. Qed.
Lemma list_eqb_ok {A} (f : A -> A -> bool) l : Forall (fun x => forall y, f x y = true <-> x = y) l -> forall m, list_eqb f l m = true <-> l = m.
Proof.
  induction 1 as [|x l H F IH]; intros [|y m]; cbn; try (split; congruence).
  rewrite andb_true_iff, H, IH. split; [intros [-> ->]; auto|intros E; injection E; auto].
Qed.
Lemma list_eqb_ok' {A} (f : A -> A -> bool) : (forall x y, f x y = true <-> x = y) -> forall l m, list_eqb f l m = true <-> l = m.
Proof. intros H l. apply list_eqb_ok. apply Forall_forall. auto. Qed.
Lemma prod_eqb_ok a b : prod_eqb a b = true <-> a = b.
Proof.
  destruct a as [a1 a2 a3], b as [b1 b2 b3]. unfold prod_eqb. cbn. rewrite !andb_true_iff, !Nat.eqb_eq, (list_eqb_ok' _ rthing_eqb_ok).
  split; [intros [[-> ->] ->]; auto|intros E; injection E; auto].
Qed.
Lemma tree_eqb_ok a : forall b, tree_eqb a b = true <-> a = b.
Proof.
  induction a as [t l|p ch IH] using tree_ind2; intros [t' l'|p' ch']; cbn [tree_eqb]; try (split; discriminate).
  - rewrite andb_true_iff, !Nat.eqb_eq. split; [intros [-> ->]; auto|intros E; injection E; auto].
  - rewrite andb_true_iff, prod_eqb_ok, (list_eqb_ok _ _ IH). split; [intros [-> ->]; auto|intros E; injection E; auto].
Qed.
Lemma opt_eqb_ok {A} (f : A -> A -> bool) : (forall x y, f x y = true <-> x = y) -> forall a b, opt_eqb f a b = true <-> a = b.
Proof. intros H [a|] [b|]; cbn; try (split; congruence). rewrite H. split; congruence. Qed.
Lemma item_eqb_ok a b : item_eqb a b = true <-> a = b.
Proof.
  destruct a as [a1 a2 a3], b as [b1 b2 b3]. unfold item_eqb. cbn.
  rewrite !andb_true_iff, (opt_eqb_ok _ Nat.eqb_eq), prod_eqb_ok, (list_eqb_ok' _ (opt_eqb_ok _ tree_eqb_ok)).
  split; [intros [[-> ->] ->]; auto|intros E; injection E; auto].
Qed.
Lemma has_item i l : existsb (item_eqb i) l = true <-> In i l.
Proof.
  rewrite existsb_exists. split; [intros (x & I & E); apply item_eqb_ok in E; now subst|intros I; exists i; split; [auto|now apply item_eqb_ok]].
Qed.
Lemma has_no_item i l : existsb (item_eqb i) l = false <-> ~ In i l.
Proof. rewrite <- has_item. destruct (existsb _ l); intuition congruence. Qed.
Lemma in_expecting r its i : In i (expecting r its) <-> In i its /\ after i = Some r.
Proof.
  unfold expecting, expects. rewrite filter_In. destruct (after i) as [r'|]; [rewrite rthing_eqb_ok|]; intuition congruence.
Qed.
Lemma in_prods_of prods a p : In p (prods_of prods a) <-> In p prods /\ lhs p = a.
Proof. unfold prods_of. rewrite filter_In, Nat.eqb_eq. tauto. Qed.

(* ---- derivations: places are numbers, [tok k t l] says that terminal t matches between k and k+1, being instance l,
   [chk k prev c] that constraint c holds at k when prev is the node just before it ---- *)
Section Spec.
  Variable prods : list prod.
  Variable tok : nat -> nat -> nat -> Prop.
  Variable chk : nat -> option tree -> nat -> Prop.
  Inductive der : nat -> nat -> tree -> nat -> Prop :=
  | der_node i p ch j : In p prods -> derseq i None (rhs p) ch j -> der i (lhs p) (Node p ch) j
  with derseq : nat -> option tree -> list rthing -> list tree -> nat -> Prop :=
  | ds_nil i prev : derseq i prev [] [] i
  | ds_nt i prev a t j r ch k : der i a t j -> derseq j (Some t) r ch k -> derseq i prev (NT a :: r) (t :: ch) k
  | ds_tm i prev t l r ch k : tok i t l -> derseq (S i) (Some (Leaf t l)) r ch k -> derseq i prev (TM t :: r) (Leaf t l :: ch) k
  | ds_cn i prev c r ch k : chk i prev c -> derseq i None r ch k -> derseq i prev (CN c :: r) ch k.
  Scheme der_mut := Minimality for der Sort Prop with derseq_mut := Minimality for derseq Sort Prop.
  Combined Scheme der_both from der_mut, derseq_mut.

  Lemma der_le : (forall i a t j, der i a t j -> i <= j) /\ (forall i prev r ch j, derseq i prev r ch j -> i <= j).
  Proof. apply der_both; intros; lia. Qed.

  (* the part of a production before the dot, latest first *)
  Inductive pders (o : nat) : list rthing -> list (option tree) -> nat -> Prop :=
  | pd_nil : pders o [] [] o
  | pd_nt rs tr i a t j : pders o rs tr i -> der i a t j -> pders o (NT a :: rs) (Some t :: tr) j
  | pd_tm rs tr i t l : pders o rs tr i -> tok i t l -> pders o (TM t :: rs) (Some (Leaf t l) :: tr) (S i)
  | pd_cn rs tr i c : pders o rs tr i -> chk i match tr with x :: _ => x | [] => None end c -> pders o (CN c :: rs) (None :: tr) i.
  Lemma pders_length o rs tr i : pders o rs tr i -> length rs = length tr.
  Proof. induction 1; cbn; congruence. Qed.
  Lemma pders_le o rs tr i : pders o rs tr i -> o <= i.
  Proof. induction 1; auto with arith. match goal with H : der _ _ _ _ |- _ => apply der_le in H end. lia. Qed.
  Lemma pders_then o rs tr i : pders o rs tr i -> forall rest ch k,
    derseq i match tr with x :: _ => x | [] => None end rest ch k -> derseq o None (rev rs ++ rest) (rev (somes tr) ++ ch) k.
  Proof.
    induction 1 as [|rs tr i a t j P IH D|rs tr i t l P IH T|rs tr i c P IH C]; intros rest ch k S; cbn in *; auto.
    - rewrite <- !app_assoc. cbn. apply IH. econstructor; eauto.
    - rewrite <- !app_assoc. cbn. apply IH. econstructor; eauto.
    - rewrite <- !app_assoc. cbn. apply IH. econstructor; eauto.
  Qed.
  Lemma pders_all o rs tr i : pders o rs tr i -> derseq o None (rev rs) (rev (somes tr)) i.
  Proof. intros P. pose proof (pders_then _ _ _ _ P [] [] i (ds_nil _ _)) as H. now rewrite !app_nil_r in H. Qed.

  (* a progressed item *)
  Definition partial (k o : nat) (i : item) : Prop := exists dn rest, rhs (pr i) = rev dn ++ rest /\ pders o dn (trans i) k.
  Lemma partial_after k o i r : partial k o i -> after i = Some r -> exists dn rest, rhs (pr i) = rev dn ++ r :: rest /\ pders o dn (trans i) k.
  Proof.
    intros (dn & rest & E & P) A. unfold after in A. rewrite E, <- (pders_length _ _ _ _ P), <- rev_length, nth_error_app2, Nat.sub_diag in A by lia.
    destruct rest as [|r' rest]; [discriminate|]. injection A as ->. eauto.
  Qed.
  Lemma partial_start k p : partial k k (mkItem (Some k) p []).
  Proof. exists [], (rhs p). split; [reflexivity|constructor]. Qed.
  Lemma partial_nt k o i a t j : partial k o i -> after i = Some (NT a) -> der k a t j -> partial j o (advance i (Some t)).
  Proof. intros P A D. destruct (partial_after _ _ _ _ P A) as (dn & rest & E & Q). exists (NT a :: dn), rest. cbn. rewrite E, <- app_assoc. split; [reflexivity|econstructor; eauto]. Qed.
  Lemma partial_tm k o i t l : partial k o i -> after i = Some (TM t) -> tok k t l -> partial (S k) o (advance i (Some (Leaf t l))).
  Proof. intros P A D. destruct (partial_after _ _ _ _ P A) as (dn & rest & E & Q). exists (TM t :: dn), rest. cbn. rewrite E, <- app_assoc. split; [reflexivity|econstructor; eauto]. Qed.
  Lemma partial_cn k o i c : partial k o i -> after i = Some (CN c) -> chk k (transit i) c -> partial k o (advance i None).
  Proof. intros P A D. destruct (partial_after _ _ _ _ P A) as (dn & rest & E & Q). exists (CN c :: dn), rest. cbn. rewrite E, <- app_assoc. split; [reflexivity|econstructor; eauto]. Qed.
  Lemma partial_done k o i : partial k o i -> after i = None -> In (pr i) prods -> der o (lhs (pr i)) (node_of i) k.
  Proof.
    intros (dn & rest & E & P) A I. unfold after in A. rewrite E, <- (pders_length _ _ _ _ P), <- rev_length, nth_error_app2, Nat.sub_diag in A by lia.
    destruct rest; [|discriminate]. apply pders_all in P. rewrite app_nil_r in E. unfold node_of. constructor; [auto|]. rewrite E. exact P.
  Qed.
  Lemma partial_le k o i : partial k o i -> o <= k.
  Proof. intros (dn & rest & _ & P). eapply pders_le; eauto. Qed.
End Spec.
Lemma der_mono prods (tok tok' : nat -> nat -> nat -> Prop) (chk chk' : nat -> option tree -> nat -> Prop) :
  (forall k t l, tok k t l -> tok' k t l) -> (forall k p c, chk k p c -> chk' k p c) ->
  (forall i a t j, der prods tok chk i a t j -> der prods tok' chk' i a t j) /\ (forall i prev r ch j, derseq prods tok chk i prev r ch j -> derseq prods tok' chk' i prev r ch j).
Proof. intros HT HC. apply der_both; intros; econstructor; eauto. Qed.
Lemma partial_mono prods (tok tok' : nat -> nat -> nat -> Prop) (chk chk' : nat -> option tree -> nat -> Prop) :
  (forall k t l, tok k t l -> tok' k t l) -> (forall k p c, chk k p c -> chk' k p c) ->
  forall k o i, partial prods tok chk k o i -> partial prods tok' chk' k o i.
Proof.
  intros HT HC k o i (dn & rest & E & P). exists dn, rest. split; [auto|]. clear E. induction P; econstructor; eauto. eapply der_mono; eauto.
Qed.

Section Run.
  Variable prods : list prod.
  Context {place : Type}.
  Variable check : option tree -> place -> nat -> res bool.
  Variable before : list (list item).
  Variable pos : place.
  Notation cur := (cur before).
  Notation run := (run prods check before pos).

  (* ---- what closing leaves: every item processed, every item advanced over every empty node ---- *)
  Definition ext (s s' : eset) : Prop := (exists l, items s' = items s ++ l) /\ (exists l, nulls s' = nulls s ++ l).
  Definition handled (s' : eset) (x : item) : Prop :=
    match after x with
    | Some (NT a) => forall p, In p prods -> lhs p = a -> In (mkItem (Some cur) p []) (items s')
    | Some (TM _) => True
    | Some (CN c) => check (transit x) pos c = Ok true -> In (advance x None) (items s')
    | None => exists o, origin x = Some o /\
      (o = cur -> In (lhs (pr x), node_of x) (nulls s')) /\
      (forall old b, o <> cur -> nth_error before o = Some old -> In b old -> after b = Some (NT (lhs (pr x))) -> In (advance b (Some (node_of x))) (items s'))
    end.
  Definition crossed (s' : eset) (x : item) (q : nat * tree) : Prop := after x = Some (NT (fst q)) -> In (advance x (Some (snd q))) (items s').
  Record post (s s' : eset) : Prop := {
    p_ext : ext s s';
    p_new : forall x, In x (items s') -> ~ In x (items s) -> handled s' x;
    p_pair : forall x q, In x (items s') -> In q (nulls s') -> ~ (In x (items s) /\ In q (nulls s)) -> crossed s' x q }.
  Lemma ext_refl s : ext s s. Proof. split; exists []; now rewrite app_nil_r. Qed.
  Lemma ext_trans a b c : ext a b -> ext b c -> ext a c.
  Proof. intros [[l1 E1] [m1 F1]] [[l2 E2] [m2 F2]]. split; eexists; [rewrite E2, E1|rewrite F2, F1]; symmetry; apply app_assoc. Qed.
  Lemma ext_in s s' x : ext s s' -> In x (items s) -> In x (items s').
  Proof. intros [[l E] _] I. rewrite E. apply in_or_app. auto. Qed.
  Lemma ext_nul s s' x : ext s s' -> In x (nulls s) -> In x (nulls s').
  Proof. intros [_ [l E]] I. rewrite E. apply in_or_app. auto. Qed.
  Lemma handled_mono s s' x : ext s s' -> handled s x -> handled s' x.
  Proof.
    intros E H. unfold handled in *. destruct (after x) as [[a|t|c]|]; eauto using ext_in.
    destruct H as (o & O & H1 & H2). exists o. split; [auto|]. split; eauto using ext_in, ext_nul.
  Qed.
  Lemma crossed_mono s s' x q : ext s s' -> crossed s x q -> crossed s' x q.
  Proof. unfold crossed. eauto using ext_in. Qed.
  Lemma in_item_dec (x : item) l : In x l \/ ~ In x l.
  Proof. destruct (existsb (item_eqb x) l) eqn:E; [left; now apply has_item|right; now apply has_no_item]. Qed.
  Lemma in_null_dec (x : nat * tree) l : In x l \/ ~ In x l.
  Proof.
    induction l as [|y l IH]; [right; auto|]. destruct IH as [I|I]; [left; now right|]. destruct x as [a t], y as [b u].
    destruct (Nat.eqb_spec a b) as [->|N]; [|right; intros [E|E]; [congruence|auto]].
    destruct (tree_eqb t u) eqn:E; [apply tree_eqb_ok in E; subst; left; now left|right; intros [F|F]; [injection F as ->|auto]].
    rewrite (proj2 (tree_eqb_ok t t) eq_refl) in E. discriminate.
  Qed.
  Lemma post_refl s : post s s.
  Proof. split; [apply ext_refl|tauto|tauto]. Qed.
  Lemma post_trans a b c : post a b -> post b c -> post a c.
  Proof.
    intros [E1 N1 P1] [E2 N2 P2]. split; [eapply ext_trans; eauto| |].
    - intros x I N. destruct (in_item_dec x (items b)) as [J|J]; [eapply handled_mono; eauto|auto].
    - intros x q I Q N. destruct (in_item_dec x (items b)) as [J|J]; [destruct (in_null_dec q (nulls b)) as [K|K]|].
      + eapply crossed_mono; eauto.
      + apply P2; tauto.
      + apply P2; tauto.
  Qed.

  Definition good_task (t : task) (s s' : eset) : Prop :=
    match t with
    | Add i => In i (items s')
    | Feed is => forall i, In i is -> In i (items s')
    | Nulls i a k => forall m q, k <= m -> nth_error (nulls s') m = Some q -> crossed s' i q
    | Back a n k => forall m b, k <= m -> nth_error (expecting (NT a) (items s')) m = Some b -> In (advance b (Some n)) (items s')
    end.
  Definition pre_task (t : task) : Prop := match t with Nulls i a k => after i = Some (NT a) | _ => True end.
  Lemma ext_nth_null s s' k q : ext s s' -> nth_error (nulls s) k = Some q -> nth_error (nulls s') k = Some q.
  Proof. intros [_ [l E]] H. rewrite E, nth_error_app1; [auto|]. apply nth_error_Some. congruence. Qed.
  Lemma ext_nth_exp s s' r k q : ext s s' -> nth_error (expecting r (items s)) k = Some q -> nth_error (expecting r (items s')) k = Some q.
  Proof. intros [[l E] _] H. unfold expecting. rewrite E, filter_app, nth_error_app1; [auto|]. apply nth_error_Some. unfold expecting in H. congruence. Qed.

  Lemma run_post n : forall t s s', pre_task t -> run n t s = Ok s' -> post s s' /\ good_task t s s'.
  Proof.
    induction n as [|n IH]; intros t s s' PT H; [discriminate|]. cbn [M_Earley.run] in H. destruct t as [i|is|i a k|a nd k]; cbn [step] in H.
    - destruct (existsb (item_eqb i) (items s)) eqn:EX.
      { injection H as <-. apply has_item in EX. split; [apply post_refl|exact EX]. }
      apply has_no_item in EX. cbv zeta in H. set (s1 := mkSet (items s ++ [i]) (nulls s)) in *.
      assert (X1 : ext s s1) by (split; [now exists [i]|exists []; symmetry; apply app_nil_r]).
      assert (I1 : forall x, In x (items s1) <-> In x (items s) \/ x = i) by (intros x; cbn; rewrite in_app_iff; cbn; intuition).
      (* it suffices to treat i itself *)
      assert (W : forall s', post s1 s' -> handled s' i -> (forall q, In q (nulls s) -> crossed s' i q) -> post s s' /\ In i (items s')).
      { clear s' H. intros s' [E N P] HH HC. split; [split|].
        - eapply ext_trans; eauto.
        - intros x I NI. destruct (in_item_dec x (items s1)) as [J|J]; [|auto]. apply I1 in J as [J| ->]; [tauto|auto].
        - intros x q I Q NI. destruct (in_item_dec x (items s1)) as [J|J]; [|apply P; tauto]. destruct (in_null_dec q (nulls s1)) as [K|K]; [|apply P; tauto].
          apply I1 in J as [J| ->]; [cbn in K; tauto|]. apply HC. exact K.
        - eapply ext_in; [exact E|]. apply I1. auto. }
      cbn [good_task].
      destruct (after i) as [[a|t|c]|] eqn:A.
      + destruct (run n (Nulls i a 0) s1) as [s2|e] eqn:R2; [|discriminate]. cbn [bind] in H.
        destruct (IH (Nulls i a 0) _ _ A R2) as [P12 G12].
        destruct (prods_of prods a) as [|p0 ps] eqn:PO; [discriminate|]. destruct (IH (Feed _) _ _ I H) as [P23 G23].
        apply W; [eapply post_trans; eauto| |].
        * unfold handled. rewrite A. intros p IP LP. apply G23. apply in_map_iff. exists p. split; [auto|]. rewrite <- PO. apply in_prods_of. auto.
        * intros q Q. apply (ext_nul s1 s2) in Q; [|apply P12]. destruct (In_nth_error _ _ Q) as [m M]. eapply crossed_mono; [apply P23|]. apply (G12 m); [lia|exact M].
      + injection H as <-. apply W; [apply post_refl| |]; [unfold handled; now rewrite A|intros q _; unfold crossed; congruence].
      + destruct (check (transit i) pos c) as [b|e] eqn:C; [|discriminate]. cbn [bind] in H. destruct b.
        * destruct (IH (Add _) _ _ I H) as [P G]. apply W; [auto| |]; [unfold handled; rewrite A; intros _; exact G|intros q _; unfold crossed; congruence].
        * injection H as <-. apply W; [apply post_refl| |]; [unfold handled; rewrite A; congruence|intros q _; unfold crossed; congruence].
      + destruct (origin i) as [o|] eqn:O; [|discriminate]. destruct (Nat.eqb_spec o cur) as [OC|OC].
        * destruct (expecting (NT (lhs (pr i))) (items s1)) eqn:EE; [discriminate|]. cbn [negb assert_ bind] in H. clear EE.
          destruct (IH (Back _ _ _) _ _ I H) as [[E N P] G].
          set (s1' := mkSet (items s1) (nulls s1 ++ [(lhs (pr i), node_of i)])) in *.
          assert (XN : In (lhs (pr i), node_of i) (nulls s')) by (apply (ext_nul s1' s' _ E); cbn; apply in_or_app; right; now left).
          split; [split|].
          -- eapply ext_trans; [exact X1|]. eapply ext_trans; [|exact E]. split; [exists []; symmetry; apply app_nil_r|now eexists].
          -- intros x I' NI. destruct (in_item_dec x (items s1')) as [J|J]; [|auto]. apply I1 in J as [J| ->]; [tauto|].
             unfold handled. rewrite A. exists o. split; [auto|]. split; [auto|congruence].
          -- intros x q I' Q NI. destruct (in_item_dec x (items s1')) as [J|J]; [|apply P; tauto]. destruct (in_null_dec q (nulls s1')) as [K|K]; [|apply P; tauto].
             apply I1 in J as [J| ->]; [|unfold crossed; congruence]. cbn in K. apply in_app_or in K as [K|[<-|[]]]; [tauto|].
             intros AX. cbn in *. assert (XE : In x (expecting (NT (lhs (pr i))) (items s'))) by (apply in_expecting; auto).
             destruct (In_nth_error _ _ XE) as [m M]. apply (G m); [lia|exact M].
          -- apply (ext_in s1' s' _ E). apply I1. auto.
        * destruct (nth_error before o) as [old|] eqn:OB; [|discriminate]. destruct (expecting (NT (lhs (pr i))) old) eqn:EE; [discriminate|].
          cbn [negb assert_ bind] in H. rewrite <- EE in H. clear EE. destruct (IH (Feed _) _ _ I H) as [P G].
          apply W; [auto| |intros q _; unfold crossed; congruence].
          unfold handled. rewrite A. exists o. split; [auto|]. split; [congruence|].
          intros old' b _ OB' IB AB. rewrite OB in OB'. injection OB' as <-. apply G. apply in_map_iff. exists b. split; [auto|]. apply in_expecting. auto.
    - destruct is as [|i is]; [injection H as <-; split; [apply post_refl|intros ? []]|].
      destruct (run n (Add i) s) as [s1|e] eqn:R1; [|discriminate]. cbn [bind] in H. destruct (IH (Add i) _ _ I R1) as [P1 G1]. destruct (IH (Feed is) _ _ I H) as [P2 G2].
      split; [eapply post_trans; eauto|]. intros x [<-|J]; [|auto]. eapply ext_in; [apply P2|exact G1].
    - cbn in PT. destruct (nth_error (nulls s) k) as [[b nd]|] eqn:K.
      + assert (exists s1, (if b =? a then run n (Add (advance i (Some nd))) s else Ok s) = Ok s1 /\ run n (Nulls i a (S k)) s1 = Ok s') as (s1 & R1 & R2).
        { destruct (if b =? a then run n (Add (advance i (Some nd))) s else Ok s) as [s1|]; [eauto|discriminate]. }
        assert (X : post s s1 /\ crossed s1 i (b, nd)).
        { destruct (Nat.eqb_spec b a) as [->|N]; [destruct (IH (Add _) _ _ I R1) as [P G]; split; [auto|intros _; exact G]|].
          injection R1 as <-. split; [apply post_refl|]. unfold crossed. cbn. congruence. }
        destruct X as [P1 C1]. destruct (IH (Nulls i a (S k)) _ _ PT R2) as [P2 G2]. split; [eapply post_trans; eauto|].
        intros m q L M. destruct (Nat.eq_dec m k) as [->|]; [|apply (G2 m); [lia|auto]].
        rewrite (ext_nth_null s s' k (b, nd)) in M by (first [exact K|eapply ext_trans; [apply P1|apply P2]]). injection M as <-. eapply crossed_mono; [apply P2|auto].
      + injection H as <-. split; [apply post_refl|]. intros m q L M. apply nth_error_None in K. assert (m < length (nulls s)) by (apply nth_error_Some; congruence). lia.
    - destruct (nth_error (expecting (NT a) (items s)) k) as [b|] eqn:K.
      + destruct (run n (Add (advance b (Some nd))) s) as [s1|e] eqn:R1; [|discriminate]. cbn [bind] in H.
        destruct (IH (Add _) _ _ I R1) as [P1 G1]. destruct (IH (Back _ _ _) _ _ I H) as [P2 G2]. split; [eapply post_trans; eauto|].
        intros m q L M. destruct (Nat.eq_dec m k) as [->|]; [|apply (G2 m); [lia|auto]].
        rewrite (ext_nth_exp s s' (NT a) k b) in M by (first [exact K|eapply ext_trans; [apply P1|apply P2]]). injection M as <-. eapply ext_in; [apply P2|auto].
      + injection H as <-. split; [apply post_refl|]. intros m q L M. apply nth_error_None in K. assert (m < length (expecting (NT a) (items s))) by (apply nth_error_Some; congruence). lia.
  Qed.

  (* ---- what an item stands for ---- *)
  Variable tok : nat -> nat -> nat -> Prop.
  Variable chk : nat -> option tree -> nat -> Prop.
  Variable sp : prod.
  Definition valid (sets : list (list item)) (k : nat) (i : item) : Prop :=
    match origin i with
    | None => pr i = sp /\ partial prods tok chk k 0 i
    | Some o => In (pr i) prods /\ partial prods tok chk k o i /\ exists J x, nth_error sets o = Some J /\ In x J /\ after x = Some (NT (lhs (pr i)))
    end.
  Hypothesis Hbefore : forall o old x, nth_error before o = Some old -> In x old -> valid before o x.
  Hypothesis Hchk : forall prev c, check prev pos c = Ok true -> chk cur prev c.
  Definition sets_of (s : eset) := before ++ [items s].
  Record inv (s : eset) : Prop := {
    i_items : forall i, In i (items s) -> valid (sets_of s) cur i;
    i_nulls : forall a n, In (a, n) (nulls s) -> der prods tok chk cur a n cur }.
  Definition ready (t : task) (s : eset) : Prop :=
    match t with
    | Add i => valid (sets_of s) cur i
    | Feed is => forall i, In i is -> valid (sets_of s) cur i
    | Nulls i a k => valid (sets_of s) cur i /\ after i = Some (NT a)
    | Back a n k => der prods tok chk cur a n cur
    end.
  Definition failure (e : exn) : Prop :=
    e = OutOfFuel \/ (exists prev c, check prev pos c = Err e) \/
    (e = UserError /\ exists p a, (In p prods \/ p = sp) /\ In (NT a) (rhs p) /\ prods_of prods a = []) \/
    (e = AssertionError /\ exists i, origin i = None /\ after i = None /\ pr i = sp /\ partial prods tok chk cur 0 i).
  Lemma valid_ext s s' k i : ext s s' -> valid (sets_of s) k i -> valid (sets_of s') k i.
  Proof.
    intros E. unfold valid. destruct (origin i) as [o|]; [|auto]. intros (IP & P & J & x & N & I & A). split; [auto|]. split; [auto|].
    unfold sets_of in *. destruct (Nat.lt_ge_cases o (length before)) as [L|L].
    - rewrite nth_error_app1 in N by auto. exists J, x. rewrite nth_error_app1 by auto. auto.
    - rewrite nth_error_app2 in N by auto. destruct (o - length before) as [|d] eqn:D; [|destruct d; discriminate]. injection N as <-.
      exists (items s'), x. rewrite nth_error_app2, D by auto. split; [auto|]. split; [eapply ext_in; eauto|auto].
  Qed.
  Lemma valid_before s o i : valid before o i -> valid (sets_of s) o i.
  Proof.
    unfold valid. destruct (origin i) as [o'|]; [|auto]. intros (IP & P & J & x & N & I & A). split; [auto|]. split; [auto|].
    exists J, x. unfold sets_of. rewrite nth_error_app1; [auto|]. apply nth_error_Some. congruence.
  Qed.
  Lemma nth_cur s : nth_error (sets_of s) cur = Some (items s).
  Proof. unfold sets_of, M_Earley.cur. rewrite nth_error_app2, Nat.sub_diag by auto. reflexivity. Qed.
  Lemma ready_ext s s' t : ext s s' -> ready t s -> ready t s'.
  Proof. intros E. destruct t; cbn; eauto using valid_ext; intros [H1 H2]; eauto using valid_ext. Qed.
  Lemma ready_pre t s : ready t s -> pre_task t.
  Proof. destruct t; cbn; tauto. Qed.
  Lemma valid_partial sets k i : valid sets k i -> exists o, partial prods tok chk k o i.
  Proof. unfold valid. destruct (origin i); [intros (_ & P & _); eauto|intros (_ & P); eauto]. Qed.
  Lemma valid_prod sets k i : valid sets k i -> In (pr i) prods \/ pr i = sp.
  Proof. unfold valid. destruct (origin i); [intros (P & _); eauto|intros (P & _); eauto]. Qed.
  Lemma valid_nt sets k j i a t : valid sets k i -> after i = Some (NT a) -> der prods tok chk k a t j -> valid sets j (advance i (Some t)).
  Proof. unfold valid. cbn [origin advance pr]. destruct (origin i) as [o|]; [intros (IP & P & X) A D; split; [auto|]; split; [eapply partial_nt; eauto|exact X]|intros (E & P) A D; split; [auto|eapply partial_nt; eauto]]. Qed.
  Lemma valid_tm sets k i t l : valid sets k i -> after i = Some (TM t) -> tok k t l -> valid sets (S k) (advance i (Some (Leaf t l))).
  Proof. unfold valid. cbn [origin advance pr]. destruct (origin i) as [o|]; [intros (IP & P & X) A D; split; [auto|]; split; [eapply partial_tm; eauto|exact X]|intros (E & P) A D; split; [auto|eapply partial_tm; eauto]]. Qed.
  Lemma valid_cn sets k i c : valid sets k i -> after i = Some (CN c) -> chk k (transit i) c -> valid sets k (advance i None).
  Proof. unfold valid. cbn [origin advance pr]. destruct (origin i) as [o|]; [intros (IP & P & X) A D; split; [auto|]; split; [eapply partial_cn; eauto|exact X]|intros (E & P) A D; split; [auto|eapply partial_cn; eauto]]. Qed.
  Lemma after_in i r : after i = Some r -> In r (rhs (pr i)).
  Proof. apply nth_error_In. Qed.

  Lemma run_inv n : forall t s, inv s -> ready t s -> match run n t s with Ok s' => inv s' | Err e => failure e end.
  Proof.
    induction n as [|n IH]; intros t s IV RD; [left; reflexivity|].
    assert (STEP : forall t1 t2 s, inv s -> ready t1 s -> (forall s', ext s s' -> inv s' -> ready t2 s') ->
      match (do s' <- run n t1 s ;; run n t2 s') with Ok s' => inv s' | Err e => failure e end).
    { clear t s IV RD. intros t1 t2 s IV R1 R2. pose proof (IH t1 s IV R1) as H1. destruct (run n t1 s) as [s1|e] eqn:E1; [|exact H1]. cbn [bind].
      apply IH; [exact H1|]. apply R2; [|exact H1]. exact (p_ext _ _ (proj1 (run_post _ _ _ _ (ready_pre _ _ R1) E1))). }
    cbn [M_Earley.run]. destruct t as [i|is|i a k|a nd k]; cbn [step].
    - destruct (existsb (item_eqb i) (items s)) eqn:EX; [exact IV|]. cbv zeta. set (s1 := mkSet (items s ++ [i]) (nulls s)).
      assert (X1 : ext s s1) by (split; [now exists [i]|exists []; symmetry; apply app_nil_r]).
      assert (VI : valid (sets_of s1) cur i) by (eapply valid_ext; eauto).
      assert (IV1 : inv s1).
      { split; [|apply IV]. intros x I. cbn in I. apply in_app_or in I as [I|[<-|[]]]; [|auto]. eapply valid_ext; [exact X1|]. apply IV. auto. }
      destruct (after i) as [[a|t|c]|] eqn:A.
      + destruct (prods_of prods a) as [|p0 ps] eqn:PO.
        { pose proof (IH (Nulls i a 0) s1 IV1 (conj VI A)) as H1. destruct (run n (Nulls i a 0) s1); [|exact H1]. cbn [bind].
          right; right; left. split; [auto|]. exists (pr i), a. split; [eapply valid_prod; eauto|]. split; [now apply after_in|auto]. }
        rewrite <- PO. apply (STEP (Nulls i a 0)); [auto|now split|]. intros s' E _ x I. apply in_map_iff in I as (p & <- & IP). apply in_prods_of in IP as [IP LP].
        cbn. split; [auto|]. split; [apply partial_start|]. exists (items s'), i. rewrite nth_cur. split; [auto|]. split; [|cbn; congruence].
        eapply ext_in; [exact E|]. cbn. apply in_or_app. right. now left.
      + exact IV1.
      + destruct (check (transit i) pos c) as [b|e] eqn:C; cbn [bind]; [|right; left; eauto]. destruct b; [|exact IV1].
        apply IH; [exact IV1|]. cbn. eapply valid_cn; eauto.
      + destruct (origin i) as [o|] eqn:O.
        2:{ right; right; right. split; [auto|]. exists i. unfold valid in VI. rewrite O in VI. destruct VI. auto. }
        assert (VI' := VI). unfold valid in VI'. rewrite O in VI'. destruct VI' as (IP & P & J & x & N & IX & AX).
        assert (D : der prods tok chk o (lhs (pr i)) (node_of i) cur) by (apply partial_done; auto).
        destruct (Nat.eqb_spec o cur) as [->|NC].
        * rewrite nth_cur in N. injection N as <-. assert (XE : In x (expecting (NT (lhs (pr i))) (items s1))) by (apply in_expecting; auto).
          destruct (expecting (NT (lhs (pr i))) (items s1)); [destruct XE|]. cbn [negb assert_ bind]. apply IH; [|exact D].
          split; [apply IV1|]. cbn. intros b m I. apply in_app_or in I as [I|[E|[]]]; [now apply IV|]. injection E as <- <-. exact D.
        * destruct (nth_error before o) as [old|] eqn:OB.
          2:{ exfalso. apply nth_error_None in OB. unfold sets_of in N. rewrite nth_error_app2 in N by auto. unfold M_Earley.cur in NC.
              destruct (o - length before) as [|d] eqn:E; [lia|destruct d; discriminate]. }
          assert (J = old) as -> by (unfold sets_of in N; rewrite nth_error_app1 in N by (apply nth_error_Some; congruence); congruence).
          assert (XE : In x (expecting (NT (lhs (pr i))) old)) by (apply in_expecting; auto).
          destruct (expecting (NT (lhs (pr i))) old) eqn:EE; [destruct XE|]. cbn [negb assert_ bind]. rewrite <- EE. apply IH; [exact IV1|].
          intros y I. apply in_map_iff in I as (b & <- & IB). apply in_expecting in IB as [IB AB]. eapply valid_nt; [|exact AB|exact D]. apply valid_before. eapply Hbefore; eauto.
    - destruct is as [|i is]; [exact IV|]. apply STEP; [auto|apply RD; now left|]. intros s' E _. eapply (ready_ext s s' (Feed is)); [exact E|]. intros x I. apply RD. now right.
    - destruct RD as [V A]. destruct (nth_error (nulls s) k) as [[b nd]|] eqn:K; [|exact IV].
      destruct (Nat.eqb_spec b a) as [->|N].
      + apply STEP; [auto| |]; [cbn; eapply valid_nt; eauto; apply IV; eapply nth_error_In; eauto|]. intros s' E _. eapply (ready_ext s s' (Nulls i a (S k))); [exact E|now split].
      + cbn [bind]. apply IH; [auto|now split].
    - destruct (nth_error (expecting (NT a) (items s)) k) as [b|] eqn:K; [|exact IV]. apply nth_error_In in K. apply in_expecting in K as [IB AB].
      apply STEP; [auto| |]; [cbn; eapply valid_nt; eauto; apply IV; auto|]. intros s' E _. exact RD.
  Qed.
End Run.
