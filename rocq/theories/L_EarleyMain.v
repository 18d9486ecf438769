(* The sets of the Earley parser taken together. *)
From Verif Require Import M_Base M_Earley L_Earley.

Section Sets.
  Variable prods : list prod.
  Context {place : Type}.
  Variable check : option tree -> place -> nat -> res bool.
  Variable tok : nat -> nat -> nat -> Prop.
  Variable chk : nat -> option tree -> nat -> Prop.
  Variable sp : prod.

  (* ---- closed sets ---- *)
  Record closed (sets : list (list item)) (k : nat) (I : list item) : Prop := {
    c_predict : forall x a p, In x I -> after x = Some (NT a) -> In p prods -> lhs p = a -> In (mkItem (Some k) p []) I;
    c_check : forall x c, In x I -> after x = Some (CN c) -> chk k (transit x) c -> In (advance x None) I;
    c_reduce : forall y o x J, In y I -> after y = None -> origin y = Some o -> nth_error sets o = Some J -> In x J -> after x = Some (NT (lhs (pr y))) ->
      In (advance x (Some (node_of y))) I;
    c_start : forall y, In y I -> after y = None -> origin y <> None }.
  Lemma close_closed before pos f kernel its : (forall prev c, chk (length before) prev c -> check prev pos c = Ok true) ->
    close prods check before pos f kernel = Ok its -> closed (before ++ [its]) (length before) its /\ (forall x, In x kernel -> In x its).
  Proof.
    intros HC H. unfold close in H. destruct (run prods check before pos f (Feed kernel) (mkSet [] [])) as [s|e] eqn:R; [|discriminate]. injection H as <-.
    destruct (run_post prods check before pos f (Feed kernel) _ _ I R) as [[E N P] G]. split; [|exact G].
    assert (HH : forall x, In x (items s) -> handled prods check before pos s x) by (intros x I; apply N; [auto|intros []]).
    assert (HX : forall x q, In x (items s) -> In q (nulls s) -> crossed s x q) by (intros x q I Q; apply P; [auto|auto|intros [[] _]]).
    split.
    - intros x a p I A IP LP. specialize (HH x I). unfold handled in HH. rewrite A in HH. now apply HH.
    - intros x c I A C. specialize (HH x I). unfold handled in HH. rewrite A in HH. apply HH. now apply HC.
    - intros y o x J I A O NJ IX AX. specialize (HH y I). unfold handled in HH. rewrite A in HH. destruct HH as (o' & O' & H1 & H2). assert (o' = o) as -> by congruence. unfold cur in *.
      destruct (Nat.eq_dec o (length before)) as [->|NE].
      + rewrite nth_error_app2, Nat.sub_diag in NJ by auto. injection NJ as <-. apply (HX x (lhs (pr y), node_of y)); auto.
      + apply (H2 J); auto. rewrite <- NJ. symmetry. apply nth_error_app1. assert (o < length (before ++ [items s])) by (apply nth_error_Some; congruence).
        rewrite app_length in *. cbn in *. lia.
    - intros y I A. specialize (HH y I). unfold handled in HH. rewrite A in HH. destruct HH as (o & O & _). congruence.
  Qed.
  Lemma close_valid before pos f kernel : (forall o old x, nth_error before o = Some old -> In x old -> valid prods tok chk sp before o x) ->
    (forall prev c, check prev pos c = Ok true -> chk (length before) prev c) ->
    (forall x, In x kernel -> valid prods tok chk sp before (length before) x) ->
    match close prods check before pos f kernel with
    | Ok its => forall x, In x its -> valid prods tok chk sp (before ++ [its]) (length before) x
    | Err e => failure prods check before pos tok chk sp e
    end.
  Proof.
    intros HB HC HK. unfold close.
    assert (IV : inv prods before tok chk sp (mkSet [] [])) by (split; [intros ? []|intros ? ? []]).
    assert (RD : ready prods before tok chk sp (Feed kernel) (mkSet [] [])) by (intros x I; apply valid_before; auto).
    pose proof (run_inv prods check before pos tok chk sp HB HC f (Feed kernel) (mkSet [] []) IV RD) as H.
    destruct (run prods check before pos f (Feed kernel) (mkSet [] [])) as [s|e]; cbn [bind]; [apply H|exact H].
  Qed.

  (* ---- a derivation is followed by items as far as there are sets ---- *)
  Section Follow.
    Variable sets : list (list item).
    Variable n : nat.
    Hypothesis Hlen : length sets = S n.
    Hypothesis Hclosed : forall k I, nth_error sets k = Some I -> closed sets k I.
    Hypothesis Hscan : forall k I J x t l, nth_error sets k = Some I -> nth_error sets (S k) = Some J -> In x I -> after x = Some (TM t) -> tok k t l -> In (advance x (Some (Leaf t l))) J.
    Definition at_ k x := exists I, nth_error sets k = Some I /\ In x I.
    Definition awaits := exists y t l, at_ n y /\ after y = Some (TM t) /\ tok n t l.
    Lemma at_some k : k <= n -> exists I, nth_error sets k = Some I.
    Proof. intros L. destruct (nth_error sets k) eqn:E; [eauto|]. apply nth_error_None in E. lia. Qed.
    Lemma skipn_after (y : item) r rest : skipn (length (trans y)) (rhs (pr y)) = r :: rest -> after y = Some r /\ skipn (S (length (trans y))) (rhs (pr y)) = rest.
    Proof.
      unfold after. generalize (rhs (pr y)) as l. induction (length (trans y)) as [|m IH]; intros [|x l] E; cbn in *; try discriminate.
      - injection E as -> ->. auto.
      - apply IH in E. destruct l; auto.
    Qed.
    Lemma skipn_none (y : item) : skipn (length (trans y)) (rhs (pr y)) = [] -> after y = None.
    Proof. unfold after. generalize (rhs (pr y)) as l. induction (length (trans y)) as [|m IH]; intros [|x l] E; cbn in *; try discriminate; auto. Qed.
    Lemma follow :
      (forall i a t j, der prods tok chk i a t j -> i <= n -> forall x, at_ i x -> after x = Some (NT a) ->
        (j <= n -> at_ j (advance x (Some t))) /\ (n < j -> awaits)) /\
      (forall i prev rest ch j, derseq prods tok chk i prev rest ch j -> i <= n -> forall y, at_ i y -> transit y = prev -> skipn (length (trans y)) (rhs (pr y)) = rest ->
        (j <= n -> exists z, at_ j z /\ pr z = pr y /\ origin z = origin y /\ after z = None /\ rev (somes (trans z)) = rev (somes (trans y)) ++ ch) /\ (n < j -> awaits)).
    Proof.
      apply der_both.
      - intros i p ch j IP D IH L x (I & NI & IX) A.
        assert (AT : at_ i (mkItem (Some i) p [])) by (exists I; split; [auto|]; eapply c_predict; eauto).
        destruct (IH L _ AT eq_refl eq_refl) as [H1 H2]. split; [|auto]. intros LJ. destruct (H1 LJ) as (z & (J & NJ & IZ) & PZ & OZ & AZ & TZ). cbn in *.
        exists J. split; [auto|]. replace (Node p ch) with (node_of z) by (unfold node_of; rewrite PZ, TZ; reflexivity).
        eapply (c_reduce sets j J); eauto. rewrite PZ. auto.
      - intros i prev L y AT TY SK. apply skipn_none in SK. split; [|lia]. intros _. exists y. rewrite app_nil_r. auto.
      - intros i prev a t j r ch k D IH1 S IH2 L y AT TY SK. apply skipn_after in SK as [A SK]. destruct (IH1 L y AT A) as [H1 H2].
        destruct (Nat.le_gt_cases j n) as [LJ|LJ].
        + destruct (IH2 LJ _ (H1 LJ) eq_refl SK) as [H3 H4]. split; [|auto]. intros LK. destruct (H3 LK) as (z & Z1 & Z2 & Z3 & Z4 & Z5). cbn in *. exists z. repeat split; auto.
          rewrite Z5, <- app_assoc. reflexivity.
        + pose proof (proj2 (der_le prods tok chk) _ _ _ _ _ S). split; [lia|auto].
      - intros i prev t l r ch k T S IH L y AT TY SK. apply skipn_after in SK as [A SK].
        destruct (Nat.eq_dec i n) as [->|NE].
        + pose proof (proj2 (der_le prods tok chk) _ _ _ _ _ S). split; [lia|]. intros _. exists y, t, l. auto.
        + assert (LS : Datatypes.S i <= n) by lia. destruct (at_some _ LS) as [J NJ]. destruct AT as (I & NI & IY).
          assert (AT : at_ (Datatypes.S i) (advance y (Some (Leaf t l)))) by (exists J; split; [auto|]; exact (Hscan i I J y t l NI NJ IY A T)).
          destruct (IH LS _ AT eq_refl SK) as [H3 H4]. split; [|auto]. intros LK. destruct (H3 LK) as (z & Z1 & Z2 & Z3 & Z4 & Z5). cbn in *. exists z. repeat split; auto.
          rewrite Z5, <- app_assoc. reflexivity.
      - intros i prev c r ch k C S IH L y (I & NI & IY) TY SK. apply skipn_after in SK as [A SK].
        assert (AT : at_ i (advance y None)) by (exists I; split; [auto|]; eapply c_check; eauto; rewrite TY; exact C).
        destruct (IH L _ AT eq_refl SK) as [H3 H4]. split; [|auto]. intros LK. destruct (H3 LK) as (z & Z1 & Z2 & Z3 & Z4 & Z5). cbn in *. exists z. repeat split; auto.
    Qed.
  End Follow.

  Lemma closed_more sets k I more : closed sets k I -> (forall y o, In y I -> origin y = Some o -> o < length sets) -> closed (sets ++ more) k I.
  Proof.
    intros [P C R ST] B. split; auto. intros y o x J IY A O N. eapply R; eauto. rewrite nth_error_app1 in N by eauto. exact N.
  Qed.
End Sets.

Lemma in_terminals t its : forall acc, In t (terminals its acc) <-> In t acc \/ exists i, In i its /\ after i = Some (TM t).
Proof.
  induction its as [|i its IH]; intros acc; cbn [terminals]; [split; [auto|intros [H|(i & [] & _)]; auto]|]. rewrite IH.
  assert (E : In t (match after i with Some (TM t0) => if existsb (Nat.eqb t0) acc then acc else acc ++ [t0] | _ => acc end) <-> In t acc \/ after i = Some (TM t)).
  { destruct (after i) as [[a|u|c]|]; try (split; [auto|intros [?|?]; [auto|discriminate]]).
    destruct (existsb (Nat.eqb u) acc) eqn:X.
    - split; [auto|]. intros [?|E]; [auto|]. injection E as ->. apply existsb_exists in X as (v & I & V). apply Nat.eqb_eq in V. now subst.
    - rewrite in_app_iff. cbn. split; [intros [?|[->|[]]]; auto|intros [?|E]; [auto|injection E as ->; auto]]. }
  rewrite E. split; [intros [[?|?]|(x & I & A)]; [auto|right; exists i; cbn; auto|right; exists x; cbn; auto]|intros [?|(x & [<-|I] & A)]; [auto|auto|right; eauto]].
Qed.
Lemma in_next_kernel its : forall rats k, next_kernel its rats = Ok k ->
  forall x, In x k <-> exists t l i, In (t, l) rats /\ In i its /\ after i = Some (TM t) /\ x = advance i (Some (Leaf t l)).
Proof.
  induction rats as [|[t l] rats IH]; cbn; intros k H x; [injection H as <-; split; [intros []|intros (t & l & i & [] & _)]|].
  destruct (assert_ _); [|discriminate]. cbn [bind] in H. destruct (next_kernel its rats) as [k'|]; [|discriminate]. injection H as <-.
  rewrite in_app_iff, (IH k' eq_refl), in_map_iff. split.
  - intros [(i & <- & I)|(t' & l' & i & I & R)]; [apply in_expecting in I as [I A]; exists t, l, i; auto|exists t', l', i; tauto].
  - intros (t' & l' & i & [E|I] & I2 & A & ->); [injection E as <- <-; left; exists i; split; [auto|]; now apply in_expecting|right; exists t', l', i; auto].
Qed.
