(* Specification and lemmas for mynamedtuple.py (C08). *)
From Verif Require Import M_Base L_Base M_NamedTuple.

(* strict lexicographic order of names by code point *)
Inductive name_lt : text -> text -> Prop :=
| nl_nil x b : name_lt [] (x :: b)
| nl_head x y a b : (x < y)%N -> name_lt (x :: a) (y :: b)
| nl_tail x a b : name_lt a b -> name_lt (x :: a) (x :: b).

Lemma name_lt_leb a : forall b, name_lt a b <-> (text_leb a b && negb (text_eqb a b)) = true.
Proof.
  induction a as [|x a IH]; intros [|y b]; cbn.
  - split; [intros H; inversion H|discriminate].
  - split; [reflexivity|constructor].
  - split; [intros H; inversion H|discriminate].
  - destruct (N.ltb_spec x y) as [H|H].
    + assert ((x =? y)%N = false) as -> by (apply N.eqb_neq; lia). cbn. split; [reflexivity|]. now constructor.
    + destruct (N.ltb_spec y x) as [H'|H'].
      * cbn. split; [|discriminate]. intros Hl. inversion Hl; lia.
      * assert (x = y) by lia. subst. rewrite N.eqb_refl. cbn. rewrite <- IH. split.
        -- intros Hl. inversion Hl; [lia|assumption].
        -- now constructor.
Qed.

Section NTS.
  Context {V : Type} (veq : V -> V -> bool) (vlt : V -> V -> res bool) (inj : text -> V).

  Lemma construct_ok tt (args : list V) t : construct tt args = Ok t ->
    length args = length (tt_fields tt) /\ t = ETag (tt_name tt) :: map EVal args.
  Proof.
    unfold construct. destruct (Nat.eqb_spec (length args) (length (tt_fields tt))); [|discriminate].
    intros H; inversion H; auto.
  Qed.

  Lemma nt_diff_types tt1 tt2 (a1 a2 : list V) t1 t2 :
    construct tt1 a1 = Ok t1 -> construct tt2 a2 = Ok t2 -> tt_name tt1 <> tt_name tt2 ->
    tup_eq veq inj t1 t2 = false /\
    exists b, tup_lt veq vlt inj t1 t2 = Ok b /\ (b = true <-> name_lt (tt_name tt1) (tt_name tt2)).
  Proof.
    intros H1 H2 Hne. apply construct_ok in H1 as [_ ->]. apply construct_ok in H2 as [_ ->].
    assert (text_eqb (tt_name tt1) (tt_name tt2) = false) as E.
    { destruct (text_eqb _ _) eqn:E; [|reflexivity]. apply text_eqb_eq in E. contradiction. }
    cbn. rewrite E. split; [reflexivity|]. eexists. split; [reflexivity|].
    rewrite name_lt_leb, E. reflexivity.
  Qed.

  Lemma nt_same_type tt (a1 a2 : list V) t1 t2 :
    construct tt a1 = Ok t1 -> construct tt a2 = Ok t2 ->
    (tup_eq veq inj t1 t2 = true <-> Forall2 (fun x y => veq x y = true) a1 a2).
  Proof.
    intros H1 H2. apply construct_ok in H1 as [_ ->]. apply construct_ok in H2 as [_ ->].
    cbn. assert (text_eqb (tt_name tt) (tt_name tt) = true) as -> by now apply text_eqb_eq. cbn.
    revert a2. induction a1 as [|x a1 IH]; intros [|y a2]; cbn.
    - split; auto.
    - split; [discriminate|intros H; inversion H].
    - split; [discriminate|intros H; inversion H].
    - rewrite andb_true_iff, IH. split; [intros []; now constructor|intros H; inversion H; auto].
  Qed.

  Lemma has_dup_spec l : has_dup l = false <-> NoDup l.
  Proof.
    induction l as [|x l IH]; cbn; [split; [constructor|reflexivity]|].
    rewrite orb_false_iff, IH. split.
    - intros [H1 H2]. constructor; [|assumption]. intros Hi.
      assert (existsb (text_eqb x) l = true); [|congruence]. apply existsb_exists. exists x. split; [exact Hi|now apply text_eqb_eq].
    - intros H. inversion H as [|? ? Hx HN]; subst. split; [|assumption].
      destruct (existsb (text_eqb x) l) eqn:E; [|reflexivity]. apply existsb_exists in E as (y & Hy & Ey).
      apply text_eqb_eq in Ey. subst. contradiction.
  Qed.

  Lemma last_index_none l name : forall i, ~ In name l -> last_index i l name = None.
  Proof.
    induction l as [|x l IH]; intros i H; cbn; [reflexivity|]. rewrite IH by (intros Hi; apply H; now right).
    destruct (text_eqb x name) eqn:E; [|reflexivity]. apply text_eqb_eq in E. exfalso; apply H; now left.
  Qed.

  Lemma last_index_nodup l : NoDup l -> forall i k name, nth_error l k = Some name -> last_index i l name = Some (i + k).
  Proof.
    induction 1 as [|x l Hx HN IH]; intros i k name Hk; [destruct k; discriminate|]. cbn.
    destruct k as [|k]; cbn in Hk.
    - inversion Hk; subst. rewrite last_index_none by assumption.
      assert (text_eqb name name = true) as -> by now apply text_eqb_eq. f_equal; lia.
    - rewrite (IH (S i) k name Hk). f_equal. lia.
  Qed.

  Lemma nt_accessor name fields tt (args : list V) t k f v :
    declare name fields = Ok tt -> construct tt args = Ok t ->
    nth_error fields k = Some f -> nth_error args k = Some v ->
    get_attr tt t f = Ok (EVal v).
  Proof.
    unfold declare. destruct (has_dup _) eqn:Ed; [discriminate|]. intros H; inversion H; subst tt; clear H.
    apply has_dup_spec in Ed. inversion Ed as [|? ? _ HN]; subst.
    intros Hc Hf Hv. apply construct_ok in Hc as [_ ->]. unfold get_attr, afield_names. cbn [last_index tt_fields].
    rewrite (last_index_nodup fields HN 1 k f Hf). cbn [Nat.add nth_error].
    rewrite (map_nth_error EVal k args Hv). reflexivity.
  Qed.

  Lemma nt_tag name fields tt (args : list V) t :
    declare name fields = Ok tt -> construct tt args = Ok t -> ~ In name_T fields ->
    get_attr tt t name_T = Ok (ETag name).
  Proof.
    unfold declare. destruct (has_dup _) eqn:Ed; [discriminate|]. intros H; inversion H; subst tt; clear H.
    intros Hc Hf. apply construct_ok in Hc as [_ ->]. unfold get_attr, afield_names. cbn [last_index tt_fields].
    rewrite last_index_none by assumption. reflexivity.
  Qed.

  (* a field called T hides the type name *)
  Lemma nt_tag_hidden_refuted (v : V) : exists name fields tt t,
    declare name fields = Ok tt /\ construct tt [v] = Ok t /\ get_attr tt t name_T = Ok (EVal v).
  Proof. exists [65%N], [name_T], (mkTT [65%N] [name_T]), [ETag [65%N]; EVal v]. repeat split. Qed.

  Lemma nt_wrong_arity tt (args : list V) : length args <> length (tt_fields tt) -> construct tt args = Err TypeError.
  Proof. intros H. unfold construct. apply Nat.eqb_neq in H. now rewrite H. Qed.
End NTS.
