(* The goals of the metagrammar read what has been written (C66): names, tokens, symbols, constraints. *)
From Coq Require Import Ascii String.
From Verif Require Import M_Base M_HTML M_Meta L_Base L_Meta L_MetaRx L_MetaFwd.
Open Scope string_scope.
Open Scope nat_scope.
Open Scope list_scope.
Notation length := Datatypes.length.

Lemma forallb_eq : forall A (f g : A -> bool) l, (forall c, f c = g c) -> forallb g l = true -> forallb f l = true.
Proof. intros A f g l E. induction l as [|a l IH]; cbn; [auto|]. rewrite E. intros H. apply andb_true_iff in H. destruct H as [-> H]. apply IH. exact H. Qed.

Lemma stops_eq : forall (f g : N -> bool) s, (forall c, f c = g c) -> stops g s -> stops f s.
Proof. intros f g [|c s] E H; cbn in *; [exact I|]. rewrite E. exact H. Qed.

Ltac nbool :=
  unfold set_has, citem_has, is_word, in_range, wordb, hex, digit, upper, lower in *;
  cbn [existsb citem_has xorb] in *;
  repeat match goal with
         | |- context [N.leb ?a ?b] => destruct (N.leb_spec a b)
         | H : context [N.leb ?a ?b] |- _ => destruct (N.leb_spec a b)
         | |- context [N.eqb ?a ?b] => destruct (N.eqb_spec a b)
         | H : context [N.eqb ?a ?b] |- _ => destruct (N.eqb_spec a b)
         end; cbn [andb orb negb xorb] in *; try congruence; try lia; auto.

Ltac hit := eapply re_node; [reflexivity|reflexivity|reflexivity|lia|eassumption|].
Ltac miss := first [eapply re_miss; [reflexivity|reflexivity|lia|eassumption|exact eq_refl]
                   |eapply lit_miss; [reflexivity|reflexivity|reflexivity|lia|eassumption|exact eq_refl]].
Ltac lit := eapply lit_hit; [reflexivity|reflexivity|reflexivity|reflexivity|lia|eassumption|eexists; eexists; reflexivity].
Ltac at_assoc A := rewrite <- ?app_assoc in A.
Ltac deeper d := destruct d as [|d]; [lia|].

Section Read.
Variable uniword : N -> bool.
Notation first_match := (first_match uniword).
Notation no_match := (no_match uniword).
Notation set_has := (set_has uniword).
Notation wordb := (wordb uniword).

Lemma fm_seq0 : forall a b s s1 s2 h, first_match a s s1 [] -> first_match b s1 s2 h -> first_match (RSeq a b) s s2 h.
Proof. intros a b s s1 s2 h A B. exact (fm_seq uniword a b s s1 [] s2 h A B). Qed.
Lemma fm_seq_eps : forall a s s1 g, first_match a s s1 g -> first_match (RSeq a REps) s s1 g.
Proof. intros a s s1 g A. rewrite <- (app_nil_r g). eapply fm_seq; [exact A|apply fm_eps]. Qed.

Lemma sh_upper : forall c, set_has false [CRange 65 90] c = upper c.
Proof. intros c. nbool. Qed.
Lemma sh_word : forall c, set_has false [CWord] c = wordb c.
Proof. intros c. unfold M_Meta.set_has, L_Meta.wordb. cbn [existsb citem_has]. unfold is_word. rewrite orb_false_r, xorb_false_l. reflexivity. Qed.
Lemma sh_letter : forall c, set_has false [CRange 97 122; CRange 65 90] c = lower c || upper c.
Proof. intros c. nbool. Qed.
Lemma sh_hex : forall c, set_has false [CRange 48 57; CRange 65 70] c = hex c.
Proof. intros c. nbool. Qed.

(* -------- the regular expressions -------- *)

Definition rx_of (pat : string) : rx := match rx_compile pat with Some r => r | None => REps end.
Definition rx_nt := Eval vm_compute in rx_of "[A-Z]\w*|uri\w*|@".
Definition rx_param := Eval vm_compute in rx_of "([~+?]?)([A-Z][a-zA-Z]*)".
Definition rx_tok := Eval vm_compute in rx_of "`([^` ]+|`)`".
Definition rx_chr := Eval vm_compute in rx_of "&lt;([A-Z]+)&gt;".
Definition rx_label := Eval vm_compute in rx_of "#\w+".
Definition rx_colons := Eval vm_compute in rx_of ":+".
Definition rx_butonly := Eval vm_compute in rx_of "\[> but only if ([^][]+)\]".
Definition rx_urange := Eval vm_compute in rx_of "&gt; any Unicode code point in the inclusive interval from U\+([0-9A-F]+) to U\+([0-9A-F]+)".
Definition rx_uprop := Eval vm_compute in rx_of "&gt; any Unicode code point with the Unicode property &ldquo;(\w+)&rdquo;".

Lemma fm_nt : forall n rest, wf_nt uniword n -> stops wordb rest -> first_match rx_nt (n ++ rest) rest [].
Proof.
  intros n rest W St. pose proof (stops_eq _ _ _ sh_word St) as St'.
  destruct W as [[c [w [-> [Hc Hw]]]]|[[w [-> Hw]]| -> ]].
  - apply fm_alt1. cbn [app]. apply fm_seq_set; [rewrite sh_upper; exact Hc|]. apply fm_seq_eps.
    apply fm_star; [|exact St']. apply (forallb_eq _ _ _ _ sh_word Hw).
  - apply fm_alt2; [exact eq_refl|]. apply fm_alt1. cbn [app tx].
    apply fm_seq_set; [reflexivity|]. apply fm_seq_set; [reflexivity|]. apply fm_seq_set; [reflexivity|]. apply fm_seq_eps.
    apply fm_star; [|exact St']. apply (forallb_eq _ _ _ _ sh_word Hw).
  - apply fm_alt2; [exact eq_refl|]. apply fm_alt2; [exact eq_refl|]. exists []. reflexivity.
Qed.

Lemma nm_nt : forall c s, upper c = false -> c <> 117%N -> c <> 64%N -> no_match rx_nt (c :: s).
Proof.
  intros c s U H1 H2. apply nm_alt; [|apply nm_alt]; apply nm_seq; apply nm_set; cbn [stops]; try (rewrite sh_upper; exact U); nbool.
Qed.

Lemma fm_param : forall x rest, wf_param x -> stops (fun c => lower c || upper c) rest ->
  first_match rx_param (w_param x ++ rest) rest [w_prefix (fst x); snd x].
Proof.
  intros [pre n] rest [c [w [E [Hc Hw]]]] St. cbn [fst snd] in *. subst n.
  change [w_prefix pre; c :: w] with ([w_prefix pre] ++ [c :: w]). unfold w_param. cbn [fst snd]. rewrite <- app_assoc.
  apply fm_seq with (s1 := (c :: w) ++ rest).
  - apply fm_group. apply fm_seq_eps. destruct pre; cbn [w_prefix app].
    + apply fm_alt2; [|apply fm_eps]. apply nm_set. cbn [stops]. nbool.
    + apply fm_alt1. apply fm_set. reflexivity.
    + apply fm_alt1. apply fm_set. reflexivity.
    + apply fm_alt1. apply fm_set. reflexivity.
  - apply fm_seq_eps. apply fm_group. cbn [app]. apply fm_seq_set; [rewrite sh_upper; exact Hc|]. apply fm_seq_eps.
    apply fm_star; [apply (forallb_eq _ _ _ _ sh_letter Hw)|apply (stops_eq _ _ _ sh_letter St)].
Qed.

Lemma fm_tok : forall w rest, wf_tok w -> first_match rx_tok (w_tok w ++ rest) rest [w].
Proof.
  intros w rest W. unfold w_tok. rewrite <- !app_assoc. cbn [tx app].
  apply fm_seq_set; [reflexivity|]. change [w] with ([w] ++ []). apply fm_seq with (s1 := (96 :: rest)%N).
  2:{ apply fm_seq_set; [reflexivity|]. apply fm_eps. }
  apply fm_group. destruct W as [-> |[N0 F]].
  - apply fm_alt2; [exact eq_refl|]. exists []. reflexivity.
  - apply fm_alt1. apply fm_seq_eps. apply fm_plus; [exact N0| |exact eq_refl].
    apply forallb_forall. intros c I. rewrite Forall_forall in F. destruct (F c I) as [F1 F2].
    unfold M_Meta.set_has. cbn. unfold in_range. destruct (N.leb_spec 96 c), (N.leb_spec c 96), (N.leb_spec 32 c), (N.leb_spec c 32); cbn; auto; lia.
Qed.

Lemma fm_chr : forall n rest, wf_chr n -> first_match rx_chr (w_chr n ++ rest) rest [n].
Proof.
  intros n rest [N0 F]. unfold w_chr. rewrite <- !app_assoc. cbn [tx app N_of_ascii].
  do 4 (apply fm_seq_set; [reflexivity|]). change [n] with ([n] ++ []). apply fm_seq with (s1 := tx "&gt;" ++ rest).
  - apply fm_group. apply fm_seq_eps. apply fm_plus; [exact N0|apply (forallb_eq _ _ _ _ sh_upper F)|exact eq_refl].
  - cbn [tx app]. do 4 (apply fm_seq_set; [reflexivity|]). apply fm_eps.
Qed.

Lemma fm_label : forall l rest, wf_label uniword l -> stops wordb rest -> first_match rx_label (l ++ rest) rest [].
Proof.
  intros l rest [w [-> [N0 F]]] St. rewrite <- app_assoc. cbn [tx app]. apply fm_seq_set; [reflexivity|]. apply fm_seq_eps.
  apply fm_plus; [exact N0|apply (forallb_eq _ _ _ _ sh_word F)|apply (stops_eq _ _ _ sh_word St)].
Qed.

Lemma fm_colons : forall n rest, 1 <= n -> stops (N.eqb 58) rest -> first_match rx_colons (repeat 58%N n ++ rest) rest [].
Proof.
  intros n rest H St. apply fm_seq_eps. apply fm_plus.
  - destruct n; [lia|]. discriminate.
  - apply forallb_forall. intros c I. apply repeat_spec in I. subst c. reflexivity.
  - destruct rest as [|c rest]; cbn [stops] in *; [exact I|]. nbool.
Qed.

Lemma fm_butonly : forall w rest, w <> [] -> Forall (fun c => c <> 91%N /\ c <> 93%N) w ->
  first_match rx_butonly ((tx "[> but only if " ++ w ++ tx "]") ++ rest) rest [w].
Proof.
  intros w rest N0 F. rewrite <- !app_assoc. cbn [tx app].
  do 15 (apply fm_seq_set; [reflexivity|]). change [w] with ([w] ++ []). apply fm_seq with (s1 := tx "]" ++ rest).
  - apply fm_group. apply fm_seq_eps. apply fm_plus; [exact N0| |exact eq_refl].
    apply forallb_forall. intros c I. rewrite Forall_forall in F. destruct (F c I) as [F1 F2].
    unfold M_Meta.set_has. cbn. unfold in_range. destruct (N.leb_spec 91 c), (N.leb_spec c 91), (N.leb_spec 93 c), (N.leb_spec c 93); cbn; auto; lia.
  - cbn [tx app]. apply fm_seq_set; [reflexivity|]. apply fm_eps.
Qed.

Ltac chars := repeat (apply fm_seq_set; [reflexivity|]).

Lemma fm_urange : forall lo hi rest,
  lo <> [] -> forallb hex lo = true -> hi <> [] -> forallb hex hi = true -> stops hex rest ->
  first_match rx_urange (w_body (BRange lo hi) ++ rest) rest [lo; hi].
Proof.
  intros lo hi rest N1 F1 N2 F2 St. unfold w_body, w_any. rewrite <- !app_assoc. cbn [tx app N_of_ascii].
  chars. change [lo; hi] with ([lo] ++ [hi]).
  apply fm_seq with (s1 := tx " to U+" ++ hi ++ rest).
  - apply fm_group. apply fm_seq_eps. apply fm_plus; [exact N1|apply (forallb_eq _ _ _ _ sh_hex F1)|exact eq_refl].
  - cbn [tx app]. chars. apply fm_seq_eps. apply fm_group. apply fm_seq_eps.
    apply fm_plus; [exact N2|apply (forallb_eq _ _ _ _ sh_hex F2)|apply (stops_eq _ _ _ sh_hex St)].
Qed.

Lemma fm_uprop : forall n rest, n <> [] -> forallb wordb n = true ->
  first_match rx_uprop (w_body (BProp n) ++ rest) rest [n].
Proof.
  intros n rest N1 F1. unfold w_body, w_any. rewrite <- !app_assoc. cbn [tx app N_of_ascii].
  chars. change [n] with ([n] ++ []).
  apply fm_seq with (s1 := tx "&rdquo;" ++ rest).
  - apply fm_group. apply fm_seq_eps. apply fm_plus; [exact N1|apply (forallb_eq _ _ _ _ sh_word F1)|exact eq_refl].
  - cbn [tx app]. chars. apply fm_eps.
Qed.

(* -------- goals -------- *)

Variables (t : text) (e : nat).
Notation run d goal p i := (snd (attempt uniword metagrammar t e d goal p i)).

(* reading [goal] at p gives a node for x *)
Definition reads {A} (d : nat) (goal : string) (p : nat) (i : option Z) (w : text) (R : gnode -> A -> Prop) (x : A) : Prop :=
  exists n, run d goal p i = Ok (Some (p + length w, i, Some n)) /\ R n x.

Lemma leaf_node : forall goal p w rest g, at_ t p (w ++ rest) -> leaf t (GNode goal p (p + length w) g []) goal w g.
Proof. intros goal p w rest g A. unfold leaf, says, g_text. cbn. repeat split. apply (at_slice _ _ _ _ A). Qed.

Lemma read_nt : forall d p i n rest, 1 <= d -> wf_nt uniword n -> stops wordb rest -> at_ t p (n ++ rest) ->
  run d "NT" p i = Ok (Some (p + length n, i, Some (GNode "NT" p (p + length n) [] []))).
Proof. intros d p i n rest D W St A. hit. apply fm_nt; assumption. Qed.

Lemma read_tok : forall d p i w rest, 1 <= d -> wf_tok w -> at_ t p (w_tok w ++ rest) ->
  reads d "BACKTICKED_THING" p i (w_tok w) (is_tok t) w.
Proof. intros d p i w rest D W A. eexists. split; [hit; apply fm_tok; exact W|]. apply (leaf_node _ _ _ _ _ A). Qed.

Lemma read_chr : forall d p i n rest, 1 <= d -> wf_chr n -> at_ t p (w_chr n ++ rest) ->
  reads d "NAMED_CHAR" p i (w_chr n) (is_chr t) n.
Proof. intros d p i w rest D W A. eexists. split; [hit; apply fm_chr; exact W|]. apply (leaf_node _ _ _ _ _ A). Qed.

Lemma read_nlth : forall d p i rest, 1 <= d -> at_ t p (w_nlth ++ rest) ->
  run d "NLTH" p i = Ok (Some (p + length w_nlth, i, Some (GNode "NLTH" p (p + length w_nlth) [] []))).
Proof. intros d p i rest D A. hit. exists []. reflexivity. Qed.

Lemma wf_param_long : forall x, wf_param x -> 1 <= length (w_param x).
Proof. intros x [c [w [E _]]]. unfold w_param. rewrite app_length, E. cbn. lia. Qed.

Lemma wf_nt_long : forall n, wf_nt uniword n -> 1 <= length n.
Proof. intros n [[c [w [-> _]]]|[[w [-> _]]| ->]]; cbn; lia. Qed.

Lemma wf_tok_long : forall w, 1 <= length (w_tok w).
Proof. intros w. unfold w_tok. rewrite app_length. cbn. lia. Qed.

Lemma Forall_in : forall A (P : A -> Prop) l x, Forall P l -> In x l -> P x.
Proof. intros A P l x F I. rewrite Forall_forall in F. apply F. exact I. Qed.

Lemma read_params : forall d p i l rest, 2 <= d -> Forall wf_param (ne_list l) -> at_ t p (w_params l ++ rest) ->
  reads d "PARAMS" p i (w_params l) (is_params t) l.
Proof.
  intros d p i l rest D W A. deeper d. pose proof A as A0. unfold w_params in A0. at_assoc A0.
  pose proof (at_app _ _ _ _ A0) as A1. rewrite <- joinr_ne in A1. pose proof (at_app _ _ _ _ A1) as A2.
  edestruct (list_delim uniword t e param w_param (is_param t) (fun x r => wf_param x /\ stops (fun c => lower c || upper c) r)
      d "PARAMS" RNode "PARAM" ", " "\[" "\]" i i (fst l) (map (fun x => (tx ", ", x)) (snd l)) p) with (p0 := p + length (tx "[")) (rest := tx "]" ++ rest) (q := p + length (w_params l)) as [ns [E F]];
    [reflexivity|reflexivity| | | | | | |exact A1| |].
  - exists None. lit.
  - intros x p0 r [Wx St] Ax. eexists. split; [hit; apply fm_param; assumption|]. apply (leaf_node _ _ _ _ _ Ax).
  - intros s y p0 r I Ax. apply in_map_iff in I. destruct I as [z [Ez _]]. inversion Ez; subst. exists None. lit.
  - apply chain_all. intros y r I. rewrite map_snd_pair in I. pose proof (Forall_in _ _ _ _ W I) as Wy. split; [split; [exact Wy|exact eq_refl]|].
    intros s z I'. apply in_map_iff in I'. destruct I' as [z' [Ez _]]. inversion Ez; subst. split; [exact Wy|exact eq_refl].
  - intros p0 Ax. left. miss.
  - intros y I. rewrite map_snd_pair in I. apply wf_param_long. apply (Forall_in _ _ _ _ W I).
  - cbn [String.eqb Ascii.eqb]. exists None.
    replace (p + length (w_params l)) with (p + length (tx "[") + length (joinr w_param (fst l) (map (fun x => (tx ", ", x)) (snd l))) + length (tx "]")).
    2:{ unfold w_params. rewrite !app_length, joinr_ne. lia. }
    lit.
  - exists (GNode "PARAMS" p (p + length (w_params l)) [] ns). split; [exact E|]. split; [reflexivity|]. split.
    + unfold says, g_text. cbn. apply (at_slice _ _ _ _ A).
    + rewrite map_snd_pair in F. exact F.
Qed.
End Read.
