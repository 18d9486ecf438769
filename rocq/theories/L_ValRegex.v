(* How the expressions of the content models are read. *)
From Coq Require Import Ascii String.
From Verif Require Import M_Base L_Base M_HTML M_Validate.
Open Scope list_scope.
Open Scope nat_scope.
Notation length := List.length.

(* a character that stands for itself: none of those with another meaning *)
Definition plain_char (c : N) : Prop := ~ In c (tx ".^$*+?{}[]\|()").
(* alternatives of sequences of items, each a character or a group, with ?, * or + after it or not *)
Inductive w_alt : re -> text -> Prop :=
| wa_one r s : w_seq r s -> w_alt r s
| wa_more r s r' s' : w_seq r s -> w_alt r' s' -> w_alt (RAlt r r') (s ++ tx "|" ++ s')
with w_seq : re -> text -> Prop :=
| ws_nil : w_seq REps []
| ws_item r s r' s' : w_item r s -> w_seq r' s' -> w_seq (RCat r r') (s ++ s')
with w_item : re -> text -> Prop :=
| wi_atom r s : w_atom r s -> w_item r s
| wi_opt r s : w_atom r s -> w_item (RAlt r REps) (s ++ tx "?")
| wi_star r s : w_atom r s -> w_item (RStar r) (s ++ tx "*")
| wi_plus r s : w_atom r s -> w_item (RCat r (RStar r)) (s ++ tx "+")
with w_atom : re -> text -> Prop :=
| wt_char c : plain_char c -> w_atom (RChar c) [c]
| wt_group r s : w_alt r s -> w_atom r (tx "(" ++ s ++ tx ")").
Scheme w_alt_m := Minimality for w_alt Sort Prop
with w_seq_m := Minimality for w_seq Sort Prop
with w_item_m := Minimality for w_item Sort Prop
with w_atom_m := Minimality for w_atom Sort Prop.
Combined Scheme w_mut from w_alt_m, w_seq_m, w_item_m, w_atom_m.

Definition isc (c d : N) : bool := (c =? d)%N.
Lemma plain_iff c : plain_char c <-> (c =? 124)%N || (c =? 41)%N = false /\ (c =? 40)%N = false /\ other_special c = false /\ post_of c = None.
Proof.
  unfold plain_char, other_special, post_of. change (tx ".^$*+?{}[]\|()") with [46; 94; 36; 42; 43; 63; 123; 125; 91; 93; 92; 124; 40; 41]%N. change (tx ".^$[]{}\") with [46; 94; 36; 91; 93; 123; 125; 92]%N. cbn [In existsb].
  assert (P : (if (c =? 63)%N then Some POpt else if (c =? 42)%N then Some PStar else if (c =? 43)%N then Some PPlus else None) = None <-> c <> 63%N /\ c <> 42%N /\ c <> 43%N).
  { destruct (N.eqb_spec c 63), (N.eqb_spec c 42), (N.eqb_spec c 43); split; try discriminate; try tauto; intros (? & ? & ?); contradiction. }
  rewrite P, !orb_false_iff, !N.eqb_neq. split; [intros H; repeat split; intros E; apply H; subst; tauto|]. intros H E. decompose [or] E; subst; tauto.
Qed.
Definition is_post (c : N) : Prop := (c = 63 \/ c = 42 \/ c = 43)%N.
Lemma post_none c : post_of c = None <-> ~ is_post c.
Proof. unfold post_of, is_post. destruct (N.eqb_spec c 63), (N.eqb_spec c 42), (N.eqb_spec c 43); split; try discriminate; tauto. Qed.
Lemma post_some c p : post_of c = Some p -> (c = 63%N /\ p = POpt) \/ (c = 42%N /\ p = PStar) \/ (c = 43%N /\ p = PPlus).
Proof. unfold post_of. destruct (N.eqb_spec c 63), (N.eqb_spec c 42), (N.eqb_spec c 43); intros H; try discriminate; injection H as <-; tauto. Qed.

(* what is read is written so *)
Lemma re_sound : forall f,
  (forall u r rest, re_alt f u = Some (r, rest) -> exists s, u = s ++ rest /\ w_alt r s) /\
  (forall u r rest, re_seq f u = Some (r, rest) -> exists s, u = s ++ rest /\ w_seq r s).
Proof.
  induction f as [|f (IA & IS)]; [split; discriminate|]. split; intros u r rest H.
  - cbn [re_alt] in H. destruct (re_seq f u) as [(r1 & u1)|] eqn:E; [|discriminate]. destruct (IS _ _ _ E) as (s & -> & W). destruct u1 as [|c u1]; [injection H as <- <-; exists s; split; [reflexivity|now constructor]|].
    destruct (N.eqb_spec c 124) as [->|]; [|injection H as <- <-; exists s; split; [reflexivity|now constructor]]. destruct (re_alt f u1) as [(r2 & u2)|] eqn:E2; [|discriminate]. injection H as <- <-. destruct (IA _ _ _ E2) as (s2 & -> & W2). exists (s ++ tx "|" ++ s2). split; [now rewrite <- !app_assoc|now constructor].
  - cbn [re_seq] in H. destruct u as [|c u]; [injection H as <- <-; exists []; split; [reflexivity|constructor]|]. destruct ((c =? 124)%N || (c =? 41)%N) eqn:B; [injection H as <- <-; exists []; split; [reflexivity|constructor]|].
    match type of H with match ?a with _ => _ end = _ => destruct a as [(r1 & u1)|] eqn:A; [|discriminate] end.
    assert (AT : exists s, c :: u = s ++ u1 /\ w_atom r1 s).
    { destruct (N.eqb_spec c 40) as [->|N4].
      - destruct (re_alt f u) as [(r2 & [|d u2])|] eqn:E; try discriminate. destruct (N.eqb_spec d 41) as [->|]; [|discriminate]. injection A as -> ->. destruct (IA _ _ _ E) as (s & -> & W). exists (tx "(" ++ s ++ tx ")"). split; [change ((tx "(" ++ s ++ tx ")") ++ u1) with (40%N :: (s ++ tx ")") ++ u1); now rewrite <- app_assoc|now constructor].
      - destruct (other_special c) eqn:O; [discriminate|]. destruct (post_of c) eqn:P; [discriminate|]. injection A as <- <-. exists [c]. split; [reflexivity|]. constructor. apply plain_iff. split; [assumption|]. split; [now apply N.eqb_neq|]. now split. }
    destruct AT as (s & -> & W).
    assert (IT : exists r2 u2 s2, u1 = s2 ++ u2 /\ w_item r2 (s ++ s2) /\ match re_seq f u2 with Some (rest0, t4) => Some (RCat r2 rest0, t4) | None => None end = Some (r, rest)).
    { destruct u1 as [|d u1]; [exists r1, [], []; split; [reflexivity|]; split; [rewrite app_nil_r; now constructor|exact H]|]. destruct (post_of d) as [p|] eqn:P.
      - exists (with_post p r1), u1, [d]. split; [reflexivity|]. split; [|exact H]. apply post_some in P. destruct P as [(-> & ->)|[(-> & ->)|(-> & ->)]]; now constructor.
      - exists r1, (d :: u1), []. split; [reflexivity|]. split; [rewrite app_nil_r; now constructor|exact H]. }
    destruct IT as (r2 & u2 & s2 & -> & WI & H'). destruct (re_seq f u2) as [(r3 & u3)|] eqn:E; [|discriminate]. injection H' as <- <-. destruct (IS _ _ _ E) as (s3 & -> & W3). exists ((s ++ s2) ++ s3). split; [now rewrite <- !app_assoc|now constructor].
Qed.

(* what is written so is read *)
Definition stop_alt (u : text) : Prop := u = [] \/ exists v, u = 41%N :: v.
Definition stop_seq (u : text) : Prop := stop_alt u \/ exists v, u = 124%N :: v.
Definition no_post (u : text) : Prop := match u with c :: _ => post_of c = None | [] => True end.
Lemma stop_no_post u : stop_seq u -> no_post u.
Proof. intros [[->|(v & ->)]|(v & ->)]; [exact I|reflexivity|reflexivity]. Qed.
(* reading of one atom *)
Definition read_atom (f : nat) (u : text) : option (re * text) :=
  match u with
  | [] => None
  | c :: t' => if (c =? 40)%N then match re_alt f t' with Some (r, d :: t'') => if (d =? 41)%N then Some (r, t'') else None | _ => None end
               else if other_special c then None else match post_of c with Some _ => None | None => Some (RChar c, t') end
  end.
Definition goes_on (u : text) : Prop := match u with c :: _ => (c =? 124)%N || (c =? 41)%N = false /\ post_of c = None | [] => False end.
Lemma seq_step f u : goes_on u -> re_seq (S f) u =
  match read_atom f u with
  | None => None
  | Some (r, t2) =>
    let (r', t3) := match t2 with d :: t2' => match post_of d with Some p => (with_post p r, t2') | None => (r, t2) end | [] => (r, t2) end in
    match re_seq f t3 with Some (rest, t4) => Some (RCat r' rest, t4) | None => None end
  end.
Proof. destruct u as [|c u]; [intros []|]. intros (H & _). cbn [re_seq]. rewrite H. reflexivity. Qed.
Lemma re_complete :
  (forall r s, w_alt r s -> forall rest f, stop_alt rest -> 2 * length s + 2 <= f -> re_alt f (s ++ rest) = Some (r, rest)) /\
  (forall r s, w_seq r s -> (s <> [] -> goes_on s) /\ forall rest f, stop_seq rest -> 2 * length s + 1 <= f -> re_seq f (s ++ rest) = Some (r, rest)) /\
  (forall r s, w_item r s -> goes_on s /\ 1 <= length s /\ forall rest f, no_post rest -> 2 * length s <= f -> exists r1 s1, read_atom f (s ++ rest) = Some (r1, s1) /\
     match s1 with d :: t2' => match post_of d with Some p => (with_post p r1, t2') | None => (r1, s1) end | [] => (r1, s1) end = (r, rest)) /\
  (forall r s, w_atom r s -> goes_on s /\ 1 <= length s /\ forall rest f, 2 * length s <= f -> read_atom f (s ++ rest) = Some (r, rest)).
Proof.
  apply w_mut.
  - intros r s _ (_ & IH) rest f ST F. destruct f as [|f]; [lia|]. cbn [re_alt]. rewrite IH by (try (now left); lia). destruct ST as [->|(v & ->)]; reflexivity.
  - intros r s r' s' _ (_ & IH) _ IH' rest f ST F. rewrite !app_length in F. cbn [length tx] in F. change (length (tx "|")) with 1 in F. destruct f as [|f]; [lia|]. cbn [re_alt]. rewrite <- !app_assoc. change (tx "|" ++ s' ++ rest) with (124%N :: s' ++ rest). rewrite IH by (try (right; eauto); lia). rewrite N.eqb_refl, IH' by (try assumption; lia). reflexivity.
  - split; [congruence|]. intros rest f ST F. destruct f as [|f]; [lia|]. destruct ST as [[->|(v & ->)]|(v & ->)]; reflexivity.
  - intros r s r' s' _ (GI & LI & IH) _ (GS & IH'). split; [intros _; destruct s as [|c s]; [destruct GI|exact GI]|]. intros rest f ST F. rewrite app_length in F. destruct f as [|f]; [lia|]. rewrite <- app_assoc.
    assert (NP : no_post (s' ++ rest)) by (destruct s' as [|c s']; [now apply stop_no_post|]; destruct GS as (_ & G); [discriminate|exact G]).
    rewrite seq_step by (destruct s as [|c s]; [destruct GI|exact GI]). destruct (IH (s' ++ rest) f NP) as (r1 & s1 & RA & M); [lia|]. rewrite RA, M, IH' by (try assumption; lia). reflexivity.
  - intros r s _ (G & L & IH). split; [assumption|]. split; [assumption|]. intros rest f NP F. exists r, rest. split; [now apply IH|]. destruct rest as [|d rest]; [reflexivity|]. cbn in NP. now rewrite NP.
  - intros r s _ (G & L & IH). split; [destruct s; [destruct G|exact G]|]. rewrite app_length. split; [lia|]. intros rest f NP F. exists r, (tx "?" ++ rest). rewrite <- app_assoc. split; [apply IH; lia|reflexivity].
  - intros r s _ (G & L & IH). split; [destruct s; [destruct G|exact G]|]. rewrite app_length. split; [lia|]. intros rest f NP F. exists r, (tx "*" ++ rest). rewrite <- app_assoc. split; [apply IH; lia|reflexivity].
  - intros r s _ (G & L & IH). split; [destruct s; [destruct G|exact G]|]. rewrite app_length. split; [lia|]. intros rest f NP F. exists r, (tx "+" ++ rest). rewrite <- app_assoc. split; [apply IH; lia|reflexivity].
  - intros c P. apply plain_iff in P. destruct P as (P1 & P2 & P3 & P4). split; [now split|]. split; [apply le_n|]. intros rest f F. cbn [app read_atom]. now rewrite P2, P3, P4.
  - intros r s _ IH. split; [split; reflexivity|]. rewrite !app_length. change (length (tx "(")) with 1. change (length (tx ")")) with 1. split; [lia|]. intros rest f F. rewrite <- !app_assoc. change (tx "(" ++ s ++ tx ")" ++ rest) with (40%N :: (s ++ 41%N :: rest)). cbn [read_atom]. rewrite N.eqb_refl, IH by (try (right; eauto); lia). now rewrite N.eqb_refl.
Qed.
Lemma re_parse_iff u r : re_parse u = Some r <-> w_alt r u.
Proof.
  unfold re_parse. split.
  - destruct (re_alt _ u) as [(r1 & [|c v])|] eqn:E; try discriminate. intros H. injection H as <-. apply re_sound in E. destruct E as (s & -> & W). now rewrite app_nil_r.
  - intros W. pose proof (proj1 re_complete _ _ W [] (3 + 3 * length u) (or_introl eq_refl)) as H. rewrite app_nil_r in H. rewrite H by lia. reflexivity.
Qed.
