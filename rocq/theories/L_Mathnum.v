(* Rounding, digits: lemmas about the numbers of executed pseudocode. *)
From Coq Require Import Ascii String QArith.
From Verif Require Import M_Base L_Base M_HTML M_Mathnum.
Open Scope list_scope.
Notation length := List.length.
Open Scope Z_scope.

Lemma U_gt0 : 0 < unit_. Proof. unfold unit_. apply Z.pow_pos_nonneg; lia. Qed.

Lemma half_even_near n d : 0 < d -> 2 * Z.abs (half_even n d * d - n) <= d.
Proof.
  intros D. unfold half_even. pose proof (Z_div_mod_eq_full n d) as E. pose proof (Z.mod_pos_bound n d D) as B.
  destruct (Z.compare_spec (2 * (n mod d)) d) as [C|C|C]; [destruct (Z.even (n / d))| |]; nia.
Qed.
Lemma half_even_nearest n d z : 0 < d -> Z.abs (half_even n d * d - n) <= Z.abs (z * d - n).
Proof.
  intros D. pose proof (half_even_near n d D) as H. set (h := half_even n d) in *. clearbody h.
  destruct (Z.eq_dec z h) as [->|NE]; [lia|]. assert (d <= Z.abs ((z - h) * d)) by (rewrite Z.abs_mul; rewrite (Z.abs_eq d) by lia; nia). nia.
Qed.
Lemma half_even_nonneg n d : 0 < d -> 0 <= n -> 0 <= half_even n d.
Proof. intros D N. unfold half_even. assert (0 <= n / d) by (apply Z.div_pos; lia). destruct (Z.compare _ _); [destruct (Z.even _)| |]; lia. Qed.

(* the shift *)
Definition sh (n d : Z) : Z := Z.max 0 (Z.log2 (n / d) - 52).
Lemma round_pos_sh n d : round_pos n d = half_even n (d * 2 ^ sh n d) * 2 ^ sh n d.
Proof. reflexivity. Qed.
Lemma sh_nonneg n d : 0 <= sh n d. Proof. unfold sh. lia. Qed.
Lemma sh_low n d : 0 < d -> 0 <= n -> 0 < sh n d -> 2 ^ 52 * (d * 2 ^ sh n d) <= n.
Proof.
  intros D N S. assert (L : 0 < n / d). { destruct (Z.eq_dec (n / d) 0) as [E|E]; [unfold sh in S; rewrite E in S; cbn in S; lia|]. assert (0 <= n / d) by (apply Z.div_pos; lia). lia. }
  assert (E : sh n d = Z.log2 (n / d) - 52) by (unfold sh in *; lia). rewrite E in *. pose proof (proj1 (Z.log2_spec _ L)) as LS.
  assert (P : 2 ^ 52 * 2 ^ (Z.log2 (n / d) - 52) = 2 ^ Z.log2 (n / d)). { rewrite <- Z.pow_add_r by lia. f_equal. lia. }
  pose proof (Z.mul_div_le n d D). nia.
Qed.
Lemma round_pos_near n d : 0 < d -> 2 * Z.abs (round_pos n d * d - n) <= d * 2 ^ sh n d.
Proof.
  intros D. rewrite round_pos_sh. assert (P : 0 < 2 ^ sh n d) by (apply Z.pow_pos_nonneg; [lia|apply sh_nonneg]).
  pose proof (half_even_near n (d * 2 ^ sh n d) ltac:(nia)) as H. rewrite <- Z.mul_assoc, (Z.mul_comm (2 ^ _) d). exact H.
Qed.
(* rounding gives a nearest double *)
Lemma round_pos_nearest n d m s : 0 < d -> 0 <= n -> 0 <= s -> Z.abs m <= 2 ^ 53 - 1 ->
  Z.abs (round_pos n d * d - n) <= Z.abs (m * 2 ^ s * d - n).
Proof.
  intros D N S M. rewrite round_pos_sh. set (t := sh n d). assert (T : 0 <= t) by apply sh_nonneg.
  assert (P : 0 < 2 ^ t) by (apply Z.pow_pos_nonneg; lia). assert (DP : 0 < d * 2 ^ t) by nia.
  replace (half_even n (d * 2 ^ t) * 2 ^ t * d) with (half_even n (d * 2 ^ t) * (d * 2 ^ t)) by ring.
  destruct (Z.le_gt_cases t s) as [L|L].
  - replace (m * 2 ^ s * d) with (m * 2 ^ (s - t) * (d * 2 ^ t)). { now apply half_even_nearest. }
    replace (2 ^ s) with (2 ^ (s - t) * 2 ^ t) by (rewrite <- Z.pow_add_r by lia; f_equal; lia). ring.
  - pose proof (half_even_nearest n (d * 2 ^ t) (2 ^ 52) DP) as H. pose proof (sh_low n d D N ltac:(fold t; lia)) as Q. fold t in Q.
    rewrite (Z.abs_neq (2 ^ 52 * (d * 2 ^ t) - n)) in H by lia.
    assert (B : m * 2 ^ s * d <= 2 ^ 52 * (d * 2 ^ t)).
    { assert (E : 2 ^ t = 2 ^ (t - 1 - s) * 2 ^ s * 2). { rewrite <- Z.pow_add_r by lia. replace (t - 1 - s + s) with (t - 1) by lia. rewrite Z.mul_comm, <- Z.pow_succ_r by lia. f_equal. lia. }
      assert (1 <= 2 ^ (t - 1 - s)) by (apply (Z.pow_le_mono_r 2 0); lia). assert (0 < 2 ^ s) by (apply Z.pow_pos_nonneg; lia).
      assert (m * 2 ^ s <= 2 ^ 52 * 2 ^ t). { rewrite E. change (2 ^ 52) with 4503599627370496 in *. change (2 ^ 53) with 9007199254740992 in M. nia. } nia. }
    lia.
Qed.
Lemma round_pos_nonneg n d : 0 < d -> 0 <= n -> 0 <= round_pos n d.
Proof.
  intros D N. rewrite round_pos_sh. assert (P : 0 < 2 ^ sh n d) by (apply Z.pow_pos_nonneg; [lia|apply sh_nonneg]). pose proof (half_even_nonneg n (d * 2 ^ sh n d) ltac:(nia) N). nia.
Qed.

(* an integer quotient below 2^53 is rounded to itself *)
Lemma round_pos_exact n d m s : 0 < d -> 0 <= n -> 0 <= s -> Z.abs m <= 2 ^ 53 - 1 -> m * 2 ^ s * d = n -> round_pos n d = m * 2 ^ s.
Proof.
  intros D N S M E. pose proof (round_pos_nearest n d m s D N S M) as H. rewrite E, Z.sub_diag in H. cbn [Z.abs] in H. assert (round_pos n d * d = m * 2 ^ s * d) by lia. nia.
Qed.
Lemma quotient_near a d : 0 < d <= 2 ^ 53 -> 0 <= a < 2 ^ 53 -> Z.abs (round_pos (a * unit_) d * d - a * unit_) < unit_.
Proof.
  intros D A. pose proof U_gt0 as U. pose proof (round_pos_near (a * unit_) d ltac:(lia)) as H.
  destruct (Z.eq_dec (sh (a * unit_) d) 0) as [E|E].
  - rewrite E in H. change (2 ^ 0) with 1 in H. assert (2 ^ 53 < unit_) by (unfold unit_; apply Z.pow_lt_mono_r; lia). lia.
  - pose proof (sh_nonneg (a * unit_) d). pose proof (sh_low (a * unit_) d ltac:(lia) ltac:(nia) ltac:(lia)) as Q.
    set (w := d * 2 ^ sh (a * unit_) d) in *. clearbody w. change (2 ^ 52) with 4503599627370496 in Q. change (2 ^ 53) with 9007199254740992 in A. nia.
Qed.

(* what a double can be: 53 significant bits *)
Definition double (k : Z) : Prop := exists m s, 0 <= s /\ Z.abs m <= 2 ^ 53 - 1 /\ k = m * 2 ^ s.

Lemma div_nearest a b k : b <> 0 -> m_div (MInt a) (MInt b) = NOk (MFlt k) ->
  forall k', double k' -> Z.abs (k * b - a * unit_) <= Z.abs (k' * b - a * unit_).
Proof.
  intros B H k' (m & s & S & M & ->). cbn [m_div] in H. destruct (b =? 0) eqn:E; [apply Z.eqb_eq in E; lia|]. unfold round_ in H.
  destruct (_ <? infinite); [|discriminate]. injection H as <-. pose proof U_gt0 as U.
  set (X := Z.abs (a * unit_)). set (D := Z.abs b).
  assert (HX : a * unit_ = Z.sgn (a * unit_) * X) by (unfold X; pose proof (Z.abs_sgn (a * unit_)); lia). assert (HB : b = Z.sgn b * D) by (unfold D; pose proof (Z.abs_sgn b); lia).
  pose proof (round_pos_nearest X D) as R.
  assert (D0 : 0 < D) by (unfold D; lia). assert (X0 : 0 <= X) by (unfold X; lia).
  set (sa := Z.sgn (a * unit_)) in *. set (sb := Z.sgn b) in *.
  assert (SB : sb = 1 \/ sb = -1) by (unfold sb; destruct b; [lia|now left|now right]).
  assert (SA : sa = 0 /\ X = 0 \/ sa = 1 \/ sa = -1). { unfold sa, X. destruct (a * unit_); [left; split; reflexivity|now right; left|now right; right]. }
  set (r := round_pos X D) in *. set (p := 2 ^ s) in *.
  destruct SA as [(-> & X00)|[->| ->]].
  - rewrite HX. cbn [Z.mul]. lia.
  - destruct SB as [-> | ->]; rewrite HX, HB.
    + specialize (R m s D0 X0 S M). fold p in R. fold r in R. replace (1 * 1 * r * (1 * D) - 1 * X) with (r * D - X) by ring. replace (m * p * (1 * D) - 1 * X) with (m * p * D - X) by ring. exact R.
    + specialize (R (- m) s D0 X0 S ltac:(lia)). fold p in R. fold r in R. replace (1 * -1 * r * (-1 * D) - 1 * X) with (r * D - X) by ring. replace (m * p * (-1 * D) - 1 * X) with (- m * p * D - X) by ring. exact R.
  - destruct SB as [-> | ->]; rewrite HX, HB.
    + specialize (R (- m) s D0 X0 S ltac:(lia)). fold p in R. fold r in R. replace (-1 * 1 * r * (1 * D) - -1 * X) with (- (r * D - X)) by ring. replace (m * p * (1 * D) - -1 * X) with (- (- m * p * D - X)) by ring. now rewrite !Z.abs_opp.
    + specialize (R m s D0 X0 S ltac:(lia)). fold p in R. fold r in R. replace (-1 * -1 * r * (-1 * D) - -1 * X) with (- (r * D - X)) by ring. replace (m * p * (-1 * D) - -1 * X) with (- (m * p * D - X)) by ring. now rewrite !Z.abs_opp.
Qed.

Lemma div_ok a b : 0 < Z.abs b <= 2 ^ 53 -> Z.abs a < 2 ^ 53 ->
  m_div (MInt a) (MInt b) = NOk (MFlt (Z.sgn a * Z.sgn b * round_pos (Z.abs a * unit_) (Z.abs b))).
Proof.
  intros B A. cbn [m_div]. destruct (b =? 0) eqn:E; [apply Z.eqb_eq in E; subst; cbn in B; lia|]. unfold round_. pose proof U_gt0 as U.
  rewrite Z.sgn_mul, (Z.sgn_pos unit_ U), Z.mul_1_r, (Z.abs_mul a unit_), (Z.abs_eq unit_) by lia.
  set (p := round_pos (Z.abs a * unit_) (Z.abs b)). destruct (Z.ltb_spec (Z.abs (Z.sgn a * Z.sgn b * p)) infinite) as [L|L]; [reflexivity|exfalso].
  pose proof (quotient_near (Z.abs a) (Z.abs b) B ltac:(lia)) as Q. fold p in Q.
  assert (P : 0 <= p) by (apply round_pos_nonneg; nia).
  assert (Z.abs (Z.sgn a * Z.sgn b * p) <= p). { rewrite !Z.abs_mul. rewrite (Z.abs_eq p) by lia. destruct a, b; cbn [Z.sgn Z.abs]; lia. }
  assert (p * Z.abs b < 2 ^ 53 * unit_) by nia. unfold infinite in L. assert (2 ^ 53 < 2 ^ 1024) by (apply Z.pow_lt_mono_r; lia). nia.
Qed.
Lemma div_floor a b : 0 < Z.abs b <= 2 ^ 53 -> Z.abs a < 2 ^ 53 ->
  exists k, m_div (MInt a) (MInt b) = NOk (MFlt k) /\ m_floor (MFlt k) = MInt (a / b).
Proof.
  intros B A. eexists. split; [now apply div_ok|]. cbn [m_floor]. f_equal. pose proof U_gt0 as U.
  set (p := round_pos (Z.abs a * unit_) (Z.abs b)). pose proof (quotient_near (Z.abs a) (Z.abs b) B ltac:(lia)) as Q. fold p in Q.
  assert (LOW : forall g, g * Z.abs b < Z.abs a -> g * unit_ < p) by (intros g G; nia).
  assert (HIGH : forall g, Z.abs a < g * Z.abs b -> p < g * unit_) by (intros g G; nia).
  assert (EX : forall g, g * Z.abs b = Z.abs a -> p = g * unit_).
  { intros g G. unfold p, unit_. apply round_pos_exact; nia. }
  clearbody p. clear Q.
  assert (POS : forall a' b', 0 <= a' -> 0 < b' -> (forall g, g * b' < a' -> g * unit_ < p) -> (forall g, a' < g * b' -> p < g * unit_) -> (forall g, g * b' = a' -> p = g * unit_) -> p / unit_ = a' / b' /\ - p / unit_ = - a' / b').
  { clear - U. intros a b A B L H E. split.
    - symmetry. apply Z.div_unique with (p - a / b * unit_); [|ring]. left. pose proof (Z.mul_div_le a b B). pose proof (Z.mul_succ_div_gt a b B). split.
      + destruct (Z.eq_dec (a / b * b) a) as [Q|Q]; [rewrite (E _ Q); lia|]. specialize (L (a / b) ltac:(nia)). lia.
      + specialize (H (a / b + 1) ltac:(nia)). lia.
    - symmetry. apply Z.div_unique with (- p - (- a) / b * unit_); [|ring]. left. pose proof (Z.mul_div_le (- a) b B). pose proof (Z.mul_succ_div_gt (- a) b B). split.
      + destruct (Z.eq_dec (- ((- a) / b) * b) a) as [Q|Q]; [rewrite (E _ Q); lia|]. specialize (H (- ((- a) / b)) ltac:(nia)). lia.
      + specialize (L (- ((- a) / b) - 1) ltac:(nia)). lia. }
  destruct (POS (Z.abs a) (Z.abs b) ltac:(lia) ltac:(lia) LOW HIGH EX) as (P1 & P2).
  destruct (Z.eq_dec a 0) as [->|NA].
  { cbn [Z.abs] in P1. rewrite Zdiv_0_l in P1. cbn [Z.sgn Z.mul]. now rewrite !Zdiv_0_l. }
  destruct (Z.lt_total a 0) as [NEG|[?|PS]]; [| lia |]; (destruct (Z.lt_total b 0) as [NB|[?|PB]]; [| lia |]).
  - rewrite !Z.sgn_neg by lia. replace (-1 * -1 * p) with p by ring. rewrite P1, !Z.abs_neq by lia. rewrite Z.div_opp_opp by lia. reflexivity.
  - rewrite (Z.sgn_neg a), (Z.sgn_pos b) by lia. replace (-1 * 1 * p) with (- p) by ring. rewrite P2, (Z.abs_neq a), (Z.abs_eq b) by lia. f_equal. lia.
  - rewrite (Z.sgn_pos a), (Z.sgn_neg b) by lia. replace (1 * -1 * p) with (- p) by ring. rewrite P2, (Z.abs_eq a), (Z.abs_neq b) by lia. rewrite <- (Z.div_opp_opp a b) by lia. reflexivity.
  - rewrite !Z.sgn_pos by lia. replace (1 * 1 * p) with p by ring. rewrite P1, !Z.abs_eq by lia. reflexivity.
Qed.

(* ------------------------------------------------------------------ *)
(* Digits.  l, least significant first, is the decimal numeral of n > 0 *)
Inductive numeral : list Z -> Z -> Prop :=
| num_one d : 0 < d < 10 -> numeral [d] d
| num_more d l n : 0 <= d < 10 -> numeral l n -> numeral (d :: l) (d + 10 * n).

Lemma digits_numeral f : forall n, 0 < n < 2 ^ (Z.of_nat f + 1) -> numeral (digits_rev f n) n.
Proof.
  induction f as [|f IH]; intros n N; cbn [digits_rev].
  - constructor. change (2 ^ (Z.of_nat 0 + 1)) with 2 in N. lia.
  - destruct (Z.ltb_spec n 10) as [L|L]; [constructor; lia|]. assert (Q : n = n mod 10 + 10 * (n / 10)) by (pose proof (Z_div_mod_eq_full n 10); lia). enough (numeral (n mod 10 :: digits_rev f (n / 10)) (n mod 10 + 10 * (n / 10))) by (now rewrite <- Q in H). constructor; [apply Z.mod_pos_bound; lia|]. apply IH. split.
    + apply Z.div_str_pos. lia.
    + apply Z.div_lt_upper_bound; [lia|]. rewrite Nat2Z.inj_succ in N. replace (Z.succ (Z.of_nat f) + 1) with (Z.of_nat f + 1 + 1) in N by lia. rewrite (Z.pow_add_r 2 (Z.of_nat f + 1) 1) in N by lia. change (2 ^ 1) with 2 in N. assert (0 < 2 ^ (Z.of_nat f + 1)) by (apply Z.pow_pos_nonneg; lia). lia.
Qed.
Lemma str_numeral n : 0 < n -> numeral (rev (str_of n)) n.
Proof.
  intros N. unfold str_of. rewrite rev_involutive. apply digits_numeral. split; [assumption|]. rewrite Z2Nat.id by apply Z.log2_nonneg. apply Z.log2_spec. assumption.
Qed.
Lemma numeral_bounds l n : numeral l n -> 10 ^ (Z.of_nat (length l) - 1) <= n < 10 ^ Z.of_nat (length l).
Proof.
  induction 1 as [d D|d l n D H IH]; cbn [length].
  - change (Z.of_nat 1) with 1. change (10 ^ (1 - 1)) with 1. change (10 ^ 1) with 10. lia.
  - assert (1 <= Z.of_nat (length l)). { destruct H; cbn [length]; lia. } rewrite Nat2Z.inj_succ. replace (Z.succ (Z.of_nat (length l)) - 1) with (1 + (Z.of_nat (length l) - 1)) by lia.
    rewrite Z.pow_succ_r, Z.pow_add_r by lia. change (10 ^ 1) with 10. lia.
Qed.
Lemma numeral_last l n : numeral l n -> exists l' d, l = l' ++ [d] /\ d <> 0.
Proof.
  induction 1 as [d D|d l n D H (l' & e & -> & E)]; [exists [], d; split; [reflexivity|lia]|]. exists (d :: l'), e. now split.
Qed.
Lemma numeral_strip l n : numeral l n -> exists k m, 0 <= k /\ n = m * 10 ^ k /\ m mod 10 <> 0 /\ numeral (lstrip0 l) m.
Proof.
  induction 1 as [d D|d l n D H (k & m & K & -> & M & IH)]; cbn [lstrip0].
  - destruct (Z.eqb_spec d 0); [lia|]. exists 0, d. rewrite Z.mul_1_r. split; [lia|]. split; [reflexivity|]. split; [rewrite Z.mod_small; lia|now constructor].
  - destruct (Z.eqb_spec d 0) as [->|ND].
    + exists (1 + k), m. split; [lia|]. split; [rewrite Z.pow_add_r by lia; change (10 ^ 1) with 10; ring|]. now split.
    + exists 0, (d + 10 * (m * 10 ^ k)). split; [lia|]. rewrite Z.mul_1_r. split; [reflexivity|]. split; [|now constructor]. rewrite Z.mul_comm, Z_mod_plus_full, Z.mod_small; lia.
Qed.
Lemma strip_str n : 0 < n -> exists k m, 0 <= k /\ n = m * 10 ^ k /\ m mod 10 <> 0 /\ numeral (rev (strip0 (str_of n))) m.
Proof.
  intros N. pose proof (str_numeral n N) as H. destruct (numeral_last _ _ H) as (l' & d & E & D). unfold strip0. rewrite rev_involutive.
  assert (S : lstrip0 (str_of n) = str_of n). { rewrite <- (rev_involutive (str_of n)), E, rev_app_distr. cbn [rev app lstrip0]. destruct (Z.eqb_spec d 0); [contradiction|reflexivity]. }
  rewrite S. now apply numeral_strip.
Qed.

(* the character c is the digit d *)
Inductive digit : N -> Z -> Prop :=
| digit_dec c d : 0 <= d < 10 -> Z.of_N c = 48 + d -> digit c d
| digit_upper c d : 10 <= d < 16 -> Z.of_N c = 65 + (d - 10) -> digit c d
| digit_lower c d : 10 <= d < 16 -> Z.of_N c = 97 + (d - 10) -> digit c d.
Lemma digit_val_iff c d : digit_val c = Some d <-> digit c d.
Proof.
  unfold digit_val. destruct (N.leb_spec 48 c), (N.leb_spec c 57), (N.leb_spec 65 c), (N.leb_spec c 70), (N.leb_spec 97 c), (N.leb_spec c 102); cbn [andb]; try lia;
  (split; intros HD; [try discriminate; injection HD as <-|inversion HD; subst; try (exfalso; lia); try (f_equal; lia)]);
  first [apply digit_dec; lia | apply digit_upper; lia | apply digit_lower; lia].
Qed.
(* the text is the base-b notation of n *)
Inductive notation (b : Z) : text -> Z -> Prop :=
| not_nil : notation b [] 0
| not_snoc t n c d : notation b t n -> digit c d -> d < b -> notation b (t ++ [c]) (n * b + d).

Lemma int_of_app b s t acc : int_of b acc (s ++ t) = match int_of b acc s with Some v => int_of b v t | None => None end.
Proof.
  revert acc. induction s as [|c s IH]; intros acc; cbn [app int_of]; [reflexivity|]. destruct (digit_val c); [|reflexivity]. destruct (_ <? b); [apply IH|reflexivity].
Qed.
Lemma int_of_iff b t n : int_of b 0 t = Some n <-> notation b t n.
Proof.
  split.
  - revert n. induction t as [|c t IH] using rev_ind; intros n H.
    + cbn in H. injection H as <-. constructor.
    + rewrite int_of_app in H. destruct (int_of b 0 t) as [v|] eqn:E; [|discriminate]. cbn [int_of] in H. destruct (digit_val c) as [d|] eqn:D; [|discriminate]. destruct (Z.ltb_spec d b); [|discriminate]. injection H as <-. constructor; [now apply IH|now apply digit_val_iff|assumption].
  - induction 1 as [|t n c d _ IH D L]; [reflexivity|]. rewrite int_of_app, IH. cbn [int_of]. apply digit_val_iff in D. rewrite D. destruct (Z.ltb_spec d b); [reflexivity|lia].
Qed.
