(* C82: the arithmetic of executed pseudocode. *)
From Coq Require Import Ascii String QArith.
From Verif Require Import M_Base L_Base M_HTML M_Shared M_Mathnum M_Values L_Values L_ValLists L_Mathnum.
Open Scope list_scope.
Notation length := List.length.
Open Scope Z_scope.

(* sums and products of integers *)
Theorem C82_integers x y :
  arith (tx "+") (MInt x) (MInt y) = NOk (MInt (x + y)) /\ arith (tx "plus") (MInt x) (MInt y) = NOk (MInt (x + y)) /\
  arith (tx "-") (MInt x) (MInt y) = NOk (MInt (x - y)) /\
  arith (tx "&times;") (MInt x) (MInt y) = NOk (MInt (x * y)) /\ arith (tx "times") (MInt x) (MInt y) = NOk (MInt (x * y)) /\ arith [215%N] (MInt x) (MInt y) = NOk (MInt (x * y)).
Proof. repeat split; reflexivity. Qed.
(* modulo, as the specification defines it: k has the sign of y (or is zero), is smaller than y, and differs from x by a multiple of y *)
Theorem C82_modulo x y k : arith (tx "modulo") (MInt x) (MInt y) = NOk (MInt k) <->
  y <> 0 /\ (k = 0 \/ Z.sgn k = Z.sgn y) /\ Z.abs k < Z.abs y /\ exists q, x - k = q * y.
Proof.
  change (arith (tx "modulo") (MInt x) (MInt y)) with (if y =? 0 then @NAssert mnum else NOk (MInt (x mod y))). split.
  - destruct (Z.eqb_spec y 0) as [E|E]; [discriminate|]. intros H. injection H as <-. split; [assumption|]. pose proof (Z_div_mod_eq_full x y) as D. destruct (Z_lt_le_dec 0 y) as [P|P].
    + pose proof (Z.mod_pos_bound x y P). split; [|split; [lia|exists (x / y); lia]]. destruct (Z.eq_dec (x mod y) 0); [now left|right]. rewrite !Z.sgn_pos; lia.
    + pose proof (Z.mod_neg_bound x y ltac:(lia)). split; [|split; [lia|exists (x / y); lia]]. destruct (Z.eq_dec (x mod y) 0); [now left|right]. rewrite !Z.sgn_neg; lia.
  - intros (Y & S & A & q & Q). destruct (Z.eqb_spec y 0); [contradiction|]. do 2 f_equal. symmetry. apply (Z.mod_unique x y q k).
    + destruct S as [->|S]; [lia|]. destruct (Z_lt_le_dec 0 y) as [P|P]; [left|right].
      * rewrite (Z.sgn_pos y) in S by lia. apply Z.sgn_pos_iff in S. lia.
      * rewrite (Z.sgn_neg y) in S by lia. apply Z.sgn_neg_iff in S. lia.
    + lia.
Qed.
Theorem C82_modulo_zero a : arith (tx "modulo") a (MInt 0) = NAssert.
Proof. now destruct a. Qed.
Theorem C82_power x y : 0 <= y ->
  m_pow (MInt x) (MInt 0) = NOk (MInt 1) /\ exists p, m_pow (MInt x) (MInt y) = NOk (MInt p) /\ m_pow (MInt x) (MInt (y + 1)) = NOk (MInt (x * p)).
Proof.
  intros Y. split; [reflexivity|]. exists (x ^ y). cbn [m_pow]. destruct (Z.leb_spec 0 y), (Z.leb_spec 0 (y + 1)); try lia. split; [reflexivity|]. now rewrite Z.pow_add_r, Z.pow_1_r, Z.mul_comm by lia.
Qed.

(* quotients *)
(* A quotient of integers is the double nearest to the exact quotient a / b (k counts units of 2^-1074); so it is the exact quotient if that is a double. *)
Theorem C82_quotient_nearest a b k : arith (tx "/") (MInt a) (MInt b) = NOk (MFlt k) -> forall k', double k' -> Z.abs (k * b - a * 2 ^ 1074) <= Z.abs (k' * b - a * 2 ^ 1074).
Proof.
  change (arith (tx "/") (MInt a) (MInt b)) with (m_div (MInt a) (MInt b)). intros H. assert (B : b <> 0) by (intros ->; cbn in H; discriminate). change (2 ^ 1074) with unit_. exact (div_nearest a b k B H).
Qed.
Theorem C82_quotient_exact a b k k' : arith (tx "/") (MInt a) (MInt b) = NOk (MFlt k) -> double k' -> k' * b = a * 2 ^ 1074 -> k = k'.
Proof.
  intros H D E. pose proof (C82_quotient_nearest a b k H k' D) as N. rewrite E, Z.sub_diag in N. change (arith (tx "/") (MInt a) (MInt b)) with (m_div (MInt a) (MInt b)) in H. assert (B : b <> 0) by (intros ->; cbn in H; discriminate). cbn [Z.abs] in N. apply (Z.mul_cancel_r k k' b B). lia.
Qed.
Theorem C82_quotient_zero a : arith (tx "/") (MInt a) (MInt 0) = NZeroDiv.
Proof. reflexivity. Qed.
(* The floor of a quotient of integers is exact, if they are less than 2^53 *)
Theorem C82_floor a b : 0 < Z.abs b <= 2 ^ 53 -> Z.abs a < 2 ^ 53 ->
  exists q f, arith (tx "/") (MInt a) (MInt b) = NOk q /\ m_floor q = MInt f /\ 0 <= (a - f * b) * Z.sgn b < Z.abs b.
Proof.
  intros B A. destruct (div_floor a b B A) as (k & K & F). exists (MFlt k), (a / b). split; [exact K|]. split; [exact F|]. pose proof (Z_div_mod_eq_full a b) as E. replace (a - a / b * b) with (a mod b) by lia. destruct (Z_lt_le_dec 0 b).
  - pose proof (Z.mod_pos_bound a b ltac:(lia)). rewrite Z.sgn_pos by lia. lia.
  - pose proof (Z.mod_neg_bound a b ltac:(lia)). rewrite Z.sgn_neg by lia. lia.
Qed.
(* but not beyond *)
Theorem C82_floor_refuted : exists a b q f, 0 < b < a /\ arith (tx "/") (MInt a) (MInt b) = NOk q /\ m_floor q = MInt f /\ ~ (0 <= a - f * b < b).
Proof.
  exists (2 ^ 54 - 1), 2. do 2 eexists. split; [lia|]. split; [vm_compute; reflexivity|]. split; [vm_compute; reflexivity|]. vm_compute. intros (H & _). now apply H.
Qed.
(* A quotient is not exact in general: 1/10 + 2/10 is not the quotient 3/10. *)
Theorem C82_quotient_refuted : exists p q r s, arith (tx "/") (MInt 1) (MInt 10) = NOk p /\ arith (tx "/") (MInt 2) (MInt 10) = NOk q /\ arith (tx "/") (MInt 3) (MInt 10) = NOk r /\ arith (tx "+") p q = NOk s /\ same_value (VMath s) (VMath r) = false.
Proof. do 4 eexists. split; [vm_compute; reflexivity|]. split; [vm_compute; reflexivity|]. split; [vm_compute; reflexivity|]. split; [vm_compute; reflexivity|]. vm_compute. reflexivity. Qed.
(* The two code units that encode a code point above 0xFFFF *)
Theorem C82_surrogates cp : 65536 <= cp <= 1114111 -> exists d q r hi lo,
  arith (tx "-") (MInt cp) (MInt 65536) = NOk d /\ arith (tx "/") d (MInt 1024) = NOk q /\ arith (tx "modulo") d (MInt 1024) = NOk r /\
  arith (tx "+") (m_floor q) (MInt 55296) = NOk (MInt hi) /\ arith (tx "+") r (MInt 56320) = NOk (MInt lo) /\
  55296 <= hi < 56320 /\ 56320 <= lo < 57344 /\ cp = (hi - 55296) * 1024 + (lo - 56320) + 65536 /\
  code_unit_with_value (VMath (MInt hi)) = Ok (VCodeUnit (Z.to_N hi)) /\ code_unit_with_value (VMath (MInt lo)) = Ok (VCodeUnit (Z.to_N lo)).
Proof.
  intros R. destruct (div_floor (cp - 65536) 1024 ltac:(lia) ltac:(lia)) as (k & K & F). exists (MInt (cp - 65536)), (MFlt k), (MInt ((cp - 65536) mod 1024)), ((cp - 65536) / 1024 + 55296), ((cp - 65536) mod 1024 + 56320).
  split; [reflexivity|]. split; [exact K|]. split; [reflexivity|]. split; [rewrite F; reflexivity|]. split; [reflexivity|]. pose proof (Z_div_mod_eq_full (cp - 65536) 1024) as E. pose proof (Z.mod_pos_bound (cp - 65536) 1024 ltac:(lia)) as M.
  set (h := (cp - 65536) / 1024) in *. set (l := (cp - 65536) mod 1024) in *. clearbody h l. assert (0 <= h < 1024) by lia. unfold code_unit_with_value, code_unit. change (2 ^ 16) with 65536.
  destruct (Z.leb_spec 0 (h + 55296)), (Z.ltb_spec (h + 55296) 65536), (Z.leb_spec 0 (l + 56320)), (Z.ltb_spec (l + 56320) 65536); try lia. repeat split; try reflexivity; lia.
Qed.

(* comparisons are exact, whatever is compared *)
Lemma units_le a b : units a <= units b <-> Qle (qval a) (qval b).
Proof.
  unfold Qle. pose proof unit_gt0 as U. destruct a as [x|x], b as [y|y]; cbn [units qval Qnum Qden inject_Z]; rewrite <- ?unit_pos; nia.
Qed.
Lemma units_lt a b : units a < units b <-> Qlt (qval a) (qval b).
Proof.
  unfold Qlt. pose proof unit_gt0 as U. destruct a as [x|x], b as [y|y]; cbn [units qval Qnum Qden inject_Z]; rewrite <- ?unit_pos; nia.
Qed.
Theorem C82_comparisons a b :
  (exists r, m_compare a [8804%N] b = NOk r /\ (r = true <-> Qle (qval a) (qval b))) /\
  (exists r, m_compare a [8805%N] b = NOk r /\ m_compare a (tx "is greater than or equal to") b = NOk r /\ (r = true <-> Qle (qval b) (qval a))) /\
  (exists r, m_compare a (tx "is strictly greater than") b = NOk r /\ (r = true <-> Qlt (qval b) (qval a))).
Proof.
  split; [|split].
  - eexists. split; [reflexivity|]. rewrite Z.leb_le. apply units_le.
  - eexists. split; [reflexivity|]. split; [reflexivity|]. rewrite Z.leb_le. apply units_le.
  - eexists. split; [reflexivity|]. rewrite Z.ltb_lt. apply units_lt.
Qed.
(* The other comparators of the grammar are not implemented, which only executing them shows. *)
Theorem C82_comparators_refuted a b : forall r, In r [tx "&lt;"; tx "="; tx ">"; [8800%N]] -> m_compare a r b = NAssert.
Proof. intros r [<-|[<-|[<-|[<-|[]]]]]; reflexivity. Qed.
Theorem C82_between a b c : exists r, m_compare2 a [8804%N] b [8804%N] c = NOk r /\ (r = true <-> Qle (qval a) (qval b) /\ Qle (qval b) (qval c)).
Proof.
  unfold m_compare2. destruct (C82_comparisons a b) as ((x & X & HX) & _). destruct (C82_comparisons b c) as ((y & Y & HY) & _). rewrite X. cbn [nbind]. destruct x.
  - exists y. split; [exact Y|]. rewrite HY, <- HX. tauto.
  - exists false. split; [reflexivity|]. rewrite <- HX. split; [discriminate|intros (H & _); discriminate].
Qed.

(* literals *)
Theorem C82_decimal t n : dec_lit t = Some (MInt n) <-> notation 10 t n.
Proof.
  unfold dec_lit. rewrite <- int_of_iff. destruct (int_of 10 0 t); cbn [option_map]; split; congruence.
Qed.
Theorem C82_hex t n : hex_lit (tx "0x" ++ t) = Some (MInt n) <-> notation 16 t n.
Proof.
  unfold hex_lit. change (skipn 2 (tx "0x" ++ t)) with t. rewrite <- int_of_iff. destruct (int_of 16 0 t); cbn [option_map]; split; congruence.
Qed.
(* significant digits *)
Lemma pow10_mul k j : 0 <= k <= j -> 10 ^ j = 10 ^ (j - k) * 10 ^ k.
Proof. intros H. rewrite <- Z.pow_add_r by lia. f_equal. lia. Qed.
Theorem C82_digits z : 0 <= z -> exists b, at_most_20_digits (MInt z) = Some (NOk b) /\ (b = true <-> exists m k, 0 <= k /\ 0 <= m < 10 ^ 20 /\ z = m * 10 ^ k).
Proof.
  intros Z0. unfold at_most_20_digits. cbn [significant_digits option_map]. destruct (Z.ltb_spec z 0); [lia|]. cbn [nbind]. eexists. split; [reflexivity|].
  destruct (Z.eq_dec z 0) as [->|NZ]; [split; [intros _; exists 0, 0; lia|intros _; vm_compute; reflexivity]|].
  destruct (strip_str z ltac:(lia)) as (k & m & K & E & M & NU). pose proof (numeral_bounds _ _ NU) as B. rewrite rev_length in B. set (L := Z.of_nat (length (strip0 (str_of z)))) in *. assert (L0 : 0 <= L) by (unfold L; lia). clearbody L. rewrite Z.leb_le. split.
  - intros H20. exists m, k. split; [assumption|]. split; [|assumption]. assert (10 ^ L <= 10 ^ 20) by (apply Z.pow_le_mono_r; lia). assert (0 <= 10 ^ (L - 1)) by (apply Z.pow_nonneg; lia). lia.
  - intros (m' & k' & K' & M' & E'). assert (KK : k' <= k).
    { destruct (Z_le_gt_dec k' k) as [|G]; [assumption|]. exfalso. apply M. rewrite E in E'. rewrite (pow10_mul k k') in E' by lia. assert (P : 0 < 10 ^ k) by (apply Z.pow_pos_nonneg; lia). rewrite Z.mul_assoc in E'. apply Z.mul_cancel_r in E'; [|lia]. rewrite E'. replace (10 ^ (k' - k)) with (10 ^ (k' - k - 1) * 10) by (rewrite <- (Z.pow_1_r 10) at 2; rewrite <- Z.pow_add_r by lia; f_equal; lia). rewrite Z.mul_assoc. apply Z.mod_mul. lia. }
    assert (MM : m <= m'). { rewrite E in E'. rewrite (pow10_mul k' k) in E' by lia. assert (P : 0 < 10 ^ k') by (apply Z.pow_pos_nonneg; lia). rewrite Z.mul_assoc in E'. apply Z.mul_cancel_r in E'; [|lia]. assert (1 <= 10 ^ (k - k')) by (assert (0 < 10 ^ (k - k')) by (apply Z.pow_pos_nonneg; lia); lia). assert (0 < m) by (assert (P' : 0 < 10 ^ k) by (apply Z.pow_pos_nonneg; lia); nia). nia. }
    assert (X : 10 ^ (L - 1) < 10 ^ 20) by lia. destruct (Z_le_gt_dec L 20) as [|G]; [assumption|]. exfalso. assert (10 ^ 20 <= 10 ^ (L - 1)) by (apply Z.pow_le_mono_r; lia). lia.
Qed.
Theorem C82_digits_negative z : z < 0 -> at_most_20_digits (MInt z) = Some NAssert.
Proof. intros H. unfold at_most_20_digits. cbn [significant_digits option_map]. destruct (Z.ltb_spec z 0); [reflexivity|lia]. Qed.
(* the Number value for a mathematical value *)
Theorem C82_number z :
  (0 <= z < 9007199254740991 -> number_value_for (MInt z) = NOk (Finite false (Z.to_N z))) /\
  (2 ^ 1024 <= z -> number_value_for (MInt z) = NOk PosInfinity) /\
  (z < 0 \/ 9007199254740991 <= z < 2 ^ 1024 -> number_value_for (MInt z) = NAssert).
Proof.
  unfold number_value_for. change (2 ^ 53 - 1) with 9007199254740991. assert (B : 9007199254740991 < 2 ^ 1024) by reflexivity. set (T := 2 ^ 1024) in *. clearbody T.
  destruct (Z.leb_spec 0 z), (Z.ltb_spec z 9007199254740991), (Z.leb_spec T z); cbn [andb]; repeat split; intros; try reflexivity; lia.
Qed.
(* 2^53 - 1 and many greater integers are Numbers, but their Number value is refused. *)
Theorem C82_number_refuted : exists z, double (z * 2 ^ 1074) /\ 0 <= z < 2 ^ 53 /\ number_value_for (MInt z) = NAssert.
Proof. exists (2 ^ 53 - 1). split; [exists (2 ^ 53 - 1), 1074; repeat split; lia|]. split; [lia|]. vm_compute. reflexivity. Qed.
Print Assumptions C82_integers.
Print Assumptions C82_modulo.
Print Assumptions C82_modulo_zero.
Print Assumptions C82_power.
Print Assumptions C82_quotient_nearest.
Print Assumptions C82_quotient_exact.
Print Assumptions C82_quotient_zero.
Print Assumptions C82_floor.
Print Assumptions C82_floor_refuted.
Print Assumptions C82_quotient_refuted.
Print Assumptions C82_surrogates.
Print Assumptions C82_comparisons.
Print Assumptions C82_comparators_refuted.
Print Assumptions C82_between.
Print Assumptions C82_decimal.
Print Assumptions C82_hex.
Print Assumptions C82_digits.
Print Assumptions C82_digits_negative.
Print Assumptions C82_number.
Print Assumptions C82_number_refuted.

Example C82_modulo_ex : arith (tx "modulo") (MInt (-7)) (MInt 3) = NOk (MInt 2) /\ arith (tx "modulo") (MInt 7) (MInt (-3)) = NOk (MInt (-2)).
Proof. split; vm_compute; reflexivity. Qed.
Example C82_power_ex : m_pow (MInt 10) (MInt 3) = NOk (MInt 1000).
Proof. vm_compute. reflexivity. Qed.
Example C82_quotient_ex : arith (tx "/") (MInt 3) (MInt 4) = NOk (MFlt (3 * 2 ^ 1072)) /\ double (3 * 2 ^ 1072) /\ 3 * 2 ^ 1072 * 4 = 3 * 2 ^ 1074.
Proof. split; [vm_compute; reflexivity|]. split; [exists 3, 1072; repeat split; lia|reflexivity]. Qed.
Example C82_floor_ex : 0 < Z.abs (-7) <= 2 ^ 53 /\ Z.abs 100 < 2 ^ 53 /\ exists q, arith (tx "/") (MInt 100) (MInt (-7)) = NOk q /\ m_floor q = MInt (-15).
Proof. split; [lia|]. split; [lia|]. eexists. split; [vm_compute; reflexivity|]. vm_compute. reflexivity. Qed.
Example C82_surrogates_ex : 65536 <= 128512 <= 1114111 /\ (128512 - 65536) / 1024 + 55296 = 55357 /\ (128512 - 65536) mod 1024 + 56320 = 56832.
Proof. split; [lia|]. split; reflexivity. Qed.
Example C82_comparisons_ex : m_compare (MInt 3) [8804%N] (MFlt (7 * 2 ^ 1073)) = NOk true /\ m_compare (MInt 3) (tx "is strictly greater than") (MInt 3) = NOk false.
Proof. split; vm_compute; reflexivity. Qed.
Example C82_between_ex : m_compare2 (MInt 0) [8804%N] (MInt 5) [8804%N] (MInt 4) = NOk false.
Proof. vm_compute. reflexivity. Qed.
Example C82_decimal_ex : dec_lit (tx "1024") = Some (MInt 1024) /\ dec_lit (tx "1a") = None.
Proof. split; vm_compute; reflexivity. Qed.
Example C82_hex_ex : hex_lit (tx "0x10FFFF") = Some (MInt 1114111) /\ hex_lit (tx "0x10g") = None.
Proof. split; vm_compute; reflexivity. Qed.
Example C82_digits_ex : at_most_20_digits (MInt (123 * 10 ^ 40)) = Some (NOk true) /\ at_most_20_digits (MInt (10 ^ 20 + 1)) = Some (NOk false).
Proof. split; vm_compute; reflexivity. Qed.
Example C82_number_ex : number_value_for (MInt 9007199254740990) = NOk (Finite false 9007199254740990) /\ number_value_for (MInt (2 ^ 1024)) = NOk PosInfinity.
Proof. split; vm_compute; reflexivity. Qed.
