(** Shifts, division by powers of two (C06, C07). *)
From Coq Require Import List ZArith Lia Bool Arith ZifyBool.
From Verif Require Import Bits BitsFacts Verilog CodegenModel CodegenSpec CgLayout CgArith.
Import ListNotations.
Local Open Scope Z_scope.

Lemma shift_amount v k : 0 <= k ->
  exists j, Z.to_nat (Z.min k (Z.of_nat (length v : nat))) = j /\ (j <= length (v : bits))%nat /\
    (Z.of_nat j = k \/ (j = length v /\ Z.of_nat (length v) <= k)).
Proof. intros H. eexists. split; [reflexivity|]. lia. Qed.

Lemma shl_value v x k : uval v = Some x -> 0 <= k -> shl v k = of_Z (length v) (x * 2 ^ k).
Proof.
  intros Hx Hk. unfold shl. destruct (shift_amount v k Hk) as (j & -> & Hj & Hc).
  pose proof (uval_app (repeat B0 j) v 0 x (uval_repeat0 j) Hx) as E. apply of_Z_uval in E.
  rewrite <- E, firstn_of_Z by (rewrite app_length; lia).
  rewrite repeat_length. apply of_Z_ext.
  destruct Hc as [Hc|[Hc Hk']].
  - f_equal. rewrite Hc. lia.
  - rewrite Hc.
    replace (0 + 2 ^ Z.of_nat (length v) * x) with (0 + x * 2 ^ Z.of_nat (length v)) by lia.
    replace (x * 2 ^ k) with (0 + (x * 2 ^ (k - Z.of_nat (length v))) * 2 ^ Z.of_nat (length v)).
    2:{ rewrite <- Z.mul_assoc, <- Z.pow_add_r by lia. rewrite Z.add_0_l. do 2 f_equal. lia. }
    pose proof (pow2_pos (length v)). now rewrite !Z.mod_add by lia.
Qed.

Lemma skipn_of_Z j n z : (j <= n)%nat -> skipn j (of_Z n z) = of_Z (n - j) (z / 2 ^ Z.of_nat j).
Proof.
  revert n z; induction j as [|j IH]; intros n z H.
  - cbn [skipn]. now rewrite Z.div_1_r, Nat.sub_0_r.
  - destruct n as [|n]; [lia|]. cbn [of_Z skipn]. rewrite IH by lia.
    cbn [Nat.sub]. f_equal. rewrite Z.div2_div, Zdiv_Zdiv by (pose proof (pow2_pos j); lia).
    f_equal. rewrite pow2_S. lia.
Qed.

Lemma div_pow2_small x k n : 0 <= x < 2 ^ n -> 0 <= n <= k -> x / 2 ^ k = 0.
Proof.
  intros Hx Hk. apply Z.div_small. pose proof (Z.pow_le_mono_r 2 n k ltac:(lia) ltac:(lia)). lia.
Qed.

Lemma shr_zero_value v x k : uval v = Some x -> 0 <= k -> shr B0 v k = of_Z (length v) (x / 2 ^ k).
Proof.
  intros Hx Hk. unfold shr. destruct (shift_amount v k Hk) as (j & -> & Hj & Hc).
  pose proof (of_Z_uval _ _ Hx) as Ev. pose proof (uval_bound _ _ Hx) as B.
  rewrite <- Ev at 1. rewrite skipn_of_Z by lia.
  assert (B' : 0 <= x / 2 ^ Z.of_nat j < 2 ^ Z.of_nat (length v - j)).
  { pose proof (pow2_pos j). split; [apply Z.div_pos; lia|]. apply Z.div_lt_upper_bound; [lia|].
    rewrite <- Z.pow_add_r by lia. replace (Z.of_nat j + Z.of_nat (length v - j)) with (Z.of_nat (length v)) by lia. lia. }
  pose proof (uval_app (of_Z (length v - j) (x / 2 ^ Z.of_nat j)) (repeat B0 j) _ 0
     (uval_of_Z_small _ _ B') (uval_repeat0 j)) as E.
  apply of_Z_uval in E. rewrite <- E. rewrite app_length, length_of_Z, repeat_length.
  replace (length v - j + j)%nat with (length v) by lia. f_equal.
  rewrite Z.mul_0_r, Z.add_0_r.
  destruct Hc as [->|[-> Hk']]; [reflexivity|].
  rewrite (div_pow2_small x k (Z.of_nat (length v))) by lia.
  rewrite (div_pow2_small x _ (Z.of_nat (length v))) by lia. reflexivity.
Qed.

Lemma msb_skipn (v : bits) j : (j < length v)%nat -> msb (skipn j v) = msb v.
Proof.
  revert v; induction j as [|j IH]; intros v H; [reflexivity|].
  destruct v as [|b v]; [cbn in H; lia|]. cbn [skipn]. cbn in H.
  rewrite IH by lia. destruct v; [cbn in H; lia|reflexivity].
Qed.

Lemma floor_shift_all s n k : (0 < n)%nat -> Z.of_nat n <= k ->
  - 2 ^ Z.of_nat (n - 1) <= s < 2 ^ Z.of_nat (n - 1) -> s / 2 ^ k = if s <? 0 then -1 else 0.
Proof.
  intros Hn Hk Hs.
  pose proof (Z.pow_le_mono_r 2 (Z.of_nat (n - 1)) k ltac:(lia) ltac:(lia)).
  destruct (Z.ltb_spec s 0).
  - symmetry. apply Z.div_unique with (s + 2 ^ k); lia.
  - apply Z.div_small. lia.
Qed.

Lemma repeat_of_Z n : repeat B1 n = of_Z n (-1) /\ repeat B0 n = of_Z n 0.
Proof.
  induction n as [|n [IH1 IH0]]; [split; reflexivity|].
  cbn [repeat of_Z]. rewrite IH1, IH0. split; reflexivity.
Qed.

Lemma msb_sval v s : sval v = Some s -> v <> [] -> msb v = if s <? 0 then B1 else B0.
Proof.
  intros H Hne. pose proof (sval_bound _ _ H Hne) as B.
  destruct (uval v) as [u|] eqn:E; [|unfold sval in H; rewrite E in H; discriminate].
  pose proof (uval_bound _ _ E) as Bu.
  rewrite (msb_uval _ _ E Hne). rewrite (sval_char _ _ E Hne) in H. apply Some_inj in H.
  destruct (2 ^ Z.of_nat (length v - 1) <=? u) eqn:C; subst s;
    [destruct (Z.ltb_spec (u - 2 ^ Z.of_nat (length v)) 0)|destruct (Z.ltb_spec u 0)]; try reflexivity; lia.
Qed.

Lemma shr_sign_value v s k : sval v = Some s -> v <> [] -> 0 <= k ->
  shr (msb v) v k = of_Z (length v) (s / 2 ^ k).
Proof.
  intros Hs Hne Hk. unfold shr. destruct (shift_amount v k Hk) as (j & -> & Hj & Hc).
  pose proof (sval_bound _ _ Hs Hne) as B.
  assert (0 < length v)%nat by (destruct v; [congruence|cbn; lia]).
  destruct (Nat.eq_dec j (length v)) as [->|Hjn].
  - rewrite skipn_all. cbn [app]. rewrite (msb_sval _ _ Hs Hne).
    destruct (repeat_of_Z (length v)) as [R1 R0].
    rewrite (floor_shift_all s (length v) k) by (try assumption; lia).
    destruct (s <? 0); assumption.
  - assert (Hjk : Z.of_nat j = k) by (destruct Hc as [|[]]; [assumption|lia]).
    rewrite <- (msb_skipn v j) by lia.
    assert (Hss : sval (skipn j v) = Some (s / 2 ^ k)).
    { rewrite <- (of_Z_sval _ _ Hs), skipn_of_Z, Hjk by lia. apply sval_of_Z; [lia|].
      assert (E : 2 ^ Z.of_nat (length v - 1) = 2 ^ k * 2 ^ Z.of_nat (length v - j - 1)).
      { rewrite <- Hjk, <- Z.pow_add_r by lia. f_equal. lia. }
      pose proof (pow2_pos j). rewrite Hjk in *. split.
      - apply Z.div_le_lower_bound; lia.
      - apply Z.div_lt_upper_bound; lia. }
    rewrite <- (resize_of_sval _ _ _ Hss). unfold resize. rewrite skipn_length.
    replace (length v - (length v - j))%nat with j by lia.
    rewrite firstn_all2; [reflexivity|]. rewrite app_length, skipn_length, repeat_length. lia.
Qed.

(** op_value of shifts: the amount operand may have any type *)
Lemma lshift_value n a x b k t0 : (0 < n)%nat -> represents (TUInt n) a x -> uval b = Some k ->
  op_value (TUInt n) [TUInt n; t0] LeftShift [a; b] = Some (of_Z n (x * 2 ^ k)).
Proof.
  intros Hn [La Ha] Hk. unfold has_width in La. cbn in La.
  rewrite (op_value_unfold _ _ _ _ (DAssign (VBin OShl (fv 0) (fv 1)))); [|cbn; lia|reflexivity].
  cbn [drive size]. f_equal. unfold assign_val. cbn [width fv operand_env nth signed eval].
  rewrite La, Nat.max_id, (resize_id false b) by reflexivity. rewrite Hk, resize_id by exact La.
  pose proof (uval_bound _ _ Hk). rewrite (shl_value a x k Ha ltac:(lia)), La. apply firstn_of_Z. lia.
Qed.

Lemma rshift_value n a x b k t0 : (0 < n)%nat -> represents (TUInt n) a x -> uval b = Some k ->
  op_value (TUInt n) [TUInt n; t0] RightShift [a; b] = Some (of_Z n (x / 2 ^ k)).
Proof.
  intros Hn [La Ha] Hk. unfold has_width in La. cbn in La.
  rewrite (op_value_unfold _ _ _ _ (DAssign (VBin OShr (fv 0) (fv 1)))); [|cbn; lia|reflexivity].
  cbn [drive size]. f_equal. unfold assign_val. cbn [width fv operand_env nth signed eval].
  rewrite La, Nat.max_id, (resize_id false b) by reflexivity. rewrite Hk, resize_id by exact La.
  pose proof (uval_bound _ _ Hk). rewrite (shr_zero_value a x k Ha ltac:(lia)), La. apply firstn_of_Z. lia.
Qed.

Lemma arshift_value n a s b k t0 : (0 < n)%nat -> represents (TInt n) a s -> uval b = Some k ->
  op_value (TInt n) [TInt n; t0] ArithmeticRightShift [a; b] = Some (of_Z n (s / 2 ^ k)).
Proof.
  intros Hn [La Ha] Hk. unfold has_width in La. cbn in La.
  rewrite (op_value_unfold _ _ _ _ (DAssign (VBin OSar (VSigned (fv 0)) (VSigned (fv 1))))); [|cbn; lia|reflexivity].
  cbn [drive size]. f_equal. unfold assign_val. cbn [width fv operand_env nth signed eval].
  rewrite La, Nat.max_id. rewrite !(resize_id _ b) by reflexivity. rewrite Hk.
  rewrite !(resize_id _ a) by exact La.
  pose proof (uval_bound _ _ Hk).
  rewrite (shr_sign_value a s k Ha (length_pos_ne _ _ La Hn) ltac:(lia)), La. apply firstn_of_Z. lia.
Qed.

Lemma ushr_exact n a x b k t0 : (0 < n)%nat -> represents (TUInt n) a x -> uval b = Some k ->
  exists r, op_value (TUInt n) [TUInt n; t0] RightShift [a; b] = Some r /\ represents (TUInt n) r (x / 2 ^ k).
Proof.
  intros Hn Ha Hk. eexists. split; [exact (rshift_value _ _ _ _ _ _ Hn Ha Hk)|].
  pose proof (represents_unsigned_bound _ _ _ Ha). pose proof (uval_bound _ _ Hk).
  apply represents_of_Z_unsigned.
  pose proof (Z.pow_pos_nonneg 2 k ltac:(lia) ltac:(lia)).
  pose proof (Z.div_le_upper_bound x (2 ^ k) x ltac:(lia) ltac:(nia)).
  pose proof (Z.div_pos x (2 ^ k) ltac:(lia) ltac:(lia)). lia.
Qed.
Lemma sar_exact n a x b k t0 : (0 < n)%nat -> represents (TInt n) a x -> uval b = Some k ->
  exists r, op_value (TInt n) [TInt n; t0] ArithmeticRightShift [a; b] = Some r /\ represents (TInt n) r (x / 2 ^ k).
Proof.
  intros Hn Ha Hk. eexists. split; [exact (arshift_value _ _ _ _ _ _ Hn Ha Hk)|].
  pose proof (represents_signed_bound _ _ _ Hn Ha). pose proof (uval_bound _ _ Hk).
  apply represents_of_Z_signed; [exact Hn|].
  pose proof (Z.pow_pos_nonneg 2 k ltac:(lia) ltac:(lia)).
  pose proof (pow2_pos (n - 1)) as Q.
  pose proof (Z.mul_nonneg_nonneg (2 ^ k - 1) (2 ^ Z.of_nat (n - 1)) ltac:(lia) ltac:(lia)) as M.
  generalize dependent (2 ^ k). generalize dependent (2 ^ Z.of_nat (n - 1)). intros Q0 Hx0 HQ P HP HM.
  split; [apply Z.div_le_lower_bound|apply Z.div_lt_upper_bound]; nia.
Qed.

(** ** DivPow2 (C07): what the emitted code really computes.  For dividends
    narrower than 32 bits and exponents 1..30: round to nearest, half up. *)
Lemma divpow2_zero n a x b m : (0 < n)%nat -> (0 < m)%nat -> represents (TInt n) a x -> represents (TUInt m) b 0 ->
  op_value (TInt n) [TInt n; TUInt m] DivPow2 [a; b] = Some a.
Proof.
  intros Hn Hm [La Ha] [Lb Hb]. unfold has_width in *. cbn in La, Lb.
  erewrite op_value_unfold; [|cbn; lia|reflexivity].
  cbn [drive size]. f_equal.
  assert (E : eval (operand_env [a; b]) (width (operand_env [a; b]) (VBin OEq (fv 1) (VDec 0)))
     (signed (VBin OEq (fv 1) (VDec 0))) (VBin OEq (fv 1) (VDec 0)) = [B1]).
  { cbn [width signed eval fv operand_env nth andb].
    rewrite (veq_spec _ _ 0 0); [reflexivity|now rewrite !length_resize| |].
    - apply num_unsigned_ctx; [exact Hb|lia].
    - apply num_unsigned_ctx; [reflexivity|]. rewrite length_of_Z. lia. }
  rewrite E. cbn [truth fold_right bor]. unfold fv. now apply assign_var.
Qed.

Lemma divpow2_actual n a x b m k : (0 < n < 32)%nat -> represents (TInt n) a x -> represents (TUInt m) b k ->
  1 <= k <= 30 ->
  op_value (TInt n) [TInt n; TUInt m] DivPow2 [a; b] = Some (of_Z n ((x + 2 ^ (k - 1)) / 2 ^ k)).
Proof.
  intros Hn Ha0 [Lb Hb] Hk. pose proof (represents_signed_bound n a x ltac:(lia) Ha0) as Bx.
  destruct Ha0 as [La Ha]. unfold has_width in *. cbn in La, Lb.
  erewrite op_value_unfold; [|cbn; lia|reflexivity].
  cbn [drive size]. f_equal. set (r := operand_env [a; b]).
  assert (E : eval r (width r (VBin OEq (fv 1) (VDec 0))) (signed (VBin OEq (fv 1) (VDec 0))) (VBin OEq (fv 1) (VDec 0)) = [B0]).
  { cbn [width signed eval fv andb]. change (r (Fwd 1)) with b.
    rewrite (veq_spec _ _ k 0).
    - destruct (Z.eqb_spec k 0); [lia|reflexivity].
    - now rewrite !length_resize.
    - apply num_unsigned_ctx; [exact Hb|lia].
    - apply num_unsigned_ctx; [reflexivity|]. rewrite length_of_Z. lia. }
  rewrite E. cbn [truth fold_right bor].
  set (e1 := VBin OShl (VDec 1) (VBin OSub (fv 1) (VDec 1))).
  assert (E1 : selfval r e1 = of_Z 32 (2 ^ (k - 1))).
  { unfold selfval, e1. cbn [width signed eval fv andb]. change (r (Fwd 1)) with b.
    unfold arith2, num.
    rewrite (num_unsigned_ctx b k _ Hb) by lia.
    rewrite (num_unsigned_ctx (of_Z 32 1) 1 _ eq_refl) by (rewrite length_of_Z; lia).
    pose proof (uval_bound _ _ Hb) as Bk.
    rewrite uval_of_Z_small.
    2:{ pose proof (pow2_mono (length b) (Nat.max (length b) 32) ltac:(lia)). lia. }
    rewrite (resize_id _ (of_Z 32 1)) by apply length_of_Z.
    rewrite (shl_value _ 1) by (try reflexivity; lia). rewrite length_of_Z. f_equal. lia. }
  assert (P31 : 2 ^ (k - 1) <= 2 ^ 29) by (apply Z.pow_le_mono_r; lia).
  assert (P0 : 0 < 2 ^ (k - 1)) by (apply Z.pow_pos_nonneg; lia).
  assert (Pn : 2 ^ Z.of_nat (n - 1) <= 2 ^ 30) by (apply Z.pow_le_mono_r; lia).
  set (e2 := VBin OAdd (VSigned (fv 0)) (VSigned e1)).
  assert (W2 : width r e2 = 32%nat).
  { unfold e2, e1. cbn [width fv]. change (r (Fwd 0)) with a. lia. }
  assert (E2 : selfval r e2 = of_Z 32 (x + 2 ^ (k - 1))).
  { unfold selfval. rewrite W2. unfold e2. cbn [signed andb].
    change (eval r 32 true (VBin OAdd (VSigned (fv 0)) (VSigned e1))) with
      (arith2 true 32 (fun x y => Some (x + y)) (resize true 32 (resize false (length a) a)) (resize true 32 (selfval r e1))).
    rewrite E1. rewrite (resize_id false a) by reflexivity. unfold arith2, num.
    rewrite (num_signed_ctx a x 32) by (try assumption; lia).
    rewrite (num_signed_ctx (of_Z 32 (2 ^ (k - 1))) (2 ^ (k - 1)) 32); [reflexivity| | |].
    - apply sval_of_Z; [lia|]. cbn [Nat.sub]. change (2 ^ Z.of_nat 31) with (2 ^ 31). lia.
    - rewrite length_of_Z. lia.
    - rewrite length_of_Z. lia. }
  assert (S2 : sval (of_Z 32 (x + 2 ^ (k - 1))) = Some (x + 2 ^ (k - 1))).
  { apply sval_of_Z; [lia|]. change (2 ^ Z.of_nat (32 - 1)) with (2 ^ 31). lia. }
  change (assign_val r n (VBin OSar (VSigned e2) (VSigned (fv 1)))) with
    (firstn n (eval r (Nat.max n (width r e2)) true (VBin OSar (VSigned e2) (VSigned (fv 1))))).
  rewrite W2, Nat.max_r by lia.
  change (eval r 32 true (VBin OSar (VSigned e2) (VSigned (fv 1)))) with
    (match uval (resize true (length b) (resize false (length b) b)) with
     | None => xs 32
     | Some n => shr (msb (resize true 32 (selfval r e2))) (resize true 32 (selfval r e2)) n end).
  rewrite !(resize_id _ b) by reflexivity. rewrite Hb, E2.
  rewrite (resize_id true) by apply length_of_Z.
  rewrite (shr_sign_value _ _ _ S2) by (try discriminate; lia).
  rewrite length_of_Z. apply firstn_of_Z. lia.
Qed.
