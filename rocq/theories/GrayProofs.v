(** Gray code: decoding inverts encoding, and neighbours differ in one bit. *)
From Coq Require Import ZArith Lia Bool List.
From Verif Require Import GrayModel.
Local Open Scope Z_scope.

Lemma testbit_high x n m : 0 <= x < 2 ^ n -> n <= m -> Z.testbit x m = false.
Proof.
  intros H L. destruct (Z.eq_dec x 0) as [->|N]; [apply Z.bits_0|].
  apply Z.bits_above_log2; [lia|]. apply Z.log2_lt_pow2; [lia|].
  apply Z.lt_le_trans with (2 ^ n); [lia|]. apply Z.pow_le_mono_r; lia.
Qed.
Lemma bits_lt x n : 0 <= n -> 0 <= x -> (forall m, n <= m -> Z.testbit x m = false) -> x < 2 ^ n.
Proof.
  intros N X H. destruct (Z.eq_dec x 0) as [->|NX]; [lia|].
  destruct (Z_lt_le_dec x (2 ^ n)) as [L|L]; [exact L|].
  assert (K : n <= Z.log2 x) by (apply Z.log2_le_pow2; lia).
  specialize (H _ K). rewrite Z.bit_log2 in H by lia. discriminate.
Qed.

Lemma to_gray_bit x i : 0 <= i -> Z.testbit (to_gray x) i = xorb (Z.testbit x (i + 1)) (Z.testbit x i).
Proof. intros I. unfold to_gray. rewrite Z.lxor_spec, Z.shiftr_spec by lia. reflexivity. Qed.
Lemma to_gray_nonneg x : 0 <= x -> 0 <= to_gray x.
Proof. intros X. unfold to_gray. apply Z.lxor_nonneg. rewrite Z.shiftr_nonneg. tauto. Qed.
Lemma to_gray_range x n : 0 <= n -> 0 <= x < 2 ^ n -> 0 <= to_gray x < 2 ^ n.
Proof.
  intros N X. split; [apply to_gray_nonneg; lia|]. apply bits_lt; [assumption|apply to_gray_nonneg; lia|].
  intros m M. rewrite to_gray_bit by lia. rewrite !(testbit_high x n) by lia. reflexivity.
Qed.
Lemma to_gray_lxor x y : to_gray (Z.lxor x y) = Z.lxor (to_gray x) (to_gray y).
Proof.
  unfold to_gray. rewrite Z.shiftr_lxor. apply Z.bits_inj'. intros i I. rewrite !Z.lxor_spec.
  destruct (Z.testbit (Z.shiftr x 1) i), (Z.testbit (Z.shiftr y 1) i), (Z.testbit x i), (Z.testbit y i); reflexivity.
Qed.

(** ** Decoding *)
Lemma land_pow2 x k i : 0 <= k -> 0 <= i -> Z.testbit (Z.land x (2 ^ k)) i = (i =? k) && Z.testbit x k.
Proof.
  intros K I. rewrite Z.land_spec. destruct (Z.eqb_spec i k) as [->|N].
  - rewrite Z.pow2_bits_true by lia. now rewrite andb_true_r.
  - rewrite Z.pow2_bits_false by lia. now rewrite andb_false_r.
Qed.
Lemma gray_round_trip n : forall x, 0 <= x < 2 ^ Z.of_nat n -> gray_to_bin n (to_gray x) = x.
Proof.
  induction n as [|[|m] IH]; intros x X.
  - cbn in *. assert (x = 0) by lia. now subst.
  - cbn in *. assert (x = 0 \/ x = 1) as [->| ->] by lia; reflexivity.
  - set (k := Z.of_nat (S m)) in *. change (gray_to_bin (S (S m)) (to_gray x)) with
      (Z.lor (Z.land (to_gray x) (2 ^ k)) (gray_to_bin (S m) ((Z.lxor (to_gray x) (Z.shiftr (Z.land (to_gray x) (2 ^ k)) 1)) mod 2 ^ k))).
    assert (KP : 1 <= k) by (unfold k; lia).
    assert (XK : 0 <= x < 2 ^ (k + 1)) by (replace (k + 1) with (Z.of_nat (S (S m))) by (unfold k; lia); exact X).
    assert (E : (Z.lxor (to_gray x) (Z.shiftr (Z.land (to_gray x) (2 ^ k)) 1)) mod 2 ^ k = to_gray (x mod 2 ^ k)).
    { apply Z.bits_inj'. intros i I. destruct (Z_lt_le_dec i k) as [L|L].
      - rewrite Z.mod_pow2_bits_low by lia. rewrite Z.lxor_spec, Z.shiftr_spec, land_pow2, !to_gray_bit by lia.
        rewrite (Z.mod_pow2_bits_low x k i) by lia. destruct (Z.eqb_spec (i + 1) k) as [EQ|NE]; cbn [andb].
        + rewrite (testbit_high x (k + 1) (k + 1)) by lia. rewrite EQ, (Z.mod_pow2_bits_high x k k) by lia.
          destruct (Z.testbit x k), (Z.testbit x i); reflexivity.
        + rewrite (Z.mod_pow2_bits_low x k (i + 1)) by lia. apply xorb_false_r.
      - rewrite Z.mod_pow2_bits_high by lia. rewrite to_gray_bit by lia.
        rewrite !Z.mod_pow2_bits_high by lia. reflexivity. }
    rewrite E, IH by (apply Z.mod_pos_bound; apply Z.pow_pos_nonneg; lia).
    apply Z.bits_inj'. intros i I. rewrite Z.lor_spec, land_pow2, to_gray_bit by lia.
    rewrite (testbit_high x (k + 1) (k + 1)) by lia.
    destruct (Z.eqb_spec i k) as [->|NE]; cbn [andb].
    + rewrite (Z.mod_pow2_bits_high x k k) by lia. rewrite orb_false_r. apply xorb_false_l.
    + cbn [orb]. destruct (Z_lt_le_dec i k) as [L|L].
      * rewrite Z.mod_pow2_bits_low by lia. reflexivity.
      * rewrite Z.mod_pow2_bits_high by lia. symmetry. apply (testbit_high x (k + 1)); lia.
Qed.

(** ** Neighbours *)
Definition one_bit (a b : Z) : Prop := exists k, 0 <= k /\ forall i, 0 <= i -> Z.testbit b i = xorb (Z.testbit a i) (i =? k).

Lemma bit_even y i : 0 <= i -> Z.testbit (2 * y) (i + 1) = Z.testbit y i.
Proof. intros I. replace (i + 1) with (Z.succ i) by lia. now apply Z.testbit_even_succ. Qed.
Lemma bit_odd y i : 0 <= i -> Z.testbit (2 * y + 1) (i + 1) = Z.testbit y i.
Proof. intros I. replace (i + 1) with (Z.succ i) by lia. now apply Z.testbit_odd_succ. Qed.
Lemma bit_pos i : 0 <= i -> i = 0 \/ exists j, 0 <= j /\ i = j + 1.
Proof. intros I. destruct (Z.eq_dec i 0); [auto|]. right. exists (i - 1). lia. Qed.

Lemma gray_neighbours n : forall x, 0 <= x < 2 ^ Z.of_nat n -> one_bit (to_gray x) (to_gray (x + 1)).
Proof.
  induction n as [|n IH]; intros x X.
  - cbn in X. assert (x = 0) by lia. subst. exists 0. split; [lia|]. intros i I. rewrite !to_gray_bit by lia.
    destruct (bit_pos i I) as [->|(j & J & ->)]; [reflexivity|].
    replace (j + 1 =? 0) with false by (symmetry; apply Z.eqb_neq; lia). rewrite !Z.bits_0. change (0 + 1) with (2 * 0 + 1).
    rewrite !bit_odd by lia. now rewrite !Z.bits_0.
  - rewrite Nat2Z.inj_succ, Z.pow_succ_r in X by lia.
    destruct (Z.Even_or_Odd x) as [[y ->]|[y ->]].
    + exists 0. split; [lia|]. intros i I. rewrite !to_gray_bit by lia.
      rewrite bit_even, bit_odd by lia. destruct (bit_pos i I) as [->|(j & J & ->)].
      * rewrite Z.testbit_even_0, Z.testbit_odd_0. destruct (Z.testbit y 0); reflexivity.
      * replace (j + 1 =? 0) with false by (symmetry; apply Z.eqb_neq; lia). rewrite bit_even, bit_odd by lia. now rewrite xorb_false_r.
    + destruct (IH y) as (k & K & H); [lia|]. exists (k + 1). split; [lia|]. intros i I.
      replace (2 * y + 1 + 1) with (2 * (y + 1)) by lia. rewrite !to_gray_bit by lia. rewrite bit_even, bit_odd by lia.
      destruct (bit_pos i I) as [->|(j & J & ->)].
      * replace (0 =? k + 1) with false by (symmetry; apply Z.eqb_neq; lia).
        rewrite Z.testbit_even_0, Z.testbit_odd_0.
        rewrite !Z.bit0_odd. rewrite Z.odd_add. destruct (Z.odd y); reflexivity.
      * rewrite bit_even, bit_odd by lia. specialize (H j J). rewrite !to_gray_bit in H by lia.
        replace (j + 1 =? k + 1) with (j =? k) by (destruct (Z.eqb_spec j k), (Z.eqb_spec (j + 1) (k + 1)); lia).
        exact H.
Qed.
Lemma gray_wrap n : (1 <= n)%nat -> one_bit (to_gray (2 ^ Z.of_nat n - 1)) (to_gray 0).
Proof.
  intros N. exists (Z.of_nat n - 1). split; [lia|]. intros i I. rewrite !to_gray_bit, !Z.bits_0 by lia.
  rewrite <- (Z.ones_equiv (Z.of_nat n)) || replace (2 ^ Z.of_nat n - 1) with (Z.ones (Z.of_nat n)) by (rewrite Z.ones_equiv; lia).
  rewrite !Z.testbit_ones_nonneg by lia.
  destruct (Z.eqb_spec i (Z.of_nat n - 1)), (Z.ltb_spec (i + 1) (Z.of_nat n)), (Z.ltb_spec i (Z.of_nat n)); try reflexivity; lia.
Qed.
(** The codes of a counter of [n] bits before and after a step. *)
Lemma gray_step n x : (1 <= n)%nat -> 0 <= x < 2 ^ Z.of_nat n -> one_bit (to_gray x) (to_gray ((x + 1) mod 2 ^ Z.of_nat n)).
Proof.
  intros N X. destruct (Z.eq_dec (x + 1) (2 ^ Z.of_nat n)) as [E|E].
  - rewrite E, Z.mod_same by (apply Z.pow_nonzero; lia). replace x with (2 ^ Z.of_nat n - 1) by lia. now apply gray_wrap.
  - rewrite Z.mod_small by lia. now apply (gray_neighbours n).
Qed.
