(** Facts about Bits.v (library file, proofs only). *)
From Coq Require Import List ZArith Lia Bool Arith ZifyBool.
From Verif Require Import Bits.
Import ListNotations.
Local Open Scope Z_scope.

Lemma Some_inj {A} (x y : A) : Some x = Some y -> x = y.
Proof. congruence. Qed.

Lemma length_of_Z w z : length (of_Z w z) = w.
Proof. revert z; induction w as [|w IH]; intros z; cbn; [reflexivity|]. now rewrite IH. Qed.

Lemma length_xs w : length (xs w) = w.
Proof. apply repeat_length. Qed.

Lemma length_resize sg w v : length (resize sg w v) = w.
Proof.
  unfold resize. rewrite firstn_length, app_length, repeat_length. lia.
Qed.

Lemma length_slice v lo n : length (slice v lo n) = n.
Proof. unfold slice. now rewrite map_length, seq_length. Qed.

Lemma pow2_pos n : 0 < 2 ^ Z.of_nat n.
Proof. apply Z.pow_pos_nonneg; lia. Qed.

Lemma pow2_S n : 2 ^ Z.of_nat (S n) = 2 * 2 ^ Z.of_nat n.
Proof. rewrite Nat2Z.inj_succ, Z.pow_succ_r; lia. Qed.

Lemma uval_bound v u : uval v = Some u -> 0 <= u < 2 ^ Z.of_nat (length v).
Proof.
  revert u; induction v as [|b v IH]; intros u H.
  - cbn in H. apply Some_inj in H; subst. cbn. lia.
  - cbn [uval] in H. destruct (uval v) as [u'|]; [|discriminate].
    specialize (IH u' eq_refl). cbn [length]. rewrite pow2_S.
    destruct b; try discriminate; apply Some_inj in H; subst; lia.
Qed.

Lemma odd_div2 z : z = 2 * Z.div2 z + (if Z.odd z then 1 else 0).
Proof. pose proof (Z.div2_odd z) as H. unfold Z.b2z in H. exact H. Qed.

Lemma mod_pow2_S z w :
  z mod 2 ^ Z.of_nat (S w) = 2 * (Z.div2 z mod 2 ^ Z.of_nat w) + (if Z.odd z then 1 else 0).
Proof.
  rewrite pow2_S. pose proof (pow2_pos w) as Hp.
  symmetry. apply Z.mod_unique with (q := Z.div2 z / 2 ^ Z.of_nat w).
  - left. pose proof (Z.mod_pos_bound (Z.div2 z) _ Hp). destruct (Z.odd z); lia.
  - pose proof (Z.div_mod (Z.div2 z) (2 ^ Z.of_nat w)).
    pose proof (odd_div2 z). lia.
Qed.

Lemma uval_of_Z w z : uval (of_Z w z) = Some (z mod 2 ^ Z.of_nat w).
Proof.
  revert z; induction w as [|w IH]; intros z.
  - cbn. now rewrite Z.mod_1_r.
  - rewrite mod_pow2_S. cbn [of_Z uval]. rewrite IH.
    destruct (Z.odd z); cbn; f_equal; lia.
Qed.

Lemma of_Z_uval v u : uval v = Some u -> of_Z (length v) u = v.
Proof.
  revert u; induction v as [|b v IH]; intros u H; [reflexivity|].
  cbn [uval] in H. destruct (uval v) as [u'|]; [|discriminate].
  specialize (IH u' eq_refl).
  destruct b; try discriminate; apply Some_inj in H; subst; cbn [length of_Z].
  - replace (Z.odd (2 * u')) with false by (rewrite Z.odd_mul; reflexivity).
    replace (Z.div2 (2 * u')) with u' by (rewrite Z.div2_div; apply Z.div_unique with 0; lia).
    now rewrite IH.
  - replace (Z.odd (2 * u' + 1)) with true by (rewrite Z.odd_add, Z.odd_mul; reflexivity).
    replace (Z.div2 (2 * u' + 1)) with u' by (rewrite Z.div2_div; apply Z.div_unique with 1; lia).
    now rewrite IH.
Qed.

Lemma of_Z_ext w z1 z2 : z1 mod 2 ^ Z.of_nat w = z2 mod 2 ^ Z.of_nat w -> of_Z w z1 = of_Z w z2.
Proof.
  intros H.
  pose proof (of_Z_uval (of_Z w z1) _ (uval_of_Z w z1)) as H1.
  pose proof (of_Z_uval (of_Z w z2) _ (uval_of_Z w z2)) as H2.
  rewrite length_of_Z in H1, H2. now rewrite <- H1, <- H2, H.
Qed.

Lemma uval_inj v1 v2 u : length v1 = length v2 -> uval v1 = Some u -> uval v2 = Some u -> v1 = v2.
Proof.
  intros HL H1 H2. apply of_Z_uval in H1, H2. rewrite <- H1, <- H2. now rewrite HL.
Qed.

Lemma uval_None_X v : uval v = None <-> In BX v.
Proof.
  induction v as [|b v IH]; cbn [uval In].
  - split; [discriminate|tauto].
  - destruct (uval v) as [u|].
    + assert (~ In BX v) by (intros H; apply IH in H; discriminate).
      destruct b; split; intros H0; try discriminate; try tauto;
        destruct H0 as [H0|H0]; try discriminate; tauto.
    + split; [|reflexivity]. intros _. right. now apply IH.
Qed.

Lemma uval_known v : known v <-> uval v <> None.
Proof. unfold known. rewrite uval_None_X. tauto. Qed.

Lemma firstn_of_Z w w' z : (w <= w')%nat -> firstn w (of_Z w' z) = of_Z w z.
Proof.
  revert w' z; induction w as [|w IH]; intros w' z H; [reflexivity|].
  destruct w' as [|w']; [lia|]. cbn. f_equal. apply IH. lia.
Qed.

Lemma msb_cons b c v : msb (b :: c :: v) = msb (c :: v).
Proof. reflexivity. Qed.

(** The sign bit of a known vector, numerically. *)
Lemma msb_uval v u : uval v = Some u -> v <> [] ->
  msb v = if (2 ^ Z.of_nat (length v - 1) <=? u) then B1 else B0.
Proof.
  revert u; induction v as [|b v IH]; intros u H Hne; [congruence|].
  cbn [uval] in H. destruct (uval v) as [u'|] eqn:E; [|discriminate].
  destruct v as [|c v].
  - cbn in E. apply Some_inj in E; subst. destruct b; try discriminate; apply Some_inj in H; subst; reflexivity.
  - rewrite msb_cons. rewrite (IH u' eq_refl) by congruence.
    cbn [length]. replace (S (S (length v)) - 1)%nat with (S (length v)) by lia.
    replace (S (length v) - 1)%nat with (length v) by lia.
    rewrite pow2_S. pose proof (uval_bound _ _ E) as B.
    destruct (2 ^ Z.of_nat (length v) <=? u') eqn:E1;
    destruct b; try discriminate; apply Some_inj in H; subst;
    (destruct (2 * 2 ^ Z.of_nat (length v) <=? _) eqn:E2; [reflexivity || (exfalso; lia)|reflexivity || (exfalso; lia)]).
Qed.

Lemma sval_char v u : uval v = Some u -> v <> [] ->
  sval v = Some (if (2 ^ Z.of_nat (length v - 1) <=? u) then u - 2 ^ Z.of_nat (length v) else u).
Proof.
  intros H Hne. unfold sval. rewrite H, (msb_uval _ _ H Hne).
  now destruct (2 ^ Z.of_nat (length v - 1) <=? u).
Qed.

Lemma pow2_pred n : (0 < n)%nat -> 2 ^ Z.of_nat n = 2 * 2 ^ Z.of_nat (n - 1).
Proof. intros H. destruct n as [|n]; [lia|]. rewrite pow2_S. now replace (S n - 1)%nat with n by lia. Qed.

Lemma sval_bound v s : sval v = Some s -> v <> [] ->
  - 2 ^ Z.of_nat (length v - 1) <= s < 2 ^ Z.of_nat (length v - 1).
Proof.
  intros H Hne. destruct (uval v) as [u|] eqn:E; [|unfold sval in H; rewrite E in H; discriminate].
  rewrite (sval_char _ _ E Hne) in H. apply Some_inj in H; subst.
  pose proof (uval_bound _ _ E) as B.
  assert (0 < length v)%nat by (destruct v; [congruence|cbn; lia]).
  rewrite (pow2_pred (length v)) in * by assumption.
  destruct (2 ^ Z.of_nat (length v - 1) <=? u) eqn:E1; lia.
Qed.

Lemma uval_sval v s : sval v = Some s -> uval v = Some (s mod 2 ^ Z.of_nat (length v)).
Proof.
  unfold sval. destruct (uval v) as [u|] eqn:E; [|discriminate].
  pose proof (uval_bound _ _ E) as B.
  intros H. f_equal. destruct (msb v); apply Some_inj in H; subst.
  - symmetry. apply Z.mod_small. exact B.
  - replace (u - 2 ^ Z.of_nat (length v)) with (u + (-1) * 2 ^ Z.of_nat (length v)) by lia.
    rewrite Z.mod_add by lia. symmetry. apply Z.mod_small. exact B.
  - symmetry. apply Z.mod_small. exact B.
Qed.

Lemma of_Z_sval v s : sval v = Some s -> of_Z (length v) s = v.
Proof.
  intros H. apply uval_sval in H. rewrite <- (of_Z_uval _ _ H) at 2.
  apply of_Z_ext. rewrite Z.mod_mod; [reflexivity|]. pose proof (pow2_pos (length v)); lia.
Qed.

Lemma sval_of_Z w z : (0 < w)%nat ->
  - 2 ^ Z.of_nat (w - 1) <= z < 2 ^ Z.of_nat (w - 1) -> sval (of_Z w z) = Some z.
Proof.
  intros Hw B.
  rewrite (sval_char _ _ (uval_of_Z w z)).
  2:{ destruct w; [lia|discriminate]. }
  rewrite length_of_Z. pose proof (pow2_pred w Hw) as HP. pose proof (pow2_pos (w - 1)) as Hp.
  f_equal.
  destruct (Z_lt_le_dec z 0).
  - replace (z mod 2 ^ Z.of_nat w) with (z + 2 ^ Z.of_nat w).
    2:{ apply Z.mod_unique with (q := -1); lia. }
    destruct (2 ^ Z.of_nat (w - 1) <=? z + 2 ^ Z.of_nat w) eqn:E; lia.
  - rewrite Z.mod_small by lia.
    destruct (2 ^ Z.of_nat (w - 1) <=? z) eqn:E; lia.
Qed.

Lemma uval_of_Z_small w z : 0 <= z < 2 ^ Z.of_nat w -> uval (of_Z w z) = Some z.
Proof. intros H. rewrite uval_of_Z. now rewrite Z.mod_small. Qed.

Lemma uval_app a b x y : uval a = Some x -> uval b = Some y ->
  uval (a ++ b) = Some (x + 2 ^ Z.of_nat (length a) * y).
Proof.
  revert x; induction a as [|c a IH]; intros x Ha Hb.
  - cbn in Ha. apply Some_inj in Ha; subst. cbn [app length]. rewrite Hb. f_equal. change (2 ^ Z.of_nat 0) with 1. lia.
  - cbn [uval] in Ha. destruct (uval a) as [x'|]; [|discriminate].
    cbn [app uval length]. rewrite (IH x' eq_refl Hb). rewrite pow2_S.
    destruct c; try discriminate; apply Some_inj in Ha; subst; f_equal; lia.
Qed.

Lemma uval_repeat0 n : uval (repeat B0 n) = Some 0.
Proof. induction n as [|n IH]; cbn; [reflexivity|]. now rewrite IH. Qed.

Lemma uval_repeat1 n : uval (repeat B1 n) = Some (2 ^ Z.of_nat n - 1).
Proof.
  induction n as [|n IH]; [reflexivity|].
  cbn [repeat uval]. rewrite IH, pow2_S. f_equal. lia.
Qed.

Lemma resize_of_uval v u w : uval v = Some u -> resize false w v = of_Z w u.
Proof.
  intros H. unfold resize.
  pose proof (uval_app v (repeat B0 (w - length v)) u 0 H (uval_repeat0 _)) as HA.
  rewrite Z.mul_0_r, Z.add_0_r in HA. apply of_Z_uval in HA. rewrite <- HA.
  apply firstn_of_Z. rewrite app_length, repeat_length. lia.
Qed.

Lemma resize_of_sval v s w : sval v = Some s -> resize true w v = of_Z w s.
Proof.
  intros H. unfold resize.
  destruct (uval v) as [u|] eqn:E; [|unfold sval in H; rewrite E in H; discriminate].
  unfold sval in H. rewrite E in H.
  destruct (msb v) eqn:M.
  - apply Some_inj in H; subst.
    pose proof (uval_app v (repeat B0 (w - length v)) _ 0 E (uval_repeat0 _)) as HA.
    rewrite Z.mul_0_r, Z.add_0_r in HA. apply of_Z_uval in HA. rewrite <- HA.
    apply firstn_of_Z. rewrite app_length, repeat_length. lia.
  - apply Some_inj in H; subst.
    pose proof (uval_app v (repeat B1 (w - length v)) u _ E (uval_repeat1 _)) as HA.
    apply of_Z_uval in HA. rewrite <- HA.
    rewrite firstn_of_Z by (rewrite app_length, repeat_length; lia).
    destruct (Nat.le_gt_cases w (length v)) as [L|L].
    + replace (w - length v)%nat with 0%nat by lia. change (2 ^ Z.of_nat 0 - 1) with 0.
      apply of_Z_ext. rewrite Z.mul_0_r, Z.add_0_r.
      replace (2 ^ Z.of_nat (length v)) with (2 ^ Z.of_nat (length v - w) * 2 ^ Z.of_nat w).
      2:{ rewrite <- Z.pow_add_r by lia. f_equal. lia. }
      replace (u - 2 ^ Z.of_nat (length v - w) * 2 ^ Z.of_nat w)
        with (u + (- 2 ^ Z.of_nat (length v - w)) * 2 ^ Z.of_nat w) by lia.
      rewrite Z.mod_add; [reflexivity|]. pose proof (pow2_pos w); lia.
    + apply of_Z_ext.
      assert (HP : 2 ^ Z.of_nat w = 2 ^ Z.of_nat (length v) * 2 ^ Z.of_nat (w - length v)).
      { rewrite <- Z.pow_add_r by lia. f_equal. lia. }
      replace (u + 2 ^ Z.of_nat (length v) * (2 ^ Z.of_nat (w - length v) - 1))
        with (u - 2 ^ Z.of_nat (length v) + 1 * 2 ^ Z.of_nat w) by lia.
      rewrite Z.mod_add; [reflexivity|]. pose proof (pow2_pos w); lia.
  - exfalso. assert (K : known v) by (apply uval_known; congruence).
    apply K. unfold msb in M. clear -M.
    induction v as [|b v IH]; [discriminate|].
    destruct v; [cbn in M; subst; now left|]. right. apply IH. exact M.
Qed.

Lemma resize_id sg v w : length v = w -> resize sg w v = v.
Proof.
  intros H. unfold resize. subst w. rewrite Nat.sub_diag. cbn [repeat].
  rewrite app_nil_r. apply firstn_all.
Qed.

Lemma resize_firstn sg v w : (w <= length v)%nat -> resize sg w v = firstn w v.
Proof.
  intros H. unfold resize. replace (w - length v)%nat with 0%nat by lia. cbn [repeat].
  now rewrite app_nil_r.
Qed.

Lemma skipn_skipn {A} n m (l : list A) : skipn n (skipn m l) = skipn (n + m) l.
Proof.
  revert n l; induction m as [|m IH]; intros n l.
  - now rewrite Nat.add_0_r.
  - rewrite Nat.add_succ_r. destruct l as [|a l]; cbn [skipn]; [now rewrite skipn_nil|]. apply IH.
Qed.

Lemma slice_S v lo n : slice v lo (S n) = getbit v lo :: slice v (S lo) n.
Proof.
  unfold slice. cbn [seq map]. rewrite Nat.add_0_r. f_equal.
  rewrite <- seq_shift, map_map. apply map_ext. intros k. f_equal. lia.
Qed.

Lemma skipn_nth (v : bits) lo : (lo < length v)%nat -> skipn lo v = getbit v lo :: skipn (S lo) v.
Proof.
  unfold getbit. revert lo; induction v as [|b v IH]; intros lo H; [cbn in H; lia|].
  destruct lo as [|lo]; [reflexivity|]. cbn [skipn nth]. apply IH. cbn in H. lia.
Qed.

Lemma slice_spec v lo n : (lo + n <= length v)%nat -> slice v lo n = firstn n (skipn lo v).
Proof.
  revert lo; induction n as [|n IH]; intros lo H; [reflexivity|].
  rewrite slice_S, (skipn_nth v lo) by lia. cbn [firstn]. rewrite IH by lia. reflexivity.
Qed.

Lemma slice_app_mid a b c : slice (a ++ b ++ c) (length a) (length b) = b.
Proof.
  rewrite slice_spec by (rewrite !app_length; lia).
  rewrite skipn_app, Nat.sub_diag, skipn_all. cbn.
  rewrite firstn_app, Nat.sub_diag, firstn_all. cbn. now rewrite app_nil_r.
Qed.

Lemma slice_one v i : slice v i 1 = [getbit v i].
Proof. unfold slice. cbn. now rewrite Nat.add_0_r. Qed.

Lemma uval_bool b : uval [bit_of_bool b] = Some (if b then 1 else 0).
Proof. now destruct b. Qed.

