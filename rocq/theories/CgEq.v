(** Equality of arrays is a bitwise comparison (C11). *)
From Coq Require Import List ZArith Lia Bool Arith.
From Verif Require Import Bits BitsFacts Verilog CodegenModel CodegenSpec CgLayout CgArith.
Import ListNotations.

Definition bit_dec (a b : bit) : {a = b} + {a <> b}.
Proof. decide equality. Defined.

Lemma eq_known t a b : has_width t a -> has_width t b -> known a -> known b ->
  op_value TBool [t; t] Eq [a; b] = Some [bit_of_bool (if list_eq_dec bit_dec a b then true else false)].
Proof.
  intros La Lb Ka Kb. unfold has_width in *. unfold op_value. cbn [size Nat.eqb forward_code length seq binop_zst nth].
  destruct (Nat.eqb_spec (size t) 0) as [E|E].
  - cbn [ok drive]. f_equal. assert (a = []) by (apply length_zero_iff_nil; lia). assert (b = []) by (apply length_zero_iff_nil; lia).
    subst. reflexivity.
  - cbn [ok drive]. f_equal. apply assign_one_bit; [reflexivity|].
    cbn [signed fv andb eval width operand_env nth]. rewrite La, Lb, Nat.max_id.
    rewrite (resize_id false a), (resize_id false b) by assumption. rewrite resize_id by reflexivity. f_equal.
    destruct (list_eq_dec bit_dec a b) as [->|N].
    + now apply veq_refl.
    + apply veq_neq; congruence.
Qed.

Lemma known_concat l : Forall known l -> known (concat l).
Proof.
  unfold known. intros H K. apply in_concat in K. destruct K as (v & Hv & K).
  rewrite Forall_forall in H. exact (H v Hv K).
Qed.

Lemma concat_inj_uniform (n : nat) (a b : list bits) :
  Forall (fun v => length v = n) a -> Forall (fun v => length v = n) b -> length a = length b -> concat a = concat b -> a = b.
Proof.
  intros Ha. revert b. induction Ha as [|v a Hv Ha IH]; intros [|w b] Hb HL HC; cbn in HL; try lia; [reflexivity|].
  inversion Hb as [|? ? Hw Hb']; subst. cbn in HC.
  assert (E : v = w).
  { rewrite <- (firstn_app_exact v (concat a) (length v) eq_refl), HC. apply firstn_app_exact. lia. }
  subst w. apply app_inv_head in HC. f_equal. apply IH; auto; lia.
Qed.

Lemma array_eq_elementwise t (a b : list bits) wa wb : length a = length b ->
  Forall (has_width t) a -> Forall (has_width t) b -> Forall known a -> Forall known b ->
  op_value (TArray t (length a)) (repeat t (length a)) ConstructArray a = Some wa ->
  op_value (TArray t (length b)) (repeat t (length b)) ConstructArray b = Some wb ->
  exists r, op_value TBool [TArray t (length a); TArray t (length b)] Eq [wa; wb] = Some [bit_of_bool r] /\
    (r = true <-> Forall2 (fun x y => op_value TBool [t; t] Eq [x; y] = Some [B1]) a b).
Proof.
  intros HL Ha Hb Ka Kb Hwa Hwb.
  rewrite construct_array_value in Hwa, Hwb by assumption. apply Some_inj in Hwa, Hwb. subst wa wb.
  pose proof (length_concat_uniform a (size t) Ha) as La. pose proof (length_concat_uniform b (size t) Hb) as Lb.
  eexists. rewrite <- HL. split.
  - apply eq_known; try (now apply known_concat); unfold has_width; cbn [size]; [exact La|]. now rewrite Lb, HL.
  - destruct (list_eq_dec bit_dec (concat a) (concat b)) as [E|E].
    + split; [intros _|reflexivity]. apply (concat_inj_uniform (size t)) in E; auto. subst b.
      clear - Ha Ka. induction a as [|x a IH]; constructor.
      * inversion Ha; inversion Ka; subst. rewrite eq_known by assumption.
        destruct (list_eq_dec bit_dec x x); [reflexivity|congruence].
      * inversion Ha; inversion Ka; subst. now apply IH.
    + split; [discriminate|]. intros HF. exfalso. apply E. f_equal. clear - Ha Ka Hb Kb HF.
      induction HF as [|x y a b Hxy HF IH]; [reflexivity|].
      inversion Ha; inversion Ka; inversion Hb; inversion Kb; subst. f_equal; [|now apply IH].
      rewrite eq_known in Hxy by assumption. destruct (list_eq_dec bit_dec x y); [assumption|discriminate].
Qed.
