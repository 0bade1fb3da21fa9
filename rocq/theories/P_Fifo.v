(** C48: the cross-domain fifo. *)
From Coq Require Import ZArith List Bool Lia.
From Verif Require Import GrayModel GrayProofs FifoModel FifoSpec FifoProofs.
Import ListNotations.
Local Open Scope Z_scope.

(** Gray code: decoding undoes encoding, and one step of a counter of [n] bits,
    wrapping included, changes exactly one bit. *)
Theorem C48_gray : forall n x, 0 <= x < 2 ^ Z.of_nat n ->
  0 <= to_gray x < 2 ^ Z.of_nat n /\ gray_to_bin n (to_gray x) = x /\
  ((1 <= n)%nat -> exists k, 0 <= k < Z.of_nat n /\ forall i, 0 <= i ->
     (Z.testbit (to_gray x) i <> Z.testbit (to_gray ((x + 1) mod 2 ^ Z.of_nat n)) i <-> i = k)).
Proof.
  intros n x X. split; [apply to_gray_range; lia|]. split; [now apply gray_round_trip|]. intros N.
  destruct (gray_step n x N X) as (k & K & H). exists k.
  assert (F : forall i, 0 <= i -> (Z.testbit (to_gray x) i <> Z.testbit (to_gray ((x + 1) mod 2 ^ Z.of_nat n)) i <-> i = k)).
  { intros i I. rewrite H by assumption. destruct (Z.eqb_spec i k) as [->|NE].
    - destruct (Z.testbit (to_gray x) k); cbn; intuition congruence.
    - rewrite xorb_false_r. tauto. }
  split; [|exact F]. split; [assumption|]. destruct (Z_lt_le_dec k (Z.of_nat n)) as [L|L]; [exact L|exfalso].
  assert (P : 0 < 2 ^ Z.of_nat n) by (apply Z.pow_pos_nonneg; lia).
  apply (proj2 (F k K) eq_refl). rewrite !(testbit_high _ (Z.of_nat n)); try assumption; try reflexivity; apply to_gray_range; try lia.
  apply Z.mod_pos_bound. lia.
Qed.

Section Fifo.
Variable D : Type.
Variable W : nat.
Variable s : fifo D.
Hypothesis F : fresh s.
Notation C := (2 ^ Z.of_nat W).
Notation puts := (puts W C s).
Notation gots := (gots W C s).
Notation after es := (run W C s es).

Lemma main es : forallb quiet es = true -> exists Pg P1 P2 Qg Q1 Q2, inv W (after es) (puts es) (gots es) Pg P1 P2 Qg Q1 Q2.
Proof.
  intros QE. destruct (run_inv W C es eq_refl s [] [] 0 0 0 0 0 0 (fresh_inv W s F) QE) as (Pg & P1 & P2 & Qg & Q1 & Q2 & I & _).
  exists Pg, P1, P2, Qg, Q1, Q2. exact I.
Qed.
Lemma run_app es es' : after (es ++ es') = run W C (after es) es'.
Proof. apply fold_left_app. Qed.
End Fifo.
Lemma puts_app {D} W C es : forall (s : fifo D) es', puts W C s (es ++ es') = puts W C s es ++ puts W C (run W C s es) es'.
Proof. induction es as [|e es IH]; intros s es'; [reflexivity|]. cbn. rewrite IH, app_assoc. reflexivity. Qed.
Lemma gots_app {D} W C es : forall (s : fifo D) es', gots W C s (es ++ es') = gots W C s es ++ gots W C (run W C s es) es'.
Proof. induction es as [|e es IH]; intros s es'; [reflexivity|]. cbn. rewrite IH, app_assoc. reflexivity. Qed.

(** Whatever the clocks and whatever is offered and acknowledged: the values got out
    are the values put in, in the same order, up to those still inside. *)
Theorem C48_order : forall D W (s : fifo D) es, fresh s -> forallb quiet es = true ->
  exists inside, puts W (2 ^ Z.of_nat W) s es = gots W (2 ^ Z.of_nat W) s es ++ inside /\ Z.of_nat (List.length inside) <= 2 ^ Z.of_nat W - 1.
Proof.
  intros D W s es F QE. destruct (main D W s F es QE) as (Pg & P1 & P2 & Qg & Q1 & Q2 & I).
  destruct (i_prefix _ _ _ _ _ _ _ _ _ _ I) as (rest & E). exists rest. split; [exact E|].
  pose proof (i_room _ _ _ _ _ _ _ _ _ _ I) as R. pose proof (i_q _ _ _ _ _ _ _ _ _ _ I). pose proof (i_qg _ _ _ _ _ _ _ _ _ _ I).
  rewrite E, app_length in R. lia.
Qed.

(** The value shown is the oldest one inside. *)
Theorem C48_shown : forall D W (s : fifo D) es v, fresh s -> forallb quiet es = true ->
  shown W (run W (2 ^ Z.of_nat W) s es) = Some v ->
  exists rest, puts W (2 ^ Z.of_nat W) s es = gots W (2 ^ Z.of_nat W) s es ++ v :: rest.
Proof.
  intros D W s es v F QE H. destruct (main D W s F es QE) as (Pg & P1 & P2 & Qg & Q1 & Q2 & I).
  destruct (shown_eq W _ _ _ _ _ _ _ _ _ I v H) as (_ & N & _). destruct (i_prefix _ _ _ _ _ _ _ _ _ _ I) as (rest & E).
  rewrite E in N. rewrite nth_error_app2, Nat.sub_diag in N by lia. destruct rest as [|x rest]; [discriminate|].
  injection N as ->. exists rest. exact E.
Qed.

(** The number of elements told is never more than the number inside. *)
Theorem C48_count : forall D W (s : fifo D) es, fresh s -> forallb quiet es = true ->
  let n := num_elements W (2 ^ Z.of_nat W) (run W (2 ^ Z.of_nat W) s es) in
  0 <= n /\ n + Z.of_nat (List.length (gots W (2 ^ Z.of_nat W) s es)) <= Z.of_nat (List.length (puts W (2 ^ Z.of_nat W) s es)) /\
  (n = 0 <-> shown W (run W (2 ^ Z.of_nat W) s es) = None).
Proof.
  intros D W s es F QE n. destruct (main D W s F es QE) as (Pg & P1 & P2 & Qg & Q1 & Q2 & I).
  unfold n. rewrite (num_eq W _ _ _ _ _ _ _ _ _ I _ eq_refl).
  pose proof (i_qp _ _ _ _ _ _ _ _ _ _ I). pose proof (i_p _ _ _ _ _ _ _ _ _ _ I). pose proof (i_pg _ _ _ _ _ _ _ _ _ _ I).
  split; [lia|]. split; [lia|]. unfold shown. rewrite (empty_eq W _ _ _ _ _ _ _ _ _ I).
  destruct (Z.eqb_spec P2 (Z.of_nat (List.length (gots W (2 ^ Z.of_nat W) s es)))); split; intros X; try discriminate; try reflexivity; lia.
Qed.

(** A value put in is shown after one more write edge and then two more read edges,
    unless everything has been taken out. *)
Theorem C48_arrives : forall D W (s : fifo D) es1 es2 es3, fresh s -> forallb quiet (es1 ++ es2 ++ es3) = true ->
  (1 <= write_edges es2)%nat -> (2 <= read_edges es3)%nat ->
  (List.length (gots W (2 ^ Z.of_nat W) s (es1 ++ es2 ++ es3)) < List.length (puts W (2 ^ Z.of_nat W) s es1))%nat ->
  exists v, shown W (run W (2 ^ Z.of_nat W) s (es1 ++ es2 ++ es3)) = Some v.
Proof.
  intros D W s es1 es2 es3 F QE E2 E3 L. rewrite !forallb_app in QE. apply andb_true_iff in QE as [QE1 QE]. apply andb_true_iff in QE as [QE2 QE3].
  destruct (main D W s F es1 QE1) as (Pg & P1 & P2 & Qg & Q1 & Q2 & I).
  destruct (run_inv W _ es2 eq_refl _ _ _ _ _ _ _ _ _ I QE2) as (Pg' & P1' & P2' & Qg' & Q1' & Q2' & I' & _ & _ & _ & _ & _ & _ & A & _).
  destruct (run_inv W _ es3 eq_refl _ _ _ _ _ _ _ _ _ I' QE3) as (Pg2 & P12 & P22 & Qg2 & Q12 & Q22 & I2 & _ & _ & _ & _ & _ & _ & _ & _ & B & _).
  specialize (A E2). specialize (B E3). rewrite !run_app. unfold shown. rewrite (empty_eq W _ _ _ _ _ _ _ _ _ I2).
  rewrite !gots_app, !app_length in L. rewrite !app_length.
  match goal with |- context [?a =? ?b] => destruct (Z.eqb_spec a b) as [E|E] end; [|eauto]. exfalso. lia.
Qed.

(** Room made by taking out is there after one more read edge and then two more write
    edges. *)
Theorem C48_room : forall D W (s : fifo D) es1 es2 es3, fresh s -> forallb quiet (es1 ++ es2 ++ es3) = true ->
  (1 <= read_edges es2)%nat -> (2 <= write_edges es3)%nat ->
  Z.of_nat (List.length (puts W (2 ^ Z.of_nat W) s (es1 ++ es2 ++ es3))) < Z.of_nat (List.length (gots W (2 ^ Z.of_nat W) s es1)) + 2 ^ Z.of_nat W - 1 ->
  full W (run W (2 ^ Z.of_nat W) s (es1 ++ es2 ++ es3)) = false.
Proof.
  intros D W s es1 es2 es3 F QE E2 E3 L. rewrite !forallb_app in QE. apply andb_true_iff in QE as [QE1 QE]. apply andb_true_iff in QE as [QE2 QE3].
  destruct (main D W s F es1 QE1) as (Pg & P1 & P2 & Qg & Q1 & Q2 & I).
  destruct (run_inv W _ es2 eq_refl _ _ _ _ _ _ _ _ _ I QE2) as (Pg' & P1' & P2' & Qg' & Q1' & Q2' & I' & _ & _ & _ & _ & _ & _ & _ & A & _).
  destruct (run_inv W _ es3 eq_refl _ _ _ _ _ _ _ _ _ I' QE3) as (Pg2 & P12 & P22 & Qg2 & Q12 & Q22 & I2 & _ & _ & _ & _ & _ & _ & _ & _ & _ & _ & _ & B & _).
  specialize (A E2). specialize (B E3). rewrite !run_app. rewrite (full_eq W _ _ _ _ _ _ _ _ _ I2).
  apply Z.eqb_neq. rewrite !puts_app in L. repeat rewrite app_length in L. repeat rewrite app_length. lia.
Qed.

(** Holding both resets over two edges of each clock, and then two more, empties the
    fifo, whatever state it was in. *)
Theorem C48_reset : forall D W C (s : fifo D) es1 es2, forallb in_reset (es1 ++ es2) = true ->
  (2 <= write_edges es1)%nat -> (2 <= read_edges es1)%nat -> (2 <= write_edges es2)%nat -> (2 <= read_edges es2)%nat ->
  fresh (run W C s (es1 ++ es2)).
Proof.
  intros D W C s es1 es2 R A1 A2 B1 B2. rewrite forallb_app in R. apply andb_true_iff in R as [R1 R2].
  unfold run. rewrite fold_left_app. fold (run W C s es1). fold (run W C (run W C s es1) es2).
  destruct (reset_run W C es1 R1 s) as (H1 & H2 & _ & H4 & _ & H6 & _).
  assert (X1 : wp (run W C s es1) = 0) by (apply H1; right; clear - A1; lia).
  assert (X2 : rp (run W C s es1) = 0) by (apply H2; right; clear - A2; lia).
  specialize (H4 A1). specialize (H6 A2).
  destruct (reset_run W C es2 R2 (run W C s es1)) as (K1 & K2 & K3 & _ & K5 & _ & K7 & K8 & K9 & K10).
  unfold fresh. repeat match goal with |- _ /\ _ => split end; auto.
  - apply K7; auto. right. clear - B2. lia.
  - apply K9; auto. right. clear - B1. lia.
Qed.

Print Assumptions C48_gray.
Print Assumptions C48_order.
Print Assumptions C48_shown.
Print Assumptions C48_count.
Print Assumptions C48_arrives.
Print Assumptions C48_room.
Print Assumptions C48_reset.

(** ** Examples *)
Definition new_fifo : fifo nat :=
  {| wp := 0; rp := 0; read_result := 99%nat; memory := fun _ => 99%nat; gw := 0; w1 := 0; w2 := 0; gr := 0; r1 := 0; r2 := 0 |}.
Notation w v := (WriteEdge (Some v%nat) false).
Notation r := (ReadEdge true false 77%nat).
Notation both v m := (BothEdges (Some v%nat) false true false m m 88%nat).
(** Two bits: the fourth offer is refused; both clocks meet, with the new bits seen
    (mask 0) or the old ones (mask -1). *)
Definition session : list (event nat) := [w 1; w 2; w 3; w 4; both 5 0; r; r; both 6 (-1); both 7 1; r; w 8; w 11; r; r; w 9; w 10; r; r; r]%nat.
Example C48_nontrivial :
  fresh new_fifo /\ forallb quiet session = true /\
  puts 2 4 new_fifo session = [1; 2; 3; 11; 9; 10]%nat /\ gots 2 4 new_fifo session = [1; 2; 3; 11]%nat /\
  shown 2 (run 2 4 new_fifo session) = Some 9%nat /\
  full 2 (run 2 4 new_fifo [w 1; w 2; w 3]) = true /\
  num_elements 2 4 (run 2 4 new_fifo [w 1; w 2; w 3; ReadEdge false false 0%nat; ReadEdge false false 0%nat]) = 2 /\
  ((write_edges [w 4] = 1)%nat /\ (read_edges [r; r] = 2)%nat) /\
  fresh (run 2 4 (run 2 4 new_fifo session) (repeat (BothEdges (Some 5%nat) true true true 2 1 0%nat) 4)).
Proof. vm_compute. repeat split; reflexivity. Qed.

(** With fewer words than addresses, which is not checked, values are lost. *)
Theorem C48_size_refuted : exists (W : nat) (C : Z) (es : list (event nat)), C < 2 ^ Z.of_nat W /\ forallb quiet es = true /\
  ~ exists inside, puts W C new_fifo es = gots W C new_fifo es ++ inside.
Proof.
  exists 2%nat, 3, [w 1; w 2; w 3; r; r; r; r; r; w 4; w 5; w 6; w 7; r; r; r; r; r; r; r]%nat.
  repeat split; try reflexivity. intros (i & H). vm_compute in H. discriminate.
Qed.

(** One edge of reset on both sides at once is not enough: values that were never put
    in since then are shown. *)
Theorem C48_short_reset_refuted : exists W (s : fifo nat) es e es', fresh s /\ forallb quiet (es ++ es') = true /\ in_reset e = true /\
  let t := run W (2 ^ Z.of_nat W) s (es ++ [e]) in
  wp t = 0 /\ rp t = 0 /\ puts W (2 ^ Z.of_nat W) t es' = [] /\ gots W (2 ^ Z.of_nat W) t es' <> [].
Proof.
  exists 2%nat, new_fifo, [w 1; w 2; r; r; WriteEdge None false; r]%nat, (BothEdges None true false true 0 0 0%nat), [r; r].
  cbv zeta. repeat split; try (vm_compute; reflexivity). vm_compute. discriminate.
Qed.
