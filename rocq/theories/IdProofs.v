From Coq Require Import List ZArith Lia Arith.
From Verif Require Import IdModel IdSpec.
Import ListNotations.
Local Open Scope Z_scope.


Lemma nth_error_set : forall A n (x y : A) l k, nth_error l n = Some y ->
  nth_error (set_nth n x l) k = if Nat.eqb n k then Some x else nth_error l k.
Proof.
  intros A n x y. induction n as [|n IH]; intros [|a l] [|k] H; try discriminate; auto.
  change (set_nth (S n) x (a :: l)) with (a :: set_nth n x l). cbn. cbn in H. rewrite (IH l k H). auto.
Qed.
Lemma length_set : forall A n (x y : A) l, nth_error l n = Some y -> List.length (set_nth n x l) = List.length l.
Proof.
  intros A n x y. induction n as [|n IH]; intros [|a l] H; try discriminate; auto.
  change (set_nth (S n) x (a :: l)) with (a :: set_nth n x l). cbn in *. f_equal. auto.
Qed.

Lemma u64_add : forall a k, u64 (u64 a + k) = u64 (a + k).
Proof. intros. unfold u64. rewrite Z.add_mod_idemp_l; auto. discriminate. Qed.
(** The k-th id from a tracker whose latest value is [a]. *)
Lemma ids_from : forall ps ts es ps' ts', run ps ts es ps' ts' -> forall t tr, nth_error ts t = Some tr ->
  0 <= latest tr < 2 ^ 64 ->
  ids_of t es = map (fun k => u64 (latest tr + Z.of_nat k)) (seq 0 (List.length (ids_of t es))).
Proof.
  intros ps ts es ps' ts' R. induction R as [ps ts|ps ts i o rest e ts' es ps'' ts'' Hi O R IH]; intros t tr Ht B; auto.
  inversion O; subst; cbn [ids_of flat_map].
  - fold (ids_of t es). destruct (Nat.eqb_spec t0 t) as [->|N].
    + assert (tr0 = tr) by congruence. subst tr0. cbn [app List.length seq map]. f_equal.
      * rewrite Z.add_0_r. symmetry. apply Z.mod_small. auto.
      * specialize (IH t (u64 (latest tr + 1) :: tr)). rewrite (nth_error_set _ _ _ _ _ _ H), Nat.eqb_refl in IH.
        cbn [latest hd] in IH. rewrite IH at 1; auto.
        2:{ apply Z.mod_pos_bound. reflexivity. }
        rewrite <- seq_shift, map_map. apply map_ext. intros k. rewrite u64_add. f_equal. lia.
    + cbn [app]. apply IH; auto. rewrite (nth_error_set _ _ _ _ _ _ H).
      destruct (Nat.eqb_spec t0 t); [contradiction|auto].
  - cbn [app]. apply IH; auto.
  - cbn [app]. apply IH; auto. rewrite nth_error_app1; auto. apply (proj1 (nth_error_Some ts t)). rewrite Ht. discriminate.
Qed.
Lemma NoDup_map_in : forall A B (f : A -> B) l, NoDup l -> (forall x y, In x l -> In y l -> f x = f y -> x = y) ->
  NoDup (map f l).
Proof.
  induction l as [|a l IH]; intros N F; [constructor|]. inversion N; subst. cbn. constructor.
  - rewrite in_map_iff. intros (b & E & I). apply F in E; [subst; contradiction|right; auto|left; auto].
  - apply IH; auto. intros x y Ix Iy. apply F; right; auto.
Qed.
Lemma u64_distinct : forall a n, (Z.of_nat n <= 2 ^ 64) -> NoDup (map (fun k => u64 (a + Z.of_nat k)) (seq 0 n)).
Proof.
  intros a n B. apply NoDup_map_in; [apply seq_NoDup|].
  intros x y Ix Iy E. apply in_seq in Ix, Iy. unfold u64 in E.
  assert (D : (Z.of_nat x - Z.of_nat y) mod 2 ^ 64 = 0).
  { replace (Z.of_nat x - Z.of_nat y) with ((a + Z.of_nat x) - (a + Z.of_nat y)) by lia.
    rewrite Zminus_mod, E, Z.sub_diag. reflexivity. }
  apply Z.mod_divide in D; [|discriminate]. destruct D as [q D].
  assert (q = 0) by nia. subst. lia.
Qed.

Lemma u64_repeats : forall a n, (2 ^ 64 < Z.of_nat n) -> ~ NoDup (map (fun k => u64 (a + Z.of_nat k)) (seq 0 n)).
Proof.
  intros a n B N. set (m := Z.to_nat (2 ^ 64)).
  assert (M : Z.of_nat m = 2 ^ 64) by (unfold m; rewrite Z2Nat.id; [auto|lia]).
  pose proof (NoDup_nth_error (map (fun k => u64 (a + Z.of_nat k)) (seq 0 n))) as [P _].
  specialize (P N 0%nat m). rewrite map_length, seq_length in P.
  assert (E : 0%nat = m); [|lia].
  apply P; [lia|]. rewrite !nth_error_map.
  rewrite (nth_error_nth' _ 0%nat) by (rewrite seq_length; lia). rewrite seq_nth by lia.
  rewrite (nth_error_nth' _ 0%nat) by (rewrite seq_length; lia). rewrite seq_nth by lia. cbn [option_map].
  f_equal. rewrite !Nat.add_0_l, M. unfold u64. rewrite <- (Z.mul_1_l (2 ^ 64)) at 2.
  rewrite Z.add_0_r, Z.mod_add; auto; discriminate.
Qed.

Lemma ids_of_peek : forall t es v, In v (ids_of t es) <-> In (GotId t v) es.
Proof.
  intros t es v. unfold ids_of. rewrite in_flat_map. split.
  - intros ([t' id| |] & I & H); try contradiction. destruct (Nat.eqb_spec t' t); [|contradiction].
    destruct H as [<-|[]]. subst. auto.
  - intros I. exists (GotId t v). split; auto. rewrite Nat.eqb_refl. left. auto.
Qed.

(** the table *)
Lemma table_ids : forall ops t ids, table_run t ops = Some ids -> 0 <= next_id t < 2 ^ 64 ->
  ids = map (fun k => u64 (next_id t + Z.of_nat k)) (seq 0 (List.length ids)).
Proof.
  induction ops as [|o ops IH]; intros t ids H B; cbn in H.
  - inversion H; subst. auto.
  - destruct (table_step t o) as [[id t']|] eqn:S; [|discriminate].
    destruct (table_run t' ops) as [ids'|] eqn:R; [|discriminate]. cbn in H. inversion H; subst; clear H.
    assert (C : (id = None /\ next_id t' = next_id t) \/ (id = Some (next_id t) /\ next_id t' = u64 (next_id t + 1))).
    { destruct t, o; inversion S; subst; auto. }
    destruct C as [[-> E]|[-> E]].
    + rewrite <- E. apply (IH _ _ R). rewrite E. auto.
    + cbn [List.length seq map]. f_equal.
      * rewrite Z.add_0_r. symmetry. apply Z.mod_small. auto.
      * rewrite (IH _ _ R) at 1.
        2:{ rewrite E. apply Z.mod_pos_bound. reflexivity. }
        rewrite <- seq_shift, map_map. apply map_ext. intros k. rewrite E, u64_add. f_equal. lia.
Qed.
