(** The priority case emitted for [Match] (C09). *)
From Coq Require Import List ZArith Lia Bool Arith.
From Verif Require Import Bits BitsFacts Verilog CodegenModel CodegenSpec CgLayout CgArith.
Import ListNotations.

Fixpoint flat {A} (l : list (A * A)) : list A :=
  match l with [] => [] | (a, b) :: l => a :: b :: flat l end.

Lemma flat_length {A} (l : list (A * A)) : length (flat l) = 2 * length l.
Proof. induction l as [|[a b] l IH]; cbn; [reflexivity|]. rewrite IH. lia. Qed.

Lemma nth_flat {A} (l : list (A * A)) i a b d : nth_error l i = Some (a, b) ->
  nth (2 * i) (flat l) d = a /\ nth (2 * i + 1) (flat l) d = b.
Proof.
  revert i; induction l as [|[x y] l IH]; intros [|i] H; cbn in H; try discriminate.
  - injection H as <- <-. now split.
  - replace (2 * S i) with (S (S (2 * i))) by lia. replace (S (S (2 * i)) + 1) with (S (S (2 * i + 1))) by lia.
    cbn [flat nth]. now apply IH.
Qed.

Lemma pairs_seq k n : pairs (seq k (2 * n)) = map (fun i => (k + 2 * i, k + 2 * i + 1)) (seq 0 n).
Proof.
  revert k; induction n as [|n IH]; intros k; [reflexivity|].
  replace (2 * S n) with (S (S (2 * n))) by lia. cbn [seq pairs map]. f_equal; [f_equal; lia|].
  rewrite IH, <- seq_shift, map_map. apply map_ext. intros i. f_equal; lia.
Qed.

Lemma combine_map_self {A B} (f : A -> B) l : combine l (map f l) = map (fun x => (x, f x)) l.
Proof. induction l as [|x l IH]; cbn; [reflexivity|]. now rewrite IH. Qed.

Lemma run_items_seq r w v F rest : forall m k i, k <= i < k + m ->
  (forall j, k <= j < i -> citem_match (fst (F j)) v = false) -> citem_match (fst (F i)) v = true ->
  run_items r w v (map F (seq k m) ++ rest) = assign_val r w (snd (F i)).
Proof.
  induction m as [|m IH]; intros k i Hi Hlt Heq; [lia|].
  cbn [seq map app run_items]. destruct (F k) as [ds e] eqn:E.
  destruct (Nat.eq_dec i k) as [->|Hne].
  - rewrite E in *. cbn in Heq |- *. now rewrite Heq.
  - pose proof (Hlt k ltac:(lia)) as H. rewrite E in H. cbn in H. rewrite H.
    apply IH; [lia| |assumption]. intros j Hj. apply Hlt. lia.
Qed.

Lemma run_items_none r w v F rest : forall m k,
  (forall j, k <= j < k + m -> citem_match (fst (F j)) v = false) ->
  run_items r w v (map F (seq k m) ++ rest) = run_items r w v rest.
Proof.
  induction m as [|m IH]; intros k Hlt; [reflexivity|].
  cbn [seq map app run_items]. destruct (F k) as [ds e] eqn:E.
  pose proof (Hlt k ltac:(lia)) as H. rewrite E in H. cbn in H. rewrite H.
  apply IH. intros j Hj. apply Hlt. lia.
Qed.

Lemma citem_any v : citem_match (repeat CAny (length v)) v = true.
Proof. induction v as [|b v IH]; [reflexivity|]. cbn. exact IH. Qed.

Lemma citem_match_item (v : bits) i : i < length v ->
  citem_match (match_item (length v) i) v = true <-> (forall j, j < i -> nth j v BX = B0) /\ nth i v BX = B1.
Proof.
  unfold match_item. revert i; induction v as [|b v IH]; intros i Hi; [cbn in Hi; lia|].
  destruct i as [|i].
  - cbn [repeat app length citem_match Nat.sub]. rewrite Nat.sub_0_r, citem_any.
    cbn [nth]. rewrite andb_true_r. destruct b; cbn; split; try discriminate; try tauto;
      try (intros [_ H]; discriminate H). intros _. split; [intros; lia|reflexivity].
  - cbn [length Nat.sub repeat app citem_match nth]. cbn in Hi.
    rewrite andb_true_iff, IH by lia. split.
    + intros [Hb [H1 H2]]. split; [|exact H2]. intros [|j] Hj; [destruct b; try discriminate; reflexivity|apply H1; lia].
    + intros [H1 H2]. pose proof (H1 0 ltac:(lia)) as H0. cbn in H0. subst b. split; [reflexivity|].
      split; [|exact H2]. intros j Hj. apply (H1 (S j)). lia.
Qed.

Lemma flat_types_even t n : length (flat (repeat (TBool, t) n)) = 2 * n.
Proof. now rewrite flat_length, repeat_length. Qed.

Lemma concat_singletons {A} (l : list A) : concat (map (fun x => [x]) l) = l.
Proof. induction l as [|x l IH]; cbn; [reflexivity|]. now rewrite IH. Qed.

Lemma list_sum_ones n : forall k, list_sum (map (fun _ => 1) (seq k n)) = n.
Proof. induction n as [|n IH]; intros k; [reflexivity|]. cbn [seq map]. rewrite list_sum_cons. now rewrite IH. Qed.

(** The driver of a match over [arms] = list of (condition bit, value). *)
Lemma match_driver t (n : nat) :
  forward_code (fun k => nth k (flat (repeat (TBool, t) n)) (TTuple [])) t Match (seq 0 (2 * n)) =
  Ok (DCasez (map (fun i => fv (2 * i)) (seq 0 n))
        (map (fun i => (match_item n i, fv (2 * i + 1))) (seq 0 n) ++ [(repeat CAny n, VLit (xs (size t)))])).
Proof.
  cbn [forward_code]. rewrite seq_length.
  replace (Nat.even (2 * n)) with true.
  2:{ symmetry. apply Nat.even_spec. now exists n. }
  replace (2 * n / 2) with n by (rewrite Nat.mul_comm, Nat.div_mul; lia).
  rewrite pairs_seq, map_map, combine_map_self, map_map. reflexivity.
Qed.

Lemma scrut_value (arms : list (bit * bits)) :
  let r := operand_env (flat (map (fun a => ([fst a], snd a)) arms)) in
  let s := map (fun i => fv (2 * i)) (seq 0 (length arms)) in
  rev (eval r (width r (VConcat s)) false (VConcat s)) = map fst arms.
Proof.
  intros r s.
  assert (Hr : forall i, i < length arms -> r (Fwd (2 * i)) = [fst (nth i arms (BX, []))]).
  { intros i Hi. unfold r. cbn [operand_env].
    eapply nth_flat. rewrite nth_error_map, (nth_error_nth' arms (BX, [])) by assumption. reflexivity. }
  assert (Hm : map (fun e => eval r (width r e) (signed e) e) s = map (fun b => [b]) (map fst arms)).
  { unfold s. rewrite map_map, map_map.
    rewrite <- (seq_nth_map (fun x => [fst x]) arms (BX, [])).
    apply map_ext_in. intros i Hi. apply in_seq in Hi. cbn [fv eval width signed].
    rewrite Hr by lia. now apply resize_id. }
  assert (Hw : width r (VConcat s) = length arms).
  { cbn [width]. unfold s. rewrite map_map.
    rewrite (map_ext_in _ (fun _ => 1)).
    - apply list_sum_ones.
    - intros i Hi. apply in_seq in Hi. cbn [fv width]. rewrite Hr by lia. reflexivity. }
  rewrite Hw. cbn [eval]. rewrite Hm, <- map_rev, concat_singletons.
  rewrite resize_id by (now rewrite rev_length, map_length). apply rev_involutive.
Qed.

Lemma match_first t (arms : list (bit * bits)) i v :
  size t <> 0 -> nth_error arms i = Some (B1, v) -> has_width t v ->
  (forall j a, j < i -> nth_error arms j = Some a -> fst a = B0) ->
  op_value t (flat (repeat (TBool, t) (length arms))) Match (flat (map (fun a => ([fst a], snd a)) arms)) = Some v.
Proof.
  intros Ht Hi Hv Hlt.
  assert (Hil : i < length arms) by (apply nth_error_Some; congruence).
  erewrite op_value_unfold; [|exact Ht|rewrite flat_types_even; apply match_driver].
  cbn [drive]. rewrite scrut_value. f_equal.
  rewrite (run_items_seq _ _ _ _ _ _ 0 i).
  - cbn [snd]. unfold fv.
    destruct (nth_flat (map (fun a => ([fst a], snd a)) arms) i [B1] v []) as [_ E].
    { rewrite nth_error_map, Hi. reflexivity. }
    rewrite assign_var; cbn [operand_env]; rewrite E; [reflexivity|exact Hv].
  - lia.
  - intros j Hj. cbn [fst].
    destruct (citem_match (match_item (length arms) j) (map fst arms)) eqn:E; [|reflexivity]. exfalso.
    rewrite <- (map_length fst) in E. apply citem_match_item in E; [|rewrite map_length; lia].
    destruct E as [_ E]. destruct (nth_error arms j) as [a|] eqn:Ej.
    2:{ apply nth_error_None in Ej. lia. }
    rewrite (nth_error_nth _ _ BX (map_nth_error fst _ _ Ej)) in E.
    rewrite (Hlt j a) in E by (try assumption; lia). discriminate.
  - cbn [fst]. rewrite <- (map_length fst). apply citem_match_item; [now rewrite map_length|]. split.
    + intros j Hj. destruct (nth_error arms j) as [a|] eqn:Ej.
      2:{ apply nth_error_None in Ej. lia. }
      rewrite (nth_error_nth _ _ BX (map_nth_error fst _ _ Ej)). eapply Hlt; eassumption.
    + now rewrite (nth_error_nth _ _ BX (map_nth_error fst _ _ Hi)).
Qed.

Lemma match_none t (arms : list (bit * bits)) :
  size t <> 0 -> (forall a, In a arms -> fst a <> B1) ->
  op_value t (flat (repeat (TBool, t) (length arms))) Match (flat (map (fun a => ([fst a], snd a)) arms)) = Some (xs (size t)).
Proof.
  intros Ht Hn.
  erewrite op_value_unfold; [|exact Ht|rewrite flat_types_even; apply match_driver].
  cbn [drive]. rewrite scrut_value. f_equal.
  rewrite run_items_none.
  - cbn [run_items]. rewrite <- (map_length fst), citem_any.
    unfold assign_val. cbn [width eval signed]. rewrite length_xs, Nat.max_id, resize_id by apply length_xs.
    apply firstn_all2. rewrite length_xs. lia.
  - intros j Hj. cbn [fst].
    destruct (citem_match (match_item (length arms) j) (map fst arms)) eqn:E; [|reflexivity]. exfalso.
    rewrite <- (map_length fst) in E. apply citem_match_item in E; [|rewrite map_length; lia].
    destruct E as [_ E]. destruct (nth_error arms j) as [a|] eqn:Ej.
    2:{ apply nth_error_None in Ej. lia. }
    rewrite (nth_error_nth _ _ BX (map_nth_error fst _ _ Ej)) in E.
    apply (Hn a); [eapply nth_error_In; eassumption|assumption].
Qed.
