(** C50: the array, number and option methods of the standard library. *)
From Coq Require Import ZArith List Bool Arith Lia.
From Verif Require Import ArrModel ArrSpec ArrProofs.
Import ListNotations.

(** An array value is its elements, so that reading it gives them back. *)
Theorem C50_elements : forall w xs, wide w xs ->
  (forall i, i < length xs -> index w (array xs) i = nth i xs []) /\
  (forall a b, range w (array xs) a b = array (firstn (b - a) (skipn a xs))) /\
  (forall x, length x = length xs * w -> exists ys, wide w ys /\ length ys = length xs /\ array ys = x).
Proof.
  intros w xs W. split; [|split].
  - intros i I. now apply index_array.
  - intros a b. now apply range_array.
  - intros x L. now apply as_elements.
Qed.
Print Assumptions C50_elements.

(** Methods that go over the elements. *)
Theorem C50_map : forall w N f xs, wide w xs -> length xs = N -> map_ N w N f (array xs) = array (map f xs).
Proof. intros. now apply map_array. Qed.
Print Assumptions C50_map.
Theorem C50_zip : forall w v N xs ys, wide w xs -> wide v ys -> length xs = N -> length ys = N ->
  zip_ N w v N (array xs) (array ys) = array (map (fun p => tuple2 (fst p) (snd p)) (combine xs ys)) /\
  unzip_ N w v N (zip_ N w v N (array xs) (array ys)) = (array xs, array ys).
Proof.
  intros w v N xs ys W V L M. assert (E : zip_ N w v N (array xs) (array ys) = array (map (fun p => tuple2 (fst p) (snd p)) (combine xs ys))) by (apply zip_array; auto).
  split; [exact E|]. rewrite E. rewrite unzip_array; [|lia|apply combine_wide; assumption|rewrite combine_length; lia].
  replace (map fst (combine xs ys)) with xs; [replace (map snd (combine xs ys)) with ys; [reflexivity|]|]; clear E W V; revert ys N L M; induction xs as [|x xs IH]; intros [|y ys] N L M; cbn in *; try lia; try reflexivity; f_equal; apply (IH ys (N - 1)); lia.
Qed.
Print Assumptions C50_zip.
Theorem C50_unzip : forall w v N ps, Forall (fun p => length (fst p) = w /\ length (snd p) = v) ps -> length ps = N ->
  unzip_ N w v N (array (map (fun p => tuple2 (fst p) (snd p)) ps)) = (array (map fst ps), array (map snd ps)).
Proof. intros. now apply unzip_array. Qed.
Print Assumptions C50_unzip.
Theorem C50_fold : forall (B : Type) w N (f : B -> bits -> B) xs init, wide w xs -> length xs = N ->
  fold_ N w (array xs) init f = fold_left f xs init.
Proof. intros. now apply fold_array. Qed.
Print Assumptions C50_fold.
Theorem C50_reduce : forall w N f x xs, wide w (x :: xs) -> length (x :: xs) = N ->
  reduce_ N w (array (x :: xs)) f = fold_left f xs x.
Proof. intros. now apply reduce_array. Qed.
Print Assumptions C50_reduce.
Theorem C50_all_any : forall w N f xs, wide w xs -> length xs = N ->
  all_ w N f (array xs) = forallb f xs /\ any_ w N f (array xs) = existsb f xs.
Proof. intros. split; [now apply all_array|now apply any_array]. Qed.
Print Assumptions C50_all_any.
Theorem C50_unfold : forall N seed f, unfold_ N seed f = array (map (fun n => Nat.iter n f seed) (seq 0 N)).
Proof. intros. apply unfold_array. Qed.
Print Assumptions C50_unfold.

(** Methods that move the elements. *)
Theorem C50_concat_split : forall w xs ys, wide w xs -> wide w ys ->
  concat_ (array xs) (array ys) = array (xs ++ ys) /\
  (forall K, split_at w K (array xs) = (array (firstn K xs), array (skipn K xs))).
Proof. intros w xs ys W V. split; [apply concat_array|intros K; now apply split_array]. Qed.
Print Assumptions C50_concat_split.
Theorem C50_reversed : forall w N xs, wide w xs -> length xs = N -> reversed_ N w N (array xs) = array (rev xs).
Proof. intros. now apply reversed_array. Qed.
Print Assumptions C50_reversed.
Theorem C50_flatten : forall w M N xss, Forall (fun xs => length xs = M /\ wide w xs) xss -> length xss = N ->
  flatten_ N w M N (array (map array xss)) = array (concat xss).
Proof. intros. now apply flatten_array. Qed.
Print Assumptions C50_flatten.
Theorem C50_interleave : forall w N xs ys, wide w xs -> wide w ys -> length xs = N -> length ys = N ->
  interleave_ w N (array xs) (array ys) = array (flat_map (fun p => [fst p; snd p]) (combine xs ys)).
Proof. intros. now apply interleave_array. Qed.
Print Assumptions C50_interleave.
Theorem C50_chunks : forall w C n xs, 1 <= C -> wide w xs -> length xs = n * C ->
  chunks_ (n * C) w C (n * C) (array xs) = array (map (fun i => array (firstn C (skipn (i * C) xs))) (seq 0 n)).
Proof. intros w C n xs C1 W L. rewrite chunks_array by (auto; lia). rewrite pieces_seq, map_map. reflexivity. Qed.
Print Assumptions C50_chunks.
Theorem C50_sliding_window : forall w M N xs, M <= N -> wide w xs -> length xs = N ->
  sliding_window_ N w M N (array xs) = array (map (fun i => array (firstn M (skipn i xs))) (seq 0 (N - M + 1))).
Proof. intros. apply sliding_array; auto; lia. Qed.
Print Assumptions C50_sliding_window.
Theorem C50_push_shift : forall w x xs y, wide w (x :: xs) -> length y = w ->
  let N := length (x :: xs) in
  push_back (array xs) y = array (xs ++ [y]) /\ push_front (array xs) y = array (y :: xs) /\
  shift_back w N (array (x :: xs)) y = array (xs ++ [y]) /\
  shift_front w N (array (x :: xs)) y = array (y :: removelast (x :: xs)) /\
  first_ w (array (x :: xs)) = x /\ last_ w N (array (x :: xs)) = last (x :: xs) [].
Proof.
  intros w x xs y W Y N. split; [apply push_back_array|]. split; [apply push_front_array|]. split; [now apply shift_back_array|].
  split; [|split].
  - rewrite (shift_front_array w N) by auto. rewrite removelast_firstn_len. subst N. cbn [length]. rewrite firstn_cons. reflexivity.
  - unfold first_. rewrite (index_array w) by (auto; cbn; lia). reflexivity.
  - apply last_array; auto. subst N. cbn. lia.
Qed.
Print Assumptions C50_push_shift.

(** Numbers. *)
Local Open Scope Z_scope.
Theorem C50_minmax : forall x y,
  ival (imax x y) = Z.max (ival x) (ival y) /\ ival (imin x y) = Z.min (ival x) (ival y) /\
  uval (umax x y) = Z.max (uval x) (uval y) /\ uval (umin x y) = Z.min (uval x) (uval y) /\
  (let '(a, b) := order x y in ival a = Z.min (ival x) (ival y) /\ ival b = Z.max (ival x) (ival y)).
Proof.
  intros x y. unfold imax, imin, umax, umin, order. destruct (Z.ltb_spec (ival x) (ival y)), (Z.ltb_spec (uval x) (uval y)); repeat match goal with |- _ /\ _ => split end; lia.
Qed.
Print Assumptions C50_minmax.
(** [abs] gives an unsigned number, so that the least number has one too. *)
Theorem C50_abs : forall N x, length x = N -> uval (abs N x) = Z.abs (ival x).
Proof. exact abs_value. Qed.
Print Assumptions C50_abs.
Theorem C50_to_int : forall x, ival (to_int x) = uval x.
Proof. exact to_int_value. Qed.
Print Assumptions C50_to_int.
Theorem C50_msb_lsb : forall N x, length x = N -> (1 <= N)%nat ->
  msb N x = [ival x <? 0] /\ msb N x = [2 ^ (Z.of_nat N - 1) <=? uval x] /\ lsb x = [Z.odd (uval x)].
Proof.
  intros N x L N1. assert (E : msb N x = [last x false]).
  { unfold msb, transmute. rewrite (split_bits x) at 1. rewrite (last_array 1); [|apply wide_bits|rewrite map_length; exact L|exact N1].
    destruct x as [|b x] using rev_ind; [cbn in L; lia|]. rewrite map_app. cbn [map]. rewrite !last_last. reflexivity. }
  split; [rewrite E, ival_neg; reflexivity|]. split.
  - rewrite E. f_equal. destruct x as [|b x] using rev_ind; [cbn in L; lia|]. rewrite last_last, uval_app. rewrite app_length in L. cbn in L.
    replace (Z.of_nat N - 1) with (Z.of_nat (length x)) by lia. pose proof (uval_range x). cbn [uval]. destruct b; cbn [Z.b2z]; symmetry; [apply Z.leb_le|apply Z.leb_gt]; lia.
  - destruct x as [|b x]; [cbn in L; lia|]. unfold lsb, first_, index, transmute. cbn [Nat.mul skipn firstn uval]. f_equal.
    rewrite Z.odd_add, Z.odd_mul. cbn. destruct b; reflexivity.
Qed.
Print Assumptions C50_msb_lsb.
(** The bits of the first at the even places, those of the second at the odd ones. *)
Theorem C50_interleave_uint : forall N x y, length x = N -> length y = N -> forall k, 0 <= k < Z.of_nat N ->
  length (uinterleave N x y) = (2 * N)%nat /\
  Z.testbit (uval (uinterleave N x y)) (2 * k) = Z.testbit (uval x) k /\
  Z.testbit (uval (uinterleave N x y)) (2 * k + 1) = Z.testbit (uval y) k.
Proof.
  intros N x y LX LY k K. split; [now apply interleave_length|]. rewrite <- (Z2Nat.id k) by lia. set (n := Z.to_nat k).
  replace (2 * Z.of_nat n) with (Z.of_nat (2 * n)) by lia. replace (Z.of_nat (2 * n) + 1) with (Z.of_nat (2 * n + 1)) by lia.
  rewrite !uval_testbit. apply interleave_bits; auto. lia.
Qed.
Print Assumptions C50_interleave_uint.
(** Byte [i] of each order, for numbers of whole bytes. *)
Theorem C50_bytes : forall N x i, length x = N -> N = (N / 8 * 8)%nat -> (i < N / 8)%nat ->
  uval (index 8 (to_le_bytes N x) i) = (uval x / 256 ^ Z.of_nat i) mod 256 /\
  uval (index 8 (to_be_bytes N x) i) = (uval x / 256 ^ (Z.of_nat (N / 8) - 1 - Z.of_nat i)) mod 256 /\
  uval (index 8 (to_german_endian_bytes N x) i) =
    (uval x / 256 ^ (if (N <=? 16)%nat then Z.of_nat i
                     else if (i =? N / 8 - 2)%nat then 0 else if (i =? N / 8 - 1)%nat then 1
                     else Z.of_nat (N / 8) - 1 - Z.of_nat i)) mod 256.
Proof.
  intros N x i L M I. destruct (le_bytes N x L M) as (E & _). split; [rewrite E; apply byte_value|].
  split; [rewrite be_byte by assumption; rewrite byte_value; f_equal; f_equal; f_equal; lia|].
  destruct (Nat.leb_spec N 16) as [H|H].
  - unfold to_german_endian_bytes. destruct (Nat.leb_spec N 16); [|lia]. rewrite E. apply byte_value.
  - rewrite german_byte by assumption. rewrite byte_value. assert ((3 <= N / 8)%nat) by lia.
    destruct (Nat.ltb_spec i (N / 8 - 2)); destruct (Nat.eqb_spec i (N / 8 - 2)); destruct (Nat.eqb_spec i (N / 8 - 1)); try lia; f_equal; f_equal; f_equal; lia.
Qed.
Print Assumptions C50_bytes.
Local Close Scope Z_scope.

(** Streams.  Whatever the registers hold, after one cycle of reset each output is what
    the values given since then make it. *)
Theorem C50_window : forall w N d values i0 ins, length d = w -> inputs_wide w ins ->
  window_run w N d (snd (window_cycle w N d values true i0)) ins = outputs (window_out N d) [] ins.
Proof.
  intros w N d values i0 ins D W. cbn [snd window_cycle]. pose proof (window_main w N d D ins [] W) as H. cbn [values_of flat_map rev app] in H.
  rewrite firstn_all2 in H by (rewrite repeat_length; lia). exact H.
Qed.
Print Assumptions C50_window.
Theorem C50_chunk_stream : forall w N count values i0 ins, 1 <= N -> length values = N * w -> inputs_wide w [i0] -> inputs_wide w ins ->
  chunks_run w N (snd (chunks_cycle w N (count, values) true i0)) ins = outputs (chunk_out N) [] ins.
Proof.
  intros w N count values i0 ins N1 LV W0 W. cbn [snd chunks_cycle].
  set (nv := match i0 with Some new => concat_ (range w values 1 N) (array [new]) | None => values end).
  assert (LN : length nv = N * w).
  { subst nv. destruct i0 as [v|]; [|exact LV]. inversion W0 as [|? ? V _]; subst.
    destruct (as_elements (length v) N values LV) as (vs & WV & LL & <-). rewrite (range_array (length v)) by exact WV. rewrite concat_array.
    rewrite (array_length (length v)).
    - rewrite app_length, firstn_length, skipn_length. cbn [length]. f_equal. lia.
    - apply wide_app; [apply wide_firstn, wide_skipn; exact WV|constructor; [reflexivity|constructor]]. }
  destruct (as_elements w N nv LN) as (vs & WV & LL & <-).
  pose proof (chunks_main w N vs N1 WV LL ins [] W) as H. cbn [values_of flat_map length skipn] in H. rewrite app_nil_r, Nat.mod_0_l in H by lia. exact H.
Qed.
Print Assumptions C50_chunk_stream.

(** The documentation of [fold] and [reduce] nests the calls the other way,
    [f(a0, f(a1, f(a2, …)))]: for a function that is not associative that is another
    value.  Here [f] is subtraction on four bits. *)
Theorem C50_fold_order_refuted : exists f x y z, length x = 4 /\ length y = 4 /\ length z = 4 /\
  reduce_ 3 4 (array [x; y; z]) f = f (f x y) z /\ reduce_ 3 4 (array [x; y; z]) f <> f x (f y z).
Proof.
  exists (fun a b => of_Z 4 (uval a - uval b)), (of_Z 4 7), (of_Z 4 3), (of_Z 4 1). repeat match goal with |- _ /\ _ => split end; vm_compute; congruence.
Qed.
Print Assumptions C50_fold_order_refuted.
(** The documentation of the stream of chunks speaks of a cycle of latency: the output
    is there in the cycle of the last of the [N] inputs. *)
Theorem C50_chunks_latency_refuted : exists w N st ins,
  chunks_run w N st ins <> None :: firstn (length ins - 1) (outputs (chunk_out N) [] ins) /\
  chunks_run w N st ins = outputs (chunk_out N) [] ins.
Proof.
  exists 1, 2, (0, [false; false]), [Some [true]; Some [false]]. split; vm_compute; congruence.
Qed.
Print Assumptions C50_chunks_latency_refuted.

Example C50_nontrivial :
  let e := of_Z 3 in
  wide 3 (map e [1; 2; 3; 4; 5]%Z) /\
  map uval [index 3 (reversed_ 5 3 5 (array (map e [1; 2; 3; 4; 5]%Z))) 0; index 3 (map_ 5 3 5 (fun x => of_Z 3 (uval x + 1)) (array (map e [1; 2; 3; 4; 5]%Z))) 4] = [5; 6]%Z /\
  map (fun i => uval (index 8 (to_german_endian_bytes 32 (of_Z 32 305419896)) i)) [0; 1; 2; 3] = [18; 52; 120; 86]%Z /\
  chunks_run 3 2 (0, of_Z 6 0) [None; Some (e 1%Z); Some (e 2%Z); None; Some (e 3%Z); Some (e 4%Z)] =
    [None; None; Some (array [e 1%Z; e 2%Z]); None; None; Some (array [e 3%Z; e 4%Z])] /\
  window_run 3 2 (e 0%Z) (array [e 0%Z; e 0%Z]) [None; Some (e 1%Z); Some (e 2%Z); None; Some (e 3%Z)] =
    [None; Some (array [e 1%Z; e 0%Z]); Some (array [e 2%Z; e 1%Z]); None; Some (array [e 3%Z; e 2%Z])].
Proof. split; [repeat constructor|]. repeat match goal with |- _ /\ _ => split end; vm_compute; reflexivity. Qed.
