From Coq Require Import List ZArith Lia Bool Arith.
From Coq Require Strings.String.
From Verif Require Import Bits BitsFacts Verilog CodegenModel CodegenSpec CgLayout CgArith CgLegal InvModel.
Import ListNotations.

Notation bsize := backward_size.

(** All bits of the wires [l], first wire least significant. *)
Definition all_bits (tys : list ty) (l : list nat) : list (vname * nat) :=
  concat (map (fun k => map (fun i => (Bwd k, i)) (seq 0 (bsize (nth k tys (TTuple []))))) l).

Lemma in_wire_ok decl x l : (forall i, In i l -> i < decl x) -> in_wire decl x l = Some (map (fun i => (x, i)) l).
Proof.
  intros H. unfold in_wire. rewrite (proj2 (forallb_forall _ l)); [reflexivity|].
  intros i Hi. apply Nat.ltb_lt. now apply H.
Qed.

Definition bdecl (op_types : list ty) : vname -> nat :=
  fun x => match x with
           | Fwd n => size (nth n op_types (TTuple []))
           | Bwd n => bsize (nth n op_types (TTuple []))
           end.

Lemma targets_concat tys r l :
  targets (bdecl tys) r (VConcat (map bv l)) = Some (all_bits tys (rev l)).
Proof.
  cbn [targets]. unfold all_bits. induction l as [|k l IH]; [reflexivity|].
  cbn [map]. rewrite IH. cbn [targets bv].
  rewrite in_wire_ok by (intros i Hi; apply in_seq in Hi; lia).
  cbn [rev]. rewrite map_app, concat_app. cbn [map concat]. now rewrite app_nil_r.
Qed.

Lemma all_bits_length tys l : length (all_bits tys l) = list_sum (map (fun k => bsize (nth k tys (TTuple []))) l).
Proof.
  unfold all_bits. induction l as [|k l IH]; [reflexivity|]. cbn [map concat].
  rewrite app_length, map_length, seq_length, list_sum_cons. lia.
Qed.

Lemma all_bits_filter tys l :
  all_bits tys (filter (fun o => nonzero (bsize (nth o tys (TTuple [])))) l) = all_bits tys l.
Proof.
  unfold all_bits. induction l as [|k l IH]; [reflexivity|]. cbn [filter]. unfold nonzero at 1.
  destruct (Nat.eqb_spec (bsize (nth k tys (TTuple []))) 0) as [E|E]; cbn [negb map concat]; rewrite IH; [|reflexivity].
  now rewrite E.
Qed.

Lemma filter_rev' {A} (f : A -> bool) l : filter f (rev l) = rev (filter f l).
Proof.
  induction l as [|a l IH]; [reflexivity|]. cbn [rev filter]. rewrite filter_app, IH. cbn [filter].
  destruct (f a); [reflexivity|]. now rewrite app_nil_r.
Qed.

Lemma construct_tuple_routes tys t vals : bsize t = list_sum (map bsize tys) ->
  routes t tys ConstructTuple vals = Some (all_bits tys (rev (seq 0 (length tys)))).
Proof.
  intros Ht. unfold routes. destruct (Nat.eqb_spec (bsize t) 0) as [E|E].
  - f_equal. symmetry. apply length_zero_iff_nil. rewrite all_bits_length.
    rewrite map_rev.
    assert (R : forall l, list_sum (rev l) = list_sum l).
    { induction l as [|a l IH]; cbn [rev]; [reflexivity|]. rewrite list_sum_app, IH, !list_sum_cons. change (list_sum []) with 0. lia. }
    rewrite R, (seq_nth_map bsize). lia.
  - cbn [backward_code]. fold (bdecl tys). rewrite targets_concat.
    rewrite <- filter_rev'. now rewrite all_bits_filter.
Qed.

Lemma all_bits_app tys a b : all_bits tys (a ++ b) = all_bits tys a ++ all_bits tys b.
Proof. unfold all_bits. now rewrite map_app, concat_app. Qed.

Lemma nth_error_mid {A} (a b c : list A) k : k < length b -> nth_error (a ++ b ++ c) (length a + k) = nth_error b k.
Proof.
  intros H. rewrite nth_error_app2 by lia. replace (length a + k - length a) with k by lia.
  now rewrite nth_error_app1.
Qed.

(** position of wire [i] in the bits of an in-order (or reversed) aggregate *)
Lemma all_bits_nth tys a i b k : k < bsize (nth i tys (TTuple [])) ->
  nth_error (all_bits tys (a ++ i :: b)) (list_sum (map (fun k => bsize (nth k tys (TTuple []))) a) + k) = Some (Bwd i, k).
Proof.
  intros H. change (i :: b) with ([i] ++ b). rewrite !all_bits_app, <- all_bits_length.
  assert (L : length (all_bits tys [i]) = bsize (nth i tys (TTuple []))).
  { rewrite all_bits_length. cbn. lia. }
  rewrite nth_error_mid by lia.
  unfold all_bits. cbn [map concat]. rewrite app_nil_r.
  erewrite map_nth_error; [reflexivity|]. rewrite (nth_error_nth' _ 0) by now rewrite seq_length.
  now rewrite seq_nth.
Qed.

Lemma rev_seq_split n i : i < n -> rev (seq 0 n) = rev (seq (S i) (n - S i)) ++ i :: rev (seq 0 i).
Proof.
  intros H. replace n with (i + (1 + (n - S i))) at 1 by lia. rewrite !seq_app, !rev_app_distr.
  cbn [seq rev app]. rewrite <- app_assoc. cbn [app]. now rewrite Nat.add_1_r.
Qed.

Lemma seq_split n i : i < n -> seq 0 n = seq 0 i ++ i :: seq (S i) (n - S i).
Proof.
  intros H. replace n with (i + (1 + (n - S i))) at 1 by lia. rewrite !seq_app. cbn [seq app]. now rewrite Nat.add_1_r.
Qed.

Lemma list_sum_rev l : list_sum (rev l) = list_sum l.
Proof. induction l as [|a l IH]; cbn [rev]; [reflexivity|]. rewrite list_sum_app, IH, !list_sum_cons. change (list_sum []) with 0. lia. Qed.

Lemma sum_skipn_seq tys i : i < length tys ->
  list_sum (map (fun k => bsize (nth k tys (TTuple []))) (seq (S i) (length tys - S i))) = list_sum (map bsize (skipn (S i) tys)).
Proof.
  intros H. rewrite <- (seq_nth_map bsize (skipn (S i) tys) (TTuple [])), skipn_length.
  assert (G : forall n k, map (fun k => bsize (nth k tys (TTuple []))) (seq (S i + k) n) =
              map (fun n => bsize (nth n (skipn (S i) tys) (TTuple []))) (seq k n)).
  { induction n as [|n IH]; intros k; [reflexivity|]. cbn [seq map]. f_equal.
    - f_equal. rewrite <- (firstn_skipn (S i) tys) at 1. rewrite app_nth2; rewrite firstn_length; [f_equal|]; lia.
    - rewrite <- IH. f_equal. f_equal. lia. }
  rewrite <- (G _ 0). do 3 f_equal. lia.
Qed.

Lemma members_sum' ms i t : nth_error ms i = Some t ->
  list_sum (map bsize ms) = list_sum (firstn i (map bsize ms)) + bsize t + list_sum (map bsize (skipn (S i) ms)).
Proof.
  intros H. rewrite (nth_error_split_at ms i t H) at 1.
  rewrite map_app, list_sum_app. cbn [map]. rewrite list_sum_cons, firstn_map. lia.
Qed.

(** bit [k] of field [i] goes to aggregate bit [offset + k] *)
Lemma index_tuple_routes tys agg i t vals k :
  tuple_members agg = Some tys -> bsize agg = list_sum (map bsize tys) ->
  nth_error tys i = Some t -> k < bsize t ->
  exists l, routes t [agg] (IndexTuple i) vals = Some l /\
    nth_error l k = Some (Bwd 0, list_sum (map bsize (skipn (S i) tys)) + k).
Proof.
  intros Hm Hagg Hi Hk. unfold routes. destruct (Nat.eqb_spec (bsize t) 0); [lia|].
  cbn [length seq backward_code nth]. rewrite Hm. unfold compute_tuple_index.
  rewrite (map_nth_error bsize _ _ Hi). destruct (Nat.eqb_spec (bsize t) 0); [lia|].
  pose proof (members_sum' _ _ _ Hi) as HS.
  set (lo := list_sum (map bsize (skipn (S i) tys))) in *.
  set (st := list_sum (firstn i (map bsize tys))) in *.
  set (tot := list_sum (map bsize tys)) in *.
  clearbody lo st tot.
  destruct (Nat.eqb_spec tot 1) as [E|NE]; [|destruct (Nat.eqb_spec (bsize t) 1) as [E1|NE1]];
    cbn [tuple_index_code targets nth].
  - rewrite in_wire_ok by (intros j Hj; now apply in_seq in Hj). eexists. split; [reflexivity|].
    assert (k = 0 /\ lo = 0) as [-> ->] by lia. rewrite Hagg, E. reflexivity.
  - rewrite in_wire_ok. 2:{ intros j [<-|[]]. cbn [nth]. rewrite Hagg. lia. } eexists. split; [reflexivity|].
    assert (k = 0) as -> by lia. cbn [map nth_error]. do 2 f_equal. lia.
  - rewrite in_wire_ok. 2:{ intros j Hj. apply in_seq in Hj. cbn [nth]. rewrite Hagg. lia. } eexists. split; [reflexivity|].
    erewrite map_nth_error; [reflexivity|].
    rewrite (nth_error_nth' _ 0) by (rewrite seq_length; lia). rewrite seq_nth by lia. f_equal. lia.
Qed.

Lemma construct_tuple_nth tys t vals i ti k : bsize t = list_sum (map bsize tys) ->
  nth_error tys i = Some ti -> k < bsize ti ->
  exists l, routes t tys ConstructTuple vals = Some l /\
    nth_error l (list_sum (map bsize (skipn (S i) tys)) + k) = Some (Bwd i, k).
Proof.
  intros Ht Hi Hk. eexists. split; [now apply construct_tuple_routes|].
  assert (Hl : i < length tys) by (apply nth_error_Some; congruence).
  rewrite (rev_seq_split _ _ Hl), <- (sum_skipn_seq _ _ Hl).
  replace (list_sum (map _ (seq (S i) _))) with
    (list_sum (map (fun k => bsize (nth k tys (TTuple []))) (rev (seq (S i) (length tys - S i))))).
  2:{ now rewrite map_rev, list_sum_rev. }
  apply all_bits_nth. now rewrite (nth_error_nth _ _ _ Hi).
Qed.

Theorem inv_tuple tys vals vals' i t k : nth_error tys i = Some t -> k < bsize t ->
  exists field agg p,
    routes t [TTuple tys] (IndexTuple i) vals = Some field /\
    routes (TTuple tys) tys ConstructTuple vals' = Some agg /\
    nth_error field k = Some (Bwd 0, p) /\ nth_error agg p = Some (Bwd i, k).
Proof.
  intros Hi Hk.
  destruct (index_tuple_routes tys (TTuple tys) i t vals k eq_refl eq_refl Hi Hk) as (l & Hl & Hn).
  destruct (construct_tuple_nth tys (TTuple tys) vals' i t k eq_refl Hi Hk) as (l' & Hl' & Hn').
  exists l, l', (list_sum (map bsize (skipn (S i) tys)) + k). auto.
Qed.

Theorem inv_struct (fields : list (Strings.String.string * ty)) vals vals' i f k : nth_error fields i = Some f -> k < bsize (snd f) ->
  exists field agg p,
    routes (snd f) [TStruct fields] (IndexTuple i) vals = Some field /\
    routes (TStruct fields) (map snd fields) ConstructTuple vals' = Some agg /\
    nth_error field k = Some (Bwd 0, p) /\ nth_error agg p = Some (Bwd i, k).
Proof.
  intros Hi Hk. pose proof (map_nth_error snd _ _ Hi) as Hi'.
  assert (Hb : bsize (TStruct fields) = list_sum (map bsize (map snd fields))).
  { cbn. now rewrite map_map. }
  destruct (index_tuple_routes (map snd fields) (TStruct fields) i _ vals k eq_refl Hb Hi' Hk) as (l & Hl & Hn).
  destruct (construct_tuple_nth (map snd fields) (TStruct fields) vals' i _ k Hb Hi' Hk) as (l' & Hl' & Hn').
  do 3 eexists. eauto.
Qed.

(** Arrays *)
Lemma nth_repeat_ty (t : ty) n k : k < n -> nth k (repeat t n) (TTuple []) = t.
Proof. intros H. rewrite (nth_indep _ _ t) by now rewrite repeat_length. apply nth_repeat. Qed.

Lemma construct_array_nth t n vals i k : i < n -> k < bsize t ->
  exists l, routes (TArray t n) (repeat t n) ConstructArray vals = Some l /\
    nth_error l (bsize t * i + k) = Some (Bwd i, k).
Proof.
  intros Hi Hk. unfold routes. cbn [backward_size].
  destruct (Nat.eqb_spec (bsize t * n) 0); [nia|].
  cbn [backward_code]. fold (bdecl (repeat t n)). rewrite repeat_length, targets_concat, rev_involutive.
  eexists. split; [reflexivity|].
  rewrite (seq_split n i Hi).
  replace (bsize t * i) with (list_sum (map (fun k => bsize (nth k (repeat t n) (TTuple []))) (seq 0 i))).
  - apply all_bits_nth. now rewrite nth_repeat_ty.
  - assert (Hle : i <= n) by lia. clear - Hle.
    rewrite (map_ext_in _ (fun _ => bsize t)).
    + set (j := 0) at 1. clearbody j. clear Hle. revert j. induction i as [|i IH]; intros j; [cbn; lia|]. cbn [seq map].
      rewrite list_sum_cons, IH. lia.
    + intros j Hj. apply in_seq in Hj. rewrite nth_repeat_ty by lia. reflexivity.
Qed.

Theorem inv_array t n vals it a iv i k : i < n -> k < bsize t -> uval iv = Some (Z.of_nat i) ->
  (Z.of_nat (bsize t * n) <= 2 ^ 32)%Z ->
  exists elem agg p,
    routes t [TArray t n; it] IndexArray [a; iv] = Some elem /\
    routes (TArray t n) (repeat t n) ConstructArray vals = Some agg /\
    nth_error elem k = Some (Bwd 0, p) /\ nth_error agg p = Some (Bwd i, k).
Proof.
  intros Hi Hk Hiv Hbig.
  destruct (construct_array_nth t n vals i k Hi Hk) as (agg & Hagg & Hn).
  assert (exists elem, routes t [TArray t n; it] IndexArray [a; iv] = Some elem /\
            nth_error elem k = Some (Bwd 0, bsize t * i + k)) as (elem & He & Hen).
  { unfold routes. destruct (Nat.eqb_spec (bsize t) 0); [lia|].
    cbn [length seq backward_code nth]. destruct (Nat.eqb_spec n 1) as [E1|E1]; cbn [negb].
    - cbn [targets bv nth backward_size].
      rewrite in_wire_ok by (intros j Hj; now apply in_seq in Hj). eexists. split; [reflexivity|].
      erewrite map_nth_error; [reflexivity|].
      rewrite (nth_error_nth' _ 0) by (rewrite seq_length; nia). rewrite seq_nth by nia. f_equal. nia.
    - destruct (Nat.eqb_spec (bsize t) 1) as [E2|E2].
      + cbn [targets eval width signed fv operand_env nth]. rewrite resize_id by reflexivity. rewrite Hiv, Nat2Z.id.
        rewrite in_wire_ok. 2:{ intros j [<-|[]]. cbn [nth backward_size]. nia. }
        eexists. split; [reflexivity|]. assert (k = 0) as -> by lia. cbn. do 2 f_equal. lia.
      + cbn [targets].
        change (eval ?r (width ?r ?e) (signed ?e) ?e) with (selfval r e).
        rewrite (index_offset_value _ _ iv i (bsize t)); [|reflexivity|assumption|nia|nia].
        rewrite Nat2Z.id. rewrite in_wire_ok.
        2:{ intros j Hj. apply in_seq in Hj. cbn [nth backward_size]. nia. }
        eexists. split; [reflexivity|]. erewrite map_nth_error; [reflexivity|].
        rewrite (nth_error_nth' _ 0) by (rewrite seq_length; lia). rewrite seq_nth by lia. f_equal. lia. }
  exists elem, agg, (bsize t * i + k). auto.
Qed.

Theorem inv_range t n vals s e j k : s < e -> e <= n -> j < e - s -> k < bsize t ->
  bsize t = size t -> (Z.of_nat (size t * n) < 2 ^ 31)%Z ->
  exists sl agg p,
    routes (TArray t (e - s)) [TArray t n] (RangeIndexArray s e) [[]] = Some sl /\
    routes (TArray t n) (repeat t n) ConstructArray vals = Some agg /\
    nth_error sl (bsize t * j + k) = Some (Bwd 0, p) /\ nth_error agg p = Some (Bwd (s + j), k).
Proof.
  intros Hse Hen Hj Hk Hsz Hbig.
  destruct (construct_array_nth t n vals (s + j) k ltac:(lia) Hk) as (agg & Hagg & Hn).
  assert (exists sl, routes (TArray t (e - s)) [TArray t n] (RangeIndexArray s e) [[]] = Some sl /\
            nth_error sl (bsize t * j + k) = Some (Bwd 0, bsize t * (s + j) + k)) as (sl & He & Hel).
  { unfold routes. cbn [backward_size]. destruct (Nat.eqb_spec (bsize t * (e - s)) 0); [nia|].
    cbn [length seq backward_code nth]. destruct (Nat.ltb_spec e s); [lia|].
    destruct (Nat.eqb_spec n 1) as [E1|E1].
    - cbn [targets bv nth backward_size].
      rewrite in_wire_ok by (intros i Hi; now apply in_seq in Hi). eexists. split; [reflexivity|].
      erewrite map_nth_error; [reflexivity|].
      rewrite (nth_error_nth' _ 0) by (rewrite seq_length; nia). rewrite seq_nth by nia. f_equal. nia.
    - destruct ((size t =? 1) && (e - s =? 1)) eqn:E2.
      + apply andb_true_iff in E2. rewrite !Nat.eqb_eq in E2. cbn [targets].
        rewrite in_wire_ok. 2:{ intros i [<-|[]]. cbn [nth backward_size]. nia. }
        eexists. split; [reflexivity|].
        assert (bsize t * j + k = 0) as -> by nia. cbn. do 2 f_equal. nia.
      + cbn [targets eval width signed nth andb]. unfold arith2, num. rewrite Nat.max_id.
        rewrite !(resize_id true) by apply length_of_Z.
        assert (Hs : (0 <= Z.of_nat s * Z.of_nat (size t) < 2 ^ 31)%Z) by nia.
        assert (S1 : sval (of_Z 32 (Z.of_nat s)) = Some (Z.of_nat s)).
        { apply sval_of_Z; [lia|]. change (2 ^ Z.of_nat (32 - 1))%Z with (2 ^ 31)%Z. nia. }
        assert (S2 : sval (of_Z 32 (Z.of_nat (size t))) = Some (Z.of_nat (size t))).
        { apply sval_of_Z; [lia|]. change (2 ^ Z.of_nat (32 - 1))%Z with (2 ^ 31)%Z. nia. }
        rewrite S1, S2, uval_of_Z_small.
        2:{ change (2 ^ Z.of_nat 32)%Z with (2 * 2 ^ 31)%Z. lia. }
        replace (Z.to_nat (Z.of_nat s * Z.of_nat (size t))) with (s * size t) by lia.
        rewrite in_wire_ok.
        2:{ intros i Hi. apply in_seq in Hi. cbn [nth backward_size]. rewrite Hsz. nia. }
        eexists. split; [reflexivity|]. erewrite map_nth_error; [reflexivity|].
        rewrite (nth_error_nth' _ 0) by (rewrite seq_length; nia). rewrite seq_nth by nia. f_equal. nia. }
  exists sl, agg, (bsize t * (s + j) + k). auto.
Qed.
