(** Layout proofs: tuples, structs, arrays, enums (C01-C03). *)
From Coq Require Import List ZArith Lia Bool Arith ZifyBool.
From Verif Require Import Bits BitsFacts Verilog CodegenModel CodegenSpec.
Import ListNotations.

(** ** Generic evaluation lemmas *)
Definition selfval (r : env) (e : vexpr) : bits := eval r (width r e) (signed e) e.

Lemma selfval_var r x : selfval r (VVar x) = r x.
Proof. unfold selfval. cbn. apply resize_id. reflexivity. Qed.

Lemma list_sum_cons a l : list_sum (a :: l) = a + list_sum l.
Proof. reflexivity. Qed.

Lemma length_concat_rev (l : list bits) :
  length (concat (rev l)) = list_sum (map (@length bit) l).
Proof.
  induction l as [|a l IH]; cbn [rev map concat length]; [reflexivity|].
  rewrite concat_app, app_length, list_sum_cons. cbn [concat]. rewrite app_nil_r, IH. lia.
Qed.

Lemma assign_concat r l w :
  (forall e, In e l -> length (selfval r e) = width r e) ->
  w = list_sum (map (width r) l) ->
  assign_val r w (VConcat l) = concat (rev (map (selfval r) l)).
Proof.
  intros HL ->. unfold assign_val. cbn [width signed eval].
  rewrite Nat.max_id.
  assert (E : length (concat (rev (map (selfval r) l))) = list_sum (map (width r) l)).
  { rewrite length_concat_rev, map_map. f_equal. apply map_ext_in. exact HL. }
  change (fun e => eval r (width r e) (signed e) e) with (selfval r).
  rewrite resize_id by exact E. rewrite <- E. apply firstn_all.
Qed.

Lemma firstn_app_exact {A} (a b : list A) n : length a = n -> firstn n (a ++ b) = a.
Proof. intros <-. rewrite firstn_app, Nat.sub_diag, firstn_all. cbn. apply app_nil_r. Qed.

Lemma assign_var r x w : length (r x) = w -> assign_val r w (VVar x) = r x.
Proof.
  intros <-. unfold assign_val. cbn. rewrite Nat.max_id, resize_id by reflexivity. apply firstn_all.
Qed.

Lemma assign_var_trunc r x w : w <= length (r x) -> assign_val r w (VVar x) = firstn w (r x).
Proof.
  intros H. unfold assign_val. cbn. rewrite Nat.max_r by assumption.
  now rewrite resize_id by reflexivity.
Qed.

Lemma assign_range r x hi lo w :
  w = hi + 1 - lo -> assign_val r w (VRange x hi lo) = slice (r x) lo w.
Proof.
  intros ->. unfold assign_val. cbn. rewrite Nat.max_id.
  rewrite resize_id by apply length_slice.
  rewrite <- (length_slice (r x) lo (hi + 1 - lo)) at 1. apply firstn_all.
Qed.

Lemma sel_const v i : i < length v -> sel v (Some (Z.of_nat i)) = getbit v i.
Proof.
  intros H. unfold sel. destruct (Z.ltb_spec (Z.of_nat i) (Z.of_nat (length v))); [|lia].
  now rewrite Nat2Z.id.
Qed.

Lemma selfval_dec r z : (0 <= z < 2 ^ 32)%Z -> uval (selfval r (VDec z)) = Some z.
Proof.
  intros H. unfold selfval. cbn [width signed eval].
  rewrite resize_id by apply length_of_Z. apply uval_of_Z_small. exact H.
Qed.

Lemma assign_bit_const r x i : assign_val r 1 (VBitC x i) = slice (r x) i 1.
Proof. unfold assign_val. cbn [width signed Nat.max eval]. now rewrite resize_id. Qed.

(** ** Slices of reversed concatenations *)
Lemma nth_error_split_at {A} (l : list A) i v :
  nth_error l i = Some v -> l = firstn i l ++ v :: skipn (S i) l.
Proof.
  revert i; induction l as [|a l IH]; intros i H; [destruct i; discriminate|].
  destruct i as [|i]; cbn in *; [congruence|]. f_equal. now apply IH.
Qed.

Lemma concat_rev_split (vals : list bits) i v :
  nth_error vals i = Some v ->
  concat (rev vals) = concat (rev (skipn (S i) vals)) ++ v ++ concat (rev (firstn i vals)).
Proof.
  intros H. rewrite (nth_error_split_at vals i v H) at 1.
  rewrite rev_app_distr. cbn [rev]. rewrite !concat_app. cbn [concat].
  rewrite app_nil_r, <- app_assoc. reflexivity.
Qed.

Lemma slice_concat_rev (vals : list bits) i v :
  nth_error vals i = Some v ->
  slice (concat (rev vals)) (list_sum (map (@length bit) (skipn (S i) vals))) (length v) = v.
Proof.
  intros H. rewrite (concat_rev_split vals i v H).
  rewrite <- length_concat_rev. apply slice_app_mid.
Qed.

Lemma slice_concat_fwd (vals : list bits) i v :
  nth_error vals i = Some v ->
  slice (concat vals) (list_sum (map (@length bit) (firstn i vals))) (length v) = v.
Proof.
  intros H. rewrite (nth_error_split_at vals i v H) at 1.
  rewrite concat_app. cbn [concat].
  replace (list_sum (map (@length bit) (firstn i vals))) with (length (concat (firstn i vals))).
  - apply slice_app_mid.
  - generalize (firstn i vals). induction l as [|a l IH]; cbn; [reflexivity|].
    rewrite app_length, IH. reflexivity.
Qed.

Lemma fits_lengths tys vals : Forall2 has_width tys vals ->
  map (@length bit) vals = map size tys.
Proof. induction 1 as [|t v tys vals H _ IH]; cbn; [reflexivity|]. now rewrite H, IH. Qed.

Lemma Forall2_nth_error {A B} (R : A -> B -> Prop) l1 l2 i a :
  Forall2 R l1 l2 -> nth_error l1 i = Some a -> exists b, nth_error l2 i = Some b /\ R a b.
Proof.
  intros H. revert i; induction H as [|x y l1 l2 Hxy H IH]; intros i Hi; [destruct i; discriminate|].
  destruct i as [|i]; cbn in *; [|now apply IH]. injection Hi as <-. eauto.
Qed.

Lemma Forall2_firstn {A B} (R : A -> B -> Prop) l1 l2 n :
  Forall2 R l1 l2 -> Forall2 R (firstn n l1) (firstn n l2).
Proof.
  intros H. revert n; induction H; intros n; destruct n; cbn; auto.
Qed.
Lemma Forall2_skipn {A B} (R : A -> B -> Prop) l1 l2 n :
  Forall2 R l1 l2 -> Forall2 R (skipn n l1) (skipn n l2).
Proof.
  intros H. revert n; induction H; intros n; destruct n; cbn; auto.
Qed.

(** ** Operand lists named 0,1,2,... *)
Lemma seq_nth_map {A B} (f : A -> B) (l : list A) d :
  map (fun n => f (nth n l d)) (seq 0 (length l)) = map f l.
Proof.
  induction l as [|a l IH]; cbn [length seq map]; [reflexivity|].
  f_equal. rewrite <- seq_shift, map_map. exact IH.
Qed.

(** Dropping zero-width operands does not change the concatenated bits. *)
Lemma concat_filtered tys vals :
  Forall2 has_width tys vals ->
  forall k (tf : nat -> ty) (vf : nat -> bits),
  (forall i t, nth_error tys i = Some t -> tf (k + i) = t) ->
  (forall i v, nth_error vals i = Some v -> vf (k + i) = v) ->
  concat (rev (map vf (filter (fun o => nonzero (size (tf o))) (seq k (length tys)))))
  = concat (rev vals) /\
  list_sum (map (fun n => length (vf n)) (filter (fun o => nonzero (size (tf o))) (seq k (length tys))))
  = list_sum (map size tys).
Proof.
  induction 1 as [|t v tys vals H H2 IH]; intros k tf vf Ht Hv; [split; reflexivity|].
  cbn [length seq filter].
  pose proof (Ht 0 t eq_refl) as Ht0. pose proof (Hv 0 v eq_refl) as Hv0.
  rewrite Nat.add_0_r in Ht0, Hv0. rewrite Ht0.
  destruct (IH (S k) tf vf) as [IH1 IH2].
  { intros i t' Hi. replace (S k + i) with (k + S i) by lia. now apply Ht. }
  { intros i t' Hi. replace (S k + i) with (k + S i) by lia. now apply Hv. }
  unfold has_width in H.
  destruct (nonzero (size t)) eqn:E; unfold nonzero in E.
  - cbn [map rev]. rewrite !concat_app, IH1, !list_sum_cons, IH2, Hv0. split; [reflexivity|]. lia.
  - assert (Ev : v = []) by (apply length_zero_iff_nil; destruct (Nat.eqb_spec (size t) 0); [lia|discriminate]).
    cbn [map rev]. rewrite IH1, IH2, concat_app, list_sum_cons. rewrite Ev in *. cbn in H |- *.
    rewrite app_nil_r. split; [reflexivity|lia].
Qed.

Lemma construct_concat_value tys vals (types := fun n => nth n tys (TTuple [])) w :
  Forall2 has_width tys vals -> w = list_sum (map size tys) ->
  assign_val (operand_env vals) w
    (VConcat (map fv (filter (fun o => nonzero (size (types o))) (seq 0 (length tys)))))
  = concat (rev vals).
Proof.
  intros H Hw.
  destruct (concat_filtered tys vals H 0 types (fun n => nth n vals [])) as [H1 H2].
  { intros i t Hi. cbn. now apply nth_error_nth. }
  { intros i t Hi. cbn. now apply nth_error_nth. }
  rewrite assign_concat.
  - rewrite map_map.
    erewrite map_ext; [exact H1|]. intros n. unfold fv. now rewrite selfval_var.
  - intros e He. apply in_map_iff in He. destruct He as (n & <- & _).
    unfold fv. rewrite selfval_var. reflexivity.
  - rewrite map_map. rewrite Hw, <- H2. reflexivity.
Qed.

Lemma length_concat_vals tys vals :
  Forall2 has_width tys vals -> length (concat (rev vals)) = list_sum (map size tys).
Proof. intros H. now rewrite length_concat_rev, (fits_lengths _ _ H). Qed.

Lemma concat_nil_of_length (l : bits) : length l = 0 -> l = [].
Proof. apply length_zero_iff_nil. Qed.

Lemma construct_tuple_value tys vals :
  Forall2 has_width tys vals ->
  op_value (TTuple tys) tys ConstructTuple vals = Some (concat (rev vals)).
Proof.
  intros H. unfold op_value. cbn [size].
  destruct (Nat.eqb_spec (list_sum (map size tys)) 0) as [E|E].
  - f_equal. symmetry. apply concat_nil_of_length. rewrite (length_concat_vals _ _ H). exact E.
  - cbn [forward_code drive]. f_equal. now apply construct_concat_value.
Qed.

Lemma list_sum_map_skipn tys i t : nth_error tys i = Some t ->
  list_sum (map size tys) = list_sum (firstn i (map size tys)) + size t + list_sum (map size (skipn (S i) tys)).
Proof.
  intros H. rewrite (nth_error_split_at tys i t H) at 1.
  rewrite map_app, list_sum_app. cbn [map]. rewrite list_sum_cons, firstn_map. lia.
Qed.

Lemma index_members_value t tys vals i v big (a := operand_env [concat (rev vals)]) :
  Forall2 has_width tys vals -> nth_error tys i = Some t -> nth_error vals i = Some v ->
  size t <> 0 ->
  tuple_members big = Some tys ->
  op_value t [big] (IndexTuple i) [concat (rev vals)] = Some v.
Proof.
  intros H Hi Hv Hz Hm. unfold op_value.
  destruct (Nat.eqb_spec (size t) 0) as [E|_]; [contradiction|].
  cbn [forward_code length seq nth]. rewrite Hm.
  unfold compute_tuple_index. rewrite nth_error_map, Hi. cbn [option_map].
  destruct (Forall2_nth_error _ _ _ _ _ H Hi) as (v' & Hv' & HF). assert (v' = v) by congruence. subst v'. unfold has_width in HF.
  pose proof (list_sum_map_skipn _ _ _ Hi) as HS.
  pose proof (length_concat_vals _ _ H) as HLen.
  pose proof (slice_concat_rev vals i v Hv) as HSl.
  replace (list_sum (map (@length bit) (skipn (S i) vals)))
    with (list_sum (map size (skipn (S i) tys))) in HSl.
  2:{ f_equal. symmetry. apply fits_lengths. now apply Forall2_skipn. }
  rewrite HF in HSl.
  set (lo := list_sum (map size (skipn (S i) tys))) in *.
  set (st := list_sum (firstn i (map size tys))) in *.
  set (tot := list_sum (map size tys)) in *.
  destruct (Nat.eqb_spec (size t) 0) as [E|_]; [contradiction|].
  destruct (Nat.eqb_spec tot 1) as [E|NE]; [|destruct (Nat.eqb_spec (size t) 1) as [E1|NE1]].
  - cbn [tuple_index_code ok drive]. f_equal.
    assert (size t = 1 /\ lo = 0) as [H1 H0] by lia.
    rewrite H1 in *. unfold fv; rewrite assign_var by (cbn; lia). cbn [operand_env nth].
    rewrite H0 in HSl. rewrite slice_spec in HSl by lia. cbn [skipn] in HSl.
    rewrite firstn_all2 in HSl by lia. exact HSl.
  - cbn [tuple_index_code ok drive]. rewrite E1 in *.
    replace (tot - st - 1) with lo by lia.
    rewrite assign_bit_const.
    cbn [operand_env nth]. now rewrite HSl.
  - cbn [tuple_index_code ok drive].
    replace (tot - (st + size t)) with lo by lia.
    rewrite assign_range by lia. cbn [operand_env nth]. now rewrite HSl.
Qed.

(** ** Arrays *)
Lemma length_concat_uniform (vals : list bits) m :
  Forall (fun v => length v = m) vals -> length (concat vals) = m * length vals.
Proof.
  induction 1 as [|v vals H _ IH]; cbn [concat length]; [lia|]. rewrite app_length, IH, H. lia.
Qed.

Lemma slice_uniform (vals : list bits) m s k :
  Forall (fun v => length v = m) vals -> s + k <= length vals ->
  slice (concat vals) (m * s) (m * k) = concat (firstn k (skipn s vals)).
Proof.
  intros H HL.
  rewrite <- (firstn_skipn s vals) at 1. rewrite <- (firstn_skipn k (skipn s vals)) at 1.
  rewrite !concat_app.
  assert (F : forall l, (exists a b, vals = a ++ l ++ b) -> length (concat l) = m * length l).
  { intros l (a & b & ->). apply length_concat_uniform.
    apply Forall_app in H. destruct H as [_ H]. apply Forall_app in H. tauto. }
  replace (m * s) with (length (concat (firstn s vals))).
  2:{ rewrite F. - rewrite firstn_length. f_equal. lia.
      - exists [], (skipn s vals). cbn. now rewrite firstn_skipn. }
  replace (m * k) with (length (concat (firstn k (skipn s vals)))).
  2:{ rewrite F. - rewrite firstn_length, skipn_length. f_equal. lia.
      - exists (firstn s vals), (skipn k (skipn s vals)). now rewrite !firstn_skipn. }
  apply slice_app_mid.
Qed.

Lemma Forall_fits_length t vals : Forall (has_width t) vals -> Forall (fun v => length v = size t) vals.
Proof. intros H. exact H. Qed.

Lemma construct_array_value t vals :
  Forall (has_width t) vals ->
  op_value (TArray t (length vals)) (repeat t (length vals)) ConstructArray vals = Some (concat vals).
Proof.
  intros H. pose proof (length_concat_uniform vals (size t) H) as HL.
  unfold op_value. cbn [size].
  destruct (Nat.eqb_spec (size t * length vals) 0) as [E|E].
  - f_equal. symmetry. apply concat_nil_of_length. lia.
  - cbn [forward_code drive]. rewrite repeat_length. f_equal.
    rewrite assign_concat.
    + rewrite map_rev, map_rev, rev_involutive, map_map. f_equal.
      transitivity (map (fun n => (fun x => x) (nth n vals [])) (seq 0 (length vals))).
      * apply map_ext. intros n. unfold fv. now rewrite selfval_var.
      * etransitivity; [apply (seq_nth_map (fun x : bits => x) vals [])|apply map_id].
    + intros e He. apply in_map_iff in He. destruct He as (n & <- & _).
      unfold fv. now rewrite selfval_var.
    + rewrite map_rev, map_rev, map_map.
      rewrite <- HL.
      assert (forall l, list_sum (rev l) = list_sum l) as ->.
      { induction l as [|a l IH]; cbn [rev]; [reflexivity|]. rewrite list_sum_app, IH, !list_sum_cons. change (list_sum []) with 0. lia. }
      cbn [fv width operand_env]. rewrite (seq_nth_map (@length bit) vals []).
      clear. induction vals as [|v vals IH]; cbn [concat map length]; [reflexivity|].
      now rewrite app_length, IH, list_sum_cons.
Qed.

Lemma length_selfval_mul r i w :
  length (selfval r (VBin OMul (fv i) (VDec w))) = Nat.max (length (r (Fwd i))) 32.
Proof.
  unfold selfval. cbn [eval width signed fv andb]. unfold arith2, num.
  destruct (uval _); [|apply length_xs]. destruct (uval _); [|apply length_xs]. apply length_of_Z.
Qed.

Lemma pow2_le a b : a <= b -> (2 ^ Z.of_nat a <= 2 ^ Z.of_nat b)%Z.
Proof. intros H. apply Z.pow_le_mono_r; lia. Qed.

Lemma index_offset_value r i iv k w :
  r (Fwd i) = iv -> uval iv = Some (Z.of_nat k) -> (Z.of_nat (k * w) < 2 ^ 32)%Z -> (Z.of_nat w < 2 ^ 32)%Z ->
  uval (selfval r (VBin OMul (fv i) (VDec (Z.of_nat w)))) = Some (Z.of_nat (k * w)).
Proof.
  intros Hr Hu Hlt Hw. unfold selfval. cbn [eval width signed fv andb]. rewrite Hr.
  set (W := Nat.max (length iv) 32).
  assert (HW : (2 ^ 32 <= 2 ^ Z.of_nat W)%Z) by (apply (pow2_le 32); unfold W; lia).
  unfold arith2, num.
  rewrite (resize_of_uval iv _ W Hu).
  rewrite (resize_of_uval (of_Z 32 (Z.of_nat w)) (Z.of_nat w) W).
  2:{ apply uval_of_Z_small. change (Z.of_nat 32) with 32%Z. lia. }
  pose proof (uval_bound _ _ Hu) as HB.
  assert (2 ^ Z.of_nat (length iv) <= 2 ^ Z.of_nat W)%Z by (apply pow2_le; unfold W; lia).
  rewrite !uval_of_Z_small by lia.
  f_equal. lia.
Qed.

Lemma map_sel_slice v lo n : lo + n <= length v ->
  map (fun k => sel v (Some (Z.of_nat lo + Z.of_nat k)%Z)) (seq 0 n) = slice v lo n.
Proof.
  intros H. unfold slice. apply map_ext_in. intros k Hk. apply in_seq in Hk.
  rewrite <- Nat2Z.inj_add. apply sel_const. lia.
Qed.

Lemma concat_single (v : bits) : concat [v] = v.
Proof. cbn. apply app_nil_r. Qed.

Lemma index_array_value t vals i v it iv :
  Forall (has_width t) vals -> nth_error vals i = Some v -> uval iv = Some (Z.of_nat i) ->
  (Z.of_nat (size t * length vals) <= 2 ^ 32)%Z ->
  op_value t [TArray t (length vals); it] IndexArray [concat vals; iv] = Some v.
Proof.
  intros H Hv Hi Hbig. pose proof (length_concat_uniform vals (size t) H) as HL.
  assert (Hil : i < length vals) by (apply nth_error_Some; congruence).
  assert (Hvl : length v = size t).
  { rewrite Forall_forall in H. apply H. now apply nth_error_In with i. }
  assert (HS : slice (concat vals) (size t * i) (size t) = v).
  { pose proof (slice_uniform vals (size t) i 1 H ltac:(lia)) as E. rewrite Nat.mul_1_r in E. rewrite E.
    rewrite (nth_error_split_at vals i v Hv) at 1.
    rewrite skipn_app, firstn_length, Nat.min_l by lia. rewrite Nat.sub_diag.
    rewrite skipn_all2 by (rewrite firstn_length; lia). cbn [skipn app firstn]. apply concat_single. }
  unfold op_value. destruct (Nat.eqb_spec (size t) 0) as [E|E].
  - f_equal. symmetry. apply concat_nil_of_length. lia.
  - cbn [forward_code length seq nth]. destruct (Nat.eqb_spec (length vals) 1) as [E1|E1]; cbn [negb].
    + cbn [drive]. f_equal. unfold fv; rewrite assign_var by (cbn [operand_env nth]; nia). cbn [operand_env nth].
      assert (i = 0) by lia. subst i. rewrite Nat.mul_0_r in HS.
      rewrite slice_spec in HS by nia. cbn [skipn] in HS. rewrite firstn_all2 in HS by nia. exact HS.
    + destruct (Nat.eqb_spec (size t) 1) as [E2|E2]; cbn [drive].
      * f_equal. rewrite E2. unfold assign_val. cbn [width signed eval fv Nat.max].
        cbn [operand_env nth]. rewrite resize_id by reflexivity. rewrite (resize_id _ iv) by reflexivity.
        rewrite Hi. rewrite sel_const by nia. rewrite E2 in HS. rewrite slice_one in HS.
        rewrite Nat.mul_1_l in HS. exact HS.
      * f_equal. unfold assign_val. cbn [width signed].
        rewrite Nat.max_id.
        change (eval ?r ?w false (VUp ?x ?e ?n)) with
          (resize false w (match uval (selfval r e) with None => xs n | Some z => map (fun k => sel (r x) (Some (z + Z.of_nat k)%Z)) (seq 0 n) end)).
        rewrite (index_offset_value _ _ iv i (size t)); [|reflexivity|assumption|nia|nia].
        cbn [operand_env nth].
        rewrite map_sel_slice by nia. rewrite (Nat.mul_comm i).
        rewrite resize_id by apply length_slice. rewrite HS. rewrite <- Hvl. apply firstn_all.
Qed.

Lemma range_index_array_value t vals s e :
  Forall (has_width t) vals -> s < e -> e <= length vals ->
  op_value (TArray t (e - s)) [TArray t (length vals)] (RangeIndexArray s e) [concat vals]
  = Some (concat (firstn (e - s) (skipn s vals))).
Proof.
  intros H Hse Hel. pose proof (length_concat_uniform vals (size t) H) as HL.
  pose proof (slice_uniform vals (size t) s (e - s) H ltac:(lia)) as HS.
  unfold op_value. cbn [size]. destruct (Nat.eqb_spec (size t * (e - s)) 0) as [E|E].
  - f_equal. rewrite <- HS, E. reflexivity.
  - cbn [forward_code length seq nth].
    destruct (Nat.ltb_spec e s); [lia|].
    destruct (Nat.eqb_spec (length vals) 1) as [E1|E1].
    + cbn [drive]. assert (s = 0 /\ e = 1) as [-> ->] by lia. f_equal.
      unfold fv; rewrite assign_var by (cbn [operand_env nth]; nia). cbn [operand_env nth].
      cbn [skipn]. rewrite firstn_all2 by lia. reflexivity.
    + destruct ((size t =? 1) && (e - s =? 1)) eqn:E2; cbn [drive].
      * f_equal. assert (size t = 1 /\ e - s = 1) as [H1 H2] by lia. rewrite H1, H2 in *.
        rewrite Nat.mul_1_l in *. rewrite assign_bit_const. cbn [operand_env nth].
        rewrite Nat.mul_1_r in HS. exact HS.
      * destruct (Nat.eqb_spec (e * size t) 0); [nia|]. cbn [drive]. f_equal.
        unfold assign_val. cbn [width signed eval]. rewrite Nat.max_id.
        rewrite resize_id by apply length_slice. cbn [operand_env nth].
        replace (e * size t - 1 + 1 - size t * (e - s)) with (size t * s) by nia.
        rewrite HS. rewrite <- (length_slice (concat vals) (size t * s) (size t * (e - s))).
        rewrite HS. apply firstn_all.
Qed.

(** ** Enums *)
Lemma tag_size_bound n v : v < n -> v < 2 ^ tag_size n.
Proof.
  intros H. unfold tag_size, next_power_of_two.
  destruct n as [|[|m]]; [lia|cbn; lia|].
  rewrite Nat.log2_pow2 by lia.
  pose proof (Nat.log2_spec (S m) ltac:(lia)) as [_ HU].
  replace (Nat.log2 (S m) + 1) with (S (Nat.log2 (S m))) by lia. lia.
Qed.

Lemma list_max_ge l x : In x l -> x <= list_max l.
Proof.
  intros H. pose proof (list_max_le l (list_max l)) as [HF _].
  specialize (HF (le_n _)). rewrite Forall_forall in HF. now apply HF.
Qed.

Definition enum_payload_size (options : list (list ty)) : nat :=
  list_max (map (fun m => list_sum (map size m)) options).

Lemma size_enum options :
  size (TEnum options) = tag_size (length options) + enum_payload_size options.
Proof. reflexivity. Qed.

Lemma payload_fits options v members : nth_error options v = Some members ->
  list_sum (map size members) <= enum_payload_size options.
Proof.
  intros H. apply list_max_ge. apply in_map_iff. exists members. split; [reflexivity|].
  now apply nth_error_In with v.
Qed.

(** Bits of an enum value, with [pad] in the unused payload positions. *)
Definition enum_bits (options : list (list ty)) (v : nat) (vals : list bits) (pad : bits) : bits :=
  pad ++ concat (rev vals) ++ of_Z (tag_size (length options)) (Z.of_nat v).

Lemma resize_lit_self v : resize false (length v) v = v.
Proof. now apply resize_id. Qed.

Lemma combine_seq_filter tys vals : Forall2 has_width tys vals ->
  forall k (vf : nat -> bits),
  (forall i v, nth_error vals i = Some v -> vf (k + i) = v) ->
  concat (rev (map vf (map snd (filter (fun p => nonzero (size (fst p))) (combine tys (seq k (length tys)))))))
  = concat (rev vals) /\
  list_sum (map (fun n => length (vf n)) (map snd (filter (fun p => nonzero (size (fst p))) (combine tys (seq k (length tys))))))
  = list_sum (map size tys).
Proof.
  induction 1 as [|t v tys vals H H2 IH]; intros k vf Hv; [split; reflexivity|].
  cbn [length seq combine filter fst].
  pose proof (Hv 0 v eq_refl) as Hv0. rewrite Nat.add_0_r in Hv0.
  destruct (IH (S k) vf) as [IH1 IH2].
  { intros i t' Hi. replace (S k + i) with (k + S i) by lia. now apply Hv. }
  unfold has_width in H.
  destruct (nonzero (size t)) eqn:E; unfold nonzero in E.
  - cbn [map rev snd]. rewrite !concat_app, IH1, !list_sum_cons, IH2, Hv0. split; [reflexivity|]. lia.
  - assert (Ev : v = []) by (apply length_zero_iff_nil; destruct (Nat.eqb_spec (size t) 0); [lia|discriminate]).
    cbn [map rev]. rewrite IH1, IH2, concat_app, list_sum_cons. rewrite Ev in *. cbn in H |- *.
    rewrite app_nil_r. split; [reflexivity|lia].
Qed.

Lemma selfval_lit r v : selfval r (VLit v) = v.
Proof. unfold selfval. cbn. now apply resize_id. Qed.

Lemma construct_enum_value options v tys vals :
  nth_error options v = Some tys -> Forall2 has_width tys vals ->
  op_value (TEnum options) tys (ConstructEnum v) vals
  = Some (enum_bits options v vals (xs (enum_payload_size options - list_sum (map size tys)))).
Proof.
  intros Hn H. pose proof (payload_fits _ _ _ Hn) as HP.
  pose proof (length_concat_vals _ _ H) as HL.
  unfold op_value. rewrite size_enum.
  set (tag := tag_size (length options)) in *.
  destruct (Nat.eqb_spec (tag + enum_payload_size options) 0) as [E|E].
  - f_equal. symmetry. apply concat_nil_of_length. unfold enum_bits. fold tag.
    rewrite !app_length, length_xs, HL, length_of_Z. lia.
  - cbn [forward_code]. rewrite Hn. cbn [drive]. f_equal. rewrite size_enum. fold tag.
    replace (tag + enum_payload_size options - tag - list_sum (map size tys))
      with (enum_payload_size options - list_sum (map size tys)) by lia.
    set (pad := enum_payload_size options - list_sum (map size tys)).
    destruct (combine_seq_filter tys vals H 0 (fun n => nth n vals [])) as [H1 H2].
    { intros i v' Hi. cbn. now apply nth_error_nth. }
    set (inc := map snd (filter (fun p => nonzero (size (fst p))) (combine tys (seq 0 (length tys))))) in *.
    assert (Hf : forall n, selfval (operand_env vals) (fv n) = nth n vals []).
    { intros n. unfold fv. now rewrite selfval_var. }
    rewrite assign_concat.
    + rewrite !map_app, !rev_app_distr, !concat_app. unfold enum_bits. fold tag.
      rewrite <- app_assoc. f_equal; [|f_equal].
      * destruct (nonzero pad) eqn:En; unfold nonzero in En.
        -- cbn [map rev app concat]. rewrite selfval_lit, app_nil_r. reflexivity.
        -- assert (pad = 0) as -> by (destruct (Nat.eqb_spec pad 0); [assumption|discriminate]). reflexivity.
      * rewrite map_map. erewrite map_ext; [exact H1|]. apply Hf.
      * destruct (nonzero tag) eqn:En; unfold nonzero in En.
        -- cbn [map rev app concat]. rewrite selfval_lit, app_nil_r. reflexivity.
        -- assert (tag = 0) as -> by (destruct (Nat.eqb_spec tag 0); [assumption|discriminate]). reflexivity.
    + intros e He. apply in_app_or in He. destruct He as [He|He]; [|apply in_app_or in He; destruct He as [He|He]].
      * destruct (nonzero tag); [|destruct He]. destruct He as [<-|[]]. now rewrite selfval_lit.
      * apply in_map_iff in He. destruct He as (n & <- & _). rewrite Hf. reflexivity.
      * destruct (nonzero pad); [|destruct He]. destruct He as [<-|[]]. now rewrite selfval_lit.
    + rewrite !map_app, !list_sum_app.
      rewrite map_map. cbn [fv width operand_env]. rewrite H2.
      destruct (nonzero tag) eqn:En; destruct (nonzero pad) eqn:Ep; unfold nonzero in En, Ep;
        cbn [map width list_sum fold_right];
        rewrite ?length_of_Z, ?length_xs;
        destruct (Nat.eqb_spec tag 0); destruct (Nat.eqb_spec pad 0); try discriminate; cbn; lia.
Qed.

Lemma length_enum_bits options v tys vals pad :
  nth_error options v = Some tys -> Forall2 has_width tys vals ->
  length pad = enum_payload_size options - list_sum (map size tys) ->
  length (enum_bits options v vals pad) = size (TEnum options).
Proof.
  intros Hn H Hp. pose proof (payload_fits _ _ _ Hn). unfold enum_bits.
  rewrite !app_length, (length_concat_vals _ _ H), length_of_Z, size_enum. lia.
Qed.

Lemma veq_refl v : known v -> veq v v = B1.
Proof.
  unfold veq, known. intros H.
  assert (E : truth (map2 bxor v v) = B0).
  { induction v as [|b v IH]; [reflexivity|]. cbn.
    change (fold_right bor B0 (map2 bxor v v)) with (truth (map2 bxor v v)).
    rewrite IH by (intros K; apply H; now right).
    destruct b; [reflexivity|reflexivity|exfalso; apply H; now left]. }
  now rewrite E.
Qed.

Lemma veq_neq v w : length v = length w -> known v -> known w -> v <> w -> veq v w = B0.
Proof.
  unfold veq, known. intros HL Hv Hw Hne.
  assert (E : truth (map2 bxor v w) = B1); [|now rewrite E].
  revert w HL Hw Hne; induction v as [|b v IH]; intros [|c w] HL Hw Hne; try discriminate; [congruence|].
  cbn. change (fold_right bor B0 (map2 bxor v w)) with (truth (map2 bxor v w)).
  assert (b <> BX) by (intros ->; apply Hv; now left).
  assert (c <> BX) by (intros ->; apply Hw; now left).
  destruct (list_eq_dec (fun a b : bit => ltac:(decide equality) : {a = b} + {a <> b}) v w) as [->|Hd].
  - assert (b <> c) by congruence. destruct b, c; try congruence; reflexivity.
  - rewrite IH; [| |injection HL; auto| |exact Hd].
    + destruct (bxor b c); reflexivity.
    + intros K; apply Hv; now right.
    + intros K; apply Hw; now right.
Qed.

Lemma veq_spec v w x y : length v = length w -> uval v = Some x -> uval w = Some y ->
  veq v w = bit_of_bool (x =? y)%Z.
Proof.
  intros HL Hv Hw.
  assert (Kv : known v) by (apply uval_known; congruence).
  assert (Kw : known w) by (apply uval_known; congruence).
  destruct (Z.eqb_spec x y) as [<-|Hne].
  - rewrite (uval_inj v w x HL Hv Hw). now apply veq_refl.
  - apply veq_neq; auto. intros ->. congruence.
Qed.

Lemma assign_one_bit r e b : width r e = 1 -> eval r 1 (signed e) e = [b] -> assign_val r 1 e = [b].
Proof. intros H E. unfold assign_val. rewrite H. cbn [Nat.max]. now rewrite E. Qed.

Lemma is_enum_variant_value options v v' tys vals pad :
  nth_error options v = Some tys -> Forall2 has_width tys vals ->
  length pad = enum_payload_size options - list_sum (map size tys) ->
  v' < length options ->
  op_value TBool [TEnum options] (IsEnumVariant v') [enum_bits options v vals pad]
  = Some [bit_of_bool (v' =? v)].
Proof.
  intros Hn H Hp Hv'.
  assert (Hv : v < length options) by (apply nth_error_Some; congruence).
  pose proof (tag_size_bound _ _ Hv) as B. pose proof (tag_size_bound _ _ Hv') as B'.
  pose proof (length_enum_bits _ _ _ _ _ Hn H Hp) as HL.
  unfold op_value. cbn [size Nat.eqb forward_code List.length seq nth].
  change (list_max (map (fun m => list_sum (map size m)) options)) with (enum_payload_size options).
  change (Nat.log2 (next_power_of_two (length options))) with (tag_size (length options)).
  rewrite size_enum in *.
  set (tag := tag_size (length options)) in *. set (pl := enum_payload_size options) in *.
  assert (Hone : tag = 0 -> v' =? v = true).
  { intros ->. cbn in B, B'. apply Nat.eqb_eq. lia. }
  assert (Hpow : forall k, k < 2 ^ tag -> (0 <= Z.of_nat k < 2 ^ Z.of_nat tag)%Z).
  { intros k Hk. split; [lia|]. rewrite <- (Nat2Z.inj_pow 2). lia. }
  assert (Htagval : slice (enum_bits options v vals pad) pl tag = of_Z tag (Z.of_nat v)).
  { unfold enum_bits. fold tag.
    replace pl with (length (pad ++ concat (rev vals))).
    2:{ rewrite app_length, (length_concat_vals _ _ H). pose proof (payload_fits _ _ _ Hn). unfold pl in *. lia. }
    rewrite app_assoc. rewrite <- (app_nil_r (_ ++ of_Z tag _)), <- app_assoc.
    rewrite <- (length_of_Z tag (Z.of_nat v)) at 2. apply slice_app_mid. }
  destruct (Nat.eqb_spec (tag + pl) 0) as [E|E].
  { cbn [drive]. rewrite Hone by lia. reflexivity. }
  destruct (Nat.eqb_spec tag 0) as [E0|E0].
  { cbn [drive]. rewrite Hone by lia. reflexivity. }
  assert (Hcmp : veq (of_Z tag (Z.of_nat v)) (of_Z tag (Z.of_nat v')) = bit_of_bool (v' =? v)).
  { rewrite (veq_spec _ _ (Z.of_nat v) (Z.of_nat v')).
    - f_equal. destruct (Z.eqb_spec (Z.of_nat v) (Z.of_nat v')); destruct (Nat.eqb_spec v' v); lia.
    - now rewrite !length_of_Z.
    - apply uval_of_Z_small; auto.
    - apply uval_of_Z_small; auto. }
  destruct (Nat.eqb_spec (tag + pl) 1) as [E1|E1]; [|destruct (Nat.eqb_spec (tag + pl - 1) (tag + pl - tag)) as [E2|E2]].
  - cbn [drive]. f_equal. assert (tag = 1 /\ pl = 0) as [Ht1 Hp0] by lia.
    apply assign_one_bit; [reflexivity|].
    cbn [eval width signed fv andb operand_env nth length].
    rewrite HL, E1. cbn [length]. rewrite length_of_Z. cbn [Nat.max].
    rewrite resize_id by reflexivity.
    rewrite (resize_id _ (enum_bits _ _ _ _) 1) by lia.
    rewrite (resize_id _ (of_Z 1 (Z.of_nat v')) 1) by apply length_of_Z.
    rewrite Ht1, Hp0 in *. rewrite <- Hcmp, <- Htagval. rewrite slice_spec by lia. cbn [skipn].
    rewrite firstn_all2 by lia. reflexivity.
  - cbn [drive]. f_equal. apply assign_one_bit; [reflexivity|].
    assert (tag = 1) as Ht1 by lia.
    cbn [eval width signed fv andb operand_env nth length].
    rewrite length_of_Z. rewrite Ht1 in *. cbn [Nat.max].
    rewrite (resize_id _ (of_Z 1 (Z.of_nat v')) 1) by apply length_of_Z.
    rewrite (resize_id _ (slice _ _ _) 1) by apply length_slice.
    rewrite resize_id by reflexivity.
    replace (1 + pl - 1) with pl by lia. rewrite Htagval, Hcmp. reflexivity.
  - cbn [drive]. f_equal. apply assign_one_bit; [reflexivity|].
    cbn [eval width signed fv andb operand_env nth length].
    rewrite length_of_Z. replace (tag + pl - 1 + 1 - (tag + pl - tag)) with tag by lia.
    rewrite Nat.max_id.
    replace (tag + pl - tag) with pl by lia.
    rewrite (resize_id _ (of_Z tag (Z.of_nat v')) tag) by apply length_of_Z.
    rewrite (resize_id _ (slice _ _ _) tag) by apply length_slice.
    rewrite resize_id by reflexivity.
    rewrite Htagval, Hcmp. reflexivity.
Qed.

(** The condition under which the generated member access is right.  The code
    returns the whole vector (truncated by the assignment to its lowest bit)
    when the member is one bit wide and there is no tag, which is only right if
    nothing but zero-width members follows. *)
Definition member_access_ok (options : list (list ty)) (tys : list ty) (i : nat) : Prop :=
  length options = 1 -> option_map size (nth_error tys i) = Some 1 ->
  list_sum (map size (skipn (S i) tys)) = 0.

Lemma tag_size_0 n : 0 < n -> tag_size n = 0 -> n = 1.
Proof.
  intros H E. pose proof (tag_size_bound n (n - 1) ltac:(lia)) as B. rewrite E in B. cbn in B. lia.
Qed.

Lemma enum_member_value options v tys vals pad i t w :
  nth_error options v = Some tys -> Forall2 has_width tys vals ->
  length pad = enum_payload_size options - list_sum (map size tys) ->
  nth_error tys i = Some t -> nth_error vals i = Some w ->
  member_access_ok options tys i ->
  op_value t [TEnum options] (EnumMember v i) [enum_bits options v vals pad] = Some w.
Proof.
  intros Hn H Hp Hi Hw Hok.
  pose proof (length_enum_bits _ _ _ _ _ Hn H Hp) as HL.
  pose proof (payload_fits _ _ _ Hn) as HP.
  destruct (Forall2_nth_error _ _ _ _ _ H Hi) as (w' & Hw' & HF). rewrite Hw in Hw'.
  apply Some_inj in Hw'; subst w'. unfold has_width in HF.
  pose proof (list_sum_map_skipn _ _ _ Hi) as HS. rewrite firstn_map in HS.
  unfold op_value. destruct (Nat.eqb_spec (size t) 0) as [E|E].
  { f_equal. symmetry. apply concat_nil_of_length. lia. }
  cbn [forward_code List.length seq nth]. rewrite Hn, Hi.
  rewrite size_enum in *.
  unfold member_access_ok in Hok. rewrite Hi in Hok. cbn [option_map] in Hok.
  assert (Hsl : slice (enum_bits options v vals pad)
           (length pad + list_sum (map size (skipn (S i) tys))) (size t) = w).
  { unfold enum_bits. rewrite (concat_rev_split vals i w Hw).
    rewrite <- !app_assoc. rewrite app_assoc.
    replace (length pad + list_sum (map size (skipn (S i) tys)))
      with (length (pad ++ concat (rev (skipn (S i) vals)))).
    2:{ rewrite app_length, (length_concat_vals (skipn (S i) tys)); [reflexivity|]. now apply Forall2_skipn. }
    rewrite <- HF. apply slice_app_mid. }
  assert (Hpad0 : tag_size (length options) = 0 -> length options = 1 /\ length pad = 0).
  { intros Ht. assert (length options <> 0) by (destruct options; [destruct v; discriminate|discriminate]).
    assert (HL1 : length options = 1) by (apply tag_size_0; [lia|exact Ht]). split; [exact HL1|].
    destruct options as [|o [|]]; try discriminate. destruct v as [|[|]]; try discriminate. cbn in Hn.
    apply Some_inj in Hn; subst o. rewrite Hp. unfold enum_payload_size. cbn [map list_max fold_right]. lia. }
  set (tag := tag_size (length options)) in *. set (pl := enum_payload_size options) in *.
  set (st := list_sum (map size (firstn i tys))) in *.
  set (after := list_sum (map size (skipn (S i) tys))) in *.
  destruct (Nat.ltb_spec (tag + pl) (tag + st + 1)); [lia|].
  destruct (Nat.ltb_spec (tag + pl) (tag + st + size t)); [lia|].
  destruct ((tag + pl - (tag + st) - 1 =? tag + pl - (tag + st + size t)) && (tag =? 0)) eqn:Ec.
  - cbn [drive]. f_equal. assert (size t = 1 /\ tag = 0) as [Hs1 Ht0] by lia.
    destruct (Hpad0 Ht0) as [Hone Hpz].
    specialize (Hok Hone ltac:(congruence)). rewrite Hs1 in *.
    unfold fv. rewrite assign_var_trunc by (cbn [operand_env nth]; lia). cbn [operand_env nth].
    assert (length pad + after = 0) as Hz by lia. rewrite Hz in Hsl.
    rewrite slice_spec in Hsl by lia. exact Hsl.
  - cbn [drive]. f_equal. rewrite assign_range by lia. cbn [operand_env nth].
    replace (tag + pl - (tag + st + size t)) with (length pad + after) by lia. exact Hsl.
Qed.

(** ** Round trips in the form used by the property file *)
Lemma op_value_zero t tys o vals : size t = 0 -> op_value t tys o vals = Some [].
Proof. intros E. unfold op_value. now rewrite E. Qed.

Lemma zero_width_nil t v : has_width t v -> size t = 0 -> v = [].
Proof. intros H E. apply length_zero_iff_nil. unfold has_width in H. lia. Qed.

Lemma index_any t tys vals i v big :
  Forall2 has_width tys vals -> nth_error tys i = Some t -> nth_error vals i = Some v ->
  tuple_members big = Some tys ->
  op_value t [big] (IndexTuple i) [concat (rev vals)] = Some v.
Proof.
  intros H Hi Hv Hm. destruct (Nat.eq_dec (size t) 0) as [E|E].
  - rewrite op_value_zero by exact E. f_equal. symmetry.
    destruct (Forall2_nth_error _ _ _ _ _ H Hi) as (v' & Hv' & HF).
    assert (v' = v) by congruence. subst v'. now apply zero_width_nil with t.
  - now apply (index_members_value t tys vals i v big).
Qed.

Lemma tuple_round_trip (tys : list ty) (vals : list bits) :
  Forall2 has_width tys vals ->
  exists w, op_value (TTuple tys) tys ConstructTuple vals = Some w
    /\ has_width (TTuple tys) w
    /\ forall i t v, nth_error tys i = Some t -> nth_error vals i = Some v ->
         op_value t [TTuple tys] (IndexTuple i) [w] = Some v.
Proof.
  intros H. exists (concat (rev vals)). split; [now apply construct_tuple_value|].
  split; [exact (length_concat_vals _ _ H)|].
  intros i t v Ht Hv. now apply (index_any t tys vals i v).
Qed.

Lemma struct_size fields : size (TStruct fields) = list_sum (map size (map snd fields)).
Proof. cbn [size]. now rewrite map_map. Qed.

Lemma struct_round_trip fields (vals : list bits) :
  Forall2 (fun f v => has_width (snd f) v) fields vals ->
  exists w, op_value (TStruct fields) (map snd fields) ConstructTuple vals = Some w
    /\ has_width (TStruct fields) w
    /\ forall i f v, nth_error fields i = Some f -> nth_error vals i = Some v ->
         op_value (snd f) [TStruct fields] (IndexTuple i) [w] = Some v.
Proof.
  intros H0. assert (H : Forall2 has_width (map snd fields) vals).
  { induction H0; cbn; auto. }
  exists (concat (rev vals)). split; [|split].
  - pose proof (construct_tuple_value _ _ H) as E. unfold op_value in *. rewrite struct_size.
    cbn [size] in E. exact E.
  - unfold has_width. rewrite struct_size. exact (length_concat_vals _ _ H).
  - intros i f v Hf Hv. apply (index_any (snd f) (map snd fields) vals i v); auto.
    now rewrite nth_error_map, Hf.
Qed.

Lemma array_round_trip t (vals : list bits) :
  Forall (has_width t) vals ->
  (Z.of_nat (size (TArray t (length vals))) <= 2 ^ 32)%Z ->
  exists w, op_value (TArray t (length vals)) (repeat t (length vals)) ConstructArray vals = Some w
    /\ has_width (TArray t (length vals)) w
    /\ forall i v it iv, nth_error vals i = Some v -> uval iv = Some (Z.of_nat i) ->
         op_value t [TArray t (length vals); it] IndexArray [w; iv] = Some v.
Proof.
  intros H Hbig. exists (concat vals). split; [now apply construct_array_value|].
  split; [exact (length_concat_uniform _ _ H)|].
  intros i v it iv Hv Hi. now apply (index_array_value t vals i v it iv).
Qed.

Lemma array_slice t (vals : list bits) s e w :
  Forall (has_width t) vals -> s < e -> e <= length vals ->
  op_value (TArray t (length vals)) (repeat t (length vals)) ConstructArray vals = Some w ->
  op_value (TArray t (e - s)) [TArray t (length vals)] (RangeIndexArray s e) [w]
  = op_value (TArray t (e - s)) (repeat t (e - s)) ConstructArray (firstn (e - s) (skipn s vals)).
Proof.
  intros H Hse He Hw. rewrite construct_array_value in Hw by exact H.
  apply Some_inj in Hw. subst w. rewrite range_index_array_value by assumption.
  assert (Hlen : length (firstn (e - s) (skipn s vals)) = e - s)
    by (rewrite firstn_length, skipn_length; lia).
  assert (HF : Forall (has_width t) (firstn (e - s) (skipn s vals))).
  { rewrite Forall_forall in *. intros x Hx. apply H.
    rewrite <- (firstn_skipn s vals). apply in_or_app. right.
    rewrite <- (firstn_skipn (e - s) (skipn s vals)). apply in_or_app. now left. }
  pose proof (construct_array_value t _ HF) as E. rewrite Hlen in E. now rewrite E.
Qed.

Lemma enum_round_trip options v tys vals :
  nth_error options v = Some tys -> Forall2 has_width tys vals ->
  exists w, op_value (TEnum options) tys (ConstructEnum v) vals = Some w
    /\ has_width (TEnum options) w
    /\ (forall v', v' < length options ->
          op_value TBool [TEnum options] (IsEnumVariant v') [w] = Some [bit_of_bool (v' =? v)])
    /\ (forall i t x, nth_error tys i = Some t -> nth_error vals i = Some x ->
          member_access_ok options tys i ->
          op_value t [TEnum options] (EnumMember v i) [w] = Some x).
Proof.
  intros Hn H. eexists. split; [now apply construct_enum_value|].
  split; [|split].
  - apply (length_enum_bits options v tys); auto. apply length_xs.
  - intros v' Hv'. apply (is_enum_variant_value options v v' tys); auto. apply length_xs.
  - intros i t x Ht Hx Hok. apply (enum_member_value options v tys vals _ i t x); auto. apply length_xs.
Qed.
