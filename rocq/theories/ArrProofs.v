From Coq Require Import List Bool ZArith Arith Lia.
From Verif Require Import ArrModel ArrSpec.
Import ListNotations.


Lemma array_app xs ys : array (xs ++ ys) = array xs ++ array ys.
Proof. apply concat_app. Qed.
Lemma array_length w xs : wide w xs -> length (array xs) = length xs * w.
Proof. induction 1 as [|x xs X _ IH]; [reflexivity|]. unfold array in *. cbn. rewrite app_length. lia. Qed.
Lemma firstn_array w xs : wide w xs -> forall k, firstn (k * w) (array xs) = array (firstn k xs).
Proof.
  induction 1 as [|x xs X _ IH]; intros [|k]; try reflexivity; [apply firstn_nil|].
  unfold array in *. cbn [concat firstn]. rewrite <- IH. cbn [Nat.mul]. rewrite <- X at 1. rewrite firstn_app_2. reflexivity.
Qed.
Lemma skipn_array w xs : wide w xs -> forall k, skipn (k * w) (array xs) = array (skipn k xs).
Proof.
  induction 1 as [|x xs X _ IH]; intros [|k]; try reflexivity; [apply skipn_nil|].
  unfold array in *. cbn [concat skipn]. rewrite <- IH. cbn [Nat.mul]. rewrite skipn_app, X.
  rewrite skipn_all2 by lia. replace (w + k * w - w) with (k * w) by lia. reflexivity.
Qed.
Lemma wide_firstn w xs k : wide w xs -> wide w (firstn k xs).
Proof. intros H. rewrite <- (firstn_skipn k xs) in H. apply Forall_app in H. tauto. Qed.
Lemma wide_skipn w xs k : wide w xs -> wide w (skipn k xs).
Proof. intros H. rewrite <- (firstn_skipn k xs) in H. apply Forall_app in H. tauto. Qed.
Lemma wide_app w xs ys : wide w xs -> wide w ys -> wide w (xs ++ ys).
Proof. intros. apply Forall_app; auto. Qed.
Lemma index_array w xs i : wide w xs -> i < length xs -> index w (array xs) i = nth i xs [].
Proof.
  intros H L. unfold index. rewrite (skipn_array w xs H). pose proof (wide_skipn w xs i H) as K.
  replace (nth i xs []) with (nth 0 (skipn i xs) []) by (rewrite <- (firstn_skipn i xs) at 2; rewrite app_nth2; rewrite firstn_length_le; try lia; rewrite Nat.sub_diag; reflexivity).
  assert (LE : 0 < length (skipn i xs)) by (rewrite skipn_length; lia).
  destruct (skipn i xs) as [|y ys]; [cbn in LE; lia|]. inversion K; subst. cbn. unfold array. cbn. rewrite firstn_app, Nat.sub_diag, firstn_all. cbn. apply app_nil_r.
Qed.
Lemma range_array w xs a b : wide w xs -> range w (array xs) a b = array (firstn (b - a) (skipn a xs)).
Proof. intros H. unfold range. rewrite (skipn_array w xs H). apply firstn_array, wide_skipn, H. Qed.
Lemma concat_array xs ys : concat_ (array xs) (array ys) = array (xs ++ ys).
Proof. unfold concat_, transmute, tuple2. symmetry. apply array_app. Qed.
Lemma split_array w K xs : wide w xs -> split_at w K (array xs) = (array (firstn K xs), array (skipn K xs)).
Proof. intros H. unfold split_at, untuple2, transmute. rewrite (firstn_array w xs H), (skipn_array w xs H). reflexivity. Qed.
Lemma untuple_tuple a b : untuple2 (length b) (tuple2 a b) = (a, b).
Proof. unfold untuple2, tuple2. rewrite skipn_app, skipn_all, Nat.sub_diag, firstn_app, firstn_all, Nat.sub_diag. cbn. rewrite app_nil_r. reflexivity. Qed.

Lemma halves n : 2 <= n -> n / 2 < n /\ n - n / 2 < n /\ 1 <= n / 2.
Proof. intros H. pose proof (Nat.div_lt n 2 ltac:(lia) ltac:(lia)). assert (1 <= n / 2) by (apply Nat.div_le_lower_bound; lia). lia. Qed.

Lemma unfold_array seed f : forall N, unfold_ N seed f = array (map (fun n => Nat.iter n f seed) (seq 0 N)).
Proof.
  intros N. revert seed. induction N as [|N IH]; intros seed; [reflexivity|]. cbn [unfold_ seq map]. rewrite IH, concat_array.
  cbn [app]. f_equal. cbn [Nat.iter]. f_equal. rewrite <- seq_shift, map_map. apply map_ext. intros n.
  induction n as [|n IHn]; [reflexivity|]. change (f (Nat.iter n f (f seed)) = f (Nat.iter (S n) f seed)). now rewrite IHn.
Qed.

Ltac half N xs :=
  let H := fresh in destruct (halves N ltac:(lia)) as (? & ? & ?);
  assert (length (firstn (N / 2) xs) = N / 2) by (rewrite firstn_length; lia);
  assert (length (skipn (N / 2) xs) = N - N / 2) by (rewrite skipn_length; lia).
Lemma map_array w f : forall fuel N xs, N <= fuel -> wide w xs -> length xs = N -> map_ fuel w N f (array xs) = array (map f xs).
Proof.
  induction fuel as [|fuel IH]; intros N xs L W LN.
  - destruct xs; [reflexivity|cbn in LN; lia].
  - cbn [map_]. destruct (Nat.eqb_spec N 0); [destruct xs; [reflexivity|cbn in LN; lia]|].
    destruct (Nat.eqb_spec N 1).
    + rewrite (index_array w xs 0 W) by lia. destruct xs as [|x [|]]; cbn in LN; try lia. reflexivity.
    + rewrite (split_array w (N / 2) xs W). half N xs. rewrite !IH; auto using wide_firstn, wide_skipn; try lia.
      rewrite concat_array, <- map_app, firstn_skipn. reflexivity.
Qed.
Lemma combine_split {A B} (xs : list A) (ys : list B) k : length xs = length ys ->
  combine xs ys = combine (firstn k xs) (firstn k ys) ++ combine (skipn k xs) (skipn k ys).
Proof. revert xs ys. induction k as [|k IH]; intros [|x xs] [|y ys] L; cbn in *; try lia; try reflexivity. f_equal. apply IH. lia. Qed.
Lemma zip_array w v : forall fuel N xs ys, N <= fuel -> wide w xs -> wide v ys -> length xs = N -> length ys = N ->
  zip_ fuel w v N (array xs) (array ys) = array (map (fun p => tuple2 (fst p) (snd p)) (combine xs ys)).
Proof.
  induction fuel as [|fuel IH]; intros N xs ys L W V LN LM.
  - destruct xs; [reflexivity|cbn in LN; lia].
  - cbn [zip_]. destruct (Nat.eqb_spec N 0); [destruct xs; [reflexivity|cbn in LN; lia]|].
    destruct (Nat.eqb_spec N 1).
    + rewrite (index_array w xs 0 W), (index_array v ys 0 V) by lia. destruct xs as [|x [|]]; cbn in LN; try lia. destruct ys as [|y [|]]; cbn in LM; try lia. reflexivity.
    + rewrite (split_array w (N / 2) xs W), (split_array v (N / 2) ys V). half N xs. half N ys.
      rewrite !IH; auto using wide_firstn, wide_skipn; try lia.
      rewrite concat_array, <- map_app, <- (combine_split xs ys (N / 2)) by congruence. reflexivity.
Qed.
Lemma wide_tuples w v ps : Forall (fun p => length (fst p) = w /\ length (snd p) = v) ps -> wide (w + v) (map (fun p => tuple2 (fst p) (snd p)) ps).
Proof. induction 1 as [|p ps [A B] _ IH]; cbn; constructor; [|exact IH]. rewrite <- A, <- B, Nat.add_comm. apply app_length. Qed.
Lemma unzip_array w v : forall fuel N ps, N <= fuel -> Forall (fun p => length (fst p) = w /\ length (snd p) = v) ps -> length ps = N ->
  unzip_ fuel w v N (array (map (fun p => tuple2 (fst p) (snd p)) ps)) = (array (map fst ps), array (map snd ps)).
Proof.
  induction fuel as [|fuel IH]; intros N ps L W LN.
  - destruct ps; [reflexivity|cbn in LN; lia].
  - cbn [unzip_]. pose proof (wide_tuples w v ps W) as WT. destruct (Nat.eqb_spec N 0); [destruct ps; [reflexivity|cbn in LN; lia]|].
    destruct (Nat.eqb_spec N 1).
    + rewrite (index_array (w + v)); [|exact WT|rewrite map_length; lia]. destruct ps as [|[a b] [|]]; cbn in LN; try lia.
      inversion W as [|? ? [A B] ?]; subst. cbn [map nth fst snd] in *. rewrite untuple_tuple. reflexivity.
    + rewrite (split_array (w + v) (N / 2) _ WT). rewrite firstn_map, skipn_map. half N ps.
      assert (W1 : Forall (fun p => length (fst p) = w /\ length (snd p) = v) (firstn (N / 2) ps) /\ Forall (fun p => length (fst p) = w /\ length (snd p) = v) (skipn (N / 2) ps))
        by (apply Forall_app; rewrite firstn_skipn; exact W). destruct W1.
      rewrite !IH; auto; try lia. rewrite !concat_array, <- !map_app, !firstn_skipn. reflexivity.
Qed.
Lemma reversed_array w : forall fuel N xs, N <= fuel -> wide w xs -> length xs = N -> reversed_ fuel w N (array xs) = array (rev xs).
Proof.
  induction fuel as [|fuel IH]; intros N xs L W LN.
  - destruct xs; [reflexivity|cbn in LN; lia].
  - cbn [reversed_]. destruct (Nat.ltb_spec N 2); [destruct xs as [|x [|]]; try reflexivity; cbn in LN; lia|].
    rewrite (split_array w (N / 2) xs W). half N xs. rewrite !IH; auto using wide_firstn, wide_skipn; try lia.
    rewrite concat_array, <- rev_app_distr, firstn_skipn. reflexivity.
Qed.
Lemma fold_array {B} w (f : B -> bits -> B) : forall N xs init, wide w xs -> length xs = N -> fold_ N w (array xs) init f = fold_left f xs init.
Proof.
  induction N as [|N IH]; intros xs init W LN; destruct xs as [|x xs]; try (cbn in LN; lia); [reflexivity|].
  cbn [fold_]. rewrite (index_array w _ 0 W) by (cbn; lia). rewrite (range_array w _ _ _ W). cbn [skipn nth]. inversion W; subst.
  cbn in LN. rewrite firstn_all2 by lia. rewrite IH; [reflexivity|assumption|lia].
Qed.
Lemma reduce_array w f x xs N : wide w (x :: xs) -> length (x :: xs) = N -> reduce_ N w (array (x :: xs)) f = fold_left f xs x.
Proof.
  intros W L. unfold reduce_. rewrite (index_array w _ 0 W) by (cbn; lia). rewrite (range_array w _ _ _ W). cbn [skipn nth]. cbn in L.
  rewrite firstn_all2 by lia. inversion W; subst. apply fold_array; [assumption|lia].
Qed.
Lemma wide_arrays w M xss : Forall (fun xs => length xs = M /\ wide w xs) xss -> wide (M * w) (map array xss).
Proof. induction 1 as [|xs xss [A B] _ IH]; cbn; constructor; [|exact IH]. rewrite (array_length w) by exact B. lia. Qed.
Lemma flatten_array w M : forall fuel N xss, N <= fuel -> Forall (fun xs => length xs = M /\ wide w xs) xss -> length xss = N ->
  flatten_ fuel w M N (array (map array xss)) = array (concat xss).
Proof.
  induction fuel as [|fuel IH]; intros N xss L W LN.
  - destruct xss; [reflexivity|cbn in LN; lia].
  - cbn [flatten_]. pose proof (wide_arrays w M xss W) as WT. destruct (Nat.eqb_spec N 0); [destruct xss; [reflexivity|cbn in LN; lia]|].
    destruct (Nat.eqb_spec N 1).
    + rewrite (index_array (M * w)); [|exact WT|rewrite map_length; lia]. destruct xss as [|xs [|]]; cbn in LN; try lia. cbn. rewrite app_nil_r. reflexivity.
    + rewrite (split_array (M * w) (N / 2) _ WT). rewrite firstn_map, skipn_map. half N xss.
      assert (W1 : Forall (fun xs => length xs = M /\ wide w xs) (firstn (N / 2) xss) /\ Forall (fun xs => length xs = M /\ wide w xs) (skipn (N / 2) xss))
        by (apply Forall_app; rewrite firstn_skipn; exact W). destruct W1.
      rewrite !IH; auto; try lia. rewrite concat_array, <- concat_app, firstn_skipn. reflexivity.
Qed.
Lemma combine_wide w v (xs ys : list bits) : wide w xs -> wide v ys -> Forall (fun p => length (fst p) = w /\ length (snd p) = v) (combine xs ys).
Proof. intros W. revert ys. induction W as [|x xs X _ IH]; intros [|y ys] V; cbn; constructor; inversion V; subst; auto. Qed.
Lemma interleave_array w N xs ys : wide w xs -> wide w ys -> length xs = N -> length ys = N ->
  interleave_ w N (array xs) (array ys) = array (flat_map (fun p => [fst p; snd p]) (combine xs ys)).
Proof.
  intros W V L M. unfold interleave_. rewrite (zip_array w w N N xs ys) by (auto; lia).
  pose proof (combine_wide w w xs ys W V) as WC. assert (LC : length (combine xs ys) = N) by (rewrite combine_length; lia).
  rewrite (map_array (w + w)); [|lia|apply wide_tuples; exact WC|rewrite map_length; exact LC].
  rewrite map_map. rewrite (map_ext_in _ (fun p => array [fst p; snd p])).
  - rewrite <- (map_map (fun p : bits * bits => [fst p; snd p]) array). rewrite (flatten_array w 2); [rewrite flat_map_concat_map; reflexivity|lia| |rewrite map_length; exact LC].
    rewrite Forall_map. eapply Forall_impl; [|exact WC]. intros p [A B]. cbn. split; [reflexivity|]. repeat constructor; assumption.
  - intros p P. rewrite Forall_forall in WC. destruct (WC p P) as [_ B]. rewrite <- B, untuple_tuple. reflexivity.
Qed.
(** Pieces of [C] elements. *)
Fixpoint pieces {A} (n C : nat) (xs : list A) : list (list A) :=
  match n with O => [] | S n => firstn C xs :: pieces n C (skipn C xs) end.
Lemma chunks_array w C : 1 <= C -> forall n fuel xs, n * C <= fuel -> wide w xs -> length xs = n * C ->
  chunks_ fuel w C (n * C) (array xs) = array (map array (pieces n C xs)).
Proof.
  intros C1. induction n as [|n IH]; intros fuel xs L W LN.
  - destruct fuel; reflexivity.
  - destruct fuel as [|fuel]; [cbn in L; lia|]. cbn [chunks_]. destruct (Nat.eqb_spec (S n * C) 0); [cbn in *; lia|].
    rewrite (split_array w C xs W). replace (S n * C - C) with (n * C) by (cbn; lia).
    rewrite IH; [|cbn in L; lia|apply wide_skipn; exact W|rewrite skipn_length; cbn in LN; lia].
    change (array [array (firstn C xs)]) with (array (map array [firstn C xs])). rewrite concat_array, <- map_app. reflexivity.
Qed.
Lemma sliding_array w M : forall fuel N xs, N <= fuel + M -> M <= N -> wide w xs -> length xs = N ->
  sliding_window_ fuel w M N (array xs) = array (map (fun i => array (firstn M (skipn i xs))) (seq 0 (N - M + 1))).
Proof.
  induction fuel as [|fuel IH]; intros N xs L LM W LN.
  - assert (N = M) by lia. subst M. replace (N - N + 1) with 1 by lia. cbn. rewrite firstn_all2 by lia. reflexivity.
  - cbn [sliding_window_]. destruct (Nat.eqb_spec N M) as [E|E].
    + subst M. replace (N - N + 1) with 1 by lia. cbn. rewrite firstn_all2 by lia. reflexivity.
    + rewrite !(range_array w _ _ _ W). cbn [skipn]. rewrite Nat.sub_0_r. rewrite (firstn_all2 (skipn 1 xs)) by (rewrite skipn_length; lia).
      rewrite IH; [|lia|lia|apply wide_skipn; exact W|rewrite skipn_length; lia].
      rewrite concat_array. replace (N - M + 1) with (S (N - 1 - M + 1)) by lia. cbn [seq map app skipn]. f_equal. f_equal.
      rewrite <- seq_shift, map_map. apply map_ext. intros i. destruct xs as [|x xs]; [destruct i; reflexivity|reflexivity].
Qed.
Lemma push_back_array xs x : push_back (array xs) x = array (xs ++ [x]).
Proof. apply concat_array. Qed.
Lemma push_front_array xs x : push_front (array xs) x = array (x :: xs).
Proof. apply (concat_array [x]). Qed.
Lemma last_array w N xs : wide w xs -> length xs = N -> 1 <= N -> last_ w N (array xs) = last xs [].
Proof.
  intros W L N1. unfold last_. rewrite (range_array w _ _ _ W). replace (N - (N - 1)) with 1 by lia.
  destruct xs as [|x xs] using rev_ind; [cbn in L; lia|]. rewrite last_last, app_length in *. cbn in L.
  rewrite skipn_app, skipn_all2 by lia. replace (N - 1 - length xs) with 0 by lia. cbn [skipn app firstn].
  apply (index_array w [x] 0); [|cbn; lia]. apply Forall_app in W. tauto.
Qed.
Lemma shift_back_array w N x xs y : wide w (x :: xs) -> length (x :: xs) = N -> shift_back w N (array (x :: xs)) y = array (xs ++ [y]).
Proof. intros W L. unfold shift_back. rewrite (range_array w _ _ _ W). cbn [skipn]. cbn in L. rewrite firstn_all2 by lia. apply push_back_array. Qed.
Lemma shift_front_array w N xs y : wide w xs -> length y = w -> length xs = N -> shift_front w N (array xs) y = array (firstn N (y :: xs)).
Proof. intros W Y L. unfold shift_front. rewrite push_front_array, (range_array w); [rewrite Nat.sub_0_r; reflexivity|]. constructor; assumption. Qed.
Lemma array_bools xs : array (map (fun b => [b]) xs) = xs.
Proof. induction xs; [reflexivity|]. cbn. f_equal. exact IHxs. Qed.
Lemma all_array w N f xs : wide w xs -> length xs = N -> all_ w N f (array xs) = forallb f xs.
Proof.
  intros W L. unfold all_. destruct (Nat.eqb_spec N 0); [destruct xs; [reflexivity|cbn in L; lia]|].
  rewrite (map_array w) by (auto; lia). rewrite <- (map_map f (fun b => [b])), array_bools. unfold reduce_and. clear. induction xs; cbn; congruence.
Qed.
Lemma any_array w N f xs : wide w xs -> length xs = N -> any_ w N f (array xs) = existsb f xs.
Proof.
  intros W L. unfold any_. destruct (Nat.eqb_spec N 0); [destruct xs; [reflexivity|cbn in L; lia]|].
  rewrite (map_array w) by (auto; lia). rewrite <- (map_map f (fun b => [b])), array_bools. unfold reduce_or. clear. induction xs; cbn; congruence.
Qed.

(** ** Numbers *)
Local Open Scope Z_scope.
Lemma uval_range x : 0 <= uval x < 2 ^ Z.of_nat (length x).
Proof.
  induction x as [|b x IH]; [cbn; lia|]. cbn [uval length]. rewrite Nat2Z.inj_succ, Z.pow_succ_r by lia. destruct b; cbn [Z.b2z]; lia.
Qed.
Lemma uval_app x y : uval (x ++ y) = uval x + 2 ^ Z.of_nat (length x) * uval y.
Proof.
  induction x as [|b x IH]; [cbn [app uval length Z.of_nat]; lia|]. cbn [app uval length]. rewrite IH, Nat2Z.inj_succ, Z.pow_succ_r by lia. lia.
Qed.
Lemma uval_firstn k x : uval (firstn k x) = uval x mod 2 ^ Z.of_nat k.
Proof.
  destruct (le_lt_dec k (length x)) as [L|L].
  - rewrite <- (firstn_skipn k x) at 2. rewrite uval_app, firstn_length_le by lia.
    rewrite Z.mul_comm, Z.mod_add by lia. symmetry. apply Z.mod_small. pose proof (uval_range (firstn k x)) as H. rewrite firstn_length_le in H by lia. exact H.
  - rewrite firstn_all2 by lia. symmetry. apply Z.mod_small. pose proof (uval_range x).
    assert (2 ^ Z.of_nat (length x) <= 2 ^ Z.of_nat k) by (apply Z.pow_le_mono_r; lia). lia.
Qed.
Lemma uval_skipn k x : uval (skipn k x) = uval x / 2 ^ Z.of_nat k.
Proof.
  destruct (le_lt_dec k (length x)) as [L|L].
  - rewrite <- (firstn_skipn k x) at 2. rewrite uval_app, firstn_length_le by lia.
    pose proof (uval_range (firstn k x)) as H. rewrite firstn_length_le in H by lia.
    rewrite Z.mul_comm, Z.div_add by lia. rewrite Z.div_small by exact H. lia.
  - rewrite skipn_all2 by lia. symmetry. apply Z.div_small. pose proof (uval_range x).
    assert (2 ^ Z.of_nat (length x) <= 2 ^ Z.of_nat k) by (apply Z.pow_le_mono_r; lia). cbn [uval] in *. lia.
Qed.
Lemma uval_testbit x : forall k, Z.testbit (uval x) (Z.of_nat k) = nth k x false.
Proof.
  induction x as [|b x IH]; intros k; [cbn [uval]; rewrite Z.testbit_0_l; destruct k; reflexivity|].
  cbn [uval]. destruct k as [|k].
  - cbn [Z.of_nat nth]. apply Z.add_b2z_double_bit0.
  - rewrite Nat2Z.inj_succ, Z.add_comm, Z.testbit_succ_r by lia. apply IH.
Qed.
Lemma of_Z_value N : forall z, uval (of_Z N z) = z mod 2 ^ Z.of_nat N.
Proof.
  induction N as [|N IH]; intros z; [cbn; symmetry; apply Z.mod_1_r|]. cbn [of_Z uval]. rewrite IH, Nat2Z.inj_succ, Z.pow_succ_r by lia.
  rewrite Z.div2_div. rewrite Z.rem_mul_r by lia. rewrite Zmod_odd. destruct (Z.odd z); cbn [Z.b2z]; lia.
Qed.
Lemma ival_range x : (1 <= length x)%nat -> - 2 ^ (Z.of_nat (length x) - 1) <= ival x < 2 ^ (Z.of_nat (length x) - 1).
Proof.
  destruct x as [|b x] using rev_ind; [cbn; lia|]. intros _. clear IHx. unfold ival. rewrite last_last, app_length. cbn [length].
  replace (Z.of_nat (length x + 1) - 1) with (Z.of_nat (length x)) by lia. pose proof (uval_range x).
  rewrite uval_app. cbn [uval]. replace (Z.of_nat (length x + 1)) with (Z.succ (Z.of_nat (length x))) by lia. rewrite Z.pow_succ_r by lia.
  destruct b; cbn [Z.b2z]; lia.
Qed.
Lemma ival_neg x : (ival x <? 0) = last x false.
Proof.
  destruct x as [|b x] using rev_ind; [reflexivity|]. clear IHx. unfold ival. rewrite last_last, app_length. cbn [length].
  pose proof (uval_range x). rewrite uval_app. cbn [uval]. replace (Z.of_nat (length x + 1)) with (Z.succ (Z.of_nat (length x))) by lia.
  rewrite Z.pow_succ_r by lia. destruct b; cbn [Z.b2z]; [apply Z.ltb_lt|apply Z.ltb_ge]; lia.
Qed.
Lemma abs_value N x : length x = N -> uval (abs N x) = Z.abs (ival x).
Proof.
  intros L. unfold abs, transmute. destruct (Z.ltb_spec (ival x) 0) as [H|H].
  - rewrite of_Z_value, Z.mod_small; [lia|]. destruct x as [|b x]; [cbn in H; lia|]. pose proof (ival_range (b :: x) ltac:(cbn; lia)) as R.
    rewrite L in R. assert (2 ^ (Z.of_nat N - 1) <= 2 ^ Z.of_nat N) by (apply Z.pow_le_mono_r; lia).
    assert (2 ^ (Z.of_nat N - 1) < 2 ^ Z.of_nat N) by (apply Z.pow_lt_mono_r; cbn in L; lia). lia.
  - assert (E : last x false = false) by (rewrite <- ival_neg; apply Z.ltb_ge; exact H). unfold ival in *. rewrite E in *. lia.
Qed.
Lemma to_int_value x : ival (to_int x) = uval x.
Proof. unfold ival, to_int. rewrite last_last, uval_app. cbn [uval]. cbn [Z.b2z]. lia. Qed.
Local Close Scope Z_scope.

Lemma split_bits (x : bits) : x = array (map (fun b => [b]) x).
Proof. symmetry. apply array_bools. Qed.
Lemma wide_bits (x : bits) : wide 1 (map (fun b => [b]) x).
Proof. induction x; constructor; auto. Qed.
Lemma pieces_array w C : forall n xs, length xs = n * C -> wide w xs -> wide (C * w) (map array (pieces n C xs)) /\ length (pieces n C xs) = n /\ array (map array (pieces n C xs)) = array xs.
Proof.
  induction n as [|n IH]; intros xs L W; cbn [pieces map].
  - destruct xs; [|cbn in L; lia]. split; [constructor|split; reflexivity].
  - destruct (IH (skipn C xs)) as (A & B & D); [rewrite skipn_length; cbn in L; lia|apply wide_skipn; exact W|].
    split; [|split].
    + constructor; [|exact A]. rewrite (array_length w) by (apply wide_firstn; exact W). rewrite firstn_length_le by (cbn in L; lia). reflexivity.
    + cbn. rewrite B. reflexivity.
    + change (array (map array (pieces n C (skipn C xs)))) with (concat (map array (pieces n C (skipn C xs)))) in D.
      unfold array at 1. cbn [concat]. rewrite D. rewrite <- array_app, firstn_skipn. reflexivity.
Qed.
(** The little endian bytes are the bits as they are. *)
Lemma le_bytes N x : length x = N -> N = N / 8 * 8 -> to_le_bytes N x = x /\ exists bs, wide 8 bs /\ length bs = N / 8 /\ array bs = x.
Proof.
  intros L M. unfold to_le_bytes, transmute.
  assert (P := pieces_array 1 8 (N / 8) (map (fun b => [b]) x)). rewrite map_length in P. specialize (P ltac:(lia) (wide_bits x)). destruct P as (A & B & D).
  rewrite array_bools in D.
  replace (chunks_ N 1 8 N x) with (array (map array (pieces (N / 8) 8 (map (fun b => [b]) x)))).
  - rewrite (map_array 8); [|lia|exact A|rewrite map_length; exact B]. rewrite map_id, D. split; [reflexivity|].
    eexists. split; [exact A|]. rewrite map_length. auto.
  - symmetry. pose proof (chunks_array 1 8 ltac:(lia) (N / 8) N (map (fun b => [b]) x)) as CA. rewrite <- M in CA. rewrite array_bools in CA.
    apply CA; [lia|apply wide_bits|rewrite map_length; exact L].
Qed.
Lemma byte_value x i : uval (index 8 x i) = (uval x / 256 ^ Z.of_nat i mod 256)%Z.
Proof.
  unfold index. rewrite uval_firstn, uval_skipn. change (2 ^ Z.of_nat 8)%Z with 256%Z. f_equal. f_equal.
  rewrite Nat2Z.inj_mul, Z.mul_comm, Z.pow_mul_r by lia. reflexivity.
Qed.

(** ** Streams *)
Lemma values_app a b : values_of (a ++ b) = values_of a ++ values_of b.
Proof. apply flat_map_app. Qed.
Lemma firstn_cons_firstn {A} N (v : A) l : firstn N (v :: firstn N l) = firstn N (v :: l).
Proof. destruct N as [|N]; [reflexivity|]. change (v :: firstn N (firstn (S N) l) = v :: firstn N l). rewrite firstn_firstn. replace (Nat.min N (S N)) with N by lia. reflexivity. Qed.
Lemma wide_repeat w d N : length d = w -> wide w (repeat d N).
Proof. intros H. induction N; constructor; auto. Qed.
Lemma wide_rev w xs : wide w xs -> wide w (rev xs).
Proof. intros H. apply Forall_forall. intros x X. rewrite <- in_rev in X. unfold wide in H. rewrite Forall_forall in H. auto. Qed.
Lemma window_main w N d : length d = w -> forall ins before, inputs_wide w (before ++ ins) ->
  window_run w N d (array (firstn N (rev (values_of before) ++ repeat d N))) ins = outputs (window_out N d) before ins.
Proof.
  intros D. induction ins as [|i ins IH]; intros before W; [reflexivity|].
  assert (W' : inputs_wide w ((before ++ [i]) ++ ins)) by (rewrite <- app_assoc; exact W). specialize (IH _ W').
  cbn [window_run outputs]. unfold window_cycle. unfold window_out at 1. rewrite last_last.
  unfold inputs_wide in W. rewrite values_app in W. apply Forall_app in W as [WB WI].
  rewrite values_app in IH |- *. destruct i as [v|]; cbn [values_of flat_map app] in IH, WI |- *.
  - inversion WI as [|? ? V WR]; subst. rewrite shift_front_array with (w := length d) (N := N).
    + rewrite firstn_cons_firstn. rewrite rev_app_distr in IH |- *. cbn [rev app] in IH |- *. rewrite IH. reflexivity.
    + apply wide_firstn, wide_app; [apply wide_rev; exact WB|apply wide_repeat; reflexivity].
    + exact V.
    + rewrite firstn_length, app_length, repeat_length. lia.
  - rewrite app_nil_r in IH. rewrite IH. reflexivity.
Qed.
Lemma mod_last n N : 1 <= N -> (n mod N + 1 =? N) = (S n mod N =? 0).
Proof.
  intros H. pose proof (Nat.mod_upper_bound n N ltac:(lia)) as B.
  destruct (Nat.eqb_spec (n mod N + 1) N) as [E|E].
  - symmetry. apply Nat.eqb_eq. replace (S n) with (0 + (n / N + 1) * N).
    2:{ pose proof (Nat.div_mod n N ltac:(lia)) as M. rewrite Nat.mul_comm in M. remember (n / N) as q. remember (n mod N) as r. clear - M E. nia. }
    rewrite Nat.mod_add by lia. apply Nat.mod_small. lia.
  - symmetry. apply Nat.eqb_neq. replace (S n) with ((n mod N + 1) + n / N * N) by (pose proof (Nat.div_mod n N ltac:(lia)); lia).
    rewrite Nat.mod_add by lia. rewrite (Nat.mod_small (n mod N + 1)) by lia. lia.
Qed.
Lemma mod_next n N : 1 <= N -> (if n mod N + 1 =? N then 0 else (n mod N + 1) mod 2 ^ bits_for N) = S n mod N.
Proof.
  intros H. pose proof (Nat.mod_upper_bound n N ltac:(lia)) as B. rewrite mod_last by exact H.
  destruct (Nat.eqb_spec (S n mod N) 0) as [E|E]; [auto|].
  pose proof (mod_last n N H) as M. destruct (Nat.eqb_spec (n mod N + 1) N); [symmetry in M; apply Nat.eqb_eq in M; lia|].
  assert (N < 2 ^ bits_for N) by (unfold bits_for; destruct N as [|N']; [inversion H|]; apply Nat.log2_spec; apply Nat.lt_0_succ).
  rewrite Nat.mod_small by lia. replace (S n) with ((n mod N + 1) + n / N * N) by (pose proof (Nat.div_mod n N ltac:(lia)); lia).
  rewrite Nat.mod_add by lia. rewrite (Nat.mod_small (n mod N + 1)) by lia. reflexivity.
Qed.
Lemma skipn_S_tl {A} n (l : list A) : skipn (S n) l = skipn 1 (skipn n l).
Proof. revert n. induction l as [|x l IH]; intros [|n]; try reflexivity. cbn [skipn] in *. rewrite <- IH. reflexivity. Qed.
Lemma chunks_main w N vs0 : 1 <= N -> wide w vs0 -> length vs0 = N -> forall ins before, inputs_wide w (before ++ ins) ->
  chunks_run w N (length (values_of before) mod N, array (skipn (length (values_of before)) (vs0 ++ values_of before))) ins = outputs (chunk_out N) before ins.
Proof.
  intros N1 W0 L0. induction ins as [|i ins IH]; intros before W; [reflexivity|].
  assert (W' : inputs_wide w ((before ++ [i]) ++ ins)) by (rewrite <- app_assoc; exact W). specialize (IH _ W').
  cbn [chunks_run outputs]. unfold chunks_cycle. unfold chunk_out at 1. rewrite last_last.
  unfold inputs_wide in W. rewrite values_app in W. apply Forall_app in W as [WB WI].
  rewrite values_app in IH |- *. destruct i as [v|]; cbn [values_of flat_map app] in IH, WI |- *.
  - inversion WI as [|? ? V WR]; subst. set (vb := values_of before) in *. set (n := length vb) in *.
    assert (NX : concat_ (range (length v) (array (skipn n (vs0 ++ vb))) 1 (length vs0)) (array [v]) = array (skipn (S n) (vs0 ++ vb ++ [v]))).
    { rewrite range_array by (apply wide_skipn, wide_app; assumption). rewrite concat_array, <- skipn_S_tl. rewrite firstn_all2 by (rewrite skipn_length, app_length; lia).
      rewrite app_assoc, (skipn_app (S n) (vs0 ++ vb)). replace (S n - length (vs0 ++ vb)) with 0 by (rewrite app_length; unfold n; lia). reflexivity. }
    rewrite NX, mod_next by exact N1. rewrite app_length in IH |- *. cbn [length] in IH |- *. fold n in IH. fold n. replace (n + 1) with (S n) in IH |- * by lia.
    rewrite IH. f_equal. rewrite mod_last by exact N1. destruct (Nat.eqb_spec (S n mod length vs0) 0) as [E|E]; [|reflexivity]. f_equal. f_equal.
    assert (length vs0 <= S n) by (apply Nat.mod_divides in E; [|lia]; destruct E as [c E]; destruct c; lia).
    rewrite (skipn_app (S n) vs0), skipn_all2 by lia. reflexivity.
  - rewrite app_nil_r in IH. rewrite IH. reflexivity.
Qed.
Lemma as_elements w N (x : bits) : length x = N * w -> exists vs, wide w vs /\ length vs = N /\ array vs = x.
Proof.
  intros L. destruct (pieces_array 1 w N (map (fun b => [b]) x)) as (A & B & C); [rewrite map_length; exact L|apply wide_bits|].
  rewrite Nat.mul_1_r in A. rewrite array_bools in C. eexists. split; [exact A|]. rewrite map_length. auto.
Qed.

(** ** More numbers *)
Lemma skipn_skipn' {A} n m (l : list A) : skipn n (skipn m l) = skipn (m + n) l.
Proof. revert l. induction m as [|m IH]; intros l; [reflexivity|]. destruct l; [destruct n; reflexivity|]. cbn. apply IH. Qed.
Lemma nth_firstn_bits (k i : nat) (xs : list bits) : i < k -> nth i (firstn k xs) [] = nth i xs [].
Proof. revert i xs. induction k as [|k IH]; intros i xs H; [lia|]. destruct xs; [reflexivity|]. destruct i; [reflexivity|]. cbn. apply IH. lia. Qed.
Lemma nth_skipn_bits (k i : nat) (xs : list bits) : nth i (skipn k xs) [] = nth (k + i) xs [].
Proof. revert xs. induction k as [|k IH]; intros xs; [reflexivity|]. destruct xs; [destruct i; reflexivity|]. cbn. apply IH. Qed.
Lemma pieces_seq {A} C : forall n (xs : list A), pieces n C xs = map (fun i => firstn C (skipn (i * C) xs)) (seq 0 n).
Proof.
  induction n as [|n IH]; intros xs; [reflexivity|]. cbn [pieces seq map]. cbn [Nat.mul skipn]. f_equal. rewrite IH, <- seq_shift, map_map.
  apply map_ext. intros i. f_equal. rewrite skipn_skipn'. reflexivity.
Qed.
Lemma nth_rev_bits (xs : list bits) i : i < length xs -> nth i (rev xs) [] = nth (length xs - 1 - i) xs [].
Proof. intros H. rewrite rev_nth by exact H. f_equal. lia. Qed.
Lemma be_byte N x i : length x = N -> N = N / 8 * 8 -> i < N / 8 -> index 8 (to_be_bytes N x) i = index 8 x (N / 8 - 1 - i).
Proof.
  intros L M I. unfold to_be_bytes. destruct (le_bytes N x L M) as (E & bs & W & LB & A). rewrite E, <- A.
  rewrite (reversed_array 8) by (auto; lia). rewrite (index_array 8), (index_array 8); [|exact W|lia|apply wide_rev; exact W|rewrite rev_length; lia].
  rewrite nth_rev_bits by lia. rewrite LB. reflexivity.
Qed.
Lemma german_byte N x i : length x = N -> N = N / 8 * 8 -> i < N / 8 -> 16 < N ->
  index 8 (to_german_endian_bytes N x) i = index 8 x (if i <? N / 8 - 2 then N / 8 - 1 - i else i + 2 - N / 8).
Proof.
  intros L M I N16. unfold to_german_endian_bytes. destruct (Nat.leb_spec N 16); [lia|]. assert (D : 3 <= N / 8) by lia.
  unfold to_be_bytes. destruct (le_bytes N x L M) as (E & bs & W & LB & A). rewrite E, <- A. set (k := N / 8) in *.
  rewrite (reversed_array 8) by (auto; lia). assert (WR := wide_rev 8 bs W). assert (LR : length (rev bs) = k) by (rewrite rev_length; lia).
  rewrite !(range_array 8) by exact WR. replace (k - (k - 2)) with 2 by lia. rewrite Nat.sub_0_r. cbn [skipn].
  rewrite (firstn_all2 (skipn (k - 2) (rev bs))) by (rewrite skipn_length; lia).
  rewrite (reversed_array 8); [|lia|apply wide_skipn; exact WR|rewrite skipn_length; lia]. rewrite concat_array.
  rewrite (index_array 8); [| |rewrite app_length, rev_length, firstn_length, skipn_length; lia].
  2:{ apply wide_app; [apply wide_firstn; exact WR|apply wide_rev, wide_skipn; exact WR]. }
  rewrite (index_array 8); [|exact W|destruct (Nat.ltb_spec i (k - 2)); lia].
  destruct (Nat.ltb_spec i (k - 2)).
  - rewrite app_nth1 by (rewrite firstn_length; lia). rewrite <- (firstn_skipn (k - 2) (rev bs)) in LR.
    rewrite nth_firstn_bits by lia. rewrite nth_rev_bits by lia. f_equal. lia.
  - rewrite app_nth2 by (rewrite firstn_length; lia). rewrite firstn_length, LR. rewrite nth_rev_bits by (rewrite skipn_length; lia).
    rewrite skipn_length, LR, nth_skipn_bits. rewrite nth_rev_bits by lia. f_equal. lia.
Qed.
Lemma interleave_bits N x y : length x = N -> length y = N -> forall k, k < N ->
  nth (2 * k) (uinterleave N x y) false = nth k x false /\ nth (2 * k + 1) (uinterleave N x y) false = nth k y false.
Proof.
  intros LX LY. unfold uinterleave, transmute.
  assert (E : interleave_ 1 N x y = flat_map (fun p => [fst p; snd p]) (combine x y)).
  { rewrite (split_bits x) at 1. rewrite (split_bits y) at 1.
    rewrite (interleave_array 1) by (try apply wide_bits; rewrite map_length; assumption). clear. revert y. induction x as [|b x IH]; intros [|c y]; try reflexivity.
    cbn in *. rewrite <- IH. reflexivity. }
  rewrite E. clear E. revert x y LX LY. induction N as [|N IH]; intros [|b x] [|c y] LX LY k K; cbn in LX, LY; try lia.
  destruct k as [|k]; [cbn; auto|]. destruct (IH x y ltac:(lia) ltac:(lia) k ltac:(lia)) as [A B].
  replace (2 * S k) with (S (S (2 * k))) by lia. replace (S (S (2 * k)) + 1) with (S (S (2 * k + 1))) by lia.
  cbn [combine flat_map app nth fst snd]. auto.
Qed.
Lemma interleave_length N x y : length x = N -> length y = N -> length (uinterleave N x y) = 2 * N.
Proof.
  intros LX LY. unfold uinterleave, transmute. rewrite (split_bits x), (split_bits y) at 1.
  rewrite (interleave_array 1) by (try apply wide_bits; rewrite map_length; assumption).
  subst N. revert y LY. induction x as [|b x IH]; intros [|c y] LY; try discriminate; [reflexivity|]. cbn in *. rewrite IH by lia. lia.
Qed.
