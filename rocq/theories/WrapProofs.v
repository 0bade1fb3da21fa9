(** Proofs for C67. *)
From Coq Require Import List NArith Arith Bool String Lia.
Import ListNotations.
Open Scope nat_scope. Open Scope list_scope.
From Verif Require Import WrapModel WrapSpec.
Notation len := (@List.length _).

Lemma pow32 : (2 ^ 32 <> 0)%N. Proof. discriminate. Qed.
(** ** Bits of words *)
Lemma bits_low : forall x m i, (x < 2 ^ 32)%N -> i < 32 -> N.testbit (x + 2 ^ 32 * m) (N.of_nat i) = N.testbit x (N.of_nat i).
Proof.
  intros x m i H L. rewrite <- (N.mod_pow2_bits_low (x + 2 ^ 32 * m) 32) by lia. rewrite (N.mul_comm (2 ^ 32)), N.mod_add by exact pow32. rewrite N.mod_small by exact H. reflexivity.
Qed.
Lemma bits_high : forall x m i, (x < 2 ^ 32)%N -> N.testbit (x + 2 ^ 32 * m) (N.of_nat (32 + i)) = N.testbit m (N.of_nat i).
Proof.
  intros x m i H. replace (N.of_nat (32 + i)) with (N.of_nat i + 32)%N by lia. rewrite <- N.div_pow2_bits.
  rewrite (N.mul_comm (2 ^ 32)), N.div_add by exact pow32. rewrite N.div_small by exact H. reflexivity.
Qed.
Lemma bits_word : forall l k i x, (forall x, In x l -> (x < 2 ^ 32)%N) -> nth_error l k = Some x -> i < 32 ->
  N.testbit (little_endian l) (N.of_nat (32 * k + i)) = N.testbit x (N.of_nat i).
Proof.
  induction l as [|y l IH]; intros k i x H E L; [destruct k; discriminate|]. destruct k as [|k]; cbn [little_endian nth_error] in *.
  - injection E as ->. replace (32 * 0 + i) with i by lia. apply bits_low; [apply H; left; reflexivity|exact L].
  - replace (32 * S k + i) with (32 + (32 * k + i)) by lia. rewrite bits_high by (apply H; left; reflexivity). apply IH; [intros; apply H; right; assumption|exact E|exact L].
Qed.
(** ** Strings of bits *)
Definition low (n : N) (a k : nat) : list bool := map (fun i => N.testbit n (N.of_nat i)) (rev (seq a k)).
Lemma low_split : forall n a b, low n 0 (b + a) = low n b a ++ low n 0 b.
Proof. intros n a b. unfold low. rewrite seq_app, rev_app_distr, map_app. reflexivity. Qed.
Lemma seq_shift_by : forall a z, map (fun i => z + i) (seq 0 a) = seq z a.
Proof.
  assert (G : forall a z y, map (fun i => z + i) (seq y a) = seq (z + y) a).
  { induction a as [|a IH]; intros z y; [reflexivity|]. cbn [seq map]. f_equal. rewrite IH. f_equal. lia. }
  intros a z. rewrite G. f_equal. lia.
Qed.
Lemma low_word : forall l k a x, (forall x, In x l -> (x < 2 ^ 32)%N) -> nth_error l k = Some x -> a <= 32 -> low (little_endian l) (32 * k) a = bitset a x.
Proof.
  intros l k a x H E L. unfold low, bitset. rewrite !map_rev. f_equal.
  replace (seq (32 * k) a) with (map (fun i => 32 * k + i) (seq 0 a)).
  - rewrite map_map. apply map_ext_in. intros i Hi. apply in_seq in Hi. apply bits_word; [exact H|exact E|lia].
  - apply seq_shift_by.
Qed.
Lemma low_written : forall n w, written w n (low n 0 w).
Proof.
  intros n w. unfold written, low. split; [rewrite map_length, rev_length, seq_length; reflexivity|]. intros i L.
  rewrite nth_error_map, (nth_error_nth' _ 0) by (rewrite rev_length, seq_length; exact L). cbn. rewrite rev_nth by (rewrite seq_length; exact L).
  rewrite seq_length, seq_nth by lia. f_equal. f_equal. lia.
Qed.
Lemma run_output_app : forall a b p, run_output (a ++ b) p = match run_output a p, run_output b p with Some x, Some y => Some (x ++ y) | _, _ => None end.
Proof.
  induction a as [|c a IH]; intros b p; cbn [app run_output]; [destruct (run_output b p); reflexivity|]. rewrite IH.
  destruct (run_bitset c p); [|reflexivity]. destruct (run_output a p); [|reflexivity]. destruct (run_output b p); [rewrite app_assoc|]; reflexivity.
Qed.
Lemma full_words : forall l k, (forall x, In x l -> (x < 2 ^ 32)%N) -> k <= len l -> run_output (map (fun i => (32, Some i)) (rev (seq 0 k))) (Words l) = Some (low (little_endian l) 0 (32 * k)).
Proof.
  intros l k H. induction k as [|k IH]; intros L; [reflexivity|]. rewrite seq_S, rev_app_distr. cbn [rev app map run_output run_bitset snd fst Nat.add].
  destruct (nth_error l k) as [x|] eqn:E; [|apply nth_error_None in E; lia]. rewrite IH by lia. replace (32 * S k) with (32 * k + 32) by lia. rewrite low_split.
  rewrite (low_word l k 32 x H E) by lia. reflexivity.
Qed.
Lemma output_exact : forall w p, 0 < w -> shape w p -> exists s, output_string w p = Some s /\ written w (number p) s.
Proof.
  intros w p L H. exists (low (number p) 0 w). split; [|apply low_written]. unfold output_string, output_code. destruct (Nat.eqb_spec w 0) as [E|_]; [lia|]. destruct p as [n|l].
  - cbn in H. apply Nat.leb_le in H. rewrite H. cbn. unfold bitset, low. rewrite app_nil_r. reflexivity.
  - destruct H as (H1 & H2 & H3). destruct (Nat.leb_spec w 64) as [|_]; [lia|]. pose proof (Nat.div_mod w 32 ltac:(lia)) as D. pose proof (Nat.mod_upper_bound w 32 ltac:(lia)) as M.
    rewrite run_output_app, (full_words l) by (exact H3 || lia). cbn [number]. destruct (Nat.eqb_spec (w mod 32) 0) as [E|E]; cbn [negb run_output].
    + cbn [app]. f_equal. f_equal. lia.
    + cbn [run_bitset snd fst]. destruct (nth_error l (w / 32)) as [x|] eqn:Ex; [|apply nth_error_None in Ex; lia]. rewrite app_nil_r. f_equal.
      pose proof (low_split (little_endian l) (w mod 32) (32 * (w / 32))) as Sp. rewrite <- D in Sp. rewrite Sp. f_equal. symmetry. apply low_word; [exact H3|exact Ex|lia].
Qed.
(** ** Words of numbers *)
Lemma digits_number : forall fuel n, (n < 2 ^ N.of_nat fuel)%N -> little_endian (u32_digits fuel n) = n.
Proof.
  induction fuel as [|fuel IH]; intros n H; [cbn in *; lia|]. cbn [u32_digits]. destruct (N.eqb_spec n 0) as [->|N0]; [reflexivity|]. cbn [little_endian]. rewrite IH.
  - rewrite N.add_comm, <- N.div_mod by exact pow32. reflexivity.
  - apply N.div_lt_upper_bound; [exact pow32|]. rewrite <- N.pow_add_r. eapply N.lt_le_trans; [exact H|]. apply N.pow_le_mono_r; lia.
Qed.
Lemma digits_small : forall fuel n x, In x (u32_digits fuel n) -> (x < 2 ^ 32)%N.
Proof.
  induction fuel as [|fuel IH]; intros n x H; [destruct H|]. cbn [u32_digits] in H. destruct (n =? 0)%N; [destruct H|]. destruct H as [<-|H]; [apply N.mod_lt; exact pow32|eapply IH; exact H].
Qed.
Lemma digits_len : forall fuel n k, (n < 2 ^ N.of_nat (32 * k))%N -> len (u32_digits fuel n) <= k.
Proof.
  induction fuel as [|fuel IH]; intros n k H; [cbn; lia|]. cbn [u32_digits]. destruct (N.eqb_spec n 0) as [->|N0]; [cbn; lia|]. destruct k as [|k]; [cbn in H; lia|].
  cbn [List.length]. apply le_n_S. apply IH. apply N.div_lt_upper_bound; [exact pow32|]. rewrite <- N.pow_add_r. replace (32 + N.of_nat (32 * k))%N with (N.of_nat (32 * S k)) by lia. exact H.
Qed.
Lemma zeros_number : forall l k, little_endian (l ++ repeat 0%N k) = little_endian l.
Proof. induction l as [|x l IH]; intros k; cbn [app little_endian]; [induction k as [|k IHk]; [reflexivity|]; cbn [repeat little_endian]; rewrite IHk; reflexivity|rewrite IH; reflexivity]. Qed.
Lemma count_bounds : forall w, 0 < w -> 32 * (word_count w - 1) < w <= 32 * word_count w.
Proof. intros w L. unfold word_count. pose proof (Nat.div_mod (w + 31) 32 ltac:(lia)) as D. pose proof (Nat.mod_upper_bound (w + 31) 32 ltac:(lia)). lia. Qed.
Lemma chunks_exact : forall w n, 0 < w -> (n < 2 ^ N.of_nat w)%N -> exists s, as_u32_chunks w n = Some s /\ len s = word_count w /\ little_endian s = n /\ forall x, In x s -> (x < 2 ^ 32)%N.
Proof.
  intros w n L H. unfold as_u32_chunks. assert (D : len (to_u32_digits n) <= word_count w).
  { apply digits_len. eapply N.lt_le_trans; [exact H|]. apply N.pow_le_mono_r; [lia|]. pose proof (count_bounds w L). lia. }
  apply Nat.leb_le in D. rewrite D. apply Nat.leb_le in D. eexists. split; [reflexivity|]. split; [rewrite app_length, repeat_length; lia|]. split.
  - rewrite zeros_number. apply digits_number. rewrite N2Nat.id. apply N.size_gt.
  - intros x Hx. apply in_app_or in Hx. destruct Hx as [Hx|Hx]; [eapply digits_small; exact Hx|]. apply repeat_spec in Hx. subst. reflexivity.
Qed.
(** ** Assignments *)
Lemma put_exact : forall l i x, i < len l -> put l i x = Some (firstn i l ++ x :: skipn (S i) l).
Proof. induction l as [|y l IH]; intros i x L; [cbn in L; lia|]. destruct i as [|i]; [reflexivity|]. cbn [put]. rewrite IH by (cbn in L; lia). reflexivity. Qed.
Lemma skip_one : forall j (l : list N), skipn 1 (skipn j l) = skipn (S j) l.
Proof. induction j as [|j IH]; intros [|y l]; try reflexivity. exact (IH l). Qed.
Lemma put_all : forall w n s l k, as_u32_chunks w n = Some s -> len l = len s -> forall j, j + k <= len s ->
  run_input w n (map Word (seq j k)) (Words (firstn j s ++ skipn j l)) = Some (Words (firstn (j + k) s ++ skipn (j + k) l)).
Proof.
  intros w n s l k C El. induction k as [|k IH]; intros j L; [rewrite Nat.add_0_r; reflexivity|]. cbn [seq map run_input run_assignment]. rewrite C.
  destruct (nth_error s j) as [x|] eqn:E; [|apply nth_error_None in E; lia]. rewrite put_exact by (rewrite app_length, firstn_length, skipn_length; lia).
  assert (X : firstn j (firstn j s ++ skipn j l) ++ x :: skipn (S j) (firstn j s ++ skipn j l) = firstn (S j) s ++ skipn (S j) l).
  { assert (Lj : len (firstn j s) = j) by (rewrite firstn_length; lia). rewrite firstn_app, Lj, Nat.sub_diag, firstn_O, app_nil_r, firstn_firstn, Nat.min_id.
    rewrite skipn_app, Lj. rewrite (skipn_all2 (firstn j s)) by lia. replace (S j - j) with 1 by lia. cbn [app].
    assert (Y : firstn (S j) s = firstn j s ++ [x]).
    { clear -E. revert s E. induction j as [|j IHj]; intros [|y s] E; try discriminate; cbn in *; [injection E as ->; reflexivity|]. rewrite (IHj s E). reflexivity. }
    rewrite Y, <- app_assoc. cbn [app]. do 2 f_equal. apply skip_one. }
  rewrite X. rewrite IH by lia. replace (S j + k) with (j + S k) by lia. reflexivity.
Qed.
Lemma shape_words : forall w l, shape w (Words l) -> len l = word_count w.
Proof. intros w l (H1 & H2 & _). pose proof (count_bounds w ltac:(lia)). lia. Qed.
Lemma code_all : forall w, 64 < w -> input_code w = map Word (seq 0 (word_count w)).
Proof.
  intros w L. unfold input_code. destruct (Nat.eqb_spec w 0) as [|_]; [lia|]. destruct (Nat.leb_spec w 64) as [|_]; [lia|].
  pose proof (Nat.div_mod w 32 ltac:(lia)) as D. pose proof (Nat.mod_upper_bound w 32 ltac:(lia)) as M. pose proof (count_bounds w ltac:(lia)) as B.
  destruct (Nat.eqb_spec (w mod 32) 0) as [E|E]; cbn [negb].
  - rewrite app_nil_r. f_equal. f_equal. lia.
  - replace (word_count w) with (S (w / 32)) by lia. rewrite seq_S, map_app. reflexivity.
Qed.
Lemma input_exact : forall w n p, 0 < w -> (n < 2 ^ N.of_nat w)%N -> shape w p -> exists q, set_input w n p = Some q /\ shape w q /\ number q = n.
Proof.
  intros w n p L H S. destruct p as [m|l].
  - exists (Scalar n). cbn in S. split; [|split; [exact S|reflexivity]]. unfold set_input, input_code. destruct (Nat.eqb_spec w 0) as [|_]; [lia|]. apply Nat.leb_le in S. rewrite S. apply Nat.leb_le in S.
    cbn [run_input run_assignment]. assert (X : (n < 2 ^ 64)%N) by (eapply N.lt_le_trans; [exact H|apply N.pow_le_mono_r; lia]). apply N.ltb_lt in X. rewrite X. reflexivity.
  - pose proof (shape_words w l S) as E. destruct (chunks_exact w n L H) as (s & C & Ls & Ns & Hs). exists (Words s). destruct S as (H1 & H2 & H3). split; [|split; [|exact Ns]].
    + unfold set_input. rewrite code_all by exact H1. pose proof (put_all w n s l (word_count w) C ltac:(lia) 0 ltac:(lia)) as P. cbn [firstn skipn app Nat.add] in P. rewrite P.
      rewrite firstn_all2, skipn_all2 by lia. rewrite app_nil_r. reflexivity.
    + cbn. rewrite Ls, <- E. auto.
Qed.
(** ** Classes *)
Lemma reaches_more : forall a b c k p d, reaches b k p d -> reaches (a ++ b ++ c) k p d.
Proof. intros a b c k p d H. induction H as [d H|e n k p d H M R IH]; [constructor|econstructor; [|exact M|exact IH]]; (apply in_or_app; right; apply in_or_app; left; exact H). Qed.
Lemma size_in : forall l n t, In (n, t) l -> (size t <= size (Struct l))%N.
Proof. induction l as [|[m u] l IH]; intros n t H; [destruct H|]. cbn [size fold_right snd]. destruct H as [E|H]; [injection E as -> ->; lia|]. apply IH in H. cbn [size] in H. lia. Qed.
Lemma fields_reached : forall t p u, field t p u -> size u <> 0%N -> size t <> 0%N /\ forall q cls, exists d, reaches (output_wrappers q cls t) cls p d /\ path d = q ++ p.
Proof.
  intros t p u H. induction H as [t|l n t p u Hi Hf IH]; intros N.
  - split; [exact N|]. intros q cls. destruct t as [m|l]; cbn [output_wrappers]; (destruct (N.eqb_spec (size (Other m)) 0) || destruct (N.eqb_spec (size (Struct l)) 0)); try congruence.
    + exists (Class cls q []). split; [apply (r_here _ (Class cls q [])); left; reflexivity|cbn; rewrite app_nil_r; reflexivity].
    + eexists (Class cls q _). split; [apply (r_here _ (Class cls q _)); apply in_or_app; right; left; reflexivity|cbn; rewrite app_nil_r; reflexivity].
  - destruct (IH N) as [Nt IH']. pose proof (size_in l n t Hi) as Ls. assert (Nl : size (Struct l) <> 0%N) by lia. split; [exact Nl|]. intros q cls.
    destruct (IH' (q ++ [n]) (cls ++ "_" ++ n)%string) as (d & R & P). exists d. split; [|rewrite P, <- app_assoc; reflexivity].
    cbn [output_wrappers]. destruct (N.eqb_spec (size (Struct l)) 0); [congruence|].
    set (me := Class cls q (map (fun f => (fst f, (cls ++ "_" ++ fst f)%string)) l)).
    apply (r_in _ me n (cls ++ "_" ++ n)%string p d); [apply in_or_app; right; left; reflexivity|cbn; apply (in_map (fun f : string * ty => (fst f, (cls ++ "_" ++ fst f)%string)) l (n, t) Hi)|].
    clearbody me. clear -Hi R. assert (G : forall l, In (n, t) l -> exists a b, (fix go (l : list (string * ty)) : list class := match l with [] => [] | (n, t) :: l => output_wrappers (q ++ [n]) (cls ++ "_" ++ n)%string t ++ go l end) l = a ++ output_wrappers (q ++ [n]) (cls ++ "_" ++ n)%string t ++ b).
    { clear. induction l as [|[m u] l IH]; intros H; [destruct H|]. destruct H as [E|H]; [injection E as -> ->; exists []; eexists; reflexivity|].
      destruct (IH H) as (a & b & ->). exists (output_wrappers (q ++ [m]) (cls ++ "_" ++ m)%string u ++ a), b. rewrite <- app_assoc. reflexivity. }
    destruct (G l Hi) as (a & b & ->). rewrite <- !app_assoc. apply reaches_more. exact R.
Qed.
Lemma ty_ind2 (P : ty -> Prop) (H1 : forall n, P (Other n)) (H2 : forall l, Forall (fun f => P (snd f)) l -> P (Struct l)) : forall t, P t.
Proof. fix IH 1. intros [n|l]; [apply H1|]. apply H2. induction l as [|[n t] l IHl]; constructor; [apply IH|exact IHl]. Qed.
Lemma declared : forall t, (forall p u, field t p u -> size u <> 0%N) -> forall q cls c n k, In c (output_wrappers q cls t) -> In (n, k) (members c) -> exists d, In d (output_wrappers q cls t) /\ name d = k.
Proof.
  induction t as [m|l IH] using ty_ind2; intros V q cls c n k Hc Hm.
  - cbn [output_wrappers] in Hc. destruct (size (Other m) =? 0)%N; [destruct Hc|]. destruct Hc as [<-|[]]. destruct Hm.
  - cbn [output_wrappers] in *. destruct (N.eqb_spec (size (Struct l)) 0) as [|_]; [destruct Hc|].
    set (go := fix go (l : list (string * ty)) : list class := match l with [] => [] | (n, t) :: l => output_wrappers (q ++ [n]) (cls ++ "_" ++ n)%string t ++ go l end) in *.
    assert (G : forall m u, In (m, u) l -> incl (output_wrappers (q ++ [m]) (cls ++ "_" ++ m)%string u) (go l)).
    { clear. induction l as [|[x y] l IH]; intros m u H; [destruct H|]. destruct H as [E|H]; [injection E as -> ->; apply incl_appl; apply incl_refl|apply incl_appr; apply IH; exact H]. }
    assert (G' : In c (go l) -> exists m u, In (m, u) l /\ In c (output_wrappers (q ++ [m]) (cls ++ "_" ++ m)%string u)).
    { clear. induction l as [|[x y] l IH]; intros H; [destruct H|]. cbn [go] in H. apply in_app_or in H. destruct H as [H|H]; [exists x, y; split; [left; reflexivity|exact H]|].
      destruct (IH H) as (m & u & Hi & Hu). exists m, u. split; [right; exact Hi|exact Hu]. }
    apply in_app_or in Hc. destruct Hc as [Hc|[<-|[]]].
    + destruct (G' Hc) as (m & u & Hi & Hu). pose proof (proj1 (Forall_forall _ _) IH (m, u) Hi) as IHu. cbn [snd] in IHu.
      destruct (IHu ltac:(intros p v F; apply (V (m :: p)); econstructor; eassumption) _ _ _ _ _ Hu Hm) as (d & Hd & E). exists d. split; [apply in_or_app; left; exact (G m u Hi d Hd)|exact E].
    + cbn [members] in Hm. apply in_map_iff in Hm. destruct Hm as ([m u] & E & Hi). cbn [fst] in E. injection E as <- <-.
      assert (Nu : size u <> 0%N) by (apply (V [m]); econstructor; [exact Hi|constructor]).
      destruct (proj2 (fields_reached u [] u (f_here u) Nu) (q ++ [m]) (cls ++ "_" ++ m)%string) as (d & R & _). inversion R; subst.
      exists d. split; [apply in_or_app; left; apply (G m u Hi); assumption|reflexivity || congruence].
Qed.
