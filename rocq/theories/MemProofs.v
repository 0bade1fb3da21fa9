From Coq Require Import List ZArith Lia Bool Arith.
From Verif Require Import Bits BitsFacts Verilog CodegenModel CodegenSpec CgLayout CgArith MemModel MemSpec.
Import ListNotations.

Definition port_bits (addr_w : nat) (p : port) : bits :=
  data p ++ of_Z addr_w (Z.of_nat (address p)) ++ [bit_of_bool (enable p)].

Lemma builds_ports_value aw t ps w : builds_ports aw t ps w ->
  w = concat (map (port_bits aw) ps) /\ Forall (fun p => address p < 2 ^ aw /\ has_width t (data p)) ps.
Proof.
  intros (tuples & HF & Hw).
  assert (E : tuples = map (port_bits aw) ps).
  { clear Hw. induction HF as [|p v ps vs (Ha & Hd & Hv) HF IH]; [reflexivity|]. cbn [map]. f_equal; [|exact IH].
    unfold port_type in Hv. rewrite construct_tuple_value in Hv.
    - apply Some_inj in Hv. subst v. unfold port_bits. reflexivity.
    - repeat constructor; [cbn; apply length_of_Z|exact Hd]. }
  subst tuples. split.
  - rewrite <- (map_length (port_bits aw) ps) in Hw. rewrite construct_array_value in Hw.
    + now apply Some_inj in Hw.
    + apply Forall_forall. intros v Hv. apply in_map_iff in Hv. destruct Hv as (p & <- & Hp).
      apply In_nth_error in Hp. destruct Hp as (i & Hi).
      destruct (Forall2_nth_error _ _ _ _ _ HF Hi) as (v & _ & _ & Hd & _).
      unfold has_width, port_bits, port_type in *. rewrite !app_length, length_of_Z, Hd. cbn. lia.
  - clear Hw. rewrite Forall_forall. intros p Hp. apply In_nth_error in Hp. destruct Hp as (i & Hi).
    destruct (Forall2_nth_error _ _ _ _ _ HF Hi) as (v & _ & Ha & Hd & _). now split.
Qed.

Lemma length_port_bits aw iw p : length (data p) = iw -> length (port_bits aw p) = full_port_width aw iw.
Proof. intros H. unfold port_bits, full_port_width. rewrite !app_length, length_of_Z, H. cbn. lia. Qed.

Lemma port_split aw iw ps i p :
  Forall (fun p => length (data p) = iw) ps -> nth_error ps i = Some p ->
  exists A C, concat (map (port_bits aw) ps) = A ++ port_bits aw p ++ C /\ length A = full_port_width aw iw * i.
Proof.
  intros HF Hi. pose proof (nth_error_split_at ps i p Hi) as E.
  exists (concat (map (port_bits aw) (firstn i ps))), (concat (map (port_bits aw) (skipn (S i) ps))). split.
  - rewrite E at 1. now rewrite map_app, concat_app.
  - rewrite (length_concat_uniform _ (full_port_width aw iw)).
    + rewrite map_length, firstn_length. f_equal. pose proof (proj1 (nth_error_Some ps i)). rewrite Hi in H.
      specialize (H ltac:(discriminate)). lia.
    + apply Forall_forall. intros v Hv. apply in_map_iff in Hv. destruct Hv as (q & <- & Hq).
      apply length_port_bits. rewrite Forall_forall in HF. apply HF.
      rewrite <- (firstn_skipn i ps). apply in_or_app. now left.
Qed.

Lemma self_value_bitc r x i : self_value r (VBitC x i) = slice (r x) i 1.
Proof. unfold self_value. cbn [width eval]. apply resize_id. apply length_slice. Qed.
Lemma self_value_range r x hi lo : self_value r (VRange x hi lo) = slice (r x) lo (hi + 1 - lo).
Proof. unfold self_value. cbn [width eval]. apply resize_id. apply length_slice. Qed.

Lemma slice_at A B C n m : n = length A -> m = length B -> slice (A ++ B ++ C) n m = B.
Proof. intros -> ->. apply slice_app_mid. Qed.

Lemma port_write_value aw iw ps i p : 0 < aw -> 0 < iw ->
  Forall (fun p => length (data p) = iw /\ address p < 2 ^ aw) ps -> nth_error ps i = Some p ->
  port_write aw iw (concat (map (port_bits aw) ps)) i =
  if enable p then Some (Z.of_nat (address p), data p) else None.
Proof.
  intros Haw Hiw HF Hi.
  assert (HF' : Forall (fun p => length (data p) = iw) ps) by (eapply Forall_impl; [|exact HF]; now intros ? []).
  destruct (port_split aw iw ps i p HF' Hi) as (A & C & E & HA).
  assert (Hp : length (data p) = iw /\ address p < 2 ^ aw).
  { rewrite Forall_forall in HF. apply HF. eapply nth_error_In; eassumption. }
  destruct Hp as [Hd Ha]. unfold port_write. set (r := operand_env _).
  assert (Ew : r (Fwd 1) = A ++ data p ++ of_Z aw (Z.of_nat (address p)) ++ [bit_of_bool (enable p)] ++ C).
  { cbn. rewrite E. unfold port_bits. now rewrite <- !app_assoc. }
  assert (S1 : self_value r (we_code aw iw i) = [bit_of_bool (enable p)]).
  { unfold we_code. rewrite self_value_bitc, Ew. rewrite (app_assoc A), (app_assoc (A ++ _)).
    apply slice_at; [|reflexivity]. rewrite !app_length, length_of_Z, HA, Hd. unfold full_port_width. lia. }
  assert (S2 : self_value r (addr_code aw iw i) = of_Z aw (Z.of_nat (address p))).
  { unfold addr_code. destruct (Nat.eqb_spec aw 1) as [->|_].
    - rewrite self_value_bitc, Ew, (app_assoc A). apply slice_at; [|reflexivity].
      rewrite !app_length, HA, Hd. lia.
    - rewrite self_value_range, Ew, (app_assoc A). apply slice_at.
      + rewrite !app_length, HA, Hd. lia.
      + rewrite length_of_Z. lia. }
  assert (S3 : assign_val r iw (value_code aw iw i) = data p).
  { unfold value_code. destruct (Nat.eqb_spec iw 1) as [E1|_].
    - subst iw. rewrite E1, assign_bit_const, Ew in *. apply slice_at; lia.
    - rewrite assign_range by lia. rewrite Ew. apply slice_at; lia. }
  rewrite S1, S2, S3. rewrite uval_of_Z_small.
  2:{ split; [lia|]. apply inj_lt in Ha. rewrite Nat2Z.inj_pow in Ha. exact Ha. }
  destruct (enable p); reflexivity.
Qed.

Lemma edge_prefix depth aw iw ps : 0 < aw -> 0 < iw ->
  Forall (fun p => length (data p) = iw /\ address p < 2 ^ aw) ps ->
  forall m, clock_edge depth aw iw (length ps) (concat (map (port_bits aw) ps)) m =
  fold_left (fun m p => if enable p && (address p <? depth) then mem_set m (address p) (data p) else m) ps m.
Proof.
  intros Haw Hiw HF m. unfold clock_edge.
  set (w := concat (map (port_bits aw) ps)).
  assert (G : forall l k m, (forall j p, nth_error l j = Some p -> nth_error ps (k + j) = Some p) ->
     fold_left (fun m port => match port_write aw iw w port with
       | Some (a, v) => if (a <? Z.of_nat depth)%Z then mem_set m (Z.to_nat a) v else m
       | None => m end) (seq k (length l)) m =
     fold_left (fun m p => if enable p && (address p <? depth) then mem_set m (address p) (data p) else m) l m).
  { induction l as [|p l IH]; intros k m0 Hl; [reflexivity|].
    cbn [length seq fold_left].
    pose proof (Hl 0 p eq_refl) as Hp. rewrite Nat.add_0_r in Hp.
    unfold w at 2. rewrite (port_write_value aw iw ps k p Haw Hiw HF Hp).
    rewrite IH.
    - f_equal. destruct (enable p); [|reflexivity]. cbn [andb].
      destruct (Z.ltb_spec (Z.of_nat (address p)) (Z.of_nat depth)), (Nat.ltb_spec (address p) depth); try lia;
        now rewrite ?Nat2Z.id.
    - intros j q Hq. rewrite <- (Hl (S j) q Hq). f_equal. lia. }
  apply (G ps 0 m). intros j p H. exact H.
Qed.

Lemma fold_ports depth ps a : forall m,
  let m' := fold_left (fun m p => if enable p && (address p <? depth) then mem_set m (address p) (data p) else m) ps m in
  (Forall (fun p => ~ writes p a) ps -> m' a = m a) /\
  (forall v, a < depth -> last_write ps a v -> m' a = v).
Proof.
  induction ps as [|p ps IH]; intros m; cbn [fold_left].
  - split; [reflexivity|]. intros v _ (l & q & h & E & _). destruct l; discriminate.
  - specialize (IH (if enable p && (address p <? depth) then mem_set m (address p) (data p) else m)).
    cbv zeta in IH. destruct IH as [IH1 IH2]. split.
    + intros H. inversion H; subst. rewrite IH1 by assumption.
      destruct (enable p) eqn:Ee; [|reflexivity]. cbn [andb].
      destruct (address p <? depth); [|reflexivity]. unfold mem_set.
      destruct (Nat.eqb_spec a (address p)); [|reflexivity]. exfalso. apply H2. split; congruence.
    + intros v Ha (l & q & h & E & Hq & Hv & Hh). destruct l as [|x l].
      * cbn in E. injection E as <- <-. rewrite IH1 by exact Hh.
        destruct Hq as [Hq1 Hq2]. rewrite Hq1. cbn [andb]. destruct (Nat.ltb_spec (address p) depth); [|lia].
        unfold mem_set. rewrite Hq2, Nat.eqb_refl. exact Hv.
      * cbn in E. injection E as <- ->. apply IH2; [exact Ha|]. exists l, q, h. auto.
Qed.

Lemma edge_spec depth aw t ps w m a : 0 < aw -> 0 < size t -> builds_ports aw t ps w ->
  let m' := clock_edge depth aw (size t) (length ps) w m in
  (Forall (fun p => ~ writes p a) ps -> m' a = m a) /\
  (forall v, a < depth -> last_write ps a v -> m' a = v).
Proof.
  intros Haw Hiw Hb. apply builds_ports_value in Hb. destruct Hb as [-> HF].
  rewrite edge_prefix; [apply fold_ports|assumption|assumption|].
  eapply Forall_impl; [|exact HF]. cbn. intros p [H1 H2]. now split.
Qed.

Lemma history_spec depth aw t n (hist : list (list port)) ws m a :
  0 < aw -> 0 < size t -> Forall2 (fun ps w => length ps = n /\ builds_ports aw t ps w) hist ws ->
  let m' := run_memory depth aw (size t) n ws m in
  (Forall (Forall (fun p => ~ writes p a)) hist -> m' a = m a) /\
  (forall before ps after v, hist = before ++ ps :: after -> a < depth -> last_write ps a v ->
     Forall (Forall (fun p => ~ writes p a)) after -> m' a = v).
Proof.
  intros Haw Hiw HF. unfold run_memory. revert m. induction HF as [|ps w hist ws (Hn & Hb) HF IH]; intros m.
  - split; [reflexivity|]. intros b ps af v E. destruct b; discriminate.
  - cbn [fold_left].
    pose proof (edge_spec depth aw t ps w m a Haw Hiw Hb) as Hed. rewrite Hn in Hed. cbv zeta in Hed.
    specialize (IH (clock_edge depth aw (size t) n w m)). cbv zeta in IH.
    destruct IH as [IH1 IH2], Hed as [E1 E2]. split.
    + intros H. inversion H; subst. rewrite IH1, E1; auto.
    + intros b ps' af v E Ha Hl Haf. destruct b as [|x b]; cbn in E.
      * injection E as -> ->. rewrite IH1 by exact Haf. now apply E2.
      * injection E as -> ->. eapply IH2; eauto.
Qed.
