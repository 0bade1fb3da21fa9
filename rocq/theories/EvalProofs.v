(** Proofs about compile-time evaluation (C35). *)
From Coq Require Import List ZArith Lia Bool Arith ZifyBool.
From Verif Require Import Bits BitsFacts Verilog CodegenModel CodegenSpec CgLayout CgArith
  EvalModel EvalSpec.
Import ListNotations.

(** ** Digits *)
Lemma pos_digits_bounds p :
  (2 ^ (Z.of_nat (length (pos_digits p)) - 1) <= Zpos p < 2 ^ Z.of_nat (length (pos_digits p)))%Z
  /\ 0 < length (pos_digits p).
Proof.
  induction p as [p [IH L]|p [IH L]|]; cbn [pos_digits]; [| |cbn; lia];
    rewrite app_length; cbn [length];
    (split; [|lia]);
    replace (Z.of_nat (length (pos_digits p) + 1)) with (Z.of_nat (length (pos_digits p)) + 1)%Z by lia;
    set (k := Z.of_nat (length (pos_digits p))) in *;
    replace (k + 1 - 1)%Z with (k - 1 + 1)%Z by lia;
    rewrite !Z.pow_add_r by lia; change (2 ^ 1)%Z with 2%Z; lia.
Qed.

Lemma of_Z_0 n : of_Z n 0 = repeat B0 n.
Proof. induction n; cbn; [reflexivity|]. now rewrite IHn. Qed.

Lemma pos_digits_of_Z p : forall n, length (pos_digits p) <= n ->
  of_Z n (Zpos p) = rev (pos_digits p) ++ repeat B0 (n - length (pos_digits p)).
Proof.
  induction p as [p IH|p IH|]; intros n H; cbn [pos_digits] in *.
  - rewrite app_length in *. cbn [length] in *. destruct n as [|n]; [lia|].
    rewrite rev_app_distr. cbn. rewrite IH by lia.
    replace (n - length (pos_digits p)) with (S n - (length (pos_digits p) + 1)) by lia. reflexivity.
  - rewrite app_length in *. cbn [length] in *. destruct n as [|n]; [lia|].
    rewrite rev_app_distr. cbn. rewrite IH by lia.
    replace (n - length (pos_digits p)) with (S n - (length (pos_digits p) + 1)) by lia. reflexivity.
  - cbn [length] in *. destruct n as [|n]; [lia|]. cbn. rewrite of_Z_0, Nat.sub_0_r. reflexivity.
Qed.

Lemma repeat_snoc {A} (a : A) n : repeat a n ++ [a] = a :: repeat a n.
Proof. induction n; cbn; [reflexivity|]. now rewrite IHn. Qed.

Lemma rev_repeat {A} (a : A) n : rev (repeat a n) = repeat a n.
Proof. induction n; cbn; [reflexivity|]. rewrite IHn. apply repeat_snoc. Qed.

Lemma digits_length z n : 0 < n -> (0 <= z < 2 ^ Z.of_nat n)%Z -> length (digits z) <= n.
Proof.
  intros Hn B. destruct z as [|p|p]; cbn [digits length]; [lia| |lia].
  destruct (pos_digits_bounds p) as [Hb L].
  destruct (Nat.le_gt_cases (length (pos_digits p)) n) as [|G]; [assumption|].
  assert (2 ^ Z.of_nat n <= 2 ^ (Z.of_nat (length (pos_digits p)) - 1))%Z
    by (apply Z.pow_le_mono_r; lia). lia.
Qed.

Lemma pad0_digits n z : 0 < n -> (0 <= z < 2 ^ Z.of_nat n)%Z ->
  pad0 n (digits z) = Some (rev (of_Z n z)).
Proof.
  intros Hn B. pose proof (digits_length z n Hn B) as HL. unfold pad0.
  destruct (Nat.leb_spec (length (digits z)) n); [|lia]. f_equal.
  destruct z as [|p|p]; cbn [digits length] in *.
  - rewrite of_Z_0, rev_repeat. destruct n as [|n]; [lia|].
    cbn [Nat.sub]. rewrite Nat.sub_0_r, repeat_snoc. reflexivity.
  - rewrite pos_digits_of_Z by assumption. now rewrite rev_app_distr, rev_repeat, rev_involutive.
  - lia.
Qed.

Lemma digits_exact n z : 0 < n -> (2 ^ Z.of_nat (n - 1) <= z < 2 ^ Z.of_nat n)%Z ->
  digits z = rev (of_Z n z).
Proof.
  intros Hn B. assert (0 < 2 ^ Z.of_nat (n - 1))%Z by (apply Z.pow_pos_nonneg; lia).
  destruct z as [|p|p]; [lia| |lia]. cbn [digits].
  pose proof (digits_length (Zpos p) n Hn ltac:(lia)) as HL. cbn [digits] in HL.
  destruct (pos_digits_bounds p) as [Hb L].
  assert (length (pos_digits p) = n).
  { destruct (Nat.lt_ge_cases (length (pos_digits p)) n) as [G|]; [|lia].
    assert (2 ^ Z.of_nat (length (pos_digits p)) <= 2 ^ Z.of_nat (n - 1))%Z
      by (apply Z.pow_le_mono_r; lia). lia. }
  rewrite pos_digits_of_Z by lia. replace (n - length (pos_digits p)) with 0 by lia.
  cbn [repeat]. now rewrite app_nil_r, rev_involutive.
Qed.

Lemma land_mask z n : Z.land z (2 ^ Z.of_nat n - 1) = (z mod 2 ^ Z.of_nat n)%Z.
Proof.
  rewrite <- Z.land_ones by lia. rewrite Z.ones_equiv. f_equal.
Qed.

Lemma of_Z_mod n z : of_Z n (z mod 2 ^ Z.of_nat n) = of_Z n z.
Proof. apply of_Z_ext. apply Z.mod_mod. pose proof (pow2_pos n); lia. Qed.

Lemma neg_mod n z : 0 < n -> (- 2 ^ Z.of_nat (n - 1) <= z < 0)%Z ->
  (2 ^ Z.of_nat (n - 1) <= z mod 2 ^ Z.of_nat n < 2 ^ Z.of_nat n)%Z.
Proof.
  intros Hn B. assert (E : (2 ^ Z.of_nat n = 2 * 2 ^ Z.of_nat (n - 1))%Z).
  { replace (Z.of_nat n) with (1 + Z.of_nat (n - 1))%Z by lia. rewrite Z.pow_add_r by lia. reflexivity. }
  assert (E2 : (z mod 2 ^ Z.of_nat n = z + 2 ^ Z.of_nat n)%Z).
  { symmetry. apply Z.mod_unique with (-1)%Z; [left; lia|lia]. }
  lia.
Qed.

(** An integer in range prints as its two's complement digits. *)
Lemma int_string n z : 0 < n -> (- 2 ^ Z.of_nat (n - 1) <= z < 2 ^ Z.of_nat n)%Z ->
  as_string (VInt n z) = Some (rev (of_Z n z)).
Proof.
  intros Hn B. cbn [as_string]. destruct (Z.leb_spec 0 z).
  - apply pad0_digits; lia.
  - rewrite land_mask. f_equal. rewrite <- (of_Z_mod n z). apply digits_exact; [assumption|].
    apply neg_mod; lia.
Qed.

(** ** Maps *)
Lemma lookup_cons {A} (m : list (nat * A)) k a n :
  lookup ((k, a) :: m) n = if k =? n then Some a else lookup m n.
Proof. unfold lookup. cbn. destruct (k =? n); reflexivity. Qed.

Lemma lookups_cons_fresh {A} (m : list (nat * A)) k a : lookup m k = None ->
  forall ns l, lookups m ns = Some l -> lookups ((k, a) :: m) ns = Some l.
Proof.
  intros F. induction ns as [|n ns IH]; intros l H; cbn [lookups] in *; [assumption|].
  destruct (lookup m n) eqn:E; [|discriminate].
  destruct (lookups m ns) eqn:E2; [|discriminate].
  rewrite lookup_cons. destruct (Nat.eqb_spec k n); [subst; congruence|].
  now rewrite E, (IH _ eq_refl).
Qed.

(** ** Well-formed values *)
Fixpoint wf_value (v : value) : Prop :=
  match v with
  | VInt n z => 0 < n /\ (- 2 ^ Z.of_nat (n - 1) <= z < 2 ^ Z.of_nat n)%Z
  | VUInt n z => 0 < n /\ (0 <= z < 2 ^ Z.of_nat n)%Z
  | VConcat_ inner => fold_right (fun v P => wf_value v /\ P) True inner
  | _ => True
  end.

Lemma wf_concat inner : wf_value (VConcat_ inner) <-> Forall wf_value inner.
Proof.
  cbn [wf_value]. induction inner as [|v inner IH]; cbn [fold_right].
  - split; auto.
  - rewrite IH. split; [intros []; now constructor|intros F; inversion F; auto].
Qed.

(** ** The invariant *)
(** The value at a name agrees with the signal. *)
Definition rel (t : ty) (v : value) (b : bits) : Prop :=
  has_width t b /\ as_string v = Some (rev b) /\ vwidth v = size t
  /\ (forall n, t = TInt n -> exists z, v = VInt n z)
  /\ (forall sz z, v = VInt sz z -> 0 < size t /\ sz = size t /\ represents t b z)
  /\ assume_uint v = None /\ wf_value v.

Definition maps_rel (G : tenv) (vs : list (nat * value)) (B : benv) : Prop :=
  forall n, match lookup G n with
            | Some t => exists v b, lookup vs n = Some v /\ lookup B n = Some b /\ rel t v b
            | None => lookup vs n = None /\ lookup B n = None
            end.

Lemma maps_rel_nil : maps_rel [] [] [].
Proof. intros n. cbn. auto. Qed.

Lemma maps_rel_cons G vs B k t v b : maps_rel G vs B -> rel t v b ->
  maps_rel ((k, t) :: G) ((k, v) :: vs) ((k, b) :: B).
Proof.
  intros H R n. rewrite !lookup_cons. destruct (k =? n); [eauto|]. apply H.
Qed.

Lemma maps_rel_lookups G vs B : maps_rel G vs B -> forall ns tys, lookups G ns = Some tys ->
  exists vals bs, lookups vs ns = Some vals /\ lookups B ns = Some bs
    /\ Forall2 (fun t p => rel t (fst p) (snd p)) tys (combine vals bs)
    /\ length vals = length tys /\ length bs = length tys.
Proof.
  intros H. induction ns as [|n ns IH]; intros tys E; cbn [lookups] in *.
  - injection E as <-. exists [], []. repeat split; constructor.
  - pose proof (H n) as Hn. destruct (lookup G n) as [t|]; [|discriminate].
    destruct (lookups G ns) as [tys'|] eqn:E2; [|discriminate]. injection E as <-.
    destruct Hn as (v & b & E3 & E4 & R). destruct (IH _ eq_refl) as (vals & bs & E5 & E6 & F & L1 & L2).
    exists (v :: vals), (b :: bs). rewrite E3, E4, E5, E6. cbn. repeat split; try lia.
    constructor; assumption.
Qed.

Lemma rel_widths tys : forall vals bs,
  Forall2 (fun t p => rel t (fst p) (snd p)) tys (combine vals bs) ->
  length vals = length tys -> length bs = length tys ->
  Forall2 has_width tys bs /\ join (map as_string vals) = Some (rev (concat (rev bs)))
  /\ list_sum (map vwidth vals) = list_sum (map size tys)
  /\ Forall2 (fun v b => as_string v = Some (rev b)) vals bs /\ Forall wf_value vals.
Proof.
  induction tys as [|t tys IH]; intros [|v vals] [|b bs] F L1 L2; cbn [length] in *; try lia.
  - repeat split; constructor.
  - cbn [combine] in F. inversion F; subst; cbn [fst snd] in *.
    destruct (IH vals bs H4 ltac:(lia) ltac:(lia)) as (A & C & D & E & E').
    destruct H2 as (W & St & VW & _ & _ & _ & WF).
    repeat split; [now constructor| | |now constructor|now constructor].
    + cbn [map join rev]. rewrite St, C, concat_app, rev_app_distr. cbn [concat].
      now rewrite app_nil_r.
    + cbn [map]. rewrite !list_sum_cons. lia.
Qed.

Lemma join_app a b : join (a ++ b) =
  match join a, join b with Some x, Some y => Some (x ++ y) | _, _ => None end.
Proof.
  induction a as [|[s|] a IH]; cbn [app join].
  - destruct (join b); reflexivity.
  - rewrite IH. destruct (join a); [|reflexivity]. destruct (join b); [|reflexivity].
    now rewrite app_assoc.
  - reflexivity.
Qed.

Lemma join_rev vals bs : Forall2 (fun v b => as_string v = Some (rev b)) vals bs ->
  join (map as_string (rev vals)) = Some (rev (concat bs)).
Proof.
  induction 1 as [|v b vals bs H F IH]; [reflexivity|].
  cbn [rev concat]. rewrite map_app, join_app, IH. cbn [map join]. rewrite H, app_nil_r.
  now rewrite rev_app_distr.
Qed.

Lemma list_sum_rev l : list_sum (rev l) = list_sum l.
Proof.
  induction l as [|a l IH]; [reflexivity|]. cbn [rev]. rewrite list_sum_app, IH, !list_sum_cons. cbn. lia.
Qed.

Lemma rel_int n b z : 0 < n -> represents (TInt n) b z -> rel (TInt n) (VInt n z) b.
Proof.
  intros Hn R. pose proof (represents_signed_bound n b z Hn R) as Bd.
  destruct R as [W Sv]. pose proof (of_Z_sval b z Sv) as E. unfold has_width in W. cbn [size] in W.
  assert (2 ^ Z.of_nat (n - 1) <= 2 ^ Z.of_nat n)%Z by (apply Z.pow_le_mono_r; lia).
  repeat split; auto; try lia.
  - rewrite int_string by lia. rewrite <- W, E. reflexivity.
  - intros n' [= <-]. eauto.
  - injection H0 as <- <-. reflexivity.
  - injection H0 as <- <-. assumption.
Qed.

Lemma rel_concat t vals b : has_width t b -> join (map as_string vals) = Some (rev b) ->
  Forall wf_value vals -> list_sum (map vwidth vals) = size t -> (forall n, t <> TInt n) -> rel t (VConcat_ vals) b.
Proof.
  intros W J F L N. repeat split; auto; try discriminate; [|now apply wf_concat].
  intros n E. now apply N in E.
Qed.

Lemma construct_struct_value fields vals : Forall2 has_width (map snd fields) vals ->
  op_value (TStruct fields) (map snd fields) ConstructTuple vals = Some (concat (rev vals)).
Proof.
  intros H. pose proof (construct_tuple_value _ _ H) as E. unfold op_value in *. rewrite struct_size.
  cbn [size] in E. exact E.
Qed.

Lemma tag_fits n v : 1 < n -> v < n ->
  0 < tag_size n /\ (0 <= Z.of_nat v < 2 ^ Z.of_nat (tag_size n))%Z.
Proof.
  intros Hn Hv. split.
  - destruct (Nat.eq_dec (tag_size n) 0) as [E|]; [|lia]. apply tag_size_0 in E; lia.
  - pose proof (tag_size_bound n v Hv) as B. apply Nat2Z.inj_lt in B. rewrite Nat2Z.inj_pow in B.
    change (Z.of_nat 2) with 2%Z in B. lia.
Qed.

Definition supported_op (op : operator) : bool :=
  match op with
  | Add | Sub | USub | ConstructArray | ConstructTuple | ConstructEnum _ => true
  | _ => false
  end.

Lemma op_unsupported op vals tys t : supported_op op = false ->
  Forall (fun v => assume_uint v = None) vals -> eval_op op vals tys t = None.
Proof.
  intros U F. destruct op; try discriminate U; try reflexivity; cbn [eval_op].
  - destruct vals as [|a [|b vals]]; try reflexivity. inversion F; subst. now rewrite H1.
  - destruct vals as [|a [|b vals]]; try reflexivity. inversion F; subst. now rewrite H1.
Qed.

(** A supported operator: it never panics, and the signal agrees. *)
Lemma op_rel op tys t vals bs : supported_op op = true -> typed op tys t ->
  Forall2 (fun t p => rel t (fst p) (snd p)) tys (combine vals bs) ->
  length vals = length tys -> length bs = length tys ->
  (forall n a, op = USub -> t = TInt n -> bs = [a] -> sval a <> Some (- 2 ^ Z.of_nat (n - 1))%Z) ->
  exists v b, eval_op op vals tys t = Some v /\ op_value t tys op bs = Some b /\ rel t v b.
Proof.
  intros S T F L1 L2 NM. destruct (rel_widths _ _ _ F L1 L2) as (W & J & VW & St & WF).
  assert (Two : forall n, tys = [TInt n; TInt n] -> exists x y a b,
            vals = [VInt n x; VInt n y] /\ bs = [a; b] /\ 0 < n
            /\ represents (TInt n) a x /\ represents (TInt n) b y).
  { intros n ->. destruct vals as [|v1 [|v2 [|]]]; try discriminate L1.
    destruct bs as [|b1 [|b2 [|]]]; try discriminate L2. cbn [combine] in F.
    inversion F as [|? ? ? ? R1 F']; subst. inversion F' as [|? ? ? ? R2 _]; subst. cbn [fst snd] in *.
    destruct R1 as (_ & _ & _ & I1 & Q1 & _). destruct R2 as (_ & _ & _ & I2 & Q2 & _).
    destruct (I1 n eq_refl) as [x ->]. destruct (I2 n eq_refl) as [y ->].
    destruct (Q1 _ _ eq_refl) as (P & _ & R1). destruct (Q2 _ _ eq_refl) as (_ & _ & R2).
    exists x, y, b1, b2. repeat split; try assumption; try (apply R1); apply R2. }
  inversion T; subst; try discriminate S;
    try (exfalso; cbn in H; intuition (subst; discriminate)).
  - destruct (Two n eq_refl) as (x & y & a & b & -> & -> & Hn & Ra & Rb).
    destruct H as [<-|[<-|[]]]; cbn [eval_op assume_int].
    + destruct (add_exact n a b x y Hn Ra Rb) as (r & E & R). do 2 eexists.
      split; [reflexivity|]. split; [exact E|]. cbn [size]. apply rel_int; [lia|assumption].
    + destruct (sub_exact n a b x y Hn Ra Rb) as (r & E & R). do 2 eexists.
      split; [reflexivity|]. split; [exact E|]. cbn [size]. apply rel_int; [lia|assumption].
  - destruct vals as [|v1 [|]]; try discriminate L1.
    destruct bs as [|b1 [|]]; try discriminate L2. cbn [combine] in F.
    inversion F as [|? ? ? ? R1 F']; subst. cbn [fst snd] in *.
    destruct R1 as (_ & _ & _ & I1 & Q1 & _). destruct (I1 n eq_refl) as [x ->].
    destruct (Q1 _ _ eq_refl) as (P & _ & R1). cbn [size] in P.
    assert (x <> - 2 ^ Z.of_nat (n - 1))%Z.
    { intros ->. apply (NM n b1 eq_refl eq_refl eq_refl). apply R1. }
    destruct (neg_exact n b1 x P R1 H) as (r & E & R). cbn [eval_op assume_int].
    do 2 eexists. split; [reflexivity|]. split; [exact E|]. cbn [size]. apply rel_int; assumption.
  - cbn [eval_op]. rewrite repeat_length in L1, L2. rewrite <- L2 in *.
    assert (FW : Forall (has_width t0) bs).
    { clear - W. remember (length bs) as k eqn:Hk. clear Hk. revert k W.
      induction bs as [|b bs IH]; intros k W; [constructor|].
      destruct k; inversion W; subst. constructor; [assumption|]. eapply IH; eassumption. }
    pose proof (length_concat_uniform bs (size t0) FW) as HL.
    do 2 eexists. split; [reflexivity|]. split; [apply construct_array_value; assumption|].
    apply rel_concat; [unfold has_width; cbn [size]; lia|now apply join_rev|now apply Forall_rev| |discriminate].
    rewrite map_rev, list_sum_rev, VW. cbn [size]. clear.
    induction (length bs) as [|k IH]; cbn [repeat map]; [cbn; lia|]. rewrite list_sum_cons, IH. lia.
  - cbn [eval_op]. pose proof (payload_fits _ _ _ H) as PF.
    rewrite size_enum. set (tag := tag_size (length options)).
    destruct (Nat.leb_spec (tag + list_sum (map size tys)) (tag + enum_payload_size options)); [|lia].
    replace (tag + enum_payload_size options - tag - list_sum (map size tys))
      with (enum_payload_size options - list_sum (map size tys)) by lia.
    set (pad := enum_payload_size options - list_sum (map size tys)).
    do 2 eexists. split; [reflexivity|]. split; [apply construct_enum_value; eassumption|].
    apply rel_concat; [| | | |discriminate].
    + unfold has_width. eapply length_enum_bits; [eassumption|assumption|apply length_xs].
    + rewrite !map_app, !join_app, J. unfold enum_bits. fold tag. fold pad.
      rewrite !rev_app_distr.
      assert (E1 : join (map as_string (if length options <=? 1 then [] else [VUInt tag (Z.of_nat v)]))
                   = Some (rev (of_Z tag (Z.of_nat v)))).
      { assert (v < length options) by (apply nth_error_Some; congruence).
        destruct (Nat.leb_spec (length options) 1).
        - subst tag. replace (length options) with 1 by lia. reflexivity.
        - destruct (tag_fits (length options) v ltac:(lia) ltac:(assumption)) as [? ?].
          cbn [map join as_string]. subst tag. rewrite pad0_digits by (assumption || lia).
          now rewrite app_nil_r. }
      rewrite E1.
      assert (E2 : join (map as_string (if pad =? 0 then [] else [VUndef pad])) = Some (rev (xs pad))).
      { unfold xs. rewrite rev_repeat. destruct (Nat.eqb_spec pad 0) as [->|]; [reflexivity|].
        cbn. now rewrite app_nil_r. }
      rewrite E2. now rewrite app_assoc.
    + apply Forall_app. split; [|apply Forall_app; split; [assumption|]].
      * assert (v < length options) by (apply nth_error_Some; congruence).
        destruct (Nat.leb_spec (length options) 1); constructor; [|constructor].
        cbn [wf_value]. apply tag_fits; assumption.
      * destruct (pad =? 0); repeat constructor.
    + rewrite !map_app, !list_sum_app, VW, size_enum. fold tag.
      assert (E1 : list_sum (map vwidth (if length options <=? 1 then [] else [VUInt tag (Z.of_nat v)])) = tag).
      { assert (v < length options) by (apply nth_error_Some; congruence).
        destruct (Nat.leb_spec (length options) 1); [|cbn; lia].
        subst tag. replace (length options) with 1 by lia. reflexivity. }
      assert (E2 : list_sum (map vwidth (if pad =? 0 then [] else [VUndef pad])) = pad).
      { destruct (Nat.eqb_spec pad 0) as [->|]; [reflexivity|]. cbn. lia. }
      rewrite E1, E2. unfold pad. lia.
  - cbn [eval_op]. do 2 eexists. split; [reflexivity|]. split; [apply construct_tuple_value; assumption|].
    apply rel_concat; [|assumption|assumption|assumption|discriminate].
    unfold has_width. rewrite (length_concat_vals _ _ W). reflexivity.
  - cbn [eval_op]. do 2 eexists. split; [reflexivity|].
    split; [apply construct_struct_value; assumption|].
    apply rel_concat; [|assumption|assumption| |discriminate].
    + unfold has_width. rewrite (length_concat_vals _ _ W), struct_size. reflexivity.
    + rewrite struct_size. assumption.
Qed.

Lemma maps_rel_uints G vs B : maps_rel G vs B -> forall ns vals, lookups vs ns = Some vals ->
  Forall (fun v => assume_uint v = None) vals.
Proof.
  intros H. induction ns as [|n ns IH]; intros vals E; cbn [lookups] in E.
  - injection E as <-. constructor.
  - pose proof (H n) as Hn. destruct (lookup vs n) as [v|] eqn:Ev; [|discriminate].
    destruct (lookups vs ns) eqn:E2; [|discriminate]. injection E as <-. constructor; [|now apply IH].
    destruct (lookup G n).
    + destruct Hn as (v' & b & [= <-] & _ & R). apply R.
    + destruct Hn. congruence.
Qed.

Lemma last_cons_irrel {A} (l : list A) a d d' : last (a :: l) d = last (a :: l) d'.
Proof. revert a. induction l as [|b l IH]; intros a; [reflexivity|]. apply IH. Qed.

(** One statement. *)
Lemma step G vs B s l : well_typed G (s :: l) -> maps_rel G vs B -> no_min_negation G B (s :: l) ->
  well_typed ((stmt_name s, stmt_type s) :: G) l
  /\ (supported s = true -> eval_stmt vs G s <> None)
  /\ forall vs' ts' v, eval_stmt vs G s = Some (vs', ts', v) ->
       exists b, hw_stmt G B s = Some b /\ rel (stmt_type s) v b
         /\ vs' = (stmt_name s, v) :: vs /\ ts' = (stmt_name s, stmt_type s) :: G
         /\ no_min_negation ((stmt_name s, stmt_type s) :: G) ((stmt_name s, b) :: B) l.
Proof.
  intros T M [NM1 NM2]. inversion T as [|? ? ? ? ? ? ? H2 H3 H4 H5|? ? ? ? ? H2 H3 H5|? ? ? ? ? H2 H3 H4 H5|? ? ? ? ? H2 H3 H4 H5|? ? ? ? H2 H5]; subst; cbn [stmt_name stmt_type] in *; (split; [assumption|]).
  - destruct (maps_rel_lookups _ _ _ M _ _ H3) as (vals & bs & Ev & Eb & F & L1 & L2).
    cbn [eval_stmt hw_stmt] in *. rewrite Ev, (lookups_cons_fresh _ _ t H2 _ _ H3).
    rewrite H3, Eb in NM2 |- *.
    destruct (supported_op op) eqn:S.
    + destruct (op_rel op tys t vals bs S H4 F L1 L2) as (v & b & E1 & E2 & R).
      { intros n a -> -> ->. destruct ops as [|o [|]]; cbn [lookups] in Eb; try discriminate Eb.
        - destruct (lookup B o) eqn:Eo; [|discriminate]. injection Eb as <-. eapply NM1; [reflexivity|eassumption].
        - destruct (lookup B o); [|discriminate]. destruct (lookup B n0); [|discriminate].
          destruct (lookups B l0); discriminate. }
      rewrite E1. split; [discriminate|]. intros vs' ts' v' [= <- <- <-].
      exists b. split; [assumption|]. split; [exact R|]. split; [reflexivity|]. split; [reflexivity|]. now apply NM2.
    + rewrite op_unsupported by (assumption || now apply (maps_rel_uints _ _ _ M ops)).
      split; [|discriminate]. intros S'. cbn in S'. fold (supported_op op) in S'. congruence.
  - pose proof (M op) as Mo. rewrite H3 in Mo. destruct Mo as (v & b & Ev & Eb & R).
    cbn [eval_stmt hw_stmt] in *. rewrite Ev. split; [discriminate|].
    intros vs' ts' v' [= <- <- <-]. exists b. split; [assumption|]. split; [exact R|]. split; [reflexivity|]. split; [reflexivity|]. now apply NM2.
  - cbn [eval_stmt hw_stmt size] in *. split; [discriminate|].
    intros vs' ts' v' [= <- <- <-]. rewrite const_int_correct in * by assumption.
    exists (of_Z n z). split; [reflexivity|]. split; [|auto].
    apply rel_int; [assumption|]. now apply represents_of_Z_signed.
  - cbn [eval_stmt hw_stmt size] in *. split; [discriminate|].
    intros vs' ts' v' [= <- <- <-]. rewrite const_int_correct in * by assumption.
    exists (of_Z n z). split; [reflexivity|]. split; [|auto].
    assert (0 <= 2 ^ Z.of_nat (n - 1))%Z by (apply Z.pow_nonneg; lia).
    pose proof (represents_of_Z_unsigned n z H4) as R.
    repeat split; auto; try discriminate; try lia.
    + apply R.
    + apply int_string; [assumption|lia].
    + injection H0 as <- <-. reflexivity.
    + injection H0 as <- <-. apply R.
    + injection H0 as <- <-. apply R.
  - cbn [eval_stmt hw_stmt size] in *. split; [discriminate|].
    intros vs' ts' v' [= <- <- <-]. exists [bit_of_bool b]. split; [reflexivity|]. split; [|auto].
    repeat split; discriminate.
Qed.

Lemma loop_rel l : forall G vs B lv lb lt v, well_typed G l -> maps_rel G vs B ->
  no_min_negation G B l ->
  (forall v0, lv = Some v0 -> exists b0, lb = Some b0 /\ rel lt v0 b0) ->
  eval_loop vs G lv l = Some v ->
  exists b, hw_loop G B lb l = Some b /\ rel (last (map stmt_type l) lt) v b.
Proof.
  induction l as [|s l IH]; intros G vs B lv lb lt v T M NM L E.
  - cbn in *. apply L. assumption.
  - destruct (step _ _ _ _ _ T M NM) as (T' & _ & St).
    cbn [eval_loop hw_loop] in *. destruct (eval_stmt vs G s) as [[[vs' ts'] v']|] eqn:Es; [|discriminate].
    destruct (St _ _ _ eq_refl) as (b & Eb & R & -> & -> & NM'). rewrite Eb.
    assert (L' : forall v0, Some v' = Some v0 -> exists b0, Some b = Some b0 /\ rel (stmt_type s) v0 b0)
      by (intros v0 [= <-]; eauto).
    destruct (IH _ _ _ _ (Some b) (stmt_type s) v T' (maps_rel_cons _ _ _ _ _ _ _ M R) NM' L' E)
      as (r & Er & Rr).
    + exists r. split; [assumption|]. destruct l as [|s' l]; [exact Rr|].
      cbn [map]. cbn [map] in Rr. rewrite (last_cons_irrel _ _ _ lt) in Rr. exact Rr.
Qed.

Lemma loop_total l : forall G vs B lv v0, well_typed G l -> maps_rel G vs B ->
  no_min_negation G B l -> forallb supported l = true -> (l = [] -> lv = Some v0) ->
  eval_loop vs G lv l <> None.
Proof.
  induction l as [|s l IH]; intros G vs B lv v0 T M NM Sp L.
  - cbn. rewrite L by reflexivity. discriminate.
  - destruct (step _ _ _ _ _ T M NM) as (T' & Tot & St).
    cbn [forallb] in Sp. apply andb_true_iff in Sp. destruct Sp as [Sp1 Sp2]. specialize (Tot Sp1).
    cbn [eval_loop]. destruct (eval_stmt vs G s) as [[[vs' ts'] v']|] eqn:Es; [|congruence].
    destruct (St _ _ _ eq_refl) as (b & Eb & R & -> & -> & NM').
    refine (IH _ _ _ _ v' T' (maps_rel_cons _ _ _ _ _ _ _ M R) NM' Sp2 _). reflexivity.
Qed.

Theorem eval_agrees l v : well_typed [] l -> no_min_negation [] [] l ->
  eval_statements l = Some v ->
  exists b, hardware l = Some b /\ rel (last (map stmt_type l) (TTuple [])) v b.
Proof.
  intros T NM E. refine (loop_rel l [] [] [] None None _ v T maps_rel_nil NM _ E).
  intros v0 H. discriminate H.
Qed.

(** ** Numbers *)
Lemma num_bound b : (0 <= num b < 2 ^ Z.of_nat (length b))%Z.
Proof.
  induction b as [|d b IH]; cbn [num length]; [cbn; lia|].
  replace (Z.of_nat (S (length b))) with (1 + Z.of_nat (length b))%Z by lia.
  rewrite Z.pow_add_r by lia. change (2 ^ 1)%Z with 2%Z. destruct d; lia.
Qed.

Lemma num_app a b : num (a ++ b) = (num a + 2 ^ Z.of_nat (length a) * num b)%Z.
Proof.
  induction a as [|d a IH]; cbn [app num length]; [change (2 ^ Z.of_nat 0)%Z with 1%Z; lia|].
  replace (Z.of_nat (S (length a))) with (1 + Z.of_nat (length a))%Z by lia.
  rewrite Z.pow_add_r, IH by lia. change (2 ^ 1)%Z with 2%Z. lia.
Qed.

Lemma num_uval b z : uval b = Some z -> num b = z.
Proof.
  revert z; induction b as [|d b IH]; intros z H; cbn [uval num] in *; [now injection H|].
  destruct (uval b) as [u|]; [|discriminate]. rewrite (IH u eq_refl).
  destruct d; try discriminate; apply Some_inj in H; subst; lia.
Qed.

Lemma num_of_Z n z : num (of_Z n z) = (z mod 2 ^ Z.of_nat n)%Z.
Proof. apply num_uval. apply uval_of_Z. Qed.

Lemma num_xs n : num (repeat BX n) = 0%Z.
Proof. induction n as [|n IH]; [reflexivity|]. cbn [repeat num]. rewrite IH. reflexivity. Qed.

Fixpoint value_nested_ind (P : value -> Prop)
  (Hb : forall b, P (VBit b)) (Hi : forall n z, P (VInt n z)) (Hu : forall n z, P (VUInt n z))
  (Hc : forall inner, Forall P inner -> P (VConcat_ inner)) (Hx : forall n, P (VUndef n)) v : P v :=
  match v with
  | VBit b => Hb b | VInt n z => Hi n z | VUInt n z => Hu n z
  | VConcat_ inner => Hc inner ((fix go l : Forall P l :=
      match l with
      | [] => Forall_nil _
      | v :: l => Forall_cons v (value_nested_ind P Hb Hi Hu Hc Hx v) (go l)
      end) inner)
  | VUndef n => Hx n
  end.

(** The bits a value prints. *)
Definition bits_of (v : value) : bits := match as_string v with Some s => rev s | None => [] end.

Lemma bits_of_string v b : as_string v = Some (rev b) -> bits_of v = b.
Proof. intros H. unfold bits_of. rewrite H. apply rev_involutive. Qed.

Lemma wf_string v : wf_value v ->
  as_string v = Some (rev (bits_of v)) /\ length (bits_of v) = vwidth v.
Proof.
  induction v using value_nested_ind; intros W.
  - split; reflexivity.
  - destruct W as [W1 W2]. pose proof (int_string n z W1 W2) as E.
    rewrite (bits_of_string _ _ E). split; [assumption|]. apply length_of_Z.
  - destruct W as [W1 W2]. pose proof (pad0_digits n z W1 W2) as E.
    rewrite (bits_of_string (VUInt n z) (of_Z n z) E). split; [assumption|]. apply length_of_Z.
  - apply wf_concat in W.
    assert (E : as_string (VConcat_ inner) = Some (rev (concat (rev (map bits_of inner))))
                /\ length (concat (rev (map bits_of inner))) = vwidth (VConcat_ inner)).
    { cbn [as_string vwidth]. induction H as [|v inner Hv H IH]; [split; reflexivity|].
      inversion W; subst. destruct (Hv H2) as [E1 E2]. destruct (IH H3) as [E3 E4].
      cbn [map join rev]. rewrite E1, E3. rewrite concat_app, rev_app_distr. cbn [concat].
      rewrite app_nil_r. split; [reflexivity|]. rewrite app_length, list_sum_cons. lia. }
    destruct E as [E1 E2]. rewrite (bits_of_string _ _ E1). auto.
  - cbn. unfold bits_of. cbn. rewrite rev_involutive, rev_length, repeat_length. auto.
Qed.

Lemma concat_bits inner : Forall wf_value inner ->
  bits_of (VConcat_ inner) = concat (rev (map bits_of inner)).
Proof.
  intros W. apply bits_of_string. cbn [as_string].
  induction W as [|v inner Wv W IH]; [reflexivity|].
  cbn [map join rev]. rewrite (proj1 (wf_string v Wv)), IH, concat_app, rev_app_distr. cbn [concat].
  now rewrite app_nil_r.
Qed.

Lemma pow_split a b : (2 ^ Z.of_nat (a + b) = 2 ^ Z.of_nat a * 2 ^ Z.of_nat b)%Z.
Proof. rewrite Nat2Z.inj_add. apply Z.pow_add_r; lia. Qed.

Lemma to_u64_small z : (0 <= z < 2 ^ 64)%Z -> to_u64 z = Some z.
Proof. intros H. unfold to_u64. replace (((0 <=? z) && (z <? 2 ^ 64))%Z) with true by lia. reflexivity. Qed.

Lemma pow_le_64 n : n <= 64 -> (2 ^ Z.of_nat n <= 2 ^ 64)%Z.
Proof. intros H. apply Z.pow_le_mono_r; lia. Qed.

Lemma as_u64_value checked v : wf_value v -> vwidth v <= 64 -> (checked = true -> vwidth v < 64) ->
  as_u64 checked v = Some (num (bits_of v)).
Proof.
  induction v using value_nested_ind; intros W L C.
  - destruct b; reflexivity.
  - destruct W as [W1 W2]. rewrite (bits_of_string _ _ (int_string n z W1 W2)), num_of_Z.
    cbn [as_u64 vwidth] in *. pose proof (pow_le_64 n L).
    destruct (Z.leb_spec 0 z).
    + rewrite Z.mod_small by lia. apply to_u64_small. lia.
    + rewrite land_mask. apply to_u64_small. pose proof (Z.mod_pos_bound z (2 ^ Z.of_nat n)). lia.
  - destruct W as [W1 W2]. rewrite (bits_of_string (VUInt n z) (of_Z n z) (pad0_digits n z W1 W2)), num_of_Z.
    cbn [as_u64 vwidth] in *. pose proof (pow_le_64 n L).
    rewrite Z.mod_small by lia. apply to_u64_small. lia.
  - apply wf_concat in W. rewrite concat_bits by assumption. cbn [as_u64 vwidth] in *.
    set (f := fun cur next => _).
    assert (G : forall inner B, Forall (fun v => wf_value v -> vwidth v <= 64 -> (checked = true -> vwidth v < 64) ->
                                  as_u64 checked v = Some (num (bits_of v))) inner ->
              Forall wf_value inner -> length B + list_sum (map vwidth inner) <= 64 ->
              (checked = true -> length B + list_sum (map vwidth inner) < 64) ->
              fold_left f inner (Some (num B)) = Some (num (concat (rev (map bits_of inner)) ++ B))).
    { clear. intros inner. induction inner as [|v inner IH]; intros B H W L C; [reflexivity|].
      inversion H as [|? ? Hv H']; subst. inversion W as [|? ? Wv W']; subst.
      cbn [map] in L, C. rewrite list_sum_cons in L, C.
      cbn [fold_left map rev]. rewrite concat_app. cbn [concat]. rewrite app_nil_r, <- app_assoc.
      replace (f (Some (num B)) v) with (Some (num (bits_of v ++ B))).
      - apply IH; try assumption; rewrite app_length, (proj2 (wf_string v Wv)); lia.
      - unfold f. rewrite Hv by (assumption || lia).
        rewrite num_app, (proj2 (wf_string v Wv)).
        pose proof (num_bound B) as NB. pose proof (num_bound (bits_of v)) as NV.
        rewrite (proj2 (wf_string v Wv)) in NV.
        assert (HS : shl_u64 checked (num B) (vwidth v) = Some (num B * 2 ^ Z.of_nat (vwidth v))%Z).
        { unfold shl_u64. destruct (Nat.ltb_spec (vwidth v) 64).
          - f_equal. apply Z.mod_small. split; [apply Z.mul_nonneg_nonneg; [lia|apply Z.pow_nonneg; lia]|].
            pose proof (pow_le_64 (length B + vwidth v) ltac:(lia)) as P. rewrite pow_split in P.
            assert (0 < 2 ^ Z.of_nat (vwidth v))%Z by (apply Z.pow_pos_nonneg; lia).
            assert (num B * 2 ^ Z.of_nat (vwidth v) < 2 ^ Z.of_nat (length B) * 2 ^ Z.of_nat (vwidth v))%Z
              by (apply Z.mul_lt_mono_pos_r; lia). lia.
          - destruct checked; [specialize (C eq_refl); lia|].
            assert (length B = 0) by lia. destruct B; [|discriminate]. cbn [num].
            rewrite !Z.mul_0_l. reflexivity. }
        rewrite HS. unfold add_u64.
        assert (num B * 2 ^ Z.of_nat (vwidth v) + num (bits_of v) < 2 ^ 64)%Z.
        { pose proof (pow_le_64 (length B + vwidth v) ltac:(lia)) as P. rewrite pow_split in P.
          assert ((num B + 1) * 2 ^ Z.of_nat (vwidth v) <= 2 ^ Z.of_nat (length B) * 2 ^ Z.of_nat (vwidth v))%Z
            by (apply Z.mul_le_mono_nonneg_r; [apply Z.pow_nonneg|]; lia). lia. }
        destruct (Z.ltb_spec (num B * 2 ^ Z.of_nat (vwidth v) + num (bits_of v)) (2 ^ 64)); [|lia].
        f_equal. lia. }
    specialize (G inner [] H W). cbn [length num] in G. rewrite app_nil_r in G. apply G; assumption.
  - unfold bits_of. cbn [as_string as_u64]. rewrite rev_repeat, num_xs. reflexivity.
Qed.

Definition narrow (checked : bool) (v : value) : Prop :=
  match v with
  | VConcat_ inner => Forall (fun m => vwidth m <= 64 /\ (checked = true -> vwidth m < 64)) inner
  | _ => True
  end.

Lemma as_u32_chunks_value checked v : wf_value v -> narrow checked v ->
  as_u32_chunks checked v = Some (num (bits_of v)).
Proof.
  destruct v as [b|n z|n z|inner|n]; intros W N.
  - destruct b; reflexivity.
  - destruct W as [W1 W2]. rewrite (bits_of_string _ _ (int_string n z W1 W2)), num_of_Z.
    cbn [as_u32_chunks]. destruct (Z.leb_spec 0 z).
    + rewrite Z.mod_small by lia. reflexivity.
    + now rewrite land_mask.
  - destruct W as [W1 W2]. rewrite (bits_of_string (VUInt n z) (of_Z n z) (pad0_digits n z W1 W2)), num_of_Z.
    cbn [as_u32_chunks]. rewrite Z.mod_small by lia. reflexivity.
  - apply wf_concat in W. rewrite concat_bits by assumption. cbn [as_u32_chunks narrow] in *.
    set (f := fun cur next => _).
    assert (G : forall inner B, Forall wf_value inner ->
              Forall (fun m => vwidth m <= 64 /\ (checked = true -> vwidth m < 64)) inner ->
              fold_left f inner (Some (num B)) = Some (num (concat (rev (map bits_of inner)) ++ B))).
    { clear. intros inner. induction inner as [|v inner IH]; intros B W N; [reflexivity|].
      inversion W as [|? ? Wv W']; subst. inversion N as [|? ? [N1 N2] N']; subst.
      cbn [fold_left map rev]. rewrite concat_app. cbn [concat]. rewrite app_nil_r, <- app_assoc.
      replace (f (Some (num B)) v) with (Some (num (bits_of v ++ B))); [now apply IH|].
      unfold f. rewrite as_u64_value by assumption. rewrite num_app, (proj2 (wf_string v Wv)).
      f_equal. lia. }
    specialize (G inner [] W N). cbn [num] in G. rewrite app_nil_r in G. exact G.
  - unfold bits_of. cbn [as_string as_u32_chunks]. rewrite rev_repeat, num_xs. reflexivity.
Qed.
