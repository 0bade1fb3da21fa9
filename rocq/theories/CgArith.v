(** Arithmetic, comparison, conversion and constant proofs (C04-C08). *)
From Coq Require Import List ZArith Lia Bool Arith ZifyBool.
From Coq Require Znumtheory.
From Verif Require Import Bits BitsFacts Verilog CodegenModel CodegenSpec CgLayout.
Import ListNotations.
Local Open Scope Z_scope.

Lemma length_pos_ne {A} (v : list A) n : length v = n -> (0 < n)%nat -> v <> [].
Proof. intros H Hn ->. cbn in H. lia. Qed.

Lemma pow2_mono a b : (a <= b)%nat -> 2 ^ Z.of_nat a <= 2 ^ Z.of_nat b.
Proof. apply pow2_le. Qed.

Lemma opp_mod_idemp x m : (- (x mod m)) mod m = (- x) mod m.
Proof.
  replace (- (x mod m)) with (0 - x mod m) by lia. rewrite Zminus_mod_idemp_r. f_equal.
Qed.

(** Operand value in a wider signed / unsigned context. *)
Lemma num_signed_ctx v s W : sval v = Some s -> (0 < length v)%nat -> (length v <= W)%nat ->
  sval (resize true W v) = Some s.
Proof.
  intros H H0 HW. rewrite (resize_of_sval _ _ _ H).
  pose proof (sval_bound v s H (length_pos_ne v _ eq_refl H0)) as B.
  pose proof (pow2_mono (length v - 1) (W - 1) ltac:(lia)).
  apply sval_of_Z; lia.
Qed.

Lemma num_unsigned_ctx v u W : uval v = Some u -> (length v <= W)%nat ->
  uval (resize false W v) = Some u.
Proof.
  intros H HW. rewrite (resize_of_uval _ _ _ H).
  pose proof (uval_bound _ _ H). pose proof (pow2_mono (length v) W HW).
  apply uval_of_Z_small; lia.
Qed.

Definition env2 (a b : bits) : env := operand_env [a; b].

Lemma eval_signed_var r n W : eval r W true (VSigned (fv n)) = resize true W (r (Fwd n)).
Proof. cbn. now rewrite (resize_id false (r (Fwd n))) by reflexivity. Qed.

Lemma eval_var r n W sg : eval r W sg (fv n) = resize sg W (r (Fwd n)).
Proof. reflexivity. Qed.

Definition arith_fun (o : binop) : option (Z -> Z -> option Z) :=
  match o with
  | OAdd => Some (fun x y => Some (x + y))
  | OSub => Some (fun x y => Some (x - y))
  | OMul => Some (fun x y => Some (x * y))
  | ODiv => Some zdiv
  | OMod => Some zmod
  | _ => None
  end.

Lemma assign_signed_arith r o f a b x y z w :
  arith_fun o = Some f ->
  sval (r (Fwd a)) = Some x -> sval (r (Fwd b)) = Some y ->
  (0 < length (r (Fwd a)))%nat -> (0 < length (r (Fwd b)))%nat ->
  f x y = Some z ->
  assign_val r w (VBin o (VSigned (fv a)) (VSigned (fv b))) = of_Z w z.
Proof.
  intros Ho Hx Hy La Lb Hz. unfold assign_val.
  set (W := Nat.max w _).
  assert (HW : (length (r (Fwd a)) <= W /\ length (r (Fwd b)) <= W /\ w <= W)%nat).
  { unfold W. destruct o; try discriminate; cbn [width fv]; lia. }
  destruct HW as (HWa & HWb & HWw).
  assert (E : eval r W (signed (VBin o (VSigned (fv a)) (VSigned (fv b)))) (VBin o (VSigned (fv a)) (VSigned (fv b))) = of_Z W z).
  { transitivity (arith2 true W f (resize true W (r (Fwd a))) (resize true W (r (Fwd b)))).
    - destruct o; try discriminate; injection Ho as <-; cbn [signed fv andb eval width];
        rewrite !(resize_id false (r _)) by reflexivity; reflexivity.
    - unfold arith2, num. rewrite (num_signed_ctx _ _ _ Hx La HWa), (num_signed_ctx _ _ _ Hy Lb HWb), Hz.
      reflexivity. }
  rewrite E. now apply firstn_of_Z.
Qed.

Lemma assign_unsigned_arith r o f a b x y z w :
  arith_fun o = Some f ->
  uval (r (Fwd a)) = Some x -> uval (r (Fwd b)) = Some y ->
  f x y = Some z ->
  assign_val r w (VBin o (fv a) (fv b)) = of_Z w z.
Proof.
  intros Ho Hx Hy Hz. unfold assign_val.
  set (W := Nat.max w _).
  assert (HW : (length (r (Fwd a)) <= W /\ length (r (Fwd b)) <= W /\ w <= W)%nat).
  { unfold W. destruct o; try discriminate; cbn [width fv]; lia. }
  destruct HW as (HWa & HWb & HWw).
  assert (E : eval r W (signed (VBin o (fv a) (fv b))) (VBin o (fv a) (fv b)) = of_Z W z).
  { transitivity (arith2 false W f (resize false W (r (Fwd a))) (resize false W (r (Fwd b)))).
    - destruct o; try discriminate; injection Ho as <-; reflexivity.
    - unfold arith2, num. rewrite (num_unsigned_ctx _ _ _ Hx HWa), (num_unsigned_ctx _ _ _ Hy HWb), Hz.
      reflexivity. }
  rewrite E. now apply firstn_of_Z.
Qed.

(** ** op_value of arithmetic operators *)
Lemma op_value_unfold t tys op vals d :
  size t <> 0%nat ->
  forward_code (fun n => nth n tys (TTuple [])) t op (seq 0 (length tys)) = Ok d ->
  op_value t tys op vals = Some (drive (operand_env vals) (size t) d).
Proof.
  intros H E. unfold op_value. destruct (Nat.eqb_spec (size t) 0); [contradiction|]. now rewrite E.
Qed.

Definition signed_op (op : operator) : option binop :=
  match op with
  | Add => Some OAdd | Sub => Some OSub | Mul => Some OMul | Div => Some ODiv | Mod => Some OMod
  | _ => None
  end.
Definition unsigned_op (op : operator) : option binop :=
  match op with
  | UnsignedAdd => Some OAdd | UnsignedSub => Some OSub | UnsignedMul => Some OMul
  | UnsignedDiv => Some ODiv | UnsignedMod => Some OMod
  | _ => None
  end.

Lemma signed_op_value op o f t n m a b x y z :
  signed_op op = Some o -> arith_fun o = Some f ->
  (0 < n)%nat -> (0 < m)%nat -> size t <> 0%nat ->
  represents (TInt n) a x -> represents (TInt m) b y -> f x y = Some z ->
  op_value t [TInt n; TInt m] op [a; b] = Some (of_Z (size t) z).
Proof.
  intros Hop Ho Hn Hm Ht [La Ha] [Lb Hb] Hz. unfold has_width in La, Lb. cbn [size] in La, Lb.
  rewrite (op_value_unfold _ _ _ _ (DAssign (VBin o (VSigned (fv 0)) (VSigned (fv 1))))).
  - cbn [drive]. f_equal.
    apply assign_signed_arith with (f := f) (x := x) (y := y); auto; cbn [operand_env nth]; lia.
  - exact Ht.
  - destruct op; try discriminate; injection Hop as <-; reflexivity.
Qed.

Lemma unsigned_op_value op o f t n m a b x y z :
  unsigned_op op = Some o -> arith_fun o = Some f -> size t <> 0%nat ->
  represents (TUInt n) a x -> represents (TUInt m) b y -> f x y = Some z ->
  op_value t [TUInt n; TUInt m] op [a; b] = Some (of_Z (size t) z).
Proof.
  intros Hop Ho Ht [La Ha] [Lb Hb] Hz.
  rewrite (op_value_unfold _ _ _ _ (DAssign (VBin o (fv 0) (fv 1)))).
  - cbn [drive]. f_equal.
    apply assign_unsigned_arith with (f := f) (x := x) (y := y); auto.
  - exact Ht.
  - destruct op; try discriminate; injection Hop as <-; reflexivity.
Qed.

Lemma represents_of_Z_signed n z : (0 < n)%nat ->
  - 2 ^ Z.of_nat (n - 1) <= z < 2 ^ Z.of_nat (n - 1) -> represents (TInt n) (of_Z n z) z.
Proof. intros Hn B. split; [apply length_of_Z|]. now apply sval_of_Z. Qed.

Lemma represents_of_Z_unsigned n z :
  0 <= z < 2 ^ Z.of_nat n -> represents (TUInt n) (of_Z n z) z.
Proof. intros B. split; [apply length_of_Z|]. now apply uval_of_Z_small. Qed.

Lemma represents_signed_bound n a x : (0 < n)%nat -> represents (TInt n) a x ->
  - 2 ^ Z.of_nat (n - 1) <= x < 2 ^ Z.of_nat (n - 1).
Proof.
  intros Hn [L H]. unfold has_width in L. cbn in L.
  pose proof (sval_bound a x H (length_pos_ne a n L Hn)) as B. now rewrite L in B.
Qed.
Lemma represents_unsigned_bound n a x : represents (TUInt n) a x -> 0 <= x < 2 ^ Z.of_nat n.
Proof.
  intros [L H]. unfold has_width in L. cbn in L. pose proof (uval_bound a x H) as B. now rewrite L in B.
Qed.

Lemma add_exact n a b x y : (0 < n)%nat -> represents (TInt n) a x -> represents (TInt n) b y ->
  exists r, op_value (TInt (n + 1)) [TInt n; TInt n] Add [a; b] = Some r /\ represents (TInt (n + 1)) r (x + y).
Proof.
  intros Hn Ha Hb. eexists. split.
  - apply (signed_op_value Add OAdd (fun x y => Some (x + y)) (TInt (n + 1)) n n a b x y (x + y)); auto. cbn; lia.
  - pose proof (represents_signed_bound _ _ _ Hn Ha). pose proof (represents_signed_bound _ _ _ Hn Hb).
    cbn [size]; apply represents_of_Z_signed; [lia|]. replace (n + 1 - 1)%nat with n by lia.
    rewrite (pow2_pred n Hn). lia.
Qed.
Lemma sub_exact n a b x y : (0 < n)%nat -> represents (TInt n) a x -> represents (TInt n) b y ->
  exists r, op_value (TInt (n + 1)) [TInt n; TInt n] Sub [a; b] = Some r /\ represents (TInt (n + 1)) r (x - y).
Proof.
  intros Hn Ha Hb. eexists. split.
  - apply (signed_op_value Sub OSub (fun x y => Some (x - y)) (TInt (n + 1)) n n a b x y (x - y)); auto. cbn; lia.
  - pose proof (represents_signed_bound _ _ _ Hn Ha). pose proof (represents_signed_bound _ _ _ Hn Hb).
    cbn [size]; apply represents_of_Z_signed; [lia|]. replace (n + 1 - 1)%nat with n by lia.
    rewrite (pow2_pred n Hn). lia.
Qed.
Lemma mul_exact n m a b x y : (0 < n)%nat -> (0 < m)%nat ->
  represents (TInt n) a x -> represents (TInt m) b y ->
  exists r, op_value (TInt (n + m)) [TInt n; TInt m] Mul [a; b] = Some r /\ represents (TInt (n + m)) r (x * y).
Proof.
  intros Hn Hm Ha Hb. eexists. split.
  - apply (signed_op_value Mul OMul (fun x y => Some (x * y)) (TInt (n + m)) n m a b x y (x * y)); auto. cbn; lia.
  - pose proof (represents_signed_bound _ _ _ Hn Ha). pose proof (represents_signed_bound _ _ _ Hm Hb).
    cbn [size]; apply represents_of_Z_signed; [lia|].
    assert (E : 2 ^ Z.of_nat (n + m - 1) = 2 * (2 ^ Z.of_nat (n - 1) * 2 ^ Z.of_nat (m - 1))).
    { rewrite <- Z.pow_add_r by lia. rewrite <- (Z.pow_succ_r 2) by lia. f_equal. lia. }
    rewrite E. pose proof (pow2_pos (n - 1)). pose proof (pow2_pos (m - 1)). nia.
Qed.
Lemma uadd_exact n a b x y : represents (TUInt n) a x -> represents (TUInt n) b y ->
  exists r, op_value (TUInt (n + 1)) [TUInt n; TUInt n] UnsignedAdd [a; b] = Some r /\ represents (TUInt (n + 1)) r (x + y).
Proof.
  intros Ha Hb. eexists. split.
  - apply (unsigned_op_value UnsignedAdd OAdd (fun x y => Some (x + y)) (TUInt (n + 1)) n n a b x y (x + y)); auto. cbn; lia.
  - pose proof (represents_unsigned_bound _ _ _ Ha). pose proof (represents_unsigned_bound _ _ _ Hb).
    cbn [size]; apply represents_of_Z_unsigned. rewrite (pow2_pred (n + 1)) by lia. replace (n + 1 - 1)%nat with n by lia. lia.
Qed.
Lemma usub_value n a b x y : represents (TUInt n) a x -> represents (TUInt n) b y ->
  exists r, op_value (TUInt (n + 1)) [TUInt n; TUInt n] UnsignedSub [a; b] = Some r
    /\ represents (TUInt (n + 1)) r ((x - y) mod 2 ^ Z.of_nat (n + 1)).
Proof.
  intros Ha Hb. eexists. split.
  - apply (unsigned_op_value UnsignedSub OSub (fun x y => Some (x - y)) (TUInt (n + 1)) n n a b x y (x - y)); auto. cbn; lia.
  - split; [apply length_of_Z|]. cbn [size]. apply uval_of_Z.
Qed.
Lemma usub_exact n a b x y : represents (TUInt n) a x -> represents (TUInt n) b y -> y <= x ->
  exists r, op_value (TUInt (n + 1)) [TUInt n; TUInt n] UnsignedSub [a; b] = Some r
    /\ represents (TUInt (n + 1)) r (x - y).
Proof.
  intros Ha Hb Hle. destruct (usub_value n a b x y Ha Hb) as (r & E & R). exists r. split; [exact E|].
  pose proof (represents_unsigned_bound _ _ _ Ha). pose proof (represents_unsigned_bound _ _ _ Hb).
  rewrite Z.mod_small in R; [exact R|]. rewrite (pow2_pred (n + 1)) by lia. replace (n + 1 - 1)%nat with n by lia. lia.
Qed.
Lemma umul_exact n m a b x y : (0 < n + m)%nat -> represents (TUInt n) a x -> represents (TUInt m) b y ->
  exists r, op_value (TUInt (n + m)) [TUInt n; TUInt m] UnsignedMul [a; b] = Some r /\ represents (TUInt (n + m)) r (x * y).
Proof.
  intros Hn Ha Hb. eexists. split.
  - apply (unsigned_op_value UnsignedMul OMul (fun x y => Some (x * y)) (TUInt (n + m)) n m a b x y (x * y)); auto. cbn; lia.
  - pose proof (represents_unsigned_bound _ _ _ Ha). pose proof (represents_unsigned_bound _ _ _ Hb).
    cbn [size]; apply represents_of_Z_unsigned. rewrite Nat2Z.inj_add, Z.pow_add_r by lia. nia.
Qed.

(** Negation keeps the width, so the most negative number wraps to itself. *)
Lemma neg_value n a x : (0 < n)%nat -> represents (TInt n) a x ->
  op_value (TInt n) [TInt n] USub [a] = Some (of_Z n (- x)).
Proof.
  intros Hn [L H]. unfold has_width in L. cbn in L.
  rewrite (op_value_unfold _ _ _ _ (DAssign (VUn UNeg (fv 0)))); [|cbn; lia|reflexivity].
  cbn [drive size]. f_equal. unfold assign_val. cbn [width fv operand_env nth signed eval].
  rewrite L, Nat.max_id, resize_id by exact L.
  rewrite (uval_sval _ _ H), L. rewrite firstn_of_Z by lia. apply of_Z_ext.
  rewrite opp_mod_idemp. reflexivity.
Qed.
Lemma neg_exact n a x : (0 < n)%nat -> represents (TInt n) a x -> x <> - 2 ^ Z.of_nat (n - 1) ->
  exists r, op_value (TInt n) [TInt n] USub [a] = Some r /\ represents (TInt n) r (- x).
Proof.
  intros Hn Ha Hx. eexists. split; [apply (neg_value n a x); assumption|].
  pose proof (represents_signed_bound _ _ _ Hn Ha). cbn [size]; apply represents_of_Z_signed; [exact Hn|]. lia.
Qed.

(** ** Comparisons (C05) *)
Definition cmp_ops (sg : bool) (op : operator) : option (Z -> Z -> bool) :=
  match op with
  | Eq => Some Z.eqb
  | NotEq => Some (fun x y => negb (Z.eqb x y))
  | Lt => if sg then Some Z.ltb else None
  | Le => if sg then Some Z.leb else None
  | Gt => if sg then Some Z.gtb else None
  | Ge => if sg then Some Z.geb else None
  | UnsignedLt => if sg then None else Some Z.ltb
  | UnsignedLe => if sg then None else Some Z.leb
  | UnsignedGt => if sg then None else Some Z.gtb
  | UnsignedGe => if sg then None else Some Z.geb
  | _ => None
  end.

Lemma bnot_bool b : bnot (bit_of_bool b) = bit_of_bool (negb b).
Proof. now destruct b. Qed.

Lemma int_inj n a b x y : represents (TInt n) a x -> represents (TInt n) b y -> (x = y <-> a = b).
Proof.
  intros [La Ha] [Lb Hb]. unfold has_width in *. cbn in *. split.
  - intros <-. apply of_Z_sval in Ha, Hb. rewrite <- Ha, <- Hb. congruence.
  - intros <-. congruence.
Qed.

Lemma sval_known v s : sval v = Some s -> known v.
Proof. intros H. apply uval_known. rewrite (uval_sval _ _ H). discriminate. Qed.

Lemma veq_signed n a b x y : represents (TInt n) a x -> represents (TInt n) b y ->
  veq a b = bit_of_bool (x =? y).
Proof.
  intros Ha Hb. pose proof (int_inj _ _ _ _ _ Ha Hb) as I. destruct Ha as [La Ha], Hb as [Lb Hb].
  unfold has_width in *. cbn in *.
  destruct (Z.eqb_spec x y) as [E|E].
  - apply I in E. subst b. apply veq_refl. now apply sval_known with x.
  - apply veq_neq; [congruence|now apply sval_known with x|now apply sval_known with y|tauto].
Qed.

Lemma compare_signed op f n a b x y :
  cmp_ops true op = Some f -> represents (TInt n) a x -> represents (TInt n) b y ->
  op_value TBool [TInt n; TInt n] op [a; b] = Some [bit_of_bool (f x y)].
Proof.
  intros Hf Ha Hb. unfold op_value. cbn [size Nat.eqb].
  destruct (Nat.eq_dec n 0) as [->|Hn].
  - assert (x = 0 /\ y = 0) as [-> ->].
    { destruct Ha as [La Ha], Hb as [Lb Hb]. unfold has_width in *. cbn in La, Lb.
      apply length_zero_iff_nil in La, Lb. subst. cbn in Ha, Hb. split; congruence. }
    destruct op; try discriminate; cbn in Hf; apply Some_inj in Hf; subst f; reflexivity.
  - pose proof Ha as [La Sa]. pose proof Hb as [Lb Sb]. unfold has_width in La, Lb. cbn [size] in La, Lb.
    assert (Hs : forall o, eval (operand_env [a; b]) 1 false (VBin o (VSigned (fv 0)) (VSigned (fv 1))) =
                 match o with
                 | OLt => [rel true Z.ltb a b] | OGt => [rel true Z.gtb a b]
                 | OLe => [rel true Z.leb a b] | OGe => [rel true Z.geb a b]
                 | _ => eval (operand_env [a; b]) 1 false (VBin o (VSigned (fv 0)) (VSigned (fv 1)))
                 end).
    { intros o. destruct o; try reflexivity;
        cbn [eval width signed fv andb operand_env nth];
        rewrite La, Lb, Nat.max_id;
        rewrite (resize_id false a n La), (resize_id false b n Lb), (resize_id true a n La), (resize_id true b n Lb);
        now rewrite resize_id. }
    assert (He : forall o, o = OEq \/ o = ONe -> eval (operand_env [a; b]) 1 false (VBin o (fv 0) (fv 1)) =
                 [match o with OEq => veq a b | _ => bnot (veq a b) end]).
    { intros o [-> | ->]; cbn [eval width signed fv andb operand_env nth];
        rewrite La, Lb, Nat.max_id; rewrite (resize_id false a n La), (resize_id false b n Lb);
        now rewrite resize_id. }
    destruct op; try discriminate; cbn in Hf; apply Some_inj in Hf; subst f;
      cbn [forward_code length seq binop_zst signed_zst nth size ok drive];
      destruct (Nat.eqb_spec n 0) as [K|_]; try contradiction;
      cbn [ok drive]; f_equal; (apply assign_one_bit; [reflexivity|]);
      cbn [signed fv andb].
    + rewrite He by tauto. now rewrite (veq_signed n a b x y).
    + rewrite He by tauto. now rewrite (veq_signed n a b x y), bnot_bool.
    + rewrite Hs. unfold rel, num. now rewrite Sa, Sb.
    + rewrite Hs. unfold rel, num. now rewrite Sa, Sb.
    + rewrite Hs. unfold rel, num. now rewrite Sa, Sb.
    + rewrite Hs. unfold rel, num. now rewrite Sa, Sb.
Qed.

Lemma compare_unsigned op f n a b x y :
  cmp_ops false op = Some f -> represents (TUInt n) a x -> represents (TUInt n) b y ->
  op_value TBool [TUInt n; TUInt n] op [a; b] = Some [bit_of_bool (f x y)].
Proof.
  intros Hf Ha Hb. unfold op_value. cbn [size Nat.eqb].
  destruct (Nat.eq_dec n 0) as [->|Hn].
  - assert (x = 0 /\ y = 0) as [-> ->].
    { destruct Ha as [La Ha], Hb as [Lb Hb]. unfold has_width in *. cbn in La, Lb.
      apply length_zero_iff_nil in La, Lb. subst. cbn in Ha, Hb. split; congruence. }
    destruct op; try discriminate; cbn in Hf; apply Some_inj in Hf; subst f; reflexivity.
  - pose proof Ha as [La Sa]. pose proof Hb as [Lb Sb]. unfold has_width in La, Lb. cbn [size] in La, Lb.
    assert (Hs : forall o, eval (operand_env [a; b]) 1 false (VBin o (fv 0) (fv 1)) =
                 match o with
                 | OLt => [rel false Z.ltb a b] | OGt => [rel false Z.gtb a b]
                 | OLe => [rel false Z.leb a b] | OGe => [rel false Z.geb a b]
                 | OEq => [veq a b] | ONe => [bnot (veq a b)]
                 | _ => eval (operand_env [a; b]) 1 false (VBin o (fv 0) (fv 1))
                 end).
    { intros o. destruct o; try reflexivity;
        cbn [eval width signed fv andb operand_env nth];
        rewrite La, Lb, Nat.max_id;
        rewrite (resize_id false a n La), (resize_id false b n Lb);
        now rewrite resize_id. }
    destruct op; try discriminate; cbn in Hf; apply Some_inj in Hf; subst f;
      cbn [forward_code length seq binop_zst signed_zst nth size ok drive];
      destruct (Nat.eqb_spec n 0) as [K|_]; try contradiction;
      cbn [ok drive]; f_equal; (apply assign_one_bit; [reflexivity|]);
      cbn [signed fv andb]; rewrite Hs;
      rewrite ?(veq_spec a b x y) by congruence; rewrite ?bnot_bool;
      unfold rel, num; rewrite ?Sa, ?Sb; reflexivity.
Qed.

(** ** Constants (C08) *)
Lemma const_int_correct n z : (0 < n)%nat -> const_int_value n z = Some (of_Z n z).
Proof.
  intros Hn. unfold const_int_value. destruct (Nat.eqb_spec n 0); [lia|]. f_equal.
  unfold const_int_expr.
  assert (Habs : forall w, of_Z w (if z <? 0 then - Z.abs z else Z.abs z) = of_Z w z).
  { intros w. f_equal. destruct (Z.ltb_spec z 0); lia. }
  destruct (Nat.leb_spec 32 n) as [H32|H32].
  - destruct (z <? 0) eqn:Ez; unfold assign_val; cbn [width signed eval]; rewrite length_of_Z, Nat.max_id.
    + rewrite resize_id by apply length_of_Z. rewrite uval_of_Z.
      rewrite firstn_of_Z by lia. rewrite <- (Habs n). apply of_Z_ext.
      apply opp_mod_idemp.
    + rewrite resize_id by apply length_of_Z. rewrite <- (length_of_Z n (Z.abs z)) at 1. rewrite firstn_all.
      apply Habs.
  - destruct (z <? 0) eqn:Ez; unfold assign_val; cbn [width signed eval].
    + rewrite Nat.max_r by lia. rewrite resize_id by apply length_of_Z. rewrite uval_of_Z.
      rewrite firstn_of_Z by lia. rewrite <- (Habs n). apply of_Z_ext.
      replace (2 ^ Z.of_nat 32) with (2 ^ Z.of_nat n * 2 ^ Z.of_nat (32 - n)).
      2:{ rewrite <- Z.pow_add_r by lia. f_equal. lia. }
      pose proof (pow2_pos n). pose proof (pow2_pos (32 - n)).
      rewrite Z.rem_mul_r by lia.
      rewrite Z.opp_add_distr, Zopp_mult_distr_r.
      rewrite Z.mul_comm, Z.mod_add by lia. apply opp_mod_idemp.
    + rewrite Nat.max_r by lia. rewrite resize_id by apply length_of_Z.
      rewrite firstn_of_Z by lia. apply Habs.
Qed.

(** ** Conversions (C06) *)
Lemma truncate_value n m a u : (0 < m)%nat -> (m <= n)%nat -> length a = n -> uval a = Some u ->
  forall t, size t = m -> forall t0, op_value t [t0] Truncate [a] = Some (of_Z m u).
Proof.
  intros Hm Hmn La Hu t Ht t0. unfold op_value. rewrite Ht.
  destruct (Nat.eqb_spec m 0); [lia|]. cbn [forward_code length seq]. rewrite Ht.
  destruct (Nat.eqb_spec m 0); [lia|]. cbn [drive]. f_equal.
  rewrite assign_range by lia. cbn [operand_env nth].
  rewrite slice_spec by lia. cbn [skipn]. rewrite <- (of_Z_uval _ _ Hu). now apply firstn_of_Z; lia.
Qed.

Lemma zext_value n m a u t0 t : size t0 = n -> size t = m -> (0 < n)%nat -> (n <= m)%nat ->
  length a = n -> uval a = Some u ->
  op_value t [t0] ZeroExtend [a] = Some (of_Z m u).
Proof.
  intros H0 Ht Hn Hnm La Hu. unfold op_value. rewrite Ht.
  destruct (Nat.eqb_spec m 0); [lia|]. cbn [forward_code length seq nth]. rewrite Ht, H0.
  destruct (Nat.ltb_spec n m).
  - cbn [drive]. f_equal. rewrite assign_concat.
    + cbn [map rev app concat]. rewrite selfval_lit. unfold fv. rewrite selfval_var. cbn [operand_env nth].
      rewrite app_nil_r.
      pose proof (uval_app a (of_Z (m - n) 0) u 0 Hu ltac:(rewrite uval_of_Z; now rewrite Z.mod_0_l by (pose proof (pow2_pos (m - n)); lia))) as E.
      rewrite Z.mul_0_r, Z.add_0_r in E. apply of_Z_uval in E.
      rewrite app_length, length_of_Z, La in E. now replace (n + (m - n))%nat with m in E by lia.
    + intros e [<-|[<-|[]]]; [now rewrite selfval_lit|unfold fv; now rewrite selfval_var].
    + cbn [map width fv operand_env nth list_sum fold_right]. rewrite length_of_Z. lia.
  - cbn [drive]. f_equal. unfold fv. rewrite assign_var by (cbn [operand_env nth]; lia).
    cbn [operand_env nth]. replace m with (length a) by lia. symmetry. now apply of_Z_uval.
Qed.

Lemma getbit_msb v : v <> [] -> getbit v (length v - 1) = msb v.
Proof.
  intros H. unfold getbit, msb. induction v as [|b v IH]; [congruence|].
  destruct v as [|c v]; [reflexivity|]. cbn [length nth last] in *.
  replace (S (S (length v)) - 1)%nat with (S (length v)) by lia.
  rewrite <- IH by discriminate. now replace (S (length v) - 1)%nat with (length v) by lia.
Qed.

Lemma repeat_concat1 {A} (b : A) n : concat (repeat [b] n) = repeat b n.
Proof. induction n as [|n IH]; cbn; [reflexivity|]. now rewrite IH. Qed.

Lemma sext_value n m a s t0 t : size t0 = n -> size t = m -> (0 < n)%nat -> (n <= m)%nat ->
  length a = n -> sval a = Some s ->
  op_value t [t0] SignExtend [a] = Some (of_Z m s).
Proof.
  intros H0 Ht Hn Hnm La Hs. unfold op_value. rewrite Ht.
  destruct (Nat.eqb_spec m 0); [lia|]. cbn [forward_code length seq nth]. rewrite Ht, H0.
  assert (Hne : a <> []) by (now apply length_pos_ne with n).
  assert (Hext : a ++ repeat (msb a) (m - n) = of_Z m s).
  { rewrite <- (resize_of_sval _ _ m Hs). unfold resize. rewrite La.
    rewrite firstn_all2; [reflexivity|]. rewrite app_length, repeat_length. lia. }
  assert (Hbit : selfval (operand_env [a]) (VBitC (Fwd 0) (n - 1)) = [msb a]).
  { unfold selfval. cbn [width signed eval operand_env nth]. rewrite resize_id by apply length_slice.
    rewrite slice_one, <- La, getbit_msb by assumption. reflexivity. }
  destruct (Nat.ltb_spec n m).
  - destruct (Nat.eqb_spec n 0); [lia|].
    destruct (Nat.eqb_spec (m - n) 1) as [E|E].
    + cbn [drive]. f_equal. rewrite assign_concat.
      * cbn [map rev app concat]. rewrite Hbit. unfold fv. rewrite selfval_var. cbn [operand_env nth].
        rewrite app_nil_r. rewrite E in Hext. exact Hext.
      * intros e [<-|[<-|[]]]; [now rewrite Hbit|unfold fv; now rewrite selfval_var].
      * cbn [map width fv operand_env nth]. rewrite !list_sum_cons. change (list_sum []) with 0%nat. lia.
    + cbn [drive]. f_equal.
      assert (Hrep : selfval (operand_env [a]) (VRepl (m - n) (VBitC (Fwd 0) (n - 1))) = repeat (msb a) (m - n)).
      { unfold selfval at 1. cbn [width signed eval].
        change (resize false 1 (slice (operand_env [a] (Fwd 0)) (n - 1) 1)) with (selfval (operand_env [a]) (VBitC (Fwd 0) (n - 1))).
        rewrite Hbit, repeat_concat1, Nat.mul_1_r. apply resize_id. apply repeat_length. }
      rewrite assign_concat.
      * cbn [map rev app concat]. rewrite Hrep. unfold fv. rewrite selfval_var. cbn [operand_env nth].
        rewrite app_nil_r. exact Hext.
      * intros e [<-|[<-|[]]]; [rewrite Hrep, repeat_length; cbn [width]; lia|unfold fv; now rewrite selfval_var].
      * cbn [map width fv operand_env nth]. rewrite !list_sum_cons. change (list_sum []) with 0%nat. lia.
  - cbn [drive]. f_equal. unfold fv. rewrite assign_var by (cbn [operand_env nth]; lia).
    cbn [operand_env nth]. replace m with n in * by lia. rewrite Nat.sub_diag, app_nil_r in Hext. exact Hext.
Qed.

Lemma concat_value ta tb a b t : has_width ta a -> has_width tb b ->
  size t = (size ta + size tb)%nat ->
  op_value t [ta; tb] Concat [a; b] = Some (b ++ a).
Proof.
  intros Ha Hb Ht. unfold op_value. rewrite Ht.
  assert (HF : Forall2 has_width [ta; tb] [a; b]) by (repeat constructor; assumption).
  destruct (Nat.eqb_spec (size ta + size tb) 0) as [E|E].
  - unfold has_width in *. f_equal. symmetry. apply length_zero_iff_nil. rewrite app_length. lia.
  - cbn [forward_code drive]. f_equal.
    etransitivity; [apply (construct_concat_value [ta; tb] [a; b] _ HF)|].
    + cbn. lia.
    + cbn. now rewrite app_nil_r.
Qed.

(** Division and remainder *)
Lemma div_value n a b x y : (0 < n)%nat -> represents (TInt n) a x -> represents (TInt n) b y -> y <> 0 ->
  op_value (TInt n) [TInt n; TInt n] Div [a; b] = Some (of_Z n (Z.quot x y)).
Proof.
  intros Hn Ha Hb Hy. apply (signed_op_value Div ODiv zdiv (TInt n) n n a b x y); auto; [cbn; lia|].
  unfold zdiv. destruct (Z.eqb_spec y 0); [contradiction|reflexivity].
Qed.
Lemma mod_value n a b x y : (0 < n)%nat -> represents (TInt n) a x -> represents (TInt n) b y -> y <> 0 ->
  op_value (TInt n) [TInt n; TInt n] Mod [a; b] = Some (of_Z n (Z.rem x y)).
Proof.
  intros Hn Ha Hb Hy. apply (signed_op_value Mod OMod zmod (TInt n) n n a b x y); auto; [cbn; lia|].
  unfold zmod. destruct (Z.eqb_spec y 0); [contradiction|reflexivity].
Qed.

Lemma quot_bound x y B : y > 0 -> - B <= x < B -> - B <= Z.quot x y < B.
Proof.
  intros Hy Hx. destruct (Z_lt_le_dec x 0).
  - replace x with (- (- x)) by lia. rewrite Z.quot_opp_l by lia.
    rewrite Z.quot_div_nonneg by lia. pose proof (Z.div_le_upper_bound (- x) y (- x) ltac:(lia) ltac:(nia)).
    pose proof (Z.div_pos (- x) y ltac:(lia) ltac:(lia)). lia.
  - rewrite Z.quot_div_nonneg by lia. pose proof (Z.div_le_upper_bound x y x ltac:(lia) ltac:(nia)).
    pose proof (Z.div_pos x y ltac:(lia) ltac:(lia)). lia.
Qed.

Lemma div_exact n a b x y : (0 < n)%nat -> represents (TInt n) a x -> represents (TInt n) b y -> 0 < y ->
  exists r, op_value (TInt n) [TInt n; TInt n] Div [a; b] = Some r /\ represents (TInt n) r (Z.quot x y).
Proof.
  intros Hn Ha Hb Hy. eexists. split; [apply (div_value n a b x y); auto; lia|].
  pose proof (represents_signed_bound _ _ _ Hn Ha). cbn [size]; apply represents_of_Z_signed; [exact Hn|].
  apply quot_bound; lia.
Qed.
Lemma mod_exact n a b x y : (0 < n)%nat -> represents (TInt n) a x -> represents (TInt n) b y -> 0 < y ->
  exists r, op_value (TInt n) [TInt n; TInt n] Mod [a; b] = Some r /\ represents (TInt n) r (Z.rem x y).
Proof.
  intros Hn Ha Hb Hy. eexists. split; [apply (mod_value n a b x y); auto; lia|].
  pose proof (represents_signed_bound _ _ _ Hn Ha). cbn [size]; apply represents_of_Z_signed; [exact Hn|].
  pose proof (represents_signed_bound _ _ _ Hn Hb).
  pose proof (Z.rem_bound_abs x y ltac:(lia)). lia.
Qed.
Lemma udiv_exact n a b x y : (0 < n)%nat -> represents (TUInt n) a x -> represents (TUInt n) b y -> 0 < y ->
  exists r, op_value (TUInt n) [TUInt n; TUInt n] UnsignedDiv [a; b] = Some r /\ represents (TUInt n) r (x / y).
Proof.
  intros Hn Ha Hb Hy. pose proof (represents_unsigned_bound _ _ _ Ha).
  eexists. split.
  - apply (unsigned_op_value UnsignedDiv ODiv zdiv (TUInt n) n n a b x y (x / y)); auto; [cbn; lia|].
    unfold zdiv. destruct (Z.eqb_spec y 0); [lia|]. now rewrite Z.quot_div_nonneg by lia.
  - cbn [size]; apply represents_of_Z_unsigned.
    pose proof (Z.div_le_upper_bound x y x ltac:(lia) ltac:(nia)).
    pose proof (Z.div_pos x y ltac:(lia) ltac:(lia)). lia.
Qed.
Lemma umod_exact n a b x y : (0 < n)%nat -> represents (TUInt n) a x -> represents (TUInt n) b y -> 0 < y ->
  exists r, op_value (TUInt n) [TUInt n; TUInt n] UnsignedMod [a; b] = Some r /\ represents (TUInt n) r (x mod y).
Proof.
  intros Hn Ha Hb Hy. pose proof (represents_unsigned_bound _ _ _ Ha). pose proof (represents_unsigned_bound _ _ _ Hb).
  eexists. split.
  - apply (unsigned_op_value UnsignedMod OMod zmod (TUInt n) n n a b x y (x mod y)); auto; [cbn; lia|].
    unfold zmod. destruct (Z.eqb_spec y 0); [lia|]. now rewrite Z.rem_mod_nonneg by lia.
  - cbn [size]; apply represents_of_Z_unsigned. pose proof (Z.mod_pos_bound x y ltac:(lia)). lia.
Qed.

(** ** Representation form of the conversions *)
Lemma zext_exact n m a u : (0 < n)%nat -> (n <= m)%nat -> represents (TUInt n) a u ->
  exists r, op_value (TUInt m) [TUInt n] ZeroExtend [a] = Some r /\ represents (TUInt m) r u.
Proof.
  intros Hn Hm Ha. pose proof (represents_unsigned_bound _ _ _ Ha). destruct Ha as [L H1]. eexists. split.
  - apply (zext_value n m a u); auto.
  - apply represents_of_Z_unsigned. pose proof (pow2_mono n m Hm). lia.
Qed.
Lemma sext_exact n m a s : (0 < n)%nat -> (n <= m)%nat -> represents (TInt n) a s ->
  exists r, op_value (TInt m) [TInt n] SignExtend [a] = Some r /\ represents (TInt m) r s.
Proof.
  intros Hn Hm Ha. pose proof (represents_signed_bound _ _ _ Hn Ha). destruct Ha as [L H1]. eexists. split.
  - apply (sext_value n m a s); auto.
  - apply represents_of_Z_signed; [lia|]. pose proof (pow2_mono (n - 1) (m - 1) ltac:(lia)). lia.
Qed.
Lemma utrunc_exact n m a u : (0 < m)%nat -> (m <= n)%nat -> represents (TUInt n) a u ->
  exists r, op_value (TUInt m) [TUInt n] Truncate [a] = Some r /\ represents (TUInt m) r (u mod 2 ^ Z.of_nat m).
Proof.
  intros Hm Hn [L H]. eexists. split; [apply (truncate_value n m a u); auto|].
  split; [unfold has_width; apply length_of_Z|]. apply uval_of_Z.
Qed.
Lemma strunc_exact n m a s : (0 < m)%nat -> (m <= n)%nat -> represents (TInt n) a s ->
  exists r z, op_value (TInt m) [TInt n] Truncate [a] = Some r /\ represents (TInt m) r z
    /\ z mod 2 ^ Z.of_nat m = s mod 2 ^ Z.of_nat m.
Proof.
  intros Hm Hn [L H]. pose proof (uval_sval _ _ H) as Hu. unfold has_width in L. cbn [size] in L. rewrite L in Hu.
  exists (of_Z m (s mod 2 ^ Z.of_nat n)).
  assert (Ev : uval (of_Z m (s mod 2 ^ Z.of_nat n)) <> None) by (rewrite uval_of_Z; discriminate).
  destruct (sval (of_Z m (s mod 2 ^ Z.of_nat n))) as [z|] eqn:E.
  - exists z. split; [apply (truncate_value n m a); auto|]. split; [split; [apply length_of_Z|exact E]|].
    apply uval_sval in E. rewrite uval_of_Z, length_of_Z in E. apply Some_inj in E. rewrite <- E.
    assert (D : (2 ^ Z.of_nat m | 2 ^ Z.of_nat n)).
    { exists (2 ^ Z.of_nat (n - m)). rewrite <- Z.pow_add_r by lia. f_equal. lia. }
    rewrite <- Znumtheory.Zmod_div_mod; [reflexivity|apply pow2_pos|apply pow2_pos|exact D].
  - exfalso. unfold sval in E. rewrite uval_of_Z in E. destruct (msb _); discriminate.
Qed.
