(** The operators of the lowered code compute what the source operators mean. *)
From Coq Require Import List ZArith Lia Bool Arith.
From Verif Require Import Bits BitsFacts Verilog CodegenModel CodegenSpec CgLayout CgArith CgShift CgEq PatModel PatSpec LowerModel LowerSpec LowerProofs RegSpec ExprModel ExprSpec.
Import ListNotations.
Local Open Scope list_scope.
Local Open Scope Z_scope.

Lemma wrap_signed n z : (0 < n)%nat -> - 2 ^ Z.of_nat (n - 1) <= wrap (CInt n) z < 2 ^ Z.of_nat (n - 1) /\ (wrap (CInt n) z) mod 2 ^ Z.of_nat n = z mod 2 ^ Z.of_nat n.
Proof.
  intros H. cbn [wrap]. pose proof (pow2_pred n H) as E. pose proof (pow2_pos (n - 1)).
  pose proof (Z.mod_pos_bound (z + 2 ^ Z.of_nat (n - 1)) (2 ^ Z.of_nat n) ltac:(lia)). split; [lia|].
  rewrite Zminus_mod_idemp_l. f_equal. lia.
Qed.
Lemma number_size t n : number t n -> size (to_mir_type t) = n.
Proof. intros [_ [-> | ->]]; reflexivity. Qed.
Lemma number_of_Z t n z : number t n -> encodes t (VInt (wrap t z)) (of_Z n z).
Proof.
  intros [H [-> | ->]].
  - destruct (wrap_signed n z H) as [B E]. constructor. rewrite <- (of_Z_ext _ _ _ E). now apply represents_of_Z_signed.
  - constructor. split; [apply length_of_Z|]. cbn [wrap]. now apply uval_of_Z.
Qed.
Lemma number_bits t n x w : number t n -> encodes t (VInt x) w -> w = of_Z n x /\ wrap t x = x /\ has_type t (VInt x).
Proof.
  intros [H [-> | ->]] E; inversion E as [| | | |? ? ? R|? ? ? R| |]; subst; destruct R as [L V]; unfold has_width in L; cbn in L; cbn [wrap].
  - assert (represents (TInt n) w x) as R by (split; auto). pose proof (represents_signed_bound _ _ _ H R) as B. pose proof (of_Z_sval _ _ V). rewrite L in *. split; [auto|].
    pose proof (pow2_pred n H). split.
    + rewrite Z.mod_small; lia.
    + destruct n; [lia|]. constructor. now replace (S n - 1)%nat with n in B by lia.
  - assert (represents (TUInt n) w x) as R by (split; auto). pose proof (represents_unsigned_bound _ _ _ R) as B. pose proof (of_Z_uval _ _ V). rewrite L in *. split; [auto|]. split; [now apply Z.mod_small|now constructor].
Qed.
Lemma number_uval t n x w : number t n -> encodes t (VInt x) w -> List.length w = n /\ uval w = Some (x mod 2 ^ Z.of_nat n).
Proof. intros N E. destruct (number_bits _ _ _ _ N E) as [-> _]. split; [apply length_of_Z|apply uval_of_Z]. Qed.

Lemma shift_amount_uval t n y w : number t n -> 0 <= y -> encodes t (VInt y) w -> uval w = Some y.
Proof.
  intros N Hy E. destruct (number_uval _ _ _ _ N E) as [_ ->]. f_equal. apply Z.mod_small. split; [exact Hy|].
  destruct (number_bits _ _ _ _ N E) as (_ & Q & _). destruct N as [Hn [-> | ->]]; inversion E as [| | | |? ? ? R|? ? ? R| |]; subst.
  - apply represents_signed_bound in R; [|exact Hn]. rewrite (pow2_pred n Hn). lia.
  - now apply represents_unsigned_bound in R.
Qed.
(** Shifts look at bits only. *)
Lemma shift_types t n op ta vals : number t n -> In op [LeftShift; RightShift; ArithmeticRightShift] ->
  op_value (to_mir_type t) [to_mir_type t; ta] op vals = op_value (TUInt n) [TUInt n; ta] op vals /\
  op_value (to_mir_type t) [to_mir_type t; ta] op vals = op_value (TInt n) [TInt n; ta] op vals.
Proof. intros [_ [-> | ->]] [<-|[<-|[<-|[]]]]; split; reflexivity. Qed.

Definition bop (op : ExprModel.binop) (t : ty) : option operator :=
  match op with
  | BAdd => dual Add UnsignedAdd t
  | BSub => dual Sub UnsignedSub t
  | BMul => dual Mul UnsignedMul t
  | BShl => Some LeftShift
  | BShr => Some RightShift
  | BSar => Some ArithmeticRightShift
  | BDiv => dual Div UnsignedDiv t
  | BMod => dual Mod UnsignedMod t
  end.
Lemma bin_operator_bop op a b o : bin_operator op a b = Some o -> bop op (to_mir_type (ety a)) = Some o.
Proof. destruct op; cbn; auto; destruct (pow2_literal b); auto; discriminate. Qed.

Lemma divisions op ta n x y z wa wb o : In op [BDiv; BMod] -> number ta n ->
  bin_value op ta n x y z -> encodes ta (VInt x) wa -> encodes ta (VInt y) wb -> bop op (to_mir_type ta) = Some o ->
  exists r, op_value (to_mir_type ta) [to_mir_type ta; to_mir_type ta] o [wa; wb] = Some r /\ encodes ta (VInt z) r.
Proof.
  intros I [Hn T] V Ea Eb O.
  destruct I as [<-|[<-|[]]]; cbn [bin_value] in V; destruct V as [Hy ->]; destruct T as [-> | ->]; cbn in O; apply Some_inj in O; subst o;
    inversion Ea as [| | | |? ? ? Ra|? ? ? Ra| |]; inversion Eb as [| | | |? ? ? Rb|? ? ? Rb| |]; subst; cbn [to_mir_type].
  - destruct (div_exact n wa wb x y Hn Ra Rb Hy) as (r & E & R). exists r. split; [exact E|now constructor].
  - destruct (udiv_exact n wa wb x y Hn Ra Rb Hy) as (r & E & R). exists r. split; [exact E|]. constructor.
    rewrite Z.quot_div_nonneg; [exact R| |exact Hy]. apply represents_unsigned_bound in Ra. lia.
  - destruct (mod_exact n wa wb x y Hn Ra Rb Hy) as (r & E & R). exists r. split; [exact E|now constructor].
  - destruct (umod_exact n wa wb x y Hn Ra Rb Hy) as (r & E & R). exists r. split; [exact E|]. constructor.
    rewrite Z.rem_mod_nonneg; [exact R| |exact Hy]. apply represents_unsigned_bound in Ra. lia.
Qed.

Lemma bin_correct op ta tb t x y z wa wb o : bin_type op ta tb t -> bin_value op ta (size (to_mir_type ta)) x y z ->
  encodes ta (VInt x) wa -> encodes tb (VInt y) wb -> bop op (to_mir_type ta) = Some o ->
  exists r, op_value (to_mir_type t) [to_mir_type ta; to_mir_type tb] o [wa; wb] = Some r /\ encodes t (VInt z) r.
Proof.
  intros T V Ea Eb O. destruct op; cbn [bin_type] in T.
  - destruct T as (n & Hn & [(-> & -> & ->)|(-> & -> & ->)]); inversion Ea as [| | | |? ? ? Ra|? ? ? Ra| |]; inversion Eb as [| | | |? ? ? Rb|? ? ? Rb| |]; subst;
      cbn in O; apply Some_inj in O; subst o; cbn in V; subst z; cbn [to_mir_type].
    + destruct (add_exact n wa wb x y Hn Ra Rb) as (r & E & R). exists r. split; [exact E|now constructor].
    + destruct (uadd_exact n wa wb x y Ra Rb) as (r & E & R). exists r. split; [exact E|now constructor].
  - destruct T as (n & Hn & [(-> & -> & ->)|(-> & -> & ->)]); inversion Ea as [| | | |? ? ? Ra|? ? ? Ra| |]; inversion Eb as [| | | |? ? ? Rb|? ? ? Rb| |]; subst;
      cbn in O; apply Some_inj in O; subst o; cbn [to_mir_type] in *.
    + cbn in V. subst z. destruct (sub_exact n wa wb x y Hn Ra Rb) as (r & E & R). exists r. split; [exact E|now constructor].
    + cbn [bin_value size] in V. subst z. destruct (usub_value n wa wb x y Ra Rb) as (r & E & R). exists r. split; [exact E|now constructor].
  - destruct T as (n & m & Hn & Hm & [(-> & -> & ->)|(-> & -> & ->)]); inversion Ea as [| | | |? ? ? Ra|? ? ? Ra| |]; inversion Eb as [| | | |? ? ? Rb|? ? ? Rb| |]; subst;
      cbn in O; apply Some_inj in O; subst o; cbn in V; subst z; cbn [to_mir_type].
    + destruct (mul_exact n m wa wb x y Hn Hm Ra Rb) as (r & E & R). exists r. split; [exact E|now constructor].
    + destruct (umul_exact n m wa wb x y ltac:(lia) Ra Rb) as (r & E & R). exists r. split; [exact E|now constructor].
  - destruct T as (-> & -> & n & N). cbn in O. apply Some_inj in O. subst o. cbn [bin_value] in V. destruct V as [Hy ->].
    pose proof (shift_amount_uval _ _ _ _ N Hy Eb) as U. destruct (number_uval _ _ _ _ N Ea) as [La Ua].
    destruct (shift_types t n LeftShift (to_mir_type t) [wa; wb] N) as [-> _]; [cbn; auto|].
    rewrite (lshift_value n wa (x mod 2 ^ Z.of_nat n) wb y); [|apply N|split; auto|exact U]. eexists. split; [reflexivity|].
    rewrite (of_Z_ext n (x mod 2 ^ Z.of_nat n * 2 ^ y) (x * 2 ^ y)); [now apply number_of_Z|]. now rewrite Zmult_mod_idemp_l.
  - destruct T as (-> & -> & n & N). cbn in O. apply Some_inj in O. subst o. cbn [bin_value] in V. destruct V as [Hy ->]. rewrite (number_size _ _ N).
    pose proof (shift_amount_uval _ _ _ _ N Hy Eb) as U. destruct (number_uval _ _ _ _ N Ea) as [La Ua].
    destruct (shift_types t n RightShift (to_mir_type t) [wa; wb] N) as [-> _]; [cbn; auto|].
    rewrite (rshift_value n wa (x mod 2 ^ Z.of_nat n) wb y); [|apply N|split; auto|exact U]. eexists. split; [reflexivity|]. now apply number_of_Z.
  - destruct T as (-> & -> & n & N). cbn in O. apply Some_inj in O. subst o. cbn [bin_value] in V. destruct V as [Hy ->]. rewrite (number_size _ _ N).
    pose proof (shift_amount_uval _ _ _ _ N Hy Eb) as U. destruct (number_bits _ _ _ _ N Ea) as [-> _].
    destruct (shift_types t n ArithmeticRightShift (to_mir_type t) [of_Z n x; wb] N) as [_ ->]; [cbn; auto|].
    destruct (wrap_signed n x (proj1 N)) as [B E]. rewrite <- (of_Z_ext _ _ _ E).
    rewrite (arshift_value n _ (wrap (CInt n) x) wb y); [|apply N|now apply represents_of_Z_signed; [apply N|]|exact U]. eexists. split; [reflexivity|]. now apply number_of_Z.
  - destruct T as (-> & -> & n & N). rewrite (number_size _ _ N) in V. apply (divisions BDiv t n x y z); cbn; auto.
  - destruct T as (-> & -> & n & N). rewrite (number_size _ _ N) in V. apply (divisions BMod t n x y z); cbn; auto.
Qed.

(** ** Unary operators *)
Lemma map_bnot_of_Z n z : map bnot (of_Z n z) = of_Z n (- z - 1).
Proof.
  revert z. induction n as [|n IH]; intros z; [reflexivity|]. cbn [of_Z map]. rewrite IH. f_equal.
  - rewrite <- Z.negb_even. replace (- z - 1) with (- (z + 1)) by lia. rewrite Z.odd_opp, Z.add_1_r, Z.odd_succ. now destruct (Z.even z).
  - f_equal. rewrite !Z.div2_div. pose proof (Z.div_mod z 2 ltac:(lia)). pose proof (Z.mod_pos_bound z 2 ltac:(lia)).
    apply Z.div_unique with (r := 1 - z mod 2); lia.
Qed.
Lemma bitnot_value t a : has_width t a -> (size t <> 0)%nat -> op_value t [t] BitwiseNot [a] = Some (map bnot a).
Proof.
  intros L H. unfold has_width in L. rewrite (op_value_unfold _ _ _ _ (DAssign (VUn Verilog.UBitNot (fv 0)))); [|exact H|reflexivity].
  cbn [drive]. f_equal. unfold assign_val. cbn [width fv operand_env nth signed eval]. rewrite L, Nat.max_id, resize_id by exact L.
  rewrite <- L, <- (map_length bnot a). apply firstn_all.
Qed.
Lemma un_correct op ta t v z wa : un_type op ta t -> un_value op t v z -> encodes ta v wa ->
  exists r, op_value (to_mir_type t) [to_mir_type ta] (un_operator op) [wa] = Some r /\ encodes t z r.
Proof.
  intros T V Ea. destruct op; cbn [un_type] in T; destruct v, z; cbn [un_value] in V; try contradiction.
  - destruct T as (n & Hn & -> & ->). rewrite V. inversion Ea; subst. cbn [to_mir_type un_operator]. erewrite (neg_value n wa) by eauto.
    eexists. split; [reflexivity|]. apply (number_of_Z (CInt n)). split; auto.
  - destruct T as [-> ->]. rewrite V. inversion Ea as [| | | | | |? ? I|]; subst. unfold is_bool in I. subst wa. cbn [to_mir_type un_operator].
    eexists. split; [|constructor; reflexivity]. unfold op_value. cbn [to_mir_type size Nat.eqb]. destruct b; reflexivity.
  - destruct T as (-> & n & N). rewrite V. destruct (number_bits _ _ _ _ N Ea) as [-> _]. cbn [un_operator]. pose proof (number_size _ _ N) as S.
    rewrite bitnot_value; [|unfold has_width; now rewrite length_of_Z, S|rewrite S; destruct N; lia]. eexists. split; [reflexivity|].
    rewrite map_bnot_of_Z. now apply number_of_Z.
Qed.

(** ** Select *)
Lemma select_value t (b : bool) a c : has_width t a -> has_width t c ->
  op_value t [TBool; t; t] Select [[if b then B1 else B0]; a; c] = Some (if b then a else c).
Proof.
  intros La Lc. unfold has_width in *. destruct (Nat.eq_dec (size t) 0) as [Z|Z].
  - rewrite op_value_zero by exact Z. rewrite Z in *. apply length_zero_iff_nil in La, Lc. subst. now destruct b.
  - rewrite (op_value_unfold _ _ _ _ (DAssign (VCond (fv 0) (fv 1) (fv 2)))); [|exact Z|reflexivity].
    cbn [drive]. f_equal. unfold assign_val. cbn [width fv operand_env nth signed eval andb]. rewrite La, Lc, !Nat.max_id, (resize_id _ a), (resize_id _ c) by assumption.
    destruct b; cbn; [rewrite <- La|rewrite <- Lc]; apply firstn_all.
Qed.

(** ** Arrays of bools *)
Lemma concat_bits (x : list bool) : concat (map (fun b => [bit_of_bool b]) x) = map bit_of_bool x.
Proof. induction x; cbn; congruence. Qed.
Lemma bools_widths (x : list bool) : Forall (has_width TBool) (map (fun b => [bit_of_bool b]) x).
Proof. induction x; constructor; auto. reflexivity. Qed.
Lemma bools_encoded (x : list bool) : encodes (CArray CBool (List.length x)) (VNode (map VBool x)) (map bit_of_bool x).
Proof.
  apply E_array with (ws := map (fun b => [bit_of_bool b]) x).
  - induction x as [|b x IH]; cbn; constructor; auto. constructor. now destruct b.
  - rewrite <- concat_bits. pose proof (construct_array_value TBool _ (bools_widths x)) as E. now rewrite map_length in E.
Qed.
Lemma Forall3_bools n x ws : Forall3 (repeat CBool n) (map VBool x) ws -> List.length x = n /\ ws = map (fun b => [bit_of_bool b]) x.
Proof.
  revert n ws. induction x as [|b x IH]; intros [|n] ws H; inversion H as [|? ? ? ? ? ? He Hr]; subst; [auto|].
  apply IH in Hr as [L ->]. inversion He as [| | | | | |? ? I|]; subst. split; [reflexivity|]. unfold is_bool in I. subst. cbn. now destruct b.
Qed.
Lemma bools_bits n x w : encodes (CArray CBool n) (VNode (map VBool x)) w -> List.length x = n /\ w = map bit_of_bool x.
Proof.
  intros E. inversion E as [| |? ? ? ws ? F V| | | | |]; subst. apply Forall3_bools in F as [<- ->]. split; [reflexivity|].
  pose proof (construct_array_value TBool _ (bools_widths x)) as C. rewrite map_length in C. cbn [to_mir_type] in V. rewrite C in V. apply Some_inj in V. now rewrite <- V, concat_bits.
Qed.
Lemma map2_length f a b : List.length a = List.length b -> List.length (map2 f a b) = List.length a.
Proof. revert b. induction a; intros [|b0 b] H; cbn in *; try lia. rewrite IHa; lia. Qed.
Lemma bitwise_value t op o a b : has_width t a -> has_width t b ->
  In (op, o) [(BitwiseAnd, OAnd, band); (BitwiseOr, OOr, bor); (BitwiseXor, OXor, bxor)] ->
  op_value t [t; t] (fst op) [a; b] = Some (map2 o a b).
Proof.
  intros La Lb I. unfold has_width in *. destruct (Nat.eq_dec (size t) 0) as [Z|Z].
  - rewrite op_value_zero by exact Z. rewrite Z in *. apply length_zero_iff_nil in La, Lb. now subst.
  - assert (Q : List.length (map2 o a b) = size t) by (rewrite map2_length; lia).
    rewrite (op_value_unfold _ _ _ _ (DAssign (VBin (snd op) (fv 0) (fv 1)))); [|exact Z|destruct I as [I|[I|[I|[]]]]; injection I as <- <-; reflexivity].
    cbn [drive]. f_equal. unfold assign_val.
    destruct I as [I|[I|[I|[]]]]; injection I as <- <-; cbn [snd width fv operand_env nth signed eval andb]; rewrite La, Lb, !Nat.max_id, (resize_id _ a), (resize_id _ b) by assumption; rewrite <- Q; apply firstn_all.
Qed.
Lemma map2_bools f g x y : (forall a b, f (bit_of_bool a) (bit_of_bool b) = bit_of_bool (g a b)) -> List.length x = List.length y ->
  map2 f (map bit_of_bool x) (map bit_of_bool y) = map bit_of_bool (map (fun p => g (fst p) (snd p)) (combine x y)).
Proof. intros H. revert y. induction x as [|a x IH]; intros [|b y] L; cbn in *; try lia; [reflexivity|]. rewrite H, IH by lia. reflexivity. Qed.
Lemma pointwise_correct n op o g a b r wa wb :
  In (op, o, g) [(BitwiseAnd, OAnd, band, andb); (BitwiseOr, OOr, bor, orb); (BitwiseXor, OXor, bxor, xorb)] ->
  pointwise g a b r -> encodes (CArray CBool n) a wa -> encodes (CArray CBool n) b wb ->
  exists w, op_value (TArray TBool n) [TArray TBool n; TArray TBool n] (fst op) [wa; wb] = Some w /\ encodes (CArray CBool n) r w.
Proof.
  intros I (x & y & L & -> & -> & ->) Ea Eb. pose proof (encodes_width _ _ _ Ea) as Wa. pose proof (encodes_width _ _ _ Eb) as Wb. cbn [to_mir_type] in Wa, Wb.
  apply bools_bits in Ea as [<- ->]. apply bools_bits in Eb as [_ ->]. exists (map2 o (map bit_of_bool x) (map bit_of_bool y)). split.
  - apply (bitwise_value _ op o _ _ Wa Wb). destruct I as [I|[I|[I|[]]]]; injection I as <- <- <-; cbn; auto.
  - rewrite (map2_bools o g); [|destruct I as [I|[I|[I|[]]]]; injection I as <- <- <-; intros [] []; reflexivity|exact L].
    pose proof (bools_encoded (map (fun p => g (fst p) (snd p)) (combine x y))) as Q. rewrite map_map in Q.
    now rewrite map_length, combine_length, <- L, Nat.min_id in Q.
Qed.
Lemma reduce_value t op o f a : has_width t a -> (size t <> 0)%nat -> In (op, o, f) [(ReduceAnd, URedAnd, fold_right band B1); (ReduceOr, URedOr, fold_right bor B0); (ReduceXor, URedXor, fold_right bxor B0)] ->
  op_value TBool [t] op [a] = Some [f a].
Proof.
  intros L H I. unfold has_width in L. rewrite (op_value_unfold _ _ _ _ (DAssign (VUn o (fv 0)))); [|discriminate|destruct I as [I|[I|[I|[]]]]; injection I as <- <- <-; reflexivity].
  cbn [drive size]. f_equal. unfold assign_val.
  destruct I as [I|[I|[I|[]]]]; injection I as <- <- <-; cbn [width fv operand_env nth signed eval]; rewrite (resize_id false a) by reflexivity; reflexivity.
Qed.
Lemma reduce_bools x : fold_right band B1 (map bit_of_bool x) = bit_of_bool (forallb (fun b => b) x) /\
  fold_right bor B0 (map bit_of_bool x) = bit_of_bool (existsb (fun b => b) x) /\
  fold_right bxor B0 (map bit_of_bool x) = bit_of_bool (fold_right xorb false x).
Proof. induction x as [|b x (A & B & C)]; [auto|]. cbn. rewrite A, B, C. repeat split; destruct b, (forallb (fun b => b) x), (existsb (fun b => b) x), (fold_right xorb false x); reflexivity. Qed.

(** ** Equality *)
Lemma known_of_Z n z : known (of_Z n z).
Proof. apply uval_known. rewrite uval_of_Z. discriminate. Qed.
Lemma concat_inj_widths ts (a b : list bits) : Forall2 has_width ts a -> Forall2 has_width ts b -> concat (rev a) = concat (rev b) -> a = b.
Proof.
  intros Fa. revert b. induction Fa as [|t v ts a L Fa IH]; intros b Fb E; inversion Fb as [|? w ? b' Lw Fb']; subst; [reflexivity|].
  cbn [rev] in E. rewrite !concat_app in E. cbn [concat] in E. rewrite !app_nil_r in E.
  assert (Q : List.length (concat (rev a)) = List.length (concat (rev b'))) by (rewrite (length_concat_vals _ _ Fa), (length_concat_vals _ _ Fb'); reflexivity).
  assert (concat (rev a) = concat (rev b') /\ v = w) as [E1 ->].
  { clear - E Q. revert E Q. generalize (concat (rev a)) (concat (rev b')). induction l as [|c l IH]; intros [|d l'] E Q; cbn in *; try lia; [auto|].
    injection E as <- E. destruct (IH l' E ltac:(lia)) as [-> ->]. auto. }
  f_equal. now apply IH.
Qed.
Lemma tuple_bits ts ws w : Forall2 has_width (map to_mir_type ts) ws ->
  (op_value (TTuple (map to_mir_type ts)) (map to_mir_type ts) ConstructTuple ws = Some w -> w = concat (rev ws)) /\
  (op_value (to_mir_type (CStruct ts)) (map to_mir_type ts) ConstructTuple ws = Some w -> w = concat (rev ws)).
Proof.
  intros F. pose proof (construct_tuple_value _ _ F) as E. split; intros V.
  - rewrite E in V. now apply Some_inj in V.
  - assert (Q : op_value (to_mir_type (CStruct ts)) (map to_mir_type ts) ConstructTuple ws = op_value (TTuple (map to_mir_type ts)) (map to_mir_type ts) ConstructTuple ws).
    { unfold op_value. replace (size (to_mir_type (CStruct ts))) with (size (TTuple (map to_mir_type ts))); [reflexivity|]. cbn. now rewrite !map_map. }
    rewrite Q, E in V. now apply Some_inj in V.
Qed.
Lemma plain_bits : forall t v w, encodes t v w -> plain t -> known w /\ forall v' w', encodes t v' w' -> (v = v' <-> w = w').
Proof.
  apply (encodes_mut (fun t v w _ => plain t -> known w /\ forall v' w', encodes t v' w' -> (v = v' <-> w = w'))
    (fun ts vs ws _ => Forall plain ts -> Forall known ws /\ forall vs' ws', Forall3 ts vs' ws' -> (vs = vs' <-> ws = ws'))); intros.
  - inversion H0; subst. destruct (H H2) as [K I]. pose proof (Forall3_widths _ _ _ f) as W. apply (tuple_bits _ _ _ W) in e. subst w. split.
    + apply known_concat. apply Forall_rev. exact K.
    + intros v' w' E'. inversion E' as [? vs' ws' ? F' V'| | | | | | |]; subst. pose proof (Forall3_widths _ _ _ F') as W'. apply (tuple_bits _ _ _ W') in V'. subst w'.
      specialize (I _ _ F'). split; [intros Q; injection Q as Q; apply I in Q; now subst|intros Q; apply (concat_inj_widths _ _ _ W W') in Q; apply I in Q; now subst].
  - inversion H0; subst. destruct (H H2) as [K I]. pose proof (Forall3_widths _ _ _ f) as W. apply (tuple_bits _ _ _ W) in e. subst w. split.
    + apply known_concat. apply Forall_rev. exact K.
    + intros v' w' E'. inversion E' as [|? vs' ws' ? F' V'| | | | | |]; subst. pose proof (Forall3_widths _ _ _ F') as W'. apply (tuple_bits _ _ _ W') in V'. subst w'.
      specialize (I _ _ F'). split; [intros Q; injection Q as Q; apply I in Q; now subst|intros Q; apply (concat_inj_widths _ _ _ W W') in Q; apply I in Q; now subst].
  - inversion H0; subst. assert (Fp : Forall plain (repeat t n)) by (apply Forall_forall; intros ? Hx; apply repeat_spec in Hx; now subst). destruct (H Fp) as [K I].
    pose proof (widths_repeat _ _ _ (Forall3_widths _ _ _ f)) as W. pose proof (Forall3_repeat _ _ _ _ f) as L.
    pose proof (construct_array_value _ _ W) as C. rewrite L, e in C. apply Some_inj in C. subst w. split; [now apply known_concat|].
    intros v' w' E'. inversion E' as [| |? ? vs' ws' ? F' V'| | | | |]; subst. pose proof (widths_repeat _ _ _ (Forall3_widths _ _ _ F')) as W'. pose proof (Forall3_repeat _ _ _ _ F') as L'.
    pose proof (construct_array_value _ _ W') as C. rewrite L', V' in C. apply Some_inj in C. subst w'. specialize (I _ _ F').
    split; [intros Q; injection Q as Q; apply I in Q; now subst|]. intros Q. apply (concat_inj_uniform (size (to_mir_type t))) in Q; auto; try congruence. apply I in Q. now subst.
  - inversion H0.
  - split; [destruct r as [_ V]; eapply sval_known; exact V|]. intros v' w' E'. inversion E' as [| | | |? z' ? R'| | |]; subst.
    rewrite <- (int_inj _ _ _ _ _ r R'). split; [intros Q; now injection Q|congruence].
  - split; [destruct r as [_ V]; apply uval_known; rewrite V; discriminate|]. intros v' w' E'. inversion E' as [| | | | |? z' ? R'| |]; subst. destruct r as [L V], R' as [L' V']. unfold has_width in *.
    split; [intros Q; injection Q as <-; apply (uval_inj w w' z); congruence|intros <-; congruence].
  - unfold is_bool in i. subst w. split; [destruct b; intros [Q|[]]; discriminate|]. intros v' w' E'. inversion E' as [| | | | | |b' ? I|]; subst. unfold is_bool in I. subst. destruct b, b'; split; congruence.
  - inversion H.
  - split; [constructor|]. intros vs' ws' F'. inversion F'; subst. tauto.
  - apply Forall_cons_iff in H1 as [P1 P2]. destruct (H P1) as [K I]. destruct (H0 P2) as [K' I']. split; [now constructor|]. intros vs' ws' F'.
    inversion F' as [|? ? v' vs1 w' ws1 Ee Ef]; subst. specialize (I _ _ Ee). specialize (I' _ _ Ef).
    split; intros Q; injection Q as Q1 Q2; apply I in Q1; apply I' in Q2; congruence.
Qed.
Lemma ne_known t a b : has_width t a -> has_width t b -> known a -> known b ->
  op_value TBool [t; t] NotEq [a; b] = Some [bit_of_bool (if list_eq_dec bit_dec a b then false else true)].
Proof.
  intros La Lb Ka Kb. unfold has_width in *. unfold op_value. cbn [size Nat.eqb forward_code List.length seq binop_zst nth].
  destruct (Nat.eqb_spec (size t) 0) as [E|E].
  - cbn [ok drive]. f_equal. assert (a = []) by (apply length_zero_iff_nil; lia). assert (b = []) by (apply length_zero_iff_nil; lia). subst. reflexivity.
  - cbn [ok drive]. f_equal. apply assign_one_bit; [reflexivity|].
    cbn [signed fv andb eval width operand_env nth]. rewrite La, Lb, Nat.max_id.
    rewrite (resize_id false a), (resize_id false b) by assumption. rewrite resize_id by reflexivity. f_equal.
    destruct (list_eq_dec bit_dec a b) as [->|N].
    + now rewrite veq_refl.
    + rewrite veq_neq by congruence; reflexivity.
Qed.

(** ** The special functions *)
Lemma F3_one t v ws : Forall3 [t] [v] ws -> exists w, ws = [w] /\ encodes t v w.
Proof. intros F. inversion F as [|? ? ? ? w ? E R]; subst. inversion R; subst. eauto. Qed.
Lemma F3_two s t a b ws : Forall3 [s; t] [a; b] ws -> exists w w', ws = [w; w'] /\ encodes s a w /\ encodes t b w'.
Proof. intros F. inversion F as [|? ? ? ? w ? E R]; subst. apply F3_one in R as (w' & -> & E'). eauto. Qed.
Lemma encodes_bool b : encodes CBool (VBool b) [bit_of_bool b].
Proof. constructor. now destruct b. Qed.
Lemma compare_correct op f a n x y wa wb o : In (op, f) [(ILt, Z.ltb); (ILe, Z.leb); (IGt, Z.gtb); (IGe, Z.geb)] -> number a n ->
  encodes a (VInt x) wa -> encodes a (VInt y) wb -> intrinsic_operator op TBool [to_mir_type a; to_mir_type a] = Some o ->
  op_value TBool [to_mir_type a; to_mir_type a] o [wa; wb] = Some [bit_of_bool (f x y)].
Proof.
  intros I [_ T] Ea Eb O. destruct T as [-> | ->]; inversion Ea as [| | | |? ? ? Ra|? ? ? Ra| |]; inversion Eb as [| | | |? ? ? Rb|? ? ? Rb| |]; subst.
  - apply compare_signed; auto. destruct I as [I|[I|[I|[I|[]]]]]; injection I as <- <-; cbn in O; apply Some_inj in O; subst; reflexivity.
  - apply compare_unsigned; auto. destruct I as [I|[I|[I|[I|[]]]]]; injection I as <- <-; cbn in O; apply Some_inj in O; subst; reflexivity.
Qed.
Lemma uval_concat n m x y : uval (of_Z m y ++ of_Z n x) = Some ((x * 2 ^ Z.of_nat m + y mod 2 ^ Z.of_nat m) mod 2 ^ Z.of_nat (n + m)).
Proof.
  rewrite (uval_app _ _ _ _ (uval_of_Z m y) (uval_of_Z n x)), length_of_Z. f_equal.
  pose proof (pow2_pos m). pose proof (pow2_pos n). pose proof (Z.mod_pos_bound y (2 ^ Z.of_nat m) ltac:(lia)). pose proof (Z.mod_pos_bound x (2 ^ Z.of_nat n) ltac:(lia)).
  assert (E : 2 ^ Z.of_nat (n + m) = 2 ^ Z.of_nat n * 2 ^ Z.of_nat m) by (rewrite Nat2Z.inj_add, Z.pow_add_r by lia; reflexivity).
  pose proof (Z.div_mod x (2 ^ Z.of_nat n) ltac:(lia)).
  apply Z.mod_unique with (q := x / 2 ^ Z.of_nat n); rewrite ?E; [left|]; nia.
Qed.
Lemma concat_of_Z n m x y : of_Z m y ++ of_Z n x = of_Z (n + m) (x * 2 ^ Z.of_nat m + y mod 2 ^ Z.of_nat m).
Proof.
  pose proof (of_Z_uval _ _ (uval_concat n m x y)) as E. rewrite <- E, app_length, !length_of_Z. rewrite (Nat.add_comm m n).
  apply of_Z_ext. apply Z.mod_mod. pose proof (pow2_pos (n + m)). lia.
Qed.
Lemma intrinsic_correct i ta t vs v ws o : i <> ITransmute -> intrinsic_type i ta t -> intrinsic_value i ta t vs v -> Forall3 ta vs ws ->
  intrinsic_operator i (to_mir_type t) (map to_mir_type ta) = Some o ->
  exists r, op_value (to_mir_type t) (map to_mir_type ta) o ws = Some r /\ encodes t v r.
Proof.
  intros NT T V F O. pose proof (Forall3_lengths _ _ _ F) as [LT _].
  destruct i; cbn [intrinsic_type] in T; try contradiction.
  1,2: destruct T as (a & -> & P & ->); destruct vs as [|x [|y [|? ?]]]; try discriminate LT; cbn [intrinsic_value] in V; destruct V as (c & -> & V);
    apply F3_two in F as (wa & wb & -> & Ea & Eb); cbn in O; apply Some_inj in O; subst o; cbn [map to_mir_type];
    destruct (plain_bits _ _ _ Ea P) as [Ka Ia]; destruct (plain_bits _ _ _ Eb P) as [Kb _]; specialize (Ia _ _ Eb);
    pose proof (encodes_width _ _ _ Ea); pose proof (encodes_width _ _ _ Eb).
  - rewrite eq_known by assumption. eexists. split; [reflexivity|]. destruct (list_eq_dec bit_dec wa wb) as [Q|Q], c; try apply encodes_bool; exfalso.
    + assert (false = true) by (apply V, Ia, Q). discriminate.
    + apply Q, Ia, V. reflexivity.
  - rewrite ne_known by assumption. eexists. split; [reflexivity|]. destruct (list_eq_dec bit_dec wa wb) as [Q|Q], c; try apply encodes_bool; exfalso.
    + apply V; [reflexivity|]. apply Ia, Q.
    + assert (false = true) by (apply V; intros Q'; apply Q, Ia, Q'). discriminate.
  - destruct T as (n & -> & ->). destruct vs as [|x [|? ?]]; try discriminate LT. destruct V as (l & -> & ->). apply F3_one in F as (wa & -> & Ea). cbn in O. apply Some_inj in O. subst o.
    pose proof (encodes_width _ _ _ Ea) as W. apply bools_bits in Ea as [<- ->]. cbn [map to_mir_type]. exists (map bnot (map bit_of_bool l)). split.
    + destruct (Nat.eq_dec (size (TArray TBool (length l))) 0) as [Z|Z]; [|now apply bitnot_value]. rewrite op_value_zero by exact Z. cbn in Z. destruct l; [reflexivity|cbn in Z; lia].
    + rewrite map_map, (map_ext _ (fun b => bit_of_bool (negb b))) by apply bnot_bool. pose proof (bools_encoded (map negb l)) as Q. now rewrite !map_map, map_length in Q.
  - destruct T as (n & -> & ->). destruct vs as [|x [|y [|? ?]]]; try discriminate LT. apply F3_two in F as (wa & wb & -> & Ea & Eb). cbn in O. apply Some_inj in O. subst o.
    apply (pointwise_correct n (BitwiseAnd, OAnd) band andb x y); cbn; auto.
  - destruct T as (n & -> & ->). destruct vs as [|x [|y [|? ?]]]; try discriminate LT. apply F3_two in F as (wa & wb & -> & Ea & Eb). cbn in O. apply Some_inj in O. subst o.
    apply (pointwise_correct n (BitwiseOr, OOr) bor orb x y); cbn; auto.
  - destruct T as (n & -> & ->). destruct vs as [|x [|y [|? ?]]]; try discriminate LT. apply F3_two in F as (wa & wb & -> & Ea & Eb). cbn in O. apply Some_inj in O. subst o.
    apply (pointwise_correct n (BitwiseXor, OXor) bxor xorb x y); cbn; auto.
  - destruct T as (a & n & N & -> & ->). destruct vs as [|x [|y [|? ?]]]; try discriminate LT. destruct V as (x' & y' & -> & -> & ->). apply F3_two in F as (wa & wb & -> & Ea & Eb).
    eexists. split; [apply (compare_correct ILt Z.ltb a n x' y'); cbn; auto|apply encodes_bool].
  - destruct T as (a & n & N & -> & ->). destruct vs as [|x [|y [|? ?]]]; try discriminate LT. destruct V as (x' & y' & -> & -> & ->). apply F3_two in F as (wa & wb & -> & Ea & Eb).
    eexists. split; [apply (compare_correct ILe Z.leb a n x' y'); cbn; auto|apply encodes_bool].
  - destruct T as (a & n & N & -> & ->). destruct vs as [|x [|y [|? ?]]]; try discriminate LT. destruct V as (x' & y' & -> & -> & ->). apply F3_two in F as (wa & wb & -> & Ea & Eb).
    eexists. split; [apply (compare_correct IGt Z.gtb a n x' y'); cbn; auto|apply encodes_bool].
  - destruct T as (a & n & N & -> & ->). destruct vs as [|x [|y [|? ?]]]; try discriminate LT. destruct V as (x' & y' & -> & -> & ->). apply F3_two in F as (wa & wb & -> & Ea & Eb).
    eexists. split; [apply (compare_correct IGe Z.geb a n x' y'); cbn; auto|apply encodes_bool].
  - destruct T as (n & m & Hm & T). destruct vs as [|x [|? ?]]; try (destruct T as [[-> _]|[-> _]]; discriminate LT).
    assert (exists a, ta = [a] /\ number a n /\ number t m) as (a & -> & Na & Nt) by (destruct T as [[-> ->]|[-> ->]]; eexists; repeat split; auto; lia). clear T.
    cbn [intrinsic_value] in V. destruct V as (z & -> & ->). apply F3_one in F as (w & -> & E). cbn [intrinsic_operator map] in O. match type of O with context [if ?c then _ else _] => destruct c; [discriminate|] end. apply Some_inj in O. subst o.
    destruct (number_uval _ _ _ _ Na E) as [L U]. cbn [map]. rewrite (truncate_value n m w _ ltac:(lia) ltac:(lia) L U _ (number_size _ _ Nt)). eexists. split; [reflexivity|].
    rewrite (of_Z_ext m (z mod 2 ^ Z.of_nat n) z); [now apply number_of_Z|]. symmetry. apply Znumtheory.Zmod_div_mod; [apply pow2_pos|apply pow2_pos|].
    exists (2 ^ (Z.of_nat n - Z.of_nat m)). rewrite <- Z.pow_add_r by lia. f_equal. lia.
  - destruct T as (n & m & Hm & -> & ->). destruct vs as [|x [|? ?]]; try discriminate LT. cbn in V. subst v. apply F3_one in F as (w & -> & E). cbn [intrinsic_operator map] in O. match type of O with context [if ?c then _ else _] => destruct c; [discriminate|] end. apply Some_inj in O. subst o.
    inversion E as [| | | |? z ? Rz|? z ? Rz| |]; subst. destruct (sext_exact n m w z ltac:(lia) ltac:(lia) Rz) as (r & Q & R). exists r. split; [exact Q|now constructor].
  - destruct T as (n & m & Hm & -> & ->). destruct vs as [|x [|? ?]]; try discriminate LT. cbn in V. subst v. apply F3_one in F as (w & -> & E). cbn [intrinsic_operator map] in O. match type of O with context [if ?c then _ else _] => destruct c; [discriminate|] end. apply Some_inj in O. subst o.
    inversion E as [| | | |? z ? Rz|? z ? Rz| |]; subst. destruct (zext_exact n m w z ltac:(lia) ltac:(lia) Rz) as (r & Q & R). exists r. split; [exact Q|now constructor].
  - destruct T as (n & m & Hn & Hm & T). destruct vs as [|x [|y [|? ?]]]; try (destruct T as [[-> _]|[-> _]]; discriminate LT).
    assert (exists a b, ta = [a; b] /\ number a n /\ number b m /\ number t (n + m)) as (a & b & -> & Na & Nb & Nt) by (destruct T as [[-> ->]|[-> ->]]; do 2 eexists; (split; [reflexivity|]); unfold number; repeat split; auto; lia). clear T.
    assert (exists x' y', x = VInt x' /\ y = VInt y' /\ v = VInt (wrap t (x' * 2 ^ Z.of_nat m + y' mod 2 ^ Z.of_nat m))) as (x' & y' & -> & -> & ->) by (destruct Nb as [_ [-> | ->]]; exact V).
    apply F3_two in F as (wa & wb & -> & Ea & Eb). cbn in O. rewrite (number_size _ _ Na), (number_size _ _ Nb), (number_size _ _ Nt), Nat.eqb_refl in O. apply Some_inj in O. subst o.
    cbn [map]. rewrite concat_value; [|now apply encodes_width in Ea|now apply encodes_width in Eb|now rewrite (number_size _ _ Na), (number_size _ _ Nb), (number_size _ _ Nt)].
    eexists. split; [reflexivity|]. destruct (number_bits _ _ _ _ Na Ea) as [-> _]. destruct (number_bits _ _ _ _ Nb Eb) as [-> _]. rewrite concat_of_Z. now apply number_of_Z.
  - destruct T as (n & Hn & -> & ->). destruct vs as [|x [|? ?]]; try discriminate LT. destruct V as (l & -> & ->). apply F3_one in F as (w & -> & E). cbn in O. apply Some_inj in O. subst o.
    pose proof (encodes_width _ _ _ E) as W. apply bools_bits in E as [<- ->]. cbn [map]; change (to_mir_type CBool) with TBool. rewrite (reduce_value _ ReduceAnd URedAnd (fold_right band B1) _ W); [|cbn; lia|cbn; auto].
    eexists. split; [reflexivity|]. destruct (reduce_bools l) as (-> & _ & _). apply encodes_bool.
  - destruct T as (n & Hn & -> & ->). destruct vs as [|x [|? ?]]; try discriminate LT. destruct V as (l & -> & ->). apply F3_one in F as (w & -> & E). cbn in O. apply Some_inj in O. subst o.
    pose proof (encodes_width _ _ _ E) as W. apply bools_bits in E as [<- ->]. cbn [map]; change (to_mir_type CBool) with TBool. rewrite (reduce_value _ ReduceOr URedOr (fold_right bor B0) _ W); [|cbn; lia|cbn; auto].
    eexists. split; [reflexivity|]. destruct (reduce_bools l) as (_ & -> & _). apply encodes_bool.
  - destruct T as (n & Hn & -> & ->). destruct vs as [|x [|? ?]]; try discriminate LT. destruct V as (l & -> & ->). apply F3_one in F as (w & -> & E). cbn in O. apply Some_inj in O. subst o.
    pose proof (encodes_width _ _ _ E) as W. apply bools_bits in E as [<- ->]. cbn [map]; change (to_mir_type CBool) with TBool. rewrite (reduce_value _ ReduceXor URedXor (fold_right bxor B0) _ W); [|cbn; lia|cbn; auto].
    eexists. split; [reflexivity|]. destruct (reduce_bools l) as (_ & _ & ->). apply encodes_bool.
  - destruct T as ((n & N) & ->). destruct vs as [|x [|y [|? ?]]]; try discriminate LT. destruct V as (x' & y' & -> & -> & Hy & ->). apply F3_two in F as (wa & wb & -> & Ea & Eb).
    apply (divisions BDiv t n x' y'); cbn; auto.
  - destruct T as ((n & N) & ->). destruct vs as [|x [|y [|? ?]]]; try discriminate LT. destruct V as (x' & y' & -> & -> & Hy & ->). apply F3_two in F as (wa & wb & -> & Ea & Eb).
    apply (divisions BMod t n x' y'); cbn; auto.
Qed.
