(** Proofs about waveform translation. *)
From Coq Require Import String List ZArith Lia Bool Arith.
From Verif Require Import Bits BitsFacts Verilog CodegenModel CodegenSpec CgLayout ConcModel VcdModel VcdSpec.
Import ListNotations.
Local Open Scope list_scope.

(** ** Numbers *)
Definition digit (flip : bool) (x : vval) : Z :=
  if (if flip then vval_eqb x V0 else vval_eqb x V1) then 1%Z else 0%Z.
Fixpoint bin (flip : bool) (v : list vval) : Z :=
  match v with [] => 0%Z | x :: r => (digit flip x * 2 ^ Z.of_nat (List.length r) + bin flip r)%Z end.
Definition defined (v : list vval) : Prop := ~ In VX v /\ ~ In VZ v.

Lemma defined_cons : forall x v, defined (x :: v) -> (x = V0 \/ x = V1) /\ defined v.
Proof.
  intros x v [A B]. split; [|split; intros I; [apply A|apply B]; right; auto].
  destruct x; auto; [destruct A|destruct B]; left; auto.
Qed.
Lemma contains_in : forall v x, contains v x = true <-> In x v.
Proof.
  intros. unfold contains. rewrite existsb_exists. split.
  - intros (y & I & E). destruct x, y; try discriminate; auto.
  - intros I. exists x. split; auto. destruct x; auto.
Qed.
Lemma defined_contains : forall v, defined v <-> contains v VX = false /\ contains v VZ = false.
Proof.
  intros v. unfold defined. rewrite <- !contains_in. destruct (contains v VX), (contains v VZ); split; intuition congruence.
Qed.

Lemma pow2_S : forall n, (2 ^ Z.of_nat (S n) = 2 * 2 ^ Z.of_nat n)%Z.
Proof. intros. rewrite Nat2Z.inj_succ, Z.pow_succ_r; lia. Qed.
Lemma pow2_pos : forall n, (0 < 2 ^ Z.of_nat n)%Z.
Proof. intros. apply Z.pow_pos_nonneg; lia. Qed.

Lemma shl1_small : forall i n, n < 64 -> (0 <= i < 2 ^ Z.of_nat n)%Z -> shl1 i = (2 * i)%Z.
Proof.
  intros i n H B. unfold shl1, two64. apply Z.mod_small. split; [lia|].
  assert (2 ^ Z.of_nat (S n) <= 2 ^ 64)%Z by (change 64%Z with (Z.of_nat 64); apply Z.pow_le_mono_r; lia).
  rewrite pow2_S in H0. lia.
Qed.

Lemma loop_value : forall flip v r acc i, defined v -> acc <= 64 -> (0 <= i < 2 ^ Z.of_nat acc)%Z ->
  translate_uint_loop flip r acc i v =
  Value ((r * 2 ^ Z.of_nat acc + i) * 2 ^ Z.of_nat (List.length v) + bin flip v)%Z.
Proof.
  intros flip v. induction v as [|x v IH]; intros r acc i D A B.
  - cbn. f_equal. lia.
  - apply defined_cons in D as [X D]. cbn [translate_uint_loop].
    set (r' := if acc =? 64 then _ else r). set (i' := if acc =? 64 then 0%Z else i).
    set (a' := if acc =? 64 then 0 else acc).
    assert (Ha : a' < 64 /\ (0 <= i' < 2 ^ Z.of_nat a')%Z /\ (r' * 2 ^ Z.of_nat a' + i' = r * 2 ^ Z.of_nat acc + i)%Z).
    { unfold r', i', a'. destruct (acc =? 64) eqn:E.
      - apply Nat.eqb_eq in E. subst acc. cbn. repeat split; lia.
      - apply Nat.eqb_neq in E. repeat split; try lia. }
    destruct Ha as (Ha & Hi & Hr).
    replace (match x with VX => Undef | VZ => HighImpedance | _ => _ end) with
      (translate_uint_loop flip r' (S a')
         (if (if flip then vval_eqb x V0 else vval_eqb x V1) then (shl1 i' + 1)%Z else shl1 i') v)
      by (destruct X; subst; reflexivity).
    rewrite (shl1_small _ _ Ha Hi). rewrite IH; auto.
    + f_equal. cbn [bin List.length]. rewrite !pow2_S. unfold digit.
      destruct (if flip then vval_eqb x V0 else vval_eqb x V1); rewrite <- Hr; ring.
    + pose proof (pow2_S a'). destruct (if flip then vval_eqb x V0 else vval_eqb x V1); lia.
Qed.
Lemma translate_uint_value : forall v flip, defined v -> translate_uint v flip = Value (bin flip v).
Proof. intros. unfold translate_uint. rewrite loop_value; auto; [f_equal; cbn; lia|cbn; lia]. Qed.

Lemma as_bits_length : forall v, List.length (as_bits v) = List.length v.
Proof. intros. unfold as_bits. now rewrite rev_length, map_length. Qed.
Lemma uval_app1 : forall l b u, uval l = Some u ->
  uval (l ++ [b]) = match b with B0 => Some u | B1 => Some (u + 2 ^ Z.of_nat (List.length l))%Z | BX => None end.
Proof.
  intros l b u H. destruct b.
  - rewrite (uval_app l [B0] u 0 H); auto. f_equal. lia.
  - rewrite (uval_app l [B1] u 1 H); auto. f_equal. lia.
  - apply uval_None_X. apply in_or_app. right. left. auto.
Qed.
Lemma uval_as_bits : forall v, defined v -> uval (as_bits v) = Some (bin false v).
Proof.
  intros v. induction v as [|x v IH]; intros D; auto.
  apply defined_cons in D as [X D]. unfold as_bits in *. cbn [map rev].
  rewrite (uval_app1 _ _ _ (IH D)). rewrite rev_length, map_length. cbn [bin].
  destruct X; subst; unfold digit; cbn [vval_eqb]; f_equal; lia.
Qed.
Lemma uval_unknown : forall l, In BX l -> uval l = None.
Proof.
  induction l as [|a l IH]; intros []; cbn.
  - subst. destruct (uval l); auto.
  - rewrite IH; auto.
Qed.
Lemma as_bits_unknown : forall v, ~ defined v -> uval (as_bits v) = None.
Proof.
  intros v H. apply uval_unknown. unfold as_bits. rewrite <- in_rev, in_map_iff.
  destruct (contains v VX) eqn:A; [apply contains_in in A; exists VX; auto|].
  destruct (contains v VZ) eqn:B; [apply contains_in in B; exists VZ; auto|].
  destruct H. apply defined_contains. auto.
Qed.
Lemma bin_flip : forall v, defined v -> (bin true v + bin false v = 2 ^ Z.of_nat (List.length v) - 1)%Z.
Proof.
  induction v as [|x v IH]; intros D; auto. apply defined_cons in D as [X D]. specialize (IH D).
  cbn [bin List.length]. rewrite pow2_S. destruct X; subst; unfold digit; cbn [vval_eqb]; lia.
Qed.
Lemma bin_bound : forall v flip, (0 <= bin flip v < 2 ^ Z.of_nat (List.length v))%Z.
Proof.
  induction v as [|x v IH]; intros flip; cbn [bin List.length]; [cbn; lia|].
  rewrite pow2_S. specialize (IH flip). unfold digit. pose proof (pow2_pos (List.length v)).
  destruct (if flip then vval_eqb x V0 else vval_eqb x V1); lia.
Qed.
Lemma msb_as_bits : forall x v, msb (as_bits (x :: v)) = match x with V0 => B0 | V1 => B1 | _ => BX end.
Proof. intros. unfold msb, as_bits. cbn [map rev]. rewrite last_last. destruct x; auto. Qed.

Lemma signed_value : forall v z, v <> [] -> sval (as_bits v) = Some z -> translate_signed_int v = Some (Value z).
Proof.
  intros v z N H. unfold sval in H. destruct (uval (as_bits v)) as [u|] eqn:U; [|discriminate].
  assert (D : defined v).
  { apply defined_contains. destruct (contains v VX) eqn:A; [|destruct (contains v VZ) eqn:B; auto];
    rewrite as_bits_unknown in U; try discriminate; rewrite defined_contains; intuition congruence. }
  unfold translate_signed_int. apply defined_contains in D as D'. destruct D' as [-> ->].
  destruct v as [|x v]; [congruence|]. rewrite (uval_as_bits _ D) in U. apply Some_inj in U. subst u.
  apply defined_cons in D as [X D]. rewrite translate_uint_value; auto.
  rewrite msb_as_bits, as_bits_length in H. cbn [List.length] in H. rewrite pow2_S in H.
  pose proof (bin_flip v D).
  destruct X; subst; cbn [bin vval_eqb] in *; unfold digit in H; cbn [vval_eqb] in H; apply Some_inj in H; subst; repeat f_equal; lia.
Qed.
Lemma unsigned_value : forall v z, uval (as_bits v) = Some z -> translate_unsigned_int v = Value z.
Proof.
  intros v z H. 
  assert (D : defined v).
  { apply defined_contains. destruct (contains v VX) eqn:A; [|destruct (contains v VZ) eqn:B; auto];
    rewrite as_bits_unknown in H; try discriminate; rewrite defined_contains; intuition congruence. }
  unfold translate_unsigned_int. apply defined_contains in D as D'. destruct D' as [-> ->].
  rewrite translate_uint_value; auto. rewrite (uval_as_bits _ D) in H. apply Some_inj in H. congruence.
Qed.

(** ** Text of fields *)
Lemma append_nil_r : forall s, (s ++ "")%string = s.
Proof. induction s; cbn; congruence. Qed.
Lemma append_assoc : forall a b c, ((a ++ b) ++ c)%string = (a ++ b ++ c)%string.
Proof. induction a; intros; cbn; congruence. Qed.

Lemma sub_slice_mid : forall (pre c post : list vval),
  sub_slice (pre ++ c ++ post) (List.length pre) (List.length pre + List.length c) = Some c.
Proof.
  intros. unfold sub_slice. rewrite !app_length.
  replace (_ <=? _) with true by (symmetry; apply Nat.leb_le; lia).
  replace (_ <=? _) with true by (symmetry; apply Nat.leb_le; lia). cbn [andb].
  rewrite skipn_app, skipn_all, Nat.sub_diag. cbn [skipn app].
  replace (List.length pre + List.length c - List.length pre) with (List.length c) by lia.
  f_equal. rewrite firstn_app, Nat.sub_diag, firstn_all. cbn. apply app_nil_r.
Qed.

(** [chunk f c s]: field [f] of size [|c|] translates [c] to [s] *)
Definition translates (f : field) (c : list vval) (s : string) : Prop :=
  snd (fst f) = List.length c /\ exists s0, snd f c = Some s0 /\ s = (fst (fst f) ++ s0)%string.
Inductive Forall3 {A B C} (R : A -> B -> C -> Prop) : list A -> list B -> list C -> Prop :=
| F3_nil : Forall3 R [] [] []
| F3_cons : forall a b c la lb lc, R a b c -> Forall3 R la lb lc -> Forall3 R (a :: la) (b :: lb) (c :: lc).

Lemma fields_text_ok : forall fs cs ss pre post, Forall3 translates fs cs ss ->
  fields_text (pre ++ concat cs ++ post) (List.length pre) fs = Some (String.concat "," ss).
Proof.
  intros fs cs ss pre post H. revert pre. induction H as [|f c s fs cs ss T H IH]; intros pre; auto.
  destruct f as [[label n] tr]. destruct T as [N (s0 & T & E)]. cbn in N, T, E. subst n s.
  cbn [concat fields_text]. rewrite <- app_assoc. rewrite sub_slice_mid, T. cbn [append_opt].
  specialize (IH (pre ++ c)). rewrite app_length, <- app_assoc in IH. rewrite IH.
  destruct H; cbn [append_opt String.concat]; rewrite ?append_nil_r, ?append_assoc; auto.
Qed.

(** ** Layout *)
Lemma Forall2_len : forall A B (R : A -> B -> Prop) l m, Forall2 R l m -> List.length l = List.length m.
Proof. intros A B R l m H. induction H; cbn; auto. Qed.
Lemma shows_app : forall a b v, shows (a ++ b) v -> exists vb va, v = vb ++ va /\ shows b vb /\ shows a va.
Proof.
  intros a b v H. unfold shows in H. rewrite rev_app_distr in H.
  apply Forall2_app_inv_l in H as (vb & va & H1 & H2 & ->). exists vb, va. auto.
Qed.
Lemma shows_length : forall w v, shows w v -> List.length v = List.length w.
Proof.
  intros w v H. unfold shows in H. apply Forall2_len in H. rewrite rev_length in H. auto.
Qed.
(** parts, first one most significant *)
Lemma shows_concat_rev : forall ws v, shows (concat (rev ws)) v -> exists cs, v = concat cs /\ Forall2 shows ws cs.
Proof.
  induction ws as [|w ws IH]; intros v H.
  - cbn in H. inversion H; subst. exists []. auto.
  - cbn [rev] in H. rewrite concat_app in H. apply shows_app in H as (vb & va & -> & Hb & Ha).
    cbn in Hb. rewrite app_nil_r in Hb. destruct (IH _ Ha) as (cs & -> & F). exists (vb :: cs). cbn. auto.
Qed.
Lemma shows_known : forall w v, shows w v -> uval w <> None -> as_bits v = w.
Proof.
  intros w v H K. assert (N : ~ In BX w) by (intros I; apply K, uval_unknown, I).
  unfold as_bits, shows in *. rewrite <- (rev_involutive w). f_equal.
  assert (N' : ~ In BX (rev w)) by (rewrite <- in_rev; auto). clear - H N'.
  induction H as [|b x l m S H IH]; cbn; auto. f_equal.
  - destruct S; auto. destruct N'. left; auto.
  - apply IH. intros I. apply N'. right; auto.
Qed.

Lemma prepared_exact : forall v n, List.length v = n -> n <> 0 -> prepared v n = Some (Some v).
Proof.
  intros v n <- H. unfold prepared. rewrite Nat.ltb_irrefl. destruct v; [destruct H; auto|].
  cbn [List.length Nat.eqb]. rewrite Nat.sub_diag. auto.
Qed.
Lemma prepared_zero : forall v, List.length v = 0 -> prepared v 0 = Some None.
Proof. intros [|] H; [auto|discriminate]. Qed.

Scheme carries_mind := Induction for carries Sort Prop
  with carries_all_mind := Induction for carries_all Sort Prop.
Combined Scheme carries_mutind from carries_mind, carries_all_mind.

Definition show_all order := fix show_all (vs : list value) (ts : list cty) : list string :=
    match vs, ts with
    | v :: vs', t :: ts' => show order v t :: show_all vs' ts'
    | _, _ => []
    end.

Lemma tuple_bits : forall ts ws w, Forall2 has_width (map to_mir_type ts) ws ->
  op_value (to_mir_type (CTuple ts)) (map to_mir_type ts) ConstructTuple ws = Some w -> w = concat (rev ws).
Proof. intros ts ws w F H. cbn [to_mir_type] in H. rewrite (construct_tuple_value _ _ F) in H. congruence. Qed.
Lemma struct_bits : forall ms ws w, Forall2 has_width (map to_mir_type (map snd ms)) ws ->
  op_value (to_mir_type (CStruct ms)) (map to_mir_type (map snd ms)) ConstructTuple ws = Some w -> w = concat (rev ws).
Proof.
  intros ms ws w F H. pose proof (construct_tuple_value _ _ F) as E. 
  assert (Z : size (to_mir_type (CStruct ms)) = size (TTuple (map to_mir_type (map snd ms)))).
  { cbn [to_mir_type size]. rewrite !map_map. auto. }
  unfold op_value in *. rewrite Z in H. cbn [size forward_code] in *. congruence.
Qed.
Lemma array_bits : forall t n ws w, Forall2 has_width (map to_mir_type (repeat t n)) ws ->
  op_value (to_mir_type (CArray t n)) (map to_mir_type (repeat t n)) ConstructArray ws = Some w -> w = concat ws.
Proof.
  intros t n ws w F H. assert (L : List.length ws = n).
  { apply Forall2_len in F. rewrite map_length, repeat_length in F. auto. }
  assert (R : map to_mir_type (repeat t n) = repeat (to_mir_type t) n).
  { clear. induction n; cbn; congruence. }
  rewrite R in *. cbn [to_mir_type] in H. subst n. rewrite construct_array_value in H; [congruence|].
  clear - F. remember (List.length ws) as n. clear Heqn. revert n F.
  induction ws; intros n F; constructor; destruct n; inversion F; subst; eauto.
Qed.
Lemma enum_bits_eq : forall options k name ms ws w, nth_error options k = Some (name, ms) ->
  Forall2 has_width (map to_mir_type (map snd ms)) ws ->
  op_value (to_mir_type (CEnum options)) (map to_mir_type (map snd ms)) (ConstructEnum k) ws = Some w ->
  exists pad, w = pad ++ concat (rev ws) ++ of_Z (tag_size (List.length options)) (Z.of_nat k) /\
    List.length w = csize (CEnum options).
Proof.
  intros options k name ms ws w N F H. cbn [to_mir_type] in H.
  set (o := map (fun o => map (fun p => to_mir_type (snd p)) (snd o)) options) in *.
  assert (No : nth_error o k = Some (map to_mir_type (map snd ms))).
  { unfold o. rewrite nth_error_map, N. cbn. rewrite map_map. auto. }
  rewrite (construct_enum_value _ _ _ _ No F) in H. apply Some_inj in H. subst w.
  eexists. split; [unfold enum_bits; unfold o at 2; rewrite map_length; reflexivity|].
  rewrite (length_enum_bits _ _ _ _ _ No F); auto. apply length_xs.
Qed.

Definition part (t : cty) (c : list vval) (s : string) : Prop :=
  List.length c = csize t /\ inner_translate_value t c = Some s.
Lemma parts_plain : forall ts cs ss, Forall3 part ts cs ss ->
  Forall3 translates (map (fun t => (""%string, csize t, inner_translate_value t)) ts) cs ss.
Proof.
  intros ts cs ss H. induction H as [|t c s ts cs ss [L T] H IH]; constructor; auto.
  split; cbn; auto. exists s. auto.
Qed.
Lemma parts_plain_snd : forall A (ps : list (A * cty)) cs ss, Forall3 part (map snd ps) cs ss ->
  Forall3 translates (map (fun p => (""%string, csize (snd p), inner_translate_value (snd p))) ps) cs ss.
Proof.
  intros A ps cs ss H. apply parts_plain in H. rewrite map_map in H. exact H.
Qed.
Lemma parts_struct : forall (ms : list (string * cty)) cs ss, Forall3 part (map snd ms) cs ss ->
  Forall3 translates (map (fun p => ((fst p ++ ":")%string, csize (snd p), inner_translate_value (snd p))) ms) cs
    (map (fun p => (fst p ++ ":" ++ snd p)%string) (combine (map fst ms) ss)).
Proof.
  induction ms as [|[n t] ms IH]; intros cs ss H; inversion H; subst; cbn; constructor; auto.
  destruct H2 as [L T]. split; cbn; auto. eexists. split; [exact T|]. rewrite append_assoc. auto.
Qed.
Lemma Forall3_rev : forall A B C (R : A -> B -> C -> Prop) la lb lc, Forall3 R la lb lc ->
  Forall3 R (rev la) (rev lb) (rev lc).
Proof.
  intros A B C R la lb lc H.
  assert (App : forall a1 b1 c1, Forall3 R a1 b1 c1 -> forall a2 b2 c2, Forall3 R a2 b2 c2 -> Forall3 R (a1 ++ a2) (b1 ++ b2) (c1 ++ c2)).
  { clear. intros a1 b1 c1 H. induction H; cbn; intros; auto. constructor; auto. }
  induction H; cbn; [constructor|]. apply App; auto. constructor; auto. constructor.
Qed.
Lemma rev_repeat : forall A (x : A) n, rev (repeat x n) = repeat x n.
Proof.
  intros. induction n; cbn; auto. rewrite IHn. clear. induction n; cbn; congruence.
Qed.

Lemma show_strip : forall o v t, show o v (CCopyView t) = show o v t.
Proof. intros o v t. destruct v; reflexivity. Qed.
Lemma show_inout : forall o v t, show o v (CInOut t) = show o v t.
Proof. intros o v t. destruct v; reflexivity. Qed.

Lemma nth_lt_tag : forall A (l : list A) k x, nth_error l k = Some x ->
  (0 <= Z.of_nat k < 2 ^ Z.of_nat (tag_size (List.length l)))%Z.
Proof.
  intros A l k x H. assert (L : k < List.length l) by (apply nth_error_Some; congruence).
  split; [lia|]. pose proof (tag_size_bound _ _ L) as B. apply Nat2Z.inj_lt in B. rewrite Nat2Z.inj_pow in B. exact B.
Qed.

Lemma map_repeat' : forall A B (f : A -> B) x n, map f (repeat x n) = repeat (f x) n.
Proof. intros. induction n; cbn; congruence. Qed.
Lemma list_sum_repeat : forall x n, list_sum (repeat x n) = x * n.
Proof. intros. induction n; [cbn; lia|]. cbn [repeat]. rewrite list_sum_cons, IHn. lia. Qed.
Lemma Forall2_rev : forall A B (R : A -> B -> Prop) l m, Forall2 R l m -> Forall2 R (rev l) (rev m).
Proof. intros A B R l m H. induction H; cbn; auto. apply Forall2_app; auto. Qed.

Definition good (t : cty) (v : value) (w : bits) : Prop :=
  List.length w = csize t /\ forall c, shows w c -> inner_translate_value t c = Some (show (@rev string) v t).
Definition good_all (ts : list cty) (vs : list value) (ws : list bits) : Prop :=
  Forall2 has_width (map to_mir_type ts) ws /\
  forall cs, Forall2 shows ws cs -> Forall3 part ts cs (show_all (@rev string) vs ts).

Lemma translate_ok : (forall t v w, carries t v w -> good t v w) /\
  (forall ts vs ws, carries_all ts vs ws -> good_all ts vs ws).
Proof.
  apply carries_mutind.
  - (* bool *) intros b. split; auto. intros c H. inversion H; subst. inversion H4; subst.
    destruct b; inversion H2; subst; reflexivity.
  - (* int *) intros n z w [L H]. split; [exact L|]. intros c S. pose proof (shows_length _ _ S) as Lc.
    unfold has_width in L. cbn [size] in L. cbn [inner_translate_value csize to_mir_type size show strip].
    destruct n as [|n].
    + rewrite prepared_zero by lia. reflexivity.
    + rewrite prepared_exact by lia. cbn [Nat.eqb].
      rewrite (signed_value c z); auto.
      * intros ->. cbn in Lc. lia.
      * rewrite (shows_known _ _ S); auto. unfold sval in H. destruct (uval w); congruence.
  - (* uint *) intros n z w [L H]. split; [exact L|]. intros c S. pose proof (shows_length _ _ S) as Lc.
    unfold has_width in L. cbn [size] in L. cbn [inner_translate_value csize to_mir_type size show strip].
    destruct n as [|n].
    + rewrite prepared_zero by lia. reflexivity.
    + rewrite prepared_exact by lia. cbn [Nat.eqb].
      rewrite (unsigned_value c z); auto. rewrite (shows_known _ _ S); auto. congruence.
  - (* tuple *) intros ts vs ws w _ [F T] E. apply tuple_bits in E; auto. subst w.
    assert (L : List.length (concat (rev ws)) = csize (CTuple ts)) by (apply (length_concat_vals _ _ F)).
    split; auto. intros c S. pose proof (shows_length _ _ S) as Lc. rewrite L in Lc.
    cbn [inner_translate_value show strip]. fold (csize (CTuple ts)).
    destruct (Nat.eqb_spec (csize (CTuple ts)) 0) as [Z|Z].
    + rewrite Z, prepared_zero by lia. reflexivity.
    + rewrite prepared_exact by lia. apply shows_concat_rev in S as (cs & -> & FS).
      pose proof (fields_text_ok _ _ _ [] [] (parts_plain _ _ _ (T _ FS))) as X.
      cbn [app List.length] in X. rewrite app_nil_r in X. rewrite X. reflexivity.
  - (* struct *) intros ms vs ws w _ [F T] E. apply struct_bits in E; auto. subst w.
    assert (L : List.length (concat (rev ws)) = csize (CStruct ms)).
    { rewrite (length_concat_vals _ _ F). unfold csize. cbn [to_mir_type size]. rewrite !map_map. auto. }
    split; auto. intros c S. pose proof (shows_length _ _ S) as Lc. rewrite L in Lc.
    cbn [inner_translate_value show strip]. fold (csize (CStruct ms)).
    destruct (Nat.eqb_spec (csize (CStruct ms)) 0) as [Z|Z].
    + rewrite Z, prepared_zero by lia. reflexivity.
    + rewrite prepared_exact by lia. apply shows_concat_rev in S as (cs & -> & FS).
      pose proof (fields_text_ok _ _ _ [] [] (parts_struct _ _ _ (T _ FS))) as X.
      cbn [app List.length] in X. rewrite app_nil_r in X. rewrite X. reflexivity.
  - (* array *) intros t n vs ws w _ [F T] E. apply array_bits in E; auto. subst w.
    assert (L : List.length (concat ws) = csize (CArray t n)).
    { rewrite <- (rev_involutive ws), length_concat_rev, map_rev. rewrite (fits_lengths _ _ F).
      rewrite map_map. unfold csize. cbn [to_mir_type size]. clear.
      rewrite map_repeat', rev_repeat. apply list_sum_repeat. }
    split; auto. intros c S. pose proof (shows_length _ _ S) as Lc. rewrite L in Lc.
    cbn [inner_translate_value show strip]. fold (csize (CArray t n)).
    destruct (Nat.eqb_spec (csize (CArray t n)) 0) as [Z|Z].
    + rewrite Z, prepared_zero by lia. reflexivity.
    + rewrite prepared_exact by lia. rewrite <- (rev_involutive ws) in S.
      apply shows_concat_rev in S as (cs & -> & FS).
      assert (FS' : Forall2 shows ws (rev cs)).
      { clear - FS. apply Forall2_rev in FS. rewrite rev_involutive in FS. auto. }
      apply T in FS'. apply Forall3_rev in FS'. rewrite rev_repeat, rev_involutive in FS'.
      apply parts_plain in FS'. rewrite map_repeat' in FS'.
      pose proof (fields_text_ok _ _ _ [] [] FS') as X.
      cbn [app List.length] in X. rewrite app_nil_r in X. rewrite X. reflexivity.
  - (* enum *) intros options k name ms vs ws w N _ [F T] E.
    destruct (enum_bits_eq _ _ _ _ _ _ N F E) as (pad & Ew & L).
    split; auto. intros c S. pose proof (shows_length _ _ S) as Lc. rewrite L in Lc.
    cbn [inner_translate_value show strip]. fold (csize (CEnum options)).
    destruct (Nat.eqb_spec (csize (CEnum options)) 0) as [Z|Z].
    + rewrite Z, prepared_zero by lia. reflexivity.
    + rewrite prepared_exact by lia. fold (tag_size (List.length options)). subst w.
      apply shows_app in S as (c1 & cp & -> & S & _).
      apply shows_app in S as (ct & c2 & -> & St & S).
      apply shows_concat_rev in S as (cs & -> & FS).
      assert (Lt : List.length ct = tag_size (List.length options)).
      { rewrite (shows_length _ _ St). apply length_of_Z. }
      rewrite <- Lt. rewrite <- app_assoc.
      pose proof (sub_slice_mid [] ct (concat cs ++ cp)) as SL. cbn [app List.length Nat.add] in SL. rewrite SL.
      pose proof (nth_lt_tag _ _ _ _ N) as B.
      assert (U : uval (of_Z (tag_size (List.length options)) (Z.of_nat k)) = Some (Z.of_nat k)) by (apply uval_of_Z_small; auto).
      assert (A : as_bits ct = of_Z (tag_size (List.length options)) (Z.of_nat k)).
      { apply shows_known; auto. congruence. }
      assert (D : defined ct).
      { apply defined_contains. destruct (contains ct VX) eqn:Cx; [|destruct (contains ct VZ) eqn:Cz; auto];
        rewrite <- A, as_bits_unknown in U; try discriminate; rewrite defined_contains; intuition congruence. }
      rewrite translate_uint_value; auto. rewrite <- A, (uval_as_bits _ D) in U. apply Some_inj in U.
      rewrite U, Nat2Z.id, nth_error_map, N. cbn [option_map fst snd].
      pose proof (fields_text_ok _ _ _ ct cp (parts_plain_snd _ _ _ _ (T _ FS))) as X.
      rewrite X. reflexivity.
  - (* view *) intros t v w _ [L G]. split; auto. intros c S. rewrite show_strip, <- (G c S).
    pose proof (shows_length _ _ S) as Lc. rewrite L in Lc. cbn [inner_translate_value].
    change (csize (CCopyView t)) with (csize t). destruct (Nat.eq_dec (csize t) 0) as [Z|Z].
    + rewrite Z, prepared_zero by lia. rewrite (G c S).
      destruct v; cbn [show]; fold (csize t); rewrite Z; reflexivity.
    + rewrite prepared_exact by lia. auto.
  - (* inout *) intros t v w _ [L G]. split; auto. intros c S. rewrite show_inout, <- (G c S).
    pose proof (shows_length _ _ S) as Lc. rewrite L in Lc. cbn [inner_translate_value].
    change (csize (CInOut t)) with (csize t). destruct (Nat.eq_dec (csize t) 0) as [Z|Z].
    + rewrite Z, prepared_zero by lia. rewrite (G c S).
      destruct v; cbn [show]; fold (csize t); rewrite Z; reflexivity.
    + rewrite prepared_exact by lia. auto.
  - split; [constructor|]. intros cs H. inversion H; subst. constructor.
  - intros t v w ts vs ws _ [L G] _ [F T]. split; [constructor; auto|].
    intros cs H. inversion H; subst. cbn. constructor; auto. split; auto.
    rewrite <- L. apply shows_length. auto.
Qed.

(** shortened values *)
Lemma prepared_abbreviated : forall n short full, abbreviates short full -> List.length full = n ->
  prepared short n = prepared full n.
Proof.
  intros n short full A L. assert (Q : exists x r k, short = x :: r /\ full = repeat (extend_value x) k ++ short).
  { destruct A as [k x r [-> | ->]|k r|k r]; repeat eexists. }
  destruct Q as (x & r & k & -> & ->).
  rewrite (prepared_exact (_ ++ _)); [|auto|rewrite app_length in L; cbn in L; lia].
  rewrite app_length, repeat_length in L. cbn [List.length] in L.
  unfold prepared. cbn [List.length].
  destruct (n <? S (List.length r)) eqn:E; [apply Nat.ltb_lt in E; lia|].
  destruct (n =? 0) eqn:E0; [apply Nat.eqb_eq in E0; lia|].
  do 4 f_equal. lia.
Qed.
Lemma abbreviated_same : forall t short full, abbreviates short full -> List.length full = csize t ->
  inner_translate_value t short = inner_translate_value t full.
Proof.
  intros t short full A. induction t using cty_rect'; intros L;
    pose proof (prepared_abbreviated _ _ _ A L) as P; cbn [inner_translate_value]; rewrite P; try reflexivity.
  - rewrite IHt; auto.
  - exfalso. cbn in L. destruct A; rewrite app_length in L; cbn in L; lia.
  - rewrite IHt; auto.
Qed.

(** without long arrays the order does not matter *)
Lemma forallb_snd : forall A (ps : list (A * cty)),
  forallb (fun p => short_arrays (snd p)) ps = forallb short_arrays (map snd ps).
Proof. intros. induction ps; cbn; congruence. Qed.
Lemma show_short : (forall t v w, carries t v w -> short_arrays t = true -> show (@rev string) v t = show (fun l => l) v t) /\
  (forall ts vs ws, carries_all ts vs ws -> forallb short_arrays ts = true ->
     show_all (@rev string) vs ts = show_all (fun l => l) vs ts).
Proof.
  apply carries_mutind; auto.
  - intros ts vs ws w _ IH _ S. cbn [show strip]. fold (show_all (@rev string)). fold (show_all (fun l : list string => l)).
    rewrite IH; auto.
  - intros ms vs ws w _ IH _ S. cbn [show strip]. fold (show_all (@rev string)). fold (show_all (fun l : list string => l)).
    rewrite IH; auto. rewrite <- forallb_snd. auto.
  - intros t n vs ws w C IH _ S. cbn [show strip]. fold (show_all (@rev string)). fold (show_all (fun l : list string => l)).
    cbn in S. apply andb_true_iff in S as [N S]. apply Nat.leb_le in N. rewrite IH; auto.
    + destruct n as [|[|n]]; [| |lia]; cbn in C; inversion C; subst; auto.
      match goal with H : carries_all [] _ _ |- _ => inversion H; subst end. auto.
    + destruct n as [|[|n]]; cbn; auto; [|lia]. rewrite S. auto.
  - intros options k name ms vs ws w N _ IH _ S. cbn [show strip]. fold (show_all (@rev string)). fold (show_all (fun l : list string => l)).
    rewrite N. rewrite IH; auto. cbn in S. rewrite forallb_forall in S. apply nth_error_In in N. apply S in N.
    rewrite <- forallb_snd. auto.
  - intros t v w _ IH S. rewrite !show_strip. auto.
  - intros t v w _ IH S. rewrite !show_inout. auto.
  - intros t v w ts vs ws _ IH _ IHs S. cbn in S. apply andb_true_iff in S as [S1 S2].
    cbn [show_all]. rewrite IH, IHs; auto.
Qed.
