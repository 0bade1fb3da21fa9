(** Proofs about the register passes. *)
From Coq Require Import List ZArith Bool Arith Lia.
From Verif Require Import Bits Verilog CodegenModel BitsFacts CgLayout CodegenSpec MirModel MirDedup RegModel RegSpec.
Import ListNotations.

Lemma assigned_id : forall v w, length v = w -> assigned w v = v.
Proof. intros. unfold assigned. now apply assign_var. Qed.
Lemma assigned_repeat : forall b k w, w <= k -> assigned w (repeat b k) = repeat b w.
Proof.
  intros b k w H. unfold assigned. rewrite assign_var_trunc by now rewrite repeat_length.
  replace k with (w + (k - w)) by lia. rewrite repeat_app.
  apply firstn_app_exact. apply repeat_length.
Qed.

(** Any vector of the right width is a tuple of members. *)
Lemma decompose : forall tys v, length v = list_sum (map size tys) ->
  exists vals, Forall2 has_width tys vals /\ v = concat (rev vals).
Proof.
  induction tys as [|t tys IH]; intros v H.
  - exists []. split; [constructor|]. destruct v; [reflexivity|discriminate].
  - cbn [map] in H. rewrite list_sum_cons in H.
    destruct (IH (firstn (list_sum (map size tys)) v)) as (vals & F & E).
    { rewrite firstn_length. lia. }
    exists (skipn (list_sum (map size tys)) v :: vals). split.
    + constructor; auto. unfold has_width. rewrite skipn_length. lia.
    + cbn [rev]. rewrite concat_app. cbn [concat]. rewrite app_nil_r, <- E. symmetry. apply firstn_skipn.
Qed.

Lemma Forall2_len : forall A B (R : A -> B -> Prop) l l', Forall2 R l l' -> length l = length l'.
Proof. induction 1; cbn; auto. Qed.

Section Split.
  Variable w : waves.
  Variable clock : vn.
  Variable reset : option (vn * vn).

  Fixpoint members_ok (value : vn) (ms : list member) (ps : list (vn * vn)) (i : nat) : Prop :=
    match ms, ps with
    | [], [] => True
    | m :: ms, (r, s) :: ps =>
        (forall k, op_value (fst m) [ty_of w value] (IndexTuple i) [sg w value k] = Some (sg w s k)) /\
        ty_of w r = fst m /\ is_register w (fst m) clock reset s r /\
        members_ok value ms ps (S i)
    | _, _ => False
    end.

  Definition good (m : member) : Prop := forall name value n,
    carries w value (fst m) -> uniform_reset w (fst m) reset ->
    Forall (sat w) (fst (snd m name value n)) ->
    ty_of w name = fst m /\ is_register w (fst m) clock reset value name.

  Lemma members_spec : forall value ms i n,
    Forall good ms -> Forall (fun m => uniform_reset w (fst m) reset) ms ->
    (forall j m k v, nth_error ms j = Some m ->
       op_value (fst m) [ty_of w value] (IndexTuple (i + j)) [sg w value k] = Some v -> length v = size (fst m)) ->
    Forall (sat w) (snd (fst (split_members value ms i n))) ->
    exists ps, fst (fst (split_members value ms i n)) = map fst ps /\ members_ok value ms ps i.
  Proof.
    intros value. induction ms as [|[t mk] ms IH]; intros i n G U L St.
    - exists []. cbn. auto.
    - cbn [split_members fst snd] in St. inversion St as [|x y Hs St']; subst.
      apply Forall_app in St' as [S1 S2].
      inversion G as [|x y G1 G2]; subst. inversion U as [|x y U1 U2]; subst.
      destruct Hs as [Ht Hv].
      destruct (G1 (EId (S n)) (EId n) (S (S n))) as [T R]; auto.
      { split; [exact Ht|]. intros k. apply (L 0 (t, mk) k); [reflexivity|]. rewrite Nat.add_0_r. apply Hv. }
      destruct (IH (S i) (snd (mk (EId (S n)) (EId n) (S (S n)))) G2 U2) as (ps & E & M); [|exact S2|].
      { intros j m k v Hj. replace (S i + j) with (i + S j) by lia. apply L. exact Hj. }
      exists ((EId (S n), EId n) :: ps). cbn [split_members fst snd map]. split.
      + f_equal. exact E.
      + cbn. repeat split; auto; apply R.
  Qed.

  (** The names read by [IndexTuple] carry the members of the value. *)
  Lemma members_values : forall value k big tys0 ms ps i pre vals,
    tuple_members (ty_of w value) = Some tys0 -> tys0 = big ++ map fst ms -> length big = i ->
    sg w value k = concat (rev (pre ++ vals)) ->
    Forall2 has_width big pre -> Forall2 has_width (map fst ms) vals ->
    members_ok value ms ps i ->
    map (fun p => sg w (snd p) k) ps = vals.
  Proof.
    intros value k big tys0 ms. revert big. induction ms as [|m ms IH]; intros big ps i pre vals TM E Li V F1 F2 M.
    - destruct ps as [|? ?]; [|destruct M]. inversion F2. reflexivity.
    - destruct ps as [|[r s] ps]; [destruct M|]. destruct M as (H1 & H2 & H3 & M).
      cbn [map] in F2. inversion F2 as [|t v tys vals' Hv F2']; subst.
      cbn [map snd]. f_equal.
      + specialize (H1 k). rewrite V in H1.
        assert (Fall : Forall2 has_width (big ++ map fst (m :: ms)) (pre ++ v :: vals')).
        { apply Forall2_app; auto. }
        destruct (Nat.eq_dec (size (fst m)) 0) as [Z|Z].
        * unfold op_value in H1. rewrite Z in H1. cbn in H1.
          inversion H1 as [H1']. unfold has_width in Hv. rewrite Z in Hv. destruct v; [reflexivity|discriminate].
        * pose proof (index_members_value (fst m) _ _ (length big) v (ty_of w value) Fall) as Q.
          rewrite Q in H1; auto.
          { now inversion H1. }
          { rewrite nth_error_app2, Nat.sub_diag by lia. reflexivity. }
          { apply Forall2_len in F1. rewrite nth_error_app2, F1, Nat.sub_diag by lia. reflexivity. }
      + apply (IH (big ++ [fst m]) ps (S (length big)) (pre ++ [v]) vals'); auto.
        * rewrite <- app_assoc. reflexivity.
        * rewrite app_length. cbn. lia.
        * rewrite <- app_assoc. exact V.
        * apply Forall2_app; auto.
  Qed.

  Lemma members_width : forall value ms ps i k, members_ok value ms ps i ->
    Forall2 has_width (map fst ms) (map (fun p => sg w (fst p) k) ps).
  Proof.
    intros value. induction ms as [|m ms IH]; intros ps i k M; destruct ps as [|[r s] ps]; try destruct M.
    - constructor.
    - destruct H0 as (T & R & M). cbn [map fst]. constructor; [apply R|eapply IH; eauto].
  Qed.
  Lemma members_types : forall value ms ps i, members_ok value ms ps i ->
    map (ty_of w) (map fst ps) = map fst ms.
  Proof.
    intros value. induction ms as [|m ms IH]; intros ps i M; destruct ps as [|[r s] ps]; try destruct M.
    - reflexivity.
    - destruct H0 as (T & R & M). cbn [map fst]. f_equal; eauto.
  Qed.

  (** How the concatenated sub-registers move. *)
  Lemma members_hold : forall value ms ps i k, members_ok value ms ps i ->
    posedge (sg w clock k) (sg w clock (S k)) = false ->
    map (fun p => sg w (fst p) (S k)) ps = map (fun p => sg w (fst p) k) ps.
  Proof.
    intros value. induction ms as [|m ms IH]; intros ps i k M E; destruct ps as [|[r s] ps]; try destruct M.
    - reflexivity.
    - destruct H0 as (T & R & M). cbn [map fst]. f_equal; [|eapply IH; eauto].
      destruct R as [_ R]. rewrite R, E. reflexivity.
  Qed.
  Lemma members_load : forall value ms ps i k vals, members_ok value ms ps i ->
    posedge (sg w clock k) (sg w clock (S k)) = true ->
    match reset with Some (trig, _) => taken (sg w trig k) | None => false end = false ->
    map (fun p => sg w (snd p) k) ps = vals -> Forall2 has_width (map fst ms) vals ->
    map (fun p => sg w (fst p) (S k)) ps = vals.
  Proof.
    intros value. induction ms as [|m ms IH]; intros ps i k vals M E Rs V F; destruct ps as [|[r s] ps]; try destruct M.
    - inversion F. reflexivity.
    - destruct H0 as (T & R & M). cbn [map fst snd] in *. subst vals.
      inversion F as [|? ? ? ? F1 F2]; subst. f_equal; [|eapply IH; eauto].
      destruct R as [_ R]. rewrite R, E. destruct reset as [[trig v]|]; [rewrite Rs|]; now apply assigned_id.
  Qed.
  Lemma members_reset : forall value ms ps i k trig v b n, members_ok value ms ps i ->
    reset = Some (trig, v) -> posedge (sg w clock k) (sg w clock (S k)) = true ->
    taken (sg w trig k) = true -> sg w v k = repeat b n -> list_sum (map size (map fst ms)) <= n ->
    map (fun p => sg w (fst p) (S k)) ps = map (fun m => repeat b (size (fst m))) ms.
  Proof.
    intros value. induction ms as [|m ms IH]; intros ps i k trig v b n M Q E Rs V L;
      destruct ps as [|[r s] ps]; try destruct M.
    - reflexivity.
    - destruct H0 as (T & R & M). cbn [map fst] in *. rewrite list_sum_cons in L.
      f_equal; [|eapply IH; eauto; lia].
      destruct R as [_ R]. rewrite R, E, Q, Rs, V. apply assigned_repeat. lia.
  Qed.
  Lemma concat_repeats : forall (b : bit) (l : list nat), concat (rev (map (repeat b) l)) = repeat b (list_sum l).
  Proof.
    intros b. induction l as [|x l IH]; [reflexivity|]. cbn [map rev]. rewrite concat_app. cbn [concat].
    rewrite app_nil_r, IH, list_sum_cons, <- repeat_app. f_equal. lia.
  Qed.

  Lemma generate_ok : forall t ms name value n,
    Forall good ms -> tuple_members t = Some (map fst ms) -> size t = list_sum (map size (map fst ms)) ->
    carries w value t -> uniform_reset w t reset ->
    Forall (sat w) (fst (generate_split_code t name value ms n)) ->
    ty_of w name = t /\ is_register w t clock reset value name.
  Proof.
    intros t ms name value n G TM Sz [Tv Lv] U St. unfold generate_split_code in St. cbn [fst] in St.
    apply Forall_app in St as [S1 S2]. apply Forall_inv in S2 as [Tn Hc].
    assert (D : forall k, exists vals, Forall2 has_width (map fst ms) vals /\ sg w value k = concat (rev vals)).
    { intros k. apply decompose. rewrite Lv. exact Sz. }
    destruct (members_spec value ms 0 n G) as (ps & E & M); auto.
    { apply Forall_forall. intros m I. destruct reset as [[trig v]|]; [|exact Logic.I]. cbn in U |- *.
      intros k. destruct (U k) as (b & j & Lj & Q). exists b, j. split; auto.
      rewrite Sz in Lj. pose proof (in_map fst _ _ I) as I'. apply (in_map size) in I'.
      apply in_split in I' as (a & c & Q'). rewrite Q' in Lj. rewrite list_sum_app, list_sum_cons in Lj. lia. }
    { intros j m k v Hj Ho. cbn in Ho. destruct (D k) as (vals & F & V).
      assert (Hj' : nth_error (map fst ms) j = Some (fst m)) by now apply map_nth_error.
      destruct (Forall2_nth_error _ _ _ _ _ F Hj') as (b & Hb & Wb).
      destruct (Nat.eq_dec (size (fst m)) 0) as [Z|Z].
      - unfold op_value in Ho. rewrite Z in Ho. cbn in Ho. inversion Ho. now rewrite Z.
      - rewrite V, (index_members_value _ _ vals j b (ty_of w value) F Hj' Hb Z) in Ho by (rewrite Tv; exact TM).
        inversion Ho; subst. exact Wb. }
    assert (N : forall k, sg w name k = concat (rev (map (fun p => sg w (fst p) k) ps))).
    { intros k. specialize (Hc k). rewrite E, (members_types _ _ _ _ M), map_map in Hc.
      pose proof (construct_tuple_value _ _ (members_width _ _ _ _ k M)) as Q.
      assert (Q' : forall vs, op_value t (map fst ms) ConstructTuple vs = op_value (TTuple (map fst ms)) (map fst ms) ConstructTuple vs).
      { intros vs. unfold op_value. cbn [size]. now rewrite <- Sz. }
      rewrite Q', Q in Hc. now inversion Hc. }
    assert (W : forall k, length (sg w name k) = size t).
    { intros k. rewrite N, Sz. apply length_concat_vals. eapply members_width; eauto. }
    split; [auto|]. split; [exact W|].
    intros k. rewrite (N (S k)). destruct (posedge (sg w clock k) (sg w clock (S k))) eqn:Pe.
    - destruct (D k) as (vals & F & V).
      assert (V' : map (fun p => sg w (snd p) k) ps = vals).
      { apply (members_values value k [] (map fst ms) ms ps 0 [] vals); auto. now rewrite Tv. }
      assert (L0 : match reset with Some (trig, _) => taken (sg w trig k) | None => false end = false ->
                concat (rev (map (fun p => sg w (fst p) (S k)) ps)) = assigned (size t) (sg w value k)).
      { intros Rs. rewrite (members_load _ _ _ _ k vals M Pe Rs V' F), <- V. symmetry. apply assigned_id. auto. }
      assert (U' : uniform_reset w t reset) by exact U. revert U' L0. case_eq reset; [intros [trig v] Qr U' L0|intros _ _ L0; apply L0; reflexivity].
      destruct (taken (sg w trig k)) eqn:Tk; [|apply L0; reflexivity].
      destruct (U' k) as (b & j & Lj & Q).
      rewrite (members_reset value ms ps 0 k trig v b j M Qr Pe Tk Q) by lia.
      rewrite Q, (assigned_repeat b j (size t) Lj), Sz.
      rewrite <- concat_repeats, !map_map. reflexivity.
    - rewrite (members_hold _ _ _ _ k M Pe). symmetry. apply N.
  Qed.

  Theorem split_ok : forall t name value n,
    carries w value t -> uniform_reset w t reset ->
    Forall (sat w) (fst (split_compound_reg clock reset t name value n)) ->
    ty_of w name = t /\ is_register w t clock reset value name.
  Proof.
    induction t using ty_nested_ind; intros name value k C U St;
      try solve [inversion St as [|? ? Hs _]; subst; cbn in Hs; tauto].
    - cbn [split_compound_reg] in St. refine (generate_ok _ _ _ _ _ _ _ _ C U St).
      + apply Forall_forall. intros m I. apply in_map_iff in I as (x & <- & I). rewrite Forall_forall in H.
        intros nm vl j. cbn [fst snd]. apply H. exact I.
      + rewrite map_map, map_id. reflexivity.
      + rewrite !map_map. reflexivity.
    - cbn [split_compound_reg] in St. refine (generate_ok _ _ _ _ _ _ _ _ C U St).
      + apply Forall_forall. intros m I. apply in_map_iff in I as (x & <- & I). rewrite Forall_forall in H.
        intros nm vl j. cbn [fst snd]. apply (H x I).
      + rewrite map_map. reflexivity.
      + rewrite !map_map. cbn. f_equal.
    - cbn [split_compound_reg] in St. refine (generate_ok _ _ _ _ _ _ _ _ C U St).
      + apply Forall_forall. intros m I. apply repeat_spec in I. subst m. intros nm vl j. cbn [fst snd]. apply IHt.
      + cbn. f_equal. clear. induction n; cbn; [reflexivity|]. now rewrite <- IHn.
      + cbn [size]. clear. induction n; cbn [repeat map]; [cbn; lia|].
        rewrite list_sum_cons, <- IHn. cbn. lia.
  Qed.
End Split.

(** ** Clock gating *)
Section Gating.
  Variable w : waves.
  Variable payload : list ty.
  Let ps := list_sum (map size payload).
  Let t := TEnum [[]; payload].

  Lemma gate_size : size t = S ps.
  Proof. unfold t, ps. rewrite size_enum. unfold enum_payload_size. cbn. lia. Qed.

  Lemma tag_value : forall v, length v = size t ->
    op_value TBool [t] (RangeIndexBits ps (ps + 1)) [v] = Some [nth ps v BX].
  Proof.
    intros v L. unfold op_value. cbn [size Nat.eqb forward_code List.length seq].
    destruct (Nat.ltb_spec (ps + 1) ps); [lia|]. replace (ps + 1 - ps) with 1 by lia. cbn [Nat.eqb drive].
    f_equal. rewrite assign_bit_const. cbn [operand_env nth]. now rewrite slice_one.
  Qed.
  Lemma payload_value : forall v, length v = size t ->
    op_value (TTuple payload) [t] (RangeIndexBits 0 ps) [v] = Some (firstn ps v).
  Proof.
    intros v L. rewrite gate_size in L. unfold op_value. cbn [size]. fold ps.
    destruct (Nat.eqb_spec ps 0) as [E|E]; [now rewrite E|].
    cbn [forward_code List.length seq]. destruct (Nat.ltb_spec ps 0); [lia|]. rewrite Nat.sub_0_r.
    destruct (Nat.eqb_spec ps 1) as [E1|E1]; cbn [drive]; f_equal.
    - rewrite E1, assign_bit_const. cbn [operand_env nth]. rewrite slice_spec by lia. reflexivity.
    - unfold assign_val. cbn [width signed eval]. rewrite resize_id by (rewrite length_slice; lia).
      cbn [operand_env nth]. rewrite Nat.sub_0_r, slice_spec by lia. cbn [skipn]. rewrite firstn_firstn. f_equal. lia.
  Qed.
  Lemma select_value : forall c a b, length a = ps -> length b = ps ->
    exists r, op_value (TTuple payload) [TBool; TTuple payload; TTuple payload] Select [[c]; a; b] = Some r
      /\ (c = B1 -> r = a) /\ (c = B0 -> r = b) /\ length r = ps.
  Proof.
    intros c a b La Lb. unfold op_value. cbn [size]. fold ps.
    destruct (Nat.eqb_spec ps 0) as [E|E].
    { exists []. rewrite E in *. destruct a; [|discriminate]. destruct b; [|discriminate]. auto. }
    cbn [forward_code List.length seq drive]. eexists. split; [reflexivity|].
    unfold assign_val. cbn [width signed eval fv operand_env nth andb List.length].
    rewrite La, Lb, !Nat.max_id.
    rewrite !resize_id by auto. cbn [truth fold_right]. split; [|split].
    - intros ->. cbn. rewrite <- La. apply firstn_all.
    - intros ->. cbn. rewrite <- Lb. apply firstn_all.
    - rewrite firstn_length. destruct c; cbn; rewrite ?La, ?Lb; try lia.
      assert (M : forall f (x y : bits), length x = length y -> length (map2 f x y) = length x).
      { intros f. induction x as [|? ? IH]; intros [|? ?] Q; cbn in *; auto; try discriminate.  }
      rewrite M by congruence. lia.
  Qed.
  Lemma join_value : forall c p, length p = ps ->
    op_value t [TBool; TTuple payload] Concat [[c]; p] = Some (p ++ [c]).
  Proof.
    intros c p L.
    assert (F : Forall2 has_width [TBool; TTuple payload] [[c]; p]) by (repeat constructor; auto).
    pose proof (construct_tuple_value _ _ F) as Q. cbn [rev app concat] in Q.
    rewrite <- Q. unfold op_value. cbn [forward_code].
    replace (size (TTuple [TBool; TTuple payload])) with (size t); [reflexivity|].
    rewrite gate_size. cbn. fold ps. lia.
  Qed.
  Lemma nth_join : forall (p : bits) c, length p = ps -> nth ps (p ++ [c]) BX = c /\ firstn ps (p ++ [c]) = p.
  Proof.
    intros p c L. split; [|now apply firstn_app_exact].
    rewrite app_nth2, L, Nat.sub_diag by lia. reflexivity.
  Qed.

  Variables (clock value name : vn) (reset : option (vn * vn)).
  Variables (ss : list stmt) (n n' : nat).
  Hypothesis G : perform_trivial_gating clock reset t name value n = Some (ss, n').
  Hypothesis Cv : carries w value t.
  Hypothesis Cr : match reset with Some (_, v) => carries w v t | None => True end.
  Hypothesis St : Forall (sat w) ss.

  Definition next_tag (i : nat) : bit :=
    match reset with
    | Some (trig, v) => if taken (sg w trig i) then nth ps (sg w v i) BX else nth ps (sg w value i) BX
    | None => nth ps (sg w value i) BX
    end.

  (** The two registers behind the name, and how they move. *)
  Lemma gated_parts : exists (tag : nat -> bit) (pay : nat -> bits),
    (forall i, sg w name i = pay i ++ [tag i] /\ length (pay i) = ps) /\
    forall i,
      (posedge (sg w clock i) (sg w clock (S i)) = false -> tag (S i) = tag i /\ pay (S i) = pay i) /\
      (posedge (sg w clock i) (sg w clock (S i)) = true -> tag (S i) = next_tag i /\
         match reset with
         | Some (trig, v) => taken (sg w trig i) = true -> pay (S i) = firstn ps (sg w v i)
         | None => True
         end /\
         (match reset with Some (trig, _) => taken (sg w trig i) | None => false end = false ->
            (nth ps (sg w value i) BX = B1 -> pay (S i) = firstn ps (sg w value i)) /\
            (nth ps (sg w value i) BX = B0 -> pay (S i) = pay i))).
  Proof.
    destruct Cv as [Tv Lv].
    set (tag_reg := EId n). set (payload_reg := EId (n + 1)). set (payload_reg_value := EId (n + 2)).
    set (value_tag := EId (n + 3)). set (value_payload := EId (n + 4)).
    assert (P : exists rt rp,
      (ty_of w value_tag = TBool /\ forall i, op_value TBool [ty_of w value] (RangeIndexBits ps (ps + 1)) [sg w value i] = Some (sg w value_tag i)) /\
      (ty_of w value_payload = TTuple payload /\ forall i, op_value (TTuple payload) [ty_of w value] (RangeIndexBits 0 ps) [sg w value i] = Some (sg w value_payload i)) /\
      (ty_of w tag_reg = TBool /\ is_register w TBool clock rt value_tag tag_reg) /\
      (ty_of w payload_reg_value = TTuple payload /\ forall i, op_value (TTuple payload) [ty_of w value_tag; ty_of w value_payload; ty_of w payload_reg] Select
           [sg w value_tag i; sg w value_payload i; sg w payload_reg i] = Some (sg w payload_reg_value i)) /\
      (ty_of w payload_reg = TTuple payload /\ is_register w (TTuple payload) clock rp payload_reg_value payload_reg) /\
      (ty_of w name = t /\ forall i, op_value t [ty_of w tag_reg; ty_of w payload_reg] Concat [sg w tag_reg i; sg w payload_reg i] = Some (sg w name i)) /\
      match reset with
      | None => rt = None /\ rp = None
      | Some (trig, v) => exists a b, rt = Some (trig, a) /\ rp = Some (trig, b) /\
          (forall i, sg w a i = [nth ps (sg w v i) BX]) /\ (forall i, sg w b i = firstn ps (sg w v i))
      end).
    { unfold perform_trivial_gating, t in G. destruct reset as [[trig v]|]; cbv zeta iota in G;
        apply (f_equal (fun o => match o with Some p => fst p | None => [] end)) in G; cbn [fst] in G; subst ss.
      - unfold split_trivial_tag_value in St. cbn [app] in St. fold ps in St.
        do 4 (apply Forall_cons_iff in St as [? St]). do 4 (apply Forall_cons_iff in St as [? St]).
        destruct Cr as [Tr Lr].
        exists (Some (trig, EId (n + 5))), (Some (trig, EId (n + 6))). 
        split; [assumption|]. split; [assumption|]. split; [assumption|]. split; [assumption|].
        split; [assumption|]. split; [assumption|]. exists (EId (n + 5)), (EId (n + 6)).
        split; [reflexivity|]. split; [reflexivity|].
        match goal with
        | A : sat w (SBind (EId (n + 5)) _ _ _), B : sat w (SBind (EId (n + 6)) _ _ _) |- _ =>
            destruct A as [_ A]; destruct B as [_ B]; cbn [map] in A, B; rewrite Tr in A, B;
            split; intros i; specialize (A i); specialize (B i)
        end.
        + rewrite tag_value in H1 by auto. now inversion H1.
        + rewrite payload_value in H2 by auto. now inversion H2.
      - unfold split_trivial_tag_value in St. cbn [app] in St. fold ps in St.
        do 6 (apply Forall_cons_iff in St as [? St]).
        exists None, None.
        split; [assumption|]. split; [assumption|]. split; [assumption|]. split; [assumption|].
        split; [assumption|]. split; [assumption|]. auto. }
    destruct P as (rt & rp & [T1 V1] & [T2 V2] & [T3 R3] & [T4 V4] & [T5 R5] & [T6 V6] & RR).
    assert (V1' : forall i, sg w value_tag i = [nth ps (sg w value i) BX]).
    { intros i. specialize (V1 i). rewrite Tv, tag_value in V1 by auto. now inversion V1. }
    assert (V2' : forall i, sg w value_payload i = firstn ps (sg w value i)).
    { intros i. specialize (V2 i). rewrite Tv, payload_value in V2 by auto. now inversion V2. }
    assert (L2 : forall i, length (sg w value_payload i) = ps).
    { intros i. rewrite V2', firstn_length, Lv, gate_size. lia. }
    assert (L3 : forall i, sg w tag_reg i = [nth 0 (sg w tag_reg i) BX]).
    { intros i. destruct R3 as [L _]. specialize (L i). cbn in L.
      destruct (sg w tag_reg i) as [|b [|? ?]]; try discriminate. reflexivity. }
    assert (L5 : forall i, length (sg w payload_reg i) = ps) by (intros i; apply R5).
    assert (V4' : forall i, exists r, sg w payload_reg_value i = r /\ length r = ps /\
       (nth ps (sg w value i) BX = B1 -> r = firstn ps (sg w value i)) /\
       (nth ps (sg w value i) BX = B0 -> r = sg w payload_reg i)).
    { intros i. specialize (V4 i). rewrite T1, T2, T5, V1' in V4.
      destruct (select_value (nth ps (sg w value i) BX) _ _ (L2 i) (L5 i)) as (r & E & H1 & H0 & Lr).
      rewrite E in V4. exists r. apply (f_equal (fun o => match o with Some x => x | None => r end)) in V4. cbn in V4.
      rewrite (V2' i) in H1. auto. }
    exists (fun i => nth 0 (sg w tag_reg i) BX), (fun i => sg w payload_reg i). split.
    { intros i. split; auto. specialize (V6 i). rewrite T3, T5, L3, join_value in V6 by auto. now inversion V6. }
    destruct R3 as [_ R3]. destruct R5 as [_ R5]. intros i. specialize (R3 i). specialize (R5 i).
    destruct (V4' i) as (r & Er & Lr & H1 & H0).
    assert (A1 : assigned (size TBool) (sg w value_tag i) = [nth ps (sg w value i) BX]).
    { rewrite V1'. now apply assigned_id. }
    assert (A2 : assigned (size (TTuple payload)) (sg w payload_reg_value i) = r).
    { rewrite Er. now apply assigned_id. }
    rewrite A1 in R3. rewrite A2 in R5. unfold next_tag.
    destruct (posedge (sg w clock i) (sg w clock (S i))); (split; [|intros Q; try discriminate Q]); [discriminate| |intros _; rewrite R3, R5; auto].
    destruct reset as [[trig v]|].
    - destruct RR as (a & b & -> & -> & Ea & Eb). rewrite Ea, Eb in *.
      destruct (taken (sg w trig i)).
      + rewrite (assigned_id [_]) in R3 by reflexivity.
        rewrite (assigned_id (firstn _ _)) in R5.
        2:{ destruct Cr as [_ Lr']. rewrite firstn_length, Lr', gate_size. cbn [size]. fold ps. lia. }
        rewrite R3, R5. split; [reflexivity|]. split; [auto|]. discriminate.
      + rewrite R3, R5. split; [reflexivity|]. split; [discriminate|auto].
    - destruct RR as [-> ->]. rewrite R3, R5. auto.
  Qed.
End Gating.

(** The same enum value: the same variant, and for variant 1 the same payload. *)
Lemma gated_correct : forall w payload clock value name reset ss n n',
  let t := TEnum [[]; payload] in
  let ps := list_sum (map size payload) in
  let same := fun a b : bits => nth ps a BX = nth ps b BX /\ (nth ps a BX = B1 -> firstn ps a = firstn ps b) in
  perform_trivial_gating clock reset t name value n = Some (ss, n') ->
  carries w value t -> match reset with Some (_, v) => carries w v t | None => True end ->
  Forall (sat w) ss ->
  forall reference, is_register w t clock reset value reference ->
  same (sg w name 0) (sg w reference 0) ->
  forall i, same (sg w name i) (sg w reference i).
Proof.
  intros w payload clock value name reset ss n n' t ps same G Cv Cr St ref [Lr Rr] H0 i.
  destruct (gated_parts w payload clock value name reset ss n n' G Cv Cr St) as (tag & pay & N & M).
  fold ps in N, M.
  induction i as [|i IH]; auto. unfold same in *.
  destruct (N i) as [Ni Li]. destruct (N (S i)) as [Ns Ls]. rewrite Ns. rewrite Ni in IH.
  destruct (nth_join payload (pay i) (tag i) Li) as [A1 A2].
  destruct (nth_join payload (pay (S i)) (tag (S i)) Ls) as [B1' B2]. fold ps in A1, A2, B1', B2.
  rewrite A1, A2 in IH. rewrite B1', B2. specialize (M i). specialize (Rr i). rewrite Rr.
  destruct (posedge (sg w clock i) (sg w clock (S i))).
  - destruct M as [_ M]. destruct (M eq_refl) as (Mt & Mr & Mv). rewrite Mt. unfold next_tag. fold ps.
    destruct Cv as [_ Lv].
    assert (AV : assigned (size t) (sg w value i) = sg w value i) by (apply assigned_id; auto).
    destruct reset as [[trig v]|].
    + assert (AR : assigned (size t) (sg w v i) = sg w v i) by (apply assigned_id; apply Cr).
      destruct (taken (sg w trig i)).
      * rewrite AR. split; [reflexivity|]. intros _. auto.
      * rewrite AV. split; [reflexivity|]. intros E. apply Mv; auto.
    + rewrite AV. split; [reflexivity|]. intros E. apply Mv; auto.
  - destruct M as [M _]. destruct (M eq_refl) as [-> ->]. exact IH.
Qed.

(** The payload flip-flops keep their contents while the value is variant 0. *)
Lemma gated_idle : forall w payload clock value name reset ss n n' i,
  let t := TEnum [[]; payload] in
  let ps := list_sum (map size payload) in
  perform_trivial_gating clock reset t name value n = Some (ss, n') ->
  carries w value t -> match reset with Some (_, v) => carries w v t | None => True end ->
  Forall (sat w) ss ->
  nth ps (sg w value i) BX = B0 ->
  match reset with Some (trig, _) => taken (sg w trig i) = false | None => True end ->
  firstn ps (sg w name (S i)) = firstn ps (sg w name i).
Proof.
  intros w payload clock value name reset ss n n' i t ps G Cv Cr St Z R.
  destruct (gated_parts w payload clock value name reset ss n n' G Cv Cr St) as (tag & pay & N & M).
  fold ps in N, M. destruct (N i) as [-> Li]. destruct (N (S i)) as [-> Ls].
  rewrite !firstn_app_exact by auto. destruct (M i) as [M0 M1].
  destruct (posedge (sg w clock i) (sg w clock (S i))); [|now apply M0].
  destruct (M1 eq_refl) as (_ & _ & Mv). apply Mv; auto. destruct reset as [[trig v]|]; auto.
Qed.

(** The whole pass. *)
Lemma split_pass : forall w ss n,
  (forall name t clock reset value, In (SReg name t clock reset None value) ss ->
     carries w value t /\ uniform_reset w t reset) ->
  Forall (sat w) (fst (split_compound_regs ss n)) -> Forall (sat w) ss.
Proof.
  intros w. induction ss as [|s ss IH]; intros n C St; [constructor|].
  cbn [split_compound_regs fst snd] in St. apply Forall_app in St as [S1 S2].
  constructor.
  - destruct s as [ | |nm t c r [i|] v| | | | ]; try (inversion S1; assumption).
    destruct (C nm t c r v (or_introl eq_refl)) as [Cv U]. cbn [sat].
    apply split_ok in S1; auto.
  - apply (IH _ ltac:(intros; eapply C; right; eauto) S2).
Qed.
