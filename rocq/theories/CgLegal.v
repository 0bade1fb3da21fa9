(** Static legality of the emitted expressions (C10). *)
From Coq Require Import List ZArith Lia Bool Arith.
From Verif Require Import Bits BitsFacts Verilog CodegenModel CodegenSpec CgLayout CgArith CgMatch.
Import ListNotations.

Lemma and_map_Forall {A} (P : A -> Prop) l : Forall P l -> fold_right and True (map P l).
Proof. induction 1; cbn; tauto. Qed.

Lemma legal_fv tys k : size (nth k tys (TTuple [])) <> 0 -> legal (declared tys) (fv k).
Proof. cbn. lia. Qed.

Lemma legal_concat_filtered tys :
  list_sum (map size tys) <> 0 ->
  legal (declared tys)
    (VConcat (map fv (filter (fun o => nonzero (size (nth o tys (TTuple [])))) (seq 0 (length tys))))).
Proof.
  intros H. set (l := filter _ _).
  assert (Hl : forall k, In k l <-> k < length tys /\ size (nth k tys (TTuple [])) <> 0).
  { intros k. unfold l. rewrite filter_In, in_seq. unfold nonzero.
    destruct (Nat.eqb_spec (size (nth k tys (TTuple []))) 0); cbn; split; intros [? ?]; split; try lia; congruence. }
  cbn [legal]. split.
  - destruct l as [|k l'] eqn:E; [|discriminate]. exfalso. apply H.
    clear H E. assert (Hz : forall k, k < length tys -> size (nth k tys (TTuple [])) = 0).
    { intros k Hk. destruct (Nat.eq_dec (size (nth k tys (TTuple []))) 0) as [e|e]; [exact e|].
      destruct (proj2 (Hl k) (conj Hk e)). }
    clear Hl. induction tys as [|t tys IH]; [reflexivity|]. cbn [map]. rewrite list_sum_cons.
    rewrite IH; [|intros k Hk; apply (Hz (S k)); cbn; lia]. pose proof (Hz 0 ltac:(cbn; lia)). cbn in *. lia.
  - apply and_map_Forall, Forall_forall. intros e He. apply in_map_iff in He. destruct He as (k & <- & Hk).
    apply legal_fv. now apply Hl.
Qed.

Lemma nth_match_types t n k : k < 2 * n -> nth k (concat (repeat [TBool; t] n)) (TTuple []) = if Nat.even k then TBool else t.
Proof.
  revert k; induction n as [|n IH]; intros k Hk; [lia|].
  cbn [repeat concat app]. destruct k as [|[|k]]; [reflexivity..|]. cbn [nth]. rewrite IH by lia. reflexivity.
Qed.

Lemma match_types_flat t n : concat (repeat [TBool; t] n) = flat (repeat (TBool, t) n).
Proof. induction n as [|n IH]; cbn; [reflexivity|]. now rewrite IH. Qed.

Lemma size_array_ge t n : size (TArray t n) = size t * n.
Proof. reflexivity. Qed.


(** The selects that go wrong: see the refutations in P_Codegen.v. *)
Definition scalar_select (op : operator) (tys : list ty) (t : ty) : bool :=
  match op, tys with
  | SignExtend, t0 :: _ => (size t0 =? 1) && (1 <? size t)
  | Truncate, t0 :: _ => size t0 =? 1
  | _, _ => false
  end.

Ltac in_cases :=
  repeat match goal with
  | H : In _ (_ :: _) |- _ => destruct H as [<-|H]
  | H : In _ [] |- _ => destruct H
  end.

Lemma members_sum ms i t : nth_error ms i = Some t ->
  list_sum (map size ms) = list_sum (firstn i (map size ms)) + size t + list_sum (map size (skipn (S i) ms)).
Proof.
  revert i; induction ms as [|m ms IH]; intros [|i] H; cbn in H; try discriminate.
  - injection H as ->. cbn [map firstn skipn]. rewrite list_sum_cons. reflexivity.
  - change (skipn (S (S i)) (m :: ms)) with (skipn (S i) ms).
    cbn [map firstn]. rewrite !list_sum_cons, (IH i H). lia.
Qed.

Lemma size_members t0 ms : tuple_members t0 = Some ms -> list_sum (map size ms) = size t0.
Proof.
  unfold tuple_members. intros H. 
  assert (E : size t0 = size (strip_copy_view_layers t0)).
  { clear. induction t0; try reflexivity. exact IHt0. }
  rewrite E. destruct (strip_copy_view_layers t0); try discriminate; injection H as <-; cbn [size].
  - reflexivity.
  - rewrite map_map. reflexivity.
  - clear. match goal with |- list_sum (map size (repeat ?a ?b)) = _ => induction b as [|n IH] end; [cbn; lia|].
    cbn [repeat map]. rewrite list_sum_cons, IH. lia.
Qed.

Theorem legal_code op tys t :
  typed op tys t -> size t <> 0 ->
  (zero_width_aware op = false -> Forall (fun t => size t <> 0) tys) ->
  scalar_select op tys t = false ->
  exists d, forward_code (fun n => nth n tys (TTuple [])) t op (seq 0 (length tys)) = Ok d
    /\ legal_driver (declared tys) d.
Proof.
  intros HT Ht Hz Hs. destruct HT; in_cases; cbn [zero_width_aware] in Hz;
    try (specialize (Hz eq_refl)); cbn [length seq forward_code];
    try (eexists; split; [reflexivity|]; cbn [legal_driver legal fv declared nth];
         repeat match goal with H : Forall _ (_ :: _) |- _ => inversion H; clear H; subst end;
         cbn in *; lia).
  all: cbn [length seq forward_code binop_zst signed_zst nth ok].
  all: try (match goal with |- context [ok (if size ?x =? 0 then _ else _)] =>
              destruct (Nat.eqb_spec (size x) 0) as [E|E] end;
            eexists; (split; [reflexivity|]); cbn [legal_driver legal fv declared nth length] in *; lia).
  - (* Truncate *)
    destruct (Nat.eqb_spec (size t) 0); [contradiction|]. eexists. split; [reflexivity|].
    cbn in Hs. apply Nat.eqb_neq in Hs. inversion Hz; subst.
    cbn [legal_driver legal declared nth]. unfold vector. cbn [declared nth]. lia.
  - (* SignExtend *)
    inversion Hz; subst. cbn [scalar_select] in Hs.
    destruct (Nat.ltb_spec (size t0) (size t)).
    + destruct (Nat.eqb_spec (size t0) 0); [contradiction|].
      assert (size t0 <> 1).
      { intros E. rewrite E in Hs. cbn [Nat.eqb andb] in Hs. apply Nat.ltb_ge in Hs. lia. }
      destruct (Nat.eqb_spec (size t - size t0) 1); eexists; (split; [reflexivity|]);
        cbn [legal_driver legal declared nth map fold_right fv]; unfold vector; cbn [declared nth];
        repeat split; try discriminate; lia.
    + eexists. split; [reflexivity|]. cbn. lia.
  - (* ZeroExtend *)
    inversion Hz; subst.
    destruct (Nat.ltb_spec (size t0) (size t)); eexists; (split; [reflexivity|]);
      cbn [legal_driver legal declared nth map fold_right fv]; [|lia].
    rewrite length_of_Z. repeat split; try discriminate; lia.
  - (* Concat *)
    eexists. split; [reflexivity|]. apply legal_concat_filtered. congruence.
  - (* Match *)
    rewrite match_types_flat, flat_types_even in *.
    pose proof (match_driver t n) as MD. cbn [forward_code] in MD. rewrite MD. clear MD. eexists. split; [reflexivity|].
    assert (Hall : forall k, k < 2 * n -> legal (declared (flat (repeat (TBool, t) n))) (fv k)).
    { intros k Hk. apply legal_fv. rewrite <- match_types_flat, nth_match_types by exact Hk.
      destruct (Nat.even k); [cbn; lia|exact Ht]. }
    cbn [legal_driver legal]. split; [split|].
    + destruct n; [lia|discriminate].
    + apply and_map_Forall, Forall_forall. intros e He. apply in_map_iff in He.
      destruct He as (k & <- & Hk). apply in_seq in Hk. apply Hall. lia.
    + apply and_map_Forall, Forall_forall. intros e He. apply in_app_or in He. destruct He as [He|[<-|[]]].
      * apply in_map_iff in He. destruct He as (k & <- & Hk). apply in_seq in Hk. apply Hall. lia.
      * cbn [snd legal]. rewrite length_xs. lia.
  - (* IndexTuple *)
    rewrite H. unfold compute_tuple_index. rewrite (map_nth_error size _ _ H0).
    pose proof (members_sum _ _ _ H0) as Hm. pose proof (size_members _ _ H) as Hsz.
    destruct (Nat.eqb_spec (size t) 0); [contradiction|].
    inversion Hz; subst.
    destruct (Nat.eqb_spec (list_sum (map size ms)) 1); [|destruct (Nat.eqb_spec (size t) 1)];
      eexists; (split; [reflexivity|]); cbn [tuple_index_code ok legal_driver legal declared nth];
      unfold vector; cbn [declared nth]; lia.
  - (* ConstructArray *)
    rewrite repeat_length. eexists. split; [reflexivity|]. cbn [size] in Ht. cbn [legal_driver legal]. split.
    + rewrite map_rev. intros E. apply (f_equal (@length vexpr)) in E.
      rewrite rev_length, map_length, seq_length in E. cbn in E. lia.
    + apply and_map_Forall, Forall_forall. intros e He. apply in_map_iff in He.
      destruct He as (k & <- & Hk). apply in_rev, in_seq in Hk. apply legal_fv.
      rewrite (nth_indep _ _ t) by (rewrite repeat_length; lia). rewrite nth_repeat. lia.
  - (* IndexArray *)
    inversion Hz as [|? ? Hz1 Hz2]; subst. inversion Hz2; subst. cbn [size] in *.
    destruct (Nat.eqb_spec n 1) as [E|E]; cbn [negb];
      [|destruct (Nat.eqb_spec (size t) 1) as [E1|E1]];
      eexists; (split; [reflexivity|]); cbn [legal_driver legal declared nth size fv];
      unfold vector; cbn [declared nth size]; nia.
  - (* RangeIndexArray *)
    inversion Hz; subst. cbn [size] in *. destruct (Nat.ltb_spec e s); [lia|].
    destruct (Nat.eqb_spec n 1) as [E|E]; [eexists; split; [reflexivity|]; cbn; lia|].
    destruct ((size t =? 1) && (e - s =? 1)) eqn:Eb.
    + apply andb_true_iff in Eb. destruct Eb as [E1 E2]. apply Nat.eqb_eq in E1, E2.
      eexists. split; [reflexivity|]. cbn [legal_driver legal declared nth size]. unfold vector.
      cbn [declared nth size]. rewrite E1. lia.
    + destruct (Nat.eqb_spec (e * size t) 0) as [E0|E0]; [nia|].
      eexists. split; [reflexivity|]. cbn [legal_driver legal declared nth size]. unfold vector.
      cbn [declared nth size].
      assert (1 <= size t) by (destruct (size t); lia).
      pose proof (Nat.mul_le_mono_r e n (size t) ltac:(lia)).
      pose proof (Nat.mul_le_mono_r (e - s) e (size t) ltac:(lia)).
      pose proof (Nat.mul_le_mono_l 1 (e - s) (size t) ltac:(lia)).
      pose proof (Nat.mul_le_mono 1 (size t) 2 n ltac:(lia) ltac:(lia)).
      rewrite (Nat.mul_comm n), (Nat.mul_comm (e - s)) in *. lia.
  - (* ConstructEnum *)
    rewrite H. eexists. split; [reflexivity|].
    set (inc := map snd _). set (pad := _ - _ - _).
    assert (Hinc : forall k, In k inc -> size (nth k tys (TTuple [])) <> 0).
    { unfold inc. intros k Hk. apply in_map_iff in Hk. destruct Hk as ([a k'] & <- & Hk).
      apply filter_In in Hk. destruct Hk as [Hk Hn]. cbn [fst snd] in *.
      apply In_nth with (d := (TTuple [], 0)) in Hk. destruct Hk as (j & Hj & Ej).
      rewrite combine_length, seq_length, Nat.min_id in Hj.
      rewrite combine_nth in Ej by now rewrite seq_length. rewrite seq_nth in Ej by lia.
      injection Ej as Ea Ek. cbn in Ek. subst k'. rewrite Ea. unfold nonzero in Hn.
      destruct (Nat.eqb_spec (size a) 0); [discriminate|assumption]. }
    assert (Hne : list_sum (map size tys) <> 0 -> inc <> []).
    { clear - tys. intros Hsum E. apply Hsum. unfold inc in E. apply map_eq_nil in E.
      clear - E. revert E. set (k := 0) at 1. clearbody k. revert k. induction tys as [|a tys IH]; intros k E; [reflexivity|].
      cbn [length seq combine filter fst] in E. unfold nonzero in E at 1.
      destruct (Nat.eqb_spec (size a) 0) as [e|e]; cbn [negb] in E; [|discriminate].
      cbn [map]. rewrite list_sum_cons, e. apply (IH (S k)). exact E. }
    cbn [legal_driver legal]. split.
    + intros E. apply app_eq_nil in E. destruct E as [E1 E]. apply app_eq_nil in E. destruct E as [E2 E3].
      unfold nonzero in *. destruct (Nat.eqb_spec (tag_size (length options)) 0) as [T0|T0]; [|discriminate].
      destruct (Nat.eqb_spec pad 0) as [P0|P0]; [|discriminate].
      apply map_eq_nil in E2. destruct (Nat.eq_dec (list_sum (map size tys)) 0) as [S0|S0]; [|now apply Hne].
      apply Ht. unfold pad in P0. lia.
    + apply and_map_Forall, Forall_forall. intros e He. apply in_app_or in He. destruct He as [He|He].
      * unfold nonzero in He. destruct (Nat.eqb_spec (tag_size (length options)) 0) as [T0|T0]; [destruct He|].
        destruct He as [<-|[]]. cbn [legal]. rewrite length_of_Z. lia.
      * apply in_app_or in He. destruct He as [He|He].
        -- apply in_map_iff in He. destruct He as (k & <- & Hk). apply legal_fv. now apply Hinc.
        -- unfold nonzero in He. destruct (Nat.eqb_spec pad 0) as [T0|T0]; [destruct He|].
           destruct He as [<-|[]]. cbn [legal]. rewrite length_xs. lia.
  - (* IsEnumVariant *)
    cbn [nth]. destruct (Nat.eqb_spec (size (TEnum options)) 0); [eexists; split; [reflexivity|]; exact I|].
    destruct (Nat.eqb_spec (tag_size (length options)) 0) as [T0|T0]; [eexists; split; [reflexivity|]; exact I|].
    pose proof (size_enum options) as Hse.
    destruct (Nat.eqb_spec (size (TEnum options)) 1);
      [|destruct (Nat.eqb_spec (size (TEnum options) - 1) (size (TEnum options) - tag_size (length options)))];
      eexists; (split; [reflexivity|]); cbn [legal_driver legal fv]; rewrite length_of_Z;
      unfold vector; cbn [declared nth]; lia.
  - (* EnumMember *)
    cbn [nth]. rewrite H, H0. inversion Hz; subst.
    pose proof (size_enum options) as Hse. pose proof (payload_fits _ _ _ H) as Hp.
    pose proof (members_sum _ _ _ H0) as Hm. rewrite firstn_map in Hm.
    destruct (Nat.ltb_spec (size (TEnum options)) (tag_size (length options) + list_sum (map size (firstn i tys)) + 1)); [lia|].
    destruct (Nat.ltb_spec (size (TEnum options)) (tag_size (length options) + list_sum (map size (firstn i tys)) + size t)); [lia|].
    match goal with |- context [if ?b then _ else _] => destruct b eqn:Eb end.
    + eexists. split; [reflexivity|]. cbn [legal_driver legal fv declared nth]. lia.
    + eexists. split; [reflexivity|]. cbn [legal_driver legal]. unfold vector. cbn [declared nth].
      apply andb_false_iff in Eb. rewrite !Nat.eqb_neq in Eb. lia.
  - (* ConstructTuple *)
    eexists. split; [reflexivity|]. apply legal_concat_filtered. exact Ht.
  - eexists. split; [reflexivity|]. apply legal_concat_filtered. rewrite <- struct_size. exact Ht.
Qed.
