(** C09-C13: selection, legality, equality, memories and inverted wires. *)
From Coq Require Import List ZArith Lia Bool Arith.
From Coq Require Strings.String.
From Verif Require Import Bits Verilog CodegenModel CodegenSpec CgLayout CgMatch CgLegal CgEq
  MemModel MemSpec MemProofs InvModel InvProofs.
Import ListNotations.

(** ** C09.  Arms are (condition, value) pairs, passed to the operator as
    alternating operands. *)
Definition C09_operand_types (t : ty) (arms : list (bit * bits)) : list ty := concat (map (fun _ => [TBool; t]) arms).
Definition C09_operands (arms : list (bit * bits)) : list bits := concat (map (fun a => [[fst a]; snd a]) arms).

Lemma C09_types_flat t arms : C09_operand_types t arms = flat (repeat (TBool, t) (length arms)).
Proof. unfold C09_operand_types. induction arms as [|a arms IH]; [reflexivity|]. cbn. now rewrite IH. Qed.
Lemma C09_operands_flat arms : C09_operands arms = flat (map (fun a => ([fst a], snd a)) arms).
Proof. unfold C09_operands. induction arms as [|a arms IH]; [reflexivity|]. cbn. now rewrite IH. Qed.

Theorem C09_first_match : forall t before v after,
  has_width t v -> Forall (fun a => fst a = B0) before ->
  let arms := before ++ (B1, v) :: after in
  op_value t (C09_operand_types t arms) Match (C09_operands arms) = Some v.
Proof.
  intros t before v after Hv Hb arms. destruct (Nat.eq_dec (size t) 0) as [E|E].
  - unfold has_width in Hv. rewrite E in Hv. apply length_zero_iff_nil in Hv. subst v.
    apply op_value_zero. exact E.
  - rewrite C09_types_flat, C09_operands_flat. apply (match_first t arms (length before) v E).
    + unfold arms. rewrite nth_error_app2, Nat.sub_diag by lia. reflexivity.
    + exact Hv.
    + intros j a Hj Ha. unfold arms in Ha. rewrite nth_error_app1 in Ha by exact Hj.
      rewrite Forall_forall in Hb. apply Hb. eapply nth_error_In; eassumption.
Qed.
Print Assumptions C09_first_match.
Theorem C09_no_match : forall t arms,
  Forall (fun a => fst a <> B1) arms ->
  op_value t (C09_operand_types t arms) Match (C09_operands arms) = Some (xs (size t)).
Proof.
  intros t arms H. destruct (Nat.eq_dec (size t) 0) as [E|E].
  - rewrite E. apply op_value_zero. exact E.
  - rewrite C09_types_flat, C09_operands_flat. apply match_none; [exact E|].
    rewrite Forall_forall in H. exact H.
Qed.
Print Assumptions C09_no_match.
Example C09_nontrivial :
  let arms := [(B0, [B1; B1]); (B1, [B0; B1]); (BX, [B0; B0]); (B1, [B1; B0])] in
  op_value (TUInt 2) (C09_operand_types (TUInt 2) arms) Match (C09_operands arms) = Some [B0; B1].
Proof. reflexivity. Qed.

(** ** C10.  Partial: operators that do not filter zero-width operands are
    assumed not to have any, and sign extension or truncation of a one-bit value
    is excluded; both exclusions are real defects, refuted below. *)
Theorem C10_legal_partial : forall op tys t,
  typed op tys t -> size t <> 0 ->
  (zero_width_aware op = false -> Forall (fun t => size t <> 0) tys) ->
  scalar_select op tys t = false ->
  exists d, forward_code (fun n => nth n tys (TTuple [])) t op (seq 0 (length tys)) = Ok d
    /\ legal_driver (declared tys) d.
Proof. exact legal_code. Qed.
Print Assumptions C10_legal_partial.
(** sext of an int<1> to int<2> bit-selects a scalar. *)
Theorem C10_sext_refuted : exists op tys t d,
  typed op tys t /\ size t <> 0 /\ Forall (fun t => size t <> 0) tys /\
  forward_code (fun n => nth n tys (TTuple [])) t op (seq 0 (length tys)) = Ok d /\
  ~ legal_driver (declared tys) d.
Proof.
  exists SignExtend, [TInt 1], (TInt 2), (DAssign (VConcat [VBitC (Fwd 0) 0; fv 0])).
  repeat split; try (cbn; lia); [constructor; cbn; lia|repeat constructor; cbn; lia|].
  cbn. unfold vector. cbn. lia.
Qed.
Print Assumptions C10_sext_refuted.
(** trunc of a uint<1> to uint<1> part-selects a scalar. *)
Theorem C10_trunc_refuted : exists op tys t d,
  typed op tys t /\ size t <> 0 /\ Forall (fun t => size t <> 0) tys /\
  forward_code (fun n => nth n tys (TTuple [])) t op (seq 0 (length tys)) = Ok d /\
  ~ legal_driver (declared tys) d.
Proof.
  exists Truncate, [TUInt 1], (TUInt 1), (DAssign (VRange (Fwd 0) 0 0)).
  repeat split; try (cbn; lia); [constructor; cbn; lia|repeat constructor; cbn; lia|].
  cbn. unfold vector. cbn. lia.
Qed.
Print Assumptions C10_trunc_refuted.
(** Adding two uint<0> mentions signals that are never declared. *)
Theorem C10_zero_width_refuted : exists op tys t d,
  typed op tys t /\ size t <> 0 /\
  forward_code (fun n => nth n tys (TTuple [])) t op (seq 0 (length tys)) = Ok d /\
  ~ legal_driver (declared tys) d.
Proof.
  exists UnsignedAdd, [TUInt 0; TUInt 0], (TUInt 1), (DAssign (VBin OAdd (fv 0) (fv 1))).
  repeat split; try (cbn; lia). now apply (T_unsigned_sum _ 0); left.
Qed.
Print Assumptions C10_zero_width_refuted.
Example C10_nontrivial :
  typed (EnumMember 1 0) [TEnum [[]; [TUInt 2]]] (TUInt 2) /\
  scalar_select (EnumMember 1 0) [TEnum [[]; [TUInt 2]]] (TUInt 2) = false /\
  forward_code (fun n => nth n [TEnum [[]; [TUInt 2]]] (TTuple [])) (TUInt 2) (EnumMember 1 0) [0]
    = Ok (DAssign (VRange (Fwd 0) 1 0)).
Proof. repeat split. now apply (T_enum_member _ 1 [TUInt 2] 0). Qed.

(** ** C11.  Partial: element values without undefined bits. *)
Theorem C11_array_eq_partial : forall t (a b : list bits) wa wb, length a = length b ->
  Forall (has_width t) a -> Forall (has_width t) b -> Forall known a -> Forall known b ->
  op_value (TArray t (length a)) (repeat t (length a)) ConstructArray a = Some wa ->
  op_value (TArray t (length b)) (repeat t (length b)) ConstructArray b = Some wb ->
  exists r, op_value TBool [TArray t (length a); TArray t (length b)] Eq [wa; wb] = Some [bit_of_bool r] /\
    (r = true <-> Forall2 (fun x y => op_value TBool [t; t] Eq [x; y] = Some [B1]) a b).
Proof. exact array_eq_elementwise. Qed.
Print Assumptions C11_array_eq_partial.
(** [None] == [None] at Option<bool>: both arrays hold the very same enum value,
    which Option's own equality accepts, but the padding is compared too. *)
Theorem C11_array_eq_refuted : exists none w r,
  op_value (TEnum [[]; [TBool]]) [] (ConstructEnum 0) [] = Some none /\
  op_value (TArray (TEnum [[]; [TBool]]) 1) [TEnum [[]; [TBool]]] ConstructArray [none] = Some w /\
  op_value TBool [TArray (TEnum [[]; [TBool]]) 1; TArray (TEnum [[]; [TBool]]) 1] Eq [w; w] = Some r /\
  r <> [B1].
Proof. exists [BX; B0], [BX; B0], [BX]. repeat split. discriminate. Qed.
Print Assumptions C11_array_eq_refuted.
Example C11_nontrivial :
  op_value TBool [TArray (TUInt 2) 2; TArray (TUInt 2) 2] Eq [of_Z 4 9; of_Z 4 9] = Some [B1] /\
  op_value TBool [TArray (TUInt 2) 2; TArray (TUInt 2) 2] Eq [of_Z 4 9; of_Z 4 13] = Some [B0].
Proof. split; reflexivity. Qed.

(** ** C12 *)
Theorem C12_edge : forall depth aw t ps w m a,
  0 < aw -> 0 < size t -> builds_ports aw t ps w ->
  let m' := clock_edge depth aw (size t) (length ps) w m in
  (Forall (fun p => ~ writes p a) ps -> m' a = m a) /\
  (forall v, a < depth -> last_write ps a v -> m' a = v).
Proof. exact edge_spec. Qed.
Print Assumptions C12_edge.
Theorem C12_history : forall depth aw t n (hist : list (list port)) ws m a,
  0 < aw -> 0 < size t ->
  Forall2 (fun ps w => length ps = n /\ builds_ports aw t ps w) hist ws ->
  let m' := run_memory depth aw (size t) n ws m in
  (Forall (Forall (fun p => ~ writes p a)) hist -> m' a = m a) /\
  (forall before ps after v, hist = before ++ ps :: after -> a < depth -> last_write ps a v ->
     Forall (Forall (fun p => ~ writes p a)) after -> m' a = v).
Proof. exact history_spec. Qed.
Print Assumptions C12_history.
Example C12_nontrivial :
  let ps := [Port true 2 [B1; B0]; Port true 2 [B1; B1]; Port false 1 [B0; B0]] in
  exists w, builds_ports 2 (TUInt 2) ps w /\ last_write ps 2 [B1; B1] /\
    clock_edge 4 2 2 3 w (fun _ => [BX; BX]) 2 = [B1; B1] /\
    clock_edge 4 2 2 3 w (fun _ => [BX; BX]) 1 = [BX; BX].
Proof.
  eexists. split; [|split].
  - exists [[B1; B0; B0; B1; B1]; [B1; B1; B0; B1; B1]; [B0; B0; B1; B0; B0]]. split; [|reflexivity].
    repeat constructor; cbn; lia.
  - exists [Port true 2 [B1; B0]], (Port true 2 [B1; B1]), [Port false 1 [B0; B0]]. repeat split.
    repeat constructor. intros [H _]. discriminate.
  - split; reflexivity.
Qed.

(** ** C13: bit [k] driven on field [i] arrives at bit [k] of the wire the field
    was constructed from. [routes] lists, for each bit of the bound value's
    backward wire, the wire bit it is assigned to; [Bwd i] is operand [i]. *)
Theorem C13_tuple : forall tys vals vals' i t k,
  nth_error tys i = Some t -> k < backward_size t ->
  exists field agg p,
    routes t [TTuple tys] (IndexTuple i) vals = Some field /\
    routes (TTuple tys) tys ConstructTuple vals' = Some agg /\
    nth_error field k = Some (Bwd 0, p) /\ nth_error agg p = Some (Bwd i, k).
Proof. exact inv_tuple. Qed.
Print Assumptions C13_tuple.
Theorem C13_struct : forall (fields : list (String.string * ty)) vals vals' i f k,
  nth_error fields i = Some f -> k < backward_size (snd f) ->
  exists field agg p,
    routes (snd f) [TStruct fields] (IndexTuple i) vals = Some field /\
    routes (TStruct fields) (map snd fields) ConstructTuple vals' = Some agg /\
    nth_error field k = Some (Bwd 0, p) /\ nth_error agg p = Some (Bwd i, k).
Proof. exact inv_struct. Qed.
Print Assumptions C13_struct.
Theorem C13_array : forall t n vals it a iv i k,
  i < n -> k < backward_size t -> uval iv = Some (Z.of_nat i) ->
  (Z.of_nat (backward_size t * n) <= 2 ^ 32)%Z ->
  exists elem agg p,
    routes t [TArray t n; it] IndexArray [a; iv] = Some elem /\
    routes (TArray t n) (repeat t n) ConstructArray vals = Some agg /\
    nth_error elem k = Some (Bwd 0, p) /\ nth_error agg p = Some (Bwd i, k).
Proof. exact inv_array. Qed.
Print Assumptions C13_array.
(** Slices: only when forward and backward sizes of the element coincide. *)
Theorem C13_slice_partial : forall t n vals s e j k,
  s < e -> e <= n -> j < e - s -> k < backward_size t ->
  backward_size t = size t -> (Z.of_nat (size t * n) < 2 ^ 31)%Z ->
  exists sl agg p,
    routes (TArray t (e - s)) [TArray t n] (RangeIndexArray s e) [[]] = Some sl /\
    routes (TArray t n) (repeat t n) ConstructArray vals = Some agg /\
    nth_error sl (backward_size t * j + k) = Some (Bwd 0, p) /\ nth_error agg p = Some (Bwd (s + j), k).
Proof. exact inv_range. Qed.
Print Assumptions C13_slice_partial.
(** The element (bool, inv uint<2>) has forward size 1: slice 1..3 of a 4-element
    array is routed to bits 1..2 instead of 2..5, so bit 0 of the slice ends up in
    element 0. *)
Theorem C13_slice_refuted : exists t n vals s e sl agg p i k,
  s < e /\ e <= n /\ 0 < backward_size t /\
  routes (TArray t (e - s)) [TArray t n] (RangeIndexArray s e) [[]] = Some sl /\
  routes (TArray t n) (repeat t n) ConstructArray vals = Some agg /\
  nth_error sl 0 = Some (Bwd 0, p) /\ nth_error agg p = Some (Bwd i, k) /\ i < s.
Proof.
  exists (TTuple [TBool; TBackward (TUInt 2)]), 4, [], 1, 3.
  eexists. eexists. exists 1, 0, 1. repeat split; cbn; lia.
Qed.
Print Assumptions C13_slice_refuted.
Example C13_nontrivial :
  let tys := [TBackward (TUInt 2); TBool; TBackward TBool] in
  routes (TTuple tys) tys ConstructTuple [] = Some [(Bwd 2, 0); (Bwd 0, 0); (Bwd 0, 1)] /\
  routes (TBackward (TUInt 2)) [TTuple tys] (IndexTuple 0) [] = Some [(Bwd 0, 1); (Bwd 0, 2)].
Proof. split; reflexivity. Qed.
