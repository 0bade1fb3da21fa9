(** C14-C16: what matches compute, and which matches are accepted. *)
From Coq Require Import List ZArith Lia Bool Arith.
From Verif Require Import Bits Verilog CodegenModel CodegenSpec
  PatModel PatSpec PatProofs LowerModel LowerSpec LowerProofs.
Import ListNotations.

(** ** C14.  Lowering of one pattern: the condition wire is the guard (or true)
    when the pattern matches, and false when it does not; every name the pattern
    binds carries the corresponding part of the value. *)
Theorem C14_pattern_partial : forall types rho p t self v guard n n1 stmts result n2,
  lpat_type t p -> readable t -> types self = to_mir_type t -> encodes t v (rho self) ->
  (forall g, guard = Some g -> types g = TBool /\ exists b, rho g = [b]) ->
  Forall (settled types rho) (fst (lower p self (to_mir_type t) n)) ->
  condition p self guard n1 = (stmts, result, n2) -> Forall (settled types rho) stmts ->
  (matches (erase p) v -> rho result = match guard with Some g => rho g | None => [B1] end) /\
  (~ matches (erase p) v -> rho result = [B0]) /\
  (forall x s u, binds p v x s u -> encodes s u (rho (NName x))).
Proof.
  intros types rho p t self v guard n n1 stmts result n2 T R Ty E G L C S.
  destruct (pattern_lowering types rho p t self v guard n n1 stmts result n2) as (A & B & D & _); auto.
  destruct guard as [g|]; cbn; auto.
Qed.
Print Assumptions C14_pattern_partial.

(** A whole match has the value of the body of the first arm whose pattern
    matches and whose guard, if any, is true. *)
Theorem C14_match_partial : forall types rho operand self t ct v n before a after,
  let arms := before ++ a :: after in
  readable ct -> types operand = to_mir_type ct -> encodes ct v (rho operand) ->
  Forall (fun a => lpat_type ct (apat a) /\ types (abody a) = to_mir_type t
                   /\ forall g, aguard a = Some g -> types g = TBool /\ exists b, rho g = [b]) arms ->
  has_width (to_mir_type t) (rho (abody a)) ->
  Forall (settled types rho) (lower_match self operand t arms n) ->
  Forall (fun b => ~ matches (erase (apat b)) v \/ exists g, aguard b = Some g /\ rho g = [B0]) before ->
  matches (erase (apat a)) v -> (forall g, aguard a = Some g -> rho g = [B1]) ->
  rho self = rho (abody a) /\
  (forall x s u, binds (apat a) v x s u -> encodes s u (rho (NName x))).
Proof.
  intros types rho operand self t ct v n before a after arms R Ty E F.
  apply (match_lowering types rho operand self t ct v n before a after); auto. eapply Forall_impl; [|exact F].
  intros b (A & B & C). repeat split; auto. destruct (aguard b) as [g|]; cbn; auto.
Qed.
Print Assumptions C14_match_partial.

(** A settled system: [match operand { (Some(2), _) => b0, (Some(x), y) if g => b1, z => b2 }]
    on the value (Some(3), true). *)
Definition C14_opt := CEnum [[]; [CUint 2]].
Definition C14_ct := CTuple [C14_opt; CBool].
Definition C14_arms :=
  [Arm (LPat 10 C14_ct (KTuple [LPat 11 C14_opt (KVariant 1 [LPat 12 (CUint 2) (KInteger 2)]);
                                LPat 13 CBool (KBound 20 None)])) None (NName 1);
   Arm (LPat 14 C14_ct (KTuple [LPat 15 C14_opt (KVariant 1 [LPat 16 (CUint 2) (KBound 21 None)]);
                                LPat 17 CBool (KBound 22 None)])) (Some (NName 4)) (NName 2);
   Arm (LPat 18 C14_ct (KBound 23 None)) None (NName 3)].
Definition C14_stmts := lower_match (NName 9) (NName 0) (CUint 3) C14_arms 100.
Definition mname_eqb (a b : mname) : bool :=
  match a, b with NName x, NName y | NExpr x, NExpr y => Nat.eqb x y | _, _ => false end.
Definition stmt_name (s : stmt) := match s with SBind x _ _ _ => x | SConst x _ _ => x end.
Definition stmt_ty (s : stmt) := match s with SBind _ _ _ t => t | SConst _ t _ => t end.
Definition C14_types (x : mname) : ty :=
  match find (fun s => mname_eqb (stmt_name s) x) C14_stmts with
  | Some s => stmt_ty s
  | None => match x with
            | NName 0 => to_mir_type C14_ct
            | NName 4 => TBool
            | _ => TUInt 3
            end
  end.
Definition C14_step (env : mname -> bits) (s : stmt) : mname -> bits :=
  let v := match s with
           | SBind _ Alias [a] _ => env a
           | SBind _ Alias _ _ => []
           | SBind _ (Op op) args t => match op_value t (map C14_types args) op (map env args) with Some v => v | None => [] end
           | SConst _ t c => const_value t c
           end in
  fun x => if mname_eqb (stmt_name s) x then v else env x.
Definition C14_inputs (x : mname) : bits :=
  match x with
  | NName 0 => [B1; B1; B1; B1]
  | NName 1 => [B0; B0; B0]
  | NName 2 => [B0; B1; B0]
  | NName 3 => [B1; B1; B0]
  | NName 4 => [B1]
  | _ => []
  end.
Definition C14_rho : mname -> bits := fold_left C14_step C14_stmts C14_inputs.
Example C14_nontrivial :
  Forall (settled C14_types C14_rho) C14_stmts /\
  encodes C14_ct (VNode [VVariant 1 [VInt 3]; VBool true]) (C14_rho (NName 0)) /\
  C14_rho (NName 9) = [B0; B1; B0] /\ C14_rho (NName 21) = [B1; B1].
Proof.
  split; [|split; [|split; vm_compute; reflexivity]].
  - let l := eval vm_compute in C14_stmts in
      replace C14_stmts with l at 1 by (vm_compute; reflexivity).
    repeat match goal with |- Forall _ (_ :: _) => apply Forall_cons; [cbv [settled]; split; vm_compute; reflexivity|] end.
    constructor.
  - apply E_tuple with (ws := [[B1; B1; B1]; [B1]]); [|reflexivity].
    constructor; [|constructor; [|constructor]].
    + apply E_enum with (ts := [CUint 2]) (ws := [[B1; B1]]); [reflexivity| |reflexivity].
      constructor; [|constructor]. constructor. split; reflexivity.
    + now constructor.
Qed.

(** ** C15.  An accepted match covers every value, when no arm has an integer
    literal. *)
Theorem C15_exhaustive_partial : forall ty arms,
  data_type ty -> (forall p, In (p, false) arms -> pat_type ty p /\ literal_free p) ->
  match_witnesses ty arms = Some [] ->
  forall v, has_type ty v -> exists p, In (p, false) arms /\ matches p v.
Proof. exact exhaustive_literal_free. Qed.
Print Assumptions C15_exhaustive_partial.
(** With literals, coverage holds if the literal n is read as "n or n + 1". *)
Theorem C15_exhaustive_off_by_one_partial : forall ty arms,
  data_type ty -> (forall p, In (p, false) arms -> pat_type ty p) ->
  match_witnesses ty arms = Some [] ->
  forall v, has_type ty v -> exists p, In (p, false) arms /\
     matches_with (fun n z => n <= z <= n + 1)%Z p v.
Proof. exact exhaustive_up_to_one. Qed.
Print Assumptions C15_exhaustive_off_by_one_partial.
(** No false alarm: a match that covers every value is accepted. *)
Theorem C15_covering_accepted : forall ty arms,
  data_type ty -> (forall p, In (p, false) arms -> pat_type ty p) ->
  (forall v, has_type ty v -> exists p, In (p, false) arms /\ matches p v) ->
  match_witnesses ty arms = Some [].
Proof. exact covering_accepted. Qed.
Print Assumptions C15_covering_accepted.
(** The check itself does not panic. *)
Theorem C15_check_total : forall ty arms,
  data_type ty -> (forall p, In (p, false) arms -> pat_type ty p) ->
  exists ws, match_witnesses ty arms = Some ws.
Proof. exact never_panics. Qed.
Print Assumptions C15_check_total.

(** The full statement fails: on a uint<2>, arms 0 and 2 are accepted as
    exhaustive although 1 and 3 are not covered. *)
Theorem C15_literal_refuted : exists ty arms v,
  data_type ty /\ (forall p, In (p, false) arms -> pat_type ty p) /\
  match_witnesses ty arms = Some [] /\ has_type ty v /\
  forall p, In (p, false) arms -> ~ matches p v.
Proof.
  exists (CUint 2), [(PInt 0, false); (PInt 2, false)], (VInt 1).
  split; [constructor|]. split; [intros p [H|[H|[]]]; injection H as <-; constructor; constructor; lia|].
  split; [vm_compute; reflexivity|]. split; [constructor; lia|].
  intros p [H|[H|[]]]; injection H as <-; intros M; inversion M; subst; discriminate.
Qed.
Print Assumptions C15_literal_refuted.
(** It also fails for types with a clock, tristate, memory or inout part: any
    match on them is accepted. *)
Theorem C15_opaque_refuted : exists ty arms v,
  (forall p, In (p, false) arms -> pat_type ty p /\ literal_free p) /\
  match_witnesses ty arms = Some [] /\ has_type ty v /\
  forall p, In (p, false) arms -> ~ matches p v.
Proof.
  exists (CTuple [CNoCtor; CBool]), [(PTuple [PBound 0 None; PBool true], false)], (VNode [VOpaque; VBool false]).
  split; [intros p [H|[]]; injection H as <-; split; repeat constructor|].
  split; [vm_compute; reflexivity|]. split; [repeat constructor|].
  intros p [H|[]]; injection H as <-; intros M. inversion M as [| | | |? ? F| | |]; subst.
  inversion F as [|? ? ? ? _ F']; subst. inversion F' as [|? ? ? ? Q _]; subst. inversion Q.
Qed.
Print Assumptions C15_opaque_refuted.
(** And a [let] accepts a refutable enum pattern. *)
Theorem C15_let_refuted : exists ty p v,
  data_type ty /\ pat_type ty p /\ binding_accepted ty p = Some true /\ has_type ty v /\ ~ matches p v.
Proof.
  exists (CEnum [[]; [CBool]]), (PVariant 1 [PBound 0 None]), (VVariant 0 []).
  split; [repeat constructor|]. split; [econstructor; [reflexivity|repeat constructor]|].
  split; [vm_compute; reflexivity|]. split; [econstructor; [reflexivity|constructor]|].
  intros M; inversion M.
Qed.
Print Assumptions C15_let_refuted.

(** The hypotheses hold of a real match: [match x : (Option<bool>, bool)
    { (None, _), (Some(true), a), (Some(b), false) if .., (Some(false), _) }]. *)
Definition C15_ty := CTuple [CEnum [[]; [CBool]]; CBool].
Definition C15_arms :=
  [(PTuple [PVariant 0 []; PBound 0 None], false);
   (PTuple [PVariant 1 [PBool true]; PBound 1 None], false);
   (PTuple [PVariant 1 [PBound 2 None]; PBool false], true);
   (PTuple [PVariant 1 [PBool false]; PBound 3 None], false)].
Example C15_nontrivial :
  data_type C15_ty /\ (forall p, In (p, false) C15_arms -> pat_type C15_ty p /\ literal_free p) /\
  match_witnesses C15_ty C15_arms = Some [] /\
  match_witnesses C15_ty (removelast C15_arms) <> Some [].
Proof.
  split; [repeat constructor|]. split; [|split; [vm_compute; reflexivity|vm_compute; discriminate]].
  intros p [H|[H|[H|[H|[]]]]]; try discriminate; injection H as <-; split; repeat (econstructor; cbn; eauto).
Qed.

(** ** C16.  Every reported missing pattern has a value, and the values with each
    reported integer range at its lower end are not matched by any arm. *)
Theorem C16_witness_partial : forall ty arms ws,
  data_type ty -> (forall p, In (p, false) arms -> pat_type ty p) ->
  match_witnesses ty arms = Some ws ->
  forall w, In w ws -> exists p, w = [p] /\
    (exists v, has_type ty v /\ describes at_low p v) /\
    (forall v, describes at_low p v -> forall q, In (q, false) arms -> ~ matches q v).
Proof. exact witness_low. Qed.
Print Assumptions C16_witness_partial.
(** Without integer literals in the arms every value of the reported pattern is unmatched. *)
Theorem C16_witness_literal_free : forall ty arms ws,
  data_type ty -> (forall p, In (p, false) arms -> pat_type ty p /\ literal_free p) ->
  match_witnesses ty arms = Some ws ->
  forall w, In w ws -> exists p, w = [p] /\
    (exists v, has_type ty v /\ describes within p v) /\
    (forall v, describes within p v -> forall q, In (q, false) arms -> ~ matches q v).
Proof. exact witness_all. Qed.
Print Assumptions C16_witness_literal_free.
(** With literals the reported range can contain a matched value: a uint<2> with
    the arm 3 reports 0..3. *)
Theorem C16_range_refuted : exists ty arms w v q,
  data_type ty /\ (forall p, In (p, false) arms -> pat_type ty p) /\
  match_witnesses ty arms = Some [[w]] /\ has_type ty v /\ describes within w v /\
  In (q, false) arms /\ matches q v.
Proof.
  exists (CUint 2), [(PInt 3, false)], (DPat (IntRange 0 3) [] (CUint 2)), (VInt 3), (PInt 3).
  split; [constructor|]. split; [intros p [H|[]]; injection H as <-; constructor; constructor; lia|].
  split; [vm_compute; reflexivity|]. split; [constructor; lia|]. split; [constructor; red; lia|].
  split; [now left|]. now constructor.
Qed.
Print Assumptions C16_range_refuted.
(** The check panics on a match over a copy view of an enum. *)
Theorem C16_panic_refuted : exists ty arms,
  (forall p, In (p, false) arms -> pat_type ty p) /\ match_witnesses ty arms = None.
Proof.
  exists (CTuple [CCopyView (CEnum [[]; []]); CBool]), [(PTuple [PBound 0 None; PBool true], false)].
  split; [|vm_compute; reflexivity]. intros p [H|[]]; injection H as <-; repeat constructor.
Qed.
Print Assumptions C16_panic_refuted.
Example C16_nontrivial : match_witnesses C15_ty (removelast C15_arms) =
  Some (map (fun b => [DPat Single [DPat (Variant 1) [DPat (BoolC false) [] CBool] (CEnum [[]; [CBool]]);
                                    DPat (BoolC b) [] CBool] C15_ty]) [false; true]).
Proof. vm_compute. reflexivity. Qed.
