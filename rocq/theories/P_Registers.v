(** C24 splitting compound registers, C25 clock gating of option registers. *)
From Coq Require Import List ZArith Bool Arith Lia.
From Verif Require Import Bits Verilog CodegenModel CodegenSpec MirModel RegModel RegSpec RegProofs RegNames.
Import ListNotations.

(** ** C24 *)
(** Without reset: whatever the signals do, if they satisfy the split code then
    the compound signal behaves like the one register it replaces. *)
Theorem C24_no_reset : forall w clock t name value n,
  carries w value t ->
  Forall (sat w) (fst (split_compound_reg clock None t name value n)) ->
  is_register w t clock None value name.
Proof. intros w clock t name value n C St. eapply (split_ok w clock None); eauto. exact I. Qed.
Print Assumptions C24_no_reset.

(** For the whole pass, when resets (if any) are to a value with equal bits. *)
Theorem C24_pass_partial : forall w ss n,
  (forall name t clock reset value, In (SReg name t clock reset None value) ss ->
     carries w value t /\ uniform_reset w t reset) ->
  Forall (sat w) (fst (split_compound_regs ss n)) -> Forall (sat w) ss.
Proof. exact split_pass. Qed.
Print Assumptions C24_pass_partial.

(** The pass keeps every signal, and drives none twice: new signals are new.
    [n] is the next free expression id. *)
Theorem C24_names : forall ss n, NoDup (flat_map defined ss) ->
  (forall k, In (EId k) (flat_map defined ss) -> k < n) ->
  NoDup (flat_map defined (fst (split_compound_regs ss n))) /\
  incl (flat_map defined ss) (flat_map defined (fst (split_compound_regs ss n))) /\
  forall x, In x (flat_map defined (fst (split_compound_regs ss n))) ->
    In x (flat_map defined ss) \/ exists k, x = EId k /\ n <= k < snd (split_compound_regs ss n).
Proof. intros ss n. rewrite split_is_pass. apply pass_once, split_step_ok. Qed.
Print Assumptions C24_names.

(** With another reset value the result is wrong: every part is reset to the low
    bits of the whole value.  A pair of bits reset to (1, 0) becomes (0, 0). *)
Definition pair_ty := TTuple [TUInt 1; TUInt 1].
Definition clk (i : nat) : bits := [bit_of_bool (Nat.odd i)].
Definition reset_waves : waves :=
  {| sg := fun x i => match x with
       | EId 0 => clk i | EId 1 => [B1] | EId 2 => [B0; B1]
       | EId 3 | EId 4 => [B0; B0] | _ => [B0] end;
     ty_of := fun x => match x with
       | EId 0 | EId 1 => TBool | EId 2 | EId 3 | EId 4 => pair_ty | _ => TUInt 1 end |}.
Theorem C24_reset_refuted : exists w clock reset t name value n,
  carries w value t /\ match reset with Some (_, v) => carries w v t | None => True end /\
  Forall (sat w) (fst (split_compound_reg clock reset t name value n)) /\
  ~ is_register w t clock reset value name.
Proof.
  exists reset_waves, (EId 0), (Some (EId 1, EId 2)), pair_ty, (EId 4), (EId 3), 10.
  split; [split; reflexivity|]. split; [split; reflexivity|]. split.
  - cbn [split_compound_reg pair_ty generate_split_code map split_members fst snd app].
    repeat constructor; intros i; cbn; try (destruct (posedge _ _)); reflexivity.
  - intros [_ H]. specialize (H 0). vm_compute in H. discriminate.
Qed.
Print Assumptions C24_reset_refuted.

(** A zero-size member gets a register of its own, for which an assignment but no
    declaration is emitted (codegen/mod.rs:124, 1119-1153). *)
Theorem C24_zero_member_refuted : exists clock t name value n name',
  size t <> 0 /\
  exists t' value', In (SReg name' t' clock None None value') (fst (split_compound_reg clock None t name value n))
    /\ size t' = 0.
Proof.
  exists (EId 0), (TTuple [TUInt 8; TEnum [[]]]), (EId 1), (EId 2), 3, (EId 6).
  split; [discriminate|]. exists (TEnum [[]]), (EId 5). split; [cbn; auto 10|reflexivity].
Qed.
Print Assumptions C24_zero_member_refuted.

(** A register following a counter-like input. *)
Fixpoint latch (v : nat -> bits) (i : nat) : bits :=
  match i with
  | 0 => [BX; BX; BX]
  | S j => if posedge (clk j) (clk (S j)) then v j else latch v j
  end.
Definition three (i : nat) : bits := [bit_of_bool (Nat.odd (i / 2)); bit_of_bool (Nat.odd i); B1].
Definition nested_ty := TTuple [TUInt 1; TArray (TUInt 1) 2].
Definition pick (k : nat) (v : bits) : bits := [nth k v BX].
Definition split_waves : waves :=
  {| sg := fun x i => match x with
       | EId 0 => clk i | EId 1 => three i | EId 2 => latch three i
       | EId 10 => pick 2 (three i) | EId 11 => pick 2 (latch three i)
       | EId 12 => firstn 2 (three i) | EId 13 => firstn 2 (latch three i)
       | EId 14 => pick 1 (three i) | EId 15 => pick 1 (latch three i)
       | EId 16 => pick 0 (three i) | EId 17 => pick 0 (latch three i)
       | _ => [] end;
     ty_of := fun x => match x with
       | EId 0 => TBool | EId 1 | EId 2 => nested_ty
       | EId 12 | EId 13 => TArray (TUInt 1) 2 | _ => TUInt 1 end |}.
Lemma latch_three : forall i, exists a b c, latch three i = [a; b; c].
Proof.
  induction i as [|i (a & b & c & E)]; cbn [latch]; [eauto|].
  destruct (posedge _ _); [|eauto]. unfold three. eauto.
Qed.
Example C24_nontrivial :
  carries split_waves (EId 1) nested_ty /\
  Forall (sat split_waves) (fst (split_compound_reg (EId 0) None nested_ty (EId 2) (EId 1) 10)) /\
  sg split_waves (EId 2) 0 = [BX; BX; BX] /\ sg split_waves (EId 2) 1 = [B0; B0; B1] /\
  sg split_waves (EId 2) 3 = [B1; B0; B1].
Proof.
  split; [split; reflexivity|]. split; [|repeat split].
  cbn [split_compound_reg nested_ty generate_split_code map split_members fst snd app repeat].
  assert (R : forall k i, pick k (latch three (S i)) =
     if posedge (clk i) (clk (S i)) then pick k (three i) else pick k (latch three i)).
  { intros k i. cbn [latch]. destruct (posedge _ _); reflexivity. }
  repeat (apply Forall_cons; [split; [reflexivity|]|]); try apply Forall_nil.
  - intros i. reflexivity.
  - split; [reflexivity|]. intros i. cbn [sg split_waves]. rewrite R. destruct (posedge _ _); reflexivity.
  - intros i. reflexivity.
  - intros i. reflexivity.
  - split; [reflexivity|]. intros i. cbn [sg split_waves]. rewrite R. destruct (posedge _ _); reflexivity.
  - intros i. reflexivity.
  - split; [reflexivity|]. intros i. cbn [sg split_waves]. rewrite R. destruct (posedge _ _); reflexivity.
  - intros i. cbn [sg split_waves map ty_of]. destruct (latch_three i) as (a & b & c & ->). reflexivity.
  - intros i. cbn [sg split_waves map ty_of]. destruct (latch_three i) as (a & b & c & ->). reflexivity.
Qed.

(** ** C25 *)
(** Two vectors are the same value of an enum with variants [[]; payload] (the
    tag is the top bit, C03): same variant, and same payload for variant 1. *)
Definition same_option (payload : list ty) (a b : bits) : Prop :=
  let ps := list_sum (map size payload) in
  nth ps a BX = nth ps b BX /\ (nth ps a BX = B1 -> firstn ps a = firstn ps b).

(** The gated register always holds the same option as the plain register. *)
Theorem C25_gated : forall w payload clock value name reset ss n n',
  let t := TEnum [[]; payload] in
  perform_trivial_gating clock reset t name value n = Some (ss, n') ->
  carries w value t -> match reset with Some (_, v) => carries w v t | None => True end ->
  Forall (sat w) ss ->
  forall reference, is_register w t clock reset value reference ->
  same_option payload (sg w name 0) (sg w reference 0) ->
  forall i, same_option payload (sg w name i) (sg w reference i).
Proof. exact gated_correct. Qed.
Print Assumptions C25_gated.

(** And its payload does not toggle while the value is variant 0. *)
Theorem C25_idle : forall w payload clock value name reset ss n n' i,
  let t := TEnum [[]; payload] in
  let ps := list_sum (map size payload) in
  perform_trivial_gating clock reset t name value n = Some (ss, n') ->
  carries w value t -> match reset with Some (_, v) => carries w v t | None => True end ->
  Forall (sat w) ss ->
  nth ps (sg w value i) BX = B0 ->
  match reset with Some (trig, _) => taken (sg w trig i) = false | None => True end ->
  firstn ps (sg w name (S i)) = firstn ps (sg w name i).
Proof. exact gated_idle. Qed.
Print Assumptions C25_idle.

(** Registers of other types are left alone. *)
Theorem C25_others : forall clock reset t name value n,
  (forall payload, t <> TEnum [[]; payload]) ->
  perform_trivial_gating clock reset t name value n = None.
Proof.
  intros clock reset t name value n H. destruct t; try reflexivity.
  destruct l as [|[|? ?] [|? [|? ?]]]; try reflexivity. exfalso. eapply H. reflexivity.
Qed.
Print Assumptions C25_others.

(** For [Option<()>] the code selects a bit of a one-bit signal, which is not
    legal Verilog. *)
Theorem C25_unit_refuted : exists clock t name value n ss n' o,
  perform_trivial_gating clock None t name value n = Some (ss, n') /\
  exists x, In (SBind x (MOp o) [value] TBool) ss /\
  exists e, forward_code (fun _ => t) TBool o [0] = Ok (DAssign e) /\ ~ legal (declared [t]) e.
Proof.
  exists (EId 0), (TEnum [[]; []]), (EId 1), (EId 2), 3.
  eexists. eexists. exists (RangeIndexBits 0 1). split; [reflexivity|].
  exists (EId 6). split; [cbn; auto|]. exists (VBitC (Fwd 0) 0). split; [reflexivity|].
  cbn. intros [H _]. cbn in H. unfold vector in H. cbn in H. lia.
Qed.
Print Assumptions C25_unit_refuted.

(** An option of two bits that is alternately None and Some. *)
Fixpoint hold_opt (v : nat -> bits) (z : bits) (i : nat) : bits :=
  match i with
  | 0 => z
  | S j => if posedge (clk j) (clk (S j)) then v j else hold_opt v z j
  end.
Definition opt (i : nat) : bits := [bit_of_bool (Nat.odd (i / 2)); B1; bit_of_bool (Nat.odd (i / 4))].
Fixpoint hold_pay (i : nat) : bits :=
  match i with
  | 0 => [BX; BX]
  | S j => if posedge (clk j) (clk (S j)) then (if Nat.odd (j / 4) then firstn 2 (opt j) else hold_pay j)
           else hold_pay j
  end.
Definition gate_waves : waves :=
  {| sg := fun x i => match x with
       | EId 0 => clk i | EId 1 => opt i | EId 2 => hold_pay i ++ pick 2 (hold_opt opt [BX; BX; BX] i)
       | EId 3 => hold_opt opt [BX; BX; BX] i
       | EId 10 => pick 2 (hold_opt opt [BX; BX; BX] i) | EId 11 => hold_pay i
       | EId 12 => if Nat.odd (i / 4) then firstn 2 (opt i) else hold_pay i
       | EId 13 => pick 2 (opt i) | EId 14 => firstn 2 (opt i) | _ => [] end;
     ty_of := fun x => match x with
       | EId 0 | EId 10 | EId 13 => TBool | EId 1 | EId 2 | EId 3 => TEnum [[]; [TUInt 2]]
       | _ => TTuple [TUInt 2] end |}.
Lemma hold_pay_two : forall i, exists a b, hold_pay i = [a; b].
Proof.
  induction i as [|i (a & b & E)]; cbn [hold_pay]; [eauto|].
  destruct (posedge _ _); [|eauto]. destruct (Nat.odd _); [|eauto]. unfold opt. cbn. eauto.
Qed.
Lemma hold_opt_three : forall i, exists a b c, hold_opt opt [BX; BX; BX] i = [a; b; c].
Proof.
  induction i as [|i (a & b & c & E)]; cbn [hold_opt]; [eauto|].
  destruct (posedge _ _); [|eauto]. unfold opt. eauto.
Qed.
Example C25_nontrivial : exists ss n',
  perform_trivial_gating (EId 0) None (TEnum [[]; [TUInt 2]]) (EId 2) (EId 1) 10 = Some (ss, n') /\
  carries gate_waves (EId 1) (TEnum [[]; [TUInt 2]]) /\ Forall (sat gate_waves) ss /\
  is_register gate_waves (TEnum [[]; [TUInt 2]]) (EId 0) None (EId 1) (EId 3) /\
  same_option [TUInt 2] (sg gate_waves (EId 2) 0) (sg gate_waves (EId 3) 0) /\
  sg gate_waves (EId 2) 5 = [B0; B1; B1] /\ sg gate_waves (EId 2) 9 = [B1; B1; B0].
Proof.
  eexists. eexists. split; [reflexivity|]. split; [split; reflexivity|].
  split; [|split; [|split; [|split; reflexivity]]].
  - unfold split_trivial_tag_value. cbn [app map list_sum fold_right size].
    repeat (apply Forall_cons; [split; [reflexivity|]|]); try apply Forall_nil.
    + intros i. reflexivity.
    + intros i. reflexivity.
    + split; [reflexivity|]. intros i. cbn [sg gate_waves hold_opt Nat.add]. destruct (posedge _ _); reflexivity.
    + intros i. cbn [sg gate_waves map ty_of Nat.add]. destruct (hold_pay_two i) as (a & b & ->).
      unfold opt, pick. cbn [nth firstn]. destruct (Nat.odd (i / 4)), (Nat.odd (i / 2)); destruct a, b; reflexivity.
    + split; [intros i; cbn [sg gate_waves Nat.add]; destruct (hold_pay_two i) as (a & b & ->); reflexivity|].
      intros i. cbn [sg gate_waves hold_pay Nat.add]. destruct (posedge _ _); [|reflexivity].
      destruct (Nat.odd (i / 4)); [reflexivity|]. destruct (hold_pay_two i) as (a & b & ->). reflexivity.
    + intros i. cbn [sg gate_waves map ty_of Nat.add]. destruct (hold_pay_two i) as (a & b & ->). reflexivity.
  - split.
    + intros i. cbn [sg gate_waves]. destruct (hold_opt_three i) as (a & b & c & ->). reflexivity.
    + intros i. cbn [sg gate_waves hold_opt]. destruct (posedge _ _); reflexivity.
  - split; [reflexivity|]. cbn. discriminate.
Qed.

(** Clock gating keeps every signal and drives none twice. *)
Theorem C25_names : forall ss n, NoDup (flat_map defined ss) ->
  (forall k, In (EId k) (flat_map defined ss) -> k < n) ->
  NoDup (flat_map defined (fst (enum_clock_gating ss n))) /\
  incl (flat_map defined ss) (flat_map defined (fst (enum_clock_gating ss n))) /\
  forall x, In x (flat_map defined (fst (enum_clock_gating ss n))) ->
    In x (flat_map defined ss) \/ exists k, x = EId k /\ n <= k < snd (enum_clock_gating ss n).
Proof. intros ss n. rewrite gate_is_pass. apply pass_once, gate_step_ok. Qed.
Print Assumptions C25_names.
(** Two registers, five and six new signals. *)
Example C25_names_nontrivial :
  let ss := [SReg (EId 0) (TTuple [TUInt 3; TBool]) (EId 9) None None (EId 8);
             SReg (EId 1) (TEnum [[]; [TUInt 4]]) (EId 9) (Some (EId 7, EId 6)) None (EId 5)] in
  List.length (flat_map defined (fst (split_compound_regs ss 10))) = 6 /\
  List.length (flat_map defined (fst (enum_clock_gating ss 10))) = 9.
Proof. split; reflexivity. Qed.
