(** C35: the bits computed at compile time for an initial value are the bits
    the same expression has as hardware.

    [eval_statements] models the compile-time evaluator and [as_string] the
    digits it prints (leftmost is most significant); [hardware] is the value of
    the signal the last statement drives (EvalSpec). *)
From Coq Require Import List ZArith Lia Bool Arith.
From Verif Require Import Bits BitsFacts Verilog CodegenModel CodegenSpec CgLayout CgArith
  EvalModel EvalSpec EvalProofs.
Import ListNotations.

(** Whatever the evaluator returns, it prints exactly the bits of the hardware
    signal, as many as the type has.  Partial: negations of the smallest value
    of a type are excluded ([C35_negate_refuted]), and the evaluator may panic
    ([C35_unsigned_refuted]). *)
Theorem C35_agrees_partial : forall (l : list estmt) (v : value),
  well_typed [] l -> no_min_negation [] [] l ->
  eval_statements l = Some v ->
  exists b, hardware l = Some b
    /\ as_string v = Some (rev b)
    /\ length b = size (last (map stmt_type l) (TTuple [])).
Proof.
  intros l v T NM E. destruct (eval_agrees l v T NM E) as (b & Hb & W & Sb & _). eauto.
Qed.
Print Assumptions C35_agrees_partial.

(** On constants, signed arithmetic, tuples, structs, arrays and enums of any
    size the evaluator does not panic. *)
Theorem C35_total_partial : forall (l : list estmt),
  well_typed [] l -> no_min_negation [] [] l -> l <> [] -> forallb supported l = true ->
  exists v s, eval_statements l = Some v /\ as_string v = Some s.
Proof.
  intros l T NM N Sp.
  assert (H : eval_statements l <> None).
  { refine (loop_total l [] [] [] None (VBit true) T maps_rel_nil NM Sp _). intros ->. congruence. }
  destruct (eval_statements l) as [v|] eqn:E; [|congruence].
  destruct (eval_agrees l v T NM E) as (b & _ & _ & Sb & _). eauto.
Qed.
Print Assumptions C35_total_partial.

(** The number handed to a simulation for a value of at most 64 bits is the
    number its bits stand for, undefined bits being read as zero.  With
    overflow checks ([checked = true]) the value must be narrower than 64. *)
Theorem C35_number_partial : forall (checked : bool) (l : list estmt) (v : value) (b : bits),
  well_typed [] l -> no_min_negation [] [] l ->
  eval_statements l = Some v -> hardware l = Some b ->
  length b <= 64 -> (checked = true -> length b < 64) ->
  as_u64 checked v = Some (num b).
Proof.
  intros checked l v b T NM E Hb L C. destruct (eval_agrees l v T NM E) as (b' & Hb' & W & Sb & VW & _ & _ & _ & WF).
  assert (b' = b) by congruence. subst b'. unfold has_width in W.
  rewrite <- (bits_of_string _ _ Sb). apply as_u64_value; [assumption|lia|intros Hc; specialize (C Hc); lia].
Qed.
Print Assumptions C35_number_partial.

(** The same for wider values, if the members of the outermost tuple, struct,
    array or enum are narrower than 64 bits. *)
Theorem C35_wide_number_partial : forall (checked : bool) (l : list estmt) (v : value) (b : bits),
  well_typed [] l -> no_min_negation [] [] l ->
  eval_statements l = Some v -> hardware l = Some b ->
  (forall inner m, v = VConcat_ inner -> In m inner -> vwidth m < 64) ->
  as_u32_chunks checked v = Some (num b).
Proof.
  intros checked l v b T NM E Hb N. destruct (eval_agrees l v T NM E) as (b' & Hb' & W & Sb & VW & _ & _ & _ & WF).
  assert (b' = b) by congruence. subst b'.
  rewrite <- (bits_of_string _ _ Sb). apply as_u32_chunks_value; [assumption|].
  destruct v; cbn [narrow]; auto. apply Forall_forall. intros m Hm.
  specialize (N inner m eq_refl Hm). lia.
Qed.
Print Assumptions C35_wide_number_partial.

(** An enum value with a struct inside: [Some((-5, true))] in
    [Option<(int<8>, bool)>] with a wider third variant. *)
Definition sample : list estmt :=
  [EInt 0 (TInt 7) (-4); EInt 1 (TInt 7) 1; EOp 2 Sub [0; 1] (TInt 8);
   EBool 3 TBool true; EOp 4 ConstructTuple [2; 3] (TTuple [TInt 8; TBool]);
   EOp 5 (ConstructEnum 1) [4] (TEnum [[]; [TTuple [TInt 8; TBool]]; [TUInt 12]]);
   EAlias 6 5 (TEnum [[]; [TTuple [TInt 8; TBool]]; [TUInt 12]])].

Example C35_nontrivial :
  well_typed [] sample /\ no_min_negation [] [] sample /\ forallb supported sample = true
  /\ match eval_statements sample with
     | Some v => as_string v = Some [B0; B1; B1; B1; B1; B1; B1; B0; B1; B1; B1; BX; BX; BX]
     | None => False
     end.
Proof.
  split; [|split; [|split; [reflexivity|vm_compute; reflexivity]]].
  - unfold sample. apply WT_int; [reflexivity|lia|cbn; lia|].
    apply WT_int; [reflexivity|lia|cbn; lia|].
    eapply WT_op; [reflexivity|reflexivity|apply (T_signed_sum Sub 7); cbn; auto|].
    apply WT_bool; [reflexivity|].
    eapply WT_op; [reflexivity|reflexivity|apply T_tuple|].
    eapply WT_op; [reflexivity|reflexivity|apply T_enum; reflexivity|].
    apply WT_alias; [reflexivity|reflexivity|]. constructor.
  - unfold sample. repeat (split; [discriminate|intros ? _]). exact I.
Qed.

(** ** Where it fails *)

(** [-(-128)] at [int<8>], then [+ 0]: hardware wraps to -128, the evaluator
    goes on with 128. *)
Theorem C35_negate_refuted : exists l v b,
  well_typed [] l /\ eval_statements l = Some v /\ hardware l = Some b
  /\ as_string v <> Some (rev b).
Proof.
  exists [EInt 0 (TInt 8) (-128); EOp 1 USub [0] (TInt 8); EInt 2 (TInt 8) 0; EOp 3 Add [1; 2] (TInt 9)].
  do 2 eexists. split; [|split; [vm_compute; reflexivity|split; [vm_compute; reflexivity|vm_compute; discriminate]]].
  apply WT_int; [reflexivity|lia|cbn; lia|].
  eapply WT_op; [reflexivity|reflexivity|apply T_neg|].
  apply WT_int; [reflexivity|lia|cbn; lia|].
  eapply WT_op; [reflexivity|reflexivity|apply (T_signed_sum Add 8); cbn; auto|]. constructor.
Qed.
Print Assumptions C35_negate_refuted.

(** Unsigned addition and subtraction always panic: integer constants are
    evaluated to signed values whatever their type, and unsigned operators
    insist on unsigned ones. *)
Theorem C35_unsigned_refuted : exists l b,
  well_typed [] l /\ hardware l = Some b /\ eval_statements l = None.
Proof.
  exists [EInt 0 (TUInt 8) 1; EInt 1 (TUInt 8) 2; EOp 2 UnsignedAdd [0; 1] (TUInt 9)].
  eexists. split; [|split; vm_compute; reflexivity].
  apply WT_uint; [reflexivity|lia|cbn; lia|].
  apply WT_uint; [reflexivity|lia|cbn; lia|].
  eapply WT_op; [reflexivity|reflexivity|apply (T_unsigned_sum UnsignedAdd 8); cbn; auto|]. constructor.
Qed.
Print Assumptions C35_unsigned_refuted.

(** A tuple of 80 bits inside another: the simulation gets a number with the
    upper bits missing, with or without overflow checks. *)
Theorem C35_wide_number_refuted : exists l v b,
  well_typed [] l /\ no_min_negation [] [] l /\ eval_statements l = Some v /\ hardware l = Some b
  /\ forall checked, exists n, as_u32_chunks checked v = Some n /\ n <> num b.
Proof.
  exists [EInt 0 (TUInt 40) (2 ^ 39); EInt 1 (TUInt 40) 3;
          EOp 2 ConstructTuple [0; 1] (TTuple [TUInt 40; TUInt 40]);
          EOp 3 ConstructTuple [2] (TTuple [TTuple [TUInt 40; TUInt 40]])].
  do 2 eexists. split; [|split; [|split; [vm_compute; reflexivity|split; [vm_compute; reflexivity|]]]].
  - apply WT_uint; [reflexivity|lia|cbn; lia|].
    apply WT_uint; [reflexivity|lia|cbn; lia|].
    eapply WT_op; [reflexivity|reflexivity|apply T_tuple|].
    eapply WT_op; [reflexivity|reflexivity|apply T_tuple|]. constructor.
  - repeat (split; [discriminate|intros ? _]). exact I.
  - intros []; eexists; (split; [vm_compute; reflexivity|vm_compute; discriminate]).
Qed.
Print Assumptions C35_wide_number_refuted.

(** One 64-bit member: with overflow checks the conversion panics. *)
Theorem C35_number_refuted : exists l v b,
  well_typed [] l /\ eval_statements l = Some v /\ hardware l = Some b /\ length b = 64
  /\ as_u64 true v = None.
Proof.
  exists [EInt 0 (TUInt 64) 5; EOp 1 ConstructTuple [0] (TTuple [TUInt 64])].
  do 2 eexists. split; [|split; [vm_compute; reflexivity|split; [vm_compute; reflexivity|split; vm_compute; reflexivity]]].
  apply WT_uint; [reflexivity|lia|cbn; lia|].
  eapply WT_op; [reflexivity|reflexivity|apply T_tuple|]. constructor.
Qed.
Print Assumptions C35_number_refuted.

(** A zero of the zero-width type cannot be printed. *)
Theorem C35_zero_width_refuted : exists l v,
  eval_statements l = Some v /\ as_string v = None
  /\ l = [EInt 0 (TUInt 0) 0].
Proof. do 2 eexists. split; [|split; [|reflexivity]]; reflexivity. Qed.
Print Assumptions C35_zero_width_refuted.
