(** C67: the value a test writes as an expression is the value it reads back. *)
From Coq Require Import List ZArith NArith Lia Bool Arith.
From Verif Require Import Bits BitsFacts Verilog CodegenModel CodegenSpec EvalModel EvalSpec EvalProofs P_Eval.
From Verif Require WrapModel WrapSpec WrapProofs.
Import ListNotations.

Definition is_one (d : bit) : bool := match d with B1 => true | _ => false end.
Lemma num_bits : forall b i, N.testbit (Z.to_N (num b)) (N.of_nat i) = match nth_error b i with Some d => is_one d | None => false end.
Proof.
  induction b as [|d b IH]; intros i; [destruct i; reflexivity|]. pose proof (num_bound b) as B.
  assert (E : Z.to_N (num (d :: b)) = (2 * Z.to_N (num b) + N.b2n (is_one d))%N) by (cbn [num]; destruct d; cbn [is_one N.b2n]; lia).
  rewrite E. destruct i as [|i]; cbn [nth_error].
  - rewrite N.testbit_0_r. reflexivity.
  - rewrite Nat2N.inj_succ, N.testbit_succ_r. apply IH.
Qed.
(** The compiler computes the bits [b] for an expression of a test.  The number it hands to the C++ code
    for them is written to the port, and what is read back there are these bits, undefined ones as 0.
    Partial: members of tuples, structs, arrays and enums of more than 64 bits must be narrower than 64
    bits, and so must values of exactly 64 bits under overflow checks (C35). *)
Theorem C67_value_partial : forall (checked : bool) (l : list estmt) (v : value) (b : bits) (p : WrapModel.port),
  well_typed [] l -> no_min_negation [] [] l -> eval_statements l = Some v -> hardware l = Some b ->
  0 < length b -> (checked = true -> length b <> 64) ->
  (64 < length b -> forall inner m, v = VConcat_ inner -> In m inner -> vwidth m < 64) ->
  WrapSpec.shape (length b) p ->
  exists n q, (if length b <=? 64 then as_u64 checked v else EvalModel.as_u32_chunks checked v) = Some (Z.of_N n)
    /\ WrapModel.set_input (length b) n p = Some q
    /\ WrapModel.output_string (length b) q = Some (map is_one (rev b)).
Proof.
  intros checked l v b p T NM E Hb L C N Sh. exists (Z.to_N (num b)). pose proof (num_bound b) as B.
  destruct (WrapProofs.input_exact (length b) (Z.to_N (num b)) p L) as (q & I & S' & Nq); [|exact Sh|].
  { apply N2Z.inj_lt. rewrite Z2N.id, N2Z.inj_pow, nat_N_Z by lia. apply B. }
  exists q. split; [|split; [exact I|]].
  - rewrite Z2N.id by lia. destruct (Nat.leb_spec (length b) 64) as [H|H].
    + apply (C35_number_partial checked l v b T NM E Hb H). intros Hc. specialize (C Hc). lia.
    + apply (C35_wide_number_partial checked l v b T NM E Hb (N H)).
  - destruct (WrapProofs.output_exact (length b) q L S') as (s & O & Ls & W). rewrite O. f_equal. rewrite Nq in W.
    apply nth_ext with (d := false) (d' := false); [rewrite map_length, rev_length; exact Ls|]. intros i Hi. rewrite Ls in Hi. specialize (W i Hi).
    apply (nth_error_nth _ _ false) in W. rewrite W, num_bits. change false with (is_one B0) at 2. rewrite map_nth. rewrite rev_nth by exact Hi.
    replace (length b - 1 - i) with (length b - S i) by lia. destruct (nth_error b (length b - S i)) as [d|] eqn:Ed; [rewrite (nth_error_nth _ _ B0 Ed); reflexivity|].
    apply nth_error_None in Ed. lia.
Qed.
Print Assumptions C67_value_partial.
(** A tuple of 60 and 10 bits *)
Definition wide_sample : list estmt :=
  [EInt 0 (TUInt 60) 131176846746379032; EInt 1 (TInt 10) (-3); EOp 2 ConstructTuple [0; 1] (TTuple [TUInt 60; TInt 10])].
Example C67_nontrivial_value : well_typed [] wide_sample /\ no_min_negation [] [] wide_sample /\
  exists v b, eval_statements wide_sample = Some v /\ hardware wide_sample = Some b /\ length b = 70 /\
    (forall inner m, v = VConcat_ inner -> In m inner -> vwidth m < 64) /\ WrapSpec.shape 70 (WrapModel.Words [7; 8; 9]%N).
Proof.
  split; [|split].
  - unfold wide_sample. apply WT_uint; [reflexivity|lia|split; [lia|vm_compute; reflexivity]|]. apply WT_int; [reflexivity|lia|cbn; lia|].
    eapply WT_op; [reflexivity|reflexivity|apply T_tuple|]. constructor.
  - unfold wide_sample. repeat (split; [discriminate|intros ? _]). exact I.
  - do 2 eexists. split; [vm_compute; reflexivity|]. split; [vm_compute; reflexivity|]. split; [reflexivity|]. split.
    + intros inner m H. injection H as <-. intros [<-|[<-|[]]]; cbn; lia.
    + split; [lia|]. split; [cbn; lia|]. intros x H. cbn in H. repeat destruct H as [<-|H]; try reflexivity. destruct H.
Qed.
