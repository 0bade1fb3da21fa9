(** C64: what a unit must not do once its types are known, and registers written out. *)
From Coq Require Import List ZArith Bool Lia.
Import ListNotations.
From Verif Require Import PassModel PassSpec PassProofs.

(** Writing registers out leaves everything in its stage, whatever is nested in what *)
Theorem C64_stages : forall type_of e e', flatten_regs type_of e = Ok e' ->
  unrolled (count_of type_of) e e' /\ forall c, ~ stmt_inside e' (SMark (Some (Count c))).
Proof.
  intros type_of e e' H. pose proof (flatten_exact type_of e) as G. unfold flat in G. unfold flatten_regs in H.
  rewrite H in G. destruct G as (U & C & _). split; [exact U|exact C].
Qed.
Print Assumptions C64_stages.
(** It is done exactly if every count is a number a register can be repeated by *)
Theorem C64_counts : forall type_of e, (exists e', flatten_regs type_of e = Ok e') <->
  forall c, stmt_inside e (SMark (Some (Count c))) -> countable type_of c.
Proof.
  intros type_of e. pose proof (flatten_exact type_of e) as G. unfold flat in G. unfold flatten_regs. destruct (apply _ e) as [e'|x].
  - destruct G as (_ & _ & R). split; [intros _; exact R|intros _; exists e'; reflexivity].
  - destruct G as (c & I & R). split; [intros [e' E]; discriminate|]. intros H. exfalso. exact (reason_not _ _ _ R (H c I)).
Qed.
Print Assumptions C64_counts.
Theorem C64_count_reported : forall type_of e x, flatten_regs type_of e = Err x ->
  exists c, stmt_inside e (SMark (Some (Count c))) /\ count_fault type_of c x.
Proof. intros type_of e x H. pose proof (flatten_exact type_of e) as G. unfold flat in G. unfold flatten_regs in H. rewrite H in G. exact G. Qed.
Print Assumptions C64_count_reported.

(** A unit passes the check of [inout] exactly if it returns none, takes each as [no_mangle], and
    binds none to a name by [let] or [reg]; and the check changes nothing *)
Theorem C64_inout : forall type_of u u', run_inout type_of u = Ok u' <->
  u' = u /\ ~ inout type_of (id_of (body u)) /\
  (forall n x, nth_error (head_inputs u) n = Some false -> nth_error (inputs u) n = Some x -> ~ inout type_of x) /\
  forall q, bound_in (body u) q -> ~ inout type_of q.
Proof. exact run_inout_ok. Qed.
Print Assumptions C64_inout.
Theorem C64_inout_reported : forall type_of u x, run_inout type_of u = Err x ->
  (x = Returned (id_of (body u)) /\ inout type_of (id_of (body u))) \/
  (exists n y, x = MustBeNoMangle y /\ nth_error (head_inputs u) n = Some false /\ nth_error (inputs u) n = Some y /\ inout type_of y) \/
  (exists q, x = BoundToName q /\ bound_in (body u) q /\ inout type_of q).
Proof. exact run_inout_err. Qed.
Print Assumptions C64_inout_reported.

(** The size the checks go by is the number of bits *)
Theorem C64_bits : forall t n, size t = Some n <-> bits t n.
Proof.
  intros t n. split.
  - revert t n. fix F 1. intros [z|m|l|m] n H; [discriminate| | |].
    + injection H as <-. constructor.
    + revert n H. induction l as [|t l IH]; intros n H.
      * injection H as <-. constructor.
      * cbn in H. destruct (size t) as [a|] eqn:E; [|discriminate]. change (match size (TTuple l) with Some b => Some (a + b)%N | None => None end = Some n) in H.
        destruct (size (TTuple l)) as [b|]; [|discriminate]. injection H as <-. constructor; [apply F, E|apply IH; reflexivity].
    + injection H as <-. constructor.
  - induction 1 as [m|m| |t l a b _ IH1 _ IH2]; try reflexivity.
    change (match size t, size (TTuple l) with Some x, Some y => Some (x + y)%N | _, _ => None end = Some (a + b)%N). rewrite IH1, IH2. reflexivity.
Qed.
Print Assumptions C64_bits.
(** A unit passes the check of sizes exactly if no operator computes with a value without bits,
    and no [match] has a first arm without bits; and the check changes nothing *)
Theorem C64_sizes : forall type_of u u', run_zero type_of u = Ok u' <->
  u' = u /\ no_gen_if (body u) /\ (forall a, computed_with (body u) a -> sized type_of a) /\ (forall v, arm_in (body u) 0 v -> sized type_of v).
Proof. exact run_zero_ok. Qed.
Print Assumptions C64_sizes.
Theorem C64_arms : forall type_of u u', arms_agree type_of (body u) -> run_zero type_of u = Ok u' ->
  forall n v, arm_in (body u) n v -> sized type_of v.
Proof.
  intros type_of u u' A H n v (i & c & l & q & g & I & E). apply run_zero_ok in H. destruct H as (_ & _ & _ & H).
  destruct l as [|[q0 g0 v0] l]; [destruct n; discriminate|].
  assert (S : sized type_of v0) by (apply H; exists i, c, (Br q0 g0 v0 :: l), q0, g0; auto).
  destruct S as (t & k & E1 & E2 & E3). exists t, k. split; [|auto].
  rewrite <- E1. apply (A i c _ q g v q0 g0 v0 I); [eapply nth_error_In, E|left; reflexivity].
Qed.
Print Assumptions C64_arms.
Theorem C64_size_reported : forall type_of u x, run_zero type_of u = Err x ->
  (exists i t f, x = GenIfLeft i /\ inside (body u) (Ex i (KTlIf t f))) \/
  (exists a, computed_with (body u) a /\ size_fault type_of (id_of a) (ZeroOperand (id_of a)) x) \/
  (exists v, arm_in (body u) 0 v /\ size_fault type_of (id_of v) (ZeroMatch (id_of v)) x).
Proof. exact run_zero_err. Qed.
Print Assumptions C64_size_reported.

(** All three together, said of the unit as it was written *)
Theorem C64_passes : forall type_of u u', run_passes type_of u = Ok u' ->
  head_inputs u' = head_inputs u /\ inputs u' = inputs u /\ unrolled (count_of type_of) (body u) (body u') /\
  (forall c, stmt_inside (body u) (SMark (Some (Count c))) -> countable type_of c) /\
  ~ inout type_of (id_of (body u)) /\ (forall q, bound_in (body u) q -> ~ inout type_of q) /\
  (forall n x, nth_error (head_inputs u) n = Some false -> nth_error (inputs u) n = Some x -> ~ inout type_of x) /\
  (forall a, computed_with (body u) a -> sized type_of a) /\ (forall v, arm_in (body u) 0 v -> sized type_of v).
Proof.
  intros type_of u u' H. unfold run_passes in H. apply bind_ok in H. destruct H as (u1 & H1 & H).
  apply bind_ok in H. destruct H as (u2 & H2 & H3).
  unfold run_flatten in H1. apply bind_ok in H1. destruct H1 as (b & H1 & E). injection E as <-.
  apply run_inout_ok in H2. destruct H2 as (-> & R & M & B). apply run_zero_ok in H3. destruct H3 as (-> & _ & C & A).
  cbn [body head_inputs inputs with_body] in *.
  destruct (C64_stages _ _ _ H1) as [U _].
  split; [reflexivity|]. split; [reflexivity|]. split; [exact U|]. split; [apply C64_counts; eauto|].
  split; [rewrite <- (id_kept _ _ _ U); exact R|]. split; [intros q Q; apply B; eapply bound_kept; eassumption|]. split; [exact M|].
  assert (K : forall a a', id_of a' = id_of a -> sized type_of a' -> sized type_of a) by (intros a a' E (t & n & G); exists t, n; rewrite <- E; exact G).
  split; [intros a Ha; destruct (computed_kept _ _ _ _ U Ha) as (a' & Ha' & E); apply (K _ _ E), C, Ha'|].
  intros v Hv. destruct (arm_kept _ _ _ _ _ U Hv) as (v' & Hv' & E). apply (K _ _ E), A, Hv'.
Qed.
Print Assumptions C64_passes.

(** ** A case: [reg*3; let x = { reg*2; -a }; reg[c]; label] with types for all *)
Definition case_types (n : nat) : option ty :=
  match n with
  | 0 => Some (TInt 3) | 1 => Some (TInt 2) | 2 => Some (TInOut 1) | 3 => Some (TInt (-1)) | 4 => Some (TTuple [TInOut 1; TOther 1])
  | 5 => Some (TOther 0) | _ => Some (TOther 8)
  end.
Definition leaf (n : nat) : expr := Ex n (KLeaf n).
Definition case_body : expr :=
  Ex 10 (KBlock [SMark (Some (Count 0));
                 SBind 20 (Ex 11 (KBlock [SMark (Some (Count 1)); SExpr (leaf 12)] (Some (Ex 13 (KUn Sub (leaf 14))))));
                 SMark (Some (Condition (leaf 15))); SLabel 0] (Some (leaf 16))).
Definition case_unit : unit_ := {| head_inputs := [true; false]; inputs := [2; 30]; body := case_body |}.
Definition case_result : expr :=
  Ex 10 (KBlock [SMark None; SMark None; SMark None;
                 SBind 20 (Ex 11 (KBlock [SMark None; SMark None; SExpr (leaf 12)] (Some (Ex 13 (KUn Sub (leaf 14))))));
                 SMark (Some (Condition (leaf 15))); SLabel 0] (Some (leaf 16))).
Example C64_nontrivial : run_passes case_types case_unit = Ok (with_body case_unit case_result)
  /\ stmt_inside (body case_unit) (SMark (Some (Count 1))) /\ computed_with (body case_unit) (leaf 14)
  /\ map fst (timeline (count_of case_types) [SMark (Some (Count 0)); SLabel 1; SMark (Some (Condition (leaf 15))); SLabel 0] 0) = [3; 3; 4].
Proof.
  assert (I : inside case_body (Ex 11 (KBlock [SMark (Some (Count 1)); SExpr (leaf 12)] (Some (Ex 13 (KUn Sub (leaf 14))))))).
  { eapply in_step; [|apply in_self]. eapply o_stmt; [right; left; reflexivity|constructor]. }
  split; [reflexivity|]. split; [|split; [|reflexivity]].
  - exists 11. do 2 eexists. split; [exact I|left; reflexivity].
  - apply (c_un _ 13 Sub); [|auto]. eapply inside_trans; [exact I|]. eapply in_step; [apply o_result|apply in_self].
Qed.
Example C64_arms_nontrivial : exists u, arms_agree case_types (body u) /\ run_zero case_types u = Ok u /\ arm_in (body u) 1 (leaf 8).
Proof.
  set (e := Ex 10 (KMatch (leaf 6) [Br 20 None (leaf 7); Br 21 (Some (leaf 9)) (leaf 8)])).
  exists {| head_inputs := []; inputs := []; body := e |}. split; [|split; [reflexivity|]].
  - intros i c l q g v q' g' v' I J J'. cbn [body] in I. inversion I as [|? a ? O I']; subst.
    + destruct J as [J|[J|[]]], J' as [J'|[J'|[]]]; injection J as <- <- <-; injection J' as <- <- <-; reflexivity.
    + assert (L : exists n, a = leaf n).
      { inversion O; subst; try solve [eexists; reflexivity]; match goal with H : In _ _ |- _ => destruct H as [H|[H|[]]]; inversion H; subst; eexists; reflexivity end. }
      destruct L as [n ->]. inversion I' as [|? b ? O' _]; subst. inversion O'.
  - exists 10, (leaf 6). do 3 eexists. split; [apply in_self|reflexivity].
Qed.

(** ** Where the checks fall short *)
(** A negative count is reported as too large for the machine, as an internal error *)
Theorem C64_negative_refuted : exists type_of e c, type_of c = Some (TInt (-1)) /\ flatten_regs type_of e = Err (CountTooLarge c).
Proof. exists case_types, (Ex 10 (KBlock [SMark (Some (Count 3))] None)), 3. split; reflexivity. Qed.
Print Assumptions C64_negative_refuted.
(** A name in an arm of [match] can be an [inout] value *)
Theorem C64_match_refuted : exists type_of u i c q v, run_inout type_of u = Ok u /\
  inside (body u) (Ex i (KMatch c [Br q None v])) /\ inout type_of q.
Proof.
  exists case_types, {| head_inputs := [true]; inputs := [2]; body := Ex 10 (KMatch (leaf 2) [Br 2 None (leaf 12)]) |}, 10, (leaf 2), 2, (leaf 12).
  split; [reflexivity|]. split; [apply in_self|exists 1%N; reflexivity].
Qed.
Print Assumptions C64_match_refuted.
(** A tuple with an [inout] value in it can be bound to a name, returned, and taken without [no_mangle] *)
Theorem C64_tuple_refuted : exists type_of u q t, run_inout type_of u = Ok u /\ bound_in (body u) q /\ In q (inputs u) /\
  head_inputs u = [false] /\ type_of q = Some t /\ type_of (id_of (body u)) = Some t /\ holds_inout t.
Proof.
  set (e := Ex 4 (KBlock [SBind 4 (leaf 4)] (Some (leaf 4)))).
  exists case_types, {| head_inputs := [false]; inputs := [4]; body := e |}, 4, (TTuple [TInOut 1; TOther 1]).
  split; [reflexivity|]. split; [left; exists (leaf 4), 4; do 2 eexists; split; [apply in_self|left; reflexivity]|].
  split; [left; reflexivity|]. split; [reflexivity|]. split; [reflexivity|]. split; [reflexivity|].
  eapply h_tuple; [left; reflexivity|constructor].
Qed.
Print Assumptions C64_tuple_refuted.
