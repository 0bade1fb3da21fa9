(** Type-level constraints: evaluation and the loop that solves them. *)
From Coq Require Import List Bool Arith ZArith Lia ZifyBool.
From Verif Require Import InferModel InferSpec InferChain InferState InferUnify.
Import ListNotations.

(** ** Widths *)

Lemma bits_least v : least (fun n => fits_uint n (Z.abs v)) (bigint_bits v).
Proof.
  unfold bigint_bits, least, fits_uint. destruct (v =? 0)%Z eqn:E.
  - apply Z.eqb_eq in E. subst v. cbn. split; [lia | intros; lia].
  - apply Z.eqb_neq in E. assert (P : (0 < Z.abs v)%Z) by lia.
    pose proof (Z.log2_nonneg (Z.abs v)) as N. destruct (Z.log2_spec _ P) as [A B].
    replace (Z.succ (Z.log2 (Z.abs v))) with (Z.log2 (Z.abs v) + 1)%Z in B by lia.
    split; [lia|]. intros k [K [_ Hk]].
    assert (Z.log2 (Z.abs v) < k)%Z by (apply Z.log2_lt_pow2; lia). lia.
Qed.

Lemma least_det (P : Z -> Prop) a b : least P a -> least P b -> a = b.
Proof. intros [A A'] [B B']. apply A' in B. apply B' in A. lia. Qed.

Definition int_bits (v : Z) : Z :=
  ((if (v <? 0)%Z then bigint_bits (- v - 1) else bigint_bits v) + 1)%Z.

Lemma int_bits_least v : least (fun n => fits_int n v) (int_bits v).
Proof.
  unfold int_bits. destruct (v <? 0)%Z eqn:E.
  - apply Z.ltb_lt in E. destruct (bits_least (- v - 1)) as [[A B] L].
    replace (Z.abs (- v - 1)) with (- v - 1)%Z in * by lia. split.
    + unfold fits_int. replace (bigint_bits (- v - 1) + 1 - 1)%Z with (bigint_bits (- v - 1)) by lia. lia.
    + intros k [K [H _]]. assert (bigint_bits (- v - 1) <= k - 1)%Z; [|lia].
      apply L. unfold fits_uint. lia.
  - apply Z.ltb_ge in E. destruct (bits_least v) as [[A B] L].
    replace (Z.abs v) with v in * by lia. split.
    + unfold fits_int. replace (bigint_bits v + 1 - 1)%Z with (bigint_bits v) by lia. lia.
    + intros k [K [_ H]]. assert (bigint_bits v <= k - 1)%Z; [|lia].
      apply L. unfold fits_uint. lia.
Qed.

(** ** Values *)

Lemma value_det rho e k : Value rho e k -> forall k', Value rho e k' -> k = k'.
Proof.
  assert (IFF : forall (c c' : bool) (P : Prop), (c = true <-> P) -> (c' = true <-> P) -> c = c').
  { intros [] [] P A B; auto; [symmetry|]; tauto. }
  induction 1; intros k' H';
    inversion H'; subst; clear H'; try reflexivity; try congruence;
    repeat match goal with
           | IH : forall k', Value ?r ?e k' -> _ = k', H : Value ?r ?e _ |- _ => apply IH in H; clear IH
           end; subst; try congruence;
    repeat match goal with H : BInt _ = BInt _ |- _ => injection H as -> | H : BBool _ = BBool _ |- _ => injection H as -> end;
    try reflexivity; f_equal; eauto; try (eapply least_det; eauto).
Qed.

Definition lit (e : cexpr) : option base :=
  match e with
  | CInt z => Some (BInt z) | CBool b => Some (BBool b) | CStr s => Some (BStr s) | _ => None
  end.

Lemma lit_value rho e k : lit e = Some k -> Value rho e k.
Proof. destruct e; intros H; inversion H; subst; constructor. Qed.

Definition small (n : nat) (l : list nat) : Prop := Forall (fun v => v < n) l.

Lemma small_app n a b : small n (a ++ b) <-> small n a /\ small n b.
Proof. apply Forall_app. Qed.

(** what evaluation returns: a literal that is the value under every solution, or
    the expression itself; and no solution gives a value when it crashes *)
Definition eval_ok (st : state) (e : cexpr) (o : option cexpr) : Prop :=
  match o with
  | None => forall rho k, Sol st rho -> ~ Value rho e k
  | Some e' => e' = e \/ exists k, lit e' = Some k /\ forall rho, Sol st rho -> Value rho e k
  end.

Ltac two H1 H2 :=
  cbn [eval_ok] in H1, H2.

(** the evaluated operand, whichever form it has *)
Lemma eval_lit st e o : eval_ok st e o -> forall e' k, o = Some e' -> lit e' = Some k ->
  forall rho, Sol st rho -> Value rho e k.
Proof.
  intros H e' k -> L rho Hs. destruct H as [->|(k' & L' & H)].
  - apply lit_value. auto.
  - rewrite L in L'. injection L' as <-. auto.
Qed.

Lemma int_binop_ok st self l r ol orr op :
  eval_ok st l ol -> eval_ok st r orr ->
  (forall rho k, Value rho self k -> exists a b, Value rho l (BInt a) /\ Value rho r (BInt b) /\ op a b <> None) ->
  (forall rho a b c, Value rho l (BInt a) -> Value rho r (BInt b) -> op a b = Some c -> Value rho self (BInt c)) ->
  eval_ok st self (int_binop self ol orr op).
Proof.
  intros H1 H2 INV MK. unfold int_binop.
  pose proof (eval_lit _ _ _ H1) as L1. pose proof (eval_lit _ _ _ H2) as L2.
  destruct ol as [el|]; [|intros rho k Hs V; destruct (INV _ _ V) as (va & vb & A & B & _); eapply H1; eauto].
  destruct orr as [er|];
    [|destruct el; intros rho k Hs V; destruct (INV _ _ V) as (va & vb & A & B & _); eapply H2; eauto].
  destruct el; try (left; reflexivity); destruct er; try (left; reflexivity).
  destruct (op z z0) as [c|] eqn:O; cbn.
  - right. exists (BInt c). split; auto. intros rho Hs.
    eapply MK; [exact (L1 _ _ eq_refl eq_refl _ Hs) | exact (L2 _ _ eq_refl eq_refl _ Hs) | auto].
  - intros rho k Hs V. destruct (INV _ _ V) as (a & b & A & B & N).
    pose proof (value_det _ _ _ A _ (L1 _ _ eq_refl eq_refl _ Hs)) as X.
    pose proof (value_det _ _ _ B _ (L2 _ _ eq_refl eq_refl _ Hs)) as Y.
    injection X as ->. injection Y as ->. auto.
Qed.

Lemma bool_binop_ok st self l r ol orr op :
  eval_ok st l ol -> eval_ok st r orr ->
  (forall rho k, Value rho self k -> exists a b, Value rho l (BBool a) /\ Value rho r (BBool b)) ->
  (forall rho a b, Value rho l (BBool a) -> Value rho r (BBool b) -> Value rho self (BBool (op a b))) ->
  eval_ok st self (bool_binop self ol orr op).
Proof.
  intros H1 H2 INV MK. unfold bool_binop.
  pose proof (eval_lit _ _ _ H1) as L1. pose proof (eval_lit _ _ _ H2) as L2.
  destruct ol as [el|]; [|intros rho k Hs V; destruct (INV _ _ V) as (va & vb & A & B); eapply H1; eauto].
  destruct orr as [er|];
    [|destruct el; intros rho k Hs V; destruct (INV _ _ V) as (va & vb & A & B); eapply H2; eauto].
  destruct el; try (left; reflexivity); destruct er; try (left; reflexivity).
  right. exists (BBool (op b b0)). split; auto. intros rho Hs.
  eapply MK; [exact (L1 _ _ eq_refl eq_refl _ Hs) | exact (L2 _ _ eq_refl eq_refl _ Hs)].
Qed.

Lemma cmp_binop_ok st self l r ol orr op :
  eval_ok st l ol -> eval_ok st r orr ->
  (forall rho k, Value rho self k -> exists a b, Value rho l (BInt a) /\ Value rho r (BInt b)) ->
  (forall rho a b, Value rho l (BInt a) -> Value rho r (BInt b) -> Value rho self (BBool (op a b))) ->
  eval_ok st self (cmp_binop self ol orr op).
Proof.
  intros H1 H2 INV MK. unfold cmp_binop.
  pose proof (eval_lit _ _ _ H1) as L1. pose proof (eval_lit _ _ _ H2) as L2.
  destruct ol as [el|]; [|intros rho k Hs V; destruct (INV _ _ V) as (va & vb & A & B); eapply H1; eauto].
  destruct orr as [er|];
    [|destruct el; intros rho k Hs V; destruct (INV _ _ V) as (va & vb & A & B); eapply H2; eauto].
  destruct el; try (left; reflexivity); destruct er; try (left; reflexivity).
  right. exists (BBool (op z z0)). split; auto. intros rho Hs.
  eapply MK; [exact (L1 _ _ eq_refl eq_refl _ Hs) | exact (L2 _ _ eq_refl eq_refl _ Hs)].
Qed.

Lemma str_eqb_spec a b : str_eqb a b = true <-> a = b.
Proof. unfold str_eqb. destruct (list_eq_dec Nat.eq_dec a b); split; intros; congruence. Qed.

Lemma eq_binop_ok st self l r ol orr op :
  eval_ok st l ol -> eval_ok st r orr ->
  (forall rho k, Value rho self k -> exists a b, Value rho l a /\ Value rho r b) ->
  (forall rho x y c, Value rho l x -> Value rho r y -> comparable x y -> (c = true <-> x = y) ->
     Value rho self (BBool (op c))) ->
  eval_ok st self (eq_binop self ol orr op).
Proof.
  intros H1 H2 INV MK. unfold eq_binop.
  pose proof (eval_lit _ _ _ H1) as L1. pose proof (eval_lit _ _ _ H2) as L2.
  destruct ol as [el|]; [|intros rho k Hs V; destruct (INV _ _ V) as (va & vb & A & B); eapply H1; eauto].
  destruct orr as [er|];
    [|destruct el; intros rho k Hs V; destruct (INV _ _ V) as (va & vb & A & B); eapply H2; eauto].
  destruct el; try (left; reflexivity); destruct er; try (left; reflexivity);
    right; eexists; (split; [reflexivity|]); intros rho Hs;
    (eapply MK; [exact (L1 _ _ eq_refl eq_refl _ Hs) | exact (L2 _ _ eq_refl eq_refl _ Hs) | constructor | ]).
  - rewrite Bool.eqb_true_iff. split; congruence.
  - rewrite Z.eqb_eq. split; congruence.
  - rewrite str_eqb_spec. split; congruence.
Qed.

Lemma unop_ok st self x o (dec : cexpr -> option cexpr) :
  eval_ok st x o ->
  (forall rho k, Value rho self k -> exists a, Value rho x a) ->
  (forall e', match dec e' with
              | None => True
              | Some e'' => exists k k', lit e' = Some k /\ lit e'' = Some k' /\
                  forall rho, Value rho x k -> Value rho self k'
              end) ->
  eval_ok st self (match o with
                   | None => None
                   | Some e' => match dec e' with Some e'' => Some e'' | None => Some self end
                   end).
Proof.
  intros H INV MK. pose proof (eval_lit _ _ _ H) as L. destruct o as [e'|].
  - specialize (MK e'). destruct (dec e') as [e''|]; [|left; auto].
    destruct MK as (k & k' & A & B & V). right. exists k'. split; auto.
    intros rho Hs. apply V. eapply L; eauto.
  - intros rho k Hs V. destruct (INV _ _ V) as (a & A). eapply H; eauto.
Qed.

Lemma evaluate_ok st : closed st -> chains st -> forall e, small (len st) (cvars e) -> eval_ok st e (evaluate st e).
Proof.
  intros C CH.
  induction e; intros SM; cbn [evaluate]; try (left; reflexivity);
    try (cbn [cvars] in SM; apply small_app in SM as [S1 S2]; specialize (IHe1 S1); specialize (IHe2 S2)).
  - (* a variable *)
    inversion SM as [|? ? Lv _]; subst. destruct (CH v) as (r & E).
    rewrite (resolve_spec _ _ _ E). pose proof (ends_lt _ _ _ C Lv E) as Lr.
    pose proof (ends_rep _ _ _ E) as K.
    destruct (nth_error (vars st) r) as [[b ps|trs m]|] eqn:N.
    + assert (X : forall rho, Sol st rho -> rho v = TK b (map rho ps)).
      { intros rho [A B]. rewrite (A _ _ E). exact (B _ _ N K). }
      destruct b; try (left; reflexivity);
        try (intros rho k Hs V; pose proof (X _ Hs) as Y; inversion V; congruence);
        right; eexists; (split; [reflexivity|]); intros rho Hs; pose proof (X _ Hs) as Y; econstructor; eauto.
    + left. reflexivity.
    + apply nth_error_None in N. unfold len in Lr. lia.
  - apply (int_binop_ok _ _ e1 e2); auto.
    + intros rho k V. inversion V; subst. do 2 eexists; split; [|split]; eauto; discriminate.
    + intros rho a b c A B X. injection X as <-. constructor; auto.
  - apply (int_binop_ok _ _ e1 e2); auto.
    + intros rho k V. inversion V; subst. do 2 eexists; split; [|split]; eauto; discriminate.
    + intros rho a b c A B X. injection X as <-. constructor; auto.
  - apply (int_binop_ok _ _ e1 e2); auto.
    + intros rho k V. inversion V; subst. do 2 eexists; split; [|split]; eauto; discriminate.
    + intros rho a b c A B X. injection X as <-. constructor; auto.
  - apply (int_binop_ok _ _ e1 e2); auto.
    + intros rho k V. inversion V; subst. do 2 eexists; split; [|split]; eauto.
      destruct (b =? 0)%Z eqn:Z; [apply Z.eqb_eq in Z; contradiction | discriminate].
    + intros rho a b c A B X. destruct (b =? 0)%Z eqn:Z; [discriminate|]. apply Z.eqb_neq in Z.
      injection X as <-. constructor; auto.
  - apply (int_binop_ok _ _ e1 e2); auto.
    + intros rho k V. inversion V; subst. do 2 eexists; split; [|split]; eauto.
      destruct (b =? 0)%Z eqn:Z; [apply Z.eqb_eq in Z; contradiction | discriminate].
    + intros rho a b c A B X. destruct (b =? 0)%Z eqn:Z; [discriminate|]. apply Z.eqb_neq in Z.
      injection X as <-. constructor; auto.
  - pose proof (unop_ok st (CSub e) e (evaluate st e)
      (fun e' => match e' with CInt v => Some (CInt (- v)) | _ => None end) (IHe SM)) as U.
    destruct (evaluate st e) as [[]|]; apply U; try (intros rho k V; inversion V; subst; eauto; fail);
      intros []; auto; do 2 eexists; repeat split; try reflexivity; intros; constructor; auto.
  - apply (eq_binop_ok _ _ e1 e2); auto.
    + intros rho k V. inversion V; subst; eauto.
    + intros rho x y c A B X Y. econstructor; eauto.
  - apply (eq_binop_ok _ _ e1 e2); auto.
    + intros rho k V. inversion V; subst; eauto.
    + intros rho x y c A B X Y. econstructor; eauto. destruct c; cbn; intuition discriminate.
  - apply (cmp_binop_ok _ _ e1 e2); auto.
    + intros rho k V. inversion V; subst; eauto.
    + intros rho a b A B. econstructor; eauto. lia.
  - apply (cmp_binop_ok _ _ e1 e2); auto.
    + intros rho k V. inversion V; subst; eauto.
    + intros rho a b A B. econstructor; eauto. lia.
  - apply (cmp_binop_ok _ _ e1 e2); auto.
    + intros rho k V. inversion V; subst; eauto.
    + intros rho a b A B. econstructor; eauto. lia.
  - apply (cmp_binop_ok _ _ e1 e2); auto.
    + intros rho k V. inversion V; subst; eauto.
    + intros rho a b A B. econstructor; eauto. lia.
  - pose proof (unop_ok st (CLogicalNot e) e (evaluate st e)
      (fun e' => match e' with CBool v => Some (CBool (negb v)) | _ => None end) (IHe SM)) as U.
    destruct (evaluate st e) as [[]|]; apply U; try (intros rho k V; inversion V; subst; eauto; fail);
      intros []; auto; do 2 eexists; repeat split; try reflexivity; intros; constructor; auto.
  - apply (bool_binop_ok _ _ e1 e2); auto.
    + intros rho k V. inversion V; subst; eauto.
    + intros rho a b A B. constructor; auto.
  - apply (bool_binop_ok _ _ e1 e2); auto.
    + intros rho k V. inversion V; subst; eauto.
    + intros rho a b A B. constructor; auto.
  - apply (bool_binop_ok _ _ e1 e2); auto.
    + intros rho k V. inversion V; subst; eauto.
    + intros rho a b A B. constructor; auto.
  - pose proof (unop_ok st (CIntBits e) e (evaluate st e)
      (fun e' => match e' with CInt v => Some (CInt (int_bits v)) | _ => None end) (IHe SM)) as U.
    destruct (evaluate st e) as [[]|]; apply U; try (intros rho k V; inversion V; subst; eauto; fail);
      intros []; auto; do 2 eexists; repeat split; try reflexivity; intros; econstructor; eauto; apply int_bits_least.
  - pose proof (unop_ok st (CUintBits e) e (evaluate st e)
      (fun e' => match e' with CInt v => Some (CInt (bigint_bits v)) | _ => None end) (IHe SM)) as U.
    destruct (evaluate st e) as [[]|]; apply U; try (intros rho k V; inversion V; subst; eauto; fail);
      intros []; auto; do 2 eexists; repeat split; try reflexivity; intros; econstructor; eauto; apply bits_least.
Qed.

(** ** One round over the constraints *)

Definition sat (rho : nat -> ty) (l : list (nat * cexpr)) : Prop :=
  forall v e, In (v, e) l -> exists k, Value rho e k /\ rho v = TK k [].
Definition given (rho : nat -> ty) (l : list (nat * base)) : Prop :=
  forall v b, In (v, b) l -> rho v = TK b [].
Definition cons_lt (n : nat) (l : list (nat * cexpr)) : Prop :=
  Forall (fun c => fst c < n /\ small n (cvars (snd c))) l.

Lemma update_ok st : closed st -> chains st -> forall cs, cons_lt (len st) cs ->
  match update_constraints st cs with
  | None => forall rho, Sol st rho -> ~ sat rho cs
  | Some (rem, known) =>
      (forall rho, Sol st rho -> (sat rho cs <-> sat rho rem /\ given rho known)) /\
      cons_lt (len st) rem /\
      (forall c, In c rem -> In c cs) /\
      (forall v b, In (v, b) known -> v < len st /\ scalar b = true /\ exists e, In (v, e) cs) /\
      length rem + length known = length cs
  end.
Proof.
  intros CL CH. induction cs as [|[v e] cs IH]; intros L; cbn [update_constraints].
  - split; [|split; [constructor|split; [auto|split; [intros v b []|auto]]]].
    intros rho _. split; [intros _; split; intros ? ? [] | intros _ ? ? []].
  - inversion L as [|? ? [Lv Le] L']; subst. cbn in Lv, Le. specialize (IH L').
    pose proof (evaluate_ok st CL CH e Le) as E.
    destruct (evaluate st e) as [e'|].
    2:{ intros rho Hs S. destruct (S v e (or_introl eq_refl)) as (k & V & _). exact (E rho k Hs V). }
    destruct (update_constraints st cs) as [[rem known]|].
    2:{ intros rho Hs S. apply (IH rho Hs). intros v' e0 H. apply S. right. auto. }
    destruct IH as (EQ & LT & SUB & KN & LEN).
    assert (CONSE : forall rho, sat rho ((v, e) :: cs) <-> (exists k, Value rho e k /\ rho v = TK k []) /\ sat rho cs).
    { intros rho. split.
      - intros H. split; [apply H; left; auto | intros v' e0 I0; apply H; right; auto].
      - intros [A B] v' e0 [H|H]; [injection H as <- <-; auto | auto]. }
    assert (OPEN : e' = e -> 
      (forall rho, Sol st rho -> (sat rho ((v, e) :: cs) <-> sat rho ((v, e') :: rem) /\ given rho known)) /\
      cons_lt (len st) ((v, e') :: rem) /\
      (forall c, In c ((v, e') :: rem) -> In c ((v, e) :: cs)) /\
      (forall v0 b, In (v0, b) known -> v0 < len st /\ scalar b = true /\ exists e0, In (v0, e0) ((v, e) :: cs)) /\
      length ((v, e') :: rem) + length known = length ((v, e) :: cs)).
    { intros ->. repeat split.
      - intros v' e0 [H1|H1].
        + injection H1 as <- <-. apply H0. left. auto.
        + apply CONSE in H0 as [_ H0]. apply EQ in H0 as [H0 _]; auto.
      - apply CONSE in H0 as [_ H0]. apply EQ in H0 as [_ H0]; auto.
      - intros [A B]. apply CONSE. split; [apply A; left; auto|]. apply EQ; auto. split; auto.
        intros v' e0 H1. apply A. right. auto.
      - constructor; auto.
      - intros c [<-|H]; [left; auto | right; auto].
      - apply KN in H. tauto.
      - apply KN in H. tauto.
      - apply KN in H as (_ & _ & e0 & H). exists e0. right. auto.
      - cbn. lia. }
    assert (LIT : forall k, lit e' = Some k -> 
      (forall rho, Sol st rho -> (sat rho ((v, e) :: cs) <-> sat rho rem /\ given rho ((v, k) :: known))) /\
      cons_lt (len st) rem /\
      (forall c, In c rem -> In c ((v, e) :: cs)) /\
      (forall v0 b, In (v0, b) ((v, k) :: known) -> v0 < len st /\ scalar b = true /\ exists e0, In (v0, e0) ((v, e) :: cs)) /\
      length rem + length ((v, k) :: known) = length ((v, e) :: cs)).
    { intros k Lk. pose proof (eval_lit _ _ _ E _ _ eq_refl Lk) as V. repeat split.
      - apply CONSE in H0 as [_ H0]. apply EQ in H0 as [H0 _]; auto.
      - apply CONSE in H0 as [(k' & V' & Hv) H0]. apply EQ in H0 as [_ H0]; auto.
        rewrite (value_det _ _ _ V' _ (V _ H)) in Hv.
        intros v' b [H1|H1]; [injection H1 as <- <-; auto | auto].
      - intros [A B]. apply CONSE. split.
        + exists k. split; auto. apply B. left. auto.
        + apply EQ; auto. split; auto. intros v' b H1. apply B. right. auto.
      - auto.
      - intros c H. right. auto.
      - destruct H as [H|H]; [injection H as <- <-; auto | apply KN in H; tauto].
      - destruct H as [H|H]; [injection H as <- <-; destruct e'; inversion Lk; auto | apply KN in H; tauto].
      - destruct H as [H|H]; [injection H as <- <-; exists e; left; auto|].
        apply KN in H as (_ & _ & e0 & H). exists e0. right. auto.
      - cbn. lia. }
    destruct e'; try (apply LIT; reflexivity); apply OPEN;
      destruct E as [E|(k & X & _)]; auto; discriminate.
Qed.
