(** Unification of types without trait bounds terminates. *)
From Coq Require Import List Bool Arith ZArith Lia.
From Verif Require Import InferModel InferSpec InferChain InferState InferUnify InferCons InferTop InferFuel.
Import ListNotations.

(** ** What replacing does to the chains *)

Lemma merge_shape st a b tv : Inv (with_var st tv) -> closed st -> a < len st -> b < len st ->
  lookup (repl st) a = None -> lookup (repl st) b = None -> a <> b ->
  match replace_all false [a; b] (len st) (with_var st tv) with
  | Done _ st' => vars st' = vars st ++ [tv] /\
      forall k r, ends (repl st') k r ->
        exists r0, ends (repl st) k r0 /\ r = (if r0 =? a then len st else if r0 =? b then len st else r0)
  | Fail _ st' => True
  | _ => False
  end.
Proof.
  intros I0 C La Lb Ka Kb D.
  set (s0 := with_var st tv) in *. set (new := len st).
  assert (L0 : len s0 = S new) by apply len_with_var.
  assert (Kn : lookup (repl s0) new = None) by (apply (lookup_fresh _ C)).
  assert (Dn : a <> new) by (unfold new; lia).
  assert (Dbn : b <> new) by (unfold new; lia).
  cbn [replace_all]. unfold bind at 1.
  destruct (replace_one_run s0 a new a new) as (s1 & S1 & [[T1 R1]|[T1 (s3 & R1 & F3 & I3 & _)]]);
    auto; try lia; try (constructor; auto; fail).
  2:{ rewrite R1. exact Logic.I. }
  rewrite R1. set (s2 := with_repl s1 a new) in *.
  pose proof (same_Inv _ _ S1 I0) as (C1 & T1' & P1). pose proof (total_chains _ C1 T1') as CH1.
  assert (K1a : lookup (repl s1) a = None) by (apply (same_rep _ _ _ S1); auto).
  assert (K1b : lookup (repl s1) b = None) by (apply (same_rep _ _ _ S1); auto).
  assert (K1n : lookup (repl s1) new = None) by (apply (same_rep _ _ _ S1); auto).
  assert (La1 : a < len s1) by (rewrite (same_len _ _ S1); lia).
  assert (Ln1 : new < len s1) by (rewrite (same_len _ _ S1); lia).
  assert (C2 : closed s2) by (apply closed_with_repl; auto).
  assert (I2 : Inv s2) by (split; [auto|split; auto]).
  assert (LK2 : forall k, lookup (repl s2) k = if a =? k then Some new else lookup (repl s1) k)
    by (intros; unfold s2; cbn; apply lookup_insert, (cl_repl _ C1)).
  assert (K2b : lookup (repl s2) b = None).
  { rewrite LK2. replace (a =? b) with false by (symmetry; apply Nat.eqb_neq; auto). auto. }
  assert (K2n : lookup (repl s2) new = None).
  { rewrite LK2. replace (a =? new) with false by (symmetry; apply Nat.eqb_neq; auto). auto. }
  assert (L2 : len s2 = S new) by (change (len s2) with (len s1); rewrite (same_len _ _ S1); auto).
  unfold bind at 1.
  destruct (replace_one_run s2 b new b new) as (s4 & S4 & [[T4 R4]|[T4 (s5 & R4 & F5 & I5 & _)]]);
    auto; try lia; try (constructor; auto; fail).
  2:{ rewrite R4. exact Logic.I. }
  rewrite R4. cbn [ret].
  pose proof (same_Inv _ _ S4 I2) as (C4 & T4' & P4). pose proof (total_chains _ C4 T4') as CH4.
  split.
  - cbn. rewrite (sm_vars _ _ S4). unfold s2. cbn. rewrite (sm_vars _ _ S1). auto.
  - intros k r E. cbn in E.
    apply ends_insert_inv in E as (r1 & E & ->); auto; try (apply (same_rep _ _ _ S4); auto; fail);
      [|apply (cl_repl _ C4)].
    apply (sm_req _ _ S4) in E.
    apply ends_insert_inv in E as (r0 & E & ->); auto; [|apply (cl_repl _ C1)].
    apply (sm_req _ _ S1) in E. change (ends (repl st) k r0) in E.
    exists r0. split; auto. fold new.
    destruct (r0 =? a) eqn:Fa; [|destruct (r0 =? b); auto].
    destruct (new =? b) eqn:Fb; auto.
Qed.

(** ** The measure *)

(** a list that covers the unknown types the first [N] variables end in *)
Definition covers (N : nat) (st : state) (l : list nat) : Prop :=
  forall k r trs m, k < N -> ends (repl st) k r -> nth_error (vars st) r = Some (Unknown trs m) -> In r l.

Definition shrinks (N : nat) (st st' : state) : Prop :=
  forall v t, v < N -> Resolves st v t -> exists t', Resolves st' v t' /\ tsize t' <= tsize t.

Definition prog (N : nat) (st st' : state) : Prop :=
  forall l, covers N st l ->
    (exists l', covers N st' l' /\ length l' < length l) \/ (covers N st' l /\ shrinks N st st').

Record sane (N : nat) (E : nat -> Prop) (st : state) : Prop := {
  sn_inv : Inv st;
  sn_leaf : forall i ps, nth_error (vars st) i = Some (Known BError ps) -> ps = [] /\ E i;
  sn_len : N <= len st;
  sn_ids : forall i b ps, nth_error (vars st) i = Some (Known b ps) -> Forall (fun p => p < N) ps
}.

Lemma shrinks_refl N st : shrinks N st st.
Proof. intros v t _ H. exists t. auto. Qed.

Lemma prog_refl N st : prog N st st.
Proof. intros l H. right. split; auto using shrinks_refl. Qed.

Lemma prog_trans N a b c : prog N a b -> prog N b c -> prog N a c.
Proof.
  intros A B l H. destruct (A l H) as [(l' & H' & L)|[H' S1]].
  - left. destruct (B l' H') as [(l'' & H'' & L')|[H'' _]]; eauto.
    exists l''. split; auto. lia.
  - destruct (B l H') as [X|[H'' S2]]; auto. right. split; auto.
    intros v t Lv R. destruct (S1 v t Lv R) as (t1 & R1 & E1).
    destruct (S2 v t1 Lv R1) as (t2 & R2 & E2). exists t2. split; auto. lia.
Qed.

Lemma prog_same N a b : same a b -> prog N a b.
Proof.
  intros S l H. right. split.
  - intros k r trs m L E X. rewrite (sm_vars _ _ S) in X. apply (sm_req _ _ S) in E. eauto.
  - intros v t _ R. exists t. split; auto. eapply resolves_req; [apply (sm_vars _ _ S) | apply (sm_req _ _ S) | auto].
Qed.

Lemma sane_same N E0 a b : same a b -> sane N E0 a -> sane N E0 b.
Proof.
  intros S [A B D E]. constructor.
  - eapply same_Inv; eauto.
  - rewrite (sm_vars _ _ S). auto.
  - rewrite (same_len _ _ S). auto.
  - rewrite (sm_vars _ _ S). auto.
Qed.

(** a new variable that nothing is linked to *)
Lemma prog_with_var N st tv : closed st -> N <= len st -> prog N st (with_var st tv).
Proof.
  intros C L l H. right. split.
  - intros k r trs m Lk E X. apply nth_with_var in X as [[_ X]|[X _]].
    + eapply H; eauto.
    + assert (r < len st) by (eapply ends_lt; [exact C | | exact E]; lia). lia.
  - intros v t _ R. exists t. split; auto. apply resolves_with_var. auto.
Qed.

(** the error type replaces a type *)
Lemma prog_into N st s1 a b ps : Inv st -> same st s1 -> b <> a ->
  lookup (repl st) a = None -> lookup (repl st) b = None -> a < len st -> b < len st ->
  nth_error (vars st) b = Some (Known BError ps) -> ps = [] ->
  prog N st (with_repl s1 a b).
Proof.
  intros I S D Ka Kb La Lb Nb ->. pose proof (same_Inv _ _ S I) as (C1 & T1 & P1).
  pose proof (total_chains _ C1 T1) as CH1.
  assert (Ka1 : lookup (repl s1) a = None) by (apply (same_rep _ _ _ S); auto).
  assert (Kb1 : lookup (repl s1) b = None) by (apply (same_rep _ _ _ S); auto).
  assert (LK : forall k, lookup (repl (with_repl s1 a b)) k = if a =? k then Some b else lookup (repl s1) k)
    by (intros; cbn; apply lookup_insert, (cl_repl _ C1)).
  eapply prog_trans; [apply prog_same; exact S|].
  intros l H. right. split.
  - intros k r trs m Lk E X. cbn in E, X.
    apply ends_insert_inv in E as (r0 & E & ->); auto; [|apply (cl_repl _ C1)].
    destruct (r0 =? a) eqn:F.
    + rewrite (sm_vars _ _ S) in X. congruence.
    + eapply H; eauto.
  - intros v t _ R.
    assert (RB : Resolves (with_repl s1 a b) b (TK BError [])).
    { eapply res_known with (ps := []).
      - rewrite LK. replace (a =? b) with false by (symmetry; apply Nat.eqb_neq; auto). auto.
      - cbn. rewrite (sm_vars _ _ S). auto.
      - constructor. }
    assert (RA : Resolves (with_repl s1 a b) a (TK BError [])).
    { eapply res_link; [rewrite LK, Nat.eqb_refl; auto | auto]. }
    assert (ONE : forall t, 1 <= tsize t) by (intros []; cbn; lia).
    induction R using Resolves_ind2.
    + destruct IHR as (t' & A & B). exists t'. split; auto. eapply res_link; [|exact A].
      rewrite LK. replace (a =? v) with false; auto. symmetry. apply Nat.eqb_neq. congruence.
    + destruct (a =? v) eqn:F.
      * apply Nat.eqb_eq in F. subst v. exists (TK BError []). split; auto.
      * assert (X : exists ts', Forall2 (Resolves (with_repl s1 a b)) ps ts' /\
                    list_sum (map tsize ts') <= list_sum (map tsize ts)).
        { clear - H3. induction H3 as [|p t ps ts (t' & A & B) _ (ts' & IA & IB)].
          - exists []. split; [constructor | auto].
          - exists (t' :: ts'). split; [constructor; auto|].
            change (tsize t' + list_sum (map tsize ts') <= tsize t + list_sum (map tsize ts)). lia. }
        destruct X as (ts' & A & B). exists (TK b0 ts'). split; [|cbn; lia].
        eapply res_known; [rewrite LK, F; auto | cbn; eauto | auto].
    + destruct (a =? v) eqn:F.
      * apply Nat.eqb_eq in F. subst v. exists (TK BError []). split; auto.
      * exists (TF v m). split; auto. eapply res_unknown; [rewrite LK, F; auto | cbn; eauto].
Qed.

Lemma remove_lt (a : nat) l : In a l -> length (remove Nat.eq_dec a l) < length l.
Proof. apply remove_length_lt. Qed.

Lemma remove_le (a : nat) l : length (remove Nat.eq_dec a l) <= length l.
Proof. apply remove_length_le. Qed.

(** a new type replaces two, one of them unknown *)
Lemma prog_merge N st st' a b tv : closed st -> N <= len st ->
  vars st' = vars st ++ [tv] ->
  (forall k r, ends (repl st') k r ->
     exists r0, ends (repl st) k r0 /\ r = (if r0 =? a then len st else if r0 =? b then len st else r0)) ->
  a <> b ->
  (exists k, k < N /\ ends (repl st) k a) -> (exists k, k < N /\ ends (repl st) k b) ->
  (exists trs m, nth_error (vars st) b = Some (Unknown trs m)) ->
  ((exists bs ps, tv = Known bs ps) \/ exists trs m, nth_error (vars st) a = Some (Unknown trs m)) ->
  prog N st st'.
Proof.
  intros C LN V E D (ka & La & Ea) (kb & Lb & Eb) (tb & mb & Nb) KIND l H. left.
  assert (Ib : In b l) by exact (H kb b _ _ Lb Eb Nb).
  assert (OLD : forall r0, r0 < len st -> nth_error (vars st') r0 = nth_error (vars st) r0)
    by (intros; rewrite V; apply nth_error_app1; auto).
  assert (NEW : nth_error (vars st') (len st) = Some tv)
    by (rewrite V, nth_error_app2, Nat.sub_diag; auto).
  destruct KIND as [(bs & ps & ->)|(ta & ma & Na)].
  - exists (remove Nat.eq_dec b l). split; [|apply remove_lt; auto].
    intros k r trs m Lk X Y. apply E in X as (r0 & X & ->).
    assert (r0 < len st) by (eapply ends_lt; [exact C | | exact X]; lia).
    destruct (r0 =? a) eqn:Fa; [congruence|]. destruct (r0 =? b) eqn:Fb; [congruence|].
    apply Nat.eqb_neq in Fb. apply in_in_remove; auto. rewrite OLD in Y by auto. eauto.
  - assert (Ia : In a l) by exact (H ka a _ _ La Ea Na).
    exists (len st :: remove Nat.eq_dec a (remove Nat.eq_dec b l)). split.
    + intros k r trs m Lk X Y. apply E in X as (r0 & X & ->).
      assert (r0 < len st) by (eapply ends_lt; [exact C | | exact X]; lia).
      destruct (r0 =? a) eqn:Fa; [left; auto|]. destruct (r0 =? b) eqn:Fb; [left; auto|].
      apply Nat.eqb_neq in Fb, Fa. right. apply in_in_remove; auto. apply in_in_remove; auto.
      rewrite OLD in Y by auto. eauto.
    + cbn. assert (In a (remove Nat.eq_dec b l)) by (apply in_in_remove; auto).
      pose proof (remove_lt a _ H0). pose proof (remove_lt b _ Ib). lia.
Qed.

Lemma base_eq_err (b : base) : {b = BError} + {b <> BError}.
Proof. destruct b; auto; right; discriminate. Qed.

Section Declared.
Variable C : context.
Hypothesis declared : forall n, sym C n = SDeclared.
Variable N : nat.
Variable E0 : nat -> Prop.

Definition calls (inner : nat -> nat -> M nat) : Prop :=
  forall st v1 v2 new st', sane N E0 st -> v1 < N -> v2 < N ->
    inner v1 v2 st = Done new st' -> sane N E0 st' /\ prog N st st'.

Definition fails (inner : nat -> nat -> M nat) : Prop :=
  forall st v1 v2 e st', (forall i, E0 i) -> sane N E0 st -> v1 < N -> v2 < N ->
    inner v1 v2 st = Fail e st' -> sane N E0 st'.

Lemma params_prog inner : calls inner -> forall p1 p2 st u st',
  sane N E0 st -> Forall (fun p => p < N) p1 -> Forall (fun p => p < N) p2 ->
  unify_params inner p1 p2 st = Done u st' -> sane N E0 st' /\ prog N st st'.
Proof.
  intros IH. induction p1 as [|a p1 IHp]; intros [|b p2] st u st' S F1 F2 H; cbn in H;
    try (injection H as <- <-; split; [auto | apply prog_refl]).
  unfold bind in H. inversion F1; inversion F2; subst.
  destruct (inner a b st) as [x s1| | |] eqn:E; try discriminate.
  destruct (IH st a b x s1) as [S1 P1]; auto.
  destruct (IHp p2 s1 u st') as [S2 P2]; auto.
  split; auto. eapply prog_trans; eauto.
Qed.

Lemma params_fail inner : calls inner -> fails inner -> forall p1 p2 st e st',
  (forall i, E0 i) -> sane N E0 st -> Forall (fun p => p < N) p1 -> Forall (fun p => p < N) p2 ->
  unify_params inner p1 p2 st = Fail e st' -> sane N E0 st'.
Proof.
  intros CA FA. induction p1 as [|a p1 IHp]; intros [|b p2] st e st' HE S F1 F2 H; cbn in H;
    try discriminate.
  unfold bind in H. inversion F1; inversion F2; subst.
  destruct (inner a b st) as [x s1|e1 s1| |] eqn:E; try discriminate.
  - destruct (CA st a b x s1) as [S1 P1]; auto. eapply IHp; eauto.
  - injection H as <- <-. exact (FA st a b _ _ HE S H2 H6 E).
Qed.

Definition new_ok (tv : tvar) : Prop :=
  match tv with
  | Known b ps => (b = BError -> ps = [] /\ forall i, E0 i) /\ Forall (fun p => p < N) ps
  | _ => True
  end.

Lemma sane_plus st st' ext : sane N E0 st -> Inv st' -> vars st' = vars st ++ ext ->
  Forall new_ok ext -> sane N E0 st'.
Proof.
  intros [A B D E] I V H.
  assert (NTH : forall i b ps, nth_error (vars st') i = Some (Known b ps) ->
     nth_error (vars st) i = Some (Known b ps) \/ new_ok (Known b ps)).
  { intros i b ps X. rewrite V in X. destruct (lt_dec i (length (vars st))) as [Li|Li].
    - rewrite nth_error_app1 in X by auto. auto.
    - rewrite nth_error_app2 in X by lia. apply nth_error_In in X. rewrite Forall_forall in H. auto. }
  constructor; auto.
  - intros i ps X. apply NTH in X as [X|[X _]]; eauto. destruct (X eq_refl). auto.
  - unfold len in *. rewrite V, app_length. lia.
  - intros i b ps X. apply NTH in X as [X|[_ X]]; eauto.
Qed.

(** an outcome that takes no further calls *)
Definition settled (n : nat) (st : state) (v1 v2 : nat) : Prop :=
  exists r, after C n v1 v2 st = r /\ r <> NoFuel /\ r <> Panic /\
      (forall m, after C m v1 v2 st = r) /\
      (forall new st', r = Done new st' -> sane N E0 st' /\ prog N st st') /\
      (forall e st', (forall i, E0 i) -> r = Fail e st' -> sane N E0 st').

(** the calls that do not go into parameters, and those that do *)
Lemma after_cases n st v1 v2 : sane N E0 st ->
  lookup (repl st) v1 = None -> lookup (repl st) v2 = None ->
  (exists k, k < N /\ ends (repl st) k v1) -> (exists k, k < N /\ ends (repl st) k v2) ->
  settled n st v1 v2 \/
  (exists b p1 p2, nth_error (vars st) v1 = Some (Known b p1) /\ nth_error (vars st) v2 = Some (Known b p2) /\
      length p1 = length p2 /\
      forall m, after C m v1 v2 st = (unify_params (unify_inner C m) p1 p2 ;;; ret v1) st).
Proof.
  intros S K1 K2 (k1 & Lk1 & E1') (k2 & Lk2 & E2').
  pose proof S as [I LEAF LN IDS]. pose proof I as (CL & TT & PL).
  assert (L1 : v1 < len st) by (eapply ends_lt; [exact CL | | exact E1']; lia).
  assert (L2 : v2 < len st) by (eapply ends_lt; [exact CL | | exact E2']; lia).
  assert (N1 : nth_error (vars st) v1 <> None) by (apply nth_error_Some; auto).
  assert (N2 : nth_error (vars st) v2 <> None) by (apply nth_error_Some; auto).
  destruct (nth_error (vars st) v1) as [tv1|] eqn:E1; [clear N1|congruence].
  destruct (nth_error (vars st) v2) as [tv2|] eqn:E2; [clear N2|congruence].
  pose proof (resolve_spec _ _ _ (ends_here _ _ K1)) as R1. rewrite E1 in R1.
  pose proof (resolve_spec _ _ _ (ends_here _ _ K2)) as R2. rewrite E2 in R2.
  (* constant outcomes *)
  assert (CONST : forall r, (forall m, after C m v1 v2 st = r) -> r <> NoFuel -> r <> Panic ->
      (forall new st', r = Done new st' -> sane N E0 st' /\ prog N st st') /\
      (forall e st', (forall i, E0 i) -> r = Fail e st' -> sane N E0 st') ->
    settled n st v1 v2)
    by (intros r H1 H2 H3 [H4 H5]; exists r; auto 10).
  assert (INTO : forall a b ps, (v1 =? v2) = (a =? b) -> a < len st -> b < len st ->
      lookup (repl st) a = None -> lookup (repl st) b = None ->
      nth_error (vars st) b = Some (Known BError ps) ->
      (forall m, after C m v1 v2 st = (replace_all (v1 =? v2) [a] b ;;; ret b) st) ->
      settled n st v1 v2).
  { intros a b ps SM La Lb Ka Kb Nb AF.
    eapply CONST; [exact AF| | |].
    - cbn [replace_all]. rewrite SM. unfold bind. destruct (a =? b) eqn:AB; [discriminate|].
      apply Nat.eqb_neq in AB.
      destruct (replace_one_run st a b a b I La Lb (ends_here _ _ Ka) (ends_here _ _ Kb) AB)
        as (s1 & S1 & [[T1 Q1]|[T1 (s3 & Q1 & F3 & I3 & V3)]]); rewrite Q1; discriminate.
    - cbn [replace_all]. rewrite SM. unfold bind. destruct (a =? b) eqn:AB; [discriminate|].
      apply Nat.eqb_neq in AB.
      destruct (replace_one_run st a b a b I La Lb (ends_here _ _ Ka) (ends_here _ _ Kb) AB)
        as (s1 & S1 & [[T1 Q1]|[T1 (s3 & Q1 & F3 & I3 & V3)]]); rewrite Q1; discriminate.
    - cbn [replace_all]. rewrite SM. unfold bind. destruct (a =? b) eqn:AB.
      + cbn. split; [|discriminate]. intros new st' H. injection H as <- <-. split; [auto | apply prog_refl].
      + apply Nat.eqb_neq in AB.
        destruct (replace_one_run st a b a b I La Lb (ends_here _ _ Ka) (ends_here _ _ Kb) AB)
          as (s1 & S1 & [[T1 Q1]|[T1 (s3 & Q1 & F3 & I3 & V3)]]); rewrite Q1.
        2:{ split; [discriminate|]. intros e st' HE H. injection H as <- <-.
            eapply sane_plus; eauto. repeat constructor; auto. }
        cbn. split; [|discriminate]. intros new st' H. injection H as <- <-. split.
        * pose proof (sane_same _ _ _ _ S1 S) as [A B D E]. pose proof A as (A1 & A2 & A3).
          constructor; auto. split; [|split]; auto.
          apply closed_with_repl; auto; rewrite (same_len _ _ S1); auto.
        * eapply prog_into; eauto. apply (LEAF _ _ Nb). }
  assert (MERGE : forall a b tv, a <> b -> a < len st -> b < len st ->
      lookup (repl st) a = None -> lookup (repl st) b = None ->
      (exists k, k < N /\ ends (repl st) k a) -> (exists k, k < N /\ ends (repl st) k b) ->
      (exists trs m, nth_error (vars st) b = Some (Unknown trs m)) ->
      (exists tv0, nth_error (vars st) a = Some tv0 /\
        ((exists bs ps, tv = Known bs ps /\ tv0 = tv /\ bs <> BError) \/
         (exists m, tv = Unknown [] m) /\ exists trs m, tv0 = Unknown trs m)) ->
      (forall m, after C m v1 v2 st = (replace_all false [a; b] (len st) ;;; ret (len st)) (with_var st tv)) ->
      settled n st v1 v2).
  { intros a b tv D La Lb Ka Kb Xa Xb Nb (tv0 & Na & KIND) AF.
    assert (IL : ids_lt (len st) tv).
    { destruct KIND as [(bs & ps & -> & -> & _)|[(m & ->) _]]; [|exact Logic.I].
      split; [apply (cl_vars _ CL _ _ _ Na) | apply (cl_scalar _ CL _ _ _ Na)]. }
    assert (I0 : Inv (with_var st tv)).
    { split; [apply closed_with_var; auto|]. split; [apply total_with_var; auto|].
      intros i trs m X. apply nth_with_var in X as [[_ X]|[_ X]]; [exact (PL _ _ _ X)|].
      destruct KIND as [(bs & ps & -> & _)|[(m' & ->) _]]; congruence. }
    pose proof (merge_shape st a b tv I0 CL La Lb Ka Kb D) as MS.
    assert (STEP : match replace_all false [a; b] (len st) (with_var st tv) with
                   | Done _ st' => Inv st'
                   | Fail _ st' => Inv st' /\ vars st' = vars st ++ [tv; Known BError []]
                   | _ => True
                   end).
    { (* each replacement leaves a sound state *)
      cbn [replace_all]. unfold bind at 1.
      assert (L0 : len (with_var st tv) = Datatypes.S (len st)) by apply len_with_var.
      assert (Kn : lookup (repl (with_var st tv)) (len st) = None) by (apply (lookup_fresh _ CL)).
      destruct (replace_one_run (with_var st tv) a (len st) a (len st)) as (s1 & S1 & [[T1 Q1]|[T1 (s3 & Q1 & F3 & I3 & V3)]]);
        auto; try lia; try (constructor; auto; fail); rewrite Q1.
      2:{ split; auto. rewrite V3. cbn. rewrite <- app_assoc. auto. }
      pose proof (same_Inv _ _ S1 I0) as (C1 & T1' & P1).
      assert (C2 : closed (with_repl s1 a (len st))).
      { apply closed_with_repl; auto; rewrite (same_len _ _ S1); lia. }
      assert (I2 : Inv (with_repl s1 a (len st))) by (split; [auto|split; auto]).
      assert (LK2 : forall k, lookup (repl (with_repl s1 a (len st))) k = if a =? k then Some (len st) else lookup (repl s1) k)
        by (intros; cbn; apply lookup_insert, (cl_repl _ C1)).
      assert (K2b : lookup (repl (with_repl s1 a (len st))) b = None).
      { rewrite LK2. replace (a =? b) with false by (symmetry; apply Nat.eqb_neq; auto).
        apply (same_rep _ _ _ S1); auto. }
      assert (K2n : lookup (repl (with_repl s1 a (len st))) (len st) = None).
      { rewrite LK2. replace (a =? len st) with false by (symmetry; apply Nat.eqb_neq; lia).
        apply (same_rep _ _ _ S1); auto. }
      assert (L2' : len (with_repl s1 a (len st)) = Datatypes.S (len st)).
      { change (len (with_repl s1 a (len st))) with (len s1). rewrite (same_len _ _ S1). auto. }
      unfold bind at 1.
      destruct (replace_one_run (with_repl s1 a (len st)) b (len st) b (len st))
        as (s4 & S4 & [[T4 Q4]|[T4 (s5 & Q4 & F5 & I5 & V5)]]);
        auto; try lia; try (constructor; auto; fail); rewrite Q4.
      2:{ split; auto. rewrite V5. cbn. rewrite (sm_vars _ _ S1). cbn. rewrite <- app_assoc. auto. }
      cbn [ret]. pose proof (same_Inv _ _ S4 I2) as (C4 & T4' & P4).
      split; [apply closed_with_repl; auto; rewrite (same_len _ _ S4); lia|]. split; auto. }
    eapply CONST; [exact AF| | |].
    - unfold bind. destruct (replace_all false [a; b] (len st) (with_var st tv)); try contradiction; discriminate.
    - unfold bind. destruct (replace_all false [a; b] (len st) (with_var st tv)); try contradiction; discriminate.
    - assert (NO : new_ok tv).
      { destruct KIND as [(bs & ps & -> & -> & NB)|[(m & ->) _]]; [|exact Logic.I].
        split; [congruence | eapply IDS; eauto]. }
      unfold bind.
      destruct (replace_all false [a; b] (len st) (with_var st tv)) as [u s'|e' s'| |];
        try (split; intros; discriminate).
      2:{ split; [discriminate|]. intros e st' HE H. injection H as <- <-. destruct STEP as [I' V].
          eapply sane_plus; eauto. repeat constructor; auto. }
      split; [|discriminate]. intros new st' H.
      injection H as <- <-. destruct MS as [V E]. split.
      + eapply sane_plus; eauto.
      + eapply prog_merge; eauto. destruct KIND as [(bs & ps & -> & _)|[_ (trs & m & ->)]]; eauto. }
  assert (DIFF : tv1 <> tv2 -> (v1 =? v2) = false).
  { intros D. apply Nat.eqb_neq. congruence. }
  assert (FAIL : forall e, (forall m, after C m v1 v2 st = Fail e st) ->
    settled n st v1 v2).
  { intros e H. eapply CONST; [exact H| | |]; try discriminate. split; [discriminate|].
    intros e' st' _ X. injection X as <- <-. auto. }
  assert (STAY : forall x, (forall m, after C m v1 v2 st = Done x st) ->
    settled n st v1 v2).
  { intros x H. eapply CONST; [exact H| | |]; try discriminate. split; [|discriminate].
    intros new st' X. injection X as <- <-. split; [auto | apply prog_refl]. }
  destruct tv1 as [b1 p1|t1 m1], tv2 as [b2 p2|t2 m2].
  - destruct (base_eq_err b1) as [->|D1].
    { left. apply (INTO v2 v1 p1); auto; [apply Nat.eqb_sym|].
      intros m. unfold after, bind at 1. rewrite R1, R2. reflexivity. }
    destruct (base_eq_err b2) as [->|D2].
    { left. apply (INTO v1 v2 p2); auto.
      intros m. unfold after, bind at 1. rewrite R1, R2. destruct b1; try congruence; reflexivity. }
    assert (AF : forall m, after C m v1 v2 st =
      (r <- unify_known C (unify_inner C m) v1 v2 b1 p1 b2 p2 ;;
       replace_all (v1 =? v2) (snd r) (fst r) ;;; ret (fst r)) st).
    { intros m. unfold after, bind at 1. rewrite R1, R2. destruct b1, b2; try congruence; reflexivity. }
    assert (PAR : forall b, b1 = b -> b2 = b ->
      (forall m, unify_known C (unify_inner C m) v1 v2 b1 p1 b2 p2 =
         (unify_params_checked (unify_inner C m) p1 p2 ;;; ret (v1, []))) ->
      settled n st v1 v2 \/
      (exists b p1' p2', Some (Known b1 p1) = Some (Known b p1') /\ Some (Known b2 p2) = Some (Known b p2') /\
      length p1' = length p2' /\
      forall m, after C m v1 v2 st = (unify_params (unify_inner C m) p1' p2' ;;; ret v1) st)).
    { intros b -> -> UK. unfold unify_params_checked in UK.
      destruct (length p1 =? length p2) eqn:LE.
      - right. exists b, p1, p2. apply Nat.eqb_eq in LE. repeat split; auto.
        intros m. rewrite AF, UK. unfold bind.
        destruct (unify_params (unify_inner C m) p1 p2 st); reflexivity.
      - left. apply (FAIL ENormal). intros m. rewrite AF, UK. reflexivity. }
    destruct b1, b2; try congruence;
      try (left; apply (FAIL ENormal); intros m; rewrite AF; reflexivity);
      try (eapply PAR; reflexivity).
    + destruct (n0 =? n1) eqn:E.
      * apply Nat.eqb_eq in E. subst n1. eapply PAR; try reflexivity.
        intros m. cbn [unify_known]. rewrite !declared, Nat.eqb_refl. auto.
      * left. apply (FAIL ENormal). intros m. rewrite AF. cbn [unify_known]. rewrite !declared, E. reflexivity.
    + left. destruct (z =? z0)%Z eqn:E.
      * apply (STAY v1). intros m. rewrite AF. cbn [unify_known]. rewrite E. reflexivity.
      * apply (FAIL ENormal). intros m. rewrite AF. cbn [unify_known]. rewrite E. reflexivity.
    + left. destruct (Bool.eqb b b0) eqn:E.
      * apply (STAY v1). intros m. rewrite AF. cbn [unify_known]. rewrite E. reflexivity.
      * apply (FAIL ENormal). intros m. rewrite AF. cbn [unify_known]. rewrite E. reflexivity.
    + left. destruct (str_eqb s s0) eqn:E.
      * apply (STAY v1). intros m. rewrite AF. cbn [unify_known]. rewrite E. reflexivity.
      * apply (FAIL ENormal). intros m. rewrite AF. cbn [unify_known]. rewrite E. reflexivity.
  - left. destruct (base_eq_err b1) as [->|D1].
    { apply (INTO v2 v1 p1); auto; [apply Nat.eqb_sym|].
      intros m. unfold after, bind at 1. rewrite R1, R2. reflexivity. }
    assert (DV : (v1 =? v2) = false) by (apply DIFF; discriminate).
    rewrite (PL _ _ _ E2) in *. destruct (kind_fits b1 m2) eqn:KF.
    + apply (MERGE v1 v2 (Known b1 p1)); auto; eauto 10.
      * apply Nat.eqb_neq. auto.
      * intros m. unfold after, bind at 1. rewrite R1, R2, DV. unfold bind at 1. rewrite ensure_plain.
        cbn [unify_impls bind ret]. rewrite KF. destruct b1; try congruence; reflexivity.
    + apply (FAIL EMeta). intros m. unfold after, bind at 1. rewrite R1, R2. unfold bind at 1.
      rewrite ensure_plain. cbn [unify_impls bind ret]. rewrite KF. destruct b1; try congruence; reflexivity.
  - left. destruct (base_eq_err b2) as [->|D2].
    { apply (INTO v1 v2 p2); auto.
      intros m. unfold after, bind at 1. rewrite R1, R2. reflexivity. }
    assert (DV : (v1 =? v2) = false) by (apply DIFF; discriminate).
    rewrite (PL _ _ _ E1) in *. destruct (kind_fits b2 m1) eqn:KF.
    + apply (MERGE v2 v1 (Known b2 p2)); auto; eauto 10.
      * apply Nat.eqb_neq in DV. auto.
      * intros m. unfold after, bind at 1. rewrite R1, R2, DV. unfold bind at 1. rewrite ensure_plain.
        cbn [unify_impls bind ret]. rewrite KF. destruct b2; try congruence; reflexivity.
    + apply (FAIL EMeta). intros m. unfold after, bind at 1. rewrite R1, R2. unfold bind at 1.
      rewrite ensure_plain. cbn [unify_impls bind ret]. rewrite KF. destruct b2; try congruence; reflexivity.
  - left. rewrite (PL _ _ _ E1), (PL _ _ _ E2) in *.
    destruct (unify_meta m1 m2) as [m|] eqn:UM.
    + assert (AF : forall k, after C k v1 v2 st =
        (replace_all (v1 =? v2) [v1; v2] (len st) ;;; ret (len st)) (with_var st (Unknown [] m))).
      { intros k. unfold after, bind at 1. rewrite R1, R2, UM. destruct m; reflexivity. }
      destruct (v1 =? v2) eqn:SM.
      * eapply CONST; [exact AF| | |]; try discriminate. split; [|discriminate].
        intros new st' H. cbn in H. injection H as <- <-. split.
        -- apply (sane_plus st _ [Unknown [] m]); auto; [|repeat constructor].
           split; [apply closed_with_var; cbn; auto|]. split; [apply total_with_var; cbn; auto|].
           intros i trs m' X. apply nth_with_var in X as [[_ X]|[_ X]]; [exact (PL _ _ _ X) | congruence].
        -- apply (prog_with_var N st (Unknown [] m)); auto.
      * apply (MERGE v1 v2 (Unknown [] m)); auto; eauto 10. apply Nat.eqb_neq. auto.
    + apply (FAIL EMeta). intros k. unfold after, bind at 1. rewrite R1, R2, UM. reflexivity.
Qed.

Lemma inner_calls n : calls (unify_inner C n).
Proof.
  induction n as [|n IH]; intros st e1 e2 new st' S L1 L2 H; [discriminate|].
  rewrite unify_inner_eq in H. unfold bind in H.
  pose proof (sn_inv _ _ _ S) as I. pose proof (sn_len _ _ _ S) as LN.
  destruct (get_type_run st e1 I) as (v1 & s1 & G1 & X1 & Y1 & S1); [lia|]. rewrite G1 in H.
  pose proof (same_Inv _ _ S1 I) as I1.
  destruct (get_type_run s1 e2 I1) as (v2 & s2 & G2 & X2 & Y2 & S2);
    [rewrite (same_len _ _ S1); lia|]. rewrite G2 in H.
  pose proof (same_trans _ _ _ S1 S2) as SA.
  pose proof (sane_same _ _ _ _ SA S) as SS.
  apply (sm_req _ _ S1) in X2.
  assert (K1 : lookup (repl s2) v1 = None) by (apply (same_rep _ _ _ SA), (ends_rep _ _ _ X1)).
  assert (K2 : lookup (repl s2) v2 = None) by (apply (same_rep _ _ _ SA), (ends_rep _ _ _ X2)).
  apply (sm_req _ _ SA) in X1, X2.
  destruct (after_cases n s2 v1 v2 SS K1 K2) as [(r & A & _ & _ & _ & B & _)|(b & p1 & p2 & A1 & A2 & _ & A)]; eauto.
  - destruct (B new st') as [P Q]; [congruence|]. split; auto.
    eapply prog_trans; [apply prog_same; exact SA | auto].
  - rewrite A in H. unfold bind in H.
    destruct (unify_params (unify_inner C n) p1 p2 s2) as [u s3| | |] eqn:E; try discriminate.
    injection H as <- <-.
    destruct (params_prog _ IH p1 p2 s2 u s3 SS (sn_ids _ _ _ SS _ _ _ A1) (sn_ids _ _ _ SS _ _ _ A2) E) as [P Q].
    split; auto. eapply prog_trans; [apply prog_same; exact SA | auto].
Qed.

Lemma inner_fails n : fails (unify_inner C n).
Proof.
  induction n as [|n IH]; intros st e1 e2 e st' HE S L1 L2 H; [discriminate|].
  rewrite unify_inner_eq in H. unfold bind in H.
  pose proof (sn_inv _ _ _ S) as I. pose proof (sn_len _ _ _ S) as LN.
  destruct (get_type_run st e1 I) as (v1 & s1 & G1 & X1 & Y1 & S1); [lia|]. rewrite G1 in H.
  pose proof (same_Inv _ _ S1 I) as I1.
  destruct (get_type_run s1 e2 I1) as (v2 & s2 & G2 & X2 & Y2 & S2);
    [rewrite (same_len _ _ S1); lia|]. rewrite G2 in H.
  pose proof (same_trans _ _ _ S1 S2) as SA.
  pose proof (sane_same _ _ _ _ SA S) as SS.
  apply (sm_req _ _ S1) in X2.
  assert (K1 : lookup (repl s2) v1 = None) by (apply (same_rep _ _ _ SA), (ends_rep _ _ _ X1)).
  assert (K2 : lookup (repl s2) v2 = None) by (apply (same_rep _ _ _ SA), (ends_rep _ _ _ X2)).
  apply (sm_req _ _ SA) in X1, X2.
  destruct (after_cases n s2 v1 v2 SS K1 K2) as [(r & A & _ & _ & _ & _ & B)|(b & p1 & p2 & A1 & A2 & _ & A)]; eauto.
  - apply (B e st' HE). congruence.
  - rewrite A in H. unfold bind in H.
    destruct (unify_params (unify_inner C n) p1 p2 s2) as [u s3|e3 s3| |] eqn:E; try discriminate.
    injection H as <- <-.
    exact (params_fail _ (inner_calls n) IH p1 p2 s2 e3 s3 HE SS (sn_ids _ _ _ SS _ _ _ A1) (sn_ids _ _ _ SS _ _ _ A2) E).
Qed.

(** termination, by the number of unknown types and then the size of the type *)
Lemma terminates u : forall s st v1 v2 l t, sane N E0 st -> v1 < N -> v2 < N ->
  covers N st l -> length l <= u -> Resolves st v1 t -> tsize t <= s ->
  exists n, unify_inner C n v1 v2 st <> NoFuel.
Proof.
  induction u as [u IHu] using (well_founded_induction lt_wf).
  induction s as [s IHs] using (well_founded_induction lt_wf).
  intros st e1 e2 l t S L1 L2 CV LU RT LS.
  pose proof (sn_inv _ _ _ S) as I. pose proof (sn_len _ _ _ S) as LN.
  destruct (get_type_run st e1 I) as (v1 & s1 & G1 & X1 & Y1 & S1); [lia|].
  pose proof (same_Inv _ _ S1 I) as I1.
  destruct (get_type_run s1 e2 I1) as (v2 & s2 & G2 & X2 & Y2 & S2);
    [rewrite (same_len _ _ S1); lia|].
  pose proof (same_trans _ _ _ S1 S2) as SA.
  pose proof (sane_same _ _ _ _ SA S) as SS.
  apply (sm_req _ _ S1) in X2.
  assert (K1 : lookup (repl s2) v1 = None) by (apply (same_rep _ _ _ SA), (ends_rep _ _ _ X1)).
  assert (K2 : lookup (repl s2) v2 = None) by (apply (same_rep _ _ _ SA), (ends_rep _ _ _ X2)).
  apply (sm_req _ _ SA) in X1, X2.
  assert (RUN : forall n, unify_inner C (Datatypes.S n) e1 e2 st = after C n v1 v2 s2).
  { intros n. rewrite unify_inner_eq. unfold bind. rewrite G1, G2. auto. }
  destruct (after_cases 0 s2 v1 v2 SS K1 K2) as [(r & A & B & _)|(b & p1 & p2 & A1 & A2 & LP & A)]; eauto.
  { exists 1. rewrite RUN. congruence. }
  (* the parameters one after the other *)
  assert (CV2 : covers N s2 l /\ shrinks N st s2).
  { split.
    - intros k r trs m Lk E X. rewrite (sm_vars _ _ SA) in X. apply (sm_req _ _ SA) in E. eauto.
    - intros v t0 _ R. exists t0. split; auto. eapply resolves_req; [apply (sm_vars _ _ SA) | apply (sm_req _ _ SA) | auto]. }
  destruct CV2 as [CV2 _].
  assert (R2 : Resolves s2 e1 t) by (eapply resolves_req; [apply (sm_vars _ _ SA) | apply (sm_req _ _ SA) | auto]).
  assert (SZ : Forall (fun p => exists tp, Resolves s2 p tp /\ tsize tp < s) p1).
  { destruct (resolves_ends _ _ _ R2) as (r & E & R). assert (r = v1) as -> by (eapply ends_det; eauto).
    inversion R as [? j ? LK _|? b' ps ts LK NX F|? ? ? LK NX]; subst; [congruence| |congruence].
    rewrite A1 in NX. injection NX as <- <-. apply Forall_forall. intros p Ip.
    assert (Q : exists tp, In tp ts /\ Resolves s2 p tp).
    { clear - F Ip. induction F; [destruct Ip|]. destruct Ip as [->|Ip]; [exists y; split; [left|]; auto|].
      destruct (IHF Ip) as (tp & X & Y). exists tp. split; [right|]; auto. }
    destruct Q as (tp & X & Y). exists tp. split; auto. pose proof (tsize_in _ b _ X). lia. }
  assert (GO : forall p1 p2 si, sane N E0 si -> Forall (fun p => p < N) p1 -> Forall (fun p => p < N) p2 ->
     ((exists l', covers N si l' /\ length l' < u) \/
      (covers N si l /\ Forall (fun p => exists tp, Resolves si p tp /\ tsize tp < s) p1)) ->
     exists n, unify_params (unify_inner C n) p1 p2 si <> NoFuel).
  { clear - IHu IHs LU declared. induction p1 as [|a p1 IHp]; intros [|b p2] si SI F1 F2 MS;
      try (exists 0; discriminate).
    inversion F1; inversion F2; subst. cbn [unify_params].
    assert (TA : exists n, unify_inner C n a b si <> NoFuel).
    { destruct MS as [(l' & CV' & L')|[CV' SZ]].
      - destruct (proj1 (proj2 (sn_inv _ _ _ SI)) a) as (ta & Ra); [pose proof (sn_len _ _ _ SI); lia|].
        apply (IHu (length l') L' (tsize ta) si a b l' ta); auto.
      - inversion SZ as [|? ? (ta & Ra & La) _]; subst.
        apply (IHs (tsize ta) La si a b l ta); auto. }
    destruct TA as (na & TA).
    destruct (unify_inner C na a b si) as [x s1|e s1| |] eqn:EA.
    - destruct (inner_calls na si a b x s1 SI H1 H5 EA) as [S1 P1].
      destruct (IHp p2 s1) as (np & TP); auto.
      { destruct MS as [(l' & CV' & L')|[CV' SZ]].
        - left. destruct (P1 l' CV') as [(l'' & X & Y)|[X _]]; [exists l''; split; auto; lia | eauto].
        - destruct (P1 l CV') as [(l'' & X & Y)|[X SH]]; [left; exists l''; split; auto; lia|].
          right. split; auto. inversion SZ as [|? ? _ SZ']; subst.
          rewrite Forall_forall in SZ' |- *. intros p Ip. destruct (SZ' p Ip) as (tp & R & Lt).
          rewrite Forall_forall in H2. destruct (SH p tp (H2 p Ip) R) as (tp' & R' & Lt').
          exists tp'. split; auto. lia. }
      exists (Nat.max na np). unfold bind.
      rewrite (fuel_mono C na (Nat.max na np)); [|lia|congruence]. rewrite EA.
      intros X.
      destruct (unify_params_mono _ _ (unify_inner_ile C np (Nat.max na np) (Nat.le_max_r _ _)) p1 p2 s1) as [E|E];
        congruence.
    - exists na. unfold bind. rewrite EA. discriminate.
    - exists na. unfold bind. rewrite EA. discriminate.
    - congruence. }
  destruct (GO p1 p2 s2 SS (sn_ids _ _ _ SS _ _ _ A1) (sn_ids _ _ _ SS _ _ _ A2)) as (n & TN); [right; split; auto|].
  exists (Datatypes.S n). rewrite RUN, A. unfold bind.
  destruct (unify_params (unify_inner C n) p1 p2 s2); [discriminate|discriminate|discriminate|congruence].
Qed.
End Declared.

(** the error type has no parameters, and is only where [E] says *)
Definition leaf (E : nat -> Prop) (st : state) : Prop :=
  forall i ps, nth_error (vars st) i = Some (Known BError ps) -> ps = [] /\ E i.

Section Top.
Variable C : context.
Hypothesis declared : forall n, sym C n = SDeclared.
Variable E0 : nat -> Prop.

Lemma sane_self st : Inv st -> leaf E0 st -> sane (len st) E0 st.
Proof. intros I L. constructor; auto. apply (cl_vars _ (proj1 I)). Qed.

Lemma cover_self st : Inv st -> covers (len st) st (seq 0 (len st)).
Proof.
  intros I k r trs m L E X. apply in_seq. split; [lia|]. cbn.
  eapply ends_lt; [apply (proj1 I) | exact L | exact E].
Qed.

Theorem inner_terminates st v1 v2 : Inv st -> leaf E0 st -> v1 < len st -> v2 < len st ->
  exists n, unify_inner C n v1 v2 st <> NoFuel.
Proof.
  intros I L L1 L2. destruct (proj1 (proj2 I) v1 L1) as (t & R).
  eapply (terminates C declared (len st) E0 (length (seq 0 (len st))) (tsize t)); eauto using sane_self, cover_self.
Qed.

Lemma inner_leaf n st v1 v2 new st' : Inv st -> leaf E0 st -> v1 < len st -> v2 < len st ->
  unify_inner C n v1 v2 st = Done new st' -> Inv st' /\ leaf E0 st'.
Proof.
  intros I L L1 L2 H.
  destruct (inner_calls C declared (len st) E0 n st v1 v2 new st' (sane_self _ I L) L1 L2 H) as [S _].
  split; [apply (sn_inv _ _ _ S) | exact (sn_leaf _ _ _ S)].
Qed.

Lemma inner_leaf_fail n st v1 v2 e st' : (forall i, E0 i) -> Inv st -> leaf E0 st -> v1 < len st -> v2 < len st ->
  unify_inner C n v1 v2 st = Fail e st' -> Inv st' /\ leaf E0 st'.
Proof.
  intros HE I L L1 L2 H.
  pose proof (inner_fails C declared (len st) E0 n st v1 v2 e st' HE (sane_self _ I L) L1 L2 H) as S.
  split; [apply (sn_inv _ _ _ S) | exact (sn_leaf _ _ _ S)].
Qed.

Lemma leaf_with_var st b ps : leaf E0 st -> b <> BError -> leaf E0 (with_var st (Known b ps)).
Proof.
  intros L D i qs X. apply nth_with_var in X as [[_ X]|[_ X]]; [eauto | congruence].
Qed.

Lemma with_scalar st b : Inv st -> scalar b = true -> Inv (with_var st (Known b [])).
Proof.
  intros (A & B & P) S.
  assert (IL : ids_lt (len st) (Known b [])) by (split; auto).
  split; [apply closed_with_var; auto|]. split; [apply total_with_var; auto|].
  intros i trs m N. apply nth_with_var in N as [[_ N]|[_ N]]; [eapply P; eauto | discriminate].
Qed.

Lemma infer_known_terminates l : forall st, Inv st -> leaf E0 st ->
  (forall v b, In (v, b) l -> v < len st /\ scalar b = true) ->
  exists n, infer_known (unify_inner C n) l st <> NoFuel /\
    forall u st', infer_known (unify_inner C n) l st = Done u st' -> Inv st' /\ leaf E0 st'.
Proof.
  induction l as [|[v b] l IH]; intros st I L H.
  - exists 0. split; [discriminate|]. intros u st' X. injection X as <- <-. auto.
  - destruct (H v b (or_introl eq_refl)) as [Lv Sb].
    pose proof (with_scalar st b I Sb) as I1.
    pose proof (leaf_with_var st b [] L (scalar_ne _ Sb)) as LF1.
    assert (La : len st < len (with_var st (Known b []))) by (rewrite len_with_var; lia).
    assert (Lb : v < len (with_var st (Known b []))) by lia.
    destruct (inner_terminates _ (len st) v I1 LF1 La Lb) as (n & T).
    cbn [infer_known]. unfold bind, add_type_var.
    change (length (vars st)) with (len st).
    change (set_vars st (vars st ++ [Known b []])) with (with_var st (Known b [])).
    destruct (unify_inner C n (len st) v (with_var st (Known b []))) as [new s1|e s1| |] eqn:E.
    + destruct (inner_leaf n _ _ _ _ _ I1 LF1 La Lb E) as [I2 LF2].
      pose proof (unify_inner_ok C declared n _ _ _ I1 La Lb) as OK. rewrite E in OK.
      pose proof (frame_len _ _ (sp_frame _ _ _ _ (proj1 OK))) as FL.
      destruct (IH s1 I2 LF2) as (m & T1 & T2).
      { intros v0 b0 X. destruct (H v0 b0 (or_intror X)). split; auto. lia. }
      exists (Nat.max n m).
      assert (E1 : infer_known (unify_inner C (Nat.max n m)) l s1 = infer_known (unify_inner C m) l s1).
      { destruct (infer_known_mono _ _ (unify_inner_ile C m (Nat.max n m) (Nat.le_max_r _ _)) l s1) as [Q|Q];
          [contradiction | congruence]. }
      rewrite (fuel_mono C n (Nat.max n m)); [|lia|congruence]. rewrite E, E1. auto.
    + exists n. rewrite E. destruct e; split; try discriminate.
    + exists n. rewrite E. split; discriminate.
    + congruence.
Qed.

Lemma infer_known_leaf n l : forall st, Inv st -> leaf E0 st ->
  (forall v b, In (v, b) l -> v < len st /\ scalar b = true) ->
  match infer_known (unify_inner C n) l st with
  | Done _ st' => Inv st' /\ leaf E0 st'
  | Fail _ st' => (forall i, E0 i) -> leaf E0 st'
  | _ => True
  end.
Proof.
  induction l as [|[v b] l IH]; intros st I L H; [cbn; auto|].
  destruct (H v b (or_introl eq_refl)) as [Lv Sb].
  pose proof (with_scalar st b I Sb) as I1.
  pose proof (leaf_with_var st b [] L (scalar_ne _ Sb)) as LF1.
  assert (La : len st < len (with_var st (Known b []))) by (rewrite len_with_var; lia).
  assert (Lb : v < len (with_var st (Known b []))) by lia.
  cbn [infer_known]. unfold bind, add_type_var.
  change (length (vars st)) with (len st).
  change (set_vars st (vars st ++ [Known b []])) with (with_var st (Known b [])).
  destruct (unify_inner C n (len st) v (with_var st (Known b []))) as [new s1|e s1| |] eqn:E; auto.
  - destruct (inner_leaf n _ _ _ _ _ I1 LF1 La Lb E) as [I2 LF2].
    pose proof (unify_inner_ok C declared n _ _ _ I1 La Lb) as OK. rewrite E in OK.
    pose proof (frame_len _ _ (sp_frame _ _ _ _ (proj1 OK))) as FL.
    apply IH; auto. intros v0 b0 X. destruct (H v0 b0 (or_intror X)). split; auto. lia.
  - assert (X : (forall i, E0 i) -> leaf E0 s1).
    { intros HE. exact (proj2 (inner_leaf_fail n _ _ _ _ _ HE I1 LF1 La Lb E)). }
    destruct e; exact X.
Qed.

Lemma loop_leaf n : forall k st, TInv st -> leaf E0 st ->
  match constraint_loop (unify_inner C n) k st with
  | Done _ st' => leaf E0 st'
  | Fail _ st' => (forall i, E0 i) -> leaf E0 st'
  | _ => True
  end.
Proof.
  induction k as [|k IH]; intros st TI L; [exact Logic.I|]. pose proof TI as [I CL].
  cbn [constraint_loop]. pose proof (update_ok st (proj1 I) (total_chains _ (proj1 I) (proj1 (proj2 I))) (cons st) CL) as U.
  destruct (update_constraints st (cons st)) as [[rem known]|]; [|exact Logic.I].
  destruct U as (EQ & LR & SUB & KN & LEN).
  destruct known as [|kv known]; [exact L|].
  set (kn := kv :: known) in *. set (s1 := set_cons st rem).
  assert (I1 : Inv s1) by (apply inv_set_cons; auto).
  assert (KN' : forall v b, In (v, b) kn -> v < len s1 /\ scalar b = true).
  { intros v b H. apply KN in H. tauto. }
  pose proof (infer_known_leaf n kn s1 I1 L KN') as X. unfold bind.
  pose proof (infer_known_ok _ (unify_inner_ok C declared n) kn s1 I1 KN') as OK.
  destruct (infer_known (unify_inner C n) kn s1) as [u s2|e s2| |] eqn:E; auto.
  destruct X as [I2 L2]. apply IH; auto.
  pose proof (sp_frame _ _ _ _ OK) as F. pose proof (fr_cons _ _ F) as FC. cbn in FC.
  split; auto. rewrite FC. eapply cons_lt_mono; [apply (frame_len _ _ F) | exact LR].
Qed.

Theorem unify_leaf n st v1 v2 : TInv st -> leaf E0 st -> v1 < len st -> v2 < len st ->
  match unify C n v1 v2 st with
  | Done _ st' => leaf E0 st'
  | Fail _ st' => (forall i, E0 i) -> leaf E0 st'
  | _ => True
  end.
Proof.
  intros TI L L1 L2. unfold unify, unify_with, bind.
  destruct (unify_inner C n v1 v2 st) as [new s1|e s1| |] eqn:E; auto.
  - destruct (inner_leaf n _ _ _ _ _ (proj1 TI) L L1 L2 E) as [I1 LF1].
    pose proof (unify_inner_ok C declared n _ _ _ (proj1 TI) L1 L2) as OK. rewrite E in OK.
    pose proof (tstep_of_step _ _ _ _ TI (proj1 OK)) as TS.
    pose proof (loop_leaf n (S (length (cons s1))) s1 (ts_inv _ _ _ _ TS) LF1) as X.
    destruct (constraint_loop (unify_inner C n) (S (length (cons s1))) s1); auto.
  - intros HE. exact (proj2 (inner_leaf_fail n _ _ _ _ _ HE (proj1 TI) L L1 L2 E)).
Qed.

Lemma loop_terminates : forall k st, TInv st -> leaf E0 st -> length (cons st) < k ->
  exists n, constraint_loop (unify_inner C n) k st <> NoFuel.
Proof.
  induction k as [|k IH]; intros st TI L LK; [lia|]. pose proof TI as [I CL].
  cbn [constraint_loop]. pose proof (update_ok st (proj1 I) (total_chains _ (proj1 I) (proj1 (proj2 I))) (cons st) CL) as U.
  destruct (update_constraints st (cons st)) as [[rem known]|]; [|exists 0; discriminate].
  destruct U as (EQ & LR & SUB & KN & LEN).
  destruct known as [|kv known]; [exists 0; discriminate|].
  set (kn := kv :: known) in *. set (s1 := set_cons st rem).
  assert (I1 : Inv s1) by (apply inv_set_cons; auto).
  destruct (infer_known_terminates kn s1 I1 L) as (n & T1 & T2).
  { intros v b H. apply KN in H. tauto. }
  unfold bind. destruct (infer_known (unify_inner C n) kn s1) as [u s2|e s2| |] eqn:E.
  - destruct (T2 u s2 eq_refl) as [I2 L2].
    pose proof (infer_known_ok _ (unify_inner_ok C declared n) kn s1 I1) as OK. rewrite E in OK.
    assert (F : frame s1 s2).
    { apply (sp_frame _ _ _ _ (OK (fun v b H => conj (proj1 (KN v b H)) (proj1 (proj2 (KN v b H)))))). }
    pose proof (fr_cons _ _ F) as FC. cbn in FC.
    destruct (IH s2) as (m & T).
    { split; auto. rewrite FC. eapply cons_lt_mono; [apply (frame_len _ _ F) | exact LR]. }
    { auto. }
    { rewrite FC. unfold kn in LEN. cbn in LEN. lia. }
    exists (Nat.max n m).
    destruct (infer_known_mono _ _ (unify_inner_ile C n (Nat.max n m) (Nat.le_max_l _ _)) kn s1) as [Q|Q];
      [congruence|]. rewrite <- Q, E.
    destruct (constraint_loop_mono _ _ (unify_inner_ile C m (Nat.max n m) (Nat.le_max_r _ _)) k s2) as [Q'|Q'];
      congruence.
  - exists n. rewrite E. discriminate.
  - exists n. rewrite E. discriminate.
  - congruence.
Qed.

Theorem unify_terminates st v1 v2 : TInv st -> leaf E0 st -> v1 < len st -> v2 < len st ->
  exists n, unify C n v1 v2 st <> NoFuel.
Proof.
  intros TI L L1 L2. destruct (inner_terminates st v1 v2 (proj1 TI) L L1 L2) as (n & T).
  destruct (unify_inner C n v1 v2 st) as [new s1|e s1| |] eqn:E.
  - destruct (inner_leaf n _ _ _ _ _ (proj1 TI) L L1 L2 E) as [I1 LF1].
    pose proof (unify_inner_ok C declared n _ _ _ (proj1 TI) L1 L2) as OK. rewrite E in OK.
    pose proof (tstep_of_step _ _ _ _ TI (proj1 OK)) as TS.
    destruct (loop_terminates (S (length (cons s1))) s1 (ts_inv _ _ _ _ TS) LF1) as (m & Tm); [lia|].
    exists (Nat.max n m). unfold unify, unify_with, bind.
    rewrite (fuel_mono C n (Nat.max n m)); [|lia|congruence]. rewrite E.
    destruct (constraint_loop_mono _ _ (unify_inner_ile C m (Nat.max n m) (Nat.le_max_r _ _)) (S (length (cons s1))) s1) as [Q|Q];
      [congruence|]. rewrite <- Q.
    destruct (constraint_loop (unify_inner C m) (S (length (cons s1))) s1); try discriminate. congruence.
  - exists n. unfold unify, unify_with, bind. rewrite E. discriminate.
  - exists n. unfold unify, unify_with, bind. rewrite E. discriminate.
  - congruence.
Qed.
End Top.
