(** Unification of types without trait bounds: what one call does to the set of
    solutions. *)
From Coq Require Import List Bool Arith ZArith Lia.
From Verif Require Import InferModel InferSpec InferChain InferState.
Import ListNotations.

(** ** Small relations between states *)

(** the same state up to path compression *)
Record same (st st' : state) : Prop := {
  sm_vars : vars st' = vars st;
  sm_cons : cons st' = cons st;
  sm_saved : saved st' = saved st;
  sm_tl : tl (repl st') = tl (repl st);
  sm_nil : repl st' <> [];
  sm_req : InferChain.req (repl st) (repl st')
}.

Definition Inv (st : state) : Prop := closed st /\ total st /\ plain st.

Record frame (st st' : state) : Prop := {
  fr_vars : exists ext, vars st' = vars st ++ ext;
  fr_cons : cons st' = cons st;
  fr_saved : saved st' = saved st;
  fr_tl : tl (repl st') = tl (repl st)
}.

Lemma same_refl st : repl st <> [] -> same st st.
Proof. constructor; auto using req_refl. Qed.

Lemma same_trans a b c : same a b -> same b c -> same a c.
Proof.
  intros [] []. constructor; try congruence. eapply req_trans; eauto.
Qed.

Lemma same_sym a b : repl a <> [] -> same a b -> same b a.
Proof. intros N []. constructor; auto. apply req_sym. auto. Qed.

Lemma same_len a b : same a b -> len b = len a.
Proof. intros []. unfold len. congruence. Qed.

Lemma same_frame a b : same a b -> frame a b.
Proof. intros []. constructor; auto. exists []. rewrite app_nil_r. auto. Qed.

Lemma frame_refl a : frame a a.
Proof. constructor; auto. exists []. rewrite app_nil_r. auto. Qed.

Lemma frame_trans a b c : frame a b -> frame b c -> frame a c.
Proof.
  intros [[x X] ? ? ?] [[y Y] ? ? ?]. constructor; try congruence.
  exists (x ++ y). rewrite Y, X, app_assoc. auto.
Qed.

Lemma frame_len a b : frame a b -> len a <= len b.
Proof. intros [[x X] _ _ _]. unfold len. rewrite X, app_length. lia. Qed.

Lemma frame_nth a b i x : frame a b -> nth_error (vars a) i = Some x -> nth_error (vars b) i = Some x.
Proof.
  intros [[y X] _ _ _] N. rewrite X, nth_error_app1; auto. apply nth_error_Some. congruence.
Qed.

Lemma same_rep a b i : same a b -> (lookup (repl b) i = None <-> lookup (repl a) i = None).
Proof.
  intros S. pose proof (sm_req _ _ S) as Q. split; intros E.
  - assert (H : ends (repl b) i i) by (constructor; auto). apply Q, ends_rep in H. auto.
  - assert (H : ends (repl a) i i) by (constructor; auto). apply Q, ends_rep in H. auto.
Qed.

Lemma same_total a b : same a b -> total a -> total b.
Proof.
  intros S T v L. rewrite (same_len _ _ S) in L. destruct (T v L) as (t & H). exists t.
  eapply resolves_req; [apply (sm_vars _ _ S) | apply (sm_req _ _ S) | auto].
Qed.

Lemma same_closed a b : closed a -> chains a -> same a b -> closed b.
Proof.
  intros C CH S. constructor.
  - apply (sm_nil _ _ S).
  - intros k j E. rewrite (same_len _ _ S).
    assert (K : k < len a).
    { destruct (lookup (repl a) k) as [j0|] eqn:F; [apply (cl_keys _ C) in F; lia|].
      apply (same_rep _ _ k S) in F. congruence. }
    split; auto.
    assert (X : exists r, ends (repl b) j r).
    { destruct (CH j) as (r & H). exists r. apply (sm_req _ _ S). auto. }
    destruct X as (r & X).
    destruct (lt_dec j (len a)) as [|N]; auto. exfalso.
    assert (F : lookup (repl a) j = None).
    { destruct (lookup (repl a) j) eqn:F; auto. apply (cl_keys _ C) in F. lia. }
    apply (same_rep _ _ j S) in F. apply ends_self in X; auto. subst r.
    assert (Y : ends (repl b) k j) by (econstructor; [eauto | constructor; auto]).
    apply (sm_req _ _ S) in Y. apply (ends_lt _ _ _ C K) in Y. lia.
  - intros i b0 ps N. rewrite (same_len _ _ S). rewrite (sm_vars _ _ S) in N. eapply cl_vars; eauto.
  - intros i b0 ps N. rewrite (sm_vars _ _ S) in N. eapply cl_scalar; eauto.
Qed.

Lemma same_plain a b : same a b -> plain a -> plain b.
Proof. intros S P i trs m N. rewrite (sm_vars _ _ S) in N. eauto. Qed.

Lemma same_Inv a b : same a b -> Inv a -> Inv b.
Proof.
  intros S (C & T & P). pose proof (total_chains _ C T) as CH.
  split; [eapply same_closed; eauto | split; [eapply same_total; eauto | eapply same_plain; eauto]].
Qed.

Lemma same_sol a b rho : same a b -> (Sol b rho <-> Sol a rho).
Proof.
  intros S. split; apply sol_req.
  - symmetry. apply (sm_vars _ _ S).
  - apply req_sym, (sm_req _ _ S).
  - apply (sm_vars _ _ S).
  - apply (sm_req _ _ S).
Qed.

Lemma sol_agree st rho rho' : closed st -> agree (len st) rho rho' -> Sol st rho -> Sol st rho'.
Proof.
  intros C G [A B]. split.
  - intros k r E. destruct (lt_dec k (len st)) as [L|L].
    + rewrite <- !G; auto. eapply ends_lt; eauto.
    + assert (r = k); [|congruence]. eapply ends_self; eauto.
      destruct (lookup (repl st) k) eqn:K; auto. apply (cl_keys _ C) in K. lia.
  - intros i tv N L. specialize (B _ _ N L).
    assert (I : i < len st) by (apply nth_error_Some; congruence).
    destruct tv as [b ps|trs m]; cbn in *.
    + rewrite <- G, B by auto. f_equal. apply map_ext_in. intros p Ip.
      apply G. pose proof (cl_vars _ C _ _ _ N) as F. rewrite Forall_forall in F. auto.
    + rewrite <- G; auto.
Qed.

(** ** The error type stays apart *)

Definition err_id (st : state) (i : nat) : Prop := exists ps, nth_error (vars st) i = Some (Known BError ps).

Record NE (st : state) : Prop := {
  ne_ends : forall k r, ends (repl st) k r -> err_id st r -> k = r;
  ne_params : forall i b ps p, nth_error (vars st) i = Some (Known b ps) -> In p ps -> ~ err_id st p
}.

Lemma same_err a b i : same a b -> (err_id b i <-> err_id a i).
Proof. intros S. unfold err_id. rewrite (sm_vars _ _ S). tauto. Qed.

Lemma same_NE a b : same a b -> NE a -> NE b.
Proof.
  intros S [E P]. constructor.
  - intros k r H X. apply E; [apply (sm_req _ _ S); auto | apply (same_err _ _ _ S); auto].
  - intros i b0 ps p N I X. rewrite (sm_vars _ _ S) in N. apply (P _ _ _ _ N I).
    apply (same_err _ _ _ S). auto.
Qed.

Lemma frame_err a b i : frame a b -> i < len a -> (err_id b i <-> err_id a i).
Proof.
  intros [[x X] _ _ _] L. unfold err_id. rewrite X, nth_error_app1 by auto. tauto.
Qed.

(** ** Steps *)

Definition no_meta (m : meta) (st : state) : Prop :=
  forall i trs, nth_error (vars st) i <> Some (Unknown trs m).
Definition mixfree (st : state) : Prop := no_meta MInt st \/ no_meta MUint st.

(** [st'] has exactly the solutions of [st] that satisfy [P], extended to the new
    variables; the half that says so for every solution of [st'] needs [A] and no
    error type around. *)
Record step (st st' : state) (P : (nat -> ty) -> Prop) (A : Prop) : Prop := {
  sp_frame : frame st st';
  sp_inv : Inv st';
  sp_meta : forall m, no_meta m st -> no_meta m st';
  sp_complete : forall rho, Sol st rho -> P rho ->
    exists rho', Sol st' rho' /\ agree (len st) rho rho';
  sp_sound : NE st -> A -> NE st' /\ forall rho, Sol st' rho -> Sol st rho /\ P rho
}.

Lemma step_weaken st st' (P P' : (nat -> ty) -> Prop) (A A' : Prop) : step st st' P A ->
  (forall rho, Sol st rho -> (P rho <-> P' rho)) -> (NE st -> A' -> A) -> step st st' P' A'.
Proof.
  intros [F I M C S] HP HA. constructor; auto.
  - intros rho H p. apply C; auto. apply HP; auto.
  - intros N a. destruct (S N (HA N a)) as [X Y]. split; auto.
    intros rho H. destruct (Y rho H) as [H1 H2]. split; auto. apply HP; auto.
Qed.

Lemma step_same a b (P : (nat -> ty) -> Prop) : Inv a -> same a b -> (forall rho, Sol a rho -> P rho) -> forall A : Prop, step a b P A.
Proof.
  intros I S T A. constructor.
  - apply same_frame; auto.
  - eapply same_Inv; eauto.
  - intros m M i trs N. rewrite (sm_vars _ _ S) in N. eapply M; eauto.
  - intros rho H _. exists rho. split; [apply (same_sol _ _ _ S); auto | intros i _; auto].
  - intros N _. split; [eapply same_NE; eauto|]. intros rho H. apply (same_sol _ _ _ S) in H. auto.
Qed.

Lemma step_trans a b c (P Q : (nat -> ty) -> Prop) (A B : Prop) : Inv a ->
  step a b P A -> step b c Q B ->
  (forall rho rho', agree (len a) rho rho' -> Q rho -> Q rho') ->
  (NE a -> A -> B) ->
  step a c (fun rho => P rho /\ Q rho) A.
Proof.
  intros I [F1 I1 M1 C1 S1] [F2 I2 M2 C2 S2] G HB. constructor; auto.
  - eapply frame_trans; eauto.
  - intros rho H [p q]. destruct (C1 rho H p) as (r1 & H1 & G1).
    destruct (C2 r1 H1) as (r2 & H2 & G2); [eapply G; eauto|].
    exists r2. split; auto. intros i L. rewrite G1 by auto. apply G2.
    pose proof (frame_len _ _ F1). lia.
  - intros N a0. destruct (S1 N a0) as [N1 X1]. destruct (S2 N1 (HB N a0)) as [N2 X2].
    split; auto. intros rho H. destruct (X2 rho H) as [H1 q]. destruct (X1 rho H1) as [H0 p]. auto.
Qed.

(** ** Lookups *)

Lemma get_type_run st v : Inv st -> v < len st ->
  exists r st', get_type v st = Done r st' /\ ends (repl st) v r /\ r < len st /\ same st st'.
Proof.
  intros (C & T & P) L. pose proof (total_chains _ C T) as CH. destruct (CH v) as (r & E).
  destruct (get_spec _ _ _ (cl_repl _ C) E) as (R & G & Q & TL & N).
  exists r, (set_repl st R). unfold get_type. rewrite G.
  split; [auto|]. split; [auto|]. split; [eapply ends_lt; eauto|].
  constructor; auto.
Qed.

(** ** A replacement *)

Lemma total_change st st' :
  (forall i tv, nth_error (vars st) i = Some tv -> nth_error (vars st') i = Some tv) ->
  (forall k, lookup (repl st') k = lookup (repl st) k \/ exists t, Resolves st' k t) ->
  forall v t, Resolves st v t -> exists t', Resolves st' v t'.
Proof.
  intros HV HL v t H. induction H using Resolves_ind2.
  - destruct IHResolves as (t' & H'). destruct (HL v) as [E|X]; auto.
    exists t'. eapply res_link; eauto. congruence.
  - destruct (HL v) as [E|X]; auto.
    assert (X : exists ts', Forall2 (Resolves st') ps ts').
    { clear - H2. induction H2 as [|p t ps ts [t' H] F (ts' & IH)].
      - exists []. constructor.
      - exists (t' :: ts'). constructor; auto. }
    destruct X as (ts' & X). exists (TK b ts'). eapply res_known; eauto. congruence.
  - destruct (HL v) as [E|X]; auto. eexists. eapply res_unknown; eauto. congruence.
Qed.

Lemma replace_one_run st r new from to : Inv st -> r < len st -> new < len st ->
  ends (repl st) r from -> ends (repl st) new to -> from <> to ->
  exists st1, same st st1 /\
    ((total (with_repl st1 from to) /\ replace_one r new st = Done tt (with_repl st1 from to)) \/
     (~ total (with_repl st1 from to) /\
      exists st3, replace_one r new st = Fail ERecursive st3 /\ frame st st3 /\ Inv st3 /\
        vars st3 = vars st ++ [Known BError []])).
Proof.
  intros I Lr Ln Er En D.
  destruct (get_type_run st r I Lr) as (x & s1 & G1 & E1 & L1 & S1).
  assert (x = from) as -> by (eapply ends_det; eauto). clear E1.
  pose proof (same_Inv _ _ S1 I) as I1.
  destruct (get_type_run s1 new I1) as (y & s2 & G2 & E2 & L2 & S2);
    [rewrite (same_len _ _ S1); auto|].
  assert (y = to) as ->.
  { apply (sm_req _ _ S1) in E2. eapply ends_det; eauto. }
  pose proof (same_trans _ _ _ S1 S2) as SA. pose proof (same_Inv _ _ SA I) as I2.
  exists s2. split; auto.
  set (s3 := with_repl s2 from to).
  assert (EQ : replace_one r new st = check_recursion to s3)
    by (unfold replace_one, bind; rewrite G1, G2; reflexivity).
  rewrite EQ. clear EQ.
  destruct I2 as (C & T & P). pose proof (total_chains _ C T) as CH.
  assert (Kf : lookup (repl s2) from = None) by (apply (same_rep _ _ _ SA), (ends_rep _ _ _ Er)).
  assert (Kt : lookup (repl s2) to = None) by (apply (same_rep _ _ _ SA), (ends_rep _ _ _ En)).
  rewrite (same_len _ _ S1) in L2.
  assert (L1' : from < len s2) by (rewrite (same_len _ _ SA); auto).
  assert (L2' : to < len s2) by (rewrite (same_len _ _ SA); auto).
  assert (C3 : closed s3) by (apply closed_with_repl; auto).
  assert (CH3 : chains s3) by (apply chains_with_repl; auto).
  assert (P3 : plain s3) by exact P.
  unfold check_recursion. change (length (vars s3)) with (len s3).
  destruct (check_rec (S (len s3)) s3 [] to) as [[|]|] eqn:E.
  - right. split.
    + intros T3. destruct (T3 to) as (t & H); [exact L2'|].
      apply (check_rec_finite s3 P3 _ _ _ _ H) in E; auto. intros k [].
    + set (st3 := with_repl (with_var s3 (Known BError [])) to (len s3)).
      exists st3. split; [reflexivity|]. split.
      * eapply frame_trans; [apply same_frame; exact SA|]. constructor; cbn.
        -- eauto.
        -- auto.
        -- auto.
        -- rewrite !insert_tl. auto.
      * split; [|cbn; rewrite (sm_vars _ _ SA); reflexivity].
        assert (C4 : closed st3).
        { apply closed_with_repl.
          - apply closed_with_var; auto. split; [constructor | auto].
          - rewrite len_with_var. change (len s3) with (len s2). lia.
          - rewrite len_with_var. lia. }
        assert (LK : forall k, lookup (repl st3) k =
                  if to =? k then Some (len s3) else if from =? k then Some to else lookup (repl s2) k).
        { intros k. unfold st3, with_repl at 1. cbn [repl set_repl with_var set_vars].
          rewrite lookup_insert by apply (cl_repl _ C3).
          unfold s3, with_repl. cbn [repl set_repl]. rewrite lookup_insert by apply (cl_repl _ C). auto. }
        assert (RE : Resolves st3 (len s3) (TK BError [])).
        { eapply res_known.
          - rewrite LK. change (len s3) with (len s2).
            replace (to =? len s2) with false by (symmetry; apply Nat.eqb_neq; lia).
            replace (from =? len s2) with false by (symmetry; apply Nat.eqb_neq; lia).
            apply lookup_fresh. auto.
          - unfold st3. cbn [vars with_repl set_repl]. apply nth_with_var_new.
          - constructor. }
        assert (RT : Resolves st3 to (TK BError [])).
        { eapply res_link; [rewrite LK, Nat.eqb_refl; reflexivity | auto]. }
        assert (RF : Resolves st3 from (TK BError [])).
        { eapply res_link; [rewrite LK | exact RT].
          replace (to =? from) with false by (symmetry; apply Nat.eqb_neq; lia).
          rewrite Nat.eqb_refl. auto. }
        split; [auto|]. split.
        -- intros v L. unfold st3, len in L. cbn [vars with_repl set_repl] in L.
           change (v < len (with_var s3 (Known BError []))) in L. rewrite len_with_var in L.
           destruct (Nat.eq_dec v (len s3)) as [->|Dv]; [eauto|].
           destruct (T v) as (t & H); [change (len s3) with (len s2) in *; lia|].
           eapply total_change; [| |exact H].
           ++ intros i tv N. unfold st3. cbn [vars with_repl set_repl].
              rewrite nth_with_var_old; auto. apply nth_error_Some. change (vars s3) with (vars s2). congruence.
           ++ intros k. rewrite LK. destruct (to =? k) eqn:K1.
              { apply Nat.eqb_eq in K1. subst k. right. eauto. }
              destruct (from =? k) eqn:K2; auto. apply Nat.eqb_eq in K2. subst k. right. eauto.
        -- intros i trs m N. unfold st3 in N. cbn [vars with_repl set_repl] in N.
           apply nth_with_var in N as [[_ N]|[_ N]]; [exact (P3 _ _ _ N) | discriminate].
  - left. split; auto. apply total_with_repl; auto.
    eapply check_rec_false; eauto.
  - exfalso. revert E. apply check_rec_some; auto.
    + constructor.
    + cbn. lia.
Qed.

(** The error type is replaced by nothing new, so [Known BError] with the
    replaced variable: the other side becomes the error type. *)
Lemma step_into st st1 a b : Inv st -> same st st1 -> a < len st -> b < len st ->
  lookup (repl st) a = None -> lookup (repl st) b = None -> a <> b ->
  total (with_repl st1 a b) ->
  step st (with_repl st1 a b) (fun rho => rho a = rho b) False.
Proof.
  intros I S La Lb Ka Kb D T. pose proof (same_Inv _ _ S I) as (C & T1 & P).
  pose proof (total_chains _ C T1) as CH.
  assert (Ka' : lookup (repl st1) a = None) by (apply (same_rep _ _ _ S); auto).
  assert (Kb' : lookup (repl st1) b = None) by (apply (same_rep _ _ _ S); auto).
  constructor.
  - eapply frame_trans; [apply same_frame; exact S|]. constructor; cbn; auto.
    + exists []. rewrite app_nil_r. auto.
    + apply insert_tl.
  - split; [apply closed_with_repl; auto; rewrite (same_len _ _ S); auto|]. split; auto.
  - intros m M i trs N. cbn in N. rewrite (sm_vars _ _ S) in N. eapply M; eauto.
  - intros rho H E. exists rho. split; [|intros i _; auto].
    apply sol_with_repl; auto. apply (same_sol _ _ _ S) in H. destruct H as [H1 H2]. split; auto.
  - intros _ [].
Qed.

(** ** Merging two ends into a new variable *)

Definition upd (f : nat -> ty) (n : nat) (t : ty) : nat -> ty := fun i => if i =? n then t else f i.

Lemma upd_agree f n t : agree n f (upd f n t).
Proof. intros i L. unfold upd. destruct (i =? n) eqn:E; auto. apply Nat.eqb_eq in E. lia. Qed.

Lemma merge_run st a b tv ta tb : Inv st -> a < len st -> b < len st ->
  lookup (repl st) a = None -> lookup (repl st) b = None -> a <> b ->
  nth_error (vars st) a = Some ta -> nth_error (vars st) b = Some tb ->
  ids_lt (len st) tv -> (forall trs m, tv = Unknown trs m -> trs = [] /\ (forall m', no_meta m' st -> m <> m')) ->
  (forall rho, holds rho (len st) tv -> rho a = rho (len st) -> rho b = rho (len st) ->
     holds rho a ta /\ holds rho b tb) ->
  (forall rho, Sol st rho -> rho a = rho b -> holds (upd rho (len st) (rho a)) (len st) tv) ->
  (match tv with Known BError _ => False | Known _ ps => forall p, In p ps -> exists i c qs, nth_error (vars st) i = Some (Known c qs) /\ In p qs | _ => True end) ->
  match replace_all false [a; b] (len st) (with_var st tv) with
  | Done _ st' => len st < len st' /\ step st st' (fun rho => rho a = rho b) (~ err_id st a /\ ~ err_id st b)
  | Fail _ st' => frame st st' /\ Inv st' /\ forall rho, Sol st rho -> rho a = rho b -> False
  | _ => False
  end.
Proof.
  intros I La Lb Ka Kb D Na Nb IL TV HS HC HE.
  pose proof I as (C & T & P). pose proof (total_chains _ C T) as CH.
  set (s0 := with_var st tv). set (new := len st).
  assert (C0 : closed s0) by (apply closed_with_var; auto).
  assert (I0 : Inv s0).
  { split; [auto|]. split; [apply total_with_var; auto|].
    intros i trs m N. apply nth_with_var in N as [[_ N]|[_ N]]; [exact (P _ _ _ N)|].
    symmetry in N. apply TV in N as [-> _]. auto. }
  assert (CH0 : chains s0) by (destruct I0 as (_ & T0 & _); apply total_chains; auto).
  assert (L0 : len s0 = S new) by apply len_with_var.
  assert (Kn : lookup (repl s0) new = None) by (apply (lookup_fresh _ C)).
  assert (F0 : frame st s0) by (constructor; cbn; eauto).
  assert (SOL0 : forall rho, Sol st rho -> rho a = rho b ->
            Sol s0 (upd rho new (rho a)) /\ upd rho new (rho a) a = upd rho new (rho a) new
            /\ upd rho new (rho a) b = upd rho new (rho a) new).
  { intros rho H E. pose proof (upd_agree rho new (rho a)) as G.
    split; [apply sol_with_var; auto; split; [eapply sol_agree; eauto | apply HC; auto]|].
    rewrite <- (G a), <- (G b) by auto. unfold upd. rewrite Nat.eqb_refl. auto. }
  cbn [replace_all]. unfold bind at 1.
  destruct (replace_one_run s0 a new a new) as (s1 & S1 & [[T1 R1]|[T1 (s3 & R1 & F3 & I3 & _)]]);
    auto; try lia; try (constructor; auto; fail); try (unfold new; lia).
  2:{ rewrite R1. split; [eapply frame_trans; eauto|]. split; auto. intros rho H E.
      destruct (SOL0 rho H E) as (H0 & E1 & E2). apply T1.
      pose proof (same_Inv _ _ S1 I0) as (C1 & T1' & P1). pose proof (total_chains _ C1 T1') as CH1.
      apply (sol_total _ (upd rho new (rho a))).
      - apply closed_with_repl; auto; rewrite (same_len _ _ S1); lia.
      - apply chains_with_repl; auto; try (apply (same_rep _ _ _ S1); auto; fail); unfold new; lia.
      - apply sol_with_repl; auto; try (apply (same_rep _ _ _ S1); auto; fail); try (unfold new; lia).
        split; auto. apply (same_sol _ _ _ S1) in H0. destruct H0 as [X Y]. split; auto. }
  rewrite R1. set (s2 := with_repl s1 a new) in *.
  pose proof (same_Inv _ _ S1 I0) as (C1 & T1' & P1). pose proof (total_chains _ C1 T1') as CH1.
  assert (K1a : lookup (repl s1) a = None) by (apply (same_rep _ _ _ S1); auto).
  assert (K1b : lookup (repl s1) b = None) by (apply (same_rep _ _ _ S1); auto).
  assert (K1n : lookup (repl s1) new = None) by (apply (same_rep _ _ _ S1); auto).
  assert (La1 : a < len s1) by (rewrite (same_len _ _ S1); lia).
  assert (Ln1 : new < len s1) by (rewrite (same_len _ _ S1); lia).
  assert (Dn : a <> new) by (unfold new; lia).
  assert (C2 : closed s2) by (apply closed_with_repl; auto).
  assert (I2 : Inv s2) by (split; [auto|split; auto]).
  assert (CH2 : chains s2) by (apply total_chains; auto).
  assert (LK2 : forall k, lookup (repl s2) k = if a =? k then Some new else lookup (repl s1) k)
    by (intros; unfold s2; cbn; apply lookup_insert, (cl_repl _ C1)).
  assert (K2b : lookup (repl s2) b = None).
  { rewrite LK2. replace (a =? b) with false by (symmetry; apply Nat.eqb_neq; auto). auto. }
  assert (K2n : lookup (repl s2) new = None).
  { rewrite LK2. replace (a =? new) with false by (symmetry; apply Nat.eqb_neq; auto). auto. }
  assert (L2 : len s2 = S new) by (change (len s2) with (len s1); rewrite (same_len _ _ S1); auto).
  assert (F2 : frame st s2).
  { eapply frame_trans; [exact F0|]. eapply frame_trans; [apply same_frame; exact S1|].
    constructor; cbn; auto; [exists []; rewrite app_nil_r; auto | apply insert_tl]. }
  assert (SOL2 : forall rho, Sol s2 rho <-> rho a = rho new /\ sol_repl s1 rho /\
      forall i tv, nth_error (vars s1) i = Some tv -> lookup (repl s1) i = None -> i <> a -> holds rho i tv)
    by (intros; apply sol_with_repl; auto).
  unfold bind at 1.
  destruct (replace_one_run s2 b new b new) as (s4 & S4 & [[T4 R4]|[T4 (s5 & R4 & F5 & I5 & _)]]);
    auto; try lia; try (constructor; auto; fail); try (unfold new; lia).
  2:{ rewrite R4. split; [eapply frame_trans; eauto|]. split; auto. intros rho H E.
      destruct (SOL0 rho H E) as (H0 & E1 & E2). apply T4.
      pose proof (same_Inv _ _ S4 I2) as (C4 & T4' & P4). pose proof (total_chains _ C4 T4') as CH4.
      apply (sol_total _ (upd rho new (rho a))).
      - apply closed_with_repl; auto; rewrite (same_len _ _ S4); lia.
      - apply chains_with_repl; auto; try (apply (same_rep _ _ _ S4); auto; fail); unfold new; lia.
      - apply sol_with_repl; auto; try (apply (same_rep _ _ _ S4); auto; fail); try (unfold new; lia).
        split; auto.
        assert (Q : Sol s2 (upd rho new (rho a))).
        { apply SOL2. split; auto. apply (same_sol _ _ _ S1) in H0. destruct H0 as [X Y]. split; auto. }
        apply (same_sol _ _ _ S4) in Q. destruct Q as [X Y]. split; auto. }
  rewrite R4. cbn [ret].
  pose proof (same_Inv _ _ S4 I2) as (C4 & T4' & P4). pose proof (total_chains _ C4 T4') as CH4.
  assert (K4b : lookup (repl s4) b = None) by (apply (same_rep _ _ _ S4); auto).
  assert (K4n : lookup (repl s4) new = None) by (apply (same_rep _ _ _ S4); auto).
  assert (Dbn : b <> new) by (unfold new; lia).
  set (s5 := with_repl s4 b new) in *.
  assert (V5 : vars s5 = vars s0).
  { unfold s5. cbn. rewrite (sm_vars _ _ S4). unfold s2. cbn. apply (sm_vars _ _ S1). }
  assert (F5 : frame st s5).
  { eapply frame_trans; [exact F2|]. eapply frame_trans; [apply same_frame; exact S4|].
    constructor; cbn; auto; [exists []; rewrite app_nil_r; auto | apply insert_tl]. }
  assert (SOL5 : forall rho, Sol s5 rho <-> rho b = rho new /\ sol_repl s4 rho /\
      forall i tv, nth_error (vars s4) i = Some tv -> lookup (repl s4) i = None -> i <> b -> holds rho i tv)
    by (intros; apply sol_with_repl; auto).
  (* the solutions of the final state in terms of the first *)
  assert (SOLF : forall rho, Sol s5 rho <-> rho a = rho new /\ rho b = rho new /\ sol_repl s0 rho /\
      forall i x, nth_error (vars s0) i = Some x -> lookup (repl s0) i = None -> i <> a -> i <> b -> holds rho i x).
  { intros rho. rewrite SOL5. split.
    - intros (Eb & X & Y).
      assert (Ea : rho a = rho new).
      { apply X. apply (sm_req _ _ S4). econstructor; [rewrite LK2, Nat.eqb_refl; auto | constructor; auto]. }
      split; auto. split; auto. split.
      + intros k r E. apply (sm_req _ _ S1) in E.
        pose proof (ends_insert _ a new (cl_repl _ C1) K1a K1n Dn _ _ E) as E'.
        change (ends (repl s2) k (if r =? a then new else r)) in E'.
        apply (sm_req _ _ S4) in E'. apply X in E'. destruct (r =? a) eqn:F; auto.
        apply Nat.eqb_eq in F. congruence.
      + intros i x N L A B. apply Y; auto.
        * rewrite (sm_vars _ _ S4). cbn. rewrite (sm_vars _ _ S1). auto.
        * apply (same_rep _ _ _ S4). rewrite LK2.
          replace (a =? i) with false by (symmetry; apply Nat.eqb_neq; auto).
          apply (same_rep _ _ _ S1). auto.
    - intros (Ea & Eb & X & Y). split; auto. split.
      + intros k r E. apply (sm_req _ _ S4) in E.
        apply ends_insert_inv in E as (r0 & E & ->); auto; [|apply (cl_repl _ C1)].
        apply (sm_req _ _ S1) in E. rewrite (X _ _ E). destruct (r0 =? a) eqn:F; auto.
        apply Nat.eqb_eq in F. congruence.
      + intros i x N L B. apply (same_rep _ _ _ S4) in L. rewrite LK2 in L.
        destruct (a =? i) eqn:A; [discriminate|]. apply Nat.eqb_neq in A.
        apply (same_rep _ _ _ S1) in L.
        rewrite (sm_vars _ _ S4) in N. cbn in N. rewrite (sm_vars _ _ S1) in N. apply Y; auto. }
  split; [change (len s5) with (length (vars s5)); rewrite V5; change (length (vars s0)) with (len s0); lia|].
  constructor.
  - auto.
  - split; [apply closed_with_repl; auto; rewrite (same_len _ _ S4); lia|]. split; auto.
  - intros m M i trs N. rewrite V5 in N. apply nth_with_var in N as [[_ N]|[_ N]]; [eapply M; eauto|].
    symmetry in N. apply TV in N as [_ N]. eapply N; eauto.
  - intros rho H E. destruct (SOL0 rho H E) as (H0 & E1 & E2).
    exists (upd rho new (rho a)). split; [|apply upd_agree].
    apply SOLF. split; auto. split; auto. destruct H0 as [X Y]. split; auto.
  - intros N [Ea Eb]. split.
    + assert (ER : forall i, err_id s5 i -> err_id st i /\ i < len st).
      { intros i (ps & X). rewrite V5 in X. apply nth_with_var in X as [[Li X]|[Li X]].
        - split; auto. exists ps. auto.
        - subst tv. contradiction. }
      constructor.
      * intros k r E X. apply ER in X as [X Lx].
        apply ends_insert_inv in E as (r1 & E & ->); auto; [|apply (cl_repl _ C4)].
        apply (sm_req _ _ S4) in E.
        apply ends_insert_inv in E as (r0 & E & ->); auto; [|apply (cl_repl _ C1)].
        apply (sm_req _ _ S1) in E. change (ends (repl st) k r0) in E.
        destruct (r0 =? a) eqn:Fa.
        { destruct (new =? b) eqn:Fb; unfold new in *; lia. }
        destruct (r0 =? b) eqn:Fb; [unfold new in *; lia|].
        apply (ne_ends _ N); auto.
      * intros i c ps p X Ip Y. apply ER in Y as [Y _]. rewrite V5 in X.
        apply nth_with_var in X as [[Li X]|[Li X]].
        -- apply (ne_params _ N _ _ _ _ X Ip Y).
        -- subst tv. assert (Z : exists i c qs, nth_error (vars st) i = Some (Known c qs) /\ In p qs).
           { destruct c; try (apply HE; auto; fail). contradiction. }
           destruct Z as (i' & c' & qs & Z1 & Z2). apply (ne_params _ N _ _ _ _ Z1 Z2 Y).
    + intros rho H. apply SOLF in H as (H1 & H2 & X & Y). split; [|congruence].
      assert (Hn : holds rho new tv).
      { apply Y; auto. apply nth_with_var_new. }
      destruct (HS rho Hn H1 H2) as [Ha Hb].
      split; [exact X|]. intros i x Nx L.
      destruct (Nat.eq_dec i a) as [->|Da]; [congruence|].
      destruct (Nat.eq_dec i b) as [->|Db]; [congruence|].
      apply Y; auto. unfold s0. rewrite nth_with_var_old; auto. apply nth_error_Some. congruence.
Qed.

(** ** Kinds *)

Lemma kind_meet t m1 m2 m : unify_meta m1 m2 = Some m -> has_kind t m1 -> has_kind t m2 -> has_kind t m.
Proof.
  destruct m1, m2; cbn [unify_meta]; intros E; try discriminate; injection E as <-; auto.
Qed.

Lemma kind_meet_inv t m1 m2 m : unify_meta m1 m2 = Some m -> has_kind t m -> has_kind t m1 /\ has_kind t m2.
Proof.
  destruct m1, m2; cbn [unify_meta]; intros E; try discriminate; injection E as <-; auto;
    destruct t as [[]|? []]; cbn; tauto.
Qed.

Lemma kind_clash t m1 m2 : unify_meta m1 m2 = None -> has_kind t m1 -> has_kind t m2 ->
  (m1 = MInt /\ m2 = MUint) \/ (m1 = MUint /\ m2 = MInt).
Proof.
  destruct m1, m2; cbn [unify_meta]; intros E; try discriminate; auto;
    destruct t as [[]|? []]; cbn; tauto.
Qed.

Lemma unify_meta_one m1 m2 m : unify_meta m1 m2 = Some m -> m = m1 \/ m = m2.
Proof. destruct m1, m2; cbn; intros E; try discriminate; injection E as <-; auto. Qed.

Lemma fits_kind b m l : b <> BError -> (kind_fits b m = true <-> has_kind (TK b l) m).
Proof.
  intros N. destruct b, m; cbn; try congruence; try tauto;
    try (split; [discriminate|tauto]); try (split; auto; fail).
  rewrite negb_true_iff, Z.ltb_ge. tauto.
Qed.

(** ** One call of [unify_inner] *)

Definition inner_ok (inner : nat -> nat -> M nat) : Prop :=
  forall st v1 v2, Inv st -> v1 < len st -> v2 < len st ->
  match inner v1 v2 st with
  | Done new st' =>
      step st st' (fun rho => rho v1 = rho v2) (~ err_id st v1 /\ ~ err_id st v2) /\ new < len st'
  | Fail _ st' =>
      frame st st' /\ Inv st' /\
      (mixfree st -> forall rho, Sol st rho -> rho v1 = rho v2 -> False)
  | Panic => False
  | NoFuel => True
  end.

Lemma map_agree n (f g : nat -> ty) l : agree n f g -> Forall (fun p => p < n) l -> map f l = map g l.
Proof. intros G F. induction F; cbn; f_equal; auto. Qed.

Lemma mixfree_step st st' : (forall m, no_meta m st -> no_meta m st') -> mixfree st -> mixfree st'.
Proof. intros M [H|H]; [left|right]; auto. Qed.

Lemma unify_params_ok inner : inner_ok inner -> forall p1 p2 st,
  Inv st -> Forall (fun p => p < len st) p1 -> Forall (fun p => p < len st) p2 -> length p1 = length p2 ->
  match unify_params inner p1 p2 st with
  | Done _ st' =>
      step st st' (fun rho => map rho p1 = map rho p2)
        (Forall (fun p => ~ err_id st p) p1 /\ Forall (fun p => ~ err_id st p) p2)
  | Fail _ st' =>
      frame st st' /\ Inv st' /\
      (mixfree st -> forall rho, Sol st rho -> map rho p1 = map rho p2 -> False)
  | Panic => False
  | NoFuel => True
  end.
Proof.
  intros OK. induction p1 as [|a p1 IH]; intros [|b p2] st I F1 F2 L; try discriminate.
  - cbn. apply step_same; auto. apply same_refl. destruct I as (C & _). apply (cl_repl _ C).
  - apply Forall_cons_iff in F1 as [La F1]. apply Forall_cons_iff in F2 as [Lb F2].
    cbn [unify_params]. unfold bind. pose proof (OK st a b I La Lb) as H.
    destruct (inner a b st) as [new st1|e st1| |]; auto.
    + destruct H as [H _]. pose proof (sp_frame _ _ _ _ H) as FR. pose proof (frame_len _ _ FR) as FL.
      assert (F1' : Forall (fun p => p < len st1) p1) by (eapply Forall_impl; [|exact F1]; cbn; lia).
      assert (F2' : Forall (fun p => p < len st1) p2) by (eapply Forall_impl; [|exact F2]; cbn; lia).
      pose proof (IH p2 st1 (sp_inv _ _ _ _ H) F1' F2' ltac:(cbn in L; lia)) as H2.
      destruct (unify_params inner p1 p2 st1) as [u st2|e st2| |]; auto.
      * assert (H' : step st st1 (fun rho => rho a = rho b)
            (Forall (fun p => ~ err_id st p) (a :: p1) /\ Forall (fun p => ~ err_id st p) (b :: p2))).
        { eapply step_weaken; [exact H | tauto |]. intros _ [X Y]. split; [apply Forall_inv in X | apply Forall_inv in Y]; auto. }
        eapply step_weaken; [eapply step_trans; [exact I | exact H' | exact H2 | |] | | tauto].
        -- intros rho rho' G E. cbn beta in *. rewrite <- (map_agree _ _ _ _ G F1), <- (map_agree _ _ _ _ G F2). auto.
        -- intros _ [X Y]. apply Forall_inv_tail in X, Y.
           split; rewrite Forall_forall in *; intros p Ip Z;
             (apply (frame_err _ _ p FR) in Z; [|auto]).
           ++ apply (X p Ip Z).
           ++ apply (Y p Ip Z).
        -- intros rho _. cbn. split.
           ++ intros [X Y]. f_equal; auto.
           ++ intros X. injection X. auto.
      * destruct H2 as (FR2 & I2 & X). split; [eapply frame_trans; eauto|]. split; auto.
        intros M rho Hs E. cbn in E. injection E as E1 E2.
        destruct (sp_complete _ _ _ _ H rho Hs E1) as (rho' & Hs' & G).
        apply (X (mixfree_step _ _ (sp_meta _ _ _ _ H) M) rho' Hs').
        rewrite <- (map_agree _ _ _ _ G F1), <- (map_agree _ _ _ _ G F2). auto.
    + destruct H as (FR & I1 & X). split; auto. split; auto.
      intros M rho Hs E. cbn in E. injection E as E1 E2. eauto.
Qed.

Section Declared.
Variable C : context.
Hypothesis declared : forall n, sym C n = SDeclared.

Lemma ensure_plain u n b ps st : ensure_impls C u n b ps [] st = Done [] st.
Proof. unfold ensure_impls. destruct (impl_target b); reflexivity. Qed.

(** two known types, neither the error type *)
Lemma unify_known_ok inner : inner_ok inner -> forall st v1 v2 b1 p1 b2 p2,
  Inv st -> v1 < len st -> v2 < len st -> b1 <> BError -> b2 <> BError ->
  lookup (repl st) v1 = None -> lookup (repl st) v2 = None ->
  nth_error (vars st) v1 = Some (Known b1 p1) -> nth_error (vars st) v2 = Some (Known b2 p2) ->
  match unify_known C inner v1 v2 b1 p1 b2 p2 st with
  | Done (new, rs) st' =>
      step st st' (fun rho => rho v1 = rho v2) True /\ new < len st' /\ rs = []
  | Fail _ st' =>
      frame st st' /\ Inv st' /\
      (mixfree st -> forall rho, Sol st rho -> rho v1 = rho v2 -> False)
  | Panic => False
  | NoFuel => True
  end.
Proof.
  intros OK st v1 v2 b1 p1 b2 p2 I L1 L2 D1 D2 K1 K2 N1 N2.
  assert (NN : repl st <> []) by (destruct I as (X & _); apply (cl_repl _ X)).
  assert (CL : closed st) by apply I.
  assert (V : forall rho, Sol st rho -> rho v1 = TK b1 (map rho p1) /\ rho v2 = TK b2 (map rho p2)).
  { intros rho [_ X]. split; [exact (X _ _ N1 K1) | exact (X _ _ N2 K2)]. }
  (* results without parameters *)
  assert (EQ0 : p1 = p2 -> b1 = b2 -> step st st (fun rho => rho v1 = rho v2) True).
  { intros -> ->. apply step_same; auto using same_refl. intros rho H. destruct (V rho H). congruence. }
  assert (NE0 : b1 <> b2 -> frame st st /\ Inv st /\
      (mixfree st -> forall rho, Sol st rho -> rho v1 = rho v2 -> False)).
  { intros D. split; [apply frame_refl|]. split; auto. intros _ rho H E. destruct (V rho H). congruence. }
  (* the parameters *)
  assert (PAR : b1 = b2 ->
    match (unify_params_checked inner p1 p2 ;;; ret (v1, @nil nat)) st with
    | Done (new, rs) st' =>
        step st st' (fun rho => rho v1 = rho v2) True /\ new < len st' /\ rs = []
    | Fail _ st' =>
        frame st st' /\ Inv st' /\
        (mixfree st -> forall rho, Sol st rho -> rho v1 = rho v2 -> False)
    | Panic => False
    | NoFuel => True
    end).
  { intros EB. unfold unify_params_checked, bind.
    destruct (length p1 =? length p2) eqn:EL.
    - apply Nat.eqb_eq in EL.
      pose proof (unify_params_ok inner OK p1 p2 st I (cl_vars _ CL _ _ _ N1) (cl_vars _ CL _ _ _ N2) EL) as H.
      destruct (unify_params inner p1 p2 st) as [u st'|e st'| |]; auto.
      + cbn. split; [|split; auto].
        * eapply step_weaken; [exact H| |].
          -- intros rho Hs. destruct (V rho Hs) as [-> ->]. rewrite EB. split; intros X; [f_equal; auto | injection X; auto].
          -- intros NEs _. split; apply Forall_forall; intros p Ip;
               [exact (ne_params _ NEs _ _ _ _ N1 Ip) | exact (ne_params _ NEs _ _ _ _ N2 Ip)].
        * pose proof (frame_len _ _ (sp_frame _ _ _ _ H)). lia.
      + destruct H as (X & Y & Z). split; auto. split; auto. intros M rho Hs E. apply (Z M rho Hs).
        destruct (V rho Hs) as [A B]. rewrite A, B in E. injection E. auto.
    - cbn. split; [apply frame_refl|]. split; auto. intros _ rho Hs E.
      destruct (V rho Hs) as [A B]. rewrite A, B in E. injection E as _ E.
      apply Nat.eqb_neq in EL. apply EL. rewrite <- (map_length rho p1), E, map_length. auto. }
  destruct b1, b2; try congruence; cbn [unify_known]; try (apply NE0; congruence); try (apply PAR; auto; fail).
  - rewrite !declared. destruct (n =? n0) eqn:E.
    + apply Nat.eqb_eq in E. subst. apply PAR. auto.
    + apply Nat.eqb_neq in E. apply NE0. congruence.
  - destruct (z =? z0)%Z eqn:E; [|apply NE0; apply Z.eqb_neq in E; congruence].
    apply Z.eqb_eq in E. subst z0. cbn. split; [|auto].
    apply EQ0; auto. rewrite (cl_scalar _ CL _ _ _ N1), (cl_scalar _ CL _ _ _ N2); auto.
  - destruct (Bool.eqb b b0) eqn:E; [|apply NE0; apply eqb_false_iff in E; congruence].
    apply eqb_prop in E. subst b0. cbn. split; [|auto].
    apply EQ0; auto. rewrite (cl_scalar _ CL _ _ _ N1), (cl_scalar _ CL _ _ _ N2); auto.
  - unfold str_eqb. destruct (list_eq_dec Nat.eq_dec s s0) as [E|E]; [|apply NE0; congruence].
    subst s0. cbn. split; [|auto].
    apply EQ0; auto. rewrite (cl_scalar _ CL _ _ _ N1), (cl_scalar _ CL _ _ _ N2); auto.
Qed.
Lemma step_pre a b c (P P' : (nat -> ty) -> Prop) (A A' : Prop) : same a b -> step b c P A ->
  (forall rho, Sol a rho -> (P rho <-> P' rho)) -> (NE a -> A' -> A) -> step a c P' A'.
Proof.
  intros SM [F I M K S1] HP HA. constructor; auto.
  - eapply frame_trans; [apply same_frame; exact SM | auto].
  - intros m Hm. apply M. intros i trs N. rewrite (sm_vars _ _ SM) in N. eapply Hm; eauto.
  - intros rho H p. rewrite <- (same_len _ _ SM). apply K; [apply (same_sol _ _ _ SM); auto | apply HP; auto].
  - intros N a'. destruct (S1 (same_NE _ _ SM N) (HA N a')) as [X Y]. split; auto.
    intros rho H. destruct (Y rho H) as [H1 H2]. apply (same_sol _ _ _ SM) in H1. split; auto. apply HP; auto.
Qed.

Lemma frame_pre a b c : same a b -> frame b c -> frame a c.
Proof. intros SM F. eapply frame_trans; [apply same_frame; exact SM | auto]. Qed.

Lemma mixfree_same a b : same a b -> mixfree a -> mixfree b.
Proof.
  intros SM. apply mixfree_step. intros m Hm i trs N. rewrite (sm_vars _ _ SM) in N. eapply Hm; eauto.
Qed.

(** everything after the two lookups *)
Definition after (n : nat) (v1 v2 : nat) : M nat :=
  let inner := unify_inner C n in
  let unify := unify_with inner in
      result <- (fun st =>
        match resolve st v1, resolve st v2 with
        | Some (Known BError _), Some _ => Done (v1, [v2]) st
        | Some _, Some (Known BError _) => Done (v2, [v1]) st
        | Some (Known b1 p1), Some (Known b2 p2) => unify_known C inner v1 v2 b1 p1 b2 p2 st
        | Some (Unknown t1 m1), Some (Unknown t2 m2) =>
            match unify_meta m1 m2 with
            | None => Fail EMeta st
            | Some MType =>
                (ts <- merge_traits unify (trait_names t1 t2) t1 t2 ;;
                 new <- add_type_var (Unknown ts MType) ;; ret (new, [v1; v2])) st
            | Some m => (new <- add_type_var (Unknown [] m) ;; ret (new, [v1; v2])) st
            end
        | Some (Known b ps), Some (Unknown trs m) =>
            (l <- ensure_impls C unify n b ps trs ;;
             ps' <- unify_impls unify n l ps ;;
             if kind_fits b m then new <- add_type_var (Known b ps') ;; ret (new, [v1; v2])
             else fail EMeta) st
        | Some (Unknown trs m), Some (Known b ps) =>
            (l <- ensure_impls C unify n b ps trs ;;
             ps' <- unify_impls unify n l ps ;;
             if kind_fits b m then new <- add_type_var (Known b ps') ;; ret (new, [v2; v1])
             else fail EMeta) st
        | _, _ => Panic
        end) ;;
      replace_all (v1 =? v2) (snd result) (fst result) ;;;
      ret (fst result).

Lemma unify_inner_eq n e1 e2 :
  unify_inner C (S n) e1 e2 = (v1 <- get_type e1 ;; v2 <- get_type e2 ;; after n v1 v2).
Proof. reflexivity. Qed.

Lemma unknown_sound (rho : nat -> ty) a t m m1 : unify_meta m m1 = Some t \/ unify_meta m1 m = Some t ->
  has_kind (rho a) t -> has_kind (rho a) m.
Proof. intros [E|E] H; apply (kind_meet_inv _ _ _ _ E) in H; tauto. Qed.

Lemma after_ok n : inner_ok (unify_inner C n) -> forall st v1 v2,
  Inv st -> v1 < len st -> v2 < len st ->
  lookup (repl st) v1 = None -> lookup (repl st) v2 = None ->
  match after n v1 v2 st with
  | Done new st' =>
      step st st' (fun rho => rho v1 = rho v2) (~ err_id st v1 /\ ~ err_id st v2) /\ new < len st'
  | Fail _ st' =>
      frame st st' /\ Inv st' /\
      (mixfree st -> forall rho, Sol st rho -> rho v1 = rho v2 -> False)
  | Panic => False
  | NoFuel => True
  end.
Proof.
  intros OK st v1 v2 I L1 L2 K1 K2.
  pose proof I as (CL & TT & PL).
  assert (N1 : nth_error (vars st) v1 <> None) by (apply nth_error_Some; auto).
  assert (N2 : nth_error (vars st) v2 <> None) by (apply nth_error_Some; auto).
  unfold after, bind at 1.
  rewrite (resolve_spec _ _ _ (ends_here _ _ K1)), (resolve_spec _ _ _ (ends_here _ _ K2)).
  destruct (nth_error (vars st) v1) as [tv1|] eqn:E1; [clear N1|congruence].
  destruct (nth_error (vars st) v2) as [tv2|] eqn:E2; [clear N2|congruence].
  (* the error type absorbs the other side *)
  assert (INTO : forall a b, a < len st -> b < len st -> lookup (repl st) a = None -> lookup (repl st) b = None ->
      err_id st b ->
      (forall rho : nat -> ty, rho a = rho b <-> rho v1 = rho v2) -> (err_id st b -> err_id st v1 \/ err_id st v2) ->
      (v1 =? v2) = (a =? b) ->
      match (replace_all (v1 =? v2) [a] b ;;; ret b) st with
      | Done new st' =>
          step st st' (fun rho => rho v1 = rho v2) (~ err_id st v1 /\ ~ err_id st v2) /\ new < len st'
      | Fail _ st' =>
          frame st st' /\ Inv st' /\
          (mixfree st -> forall rho, Sol st rho -> rho v1 = rho v2 -> False)
      | Panic => False
      | NoFuel => True
      end).
  { intros a b La Lb Ka Kb Eb EQ EO SM. cbn [replace_all]. rewrite SM. unfold bind.
    destruct (a =? b) eqn:AB.
    - cbn. split; [|auto]. apply Nat.eqb_eq in AB. apply step_same; auto.
      + apply same_refl, (cl_repl _ CL).
      + intros rho _. apply EQ. congruence.
    - apply Nat.eqb_neq in AB.
      destruct (replace_one_run st a b a b I La Lb (ends_here _ _ Ka) (ends_here _ _ Kb) AB)
        as (s1 & S1 & [[T1 R1]|[T1 (s3 & R1 & F3 & I3 & _)]]); rewrite R1; cbn.
      + split.
        * eapply step_weaken; [apply (step_into st s1 a b); auto | |].
          -- intros rho _. apply EQ.
          -- intros _ [X Y]. apply EO in Eb. tauto.
        * unfold len, with_repl. cbn. rewrite (sm_vars _ _ S1). auto.
      + split; auto. split; auto. intros _ rho H E. apply EQ in E. apply T1.
        pose proof (same_Inv _ _ S1 I) as (C1 & T1' & P1). pose proof (total_chains _ C1 T1') as CH1.
        apply (sol_total _ rho).
        * apply closed_with_repl; auto; rewrite (same_len _ _ S1); auto.
        * apply chains_with_repl; auto; apply (same_rep _ _ _ S1); auto.
        * apply sol_with_repl; auto; try (apply (same_rep _ _ _ S1); auto).
          split; auto. apply (same_sol _ _ _ S1) in H. destruct H as [X Y]. split; auto. }
  (* an unknown and a known type *)
  assert (KU : forall u k trs m b ps, b <> BError -> u < len st -> k < len st ->
      lookup (repl st) u = None -> lookup (repl st) k = None ->
      nth_error (vars st) u = Some (Unknown trs m) -> nth_error (vars st) k = Some (Known b ps) ->
      (forall rho : nat -> ty, rho k = rho u <-> rho v1 = rho v2) ->
      (~ err_id st v1 /\ ~ err_id st v2 -> ~ err_id st k /\ ~ err_id st u) ->
      (v1 =? v2) = false ->
      match match (l <- ensure_impls C (unify_with (unify_inner C n)) n b ps trs ;;
             ps' <- unify_impls (unify_with (unify_inner C n)) n l ps ;;
             if kind_fits b m then new <- add_type_var (Known b ps') ;; ret (new, [k; u])
             else fail EMeta) st with
            | Done a st' => (replace_all (v1 =? v2) (snd a) (fst a) ;;; ret (fst a)) st'
            | Fail e st' => Fail e st'
            | Panic => Panic
            | NoFuel => NoFuel
            end with
      | Done new st' =>
          step st st' (fun rho => rho v1 = rho v2) (~ err_id st v1 /\ ~ err_id st v2) /\ new < len st'
      | Fail _ st' =>
          frame st st' /\ Inv st' /\
          (mixfree st -> forall rho, Sol st rho -> rho v1 = rho v2 -> False)
      | Panic => False
      | NoFuel => True
      end).
  { intros u k trs m b ps DB Lu Lk Ku Kk Nu Nk EQ EA SM.
    rewrite (PL _ _ _ Nu). unfold bind. rewrite ensure_plain. cbn [unify_impls ret].
    destruct (kind_fits b m) eqn:KF.
    - rewrite SM. cbn [add_type_var ret fst snd].
      assert (D : k <> u) by congruence.
      pose proof (merge_run st k u (Known b ps) (Known b ps) (Unknown trs m) I Lk Lu Kk Ku D Nk Nu) as H.
      assert (X : match replace_all false [k; u] (len st) (with_var st (Known b ps)) with
        | Done _ st' => len st < len st' /\ step st st' (fun rho => rho k = rho u) (~ err_id st k /\ ~ err_id st u)
        | Fail _ st' => frame st st' /\ Inv st' /\ forall rho, Sol st rho -> rho k = rho u -> False
        | _ => False
        end).
      { apply H; clear H.
        - split; [apply (cl_vars _ CL _ _ _ Nk) | apply (cl_scalar _ CL _ _ _ Nk)].
        - intros ? ? ?. discriminate.
        - intros rho HN Ha Hb. cbn in HN |- *. split; [congruence|].
          rewrite Hb, HN. apply fits_kind; auto.
        - intros rho Hs E. cbn. unfold upd at 1. rewrite Nat.eqb_refl.
          destruct Hs as [_ Hs]. pose proof (Hs _ _ Nk Kk) as Z. cbn in Z. rewrite Z. f_equal.
          apply (map_agree (len st)); [apply upd_agree | apply (cl_vars _ CL _ _ _ Nk)].
        - destruct b; try congruence; intros p Ip; eauto. }
      clear H. unfold len, with_var in X.
      destruct (replace_all false [k; u] (length (vars st)) (set_vars st (vars st ++ [Known b ps])))
        as [x st'|e st'| |]; try contradiction.
      + destruct X as [X0 X]. split; [|exact X0].
        eapply step_weaken; [exact X | intros rho _; apply EQ | auto].
      + destruct X as (X1 & X2 & X3). split; auto. split; auto.
        intros _ rho Hs E. apply (X3 rho Hs). apply EQ. auto.
    - cbn. split; [apply frame_refl|]. split; auto. intros _ rho Hs E. apply EQ in E.
      destruct Hs as [_ Hs]. pose proof (Hs _ _ Nk Kk) as Z. pose proof (Hs _ _ Nu Ku) as Z2. cbn in Z, Z2.
      rewrite <- E, Z in Z2. apply (fits_kind b m _ DB) in Z2. congruence. }
  (* two known types *)
  assert (KK : forall b1 p1 b2 p2, b1 <> BError -> b2 <> BError ->
      tv1 = Known b1 p1 -> tv2 = Known b2 p2 ->
      match match unify_known C (unify_inner C n) v1 v2 b1 p1 b2 p2 st with
            | Done a st' => (replace_all (v1 =? v2) (snd a) (fst a) ;;; ret (fst a)) st'
            | Fail e st' => Fail e st'
            | Panic => Panic
            | NoFuel => NoFuel
            end with
      | Done new st' =>
          step st st' (fun rho => rho v1 = rho v2) (~ err_id st v1 /\ ~ err_id st v2) /\ new < len st'
      | Fail _ st' =>
          frame st st' /\ Inv st' /\
          (mixfree st -> forall rho, Sol st rho -> rho v1 = rho v2 -> False)
      | Panic => False
      | NoFuel => True
      end).
  { intros b1 p1 b2 p2 D1 D2 -> ->.
    pose proof (unify_known_ok _ OK st v1 v2 b1 p1 b2 p2 I L1 L2 D1 D2 K1 K2 E1 E2) as H.
    destruct (unify_known C (unify_inner C n) v1 v2 b1 p1 b2 p2 st) as [[new rs] st'|e st'| |]; auto.
    destruct H as (H & Hn & ->). cbn. split; auto.
    eapply step_weaken; [exact H | tauto | auto]. }
  (* two unknown types *)
  assert (UU : forall t1 m1 t2 m2 m, tv1 = Unknown t1 m1 -> tv2 = Unknown t2 m2 -> unify_meta m1 m2 = Some m ->
      match (replace_all (v1 =? v2) [v1; v2] (len st) ;;; ret (len st)) (with_var st (Unknown [] m)) with
      | Done new st' =>
          step st st' (fun rho => rho v1 = rho v2) (~ err_id st v1 /\ ~ err_id st v2) /\ new < len st'
      | Fail _ st' =>
          frame st st' /\ Inv st' /\
          (mixfree st -> forall rho, Sol st rho -> rho v1 = rho v2 -> False)
      | Panic => False
      | NoFuel => True
      end).
  { intros t1 m1 t2 m2 m -> -> UM.
    assert (TV : forall m', no_meta m' st -> m <> m').
    { intros m' Hm ->. apply unify_meta_one in UM as [->| ->]; [apply (Hm _ _ E1) | apply (Hm _ _ E2)]. }
    destruct (v1 =? v2) eqn:SM.
    - apply Nat.eqb_eq in SM. subst v2. cbn. split; [|unfold len; cbn; rewrite app_length; cbn; lia].
      constructor.
      + constructor; cbn; eauto.
      + split; [apply closed_with_var; cbn; auto|]. split; [apply total_with_var; cbn; auto|].
        intros i trs m' N. apply nth_with_var in N as [[_ N]|[_ N]]; [exact (PL _ _ _ N) | congruence].
      + intros m' M i trs N. apply nth_with_var in N as [[_ N]|[_ N]]; [eapply M; eauto|].
        apply (TV m' M). congruence.
      + intros rho Hs _. exists (upd rho (len st) (rho v1)). split; [|apply upd_agree].
        apply sol_with_var; auto. split; [eapply sol_agree; eauto; apply upd_agree|].
        cbn. unfold upd. rewrite Nat.eqb_refl. destruct Hs as [_ Hs].
        apply (kind_meet _ _ _ _ UM); [exact (Hs _ _ E1 K1) | exact (Hs _ _ E2 K2)].
      + intros N _. split.
        * assert (ER : forall i, err_id (with_var st (Unknown [] m)) i -> err_id st i).
          { intros i (ps & X). apply nth_with_var in X as [[_ X]|[_ X]]; [exists ps; auto | discriminate]. }
          constructor.
          -- intros k r E X. apply (ne_ends _ N); auto.
          -- intros i b ps p X Ip Y. apply nth_with_var in X as [[_ X]|[_ X]]; [|discriminate].
             apply (ne_params _ N _ _ _ _ X Ip). auto.
        * intros rho H. apply sol_with_var in H as [H _]; auto.
    - apply Nat.eqb_neq in SM. unfold bind.
      assert (X : match replace_all false [v1; v2] (len st) (with_var st (Unknown [] m)) with
        | Done _ st' => len st < len st' /\ step st st' (fun rho => rho v1 = rho v2) (~ err_id st v1 /\ ~ err_id st v2)
        | Fail _ st' => frame st st' /\ Inv st' /\ forall rho, Sol st rho -> rho v1 = rho v2 -> False
        | _ => False
        end).
      { apply (merge_run st v1 v2 (Unknown [] m) (Unknown t1 m1) (Unknown t2 m2)); auto.
        - cbn. auto.
        - intros trs m' E. injection E as <- <-. auto.
        - intros rho HN Ha Hb. cbn in HN |- *. rewrite Ha, Hb. apply (kind_meet_inv _ _ _ _ UM); auto.
        - intros rho [_ Hs] E. cbn. unfold upd. rewrite Nat.eqb_refl.
          apply (kind_meet _ _ _ _ UM); [exact (Hs _ _ E1 K1) | rewrite E; exact (Hs _ _ E2 K2)]. }
      destruct (replace_all false [v1; v2] (len st) (with_var st (Unknown [] m))) as [x st'|e st'| |];
        try contradiction.
      + cbn. tauto.
      + destruct X as (X1 & X2 & X3). split; auto. }
  assert (ERR1 : forall ps, tv1 = Known BError ps ->
      match (replace_all (v1 =? v2) [v2] v1 ;;; ret v1) st with
      | Done new st' =>
          step st st' (fun rho => rho v1 = rho v2) (~ err_id st v1 /\ ~ err_id st v2) /\ new < len st'
      | Fail _ st' =>
          frame st st' /\ Inv st' /\
          (mixfree st -> forall rho, Sol st rho -> rho v1 = rho v2 -> False)
      | Panic => False
      | NoFuel => True
      end).
  { intros ps ->. apply (INTO v2 v1); auto.
    - exists ps. auto.
    - intros. split; congruence.
    - apply Nat.eqb_sym. }
  assert (ERR2 : forall ps, tv2 = Known BError ps ->
      match (replace_all (v1 =? v2) [v1] v2 ;;; ret v2) st with
      | Done new st' =>
          step st st' (fun rho => rho v1 = rho v2) (~ err_id st v1 /\ ~ err_id st v2) /\ new < len st'
      | Fail _ st' =>
          frame st st' /\ Inv st' /\
          (mixfree st -> forall rho, Sol st rho -> rho v1 = rho v2 -> False)
      | Panic => False
      | NoFuel => True
      end).
  { intros ps ->. apply (INTO v1 v2); auto.
    - exists ps. auto.
    - intros. tauto. }
  assert (DIFF : tv1 <> tv2 -> (v1 =? v2) = false).
  { intros D. apply Nat.eqb_neq. congruence. }
  destruct tv1 as [b1 p1|t1 m1], tv2 as [b2 p2|t2 m2].
  - destruct b1, b2; cbn [fst snd];
      first [ eapply ERR1; reflexivity | eapply ERR2; reflexivity
            | apply KK; auto; discriminate ].
  - destruct b1; cbn [fst snd]; first [ eapply ERR1; reflexivity |
      apply (KU v2 v1 t2 m2); auto; try discriminate; try (intros; tauto); apply DIFF; discriminate ].
  - destruct b2; cbn [fst snd]; first [ eapply ERR2; reflexivity |
      apply (KU v1 v2 t1 m1); auto; try discriminate; try (intros; tauto);
        try (intros; split; congruence); apply DIFF; discriminate ].
  - pose proof (PL _ _ _ E1) as ->. pose proof (PL _ _ _ E2) as ->.
    destruct (unify_meta m1 m2) as [m|] eqn:UM.
    + pose proof (UU _ _ _ _ m eq_refl eq_refl UM) as H. destruct m; exact H.
    + split; [apply frame_refl|]. split; auto. intros M rho [_ Hs] E.
      pose proof (Hs _ _ E1 K1) as X. pose proof (Hs _ _ E2 K2) as Y. cbn in X, Y. rewrite <- E in Y.
      destruct (kind_clash _ _ _ UM X Y) as [[-> ->]|[-> ->]]; destruct M as [M|M];
        first [ apply (M _ _ E1) | apply (M _ _ E2) ].
Qed.

(** One call of unification on types without trait bounds *)
Theorem unify_inner_ok n : inner_ok (unify_inner C n).
Proof.
  induction n as [|n IH].
  - intros st v1 v2 _ _ _. exact Logic.I.
  - intros st e1 e2 I L1 L2. rewrite unify_inner_eq. unfold bind.
    destruct (get_type_run st e1 I L1) as (v1 & s1 & G1 & X1 & Y1 & S1). rewrite G1.
    pose proof (same_Inv _ _ S1 I) as I1.
    destruct (get_type_run s1 e2 I1) as (v2 & s2 & G2 & X2 & Y2 & S2);
      [rewrite (same_len _ _ S1); auto|]. rewrite G2.
    pose proof (same_trans _ _ _ S1 S2) as SA. pose proof (same_Inv _ _ SA I) as I2.
    apply (sm_req _ _ S1) in X2. rewrite (same_len _ _ S1) in Y2.
    assert (K1 : lookup (repl s2) v1 = None) by (apply (same_rep _ _ _ SA), (ends_rep _ _ _ X1)).
    assert (K2 : lookup (repl s2) v2 = None) by (apply (same_rep _ _ _ SA), (ends_rep _ _ _ X2)).
    pose proof (after_ok n IH s2 v1 v2 I2) as H.
    rewrite (same_len _ _ SA) in H. specialize (H Y1 Y2 K1 K2).
    assert (EQ : forall rho, Sol st rho -> (rho v1 = rho v2 <-> rho e1 = rho e2)).
    { intros rho [A _]. rewrite (A _ _ X1), (A _ _ X2). tauto. }
    destruct (after n v1 v2 s2) as [new st'|e st'| |]; auto.
    + destruct H as [H Hn]. split; auto. eapply step_pre; [exact SA | exact H | exact EQ |].
      intros N [A B]. split; intros Z; apply (same_err _ _ _ SA) in Z.
      * apply A. rewrite (ne_ends _ N _ _ X1 Z). auto.
      * apply B. rewrite (ne_ends _ N _ _ X2 Z). auto.
    + destruct H as (F & I' & X). split; [eapply frame_pre; eauto|]. split; auto.
      intros M rho Hs E. apply (X (mixfree_same _ _ SA M) rho).
      * apply (same_sol _ _ _ SA). auto.
      * apply EQ; auto.
Qed.
End Declared.
