(** Unification with its constraints: what a whole call does to the completions. *)
From Coq Require Import List Bool Arith ZArith Lia.
From Verif Require Import InferModel InferSpec InferChain InferState InferUnify InferCons.
Import ListNotations.

Definition CSol (st : state) (rho : nat -> ty) : Prop := Sol st rho /\ sat rho (cons st).
Definition TInv (st : state) : Prop := Inv st /\ cons_lt (len st) (cons st).
Definition TNE (st : state) : Prop := NE st /\ forall v e, In (v, e) (cons st) -> ~ err_id st v.

Lemma value_agree n rho rho' : agree n rho rho' -> forall e k, small n (cvars e) ->
  Value rho e k -> Value rho' e k.
Proof.
  intros A. induction 2 using Value_ind; cbn [cvars] in *;
    repeat match goal with H : small _ (_ ++ _) |- _ => apply small_app in H as [? ?] end;
    try (econstructor; eauto; fail).
  all: inversion H as [|? ? L _]; subst; rewrite A in * by auto; econstructor; eauto.
Qed.

Lemma sat_agree n rho rho' l : agree n rho rho' -> cons_lt n l -> sat rho l -> sat rho' l.
Proof.
  intros A L S v e H. unfold cons_lt in L. rewrite Forall_forall in L.
  destruct (L _ H) as [Lv Le]. destruct (S v e H) as (k & V & E). exists k. split.
  - eapply value_agree; eauto.
  - rewrite <- A; auto.
Qed.

Lemma small_mono n m l : n <= m -> small n l -> small m l.
Proof. intros L. apply Forall_impl. intros; lia. Qed.

Lemma cons_lt_mono n m l : n <= m -> cons_lt n l -> cons_lt m l.
Proof. intros L. apply Forall_impl. intros c [A B]. split; [lia | eapply small_mono; eauto]. Qed.

Lemma inv_set_cons st c : Inv st -> Inv (set_cons st c).
Proof.
  intros ([A1 A2 A3 A4] & T & P). split; [|split].
  - constructor; auto.
  - intros v L. destruct (T v L) as (t & R). exists t.
    eapply resolves_req; [| |exact R]; [reflexivity | apply req_refl].
  - exact P.
Qed.

Lemma ne_set_cons st c : NE st -> NE (set_cons st c).
Proof. intros [A B]. constructor; auto. Qed.

Record tstep (st st' : state) (P : (nat -> ty) -> Prop) (A : Prop) : Prop := {
  ts_vars : exists ext, vars st' = vars st ++ ext;
  ts_saved : saved st' = saved st;
  ts_tl : tl (repl st') = tl (repl st);
  ts_cons : forall c, In c (cons st') -> In c (cons st);
  ts_inv : TInv st';
  ts_meta : forall m, no_meta m st -> no_meta m st';
  ts_complete : forall rho, CSol st rho -> P rho ->
    exists rho', CSol st' rho' /\ agree (len st) rho rho';
  ts_sound : TNE st -> A -> TNE st' /\ forall rho, CSol st' rho -> CSol st rho /\ P rho;
  ts_links : TNE st -> A -> forall rho, Sol st' rho -> Sol st rho /\ P rho;
  ts_solved : TNE st -> A -> forall v e, In (v, e) (cons st) ->
    In (v, e) (cons st') \/ exists k, forall rho, Sol st' rho -> rho v = TK k [] /\ Value rho e k
}.

Lemma ext_len a b : (exists ext, vars b = vars a ++ ext) -> len a <= len b.
Proof. intros [x X]. unfold len. rewrite X, app_length. lia. Qed.

Lemma tstep_of_step st st' (P : (nat -> ty) -> Prop) (A : Prop) : TInv st -> step st st' P A -> tstep st st' P A.
Proof.
  intros [I L] [F I' M CO SO]. pose proof (fr_cons _ _ F) as FC. constructor; auto.
  - apply (fr_vars _ _ F).
  - apply (fr_saved _ _ F).
  - apply (fr_tl _ _ F).
  - intros c. rewrite FC. auto.
  - split; auto. rewrite FC. eapply cons_lt_mono; [apply frame_len; eauto | auto].
  - intros rho [H S] p. destruct (CO rho H p) as (rho' & H' & G). exists rho'. split; auto.
    split; auto. rewrite FC. eapply sat_agree; eauto.
  - intros [N X] a. destruct (SO N a) as [N' Y]. split.
    + split; auto. intros v e H. rewrite FC in H. rewrite (frame_err _ _ _ F); [eapply X; eauto|].
      unfold cons_lt in L. rewrite Forall_forall in L. apply (L _ H).
    + intros rho [H S]. rewrite FC in S. destruct (Y rho H) as [H0 p]. split; auto. split; auto.
  - intros [N X] a. apply (SO N a).
  - intros _ _ v e H. left. rewrite FC. auto.
Qed.

Lemma tstep_trans a b c (P Q : (nat -> ty) -> Prop) (A B : Prop) :
  tstep a b P A -> tstep b c Q B ->
  (forall rho rho', agree (len a) rho rho' -> Q rho -> Q rho') ->
  (TNE a -> A -> B) ->
  tstep a c (fun rho => P rho /\ Q rho) A.
Proof.
  intros [V1 S1 T1 X1 I1 M1 C1 Y1 W1 Z1'] [V2 S2 T2 X2 I2 M2 C2 Y2 W2 Z2'] G HB. constructor; auto; try congruence.
  - destruct V1 as [x V1], V2 as [y V2]. exists (x ++ y). rewrite V2, V1, app_assoc. auto.
  - intros rho H [p q]. destruct (C1 rho H p) as (r1 & H1 & G1).
    destruct (C2 r1 H1) as (r2 & H2 & G2); [eapply G; eauto|].
    exists r2. split; auto. intros i L. rewrite G1 by auto. apply G2.
    pose proof (ext_len _ _ V1). lia.
  - intros N a0. destruct (Y1 N a0) as [N1 Z1]. destruct (Y2 N1 (HB N a0)) as [N2 Z2].
    split; auto. intros rho H. destruct (Z2 rho H) as [H1 q]. destruct (Z1 rho H1) as [H0 p]. auto.
  - intros N a0 rho H. destruct (Y1 N a0) as [N1 _].
    destruct (W2 N1 (HB N a0) rho H) as [H1 q]. destruct (W1 N a0 rho H1) as [H0 p]. auto.
  - intros N a0 v e H. destruct (Y1 N a0) as [N1 _]. destruct (Z1' N a0 v e H) as [H1|(k & H1)].
    + apply (Z2' N1 (HB N a0)). auto.
    + right. exists k. intros rho H2. apply H1. apply (W2 N1 (HB N a0)). auto.
Qed.

Lemma tstep_weaken st st' (P P' : (nat -> ty) -> Prop) (A A' : Prop) : tstep st st' P A ->
  (forall rho, P rho <-> P' rho) -> (TNE st -> A' -> A) -> tstep st st' P' A'.
Proof.
  intros [F S T X I M C Y W Z0] HP HA. constructor; auto.
  - intros rho H p. apply C; auto. apply HP; auto.
  - intros N a. destruct (Y N (HA N a)) as [Z Z']. split; auto.
    intros rho H. destruct (Z' rho H) as [H1 H2]. split; auto. apply HP; auto.
  - intros N a rho H. destruct (W N (HA N a) rho H) as [H1 H2]. split; auto. apply HP; auto.
Qed.

(** ** Adding a variable *)

Lemma NE_with_var st tv : NE st -> closed st ->
  match tv with Known b ps => b <> BError /\ Forall (fun p => p < len st /\ ~ err_id st p) ps | _ => True end ->
  NE (with_var st tv).
Proof.
  intros N C H.
  assert (ER : forall i, err_id (with_var st tv) i -> err_id st i).
  { intros i (ps & X). apply nth_with_var in X as [[_ X]|[_ X]]; [exists ps; auto|].
    subst tv. destruct H. contradiction. }
  constructor.
  - intros k r E X. apply (ne_ends _ N); auto.
  - intros i b ps p X Ip Y. apply ER in Y. apply nth_with_var in X as [[_ X]|[_ X]].
    + apply (ne_params _ N _ _ _ _ X Ip Y).
    + subst tv. destruct H as [_ H]. rewrite Forall_forall in H. apply (H _ Ip). auto.
Qed.

Lemma scalar_ne b : scalar b = true -> b <> BError.
Proof. intros H ->. discriminate. Qed.

(** a value found by a constraint *)
Lemma infer_one inner st v b : inner_ok inner -> Inv st -> v < len st -> scalar b = true ->
  match inner (len st) v (with_var st (Known b [])) with
  | Done _ st' => step st st' (fun rho => rho v = TK b []) (~ err_id st v)
  | Fail _ st' =>
      frame st st' /\ Inv st' /\ (mixfree st -> forall rho, Sol st rho -> rho v = TK b [] -> False)
  | Panic => False
  | NoFuel => True
  end.
Proof.
  intros OK I L SC. pose proof I as (C & T & P).
  set (s1 := with_var st (Known b [])).
  assert (IL : ids_lt (len st) (Known b [])) by (split; auto).
  assert (I1 : Inv s1).
  { split; [apply closed_with_var; auto|]. split; [apply total_with_var; auto|].
    intros i trs m N. apply nth_with_var in N as [[_ N]|[_ N]]; [eapply P; eauto | discriminate]. }
  assert (F1 : frame st s1) by (constructor; cbn; eauto).
  assert (M1 : forall m, no_meta m st -> no_meta m s1).
  { intros m M i trs N. apply nth_with_var in N as [[_ N]|[_ N]]; [eapply M; eauto | discriminate]. }
  assert (UP : forall rho, Sol st rho -> Sol s1 (upd rho (len st) (TK b []))).
  { intros rho H. apply sol_with_var; auto. split; [eapply sol_agree; eauto; apply upd_agree|].
    cbn. unfold upd. rewrite Nat.eqb_refl. auto. }
  assert (EV : forall rho, rho v = TK b [] ->
    upd rho (len st) (TK b []) (len st) = upd rho (len st) (TK b []) v).
  { intros rho H. unfold upd. rewrite Nat.eqb_refl. destruct (v =? len st); auto. }
  assert (Ll : len st < len s1) by (unfold s1; rewrite len_with_var; lia).
  assert (Lv : v < len s1) by lia.
  pose proof (OK s1 (len st) v I1 Ll Lv) as H.
  destruct (inner (len st) v s1) as [new st'|e st'| |]; auto.
  - destruct H as [[F I' M CO SO] _]. constructor; auto.
    + eapply frame_trans; eauto.
    + intros rho Hs Ev. destruct (CO _ (UP _ Hs) (EV _ Ev)) as (rho' & A & B).
      exists rho'. split; auto. intros i Li. rewrite <- B by lia.
      apply upd_agree. auto.
    + intros N E.
      assert (N1 : NE s1).
      { apply NE_with_var; auto. split; [apply scalar_ne; auto | constructor]. }
      destruct (SO N1) as [N' X].
      * split; intros (ps & Y).
        -- unfold s1 in Y. rewrite nth_with_var_new in Y. injection Y as -> <-. discriminate.
        -- unfold s1 in Y. rewrite nth_with_var_old in Y by auto. apply E. exists ps. auto.
      * split; auto. intros rho Hs. destruct (X rho Hs) as [Hs1 Ee].
        apply sol_with_var in Hs1 as [Hs0 Hk]; auto. split; auto. rewrite <- Ee. exact Hk.
  - destruct H as (F & I' & X). split; [eapply frame_trans; eauto|]. split; auto.
    intros M rho Hs Ev. apply (X (mixfree_step _ _ M1 M) _ (UP _ Hs) (EV _ Ev)).
Qed.

Lemma infer_known_ok inner : inner_ok inner -> forall l st, Inv st ->
  (forall v b, In (v, b) l -> v < len st /\ scalar b = true) ->
  match infer_known inner l st with
  | Done _ st' => step st st' (fun rho => given rho l) (forall v b, In (v, b) l -> ~ err_id st v)
  | Fail _ st' =>
      frame st st' /\ Inv st' /\ (mixfree st -> forall rho, Sol st rho -> given rho l -> False)
  | Panic => False
  | NoFuel => True
  end.
Proof.
  intros OK. induction l as [|[v b] l IH]; intros st I H.
  - cbn. apply step_same; auto; [apply same_refl; apply (cl_repl _ (proj1 I)) | intros rho _ v b []].
  - cbn [infer_known]. unfold bind, add_type_var.
    destruct (H v b (or_introl eq_refl)) as [Lv Sb].
    pose proof (infer_one inner st v b OK I Lv Sb) as X. unfold with_var, len in X.
    destruct (inner (length (vars st)) v (set_vars st (vars st ++ [Known b []]))) as [new s1|e s1| |];
      try contradiction; auto.
    + assert (L1 : forall v0 b0, In (v0, b0) l -> v0 < len st) by (intros v0 b0 Y; apply (H v0 b0); right; auto).
      pose proof (frame_len _ _ (sp_frame _ _ _ _ X)) as FL.
      specialize (IH s1 (sp_inv _ _ _ _ X)).
      destruct (infer_known inner l s1) as [u s2|e s2| |]; auto.
      * eapply step_weaken.
        -- eapply (step_trans st s1 s2 (fun rho => rho v = TK b []) (fun rho => given rho l) (~ err_id st v /\ forall v0 b0, In (v0, b0) l -> ~ err_id st v0)); [auto| |apply IH| |].
           ++ eapply step_weaken; [exact X | tauto | tauto].
           ++ intros v0 b0 Y. split; [specialize (L1 v0 b0 Y); lia | apply (H v0 b0); right; auto].
           ++ intros rho rho' G Q v0 b0 Y. rewrite <- G; eauto.
           ++ intros N [_ Y] v0 b0 Z. rewrite (frame_err _ _ _ (sp_frame _ _ _ _ X)); eauto.
        -- intros rho _. split.
           ++ intros [A B] v0 b0 [E|E]; [injection E as <- <-; auto | auto].
           ++ intros A. split; [apply A; left; auto | intros v0 b0 E; apply A; right; auto].
        -- intros N Y. split; [apply (Y v b); left; auto | intros v0 b0 Z; apply (Y v0 b0); right; auto].
      * destruct IH as (F & I' & Z).
        -- intros v0 b0 Y. split; [specialize (L1 v0 b0 Y); lia | apply (H v0 b0); right; auto].
        -- split; [eapply frame_trans; [apply (sp_frame _ _ _ _ X) | auto]|]. split; auto.
           intros M rho Hs G. destruct (sp_complete _ _ _ _ X rho Hs) as (rho' & Hs' & A).
           { apply G. left. auto. }
           apply (Z (mixfree_step _ _ (sp_meta _ _ _ _ X) M) rho' Hs').
           intros v0 b0 Y. rewrite <- A by eauto. apply G. right. auto.
      * apply IH. intros v0 b0 Y. split; [specialize (L1 v0 b0 Y); lia | apply (H v0 b0); right; auto].
    + destruct X as (F & I' & Z).
      destruct e; (split; [auto|]; split; [auto|]; intros M rho Hs G; apply (Z M rho Hs); apply G; left; auto).
Qed.

(** ** The loop *)

Record kept (st st' : state) : Prop := {
  kp_vars : exists ext, vars st' = vars st ++ ext;
  kp_saved : saved st' = saved st;
  kp_tl : tl (repl st') = tl (repl st);
  kp_inv : TInv st'
}.

Lemma kept_trans a b c : (exists ext, vars b = vars a ++ ext) -> saved b = saved a ->
  tl (repl b) = tl (repl a) -> kept b c -> kept a c.
Proof.
  intros [x X] A B [[y Y] D E F]. constructor; try congruence; auto.
  exists (x ++ y). rewrite Y, X, app_assoc. auto.
Qed.

Lemma update_solved st : Inv st -> forall cs rem known, cons_lt (len st) cs ->
  update_constraints st cs = Some (rem, known) -> forall v e, In (v, e) cs ->
  In (v, e) rem \/ exists k, In (v, k) known /\ forall rho, Sol st rho -> Value rho e k.
Proof.
  intros I. induction cs as [|[v0 e0] cs IH]; intros rem known L H v e HI; [destruct HI|].
  inversion L as [|? ? [Lv Le] L']; subst. cbn in Lv, Le. cbn [update_constraints] in H.
  pose proof (evaluate_ok st (proj1 I) (total_chains _ (proj1 I) (proj1 (proj2 I))) e0 Le) as E.
  destruct (evaluate st e0) as [e'|]; [|discriminate].
  destruct (update_constraints st cs) as [[rem0 known0]|]; [|discriminate].
  specialize (IH rem0 known0 L' eq_refl).
  assert (OPEN : rem = (v0, e') :: rem0 -> known = known0 -> lit e' = None ->
     In (v, e) rem \/ exists k, In (v, k) known /\ forall rho, Sol st rho -> Value rho e k).
  { intros -> -> NL. destruct HI as [Q|Q].
    - injection Q as <- <-. destruct E as [->|(k & K & _)]; [left; left; auto | congruence].
    - destruct (IH v e Q) as [X|(k & X & Y)]; [left; right; auto | right; exists k; auto]. }
  assert (LIT : forall k, lit e' = Some k -> rem = rem0 -> known = (v0, k) :: known0 ->
     In (v, e) rem \/ exists k, In (v, k) known /\ forall rho, Sol st rho -> Value rho e k).
  { intros k K -> ->. destruct HI as [Q|Q].
    - injection Q as <- <-. right. exists k. split; [left; auto|].
      exact (eval_lit _ _ _ E _ _ eq_refl K).
    - destruct (IH v e Q) as [X|(k' & X & Y)]; [auto | right; exists k'; split; [right|]; auto]. }
  destruct e'; cbn in LIT; injection H as H1 H2;
    first [apply OPEN; auto; fail | eapply LIT; [reflexivity | |]; auto].
Qed.

Lemma constraint_loop_ok inner : inner_ok inner -> forall n st, TInv st ->
  match constraint_loop inner n st with
  | Done _ st' => tstep st st' (fun _ => True) True
  | Fail _ st' => kept st st' /\ (mixfree st -> forall rho, ~ CSol st rho)
  | Panic => mixfree st -> forall rho, ~ CSol st rho
  | NoFuel => True
  end.
Proof.
  intros OK. induction n as [|n IH]; intros st [I L]; [exact Logic.I|].
  cbn [constraint_loop]. pose proof (update_ok st (proj1 I) (total_chains _ (proj1 I) (proj1 (proj2 I))) (cons st) L) as U.
  pose proof (update_solved st I (cons st)) as SV.
  destruct (update_constraints st (cons st)) as [[rem known]|].
  2:{ intros _ rho [Hs S]. exact (U rho Hs S). }
  specialize (SV rem known L eq_refl).
  destruct U as (EQ & LR & SUB & KN & LEN).
  set (s1 := set_cons st rem).
  assert (TI1 : TInv s1) by (split; [apply inv_set_cons; auto | exact LR]).
  assert (T1 : known = [] -> tstep st s1 (fun _ => True) True).
  { intros K. constructor; auto.
    - exists []. cbn. rewrite app_nil_r. auto.
    - intros rho [Hs S] _. exists rho. split; [|intros i _; auto]. split; [exact Hs|].
      apply EQ in S; tauto.
    - intros [N X] _. split.
      + split; [apply ne_set_cons; auto|]. intros v e H. apply SUB in H. apply (X _ _ H).
      + intros rho [Hs S]. split; auto. split; [exact Hs|]. apply EQ; auto. split; auto.
        subst known. intros v b [].
    - intros _ _ v e H. destruct (SV v e H) as [X|(k & X & _)]; [left; exact X | subst known; destruct X]. }
  destruct known as [|kv known]; [apply T1; auto|]. clear T1.
  set (kn := kv :: known) in *.
  assert (TI : Inv s1) by apply TI1.
  pose proof (infer_known_ok inner OK kn s1 TI) as X.
  assert (LK : forall v b, In (v, b) kn -> v < len s1 /\ scalar b = true).
  { intros v b H. apply KN in H. tauto. }
  specialize (X LK). unfold bind.
  destruct (infer_known inner kn s1) as [u s2|e s2| |]; try contradiction; auto.
  - (* one round *)
    assert (T2 : tstep st s2 (fun _ => True) True).
    { pose proof X as [F I2 M CO SO]. pose proof (fr_cons _ _ F) as FC. cbn in FC.
      constructor.
      - apply (fr_vars _ _ F).
      - rewrite (fr_saved _ _ F). auto.
      - rewrite (fr_tl _ _ F). auto.
      - intros c. rewrite FC. auto.
      - split; auto. rewrite FC. eapply cons_lt_mono; [apply (frame_len _ _ F) | exact LR].
      - exact M.
      - intros rho [Hs S] _. apply EQ in S as [S G]; auto.
        destruct (CO rho Hs G) as (rho' & Hs' & A). exists rho'. split; [|exact A].
        split; auto. rewrite FC. eapply sat_agree; [exact A | exact LR | auto].
      - intros [N Y] _. destruct SO as [N2 Z].
        + apply ne_set_cons; auto.
        + intros v b H. apply KN in H as (_ & _ & e & H). apply (Y _ _ H).
        + split.
          * split; auto. intros v e H. rewrite FC in H. rewrite (frame_err _ _ _ F).
            -- apply SUB in H. apply (Y _ _ H).
            -- unfold cons_lt in LR. rewrite Forall_forall in LR. apply (LR _ H).
          * intros rho [Hs S]. rewrite FC in S. destruct (Z rho Hs) as [Hs0 G].
            split; auto. split; [exact Hs0|]. apply EQ; auto.
      - intros [N Y] _ rho Hs. split; [|exact Logic.I]. destruct SO as [N2 Z].
        + apply ne_set_cons; auto.
        + intros v b H. apply KN in H as (_ & _ & e & H). apply (Y _ _ H).
        + exact (proj1 (Z rho Hs)).
      - intros [N Y] _ v e H. destruct (SV v e H) as [Q|(k & Q & V)]; [left; rewrite FC; exact Q|].
        right. exists k. intros rho Hs. destruct SO as [N2 Z].
        + apply ne_set_cons; auto.
        + intros v1 b1 H1. apply KN in H1 as (_ & _ & e1 & H1). apply (Y _ _ H1).
        + destruct (Z rho Hs) as [Hs0 G]. split; [apply G; auto | apply V; exact Hs0]. }
    specialize (IH s2 (ts_inv _ _ _ _ T2)).
    destruct (constraint_loop inner n s2) as [u' s3|e s3| |]; auto.
    + eapply tstep_weaken; [eapply tstep_trans; [exact T2 | exact IH | auto | auto] | tauto | auto].
    + destruct IH as [K Z]. split.
      * eapply kept_trans; [apply (ts_vars _ _ _ _ T2) | apply (ts_saved _ _ _ _ T2) | apply (ts_tl _ _ _ _ T2) | auto].
      * intros M rho H. destruct (ts_complete _ _ _ _ T2 rho H Logic.I) as (rho' & H' & _).
        exact (Z (mixfree_step _ _ (ts_meta _ _ _ _ T2) M) rho' H').
    + intros M rho H. destruct (ts_complete _ _ _ _ T2 rho H Logic.I) as (rho' & H' & _).
      exact (IH (mixfree_step _ _ (ts_meta _ _ _ _ T2) M) rho' H').
  - destruct X as (F & I2 & Z). pose proof (fr_cons _ _ F) as FC. cbn in FC. split.
    + constructor.
      * apply (fr_vars _ _ F).
      * rewrite (fr_saved _ _ F). auto.
      * rewrite (fr_tl _ _ F). auto.
      * split; auto. rewrite FC. eapply cons_lt_mono; [apply (frame_len _ _ F) | exact LR].
    + intros M rho [Hs S]. apply EQ in S as [S G]; auto. exact (Z M rho Hs G).
Qed.

(** ** The whole call *)

Section Top.
Variable C : context.
Hypothesis declared : forall n, sym C n = SDeclared.

Theorem unify_ok n st v1 v2 : TInv st -> v1 < len st -> v2 < len st ->
  match unify C n v1 v2 st with
  | Done new st' =>
      tstep st st' (fun rho => rho v1 = rho v2) (~ err_id st v1 /\ ~ err_id st v2) /\ new < len st'
  | Fail _ st' => kept st st' /\ (mixfree st -> forall rho, CSol st rho -> rho v1 = rho v2 -> False)
  | Panic => mixfree st -> forall rho, CSol st rho -> rho v1 = rho v2 -> False
  | NoFuel => True
  end.
Proof.
  intros TI L1 L2. unfold unify, unify_with, bind.
  pose proof (unify_inner_ok C declared n) as OK.
  pose proof (OK st v1 v2 (proj1 TI) L1 L2) as H.
  destruct (unify_inner C n v1 v2 st) as [new s1|e s1| |]; auto; try contradiction.
  - destruct H as [H Hn]. pose proof (tstep_of_step _ _ _ _ TI H) as T1.
    pose proof (constraint_loop_ok _ OK (S (length (cons s1))) s1 (ts_inv _ _ _ _ T1)) as X.
    destruct (constraint_loop (unify_inner C n) (S (length (cons s1))) s1) as [u s2|e s2| |]; auto.
    + cbn [ret]. split.
      * eapply tstep_weaken; [eapply tstep_trans; [exact T1 | exact X | auto | auto] | tauto | auto].
      * pose proof (ext_len _ _ (ts_vars _ _ _ _ X)). lia.
    + destruct X as [K Z]. split.
      * eapply kept_trans; [apply (ts_vars _ _ _ _ T1) | apply (ts_saved _ _ _ _ T1) | apply (ts_tl _ _ _ _ T1) | auto].
      * intros M rho Hs E. destruct (ts_complete _ _ _ _ T1 rho Hs E) as (rho' & H' & _).
        exact (Z (mixfree_step _ _ (ts_meta _ _ _ _ T1) M) rho' H').
    + intros M rho Hs E. destruct (ts_complete _ _ _ _ T1 rho Hs E) as (rho' & H' & _).
      exact (X (mixfree_step _ _ (ts_meta _ _ _ _ T1) M) rho' H').
  - destruct H as (F & I' & Z). split.
    + constructor.
      * apply (fr_vars _ _ F).
      * apply (fr_saved _ _ F).
      * apply (fr_tl _ _ F).
      * split; auto. rewrite (fr_cons _ _ F). eapply cons_lt_mono; [apply (frame_len _ _ F) | apply TI].
    + intros M rho [Hs _] E. exact (Z M rho Hs E).
Qed.
End Top.

(** ** In terms of the specification *)

Lemma completion_csol st val : Inv st -> (Completion st val <-> CSol st val).
Proof.
  intros (C & T & P). split.
  - intros [(th & R & V) S]. split; [eapply sol_of_valuation; eauto | exact S].
  - intros [Hs S]. split; [|exact S]. exists val. split; [apply sol_respects; auto|].
    intros v t R. exact (sol_resolves st val Hs v t R).
Qed.
