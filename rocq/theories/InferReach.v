(** The invariants hold in every state that inference reaches. *)
From Coq Require Import List Bool Arith ZArith Lia Permutation.
From Verif Require Import InferModel InferSpec InferChain InferState InferUnify InferCons InferTop InferFuel InferRoll InferTerm.
Import ListNotations.

Definition anywhere (_ : nat) : Prop := True.
Definition only0 (i : nat) : Prop := i = 0.

Lemma same_TInv a b : same a b -> TInv a -> TInv b.
Proof.
  intros S [I L]. split; [eapply same_Inv; eauto|]. rewrite (sm_cons _ _ S), (same_len _ _ S). auto.
Qed.

Lemma leaf_same E a b : same a b -> leaf E a -> leaf E b.
Proof. intros S L i ps. rewrite (sm_vars _ _ S). apply L. Qed.

Lemma same_TNE a b : same a b -> TNE a -> TNE b.
Proof.
  intros S [N X]. split; [eapply same_NE; eauto|]. intros v e. rewrite (sm_cons _ _ S), (same_err _ _ _ S). apply X.
Qed.

Lemma usable_inv st t : Inv st -> usable st t -> Inv (with_var st t).
Proof.
  intros (A & B & P) U.
  assert (IL : ids_lt (len st) t).
  { destruct t as [b ps|trs m]; [|exact I]. destruct U as (_ & F & S). split; auto.
    eapply Forall_impl; [|exact F]. intros p [_ Lp]. exact Lp. }
  split; [apply closed_with_var; auto|]. split; [apply total_with_var; auto|].
  intros i trs m N. apply nth_with_var in N as [[_ N]|[_ N]]; [eapply P; eauto|].
  subst t. exact U.
Qed.

Section Reach.
Variable C : context.
Hypothesis declared : forall n, sym C n = SDeclared.

Lemma start_inv : TInv (mkState [Known BError []] [[]] [] []) .
Proof.
  split; [split; [|split]|].
  - constructor.
    + discriminate.
    + intros k j H. discriminate.
    + intros [|[|i]] b ps H; try discriminate. injection H as <- <-. constructor.
    + intros [|[|i]] b ps H; try discriminate. injection H as <- <-. auto.
  - intros v L. cbn in L. assert (v = 0) as -> by lia. exists (TK BError []).
    eapply res_known; [reflexivity | reflexivity | constructor].
  - intros [|[|i]] trs m H; discriminate.
  - constructor.
Qed.

Lemma reach_inv er st : Reach C er st -> TInv st /\ leaf anywhere st /\ 0 < len st.
Proof.
  induction 1 as [|st t v st' _ IH U X|st n a b new st' _ IH La Lb X|st n a b e st' _ _ IH La Lb X
                  |st v e u st' _ IH Lv Le X|st v r st' _ IH Lv X].
  - split; [apply start_inv|]. split; [|cbn; lia].
    intros [|[|i]] ps H; try discriminate. injection H as <-. split; [auto | exact I].
  - destruct IH as ((I0 & L) & LF & P). injection X as <- <-.
    change (set_vars st (vars st ++ [t])) with (with_var st t).
    split; [split|split].
    + apply usable_inv; auto.
    + rewrite len_with_var. eapply cons_lt_mono; [|exact L]. lia.
    + intros i ps N. apply nth_with_var in N as [[_ N]|[_ N]]; [eapply LF; eauto|].
      subst t. destruct U as [U _]. congruence.
    + rewrite len_with_var. lia.
  - destruct IH as (TI & LF & P). destruct La as [_ La], Lb as [_ Lb].
    pose proof (unify_ok C declared n st a b TI La Lb) as H.
    pose proof (unify_leaf C declared anywhere n st a b TI LF La Lb) as HL. rewrite X in H, HL.
    destruct H as [T _]. split; [apply (ts_inv _ _ _ _ T)|]. split; auto.
    pose proof (ext_len _ _ (ts_vars _ _ _ _ T)). lia.
  - destruct IH as (TI & LF & P). destruct La as [_ La], Lb as [_ Lb].
    pose proof (unify_ok C declared n st a b TI La Lb) as H.
    pose proof (unify_leaf C declared anywhere n st a b TI LF La Lb) as HL. rewrite X in H, HL.
    destruct H as [T _]. split; [apply (kp_inv _ _ T)|]. split; [apply HL; intros; exact I|].
    pose proof (ext_len _ _ (kp_vars _ _ T)). lia.
  - destruct IH as ((I0 & L) & LF & P). injection X as <- <-. split; [|split; auto].
    split; [apply inv_set_cons; auto|]. cbn. apply Forall_app. split; [exact L|]. constructor; [|constructor].
    split; [apply Lv|]. eapply Forall_impl; [|exact Le]. intros p [_ Lp]. exact Lp.
  - destruct IH as (TI & LF & P). destruct Lv as [_ Lv].
    destruct (get_type_run st v (proj1 TI) Lv) as (r0 & s1 & G & _ & _ & S).
    rewrite G in X. injection X as <- <-.
    split; [eapply same_TInv; eauto|]. split; [eapply leaf_same; eauto|].
    rewrite (same_len _ _ S). auto.
Qed.

Lemma only0_err st v : leaf only0 st -> 0 < v -> ~ err_id st v.
Proof. intros L P (ps & H). apply L in H as [_ H]. unfold only0 in H. lia. Qed.

Lemma reach_clean st : Reach C false st -> TNE st /\ leaf only0 st.
Proof.
  remember false as er eqn:ER.
  induction 1 as [|st t v st' R IH U X|st n a b new st' R IH La Lb X|st n a b e st' Q _ _ _ _ _
                  |st v e u st' R IH Lv Le X|st v r st' R IH Lv X]; try congruence.
  - split.
    + split; [constructor|].
      * intros k r H _. inversion H; subst; [auto|discriminate].
      * intros [|[|i]] b ps p H; try discriminate. injection H as <- <-. intros [].
      * intros v e [].
    + intros [|[|i]] ps H; try discriminate. injection H as <-. split; auto. reflexivity.
  - destruct IH as ((N & D) & LF). destruct (reach_inv _ _ R) as ((I0 & L) & _ & P).
    injection X as <- <-. change (set_vars st (vars st ++ [t])) with (with_var st t).
    assert (OLD : forall i, i < len st -> ~ err_id st i -> ~ err_id (with_var st t) i).
    { intros i Li H (ps & Y). rewrite nth_with_var_old in Y by auto. apply H. exists ps. auto. }
    split; [split|].
    + apply NE_with_var; auto; [apply (proj1 I0)|]. destruct t as [b ps|]; auto.
      destruct U as (B & F & _). split; auto. eapply Forall_impl; [|exact F].
      intros p [P1 P2]. split; [exact P2|]. apply only0_err; auto.
    + intros v0 e0 H. apply OLD; [|eapply D; eauto].
      unfold cons_lt in L. rewrite Forall_forall in L. apply (L _ H).
    + intros i ps Y. apply nth_with_var in Y as [[_ Y]|[_ Y]]; [eapply LF; eauto|].
      subst t. destruct U as [U _]. congruence.
  - destruct IH as (TN & LF). destruct (reach_inv _ _ R) as (TI & _ & P).
    destruct La as [Pa La], Lb as [Pb Lb].
    pose proof (unify_ok C declared n st a b TI La Lb) as H.
    pose proof (unify_leaf C declared only0 n st a b TI LF La Lb) as HL. rewrite X in H, HL.
    destruct H as [T _]. split; auto. apply (ts_sound _ _ _ _ T); auto.
    split; apply only0_err; auto.
  - destruct IH as ((N & D) & LF). injection X as <- <-. split; [|auto]. split; [apply ne_set_cons; auto|].
    intros v0 e0 H. cbn in H. apply in_app_iff in H as [H|[H|[]]]; [apply (D _ _ H)|].
    injection H as <- <-. apply only0_err; [exact LF | apply Lv].
  - destruct IH as (TN & LF). destruct (reach_inv _ _ R) as (TI & _ & _). destruct Lv as [_ Lv].
    destruct (get_type_run st v (proj1 TI) Lv) as (r0 & s1 & G & _ & _ & S).
    rewrite G in X. injection X as <- <-. split; [eapply same_TNE; eauto | eapply leaf_same; eauto].
Qed.

Lemma resolves_lt st v t : closed st -> Resolves st v t -> v < len st.
Proof.
  intros CL H. destruct H as [v j t LK _|v b ps ts _ N _|v trs m _ N].
  - apply (cl_keys _ CL _ _ LK).
  - apply nth_error_Some. congruence.
  - apply nth_error_Some. congruence.
Qed.

(** what a successful step means for the trees *)
Lemma tstep_trees st st' P A : TInv st -> tstep st st' P A -> TNE st -> A ->
  exists th, respects st th /\ P th /\
    (forall v t, Resolves st v t -> th v = subst th t) /\
    (forall v t, Resolves st v t -> Resolves st' v (subst th t)) /\
    (forall v, v < len st' -> Resolves st' v (th v)) /\ Sol st' th.
Proof.
  intros (I0 & _) T TN HA. pose proof (ts_inv _ _ _ _ T) as (I1 & _).
  destruct (principal st' (proj1 I1) (proj1 (proj2 I1))) as (rho & F & Hs).
  destruct (ts_links _ _ _ _ T TN HA rho Hs) as [Hs0 HP].
  exists rho. split; [apply sol_respects; auto|]. split; auto. split; [apply sol_resolves; auto|]. split; auto.
  intros v t R. pose proof (resolves_lt _ _ _ (proj1 I0) R) as L.
  rewrite <- (sol_resolves st rho Hs0 v t R). apply F.
  pose proof (ext_len _ _ (ts_vars _ _ _ _ T)). lia.
Qed.

Definition holds_all (l : list (nat * nat)) (rho : nat -> ty) : Prop :=
  forall a b, In (a, b) l -> rho a = rho b.

Lemma equate_ok n l : forall st u st', TInv st -> (forall a b, In (a, b) l -> a < len st /\ b < len st) ->
  equate C n l st = Done u st' ->
  tstep st st' (holds_all l) (forall a b, In (a, b) l -> ~ err_id st a /\ ~ err_id st b).
Proof.
  induction l as [|[a b] l IH]; intros st u st' TI L H.
  - injection H as <- <-. destruct TI as [I0 L0].
    constructor; auto; try (split; auto; fail).
    + exists []. rewrite app_nil_r. auto.
    + intros rho H _. exists rho. split; auto. intros i _. auto.
    + intros N _. split; auto. intros rho H. split; auto. intros x y [].
    + intros N _ rho H. split; auto. intros x y [].
  - cbn in H. unfold bind in H. destruct (L a b (or_introl eq_refl)) as [La Lb].
    pose proof (unify_ok C declared n st a b TI La Lb) as OK.
    destruct (unify C n a b st) as [new s1| | |]; try discriminate. destruct OK as [T _].
    pose proof (ext_len _ _ (ts_vars _ _ _ _ T)) as EL.
    assert (L1 : forall x y, In (x, y) l -> x < len s1 /\ y < len s1).
    { intros x y X. destruct (L x y (or_intror X)). split; lia. }
    pose proof (IH s1 u st' (ts_inv _ _ _ _ T) L1 H) as T1.
    assert (T0 : tstep st s1 (fun rho => rho a = rho b)
       (forall x y, In (x, y) ((a, b) :: l) -> ~ err_id st x /\ ~ err_id st y)).
    { eapply tstep_weaken; [exact T | tauto |]. intros _ X. apply X. left. auto. }
    eapply tstep_weaken; [eapply (tstep_trans _ _ _ _ _ _ _ T0 T1) | | auto].
    + intros rho rho' AG X x y Y. destruct (L x y (or_intror Y)). rewrite <- !AG by auto. apply X. auto.
    + intros _ X x y Y. destruct (X x y (or_intror Y)) as [Ex Ey]. destruct (L x y (or_intror Y)).
      destruct (ts_vars _ _ _ _ T) as [ext V].
      assert (SAME : forall i, i < len st -> err_id s1 i -> err_id st i).
      { intros i Li (ps & Q). rewrite V, nth_error_app1 in Q by auto. exists ps. auto. }
      split; intros Z; [apply Ex | apply Ey]; apply SAME; auto.
    + intros rho. split.
      * intros [X Y] x y [Z|Z]; [injection Z as <- <-; auto | auto].
      * intros X. split; [apply X; left; auto | intros x y Y; apply X; right; auto].
Qed.

(** completeness of a call, and of several *)
Lemma unify_complete st a b val : TInv st -> leaf anywhere st -> mixfree st -> a < len st -> b < len st ->
  CSol st val -> val a = val b ->
  exists n0, forall n, n0 <= n -> exists new st' val', unify C n a b st = Done new st' /\
    tstep st st' (fun rho => rho a = rho b) (~ err_id st a /\ ~ err_id st b) /\ leaf anywhere st' /\
    CSol st' val' /\ agree (len st) val val'.
Proof.
  intros TI LF MX La Lb Hs E.
  destruct (unify_terminates C declared anywhere st a b TI LF La Lb) as (n0 & T). exists n0. intros n Ln.
  rewrite (unify_fuel C n0 n) by auto.
  pose proof (unify_ok C declared n0 st a b TI La Lb) as OK.
  pose proof (unify_leaf C declared anywhere n0 st a b TI LF La Lb) as HL.
  destruct (unify C n0 a b st) as [new s1|e s1| |]; try congruence.
  - destruct OK as [TS _]. destruct (ts_complete _ _ _ _ TS val Hs E) as (val' & H' & A).
    exists new, s1, val'. auto.
  - destruct OK as [_ X]. destruct (X MX val Hs E).
  - destruct (OK MX val Hs E).
Qed.

Lemma equate_complete l : forall st val, TInv st -> leaf anywhere st -> mixfree st ->
  (forall a b, In (a, b) l -> a < len st /\ b < len st) ->
  CSol st val -> holds_all l val ->
  exists n0, forall n, n0 <= n -> exists st', equate C n l st = Done tt st'.
Proof.
  induction l as [|[a b] l IH]; intros st val TI LF MX L Hs E.
  - exists 0. intros n _. exists st. reflexivity.
  - destruct (L a b (or_introl eq_refl)) as [La Lb].
    destruct (unify_complete st a b val TI LF MX La Lb Hs (E a b (or_introl eq_refl))) as (n0 & U).
    destruct (U n0 (le_n _)) as (new & s1 & val' & X & T & LF1 & Hs1 & AG).
    pose proof (ext_len _ _ (ts_vars _ _ _ _ T)) as EL.
    destruct (IH s1 val') as (n1 & Y); auto.
    { apply (ts_inv _ _ _ _ T). }
    { eapply mixfree_step; [apply (ts_meta _ _ _ _ T) | auto]. }
    { intros x y I0. destruct (L x y (or_intror I0)). split; lia. }
    { intros x y I0. destruct (L x y (or_intror I0)). rewrite <- !AG by auto. apply E. right. auto. }
    exists (Nat.max n0 n1). intros n Ln. destruct (Y n) as (st' & Z); [lia|]. exists st'.
    cbn. unfold bind. rewrite (unify_fuel C n0 n) by (try lia; congruence). rewrite X. auto.
Qed.
End Reach.

(** ** Attempts *)

Section op_ind2.
Variable P : op -> Prop.
Hypothesis Hn : forall t, P (ONew t).
Hypothesis He : forall a b, P (OEqual a b).
Hypothesis Hr : forall v e, P (ORequire v e).
Hypothesis Hl : forall v, P (OLook v).
Hypothesis Ht : forall l, Forall P l -> P (OTry l).
Fixpoint op_ind2 o : P o :=
  match o with
  | ONew t => Hn t | OEqual a b => He a b | ORequire v e => Hr v e | OLook v => Hl v
  | OTry l => Ht l ((fix go l : Forall P l :=
      match l with [] => Forall_nil _ | x :: r => Forall_cons x (op_ind2 x) (go r) end) l)
  end.
End op_ind2.

Section Attempt.
Variable C : context.
Variable arity : base -> option nat.
Hypothesis AR : arity_ok arity.
Hypothesis IM : forall b, Forall (impl_counts arity b) (impls C b).

Lemma performs n : forall o st st', op_counts arity o -> counts arity st -> repl st <> [] ->
  perform C n o st = Some st' ->
  keeps arity st st' /\ match o with OTry _ => repl st' = repl st /\ cons st' = cons st | _ => True end.
Proof.
  destruct AR as [AE AS].
  induction o as [t|a b|v e|v|l IH] using op_ind2; intros st st' OC CN N H.
  - pose proof (bal_add arity t) as B. cbn in H, OC. split; auto.
    assert (TV : tv_ok arity t) by (destruct t; exact OC).
    specialize (B TV st CN N). cbn in B. injection H as <-. apply B.
  - split; auto. cbn in H.
    pose proof (bal_unify C arity IM AE (fun k => AS (BInt k) eq_refl) (fun k => AS (BBool k) eq_refl)
      (fun k => AS (BStr k) eq_refl) n a b st CN N) as B.
    destruct (unify C n a b st) as [x s|x s| |]; cbn in H; try discriminate; injection H as <-; [apply B | exact B].
  - split; auto. cbn in H. injection H as <-. constructor; auto. exists []. rewrite app_nil_r. auto.
  - split; auto. cbn in H. pose proof (bal_get_type arity v st CN N) as B.
    destruct (get_type v st) as [x s|x s| |]; cbn in H; try discriminate; injection H as <-; [apply B | exact B].
  - cbn [perform checkpoint] in H.
    set (s1 := mkState (vars st) ([] :: repl st) (cons st) (cons st :: saved st)) in *.
    set (go := fix go (l : list op) (st : state) : option state :=
                   match l with
                   | [] => Some st
                   | o :: r => match perform C n o st with Some st' => go r st' | None => None end
                   end) in H.
    assert (G : forall l s s', Forall (fun o => forall st st', op_counts arity o -> counts arity st ->
                   repl st <> [] -> perform C n o st = Some st' ->
                   keeps arity st st' /\ match o with OTry _ => repl st' = repl st /\ cons st' = cons st | _ => True end) l ->
        (fix all l := match l with [] => True | x :: r => op_counts arity x /\ all r end) l ->
        counts arity s -> repl s <> [] -> go l s = Some s' -> keeps arity s s').
    { clear. induction l as [|o l IHl]; intros s s' F OC CN N H.
      - injection H as <-. apply keeps_refl.
      - cbn in H. inversion F as [|? ? P1 P2]; subst. destruct OC as [O1 O2].
        destruct (perform C n o s) as [s1|] eqn:E; [|discriminate].
        destruct (P1 s s1 O1 CN N E) as [K _].
        eapply keeps_trans; [exact K|]. eapply IHl; eauto.
        + apply (ks_counts _ _ _ K CN).
        + apply (ks_nil _ _ _ K N). }
    destruct (go l s1) as [s2|] eqn:E; [|discriminate].
    assert (N1 : repl s1 <> []) by (cbn; discriminate).
    pose proof (G l s1 s2 IH OC CN N1 E) as K.
    unfold restore in H. rewrite (ks_saved _ _ _ K) in H. cbn in H. injection H as <-.
    split; [|cbn; rewrite (ks_tl _ _ _ K); auto].
    constructor; cbn; auto.
    + rewrite (ks_tl _ _ _ K). auto.
    + rewrite (ks_tl _ _ _ K). auto.
    + apply (ks_vars _ _ _ K).
    + exact (ks_counts _ _ _ K).
Qed.
End Attempt.

Lemma resolves_more st st' v t : repl st' = repl st -> (exists ext, vars st' = vars st ++ ext) ->
  Resolves st v t -> Resolves st' v t.
Proof.
  intros R [ext V] H. induction H using Resolves_ind2.
  - eapply res_link; eauto. rewrite R. auto.
  - eapply res_known; eauto; [rewrite R; auto|]. rewrite V, nth_error_app1; auto. apply nth_error_Some. congruence.
  - eapply res_unknown; [rewrite R; auto|]. rewrite V, nth_error_app1; eauto. apply nth_error_Some. congruence.
Qed.
