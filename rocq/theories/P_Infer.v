(** Type inference: C26 rollback, C27 soundness and C28 completeness of
    unification, C29 finite types, C30 constraints, C31 widths, C43 meta types. *)
From Coq Require Import List Bool Arith ZArith Lia Permutation.
From Verif Require Import InferModel InferSpec InferChain InferState InferUnify InferCons InferTop InferFuel InferRoll InferTerm InferReach.
Import ListNotations.

(** ** C26 *)

(** What a lookup returns *)
Definition found (v : nat) (st : state) : option nat :=
  match get_type v st with Done r _ => Some r | _ => None end.

(** A lookup changes neither what any variable stands for nor what any later
    lookup returns. *)
Theorem C26_lookup : forall st v r st', repl st <> [] ->
  get_type v st = Done r st' ->
  (forall w, found w st' = found w st) /\
  (forall w t, Resolves st' w t <-> Resolves st w t) /\
  cons st' = cons st /\ saved st' = saved st /\ vars st' = vars st.
Proof.
  intros st v r st' N H. unfold get_type in H.
  destruct (get (repl st) v) as [[t R]|] eqn:G; [|discriminate]. injection H as <- <-.
  destruct (get_inv _ _ _ _ N G) as (E & Q & T & N'). split; [|split; [|auto]].
  - intros w. unfold found, get_type. cbn [repl set_repl].
    destruct (get (repl st) w) as [[x R1]|] eqn:G1.
    + destruct (get_inv _ _ _ _ N G1) as (E1 & _). apply Q in E1.
      destruct (get_spec _ _ _ N' E1) as (R2 & G2 & _). rewrite G2. auto.
    + destruct (get R w) as [[x R1]|] eqn:G2; [|auto].
      destruct (get_inv _ _ _ _ N' G2) as (E1 & _). apply Q in E1.
      destruct (get_spec _ _ _ N E1) as (R2 & G3 & _). congruence.
  - intros w x. split; intros H; (eapply resolves_req; [| |exact H]); auto. cbn. apply req_sym. auto.
Qed.
Print Assumptions C26_lookup.

(** A speculative attempt (checkpoint, any new types, equations that succeed or
    fail, constraints, lookups and nested attempts, then restore) leaves every
    earlier type as it was, when no two implementations of a trait are for tuples:
    types that have implementations have a fixed number of parameters. *)
Theorem C26_rollback_partial : forall C arity n l st st',
  arity_ok arity -> (forall b, Forall (impl_counts arity b) (impls C b)) ->
  Forall (tvar_counts arity) (vars st) -> op_counts arity (OTry l) -> repl st <> [] ->
  perform C n (OTry l) st = Some st' ->
  (forall v, found v st' = found v st) /\
  (forall v t, Resolves st v t -> Resolves st' v t) /\
  cons st' = cons st /\ saved st' = saved st /\ repl st' = repl st /\
  exists new, vars st' = vars st ++ new.
Proof.
  intros C arity n l st st' AR IM CN OC N H.
  assert (CN' : counts arity st).
  { intros i b ps k X A. rewrite Forall_forall in CN. apply (CN (Known b ps)); auto.
    eapply nth_error_In; eauto. }
  destruct (performs C arity AR IM n (OTry l) st st' OC CN' N H) as (K & R & D).
  split; [|split; [|split; [auto|split; [apply (ks_saved _ _ _ K)|split; [auto|apply (ks_vars _ _ _ K)]]]]].
  - intros v. unfold found, get_type. rewrite R. destruct (get (repl st) v) as [[x Y]|]; auto.
  - intros v t. apply resolves_more; auto. apply (ks_vars _ _ _ K).
Qed.
Print Assumptions C26_rollback_partial.

(** Two implementations of a trait, for pairs and for triples *)
Definition tuple_impls : context :=
  mkCtx (fun _ => SDeclared)
    (fun b => match b with
              | BTuple => [mkImpl 7 [([], MType); ([], MType)] [TmV 0; TmV 1] [];
                           mkImpl 7 [([], MType); ([], MType); ([], MType)] [TmV 0; TmV 1; TmV 2] []]
              | _ => []
              end).

(** As the code stands, looking for the implementation for a triple forgets to undo
    the checkpoint taken for the one for pairs: an attempt that equates the types 3
    and 4 and then needs the trait leaves them equated after the rollback. *)
Definition leak_state : state :=
  mkState [Known BError []; Known (BNamed 1) []; Known BTuple [1; 1; 1];
           Unknown [] MType; Known (BNamed 2) []; Unknown [(7, [])] MType] [[]] [] [].
Theorem C26_leak_refuted : exists st',
  perform tuple_impls 10 (OTry [OEqual 3 4; OEqual 2 5]) leak_state = Some st' /\
  Resolves leak_state 3 (TF 3 MType) /\ ~ Resolves st' 3 (TF 3 MType) /\
  Resolves st' 3 (TK (BNamed 2) []).
Proof.
  eexists. split; [vm_compute; reflexivity|].
  split; [eapply res_unknown; reflexivity|].
  match goal with |- ~ Resolves ?s _ _ /\ _ => set (s0 := s) end.
  assert (B : Resolves s0 3 (TK (BNamed 2) [])).
  { eapply res_link; [vm_compute; reflexivity|]. eapply res_known; [vm_compute; reflexivity | vm_compute; reflexivity | constructor]. }
  split; auto. intros X. pose proof (resolves_det _ _ _ B _ X). discriminate.
Qed.
Print Assumptions C26_leak_refuted.

(** ** C27 *)

(** After a successful equation the two types are the same type, when no unknown
    type has trait bounds and there are no generic parameters in scope. *)
Theorem C27_equal_partial : forall C st n v1 v2 new st',
  (forall x, sym C x = SDeclared) ->
  Reach C false st -> ordinary st v1 -> ordinary st v2 ->
  unify C n v1 v2 st = Done new st' ->
  exists t, Resolves st' v1 t /\ Resolves st' v2 t.
Proof.
  intros C st n v1 v2 new st' D R [P1 L1] [P2 L2] H.
  destruct (reach_inv C D _ _ R) as (TI & _ & _). destruct (reach_clean C D _ R) as (TN & LF).
  pose proof (unify_ok C D n st v1 v2 TI L1 L2) as OK. rewrite H in OK. destruct OK as [T _].
  destruct (tstep_trees _ _ _ _ TI T TN) as (th & _ & EQ & _ & _ & F & _).
  { split; eapply only0_err; eauto. }
  pose proof (ext_len _ _ (ts_vars _ _ _ _ T)) as EL. unfold len in EL.
  exists (th v1). split; [apply F; unfold len; lia|]. rewrite EQ. apply F. unfold len. lia.
Qed.
Print Assumptions C27_equal_partial.

(** All other types only become more definite, and consistently: there is one
    substitution of types of the right kinds for the unknown ones that turns every
    old type into the new one. *)
Theorem C27_refines_partial : forall C st n v1 v2 new st',
  (forall x, sym C x = SDeclared) ->
  Reach C false st -> ordinary st v1 -> ordinary st v2 ->
  unify C n v1 v2 st = Done new st' ->
  exists th, respects st th /\ forall v t, Resolves st v t -> Resolves st' v (subst th t).
Proof.
  intros C st n v1 v2 new st' D R [P1 L1] [P2 L2] H.
  destruct (reach_inv C D _ _ R) as (TI & _ & _). destruct (reach_clean C D _ R) as (TN & LF).
  pose proof (unify_ok C D n st v1 v2 TI L1 L2) as OK. rewrite H in OK. destruct OK as [T _].
  destruct (tstep_trees _ _ _ _ TI T TN) as (th & RS & _ & _ & F & _).
  { split; eapply only0_err; eauto. }
  exists th. auto.
Qed.
Print Assumptions C27_refines_partial.

Theorem C27_stay_equal_partial : forall C st n v1 v2 new st' a b t,
  (forall x, sym C x = SDeclared) ->
  Reach C false st -> ordinary st v1 -> ordinary st v2 ->
  unify C n v1 v2 st = Done new st' ->
  Resolves st a t -> Resolves st b t -> exists t', Resolves st' a t' /\ Resolves st' b t'.
Proof.
  intros C st n v1 v2 new st' a b t D R O1 O2 H A B.
  destruct (C27_refines_partial C st n v1 v2 new st' D R O1 O2 H) as (th & _ & F).
  exists (subst th t). auto.
Qed.
Print Assumptions C27_stay_equal_partial.

(** [impl<T> Tr<T> for Foo<T>] *)
Definition foo_impl : context :=
  mkCtx (fun _ => SDeclared)
    (fun b => match b with BNamed 1 => [mkImpl 7 [([], MType)] [TmV 0] [TmV 0]] | _ => [] end).

(** As the code stands, with trait bounds: unifying an unknown type with itself
    makes a new type that nothing is linked to.  Here 2 and 3 are both [Foo<a>],
    with [a] unknown, and 4 is unknown with the bound [Tr<a>].  Unifying 2 and 4
    turns 2 into [Foo<x>] with a new [x], while 3 stays [Foo<a>]; when [a] becomes
    known later, 2 and 3 are different types. *)
Definition foo_state : state :=
  mkState [Known BError []; Unknown [] MType; Known (BNamed 1) [1]; Known (BNamed 1) [1];
           Unknown [(7, [1])] MType; Known (BNamed 5) []] [[]] [] [].
Theorem C27_unlinked_refuted : exists new st1 new' st2 t2 t3,
  Resolves foo_state 2 (TK (BNamed 1) [TF 1 MType]) /\
  Resolves foo_state 3 (TK (BNamed 1) [TF 1 MType]) /\
  unify foo_impl 10 2 4 foo_state = Done new st1 /\
  unify foo_impl 10 1 5 st1 = Done new' st2 /\
  Resolves st2 2 t2 /\ Resolves st2 3 t3 /\ t2 <> t3 /\ t3 = TK (BNamed 1) [TK (BNamed 5) []].
Proof.
  do 6 eexists.
  split. { eapply res_known; [reflexivity | reflexivity |]. constructor; [|constructor]. eapply res_unknown; reflexivity. }
  split. { eapply res_known; [reflexivity | reflexivity |]. constructor; [|constructor]. eapply res_unknown; reflexivity. }
  split; [vm_compute; reflexivity|]. split; [vm_compute; reflexivity|].
  split. { eapply res_link; [vm_compute; reflexivity|]. eapply res_known; [vm_compute; reflexivity | vm_compute; reflexivity |].
           constructor; [|constructor]. eapply res_unknown; vm_compute; reflexivity. }
  split. { eapply res_known; [vm_compute; reflexivity | vm_compute; reflexivity |].
           constructor; [|constructor]. eapply res_link; [vm_compute; reflexivity|].
           try (eapply res_link; [vm_compute; reflexivity|]).
           eapply res_known; [vm_compute; reflexivity | vm_compute; reflexivity | constructor]. }
  split; [discriminate | reflexivity].
Qed.
Print Assumptions C27_unlinked_refuted.

(** As the code stands, with a generic parameter in scope: it unifies with every
    declared type without becoming it. *)
Theorem C27_generic_refuted : exists st',
  let C := mkCtx (fun n => if n =? 3 then SGenericArg false else SDeclared) (fun _ => []) in
  let st := mkState [Known BError []; Known (BNamed 3) []; Known (BNamed 4) []] [[]] [] [] in
  unify C 10 1 2 st = Done 2 st' /\
  Resolves st' 1 (TK (BNamed 3) []) /\ Resolves st' 2 (TK (BNamed 4) []) /\
  forall t, ~ (Resolves st' 1 t /\ Resolves st' 2 t).
Proof.
  eexists. cbv zeta. split; [vm_compute; reflexivity|].
  match goal with |- Resolves ?s _ _ /\ _ => set (s0 := s) end.
  assert (A : Resolves s0 1 (TK (BNamed 3) [])) by (eapply res_known; [reflexivity | reflexivity | constructor]).
  assert (B : Resolves s0 2 (TK (BNamed 4) [])) by (eapply res_known; [reflexivity | reflexivity | constructor]).
  split; auto. split; auto. intros t [X Y].
  pose proof (resolves_det _ _ _ A _ X). pose proof (resolves_det _ _ _ B _ Y). congruence.
Qed.
Print Assumptions C27_generic_refuted.

(** ** C28 *)

(** If some completion of the state makes the types equal, the equation succeeds,
    whatever went wrong before, and that completion extends to the new state. *)
Theorem C28_complete_partial : forall C st v1 v2 val,
  (forall x, sym C x = SDeclared) ->
  Reach C true st -> ordinary st v1 -> ordinary st v2 -> one_sign st ->
  Completion st val -> val v1 = val v2 ->
  exists n0, forall n, n0 <= n -> exists new st' val',
    unify C n v1 v2 st = Done new st' /\
    Completion st' val' /\ forall v, v < length (vars st) -> val' v = val v.
Proof.
  intros C st v1 v2 val D R [_ L1] [_ L2] MX CM E.
  destruct (reach_inv C D _ _ R) as (TI & LF & _).
  apply completion_csol in CM; [|apply (proj1 TI)].
  destruct (unify_complete C D st v1 v2 val TI LF MX L1 L2 CM E) as (n0 & H).
  exists n0. intros n Ln. destruct (H n Ln) as (new & st' & val' & U & T & _ & CS & A).
  exists new, st', val'. split; auto. split.
  - apply completion_csol; [apply (ts_inv _ _ _ _ T) | auto].
  - intros v Lv. symmetry. apply A. exact Lv.
Qed.
Print Assumptions C28_complete_partial.

(** Completions lost: none; and none gained either, when nothing failed before. *)
Theorem C28_exact_partial : forall C st n v1 v2 new st' val,
  (forall x, sym C x = SDeclared) ->
  Reach C false st -> ordinary st v1 -> ordinary st v2 ->
  unify C n v1 v2 st = Done new st' ->
  Completion st' val -> Completion st val /\ val v1 = val v2.
Proof.
  intros C st n v1 v2 new st' val D R [P1 L1] [P2 L2] H CM.
  destruct (reach_inv C D _ _ R) as (TI & _ & _). destruct (reach_clean C D _ R) as (TN & LF).
  pose proof (unify_ok C D n st v1 v2 TI L1 L2) as OK. rewrite H in OK. destruct OK as [T _].
  apply completion_csol in CM; [|apply (ts_inv _ _ _ _ T)].
  destruct (ts_sound _ _ _ _ T TN) as [_ S]; [split; eapply only0_err; eauto|].
  destruct (S val CM) as [A B]. split; auto. apply completion_csol; auto. apply (proj1 TI).
Qed.
Print Assumptions C28_exact_partial.

(** As the code stands, an unknown signed size never equals an unknown unsigned
    size, although 5 is both. *)
Definition no_impls : context := mkCtx (fun _ => SDeclared) (fun _ => []).
Definition signs : state := mkState [Known BError []; Unknown [] MInt; Unknown [] MUint; Known (BInt 5) []] [[]] [] [].
Theorem C28_sign_refuted :
  Reach no_impls true signs /\
  (exists val, Completion signs val /\ val 1 = val 2) /\
  (forall n, exists st', unify no_impls (S n) 1 2 signs = Fail EMeta st') /\
  (exists new st1 new' st2, unify no_impls 10 1 3 signs = Done new st1 /\ unify no_impls 10 1 2 st1 = Done new' st2).
Proof.
  split.
  { assert (A : Reach no_impls true (mkState [Known BError []; Unknown [] MInt] [[]] [] [])).
    { eapply (reach_new _ _ _ (Unknown [] MInt)); [apply reach_start | reflexivity | reflexivity]. }
    assert (B : Reach no_impls true (mkState [Known BError []; Unknown [] MInt; Unknown [] MUint] [[]] [] [])).
    { eapply (reach_new _ _ _ (Unknown [] MUint)); [exact A | reflexivity | reflexivity]. }
    eapply (reach_new _ _ _ (Known (BInt 5) [])); [exact B | | reflexivity].
    split; [discriminate|]. split; [constructor | reflexivity]. }
  split.
  { exists (fun v => match v with 0 => TK BError [] | _ => TK (BInt 5) [] end). split; [|reflexivity].
    split; [|intros v e []]. exists (fun _ => TK (BInt 5) []). split.
    - intros [|[|[|[|v]]]] trs m _ N; try discriminate.
      + injection N as <- <-. exact I.
      + injection N as <- <-. cbn. lia.
      + destruct v; discriminate.
    - intros v t R. inversion R as [? j ? LK _|? b ps ts LK N F|? trs m LK N]; subst; [discriminate| |].
      + destruct v as [|[|[|[|v]]]]; try discriminate.
        * injection N as <- <-. inversion F; subst. reflexivity.
        * injection N as <- <-. inversion F; subst. reflexivity.
        * destruct v; discriminate.
      + destruct v as [|[|[|[|v]]]]; try discriminate; [reflexivity | reflexivity | destruct v; discriminate]. }
  split.
  - intros n. assert (E : exists st', unify no_impls 1 1 2 signs = Fail EMeta st') by (eexists; vm_compute; reflexivity).
    destruct E as (st' & E). exists st'. rewrite (unify_fuel no_impls 1 (S n)); auto; [lia|]. congruence.
  - do 4 eexists. split; [vm_compute; reflexivity|]. vm_compute. reflexivity.
Qed.
Print Assumptions C28_sign_refuted.

(** ** C29 *)

(** After any history, with equations that failed as well, every type is a finite
    tree and looking it up ends. *)
Theorem C29_finite_partial : forall C st v,
  (forall x, sym C x = SDeclared) -> Reach C true st -> v < length (vars st) ->
  (exists t, Resolves st v t) /\ (exists r st', get_type v st = Done r st').
Proof.
  intros C st v D R L. destruct (reach_inv C D _ _ R) as (TI & _ & _). split.
  - apply (proj1 (proj2 (proj1 TI))). exact L.
  - destruct (get_type_run st v (proj1 TI) L) as (r & s & G & _). eauto.
Qed.
Print Assumptions C29_finite_partial.

(** Unification, with the solving of the constraints it triggers, ends. *)
Theorem C29_terminates_partial : forall C st v1 v2,
  (forall x, sym C x = SDeclared) -> Reach C true st -> ordinary st v1 -> ordinary st v2 ->
  exists n0, forall n, n0 <= n -> unify C n v1 v2 st <> NoFuel.
Proof.
  intros C st v1 v2 D R [_ L1] [_ L2]. destruct (reach_inv C D _ _ R) as (TI & LF & _).
  destruct (unify_terminates C D anywhere st v1 v2 TI LF L1 L2) as (n0 & T). exists n0.
  intros n Ln. rewrite (unify_fuel C n0 n); auto.
Qed.
Print Assumptions C29_terminates_partial.

(** ** C30 *)

(** A constraint is still there after an equation, or was solved: then its variable
    is known, and its value is the value of the expression whatever the remaining
    unknown types become. *)
Theorem C30_solved_partial : forall C st n v1 v2 new st' v e,
  (forall x, sym C x = SDeclared) ->
  Reach C false st -> ordinary st v1 -> ordinary st v2 ->
  unify C n v1 v2 st = Done new st' -> In (v, e) (cons st) ->
  In (v, e) (cons st') \/
  exists k, Resolves st' v (TK k []) /\
    forall th val, respects st' th -> valuation st' th val -> Value val e k.
Proof.
  intros C st n v1 v2 new st' v e D R [P1 L1] [P2 L2] H I0.
  destruct (reach_inv C D _ _ R) as (TI & _ & _). destruct (reach_clean C D _ R) as (TN & LF).
  pose proof (unify_ok C D n st v1 v2 TI L1 L2) as OK. rewrite H in OK. destruct OK as [T _].
  assert (NE : ~ err_id st v1 /\ ~ err_id st v2) by (split; eapply only0_err; eauto).
  destruct (ts_solved _ _ _ _ T TN NE v e I0) as [X|(k & X)]; auto. right. exists k.
  pose proof (proj1 (ts_inv _ _ _ _ T)) as I1. split.
  - destruct (tstep_trees _ _ _ _ TI T TN NE) as (th & _ & _ & _ & _ & F & Hs).
    destruct (X th Hs) as [E _]. rewrite <- E. apply F.
    pose proof (ext_len _ _ (ts_vars _ _ _ _ T)).
    destruct TI as [_ CL]. unfold cons_lt in CL. rewrite Forall_forall in CL. destruct (CL _ I0). cbn in *. lia.
  - intros th val RS VL. apply X. eapply sol_of_valuation; eauto; apply I1.
Qed.
Print Assumptions C30_solved_partial.

(** Evaluating an expression gives its value under every completion, or leaves it
    as it is. *)
Theorem C30_evaluate_partial : forall C er st e e',
  (forall x, sym C x = SDeclared) ->
  Reach C er st -> Forall (ordinary st) (cvars e) -> evaluate st e = Some e' ->
  e' = e \/
  (exists k, (e' = match k with BInt z => CInt z | BBool b => CBool b | BStr s => CStr s | _ => e end) /\ scalar k = true /\
     forall th val, respects st th -> valuation st th val -> Value val e k).
Proof.
  intros C er st e e' D R F H. destruct (reach_inv C D _ _ R) as ((I0 & _) & _ & _).
  assert (S : small (len st) (cvars e)).
  { eapply Forall_impl; [|exact F]. intros p [_ Lp]. exact Lp. }
  pose proof (evaluate_ok st (proj1 I0) (total_chains _ (proj1 I0) (proj1 (proj2 I0))) e S) as E. rewrite H in E. destruct E as [E|(k & L & E)]; auto.
  right. exists k. assert (X : forall th val, respects st th -> valuation st th val -> Value val e k).
  { intros th val RS VL. apply E. eapply sol_of_valuation; eauto; apply I0. }
  destruct e'; try discriminate; injection L as <-; auto.
Qed.
Print Assumptions C30_evaluate_partial.

(** It does not matter in which order the same equations are made: the same
    completions are left, so the order also does not decide what is solved. *)
Theorem C30_order_partial : forall C st n1 l1 st1 n2 l2 st2 val,
  (forall x, sym C x = SDeclared) ->
  Reach C false st -> (forall a b, In (a, b) l1 -> ordinary st a /\ ordinary st b) ->
  Permutation l1 l2 ->
  equate C n1 l1 st = Done tt st1 -> equate C n2 l2 st = Done tt st2 ->
  Completion st1 val ->
  exists val', Completion st2 val' /\ forall v, v < length (vars st) -> val' v = val v.
Proof.
  intros C st n1 l1 st1 n2 l2 st2 val D R O PM E1 E2 CM.
  destruct (reach_inv C D _ _ R) as (TI & _ & _). destruct (reach_clean C D _ R) as (TN & LF).
  assert (O2 : forall a b, In (a, b) l2 -> ordinary st a /\ ordinary st b).
  { intros a b X. apply O. eapply Permutation_in; [apply Permutation_sym; eauto | auto]. }
  assert (LT : forall l, (forall a b, In (a, b) l -> ordinary st a /\ ordinary st b) ->
     forall a b, In (a, b) l -> a < len st /\ b < len st).
  { intros l X a b Y. destruct (X a b Y) as [[_ A] [_ B]]. auto. }
  pose proof (equate_ok C D n1 l1 st tt st1 TI (LT l1 O) E1) as T1.
  pose proof (equate_ok C D n2 l2 st tt st2 TI (LT l2 O2) E2) as T2.
  apply completion_csol in CM; [|apply (ts_inv _ _ _ _ T1)].
  destruct (ts_sound _ _ _ _ T1 TN) as [_ S].
  { intros a b X. destruct (O a b X) as [[A _] [B _]]. split; eapply only0_err; eauto. }
  destruct (S val CM) as [A B].
  destruct (ts_complete _ _ _ _ T2 val A) as (val' & CS & AG).
  { intros a b X. apply B. eapply Permutation_in; [apply Permutation_sym; eauto | auto]. }
  exists val'. split; [apply completion_csol; [apply (ts_inv _ _ _ _ T2) | auto]|].
  intros v Lv. symmetry. apply AG. exact Lv.
Qed.
Print Assumptions C30_order_partial.

(** And if one order succeeds, with a completion left, so does every other. *)
Theorem C30_order_succeeds_partial : forall C st n1 l1 st1 l2 val,
  (forall x, sym C x = SDeclared) ->
  Reach C false st -> one_sign st -> (forall a b, In (a, b) l1 -> ordinary st a /\ ordinary st b) ->
  Permutation l1 l2 ->
  equate C n1 l1 st = Done tt st1 -> Completion st1 val ->
  exists n0, forall n, n0 <= n -> exists st2, equate C n l2 st = Done tt st2.
Proof.
  intros C st n1 l1 st1 l2 val D R MX O PM E1 CM.
  destruct (reach_inv C D _ _ R) as (TI & LA & _). destruct (reach_clean C D _ R) as (TN & LF).
  assert (LT : forall a b, In (a, b) l1 -> a < len st /\ b < len st).
  { intros a b Y. destruct (O a b Y) as [[_ A] [_ B]]. auto. }
  pose proof (equate_ok C D n1 l1 st tt st1 TI LT E1) as T1.
  apply completion_csol in CM; [|apply (ts_inv _ _ _ _ T1)].
  destruct (ts_sound _ _ _ _ T1 TN) as [_ S].
  { intros a b X. destruct (O a b X) as [[A _] [B _]]. split; eapply only0_err; eauto. }
  destruct (S val CM) as [A B].
  eapply (equate_complete C D l2 st val); auto.
  - intros a b X. apply LT. eapply Permutation_in; [apply Permutation_sym; eauto | auto].
  - intros a b X. apply B. eapply Permutation_in; [apply Permutation_sym; eauto | auto].
Qed.
Print Assumptions C30_order_succeeds_partial.

(** With all constraints solved, the inferred types are the same up to the names of
    the types still unknown: each is an instance of the other. *)
Theorem C30_order_types_partial : forall C st n1 l1 st1 n2 l2 st2,
  (forall x, sym C x = SDeclared) ->
  Reach C false st -> (forall a b, In (a, b) l1 -> ordinary st a /\ ordinary st b) ->
  Permutation l1 l2 ->
  equate C n1 l1 st = Done tt st1 -> equate C n2 l2 st = Done tt st2 -> cons st2 = [] ->
  exists th, respects st1 th /\
    forall v t, v < length (vars st) -> Resolves st1 v t -> Resolves st2 v (subst th t).
Proof.
  intros C st n1 l1 st1 n2 l2 st2 D R O PM E1 E2 NC.
  destruct (reach_inv C D _ _ R) as (TI & _ & _). destruct (reach_clean C D _ R) as (TN & LF).
  assert (O2 : forall a b, In (a, b) l2 -> ordinary st a /\ ordinary st b).
  { intros a b X. apply O. eapply Permutation_in; [apply Permutation_sym; eauto | auto]. }
  assert (LT : forall l, (forall a b, In (a, b) l -> ordinary st a /\ ordinary st b) ->
     forall a b, In (a, b) l -> a < len st /\ b < len st).
  { intros l X a b Y. destruct (X a b Y) as [[_ A] [_ B]]. auto. }
  pose proof (equate_ok C D n1 l1 st tt st1 TI (LT l1 O) E1) as T1.
  pose proof (equate_ok C D n2 l2 st tt st2 TI (LT l2 O2) E2) as T2.
  destruct (tstep_trees _ _ _ _ TI T2 TN) as (rho & _ & _ & _ & _ & F & Hs).
  { intros a b X. destruct (O2 a b X) as [[A _] [B _]]. split; eapply only0_err; eauto. }
  destruct (ts_sound _ _ _ _ T2 TN) as [_ S].
  { intros a b X. destruct (O2 a b X) as [[A _] [B _]]. split; eapply only0_err; eauto. }
  destruct (S rho) as [A B]. { split; auto. rewrite NC. intros v e []. }
  destruct (ts_complete _ _ _ _ T1 rho A) as (val & CS & AG).
  { intros a b X. apply B. eapply Permutation_in; eauto. }
  exists val. split; [apply sol_respects; apply (proj1 CS)|].
  intros v t Lv RT. rewrite <- (sol_resolves st1 val (proj1 CS) v t RT).
  rewrite <- AG by exact Lv. apply F. pose proof (ext_len _ _ (ts_vars _ _ _ _ T2)). unfold len in *. lia.
Qed.
Print Assumptions C30_order_types_partial.

(** ** C31 *)

Theorem C31_int : forall st v, exists n,
  evaluate st (CIntBits (CInt v)) = Some (CInt n) /\ least (fun n => fits_int n v) n.
Proof. intros st v. exists (int_bits v). split; [reflexivity | apply int_bits_least]. Qed.
Print Assumptions C31_int.

Theorem C31_uint : forall st v, (0 <= v)%Z -> exists n,
  evaluate st (CUintBits (CInt v)) = Some (CInt n) /\ least (fun n => fits_uint n v) n.
Proof.
  intros st v P. exists (bigint_bits v). split; [reflexivity|].
  pose proof (bits_least v) as H. rewrite Z.abs_eq in H by auto. exact H.
Qed.
Print Assumptions C31_uint.

(** A negative number has no unsigned width, but gets one. *)
Theorem C31_uint_negative_refuted : forall st, exists v n,
  evaluate st (CUintBits (CInt v)) = Some (CInt n) /\ forall k, ~ fits_uint k v.
Proof.
  intros st. exists (-5)%Z, 3%Z. split; [reflexivity|]. intros k [_ H]. lia.
Qed.
Print Assumptions C31_uint_negative_refuted.

(** ** C43 *)

Theorem C43_laws : forall a b c,
  unify_meta a a = Some a /\
  unify_meta a b = unify_meta b a /\
  (match unify_meta a b with Some x => unify_meta x c | None => None end =
   match unify_meta b c with Some x => unify_meta a x | None => None end).
Proof. intros a b c. destruct a, b, c; repeat split. Qed.
Print Assumptions C43_laws.

(** The unified kind is the least concrete one that is as concrete as both; there is
    none exactly if unification fails. *)
Theorem C43_meet : forall a b,
  match unify_meta a b with
  | Some m => at_least_as_concrete m a /\ at_least_as_concrete m b /\
      forall x, at_least_as_concrete x a -> at_least_as_concrete x b -> at_least_as_concrete x m
  | None => forall x, ~ (at_least_as_concrete x a /\ at_least_as_concrete x b)
  end.
Proof.
  intros a b. destruct a, b; cbn;
    try (split; [constructor|]; split; [constructor|]; intros x H1 H2; inversion H1; inversion H2; subst; try discriminate; constructor);
    intros x [H1 H2]; inversion H1; inversion H2; subst; try discriminate.
Qed.
Print Assumptions C43_meet.

(** The order means what it says: a type of a kind is one of every less concrete
    kind. *)
Theorem C43_types : forall a b t, at_least_as_concrete a b -> has_kind t a -> has_kind t b.
Proof.
  intros a b t H K. destruct H as [m|m| |]; auto; try destruct m; destruct t as [[]|? []]; cbn in *; auto.
Qed.
Print Assumptions C43_types.

(** The comparison used to pick a source location is the wrong way round. *)
Theorem C43_concrete_refuted : exists a b,
  at_least_as_concrete a b /\ a <> b /\ is_more_concrete_than a b = false /\ is_more_concrete_than b a = true.
Proof. exists MInt, MNumber. repeat split; try constructor; discriminate. Qed.
Print Assumptions C43_concrete_refuted.

(** ** Examples: the hypotheses are met *)

(** an attempt that changes types, fails and nests, with an implementation in use *)
Example C26_nontrivial :
  let arity b := match b with BNamed 1 => Some 1 | _ => None end in
  let l := [OEqual 1 5; OEqual 3 5; OTry [OEqual 2 4; OLook 2]; ONew (Known (BNamed 1) [5]); OLook 3] in
  arity_ok arity /\ (forall b, Forall (impl_counts arity b) (impls foo_impl b)) /\
  Forall (tvar_counts arity) (vars foo_state) /\ op_counts arity (OTry l) /\ repl foo_state <> [] /\
  (exists st', perform foo_impl 10 (OTry l) foo_state = Some st' /\ length (vars foo_state) < length (vars st')) /\
  (exists st1, perform foo_impl 10 (OEqual 1 5) foo_state = Some st1 /\ found 1 st1 <> found 1 foo_state).
Proof.
  cbv zeta. split; [split; [reflexivity | intros [] H; try discriminate; reflexivity]|].
  split.
  { intros [n| | | | | | | |]; try constructor. destruct n as [|[|n]]; repeat constructor.
    exists 1. auto. }
  split.
  { repeat constructor; intros k H; try discriminate; injection H as <-; reflexivity. }
  split.
  { repeat split. intros k H. injection H as <-. reflexivity. }
  split; [discriminate|]. split.
  - eexists. split; [vm_compute; reflexivity|]. cbn. lia.
  - eexists. split; [vm_compute; reflexivity|]. vm_compute. discriminate.
Qed.

(** 3 is [int<a>], 5 is [int<8>], and the size 2 is required to be [a + 1] *)
Definition sized : state :=
  mkState [Known BError []; Unknown [] MUint; Unknown [] MUint; Known (BNamed 9) [1];
           Known (BInt 8) []; Known (BNamed 9) [4]] [[]] [(2, CSum (CVar 1) (CInt 1))] [].

Lemma sized_reach er : Reach no_impls er sized.
Proof.
  assert (A1 : Reach no_impls er (mkState [Known BError []; Unknown [] MUint] [[]] [] [])).
  { eapply (reach_new _ _ _ (Unknown [] MUint)); [apply reach_start | reflexivity | reflexivity]. }
  assert (A2 : Reach no_impls er (mkState [Known BError []; Unknown [] MUint; Unknown [] MUint] [[]] [] [])).
  { eapply (reach_new _ _ _ (Unknown [] MUint)); [exact A1 | reflexivity | reflexivity]. }
  assert (A3 : Reach no_impls er (mkState [Known BError []; Unknown [] MUint; Unknown [] MUint; Known (BNamed 9) [1]] [[]] [] [])).
  { eapply (reach_new _ _ _ (Known (BNamed 9) [1])); [exact A2 | | reflexivity].
    split; [discriminate|]. split; [|discriminate]. repeat constructor. }
  assert (A4 : Reach no_impls er (mkState [Known BError []; Unknown [] MUint; Unknown [] MUint; Known (BNamed 9) [1]; Known (BInt 8) []] [[]] [] [])).
  { eapply (reach_new _ _ _ (Known (BInt 8) [])); [exact A3 | | reflexivity].
    split; [discriminate|]. split; [constructor|reflexivity]. }
  assert (A5 : Reach no_impls er (mkState [Known BError []; Unknown [] MUint; Unknown [] MUint; Known (BNamed 9) [1]; Known (BInt 8) []; Known (BNamed 9) [4]] [[]] [] [])).
  { eapply (reach_new _ _ _ (Known (BNamed 9) [4])); [exact A4 | | reflexivity].
    split; [discriminate|]. split; [|discriminate]. constructor; [|constructor]. split; cbn; lia. }
  eapply (reach_require _ _ _ 2 (CSum (CVar 1) (CInt 1))); [exact A5 | | | reflexivity].
  - split; cbn; lia.
  - constructor; [|constructor]. split; cbn; lia.
Qed.

Example C27_nontrivial : exists new st',
  Reach no_impls false sized /\ ordinary sized 3 /\ ordinary sized 5 /\ one_sign sized /\ unify no_impls 10 3 5 sized = Done new st' /\ Resolves st' 1 (TK (BInt 8) []) /\ Resolves st' 2 (TK (BInt 9) []) /\ cons st' = [].
Proof.
  do 2 eexists. split; [apply sized_reach|]. split; [split; cbn; lia|]. split; [split; cbn; lia|].
  split. { left. intros i trs. do 6 (destruct i as [|i]; [discriminate|]). destruct i; discriminate. }
  split; [vm_compute; reflexivity|].
  split. { eapply res_link; [vm_compute; reflexivity|]. eapply res_known; [vm_compute; reflexivity | vm_compute; reflexivity | constructor]. }
  split. { eapply res_link; [vm_compute; reflexivity|]. eapply res_known; [vm_compute; reflexivity | vm_compute; reflexivity | constructor]. }
  reflexivity.
Qed.

Definition sized_val (v : nat) : ty :=
  match v with
  | 0 => TK BError [] | 1 | 4 => TK (BInt 8) [] | 2 => TK (BInt 9) []
  | _ => TK (BNamed 9) [TK (BInt 8) []]
  end.
Example C28_nontrivial : Completion sized sized_val /\ sized_val 3 = sized_val 5.
Proof.
  split; [|reflexivity]. split.
  - exists sized_val. split.
    + intros v trs m _ N. destruct v as [|[|[|[|[|[|v]]]]]]; try discriminate; [| |destruct v; discriminate];
        injection N as <- <-; cbn; lia.
    + intros v t R. 
      assert (P : forall v, v < 6 -> Resolves sized v (match v with
         0 => TK BError [] | 1 => TF 1 MUint | 2 => TF 2 MUint | 3 => TK (BNamed 9) [TF 1 MUint] | 4 => TK (BInt 8) []
         | _ => TK (BNamed 9) [TK (BInt 8) []] end)).
      { assert (R1 : Resolves sized 1 (TF 1 MUint)) by (eapply res_unknown; reflexivity).
        assert (R4 : Resolves sized 4 (TK (BInt 8) [])) by (eapply res_known; [reflexivity | reflexivity | constructor]).
        intros w Lw. destruct w as [|[|[|[|[|[|w]]]]]]; auto; try lia.
        - eapply res_known; [reflexivity | reflexivity | constructor].
        - eapply res_unknown; reflexivity.
        - eapply res_known; [reflexivity | reflexivity | constructor; [auto | constructor]].
        - eapply res_known; [reflexivity | reflexivity | constructor; [auto | constructor]]. }
      assert (L : v < 6).
      { inversion R as [? ? ? LK|? ? ? ? ? N|? ? ? ? N]; subst; [discriminate| |];
          (assert (v < length (vars sized)) by (apply nth_error_Some; congruence)); cbn in *; lia. }
      rewrite (resolves_det _ _ _ R _ (P v L)).
      destruct v as [|[|[|[|[|[|v]]]]]]; try reflexivity; lia.
  - intros v e [H|[]]. injection H as <- <-. exists (BInt 9). split; [|reflexivity].
    apply (V_sum _ _ _ 8 1); [eapply V_var_int; reflexivity | constructor].
Qed.

(** a failing equation on the way, of a type with itself inside *)
Example C29_nontrivial : exists e st',
  let st := mkState [Known BError []; Unknown [] MType; Known BArray [1; 1]] [[]] [] [] in
  unify no_impls 10 1 2 st = Fail e st' /\ e = ERecursive /\ Resolves st' 1 (TK BError []).
Proof.
  do 2 eexists. split; [vm_compute; reflexivity|]. split; [reflexivity|].
  eapply res_link; [vm_compute; reflexivity|]. eapply res_link; [vm_compute; reflexivity|].
  eapply res_known; [vm_compute; reflexivity | vm_compute; reflexivity | constructor].
Qed.

Example C30_nontrivial : exists st1 st2,
  equate no_impls 10 [(3, 5); (1, 4)] sized = Done tt st1 /\ equate no_impls 10 [(1, 4); (3, 5)] sized = Done tt st2 /\ cons st1 = [] /\ cons st2 = [] /\ vars st1 <> vars sized.
Proof.
  do 2 eexists. split; [vm_compute; reflexivity|]. split; [vm_compute; reflexivity|].
  split; [reflexivity|]. split; [reflexivity|]. vm_compute. discriminate.
Qed.

Example C31_nontrivial : forall st,
  evaluate st (CIntBits (CInt (-8))) = Some (CInt 4) /\ evaluate st (CIntBits (CInt 8)) = Some (CInt 5) /\ evaluate st (CUintBits (CInt 8)) = Some (CInt 4) /\ evaluate st (CUintBits (CInt 7)) = Some (CInt 3).
Proof. intros st. repeat split. Qed.

Example C43_nontrivial : unify_meta MNumber MUint = Some MUint /\ unify_meta MInt MUint = None.
Proof. split; reflexivity. Qed.
