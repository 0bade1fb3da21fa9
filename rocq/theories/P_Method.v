(** C54: a method call means the one method its receiver's type has.  Model in
    [MethodModel], the types in [InferModel]. *)
From Coq Require Import List ZArith Bool Arith Lia.
From Verif Require Import InferModel InferSpec InferState TypingModel TypingSpec BitsFacts MethodModel MethodSpec MethodProofs.
From Verif Require InferReach P_Infer TypingTop.
Import ListNotations.

(** [t] is the type of the receiver as far as it is known, [subst th t] any type it may
    turn out to be.  Its methods are those of the type inside its views. *)

Lemma base_kinds kinds t : type_tree kinds t -> type_tree kinds (base_type t) /\ forall ts, base_type t <> TK BCopyView ts.
Proof.
  revert t. fix IH 2. intros t H. destruct H as [v m|n l F|l F|a b A B|a A|a A]; cbn; try (split; [constructor; assumption | discriminate]). apply IH. exact A.
Qed.
Lemma base_subst th t : match base_type t with TK BCopyView _ | TF _ _ => True | TK h ts => base_type (subst th t) = subst th (TK h ts) /\ views (subst th t) = views t end.
Proof.
  revert t. fix IH 1. intros [h ts|v m]; [|exact Logic.I]. destruct h; cbn [base_type]; auto. destruct ts as [|t ts]; [exact Logic.I|]. cbn [base_type subst map views].
  specialize (IH t). destruct (base_type t) as [[] |]; auto; destruct IH as [A B]; auto.
Qed.
Lemma base_known kinds t : type_tree kinds t -> forall h ts, base_type t = TK h ts -> h <> BCopyView /\ forall th, base_type (subst th t) = subst th (TK h ts) /\ views (subst th t) = views t.
Proof.
  intros H h ts E. destruct (base_kinds _ _ H) as [_ NV]. assert (N : h <> BCopyView) by (intros ->; apply (NV ts); auto). split; auto.
  intros th. pose proof (base_subst th t) as B. rewrite E in B. destruct h; auto. congruence.
Qed.

(** The method chosen is one of a block for the type, whatever the type turns out to be;
    no other block for the type has the method, or the method is one of the type itself
    rather than of a trait; and the receiver is passed with the views the method wants. *)
Theorem C54_chosen_partial : forall aliases kinds blocks st fuel v m takes t f delta,
  well_formed aliases kinds blocks -> Forall linear blocks ->
  Resolves st v t -> type_tree kinds t ->
  select_method st fuel blocks v m takes = Chosen f delta ->
  exists b s, In b blocks /\ has_method b m f s /\ (takes = true <-> s <> SelfStatic) /\
    forall th, (Z.of_nat (views (subst th t)) + delta = wanted s)%Z /\ applies aliases b (base_type (subst th t)) /\
      forall b' f' s', In b' blocks -> has_method b' m f' s' -> applies aliases b' (base_type (subst th t)) ->
        (b', f', s') = (b, f, s) \/ bl_anonymous b = true.
Proof.
  intros aliases kinds blocks st fuel v m takes t f delta WF LI R T H.
  apply (select_pick _ _ _ _ _ _ _ _ R) in H; [|discriminate]. destruct (base_type t) as [h ts|] eqn:E; [|discriminate].
  destruct (base_known _ _ T _ _ E) as [NV BS].
  assert (SH : shaped kinds (TK h ts)) by (left; rewrite <- E; apply base_kinds; auto).
  destruct (pick_chosen aliases kinds blocks WF h ts m takes (views t) f delta LI SH H) as (b & s & A & B & C & D & F).
  exists b, s. split; [assumption|]. split; [assumption|]. split; [assumption|]. intros th. destruct (BS th) as [B1 B2]. rewrite B1, B2. split; auto.
Qed.
Print Assumptions C54_chosen_partial.

(** When a call is refused because there is no such method, no block for any type the
    receiver may turn out to have has it. *)
Theorem C54_missing_partial : forall aliases kinds blocks st fuel v m takes t,
  well_formed aliases kinds blocks ->
  Resolves st v t -> type_tree kinds t -> (forall n k, base_type t <> TF n k) ->
  select_method st fuel blocks v m takes = NoMethod \/ select_method st fuel blocks v m takes = NoMethods ->
  forall th b f s, In b blocks -> has_method b m f s -> ~ applies aliases b (base_type (subst th t)).
Proof.
  intros aliases kinds blocks st fuel v m takes t WF R T NF H th b f s I M.
  destruct (base_type t) as [h ts|n k] eqn:E; [|destruct (NF n k); auto]. destruct (base_known _ _ T _ _ E) as [NV BS]. rewrite (proj1 (BS th)).
  eapply (pick_missing aliases kinds blocks WF h ts m takes (views t)); eauto. rewrite <- E.
  destruct H as [H|H]; apply (select_pick _ _ _ _ _ _ _ _ R) in H; auto; discriminate.
Qed.
Print Assumptions C54_missing_partial.

(** When it is refused because there are too many, two blocks of traits have it. *)
Theorem C54_too_many_partial : forall aliases kinds blocks st fuel v m takes t,
  well_formed aliases kinds blocks -> Forall linear blocks ->
  NoDup blocks -> (forall b, In b blocks -> NoDup (map fst (bl_fns b))) ->
  Resolves st v t -> type_tree kinds t ->
  select_method st fuel blocks v m takes = TooMany ->
  exists b1 b2 f1 f2 s1 s2, b1 <> b2 /\ In b1 blocks /\ In b2 blocks /\ has_method b1 m f1 s1 /\ has_method b2 m f2 s2 /\
    bl_anonymous b1 = false /\ bl_anonymous b2 = false /\
    forall th, applies aliases b1 (base_type (subst th t)) /\ applies aliases b2 (base_type (subst th t)).
Proof.
  intros aliases kinds blocks st fuel v m takes t WF LI ND KD R T H.
  apply (select_pick _ _ _ _ _ _ _ _ R) in H; [|discriminate]. destruct (base_type t) as [h ts|] eqn:E; [|discriminate].
  destruct (base_known _ _ T _ _ E) as [NV BS].
  assert (SH : shaped kinds (TK h ts)) by (left; rewrite <- E; apply base_kinds; auto).
  destruct (pick_too_many aliases kinds blocks WF h ts m takes (views t) LI SH ND KD H) as (b1 & b2 & f1 & f2 & s1 & s2 & X1 & X2 & X3 & X4 & X5 & X6 & X7 & X8).
  exists b1, b2, f1, f2, s1, s2. repeat (split; [assumption|]). intros th. rewrite (proj1 (BS th)). auto.
Qed.
Print Assumptions C54_too_many_partial.

(** A known type is answered at once: the pass that replaces method calls by calls of
    functions never finds one undecided. *)
Theorem C54_decided : forall kinds blocks st fuel v m takes t,
  Resolves st v t -> type_tree kinds t -> ground t ->
  select_method st fuel blocks v m takes <> Wait.
Proof.
  intros kinds blocks st fuel v m takes t R T G H. apply (select_pick _ _ _ _ _ _ _ _ R) in H; [|discriminate].
  revert H. apply pick_ground. clear - G T. revert t T G. fix IH 2. intros t T G. destruct T as [n k|n l F|l F|a b A B|a A|a A]; cbn; auto.
  inversion G; subst. match goal with F : Forall ground _ |- _ => inversion F; subst end. apply IH; assumption.
Qed.
Print Assumptions C54_decided.

(** No call crashes the compiler. *)
Theorem C54_no_crash_partial : forall aliases kinds blocks st fuel v m takes t,
  well_formed aliases kinds blocks ->
  Resolves st v t -> type_tree kinds t -> tsize t < fuel ->
  select_method st fuel blocks v m takes <> Crash.
Proof.
  intros aliases kinds blocks st fuel v m takes t WF R T L. rewrite (pick_select _ _ _ _ _ _ _ R L).
  destruct (base_kinds _ _ T). eapply pick_no_crash; eauto.
Qed.
Print Assumptions C54_no_crash_partial.

(** A decision stays as more is learnt about the type, so the checker and the later pass
    agree on it. *)
Theorem C54_stable_partial : forall aliases kinds blocks st st' fuel fuel' v m takes t th r,
  well_formed aliases kinds blocks ->
  Resolves st v t -> type_tree kinds t -> (forall n k, base_type t <> TF n k) ->
  Resolves st' v (subst th t) -> type_tree kinds (subst th t) -> tsize (subst th t) < fuel' ->
  select_method st fuel blocks v m takes = r -> r <> Wait -> r <> Crash ->
  select_method st' fuel' blocks v m takes = r.
Proof.
  intros aliases kinds blocks st st' fuel fuel' v m takes t th r WF R T NF R' T' L H NW NC.
  rewrite (pick_select _ _ _ _ _ _ _ R' L). apply (select_pick _ _ _ _ _ _ _ _ R) in H; auto.
  destruct (base_type t) as [h ts|n k] eqn:E; [|destruct (NF n k); auto]. destruct (base_known _ _ T _ _ E) as [NV BS]. destruct (BS th) as [B1 B2]. rewrite B2. rewrite B1.
  eapply pick_stable; eauto. rewrite <- B1. apply base_kinds. auto.
Qed.
Print Assumptions C54_stable_partial.

(** For instance by a successful equation between types (C27). *)
Theorem C54_unify_partial : forall aliases kinds blocks C n v1 v2 new st st' fuel v m takes t r,
  well_formed aliases kinds blocks ->
  (forall x, sym C x = SDeclared) -> Reach C false st -> InferSpec.ordinary st v1 -> InferSpec.ordinary st v2 ->
  unify C n v1 v2 st = Done new st' ->
  Resolves st v t -> type_tree kinds t -> (forall n k, base_type t <> TF n k) ->
  (forall th, Resolves st' v (subst th t) -> type_tree kinds (subst th t)) ->
  select_method st fuel blocks v m takes = r -> r <> Wait -> r <> Crash ->
  exists fuel', select_method st' fuel' blocks v m takes = r.
Proof.
  intros aliases kinds blocks C n v1 v2 new st st' fuel v m takes t r WF D RE O1 O2 U R T NF T' H NW NC.
  destruct (P_Infer.C27_refines_partial C st n v1 v2 new st' D RE O1 O2 U) as (th & _ & F). specialize (F v t R).
  exists (S (tsize (subst th t))). apply (C54_stable_partial aliases kinds blocks st st' fuel _ v m takes t th r); auto.
Qed.
Print Assumptions C54_unify_partial.

(** What is listed as the methods of a known type: those of the blocks for it, all of
    them and no others. *)
Theorem C54_listed_partial : forall aliases kinds blocks st v t,
  well_formed aliases kinds blocks -> Forall linear blocks ->
  Resolves st v t -> type_tree kinds t -> ground t ->
  exists l, methods_for_type st blocks v = Some l /\
    forall m f, In (m, f) l <-> exists b s, In b blocks /\ has_method b m f s /\ applies aliases b t.
Proof.
  intros aliases kinds blocks st v t WF LI R T G. unfold methods_for_type.
  destruct t as [h ts|i k]; [|inversion G]. destruct (resolve_tree _ _ _ R) as (ps & H & F). rewrite H.
  assert (WB : forall b, In b blocks -> target_of (bl_target b) <> None /\ no_alias aliases (bl_target b) /\ type_spec kinds (bl_target b)) by (intros b I; rewrite Forall_forall in LI; unfold well_formed in WF; rewrite Forall_forall in WF; auto).
  assert (SUB : exists th : nat -> ty, subst th (TK h ts) = TK h ts) by (exists (fun _ => TK BTuple []); apply TypingTop.ground_subst; auto). destruct SUB as [th SUB].
  destruct (into_impl_target h) as [k|] eqn:K.
  - destruct (existsb _ _) eqn:E.
    + exfalso. apply existsb_exists in E as ([[m f] o] & I & S). apply in_flat_map in I as (b & I & J). apply in_map_iff in J as ([m' [f' s']] & J & L). inversion J; subst.
      apply in_table in I as [I _]. destruct (WB _ I) as (_ & _ & TS). rewrite (ov_ok _ _ _ _ R) in S. cbn in S. pose proof (proj1 (ov_some kinds (bl_target b)) _ TS T) as N. destruct (ov (bl_target b) (TK h ts)); [discriminate|]. auto.
    + eexists. split; [reflexivity|]. intros m f. rewrite in_map_iff. split.
      * intros ([[m' f'] o] & X & I). cbn in X. inversion X; subst. apply filter_In in I as [I O]. apply in_flat_map in I as (b & I & J). apply in_map_iff in J as ([m' [f' s']] & J & L). inversion J; subst.
        apply in_table in I as [I _]. destruct (WB _ I) as (_ & NA & TS). exists b, s'. split; [auto|]. split; [exact L|]. rewrite (ov_ok _ _ _ _ R) in O. cbn in O.
        destruct (ov_yes aliases kinds th (bl_target b) (TK h ts)) as (g & M); auto.
        { rewrite Forall_forall in LI. apply LI. auto. } { left. auto. } { destruct (ov (bl_target b) (TK h ts)) as [[]|]; auto; discriminate. }
        rewrite SUB in M. exists g. auto.
      * intros (b & s & I & M & A). destruct (WB _ I) as (TT & NA & TS). exists (m, f, Some Yes). split; auto. apply filter_In. split; auto. apply in_flat_map. exists b. split.
        { apply in_table. split; auto. rewrite <- K. rewrite <- SUB in A. eapply applies_target; eauto. }
        apply in_map_iff. exists (m, (f, s)). split; auto. cbn. f_equal. rewrite (ov_ok _ _ _ _ R).
        pose proof (proj1 (ov_some kinds (bl_target b)) _ TS T) as N. pose proof (ov_ground (bl_target b) _ G) as N2. destruct (ov (bl_target b) (TK h ts)) as [[]|] eqn:E2; try congruence.
        destruct A as (g & A). rewrite <- SUB in A. destruct (ov_no aliases _ _ NA E2 th g A).
  - exists []. split; auto. intros m f. split; [intros []|]. intros (b & s & I & M & A). destruct (WB _ I) as (TT & NA & TS). rewrite <- SUB in A. apply applies_target in A; auto. congruence.
Qed.
Print Assumptions C54_listed_partial.

(** The order of the blocks does not matter, unless two blocks without a trait have the
    method. *)
Lemma perm_filter {A} (f : A -> bool) l l' : Permutation.Permutation l l' -> Permutation.Permutation (filter f l) (filter f l').
Proof.
  intros P. induction P as [|x l l' P IH|x y l|l l' l'' P IH P' IH']; cbn; auto.
  - destruct (f x); auto.
  - destruct (f x), (f y); auto. apply Permutation.perm_swap.
  - eapply Permutation.perm_trans; eauto.
Qed.
Lemma perm_existsb {A} (f : A -> bool) l l' : Permutation.Permutation l l' -> existsb f l = existsb f l'.
Proof.
  intros P. destruct (existsb f l) eqn:E, (existsb f l') eqn:E'; auto; [apply existsb_exists in E as (x & I & F) | apply existsb_exists in E' as (x & I & F)].
  - rewrite <- E'. symmetry. apply existsb_exists. exists x. split; auto. eapply Permutation.Permutation_in; eauto.
  - rewrite <- E. apply existsb_exists. exists x. split; auto. eapply Permutation.Permutation_in; [apply Permutation.Permutation_sym|]; eauto.
Qed.
Theorem C54_order_partial : forall aliases kinds blocks blocks' st fuel v m takes t,
  well_formed aliases kinds blocks -> Forall linear blocks -> Permutation.Permutation blocks blocks' ->
  (forall th b b' f f' s s', In b blocks -> In b' blocks -> bl_anonymous b = true -> bl_anonymous b' = true ->
    has_method b m f s -> has_method b' m f' s' -> applies aliases b (base_type (subst th t)) -> applies aliases b' (base_type (subst th t)) -> (f, s) = (f', s')) ->
  Resolves st v t -> type_tree kinds t -> tsize t < fuel ->
  select_method st fuel blocks v m takes = select_method st fuel blocks' v m takes.
Proof.
  intros aliases kinds blocks blocks' st fuel v m takes t WF LI P U R T L. rewrite !(pick_select _ _ _ _ _ _ _ R L).
  unfold pick. destruct (base_type t) as [h ts|] eqn:E; [|reflexivity]. destruct (into_impl_target h) as [k|]; [|reflexivity]. cbv zeta.
  assert (PO : Permutation.Permutation (offers_t (TK h ts) m (table blocks k)) (offers_t (TK h ts) m (table blocks' k))).
  { unfold offers_t. apply Permutation.Permutation_flat_map. unfold table. apply perm_filter. auto. }
  rewrite (perm_existsb _ _ _ PO), (perm_existsb (says (Some Maybe)) _ _ PO).
  destruct (existsb (says None) _); [reflexivity|]. destruct (existsb (says (Some Maybe)) _); [reflexivity|].
  pose proof (perm_filter (says (Some Yes)) _ _ PO) as PF.
  set (l := filter _ (offers_t (TK h ts) m (table blocks k))) in *. set (l' := filter _ (offers_t (TK h ts) m (table blocks' k))) in *.
  destruct (base_known _ _ T _ _ E) as [NV BS]. set (th := fun _ : nat => TK BTuple []).
  assert (SH : shaped kinds (TK h ts)) by (left; rewrite <- E; apply base_kinds; auto).
  assert (AN : forall b f s o b' f' s' o', In (b, f, s, o) l -> In (b', f', s', o') l -> bl_anonymous b = true -> bl_anonymous b' = true -> (f, s) = (f', s')).
  { assert (AP : forall b f s o, In (b, f, s, o) l -> In b blocks /\ has_method b m f s /\ applies aliases b (base_type (subst th t))).
    { intros b f s o I. apply filter_In in I as [I Y]. apply says_eq in Y. cbn in Y. subst o. apply in_offers in I as (I & M & Y). apply in_table in I as [I _].
      unfold well_formed in WF. rewrite Forall_forall in WF, LI. destruct (WF _ I) as (_ & NA & _). split; [auto|]. split; [auto|]. rewrite (proj1 (BS th)). apply (ov_yes aliases kinds th (bl_target b) (TK h ts)); auto. apply LI; auto. }
    intros b f s o b' f' s' o' I I' A A'. destruct (AP _ _ _ _ I) as (X1 & X2 & X3). destruct (AP _ _ _ _ I') as (Y1 & Y2 & Y3). eapply (U th b b'); eauto. }
  assert (FI : match List.find (fun x => bl_anonymous (fst (fst (fst x)))) l with Some (_, f, s, _) => with_self f s takes (- Z.of_nat (views t)) | None => TooMany end =
    match List.find (fun x => bl_anonymous (fst (fst (fst x)))) l' with Some (_, f, s, _) => with_self f s takes (- Z.of_nat (views t)) | None => TooMany end).
  { destruct (List.find _ l) as [[[[b f] s] o]|] eqn:F1, (List.find _ l') as [[[[b' f'] s'] o']|] eqn:F2; auto.
    - apply find_some in F1 as [I1 A1]. apply find_some in F2 as [I2 A2]. cbn in A1, A2. apply (Permutation.Permutation_in _ (Permutation.Permutation_sym PF)) in I2.
      specialize (AN _ _ _ _ _ _ _ _ I1 I2 A1 A2). inversion AN. reflexivity.
    - apply find_some in F1 as [I1 A1]. apply (Permutation.Permutation_in _ PF) in I1. apply (find_none _ _ F2) in I1. congruence.
    - apply find_some in F2 as [I2 A2]. apply (Permutation.Permutation_in _ (Permutation.Permutation_sym PF)) in I2. apply (find_none _ _ F1) in I2. congruence. }
  clearbody l l'. pose proof (Permutation.Permutation_length PF) as LEN.
  destruct l as [|x [|y l]], l' as [|x' [|y' l']]; try discriminate; [reflexivity| |].
  - apply Permutation.Permutation_length_1 in PF. subst. reflexivity.
  - destruct x as [[[b f] s] o], x' as [[[b' f'] s'] o']. destruct h; solve [exact FI | reflexivity].
Qed.
Print Assumptions C54_order_partial.

(** Examples: type 0 is [bool], 1 is [str], 2 is [Option<T>].  Types of the state: 1 is
    [bool], 2 is [str], 3 is [(bool, str)], 4 is [&bool], 5 is unknown, 6 is [&_], 7 is
    [Option<_>], 8 is [Option<bool>]. *)
Definition the_kinds (n : nat) : list meta := match n with 2 => [MType] | _ => [] end.
Definition the_vars : list tvar :=
  [Known BError []; Known (BNamed 0) []; Known (BNamed 1) []; Known BTuple [1; 2]; Known BCopyView [1];
   Unknown [] MType; Known BCopyView [5]; Known (BNamed 2) [5]; Known (BNamed 2) [1]].
Definition the_state : state := mkState the_vars [[]] [] [].
Definition no_aliases (n : nat) : option tspec := None.
Definition plain : context := P_Infer.foo_impl.
Lemma the_state_reached : Reach plain false the_state.
Proof.
  assert (N : forall l t, Reach plain false (mkState l [[]] [] []) -> usable (mkState l [[]] [] []) t -> Reach plain false (mkState (l ++ [t]) [[]] [] []))
    by (intros l t R U; eapply reach_new; [exact R|exact U|reflexivity]).
  assert (U : forall l b ps, b <> BError -> Forall (fun v => 0 < v < length l) ps -> scalar b = false -> usable (mkState l [[]] [] []) (Known b ps))
    by (intros l b ps B F SC; split; [auto|]; split; [exact F|rewrite SC; discriminate]).
  unfold the_state, the_vars.
  change [Known BError []; Known (BNamed 0) []; Known (BNamed 1) []; Known BTuple [1; 2]; Known BCopyView [1];
     Unknown [] MType; Known BCopyView [5]; Known (BNamed 2) [5]; Known (BNamed 2) [1]] with
    ((((((((([Known BError []] ++ [Known (BNamed 0) []]) ++ [Known (BNamed 1) []]) ++ [Known BTuple [1; 2]]) ++ [Known BCopyView [1]]) ++
     [Unknown [] MType]) ++ [Known BCopyView [5]]) ++ [Known (BNamed 2) [5]]) ++ [Known (BNamed 2) [1]])).
  repeat (apply N; [|first [reflexivity | apply U; [discriminate | repeat constructor | reflexivity]]]). apply reach_start.
Qed.
Ltac known := first [eapply res_known; [reflexivity | reflexivity | repeat constructor] | eapply res_unknown; reflexivity].
Lemma res1 : Resolves the_state 1 (TK (BNamed 0) []). Proof. known. Qed.
Lemma res2 : Resolves the_state 2 (TK (BNamed 1) []). Proof. known. Qed.
Lemma res3 : Resolves the_state 3 (TK BTuple [TK (BNamed 0) []; TK (BNamed 1) []]).
Proof. eapply res_known; [reflexivity | reflexivity | repeat constructor; [apply res1 | apply res2]]. Qed.
Lemma res4 : Resolves the_state 4 (TK BCopyView [TK (BNamed 0) []]).
Proof. eapply res_known; [reflexivity | reflexivity | repeat constructor; apply res1]. Qed.
Lemma res5 : Resolves the_state 5 (TF 5 MType). Proof. known. Qed.
Lemma res6 : Resolves the_state 6 (TK BCopyView [TF 5 MType]).
Proof. eapply res_known; [reflexivity | reflexivity | repeat constructor; apply res5]. Qed.
Lemma res7 : Resolves the_state 7 (TK (BNamed 2) [TF 5 MType]).
Proof. eapply res_known; [reflexivity | reflexivity | repeat constructor; apply res5]. Qed.

(** [impl<T> (T, T) { fn twin(self) }]: the call is accepted on a [(bool, str)], which
    the block is not for. *)
Definition twins : block := Block true (TSTuple [TSGeneric 0; TSGeneric 0]) [(0, (10, SelfValue))].
Theorem C54_repeated_refuted : exists blocks st v t f,
  Reach plain false st /\ well_formed no_aliases the_kinds blocks /\ Resolves st v t /\ type_tree the_kinds t /\ ground t /\
  select_method st 9 blocks v 0 true = Chosen f 0 /\ forall b, In b blocks -> ~ applies no_aliases b t.
Proof.
  exists [twins], the_state, 3, (TK BTuple [TK (BNamed 0) []; TK (BNamed 1) []]), 10. split; [apply the_state_reached|]. split.
  { repeat constructor; discriminate. } split; [apply res3|]. split; [repeat constructor|]. split; [repeat constructor; discriminate|]. split; [reflexivity|].
  intros b [<-|[]] (th & M). inversion M as [| | | | | | l ts F | | |]; subst. inversion F as [|s1 u1 l1 ts1 A F1]; subst. inversion F1 as [|s2 u2 l2 ts2 B F2]; subst.
  inversion A; subst. inversion B; subst. congruence.
Qed.
Print Assumptions C54_repeated_refuted.

(** [impl bool { fn show(self) }] twice, say in two files: which is called depends on
    the order the blocks are found in, that of a hash map. *)
Definition inherent (f : nat) : block := Block true (TSNamed 0 []) [(0, (f, SelfValue))].
Theorem C54_order_refuted : exists blocks blocks' st v t,
  Reach plain false st /\ well_formed no_aliases the_kinds blocks /\ Permutation.Permutation blocks blocks' /\ Resolves st v t /\ ground t /\
  select_method st 9 blocks v 0 true = Chosen 10 0 /\ select_method st 9 blocks' v 0 true = Chosen 11 0.
Proof.
  exists [inherent 10; inherent 11], [inherent 11; inherent 10], the_state, 1, (TK (BNamed 0) []). split; [apply the_state_reached|].
  split; [repeat constructor; discriminate|]. split; [apply Permutation.perm_swap|]. split; [apply res1|]. split; [repeat constructor; discriminate|]. split; reflexivity.
Qed.
Print Assumptions C54_order_refuted.

(** [type Flag = bool; impl Flag { fn show(self) }]: the method is never found. *)
Definition with_flag (n : nat) : option tspec := match n with 3 => Some (TSNamed 0 []) | _ => None end.
Definition on_alias : block := Block true (TSNamed 3 []) [(0, (10, SelfValue))].
Theorem C54_alias_refuted : exists blocks st v t,
  Reach plain false st /\ Resolves st v t /\ ground t /\ (exists b, In b blocks /\ has_method b 0 10 SelfValue /\ applies with_flag b t) /\
  select_method st 9 blocks v 0 true = NoMethod.
Proof.
  exists [on_alias], the_state, 1, (TK (BNamed 0) []). split; [apply the_state_reached|]. split; [apply res1|]. split; [repeat constructor; discriminate|]. split; [|reflexivity].
  exists on_alias. split; [cbn; auto|]. split; [cbn; auto|]. exists (fun _ => TK BTuple []). eapply M_alias; [reflexivity|]. constructor; [reflexivity|constructor].
Qed.
Print Assumptions C54_alias_refuted.

(** A call on a [&_] is refused at once, though it would be accepted a moment later, when
    the type turns out to be [&bool]. *)
Theorem C54_early_refuted : exists blocks st v t st' new,
  Reach plain false st /\ well_formed no_aliases the_kinds blocks /\ Resolves st v t /\ type_tree the_kinds t /\
  select_method st 9 blocks v 0 true = NoMethods /\
  unify plain 9 5 1 st = Done new st' /\ select_method st' 9 blocks v 0 true = Chosen 10 (-1).
Proof.
  exists [inherent 10], the_state, 6, (TK BCopyView [TF 5 MType]), (match unify plain 9 5 1 the_state with Done _ s => s | _ => the_state end),
    (match unify plain 9 5 1 the_state with Done x _ => x | _ => 0 end).
  split; [apply the_state_reached|]. split; [repeat constructor; discriminate|]. split; [apply res6|]. split; [repeat constructor|]. split; [reflexivity|]. split; vm_compute; reflexivity.
Qed.
Print Assumptions C54_early_refuted.

(** [impl &bool { fn show(self) }]: the method is offered as a completion, and never
    found by a call; the methods of [bool] can be called, and are not offered. *)
Definition on_view : block := Block true (TSCopyView (TSNamed 0 [])) [(0, (10, SelfValue))].
Definition on_base : block := Block true (TSNamed 0 []) [(1, (11, SelfValue))].
Theorem C54_view_refuted : exists blocks st v t,
  Reach plain false st /\ well_formed no_aliases the_kinds blocks /\ Resolves st v t /\ type_tree the_kinds t /\ ground t /\
  (exists b, In b blocks /\ has_method b 0 10 SelfValue /\ applies no_aliases b t) /\
  methods_for_type st blocks v = Some [(0, 10)] /\
  select_method st 9 blocks v 0 true = NoMethod /\ select_method st 9 blocks v 1 true = Chosen 11 (-1).
Proof.
  exists [on_view; on_base], the_state, 4, (TK BCopyView [TK (BNamed 0) []]). split; [apply the_state_reached|]. split; [repeat constructor; discriminate|].
  split; [apply res4|]. split; [repeat constructor|]. split; [repeat constructor; discriminate|]. split; [|repeat split].
  exists on_view. split; [cbn; auto|]. split; [cbn; auto|]. exists (fun _ => TK BTuple []). repeat constructor.
Qed.
Print Assumptions C54_view_refuted.

(** [impl Option<bool> { fn flag(self) }], [impl<T> Option<T> { fn get(&self) }], two traits
    with [fn both(self)] for every [Option<T>], and [fn make()] for [Option<bool>]. *)
Definition some_blocks : list block :=
  [Block true (TSNamed 2 [TSNamed 0 []]) [(0, (10, SelfValue)); (4, (14, SelfStatic))];
   Block true (TSNamed 2 [TSGeneric 7]) [(1, (11, SelfView))];
   Block false (TSNamed 2 [TSGeneric 7]) [(2, (12, SelfValue))];
   Block false (TSNamed 2 [TSGeneric 8]) [(2, (13, SelfValue))]].
Example C54_nontrivial :
  Reach plain false the_state /\ well_formed no_aliases the_kinds some_blocks /\ Forall linear some_blocks /\ NoDup some_blocks /\
  Resolves the_state 7 (TK (BNamed 2) [TF 5 MType]) /\ type_tree the_kinds (TK (BNamed 2) [TF 5 MType]) /\
  select_method the_state 9 some_blocks 7 1 true = Chosen 11 1 /\
  select_method the_state 9 some_blocks 7 1 false = WrongSelf /\
  select_method the_state 9 some_blocks 7 2 true = TooMany /\
  select_method the_state 9 some_blocks 7 3 true = NoMethod /\
  select_method the_state 9 some_blocks 7 0 true = Wait /\
  select_method the_state 9 some_blocks 8 0 true = Chosen 10 0 /\
  select_method the_state 9 some_blocks 8 4 false = Chosen 14 0 /\
  methods_for_type the_state some_blocks 8 = Some [(0, 10); (4, 14); (1, 11); (2, 12); (2, 13)] /\
  (exists st' new, unify plain 9 5 1 the_state = Done new st' /\ select_method st' 9 some_blocks 7 0 true = Chosen 10 0).
Proof.
  split; [apply the_state_reached|]. split; [repeat constructor; discriminate|].
  split; [repeat constructor; cbn; intuition discriminate|]. split.
  { repeat constructor; cbn; intuition discriminate. } split; [apply res7|]. split; [repeat constructor|]. do 8 (split; [reflexivity|]).
  exists (match unify plain 9 5 1 the_state with Done _ s => s | _ => the_state end), (match unify plain 9 5 1 the_state with Done x _ => x | _ => 0 end). split; vm_compute; reflexivity.
Qed.
