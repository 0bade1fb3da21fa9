(** C59: supertraits. *)
From Coq Require Import ZArith List Bool Arith Lia Permutation.
From Verif Require Import ConformModel ConformSpec ConformExact SuperModel SuperSpec SuperProofs.
Import ListNotations.

(** If all traits of a program are accepted, no name was declared twice and no trait is its
    own supertrait, directly or through others, whatever the order in which the search takes
    its names. *)
Theorem C59_acyclic : forall fuel order ds g, declare_all fuel order ds [] = Added g ->
  NoDup (map fst ds) /\ forall d, ~ leads ds d d.
Proof.
  intros fuel order ds g H. destruct (declare_all_added _ _ _ _ _ good_nil H) as [G ->]. rewrite app_nil_r in G. split.
  - destruct G as [ND _]. rewrite map_rev in ND. apply NoDup_rev in ND. now rewrite rev_involutive in ND.
  - intros d L. apply (good_acyclic _ G d). eapply leads_incl; [|exact L]. intros x X. now apply -> in_rev.
Qed.
Print Assumptions C59_acyclic.

(** A program whose traits have different names is accepted exactly if no trait is its own
    supertrait.  The order of declarations, the order of the search and the names that are
    not (yet) declared have no part in it. *)
Theorem C59_program : forall ds fuel order, NoDup (map fst ds) ->
  (length (flat_map (fun e => tr_supers (snd e)) ds) < fuel)%nat ->
  ((exists g, declare_all fuel order ds [] = Added g) <-> forall d, ~ leads ds d d).
Proof.
  intros ds fuel order ND L. split; [intros [g H]; eapply C59_acyclic; eauto|]. intros NL. exists (rev ds ++ []). apply (declare_all_runs fuel order ds).
  - apply good_nil.
  - apply incl_refl.
  - intros x [].
  - cbn. now rewrite app_nil_r.
  - exact NL.
  - unfold universe. cbn. replace (length (flat_map (fun e => map ts_name (tr_supers (snd e))) ds)) with (length (flat_map (fun e => tr_supers (snd e)) ds)); auto.
    clear. induction ds as [|e ds IH]; [reflexivity|]. cbn. now rewrite !app_length, map_length, IH.
Qed.
Print Assumptions C59_program.

(** The search ends and never panics, and a reported cycle is one: starting from the trait
    declared, each name is a supertrait of the next, and the last is the trait again. *)
Theorem C59_reported : forall fuel order before g d t, declare_all fuel order before [] = Added g ->
  (length (flat_map (fun e => tr_supers (snd e)) ((d, t) :: before)) < fuel)%nat ->
  match declare fuel order g d t with
  | Stuck => False
  | Added g' => g' = (d, t) :: g
  | Refused_twice => In d (map fst before)
  | Refused_cycle c => c <> [] /\ chain ((d, t) :: before) d c /\ last c d = d
  end.
Proof.
  intros fuel order before g d t H L. destruct (declare_all_added _ _ _ _ _ good_nil H) as [G ->]. rewrite app_nil_r in *.
  destruct (declare fuel order (rev before) d t) as [g'|c| |] eqn:E.
  - destruct (declare_good _ _ _ _ _ _ G E) as (_ & -> & _). reflexivity.
  - destruct (declare_cycle _ _ _ _ _ _ G E) as (A & B & C). split; [exact C|]. split; [|exact B].
    assert (M : forall p x, super_of ((d, t) :: rev before) p x -> super_of ((d, t) :: before) p x).
    { intros p x (m & s & [I|I] & J); exists m, s; cbn; [auto|]. apply in_rev in I. auto. }
    clear - A M. revert A. generalize d at 2 4. induction c as [|y c IH]; intros x A; cbn in *; auto. destruct A as [A A']. auto.
  - unfold declare in E. destruct (search _ _ _ _ _) as [[|e]|]; [|destruct (trail _ _ _ _); discriminate|discriminate].
    destruct (get_trait (rev before) d) eqn:GT; [|discriminate]. apply get_in in GT; [|apply G]. apply (in_map fst) in GT. rewrite map_rev in GT. now apply in_rev in GT.
  - apply (declare_ends _ _ _ G fuel order) in E; auto. unfold universe. cbn in L. rewrite app_length in L |- *. rewrite map_length.
    replace (length (flat_map (fun e => map ts_name (tr_supers (snd e))) (rev before))) with (length (flat_map (fun e => tr_supers (snd e)) before)); [exact L|].
    clear. induction before as [|e l IH]; [reflexivity|]. cbn [rev]. rewrite flat_map_app, app_length. cbn. rewrite !app_length, map_length, <- IH. cbn. lia.
Qed.
Print Assumptions C59_reported.

(** Whatever the supertraits are given as arguments: if a bound is taken, the traits it puts
    on the type are, by name, the ones it asks for. *)
Theorem C59_names : forall fuel g gl traits r, NoDup (map fst g) -> bounds fuel g gl traits = Some (Ok r) ->
  forall D (R : reading D) self n, (exists ds, required R self g traits n ds) <-> exists s, In s r /\ ts_name s = n.
Proof.
  intros fuel g gl traits r ND H D R self n. unfold bounds in H. destruct (transitive fuel g traits []) as [[l| | |]|] eqn:T; try discriminate.
  destruct (visit_bounds gl l) as [[]| | |] eqn:V; try discriminate. cbn in H. assert (l = r) by congruence. subst l.
  destruct (transitive_exact g traits ND _ _ _ _ T) as [_ X]; cbn; [intros s [I|[]]; now constructor|auto|intros s t u []|constructor|]. split.
  - intros [ds Q]. assert (Y : exists s, reached g traits s /\ ts_name s = n).
    { induction Q as [s I|n ds t s Q IH I J]; [exists s; split; auto; now constructor|]. destruct IH as (s' & A & <-). exists s. split; auto. eapply RC_step; eauto. }
    destruct Y as (s & A & B). exists s. split; auto. now apply X.
  - intros (s & I & <-). apply X in I. induction I as [s I|s t u I IH K J]; [eexists; now constructor|]. destruct IH as [ds Q]. eexists. eapply Q_super; eauto.
Qed.
Print Assumptions C59_names.

(** If no supertrait is given a parameter of its trait or [Self], the bounds put on a type
    are exactly those asked for, arguments included, each once, and nothing goes wrong on the
    way.  Missing: supertraits that use the parameters of their trait; see
    [C59_parameter_refuted] and [C59_self_refuted]. *)
Theorem C59_bounds_partial : forall g gl traits, scoped_traits g -> plain_supers g -> (forall s, In s traits -> known g s) ->
  (forall s, In s traits -> exprs_scope gl false (args_of s) = true) ->
  exists fuel, forall more, exists r, bounds (fuel + more) g gl traits = Some (Ok r) /\ NoDup r /\
    forall D (R : reading D) self n ds, required R self g traits n ds <-> exists s, In s r /\ ts_name s = n /\ all_mean R (args_of s) = ds.
Proof.
  intros g gl traits SG PL KN SC. exists (length (met g traits) * S (length (met g traits)) + length traits + 1). intros more.
  destruct (transitive_ends g traits SG KN (length (met g traits) * S (length (met g traits)) + length traits + 1 + more) traits []) as [r T].
  - constructor.
  - intros x [].
  - intros x X. apply in_or_app. auto.
  - exact KN.
  - cbn [length]. rewrite Nat.sub_0_r. lia.
  - destruct (transitive_exact g traits (sg_names _ SG) _ _ _ _ T) as [ND X]; cbn; [intros s [I|[]]; now constructor|auto|intros s t u []|constructor|].
    exists r. split; [|split; [exact ND|]].
    + unfold bounds. rewrite T. assert (V : visit_bounds gl r = Ok tt); [|rewrite V; reflexivity]. apply visit_bounds_ok. intros s I. apply X in I.
      destruct I as [s I|s t u I K J]; [auto|]. apply (proj2 (proj2 (proj2 (scope_weaken gl)))). eapply PL; eauto.
    + intros D R self n ds. rewrite required_reached; auto. split; intros (s & A & B); exists s; split; auto; now apply X.
Qed.
Print Assumptions C59_bounds_partial.

(** [trait B<T> {}  trait A<T>: B<T> {}  fn f<U, V: A<U>>() {}]: everything is in scope, and
    the compiler panics: the supertrait is looked at with the parameter of the trait, which
    the function does not have. *)
Definition param_ (n : nat) : texprs := XCons (ESpec (Generic (Named n))) XNil.
Definition tB : trait_ := {| tr_params := [Named 11]; tr_supers := [] |}.
Definition tA : trait_ := {| tr_params := [Named 10]; tr_supers := [{| ts_name := 1; ts_args := Some (param_ 10) |}] |}.
Theorem C59_parameter_refuted : exists g gl traits, scoped_traits g /\ (forall s, In s traits -> known g s) /\
  (forall s, In s traits -> exprs_scope gl false (args_of s) = true) /\ (forall d, ~ leads g d d) /\
  forall more, bounds (3 + more) g gl traits = Some Panic.
Proof.
  exists [(0, tA); (1, tB)], [Named 20; Named 21], [{| ts_name := 0; ts_args := Some (param_ 20) |}]. split; [|split; [|split; [|split]]].
  - constructor.
    + cbn. repeat constructor; cbn; intuition discriminate.
    + intros n t s [E|[E|[]]] I; inversion E; subst; cbn in I; [destruct I as [<-|[]]|destruct I]. exists tB. cbn. auto.
    + intros n t s [E|[E|[]]] I; inversion E; subst; cbn in I; [destruct I as [<-|[]]; reflexivity|destruct I].
  - intros s [<-|[]]. exists tA. cbn. auto.
  - intros s [<-|[]]. reflexivity.
  - assert (X : declare_all 5 (fun _ _ => 0) [(0, tA); (1, tB)] [] = Added [(1, tB); (0, tA)]) by (vm_compute; reflexivity). apply (C59_acyclic _ _ _ _ X).
  - intros more. reflexivity.
Qed.
Print Assumptions C59_parameter_refuted.

(** [trait B<T> {}  trait A: B<Self> {}  fn f<V: A>() {}]: an internal error. *)
Definition tA' : trait_ := {| tr_params := []; tr_supers := [{| ts_name := 1; ts_args := Some (XCons (ESpec TraitSelf) XNil) |}] |}.
Theorem C59_self_refuted : exists g gl traits, scoped_traits g /\ (forall s, In s traits -> known g s) /\
  (forall s, In s traits -> exprs_scope gl false (args_of s) = true) /\ (forall d, ~ leads g d d) /\
  forall more, bounds (3 + more) g gl traits = Some Bug.
Proof.
  exists [(0, tA'); (1, tB)], [Named 21], [{| ts_name := 0; ts_args := None |}]. split; [|split; [|split; [|split]]].
  - constructor.
    + cbn. repeat constructor; cbn; intuition discriminate.
    + intros n t s [E|[E|[]]] I; inversion E; subst; cbn in I; [destruct I as [<-|[]]|destruct I]. exists tB. cbn. auto.
    + intros n t s [E|[E|[]]] I; inversion E; subst; cbn in I; [destruct I as [<-|[]]; reflexivity|destruct I].
  - intros s [<-|[]]. exists tA'. cbn. auto.
  - intros s [<-|[]]. reflexivity.
  - assert (X : declare_all 5 (fun _ _ => 0) [(0, tA'); (1, tB)] [] = Added [(1, tB); (0, tA')]) by (vm_compute; reflexivity). apply (C59_acyclic _ _ _ _ X).
  - intros more. reflexivity.
Qed.
Print Assumptions C59_self_refuted.

(** Copy, Data: Copy, Ord<int>: Data + Copy — a diamond: accepted, and a bound on the last
    brings the others.  With Copy: Ord the last declaration closes a cycle, which is named. *)
Definition sp (n : nat) : tspec := {| ts_name := n; ts_args := None |}.
Definition int8 : texprs := XCons (ESpec (Declared 50 (XCons (EInt 8) XNil))) XNil.
Definition t0 : trait_ := {| tr_params := []; tr_supers := [] |}.
Definition t1 : trait_ := {| tr_params := []; tr_supers := [sp 0] |}.
Definition t2 : trait_ := {| tr_params := []; tr_supers := [sp 1; sp 0; {| ts_name := 3; ts_args := Some int8 |}] |}.
Definition t3 : trait_ := {| tr_params := [Named 30]; tr_supers := [] |}.
Definition t0' : trait_ := {| tr_params := []; tr_supers := [sp 2] |}.
Example C59_nontrivial :
  declare_all 10 (fun n _ => n) [(2, t2); (0, t0); (1, t1); (3, t3)] [] = Added [(3, t3); (1, t1); (0, t0); (2, t2)] /\
  declare_all 10 (fun n _ => n) [(2, t2); (1, t1); (0, t0')] [] = Refused_cycle [2; 0] /\
  declare_all 10 (fun n _ => 7 - n) [(2, t2); (1, t1); (2, t1)] [] = Refused_twice /\
  bounds 10 [(3, t3); (1, t1); (0, t0); (2, t2)] [Named 40] [sp 2] = Some (Ok [{| ts_name := 3; ts_args := Some int8 |}; sp 0; sp 1; sp 2]) /\
  scoped_traits [(3, t3); (1, t1); (0, t0); (2, t2)] /\ plain_supers [(3, t3); (1, t1); (0, t0); (2, t2)].
Proof.
  split; [vm_compute; reflexivity|]. split; [vm_compute; reflexivity|]. split; [vm_compute; reflexivity|]. split; [vm_compute; reflexivity|]. split; [constructor|].
  - cbn. repeat constructor; cbn; intuition discriminate.
  - intros n t s I J. cbn in I. repeat (destruct I as [I|I]; [inversion I; subst; cbn in J; repeat (destruct J as [J|J]; [subst; eexists; cbn; auto 8|]); destruct J|]). destruct I.
  - intros n t s I J. cbn in I. repeat (destruct I as [I|I]; [inversion I; subst; cbn in J; repeat (destruct J as [J|J]; [subst; reflexivity|]); destruct J|]). destruct I.
  - intros n t s I J. cbn in I. repeat (destruct I as [I|I]; [inversion I; subst; cbn in J; repeat (destruct J as [J|J]; [subst; reflexivity|]); destruct J|]). destruct I.
Qed.
