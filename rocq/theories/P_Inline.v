(** C46: inlining units. *)
From Coq Require Import String List Bool Arith Lia.
From Verif Require Import CodegenModel MirModel MirSpec InlineModel InlineSpec InlineProofs.
Import ListNotations.
Local Open Scope list_scope.

(** A [BTreeMap] lists exactly its keys. *)
Definition lists_keys (ord : list vn -> list vn) : Prop := forall l x, In x (ord l) <-> In x l.
Definition single_all (P : source_map) : Prop := forall c u, In (c, u) P -> single_definitions (mu_entity u).

(** A unit that is kept shows exactly the same inputs, output and asserted
    conditions, in the same order, as before inlining, for every meaning of the
    primitive operators, registers included. *)
Theorem C46_behaviour :
  forall ord P i fuel out m c ins o a, lists_keys ord -> well_formed P i ->
  do_inlining ord P fuel i = Some out -> ~ inlined P c ->
  runs m (before P) c ins o a <-> runs m (after out) c ins o a.
Proof. intros. now apply (inlining_correct ord) with (first := i) (fuel := fuel). Qed.
Print Assumptions C46_behaviour.

(** The units that are left are those that were not to be inlined, in the same
    order and with the same ports. *)
Theorem C46_units :
  forall ord P i fuel out, lists_keys ord -> well_formed P i -> do_inlining ord P fuel i = Some out ->
  map (fun x => fst (fst x)) out = map fst (filter (fun p => negb (mu_inline (snd p))) P) /\
  forall c e ty u, In (c, e, ty) out -> In (c, u) P ->
    mu_inline u = false /\ e_inputs e = e_inputs (mu_entity u) /\ e_output e = e_output (mu_entity u)
    /\ e_output_ty e = e_output_ty (mu_entity u).
Proof. intros ord P i fuel out. intros. now apply (inlining_units ord) with (first := i) (fuel := fuel). Qed.
Print Assumptions C46_units.

(** No name is captured: in the result every name is still defined once, and
    every name that is used is defined. *)
Theorem C46_names :
  forall ord P i fuel out c e ty, lists_keys ord -> well_formed P i -> single_all P ->
  do_inlining ord P fuel i = Some out -> In (c, e, ty) out -> single_definitions e /\ closed e.
Proof.
  intros ord P i fuel out c e ty O W S. apply (inlining_names ord O P i W).
  intros c' u U. apply find_unit_in in U. eapply S; exact U.
Qed.
Print Assumptions C46_names.

(** No instance of an inlined unit is left. *)
Theorem C46_no_instances :
  forall ord P i fuel out c e ty, lists_keys ord -> well_formed P i ->
  do_inlining ord P fuel i = Some out -> In (c, e, ty) out ->
  forall n c' ops t, In (SBind n (MOther c') ops t) (e_stmts e) -> ~ inlined P c'.
Proof. intros ord P i fuel out c e ty O W. apply (inlining_no_call ord O P i W). Qed.
Print Assumptions C46_no_instances.

(** Inlining succeeds when no inlined unit contains itself. *)
Theorem C46_succeeds :
  forall ord P i rank fuel, lists_keys ord -> well_formed P i -> acyclic P rank ->
  (forall c u, In (c, u) P -> rank c < fuel) -> exists out, do_inlining ord P fuel i = Some out.
Proof. intros ord P i rank fuel O W A. apply (inlining_total ord O P i W rank A). Qed.
Print Assumptions C46_succeeds.

(** Ways to check the hypotheses on a program. *)
Lemma closed_intro e : Forall (fun x => In x (definitions e)) (e_output e :: flat_map used (e_stmts e)) -> closed e.
Proof.
  intros H. apply Forall_cons_iff in H as [H1 H2]. rewrite Forall_forall in H2. split; [assumption|].
  intros s x S X. apply H2. apply in_flat_map. eauto.
Qed.
Definition arity_at (P : source_map) (s : stmt) : Prop :=
  match s with
  | SBind _ (MOther c) ops _ =>
      match find_unit P c with Some u => List.length ops = List.length (e_inputs (mu_entity u)) | None => True end
  | _ => True
  end.
Lemma wf_intro P i : NoDup (map fst P) ->
  Forall (fun cu => closed (mu_entity (snd cu)) /\ NoDup (map in_val (e_inputs (mu_entity (snd cu)))) /\
    Forall (below i) (definitions (mu_entity (snd cu))) /\ Forall (arity_at P) (e_stmts (mu_entity (snd cu)))) P ->
  well_formed P i.
Proof.
  intros N H. split; [assumption|]. rewrite Forall_forall in H. intros c u I.
  destruct (H _ I) as (A & B & C & D). repeat split; try apply A; try assumption.
  intros n c' u' ops t S J. rewrite Forall_forall in D. apply D in S. cbn in S.
  rewrite (in_find_unit _ _ _ N J) in S. exact S.
Qed.
Ltac check_wf :=
  apply wf_intro; [repeat constructor; cbn; intuition discriminate|];
  repeat (apply Forall_cons; [cbn [snd mu_entity]; split; [apply closed_intro; repeat (apply Forall_cons; [vm_compute; tauto|]); apply Forall_nil|];
    split; [repeat constructor; cbn; intuition discriminate|]; split; repeat constructor; vm_compute; lia|]); apply Forall_nil.

(** An example: `fn not(x) = !x` (3), `#[inline] fn both(a, b) { assert not(a); f(a, b) }`
    (1, 3 inlined), `f` (2) not inlined, and a top unit (0) with two calls. *)
Definition inp (k : nat) (s : string) : minput := {| in_name := s; in_val := Named k s; in_ty := TBool; in_no_mangle := false |}.
Definition top : entity :=
  {| e_inputs := [inp 0 "a"; inp 1 "b"]; e_output := EId 2; e_output_ty := TBool;
     e_stmts := [SBind (EId 0) (MOther 1) [Named 0 "a"; Named 1 "b"] TBool;
                 SBind (EId 1) (MOther 1) [EId 0; Named 0 "a"] TBool;
                 SBind (EId 2) (MOther 2) [EId 1; EId 0] TBool] |}.
Definition both : entity :=
  {| e_inputs := [inp 2 "a"; inp 3 "b"]; e_output := Named 4 "r"; e_output_ty := TBool;
     e_stmts := [SBind (EId 3) (MOther 3) [Named 2 "a"] TBool; SAssert (EId 3);
                 SBind (Named 4 "r") (MOther 2) [EId 3; Named 3 "b"] TBool] |}.
Definition fn : entity :=
  {| e_inputs := [inp 5 "p"; inp 6 "q"]; e_output := EId 4; e_output_ty := TBool;
     e_stmts := [SBind (EId 4) (MOp LogicalAnd) [Named 5 "p"; Named 6 "q"] TBool] |}.
Definition neg : entity :=
  {| e_inputs := [inp 7 "x"]; e_output := EId 5; e_output_ty := TBool;
     e_stmts := [SBind (EId 5) (MOp LogicalNot) [Named 7 "x"] TBool] |}.
Definition ex : source_map :=
  [(0, {| mu_entity := top; mu_inline := false; mu_typed := fun _ => true |});
   (1, {| mu_entity := both; mu_inline := true; mu_typed := fun _ => true |});
   (2, {| mu_entity := fn; mu_inline := false; mu_typed := fun _ => true |});
   (3, {| mu_entity := neg; mu_inline := true; mu_typed := fun _ => true |})].
Definition ex_ids : ids := {| next_name := 8; next_expr := 6 |}.
Definition ex_rank (c : nat) : nat := match c with 0 => 2 | 1 => 1 | _ => 0 end.

Lemma ex_wf : well_formed ex ex_ids.
Proof. check_wf. Qed.
Lemma ex_single : single_all ex.
Proof.
  intros c u H. cbn in H. destruct H as [H|[H|[H|[H|[]]]]]; inversion H; subst; clear H; unfold single_definitions; cbn;
    repeat constructor; cbn; intuition discriminate.
Qed.
Lemma ex_acyclic : acyclic ex ex_rank.
Proof.
  intros c u n c' ops t H S I. assert (K : c' = 1 \/ c' = 3).
  { destruct I as (u' & U & IL). apply find_unit_in in U. cbn in U.
    destruct U as [U|[U|[U|[U|[]]]]]; inversion U; subst; auto; discriminate. }
  clear I. cbn in H. destruct H as [H|[H|[H|[H|[]]]]]; inversion H; subst; clear H; cbn in S.
  - destruct K; subst; cbn; lia.
  - destruct K; subst; [|cbn; lia]. exfalso. intuition discriminate.
  - exfalso. intuition discriminate.
  - exfalso. intuition discriminate.
Qed.
Example C46_nontrivial :
  lists_keys (fun l => l) /\ well_formed ex ex_ids /\ single_all ex /\ acyclic ex ex_rank /\ ~ inlined ex 0 /\ inlined ex 1
  /\ exists out e ty, do_inlining (fun l => l) ex 3 ex_ids = Some out /\ In (0, e, ty) out
     /\ List.length (e_stmts e) = 11 /\ List.length (asserted e) = 2.
Proof.
  split; [intros l x; tauto|]. split; [exact ex_wf|]. split; [exact ex_single|]. split; [exact ex_acyclic|].
  split; [intros (u & U & IL); cbn in U; inversion U; subst; discriminate|].
  split; [eexists; split; reflexivity|].
  eexists. eexists. eexists. split; [vm_compute; reflexivity|]. split; [left; reflexivity|]. split; reflexivity.
Qed.

(** The types of the inlined signals do not reach the caller: a signal of an
    inlined unit whose type is known has no type under its new name, so it is not
    shown with its type in a waveform.  (The full claim: every inlined signal with
    a known type is given it under the name it has in the result.) *)
Theorem C46_types_refuted :
  exists P i out e ty, well_formed P i /\ single_all P /\ (forall c u x, In (c, u) P -> mu_typed u x = true) /\
  do_inlining (fun l => l) P 3 i = Some out /\ In (0, e, ty) out /\ ty <> [] /\
  forall x, In x ty -> ~ In x (definitions e).
Proof.
  exists ex, ex_ids. eexists. eexists. eexists. split; [exact ex_wf|]. split; [exact ex_single|].
  split; [intros c u x H; cbn in H; destruct H as [H|[H|[H|[H|[]]]]]; inversion H; reflexivity|].
  split; [vm_compute; reflexivity|]. split; [left; reflexivity|]. split; [discriminate|].
  intros x X Y. cbn in X, Y. repeat destruct X as [<-|X]; try destruct X; intuition discriminate.
Qed.
Print Assumptions C46_types_refuted.

(** A unit that is inlined into itself: inlining never ends. *)
Definition loop_unit : entity :=
  {| e_inputs := [inp 1 "x"]; e_output := EId 1; e_output_ty := TBool;
     e_stmts := [SBind (EId 1) (MOther 1) [Named 1 "x"] TBool] |}.
Definition loop_top : entity :=
  {| e_inputs := [inp 0 "x"]; e_output := EId 0; e_output_ty := TBool;
     e_stmts := [SBind (EId 0) (MOther 1) [Named 0 "x"] TBool] |}.
Definition loop_prog : source_map :=
  [(0, {| mu_entity := loop_top; mu_inline := false; mu_typed := fun _ => true |});
   (1, {| mu_entity := loop_unit; mu_inline := true; mu_typed := fun _ => true |})].

Lemma loop_perform fuel : forall i, perform_inlining loop_prog fuel 1 [] i = None.
Proof.
  induction fuel as [|fuel IH]; intros i; [reflexivity|]. rewrite perform_unfold. cbn [find].
  unfold loop. cbn -[perform_inlining]. now rewrite IH.
Qed.
Theorem C46_recursion_refuted :
  exists P i, well_formed P i /\ single_all P /\ forall ord fuel, do_inlining ord P fuel i = None.
Proof.
  exists loop_prog, {| next_name := 2; next_expr := 2 |}. split; [|split].
  - check_wf.
  - intros c u H. cbn in H. destruct H as [H|[H|[]]]; inversion H; subst; clear H; unfold single_definitions; cbn;
      repeat constructor; cbn; intuition discriminate.
  - intros ord fuel. unfold do_inlining.
    cut (perform_inlining loop_prog fuel 0 [] {| next_name := 2; next_expr := 2 |} = None).
    { intros E. unfold loop_prog at 2. cbn [perform_all mu_inline]. now rewrite E. }
    destruct fuel as [|fuel]; [reflexivity|]. rewrite perform_unfold. cbn [find]. unfold loop.
    cbn -[perform_inlining]. now rewrite loop_perform.
Qed.
Print Assumptions C46_recursion_refuted.
