(** C21 alias flattening, C22 predictable names, C23 merging inverted wires. *)
From Coq Require Import String List ZArith Bool Arith Permutation Lia.
From Verif Require Import Bits CodegenModel MirModel MirSpec MirAlias MirRename MirIdent MirDedup.
Import ListNotations.
Local Open Scope list_scope.

(** ** C21 *)
(** Every behaviour of a module is a behaviour of the flattened module, signal
    by signal; [ord] is the unknown iteration order of the hash sets. *)
Theorem C21_forward : forall m ord e sg, (forall l, Permutation (ord l) l) ->
  behaves m sg e ->
  behaves m sg (flatten_aliases ord e)
  /\ observations m sg (flatten_aliases ord e) = observations m sg e.
Proof. exact flatten_forward. Qed.
Print Assumptions C21_forward.

(** And nothing is added: every behaviour of the flattened module comes from one
    of the module with the same inputs, output and asserted conditions, and the
    same value on every named signal without inverted wires. *)
Theorem C21_backward : forall m ord e sg', (forall l, Permutation (ord l) l) ->
  single_definitions e -> behaves m sg' (flatten_aliases ord e) ->
  exists sg, behaves m sg e /\ observations m sg e = observations m sg' (flatten_aliases ord e)
    /\ forall x, plainly_named e x -> sg x = sg' x.
Proof. intros m ord e sg' P SD B. eapply flatten_backward; eauto. Qed.
Print Assumptions C21_backward.

(** No name gets a second definition. *)
Theorem C21_single_definitions : forall ord e, (forall l, Permutation (ord l) l) ->
  single_definitions e -> single_definitions (flatten_aliases ord e).
Proof. intros. apply flatten_single_definitions; auto. Qed.
Print Assumptions C21_single_definitions.

Definition bit := TUInt 1.
(** A module with an input, two aliases and an assertion. *)
Definition al_e : entity :=
  {| e_inputs := [{| in_name := "a"; in_val := Named 4 "a"; in_ty := bit; in_no_mangle := false |}];
     e_output := EId 2; e_output_ty := bit;
     e_stmts := [SAlias (Named 5 "b") (Named 4 "a") bit; SBind (EId 1) (MOp Not) [Named 5 "b"] bit;
                 SAlias (Named 6 "c") (EId 1) bit; SAlias (EId 2) (Named 6 "c") bit; SAssert (EId 2)] |}.
Example C21_nontrivial :
  single_definitions al_e /\ plainly_named al_e (Named 5 "b") /\
  flatten_aliases (fun l => l) al_e =
    {| e_inputs := e_inputs al_e; e_output := Named 6 "c"; e_output_ty := bit;
       e_stmts := [SBind (Named 6 "c") (MOp Not) [Named 4 "a"] bit; SAssert (Named 6 "c");
                   SAlias (Named 5 "b") (Named 4 "a") bit] |}.
Proof.
  split; [repeat constructor; cbn; intuition discriminate|]. split; [|reflexivity].
  split; [eauto|]. intros a b t H _. cbn in H.
  repeat (destruct H as [H|H]; [inversion H; reflexivity|]). destruct H.
Qed.

(** ** C22 *)
(** A variable's new number is how many earlier definitions share its spelling. *)
Theorem C22_number : forall e l1 i s l2,
  single_definitions e -> definitions e = l1 ++ Named i s :: l2 ->
  get_name (name_table e) (Named i s) = Named (occurrences s l1) s.
Proof. intros e l1 i s l2 SD H. exact (predictable_number e l1 _ l2 SD H). Qed.
Print Assumptions C22_number.

(** Distinct variables stay distinct variables. *)
Theorem C22_distinct : forall e x y, single_definitions e ->
  In x (definitions e) -> In y (definitions e) ->
  get_name (name_table e) x = get_name (name_table e) y -> x = y.
Proof. intros e x y SD I J. eapply get_name_inj; eauto. Qed.
Print Assumptions C22_distinct.

(** The result does not depend on the ids the compiler happened to hand out. *)
Theorem C22_independent : forall f e,
  renumbering f -> single_definitions e -> closed e ->
  (forall x y, In x (definitions e) -> In y (definitions e) -> f x = f y -> x = y) ->
  make_names_predictable (rename_entity f e) = make_names_predictable e.
Proof. exact predictable_independent. Qed.
Print Assumptions C22_independent.

(** Renaming preserves behaviour, in both directions. *)
Theorem C22_forward : forall m e sg, single_definitions e -> closed e -> behaves m sg e ->
  exists sg', behaves m sg' (make_names_predictable e)
    /\ observations m sg' (make_names_predictable e) = observations m sg e
    /\ forall n, In n (definitions e) -> sg' (get_name (name_table e) n) = sg n.
Proof. exact predictable_forward. Qed.
Print Assumptions C22_forward.
Theorem C22_backward : forall m e sg', behaves m sg' (make_names_predictable e) ->
  exists sg, behaves m sg e
    /\ observations m sg e = observations m sg' (make_names_predictable e)
    /\ forall n, sg n = sg' (get_name (name_table e) n).
Proof.
  intros m e sg' B. exists (fun n => sg' (get_name (name_table e) n)).
  destruct (predictable_backward m e sg' B). auto.
Qed.
Print Assumptions C22_backward.

(** The identifiers declared in the emitted module are pairwise different as
    long as no variable is spelled like a compiler-made identifier. *)
Theorem C22_identifiers_partial : forall e,
  single_definitions e -> ports_ok e -> no_reserved_spelling e ->
  NoDup (declared_names (make_names_predictable e)).
Proof. exact declared_names_distinct. Qed.
Print Assumptions C22_identifiers_partial.

Definition mk_input (s : string) (i : nat) : minput :=
  {| in_name := s; in_val := Named i s; in_ty := bit; in_no_mangle := false |}.
(** Without that proviso two variables can get the same identifier: a second [a]
    is emitted as [a_n1], and so is a variable the user called [a_n1]. *)
Theorem C22_identifiers_refuted : exists e,
  single_definitions e /\ ports_ok e /\ closed e /\
  ~ NoDup (declared_names (make_names_predictable e)).
Proof.
  exists {| e_inputs := [mk_input "a" 1]; e_output := Named 3 "a_n1"; e_output_ty := bit;
            e_stmts := [SBind (Named 2 "a") (MOp Not) [Named 1 "a"] bit;
                        SBind (Named 3 "a_n1") (MOp Not) [Named 2 "a"] bit] |}.
  split; [repeat constructor; cbn; intuition discriminate|].
  split.
  { split; [|split].
    - intros i [<-|[]]. eexists. reflexivity.
    - repeat constructor; cbn; tauto.
    - intros i [<-|[]]; discriminate. }
  split.
  { split; [cbn; auto|]. intros s x [<-|[<-|[]]]; cbn; intuition auto. }
  cbn. intros N. repeat (apply NoDup_cons_iff in N as [? N]). cbn in *. intuition.
Qed.
Print Assumptions C22_identifiers_refuted.
(** The same with the suffix of a port: a local [a_i] and the port of [a]. *)
Theorem C22_port_refuted : exists e,
  single_definitions e /\ ports_ok e /\ closed e /\
  ~ NoDup (declared_names (make_names_predictable e)).
Proof.
  exists {| e_inputs := [mk_input "a" 1]; e_output := Named 3 "a_i"; e_output_ty := bit;
            e_stmts := [SBind (Named 3 "a_i") (MOp Not) [Named 1 "a"] bit] |}.
  split; [repeat constructor; cbn; intuition discriminate|].
  split.
  { split; [|split].
    - intros i [<-|[]]. eexists. reflexivity.
    - repeat constructor; cbn; tauto.
    - intros i [<-|[]]; discriminate. }
  split.
  { split; [cbn; auto|]. intros s x [<-|[]]; cbn; intuition auto. }
  cbn. intros N. repeat (apply NoDup_cons_iff in N as [? N]). cbn in *. intuition.
Qed.
Print Assumptions C22_port_refuted.

Definition nm_e : entity :=
  {| e_inputs := [mk_input "a" 4]; e_output := EId 2; e_output_ty := bit;
     e_stmts := [SBind (Named 9 "x") (MOp Not) [Named 4 "a"] bit; SBind (Named 7 "x") (MOp Not) [Named 9 "x"] bit;
                 SBind (EId 2) (MOp Not) [Named 7 "x"] bit] |}.
Example C22_nontrivial :
  single_definitions nm_e /\ closed nm_e /\ ports_ok nm_e /\ no_reserved_spelling nm_e /\
  make_names_predictable nm_e =
  {| e_inputs := [mk_input "a" 0]; e_output := EId 2; e_output_ty := bit;
     e_stmts := [SBind (Named 0 "x") (MOp Not) [Named 0 "a"] bit; SBind (Named 1 "x") (MOp Not) [Named 0 "x"] bit;
                 SBind (EId 2) (MOp Not) [Named 1 "x"] bit] |} /\
  declared_names (make_names_predictable nm_e) = ["a_i"; "a"; "output__"; "x"; "x_n1"; "_e_2"]%string.
Proof.
  split; [repeat constructor; cbn; intuition discriminate|].
  split.
  { split; [cbn; auto|]. intros s x [<-|[<-|[<-|[]]]]; cbn; intuition auto. }
  split.
  { split; [|split].
    - intros i [<-|[]]. eexists. reflexivity.
    - repeat constructor; cbn; tauto.
    - intros i [<-|[]]; discriminate. }
  split; [|split; reflexivity].
  intros s t k Hs Ht H. cbn in Hs, Ht.
  assert (S : s = "a"%string \/ s = "x"%string) by intuition auto.
  assert (T : t = "a"%string \/ t = "x"%string) by intuition auto.
  destruct S as [-> | ->], T as [-> | ->]; cbn in H; intuition discriminate.
Qed.

(** ** C23 *)
(** Merging keeps every behaviour, signal by signal. *)
Theorem C23_forward : forall m e sg, determined m -> behaves m sg e ->
  behaves m sg (deduplicate_mut_wires e)
  /\ observations m sg (deduplicate_mut_wires e) = observations m sg e.
Proof. exact dedup_forward. Qed.
Print Assumptions C23_forward.

(** Afterwards no two bindings read the same place of the same inverted wires. *)
Theorem C23_single_driver : forall e l1 l2 l3 n1 n2 o ops t,
  In o [MOp (IndexTuple 0); MOp IndexArray; MIndexMemory] \/
  (exists i, o = MOp (IndexTuple i)) \/ (exists a b, o = MOp (RangeIndexArray a b)) \/
  (exists a b, o = MOp (EnumMember a b)) ->
  e_stmts (deduplicate_mut_wires e) = l1 ++ SBind n1 o ops t :: l2 ++ SBind n2 o ops t :: l3 ->
  backward_size t = 0.
Proof.
  intros e l1 l2 l3 n1 n2 o ops t Ho H.
  pose proof (dedup_single_driver e _ _ _ _ _ n1 n2 (Some o, ops, t) H eq_refl eq_refl) as N.
  unfold needs_dedup in N. cbn [fst snd] in N.
  assert (Q : op_needs_deduplication o = true).
  { destruct Ho as [I|[(i & ->)|[(a & b & ->)|(a & b & ->)]]]; try reflexivity.
    repeat (destruct I as [<-|I]; [reflexivity|]). destruct I. }
  rewrite Q, andb_true_r in N. unfold nonzero in N. destruct (backward_size t); [reflexivity|discriminate].
Qed.
Print Assumptions C23_single_driver.
Theorem C23_single_alias : forall e l1 l2 l3 n1 n2 x t,
  e_stmts (deduplicate_mut_wires e) = l1 ++ SAlias n1 x t :: l2 ++ SAlias n2 x t :: l3 ->
  backward_size t = 0.
Proof.
  intros e l1 l2 l3 n1 n2 x t H.
  pose proof (dedup_single_driver e _ _ _ _ _ n1 n2 (None, [x], t) H eq_refl eq_refl) as N.
  unfold needs_dedup in N. cbn [fst snd] in N. rewrite andb_true_r in N. unfold nonzero in N.
  destruct (backward_size t); [reflexivity|discriminate].
Qed.
Print Assumptions C23_single_alias.

(** Nothing is added, for modules whose output, registers, assertions and
    assigned values are not themselves inverted wires: every behaviour of the
    result extends to the original module, except for assignments that the pass
    removed because their target was merged away. *)
Theorem C23_backward_partial : forall m sg' e,
  single_definitions e -> plain_uses_ok e -> behaves m sg' (deduplicate_mut_wires e) ->
  exists sg : vn -> D m,
    (forall s, In s (e_stmts e) ->
       (forall x v, s = SSet x v -> In s (e_stmts (deduplicate_mut_wires e))) -> holds m sg s) /\
    observations m sg e = observations m sg' (deduplicate_mut_wires e).
Proof. intros m sg' e. apply dedup_backward. Qed.
Print Assumptions C23_backward_partial.

Definition inv : ty := TBackward bit.
Definition inv_input (s : string) (i : nat) (t : ty) : minput :=
  {| in_name := s; in_val := Named i s; in_ty := t; in_no_mangle := false |}.
(** Reading [p#0] twice and assigning only through the second read: the
    assignment disappears and the wire is left without a driver. *)
Definition lost_e : entity :=
  {| e_inputs := [inv_input "p" 0 (TTuple [inv]); mk_input "c" 1]; e_output := Named 1 "c"; e_output_ty := bit;
     e_stmts := [SBind (Named 2 "x") (MOp (IndexTuple 0)) [Named 0 "p"] inv;
                 SBind (Named 3 "y") (MOp (IndexTuple 0)) [Named 0 "p"] inv;
                 SSet (Named 3 "y") (Named 1 "c")] |}.
Definition wire_sem : semantics :=
  {| D := nat; s_op := fun _ _ d ops => d = hd 0 ops; s_reg := fun _ _ _ _ v n => n = v;
     s_const := fun _ c d => d = c; s_set := fun a b => a = b |}.
Theorem C23_set_refuted : exists m e sg',
  determined m /\ single_definitions e /\ closed e /\ plain_uses_ok e /\
  behaves m sg' (deduplicate_mut_wires e) /\
  ~ exists sg, behaves m sg e /\ observations m sg e = observations m sg' (deduplicate_mut_wires e).
Proof.
  exists wire_sem, lost_e, (fun n => match n with Named 1 _ => 1 | _ => 0 end).
  split; [intros o t d d' ops _ _ H H'; cbn in *; congruence|].
  split; [repeat constructor; cbn; intuition discriminate|].
  split.
  { split; [cbn; auto|]. intros s x [<-|[<-|[<-|[]]]]; cbn; intuition auto. }
  split.
  { intros s n k [<-|[<-|[<-|[]]]] Q I; inversion Q; subst; cbn in I; intuition discriminate. }
  split.
  { unfold behaves. cbn. repeat constructor. }
  intros (sg & B & O). unfold behaves in B. cbn in B.
  inversion B as [|? ? B1 B']; subst. inversion B' as [|? ? B2 B'']; subst. inversion B'' as [|? ? B3 _]; subst.
  cbn in *. inversion O. congruence.
Qed.
Print Assumptions C23_set_refuted.
(** A module whose output is the second read is left with an undefined output. *)
Theorem C23_output_refuted : exists e,
  single_definitions e /\ closed e /\ ~ closed (deduplicate_mut_wires e).
Proof.
  exists {| e_inputs := [inv_input "p" 0 (TTuple [inv])]; e_output := Named 3 "y"; e_output_ty := inv;
     e_stmts := [SBind (Named 2 "x") (MOp (IndexTuple 0)) [Named 0 "p"] inv;
                 SBind (Named 3 "y") (MOp (IndexTuple 0)) [Named 0 "p"] inv] |}.
  split; [repeat constructor; cbn; intuition discriminate|].
  split.
  { split; [cbn; auto|]. intros s x [<-|[<-|[]]]; cbn; intuition auto. }
  intros [H _]. cbn in H. intuition discriminate.
Qed.
Print Assumptions C23_output_refuted.

Example C23_nontrivial :
  let e := {| e_inputs := [inv_input "p" 0 (TTuple [TTuple [inv]]); mk_input "c" 1]; e_output := Named 1 "c"; e_output_ty := bit;
     e_stmts := [SBind (Named 2 "x") (MOp (IndexTuple 0)) [Named 0 "p"] (TTuple [inv]);
                 SBind (Named 3 "y") (MOp (IndexTuple 0)) [Named 0 "p"] (TTuple [inv]);
                 SBind (EId 4) (MOp (IndexTuple 0)) [Named 2 "x"] inv;
                 SBind (EId 5) (MOp (IndexTuple 0)) [Named 3 "y"] inv;
                 SSet (EId 4) (Named 1 "c")] |} in
  determined wire_sem /\ single_definitions e /\ plain_uses_ok e /\
  behaves wire_sem (fun _ => 1) e /\
  e_stmts (deduplicate_mut_wires e) =
    [SBind (Named 2 "x") (MOp (IndexTuple 0)) [Named 0 "p"] (TTuple [inv]);
     SBind (EId 4) (MOp (IndexTuple 0)) [Named 2 "x"] inv;
     SSet (EId 4) (Named 1 "c")] /\
  needs_dedup (Some (MOp (IndexTuple 0)), [Named 0 "p"], TTuple [inv]) = true.
Proof.
  split; [intros o t d d' ops _ _ H H'; cbn in *; congruence|].
  split; [repeat constructor; cbn; intuition discriminate|].
  split.
  { intros s n k H Q I. cbn in H. repeat (destruct H as [<-|H]; [inversion Q; subst; cbn in I; intuition discriminate|]). destruct H. }
  split; [unfold behaves; cbn; repeat constructor|].
  split; reflexivity.
Qed.
