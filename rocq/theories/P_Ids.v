(** C39 instance names, C41 lookup by location, C44 identifiers. *)
From Coq Require Import String List Arith ZArith Bool Lia Permutation Sorted.
From Verif Require Import MirModel LocModel LocSpec LocProofs IdModel IdSpec IdProofs InstModel InstProofs.
Import ListNotations.
Local Open Scope list_scope.

(** ** C39 *)
(** In every module: the instances have different names, and the final map sends the
    name of an instance to the unit that was asked for. *)
Theorem C39_instances : forall ms k u reqs, NoDup (map fst ms) -> nth_error ms k = Some (u, reqs) ->
  exists names, nth_error (fst (modules ms [])) k = Some names /\ NoDup names /\ List.length names = List.length reqs /\
    forall j un n, nth_error reqs j = Some (un, n) ->
      exists i, nth_error names j = Some i /\ walk (snd (modules ms [])) u [i] = Some un.
Proof.
  intros ms k u reqs N H. destruct (modules_map ms [] k u reqs N H) as (names & A & B & C & D).
  exists names. split; auto. split; auto. split; auto. intros j un n J. destruct (D j un n J) as (i & I1 & I2).
  exists i. split; auto. cbn. unfold local in I2. destruct (u_get (snd (modules ms [])) u); [|discriminate].
  rewrite I2. auto.
Qed.
Print Assumptions C39_instances.

(** Walking down the map goes from instance to instance, and nowhere else. *)
Inductive in_hierarchy (ms : list (nat * list (nat * string))) : nat -> list string -> nat -> Prop :=
| ih_here : forall u, in_hierarchy ms u [] u
| ih_inst : forall m u reqs names k un n i path v, nth_error ms m = Some (u, reqs) ->
    nth_error (fst (modules ms [])) m = Some names ->
    nth_error reqs k = Some (un, n) -> nth_error names k = Some i ->
    in_hierarchy ms un path v -> in_hierarchy ms u (i :: path) v.
Theorem C39_hierarchy : forall ms top path u, NoDup (map fst ms) ->
  (walk (snd (modules ms [])) top path = Some u <-> in_hierarchy ms top path u).
Proof.
  intros ms top path u N. revert top. induction path as [|i path IH]; intros top; cbn [walk].
  - split; intros H.
    + inversion H; subst. constructor.
    + inversion H; subst. auto.
  - split; intros H.
    + destruct (u_get (snd (modules ms [])) top) as [l|] eqn:G; [|discriminate].
      destruct (s_get l i) as [next|] eqn:S; [|discriminate].
      destruct (modules_only ms [] top i next N) as [Q|(m & reqs & names & k & n & A & B & C & D)].
      * unfold local. rewrite G. auto.
      * discriminate.
      * econstructor; eauto. apply IH. auto.
    + inversion H; subst. destruct (modules_map ms [] m top reqs N H2) as (names' & A & B & C & D).
      assert (names' = names) by congruence. subst. destruct (D k un n H4) as (i' & I1 & I2).
      assert (i' = i) by congruence. subst. unfold local in I2.
      destruct (u_get (snd (modules ms [])) top); [|discriminate]. rewrite I2. apply IH. auto.
Qed.
Print Assumptions C39_hierarchy.

(** But an instance may be called like a signal: unit [sub] in a module with a variable
    [sub_0] (codegen/mod.rs:1010-1018; a signal is emitted under its name). *)
Theorem C39_signal_refuted : exists names x, fst (instances [] 0 [(1, "sub"%string)] []) = names /\
  In (var_name (Named 0 x)) names.
Proof. eexists. exists "sub_0"%string. split; [reflexivity|]. left. reflexivity. Qed.
Print Assumptions C39_signal_refuted.

Example C39_nontrivial :
  let ms := [(0, [(1, "a"); (2, "a_0"); (1, "a"); (3, "a_0")]); (1, [(2, "a")])]%string in
  fst (modules ms []) = [["a_0"; "a_0_0"; "a_1"; "a_0_1"]; ["a_0"]]%string /\
  walk (snd (modules ms [])) 0 ["a_1"; "a_0"]%string = Some 2 /\
  walk (snd (modules ms [])) 0 ["a_2"]%string = None.
Proof. split; [vm_compute; reflexivity|]. split; vm_compute; reflexivity. Qed.

(** ** C41 *)
(** Exactly the recorded values around the location, each as often as recorded. *)
Theorem C41_exact : forall (T : Type) (history : list (loc T)) (q : loc unit),
  exists found, Permutation (around (recorded history) q) found /\
    (forall x, In x found <-> In x history /\ encloses x q) /\
    (exists keep : loc T -> bool, found = filter keep history).
Proof.
  intros T h q. exists (filter (fun x => (l_file x =? l_file q) && enclb T q x) h). split; [|split].
  - rewrite around_sorted, <- Permutation_rev.
    assert (E : filter (fun x => (l_file x =? l_file q) && enclb T q x) h = filter (enclb T q) (of_file T (l_file q) h)).
    { unfold of_file. clear. induction h as [|x h IH]; auto. cbn.
      destruct (l_file x =? l_file q); cbn; [|auto]. destruct (enclb T q x); rewrite IH; auto. }
    rewrite E. pose proof (sort_perm T (of_file T (l_file q) h)) as P. revert P.
    generalize (sort T (of_file T (l_file q) h)) (of_file T (l_file q) h). intros a b P.
    induction P; cbn; auto.
    + destruct (enclb T q x); auto.
    + destruct (enclb T q x), (enclb T q y); auto. constructor.
    + etransitivity; eauto.
  - intros x. rewrite filter_In, andb_true_iff, Nat.eqb_eq. unfold enclb, encloses.
    rewrite andb_true_iff, !Nat.leb_le. tauto.
  - eexists. reflexivity.
Qed.
Print Assumptions C41_exact.

(** They come in the opposite order of their starts, those with the same start in the
    opposite order of their ends, those with the same span latest first. *)
Theorem C41_order : forall (T : Type) (history : list (loc T)) (q : loc unit),
  (forall a b, before (around (recorded history) q) a b ->
     l_start b < l_start a \/ (l_start a = l_start b /\ l_end b <= l_end a)) /\
  (forall s e, filter (fun x => (l_start x =? s) && (l_end x =? e)) (around (recorded history) q) =
     if (s <=? l_start q) && (l_end q <=? e) then
       rev (filter (fun x => (l_file x =? l_file q) && ((l_start x =? s) && (l_end x =? e))) history)
     else []).
Proof.
  intros T h q. rewrite around_sorted. split.
  - intros a b (l1 & l2 & l3 & E). apply (f_equal (@rev (loc T))) in E. rewrite rev_involutive in E.
    rewrite rev_app_distr in E. cbn in E. rewrite rev_app_distr in E. cbn in E. rewrite <- !app_assoc in E. cbn in E.
    pose proof (sort_ordered T (of_file T (l_file q) h)) as O.
    assert (Of : forall l, ordered T l -> ordered T (filter (enclb T q) l)).
    { clear. induction l as [|x l IH]; intros O; auto. inversion O; subst. cbn. destruct (enclb T q x); [|apply IH; exact H1].
      constructor; [apply IH; exact H1|]. apply Forall_forall. intros y I. apply filter_In in I as [I _]. rewrite Forall_forall in H2. auto. }
    apply Of in O. rewrite E in O. clear - O. induction (rev l3) as [|x l IH].
    + inversion O; subst. rewrite Forall_forall in H2. assert (LE : le T b a = true).
      { apply H2. apply in_or_app. right. left. auto. }
      apply le_spec in LE. lia.
    + inversion O; subst. auto.
  - intros s e. rewrite filter_rev'. rewrite filter_filter_comm. rewrite sort_same.
    + unfold of_file. rewrite !filter_filter_and.
      destruct ((s <=? l_start q) && (l_end q <=? e)) eqn:B.
      * f_equal. apply filter_ext. intros x. unfold enclb.
        destruct (Nat.eqb_spec (l_start x) s); cbn; rewrite ?andb_false_r; auto.
        destruct (Nat.eqb_spec (l_end x) e); cbn; rewrite ?andb_false_r; auto. subst. rewrite B, !andb_true_r. auto.
      * rewrite filter_none; auto. apply Forall_forall. intros x _. unfold enclb.
        destruct (Nat.eqb_spec (l_start x) s); cbn; rewrite ?andb_false_r; auto.
        destruct (Nat.eqb_spec (l_end x) e); cbn; rewrite ?andb_false_r; auto. subst. rewrite B, !andb_false_r. auto.
    + intros x z H1 H2. apply andb_true_iff in H1 as [A1 A2], H2 as [B1 B2].
      apply Nat.eqb_eq in A1, A2, B1, B2. apply le_spec. lia.
Qed.
Print Assumptions C41_order.

(** Of two enclosing spans that start at different places and are nested, the inner
    comes first. *)
Theorem C41_innermost_partial : forall (T : Type) (history : list (loc T)) (q : loc unit) a b,
  before (around (recorded history) q) a b -> l_start a <> l_start b -> encloses a b \/ encloses b a -> encloses b a.
Proof.
  intros T h q a b B N E. apply (proj1 (C41_order T h q)) in B. destruct E as [(E1 & E2 & E3)|E]; auto. lia.
Qed.
Print Assumptions C41_innermost_partial.
(** Not so for spans that start at the same place: the outer one comes first. *)
Theorem C41_innermost_refuted : exists (history : list (loc nat)) (q : loc unit) a b,
  before (around (recorded history) q) a b /\ encloses a b /\ ~ encloses b a.
Proof.
  exists [Loc 0 40 60 1; Loc 1 40 70 1], (Loc tt 50 50 1), (Loc 1 40 70 1), (Loc 0 40 60 1).
  split; [exists [], [], []; vm_compute; reflexivity|]. split; [repeat split; cbn; lia|].
  intros (A & B & C). cbn in C. lia.
Qed.
Print Assumptions C41_innermost_refuted.

(** loc_map.rs:67-95, the test *)
Example C41_nontrivial :
  map l_inner (around (recorded [Loc 10 100 105 1; Loc 11 262 265 1; Loc 0 0 100 1; Loc 1 30 70 1; Loc 2 40 60 1;
    Loc 3 40 70 1; Loc 4 45 50 1; Loc 5 45 50 2]) (Loc tt 50 50 1)) = [4; 3; 2; 1; 0].
Proof. vm_compute. reflexivity. Qed.

(** ** C44 *)
Local Open Scope Z_scope.
(** Any number of threads, any programs, any schedule: a tracker that hands out at most
    2^64 ids hands out none twice. *)
Theorem C44_unique : forall ps ts es ps' ts' t tr, run ps ts es ps' ts' -> nth_error ts t = Some tr ->
  0 <= latest tr < 2 ^ 64 -> Z.of_nat (List.length (ids_of t es)) <= 2 ^ 64 -> NoDup (ids_of t es).
Proof.
  intros ps ts es ps' ts' t tr R H B L. rewrite (ids_from _ _ _ _ _ R _ _ H B). apply u64_distinct. auto.
Qed.
Print Assumptions C44_unique.

(** A tracker that hands out more than 2^64 ids repeats one. *)
Theorem C44_wrap_refuted : forall ps ts es ps' ts' t tr, run ps ts es ps' ts' -> nth_error ts t = Some tr ->
  0 <= latest tr < 2 ^ 64 -> 2 ^ 64 < Z.of_nat (List.length (ids_of t es)) -> ~ NoDup (ids_of t es).
Proof.
  intros ps ts es ps' ts' t tr R H B L. rewrite (ids_from _ _ _ _ _ R _ _ H B). apply u64_repeats. auto.
Qed.
Print Assumptions C44_wrap_refuted.

(** A tracker and its clone hand out the same ids, as the comment on [make_clone] warns. *)
Theorem C44_clone_refuted : exists es ps' ts' id,
  run [[MakeClone 0; Next 0; Next 1]] [new_tracker] es ps' ts' /\ In (GotId 0 id) es /\ In (GotId 1 id) es.
Proof.
  exists [Cloned 0 1; GotId 0 0; GotId 1 0]. do 2 eexists. exists 0. split.
  - eapply run_step with (i := 0%nat); [reflexivity|eapply os_clone with (v := 0); [reflexivity|left; reflexivity]|].
    eapply run_step with (i := 0%nat); [reflexivity|refine (os_next [[0]; [0]] 0%nat [0] _); reflexivity|].
    eapply run_step with (i := 0%nat); [reflexivity|refine (os_next [[1; 0]; [0]] 1%nat [0] _); reflexivity|]. apply run_stop.
  - cbn. auto.
Qed.
Print Assumptions C44_clone_refuted.

(** The symbol table may be frozen and unfrozen: its names get different ids. *)
Theorem C44_table : forall ops t ids, table_run t ops = Some ids -> 0 <= next_id t < 2 ^ 64 ->
  Z.of_nat (List.length ids) <= 2 ^ 64 -> NoDup ids.
Proof. intros ops t ids H B L. rewrite (table_ids _ _ _ H B). apply u64_distinct. auto. Qed.
Print Assumptions C44_table.

Example C44_nontrivial :
  table_run (Thawed 5) [AddThing; Freeze; NewName; NewName; Unfreeze; AddThing; Freeze; NewName] = Some [5; 6; 7; 8; 9] /\
  exists es ps' ts', run [[Next 0; Peek 0; Next 0]; [Next 0]] [new_at 7] es ps' ts' /\
    ids_of 0 es = [7; 8; 9] /\ In (Saw 0 7) es.
Proof.
  split; [vm_compute; reflexivity|]. do 3 eexists. split.
  - eapply run_step with (i := 0%nat); [reflexivity|refine (os_next [[7]] 0%nat [7] _); reflexivity|].
    eapply run_step with (i := 1%nat); [reflexivity|refine (os_next [[8; 7]] 0%nat [8; 7] _); reflexivity|].
    eapply run_step with (i := 0%nat); [reflexivity|eapply os_peek with (v := 7); [reflexivity|cbn; auto]|].
    eapply run_step with (i := 0%nat); [reflexivity|refine (os_next [[9; 8; 7]] 0%nat [9; 8; 7] _); reflexivity|]. apply run_stop.
  - cbn. auto.
Qed.
