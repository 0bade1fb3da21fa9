(** C38: monomorphisation under every interleaving. *)
From Coq Require Import List ZArith Bool Arith Lia Permutation Sorting.
From Verif Require Import MonoModel MonoSpec MonoOrder MonoProofs.
Import ListNotations.
Local Open Scope list_scope.

Section Facts.
Context {R : Type}.
Variable p : program R.

Lemma final_perm first s log : inv p first s log -> finished s ->
  Permutation (st_names s) (map fst log) /\ NoDup (st_ended s).
Proof.
  intros I (Ms & Js & _). destruct (i_main _ _ _ _ I Ms) as [Q _]. pose proof (i_perm _ _ _ _ I) as B.
  rewrite Q, Js in B. cbn in B. split; [exact B|]. rewrite (i_ended _ _ _ _ I).
  rewrite <- (map_map fst fst). eapply Permutation_NoDup; [apply (Permutation_map fst B)|apply (i_nodup _ _ _ _ I)].
Qed.

Lemma final_keys first s : run p first s -> finished s ->
  NoDup (st_ended s) /\ (forall k, In k (st_ended s) <-> needed p k).
Proof.
  intros Rn Fi. pose proof Fi as (Ms & Js & Pn). destruct (inv_run p first s Rn Pn) as (log & I).
  destruct (final_perm _ _ _ I Fi) as [B N]. split; [exact N|]. intros k.
  assert (E : In k (st_ended s) <-> In k (map fst (st_names s))).
  { rewrite (i_ended _ _ _ _ I), <- (map_map fst fst).
    split; apply Permutation_in; [symmetry|]; now apply Permutation_map. }
  rewrite E. split; [apply (i_needed _ _ _ _ I)|]. destruct (i_main _ _ _ _ I Ms) as [Q Ac].
  apply (needed_known p first s log I Q Ac).
Qed.
End Facts.

(** When compilation ends, every requested instance has been compiled, and none
    twice. *)
Theorem C38_exactly_once :
  forall R (p : program R) first s, run p first s -> finished s ->
  NoDup (st_ended s) /\ (forall k, In k (st_ended s) <-> needed p k).
Proof. intros R p first s. apply final_keys. Qed.

(** At no time is an instance that was compiled, or is being compiled, started
    again. *)
Theorem C38_never_twice :
  forall R (p : program R) first s, run p first s -> st_panic s = false ->
  NoDup (map fst (st_queue s) ++ map jb_key (st_jobs s) ++ st_ended s).
Proof.
  intros R p first s Rn Pn. destruct (inv_run p first s Rn Pn) as (log & I).
  assert (E : map fst (st_queue s) ++ map jb_key (st_jobs s) ++ st_ended s
              = map fst (st_queue s ++ map named (st_jobs s) ++ map fst log)).
  { rewrite !map_app, !map_map, (i_ended _ _ _ _ I). reflexivity. }
  rewrite E. eapply Permutation_NoDup; [apply Permutation_map, (i_perm _ _ _ _ I)|apply (i_nodup _ _ _ _ I)].
Qed.

(** The work loop does not stop early: once it has stopped nothing is queued, and
    every instance that is needed has been compiled, but for handing in its
    result. *)
Theorem C38_no_early_stop :
  forall R (p : program R) first s, run p first s -> st_panic s = false -> st_main s = Stopped ->
  st_queue s = []
  /\ (forall k, needed p k -> In k (st_ended s) \/ exists j got, In j (st_jobs s) /\ jb_key j = k /\ jb_phase j = Leaving got).
Proof.
  intros R p first s Rn Pn Ms. destruct (inv_run p first s Rn Pn) as (log & I).
  destruct (i_main _ _ _ _ I Ms) as [Q Ac]. split; [exact Q|]. intros k Nd.
  pose proof (needed_known p first s log I Q Ac k Nd) as Ik.
  apply (Permutation_in _ (Permutation_map fst (i_perm _ _ _ _ I))) in Ik. rewrite Q in Ik. cbn in Ik.
  rewrite map_app, in_app_iff in Ik. destruct Ik as [Ik|Ik].
  - right. rewrite map_map in Ik. apply in_map_iff in Ik. destruct Ik as (j & Ej & Ij).
    assert (Z : active j = 0).
    { clear - Ac Ij. induction (st_jobs s) as [|x l IH]; [destruct Ij|]. rewrite count_cons in Ac.
      destruct Ij as [->|Ij]; [lia|]. apply IH; [lia|assumption]. }
    unfold active in Z. destruct (jb_phase j) eqn:Ph; try discriminate. eauto.
  - left. now rewrite (i_ended _ _ _ _ I), <- (map_map fst fst).
Qed.

(** No two instances get the same name. *)
Theorem C38_distinct_names :
  forall R (p : program R) first s, run p first s -> st_panic s = false ->
  (forall n, In n (pr_roots p) -> n < first) ->
  forall k k' n, In (k, n) (st_names s) -> In (k', n) (st_names s) -> k = k'.
Proof.
  intros R p first s Rn Pn Lt k k' n I1 I2. destruct (inv_run p first s Rn Pn) as (log & I).
  destruct (i_fresh _ _ _ _ I Lt) as [N _]. revert N I1 I2. generalize (st_names s). intros l.
  induction l as [|[a m] l IH]; cbn; intros N I1 I2; [destruct I1|]. inversion N as [|? ? Nm N']; subst.
  destruct I1 as [E1|I1], I2 as [E2|I2].
  - congruence.
  - injection E1 as -> ->. destruct Nm. exact (in_map snd _ _ I2).
  - injection E2 as -> ->. destruct Nm. exact (in_map snd _ _ I1).
  - auto.
Qed.

Section Results.
Context {R : Type}.
Variable p : program R.
Variable name : mkey -> nat.
Variable got : mkey -> list nat.
Definition group (k : mkey) : list (mkey * R) := map (fun f => (k, f (name k) (got k))) (pr_out p k).

Lemma group_key k x : In x (group k) -> fst x = k.
Proof. intros I. apply in_map_iff in I. destruct I as (f & <- & _). reflexivity. Qed.
Lemma filter_group k k' : filter (fun x => key_eqb (fst x) k) (group k') = if key_eqb k' k then group k' else [].
Proof.
  assert (G : forall x, In x (group k') -> fst x = k') by apply group_key. induction (group k') as [|x l IH]; cbn.
  - destruct (key_eqb k' k); reflexivity.
  - rewrite (G x (or_introl eq_refl)). rewrite IH by (intros; apply G; now right). destruct (key_eqb k' k); reflexivity.
Qed.
Lemma at_groups k ks : NoDup ks ->
  at_key k (flat_map group ks) = if existsb (fun k' => key_eqb k' k) ks then group k else [].
Proof.
  unfold at_key. induction 1 as [|x ks Nx N IH]; cbn; [reflexivity|]. rewrite filter_app, filter_group, IH.
  destruct (key_eqb x k) eqn:E; cbn; [|reflexivity]. apply key_eqb_eq in E. subst x.
  destruct (existsb _ ks) eqn:Ex; [|apply app_nil_r]. apply existsb_exists in Ex. destruct Ex as (y & Iy & Ey).
  apply key_eqb_eq in Ey. subst y. contradiction.
Qed.
Lemma groups_sorted ks : StronglySorted key_lt ks -> StronglySorted le (flat_map group ks).
Proof.
  induction 1 as [|k ks S IH F]; cbn; [constructor|].
  assert (G : forall x, In x (group k) -> fst x = k) by apply group_key.
  induction (group k) as [|x l IHl]; cbn; [assumption|]. constructor; [apply IHl; intros; apply G; now right|].
  apply Forall_forall. intros y Iy. apply in_app_or in Iy. destruct Iy as [Iy|Iy].
  - right. rewrite (G x (or_introl eq_refl)), (G y (or_intror Iy)). reflexivity.
  - apply in_flat_map in Iy. destruct Iy as (k' & Ik & Iy). apply group_key in Iy.
    rewrite Forall_forall in F. left. rewrite (G x (or_introl eq_refl)), Iy. auto.
Qed.
Lemma sort_groups ks : NoDup ks -> sort_by_key (flat_map group ks) = flat_map group (sort_keys ks).
Proof.
  intros N. apply sorted_unique; [apply sort_sorted|apply groups_sorted, sort_keys_sorted, N|].
  intros k. rewrite sort_at, !at_groups.
  - assert (E : existsb (fun k' => key_eqb k' k) ks = existsb (fun k' => key_eqb k' k) (sort_keys ks)).
    { apply eq_true_iff_eq. rewrite !existsb_exists. pose proof (sort_keys_perm ks) as P.
      split; intros (x & Ix & Ex); exists x; (split; [|exact Ex]);
        [exact (Permutation_in _ (Permutation_sym P) Ix)|exact (Permutation_in _ P Ix)]. }
    now rewrite E.
  - eapply Permutation_NoDup; [symmetry; apply sort_keys_perm|exact N].
  - exact N.
Qed.
Lemma snd_groups ks : map snd (flat_map group ks) = outputs p name got ks.
Proof.
  unfold outputs. induction ks as [|k ks IH]; cbn; [reflexivity|]. rewrite map_app, IH. f_equal.
  unfold group. rewrite map_map. reflexivity.
Qed.
End Results.

Fixpoint find_got (log : list entry) (k : mkey) : list nat :=
  match log with [] => [] | (k', _, g) :: log => if key_eqb k' k then g else find_got log k end.
Lemma find_got_in log k n g : NoDup (map (fun e => fst (fst e)) log) -> In (k, n, g) log -> find_got log k = g.
Proof.
  induction log as [|[[k' m] h] log IH]; cbn; intros N I; [destruct I|]. inversion N as [|? ? Nk N']; subst.
  destruct I as [E|I].
  - injection E as -> -> ->. now rewrite key_eqb_refl.
  - destruct (key_eqb k' k) eqn:E; [|auto]. apply key_eqb_eq in E. subst. destruct Nk.
    exact (in_map (fun e => fst (fst e)) _ _ I).
Qed.

(** What is compiled from the start keeps its number. *)
Lemma root_names {R} : forall l (s : state R), (forall m k, In ((m, KNil), k) (st_names s) -> m = k) -> (forall m k, In ((m, KNil), k) (st_names (fold_left request_root l s)) -> m = k).
Proof.
  induction l as [|n l IH]; intros s H m k I; [eauto|]. cbn in I. apply (IH (request_root s n)); auto. intros m' k' J. unfold request_root in J. destruct (find_name _ _); [eauto|]. cbn in J.
  apply in_app_or in J as [J|[J|[]]]; [eauto|]. inversion J. reflexivity.
Qed.
Lemma names_kept {R} (p : program R) s s' : step p s s' -> forall e, In e (st_names s) -> In e (st_names s').
Proof. intros S1 e I. destruct S1; cbn; auto. apply in_or_app. auto. Qed.
Lemma root_own {R} (p : program R) first s : run p first s -> st_panic s = false -> forall n, In n (pr_roots p) -> In ((n, KNil), n) (st_names s).
Proof.
  intros Rn _ n I. induction Rn as [|s s' Rn IH S1]; [|eapply names_kept; eauto].
  assert (J : In (n, KNil) (map fst (st_names (initial p first)))).
  { destruct (inv_run p first (initial p first) (RunInitial p first)) as (log & V); [|apply (i_roots _ _ _ _ V); exact I].
    unfold initial. generalize (pr_roots p). intros l. assert (Q : forall s : state R, st_panic s = false -> st_panic (fold_left request_root l s) = false).
    { induction l as [|m l IHl]; intros s Q; [exact Q|]. cbn. apply IHl. unfold request_root. destruct (find_name _ _); exact Q. } apply Q. reflexivity. }
  apply in_map_iff in J as ([k m] & E & J). cbn in E. subst k. pose proof J as J'. unfold initial in J'. apply root_names in J'; [|intros ? ? []]. subst m. exact J.
Qed.

(** All others get a number that was free. *)
Lemma initial_names {R} : forall l (s : state R) e, In e (st_names (fold_left request_root l s)) -> In e (st_names s) \/ exists m, In m l /\ e = ((m, KNil), m).
Proof.
  induction l as [|n l IH]; intros s e I; [auto|]. cbn in I. apply IH in I as [I|(m & J & ->)]; [|right; exists m; cbn; auto].
  unfold request_root in I. destruct (find_name _ _); [auto|]. cbn in I. apply in_app_or in I as [I|[<-|[]]]; [auto|]. right. exists n. cbn. auto.
Qed.
Lemma initial_next {R} : forall l (s : state R), st_next (fold_left request_root l s) = st_next s.
Proof. induction l as [|n l IH]; intros s; [reflexivity|]. cbn. rewrite IH. unfold request_root. destruct (find_name _ _); reflexivity. Qed.
Lemma fresh_names {R} (p : program R) first s : run p first s -> first <= st_next s /\ forall k n, In (k, n) (st_names s) -> (exists m, In m (pr_roots p) /\ k = (m, KNil)) \/ first <= n.
Proof.
  induction 1 as [|s s' Rn [N H] S1].
  - split; [unfold initial; rewrite initial_next; cbn; lia|]. intros k n I. apply initial_names in I as [[]|(m & J & E)]. inversion E; subst. left. eauto.
  - destruct S1; cbn [st_next st_names] in *; split; try lia; auto. intros k' n' I. apply in_app_or in I as [I|[I|[]]]; [auto|]. inversion I; subst. auto.
Qed.

Lemma results_named :
  forall R (p : program R) first s, run p first s -> finished s -> (forall n, In n (pr_roots p) -> n < first) ->
  exists ks name got,
    StronglySorted key_lt ks /\ (forall k, In k ks <-> needed p k)
    /\ results s = outputs p name got ks
    /\ (forall k k', needed p k -> needed p k' -> name k = name k' -> k = k')
    /\ (forall k, needed p k -> received name (pr_body p k) (got k))
    /\ (forall n, In n (pr_roots p) -> name (n, KNil) = n)
    /\ (forall k, needed p k -> (exists m, In m (pr_roots p) /\ k = (m, KNil)) \/ first <= name k).
Proof.
  intros R p first s Rn Fi Lt. pose proof Fi as (Ms & Js & Pn). destruct (inv_run p first s Rn Pn) as (log & I).
  destruct (final_perm p first s log I Fi) as [B N]. destruct (final_keys p first s Rn Fi) as [_ K].
  set (name := fun k => match find_name (st_names s) k with Some n => n | None => 0 end).
  set (got := find_got log). rewrite (i_ended _ _ _ _ I) in N.
  assert (Nm : forall k n, In (k, n) (st_names s) -> name k = n).
  { intros k n H. unfold name. now rewrite (find_name_in _ _ _ (i_nodup _ _ _ _ I) H). }
  assert (Lg : forall e, In e log -> name (fst (fst e)) = snd (fst e) /\ got (fst (fst e)) = snd e).
  { intros [[k n] g] Ie. cbn. split.
    - apply Nm. apply (Permutation_in _ (Permutation_sym B)). exact (in_map fst _ _ Ie).
    - exact (find_got_in log k n g N Ie). }
  exists (sort_keys (st_ended s)), name, got. split; [apply sort_keys_sorted; now rewrite (i_ended _ _ _ _ I)|].
  split; [|split; [|split; [|split; [|split]]]].
  - intros k. rewrite <- K. pose proof (sort_keys_perm (st_ended s)) as P.
    split; apply Permutation_in; [exact P|now symmetry].
  - unfold results. rewrite (i_result _ _ _ _ I).
    assert (E : flat_map (entry_out p) log = flat_map (group p name got) (st_ended s)).
    { rewrite (i_ended _ _ _ _ I). clear - Lg. revert Lg. generalize name got. clear. intros name got.
      induction log as [|e log IH]; cbn; intros Lg; [reflexivity|].
      rewrite IH by (intros; apply Lg; now right). f_equal. unfold entry_out, group.
      destruct (Lg e (or_introl eq_refl)) as [-> ->]. reflexivity. }
    rewrite E, sort_groups by now rewrite (i_ended _ _ _ _ I). apply snd_groups.
  - intros k k' Nk Nk' E.
    assert (Ex : forall k, needed p k -> exists n, In (k, n) (st_names s)).
    { clear - K I B. intros k Nk. apply K in Nk. rewrite (i_ended _ _ _ _ I) in Nk. apply in_map_iff in Nk.
      destruct Nk as ([[k' n] g] & Ek & Ie). cbn in Ek. subst. exists n.
      apply (Permutation_in _ (Permutation_sym B)). exact (in_map fst _ _ Ie). }
    destruct (Ex k Nk) as (n & In1). destruct (Ex k' Nk') as (n' & In2).
    pose proof (Nm _ _ In1) as E1. pose proof (Nm _ _ In2) as E2. rewrite <- E in E2. rewrite E1 in E2. rewrite <- E2 in In2.
    exact (C38_distinct_names R p first s Rn Pn Lt k k' n In1 In2).
  - intros k Nk. apply K in Nk. rewrite (i_ended _ _ _ _ I) in Nk. apply in_map_iff in Nk.
    destruct Nk as (e & Ek & Ie). pose proof (i_log _ _ _ _ I) as L. rewrite Forall_forall in L. specialize (L e Ie).
    unfold ended_ok in L. destruct (Lg e Ie) as [_ Eg]. rewrite Ek in L, Eg. rewrite Eg. clear - L Nm.
    induction L as [|n t g _ IH|k0 n t g Ik _ IH]; [constructor|now constructor|]. rewrite <- (Nm _ _ Ik). now constructor.
  - intros n H. apply Nm. apply (root_own p first s Rn Pn n H).
  - intros k Nk. apply K in Nk. rewrite (i_ended _ _ _ _ I) in Nk. apply in_map_iff in Nk. destruct Nk as ([[k' n] g] & Ek & Ie). cbn in Ek. subst k'.
    assert (J : In (k, n) (st_names s)) by (apply (Permutation_in _ (Permutation_sym B)); exact (in_map fst _ _ Ie)). rewrite (Nm _ _ J).
    destruct (fresh_names p first s Rn) as [_ F]. exact (F k n J).
Qed.

(** The results are those of the needed instances, in the order of their keys,
    for some naming of the instances. *)
Theorem C38_results :
  forall R (p : program R) first s, run p first s -> finished s -> (forall n, In n (pr_roots p) -> n < first) ->
  exists ks name got,
    StronglySorted key_lt ks /\ (forall k, In k ks <-> needed p k)
    /\ results s = outputs p name got ks
    /\ (forall k k', needed p k -> needed p k' -> name k = name k' -> k = k')
    /\ (forall k, needed p k -> received name (pr_body p k) (got k)).
Proof.
  intros R p first s Rn Fi Lt. destruct (results_named R p first s Rn Fi Lt) as (ks & name & got & A & B & C & D & E & _). exists ks, name, got. repeat (split; [assumption|]). assumption.
Qed.

(** Any two runs give the same instances in the same order: their results differ
    only in the names chosen. *)
Theorem C38_same_order :
  forall R (p : program R) first s s', run p first s -> finished s -> run p first s' -> finished s' ->
  (forall n, In n (pr_roots p) -> n < first) ->
  exists ks name got name' got',
    results s = outputs p name got ks /\ results s' = outputs p name' got' ks
    /\ map fst (sort_by_key (st_result s)) = map fst (sort_by_key (st_result s')).
Proof.
  intros R p first s s' R1 F1 R2 F2 Lt.
  destruct (C38_results R p first s R1 F1 Lt) as (ks & name & got & S1 & K1 & E1 & _).
  destruct (C38_results R p first s' R2 F2 Lt) as (ks' & name' & got' & S2 & K2 & E2 & _).
  assert (X : ks = ks').
  { apply sorted_keys_unique; [assumption|assumption|]. intros k. now rewrite K1, K2. }
  subst ks'. exists ks, name, got, name', got'. split; [exact E1|]. split; [exact E2|].
  assert (Y : forall s, run p first s -> finished s ->
    map fst (sort_by_key (st_result s)) = flat_map (fun k => map (fun _ => k) (pr_out p k)) (sort_keys (st_ended s))).
  { clear. intros s Rn Fi. pose proof Fi as (Ms & Js & Pn). destruct (inv_run p first s Rn Pn) as (log & I).
    destruct (final_perm p first s log I Fi) as [B N]. pose proof N as N0. rewrite (i_ended _ _ _ _ I) in N.
    set (got := find_got log).
    set (name := fun k => match find_name (map fst log) k with Some n => n | None => 0 end).
    assert (Nf : NoDup (map fst (map fst log))) by (rewrite map_map; exact N).
    rewrite (i_result _ _ _ _ I).
    assert (E : flat_map (entry_out p) log = flat_map (group p name got) (st_ended s)).
    { rewrite (i_ended _ _ _ _ I).
      assert (Lg : forall e, In e log -> name (fst (fst e)) = snd (fst e) /\ got (fst (fst e)) = snd e).
      { intros [[k n] g] Ie. cbn. split.
        - unfold name. now rewrite (find_name_in _ _ n Nf (in_map fst _ _ Ie)).
        - exact (find_got_in log k n g N Ie). }
      clear - Lg. revert Lg. generalize name got. clear. intros name got. induction log as [|e log IH]; cbn; intros Lg; [reflexivity|].
      rewrite IH by (intros; apply Lg; now right). f_equal. unfold entry_out, group.
      destruct (Lg e (or_introl eq_refl)) as [-> ->]. reflexivity. }
    rewrite E, sort_groups by assumption. clear. induction (sort_keys (st_ended s)) as [|k ks IH]; cbn; [reflexivity|].
    rewrite map_app, IH. f_equal. unfold group. rewrite map_map. reflexivity. }
  rewrite (Y s R1 F1), (Y s' R2 F2). f_equal.
  destruct (final_keys p first s R1 F1) as [N1 L1]. destruct (final_keys p first s' R2 F2) as [N2 L2].
  apply sorted_keys_unique; [now apply sort_keys_sorted|now apply sort_keys_sorted|].
  intros k. assert (Q : forall l, In k (sort_keys l) <-> In k l).
  { intros l. pose proof (sort_keys_perm l). split; apply Permutation_in; [assumption|now symmetry]. }
  rewrite !Q, L1, L2. reflexivity.
Qed.

(** If the results do not mention the numbers that were handed out, they are the
    same. *)
Theorem C38_deterministic :
  forall R (p : program R) first s s', run p first s -> finished s -> run p first s' -> finished s' ->
  (forall n, In n (pr_roots p) -> n < first) ->
  (forall k f n n' g g', needed p k -> In f (pr_out p k) -> f n g = f n' g') ->
  results s = results s'.
Proof.
  intros R p first s s' R1 F1 R2 F2 Lt C.
  destruct (C38_results R p first s R1 F1 Lt) as (ks & name & got & S1 & K1 & E1 & _).
  destruct (C38_results R p first s' R2 F2 Lt) as (ks' & name' & got' & S2 & K2 & E2 & _).
  assert (X : ks = ks').
  { apply sorted_keys_unique; [assumption|assumption|]. intros k. now rewrite K1, K2. }
  subst ks'. rewrite E1, E2. unfold outputs. f_equal. apply map_ext_in. intros k Ik. apply map_ext_in. intros f If.
  apply (C k); [now apply K1|exact If].
Qed.

(** Work left: for instances not asked for yet, queued, and in progress. *)
Section Progress.
Context {R : Type}.
Variable p : program R.
Definition cost (k : mkey) : nat := 2 * List.length (pr_body p k) + 3.
Definition job_cost (j : job) : nat :=
  match jb_phase j with
  | Running t _ => 2 * List.length t + 2
  | Adding t _ => 2 * List.length t + 3
  | Leaving _ => 1
  end.
Definition known (names : list (mkey * nat)) (k : mkey) : bool := match find_name names k with Some _ => true | None => false end.
Definition unasked (all : list mkey) (names : list (mkey * nat)) : nat :=
  list_sum (map (fun k => if known names k then 0 else cost k) all).
Definition work (all : list mkey) (s : state R) : nat :=
  unasked all (st_names s) + list_sum (map (fun e => cost (fst e)) (st_queue s)) + count job_cost (st_jobs s).

Lemma find_name_app l k n k' : find_name (l ++ [(k, n)]) k' =
  match find_name l k' with Some m => Some m | None => if key_eqb k k' then Some n else None end.
Proof. induction l as [|[a m] l IH]; cbn; [reflexivity|]. destruct (key_eqb a k'); auto. Qed.

Lemma unasked_cons a all names : unasked (a :: all) names = (if known names a then 0 else cost a) + unasked all names.
Proof. reflexivity. Qed.
Lemma unasked_same all names k n : unasked all (names ++ [(k, n)]) <= unasked all names.
Proof.
  induction all as [|a all IH]; [reflexivity|]. rewrite !unasked_cons.
  assert (known (names ++ [(k, n)]) a = true \/ known (names ++ [(k, n)]) a = known names a).
  { unfold known. rewrite find_name_app. destruct (find_name names a); auto. destruct (key_eqb k a); auto. }
  destruct H as [->| ->]; [|destruct (known names a)]; lia.
Qed.
Lemma unasked_new all names k n : In k all -> find_name names k = None ->
  unasked all (names ++ [(k, n)]) + cost k <= unasked all names.
Proof.
  intros I F. induction all as [|a all IH]; [destruct I|]. rewrite !unasked_cons.
  destruct I as [->|I].
  - assert (K1 : known (names ++ [(k, n)]) k = true) by (unfold known; now rewrite find_name_app, F, key_eqb_refl).
    assert (K2 : known names k = false) by (unfold known; now rewrite F). rewrite K1, K2. pose proof (unasked_same all names k n) as U. lia.
  - specialize (IH I).
    assert (known (names ++ [(k, n)]) a = true \/ known (names ++ [(k, n)]) a = known names a).
    { unfold known. rewrite find_name_app. destruct (find_name names a); auto. destruct (key_eqb k a); auto. }
    destruct H as [->| ->]; [|destruct (known names a)]; lia.
Qed.

Lemma job_cost_at k n ph : job_cost {| jb_key := k; jb_name := n; jb_phase := ph |} =
  match ph with Running t _ => 2 * List.length t + 2 | Adding t _ => 2 * List.length t + 3 | Leaving _ => 1 end.
Proof. reflexivity. Qed.

Lemma work_step all first s s' log : (forall k, needed p k -> In k all) -> inv p first s log -> step p s s' ->
  if match st_main s, st_main s' with Popping, Popping | Idle, Idle | Stopped, Stopped => true | _, _ => false end
  then work all s' < work all s else work all s' = work all s.
Proof.
  intros All I St. unfold work. destruct St; cbn [st_names st_queue st_jobs st_main].
  - rewrite H, H1. rewrite count_app, count_one, job_cost_at. cbn [map list_sum fold_right fst].
    change (fold_right Nat.add 0 (map (fun e => cost (fst e)) q)) with (list_sum (map (fun e => cost (fst e)) q)). pose proof (eq_refl (cost k)) as Ck. unfold cost at 2 in Ck. lia.
  - rewrite H, H1. reflexivity.
  - rewrite H. reflexivity.
  - rewrite H. reflexivity.
  - rewrite with_job_count, job_cost_at, H, split_count. assert (E : job_cost j = 2 * S (List.length todo) + 2)
      by (unfold job_cost; rewrite H0; reflexivity). rewrite E. destruct (st_main s); lia.
  - rewrite with_job_count, job_cost_at, H, split_count. assert (E : job_cost j = 2 * S (List.length todo) + 2)
      by (unfold job_cost; rewrite H0; reflexivity). rewrite E. destruct (st_main s); lia.
  - rewrite with_job_count, job_cost_at, H, split_count. assert (E : job_cost j = 2 * S (List.length todo) + 2)
      by (unfold job_cost; rewrite H0; reflexivity). rewrite E.
    rewrite map_app, list_sum_app. cbn [map list_sum fold_right fst].
    assert (Ik : In k all).
    { apply All. pose proof (i_jobs _ _ _ _ I) as K. rewrite H in K. destruct (job_of _ _ _ _ _ K) as (past & t & g & Eb & _ & X).
      rewrite H0 in X. destruct X as [<- _]. apply NeededBy with (k := jb_key j).
      - apply (i_needed _ _ _ _ I). apply (Permutation_in _ (Permutation_sym (Permutation_map fst (i_perm _ _ _ _ I)))).
        rewrite H, !map_app, !in_app_iff. right. left. right. left. reflexivity.
      - rewrite Eb. apply in_or_app. right. now left. }
    pose proof (unasked_new all (st_names s) k (st_next s) Ik H2). destruct (st_main s); lia.
  - rewrite with_job_count, job_cost_at, H, split_count. assert (E : job_cost j = 2 * List.length todo + 3)
      by (unfold job_cost; rewrite H0; reflexivity). rewrite E. destruct (st_main s); lia.
  - rewrite with_job_count, job_cost_at, H, split_count. assert (E : job_cost j = 2)
      by (unfold job_cost; rewrite H0; reflexivity). rewrite E. destruct (st_main s); lia.
  - rewrite count_app, H, split_count. assert (E : job_cost j = 1) by (unfold job_cost; rewrite H0; reflexivity).
    rewrite E. destruct (st_main s); lia.
  - rewrite count_app, H, split_count. assert (E : 1 <= job_cost j) by (unfold job_cost; destruct (jb_phase j); lia).
    destruct (st_main s); lia.
Qed.

Lemma steps_run first n s s' : run p first s -> steps p n s s' -> run p first s'.
Proof. intros Rn St. induction St as [s|n s s1 s2 St IH S1 E|n s s1 s2 St IH S1 E]; [assumption| |]; (eapply RunStep; [exact (IH Rn)|exact S1]). Qed.
Lemma steps_panic n s s' : steps p n s s' -> st_panic s' = false -> st_panic s = false.
Proof. induction 1 as [s|n s s1 s2 St IH S1 E|n s s1 s2 St IH S1 E]; intros P; [assumption| |]; exact (IH (panic_stays _ _ _ S1 P)). Qed.
End Progress.

(** If finitely many instances are needed, the number of steps in which something
    is done is bounded, whatever the interleaving: it cannot go on for ever. *)
Theorem C38_bounded :
  forall R (p : program R) all first s, run p first s -> (forall k, needed p k -> In k all) ->
  exists bound, forall n s', steps p n s s' -> st_panic s' = false -> n <= bound.
Proof.
  intros R p all first s Rn All. exists (work p all s). intros n s' St Pn.
  assert (H : n + work p all s' <= work p all s); [|lia]. revert Pn.
  induction St as [s|n s s1 s2 St IH S1 E|n s s1 s2 St IH S1 E]; intros Pn; [lia| |].
  - specialize (IH Rn (panic_stays _ _ _ S1 Pn)).
    destruct (inv_run p first s1 (steps_run _ _ _ _ _ Rn St) (panic_stays _ _ _ S1 Pn)) as (log & I).
    pose proof (work_step p all first s1 s2 log All I S1) as W. rewrite E in W. destruct (st_main s2); lia.
  - specialize (IH Rn (panic_stays _ _ _ S1 Pn)).
    destruct (inv_run p first s1 (steps_run _ _ _ _ _ Rn St) (panic_stays _ _ _ S1 Pn)) as (log & I).
    pose proof (work_step p all first s1 s2 log All I S1) as W. destruct (st_main s1), (st_main s2); lia || congruence.
Qed.

Lemma steps_app R (p : program R) n m a b c : steps p n a b -> steps p m b c -> exists k, steps p k a c.
Proof.
  intros H K. revert H. induction K as [s|m b c d K IH S1 E|m b c d K IH S1 E]; intros H; [eauto| |];
    destruct (IH H) as (k & Hk); eexists; [eapply StepsWork|eapply StepsIdle]; eauto.
Qed.
Lemma steps_one R (p : program R) a b : step p a b -> exists n, steps p n a b.
Proof.
  intros S. assert (D : {st_main a = st_main b} + {st_main a <> st_main b}) by decide equality.
  destruct D; eexists; [eapply StepsWork|eapply StepsIdle]; eauto; constructor.
Qed.

(** It never gets stuck: from wherever it is, it can end. *)
Theorem C38_can_finish :
  forall R (p : program R) all first s, run p first s -> st_panic s = false -> (forall k, needed p k -> In k all) ->
  exists n s', steps p n s s' /\ finished s'.
Proof.
  intros R p all first s Rn Pn All. remember (work p all s) as w eqn:Ew. revert s Rn Pn Ew.
  induction w as [w IH] using lt_wf_ind. intros s Rn Pn ->.
  destruct (inv_run p first s Rn Pn) as (log & I).
  (* one step of work is enough *)
  assert (Go : forall s', step p s s' -> st_main s = st_main s' -> st_panic s' = false -> exists n s'', steps p n s s'' /\ finished s'').
  { intros s' S1 E P'. pose proof (work_step p all first s s' log All I S1) as W. rewrite E in W.
    destruct (IH (work p all s')) with (s := s') as (n & s'' & St & Fi); auto.
    { destruct (st_main s'); exact W. } { eapply RunStep; eauto. }
    destruct (steps_one _ _ _ _ S1) as (m & S2). destruct (steps_app _ _ _ _ _ _ _ S2 St) as (k & S3). eauto. }
  destruct (st_jobs s) as [|j r] eqn:Js.
  - assert (Lk : st_locked s = false).
    { pose proof (i_lock _ _ _ _ I) as F. rewrite Js in F. cbn in F. destruct (st_locked s); [discriminate|reflexivity]. }
    destruct (st_queue s) as [|[k n] q] eqn:Qs.
    + assert (Z : st_remaining s = 0).
      { pose proof (i_count _ _ _ _ I) as E. rewrite Js, Qs in E. cbn in E. lia. }
      assert (Stop : forall s, st_main s = Idle -> st_jobs s = [] -> st_remaining s = 0 -> st_panic s = false ->
                exists n s', steps p n s s' /\ finished s').
      { clear. intros s M Js Z Pn. destruct (steps_one _ _ _ _ (StepStop p s M (or_introl Z))) as (n & S1).
        exists n. eexists. split; [exact S1|]. unfold finished. cbn. auto. }
      destruct (st_main s) eqn:Ms.
      * pose proof (StepEmpty p s Ms Lk Qs) as S1. destruct (steps_one _ _ _ _ S1) as (n & S2).
        match type of S1 with step _ _ ?x => destruct (Stop x eq_refl Js Z Pn) as (m & s'' & S3 & Fi) end. destruct (steps_app _ _ _ _ _ _ _ S2 S3) as (k & S4). eauto.
      * now apply Stop.
      * exists 0, s. split; [constructor|]. unfold finished. auto.
    + destruct (st_main s) eqn:Ms.
      * eapply Go; [eapply StepPop; eauto| |]; cbn; auto.
      * pose proof (StepAgain p s Ms) as S1. pose proof (work_step p all first s _ log All I S1) as W.
        cbn [st_main] in W. rewrite Ms in W.
        match type of S1 with step _ _ ?x => set (s1 := x) in * end.
        assert (S2 : step p s1 _) by (eapply StepPop; [reflexivity|exact Lk|exact Qs]).
        match type of S2 with step _ _ ?x => set (s2 := x) in * end.
        assert (R1 : run p first s1) by (eapply RunStep; eauto).
        destruct (inv_run p first s1 R1 Pn) as (log1 & I1).
        pose proof (work_step p all first s1 s2 log1 All I1 S2) as W2.
        change (work p all s2 < work p all s1) in W2. change (work p all s1 = work p all s) in W.
        destruct (IH (work p all s2)) with (s := s2) as (n' & s'' & St & Fi); auto; [eapply RunStep; eauto|].
        destruct (steps_one _ _ _ _ S1) as (a & A1). destruct (steps_one _ _ _ _ S2) as (b & B1).
        destruct (steps_app _ _ _ _ _ _ _ A1 B1) as (c & C1). destruct (steps_app _ _ _ _ _ _ _ C1 St) as (d & D1). eauto.
      * destruct (i_main _ _ _ _ I Ms) as [Q _]. congruence.
  - destruct (st_locked s) eqn:Lk.
    + pose proof (i_lock _ _ _ _ I) as F. rewrite Lk in F.
      assert (Ex : exists l x t, st_jobs s = l ++ x :: t /\ adding x = 1).
      { clear - F. induction (st_jobs s) as [|x l IH]; [discriminate|]. rewrite count_cons in F.
        destruct (adding x) as [|[|]] eqn:A.
        - destruct IH as (l1 & y & t & -> & E); [lia|]. exists (x :: l1), y, t. auto.
        - exists [], x, l. auto.
        - unfold adding in A. destruct (jb_phase x); discriminate. }
      destruct Ex as (l & x & t & E & A). unfold adding in A. destruct (jb_phase x) as [|todo got|] eqn:Ph; try discriminate.
      eapply Go; [eapply StepAdd; eauto| |]; cbn; auto.
    + assert (E : st_jobs s = [] ++ j :: r) by exact Js.
      destruct (jb_phase j) as [[|[k|] todo] got|todo got|got] eqn:Ph.
      * eapply Go; [eapply StepLeave; eauto| |]; cbn; auto.
      * destruct (find_name (st_names s) k) eqn:Fn; (eapply Go; [first [eapply StepKnown; now eauto|eapply StepNew; now eauto]| |]; cbn; auto).
      * eapply Go; [eapply StepFresh; eauto| |]; cbn; auto.
      * eapply Go; [eapply StepAdd; eauto| |]; cbn; auto.
      * eapply Go; [eapply StepPush; eauto| |]; cbn; auto.
Qed.

(** One root asks for two instances of unit 1, `1<bool>` and `1<tuple>`; each of
    these asks for `2<bool>`.  A result is the instance's name with the names it
    refers to, as in the text of the generated module. *)
Definition key1 : mkey := (1, KCons (Known (KBool true) KNil) KNil).
Definition key2 : mkey := (1, KCons (Known KTuple KNil) KNil).
Definition key3 : mkey := (2, KCons (Known (KBool true) KNil) KNil).
Definition key0 : mkey := (0, KNil).
Definition ex_program : program (nat * list nat) :=
  {| pr_roots := [0];
     pr_body k := if key_eqb k key0 then [Request key1; Fresh; Request key2]
                  else if key_eqb k key3 then [Fresh] else [Request key3];
     pr_out k := [fun n g => (n, g)] |}.

(** A schedule is a list of choices; [None]: the main loop moves, [Some i]: job
    [i] moves. *)
Section Schedule.
Context {R : Type}.
Variable p : program R.
Definition move_main (s : state R) : option (state R) :=
  match st_main s with
  | Popping =>
      if st_locked s then None else
      match st_queue s with
      | (k, n) :: q => Some {| st_queue := q; st_names := st_names s; st_next := st_next s; st_remaining := st_remaining s;
              st_locked := false;
              st_jobs := st_jobs s ++ [{| jb_key := k; jb_name := n; jb_phase := Running (pr_body p k) [] |}];
              st_result := st_result s; st_panic := st_panic s; st_main := Popping; st_ended := st_ended s |}
      | [] => Some {| st_queue := []; st_names := st_names s; st_next := st_next s; st_remaining := st_remaining s;
              st_locked := false; st_jobs := st_jobs s; st_result := st_result s; st_panic := st_panic s;
              st_main := Idle; st_ended := st_ended s |}
      end
  | Idle => Some {| st_queue := st_queue s; st_names := st_names s; st_next := st_next s; st_remaining := st_remaining s;
              st_locked := st_locked s; st_jobs := st_jobs s; st_result := st_result s; st_panic := st_panic s;
              st_main := if st_remaining s =? 0 then Stopped else Popping; st_ended := st_ended s |}
  | Stopped => None
  end.
Definition move_job (s : state R) (i : nat) : option (state R) :=
  match skipn i (st_jobs s) with
  | [] => None
  | j :: r =>
      let l := firstn i (st_jobs s) in
      match jb_phase j with
      | Running (Fresh :: todo) got =>
          Some {| st_queue := st_queue s; st_names := st_names s; st_next := S (st_next s); st_remaining := st_remaining s;
              st_locked := st_locked s; st_jobs := with_job s l j (Running todo (got ++ [st_next s])) r;
              st_result := st_result s; st_panic := st_panic s; st_main := st_main s; st_ended := st_ended s |}
      | Running (Request k :: todo) got =>
          if st_locked s then None else
          match find_name (st_names s) k with
          | Some n => Some {| st_queue := st_queue s; st_names := st_names s; st_next := st_next s; st_remaining := st_remaining s;
              st_locked := false; st_jobs := with_job s l j (Running todo (got ++ [n])) r;
              st_result := st_result s; st_panic := st_panic s; st_main := st_main s; st_ended := st_ended s |}
          | None => Some {| st_queue := st_queue s ++ [(k, st_next s)]; st_names := st_names s ++ [(k, st_next s)];
              st_next := S (st_next s); st_remaining := st_remaining s;
              st_locked := true; st_jobs := with_job s l j (Adding todo (got ++ [st_next s])) r;
              st_result := st_result s; st_panic := st_panic s; st_main := st_main s; st_ended := st_ended s |}
          end
      | Running [] got => Some {| st_queue := st_queue s; st_names := st_names s; st_next := st_next s;
              st_remaining := st_remaining s - 1;
              st_locked := st_locked s; st_jobs := with_job s l j (Leaving got) r;
              st_result := st_result s; st_panic := st_panic s; st_main := st_main s; st_ended := st_ended s |}
      | Adding todo got => Some {| st_queue := st_queue s; st_names := st_names s; st_next := st_next s; st_remaining := S (st_remaining s);
              st_locked := false; st_jobs := with_job s l j (Running todo got) r;
              st_result := st_result s; st_panic := st_panic s; st_main := st_main s; st_ended := st_ended s |}
      | Leaving got => Some {| st_queue := st_queue s; st_names := st_names s; st_next := st_next s; st_remaining := st_remaining s;
              st_locked := st_locked s; st_jobs := l ++ r;
              st_result := st_result s ++ map (fun f => (jb_key j, f (jb_name j) got)) (pr_out p (jb_key j));
              st_panic := st_panic s; st_main := st_main s; st_ended := st_ended s ++ [jb_key j] |}
      end
  end.
Definition move (s : state R) (c : option nat) : option (state R) :=
  match c with None => move_main s | Some i => move_job s i end.
Fixpoint moves (s : state R) (l : list (option nat)) : option (state R) :=
  match l with [] => Some s | c :: l => match move s c with Some s => moves s l | None => None end end.

Lemma move_step s c s' : move s c = Some s' -> step p s s'.
Proof.
  destruct c as [i|]; cbn.
  - unfold move_job. destruct (skipn i (st_jobs s)) as [|j r] eqn:Sk; [discriminate|].
    assert (E : st_jobs s = firstn i (st_jobs s) ++ j :: r) by (rewrite <- Sk; symmetry; apply firstn_skipn).
    destruct (jb_phase j) as [[|[k|] todo] got|todo got|got] eqn:Ph.
    + intros H. injection H as <-. eapply StepLeave; eauto.
    + destruct (st_locked s) eqn:Lk; [discriminate|]. destruct (find_name (st_names s) k) eqn:Fn; intros H; injection H as <-.
      * eapply StepKnown; eauto.
      * eapply StepNew; eauto.
    + intros H. injection H as <-. eapply StepFresh; eauto.
    + intros H. injection H as <-. eapply StepAdd; eauto.
    + intros H. injection H as <-. eapply StepPush; eauto.
  - unfold move_main. destruct (st_main s) eqn:Ms; [| |discriminate].
    + destruct (st_locked s) eqn:Lk; [discriminate|]. destruct (st_queue s) as [|[k n] q] eqn:Qs; intros H; injection H as <-.
      * now apply StepEmpty.
      * now apply StepPop.
    + intros H. injection H as <-. destruct (st_remaining s =? 0) eqn:Z.
      * apply StepStop; [exact Ms|]. left. now apply Nat.eqb_eq.
      * now apply StepAgain.
Qed.
Lemma moves_run first l : forall s s', run p first s -> moves s l = Some s' -> run p first s'.
Proof.
  induction l as [|c l IH]; cbn; intros s s' Rn H; [congruence|]. destruct (move s c) as [s1|] eqn:M; [|discriminate].
  eapply IH; [|exact H]. eapply RunStep; [exact Rn|]. eapply move_step. exact M.
Qed.
End Schedule.

(** The jobs one after the other; and with the first instance running ahead of the
    root. *)
Definition schedule1 : list (option nat) :=
  None :: repeat (Some 0) 7 ++ [None] ++ repeat (Some 0) 4 ++ [None] ++ repeat (Some 0) 3 ++ [None] ++ repeat (Some 0) 3 ++ [None; None].
Definition schedule2 : list (option nat) :=
  [None; Some 0; Some 0; None; Some 1; Some 1] ++ repeat (Some 0) 5 ++ [None; None] ++ repeat (Some 0) 8 ++ [None; None].
Definition run_of (l : list (option nat)) : option (state (nat * list nat)) := moves ex_program (initial ex_program 10) l.

Lemma run_of_run l s : run_of l = Some s -> run ex_program 10 s.
Proof. intros H. exact (moves_run ex_program 10 l _ _ (RunInitial _ _) H). Qed.

(** The numbers handed out, and with them the names of the generated modules,
    depend on the interleaving: two compilations of one program can give different
    text. *)
Theorem C38_text_refuted :
  exists (p : program (nat * list nat)) first s s', run p first s /\ finished s /\ run p first s' /\ finished s'
    /\ (forall n, In n (pr_roots p) -> n < first) /\ results s <> results s'.
Proof.
  exists ex_program, 10. eexists. eexists.
  split; [apply (run_of_run schedule1); vm_compute; reflexivity|]. split; [split; [reflexivity|split; reflexivity]|].
  split; [apply (run_of_run schedule2); vm_compute; reflexivity|]. split; [split; [reflexivity|split; reflexivity]|].
  split.
  - intros n [<-|[]]. apply Nat.ltb_lt. reflexivity.
  - vm_compute. discriminate.
Qed.

Example C38_nontrivial :
  (exists s, run ex_program 10 s /\ finished s /\ results s = [(0, [10; 11; 12]); (10, [13]); (12, [13]); (13, [14])])
  /\ (exists s, run ex_program 10 s /\ finished s /\ results s = [(0, [10; 12; 13]); (10, [11]); (13, [11]); (11, [14])])
  /\ needed ex_program key3
  /\ (forall n, In n (pr_roots ex_program) -> n < 10)
  /\ (forall k, needed ex_program k -> In k [key0; key1; key2; key3]).
Proof.
  split; [|split; [|split; [|split]]].
  - eexists. split; [apply (run_of_run schedule1); vm_compute; reflexivity|].
    split; [split; [reflexivity|split; reflexivity]|]. vm_compute. reflexivity.
  - eexists. split; [apply (run_of_run schedule2); vm_compute; reflexivity|].
    split; [split; [reflexivity|split; reflexivity]|]. vm_compute. reflexivity.
  - apply NeededBy with (k := key1); [|vm_compute; auto]. apply NeededBy with (k := key0); [|vm_compute; auto].
    apply NeededRoot. vm_compute. auto.
  - intros n [<-|[]]. lia.
  - intros k Nd. induction Nd as [n [<-|[]]|k k' _ IH I]; [now left|].
    destruct IH as [<-|[<-|[<-|[<-|[]]]]]; vm_compute in I; destruct I as [E|I]; try discriminate; try (inversion E; subst; cbn; auto; fail);
      repeat (destruct I as [E'|I]; try discriminate; try (inversion E'; subst; cbn; auto; fail)); destruct I.
Qed.

Print Assumptions C38_exactly_once.
Print Assumptions C38_never_twice.
Print Assumptions C38_no_early_stop.
Print Assumptions C38_distinct_names.
Print Assumptions C38_results.
Print Assumptions C38_same_order.
Print Assumptions C38_deterministic.
Print Assumptions C38_bounded.
Print Assumptions C38_can_finish.
Print Assumptions C38_text_refuted.
