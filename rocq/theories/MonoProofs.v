(** The invariant of monomorphisation. *)
From Coq Require Import List ZArith Bool Arith Lia Permutation Sorting.
From Verif Require Import MonoModel MonoSpec MonoOrder.
Import ListNotations.
Local Open Scope list_scope.

(** Numbers received, against a table that may still grow. *)
Inductive recv (names : list (mkey * nat)) : list action -> list nat -> Prop :=
| RvNil : recv names [] []
| RvFresh n todo got : recv names todo got -> recv names (Fresh :: todo) (n :: got)
| RvRequest k n todo got : In (k, n) names -> recv names todo got -> recv names (Request k :: todo) (n :: got).

Lemma recv_more names names' todo got : incl names names' -> recv names todo got -> recv names' todo got.
Proof. intros I. induction 1; constructor; auto. Qed.
Lemma recv_fresh names todo got n : recv names todo got -> recv names (todo ++ [Fresh]) (got ++ [n]).
Proof. induction 1; cbn; repeat constructor; auto. Qed.
Lemma recv_request names todo got k n : In (k, n) names -> recv names todo got ->
  recv names (todo ++ [Request k]) (got ++ [n]).
Proof. intros I. induction 1; cbn; constructor; auto. constructor. Qed.
Lemma recv_in names todo got k : recv names todo got -> In (Request k) todo -> In k (map fst names).
Proof.
  induction 1 as [|n todo got _ IH|k' n todo got I _ IH]; cbn; intros J; [destruct J|destruct J as [E|J]; [discriminate|auto]|].
  destruct J as [E|J]; [|auto]. injection E as <-. exact (in_map fst _ _ I).
Qed.

Lemma find_name_some l k n : find_name l k = Some n -> In (k, n) l.
Proof.
  induction l as [|[k' m] l IH]; cbn; [discriminate|]. destruct (key_eqb k' k) eqn:E; [|now right; auto].
  intros H. injection H as <-. apply key_eqb_eq in E. subst. now left.
Qed.
Lemma find_name_none l k : find_name l k = None -> ~ In k (map fst l).
Proof.
  induction l as [|[k' m] l IH]; cbn; [tauto|]. destruct (key_eqb k' k) eqn:E; [discriminate|].
  intros H [->|I]; [|exact (IH H I)]. rewrite key_eqb_refl in E. discriminate.
Qed.
Lemma find_name_in l k n : NoDup (map fst l) -> In (k, n) l -> find_name l k = Some n.
Proof.
  induction l as [|[k' m] l IH]; cbn; intros N I; [destruct I|]. inversion N as [|? ? Nk N']; subst.
  destruct I as [E|I].
  - injection E as -> ->. now rewrite key_eqb_refl.
  - destruct (key_eqb k' k) eqn:E; [|auto]. apply key_eqb_eq in E. subst. destruct Nk. exact (in_map fst _ _ I).
Qed.

Definition active (j : job) : nat := match jb_phase j with Leaving _ => 0 | _ => 1 end.
Definition adding (j : job) : nat := match jb_phase j with Adding _ _ => 1 | _ => 0 end.
Definition count (f : job -> nat) (l : list job) : nat := list_sum (map f l).
Definition named (j : job) : mkey * nat := (jb_key j, jb_name j).
Definition entry := (mkey * nat * list nat)%type.

Lemma count_app f l r : count f (l ++ r) = count f l + count f r.
Proof. unfold count. rewrite map_app, list_sum_app. reflexivity. Qed.
Lemma count_cons f x r : count f (x :: r) = f x + count f r.
Proof. reflexivity. Qed.
Lemma count_one f x : count f [x] = f x.
Proof. unfold count. cbn. lia. Qed.
Lemma adding_at k n ph : adding {| jb_key := k; jb_name := n; jb_phase := ph |} = match ph with Adding _ _ => 1 | _ => 0 end.
Proof. reflexivity. Qed.
Lemma active_at k n ph : active {| jb_key := k; jb_name := n; jb_phase := ph |} = match ph with Leaving _ => 0 | _ => 1 end.
Proof. reflexivity. Qed.
Lemma adding_active l : count adding l <= count active l.
Proof.
  induction l as [|j l IH]; [constructor|]. rewrite !count_cons. unfold adding at 1, active at 1. destruct (jb_phase j); lia.
Qed.

Section Inv.
Context {R : Type}.
Variable p : program R.
Variable first : nat.

(** Where a job is in its body. *)
Definition job_ok (names : list (mkey * nat)) (j : job) : Prop :=
  exists past todo got, pr_body p (jb_key j) = past ++ todo /\ recv names past got
    /\ match jb_phase j with
       | Running t g | Adding t g => t = todo /\ g = got
       | Leaving g => todo = [] /\ g = got
       end.
Definition ended_ok (names : list (mkey * nat)) (e : entry) : Prop :=
  recv names (pr_body p (fst (fst e))) (snd e).
Definition entry_out (e : entry) : list (mkey * R) :=
  map (fun f => (fst (fst e), f (snd (fst e)) (snd e))) (pr_out p (fst (fst e))).

Record inv (s : state R) (log : list entry) : Prop := {
  i_nodup : NoDup (map fst (st_names s));
  i_perm : Permutation (st_names s) (st_queue s ++ map named (st_jobs s) ++ map fst log);
  i_ended : st_ended s = map (fun e => fst (fst e)) log;
  i_result : st_result s = flat_map entry_out log;
  i_count : st_remaining s + count adding (st_jobs s) = List.length (st_queue s) + count active (st_jobs s);
  i_lock : count adding (st_jobs s) = if st_locked s then 1 else 0;
  i_queue : st_locked s = true -> st_queue s <> [];
  i_needed : forall k, In k (map fst (st_names s)) -> needed p k;
  i_roots : forall n, In n (pr_roots p) -> In (n, KNil) (map fst (st_names s));
  i_jobs : Forall (job_ok (st_names s)) (st_jobs s);
  i_log : Forall (ended_ok (st_names s)) log;
  i_main : st_main s = Stopped -> st_queue s = [] /\ count active (st_jobs s) = 0;
  i_fresh : (forall n, In n (pr_roots p) -> n < first) ->
            NoDup (map snd (st_names s)) /\ Forall (fun e => snd e < st_next s) (st_names s) }.

Lemma job_ok_more names names' j : incl names names' -> job_ok names j -> job_ok names' j.
Proof.
  intros I (past & todo & got & E & Rv & H). exists past, todo, got. split; [exact E|]. split; [|exact H].
  eapply recv_more; eauto.
Qed.
Lemma ended_ok_more names names' e : incl names names' -> ended_ok names e -> ended_ok names' e.
Proof. intros I. apply recv_more. exact I. Qed.

(** The start. *)
Definition start_ok (roots : list nat) (s : state R) : Prop :=
  NoDup (map fst (st_names s)) /\ st_queue s = st_names s /\ st_remaining s = List.length (st_queue s)
  /\ st_jobs s = [] /\ st_locked s = false /\ st_result s = [] /\ st_ended s = [] /\ st_panic s = false
  /\ st_main s = Popping /\ st_next s = first
  /\ (forall k n, In (k, n) (st_names s) -> k = (n, KNil))
  /\ (forall n, In (n, KNil) (map fst (st_names s)) <-> In n roots).

Lemma NoDup_snoc {A} (l : list A) x : NoDup l -> ~ In x l -> NoDup (l ++ [x]).
Proof. intros N H. apply Permutation_NoDup with (x :: l); [apply Permutation_cons_append|now constructor]. Qed.

Lemma start_step roots s n : start_ok roots s -> start_ok (roots ++ [n]) (request_root s n).
Proof.
  intros (A & B & C & D & E & F & G & H & I & J & K & L). unfold request_root.
  destruct (find_name (st_names s) (n, KNil)) eqn:Fn.
  - apply find_name_some in Fn. unfold start_ok. intuition.
    + apply in_or_app. left. now apply L.
    + apply in_app_or in H0. destruct H0 as [H0|[<-|[]]]; [now apply L|]. exact (in_map fst _ _ Fn).
  - unfold start_ok. cbn [st_names st_queue st_remaining st_jobs st_locked st_result st_ended st_panic st_main st_next].
    split; [|split; [|split; [|intuition]]].
    + rewrite map_app. apply NoDup_snoc; [exact A|]. now apply find_name_none.
    + now rewrite B.
    + rewrite app_length, C. cbn. lia.
    + apply in_app_or in H0. destruct H0 as [H0|[H0|[]]]; [now apply K|]. now inversion H0.
    + rewrite map_app in H0. apply in_app_or in H0. apply in_or_app. destruct H0 as [H0|[H0|[]]]; [left; now apply L|].
      right. inversion H0. now left.
    + rewrite map_app. apply in_or_app. apply in_app_or in H0. destruct H0 as [H0|[<-|[]]]; [left; now apply L|].
      right. now left.
Qed.
Lemma start_all roots : forall done s, start_ok done s -> start_ok (done ++ roots) (fold_left request_root roots s).
Proof.
  induction roots as [|n roots IH]; intros done s H; cbn; [now rewrite app_nil_r|].
  replace (done ++ n :: roots) with ((done ++ [n]) ++ roots) by now rewrite <- app_assoc.
  apply IH. now apply start_step.
Qed.

Lemma inv_initial : inv (initial p first) [].
Proof.
  assert (S0 : start_ok (pr_roots p) (initial p first)).
  { unfold initial. apply (start_all (pr_roots p) []). unfold start_ok. cbn.
    repeat (split; [first [reflexivity|constructor|tauto]|]). tauto. }
  destruct S0 as (A & B & C & D & E & F & G & H & I & J & K & L).
  constructor; rewrite ?D, ?E, ?F, ?G, ?I, ?C; cbn; auto; try discriminate.
  - now rewrite app_nil_r, B.
  - intros k Ik. pose proof Ik as Ik'. apply in_map_iff in Ik'. destruct Ik' as ([k' n] & Ek & In'). cbn in Ek. subst k'.
    rewrite (K _ _ In') in *. apply NeededRoot, L. exact Ik.
  - intros n. apply L.
  - intros Lt. split.
    + clear - A K. revert A K. generalize (st_names (initial p first)). intros l.
      induction l as [|[k n] l IH]; cbn; intros A K; [constructor|]. inversion A as [|? ? Nk A']; subst.
      constructor; [|apply IH; [assumption|intros; apply K; now right]].
      intros I. apply in_map_iff in I. destruct I as ([k' n'] & En & I). cbn in En. subst n'. apply Nk.
      rewrite (K k n (or_introl eq_refl)). rewrite <- (K k' n (or_intror I)). exact (in_map fst _ _ I).
    + apply Forall_forall. intros [k n] In'. cbn. rewrite J. apply Lt, L. rewrite <- (K _ _ In'). exact (in_map fst _ _ In').
Qed.

(** Jobs that change in place. *)
Lemma with_job_named s l (j : job) ph r : map named (with_job (R:=R) s l j ph r) = map named (l ++ j :: r).
Proof. unfold with_job. rewrite !map_app. reflexivity. Qed.
Lemma with_job_count f s l (j : job) ph r :
  count f (with_job (R:=R) s l j ph r) = count f l + f {| jb_key := jb_key j; jb_name := jb_name j; jb_phase := ph |} + count f r.
Proof. unfold with_job. rewrite count_app, count_cons. lia. Qed.
Lemma split_count f l (j : job) r : count f (l ++ j :: r) = count f l + f j + count f r.
Proof. rewrite count_app, count_cons. lia. Qed.
Lemma with_job_ok names s l (j : job) ph r : Forall (job_ok names) (l ++ j :: r) ->
  job_ok names {| jb_key := jb_key j; jb_name := jb_name j; jb_phase := ph |} ->
  Forall (job_ok names) (with_job (R:=R) s l j ph r).
Proof.
  intros F H. unfold with_job. apply Forall_app in F. destruct F as [F1 F2]. inversion F2; subst.
  apply Forall_app. split; [assumption|]. now constructor.
Qed.
Lemma job_of names l (j : job) r : Forall (job_ok names) (l ++ j :: r) -> job_ok names j.
Proof. intros F. apply Forall_app in F. destruct F as [_ F]. now inversion F. Qed.

Lemma active_phase j : match jb_phase j with Leaving _ => active j = 0 /\ adding j = 0 | Adding _ _ => active j = 1 /\ adding j = 1
  | Running _ _ => active j = 1 /\ adding j = 0 end.
Proof. unfold active, adding. destruct (jb_phase j); auto. Qed.

Ltac fields := cbn [st_names st_queue st_remaining st_jobs st_locked st_result st_ended st_panic st_main st_next].

Lemma inv_step s s' log : inv s log -> step p s s' -> st_panic s' = false -> exists log', inv s' log'.
Proof.
  intros I St Pn. pose proof I as I0.
  destruct I as [A B C D E F G H J K L M N]. inversion St; subst; fields; cbn [st_panic] in Pn.
  - (* pop *)
    exists log. constructor; fields; auto.
    + rewrite B, H2. cbn. rewrite map_app, <- !app_assoc. cbn.
      change ((k, n) :: q ++ map named (st_jobs s) ++ map fst log) with ([(k, n)] ++ (q ++ map named (st_jobs s) ++ map fst log)).
      etransitivity; [apply Permutation_app_comm|]. rewrite <- !app_assoc. apply Permutation_app_head, Permutation_app_head.
      apply Permutation_app_comm.
    + rewrite H2 in E. cbn in E. rewrite !count_app, !count_one, adding_at, active_at. lia.
    + rewrite count_app, count_one, adding_at, F, H1. reflexivity.
    + discriminate.
    + apply Forall_app. split; [assumption|]. constructor; [|constructor]. exists [], (pr_body p k), [].
      cbn. split; [reflexivity|]. split; [constructor|auto].
    + discriminate.
  - (* empty *)
    exists log. constructor; fields; auto.
    + now rewrite <- H2.
    + now rewrite <- H2.
    + now rewrite F, H1.
    + discriminate.
    + discriminate.
  - exists log. constructor; fields; auto. discriminate.
  - (* stop *)
    exists log. constructor; fields; auto. intros _.
    destruct H1 as [Z|Z]; [|congruence]. rewrite Z in E. cbn in E. pose proof (adding_active (st_jobs s)) as W.
    destruct (st_locked s) eqn:Lk.
    + destruct (st_queue s); [now destruct (G eq_refl)|]. cbn in E. lia.
    + rewrite F in E. destruct (st_queue s); cbn in E; [split; [reflexivity|lia]|lia].
  - (* fresh *)
    pose proof (active_phase j) as Ph. rewrite H1 in Ph. destruct Ph as [Ph1 Ph2].
    rewrite H0 in *. exists log. constructor; fields; auto.
    + rewrite with_job_named. exact B.
    + rewrite !with_job_count. rewrite !split_count in E. rewrite adding_at, active_at. lia.
    + rewrite with_job_count. rewrite split_count in F. rewrite adding_at. lia.
    + apply with_job_ok; [assumption|]. destruct (job_of _ _ _ _ K) as (past & t & g & Eb & Rv & X). rewrite H1 in X.
      destruct X as [<- <-]. exists (past ++ [Fresh]), todo, (got ++ [st_next s]). cbn.
      split; [now rewrite <- app_assoc|]. split; [now apply recv_fresh|auto].
    + intros Sp. destruct (M Sp) as [Mq Mc]. rewrite split_count in Mc. lia.
    + intros Lt. destruct (N Lt) as [N1 N2]. split; [assumption|]. eapply Forall_impl; [|exact N2]. cbn. intros. lia.
  - (* known *)
    pose proof (active_phase j) as Ph. rewrite H1 in Ph. destruct Ph as [Ph1 Ph2].
    rewrite H0 in *. exists log. constructor; fields; auto.
    + rewrite with_job_named. exact B.
    + rewrite !with_job_count. rewrite !split_count in E. rewrite adding_at, active_at. lia.
    + rewrite with_job_count. rewrite split_count, H2 in F. rewrite adding_at. lia.
    + discriminate.
    + apply with_job_ok; [assumption|]. destruct (job_of _ _ _ _ K) as (past & t & g & Eb & Rv & X). rewrite H1 in X.
      destruct X as [<- <-]. exists (past ++ [Request k]), todo, (got ++ [n]). cbn.
      split; [now rewrite <- app_assoc|]. split; [|auto]. apply recv_request; [now apply find_name_some|assumption].
    + intros Sp. destruct (M Sp) as [Mq Mc]. rewrite split_count in Mc. lia.
  - (* new *)
    pose proof (active_phase j) as Ph. rewrite H1 in Ph. destruct Ph as [Ph1 Ph2].
    rewrite H0 in *. pose proof (find_name_none _ _ H3) as Nk.
    assert (Ic : incl (st_names s) (st_names s ++ [(k, st_next s)])) by (intros x Ix; apply in_or_app; now left).
    destruct (job_of _ _ _ _ K) as (past & t & g & Eb & Rv & X). rewrite H1 in X. destruct X as [<- <-].
    exists log. constructor; fields; auto.
    + rewrite map_app. apply NoDup_snoc; assumption.
    + rewrite with_job_named, B, <- !app_assoc. apply Permutation_app_head.
      rewrite app_assoc. apply Permutation_app_comm.
    + rewrite app_length. cbn [List.length]. rewrite !with_job_count. rewrite !split_count in E. rewrite adding_at, active_at. lia.
    + rewrite with_job_count. rewrite split_count, H2 in F. rewrite adding_at. lia.
    + intros _ Q. destruct (st_queue s); discriminate.
    + intros k' Ik. rewrite map_app in Ik. apply in_app_or in Ik. destruct Ik as [Ik|[<-|[]]]; [auto|]. cbn.
      eapply NeededBy with (k := jb_key j).
      * apply H. apply (Permutation_in (jb_key j) (Permutation_sym (Permutation_map fst B))).
        rewrite !map_app, !in_app_iff. right. left. right. left. reflexivity.
      * rewrite Eb. apply in_or_app. right. now left.
    + intros n In'. rewrite map_app. apply in_or_app. left. auto.
    + apply with_job_ok.
      * eapply Forall_impl; [|exact K]. intros x. now apply job_ok_more.
      * exists (past ++ [Request k]), todo, (got ++ [st_next s]). cbn.
        split; [now rewrite <- app_assoc|]. split; [|auto]. apply recv_request; [apply in_or_app; right; now left|].
        eapply recv_more; eauto.
    + eapply Forall_impl; [|exact L]. intros x. now apply ended_ok_more.
    + intros Sp. destruct (M Sp) as [Mq Mc]. rewrite split_count in Mc. lia.
    + intros Lt. destruct (N Lt) as [N1 N2]. split.
      * rewrite map_app. apply NoDup_snoc; [assumption|]. cbn. intros Ix. apply in_map_iff in Ix. destruct Ix as (e & Ee & Ie).
        rewrite Forall_forall in N2. specialize (N2 e Ie). lia.
      * apply Forall_app. split; [eapply Forall_impl; [|exact N2]; cbn; intros; lia|]. constructor; [cbn; lia|constructor].
  - (* add *)
    pose proof (active_phase j) as Ph. rewrite H1 in Ph. destruct Ph as [Ph1 Ph2].
    rewrite H0 in *. exists log. constructor; fields; auto.
    + rewrite with_job_named. exact B.
    + rewrite !with_job_count. rewrite !split_count in E. rewrite adding_at, active_at. lia.
    + rewrite with_job_count. rewrite split_count in F. rewrite adding_at. destruct (st_locked s); lia.
    + discriminate.
    + apply with_job_ok; [assumption|]. destruct (job_of _ _ _ _ K) as (past & t & g & Eb & Rv & X). rewrite H1 in X.
      destruct X as [<- <-]. exists past, todo, got. cbn. auto.
    + intros Sp. destruct (M Sp) as [Mq Mc]. rewrite split_count in Mc. lia.
  - (* leave *)
    pose proof (active_phase j) as Ph. rewrite H1 in Ph. destruct Ph as [Ph1 Ph2].
    rewrite H0 in *. exists log. constructor; fields; auto.
    + rewrite with_job_named. exact B.
    + rewrite !with_job_count. rewrite !split_count in E. rewrite adding_at, active_at.
      assert (Le : 1 <= st_remaining s).
      { rewrite split_count in F. pose proof (adding_active l). pose proof (adding_active r).
        destruct (st_locked s) eqn:Lk; [|lia]. destruct (st_queue s); [now destruct (G eq_refl)|]. cbn in E. lia. }
      lia.
    + rewrite with_job_count. rewrite split_count in F. rewrite adding_at. lia.
    + apply with_job_ok; [assumption|]. destruct (job_of _ _ _ _ K) as (past & t & g & Eb & Rv & X). rewrite H1 in X.
      destruct X as [<- <-]. exists past, [], got. cbn. auto.
    + intros Sp. destruct (M Sp) as [Mq Mc]. split; [assumption|]. rewrite split_count in Mc. rewrite with_job_count, active_at. lia.
  - (* push *)
    pose proof (active_phase j) as Ph. rewrite H1 in Ph. destruct Ph as [Ph1 Ph2].
    rewrite H0 in *. exists (log ++ [(jb_key j, jb_name j, got)]). constructor; fields; auto.
    + rewrite B, !map_app. cbn. apply Permutation_app_head. rewrite <- !app_assoc. apply Permutation_app_head.
      change ((named j :: map named r) ++ map fst log) with ([named j] ++ (map named r ++ map fst log)).
      rewrite (app_assoc (map named r)). apply Permutation_app_comm.
    + rewrite C, map_app. reflexivity.
    + rewrite D, flat_map_app. cbn. now rewrite app_nil_r.
    + rewrite !count_app. rewrite !split_count in E. lia.
    + rewrite count_app. rewrite split_count in F. lia.
    + apply Forall_app in K. destruct K as [K1 K2]. inversion K2; subst. apply Forall_app. now split.
    + apply Forall_app. split; [assumption|]. constructor; [|constructor].
      destruct (job_of _ _ _ _ K) as (past & t & g & Eb & Rv & X). rewrite H1 in X. destruct X as [-> <-].
      unfold ended_ok. cbn. rewrite Eb, app_nil_r. exact Rv.
    + intros Sp. destruct (M Sp) as [Mq Mc]. split; [assumption|]. rewrite split_count in Mc. rewrite count_app. lia.
  - discriminate.
Qed.

Lemma panic_stays s s' : step p s s' -> st_panic s' = false -> st_panic s = false.
Proof. intros St. inversion St; subst; cbn; auto. discriminate. Qed.

Lemma inv_run s : run p first s -> st_panic s = false -> exists log, inv s log.
Proof.
  induction 1 as [|s s' Rn IH St]; intros Pn; [exists []; apply inv_initial|].
  destruct (IH (panic_stays _ _ St Pn)) as (log & I). eapply inv_step; eauto.
Qed.

(** Everything needed is in the table once nothing is left to do. *)
Lemma needed_known s log : inv s log -> st_queue s = [] -> count active (st_jobs s) = 0 ->
  forall k, needed p k -> In k (map fst (st_names s)).
Proof.
  intros I Q Ac k Nd. induction Nd as [n In'|k k' Nd IH Ib]; [now apply (i_roots _ _ I)|].
  apply (Permutation_in _ (Permutation_map fst (i_perm _ _ I))) in IH. rewrite Q in IH. cbn in IH.
  rewrite map_app, in_app_iff in IH. destruct IH as [IH|IH].
  - rewrite map_map in IH. apply in_map_iff in IH. destruct IH as (j & Ej & Ij). cbn in Ej. subst k.
    pose proof (i_jobs _ _ I) as K. rewrite Forall_forall in K. destruct (K j Ij) as (past & todo & got & Eb & Rv & X).
    assert (Z : active j = 0).
    { clear - Ac Ij. induction (st_jobs s) as [|x l IH]; [destruct Ij|]. rewrite count_cons in Ac.
      destruct Ij as [->|Ij]; [lia|]. apply IH; [lia|assumption]. }
    unfold active in Z. destruct (jb_phase j); try discriminate. destruct X as [-> _]. rewrite app_nil_r in Eb.
    rewrite Eb in Ib. eapply recv_in; eauto.
  - rewrite map_map in IH. apply in_map_iff in IH. destruct IH as (e & Ee & Ie). subst k.
    pose proof (i_log _ _ I) as L. rewrite Forall_forall in L. eapply recv_in; [exact (L e Ie)|exact Ib].
Qed.
End Inv.
