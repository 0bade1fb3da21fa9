(** Proofs about matching arguments with parameters. *)
From Coq Require Import List Bool Arith Lia Permutation Sorted.
From Verif Require Import ArgsModel ArgsSpec.
Import ListNotations.

(** ** Sorting *)
Lemma insert_perm : forall A (x : nat * A) l, Permutation (x :: l) (insert_sorted x l).
Proof.
  intros A x l. induction l as [|y r IH]; cbn; auto.
  destruct (fst x <=? fst y); auto.
  eapply perm_trans; [apply perm_swap|]. constructor. exact IH.
Qed.
Lemma sort_perm : forall A (l : list (nat * A)), Permutation l (sort_by_index l).
Proof.
  intros A l. induction l as [|x r IH]; cbn; auto.
  eapply perm_trans; [|apply insert_perm]. constructor. exact IH.
Qed.
Lemma insert_sorted_ok : forall A (x : nat * A) l,
  StronglySorted le (map fst l) -> StronglySorted le (map fst (insert_sorted x l)).
Proof.
  intros A x l. induction l as [|y r IH]; cbn; intros H.
  - constructor; constructor.
  - destruct (fst x <=? fst y) eqn:E.
    + apply Nat.leb_le in E. cbn. constructor; auto.
      inversion H; subst. constructor; auto.
      eapply Forall_impl; [|eassumption]. cbn. intros; lia.
    + apply Nat.leb_gt in E. inversion H; subst. cbn. constructor; auto.
      eapply Permutation_Forall; [apply Permutation_map, insert_perm|].
      cbn. constructor; auto. lia.
Qed.
Lemma sort_sorted : forall A (l : list (nat * A)), StronglySorted le (map fst (sort_by_index l)).
Proof.
  intros A l. induction l as [|x r IH]; cbn. constructor. apply insert_sorted_ok; auto.
Qed.
Lemma sorted_perm_eq : forall l m, StronglySorted le l -> StronglySorted le m -> Permutation l m -> l = m.
Proof.
  induction l as [|a l IH]; intros m Hl Hm P.
  - apply Permutation_nil in P. auto.
  - destruct m as [|b m]; [apply Permutation_sym, Permutation_nil in P; discriminate|].
    inversion Hl; inversion Hm; subst.
    assert (a = b).
    { assert (I1 : In a (b :: m)) by (eapply Permutation_in; [exact P|left; auto]).
      assert (I2 : In b (a :: l)) by (eapply Permutation_in; [apply Permutation_sym, P|left; auto]).
      rewrite Forall_forall in *.
      destruct I1 as [|I1], I2 as [|I2]; auto.
      apply H2 in I2. apply H6 in I1. lia. }
    subst b. f_equal. apply IH; auto. eapply Permutation_cons_inv; eauto.
Qed.
Lemma seq_sorted : forall n i, StronglySorted le (seq i n).
Proof.
  induction n; intros; cbn; constructor; auto.
  apply Forall_forall. intros x H. apply in_seq in H. lia.
Qed.
Lemma NoDup_perm_seq : forall l n, NoDup l -> (forall i, In i l <-> i < n) -> Permutation l (seq 0 n).
Proof.
  intros l n H E. apply NoDup_Permutation; auto. apply seq_NoDup.
  intros x. rewrite E, in_seq. lia.
Qed.

Lemma NoDup_app : forall A (l m : list A), NoDup l -> NoDup m -> (forall x, In x l -> ~ In x m) -> NoDup (l ++ m).
Proof.
  intros A l m Hl Hm D. induction Hl as [|x l Nx Hl IH]; cbn; auto. constructor.
  - rewrite in_app_iff. intros [|I]; auto. eapply D; eauto. left; auto.
  - apply IH. intros y Hy. apply D. right; auto.
Qed.
Lemma NoDup_indices : forall A B (f : A -> option B) l k, NoDup l -> map f l = map Some k ->
  (forall x y i, f x = Some i -> f y = Some i -> x = y) -> NoDup k.
Proof.
  intros A B f l k H. revert k. induction H as [|x l Nx H IH]; intros [|b k] E J; try discriminate; constructor.
  - cbn in E. inversion E as [[E1 E2]]. intros I. apply Nx. apply (in_map Some) in I. rewrite <- E2 in I.
    apply in_map_iff in I as (y & Ey & Iy). replace x with y; auto. eapply J; eauto.
  - cbn in E. inversion E. apply IH; auto.
Qed.

(** ** Lookup *)
Section Args.
Context {T TL : Type}.
Implicit Types (ps : list (param T TL)) (args : list (named_arg T)).

Lemma member_In : forall x l, member x l = true <-> In x l.
Proof.
  intros. unfold member. rewrite existsb_exists. split.
  - intros (y & I & E). apply Nat.eqb_eq in E. subst. auto.
  - intros I. exists x. split; auto. apply Nat.eqb_refl.
Qed.
Lemma member_not : forall x l, member x l = false <-> ~ In x l.
Proof. intros. rewrite <- member_In. destruct (member x l); split; congruence. Qed.
Lemma arg_index_some : forall ps x i, arg_index ps x = Some i ->
  exists p, nth_error ps i = Some p /\ p_name p = x /\ find_param ps x = Some p.
Proof.
  induction ps as [|q r IH]; cbn; intros x i H; [discriminate|]. unfold find_param. cbn.
  destruct (p_name q =? x) eqn:E.
  - inversion H; subst. apply Nat.eqb_eq in E. exists q. cbn. auto.
  - destruct (arg_index r x) as [j|] eqn:A; [|discriminate]. cbn in H. inversion H; subst.
    destruct (IH _ _ A) as (p & N & Q & F). exists p. cbn. auto.
Qed.
Lemma arg_index_none : forall ps x, arg_index ps x = None -> ~ In x (map p_name ps) /\ find_param ps x = None.
Proof.
  induction ps as [|q r IH]; cbn; intros x H; auto. unfold find_param. cbn.
  destruct (p_name q =? x) eqn:E; [discriminate|].
  destruct (arg_index r x) as [j|] eqn:A; [discriminate|].
  apply IH in A as [A B]. apply Nat.eqb_neq in E. split; auto. intros [|]; auto.
Qed.
Lemma arg_index_in : forall ps x, In x (map p_name ps) -> exists i, arg_index ps x = Some i.
Proof.
  intros ps x H. destruct (arg_index ps x) eqn:E; eauto. apply arg_index_none in E as [E _]. contradiction.
Qed.
Lemma nth_unique : forall ps i j p q, NoDup (map p_name ps) ->
  nth_error ps i = Some p -> nth_error ps j = Some q -> p_name p = p_name q -> i = j.
Proof.
  intros ps i j p q N Hi Hj E.
  eapply NoDup_nth_error with (l := map p_name ps); auto.
  - rewrite map_length. apply nth_error_Some. congruence.
  - rewrite !nth_error_map, Hi, Hj. cbn. congruence.
Qed.
Lemma index_inj : forall ps x y i, arg_index ps x = Some i -> arg_index ps y = Some i -> x = y.
Proof.
  intros ps x y i H1 H2. apply arg_index_some in H1 as (p & A & B & _).
  apply arg_index_some in H2 as (q & C & D & _). congruence.
Qed.

(** ** Binding *)
Definition entry ps (a : named_arg T) (e : nat * argument T TL) : Prop :=
  exists p, nth_error ps (fst e) = Some p /\ p_name p = target a /\ arg_index ps (target a) = Some (fst e) /\
    snd e = mkArg (p_name p) (value a) (p_ty p) (kind_of a).

Definition unnamed args (x : nat) : bool := negb (member x (map target args)).

Lemma filter_and : forall A (f g h : A -> bool) l, (forall x, h x = f x && g x) ->
  filter f (filter g l) = filter h l.
Proof.
  intros A f g h l E. induction l as [|x l IH]; cbn; auto. rewrite E.
  destruct (g x) eqn:G; cbn; rewrite IH; destruct (f x); cbn; auto.
Qed.
Lemma filter_remove : forall (a : named_arg T) args l,
  filter (unnamed args) (remove_name (target a) l) = filter (unnamed (a :: args)) l.
Proof.
  intros a args l. apply filter_and. intros x. unfold unnamed, member. cbn.
  rewrite (Nat.eqb_sym x), negb_orb. apply andb_comm.
Qed.

Lemma bind_named_spec : forall ps args bound unbound,
  match bind_named ps bound unbound args with
  | Ok (r, u) => NoDup (map target args) /\ (forall x, In x (map target args) -> ~ In x bound) /\
      incl (map target args) (map p_name ps) /\ Forall2 (entry ps) args r /\
      u = filter (unnamed args) unbound
  | Err (Duplicate n) => exists l1 a l2, args = l1 ++ a :: l2 /\ target a = n /\
      (In n bound \/ In n (map target l1))
  | Err (NoSuch n) => In n (map target args) /\ ~ In n (map p_name ps)
  | Err _ => False
  end.
Proof.
  intros ps args. induction args as [|a args IH]; intros bound unbound; cbn [bind_named].
  - split; [constructor|]. split; [intros x []|]. split; [intros x []|]. split; [constructor|].
    symmetry. clear. induction unbound; cbn; congruence.
  - destruct (member (target a) bound) eqn:M.
    + exists [], a, args. cbn. apply member_In in M. auto.
    + apply member_not in M.
      destruct (arg_index ps (target a)) as [i|] eqn:A.
      * destruct (arg_index_some _ _ _ A) as (p & N & Q & F). rewrite F.
        specialize (IH (target a :: bound) (remove_name (target a) unbound)).
        destruct (bind_named ps (target a :: bound) (remove_name (target a) unbound) args) as [[r u]|[]];
          cbn in *; auto.
        -- destruct IH as (ND & NB & I & F2 & U). repeat split.
           ++ constructor; auto. intros Hin. eapply NB; eauto.
           ++ intros x [<-|Hx]; auto. intros Hb. eapply NB; eauto.
           ++ intros x [<-|Hx]; auto. rewrite <- Q. apply in_map. eapply nth_error_In; eauto.
           ++ constructor; auto. exists p. cbn. rewrite Q. auto.
           ++ rewrite U. apply filter_remove.
        -- destruct IH as [I1 I2]. auto.
        -- destruct IH as (l1 & b & l2 & E1 & E2 & E3). exists (a :: l1), b, l2. subst.
           cbn. intuition.
      * destruct (arg_index_none _ _ A) as [N F]. rewrite F. cbn. auto.
Qed.

(** ** Defaults *)
Definition has_default ps (x : nat) : bool :=
  match find_param ps x with Some p => match p_default p with Some _ => true | None => false end | None => false end.
Definition dentry ps (x : nat) (e : nat * argument T TL) : Prop :=
  exists p d, nth_error ps (fst e) = Some p /\ p_name p = x /\ arg_index ps x = Some (fst e) /\
    p_default p = Some d /\ snd e = mkArg (p_name p) d (p_ty p) KDefault.

Lemma add_defaults_spec : forall ps names unbound,
  Forall2 (dentry ps) (filter (has_default ps) names) (fst (add_defaults ps names unbound)) /\
  snd (add_defaults ps names unbound) =
    filter (fun x => negb (member x names && has_default ps x)) unbound.
Proof.
  intros ps names. induction names as [|x names IH]; intros unbound; cbn [add_defaults].
  - split; [constructor|]. cbn. symmetry. induction unbound; cbn; congruence.
  - cbn [filter]. unfold has_default at 1.
    destruct (arg_index ps x) as [i|] eqn:A.
    + destruct (arg_index_some _ _ _ A) as (p & N & Q & F). rewrite F.
      destruct (p_default p) as [d|] eqn:D.
      * cbn [fst snd]. destruct (IH (remove_name x unbound)) as [H1 H2]. split.
        -- constructor; auto. exists p, d. cbn. rewrite Q. auto.
        -- rewrite H2. unfold remove_name. apply filter_and. intros y. cbn [member existsb].
           unfold member. rewrite (Nat.eqb_sym y x). destruct (x =? y) eqn:E; cbn.
           ++ apply Nat.eqb_eq in E. subst y. unfold has_default. rewrite F, D. cbn.
              rewrite ?andb_false_r. auto.
           ++ rewrite andb_true_r. auto.
      * destruct (IH unbound) as [H1 H2]. split; auto. rewrite H2. apply filter_ext. intros y.
        cbn [member existsb]. unfold member. destruct (y =? x) eqn:E; cbn; auto.
        apply Nat.eqb_eq in E. subst y. unfold has_default. rewrite F, D, andb_false_r. auto.
    + destruct (arg_index_none _ _ A) as [_ F]. rewrite F.
      destruct (IH unbound) as [H1 H2]. split; auto. rewrite H2. apply filter_ext. intros y.
      cbn [member existsb]. unfold member. destruct (y =? x) eqn:E; cbn; auto.
      apply Nat.eqb_eq in E. subst y. unfold has_default. rewrite F, andb_false_r. auto.
Qed.

(** ** Named calls *)
Lemma find_param_in : forall ps p, NoDup (map p_name ps) -> In p ps -> find_param ps (p_name p) = Some p.
Proof.
  intros ps p N I. destruct (arg_index_in ps (p_name p)) as [i A]; [apply in_map; auto|].
  destruct (arg_index_some _ _ _ A) as (q & Hq & E & F). rewrite F. f_equal.
  apply In_nth_error in I as [j Hj]. assert (i = j) by (eapply nth_unique; eauto). subst. congruence.
Qed.
Lemma has_default_spec : forall ps p, NoDup (map p_name ps) -> In p ps ->
  has_default ps (p_name p) = match p_default p with Some _ => true | None => false end.
Proof. intros. unfold has_default. rewrite find_param_in; auto. Qed.

Lemma Forall2_map_l : forall A B C (f : A -> C) (g : B -> C) (R : A -> B -> Prop) l m,
  (forall a b, R a b -> f a = g b) -> Forall2 R l m -> map f l = map g m.
Proof. intros A B C f g R l m E H. induction H; cbn; f_equal; auto. Qed.
Lemma Forall2_in_r : forall A B (R : A -> B -> Prop) l m b, Forall2 R l m -> In b m -> exists a, In a l /\ R a b.
Proof.
  intros A B R l m b H. induction H; intros []; subst; [eexists; split; [left; auto|auto]|].
  destruct IHForall2 as (a & I & Q); auto. exists a. split; auto. right. auto.
Qed.
Lemma Forall2_in_l : forall A B (R : A -> B -> Prop) l m a, Forall2 R l m -> In a l -> exists b, In b m /\ R a b.
Proof.
  intros A B R l m b H. induction H; intros []; subst; [eexists; split; [left; auto|auto]|].
  destruct IHForall2 as (a & I & Q); auto. exists a. split; auto. right. auto.
Qed.

(** what was not named is enumerated *)
Lemma unnamed_names : forall ps args x,
  In x (filter (unnamed args) (nodup Nat.eq_dec (map p_name ps))) <->
  In x (map p_name ps) /\ ~ In x (map target args).
Proof.
  intros. rewrite filter_In, nodup_In. unfold unnamed. rewrite negb_true_iff, member_not. tauto.
Qed.

Lemma index_name : forall ps, NoDup (map p_name ps) -> forall i p, nth_error ps i = Some p ->
  arg_index ps (p_name p) = Some i.
Proof.
  intros ps N i p H. destruct (arg_index_in ps (p_name p)) as [j A].
  { apply in_map. eapply nth_error_In; eauto. }
  destruct (arg_index_some _ _ _ A) as (q & Hq & E & _). rewrite A. f_equal.
  eapply nth_unique; eauto.
Qed.

Lemma Forall2_nth_intro : forall A B (R : A -> B -> Prop) l m, length l = length m ->
  (forall i a b, nth_error l i = Some a -> nth_error m i = Some b -> R a b) -> Forall2 R l m.
Proof.
  intros A B R l. induction l as [|a l IH]; intros [|b m] L H; try discriminate; constructor.
  - apply (H 0); auto.
  - apply IH; [cbn in L; lia|]. intros i. apply (H (S i)).
Qed.

(** a list of entries with all the indices once, sorted, is the list of parameters *)
Lemma sorted_entries : forall A n (l : list (nat * A)),
  NoDup (map fst l) -> (forall i, In i (map fst l) <-> i < n) ->
  map fst (sort_by_index l) = seq 0 n.
Proof.
  intros A n l N E. apply sorted_perm_eq.
  - apply sort_sorted.
  - apply seq_sorted.
  - eapply perm_trans; [apply Permutation_map, Permutation_sym, sort_perm|]. apply NoDup_perm_seq; auto.
Qed.
Lemma sorted_nth : forall A n (l : list (nat * A)) i a,
  NoDup (map fst l) -> (forall i, In i (map fst l) <-> i < n) ->
  nth_error (map snd (sort_by_index l)) i = Some a -> In (i, a) l.
Proof.
  intros A n l i a N E H. pose proof (sorted_entries _ _ _ N E) as S.
  rewrite nth_error_map in H. destruct (nth_error (sort_by_index l) i) as [[j b]|] eqn:G; [|discriminate].
  cbn in H. inversion H; subst. assert (j = i).
  { apply (map_nth_error fst) in G. rewrite S in G. cbn in G.
    assert (i < n). { rewrite <- (seq_length n 0). apply nth_error_Some. congruence. }
    rewrite nth_error_nth' with (d := 0) in G by (rewrite seq_length; lia).
    rewrite seq_nth in G by lia. cbn in G. congruence. }
  subst. eapply Permutation_in; [apply Permutation_sym, sort_perm|]. eapply nth_error_In; eauto.
Qed.

Lemma named_spec : forall enum args ps m,
  (forall l, Permutation (enum l) l) -> NoDup (map p_name ps) ->
  match match_args_with_params enum (Named args) ps m with
  | Ok r => named_call_ok args ps /\ Forall2 (fills_named args) ps r
  | Err (Duplicate n) => exists l1 a l2 b l3, args = l1 ++ a :: l2 ++ b :: l3 /\ target a = n /\ target b = n
  | Err (NoSuch n) => In n (map target args) /\ ~ In n (map p_name ps)
  | Err (Missing l) => l <> [] /\ NoDup l /\ NoDup (map target args) /\
      forall x, In x l <-> exists p, In p ps /\ p_name p = x /\ p_default p = None /\ ~ In x (map target args)
  | Err _ => False
  end.
Proof.
  intros enum args ps m P N. cbn [match_args_with_params].
  pose proof (bind_named_spec ps args [] (nodup Nat.eq_dec (map p_name ps))) as B.
  destruct (bind_named ps [] (nodup Nat.eq_dec (map p_name ps)) args) as [[r u]|e].
  2:{ destruct e; try contradiction; auto. destruct B as (l1 & a & l2 & E & Q & [[]|I]).
      apply in_map_iff in I as (b & Tb & Ib). apply in_split in Ib as (k1 & k2 & ->).
      exists k1, b, k2, a, l2. subst. rewrite <- app_assoc. cbn. auto. }
  destruct B as (ND & _ & IN & F2 & U).
  destruct (add_defaults_spec ps (enum u) u) as [D1 D2].
  set (q := add_defaults ps (enum u) u) in *.
  assert (NU : NoDup u). { rewrite U. apply NoDup_filter, NoDup_nodup. }
  assert (INU : forall x, In x u <-> In x (map p_name ps) /\ ~ In x (map target args)).
  { intros x. rewrite U. apply unnamed_names. }
  assert (MQ : forall x, In x (snd q) <-> In x u /\ has_default ps x = false).
  { intros x. rewrite D2, filter_In, negb_true_iff, andb_false_iff, member_not. split.
    - intros (I & [C|C]); auto. destruct C. eapply Permutation_in; [apply Permutation_sym, P|auto].
    - intros (I & C). auto. }
  destruct (snd q) as [|m0 ms] eqn:SQ.
  - assert (OK : named_call_ok args ps).
    { split; auto. split; auto. intros p Ip Dp.
      destruct (in_dec Nat.eq_dec (p_name p) (map target args)) as [|n]; auto.
      destruct (proj2 (MQ (p_name p))). split.
      - apply INU. split; auto. apply in_map; auto.
      - rewrite has_default_spec, Dp; auto. }
    split; auto.
    assert (EI : forall i a, In (i, a) (r ++ fst q) -> exists p, nth_error ps i = Some p /\ fills_named args p a).
    { intros i a I. apply in_app_or in I as [I|I].
      - destruct (Forall2_in_r _ _ _ _ _ _ F2 I) as (x & Ix & p & Hp & E & _ & Ea).
        cbn in *. exists p. split; auto. rewrite Ea. apply fill_given; auto.
      - destruct (Forall2_in_r _ _ _ _ _ _ D1 I) as (x & Ix & p & d & Hp & E & _ & Dp & Ea).
        cbn in *. exists p. split; auto. rewrite Ea. apply fill_default; auto.
        apply filter_In in Ix as [Ix _]. rewrite E.
        eapply Permutation_in in Ix; [|apply P]. apply INU in Ix. tauto. }
    assert (R1 : map (arg_index ps) (map target args) = map Some (map fst r)).
    { rewrite !map_map. eapply Forall2_map_l; [|exact F2]. intros a b (p & _ & _ & A & _). auto. }
    assert (R2 : map (arg_index ps) (filter (has_default ps) (enum u)) = map Some (map fst (fst q))).
    { rewrite map_map. eapply Forall2_map_l; [|exact D1]. intros a b (p & d & _ & _ & A & _). auto. }
    assert (R : map (arg_index ps) (map target args ++ filter (has_default ps) (enum u)) = map Some (map fst (r ++ fst q))).
    { rewrite !map_app, R1, R2. auto. }
    assert (NK : NoDup (map target args ++ filter (has_default ps) (enum u))).
    { apply NoDup_app; auto.
      - apply NoDup_filter. eapply Permutation_NoDup; [apply Permutation_sym, P|auto].
      - intros y Iy I. apply filter_In in I as [I _]. eapply Permutation_in in I; [|apply P].
        apply INU in I. tauto. }
    assert (NF : NoDup (map fst (r ++ fst q))).
    { eapply NoDup_indices; [exact NK|exact R|]. intros x y i. apply index_inj. }
    assert (CV : forall i, In i (map fst (r ++ fst q)) <-> i < length ps).
    { intros i. split.
      - intros I. apply in_map_iff in I as ([j a] & <- & I). cbn. apply EI in I as (p & Hp & _).
        apply nth_error_Some. congruence.
      - intros L. apply nth_error_Some in L. destruct (nth_error ps i) as [p|] eqn:Hp; [|congruence].
        assert (A : arg_index ps (p_name p) = Some i) by (eapply index_name; eauto).
        assert (IP : In p ps) by (eapply nth_error_In; eauto).
        assert (G : In (p_name p) (map target args ++ filter (has_default ps) (enum u))).
        { apply in_or_app. destruct (in_dec Nat.eq_dec (p_name p) (map target args)) as [|n]; auto.
          right. apply filter_In. assert (In (p_name p) u) by (apply INU; split; auto; apply in_map; auto). split.
          - eapply Permutation_in; [apply Permutation_sym, P|auto].
          - destruct (has_default ps (p_name p)) eqn:Hd; auto. destruct (proj2 (MQ (p_name p))); auto. }
        apply (in_map (arg_index ps)) in G. rewrite R, A in G. apply in_map_iff in G as (k & Ek & I).
        inversion Ek; subst. auto. }
    assert (LN : length (map snd (sort_by_index (r ++ fst q))) = length ps).
    { rewrite map_length, <- (map_length fst). erewrite sorted_entries; eauto. apply seq_length. }
    apply Forall2_nth_intro; [congruence|].
    intros i p a Hp Ha. eapply sorted_nth in Ha; eauto. apply EI in Ha as (p' & Hp' & Fi). congruence.
  - split; [discriminate|]. split.
    { rewrite D2. apply NoDup_filter; auto. }
    split; auto. intros x. rewrite MQ, INU. split.
    + intros ((I & NI) & Hd). apply in_map_iff in I as (p & E & Ip). exists p. subst.
      rewrite has_default_spec in Hd; auto. destruct (p_default p); [discriminate|]. auto.
    + intros (p & Ip & E & Dp & NI). subst. split; [split; auto; apply in_map; auto|].
      rewrite has_default_spec, Dp; auto.
Qed.

Lemma named_ok_accepted : forall enum args ps m,
  (forall l, Permutation (enum l) l) -> NoDup (map p_name ps) -> named_call_ok args ps ->
  exists r, match_args_with_params enum (Named args) ps m = Ok r.
Proof.
  intros enum args ps m P N (ND & I & D). pose proof (named_spec enum args ps m P N) as S.
  destruct (match_args_with_params enum (Named args) ps m) as [r|[]]; cbn in S; eauto; exfalso; auto.
  - destruct S as [A B]. apply B, I, A.
  - destruct S as (NE & _ & _ & E). destruct missing as [|x l]; auto.
    destruct (proj1 (E x)) as (p & Ip & Ex & Dp & NI); [left; auto|]. apply NI. subst. auto.
  - destruct S as (l1 & a & l2 & b & l3 & E & Ta & Tb). subst args.
    rewrite map_app, map_cons, map_app, map_cons in ND. apply NoDup_remove_2 in ND. apply ND.
    rewrite !in_app_iff. right. right. left. congruence.
Qed.

(** the filling of a parameter is unique *)
Lemma fills_unique : forall args (p : param T TL) a b, NoDup (map target args) ->
  fills_named args p a -> fills_named args p b -> a = b.
Proof.
  intros args p a b N Ha Hb. destruct Ha as [x Ix Ex|d Nx Dx], Hb as [y Iy Ey|d' Ny Dy].
  - assert (x = y); [|subst; auto].
    clear - N Ix Iy Ex Ey. induction args as [|z l IH]; [destruct Ix|]. inversion N; subst.
    destruct Ix as [->|Ix], Iy as [->|Iy]; auto.
    + exfalso. apply H1. rewrite Ex, <- Ey. apply in_map; auto.
    + exfalso. apply H1. rewrite Ey, <- Ex. apply in_map; auto.
  - exfalso. apply Ny. rewrite <- Ex. apply in_map; auto.
  - exfalso. apply Nx. rewrite <- Ey. apply in_map; auto.
  - congruence.
Qed.
Lemma fills_all_unique : forall args ps r s, NoDup (map target args) ->
  Forall2 (fills_named args) ps r -> Forall2 (fills_named args) ps s -> r = s.
Proof.
  intros args ps r s N H. revert s. induction H; intros s Hs; inversion Hs; subst; auto.
  f_equal; eauto using fills_unique.
Qed.
Lemma fills_perm : forall args args' (p : param T TL) a, Permutation args args' ->
  fills_named args p a -> fills_named args' p a.
Proof.
  intros args args' p a P H. destruct H as [x Ix Ex|d Nx Dx].
  - apply fill_given; auto. eapply Permutation_in; eauto.
  - apply fill_default; auto. intros I. apply Nx. eapply Permutation_in; [|exact I].
    apply Permutation_map, Permutation_sym; auto.
Qed.
Lemma call_ok_perm : forall args args' ps, Permutation args args' -> named_call_ok args ps -> named_call_ok args' ps.
Proof.
  intros args args' ps P (ND & I & D). assert (Q : Permutation (map target args) (map target args')) by (apply Permutation_map; auto).
  split; [|split].
  - eapply Permutation_NoDup; eauto.
  - intros x Hx. apply I. eapply Permutation_in; [apply Permutation_sym|]; eauto.
  - intros p Ip Dp. eapply Permutation_in; eauto.
Qed.

(** ** Positional calls *)
Fixpoint imapi {A} (f : nat -> A -> Prop) (i : nat) (l : list A) : Prop :=
  match l with [] => True | x :: r => f i x /\ imapi f (S i) r end.

Lemma positional_ok : forall (all : list (param T TL)) n self (args : list T) ps i r, positional all n self i args ps = Ok r ->
  length args <= length ps /\ length r = length ps /\
  (forall j p, nth_error ps j = Some p -> p_default p = None -> j < length args) /\
  forall j p a, nth_error ps j = Some p -> nth_error r j = Some a -> fills_positional args j p a.
Proof.
  intros all n self args ps. revert args. induction ps as [|p ps IH]; intros args i r H.
  - destruct args; cbn in H; [|discriminate]. inversion H; subst. cbn. repeat split; auto;
    intros [|j] ? **; discriminate.
  - destruct args as [|v args]; cbn in H.
    + destruct (p_default p) as [d|] eqn:D; [|discriminate].
      destruct (positional all n self (S i) [] ps) eqn:E; [|discriminate]. inversion H; subst.
      destruct (IH _ _ _ E) as (A & B & C & F). cbn in *. repeat split; try lia.
      * intros [|j] q Hq Dq; cbn in Hq; [congruence|]. apply C in Hq; auto. lia.
      * intros [|j] q b Hq Hb; cbn in *; [|specialize (F _ _ _ Hq Hb); unfold fills_positional in *; destruct j; auto].
        unfold fills_positional. cbn. inversion Hq; inversion Hb; subst. eauto.
    + destruct (positional all n self (S i) args ps) eqn:E; [|discriminate]. inversion H; subst.
      destruct (IH _ _ _ E) as (A & B & C & F). cbn in *. repeat split; try lia.
      * intros [|j] q Hq Dq; cbn in Hq; [lia|]. apply C in Hq; auto. lia.
      * intros [|j] q b Hq Hb; cbn in *; [|exact (F _ _ _ Hq Hb)].
        unfold fills_positional. cbn. congruence.
Qed.
Lemma positional_err : forall (all : list (param T TL)) n self (args : list T) ps i e, positional all n self i args ps = Err e ->
  (length ps < length args /\ e = TooMany (n - self) (length all - self) (num_defaults all)) \/
  (exists j p, length args <= j /\ nth_error ps j = Some p /\ p_default p = None /\
     (forall k q, length args <= k < j -> nth_error ps k = Some q -> p_default q <> None) /\
     e = TooFew (i + j - self) (length all - self) (map p_name (skipn n all)) (num_defaults all)).
Proof.
  intros all n self args ps. revert args. induction ps as [|p ps IH]; intros args i e H.
  - destruct args; cbn in H; [discriminate|]. inversion H; subst. left. cbn. split; auto. lia.
  - destruct args as [|v args]; cbn in H.
    + destruct (p_default p) as [d|] eqn:D.
      * destruct (positional all n self (S i) [] ps) eqn:E; [discriminate|]. inversion H; subst.
        destruct (IH _ _ _ E) as [[A B]|(j & q & A & B & C & F & G)]; [cbn in A; lia|].
        right. exists (S j), q. repeat split; auto; try (cbn; lia).
        -- intros [|k] q' Hk Hq; cbn in Hq; [congruence|]. eapply F; eauto. cbn in *. lia.
        -- rewrite G. f_equal. lia.
      * inversion H; subst. right. exists 0, p. split; [cbn; lia|]. split; auto. split; auto. split.
        -- intros k q Hk. lia.
        -- f_equal. lia.
    + destruct (positional all n self (S i) args ps) eqn:E; [discriminate|]. inversion H; subst.
      destruct (IH _ _ _ E) as [[A B]|(j & q & A & B & C & F & G)].
      * left. cbn. split; auto. lia.
      * right. exists (S j), q. repeat split; auto; try (cbn; lia).
        -- intros [|k] q' Hk Hq; cbn in *; [lia|]. eapply F; eauto. lia.
        -- rewrite G. f_equal. lia.
Qed.

Lemma take_defaults_le : forall ps j p, nth_error ps j = Some p -> p_default p = None -> take_defaults ps <= j.
Proof.
  induction ps as [|q ps IH]; intros [|j] p H D; cbn in *; try discriminate.
  - inversion H; subst. rewrite D. lia.
  - destruct (p_default q); [|lia]. specialize (IH _ _ H D). lia.
Qed.
Lemma take_defaults_length : forall ps, take_defaults ps <= length ps.
Proof. induction ps as [|q ps IH]; cbn; auto. destruct (p_default q); lia. Qed.
Lemma num_defaults_le : forall ps j p, nth_error ps j = Some p -> p_default p = None ->
  num_defaults ps <= length ps - S j.
Proof.
  intros ps j p H D. unfold num_defaults. assert (j < length ps) by (apply nth_error_Some; congruence).
  eapply take_defaults_le with (p := p); auto.
  apply nth_error_split in H as (l1 & l2 & -> & L). rewrite rev_app_distr. cbn. rewrite <- app_assoc.
  rewrite app_length. cbn. replace (length l1 + S (length l2) - S j) with (length (rev l2)).
  - rewrite nth_error_app2, Nat.sub_diag by lia. auto.
  - rewrite rev_length. lia.
Qed.

(** ** Patterns *)
Lemma bind_patterns_spec : forall args bound unbound,
  match bind_patterns bound unbound args with
  | Ok (r, u) => r = args /\ NoDup (map target args) /\ (forall x, In x (map target args) -> ~ In x bound) /\
      incl (map target args) unbound /\ u = filter (unnamed args) unbound
  | Err (Duplicate n) => exists l1 a l2, args = l1 ++ a :: l2 /\ target a = n /\
      (In n bound \/ In n (map target l1))
  | Err (NoSuch n) => exists l1 a l2, args = l1 ++ a :: l2 /\ target a = n /\
      ~ In n bound /\ ~ In n (map target l1) /\ ~ In n unbound
  | Err _ => False
  end.
Proof.
  intros args. induction args as [|a args IH]; intros bound unbound; cbn [bind_patterns].
  - split; [auto|]. split; [constructor|]. split; [intros x []|]. split; [intros x []|].
    symmetry. clear. induction unbound; cbn; congruence.
  - destruct (member (target a) bound) eqn:M.
    + exists [], a, args. cbn. apply member_In in M. auto.
    + apply member_not in M.
      destruct (member (target a) unbound) eqn:Mu; cbn [negb].
      * apply member_In in Mu.
        specialize (IH (target a :: bound) (remove_name (target a) unbound)).
        destruct (bind_patterns (target a :: bound) (remove_name (target a) unbound) args) as [[r u]|[]];
          cbn in *; auto.
        -- destruct IH as (-> & ND & NB & I & U). repeat split.
           ++ constructor; auto. intros Hin. eapply NB; eauto.
           ++ intros x [<-|Hx]; auto. intros Hb. eapply NB; eauto.
           ++ intros x [<-|Hx]; auto. apply I in Hx. apply filter_In in Hx. tauto.
           ++ rewrite U. apply filter_remove.
        -- destruct IH as (l1 & b & l2 & E1 & E2 & E3 & E4 & E5). exists (a :: l1), b, l2. subst.
           cbn. split; [auto|]. split; [auto|]. split; [tauto|]. split; [tauto|].
           intros I. apply E5. apply filter_In. split; auto. apply negb_true_iff, Nat.eqb_neq. tauto.
        -- destruct IH as (l1 & b & l2 & E1 & E2 & E3). exists (a :: l1), b, l2. subst.
           cbn. intuition.
      * apply member_not in Mu. exists [], a, args. cbn. repeat split; auto.
Qed.

Lemma patterns_spec : forall args ps, NoDup (map p_name ps) ->
  match match_patterns args ps with
  | Ok r => NoDup (map target args) /\ Permutation r args /\ map target r = map p_name ps
  | Err (Duplicate n) => exists l1 a l2 b l3, args = l1 ++ a :: l2 ++ b :: l3 /\ target a = n /\ target b = n
  | Err (NoSuch n) => In n (map target args) /\ ~ In n (map p_name ps)
  | Err (Missing l) => l <> [] /\ NoDup l /\ NoDup (map target args) /\
      forall x, In x l <-> In x (map p_name ps) /\ ~ In x (map target args)
  | Err _ => False
  end.
Proof.
  intros args ps N. unfold match_patterns.
  pose proof (bind_patterns_spec args [] (nodup Nat.eq_dec (map p_name ps))) as B.
  destruct (bind_patterns [] (nodup Nat.eq_dec (map p_name ps)) args) as [[r u]|e].
  2:{ destruct e; try contradiction; auto.
      - destruct B as (l1 & a & l2 & -> & <- & _ & _ & NI). rewrite nodup_In in NI. split; auto.
        rewrite map_app. apply in_or_app. right. left. auto.
      - destruct B as (l1 & a & l2 & E & Q & [[]|I]).
      apply in_map_iff in I as (b & Tb & Ib). apply in_split in Ib as (k1 & k2 & ->).
      exists k1, b, k2, a, l2. subst. rewrite <- app_assoc. cbn. auto. }
  destruct B as (-> & ND & _ & IN & U). 
  assert (INU : forall x, In x u <-> In x (map p_name ps) /\ ~ In x (map target args)).
  { intros x. rewrite U. apply unnamed_names. }
  assert (IN' : incl (map target args) (map p_name ps)).
  { intros x Hx. apply IN in Hx. apply nodup_In in Hx. auto. }
  destruct u as [|m0 ms] eqn:EU.
  - set (f := fun a : named_arg T => (match arg_index ps (target a) with Some i => i | None => 0 end, a)).
    fold f. split; auto.
    assert (PM : Permutation (map snd (sort_by_index (map f args))) args).
    { eapply perm_trans; [apply Permutation_map, Permutation_sym, sort_perm|].
      rewrite map_map. cbn. rewrite map_id. auto. }
    split; auto.
    assert (R : map (arg_index ps) (map target args) = map Some (map fst (map f args))).
    { rewrite !map_map. apply map_ext_in. intros a Ia. cbn.
      destruct (arg_index_in ps (target a)) as [i E]; [apply IN', in_map; auto|]. rewrite E. auto. }
    assert (NF : NoDup (map fst (map f args))).
    { eapply NoDup_indices; [exact ND|exact R|]. intros x y i. apply index_inj. }
    assert (EI : forall i a, In (i, a) (map f args) -> exists p, nth_error ps i = Some p /\ p_name p = target a).
    { intros i a I. apply in_map_iff in I as (b & Eb & Ib). unfold f in Eb.
      destruct (arg_index_in ps (target b)) as [j E]; [apply IN', in_map; auto|]. rewrite E in Eb.
      inversion Eb; subst. destruct (arg_index_some _ _ _ E) as (p & Hp & Q & _). eauto. }
    assert (CV : forall i, In i (map fst (map f args)) <-> i < length ps).
    { intros i. split.
      - intros I. apply in_map_iff in I as ([j a] & <- & I). cbn. apply EI in I as (p & Hp & _).
        apply nth_error_Some. congruence.
      - intros L. apply nth_error_Some in L. destruct (nth_error ps i) as [p|] eqn:Hp; [|congruence].
        assert (A : arg_index ps (p_name p) = Some i) by (eapply index_name; eauto).
        assert (G : In (p_name p) (map target args)).
        { destruct (in_dec Nat.eq_dec (p_name p) (map target args)) as [|n]; auto.
          destruct (proj2 (INU (p_name p))). split; auto. apply in_map. eapply nth_error_In; eauto. }
        apply (in_map (arg_index ps)) in G. rewrite R, A in G. apply in_map_iff in G as (k & Ek & I).
        inversion Ek; subst. auto. }
    assert (LN : length (map snd (sort_by_index (map f args))) = length ps).
    { rewrite map_length, <- (map_length fst). erewrite sorted_entries; eauto. apply seq_length. }
    symmetry. eapply (Forall2_map_l _ _ _ p_name target (fun p a => p_name p = target a)); auto.
    apply Forall2_nth_intro; [congruence|].
    intros i p a Hp Ha. eapply sorted_nth in Ha; eauto. apply EI in Ha as (p' & Hp' & Fi). congruence.
  - split; [discriminate|]. split; auto. rewrite U. apply NoDup_filter, NoDup_nodup.
Qed.
End Args.
