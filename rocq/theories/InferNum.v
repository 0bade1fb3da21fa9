(** Unification of types with the bound [Number<N>], the only trait the built-in
    operators ask for: every solution of the state that a successful call leaves
    is a solution of the state it started from and makes the two types equal. *)
From Coq Require Import List Bool Arith ZArith Lia.
From Verif Require Import InferModel InferSpec InferChain InferState InferUnify InferCons.
Import ListNotations.

(** ** Merging two types into a new one *)

Definition tparams (tv : tvar) : list nat :=
  match tv with Known _ ps => ps | Unknown trs _ => concat (map snd trs) end.

Record mg (st st' : state) (a b : nat) (tv : tvar) : Prop := {
  mg_vars : vars st' = vars st ++ [tv];
  mg_ends : forall k r, ends (repl st) k r ->
    ends (repl st') k (if (r =? a) || (r =? b) then len st else r);
  mg_cons : cons st' = cons st;
  mg_saved : saved st' = saved st;
  mg_tl : tl (repl st') = tl (repl st);
  mg_closed : closed st'
}.

Lemma mg_sym st st' a b tv : mg st st' a b tv -> mg st st' b a tv.
Proof.
  intros [V N C S T L]. constructor; auto. intros k r H. rewrite orb_comm. auto.
Qed.

Lemma mg_len st st' a b tv : mg st st' a b tv -> len st' = S (len st).
Proof. intros H. unfold len. rewrite (mg_vars _ _ _ _ _ H), app_length. cbn. lia. Qed.

Lemma same_chains a b : chains a -> same a b -> chains b.
Proof. intros CH S v. destruct (CH v) as (r & H). exists r. apply (sm_req _ _ S). auto. Qed.

Lemma run_get st v r s : closed st -> get_type v st = Done r s -> ends (repl st) v r /\ same st s.
Proof.
  intros C H. unfold get_type in H. destruct (get (repl st) v) as [[t R]|] eqn:G; [|discriminate].
  injection H as <- <-. destruct (get_inv _ _ _ _ (cl_repl _ C) G) as (A & B & D & F).
  split; auto. constructor; auto.
Qed.

Lemma run_get_fail st v e s : get_type v st <> Fail e s.
Proof. unfold get_type. destruct (get (repl st) v) as [[? ?]|]; discriminate. Qed.

Lemma replace1 st r new from to s' : closed st -> chains st -> r < len st -> new < len st ->
  ends (repl st) r from -> ends (repl st) new to -> from <> to ->
  replace_one r new st = Done tt s' ->
  vars s' = vars st /\ cons s' = cons st /\ saved s' = saved st /\ tl (repl s') = tl (repl st) /\
  closed s' /\ (forall k q, ends (repl st) k q -> ends (repl s') k (if q =? from then to else q)).
Proof.
  intros C CH Lr Ln Ef Et D H. unfold replace_one, bind in H.
  destruct (get_type r st) as [x s1| | |] eqn:G1; try discriminate.
  apply run_get in G1 as [X1 S1]; auto. assert (x = from) as -> by (eapply ends_det; eauto).
  pose proof (same_closed _ _ C CH S1) as C1.
  destruct (get_type new s1) as [y s2| | |] eqn:G2; try discriminate.
  apply run_get in G2 as [X2 S2]; auto. apply (sm_req _ _ S1) in X2.
  assert (y = to) as -> by (eapply ends_det; eauto).
  pose proof (same_trans _ _ _ S1 S2) as S3.
  pose proof (same_closed _ _ C CH S3) as C3.
  assert (s' = with_repl s2 from to) as ->.
  { change (check_recursion to (with_repl s2 from to) = Done tt s') in H.
    unfold check_recursion in H.
    destruct (check_rec (S (length (vars (with_repl s2 from to)))) (with_repl s2 from to) [] to) as [[|]|];
      [discriminate | congruence | discriminate]. }
  clear H.
  assert (Lf : from < len s2) by (rewrite (same_len _ _ S3); exact (ends_lt _ _ _ C Lr Ef)).
  assert (Lt : to < len s2) by (rewrite (same_len _ _ S3); exact (ends_lt _ _ _ C Ln Et)).
  cbn [vars cons saved repl with_repl set_repl].
  split; [apply (sm_vars _ _ S3)|]. split; [apply (sm_cons _ _ S3)|]. split; [apply (sm_saved _ _ S3)|].
  split; [unfold with_repl; cbn; rewrite insert_tl; apply (sm_tl _ _ S3)|].
  split; [apply closed_with_repl; auto|].
  intros k q K. unfold with_repl; cbn. apply ends_insert.
  - apply (cl_repl _ C3).
  - apply (same_rep _ _ _ S3). apply (ends_rep _ _ _ Ef).
  - apply (same_rep _ _ _ S3). apply (ends_rep _ _ _ Et).
  - auto.
  - apply (sm_req _ _ S3). auto.
Qed.

Lemma ends_root st v : lookup (repl st) v = None -> ends (repl st) v v.
Proof. intros H. exact (ends_here _ _ H). Qed.

Lemma replace1_nofail st r new from to tv e s' : closed st -> chains st ->
  ends (repl st) r from -> ends (repl st) new to -> from <> to ->
  nth_error (vars st) to = Some tv -> tparams tv = [] ->
  replace_one r new st <> Fail e s'.
Proof.
  intros C CH Ef Et D N TP H. unfold replace_one, bind in H.
  destruct (get_type r st) as [x s1|? ?| |] eqn:G1; try discriminate; [|eapply run_get_fail; eauto].
  apply run_get in G1 as [X1 S1]; auto. assert (x = from) as -> by (eapply ends_det; eauto).
  pose proof (same_closed _ _ C CH S1) as C1.
  destruct (get_type new s1) as [y s2|? ?| |] eqn:G2; try discriminate; [|eapply run_get_fail; eauto].
  apply run_get in G2 as [X2 S2]; auto. apply (sm_req _ _ S1) in X2.
  assert (y = to) as -> by (eapply ends_det; eauto).
  pose proof (same_trans _ _ _ S1 S2) as S3. pose proof (same_closed _ _ C CH S3) as C3.
  change (check_recursion to (with_repl s2 from to) = Fail e s') in H.
  unfold check_recursion in H. rewrite check_rec_eq in H. cbv zeta in H.
  assert (K : ends (repl (with_repl s2 from to)) to to).
  { apply ends_root. unfold with_repl. cbn. rewrite lookup_insert by apply (cl_repl _ C3).
    replace (from =? to) with false by (symmetry; apply Nat.eqb_neq; auto).
    apply (same_rep _ _ _ S3), (ends_rep _ _ _ Et). }
  rewrite (resolve_spec _ _ _ K) in H. cbn [vars with_repl set_repl] in H.
  rewrite (sm_vars _ _ S3), N in H. destruct tv as [b ps|trs m]; cbn [tparams] in TP; rewrite TP in H; discriminate.
Qed.

Lemma replace2 st a b tv s' : closed st -> chains st -> ids_lt (len st) tv ->
  a < len st -> b < len st -> lookup (repl st) a = None -> lookup (repl st) b = None -> a <> b ->
  replace_all false [a; b] (len st) (with_var st tv) = Done tt s' -> mg st s' a b tv.
Proof.
  intros C CH I La Lb Ka Kb D H.
  set (s := with_var st tv) in *.
  assert (Cs : closed s) by (apply closed_with_var; auto).
  assert (CHs : chains s) by exact CH.
  assert (Ls : len s = S (len st)) by apply len_with_var.
  assert (Kn : ends (repl s) (len st) (len st)) by (apply ends_root; exact (lookup_fresh st C)).
  cbn [replace_all] in H. unfold bind in H.
  destruct (replace_one a (len st) s) as [u1 s1| | |] eqn:R1; try discriminate. destruct u1.
  assert (Ea : ends (repl s) a a) by (constructor; auto).
  destruct (replace1 s a (len st) a (len st) s1 Cs CHs) as (V1 & C1 & S1 & T1 & CL1 & E1); auto; try lia.
  destruct (replace_one b (len st) s1) as [u2 s2| | |] eqn:R2; try discriminate. destruct u2.
  cbn in H. injection H as <-.
  assert (Eb : ends (repl s1) b b).
  { assert (X : ends (repl s) b b) by (constructor; auto). apply E1 in X.
    replace (b =? a) with false in X by (symmetry; apply Nat.eqb_neq; auto). auto. }
  assert (En : ends (repl s1) (len st) (len st)).
  { apply E1 in Kn. replace (len st =? a) with false in Kn by (symmetry; apply Nat.eqb_neq; lia). auto. }
  assert (CH1 : chains s1) by (intros v; destruct (CHs v) as (q & Q); eauto).
  assert (L1 : len s1 = S (len st)) by (unfold len in *; rewrite V1; auto).
  destruct (replace1 s1 b (len st) b (len st) s2 CL1 CH1) as (V2 & C2 & S2 & T2 & CL2 & E2); auto; try lia.
  constructor; auto; try (rewrite ?C2, ?C1, ?S2, ?S1, ?T2, ?T1; reflexivity).
  - rewrite V2, V1. reflexivity.
  - intros k q Q. assert (Q' : ends (repl s) k q) by exact Q. apply E1, E2 in Q'.
    destruct (q =? a) eqn:A; cbn [orb].
    + replace (len st =? b) with false in Q' by (symmetry; apply Nat.eqb_neq; lia). auto.
    + auto.
Qed.

Lemma replace2_nofail st a b tv e s' : closed st -> chains st -> ids_lt (len st) tv ->
  a < len st -> b < len st -> lookup (repl st) a = None -> lookup (repl st) b = None -> a <> b ->
  tparams tv = [] ->
  replace_all false [a; b] (len st) (with_var st tv) <> Fail e s'.
Proof.
  intros C CH I La Lb Ka Kb D TP H.
  set (s := with_var st tv) in *.
  assert (Cs : closed s) by (apply closed_with_var; auto).
  assert (CHs : chains s) by exact CH.
  assert (Ls : len s = S (len st)) by apply len_with_var.
  assert (Kn : ends (repl s) (len st) (len st)) by (apply ends_root; exact (lookup_fresh st C)).
  cbn [replace_all] in H. unfold bind in H.
  assert (Ea : ends (repl s) a a) by (constructor; auto).
  destruct (replace_one a (len st) s) as [u1 s1|? ?| |] eqn:R1; try discriminate.
  2:{ eapply (replace1_nofail s a (len st) a (len st) tv); eauto; [lia | apply nth_with_var_new]. }
  destruct u1.
  destruct (replace1 s a (len st) a (len st) s1 Cs CHs) as (V1 & C1 & S1 & T1 & CL1 & E1); auto; try lia.
  destruct (replace_one b (len st) s1) as [u2 s2|? ?| |] eqn:R2; try discriminate.
  assert (Eb : ends (repl s1) b b).
  { assert (X : ends (repl s) b b) by (constructor; auto). apply E1 in X.
    replace (b =? a) with false in X by (symmetry; apply Nat.eqb_neq; auto). auto. }
  assert (En : ends (repl s1) (len st) (len st)).
  { apply E1 in Kn. replace (len st =? a) with false in Kn by (symmetry; apply Nat.eqb_neq; lia). auto. }
  assert (CH1 : chains s1) by (intros v; destruct (CHs v) as (q & Q); eauto).
  eapply (replace1_nofail s1 b (len st) b (len st) tv); eauto; [lia|].
  rewrite V1. apply nth_with_var_new.
Qed.

(** ** Scalars and sizes *)

Definition stiff (tv : tvar) : Prop :=
  (exists b, scalar b = true /\ tv = Known b []) \/ tv = Unknown [] MUint.

Inductive join : tvar -> tvar -> tvar -> Prop :=
| j_ku b m : scalar b = true -> kind_fits b m = true -> join (Known b []) (Unknown [] m) (Known b [])
| j_uk b m : scalar b = true -> kind_fits b m = true -> join (Unknown [] m) (Known b []) (Known b [])
| j_uu m1 m2 : unify_meta m1 m2 = Some MUint -> join (Unknown [] m1) (Unknown [] m2) (Unknown [] MUint).

Section Context.
Variable C : context.
Hypothesis declared : forall x, sym C x = SDeclared.
Variables num int_ uint_ : nat.

(** core/ops.spade: [impl<#uint N> Number<N> for int<N>] and [for uint<N>] *)
Definition number_impl : trait_impl := mkImpl num [([], MUint)] [TmV 0] [TmV 0].
Definition num_base (b : base) : Prop := b = BNamed int_ \/ b = BNamed uint_.
Hypothesis numbers : forall b im, In im (impls C b) -> im_name im = num -> im = number_impl /\ num_base b.

Definition shape (tv : tvar) : Prop :=
  match tv with
  | Unknown trs m => trs = [] \/ m = MType /\ exists s, trs = [(num, [s])]
  | Known _ _ => True
  end.

Lemma inner_stiff n st e1 e2 r1 r2 t1 t2 : closed st -> chains st ->
  e1 < len st -> e2 < len st ->
  ends (repl st) e1 r1 -> ends (repl st) e2 r2 ->
  nth_error (vars st) r1 = Some t1 -> nth_error (vars st) r2 = Some t2 ->
  ~ err_id st r1 -> ~ err_id st r2 -> shape t1 -> shape t2 -> stiff t1 \/ stiff t2 ->
  match unify_inner C n e1 e2 st with
  | Done x st' =>
      (same st st' /\ x = r1 /\ exists b, scalar b = true /\ t1 = Known b [] /\ t2 = Known b []) \/
      (r1 = r2 /\ t1 = Unknown [] MUint /\ same (with_var st (Unknown [] MUint)) st' /\ x = len st) \/
      (r1 <> r2 /\ x = len st /\ exists tv, mg st st' r1 r2 tv /\ join t1 t2 tv)
  | Fail _ st' => same st st'
  | _ => True
  end.
Proof.
  intros CL CH L1 L2 E1 E2 N1 N2 NE1 NE2 SH1 SH2 SF.
  destruct n as [|n]; [exact I|]. rewrite unify_inner_eq. unfold bind at 1.
  destruct (get_type e1 st) as [x s1|? ?| |] eqn:G1; auto; [|exfalso; eapply run_get_fail; eauto].
  apply run_get in G1 as [X1 S1]; auto. assert (x = r1) as -> by (eapply ends_det; eauto).
  pose proof (same_closed _ _ CL CH S1) as C1. unfold bind at 1.
  destruct (get_type e2 s1) as [y s2|? ?| |] eqn:G2; auto; [|exfalso; eapply run_get_fail; eauto].
  apply run_get in G2 as [X2 S2]; auto. apply (sm_req _ _ S1) in X2.
  assert (y = r2) as -> by (eapply ends_det; eauto).
  pose proof (same_trans _ _ _ S1 S2) as S3. pose proof (same_closed _ _ CL CH S3) as C3.
  pose proof (same_chains _ _ CH S3) as CH3.
  assert (K1 : lookup (repl s2) r1 = None) by (apply (same_rep _ _ _ S3), (ends_rep _ _ _ E1)).
  assert (K2 : lookup (repl s2) r2 = None) by (apply (same_rep _ _ _ S3), (ends_rep _ _ _ E2)).
  assert (M1 : nth_error (vars s2) r1 = Some t1) by (rewrite (sm_vars _ _ S3); auto).
  assert (M2 : nth_error (vars s2) r2 = Some t2) by (rewrite (sm_vars _ _ S3); auto).
  assert (R1 : r1 < len s2) by (apply nth_error_Some; unfold len; congruence).
  assert (R2 : r2 < len s2) by (apply nth_error_Some; unfold len; congruence).
  pose proof (same_len _ _ S3) as L3.
  assert (MG : forall s' a b tv, mg s2 s' a b tv -> mg st s' a b tv).
  { intros s' a b tv [V N CC S T L]. rewrite (sm_vars _ _ S3) in V. rewrite (sm_cons _ _ S3) in CC.
    rewrite (sm_saved _ _ S3) in S. rewrite (sm_tl _ _ S3) in T. rewrite L3 in N. constructor; auto.
    intros k r Q. apply N. apply (sm_req _ _ S3). auto. }
  unfold after, bind at 1.
  rewrite (resolve_spec _ _ _ (ends_root _ _ K1)), (resolve_spec _ _ _ (ends_root _ _ K2)), M1, M2.
  assert (RPL : forall a b tv, (a = r1 /\ b = r2 \/ a = r2 /\ b = r1) -> r1 <> r2 -> ids_lt (len s2) tv ->
    tparams tv = [] -> join t1 t2 tv ->
    match (replace_all (r1 =? r2) [a; b] (len s2) ;;; ret (len s2)) (with_var s2 tv) with
    | Done x st' =>
      (same st st' /\ x = r1 /\ exists b, scalar b = true /\ t1 = Known b [] /\ t2 = Known b []) \/
      (r1 = r2 /\ t1 = Unknown [] MUint /\ same (with_var st (Unknown [] MUint)) st' /\ x = len st) \/
      (r1 <> r2 /\ x = len st /\ exists tv, mg st st' r1 r2 tv /\ join t1 t2 tv)
    | Fail _ st' => same st st'
    | _ => True
    end).
  { intros a b tv HH D IL TP J. replace (r1 =? r2) with false by (symmetry; apply Nat.eqb_neq; auto).
    unfold bind.
    destruct (replace_all false [a; b] (len s2) (with_var s2 tv)) as [u s4|e s4| |] eqn:RA; auto.
    - right; right. split; auto. split; [auto|]. exists tv. split; auto. destruct u.
      destruct HH as [[-> ->]|[-> ->]]; [|apply mg_sym]; apply MG, replace2; auto.
    - exfalso. revert RA. destruct HH as [[-> ->]|[-> ->]]; apply replace2_nofail; auto. }
  assert (ENS : forall bb ps trs, (scalar bb = true \/ trs = []) ->
     match ensure_impls C (unify_with (unify_inner C n)) n bb ps trs s2 with
     | Done l s => l = [] /\ trs = [] /\ s = s2
     | Fail _ s => s = s2
     | _ => False
     end).
  { intros bb ps trs SC. unfold ensure_impls. destruct (impl_target bb) eqn:IT.
    - destruct SC as [SC| ->]; [destruct bb; discriminate|]. cbn. auto.
    - destruct trs; cbn; auto. }
  assert (KUF : forall bb ps trs m x y, (x = r1 /\ y = r2 \/ x = r2 /\ y = r1) -> r1 <> r2 ->
     (scalar bb = true -> ps = []) -> (scalar bb = true \/ trs = [] /\ m = MUint) -> bb <> BError ->
     (trs = [] -> scalar bb = true -> kind_fits bb m = true -> join t1 t2 (Known bb [])) ->
     match match (l <- ensure_impls C (unify_with (unify_inner C n)) n bb ps trs;;
        ps' <- unify_impls (unify_with (unify_inner C n)) n l ps;;
        (if kind_fits bb m then new <- add_type_var (Known bb ps');; ret (new, [x; y]) else fail EMeta)) s2 with
       | Done a st' => (replace_all (r1 =? r2) (snd a) (fst a) ;;; ret (fst a)) st'
       | Fail e st' => Fail e st' | Panic => Panic | NoFuel => NoFuel end
     with
     | Done x st' =>
      (same st st' /\ x = r1 /\ exists b, scalar b = true /\ t1 = Known b [] /\ t2 = Known b []) \/
      (r1 = r2 /\ t1 = Unknown [] MUint /\ same (with_var st (Unknown [] MUint)) st' /\ x = len st) \/
      (r1 <> r2 /\ x = len st /\ exists tv, mg st st' r1 r2 tv /\ join t1 t2 tv)
     | Fail _ st' => same st st'
     | _ => True
     end).
  { intros bb ps trs m x y HH D PS SC BE J.
    assert (EN : scalar bb = true \/ trs = []) by tauto.
    specialize (ENS bb ps trs EN). unfold bind at 1.
    destruct (ensure_impls C (unify_with (unify_inner C n)) n bb ps trs s2) as [l s|e s| |]; try contradiction.
    2:{ subst s. exact S3. }
    destruct ENS as (-> & -> & ->). cbn [unify_impls]. unfold bind at 1, ret at 1.
    destruct (kind_fits bb m) eqn:KF; [|exact S3].
    assert (SB : scalar bb = true).
    { destruct SC as [SC|[_ ->]]; auto. destruct bb; try discriminate; reflexivity. }
    rewrite (PS SB). unfold bind at 1, add_type_var, ret at 1. cbn [fst snd].
    apply RPL; auto. split; auto. }
  assert (UNK : forall m, ~ stiff (Unknown [] m) \/ m = MUint).
  { intros m. destruct m; auto; left; intros [(b & _ & X)|X]; discriminate. }
  assert (NS : r1 = r2 -> t1 = t2) by congruence.
  destruct t1 as [b1 p1|trs1 m1], t2 as [b2 p2|trs2 m2].
  - (* two known types: one is a scalar *)
    assert (B1 : b1 <> BError) by (intros ->; apply NE1; exists p1; auto).
    assert (B2 : b2 <> BError) by (intros ->; apply NE2; exists p2; auto).
    pose proof (cl_scalar _ C3 _ _ _ M1) as P1. pose proof (cl_scalar _ C3 _ _ _ M2) as P2.
    assert (SC : scalar b1 = true \/ scalar b2 = true).
    { destruct SF as [[(b & SC & X)|X]|[(b & SC & X)|X]]; try discriminate; injection X as -> _; auto. }
    assert (KK : match unify_known C (unify_inner C n) r1 r2 b1 p1 b2 p2 s2 with
       | Done x st' => x = (r1, []) /\ st' = s2 /\ Known b2 p2 = Known b1 p1 /\ p1 = [] /\ scalar b1 = true
       | Fail _ st' => st' = s2 | _ => True end).
    { destruct b1, b2; cbn [unify_known scalar] in *; auto; try congruence; try (destruct SC; discriminate).
      - destruct (z =? z0)%Z eqn:Q; cbn; auto. apply Z.eqb_eq in Q. subst. rewrite P1, P2 by auto. auto.
      - destruct (Bool.eqb b b0) eqn:Q; cbn; auto. apply eqb_prop in Q. subst. rewrite P1, P2 by auto. auto.
      - unfold str_eqb. destruct (list_eq_dec Nat.eq_dec s s0) as [Q|Q]; cbn; auto. subst. rewrite P1, P2 by auto. auto. }
    replace (match b1 with BError => Done (r1, [r2]) s2 | _ => match b2 with BError => Done (r2, [r1]) s2
       | _ => unify_known C (unify_inner C n) r1 r2 b1 p1 b2 p2 s2 end end)
     with (unify_known C (unify_inner C n) r1 r2 b1 p1 b2 p2 s2) in * by (destruct b1, b2; try reflexivity; congruence).
    destruct b1; try congruence; destruct b2; try congruence;
    (match goal with |- context [unify_known ?a ?b ?c ?d ?e ?f ?g ?h ?i] => destruct (unify_known a b c d e f g h i) as [u s4|e0 s4| |] end;
     [destruct KK as (-> & -> & EB & EP & SB); cbn [fst snd replace_all]; cbn; left; split; auto; split; auto;
       eexists; split; [exact SB|]; rewrite EB, EP; auto
     | subst s4; exact S3 | exact I | exact I]).
  - assert (B1 : b1 <> BError) by (intros ->; apply NE1; exists p1; auto).
    assert (D12 : r1 <> r2) by (intros X; apply NS in X; discriminate).
    pose proof (cl_scalar _ C3 _ _ _ M1) as P1.
    replace (match b1 with BError => Done (r1, [r2]) s2 | _ => 
       (l <- ensure_impls C (unify_with (unify_inner C n)) n b1 p1 trs2;;
        ps' <- unify_impls (unify_with (unify_inner C n)) n l p1;;
        (if kind_fits b1 m2 then new <- add_type_var (Known b1 ps');; ret (new, [r1; r2]) else fail EMeta)) s2 end)
     with ((l <- ensure_impls C (unify_with (unify_inner C n)) n b1 p1 trs2;;
        ps' <- unify_impls (unify_with (unify_inner C n)) n l p1;;
        (if kind_fits b1 m2 then new <- add_type_var (Known b1 ps');; ret (new, [r1; r2]) else fail EMeta)) s2)
       by (destruct b1; try reflexivity; congruence).
    apply KUF; auto.
    + destruct SF as [[(b & SC & X)|X]|[(b & SC & X)|X]]; try discriminate.
      * injection X as -> _. auto.
      * injection X as -> ->. auto.
    + intros -> SC KF. rewrite (P1 SC). constructor; auto.
  - assert (B2 : b2 <> BError) by (intros ->; apply NE2; exists p2; auto).
    assert (D12 : r1 <> r2) by (intros X; apply NS in X; discriminate).
    pose proof (cl_scalar _ C3 _ _ _ M2) as P2.
    replace (match b2 with BError => Done (r2, [r1]) s2 | _ => 
       (l <- ensure_impls C (unify_with (unify_inner C n)) n b2 p2 trs1;;
        ps' <- unify_impls (unify_with (unify_inner C n)) n l p2;;
        (if kind_fits b2 m1 then new <- add_type_var (Known b2 ps');; ret (new, [r2; r1]) else fail EMeta)) s2 end)
     with ((l <- ensure_impls C (unify_with (unify_inner C n)) n b2 p2 trs1;;
        ps' <- unify_impls (unify_with (unify_inner C n)) n l p2;;
        (if kind_fits b2 m1 then new <- add_type_var (Known b2 ps');; ret (new, [r2; r1]) else fail EMeta)) s2)
       by (destruct b2; try reflexivity; congruence).
    apply KUF; auto.
    + destruct SF as [[(b & SC & X)|X]|[(b & SC & X)|X]]; try discriminate.
      * injection X as -> ->. auto.
      * injection X as -> _. auto.
    + intros -> SC KF. rewrite (P2 SC). constructor; auto.
  - assert (UU : forall m, unify_meta m1 m2 = Some m -> m = MUint /\ trs1 = [] /\ trs2 = []).
    { destruct SF as [[(b & SC & X)|X]|[(b & SC & X)|X]]; try discriminate; injection X as -> ->;
        intros m UM; cbn in SH1, SH2; [destruct m2 | destruct m1]; try discriminate; injection UM as <-;
        (split; [auto|]); split; auto; destruct SH1 as [|[? ?]]; try discriminate; auto; destruct SH2 as [|[? ?]]; try discriminate; auto. }
    destruct (unify_meta m1 m2) as [m|] eqn:UM; [|exact S3].
    destruct (UU m eq_refl) as (-> & -> & ->). cbn [bind add_type_var ret fst snd].
    unfold bind at 1, add_type_var, ret at 1. cbn [fst snd].
    destruct (Nat.eq_dec r1 r2) as [->|D].
    + assert (m1 = m2) as -> by (specialize (NS eq_refl); congruence).
      assert (m2 = MUint) as -> by (destruct m2; try discriminate; auto).
      rewrite Nat.eqb_refl. cbn. right; left. split; auto. split; auto. split; [|unfold len in L3; auto].
      destruct S3 as [V1 V2 V3 V4 V5 V6]. constructor; cbn; auto. rewrite V1. auto.
    + apply RPL; auto; [exact I | constructor; auto].
Qed.

(** ** Solutions, with the bounds *)

Definition number_of (t s : ty) : Prop := t = TK (BNamed int_) [s] \/ t = TK (BNamed uint_) [s].

Definition holdsT (val : nat -> ty) (i : nat) (tv : tvar) : Prop :=
  match tv with
  | Known b ps => val i = TK b (map val ps)
  | Unknown trs m => has_kind (val i) m /\ forall s, trs = [(num, [s])] -> number_of (val i) (val s)
  end.

Definition SolT (st : state) (val : nat -> ty) : Prop :=
  sol_repl st val /\
  forall i tv, nth_error (vars st) i = Some tv -> lookup (repl st) i = None -> holdsT val i tv.
Definition CSolT (st : state) (val : nat -> ty) : Prop := SolT st val /\ sat val (cons st).

Lemma solT_sol st val : SolT st val -> Sol st val.
Proof.
  intros [A B]. split; auto. intros i tv N L. specialize (B i tv N L).
  destruct tv; cbn in *; tauto.
Qed.

Lemma solT_same a b val : same a b -> SolT b val -> SolT a val.
Proof.
  intros S [A B]. split.
  - intros k r E. apply A. apply (sm_req _ _ S). auto.
  - intros i tv N L. apply B; [rewrite (sm_vars _ _ S); auto | apply (same_rep _ _ _ S); auto].
Qed.

Lemma same_back a b : repl a <> [] -> same a b -> same b a.
Proof. apply same_sym. Qed.

Lemma solT_with_var st tv val : closed st -> SolT (with_var st tv) val -> SolT st val /\ holdsT val (len st) tv.
Proof.
  intros CL [A B]. split.
  - split; auto. intros i x N L. apply B; auto. rewrite nth_with_var_old; auto. apply nth_error_Some. unfold len. congruence.
  - apply B; [apply nth_with_var_new | exact (lookup_fresh st CL)].
Qed.

Lemma mg_nth_old st st' a b tv i : mg st st' a b tv -> i < len st -> nth_error (vars st') i = nth_error (vars st) i.
Proof. intros H L. rewrite (mg_vars _ _ _ _ _ H). apply nth_error_app1. auto. Qed.

Lemma mg_nth_new st st' a b tv : mg st st' a b tv -> nth_error (vars st') (len st) = Some tv.
Proof.
  intros H. rewrite (mg_vars _ _ _ _ _ H), nth_error_app2 by (unfold len; lia).
  unfold len. rewrite Nat.sub_diag. auto.
Qed.

Lemma mg_nth st st' a b tv i x : mg st st' a b tv -> nth_error (vars st') i = Some x ->
  (i < len st /\ nth_error (vars st) i = Some x) \/ (i = len st /\ x = tv).
Proof.
  intros H N. assert (L : i < len st') by (apply nth_error_Some; unfold len; congruence).
  rewrite (mg_len _ _ _ _ _ H) in L. destruct (Nat.eq_dec i (len st)) as [->|D].
  - right. rewrite (mg_nth_new _ _ _ _ _ H) in N. split; congruence.
  - left. split; [lia|]. rewrite (mg_nth_old _ _ _ _ _ _ H) in N by lia. auto.
Qed.

Lemma mg_ends_inv st st' a b tv k r : chains st -> mg st st' a b tv -> ends (repl st') k r ->
  exists q, ends (repl st) k q /\ r = if (q =? a) || (q =? b) then len st else q.
Proof.
  intros CH H E. destruct (CH k) as (q & Q). exists q. split; auto.
  eapply ends_det; [exact E|]. apply (mg_ends _ _ _ _ _ H). auto.
Qed.

Lemma mg_chains st st' a b tv : chains st -> mg st st' a b tv -> chains st'.
Proof. intros CH H v. destruct (CH v) as (q & Q). eexists. apply (mg_ends _ _ _ _ _ H). eauto. Qed.

Lemma mg_rep st st' a b tv i : closed st -> chains st -> a < len st -> b < len st -> mg st st' a b tv ->
  (lookup (repl st') i = None <-> (lookup (repl st) i = None /\ i <> a /\ i <> b)).
Proof.
  intros CL CH La Lb H. split.
  - intros K. assert (E : ends (repl st') i i) by (constructor; auto).
    destruct (mg_ends_inv _ _ _ _ _ _ _ CH H E) as (q & Q & X).
    destruct ((q =? a) || (q =? b)) eqn:B.
    + subst i. pose proof (lookup_fresh _ CL) as F. split; auto. split; lia.
    + subst q. split; [apply (ends_rep _ _ _ Q)|]. apply orb_false_iff in B as [B1 B2].
      apply Nat.eqb_neq in B1, B2. auto.
  - intros (K & A & B). assert (E : ends (repl st) i i) by (constructor; auto).
    apply (mg_ends _ _ _ _ _ H) in E. apply Nat.eqb_neq in A, B. rewrite A, B in E.
    apply (ends_rep _ _ _ E).
Qed.

Lemma mg_sol st st' a b tv ta tb val : closed st -> chains st -> a < len st -> b < len st ->
  lookup (repl st) a = None -> lookup (repl st) b = None ->
  nth_error (vars st) a = Some ta -> nth_error (vars st) b = Some tb ->
  mg st st' a b tv -> SolT st' val ->
  (holdsT val (len st) tv -> val a = val (len st) -> val b = val (len st) -> holdsT val a ta /\ holdsT val b tb) ->
  SolT st val /\ val a = val b /\ val (len st) = val a.
Proof.
  intros CL CH La Lb Ka Kb Na Nb H [A B] HH.
  assert (Va : val a = val (len st)).
  { apply A. pose proof (mg_ends _ _ _ _ _ H a a (ends_root _ _ Ka)) as E. rewrite Nat.eqb_refl in E. exact E. }
  assert (Vb : val b = val (len st)).
  { apply A. pose proof (mg_ends _ _ _ _ _ H b b (ends_root _ _ Kb)) as E. rewrite Nat.eqb_refl, orb_true_r in E. exact E. }
  assert (Hn : holdsT val (len st) tv).
  { apply B; [eapply mg_nth_new; eauto|]. apply (mg_rep _ _ _ _ _ _ CL CH La Lb H).
    split; [exact (lookup_fresh st CL)|]. lia. }
  destruct (HH Hn Va Vb) as [Ha Hb]. split; [|split; congruence].
  split.
  - intros k r E. rewrite (A _ _ (mg_ends _ _ _ _ _ H k r E)).
    destruct ((r =? a) || (r =? b)) eqn:Q; auto. apply orb_true_iff in Q as [Q|Q]; apply Nat.eqb_eq in Q; congruence.
  - intros i x N L. destruct (Nat.eq_dec i a) as [->|Da]; [congruence|].
    destruct (Nat.eq_dec i b) as [->|Db]; [congruence|].
    apply B.
    + rewrite (mg_nth_old _ _ _ _ _ _ H); auto. apply nth_error_Some. unfold len. congruence.
    + apply (mg_rep _ _ _ _ _ _ CL CH La Lb H). auto.
Qed.

(** ** The invariant *)

Definition sizeish (tv : tvar) : Prop := tv = Unknown [] MUint \/ exists z, tv = Known (BInt z) [].
Definition bound (st : state) (u s : nat) : Prop :=
  lookup (repl st) u = None /\ nth_error (vars st) u = Some (Unknown [(num, [s])] MType).
(** who holds on to a variable: a type that has it as a parameter, or the program *)
Definition owns (P : nat -> Prop) (st : state) (o : option nat) (p : nat) : Prop :=
  match o with
  | None => P p
  | Some x => lookup (repl st) x = None /\ exists tv, nth_error (vars st) x = Some tv /\ In p (tparams tv)
  end.
Definition nonerr (tv : tvar) : Prop := forall ps, tv <> Known BError ps.
Definition cnt (tv : tvar) : Prop := forall b ps, tv = Known b ps -> num_base b -> length ps = 1.

(** Nobody but the number itself, and those exempted by [E], holds on to the
    still unknown size of a number. *)
Record G (P : nat -> Prop) (E : nat -> option nat -> Prop) (st : state) : Prop := {
  g_closed : closed st;
  g_chains : chains st;
  g_ids : forall i tv p, nth_error (vars st) i = Some tv -> In p (tparams tv) -> p < len st /\ ~ err_id st p;
  g_ne : forall k r, ends (repl st) k r -> err_id st r -> k = r;
  g_cons : cons_lt (len st) (cons st) /\ forall v e, In (v, e) (cons st) -> ~ err_id st v;
  g_P : forall p, P p -> p < len st /\ ~ err_id st p;
  g_shape : forall i tv, nth_error (vars st) i = Some tv -> shape tv /\ cnt tv;
  g_size : forall u s, bound st u s ->
    exists r tv, ends (repl st) s r /\ nth_error (vars st) r = Some tv /\ sizeish tv;
  g_priv : forall u s r o p, bound st u s -> ends (repl st) s r ->
    nth_error (vars st) r = Some (Unknown [] MUint) -> owns P st o p -> ends (repl st) p r ->
    o = Some u \/ E u o
}.

Lemma G_mono (P P' : nat -> Prop) (E E' : nat -> option nat -> Prop) st :
  (forall p, P' p -> P p) -> (forall u o, E u o -> E' u o) -> G P E st -> G P' E' st.
Proof.
  intros HP HE [A B D F H I J K L]. constructor; auto.
  intros u s r o p X1 X2 X3 X4 X5.
  assert (X6 : owns P st o p) by (destruct o; cbn in *; auto).
  destruct (L u s r o p X1 X2 X3 X6 X5); auto.
Qed.

Lemma same_bound a b u s : same a b -> bound b u s -> bound a u s.
Proof. intros S [A B]. split; [apply (same_rep _ _ _ S); auto | rewrite <- (sm_vars _ _ S); auto]. Qed.
Lemma same_owns P a b o p : same a b -> owns P b o p -> owns P a o p.
Proof.
  intros S. destruct o as [x|]; cbn; auto. intros [A B].
  split; [apply (same_rep _ _ _ S); auto | rewrite <- (sm_vars _ _ S); auto].
Qed.

Lemma G_same P E a b : same a b -> G P E a -> G P E b.
Proof.
  intros S [A B D F H I J K L].
  assert (ER : forall i, err_id b i <-> err_id a i) by (intros; apply same_err; auto).
  pose proof (same_len _ _ S) as LE. pose proof (sm_req _ _ S) as Q. pose proof (sm_vars _ _ S) as V.
  constructor.
  - eapply same_closed; eauto.
  - eapply same_chains; eauto.
  - intros i tv p N IN. rewrite LE, ER. rewrite V in N. eauto.
  - intros k r X Y. apply F; [apply Q; auto | apply ER; auto].
  - rewrite LE, (sm_cons _ _ S). split; [apply H|]. intros v e X. rewrite ER. apply (proj2 H _ _ X).
  - intros p X. rewrite LE, ER. auto.
  - rewrite V. auto.
  - intros u s X. destruct (K u s (same_bound _ _ _ _ S X)) as (r & tv & X1 & X2 & X3).
    exists r, tv. rewrite V. split; auto. apply Q. auto.
  - intros u s r o p X1 X2 X3 X4 X5. rewrite V in X3.
    apply (L u s r o p); auto; [eapply same_bound; eauto | apply Q; auto | eapply same_owns; eauto | apply Q; auto].
Qed.

Lemma G_set_cons P E st c : G P E st -> cons_lt (len st) c -> (forall v e, In (v, e) c -> ~ err_id st v) ->
  G P E (set_cons st c).
Proof.
  intros [A B D F H I J K L] X Y. constructor; auto; try exact J; try exact K; try exact L; try exact D; try exact I.
  destruct A. constructor; auto.
Qed.

(** A new variable *)
Lemma G_with_var (P : nat -> Prop) (E : nat -> option nat -> Prop) st tv : G P E st ->
  nonerr tv -> shape tv -> cnt tv -> ids_lt (len st) tv ->
  (forall p, In p (tparams tv) -> p < len st /\ ~ err_id st p) ->
  (forall s, tv = Unknown [(num, [s])] MType ->
     (exists r t, ends (repl st) s r /\ nth_error (vars st) r = Some t /\ sizeish t) /\
     forall o p r, owns P st o p -> ends (repl st) s r -> ends (repl st) p r ->
       nth_error (vars st) r = Some (Unknown [] MUint) -> E (len st) o) ->
  (forall u s r p, In p (tparams tv) -> bound st u s -> ends (repl st) s r -> ends (repl st) p r ->
       nth_error (vars st) r = Some (Unknown [] MUint) -> E u (Some (len st))) ->
  G P E (with_var st tv).
Proof.
  intros GG NER SH CT IL IN HB HO. pose proof GG as [A B D F H I J K L].
  assert (ER : forall i, err_id (with_var st tv) i -> err_id st i).
  { intros i (ps & X). apply nth_with_var in X as [[_ X]|[_ X]]; [exists ps; auto | exfalso; eapply NER; eauto]. }
  assert (EL : forall k r, ends (repl st) k r -> k < len st -> r < len st) by (intros; eapply ends_lt; eauto).
  constructor.
  - apply closed_with_var; auto.
  - exact B.
  - intros i x p N X. rewrite len_with_var. apply nth_with_var in N as [[_ N]|[_ ->]].
    + destruct (D _ _ _ N X). split; [lia|]. intros Y. apply ER in Y. auto.
    + destruct (IN _ X). split; [lia|]. intros Y. apply ER in Y. auto.
  - intros k r X Y. apply F; auto.
  - rewrite len_with_var. split.
    + unfold cons_lt, small in *. eapply Forall_impl; [|apply (proj1 H)]. cbn. intros [v e] [X Y]. cbn in *. split; [lia|].
      eapply Forall_impl; [|exact Y]. cbn. intros; lia.
    + intros v e X Y. apply ER in Y. eapply (proj2 H); eauto.
  - intros p X. rewrite len_with_var. destruct (I p X). split; [lia|]. intros Y. apply ER in Y. auto.
  - intros i x N. apply nth_with_var in N as [[_ N]|[_ ->]]; eauto.
  - intros u s [X1 X2]. apply nth_with_var in X2 as [[Lu X2]|[-> X2]].
    + destruct (K u s (conj X1 X2)) as (r & t & Y1 & Y2 & Y3). exists r, t. split; [exact Y1|]. split; auto.
      rewrite nth_with_var_old; auto. apply nth_error_Some. unfold len. congruence.
    + destruct (HB s) as [(r & t & Y1 & Y2 & Y3) _]; [auto|]. exists r, t. split; [exact Y1|]. split; auto.
      rewrite nth_with_var_old; auto. apply nth_error_Some. unfold len. congruence.
  - intros u s r o p [X1 X2] X3 X4 X5 X6.
    assert (LS : s < len st).
    { apply nth_with_var in X2 as [[Lu X2]|[-> X2]].
      - apply (D _ _ _ X2). cbn. auto.
      - apply IN. rewrite <- X2. cbn. auto. }
    assert (LR : r < len st) by (eapply EL; [exact X3 | auto]).
    rewrite nth_with_var_old in X4 by auto.
    assert (OW : owns P st o p \/ (o = Some (len st) /\ In p (tparams tv))).
    { destruct o as [x|]; [|left; exact X5]. destruct X5 as (Y1 & t & Y2 & Y3).
      apply nth_with_var in Y2 as [[_ Y2]|[-> ->]]; [left; cbn; eauto | right; auto]. }
    apply nth_with_var in X2 as [[Lu X2]|[-> X2]].
    + assert (X7 : bound st u s) by (split; auto).
      destruct OW as [OW|[-> OW]]; [exact (L u s r o p X7 X3 X4 OW X6)|].
      right. exact (HO u s r p OW X7 X3 X6 X4).
    + destruct OW as [OW|[-> OW]]; [|auto]. right. destruct (HB s) as [_ HB']; auto. eapply HB'; eauto.
Qed.

(** A paramless variable: a copy of a template's variable, a value *)
Definition junk (tv : tvar) : Prop := tparams tv = [] /\ nonerr tv /\ shape tv /\ cnt tv.

Lemma G_junk P E st tv : G P E st -> junk tv -> G P E (with_var st tv).
Proof.
  intros GG (TP & NER & SH & CT). apply G_with_var; auto.
  - destruct tv as [b ps|]; cbn in *; auto. rewrite TP. split; auto.
  - rewrite TP. intros p [].
  - intros s ->. discriminate.
  - rewrite TP. intros u s r p [].
Qed.

(** A merge *)
Definition bound' st a b tv u s : Prop :=
  (u = len st /\ tv = Unknown [(num, [s])] MType) \/ (u <> a /\ u <> b /\ bound st u s).
Definition owns' (P : nat -> Prop) st a b tv (o : option nat) p : Prop :=
  match o with
  | None => P p
  | Some x => (x = len st /\ In p (tparams tv)) \/ (x <> a /\ x <> b /\ owns P st (Some x) p)
  end.

Lemma G_mg (P : nat -> Prop) (E E' : nat -> option nat -> Prop) st st' a b tv ta tb : G P E st -> mg st st' a b tv ->
  a < len st -> b < len st -> lookup (repl st) a = None -> lookup (repl st) b = None ->
  nth_error (vars st) a = Some ta -> nth_error (vars st) b = Some tb -> a <> b ->
  ~ err_id st a -> ~ err_id st b ->
  nonerr tv -> shape tv -> cnt tv ->
  (forall p, In p (tparams tv) -> p < len st /\ ~ err_id st p) ->
  (sizeish ta \/ sizeish tb -> sizeish tv) ->
  (forall s, tv = Unknown [(num, [s])] MType ->
     exists r t, ends (repl st) s r /\ nth_error (vars st) r = Some t /\ sizeish t) ->
  (forall u s o p rs rp, bound' st a b tv u s -> owns' P st a b tv o p ->
     ends (repl st) s rs -> ends (repl st) p rp ->
     (rs = rp /\ rs <> a /\ rs <> b /\ nth_error (vars st) rs = Some (Unknown [] MUint)) \/
     ((rs = a \/ rs = b) /\ (rp = a \/ rp = b) /\ tv = Unknown [] MUint) ->
     o = Some u \/ E' u o) ->
  G P E' st'.
Proof.
  intros GG H La Lb Ka Kb Na Nb D NEa NEb NER SH CT IN SZ HB HP. pose proof GG as [A B F I J K L M N].
  pose proof (mg_len _ _ _ _ _ H) as LE.
  assert (ER : forall i, err_id st' i -> err_id st i).
  { intros i (ps & X). apply (mg_nth _ _ _ _ _ _ _ H) in X as [[_ X]|[_ X]]; [exists ps; eauto | exfalso; eapply NER; eauto]. }
  assert (RP : forall i, lookup (repl st') i = None <-> (lookup (repl st) i = None /\ i <> a /\ i <> b))
    by (intros; eapply mg_rep; eauto).
  assert (SZ' : forall s r t, s < len st -> ends (repl st) s r -> nth_error (vars st) r = Some t -> sizeish t ->
    exists r' t', ends (repl st') s r' /\ nth_error (vars st') r' = Some t' /\ sizeish t').
  { intros s r t Ls X1 X2 X3. pose proof (mg_ends _ _ _ _ _ H _ _ X1) as X4.
    destruct ((r =? a) || (r =? b)) eqn:Q.
    - exists (len st), tv. split; auto. split; [eapply mg_nth_new; eauto|]. apply SZ.
      apply orb_true_iff in Q as [Q|Q]; apply Nat.eqb_eq in Q; subst r; [left|right]; congruence.
    - exists r, t. split; auto. split; auto. erewrite mg_nth_old; eauto. eapply ends_lt; eauto. }
  assert (BD : forall u s, bound st' u s -> bound' st a b tv u s).
  { intros u s [X1 X2]. apply RP in X1 as (X1 & X3 & X4).
    apply (mg_nth _ _ _ _ _ _ _ H) in X2 as [[_ X2]|[X2 X5]]; [right; repeat split; eauto | left; split; [auto | symmetry; eauto]]. }
  assert (BS : forall u s, bound' st a b tv u s -> s < len st).
  { intros u s [[-> ->]|(_ & _ & _ & X)]; [apply IN; cbn; auto | apply (F _ _ _ X); cbn; auto]. }
  constructor.
  - apply (mg_closed _ _ _ _ _ H).
  - eapply mg_chains; eauto.
  - intros i x p X Y. rewrite LE. apply (mg_nth _ _ _ _ _ _ _ H) in X as [[_ X]|[_ ->]].
    + destruct (F _ _ _ X Y). split; [lia|]. intros Z. apply ER in Z. auto.
    + destruct (IN _ Y). split; [lia|]. intros Z. apply ER in Z. auto.
  - intros k r X Y. destruct (mg_ends_inv _ _ _ _ _ _ _ B H X) as (q & Q1 & Q2).
    destruct ((q =? a) || (q =? b)).
    + subst r. apply ER in Y. exfalso. destruct Y as (ps & Y).
      assert (nth_error (vars st) (len st) = None) by (apply nth_error_None; unfold len; lia). congruence.
    + subst q. apply ER in Y. auto.
  - rewrite LE, (mg_cons _ _ _ _ _ H). split.
    + unfold cons_lt, small in *. eapply Forall_impl; [|apply (proj1 J)]. cbn. intros [v e] [X Y]. cbn in *. split; [lia|].
      eapply Forall_impl; [|exact Y]. cbn. intros; lia.
    + intros v e X Y. apply ER in Y. eapply (proj2 J); eauto.
  - intros p X. rewrite LE. destruct (K p X). split; [lia|]. intros Y. apply ER in Y. auto.
  - intros i x X. apply (mg_nth _ _ _ _ _ _ _ H) in X as [[_ X]|[_ ->]]; eauto.
  - intros u s X. apply BD in X. pose proof (BS _ _ X) as Ls. destruct X as [[-> X]|(_ & _ & X)].
    + destruct (HB s X) as (r & t & X1 & X2 & X3). eapply SZ'; eauto.
    + destruct (M u s X) as (r & t & X1 & X2 & X3). eapply SZ'; eauto.
  - intros u s r o p X1 X2 X3 X4 X5. apply BD in X1.
    destruct (mg_ends_inv _ _ _ _ _ _ _ B H X2) as (rs & Q1 & Q2).
    destruct (mg_ends_inv _ _ _ _ _ _ _ B H X5) as (rp & Q3 & Q4).
    assert (Lrs : rs < len st) by (eapply ends_lt; [eauto | eapply BS; eauto | eauto]).
    assert (OW : owns' P st a b tv o p).
    { destruct o as [x|]; [|exact X4]. destruct X4 as (Y1 & t & Y2 & Y3).
      apply RP in Y1 as (Y1 & Y4 & Y5). apply (mg_nth _ _ _ _ _ _ _ H) in Y2 as [[_ Y2]|[-> ->]].
      - right. split; auto. split; auto. cbn. eauto.
      - left. auto. }
    assert (Lrp : rp < len st).
    { eapply ends_lt; [eauto | | eauto]. destruct o as [x|]; [|apply K; exact OW].
      destruct OW as [[-> OW]|(_ & _ & _ & t & O1 & O2)]; [apply IN; auto | eapply F; eauto]. }
    eapply HP; eauto.
    destruct ((rs =? a) || (rs =? b)) eqn:W1, ((rp =? a) || (rp =? b)) eqn:W2.
    + right. apply orb_true_iff in W1, W2. rewrite !Nat.eqb_eq in W1, W2. split; auto. split; auto.
      subst r. rewrite (mg_nth_new _ _ _ _ _ H) in X3. congruence.
    + subst r. subst rp. lia.
    + subst r. subst rs. lia.
    + left. subst r. subst rp. apply orb_false_iff in W1 as [W1 W3]. apply Nat.eqb_neq in W1, W3.
      repeat split; auto. rewrite (mg_nth_old _ _ _ _ _ _ H) in X3; auto.
Qed.

(** ** Steps that only touch scalars and sizes *)

Definition structured (tv : tvar) : Prop :=
  tparams tv <> [] \/ exists b ps, tv = Known b ps /\ scalar b = false.

Record fl (st st' : state) : Prop := {
  fl_ext : exists ext, vars st' = vars st ++ ext /\ Forall junk ext;
  fl_saved : saved st' = saved st;
  fl_tl : tl (repl st') = tl (repl st);
  fl_join : forall k k' r, ends (repl st) k r -> ends (repl st) k' r ->
    exists r', ends (repl st') k r' /\ ends (repl st') k' r';
  fl_scal : forall k r b, ends (repl st) k r -> nth_error (vars st) r = Some (Known b []) -> scalar b = true ->
    exists r', ends (repl st') k r' /\ nth_error (vars st') r' = Some (Known b []);
  fl_root : forall u tv, lookup (repl st) u = None -> nth_error (vars st) u = Some tv -> structured tv ->
    lookup (repl st') u = None;
  fl_sol : forall val, SolT st' val -> SolT st val;
  fl_size : forall k r t, ends (repl st) k r -> nth_error (vars st) r = Some t -> sizeish t ->
    exists r' t', ends (repl st') k r' /\ nth_error (vars st') r' = Some t' /\ sizeish t'
}.

Lemma fl_len a b : fl a b -> len a <= len b.
Proof. intros [(x & X & _) _ _ _ _ _ _]. unfold len. rewrite X, app_length. lia. Qed.

Lemma fl_nth a b i x : fl a b -> nth_error (vars a) i = Some x -> nth_error (vars b) i = Some x.
Proof.
  intros [(y & X & _) _ _ _ _ _ _] N. rewrite X, nth_error_app1; auto. apply nth_error_Some. congruence.
Qed.

Lemma fl_err a b i : fl a b -> i < len a -> ~ err_id a i -> ~ err_id b i.
Proof.
  intros [(y & X & _) _ _ _ _ _ _] L N (ps & Y). apply N. exists ps. rewrite X, nth_error_app1 in Y; auto.
Qed.

Lemma fl_same a b : same a b -> fl a b.
Proof.
  intros S. constructor.
  - exists []. rewrite app_nil_r. split; [apply (sm_vars _ _ S) | constructor].
  - apply (sm_saved _ _ S).
  - apply (sm_tl _ _ S).
  - intros k k' r A B. exists r. split; apply (sm_req _ _ S); auto.
  - intros k r b0 A B _. exists r. split; [apply (sm_req _ _ S); auto | rewrite (sm_vars _ _ S); auto].
  - intros u tv A B _. apply (same_rep _ _ _ S). auto.
  - intros val. apply solT_same. auto.
  - intros k r t A B D. exists r, t. split; [apply (sm_req _ _ S); auto | rewrite (sm_vars _ _ S); auto].
Qed.

Lemma fl_trans a b c : fl a b -> fl b c -> fl a c.
Proof.
  intros F1 F2. pose proof F1 as [(x & X1 & X2) X3 X4 X5 X6 X7 X8 X9]. pose proof F2 as [(y & Y1 & Y2) Y3 Y4 Y5 Y6 Y7 Y8 Y9].
  constructor; try congruence.
  - exists (x ++ y). rewrite Y1, X1, app_assoc. split; auto. apply Forall_app. auto.
  - intros k k' r A B. destruct (X5 _ _ _ A B) as (r' & A' & B'). eauto.
  - intros k r b0 A B S. destruct (X6 _ _ _ A B S) as (r' & A' & B'). eauto.
  - intros u tv A B S. eapply Y7; [eapply X7; eauto | eapply fl_nth; eauto | auto].
  - auto.
  - intros k r t A B S. destruct (X9 _ _ _ A B S) as (r' & t' & A' & B' & S'). eauto.
Qed.

Lemma fl_var st tv : closed st -> junk tv -> fl st (with_var st tv).
Proof.
  intros CL J. constructor; auto.
  - exists [tv]. auto.
  - intros k k' r A B. exists r. auto.
  - intros k r b A B _. exists r. split; auto. rewrite nth_with_var_old; auto. apply nth_error_Some. unfold len. congruence.
  - intros val H. apply solT_with_var in H; tauto.
  - intros k r t A B D. exists r, t. split; auto. split; auto.
    rewrite nth_with_var_old; auto. apply nth_error_Some. unfold len. congruence.
Qed.

Lemma join_shape ta tb tv : join ta tb tv -> shape tv /\ cnt tv.
Proof.
  intros [b m S _|b m S _|m1 m2 _]; split; cbn; auto; intros b0 ps X [Y|Y]; try discriminate; injection X as -> _; subst; discriminate.
Qed.

Lemma join_junk ta tb tv : join ta tb tv -> junk tv.
Proof.
  intros J. destruct (join_shape _ _ _ J) as [SH CT]. revert SH CT.
  destruct J as [b m S _|b m S _|m1 m2 _]; intros SH CT; (split; [auto|]; split; [|auto]); intros ps X; try discriminate;
    injection X as -> _; discriminate.
Qed.

Lemma join_stiff ta tb tv : join ta tb tv -> stiff tv.
Proof. intros [b m S _|b m S _|m1 m2 _]; [left|left|right]; eauto. Qed.

Lemma join_size ta tb tv : join ta tb tv -> sizeish ta \/ sizeish tb -> sizeish tv.
Proof.
  intros [b m S K|b m S K|m1 m2 _] H; [| |left; auto].
  - destruct H as [[H|(z & H)]|[H|(z & H)]]; try discriminate; injection H as ->.
    + right. eauto.
    + destruct b; try discriminate. right; eauto.
  - destruct H as [[H|(z & H)]|[H|(z & H)]]; try discriminate; injection H as ->.
    + destruct b; try discriminate. right; eauto.
    + right. eauto.
Qed.

Lemma join_sol ta tb tv val a b n : join ta tb tv ->
  holdsT val n tv -> val a = val n -> val b = val n -> holdsT val a ta /\ holdsT val b tb.
Proof.
  intros [bb m S K|bb m S K|m1 m2 U] H A B; cbn in *.
  - split; [congruence|]. split; [|intros s X; discriminate]. rewrite B, H. apply fits_kind; auto. destruct bb; discriminate.
  - split; [|congruence]. split; [|intros s X; discriminate]. rewrite A, H. apply fits_kind; auto. destruct bb; discriminate.
  - destruct H as [H _]. apply (kind_meet_inv _ _ _ _ U) in H as [H1 H2]. rewrite A, B.
    split; split; auto; intros s X; discriminate.
Qed.

Lemma join_unknown ta tb tv : join ta tb tv -> tv = Unknown [] MUint ->
  exists m1 m2, ta = Unknown [] m1 /\ tb = Unknown [] m2.
Proof. intros [b m S _|b m S _|m1 m2 _] X; try discriminate. eauto. Qed.

Lemma not_structured_join ta tb tv : join ta tb tv -> ~ structured ta /\ ~ structured tb.
Proof.
  intros [b m S _|b m S _|m1 m2 _]; split; intros [X|(b0 & ps & X & Y)]; try (apply X; reflexivity);
    try discriminate; injection X as -> _; congruence.
Qed.

Lemma fl_mg st st' a b tv ta tb : closed st -> chains st -> a < len st -> b < len st ->
  lookup (repl st) a = None -> lookup (repl st) b = None ->
  nth_error (vars st) a = Some ta -> nth_error (vars st) b = Some tb ->
  mg st st' a b tv -> join ta tb tv -> fl st st'.
Proof.
  intros CL CH La Lb Ka Kb Na Nb H J. constructor.
  - exists [tv]. split; [apply (mg_vars _ _ _ _ _ H)|]. constructor; auto. eapply join_junk; eauto.
  - apply (mg_saved _ _ _ _ _ H).
  - apply (mg_tl _ _ _ _ _ H).
  - intros k k' r A B. eexists. split; apply (mg_ends _ _ _ _ _ H); eauto.
  - intros k r b0 A B S. pose proof (mg_ends _ _ _ _ _ H _ _ A) as E.
    destruct ((r =? a) || (r =? b)) eqn:Q.
    + exists (len st). split; auto. rewrite (mg_nth_new _ _ _ _ _ H). f_equal.
      apply orb_true_iff in Q as [Q|Q]; apply Nat.eqb_eq in Q; subst r.
      * rewrite Na in B. injection B as ->. inversion J; auto.
      * rewrite Nb in B. injection B as ->. inversion J; auto.
    + exists r. split; auto. rewrite (mg_nth_old _ _ _ _ _ _ H); auto. apply nth_error_Some. unfold len. congruence.
  - intros u t A B S. apply (mg_rep _ _ _ _ _ _ CL CH La Lb H). split; auto.
    destruct (not_structured_join _ _ _ J) as [X Y]. split; intros ->; [apply X|apply Y]; congruence.
  - intros val S. refine (proj1 (mg_sol st st' a b tv ta tb val CL CH La Lb Ka Kb Na Nb H S _)).
    intros. eapply join_sol; eauto.
  - intros k r t A B S. pose proof (mg_ends _ _ _ _ _ H _ _ A) as E.
    destruct ((r =? a) || (r =? b)) eqn:Q.
    + exists (len st), tv. split; auto. split; [apply (mg_nth_new _ _ _ _ _ H)|].
      apply (join_size _ _ _ J).
      apply orb_true_iff in Q as [Q|Q]; apply Nat.eqb_eq in Q; subst r; [left|right]; congruence.
    + exists r, t. split; auto. rewrite (mg_nth_old _ _ _ _ _ _ H); auto. apply nth_error_Some. unfold len. congruence.
Qed.

(** equal whatever the solution *)
Definition teqv (st : state) (x y : nat) : Prop :=
  exists r r', ends (repl st) x r /\ ends (repl st) y r' /\
    (r = r' \/ exists b, scalar b = true /\
      nth_error (vars st) r = Some (Known b []) /\ nth_error (vars st) r' = Some (Known b [])).

Lemma fl_teqv a b x y : fl a b -> teqv a x y -> teqv b x y.
Proof.
  intros F (r & r' & A & B & [->|(c & S & X & Y)]).
  - destruct (fl_join _ _ F _ _ _ A B) as (q & Q1 & Q2). exists q, q. auto.
  - destruct (fl_scal _ _ F _ _ _ A X S) as (q & Q1 & Q2). destruct (fl_scal _ _ F _ _ _ B Y S) as (q' & Q3 & Q4).
    exists q, q'. split; auto. split; auto. right. eauto.
Qed.

Lemma teqv_sym st x y : teqv st x y -> teqv st y x.
Proof.
  intros (r & r' & A & B & X). exists r', r. split; auto. split; auto.
  destruct X as [->|(c & S & X & Y)]; auto. right. eauto.
Qed.

Lemma teqv_trans st x y z : teqv st x y -> teqv st y z -> teqv st x z.
Proof.
  intros (r & r' & A & B & X) (q & q' & A' & B' & Y). assert (q = r') as -> by (eapply ends_det; eauto).
  exists r, q'. split; auto. split; auto.
  destruct X as [->|(c & S & X1 & X2)]; auto. destruct Y as [<-|(d & S' & Y1 & Y2)]; [right; eauto|].
  right. exists c. split; auto. split; auto. congruence.
Qed.

Lemma teqv_val st x y val : SolT st val -> teqv st x y -> val x = val y.
Proof.
  intros [A B] (r & r' & E1 & E2 & X). rewrite (A _ _ E1), (A _ _ E2).
  destruct X as [->|(c & S & X1 & X2)]; auto.
  pose proof (B _ _ X1 (ends_rep _ _ _ E1)) as Y1. pose proof (B _ _ X2 (ends_rep _ _ _ E2)) as Y2.
  cbn in *. congruence.
Qed.

(** a value found by a constraint *)
Lemma G_join_known P E st st' a b tv ta tb : G P E st -> mg st st' a b tv -> join ta tb tv -> tv <> Unknown [] MUint ->
  a < len st -> b < len st -> lookup (repl st) a = None -> lookup (repl st) b = None ->
  nth_error (vars st) a = Some ta -> nth_error (vars st) b = Some tb -> a <> b ->
  ~ err_id st a -> ~ err_id st b -> G P E st'.
Proof.
  intros GG H J NU La Lb Ka Kb Na Nb D Ea Eb.
  destruct (join_junk _ _ _ J) as (TP & NER & SH & CT).
  eapply (G_mg P E E st st' a b tv ta tb); eauto.
  - rewrite TP. intros p [].
  - apply (join_size _ _ _ J).
  - intros s ->. discriminate.
  - intros u s o p rs rp X1 X2 X3 X4 [(<- & _ & _ & X5)|(_ & _ & X5)]; [|contradiction].
    assert (X6 : bound st u s) by (destruct X1 as [[_ ->]|(_ & _ & X1)]; [discriminate | auto]).
    assert (X7 : owns P st o p).
    { destruct o as [x|]; auto. destruct X2 as [[_ X2]|(_ & _ & X2)]; auto. rewrite TP in X2. destruct X2. }
    eapply (g_priv _ _ _ GG); eauto.
Qed.

Lemma root_of P E st v : G P E st -> v < len st -> ~ err_id st v ->
  exists r t, ends (repl st) v r /\ r < len st /\ nth_error (vars st) r = Some t /\ ~ err_id st r /\ shape t.
Proof.
  intros GG L N. destruct (g_chains _ _ _ GG v) as (r & E0).
  pose proof (ends_lt _ _ _ (g_closed _ _ _ GG) L E0) as Lr.
  destruct (nth_error (vars st) r) as [t|] eqn:X; [|apply nth_error_None in X; unfold len in *; lia].
  exists r, t. split; auto. split; auto. split; auto. split; [|apply (g_shape _ _ _ GG _ _ X)].
  intros Y. rewrite (g_ne _ _ _ GG _ _ E0 Y) in N. auto.
Qed.

(** two variables end together, still unknown, only if they did before *)
Definition sep (st st' : state) : Prop := forall k k' r, k < len st -> k' < len st ->
  ends (repl st') k r -> ends (repl st') k' r -> nth_error (vars st') r = Some (Unknown [] MUint) ->
  exists q, ends (repl st) k q /\ ends (repl st) k' q /\ nth_error (vars st) q = Some (Unknown [] MUint).

Lemma sep_same a b : same a b -> sep a b.
Proof.
  intros S k k' r _ _ A B N. exists r. rewrite <- (sm_vars _ _ S).
  split; [apply (sm_req _ _ S); auto|]. split; [apply (sm_req _ _ S); auto | auto].
Qed.

Lemma sep_trans a b c : len a <= len b -> sep a b -> sep b c -> sep a c.
Proof.
  intros L S1 S2 k k' r Lk Lk' A B N.
  destruct (S2 k k' r) as (q & Q1 & Q2 & Q3); auto; try lia. apply (S1 k k' q); auto.
Qed.

Lemma sep_var st tv : closed st -> sep st (with_var st tv).
Proof.
  intros CL k k' r Lk Lk' A B N. exists r. split; [exact A|]. split; [exact B|].
  rewrite nth_with_var_old in N; auto. eapply ends_lt; [eauto | exact Lk | exact A].
Qed.

Lemma sep_mg st st' a b tv : closed st -> chains st -> mg st st' a b tv -> tv <> Unknown [] MUint -> sep st st'.
Proof.
  intros CL CH M NU k k' r Lk Lk' A B N.
  destruct (mg_ends_inv _ _ _ _ _ _ _ CH M A) as (q & Q1 & Q2).
  destruct (mg_ends_inv _ _ _ _ _ _ _ CH M B) as (q' & Q3 & Q4).
  assert (Lq : q < len st) by exact (ends_lt _ _ _ CL Lk Q1).
  assert (Lq' : q' < len st) by exact (ends_lt _ _ _ CL Lk' Q3).
  destruct ((q =? a) || (q =? b)).
  - subst r. rewrite (mg_nth_new _ _ _ _ _ M) in N. congruence.
  - subst r. destruct ((q' =? a) || (q' =? b)); [lia|]. subst q'. exists q.
    split; auto. split; auto. rewrite (mg_nth_old _ _ _ _ _ _ M) in N; auto.
Qed.

Lemma infer_known_flat n P E : forall l st, G P E st ->
  (forall v b, In (v, b) l -> v < len st /\ scalar b = true /\ ~ err_id st v) ->
  match infer_known (unify_inner C n) l st with
  | Done _ st' => fl st st' /\ cons st' = cons st /\ G P E st' /\ (forall val, SolT st' val -> given val l) /\ sep st st'
  | Fail _ st' => fl st st' /\ cons st' = cons st /\ G P E st'
  | _ => True
  end.
Proof.
  induction l as [|[v b] l IH]; intros st GG H.
  - cbn. split; [apply fl_same, same_refl, (cl_repl _ (g_closed _ _ _ GG))|]. split; auto. split; auto.
    split; [intros val _ v b [] | apply sep_same, same_refl, (cl_repl _ (g_closed _ _ _ GG))].
  - cbn [infer_known]. unfold bind at 1, add_type_var. unfold bind at 1.
    destruct (H v b (or_introl eq_refl)) as (Lv & Sb & Nv).
    change (set_vars st (vars st ++ [Known b []])) with (with_var st (Known b [])).
    change (length (vars st)) with (len st).
    set (s1 := with_var st (Known b [])).
    assert (JB : junk (Known b [])).
    { split; [reflexivity|]. split; [intros ps X; injection X as -> _; discriminate|]. split; [exact I|].
      intros b0 ps X [Y|Y]; injection X as -> _; subst; discriminate. }
    assert (G1 : G P E s1) by (apply G_junk; auto).
    assert (F1 : fl st s1) by (apply fl_var; [apply (g_closed _ _ _ GG) | auto]).
    assert (Ls : len s1 = S (len st)) by apply len_with_var.
    assert (N1 : nth_error (vars s1) (len st) = Some (Known b [])) by apply nth_with_var_new.
    assert (K1 : lookup (repl s1) (len st) = None) by exact (lookup_fresh st (g_closed _ _ _ GG)).
    assert (E1 : ~ err_id s1 (len st)) by (intros (ps & X); rewrite N1 in X; injection X as -> _; discriminate).
    destruct (root_of P E s1 v G1) as (r & t & R1 & R2 & R3 & R4 & R5); [lia | eapply fl_err; eauto |].
    pose proof (inner_stiff n s1 (len st) v (len st) r (Known b []) t (g_closed _ _ _ G1) (g_chains _ _ _ G1)) as X.
    assert (L1 : len st < len s1) by lia. assert (L2 : v < len s1) by lia.
    specialize (X L1 L2 (ends_root _ _ K1) R1 N1 R3 E1 R4 Logic.I R5).
    specialize (X (or_introl (or_introl (ex_intro _ b (conj Sb eq_refl))))).
    assert (NXT : forall s2, fl s1 s2 -> cons s2 = cons s1 -> G P E s2 -> sep s1 s2 ->
       (forall val, SolT s2 val -> val (len st) = val v) ->
       match infer_known (unify_inner C n) l s2 with
       | Done _ st' => fl st st' /\ cons st' = cons st /\ G P E st' /\ (forall val, SolT st' val -> given val ((v, b) :: l)) /\ sep st st'
       | Fail _ st' => fl st st' /\ cons st' = cons st /\ G P E st'
       | _ => True
       end).
    { intros s2 F2 C2 G2 P2 V2. pose proof (fl_trans _ _ _ F1 F2) as F3. specialize (IH s2 G2).
      assert (HL : forall v b, In (v, b) l -> v < len s2 /\ scalar b = true /\ ~ err_id s2 v).
      { intros v0 b0 Y. destruct (H v0 b0 (or_intror Y)) as (Y1 & Y2 & Y3).
        pose proof (fl_len _ _ F3). split; [lia|]. split; auto. eapply fl_err; eauto. }
      specialize (IH HL). destruct (infer_known (unify_inner C n) l s2) as [u s3|e s3| |]; auto.
      - destruct IH as (F4 & C4 & G4 & V4 & P4). split; [eapply fl_trans; eauto|]. split; [rewrite C4, C2; reflexivity|].
        split; auto. split.
        2:{ eapply sep_trans; [apply (fl_len _ _ F3) | | exact P4].
            eapply sep_trans; [apply (fl_len _ _ F1) | apply sep_var; apply (g_closed _ _ _ GG) | exact P2]. }
        intros val S v0 b0 [Y|Y]; [|eapply V4; eauto]. injection Y as <- <-.
        apply (fl_sol _ _ F4) in S. rewrite <- (V2 _ S). apply (fl_sol _ _ F2) in S.
        apply (proj2 S _ _ N1) in K1. exact K1.
      - destruct IH as (F4 & C4 & G4). split; [eapply fl_trans; eauto|]. split; [rewrite C4, C2; reflexivity|]. auto. }
    destruct (unify_inner C n (len st) v s1) as [x s2|e s2| |]; auto.
    + apply NXT.
      * destruct X as [(S & _)|[(_ & X & _)|(D & _ & tv & M & J)]]; [apply fl_same; auto | discriminate |].
        exact (fl_mg s1 s2 (len st) r tv _ t (g_closed _ _ _ G1) (g_chains _ _ _ G1) L1 R2 K1 (ends_rep _ _ _ R1) N1 R3 M J).
      * destruct X as [(S & _)|[(_ & X & _)|(D & _ & tv & M & J)]]; [apply (sm_cons _ _ S) | discriminate | apply (mg_cons _ _ _ _ _ M)].
      * destruct X as [(S & _)|[(_ & X & _)|(D & _ & tv & M & J)]]; [eapply G_same; eauto | discriminate |].
        refine (G_join_known P E s1 s2 (len st) r tv _ t G1 M J _ L1 R2 K1 (ends_rep _ _ _ R1) N1 R3 D E1 R4).
        inversion J; subst; discriminate.
      * destruct X as [(S & _)|[(_ & X & _)|(D & _ & tv & M & J)]]; [apply sep_same; auto | discriminate |].
        refine (sep_mg s1 s2 (len st) r tv (g_closed _ _ _ G1) (g_chains _ _ _ G1) M _).
        inversion J; subst; discriminate.
      * intros val S2. destruct X as [(S & _ & b' & S' & X1 & X2)|[(_ & X & _)|(D & _ & tv & M & J)]]; [|discriminate|].
        -- apply (solT_same _ _ _ S) in S2. subst t. injection X1 as <-.
           apply (teqv_val s1); auto. exists (len st), r. split; [constructor; auto|]. split; auto. right. eauto.
        -- destruct (mg_sol s1 s2 (len st) r tv (Known b []) t val (g_closed _ _ _ G1) (g_chains _ _ _ G1) L1 R2 K1
             (ends_rep _ _ _ R1) N1 R3 M S2) as (Y1 & Y2 & _); [intros; eapply join_sol; eauto|].
           rewrite Y2. symmetry. apply (proj1 Y1). auto.
    + assert (Q : fl st s2 /\ cons s2 = cons st /\ G P E s2).
      { split; [eapply fl_trans; [exact F1 | apply fl_same; auto]|]. split; [rewrite (sm_cons _ _ X); reflexivity | eapply G_same; eauto]. }
      destruct e; exact Q.
Qed.

Lemma constraint_loop_flat n P E : forall k st, G P E st ->
  match constraint_loop (unify_inner C n) k st with
  | Done _ st' => fl st st' /\ incl (cons st') (cons st) /\ G P E st' /\ (forall val, CSolT st' val -> CSolT st val) /\ sep st st'
  | Fail _ st' => fl st st' /\ G P E st'
  | _ => True
  end.
Proof.
  induction k as [|k IH]; intros st GG; [exact I|].
  cbn [constraint_loop].
  pose proof (update_ok st (g_closed _ _ _ GG) (g_chains _ _ _ GG) (cons st) (proj1 (g_cons _ _ _ GG))) as U.
  destruct (update_constraints st (cons st)) as [[rem known]|]; [|exact I].
  destruct U as (EQ & LR & SUB & KN & LEN).
  set (s1 := set_cons st rem).
  assert (G1 : G P E s1).
  { apply G_set_cons; auto. intros v e X. apply (proj2 (g_cons _ _ _ GG) v e). apply SUB. auto. }
  assert (F1 : fl st s1).
  { constructor; auto.
    - exists []. rewrite app_nil_r. split; auto.
    - intros a a' r X Y. exists r. auto.
    - intros a r b X Y _. exists r. auto.
    - intros a r t X Y Z. exists r, t. auto. }
  assert (Q : known = [] -> fl st s1 /\ incl (cons s1) (cons st) /\ G P E s1 /\ (forall val, CSolT s1 val -> CSolT st val) /\ sep st s1).
  { intros ->. split; auto. split; [exact SUB|]. split; auto. split; [|intros k0 k' r _ _ A B N; exists r; auto].
    intros val [S1 S2]. split; [exact S1|].
    apply EQ; [apply solT_sol; exact S1|]. split; [exact S2|]. intros v b []. }
  destruct known as [|kv known]; [apply Q; auto|]. clear Q. set (kn := kv :: known) in *.
  unfold bind.
  pose proof (infer_known_flat n P E kn s1 G1) as X.
  assert (HL : forall v b, In (v, b) kn -> v < len s1 /\ scalar b = true /\ ~ err_id s1 v).
  { intros v b Y. destruct (KN v b Y) as (Y1 & Y2 & e & Y3). split; auto. split; auto.
    apply (proj2 (g_cons _ _ _ GG) v e Y3). }
  specialize (X HL). destruct (infer_known (unify_inner C n) kn s1) as [u s2|e s2| |]; auto.
  - destruct X as (F2 & C2 & G2 & V2 & P2). specialize (IH s2 G2).
    destruct (constraint_loop (unify_inner C n) k s2) as [u' s3|e s3| |]; auto.
    + destruct IH as (F3 & C3 & G3 & V3 & P3). split; [eapply fl_trans; [exact F1 | eapply fl_trans; eauto]|].
      split; [intros c Y; apply C3 in Y; rewrite C2 in Y; apply SUB; auto|]. split; auto.
      split; [|eapply sep_trans; [|exact P2 | exact P3]; exact (fl_len _ _ F2)].
      intros val S. apply V3 in S as [S1 S2]. rewrite C2 in S2. pose proof (fl_sol _ _ F2 _ S1) as S3.
      split; [exact S3|]. apply EQ; [apply solT_sol; exact S3|]. split; [exact S2 | apply V2; auto].
    + destruct IH as (F3 & G3). split; [eapply fl_trans; [exact F1 | eapply fl_trans; eauto]|]. auto.
  - destruct X as (F2 & C2 & G2). split; auto. eapply fl_trans; eauto.
Qed.

(** ** Looking for an implementation leaves only unused variables behind *)

Definition Etrue (_ : nat) (_ : option nat) : Prop := True.

Record jk (st st' : state) : Prop := {
  jk_ext : exists ext, vars st' = vars st ++ ext /\ Forall junk ext;
  jk_repl : repl st' = repl st;
  jk_cons : cons st' = cons st;
  jk_saved : saved st' = saved st
}.

Lemma jk_refl st : jk st st.
Proof. constructor; auto. exists []. rewrite app_nil_r. auto. Qed.

Lemma jk_trans a b c : jk a b -> jk b c -> jk a c.
Proof.
  intros [(x & X1 & X2) X3 X4 X5] [(y & Y1 & Y2) Y3 Y4 Y5]. constructor; try congruence.
  exists (x ++ y). rewrite Y1, X1, app_assoc. split; auto. apply Forall_app. auto.
Qed.

Lemma jk_G P E st st' : jk st st' -> G P E st -> G P E st' /\ fl st st'.
Proof.
  intros [(ext & V & F) R K S] GG.
  assert (st' = set_vars st (vars st ++ ext)) as -> by (destruct st'; cbn in *; subst; reflexivity).
  clear V R K S. revert st GG. induction F as [|tv ext J F IH]; intros st GG.
  - rewrite app_nil_r. replace (set_vars st (vars st)) with st by (destruct st; reflexivity).
    split; auto. apply fl_same, same_refl. apply (cl_repl _ (g_closed _ _ _ GG)).
  - replace (set_vars st (vars st ++ tv :: ext)) with (set_vars (with_var st tv) (vars (with_var st tv) ++ ext))
      by (unfold with_var, set_vars; cbn; rewrite <- app_assoc; reflexivity).
    pose proof (G_junk _ _ _ _ GG J) as G1. destruct (IH _ G1) as [G2 F2]. split; auto.
    refine (fl_trans _ _ _ _ F2). apply fl_var; auto. apply (g_closed _ _ _ GG).
Qed.

Lemma ends_push R k r : ends ([] :: R) k r <-> ends R k r.
Proof.
  split; intros H; induction H.
  - constructor. exact H.
  - econstructor; [exact H | auto].
  - constructor. exact H.
  - econstructor; [exact H | auto].
Qed.

Definition pushed (st : state) : state := mkState (vars st) ([] :: repl st) (cons st) (cons st :: saved st).

Lemma G_push P E st : G P E st -> G P Etrue (pushed st).
Proof.
  intros [A B D F H I J K L]. destruct A as [A1 A2 A3 A4]. constructor; auto.
  - constructor; auto. cbn. discriminate.
  - intros v. destruct (B v) as (r & X). exists r. apply ends_push. auto.
  - intros k r X Y. apply F; auto. apply ends_push. auto.
  - intros u s X. destruct (K u s X) as (r & tv & X1 & X2 & X3). exists r, tv. split; auto. apply ends_push. auto.
  - intros. right. exact Logic.I.
Qed.

Lemma junk_size : junk (Unknown [] MUint).
Proof.
  split; [reflexivity|]. split; [intros ps X; discriminate|]. split; [left; reflexivity|]. intros b ps X. discriminate.
Qed.

(** one unification with a variable of a template, anything allowed *)
Lemma unify_probe n P st x y rx ty : G P Etrue st -> x < len st -> y < len st -> ~ err_id st x -> ~ err_id st y ->
  ends (repl st) x rx -> nth_error (vars st) rx = Some ty -> stiff ty ->
  match unify_with (unify_inner C n) x y st with
  | Done _ st' => fl st st' /\ G P Etrue st'
  | Fail _ st' => fl st st' /\ G P Etrue st'
  | _ => True
  end.
Proof.
  intros GG Lx Ly Nx Ny Ex Vx SF. unfold unify_with, bind at 1.
  destruct (root_of P Etrue st y GG Ly Ny) as (ry & t & R1 & R2 & R3 & R4 & R5).
  destruct (root_of P Etrue st x GG Lx Nx) as (rx' & t' & Q1 & Q2 & Q3 & Q4 & Q5).
  assert (rx' = rx) as -> by (eapply ends_det; eauto). assert (t' = ty) as -> by congruence.
  pose proof (inner_stiff n st x y rx ry ty t (g_closed _ _ _ GG) (g_chains _ _ _ GG) Lx Ly Ex R1 Vx R3 Q4 R4 Q5 R5 (or_introl SF)) as H.
  destruct (unify_inner C n x y st) as [z s1|e s1| |]; auto.
  2:{ split; [apply fl_same; auto | eapply G_same; eauto]. }
  assert (X : fl st s1 /\ G P Etrue s1).
  { destruct H as [(S & _)|[(_ & _ & S & _)|(D & _ & tv & M & J)]].
    - split; [apply fl_same; auto | eapply G_same; eauto].
    - pose proof (G_junk _ _ _ _ GG junk_size) as G1. split; [|eapply G_same; eauto].
      eapply fl_trans; [apply fl_var; [apply (g_closed _ _ _ GG) | exact junk_size] | apply fl_same; eauto].
    - split; [exact (fl_mg st s1 rx ry tv ty t (g_closed _ _ _ GG) (g_chains _ _ _ GG) Q2 R2 (ends_rep _ _ _ Ex) (ends_rep _ _ _ R1) Vx R3 M J)|].
      destruct (join_junk _ _ _ J) as (TP & NER & SH & CT).
      apply (G_mg P Etrue Etrue st s1 rx ry tv ty t); auto.
      + apply (ends_rep _ _ _ Ex).
      + apply (ends_rep _ _ _ R1).
      + rewrite TP. intros p [].
      + apply (join_size _ _ _ J).
      + intros s ->. discriminate.
      + intros. right. exact I. }
  destruct X as [F1 G1]. unfold bind.
  pose proof (constraint_loop_flat n P Etrue (S (length (cons s1))) s1 G1) as L.
  destruct (constraint_loop (unify_inner C n) (S (length (cons s1))) s1) as [u s2|e s2| |]; auto.
  - destruct L as (F2 & _ & G2 & _ & _). cbn. split; auto. eapply fl_trans; eauto.
  - destruct L as (F2 & G2). split; auto. eapply fl_trans; eauto.
Qed.

Lemma copy_number f st : copy f number_impl (TmV 0) [] st = NoFuel \/
  copy f number_impl (TmV 0) [] st = Done (len st, [(0, len st)]) (with_var st (Unknown [] MUint)).
Proof. destruct f; [left | right]; reflexivity. Qed.

Lemma all_match_number n f P s st : G P Etrue st -> s < len st -> ~ err_id st s ->
  match all_match (unify_with (unify_inner C n)) f number_impl [TmV 0] [s] st with
  | Done _ st' => fl st st' /\ G P Etrue st'
  | Fail _ _ => False
  | _ => True
  end.
Proof.
  intros GG Ls Ns. cbn [all_match]. unfold bind at 1.
  destruct (copy_number f st) as [->| ->]; auto. cbn [fst].
  pose proof (G_junk _ _ _ _ GG junk_size) as G1.
  assert (F1 : fl st (with_var st (Unknown [] MUint))) by (apply fl_var; [apply (g_closed _ _ _ GG) | exact junk_size]).
  set (s1 := with_var st (Unknown [] MUint)) in *.
  pose proof (len_with_var st (Unknown [] MUint)) as L1. fold s1 in L1.
  assert (N1 : nth_error (vars s1) (len st) = Some (Unknown [] MUint)) by apply nth_with_var_new.
  assert (E1 : ends (repl s1) (len st) (len st)) by (constructor; exact (lookup_fresh st (g_closed _ _ _ GG))).
  pose proof (unify_probe n P s1 (len st) s (len st) (Unknown [] MUint) G1) as H.
  assert (L2 : len st < len s1) by lia. assert (L3 : s < len s1) by lia.
  assert (X1 : ~ err_id s1 (len st)) by (intros (ps & X); congruence).
  specialize (H L2 L3 X1 (fl_err _ _ _ F1 Ls Ns) E1 N1 (or_intror eq_refl)).
  destruct (unify_with (unify_inner C n) (len st) s s1) as [z s2|e s2| |]; auto.
  - destruct H as [F2 G2]. cbn. split; auto. eapply fl_trans; eauto.
  - destruct H as [F2 G2]. split; auto. eapply fl_trans; eauto.
Qed.

Lemma matching_number n f P s params : forall ims,
  (forall im, In im ims -> im_name im = num -> im = number_impl /\ exists p, params = [p]) ->
  forall E st, G P E st -> s < len st -> ~ err_id st s ->
  (forall p, In p params -> p < len st /\ ~ err_id st p) ->
  match matching_impls (unify_with (unify_inner C n)) f (num, [s]) params ims st with
  | Done xs st' => jk st st' /\ forall im, In im xs -> In im ims /\ im_name im = num
  | Fail _ _ => False
  | _ => True
  end.
Proof.
  induction ims as [|im ims IH]; intros HI E st GG Ls Ns Hp.
  - cbn. split; [apply jk_refl | intros im []].
  - assert (HI' : forall im, In im ims -> im_name im = num -> im = number_impl /\ exists p, params = [p])
      by (intros; apply HI; [right|]; auto).
    specialize (IH HI'). cbn [matching_impls].
    assert (SK : match matching_impls (unify_with (unify_inner C n)) f (num, [s]) params ims st with
      | Done xs st' => jk st st' /\ forall im0, In im0 xs -> In im0 (im :: ims) /\ im_name im0 = num
      | Fail _ _ => False | _ => True end).
    { specialize (IH E st GG Ls Ns Hp).
      destruct (matching_impls (unify_with (unify_inner C n)) f (num, [s]) params ims st) as [xs s1| | |]; auto.
      destruct IH as [J X]. split; auto. intros im0 Y. destruct (X im0 Y). split; [right|]; auto. }
    destruct (negb (length (im_trait im) =? length (snd (num, [s])))); [exact SK|].
    destruct (im_name im =? fst (num, [s])) eqn:NM; cbn [negb]; [|exact SK].
    cbn [fst] in NM. apply Nat.eqb_eq in NM.
    destruct (HI im (or_introl eq_refl) NM) as [-> (p & ->)]. clear SK.
    cbn [im_trait im_target number_impl snd length Nat.eqb negb].
    unfold bind at 1, checkpoint. fold (pushed st).
    destruct (Hp p (or_introl eq_refl)) as [Lp Np].
    pose proof (G_push _ _ _ GG) as G0.
    pose proof (all_match_number n f P s (pushed st) G0 Ls Ns) as A1. fold number_impl.
    unfold bind at 1.
    destruct (all_match (unify_with (unify_inner C n)) f number_impl [TmV 0] [s] (pushed st)) as [tm s1|e s1| |]; auto.
    destruct A1 as [F1 G1].
    assert (Lp1 : p < len s1) by (pose proof (fl_len _ _ F1); unfold len in *; cbn in *; lia).
    pose proof (all_match_number n f P p s1 G1 Lp1 (fl_err _ _ _ F1 Lp Np)) as A2.
    unfold bind at 1.
    destruct (all_match (unify_with (unify_inner C n)) f number_impl [TmV 0] [p] s1) as [pm s2|e s2| |]; auto.
    destruct A2 as [F2 G2]. pose proof (fl_trans _ _ _ F1 F2) as F3.
    unfold bind at 1, restore. rewrite (fl_saved _ _ F3). cbn [saved pushed].
    set (s3 := mkState (vars s2) (tl (repl s2)) (cons st) (saved st)).
    assert (J3 : jk st s3).
    { destruct (fl_ext _ _ F3) as (ext & X1 & X2). constructor; auto.
      - exists ext. split; auto.
      - cbn. rewrite (fl_tl _ _ F3). reflexivity. }
    destruct (jk_G P E _ _ J3 GG) as [G3 FL3]. pose proof (fl_len _ _ FL3) as L3.
    specialize (IH E s3 G3).
    assert (Ls3 : s < len s3) by lia. assert (Lp3 : p < len s3) by lia.
    assert (Hp3 : forall q, In q [p] -> q < len s3 /\ ~ err_id s3 q).
    { intros q [<-|[]]. split; auto. eapply fl_err; eauto. }
    specialize (IH Ls3 (fl_err _ _ _ FL3 Ls Ns) Hp3). unfold bind at 1.
    destruct (matching_impls (unify_with (unify_inner C n)) f (num, [s]) [p] ims s3) as [xs s4| | |]; auto.
    destruct IH as [J4 X4]. cbn [ret]. split; [eapply jk_trans; eauto|].
    intros im0 Y. assert (Z : im0 = number_impl \/ In im0 xs) by (destruct (tm && pm); [destruct Y; auto | auto]).
    destruct Z as [->|Z]; [split; [left; auto | reflexivity]|]. destruct (X4 _ Z). split; [right|]; auto.
Qed.

Lemma ensure_number n f P E b params s st l st' : G P E st -> s < len st -> ~ err_id st s ->
  (forall p, In p params -> p < len st /\ ~ err_id st p) -> (num_base b -> length params = 1) ->
  ensure_impls C (unify_with (unify_inner C n)) f b params [(num, [s])] st = Done l st' ->
  jk st st' /\ l = [(number_impl, (num, [s]))] /\ num_base b /\ exists p, params = [p].
Proof.
  intros GG Ls Ns Hp CN H. unfold ensure_impls in H. destruct (impl_target b); [|discriminate].
  cbn [ensure_each] in H.
  assert (HI : forall im, In im (impls C b) -> im_name im = num -> im = number_impl /\ exists p, params = [p]).
  { intros im X Y. destruct (numbers _ _ X Y) as [-> NB]. split; auto. specialize (CN NB).
    destruct params as [|p [|q r]]; try discriminate. eauto. }
  pose proof (matching_number n f P s params (impls C b) HI E st GG Ls Ns Hp) as M.
  unfold bind at 1 2 in H.
  destruct (matching_impls (unify_with (unify_inner C n)) f (num, [s]) params (impls C b) st) as [xs s1| | |]; try discriminate.
  destruct M as [J X]. destruct xs as [|im [|im2 xs]]; try discriminate.
  cbn in H. injection H as <- <-.
  destruct (X im (or_introl eq_refl)) as [X1 X2].
  destruct (HI _ X1 X2) as [-> X3]. destruct (numbers _ _ X1 X2) as [_ X4]. auto.
Qed.

(** ** Unifying the sizes of two numbers, or of a number and a known type *)

Lemma unify_size n P (E E' : nat -> option nat -> Prop) st x y rx ry tx ty z st' : G P E st ->
  x < len st -> y < len st -> ~ err_id st x -> ~ err_id st y ->
  ends (repl st) x rx -> nth_error (vars st) rx = Some tx ->
  ends (repl st) y ry -> nth_error (vars st) ry = Some ty ->
  stiff tx \/ stiff ty -> (rx = ry -> tx <> Unknown [] MUint) ->
  (forall u o, E u o -> E' u o) ->
  (forall u s o p rs rp, bound st u s -> owns P st o p -> ends (repl st) s rs -> ends (repl st) p rp ->
     nth_error (vars st) rs = Some (Unknown [] MUint) ->
     (exists m, nth_error (vars st) rp = Some (Unknown [] m)) ->
     (rs = rx /\ rp = ry \/ rs = ry /\ rp = rx) -> o = Some u \/ E' u o) ->
  unify_with (unify_inner C n) x y st = Done z st' ->
  fl st st' /\ incl (cons st') (cons st) /\ G P E' st' /\ teqv st' x y /\ teqv st' z x /\
  z < len st' /\ ~ err_id st' z /\
  forall val, CSolT st' val -> CSolT st val.
Proof.
  intros GG Lx Ly Nx Ny Ex Vx Ey Vy SF DU EE HP H. unfold unify_with, bind at 1 in H.
  destruct (root_of P E st x GG Lx Nx) as (rx' & t' & Q1 & Q2 & Q3 & Q4 & Q5).
  assert (rx' = rx) as -> by (eapply ends_det; eauto). assert (t' = tx) as -> by congruence.
  destruct (root_of P E st y GG Ly Ny) as (ry' & t' & R1 & R2 & R3 & R4 & R5).
  assert (ry' = ry) as -> by (eapply ends_det; eauto). assert (t' = ty) as -> by congruence.
  pose proof (inner_stiff n st x y rx ry tx ty (g_closed _ _ _ GG) (g_chains _ _ _ GG) Lx Ly Ex Ey Vx Vy Q4 R4 Q5 R5 SF) as I.
  destruct (unify_inner C n x y st) as [w s1|e s1| |]; try discriminate.
  assert (X : fl st s1 /\ cons s1 = cons st /\ G P E' s1 /\ teqv s1 x y /\ teqv s1 w x /\ w < len s1 /\ ~ err_id s1 w).
  { destruct I as [(S & -> & b & SB & -> & ->)|[(-> & -> & _)|(D & -> & tv & M & J)]].
    - assert (S1 : fl st s1) by (apply fl_same; auto). split; auto. split; [apply (sm_cons _ _ S)|].
      split; [eapply G_mono; [| |eapply G_same; eauto]; auto|].
      split; [apply (fl_teqv _ _ _ _ S1); exists rx, ry; split; auto; split; auto; right; eauto|].
      split; [apply (fl_teqv _ _ _ _ S1); exists rx, rx; split; auto; constructor; apply (ends_rep _ _ _ Ex)|].
      split; [pose proof (fl_len _ _ S1); lia | eapply fl_err; eauto].
    - exfalso. apply DU; auto.
    - pose proof (fl_mg st s1 rx ry tv tx ty (g_closed _ _ _ GG) (g_chains _ _ _ GG) Q2 R2 (ends_rep _ _ _ Ex) (ends_rep _ _ _ R1) Vx R3 M J) as F1.
      split; auto. split; [apply (mg_cons _ _ _ _ _ M)|].
      destruct (join_junk _ _ _ J) as (TP & NER & SH & CT).
      split.
      { apply (G_mg P E E' st s1 rx ry tv tx ty); auto.
        + apply (ends_rep _ _ _ Ex).
        + apply (ends_rep _ _ _ R1).
        + rewrite TP. intros p [].
        + apply (join_size _ _ _ J).
        + intros s ->. discriminate.
        + intros u s o p rs rp X1 X2 X3 X4 X5.
          assert (X6 : bound st u s) by (destruct X1 as [[_ ->]|(_ & _ & X1)]; [discriminate | auto]).
          assert (X7 : owns P st o p).
          { destruct o as [v|]; auto. destruct X2 as [[_ X2]|(_ & _ & X2)]; auto. rewrite TP in X2. destruct X2. }
          destruct (g_size _ _ _ GG _ _ X6) as (rs' & ts & Y1 & Y2 & Y3).
          assert (rs' = rs) as -> by (eapply ends_det; eauto).
          assert (OLD : rs = rp -> nth_error (vars st) rs = Some (Unknown [] MUint) -> o = Some u \/ E' u o).
          { intros <- Y4. destruct (g_priv _ _ _ GG u s rs o p X6 X3 Y4 X7 X4); auto. }
          destruct X5 as [(Y4 & _ & _ & Y5)|(Y4 & Y5 & Y6)]; [auto|].
          destruct (join_unknown _ _ _ J Y6) as (m1 & m2 & -> & ->).
          assert (Y7 : nth_error (vars st) rs = Some (Unknown [] MUint)).
          { rewrite Y2. f_equal. destruct Y3 as [Y3|(zz & Y3)]; auto. subst ts. exfalso. destruct Y4; subst rs; congruence. }
          destruct (Nat.eq_dec rs rp) as [Y8|Y8]; auto.
          eapply HP; eauto; destruct Y4, Y5; subst; try congruence; eauto. }
      assert (W : ends (repl s1) x (len st) /\ ends (repl s1) y (len st)).
      { split; [pose proof (mg_ends _ _ _ _ _ M _ _ Ex) as Z | pose proof (mg_ends _ _ _ _ _ M _ _ Ey) as Z];
          rewrite Nat.eqb_refl, ?orb_true_r in Z; exact Z. }
      destruct W as [W1 W2].
      split; [exists (len st), (len st); auto|].
      split; [exists (len st), (len st); split; [|auto]; constructor; apply (ends_rep _ _ _ W1)|].
      split; [rewrite (mg_len _ _ _ _ _ M); lia|].
      intros (ps & Z). rewrite (mg_nth_new _ _ _ _ _ M) in Z. injection Z as ->. eapply NER; eauto. }
  destruct X as (F1 & C1 & G1 & T1 & T2 & L1 & N1). unfold bind in H.
  pose proof (constraint_loop_flat n P E' (S (length (cons s1))) s1 G1) as L.
  destruct (constraint_loop (unify_inner C n) (S (length (cons s1))) s1) as [u s2|e s2| |]; try discriminate.
  cbn in H. injection H as <- <-. destruct L as (F2 & C2 & G2 & V2 & _).
  split; [eapply fl_trans; eauto|]. split; [rewrite <- C1; auto|]. split; auto.
  split; [eapply fl_teqv; eauto|]. split; [eapply fl_teqv; eauto|].
  split; [pose proof (fl_len _ _ F2); lia|]. split; [eapply fl_err; eauto|].
  intros val S. apply V2 in S as [S1 S2]. split; [apply (fl_sol _ _ F1); auto | rewrite <- C1; auto].
Qed.

(** ** A call of unification *)

Definition E0 (_ : nat) (_ : option nat) : Prop := False.

Record big (P : nat -> Prop) (st st' : state) (e1 e2 : nat) : Prop := {
  bg_ext : exists ext, vars st' = vars st ++ ext;
  bg_cons : incl (cons st') (cons st);
  bg_G : G P E0 st';
  bg_sol : forall val, CSolT st' val -> CSolT st val /\ val e1 = val e2
}.

Lemma fl_csol st st' val : fl st st' -> cons st' = cons st -> CSolT st' val -> CSolT st val.
Proof. intros F E [A B]. split; [apply (fl_sol _ _ F); auto | rewrite <- E; auto]. Qed.

Lemma teqv_mg st st' a b tv ta tb x y : mg st st' a b tv ->
  nth_error (vars st) a = Some ta -> nth_error (vars st) b = Some tb ->
  (forall c, scalar c = true -> ta <> Known c []) -> (forall c, scalar c = true -> tb <> Known c []) ->
  teqv st x y -> teqv st' x y.
Proof.
  intros M Na Nb Ha Hb (r & r' & A & B & X).
  pose proof (mg_ends _ _ _ _ _ M _ _ A) as A'. pose proof (mg_ends _ _ _ _ _ M _ _ B) as B'.
  eexists _, _. split; [exact A'|]. split; [exact B'|].
  destruct X as [->|(c & S & X & Y)]; auto. right. exists c. split; auto.
  assert (Z : forall q, nth_error (vars st) q = Some (Known c []) ->
    nth_error (vars st') (if (q =? a) || (q =? b) then len st else q) = Some (Known c [])).
  { intros q Q. assert (L : q < len st) by (apply nth_error_Some; unfold len; congruence).
    destruct (q =? a) eqn:Q1.
    { apply Nat.eqb_eq in Q1. subst q. exfalso. apply (Ha c S). congruence. }
    destruct (q =? b) eqn:Q2.
    { apply Nat.eqb_eq in Q2. subst q. exfalso. apply (Hb c S). congruence. }
    cbn. rewrite (mg_nth_old _ _ _ _ _ _ M); auto. }
  auto.
Qed.

Lemma sizeish_stiff t : sizeish t -> stiff t.
Proof. intros [->|(z & ->)]; [right; auto | left; exists (BInt z); auto]. Qed.

Lemma teqv_unknown st x y r : teqv st x y -> ends (repl st) x r ->
  nth_error (vars st) r = Some (Unknown [] MUint) -> ends (repl st) y r.
Proof.
  intros (q & q' & A & B & X) E N. assert (q = r) as -> by (eapply ends_det; eauto).
  destruct X as [->|(c & S & X & Y)]; auto. congruence.
Qed.

Lemma num_base_kind b : num_base b -> kind_fits b MType = true /\ scalar b = false /\ b <> BError.
Proof. intros [->| ->]; cbn; auto; split; auto; split; auto; discriminate. Qed.

Lemma ku_number n P st k u x y b ps s res st1 st' : G P E0 st ->
  k < len st -> u < len st -> lookup (repl st) k = None -> lookup (repl st) u = None ->
  nth_error (vars st) k = Some (Known b ps) -> b <> BError ->
  nth_error (vars st) u = Some (Unknown [(num, [s])] MType) ->
  (x = k /\ y = u \/ x = u /\ y = k) ->
  (l <- ensure_impls C (unify_with (unify_inner C n)) n b ps [(num, [s])] ;;
   ps' <- unify_impls (unify_with (unify_inner C n)) n l ps ;;
   if kind_fits b MType then new <- add_type_var (Known b ps') ;; ret (new, [x; y]) else fail EMeta) st = Done res st1 ->
  replace_all false (snd res) (fst res) st1 = Done tt st' ->
  big P st st' k u.
Proof.
  intros GG Lk Lu Kk Ku Nk NB Nu XY H RA.
  assert (BU : bound st u s) by (split; auto).
  destruct (g_ids _ _ _ GG _ _ s Nu) as [Ls Es]; [cbn; auto|].
  unfold bind at 1 in H.
  destruct (ensure_impls C (unify_with (unify_inner C n)) n b ps [(num, [s])] st) as [l sA| | |] eqn:EN; try discriminate.
  destruct (ensure_number n n P E0 b ps s st l sA GG Ls Es) as (JA & -> & NMB & p & ->); auto.
  { intros q Q. apply (g_ids _ _ _ GG _ _ q Nk). auto. }
  { apply (g_shape _ _ _ GG _ _ Nk). auto. }
  clear EN. destruct (num_base_kind _ NMB) as (KF & SC & _). rewrite KF in H.
  destruct (jk_G P E0 _ _ JA GG) as [GA FA].
  assert (CA : cons sA = cons st) by apply (jk_cons _ _ JA).
  (* the parameter of the trait against a copy of the impl's *)
  cbn [unify_impls snd im_trait im_target number_impl unify_trait_params] in H.
  unfold bind at 1 2 3 in H. fold number_impl in H.
  destruct (copy_number n sA) as [CP|CP]; rewrite CP in H; [discriminate|]. cbn [fst snd] in H.
  set (sB := with_var sA (Unknown [] MUint)) in *.
  set (T := len sA) in *.
  pose proof (G_junk _ _ _ _ GA junk_size) as GB. fold sB in GB.
  assert (FB : fl sA sB) by (apply fl_var; [apply (g_closed _ _ _ GA) | exact junk_size]).
  assert (LB : len sB = S T) by apply len_with_var.
  pose proof (fl_len _ _ FA) as LA.
  assert (FAB : fl st sB) by (eapply fl_trans; eauto).
  assert (NkB : nth_error (vars sB) k = Some (Known b [p])) by (apply (fl_nth _ _ _ _ FAB); auto).
  assert (NuB : nth_error (vars sB) u = Some (Unknown [(num, [s])] MType)) by (apply (fl_nth _ _ _ _ FAB); auto).
  assert (STk : structured (Known b [p])) by (left; discriminate).
  assert (STu : structured (Unknown [(num, [s])] MType)) by (left; discriminate).
  assert (KkB : lookup (repl sB) k = None) by (eapply (fl_root _ _ FAB); eauto).
  assert (KuB : lookup (repl sB) u = None) by (eapply (fl_root _ _ FAB); eauto).
  assert (BB : bound sB u s) by (split; auto).
  destruct (g_size _ _ _ GB _ _ BB) as (rs & ts & X1 & X2 & X3).
  assert (NT : nth_error (vars sB) T = Some (Unknown [] MUint)) by apply nth_with_var_new.
  assert (ET : ends (repl sB) T T) by (apply ends_root; exact (lookup_fresh sA (g_closed _ _ _ GA))).
  assert (LsA : s < len sA) by lia.
  assert (LTs : forall q r, q < len sA -> ends (repl sB) q r -> r < T).
  { intros q r Q1 Q2. eapply ends_lt; [apply (g_closed _ _ _ GA) | exact Q1 | exact Q2]. }
  unfold bind at 1 in H.
  destruct (unify_with (unify_inner C n) s T sB) as [z1 sC| | |] eqn:U1; try discriminate.
  assert (rs < T) as Lrs by (eapply LTs; eauto).
  destruct (unify_size n P E0 E0 sB s T rs T ts (Unknown [] MUint) z1 sC GB) as (FC & CC & GC & TC & _ & _ & _ & VC);
    auto; try lia.
  { eapply fl_err; [exact FAB | |]; auto. }
  { intros (q & Q). congruence. }
  { left. apply sizeish_stiff; auto. }
  { intros u' s' o q rs' rp' Y1 Y2 Y3 Y4 Y5 _ Y6. exfalso.
    assert (Ls' : s' < len sA).
    { destruct Y1 as [_ Y1]. apply nth_with_var in Y1 as [[_ Y1]|[_ Y1]]; [|discriminate].
      apply (g_ids _ _ _ GA _ _ s' Y1). cbn. auto. }
    assert (Lq : q < len sA).
    { destruct o as [v|]; [|apply (g_P _ _ _ GA); exact Y2]. destruct Y2 as (_ & t & Y2 & Y7).
      apply nth_with_var in Y2 as [[_ Y2]|[_ Y2]]; [apply (g_ids _ _ _ GA _ _ _ Y2 Y7) | subst t; destruct Y7]. }
    pose proof (LTs _ _ Ls' Y3). pose proof (LTs _ _ Lq Y4). lia. }
  unfold ret at 1 in H. cbn [unify_target_params] in H. unfold bind at 1 2 in H.
  assert (CP2 : copy n number_impl (TmV 0) [(0, T)] sC = Done (T, [(0, T)]) sC).
  { destruct n; [discriminate | reflexivity]. }
  rewrite CP2 in H. cbn [fst snd] in H. clear CP CP2.
  pose proof (fl_len _ _ FC) as LC.
  assert (NkC : nth_error (vars sC) k = Some (Known b [p])) by (apply (fl_nth _ _ _ _ FC); auto).
  assert (NuC : nth_error (vars sC) u = Some (Unknown [(num, [s])] MType)) by (apply (fl_nth _ _ _ _ FC); auto).
  assert (KkC : lookup (repl sC) k = None) by (eapply (fl_root _ _ FC); eauto).
  assert (KuC : lookup (repl sC) u = None) by (eapply (fl_root _ _ FC); eauto).
  assert (BC : bound sC u s) by (split; auto).
  assert (OK : owns P sC (Some k) p) by (split; [auto|]; exists (Known b [p]); cbn; auto).
  assert (KU : k <> u) by (intros ->; congruence).
  destruct (g_ids _ _ _ GC _ _ p NkC) as [LpC EpC]; [cbn; auto|].
  destruct (root_of P E0 sC p GC LpC EpC) as (rp & tp & P1 & P2 & P3 & P4 & P5).
  assert (LTC : T < len sC) by lia.
  assert (ETC : ~ err_id sC T) by (eapply fl_err; [exact FC | lia | intros (q & Q); congruence]).
  destruct (root_of P E0 sC T GC LTC ETC) as (rT & tT & Q1 & Q2 & Q3 & Q4 & Q5).
  destruct (g_size _ _ _ GC _ _ BC) as (rs2 & ts2 & Z1 & Z2 & Z3).
  assert (ST : stiff tT).
  { destruct TC as (r1 & r2 & W1 & W2 & W3). assert (r1 = rs2) as -> by (eapply ends_det; eauto).
    assert (r2 = rT) as -> by (eapply ends_det; eauto).
    destruct W3 as [->|(c & W3 & W4 & W5)].
    - assert (ts2 = tT) as <- by congruence. apply sizeish_stiff; auto.
    - left. exists c. split; auto. congruence. }
  assert (SAME : nth_error (vars sC) rT = Some (Unknown [] MUint) -> ends (repl sC) s rT).
  { intros W. eapply teqv_unknown; [apply teqv_sym; exact TC | exact Q1 | exact W]. }
  unfold bind at 1 in H.
  destruct (unify_with (unify_inner C n) T p sC) as [w sD| | |] eqn:U2; try discriminate.
  set (E1 := fun (u' : nat) (_ : option nat) => u' = u).
  destruct (unify_size n P E0 E1 sC T p rT rp tT tp w sD GC) as (FD & CD & GD & TD & TW & LW & EW & VD); auto.
  { intros -> ->. destruct (g_priv _ _ _ GC u s rp (Some k) p BC) as [W|[]]; auto. congruence. }
  { intros ? ? []. }
  { intros u' s' o q rs' rp' Y1 Y2 Y3 Y4 Y5 _ Y6. destruct Y6 as [[-> ->]|[-> ->]].
    - right. unfold E1.
      assert (OU : owns P sC (Some u') s') by (destruct Y1; split; eauto; eexists; split; [eauto | cbn; auto]).
      destruct (g_priv _ _ _ GC u s rT (Some u') s' BC) as [W|[]]; auto. congruence.
    - destruct (g_priv _ _ _ GC u' s' rp (Some k) p Y1) as [W|[]]; auto.
      injection W as ->. destruct Y1 as [_ Y1]. congruence. }
  unfold ret at 1, bind at 1 in H. cbn [unify_impls] in H. unfold bind at 1, add_type_var, ret in H.
  injection H as <- <-. cbn [fst snd] in RA.
  change (set_vars sD (vars sD ++ [Known b [w]])) with (with_var sD (Known b [w])) in RA.
  change (length (vars sD)) with (len sD) in RA.
  pose proof (fl_len _ _ FD) as LD.
  assert (NkD : nth_error (vars sD) k = Some (Known b [p])) by (apply (fl_nth _ _ _ _ FD); auto).
  assert (NuD : nth_error (vars sD) u = Some (Unknown [(num, [s])] MType)) by (apply (fl_nth _ _ _ _ FD); auto).
  assert (KkD : lookup (repl sD) k = None) by (eapply (fl_root _ _ FD); eauto).
  assert (KuD : lookup (repl sD) u = None) by (eapply (fl_root _ _ FD); eauto).
  assert (LkD : k < len sD) by lia. assert (LuD : u < len sD) by lia.
  assert (IL : ids_lt (len sD) (Known b [w])) by (split; [auto | congruence]).
  assert (M : mg sD st' k u (Known b [w])).
  { destruct XY as [[-> ->]|[-> ->]]; [|apply mg_sym]; apply replace2; auto; apply GD. }
  assert (OKD : owns P sD (Some k) p) by (split; [auto|]; exists (Known b [p]); cbn; auto).
  assert (TWP : teqv sD w p) by (eapply teqv_trans; eauto).
  assert (TWS : teqv sD w s).
  { eapply teqv_trans; [exact TW|]. apply teqv_sym. eapply fl_teqv; [exact FD | exact TC]. }
  constructor.
  - destruct (fl_ext _ _ FA) as (x1 & V1 & _). destruct (fl_ext _ _ FC) as (x2 & V2 & _). destruct (fl_ext _ _ FD) as (x3 & V3 & _).
    eexists. rewrite (mg_vars _ _ _ _ _ M), V3, V2. unfold sB, with_var, set_vars. cbn [vars]. rewrite V1, <- !app_assoc. reflexivity.
  - rewrite (mg_cons _ _ _ _ _ M). intros c Q. apply CD, CC in Q. cbn in Q. rewrite CA in Q. auto.
  - apply (G_mg P E1 E0 sD st' k u (Known b [w]) (Known b [p]) (Unknown [(num, [s])] MType)); auto.
    + intros (q & Q). rewrite NkD in Q. congruence.
    + intros (q & Q). congruence.
    + intros q Q. congruence.
    + exact I.
    + intros b0 q Q _. injection Q as _ <-. auto.
    + intros q [<-|[]]. auto.
    + intros [[Q|(zz & Q)]|[Q|(zz & Q)]]; try discriminate.
    + intros s0 Q. discriminate.
    + intros u' s' o q rs' rp' Y1 Y2 Y3 Y4 [(<- & Y5 & Y6 & Y7)|(_ & _ & Y5)]; [|discriminate].
      destruct Y1 as [[_ Y1]|(D1 & D2 & Y1)]; [discriminate|].
      destruct o as [v|].
      * destruct Y2 as [[-> [<-|[]]]|(D3 & D4 & Y2)].
        -- exfalso. pose proof (teqv_unknown _ _ _ _ TWP Y4 Y7) as W.
           destruct (g_priv _ _ _ GD u' s' rs' (Some k) p Y1 Y3 Y7 OKD W) as [V|V]; [congruence | exact (D2 V)].
        -- destruct (g_priv _ _ _ GD u' s' rs' (Some v) q Y1 Y3 Y7 Y2 Y4) as [V|V]; [auto | exfalso; exact (D2 V)].
      * destruct (g_priv _ _ _ GD u' s' rs' None q Y1 Y3 Y7 Y2 Y4) as [V|V]; [auto | exfalso; exact (D2 V)].
  - intros val [S1 S2].
    assert (VP : val w = val p).
    { apply (teqv_val st'); auto. eapply teqv_mg; eauto; intros c Sc; congruence. }
    assert (VS : val w = val s).
    { apply (teqv_val st'); auto. eapply teqv_mg; eauto; intros c Sc; congruence. }
    destruct (mg_sol sD st' k u (Known b [w]) _ _ val (g_closed _ _ _ GD) (g_chains _ _ _ GD) LkD LuD KkD KuD NkD NuD M S1)
      as (S3 & Veq & _).
    { cbn [holdsT map]. intros HN Vk Vu. rewrite Vk, Vu, HN, VP. split; auto. split.
      - apply fits_kind; auto.
      - intros s0 Q. injection Q as <-. rewrite <- VP, VS. destruct NMB as [->| ->]; [left|right]; auto. }
    split; auto.
    assert (S4 : CSolT sD val) by (split; [auto | rewrite <- (mg_cons _ _ _ _ _ M); auto]).
    apply VD, VC in S4. apply (fl_csol _ _ _ FAB); auto.
Qed.

Lemma owns_bound P st u s : bound st u s -> owns P st (Some u) s.
Proof. intros [A B]. split; auto. eexists. split; [eauto | cbn; auto]. Qed.

(** a known type and an unknown one without bounds *)
Lemma ku_plain P st k u x y b ps m st' : G P E0 st ->
  k < len st -> u < len st -> lookup (repl st) k = None -> lookup (repl st) u = None ->
  nth_error (vars st) k = Some (Known b ps) -> b <> BError ->
  nth_error (vars st) u = Some (Unknown [] m) -> kind_fits b m = true ->
  (x = k /\ y = u \/ x = u /\ y = k) ->
  replace_all false [x; y] (len st) (with_var st (Known b ps)) = Done tt st' ->
  big P st st' k u.
Proof.
  intros GG Lk Lu Kk Ku Nk NB Nu KF XY RA.
  assert (KU : k <> u) by (intros ->; congruence).
  assert (IL : ids_lt (len st) (Known b ps)).
  { split; [apply (cl_vars _ (g_closed _ _ _ GG) _ _ _ Nk) | apply (cl_scalar _ (g_closed _ _ _ GG) _ _ _ Nk)]. }
  assert (M : mg st st' k u (Known b ps)).
  { destruct XY as [[-> ->]|[-> ->]]; [|apply mg_sym]; apply replace2; auto; apply GG. }
  constructor.
  - eexists. apply (mg_vars _ _ _ _ _ M).
  - rewrite (mg_cons _ _ _ _ _ M). apply incl_refl.
  - apply (G_mg P E0 E0 st st' k u (Known b ps) (Known b ps) (Unknown [] m)); auto.
    + intros (q & Q). rewrite Nk in Q. congruence.
    + intros (q & Q). congruence.
    + intros q Q. congruence.
    + exact I.
    + apply (g_shape _ _ _ GG _ _ Nk).
    + intros q Q. apply (g_ids _ _ _ GG _ _ _ Nk Q).
    + intros [Q|[Q|(zz & Q)]]; auto; [|discriminate]. injection Q as ->.
      destruct b; try discriminate. right. exists z. rewrite (proj2 IL); auto.
    + intros s0 Q. discriminate.
    + intros u' s' o q rs' rp' Y1 Y2 Y3 Y4 [(<- & Y5 & Y6 & Y7)|(_ & _ & Y5)]; [|discriminate].
      destruct Y1 as [[_ Y1]|(D1 & D2 & Y1)]; [discriminate|].
      destruct o as [v|].
      * destruct Y2 as [[-> Y2]|(D3 & D4 & Y2)].
        -- exfalso. assert (W : owns P st (Some k) q) by (split; eauto).
           destruct (g_priv _ _ _ GG u' s' rs' (Some k) q Y1 Y3 Y7 W Y4) as [V|[]]. congruence.
        -- eapply (g_priv _ _ _ GG); eauto.
      * eapply (g_priv _ _ _ GG); eauto.
  - intros val [S1 S2].
    destruct (mg_sol st st' k u (Known b ps) _ _ val (g_closed _ _ _ GG) (g_chains _ _ _ GG) Lk Lu Kk Ku Nk Nu M S1)
      as (S3 & Veq & _).
    { cbn [holdsT]. intros HN Vk Vu. rewrite Vk, Vu, HN. split; auto. split; [apply fits_kind; auto | intros s0 Q; discriminate]. }
    split; auto. split; auto. rewrite <- (mg_cons _ _ _ _ _ M). auto.
Qed.

(** two unknown types without bounds *)
Lemma uu_plain P st a b m1 m2 m e1 e2 st' : G P E0 st ->
  a < len st -> b < len st -> lookup (repl st) a = None -> lookup (repl st) b = None ->
  nth_error (vars st) a = Some (Unknown [] m1) -> nth_error (vars st) b = Some (Unknown [] m2) ->
  unify_meta m1 m2 = Some m -> a <> b -> P e1 -> P e2 -> ends (repl st) e1 a -> ends (repl st) e2 b ->
  replace_all false [a; b] (len st) (with_var st (Unknown [] m)) = Done tt st' ->
  big P st st' a b.
Proof.
  intros GG La Lb Ka Kb Na Nb UM D P1 P2 X1 X2 RA.
  assert (M : mg st st' a b (Unknown [] m)) by (apply replace2; auto; [apply GG | apply GG | exact I]).
  assert (SZ : forall m1 m2, unify_meta m1 m2 = Some m -> m1 = MUint \/ m2 = MUint -> m = MUint).
  { intros [] [] Q [W|W]; try discriminate; cbn in Q; congruence. }
  assert (PUB : forall u s r e, P e -> bound st u s -> ends (repl st) s r -> nth_error (vars st) r = Some (Unknown [] MUint) ->
    ends (repl st) e r -> False).
  { intros u s r e Pe B1 B2 B3 B4. destruct (g_priv _ _ _ GG u s r None e B1 B2 B3 Pe B4) as [V|[]]. discriminate. }
  constructor.
  - eexists. apply (mg_vars _ _ _ _ _ M).
  - rewrite (mg_cons _ _ _ _ _ M). apply incl_refl.
  - apply (G_mg P E0 E0 st st' a b (Unknown [] m) (Unknown [] m1) (Unknown [] m2)); auto.
    + intros (q & Q). congruence.
    + intros (q & Q). congruence.
    + intros q Q. congruence.
    + left. auto.
    + intros b0 q Q. discriminate.
    + intros q [].
    + intros [[Q|(zz & Q)]|[Q|(zz & Q)]]; try discriminate; injection Q as ->; left; f_equal; eapply SZ; eauto.
    + intros s0 Q. discriminate.
    + intros u s o q rs rp Y1 Y2 Y3 Y4 Y5.
      destruct Y1 as [[_ Y1]|(D1 & D2 & Y1)]; [discriminate|].
      destruct Y5 as [(<- & Y5 & Y6 & Y7)|(Y5 & _ & _)].
      * assert (Y8 : owns P st o q) by (destruct o as [v|]; auto; destruct Y2 as [[_ []]|(_ & _ & Y2)]; auto).
        eapply (g_priv _ _ _ GG); eauto.
      * exfalso. destruct (g_size _ _ _ GG _ _ Y1) as (r & t & Z1 & Z2 & Z3).
        assert (r = rs) as -> by (eapply ends_det; eauto).
        destruct Y5 as [-> | ->].
        -- apply (PUB u s a e1); auto. destruct Z3 as [->|(zz & ->)]; congruence.
        -- apply (PUB u s b e2); auto. destruct Z3 as [->|(zz & ->)]; congruence.
  - intros val [S1 S2].
    destruct (mg_sol st st' a b (Unknown [] m) _ _ val (g_closed _ _ _ GG) (g_chains _ _ _ GG) La Lb Ka Kb Na Nb M S1)
      as (S3 & Veq & _).
    { cbn [holdsT]. intros [HN _] Vk Vu. rewrite Vk, Vu. destruct (kind_meet_inv _ _ _ _ UM HN).
      split; split; auto; intros s0 Q; discriminate. }
    split; auto. split; auto. rewrite <- (mg_cons _ _ _ _ _ M). auto.
Qed.

(** a number and an unknown type without bounds *)
Lemma uu_half P st a b m s st' : G P E0 st ->
  a < len st -> b < len st -> lookup (repl st) a = None -> lookup (repl st) b = None ->
  nth_error (vars st) a = Some (Unknown [(num, [s])] MType) -> nth_error (vars st) b = Some (Unknown [] m) ->
  (m = MType \/ m = MAny) -> a <> b ->
  mg st st' a b (Unknown [(num, [s])] MType) ->
  big P st st' a b.
Proof.
  intros GG La Lb Ka Kb Na Nb UM D M.
  assert (BA : bound st a s) by (split; auto). pose proof (owns_bound P _ _ _ BA) as OA.
  constructor.
  - eexists. apply (mg_vars _ _ _ _ _ M).
  - rewrite (mg_cons _ _ _ _ _ M). apply incl_refl.
  - apply (G_mg P E0 E0 st st' a b (Unknown [(num, [s])] MType) (Unknown [(num, [s])] MType) (Unknown [] m)); auto.
    + intros (q & Q). congruence.
    + intros (q & Q). congruence.
    + intros q Q. congruence.
    + right. split; eauto.
    + intros b0 q Q. discriminate.
    + intros q Q. apply (g_ids _ _ _ GG _ _ _ Na Q).
    + intros [[Q|(zz & Q)]|[Q|(zz & Q)]]; try discriminate; injection Q as ->; destruct UM; discriminate.
    + intros s0 Q. injection Q as <-. apply (g_size _ _ _ GG a). auto.
    + intros u s' o q rs rp Y1 Y2 Y3 Y4 [(<- & Y5 & Y6 & Y7)|(_ & _ & Y5)]; [|discriminate].
      destruct Y1 as [[-> Y1]|(D1 & D2 & Y1)].
      * injection Y1 as <-. left. destruct o as [v|].
        -- destruct Y2 as [[-> _]|(D3 & D4 & Y2)]; auto.
           destruct (g_priv _ _ _ GG a s rs (Some v) q BA Y3 Y7 Y2 Y4) as [V|[]]. congruence.
        -- destruct (g_priv _ _ _ GG a s rs None q BA Y3 Y7 Y2 Y4) as [V|[]]. congruence.
      * destruct o as [v|].
        -- destruct Y2 as [[-> [<-|[]]]|(D3 & D4 & Y2)].
           ++ exfalso. destruct (g_priv _ _ _ GG u s' rs (Some a) s Y1 Y3 Y7 OA Y4) as [V|[]]. congruence.
           ++ eapply (g_priv _ _ _ GG); eauto.
        -- eapply (g_priv _ _ _ GG); eauto.
  - intros val [S1 S2].
    destruct (mg_sol st st' a b _ _ _ val (g_closed _ _ _ GG) (g_chains _ _ _ GG) La Lb Ka Kb Na Nb M S1)
      as (S3 & Veq & _).
    { cbn [holdsT]. intros [HN HS] Vk Vu. rewrite Vk, Vu.
      split; split; auto; [|intros s0 Q; discriminate]. destruct UM as [->| ->]; auto.
      destruct (HS s eq_refl) as [Q|Q]; rewrite Q; exact I. }
    split; auto. split; auto. rewrite <- (mg_cons _ _ _ _ _ M). auto.
Qed.

Lemma names_two : forall p1 p2, trait_names [(num, p1)] [(num, p2)] = [num].
Proof.
  intros. unfold trait_names. cbn [fold_right map fst app insert_name]. rewrite Nat.ltb_irrefl, Nat.eqb_refl. reflexivity.
Qed.

(** two numbers *)
Lemma uu_number n P st a b s1 s2 ts st1 st' : G P E0 st ->
  a < len st -> b < len st -> lookup (repl st) a = None -> lookup (repl st) b = None ->
  nth_error (vars st) a = Some (Unknown [(num, [s1])] MType) -> nth_error (vars st) b = Some (Unknown [(num, [s2])] MType) ->
  a <> b ->
  merge_traits (unify_with (unify_inner C n)) [num] [(num, [s1])] [(num, [s2])] st = Done ts st1 ->
  replace_all false [a; b] (len st1) (with_var st1 (Unknown ts MType)) = Done tt st' ->
  big P st st' a b.
Proof.
  intros GG La Lb Ka Kb Na Nb D H RA.
  assert (BA : bound st a s1) by (split; auto). pose proof (owns_bound P _ _ _ BA) as OA.
  assert (BB : bound st b s2) by (split; auto). pose proof (owns_bound P _ _ _ BB) as OB.
  destruct (g_ids _ _ _ GG _ _ s1 Na) as [L1 N1]; [cbn; auto|].
  destruct (g_ids _ _ _ GG _ _ s2 Nb) as [L2 N2]; [cbn; auto|].
  cbn [merge_traits get_trait fst snd] in H. rewrite Nat.eqb_refl in H. cbn [unify_zip snd] in H.
  unfold bind at 1 2 3 in H.
  destruct (unify_with (unify_inner C n) s1 s2 st) as [w sD| | |] eqn:U; try discriminate.
  cbn in H. injection H as <- <-.
  destruct (g_size _ _ _ GG _ _ BA) as (r1 & t1 & X1 & X2 & X3).
  destruct (g_size _ _ _ GG _ _ BB) as (r2 & t2 & Y1 & Y2 & Y3).
  set (E2 := fun (u : nat) (o : option nat) => (u = a \/ u = b) /\ (o = Some a \/ o = Some b)).
  destruct (unify_size n P E0 E2 st s1 s2 r1 r2 t1 t2 w sD GG) as (FD & CD & GD & TD & TW & LW & EW & VD); auto.
  { left. apply sizeish_stiff. auto. }
  { intros -> ->. destruct (g_priv _ _ _ GG a s1 r2 (Some b) s2 BA X1 X2 OB Y1) as [V|[]]. congruence. }
  { intros ? ? []. }
  { intros u s o q rs rp Z1 Z2 Z3 Z4 Z5 (m & Z6) Z7. right.
    destruct Z7 as [[-> ->]|[-> ->]].
    - assert (u = a) as ->.
      { destruct (g_priv _ _ _ GG a s1 r1 (Some u) s BA X1 Z5 (owns_bound _ _ _ _ Z1) Z3) as [V|[]]. congruence. }
      split; auto. right.
      destruct Y3 as [->|(zz & ->)]; [|congruence].
      destruct (g_priv _ _ _ GG b s2 r2 o q BB Y1 Y2 Z2 Z4) as [V|[]]. auto.
    - assert (u = b) as ->.
      { destruct (g_priv _ _ _ GG b s2 r2 (Some u) s BB Y1 Z5 (owns_bound _ _ _ _ Z1) Z3) as [V|[]]. congruence. }
      split; auto. left.
      destruct X3 as [->|(zz & ->)]; [|congruence].
      destruct (g_priv _ _ _ GG a s1 r1 o q BA X1 X2 Z2 Z4) as [V|[]]. auto. }
  pose proof (fl_len _ _ FD) as LD.
  assert (NaD : nth_error (vars sD) a = Some (Unknown [(num, [s1])] MType)) by (apply (fl_nth _ _ _ _ FD); auto).
  assert (NbD : nth_error (vars sD) b = Some (Unknown [(num, [s2])] MType)) by (apply (fl_nth _ _ _ _ FD); auto).
  assert (STa : structured (Unknown [(num, [s1])] MType)) by (left; discriminate).
  assert (STb : structured (Unknown [(num, [s2])] MType)) by (left; discriminate).
  assert (KaD : lookup (repl sD) a = None) by (eapply (fl_root _ _ FD); eauto).
  assert (KbD : lookup (repl sD) b = None) by (eapply (fl_root _ _ FD); eauto).
  assert (LaD : a < len sD) by lia. assert (LbD : b < len sD) by lia.
  assert (M : mg sD st' a b (Unknown [(num, [w])] MType)) by (apply replace2; auto; [apply GD | apply GD | exact I]).
  assert (BAD : bound sD a s1) by (split; auto).
  assert (BBD : bound sD b s2) by (split; auto).
  assert (TWS : teqv sD w s2) by (eapply teqv_trans; eauto).
  constructor.
  - destruct (fl_ext _ _ FD) as (x3 & V3 & _).
    eexists. rewrite (mg_vars _ _ _ _ _ M), V3, <- !app_assoc. reflexivity.
  - rewrite (mg_cons _ _ _ _ _ M). auto.
  - apply (G_mg P E2 E0 sD st' a b (Unknown [(num, [w])] MType) (Unknown [(num, [s1])] MType) (Unknown [(num, [s2])] MType)); auto.
    + intros (q & Q). congruence.
    + intros (q & Q). congruence.
    + intros q Q. congruence.
    + right. eauto.
    + intros b0 q Q. discriminate.
    + intros q [<-|[]]. auto.
    + intros [[Q|(zz & Q)]|[Q|(zz & Q)]]; discriminate.
    + intros s0 Q. injection Q as <-.
      destruct TW as (rw & r' & W1 & W2 & W3).
      destruct (g_size _ _ _ GD _ _ BAD) as (q & t & Q1 & Q2 & Q3).
      assert (r' = q) as -> by (eapply ends_det; eauto).
      destruct W3 as [->|(c & W3 & W4 & W5)]; [eauto|]. exists rw, (Known c []). split; auto. split; auto.
      assert (t = Known c []) as -> by congruence. auto.
    + intros u s' o q rs rp Z1 Z2 Z3 Z4 [(<- & Z5 & Z6 & Z7)|(_ & _ & Z5)]; [|discriminate].
      destruct Z1 as [[-> Z1]|(D1 & D2 & Z1)].
      * injection Z1 as <-. pose proof (teqv_unknown _ _ _ _ TW Z3 Z7) as W. left. destruct o as [v|].
        -- destruct Z2 as [[-> _]|(D3 & D4 & Z2)]; auto.
           destruct (g_priv _ _ _ GD a s1 rs (Some v) q BAD W Z7 Z2 Z4) as [V|[_ [V|V]]]; congruence.
        -- destruct (g_priv _ _ _ GD a s1 rs None q BAD W Z7 Z2 Z4) as [V|[_ [V|V]]]; congruence.
      * destruct o as [v|].
        -- destruct Z2 as [[-> [<-|[]]]|(D3 & D4 & Z2)].
           ++ exfalso. pose proof (teqv_unknown _ _ _ _ TW Z4 Z7) as W.
              destruct (g_priv _ _ _ GD u s' rs (Some a) s1 Z1 Z3 Z7 (owns_bound _ _ _ _ BAD) W) as [V|[[V|V] _]]; congruence.
           ++ destruct (g_priv _ _ _ GD u s' rs (Some v) q Z1 Z3 Z7 Z2 Z4) as [V|[[V|V] _]]; auto; congruence.
        -- destruct (g_priv _ _ _ GD u s' rs None q Z1 Z3 Z7 Z2 Z4) as [V|[[V|V] _]]; auto; congruence.
  - intros val [S1 S2].
    assert (VP : val w = val s1).
    { apply (teqv_val st'); auto. eapply teqv_mg; eauto; intros c Sc; congruence. }
    assert (VS : val w = val s2).
    { apply (teqv_val st'); auto. eapply teqv_mg; eauto; intros c Sc; congruence. }
    destruct (mg_sol sD st' a b _ _ _ val (g_closed _ _ _ GD) (g_chains _ _ _ GD) LaD LbD KaD KbD NaD NbD M S1)
      as (S3 & Veq & _).
    { cbn [holdsT]. intros [HN HS] Vk Vu. rewrite Vk, Vu.
      destruct (HS w eq_refl) as [Q|Q]; rewrite Q; (split; split; [exact I| |exact I|]);
        intros s0 W; injection W as <-; unfold number_of; rewrite <- ?VP, <- ?VS; auto. }
    split; auto. apply VD. split; auto. rewrite <- (mg_cons _ _ _ _ _ M). auto.
Qed.

(** the size of a number against itself *)
Lemma unify_self n P st s r t z st' : G P E0 st -> s < len st -> ~ err_id st s ->
  ends (repl st) s r -> nth_error (vars st) r = Some t -> sizeish t ->
  unify_with (unify_inner C n) s s st = Done z st' ->
  fl st st' /\ incl (cons st') (cons st) /\ G P E0 st' /\ z < len st' /\ ~ err_id st' z /\
  (exists r t, ends (repl st') z r /\ nth_error (vars st') r = Some t /\ sizeish t) /\
  (forall o p r, owns P st' o p -> ends (repl st') z r -> ends (repl st') p r ->
     nth_error (vars st') r <> Some (Unknown [] MUint)) /\
  forall val, CSolT st' val -> CSolT st val.
Proof.
  intros GG Ls Ns Er Nr Sz H.
  destruct Sz as [->|(zz & ->)].
  - unfold unify_with, bind at 1 in H.
    destruct (root_of P E0 st s GG Ls Ns) as (r' & t' & Q1 & Q2 & Q3 & Q4 & Q5).
    assert (r' = r) as -> by (eapply ends_det; eauto). rewrite Nr in Q3. injection Q3 as <-.
    pose proof (inner_stiff n st s s r r _ _ (g_closed _ _ _ GG) (g_chains _ _ _ GG) Ls Ls Er Er Nr Nr Q4 Q4 Q5 Q5
      (or_introl (or_intror eq_refl))) as I.
    destruct (unify_inner C n s s st) as [w s1|e s1| |]; try discriminate.
    destruct I as [(S & -> & b & SB & Q & _)|[(_ & _ & S & ->)|(D & _)]]; [discriminate| |congruence].
    pose proof (G_junk _ _ _ _ GG junk_size) as GB.
    set (s0 := with_var st (Unknown [] MUint)) in *.
    assert (FB : fl st s0) by (apply fl_var; [apply (g_closed _ _ _ GG) | exact junk_size]).
    assert (L0 : len s0 = Datatypes.S (len st)) by apply len_with_var.
    pose proof (G_same _ _ _ _ S GB) as G1. pose proof (fl_same _ _ S) as FS.
    pose proof (same_len _ _ S) as LS.
    unfold bind in H.
    pose proof (constraint_loop_flat n P E0 (Datatypes.S (length (cons s1))) s1 G1) as L.
    destruct (constraint_loop (unify_inner C n) (Datatypes.S (length (cons s1))) s1) as [u s2|e s2| |]; try discriminate.
    cbn in H. injection H as <- <-. destruct L as (F2 & C2 & G2 & V2 & SP).
    assert (F1 : fl s0 s2) by (eapply fl_trans; eauto).
    assert (FT : fl st s2) by (eapply fl_trans; eauto).
    assert (NZ : nth_error (vars s0) (len st) = Some (Unknown [] MUint)) by apply nth_with_var_new.
    assert (EZ : ends (repl s0) (len st) (len st)) by (apply ends_root; exact (lookup_fresh st (g_closed _ _ _ GG))).
    split; auto. split; [intros c Q; apply C2 in Q; rewrite (sm_cons _ _ S) in Q; exact Q|]. split; auto.
    split; [pose proof (fl_len _ _ F1); lia|].
    split; [eapply fl_err; [exact F1 | lia | intros (q & Q); congruence]|].
    split; [eapply (fl_size _ _ F1); [exact EZ | exact NZ | left; auto]|].
    split.
    + intros o p rr O X1 X2 X3.
      assert (Lp : p < len st).
      { destruct o as [v|]; [|apply (g_P _ _ _ GG); exact O]. destruct O as (_ & tv & O1 & O2).
        destruct (fl_ext _ _ FT) as (ext & W1 & W2). rewrite W1 in O1.
        destruct (Nat.lt_ge_cases v (len st)) as [W|W].
        - rewrite nth_error_app1 in O1 by auto. apply (g_ids _ _ _ GG _ _ _ O1 O2).
        - rewrite nth_error_app2 in O1 by auto. apply nth_error_In in O1.
          rewrite Forall_forall in W2. destruct (W2 _ O1) as [W3 _]. rewrite W3 in O2. destruct O2. }
      assert (SP' : sep s0 s2).
      { eapply sep_trans; [| apply sep_same; exact S | exact SP]. lia. }
      destruct (SP' (len st) p rr) as (q & Y1 & Y2 & Y3); auto; try lia.
      assert (q = len st) as -> by (exact (ends_det _ _ _ Y1 _ EZ)).
      pose proof (ends_lt st _ _ (g_closed _ _ _ GG) Lp Y2). lia.
    + intros val W. apply V2 in W as [W1 W2]. rewrite (sm_cons _ _ S) in W2.
      apply (fl_csol _ _ _ FB); auto. split; auto. apply (fl_sol _ _ FS); auto.
  - destruct (unify_size n P E0 E0 st s s r r (Known (BInt zz) []) (Known (BInt zz) []) z st' GG)
      as (FD & CD & GD & TD & TW & LW & EW & VD); auto.
    { left. left. exists (BInt zz). auto. }
    { intros _ Q. discriminate. }
    { intros u s' o q rs rp Y1 Y2 Y3 Y4 Y5 _ [[-> _]|[-> _]]; congruence. }
    destruct (fl_scal _ _ FD _ _ _ Er Nr eq_refl) as (r' & X1 & X2).
    assert (X3 : exists r, ends (repl st') z r /\ nth_error (vars st') r = Some (Known (BInt zz) [])).
    { destruct TW as (a & b & W1 & W2 & W3). assert (b = r') as -> by (eapply ends_det; eauto).
      exists a. split; auto. destruct W3 as [->|(c & _ & W4 & W5)]; congruence. }
    destruct X3 as (rz & X3 & X4).
    split; auto. split; auto. split; auto. split; auto. split; auto.
    split; [exists rz, (Known (BInt zz) []); split; auto; split; auto; right; eauto|].
    split; auto. intros o p rr _ Y1 _ Y2. assert (rr = rz) as -> by (eapply ends_det; eauto). congruence.
Qed.

Lemma uu_self n P st a s ts st1 : G P E0 st -> lookup (repl st) a = None ->
  nth_error (vars st) a = Some (Unknown [(num, [s])] MType) ->
  merge_traits (unify_with (unify_inner C n)) [num] [(num, [s])] [(num, [s])] st = Done ts st1 ->
  big P st (with_var st1 (Unknown ts MType)) a a.
Proof.
  intros GG Ka Na H.
  assert (BA : bound st a s) by (split; auto).
  destruct (g_ids _ _ _ GG _ _ s Na) as [L1 N1]; [cbn; auto|].
  cbn [merge_traits get_trait fst snd] in H. rewrite Nat.eqb_refl in H. cbn [unify_zip snd] in H.
  unfold bind at 1 2 3 in H.
  destruct (unify_with (unify_inner C n) s s st) as [w sD| | |] eqn:U; try discriminate.
  cbn in H. injection H as <- <-.
  destruct (g_size _ _ _ GG _ _ BA) as (r & t & X1 & X2 & X3).
  destruct (unify_self n P st s r t w sD) as (FD & CD & GD & LW & EW & SW & OW & VD); auto.
  destruct (fl_ext _ _ FD) as (ext & V & _).
  constructor.
  - unfold with_var, set_vars. cbn [vars]. rewrite V, <- app_assoc. eauto.
  - exact CD.
  - apply G_with_var; auto.
    + intros q Q. discriminate.
    + right. eauto.
    + intros b0 q Q. discriminate.
    + exact I.
    + intros p [<-|[]]. auto.
    + intros s0 Q. injection Q as <-. split; [exact SW|]. intros o p q Y1 Y2 Y3 Y4. exfalso. eapply OW; eauto.
    + intros u s' q p [<-|[]] Y1 Y2 Y3 Y4. exfalso. exact (OW _ _ _ (owns_bound P _ _ _ Y1) Y3 Y2 Y4).
  - intros val [S1 S2]. split; auto. apply VD. split; auto.
    apply solT_with_var in S1; [tauto | apply (g_closed _ _ _ GD)].
Qed.

Lemma big_junk P st tv a : G P E0 st -> junk tv -> big P st (with_var st tv) a a.
Proof.
  intros GG J. constructor.
  - eexists. reflexivity.
  - apply incl_refl.
  - apply G_junk; auto.
  - intros val [S1 S2]. split; auto. split; auto. apply solT_with_var in S1; [tauto | apply (g_closed _ _ _ GG)].
Qed.

Definition inner_spec (n : nat) : Prop := forall P st e1 e2 r st', G P E0 st -> P e1 -> P e2 ->
  unify_inner C n e1 e2 st = Done r st' -> big P st st' e1 e2.

Lemma params_number n : inner_spec n -> forall p1 p2 P st st', G P E0 st ->
  (forall p, In p p1 \/ In p p2 -> P p) -> length p1 = length p2 ->
  unify_params (unify_inner C n) p1 p2 st = Done tt st' ->
  (exists ext, vars st' = vars st ++ ext) /\ incl (cons st') (cons st) /\ G P E0 st' /\
  forall val, CSolT st' val -> CSolT st val /\ map val p1 = map val p2.
Proof.
  intros OK. induction p1 as [|a p1 IH]; intros [|b p2] P st st' GG HP L H; try discriminate.
  - cbn in H. injection H as <-. split; [exists []; rewrite app_nil_r; auto|].
    split; [apply incl_refl|]. split; auto.
  - cbn [unify_params] in H. unfold bind in H.
    destruct (unify_inner C n a b st) as [x s1| | |] eqn:U; try discriminate.
    apply (OK P _ _ _ _ _ GG) in U; [|apply HP; left; left; auto | apply HP; right; left; auto].
    destruct U as [(e1 & V1) C1 G1 S1].
    assert (HP' : forall p, In p p1 \/ In p p2 -> P p) by (intros p [Q|Q]; apply HP; cbn; auto).
    assert (L' : length p1 = length p2) by (cbn in L; lia).
    destruct (IH p2 P s1 st' G1 HP' L' H) as ((e2 & V2) & C2 & G2 & S2).
    split; [exists (e1 ++ e2); rewrite V2, V1, app_assoc; auto|].
    split; [eapply incl_tran; eauto|]. split; auto.
    intros val S. apply S2 in S as [S E]. apply S1 in S as [S E']. split; auto. cbn. congruence.
Qed.

(** two known types *)
Lemma kk_number n P st a b b1 p1 b2 p2 res st' : inner_spec n -> G P E0 st ->
  lookup (repl st) a = None -> lookup (repl st) b = None ->
  nth_error (vars st) a = Some (Known b1 p1) -> nth_error (vars st) b = Some (Known b2 p2) ->
  unify_known C (unify_inner C n) a b b1 p1 b2 p2 st = Done res st' ->
  snd res = [] /\ big P st st' a b.
Proof.
  intros OK GG Ka Kb Na Nb H.
  assert (EQ : b1 = b2 -> p1 = p2 -> big P st st a b).
  { intros -> ->. constructor; [exists []; rewrite app_nil_r; auto | apply incl_refl | auto |].
    intros val [S1 S2]. split; [split; auto|]. destruct S1 as [_ S1].
    pose proof (S1 _ _ Na Ka) as X. pose proof (S1 _ _ Nb Kb) as Y. cbn in X, Y. congruence. }
  assert (PP : b1 = b2 -> (unify_params_checked (unify_inner C n) p1 p2 ;;; ret (a, [])) st = Done res st' ->
     snd res = [] /\ big P st st' a b).
  { intros -> Q. unfold bind, unify_params_checked in Q.
    destruct (length p1 =? length p2) eqn:L; [|discriminate]. apply Nat.eqb_eq in L.
    destruct (unify_params (unify_inner C n) p1 p2 st) as [u s1| | |] eqn:U; try discriminate.
    cbn in Q. injection Q as <- <-. split; auto. destruct u.
    set (P' := fun p => P p \/ In p p1 \/ In p p2).
    assert (G' : G P' E0 st).
    { destruct GG as [g1 g2 g3 g4 g5 g6 g7 g8 g9]. constructor; auto.
      - intros p [Q|[Q|Q]]; [auto | apply (g3 _ _ p Na Q) | apply (g3 _ _ p Nb Q)].
      - intros u s r o p B1 B2 B3 O B4. destruct o as [v|].
        + eapply (g9 u s r (Some v) p); eauto.
        + destruct O as [O|[O|O]].
          * eapply (g9 u s r None p); eauto.
          * exfalso. destruct (g9 u s r (Some a) p B1 B2 B3) as [V|[]]; auto.
            { split; eauto. } injection V as <-. destruct B1. congruence.
          * exfalso. destruct (g9 u s r (Some b) p B1 B2 B3) as [V|[]]; auto.
            { split; eauto. } injection V as <-. destruct B1. congruence. }
    destruct (params_number n OK p1 p2 P' st s1 G') as (X1 & X2 & X3 & X4); auto.
    { intros p Q. right. auto. }
    constructor; auto.
    - eapply G_mono; [| |exact X3]; auto. intros p Q. left. auto.
    - intros val S. apply X4 in S as [S E]. split; auto. destruct S as [[_ S1] _].
      pose proof (S1 _ _ Na Ka) as X. pose proof (S1 _ _ Nb Kb) as Y. cbn in X, Y. congruence. }
  pose proof (cl_scalar _ (g_closed _ _ _ GG) _ _ _ Na) as C1.
  pose proof (cl_scalar _ (g_closed _ _ _ GG) _ _ _ Nb) as C2.
  destruct b1, b2; cbn [unify_known] in H; try discriminate; try (apply PP; auto; fail).
  - rewrite !declared in H. destruct (n0 =? n1) eqn:Q; [|discriminate]. apply Nat.eqb_eq in Q. subst. apply PP; auto.
  - destruct (z =? z0)%Z eqn:Q; [|discriminate]. apply Z.eqb_eq in Q. subst. cbn in H. injection H as <- <-.
    split; auto. apply EQ; auto. rewrite C1, C2; auto.
  - destruct (Bool.eqb b0 b1) eqn:Q; [|discriminate]. apply eqb_prop in Q. subst. cbn in H. injection H as <- <-.
    split; auto. apply EQ; auto. rewrite C1, C2; auto.
  - unfold str_eqb in H. destruct (list_eq_dec Nat.eq_dec s s0) as [Q|Q]; [|discriminate]. subst. cbn in H. injection H as <- <-.
    split; auto. apply EQ; auto. rewrite C1, C2; auto.
Qed.

Lemma big_sym P st st' a b : big P st st' a b -> big P st st' b a.
Proof.
  intros [A B D F]. constructor; auto. intros val S. destruct (F val S). auto.
Qed.

Lemma no_bounds_impls n b ps st :
  ensure_impls C (unify_with (unify_inner C n)) n b ps [] st = Done [] st.
Proof. unfold ensure_impls. destruct (impl_target b); reflexivity. Qed.

(** Two unknown types *)
Lemma uu_all n P st a b e1 e2 trs1 m1 trs2 m2 res st1 st' : G P E0 st -> P e1 -> P e2 ->
  a < len st -> b < len st -> ends (repl st) e1 a -> ends (repl st) e2 b ->
  lookup (repl st) a = None -> lookup (repl st) b = None ->
  nth_error (vars st) a = Some (Unknown trs1 m1) -> nth_error (vars st) b = Some (Unknown trs2 m2) ->
  shape (Unknown trs1 m1) -> shape (Unknown trs2 m2) ->
  match unify_meta m1 m2 with
  | None => Fail EMeta st
  | Some MType =>
      (ts <- merge_traits (unify_with (unify_inner C n)) (trait_names trs1 trs2) trs1 trs2 ;;
       new <- add_type_var (Unknown ts MType) ;; ret (new, [a; b])) st
  | Some m => (new <- add_type_var (Unknown [] m) ;; ret (new, [a; b])) st
  end = Done res st1 ->
  replace_all (a =? b) (snd res) (fst res) st1 = Done tt st' ->
  big P st st' a b.
Proof.
  intros GG P1 P2 La Lb X1 X2 Ka Kb Na Nb SH1 SH2 H RA.
  assert (JUNK : forall m, junk (Unknown [] m)).
  { intros m. split; [reflexivity|]. split; [intros q Q; discriminate|].
    split; [left; auto | intros b0 q Q; discriminate]. }
  (* both without bounds *)
  assert (PL : forall m, unify_meta m1 m2 = Some m -> trs1 = [] -> trs2 = [] ->
    (new <- add_type_var (Unknown [] m) ;; ret (new, [a; b])) st = Done res st1 -> big P st st' a b).
  { intros m UM -> -> Q. unfold bind, add_type_var, ret in Q. injection Q as <- <-. cbn [fst snd] in RA.
    change (set_vars st (vars st ++ [Unknown [] m])) with (with_var st (Unknown [] m)) in RA.
    destruct (a =? b) eqn:AB.
    - apply Nat.eqb_eq in AB. subst b. cbn in RA. injection RA as <-. apply big_junk; auto.
    - apply Nat.eqb_neq in AB. exact (uu_plain P st a b m1 m2 m e1 e2 st' GG La Lb Ka Kb Na Nb UM AB P1 P2 X1 X2 RA). }
  destruct SH1 as [->|[-> (s1 & ->)]], SH2 as [->|[-> (s2 & ->)]].
  - destruct (unify_meta m1 m2) as [m|] eqn:UM; [|discriminate].
    apply (PL m); auto. destruct m; auto.
  - (* the second is a number *)
    assert (D : a <> b) by (intros ->; congruence).
    apply Nat.eqb_neq in D as D'. rewrite D' in RA.
    destruct (unify_meta m1 MType) as [m|] eqn:UM; [|discriminate].
    assert (UM' : m = MType /\ (m1 = MType \/ m1 = MAny)) by (destruct m1; try discriminate; injection UM as <-; auto).
    destruct UM' as [-> UM'].
    unfold trait_names, bind, add_type_var, ret in H. cbn [fold_right map fst app insert_name merge_traits get_trait find] in H.
    rewrite Nat.eqb_refl in H. injection H as <- <-. cbn [fst snd] in RA.
    change (set_vars st (vars st ++ [Unknown [(num, [s2])] MType])) with (with_var st (Unknown [(num, [s2])] MType)) in RA.
    apply big_sym. eapply uu_half; eauto. apply mg_sym. apply replace2; auto; [apply GG | apply GG | exact I].
  - (* the first is *)
    assert (D : a <> b) by (intros ->; congruence).
    apply Nat.eqb_neq in D as D'. rewrite D' in RA.
    destruct (unify_meta MType m2) as [m|] eqn:UM; [|discriminate].
    assert (UM' : m = MType /\ (m2 = MType \/ m2 = MAny)) by (destruct m2; try discriminate; injection UM as <-; auto).
    destruct UM' as [-> UM'].
    unfold trait_names, bind, add_type_var, ret in H. cbn [fold_right map fst app insert_name merge_traits get_trait find] in H.
    rewrite Nat.eqb_refl in H. injection H as <- <-. cbn [fst snd] in RA.
    change (set_vars st (vars st ++ [Unknown [(num, [s1])] MType])) with (with_var st (Unknown [(num, [s1])] MType)) in RA.
    eapply uu_half; eauto. apply replace2; auto; [apply GG | apply GG | exact I].
  - cbn [unify_meta] in H. rewrite names_two in H. unfold bind at 1 in H.
    destruct (merge_traits (unify_with (unify_inner C n)) [num] [(num, [s1])] [(num, [s2])] st) as [ts sD| | |] eqn:MT;
      try discriminate.
    unfold bind, add_type_var, ret in H. injection H as <- <-. cbn [fst snd] in RA.
    change (set_vars sD (vars sD ++ [Unknown ts MType])) with (with_var sD (Unknown ts MType)) in RA.
    destruct (a =? b) eqn:AB.
    + apply Nat.eqb_eq in AB. subst b. cbn in RA. injection RA as <-.
      rewrite Na in Nb. injection Nb as <-. eapply uu_self; eauto.
    + apply Nat.eqb_neq in AB. eapply uu_number; eauto.
Qed.

Theorem inner_number n : inner_spec n.
Proof.
  induction n as [|n IH]; intros P st e1 e2 res st' GG P1 P2 H; [discriminate|].
  rewrite unify_inner_eq in H. unfold bind at 1 in H.
  destruct (get_type e1 st) as [v1 s1|? ?| |] eqn:T1; try discriminate.
  apply run_get in T1 as [X1 S1]; [|apply GG]. unfold bind at 1 in H.
  pose proof (G_same _ _ _ _ S1 GG) as G1.
  destruct (get_type e2 s1) as [v2 s2|? ?| |] eqn:T2; try discriminate.
  apply run_get in T2 as [X2 S2]; [|apply G1].
  pose proof (same_trans _ _ _ S1 S2) as S3. pose proof (G_same _ _ _ _ S2 G1) as G2.
  apply (sm_req _ _ S2) in X2. assert (Y1 : ends (repl s2) e1 v1) by (apply (sm_req _ _ S3); auto).
  assert (B : big P s2 st' v1 v2).
  2:{ destruct B as [(ext & A1) A2 A3 A4]. constructor; auto.
      - exists ext. rewrite A1, (sm_vars _ _ S3). reflexivity.
      - rewrite <- (sm_cons _ _ S3). auto.
      - intros val S. apply A4 in S as [[S4 S5] S6]. destruct S4 as [S7 S8].
        assert (Q1 := S7 _ _ Y1). assert (Q2 := S7 _ _ X2).
        split; [|congruence]. split; [|rewrite <- (sm_cons _ _ S3); auto].
        apply (solT_same _ _ _ S3). split; auto. }
  destruct (g_P _ _ _ G2 _ P1) as [L1 N1]. destruct (g_P _ _ _ G2 _ P2) as [L2 N2].
  destruct (root_of P E0 s2 e1 G2 L1 N1) as (r1 & t1 & Q1 & Q2 & Q3 & Q4 & Q5).
  assert (r1 = v1) as -> by (exact (ends_det _ _ _ Q1 _ Y1)).
  destruct (root_of P E0 s2 e2 G2 L2 N2) as (r2 & t2 & R1 & R2 & R3 & R4 & R5).
  assert (r2 = v2) as -> by (exact (ends_det _ _ _ R1 _ X2)).
  pose proof (ends_rep _ _ _ Y1) as K1. pose proof (ends_rep _ _ _ X2) as K2.
  clear S1 S2 S3 G1 X1 T1 T2 || idtac. clear Q1 R1.
  unfold after in H. unfold bind at 1 in H.
  rewrite (resolve_spec _ _ _ (ends_root _ _ K1)), (resolve_spec _ _ _ (ends_root _ _ K2)), Q3, R3 in H.
  assert (NB1 : forall b ps, t1 = Known b ps -> b <> BError) by (intros b ps -> ->; apply Q4; exists ps; auto).
  assert (NB2 : forall b ps, t2 = Known b ps -> b <> BError) by (intros b ps -> ->; apply R4; exists ps; auto).
  assert (END : forall w sA, (replace_all (v1 =? v2) (snd w) (fst w) ;;; ret (fst w)) sA = Done res st' ->
      replace_all (v1 =? v2) (snd w) (fst w) sA = Done tt st').
  { intros w sA Q. unfold bind in Q.
    destruct (replace_all (v1 =? v2) (snd w) (fst w) sA) as [[] sB| | |]; try discriminate.
    cbn in Q. injection Q as _ <-. reflexivity. }
  destruct t1 as [b1 p1|trs1 m1], t2 as [b2 p2|trs2 m2].
  - specialize (NB1 _ _ eq_refl). specialize (NB2 _ _ eq_refl).
    assert (H' : match unify_known C (unify_inner C n) v1 v2 b1 p1 b2 p2 s2 with
       | Done a st1 => (replace_all (v1 =? v2) (snd a) (fst a) ;;; ret (fst a)) st1
       | Fail e st1 => Fail e st1 | Panic => Panic | NoFuel => NoFuel end = Done res st').
    { destruct b1; try congruence; destruct b2; try congruence; exact H. }
    clear H. destruct (unify_known C (unify_inner C n) v1 v2 b1 p1 b2 p2 s2) as [w sA| | |] eqn:UK; try discriminate.
    apply END in H'.
    destruct (kk_number n P s2 v1 v2 b1 p1 b2 p2 w sA IH G2 K1 K2 Q3 R3 UK) as [W B].
    rewrite W in H'. cbn in H'. injection H' as <-. exact B.
  - specialize (NB1 _ _ eq_refl).
    assert (D : v1 <> v2) by (intros ->; congruence). apply Nat.eqb_neq in D as D'.
    assert (H' : match (l <- ensure_impls C (unify_with (unify_inner C n)) n b1 p1 trs2;;
        ps' <- unify_impls (unify_with (unify_inner C n)) n l p1;;
        (if kind_fits b1 m2 then new <- add_type_var (Known b1 ps');; ret (new, [v1; v2]) else fail EMeta)) s2 with
       | Done a st1 => (replace_all (v1 =? v2) (snd a) (fst a) ;;; ret (fst a)) st1
       | Fail e st1 => Fail e st1 | Panic => Panic | NoFuel => NoFuel end = Done res st').
    { destruct b1; try congruence; exact H. }
    clear H. destruct R5 as [->|[-> (s & ->)]].
    + unfold bind at 1 in H'. rewrite no_bounds_impls in H'. cbn [unify_impls] in H'. unfold bind at 1, ret at 1 in H'.
      destruct (kind_fits b1 m2) eqn:KF; [|discriminate].
      unfold bind at 1, add_type_var, ret at 1 in H'. apply END in H'. cbn [fst snd] in H'. rewrite D' in H'.
      eapply ku_plain; [exact G2|exact Q2|exact R2|exact K1|exact K2|exact Q3|exact NB1|exact R3|exact KF|left; split; reflexivity|].
      exact H'.
    + match type of H' with match ?X with _ => _ end = _ => destruct X as [w sA| | |] eqn:EN; try discriminate end.
      apply END in H'. rewrite D' in H'.
      eapply ku_number; [exact G2|exact Q2|exact R2|exact K1|exact K2|exact Q3|exact NB1|exact R3|left; split; reflexivity|exact EN|].
      exact H'.
  - specialize (NB2 _ _ eq_refl).
    assert (D : v1 <> v2) by (intros ->; congruence). apply Nat.eqb_neq in D as D'.
    assert (H' : match (l <- ensure_impls C (unify_with (unify_inner C n)) n b2 p2 trs1;;
        ps' <- unify_impls (unify_with (unify_inner C n)) n l p2;;
        (if kind_fits b2 m1 then new <- add_type_var (Known b2 ps');; ret (new, [v2; v1]) else fail EMeta)) s2 with
       | Done a st1 => (replace_all (v1 =? v2) (snd a) (fst a) ;;; ret (fst a)) st1
       | Fail e st1 => Fail e st1 | Panic => Panic | NoFuel => NoFuel end = Done res st').
    { destruct b2; try congruence; exact H. }
    clear H. apply big_sym. destruct Q5 as [->|[-> (s & ->)]].
    + unfold bind at 1 in H'. rewrite no_bounds_impls in H'. cbn [unify_impls] in H'. unfold bind at 1, ret at 1 in H'.
      destruct (kind_fits b2 m1) eqn:KF; [|discriminate].
      unfold bind at 1, add_type_var, ret at 1 in H'. apply END in H'. cbn [fst snd] in H'. rewrite D' in H'.
      eapply ku_plain; [exact G2|exact R2|exact Q2|exact K2|exact K1|exact R3|exact NB2|exact Q3|exact KF|left; split; reflexivity|].
      exact H'.
    + match type of H' with match ?X with _ => _ end = _ => destruct X as [w sA| | |] eqn:EN; try discriminate end.
      apply END in H'. rewrite D' in H'.
      eapply ku_number; [exact G2|exact R2|exact Q2|exact K2|exact K1|exact R3|exact NB2|exact Q3|left; split; reflexivity|exact EN|].
      exact H'.
  - match type of H with match ?X with _ => _ end = _ => destruct X as [w sA| | |] eqn:EN; try discriminate end.
    apply END in H.
    eapply (uu_all n P s2 v1 v2 e1 e2 trs1 m1 trs2 m2 w sA st'); eauto.
Qed.

(** lib.rs:3344-3423: a successful call of [unify], together with the constraints it
    settles, leaves no completion of the state in which the two types differ *)
Theorem unify_number n P st e1 e2 r st' : G P E0 st -> P e1 -> P e2 ->
  unify C n e1 e2 st = Done r st' -> big P st st' e1 e2.
Proof.
  intros GG P1 P2 H. unfold unify, unify_with, bind in H.
  destruct (unify_inner C n e1 e2 st) as [x s1| | |] eqn:U; try discriminate.
  apply (inner_number n P _ _ _ _ _ GG P1 P2) in U. destruct U as [(ext & V1) C1 G1 S1].
  pose proof (constraint_loop_flat n P E0 (S (length (cons s1))) s1 G1) as L.
  destruct (constraint_loop (unify_inner C n) (S (length (cons s1))) s1) as [u s2|e s2| |]; try discriminate.
  cbn in H. injection H as _ <-. destruct L as (F2 & C2 & G2 & V2 & _).
  constructor; auto.
  - destruct (fl_ext _ _ F2) as (y & Y & _). exists (ext ++ y). rewrite Y, V1, app_assoc. reflexivity.
  - eapply incl_tran; eauto.
Qed.
End Context.
