(** Invariants of the inference state and its solutions. *)
From Coq Require Import List Bool Arith ZArith Lia.
From Verif Require Import InferModel InferSpec InferChain.
Import ListNotations.

Definition len (st : state) : nat := length (vars st).

Section Resolves_ind2.
Variable st : state.
Variable P : nat -> ty -> Prop.
Hypothesis Hlink : forall v j t, lookup (repl st) v = Some j -> Resolves st j t -> P j t -> P v t.
Hypothesis Hknown : forall v b ps ts,
    lookup (repl st) v = None -> nth_error (vars st) v = Some (Known b ps) ->
    Forall2 (Resolves st) ps ts -> Forall2 P ps ts -> P v (TK b ts).
Hypothesis Hunknown : forall v trs m,
    lookup (repl st) v = None -> nth_error (vars st) v = Some (Unknown trs m) -> P v (TF v m).

Fixpoint Resolves_ind2 v t (H : Resolves st v t) : P v t :=
  match H with
  | res_link _ v j t E H' => Hlink v j t E H' (Resolves_ind2 j t H')
  | res_known _ v b ps ts E N F =>
      Hknown v b ps ts E N F
        ((fix go ps ts (F : Forall2 (Resolves st) ps ts) : Forall2 P ps ts :=
            match F with
            | Forall2_nil _ => Forall2_nil _
            | Forall2_cons p t H' F' => Forall2_cons p t (Resolves_ind2 p t H') (go _ _ F')
            end) ps ts F)
  | res_unknown _ v trs m E N => Hunknown v trs m E N
  end.
End Resolves_ind2.

Section ty_ind2.
Variable P : ty -> Prop.
Hypothesis HK : forall b l, Forall P l -> P (TK b l).
Hypothesis HF : forall n m, P (TF n m).
Fixpoint ty_ind2 t : P t :=
  match t with
  | TK b l => HK b l ((fix go l : Forall P l :=
      match l with [] => Forall_nil _ | x :: r => Forall_cons x (ty_ind2 x) (go r) end) l)
  | TF n m => HF n m
  end.
End ty_ind2.

Fixpoint tsize (t : ty) : nat :=
  match t with
  | TK _ l => S (list_sum (map tsize l))
  | TF _ _ => 1
  end.

Lemma tsize_in x b l : In x l -> tsize x < tsize (TK b l).
Proof.
  cbn [tsize]. intros I. apply le_n_S. induction l as [|y l IH]; [destruct I|].
  change (list_sum (map tsize (y :: l))) with (tsize y + list_sum (map tsize l)).
  destruct I as [<-|I]; [lia|]. apply IH in I. lia.
Qed.

Lemma res_of_ends st v r t : ends (repl st) v r -> Resolves st r t -> Resolves st v t.
Proof. induction 1; auto. intros. eapply res_link; eauto. Qed.

Lemma resolves_ends st v t : Resolves st v t -> exists r, ends (repl st) v r /\ Resolves st r t.
Proof.
  intros H. induction H using Resolves_ind2.
  - destruct IHResolves as (r & A & B). exists r. split; auto. econstructor; eauto.
  - exists v. split; [constructor; auto | eapply res_known; eauto].
  - exists v. split; [constructor; auto | eapply res_unknown; eauto].
Qed.

Lemma Forall2_fun {A B} (R : A -> B -> Prop) l l1 l2 :
  Forall2 (fun a b => forall b', R a b' -> b = b') l l1 -> Forall2 R l l2 -> l1 = l2.
Proof.
  intros H. revert l2. induction H; intros l2 K; inversion K; subst; f_equal; auto.
Qed.

Lemma resolves_det st v t : Resolves st v t -> forall t', Resolves st v t' -> t = t'.
Proof.
  intros H. induction H using Resolves_ind2; intros t' H'; inversion H'; subst; try congruence.
  - rewrite H in H1. injection H1 as <-. auto.
  - rewrite H0 in H4. injection H4 as <- <-. f_equal. eapply Forall2_fun; eauto.
Qed.

Lemma resolves_req st st' v t : vars st' = vars st -> req (repl st) (repl st') ->
  Resolves st v t -> Resolves st' v t.
Proof.
  intros V Q H. induction H using Resolves_ind2.
  - assert (E : ends (repl st) v j \/ True) by auto.
    destruct (resolves_ends _ _ _ H0) as (r & A & B).
    assert (A' : ends (repl st) v r) by (econstructor; eauto).
    apply Q in A, A'.
    destruct (resolves_ends _ _ _ IHResolves) as (r' & A2 & B2).
    assert (r' = r) as -> by (eapply ends_det; eauto).
    eapply res_of_ends; eauto.
  - assert (A : ends (repl st) v v) by (constructor; auto). apply Q, ends_rep in A.
    eapply res_known; eauto. rewrite V; auto.
  - assert (A : ends (repl st) v v) by (constructor; auto). apply Q, ends_rep in A.
    eapply res_unknown; eauto. rewrite V; eauto.
Qed.

(** ** Invariants *)

Record closed (st : state) : Prop := {
  cl_repl : repl st <> [];
  cl_keys : forall k j, lookup (repl st) k = Some j -> k < len st /\ j < len st;
  cl_vars : forall i b ps, nth_error (vars st) i = Some (Known b ps) -> Forall (fun p => p < len st) ps;
  cl_scalar : forall i b ps, nth_error (vars st) i = Some (Known b ps) -> scalar b = true -> ps = []
}.

Definition total (st : state) : Prop := forall v, v < len st -> exists t, Resolves st v t.

Definition plain (st : state) : Prop :=
  forall i trs m, nth_error (vars st) i = Some (Unknown trs m) -> trs = [].

Definition chains (st : state) : Prop := forall v, exists r, ends (repl st) v r.

Lemma total_chains st : closed st -> total st -> chains st.
Proof.
  intros C T v. destruct (lt_dec v (len st)) as [L|L].
  - destruct (T v L) as (t & H). destruct (resolves_ends _ _ _ H) as (r & E & _). eauto.
  - exists v. constructor. destruct (lookup (repl st) v) eqn:E; auto.
    apply (cl_keys _ C) in E. lia.
Qed.

Lemma ends_lt st v r : closed st -> v < len st -> ends (repl st) v r -> r < len st.
Proof.
  intros C L E. induction E; auto. apply IHE. apply (cl_keys _ C) in H. lia.
Qed.

Lemma resolve_spec st v r : ends (repl st) v r -> resolve st v = nth_error (vars st) r.
Proof.
  intros E. unfold resolve. destruct (chase_complete _ _ _ E) as (s & ->). auto.
Qed.

(** ** Solutions *)

Definition holds (rho : nat -> ty) (i : nat) (tv : tvar) : Prop :=
  match tv with
  | Known b ps => rho i = TK b (map rho ps)
  | Unknown _ m => has_kind (rho i) m
  end.

Definition sol_repl (st : state) (rho : nat -> ty) : Prop :=
  forall k r, ends (repl st) k r -> rho k = rho r.

Definition Sol (st : state) (rho : nat -> ty) : Prop :=
  sol_repl st rho /\
  forall i tv, nth_error (vars st) i = Some tv -> lookup (repl st) i = None -> holds rho i tv.

Definition agree (n : nat) (f g : nat -> ty) : Prop := forall i, i < n -> f i = g i.

Lemma sol_req st st' rho : vars st' = vars st -> req (repl st) (repl st') -> Sol st rho -> Sol st' rho.
Proof.
  intros V Q [A B]. split.
  - intros k r E. apply A, Q. auto.
  - intros i tv N L. rewrite V in N. apply B; auto.
    assert (E : ends (repl st') i i) by (constructor; auto). apply Q, ends_rep in E. auto.
Qed.

Lemma sol_resolves st rho : Sol st rho -> forall v t, Resolves st v t -> rho v = subst rho t.
Proof.
  intros [A B] v t H. induction H using Resolves_ind2.
  - rewrite <- IHResolves. destruct (resolves_ends _ _ _ H0) as (r & E & _).
    rewrite (A v r), (A j r); auto. econstructor; eauto.
  - apply (B _ _ H0) in H. cbn in H. rewrite H. cbn [subst]. f_equal.
    clear - H2. induction H2; cbn; f_equal; auto.
  - reflexivity.
Qed.

Lemma sol_respects st rho : Sol st rho -> respects st rho.
Proof. intros [_ B] v trs m L N. apply (B _ _ N L). Qed.

Lemma sol_of_valuation st th rho : closed st -> total st ->
  respects st th -> valuation st th rho -> Sol st rho.
Proof.
  intros C T R V. split.
  - intros k r E. destruct (lt_dec k (len st)) as [L|L].
    + destruct (T k L) as (t & H). destruct (resolves_ends _ _ _ H) as (r' & E' & H').
      assert (r' = r) as -> by (eapply ends_det; eauto).
      rewrite (V _ _ H), (V _ _ H'). auto.
    + assert (r = k); [|congruence]. eapply ends_self; eauto.
      destruct (lookup (repl st) k) eqn:K; auto. apply (cl_keys _ C) in K. lia.
  - intros i tv N L. destruct tv as [b ps | trs m]; cbn.
    + assert (I : i < len st) by (apply nth_error_Some; congruence).
      destruct (T i I) as (t & H). inversion H; subst; try congruence.
      rewrite N in H1. injection H1 as <- <-. rewrite (V _ _ H). cbn [subst]. f_equal.
      clear - H2 V. induction H2; cbn; f_equal; auto. symmetry. auto.
    + rewrite (V i (TF i m)) by (eapply res_unknown; eauto). cbn. eapply R; eauto.
Qed.

Lemma finite_choice (P : nat -> ty -> Prop) n :
  (forall v, v < n -> exists t, P v t) -> exists f, forall v, v < n -> P v (f v).
Proof.
  induction n as [|n IH]; intros H.
  - exists (fun _ => TF 0 MAny). intros; lia.
  - destruct IH as (f & F); [intros; apply H; lia|].
    destruct (H n) as (t & T); [lia|].
    exists (fun v => if v =? n then t else f v). intros v L.
    destruct (v =? n) eqn:E; [apply Nat.eqb_eq in E; subst; auto|].
    apply Nat.eqb_neq in E. apply F. lia.
Qed.

Lemma has_kind_self n m : has_kind (TF n m) m.
Proof. destruct m; exact I. Qed.

(** The trees of the types themselves are a solution. *)
Lemma principal st : closed st -> total st ->
  exists rho, (forall v, v < len st -> Resolves st v (rho v)) /\ Sol st rho.
Proof.
  intros C T. destruct (finite_choice (Resolves st) (len st) T) as (rho & F).
  exists rho. split; auto. split.
  - intros k r E. destruct (lt_dec k (len st)) as [L|L].
    + pose proof (ends_lt _ _ _ C L E) as Lr.
      eapply resolves_det; [apply F; auto|]. eapply res_of_ends; eauto.
    + assert (r = k); [|congruence]. eapply ends_self; eauto.
      destruct (lookup (repl st) k) eqn:K; auto. apply (cl_keys _ C) in K. lia.
  - intros i tv N L.
    assert (I : i < len st) by (apply nth_error_Some; congruence).
    destruct tv as [b ps|trs m]; cbn.
    + eapply resolves_det; [apply F; auto|]. eapply res_known; eauto.
      pose proof (cl_vars _ C _ _ _ N) as P. clear - P F. induction P; cbn; constructor; auto.
    + assert (rho i = TF i m) as ->.
      { eapply resolves_det; [apply F; auto|]. eapply res_unknown; eauto. }
      apply has_kind_self.
Qed.

(** A state with a solution by finite types has no infinite type. *)
Lemma sol_total st rho : closed st -> chains st -> Sol st rho -> total st.
Proof.
  intros C CH [A B].
  assert (G : forall n v, tsize (rho v) < n -> v < len st -> exists t, Resolves st v t).
  { induction n as [|n IH]; intros v Sz L; [lia|].
    destruct (CH v) as (r & E). pose proof (ends_lt _ _ _ C L E) as Lr.
    pose proof (ends_rep _ _ _ E) as K.
    destruct (nth_error (vars st) r) as [tv|] eqn:N;
      [|apply nth_error_None in N; unfold len in *; lia].
    pose proof (B _ _ N K) as H. rewrite (A _ _ E) in Sz.
    destruct tv as [b ps|trs m]; cbn in H.
    - pose proof (cl_vars _ C _ _ _ N) as P.
      assert (X : exists ts, Forall2 (Resolves st) ps ts).
      { assert (Q : forall p, In p ps -> exists t, Resolves st p t).
        { intros p I. apply IH.
          - rewrite H in Sz. pose proof (tsize_in (rho p) b (map rho ps)) as Z.
            specialize (Z (in_map rho _ _ I)). lia.
          - rewrite Forall_forall in P. auto. }
        clear - Q. induction ps as [|p ps IH].
        - exists []. constructor.
        - destruct (Q p) as (t & T); [left; auto|].
          destruct IH as (ts & F); [intros; apply Q; right; auto|].
          exists (t :: ts). constructor; auto. }
      destruct X as (ts & F). exists (TK b ts). eapply res_of_ends; eauto. eapply res_known; eauto.
    - exists (TF r m). eapply res_of_ends; eauto. eapply res_unknown; eauto. }
  intros v L. eapply G; eauto.
Qed.

(** ** Adding a type variable *)

Definition with_var (st : state) (tv : tvar) : state := set_vars st (vars st ++ [tv]).

Lemma len_with_var st tv : len (with_var st tv) = S (len st).
Proof. unfold len, with_var. cbn. rewrite app_length. cbn. lia. Qed.

Definition ids_lt (n : nat) (tv : tvar) : Prop :=
  match tv with
  | Known b ps => Forall (fun p => p < n) ps /\ (scalar b = true -> ps = [])
  | Unknown _ _ => True
  end.

Lemma nth_with_var st tv i x : nth_error (vars (with_var st tv)) i = Some x ->
  (i < len st /\ nth_error (vars st) i = Some x) \/ (i = len st /\ x = tv).
Proof.
  unfold with_var, len. cbn. intros H. destruct (lt_dec i (length (vars st))) as [L|L].
  - left. rewrite nth_error_app1 in H by auto. auto.
  - right. rewrite nth_error_app2 in H by lia.
    destruct (i - length (vars st)) as [|k] eqn:E; cbn in H.
    + split; [lia | congruence].
    + destruct k; discriminate.
Qed.

Lemma nth_with_var_old st tv i : i < len st -> nth_error (vars (with_var st tv)) i = nth_error (vars st) i.
Proof. intros. unfold with_var. cbn. apply nth_error_app1. auto. Qed.

Lemma nth_with_var_new st tv : nth_error (vars (with_var st tv)) (len st) = Some tv.
Proof. unfold with_var, len. cbn. rewrite nth_error_app2, Nat.sub_diag by lia. reflexivity. Qed.

Lemma lookup_fresh st : closed st -> lookup (repl st) (len st) = None.
Proof.
  intros C. destruct (lookup (repl st) (len st)) eqn:E; auto. apply (cl_keys _ C) in E. lia.
Qed.

Lemma closed_with_var st tv : closed st -> ids_lt (len st) tv -> closed (with_var st tv).
Proof.
  intros C I. constructor; rewrite ?len_with_var.
  - exact (cl_repl _ C).
  - intros k j E. apply (cl_keys _ C) in E. lia.
  - intros i b ps N. apply nth_with_var in N as [[L N]|[-> <-]].
    + eapply Forall_impl; [|exact (cl_vars _ C _ _ _ N)]. cbn. intros. lia.
    + eapply Forall_impl; [|exact (proj1 I)]. cbn. intros. lia.
  - intros i b ps N. apply nth_with_var in N as [[L N]|[-> <-]].
    + exact (cl_scalar _ C _ _ _ N).
    + exact (proj2 I).
Qed.

Lemma resolves_with_var st tv v t : Resolves st v t -> Resolves (with_var st tv) v t.
Proof.
  intros H. induction H using Resolves_ind2.
  - eapply res_link; eauto.
  - eapply res_known; eauto. rewrite nth_with_var_old; auto. apply nth_error_Some. congruence.
  - eapply res_unknown; eauto. rewrite nth_with_var_old; eauto. apply nth_error_Some. congruence.
Qed.

Lemma total_with_var st tv : closed st -> ids_lt (len st) tv -> total st -> total (with_var st tv).
Proof.
  intros C I T v L. rewrite len_with_var in L.
  destruct (Nat.eq_dec v (len st)) as [->|D].
  - pose proof (lookup_fresh _ C) as F. destruct tv as [b ps|trs m].
    + assert (X : exists ts, Forall2 (Resolves st) ps ts).
      { destruct I as [I _]. clear - I T. induction I as [|p ps H I IH].
        - exists []. constructor.
        - destruct (T _ H) as (t & Ht). destruct IH as (ts & Hts). exists (t :: ts). constructor; auto. }
      destruct X as (ts & X). exists (TK b ts). eapply res_known; [exact F | apply nth_with_var_new |].
      clear - X. generalize (Known b ps) as tv. intros tv.
      induction X; constructor; auto. apply resolves_with_var. auto.
    + eexists. eapply res_unknown; [exact F | apply nth_with_var_new].
  - destruct (T v) as (t & H); [lia|]. exists t. apply resolves_with_var; auto.
Qed.

Lemma sol_with_var st tv rho : closed st ->
  (Sol (with_var st tv) rho <-> Sol st rho /\ holds rho (len st) tv).
Proof.
  intros C. split.
  - intros [A B]. split; [split|].
    + exact A.
    + intros i x N L. apply B; auto. rewrite nth_with_var_old; auto. apply nth_error_Some. congruence.
    + apply B; [apply nth_with_var_new | apply (lookup_fresh _ C)].
  - intros [[A B] H]. split; [exact A|].
    intros i x N L. apply nth_with_var in N as [[_ N]|[-> ->]]; auto.
Qed.

(** ** Replacing one end by another *)

Definition with_repl (st : state) (a b : nat) : state := set_repl st (insert (repl st) a b).

Lemma closed_with_repl st a b : closed st -> a < len st -> b < len st -> closed (with_repl st a b).
Proof.
  intros C A B. constructor; unfold with_repl; cbn.
  - apply insert_nil, (cl_repl _ C).
  - intros k j. rewrite lookup_insert by apply (cl_repl _ C). destruct (a =? k) eqn:E.
    + intros H. injection H as <-. apply Nat.eqb_eq in E. subst. auto.
    + apply (cl_keys _ C).
  - exact (cl_vars _ C).
  - exact (cl_scalar _ C).
Qed.

Lemma chains_with_repl st a b : closed st -> chains st ->
  lookup (repl st) a = None -> lookup (repl st) b = None -> a <> b -> chains (with_repl st a b).
Proof.
  intros C CH A B D v. destruct (CH v) as (r & E).
  eexists. unfold with_repl; cbn. apply ends_insert; eauto. apply (cl_repl _ C).
Qed.

Lemma sol_with_repl st a b rho : closed st -> chains st ->
  lookup (repl st) a = None -> lookup (repl st) b = None -> a <> b ->
  (Sol (with_repl st a b) rho <->
   rho a = rho b /\ sol_repl st rho /\
   forall i tv, nth_error (vars st) i = Some tv -> lookup (repl st) i = None -> i <> a -> holds rho i tv).
Proof.
  intros C CH A B D. pose proof (cl_repl _ C) as N.
  assert (EA : ends (repl (with_repl st a b)) a b).
  { pose proof (ends_insert _ a b N A B D a a (ends_here _ _ A)) as H. rewrite Nat.eqb_refl in H. exact H. }
  split.
  - intros [S1 S2]. split; [apply S1; auto|]. split.
    + intros k r E. pose proof (ends_insert _ a b N A B D _ _ E) as H.
      apply S1 in H. destruct (r =? a) eqn:F; auto. apply Nat.eqb_eq in F. subst.
      rewrite H. symmetry. apply S1. auto.
    + intros i tv V L I. apply S2; auto. cbn. rewrite lookup_insert by auto.
      destruct (a =? i) eqn:F; auto. apply Nat.eqb_eq in F. congruence.
  - intros (H & S1 & S2). split.
    + intros k r E. apply ends_insert_inv in E as (r0 & E & ->); auto.
      rewrite (S1 _ _ E). destruct (r0 =? a) eqn:F; auto. apply Nat.eqb_eq in F. congruence.
    + intros i tv V L. cbn in L. rewrite lookup_insert in L by auto.
      destruct (a =? i) eqn:F; [discriminate|]. apply Nat.eqb_neq in F. apply S2; auto.
Qed.

(** If the new end has a finite type, everything still has. *)
Lemma total_with_repl st a b : closed st -> total st ->
  lookup (repl st) a = None -> lookup (repl st) b = None -> a <> b ->
  (exists t, Resolves (with_repl st a b) b t) -> total (with_repl st a b).
Proof.
  intros C T A B D (tb & HB). pose proof (cl_repl _ C) as N.
  assert (L : forall k, lookup (repl (with_repl st a b)) k = if a =? k then Some b else lookup (repl st) k)
    by (intros; cbn; apply lookup_insert; auto).
  assert (G : forall v t, Resolves st v t -> exists t', Resolves (with_repl st a b) v t').
  { intros v t H. induction H using Resolves_ind2.
    - destruct IHResolves as (t' & H'). exists t'. eapply res_link; eauto. rewrite L.
      destruct (a =? v) eqn:E; auto. apply Nat.eqb_eq in E. congruence.
    - destruct (a =? v) eqn:E.
      + exists tb. eapply res_link; eauto. rewrite L, E. auto.
      + assert (X : exists ts', Forall2 (Resolves (with_repl st a b)) ps ts').
        { clear - H2. induction H2 as [|p t ps ts [t' H] F (ts' & IH)].
          - exists []. constructor.
          - exists (t' :: ts'). constructor; auto. }
        destruct X as (ts' & X). exists (TK b0 ts'). eapply res_known; eauto. rewrite L, E. auto.
    - destruct (a =? v) eqn:E.
      + exists tb. eapply res_link; eauto. rewrite L, E. auto.
      + eexists. eapply res_unknown; eauto. rewrite L, E. auto. }
  intros v V. destruct (T v V) as (t & H). eapply G; eauto.
Qed.

(** ** The check for recursive types *)

Lemma check_rec_eq n st seen ty :
  check_rec (S n) st seen ty =
  (let check := fix go (l : list nat) : option bool :=
        match l with
        | [] => Some false
        | p :: r =>
            if mem p (ty :: seen) then Some true
            else match check_rec n st (ty :: seen) p with
                 | None => None
                 | Some true => Some true
                 | Some false => go r
                 end
        end in
   match resolve st ty with
   | None => None
   | Some (Known b ps) => check ps
   | Some (Unknown trs _) => check (concat (map snd trs))
   end).
Proof. reflexivity. Qed.

Lemma check_rec_some st : closed st -> plain st -> chains st ->
  forall n seen v, v < len st -> Forall (fun k => k < len st) seen -> NoDup seen -> ~ In v seen ->
  len st < n + length seen -> check_rec n st seen v <> None.
Proof.
  intros C P CH. induction n as [|n IH]; intros seen v L F ND NI B.
  - assert (length seen <= len st); [|lia].
    rewrite <- (seq_length (len st) 0). apply NoDup_incl_length; auto.
    intros k I. rewrite Forall_forall in F. apply F in I. apply in_seq. lia.
  - rewrite check_rec_eq. cbv zeta.
    destruct (CH v) as (r & E). rewrite (resolve_spec _ _ _ E).
    pose proof (ends_lt _ _ _ C L E) as Lr.
    destruct (nth_error (vars st) r) as [[b ps|trs m]|] eqn:N.
    + pose proof (cl_vars _ C _ _ _ N) as Q. clear N.
      induction Q as [|p ps Hp Q IHQ]; [discriminate|].
      destruct (mem p (v :: seen)) eqn:M; [discriminate|].
      assert (X : check_rec n st (v :: seen) p <> None).
      { apply IH; auto.
        - constructor; auto.
        - intros I. apply mem_in in I. congruence.
        - cbn. lia. }
      destruct (check_rec n st (v :: seen) p) as [[|]|]; congruence.
    + rewrite (P _ _ _ N). discriminate.
    + apply nth_error_None in N. unfold len in *. lia.
Qed.

(** no recursion found: the type is finite *)
Lemma check_rec_false st : closed st -> plain st -> chains st ->
  forall n seen v, check_rec n st seen v = Some false -> exists t, Resolves st v t.
Proof.
  intros C P CH. induction n as [|n IH]; intros seen v H; [discriminate|].
  rewrite check_rec_eq in H. cbv zeta in H.
  destruct (CH v) as (r & E). rewrite (resolve_spec _ _ _ E) in H. pose proof (ends_rep _ _ _ E) as K.
  destruct (nth_error (vars st) r) as [[b ps|trs m]|] eqn:N.
  - assert (X : exists ts, Forall2 (Resolves st) ps ts).
    { clear N. induction ps as [|p ps IHp].
      - exists []. constructor.
      - destruct (mem p (v :: seen)); [discriminate|].
        destruct (check_rec n st (v :: seen) p) as [[|]|] eqn:X; try discriminate.
        destruct (IH _ _ X) as (t & T). destruct (IHp H) as (ts & F).
        exists (t :: ts). constructor; auto. }
    destruct X as (ts & F). exists (TK b ts). eapply res_of_ends; eauto. eapply res_known; eauto.
  - eexists. eapply res_of_ends; eauto. eapply res_unknown; eauto.
  - discriminate.
Qed.

(** a finite type is not called recursive *)
Lemma check_rec_finite st : plain st -> 
  forall n seen v t, Resolves st v t ->
  (forall k, In k seen -> exists tk, Resolves st k tk /\ tsize t < tsize tk) ->
  check_rec n st seen v <> Some true.
Proof.
  intros P. induction n as [|n IH]; intros seen v t R Q; [discriminate|].
  rewrite check_rec_eq. cbv zeta.
  destruct (resolves_ends _ _ _ R) as (r & E & R'). rewrite (resolve_spec _ _ _ E).
  pose proof (ends_rep _ _ _ E) as K.
  destruct (nth_error (vars st) r) as [[b ps|trs m]|] eqn:N.
  - inversion R'; subst; try congruence. rewrite N in H0. injection H0 as <- <-.
    assert (G : forall p, In p ps -> exists tp, Resolves st p tp /\ tsize tp < tsize (TK b ts)).
    { intros p I. clear - H1 I. 
      assert (X : exists tp, Resolves st p tp /\ In tp ts).
      { induction H1; cbn in *; [contradiction|]. destruct I as [<-|I]; eauto.
        destruct IHForall2 as (tp & A & B); eauto. }
      destruct X as (tp & A & B). exists tp. split; auto. apply tsize_in. auto. }
    clear N R'. clear H1. induction ps as [|p ps IHp]; [discriminate|].
    destruct (G p) as (tp & A & B); [left; auto|].
    destruct (mem p (v :: seen)) eqn:M.
    + exfalso. apply mem_in in M as [<-|M].
      * assert (TK b ts = tp) by (eapply resolves_det; eauto). subst. lia.
      * destruct (Q _ M) as (tk & X & Y). assert (tp = tk) by (eapply resolves_det; eauto). subst. lia.
    + assert (X : check_rec n st (v :: seen) p <> Some true).
      { eapply IH; eauto. intros k [<-|I].
        - exists (TK b ts). auto.
        - destruct (Q _ I) as (tk & X & Y). exists tk. split; auto. lia. }
      destruct (check_rec n st (v :: seen) p) as [[|]|]; try congruence.
      apply IHp. intros; apply G; right; auto.
  - rewrite (P _ _ _ N). discriminate.
  - discriminate.
Qed.
