(** Facts about the replacement stack: chains, lookups and path compression. *)
From Coq Require Import List Bool Arith ZArith Lia.
From Verif Require Import InferModel InferSpec.
Import ListNotations.

(** [ends R v r]: following the replacements from [v] ends at [r]. *)
Inductive ends (R : list layer) : nat -> nat -> Prop :=
| ends_here : forall v, lookup R v = None -> ends R v v
| ends_step : forall v j r, lookup R v = Some j -> ends R j r -> ends R v r.

Lemma ends_det R v r : ends R v r -> forall r', ends R v r' -> r = r'.
Proof.
  induction 1 as [v E | v j r E H IH]; intros r' H'; inversion H'; subst; try congruence.
  rewrite E in H0. injection H0 as ->. auto.
Qed.

Lemma ends_rep R v r : ends R v r -> lookup R r = None.
Proof. induction 1; auto. Qed.

Lemma ends_self R v r : lookup R v = None -> ends R v r -> r = v.
Proof. intros E H. inversion H; subst; congruence. Qed.

Lemma chase_sound R n : forall v r seen, chase R n v = Some (r, seen) ->
  ends R v r /\ Forall (fun k => ends R k r /\ lookup R k <> None) seen.
Proof.
  induction n as [|n IH]; intros v r seen H; cbn [chase] in H; [discriminate|].
  destruct (lookup R v) as [j|] eqn:E.
  - destruct (chase R n j) as [[t s]|] eqn:E2; [|discriminate].
    injection H as <- <-. destruct (IH _ _ _ E2) as [A B].
    assert (ends R v t) by (econstructor; eauto).
    split; auto. constructor; auto. split; auto. congruence.
  - injection H as <- <-. split; [constructor; auto | constructor].
Qed.

Lemma chase_some R v r : ends R v r -> exists n seen, chase R n v = Some (r, seen) /\ n = S (length seen).
Proof.
  induction 1 as [v E | v j r E H IH].
  - exists 1, []. cbn. rewrite E. auto.
  - destruct IH as (n & seen & A & B). exists (S n), (v :: seen). cbn [chase]. rewrite E, A. cbn. auto.
Qed.

Lemma chase_mono R n : forall m v x, chase R n v = Some x -> n <= m -> chase R m v = Some x.
Proof.
  induction n as [|n IH]; intros m v x H L; cbn [chase] in H; [discriminate|].
  destruct m as [|m]; [lia|]. cbn [chase]. destruct (lookup R v); auto.
  destruct (chase R n n0) as [[t s]|] eqn:E; [|discriminate].
  rewrite (IH m _ _ E) by lia. auto.
Qed.

(** the keys met on a chain are all different *)
Lemma chase_nodup R n : forall v r seen, chase R n v = Some (r, seen) -> NoDup seen.
Proof.
  assert (G : forall n v r seen, chase R n v = Some (r, seen) ->
    forall k, In k seen -> exists m s, chase R m k = Some (r, s) /\ length s <= length seen).
  { clear n. induction n as [|n IH]; intros v r seen H k I; cbn [chase] in H; [discriminate|].
    destruct (lookup R v) as [j|] eqn:E.
    - destruct (chase R n j) as [[t s]|] eqn:E2; [|discriminate]. injection H as <- <-.
      destruct I as [<-|I].
      + exists (S n), (v :: s). cbn [chase]. rewrite E, E2. auto.
      + destruct (IH _ _ _ E2 _ I) as (m & s' & A & B). exists m, s'. split; auto. cbn. lia.
    - injection H as <- <-. destruct I. }
  induction n as [|n IH]; intros v r seen H; cbn [chase] in H; [discriminate|].
  destruct (lookup R v) as [j|] eqn:E.
  - destruct (chase R n j) as [[t s]|] eqn:E2; [|discriminate]. injection H as <- <-.
    constructor; [|eauto]. intros I.
    destruct (G _ _ _ _ E2 _ I) as (m & s' & A & B).
    assert (A2 : chase R (S n) v = Some (t, v :: s)) by (cbn [chase]; rewrite E, E2; auto).
    apply (chase_mono _ _ (m + S n)) in A; [|lia]. apply (chase_mono _ _ (m + S n)) in A2; [|lia].
    rewrite A in A2. injection A2 as ->. cbn in B. lia.
  - injection H as <- <-. constructor.
Qed.

Lemma assoc_in l k j : assoc l k = Some j -> In (k, j) l.
Proof.
  induction l as [|[a b] l IH]; cbn; [discriminate|].
  destruct (a =? k) eqn:E; intros H.
  - apply Nat.eqb_eq in E. left. congruence.
  - right. auto.
Qed.

Lemma lookup_in R k j : lookup R k = Some j -> In (k, j) (concat R).
Proof.
  induction R as [|l R IH]; cbn; [discriminate|].
  destruct (assoc l k) eqn:E; intros H; apply in_or_app.
  - left. apply assoc_in. congruence.
  - right. auto.
Qed.

Lemma chase_complete R v r : ends R v r -> exists seen, chase R (S (entries R)) v = Some (r, seen).
Proof.
  intros H. destruct (chase_some _ _ _ H) as (n & seen & A & B).
  exists seen. eapply chase_mono; eauto. subst n. apply le_n_S.
  unfold entries. rewrite <- (map_length fst (concat R)).
  apply NoDup_incl_length; [eapply chase_nodup; eauto|].
  intros k I. destruct (chase_sound _ _ _ _ _ A) as [_ F].
  rewrite Forall_forall in F. destruct (F _ I) as [_ N].
  destruct (lookup R k) as [j|] eqn:E; [|congruence].
  apply lookup_in in E. apply (in_map fst) in E. exact E.
Qed.

Lemma lookup_insert R a b k : R <> [] ->
  lookup (insert R a b) k = if a =? k then Some b else lookup R k.
Proof.
  destruct R as [|l R]; [congruence|]. intros _. cbn.
  destruct (a =? k); auto.
Qed.

Lemma insert_nil R a b : R <> [] -> insert R a b <> [].
Proof. destruct R; cbn; congruence. Qed.

Lemma insert_tl R a b : tl (insert R a b) = tl R.
Proof. destruct R; reflexivity. Qed.

Lemma compress_lookup t seen : forall R k, R <> [] ->
  lookup (fold_left (fun R' key => insert R' key t) seen R) k =
  if mem k seen then Some t else lookup R k.
Proof.
  induction seen as [|s seen IH]; intros R k N; cbn [fold_left mem existsb]; auto.
  rewrite IH by (apply insert_nil; auto). unfold mem.
  destruct (existsb (Nat.eqb k) seen); [rewrite orb_true_r; auto|]. rewrite orb_false_r.
  rewrite lookup_insert by auto. rewrite Nat.eqb_sym. auto.
Qed.

Lemma compress_tl t seen : forall R,
  tl (fold_left (fun R' key => insert R' key t) seen R) = tl R.
Proof.
  induction seen as [|s seen IH]; intros R; cbn; auto. rewrite IH. apply insert_tl.
Qed.

Lemma compress_nil t seen : forall R, R <> [] ->
  fold_left (fun R' key => insert R' key t) seen R <> [].
Proof.
  induction seen as [|s seen IH]; intros R N; cbn; auto. apply IH, insert_nil; auto.
Qed.

Lemma mem_in x l : mem x l = true <-> In x l.
Proof.
  unfold mem. rewrite existsb_exists. split.
  - intros (y & I & E). apply Nat.eqb_eq in E. congruence.
  - intros I. exists x. split; auto. apply Nat.eqb_refl.
Qed.

(** Two stacks with the same chains *)
Definition req (R R' : list layer) : Prop := forall v r, ends R v r <-> ends R' v r.

Lemma req_refl R : req R R. Proof. intros v r. tauto. Qed.
Lemma req_sym R R' : req R R' -> req R' R. Proof. intros H v r. symmetry. apply H. Qed.
Lemma req_trans R R' R'' : req R R' -> req R' R'' -> req R R''.
Proof. intros H H' v r. rewrite (H v r). apply H'. Qed.

Lemma compress_req R v t seen n : R <> [] -> chase R n v = Some (t, seen) ->
  req R (fold_left (fun R' key => insert R' key t) seen R).
Proof.
  intros N H. destruct (chase_sound _ _ _ _ _ H) as [A F].
  set (R' := fold_left _ seen R).
  assert (L : forall k, lookup R' k = if mem k seen then Some t else lookup R k)
    by (intros; apply compress_lookup; auto).
  rewrite Forall_forall in F.
  assert (T : lookup R' t = None).
  { rewrite L. destruct (mem t seen) eqn:E; [|apply (ends_rep _ _ _ A)].
    apply mem_in in E. destruct (F _ E) as [B C]. apply ends_rep in B. congruence. }
  intros k r. split; intros K.
  - induction K as [k E | k j r E K IH].
    + constructor. rewrite L. destruct (mem k seen) eqn:M; auto.
      apply mem_in in M. apply F in M as [_ M]. congruence.
    + destruct (mem k seen) eqn:M.
      * apply mem_in in M as M'. apply F in M' as [M' _].
        assert (r = t) as -> by (eapply ends_det; [|exact M']; econstructor; eauto).
        econstructor; [rewrite L, M; auto | constructor; auto].
      * econstructor; [rewrite L, M; eauto | auto].
  - induction K as [k E | k j r E K IH].
    + rewrite L in E. destruct (mem k seen); [discriminate|]. constructor. auto.
    + rewrite L in E. destruct (mem k seen) eqn:M.
      * injection E as <-. apply mem_in in M. apply F in M as [M _].
        apply ends_self in K; auto. subst. auto.
      * econstructor; eauto.
Qed.

(** [get] finds the end of the chain and changes no chain. *)
Lemma get_spec R v r : R <> [] -> ends R v r ->
  exists R', get R v = Some (r, R') /\ req R R' /\ tl R' = tl R /\ R' <> [].
Proof.
  intros N H. destruct (chase_complete _ _ _ H) as (seen & E). unfold get. rewrite E.
  eexists. split; [reflexivity|]. repeat split.
  - apply (compress_req _ _ _ _ _ N E).
  - apply (compress_req _ _ _ _ _ N E).
  - apply compress_tl.
  - apply compress_nil; auto.
Qed.

Lemma get_inv R v r R' : R <> [] -> get R v = Some (r, R') ->
  ends R v r /\ req R R' /\ tl R' = tl R /\ R' <> [].
Proof.
  unfold get. intros N H. destruct (chase R (S (entries R)) v) as [[t seen]|] eqn:E; [|discriminate].
  injection H as <- <-. destruct (chase_sound _ _ _ _ _ E) as [A _].
  split; auto. split; [apply (compress_req _ _ _ _ _ N E)|].
  split; [apply compress_tl | apply compress_nil; auto].
Qed.

(** Inserting a replacement of one end by another *)
Lemma ends_insert R a b : R <> [] -> lookup R a = None -> lookup R b = None -> a <> b ->
  forall v r, ends R v r -> ends (insert R a b) v (if r =? a then b else r).
Proof.
  intros N A B D v r H.
  assert (L : forall k, lookup (insert R a b) k = if a =? k then Some b else lookup R k)
    by (intros; apply lookup_insert; auto).
  assert (EB : ends (insert R a b) b b).
  { constructor. rewrite L. destruct (a =? b) eqn:E; auto. apply Nat.eqb_eq in E. congruence. }
  induction H as [v E | v j r E H IH].
  - destruct (v =? a) eqn:F.
    + apply Nat.eqb_eq in F. subst v. econstructor; eauto. rewrite L, Nat.eqb_refl. auto.
    + constructor. rewrite L, Nat.eqb_sym, F. auto.
  - econstructor; eauto. rewrite L. destruct (a =? v) eqn:F; auto.
    apply Nat.eqb_eq in F. congruence.
Qed.

Lemma ends_insert_inv R a b : R <> [] -> lookup R a = None -> lookup R b = None -> a <> b ->
  (forall v, exists r, ends R v r) ->
  forall v r, ends (insert R a b) v r ->
  exists r0, ends R v r0 /\ r = if r0 =? a then b else r0.
Proof.
  intros N A B D T v r H. destruct (T v) as (r0 & E). exists r0. split; auto.
  eapply ends_det; eauto. apply ends_insert; auto.
Qed.
