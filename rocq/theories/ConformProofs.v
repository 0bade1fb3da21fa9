(** Proofs about ConformModel.v *)
From Coq Require Import ZArith List Bool String Arith Lia.
From Verif Require Import ConformModel ConformSpec.
Import ListNotations.

Lemma bind_ok : forall A B (r : res A) (f : A -> res B) b, bind r f = Ok b -> exists a, r = Ok a /\ f a = Ok b.
Proof. intros A B r f b H. destruct r; cbn in H; try discriminate. exists a. auto. Qed.
Lemma guard_ok : forall b u, guard b = Ok u -> b = true.
Proof. intros b u H. destruct b; [reflexivity|discriminate]. Qed.

(** * Equality *)
Lemma generic_eqb_eq : forall a b, generic_eqb a b = true <-> a = b.
Proof.
  intros [x|x] [y|y]; cbn; split; intros H; try discriminate; try (apply Nat.eqb_eq in H; congruence);
  try (inversion H; apply Nat.eqb_refl).
Qed.
Lemma cg_eqb_eq : forall a b, cg_eqb a b = true -> a = b.
Proof.
  induction a; intros [ ]; cbn; intros H; try discriminate.
  - apply Nat.eqb_eq in H; congruence.
  - apply Bool.eqb_prop in H; congruence.
  - apply Z.eqb_eq in H; congruence.
  - apply String.eqb_eq in H; congruence.
  - destruct (cgop_eq_dec op op0); [|discriminate]. cbn in H. apply andb_prop in H as [H1 H2]. f_equal; auto.
  - destruct (cguop_eq_dec op op0); [|discriminate]. cbn in H. f_equal; auto.
Qed.
Lemma cg_eqb_refl : forall a, cg_eqb a a = true.
Proof.
  induction a; cbn; auto using Nat.eqb_refl, Bool.eqb_reflx, Z.eqb_refl, String.eqb_refl.
  - destruct (cgop_eq_dec op op); [|congruence]. now rewrite IHa1, IHa2.
  - destruct (cguop_eq_dec op op); [|congruence]. now rewrite IHa.
Qed.
Lemma eqb_eq :
  (forall a b, spec_eqb a b = true -> a = b) /\ (forall a b, texpr_eqb a b = true -> a = b) /\
  (forall a b, specs_eqb a b = true -> a = b) /\ (forall a b, texprs_eqb a b = true -> a = b).
Proof.
  apply types_ind.
  - intros n es IH [ ]; cbn; intros H; try discriminate. apply andb_prop in H as [A B]. apply Nat.eqb_eq in A. apply IH in B. congruence.
  - intros g [ ]; cbn; intros H; try discriminate. apply generic_eqb_eq in H. congruence.
  - intros l IH [ ]; cbn; intros H; try discriminate. apply IH in H. congruence.
  - intros s IHs e IHe [ ]; cbn; intros H; try discriminate. apply andb_prop in H as [A B]. apply IHs in A. apply IHe in B. congruence.
  - intros s IH [ ]; cbn; intros H; try discriminate. apply IH in H. congruence.
  - intros s IH [ ]; cbn; intros H; try discriminate. apply IH in H. congruence.
  - intros [ ]; cbn; intros H; try discriminate. reflexivity.
  - intros [ ]; cbn; intros H; try discriminate. reflexivity.
  - intros s IH [ ]; cbn; intros H; try discriminate. apply IH in H. congruence.
  - intros b [ ]; cbn; intros H; try discriminate. apply Bool.eqb_prop in H. congruence.
  - intros z [ ]; cbn; intros H; try discriminate. apply Z.eqb_eq in H. congruence.
  - intros s [ ]; cbn; intros H; try discriminate. apply String.eqb_eq in H. congruence.
  - intros c [ ]; cbn; intros H; try discriminate. apply cg_eqb_eq in H. congruence.
  - intros [ ]; cbn; intros H; try discriminate. reflexivity.
  - intros s IHs l IHl [ ]; cbn; intros H; try discriminate. apply andb_prop in H as [A B]. apply IHs in A. apply IHl in B. congruence.
  - intros [ ]; cbn; intros H; try discriminate. reflexivity.
  - intros s IHs l IHl [ ]; cbn; intros H; try discriminate. apply andb_prop in H as [A B]. apply IHs in A. apply IHl in B. congruence.
Qed.
Lemma eqb_refl :
  (forall a, spec_eqb a a = true) /\ (forall a, texpr_eqb a a = true) /\
  (forall a, specs_eqb a a = true) /\ (forall a, texprs_eqb a a = true).
Proof.
  apply types_ind; cbn; intros; auto using Nat.eqb_refl, Bool.eqb_reflx, Z.eqb_refl, String.eqb_refl, cg_eqb_refl;
  try (now rewrite ?Nat.eqb_refl, ?H, ?H0). now apply generic_eqb_eq.
Qed.

(** * One step of each function *)
Lemma m_decl : forall D (R : reading D) n es, means R (Declared n es) = r_name R n (all_mean R es). Proof. reflexivity. Qed.
Lemma m_gen : forall D (R : reading D) g, means R (Generic g) = r_var R g. Proof. reflexivity. Qed.
Lemma m_tup : forall D (R : reading D) l, means R (Tuple l) = r_tuple R (each_means R l). Proof. reflexivity. Qed.
Lemma m_arr : forall D (R : reading D) s e, means R (Array s e) = r_array R (means R s) (expr_means R e). Proof. reflexivity. Qed.
Lemma m_inv : forall D (R : reading D) s, means R (Inverted s) = r_inv R (means R s). Proof. reflexivity. Qed.
Lemma m_view : forall D (R : reading D) s, means R (CopyView s) = r_view R (means R s). Proof. reflexivity. Qed.
Lemma m_spec : forall D (R : reading D) s, expr_means R (ESpec s) = means R s. Proof. reflexivity. Qed.
Lemma m_snil : forall D (R : reading D), each_means R SNil = []. Proof. reflexivity. Qed.
Lemma m_scons : forall D (R : reading D) s l, each_means R (SCons s l) = means R s :: each_means R l. Proof. reflexivity. Qed.
Lemma m_xnil : forall D (R : reading D), all_mean R XNil = []. Proof. reflexivity. Qed.
Lemma m_xcons : forall D (R : reading D) e l, all_mean R (XCons e l) = expr_means R e :: all_mean R l. Proof. reflexivity. Qed.
Lemma r_decl : forall t i r n es, resolve t i r (Declared n es) = if n =? i then t else Declared (remapped r n) (resolve_exprs t i r es). Proof. reflexivity. Qed.
Lemma r_tup : forall t i r l, resolve t i r (Tuple l) = Tuple (resolve_specs t i r l). Proof. reflexivity. Qed.
Lemma r_arr : forall t i r s e, resolve t i r (Array s e) = Array (resolve t i r s) (resolve_expr t i r e). Proof. reflexivity. Qed.
Lemma r_inve : forall t i r s, resolve t i r (Inverted s) = Inverted (resolve t i r s). Proof. reflexivity. Qed.
Lemma r_viewe : forall t i r s, resolve t i r (CopyView s) = CopyView (resolve t i r s). Proof. reflexivity. Qed.
Lemma r_spec : forall t i r s, resolve_expr t i r (ESpec s) = ESpec (resolve t i r s). Proof. reflexivity. Qed.
Lemma r_scons : forall t i r s l, resolve_specs t i r (SCons s l) = SCons (resolve t i r s) (resolve_specs t i r l). Proof. reflexivity. Qed.
Lemma r_xcons : forall t i r s l, resolve_exprs t i r (XCons s l) = XCons (resolve_expr t i r s) (resolve_exprs t i r l). Proof. reflexivity. Qed.
Lemma p_decl : forall a b c d n es, map_spec a b c d (Declared n es) = bind (map_exprs a b c d es) (fun es => Ok (Declared n es)). Proof. reflexivity. Qed.
Lemma p_tup : forall a b c d l, map_spec a b c d (Tuple l) = bind (map_specs a b c d l) (fun l => Ok (Tuple l)). Proof. reflexivity. Qed.
Lemma p_arr : forall a b c d s e, map_spec a b c d (Array s e) = bind (map_spec a b c d s) (fun s => bind (map_expr a b c d e) (fun e => Ok (Array s e))). Proof. reflexivity. Qed.
Lemma p_inv : forall a b c d s, map_spec a b c d (Inverted s) = bind (map_spec a b c d s) (fun s => Ok (Inverted s)). Proof. reflexivity. Qed.
Lemma p_spec : forall a b c d s, map_expr a b c d (ESpec s) = bind (map_spec a b c d s) (fun s => Ok (ESpec s)). Proof. reflexivity. Qed.
Lemma p_scons : forall a b c d s l, map_specs a b c d (SCons s l) = bind (map_spec a b c d s) (fun s => bind (map_specs a b c d l) (fun l => Ok (SCons s l))). Proof. reflexivity. Qed.
Lemma p_xcons : forall a b c d s l, map_exprs a b c d (XCons s l) = bind (map_expr a b c d s) (fun s => bind (map_exprs a b c d l) (fun l => Ok (XCons s l))). Proof. reflexivity. Qed.
Ltac ms := rewrite ?m_decl, ?m_gen, ?m_tup, ?m_arr, ?m_inv, ?m_view, ?m_spec, ?m_snil, ?m_scons, ?m_xnil, ?m_xcons in *.
Ltac rs := rewrite ?r_decl, ?r_tup, ?r_arr, ?r_inve, ?r_viewe, ?r_spec, ?r_scons, ?r_xcons in *.
Ltac ps := rewrite ?p_decl, ?p_tup, ?p_arr, ?p_inv, ?p_spec, ?p_scons, ?p_xcons in *.

(** * Meaning is kept *)
Section Kept.
  Context {D : Type} (R : reading D).

  Lemma resolve_means : forall target self_id remaps,
    r_self R = means R target -> (forall l, r_name R self_id l = means R target) ->
    (forall n n' l, In (n, n') remaps -> r_name R n l = r_name R n' l) ->
    (forall s, means R (resolve target self_id remaps s) = means R s) /\
    (forall e, expr_means R (resolve_expr target self_id remaps e) = expr_means R e) /\
    (forall l, each_means R (resolve_specs target self_id remaps l) = each_means R l) /\
    (forall l, all_mean R (resolve_exprs target self_id remaps l) = all_mean R l).
  Proof.
    intros target self_id remaps HS HA HR. apply types_ind; intros; rs; ms; try reflexivity; try congruence; [|symmetry; exact HS].
    destruct (n =? self_id) eqn:E; ms.
    - apply Nat.eqb_eq in E. subst n. now rewrite HA.
    - rewrite H. unfold remapped. destruct (find (fun p => n =? fst p) remaps) as [[a b]|] eqn:F; [|reflexivity].
      apply find_some in F as [F1 F2]. cbn in F2. apply Nat.eqb_eq in F2. subst a. cbn. symmetry. now apply HR.
  Qed.

  Variables (tp mp : list generic) (targs margs : list texpr).
  Hypothesis HT : forall k g e, nth_error tp k = Some g -> nth_error targs k = Some e -> r_var R g = expr_means R e.
  Hypothesis HM : forall k g e, nth_error mp k = Some g -> nth_error margs k = Some e -> r_var R g = expr_means R e.

  Lemma position_nth : forall g l k, position g l = Some k -> nth_error l k = Some g.
  Proof.
    intros g l. induction l as [|h l IH]; cbn; intros k H; [discriminate|].
    destruct (generic_eqb h g) eqn:E.
    - inversion H. subst. apply generic_eqb_eq in E. subst. reflexivity.
    - destruct (position g l); [|discriminate]. inversion H. subst. cbn. now apply IH.
  Qed.
  Lemma at_index_nth : forall l k e, at_index l k = Ok e -> nth_error l k = Some e.
  Proof. intros l k e. unfold at_index. destruct (nth_error l k); intros H; inversion H. reflexivity. Qed.
  Lemma replacement_means : forall g e, replacement tp mp targs margs g = Ok e -> expr_means R e = r_var R g.
  Proof.
    intros g e. unfold replacement. destruct (position g tp) eqn:P.
    - intros H. apply at_index_nth in H. apply position_nth in P. symmetry. eapply HT; eauto.
    - destruct (position g mp) eqn:Q; [|discriminate].
      intros H. apply at_index_nth in H. apply position_nth in Q. symmetry. eapply HM; eauto.
  Qed.
  Lemma as_const_means : forall e c, as_const e = Ok c -> cg_means R c = expr_means R e.
  Proof.
    intros e c. destruct e as [s| | | |]; cbn; intros H; try (inversion H; reflexivity).
    destruct s as [|[id|id]| | | | | |]; try discriminate. inversion H. reflexivity.
  Qed.
  Lemma as_spec_means : forall e s, as_spec e = Ok s -> means R s = expr_means R e.
  Proof. intros e s. destruct e; cbn; intros H; inversion H. reflexivity. Qed.

  Lemma map_cg_means : forall c c', map_cg tp mp targs margs c = Ok c' -> cg_means R c' = cg_means R c.
  Proof.
    induction c; cbn; intros c' H; try (inversion H; reflexivity).
    - apply bind_ok in H as (e & H1 & H2). apply as_const_means in H2. apply replacement_means in H1. congruence.
    - apply bind_ok in H as (x & H1 & H). apply bind_ok in H as (y & H2 & H). inversion H. cbn. rewrite (IHc1 _ H1), (IHc2 _ H2). reflexivity.
    - apply bind_ok in H as (x & H1 & H). inversion H. cbn. rewrite (IHc _ H1). reflexivity.
  Qed.
  Lemma map_means :
    (forall s s', map_spec tp mp targs margs s = Ok s' -> means R s' = means R s) /\
    (forall e e', map_expr tp mp targs margs e = Ok e' -> expr_means R e' = expr_means R e) /\
    (forall l l', map_specs tp mp targs margs l = Ok l' -> each_means R l' = each_means R l) /\
    (forall l l', map_exprs tp mp targs margs l = Ok l' -> all_mean R l' = all_mean R l).
  Proof.
    apply types_ind; intros; ps; try (inversion H; reflexivity);
    try (inversion H0; reflexivity).
    - apply bind_ok in H0 as (x & H1 & H2). inversion H2. ms. rewrite (H _ H1). reflexivity.
    - apply bind_ok in H as (x & H1 & H2). apply as_spec_means in H2. apply replacement_means in H1. ms. congruence.
    - apply bind_ok in H0 as (x & H1 & H2). inversion H2. ms. rewrite (H _ H1). reflexivity.
    - apply bind_ok in H1 as (x & H1 & H2). apply bind_ok in H2 as (y & H2 & H3). inversion H3. ms. rewrite (H _ H1), (H0 _ H2). reflexivity.
    - apply bind_ok in H0 as (x & H1 & H2). inversion H2. ms. rewrite (H _ H1). reflexivity.
    - apply bind_ok in H0 as (x & H1 & H2). inversion H2. ms. now apply H.
    - apply bind_ok in H as (x & H1 & H2). inversion H2. ms. now apply map_cg_means.
    - apply bind_ok in H1 as (x & H1 & H2). apply bind_ok in H2 as (y & H2 & H3). inversion H3. ms. rewrite (H _ H1), (H0 _ H2). reflexivity.
    - apply bind_ok in H1 as (x & H1 & H2). apply bind_ok in H2 as (y & H2 & H3). inversion H3. ms. rewrite (H _ H1), (H0 _ H2). reflexivity.
  Qed.
  Lemma map_inputs_means : forall l l', map_inputs tp mp targs margs l = Ok l' ->
    map fst l' = map fst l /\ map (fun a => means R (snd a)) l' = map (fun a => means R (snd a)) l.
  Proof.
    induction l as [|[x s] l IH]; cbn; intros l' H; [inversion H; auto|].
    apply bind_ok in H as (y & H1 & H2). apply bind_ok in H2 as (z & H2 & H3). inversion H3. cbn.
    destruct (IH _ H2) as [A B]. rewrite A, B. rewrite (proj1 map_means _ _ H1). auto.
  Qed.
End Kept.

(** Names only *)
Lemma map_inputs_names : forall tp mp ta ma l l', map_inputs tp mp ta ma l = Ok l' -> map fst l' = map fst l.
Proof.
  induction l as [|[x s] l IH]; cbn; intros l' H; [inversion H; auto|].
  apply bind_ok in H as (y & H1 & H2). apply bind_ok in H2 as (z & H2 & H3). inversion H3. cbn. f_equal. auto.
Qed.

Lemma or_default_nth : forall args ps l k, or_default args ps = Ok l -> forall e, nth_error l k = Some e ->
  match nth_error args k with
  | Some a => e = a
  | None => exists p, nth_error ps k = Some p /\ p_default p = Some e
  end.
Proof.
  induction args as [|a args IH].
  - induction ps as [|p ps IHp]; cbn; intros l k H e N.
    + inversion H; subst. destruct k; discriminate.
    + destruct (p_default p) as [d|] eqn:E; [|discriminate]. apply bind_ok in H as (r & H1 & H2). inversion H2; subst.
      destruct k; cbn in *; [exists p; inversion N; subst; auto|]. specialize (IHp _ k H1 e N). destruct k; exact IHp.
  - intros [|p ps] l k H e N; cbn in H; [discriminate|].
    apply bind_ok in H as (r & H1 & H2). inversion H2; subst. destruct k; cbn in *; [inversion N; reflexivity|].
    exact (IH _ _ _ H1 _ N).
Qed.
Lemma check_inputs_same : forall target self remaps is_ ts u, check_inputs target self remaps is_ ts = Ok u ->
  map fst is_ = map fst ts /\
  map (fun a => resolve target self remaps (snd a)) is_ = map (fun a => resolve target self remaps (snd a)) ts.
Proof.
  induction is_ as [|[i a] is_ IH]; intros [|[t b] ts] u H; cbn in H; try discriminate; [auto|].
  apply bind_ok in H as (x & H1 & H). apply bind_ok in H as (y & H2 & H). apply guard_ok in H1, H2.
  apply String.eqb_eq in H1. apply (proj1 eqb_eq) in H2. destruct (IH _ _ H) as [A B]. cbn. split; congruence.
Qed.

Lemma get_in : forall A x (l : list (string * A)) a, get x l = Some a -> In (x, a) l.
Proof.
  intros A x l a. unfold get. destruct (find _ (rev l)) as [[y b]|] eqn:F; cbn; intros H; [|discriminate].
  inversion H; subst. apply find_some in F as [F1 F2]. cbn in F2. apply String.eqb_eq in F2. subst. now apply in_rev.
Qed.
Lemma get_none : forall A x (l : list (string * A)), get x l = None -> ~ In x (map fst l).
Proof.
  intros A x l. unfold get. destruct (find _ (rev l)) as [p|] eqn:F; cbn; intros H; [discriminate|].
  intros C. apply in_map_iff in C as ([y b] & E & I). cbn in E. subst y. apply in_rev in I.
  apply (find_none _ _ F) in I. cbn in I. rewrite String.eqb_refl in I. discriminate.
Qed.
Lemma get_some : forall A x (l : list (string * A)), In x (map fst l) -> exists a, get x l = Some a.
Proof.
  intros A x l H. destruct (get x l) as [a|] eqn:E; [eauto|]. apply get_none in E. contradiction.
Qed.

Lemma visit_assoc_ok : forall t l remaps, visit_assoc t l = Ok remaps ->
  (forall x n ps, In (x, (n, ps)) l -> exists m qs, get x (t_assoc t) = Some (m, qs) /\ List.length ps = List.length qs) /\
  (forall m n, In (m, n) remaps -> exists x ps qs, get x (t_assoc t) = Some (m, qs) /\ In (x, (n, ps)) l).
Proof.
  intros t. induction l as [|[x [n ps]] l IH]; cbn; intros remaps H.
  - inversion H; subst. split; [intros ? ? ? []|intros ? ? []].
  - destruct (get x (t_assoc t)) as [[m qs]|] eqn:G; [|discriminate].
    apply bind_ok in H as (u & H1 & H). apply guard_ok in H1. apply Nat.eqb_eq in H1.
    apply bind_ok in H as (r & H2 & H). inversion H; subst. destruct (IH _ H2) as [A B]. split.
    + intros y k rs [E|I]; [inversion E; subst; eauto|eauto].
    + intros a c [E|I]; [inversion E; subst; exists x, ps, qs; auto|]. destruct (B _ _ I) as (y & ps' & qs' & G' & I'). exists y, ps', qs'. auto.
Qed.

Lemma distinct_nodup : forall l, distinct l = true <-> NoDup l.
Proof.
  induction l as [|x l IH]; cbn; split; intros H; [constructor|reflexivity| |].
  - apply andb_prop in H as [A B]. constructor; [|now apply IH]. intros C. apply negb_true_iff in A.
    assert (existsb (String.eqb x) l = true) by (apply existsb_exists; exists x; split; [auto|apply String.eqb_refl]). congruence.
  - inversion H; subst. apply andb_true_intro. split; [|now apply IH]. apply negb_true_iff.
    destruct (existsb (String.eqb x) l) eqn:E; [|reflexivity]. apply existsb_exists in E as (y & I & Y). apply String.eqb_eq in Y. subst. contradiction.
Qed.

(** One method that passed *)
Lemma method_ok : forall t b remaps m i m',
  visit_assoc t (b_assoc b) = Ok remaps -> List.length (h_params i) = List.length (h_params m) ->
  map_head t (b_args b) m i = Ok m' ->
  check_output (b_target b) (b_self b) remaps i m' = Ok tt ->
  check_inputs (b_target b) (b_self b) remaps (h_inputs i) (h_inputs m') = Ok tt ->
  same_signature t b m i.
Proof.
  intros t b remaps m i m' HR HL HM HO HI. unfold map_head in HM.
  apply bind_ok in HM as (targs & H1 & HM). apply bind_ok in HM as (inputs & H2 & HM). apply bind_ok in HM as (output & H3 & HM).
  inversion HM; subst m'; clear HM. cbn in HI. apply check_inputs_same in HI as [N V].
  split; [rewrite N; eapply map_inputs_names; eassumption|].
  intros D R [F1 F2 F3 F4 F5].
  assert (RM : forall n n' l, In (n, n') remaps -> r_name R n l = r_name R n' l).
  { intros n n' l I. apply (proj2 (visit_assoc_ok _ _ _ HR)) in I as (x & ps & qs & G & I). eapply F5; eauto. }
  pose proof (resolve_means R (b_target b) (b_self b) remaps F1 F2 RM) as (RS & _).
  assert (HT : forall k g e, nth_error (map p_name (listed (t_params t))) k = Some g -> nth_error targs k = Some e -> r_var R g = expr_means R e).
  { intros k g e A B. rewrite nth_error_map in A. destruct (nth_error (listed (t_params t)) k) as [p|] eqn:P; cbn in A; [|discriminate].
    inversion A; subst. apply (F3 k p e P). unfold argument. pose proof (or_default_nth _ _ _ k H1 e B) as O.
    destruct (nth_error (listed (b_args b)) k); [congruence|]. destruct O as (q & Q1 & Q2). rewrite Q1. exact Q2. }
  assert (HMM : forall k g e, nth_error (method_params m) k = Some g ->
      nth_error (map (fun g => ESpec (Generic g)) (method_params i)) k = Some e -> r_var R g = expr_means R e).
  { intros k g e A B. unfold method_params in A, B. rewrite nth_error_map in A.
    destruct (nth_error (h_params m ++ h_hidden m) k) as [p|] eqn:P; cbn in A; [|discriminate]. inversion A; subst.
    rewrite !nth_error_map in B. destruct (nth_error (h_params i ++ h_hidden i) k) as [q|] eqn:Q; cbn in B; [|discriminate].
    inversion B; subst. cbn. exact (F4 _ _ _ P Q). }
  pose proof (map_inputs_means R _ _ _ _ HT HMM _ _ H2) as [_ MI]. split.
  - rewrite <- MI. transitivity (map (fun a : string * spec => means R (resolve (b_target b) (b_self b) remaps (snd a))) (h_inputs i)).
    + apply map_ext. intros a. symmetry. apply RS.
    + apply (f_equal (map (means R))) in V. rewrite !map_map in V. rewrite V. apply map_ext. intros a. apply RS.
  - unfold check_output in HO. apply guard_ok in HO. apply (proj1 eqb_eq) in HO. apply (f_equal (means R)) in HO.
    rewrite !RS in HO. rewrite HO. unfold output_type in *. cbn. destruct (h_output m) as [s|].
    + apply bind_ok in H3 as (s' & H3 & E). inversion E. exact (proj1 (map_means R _ _ _ _ HT HMM) _ _ H3).
    + inversion H3. reflexivity.
Qed.

Lemma visit_units_ok : forall t b remaps l seen u,
  visit_assoc t (b_assoc b) = Ok remaps -> visit_units t b remaps seen l = Ok u ->
  NoDup (map fst l) /\ (forall x, In x seen -> ~ In x (map fst l)) /\
  (forall x e i, In (x, (e, i)) l -> exists m, get x (t_fns t) = Some m /\
     e = false /\ h_unsafe i = h_unsafe m /\ List.length (h_params i) = List.length (h_params m) /\ same_signature t b m i).
Proof.
  intros t b remaps l. induction l as [|[x [e i]] l IH]; cbn [visit_units map fst]; intros seen u HR H.
  - split; [constructor|]. split; [intros ? _ []|intros ? ? ? []].
  - destruct (get x (t_fns t)) as [m|] eqn:G; [|discriminate].
    apply bind_ok in H as (u1 & H1 & H). apply bind_ok in H as (u2 & H2 & H). apply bind_ok in H as (u3 & H3 & H).
    apply bind_ok in H as (u4 & H4 & H). apply bind_ok in H as (m' & H5 & H). apply bind_ok in H as (u6 & H6 & H). apply bind_ok in H as (u7 & H7 & H).
    apply guard_ok in H1, H2, H3, H4. destruct u6, u7. apply Nat.eqb_eq in H4. apply Bool.eqb_prop in H3.
    destruct (IH _ _ HR H) as (ND & SN & MS).
    assert (NX : ~ In x (map fst l)) by (apply SN; now left).
    assert (NS : ~ In x seen).
    { intros C. apply negb_true_iff in H1. assert (existsb (String.eqb x) seen = true) by (apply existsb_exists; exists x; split; [auto|apply String.eqb_refl]). congruence. }
    split; [constructor; assumption|]. split.
    + intros y Y [E|I]; [congruence|]. apply (SN y); [now right|exact I].
    + intros y e' i' [E|I]; [|eauto]. inversion E; subst. exists m. apply negb_true_iff in H2.
      split; [reflexivity || assumption|]. split; [assumption|]. split; [assumption|]. split; [assumption|]. eapply method_ok; eassumption.
Qed.

Lemma none_missing_in : forall A B (w : list (string * A)) (g : list (string * B)),
  none_missing w g = true <-> (forall x, In x (map fst w) -> In x (map fst g)).
Proof.
  intros A B w g. unfold none_missing. rewrite forallb_forall. split; intros H.
  - intros x I. apply in_map_iff in I as (p & E & I). apply H in I. apply existsb_exists in I as (y & Y & E'). apply String.eqb_eq in E'. congruence.
  - intros p I. apply existsb_exists. exists (fst p). split; [apply H; now apply in_map|apply String.eqb_refl].
Qed.

Theorem accepted_follows : forall t b, visit_impl t b = Ok tt -> follows t b.
Proof.
  intros t b H. unfold visit_impl in H.
  apply bind_ok in H as (u1 & H1 & H). apply bind_ok in H as (u2 & H2 & H). apply bind_ok in H as (remaps & H3 & H).
  apply bind_ok in H as (u4 & H4 & H). apply bind_ok in H as (u5 & H5 & H6).
  apply guard_ok in H2, H5, H6. apply distinct_nodup in H2.
  destruct (visit_units_ok _ _ _ _ _ _ H3 H4) as (ND & _ & MS). destruct (visit_assoc_ok _ _ _ H3) as [AS _].
  unfold follows. split; [exact ND|]. split; [|split; [exact H2|]]; [|split; [|split]].
  - intros x. split.
    + intros I. apply in_map_iff in I as ([y [e i]] & E & I). cbn in E. subst y. apply MS in I as (m & G & _).
      apply get_in in G. apply in_map_iff. exists (x, m). auto.
    + apply none_missing_in. exact H6.
  - intros x. split.
    + intros I. apply in_map_iff in I as ([y [n ps]] & E & I). cbn in E. subst y. apply AS in I as (m & qs & G & _).
      apply get_in in G. apply in_map_iff. exists (x, (m, qs)). auto.
    + apply none_missing_in. exact H5.
  - intros x n ps m qs I G. apply AS in I as (m' & qs' & G' & L). congruence.
  - intros x e i m I G. apply MS in I as (m' & G' & R). rewrite G in G'. inversion G'; subst. exact R.
Qed.
