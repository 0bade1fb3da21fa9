(** C32: accepted implementations of a trait do not overlap. *)
From Coq Require Import List ZArith Bool Arith Lia.
From Verif Require Import ImplModel ImplSpec.
Import ListNotations.
Local Open Scope list_scope.

Scheme spec_mind := Induction for spec Sort Prop
with texpr_mind := Induction for texpr Sort Prop
with specs_mind := Induction for specs Sort Prop
with texprs_mind := Induction for texprs Sort Prop.
Combined Scheme spec_mutind from spec_mind, texpr_mind, specs_mind, texprs_mind.

Lemma and_then_false a b : and_then a b <> Some false <-> a <> Some false /\ (a = Some true -> b <> Some false).
Proof. destruct a as [[]|]; cbn; split; intros; try (split; congruence); intuition congruence. Qed.

Lemma specs_len al s l ts : is_specs al s l ts -> slen l = List.length ts.
Proof. induction 1; cbn; congruence. Qed.
Lemma exprs_len al s l vs : is_exprs al s l vs -> tlen l = List.length vs.
Proof. induction 1; cbn; congruence. Qed.

(** Patterns with a common instance are found to overlap. *)
Lemma overlap_complete al s1 s2 :
  (forall l, plain al l -> forall r t, plain al r -> is al s1 l t -> is al s2 r t -> specs_overlap l r <> Some false)
  /\ (forall l, plain_expr al l -> forall r v, plain_expr al r -> is_expr al s1 l v -> is_expr al s2 r v ->
        exprs_overlap l r <> Some false)
  /\ (forall l, plain_specs al l -> forall r ts, plain_specs al r -> is_specs al s1 l ts -> is_specs al s2 r ts ->
        all_specs l r <> Some false)
  /\ (forall l, plain_exprs al l -> forall r vs, plain_exprs al r -> is_exprs al s1 l vs -> is_exprs al s2 r vs ->
        all_exprs l r <> Some false).
Proof.
  apply spec_mutind.
  - intros n ps IH [Na Pp] r t Pr H1 H2. inversion H1 as [? ? args Ea Hp|? ? Ea| | | | |]; subst; [|congruence].
    inversion H2 as [? ? ? Eb Hq|? ? Eb| | | | |]; subst; cbn in *; try discriminate; try congruence.
    + rewrite Nat.eqb_refl. eapply IH; eauto. tauto.
    + destruct Pr. congruence.
  - intros g _ r t Pr H1 H2. cbn. discriminate.
  - intros l IH Pl r t Pr H1 H2. inversion H1 as [| | |? ts Hl| | |]; subst.
    inversion H2 as [|? ? Eb| |? ? Hr| | |]; subst; cbn in *; try discriminate.
    + destruct Pr. congruence.
    + rewrite (specs_len _ _ _ _ Hl), (specs_len _ _ _ _ Hr), Nat.eqb_refl. eapply IH; eauto.
  - intros p IHp e IHe [Pp Pe] r t Pr H1 H2. inversion H1 as [| | | |? t' ? v Hp He| |]; subst.
    inversion H2 as [|? ? Eb| | |? ? ? ? Hq Hf| |]; subst; cbn in *; try discriminate.
    + destruct Pr. congruence.
    + destruct Pr as [Pq Pf]. apply and_then_false. split; [eapply IHp; eauto|intros _; eapply IHe; eauto].
  - intros p IHp Pp r t Pr H1 H2. inversion H1; subst.
    inversion H2; subst; cbn in *; try discriminate; [destruct Pr; congruence|]. eapply IHp; eauto.
  - intros p IHp Pp r t Pr H1 H2. inversion H1; subst.
    inversion H2; subst; cbn in *; try discriminate; [destruct Pr; congruence|]. eapply IHp; eauto.
  - intros _ r t _ H1. inversion H1.
  - intros _ r t _ H1. inversion H1.
  - intros b [].
  - intros z _ r v Pr H1 H2. inversion H1; subst. inversion H2; subst; cbn in *; try discriminate.
    rewrite Z.eqb_refl. discriminate.
  - intros x _ r v Pr H1 H2. inversion H1; subst. inversion H2; subst; cbn in *; try discriminate.
    rewrite Nat.eqb_refl. discriminate.
  - intros p IHp Pp r v Pr H1 H2. inversion H1 as [| | |? t Hp|? ? Eg|]; subst.
    + inversion H2 as [| | |? ? Hq|? ? Eg2|]; subst; cbn in *; try discriminate.
      * eapply IHp; eauto.
      * destruct p; cbn; try discriminate; inversion Hp.
    + cbn. destruct r; try discriminate.
  - intros c _ r v Pr _ _. cbn. discriminate.
  - intros _ r ts Pr _ _. cbn. discriminate.
  - intros p IHp l IHl [Pp Pl] r ts Pr H1 H2. inversion H1; subst. inversion H2; subst. cbn in *. destruct Pr.
    apply and_then_false. split; [eapply IHp; eauto|intros _; eapply IHl; eauto].
  - intros _ r ts Pr _ _. cbn. discriminate.
  - intros p IHp l IHl [Pp Pl] r ts Pr H1 H2. inversion H1; subst. inversion H2; subst. cbn in *. destruct Pr.
    apply and_then_false. split; [eapply IHp; eauto|intros _; eapply IHl; eauto].
Qed.

(** The arguments of a type under its target. *)
Definition target_of (t : gty) : impl_target * list gval :=
  match t with
  | GNamed n args => (ITNamed n, args)
  | GTuple l => (ITTuple, map GTy l)
  | GArray i s => (ITArray, [GTy i; s])
  | GInverted i => (ITInverted, [GTy i])
  | GCopyView i => (ITCopyView, [GTy i])
  end.

Lemma spec_args_is al s l ts : is_specs al s l ts -> is_exprs al s (spec_args l) (map GTy ts).
Proof. induction 1; cbn; constructor; [now constructor|assumption]. Qed.
Lemma spec_args_plain al l : plain_specs al l -> plain_exprs al (spec_args l).
Proof. induction l; cbn; tauto. Qed.

Lemma target_is al s p t target args : plain al p -> is al s p t -> get_impl_target p = Some (target, args) ->
  target = fst (target_of t) /\ is_exprs al s args (snd (target_of t)) /\ plain_exprs al args.
Proof.
  intros P H G. inversion H; subst; cbn in *; try discriminate; injection G as <- <-; cbn; try tauto.
  - destruct P. congruence.
  - split; [reflexivity|]. split; [now apply spec_args_is|now apply spec_args_plain].
  - split; [reflexivity|]. split; [repeat constructor; assumption|tauto].
  - split; [reflexivity|]. split; [repeat constructor; assumption|tauto].
  - split; [reflexivity|]. split; [repeat constructor; assumption|tauto].
Qed.

Lemma trait_eqb_refl a : trait_eqb a a = true.
Proof. destruct a; cbn; apply Nat.eqb_refl. Qed.
Lemma target_eqb_refl a : target_eqb a a = true.
Proof. destruct a; cbn; auto using Nat.eqb_refl. Qed.

(** The table holds an entry for every registered impl. *)
Definition entry_of (im : impl) (en : entry) : Prop :=
  get_impl_target (im_target im) = Some (en_target en, en_args en)
  /\ en_trait en = im_trait im /\ en_trait_args en = im_trait_args im.

Lemma insert_refuses al tab im im' en target args t targs :
  plain_impl al im -> plain_impl al im' -> im_trait im = im_trait im' ->
  applies al im t targs -> applies al im' t targs ->
  In en tab -> entry_of im en -> get_impl_target (im_target im') = Some (target, args) ->
  insert tab target (im_trait im') args (im_trait_args im') = None.
Proof.
  intros [P1 P2] [Q1 Q2] Et (s1 & A1 & A2) (s2 & B1 & B2) I (E1 & E2 & E3) G.
  unfold insert. destruct (forallb _ tab) eqn:F; [|reflexivity]. exfalso.
  rewrite forallb_forall in F. specialize (F en I). unfold conflicts in F.
  destruct (target_is al s1 _ _ _ _ P1 A1 E1) as (T1 & S1 & L1).
  destruct (target_is al s2 _ _ _ _ Q1 B1 G) as (T2 & S2 & L2).
  rewrite T1, T2, target_eqb_refl, E2, Et, trait_eqb_refl in F. cbn [andb] in F.
  rewrite (exprs_len _ _ _ _ S1), (exprs_len _ _ _ _ S2), Nat.eqb_refl in F.
  destruct (overlap_complete al s1 s2) as (_ & _ & _ & O).
  pose proof (O _ L1 _ _ L2 S1 S2) as O1. rewrite E3 in F. pose proof (O _ P2 _ _ Q2 A2 B2) as O2.
  assert (O3 : and_then (all_exprs (en_args en) args) (all_exprs (im_trait_args im) (im_trait_args im')) <> Some false)
    by (apply and_then_false; auto).
  destruct (and_then _ _) as [[]|]; congruence.
Qed.

Lemma register_step tab im l tab' : register tab (im :: l) = Some tab' ->
  exists en, entry_of im en /\ register (tab ++ [en]) l = Some tab'.
Proof.
  cbn. destruct (get_impl_target (im_target im)) as [[target args]|] eqn:G; [|discriminate].
  unfold insert. destruct (forallb _ tab); [|discriminate]. intros H. eexists. split; [|exact H].
  unfold entry_of. cbn. auto.
Qed.

Lemma register_later al im im' t targs : plain_impl al im -> plain_impl al im' -> im_trait im = im_trait im' ->
  applies al im t targs -> applies al im' t targs ->
  forall l tab tab' en, In en tab -> entry_of im en -> In im' l -> register tab l = Some tab' -> False.
Proof.
  intros P P' Et A A'. induction l as [|x l IH]; intros tab tab' en I E J R; [destruct J|].
  destruct J as [->|J].
  - cbn in R. destruct (get_impl_target (im_target im')) as [[target args]|] eqn:G; [|discriminate].
    rewrite (insert_refuses al tab im im' en target args t targs P P' Et A A' I E G) in R. discriminate.
  - apply register_step in R. destruct R as (en' & _ & R).
    eapply IH; [|exact E|exact J|exact R]. apply in_or_app. now left.
Qed.

Lemma register_pair al l im1 l1 im2 l2 tab tab' t targs : l = l1 ++ im1 :: l2 -> In im2 l2 ->
  plain_impl al im1 -> plain_impl al im2 -> im_trait im1 = im_trait im2 ->
  applies al im1 t targs -> applies al im2 t targs -> register tab l = Some tab' -> False.
Proof.
  intros -> J P P' Et A A'. revert tab. induction l1 as [|x l1 IH]; intros tab R.
  - apply register_step in R. destruct R as (en & E & R).
    eapply register_later with (im := im1) (im' := im2) (tab := tab ++ [en]); eauto. apply in_or_app. right. now left.
  - apply register_step in R. destruct R as (en & _ & R). eauto.
Qed.

(** Two different blocks of an accepted program that implement the same trait
    never both apply to a concrete type with concrete trait arguments.  Missing:
    boolean type arguments and aliases inside the patterns, where it is false. *)
Theorem C32_no_overlap_partial :
  forall aliases impls tab i j a b t targs,
  register [] impls = Some tab -> Forall (plain_impl aliases) impls ->
  nth_error impls i = Some a -> nth_error impls j = Some b -> i <> j -> im_trait a = im_trait b ->
  applies aliases a t targs -> ~ applies aliases b t targs.
Proof.
  intros al impls tab i j a b t targs R F Ei Ej Ne Et A B.
  assert (W : forall i j a b, i < j -> nth_error impls i = Some a -> nth_error impls j = Some b ->
              im_trait a = im_trait b -> applies al a t targs -> applies al b t targs -> False).
  { clear i j a b Ei Ej Ne Et A B. intros i j a b Lt Ei Ej Et A B.
    rewrite Forall_forall in F. pose proof (F a (nth_error_In _ _ Ei)). pose proof (F b (nth_error_In _ _ Ej)).
    destruct (nth_error_split _ _ Ei) as (l1 & l2 & E & L). subst impls.
    rewrite nth_error_app2 in Ej by lia. replace (j - length l1) with (S (j - length l1 - 1)) in Ej by lia.
    cbn in Ej. apply nth_error_In in Ej. exact (register_pair al _ a l1 b l2 [] tab t targs eq_refl Ej H H0 Et A B R). }
  destruct (Nat.lt_total i j) as [H|[H|H]]; [exact (W i j a b H Ei Ej Et A B)|contradiction|exact (W j i b a H Ej Ei (eq_sym Et) B A)].
Qed.

(** `impl Tr for X<true>` can be written twice. *)
Theorem C32_bool_refuted :
  exists impls tab a b t targs, register [] impls = Some tab
    /\ nth_error impls 0 = Some a /\ nth_error impls 1 = Some b /\ im_trait a = im_trait b
    /\ applies (fun _ => None) a t targs /\ applies (fun _ => None) b t targs.
Proof.
  pose (im := {| im_trait := TrNamed 0; im_trait_args := TNil; im_target := Declared 0 (TCons (TBool true) TNil) |}).
  assert (A : applies (fun _ => None) im (GNamed 0 [GBool true]) []).
  { exists (fun _ => GBool true). split; repeat constructor. }
  exists [im; im]. eexists. exists im, im, (GNamed 0 [GBool true]), []. split; [reflexivity|]. auto.
Qed.

(** With `type A = (bool, bool)`, `impl Tr for X<A>` and
    `impl Tr for X<(bool, bool)>` are both accepted. *)
Theorem C32_alias_refuted :
  exists aliases impls tab a b t targs, register [] impls = Some tab
    /\ nth_error impls 0 = Some a /\ nth_error impls 1 = Some b /\ im_trait a = im_trait b
    /\ applies aliases a t targs /\ applies aliases b t targs.
Proof.
  pose (pair := GTuple [GNamed 1 []; GNamed 1 []]).
  pose (al := fun n => if n =? 2 then Some pair else None).
  pose (a := {| im_trait := TrNamed 0; im_trait_args := TNil;
                im_target := Declared 0 (TCons (TSpec (Declared 2 TNil)) TNil) |}).
  pose (b := {| im_trait := TrNamed 0; im_trait_args := TNil;
                im_target := Declared 0 (TCons (TSpec (Tuple (SCons (Declared 1 TNil) (SCons (Declared 1 TNil) SNil)))) TNil) |}).
  exists al, [a; b]. eexists. exists a, b, (GNamed 0 [GTy pair]), [].
  split; [reflexivity|]. split; [reflexivity|]. split; [reflexivity|]. split; [reflexivity|]. split.
  - exists (fun _ => GBool true). split; [|constructor]. apply IsNamed; [reflexivity|].
    constructor; [|constructor]. apply IsTy. now apply IsAlias.
  - exists (fun _ => GBool true). split; [|constructor]. apply IsNamed; [reflexivity|].
    constructor; [|constructor]. apply IsTy. apply IsTuple. constructor; [|constructor; [|constructor]]; apply IsNamed; (reflexivity || constructor).
Qed.

(** `impl Into<T> for X<int<8>, T>`, `impl Into<T> for X<int<9>, T>`,
    `impl Into<bool> for [T; 3]`, `impl Into<bool> for [T; 4]` are accepted, and
    the first applies to `X<int<8>, bool>`; adding `impl Into<bool> for X<A, B>`
    is refused. *)
Definition ty_int (n : Z) : spec := Declared 1 (TCons (TInteger n) TNil).
Definition ex_x (n : Z) : impl :=
  {| im_trait := TrNamed 0; im_trait_args := TCons (TSpec (Generic 0)) TNil;
     im_target := Declared 0 (TCons (TSpec (ty_int n)) (TCons (TSpec (Generic 0)) TNil)) |}.
Definition ex_array (n : Z) : impl :=
  {| im_trait := TrNamed 0; im_trait_args := TCons (TSpec (Declared 2 TNil)) TNil;
     im_target := Array (Generic 0) (TInteger n) |}.
Definition ex_generic : impl :=
  {| im_trait := TrNamed 0; im_trait_args := TCons (TSpec (Declared 2 TNil)) TNil;
     im_target := Declared 0 (TCons (TSpec (Generic 0)) (TCons (TSpec (Generic 1)) TNil)) |}.

Example C32_nontrivial :
  (exists tab, register [] [ex_x 8; ex_x 9; ex_array 3; ex_array 4] = Some tab)
  /\ Forall (plain_impl (fun _ => None)) [ex_x 8; ex_x 9; ex_array 3; ex_array 4]
  /\ applies (fun _ => None) (ex_x 8) (GNamed 0 [GTy (GNamed 1 [GInt 8]); GTy (GNamed 2 [])]) [GTy (GNamed 2 [])]
  /\ register [] [ex_x 8; ex_x 9; ex_generic] = None.
Proof.
  split; [eexists; reflexivity|]. split; [repeat constructor|]. split; [|reflexivity].
  exists (fun _ => GTy (GNamed 2 [])). split.
  - apply IsNamed; [reflexivity|]. constructor.
    + apply IsTy, IsNamed; [reflexivity|]. constructor; [constructor|constructor].
    + constructor; [|constructor]. now apply IsValue.
  - constructor; [|constructor]. now apply IsValue.
Qed.

Print Assumptions C32_no_overlap_partial.
Print Assumptions C32_bool_refuted.
Print Assumptions C32_alias_refuted.
