(** The order of keys, and stable sorting. *)
From Coq Require Import List ZArith Bool Arith Lia Sorting Permutation.
From Verif Require Import MonoModel MonoSpec.
Import ListNotations.
Local Open Scope list_scope.

Scheme ktv_mind := Induction for ktv Sort Prop
with ktvs_mind := Induction for ktvs Sort Prop.
Combined Scheme ktv_mutind from ktv_mind, ktvs_mind.

Lemma lex_eq a b : lex a b = Eq <-> a = Eq /\ b = Eq.
Proof. destruct a, b; cbn; intuition congruence. Qed.
Lemma lex_opp a b : CompOpp (lex a b) = lex (CompOpp a) (CompOpp b).
Proof. destruct a; reflexivity. Qed.
Lemma lex_lt a b : lex a b = Lt <-> a = Lt \/ (a = Eq /\ b = Lt).
Proof. destruct a, b; cbn; intuition congruence. Qed.

Lemma list_compare_eq a : forall b, list_compare a b = Eq <-> a = b.
Proof.
  induction a as [|x a IH]; intros [|y b]; cbn; try (split; congruence).
  rewrite lex_eq, Nat.compare_eq_iff, IH. split; [intros [-> ->]; reflexivity|intros E; now inversion E].
Qed.
Lemma list_compare_opp a : forall b, list_compare b a = CompOpp (list_compare a b).
Proof.
  induction a as [|x a IH]; intros [|y b]; cbn; auto. rewrite lex_opp, <- IH, Nat.compare_antisym. reflexivity.
Qed.
Lemma list_compare_trans a : forall b c, list_compare a b = Lt -> list_compare b c = Lt -> list_compare a c = Lt.
Proof.
  induction a as [|x a IH]; intros [|y b] [|z c]; cbn; try congruence.
  rewrite !lex_lt, !Nat.compare_lt_iff, !Nat.compare_eq_iff.
  intros [H|[-> H]] [K|[-> K]]; [left; lia|left; lia|left; lia|right; split; [reflexivity|eauto]].
Qed.

Lemma base_compare_eq a b : base_compare a b = Eq <-> a = b.
Proof.
  destruct a, b; cbn; try (split; congruence).
  - rewrite Nat.compare_eq_iff. split; congruence.
  - rewrite Z.compare_eq_iff. split; congruence.
  - destruct b0, b; cbn; split; congruence.
  - rewrite list_compare_eq. split; congruence.
Qed.
Lemma base_compare_opp a b : base_compare b a = CompOpp (base_compare a b).
Proof.
  destruct a, b; cbn; auto using Nat.compare_antisym, Z.compare_antisym, list_compare_opp.
  destruct b0, b; reflexivity.
Qed.
Lemma base_compare_trans a b c : base_compare a b = Lt -> base_compare b c = Lt -> base_compare a c = Lt.
Proof.
  destruct a, b, c; cbn; try congruence; intros H K.
  - rewrite Nat.compare_lt_iff in *. lia.
  - rewrite Z.compare_lt_iff in *. lia.
  - destruct b0, b, b1; cbn in *; congruence.
  - eauto using list_compare_trans.
Qed.

Lemma ktv_compare_eq : (forall a b, ktv_compare a b = Eq <-> a = b) /\ (forall a b, ktvs_compare a b = Eq <-> a = b).
Proof.
  apply ktv_mutind.
  - intros x l IH [y r]. cbn. rewrite lex_eq, base_compare_eq, IH. split; [intros [-> ->]; reflexivity|intros E; now inversion E].
  - intros [|y r]; cbn; split; congruence.
  - intros x IHx l IHl [|y r]; cbn; [split; congruence|]. rewrite lex_eq, IHx, IHl.
    split; [intros [-> ->]; reflexivity|intros E; now inversion E].
Qed.
Lemma ktv_compare_opp : (forall a b, ktv_compare b a = CompOpp (ktv_compare a b))
  /\ (forall a b, ktvs_compare b a = CompOpp (ktvs_compare a b)).
Proof.
  apply ktv_mutind.
  - intros x l IH [y r]. cbn. now rewrite lex_opp, <- IH, <- base_compare_opp.
  - now intros [|y r].
  - intros x IHx l IHl [|y r]; cbn; [reflexivity|]. now rewrite lex_opp, <- IHx, <- IHl.
Qed.
Lemma ktv_compare_trans : (forall a b c, ktv_compare a b = Lt -> ktv_compare b c = Lt -> ktv_compare a c = Lt)
  /\ (forall a b c, ktvs_compare a b = Lt -> ktvs_compare b c = Lt -> ktvs_compare a c = Lt).
Proof.
  destruct ktv_compare_eq as [E1 E2].
  apply ktv_mutind.
  - intros x l IH [y r] [z t]. cbn. rewrite !lex_lt.
    intros [H|[H H']] [K|[K K']].
    + left. eauto using base_compare_trans.
    + apply base_compare_eq in K. subst. now left.
    + apply base_compare_eq in H. subst. now left.
    + apply base_compare_eq in H, K. subst. right. split; [now apply base_compare_eq|eauto].
  - intros [|y r] [|z t]; cbn; congruence.
  - intros x IHx l IHl [|y r] [|z t]; cbn; try congruence. rewrite !lex_lt.
    intros [H|[H H']] [K|[K K']].
    + left. eauto.
    + apply E1 in K. subst. now left.
    + apply E1 in H. subst. now left.
    + apply E1 in H, K. subst. right. split; [now apply E1|eauto].
Qed.

Lemma key_compare_eq a b : key_compare a b = Eq <-> a = b.
Proof.
  destruct a as [n l], b as [m r]. unfold key_compare. cbn [fst snd].
  rewrite lex_eq, Nat.compare_eq_iff, (proj2 ktv_compare_eq). split; [intros [-> ->]; reflexivity|intros E; now inversion E].
Qed.
Lemma key_compare_opp a b : key_compare b a = CompOpp (key_compare a b).
Proof. unfold key_compare. now rewrite lex_opp, <- (proj2 ktv_compare_opp), <- Nat.compare_antisym. Qed.
Lemma key_lt_trans a b c : key_lt a b -> key_lt b c -> key_lt a c.
Proof.
  unfold key_lt, key_compare. rewrite !lex_lt, !Nat.compare_lt_iff, !Nat.compare_eq_iff.
  intros [H|[H H']] [K|[K K']]; [left; lia|left; lia|left; lia|right; split; [lia|eapply ktv_compare_trans; eauto]].
Qed.
Lemma key_lt_irrefl a : ~ key_lt a a.
Proof. unfold key_lt. intros H. assert (E : key_compare a a = Eq) by now apply key_compare_eq. congruence. Qed.
Lemma key_eqb_eq a b : key_eqb a b = true <-> a = b.
Proof.
  unfold key_eqb. rewrite <- key_compare_eq. destruct (key_compare a b); split; congruence.
Qed.
Lemma key_eqb_refl a : key_eqb a a = true.
Proof. now apply key_eqb_eq. Qed.
Lemma key_leb_le a b : key_leb a b = true <-> key_lt a b \/ a = b.
Proof.
  unfold key_leb, key_lt. rewrite <- key_compare_eq. destruct (key_compare a b); intuition congruence.
Qed.
Lemma key_leb_false a b : key_leb a b = false -> key_lt b a.
Proof. unfold key_leb, key_lt. rewrite (key_compare_opp a b). destruct (key_compare a b); cbn; congruence. Qed.
Lemma key_dec (a b : mkey) : {a = b} + {a <> b}.
Proof.
  destruct (key_eqb a b) eqn:E; [left; now apply key_eqb_eq|right; intros H; apply key_eqb_eq in H; congruence].
Qed.

(** Lists sorted by key. *)
Section Sorting.
Context {A : Type}.
Definition le (x y : mkey * A) : Prop := key_lt (fst x) (fst y) \/ fst x = fst y.
Definition at_key (k : mkey) (l : list (mkey * A)) : list (mkey * A) := filter (fun x => key_eqb (fst x) k) l.

Lemma le_trans x y z : le x y -> le y z -> le x z.
Proof.
  unfold le. intros [H|H] [K|K].
  - left. eauto using key_lt_trans.
  - left. now rewrite <- K.
  - left. now rewrite H.
  - right. congruence.
Qed.

Lemma insert_at k (x : mkey * A) l : StronglySorted le l ->
  at_key k (insert_sorted x l) = if key_eqb (fst x) k then x :: at_key k l else at_key k l.
Proof.
  induction l as [|y l IH]; intros S; cbn [insert_sorted]; [cbn; destruct (key_eqb (fst x) k); reflexivity|].
  destruct (key_leb (fst x) (fst y)) eqn:L.
  - cbn [at_key filter]. destruct (key_eqb (fst x) k); reflexivity.
  - inversion S as [|? ? S' F]; subst. unfold at_key in *. cbn [filter]. rewrite IH by assumption.
    destruct (key_eqb (fst x) k) eqn:Ex, (key_eqb (fst y) k) eqn:Ey; auto.
    apply key_eqb_eq in Ex, Ey. apply key_leb_false in L. rewrite Ex, Ey in L. now apply key_lt_irrefl in L.
Qed.
Lemma insert_in (x y : mkey * A) l : In y (insert_sorted x l) <-> x = y \/ In y l.
Proof.
  induction l as [|z l IH]; cbn [insert_sorted]; [reflexivity|].
  destruct (key_leb _ _); cbn; [reflexivity|]. rewrite IH. tauto.
Qed.
Lemma insert_sorted_sorted (x : mkey * A) l : StronglySorted le l -> StronglySorted le (insert_sorted x l).
Proof.
  induction 1 as [|y l S IH F]; cbn [insert_sorted]; [repeat constructor|].
  destruct (key_leb (fst x) (fst y)) eqn:L.
  - apply key_leb_le in L. constructor; [now constructor|]. constructor; [exact L|].
    eapply Forall_impl; [|exact F]. intros z. apply le_trans. exact L.
  - constructor; [assumption|]. apply Forall_forall. intros z Iz. apply insert_in in Iz. destruct Iz as [<-|Iz].
    + left. now apply key_leb_false.
    + rewrite Forall_forall in F. auto.
Qed.
Lemma sort_sorted (l : list (mkey * A)) : StronglySorted le (sort_by_key l).
Proof. induction l; cbn; [constructor|now apply insert_sorted_sorted]. Qed.
Lemma sort_at k (l : list (mkey * A)) : at_key k (sort_by_key l) = at_key k l.
Proof.
  induction l as [|x l IH]; cbn [sort_by_key fold_right]; [reflexivity|].
  rewrite insert_at by apply sort_sorted. change (fold_right insert_sorted [] l) with (sort_by_key l). rewrite IH. reflexivity.
Qed.

Lemma at_in k x (l : list (mkey * A)) : In x (at_key k l) <-> In x l /\ fst x = k.
Proof. unfold at_key. rewrite filter_In, key_eqb_eq. reflexivity. Qed.

Lemma sorted_unique (l r : list (mkey * A)) : StronglySorted le l -> StronglySorted le r ->
  (forall k, at_key k l = at_key k r) -> l = r.
Proof.
  intros Sl. revert r. induction Sl as [|x l Sl IH Fl]; intros r Sr E.
  - destruct r as [|y r]; [reflexivity|]. specialize (E (fst y)). cbn in E. rewrite key_eqb_refl in E. discriminate.
  - inversion Sr as [|y r' Sr' Fr Er]; subst.
    { specialize (E (fst x)). cbn in E. rewrite key_eqb_refl in E. discriminate. }
    assert (K : fst x = fst y).
    { assert (Ix : In x (y :: r')).
      { assert (H : In x (at_key (fst x) (y :: r'))) by (rewrite <- E; apply at_in; split; [now left|reflexivity]).
        now apply at_in in H. }
      assert (Iy : In y (x :: l)).
      { assert (H : In y (at_key (fst y) (x :: l))) by (rewrite E; apply at_in; split; [now left|reflexivity]).
        now apply at_in in H. }
      rewrite Forall_forall in Fl, Fr.
      destruct Ix as [->|Ix]; [reflexivity|]. destruct Iy as [->|Iy]; [reflexivity|].
      destruct (Fr _ Ix) as [H|H]; [|congruence]. destruct (Fl _ Iy) as [H'|H']; [|congruence].
      exfalso. exact (key_lt_irrefl _ (key_lt_trans _ _ _ H H')). }
    assert (X : x = y).
    { specialize (E (fst x)). cbn [at_key filter] in E. rewrite <- K, key_eqb_refl in E. congruence. }
    subst y. f_equal. apply IH; [assumption|]. intros k. specialize (E k). cbn [at_key filter] in E.
    unfold at_key. destruct (key_eqb (fst x) k); [congruence|assumption].
Qed.
End Sorting.

(** Keys without repetition have one sorted listing. *)
Definition unit_keys (l : list mkey) : list (mkey * unit) := map (fun k => (k, tt)) l.
Definition sort_keys (l : list mkey) : list mkey := map fst (sort_by_key (unit_keys l)).

Lemma insert_perm {A} (x : mkey * A) l : Permutation (insert_sorted x l) (x :: l).
Proof.
  induction l as [|y l IH]; cbn [insert_sorted]; [reflexivity|]. destruct (key_leb _ _); [reflexivity|].
  rewrite IH. apply perm_swap.
Qed.
Lemma sort_perm {A} (l : list (mkey * A)) : Permutation (sort_by_key l) l.
Proof. induction l as [|x l IH]; cbn; [reflexivity|]. rewrite insert_perm. now constructor. Qed.
Lemma sort_keys_perm l : Permutation (sort_keys l) l.
Proof.
  unfold sort_keys. rewrite sort_perm. unfold unit_keys. rewrite map_map. cbn. now rewrite map_id.
Qed.
Lemma sort_keys_sorted l : NoDup l -> StronglySorted key_lt (sort_keys l).
Proof.
  intros N. assert (N' : NoDup (sort_keys l)) by (eapply Permutation_NoDup; [symmetry; apply sort_keys_perm|exact N]).
  unfold sort_keys in *. pose proof (sort_sorted (unit_keys l)) as S. revert N' S. generalize (sort_by_key (unit_keys l)).
  clear. intros l. induction l as [|x l IH]; cbn; intros N S; [constructor|].
  inversion N as [|? ? Nx N']; subst. inversion S as [|? ? S' F]; subst. constructor; [auto|].
  apply Forall_forall. intros k Ik. apply in_map_iff in Ik. destruct Ik as (y & <- & Iy).
  rewrite Forall_forall in F. destruct (F y Iy) as [H|H]; [exact H|]. exfalso. apply Nx. rewrite H. now apply in_map.
Qed.
Lemma sorted_keys_unique l : forall r, StronglySorted key_lt l -> StronglySorted key_lt r ->
  (forall k, In k l <-> In k r) -> l = r.
Proof.
  induction l as [|x l IH]; intros r Sl Sr E.
  - destruct r as [|y r]; [reflexivity|]. destruct (proj2 (E y)). now left.
  - destruct r as [|y r]; [destruct (proj1 (E x)); now left|].
    inversion Sl as [|? ? Sl' Fl]; inversion Sr as [|? ? Sr' Fr]; subst. rewrite Forall_forall in Fl, Fr.
    assert (X : x = y).
    { destruct (proj1 (E x) (or_introl eq_refl)) as [->|Ix]; [reflexivity|].
      destruct (proj2 (E y) (or_introl eq_refl)) as [->|Iy]; [reflexivity|].
      exfalso. exact (key_lt_irrefl _ (key_lt_trans _ _ _ (Fr _ Ix) (Fl _ Iy))). }
    subst y. f_equal. apply IH; [assumption|assumption|]. intros k. split; intros I.
    + destruct (proj1 (E k) (or_intror I)) as [<-|J]; [|exact J]. exfalso. exact (key_lt_irrefl _ (Fl _ I)).
    + destruct (proj2 (E k) (or_intror I)) as [<-|J]; [|exact J]. exfalso. exact (key_lt_irrefl _ (Fr _ I)).
Qed.
