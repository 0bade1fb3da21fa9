(** Proofs about SuperModel.v *)
From Coq Require Import ZArith List Bool Arith Lia Permutation.
From Verif Require Import ConformModel ConformSpec ConformProofs ConformExact SuperModel SuperSpec BitsFacts.
Import ListNotations.

Definition succ (g : traits_) (x : nat) : list nat := match get_trait g x with Some t => map ts_name (tr_supers t) | None => [] end.
Lemma get_in g d t : NoDup (map fst g) -> (get_trait g d = Some t <-> In (d, t) g).
Proof.
  unfold get_trait. induction g as [|[k m] g IH]; cbn; intros ND; [split; [discriminate|intros []]|]. inversion ND as [|? ? NI ND']; subst.
  destruct (Nat.eqb_spec k d) as [->|N]; cbn.
  - split; intros H; [apply Some_inj in H; subst; auto|]. destruct H as [H|H]; [inversion H; auto|]. destruct NI. apply (in_map fst) in H. exact H.
  - rewrite (IH ND'). split; auto. intros [H|H]; auto. inversion H; congruence.
Qed.
Lemma get_none g d : get_trait g d = None <-> ~ In d (map fst g).
Proof.
  unfold get_trait. induction g as [|[k m] g IH]; cbn; [intuition|]. destruct (Nat.eqb_spec k d) as [->|N]; cbn.
  - split; [discriminate|intros H; exfalso; apply H; auto].
  - rewrite IH. intuition.
Qed.
Lemma super_succ g p x : NoDup (map fst g) -> (super_of g p x <-> In x (succ g p)).
Proof.
  intros ND. unfold succ, super_of. split.
  - intros (t & s & I & J & O). apply (get_in g p t ND) in I. rewrite I. subst. now apply in_map.
  - destruct (get_trait g p) as [t|] eqn:B; [|intros []]. intros H. apply in_map_iff in H as (s & I & O). apply get_in in B; auto. exists t, s. auto.
Qed.

(** * Adding names *)
Definition keys (e : edges) : list nat := map fst e.
Lemma contains_in e x : contains e x = true <-> In x (keys e).
Proof.
  unfold contains, keys. rewrite existsb_exists, in_map_iff. split; intros (p & A & B); exists p.
  - apply Nat.eqb_eq in B. auto.
  - subst. split; auto. apply Nat.eqb_refl.
Qed.
(** Keys are distinct, and each comes from [d] or from an older key. *)
Inductive older (d : nat) : edges -> Prop :=
| O_nil : older d []
| O_cons x p e : older d e -> ~ In x (keys e) -> p = d \/ In p (keys e) -> older d ((x, p) :: e).
Record sound (g : traits_) (d : nat) (done : list nat) (s : pending * edges) : Prop := {
  so_keys : Permutation (keys (snd s)) (done ++ fst s);
  so_older : older d (snd s);
  so_true : forall x p, In (x, p) (snd s) -> super_of g p x }.

Lemma sound_add g d done prev s x : sound g d done s -> super_of g prev x -> prev = d \/ In prev (keys (snd s)) -> sound g d done (add_name prev s x).
Proof.
  intros [K O T] M P. unfold add_name. destruct (contains (snd s) x) eqn:C; [constructor; assumption|]. constructor; cbn.
  - rewrite <- Permutation_middle. now constructor.
  - constructor; auto. intros I. apply contains_in in I. congruence.
  - intros y p [E|E]; [inversion E; subst; assumption|auto].
Qed.
Lemma keys_add prev s x y : In y (keys (snd (add_name prev s x))) <-> y = x \/ In y (keys (snd s)).
Proof.
  unfold add_name. destruct (contains (snd s) x) eqn:C; cbn; [|intuition]. apply contains_in in C. split; auto. intros [->|H]; auto.
Qed.
Lemma keys_added prev y : forall names s, In y (keys (snd (fold_left (add_name prev) names s))) <-> In y names \/ In y (keys (snd s)).
Proof.
  induction names as [|x names IH]; intros s; cbn; [intuition|]. rewrite IH, keys_add. intuition.
Qed.
Lemma sound_names g d done prev : forall names s, sound g d done s -> (forall x, In x names -> super_of g prev x) -> prev = d \/ In prev (keys (snd s)) ->
  sound g d done (fold_left (add_name prev) names s).
Proof.
  induction names as [|x names IH]; intros s T M P; [exact T|]. cbn. apply IH.
  - apply sound_add; auto. apply M. cbn. auto.
  - intros y I. apply M. cbn. auto.
  - destruct P as [P|P]; auto. right. apply keys_add. auto.
Qed.
Definition expand (g : traits_) (x : nat) (s : pending * edges) : pending * edges :=
  let s := (remove Nat.eq_dec x (fst s), snd s) in match get_trait g x with Some t => add_supers x (tr_supers t) s | None => s end.
Lemma expand_names g x s : expand g x s = fold_left (add_name x) (succ g x) (remove Nat.eq_dec x (fst s), snd s).
Proof. unfold expand, succ, add_supers. destruct (get_trait g x); reflexivity. Qed.
Lemma search_step fuel order g d (s : pending * edges) : fst s <> [] -> search (S fuel) order g d s =
  let x := pick (order fuel (fst s)) (fst s) in if x =? d then Some (Cycle (snd s)) else search fuel order g d (expand g x s).
Proof. intros N. destruct s as [[|a p] e]; [destruct N; reflexivity|reflexivity]. Qed.
Lemma pick_in i (p : pending) : p <> [] -> In (pick i p) p.
Proof. intros N. unfold pick. apply nth_In. apply Nat.mod_upper_bound. destruct p; cbn; congruence. Qed.
Lemma older_nodup d e : older d e -> NoDup (keys e).
Proof. induction 1; cbn; constructor; auto. Qed.
Lemma remove_perm x : forall p, NoDup p -> In x p -> Permutation p (x :: remove Nat.eq_dec x p).
Proof.
  induction p as [|y p IH]; intros ND I; [destruct I|]. inversion ND as [|? ? N ND']; subst. cbn. destruct (Nat.eq_dec x y) as [->|E].
  - rewrite notin_remove; auto.
  - destruct I as [I|I]; [congruence|]. rewrite perm_swap. constructor. auto.
Qed.
Lemma sound_drop g d done x s : sound g d done s -> In x (fst s) -> sound g d (x :: done) (remove Nat.eq_dec x (fst s), snd s).
Proof.
  intros [K O T] I. constructor; cbn; auto. rewrite K. rewrite (remove_perm x (fst s)) at 1; auto.
  - symmetry. apply Permutation_middle.
  - apply older_nodup in O. apply (Permutation_NoDup K) in O. clear - O. induction done; auto. inversion O; auto.
Qed.
Lemma super_more g d t p x : super_of g p x -> super_of ((d, t) :: g) p x.
Proof. intros (m & q & I & J & O). exists m, q. cbn. auto. Qed.
Lemma sound_expand g d t done x s : NoDup (map fst g) -> sound ((d, t) :: g) d done s -> In x (fst s) -> sound ((d, t) :: g) d (x :: done) (expand g x s).
Proof.
  intros ND T I. rewrite expand_names. apply sound_names.
  - apply sound_drop; auto.
  - intros y J. apply super_succ in J; auto. now apply super_more.
  - right. cbn. destruct T as [K _ _]. apply (Permutation_in _ (Permutation_sym K)). apply in_or_app. auto.
Qed.

(** * The search ends *)
Lemma search_ends order g d U : (forall x, incl (succ g x) U) -> forall fuel done (s : pending * edges), NoDup (done ++ fst s) -> Permutation (keys (snd s)) (done ++ fst s) ->
  incl (done ++ fst s) U -> length U < fuel + length done -> search fuel order g d s <> None.
Proof.
  intros HU. induction fuel as [|fuel IH]; intros done s ND K IN L.
  - exfalso. assert (NoDup done) by (clear - ND; induction done; [constructor|cbn in ND; inversion ND; subst; constructor; [intros I; apply H1; apply in_or_app; auto|auto]]).
    pose proof (NoDup_incl_length H (fun x I => IN x (in_or_app _ _ _ (or_introl I)))). cbn in L. lia.
  - destruct (fst s) as [|a p] eqn:E; [cbn [search]; rewrite E; discriminate|]. rewrite search_step by (rewrite E; discriminate). cbv zeta.
    assert (I : In (pick (order fuel (fst s)) (fst s)) (fst s)) by (apply pick_in; rewrite E; discriminate). rewrite <- E in *.
    set (x := pick _ _) in *. destruct (x =? d); [discriminate|].
    assert (NDp : NoDup (fst s)) by (clear - ND; induction done; [exact ND|inversion ND; auto]).
    assert (P0 : Permutation (keys (snd s)) ((x :: done) ++ remove Nat.eq_dec x (fst s))).
    { rewrite K. rewrite (remove_perm x (fst s) NDp I) at 1. symmetry. apply Permutation_middle. }
    assert (NDk : NoDup (keys (snd s))) by (apply (Permutation_NoDup (Permutation_sym K)); exact ND).
    (* adding names keeps the keys apart and within U *)
    assert (ADD : forall names (s0 : pending * edges), incl names U -> NoDup (keys (snd s0)) -> Permutation (keys (snd s0)) ((x :: done) ++ fst s0) -> incl ((x :: done) ++ fst s0) U ->
      let s1 := fold_left (add_name x) names s0 in NoDup (keys (snd s1)) /\ Permutation (keys (snd s1)) ((x :: done) ++ fst s1) /\ incl ((x :: done) ++ fst s1) U).
    { clear. induction names as [|y names IHn]; intros s0 A B C D; [cbn; auto|]. cbn [fold_left]. apply IHn; [intros z Z; apply A; cbn; auto| | |].
      - unfold add_name. destruct (contains (snd s0) y) eqn:Y; auto. cbn. constructor; auto. intros J. apply contains_in in J. congruence.
      - unfold add_name. destruct (contains (snd s0) y) eqn:Y; auto. cbn [snd fst keys map]. fold (keys (snd s0)). rewrite C. apply Permutation_middle.
      - unfold add_name. destruct (contains (snd s0) y) eqn:Y; auto. cbn [snd fst]. intros z Z. apply in_app_or in Z as [Z|[Z|Z]]; [apply D; apply in_or_app; auto|subst; apply A; cbn; auto|apply D; apply in_or_app; auto]. }
    destruct (ADD (succ g x) (remove Nat.eq_dec x (fst s), snd s)) as (A & B & C); cbn [fst snd]; auto.
    { intros z Z. apply IN. apply (Permutation_in _ K). apply (Permutation_in _ (Permutation_sym P0)). exact Z. }
    rewrite expand_names. apply (IH (x :: done)); auto.
    + apply (Permutation_NoDup B). exact A.
    + cbn [length]. lia.
Qed.

(** * What acceptance means *)
Inductive reach (g : traits_) (d : nat) : nat -> Prop :=
| R_here : reach g d d
| R_step x y : In y (succ g x) -> reach g d y -> reach g d x.
Lemma search_accepted order g d : forall fuel (s : pending * edges), search fuel order g d s = Some Accepted ->
  (forall x, In x (fst s) -> In x (keys (snd s))) ->
  (forall x, In x (keys (snd s)) -> In x (fst s) \/ (x <> d /\ incl (succ g x) (keys (snd s)))) ->
  forall x, In x (keys (snd s)) -> ~ reach g d x.
Proof.
  induction fuel as [|fuel IH]; intros s H PK KP; [discriminate|]. destruct (fst s) as [|a p] eqn:E.
  - intros x I R. revert I. induction R as [|x y J R IHR]; intros I.
    + destruct (KP d I) as [[]|[N _]]. congruence.
    + apply IHR. destruct (KP x I) as [[]|[_ C]]. auto.
  - rewrite <- E in *. rewrite search_step in H by (rewrite E; discriminate). cbv zeta in H. set (y := pick _ _) in *. destruct (Nat.eqb_spec y d) as [|N]; [discriminate|].
    assert (Y : In y (fst s)) by (apply pick_in; rewrite E; discriminate).
    specialize (IH _ H). rewrite expand_names in IH.
    assert (FP : forall names (s0 : pending * edges) z, In z (fst (fold_left (add_name y) names s0)) <-> In z (fst s0) \/ (In z names /\ ~ In z (keys (snd s0)))).
    { clear. induction names as [|w names IHn]; intros s0 z; cbn; [intuition|]. rewrite IHn, keys_add. unfold add_name.
      destruct (contains (snd s0) w) eqn:C; cbn.
      - apply contains_in in C. destruct (Nat.eq_dec z w) as [->|Z]; [tauto|]. split; [tauto|]. intros [X|[[X|X] Q]]; [auto|congruence|]. right. split; auto. intros [Y|Y]; auto.
      - assert (NC : ~ In w (keys (snd s0))) by (intros I; apply contains_in in I; congruence). destruct (Nat.eq_dec z w) as [->|Z]; [tauto|].
        split; [intros [[X|X]|[X Q]]; [congruence|auto|right; split; auto]|]. intros [X|[[X|X] Q]]; [auto|congruence|]. right. split; auto. intros [Y|Y]; auto. }
    intros x I. apply IH.
    + intros z Z. apply FP in Z as [Z|[Z _]]; apply keys_added; [right|left; exact Z]. cbn in Z. apply in_remove in Z as [Z _]. auto.
    + intros z Z. rewrite FP. cbn [fst snd]. apply keys_added in Z. cbn [snd] in Z.
      destruct (in_dec Nat.eq_dec z (keys (snd s))) as [K|K].
      * destruct (Nat.eq_dec z y) as [->|ZY].
        -- right. split; auto. intros w W. apply keys_added. auto.
        -- destruct (KP z K) as [KZ|[KZ C]].
           ++ left. left. apply in_in_remove; auto.
           ++ right. split; auto. intros w W. apply keys_added. right. cbn. auto.
      * destruct Z as [Z|Z]; [|contradiction]. left. right. auto.
    + apply keys_added. right. exact I.
Qed.

(** * The notes of the error *)
Lemma edge_in d e x p : older d e -> (edge e x = Some p <-> In (x, p) e).
Proof.
  unfold edge. induction 1 as [|y q e O IH N P]; cbn; [split; [discriminate|intros []]|]. destruct (Nat.eqb_spec y x) as [->|E]; cbn.
  - split; intros H; [apply Some_inj in H; subst; auto|]. destruct H as [H|H]; [inversion H; auto|]. exfalso. apply N. apply (in_map fst) in H. exact H.
  - rewrite IH. split; auto. intros [H|H]; auto. inversion H. congruence.
Qed.
Lemma trail_runs_in d e : older d e -> forall e', older d e' -> (forall q r, In (q, r) e' -> In (q, r) e) -> forall z, In z (keys e') ->
  forall fuel, length e' <= fuel -> trail fuel e d z <> None.
Proof.
  intros O. induction e' as [|[a b] e' IHe]; intros O' SUB z Z fuel L'; [destruct Z|]. inversion O' as [|? ? ? O2 N P]; subst. cbn in Z, L'. destruct fuel as [|fuel]; [lia|]. destruct Z as [Z|Z].
  - subst a. cbn. assert (E : edge e z = Some b) by (apply (edge_in d); auto; apply SUB; left; reflexivity). rewrite E.
    destruct (Nat.eqb_spec b d) as [|NB]; [discriminate|]. destruct P as [P|P]; [contradiction|].
    assert (Y : trail fuel e d b <> None) by (apply IHe; auto; [intros; apply SUB; right; auto|lia]).
    destruct (trail fuel e d b); [discriminate|destruct Y; reflexivity].
  - apply IHe; auto; [intros; apply SUB; right; auto|lia].
Qed.
Lemma trail_runs d e : older d e -> forall fuel y, In y (keys e) -> length e <= fuel -> trail fuel e d y <> None.
Proof. intros O fuel y I L. apply (trail_runs_in d e O e); auto. Qed.
Lemma last_cons_ne {A} (y : A) c x z : c <> [] -> last (y :: c) x = last c z.
Proof. revert y. induction c as [|a c IH]; intros y N; [destruct N; reflexivity|]. destruct c as [|b c]; [reflexivity|]. change (last (a :: b :: c) x = last (b :: c) z). apply IH. discriminate. Qed.
Lemma trail_true g d e : (forall x p, edge e x = Some p -> super_of g p x) -> forall fuel x c, trail fuel e d x = Some c -> chain g x c /\ last c x = d /\ c <> [].
Proof.
  intros M. induction fuel as [|fuel IH]; intros x c H; [discriminate|]. cbn in H. destruct (edge e x) as [y|] eqn:E; [|discriminate].
  destruct (Nat.eqb_spec y d) as [->|N].
  - apply Some_inj in H. subst c. cbn. repeat split; auto. discriminate.
  - destruct (trail fuel e d y) as [c'|] eqn:T; [|discriminate]. apply Some_inj in H. subst c. destruct (IH _ _ T) as (A & B & C). cbn [chain]. repeat split; auto; [|discriminate].
    rewrite (last_cons_ne y c' x y C). exact B.
Qed.
Lemma search_cycle order g t d : NoDup (map fst g) -> forall fuel done (s : pending * edges) e, sound ((d, t) :: g) d done s -> search fuel order g d s = Some (Cycle e) ->
  exists p done, In d p /\ sound ((d, t) :: g) d done (p, e).
Proof.
  intros ND. induction fuel as [|fuel IH]; intros done s e T H; [discriminate|]. destruct (fst s) as [|a p] eqn:E.
  - cbn [search] in H. rewrite E in H. discriminate.
  - rewrite search_step in H by (rewrite E; discriminate). cbv zeta in H.
    assert (I : In (pick (order fuel (fst s)) (fst s)) (fst s)) by (apply pick_in; rewrite E; discriminate).
    destruct (Nat.eqb_spec (pick (order fuel (fst s)) (fst s)) d) as [D|N].
    + rewrite D in I. exists (fst s), done. split; [exact I|]. assert (X : snd s = e) by congruence. rewrite <- X, <- surjective_pairing. exact T.
    + apply (IH _ _ _ (sound_expand _ _ _ _ _ _ ND T I) H).
Qed.
Lemma start_sound g d t : sound ((d, t) :: g) d [] (add_supers d (tr_supers t) ([], [])).
Proof.
  unfold add_supers. apply sound_names; auto.
  - constructor; cbn; [constructor|constructor|intros x p []].
  - intros x I. apply in_map_iff in I as (s & I & O). exists t, s. cbn. auto.
Qed.

(** * Declarations *)
Definition down (g : traits_) (y x : nat) : Prop := super_of g x y.
Definition good (g : traits_) : Prop := NoDup (map fst g) /\ forall x, Acc (down g) x.
Lemma good_nil : good [].
Proof. split; [constructor|]. intros x. constructor. intros y (l & s & [] & _). Qed.
Lemma leads_trans g a b c : leads g a b -> leads g b c -> leads g a c.
Proof. intros H K. induction H; [eapply L_more; eauto | eapply L_more; eauto]. Qed.
Lemma good_acyclic g : good g -> forall d, ~ leads g d d.
Proof.
  intros [_ A] d. induction (A d) as [d _ IH]. intros H. inversion H as [? ? M|? q ? M L]; subst.
  - apply (IH d M). auto.
  - apply (IH q M). eapply leads_trans; [exact L|]. apply L_one. exact M.
Qed.
Lemma super_other g d t p x : p <> d -> super_of ((d, t) :: g) p x -> super_of g p x.
Proof. intros N (m & q & [I|I] & J & O); [inversion I; congruence|]. exists m, q. auto. Qed.
Lemma good_add g d t : good g -> ~ In d (map fst g) -> (forall x, In x (map ts_name (tr_supers t)) -> ~ reach g d x) -> good ((d, t) :: g).
Proof.
  intros [ND A] NI H. assert (ND' : NoDup (map fst ((d, t) :: g))) by (constructor; auto). split; [exact ND'|].
  assert (OUT : forall x, ~ reach g d x -> Acc (down ((d, t) :: g)) x).
  { intros x. induction (A x) as [x _ IH]. intros R. constructor. intros y M. assert (x <> d) by (intros ->; apply R; constructor).
    apply super_other in M; auto. apply IH; auto. intros K. apply R. eapply R_step; [|exact K]. apply super_succ; auto. }
  assert (D : Acc (down ((d, t) :: g)) d).
  { constructor. intros y M. apply OUT. apply H. unfold down in M. apply super_succ in M; auto. unfold succ, get_trait in M. cbn in M. rewrite Nat.eqb_refl in M. exact M. }
  intros x. induction (A x) as [x _ IH]. destruct (Nat.eq_dec x d) as [->|N]; [exact D|]. constructor. intros y M. apply IH. eapply super_other; eauto.
Qed.
Lemma start_keys d l x : In x (keys (snd (add_supers d l ([], [])))) <-> In x (map ts_name l).
Proof. unfold add_supers. rewrite keys_added. cbn. intuition. Qed.
Lemma declare_good fuel order g d t g' : good g -> declare fuel order g d t = Added g' -> ~ In d (map fst g) /\ g' = (d, t) :: g /\ good g'.
Proof.
  intros G H. unfold declare in H. destruct (search _ _ _ _ _) as [[|e]|] eqn:E; [|destruct (trail _ _ _ _); discriminate|discriminate].
  destruct (get_trait g d) eqn:GT; [discriminate|]. apply get_none in GT. inversion H; subst. split; auto. split; auto. apply good_add; auto.
  intros x I. pose proof (start_sound g d t) as [K _ _]. cbn in K. apply (search_accepted _ _ _ _ _ E).
  - intros y Y. apply (Permutation_in _ (Permutation_sym K)). exact Y.
  - intros y Y. left. apply (Permutation_in _ K). exact Y.
  - apply start_keys. exact I.
Qed.
Lemma declare_cycle fuel order g d t c : good g -> declare fuel order g d t = Refused_cycle c -> chain ((d, t) :: g) d c /\ last c d = d /\ c <> [].
Proof.
  intros [ND A] H. unfold declare in H. destruct (search _ _ _ _ _) as [[|e]|] eqn:E; [destruct (get_trait g d); discriminate| |discriminate].
  destruct (trail _ _ _ _) as [c'|] eqn:T; [|discriminate]. inversion H; subst c'.
  destruct (search_cycle _ _ t _ ND _ _ _ _ (start_sound g d t) E) as (p & done & I & [_ O TR]). eapply trail_true; [|exact T]. intros x q K. apply TR. apply (edge_in d) in K; auto.
Qed.
Definition universe (g : traits_) (t : trait_) : list nat := map ts_name (tr_supers t) ++ flat_map (fun e => map ts_name (tr_supers (snd e))) g.
Lemma declare_ends g d t : good g -> forall fuel order, length (universe g t) < fuel -> declare fuel order g d t <> Stuck.
Proof.
  intros G fuel order L. unfold declare. pose proof (start_sound g d t) as SS.
  assert (U : forall x, incl (succ g x) (universe g t)).
  { intros x y Y. unfold succ in Y. destruct (get_trait g x) as [u|] eqn:E; [|destruct Y]. apply get_in in E; [|apply G]. apply in_or_app. right. apply in_flat_map. exists (x, u). auto. }
  assert (INC : incl ([] ++ fst (add_supers d (tr_supers t) ([], []))) (universe g t)).
  { intros x I. apply (Permutation_in _ (Permutation_sym (so_keys _ _ _ _ SS))) in I. apply start_keys in I. apply in_or_app. auto. }
  assert (S1 : search fuel order g d (add_supers d (tr_supers t) ([], [])) <> None).
  { apply (search_ends order g d (universe g t) U fuel []); auto.
    - apply (Permutation_NoDup (so_keys _ _ _ _ SS)). eapply older_nodup. exact (so_older _ _ _ _ SS).
    - exact (so_keys _ _ _ _ SS).
    - cbn. lia. }
  destruct (search _ _ _ _ _) as [[|e]|] eqn:E; [destruct (get_trait g d); discriminate| |congruence].
  destruct (search_cycle _ _ t _ (proj1 G) _ _ _ _ SS E) as (p & done & I & [K O TR]). cbn in K, O, TR.
  assert (LE : length e <= length (universe g t)).
  { rewrite <- (map_length fst e). apply NoDup_incl_length; [eapply older_nodup; exact O|]. intros x X. apply in_map_iff in X as ([a b] & <- & X). apply TR in X. cbn.
    destruct X as (u & s & [J|J] & Q & <-); [inversion J; subst; apply in_or_app; left; now apply in_map|].
    apply in_or_app. right. apply in_flat_map. exists (b, u). split; auto. cbn. now apply in_map. }
  assert (T : trail fuel e d d <> None).
  { apply (trail_runs d e O); [|lia]. apply (Permutation_in _ (Permutation_sym K)). apply in_or_app. auto. }
  destruct (trail fuel e d d); [discriminate|congruence].
Qed.
Lemma chain_leads g : forall c x d, chain g x c -> last c x = d -> c <> [] -> leads g d x.
Proof.
  induction c as [|y c IH]; intros x d C L N; [congruence|]. destruct C as [M C]. destruct c as [|z c].
  - cbn in L. subst. apply L_one. exact M.
  - rewrite (last_cons_ne y (z :: c) x y) in L by discriminate. eapply leads_trans; [apply (IH y d C L); discriminate|]. apply L_one. exact M.
Qed.
Lemma leads_incl g h : incl g h -> forall a b, leads g a b -> leads h a b.
Proof.
  intros I a b L. assert (M : forall p x, super_of g p x -> super_of h p x) by (intros p x (m & q & J & K); exists m, q; auto).
  induction L; [apply L_one; auto | eapply L_more; eauto].
Qed.
Lemma universe_le ds g d t : In (d, t) ds -> incl g ds -> NoDup (map fst g) -> ~ In d (map fst g) -> length (universe g t) <= length (universe ds {| tr_params := []; tr_supers := [] |}).
Proof.
  intros I S ND N. unfold universe. cbn [tr_supers map app].
  assert (X : forall l k : traits_, NoDup l -> incl l k -> length (flat_map (fun e => map ts_name (tr_supers (snd e))) l) <= length (flat_map (fun e => map ts_name (tr_supers (snd e))) k)).
  { clear. induction l as [|e l IH]; intros k ND S; [cbn; lia|]. inversion ND as [|? ? NI ND']; subst. destruct (in_split e k) as (a & b & ->); [apply S; cbn; auto|].
    assert (Y : incl l (a ++ b)). { intros x J. assert (x <> e) by (intros ->; contradiction). specialize (S x (or_intror J)). apply in_app_or in S as [S|[S|S]]; [apply in_or_app; auto|congruence|apply in_or_app; auto]. }
    specialize (IH _ ND' Y). rewrite flat_map_app in IH |- *. cbn [flat_map]. rewrite !app_length in *. lia. }
  change (length (flat_map (fun e => map ts_name (tr_supers (snd e))) ((d, t) :: g)) <= length (flat_map (fun e => map ts_name (tr_supers (snd e))) ds)). apply X.
  - constructor; [intros J; apply N; apply (in_map fst) in J; exact J|]. clear - ND. induction g as [|e g IH]; constructor; inversion ND; subst; auto. intros J. apply H1. now apply in_map.
  - intros x [<-|J]; auto.
Qed.
Lemma declare_all_added fuel order : forall ds g r, good g -> declare_all fuel order ds g = Added r -> good r /\ r = rev ds ++ g.
Proof.
  induction ds as [|[d t] ds IH]; intros g r G H; cbn in H; [inversion H; subst; auto|].
  destruct (declare fuel order g d t) as [g'|c| |] eqn:E; try discriminate. destruct (declare_good _ _ _ _ _ _ G E) as (N & -> & G'). apply IH in H; auto.
  destruct H as [A B]. split; auto. rewrite B. cbn. rewrite <- app_assoc. reflexivity.
Qed.
Lemma declare_all_runs fuel order all : forall ds g, good g -> incl ds all -> incl g all -> NoDup (map fst ds ++ map fst g) -> (forall d, ~ leads all d d) ->
  length (universe all {| tr_params := []; tr_supers := [] |}) < fuel -> declare_all fuel order ds g = Added (rev ds ++ g).
Proof.
  induction ds as [|[d t] ds IH]; intros g G I1 I2 ND NL L; [reflexivity|]. cbn in ND. inversion ND as [|? ? NI ND']; subst.
  assert (NG : ~ In d (map fst g)) by (intros J; apply NI; apply in_or_app; auto).
  cbn [declare_all rev]. destruct (declare fuel order g d t) as [g'|c| |] eqn:E.
  - destruct (declare_good _ _ _ _ _ _ G E) as (_ & -> & G'). rewrite IH; auto.
    + rewrite <- app_assoc. reflexivity.
    + intros x J. apply I1. cbn. auto.
    + intros x [<-|J]; [apply I1; cbn; auto|auto].
    + cbn. apply (Permutation_NoDup (Permutation_middle _ _ _)). constructor; auto.
  - exfalso. destruct (declare_cycle _ _ _ _ _ _ G E) as (A & B & C). apply (NL d). eapply leads_incl; [|exact (chain_leads _ _ _ _ A B C)].
    intros x [<-|J]; [apply I1; cbn; auto|auto].
  - exfalso. unfold declare in E. destruct (search _ _ _ _ _) as [[|e]|]; [|destruct (trail _ _ _ _); discriminate|discriminate].
    destruct (get_trait g d) eqn:GT; [|discriminate]. apply NG. apply get_in in GT; [|apply G]. apply (in_map fst) in GT. exact GT.
  - exfalso. apply (declare_ends g d t G fuel order) in E; auto. pose proof (universe_le all g d t (I1 _ (or_introl eq_refl)) I2 (proj1 G) NG). lia.
Qed.

(** * Bounds *)
Lemma tspec_eqb_eq a b : tspec_eqb a b = true <-> a = b.
Proof.
  destruct a as [n l], b as [m k]. unfold tspec_eqb. cbn. split.
  - intros H. apply andb_prop in H as [A B]. apply Nat.eqb_eq in A. subst. destruct l as [l|], k as [k|]; try discriminate; auto.
    apply (proj2 (proj2 (proj2 eqb_eq))) in B. congruence.
  - intros H. inversion H; subst. rewrite Nat.eqb_refl. destruct k as [k|]; auto. cbn. apply (proj2 (proj2 (proj2 eqb_refl))).
Qed.
Lemma mem_in s l : existsb (tspec_eqb s) l = true <-> In s l.
Proof.
  rewrite existsb_exists. split; [intros (x & I & E); apply tspec_eqb_eq in E; subst; auto|]. intros I. exists s. split; auto. now apply tspec_eqb_eq.
Qed.
(** Steps without replacing anything *)
Inductive reached (g : traits_) (traits : list tspec) : tspec -> Prop :=
| RC_here s : In s traits -> reached g traits s
| RC_step s t u : reached g traits s -> In (ts_name s, t) g -> In u (tr_supers t) -> reached g traits u.
Lemma transitive_exact g traits : NoDup (map fst g) -> forall fuel queue all r, transitive fuel g queue all = Some (Ok r) ->
  (forall s, In s queue \/ In s all -> reached g traits s) ->
  (forall s, In s traits -> In s queue \/ In s all) ->
  (forall s t u, In s all -> In (ts_name s, t) g -> In u (tr_supers t) -> In u queue \/ In u all) ->
  NoDup all -> NoDup r /\ forall s, In s r <-> reached g traits s.
Proof.
  intros ND. induction fuel as [|fuel IH]; intros queue all r H A B C NA; [discriminate|]. cbn in H. destruct queue as [|s queue].
  - inversion H; subst. split; [assumption|]. intros s. split; [intros I; apply A; auto|]. intros R. induction R as [s I|s t u R IHR I J]; [destruct (B s I) as [[]|X]; exact X|].
    destruct (C s t u IHR I J) as [[]|X]. exact X.
  - destruct (existsb (tspec_eqb s) all) eqn:E.
    + apply mem_in in E. apply (IH _ _ _ H); auto.
      * intros x [X|X]; apply A; cbn; auto.
      * intros x X. destruct (B x X) as [[<-|Y]|Y]; auto.
      * intros x t u X Y Z. destruct (C x t u X Y Z) as [[<-|W]|W]; auto.
    + destruct (get_trait g (ts_name s)) as [t|] eqn:G; [|discriminate]. apply get_in in G; auto. apply (IH _ _ _ H).
      * intros x [X|[<-|X]]; [apply in_app_or in X as [X|X]; [apply A; cbn; auto|eapply RC_step; [apply A; left; left; reflexivity|exact G|exact X]]|apply A; cbn; auto|apply A; auto].
      * intros x X. destruct (B x X) as [[<-|Y]|Y]; [right; left; reflexivity|left; apply in_or_app; auto|right; right; auto].
      * intros x t' u [<-|X] Y Z.
        -- assert (t' = t) by (apply (get_in _ _ _ ND) in Y, G; congruence). subst. left. apply in_or_app. auto.
        -- destruct (C x t' u X Y Z) as [[<-|W]|W]; [right; left; reflexivity|left; apply in_or_app; auto|right; right; auto].
      * constructor; auto. intros I. apply mem_in in I. congruence.
Qed.
Lemma reached_known g traits : scoped_traits g -> (forall s, In s traits -> known g s) -> forall s, reached g traits s -> known g s.
Proof. intros SG K s R. induction R; auto. eapply sg_known; eauto. Qed.

(** Termination: every bound met is one of finitely many, and each is looked at once. *)
Definition met (g : traits_) (traits : list tspec) : list tspec := traits ++ flat_map (fun e => tr_supers (snd e)) g.
Lemma transitive_ends g traits : scoped_traits g -> (forall s, In s traits -> known g s) ->
  forall fuel queue all, NoDup all -> incl all (met g traits) -> incl queue (met g traits) -> (forall s, In s queue -> known g s) ->
  (length (met g traits) - length all) * S (length (met g traits)) + length queue < fuel ->
  exists r, transitive fuel g queue all = Some (Ok r).
Proof.
  intros SG K. induction fuel as [|fuel IH]; intros queue all NA IA IQ KQ L; [exfalso; exact (Nat.nlt_0_r _ L)|]. cbn. destruct queue as [|s queue]; [eauto|].
  destruct (existsb (tspec_eqb s) all) eqn:E.
  - apply IH; auto; [intros x X; apply IQ; cbn; auto|intros x X; apply KQ; cbn; auto|cbn [length] in L; lia].
  - destruct (KQ s (or_introl eq_refl)) as (t & T). pose proof T as G. apply (get_in _ _ _ (sg_names _ SG)) in G. rewrite G.
    assert (NS : ~ In s all) by (intros X; apply mem_in in X; congruence).
    assert (SUP : incl (tr_supers t) (met g traits)) by (intros x X; apply in_or_app; right; apply in_flat_map; exists (ts_name s, t); auto).
    apply IH.
    + constructor; auto.
    + intros x [<-|X]; [apply IQ; cbn; auto|auto].
    + intros x X. apply in_app_or in X as [X|X]; [apply IQ; cbn; auto|auto].
    + intros x X. apply in_app_or in X as [X|X]; [apply KQ; cbn; auto|]. eapply sg_known; eauto.
    + assert (LA : S (length all) <= length (met g traits)).
      { apply (NoDup_incl_length (l := s :: all)); [constructor; auto|]. intros x [<-|X]; [apply IQ; cbn; auto|auto]. }
      assert (LS : length (tr_supers t) <= length (met g traits)).
      { unfold met. rewrite app_length. clear - T. induction g as [|e g IH]; [destruct T|]. cbn [flat_map]. rewrite app_length. destruct T as [T|T]; [rewrite T; cbn [snd]; lia|]. specialize (IH T). lia. }
      rewrite app_length. cbn [length] in *. set (M := length (met g traits)) in *.
      replace (M - length all) with (S (M - S (length all))) in L by lia. cbn [Nat.mul] in L. lia.
Qed.

(** * Types in scope *)
Lemma sv_ok gl :
  (forall s, spec_var gl s = Ok tt <-> spec_scope gl false s = true) /\ (forall e, expr_var gl e = Ok tt <-> expr_scope gl false e = true) /\
  (forall l, specs_var gl l = Ok tt <-> specs_scope gl false l = true) /\ (forall l, exprs_var gl l = Ok tt <-> exprs_scope gl false l = true).
Proof.
  assert (B : forall (a : res unit) b, bind a (fun _ => b) = Ok tt <-> a = Ok tt /\ b = Ok tt).
  { intros [[]| | |] b; cbn; intuition discriminate. }
  assert (C : forall c, cg_var gl c = Ok tt <-> cg_scope gl c = true).
  { induction c; cbn; try (now intuition).
    - unfold in_list, has_g. destruct (existsb _ gl); intuition discriminate.
    - rewrite B, IHc1, IHc2, andb_true_iff. reflexivity. }
  assert (Q1 : forall n es, spec_var gl (Declared n es) = exprs_var gl es /\ spec_scope gl false (Declared n es) = exprs_scope gl false es) by (split; reflexivity).
  apply types_ind; intros.
  - exact H.
  - cbn. unfold in_list, has_g. destruct (existsb _ gl); intuition discriminate.
  - exact H.
  - change (bind (spec_var gl s) (fun _ => expr_var gl size) = Ok tt <-> spec_scope gl false s && expr_scope gl false size = true). rewrite B, H, H0, andb_true_iff. reflexivity.
  - exact H.
  - exact H.
  - cbn. intuition discriminate.
  - cbn. intuition.
  - exact H.
  - cbn. intuition.
  - cbn. intuition.
  - cbn. intuition.
  - exact (C c).
  - cbn. intuition.
  - change (bind (spec_var gl s) (fun _ => specs_var gl l) = Ok tt <-> spec_scope gl false s && specs_scope gl false l = true). rewrite B, H, H0, andb_true_iff. reflexivity.
  - cbn. intuition.
  - change (bind (expr_var gl e) (fun _ => exprs_var gl l) = Ok tt <-> expr_scope gl false e && exprs_scope gl false l = true). rewrite B, H, H0, andb_true_iff. reflexivity.
Qed.
Lemma visit_bounds_ok gl l : visit_bounds gl l = Ok tt <-> forall s, In s l -> exprs_scope gl false (args_of s) = true.
Proof.
  induction l as [|s l IH]; cbn; [intuition|]. destruct (exprs_var gl (args_of s)) as [[]| | |] eqn:E; cbn.
  - apply (proj2 (proj2 (proj2 (sv_ok gl)))) in E. rewrite IH. split; [intros H x [<-|X]; auto|intros H x X; apply H; auto].
  - split; [discriminate|]. intros H. specialize (H s (or_introl eq_refl)). apply (proj2 (proj2 (proj2 (sv_ok gl)))) in H. congruence.
  - split; [discriminate|]. intros H. specialize (H s (or_introl eq_refl)). apply (proj2 (proj2 (proj2 (sv_ok gl)))) in H. congruence.
  - split; [discriminate|]. intros H. specialize (H s (or_introl eq_refl)). apply (proj2 (proj2 (proj2 (sv_ok gl)))) in H. congruence.
Qed.
Lemma scope_weaken gs :
  (forall s, spec_scope [] false s = true -> spec_scope gs false s = true /\ forall ps, mentions ps [] true s = false) /\
  (forall e, expr_scope [] false e = true -> expr_scope gs false e = true /\ forall ps, expr_mentions ps [] true e = false) /\
  (forall l, specs_scope [] false l = true -> specs_scope gs false l = true /\ forall ps, some_mentions ps [] true l = false) /\
  (forall l, exprs_scope [] false l = true -> exprs_scope gs false l = true /\ forall ps, any_mentions ps [] true l = false).
Proof.
  assert (C : forall c, cg_scope [] c = true -> cg_scope gs c = true /\ forall ps, cg_mentions ps c = false).
  { induction c; cbn; intros H; auto; [discriminate|]. apply andb_prop in H as [X Y]. destruct (IHc1 X) as [P1 P2], (IHc2 Y) as [Q1 Q2].
    split; [now rewrite P1, Q1|]. intros ps. now rewrite P2, Q2. }
  apply types_ind; intros.
  - change (exprs_scope [] false es = true) in H0. destruct (H H0) as [A B]. split; [exact A|]. intros ps. mes. cbn. apply B.
  - discriminate.
  - exact (H H0).
  - change (spec_scope [] false s && expr_scope [] false size = true) in H1. apply andb_prop in H1 as [X Y]. destruct (H X) as [P1 P2], (H0 Y) as [Q1 Q2].
    split; [change (spec_scope gs false s && expr_scope gs false size = true); now rewrite P1, Q1|]. intros ps. mes. now rewrite P2, Q2.
  - exact (H H0).
  - exact (H H0).
  - discriminate.
  - split; reflexivity.
  - exact (H H0).
  - split; reflexivity.
  - split; reflexivity.
  - split; reflexivity.
  - exact (C c H).
  - split; reflexivity.
  - change (spec_scope [] false s && specs_scope [] false l = true) in H1. apply andb_prop in H1 as [X Y]. destruct (H X) as [P1 P2], (H0 Y) as [Q1 Q2].
    split; [change (spec_scope gs false s && specs_scope gs false l = true); now rewrite P1, Q1|]. intros ps. mes. now rewrite P2, Q2.
  - split; reflexivity.
  - change (expr_scope [] false e && exprs_scope [] false l = true) in H1. apply andb_prop in H1 as [X Y]. destruct (H X) as [P1 P2], (H0 Y) as [Q1 Q2].
    split; [change (expr_scope gs false e && exprs_scope gs false l = true); now rewrite P1, Q1|]. intros ps. mes. now rewrite P2, Q2.
Qed.
Lemma nth_var_other {D} : forall ps (ds : list D) x o, ~ In x ps -> nth_var ps ds x o = o.
Proof.
  induction ps as [|h ps IH]; intros [|d ds] x o N; cbn; auto. destruct (generic_eqb h x) eqn:E; [apply generic_eqb_eq in E; subst; exfalso; apply N; cbn; auto|].
  apply IH. intros I. apply N. cbn. auto.
Qed.
Lemma inside_like {D} (R : reading D) self ps ds : like ps [] true (inside R self ps ds) R.
Proof. constructor; cbn; auto; try discriminate. intros x N. now apply nth_var_other. Qed.
Lemma required_reached {D} (R : reading D) self g traits : plain_supers g ->
  forall n ds, required R self g traits n ds <-> exists s, reached g traits s /\ ts_name s = n /\ all_mean R (args_of s) = ds.
Proof.
  intros PL n ds. split.
  - intros Q. induction Q as [s I|n ds t s Q IH I J].
    + exists s. split; [now constructor|auto].
    + destruct IH as (s' & A & B & C). exists s. split; [subst n; eapply RC_step; eauto|]. split; auto. symmetry.
      apply (proj2 (proj2 (proj2 (like_means _ _ _ _ _ _ (inside_like R self (tr_params t) ds))))).
      apply (proj2 (proj2 (proj2 (scope_weaken [])))). eapply PL; eauto.
  - intros (s & RR & <- & <-). induction RR as [s I|s t u RR IH I J]; [now constructor|].
    assert (E : all_mean R (args_of u) = all_mean (inside R self (tr_params t) (all_mean R (args_of s))) (args_of u)).
    { symmetry. apply (proj2 (proj2 (proj2 (like_means _ _ _ _ _ _ (inside_like R self (tr_params t) (all_mean R (args_of s))))))).
      apply (proj2 (proj2 (proj2 (scope_weaken [])))). eapply PL; eauto. }
    rewrite E. eapply Q_super; eauto.
Qed.
