From Coq Require Import List Arith Bool Lia Permutation Sorted.
From Verif Require Import LocModel LocSpec.
Import ListNotations.

Section P.
Variable T : Type.
Notation L := (loc T).

(** order by start, then end *)
Definition le (a b : L) : bool := (l_start a <? l_start b) || ((l_start a =? l_start b) && (l_end a <=? l_end b)).
Fixpoint ins (x : L) (l : list L) : list L :=
  match l with
  | [] => [x]
  | y :: l' => if le y x then y :: ins x l' else x :: l
  end.
Definition sort (h : list L) : list L := fold_left (fun l x => ins x l) h [].

Lemma le_spec : forall a b, le a b = true <-> (l_start a < l_start b \/ (l_start a = l_start b /\ l_end a <= l_end b)).
Proof.
  intros. unfold le. rewrite orb_true_iff, andb_true_iff, Nat.ltb_lt, Nat.eqb_eq, Nat.leb_le. tauto.
Qed.
Lemma le_false : forall a b, le a b = false <-> (l_start b < l_start a \/ (l_start a = l_start b /\ l_end b < l_end a)).
Proof.
  intros. rewrite <- not_true_iff_false, le_spec. lia.
Qed.
Lemma ins_app : forall x l1 l2, Forall (fun y => le y x = true) l1 -> ins x (l1 ++ l2) = l1 ++ ins x l2.
Proof. induction l1 as [|y l1 IH]; intros l2 F; auto. inversion F; subst. cbn. rewrite H1, IH; auto. Qed.
Lemma ins_front : forall x l, Forall (fun y => le y x = false) l -> ins x l = x :: l.
Proof. intros x l F. destruct l as [|y l]; auto. inversion F; subst. cbn. rewrite H1. auto. Qed.
Lemma ins_perm : forall x l, Permutation (ins x l) (x :: l).
Proof.
  induction l as [|y l IH]; cbn; auto. destruct (le y x); auto. rewrite IH. constructor.
Qed.
Lemma sort_snoc : forall h x, sort (h ++ [x]) = ins x (sort h).
Proof. intros. unfold sort. rewrite fold_left_app. auto. Qed.
Lemma sort_perm : forall h, Permutation (sort h) h.
Proof.
  induction h as [|x h IH] using rev_ind; [constructor|]. rewrite sort_snoc, ins_perm, IH. apply Permutation_cons_append.
Qed.
Definition ordered (l : list L) : Prop := StronglySorted (fun a b => le a b = true) l.
Lemma le_trans : forall a b c, le a b = true -> le b c = true -> le a c = true.
Proof. intros a b c. rewrite !le_spec. lia. Qed.
Lemma ins_ordered : forall x l, ordered l -> ordered (ins x l).
Proof.
  induction l as [|y l IH]; intros O; cbn.
  - repeat constructor.
  - inversion O; subst. destruct (le y x) eqn:E.
    + constructor; [apply IH; auto|]. rewrite ins_perm. constructor; auto.
    + assert (Ex : le x y = true) by (rewrite le_spec; rewrite le_false in E; lia).
      constructor; auto. constructor; auto. eapply Forall_impl; [|exact H2]. intros z Hz. eapply le_trans; eauto.
Qed.
Lemma sort_ordered : forall h, ordered (sort h).
Proof. induction h as [|x h IH] using rev_ind; [constructor|]. rewrite sort_snoc. apply ins_ordered, IH. Qed.

(** stability *)
Lemma ins_same : forall (p : L -> bool) x l, ordered l -> (forall z, p z = true -> p x = true -> le z x = true) ->
  filter p (ins x l) = filter p l ++ (if p x then [x] else []).
Proof.
  intros p x l O P. induction l as [|y l IH].
  - cbn. destruct (p x); auto.
  - inversion O as [|y' l' O' F]; subst. cbn [ins]. destruct (le y x) eqn:E.
    + cbn. rewrite IH by auto. destruct (p y); auto.
    + destruct (p x) eqn:Px; [|cbn [filter]; rewrite Px, app_nil_r; auto].
      assert (N : filter p (y :: l) = []).
      { assert (A : Forall (fun z => le z x = false) (y :: l)).
        { constructor; auto. eapply Forall_impl; [|exact F]. intros z Hz. cbn in Hz.
          rewrite le_false in *. rewrite le_spec in Hz. lia. }
        clear - A P Px. induction A as [|z l0 Z A IH]; auto. cbn. destruct (p z) eqn:Pz; auto.
        rewrite (P z) in Z; auto; discriminate. }
      cbn [filter] in N |- *. rewrite Px, N. auto.
Qed.
Lemma sort_same : forall (p : L -> bool) h, (forall x z, p z = true -> p x = true -> le z x = true) ->
  filter p (sort h) = filter p h.
Proof.
  intros p h P. induction h as [|x h IH] using rev_ind; auto.
  rewrite sort_snoc, ins_same; auto using sort_ordered. rewrite filter_app, IH. cbn. destruct (p x); auto.
Qed.

(** ** The nested maps *)
Definition keys {V : Type} (m : list (nat * V)) : Prop := StronglySorted lt (map fst m).
Section File.
Variable file : nat.
Definition flat_e (s : nat) (ends : list (nat * list T)) : list L :=
  flat_map (fun e => map (fun t => Loc t s (fst e) file) (snd e)) ends.
Definition flat_s (starts : list (nat * list (nat * list T))) : list L :=
  flat_map (fun s => flat_e (fst s) (snd s)) starts.

Lemma flat_e_bound : forall s ends (P : nat -> Prop), Forall (fun e => P (fst e)) ends ->
  Forall (fun y => l_start y = s /\ P (l_end y)) (flat_e s ends).
Proof.
  intros s ends P F. unfold flat_e. apply Forall_flat_map. eapply Forall_impl; [|exact F].
  intros e He. apply Forall_map. apply Forall_forall. intros t _. cbn. auto.
Qed.
Lemma flat_s_bound : forall starts (P : nat -> Prop), Forall (fun e => P (fst e)) starts ->
  Forall (fun y => P (l_start y)) (flat_s starts).
Proof.
  intros starts P F. unfold flat_s. apply Forall_flat_map. eapply Forall_impl; [|exact F].
  intros e He. eapply Forall_impl; [|apply (flat_e_bound _ _ (fun _ => True)); apply Forall_forall; auto].
  cbn. intros y [-> _]. auto.
Qed.

Lemma keys_head : forall V (k : nat) (v : V) m, keys ((k, v) :: m) -> keys m /\ Forall (fun e => k < fst e) m.
Proof.
  intros V k v m K. unfold keys in K. cbn in K. inversion K as [|? ? K1 K2]; subst. split; [exact K1|].
  exact (proj1 (Forall_map fst (lt k) m) K2).
Qed.
Lemma bt_modify_keys : forall V k (d : V) f m, keys m -> keys (bt_modify k d f m) /\
  forall b, b < k -> Forall (fun e => b < fst e) m -> Forall (fun e => b < fst e) (bt_modify k d f m).
Proof.
  intros V k d f. induction m as [|[k' v] m IH]; intros K.
  - split; [repeat constructor|]. intros. constructor; auto.
  - destruct (keys_head _ _ _ _ K) as [K' F]. cbn [bt_modify]. destruct (Nat.ltb_spec k k'); [|destruct (Nat.eqb_spec k k')].
    + split; [|intros; constructor; auto]. constructor; auto. constructor; auto. apply Forall_map.
      eapply Forall_impl; [|exact F]. cbn. intros. lia.
    + subst. split; auto. intros b Hb Fb. inversion Fb; subst. constructor; auto.
    + destruct (IH K') as [A B]. split.
      * constructor; auto. apply Forall_map. apply B; auto. cbn; lia.
      * intros b Hb Fb. inversion Fb; subst. constructor; auto.
Qed.

Lemma ends_insert : forall s e x ends, keys ends ->
  flat_e s (bt_modify e [] (fun l => l ++ [x]) ends) = ins (Loc x s e file) (flat_e s ends).
Proof.
  intros s e x. induction ends as [|[k things] ends IH]; intros K; [reflexivity|].
  destruct (keys_head _ _ _ _ K) as [K' F]. cbn [bt_modify].
  destruct (Nat.ltb_spec e k); [|destruct (Nat.eqb_spec e k)].
  - change (flat_e s ((e, [] ++ [x]) :: (k, things) :: ends)) with (Loc x s e file :: flat_e s ((k, things) :: ends)).
    symmetry. apply ins_front. eapply Forall_impl; [|apply (flat_e_bound _ _ (fun n => e < n))].
    + cbn. intros y [A B]. apply le_false. cbn. lia.
    + constructor; auto. eapply Forall_impl; [|exact F]. cbn. intros. lia.
  - subst k. unfold flat_e. cbn [flat_map fst snd]. rewrite map_app. cbn [map]. rewrite <- app_assoc.
    rewrite ins_app.
    + f_equal. cbn [app]. symmetry. apply ins_front. eapply Forall_impl; [|apply (flat_e_bound _ _ (fun n => e < n))]; auto.
      cbn. intros y [A B]. apply le_false. cbn. lia.
    + apply Forall_map, Forall_forall. intros t _. apply le_spec. cbn. lia.
  - unfold flat_e in *. cbn [flat_map fst snd]. rewrite IH by auto. rewrite ins_app; auto.
    apply Forall_map, Forall_forall. intros t _. apply le_spec. cbn. lia.
Qed.
Definition wf (starts : list (nat * list (nat * list T))) : Prop := keys starts /\ Forall (fun s => keys (snd s)) starts.
Lemma starts_insert : forall s e x starts, wf starts ->
  let g := bt_modify e [] (fun l => l ++ [x]) in
  flat_s (bt_modify s [] g starts) = ins (Loc x s e file) (flat_s starts) /\ wf (bt_modify s [] g starts).
Proof.
  intros s e x starts W g. split.
  2:{ destruct W as [K F]. split; [apply bt_modify_keys; auto|]. clear K.
      assert (G : forall m, keys m -> keys (g m)) by (intros; apply bt_modify_keys; auto).
      induction F as [|[k m] starts Hm F IH]; cbn [bt_modify].
      - constructor; auto. apply (G []). constructor.
      - destruct (s <? k); [constructor; [apply (G []); constructor|constructor; auto]|].
        destruct (s =? k); constructor; auto. cbn. apply G. auto. }
  revert W. induction starts as [|[k m] starts IH]; intros [K W]; [reflexivity|].
  destruct (keys_head _ _ _ _ K) as [K' F]. inversion W as [|? ? Km W']; subst. cbn [snd] in Km. cbn [bt_modify].
  destruct (Nat.ltb_spec s k); [|destruct (Nat.eqb_spec s k)].
  - change (flat_s ((s, g []) :: (k, m) :: starts)) with (Loc x s e file :: flat_s ((k, m) :: starts)).
    symmetry. apply ins_front. eapply Forall_impl; [|apply (flat_s_bound _ (fun n => s < n))].
    + cbn. intros y A. apply le_false. cbn. lia.
    + constructor; auto. eapply Forall_impl; [|exact F]. cbn. intros. lia.
  - subst k. unfold flat_s. cbn [flat_map fst snd]. unfold g. rewrite ends_insert by auto.
    assert (B : Forall (fun y => le y (Loc x s e file) = false) (flat_s starts)).
    { eapply Forall_impl; [|apply (flat_s_bound _ (fun n => s < n)); auto]. cbn. intros y A. apply le_false. cbn. lia. }
    fold (flat_s starts). revert B. generalize (flat_s starts). generalize (flat_e s m). clear.
    induction l as [|y l IH]; intros l' B; cbn.
    + symmetry. apply ins_front. auto.
    + destruct (le y (Loc x s e file)); auto. cbn. f_equal. auto.
  - unfold flat_s in *. cbn [flat_map fst snd]. rewrite IH by (split; auto). rewrite ins_app; auto.
    eapply Forall_impl; [|apply (flat_e_bound _ _ (fun _ => True)); apply Forall_forall; auto].
    cbn. intros y [A _]. apply le_spec. cbn. lia.
Qed.
End File.

Definition of_file (f : nat) (h : list L) : list L := filter (fun l => l_file l =? f) h.
Lemma hm_get_modify : forall V (k : nat) (d : V) g m k', hm_get k' (hm_modify k d g m) =
  if k =? k' then Some (g (match hm_get k m with Some v => v | None => d end)) else hm_get k' m.
Proof.
  intros V k d g m k'. unfold hm_get. induction m as [|[j v] m IH]; cbn.
  - destruct (k =? k'); auto.
  - destruct (Nat.eqb_spec k j).
    + subst. cbn. rewrite Nat.eqb_refl. destruct (j =? k'); auto.
    + cbn. destruct (Nat.eqb_spec j k'); cbn.
      * subst. destruct (Nat.eqb_spec k k'); [contradiction|auto].
      * rewrite IH. destruct (Nat.eqb_spec j k); [subst; contradiction|auto].
Qed.
Lemma loc_eta : forall l : L, Loc (l_inner l) (l_start l) (l_end l) (l_file l) = l.
Proof. destruct l; auto. Qed.
Lemma recorded_ok : forall h f,
  match hm_get f (recorded h) with
  | Some starts => wf starts /\ flat_s f starts = sort (of_file f h)
  | None => of_file f h = []
  end.
Proof.
  induction h as [|x h IH] using rev_ind; intros f; [reflexivity|].
  unfold recorded in *. rewrite fold_left_app. cbn [fold_left]. unfold insert at 1. rewrite hm_get_modify.
  unfold of_file. rewrite filter_app. cbn [filter]. fold (of_file f h).
  destruct (Nat.eqb_spec (l_file x) f) as [E|E].
  - specialize (IH (l_file x)). rewrite E in *. rewrite sort_snoc.
    destruct (hm_get f (fold_left insert h new_map)) as [starts|].
    + destruct IH as [W Q]. destruct (starts_insert f (l_start x) (l_end x) (l_inner x) starts W) as [A B].
      split; auto. rewrite A, <- E, loc_eta. rewrite E, Q. auto.
    + rewrite IH. destruct (starts_insert f (l_start x) (l_end x) (l_inner x) []) as [A B]; [split; constructor|].
      split; auto. rewrite A, <- E, loc_eta. auto.
  - rewrite app_nil_r. apply IH.
Qed.

Lemma filter_flat_map : forall A B (p : B -> bool) (f : A -> list B) l, filter p (flat_map f l) = flat_map (fun a => filter p (f a)) l.
Proof. induction l as [|a l IH]; auto. cbn. rewrite filter_app, IH. auto. Qed.
Definition enclb (q : loc unit) (y : L) : bool := (l_start y <=? l_start q) && (l_end q <=? l_end y).
Lemma filter_none : forall A (p : A -> bool) l, Forall (fun x => p x = false) l -> filter p l = [].
Proof. intros A p l F. induction F as [|x l H F IH]; auto. cbn. rewrite H. auto. Qed.
Lemma filter_all : forall A (p : A -> bool) l, Forall (fun x => p x = true) l -> filter p l = l.
Proof. intros A p l F. induction F as [|x l H F IH]; auto. cbn. rewrite H, IH. auto. Qed.
Lemma range_filter : forall f q starts,
  flat_map (fun s => flat_map (fun e => map (fun thing => Loc thing (fst s) (fst e) f) (snd e))
     (bt_from (l_end q) (snd s))) (bt_to (l_start q) starts) = filter (enclb q) (flat_s f starts).
Proof.
  intros f q starts. unfold flat_s. rewrite filter_flat_map. unfold bt_to. induction starts as [|[s m] starts IH]; auto.
  cbn [filter fst flat_map snd]. destruct (s <=? l_start q) eqn:E; cbn [flat_map fst snd]; rewrite IH.
  - f_equal. unfold flat_e, bt_from. rewrite filter_flat_map. clear IH. induction m as [|[e things] m IH]; auto.
    cbn [filter fst flat_map snd]. destruct (l_end q <=? e) eqn:E'; cbn [flat_map fst snd]; rewrite IH.
    + f_equal. symmetry. apply filter_all. apply Forall_map, Forall_forall. intros. unfold enclb. cbn. rewrite E, E'. auto.
    + rewrite filter_none; auto. apply Forall_map, Forall_forall. intros. unfold enclb. cbn. rewrite E, E'. auto.
  - rewrite filter_none; auto. eapply Forall_impl; [|apply (flat_e_bound f _ _ (fun _ => True)); apply Forall_forall; auto].
    cbn. intros y [A _]. unfold enclb. rewrite A, E. auto.
Qed.
Lemma around_sorted : forall h q, around (recorded h) q = rev (filter (enclb q) (sort (of_file (l_file q) h))).
Proof.
  intros h q. unfold around. pose proof (recorded_ok h (l_file q)) as R.
  destruct (hm_get (l_file q) (recorded h)) as [starts|].
  - destruct R as [_ R]. rewrite range_filter, R. auto.
  - rewrite R. auto.
Qed.
End P.
Lemma filter_rev' : forall A (p : A -> bool) l, filter p (rev l) = rev (filter p l).
Proof. induction l as [|x l IH]; auto. cbn. rewrite filter_app, IH. cbn. destruct (p x); cbn; auto. apply app_nil_r. Qed.
Lemma filter_filter_and : forall A (p q : A -> bool) l, filter p (filter q l) = filter (fun x => q x && p x) l.
Proof. induction l as [|x l IH]; auto. cbn. destruct (q x); cbn; rewrite ?IH; auto. Qed.
Lemma filter_filter_comm : forall A (p q : A -> bool) l, filter p (filter q l) = filter q (filter p l).
Proof. intros. rewrite !filter_filter_and. apply filter_ext. intros. apply andb_comm. Qed.
