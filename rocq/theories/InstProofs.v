From Coq Require Import String List Arith Bool Lia Ascii.
From Verif Require Import MirModel MirIdent InstModel.
Import ListNotations.
Local Open Scope list_scope.

Definition inst (name : string) (e : nat) : string := (name ++ "_" ++ show_nat e)%string.
Lemma inst_inj : forall a b e e', inst a e = inst b e' -> a = b /\ e = e'.
Proof.
  intros a b e e' H. apply (f_equal String.list_ascii_of_string) in H. unfold inst in H. rewrite !chars_app in H.
  rewrite !app_assoc in H. cbn [String.list_ascii_of_string] in H.
  apply trailing_digits in H as (A & _ & E); auto. split; auto. apply chars_inj. auto.
Qed.
Definition count (tr : name_tracker) (n : string) : nat := match s_get tr n with Some e => e | None => 0 end.
Lemma s_get_insert : forall V (m : list (string * V)) k v k', s_get (s_insert m k v) k' =
  if (k =? k')%string then Some v else s_get m k'.
Proof. intros. unfold s_get, s_insert. cbn. destruct (k =? k')%string; auto. Qed.
Lemma count_use : forall tr n n', count (s_insert tr n (count tr n + 1)) n' =
  if (n =? n')%string then count tr n + 1 else count tr n'.
Proof. intros. unfold count. rewrite s_get_insert. destruct (n =? n')%string; auto. Qed.

Definition local (map : instance_map) (u : nat) : list (string * nat) :=
  match u_get map u with Some l => l | None => [] end.

Lemma instances_cons : forall tr u unit_name name reqs map,
  instances tr u ((unit_name, name) :: reqs) map =
  let q := instances (s_insert tr name (count tr name + 1)) u reqs
             ((u, s_insert (local map u) (inst name (count tr name)) unit_name) :: map) in
  (inst name (count tr name) :: fst q, snd q).
Proof. reflexivity. Qed.

Lemma local_cons : forall u l map u', local ((u, l) :: map) u' = if u =? u' then l else local map u'.
Proof. intros. unfold local, u_get. cbn. destruct (u =? u'); auto. Qed.

Lemma instances_names : forall reqs tr u map,
  NoDup (fst (instances tr u reqs map)) /\
  (forall r, In r (fst (instances tr u reqs map)) -> exists n e, r = inst n e /\ count tr n <= e) /\
  List.length (fst (instances tr u reqs map)) = List.length reqs.
Proof.
  induction reqs as [|[un n] reqs IH]; intros tr u map.
  - cbn. split; [constructor|]. split; [intros r []|auto].
  - rewrite instances_cons. cbn [fst snd].
    destruct (IH (s_insert tr n (count tr n + 1)) u ((u, s_insert (local map u) (inst n (count tr n)) un) :: map))
      as (N & R & Ln). split; [|split].
    + constructor; auto. intros I. destruct (R _ I) as (n' & e & E & B). apply inst_inj in E as [<- <-].
      rewrite count_use, String.eqb_refl in B. lia.
    + intros r [<-|I].
      * exists n, (count tr n). auto.
      * destruct (R _ I) as (n' & e & -> & B). exists n', e. split; auto. rewrite count_use in B.
        destruct (n =? n')%string eqn:E; [apply String.eqb_eq in E; subst; lia|auto].
    + cbn. f_equal. auto.
Qed.
(** a name that is not handed out keeps its meaning *)
Lemma instances_keep : forall reqs tr u map u' i, u' <> u \/ ~ In i (fst (instances tr u reqs map)) ->
  s_get (local (snd (instances tr u reqs map)) u') i = s_get (local map u') i.
Proof.
  induction reqs as [|[un n] reqs IH]; intros tr u map u' i H; auto.
  rewrite instances_cons in *. cbn [fst snd] in *. rewrite IH.
  - rewrite local_cons. destruct (Nat.eqb_spec u u') as [->|N]; auto. rewrite s_get_insert.
    destruct (inst n (count tr n) =? i)%string eqn:E; auto. apply String.eqb_eq in E.
    destruct H as [H|H]; [contradiction|]. destruct H. left. auto.
  - destruct H as [H|H]; auto. right. intros I. apply H. right. auto.
Qed.
Lemma instances_map : forall reqs tr u map k un n,
  nth_error reqs k = Some (un, n) -> exists i,
  nth_error (fst (instances tr u reqs map)) k = Some i /\ s_get (local (snd (instances tr u reqs map)) u) i = Some un.
Proof.
  induction reqs as [|[un0 n0] reqs IH]; intros tr u map k un n H; [destruct k; discriminate|].
  pose proof (instances_names ((un0, n0) :: reqs) tr u map) as (N & _ & _).
  rewrite instances_cons in *. cbn [fst snd] in *. destruct k as [|k]; cbn in H.
  - inversion H; subst. eexists. split; [reflexivity|]. inversion N; subst. rewrite instances_keep by auto.
    rewrite local_cons, Nat.eqb_refl, s_get_insert, String.eqb_refl. auto.
  - apply IH with (n := n). auto.
Qed.

Lemma modules_keep : forall ms map u i, ~ In u (List.map fst ms) ->
  s_get (local (snd (modules ms map)) u) i = s_get (local map u) i.
Proof.
  induction ms as [|[u0 reqs] ms IH]; intros map u i H; auto. cbn [modules fst snd]. cbn in H.
  rewrite IH by auto. apply instances_keep. left. intros ->. apply H. auto.
Qed.
Lemma modules_map : forall ms map k u reqs, NoDup (List.map fst ms) -> nth_error ms k = Some (u, reqs) ->
  exists names, nth_error (fst (modules ms map)) k = Some names /\ NoDup names /\ List.length names = List.length reqs /\
    forall j un n, nth_error reqs j = Some (un, n) ->
      exists i, nth_error names j = Some i /\ s_get (local (snd (modules ms map)) u) i = Some un.
Proof.
  induction ms as [|[u0 reqs0] ms IH]; intros map k u reqs N H; [destruct k; discriminate|].
  inversion N; subst. cbn [modules fst snd]. destruct k as [|k]; cbn in H.
  - inversion H; subst. eexists. split; [reflexivity|].
    destruct (instances_names reqs [] u map) as (A & _ & B). split; auto. split; auto.
    intros j un n J. destruct (instances_map reqs [] u map j un n J) as (i & I1 & I2). exists i. split; auto.
    rewrite modules_keep by auto. auto.
  - cbn [nth_error]. apply IH; auto.
Qed.

(** only instances are in the map *)
Lemma instances_only : forall reqs tr u map i un, s_get (local (snd (instances tr u reqs map)) u) i = Some un ->
  s_get (local map u) i = Some un \/ exists k n, nth_error reqs k = Some (un, n) /\ nth_error (fst (instances tr u reqs map)) k = Some i.
Proof.
  induction reqs as [|[un0 n0] reqs IH]; intros tr u map i un H; auto.
  rewrite instances_cons in *. cbn [fst snd] in *. apply IH in H as [H|(k & n & A & B)].
  - rewrite local_cons, Nat.eqb_refl, s_get_insert in H.
    destruct (inst n0 (count tr n0) =? i)%string eqn:E; auto. apply String.eqb_eq in E. inversion H; subst.
    right. exists 0, n0. auto.
  - right. exists (S k), n. auto.
Qed.
Lemma modules_only : forall ms map u i un, NoDup (List.map fst ms) ->
  s_get (local (snd (modules ms map)) u) i = Some un ->
  s_get (local map u) i = Some un \/
  exists m reqs names k n, nth_error ms m = Some (u, reqs) /\ nth_error (fst (modules ms map)) m = Some names /\
    nth_error reqs k = Some (un, n) /\ nth_error names k = Some i.
Proof.
  induction ms as [|[u0 reqs0] ms IH]; intros map u i un N H; auto.
  inversion N; subst. cbn [modules fst snd] in *. apply IH in H as [H|(m & reqs & names & k & n & A & B & C & D)]; auto.
  - destruct (Nat.eq_dec u u0) as [->|Ne].
    + apply instances_only in H as [H|(k & n & A & B)]; auto. right.
      exists 0, reqs0, (fst (instances [] u0 reqs0 map)), k, n. auto.
    + rewrite instances_keep in H by auto. auto.
  - right. exists (S m), reqs, names, k, n. auto.
Qed.
