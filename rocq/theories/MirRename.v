(** Proofs about predictable names. *)
From Coq Require Import List Bool Arith Lia Ascii DecimalString Decimal DecimalNat.
From Coq Require Strings.String.
From Verif Require Import Bits CodegenModel MirModel MirSpec MirAlias.
Import ListNotations.

Definition count_of (s : String.string) (c : counts) : option nat :=
  option_map snd (find (fun p => String.eqb (fst p) s) c).
Lemma bump_fst : forall s c, fst (bump s c) = match count_of s c with Some v => S v | None => 0 end.
Proof.
  intros s c. unfold count_of. induction c as [|[k v] c IH]; cbn; auto.
  destruct (String.eqb k s); cbn; auto.
Qed.
Lemma bump_snd : forall s t c, count_of t (snd (bump s c))
  = if String.eqb s t then Some (fst (bump s c)) else count_of t c.
Proof.
  intros s t c. unfold count_of. induction c as [|[k v] c IH]; cbn.
  - destruct (String.eqb s t); auto.
  - destruct (String.eqb k s) eqn:Q; cbn.
    + apply String.eqb_eq in Q. subst. destruct (String.eqb s t); auto.
    + destruct (String.eqb k t) eqn:R; cbn; auto. apply String.eqb_eq in R. subst.
      rewrite String.eqb_sym in Q. now rewrite Q.
Qed.

(** What the table holds after the names [l] have been pushed. *)
Definition target (l : list vn) (n : vn) : vn :=
  match n with Named _ s => Named (occurrences s l) s | EId i => EId i end.
Definition table_of (l : list vn) : name_state :=
  fold_left push_name l {| ns_names := []; ns_map := [] |}.

Lemma table_snoc : forall l n, table_of (l ++ [n]) = push_name (table_of l) n.
Proof. intros. unfold table_of. now rewrite fold_left_app. Qed.

Lemma occurrences_snoc : forall s l n, occurrences s (l ++ [n])
  = occurrences s l + match n with Named _ t => if String.eqb t s then 1 else 0 | EId _ => 0 end.
Proof.
  intros. unfold occurrences. rewrite filter_app, app_length. f_equal. cbn.
  destruct n; cbn; auto. destruct (String.eqb name s); auto.
Qed.

Lemma table_counts : forall l s,
  count_of s (ns_names (table_of l))
  = match occurrences s l with 0 => None | S k => Some k end.
Proof.
  intros l s. induction l as [|n l IH] using rev_ind; auto.
  rewrite table_snoc, occurrences_snoc. destruct n as [i t|i]; cbn [push_name ns_names].
  - rewrite bump_snd, bump_fst. destruct (String.eqb t s) eqn:Q.
    + apply String.eqb_eq in Q. subst. rewrite IH. rewrite Nat.add_1_r. destruct (occurrences s l); auto.
    + now rewrite Nat.add_0_r.
  - now rewrite Nat.add_0_r.
Qed.

Lemma lookup_cons : forall k v m n,
  lookup_name ((k, v) :: m) n = if vn_eqb k n then Some v else lookup_name m n.
Proof. intros. unfold lookup_name. cbn. destruct (vn_eqb k n); auto. Qed.

Lemma table_lookup_out : forall l n, ~ In n l -> lookup_name (ns_map (table_of l)) n = None.
Proof.
  intros l n. induction l as [|x l IH] using rev_ind; auto. intros H. rewrite in_app_iff in H. cbn in H.
  rewrite table_snoc. assert (x <> n) by tauto.
  destruct x; cbn [push_name ns_map]; rewrite lookup_cons, (proj2 (vn_eqb_neq _ _)); auto; apply IH; tauto.
Qed.
Lemma table_lookup : forall l1 n l2, ~ In n l2 ->
  lookup_name (ns_map (table_of (l1 ++ n :: l2))) n = Some (target l1 n).
Proof.
  intros l1 n l2. induction l2 as [|x l2 IH] using rev_ind; intros H.
  - rewrite table_snoc. destruct n as [i s|i]; cbn [push_name ns_map]; rewrite lookup_cons, vn_eqb_refl; auto.
    rewrite bump_fst, table_counts. cbn. destruct (occurrences s l1); auto.
  - rewrite in_app_iff in H. cbn in H. assert (x <> n) by tauto.
    rewrite app_comm_cons, app_assoc, table_snoc.
    destruct x; cbn [push_name ns_map]; rewrite lookup_cons, (proj2 (vn_eqb_neq _ _)); auto; apply IH; tauto.
Qed.

(** The k-th definition with a given spelling gets number k. *)
Theorem predictable_number : forall e l1 n l2,
  single_definitions e -> definitions e = l1 ++ n :: l2 ->
  get_name (name_table e) n = target l1 n.
Proof.
  intros e l1 n l2 SD H. unfold get_name, try_rename, name_table. rewrite H.
  fold (table_of (l1 ++ n :: l2)). rewrite table_lookup; auto.
  unfold single_definitions in SD. rewrite H in SD. apply NoDup_remove_2 in SD.
  rewrite in_app_iff in SD. tauto.
Qed.
Lemma get_name_out : forall e n, ~ In n (definitions e) -> get_name (name_table e) n = n.
Proof.
  intros e n H. unfold get_name, try_rename, name_table. fold (table_of (definitions e)).
  now rewrite table_lookup_out.
Qed.

Lemma occurrences_app : forall s a b, occurrences s (a ++ b) = occurrences s a + occurrences s b.
Proof. intros. unfold occurrences. now rewrite filter_app, app_length. Qed.

Lemma get_name_inj : forall e x y, single_definitions e ->
  In x (definitions e) -> In y (definitions e) ->
  get_name (name_table e) x = get_name (name_table e) y -> x = y.
Proof.
  intros e x y SD Ix Iy H.
  destruct (in_split _ _ Ix) as (a & b & Q).
  rewrite (predictable_number e a x b) in H; auto.
  assert (Iy' := Iy). rewrite Q in Iy'. apply in_app_or in Iy' as [J|[J|J]]; auto.
  - apply in_split in J as (a1 & a2 & J). subst a.
    rewrite (predictable_number e a1 y (a2 ++ x :: b)) in H; auto.
    2:{ rewrite Q. now rewrite <- app_assoc. }
    destruct x as [i s|i], y as [j t|j]; cbn in H; try discriminate; [|congruence].
    inversion H; subst. exfalso. rewrite occurrences_app in H1.
    unfold occurrences in H1 at 2. cbn in H1. rewrite String.eqb_refl in H1. cbn in H1. lia.
  - apply in_split in J as (b1 & b2 & J). subst b.
    rewrite (predictable_number e (a ++ x :: b1) y b2) in H; auto.
    2:{ rewrite Q. rewrite <- app_assoc. reflexivity. }
    destruct x as [i s|i], y as [j t|j]; cbn in H; try discriminate; [|congruence].
    inversion H; subst. exfalso. rewrite occurrences_app in H1.
    unfold occurrences in H1 at 3. cbn in H1. rewrite String.eqb_refl in H1. cbn in H1. lia.
Qed.

Lemma definitions_rename : forall f e, definitions (rename_entity f e) = map f (definitions e).
Proof.
  intros f e. unfold definitions, rename_entity. cbn. rewrite map_app, !map_map. f_equal.
  apply defined_map.
Qed.

Theorem predictable_single_definitions : forall e, single_definitions e ->
  single_definitions (make_names_predictable e).
Proof.
  intros e SD. unfold single_definitions, make_names_predictable. rewrite definitions_rename.
  apply NoDup_map_in; auto. intros. eapply get_name_inj; eauto.
Qed.

(** ** Independence of the original numbers *)
Lemma occurrences_renumber : forall f s l, renumbering f -> occurrences s (map f l) = occurrences s l.
Proof.
  intros f s l [R1 R2]. unfold occurrences. induction l as [|n l IH]; cbn; auto.
  destruct n as [i t|i].
  - destruct (R2 i t) as [j ->]. destruct (String.eqb t s); cbn; auto.
  - rewrite R1. auto.
Qed.
Lemma map_stmt_ext : forall f g s, (forall x, In x (defined s ++ used s) -> f x = g x) ->
  map_stmt f s = map_stmt g s.
Proof.
  intros f g s H.
  destruct s as [n o ops t|n o t|n t c [[a b]|] i v|n t c|v|a b|]; cbn in *; auto.
  - f_equal; auto. apply map_ext_in. auto.
  - f_equal; auto.
  - rewrite !H by tauto. reflexivity.
  - rewrite !H by tauto. reflexivity.
  - f_equal; auto.
  - f_equal; auto.
  - f_equal; auto.
Qed.
Lemma map_stmt_comp : forall f g s, map_stmt f (map_stmt g s) = map_stmt (fun x => f (g x)) s.
Proof.
  intros f g [n o ops t|n o t|n t c [[a b]|] i v|n t c|v|a b|]; cbn; auto. now rewrite map_map.
Qed.

Theorem predictable_independent : forall f e,
  renumbering f -> single_definitions e -> closed e ->
  (forall x y, In x (definitions e) -> In y (definitions e) -> f x = f y -> x = y) ->
  make_names_predictable (rename_entity f e) = make_names_predictable e.
Proof.
  intros f e R SD [CO CU] Inj.
  assert (SD' : single_definitions (rename_entity f e)).
  { unfold single_definitions. rewrite definitions_rename. apply NoDup_map_in; auto. }
  assert (K : forall x, In x (definitions e) ->
     get_name (name_table (rename_entity f e)) (f x) = get_name (name_table e) x).
  { intros x I. destruct (in_split _ _ I) as (a & b & Q).
    rewrite (predictable_number e a x b); auto.
    rewrite (predictable_number (rename_entity f e) (map f a) (f x) (map f b)); auto.
    - destruct R as [R1 R2]. destruct x as [i s|i]; cbn [target].
      + destruct (R2 i s) as [j E]. rewrite E. cbn [target]. f_equal. apply occurrences_renumber. split; auto.
      + rewrite R1. reflexivity.
    - rewrite definitions_rename, Q, map_app. reflexivity. }
  unfold make_names_predictable. set (g := get_name (name_table (rename_entity f e))) in *.
  set (h := get_name (name_table e)) in *. unfold rename_entity. cbn. f_equal.
  - rewrite map_map. apply map_ext_in. intros i I. cbn. f_equal. apply K. unfold definitions.
    apply in_or_app. left. now apply in_map.
  - auto.
  - rewrite map_map. apply map_ext_in. intros s I. rewrite map_stmt_comp. apply map_stmt_ext.
    intros x J. apply K. apply in_app_or in J as [J|J]; [|eauto].
    unfold definitions. apply in_or_app. right. apply in_flat_map. eauto.
Qed.

(** ** Behaviour *)
Lemma holds_ext_in : forall m sg sg' s, (forall x, In x (defined s ++ used s) -> sg x = sg' x) ->
  holds m sg s -> holds m sg' s.
Proof.
  intros m sg sg' s H.
  destruct s as [n o ops t|n o t|n t c [[a b]|] i v|n t c|v|a b|]; cbn in *; auto.
  - rewrite <- H by auto. rewrite (map_ext_in sg sg' ops); auto.
  - rewrite <- !H by auto. auto.
  - rewrite <- !H by auto 6. auto.
  - rewrite <- !H by auto 6. auto.
  - rewrite <- !H by auto. auto.
  - rewrite <- !H by auto. auto.
Qed.
Lemma asserted_used : forall e x, In x (asserted e) -> exists s, In s (e_stmts e) /\ In x (used s).
Proof.
  intros e x H. apply in_flat_map in H as (s & I & J). exists s. split; auto.
  destruct s; try destruct J; cbn; auto.
Qed.
Lemma asserted_rename : forall f e, asserted (rename_entity f e) = map f (asserted e).
Proof. intros. unfold asserted. cbn. apply asserted_map. Qed.

Theorem predictable_backward : forall m e sg', behaves m sg' (make_names_predictable e) ->
  behaves m (fun n => sg' (get_name (name_table e) n)) e
  /\ observations m (fun n => sg' (get_name (name_table e) n)) e
     = observations m sg' (make_names_predictable e).
Proof.
  intros m e sg' B. unfold behaves in *. split.
  - cbn in B. apply Forall_forall. intros s I. rewrite Forall_forall in B.
    apply holds_map. apply B. now apply in_map.
  - unfold observations, make_names_predictable. rewrite asserted_rename. cbn. now rewrite !map_map.
Qed.

Theorem predictable_forward : forall m e sg, single_definitions e -> closed e -> behaves m sg e ->
  exists sg', behaves m sg' (make_names_predictable e)
    /\ observations m sg' (make_names_predictable e) = observations m sg e
    /\ forall n, In n (definitions e) -> sg' (get_name (name_table e) n) = sg n.
Proof.
  intros m e sg SD [CO CU] B.
  set (g := get_name (name_table e)).
  (* read the signal off the definition with that new name *)
  exists (fun y => match find (fun x => vn_eqb (g x) y) (definitions e) with
                   | Some x => sg x | None => sg y end).
  assert (K : forall n, In n (definitions e) ->
    match find (fun x => vn_eqb (g x) (g n)) (definitions e) with Some x => sg x | None => sg (g n) end = sg n).
  { intros n I. destruct (find _ _) as [x|] eqn:F.
    - apply find_some in F as [J Q]. apply vn_eqb_eq in Q. f_equal. eapply get_name_inj; eauto.
    - apply (find_none _ _ F) in I. rewrite vn_eqb_refl in I. discriminate. }
  split; [|split; [|exact K]].
  - unfold behaves in *. cbn. apply Forall_forall. intros s I. apply in_map_iff in I as (s0 & <- & I).
    apply holds_map. rewrite Forall_forall in B. eapply holds_ext_in; [|apply B; exact I].
    intros x J. symmetry. apply K. apply in_app_or in J as [J|J]; [|eauto].
    unfold definitions. apply in_or_app. right. apply in_flat_map. eauto.
  - unfold observations, make_names_predictable. rewrite asserted_rename. cbn. rewrite !map_map. f_equal.
    + apply map_ext_in. intros i I. apply K. unfold definitions. apply in_or_app. left. now apply in_map.
    + f_equal; [apply K; auto|]. apply map_ext_in. intros x I. apply K.
      apply asserted_used in I as (s & I & J). eauto.
Qed.
