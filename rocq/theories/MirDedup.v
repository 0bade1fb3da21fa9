(** Proofs about merging duplicate inverted wires. *)
From Coq Require Import List Bool Arith Lia.
From Coq Require Strings.String.
From Verif Require Import Bits CodegenModel MirModel MirSpec MirAlias MirRename.
Import ListNotations.

(** ** Decidable equality of keys *)
Lemma list_eqb_eq : forall (A : Type) (f : A -> A -> bool) (l m : list A),
  Forall (fun x => forall y, f x y = true <-> x = y) l -> (list_eqb f l m = true <-> l = m).
Proof.
  intros A f l m H. revert m. induction H as [|x l Hx H IH]; intros [|y m]; cbn; try (split; congruence).
  rewrite andb_true_iff, Hx, IH. split; [intros [-> ->]; auto|intros Q; inversion Q; auto].
Qed.

Section TyInd.
  Variable P : ty -> Prop.
  Hypothesis Hint : forall n, P (TInt n).
  Hypothesis Huint : forall n, P (TUInt n).
  Hypothesis Hbool : P TBool.
  Hypothesis Htup : forall l, Forall P l -> P (TTuple l).
  Hypothesis Hstruct : forall l, Forall (fun p => P (snd p)) l -> P (TStruct l).
  Hypothesis Harr : forall i n, P i -> P (TArray i n).
  Hypothesis Hmem : forall i n, P i -> P (TMemory i n).
  Hypothesis Henum : forall l, Forall (Forall P) l -> P (TEnum l).
  Hypothesis Hback : forall i, P i -> P (TBackward i).
  Hypothesis Hcopy : forall i, P i -> P (TCopyView i).
  Hypothesis Hinout : forall i, P i -> P (TInOut i).
  Fixpoint ty_nested_ind (t : ty) : P t :=
    match t with
    | TInt n => Hint n
    | TUInt n => Huint n
    | TBool => Hbool
    | TTuple l => Htup l ((fix go l : Forall P l :=
        match l with [] => Forall_nil _ | x :: r => Forall_cons x (ty_nested_ind x) (go r) end) l)
    | TStruct l => Hstruct l ((fix go l : Forall (fun p => P (snd p)) l :=
        match l with [] => Forall_nil _ | x :: r => Forall_cons x (ty_nested_ind (snd x)) (go r) end) l)
    | TArray i n => Harr i n (ty_nested_ind i)
    | TMemory i n => Hmem i n (ty_nested_ind i)
    | TEnum l => Henum l ((fix go l : Forall (Forall P) l :=
        match l with
        | [] => Forall_nil _
        | v :: r => Forall_cons v ((fix go2 v : Forall P v :=
            match v with [] => Forall_nil _ | x :: r => Forall_cons x (ty_nested_ind x) (go2 r) end) v) (go r)
        end) l)
    | TBackward i => Hback i (ty_nested_ind i)
    | TCopyView i => Hcopy i (ty_nested_ind i)
    | TInOut i => Hinout i (ty_nested_ind i)
    end.
End TyInd.

Lemma ty_eqb_eq : forall a b, ty_eqb a b = true <-> a = b.
Proof.
  intros a. induction a using ty_nested_ind; intros b; destruct b; cbn; try (split; congruence).
  - rewrite Nat.eqb_eq. split; congruence.
  - rewrite Nat.eqb_eq. split; congruence.
  - rewrite list_eqb_eq by auto. split; congruence.
  - rewrite list_eqb_eq; [split; congruence|]. eapply Forall_impl; [|exact H].
    intros [s t] Ht [s' t']. cbn in *. rewrite andb_true_iff, String.eqb_eq, Ht.
    split; [intros [-> ->]; auto|intros Q; inversion Q; auto].
  - rewrite andb_true_iff, Nat.eqb_eq, IHa. split; [intros [-> ->]; auto|intros Q; inversion Q; auto].
  - rewrite andb_true_iff, Nat.eqb_eq, IHa. split; [intros [-> ->]; auto|intros Q; inversion Q; auto].
  - rewrite list_eqb_eq; [split; congruence|]. eapply Forall_impl; [|exact H].
    intros l' Hl m. apply list_eqb_eq. exact Hl.
  - rewrite IHa. split; congruence.
  - rewrite IHa. split; congruence.
  - rewrite IHa. split; congruence.
Qed.
Lemma mop_eqb_eq : forall a b, mop_eqb a b = true <-> a = b.
Proof.
  intros [o| |i] [p| |j]; cbn; try (split; congruence).
  - destruct (operator_eq_dec o p); split; congruence.
  - rewrite Nat.eqb_eq. split; congruence.
Qed.
Lemma key_eqb_eq : forall a b, key_eqb a b = true <-> a = b.
Proof.
  intros [[o l] t] [[p m] u]. unfold key_eqb. cbn [fst snd]. rewrite !andb_true_iff.
  rewrite list_eqb_eq by (apply Forall_forall; intros; apply vn_eqb_eq). rewrite ty_eqb_eq.
  destruct o, p; rewrite ?mop_eqb_eq; split; intros H; try (destruct H as [[? ?] ?]; congruence); try (inversion H; auto; fail).
  all: destruct H as [[H _] _]; discriminate.
Qed.

(** ** Every behaviour is kept *)
Lemma determined_op : forall m, determined m -> forall o t d d' ops,
  op_needs_deduplication o = true -> backward_size t <> 0 ->
  s_op m o t d ops -> s_op m o t d' ops -> d = d'.
Proof. intros m Dt o t d d' ops N Z. destruct o; try discriminate; eapply Dt; eauto. Qed.

Definition bound (m : semantics) (sg : vn -> D m) (k : option mop * list vn * ty) (n : vn) : Prop :=
  match fst (fst k) with
  | Some o => s_op m o (snd k) (sg n) (map sg (snd (fst k)))
  | None => exists o, snd (fst k) = [o] /\ sg n = sg o
  end.
Lemma holds_bound : forall m sg s n k, as_binding s = Some (n, k) -> (holds m sg s <-> bound m sg k n).
Proof.
  intros m sg s n k H. destruct s; cbn in H; inversion H; subst; cbn; [tauto|].
  split; [eauto|]. intros (o & Q & E). inversion Q; subst. auto.
Qed.

Lemma needs_dedup_det : forall m sg k n n', determined m -> needs_dedup k = true ->
  bound m sg k n -> bound m sg k n' -> sg n = sg n'.
Proof.
  intros m sg [[o l] t] n n' Dt N H H'. unfold needs_dedup in N. apply andb_true_iff in N as [N1 N2].
  unfold bound in *. cbn [fst snd] in *. destruct o.
  - eapply (determined_op _ Dt); eauto. intros Z. rewrite Z in N1. discriminate.
  - destruct H as (o & -> & H), H' as (o' & Q & H'). inversion Q; subst. congruence.
Qed.

Lemma recursive_lookup_same : forall m (sg : vn -> D m) tb fuel x y,
  (forall a b, In (a, b) tb -> sg a = sg b) -> recursive_lookup fuel tb x = Some y -> sg x = sg y.
Proof.
  intros m sg tb fuel. induction fuel as [|fuel IH]; intros x y H Q; cbn in Q; [discriminate|].
  destruct (lookup_name tb x) as [z|] eqn:L; [|discriminate]. apply lookup_name_In in L.
  destruct (recursive_lookup fuel tb z) eqn:R; inversion Q; subst.
  - rewrite (H x z L). eapply IH; eauto.
  - auto.
Qed.

Lemma replaced_same : forall m (sg : vn -> D m), determined m -> forall ss seen tb,
  Forall (holds m sg) ss ->
  (forall k n, In (k, n) seen -> bound m sg k n) ->
  (forall a b, In (a, b) tb -> sg a = sg b) ->
  forall a b, In (a, b) (find_replaced ss seen tb) -> sg a = sg b.
Proof.
  intros m sg Dt. induction ss as [|s ss IH]; intros seen tb B S T a b I; cbn [find_replaced] in I; auto.
  inversion B; subst. destruct (as_binding s) as [[n k]|] eqn:Q; [|eapply IH; eauto].
  assert (Bn : bound m sg k n) by (eapply holds_bound; eauto).
  eapply IH in I; eauto.
  - intros k' n' [E|J]; [inversion E; subst; auto|auto].
  - destruct (needs_dedup k) eqn:Nd; auto.
    destruct (find _ seen) as [[k' prev]|] eqn:F; auto.
    apply find_some in F as [F E]. cbn in E. apply key_eqb_eq in E. subst k'.
    assert (P : sg n = sg prev) by (eapply needs_dedup_det; eauto).
    assert (Y : sg prev = sg (match recursive_lookup (Datatypes.S (length tb)) tb prev with
                              | Some d => d | None => prev end)).
    { destruct (recursive_lookup (Datatypes.S (length tb)) tb prev) eqn:R; auto.
      eapply recursive_lookup_same; eauto. }
    revert Y. generalize (match recursive_lookup (Datatypes.S (length tb)) tb prev with
                              | Some d => d | None => prev end).
    intros y Y a' b' [E|J]; auto. inversion E; subst. congruence.
Qed.

Lemma try_rename_same : forall m (sg : vn -> D m) tb, (forall a b, In (a, b) tb -> sg a = sg b) ->
  forall x, sg (try_rename tb x) = sg x.
Proof.
  intros m sg tb H x. unfold try_rename. destruct (lookup_name tb x) eqn:L; auto.
  apply lookup_name_In in L. symmetry. auto.
Qed.
Lemma dedup_forward_stmts : forall m (sg : vn -> D m), determined m -> forall fuel ss,
  Forall (holds m sg) ss -> Forall (holds m sg) (replace_duplicate_mut_wires fuel ss).
Proof.
  intros m sg Dt.
  assert (R : forall ss, Forall (holds m sg) ss ->
     Forall (holds m sg) (flat_map (dedup_stmt (find_replaced ss [] [])) ss)).
  { intros ss B. set (tb := find_replaced ss [] []).
    assert (T : forall x, sg (try_rename tb x) = sg x).
    { apply try_rename_same. apply replaced_same; auto; intros ? ? []. }
    apply Forall_flat_map. eapply Forall_impl; [|exact B]. intros s Hs.
    destruct s; cbn; auto; destruct (lookup_name tb _); repeat constructor; auto.
    - cbn in *. rewrite map_map. now rewrite (map_ext _ _ T).
    - cbn in *. now rewrite T. }
  induction fuel as [|fuel IH]; intros ss B; cbn; [apply R; auto|].
  destruct (find_replaced ss [] []) as [|p tb] eqn:F; rewrite <- F; auto.
Qed.

Lemma asserted_dedup : forall tb ss,
  flat_map (fun s => match s with SAssert v => [v] | _ => [] end) (flat_map (dedup_stmt tb) ss)
  = flat_map (fun s => match s with SAssert v => [v] | _ => [] end) ss.
Proof.
  induction ss as [|s ss IH]; cbn; auto. rewrite flat_map_app, IH. f_equal.
  destruct s; cbn; auto; destruct (lookup_name tb _); auto.
Qed.
Lemma asserted_dedup_all : forall e, asserted (deduplicate_mut_wires e) = asserted e.
Proof.
  intros e. unfold asserted, deduplicate_mut_wires. cbn [e_stmts].
  generalize (length (e_stmts e)) as fuel. intros fuel. generalize (e_stmts e) as ss.
  induction fuel as [|fuel IH]; intros ss; cbn.
  - apply asserted_dedup.
  - destruct (find_replaced ss [] []) as [|p tb] eqn:F; rewrite <- F; [apply asserted_dedup|].
    rewrite IH. apply asserted_dedup.
Qed.

Theorem dedup_forward : forall m e sg, determined m -> behaves m sg e ->
  behaves m sg (deduplicate_mut_wires e)
  /\ observations m sg (deduplicate_mut_wires e) = observations m sg e.
Proof.
  intros m e sg Dt B. split.
  - unfold behaves in *. cbn. now apply dedup_forward_stmts.
  - unfold observations. rewrite asserted_dedup_all. reflexivity.
Qed.

(** ** One driver per inverted wire *)
Lemma find_replaced_mono : forall ss seen tb, tb <> [] -> find_replaced ss seen tb <> [].
Proof.
  induction ss as [|s ss IH]; intros seen tb H; cbn; auto.
  destruct (as_binding s) as [[n k]|]; auto. apply IH.
  destruct (needs_dedup k); auto. destruct (find _ seen) as [[k' p]|]; auto. discriminate.
Qed.
Lemma replaced_names : forall ss seen tb n y, In (n, y) (find_replaced ss seen tb) ->
  In (n, y) tb \/ exists s k, In s ss /\ as_binding s = Some (n, k) /\ needs_dedup k = true.
Proof.
  induction ss as [|s ss IH]; intros seen tb n y I; cbn [find_replaced] in I; auto.
  destruct (as_binding s) as [[n0 k0]|] eqn:Q.
  - apply IH in I as [I|(s' & k & I & H)]; [|right; exists s', k; split; [right|]; auto].
    destruct (needs_dedup k0) eqn:Nd; auto. destruct (find _ seen) as [[k' p]|]; auto.
    destruct I as [I|I]; auto. inversion I; subst. right. exists s, k0. split; [now left|auto].
  - apply IH in I as [I|(s' & k & I & H)]; auto. right. exists s', k. split; [right|]; auto.
Qed.
Lemma dedup_one : forall tb s, length (dedup_stmt tb s) <= 1.
Proof. intros tb s. destruct s; cbn; auto; destruct (lookup_name tb _); cbn; lia. Qed.
Lemma dedup_length : forall ss tb, length (flat_map (dedup_stmt tb) ss) <= length ss.
Proof.
  induction ss as [|s ss IH]; intros tb; cbn; auto. rewrite app_length. specialize (IH tb).
  pose proof (dedup_one tb s). lia.
Qed.
Lemma dedup_shrinks : forall ss tb s n k, In s ss -> as_binding s = Some (n, k) -> lookup_name tb n <> None ->
  length (flat_map (dedup_stmt tb) ss) < length ss.
Proof.
  induction ss as [|s0 ss IH]; intros tb s n k I Q L; [destruct I|]. cbn [flat_map length]. rewrite app_length.
  destruct I as [->|I].
  - assert (length (dedup_stmt tb s) = 0).
    { destruct s; cbn in Q; inversion Q; subst; cbn; destruct (lookup_name tb n); auto; congruence. }
    pose proof (dedup_length ss tb). lia.
  - specialize (IH tb s n k I Q L).
    pose proof (dedup_one tb s0). lia.
Qed.
Lemma dedup_nil : forall ss, flat_map (dedup_stmt []) ss = ss.
Proof.
  induction ss as [|s ss IH]; cbn; auto. rewrite IH.
  assert (dedup_stmt [] s = [s]).
  { destruct s; cbn; auto. f_equal. f_equal. rewrite <- (map_id operands) at 2. now apply map_ext. }
  now rewrite H.
Qed.
(** The pass ends in a state where another round would replace nothing. *)
Lemma dedup_fixpoint : forall fuel ss, length ss <= fuel ->
  find_replaced (replace_duplicate_mut_wires fuel ss) [] [] = [].
Proof.
  induction fuel as [|fuel IH]; intros ss L.
  - destruct ss; [reflexivity|cbn in L; lia].
  - cbn. destruct (find_replaced ss [] []) as [|[n y] tb] eqn:F; rewrite <- F.
    + rewrite F, dedup_nil. exact F.
    + apply IH. assert (I : In (n, y) (find_replaced ss [] [])) by (rewrite F; now left).
      destruct (replaced_names _ _ _ _ _ I) as [[]|(s & k & Is & Q & _)].
      enough (length (flat_map (dedup_stmt (find_replaced ss [] [])) ss) < length ss) by lia.
      eapply dedup_shrinks; eauto. intros N. eapply lookup_name_None in N. exact (N I).
Qed.
Lemma duplicate_found : forall l1 seen b1 l2 b2 l3 n1 n2 k,
  as_binding b1 = Some (n1, k) -> as_binding b2 = Some (n2, k) -> needs_dedup k = true ->
  find_replaced (l1 ++ b1 :: l2 ++ b2 :: l3) seen [] <> [].
Proof.
  assert (G2 : forall l2 seen tb b2 l3 n2 k, as_binding b2 = Some (n2, k) -> needs_dedup k = true ->
     (exists n, In (k, n) seen) -> find_replaced (l2 ++ b2 :: l3) seen tb <> []).
  { induction l2 as [|s l2 IH]; intros seen tb b2 l3 n2 k Q Nd (n & I); cbn.
    - rewrite Q, Nd. destruct (find _ seen) as [[k' p]|] eqn:F.
      + apply find_replaced_mono. discriminate.
      + exfalso. apply (find_none _ _ F) in I. cbn in I.
        assert (key_eqb k k = true) by now apply key_eqb_eq. congruence.
    - destruct (as_binding s) as [[n0 k0]|]; [|eapply IH; eauto].
      eapply IH; eauto. exists n. now right. }
  induction l1 as [|s l1 IH]; intros seen b1 l2 b2 l3 n1 n2 k Q1 Q2 Nd; cbn.
  - rewrite Q1. eapply G2; eauto. exists n1. now left.
  - destruct (as_binding s) as [[n0 k0]|]; [|eapply IH; eauto].
    destruct (needs_dedup k0); [|eapply IH; eauto]. destruct (find _ seen) as [[k' p]|]; [|eapply IH; eauto].
    apply find_replaced_mono. discriminate.
Qed.
Theorem dedup_single_driver : forall e l1 b1 l2 b2 l3 n1 n2 k,
  e_stmts (deduplicate_mut_wires e) = l1 ++ b1 :: l2 ++ b2 :: l3 ->
  as_binding b1 = Some (n1, k) -> as_binding b2 = Some (n2, k) ->
  needs_dedup k = false.
Proof.
  intros e l1 b1 l2 b2 l3 n1 n2 k H Q1 Q2. destruct (needs_dedup k) eqn:Nd; auto. exfalso.
  eapply (duplicate_found l1 [] b1 l2 b2 l3); eauto. rewrite <- H. cbn. apply dedup_fixpoint. auto.
Qed.

(** ** No behaviour is added, apart from assignments to merged wires *)
Definition same_key (ss : list stmt) (a b : vn) : Prop :=
  exists k s s', In s ss /\ In s' ss /\ as_binding s = Some (a, k) /\ as_binding s' = Some (b, k)
    /\ needs_dedup k = true.
Definition direct (ss : list stmt) (tb : rename_table) : Prop :=
  forall a b, In (a, b) tb -> same_key ss a b /\ lookup_name tb b = None.

Lemma as_binding_defined : forall s n k, as_binding s = Some (n, k) -> defined s = [n].
Proof. intros s n k H. destruct s; cbn in H; inversion H; subst; auto. Qed.

Lemma same_key_mono : forall ss ss' a b, (forall s, In s ss -> In s ss') -> same_key ss a b -> same_key ss' a b.
Proof. intros ss ss' a b H (k & s & s' & I & J & Q). exists k, s, s'. split; [auto|]. split; auto. Qed.

Lemma replaced_direct : forall ss pre seen tb,
  NoDup (flat_map defined (pre ++ ss)) ->
  (forall k n, In (k, n) seen -> exists s, In s pre /\ as_binding s = Some (n, k)) ->
  direct pre tb ->
  direct (pre ++ ss) (find_replaced ss seen tb).
Proof.
  induction ss as [|s ss IH]; intros pre seen tb N S T; cbn [find_replaced].
  - rewrite app_nil_r. auto.
  - replace (pre ++ s :: ss) with ((pre ++ [s]) ++ ss) in * by now rewrite <- app_assoc.
    assert (M : forall a b, same_key pre a b -> same_key (pre ++ [s]) a b).
    { intros a b. apply same_key_mono. intros. apply in_or_app. auto. }
    destruct (as_binding s) as [[n k]|] eqn:Q.
    2:{ apply IH; auto.
        - intros k n I. destruct (S k n I) as (s' & I' & Q'). exists s'. split; auto. apply in_or_app; auto.
        - intros a b I. destruct (T a b I). auto. }
    assert (fresh : forall s' n' k', In s' pre -> as_binding s' = Some (n', k') -> n' <> n).
    { intros s' n' k' I' Q' ->. rewrite <- app_assoc, flat_map_app in N.
      eapply NoDup_split_disjoint; [exact N| |].
      - apply in_flat_map. exists s'. split; eauto. rewrite (as_binding_defined _ _ _ Q'). now left.
      - cbn. rewrite (as_binding_defined _ _ _ Q). now left. }
    apply IH; auto.
    + intros k' n' [E|I].
      * inversion E; subst. exists s. split; auto. apply in_or_app. right. now left.
      * destruct (S k' n' I) as (s' & I' & Q'). exists s'. split; auto. apply in_or_app; auto.
    + destruct (needs_dedup k) eqn:Nd; [|intros a b I; destruct (T a b I); auto].
      destruct (find _ seen) as [[k' prev]|] eqn:F; [|intros a b I; destruct (T a b I); auto].
      apply find_some in F as [F E]. cbn in E. apply key_eqb_eq in E. subst k'.
      destruct (S _ _ F) as (sp & Ip & Qp).
      assert (Y : exists y sy, match recursive_lookup (Datatypes.S (length tb)) tb prev with
                        | Some d => d | None => prev end = y
                     /\ In sy pre /\ as_binding sy = Some (y, k) /\ lookup_name tb y = None).
      { cbn [recursive_lookup]. destruct (lookup_name tb prev) as [z|] eqn:L.
        - pose proof (lookup_name_In _ _ _ L) as I. destruct (T prev z I) as [(k0 & s0 & s1 & J0 & J1 & Q0 & Q1 & _) Lz].
          assert (sp = s0).
          { rewrite <- app_assoc, flat_map_app in N. apply NoDup_left in N.
            eapply defined_once; [exact N|eauto|eauto| |]; rewrite (as_binding_defined _ _ _ Qp) ||
              rewrite (as_binding_defined _ _ _ Q0); now left. }
          subst s0. rewrite Qp in Q0. inversion Q0; subst k0.
          exists z, s1. repeat split; auto.
          destruct (length tb); cbn; auto. rewrite Lz. auto.
        - exists prev, sp. auto. }
      destruct Y as (y & sy & -> & Iy & Qy & Ly).
      intros a b [I|I].
      * inversion I; subst. split.
        { exists k, s, sy. rewrite !in_app_iff. cbn. auto 10. }
        rewrite lookup_cons, (proj2 (vn_eqb_neq _ _)); auto.
        intros ->. exact (fresh _ _ _ Iy Qy eq_refl).
      * destruct (T a b I) as [K Lb]. split; auto.
        rewrite lookup_cons, (proj2 (vn_eqb_neq _ _)); auto.
        intros ->. destruct K as (k0 & s0 & s1 & J0 & J1 & Q0 & Q1 & _). exact (fresh _ _ _ J1 Q1 eq_refl).
Qed.

Lemma as_binding_inj : forall s s' k n n', as_binding s = Some (n, k) -> as_binding s' = Some (n', k) ->
  match s with
  | SBind _ o ops t => s' = SBind n' o ops t
  | SAlias _ o t => s' = SAlias n' o t
  | _ => False
  end.
Proof.
  intros s s' k n n' H H'. destruct s; cbn in H; inversion H; subst; destruct s'; cbn in H'; inversion H'; subst; auto.
Qed.

Definition plain_in (P : vn -> Prop) (ss : list stmt) : Prop :=
  (forall s n k, In s ss -> as_binding s = Some (n, k) -> needs_dedup k = true -> ~ P n) /\
  (forall s, In s ss ->
     match s with
     | SReg n _ c r _ v => P n /\ P c /\ P v /\ match r with Some (a, b) => P a /\ P b | None => True end
     | SConst n _ _ => P n
     | SAssert v => P v
     | SSet _ v => P v
     | _ => True
     end).

Lemma round_back : forall P (K : vn -> vn -> Prop) ss m (sg' : vn -> D m),
  NoDup (flat_map defined ss) -> plain_in P ss ->
  let tb := find_replaced ss [] [] in
  (forall x, P x -> try_rename tb x = x) /\
  ((forall s, In s (flat_map (dedup_stmt tb) ss) -> (forall x v, s = SSet x v -> K x v) -> holds m sg' s) ->
   forall s, In s ss ->
     (forall x v, s = SSet x v -> K x v /\ In s (flat_map (dedup_stmt tb) ss)) ->
     holds m (fun x => sg' (try_rename tb x)) s).
Proof.
  intros P K ss m sg' N [P1 P2] tb.
  assert (DT : direct ss tb).
  { unfold tb. apply (replaced_direct ss [] [] []); auto; intros ? ? []. }
  assert (R : forall x, P x -> try_rename tb x = x).
  { intros x Px. unfold try_rename. destruct (lookup_name tb x) as [y|] eqn:L; auto.
    apply lookup_name_In in L. destruct (DT x y L) as [(k & s & s' & I & _ & Q & _ & Nd) _].
    exfalso. eapply P1; eauto. }
  split; auto. intros H s I Hs.
  assert (keep : forall s', In s' ss -> forall s2, In s2 (dedup_stmt tb s') -> (forall x v, s2 = SSet x v -> K x v) -> holds m sg' s2).
  { intros s' I' s2 J. apply H. apply in_flat_map. eauto. }
  specialize (P2 s I).
  assert (fixed : forall x, lookup_name tb x = None -> try_rename tb x = x).
  { intros x L. unfold try_rename. now rewrite L. }
  destruct s as [n o ops t|n o t|n t c r i v|n t c|v|x v|]; cbn [holds]; auto.
  - destruct (lookup_name tb n) as [y|] eqn:L.
    + assert (Q : try_rename tb n = y) by (unfold try_rename; now rewrite L). rewrite Q.
      apply lookup_name_In in L. destruct (DT n y L) as [(k & s & s' & J & J' & Q1 & Q2 & Nd) Ly].
      assert (s = SBind n o ops t).
      { eapply defined_once; [exact N|eauto|eauto| |]; [rewrite (as_binding_defined _ _ _ Q1); now left|now left]. }
      subst s. apply (as_binding_inj _ _ _ _ _ Q1) in Q2. subst s'.
      assert (K0 : holds m sg' (SBind y o (map (try_rename tb) ops) t)).
      { apply (keep _ J'); [cbn; rewrite Ly; now left|discriminate]. }
      cbn in K0. now rewrite map_map in K0.
    + rewrite (fixed _ L).
      assert (K0 : holds m sg' (SBind n o (map (try_rename tb) ops) t)).
      { apply (keep _ I); [cbn; rewrite L; now left|discriminate]. }
      cbn in K0. now rewrite map_map in K0.
  - destruct (lookup_name tb n) as [y|] eqn:L.
    + assert (Q : try_rename tb n = y) by (unfold try_rename; now rewrite L). rewrite Q.
      apply lookup_name_In in L. destruct (DT n y L) as [(k & s & s' & J & J' & Q1 & Q2 & Nd) Ly].
      assert (s = SAlias n o t).
      { eapply defined_once; [exact N|eauto|eauto| |]; [rewrite (as_binding_defined _ _ _ Q1); now left|now left]. }
      subst s. apply (as_binding_inj _ _ _ _ _ Q1) in Q2. subst s'.
      apply (keep _ J' (SAlias y (try_rename tb o) t)); [cbn; rewrite Ly; now left|discriminate].
    + rewrite (fixed _ L).
      apply (keep _ I (SAlias n (try_rename tb o) t)); [cbn; rewrite L; now left|discriminate].
  - destruct P2 as (Pn & Pc & Pv & Pr).
    assert (K0 : holds m sg' (SReg n t c r i v)) by (apply (keep _ I); [cbn; now left|discriminate]).
    cbn in K0. rewrite !R by auto. destruct r as [[a b]|]; auto. rewrite !R by tauto. auto.
  - rewrite R by auto. apply (keep _ I (SConst n t c)); [cbn; now left|discriminate].
  - rewrite (R v P2). destruct (Hs x v eq_refl) as [Hk Hi]. apply in_flat_map in Hi as (s' & I' & J').
    assert (L : lookup_name tb x = None).
    { destruct s'; cbn in J'; try (match type of J' with context [lookup_name tb ?n] => destruct (lookup_name tb n) eqn:L' end);
        try contradiction; destruct J' as [J'|[]]; inversion J'; subst; auto. }
    rewrite (fixed _ L). apply (keep _ I' _ J'). intros ? ? Q; inversion Q; subst; auto.
Qed.

Lemma round_plain : forall P ss tb, plain_in P ss -> plain_in P (flat_map (dedup_stmt tb) ss).
Proof.
  intros P ss tb [P1 P2]. split.
  - intros s n k I Q Nd. apply in_flat_map in I as (s0 & I0 & J).
    destruct s0 as [n0 o ops t|n0 o t|n0 t c r i v|n0 t c|v|x v|]; cbn in J;
      try (destruct J as [<-|[]]; discriminate).
    + destruct (lookup_name tb n0); [destruct J|]. destruct J as [<-|[]]. cbn in Q. inversion Q; subst.
      exact (P1 _ n (Some o, ops, t) I0 eq_refl Nd).
    + destruct (lookup_name tb n0); [destruct J|]. destruct J as [<-|[]]. cbn in Q. inversion Q; subst.
      exact (P1 _ n (None, [o], t) I0 eq_refl Nd).
    + destruct (lookup_name tb x); [destruct J|]. destruct J as [<-|[]]; discriminate.
  - intros s I. apply in_flat_map in I as (s0 & I0 & J). specialize (P2 s0 I0).
    destruct s0 as [n0 o ops t|n0 o t|n0 t c r i v|n0 t c|v|x v|]; cbn in J;
      try (destruct J as [<-|[]]; exact P2);
      destruct (lookup_name tb _); try contradiction; destruct J as [<-|[]]; auto.
Qed.
Lemma round_nodup : forall ss tb, NoDup (flat_map defined ss) -> NoDup (flat_map defined (flat_map (dedup_stmt tb) ss)).
Proof.
  assert (sub : forall ss tb x, In x (flat_map defined (flat_map (dedup_stmt tb) ss)) -> In x (flat_map defined ss)).
  { intros ss tb x I. apply in_flat_map in I as (s & I & J). apply in_flat_map in I as (s0 & I0 & K).
    apply in_flat_map. exists s0. split; auto. destruct s0; cbn in K;
      try (destruct (lookup_name tb _); [destruct K|]); try destruct K as [<-|[]]; auto; destruct J. }
  induction ss as [|s ss IH]; intros tb N; cbn; [constructor|].
  rewrite flat_map_app. cbn in N. apply NoDup_app_intro.
  - apply NoDup_left in N. destruct s; cbn in *; try (destruct (lookup_name tb _)); cbn; auto; constructor.
  - apply IH. eapply NoDup_right; eauto.
  - intros x I J. apply sub in J. eapply NoDup_split_disjoint; [exact N| |exact J].
    destruct s; cbn in *; try (destruct (lookup_name tb _)); cbn in *; auto; contradiction.
Qed.
Lemma dedup_sets : forall fuel ss x v, In (SSet x v) (replace_duplicate_mut_wires fuel ss) -> In (SSet x v) ss.
Proof.
  assert (R : forall ss tb x v, In (SSet x v) (flat_map (dedup_stmt tb) ss) -> In (SSet x v) ss).
  { intros ss tb x v I. apply in_flat_map in I as (s & I & J).
    destruct s; cbn in J; try (destruct (lookup_name tb _); [destruct J|]); destruct J as [J|[]];
      try discriminate; inversion J; subst; auto. }
  induction fuel as [|fuel IH]; intros ss x v; cbn; [apply R|].
  destruct (find_replaced ss [] []) as [|p tb] eqn:F; rewrite <- F; intros I; [eapply R; eauto|].
  apply IH in I. eapply R; eauto.
Qed.

Lemma dedup_back_stmts : forall P m (sg' : vn -> D m) fuel ss,
  NoDup (flat_map defined ss) -> plain_in P ss ->
  Forall (holds m sg') (replace_duplicate_mut_wires fuel ss) ->
  exists R : vn -> vn, (forall x, P x -> R x = x) /\
    forall s, In s ss ->
      (forall x v, s = SSet x v -> In s (replace_duplicate_mut_wires fuel ss)) ->
      holds m (fun x => sg' (R x)) s.
Proof.
  intros P m sg'.
  assert (base : forall ss, NoDup (flat_map defined ss) -> plain_in P ss ->
    Forall (holds m sg') (flat_map (dedup_stmt (find_replaced ss [] [])) ss) ->
    exists R : vn -> vn, (forall x, P x -> R x = x) /\
    forall s, In s ss ->
      (forall x v, s = SSet x v -> In s (flat_map (dedup_stmt (find_replaced ss [] [])) ss)) ->
      holds m (fun x => sg' (R x)) s).
  { intros ss N Pl H. exists (try_rename (find_replaced ss [] [])).
    destruct (round_back P (fun _ _ => True) ss m sg' N Pl) as [A B]. split; auto.
    rewrite Forall_forall in H. intros s I Hs. apply B; auto. intros x v Q. split; eauto. }
  induction fuel as [|fuel IH]; intros ss N Pl; [cbn [replace_duplicate_mut_wires]; auto|].
  assert (E : replace_duplicate_mut_wires (S fuel) ss = flat_map (dedup_stmt (find_replaced ss [] [])) ss
    \/ replace_duplicate_mut_wires (S fuel) ss
       = replace_duplicate_mut_wires fuel (flat_map (dedup_stmt (find_replaced ss [] [])) ss)).
  { cbn [replace_duplicate_mut_wires]. destruct (find_replaced ss [] []); auto. }
  destruct E as [-> | ->]; [auto|]. intros H.
  set (tb' := find_replaced ss [] []) in *.
  apply IH in H; [|apply round_nodup; auto|apply round_plain; auto].
  destruct H as (R & HR & HB).
  destruct (round_back P (fun x v => In (SSet x v) (replace_duplicate_mut_wires fuel (flat_map (dedup_stmt tb') ss)))
             ss m (fun x => sg' (R x)) N Pl) as [A B].
  fold tb' in A, B. exists (fun x => R (try_rename tb' x)).
  split; [intros x Px; rewrite A by auto; auto|].
  intros s I Hs. apply (B ltac:(intros s' I' K'; apply HB; auto; intros x v ->; eapply K'; eauto) s I).
  intros x v ->. specialize (Hs x v eq_refl). split; auto. eapply dedup_sets; eauto.
Qed.

Theorem dedup_backward : forall m (sg' : vn -> D m) e,
  single_definitions e -> plain_uses_ok e -> behaves m sg' (deduplicate_mut_wires e) ->
  exists sg : vn -> D m,
    (forall s, In s (e_stmts e) ->
       (forall x v, s = SSet x v -> In s (e_stmts (deduplicate_mut_wires e))) -> holds m sg s) /\
    observations m sg e = observations m sg' (deduplicate_mut_wires e).
Proof.
  intros m sg' e N Pl H.
  destruct (dedup_back_stmts (fun x => In x (plain_uses e)) m sg' (List.length (e_stmts e)) (e_stmts e)) as (R & HR & HB).
  - unfold single_definitions, definitions in N. eapply NoDup_right; eauto.
  - split.
    + intros s n k I Q Nd Px. pose proof (Pl s n k I Q Px) as Z.
      unfold needs_dedup in Nd. rewrite Z in Nd. discriminate.
    + intros s I. assert (U : forall x, In x (match s with
                     | SReg n _ c r _ v => n :: c :: v :: match r with Some (a, b) => [a; b] | None => [] end
                     | SConst n _ _ => [n]
                     | SAssert v => [v]
                     | SSet _ v => [v]
                     | _ => []
                     end) -> In x (plain_uses e)).
      { intros x J. unfold plain_uses. apply in_or_app. right. right. apply in_flat_map. eauto. }
      destruct s as [n o ops t|n o t|n t c r i v|n t c|v|x v|]; auto; try (apply U; cbn; tauto).
      split; [apply U; cbn; auto|]. split; [apply U; cbn; auto|]. split; [apply U; cbn; auto|].
      destruct r as [[a b]|]; auto. split; apply U; cbn; auto 10.
  - exact H.
  - exists (fun x => sg' (R x)). split; [exact HB|].
    assert (A : asserted (deduplicate_mut_wires e) = asserted e).
    { apply asserted_dedup_all. }
    unfold observations. rewrite A. cbn [deduplicate_mut_wires e_inputs e_output].
    f_equal; [|f_equal].
    + apply map_ext_in. intros i I. rewrite HR; auto. unfold plain_uses. apply in_or_app. left.
      apply in_map_iff. eauto.
    + rewrite HR; auto. unfold plain_uses. apply in_or_app. right. now left.
    + apply map_ext_in. intros x I. rewrite HR; auto. unfold plain_uses. apply in_or_app. right. right.
      apply in_flat_map in I as (s & I & J). apply in_flat_map. exists s. split; auto.
      destruct s; try contradiction; destruct J as [<-|[]]; now left.
Qed.
