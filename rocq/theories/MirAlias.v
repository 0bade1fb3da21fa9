(** Proofs about alias flattening. *)
From Coq Require Import List Bool Arith Lia Permutation Relations.
From Coq Require Strings.String.
From Verif Require Import Bits CodegenModel MirModel MirSpec.
Import ListNotations.

Lemma vn_eqb_eq : forall a b, vn_eqb a b = true <-> a = b.
Proof.
  intros [i s|i] [j t|j]; cbn; try (split; discriminate).
  - rewrite andb_true_iff, Nat.eqb_eq, String.eqb_eq. split; [intros [-> ->]; auto|].
    intros H; inversion H; auto.
  - rewrite Nat.eqb_eq. split; [intros ->; auto|intros H; inversion H; auto].
Qed.
Lemma vn_eqb_refl : forall a, vn_eqb a a = true.
Proof. intros. apply vn_eqb_eq. reflexivity. Qed.
Lemma vn_eqb_neq : forall a b, vn_eqb a b = false <-> a <> b.
Proof.
  intros. rewrite <- (vn_eqb_eq a b). destruct (vn_eqb a b); split; congruence.
Qed.
Lemma vn_eq_dec : forall a b : vn, {a = b} + {a <> b}.
Proof.
  intros. destruct (vn_eqb a b) eqn:E; [left; now apply vn_eqb_eq|right; now apply vn_eqb_neq].
Qed.
Lemma mem_In : forall x l, mem x l = true <-> In x l.
Proof.
  intros. unfold mem. rewrite existsb_exists. split.
  - intros (y & H & E). apply vn_eqb_eq in E. now subst.
  - intros H. exists x. split; auto. apply vn_eqb_refl.
Qed.

(** ** Adjacency maps *)
Lemma find_edges_None : forall x E, find_edges x E = None <-> ~ In x (map fst E).
Proof.
  intros. unfold find_edges. induction E as [|[k l] E IH]; cbn; [tauto|].
  destruct (vn_eqb k x) eqn:Q; cbn.
  - apply vn_eqb_eq in Q. subst. split; [discriminate|tauto].
  - apply vn_eqb_neq in Q. rewrite IH. tauto.
Qed.

Lemma find_remove_eq : forall x E, find_edges x (remove_edges x E) = None.
Proof.
  intros. apply find_edges_None. unfold remove_edges. rewrite in_map_iff.
  intros ([k l] & H & I). cbn in *. subst. apply filter_In in I as [_ I]. cbn in I.
  rewrite vn_eqb_refl in I. discriminate.
Qed.
Lemma find_remove_neq : forall x y E, x <> y -> find_edges x (remove_edges y E) = find_edges x E.
Proof.
  intros x y E N. unfold find_edges, remove_edges. induction E as [|[k l] E IH]; cbn; auto.
  destruct (vn_eqb k y) eqn:Q; cbn.
  - apply vn_eqb_eq in Q. subst. rewrite (proj2 (vn_eqb_neq y x)) by congruence. exact IH.
  - destruct (vn_eqb k x); auto.
Qed.
Lemma edge_count_remove : forall x E l, find_edges x E = Some l ->
  List.length l + edge_count (remove_edges x E) <= edge_count E.
Proof.
  intros x E l. unfold find_edges, edge_count, remove_edges. induction E as [|[k v] E IH]; cbn; [discriminate|].
  destruct (vn_eqb k x) eqn:Q; cbn.
  - intros H. inversion H; subst. clear IH H.
    apply Nat.add_le_mono_l.
    clear. induction E as [|[k l] E IH]; cbn; [lia|]. destruct (vn_eqb k x); cbn; lia.
  - intros H. specialize (IH H). fold (list_sum (map (fun p : vn * list vn => List.length (snd p)) E)) in *.
    unfold list_sum in *. lia.
Qed.

Definition nbr (E : adj) (x y : vn) : Prop := exists l, find_edges x E = Some l /\ In y l.

Lemma find_push : forall x a b E,
  find_edges x (push_edge a b E)
  = if vn_eqb a x then Some (match find_edges x E with Some l => l ++ [b] | None => [b] end)
    else find_edges x E.
Proof.
  intros x a b E. unfold find_edges. induction E as [|[k l] E IH]; cbn.
  - destruct (vn_eqb a x); reflexivity.
  - destruct (vn_eqb k a) eqn:Q; cbn.
    + apply vn_eqb_eq in Q. subst. destruct (vn_eqb a x) eqn:R; reflexivity.
    + destruct (vn_eqb k x) eqn:R; cbn.
      * apply vn_eqb_eq in R. subst. rewrite (proj2 (vn_eqb_neq a x)); [reflexivity|].
        apply vn_eqb_neq in Q. congruence.
      * exact IH.
Qed.
Lemma nbr_push : forall E a b x y, nbr (push_edge a b E) x y <-> nbr E x y \/ (x = a /\ y = b).
Proof.
  intros. unfold nbr. setoid_rewrite find_push. destruct (vn_eqb a x) eqn:Q.
  - apply vn_eqb_eq in Q. subst. split.
    + intros (l & H & I). inversion H; subst. destruct (find_edges x E).
      * apply in_app_or in I as [I|[->|[]]]; eauto.
      * destruct I as [->|[]]; auto.
    + intros [(l & H & I)|[_ ->]].
      * rewrite H. eexists; split; eauto. apply in_or_app; auto.
      * eexists; split; eauto. destruct (find_edges x E); [apply in_or_app; cbn; auto|cbn; auto].
  - apply vn_eqb_neq in Q. split; [eauto|]. intros [H|[-> _]]; [auto|congruence].
Qed.

(** Alias pairs written in the statements. *)
Definition aliased (ss : list stmt) (x y : vn) : Prop := exists t, In (SAlias x y t) ss.

Lemma nbr_build : forall ss E x y,
  nbr (build_edges ss E) x y <-> nbr E x y \/ aliased ss x y \/ aliased ss y x.
Proof.
  unfold aliased. induction ss as [|s ss IH]; intros E x y; cbn.
  - split; auto. intros [H|[[t []]|[t []]]]; auto.
  - assert (other : (forall a b t, s <> SAlias a b t) ->
       (nbr (build_edges ss E) x y <->
        nbr E x y \/ (exists t, s = SAlias x y t \/ In (SAlias x y t) ss)
        \/ (exists t, s = SAlias y x t \/ In (SAlias y x t) ss))).
    { intros N. rewrite IH. split.
      - intros [H|[[t H]|[t H]]]; eauto.
      - intros [H|[[t [H|H]]|[t [H|H]]]]; eauto; exfalso; eapply N; eauto. }
    destruct s; try (apply other; intros; discriminate).
    rewrite IH, !nbr_push. split.
    + intros [[[H|[-> ->]]|[-> ->]]|[[u H]|[u H]]]; eauto.
    + intros [H|[[u [H|H]]|[u [H|H]]]]; try inversion H; subst; eauto.
Qed.
Lemma keys_push : forall a b E x,
  find_edges x (push_edge a b E) <> None <-> x = a \/ find_edges x E <> None.
Proof.
  intros. rewrite find_push. destruct (vn_eqb a x) eqn:Q.
  - apply vn_eqb_eq in Q. subst. split; [auto|congruence].
  - apply vn_eqb_neq in Q. split; [auto|]. intros [->|H]; [congruence|auto].
Qed.
Lemma keys_build : forall ss E x,
  find_edges x (build_edges ss E) <> None <->
  find_edges x E <> None \/ (exists y, aliased ss x y \/ aliased ss y x).
Proof.
  unfold aliased. induction ss as [|s ss IH]; intros E x; cbn.
  - split; auto. intros [H|(y & [[t []]|[t []]])]; auto.
  - assert (other : (forall a b t, s <> SAlias a b t) ->
       (find_edges x (build_edges ss E) <> None <->
        find_edges x E <> None \/ (exists y, (exists t, s = SAlias x y t \/ In (SAlias x y t) ss)
        \/ (exists t, s = SAlias y x t \/ In (SAlias y x t) ss)))).
    { intros N. rewrite IH. split.
      - intros [H|(y & [[t H]|[t H]])]; eauto 6.
      - intros [H|(y & [[t [H|H]]|[t [H|H]]])]; eauto 6; exfalso; eapply N; eauto. }
    destruct s; try (apply other; intros; discriminate).
    rewrite IH, !keys_push. split.
    + intros [[->|[->|H]]|(y & [[u H]|[u H]])]; eauto 8.
    + intros [H|(y & [[u [H|H]]|[u [H|H]]])]; try inversion H; subst; eauto 6.
Qed.

Lemma NoDup_app_intro : forall (A : Type) (l1 l2 : list A),
  NoDup l1 -> NoDup l2 -> (forall x, In x l1 -> ~ In x l2) -> NoDup (l1 ++ l2).
Proof.
  induction l1 as [|a l1 IH]; intros l2 N1 N2 H; cbn; auto. inversion N1; subst. constructor.
  - rewrite in_app_iff. intros [|I]; auto. apply (H a); auto. now left.
  - apply IH; auto. intros x I. apply H. now right.
Qed.

(** ** The search for clusters *)
Section Search.
  Variable E0 : adj.
  Hypothesis sym0 : forall x y, nbr E0 x y -> nbr E0 y x.

  Definition conn := clos_refl_sym_trans vn (nbr E0).
  Definition part (E : adj) : Prop :=
    forall x l, find_edges x E = Some l -> find_edges x E0 = Some l.
  Definition key (E : adj) (x : vn) : Prop := find_edges x E <> None.

  Lemma key_dec : forall E x, key E x \/ ~ key E x.
  Proof. intros. unfold key. destruct (find_edges x E); [left; discriminate|right; congruence]. Qed.

  Lemma in_add : forall x y c, In x (add_node y c) <-> x = y \/ In x c.
  Proof.
    intros. unfold add_node. destruct (mem y c) eqn:M.
    - apply mem_In in M. split; [auto|intros [->|]; auto].
    - rewrite in_app_iff. cbn. split; [intros [|[|[]]]; auto|intros [|]; auto].
  Qed.
  Lemma nodup_add : forall y c, NoDup c -> NoDup (add_node y c).
  Proof.
    intros y c N. unfold add_node. destruct (mem y c) eqn:M; auto.
    assert (~ In y c) by (intros I; apply mem_In in I; congruence).
    apply (Permutation_NoDup (l := y :: c)); [apply Permutation_cons_append|].
    constructor; auto.
  Qed.

  Lemma visit_spec : forall fuel E q c Es src E' c',
    visit fuel E q c = (E', c') ->
    List.length q + edge_count E <= fuel ->
    part E ->
    (forall x, In x c -> ~ key E x) ->
    (forall x y, In x c -> nbr E0 x y -> In y c \/ In y q) ->
    (forall x, In x q \/ In x c -> conn src x) ->
    (forall x, In x q -> key E x \/ In x c) ->
    (forall x, key Es x <-> key E x \/ In x c) ->
    (forall x y, key Es x -> nbr E0 x y -> key Es y) ->
    NoDup c ->
    part E'
    /\ (forall x, In x c' -> ~ key E' x)
    /\ (forall x y, In x c' -> nbr E0 x y -> In y c')
    /\ (forall x, In x c' -> conn src x)
    /\ (forall x, key Es x <-> key E' x \/ In x c')
    /\ NoDup c'
    /\ (forall x, In x q \/ In x c -> In x c').
  Proof.
    induction fuel as [|fuel IH]; intros E q c Es src E' c' V F P H1 H2 H3 H4 H5 H6 ND; cbn in V.
    - inversion V; subst. destruct q; [|cbn in F; lia].
      repeat split; auto.
      + intros x y I N. destruct (H2 x y I N) as [|[]]; auto.
      + apply H5.
      + apply H5.
      + intros x [[]|]; auto.
    - destruct q as [|n q].
      { inversion V; subst. repeat split; auto.
        + intros x y I N. destruct (H2 x y I N) as [|[]]; auto.
        + apply H5.
        + apply H5.
        + intros x [[]|]; auto. }
      destruct (find_edges n E) as [es|] eqn:L.
      + assert (kn : key E n) by (unfold key; congruence).
        eapply IH with (Es := Es) (src := src) in V; auto.
        * destruct V as (A1 & A2 & A3 & A4 & A5 & A6 & A7). repeat split; auto; try apply A5.
          intros x I. apply A7. rewrite in_app_iff, in_add. cbn in I. destruct I as [[|]|]; auto.
        * rewrite app_length. cbn in F. apply edge_count_remove in L. lia.
        * intros x l I. apply P. destruct (vn_eq_dec x n) as [->|N].
          { rewrite find_remove_eq in I. discriminate. }
          rewrite find_remove_neq in I; auto.
        * intros x I K. apply in_add in I as [->|I].
          { apply K. apply find_remove_eq. }
          apply (H1 x I). unfold key in *. destruct (vn_eq_dec x n) as [->|N].
          { rewrite find_remove_eq in K. congruence. }
          rewrite find_remove_neq in K; auto.
        * intros x y I Nb. rewrite in_add, in_app_iff. apply in_add in I as [->|I].
          { destruct Nb as (l & Q & J). rewrite (P _ _ L) in Q. inversion Q; subst. auto. }
          destruct (H2 x y I Nb) as [|[|]]; auto.
        * intros x I. rewrite in_app_iff, in_add in I.
          assert (cn : conn src n) by (apply H3; left; left; reflexivity).
          destruct I as [[I|I]|[->|I]]; auto; [apply H3; left; right; auto|].
          eapply rst_trans; [exact cn|]. apply rst_step. exists es. split; auto.
        * intros x I. rewrite in_add. apply in_app_or in I as [I|I].
          { destruct (H4 x (or_intror I)) as [K|]; auto.
            destruct (vn_eq_dec x n) as [->|N]; auto.
            left. unfold key. rewrite find_remove_neq; auto. }
          assert (Nb : nbr E0 n x) by (exists es; auto).
          assert (key Es x) by (eapply H6; eauto; apply H5; auto).
          apply H5 in H as [K|]; auto.
          destruct (vn_eq_dec x n) as [->|N]; auto.
          left. unfold key. rewrite find_remove_neq; auto.
        * intros x. rewrite in_add. rewrite H5. unfold key.
          destruct (vn_eq_dec x n) as [->|N].
          { rewrite find_remove_eq. split; auto. }
          rewrite find_remove_neq by auto. split; [intros [|]; auto|intros [|[|]]; auto; congruence].
        * apply nodup_add; auto.
      + assert (In n c).
        { destruct (H4 n (or_introl eq_refl)) as [K|]; auto. exfalso. apply K. exact L. }
        assert (Add : add_node n c = c).
        { unfold add_node. rewrite (proj2 (mem_In n c)); auto. }
        rewrite Add in V.
        eapply IH with (Es := Es) (src := src) in V; auto.
        * destruct V as (A1 & A2 & A3 & A4 & A5 & A6 & A7). repeat split; auto; try apply A5.
          intros x I. apply A7. cbn in I. destruct I as [[->|]|]; auto.
        * cbn in F. lia.
        * intros x y I Nb. destruct (H2 x y I Nb) as [|[->|]]; auto.
        * intros x I. apply H3. cbn. tauto.
        * intros x I. apply H4. cbn. tauto.
  Qed.

  Lemma visit_filter : forall fuel E q c, exists f, fst (visit fuel E q c) = filter f E.
  Proof.
    assert (idf : forall E : adj, E = filter (fun _ => true) E).
    { intros E. induction E as [|p E IHE]; cbn; auto. now rewrite <- IHE. }
    induction fuel as [|fuel IH]; intros E q c; cbn.
    - exists (fun _ => true). apply idf.
    - destruct q as [|n q]; [exists (fun _ => true); apply idf|].
      destruct (find_edges n E).
      + destruct (IH (remove_edges n E) (q ++ l) (add_node n c)) as [f ->].
        unfold remove_edges. exists (fun p => negb (vn_eqb (fst p) n) && f p).
        clear. induction E as [|p E IHE]; cbn; auto. destruct (vn_eqb (fst p) n); cbn; auto.
        destruct (f p); now rewrite IHE.
      + apply IH.
  Qed.
  Lemma filter_le : forall (A : Type) (f : A -> bool) l, List.length (filter f l) <= List.length l.
  Proof. induction l as [|x l IH]; cbn; auto. destruct (f x); cbn; lia. Qed.

  Lemma clusters_spec : forall fuel E,
    List.length E <= fuel ->
    part E ->
    (forall x y, key E x -> nbr E0 x y -> key E y) ->
    (forall c, In c (clusters fuel E) ->
       NoDup c /\ (forall x y, In x c -> In y c -> conn x y)
       /\ (forall x y, In x c -> nbr E0 x y -> In y c)
       /\ (forall x, In x c -> key E x))
    /\ (forall x, key E x -> exists c, In c (clusters fuel E) /\ In x c)
    /\ (forall x c d, In c (clusters fuel E) -> In d (clusters fuel E) -> In x c -> In x d -> c = d)
    /\ NoDup (concat (clusters fuel E)).
  Proof.
    induction fuel as [|fuel IH]; intros E F P C.
    - destruct E; [|cbn in F; lia]. cbn. split; [|split; [|split; [|constructor]]]; intros; contradiction.
    - destruct E as [|[s l] E].
      { cbn. split; [|split; [|split; [|constructor]]]; intros; contradiction. }
      cbn [clusters]. set (EE := (s, l) :: E) in *.
      destruct (visit (S (edge_count EE)) EE [s] []) as [E' c'] eqn:V. cbn [fst snd].
      assert (ks : key EE s).
      { unfold key, find_edges, EE. cbn. rewrite vn_eqb_refl. discriminate. }
      pose proof V as V0.
      eapply visit_spec with (Es := EE) (src := s) in V; auto.
      2:{ intros x [[->|[]]|[]]. apply rst_refl. }
      2:{ intros x [->|[]]. auto. }
      2:{ intros x. cbn. tauto. }
      2:{ constructor. }
      destruct V as (A1 & A2 & A3 & A4 & A5 & A6 & A7).
      assert (cs : In s c') by (apply A7; left; left; reflexivity).
      assert (len : List.length E' <= fuel).
      { destruct (visit_filter (S (edge_count EE)) EE [s] []) as [f Hf]. rewrite V0 in Hf. cbn [fst] in Hf.
        unfold EE in Hf. cbn [filter] in Hf. destruct (f (s, l)) eqn:fs.
        - exfalso. apply (A2 s cs). unfold key, find_edges. rewrite Hf. cbn. rewrite vn_eqb_refl. discriminate.
        - rewrite Hf. pose proof (filter_le _ f E). cbn in F. lia. }
      assert (kin : forall x, key E' x -> key EE x) by (intros x K; apply A5; auto).
      destruct (IH E' len A1) as (B1 & B2 & B3 & B4).
      { intros x y K Nb. assert (key EE y) by (apply (C x y); auto). apply A5 in H as [|I]; auto.
        exfalso. apply (A2 x); auto. eapply A3; eauto. }
      split; [|split; [|split]].
      + intros d [<-|I].
        * split; [auto|]. split; [|split; [auto|intros x I; apply A5; auto]].
          intros x y I J. apply rst_trans with s; [apply rst_sym; apply A4|apply A4]; auto.
        * destruct (B1 d I) as (N & Q & R & K). split; [auto|]. split; [auto|]. split; auto.
      + intros x K. apply A5 in K as [K|I].
        * destruct (B2 x K) as (d & I & J). exists d. split; [right|]; auto.
        * exists c'. split; [left|]; auto.
      + intros x d1 d2 [<-|I1] [<-|I2] J1 J2; auto.
        * exfalso. apply (A2 x J1). eapply B1; eauto.
        * exfalso. apply (A2 x J2). eapply B1; eauto.
        * eapply B3; eauto.
      + cbn [concat]. apply NoDup_app_intro; auto. intros x I J. apply in_concat in J as (d & J1 & J2).
        apply (A2 x I). eapply B1; eauto.
  Qed.
End Search.

(** ** The rename table *)
Lemma lookup_name_In : forall m x y, lookup_name m x = Some y -> In (x, y) m.
Proof.
  intros m x y H. unfold lookup_name in H. destruct (find _ m) as [[k v]|] eqn:F; [|discriminate].
  cbn in H. inversion H; subst. apply find_some in F as [I Q]. cbn in Q. apply vn_eqb_eq in Q. now subst.
Qed.
Lemma lookup_name_None : forall m x, lookup_name m x = None <-> forall y, ~ In (x, y) m.
Proof.
  intros m x. unfold lookup_name. split.
  - intros H y I. destruct (find _ m) as [p|] eqn:F; [discriminate|].
    apply (find_none _ _ F) in I. cbn in I. rewrite vn_eqb_refl in I. discriminate.
  - intros H. destruct (find _ m) as [[k v]|] eqn:F; auto. apply find_some in F as [I Q].
    cbn in Q. apply vn_eqb_eq in Q. subst. exfalso. eapply H; eauto.
Qed.

Lemma first_min_In : forall f l b, In (first_min f b l) (b :: l).
Proof.
  induction l as [|x l IH]; intros b; [now left|]. cbn [first_min]. destruct (f x <? f b).
  - right. apply IH.
  - destruct (IH b) as [H|H]; [left; exact H|right; right; exact H].
Qed.
Lemma first_min_le : forall f l b x, In x (b :: l) -> f (first_min f b l) <= f x.
Proof.
  induction l as [|y l IH]; intros b x H; cbn [first_min].
  - destruct H as [->|[]]; auto.
  - destruct (f y <? f b) eqn:Q.
    + apply Nat.ltb_lt in Q. destruct H as [->|[->|H]].
      * etransitivity; [apply (IH y y); left; auto|lia].
      * apply IH. left; auto.
      * apply IH. right; auto.
    + apply Nat.ltb_ge in Q. destruct H as [->|[->|H]].
      * apply IH. left; auto.
      * etransitivity; [apply (IH b b); left; auto|lia].
      * apply IH. right; auto.
Qed.
Lemma representative_spec : forall ins c r, representative ins c = Some r ->
  In r c /\ forall x, In x c -> node_key ins r <= node_key ins x.
Proof.
  intros ins [|b l] r H; cbn in H; inversion H; subst. split.
  - apply first_min_In.
  - intros. now apply first_min_le.
Qed.

Section Table.
  Variable ord : list vn -> list vn.
  Hypothesis ord_perm : forall l, Permutation (ord l) l.
  Variable ins : list vn.
  Variable ss : list stmt.

  Definition E0 := build_edges ss [].
  Definition cl := clusters (List.length E0) E0.
  Definition tbl := final_aliases ord ins ss.
  Definition linked := clos_refl_sym_trans vn (aliased ss).

  Lemma nbr0 : forall x y, nbr E0 x y <-> aliased ss x y \/ aliased ss y x.
  Proof.
    intros. unfold E0. rewrite nbr_build. split; auto.
    intros [(l & H & _)|H]; auto. discriminate.
  Qed.
  Lemma sym_nbr0 : forall x y, nbr E0 x y -> nbr E0 y x.
  Proof. intros x y. rewrite !nbr0. tauto. Qed.
  Lemma key0 : forall x, key E0 x <-> exists y, aliased ss x y \/ aliased ss y x.
  Proof.
    intros. unfold key, E0. rewrite keys_build. cbn. split; auto. intros [H|H]; auto. congruence.
  Qed.
  Lemma conn_linked : forall x y, conn E0 x y -> linked x y.
  Proof.
    intros x y H. induction H.
    - apply nbr0 in H as [H|H]; [apply rst_step; auto|apply rst_sym, rst_step; auto].
    - apply rst_refl.
    - apply rst_sym; auto.
    - eapply rst_trans; eauto.
  Qed.

  Lemma cl_spec :
    (forall c, In c cl ->
       NoDup c /\ (forall x y, In x c -> In y c -> linked x y)
       /\ (forall x y, In x c -> aliased ss x y \/ aliased ss y x -> In y c))
    /\ (forall x y, aliased ss x y \/ aliased ss y x -> exists c, In c cl /\ In x c)
    /\ (forall x c d, In c cl -> In d cl -> In x c -> In x d -> c = d)
    /\ NoDup (concat cl).
  Proof.
    destruct (clusters_spec E0 sym_nbr0 (List.length E0) E0) as (A & B & C & ND).
    - lia.
    - unfold part; auto.
    - intros x y _ H. apply key0. apply nbr0 in H. exists x. tauto.
    - split; [|split; [|split; [|exact ND]]].
      + intros c I. destruct (A c I) as (N & Q & R & K). split; [auto|]. split.
        * intros x y J1 J2. apply conn_linked. auto.
        * intros x y J H. apply (R x y J). apply nbr0. auto.
      + intros x y H. apply B. apply key0. eauto.
      + exact C.
  Qed.

  Definition rep (c : list vn) : option vn := representative ins (ord c).
  Lemma rep_some : forall c x, In x c -> exists r, rep c = Some r.
  Proof.
    intros c x I. unfold rep. assert (J : In x (ord c)) by (eapply Permutation_in; [symmetry; apply ord_perm|auto]).
    destruct (ord c); [destruct J|]. cbn. eauto.
  Qed.
  Lemma rep_spec : forall c r, rep c = Some r ->
    In r c /\ forall x, In x c -> node_key ins r <= node_key ins x.
  Proof.
    intros c r H. apply representative_spec in H as [I M]. split.
    - eapply Permutation_in; [apply ord_perm|auto].
    - intros x J. apply M. eapply Permutation_in; [symmetry; apply ord_perm|auto].
  Qed.

  Lemma tbl_In : forall x r, In (x, r) tbl <-> exists c, In c cl /\ In x c /\ rep c = Some r /\ x <> r.
  Proof.
    intros x r. unfold tbl, final_aliases. fold E0. fold cl. rewrite in_concat. split.
    - intros (l & I & J). apply in_map_iff in I as (c & <- & I). unfold cluster_aliases in J.
      fold (rep c) in J. destruct (rep c) as [r0|] eqn:R; [|destruct J]. cbn [fst] in J.
      apply in_map_iff in J as (n & Q & J). inversion Q; subst. apply filter_In in J as [J K].
      exists c. repeat split; auto.
      + eapply Permutation_in; [apply ord_perm|auto].
      + intros ->. rewrite vn_eqb_refl in K. discriminate.
    - intros (c & I & J & R & N). eexists. split; [apply in_map_iff; exists c; split; [reflexivity|auto]|].
      unfold cluster_aliases. fold (rep c). rewrite R. cbn [fst]. apply in_map_iff. exists x. split; auto.
      apply filter_In. split.
      + eapply Permutation_in; [symmetry; apply ord_perm|auto].
      + rewrite (proj2 (vn_eqb_neq x r)); auto.
  Qed.

  (** Renaming maps a cluster member to the cluster's representative. *)
  Lemma rename_in : forall c x r, In c cl -> In x c -> rep c = Some r -> try_rename tbl x = r.
  Proof.
    intros c x r I J R. unfold try_rename. destruct (lookup_name tbl x) as [y|] eqn:L.
    - apply lookup_name_In in L. apply tbl_In in L as (d & I' & J' & R' & N).
      assert (c = d) by (eapply cl_spec; eauto). subst. congruence.
    - destruct (vn_eq_dec x r) as [|N]; auto. exfalso. apply (proj1 (lookup_name_None _ _) L r).
      apply tbl_In. eauto.
  Qed.
  Lemma rename_out : forall x, (forall c, In c cl -> ~ In x c) -> try_rename tbl x = x.
  Proof.
    intros x H. unfold try_rename. destruct (lookup_name tbl x) as [y|] eqn:L; auto.
    apply lookup_name_In in L. apply tbl_In in L as (d & I' & J' & _). exfalso. eapply H; eauto.
  Qed.
  Lemma in_cluster_dec : forall x, (exists c, In c cl /\ In x c) \/ (forall c, In c cl -> ~ In x c).
  Proof.
    intros x. induction cl as [|c l IH].
    - right. intros c [].
    - destruct IH as [(d & I & J)|H].
      + left. exists d. split; [right|]; auto.
      + destruct (in_dec vn_eq_dec x c).
        * left. exists c. split; [left|]; auto.
        * right. intros d [<-|I]; auto.
  Qed.
  Lemma rename_linked : forall x, linked x (try_rename tbl x).
  Proof.
    intros x. destruct (in_cluster_dec x) as [(c & I & J)|H].
    - destruct (rep_some c x J) as [r R]. rewrite (rename_in c x r); auto.
      apply (proj1 (proj2 (proj1 cl_spec c I))); auto. apply (rep_spec c r R).
    - rewrite rename_out by auto. apply rst_refl.
  Qed.
  Lemma rename_aliased : forall x y, aliased ss x y -> try_rename tbl x = try_rename tbl y.
  Proof.
    intros x y H. destruct (proj1 (proj2 cl_spec) x y (or_introl H)) as (c & I & J).
    assert (In y c) by (apply (proj2 (proj2 (proj1 cl_spec c I)) x y); auto).
    destruct (rep_some c x J) as [r R]. rewrite (rename_in c x r), (rename_in c y r); auto.
  Qed.
  Lemma rename_idem : forall x, try_rename tbl (try_rename tbl x) = try_rename tbl x.
  Proof.
    intros x. destruct (in_cluster_dec x) as [(c & I & J)|H].
    - destruct (rep_some c x J) as [r R]. rewrite (rename_in c x r); auto.
      apply (rename_in c); auto. apply (rep_spec c r R).
    - now rewrite !(rename_out x H).
  Qed.

  (** The aliases that are put back. *)
  Definition keep_alias (n : vn) : Prop :=
    match n with
    | Named _ _ => match alias_ty ss n None with Some t => backward_size t = 0 | None => False end
    | EId _ => False
    end.
  Lemma new_In : forall r x, In (r, x) (new_aliases ord ins ss) <->
    exists c, In c cl /\ In x c /\ rep c = Some r /\ x <> r /\ keep_alias x.
  Proof.
    intros r x. unfold new_aliases. fold E0. fold cl. rewrite in_concat. split.
    - intros (l & I & J). apply in_map_iff in I as (c & <- & I). unfold cluster_aliases in J.
      fold (rep c) in J. destruct (rep c) as [r0|] eqn:R; [|destruct J]. cbn [snd] in J.
      apply in_map_iff in J as (n & Q & J). inversion Q; subst. apply filter_In in J as [J K].
      apply filter_In in J as [J K'].
      exists c. repeat split; auto.
      + eapply Permutation_in; [apply ord_perm|auto].
      + intros ->. rewrite vn_eqb_refl in K'. discriminate.
      + destruct x; cbn; [|discriminate]. destruct (alias_ty _ _ _); [|discriminate].
        now apply Nat.eqb_eq.
    - intros (c & I & J & R & N & K). eexists. split; [apply in_map_iff; exists c; split; [reflexivity|auto]|].
      unfold cluster_aliases. fold (rep c). rewrite R. cbn [snd]. apply in_map_iff. exists x. split; auto.
      apply filter_In. split; [apply filter_In; split|].
      + eapply Permutation_in; [symmetry; apply ord_perm|auto].
      + rewrite (proj2 (vn_eqb_neq x r)); auto.
      + destruct x; cbn in K; [|contradiction]. destruct (alias_ty _ _ _); [|contradiction].
        now apply Nat.eqb_eq.
  Qed.
End Table.

(** ** Behaviour *)
Lemma holds_map : forall m sg f s, holds m sg (map_stmt f s) <-> holds m (fun x => sg (f x)) s.
Proof.
  intros m sg f [n o ops t|n o t|n t c [[a b]|] i v|n t c|v|a b|]; cbn; try tauto.
  now rewrite map_map.
Qed.
Lemma holds_ext : forall m sg sg' s, (forall x, sg x = sg' x) -> holds m sg s -> holds m sg' s.
Proof.
  intros m sg sg' [n o ops t|n o t|n t c [[a b]|] i v|n t c|v|a b|] H; cbn; rewrite <- ?H; auto.
  now rewrite <- (map_ext _ _ H).
Qed.

Lemma linked_eq : forall m sg e x y, behaves m sg e -> linked (e_stmts e) x y -> sg x = sg y.
Proof.
  intros m sg e x y B L. induction L; try congruence.
  destruct H as [t H]. unfold behaves in B. rewrite Forall_forall in B. apply (B _ H).
Qed.

Lemma asserted_map : forall f ss,
  flat_map (fun s => match s with SAssert v => [v] | _ => [] end) (map (map_stmt f) ss)
  = map f (flat_map (fun s => match s with SAssert v => [v] | _ => [] end) ss).
Proof.
  induction ss as [|s ss IH]; cbn; auto. rewrite IH. destruct s; cbn; auto.
Qed.
Lemma asserted_retain : forall tb ss,
  flat_map (fun s => match s with SAssert v => [v] | _ => [] end) (filter (retain tb) ss)
  = flat_map (fun s => match s with SAssert v => [v] | _ => [] end) ss.
Proof.
  induction ss as [|s ss IH]; cbn; auto. destruct s; cbn; rewrite ?IH; auto.
  destruct (lookup_name tb operand); [|destruct (lookup_name tb name)]; cbn; auto.
Qed.
Lemma asserted_extra : forall (f : vn * vn -> stmt) l, (forall p, exists a b t, f p = SAlias a b t) ->
  flat_map (fun s => match s with SAssert v => [v] | _ => [] end) (map f l) = [].
Proof.
  induction l as [|p l IH]; intros H; cbn; auto. destruct (H p) as (a & b & t & ->). cbn. auto.
Qed.
Lemma asserted_flatten : forall ord e,
  asserted (flatten_aliases ord e)
  = map (try_rename (final_aliases ord (map in_val (e_inputs e)) (e_stmts e))) (asserted e).
Proof.
  intros. unfold asserted, flatten_aliases. cbn [e_stmts]. rewrite flat_map_app.
  rewrite asserted_map, asserted_retain, asserted_extra, app_nil_r; auto. intros [a b]. cbn. eauto.
Qed.

Theorem flatten_forward : forall m ord e sg, (forall l, Permutation (ord l) l) ->
  behaves m sg e ->
  behaves m sg (flatten_aliases ord e)
  /\ observations m sg (flatten_aliases ord e) = observations m sg e.
Proof.
  intros m ord e sg P B.
  set (ins := map in_val (e_inputs e)). set (tb := final_aliases ord ins (e_stmts e)).
  assert (R : forall x, sg (try_rename tb x) = sg x).
  { intros x. symmetry. eapply linked_eq; eauto. apply rename_linked; auto. }
  split.
  - unfold behaves, flatten_aliases in *. cbn [e_stmts]. fold ins. fold tb. apply Forall_app. split.
    + apply Forall_forall. intros s I. apply in_map_iff in I as (s0 & <- & I).
      apply filter_In in I as [I _]. apply holds_map. rewrite Forall_forall in B.
      eapply holds_ext; [|apply B; eauto]. auto.
    + apply Forall_forall. intros s I. apply in_map_iff in I as ([r x] & <- & I). cbn.
      apply new_In in I as (c & I & J & Rp & _); auto.
      eapply linked_eq; eauto. apply (cl_spec (e_stmts e)) in I as (_ & Q & _). apply Q; auto.
      apply (rep_spec ord P ins c r Rp).
  - unfold observations. cbn [e_inputs e_output flatten_aliases]. fold ins. fold tb.
    rewrite asserted_flatten. fold ins. fold tb. f_equal. f_equal; [now rewrite R|].
    rewrite map_map. apply map_ext. auto.
Qed.

(** An input is never an alias target in a single-definition entity, so it is
    the representative of its cluster. *)
Lemma definitions_alias : forall e x y, aliased (e_stmts e) x y -> In x (flat_map defined (e_stmts e)).
Proof. intros e x y [t H]. apply in_flat_map. exists (SAlias x y t). split; auto. now left. Qed.

Lemma NoDup_split_disjoint : forall (l1 l2 : list vn) x, NoDup (l1 ++ l2) -> In x l1 -> ~ In x l2.
Proof.
  induction l1 as [|a l1 IH]; intros l2 x N I J; [destruct I|]. inversion N; subst.
  destruct I as [->|I]; [apply H1, in_or_app; auto|eapply IH; eauto].
Qed.
Lemma NoDup_right : forall (l1 l2 : list vn), NoDup (l1 ++ l2) -> NoDup l2.
Proof. induction l1; intros l2 N; auto. inversion N; subst; auto. Qed.
Lemma NoDup_left : forall (l1 l2 : list vn), NoDup (l1 ++ l2) -> NoDup l1.
Proof.
  induction l1; intros l2 N; constructor; inversion N; subst.
  - intros I. apply H1, in_or_app; auto.
  - eauto.
Qed.

Lemma defined_once : forall ss s1 s2 n, NoDup (flat_map defined ss) ->
  In s1 ss -> In s2 ss -> In n (defined s1) -> In n (defined s2) -> s1 = s2.
Proof.
  induction ss as [|s ss IH]; intros s1 s2 n N I1 I2 D1 D2; [destruct I1|]. cbn in N.
  destruct I1 as [->|I1], I2 as [->|I2]; auto.
  - exfalso. eapply NoDup_split_disjoint; [exact N| |]; eauto. apply in_flat_map; eauto.
  - exfalso. eapply NoDup_split_disjoint; [exact N| |]; eauto. apply in_flat_map; eauto.
  - eapply IH; eauto. eapply NoDup_right; eauto.
Qed.

(** [y] is reached from [x] by following alias definitions. *)
Definition follows ss := clos_refl_trans_1n vn (aliased ss).
(** A name that is not an alias of another name. *)
Definition terminal ss (x : vn) : Prop := forall y, aliased ss x y -> y = x.
Lemma linked_follows : forall ss root, NoDup (flat_map defined ss) -> terminal ss root ->
  forall x y, linked ss x y -> (follows ss x root <-> follows ss y root).
Proof.
  intros ss root N T x y L. induction L; try tauto.
  split; intros F.
  - inversion F; subst.
    + rewrite (T _ H). constructor.
    + destruct H as [t H], H0 as [u H0].
      assert (SAlias x y t = SAlias x y0 u) by (eapply defined_once with (n := x); eauto; now left).
      inversion H2; subst. auto.
  - eapply Relation_Operators.rt1n_trans; eauto.
Qed.
Lemma terminal_unique : forall ss x y, NoDup (flat_map defined ss) ->
  terminal ss x -> terminal ss y -> linked ss x y -> x = y.
Proof.
  intros ss x y N Tx Ty L.
  assert (F : follows ss x y).
  { apply (linked_follows ss y N Ty x y L). constructor. }
  assert (G : forall a b, follows ss a b -> terminal ss a -> a = b).
  { intros a b H. induction H; auto. intros Ta. pose proof (Ta _ H). subst. auto. }
  auto.
Qed.

Section WellFormed.
  Variable ord : list vn -> list vn.
  Hypothesis ord_perm : forall l, Permutation (ord l) l.
  Variable e : entity.
  Hypothesis SD : single_definitions e.

  Let ins := map in_val (e_inputs e).
  Let tb := final_aliases ord ins (e_stmts e).

  Lemma nodup_stmts : NoDup (flat_map defined (e_stmts e)).
  Proof. eapply NoDup_right. exact SD. Qed.
  Lemma input_terminal : forall x, In x ins -> forall y, ~ aliased (e_stmts e) x y.
  Proof.
    intros x I y A. eapply NoDup_split_disjoint; [exact SD|exact I|]. eapply definitions_alias; eauto.
  Qed.
  Lemma rename_input : forall x, In x ins -> try_rename tb x = x.
  Proof.
    intros x I. destruct (in_cluster_dec (e_stmts e) x) as [(c & J & K)|H].
    - destruct (rep_some ord ord_perm ins c x K) as [r R].
      unfold tb. rewrite (rename_in ord ord_perm ins _ c x r); auto.
      apply (rep_spec ord ord_perm) in R as [Ir M]. specialize (M x K). unfold node_key in M.
      rewrite (proj2 (mem_In x ins) I) in M.
      destruct (mem r ins) eqn:Mr; [|destruct r; lia]. apply mem_In in Mr.
      apply (terminal_unique (e_stmts e)); [apply nodup_stmts| | |].
      { intros z A. exfalso. exact (input_terminal _ Mr z A). }
      { intros z A. exfalso. exact (input_terminal _ I z A). }
      apply (proj1 (cl_spec (e_stmts e)) c J); auto.
    - unfold tb. apply rename_out; auto.
  Qed.

  Lemma alias_ty_In : forall ss x acc t, alias_ty ss x acc = Some t ->
    acc = Some t \/ exists n o, In (SAlias n o t) ss /\ (n = x \/ o = x).
  Proof.
    induction ss as [|s ss IH]; intros x acc t H; cbn in H; auto.
    destruct s; try solve [apply IH in H as [H|(n & o & H & K)]; [auto|right; exists n, o; split; [right|]; auto]].
    apply IH in H as [H|(n & o & H & K)]; [|right; exists n, o; split; [right|]; auto].
    destruct (vn_eqb name x || vn_eqb operand x) eqn:Q; auto. inversion H; subst.
    right. exists name, operand. split; [now left|]. apply orb_true_iff in Q as [Q|Q]; apply vn_eqb_eq in Q; auto.
  Qed.
  Lemma alias_ty_some : forall ss x acc,
    (acc <> None \/ exists n o t, In (SAlias n o t) ss /\ (n = x \/ o = x)) -> alias_ty ss x acc <> None.
  Proof.
    induction ss as [|s ss IH]; intros x acc H; cbn.
    - destruct H as [H|(n & o & t & [] & _)]; auto.
    - destruct s; try solve [apply IH; destruct H as [H|(n & o & u & [H|H] & K)]; [auto|discriminate|eauto 6]].
      apply IH. destruct H as [H|(n & o & u & [H|H] & K)]; [|inversion H; subst|eauto 7].
      + left. destruct (_ || _); [discriminate|auto].
      + left. replace (vn_eqb n x || vn_eqb o x) with true; [discriminate|]. symmetry. apply orb_true_iff.
        destruct K as [-> | ->]; rewrite vn_eqb_refl; auto.
  Qed.

  Lemma kept : forall x, plainly_named e x -> try_rename tb x <> x ->
    In (try_rename tb x, x) (new_aliases ord ins (e_stmts e)).
  Proof.
    intros x [(i & s & ->) Z] N.
    destruct (in_cluster_dec (e_stmts e) (Named i s)) as [(c & J & K)|H].
    2:{ exfalso. apply N. unfold tb. apply rename_out; auto. }
    destruct (rep_some ord ord_perm ins c _ K) as [r R].
    assert (Q : try_rename tb (Named i s) = r) by (apply (rename_in ord ord_perm ins _ c); auto).
    rewrite Q in *. apply new_In; auto. exists c. repeat split; auto.
    cbn. destruct (alias_ty (e_stmts e) (Named i s) None) as [t|] eqn:T.
    - apply alias_ty_In in T as [T|(n & o & T & W)]; [discriminate|]. eapply Z; eauto.
    - exfalso. apply (alias_ty_some (e_stmts e) (Named i s) None) in T; auto. right.
      assert (L : linked (e_stmts e) (Named i s) r).
      { apply (proj1 (cl_spec (e_stmts e)) c J); auto. apply (rep_spec ord ord_perm) in R as [R _]. auto. }
      assert (G : forall x y, linked (e_stmts e) x y -> x = y \/ (
          (exists n o t, In (SAlias n o t) (e_stmts e) /\ (n = x \/ o = x))
          /\ (exists n o t, In (SAlias n o t) (e_stmts e) /\ (n = y \/ o = y)))).
      { intros x y Q'. induction Q'.
        - destruct H as [t H]. right. split; eauto 7.
        - auto.
        - destruct IHQ' as [|[A B]]; auto.
        - destruct IHQ'1 as [->|[A B]], IHQ'2 as [->|[A' B']]; auto. }
      destruct (G _ _ L) as [W|[A _]]; [exfalso; apply N; symmetry; exact W|exact A].
  Qed.

  Theorem flatten_backward : forall m sg', behaves m sg' (flatten_aliases ord e) ->
    exists sg, behaves m sg e /\ observations m sg e = observations m sg' (flatten_aliases ord e)
      /\ forall x, plainly_named e x -> sg x = sg' x.
  Proof.
    intros m sg' B. exists (fun x => sg' (try_rename tb x)).
    unfold behaves in B. cbn [flatten_aliases e_stmts] in B. fold ins in B. fold tb in B.
    apply Forall_app in B as [B1 B2]. split; [|split].
    - apply Forall_forall. intros s I. destruct (retain tb s) eqn:Rt.
      + apply holds_map. rewrite Forall_forall in B1. apply B1. apply in_map. apply filter_In. auto.
      + destruct s; cbn in Rt; try discriminate. cbn. f_equal.
        unfold tb. apply rename_aliased; auto. exists t. auto.
    - unfold observations. cbn [e_inputs e_output flatten_aliases]. fold ins. fold tb.
      rewrite asserted_flatten. fold ins. fold tb. rewrite map_map. f_equal.
      apply map_ext_in. intros i I. f_equal. apply rename_input. unfold ins. now apply in_map.
    - intros x Pn. destruct (vn_eq_dec (try_rename tb x) x) as [->|N]; auto.
      pose proof (kept x Pn N) as K. rewrite Forall_forall in B2.
      specialize (B2 _ (in_map _ _ _ K)). cbn in B2. auto.
  Qed.

  (** Every name still has one definition afterwards. *)
  Lemma defined_map : forall f ss, flat_map defined (map (map_stmt f) ss) = map f (flat_map defined ss).
  Proof. induction ss as [|s ss IH]; cbn; auto. rewrite map_app, IH. destruct s; reflexivity. Qed.
  Lemma defined_filter_In : forall f ss x, In x (flat_map defined (filter f ss)) ->
    exists s, In s ss /\ f s = true /\ In x (defined s).
  Proof.
    intros f ss x H. apply in_flat_map in H as (s & I & J). apply filter_In in I as [I K]. eauto.
  Qed.
  Lemma NoDup_defined_filter : forall f ss, NoDup (flat_map defined ss) -> NoDup (flat_map defined (filter f ss)).
  Proof.
    induction ss as [|s ss IH]; cbn; intros N; auto. pose proof (NoDup_right _ _ N).
    destruct (f s); auto. cbn. apply NoDup_app_intro; auto.
    - eapply NoDup_left; eauto.
    - intros x I J. apply defined_filter_In in J as (s' & J & _ & K).
      eapply NoDup_split_disjoint; [exact N|exact I|]. apply in_flat_map; eauto.
  Qed.
  Lemma NoDup_map_in : forall (A B : Type) (f : A -> B) l,
    (forall x y, In x l -> In y l -> f x = f y -> x = y) -> NoDup l -> NoDup (map f l).
  Proof.
    induction l as [|a l IH]; intros H N; cbn; constructor; inversion N; subst.
    - rewrite in_map_iff. intros (y & Q & I). apply H2. rewrite <- (H y a); auto; [now right|now left].
    - apply IH; auto. intros. apply H; auto; now right.
  Qed.
  Lemma retained_terminal : forall x, In x (flat_map defined (filter (retain tb) (e_stmts e))) ->
    terminal (e_stmts e) x.
  Proof.
    intros x I y [t A]. apply defined_filter_In in I as (s & I & R & J).
    assert (s = SAlias x y t) by (eapply defined_once with (n := x); eauto using nodup_stmts; now left).
    subst. cbn in R. destruct (lookup_name tb y) eqn:Ly, (lookup_name tb x) eqn:Lx; try discriminate.
    assert (Q : try_rename tb x = try_rename tb y).
    { unfold tb. apply rename_aliased; auto. exists t. auto. }
    unfold try_rename in Q. rewrite Ly, Lx in Q. auto.
  Qed.
  Lemma new_nodup : NoDup (map snd (new_aliases ord ins (e_stmts e))).
  Proof.
    unfold new_aliases. fold (E0 (e_stmts e)). fold (cl (e_stmts e)).
    pose proof (proj2 (proj2 (proj2 (cl_spec (e_stmts e))))) as N.
    induction (cl (e_stmts e)) as [|c l IH]; cbn; [constructor|].
    cbn in N. rewrite map_app. apply NoDup_app_intro.
    - unfold cluster_aliases. destruct (representative ins (ord c)); cbn; [|constructor].
      rewrite map_map. cbn. rewrite map_id. apply NoDup_filter, NoDup_filter.
      eapply Permutation_NoDup; [symmetry; apply ord_perm|]. clear - N.
      induction c; constructor; inversion N; subst; auto. intros I; apply H1, in_or_app; auto.
    - apply IH. clear - N. induction c; auto. inversion N; subst; auto.
    - intros x I J.
      assert (Ic : In x c).
      { unfold cluster_aliases in I. destruct (representative ins (ord c)); cbn in I; [|destruct I].
        rewrite map_map in I. cbn in I. rewrite map_id in I. apply filter_In in I as [I _]. apply filter_In in I as [I _].
        eapply Permutation_in; [apply ord_perm|auto]. }
      apply in_map_iff in J as (p & <- & J). apply in_concat in J as (q & J & Q).
      apply in_map_iff in J as (d & <- & J).
      assert (In (snd p) d).
      { unfold cluster_aliases in Q. destruct (representative ins (ord d)); cbn in Q; [|destruct Q].
        apply in_map_iff in Q as (n & <- & Q). cbn. apply filter_In in Q as [Q _]. apply filter_In in Q as [Q _].
        eapply Permutation_in; [apply ord_perm|auto]. }
      revert N Ic. clear - J H. intros N Ic. induction c; [destruct Ic|]. inversion N; subst.
      destruct Ic as [->|Ic]; auto. apply H2. apply in_or_app. right. apply in_concat. eauto.
  Qed.

  Theorem flatten_single_definitions : single_definitions (flatten_aliases ord e).
  Proof.
    unfold single_definitions, definitions. cbn [flatten_aliases e_inputs e_stmts]. fold ins. fold tb.
    rewrite flat_map_app, defined_map.
    replace (flat_map defined (map _ (new_aliases ord ins (e_stmts e))))
      with (map snd (new_aliases ord ins (e_stmts e))).
    2:{ induction (new_aliases ord ins (e_stmts e)) as [|p l IH]; cbn; auto. now rewrite <- IH. }
    assert (TU := terminal_unique (e_stmts e)).
    assert (LK : forall x y, try_rename tb x = try_rename tb y -> linked (e_stmts e) x y).
    { intros x y Q. eapply rst_trans; [apply (rename_linked ord ord_perm ins)|].
      fold tb. unfold tb in Q. fold (tbl ord ins (e_stmts e)) in Q. rewrite Q. apply rst_sym.
      apply rename_linked; auto. }
    apply NoDup_app_intro; [eapply NoDup_left; exact SD|apply NoDup_app_intro|].
    - apply NoDup_map_in.
      + intros x y I J Q. apply TU; auto using nodup_stmts, retained_terminal.
      + apply NoDup_defined_filter, nodup_stmts.
    - apply new_nodup.
    - intros x I J. apply in_map_iff in I as (n & <- & I). apply in_map_iff in J as ([r x] & Q & J).
      cbn in Q. subst. apply new_In in J as (c & J1 & J2 & J3 & J4 & _); auto.
      apply J4. change tb with (tbl ord ins (e_stmts e)) in *.
      rewrite <- (rename_idem ord ord_perm ins (e_stmts e) n).
      apply (rename_in ord ord_perm ins (e_stmts e) c); auto.
    - intros x I J. apply in_app_or in J as [J|J].
      + apply in_map_iff in J as (n & <- & J).
        assert (n = try_rename tb n).
        { apply TU; auto using nodup_stmts, retained_terminal.
          - intros z A. exfalso. exact (input_terminal _ I z A).
          - apply (rename_linked ord ord_perm ins). }
        rewrite <- H in I. eapply NoDup_split_disjoint; [exact SD|exact I|].
        apply in_flat_map in J as (s & J & K). apply filter_In in J as [J _]. apply in_flat_map; eauto.
      + apply in_map_iff in J as ([r y] & Q & J). cbn in Q. subst.
        apply new_In in J as (c & J1 & J2 & J3 & J4 & _); auto. apply J4.
        rewrite <- (rename_input x I). apply (rename_in ord ord_perm ins (e_stmts e) c); auto.
  Qed.
End WellFormed.
