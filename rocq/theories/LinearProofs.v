(** Proofs about the linear check. *)
From Coq Require Import String List ZArith Bool Arith Lia.
From Verif Require Import ConcModel LinearModel LinearSpec.
Import ListNotations.
Local Open Scope list_scope.

(** * Equality tests *)
Lemma step_eqb_eq a b : step_eqb a b = true <-> a = b.
Proof.
  destruct a, b; cbn [step_eqb]; try (split; congruence).
  - rewrite Nat.eqb_eq. split; congruence.
  - rewrite String.eqb_eq. split; congruence.
Qed.
Lemma step_eqb_refl a : step_eqb a a = true.
Proof. apply step_eqb_eq. reflexivity. Qed.
Lemma ref_eqb_eq a b : ref_eqb a b = true <-> a = b.
Proof. destruct a, b; cbn [ref_eqb]; try (split; congruence); rewrite Nat.eqb_eq; split; congruence. Qed.
Lemma ref_eqb_refl a : ref_eqb a a = true.
Proof. apply ref_eqb_eq. reflexivity. Qed.
Lemma path_eqb_eq a : forall b, path_eqb a b = true <-> a = b.
Proof.
  induction a as [|s a IH]; intros [|t b]; cbn [path_eqb]; try (split; congruence).
  rewrite andb_true_iff, step_eqb_eq, IH. split; [intros [? ?]; congruence|intros H; inversion H; auto].
Qed.
Lemma addr_eqb_eq a b : addr_eqb a b = true <-> a = b.
Proof.
  destruct a, b. unfold addr_eqb. cbn [fst snd]. rewrite andb_true_iff, Nat.eqb_eq, path_eqb_eq.
  split; [intros [? ?]; congruence|intros H; inversion H; auto].
Qed.

Lemma is_prefix_spec a : forall b, is_prefix a b = true <-> exists c, b = a ++ c.
Proof.
  induction a as [|s a IH]; intros b; cbn [is_prefix].
  - split; [exists b; reflexivity|reflexivity].
  - destruct b as [|t b].
    + split; [discriminate|intros [c H]; discriminate].
    + rewrite andb_true_iff, step_eqb_eq, IH. split.
      * intros [-> [c ->]]. exists c. reflexivity.
      * intros [c H]. inversion H; subst. split; [reflexivity|exists c; reflexivity].
Qed.

(** * References *)
Lemma lookup_set_same l r a : lookup (set_ref l r a) r = Some a.
Proof. unfold set_ref. cbn [lookup]. rewrite ref_eqb_refl. reflexivity. Qed.
Lemma lookup_set_other l r a r' : r' <> r -> lookup (set_ref l r a) r' = lookup l r'.
Proof.
  intros N. unfold set_ref. cbn [lookup].
  destruct (ref_eqb r r') eqn:E; [apply ref_eqb_eq in E; congruence|]. clear E.
  induction l as [|[x b] l IH]; [reflexivity|]. cbn [filter fst].
  destruct (ref_eqb x r) eqn:X; cbn [negb lookup].
  - apply ref_eqb_eq in X. subst x. rewrite IH.
    destruct (ref_eqb r r') eqn:E; [apply ref_eqb_eq in E; congruence|reflexivity].
  - rewrite IH. reflexivity.
Qed.
Lemma lookup_in l r a : lookup l r = Some a -> In (r, a) l.
Proof.
  induction l as [|[x b] l IH]; cbn [lookup]; [discriminate|].
  destruct (ref_eqb x r) eqn:E; intros H.
  - apply ref_eqb_eq in E. left. congruence.
  - right. auto.
Qed.
Lemma ref_dec (a b : ref) : a = b \/ a <> b.
Proof. destruct (ref_eqb a b) eqn:E; [left; apply ref_eqb_eq; exact E|right; intros ->; rewrite ref_eqb_refl in E; discriminate]. Qed.

(** * Trees *)
Lemma tree_rect' (P : tree -> Prop) :
  (forall u, P (Leaf u)) ->
  (forall l, Forall (fun p => P (snd p)) l -> P (Node l)) ->
  (forall t, P t -> P (View t)) -> forall t, P t.
Proof.
  intros HL HN HV. fix IH 1. intros [u|l|t].
  - apply HL.
  - apply HN. induction l as [|[s t] l IHl]; constructor; [apply IH|exact IHl].
  - apply HV, IH.
Qed.

Definition consumed_usage (u : usage) : usage := match u with Unused => Consumed | u => u end.

Lemma consume_get t : forall t', try_consume t = Some t' ->
  forall q u, ~ In SView q -> get t q = Some (Leaf u) -> u <> Consumed /\ get t' q = Some (Leaf (consumed_usage u)).
Proof.
  induction t as [u|l IH|t IH] using tree_rect'; intros t' H q u' NV G.
  - destruct q as [|s q]; [|destruct s; discriminate].
    cbn [get] in G. injection G as <-.
    destruct u; cbn [try_consume] in H; [|injection H as <-|discriminate].
    + injection H as <-. split; [discriminate|reflexivity].
    + split; [discriminate|reflexivity].
  - destruct q as [|s q]; [discriminate|].
    cbn [try_consume] in H.
    match type of H with match ?G l with _ => _ end = _ => set (go := G) in H end.
    destruct (go l) as [l'|] eqn:E; [|discriminate]. injection H as <-.
    assert (NS : s <> SView) by (intros ->; apply NV; left; reflexivity).
    assert (NQ : ~ In SView q) by (intros X; apply NV; right; exact X).
    assert (G2 : match child l s with Some t => get t q | None => None end = Some (Leaf u'))
      by (destruct s; [exact G|exact G|congruence]).
    assert (R : u' <> Consumed /\ match child l' s with Some t => get t q | None => None end = Some (Leaf (consumed_usage u'))).
    { clear G NV. revert l' E G2. induction IH as [|[s1 t1] l P IHl IHll]; intros l' E G2; [discriminate|].
      cbn in E. destruct (try_consume t1) as [t1'|] eqn:E1; [|discriminate].
      fold go in E.
      destruct (go l) as [l2|] eqn:E2; [|discriminate]. injection E as <-.
      cbn [child] in *. destruct (step_eqb s1 s).
      - cbn [snd] in P. exact (P t1' E1 q u' NQ G2).
      - exact (IHll l2 eq_refl G2). }
    destruct R as [A B]. split; [exact A|]. destruct s; [exact B|exact B|congruence].
  - destruct q as [|s q]; [discriminate|].
    destruct s; try discriminate. exfalso. apply NV. left. reflexivity.
Qed.

Lemma no_unused_get t : no_unused t = true -> forall q, ~ In SView q -> get t q <> Some (Leaf Unused).
Proof.
  induction t as [u|l IH|t IH] using tree_rect'; intros H q NV G.
  - destruct q as [|s q]; [|destruct s; discriminate]. cbn in G. injection G as ->. discriminate.
  - destruct q as [|s q]; [discriminate|].
    assert (NS : s <> SView) by (intros ->; apply NV; left; reflexivity).
    assert (NQ : ~ In SView q) by (intros X; apply NV; right; exact X).
    assert (G2 : match child l s with Some t => get t q | None => None end = Some (Leaf Unused))
      by (destruct s; [exact G|exact G|congruence]).
    clear G NV. cbn [no_unused] in H.
    induction IH as [|[s1 t1] l P IHl IHll]; [discriminate|].
    cbn [forallb snd] in H. apply andb_true_iff in H. destruct H as [H1 H2].
    cbn [child] in G2. destruct (step_eqb s1 s).
    + exact (P H1 q NQ G2).
    + exact (IHll H2 G2).
  - destruct q as [|s q]; [discriminate|]. destruct s; try discriminate. apply NV. left. reflexivity.
Qed.

Lemma get_app t p q : get t (p ++ q) = match get t p with Some t => get t q | None => None end.
Proof.
  revert t. induction p as [|s p IH]; intros t; [reflexivity|]. cbn [app get].
  destruct t as [u|l|t]; [reflexivity| |].
  - destruct s; [destruct (child l (SIdx i)); [apply IH|reflexivity]
      |destruct (child l (SField f)); [apply IH|reflexivity]|reflexivity].
  - destruct s; [reflexivity|reflexivity|apply IH].
Qed.

Fixpoint mod_child (f : tree -> option tree) (p : path) (s : step) (l : list (step * tree)) : option (list (step * tree)) :=
  match l with
  | [] => None
  | (s', t) :: l =>
      if step_eqb s' s then match modify f p t with Some t => Some ((s', t) :: l) | None => None end
      else match mod_child f p s l with Some l => Some ((s', t) :: l) | None => None end
  end.
Lemma modify_node f p s l : s <> SView ->
  modify f (s :: p) (Node l) = match mod_child f p s l with Some l => Some (Node l) | None => None end.
Proof.
  intros NS. cbn [modify].
  match goal with |- match s with SIdx _ => match ?G l with _ => _ end | _ => _ end = _ => idtac | _ => idtac end.
  destruct s; [| |congruence].
  - match goal with |- match ?G l with _ => _ end = _ => assert (E : G l = mod_child f p (SIdx i) l) end.
    { induction l as [|[s1 t1] l IH]; [reflexivity|]. cbn [mod_child]. rewrite IH. reflexivity. }
    rewrite E. reflexivity.
  - match goal with |- match ?G l with _ => _ end = _ => assert (E : G l = mod_child f p (SField f0) l) end.
    { induction l as [|[s1 t1] l IH]; [reflexivity|]. cbn [mod_child]. rewrite IH. reflexivity. }
    rewrite E. reflexivity.
Qed.

Lemma mod_child_spec f p s l l' : mod_child f p s l = Some l' ->
  exists t t', child l s = Some t /\ modify f p t = Some t' /\ child l' s = Some t'
    /\ forall s2, s2 <> s -> child l' s2 = child l s2.
Proof.
  revert l'. induction l as [|[s1 t1] l IH]; intros l' H; [discriminate|]. cbn [mod_child] in H.
  destruct (step_eqb s1 s) eqn:E.
  - destruct (modify f p t1) as [t'|] eqn:M; [|discriminate]. injection H as <-.
    exists t1, t'. cbn [child]. rewrite E. repeat split; auto.
    intros s2 N. destruct (step_eqb s1 s2) eqn:E2; [|reflexivity].
    apply step_eqb_eq in E, E2. congruence.
  - destruct (mod_child f p s l) as [l2|] eqn:M; [|discriminate]. injection H as <-.
    destruct (IH l2 eq_refl) as (t & t' & A & B & C & D).
    exists t, t'. cbn [child]. rewrite E. repeat split; auto.
    intros s2 N. destruct (step_eqb s1 s2); [reflexivity|auto].
Qed.

Lemma modify_same f p : forall t t', modify f p t = Some t' ->
  exists s s', get t p = Some s /\ f s = Some s' /\ get t' p = Some s'.
Proof.
  induction p as [|x p IH]; intros t t' H.
  - exists t, t'. cbn in *. auto.
  - destruct t as [u|l|t].
    + discriminate.
    + destruct (step_eqb x SView) eqn:EV; [apply step_eqb_eq in EV; subst x; discriminate|].
      assert (NS : x <> SView) by (intros ->; discriminate).
      rewrite modify_node in H by exact NS.
      destruct (mod_child f p x l) as [l'|] eqn:M; [|discriminate]. injection H as <-.
      destruct (mod_child_spec _ _ _ _ _ M) as (s & s' & A & B & C & _).
      destruct (IH _ _ B) as (r & r' & D1 & D2 & D3).
      exists r, r'. cbn [get]. rewrite A, C. destruct x; [auto|auto|congruence].
    + destruct x; try discriminate. cbn [modify] in H.
      destruct (modify f p t) as [t2|] eqn:M; [|discriminate]. injection H as <-.
      exact (IH _ _ M).
Qed.

Lemma modify_other f p : forall t t', modify f p t = Some t' ->
  forall q u, get t q = Some (Leaf u) -> is_prefix p q = false -> get t' q = Some (Leaf u).
Proof.
  induction p as [|x p IH]; intros t t' H q u G N; [discriminate|].
  destruct q as [|y q].
  - cbn [get] in G. injection G as ->. discriminate.
  - cbn [is_prefix] in N.
    destruct t as [u'|l|t].
    + destruct y; discriminate.
    + destruct (step_eqb x SView) eqn:EV; [apply step_eqb_eq in EV; subst x; discriminate|].
      assert (NS : x <> SView) by (intros ->; discriminate).
      rewrite modify_node in H by exact NS.
      destruct (mod_child f p x l) as [l'|] eqn:M; [|discriminate]. injection H as <-.
      destruct (mod_child_spec _ _ _ _ _ M) as (s & s' & A & B & C & D).
      destruct (step_eqb x y) eqn:E.
      * apply step_eqb_eq in E. subst y. cbn [andb] in N. cbn [get] in *. rewrite A in G. rewrite C.
        destruct x; [exact (IH _ _ B _ _ G N)|exact (IH _ _ B _ _ G N)|congruence].
      * assert (y <> x) by (intros ->; rewrite step_eqb_refl in E; discriminate).
        cbn [get] in *. rewrite (D y) by assumption. exact G.
    + destruct x; try discriminate. cbn [modify] in H.
      destruct (modify f p t) as [t2|] eqn:M; [|discriminate]. injection H as <-.
      destruct y; try discriminate. cbn [get] in *. cbn [step_eqb andb] in N.
      exact (IH _ _ M _ _ G N).
Qed.

(** * Wires *)
Lemma wire_no_view t q : wire t q -> ~ In SView q.
Proof. induction 1; cbn [In]; firstorder discriminate. Qed.

Lemma not_linear t : is_linear t = false -> forall q, ~ wire t q.
Proof.
  intros L q W. revert L. induction W as [t|t|l i t q H W IH|l f t q H W IH|t n i q H W IH]; intros L.
  - discriminate.
  - discriminate.
  - apply IH. cbn [is_linear] in L.
    revert i H. induction l as [|x l IHl]; intros [|i] H; [discriminate|discriminate| |];
      cbn [existsb] in L; apply orb_false_iff in L; destruct L as [L1 L2].
    + cbn in H. congruence.
    + exact (IHl L2 i H).
  - apply IH. cbn [is_linear] in L.
    induction l as [|[g x] l IHl]; [discriminate|].
    cbn [existsb snd] in L. apply orb_false_iff in L. destruct L as [L1 L2].
    cbn [field_ty] in H. destruct (String.eqb g f); [congruence|auto].
  - apply IH. exact L.
Qed.

Lemma build_wire t q : wire t q -> get (build t) q = Some (Leaf Unused).
Proof.
  induction 1 as [t|t|l i t q H W IH|l f t q H W IH|t n i q H W IH].
  - reflexivity.
  - reflexivity.
  - cbn [build get].
    match goal with |- match child (?G 0 l) _ with _ => _ end = _ => set (go := G) end.
    assert (X : forall l k, nth_error l i = Some t -> child (go k l) (SIdx (k + i)) = Some (build t)).
    { clear. intros l. revert i. induction l as [|x l IHl]; intros [|i] k H; try discriminate; cbn in H |- *.
      - rewrite Nat.add_0_r, Nat.eqb_refl. congruence.
      - destruct (k =? k + S i) eqn:E; [apply Nat.eqb_eq in E; lia|].
        replace (k + S i) with (S k + i) by lia. apply IHl. exact H. }
    specialize (X l 0 H). cbn [Nat.add] in X. rewrite X. exact IH.
  - cbn [build get].
    assert (X : child (map (fun p => (SField (fst p), build (snd p))) l) (SField f) = Some (build t)).
    { clear - H. induction l as [|[g x] l IHl]; [discriminate|]. cbn in *.
      destruct (String.eqb g f); [congruence|auto]. }
    rewrite X. exact IH.
  - cbn [build].
    assert (L : is_linear t = true).
    { destruct (is_linear t) eqn:E; [reflexivity|]. exfalso. exact (not_linear t E q W). }
    rewrite L. cbn [get].
    assert (X : child (map (fun i => (SIdx i, build t)) (seq 0 n)) (SIdx i) = Some (build t)).
    { assert (Y : forall m k, k <= i < k + m -> child (map (fun i => (SIdx i, build t)) (seq k m)) (SIdx i) = Some (build t)).
      { intros m. induction m as [|m IHm]; intros k R; [lia|]. cbn.
        destruct (k =? i) eqn:E; [reflexivity|]. apply Nat.eqb_neq in E. apply IHm. lia. }
      apply Y. lia. }
    rewrite X. exact IH.
Qed.

(** * Counting *)
Lemma count_app us vs r q : use_count (us ++ vs) r q = use_count us r q + use_count vs r q.
Proof. unfold use_count. rewrite filter_app, app_length. reflexivity. Qed.
Lemma count_one p r q :
  use_count [p] r q = if ref_eqb (fst p) r && is_prefix (snd p) q then 1 else 0.
Proof. unfold use_count. cbn [filter]. destruct (_ && _); reflexivity. Qed.

(** * The coupling *)
Definition marked (ty : cty) (us : list place) (r : ref) (t : tree) : Prop :=
  forall q, wire ty q ->
    (use_count us r q = 0 /\ get t q = Some (Leaf Unused))
    \/ (use_count us r q = 1 /\ get t q = Some (Leaf Consumed)).

Record coupled (cr : list (ref * cty)) (us : list place) (pend : list ref) (dead : list nat) (st : state) : Prop := {
  c_tree : forall r ty, In (r, ty) cr -> exists k t,
    lookup (refs st) r = Some (k, []) /\ nth_error (heap st) k = Some t /\ marked ty us r t;
  c_inj : forall r r' ty ty' k, In (r, ty) cr -> In (r', ty') cr ->
    lookup (refs st) r = Some (k, []) -> lookup (refs st) r' = Some (k, []) -> r = r';
  c_one : forall r ty ty', In (r, ty) cr -> In (r, ty') cr -> ty = ty';
  c_used : forall p, In p us -> exists ty, In (fst p, ty) cr;
  c_names : forall n a, lookup (refs st) (RName n) = Some a ->
    exists ty k, In (RName n, ty) cr /\ a = (k, []);
  c_alias : forall a r, In (a, r) (aliases st) -> lookup (refs st) r = Some a \/ In (fst a) dead;
  c_live : forall r k p, lookup (refs st) r = Some (k, p) -> k < List.length (heap st) /\ ~ In k dead;
  c_dead : forall k, In k dead -> k < List.length (heap st);
  c_pend : forall r, In r pend -> exists k, lookup (refs st) r = Some (k, [])
    /\ (forall r' p, lookup (refs st) r' = Some (k, p) -> r' = r) /\ (forall ty, ~ In (r, ty) cr)
}.

(** What is known of an expression that was visited. *)
Definition found (cr : list (ref * cty)) (st : state) (id : nat) (pl : place) (te : cty) : Prop :=
  exists k mp tr, lookup (refs st) (RAnon id) = Some (k, mp)
    /\ In (fst pl, tr) cr /\ lookup (refs st) (fst pl) = Some (k, [])
    /\ (forall q, wire tr (snd pl ++ q) <-> wire te q)
    /\ (mp = snd pl \/ (In SView mp /\ forall q, ~ wire te q)).

(** References stay. *)
Definition grows (st st' : state) : Prop := forall r a, lookup (refs st) r = Some a -> lookup (refs st') r = Some a.
Lemma grows_refl st : grows st st. Proof. intros r a H. exact H. Qed.
Lemma grows_trans a b c : grows a b -> grows b c -> grows a c.
Proof. intros H K r x L. apply K, H, L. Qed.

Definition fresh (l : list ref) (st : state) : Prop := forall r, In r l -> lookup (refs st) r = None.

Lemma found_grows cr cr' st st' id pl te :
  found cr st id pl te -> grows st st' -> incl cr cr' -> found cr' st' id pl te.
Proof.
  intros (k & mp & tr & A & B & C & D) G I. exists k, mp, tr. split; [apply G, A|].
  split; [apply I, B|]. split; [apply G, C|exact D].
Qed.

(** * Consuming *)
Lemma walk_one cr us pend dead st id a : coupled cr us pend dead st -> lookup (refs st) (RAnon id) = Some a ->
  walk (S (S (List.length (refs st)))) st [] [RAnon id] = Some [a].
Proof.
  intros C H. cbn [walk existsb app]. rewrite H. rewrite app_nil_r.
  destruct (rev (aliases_of st a)) as [|r l] eqn:E; [reflexivity|].
  assert (I : In r (aliases_of st a)) by (apply in_rev; rewrite E; left; reflexivity).
  unfold aliases_of in I. apply in_map_iff in I. destruct I as [[b r'] [E1 I]]. cbn [snd] in E1. subst r'.
  apply filter_In in I. destruct I as [I E2]. cbn [fst] in E2. apply addr_eqb_eq in E2. subst b.
  destruct (c_alias _ _ _ _ _ C _ _ I) as [L|D].
  - rewrite L. cbn [existsb]. replace (addr_eqb a a) with true by (symmetry; apply addr_eqb_eq; reflexivity). reflexivity.
  - destruct a as [k p]. exfalso. exact (proj2 (c_live _ _ _ _ _ C _ _ _ H) D).
Qed.

Lemma nth_set_same {A} (l : list A) k x y : nth_error l k = Some y -> nth_error (set_nth l k x) k = Some x.
Proof. revert k. induction l as [|z l IH]; intros [|k] H; cbn in *; try discriminate; auto. Qed.
Lemma nth_set_other {A} (l : list A) k j x : j <> k -> nth_error (set_nth l k x) j = nth_error l j.
Proof. revert k j. induction l as [|z l IH]; intros [|k] [|j] N; cbn; try reflexivity; try congruence; auto. Qed.
Lemma set_nth_length {A} (l : list A) k x : List.length (set_nth l k x) = List.length l.
Proof. revert k. induction l as [|z l IH]; intros [|k]; cbn; auto. Qed.

Lemma consume_id_step cr us pend dead st id pl te st' :
  coupled cr us pend dead st -> found cr st id pl te -> consume_id st id = Some st' ->
  coupled cr (us ++ [pl]) pend dead st' /\ refs st' = refs st
  /\ (forall q, wire te q -> use_count us (fst pl) (snd pl ++ q) = 0).
Proof.
  intros C (k & mp & tr & L & I & LR & W & AL) H.
  unfold consume_id in H. rewrite (walk_one _ _ _ _ _ _ _ C L) in H.
  cbn [consume_all] in H. unfold consume_at in H. cbn [fst snd] in H.
  destruct (nth_error (heap st) k) as [t|] eqn:HT; [|discriminate].
  destruct (modify try_consume mp t) as [t'|] eqn:M; [|discriminate].
  injection H as <-. cbn [refs heap aliases].
  destruct (c_tree _ _ _ _ _ C _ _ I) as (k0 & t0 & L0 & H0 & MK).
  rewrite LR in L0. injection L0 as <-. rewrite HT in H0. injection H0 as <-.
  assert (Z : forall q, wire te q -> use_count us (fst pl) (snd pl ++ q) = 0).
  { intros q WQ. destruct AL as [->|[_ NW]]; [|exfalso; exact (NW _ WQ)].
    pose proof (proj2 (W q) WQ) as WR.
    destruct (MK _ WR) as [[A _]|[_ B]]; [exact A|exfalso].
    destruct (modify_same _ _ _ _ M) as (s & s' & G1 & G2 & _).
    rewrite get_app, G1 in B.
    assert (NV : ~ In SView q) by exact (wire_no_view _ _ WQ).
    destruct (consume_get _ _ G2 _ _ NV B) as [X _]. congruence. }
  split; [|split; [reflexivity|exact Z]].
  constructor; cbn [refs heap aliases].
  - intros r ty IR. destruct (c_tree _ _ _ _ _ C _ _ IR) as (k1 & t1 & L1 & H1 & MK1).
    destruct (Nat.eq_dec k1 k) as [->|NE].
    + assert (r = fst pl) by exact (c_inj _ _ _ _ _ C _ _ _ _ _ IR I L1 LR). subst r.
      rewrite HT in H1. injection H1 as <-.
      exists k, t'. split; [exact L1|]. split; [exact (nth_set_same _ _ _ _ HT)|].
      intros q WQ. rewrite count_app, count_one, ref_eqb_refl. cbn [andb].
      assert (NV : ~ In SView q) by exact (wire_no_view _ _ WQ).
      destruct (is_prefix (snd pl) q) eqn:P.
      * apply is_prefix_spec in P. destruct P as [c ->].
        assert (NVc : ~ In SView c) by (intros X; apply NV, in_or_app; right; exact X).
        destruct AL as [->|[NV2 NW]].
        -- destruct (modify_same _ _ _ _ M) as (s & s' & G1 & G2 & G3).
           right. destruct (MK1 _ WQ) as [[A B]|[A B]]; rewrite get_app, G1 in B;
             destruct (consume_get _ _ G2 _ _ NVc B) as [X Y]; [|congruence].
           split; [lia|]. rewrite get_app, G3. exact Y.
        -- exfalso. apply (NW c), W. rewrite (c_one _ _ _ _ _ C _ _ _ I IR). exact WQ.
      * assert (U : forall u, get t q = Some (Leaf u) -> get t' q = Some (Leaf u)).
        { intros u G. apply (modify_other _ _ _ _ M _ _ G).
          destruct AL as [->|[NV2 _]]; [exact P|].
          destruct (is_prefix mp q) eqn:P2; [|reflexivity].
          apply is_prefix_spec in P2. destruct P2 as [d E]. exfalso. apply NV. rewrite E.
          apply in_or_app. left. exact NV2. }
        rewrite Nat.add_0_r. destruct (MK1 _ WQ) as [[A B]|[A B]]; [left|right]; auto.
    + assert (r <> fst pl) by (intros ->; congruence).
      exists k1, t1. split; [exact L1|]. split; [rewrite nth_set_other by auto; exact H1|].
      intros q WQ. rewrite count_app, count_one.
      destruct (ref_eqb (fst pl) r) eqn:E; [apply ref_eqb_eq in E; congruence|]. cbn [andb]. rewrite Nat.add_0_r.
      exact (MK1 q WQ).
  - exact (c_inj _ _ _ _ _ C).
  - exact (c_one _ _ _ _ _ C).
  - intros p IP. apply in_app_or in IP. destruct IP as [IP|[<-|[]]]; [exact (c_used _ _ _ _ _ C _ IP)|eauto].
  - exact (c_names _ _ _ _ _ C).
  - exact (c_alias _ _ _ _ _ C).
  - intros r k2 p2 L2. rewrite set_nth_length. exact (c_live _ _ _ _ _ C _ _ _ L2).
  - intros k2 I2. rewrite set_nth_length. exact (c_dead _ _ _ _ _ C _ I2).
  - exact (c_pend _ _ _ _ _ C).
Qed.

(** Only the counts of the wires matter. *)
Lemma coupled_counts cr us us' pend dead st : coupled cr us pend dead st ->
  (forall r ty q, In (r, ty) cr -> wire ty q -> use_count us' r q = use_count us r q) ->
  (forall p, In p us' -> exists ty, In (fst p, ty) cr) -> coupled cr us' pend dead st.
Proof.
  intros C H U. constructor; try apply C; [|exact U].
  intros r ty I. destruct (c_tree _ _ _ _ _ C _ _ I) as (k & t & A & B & M). exists k, t.
  split; [exact A|]. split; [exact B|]. intros q W. rewrite (H r ty q I W). exact (M q W).
Qed.

Lemma unused_place cr us pend dead st id pl te : coupled cr us pend dead st -> found cr st id pl te ->
  (forall q, ~ wire te q) -> forall r ty q, In (r, ty) cr -> wire ty q -> use_count [pl] r q = 0.
Proof.
  intros C (k & mp & tr & L & I & LR & W & AL) N r ty q IR WQ. rewrite count_one.
  destruct (ref_eqb (fst pl) r) eqn:E; [|reflexivity]. apply ref_eqb_eq in E. subst r.
  destruct (is_prefix (snd pl) q) eqn:P; [|reflexivity]. exfalso.
  apply is_prefix_spec in P. destruct P as [c ->]. apply (N c), W.
  rewrite (c_one _ _ _ _ _ C _ _ _ I IR). exact WQ.
Qed.

Lemma repeat_count pl n r q : use_count (repeat pl n) r q = n * use_count [pl] r q.
Proof.
  induction n as [|n IH]; [reflexivity|]. cbn [repeat].
  change (pl :: repeat pl n) with ([pl] ++ repeat pl n). rewrite count_app, IH. lia.
Qed.

Lemma neutral cr us pend dead st id pl te n : coupled cr us pend dead st -> found cr st id pl te ->
  (forall q, ~ wire te q) -> coupled cr (us ++ repeat pl n) pend dead st.
Proof.
  intros C F N. apply (coupled_counts _ _ _ _ _ _ C).
  - intros r ty q I W. rewrite count_app, repeat_count, (unused_place _ _ _ _ _ _ _ _ C F N r ty q I W). lia.
  - intros p I. apply in_app_or in I. destruct I as [I|I]; [exact (c_used _ _ _ _ _ C _ I)|].
    apply repeat_spec in I. subst p. destruct F as (k & mp & tr & L & I & _). eauto.
Qed.

(** * Creating *)
Definition only (l : list ref) (st st' : state) : Prop :=
  forall r, lookup (refs st) r = None -> ~ In r l -> lookup (refs st') r = None.
Definition ready (l : list ref) (st : state) : Prop := NoDup l /\ fresh l st.

Lemma only_trans l1 l2 a b c : only l1 a b -> only l2 b c -> only (l1 ++ l2) a c.
Proof.
  intros A B r N I. apply B; [apply A; [exact N|]|]; intros X; apply I, in_or_app; auto.
Qed.
Lemma only_refl l st : only l st st. Proof. intros r H _. exact H. Qed.
Lemma ready_app l1 l2 st : ready (l1 ++ l2) st -> ready l1 st /\ (forall st', only l1 st st' -> ready l2 st').
Proof.
  intros [N F]. split.
  - split; [|intros r I; apply F, in_or_app; auto].
    clear F. induction l1 as [|x l1 IH]; [constructor|]. cbn in N. apply NoDup_cons_iff in N. destruct N as [N1 N2].
    constructor; [intros X; apply N1, in_or_app; auto|auto].
  - intros st' O. split.
    + clear - N. induction l1 as [|x l1 IH]; [exact N|]. cbn in N. apply NoDup_cons_iff in N. apply IH, N.
    + intros r I. apply O; [apply F, in_or_app; auto|].
      intros X. clear - N I X. induction l1 as [|y l1 IH]; [contradiction|].
      cbn in N. apply NoDup_cons_iff in N. destruct N as [N1 N2]. destruct X as [->|X]; [|auto].
      apply N1, in_or_app. auto.
Qed.
Lemma ready_cons x l st : ready (x :: l) st ->
  lookup (refs st) x = None /\ (forall st', only [x] st st' -> ready l st').
Proof.
  intros R. change (x :: l) with ([x] ++ l) in R. destruct (ready_app _ _ _ R) as [[_ A] B].
  split; [apply A; left; reflexivity|exact B].
Qed.

Lemma push_lookup r ty st r' : lookup (refs (push r ty st)) r' =
  if ref_eqb r r' then Some (List.length (heap st), []) else lookup (refs st) r'.
Proof.
  unfold push. cbn [refs]. destruct (ref_eqb r r') eqn:E.
  - apply ref_eqb_eq in E. subst r'. apply lookup_set_same.
  - apply lookup_set_other. intros ->. rewrite ref_eqb_refl in E. discriminate.
Qed.
Lemma add_lookup st a r r' : lookup (refs (add_ref st a r)) r' =
  if ref_eqb r r' then Some a else lookup (refs st) r'.
Proof.
  unfold add_ref. cbn [refs]. destruct (ref_eqb r r') eqn:E.
  - apply ref_eqb_eq in E. subst r'. apply lookup_set_same.
  - apply lookup_set_other. intros ->. rewrite ref_eqb_refl in E. discriminate.
Qed.
Lemma push_grows r ty st : lookup (refs st) r = None -> grows st (push r ty st) /\ only [r] st (push r ty st).
Proof.
  intros N. split.
  - intros r' a L. rewrite push_lookup. destruct (ref_eqb r r') eqn:E; [apply ref_eqb_eq in E; congruence|exact L].
  - intros r' L I. rewrite push_lookup. destruct (ref_eqb r r') eqn:E; [|exact L].
    apply ref_eqb_eq in E. exfalso. apply I. left. exact E.
Qed.
Lemma add_grows r a st : lookup (refs st) r = None -> grows st (add_ref st a r) /\ only [r] st (add_ref st a r).
Proof.
  intros N. split.
  - intros r' b L. rewrite add_lookup. destruct (ref_eqb r r') eqn:E; [apply ref_eqb_eq in E; congruence|exact L].
  - intros r' L I. rewrite add_lookup. destruct (ref_eqb r r') eqn:E; [|exact L].
    apply ref_eqb_eq in E. exfalso. apply I. left. exact E.
Qed.

Lemma not_yet cr us pend dead st r : coupled cr us pend dead st -> lookup (refs st) r = None ->
  (forall ty, ~ In (r, ty) cr) /\ (forall q, use_count us r q = 0) /\ ~ In r pend.
Proof.
  intros C N. assert (A : forall ty, ~ In (r, ty) cr).
  { intros ty I. destruct (c_tree _ _ _ _ _ C _ _ I) as (k & t & L & _). congruence. }
  split; [exact A|]. split.
  - intros q. pose proof (c_used _ _ _ _ _ C) as U. clear C. induction us as [|p us IH]; [reflexivity|].
    change (p :: us) with ([p] ++ us). rewrite count_app, count_one, IH by (intros p' I; apply U; right; exact I).
    destruct (ref_eqb (fst p) r) eqn:E; [|reflexivity].
    apply ref_eqb_eq in E. destruct (U p) as [ty I]; [left; reflexivity|]. exfalso. apply (A ty). rewrite <- E. exact I.
  - intros I. destruct (c_pend _ _ _ _ _ C _ I) as (k & L & _). congruence.
Qed.

Lemma nth_app_new {A} (l : list A) x : nth_error (l ++ [x]) (List.length l) = Some x.
Proof. rewrite nth_error_app2 by lia. rewrite Nat.sub_diag. reflexivity. Qed.
Lemma nth_app_old {A} (l : list A) x k y : nth_error l k = Some y -> nth_error (l ++ [x]) k = Some y.
Proof. intros H. rewrite nth_error_app1; [exact H|]. apply nth_error_Some. congruence. Qed.

Lemma build_marked ty us r : (forall q, use_count us r q = 0) -> marked ty us r (build ty).
Proof. intros Z q W. left. split; [apply Z|exact (build_wire _ _ W)]. Qed.

(** A new value that is pending: an index expression before it is redirected, or a
    pattern before it is named. *)
Lemma push_pending cr us pend dead st id ty : coupled cr us pend dead st -> lookup (refs st) (RAnon id) = None ->
  coupled cr us (RAnon id :: pend) dead (push (RAnon id) ty st).
Proof.
  intros C N. destruct (not_yet _ _ _ _ _ _ C N) as (NI & _ & NP).
  assert (K : forall r a, lookup (refs st) r = Some a -> lookup (refs (push (RAnon id) ty st)) r = Some a)
    by exact (proj1 (push_grows _ ty _ N)).
  assert (D : forall r k p, lookup (refs (push (RAnon id) ty st)) r = Some (k, p) ->
     (r = RAnon id /\ k = List.length (heap st) /\ p = []) \/ (r <> RAnon id /\ lookup (refs st) r = Some (k, p))).
  { intros r k p L. rewrite push_lookup in L. destruct (ref_eqb (RAnon id) r) eqn:E.
    - apply ref_eqb_eq in E. left. injection L as <- <-. auto.
    - right. split; [|exact L]. intros ->. rewrite ref_eqb_refl in E. discriminate. }
  constructor; cbn [push heap aliases].
  - intros r ty' I. destruct (c_tree _ _ _ _ _ C _ _ I) as (k & t & L & H & M).
    exists k, t. split; [exact (K _ _ L)|]. split; [apply nth_app_old, H|exact M].
  - intros r r' ty1 ty2 k I1 I2 L1 L2.
    destruct (D _ _ _ L1) as [[-> _]|[_ L1']]; [exfalso; exact (NI _ I1)|].
    destruct (D _ _ _ L2) as [[-> _]|[_ L2']]; [exfalso; exact (NI _ I2)|].
    exact (c_inj _ _ _ _ _ C _ _ _ _ _ I1 I2 L1' L2').
  - exact (c_one _ _ _ _ _ C).
  - exact (c_used _ _ _ _ _ C).
  - intros n [k p] L. destruct (D _ _ _ L) as [[X _]|[_ L']]; [discriminate|]. exact (c_names _ _ _ _ _ C _ _ L').
  - intros a r I. apply in_app_or in I. destruct I as [I|[E|[]]].
    + destruct (c_alias _ _ _ _ _ C _ _ I) as [L|X]; [left; exact (K _ _ L)|right; exact X].
    + injection E as <- <-. left. rewrite push_lookup, ref_eqb_refl. reflexivity.
  - intros r k p L. rewrite app_length. cbn [List.length]. destruct (D _ _ _ L) as [[_ [-> _]]|[_ L']].
    + split; [lia|]. intros X. pose proof (c_dead _ _ _ _ _ C _ X). lia.
    + destruct (c_live _ _ _ _ _ C _ _ _ L'). split; [lia|assumption].
  - intros k I. rewrite app_length. cbn [List.length]. pose proof (c_dead _ _ _ _ _ C _ I). lia.
  - intros r [<-|I].
    + exists (List.length (heap st)). split; [rewrite push_lookup, ref_eqb_refl; reflexivity|]. split; [|exact NI].
      intros r' p L. destruct (D _ _ _ L) as [[-> _]|[_ L']]; [reflexivity|].
      pose proof (c_live _ _ _ _ _ C _ _ _ L'). lia.
    + destruct (c_pend _ _ _ _ _ C _ I) as (k & L & U & NC). exists k. split; [exact (K _ _ L)|]. split; [|exact NC].
      intros r' p L'. destruct (D _ _ _ L') as [[_ [-> _]]|[_ L2]]; [|exact (U _ _ L2)].
      pose proof (c_live _ _ _ _ _ C _ _ _ L). lia.
Qed.

(** A new value of its own. *)
Lemma push_tracked cr us pend dead st r ty : coupled cr us pend dead st -> lookup (refs st) r = None ->
  coupled (cr ++ [(r, ty)]) us pend dead (push r ty st).
Proof.
  intros C N. destruct (not_yet _ _ _ _ _ _ C N) as (NI & NU & NP).
  assert (K : forall r0 a, lookup (refs st) r0 = Some a -> lookup (refs (push r ty st)) r0 = Some a)
    by exact (proj1 (push_grows _ ty _ N)).
  assert (D : forall r0 k p, lookup (refs (push r ty st)) r0 = Some (k, p) ->
     (r0 = r /\ k = List.length (heap st) /\ p = []) \/ (r0 <> r /\ lookup (refs st) r0 = Some (k, p))).
  { intros r0 k p L. rewrite push_lookup in L. destruct (ref_eqb r r0) eqn:E.
    - apply ref_eqb_eq in E. left. injection L as <- <-. auto.
    - right. split; [|exact L]. intros ->. rewrite ref_eqb_refl in E. discriminate. }
  constructor; cbn [push heap aliases].
  - intros r0 ty' I. apply in_app_or in I. destruct I as [I|[E|[]]].
    + destruct (c_tree _ _ _ _ _ C _ _ I) as (k & t & L & H & M).
      exists k, t. split; [exact (K _ _ L)|]. split; [apply nth_app_old, H|exact M].
    + injection E as <- <-. exists (List.length (heap st)), (build ty).
      split; [rewrite push_lookup, ref_eqb_refl; reflexivity|]. split; [apply nth_app_new|exact (build_marked _ _ _ NU)].
  - intros r0 r' ty1 ty2 k I1 I2 L1 L2.
    destruct (D _ _ _ L1) as [[-> [E1 _]]|[N1 L1']]; destruct (D _ _ _ L2) as [[-> [E2 _]]|[N2 L2']]; try reflexivity.
    + pose proof (c_live _ _ _ _ _ C _ _ _ L2'). lia.
    + pose proof (c_live _ _ _ _ _ C _ _ _ L1'). lia.
    + apply in_app_or in I1, I2. destruct I1 as [I1|[E|[]]]; [|congruence]. destruct I2 as [I2|[E|[]]]; [|congruence].
      exact (c_inj _ _ _ _ _ C _ _ _ _ _ I1 I2 L1' L2').
  - intros r0 t1 t2 I1 I2. apply in_app_or in I1, I2.
    destruct I1 as [I1|[E1|[]]]; destruct I2 as [I2|[E2|[]]]; try congruence.
    + exact (c_one _ _ _ _ _ C _ _ _ I1 I2).
    + injection E2 as -> ->. exfalso. exact (NI _ I1).
    + injection E1 as -> ->. exfalso. exact (NI _ I2).
  - intros p I. destruct (c_used _ _ _ _ _ C _ I) as [t I2]. exists t. apply in_or_app. left. exact I2.
  - intros n [k p] L. destruct (D _ _ _ L) as [[X [-> ->]]|[_ L']].
    + exists ty, (List.length (heap st)). split; [|reflexivity]. apply in_or_app. right. left. congruence.
    + destruct (c_names _ _ _ _ _ C _ _ L') as (t & k' & I & E). exists t, k'. split; [apply in_or_app; left; exact I|exact E].
  - intros a r0 I. apply in_app_or in I. destruct I as [I|[E|[]]].
    + destruct (c_alias _ _ _ _ _ C _ _ I) as [L|X]; [left; exact (K _ _ L)|right; exact X].
    + injection E as <- <-. left. rewrite push_lookup, ref_eqb_refl. reflexivity.
  - intros r0 k p L. rewrite app_length. cbn [List.length]. destruct (D _ _ _ L) as [[_ [-> _]]|[_ L']].
    + split; [lia|]. intros X. pose proof (c_dead _ _ _ _ _ C _ X). lia.
    + destruct (c_live _ _ _ _ _ C _ _ _ L'). split; [lia|assumption].
  - intros k I. rewrite app_length. cbn [List.length]. pose proof (c_dead _ _ _ _ _ C _ I). lia.
  - intros r0 I. destruct (c_pend _ _ _ _ _ C _ I) as (k & L & U & NC). exists k. split; [exact (K _ _ L)|]. split.
    + intros r' p L'. destruct (D _ _ _ L') as [[_ [-> _]]|[_ L2]]; [|exact (U _ _ L2)].
      pose proof (c_live _ _ _ _ _ C _ _ _ L). lia.
    + intros t X. apply in_app_or in X. destruct X as [X|[E|[]]]; [exact (NC _ X)|]. injection E as -> ->. exact (NP I).
Qed.

(** Another reference to a known value. *)
Lemma alias_step cr us pend dead st id r1 t1 k p : coupled cr us pend dead st -> lookup (refs st) (RAnon id) = None ->
  In (r1, t1) cr -> lookup (refs st) r1 = Some (k, []) ->
  coupled cr us pend dead (add_ref st (k, p) (RAnon id)).
Proof.
  intros C N I1 L1. destruct (not_yet _ _ _ _ _ _ C N) as (NI & _ & NP).
  assert (K : forall r a, lookup (refs st) r = Some a -> lookup (refs (add_ref st (k, p) (RAnon id))) r = Some a)
    by exact (proj1 (add_grows _ (k, p) _ N)).
  assert (D : forall r k' p', lookup (refs (add_ref st (k, p) (RAnon id))) r = Some (k', p') ->
     (r = RAnon id /\ k' = k /\ p' = p) \/ (r <> RAnon id /\ lookup (refs st) r = Some (k', p'))).
  { intros r k' p' L. rewrite add_lookup in L. destruct (ref_eqb (RAnon id) r) eqn:E.
    - apply ref_eqb_eq in E. left. injection L as <- <-. auto.
    - right. split; [|exact L]. intros ->. rewrite ref_eqb_refl in E. discriminate. }
  constructor; cbn [add_ref heap aliases].
  - intros r ty' I. destruct (c_tree _ _ _ _ _ C _ _ I) as (k' & t & L & H & M).
    exists k', t. split; [exact (K _ _ L)|]. split; [exact H|exact M].
  - intros r r' ty1 ty2 k' Ia Ib La Lb.
    destruct (D _ _ _ La) as [[-> _]|[_ La']]; [exfalso; exact (NI _ Ia)|].
    destruct (D _ _ _ Lb) as [[-> _]|[_ Lb']]; [exfalso; exact (NI _ Ib)|].
    exact (c_inj _ _ _ _ _ C _ _ _ _ _ Ia Ib La' Lb').
  - exact (c_one _ _ _ _ _ C).
  - exact (c_used _ _ _ _ _ C).
  - intros n [k' p'] L. destruct (D _ _ _ L) as [[X _]|[_ L']]; [discriminate|]. exact (c_names _ _ _ _ _ C _ _ L').
  - intros a r I. apply in_app_or in I. destruct I as [I|[E|[]]].
    + destruct (c_alias _ _ _ _ _ C _ _ I) as [L|X]; [left; exact (K _ _ L)|right; exact X].
    + injection E as <- <-. left. rewrite add_lookup, ref_eqb_refl. reflexivity.
  - intros r k' p' L. destruct (D _ _ _ L) as [[_ [-> _]]|[_ L']].
    + exact (c_live _ _ _ _ _ C _ _ _ L1).
    + exact (c_live _ _ _ _ _ C _ _ _ L').
  - exact (c_dead _ _ _ _ _ C).
  - intros r I. destruct (c_pend _ _ _ _ _ C _ I) as (k' & L & U & NC). exists k'. split; [exact (K _ _ L)|]. split; [|exact NC].
    intros r' p' L'. destruct (D _ _ _ L') as [[_ [-> _]]|[_ L2]]; [|exact (U _ _ L2)].
    pose proof (U _ _ L1) as E. subst r1. exfalso. exact (NC _ I1).
Qed.

(** A pending value gets its name. *)
Lemma adopt cr us pend dead st id n ty k : coupled cr us (RAnon id :: pend) dead st ->
  lookup (refs st) (RAnon id) = Some (k, []) -> nth_error (heap st) k = Some (build ty) ->
  lookup (refs st) (RName n) = None -> ~ In (RAnon id) pend ->
  coupled (cr ++ [(RName n, ty)]) us pend dead (add_ref st (k, []) (RName n)).
Proof.
  intros C LI HK N NPi. destruct (not_yet _ _ _ _ _ _ C N) as (NI & NU & NP).
  destruct (c_pend _ _ _ _ _ C (RAnon id) (or_introl eq_refl)) as (k2 & L2 & UK & NC).
  rewrite LI in L2. injection L2 as <-.
  assert (K : forall r a, lookup (refs st) r = Some a -> lookup (refs (add_ref st (k, []) (RName n))) r = Some a)
    by exact (proj1 (add_grows _ (k, []) _ N)).
  assert (D : forall r k' p', lookup (refs (add_ref st (k, []) (RName n))) r = Some (k', p') ->
     (r = RName n /\ k' = k /\ p' = []) \/ (r <> RName n /\ lookup (refs st) r = Some (k', p'))).
  { intros r k' p' L. rewrite add_lookup in L. destruct (ref_eqb (RName n) r) eqn:E.
    - apply ref_eqb_eq in E. left. injection L as <- <-. auto.
    - right. split; [|exact L]. intros ->. rewrite ref_eqb_refl in E. discriminate. }
  constructor; cbn [add_ref heap aliases].
  - intros r ty' I. apply in_app_or in I. destruct I as [I|[E|[]]].
    + destruct (c_tree _ _ _ _ _ C _ _ I) as (k' & t & L & H & M).
      exists k', t. split; [exact (K _ _ L)|]. split; [exact H|exact M].
    + injection E as <- <-. exists k, (build ty). split; [rewrite add_lookup, ref_eqb_refl; reflexivity|].
      split; [exact HK|exact (build_marked _ _ _ NU)].
  - intros r r' ty1 ty2 k' Ia Ib La Lb.
    destruct (D _ _ _ La) as [[-> [E1 _]]|[N1 La']]; destruct (D _ _ _ Lb) as [[-> [E2 _]]|[N2 Lb']]; try reflexivity.
    + subst k'. pose proof (UK _ _ Lb'). subst r'. apply in_app_or in Ib.
      destruct Ib as [Ib|[E|[]]]; [exfalso; exact (NC _ Ib)|discriminate].
    + subst k'. pose proof (UK _ _ La'). subst r. apply in_app_or in Ia.
      destruct Ia as [Ia|[E|[]]]; [exfalso; exact (NC _ Ia)|discriminate].
    + apply in_app_or in Ia, Ib. destruct Ia as [Ia|[E|[]]]; [|congruence]. destruct Ib as [Ib|[E|[]]]; [|congruence].
      exact (c_inj _ _ _ _ _ C _ _ _ _ _ Ia Ib La' Lb').
  - intros r0 t1 t2 I1 I2. apply in_app_or in I1, I2.
    destruct I1 as [I1|[E1|[]]]; destruct I2 as [I2|[E2|[]]]; try congruence.
    + exact (c_one _ _ _ _ _ C _ _ _ I1 I2).
    + injection E2 as <- <-. exfalso. exact (NI _ I1).
    + injection E1 as <- <-. exfalso. exact (NI _ I2).
  - intros p I. destruct (c_used _ _ _ _ _ C _ I) as [t I2]. exists t. apply in_or_app. left. exact I2.
  - intros m [k' p'] L. destruct (D _ _ _ L) as [[X [-> ->]]|[_ L']].
    + exists ty, k. split; [|reflexivity]. apply in_or_app. right. left. congruence.
    + destruct (c_names _ _ _ _ _ C _ _ L') as (t & k2 & I & E). exists t, k2. split; [apply in_or_app; left; exact I|exact E].
  - intros a r I. apply in_app_or in I. destruct I as [I|[E|[]]].
    + destruct (c_alias _ _ _ _ _ C _ _ I) as [L|X]; [left; exact (K _ _ L)|right; exact X].
    + injection E as <- <-. left. rewrite add_lookup, ref_eqb_refl. reflexivity.
  - intros r k' p' L. destruct (D _ _ _ L) as [[_ [-> _]]|[_ L']].
    + exact (c_live _ _ _ _ _ C _ _ _ LI).
    + exact (c_live _ _ _ _ _ C _ _ _ L').
  - exact (c_dead _ _ _ _ _ C).
  - intros r I. destruct (c_pend _ _ _ _ _ C _ (or_intror I)) as (k' & L & U & NC2). exists k'. split; [exact (K _ _ L)|]. split.
    + intros r' p' L'. destruct (D _ _ _ L') as [[_ [-> _]]|[_ L2]]; [|exact (U _ _ L2)].
      pose proof (U _ _ LI) as E. subst r. exfalso. exact (NPi I).
    + intros t X. apply in_app_or in X. destruct X as [X|[E|[]]]; [exact (NC2 _ X)|]. injection E as <- <-.
      apply NP. right. exact I.
Qed.

(** A pending index expression becomes a part of another value. *)
Lemma redirect cr us pend dead st id r1 t1 k p : coupled cr us (RAnon id :: pend) dead st ->
  ~ In (RAnon id) pend -> In (r1, t1) cr -> lookup (refs st) r1 = Some (k, []) ->
  exists dead', coupled cr us pend dead' (add_ref st (k, p) (RAnon id)).
Proof.
  intros C NPi I1 L1.
  destruct (c_pend _ _ _ _ _ C (RAnon id) (or_introl eq_refl)) as (k0 & L0 & UK & NI).
  assert (NE : k <> k0). { intros ->. pose proof (UK _ _ L1) as E. subst r1. exact (NI _ I1). }
  assert (K : forall r a, r <> RAnon id -> lookup (refs st) r = Some a -> lookup (refs (add_ref st (k, p) (RAnon id))) r = Some a).
  { intros r a X L. rewrite add_lookup. destruct (ref_eqb (RAnon id) r) eqn:E; [apply ref_eqb_eq in E; congruence|exact L]. }
  assert (D : forall r k' p', lookup (refs (add_ref st (k, p) (RAnon id))) r = Some (k', p') ->
     (r = RAnon id /\ k' = k /\ p' = p) \/ (r <> RAnon id /\ lookup (refs st) r = Some (k', p'))).
  { intros r k' p' L. rewrite add_lookup in L. destruct (ref_eqb (RAnon id) r) eqn:E.
    - apply ref_eqb_eq in E. left. injection L as <- <-. auto.
    - right. split; [|exact L]. intros ->. rewrite ref_eqb_refl in E. discriminate. }
  exists (k0 :: dead).
  constructor; cbn [add_ref heap aliases].
  - intros r ty' I. destruct (c_tree _ _ _ _ _ C _ _ I) as (k' & t & L & H & M).
    exists k', t. split; [|split; [exact H|exact M]]. apply K; [|exact L]. intros ->. exact (NI _ I).
  - intros r r' ty1 ty2 k' Ia Ib La Lb.
    destruct (D _ _ _ La) as [[-> _]|[_ La']]; [exfalso; exact (NI _ Ia)|].
    destruct (D _ _ _ Lb) as [[-> _]|[_ Lb']]; [exfalso; exact (NI _ Ib)|].
    exact (c_inj _ _ _ _ _ C _ _ _ _ _ Ia Ib La' Lb').
  - exact (c_one _ _ _ _ _ C).
  - exact (c_used _ _ _ _ _ C).
  - intros n [k' p'] L. destruct (D _ _ _ L) as [[X _]|[_ L']]; [discriminate|]. exact (c_names _ _ _ _ _ C _ _ L').
  - intros a r I. apply in_app_or in I. destruct I as [I|[E|[]]].
    + destruct (c_alias _ _ _ _ _ C _ _ I) as [L|X]; [|right; right; exact X].
      destruct (ref_dec r (RAnon id)) as [->|NR]; [|left; exact (K _ _ NR L)].
      rewrite L0 in L. injection L as <-. right. left. reflexivity.
    + injection E as <- <-. left. rewrite add_lookup, ref_eqb_refl. reflexivity.
  - intros r k' p' L. destruct (D _ _ _ L) as [[_ [-> _]]|[NR L']].
    + destruct (c_live _ _ _ _ _ C _ _ _ L1) as [A B]. split; [exact A|]. intros [X|X]; [congruence|exact (B X)].
    + destruct (c_live _ _ _ _ _ C _ _ _ L') as [A B]. split; [exact A|]. intros [X|X]; [|exact (B X)].
      subst k'. exact (NR (UK _ _ L')).
  - intros k' [<-|X]; [exact (proj1 (c_live _ _ _ _ _ C _ _ _ L0))|exact (c_dead _ _ _ _ _ C _ X)].
  - intros r I. destruct (c_pend _ _ _ _ _ C _ (or_intror I)) as (k' & L & U & NC). exists k'.
    assert (NR : r <> RAnon id) by (intros ->; exact (NPi I)).
    split; [exact (K _ _ NR L)|]. split; [|exact NC].
    intros r' p' L'. destruct (D _ _ _ L') as [[_ [-> _]]|[_ L2]]; [|exact (U _ _ L2)].
    pose proof (U _ _ L1) as E. subst r1. exfalso. exact (NC _ I1).
Qed.

(** * Parts *)
Lemma strip_view t : let '(p, t') := strip t in get t p = Some t' /\ (p = [] \/ In SView p /\ exists t0, t = View t0).
Proof.
  induction t as [u|l IH|t IH] using tree_rect'; cbn [strip]; [auto|auto|].
  destruct (strip t) as [p t']. destruct IH as [A _]. split; [exact A|]. right. split; [left; reflexivity|eauto].
Qed.

Lemma part_wire t s t' : part t s t' -> (forall q, wire t (s :: q) <-> wire t' q) \/ ((forall q, ~ wire t (s :: q)) /\ forall q, ~ wire t' q).
Proof.
  intros [l i t0 H|l f t0 H|t0 n i H|t0 s0 t1 _ H].
  - left. intros q. split; [intros W; inversion W; subst; congruence|intros W; econstructor; eassumption].
  - left. intros q. split; [intros W; inversion W; subst; congruence|intros W; econstructor; eassumption].
  - left. intros q. split; [intros W; inversion W; subst; assumption|intros W; econstructor; eassumption].
  - right. split; [intros q W; inversion W|exact (not_linear _ H)].
Qed.

Lemma alias_sub_found cr us pend dead st id base pl tb s te st' :
  coupled cr us pend dead st -> found cr st base pl tb -> part tb s te ->
  alias_sub st id base s = Some st' ->
  exists k p tr, st' = add_ref st (k, p) (RAnon id) /\ In (fst pl, tr) cr
    /\ lookup (refs st) (fst pl) = Some (k, [])
    /\ (forall q, wire tr ((snd pl ++ [s]) ++ q) <-> wire te q)
    /\ (p = snd pl ++ [s] \/ (In SView p /\ forall q, ~ wire te q)).
Proof.
  intros C (k & mp & tr & L & I & LR & W & AL) P H.
  assert (NS : s <> SView) by (destruct P; congruence).
  unfold alias_sub in H. rewrite L in H.
  destruct (nth_error (heap st) k) as [t|] eqn:HT; [|discriminate].
  destruct (get t mp) as [tb'|] eqn:G; [|discriminate].
  pose proof (strip_view tb') as SV. destruct (strip tb') as [vs t'] eqn:ES. destruct SV as [GV VS].
  destruct (get t' [s]) as [tc|] eqn:GS; [|discriminate]. injection H as <-.
  exists k, (mp ++ vs ++ [s]), tr.
  assert (WI : forall q, wire tr ((snd pl ++ [s]) ++ q) <-> wire te q).
  { intros q. rewrite <- app_assoc. cbn [app]. rewrite W.
    destruct (part_wire _ _ _ P) as [X|[X Y]]; [apply X|]. split; intros Z; exfalso; [exact (X _ Z)|exact (Y _ Z)]. }
  split; [reflexivity|]. split; [exact I|]. split; [exact LR|]. split; [exact WI|].
  destruct AL as [->|[V NW]].
  - destruct VS as [->|[V [t0 ->]]]; [left; reflexivity|right].
    split; [apply in_or_app; right; apply in_or_app; left; exact V|].
    intros q WQ. pose proof (proj2 (WI q) WQ) as WR. rewrite <- app_assoc in WR. cbn [app] in WR.
    destruct (c_tree _ _ _ _ _ C _ _ I) as (k0 & t1 & L0 & H0 & MK). rewrite LR in L0. injection L0 as <-.
    rewrite HT in H0. injection H0 as <-.
    assert (GN : get t (snd pl ++ s :: q) = None).
    { rewrite get_app, G. cbn [get]. destruct s; [reflexivity|reflexivity|congruence]. }
    destruct (MK _ WR) as [[_ B]|[_ B]]; congruence.
  - right. split; [apply in_or_app; left; exact V|].
    intros q WQ. pose proof (proj2 (WI q) WQ) as WR. rewrite <- app_assoc in WR. apply (proj1 (W _)) in WR.
    exact (NW _ WR).
Qed.

(** * The check, statement by statement *)
Scheme pat_mut := Induction for pat Sort Prop with pats_mut := Induction for pats Sort Prop.
Combined Scheme pat_pats_ind from pat_mut, pats_mut.
Scheme expr_mut := Induction for expr Sort Prop with kind_mut := Induction for kind Sort Prop
  with exprs_mut := Induction for exprs Sort Prop with arms_mut := Induction for arms Sort Prop
  with stmts_mut := Induction for stmts Sort Prop.
Combined Scheme syntax_ind from expr_mut, kind_mut, exprs_mut, arms_mut, stmts_mut.

Definition ran cr us pend st news c u st' : Prop :=
  exists dead, coupled (cr ++ c) (us ++ u) pend dead st' /\ grows st st' /\ only news st st'.

Lemma ran_trans cr us pend st n1 c1 u1 st1 n2 c2 u2 st2 :
  ran cr us pend st n1 c1 u1 st1 -> ran (cr ++ c1) (us ++ u1) pend st1 n2 c2 u2 st2 ->
  ran cr us pend st (n1 ++ n2) (c1 ++ c2) (u1 ++ u2) st2.
Proof.
  intros (d1 & A1 & B1 & C1) (d2 & A2 & B2 & C2). exists d2. rewrite !app_assoc.
  split; [exact A2|]. split; [exact (grows_trans _ _ _ B1 B2)|exact (only_trans _ _ _ _ _ C1 C2)].
Qed.
Lemma ran_trans0 cr us pend st n1 c1 st1 n2 c2 u2 st2 :
  ran cr us pend st n1 c1 [] st1 -> ran (cr ++ c1) us pend st1 n2 c2 u2 st2 ->
  ran cr us pend st (n1 ++ n2) (c1 ++ c2) u2 st2.
Proof.
  intros A B. change u2 with ([] ++ u2). apply (ran_trans _ _ _ _ _ _ _ _ _ _ _ _ A). rewrite app_nil_r. exact B.
Qed.
Lemma ran_nil cr us pend dead st : coupled cr us pend dead st -> ran cr us pend st [] [] [] st.
Proof. intros C. exists dead. rewrite !app_nil_r. split; [exact C|]. split; [apply grows_refl|apply only_refl]. Qed.
Lemma ran_eq cr us pend st n c u st' n' c' u' :
  ran cr us pend st n c u st' -> n = n' -> c = c' -> u = u' -> ran cr us pend st n' c' u' st'.
Proof. intros H -> -> ->. exact H. Qed.

Lemma consume_ran cr us pend dead st id pl te st' :
  coupled cr us pend dead st -> found cr st id pl te -> consume_id st id = Some st' ->
  ran cr us pend st [] [] [pl] st' /\ (forall cr0 i p t, found cr0 st i p t -> found cr0 st' i p t).
Proof.
  intros C F H. destruct (consume_id_step _ _ _ _ _ _ _ _ _ C F H) as (C' & R & _). split.
  - exists dead. rewrite app_nil_r. split; [exact C'|]. split; intros r; rewrite R; auto.
  - intros cr0 i p t (k & mp & tr & A). exists k, mp, tr. rewrite R. exact A.
Qed.

Lemma neutral_ran cr us pend dead st id pl te n :
  coupled cr us pend dead st -> found cr st id pl te -> (forall q, ~ wire te q) ->
  ran cr us pend st [] [] (repeat pl n) st.
Proof.
  intros C F N. exists dead. rewrite app_nil_r. split; [exact (neutral _ _ _ _ _ _ _ _ n C F N)|].
  split; [apply grows_refl|apply only_refl].
Qed.

Section Check.
Variable G : list (ref * cty).
Hypothesis G_one : forall r t t', In (r, t) G -> In (r, t') G -> t = t'.

Lemma name_found cr us pend dead st id n ty st' :
  coupled cr us pend dead st -> incl cr G -> In (RName n, ty) G -> lookup (refs st) (RAnon id) = None ->
  merge st (RAnon id) (RName n) = Some st' ->
  ran cr us pend st [RAnon id] [] [] st' /\ found cr st' id (RName n, []) ty.
Proof.
  intros C IG IN N H. unfold merge in H. rewrite N in H.
  destruct (lookup (refs st) (RName n)) as [a|] eqn:L; [|discriminate]. injection H as <-.
  destruct (c_names _ _ _ _ _ C _ _ L) as (ty' & k & I & ->).
  pose proof (G_one _ _ _ (IG _ I) IN) as E. subst ty'.
  destruct (add_grows (RAnon id) (k, []) st N) as [GR ON].
  pose proof (alias_step _ _ _ _ _ _ _ _ _ [] C N I L) as C'. split.
  - exists dead. rewrite !app_nil_r. auto.
  - exists k, [], ty. split; [rewrite add_lookup, ref_eqb_refl; reflexivity|]. split; [exact I|].
    split; [exact (GR _ _ L)|]. split; [intros q; reflexivity|left; reflexivity].
Qed.

(** * Patterns *)
Fixpoint pat_found (cr : list (ref * cty)) (st : state) (p : pat) : Prop :=
  match p with
  | PLit => True
  | PBound id ty n inner _ => found cr st id (RName n, []) ty /\ pats_found cr st inner
  | PList l => pats_found cr st l
  end
with pats_found (cr : list (ref * cty)) (st : state) (l : pats) : Prop :=
  match l with PNil => True | PCons p l => pat_found cr st p /\ pats_found cr st l end.

Lemma pat_found_mono cr cr' st st' : grows st st' -> incl cr cr' ->
  (forall p, pat_found cr st p -> pat_found cr' st' p) /\ (forall l, pats_found cr st l -> pats_found cr' st' l).
Proof.
  intros GR IC. apply pat_pats_ind; cbn [pat_found pats_found]; try tauto.
  intros id ty n inner IH pre [F R]. split; [exact (found_grows _ _ _ _ _ _ _ F GR IC)|auto].
Qed.

Lemma consume_flat cr us pend dead st id pl te st' :
  coupled cr us pend dead st -> found cr st id pl te -> is_linear te = false -> consume_id st id = Some st' ->
  coupled cr us pend dead st' /\ refs st' = refs st.
Proof.
  intros C F N H. destruct (consume_id_step _ _ _ _ _ _ _ _ _ C F H) as (C' & R & _). split; [|exact R].
  apply (coupled_counts _ _ _ _ _ _ C').
  - intros r ty q I W. rewrite count_app, (unused_place _ _ _ _ _ _ _ _ C F (not_linear _ N) r ty q I W). lia.
  - intros p I. exact (c_used _ _ _ _ _ C _ I).
Qed.

Lemma found_refs cr st st' id pl te : refs st' = refs st -> found cr st id pl te -> found cr st' id pl te.
Proof. intros E F. apply (found_grows cr cr st st' _ _ _ F); [intros r a; rewrite E; auto|apply incl_refl]. Qed.

Lemma consume_flat_pats cr us pend dead :
  (forall p st st', coupled cr us pend dead st -> pat_found cr st p -> flat_pat p ->
     consume_pattern p st = Some st' -> coupled cr us pend dead st' /\ refs st' = refs st)
  /\ (forall l st st', coupled cr us pend dead st -> pats_found cr st l -> flat_pats l ->
     consume_patterns l st = Some st' -> coupled cr us pend dead st' /\ refs st' = refs st).
Proof.
  apply pat_pats_ind; cbn [consume_pattern consume_patterns pat_found pats_found flat_pat flat_pats].
  - intros st st' C _ _ H. injection H as <-. auto.
  - intros id ty n inner IH pre st st' C [F R] [N NR] H.
    destruct (consume_id st id) as [st1|] eqn:E; [|discriminate].
    destruct (consume_flat _ _ _ _ _ _ _ _ _ C F N E) as [C1 E1].
    assert (GR : grows st st1) by (intros r a; rewrite E1; auto).
    destruct (IH st1 st' C1 (proj2 (pat_found_mono _ _ _ _ GR (incl_refl _)) _ R) NR H) as [C2 E2].
    split; [exact C2|congruence].
  - intros l IH st st' C R N H. exact (IH st st' C R N H).
  - intros st st' C _ _ H. injection H as <-. auto.
  - intros p IHp l IHl st st' C [F R] [N NR] H.
    destruct (consume_pattern p st) as [st1|] eqn:E; [|discriminate].
    destruct (IHp st st1 C F N E) as [C1 E1].
    assert (GR : grows st st1) by (intros r a; rewrite E1; auto).
    destruct (IHl st1 st' C1 (proj2 (pat_found_mono _ _ _ _ GR (incl_refl _)) _ R) NR H) as [C2 E2].
    split; [exact C2|congruence].
Qed.

Definition good_pat (p : pat) : Prop := forall cr us pend dead st st',
  coupled cr us pend dead st -> push_pattern p st = Some st' -> ready (ids_pat p) st -> simple_pat G p ->
  incl (cr ++ created_pat p) G ->
  ran cr us pend st (ids_pat p) (created_pat p) [] st' /\ pat_found (cr ++ created_pat p) st' p.
Definition good_pats (l : pats) : Prop := forall cr us pend dead st st',
  coupled cr us pend dead st -> push_patterns l st = Some st' -> ready (ids_pats l) st -> simple_pats G l ->
  incl (cr ++ created_pats l) G ->
  ran cr us pend st (ids_pats l) (created_pats l) [] st' /\ pats_found (cr ++ created_pats l) st' l.

Lemma incl_app_l (a b c : list (ref * cty)) : incl (a ++ b ++ c) G -> incl (a ++ b) G.
Proof. intros H x I. apply H. rewrite app_assoc. apply in_or_app. auto. Qed.
Lemma incl_refl_l (a b : list (ref * cty)) : incl (a ++ b) G -> incl a G.
Proof. intros H x I. apply H, in_or_app. auto. Qed.
Lemma incl_assoc (a b c : list (ref * cty)) : incl (a ++ b ++ c) G -> incl ((a ++ b) ++ c) G.
Proof. rewrite app_assoc. auto. Qed.

Lemma bound_step cr us pend dead st id ty n (pre : bool) st1 :
  coupled cr us pend dead st -> ready (RAnon id :: (if pre then [] else [RName n])) st ->
  In (RName n, ty) G -> incl cr G ->
  merge (if pre then st else push (RAnon id) ty st) (RAnon id) (RName n) = Some st1 ->
  ran cr us pend st (RAnon id :: (if pre then [] else [RName n])) (if pre then [] else [(RName n, ty)]) [] st1
  /\ found (cr ++ (if pre then [] else [(RName n, ty)])) st1 id (RName n, []) ty.
Proof.
  intros C R IN IG H. destruct (ready_cons _ _ _ R) as [N R2].
  destruct pre.
  - rewrite app_nil_r. exact (name_found _ _ _ _ _ _ _ _ _ C IG IN N H).
  - destruct (push_grows (RAnon id) ty st N) as [G1 O1].
    destruct (R2 _ O1) as [_ F2]. specialize (F2 (RName n) (or_introl eq_refl)).
    pose proof (push_pending _ _ _ _ _ _ ty C N) as C1.
    assert (L1 : lookup (refs (push (RAnon id) ty st)) (RAnon id) = Some (List.length (heap st), []))
      by (rewrite push_lookup, ref_eqb_refl; reflexivity).
    unfold merge in H. rewrite L1, F2 in H. injection H as <-.
    destruct (not_yet _ _ _ _ _ _ C N) as (_ & _ & NP).
    assert (HK : nth_error (heap (push (RAnon id) ty st)) (List.length (heap st)) = Some (build ty))
      by (cbn [push heap]; apply nth_app_new).
    pose proof (adopt _ _ _ _ _ _ n ty _ C1 L1 HK F2 NP) as C2.
    destruct (add_grows (RName n) (List.length (heap st), []) _ F2) as [G2 O2].
    split.
    + exists dead. rewrite app_nil_r. split; [exact C2|]. split; [exact (grows_trans _ _ _ G1 G2)|].
      exact (only_trans _ _ _ _ _ O1 O2).
    + exists (List.length (heap st)), [], ty. split; [exact (G2 _ _ L1)|].
      split; [apply in_or_app; right; left; reflexivity|].
      split; [cbn [fst]; rewrite add_lookup, ref_eqb_refl; reflexivity|]. split; [intros q; reflexivity|left; reflexivity].
Qed.

Lemma patterns : (forall p, good_pat p) /\ (forall l, good_pats l).
Proof.
  apply pat_pats_ind; unfold good_pat, good_pats;
    cbn [push_pattern push_patterns ids_pat ids_pats simple_pat simple_pats created_pat created_pats pat_found pats_found].
  - intros cr us pend dead st st' C H R S IG. injection H as <-. split; [exact (ran_nil _ _ _ _ _ C)|exact I].
  - intros id ty n inner IH pre cr us pend dead st st' C H R S IG.
    destruct S as (IN & SI & FL).
    change (RAnon id :: (if pre then [] else [RName n]) ++ ids_pats inner)
      with ((RAnon id :: (if pre then [] else [RName n])) ++ ids_pats inner) in R |- *.
    destruct (ready_app _ _ _ R) as [R1 R2].
    destruct (merge (if pre then st else push (RAnon id) ty st) (RAnon id) (RName n)) as [st1|] eqn:E; [|discriminate].
    destruct (bound_step _ _ _ _ _ _ _ _ _ _ C R1 IN (incl_refl_l _ _ IG) E) as [RN F].
    destruct RN as (d1 & C1 & G1 & O1). rewrite app_nil_r in C1.
    destruct inner as [|p l].
    + injection H as <-. cbn [ids_pats created_pats pats_found]. rewrite !app_nil_r. split; [|split; [exact F|exact I]].
      exists d1. rewrite app_nil_r. auto.
    + destruct (push_patterns (PCons p l) st1) as [st2|] eqn:E2; [|discriminate].
      destruct (IH _ _ _ _ _ _ C1 E2 (R2 _ O1) SI (incl_assoc _ _ _ IG)) as [(d2 & C2 & G2 & O2) PF].
      rewrite app_nil_r in C2.
      destruct (consume_patterns (PCons p l) st2) as [st3|] eqn:E3; [|discriminate].
      destruct FL as [NL FL].
      destruct (proj2 (consume_flat_pats _ _ _ _) _ _ _ C2 PF FL E3) as [C3 X3].
      assert (F3 : found ((cr ++ (if pre then [] else [(RName n, ty)])) ++ created_pats (PCons p l)) st3 id (RName n, []) ty).
      { apply (found_refs _ st2); [exact X3|]. apply (found_grows _ _ _ _ _ _ _ F G2). intros x Hx. apply in_or_app. auto. }
      destruct (consume_flat _ _ _ _ _ _ _ _ _ C3 F3 NL H) as [C4 X4].
      assert (X : refs st' = refs st2) by congruence.
      split.
      * exists d2. rewrite app_nil_r, app_assoc. split; [exact C4|].
        split.
        -- intros r a L. rewrite X. exact (G2 _ _ (G1 _ _ L)).
        -- intros r L NI. rewrite X. exact (only_trans _ _ _ _ _ O1 O2 r L NI).
      * rewrite app_assoc. split; [apply (found_refs _ st3); [congruence|exact F3]|].
        apply (proj2 (pat_found_mono _ _ st2 st' ltac:(intros r a; rewrite X; auto) (incl_refl _)) _ PF).
  - intros l IH cr us pend dead st st' C H R S IG. exact (IH _ _ _ _ _ _ C H R S IG).
  - intros cr us pend dead st st' C H R S IG. injection H as <-. split; [exact (ran_nil _ _ _ _ _ C)|exact I].
  - intros p IHp l IHl cr us pend dead st st' C H R S IG. destruct S as [S1 S2].
    destruct (ready_app _ _ _ R) as [R1 R2].
    destruct (push_pattern p st) as [st1|] eqn:E; [|discriminate].
    destruct (IHp _ _ _ _ _ _ C E R1 S1 (incl_app_l _ _ _ IG)) as [RN PF].
    pose proof RN as (d1 & C1 & G1 & O1). rewrite app_nil_r in C1.
    destruct (IHl _ _ _ _ _ _ C1 H (R2 _ O1) S2 (incl_assoc _ _ _ IG)) as [RN2 PF2].
    split.
    + refine (ran_trans0 _ _ _ _ _ _ _ _ _ _ _ RN RN2).
    + rewrite app_assoc. destruct RN2 as (d2 & C2 & G2 & O2). split; [|exact PF2].
      exact (proj1 (pat_found_mono _ _ _ _ G2 (incl_appl _ (incl_refl _))) _ PF).
Qed.

(** * Expressions *)
Definition good (e : expr) : Prop := forall cr us pend dead st st',
  coupled cr us pend dead st -> visit e st = Some st' -> ready (ids e) st -> simple G e ->
  incl (cr ++ created e) G ->
  ran cr us pend st (ids e) (created e) (uses e) st'
  /\ found (cr ++ created e) st' (id_of e) (place_of e) (ty_of e).

Lemma seq_ran cr us pend st n1 c1 u1 st1 n2 c2 u2 st2 :
  ran cr us pend st n1 c1 u1 st1 -> ready (n1 ++ n2) st -> incl (cr ++ c1 ++ c2) G ->
  (forall dead, coupled (cr ++ c1) (us ++ u1) pend dead st1 -> ready n2 st1 -> incl ((cr ++ c1) ++ c2) G ->
     ran (cr ++ c1) (us ++ u1) pend st1 n2 c2 u2 st2) ->
  ran cr us pend st (n1 ++ n2) (c1 ++ c2) (u1 ++ u2) st2.
Proof.
  intros A R IG K. apply (ran_trans _ _ _ _ _ _ _ _ _ _ _ _ A). destruct A as (d & C & GR & ON).
  destruct (ready_app _ _ _ R) as [_ R2]. exact (K d C (R2 _ ON) (incl_assoc _ _ _ IG)).
Qed.

Lemma used e : good e -> forall cr us pend dead st st1 st',
  coupled cr us pend dead st -> visit e st = Some st1 -> consume st1 e = Some st' ->
  ready (ids e) st -> simple G e -> incl (cr ++ created e) G ->
  ran cr us pend st (ids e) (created e) (uses e ++ [place_of e]) st'.
Proof.
  intros GE cr us pend dead st st1 st' C V K R S IG.
  destruct (GE _ _ _ _ _ _ C V R S IG) as [RN F]. pose proof RN as (d & C1 & _ & _).
  destruct (consume_ran _ _ _ _ _ _ _ _ _ C1 F K) as [RK _].
  pose proof (ran_trans _ _ _ _ _ _ _ _ _ _ _ _ RN RK) as X. rewrite !app_nil_r in X. exact X.
Qed.

Lemma skipped e : good e -> forall cr us pend dead st st',
  coupled cr us pend dead st -> visit e st = Some st' -> no_wire e ->
  ready (ids e) st -> simple G e -> incl (cr ++ created e) G ->
  ran cr us pend st (ids e) (created e) (uses e ++ [place_of e]) st'.
Proof.
  intros GE cr us pend dead st st' C V N R S IG.
  destruct (GE _ _ _ _ _ _ C V R S IG) as [RN F]. pose proof RN as (d & C1 & _ & _).
  pose proof (neutral_ran _ _ _ _ _ _ _ _ 1 C1 F (not_linear _ N)) as RK. cbn [repeat] in RK.
  pose proof (ran_trans _ _ _ _ _ _ _ _ _ _ _ _ RN RK) as X. rewrite !app_nil_r in X. exact X.
Qed.

Lemma fresh_good cr us pend dead st id ty st' news c u :
  coupled cr us pend dead st -> ready (RAnon id :: news) st -> incl (cr ++ (RAnon id, ty) :: c) G ->
  (forall dead, coupled (cr ++ [(RAnon id, ty)]) us pend dead (push (RAnon id) ty st) ->
     ready news (push (RAnon id) ty st) -> incl ((cr ++ [(RAnon id, ty)]) ++ c) G ->
     ran (cr ++ [(RAnon id, ty)]) us pend (push (RAnon id) ty st) news c u st') ->
  ran cr us pend st (RAnon id :: news) ((RAnon id, ty) :: c) u st'
  /\ found (cr ++ (RAnon id, ty) :: c) st' id (RAnon id, []) ty.
Proof.
  intros C R IG K. destruct (ready_cons _ _ _ R) as [N R2].
  destruct (push_grows (RAnon id) ty st N) as [G1 O1].
  pose proof (push_tracked _ _ _ _ _ _ ty C N) as C1.
  assert (IG' : incl ((cr ++ [(RAnon id, ty)]) ++ c) G) by (rewrite <- app_assoc; exact IG).
  pose proof (K _ C1 (R2 _ O1) IG') as RN.
  assert (R0 : ran cr us pend st [RAnon id] [(RAnon id, ty)] [] (push (RAnon id) ty st)).
  { exists dead. rewrite app_nil_r. auto. }
  split; [exact (ran_trans0 _ _ _ _ _ _ _ _ _ _ _ R0 RN)|].
  destruct RN as (d & _ & GR & _).
  exists (List.length (heap st)), [], ty.
  assert (L : lookup (refs (push (RAnon id) ty st)) (RAnon id) = Some (List.length (heap st), []))
    by (rewrite push_lookup, ref_eqb_refl; reflexivity).
  split; [exact (GR _ _ L)|]. split; [apply in_or_app; right; left; reflexivity|].
  split; [exact (GR _ _ L)|]. split; [intros q; reflexivity|left; reflexivity].
Qed.

Definition good_list (l : exprs) : Prop := forall cr us pend dead st st',
  coupled cr us pend dead st -> ready (ids_l l) st -> simple_l G l -> incl (cr ++ created_l l) G ->
  (visit_consume l st = Some st' -> ran cr us pend st (ids_l l) (created_l l) (uses_l l) st')
  /\ (visit_all l st = Some st' -> ran cr us pend st (ids_l l) (created_l l) (only_inside l) st')
  /\ (visit_all l st = Some st' -> no_wires l -> ran cr us pend st (ids_l l) (created_l l) (uses_l l) st').
Definition good_arms (l : arms) : Prop := forall cr us pend dead st st',
  coupled cr us pend dead st -> ready (ids_arms l) st -> simple_arms G l -> incl (cr ++ created_arms l) G ->
  visit_arms l st = Some st' -> ran cr us pend st (ids_arms l) (created_arms l) (uses_arms l) st'.
Definition good_stmts (l : stmts) : Prop := forall cr us pend dead st st',
  coupled cr us pend dead st -> ready (ids_stmts l) st -> simple_stmts G l -> incl (cr ++ created_stmts l) G ->
  visit_stmts l st = Some st' -> ran cr us pend st (ids_stmts l) (created_stmts l) (uses_stmts l) st'.
Definition good_kind (k : kind) : Prop := forall id ty, good (E id ty k).

(** Both operands are visited, then both are consumed. *)
Lemma used_two a b : good a -> good b -> forall cr us pend dead st st1 st2 st3 st4,
  coupled cr us pend dead st -> visit a st = Some st1 -> visit b st1 = Some st2 ->
  consume st2 a = Some st3 -> consume st3 b = Some st4 ->
  ready (ids a ++ ids b) st -> simple G a -> simple G b -> incl (cr ++ created a ++ created b) G ->
  ran cr us pend st (ids a ++ ids b) (created a ++ created b) (uses a ++ uses b ++ [place_of a; place_of b]) st4.
Proof.
  intros GA GB cr us pend dead st st1 st2 st3 st4 C V1 V2 K1 K2 R SA SB IG.
  destruct (ready_app _ _ _ R) as [R1 R2].
  destruct (GA _ _ _ _ _ _ C V1 R1 SA (incl_app_l _ _ _ IG)) as [RNa Fa]. pose proof RNa as (d1 & C1 & G1 & O1).
  destruct (GB _ _ _ _ _ _ C1 V2 (R2 _ O1) SB (incl_assoc _ _ _ IG)) as [RNb Fb]. pose proof RNb as (d2 & C2 & G2 & O2).
  assert (Fa2 : found ((cr ++ created a) ++ created b) st2 (id_of a) (place_of a) (ty_of a)).
  { apply (found_grows _ _ _ _ _ _ _ Fa G2). intros x Hx. apply in_or_app. auto. }
  destruct (consume_ran _ _ _ _ _ _ _ _ _ C2 Fa2 K1) as [RK1 KF]. pose proof RK1 as (d3 & C3 & G3 & O3).
  rewrite app_nil_r in C3.
  destruct (consume_ran _ _ _ _ _ _ _ _ _ C3 (KF _ _ _ _ Fb) K2) as [RK2 _].
  pose proof (ran_trans _ _ _ _ _ _ _ _ _ _ _ _ RNa RNb) as X.
  repeat rewrite <- app_assoc in RK1.
  assert (RK1' : ran (cr ++ created a ++ created b) (us ++ uses a ++ uses b) pend st2 [] [] [place_of a] st3) by exact RK1.
  pose proof (ran_trans _ _ _ _ _ _ _ _ _ _ _ _ X RK1') as Y.
  rewrite !app_nil_r in Y.
  assert (RK2' : ran (cr ++ created a ++ created b) (us ++ (uses a ++ uses b) ++ [place_of a]) pend st3 [] [] [place_of b] st4).
  { repeat rewrite <- app_assoc. repeat rewrite <- app_assoc in RK2. exact RK2. }
  pose proof (ran_trans _ _ _ _ _ _ _ _ _ _ _ _ Y RK2') as Z.
  rewrite !app_nil_r in Z. rewrite <- !app_assoc in Z. exact Z.
Qed.

Lemma names_ran names : forall cr us pend dead st, coupled cr us pend dead st -> ready (names_of names) st ->
  ran cr us pend st (names_of names) (named names) [] (push_names names st).
Proof.
  induction names as [|[n ty] l IH]; intros cr us pend dead st C R.
  - exact (ran_nil _ _ _ _ _ C).
  - cbn [names_of named push_names map fst snd] in *. destruct (ready_cons _ _ _ R) as [N R2].
    destruct (push_grows (RName n) ty st N) as [G1 O1].
    pose proof (push_tracked _ _ _ _ _ _ ty C N) as C1.
    assert (R0 : ran cr us pend st [RName n] [(RName n, ty)] [] (push (RName n) ty st)).
    { exists dead. rewrite app_nil_r. auto. }
    exact (ran_trans0 _ _ _ _ _ _ _ _ _ _ _ R0 (IH _ _ _ _ _ C1 (R2 _ O1))).
Qed.

Ltac dov H st E :=
  match type of H with match ?X with Some _ => _ | None => None end = _ =>
    destruct X as [st|] eqn:E; [|discriminate] end.

Lemma found_add cr st j pl te a id : found cr st j pl te -> j <> id -> (forall t, ~ In (RAnon id, t) cr) ->
  found cr (add_ref st a (RAnon id)) j pl te.
Proof.
  intros (k & mp & tr & A & B & C & D) N NI. exists k, mp, tr.
  split. { rewrite add_lookup. destruct (ref_eqb (RAnon id) (RAnon j)) eqn:E; [apply ref_eqb_eq in E; congruence|exact A]. }
  split; [exact B|].
  split; [|exact D]. rewrite add_lookup. destruct (ref_eqb (RAnon id) (fst pl)) eqn:E; [|exact C].
  apply ref_eqb_eq in E. exfalso. apply (NI tr). rewrite E. exact B.
Qed.

Lemma id_in e : In (RAnon (id_of e)) (ids e).
Proof. destruct e as [id ty k]. cbn [id_of ids]. left. reflexivity. Qed.

(** An element of an array of wires. *)
Lemma element_good a i : good a -> good i -> forall id ty n, is_element a i = Some n -> good (E id ty (KIndex a i)).
Proof.
  intros GA GI id ty n EL cr us pend dead st st' C H R S IG.
  cbn [visit visit_kind produces_new_resource ids created uses id_of ty_of place_of simple] in *.
  rewrite EL in *. cbn [app] in IG |- *.
  unfold is_element in EL. destruct (is_linear (ty_of a)) eqn:LA; [|discriminate].
  destruct (kind_of i) as [|z| | | | | | | | | | | | | | | ] eqn:KI; try discriminate. injection EL as <-.
  destruct S as (SA & SI & P).
  destruct (ready_cons _ _ _ R) as [N R2]. destruct (push_grows (RAnon id) ty st N) as [G0 O0].
  destruct (not_yet _ _ _ _ _ _ C N) as (_ & _ & NP).
  pose proof (push_pending _ _ _ _ _ _ ty C N) as C0.
  set (st0 := push (RAnon id) ty st) in *.
  dov H st1 E1. dov H st2 E2.
  destruct (z <? 0)%Z; [discriminate|]. dov H st3 E3.
  destruct (ready_app _ _ _ (R2 _ O0)) as [Ra Rb].
  destruct (GA _ _ _ _ _ _ C0 E1 Ra SA (incl_app_l _ _ _ IG)) as [RNa Fa]. pose proof RNa as (d1 & C1 & G1 & O1).
  destruct (GI _ _ _ _ _ _ C1 E2 (Rb _ O1) SI (incl_assoc _ _ _ IG)) as [RNb Fb]. pose proof RNb as (d2 & C2 & G2 & O2).
  assert (Fa2 : found ((cr ++ created a) ++ created i) st2 (id_of a) (place_of a) (ty_of a)).
  { apply (found_grows _ _ _ _ _ _ _ Fa G2). intros x Hx. apply in_or_app. auto. }
  destruct (alias_sub_found _ _ _ _ _ _ _ _ _ _ _ _ C2 Fa2 P E3) as (k & p & tr & -> & I1 & L1 & W1 & AL).
  destruct (redirect _ _ _ _ _ _ _ _ _ p C2 NP I1 L1) as [d3 C3].
  destruct (c_pend _ _ _ _ _ C2 (RAnon id) (or_introl eq_refl)) as (k0 & L0 & UK & NI).
  assert (NE : id_of i <> id).
  { intros X. destruct R as [ND _]. apply NoDup_cons_iff in ND. apply (proj1 ND). apply in_or_app. right. rewrite <- X. apply id_in. }
  pose proof (found_add _ _ _ _ _ (k, p) _ Fb NE NI) as Fb3.
  destruct (consume_ran _ _ _ _ _ _ _ _ _ C3 Fb3 H) as [RK KF]. destruct RK as (d4 & C4 & G4 & O4).
  assert (FE : found ((cr ++ created a) ++ created i) (add_ref st2 (k, p) (RAnon id)) id
                 (extend (place_of a) (SIdx (Z.to_nat z))) ty).
  { exists k, p, tr. split; [rewrite add_lookup, ref_eqb_refl; reflexivity|]. unfold extend. cbn [fst snd].
    split; [exact I1|]. split; [|split; [exact W1|exact AL]].
    rewrite add_lookup. destruct (ref_eqb (RAnon id) (fst (place_of a))) eqn:X; [|exact L1].
    apply ref_eqb_eq in X. exfalso. apply (NI tr). rewrite X. exact I1. }
  split.
  - exists d4. rewrite app_nil_r in C4. repeat rewrite <- app_assoc in C4. split; [exact C4|]. split.
    + intros r b L. apply G4. rewrite add_lookup. destruct (ref_eqb (RAnon id) r) eqn:X.
      * apply ref_eqb_eq in X. congruence.
      * apply G2, G1, G0, L.
    + intros r L NR. apply O4; [|intros []]. rewrite add_lookup. destruct (ref_eqb (RAnon id) r) eqn:X.
      * apply ref_eqb_eq in X. exfalso. apply NR. left. exact X.
      * apply O2; [apply O1; [apply O0; [exact L|]|]|]; intros Y; apply NR.
        -- destruct Y as [Y|[]]. left. exact Y.
        -- right. apply in_or_app. left. exact Y.
        -- right. apply in_or_app. right. exact Y.
  - rewrite app_assoc. apply KF. exact FE.
Qed.

Theorem visiting : (forall e, good e) /\ (forall k, good_kind k) /\ (forall l, good_list l)
  /\ (forall l, good_arms l) /\ (forall l, good_stmts l).
Proof.
  apply syntax_ind; unfold good_kind.
  - intros id ty k IH. apply IH.
  - (* name *)
    intros n id ty cr us pend dead st st' C H R S IG.
    cbn [visit visit_kind produces_new_resource ids created uses id_of ty_of place_of simple] in *.
    destruct (ready_cons _ _ _ R) as [N _]. rewrite app_nil_r in *.
    exact (name_found _ _ _ _ _ _ _ _ _ C IG S N H).
  - (* integer *)
    intros z id ty cr us pend dead st st' C H R S IG.
    cbn [visit visit_kind produces_new_resource ids created uses id_of ty_of place_of simple] in *.
    apply (fresh_good _ _ _ _ _ _ _ _ _ _ _ C R IG). intros d C1 R1 I1. injection H as <-. exact (ran_nil _ _ _ _ _ C1).
  - (* literal *)
    intros id ty cr us pend dead st st' C H R S IG.
    cbn [visit visit_kind produces_new_resource ids created uses id_of ty_of place_of simple] in *.
    apply (fresh_good _ _ _ _ _ _ _ _ _ _ _ C R IG). intros d C1 R1 I1. injection H as <-. exact (ran_nil _ _ _ _ _ C1).
  - (* tuple, array *)
    intros l IH id ty cr us pend dead st st' C H R S IG.
    cbn [visit visit_kind produces_new_resource ids created uses id_of ty_of place_of simple] in *.
    apply (fresh_good _ _ _ _ _ _ _ _ _ _ _ C R IG). intros d C1 R1 I1.
    exact (proj1 (IH _ _ _ _ _ _ C1 R1 S I1) H).
  - (* [a; n] *)
    intros a IH n id ty cr us pend dead st st' C H R S IG.
    cbn [visit visit_kind produces_new_resource ids created uses id_of ty_of place_of simple] in *.
    apply (fresh_good _ _ _ _ _ _ _ _ _ _ _ C R IG). intros d C1 R1 I1.
    dov H st1 E1. dov H st2 E2.
    destruct (IH _ _ _ _ _ _ C1 E1 R1 S I1) as [RN F]. pose proof RN as (d2 & C2 & G2 & O2).
    destruct (consume_id_step _ _ _ _ _ _ _ _ _ C2 F E2) as (C3 & X3 & _).
    pose proof (found_refs _ _ _ _ _ _ X3 F) as F3.
    destruct (consume_id_step _ _ _ _ _ _ _ _ _ C3 F3 H) as (C4 & X4 & Z4).
    assert (NW : forall q, ~ wire (ty_of a) q).
    { intros q W. pose proof (Z4 q W) as Z. rewrite count_app, count_one, ref_eqb_refl in Z. cbn [andb] in Z.
      replace (is_prefix (snd (place_of a)) (snd (place_of a) ++ q)) with true in Z
        by (symmetry; apply is_prefix_spec; eauto). lia. }
    pose proof (found_refs _ _ _ _ _ _ X4 F3) as F4.
    pose proof (neutral _ _ _ _ _ _ _ _ n C2 F NW) as CN.
    exists d2. split.
    + rewrite app_assoc. apply (coupled_counts _ _ _ _ _ _ C4).
      * intros r t q I W. rewrite !count_app, repeat_count, (unused_place _ _ _ _ _ _ _ _ C2 F NW r t q I W). lia.
      * intros p I. exact (c_used _ _ _ _ _ CN _ I).
    + split; [intros r b L; rewrite X4, X3; exact (G2 _ _ L)|intros r L NR; rewrite X4, X3; exact (O2 _ L NR)].
  - (* index *)
    intros a IHa i IHi id ty. destruct (is_element a i) as [n|] eqn:EL; [exact (element_good _ _ IHa IHi _ _ _ EL)|].
    intros cr us pend dead st st' C H R S IG.
    cbn [visit visit_kind produces_new_resource ids created uses id_of ty_of place_of simple] in *.
    rewrite EL in *. destruct S as (SA & SI & _).
    apply (fresh_good _ _ _ _ _ _ _ _ _ _ _ C R IG). intros d C1 R1 I1.
    dov H st1 E1. dov H st2 E2. dov H st3 E3.
    assert (E3' : consume st2 a = Some st3).
    { unfold is_element in EL. destruct (is_linear (ty_of a)); [|exact E3]. destruct (kind_of i); discriminate. }
    pose proof (used_two _ _ IHa IHi _ _ _ _ _ _ _ _ _ C1 E1 E2 E3' H R1 SA SI I1) as X. exact X.
  - (* range *)
    intros a IH id ty cr us pend dead st st' C H R S IG.
    cbn [visit visit_kind produces_new_resource ids created uses id_of ty_of place_of simple] in *.
    apply (fresh_good _ _ _ _ _ _ _ _ _ _ _ C R IG). intros d C1 R1 I1.
    dov H st1 E1. exact (used _ IH _ _ _ _ _ _ _ C1 E1 H R1 S I1).
  - (* part *)
    intros a IH s id ty cr us pend dead st st' C H R S IG.
    cbn [visit visit_kind produces_new_resource ids created uses id_of ty_of place_of simple] in *.
    destruct S as [SA P]. dov H st1 E1.
    assert (RA : ready (ids a) st).
    { destruct R as [ND F]. apply NoDup_cons_iff in ND. split; [apply ND|]. intros r I. apply F. right. exact I. }
    destruct (IH _ _ _ _ _ _ C E1 RA SA IG) as [RN F]. destruct RN as (d1 & C1 & G1 & O1).
    destruct (alias_sub_found _ _ _ _ _ _ _ _ _ _ _ _ C1 F P H) as (k & p & tr & -> & I1 & L1 & W1 & AL).
    destruct R as [ND FR]. apply NoDup_cons_iff in ND.
    assert (N : lookup (refs st1) (RAnon id) = None) by (apply O1; [apply FR; left; reflexivity|apply ND]).
    destruct (add_grows (RAnon id) (k, p) st1 N) as [G2 O2].
    split.
    + exists d1. split; [exact (alias_step _ _ _ _ _ _ _ _ _ p C1 N I1 L1)|].
      split; [exact (grows_trans _ _ _ G1 G2)|].
      intros r L NR. apply O2; [apply O1; [exact L|]|]; intros Y; apply NR; [right; exact Y|left; destruct Y as [Y|[]]; exact Y].
    + exists k, p, tr. unfold extend. cbn [fst snd]. split; [rewrite add_lookup, ref_eqb_refl; reflexivity|].
      split; [exact I1|]. split; [exact (G2 _ _ L1)|]. split; [exact W1|exact AL].
  - (* cast *)
    intros a IH id ty cr us pend dead st st' C H R S IG.
    cbn [visit visit_kind produces_new_resource ids created uses id_of ty_of place_of simple] in *.
    destruct S as [SA NW].
    apply (fresh_good _ _ _ _ _ _ _ _ _ _ _ C R IG). intros d C1 R1 I1.
    exact (skipped _ IH _ _ _ _ _ _ C1 H NW R1 SA I1).
  - (* binary *)
    intros a IHa b IHb id ty cr us pend dead st st' C H R S IG.
    cbn [visit visit_kind produces_new_resource ids created uses id_of ty_of place_of simple] in *.
    destruct S as [SA SB].
    apply (fresh_good _ _ _ _ _ _ _ _ _ _ _ C R IG). intros d C1 R1 I1.
    dov H st1 E1. dov H st2 E2. dov H st3 E3.
    exact (used_two _ _ IHa IHb _ _ _ _ _ _ _ _ _ C1 E1 E2 E3 H R1 SA SB I1).
  - (* unary *)
    intros a IH id ty cr us pend dead st st' C H R S IG.
    cbn [visit visit_kind produces_new_resource ids created uses id_of ty_of place_of simple] in *.
    apply (fresh_good _ _ _ _ _ _ _ _ _ _ _ C R IG). intros d C1 R1 I1.
    dov H st1 E1. exact (used _ IH _ _ _ _ _ _ _ C1 E1 H R1 S I1).
  - (* & and * *)
    intros a IH id ty cr us pend dead st st' C H R S IG.
    cbn [visit visit_kind produces_new_resource ids created uses id_of ty_of place_of simple] in *.
    apply (fresh_good _ _ _ _ _ _ _ _ _ _ _ C R IG). intros d C1 R1 I1.
    exact (proj1 (IH _ _ _ _ _ _ C1 H R1 S I1)).
  - (* match *)
    intros c IHc l IHl id ty cr us pend dead st st' C H R S IG.
    cbn [visit visit_kind produces_new_resource ids created uses id_of ty_of place_of simple] in *.
    destruct S as (SC & NW & SL).
    apply (fresh_good _ _ _ _ _ _ _ _ _ _ _ C R IG). intros d C1 R1 I1.
    dov H st1 E1. rewrite app_assoc.
    destruct (ready_app _ _ _ R1) as [Rc _].
    refine (seq_ran _ _ _ _ _ _ _ _ _ _ _ _ (skipped _ IHc _ _ _ _ _ _ C1 E1 NW Rc SC (incl_app_l _ _ _ I1)) R1 I1 _).
    intros d2 C2 R2 I2. exact (IHl _ _ _ _ _ _ C2 R2 SL I2 H).
  - (* block *)
    intros l IHl r IHr id ty cr us pend dead st st' C H R S IG.
    cbn [visit visit_kind produces_new_resource ids created uses id_of ty_of place_of simple] in *.
    destruct S as (SL & SR).
    apply (fresh_good _ _ _ _ _ _ _ _ _ _ _ C R IG). intros d C1 R1 I1.
    dov H st1 E1. destruct (ready_app _ _ _ R1) as [Rc _].
    refine (seq_ran _ _ _ _ _ _ _ _ _ _ _ _ (IHl _ _ _ _ _ _ C1 Rc SL (incl_app_l _ _ _ I1) E1) R1 I1 _).
    intros d2 C2 R2 I2. exact (proj1 (IHr _ _ _ _ _ _ C2 R2 SR I2) H).
  - (* call *)
    intros reads l IH id ty cr us pend dead st st' C H R S IG.
    cbn [visit visit_kind produces_new_resource ids created uses id_of ty_of place_of simple] in *.
    apply (fresh_good _ _ _ _ _ _ _ _ _ _ _ C R IG). intros d C1 R1 I1.
    destruct reads; [exact (proj1 (proj2 (IH _ _ _ _ _ _ C1 R1 S I1)) H)|exact (proj1 (IH _ _ _ _ _ _ C1 R1 S I1) H)].
  - (* if *)
    intros c IHc t IHt f IHf id ty cr us pend dead st st' C H R S IG.
    cbn [visit visit_kind produces_new_resource ids created uses id_of ty_of place_of simple] in *.
    destruct S as (SC & ST & SF & NC & NT & NF).
    apply (fresh_good _ _ _ _ _ _ _ _ _ _ _ C R IG). intros d C1 R1 I1.
    dov H st1 E1. dov H st2 E2.
    destruct (ready_app _ _ _ R1) as [Rc Rx].
    destruct (IHc _ _ _ _ _ _ C1 E1 Rc SC (incl_app_l _ _ _ I1)) as [RNc Fc]. pose proof RNc as (d2 & C2 & G2 & O2).
    pose proof (incl_assoc _ _ _ I1) as I2. destruct (ready_app _ _ _ (Rx _ O2)) as [Rt Ry].
    destruct (IHt _ _ _ _ _ _ C2 E2 Rt ST (incl_app_l _ _ _ I2)) as [RNt Ft]. pose proof RNt as (d3 & C3 & G3 & O3).
    pose proof (incl_assoc _ _ _ I2) as I3.
    destruct (IHf _ _ _ _ _ _ C3 H (Ry _ O3) SF I3) as [RNf Ff]. pose proof RNf as (d4 & C4 & G4 & O4).
    set (o := [(RAnon id, ty)]) in *.
    assert (Fc' : found ((((cr ++ o) ++ created c) ++ created t) ++ created f) st' (id_of c) (place_of c) (ty_of c)).
    { apply (found_grows _ _ _ _ _ _ _ Fc (grows_trans _ _ _ G3 G4)). intros x Hx. apply in_or_app. left. apply in_or_app. auto. }
    assert (Ft' : found ((((cr ++ o) ++ created c) ++ created t) ++ created f) st' (id_of t) (place_of t) (ty_of t)).
    { apply (found_grows _ _ _ _ _ _ _ Ft G4). intros x Hx. apply in_or_app. auto. }
    pose proof (neutral _ _ _ _ _ _ _ _ 1 C4 Fc' (not_linear _ NC)) as C5.
    pose proof (neutral _ _ _ _ _ _ _ _ 1 C5 Ft' (not_linear _ NT)) as C6.
    pose proof (neutral _ _ _ _ _ _ _ _ 1 C6 Ff (not_linear _ NF)) as C7.
    exists d4. cbn [repeat] in C7. repeat rewrite <- app_assoc in C7. cbn [app] in C7.
    repeat rewrite <- app_assoc. split; [exact C7|].
    split; [exact (grows_trans _ _ _ G2 (grows_trans _ _ _ G3 G4))|].
    exact (only_trans _ _ _ _ _ O2 (only_trans _ _ _ _ _ O3 O4)).
  - (* pipeline reference *)
    intros n tn declares id ty cr us pend dead st st' C H R S IG.
    cbn [visit visit_kind produces_new_resource ids created uses id_of ty_of place_of simple] in *.
    destruct declares.
    + destruct R as [ND FR].
      assert (N : lookup (refs st) (RName n) = None) by (apply FR; right; left; reflexivity).
      assert (N0 : lookup (refs st) (RAnon id) = None) by (apply FR; left; reflexivity).
      destruct (push_grows (RName n) tn st N) as [G1 O1].
      pose proof (push_tracked _ _ _ _ _ _ tn C N) as C1.
      assert (N1 : lookup (refs (push (RName n) tn st)) (RAnon id) = None).
      { apply O1; [exact N0|]. intros [X|[]]. discriminate. }
      destruct (name_found _ _ _ _ _ _ _ _ _ C1 IG S N1 H) as [(d & C2 & G2 & O2) F].
      split; [|exact F]. exists d. rewrite app_nil_r in C2. split; [exact C2|].
      split; [exact (grows_trans _ _ _ G1 G2)|].
      intros r L NR. apply O2; [apply O1; [exact L|]|]; intros Y; apply NR; destruct Y as [Y|[]]; [right; left; exact Y|left; exact Y].
    + destruct (ready_cons _ _ _ R) as [N _]. rewrite app_nil_r in *.
      exact (name_found _ _ _ _ _ _ _ _ _ C IG S N H).
  - (* no expressions *)
    intros cr us pend dead st st' C R S IG. repeat split; intros H; try intros _; injection H as <-; exact (ran_nil _ _ _ _ _ C).
  - (* expressions *)
    intros e IHe l IHl cr us pend dead st st' C R S IG.
    cbn [visit_consume visit_all ids_l simple_l created_l uses_l only_inside no_wires] in *.
    destruct S as [SE SL]. destruct (ready_app _ _ _ R) as [Re _]. split; [|split].
    + intros H. dov H st1 E1. dov H st2 E2. rewrite (app_assoc (uses e)).
      refine (seq_ran _ _ _ _ _ _ _ _ _ _ _ _ (used _ IHe _ _ _ _ _ _ _ C E1 E2 Re SE (incl_app_l _ _ _ IG)) R IG _).
      intros d C2 R2 I2. exact (proj1 (IHl _ _ _ _ _ _ C2 R2 SL I2) H).
    + intros H. dov H st1 E1.
      refine (seq_ran _ _ _ _ _ _ _ _ _ _ _ _ (proj1 (IHe _ _ _ _ _ _ C E1 Re SE (incl_app_l _ _ _ IG))) R IG _).
      intros d C2 R2 I2. exact (proj1 (proj2 (IHl _ _ _ _ _ _ C2 R2 SL I2)) H).
    + intros H [NW NL]. dov H st1 E1. rewrite (app_assoc (uses e)).
      refine (seq_ran _ _ _ _ _ _ _ _ _ _ _ _ (skipped _ IHe _ _ _ _ _ _ C E1 NW Re SE (incl_app_l _ _ _ IG)) R IG _).
      intros d C2 R2 I2. exact (proj2 (proj2 (IHl _ _ _ _ _ _ C2 R2 SL I2)) H NL).
  - (* no arms *)
    intros cr us pend dead st st' C R S IG H. injection H as <-. exact (ran_nil _ _ _ _ _ C).
  - (* arms *)
    intros p g IHg e IHe l IHl cr us pend dead st st' C R S IG H.
    cbn [visit_arms ids_arms simple_arms created_arms uses_arms] in *.
    destruct S as (SP & SG & NG & SE & NE & SL).
    dov H st1 E1. dov H st2 E2. dov H st3 E3. destruct (ready_app _ _ _ R) as [Rp _].
    refine (seq_ran _ _ _ _ _ _ [] _ _ _ _ _ (proj1 (proj1 patterns p _ _ _ _ _ _ C E1 Rp SP (incl_app_l _ _ _ IG))) R IG _).
    intros d C2 R2 I2. destruct (ready_app _ _ _ R2) as [Rg _].
    refine (seq_ran _ _ _ _ _ _ _ _ _ _ _ _ (proj2 (proj2 (IHg _ _ _ _ _ _ C2 Rg SG (incl_app_l _ _ _ I2))) E2 NG) R2 I2 _).
    intros d3 C3 R3 I3. destruct (ready_app _ _ _ R3) as [Re _]. rewrite (app_assoc (uses e)).
    refine (seq_ran _ _ _ _ _ _ _ _ _ _ _ _ (skipped _ IHe _ _ _ _ _ _ C3 E3 NE Re SE (incl_app_l _ _ _ I3)) R3 I3 _).
    intros d4 C4 R4 I4. exact (IHl _ _ _ _ _ _ C4 R4 SL I4 H).
  - (* no statements *)
    intros cr us pend dead st st' C R S IG H. injection H as <-. exact (ran_nil _ _ _ _ _ C).
  - (* let *)
    intros p e IHe l IHl cr us pend dead st st' C R S IG H.
    cbn [visit_stmts ids_stmts simple_stmts created_stmts uses_stmts] in *.
    destruct S as (SP & SE & SL). dov H st1 E1. dov H st2 E2. dov H st3 E3.
    destruct (ready_app _ _ _ R) as [Re _]. rewrite (app_assoc (uses e)).
    refine (seq_ran _ _ _ _ _ _ _ _ _ _ _ _ (used _ IHe _ _ _ _ _ _ _ C E1 E2 Re SE (incl_app_l _ _ _ IG)) R IG _).
    intros d2 C2 R2 I2. destruct (ready_app _ _ _ R2) as [Rp _].
    refine (seq_ran _ _ _ _ _ _ [] _ _ _ _ _ (proj1 (proj1 patterns p _ _ _ _ _ _ C2 E3 Rp SP (incl_app_l _ _ _ I2))) R2 I2 _).
    intros d3 C3 R3 I3. exact (IHl _ _ _ _ _ _ C3 R3 SL I3 H).
  - (* expression statement *)
    intros e IHe l IHl cr us pend dead st st' C R S IG H.
    cbn [visit_stmts ids_stmts simple_stmts created_stmts uses_stmts] in *.
    destruct S as (SE & SL). dov H st1 E1. destruct (ready_app _ _ _ R) as [Re _].
    refine (seq_ran _ _ _ _ _ _ _ _ _ _ _ _ (proj1 (IHe _ _ _ _ _ _ C E1 Re SE (incl_app_l _ _ _ IG))) R IG _).
    intros d2 C2 R2 I2. exact (IHl _ _ _ _ _ _ C2 R2 SL I2 H).
  - (* register *)
    intros p clk IHc reset IHr initial IHi value IHv l IHl cr us pend dead st st' C R S IG H.
    cbn [visit_stmts ids_stmts simple_stmts created_stmts uses_stmts] in *.
    destruct S as (SP & SC & NC & SR & NR & SI & NI & SV & SL).
    dov H st1 E1. dov H st2 E2. dov H st3 E3. dov H st4 E4. dov H st5 E5. dov H st6 E6.
    destruct (ready_app _ _ _ R) as [Rp _].
    refine (seq_ran _ _ _ _ _ _ [] _ _ _ _ _ (proj1 (proj1 patterns p _ _ _ _ _ _ C E1 Rp SP (incl_app_l _ _ _ IG))) R IG _).
    intros d2 C2 R2 I2. destruct (ready_app _ _ _ R2) as [Rc _]. rewrite (app_assoc (uses clk)).
    refine (seq_ran _ _ _ _ _ _ _ _ _ _ _ _ (skipped _ IHc _ _ _ _ _ _ C2 E2 NC Rc SC (incl_app_l _ _ _ I2)) R2 I2 _).
    intros d3 C3 R3 I3. destruct (ready_app _ _ _ R3) as [Rr _].
    refine (seq_ran _ _ _ _ _ _ _ _ _ _ _ _ (proj2 (proj2 (IHr _ _ _ _ _ _ C3 Rr SR (incl_app_l _ _ _ I3))) E3 NR) R3 I3 _).
    intros d4 C4 R4 I4. destruct (ready_app _ _ _ R4) as [Ri _].
    refine (seq_ran _ _ _ _ _ _ _ _ _ _ _ _ (proj2 (proj2 (IHi _ _ _ _ _ _ C4 Ri SI (incl_app_l _ _ _ I4))) E4 NI) R4 I4 _).
    intros d5 C5 R5 I5. destruct (ready_app _ _ _ R5) as [Rv _]. rewrite (app_assoc (uses value)).
    refine (seq_ran _ _ _ _ _ _ _ _ _ _ _ _ (used _ IHv _ _ _ _ _ _ _ C5 E5 E6 Rv SV (incl_app_l _ _ _ I5)) R5 I5 _).
    intros d6 C6 R6 I6. exact (IHl _ _ _ _ _ _ C6 R6 SL I6 H).
  - (* declaration *)
    intros names l IHl cr us pend dead st st' C R S IG H.
    cbn [visit_stmts ids_stmts simple_stmts created_stmts uses_stmts] in *.
    destruct (ready_app _ _ _ R) as [Rn _].
    refine (seq_ran _ _ _ _ _ _ [] _ _ _ _ _ (names_ran _ _ _ _ _ _ C Rn) R IG _).
    intros d2 C2 R2 I2. exact (IHl _ _ _ _ _ _ C2 R2 S I2 H).
  - (* condition *)
    intros e IHe l IHl cr us pend dead st st' C R S IG H.
    cbn [visit_stmts ids_stmts simple_stmts created_stmts uses_stmts] in *.
    destruct S as (SE & NE & SL). dov H st1 E1. destruct (ready_app _ _ _ R) as [Re _]. rewrite (app_assoc (uses e)).
    refine (seq_ran _ _ _ _ _ _ _ _ _ _ _ _ (skipped _ IHe _ _ _ _ _ _ C E1 NE Re SE (incl_app_l _ _ _ IG)) R IG _).
    intros d2 C2 R2 I2. exact (IHl _ _ _ _ _ _ C2 R2 SL I2 H).
  - (* skip *)
    intros l IHl cr us pend dead st st' C R S IG H. exact (IHl _ _ _ _ _ _ C R S IG H).
  - (* set *)
    intros t IHt v IHv l IHl cr us pend dead st st' C R S IG H.
    cbn [visit_stmts ids_stmts simple_stmts created_stmts uses_stmts] in *.
    destruct S as (ST & SV & SL). dov H st1 E1. dov H st2 E2. dov H st3 E3. dov H st4 E4.
    rewrite (app_assoc (ids t)) in R |- *. rewrite (app_assoc (created t)) in IG |- *.
    destruct (ready_app _ _ _ R) as [Rb _].
    replace (uses t ++ uses v ++ [place_of t; place_of v] ++ uses_stmts l)
      with ((uses t ++ uses v ++ [place_of t; place_of v]) ++ uses_stmts l) by (repeat rewrite <- app_assoc; reflexivity).
    refine (seq_ran _ _ _ _ _ _ _ _ _ _ _ _
      (used_two _ _ IHt IHv _ _ _ _ _ _ _ _ _ C E1 E2 E3 E4 Rb ST SV (incl_app_l _ _ _ IG)) R IG _).
    intros d2 C2 R2 I2. exact (IHl _ _ _ _ _ _ C2 R2 SL I2 H).
Qed.
End Check.

(** * A unit *)
Lemma nodup_one (l : list (ref * cty)) : NoDup (map fst l) ->
  forall r t t', In (r, t) l -> In (r, t') l -> t = t'.
Proof.
  induction l as [|[x a] l IH]; intros N r t t' I J; [contradiction|].
  cbn [map fst] in N. apply NoDup_cons_iff in N. destruct N as [N1 N2].
  destruct I as [I|I], J as [J|J].
  - congruence.
  - injection I as -> ->. exfalso. apply N1. apply (in_map fst) in J. exact J.
  - injection J as -> ->. exfalso. apply N1. apply (in_map fst) in I. exact I.
  - exact (IH N2 _ _ _ I J).
Qed.

(** The created values are some of the references, in the same order. *)
Inductive subseq : list ref -> list ref -> Prop :=
| SubNil : subseq [] []
| SubSkip x a b : subseq a b -> subseq a (x :: b)
| SubTake x a b : subseq a b -> subseq (x :: a) (x :: b).
Lemma subseq_refl a : subseq a a.
Proof. induction a; constructor; assumption. Qed.
Lemma subseq_app a b c d : subseq a b -> subseq c d -> subseq (a ++ c) (b ++ d).
Proof. intros H K. induction H; cbn [app]; [exact K|constructor; assumption|constructor; assumption]. Qed.
Lemma subseq_in a b x : subseq a b -> In x a -> In x b.
Proof. induction 1; intros I; [exact I|right; auto|destruct I as [->|I]; [left; reflexivity|right; auto]]. Qed.
Lemma subseq_nodup a b : subseq a b -> NoDup b -> NoDup a.
Proof.
  induction 1 as [|x a b S IH|x a b S IH]; intros N; [exact N| |]; apply NoDup_cons_iff in N; destruct N as [N1 N2].
  - auto.
  - constructor; [|auto]. intros I. apply N1. exact (subseq_in _ _ _ S I).
Qed.

Lemma created_subseq_pats : (forall p, subseq (map fst (created_pat p)) (ids_pat p))
  /\ (forall l, subseq (map fst (created_pats l)) (ids_pats l)).
Proof.
  apply pat_pats_ind; cbn [created_pat created_pats ids_pat ids_pats map].
  - constructor.
  - intros id ty n inner IH pre. constructor. destruct pre; cbn [app map fst]; [assumption|constructor; assumption].
  - auto.
  - constructor.
  - intros p IHp l IHl. rewrite map_app. apply subseq_app; assumption.
Qed.

Lemma created_subseq : (forall e, subseq (map fst (created e)) (ids e))
  /\ (forall k, forall id ty, subseq (map fst (created (E id ty k))) (ids (E id ty k)))
  /\ (forall l, subseq (map fst (created_l l)) (ids_l l))
  /\ (forall l, subseq (map fst (created_arms l)) (ids_arms l))
  /\ (forall l, subseq (map fst (created_stmts l)) (ids_stmts l)).
Proof.
  apply syntax_ind; intros; auto;
    cbn [created created_l created_arms created_stmts ids ids_l ids_arms ids_stmts map fst app];
    repeat rewrite map_app; repeat (apply subseq_app || assumption); auto using subseq_refl, SubTake, SubSkip, SubNil, subseq_app.
  - destruct (is_element a i); cbn [map fst app]; [apply SubSkip|apply SubTake]; apply subseq_app; assumption.
  - destruct declares; cbn [map fst]; auto using SubTake, SubSkip, SubNil.
  - apply created_subseq_pats.
  - apply created_subseq_pats.
  - apply created_subseq_pats.
  - unfold named, names_of. rewrite map_map. apply subseq_refl.
Qed.

Lemma start_coupled : coupled [] [] [] [] {| heap := []; refs := []; aliases := [] |}.
Proof. constructor; cbn; try discriminate; try contradiction; auto. Qed.

Theorem accepted_once u : distinct_ids u -> simple_unit u -> check_linear_types u = true ->
  forall r ty q, In (r, ty) (created_unit u) -> wire ty q -> use_count (uses_unit u) r q = 1.
Proof.
  intros D S H r ty q I W. unfold check_linear_types in H.
  set (st0 := {| heap := []; refs := []; aliases := [] |}) in *.
  destruct (visit (u_body u) (push_names (u_inputs u) st0)) as [st1|] eqn:E1; [|discriminate].
  destruct (consume st1 (u_body u)) as [st2|] eqn:E2; [|discriminate].
  assert (N : NoDup (map fst (created_unit u))).
  { apply (fun s => subseq_nodup _ _ s D). unfold created_unit. rewrite map_app. apply subseq_app.
    - unfold named, names_of. rewrite map_map. apply subseq_refl.
    - apply created_subseq. }
  pose proof (nodup_one _ N) as G1.
  assert (R : ready (names_of (u_inputs u) ++ ids (u_body u)) st0) by (split; [exact D|intros x _; reflexivity]).
  destruct (ready_app _ _ _ R) as [Rn Rb].
  destruct (names_ran _ _ _ _ _ _ start_coupled Rn) as (d & C & GR & ON). cbn [app] in C.
  destruct (proj1 (visiting _ G1) (u_body u) _ _ _ _ _ _ C E1 (Rb _ ON) S (incl_refl _)) as [(d1 & C1 & _ & _) F].
  destruct (consume_id_step _ _ _ _ _ _ _ _ _ C1 F E2) as (C2 & X2 & _).
  destruct (c_tree _ _ _ _ _ C2 _ _ I) as (k & t & L & HT & M).
  destruct (M q W) as [[_ B]|[A _]]; [|exact A]. exfalso.
  unfold check_unused in H. rewrite forallb_forall in H.
  specialize (H _ (lookup_in _ _ _ L)). cbn [fst snd] in H. rewrite HT in H. cbn [get] in H.
  exact (no_unused_get _ H q (wire_no_view _ _ W) B).
Qed.
