(** A compiled unit computes what its source means. *)
From Coq Require Import ZArith List Bool String Arith Lia.
From Verif Require Import LamModel LamSpec LamProofs.
Import ListNotations.
Open Scope nat_scope.

Lemma lookup_id_cons {A} i j (a : A) l : lookup_id i ((j, a) :: l) = if Nat.eqb i j then Some a else lookup_id i l.
Proof. unfold lookup_id. cbn [find fst]. destruct (Nat.eqb i j); reflexivity. Qed.
Lemma lookup_id_in {A} i (a : A) l : lookup_id i l = Some a -> In (i, a) l.
Proof.
  unfold lookup_id. destruct (find _ l) as [[j b]|] eqn:F; [|discriminate]. intros H. inversion H; subst.
  apply find_some in F as [F1 F2]. cbn in F2. apply Nat.eqb_eq in F2. subst. exact F1.
Qed.
Lemma lookup_id_nodup {A} i (a : A) l : NoDup (map fst l) -> In (i, a) l -> lookup_id i l = Some a.
Proof.
  induction l as [|[j b] l IH]; cbn [map fst]; intros N H; [destruct H|]. inversion N; subst. rewrite lookup_id_cons.
  destruct H as [H|H].
  - inversion H; subst. now rewrite Nat.eqb_refl.
  - destruct (Nat.eqb_spec i j) as [->|]; [|now apply IH]. exfalso. apply H2. change j with (fst (j, a)). now apply in_map.
Qed.

Scheme hpat_mut := Induction for hpat Sort Prop with hpats_mut := Induction for hpats Sort Prop.
Combined Scheme hpat_hpats_ind from hpat_mut, hpats_mut.

Ltac split_uses :=
  repeat match goal with
  | H : _ || _ = false |- _ => apply orb_false_iff in H as [? ?]
  | H : String.eqb LAM _ = false |- _ => apply eqb_neq in H; apply not_eq_sym in H
  end.

Section Val.
Variable Q : val -> Prop.
Hypothesis HI : forall z, Q (VInt z).
Hypothesis HT : forall vs, Forall Q vs -> Q (VTup vs).
Hypothesis HC : forall id vs, Forall Q vs -> Q (VCon id vs).
Hypothesis HL : forall rho en ps ss e, Q (VClo rho en ps ss e).
Fixpoint val_rect' (v : val) : Q v :=
  let fix go l : Forall Q l := match l with [] => Forall_nil _ | a :: l => Forall_cons _ (val_rect' a) (go l) end in
  match v with
  | VInt z => HI z
  | VTup vs => HT vs (go vs)
  | VCon id vs => HC id vs (go vs)
  | VClo rho en ps ss e => HL rho en ps ss e
  end.
End Val.

Section Fixed.
Variable g : items.
Variable P : units.
Definition ing (id : nat) : bool := existsb (fun i => Nat.eqb id (fst (snd i))) g.
Hypothesis apart : forall id u, lookup_id id P = Some u -> ing id = false.
Hypothesis novar : forall x id, assoc x g <> Some (id, IsVar).

Definition incl_units (us : units) : Prop := forall id u, In (id, u) us -> lookup_id id P = Some u.
Definition agree (rho : senv) (l : list scope) : Prop :=
  forall x, x <> LAM -> match find_scope x l with Some (_, IsVar) => assoc x rho <> None | _ => assoc x rho = None end.

Inductive vrel : val -> val -> Prop :=
| R_int z : vrel (VInt z) (VInt z)
| R_tup vs ws : Forall2 vrel vs ws -> vrel (VTup vs) (VTup ws)
| R_con id vs ws : ing id = true -> Forall2 vrel vs ws -> vrel (VCon id vs) (VCon id ws)
| R_clo rho en ps ss e n l lid caps self args clock hp hs he t ws :
    good g n l -> uses LAM (ELam en ps ss e) = false ->
    visit_expression (ELam en ps ss e) {| next := n; scopes := l |} = Some (HLam lid caps self args clock hp hs he, t) ->
    incl_units (replacements (HLam lid caps self args clock hp hs he)) ->
    agree rho l ->
    Forall2 (fun c w => exists v, assoc (fst c) rho = Some v /\ vrel v w) caps ws ->
    vrel (VClo rho en ps ss e) (VCon lid ws).

Lemma ing_find x l id k : shape g l -> x <> LAM -> find_scope x l = Some (id, k) -> k <> IsVar -> ing id = true.
Proof.
  intros S N F K. specialize (S x N). rewrite F in S. destruct k; [tauto| |]; symmetry in S; unfold assoc in S;
    (destruct (find (fun p => String.eqb x (fst p)) g) as [p|] eqn:E; [|discriminate]); apply find_some in E as [E _];
    inversion S as [S']; unfold ing; apply existsb_exists; exists p; split; auto; rewrite S'; apply Nat.eqb_refl.
Qed.
Lemma clo_lid rho en ps ss e w : vrel (VClo rho en ps ss e) w -> exists lid ws, w = VCon lid ws /\ ing lid = false.
Proof.
  intros H. inversion H; subst. exists lid, ws. split; [reflexivity|]. eapply apart. apply H9. cbn [replacements]. left. reflexivity.
Qed.

Lemma plain_refl v : plain g v = true -> vrel v v.
Proof.
  induction v using val_rect'; cbn [plain]; intros H0.
  - constructor.
  - constructor. induction H as [|v vs H1 H2 IH]; [constructor|]. cbn [forallb] in H0. apply andb_true_iff in H0 as [A B]. constructor; auto.
  - apply andb_true_iff in H0 as [A0 H0]. constructor; [exact A0|]. clear A0.
    induction H as [|v vs H1 H2 IH]; [constructor|]. cbn [forallb] in H0. apply andb_true_iff in H0 as [A B]. constructor; auto.
  - discriminate.
Qed.
Lemma plain_left v : forall w, vrel v w -> plain g v = true -> v = w.
Proof.
  induction v using val_rect'; intros w R; inversion R; subst; cbn [plain]; intros H0; try discriminate; f_equal.
  - clear R. match goal with F : Forall2 vrel vs ?ws |- _ => revert ws F end. induction H as [|v vs HA HB IH]; intros ws F; inversion F; subst; [reflexivity|].
    cbn [forallb] in H0. apply andb_true_iff in H0 as [A B]. f_equal; auto.
  - apply andb_true_iff in H0 as [_ H0]. clear R. match goal with F : Forall2 vrel vs ?ws |- _ => revert ws F end. induction H as [|v vs HA HB IH]; intros ws F; inversion F; subst; [reflexivity|].
    cbn [forallb] in H0. apply andb_true_iff in H0 as [A B]. f_equal; auto.
Qed.
Lemma plain_right v : forall w, vrel v w -> plain g w = true -> v = w.
Proof.
  induction v using val_rect'; intros w R.
  1-3: inversion R; subst; cbn [plain]; intros H0; try discriminate; f_equal.
  - clear R. match goal with F : Forall2 vrel vs ?ws |- _ => revert ws H0 F end. induction H as [|v vs HA HB IH]; intros ws H0 F; inversion F; subst; [reflexivity|].
    cbn [forallb] in H0. apply andb_true_iff in H0 as [A B]. f_equal; auto.
  - apply andb_true_iff in H0 as [_ H0]. clear R. match goal with F : Forall2 vrel vs ?ws |- _ => revert ws H0 F end. induction H as [|v vs HA HB IH]; intros ws H0 F; inversion F; subst; [reflexivity|].
    cbn [forallb] in H0. apply andb_true_iff in H0 as [A B]. f_equal; auto.
  - destruct (clo_lid _ _ _ _ _ _ R) as (lid & ws & -> & L). cbn [plain]. unfold ing in L. rewrite L. discriminate.
Qed.
Fixpoint sames (l m : list val) : bool := match l, m with [], [] => true | a :: l, b :: m => same a b && sames l m | _, _ => false end.
Lemma same_rel v : forall w u, vrel v w -> plain g u = true -> same v u = same w u.
Proof.
  assert (L : forall vs, Forall (fun v => forall w u, vrel v w -> plain g u = true -> same v u = same w u) vs ->
    forall ws us, Forall2 vrel vs ws -> forallb (plain g) us = true -> sames vs us = sames ws us).
  { induction 1 as [|a vs H1 H2 IH]; intros ws us F; inversion F; subst; [reflexivity|]. destruct us as [|u us]; [reflexivity|].
    cbn [forallb sames]. intros K. apply andb_true_iff in K as [K1 K2]. rewrite (H1 _ _ H3 K1), (IH _ _ H5 K2). reflexivity. }
  induction v using val_rect'; intros w u R.
  - inversion R; subst. reflexivity.
  - inversion R; subst. destruct u; cbn [plain]; intros K; try reflexivity. match goal with F : Forall2 vrel vs ?ws |- _ => exact (L vs H ws _ F K) end.
  - inversion R; subst. destruct u; cbn [plain]; intros K; try reflexivity. apply andb_true_iff in K as [_ K].
    change (Nat.eqb id id0 && sames vs vs0 = Nat.eqb id id0 && sames ws vs0). match goal with F : Forall2 vrel vs ?ws |- _ => now rewrite (L vs H ws vs0 F K) end.
  - destruct (clo_lid _ _ _ _ _ _ R) as (lid & ws & -> & L'). destruct u; cbn [plain]; intros K; try reflexivity.
    apply andb_true_iff in K as [K _]. change (ing id = true) in K. cbn [same]. destruct (Nat.eqb_spec lid id) as [->|]; [congruence|reflexivity].
Qed.

(** * Environments *)
Definition rel (A : string -> nat -> Prop) (rho : senv) (eta : tenv) (l : list scope) : Prop :=
  forall x, x <> LAM ->
    match find_scope x l with
    | Some (id, IsVar) => exists v, assoc x rho = Some v /\ (A x id -> exists v', lookup_id id eta = Some v' /\ vrel v v')
    | _ => assoc x rho = None
    end.
Definition pend (rho : senv) (eta : tenv) (ps : list string) (l : list scope) : Prop :=
  match l with
  | [] => True
  | s :: _ =>
      forall x, x <> LAM ->
        match assoc x (decls s) with
        | Some (Some id) => existsb (String.eqb x) ps = true /\ assoc x (vars s) = Some (id, IsVar) /\
                            exists v, plain g v = true /\ assoc x rho = Some v /\ lookup_id id eta = Some v
        | _ => existsb (String.eqb x) ps = false
        end
  end.
Definition plus (A : string -> nat -> Prop) (n : nat) : string -> nat -> Prop := fun x id => A x id \/ n <= id.

Lemma rel_mono (A B : string -> nat -> Prop) rho eta l : (forall x id, B x id -> A x id) -> rel A rho eta l -> rel B rho eta l.
Proof.
  intros M H x N. specialize (H x N). destruct (find_scope x l) as [[id [| |]]|]; auto.
  destruct H as (v & H1 & H2). exists v. split; [exact H1|]. intros K. apply H2, M, K.
Qed.
Lemma rel_ext A rho eta l l' : Forall2 ext l l' -> rel A rho eta l -> rel A rho eta l'.
Proof. intros E H x N. rewrite (find_ext _ _ _ E N). now apply H. Qed.
Lemma pend_ext rho eta ps l l' : Forall2 ext l l' -> pend rho eta ps l -> pend rho eta ps l'.
Proof.
  intros E H. destruct E as [|s s' r r' (E1 & E2 & _) _]; [exact I|]. intros x N. rewrite E2, (E1 x N). now apply H.
Qed.

Definition prel (A : string -> nat -> Prop) (n : nat) (b : option bindings) (e : option tenv) (l : list scope) : Prop :=
  match b, e with
  | None, None => True
  | Some (rho, ps), Some eta => rel (plus A n) rho eta l /\ pend rho eta ps l
  | _, _ => False
  end.

Lemma fresh_rel A n s r x v v' rho eta : good g n (s :: r) -> x <> LAM -> rel A rho eta (s :: r) -> vrel v v' ->
  forall d, rel (plus A n) ((x, v) :: rho) ((n, v') :: eta) ({| vars := (x, (n, IsVar)) :: vars s; decls := d; barrier := barrier s |} :: r).
Proof.
  intros G N H V d y M. cbn [find_scope vars]. rewrite !assoc_cons. destruct (String.eqb_spec y x) as [->|NE].
  - exists v. split; [reflexivity|]. intros _. exists v'. rewrite lookup_id_cons, Nat.eqb_refl. auto.
  - specialize (H y M). change (match assoc y (vars s) with Some r0 => Some r0 | None => find_scope y r end) with (find_scope y (s :: r)).
    destruct (find_scope y (s :: r)) as [[id [| |]]|] eqn:F; auto.
    pose proof (proj1 (proj2 G) _ _ _ M F) as L. destruct H as (u & H1 & H2). exists u. split; [exact H1|].
    intros [K|K]; [|lia]. destruct (H2 K) as (u' & K1 & K2). exists u'. split; [|exact K2]. rewrite lookup_id_cons.
    destruct (Nat.eqb_spec id n); [lia|exact K1].
Qed.
Lemma fresh_pend n s r x v v' rho eta ps : good g n (s :: r) -> pend rho eta ps (s :: r) ->
  forall y, y <> LAM -> y <> x ->
    match assoc y (decls s) with
    | Some (Some id) => existsb (String.eqb y) ps = true /\ assoc y ((x, (n, IsVar)) :: vars s) = Some (id, IsVar) /\
                        exists u, plain g u = true /\ assoc y ((x, v) :: rho) = Some u /\ lookup_id id ((n, v') :: eta) = Some u
    | _ => existsb (String.eqb y) ps = false
    end.
Proof.
  intros G H y M NE. specialize (H y M). destruct (assoc y (decls s)) as [[id|]|]; auto.
  destruct H as (H1 & H2 & u & H3 & H4 & H5). rewrite !assoc_cons, lookup_id_cons. apply eqb_neq in NE. rewrite NE.
  split; [exact H1|]. split; [exact H2|]. exists u. split; [exact H3|]. split; [exact H4|].
  assert (F : find_scope y (s :: r) = Some (id, IsVar)) by (cbn [find_scope]; rewrite H2; reflexivity).
  pose proof (proj1 (proj2 G) _ _ _ M F). destruct (Nat.eqb_spec id n); [lia|exact H5].
Qed.

Lemma existsb_filter y x ps : existsb (String.eqb y) (filter (fun z => negb (String.eqb x z)) ps) = negb (String.eqb x y) && existsb (String.eqb y) ps.
Proof.
  induction ps as [|z ps IH]; cbn [filter existsb]; [now rewrite andb_false_r|].
  destruct (String.eqb_spec x z) as [->|NE]; cbn [negb existsb]; rewrite IH.
  - destruct (String.eqb_spec z y) as [->|]; cbn; [reflexivity|]. destruct (String.eqb_spec y z); [congruence|reflexivity].
  - destruct (String.eqb_spec x y) as [->|]; cbn; [|reflexivity]. destruct (String.eqb_spec y z); [congruence|reflexivity].
Qed.

Lemma bind_rel A n l x id pre t' v v' rho eta ps : good g n l -> x <> LAM -> bind_variable x {| next := n; scopes := l |} = Some (id, pre, t') ->
  rel A rho eta l -> pend rho eta ps l -> vrel v v' ->
  prel A n (bind x v (rho, ps)) (tbind id pre v' eta) (scopes t').
Proof.
  intros G N H R PE V. unfold bind_variable in H. cbn [scopes] in H. destruct l as [|s r]; [discriminate|].
  pose proof (PE x N) as PX. unfold bind, tbind. destruct (assoc x (decls s)) as [[i|]|] eqn:D; [|discriminate|].
  - destruct PX as (P1 & P2 & u & P3 & P4 & P5). inversion H; subst. cbn [with_scopes scopes]. rewrite P1, P4, P5, (same_rel _ _ _ V P3).
    destruct (same v' u); [|exact I]. split.
    + intros y M. specialize (R y M). change (find_scope y ({| vars := vars s; decls := (x, None) :: decls s; barrier := barrier s |} :: r)) with (find_scope y (s :: r)).
      destruct (find_scope y (s :: r)) as [[j [| |]]|] eqn:F; auto. pose proof (proj1 (proj2 G) _ _ _ M F).
      destruct R as (z & R1 & R2). exists z. split; [exact R1|]. intros [K|K]; [auto|lia].
    + intros y M. cbn [decls vars]. rewrite assoc_cons, existsb_filter. specialize (PE y M).
      destruct (String.eqb_spec y x) as [->|NE]; [now rewrite String.eqb_refl|].
      assert (E : String.eqb x y = false) by (apply eqb_neq; congruence). rewrite E. exact PE.
  - rewrite PX. unfold add_thing in H. cbn [scopes next] in H. inversion H; subst. cbn [scopes]. split; [now apply fresh_rel|].
    intros y M. cbn [decls vars]. destruct (String.eqb_spec y x) as [->|NE]; [rewrite D; exact PX|]. now apply (fresh_pend id s r x v v' rho eta ps G PE y M NE).
Qed.

Lemma is_variant_rel A rho eta l x : rel A rho eta l -> shape g l -> x <> LAM ->
  is_variant g rho x = match find_scope x l with Some (id, IsVariant 0) => Some id | _ => None end.
Proof.
  intros R S N. specialize (R x N). specialize (S x N). unfold is_variant.
  destruct (find_scope x l) as [[id [|[|m]|m]]|].
  - destruct R as (v & -> & _). reflexivity.
  - rewrite R, <- S. reflexivity.
  - rewrite R, <- S. reflexivity.
  - rewrite R, <- S. reflexivity.
  - rewrite R, <- S. reflexivity.
Qed.
Lemma constructor_rel A rho eta l x : rel A rho eta l -> shape g l -> x <> LAM ->
  constructor g rho x = match find_scope x l with Some (id, IsVariant _) | Some (id, IsStruct _) => Some id | _ => None end.
Proof.
  intros R S N. specialize (R x N). specialize (S x N). unfold constructor.
  destruct (find_scope x l) as [[id [|m|m]]|].
  - destruct R as (v & -> & _). reflexivity.
  - rewrite R, <- S. reflexivity.
  - rewrite R, <- S. reflexivity.
  - rewrite R, <- S. reflexivity.
Qed.

Lemma rel_plus A n m rho eta l : n <= m -> rel (plus A n) rho eta l -> rel (plus A m) rho eta l.
Proof. intros L. apply rel_mono. intros x id [K|K]; [now left|right; lia]. Qed.
Lemma prel_mono A n m b e l : n <= m -> prel (plus A n) m b e l -> prel A n b e l.
Proof.
  intros L. unfold prel. destruct b as [[rho ps]|], e; auto. intros [H1 H2]. split; [|exact H2].
  revert H1. apply rel_mono. intros x id [K|K]; [left; now left|left; now right].
Qed.
Lemma rel_add A n l rho eta : good g n l -> rel A rho eta l -> rel (plus A n) rho eta l.
Proof.
  intros G R x N. specialize (R x N). destruct (find_scope x l) as [[id [| |]]|] eqn:F; auto.
  pose proof (proj1 (proj2 G) _ _ _ N F). destruct R as (v & R1 & R2). exists v. split; [exact R1|]. intros [K|K]; [auto|lia].
Qed.

Lemma smatches_cons p ps v vs b : smatches g (PCons p ps) (v :: vs) b = match smatch g p v b with Some b => smatches g ps vs b | None => None end.
Proof. reflexivity. Qed.
Lemma tmatches_cons p ps v vs b : tmatches (HPCons p ps) (v :: vs) b = match tmatch p v b with Some b => tmatches ps vs b | None => None end.
Proof. reflexivity. Qed.

Lemma pattern_rel :
  (forall p A n l h t' v v' rho eta ps, good g n l -> pat_uses LAM p = false -> visit_pattern p {| next := n; scopes := l |} = Some (h, t') ->
     rel A rho eta l -> pend rho eta ps l -> vrel v v' -> prel A n (smatch g p v (rho, ps)) (tmatch h v' eta) (scopes t')) /\
  (forall qs A n l h t' vs vs' rho eta ps, good g n l -> pats_use LAM qs = false -> visit_patterns qs {| next := n; scopes := l |} = Some (h, t') ->
     rel A rho eta l -> pend rho eta ps l -> Forall2 vrel vs vs' -> prel A n (smatches g qs vs (rho, ps)) (tmatches h vs' eta) (scopes t')).
Proof.
  apply pat_pats_ind; cbn [visit_pattern visit_patterns pat_uses pats_use].
  - intros z A n l h t' v v' rho eta ps G U H R PE V. inversion H; subst. cbn [smatch tmatch scopes].
    inversion V; subst; cbn; auto. destruct (Z.eqb z z0); cbn; auto. split; [now apply rel_add|exact PE].
  - intros x A n l h t' v v' rho eta ps G U H R PE V. apply eqb_neq in U. assert (N : x <> LAM) by congruence. cbn [scopes] in H.
    cbn [smatch fst]. rewrite (is_variant_rel _ _ _ _ _ R (proj1 (proj2 (proj2 G))) N).
    assert (K : forall l', lookup x l = None /\ l' = l \/ (exists id k, lookup x l = Some (id, k, l')) ->
      match bind_variable x {| next := n; scopes := l' |} with Some (id, pre, t) => Some (HPBind id pre, t) | None => None end = Some (h, t') ->
      prel A n (bind x v (rho, ps)) (tmatch h v' eta) (scopes t')).
    { intros l' C E. destruct (bind_variable x {| next := n; scopes := l' |}) as [[[id pre] t]|] eqn:Eb; [|discriminate]. inversion E; subst. cbn [tmatch].
      assert (X : good g n l' /\ Forall2 ext l l').
      { destruct C as [[_ ->]|(i & k & L)]; [split; [exact G|apply exts_refl]|].
        destruct (lookup_step _ _ _ _ _ _ _ G N L) as (X1 & _). split; [exact X1|]. exact (proj1 (proj2 (lookup_some _ _ _ _ _ N (proj1 G) L))). }
      destruct X as [X1 X2]. eapply bind_rel; [exact X1|exact N|exact Eb|eapply rel_ext; eauto|eapply pend_ext; eauto|exact V]. }
    destruct (lookup x l) as [[[id k] l']|] eqn:L.
    + destruct (lookup_some _ _ _ _ _ N (proj1 G) L) as (F & X & _). rewrite F.
      destruct k as [|[|m]|m]; try (apply (K l'); [right; eauto|exact H]).
      inversion H; subst. cbn [with_scopes scopes tmatch].
      assert (Y : prel A n (Some (rho, ps)) (Some eta) l').
      { split; [apply rel_add; [|eapply rel_ext; eauto]|eapply pend_ext; eauto]. exact (proj1 (lookup_step _ _ _ _ _ _ _ G N L)). }
      destruct v; try (destruct (clo_lid _ _ _ _ _ _ V) as (lid & ws & -> & LL);
        assert (IG : ing id = true) by (eapply ing_find; [apply (proj1 (proj2 (proj2 G)))|exact N|exact F|discriminate]);
        destruct (Nat.eqb_spec id lid); [congruence|exact I]).
      * inversion V; subst. exact I.
      * inversion V; subst. exact I.
      * inversion V; subst. match goal with F : Forall2 vrel vs _ |- _ => destruct vs as [|a vs]; inversion F; subst end; destruct (Nat.eqb id id0); try exact I; try exact Y.
    + apply lookup_none in L as F. rewrite F. apply (K l); [now left|exact H].
  - intros x p IH A n l h t' v v' rho eta ps G U H R PE V. split_uses.
    destruct (visit_pattern p {| next := n; scopes := l |}) as [[hp t1]|] eqn:E1; [|discriminate].
    destruct (bind_variable x t1) as [[[id pre] t2]|] eqn:E2; [|discriminate]. inversion H; subst. cbn [smatch tmatch].
    pose proof (IH A _ _ _ _ v v' _ _ _ G H1 E1 R PE V) as I1. pose proof (proj1 (pattern_ok g) _ _ _ _ _ G H1 E1) as ST.
    unfold prel in I1. destruct (smatch g p v (rho, ps)) as [[rho1 ps1]|], (tmatch hp v' eta) as [eta1|]; try tauto. destruct I1 as [R1 PE1].
    eapply prel_mono; [exact (proj1 (proj2 ST))|]. eapply bind_rel; [exact (proj1 ST)|exact H0|rewrite <- table_eta; exact E2|exact R1|exact PE1|exact V].
  - intros qs IH A n l h t' v v' rho eta ps G U H R PE V.
    destruct (visit_patterns qs {| next := n; scopes := l |}) as [[hp t1]|] eqn:E1; [|discriminate]. inversion H; subst. cbn [smatch tmatch].
    inversion V; subst; try exact I. eapply IH; eauto.
  - intros c qs IH A n l h t' v v' rho eta ps G U H R PE V. split_uses. cbn [scopes] in H. cbn [smatch fst].
    rewrite (constructor_rel _ _ _ _ _ R (proj1 (proj2 (proj2 G))) H0).
    destruct (lookup c l) as [[[id k] l']|] eqn:L; [|discriminate].
    destruct (lookup_some _ _ _ _ _ H0 (proj1 G) L) as (F & X & _). rewrite F.
    pose proof (proj1 (lookup_step _ _ _ _ _ _ _ G H0 L)) as G'. cbn [next scopes] in G'.
    assert (Y : k <> IsVar /\ match visit_patterns qs {| next := n; scopes := l' |} with Some (hs, t) => Some (HPCon id hs, t) | None => None end = Some (h, t')).
    { destruct k; [discriminate| |]; (split; [discriminate|]); destruct (plen qs =? params); try discriminate; exact H. }
    destruct Y as [KV Y]. destruct (visit_patterns qs {| next := n; scopes := l' |}) as [[hp t1]|] eqn:E1; [|discriminate]. inversion Y; subst. cbn [tmatch].
    assert (IG : ing id = true) by (eapply ing_find; [apply (proj1 (proj2 (proj2 G)))|exact H0|exact F|exact KV]).
    assert (Z : match k with IsVar => None | IsVariant _ | IsStruct _ => Some id end = Some id) by (destruct k; [tauto|reflexivity|reflexivity]).
    rewrite Z. clear Z.
    destruct v.
    + inversion V; subst. exact I.
    + inversion V; subst. exact I.
    + inversion V; subst. destruct (Nat.eqb id id0); [|exact I]. eapply IH; [exact G'|exact H1|exact E1|eapply rel_ext; eauto|eapply pend_ext; eauto|assumption].
    + destruct (clo_lid _ _ _ _ _ _ V) as (lid & ws & -> & LL). destruct (Nat.eqb_spec id lid); [congruence|exact I].
  - intros A n l h t' vs vs' rho eta ps G U H R PE V. inversion H; subst. cbn [smatches tmatches scopes]. inversion V; subst; [|exact I].
    split; [now apply rel_add|exact PE].
  - intros p IHp qs IHs A n l h t' vs vs' rho eta ps G U H R PE V. split_uses.
    destruct (visit_pattern p {| next := n; scopes := l |}) as [[hp t1]|] eqn:E1; [|discriminate].
    destruct (visit_patterns qs t1) as [[hs t2]|] eqn:E2; [|discriminate]. inversion H; subst.
    inversion V; subst; [exact I|]. rewrite smatches_cons, tmatches_cons.
    pose proof (IHp A _ _ _ _ x y _ _ _ G H0 E1 R PE H2) as I1. pose proof (proj1 (pattern_ok g) _ _ _ _ _ G H0 E1) as ST.
    unfold prel in I1. destruct (smatch g p x (rho, ps)) as [[rho1 ps1]|], (tmatch hp y eta) as [eta1|]; try tauto. destruct I1 as [R1 PE1].
    eapply prel_mono; [exact (proj1 (proj2 ST))|]. eapply IHs; [exact (proj1 ST)|exact H1|rewrite <- table_eta; exact E2|exact R1|exact PE1|assumption].
Qed.

(** * Worlds, and names declared ahead *)
Definition wrel (w w' : world) : Prop :=
  given w = given w' /\ forallb (plain g) (given w) = true /\
  Forall2 (fun a b => vrel (fst a) (fst b) /\ vrel (snd a) (snd b)) (log w) (log w').
Lemma draw_rel w w' : wrel w w' ->
  match draw w, draw w' with
  | None, None => True
  | Some (v, w1), Some (v', w1') => v = v' /\ plain g v = true /\ wrel w1 w1'
  | _, _ => False
  end.
Proof.
  intros (W1 & W2 & W3). unfold draw. rewrite <- W1. destruct (given w) as [|v l]; [exact I|]. cbn [forallb] in W2.
  apply andb_true_iff in W2 as [A B]. split; [reflexivity|]. split; [exact A|]. split; [reflexivity|]. split; [exact B|exact W3].
Qed.
Lemma record_rel v v' u u' w w' : wrel w w' -> vrel v v' -> vrel u u' -> wrel (record v u w) (record v' u' w').
Proof.
  intros (W1 & W2 & W3) V U. split; [exact W1|]. split; [exact W2|]. cbn [record log]. apply Forall2_app; [exact W3|]. constructor; [|constructor]. now split.
Qed.

Lemma names_rel xs : forall A n l ids t' rho eta ps w w', good g n l -> existsb (String.eqb LAM) xs = false ->
  visit_names xs {| next := n; scopes := l |} = Some (ids, t') -> rel A rho eta l -> pend rho eta ps l -> wrel w w' ->
  match sdeclare xs (rho, ps) w, tdeclare ids eta w' with
  | None, None => True
  | Some (b, w1), Some (eta1, w1') => rel (plus A n) (fst b) eta1 (scopes t') /\ pend (fst b) eta1 (snd b) (scopes t') /\ wrel w1 w1'
  | _, _ => False
  end.
Proof.
  induction xs as [|x xs IH]; cbn [visit_names existsb sdeclare]; intros A n l ids t' rho eta ps w w' G U H R PE W.
  - inversion H; subst. cbn [tdeclare fst snd scopes]. split; [now apply rel_add|]. now split.
  - split_uses. destruct (add_declaration x {| next := n; scopes := l |}) as [[id t1]|] eqn:E1; [|discriminate].
    destruct (visit_names xs t1) as [[ids' t2]|] eqn:E2; [|discriminate]. inversion H; subst. cbn [tdeclare fst snd].
    pose proof (declaration_step g _ _ _ _ _ G H0 E1) as ST.
    destruct (declaration_ok g _ _ _ _ _ G H0 E1) as (l1 & s & r & C & -> & D & -> & ->).
    assert (X : good g n (s :: r) /\ Forall2 ext l (s :: r)).
    { destruct C as [[_ <-]|(i & k & L & _)]; [split; [exact G|apply exts_refl]|].
      split; [exact (proj1 (lookup_step _ _ _ _ _ _ _ G H0 L))|exact (proj1 (proj2 (lookup_some _ _ _ _ _ H0 (proj1 G) L)))]. }
    destruct X as [G1 X]. pose proof (rel_ext _ _ _ _ _ X R) as R1. pose proof (pend_ext _ _ _ _ _ X PE) as PE1.
    pose proof (draw_rel _ _ W) as DR. destruct (draw w) as [[v w1]|], (draw w') as [[v' w1']|]; try tauto. destruct DR as (<- & DP & W1).
    assert (M : forall b e, match b, e with
       | None, None => True
       | Some (b, w1), Some (eta1, w1') => rel (plus (plus A n) (S n)) (fst b) eta1 (scopes t') /\ pend (fst b) eta1 (snd b) (scopes t') /\ wrel w1 w1'
       | _, _ => False end ->
       match b, e with
       | None, None => True
       | Some (b, w1), Some (eta1, w1') => rel (plus A n) (fst b) eta1 (scopes t') /\ pend (fst b) eta1 (snd b) (scopes t') /\ wrel w1 w1'
       | _, _ => False end).
    { intros [[b w2]|] [[e w2']|]; auto. intros (M1 & M2 & M3). split; [|now split]. revert M1. apply rel_mono. intros y i K. now left. }
    apply M. eapply IH; [apply ST|exact H1|exact E2| | |exact W1].
    + apply fresh_rel; [exact G1|exact H0|exact R1|]. now apply plain_refl.
    + cbn [scopes]. intros y N. cbn [decls vars]. rewrite (assoc_cons y x (Some n)). destruct (String.eqb_spec y x) as [->|NE].
      * cbn [existsb]. rewrite String.eqb_refl. split; [reflexivity|]. rewrite !assoc_cons, String.eqb_refl, lookup_id_cons, Nat.eqb_refl.
        split; [reflexivity|]. exists v. auto.
      * pose proof (fresh_pend n s r x v v rho eta ps G1 PE1 y N NE) as Q. cbn [existsb]. apply eqb_neq in NE. rewrite NE. exact Q.
Qed.

(** * Expressions *)
Definition inC (C : list (string * nat)) (l : list scope) (x : string) (id : nat) : Prop := cross x l = false \/ In (x, id) C.
Definition env (C : list (string * nat)) (rho : senv) (eta : tenv) (l : list scope) : Prop := rel (inC C l) rho eta l.
Lemma env_ext C rho eta l l' : Forall2 ext l l' -> env C rho eta l -> env C rho eta l'.
Proof.
  intros E H x N. specialize (H x N). rewrite (find_ext _ _ _ E N). destruct (find_scope x l) as [[id [| |]]|]; auto.
  destruct H as (v & H1 & H2). exists v. split; [exact H1|]. unfold inC. rewrite (cross_ext _ _ _ E N). exact H2.
Qed.
Lemma env_news n C rho eta l l' : news n l l' -> rel (plus (inC C l) n) rho eta l' -> env C rho eta l'.
Proof.
  intros M H x N. specialize (H x N). destruct (find_scope x l') as [[id [| |]]|] eqn:F; auto. destruct H as (v & H1 & H2). exists v. split; [exact H1|].
  intros K. apply H2. destruct (M x N) as [[M1 M2]|(id' & M1 & M2 & M3)].
  - left. unfold inC in *. rewrite <- M2. exact K.
  - right. rewrite F in M2. inversion M2; subst. exact M1.
Qed.
Lemma incl_units_app a b : incl_units (a ++ b) -> incl_units a /\ incl_units b.
Proof. intros H. split; intros id u K; apply H, in_or_app; auto. Qed.

Lemma caps_push t l : evo ({| vars := []; decls := []; barrier := None |} :: l) (scopes t) -> caps_of (scopes t) = caps_of (tl (scopes t)).
Proof. destruct (scopes t) as [|s r]; [reflexivity|]. cbn [evo tl caps_of]. intros [B _]. unfold bext in B. cbn [barrier] in B. destruct (barrier s); tauto. Qed.

(** What the visit of a lambda has found. *)
Definition lam_table (en : bool) (n : nat) (l : list scope) : table :=
  if en then {| next := S n; scopes := {| vars := [("clk"%string, (n, IsVar))]; decls := []; barrier := Some [] |} :: l |}
  else {| next := n; scopes := {| vars := []; decls := []; barrier := Some [] |} :: l |}.
Lemma lam_table_ok en n l : good g n l ->
  sstep g n ({| vars := []; decls := []; barrier := Some [] |} :: l) (lam_table en n l) [].
Proof.
  intros G. pose proof (good_push g _ _ (Some []) G (or_intror eq_refl)) as G0. destruct en; cbn [lam_table].
  - destruct (add_ok g n {| vars := []; decls := []; barrier := Some [] |} l "clk" IsVar (S n) G0 (fun _ => eq_refl) (le_n _)) as [X1 X2].
    cbn [vars decls barrier] in X1, X2. split; [|apply lids_nil]. split; [exact X1|]. split; [cbn; lia|].
    split; [cbn; split; [unfold bext; cbn; now exists []|apply exts_refl]|]. split; [exact X2|]. intros i [].
  - now apply estep_sstep, estep_refl.
Qed.

Lemma lam_visit en ps ss e n l h t' : good g n l -> uses LAM (ELam en ps ss e) = false ->
  visit_expression (ELam en ps ss e) {| next := n; scopes := l |} = Some (h, t') ->
  exists ps' hp t2 hs t3 he t4 lid self,
    handle_unit_kind en ps = Some (en, ps') /\ pats_use LAM ps' = false /\
    visit_patterns ps' (lam_table en n l) = Some (hp, t2) /\ visit_statements ss (push None t2) = Some (hs, t3) /\ visit_expression e t3 = Some (he, t4) /\
    h = HLam lid (caps_of (scopes t4)) self (S self) (if en then Some (n, S (S self)) else None) hp hs he /\ next t4 <= self /\
    step_ok g n ({| vars := []; decls := []; barrier := Some [] |} :: l) t2 [] /\
    sstep g (next t2) ({| vars := []; decls := []; barrier := None |} :: scopes t2) t3 (replacements_stmts hs) /\
    next t3 <= next t4 /\
    Forall2 ext (scopes t3) (scopes t4) /\
    NoDup (map fst (caps_of (scopes t4))) /\
    forall x i, In (x, i) (caps_of (scopes t4)) -> x <> LAM /\ find_scope x l = Some (i, IsVar) /\ (cross x l = true -> In (x, i) (caps_of (scopes t'))).
Proof.
  intros G U H. cbn [visit_expression] in H. cbn [uses] in U. split_uses.
  destruct (handle_unit_kind en ps) as [[hc ps']|] eqn:HK; [|discriminate].
  assert (UP : hc = en /\ pats_use LAM ps' = false).
  { unfold handle_unit_kind in HK. destruct en; [|inversion HK; subst; auto]. destruct ps as [|[| |? ?| |] ps]; try discriminate.
    destruct (String.eqb x "clk"); [|discriminate]. inversion HK; subst. cbn [pats_use] in *. split_uses. auto. }
  destruct UP as [-> UP].
  pose proof (lam_table_ok en n l G) as S0.
  assert (T1 : exists clk, (if en then add_thing "clk" IsVar (push (Some []) {| next := n; scopes := l |}) else (0, push (Some []) {| next := n; scopes := l |}))
     = (clk, lam_table en n l) /\ (en = true -> clk = n)).
  { destruct en; eexists; (split; [reflexivity|]); [reflexivity|discriminate]. }
  destruct T1 as (clk & T1 & T1'). rewrite T1 in H.
  destruct (visit_patterns ps' (lam_table en n l)) as [[hp t2]|] eqn:E2; [|discriminate].
  destruct (visit_statements ss (push None t2)) as [[hs t3]|] eqn:E3; [|discriminate].
  destruct (visit_expression e t3) as [[he t4]|] eqn:E4; [|discriminate].
  destruct (all_defined t4); [|discriminate].
  assert (S1 : sstep g n ({| vars := []; decls := []; barrier := Some [] |} :: l) t2 []).
  { change (@nil (nat * lambda_unit)) with (@nil (nat * lambda_unit) ++ []). eapply sstep_trans; [exact S0|]. eapply step_sstep.
    eapply (proj2 (pattern_ok g)); [apply S0|exact UP|rewrite <- table_eta; exact E2]. }
  assert (S3 : sstep g (next t2) ({| vars := []; decls := []; barrier := None |} :: scopes t2) t3 (replacements_stmts hs)).
  { eapply (proj2 (proj2 (proj2 (expr_ok g)))); [apply good_push; [apply S1|now left]|eassumption|exact E3]. }
  assert (S4 : estep g (next t3) (scopes t3) t4 (replacements he)).
  { eapply (proj1 (expr_ok g)); [apply S3|eassumption|rewrite <- table_eta; exact E4]. }
  assert (S5 : sstep g (next t2) ({| vars := []; decls := []; barrier := None |} :: scopes t2) t4 (replacements_stmts hs ++ replacements he)).
  { eapply sstep_trans; [exact S3|]. now apply estep_sstep. }
  pose proof (sstep_pop g _ _ _ _ _ (proj1 (proj1 S1)) S5) as S6.
  assert (CP : caps_of (scopes t4) = caps_of (scopes (pop t4))).
  { unfold pop, with_scopes. cbn [scopes]. eapply caps_push; apply S5. }
  (* the scope of the lambda *)
  assert (HD : exists s r, scopes (pop t4) = s :: r /\ barrier s = Some (captured (pop t4)) /\ Forall2 ext l r).
  { pose proof (proj1 (proj2 (proj2 (proj1 S1)))) as V1. pose proof (proj1 (proj2 (proj2 S6))) as V2.
    destruct (scopes t2) as [|s2 r2]; cbn [evo] in V1; [tauto|]. destruct V1 as [V1 V1'].
    destruct (scopes (pop t4)) as [|s r] eqn:ES; inversion V2; subst. exists s, r. split; [reflexivity|]. unfold captured. rewrite ES.
    match goal with X : ext s2 s |- _ => destruct X as (_ & _ & X) end. unfold bext in *. cbn [barrier] in V1.
    destruct (barrier s2); [|tauto]. destruct (barrier s); [|tauto]. split; [reflexivity|]. eapply exts_trans; eassumption. }
  destruct HD as (s & r & ES & EB & EX).
  assert (CC : captured (pop t4) = caps_of (scopes t4)) by (rewrite CP, ES; cbn [caps_of]; rewrite EB; reflexivity).
  set (k := IsStruct (List.length (captured (pop t4)))) in *.
  destruct (add_thing LAM k (pop (pop t4))) as [lid t5] eqn:E5. cbn [fresh_id next scopes fst snd] in H.
  assert (N5 : next t4 <= next t5 /\ caps_of (scopes t5) = caps_of r).
  { unfold add_thing in E5. change (scopes (pop (pop t4))) with (tl (scopes (pop t4))) in E5. rewrite ES in E5. cbn [tl] in E5.
    destruct r as [|s' r']; inversion E5; subst; cbn [next scopes].
    - split; [unfold pop, with_scopes; cbn; lia|]. change (scopes (pop (pop t4))) with (tl (scopes (pop t4))). rewrite ES. reflexivity.
    - split; [unfold pop, with_scopes; cbn; lia|]. reflexivity. }
  inversion H; subst h t'. exists ps', hp, t2, hs, t3, he, t4, lid, (next t5).
  split; [reflexivity|]. split; [exact UP|]. split; [exact E2|]. split; [exact E3|]. split; [exact E4|].
  split. { rewrite CC. f_equal. destruct en; [|reflexivity]. now rewrite (T1' eq_refl). }
  split; [exact (proj1 N5)|]. split; [apply S1|]. split; [exact S3|]. split; [exact (proj1 (proj2 S4))|]. split; [exact (proj1 (proj2 (proj2 S4)))|].
  pose proof (proj1 (proj1 S6)) as INV. rewrite ES in INV. cbn [inv] in INV. rewrite EB, CC in INV. destruct INV as [[ND INV] _].
  split; [exact ND|]. intros x i K. destruct (INV x i K) as (A1 & A2 & A3). split; [exact A1|].
  rewrite (find_ext _ _ _ EX A1) in A2. rewrite (cross_ext _ _ _ EX A1) in A3. split; [exact A2|]. cbn [scopes]. rewrite (proj2 N5). exact A3.
Qed.

Section Equations.
Variable app : val -> option val -> list val -> world -> option (val * world).
Lemma sadd_eq a b rho w : seval g app (EAdd a b) rho w = match seval g app a rho w with Some (VInt x, w) => match seval g app b rho w with Some (VInt y, w) => Some (VInt (x + y), w) | _ => None end | _ => None end.
Proof. reflexivity. Qed.
Lemma stup_eq es rho w : seval g app (ETup es) rho w = match sevals g app es rho w with Some (vs, w) => Some (VTup vs, w) | None => None end.
Proof. reflexivity. Qed.
Lemma sidx_eq e i rho w : seval g app (EIdx e i) rho w = match seval g app e rho w with Some (VTup vs, w) => match nth_error vs i with Some v => Some (v, w) | None => None end | _ => None end.
Proof. reflexivity. Qed.
Lemma scon_eq c es rho w : seval g app (ECon c es) rho w = match constructor g rho c, sevals g app es rho w with Some id, Some (vs, w) => Some (VCon id vs, w) | _, _ => None end.
Proof. reflexivity. Qed.
Lemma sif_eq c a b rho w : seval g app (EIf c a b) rho w = match seval g app c rho w with Some (VInt z, w) => if Z.eqb z 0 then seval g app b rho w else seval g app a rho w | _ => None end.
Proof. reflexivity. Qed.
Lemma smatch_eq e l rho w : seval g app (EMatch e l) rho w = match seval g app e rho w with Some (v, w) => sarms g app l v rho w | None => None end.
Proof. reflexivity. Qed.
Lemma sblock_eq ss e rho w : seval g app (EBlock ss e) rho w = match sstmts g app ss (rho, []) w with Some (rho, w) => seval g app e rho w | None => None end.
Proof. reflexivity. Qed.
Lemma scall__eq f es rho w : seval g app (ECall f es) rho w = match seval g app f rho w with Some (f, w) => match sevals g app es rho w with Some (vs, w) => app f None vs w | None => None end | None => None end.
Proof. reflexivity. Qed.
Lemma sinst_eq f c es rho w : seval g app (EInst f c es) rho w = match seval g app f rho w with Some (f, w) => match seval g app c rho w with Some (c, w) => match sevals g app es rho w with Some (vs, w) => app f (Some c) vs w | None => None end | None => None end | None => None end.
Proof. reflexivity. Qed.
Lemma scons_eq e es rho w : sevals g app (ECons e es) rho w = match seval g app e rho w with Some (v, w) => match sevals g app es rho w with Some (vs, w) => Some (v :: vs, w) | None => None end | None => None end.
Proof. reflexivity. Qed.
Lemma sarm_eq p c e l v rho w : sarms g app (ACons p c e l) v rho w = match smatch g p v (rho, []) with Some b => match seval g app c (fst b) w with Some (VInt z, w) => if Z.eqb z 0 then sarms g app l v rho w else seval g app e (fst b) w | _ => None end | None => sarms g app l v rho w end.
Proof. reflexivity. Qed.
Lemma sdecl_eq xs ss b w : sstmts g app (SDecl xs ss) b w = match sdeclare xs b w with Some (b, w) => sstmts g app ss b w | None => None end.
Proof. reflexivity. Qed.
Lemma slet_eq p e ss b w : sstmts g app (SLet p e ss) b w = match seval g app e (fst b) w with Some (v, w) => match smatch g p v b with Some b => sstmts g app ss b w | None => None end | None => None end.
Proof. reflexivity. Qed.
Lemma sreg_eq p e ss b w : sstmts g app (SReg p e ss) b w = match draw w with Some (v, w) => match smatch g p v b with Some b => match seval g app e (fst b) w with Some (v', w) => sstmts g app ss b (record v v' w) | None => None end | None => None end | None => None end.
Proof. reflexivity. Qed.
Lemma tadd_eq a b eta w : teval P app (HAdd a b) eta w = match teval P app a eta w with Some (VInt x, w) => match teval P app b eta w with Some (VInt y, w) => Some (VInt (x + y), w) | _ => None end | _ => None end.
Proof. reflexivity. Qed.
Lemma ttup_eq es eta w : teval P app (HTup es) eta w = match tevals P app es eta w with Some (vs, w) => Some (VTup vs, w) | None => None end.
Proof. reflexivity. Qed.
Lemma tidx_eq e i eta w : teval P app (HIdx e i) eta w = match teval P app e eta w with Some (VTup vs, w) => match nth_error vs i with Some v => Some (v, w) | None => None end | _ => None end.
Proof. reflexivity. Qed.
Lemma tcon_eq c es eta w : teval P app (HCon c es) eta w = match tevals P app es eta w with Some (vs, w) => Some (VCon c vs, w) | None => None end.
Proof. reflexivity. Qed.
Lemma tif_eq c a b eta w : teval P app (HIf c a b) eta w = match teval P app c eta w with Some (VInt z, w) => if Z.eqb z 0 then teval P app b eta w else teval P app a eta w | _ => None end.
Proof. reflexivity. Qed.
Lemma tmatch_eq e l eta w : teval P app (HMatch e l) eta w = match teval P app e eta w with Some (v, w) => tarms P app l v eta w | None => None end.
Proof. reflexivity. Qed.
Lemma tblock_eq ss e eta w : teval P app (HBlock ss e) eta w = match tstmts P app ss eta w with Some (eta, w) => teval P app e eta w | None => None end.
Proof. reflexivity. Qed.
Lemma tcall__eq f es eta w : teval P app (HCall f es) eta w = match teval P app f eta w with Some (f, w) => match tevals P app es eta w with Some (vs, w) => app f None vs w | None => None end | None => None end.
Proof. reflexivity. Qed.
Lemma tinst_eq f c es eta w : teval P app (HInst f c es) eta w = match teval P app f eta w with Some (f, w) => match teval P app c eta w with Some (c, w) => match tevals P app es eta w with Some (vs, w) => app f (Some c) vs w | None => None end | None => None end | None => None end.
Proof. reflexivity. Qed.
Lemma tcons_eq e es eta w : tevals P app (HCons e es) eta w = match teval P app e eta w with Some (v, w) => match tevals P app es eta w with Some (vs, w) => Some (v :: vs, w) | None => None end | None => None end.
Proof. reflexivity. Qed.
Lemma tarm_eq p c e l v eta w : tarms P app (HACons p c e l) v eta w = match tmatch p v eta with Some b => match teval P app c b w with Some (VInt z, w) => if Z.eqb z 0 then tarms P app l v eta w else teval P app e b w | _ => None end | None => tarms P app l v eta w end.
Proof. reflexivity. Qed.
Lemma tdecl_eq xs ss eta w : tstmts P app (HSDecl xs ss) eta w = match tdeclare xs eta w with Some (eta, w) => tstmts P app ss eta w | None => None end.
Proof. reflexivity. Qed.
Lemma tlet_eq p e ss eta w : tstmts P app (HSLet p e ss) eta w = match teval P app e eta w with Some (v, w) => match tmatch p v eta with Some eta => tstmts P app ss eta w | None => None end | None => None end.
Proof. reflexivity. Qed.
Lemma treg_eq p e ss eta w : tstmts P app (HSReg p e ss) eta w = match draw w with Some (v, w) => match tmatch p v eta with Some eta => match teval P app e eta w with Some (v', w) => tstmts P app ss eta (record v v' w) | None => None end | None => None end | None => None end.
Proof. reflexivity. Qed.
End Equations.

Section Apps.
Variables app app' : val -> option val -> list val -> world -> option (val * world).
Definition orel (a b : option (val * world)) : Prop :=
  match a, b with None, None => True | Some (v, w), Some (v', w') => vrel v v' /\ wrel w w' | _, _ => False end.
Definition lrel (a b : option (list val * world)) : Prop :=
  match a, b with None, None => True | Some (v, w), Some (v', w') => Forall2 vrel v v' /\ wrel w w' | _, _ => False end.
Definition srel (C : list (string * nat)) (l : list scope) (a : option (senv * world)) (b : option (tenv * world)) : Prop :=
  match a, b with None, None => True | Some (rho, w), Some (eta, w') => env C rho eta l /\ wrel w w' | _, _ => False end.
Definition crel (c c' : option val) : Prop :=
  match c, c' with None, None => True | Some v, Some v' => vrel v v' | _, _ => False end.
Hypothesis happ : forall f f' c c' vs vs' w w', vrel f f' -> crel c c' -> Forall2 vrel vs vs' -> wrel w w' -> orel (app f c vs w) (app' f' c' vs' w').

Lemma caps_vals caps rho eta w :
  (forall x i, In (x, i) caps -> exists v v', assoc x rho = Some v /\ lookup_id i eta = Some v' /\ vrel v v') ->
  exists ws, tevals P app' (vars_of (map snd caps)) eta w = Some (ws, w) /\ Forall2 (fun c w => exists v, assoc (fst c) rho = Some v /\ vrel v w) caps ws.
Proof.
  induction caps as [|[x i] caps IH]; intros H; cbn [map snd vars_of].
  - exists []. split; [reflexivity|constructor].
  - destruct (H x i (or_introl eq_refl)) as (v & v' & A1 & A2 & A3). destruct IH as (ws & B1 & B2); [intros y j K; apply H; now right|].
    exists (v' :: ws). cbn [tevals teval]. rewrite A2, B1. split; [reflexivity|]. constructor; [|exact B2]. exists v. auto.
Qed.

Ltac both I1 v w1 v' w1' V W := 
  unfold orel, lrel, srel in I1;
  match type of I1 with
  | match ?a with _ => _ end => destruct a as [[v w1]|];
      match type of I1 with match ?b with _ => _ end => destruct b as [[v' w1']|] end
  end; try (exfalso; exact I1); try exact I; destruct I1 as [V W].

Lemma agree_env C rho eta l : env C rho eta l -> agree rho l.
Proof.
  intros H x N. specialize (H x N). destruct (find_scope x l) as [[id [| |]]|]; auto. destruct H as (v & -> & _). discriminate.
Qed.

Lemma expr_rel :
  (forall e n l h t' C rho eta w w', good g n l -> uses LAM e = false -> visit_expression e {| next := n; scopes := l |} = Some (h, t') ->
     incl_units (replacements h) -> incl (caps_of (scopes t')) C -> env C rho eta l -> wrel w w' -> orel (seval g app e rho w) (teval P app' (lower h) eta w')) /\
  (forall es n l h t' C rho eta w w', good g n l -> exprs_use LAM es = false -> visit_expressions es {| next := n; scopes := l |} = Some (h, t') ->
     incl_units (replacements_exprs h) -> incl (caps_of (scopes t')) C -> env C rho eta l -> wrel w w' -> lrel (sevals g app es rho w) (tevals P app' (lower_exprs h) eta w')) /\
  (forall a n l h t' C rho eta v v' w w', good g n l -> arms_use LAM a = false -> visit_arms a {| next := n; scopes := l |} = Some (h, t') ->
     incl_units (replacements_arms h) -> incl (caps_of (scopes t')) C -> env C rho eta l -> wrel w w' -> vrel v v' -> orel (sarms g app a v rho w) (tarms P app' (lower_arms h) v' eta w')) /\
  (forall ss n l h t' C rho eta ps w w', good g n l -> stmts_use LAM ss = false -> visit_statements ss {| next := n; scopes := l |} = Some (h, t') ->
     incl_units (replacements_stmts h) -> incl (caps_of (scopes t')) C -> env C rho eta l -> pend rho eta ps l -> wrel w w' ->
     srel C (scopes t') (sstmts g app ss (rho, ps) w) (tstmts P app' (lower_stmts h) eta w')).
Proof.
  apply expr_all_ind.
  - intros z n l h t' C rho eta w w' G U H IU IC E W. cbn in H. inversion H; subst. cbn. split; [constructor|exact W].
  - intros x n l h t' C rho eta w w' G U H IU IC E W. cbn [uses] in U. split_uses. cbn [visit_expression scopes] in H.
    destruct (lookup x l) as [[[id k] l']|] eqn:L; [|discriminate]. destruct k; try discriminate. inversion H; subst.
    destruct (lookup_some _ _ _ _ _ U (proj1 G) L) as (F & X & J & CR). specialize (E x U). rewrite F in E. destruct E as (v & E1 & E2).
    cbn [seval lower teval]. rewrite E1. destruct E2 as (v' & -> & V); [|now split].
    unfold inC. destruct (cross x l) eqn:Q; [right; apply IC; now apply CR|now left].
  - intros a IHa b IHb n l h t' C rho eta w w' G U H IU IC E W. cbn [uses] in U. split_uses. cbn [visit_expression] in H.
    destruct (visit_expression a {| next := n; scopes := l |}) as [[ha t1]|] eqn:E1; [|discriminate].
    destruct (visit_expression b t1) as [[hb t2]|] eqn:E2; [|discriminate]. inversion H; subst. cbn [replacements] in IU. apply incl_units_app in IU as [IU1 IU2].
    pose proof (proj1 (expr_ok g) _ _ _ _ _ G H0 E1) as ST. rewrite (table_eta t1) in E2.
    pose proof (proj1 (expr_ok g) _ _ _ _ _ (proj1 ST) H1 E2) as ST2.
    assert (IC1 : incl (caps_of (scopes t1)) C) by (eapply incl_tran; [apply caps_ext, ST2|exact IC]).
    pose proof (IHa _ _ _ _ C rho eta w w' G H0 E1 IU1 IC1 E W) as I1. cbn [lower]; rewrite sadd_eq, tadd_eq; cbn [fst].
    both I1 v w1 v' w1' V W1. destruct v; try (inversion V; subst; exact I).
    inversion V; subst. pose proof (IHb _ _ _ _ C rho eta w1 w1' (proj1 ST) H1 E2 IU2 IC (env_ext _ _ _ _ _ (proj1 (proj2 (proj2 ST))) E) W1) as I2.
    both I2 u w2 u' w2' V2 W2. destruct u; try (inversion V2; subst; exact I).
    inversion V2; subst. split; [constructor|exact W2].
  - intros es IH n l h t' C rho eta w w' G U H IU IC E W. cbn [uses] in U. cbn [visit_expression] in H.
    destruct (visit_expressions es {| next := n; scopes := l |}) as [[ha t1]|] eqn:E1; [|discriminate]. inversion H; subst.
    pose proof (IH _ _ _ _ C rho eta w w' G U E1 IU IC E W) as I1. cbn [lower]; rewrite stup_eq, ttup_eq; cbn [fst]. both I1 v w1 v' w1' V W1. split; [now constructor|exact W1].
  - intros e IH i n l h t' C rho eta w w' G U H IU IC E W. cbn [uses] in U. cbn [visit_expression] in H.
    destruct (visit_expression e {| next := n; scopes := l |}) as [[ha t1]|] eqn:E1; [|discriminate]. inversion H; subst.
    pose proof (IH _ _ _ _ C rho eta w w' G U E1 IU IC E W) as I1. cbn [lower]; rewrite sidx_eq, tidx_eq; cbn [fst]. both I1 v w1 v' w1' V W1.
    destruct v; try (inversion V; subst; exact I).
    inversion V as [|? ? FF| |]; subst. clear - FF W1. revert i. induction FF as [|a b la lb Ha Hb IH]; intros [|i]; cbn [nth_error]; try exact I; [split; assumption|apply IH].
  - intros c es IH n l h t' C rho eta w w' G U H IU IC E W. cbn [uses] in U. split_uses. cbn [visit_expression scopes] in H.
    destruct (lookup c l) as [[[id k] l']|] eqn:L; [|discriminate].
    destruct (lookup_some _ _ _ _ _ H0 (proj1 G) L) as (F & X & _). pose proof (lookup_estep _ _ _ _ _ _ _ G H0 L) as ST.
    assert (Y : k <> IsVar /\ match visit_expressions es {| next := n; scopes := l' |} with Some (es, t) => Some (HCon id es, t) | None => None end = Some (h, t')).
    { destruct k; [discriminate| |]; (split; [discriminate|exact H]). }
    destruct Y as [KV Y]. destruct (visit_expressions es {| next := n; scopes := l' |}) as [[ha t1]|] eqn:E1; [|discriminate]. inversion Y; subst.
    cbn [lower]; rewrite scon_eq, tcon_eq; cbn [fst]. rewrite (constructor_rel _ _ _ _ _ E (proj1 (proj2 (proj2 G))) H0), F.
    assert (Z : match k with IsVar => None | IsVariant _ | IsStruct _ => Some id end = Some id) by (destruct k; [tauto|reflexivity|reflexivity]). rewrite Z.
    pose proof (IH _ _ _ _ C rho eta w w' (proj1 ST) H1 E1 IU IC (env_ext _ _ _ _ _ X E) W) as I1. both I1 v w1 v' w1' V W1.
    split; [|exact W1]. constructor; [|exact V]. eapply ing_find; [apply (proj1 (proj2 (proj2 G)))|exact H0|exact F|exact KV].
  - intros c IHc a IHa b IHb n l h t' C rho eta w w' G U H IU IC E W. cbn [uses] in U. split_uses. cbn [visit_expression] in H.
    destruct (visit_expression c {| next := n; scopes := l |}) as [[hc t0]|] eqn:E0; [|discriminate].
    destruct (visit_expression a t0) as [[ha t1]|] eqn:E1; [|discriminate].
    destruct (visit_expression b t1) as [[hb t2]|] eqn:E2; [|discriminate]. inversion H; subst. cbn [replacements] in IU.
    apply incl_units_app in IU as [IU0 IU]. apply incl_units_app in IU as [IU1 IU2].
    rewrite (table_eta t0) in E1. rewrite (table_eta t1) in E2.
    match goal with UC : uses LAM c = false, UA : uses LAM a = false, UB : uses LAM b = false |- _ =>
      pose proof (proj1 (expr_ok g) _ _ _ _ _ G UC E0) as S0; pose proof (proj1 (expr_ok g) _ _ _ _ _ (proj1 S0) UA E1) as S1;
      pose proof (proj1 (expr_ok g) _ _ _ _ _ (proj1 S1) UB E2) as S2;
      assert (IC1 : incl (caps_of (scopes t1)) C) by (eapply incl_tran; [apply caps_ext, S2|exact IC]);
      assert (IC0 : incl (caps_of (scopes t0)) C) by (eapply incl_tran; [apply caps_ext, S1|exact IC1]);
      pose proof (IHc _ _ _ _ C rho eta w w' G UC E0 IU0 IC0 E W) as I0;
      pose proof (env_ext _ _ _ _ _ (proj1 (proj2 (proj2 S0))) E) as EE0; pose proof (env_ext _ _ _ _ _ (proj1 (proj2 (proj2 S1))) EE0) as EE1;
      cbn [lower]; rewrite sif_eq, tif_eq; cbn [fst]; both I0 v w1 v' w1' V W1;
      (destruct v; try (inversion V; subst; exact I));
      inversion V; subst; destruct (Z.eqb z 0);
      [exact (IHb _ _ _ _ C rho eta w1 w1' (proj1 S1) UB E2 IU2 IC EE1 W1)|exact (IHa _ _ _ _ C rho eta w1 w1' (proj1 S0) UA E1 IU1 IC1 EE0 W1)]
    end.
  - intros e IHe a IHa n l h t' C rho eta w w' G U H IU IC E W. cbn [uses] in U. split_uses. cbn [visit_expression] in H.
    destruct (visit_expression e {| next := n; scopes := l |}) as [[ha t1]|] eqn:E1; [|discriminate].
    destruct (visit_arms a t1) as [[hb t2]|] eqn:E2; [|discriminate]. inversion H; subst. cbn [replacements] in IU. apply incl_units_app in IU as [IU1 IU2].
    pose proof (proj1 (expr_ok g) _ _ _ _ _ G H0 E1) as ST. rewrite (table_eta t1) in E2.
    pose proof (proj1 (proj2 (proj2 (expr_ok g))) _ _ _ _ _ (proj1 ST) H1 E2) as ST2.
    assert (IC1 : incl (caps_of (scopes t1)) C) by (eapply incl_tran; [apply caps_ext, ST2|exact IC]).
    pose proof (IHe _ _ _ _ C rho eta w w' G H0 E1 IU1 IC1 E W) as I1. cbn [lower]; rewrite smatch_eq, tmatch_eq; cbn [fst]. both I1 v w1 v' w1' V W1.
    exact (IHa _ _ _ _ C rho eta v v' w1 w1' (proj1 ST) H1 E2 IU2 IC (env_ext _ _ _ _ _ (proj1 (proj2 (proj2 ST))) E) W1 V).
  - intros ss IHs e IHe n l h t' C rho eta w w' G U H IU IC E W. cbn [uses] in U. split_uses. cbn [visit_expression] in H. unfold push, with_scopes in H. cbn [next scopes] in H.
    destruct (visit_statements ss _) as [[hs t0]|] eqn:E0; [|discriminate].
    destruct (visit_expression e t0) as [[he t1]|] eqn:E1; [|discriminate].
    destruct (all_defined t1); [|discriminate]. inversion H; subst. cbn [replacements] in IU. apply incl_units_app in IU as [IU0 IU1].
    pose proof (good_push g _ _ None G (or_introl eq_refl)) as G0. rewrite (table_eta t0) in E1.
    pose proof (proj2 (proj2 (proj2 (expr_ok g))) _ _ _ _ _ G0 H0 E0) as S0. pose proof (proj1 (expr_ok g) _ _ _ _ _ (proj1 (proj1 S0)) H1 E1) as S1.
    assert (IC1 : incl (caps_of (scopes t1)) C).
    { rewrite (caps_push t1 l); [exact IC|]. eapply evo_trans; [apply S0|]. apply exts_evo, S1. }
    assert (IC0 : incl (caps_of (scopes t0)) C) by (eapply incl_tran; [apply caps_ext, S1|exact IC1]).
    assert (PE : pend rho eta [] ({| vars := []; decls := []; barrier := None |} :: l)) by (intros x N; reflexivity).
    pose proof (IHs _ _ _ _ C rho eta [] w w' G0 H0 E0 IU0 IC0 E PE W) as I0. cbn [lower]; rewrite sblock_eq, tblock_eq; cbn [fst]. both I0 rho1 w1 eta1 w1' EE W1.
    exact (IHe _ _ _ _ C rho1 eta1 w1 w1' (proj1 (proj1 S0)) H1 E1 IU1 IC1 EE W1).
  - intros en ps ss IHs e IHe n l h t' C rho eta w w' G U H IU IC E W.
    destruct (lam_visit _ _ _ _ _ _ _ _ G U H) as (ps' & hp & t2 & hs & t3 & he & t4 & lid & self & A1 & A2 & A3 & A4 & A5 & -> & A6 & A7 & A8 & A9 & A10 & A11 & A12).
    cbn [seval lower]. destruct (caps_vals (caps_of (scopes t4)) rho eta w') as (ws & B1 & B2).
    { intros x i K. destruct (A12 x i K) as (N & F & CR). specialize (E x N) as EX. rewrite F in EX. destruct EX as (v & X1 & X2).
      destruct X2 as (v' & X2 & X3); [unfold inC; destruct (cross x l) eqn:Q; [right; apply IC; now apply CR|now left]|]. exists v, v'. auto. }
    rewrite tcon_eq, B1. split; [|exact W]. eapply R_clo; [exact G|exact U|exact H|exact IU|eapply agree_env; exact E|exact B2].
  - intros f IHf es IHe n l h t' C rho eta w w' G U H IU IC E W. cbn [uses] in U. split_uses. cbn [visit_expression] in H.
    destruct (visit_expression f {| next := n; scopes := l |}) as [[ha t1]|] eqn:E1; [|discriminate].
    destruct (visit_expressions es t1) as [[hb t2]|] eqn:E2; [|discriminate]. inversion H; subst. cbn [replacements] in IU. apply incl_units_app in IU as [IU1 IU2].
    pose proof (proj1 (expr_ok g) _ _ _ _ _ G H0 E1) as ST. rewrite (table_eta t1) in E2.
    pose proof (proj1 (proj2 (expr_ok g)) _ _ _ _ _ (proj1 ST) H1 E2) as ST2.
    assert (IC1 : incl (caps_of (scopes t1)) C) by (eapply incl_tran; [apply caps_ext, ST2|exact IC]).
    pose proof (IHf _ _ _ _ C rho eta w w' G H0 E1 IU1 IC1 E W) as I1. cbn [lower]; rewrite scall__eq, tcall__eq; cbn [fst]. both I1 v w1 v' w1' V W1.
    pose proof (IHe _ _ _ _ C rho eta w1 w1' (proj1 ST) H1 E2 IU2 IC (env_ext _ _ _ _ _ (proj1 (proj2 (proj2 ST))) E) W1) as I2. both I2 u w2 u' w2' V2 W2.
    apply happ; auto. exact I.
  - intros f IHf c IHc es IHe n l h t' C rho eta w w' G U H IU IC E W. cbn [uses] in U. split_uses. cbn [visit_expression] in H.
    destruct (visit_expression f {| next := n; scopes := l |}) as [[hc t0]|] eqn:E0; [|discriminate].
    destruct (visit_expression c t0) as [[ha t1]|] eqn:E1; [|discriminate].
    destruct (visit_expressions es t1) as [[hb t2]|] eqn:E2; [|discriminate]. inversion H; subst. cbn [replacements] in IU.
    apply incl_units_app in IU as [IU0 IU]. apply incl_units_app in IU as [IU1 IU2].
    rewrite (table_eta t0) in E1. rewrite (table_eta t1) in E2.
    match goal with UC : uses LAM f = false, UA : uses LAM c = false, UB : exprs_use LAM es = false |- _ =>
      pose proof (proj1 (expr_ok g) _ _ _ _ _ G UC E0) as S0; pose proof (proj1 (expr_ok g) _ _ _ _ _ (proj1 S0) UA E1) as S1;
      pose proof (proj1 (proj2 (expr_ok g)) _ _ _ _ _ (proj1 S1) UB E2) as S2;
      assert (IC1 : incl (caps_of (scopes t1)) C) by (eapply incl_tran; [apply caps_ext, S2|exact IC]);
      assert (IC0 : incl (caps_of (scopes t0)) C) by (eapply incl_tran; [apply caps_ext, S1|exact IC1]);
      pose proof (IHf _ _ _ _ C rho eta w w' G UC E0 IU0 IC0 E W) as I0;
      pose proof (env_ext _ _ _ _ _ (proj1 (proj2 (proj2 S0))) E) as EE0; pose proof (env_ext _ _ _ _ _ (proj1 (proj2 (proj2 S1))) EE0) as EE1;
      cbn [lower]; rewrite sinst_eq, tinst_eq; cbn [fst]; both I0 v w1 v' w1' V W1;
      pose proof (IHc _ _ _ _ C rho eta w1 w1' (proj1 S0) UA E1 IU1 IC1 EE0 W1) as I1; both I1 u w2 u' w2' V2 W2;
      pose proof (IHe _ _ _ _ C rho eta w2 w2' (proj1 S1) UB E2 IU2 IC EE1 W2) as I2; both I2 x w3 x' w3' V3 W3
    end.
    apply happ; auto.
  - intros n l h t' C rho eta w w' G U H IU IC E W. cbn in H. inversion H; subst. cbn. split; [constructor|exact W].
  - intros e IHe es IHs n l h t' C rho eta w w' G U H IU IC E W. cbn [exprs_use] in U. split_uses. cbn [visit_expressions] in H.
    destruct (visit_expression e {| next := n; scopes := l |}) as [[ha t1]|] eqn:E1; [|discriminate].
    destruct (visit_expressions es t1) as [[hb t2]|] eqn:E2; [|discriminate]. inversion H; subst. cbn [replacements_exprs] in IU. apply incl_units_app in IU as [IU1 IU2].
    pose proof (proj1 (expr_ok g) _ _ _ _ _ G H0 E1) as ST. rewrite (table_eta t1) in E2.
    pose proof (proj1 (proj2 (expr_ok g)) _ _ _ _ _ (proj1 ST) H1 E2) as ST2.
    assert (IC1 : incl (caps_of (scopes t1)) C) by (eapply incl_tran; [apply caps_ext, ST2|exact IC]).
    pose proof (IHe _ _ _ _ C rho eta w w' G H0 E1 IU1 IC1 E W) as I1. cbn [lower_exprs]; rewrite scons_eq, tcons_eq; cbn [fst]. both I1 v w1 v' w1' V W1.
    pose proof (IHs _ _ _ _ C rho eta w1 w1' (proj1 ST) H1 E2 IU2 IC (env_ext _ _ _ _ _ (proj1 (proj2 (proj2 ST))) E) W1) as I2. both I2 u w2 u' w2' V2 W2.
    split; [now constructor|exact W2].
  - intros n l h t' C rho eta v v' w w' G U H IU IC E W V. cbn in H. inversion H; subst. exact I.
  - intros p c IHc e IHe a IHa n l h t' C rho eta v v' w w' G U H IU IC E W V. cbn [arms_use] in U. split_uses. cbn [visit_arms] in H. unfold push, with_scopes in H. cbn [next scopes] in H.
    destruct (visit_pattern p _) as [[hp t0]|] eqn:E0; [|discriminate].
    destruct (visit_expression c t0) as [[hc t1]|] eqn:E1; [|discriminate].
    destruct (visit_expression e t1) as [[he t2]|] eqn:E2; [|discriminate].
    destruct (visit_arms a (pop t2)) as [[ha t3]|] eqn:E3; [|discriminate]. inversion H; subst. cbn [replacements_arms] in IU.
    apply incl_units_app in IU as [IU0 IU]. apply incl_units_app in IU as [IU1 IU2].
    pose proof (good_push g _ _ None G (or_introl eq_refl)) as G0. rewrite (table_eta t0) in E1. rewrite (table_eta t1) in E2. rewrite (table_eta (pop t2)) in E3.
    match goal with UP : pat_uses LAM p = false, UC : uses LAM c = false, UA : uses LAM e = false, UB : arms_use LAM a = false |- _ =>
      rename UP into UP'; rename UC into UC'; rename UA into UA'; rename UB into UB' end.
    pose proof (proj1 (pattern_ok g) _ _ _ _ _ G0 UP' E0) as S0. pose proof (proj1 (expr_ok g) _ _ _ _ _ (proj1 S0) UC' E1) as S1.
    pose proof (proj1 (expr_ok g) _ _ _ _ _ (proj1 S1) UA' E2) as S2.
    assert (S3 : estep g n l (pop t2) ([] ++ (replacements hc ++ replacements he))).
    { eapply sstep_pop; [exact G|]. eapply sstep_trans; [eapply step_sstep; exact S0|]. eapply sstep_trans; [apply estep_sstep; exact S1|apply estep_sstep; exact S2]. }
    pose proof (proj1 (proj2 (proj2 (expr_ok g))) _ _ _ _ _ (proj1 S3) UB' E3) as S4.
    assert (IC2 : incl (caps_of (scopes t2)) C).
    { rewrite (caps_push t2 l); [eapply incl_tran; [apply caps_ext, S4|exact IC]|].
      eapply evo_trans; [apply S0|]. eapply evo_trans; [apply exts_evo, S1|]. apply exts_evo, S2. }
    assert (IC1 : incl (caps_of (scopes t1)) C) by (eapply incl_tran; [apply caps_ext, S2|exact IC2]).
    assert (PE : pend rho eta [] ({| vars := []; decls := []; barrier := None |} :: l)) by (intros x N; reflexivity).
    assert (E' : env C rho eta ({| vars := []; decls := []; barrier := None |} :: l)) by exact E.
    pose proof (proj1 pattern_rel p _ _ _ _ _ v v' rho eta [] G0 UP' E0 E' PE V) as I0.
    cbn [lower_arms]; rewrite sarm_eq, tarm_eq; cbn [fst]. unfold prel in I0.
    destruct (smatch g p v (rho, [])) as [[rho1 ps1]|], (tmatch hp v' eta) as [eta1|]; try tauto;
      [|exact (IHa _ _ _ _ C rho eta v v' w w' (proj1 S3) UB' E3 IU2 IC (env_ext _ _ _ _ _ (proj1 (proj2 (proj2 S3))) E) W V)].
    destruct I0 as [R1 _]. apply (env_news _ _ _ _ _ _ (proj1 (proj2 (proj2 (proj2 S0))))) in R1. cbn [fst].
    pose proof (IHc _ _ _ _ C rho1 eta1 w w' (proj1 S0) UC' E1 IU0 IC1 R1 W) as I1. both I1 u w1 u' w1' V1 W1.
    destruct u; try (inversion V1; subst; exact I). inversion V1; subst.
    destruct (Z.eqb z 0).
    + exact (IHa _ _ _ _ C rho eta v v' w1 w1' (proj1 S3) UB' E3 IU2 IC (env_ext _ _ _ _ _ (proj1 (proj2 (proj2 S3))) E) W1 V).
    + exact (IHe _ _ _ _ C rho1 eta1 w1 w1' (proj1 S1) UA' E2 IU1 IC2 (env_ext _ _ _ _ _ (proj1 (proj2 (proj2 S1))) R1) W1).
  - intros n l h t' C rho eta ps w w' G U H IU IC E PE W. cbn in H. inversion H; subst. cbn. split; [exact E|exact W].
  - intros xs ss IHs n l h t' C rho eta ps w w' G U H IU IC E PE W. cbn [stmts_use] in U. split_uses. cbn [visit_statements] in H.
    destruct (visit_names xs {| next := n; scopes := l |}) as [[ids t0]|] eqn:E0; [|discriminate].
    destruct (visit_statements ss t0) as [[hs t1]|] eqn:E1; [|discriminate]. inversion H; subst. cbn [replacements_stmts] in IU. rewrite (table_eta t0) in E1.
    pose proof (names_ok g _ _ _ _ _ G H0 E0) as S0. pose proof (proj2 (proj2 (proj2 (expr_ok g))) _ _ _ _ _ (proj1 (proj1 S0)) H1 E1) as S1.
    pose proof (names_rel xs _ _ _ _ _ _ _ _ _ _ G H0 E0 E PE W) as I0. cbn [lower_stmts]; rewrite sdecl_eq, tdecl_eq; cbn [fst].
    destruct (sdeclare xs (rho, ps) w) as [[[rho1 ps1] w1]|], (tdeclare ids eta w') as [[eta1 w1']|]; try tauto; try exact I.
    destruct I0 as (R1 & PE1 & W1). cbn [fst snd] in R1, PE1. apply (env_news _ _ _ _ _ _ (proj1 (proj2 (proj2 (proj2 (proj1 S0)))))) in R1.
    exact (IHs _ _ _ _ C rho1 eta1 ps1 w1 w1' (proj1 (proj1 S0)) H1 E1 IU IC R1 PE1 W1).
  - intros p e IHe ss IHs n l h t' C rho eta ps w w' G U H IU IC E PE W. cbn [stmts_use] in U. split_uses. cbn [visit_statements] in H.
    destruct (visit_expression e {| next := n; scopes := l |}) as [[he t0]|] eqn:E0; [|discriminate].
    destruct (visit_pattern p t0) as [[hp t1]|] eqn:E1; [|discriminate].
    destruct (visit_statements ss t1) as [[hs t2]|] eqn:E2; [|discriminate]. inversion H; subst. cbn [replacements_stmts] in IU. apply incl_units_app in IU as [IU0 IU1].
    rewrite (table_eta t0) in E1. rewrite (table_eta t1) in E2.
    match goal with UP : pat_uses LAM p = false, UC : uses LAM e = false, UB : stmts_use LAM ss = false |- _ => rename UP into UP'; rename UC into UC'; rename UB into UB' end.
    pose proof (proj1 (expr_ok g) _ _ _ _ _ G UC' E0) as S0. pose proof (proj1 (pattern_ok g) _ _ _ _ _ (proj1 S0) UP' E1) as S1.
    pose proof (proj2 (proj2 (proj2 (expr_ok g))) _ _ _ _ _ (proj1 S1) UB' E2) as S2.
    assert (IC1 : incl (caps_of (scopes t1)) C) by (eapply incl_tran; [apply caps_evo, S2|exact IC]).
    assert (IC0 : incl (caps_of (scopes t0)) C) by (eapply incl_tran; [apply caps_evo, S1|exact IC1]).
    pose proof (IHe _ _ _ _ C rho eta w w' G UC' E0 IU0 IC0 E W) as I0. cbn [lower_stmts]; rewrite slet_eq, tlet_eq; cbn [fst]. both I0 v w1 v' w1' V W1.
    pose proof (env_ext _ _ _ _ _ (proj1 (proj2 (proj2 S0))) E) as EE. pose proof (pend_ext _ _ _ _ _ (proj1 (proj2 (proj2 S0))) PE) as PP.
    pose proof (proj1 pattern_rel p _ _ _ _ _ v v' rho eta ps (proj1 S0) UP' E1 EE PP V) as I1. unfold prel in I1.
    destruct (smatch g p v (rho, ps)) as [[rho1 ps1]|], (tmatch hp v' eta) as [eta1|]; try tauto; try exact I.
    destruct I1 as [R1 PE1]. apply (env_news _ _ _ _ _ _ (proj1 (proj2 (proj2 (proj2 S1))))) in R1.
    exact (IHs _ _ _ _ C rho1 eta1 ps1 w1 w1' (proj1 S1) UB' E2 IU1 IC R1 PE1 W1).
  - intros p e IHe ss IHs n l h t' C rho eta ps w w' G U H IU IC E PE W. cbn [stmts_use] in U. split_uses. cbn [visit_statements] in H.
    destruct (visit_pattern p {| next := n; scopes := l |}) as [[hp t0]|] eqn:E0; [|discriminate].
    destruct (visit_expression e t0) as [[he t1]|] eqn:E1; [|discriminate].
    destruct (visit_statements ss t1) as [[hs t2]|] eqn:E2; [|discriminate]. inversion H; subst. cbn [replacements_stmts] in IU. apply incl_units_app in IU as [IU0 IU1].
    rewrite (table_eta t0) in E1. rewrite (table_eta t1) in E2.
    match goal with UP : pat_uses LAM p = false, UC : uses LAM e = false, UB : stmts_use LAM ss = false |- _ => rename UP into UP'; rename UC into UC'; rename UB into UB' end.
    pose proof (proj1 (pattern_ok g) _ _ _ _ _ G UP' E0) as S0. pose proof (proj1 (expr_ok g) _ _ _ _ _ (proj1 S0) UC' E1) as S1.
    pose proof (proj2 (proj2 (proj2 (expr_ok g))) _ _ _ _ _ (proj1 S1) UB' E2) as S2.
    assert (IC1 : incl (caps_of (scopes t1)) C) by (eapply incl_tran; [apply caps_evo, S2|exact IC]).
    pose proof (draw_rel _ _ W) as DR. cbn [lower_stmts]; rewrite sreg_eq, treg_eq; cbn [fst].
    destruct (draw w) as [[v w1]|], (draw w') as [[v' w1']|]; try tauto; try exact I. destruct DR as (<- & DP & W1).
    pose proof (proj1 pattern_rel p _ _ _ _ _ v v rho eta ps G UP' E0 E PE (plain_refl _ DP)) as I1. unfold prel in I1.
    destruct (smatch g p v (rho, ps)) as [[rho1 ps1]|], (tmatch hp v eta) as [eta1|]; try tauto; try exact I.
    destruct I1 as [R1 PE1]. apply (env_news _ _ _ _ _ _ (proj1 (proj2 (proj2 (proj2 S0))))) in R1. cbn [fst].
    pose proof (IHe _ _ _ _ C rho1 eta1 w1 w1' (proj1 S0) UC' E1 IU0 IC1 R1 W1) as I2. both I2 u w2 u' w2' V2 W2.
    apply (IHs _ _ _ _ C rho1 eta1 ps1 _ _ (proj1 S1) UB' E2 IU1 IC).
    + exact (env_ext _ _ _ _ _ (proj1 (proj2 (proj2 S1))) R1).
    + exact (pend_ext _ _ _ _ _ (proj1 (proj2 (proj2 S1))) PE1).
    + apply record_rel; [exact W2|now apply plain_refl|exact V2].
Qed.
End Apps.

(** * Calls *)
Lemma tbind_keep i pre v eta eta' id : tbind i pre v eta = Some eta' -> ~ In id (if pre then [] else [i]) -> lookup_id id eta' = lookup_id id eta.
Proof.
  unfold tbind. destruct pre.
  - destruct (lookup_id i eta); [|discriminate]. destruct (same v v0); [|discriminate]. intros H _. inversion H; subst. reflexivity.
  - intros H K. inversion H; subst. rewrite lookup_id_cons. destruct (Nat.eqb_spec id i) as [->|]; [|reflexivity]. exfalso. apply K. now left.
Qed.
Lemma keep :
  (forall p v eta eta' id, tmatch p v eta = Some eta' -> ~ In id (binds p) -> lookup_id id eta' = lookup_id id eta) /\
  (forall ps vs eta eta' id, tmatches ps vs eta = Some eta' -> ~ In id (binds_all ps) -> lookup_id id eta' = lookup_id id eta).
Proof.
  apply hpat_hpats_ind.
  - intros z v eta eta' id H _. cbn in H. destruct v; try discriminate. destruct (Z.eqb z z0); [|discriminate]. now inversion H.
  - intros i pre v eta eta' id H K. exact (tbind_keep _ _ _ _ _ _ H K).
  - intros i pre p IH v eta eta' id H K. cbn [tmatch binds] in *. destruct (tmatch p v eta) as [eta1|] eqn:E; [|discriminate].
    rewrite (tbind_keep _ _ _ _ _ id H); [|intros X; apply K, in_or_app; now right]. eapply IH; [exact E|]. intros X. apply K, in_or_app. now left.
  - intros ps IH v eta eta' id H K. change (match v with VTup vs => tmatches ps vs eta | _ => None end = Some eta') in H. destruct v; try discriminate. eapply IH; eauto.
  - intros i ps IH v eta eta' id H K. change (match v with VCon id' vs => if Nat.eqb i id' then tmatches ps vs eta else None | _ => None end = Some eta') in H.
    destruct v; try discriminate. destruct (Nat.eqb i id0); [|discriminate]. eapply IH; eauto.
  - intros vs eta eta' id H _. destruct vs; [|discriminate]. now inversion H.
  - intros p IHp ps IHs vs eta eta' id H K. destruct vs as [|v vs]; [discriminate|]. rewrite tmatches_cons in H.
    destruct (tmatch p v eta) as [eta1|] eqn:E; [|discriminate]. cbn [binds_all] in K.
    rewrite (IHs _ _ _ id H); [|intros X; apply K, in_or_app; now right]. eapply IHp; [exact E|]. intros X. apply K, in_or_app. now left.
Qed.

Lemma hplen_visit : forall ps t h t', visit_patterns ps t = Some (h, t') -> hplen h = plen ps.
Proof.
  induction ps as [|p ps IH]; intros t h t' H; cbn [visit_patterns] in H; [inversion H; reflexivity|].
  change (match visit_pattern p t with Some (h, t) => match visit_patterns ps t with Some (hs, t) => Some (HPCons h hs, t) | None => None end | None => None end = Some (h, t')) in H.
  destruct (visit_pattern p t) as [[hp t1]|]; [|discriminate]. destruct (visit_patterns ps t1) as [[hs t2]|] eqn:E; [|discriminate]. inversion H; subst.
  cbn [hplen plen]. f_equal. eapply IH; eauto.
Qed.
Lemma smatches_length ps : forall vs b, List.length vs <> plen ps -> smatches g ps vs b = None.
Proof.
  induction ps as [|p ps IH]; intros [|v vs] b H; cbn [plen List.length] in H; try reflexivity; [lia|]. rewrite smatches_cons.
  destruct (smatch g p v b); [|reflexivity]. apply IH. lia.
Qed.

Lemma args_run app args rest ws w : forall ps i vs eta,
  lookup_id args eta = Some (VTup ws) -> (forall k, nth_error ws (i + k) = nth_error vs k) -> hplen ps = List.length vs -> ~ In args (binds_all ps) ->
  tstmts P app (arg_bindings args i ps rest) eta w = match tmatches ps vs eta with Some eta' => tstmts P app rest eta' w | None => None end.
Proof.
  induction ps as [|p ps IH]; intros i vs eta L N H K; destruct vs as [|v vs]; cbn [hplen List.length] in H; try lia; [reflexivity|].
  cbn [arg_bindings binds_all] in *. rewrite tlet_eq, tidx_eq, tmatches_cons. cbn [teval]. rewrite L. cbv beta iota.
  pose proof (N 0) as N0. rewrite Nat.add_0_r in N0. rewrite N0. cbn [nth_error].
  destruct (tmatch p v eta) as [eta1|] eqn:E; [|reflexivity]. apply IH.
  - rewrite (proj1 keep _ _ _ _ args E); [exact L|]. intros X. apply K, in_or_app. now left.
  - intros k. specialize (N (S k)). rewrite Nat.add_succ_r in N. exact N.
  - lia.
  - intros X. apply K, in_or_app. now right.
Qed.
Lemma caps_run app self f' (F : string -> val) rest w : forall caps eta,
  lookup_id self eta = Some f' -> (forall x i, In (x, i) caps -> field P f' x = Some (F x) /\ i <> self) ->
  tstmts P app (capture_bindings self caps rest) eta w = tstmts P app rest (rev (map (fun c => (snd c, F (fst c))) caps) ++ eta) w.
Proof.
  induction caps as [|[x i] caps IH]; intros eta L H; [reflexivity|]. cbn [capture_bindings map fst snd rev]. rewrite tlet_eq.
  change (teval P app (HField (HVar self) x) eta w) with (match teval P app (HVar self) eta w with Some (v, w) => match field P v x with Some v => Some (v, w) | None => None end | None => None end).
  change (teval P app (HVar self) eta w) with (match lookup_id self eta with Some v => Some (v, w) | None => None end). rewrite L.
  destruct (H x i (or_introl eq_refl)) as [H1 H2]. rewrite H1. cbn [tmatch tbind]. rewrite IH.
  - rewrite <- app_assoc. reflexivity.
  - rewrite lookup_id_cons. destruct (Nat.eqb_spec self i); [congruence|exact L].
  - intros y j K. apply H. now right.
Qed.
Lemma lookup_id_app {A} i (a b : list (nat * A)) : lookup_id i (a ++ b) = match lookup_id i a with Some v => Some v | None => lookup_id i b end.
Proof.
  induction a as [|[j v] a IH]; [reflexivity|]. cbn [app]. rewrite !lookup_id_cons. destruct (Nat.eqb i j); [reflexivity|exact IH].
Qed.
Lemma lookup_id_none {A} i (l : list (nat * A)) : ~ In i (map fst l) -> lookup_id i l = None.
Proof.
  induction l as [|[j v] l IH]; intros H; [reflexivity|]. rewrite lookup_id_cons. cbn [map fst] in H.
  destruct (Nat.eqb_spec i j) as [->|]; [exfalso; apply H; now left|]. apply IH. intros K. apply H. now right.
Qed.
Lemma lookup_id_some {A} i (l : list (nat * A)) : In i (map fst l) -> exists v, lookup_id i l = Some v.
Proof.
  induction l as [|[j v] l IH]; cbn [map fst]; intros H; [destruct H|]. rewrite lookup_id_cons. destruct (Nat.eqb_spec i j); [eauto|].
  destruct H as [H|H]; [congruence|auto].
Qed.
Lemma caps_lookup (F : string -> val) caps x i : In (x, i) caps -> (forall y, In (y, i) caps -> y = x) ->
  lookup_id i (rev (map (fun c => (snd c, F (fst c))) caps)) = Some (F x).
Proof.
  intros H U. destruct (lookup_id_some i (rev (map (fun c => (snd c, F (fst c))) caps))) as [v V].
  { rewrite map_rev, map_map. apply in_rev. rewrite rev_involutive. apply in_map_iff. exists (x, i). auto. }
  rewrite V. apply lookup_id_in in V. apply in_rev in V. apply in_map_iff in V as ([y j] & V1 & V2). cbn in V1. inversion V1; subst.
  rewrite (U y V2). reflexivity.
Qed.
Lemma caps_lookup_none (F : string -> val) caps i : ~ In i (map snd caps) -> lookup_id i (rev (map (fun c => (snd c, F (fst c))) caps)) = None.
Proof.
  intros H. apply lookup_id_none. rewrite map_rev, map_map. intros K. apply in_rev in K. exact (H K).
Qed.
Lemma field_rel (rho : senv) lid (caps : list (string * nat)) ws u x : lookup_id lid P = Some u -> u_fields u = map fst caps ->
  Forall2 (fun c w => exists v, assoc (fst c) rho = Some v /\ vrel v w) caps ws -> In x (map fst caps) ->
  exists w v, field P (VCon lid ws) x = Some w /\ assoc x rho = Some v /\ vrel v w.
Proof.
  intros L UF H K. cbn [field]. rewrite L, UF. clear L UF. induction H as [|[y i] w caps ws (v & V1 & V2) H IH]; cbn [map fst position] in *; [destruct K|].
  destruct (String.eqb_spec x y) as [->|NE].
  - exists w, v. cbn [nth_error]. auto.
  - destruct K as [K|K]; [congruence|]. destruct (IH K) as (w' & v' & A1 & A2 & A3).
    destruct (position x (map fst caps)) as [k|]; [|discriminate]. cbn [option_map nth_error]. exists w', v'. auto.
Qed.

Lemma clock_run app en clk input v rest eta w : (en = true -> lookup_id input eta = Some v) ->
  tstmts P app (clock_binding (if en then Some (clk, input) else None) rest) eta w = tstmts P app rest (if en then (clk, v) :: eta else eta) w.
Proof.
  intros H. destruct en; cbn [clock_binding]; [|reflexivity]. rewrite tlet_eq.
  change (teval P app (HVar input) eta w) with (match lookup_id input eta with Some v => Some (v, w) | None => None end). rewrite (H eq_refl). reflexivity.
Qed.

Lemma F2_length {A B} (R : A -> B -> Prop) a b : Forall2 R a b -> List.length a = List.length b.
Proof. induction 1; cbn; congruence. Qed.

Lemma call_rel n : forall f f' c c' vs vs' w w', vrel f f' -> crel c c' -> Forall2 vrel vs vs' -> wrel w w' -> orel (scall g n f c vs w) (tcall P n f' c' vs' w').
Proof.
  induction n as [|m IH]; intros f f' c c' vs vs' w w' V CR VS W; [exact I|].
  inversion V as [z|? ? ?|id us ws ING FF|rho en ps ss e n l lid caps self args clock hp hs he t ws G U VE IU AG CW]; subst.
  - exact I.
  - exact I.
  - cbn [scall tcall]. destruct (lookup_id id P) as [u|] eqn:L; [|exact I]. apply apart in L. congruence.
  - destruct (lam_visit _ _ _ _ _ _ _ _ G U VE) as (ps' & hp' & t2 & hs' & t3 & he' & t4 & lid' & self' & A1 & A2 & A3 & A4 & A5 & EQ & A6 & A7 & A8 & A9 & A10 & A11 & A12).
    symmetry in EQ. inversion EQ; subst. clear EQ. set (caps := caps_of (scopes t4)) in *. set (args := S self) in *.
    assert (LU : lookup_id lid P = Some (replace_in caps self args (if en then Some (n, S args) else None) hp (lower_stmts hs) (lower he))) by (apply IU; now left).
    assert (IU2 : incl_units (replacements_stmts hs) /\ incl_units (replacements he)).
    { apply incl_units_app. intros i u K. apply IU. cbn [replacements]. now right. }
    cbn [uses] in U. split_uses.
    (* the source *)
    assert (SRC : scall g (S m) (VClo rho en ps ss e) c vs w =
      match (if en then match c with Some c => Some (("clk"%string, c) :: rho) | None => None end else match c with None => Some rho | Some _ => None end) with
      | Some rho0 => match smatches g ps' vs (rho0, []) with Some b => seval g (scall g m) (EBlock ss e) (fst b) w | None => None end
      | None => None end).
    { cbn [scall]. unfold handle_unit_kind in A1. destruct en.
      - destruct ps as [|[| |? ?| |] ps]; try discriminate. destruct (String.eqb x "clk"); [|discriminate]. inversion A1; subst. destruct c; reflexivity.
      - inversion A1; subst. destruct c; reflexivity. }
    rewrite SRC. clear SRC. cbn [tcall]. rewrite LU. cbn [replace_in u_arity u_clock u_ss u_e u_self u_args].
    rewrite (hplen_visit _ _ _ _ A3).
    destruct (List.length vs' =? plen ps') eqn:LEN; cycle 1.
    { apply Nat.eqb_neq in LEN. rewrite <- (F2_length _ _ _ VS) in LEN.
      match goal with |- orel ?a None => assert (X : a = None) by (destruct (if en then match c with Some c => Some (("clk"%string, c) :: rho) | None => None end else match c with None => Some rho | Some _ => None end); [rewrite (smatches_length _ _ _ LEN)|]; reflexivity); rewrite X end. exact I. }
    apply Nat.eqb_eq in LEN.
    (* the environments at the start *)
    assert (ENT : (exists rho0 cv cv', (if en then match c with Some c => Some (("clk"%string, c) :: rho) | None => None end else match c with None => Some rho | Some _ => None end) = Some rho0 /\
        (en = true -> c = Some cv /\ c' = Some cv' /\ vrel cv cv') /\ (en = false -> c' = None) /\ rho0 = (if en then ("clk"%string, cv) :: rho else rho)) \/
        (if en then match c with Some c => Some (("clk"%string, c) :: rho) | None => None end else match c with None => Some rho | Some _ => None end) = None /\
        (if en then c' = None else c' <> None)).
    { unfold crel in CR. destruct en, c as [cv|], c' as [cv'|]; try tauto.
      - left. exists (("clk"%string, cv) :: rho), cv, cv'. split; [reflexivity|split; [intros _; auto|split; [discriminate|reflexivity]]].
      - right. split; [reflexivity|discriminate].
      - left. exists rho, (VInt 0), (VInt 0). split; [reflexivity|split; [discriminate|split; [reflexivity|reflexivity]]]. }
    destruct ENT as [(rho0 & cv & cv' & ER & EC & EN & ->)|[-> EN]]; cycle 1.
    { destruct en; cbn [option_map snd]; [rewrite EN; exact I|]. destruct c'; [exact I|congruence]. }
    rewrite ER. clear ER.
    set (fv := VCon lid ws) in *.
    set (eta0 := if en then [(self, fv); (S args, cv'); (args, VTup vs')] else [(self, fv); (args, VTup vs')]).
    match goal with |- orel ?a ?b => assert (TGT : b = teval P (tcall P m) (HBlock (arg_bindings args 0 hp (clock_binding (if en then Some (n, S args) else None) (capture_bindings self caps (lower_stmts hs)))) (lower he)) eta0 w') end.
    { unfold eta0. destruct en; cbn [option_map snd]; [destruct (EC eq_refl) as (_ & -> & _); reflexivity|rewrite (EN eq_refl); reflexivity]. }
    rewrite TGT. clear TGT.
    (* identifiers *)
    set (T := lam_table en n l) in *.
    pose proof (lam_table_ok en n l G) as ST. change (lam_table en n l) with T in ST.
    assert (GT : good g (next T) (scopes T)) by apply ST.
    rewrite (table_eta T) in A3. pose proof (proj2 (pattern_ok g) _ _ _ _ _ GT A2 A3) as SP.
    assert (NT : next T = if en then S n else n) by (unfold T; destruct en; reflexivity).
    assert (N2 : next t2 <= next t4).
    { pose proof (proj1 (proj2 (proj1 A8))). lia. }
    assert (BD : forall i, In i (binds_all hp) -> next T <= i < self).
    { intros i K. pose proof (proj2 (proj2 (proj2 (proj2 SP))) i K). lia. }
    assert (CB : forall x i, In (x, i) caps -> i < n).
    { intros x i K. destruct (A12 x i K) as (X1 & X2 & _). exact (proj1 (proj2 G) x i IsVar X1 X2). }
    assert (CS : forall i, In i (map snd caps) -> i < n).
    { intros i K. apply in_map_iff in K as ([x j] & K1 & K2). cbn in K1. subst j. eapply CB; eauto. }
    assert (NS : next T <= self) by (pose proof (proj1 (proj2 SP)); lia).
    (* what the fields hold *)
    set (F := fun x => match field P fv x with Some v => v | None => VInt 0 end).
    assert (FR : forall x i, In (x, i) caps -> field P fv x = Some (F x) /\ exists v, assoc x rho = Some v /\ vrel v (F x)).
    { intros x i K. destruct (field_rel rho lid caps ws _ x LU eq_refl CW) as (w0 & v0 & F1 & F2 & F3); [change x with (fst (x, i)); now apply in_map|].
      unfold F, fv. rewrite F1. split; [reflexivity|]. exists v0. auto. }
    set (capenv := rev (map (fun c => (snd c, F (fst c))) caps)).
    assert (CL : forall x i, In (x, i) caps -> lookup_id i capenv = Some (F x)).
    { intros x i K. apply caps_lookup; [exact K|]. intros y K'. destruct (A12 x i K) as (X1 & X2 & _). destruct (A12 y i K') as (Y1 & Y2 & _).
      exact (proj2 (proj2 (proj2 G)) y x i Y1 X1 Y2 X2). }
    assert (CN : forall i, n <= i -> lookup_id i capenv = None).
    { intros i K. apply caps_lookup_none. intros X. specialize (CS i X). lia. }
    set (rho0 := if en then ("clk"%string, cv) :: rho else rho) in *.
    assert (PE : forall eta, pend rho0 eta [] (scopes T)) by (intros eta; unfold T; destruct en; intros x N; reflexivity).
    (* a run of the patterns where everything is there *)
    set (A := fun (x : string) id => In (x, id) caps \/ (en = true /\ id = n)).
    assert (R0 : rel A rho0 (capenv ++ [(n, cv')]) (scopes T)).
    { intros x N. specialize (AG x N). unfold T, rho0, lam_table. destruct en; cbn [scopes find_scope vars]; rewrite ?assoc_cons.
      - destruct (String.eqb_spec x "clk") as [->|NE].
        + exists cv. split; [reflexivity|]. intros _. exists cv'. rewrite lookup_id_app, (CN n (le_n _)), lookup_id_cons, Nat.eqb_refl. split; [reflexivity|apply EC; reflexivity].
        + change (assoc x (@nil (string * (nat * thing)))) with (@None (nat * thing)). cbv iota. destruct (find_scope x l) as [[id [| |]]|] eqn:FX; auto.
          destruct (assoc x rho) as [v|] eqn:AX; [|congruence]. exists v. split; [reflexivity|]. intros [K|[_ ->]].
          * destruct (FR _ _ K) as (_ & v0 & V1 & V2). exists (F x). rewrite lookup_id_app, (CL _ _ K). split; [reflexivity|]. congruence.
          * pose proof (proj1 (proj2 G) _ _ _ N FX). lia.
      - change (assoc x (@nil (string * (nat * thing)))) with (@None (nat * thing)). cbv iota. destruct (find_scope x l) as [[id [| |]]|] eqn:FX; auto.
        destruct (assoc x rho) as [v|] eqn:AX; [|congruence]. exists v. split; [reflexivity|]. intros [K|[K _]]; [|discriminate].
        destruct (FR _ _ K) as (_ & v0 & V1 & V2). exists (F x). rewrite lookup_id_app, (CL _ _ K). split; [reflexivity|]. congruence. }
    pose proof (proj2 pattern_rel ps' _ _ _ _ _ vs vs' _ _ [] GT A2 A3 R0 (PE _) VS) as I0.
    (* and the one that happens *)
    assert (R1 : rel (fun _ _ => False) rho0 eta0 (scopes T)).
    { intros x N. specialize (R0 x N). destruct (find_scope x (scopes T)) as [[id [| |]]|]; auto. destruct R0 as (v & R0 & _). exists v. split; [exact R0|tauto]. }
    pose proof (proj2 pattern_rel ps' _ _ _ _ _ vs vs' _ _ [] GT A2 A3 R1 (PE _) VS) as I1.
    assert (NB : forall i, self <= i -> ~ In i (binds_all hp)) by (intros i K X; specialize (BD i X); lia).
    rewrite tblock_eq. rewrite (args_run _ _ _ vs' w' hp 0 vs' eta0); cycle 1.
    { unfold eta0. destruct en; rewrite !lookup_id_cons.
      - destruct (Nat.eqb_spec args self); [unfold args in *; lia|]. destruct (Nat.eqb_spec args (S args)); [lia|]. now rewrite Nat.eqb_refl.
      - destruct (Nat.eqb_spec args self); [unfold args in *; lia|]. now rewrite Nat.eqb_refl. }
    { reflexivity. }
    { rewrite (hplen_visit _ _ _ _ A3). now symmetry. }
    { apply NB. unfold args. lia. }
    unfold prel, senv in I0, I1. destruct (smatches g ps' vs (rho0, [])) as [[rho1 ps1]|], (tmatches hp vs' eta0) as [eta1|] eqn:E1; try tauto; try exact I.
    destruct (tmatches hp vs' (capenv ++ [(n, cv')])) as [eta2|] eqn:E2; [|tauto]. destruct I0 as [Q0 _], I1 as [Q1 _]. cbn [fst].
    rewrite (clock_run _ en n (S args) cv'); cycle 1.
    { intros ->. rewrite (proj2 keep _ _ _ _ (S args) E1); [|apply NB; unfold args; lia]. unfold eta0. rewrite !lookup_id_cons.
      destruct (Nat.eqb_spec (S args) self); [unfold args in *; lia|]. now rewrite Nat.eqb_refl. }
    rewrite (caps_run _ self fv F); cycle 1.
    { assert (X : lookup_id self eta1 = Some fv).
      { rewrite (proj2 keep _ _ _ _ self E1); [|apply NB; lia]. unfold eta0. destruct en; rewrite lookup_id_cons, Nat.eqb_refl; reflexivity. }
      destruct en; [|exact X]. rewrite lookup_id_cons. destruct (Nat.eqb_spec self n); [lia|exact X]. }
    { intros x i K. split; [apply (FR x i K)|]. specialize (CB x i K). destruct en; lia. }
    fold capenv. set (eta3 := capenv ++ (if en then (n, cv') :: eta1 else eta1)).
    assert (EE : env caps rho1 eta3 (scopes t2)).
    { intros x N. specialize (Q0 x N). specialize (Q1 x N). destruct (find_scope x (scopes t2)) as [[id [| |]]|] eqn:FX; auto.
      destruct Q0 as (v & V0 & V1). destruct Q1 as (v1 & V2 & V3). assert (v1 = v) by congruence. subst v1. exists v. split; [exact V0|].
      intros K. unfold eta3. rewrite lookup_id_app.
      assert (NEW : next T <= id -> exists v', match lookup_id id capenv with Some v => Some v | None => lookup_id id (if en then (n, cv') :: eta1 else eta1) end = Some v' /\ vrel v v').
      { intros L. destruct (V3 (or_intror L)) as (v' & X1 & X2). exists v'. split; [|exact X2]. rewrite (CN id) by (destruct en; lia).
        destruct en; [|exact X1]. rewrite lookup_id_cons. destruct (Nat.eqb_spec id n); [lia|exact X1]. }
      assert (OLD : A x id -> find_scope x (scopes T) = Some (id, IsVar) -> exists v', match lookup_id id capenv with Some v => Some v | None => lookup_id id (if en then (n, cv') :: eta1 else eta1) end = Some v' /\ vrel v v').
      { intros L FT. destruct (V1 (or_introl L)) as (v' & X1 & X2). exists v'. split; [|exact X2].
        assert (~ In id (binds_all hp)) by (intros X; specialize (BD id X); pose proof (proj1 (proj2 GT) _ _ _ N FT); lia).
        rewrite (proj2 keep _ _ _ _ id E2) in X1 by assumption. rewrite lookup_id_app in X1. destruct (lookup_id id capenv); [exact X1|].
        rewrite lookup_id_cons in X1. destruct (Nat.eqb_spec id n) as [->|]; [|discriminate].
        destruct L as [L|[-> _]]; [specialize (CB _ _ L); lia|]. rewrite lookup_id_cons, Nat.eqb_refl. exact X1. }
      destruct (proj1 (proj2 (proj2 (proj2 SP))) x N) as [[M1 M2]|(id' & M1 & M2 & M3)].
      - rewrite FX in M1. symmetry in M1. apply OLD; [|exact M1]. destruct K as [K|K]; [|now left]. right. rewrite M2 in K. revert M1 K.
        unfold T, lam_table. destruct en; cbn [scopes find_scope vars cross barrier]; rewrite ?assoc_cons.
        + destruct (String.eqb x "clk"); [intros X _; inversion X; auto|]. change (assoc x (@nil (string * (nat * thing)))) with (@None (nat * thing)). discriminate.
        + change (assoc x (@nil (string * (nat * thing)))) with (@None (nat * thing)). discriminate.
      - apply NEW. rewrite FX in M2. inversion M2; subst. exact M1. }
    rewrite sblock_eq.
    assert (G2 : good g (next t2) ({| vars := []; decls := []; barrier := None |} :: scopes t2)) by (apply good_push; [apply A7|now left]).
    assert (IC3 : incl (caps_of (scopes t3)) caps) by (apply caps_ext; exact A10).
    assert (EE' : env caps rho1 eta3 ({| vars := []; decls := []; barrier := None |} :: scopes t2)) by exact EE.
    assert (PE' : pend rho1 eta3 [] ({| vars := []; decls := []; barrier := None |} :: scopes t2)) by (intros x N; reflexivity).
    unfold push, with_scopes in A4. rewrite (table_eta t3) in A5.
    assert (US : stmts_use LAM ss = false) by assumption. assert (UE : uses LAM e = false) by assumption.
    pose proof (proj2 (proj2 (proj2 (expr_rel _ _ IH))) ss _ _ _ _ caps rho1 eta3 [] w w' G2 US A4 (proj1 IU2) IC3 EE' PE' W) as I2.
    unfold srel, senv, tenv in I2. unfold senv, tenv. match goal with |- context [capenv ++ ?z] => change (capenv ++ z) with eta3 end.
    match type of I2 with match ?a with _ => _ end => destruct a as [[rho2 w2]|] end; destruct (tstmts P (tcall P m) (lower_stmts hs) eta3 w') as [[eta4 w2']|]; try (exfalso; exact I2); try exact I.
    destruct I2 as [E4 W2].
    exact (proj1 (expr_rel _ _ IH) e _ _ _ _ caps rho2 eta4 w2 w2' (proj1 (proj1 A8)) UE A5 (proj2 IU2) (incl_refl _) E4 W2).
Qed.
End Fixed.

(** * Units *)
Definition no_variables (g : items) : Prop := forall x id, assoc x g <> Some (id, IsVar).

Lemma first_id_below g x id k : assoc x g = Some (id, k) -> id < first_id g.
Proof.
  unfold assoc, first_id. destruct (find (fun p => String.eqb x (fst p)) g) as [p|] eqn:F; [|discriminate]. intros H. inversion H as [H']; subst.
  apply find_some in F as [F _]. pose proof (proj1 (list_max_le (map (fun i => fst (snd i)) g) _) (le_n _)) as M. rewrite Forall_forall in M.
  specialize (M id). assert (In id (map (fun i => fst (snd i)) g)) by (apply in_map_iff; exists p; rewrite H'; auto). specialize (M H0). lia.
Qed.
Lemma ing_below g id : ing g id = true -> id < first_id g.
Proof.
  unfold ing, first_id. intros H. apply existsb_exists in H as (p & H1 & H2). apply Nat.eqb_eq in H2. subst.
  pose proof (proj1 (list_max_le (map (fun i => fst (snd i)) g) _) (le_n _)) as M. rewrite Forall_forall in M.
  specialize (M (fst (snd p))). assert (In (fst (snd p)) (map (fun i => fst (snd i)) g)) by (apply in_map_iff; eauto). specialize (M H). lia.
Qed.

Lemma inputs_rel g P xs : forall n l vs ids t' rho eta, good g n l -> l <> [] -> existsb (String.eqb LAM) xs = false -> List.length vs = List.length xs ->
  forallb (plain g) vs = true -> add_inputs xs {| next := n; scopes := l |} = (ids, t') -> rel g P (fun _ _ => True) rho eta l ->
  good g (next t') (scopes t') /\ n <= next t' /\ rel g P (fun _ _ => True) (rev (combine xs vs) ++ rho) (rev (combine ids vs) ++ eta) (scopes t').
Proof.
  induction xs as [|x xs IH]; intros n l vs ids t' rho eta G NE U LE PL H R; destruct vs as [|v vs]; cbn [List.length] in LE; try lia; cbn [add_inputs] in H.
  - inversion H; subst. cbn. auto.
  - destruct l as [|s r]; [congruence|]. cbn [existsb] in U. apply orb_false_iff in U as [U1 U2]. apply eqb_neq in U1. unfold add_thing in H. cbn [scopes next] in H.
    destruct (add_inputs xs {| next := S n; scopes := {| vars := (x, (n, IsVar)) :: vars s; decls := decls s; barrier := barrier s |} :: r |}) as [ids' t1] eqn:E. inversion H; subst.
    cbn [forallb] in PL. apply andb_true_iff in PL as [PL1 PL2].
    destruct (add_ok g n s r x IsVar (S n) G (fun _ => eq_refl) (le_n _)) as [G1 _].
    assert (R1 : rel g P (fun _ _ => True) ((x, v) :: rho) ((n, v) :: eta) ({| vars := (x, (n, IsVar)) :: vars s; decls := decls s; barrier := barrier s |} :: r)).
    { eapply rel_mono; [|eapply fresh_rel; [exact G|congruence|exact R|now apply plain_refl]]. intros y i _. now left. }
    destruct (IH _ _ vs _ _ _ _ G1 ltac:(discriminate) U2 ltac:(lia) PL2 E R1) as (A1 & A2 & A3). split; [exact A1|]. split; [lia|].
    cbn [combine rev]. rewrite <- !app_assoc. exact A3.
Qed.

Lemma unit_rel g xs body ids h n vs w : no_variables g -> visit_unit g xs body = Some (ids, h) -> uses LAM body = false -> existsb (String.eqb LAM) xs = false ->
  List.length vs = List.length xs -> forallb (plain g) vs = true -> plain_world g w = true ->
  (forall id u, lookup_id id (replacements h) = Some u -> ing g id = false) /\
  orel g (replacements h) (run_source g n xs body vs w) (run_target (replacements h) n ids h vs w).
Proof.
  intros NV H U UX LE PL PW. unfold visit_unit in H.
  set (l0 := [{| vars := []; decls := []; barrier := None |}; {| vars := g; decls := []; barrier := None |}]).
  assert (F0 : forall x, find_scope x l0 = assoc x g) by (intros x; cbn [find_scope l0 vars]; destruct (assoc x g); reflexivity).
  assert (G0 : good g (first_id g) l0).
  { split; [cbn; auto|]. split; [intros x id k _ F; rewrite F0 in F; eapply first_id_below; eauto|]. split.
    - intros x N. rewrite F0. destruct (assoc x g) as [[id [| |]]|]; auto.
    - intros x y id _ _ F. rewrite F0 in F. destruct (NV _ _ F). }
  change (push None {| next := first_id g; scopes := [{| vars := g; decls := []; barrier := None |}] |}) with {| next := first_id g; scopes := l0 |} in H.
  destruct (add_inputs xs {| next := first_id g; scopes := l0 |}) as [ids' t1] eqn:EI.
  destruct (visit_expression body t1) as [[h' t2]|] eqn:EB; [|discriminate]. inversion H; subst.
  assert (R0 : rel g (replacements h) (fun _ _ => True) [] [] l0).
  { intros x N. rewrite F0. destruct (assoc x g) as [[id [| |]]|] eqn:E; auto. destruct (NV _ _ E). }
  destruct (inputs_rel g (replacements h) xs _ _ vs _ _ [] [] G0 ltac:(discriminate) UX LE PL EI R0) as (G1 & L1 & R1). rewrite !app_nil_r in R1.
  rewrite (table_eta t1) in EB. pose proof (proj1 (expr_ok g) _ _ _ _ _ G1 U EB) as (_ & _ & _ & [ND LD]).
  assert (AP : forall id u, lookup_id id (replacements h) = Some u -> ing g id = false).
  { intros id u L. apply lookup_id_in in L. assert (K : In id (map fst (replacements h))) by (change id with (fst (id, u)); now apply in_map).
    specialize (LD id K). destruct (ing g id) eqn:E; [|reflexivity]. apply ing_below in E. lia. }
  split; [exact AP|]. unfold run_source, run_target.
  eapply (proj1 (expr_rel g (replacements h) AP (scall g n) (tcall (replacements h) n) (call_rel g (replacements h) AP n)));
    [exact G1|exact U|exact EB| |apply incl_refl| |].
  - intros id u K. now apply lookup_id_nodup.
  - eapply rel_mono; [|exact R1]. intros; exact I.
  - unfold plain_world in PW. apply andb_true_iff in PW as [P1 P2]. split; [reflexivity|]. split; [exact P1|].
    clear - P2. induction (log w) as [|[a b] m IH]; constructor.
    + cbn [forallb] in P2. apply andb_true_iff in P2 as [P2 _]. apply andb_true_iff in P2 as [A B]. split; now apply plain_refl.
    + cbn [forallb] in P2. apply andb_true_iff in P2 as [_ P2]. now apply IH.
Qed.

Lemma log_left g P a b : Forall2 (fun a b => vrel g P (fst a) (fst b) /\ vrel g P (snd a) (snd b)) a b ->
  forallb (fun p => plain g (fst p) && plain g (snd p)) a = true -> a = b.
Proof.
  induction 1 as [|[x y] [x' y'] a b [A B] H IH]; [reflexivity|]. cbn [forallb fst snd] in *. intros K. apply andb_true_iff in K as [K1 K2].
  apply andb_true_iff in K1 as [K1 K3]. rewrite (IH K2), (plain_left g P _ _ A K1), (plain_left g P _ _ B K3). reflexivity.
Qed.
Lemma log_right g P a b (AP : forall id u, lookup_id id P = Some u -> ing g id = false) : Forall2 (fun a b => vrel g P (fst a) (fst b) /\ vrel g P (snd a) (snd b)) a b ->
  forallb (fun p => plain g (fst p) && plain g (snd p)) b = true -> a = b.
Proof.
  induction 1 as [|[x y] [x' y'] a b [A B] H IH]; [reflexivity|]. cbn [forallb fst snd] in *. intros K. apply andb_true_iff in K as [K1 K2].
  apply andb_true_iff in K1 as [K1 K3]. rewrite (IH K2), (plain_right g P AP _ _ A K1), (plain_right g P AP _ _ B K3). reflexivity.
Qed.

Lemma unit_same g xs body ids h n vs w : no_variables g -> visit_unit g xs body = Some (ids, h) -> uses LAM body = false -> existsb (String.eqb LAM) xs = false ->
  List.length vs = List.length xs -> forallb (plain g) vs = true -> plain_world g w = true ->
  (forall v w', plain g v = true -> plain_world g w' = true ->
    (run_source g n xs body vs w = Some (v, w') <-> run_target (replacements h) n ids h vs w = Some (v, w'))) /\
  (run_source g n xs body vs w = None <-> run_target (replacements h) n ids h vs w = None).
Proof.
  intros NV H U UX LE PL PW. destruct (unit_rel g xs body ids h n vs w NV H U UX LE PL PW) as [AP R]. unfold orel in R.
  split.
  - intros v w' PV PW'. unfold plain_world in PW'. apply andb_true_iff in PW' as [_ PL'].
    split; intros E; rewrite E in R.
    + destruct (run_target (replacements h) n ids h vs w) as [[v2 w2]|]; [|tauto]. destruct R as (R & W1 & W2 & W3).
      rewrite <- (plain_left _ _ _ _ R PV). destruct w', w2; cbn in *; subst.
      pose proof (log_left _ _ _ _ W3 PL'). congruence.
    + destruct (run_source g n xs body vs w) as [[v2 w2]|]; [|tauto]. destruct R as (R & W1 & W2 & W3).
      rewrite (plain_right _ _ AP _ _ R PV). destruct w', w2; cbn in *; subst. pose proof (log_right _ _ _ _ AP W3 PL'). congruence.
  - destruct (run_source g n xs body vs w) as [[v2 w2]|], (run_target (replacements h) n ids h vs w) as [[v3 w3]|]; split; intros K; try discriminate; try tauto.
Qed.
