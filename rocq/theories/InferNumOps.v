(** What a client of unification with number bounds may do: new types, publishing a
    type, constraints and the link of a type parameter to its bound. *)
From Coq Require Import List Bool Arith ZArith Lia.
From Verif Require Import InferModel InferSpec InferChain InferState InferUnify InferCons InferNum.
Import ListNotations.

Section Context.
Variables num int_ uint_ : nat.
Notation G := (G num int_ uint_).
Notation bound := (bound num).
Notation shape := (shape num).
Notation cnt := (cnt int_ uint_).
Notation junk := (junk num int_ uint_).
Notation SolT := (SolT num int_ uint_).
Notation CSolT := (CSolT num int_ uint_).
Notation holdsT := (holdsT num int_ uint_).
Notation owns := owns.

Definition start_state : state := mkState [Known BError []] [[]] [] [].

Lemma G_start : G (fun _ => False) E0 start_state.
Proof.
  assert (LK : forall k, lookup (repl start_state) k = None) by reflexivity.
  assert (EN : forall k r, ends (repl start_state) k r -> k = r).
  { intros k r H. inversion H; auto. rewrite LK in *. discriminate. }
  constructor.
  - constructor.
    + discriminate.
    + intros k j H. rewrite LK in H. discriminate.
    + intros [|[|i]] b ps H; try discriminate. cbn in H. injection H as <- <-. constructor.
    + intros [|[|i]] b ps H; try discriminate. cbn in H. injection H as <- <-. auto.
  - intros v. exists v. constructor. apply LK.
  - intros [|[|i]] tv p H; try discriminate. cbn in H. injection H as <-. intros [].
  - intros k r H _. auto.
  - split; [constructor | intros v e []].
  - intros p [].
  - intros [|[|i]] tv H; try discriminate. cbn in H. injection H as <-.
    split; [exact I|]. intros b ps E N. injection E as <- <-. destruct N; discriminate.
  - intros u s [_ H]. destruct u as [|[|u]]; discriminate.
  - intros u s r o p [_ H]. destruct u as [|[|u]]; discriminate.
Qed.

(** no still unknown size of a number is what [p] stands for *)
Definition free (st : state) (p : nat) : Prop := forall u s r,
  bound st u s -> ends (repl st) s r -> nth_error (vars st) r = Some (Unknown [] MUint) -> ends (repl st) p r -> False.

Lemma pub_free P st p : G P E0 st -> P p -> free st p.
Proof.
  intros GG HP u s r B1 B2 B3 B4. destruct (g_priv _ _ _ _ _ _ GG u s r None p B1 B2 B3 HP B4) as [X|X]; [discriminate | exact X].
Qed.

Lemma param_free P st x b ps p : G P E0 st -> lookup (repl st) x = None ->
  nth_error (vars st) x = Some (Known b ps) -> In p ps -> free st p.
Proof.
  intros GG L N I u s r B1 B2 B3 B4.
  assert (OW : owns P st (Some x) p) by (split; eauto).
  destruct (g_priv _ _ _ _ _ _ GG u s r (Some x) p B1 B2 B3 OW B4) as [X|X]; [|exact X].
  injection X as ->. destruct B1 as [_ B1]. congruence.
Qed.

Lemma G_publish P (Q : nat -> Prop) st : G P E0 st ->
  (forall p, Q p -> p < len st /\ ~ err_id st p /\ free st p) ->
  G (fun p => P p \/ Q p) E0 st.
Proof.
  intros GG HQ. pose proof GG as [A B D F H I J K L]. constructor; auto.
  - intros p [X|X]; [auto | destruct (HQ p X); tauto].
  - intros u s r o p X1 X2 X3 X4 X5. destruct o as [x|].
    + eapply (L u s r (Some x) p); eauto.
    + destruct X4 as [X4|X4]; [eapply (L u s r None p); eauto|].
      exfalso. destruct (HQ p X4) as (_ & _ & FR). eapply FR; eauto.
Qed.

Lemma fresh_free st v : closed st -> (forall u s, bound st u s -> s < len st) ->
  len st <= v -> free st v.
Proof.
  intros C BS Lv u s r B1 B2 B3 B4.
  assert (r < len st) by (eapply ends_lt; eauto).
  inversion B4; subst; [lia|].
  match goal with K : lookup _ v = Some _ |- _ => apply (cl_keys _ C) in K end. lia.
Qed.

Lemma g_bound_lt P st u s : G P E0 st -> bound st u s -> s < len st.
Proof. intros GG [_ B]. eapply (g_ids _ _ _ _ _ _ GG); [exact B | cbn; auto]. Qed.

(** *** A new type of public types *)
Lemma err_with_var st tv i : nonerr tv -> err_id (with_var st tv) i -> err_id st i.
Proof.
  intros NE (ps & X). apply nth_with_var in X as [[_ X]|[_ X]]; [exists ps; auto | exfalso; eapply NE; eauto].
Qed.

Lemma G_new_known P st b ps : G P E0 st -> b <> BError -> (scalar b = true -> ps = []) ->
  (num_base int_ uint_ b -> length ps = 1) -> (forall p, In p ps -> P p) ->
  G (fun p => P p \/ p = len st) E0 (with_var st (Known b ps)).
Proof.
  intros GG NB SC CT IN. set (tv := Known b ps).
  assert (NE : nonerr tv) by (intros q X; injection X as -> _; auto).
  assert (GW : G P E0 (with_var st tv)).
  { apply G_with_var; auto.
    - exact I.
    - intros b' ps' X NBs. injection X as <- <-. auto.
    - split; [|auto]. apply Forall_forall. intros p X. apply (g_P _ _ _ _ _ _ GG). auto.
    - intros p X. apply (g_P _ _ _ _ _ _ GG). auto.
    - discriminate.
    - intros u s r p X X1 X2 X3 X4. exfalso. eapply (pub_free P st p); eauto. }
  apply G_publish; auto. intros p ->. rewrite len_with_var. split; [lia|]. split.
  - intros X. apply err_with_var in X; auto. destruct X as (q & X).
    assert (len st < len st) by (apply nth_error_Some; unfold len in *; congruence). lia.
  - intros u s r [B0 B1] B2 B3 B4.
    assert (ER : r = len st).
    { inversion B4; subst; auto. exfalso.
      match goal with K : lookup _ (len st) = Some _ |- _ => change (lookup (repl st) (len st) = Some j) in K; rewrite (lookup_fresh st (g_closed _ _ _ _ _ _ GG)) in K; discriminate end. }
    subst r. rewrite nth_with_var_new in B3. discriminate.
Qed.

(** *** An unknown type without bound; [pub]: whether the program holds on to it *)
Lemma junk_unknown m : junk (Unknown [] m).
Proof.
  split; [reflexivity|]. split; [intros ? X; discriminate|]. split; [left; reflexivity|]. intros b ps X; discriminate.
Qed.

Lemma G_new_unknown P st m (pub : bool) : G P E0 st ->
  G (fun p => P p \/ pub = true /\ p = len st) E0 (with_var st (Unknown [] m)).
Proof.
  intros GG.
  assert (GW : G P E0 (with_var st (Unknown [] m))) by (apply G_junk; [auto | apply junk_unknown]).
  apply G_publish; auto. intros p [_ ->]. rewrite len_with_var. split; [lia|]. split.
  - intros X. apply err_with_var in X; [|intros ? ?; discriminate]. destruct X as (q & X).
    assert (len st < len st) by (apply nth_error_Some; unfold len in *; congruence). lia.
  - intros u s r B1 B2 B3 B4.
    assert (ER : r = len st).
    { inversion B4; subst; auto. exfalso.
      match goal with K : lookup _ (len st) = Some _ |- _ => change (lookup (repl st) (len st) = Some j) in K; rewrite (lookup_fresh st (g_closed _ _ _ _ _ _ GG)) in K; discriminate end. }
    subst r. destruct B1 as [_ B1]. apply nth_with_var in B1 as [[Lu B1]|[_ B1]]; [|discriminate].
    assert (Ls : s < len st) by (eapply (g_ids _ _ _ _ _ _ GG); [exact B1 | cbn; auto]).
    change (ends (repl st) s (len st)) in B2.
    assert (len st < len st) by (eapply ends_lt; [apply (g_closed _ _ _ _ _ _ GG) | exact Ls | exact B2]). lia.
Qed.

(** *** A number of a private size *)
Definition lonely (P : nat -> Prop) (st : state) (v : nat) : Prop :=
  forall o p, owns P st o p -> ~ ends (repl st) p v.

Lemma G_new_number P st size : G P E0 st -> size < len st ->
  lookup (repl st) size = None -> nth_error (vars st) size = Some (Unknown [] MUint) -> lonely P st size ->
  G (fun p => P p \/ p = len st) E0 (with_var st (Unknown [(num, [size])] MType)).
Proof.
  intros GG LT LK NT LO. set (tv := Unknown [(num, [size])] MType).
  assert (NE : nonerr tv) by (intros ? ?; discriminate).
  assert (ES : ends (repl st) size size) by (constructor; auto).
  assert (GW : G P E0 (with_var st tv)).
  { apply G_with_var; auto.
    - right. split; eauto.
    - intros b ps X. discriminate.
    - cbn. exact I.
    - cbn. intros p [<-|[]]. split; auto. intros (q & X). congruence.
    - intros s X. injection X as <-. split.
      + exists size, (Unknown [] MUint). repeat split; auto. left. auto.
      + intros o p r O X1 X2 X3. rewrite (ends_det _ _ _ X1 _ ES) in X2. exfalso. eapply LO; eauto.
    - cbn. intros u s r p [<-|[]] B1 B2 B3 B4. rewrite (ends_det _ _ _ B3 _ ES) in B2. exfalso.
      apply (LO (Some u) s); auto. eapply owns_bound; eauto. }
  apply G_publish; auto. intros p ->. rewrite len_with_var. split; [lia|]. split.
  - intros X. apply err_with_var in X; auto. destruct X as (q & X).
    assert (len st < len st) by (apply nth_error_Some; unfold len in *; congruence). lia.
  - intros u s r [B0 B1] B2 B3 B4.
    assert (ER : r = len st).
    { inversion B4; subst; auto. exfalso.
      match goal with K : lookup _ (len st) = Some _ |- _ => change (lookup (repl st) (len st) = Some j) in K; rewrite (lookup_fresh st (g_closed _ _ _ _ _ _ GG)) in K; discriminate end. }
    subst r. rewrite nth_with_var_new in B3. discriminate.
Qed.

Lemma lonely_fresh P st m : G P E0 st -> lonely P (with_var st (Unknown [] m)) (len st).
Proof.
  intros GG o p O X.
  assert (Lp : p < len st).
  { destruct o as [x|]; [|apply (g_P _ _ _ _ _ _ GG); exact O]. destruct O as (_ & t & Y1 & Y2).
    apply nth_with_var in Y1 as [[_ Y1]|[_ ->]]; [|destruct Y2]. eapply (g_ids _ _ _ _ _ _ GG); eauto. }
  change (ends (repl st) p (len st)) in X.
  assert (len st < len st) by (eapply ends_lt; [apply (g_closed _ _ _ _ _ _ GG) | exact Lp | exact X]). lia.
Qed.

(** *** Constraints *)
Lemma G_constrain P st v e : G P E0 st -> v < len st -> ~ err_id st v -> Forall (fun x => x < len st) (cvars e) ->
  G P E0 (set_cons st (cons st ++ [(v, e)])).
Proof.
  intros GG Lv NE Le. destruct (g_cons _ _ _ _ _ _ GG) as [A B]. apply G_set_cons; auto.
  - apply Forall_app. split; auto.
  - intros w f X. apply in_app_iff in X as [X|[X|[]]]; [eauto|]. injection X as <- <-. auto.
Qed.
Lemma csol_constrain st v e val : CSolT (set_cons st (cons st ++ [(v, e)])) val ->
  CSolT st val /\ exists k, Value val e k /\ val v = TK k [].
Proof.
  intros [A B]. split; [split|].
  - exact A.
  - intros w f X. apply B. cbn. apply in_app_iff. auto.
  - apply B. cbn. apply in_app_iff. right. left. auto.
Qed.

(** *** What a variable resolves to *)
Lemma resolve_val st v tv val : CSolT st val -> chains st -> resolve st v = Some tv ->
  exists r, ends (repl st) v r /\ nth_error (vars st) r = Some tv /\ val v = val r /\ holdsT val r tv.
Proof.
  intros [[A B] _] CH H. destruct (CH v) as (r & E). exists r. split; auto.
  rewrite (resolve_spec _ _ _ E) in H. split; auto. split; [apply A; auto|].
  apply B; auto. eapply ends_rep; eauto.
Qed.
Lemma resolve_root st v tv : chains st -> resolve st v = Some tv ->
  exists r, ends (repl st) v r /\ lookup (repl st) r = None /\ nth_error (vars st) r = Some tv.
Proof.
  intros CH H. destruct (CH v) as (r & E). exists r.
  rewrite (resolve_spec _ _ _ E) in H. split; auto. split; auto. eapply ends_rep; eauto.
Qed.

(** *** A type parameter replaced by one with its bound; lib.rs:2734-2757 *)
Lemma G_link P st a b s : G P E0 st -> lookup (repl st) a = None -> lookup (repl st) b = None ->
  nth_error (vars st) a = Some (Unknown [] MType) -> nth_error (vars st) b = Some (Unknown [(num, [s])] MType) ->
  G P E0 (with_repl st a b).
Proof.
  intros GG Ka Kb Na Nb. pose proof GG as [A B D F H I J K L].
  assert (AB : a <> b) by (intros ->; congruence).
  assert (La : a < len st) by (apply nth_error_Some; unfold len in *; congruence).
  assert (Lb : b < len st) by (apply nth_error_Some; unfold len in *; congruence).
  pose proof (cl_repl _ A) as NN.
  assert (EF : forall k r, ends (repl st) k r -> ends (repl (with_repl st a b)) k (if r =? a then b else r)).
  { intros k r X. unfold with_repl. cbn. apply ends_insert; auto. }
  assert (EI : forall k r, ends (repl (with_repl st a b)) k r -> exists r0, ends (repl st) k r0 /\ r = if r0 =? a then b else r0).
  { intros k r X. unfold with_repl in X. cbn in X. eapply ends_insert_inv; eauto. }
  assert (RT : forall k, lookup (repl (with_repl st a b)) k = None -> lookup (repl st) k = None /\ k <> a).
  { intros k X. unfold with_repl in X. cbn in X. rewrite lookup_insert in X by auto.
    destruct (a =? k) eqn:Q; [discriminate|]. apply Nat.eqb_neq in Q. auto. }
  assert (BD : forall u z, bound (with_repl st a b) u z -> bound st u z).
  { intros u z [X1 X2]. apply RT in X1 as [X1 _]. split; auto. }
  assert (NS : forall z r, ends (repl st) z r -> nth_error (vars st) r = Some (Unknown [] MUint) -> r <> a /\ r <> b).
  { intros z r X1 X2. split; intros ->; congruence. }
  constructor.
  - apply closed_with_repl; auto.
  - intros v. destruct (B v) as (r & X). eauto.
  - exact D.
  - intros k r X Y. apply EI in X as (r0 & X & ->).
    change (err_id st (if r0 =? a then b else r0)) in Y. destruct (r0 =? a) eqn:Q; [|apply F; auto].
    destruct Y as (ps & Y). congruence.
  - exact H.
  - exact I.
  - exact J.
  - intros u z X. apply BD in X. destruct (K u z X) as (r & tv & X1 & X2 & X3).
    exists r, tv. split; [|split; auto]. apply EF in X1.
    replace (r =? a) with false in X1; auto. symmetry. apply Nat.eqb_neq. intros ->. rewrite Na in X2. injection X2 as <-.
    destruct X3 as [X3|(w & X3)]; discriminate.
  - intros u z r o p X1 X2 X3 X4 X5. apply BD in X1. change (nth_error (vars st) r = Some (Unknown [] MUint)) in X3.
    apply EI in X2 as (r1 & X2 & E1). apply EI in X5 as (r2 & X5 & E2).
    assert (r <> a /\ r <> b) as [N1 N2] by (split; intros ->; congruence).
    destruct (r1 =? a) eqn:Q1; [congruence|]. destruct (r2 =? a) eqn:Q2; [congruence|]. subst r1. subst r2.
    apply (L u z r o p); auto.
    destruct o as [x|]; [|exact X4]. destruct X4 as (Y1 & Y2). apply RT in Y1 as [Y1 _]. split; auto.
Qed.
Lemma csol_link st a b s val : repl st <> [] -> chains st -> lookup (repl st) a = None -> lookup (repl st) b = None ->
  nth_error (vars st) a = Some (Unknown [] MType) -> nth_error (vars st) b = Some (Unknown [(num, [s])] MType) ->
  CSolT (with_repl st a b) val -> CSolT st val /\ val a = val b.
Proof.
  intros NN CH Ka Kb Na Nb [[A B] D].
  assert (AB : a <> b) by (intros ->; congruence).
  assert (EQ : val a = val b).
  { apply A. unfold with_repl. cbn. pose proof (ends_insert (repl st) a b NN Ka Kb AB a a (ends_root _ _ Ka)) as X.
    rewrite Nat.eqb_refl in X. exact X. }
  assert (LK : forall i, i <> a -> lookup (repl st) i = None -> lookup (repl (with_repl st a b)) i = None).
  { intros i N X. unfold with_repl. cbn. rewrite lookup_insert by auto. replace (a =? i) with false; auto.
    symmetry. apply Nat.eqb_neq. auto. }
  split; auto. split; [split|exact D].
  - intros k r X. pose proof (ends_insert (repl st) a b NN Ka Kb AB k r X) as Y. apply A in Y. rewrite Y.
    destruct (r =? a) eqn:Q; auto. apply Nat.eqb_eq in Q. congruence.
  - intros i tv N L. destruct (Nat.eq_dec i a) as [->|NE].
    + rewrite Na in N. injection N as <-. destruct (B b _ Nb (LK b (not_eq_sym AB) Kb)) as [HK _].
      split; [rewrite EQ; auto|]. intros q X. discriminate.
    + apply B; auto.
Qed.
End Context.
