(** The fifo neither loses, repeats nor reorders values. *)
From Coq Require Import ZArith List Bool Lia.
From Verif Require Import GrayModel GrayProofs FifoModel FifoSpec.
Import ListNotations.
Local Open Scope Z_scope.

Lemma mix_same m a : mix m a a = a.
Proof.
  unfold mix. apply Z.bits_inj'. intros i I. rewrite Z.lor_spec, Z.land_spec, Z.ldiff_spec.
  destruct (Z.testbit a i), (Z.testbit m i); reflexivity.
Qed.
Lemma mix_one_bit m a b : one_bit a b -> mix m a b = a \/ mix m a b = b.
Proof.
  intros (k & K & H). destruct (Z.testbit m k) eqn:M; [left|right]; unfold mix; apply Z.bits_inj'; intros i I;
    rewrite Z.lor_spec, Z.land_spec, Z.ldiff_spec, H by assumption; destruct (Z.eqb_spec i k) as [->|N]; rewrite ?M;
    rewrite ?xorb_false_r; destruct (Z.testbit a _); try destruct (Z.testbit m i); reflexivity.
Qed.

Section Proofs.
Context {D : Type}.
Variable W : nat.
Notation M := (2 ^ Z.of_nat W).
Notation wr := (wrap W).

Lemma M_pos : 0 < M. Proof. apply Z.pow_pos_nonneg; lia. Qed.
Lemma wrap_range x : 0 <= wr x < M.
Proof. unfold wrap. apply Z.mod_pos_bound. apply M_pos. Qed.
Lemma wrap_succ x : wr (wr x + 1) = wr (x + 1).
Proof. unfold wrap. pose proof M_pos. rewrite Zplus_mod_idemp_l. reflexivity. Qed.
Lemma wrap_eq x y : 0 <= x - y < M -> (wr x =? wr y) = (x =? y).
Proof.
  intros H. pose proof M_pos. destruct (Z.eqb_spec x y) as [->|N]; [apply Z.eqb_refl|]. apply Z.eqb_neq. intros E. apply N.
  unfold wrap in E. assert (K : (x - y) mod M = 0) by (rewrite Zminus_mod, E, Z.sub_diag; apply Z.mod_0_l; lia).
  rewrite Z.mod_small in K by lia. lia.
Qed.
Definition code (x : Z) : Z := to_gray (wr x).
Lemma decode x : gray_to_bin W (code x) = wr x.
Proof. apply gray_round_trip. apply wrap_range. Qed.
Lemma mix_code m a b : a <= b <= a + 1 -> exists c, mix m (code a) (code b) = code c /\ (c = a \/ c = b).
Proof.
  intros H. destruct (Z.eq_dec a b) as [->|N].
  - exists b. rewrite mix_same. auto.
  - assert (b = a + 1) by lia. subst. unfold code. destruct (Nat.eq_dec W 0) as [E|E].
    + exists a. assert (Z1 : forall x, wr x = 0).
      { intros x. pose proof (wrap_range x) as R. rewrite E in R. cbn in R. rewrite E. lia. }
      rewrite !Z1, mix_same. auto.
    + rewrite <- wrap_succ. destruct (mix_one_bit m (to_gray (wr a)) (to_gray (wr (wr a + 1)))) as [->| ->].
      * apply gray_step; [lia|apply wrap_range].
      * exists a. auto.
      * exists (a + 1). rewrite wrap_succ. auto.
Qed.

(** [P], [Q]: values put in and got out; the other numbers: what is known of them
    along the way. *)
Record inv (s : fifo D) (ps qs : list D) (Pg P1 P2 Qg Q1 Q2 : Z) : Prop := {
  i_wp : wp s = wr (Z.of_nat (List.length ps));
  i_rp : rp s = wr (Z.of_nat (List.length qs));
  i_gw : gw s = code Pg; i_w1 : w1 s = code P1; i_w2 : w2 s = code P2;
  i_gr : gr s = code Qg; i_r1 : r1 s = code Q1; i_r2 : r2 s = code Q2;
  i_pg : Pg <= Z.of_nat (List.length ps) <= Pg + 1;
  i_p : P2 <= P1 <= Pg;
  i_qp : Z.of_nat (List.length qs) <= P2;
  i_qg : Qg <= Z.of_nat (List.length qs) <= Qg + 1;
  i_q : 0 <= Q2 /\ Q2 <= Q1 <= Qg;
  i_room : Z.of_nat (List.length ps) <= Q2 + M - 1;
  i_mem : forall i v, (List.length qs <= i)%nat -> nth_error ps i = Some v -> memory s (wr (Z.of_nat i)) = v;
  i_out : Z.of_nat (List.length qs) < P2 -> nth_error ps (List.length qs) = Some (read_result s);
  i_prefix : exists rest, ps = qs ++ rest }.

Section Step.
Variables (s : fifo D) (ps qs : list D) (Pg P1 P2 Qg Q1 Q2 : Z).
Hypothesis I : inv s ps qs Pg P1 P2 Qg Q1 Q2.
Notation P := (Z.of_nat (List.length ps)).
Notation Q := (Z.of_nat (List.length qs)).

Lemma seen_wp_eq : seen_wp W s = wr P2.
Proof. unfold seen_wp. rewrite (i_w2 _ _ _ _ _ _ _ _ _ I). apply decode. Qed.
Lemma seen_rp_eq : seen_rp W s = wr Q2.
Proof. unfold seen_rp. rewrite (i_r2 _ _ _ _ _ _ _ _ _ I). apply decode. Qed.
Lemma empty_eq : empty W s = (P2 =? Q).
Proof.
  unfold empty. rewrite seen_wp_eq, (i_rp _ _ _ _ _ _ _ _ _ I). apply wrap_eq.
  pose proof (i_qp _ _ _ _ _ _ _ _ _ I). pose proof (i_p _ _ _ _ _ _ _ _ _ I). pose proof (i_pg _ _ _ _ _ _ _ _ _ I).
  pose proof (i_room _ _ _ _ _ _ _ _ _ I). pose proof (i_q _ _ _ _ _ _ _ _ _ I). pose proof (i_qg _ _ _ _ _ _ _ _ _ I). lia.
Qed.
Lemma full_eq : full W s = (P =? Q2 + M - 1).
Proof.
  unfold full. rewrite seen_rp_eq, (i_wp _ _ _ _ _ _ _ _ _ I), wrap_succ.
  pose proof M_pos. replace (wr (P + 1)) with (wr (P + 1 - M)).
  2:{ unfold wrap. replace (P + 1) with (P + 1 - M + 1 * M) at 2 by lia. now rewrite Z_mod_plus_full. }
  rewrite Z.eqb_sym. rewrite wrap_eq.
  - destruct (Z.eqb_spec Q2 (P + 1 - M)), (Z.eqb_spec P (Q2 + M - 1)); lia.
  - pose proof (i_qp _ _ _ _ _ _ _ _ _ I). pose proof (i_p _ _ _ _ _ _ _ _ _ I). pose proof (i_pg _ _ _ _ _ _ _ _ _ I).
    pose proof (i_room _ _ _ _ _ _ _ _ _ I). pose proof (i_q _ _ _ _ _ _ _ _ _ I). pose proof (i_qg _ _ _ _ _ _ _ _ _ I). lia.
Qed.
Definition new_ps (w : option D) : list D := match taken W s w with Some v => ps ++ [v] | None => ps end.
Definition new_qs (ack : bool) : list D :=
  if ack then match shown W s with Some v => qs ++ [v] | None => qs end else qs.

Lemma shown_eq v : shown W s = Some v -> Q < P2 /\ nth_error ps (List.length qs) = Some v /\ v = read_result s.
Proof.
  unfold shown. rewrite empty_eq. pose proof (i_qp _ _ _ _ _ _ _ _ _ I). destruct (Z.eqb_spec P2 Q); [discriminate|]. intros E. inversion E; subst.
  assert (L : Q < P2) by lia. split; [assumption|]. split; [exact (i_out _ _ _ _ _ _ _ _ _ I L)|reflexivity].
Qed.
Lemma rp_next_eq ack : rp_next W s ack = wr (Z.of_nat (List.length (new_qs ack))).
Proof.
  unfold rp_next, new_qs, shown. rewrite (i_rp _ _ _ _ _ _ _ _ _ I). destruct ack; [|reflexivity].
  destruct (empty W s); [reflexivity|]. rewrite app_length. cbn [List.length]. rewrite wrap_succ. f_equal. lia.
Qed.
Lemma wp_next_eq w : wp_next W s w = wr (Z.of_nat (List.length (new_ps w))).
Proof.
  unfold wp_next, new_ps. rewrite (i_wp _ _ _ _ _ _ _ _ _ I). destruct (taken W s w); [|reflexivity].
  rewrite app_length. cbn [List.length]. rewrite wrap_succ. f_equal. lia.
Qed.
Lemma new_ps_room w : P <= Z.of_nat (List.length (new_ps w)) <= P + 1 /\ Z.of_nat (List.length (new_ps w)) <= Q2 + M - 1.
Proof.
  pose proof (i_room _ _ _ _ _ _ _ _ _ I) as R. unfold new_ps, taken. destruct w as [v|]; [|lia].
  rewrite full_eq. destruct (Z.eqb_spec P (Q2 + M - 1)); [lia|]. rewrite app_length. cbn [List.length]. lia.
Qed.
Lemma new_qs_bound ack : Q <= Z.of_nat (List.length (new_qs ack)) <= Q + 1 /\ Z.of_nat (List.length (new_qs ack)) <= P2.
Proof.
  pose proof (i_qp _ _ _ _ _ _ _ _ _ I) as R. unfold new_qs. destruct ack; [|lia].
  destruct (shown W s) as [v|] eqn:E; [|lia]. apply shown_eq in E as [L _]. rewrite app_length. cbn [List.length]. lia.
Qed.
Lemma new_prefix ack : exists rest, ps = new_qs ack ++ rest.
Proof.
  destruct (i_prefix _ _ _ _ _ _ _ _ _ I) as (rest & E). unfold new_qs. destruct ack; [|eauto].
  destruct (shown W s) as [v|] eqn:S; [|eauto]. apply shown_eq in S as (_ & N & _). rewrite E in N.
  rewrite nth_error_app2 in N by lia. rewrite Nat.sub_diag in N. destruct rest as [|x rest]; [discriminate|]. injection N as ->.
  exists rest. rewrite E, <- app_assoc. reflexivity.
Qed.
Lemma ps_prefix w : exists rest, new_ps w = ps ++ rest.
Proof. unfold new_ps. destruct (taken W s w) as [v|]; [exists [v]|exists []; rewrite app_nil_r]; reflexivity. Qed.
Lemma store_mem C w i v : C = M -> (List.length qs <= i)%nat -> nth_error (new_ps w) i = Some v -> store W C s w (wr (Z.of_nat i)) = v.
Proof.
  intros -> L N. unfold new_ps, store in *. destruct (taken W s w) as [v'|] eqn:T.
  - rewrite (i_wp _ _ _ _ _ _ _ _ _ I). pose proof (wrap_range P) as R. destruct (Z.ltb_spec (wr P) M); [|lia]. rewrite andb_true_r.
    assert (LI : (i < List.length (ps ++ [v']))%nat) by (apply nth_error_Some; congruence). rewrite app_length in LI. cbn in LI.
    rewrite Z.eqb_sym, wrap_eq.
    2:{ pose proof (i_qp _ _ _ _ _ _ _ _ _ I). pose proof (i_q _ _ _ _ _ _ _ _ _ I). pose proof (i_qg _ _ _ _ _ _ _ _ _ I).
        pose proof (i_room _ _ _ _ _ _ _ _ _ I). lia. }
    destruct (Z.eqb_spec P (Z.of_nat i)) as [E|E].
    + assert (i = List.length ps) by lia. subst. rewrite nth_error_app2, Nat.sub_diag in N by lia. cbn in N. congruence.
    + rewrite nth_error_app1 in N by lia. exact (i_mem _ _ _ _ _ _ _ _ _ I i v L N).
  - exact (i_mem _ _ _ _ _ _ _ _ _ I i v L N).
Qed.
Lemma fetch_out C ack junk : C = M -> Z.of_nat (List.length (new_qs ack)) < P1 ->
  nth_error ps (List.length (new_qs ack)) = Some (fetch C s (rp_next W s ack) junk).
Proof.
  intros -> L. unfold fetch. rewrite rp_next_eq. set (k := List.length (new_qs ack)) in *.
  pose proof (wrap_range (Z.of_nat k)) as R. destruct (Z.ltb_spec (wr (Z.of_nat k)) M); [|lia].
  pose proof (i_p _ _ _ _ _ _ _ _ _ I). pose proof (i_pg _ _ _ _ _ _ _ _ _ I). pose proof (new_qs_bound ack) as B. fold k in B.
  assert (LK : (k < List.length ps)%nat) by lia. destruct (nth_error ps k) as [v|] eqn:N; [|apply nth_error_None in N; lia].
  f_equal. symmetry. apply (i_mem _ _ _ _ _ _ _ _ _ I k v); [|exact N]. lia.
Qed.
(** The word that is read is not the one that is written, if it matters. *)
Lemma no_clash ack : Z.of_nat (List.length (new_qs ack)) < P1 -> rp_next W s ack =? wp s = false.
Proof.
  intros L. rewrite rp_next_eq, (i_wp _ _ _ _ _ _ _ _ _ I). rewrite Z.eqb_sym, wrap_eq.
  - pose proof (i_p _ _ _ _ _ _ _ _ _ I). pose proof (i_pg _ _ _ _ _ _ _ _ _ I). apply Z.eqb_neq. lia.
  - pose proof (new_qs_bound ack). pose proof (i_p _ _ _ _ _ _ _ _ _ I). pose proof (i_pg _ _ _ _ _ _ _ _ _ I).
    pose proof (i_q _ _ _ _ _ _ _ _ _ I). pose proof (i_qg _ _ _ _ _ _ _ _ _ I). pose proof (i_room _ _ _ _ _ _ _ _ _ I). lia.
Qed.

Ltac facts := pose proof (i_p _ _ _ _ _ _ _ _ _ I); pose proof (i_pg _ _ _ _ _ _ _ _ _ I); pose proof (i_qp _ _ _ _ _ _ _ _ _ I);
    pose proof (i_q _ _ _ _ _ _ _ _ _ I); pose proof (i_qg _ _ _ _ _ _ _ _ _ I); pose proof (i_room _ _ _ _ _ _ _ _ _ I).

Lemma put_eq e : quiet e = true -> match e with WriteEdge w _ | BothEdges w _ _ _ _ _ _ => ps ++ put W s e = new_ps w | ReadEdge _ _ _ => put W s e = [] end.
Proof.
  unfold new_ps, taken. destruct e as [w rst|ack rst junk|w wrst ack rrst mw mr junk]; cbn; intros QE; [|reflexivity|].
  - destruct rst; [discriminate|]. destruct w as [v|]; [|now rewrite app_nil_r]. destruct (full W s); [now rewrite app_nil_r|reflexivity].
  - destruct wrst; [discriminate|]. destruct w as [v|]; [|now rewrite app_nil_r]. destruct (full W s); [now rewrite app_nil_r|reflexivity].
Qed.
Lemma got_eq e : quiet e = true -> match e with ReadEdge ack _ _ | BothEdges _ _ ack _ _ _ _ => qs ++ got W s e = new_qs ack | WriteEdge _ _ => got W s e = [] end.
Proof.
  unfold new_qs. destruct e as [w rst|ack rst junk|w wrst ack rrst mw mr junk]; cbn; intros QE; [reflexivity| |].
  - destruct rst; [discriminate|]. destruct ack; [|now rewrite app_nil_r]. destruct (shown W s); [reflexivity|now rewrite app_nil_r].
  - destruct rrst; [rewrite andb_false_r in QE; discriminate|]. destruct ack; [|now rewrite app_nil_r]. destruct (shown W s); [reflexivity|now rewrite app_nil_r].
Qed.

Lemma step_inv C e : C = M -> quiet e = true ->
  exists Pg' P1' P2' Qg' Q1' Q2', inv (step W C s e) (ps ++ put W s e) (qs ++ got W s e) Pg' P1' P2' Qg' Q1' Q2' /\
    (match e with WriteEdge _ _ => Pg' = P /\ P1' = P1 /\ P2' = P2 /\ Qg' = Qg /\ Q2' = Q1 /\ Q1' = Qg
     | ReadEdge _ _ _ => Qg' = Q /\ Q1' = Q1 /\ Q2' = Q2 /\ Pg' = Pg /\ P2' = P1 /\ P1' = Pg
     | BothEdges _ _ _ _ _ _ _ => Pg' = P /\ Qg' = Q /\ P2' = P1 /\ Q2' = Q1 /\ Pg <= P1' /\ Qg <= Q1' end).
Proof.
  intros HC QE. pose proof (put_eq e QE) as PE. pose proof (got_eq e QE) as GE. facts.
  destruct e as [w rst|ack rst junk|w wrst ack rrst mw mr junk]; cbn in QE.
  - assert (rst = false) by (destruct rst; [discriminate|reflexivity]). subst rst.
    rewrite PE, GE, app_nil_r. exists P, P1, P2, Qg, Qg, Q1. split; [|auto 10].
    pose proof (new_ps_room w) as R. destruct (ps_prefix w) as (more & MO).
    constructor; cbn; try (exact (i_rp _ _ _ _ _ _ _ _ _ I)); try (exact (i_w1 _ _ _ _ _ _ _ _ _ I)); try (exact (i_w2 _ _ _ _ _ _ _ _ _ I));
      try (exact (i_gr _ _ _ _ _ _ _ _ _ I)); try (exact (i_r1 _ _ _ _ _ _ _ _ _ I)); try lia.
    + apply wp_next_eq.
    + unfold code. now rewrite (i_wp _ _ _ _ _ _ _ _ _ I).
    + intros i v. now apply store_mem.
    + intros L. rewrite MO, nth_error_app1 by lia. exact (i_out _ _ _ _ _ _ _ _ _ I L).
    + destruct (i_prefix _ _ _ _ _ _ _ _ _ I) as (rest & E). exists (rest ++ more). rewrite MO, E at 1. now rewrite <- app_assoc.
  - assert (rst = false) by (destruct rst; [discriminate|reflexivity]). subst rst.
    rewrite PE, GE, app_nil_r. exists Pg, Pg, P1, Q, Q1, Q2. split; [|auto 10].
    pose proof (new_qs_bound ack) as R.
    constructor; cbn; try (exact (i_wp _ _ _ _ _ _ _ _ _ I)); try (exact (i_gw _ _ _ _ _ _ _ _ _ I)); try (exact (i_w1 _ _ _ _ _ _ _ _ _ I));
      try (exact (i_r1 _ _ _ _ _ _ _ _ _ I)); try (exact (i_r2 _ _ _ _ _ _ _ _ _ I)); try lia.
    + apply rp_next_eq.
    + unfold code. now rewrite (i_rp _ _ _ _ _ _ _ _ _ I).
    + intros i v L. apply (i_mem _ _ _ _ _ _ _ _ _ I). lia.
    + intros L. now apply fetch_out.
    + apply new_prefix.
  - apply andb_true_iff in QE as [Q1E Q2E]. assert (wrst = false) by (destruct wrst; [discriminate|reflexivity]). subst wrst.
    assert (rrst = false) by (destruct rrst; [discriminate|reflexivity]). subst rrst.
    rewrite PE, GE.
    destruct (mix_code mw Pg P) as (Ps & MP & SP); [lia|]. destruct (mix_code mr Qg Q) as (Qs & MQ & SQ); [lia|].
    exists P, Ps, P1, Q, Qs, Q1. split; [|repeat split; lia].
    pose proof (new_ps_room w) as R. pose proof (new_qs_bound ack) as R2. destruct (ps_prefix w) as (more & MO).
    constructor; cbn; try (exact (i_w1 _ _ _ _ _ _ _ _ _ I)); try (exact (i_r1 _ _ _ _ _ _ _ _ _ I)); try lia.
    + apply wp_next_eq.
    + apply rp_next_eq.
    + unfold code. now rewrite (i_wp _ _ _ _ _ _ _ _ _ I).
    + rewrite (i_gw _ _ _ _ _ _ _ _ _ I), (i_wp _ _ _ _ _ _ _ _ _ I). exact MP.
    + unfold code. now rewrite (i_rp _ _ _ _ _ _ _ _ _ I).
    + rewrite (i_gr _ _ _ _ _ _ _ _ _ I), (i_rp _ _ _ _ _ _ _ _ _ I). exact MQ.
    + intros i v L. apply store_mem; [assumption|]. lia.
    + intros L. rewrite MO, nth_error_app1 by lia. rewrite (fetch_out C ack junk HC L).
      destruct (taken W s w); [|reflexivity]. now rewrite (no_clash ack L).
    + destruct (new_prefix ack) as (rest & E). exists (rest ++ more). rewrite MO, E at 1. now rewrite <- app_assoc.
Qed.

Lemma num_eq C : C = M -> num_elements W C s = P2 - Q.
Proof.
  intros ->. unfold num_elements. rewrite seen_wp_eq, (i_rp _ _ _ _ _ _ _ _ _ I). facts. pose proof M_pos.
  assert (E : wr ((if wr P2 <? wr Q then wr P2 + M else wr P2) - wr Q) = wr (P2 - Q)).
  { unfold wrap. destruct (_ <? _).
    - rewrite (Zminus_mod (P2 mod M + M)), Zmod_mod. replace (P2 mod M + M) with (P2 mod M + 1 * M) by lia.
      rewrite Z_mod_plus_full, Zmod_mod. rewrite <- Zminus_mod. reflexivity.
    - rewrite <- Zminus_mod. reflexivity. }
  rewrite E. unfold wrap. rewrite Z.mod_small; lia.
Qed.
End Step.

Lemma fresh_inv s : fresh s -> inv s [] [] 0 0 0 0 0 0.
Proof.
  intros (A & B & C & E & F & G & H & J). assert (Z0 : wr 0 = 0) by (unfold wrap; apply Z.mod_0_l; pose proof M_pos; lia).
  assert (C0 : code 0 = 0) by (unfold code; now rewrite Z0).
  pose proof M_pos. constructor; cbn; rewrite ?Z0, ?C0; try assumption; try lia.
  - intros [|i] v _ N; discriminate.
  - exists []. reflexivity.
Qed.
Lemma run_inv C es : C = M -> forall s ps qs Pg P1 P2 Qg Q1 Q2, inv s ps qs Pg P1 P2 Qg Q1 Q2 -> forallb quiet es = true ->
  exists Pg' P1' P2' Qg' Q1' Q2', inv (run W C s es) (ps ++ puts W C s es) (qs ++ gots W C s es) Pg' P1' P2' Qg' Q1' Q2' /\
    P1 <= P1' /\ P2 <= P2' /\ Q1 <= Q1' /\ Q2 <= Q2' /\ Pg <= Pg' /\ Qg <= Qg' /\
    ((1 <= write_edges es)%nat -> Z.of_nat (List.length ps) <= Pg') /\
    ((1 <= read_edges es)%nat -> Z.of_nat (List.length qs) <= Qg') /\
    ((2 <= read_edges es)%nat -> Pg <= P2') /\ ((1 <= read_edges es)%nat -> Pg <= P1') /\
    ((1 <= read_edges es)%nat -> P1 <= P2') /\
    ((2 <= write_edges es)%nat -> Qg <= Q2') /\ ((1 <= write_edges es)%nat -> Qg <= Q1') /\
    ((1 <= write_edges es)%nat -> Q1 <= Q2').
Proof.
  intros HC. induction es as [|e es IH]; intros s ps qs Pg P1 P2 Qg Q1 Q2 I QE.
  - cbn. rewrite !app_nil_r. exists Pg, P1, P2, Qg, Q1, Q2. split; [exact I|]. unfold write_edges, read_edges. cbn. repeat split; lia.
  - cbn in QE. apply andb_true_iff in QE as [QE1 QE2].
    destruct (step_inv s ps qs Pg P1 P2 Qg Q1 Q2 I C e HC QE1) as (Pg1 & P11 & P21 & Qg1 & Q11 & Q21 & I1 & CH).
    destruct (IH _ _ _ _ _ _ _ _ _ I1 QE2) as (Pg' & P1' & P2' & Qg' & Q1' & Q2' & I2 & H).
    exists Pg', P1', P2', Qg', Q1', Q2'. cbn [puts gots run fold_left]. rewrite !app_assoc. split; [exact I2|].
    pose proof (i_p _ _ _ _ _ _ _ _ _ I). pose proof (i_q _ _ _ _ _ _ _ _ _ I). pose proof (i_pg _ _ _ _ _ _ _ _ _ I). pose proof (i_qg _ _ _ _ _ _ _ _ _ I).
    pose proof (i_p _ _ _ _ _ _ _ _ _ I1). pose proof (i_q _ _ _ _ _ _ _ _ _ I1).
    pose proof (i_p _ _ _ _ _ _ _ _ _ I2). pose proof (i_q _ _ _ _ _ _ _ _ _ I2).
    rewrite !app_length in H. unfold write_edges, read_edges in *. destruct e as [w rst|ack rst junk|w wrst ack rrst mw mr junk]; cbn [filter List.length] in *; repeat split; try lia.
Qed.

(** ** Reset *)
Ltac ar := repeat match goal with H : _ -> _ |- _ => clear H end; lia.
Lemma reset_step (s : fifo D) (e : event D) C : in_reset e = true ->
  match e with
  | WriteEdge _ _ => wp (step W C s e) = 0 /\ rp (step W C s e) = rp s
  | ReadEdge _ _ _ => rp (step W C s e) = 0 /\ wp (step W C s e) = wp s
  | BothEdges _ _ _ _ _ _ _ => wp (step W C s e) = 0 /\ rp (step W C s e) = 0
  end.
Proof.
  destruct e as [w rst|ack rst junk|w wrst ack rrst mw mr junk]; cbn; intros H; try (rewrite H; auto).
  apply andb_true_iff in H as [-> ->]. auto.
Qed.
Lemma reset_run C (es : list (event D)) : forallb in_reset es = true -> forall s : fifo D,
  (wp s = 0 \/ (1 <= write_edges es)%nat -> wp (run W C s es) = 0) /\
  (rp s = 0 \/ (1 <= read_edges es)%nat -> rp (run W C s es) = 0) /\
  (wp s = 0 -> gw s = 0 \/ (1 <= write_edges es)%nat -> gw (run W C s es) = 0) /\
  ((2 <= write_edges es)%nat -> gw (run W C s es) = 0) /\
  (rp s = 0 -> gr s = 0 \/ (1 <= read_edges es)%nat -> gr (run W C s es) = 0) /\
  ((2 <= read_edges es)%nat -> gr (run W C s es) = 0) /\
  (wp s = 0 -> gw s = 0 -> w1 s = 0 \/ (1 <= read_edges es)%nat -> w1 (run W C s es) = 0) /\
  (wp s = 0 -> gw s = 0 -> (w1 s = 0 /\ (w2 s = 0 \/ (1 <= read_edges es)%nat)) \/ (2 <= read_edges es)%nat -> w2 (run W C s es) = 0) /\
  (rp s = 0 -> gr s = 0 -> r1 s = 0 \/ (1 <= write_edges es)%nat -> r1 (run W C s es) = 0) /\
  (rp s = 0 -> gr s = 0 -> (r1 s = 0 /\ (r2 s = 0 \/ (1 <= write_edges es)%nat)) \/ (2 <= write_edges es)%nat -> r2 (run W C s es) = 0).
Proof.
  induction es as [|e es IH]; intros R s.
  - cbn. repeat match goal with |- _ /\ _ => split end; intros; try ar; intuition ar.
  - cbn in R. apply andb_true_iff in R as [RE R]. specialize (IH R (step W C s e)). cbn [run fold_left].
    change (fold_left (step W C) es (step W C s e)) with (run W C (step W C s e) es).
    assert (EW : write_edges (e :: es) = ((match e with ReadEdge _ _ _ => 0 | _ => 1 end) + write_edges es)%nat) by (destruct e; reflexivity).
    assert (ER : read_edges (e :: es) = ((match e with WriteEdge _ _ => 0 | _ => 1 end) + read_edges es)%nat) by (destruct e; reflexivity).
    rewrite EW, ER. clear EW ER. revert IH. generalize (run W C (step W C s e) es) (write_edges es) (read_edges es). intros u nw nr IH.
    destruct e as [w rst|ack rst junk|w wrst ack rrst mw mr junk]; cbn in RE; cbn [Nat.add];
      destruct IH as (A1 & A2 & A3 & A4 & A5 & A6 & A7 & A8 & A9 & A10).
    + subst rst. cbn in *. assert (G0 : wp s = 0 -> to_gray (wp s) = 0) by (intros ->; reflexivity).
      repeat match goal with |- _ /\ _ => split end; intros; first [apply A1; ar | apply A2; ar | idtac].
      * apply A3; [reflexivity|]. auto.
      * apply A3; [reflexivity|right; ar].
      * apply A5; [assumption|ar].
      * apply A6. ar.
      * apply A7; [reflexivity|auto|assumption].
      * apply A8; [reflexivity|auto|assumption].
      * apply A9; [assumption|assumption|left; assumption].
      * apply A10; [assumption|assumption|]. destruct H1 as [[H1 H2]|H1]; [left; auto|]. left. split; [assumption|right; ar].
    + subst rst. cbn in *. assert (G0 : rp s = 0 -> to_gray (rp s) = 0) by (intros ->; reflexivity).
      repeat match goal with |- _ /\ _ => split end; intros; first [apply A1; ar | apply A2; ar | idtac].
      * apply A3; [assumption|ar].
      * apply A4. ar.
      * apply A5; [reflexivity|]. auto.
      * apply A5; [reflexivity|right; ar].
      * apply A7; [assumption|assumption|left; assumption].
      * apply A8; [assumption|assumption|]. destruct H1 as [[H1 H2]|H1]; [left; auto|]. left. split; [assumption|right; ar].
      * apply A9; [reflexivity|auto|assumption].
      * apply A10; [reflexivity|auto|assumption].
    + apply andb_true_iff in RE as [-> ->]. cbn in *.
      assert (G0 : wp s = 0 -> to_gray (wp s) = 0) by (intros ->; reflexivity).
      assert (G1 : rp s = 0 -> to_gray (rp s) = 0) by (intros ->; reflexivity).
      assert (MW : wp s = 0 -> gw s = 0 -> mix mw (gw s) (to_gray (wp s)) = 0) by (intros X Y; rewrite X, Y; apply mix_same).
      assert (MR : rp s = 0 -> gr s = 0 -> mix mr (gr s) (to_gray (rp s)) = 0) by (intros X Y; rewrite X, Y; apply mix_same).
      repeat match goal with |- _ /\ _ => split end; intros; first [apply A1; ar | apply A2; ar | idtac].
      * apply A3; [reflexivity|]. auto.
      * apply A3; [reflexivity|right; ar].
      * apply A5; [reflexivity|]. auto.
      * apply A5; [reflexivity|right; ar].
      * apply A7; [reflexivity|auto|left; auto].
      * apply A8; [reflexivity|auto|]. destruct H1 as [[H1 H2]|H1]; [left; auto|]. left. split; [auto|right; ar].
      * apply A9; [reflexivity|auto|left; auto].
      * apply A10; [reflexivity|auto|]. destruct H1 as [[H1 H2]|H1]; [left; auto|]. left. split; [auto|right; ar].
Qed.
End Proofs.
