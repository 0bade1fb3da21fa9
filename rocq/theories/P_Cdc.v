(** C49: values crossing clock domains by handshake. *)
From Coq Require Import List Bool Arith Lia.
From Verif Require Import CdcModel CdcSpec CdcProofs.
Import ListNotations.

(** [sync_wide]: every output is the initial value or a value given at an earlier
    source edge, never a mixture, and the outputs never go back in time. *)
Theorem C49_wide_values : forall T (init : T) s es, fresh init s -> forallb quiet es = true ->
  follows [init] 0 es (outs init s es).
Proof. intros T init s es F Q. exact (proj1 (run_inv init es s _ _ _ _ _ (fresh_inv init s F) Q)). Qed.

(** [sync_wide]: the output keeps up.  After three turns of each side it is a value
    given since. *)
Theorem C49_wide_fresh : forall T (init : T) s es1 es2, fresh init s -> forallb quiet (es1 ++ es2) = true ->
  rounds 3 es2 -> In (out (run init s (es1 ++ es2))) (inputs es2).
Proof.
  intros T init s es1 es2 F Q R. rewrite forallb_app in Q. apply andb_true_iff in Q as [Q1 Q2].
  destruct (run_inv init es1 s _ _ _ _ _ (fresh_inv init s F) Q1) as (_ & k1 & kv1 & q1 & p1 & I1 & _).
  destruct (rounds_inv init 3 es2 R _ _ _ _ _ _ I1 Q2) as (k2 & kv2 & q2 & p2 & I2 & M & S2 & G).
  rewrite run_app. pose proof (i_p _ _ _ _ _ _ I1).
  destruct (S2 (List.length ([init] ++ inputs es1)) (S q1) (le_n _)) as [_ K]; [split; intros; lia|]. specialize (K ltac:(lia)).
  pose proof (i_out _ _ _ _ _ _ I2) as O. rewrite nth_error_app2 in O by exact K. eapply nth_error_In. exact O.
Qed.

(** [sync_wide]: a reset over an edge of each clock and two more of each brings the
    initial value, whatever the registers held. *)
Lemma in_reset_step {T} (init : T) s e : in_reset e = true ->
  (is_src e = true \/ tx s = Init -> tx (step init s e) = Init) /\
  (is_dst e = true \/ (rx s = WaitReceive /\ out s = init) -> rx (step init s e) = WaitReceive /\ out (step init s e) = init) /\
  (tx s = Init -> is_dst e = true \/ v1 s = false -> v1 (step init s e) = false) /\
  ((is_dst e = true /\ v1 s = false) \/ (is_dst e = false /\ v2 s = false) -> v2 (step init s e) = false) /\
  (rx s = WaitReceive -> is_src e = true \/ a1 s = false -> a1 (step init s e) = false) /\
  ((is_src e = true /\ a1 s = false) \/ (is_src e = false /\ a2 s = false) -> a2 (step init s e) = false).
Proof.
  destruct e as [i []|[]|i [] [] nv na j]; cbn; intros R; try discriminate; repeat match goal with |- _ /\ _ => split end; intros;
    try match goal with |- context [if ?b then _ else _] => destruct b end;
    try match goal with H : tx s = Init |- _ => rewrite H end; try match goal with H : rx s = WaitReceive |- _ => rewrite H end;
    cbn; try reflexivity; intuition (try discriminate; try congruence).
Qed.
Lemma in_reset_run {T} (init : T) es : forallb in_reset es = true -> forall s,
  (tx s = Init \/ 1 <= src_edges es -> tx (run init s es) = Init) /\
  ((rx s = WaitReceive /\ out s = init) \/ 1 <= dst_edges es -> rx (run init s es) = WaitReceive /\ out (run init s es) = init) /\
  (tx s = Init -> (v1 s = false \/ 1 <= dst_edges es -> v1 (run init s es) = false) /\
     ((v1 s = false /\ (v2 s = false \/ 1 <= dst_edges es)) \/ 2 <= dst_edges es -> v2 (run init s es) = false)) /\
  (rx s = WaitReceive /\ out s = init -> (a1 s = false \/ 1 <= src_edges es -> a1 (run init s es) = false) /\
     ((a1 s = false /\ (a2 s = false \/ 1 <= src_edges es)) \/ 2 <= src_edges es -> a2 (run init s es) = false)).
Proof.
  induction es as [|e es IH]; intros R s.
  - cbn. unfold src_edges, dst_edges. cbn. intuition lia.
  - cbn in R. apply andb_true_iff in R as [RE R]. destruct (in_reset_step init s e RE) as (A & B & C & D & E & F).
    destruct (IH R (step init s e)) as (A' & B' & C' & D'). change (run init s (e :: es)) with (run init (step init s e) es).
    clear IH. rewrite src_edges_cons, dst_edges_cons.
    remember (run init (step init s e) es) as t eqn:ET. remember (src_edges es) as n eqn:EN. remember (dst_edges es) as m eqn:EM. clear ET EN EM.
    repeat match goal with |- _ /\ _ => split end.
    + intros H. apply A'. destruct (is_src e); [left; apply A; auto|]. destruct H as [H|H]; [left; auto|right; lia].
    + intros H. apply B'. destruct (is_dst e); [left; apply B; auto|]. destruct H as [H|H]; [left; apply B; auto|right; lia].
    + intros X. specialize (A (or_intror X)). destruct (C' A) as [C1 C2]. specialize (C X). split.
      * intros H. apply C1. destruct (is_dst e); [left; apply C; auto|]. destruct H as [H|H]; [left; auto|right; lia].
      * intros H. apply C2. destruct (is_dst e).
        -- destruct H as [[H1 H2]|H]; [left; split; [auto|left; auto]|]. destruct (le_lt_dec 2 m); [right; lia|]. left. split; [apply C; auto|right; lia].
        -- destruct H as [[H1 [H2|H2]]|H]; [left; split; [auto|left; auto]|left; split; [auto|right; lia]|right; lia].
    + intros X. specialize (B (or_intror X)). destruct (D' B) as [D1 D2]. specialize (E (proj1 X)). split.
      * intros H. apply D1. destruct (is_src e); [left; apply E; auto|]. destruct H as [H|H]; [left; auto|right; lia].
      * intros H. apply D2. destruct (is_src e).
        -- destruct H as [[H1 H2]|H]; [left; split; [auto|left; auto]|]. destruct (le_lt_dec 2 n); [right; lia|]. left. split; [apply E; auto|right; lia].
        -- destruct H as [[H1 [H2|H2]]|H]; [left; split; [auto|left; auto]|left; split; [auto|right; lia]|right; lia].
Qed.
Theorem C49_wide_reset : forall T (init : T) s es1 es2, forallb in_reset (es1 ++ es2) = true ->
  1 <= src_edges es1 -> 1 <= dst_edges es1 -> 2 <= src_edges es2 -> 2 <= dst_edges es2 -> fresh init (run init s (es1 ++ es2)).
Proof.
  intros T init s es1 es2 R A B C D. rewrite forallb_app in R. apply andb_true_iff in R as [R1 R2]. rewrite run_app.
  destruct (in_reset_run init es1 R1 s) as (X1 & X2 & _). specialize (X1 (or_intror A)). specialize (X2 (or_intror B)).
  destruct (in_reset_run init es2 R2 (run init s es1)) as (Y1 & Y2 & Y3 & Y4).
  destruct (Y3 X1) as [Y5 Y6]. destruct (Y4 X2) as [Y7 Y8]. destruct (Y2 (or_introl X2)) as [Y9 Y10].
  unfold fresh. repeat match goal with |- _ /\ _ => split end; auto; [apply Y7|apply Y5]; right; lia.
Qed.

(** [handshake]: likewise, and no value is then shown. *)
Lemma h_in_reset_step {T} (s : hand T) e : in_reset e = true ->
  (is_src e = true \/ htx s = WaitData -> htx (hstep s e) = WaitData) /\
  (is_dst e = true \/ (hrx s = WaitValid /\ data_out s = None) -> hrx (hstep s e) = WaitValid /\ data_out (hstep s e) = None) /\
  (htx s = WaitData -> is_dst e = true \/ u1 s = false -> u1 (hstep s e) = false) /\
  ((is_dst e = true /\ u1 s = false) \/ (is_dst e = false /\ u2 s = false) -> u2 (hstep s e) = false) /\
  (hrx s = WaitValid -> is_src e = true \/ b1 s = false -> b1 (hstep s e) = false) /\
  ((is_src e = true /\ b1 s = false) \/ (is_src e = false /\ b2 s = false) -> b2 (hstep s e) = false).
Proof.
  destruct e as [i []|[]|i [] [] nv na j]; cbn; intros R; try discriminate; repeat match goal with |- _ /\ _ => split end; intros;
    try match goal with |- context [if ?b then _ else _] => destruct b end;
    try match goal with H : htx s = WaitData |- _ => rewrite H end; try match goal with H : hrx s = WaitValid |- _ => rewrite H end;
    cbn; try reflexivity; intuition (try discriminate; try congruence).
Qed.
Lemma h_in_reset_run {T} es : forallb in_reset es = true -> forall s : hand T,
  (htx s = WaitData \/ 1 <= src_edges es -> htx (hrun s es) = WaitData) /\
  ((hrx s = WaitValid /\ data_out s = None) \/ 1 <= dst_edges es -> hrx (hrun s es) = WaitValid /\ data_out (hrun s es) = None) /\
  (htx s = WaitData -> (u1 s = false \/ 1 <= dst_edges es -> u1 (hrun s es) = false) /\
     ((u1 s = false /\ (u2 s = false \/ 1 <= dst_edges es)) \/ 2 <= dst_edges es -> u2 (hrun s es) = false)) /\
  (hrx s = WaitValid /\ data_out s = None -> (b1 s = false \/ 1 <= src_edges es -> b1 (hrun s es) = false) /\
     ((b1 s = false /\ (b2 s = false \/ 1 <= src_edges es)) \/ 2 <= src_edges es -> b2 (hrun s es) = false)).
Proof.
  induction es as [|e es IH]; intros R s.
  - cbn. unfold src_edges, dst_edges. cbn. intuition lia.
  - cbn in R. apply andb_true_iff in R as [RE R]. destruct (h_in_reset_step s e RE) as (A & B & C & D & E & F).
    destruct (IH R (hstep s e)) as (A' & B' & C' & D'). change (hrun s (e :: es)) with (hrun (hstep s e) es).
    clear IH. rewrite src_edges_cons, dst_edges_cons.
    remember (hrun (hstep s e) es) as t eqn:ET. remember (src_edges es) as n eqn:EN. remember (dst_edges es) as m eqn:EM. clear ET EN EM.
    repeat match goal with |- _ /\ _ => split end.
    + intros H. apply A'. destruct (is_src e); [left; apply A; auto|]. destruct H as [H|H]; [left; auto|right; lia].
    + intros H. apply B'. destruct (is_dst e); [left; apply B; auto|]. destruct H as [H|H]; [left; apply B; auto|right; lia].
    + intros X. specialize (A (or_intror X)). destruct (C' A) as [C1 C2]. specialize (C X). split.
      * intros H. apply C1. destruct (is_dst e); [left; apply C; auto|]. destruct H as [H|H]; [left; auto|right; lia].
      * intros H. apply C2. destruct (is_dst e).
        -- destruct H as [[H1 H2]|H]; [left; split; [auto|left; auto]|]. destruct (le_lt_dec 2 m); [right; lia|]. left. split; [apply C; auto|right; lia].
        -- destruct H as [[H1 [H2|H2]]|H]; [left; split; [auto|left; auto]|left; split; [auto|right; lia]|right; lia].
    + intros X. specialize (B (or_intror X)). destruct (D' B) as [D1 D2]. specialize (E (proj1 X)). split.
      * intros H. apply D1. destruct (is_src e); [left; apply E; auto|]. destruct H as [H|H]; [left; auto|right; lia].
      * intros H. apply D2. destruct (is_src e).
        -- destruct H as [[H1 H2]|H]; [left; split; [auto|left; auto]|]. destruct (le_lt_dec 2 n); [right; lia|]. left. split; [apply E; auto|right; lia].
        -- destruct H as [[H1 [H2|H2]]|H]; [left; split; [auto|left; auto]|left; split; [auto|right; lia]|right; lia].
Qed.
Theorem C49_handshake_reset : forall T (s : hand T) es1 es2, forallb in_reset (es1 ++ es2) = true ->
  1 <= src_edges es1 -> 1 <= dst_edges es1 -> 2 <= src_edges es2 -> 2 <= dst_edges es2 -> hfresh (hrun s (es1 ++ es2)).
Proof.
  intros T s es1 es2 R A B C D. rewrite forallb_app in R. apply andb_true_iff in R as [R1 R2]. rewrite hrun_app.
  destruct (h_in_reset_run es1 R1 s) as (X1 & X2 & _). specialize (X1 (or_intror A)). specialize (X2 (or_intror B)).
  destruct (h_in_reset_run es2 R2 (hrun s es1)) as (Y1 & Y2 & Y3 & Y4).
  destruct (Y3 X1) as [Y5 Y6]. destruct (Y4 X2) as [Y7 Y8]. destruct (Y2 (or_introl X2)) as [Y9 Y10].
  unfold hfresh. repeat match goal with |- _ /\ _ => split end; auto; [apply Y7|apply Y5]; right; lia.
Qed.

(** [handshake]: if each value is given for one source edge, with time to settle before
    the next, then each is received in one destination cycle, once and in order; all but
    the last have arrived. *)
Theorem C49_handshake : forall T (s : hand T) es, hfresh s -> forallb quiet es = true -> spaced es ->
  exists waiting, offers es = recvs s es ++ waiting /\ List.length waiting <= 1.
Proof.
  intros T s es F Q SP. destruct (main_inv _ es s (le_n _) F Q SP) as (p & I & _). rewrite (h_data _ _ _ _ I).
  destruct (p <=? 4); [eexists; split; [reflexivity|cbn; lia]|]. exists []. rewrite app_nil_r. split; [reflexivity|cbn; lia].
Qed.
(** and after settling the last has arrived too. *)
Theorem C49_handshake_all : forall T (s : hand T) es es', hfresh s -> forallb quiet (es ++ es') = true -> spaced es ->
  offers es' = [] -> settled es' -> recvs s (es ++ es') = offers es.
Proof.
  intros T s es es' F Q SP O ST.
  assert (SP' : spaced (es ++ es')).
  { intros a e b e' c E A B. revert E. clear - SP O A B. revert a b c.
    assert (N : forall (l : list (event (option T) T)), offers l = [] -> ~ In e' l).
    { induction l as [|x l IH]; cbn [In]; intros H; [tauto|]. rewrite offers_cons in H. apply app_eq_nil in H as [H1 H2].
      intros [->|H]; [congruence|]. exact (IH H2 H). }
    intros a b c E.
    assert (X : exists c', es = a ++ e :: b ++ e' :: c' /\ c = c' ++ es').
    { replace (a ++ e :: b ++ e' :: c) with ((a ++ e :: b ++ [e']) ++ c) in E by (rewrite <- app_assoc; cbn; rewrite <- app_assoc; reflexivity).
      apply app_eq_app in E as (l & [[E1 E2]|[E1 E2]]).
      - exists l. split; [rewrite E1, <- app_assoc; cbn; rewrite <- app_assoc; reflexivity|exact E2].
      - destruct l as [|x l] using rev_ind.
        + rewrite app_nil_r in E1. exists []. cbn in E2. split; [symmetry; exact E1|]. symmetry; exact E2.
        + exfalso. rewrite !app_comm_cons, !app_assoc in E1. apply app_inj_tail in E1 as [_ <-].
          apply (N es' O). rewrite E2. apply in_or_app. left. apply in_or_app. right. left. reflexivity. }
    destruct X as (c' & X & _). exact (SP a e b e' c' X A B). }
  destruct (main_inv _ (es ++ es') s (le_n _) F Q SP') as (p & I & C).
  rewrite offers_app, O, app_nil_r in I. pose proof (h_data _ _ _ _ I) as D. rewrite C in D; [symmetry; exact D|].
  intros a e b E A B.
  assert (X : exists b', b = b' ++ es').
  { apply app_eq_app in E as (l & [[E1 E2]|[E1 E2]]).
    - destruct l as [|x l]; [cbn in E2; exfalso; apply A; rewrite <- E2 in O; rewrite offers_cons in O; apply app_eq_nil in O; tauto|].
      cbn in E2. injection E2 as -> E2. eauto.
    - exfalso. apply A. rewrite E2 in O. rewrite offers_app, offers_cons in O. apply app_eq_nil in O as [_ O]. apply app_eq_nil in O. tauto. }
  destruct X as (b' & ->). apply settled_app. exact ST.
Qed.
Print Assumptions C49_wide_values.
Print Assumptions C49_wide_fresh.
Print Assumptions C49_wide_reset.
Print Assumptions C49_handshake.
Print Assumptions C49_handshake_all.
Print Assumptions C49_handshake_reset.

(** ** Examples *)
Definition new_wide : wide nat := {| tx := Init; undef := 99; a1 := false; a2 := false; rx := WaitReceive; out := 0; v1 := false; v2 := false |}.
Notation src v := (SrcEdge v false).
Notation dst := (DstEdge false).
Notation both v nv na := (BothEdges v false false nv na 77).
Definition turns : list (event nat nat) := [both 1 true false; src 2; both 3 true true; dst; both 4 false true; both 5 true true; src 6; src 7; src 8; dst; dst; both 9 true false; src 10; src 11; src 12; both 13 true true; dst; dst; dst].
Definition three_rounds : list (event nat nat) := concat (repeat ([src 21; src 22; src 23; src 24] ++ [dst; dst; dst]) 3).
Example C49_wide_nontrivial :
  fresh 0 new_wide /\ forallb quiet (turns ++ three_rounds) = true /\
  outs 0 new_wide turns = [0; 0; 0; 0; 1; 1; 1; 1; 1; 1; 1; 1; 1; 1; 1; 1; 1; 12; 12] /\
  rounds 3 three_rounds /\ out (run 0 new_wide (turns ++ three_rounds)) = 23 /\
  (let r := repeat (BothEdges 5 true true true false 88) 3 in
   forallb in_reset r = true /\ fresh 0 (run 0 (run 0 new_wide turns) r)).
Proof.
  repeat match goal with |- _ /\ _ => split end; try (vm_compute; reflexivity); try (vm_compute; repeat split; reflexivity).
  assert (X : forall n (l : list (event nat nat)), rounds n l -> rounds (S n) (([src 21; src 22; src 23; src 24] ++ [dst; dst; dst]) ++ l)) by (intros n l H; rewrite <- app_assoc; constructor; [cbn; lia|cbn; lia|exact H]).
  unfold three_rounds. do 3 (cbn [repeat concat]; apply X). apply rounds_0.
Qed.

Definition new_hand : hand nat := {| htx := WaitData; held := 99; b1 := false; b2 := false; hrx := WaitValid; data_out := None; u1 := false; u2 := false |}.
Definition settle : list (event (option nat) nat) :=
  [src None] ++ [dst; both None true true; dst] ++ [src None; src None; both None false true] ++ [dst; dst; dst] ++ [src None; src None].
Definition two : list (event (option nat) nat) := both (Some 5) true false :: settle ++ src (Some 6) :: [dst; both None true true; dst].
Lemma settle_settled : settled settle.
Proof. exists [src None], [dst; both None true true; dst], [src None; src None; both None false true], [dst; dst; dst], [src None; src None]. repeat split; cbn; lia. Qed.
Lemma two_spaced : spaced two.
Proof.
  intros a e b e' c E A B. unfold two in E.
  assert (N : forall l x l', l = a ++ e :: x -> offers l = [] -> l' = x -> False).
  { intros l x l' -> H _. rewrite offers_app, offers_cons in H. apply app_eq_nil in H as [_ H]. apply app_eq_nil in H as [H _]. contradiction. }
  destruct a as [|a0 a].
  - injection E as <- E. change (settle ++ src (Some 6) :: [dst; both None true true; dst] = b ++ e' :: c) in E.
    assert (X : exists r, b = settle ++ r).
    { apply app_eq_app in E as (l & [[E1 E2]|[E1 E2]]); [|eauto].
      destruct l as [|x l]; [exists []; rewrite app_nil_r in *; symmetry; exact E1|].
      exfalso. injection E2 as <- E2. apply B. assert (H : offers settle = []) by reflexivity. rewrite E1, offers_app, offers_cons in H.
      apply app_eq_nil in H as [_ H]. apply app_eq_nil in H. tauto. }
    destruct X as (r & ->). destruct settle_settled as (c1 & c2 & c3 & c4 & c5 & -> & E1 & E2 & E3 & E4 & E5).
    exists c1, c2, c3, c4, (c5 ++ r). split; [rewrite <- !app_assoc; reflexivity|]. repeat match goal with |- _ /\ _ => split end; auto.
    unfold src_edges in *. rewrite filter_app, app_length. lia.
  - exfalso. injection E as _ E. change (settle ++ src (Some 6) :: [dst; both None true true; dst] = a ++ e :: b ++ e' :: c) in E.
    assert (H : List.length (offers (settle ++ src (Some 6) :: [dst; both None true true; dst])) = 1) by reflexivity.
    rewrite E, offers_app, offers_cons, offers_app, (offers_cons e'), !app_length in H.
    destruct (offers [e]); [congruence|]. destruct (offers [e']); [congruence|]. cbn in H. lia.
Qed.
Example C49_handshake_nontrivial :
  hfresh new_hand /\ forallb quiet (two ++ settle) = true /\ spaced two /\ settled settle /\ offers settle = [] /\
  offers two = [5; 6] /\ recvs new_hand two = [5] /\ recvs new_hand (two ++ settle) = [5; 6] /\
  (let r := repeat (BothEdges (Some 5) true true true false 88) 3 in
   forallb in_reset r = true /\ hfresh (hrun (hrun new_hand two) r)).
Proof.
  split; [vm_compute; repeat split; reflexivity|]. split; [reflexivity|]. split; [exact two_spaced|]. split; [exact settle_settled|].
  vm_compute. repeat split; reflexivity.
Qed.

(** A reset of one edge on both sides is not enough: the output becomes a value that
    is neither the initial one nor one ever given. *)
Theorem C49_short_reset_refuted : exists (s : wide nat) es e es', fresh 0 s /\ forallb quiet (es ++ es') = true /\ in_reset e = true /\
  tx (run 0 s (es ++ [e])) = Init /\ rx (run 0 s (es ++ [e])) = WaitReceive /\
  ~ In (out (run 0 s (es ++ e :: es'))) (0 :: inputs (es ++ e :: es')).
Proof.
  exists new_wide, [src 1; src 2; dst], (BothEdges 3 true true false false 77), [dst].
  repeat match goal with |- _ /\ _ => split end; try (vm_compute; repeat split; reflexivity). vm_compute. lia.
Qed.

(** Values given to [handshake] too soon are lost, as its documentation warns. *)
Theorem C49_frequent_refuted : exists (s : hand nat) es es', hfresh s /\ forallb quiet (es ++ es') = true /\ offers es' = [] /\ settled es' /\
  recvs s (es ++ es') <> offers es.
Proof.
  exists new_hand, [src (Some 1); src None; src (Some 2)], settle.
  split; [vm_compute; repeat split; reflexivity|]. split; [reflexivity|]. split; [reflexivity|]. split; [exact settle_settled|]. vm_compute. discriminate.
Qed.

(** Worse, with values given too soon the other side may receive one that was never
    given: the data may be changing at the edge at which it is read.  The documentation
    speaks only of values getting lost. *)
Theorem C49_frequent_junk_refuted : exists (s : hand nat) es v, hfresh s /\ forallb quiet es = true /\
  In v (recvs s es) /\ ~ In v (offers es).
Proof.
  exists new_hand, [src (Some 1); src None; dst; dst; dst; src None; src None; src None; dst; src (Some 2); src None; dst; dst; src None;
    BothEdges (Some 3) false false false false 77], 77.
  split; [vm_compute; repeat split; reflexivity|]. split; [reflexivity|]. split; vm_compute; lia.
Qed.
