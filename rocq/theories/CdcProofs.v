From Coq Require Import List Bool Arith Lia.
From Verif Require Import CdcModel CdcSpec.
Import ListNotations.

Section Edges.
Context {I T : Type}.
Definition is_src (e : event I T) : bool := match e with DstEdge _ => false | _ => true end.
Definition is_dst (e : event I T) : bool := match e with SrcEdge _ _ => false | _ => true end.
Lemma src_edges_cons e es : src_edges (e :: es) = (if is_src e then 1 else 0) + src_edges es.
Proof. unfold src_edges. destruct e; reflexivity. Qed.
Lemma dst_edges_cons e es : dst_edges (e :: es) = (if is_dst e then 1 else 0) + dst_edges es.
Proof. unfold dst_edges. destruct e; reflexivity. Qed.
End Edges.

(** ** sync_wide *)
Section Wide.
Context {T : Type}.
Variable init : T.

Inductive tag := TSetup | THold | TRelease.
Definition tag_of (t : tx_state T) : tag := match t with Setup _ => TSetup | Hold _ => THold | Init | WaitRelease => TRelease end.

(** The round a value goes: sender, [valid] as seen, receiver, [ack] as seen. *)
Definition shape (p : nat) : tag * (bool * bool) * rx_state * (bool * bool) :=
  match p with
  | 0 => (TSetup, (false, false), WaitReceive, (false, false))
  | 1 => (THold, (false, false), WaitReceive, (false, false))
  | 2 => (THold, (true, false), WaitReceive, (false, false))
  | 3 => (THold, (true, true), WaitReceive, (false, false))
  | 4 => (THold, (true, true), SendAck, (false, false))
  | 5 => (THold, (true, true), SendAck, (true, false))
  | 6 => (THold, (true, true), SendAck, (true, true))
  | 7 => (TRelease, (true, true), SendAck, (true, true))
  | 8 => (TRelease, (false, true), SendAck, (true, true))
  | 9 => (TRelease, (false, false), SendAck, (true, true))
  | 10 => (TRelease, (false, false), WaitReceive, (true, true))
  | 11 => (TRelease, (false, false), WaitReceive, (false, true))
  | _ => (TRelease, (false, false), WaitReceive, (false, false))
  end.
Definition src_moves (p : nat) : bool :=
  match p with 0 | 4 | 5 | 6 | 10 | 11 | 12 => true | _ => false end.

Record inv (s : wide T) (given : list T) (k kv q p : nat) : Prop := {
  i_p : p <= 12;
  i_shape : (tag_of (tx s), (v1 s, v2 s), rx s, (a1 s, a2 s)) = shape p;
  i_init : tx s = Init -> p = 12;
  i_k : k <= kv;
  i_out : nth_error given k = Some (out s);
  i_data : p <= 6 -> nth_error given kv = Some (data_of (undef s) (tx s)) }.

Lemma nth_keep {A} (l r : list A) k v : nth_error l k = Some v -> nth_error (l ++ r) k = Some v.
Proof. intros H. rewrite nth_error_app1; [exact H|]. apply nth_error_Some. congruence. Qed.
Lemma nth_new {A} (l r : list A) v : nth_error (l ++ v :: r) (List.length l) = Some v.
Proof. rewrite nth_error_app2, Nat.sub_diag; [reflexivity|lia]. Qed.

Ltac cand k kv q p m := exists k, kv, q, p, m;
  solve [split; [constructor; [lia|reflexivity|..]; cbn; intros; try discriminate; try lia; auto using nth_keep, nth_new with arith|];
    repeat match goal with |- _ /\ _ => split end;
    cbn; intros; try lia; try discriminate; auto with arith].
Lemma step_inv s given k kv q p e : inv s given k kv q p -> quiet e = true ->
  exists k' kv' q' p' m, inv (step init s e) (given ++ input e) k' kv' q' p' /\
    k <= k' /\ nth_error given k' = Some (out (step init s e)) /\
    13 * q' + p' = 13 * q + p + m /\ m <= 2 /\ (is_src e = true -> src_moves p = true -> 1 <= m) /\ (is_dst e = true -> src_moves p = false -> 1 <= m) /\
    (q' = q -> kv' = kv) /\ (q < q' -> List.length given <= kv') /\
    k' = (if (p <=? 3) && (3 <? p + m) then kv else k).
Proof.
  intros [P S NI K O DA] QE.
  destruct s as [tx ud a1 a2 rx out v1 v2]. cbn [CdcModel.tx CdcModel.undef CdcModel.a1 CdcModel.a2 CdcModel.rx CdcModel.out CdcModel.v1 CdcModel.v2] in *.
  assert (L : k < List.length given) by (apply nth_error_Some; congruence).
  destruct p as [|[|[|[|[|[|[|[|[|[|[|[|[|p]]]]]]]]]]]]]; [..|exfalso; lia].
  all: cbn [shape] in S; destruct tx as [|x|x|]; cbn in S; try discriminate; try (specialize (NI eq_refl); discriminate).
  all: injection S; intros; subst; clear S NI.
  all: destruct e as [i rst|rst|i rst rst' nv na j]; cbn in QE; try (destruct rst; try discriminate); try (destruct rst'; try discriminate).
  all: try destruct nv; try destruct na.
  all: cbn in DA |- *; try rewrite app_nil_r.
  all: first [ cand k kv q 0 0 | cand k kv q 1 1 | cand k kv q 1 0 | cand k kv q 2 1 | cand k kv q 2 2 | cand k kv q 2 0 | cand k kv q 3 1 | cand k kv q 3 0 | cand kv kv q 4 1 | cand k kv q 4 0
    | cand k kv q 5 1 | cand kv kv q 5 2 | cand k kv q 5 0 | cand k kv q 6 1 | cand k kv q 6 0 | cand k kv q 7 1 | cand k kv q 7 0 | cand k kv q 8 1 | cand k kv q 8 2 | cand k kv q 8 0
    | cand k kv q 9 1 | cand k kv q 9 0 | cand k kv q 10 1 | cand k kv q 10 0 | cand k kv q 11 1 | cand k kv q 11 2 | cand k kv q 11 0 | cand k kv q 12 1 | cand k kv q 12 0
    | cand k (List.length given) (S q) 0 1 ].
Qed.

(** From the round [c] on, values are at position [n] or later. *)
Definition since n c k kv q p : Prop := (c <= q -> p <= 6 -> n <= kv) /\ (13 * c + 4 <= 13 * q + p -> n <= k).
(** A whole run. *)
Lemma run_inv es : forall s given k kv q p, inv s given k kv q p -> forallb quiet es = true ->
  follows given k es (outs init s es) /\
  exists k' kv' q' p', inv (run init s es) (given ++ inputs es) k' kv' q' p' /\ k <= k' /\ 13 * q + p <= 13 * q' + p' /\
    (forall n c, n <= List.length given -> since n c k kv q p -> since n c k' kv' q' p') /\
    (forall Z, (forall x, p <= x < Z -> src_moves (x mod 13) = true) -> Z <= p + src_edges es -> 13 * q + Z <= 13 * q' + p') /\
    (forall Z, (forall x, p <= x < Z -> src_moves (x mod 13) = false) -> Z <= p + dst_edges es -> 13 * q + Z <= 13 * q' + p').
Proof.
  induction es as [|e es IH]; intros s given k kv q p I QE.
  - cbn. split; [exact Logic.I|]. rewrite app_nil_r. exists k, kv, q, p. unfold src_edges, dst_edges. cbn [List.length filter].
    split; [exact I|]. split; [lia|]. split; [lia|]. split; [auto|]. split; intros; lia.
  - cbn in QE. apply andb_true_iff in QE as [Q1 Q2].
    destruct (step_inv s given k kv q p e I Q1) as (k1 & kv1 & q1 & p1 & m & I1 & K1 & N1 & M & M2 & MS & MD & KV & KN & KK).
    destruct (IH _ _ _ _ _ _ I1 Q2) as (F & k2 & kv2 & q2 & p2 & I2 & K2 & MM & FR & S2 & D2).
    split. { cbn [outs follows]. exists k1. split; [exact K1|]. split; [exact N1|exact F]. }
    exists k2, kv2, q2, p2. change (run init s (e :: es)) with (run init (step init s e) es). cbn [inputs flat_map]. rewrite app_assoc.
    pose proof (i_p _ _ _ _ _ _ I) as P0. pose proof (i_p _ _ _ _ _ _ I1) as P1. pose proof (i_p _ _ _ _ _ _ I2) as P2.
    split; [exact I2|]. split; [lia|]. split; [lia|]. split; [|split].
    + intros n c LN [A B]. refine (FR n c _ (conj _ _)); clear FR IH S2 D2 I I1 I2 F.
      * rewrite app_length. lia.
      * intros C X. destruct (Nat.eq_dec q1 q) as [E|E]; [rewrite (KV E); apply A; lia|]. assert (List.length given <= kv1) by (apply KN; lia). lia.
      * intros G'. destruct (le_lt_dec (13 * c + 4) (13 * q + p)) as [L|L]; [specialize (B L); lia|].
        assert (q <= c) by lia. destruct (Nat.eq_dec q c) as [->|NE]; [|exfalso; lia].
        destruct (Nat.leb_spec p 3); [|lia]. destruct (Nat.ltb_spec 3 (p + m)); [|lia]. cbn in KK. subst k1. apply A; lia.
    + intros Z O L. destruct (le_lt_dec Z p) as [L1|L1]; [lia|].
      rewrite src_edges_cons in L. assert (O1 : src_moves p = true) by (rewrite <- (Nat.mod_small p 13) by lia; apply O; lia).
      assert (13 * q1 + (Z - (13 * q1 - 13 * q)) <= 13 * q2 + p2) as X.
      { apply S2.
        - intros x X. replace (x mod 13) with ((x + (q1 - q) * 13) mod 13) by apply Nat.mod_add, Nat.neq_succ_0. apply O. lia.
        - destruct (is_src e); [specialize (MS eq_refl O1)|]; lia. }
      assert (q <= q1) by lia. lia.
    + intros Z O L. destruct (le_lt_dec Z p) as [L1|L1]; [lia|].
      rewrite dst_edges_cons in L. assert (O1 : src_moves p = false) by (rewrite <- (Nat.mod_small p 13) by lia; apply O; lia).
      assert (13 * q1 + (Z - (13 * q1 - 13 * q)) <= 13 * q2 + p2) as X.
      { apply D2.
        - intros x X. replace (x mod 13) with ((x + (q1 - q) * 13) mod 13) by apply Nat.mod_add, Nat.neq_succ_0. apply O. lia.
        - destruct (is_dst e); [specialize (MD eq_refl O1)|]; lia. }
      assert (q <= q1) by lia. lia.
Qed.

Lemma run_app es es' s : run init s (es ++ es') = run init (run init s es) es'.
Proof. apply fold_left_app. Qed.
Lemma inputs_app (es es' : list (event T T)) : inputs (es ++ es') = inputs es ++ inputs es'.
Proof. apply flat_map_app. Qed.

Lemma range_check (f : nat -> bool) p Z : forallb f (seq p (Z - p)) = true -> forall x, p <= x < Z -> f x = true.
Proof. intros H x X. rewrite forallb_forall in H. apply H. apply in_seq. lia. Qed.
(** Where a turn of the source, and a turn of the destination, brings a round. *)
Definition src_end (p : nat) : nat := if p =? 0 then 1 else if p <=? 3 then p else if p <=? 6 then 7 else if p <=? 9 then p else 14.
Definition dst_end (p : nat) : nat := if p =? 0 then 0 else if p <=? 3 then 4 else if p <=? 6 then p else if p <=? 9 then 10 else p.
Lemma src_end_ok p : p <= 12 -> src_end p <= p + 4 /\ forall x, p <= x < src_end p -> src_moves (x mod 13) = true.
Proof.
  intros H. split; [do 13 (destruct p as [|p]; [cbn; lia|]); lia|].
  apply (range_check (fun x => src_moves (x mod 13))). do 13 (destruct p as [|p]; [reflexivity|]). lia.
Qed.
Lemma dst_end_ok p : p <= 12 -> dst_end p <= p + 3 /\ forall x, p <= x < dst_end p -> src_moves (x mod 13) = false.
Proof.
  intros H. split.
  - do 13 (destruct p as [|p]; [cbn; lia|]). lia.
  - intros x X. apply negb_true_iff. revert x X. apply (range_check (fun x => negb (src_moves (x mod 13)))). do 13 (destruct p as [|p]; [reflexivity|]). lia.
Qed.
Lemma round_pos q p q1 p1 q2 p2 : p <= 12 -> p1 <= 12 -> p2 <= 12 -> 13 * q + p <= 13 * q1 + p1 -> 13 * q + src_end p <= 13 * q1 + p1 ->
  13 * q1 + p1 <= 13 * q2 + p2 -> 13 * q1 + dst_end p1 <= 13 * q2 + p2 ->
  13 * q + (if p <=? 3 then 4 else if p <=? 9 then 10 else 17) <= 13 * q2 + p2.
Proof.
  intros H H1 H2 A B C D. unfold src_end in B. unfold dst_end in D.
  destruct (le_lt_dec (q + 2) q1); [destruct (p <=? 3), (p <=? 9); lia|].
  repeat match goal with
  | H : context [if ?a =? ?b then _ else _] |- _ => destruct (Nat.eqb_spec a b)
  | H : context [if ?a <=? ?b then _ else _] |- _ => destruct (Nat.leb_spec a b)
  | |- context [if ?a <=? ?b then _ else _] => destruct (Nat.leb_spec a b)
  end; lia.
Qed.

Lemma rounds_inv n es : rounds n es -> forall s given k kv q p, inv s given k kv q p -> forallb quiet es = true ->
  exists k' kv' q' p', inv (run init s es) (given ++ inputs es) k' kv' q' p' /\ 13 * q + p <= 13 * q' + p' /\
    (forall n c, n <= List.length given -> since n c k kv q p -> since n c k' kv' q' p') /\
    13 * q + (match n with 0 => p | 1 => if p <=? 3 then 4 else if p <=? 9 then 10 else 17 | 2 => if p <=? 3 then 10 else 17 | _ => 17 end) <= 13 * q' + p'.
Proof.
  intros R. induction R as [es|n es1 es2 es3 E1 E2 R IH]; intros s given k kv q p I QE.
  - destruct (run_inv es s given k kv q p I QE) as (_ & k1 & kv1 & q1 & p1 & I1 & _ & M1 & F1 & _). exists k1, kv1, q1, p1. auto.
  - pose proof QE as QA. rewrite !forallb_app in QE. apply andb_true_iff in QE as [QE1 QE]. apply andb_true_iff in QE as [QE2 QE3].
    destruct (run_inv es1 s given k kv q p I QE1) as (_ & k1 & kv1 & q1 & p1 & I1 & _ & M1 & F1 & S1 & _).
    destruct (run_inv es2 _ _ _ _ _ _ I1 QE2) as (_ & k2 & kv2 & q2 & p2 & I2 & _ & M2 & F2 & _ & D2).
    destruct (IH _ _ _ _ _ _ I2 QE3) as (k3 & kv3 & q3 & p3 & I3 & M3 & F3 & G).
    rewrite !run_app, !inputs_app, !app_assoc. exists k3, kv3, q3, p3. split; [exact I3|]. split; [lia|]. split.
    + intros m c L H. apply F3; [rewrite !app_length; lia|]. apply F2; [rewrite !app_length; lia|]. apply F1; assumption.
    + pose proof (i_p _ _ _ _ _ _ I) as P0. pose proof (i_p _ _ _ _ _ _ I1) as P1. pose proof (i_p _ _ _ _ _ _ I2) as P2. pose proof (i_p _ _ _ _ _ _ I3) as P3.
      destruct (src_end_ok p P0) as [SA SB]. specialize (S1 _ SB ltac:(lia)). destruct (dst_end_ok p1 P1) as [DA DB]. specialize (D2 _ DB ltac:(lia)).
      pose proof (round_pos q p q1 p1 q2 p2 P0 P1 P2 M1 S1 M2 D2) as RP.
      clear - RP G P0 P1 P2 P3 M3.
      destruct n as [|[|[|n]]]; repeat match goal with
      | H : context [if ?a <=? ?b then _ else _] |- _ => destruct (Nat.leb_spec a b)
      | |- context [if ?a <=? ?b then _ else _] => destruct (Nat.leb_spec a b)
      end; lia.
Qed.

Lemma fresh_inv s : fresh init s -> inv s [init] 0 0 0 12.
Proof. intros (A & B & C & D & E & F & G). constructor; try lia. - rewrite A, B, C, D, F, G. reflexivity. - rewrite E. reflexivity. Qed.
End Wide.

(** ** handshake *)
Section Hand.
Context {T : Type}.
Definition hshape (p : nat) : htx_state * (bool * bool) * hrx_state * (bool * bool) :=
  match p with
  | 1 => (HoldData, (false, false), WaitValid, (false, false))
  | 2 => (WaitAck, (false, false), WaitValid, (false, false))
  | 3 => (WaitAck, (true, false), WaitValid, (false, false))
  | 4 => (WaitAck, (true, true), WaitValid, (false, false))
  | 5 => (WaitAck, (true, true), WaitInvalid, (false, false))
  | 6 => (WaitAck, (true, true), WaitInvalid, (true, false))
  | 7 => (WaitAck, (true, true), WaitInvalid, (true, true))
  | 8 => (WaitData, (true, true), WaitInvalid, (true, true))
  | 9 => (WaitData, (false, true), WaitInvalid, (true, true))
  | 10 => (WaitData, (false, false), WaitInvalid, (true, true))
  | 11 => (WaitData, (false, false), WaitValid, (true, true))
  | 12 => (WaitData, (false, false), WaitValid, (false, true))
  | _ => (WaitData, (false, false), WaitValid, (false, false))
  end.
Definition hsrc (p : nat) : bool := match p with 1 | 5 | 6 | 7 | 11 | 12 => true | _ => false end.
Definition hdst (p : nat) : bool := match p with 2 | 3 | 4 | 8 | 9 | 10 => true | _ => false end.
Record hinv (s : hand T) (ofs rs : list T) (p : nat) : Prop := {
  h_p : 1 <= p <= 13;
  h_shape : (htx s, (u1 s, u2 s), hrx s, (b1 s, b2 s)) = hshape p;
  h_data : ofs = if p <=? 4 then rs ++ [held s] else rs }.

Ltac hcand p := exists p; solve [split; [constructor; [lia|reflexivity|cbn; rewrite <- ?app_assoc, ?app_nil_r; reflexivity]|split; cbn; intros; repeat match goal with |- _ /\ _ => split end; intros; try lia; try discriminate; auto with arith; congruence]].
Lemma hstep_inv s ofs rs p e : hinv s ofs rs p -> quiet e = true -> (offers [e] <> [] -> p = 13) ->
  exists p', hinv (hstep s e) (ofs ++ offers [e]) (rs ++ recv s e) p' /\
    (offers [e] <> [] -> p' = 1) /\
    (offers [e] = [] -> p <= p' /\ (is_src e = true -> hsrc p = true -> p < p') /\ (is_dst e = true -> hdst p = true -> p < p')).
Proof.
  intros [P S DA] QE O. destruct s as [tx hd b1 b2 rx do u1 u2]. cbn [htx held CdcModel.b1 CdcModel.b2 hrx data_out CdcModel.u1 CdcModel.u2] in *.
  destruct p as [|[|[|[|[|[|[|[|[|[|[|[|[|[|p]]]]]]]]]]]]]]; try (exfalso; lia).
  all: cbn [hshape] in S; injection S; intros; subst; clear S.
  all: destruct e as [i rst|rst|i rst rst' nv na j]; cbn in QE; try (destruct rst; try discriminate); try (destruct rst'; try discriminate).
  all: try destruct i as [i|]; try (exfalso; assert (X : @Some T i <> None) by discriminate; cbn in O; specialize (O ltac:(discriminate)); discriminate).
  all: try destruct nv; try destruct na.
  all: cbn; rewrite ?app_nil_r.
  all: first [hcand 1 | hcand 2 | hcand 3 | hcand 4 | hcand 5 | hcand 6 | hcand 7 | hcand 8 | hcand 9 | hcand 10 | hcand 11 | hcand 12 | hcand 13].
Qed.

Lemma offers_app (es es' : list (event (option T) T)) : offers (es ++ es') = offers es ++ offers es'.
Proof. unfold offers, inputs. rewrite !flat_map_app. reflexivity. Qed.
Lemma offers_cons (e : event (option T) T) es : offers (e :: es) = offers [e] ++ offers es.
Proof. apply (offers_app [e] es). Qed.
Lemma hrun_app es es' (s : hand T) : hrun s (es ++ es') = hrun (hrun s es) es'.
Proof. apply fold_left_app. Qed.
Lemma recvs_app es : forall es' (s : hand T), recvs s (es ++ es') = recvs s es ++ recvs (hrun s es) es'.
Proof. induction es as [|e es IH]; intros es' s; [reflexivity|]. cbn. rewrite IH, app_assoc. reflexivity. Qed.

Lemma hrun_inv es : forall s ofs rs p, hinv s ofs rs p -> forallb quiet es = true -> offers es = [] ->
  exists p', hinv (hrun s es) ofs (rs ++ recvs s es) p' /\ p <= p' /\
    (forall Z, (forall x, p <= x < Z -> hsrc x = true) -> Z <= p + src_edges es -> Z <= p') /\
    (forall Z, (forall x, p <= x < Z -> hdst x = true) -> Z <= p + dst_edges es -> Z <= p').
Proof.
  induction es as [|e es IH]; intros s ofs rs p I QE O.
  - cbn. rewrite app_nil_r. exists p. unfold src_edges, dst_edges. cbn [List.length filter]. split; [exact I|]. split; [lia|]. split; intros; lia.
  - cbn in QE. apply andb_true_iff in QE as [Q1 Q2]. rewrite offers_cons in O. apply app_eq_nil in O as [O1 O2].
    destruct (hstep_inv s ofs rs p e I Q1) as (p1 & I1 & _ & PR); [congruence|]. destruct (PR O1) as (L & MS & MD).
    rewrite O1, app_nil_r in I1. destruct (IH _ _ _ _ I1 Q2 O2) as (p2 & I2 & L2 & S2 & D2).
    exists p2. change (hrun s (e :: es)) with (hrun (hstep s e) es). cbn [recvs]. rewrite app_assoc. split; [exact I2|]. split; [lia|]. split.
    + intros Z X Y. destruct (le_lt_dec Z p) as [G|G]; [lia|]. rewrite src_edges_cons in Y. apply S2; [intros; apply X; lia|].
      destruct (is_src e); [specialize (MS eq_refl (X p ltac:(lia)))|]; lia.
    + intros Z X Y. destruct (le_lt_dec Z p) as [G|G]; [lia|]. rewrite dst_edges_cons in Y. apply D2; [intros; apply X; lia|].
      destruct (is_dst e); [specialize (MD eq_refl (X p ltac:(lia)))|]; lia.
Qed.

Ltac rng := intros x X; do 13 (destruct x as [|x]; [first [reflexivity|exfalso; lia]|]); exfalso; lia.
Lemma settled_inv es : forall s ofs rs p, hinv s ofs rs p -> forallb quiet es = true -> offers es = [] -> settled es ->
  hinv (hrun s es) ofs (rs ++ recvs s es) 13.
Proof.
  intros s ofs rs p I QE O (c1 & c2 & c3 & c4 & c5 & -> & E1 & E2 & E3 & E4 & E5).
  rewrite !forallb_app in QE. rewrite !andb_true_iff in QE. destruct QE as (Q1 & Q2 & Q3 & Q4 & Q5).
  rewrite !offers_app in O. apply app_eq_nil in O as [O1 O]. apply app_eq_nil in O as [O2 O]. apply app_eq_nil in O as [O3 O]. apply app_eq_nil in O as [O4 O5].
  destruct (hrun_inv c1 _ _ _ _ I Q1 O1) as (p1 & I1 & L1 & S1 & _).
  destruct (hrun_inv c2 _ _ _ _ I1 Q2 O2) as (p2 & I2 & L2 & _ & D2).
  destruct (hrun_inv c3 _ _ _ _ I2 Q3 O3) as (p3 & I3 & L3 & S3 & _).
  destruct (hrun_inv c4 _ _ _ _ I3 Q4 O4) as (p4 & I4 & L4 & _ & D4).
  destruct (hrun_inv c5 _ _ _ _ I4 Q5 O5) as (p5 & I5 & L5 & S5 & _).
  pose proof (h_p _ _ _ _ I). pose proof (h_p _ _ _ _ I1). pose proof (h_p _ _ _ _ I2). pose proof (h_p _ _ _ _ I3). pose proof (h_p _ _ _ _ I4). pose proof (h_p _ _ _ _ I5).
  assert (P1 : 2 <= p1). { destruct (le_lt_dec 2 p); [lia|]. apply S1; [rng|lia]. }
  assert (P2 : 5 <= p2). { destruct (le_lt_dec 5 p1); [lia|]. apply D2; [rng|lia]. }
  assert (P3 : 8 <= p3). { destruct (le_lt_dec 8 p2); [lia|]. apply S3; [rng|lia]. }
  assert (P4 : 11 <= p4). { destruct (le_lt_dec 11 p3); [lia|]. apply D4; [rng|lia]. }
  assert (P5 : 13 <= p5). { destruct (le_lt_dec 13 p4); [lia|]. apply S5; [rng|lia]. }
  replace 13 with p5 by lia. rewrite !hrun_app, !recvs_app, !app_assoc. exact I5.
Qed.

Lemma last_offer (es : list (event (option T) T)) : offers es = [] \/ exists es1 e es2, es = es1 ++ e :: es2 /\ offers [e] <> [] /\ offers es2 = [].
Proof.
  induction es as [|e es IH]; [left; reflexivity|]. destruct IH as [IH|(es1 & e' & es2 & -> & A & B)].
  - destruct (offers [e]) as [|v l] eqn:E.
    + left. rewrite offers_cons, E, IH. reflexivity.
    + right. exists [], e, es. rewrite E. split; [reflexivity|]. split; [discriminate|exact IH].
  - right. exists (e :: es1), e', es2. auto.
Qed.
Lemma spaced_prefix (es es' : list (event (option T) T)) : spaced (es ++ es') -> spaced es.
Proof. intros H es1 e es2 e' es3 -> . apply (H es1 e es2 e' (es3 ++ es')). rewrite <- app_assoc. cbn. rewrite <- app_assoc. reflexivity. Qed.

Definition can_offer (es : list (event (option T) T)) : Prop :=
  forall es1 e es2, es = es1 ++ e :: es2 -> offers [e] <> [] -> offers es2 = [] -> settled es2.

Lemma main_inv n : forall es s, List.length es <= n -> hfresh s -> forallb quiet es = true -> spaced es ->
  exists p, hinv (hrun s es) (offers es) (recvs s es) p /\ (can_offer es -> p = 13).
Proof.
  induction n as [|n IH]; intros es s L F QE SP;
  assert (F0 : hinv s [] [] 13) by (destruct F as (A & B & C & D & E & G & H); constructor; [lia|rewrite A, B, C, D, G, H; reflexivity|reflexivity]).
  - destruct es; [|cbn in L; lia]. exists 13. auto.
  - destruct (last_offer es) as [O|(es1 & e & es2 & -> & A & B)].
    + destruct (hrun_inv es _ _ _ _ F0 QE O) as (p' & I & P & _). pose proof (h_p _ _ _ _ I). exists p'. rewrite O. split; [exact I|]. intros; lia.
    + rewrite app_length in L. cbn in L. rewrite forallb_app in QE. cbn in QE. rewrite !andb_true_iff in QE. destruct QE as (Q1 & Q2 & Q3).
      destruct (IH es1 s ltac:(lia) F Q1 (spaced_prefix _ _ SP)) as (p & I & C).
      assert (P : p = 13). { apply C. intros a x b -> X Y. apply (SP a x b e es2); auto. rewrite <- app_assoc. reflexivity. }
      destruct (hstep_inv _ _ _ _ e I Q2 (fun _ => P)) as (p1 & I1 & P1 & _).
      rewrite offers_app, offers_cons, B, app_nil_r, hrun_app, recvs_app. cbn [recvs]. rewrite app_assoc.
      change (hrun (hrun s es1) (e :: es2)) with (hrun (hstep (hrun s es1) e) es2).
      destruct (hrun_inv es2 _ _ _ _ I1 Q3 B) as (p2 & I2 & L2 & _). pose proof (h_p _ _ _ _ I2) as P2.
      exists p2. split; [exact I2|]. intros CO. specialize (CO es1 e es2 eq_refl A B).
      pose proof (settled_inv es2 _ _ _ _ I1 Q3 B CO) as I3.
      pose proof (h_shape _ _ _ _ I2) as S2. pose proof (h_shape _ _ _ _ I3) as S3. rewrite S2 in S3.
      do 14 (destruct p2 as [|p2]; [cbn in S3; first [discriminate|reflexivity|exfalso; lia]|]). lia.
Qed.
Lemma settled_app (es es' : list (event (option T) T)) : settled es' -> settled (es ++ es').
Proof.
  intros (c1 & c2 & c3 & c4 & c5 & -> & E1 & E). exists (es ++ c1), c2, c3, c4, c5. split; [rewrite <- app_assoc; reflexivity|]. split; [|exact E].
  unfold src_edges in *. rewrite filter_app, app_length. lia.
Qed.
End Hand.
