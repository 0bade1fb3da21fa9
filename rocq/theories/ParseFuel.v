(** The expression parser terminates: the fuel in [parse] is always enough. *)
From Coq Require Import List ZArith Lia Bool Arith.
From Verif Require Import ParseModel.
Import ListNotations.
Local Open Scope list_scope.

(** ** More fuel changes nothing *)
Definition le_res {A} (a b : res A) : Prop := a = Fuel \/ a = b.

Lemma le_refl {A} (a : res A) : le_res a a. Proof. now right. Qed.
Lemma le_fuel {A} (a : res A) : le_res Fuel a. Proof. now left. Qed.
Lemma le_bind {A B} (a b : res A) (f g : A -> list tok -> res B) :
  le_res a b -> (forall x r, le_res (f x r) (g x r)) -> le_res (bind a f) (bind b g).
Proof.
  intros [->| ->] H; [left; reflexivity|]. destruct b; cbn; [apply H|now right|now right].
Qed.

Lemma mono n :
  (forall k, n <= k -> forall ts, le_res (p_expr n ts) (p_expr k ts))
  /\ (forall k, n <= k -> forall m ts, le_res (p_bp n m ts) (p_bp k m ts))
  /\ (forall k, n <= k -> forall m e ts, le_res (p_loop n m e ts) (p_loop k m e ts))
  /\ (forall k, n <= k -> forall ts, le_res (p_base n ts) (p_base k ts))
  /\ (forall k, n <= k -> forall ts, le_res (p_if n ts) (p_if k ts))
  /\ (forall k, n <= k -> forall ts, le_res (p_args n ts) (p_args k ts))
  /\ (forall k, n <= k -> forall c ts, le_res (p_list n c ts) (p_list k c ts))
  /\ (forall k, n <= k -> forall ts, le_res (p_named n ts) (p_named k ts))
  /\ (forall k, n <= k -> forall e ts, le_res (p_suffix n e ts) (p_suffix k e ts)).
Proof.
  induction n as [|n (He & Hb & Hl & Hba & Hi & Ha & Hli & Hn & Hs)].
  - repeat split; intros; apply le_fuel.
  - repeat split; intros k Hk; (destruct k as [|k]; [lia|]); assert (Hk' : n <= k) by lia;
      specialize (He k Hk'); specialize (Hb k Hk'); specialize (Hl k Hk'); specialize (Hba k Hk');
      specialize (Hi k Hk'); specialize (Ha k Hk'); specialize (Hli k Hk'); specialize (Hn k Hk');
      specialize (Hs k Hk'); intros; cbn [p_expr p_bp p_loop p_base p_if p_args p_list p_named p_suffix];
      repeat first
        [ apply He | apply Hb | apply Hl | apply Hba | apply Hi | apply Ha | apply Hli | apply Hn | apply Hs
        | apply le_refl
        | apply le_bind; [|intros ? ?]
        | match goal with |- le_res (match ?x with _ => _ end) _ => destruct x end ].
Qed.

Lemma p_expr_mono n k ts : n <= k -> p_expr n ts <> Fuel -> p_expr k ts = p_expr n ts.
Proof. intros H F. destruct (proj1 (mono n) k H ts) as [E|E]; congruence. Qed.

(** ** Parsers consume tokens and do not run out of fuel *)
Definition shorter (strict : bool) (rest ts : list tok) : Prop :=
  if strict then length rest < length ts else length rest <= length ts.
Definition okk {A} (strict : bool) (ts : list tok) (r : res A) : Prop :=
  match r with
  | Ok _ rest => shorter strict rest ts
  | Err => True
  | Fuel => False
  end.

Lemma okk_bind {A B} b0 ts0 b ts (r : res A) (f : A -> list tok -> res B) :
  okk b0 ts0 r -> (forall a rest, shorter b0 rest ts0 -> okk b ts (f a rest)) ->
  okk b ts (bind r f).
Proof. destruct r; cbn; auto; contradiction. Qed.

Lemma okk_lt {A} b0 ts0 b ts (r : res A) : length ts0 < length ts -> okk b0 ts0 r -> okk b ts r.
Proof. destruct r, b, b0; cbn; auto; lia. Qed.
Lemma okk_le {A} b ts0 ts (r : res A) : length ts0 <= length ts -> okk b ts0 r -> okk b ts r.
Proof. destruct r, b; cbn; auto; lia. Qed.

Lemma okk_eat k ts : okk true ts (eat k ts).
Proof. destruct ts as [|t ts]; cbn; [trivial|]. destruct (kind_eqb k t); cbn; [lia|trivial]. Qed.
Lemma okk_identifier ts : okk true ts (identifier ts).
Proof. destruct ts as [|[] ts]; cbn; trivial; lia. Qed.
Lemma okk_int_literal ts : okk false ts (int_literal ts).
Proof. destruct ts as [|[| | |[]| | | | | | | | | | | | | | | | | | | ] [|[] ts]]; cbn; trivial; lia. Qed.
Lemma tl_lt (ts : list tok) k : peek_kind k ts = true -> length (tl ts) < length ts.
Proof. destruct ts; cbn; [discriminate|lia]. Qed.
Lemma tl_le (ts : list tok) : length (tl ts) <= length ts.
Proof. destruct ts; cbn; lia. Qed.
Lemma unop_tl ts u : peek_unop ts = Some u -> length (tl ts) < length ts.
Proof. destruct ts; cbn; [discriminate|lia]. Qed.
Lemma binop_tl ts u : peek_binop ts = Some u -> length (tl ts) < length ts.
Proof. destruct ts; cbn; [discriminate|lia]. Qed.

Ltac lens :=
  repeat match goal with
  | H : peek_kind _ _ = true |- _ => apply tl_lt in H
  | H : peek_unop _ = Some _ |- _ => apply unop_tl in H
  | H : peek_binop _ = Some _ |- _ => apply binop_tl in H
  end;
  unfold shorter in *; cbn [length] in *; lia.

Lemma enough n :
  (forall ts, 10 * length ts + 4 <= n -> okk true ts (p_expr n ts))
  /\ (forall m ts, 10 * length ts + 3 <= n -> okk true ts (p_bp n m ts))
  /\ (forall m e ts, 10 * length ts + 1 <= n -> okk false ts (p_loop n m e ts))
  /\ (forall ts, 10 * length ts + 2 <= n -> okk true ts (p_base n ts))
  /\ (forall ts, 10 * length ts + 1 <= n -> okk true ts (p_if n ts))
  /\ (forall ts, 10 * length ts + 1 <= n -> okk false ts (p_args n ts))
  /\ (forall c ts, 10 * length ts + 5 <= n -> okk false ts (p_list n c ts))
  /\ (forall ts, 10 * length ts + 1 <= n -> okk false ts (p_named n ts))
  /\ (forall e ts, 10 * length ts + 1 <= n -> okk false ts (p_suffix n e ts)).
Proof.
  induction n as [|n (He & Hb & Hl & Hba & Hi & Ha & Hli & Hn & Hs)];
    [repeat split; intros; lia|].
  repeat split; intros; cbn [p_expr p_bp p_loop p_base p_if p_args p_list p_named p_suffix].
  - eapply okk_bind; [apply Hb; lia|]. intros l r L.
    destruct (peek_kind TkTick r) eqn:E; [|exact L].
    eapply okk_bind; [apply okk_eat|]. intros ? r1 L1.
    eapply okk_bind; [apply okk_identifier|]. intros ? r2 L2.
    eapply okk_bind; [apply okk_eat|]. intros ? r3 L3.
    eapply okk_bind; [apply He; lens|]. intros ? r4 L4. cbn. lens.
  - destruct (peek_unop ts) eqn:E.
    + eapply okk_bind; [apply Hb; lens|]. intros ? r L.
      destruct (inline_negative_literal u a); [|exact I].
      apply (okk_lt false r); [lens|]. apply Hl. lens.
    + eapply okk_bind; [apply Hba; lia|]. intros ? r L. apply (okk_lt false r); [lens|]. apply Hl. lens.
  - destruct (peek_binop ts) eqn:E; [|cbn; lia]. destruct (_ <=? _); [cbn; lia|].
    eapply okk_bind; [apply Hb; lens|]. intros ? r L. apply (okk_le _ r); [lens|]. apply Hl. lens.
  - apply (okk_bind true ts); [|intros ? r L; apply (okk_lt false r); [lens|]; apply Hs; lens].
    destruct ts as [|t ts]; [exact I|]. destruct t; try exact I; try (cbn; lia).
    + cbn. destruct (literal false val k); cbn; lia.
    + destruct (is_macro ts); [exact I|]. eapply okk_bind; [apply Ha; lens|].
      intros [] r L; cbn; lens.
    + destruct k; try exact I.
      * destruct ts as [|[] ts]; try exact I. cbn. destruct (literal _ _ _); cbn; lia.
      * destruct ts as [|[] ts]; try exact I. cbn. destruct (literal _ _ _); cbn; lia.
    + destruct (peek_kind TkRP ts) eqn:E1; [cbn; lens|].
      destruct (peek_kind TkComma ts) eqn:E2.
      * eapply okk_bind; [apply okk_eat|]. intros ? r L. cbn. lens.
      * eapply okk_bind; [apply He; lens|]. intros e r L.
        destruct r as [|[] r]; try exact I; [cbn; lens|].
        eapply okk_bind; [apply Hli; lens|]. intros ? r1 L1.
        eapply okk_bind; [apply okk_eat|]. intros ? r2 L2. cbn. lens.
    + destruct (peek_kind TkRB ts) eqn:E1; [cbn; lens|].
      eapply okk_bind; [apply He; lens|]. intros e r L.
      destruct (peek_kind TkSemi r) eqn:E2.
      * eapply okk_bind; [apply He; lens|]. intros ? r1 L1.
        eapply okk_bind; [apply okk_eat|]. intros ? r2 L2. cbn. lens.
      * assert (length (if peek_kind TkComma r then tl r else r) <= length r)
          by (destruct (peek_kind TkComma r); [apply tl_le|lia]).
        eapply okk_bind; [apply Hli; lens|]. intros ? r1 L1.
        eapply okk_bind; [apply okk_eat|]. intros ? r2 L2. cbn. lens.
    + eapply okk_bind; [apply He; lens|]. intros e r L.
      eapply okk_bind; [apply okk_eat|]. intros ? r2 L2. cbn. lens.
    + apply Hi. lens.
  - eapply okk_bind; [apply okk_eat|]. intros ? r1 L1.
    eapply okk_bind; [apply He; lens|]. intros ? r2 L2.
    eapply okk_bind; [apply okk_eat|]. intros ? r3 L3.
    eapply okk_bind; [apply He; lens|]. intros ? r4 L4.
    eapply okk_bind; [apply okk_eat|]. intros ? r5 L5.
    eapply okk_bind; [apply okk_eat|]. intros ? r6 L6.
    destruct (peek_kind TkLBrace r6) eqn:E1.
    + eapply okk_bind; [apply He; lens|]. intros ? r7 L7.
      eapply okk_bind; [apply okk_eat|]. intros ? r8 L8. cbn. lens.
    + destruct (peek_kind TkIf r6) eqn:E2; [|exact I].
      eapply okk_bind; [apply Hi; lens|]. intros ? r7 L7. cbn. lens.
  - assert (L : length (if peek_kind TkDollar ts then tl ts else ts) <= length ts)
      by (destruct (peek_kind TkDollar ts); [apply tl_le|lia]).
    set (ts' := if peek_kind TkDollar ts then tl ts else ts) in *.
    destruct (peek_kind TkLP ts') eqn:E; [|cbn; lia].
    destruct (peek_kind TkDollar ts).
    + eapply okk_bind; [apply Hn; lens|]. intros ? r7 L7.
      eapply okk_bind; [apply okk_eat|]. intros ? r8 L8. cbn. lens.
    + eapply okk_bind; [apply Hli; lens|]. intros ? r7 L7.
      eapply okk_bind; [apply okk_eat|]. intros ? r8 L8. cbn. lens.
  - destruct (peek_kind c ts); [cbn; lia|].
    eapply okk_bind; [apply He; lens|]. intros ? r L.
    destruct (peek_kind c r); [cbn; lens|].
    destruct (peek_kind TkComma r) eqn:E; [|exact I].
    eapply okk_bind; [apply Hli; lens|]. intros ? r1 L1. cbn. lens.
  - destruct (peek_kind TkRP ts); [cbn; lia|].
    eapply okk_bind; [apply okk_identifier|]. intros ? r L.
    apply (okk_bind false r).
    + destruct (peek_kind TkColon r) eqn:E; [|cbn; lia].
      eapply okk_bind; [apply He; lens|]. intros ? r1 L1. cbn. lens.
    + intros v r1 L1. apply (okk_bind false r1); [|intros ? r2 L2; cbn; lens].
      destruct (peek_kind TkRP r1); [cbn; lia|].
      destruct (peek_kind TkComma r1) eqn:E; [|exact I].
      apply (okk_lt false (tl r1)); [lens|]. apply Hn. lens.
  - destruct ts as [|[] ts]; try (cbn; lia).
    + apply (okk_bind false (TkLB :: ts)).
      * destruct (peek_kind TkDotDot ts) eqn:E.
        -- destruct (peek_kind TkRB (tl ts)); [cbn; lens|].
           eapply okk_bind; [apply He; lens|]. intros ? r1 L1. cbn. lens.
        -- eapply okk_bind; [apply He; lens|]. intros ? r1 L1.
           destruct (peek_kind TkDotDot r1) eqn:E1; [|cbn; lens].
           destruct (peek_kind TkRB (tl r1)); [cbn; lens|].
           eapply okk_bind; [apply He; lens|]. intros ? r2 L2. cbn. lens.
      * intros ? r L. eapply okk_bind; [apply okk_eat|]. intros ? r8 L8.
        apply (okk_le _ r8); [lens|]. apply Hs. lens.
    + eapply okk_bind; [apply okk_int_literal|]. intros [[z k]|] r L.
      * destruct (tuple_index z); [|exact I]. apply (okk_le _ r); [lens|]. apply Hs. lens.
      * eapply okk_bind; [apply okk_identifier|]. intros ? r1 L1.
        eapply okk_bind; [apply Ha; lens|]. intros ? r2 L2.
        apply (okk_le _ r2); [lens|]. apply Hs. lens.
    + eapply okk_bind; [apply okk_int_literal|]. intros [[z k]|] r L; [|exact I].
      destruct (tuple_index z); [|exact I]. apply (okk_le _ r); [lens|]. apply Hs. lens.
    + destruct ts as [|[] ts]; try exact I. cbn. lia.
Qed.

(** [parse] agrees with any amount of fuel that is enough. *)
Lemma parse_enough ts : p_expr (10 * length ts + 10) ts <> Fuel.
Proof.
  intros E. pose proof (proj1 (enough (10 * length ts + 10)) ts ltac:(lia)) as H.
  rewrite E in H. exact H.
Qed.

Lemma parse_fuel ts n : p_expr n ts <> Fuel -> p_expr (10 * length ts + 10) ts = p_expr n ts.
Proof.
  intros H. destruct (Nat.le_ge_cases n (10 * length ts + 10)) as [L|L].
  - now apply p_expr_mono.
  - symmetry. apply p_expr_mono; [assumption|]. apply parse_enough.
Qed.
