(** Proofs about BlockModel. *)
From Coq Require Import List Arith Bool Lia.
Import ListNotations.
From Verif Require Import BlockModel BlockSpec.

Lemma tok_eqb_eq : forall a b, tok_eqb a b = true <-> a = b.
Proof.
  intros a b. split.
  - destruct a, b; cbn; intros H; try discriminate; try reflexivity; apply Nat.eqb_eq in H; congruence.
  - intros <-. destruct a; cbn; try reflexivity; apply Nat.eqb_refl.
Qed.
Lemma tok_eqb_refl : forall a, tok_eqb a a = true.
Proof. intros a. apply tok_eqb_eq. reflexivity. Qed.

(** ** What is left is never longer *)
Definition left_of {A} (x : pr A) : cells := match x with Ok _ r | Fail _ r => r end.
Definition nl {A} (p : P A) : Prop := forall ts, length (left_of (p ts)) <= length ts.
Lemma nl_bind : forall {A B} (p : P A) (k : A -> P B), nl p -> (forall a, nl (k a)) -> nl (bind p k).
Proof. intros A B p k H K ts. unfold bind. specialize (H ts). destruct (p ts) as [a r|e r]; cbn in *; [specialize (K a r)|]; lia. Qed.
Lemma nl_ret : forall {A} (a : A), nl (ret a). Proof. intros A a ts. cbn. lia. Qed.
Lemma nl_fail : forall {A} e, nl (@fail A e). Proof. intros A e ts. cbn. lia. Qed.
Lemma nl_peek : nl peek. Proof. intros [|[t|] ts]; cbn; lia. Qed.
Lemma nl_next : nl next. Proof. intros [|[t|] ts]; cbn; lia. Qed.
Create HintDb nl.
Local Hint Resolve nl_bind nl_ret nl_fail nl_peek nl_next : nl.
Ltac nlt := repeat first [apply nl_bind; [|intros ?] | apply nl_ret | apply nl_fail | apply nl_peek | apply nl_next
  | match goal with |- nl (if ?b then _ else _) => destruct b | |- nl (match ?b with _ => _ end) => destruct b end | assumption].
Lemma nl_eat : forall k, nl (eat k). Proof. intros k. unfold eat. nlt. Qed.
Lemma nl_pae : forall k, nl (peek_and_eat k). Proof. intros k. unfold peek_and_eat. nlt; apply nl_eat. Qed.
Lemma nl_expression : nl expression. Proof. unfold expression. nlt. Qed.
Lemma nl_pattern : nl pattern. Proof. unfold pattern. nlt. Qed.
Lemma nl_type : nl type_spec. Proof. unfold type_spec. nlt. Qed.
Lemma nl_texpr : nl type_expression. Proof. unfold type_expression. nlt. Qed.
Lemma nl_surr : forall {A} o (p : P A) c, nl p -> nl (surrounded o p c). Proof. intros. unfold surrounded. nlt; apply nl_eat. Qed.
Lemma nl_disa : forall a, nl (disallow_attributes a). Proof. intros. unfold disallow_attributes. nlt. Qed.
Lemma nl_disv : forall a, nl (disallow_visibility a). Proof. intros. unfold disallow_visibility. nlt. Qed.
Lemma nl_allows : forall c, nl (allows_reg c). Proof. intros. unfold allows_reg. nlt. Qed.
Ltac nlt' := repeat first [apply nl_eat | apply nl_pae | apply nl_expression | apply nl_pattern | apply nl_type | apply nl_texpr | apply nl_surr
  | apply nl_disa | apply nl_disv | apply nl_allows | progress nlt].
Lemma nl_otype : nl optional_type. Proof. unfold optional_type. nlt'. Qed.
Lemma nl_reset : nl register_reset. Proof. unfold register_reset. nlt'. Qed.
Lemma nl_initial : nl register_initial. Proof. unfold register_initial. nlt'. Qed.
Lemma names_len : forall n ts, length ts <= n -> length (left_of (p_names ts)) <= length ts.
Proof.
  induction n as [|n IH]; intros ts L; [destruct ts; [cbn; lia|cbn in L; lia]|].
  destruct ts as [|[t|] r]; [cbn; lia| |cbn; lia]. destruct t; try (cbn; lia). destruct r as [|[t|] r]; [cbn; lia| |cbn; lia].
  destruct t; try (cbn; lia). cbn [p_names]. cbn [length] in L |- *. specialize (IH r ltac:(lia)). destruct (p_names r); cbn in *; lia.
Qed.
Lemma nl_names : nl p_names. Proof. intros ts. eapply names_len, le_n. Qed.
Lemma nl_attributes : nl attributes.
Proof.
  intros ts. induction ts as [|[t|] r IH]; [cbn; lia| |cbn; lia]. destruct t; cbn; try lia. destruct (attributes r); cbn in *; lia.
Qed.
Lemma nl_visibility : nl visibility. Proof. unfold visibility. nlt. Qed.
Lemma skip_len : forall stop ts, length (skip stop ts) <= length ts.
Proof. intros stop ts. induction ts as [|[t|] r IH]; cbn; [lia| |lia]. destruct (stop t); cbn; lia. Qed.
(** A reader that takes the first token first *)
Definition after {A} (p : P A) : Prop := forall t r, length (left_of (p (Some t :: r))) <= length r.
Lemma after_next : forall {A} (k : tok -> P A), (forall a, nl (k a)) -> after (bind next k).
Proof. intros A k K t r. cbn. apply K. Qed.
Ltac stm := apply after_next; intros ?; nlt'; try apply nl_otype; try apply nl_reset; try apply nl_initial; try apply nl_names; nlt'.
Lemma af_binding : forall a v, after (p_binding a v). Proof. intros. unfold p_binding. stm. Qed.
Lemma af_register : forall c a v, after (p_register c a v).
Proof. intros. unfold p_register. apply after_next. intros ?. repeat first [apply nl_otype | apply nl_reset | apply nl_initial | progress nlt']. Qed.
Lemma af_decl : forall a v, after (p_decl a v).
Proof. intros. unfold p_decl. apply after_next. intros ?. repeat first [apply nl_names | progress nlt']. Qed.
Lemma af_label : forall n a v, after (p_label n a v). Proof. intros. unfold p_label. stm. Qed.
Lemma af_assert : forall a v, after (p_assert a v). Proof. intros. unfold p_assert. stm. Qed.
Lemma af_set : forall a v, after (p_set a v). Proof. intros. unfold p_set. stm. Qed.

Definition dleft {A} (x : res A) : cells := match x with Done _ r _ | Failed _ r _ => r end.
Definition dl {A} (p : D A) : Prop := forall ts d, length (dleft (p ts d)) <= length ts.
Lemma dl_bind : forall {A B} (p : D A) (k : A -> D B), dl p -> (forall a, dl (k a)) -> dl (dbind p k).
Proof. intros A B p k H K ts d. unfold dbind. specialize (H ts d). destruct (p ts d) as [a r d'|e r d']; cbn in *; [specialize (K a r d')|]; lia. Qed.
Lemma dl_lift : forall {A} (p : P A), nl p -> dl (lift p).
Proof. intros A p H ts d. unfold lift. specialize (H ts). destruct (p ts); exact H. Qed.
Lemma dl_ret : forall {A} (a : A), dl (dret a). Proof. intros A a ts d. cbn. lia. Qed.
Lemma dl_note : forall e, dl (note e). Proof. intros e ts d. cbn. lia. Qed.
Lemma dl_semi : forall s, dl (semi s).
Proof.
  intros s. unfold semi. apply dl_bind; [apply dl_lift, nl_peek|]. intros t. destruct t;
  first [apply dl_lift, nl_fail | apply dl_bind; [first [apply dl_note|apply dl_lift, nl_next]|intros ?; apply dl_ret]].
Qed.
Lemma dafter : forall {A B} (p : P A) (k : A -> D B), after p -> (forall a, dl (k a)) -> forall t r d, length (dleft (dbind (lift p) k (Some t :: r) d)) <= length r.
Proof. intros A B p k H K t r d. unfold dbind, lift. specialize (H t r). destruct (p (Some t :: r)) as [a r'|e r']; cbn in *; [specialize (K a r' d)|]; lia. Qed.
Lemma keyword_len : forall c b t a v r d, length (dleft (by_keyword c b t a v (Some t :: r) d)) <= length r + (match by_keyword c b t a v (Some t :: r) d with Done None _ _ => 1 | _ => 0 end).
Proof.
  intros c b t a v r d.
  assert (K : forall s, dl (dbind (semi s) (fun s => dret (Some s)))) by (intros s; apply dl_bind; [apply dl_semi|intros ?; apply dl_ret]).
  destruct t; cbn [by_keyword]; try (cbn; lia); match goal with |- ?x <= ?y + _ => apply (Nat.le_trans x y); [|lia] end; apply dafter; try exact K; try (intros ?; apply dl_ret);
    try apply af_binding; try apply af_register; try apply af_decl; try apply af_label; try apply af_assert; try apply af_set.
  - intros s. apply dl_bind; [apply dl_semi|]. intros s'. destruct s'; try apply dl_ret. destruct b; [apply dl_ret|apply dl_lift, nl_fail].
Qed.

(** ** Every sequence ends *)
Lemma attributes_fail : forall ts e r, attributes ts = Fail e r -> length r < length ts.
Proof.
  induction ts as [|[t|] ts IH]; intros e r H; [discriminate| |injection H as _ <-; cbn; lia].
  destruct t; try discriminate. cbn in H. destruct (attributes ts) eqn:E; [discriminate|]. injection H as <- <-. specialize (IH _ _ eq_refl). cbn. lia.
Qed.
Lemma peek_fail : forall ts e r, peek ts = Fail e r -> length r < length ts.
Proof. intros [|[t|] ts] e r H; try discriminate. injection H as _ <-. cbn. lia. Qed.
Lemma peek_ok : forall ts t r, peek ts = Ok t r -> r = ts /\ ((ts = [] /\ t = Eof) \/ exists r', ts = Some t :: r').
Proof. intros [|[t'|] ts] t r H; try discriminate; injection H as <- <-; eauto. Qed.
Lemma visibility_fail : forall ts e r, visibility ts = Fail e r -> length r < length ts.
Proof.
  intros [|[t|] ts] e r H; [discriminate| |injection H as _ <-; cbn; lia]. destruct t; discriminate.
Qed.
Section Ends.
Variables T F : Type.
Variable stp : tok -> bool.
Variable one : tok -> list nat -> option nat -> D (option T).
Variable oth : list nat -> D (T + F).
Hypothesis H1 : forall t a v r d, length (dleft (one t a v (Some t :: r) d)) <= length r + (match one t a v (Some t :: r) d with Done None _ _ => 1 | _ => 0 end).
Hypothesis H2 : forall a v d, one Eof a v [] d = Done None [] d.
Hypothesis H3 : forall a ts d, length (dleft (oth a ts d)) + (match oth a ts d with Done (inl _) _ _ => 1 | _ => 0 end) <= length ts.
Lemma head_len : forall ts d, length (dleft (head T one ts d)) + (match head T one ts d with Done (_, None) _ _ => 0 | _ => 1 end) <= length ts.
Proof.
  intros ts d. unfold head, dbind, lift. pose proof (nl_attributes ts) as L. destruct (attributes ts) as [a r|e r] eqn:E; cbn in L; [|apply attributes_fail in E; cbn; lia].
  pose proof (nl_visibility r) as L2. destruct (visibility r) as [v r2|e r2] eqn:E2; cbn in L2; [|apply visibility_fail in E2; cbn; lia].
  destruct (peek r2) as [t r3|e r3] eqn:E3; [|apply peek_fail in E3; cbn; lia].
  apply peek_ok in E3. destruct E3 as [-> [[-> ->]|[r' ->]]].
  - rewrite H2. cbn in *. lia.
  - specialize (H1 t a v r' d). cbn [length] in L2. destruct (one t a v (Some t :: r') d) as [[s|] r4 d'|e r4 d']; cbn in *; lia.
Qed.
Lemma seq_ends : forall fuel ts d, length ts < fuel -> exists x, seq T F stp one oth fuel ts d = Some x.
Proof.
  induction fuel as [|fuel IH]; intros ts d L; [lia|]. cbn [seq]. unfold with_recovery. pose proof (head_len ts d) as Hh.
  destruct (head T one ts d) as [[a [s|]] r d'|e r d']; cbn in Hh.
  - destruct (IH r d' ltac:(lia)) as [x ->]. destruct x as [[l f] r1 d1|]; eauto.
  - specialize (H3 a r d'). destruct (oth a r d') as [[s|f] r2 d2|e r2 d2]; cbn in H3; eauto.
    destruct (IH r2 d2 ltac:(lia)) as [x ->]. destruct x as [[l f] r1 d1|]; eauto.
  - apply IH. pose proof (skip_len stp r). lia.
Qed.
Lemma seq_len : forall fuel ts d x, seq T F stp one oth fuel ts d = Some x -> length (dleft x) <= length ts.
Proof.
  induction fuel as [|fuel IH]; intros ts d x H; [discriminate|]. cbn [seq] in H. unfold with_recovery in H. pose proof (head_len ts d) as Hh.
  destruct (head T one ts d) as [[a [s|]] r d'|e r d']; cbn in Hh.
  - destruct (seq T F stp one oth fuel r d') as [y|] eqn:E; [|discriminate]. apply IH in E. destruct y as [[l f] r1 d1|]; injection H as <-; cbn in *; lia.
  - specialize (H3 a r d'). destruct (oth a r d') as [[s|f] r2 d2|e r2 d2]; cbn in H3; [|injection H as <-; cbn; lia|injection H as <-; cbn; lia].
    destruct (seq T F stp one oth fuel r2 d2) as [y|] eqn:E; [|discriminate]. apply IH in E. destruct y as [[l f] r1 d1|]; injection H as <-; cbn in *; lia.
  - apply IH in H. pose proof (skip_len stp r). lia.
Qed.
End Ends.
Lemma next_expr_len : forall ts e r, expression ts = Ok e r -> ts = Some (etok e) :: r.
Proof. intros [|[t|] ts] e r H; try discriminate. destruct t; try discriminate; injection H as <- <-; reflexivity. Qed.
Lemma other_len : forall a ts d, length (dleft (other a ts d)) + (match other a ts d with Done (inl _) _ _ => 1 | _ => 0 end) <= length ts.
Proof.
  intros a ts d. unfold other, dbind, lift. destruct (peek ts) as [t r|e r] eqn:E; [|apply peek_fail in E; cbn; lia].
  apply peek_ok in E. destruct E as [-> _]. destruct (tok_eqb t CloseBrace); [destruct a; cbn; lia|].
  pose proof (nl_expression ts) as L. destruct (expression ts) as [e r|e r] eqn:E; cbn in L; [|cbn; lia].
  apply next_expr_len in E. subst ts. cbn [length] in *. destruct (peek r) as [t' r'|e' r'] eqn:E; [|apply peek_fail in E; cbn; lia].
  apply peek_ok in E. destruct E as [-> E]. destruct t'; try (destruct a; cbn; lia); destruct E as [[_ E]|[r' ->]]; try discriminate; cbn; lia.
Qed.
(** The value of a block is read where nothing follows it that a statement could be *)
Lemma other_value : forall a ts d f r d', other a ts d = Done (inr f) r d' -> d' = d /\ a = [] /\
  match f with None => exists r', ts = Some CloseBrace :: r' /\ r = ts
  | Some e => ts = Some (etok e) :: r /\ exists t, peek r = Ok t r /\ t <> Semi /\ t <> GreekQuestionMark end.
Proof.
  intros a ts d f r d' H. unfold other, dbind at 1, lift at 1 in H. destruct (peek ts) as [t r0|e r0] eqn:E; [|discriminate].
  apply peek_ok in E. destruct E as [-> Ep]. destruct (tok_eqb t CloseBrace) eqn:Et.
  - destruct a; cbn in H; [|discriminate]. injection H as <- <- <-. apply tok_eqb_eq in Et. subst t. destruct Ep as [[_ Ep]|[r' ->]]; [discriminate|]. eauto 6.
  - unfold dbind at 1, lift at 1 in H. destruct (expression ts) as [e r1|e r1] eqn:E; [|discriminate]. apply next_expr_len in E. subst ts.
    unfold dbind at 1, lift at 1 in H. destruct (peek r1) as [t' r'|e' r'] eqn:E; [|discriminate]. pose proof E as E0. apply peek_ok in E. destruct E as [-> Eq].
    destruct t'; try discriminate; try (destruct Eq as [[_ Eq]|[r2 ->]]; discriminate); (destruct a; cbn in H; [|discriminate]); injection H as <- <- <-; (split; [reflexivity|split; [reflexivity|split; [reflexivity|]]]);
      eexists; (split; [exact E0|split; discriminate]).
Qed.
Lemma seq_value : forall stp one fuel ts d l f r d', seq stmt (option expr) stp one other fuel ts d = Some (Done (l, f) r d') ->
  match f with None => exists r', r = Some CloseBrace :: r' | Some e => exists t, peek r = Ok t r /\ t <> Semi /\ t <> GreekQuestionMark end.
Proof.
  intros stp one. induction fuel as [|fuel IH]; intros ts d l f r d' H; [discriminate|]. cbn [seq] in H.
  destruct (with_recovery stp (head stmt one) ts d) as [[[a [s|]]|] r1 d1|]; [| | |discriminate].
  - destruct (seq _ _ _ _ _ fuel r1 d1) as [[[l1 f1] r2 d2|]|] eqn:E; try discriminate. injection H as <- <- <- <-. eapply IH, E.
  - destruct (other a r1 d1) as [[s|f1] r2 d2|] eqn:E; [| |discriminate].
    + destruct (seq _ _ _ _ _ fuel r2 d2) as [[[l1 f1] r3 d3|]|] eqn:E'; try discriminate. injection H as <- <- <- <-. eapply IH, E'.
    + injection H as <- <- <- <-. apply other_value in E. destruct E as (_ & _ & E). destruct f1 as [e|]; [apply E|destruct E as (r' & -> & ->); eauto].
  - eapply IH, H.
Qed.
Lemma keyword_eof : forall c b a v d, by_keyword c b Eof a v [] d = Done None [] d.
Proof. reflexivity. Qed.
Section Blocks.
Variable outer : tok -> bool.
Variable c : option unit_kind.
Variable stages : bool.
Lemma block_statements_len : forall fuel ts d x, block_statements outer c stages fuel ts d = Some x -> length (dleft x) <= length ts.
Proof. intros fuel ts d x. apply seq_len; [apply keyword_len|apply keyword_eof|apply other_len]. Qed.
Lemma statements_from_ends : forall fuel l f ts d, length ts < fuel -> exists x, statements_from outer c stages fuel l f ts d = Some x.
Proof.
  induction fuel as [|fuel IH]; intros l f ts d L; [lia|]. cbn [statements_from].
  destruct (peek ts) as [t r|e r] eqn:E; [|eauto]. apply peek_ok in E. destruct E as [-> Ep].
  assert (G : exists x, block_statements outer c stages (S (length ts)) ts d = Some x) by (apply seq_ends; [apply keyword_len|apply keyword_eof|apply other_len|lia]).
  destruct G as [x G]. assert (Tk : t = CloseBrace \/ t <> CloseBrace) by (destruct t; auto; right; discriminate). destruct Tk as [->|Nt]; [eauto|].
  assert (Goal : exists y, match block_statements outer c stages (S (length ts)) ts d with
          | None => None
          | Some (Failed e r d) => Some (Failed e r d)
          | Some (Done (l', final') r d) =>
              let old := match f with Some e => [SExpression e []] | None => [] end in
              let d := match f, l', final' with Some _, [], None => d | Some _, _, _ => d ++ [MissingSemiAfterValue] | None, _, _ => d end in
              statements_from outer c stages fuel (l ++ old ++ l') final' r d
          end = Some y).
  { rewrite G. destruct x as [[l' f'] r d'|e r d']; [|eauto]. cbv zeta. pose proof (block_statements_len _ _ _ _ G) as Ll. cbn in Ll.
    pose proof (seq_value _ _ _ _ _ _ _ _ _ G) as V.
    destruct f' as [e|].
    - apply IH. unfold block_statements in G.
      assert (Lt : length r < length ts).
      { clear - G Ep Nt Ll. destruct (Nat.eq_dec (length r) (length ts)) as [Eq|]; [|lia]. exfalso.
        revert G. generalize (S (length ts)) as n. intros n G.
        (* nothing read cannot give a value *)
        assert (Gen : forall fuel ts d l e r d', seq stmt (option expr) (stop outer) (by_keyword c stages) other fuel ts d = Some (Done (l, Some e) r d') -> length r < length ts).
        { clear. induction fuel as [|fuel IH]; intros ts d l e r d' H; [discriminate|]. cbn [seq] in H. unfold with_recovery in H.
          pose proof (head_len stmt (by_keyword c stages) (keyword_len c stages) (keyword_eof c stages) ts d) as Hh.
          destruct (head stmt (by_keyword c stages) ts d) as [[a [s|]] r1 d1|e1 r1 d1]; cbn in Hh.
          - destruct (seq _ _ _ _ _ fuel r1 d1) as [[[l1 f1] r2 d2|]|] eqn:E; try discriminate. injection H as <- -> <- <-. apply IH in E. lia.
          - pose proof (other_len a r1 d1) as Lo. destruct (other a r1 d1) as [[s|f1] r2 d2|] eqn:E; cbn in Lo; [| |discriminate].
            + destruct (seq _ _ _ _ _ fuel r2 d2) as [[[l1 f1] r3 d3|]|] eqn:E'; try discriminate. injection H as <- -> <- <-. apply IH in E'. lia.
            + injection H as <- -> <- <-. apply other_value in E. destruct E as (_ & _ & -> & _). cbn [length] in *. lia.
          - apply IH in H. pose proof (skip_len (stop outer) r1). lia. }
        apply Gen in G. lia. }
      lia.
    - destruct V as [r' ->]. destruct fuel as [|fuel]; [cbn in *; lia|]. cbn [statements_from peek]. eauto. }
  destruct t; try exact Goal. congruence.
Qed.
End Blocks.

(** ** Errors noted are never taken back *)
Definition noted {A} (x : res A) : list error := match x with Done _ _ d | Failed _ _ d => d end.
Definition grows {A} (p : D A) : Prop := forall ts d, exists x, noted (p ts d) = d ++ x.
Lemma g_ret : forall {A} (a : A), grows (dret a). Proof. intros A a ts d. exists []. cbn. rewrite app_nil_r. reflexivity. Qed.
Lemma g_lift : forall {A} (p : P A), grows (lift p). Proof. intros A p ts d. exists []. unfold lift. destruct (p ts); cbn; rewrite app_nil_r; reflexivity. Qed.
Lemma g_note : forall e, grows (note e). Proof. intros e ts d. exists [e]. reflexivity. Qed.
Lemma g_bind : forall {A B} (p : D A) (k : A -> D B), grows p -> (forall a, grows (k a)) -> grows (dbind p k).
Proof.
  intros A B p k H K ts d. unfold dbind. destruct (H ts d) as [x E]. destruct (p ts d) as [a r d'|e r d']; cbn in E; [|exists x; exact E].
  destruct (K a r d') as [y E']. exists (x ++ y). rewrite E', E, app_assoc. reflexivity.
Qed.
Lemma g_semi : forall s, grows (semi s).
Proof.
  intros s. unfold semi. apply g_bind; [apply g_lift|]. intros t. destruct t;
  first [apply g_lift | apply g_bind; [first [apply g_note|apply g_lift]|intros ?; apply g_ret]].
Qed.
Lemma g_keyword : forall c b t a v, grows (by_keyword c b t a v).
Proof.
  intros c b t a v. destruct t; cbn [by_keyword]; try apply g_ret; (apply g_bind; [apply g_lift|]); intros s; try apply g_ret;
    (apply g_bind; [apply g_semi|]); intros s'; try apply g_ret. destruct s'; try apply g_ret. destruct b; [apply g_ret|apply g_lift].
Qed.
Lemma g_other : forall a, grows (other a).
Proof.
  intros a. unfold other. apply g_bind; [apply g_lift|]. intros t. destruct (tok_eqb t CloseBrace).
  - apply g_bind; [apply g_lift|]. intros ?. apply g_ret.
  - apply g_bind; [apply g_lift|]. intros e. apply g_bind; [apply g_lift|]. intros t'. destruct t'; first [apply g_lift | apply g_bind; [apply g_lift|intros ?; apply g_ret]].
Qed.
Lemma grown : forall (d x y : list error), d = (d ++ x) ++ y -> x = [] /\ y = [].
Proof.
  intros d x y H. apply (f_equal (@length error)) in H. rewrite !app_length in H. destruct x; cbn in H; [|lia]. destruct y; cbn in H; [auto|lia].
Qed.
Lemma grown1 : forall (d x : list error), d = d ++ x -> x = [].
Proof. intros d x H. apply (f_equal (@length error)) in H. rewrite app_length in H. destruct x; [reflexivity|cbn in H; lia]. Qed.
Section Grow.
Variables T F : Type.
Variable stp : tok -> bool.
Variable one : tok -> list nat -> option nat -> D (option T).
Variable oth : list nat -> D (T + F).
Hypothesis G1 : forall t a v, grows (one t a v).
Hypothesis G2 : forall a, grows (oth a).
Lemma g_head : grows (head T one).
Proof. unfold head. apply g_bind; [apply g_lift|]; intros a. apply g_bind; [apply g_lift|]; intros v. apply g_bind; [apply g_lift|]; intros t. apply g_bind; [apply G1|intros ?; apply g_ret]. Qed.
Lemma g_seq : forall fuel ts d x, seq T F stp one oth fuel ts d = Some x -> exists y, noted x = d ++ y.
Proof.
  induction fuel as [|fuel IH]; intros ts d x H; [discriminate|]. cbn [seq] in H. unfold with_recovery in H.
  destruct (g_head ts d) as [y Hy]. destruct (head T one ts d) as [[a [s|]] r d'|e r d']; cbn in Hy; subst d'.
  - destruct (seq T F stp one oth fuel r (d ++ y)) as [z|] eqn:E; [|discriminate]. apply IH in E. destruct E as [y' E].
    destruct z as [[l f] r1 d1|e r1 d1]; injection H as <-; cbn in *; exists (y ++ y'); rewrite E, app_assoc; reflexivity.
  - destruct (G2 a r (d ++ y)) as [y2 H2]. destruct (oth a r (d ++ y)) as [[s|f] r2 d2|e r2 d2]; cbn in H2; subst d2.
    + destruct (seq T F stp one oth fuel r2 ((d ++ y) ++ y2)) as [z|] eqn:E; [|discriminate]. apply IH in E. destruct E as [y' E].
      destruct z as [[l f] r1 d1|e r1 d1]; injection H as <-; cbn in *; exists (y ++ y2 ++ y'); rewrite E, !app_assoc; reflexivity.
    + injection H as <-. exists (y ++ y2). cbn. rewrite app_assoc. reflexivity.
    + injection H as <-. exists (y ++ y2). cbn. rewrite app_assoc. reflexivity.
  - apply IH in H. destruct H as [y' E]. exists (y ++ [e] ++ y'). rewrite E, !app_assoc. reflexivity.
Qed.
End Grow.

(** ** Statements *)
Notation cs := (map (@Some tok)).
Lemma bind_ok : forall {A B} (p : P A) (k : A -> P B) ts b r, bind p k ts = Ok b r -> exists a r1, p ts = Ok a r1 /\ k a r1 = Ok b r.
Proof. intros A B p k ts b r H. unfold bind in H. destruct (p ts) as [a r1|]; [eauto|discriminate]. Qed.
Lemma dbind_done : forall {A B} (p : D A) (k : A -> D B) ts d b r d', dbind p k ts d = Done b r d' -> exists a r1 d1, p ts d = Done a r1 d1 /\ k a r1 d1 = Done b r d'.
Proof. intros A B p k ts d b r d' H. unfold dbind in H. destruct (p ts d) as [a r1 d1|]; [eauto|discriminate]. Qed.
Lemma lift_done : forall {A} (p : P A) ts d a r d', lift p ts d = Done a r d' -> p ts = Ok a r /\ d' = d.
Proof. intros A p ts d a r d' H. unfold lift in H. destruct (p ts); [|discriminate]. injection H as <- <- <-. auto. Qed.
Lemma eat_ok : forall k ts u r, k <> Eof -> eat k ts = Ok u r -> ts = Some k :: r.
Proof.
  intros k ts u r N H. unfold eat in H. apply bind_ok in H. destruct H as (t & r1 & H & E). destruct (tok_eqb t k) eqn:Et; [|discriminate].
  apply tok_eqb_eq in Et. subst t. destruct ts as [|[t|] ts]; cbn in H; [congruence| |discriminate]. injection H as -> <-. injection E as _ <-. reflexivity.
Qed.
Lemma eat_yes : forall k r, eat k (Some k :: r) = Ok tt r.
Proof. intros k r. unfold eat, bind. cbn. rewrite tok_eqb_refl. reflexivity. Qed.
Lemma pae_ok : forall k ts b r, k <> Eof -> peek_and_eat k ts = Ok b r -> ts = cs (if b then [k] else []) ++ r.
Proof.
  intros k ts b r N H. unfold peek_and_eat in H. apply bind_ok in H. destruct H as (t & r1 & H & E). apply peek_ok in H. destruct H as [-> _].
  destruct (tok_eqb t k); [|injection E as <- <-; reflexivity]. apply bind_ok in E. destruct E as (u & r2 & E & E'). apply eat_ok in E; [|exact N]. injection E' as <- <-. exact E.
Qed.
Lemma pattern_ok : forall ts p r, pattern ts = Ok p r -> ts = Some (ptok p) :: r.
Proof. intros [|[t|] ts] e r H; try discriminate. destruct t; try discriminate; injection H as <- <-; reflexivity. Qed.
Lemma pattern_yes : forall p r, pattern (Some (ptok p) :: r) = Ok p r. Proof. intros [] r; reflexivity. Qed.
Lemma expression_yes : forall e r, expression (Some (etok e) :: r) = Ok e r. Proof. intros [] r; reflexivity. Qed.
Lemma type_ok : forall ts t r, type_spec ts = Ok t r -> ts = Some (Ty t) :: r.
Proof. intros [|[t|] ts] e r H; try discriminate. destruct t; try discriminate; injection H as <- <-; reflexivity. Qed.
Ltac invn H a r E := apply bind_ok in H; destruct H as (a & r & E & H).
Ltac inv H := let a := fresh "x" in let r := fresh "r" in let E := fresh "E" in apply bind_ok in H; destruct H as (a & r & E & H).
Lemma surr_ok : forall {A} o (p : P A) c ts a r, o <> Eof -> c <> Eof -> surrounded o p c ts = Ok a r -> exists r1, ts = Some o :: r1 /\ p r1 = Ok a (Some c :: r).
Proof.
  intros A o p c ts a r N N' H. unfold surrounded in H. inv H. inv H. inv H. injection H as <- <-. apply eat_ok in E; [|exact N]. apply eat_ok in E1; [|exact N']. subst. eauto.
Qed.
Lemma surr_yes : forall {A} o (p : P A) c r1 a r, p r1 = Ok a (Some c :: r) -> surrounded o p c (Some o :: r1) = Ok a r.
Proof. intros A o p c r1 a r H. unfold surrounded, bind. rewrite eat_yes, H, eat_yes. reflexivity. Qed.
Lemma otype_ok : forall ts ty r, optional_type ts = Ok ty r -> ts = cs (type_w ty) ++ r.
Proof.
  intros ts ty r H. unfold optional_type in H. inv H. apply pae_ok in E; [|discriminate]. destruct x.
  - inv H. injection H as <- <-. apply type_ok in E0. subst. reflexivity.
  - injection H as <- <-. exact E.
Qed.
Lemma reset_ok : forall ts x r, register_reset ts = Ok x r -> ts = cs (reset_w x) ++ r.
Proof.
  intros ts x r H. unfold register_reset in H. inv H. apply pae_ok in E; [|discriminate]. destruct x0.
  - inv H. injection H as <- <-. apply surr_ok in E0; [|discriminate|discriminate]. destruct E0 as (r3 & -> & E0). inv E0. inv E0. inv E0. injection E0 as <- ->.
    apply next_expr_len in E1. apply eat_ok in E2; [|discriminate]. apply next_expr_len in E3. subst. reflexivity.
  - injection H as <- <-. exact E.
Qed.
Lemma initial_ok : forall ts x r, register_initial ts = Ok x r -> ts = cs (initial_w x) ++ r.
Proof.
  intros ts x r H. unfold register_initial in H. inv H. apply pae_ok in E; [|discriminate]. destruct x0.
  - inv H. injection H as <- <-. apply surr_ok in E0; [|discriminate|discriminate]. destruct E0 as (r3 & -> & E0). apply next_expr_len in E0. subst. reflexivity.
  - injection H as <- <-. exact E.
Qed.
Lemma names_ok : forall n ts l r, length ts <= n -> p_names ts = Ok l r -> (l = [] /\ r = ts) \/ exists comma, (comma = [] \/ comma = [Comma]) /\ l <> [] /\ ts = cs (names_w l ++ comma) ++ r.
Proof.
  induction n as [|n IH]; intros ts l r L H; [destruct ts; [cbn in H; injection H as <- <-; auto|cbn in L; lia]|].
  destruct ts as [|[t|] ts]; [injection H as <- <-; auto| |discriminate]. destruct t; try (injection H as <- <-; auto; fail).
  destruct ts as [|[t|] ts]; [| |discriminate].
  - injection H as <- <-. right. exists []. repeat split; auto. discriminate.
  - destruct t; try (injection H as <- <-; right; exists []; repeat split; auto; discriminate).
    cbn in H. destruct (p_names ts) as [l' r'|] eqn:E; [|discriminate]. injection H as <- <-. right.
    apply IH in E; [|cbn in L; lia]. destruct E as [[-> ->]|(comma & Hc & N & ->)].
    + exists [Comma]. repeat split; auto. discriminate.
    + exists comma. split; [exact Hc|]. split; [discriminate|]. destruct l' as [|m l']; [congruence|]. reflexivity.
Qed.
Lemma names_yes : forall l comma t r, l <> [] -> comma = [] \/ comma = [Comma] -> (forall n, t <> Id n) -> t <> Comma ->
  p_names (cs (names_w l ++ comma) ++ Some t :: r) = Ok l (Some t :: r).
Proof.
  intros l comma t r N Hc Ht Ht'. induction l as [|n l IH]; [congruence|]. destruct l as [|m l].
  - destruct Hc as [->| ->]; cbn.
    + destruct t; try reflexivity; congruence.
    + destruct t; try reflexivity. exfalso. eapply Ht. reflexivity.
  - specialize (IH ltac:(discriminate)). cbn [names_w app map p_names] in *. cbn [names_w app map p_names]. rewrite IH. reflexivity.
Qed.
Lemma semi_ok : forall s ts d s' r d', semi s ts d = Done s' r d' -> s' = s /\ ((ts = Some Semi :: r /\ d' = d) \/ exists e, d' = d ++ [e]).
Proof.
  intros s ts d s' r d' H. unfold semi in H. apply dbind_done in H. destruct H as (t & r1 & d1 & H & E). apply lift_done in H. destruct H as [H ->].
  apply peek_ok in H. destruct H as [-> Ep].
  destruct t; try discriminate; try (injection E as <- <- <-; split; [reflexivity|right; eauto]; fail).
  destruct Ep as [[_ Ep]|[r' ->]]; [discriminate|]. injection E as <- <- <-. auto.
Qed.
Lemma semi_yes : forall s r d, semi s (Some Semi :: r) d = Done s r d.
Proof. reflexivity. Qed.
Lemma disv_ok : forall v ts u r, disallow_visibility v ts = Ok u r -> v = None /\ r = ts.
Proof. intros [n|] ts u r H; [discriminate|]. injection H as _ <-. auto. Qed.
Lemma disa_ok : forall a ts u r, disallow_attributes a ts = Ok u r -> a = [] /\ r = ts.
Proof. intros [|n a] ts u r H; [|discriminate]. injection H as _ <-. auto. Qed.
Lemma cs_app : forall a b, cs (a ++ b) = cs a ++ cs b. Proof. intros. apply map_app. Qed.
Section Stmt.
Variable c : option unit_kind.
Variable b : bool.
Lemma binding_ok : forall a v r0 s r, p_binding a v (Some Let :: r0) = Ok s (Some Semi :: r) -> exists w, Some Let :: r0 = cs w ++ r /\ spelled false c b a v s w.
Proof.
  intros a v r0 s r H. unfold p_binding in H. inv H. injection E as <- <-. inv H. apply disv_ok in E. destruct E as [-> ->]. inv H. apply pattern_ok in E. inv H.
  apply otype_ok in E0. inv H. apply eat_ok in E1; [|discriminate]. inv H. apply next_expr_len in E2. injection H as <- ->. subst.
  eexists. split; [|apply w_let]. rewrite !cs_app, <- !app_assoc. reflexivity.
Qed.
Lemma register_ok : forall a v r0 s r, p_register c a v (Some Reg :: r0) = Ok s (Some Semi :: r) -> (match s with SMarker _ _ => b = true | _ => True end) ->
  exists w, Some Reg :: r0 = cs w ++ r /\ spelled false c b a v s w.
Proof.
  intros a v r0 s r H Hb. unfold p_register in H. invn H t0 q0 E. injection E as <- <-. invn H u0 q0 E. apply disv_ok in E. destruct E as [-> ->].
  invn H t1 q0 E. apply peek_ok in E. destruct E as [-> _]. invn H cond q1 E.
  assert (Hc : r0 = cs (cond_w cond) ++ q1).
  { destruct (tok_eqb t1 OpenBracket).
    - invn E e q2 E0. injection E as <- <-. apply surr_ok in E0; [|discriminate|discriminate]. destruct E0 as (r3 & -> & E0). apply next_expr_len in E0. subst. reflexivity.
    - injection E as <- <-. reflexivity. }
  clear E. subst r0. invn H t2 q2 E. apply peek_ok in E. destruct E as [-> _]. destruct (tok_eqb t2 Semi || tok_eqb t2 Asterisk).
  - invn H ast q3 E. apply pae_ok in E; [|discriminate]. invn H count q4 E0. injection H as <- ->. cbv iota in Hb. destruct ast.
    + invn E0 n q5 E1. injection E0 as <- ->.
      assert (Hn : q3 = cs (match n with inl t => [Ty t] | inr e => [etok e] end) ++ Some Semi :: r).
      { destruct q3 as [|[t|] q3]; try discriminate. destruct t; try discriminate; cbn in E1; injection E1 as <- ->; reflexivity. }
      exists ([Reg] ++ cond_w cond ++ count_w (Some n) ++ [Semi]). split; [|apply w_marker; [exact Hb|discriminate]].
      rewrite E, Hn, !cs_app, <- !app_assoc. destruct n; reflexivity.
    + injection E0 as <- ->. exists ([Reg] ++ cond_w cond ++ count_w None ++ [Semi]). split; [|apply w_marker; [exact Hb|discriminate]].
      rewrite E, !cs_app, <- !app_assoc. reflexivity.
  - invn H u1 q3 E. assert (R : registers c /\ q3 = q1).
    { unfold allows_reg in E. destruct c as [[]|]; try discriminate; injection E as _ <-; (split; [|reflexivity]); [left|right]; reflexivity. }
    destruct R as [R ->]. clear E. invn H clock q3 E. apply surr_ok in E; [|discriminate|discriminate]. destruct E as (r3 & -> & E). apply next_expr_len in E. subst r3.
    invn H p q4 E. apply pattern_ok in E. invn H ty q5 E0. apply otype_ok in E0. invn H before q6 E1. apply reset_ok in E1. invn H ini q7 E2. apply initial_ok in E2. invn H aft q8 E3. apply reset_ok in E3.
    invn H reset q9 E4. invn H u2 q10 E5. apply eat_ok in E5; [|discriminate]. invn H val q11 E6. apply next_expr_len in E6. injection H as <- ->.
    assert (X : q9 = q8 /\ ((before = reset /\ aft = None) \/ (before = None /\ aft = reset))).
    { destruct before, aft; try discriminate; injection E4 as <- <-; auto. }
    destruct X as [-> X]. subst.
    eexists. split; [|apply (w_register _ _ _ cond p clock reset before aft ini val ty a R); [discriminate|exact X]].
    rewrite !cs_app, <- !app_assoc. cbn [map app]. reflexivity.
Qed.
Lemma decl_ok : forall a v r0 s r, p_decl a v (Some Decl :: r0) = Ok s (Some Semi :: r) -> exists w, Some Decl :: r0 = cs w ++ r /\ spelled false c b a v s w.
Proof.
  intros a v r0 s r H. unfold p_decl in H. inv H. injection E as <- <-. inv H. apply disa_ok in E. destruct E as [-> ->]. inv H. apply disv_ok in E. destruct E as [-> ->].
  invn H names q E. apply (names_ok _ _ _ _ (le_n _)) in E. destruct names as [|n l]; [discriminate|]. injection H as <- ->. destruct E as [[E _]|(comma & Hc & N & ->)]; [discriminate|].
  exists ([Decl] ++ names_w (n :: l) ++ comma ++ [Semi]). split; [|apply w_decl; assumption]. rewrite !cs_app, <- !app_assoc. reflexivity.
Qed.
Lemma label_ok : forall n a v r0 s r, p_label n a v (Some (Label n) :: r0) = Ok s r -> exists w, Some (Label n) :: r0 = cs w ++ r /\ spelled false c b a v s w.
Proof.
  intros n a v r0 s r H. unfold p_label in H. inv H. injection E as <- <-. inv H. apply disa_ok in E. destruct E as [-> ->]. inv H. apply disv_ok in E. destruct E as [-> ->].
  injection H as <- <-. exists [Label n]. split; [reflexivity|apply w_label].
Qed.
Lemma assert_ok : forall a v r0 s r, p_assert a v (Some Assert :: r0) = Ok s (Some Semi :: r) -> exists w, Some Assert :: r0 = cs w ++ r /\ spelled false c b a v s w.
Proof.
  intros a v r0 s r H. unfold p_assert in H. inv H. injection E as <- <-. inv H. apply disa_ok in E. destruct E as [-> ->]. inv H. apply disv_ok in E. destruct E as [-> ->].
  inv H. apply next_expr_len in E. injection H as <- ->. subst. eexists. split; [|apply w_assert]. reflexivity.
Qed.
Lemma set_ok : forall a v r0 s r, p_set a v (Some Set_ :: r0) = Ok s (Some Semi :: r) -> exists w, Some Set_ :: r0 = cs w ++ r /\ spelled false c b a v s w.
Proof.
  intros a v r0 s r H. unfold p_set in H. inv H. injection E as <- <-. inv H. apply disa_ok in E. destruct E as [-> ->]. inv H. apply disv_ok in E. destruct E as [-> ->].
  inv H. apply next_expr_len in E. inv H. apply eat_ok in E0; [|discriminate]. inv H. apply next_expr_len in E1. injection H as <- ->. subst. eexists. split; [|apply w_set]. reflexivity.
Qed.
Lemma keyword_sound : forall t a v r0 d s r, by_keyword c b t a v (Some t :: r0) d = Done (Some s) r d -> exists w, Some t :: r0 = cs w ++ r /\ spelled false c b a v s w.
Proof.
  assert (K : forall (p : P stmt) ts d s r, dbind (lift p) (fun s => dbind (semi s) (fun s => dret (Some s))) ts d = Done (Some s) r d -> p ts = Ok s (Some Semi :: r)).
  { intros p ts d s r H. apply dbind_done in H. destruct H as (s1 & r1 & d1 & H & E). apply lift_done in H. destruct H as [H ->].
    apply dbind_done in E. destruct E as (s2 & r2 & d2 & E & E'). injection E' as -> -> ->. apply semi_ok in E. destruct E as [-> [[-> _]|[e E]]]; [exact H|].
    symmetry in E. apply (f_equal (@length error)) in E. rewrite app_length in E. cbn in E. lia. }
  intros t a v r0 d s r H. destruct t; cbn [by_keyword] in H; try discriminate.
  - apply K in H. exact (binding_ok _ _ _ _ _ H).
  - apply dbind_done in H. destruct H as (s1 & r1 & d1 & H & E). apply lift_done in H. destruct H as [H ->].
    apply dbind_done in E. destruct E as (s2 & r2 & d2 & E & E'). pose proof E as Es. apply semi_ok in E. destruct E as [-> E].
    assert (X : s1 = s /\ r2 = r /\ d2 = d /\ match s with SMarker _ _ => b = true | _ => True end).
    { destruct s1; try (injection E' as <- <- <-; auto; fail). destruct b; [|discriminate]. injection E' as <- <- <-. auto. }
    destruct X as (-> & -> & -> & X). destruct E as [[-> _]|[e E]]; [exact (register_ok _ _ _ _ _ H X)|].
    apply (f_equal (@length error)) in E. rewrite app_length in E. cbn in E. lia.
  - apply K in H. exact (decl_ok _ _ _ _ _ H).
  - apply K in H. exact (assert_ok _ _ _ _ _ H).
  - apply K in H. exact (set_ok _ _ _ _ _ H).
  - apply dbind_done in H. destruct H as (s1 & r1 & d1 & H & E). apply lift_done in H. destruct H as [H ->]. injection E as <- <-. exact (label_ok _ _ _ _ _ _ H).
  - injection H as <- <-. exists [TypeDecl n]. split; [reflexivity|apply w_type].
Qed.
Lemma keyword_none : forall t a v ts d r d', by_keyword c b t a v ts d = Done None r d' -> r = ts /\ d' = d /\ leading t = false.
Proof.
  intros t a v ts d r d' H. destruct t; cbn [by_keyword] in H; try (injection H as <- <-; auto; fail); exfalso;
    apply dbind_done in H; destruct H as (s1 & r1 & d1 & H & E); try discriminate; apply dbind_done in E; destruct E as (s2 & r2 & d2 & E & E'); try discriminate.
  destruct s2; try discriminate. destruct b; discriminate.
Qed.
Ltac go := repeat first [rewrite eat_yes | rewrite pattern_yes | rewrite expression_yes].
Lemma otype_yes : forall ty t r, t <> Colon -> optional_type (cs (type_w ty) ++ Some t :: r) = Ok ty (Some t :: r).
Proof. intros [n|] t r N; [reflexivity|]. destruct t; try reflexivity. congruence. Qed.
Lemma reset_yes : forall x t r, t <> Reset -> register_reset (cs (reset_w x) ++ Some t :: r) = Ok x (Some t :: r).
Proof. intros [[[] []]|] t r N; try reflexivity. destruct t; try reflexivity. congruence. Qed.
Lemma initial_yes : forall x t r, t <> Initial -> register_initial (cs (initial_w x) ++ Some t :: r) = Ok x (Some t :: r).
Proof. intros [[]|] t r N; try reflexivity. destruct t; try reflexivity. congruence. Qed.
End Stmt.
Lemma peek_yes : forall t r, peek (Some t :: r) = Ok t (Some t :: r). Proof. reflexivity. Qed.
Lemma keyword_yes : forall neat c b a v s w, spelled neat c b a v s w ->
  (exists t w', w = t :: w' /\ leading t = true /\ forall r d, by_keyword c b t a v (cs w ++ r) d = Done (Some s) r d) \/ (exists e, s = SExpression e a /\ w = [etok e; Semi]).
Proof.
  intros neat c b a v s w H. destruct H as [p ty val a|cond p clock reset before after ini val ty a R Hn X|count cond a Hb Hn|l comma N Hc|n|e|t val|n a v|e a v Hn]; [left|left|left|left|left|left|left|left|right].
  - exists Let. eexists. split; [reflexivity|]. split; [reflexivity|]. intros r d. rewrite !cs_app, <- !app_assoc. cbn [map app by_keyword].
    unfold dbind at 1, lift at 1, p_binding, bind. cbn [next disallow_visibility ret]. rewrite pattern_yes, otype_yes by discriminate. rewrite eat_yes, expression_yes. reflexivity.
  - exists Reg. eexists. split; [reflexivity|]. split; [reflexivity|]. intros r d. rewrite !cs_app, <- !app_assoc. cbn [map app by_keyword].
    assert (G : p_register c a None (Some Reg :: cs (cond_w cond) ++ Some OpenParen :: Some (etok clock) :: Some CloseParen :: Some (ptok p) :: cs (type_w ty) ++ cs (reset_w before) ++ cs (initial_w ini) ++ cs (reset_w after) ++ Some Assignment :: Some (etok val) :: Some Semi :: r)
      = Ok (SRegister p clock reset ini val ty a) (Some Semi :: r)).
    { assert (Tail : forall q, q = Some OpenParen :: Some (etok clock) :: Some CloseParen :: Some (ptok p) :: cs (type_w ty) ++ cs (reset_w before) ++ cs (initial_w ini) ++ cs (reset_w after) ++ Some Assignment :: Some (etok val) :: Some Semi :: r ->
        (_ <- allows_reg c ;; clock <- surrounded OpenParen expression CloseParen ;; p <- pattern ;; ty <- optional_type ;;
         reset <- register_reset ;; initial <- register_initial ;; reset2 <- register_reset ;;
         r <- match reset, reset2 with Some a, None => ret (Some a) | None, b => ret b | Some _, Some _ => fail TwoResets end ;;
         _ <- eat Assignment ;; v <- expression ;; ret (SRegister p clock r initial v ty a)) q = Ok (SRegister p clock reset ini val ty a) (Some Semi :: r)).
      { intros q ->. unfold bind at 1. assert (Al : forall q, allows_reg c q = Ok tt q) by (intros q; destruct R as [-> | ->]; reflexivity). rewrite Al.
        unfold bind at 1. rewrite (surr_yes _ _ _ _ clock _ (expression_yes _ _)). unfold bind at 1. rewrite pattern_yes.
        unfold bind at 1.
        assert (T1 : optional_type (cs (type_w ty) ++ cs (reset_w before) ++ cs (initial_w ini) ++ cs (reset_w after) ++ Some Assignment :: Some (etok val) :: Some Semi :: r) = Ok ty (cs (reset_w before) ++ cs (initial_w ini) ++ cs (reset_w after) ++ Some Assignment :: Some (etok val) :: Some Semi :: r)).
        { destruct before as [[? ?]|]; [apply otype_yes; discriminate|]. destruct ini; [apply otype_yes; discriminate|]. destruct after as [[? ?]|]; apply otype_yes; discriminate. }
        rewrite T1. unfold bind at 1.
        assert (T2 : register_reset (cs (reset_w before) ++ cs (initial_w ini) ++ cs (reset_w after) ++ Some Assignment :: Some (etok val) :: Some Semi :: r)
          = Ok before (cs (initial_w ini) ++ cs (reset_w after) ++ Some Assignment :: Some (etok val) :: Some Semi :: r) \/
          (before = None /\ ini = None /\ after <> None)).
        { destruct ini; [left; apply reset_yes; discriminate|]. destruct after; [|left; apply reset_yes; discriminate]. destruct before; [|right; repeat split; discriminate].
          destruct X as [[_ X]|[X _]]; discriminate. }
        destruct T2 as [T2|(-> & -> & Na)].
        - rewrite T2. unfold bind at 1.
          assert (T3 : register_initial (cs (initial_w ini) ++ cs (reset_w after) ++ Some Assignment :: Some (etok val) :: Some Semi :: r) = Ok ini (cs (reset_w after) ++ Some Assignment :: Some (etok val) :: Some Semi :: r)).
          { destruct after as [[? ?]|]; apply initial_yes; discriminate. }
          rewrite T3. unfold bind at 1. rewrite reset_yes by discriminate. unfold bind. destruct X as [[-> ->]|[-> ->]].
          + destruct reset, val; reflexivity.
          + destruct reset, val; reflexivity.
        - destruct X as [[X ->]|[_ ->]]; [congruence|]. destruct reset as [[c0 v0]|]; [|congruence]. destruct c0, v0, val; reflexivity. }
      unfold p_register. unfold bind at 1. cbn [next]. unfold bind at 1. cbn [disallow_visibility ret]. unfold bind at 1.
      destruct cond as [e|].
      - cbn [cond_w map app]. rewrite peek_yes. cbn [tok_eqb]. unfold bind at 1. unfold bind at 1. rewrite (surr_yes _ _ _ _ e _ (expression_yes _ _)). cbn [ret].
        unfold bind at 1. rewrite peek_yes. cbn [tok_eqb orb]. apply Tail. reflexivity.
      - cbn [cond_w map app]. rewrite peek_yes. cbn [tok_eqb]. unfold bind at 1. cbn [ret]. unfold bind at 1. rewrite peek_yes. cbn [tok_eqb orb]. apply Tail. reflexivity. }
    unfold dbind at 1, lift at 1. rewrite G. reflexivity.
  - exists Reg. eexists. split; [reflexivity|]. split; [reflexivity|]. intros r d. subst b. destruct cond as [[]|]; destruct count as [[?|[]]|]; reflexivity.
  - exists Decl. eexists. split; [reflexivity|]. split; [reflexivity|]. intros r d. rewrite !cs_app, <- !app_assoc. cbn [map app by_keyword].
    unfold dbind at 1, lift at 1, p_decl, bind. cbn [next disallow_visibility disallow_attributes ret].
    rewrite (app_assoc (cs (names_w l)) (cs comma)), <- cs_app. rewrite names_yes; [|exact N|exact Hc|discriminate|discriminate]. destruct l; [congruence|]. reflexivity.
  - exists (Label n). eexists. split; [reflexivity|]. split; reflexivity.
  - exists Assert. eexists. split; [reflexivity|]. split; [reflexivity|]. intros r d. destruct e; reflexivity.
  - exists Set_. eexists. split; [reflexivity|]. split; [reflexivity|]. intros r d. destruct t, val; reflexivity.
  - exists (TypeDecl n). eexists. split; [reflexivity|]. split; reflexivity.
  - eauto.
Qed.

(** ** Sequences *)
Lemma attributes_ok : forall ts a r, attributes ts = Ok a r -> ts = cs (attrs_w a) ++ r.
Proof.
  induction ts as [|[t|] ts IH]; intros a r H; [injection H as <- <-; reflexivity| |discriminate]. destruct t; try (injection H as <- <-; reflexivity).
  cbn in H. destruct (attributes ts) as [l r'|]; [|discriminate]. injection H as <- <-. cbn. rewrite (IH l r' eq_refl) at 1. reflexivity.
Qed.
Lemma attributes_yes : forall a t r, (forall n, t <> At n) -> attributes (cs (attrs_w a) ++ Some t :: r) = Ok a (Some t :: r).
Proof. induction a as [|n a IH]; intros t r N; cbn; [destruct t; try reflexivity; exfalso; eapply N; reflexivity|]. cbn in IH. rewrite IH by exact N. reflexivity. Qed.
Lemma visibility_ok : forall ts v r, visibility ts = Ok v r -> ts = cs (vis_w v) ++ r.
Proof. intros [|[t|] ts] v r H; [injection H as <- <-; reflexivity| |discriminate]. destruct t; injection H as <- <-; reflexivity. Qed.
Lemma head_ok : forall T one ts d a so r d', head T one ts d = Done (a, so) r d' ->
  exists v t r2, ts = cs (attrs_w a ++ vis_w v) ++ r2 /\ peek r2 = Ok t r2 /\ one t a v r2 d = Done so r d'.
Proof.
  intros T one ts d a so r d' H. unfold head in H. apply dbind_done in H. destruct H as (a1 & r1 & d1 & H & K). apply lift_done in H. destruct H as [H ->].
  apply dbind_done in K. destruct K as (v & r2 & d2 & K & L). apply lift_done in K. destruct K as [K ->].
  apply dbind_done in L. destruct L as (t & r3 & d3 & L & M). apply lift_done in L. destruct L as [L ->].
  apply dbind_done in M. destruct M as (s & r4 & d4 & M & N). injection N as <- <- <- <-. pose proof L as L0. apply peek_ok in L. destruct L as [-> _].
  apply attributes_ok in H. apply visibility_ok in K. exists v, t, r2. split; [|auto]. rewrite cs_app, <- app_assoc, <- K. exact H.
Qed.
Lemma head_yes : forall T one a v t r d, (forall n, t <> At n) -> (forall n, t <> Vis n) ->
  head T one (cs (attrs_w a ++ vis_w v) ++ Some t :: r) d = match one t a v (Some t :: r) d with Done s r d => Done (a, s) r d | Failed e r d => Failed e r d end.
Proof.
  intros T one a v t r d N N'. unfold head, dbind at 1, lift at 1. rewrite cs_app, <- app_assoc.
  assert (A : attributes (cs (attrs_w a) ++ cs (vis_w v) ++ Some t :: r) = Ok a (cs (vis_w v) ++ Some t :: r)) by (destruct v; apply attributes_yes; [discriminate|exact N]).
  rewrite A. unfold dbind at 1, lift at 1. assert (V : visibility (cs (vis_w v) ++ Some t :: r) = Ok v (Some t :: r)).
  { destruct v; [reflexivity|]. destruct t; try reflexivity. exfalso. eapply N'. reflexivity. }
  rewrite V. unfold dbind at 1, lift at 1. rewrite peek_yes. unfold dbind. destruct (one t a v (Some t :: r) d); reflexivity.
Qed.
Section Seqs.
Variable outer : tok -> bool.
Variable c : option unit_kind.
Variable b : bool.
Notation sq := (seq stmt (option expr) (stop outer) (by_keyword c b) other).
Lemma leading_facts : forall t, leading t = true -> (forall n, t <> At n) /\ (forall n, t <> Vis n) /\ t <> CloseBrace.
Proof. intros t H. repeat split; try (intros n ->; discriminate). intros ->. discriminate. Qed.
Lemma etok_facts : forall e, (forall n, etok e <> At n) /\ (forall n, etok e <> Vis n) /\ etok e <> CloseBrace /\ etok e <> Semi /\ forall a v ts d, by_keyword c b (etok e) a v ts d = Done None ts d.
Proof. intros []; repeat split; discriminate. Qed.
Lemma other_expr : forall e a r d, other a (Some (etok e) :: r) d =
  match peek r with Fail x r => Failed x r d | Ok GreekQuestionMark r => Failed Greek r d | Ok Semi r => dbind (lift next) (fun _ => dret (inl (SExpression e a))) r d
  | Ok _ r => dbind (lift (disallow_attributes a)) (fun _ => dret (inr (Some e))) r d end.
Proof.
  intros e a r d. unfold other, dbind at 1, lift at 1. rewrite peek_yes. assert (X : tok_eqb (etok e) CloseBrace = false) by (destruct e; reflexivity). rewrite X.
  unfold dbind at 1, lift at 1. rewrite expression_yes. unfold dbind at 1, lift at 1. destruct (peek r) as [t r'|x r']; [|reflexivity]. destruct t; reflexivity.
Qed.
Lemma seq_cons : forall neat a v s w fuel rest d, spelled neat c b a v s w ->
  sq (S fuel) (cs (attrs_w a ++ vis_w v ++ w) ++ rest) d = match sq fuel rest d with Some (Done (l, f) r d) => Some (Done (s :: l, f) r d) | x => x end.
Proof.
  intros neat a v s w fuel rest d H. apply keyword_yes in H. cbn [seq]. unfold with_recovery. rewrite app_assoc, cs_app, <- app_assoc.
  destruct H as [(t & w' & -> & L & H)|(e & -> & ->)].
  - apply leading_facts in L. destruct L as (L1 & L2 & _). cbn [map app]. rewrite (head_yes stmt _ a v t) by assumption. cbn [map app] in H. rewrite H. reflexivity.
  - destruct (etok_facts e) as (L1 & L2 & L3 & L4 & L5). cbn [map app]. rewrite (head_yes stmt _ a v) by assumption. rewrite L5, other_expr. cbn [peek]. reflexivity.
Qed.
Definition prepend (l : list stmt) (x : option (res (list stmt * option expr))) := match x with Some (Done (l', f) r d) => Some (Done (l ++ l', f) r d) | x => x end.
Lemma seq_sequence : forall neat w l, sequence neat c b w l -> forall fuel rest d, sq (length l + fuel) (cs w ++ rest) d = prepend l (sq fuel rest d).
Proof.
  induction 1 as [|a v s w ws l H Hs IH]; intros fuel rest d.
  - cbn [length Nat.add map app]. destruct (sq fuel rest d) as [[[l f] r d'|]|]; reflexivity.
  - cbn [length Nat.add]. replace (cs (attrs_w a ++ vis_w v ++ w ++ ws) ++ rest) with (cs (attrs_w a ++ vis_w v ++ w) ++ (cs ws ++ rest)) by (rewrite !cs_app, <- !app_assoc; reflexivity).
    rewrite (seq_cons neat a v s w) by exact H. rewrite IH. destruct (sq fuel rest d) as [[[l' f] r d'|]|]; reflexivity.
Qed.
Lemma seq_stop : forall v fuel r d, sq (S fuel) (cs (vis_w v) ++ Some CloseBrace :: r) d = Some (Done ([], None) (Some CloseBrace :: r) d).
Proof. intros v fuel r d. cbn [seq]. unfold with_recovery. rewrite (head_yes stmt (by_keyword c b) [] v CloseBrace) by discriminate. reflexivity. Qed.
Lemma seq_last : forall v e fuel t r d, t <> Semi -> t <> GreekQuestionMark -> sq (S fuel) (cs (vis_w v ++ [etok e]) ++ Some t :: r) d = Some (Done ([], Some e) (Some t :: r) d).
Proof.
  intros v e fuel t r d N N'. destruct (etok_facts e) as (L1 & L2 & L3 & L4 & L5). cbn [seq]. unfold with_recovery. rewrite cs_app, <- app_assoc. cbn [map app].
  rewrite (head_yes stmt (by_keyword c b) [] v (etok e)) by assumption. rewrite L5, other_expr, peek_yes. destruct t; try reflexivity; congruence.
Qed.
Lemma seq_sound : forall fuel ts d l f r, sq fuel ts d = Some (Done (l, f) r d) ->
  exists w v, sequence false c b w l /\ ts = cs (w ++ vis_w v ++ match f with Some e => [etok e] | None => [] end) ++ r.
Proof.
  induction fuel as [|fuel IH]; intros ts d l f r H; [discriminate|]. cbn [seq] in H. unfold with_recovery in H.
  assert (Gs : forall r1 d1 l1 f1 r2, sq fuel r1 d1 = Some (Done (l1, f1) r2 d) -> (exists y, d1 = d ++ y) -> d1 = d).
  { intros r1 d1 l1 f1 r2 E [y ->]. apply (g_seq stmt (option expr) (stop outer) (by_keyword c b) other (g_keyword c b) g_other) in E. destruct E as [z E]. cbn in E.
    apply grown in E. destruct E as [-> _]. apply app_nil_r. }
  destruct (g_head stmt (by_keyword c b) (g_keyword c b) ts d) as [y Hy].
  destruct (head stmt (by_keyword c b) ts d) as [[a [s|]] r1 d1|e r1 d1] eqn:Eh; cbn in Hy.
  - destruct (sq fuel r1 d1) as [[[l1 f1] r2 d2|]|] eqn:E; try discriminate. injection H as <- <- <- ->.
    assert (d1 = d) by (eapply Gs; eauto). rewrite H in *. clear Hy H. apply IH in E. destruct E as (w & v & S & ->).
    apply head_ok in Eh. destruct Eh as (v1 & t & r3 & -> & P & K). apply peek_ok in P. destruct P as [_ [[-> ->]|[r' ->]]]; [discriminate|].
    apply keyword_sound in K. destruct K as (w1 & E & Sp). exists (attrs_w a ++ vis_w v1 ++ w1 ++ w), v. split; [econstructor; eassumption|].
    rewrite E, !cs_app, <- !app_assoc. reflexivity.
  - apply head_ok in Eh. destruct Eh as (v1 & t & r3 & -> & P & K). apply keyword_none in K. destruct K as (-> & -> & Lt).
    destruct (g_other a r3 d) as [z Hz]. destruct (other a r3 d) as [[s|f1] r2 d2|] eqn:Eo; cbn in Hz; [| |discriminate].
    + destruct (sq fuel r2 d2) as [[[l1 f1] r4 d4|]|] eqn:E; try discriminate. injection H as <- <- <- ->.
      assert (d2 = d) by (eapply Gs; eauto). rewrite H in *. clear Hz H. apply IH in E. destruct E as (w & v & S & ->).
      assert (X : exists e, s = SExpression e a /\ r3 = cs [etok e; Semi] ++ cs (w ++ vis_w v ++ match f1 with Some e => [etok e] | None => [] end) ++ r4).
      { unfold other, dbind at 1, lift at 1 in Eo. rewrite P in Eo. destruct (tok_eqb t CloseBrace); [destruct a; discriminate|].
        unfold dbind at 1, lift at 1 in Eo. destruct (expression r3) as [e r5|] eqn:Ee; [|discriminate]. apply next_expr_len in Ee. subst r3.
        unfold dbind at 1, lift at 1 in Eo. destruct (peek r5) as [t5 r6|] eqn:E5; [|discriminate]. apply peek_ok in E5. destruct E5 as [-> E5].
        destruct t5; try (destruct a; discriminate); try discriminate. destruct E5 as [[_ E5]|[r7 ->]]; [discriminate|]. injection Eo as <- ->. exists e. split; reflexivity. }
      destruct X as (e & -> & ->). exists (attrs_w a ++ vis_w v1 ++ [etok e; Semi] ++ w), v. split; [apply (s_cons false c b a v1); [apply w_expression; discriminate|exact S]|].
      rewrite !cs_app, <- !app_assoc. reflexivity.
    + injection H as <- <- <- ->. apply other_value in Eo. destruct Eo as (_ & -> & Eo). exists [], v1. split; [constructor|]. destruct f1 as [e|].
      * destruct Eo as [-> _]. cbn [attrs_w map app]. rewrite cs_app, <- app_assoc. reflexivity.
      * destruct Eo as (r' & -> & ->). cbn [attrs_w map app]. rewrite app_nil_r. reflexivity.
  - exfalso. apply (g_seq stmt (option expr) (stop outer) (by_keyword c b) other (g_keyword c b) g_other) in H. destruct H as [z H]. cbn in H. subst d1.
    rewrite <- !app_assoc in H. apply grown1 in H. destruct y; discriminate.
Qed.
End Seqs.
Section Bodies.
Variable outer : tok -> bool.
Variable c : option unit_kind.
Variable b : bool.
Notation from := (statements_from outer c b).
Definition lost (f : option expr) : list stmt := match f with Some e => [SExpression e []] | None => [] end.
Definition missing (f : option expr) (l' : list stmt) (f' : option expr) (d : list error) : list error :=
  match f, l', f' with Some _, [], None => d | Some _, _, _ => d ++ [MissingSemiAfterValue] | None, _, _ => d end.
Lemma from_step : forall fuel l f ts d t, peek ts = Ok t ts -> t <> CloseBrace -> from (S fuel) l f ts d =
  match block_statements outer c b (S (length ts)) ts d with
  | None => None
  | Some (Failed e r d) => Some (Failed e r d)
  | Some (Done (l', f') r d) => from fuel (l ++ lost f ++ l') f' r (missing f l' f' d)
  end.
Proof. intros fuel l f ts d t H N. cbn [statements_from]. rewrite H. destruct t; try reflexivity. congruence. Qed.
Lemma missing_grows : forall f l f' d, exists x, missing f l f' d = d ++ x.
Proof. intros [e|] [|s l] [e'|] d; cbn; first [exists []; rewrite app_nil_r; reflexivity | eexists; reflexivity]. Qed.
Lemma g_block : forall fuel ts d x, block_statements outer c b fuel ts d = Some x -> exists y, noted x = d ++ y.
Proof. intros fuel ts d x. apply g_seq; [apply g_keyword|apply g_other]. Qed.
Lemma peek_cases : forall ts, (exists e r, peek ts = Fail e r) \/ (exists r, ts = Some CloseBrace :: r) \/ exists t, peek ts = Ok t ts /\ t <> CloseBrace.
Proof.
  intros [|[t|] ts]; [right; right; exists Eof; split; [reflexivity|discriminate]| |left; cbn; eauto].
  right. destruct (tok_eqb t CloseBrace) eqn:E; [apply tok_eqb_eq in E; subst; eauto|]. right. exists t. split; [reflexivity|]. intros ->. discriminate.
Qed.
Lemma from_fail : forall fuel l f ts d e r, peek ts = Fail e r -> from (S fuel) l f ts d = Some (Failed e r d).
Proof. intros. cbn [statements_from]. rewrite H. reflexivity. Qed.
Lemma g_from : forall fuel l f ts d x, from fuel l f ts d = Some x -> exists y, noted x = d ++ y.
Proof.
  induction fuel as [|fuel IH]; intros l f ts d x H; [discriminate|]. destruct (peek_cases ts) as [(e & r & E)|[[r ->]|(t & E & N)]].
  - rewrite (from_fail _ _ _ _ _ _ _ E) in H. injection H as <-. exists []. cbn. rewrite app_nil_r. reflexivity.
  - injection H as <-. exists []. cbn. rewrite app_nil_r. reflexivity.
  - rewrite (from_step _ _ _ _ _ _ E N) in H. destruct (block_statements outer c b (S (length ts)) ts d) as [y|] eqn:G; [|discriminate].
    apply g_block in G. destruct G as [z G]. destruct y as [[l' f'] r d'|e r d']; [|injection H as <-; exists z; exact G]. cbn in G. subst d'.
    apply IH in H. destruct H as [y H]. destruct (missing_grows f l' f' (d ++ z)) as [x' E']. rewrite E' in H. exists (z ++ x' ++ y). rewrite H, !app_assoc. reflexivity.
Qed.
Lemma statements_sound : forall ts d l f r, statements outer c b ts d = Some (Done (l, f) r d) ->
  exists w r', ts = cs w ++ Some CloseBrace :: r' /\ r = Some CloseBrace :: r' /\ body false c b w l f.
Proof.
  intros ts d l f r H. unfold statements in H. destruct (peek_cases ts) as [(e & q & E)|[[q ->]|(t & E & N)]].
  - rewrite (from_fail _ _ _ _ _ _ _ E) in H. discriminate.
  - injection H as <- <- <-. exists [], q. repeat split. apply (b_none false c b [] [] None); [constructor|discriminate].
  - rewrite (from_step _ _ _ _ _ _ E N) in H. destruct (block_statements outer c b (S (length ts)) ts d) as [[[l1 f1] r1 d1|]|] eqn:G; try discriminate.
    cbn [lost app missing] in H. pose proof (seq_value _ _ _ _ _ _ _ _ _ G) as V.
    assert (d1 = d).
    { apply g_block in G. destruct G as [z G]. cbn in G. subst d1. apply g_from in H. destruct H as [y H]. cbn in H. apply grown in H. destruct H as [-> _]. apply app_nil_r. }
    subst d1. apply seq_sound in G. destruct G as (w & v & S & Et). destruct f1 as [e|].
    + destruct V as (t1 & P1 & N1 & N2). destruct (length ts) as [|n] eqn:Ln; [discriminate|].
      destruct (peek_cases r1) as [(e1 & q & E1)|[[q ->]|(t2 & E2 & N3)]]; [congruence| |].
      * injection H as <- <- <-. eexists _, q. split; [exact Et|]. split; [reflexivity|]. apply b_value; [exact S|discriminate].
      * rewrite (from_step _ _ _ _ _ _ E2 N3) in H. destruct (block_statements outer c b _ r1 d) as [[[l2 f2] r2 d2|]|] eqn:G2; try discriminate.
        pose proof (seq_value _ _ _ _ _ _ _ _ _ G2) as V2.
        assert (X : d2 = d /\ l2 = [] /\ f2 = None).
        { pose proof G2 as G3. apply g_block in G3. destruct G3 as [z G3]. cbn in G3. subst d2. apply g_from in H. destruct H as [y H]. cbn in H.
          destruct l2, f2; cbn in H; try (rewrite <- app_assoc in H; apply grown in H; destruct H as [_ H]; discriminate).
          apply grown in H. destruct H as [-> _]. rewrite app_nil_r. auto. }
        destruct X as (-> & -> & ->). apply seq_sound in G2. destruct G2 as (w2 & v2 & S2 & Et2). inversion S2; subst w2. destruct V2 as [q ->].
        destruct n as [|n]; [discriminate|]. cbn [lost app missing] in H. cbn [statements_from peek] in H. injection H as <- <- <-.
        cbn [app] in Et2. rewrite app_nil_r in Et2. destruct v2 as [n2|].
        -- exists (w ++ vis_w v ++ [etok e; Vis n2]), q. split; [|split; [reflexivity|apply b_lost; [exact S|reflexivity]]].
           rewrite Et, Et2, !cs_app, <- !app_assoc. reflexivity.
        -- exfalso. cbn in Et2. subst r1. cbn in E2. injection E2 as <-. congruence.
    + destruct V as [q ->]. destruct (length ts) as [|n]; [discriminate|]. cbn [statements_from peek] in H. injection H as <- <- <-.
      rewrite app_nil_r in Et. eexists _, q. split; [exact Et|]. split; [reflexivity|]. apply b_none; [exact S|discriminate].
Qed.
Lemma spelled_len : forall neat a v s w, spelled neat c b a v s w -> 1 <= length w.
Proof. intros neat a v s w H. apply keyword_yes in H. destruct H as [(t & w' & -> & _)|(e & _ & ->)]; cbn; lia. Qed.
Lemma sequence_len : forall neat w l, sequence neat c b w l -> length l <= length w.
Proof. induction 1 as [|a v s w ws l H Hs IH]; [cbn; lia|]. apply spelled_len in H. cbn. rewrite !app_length. lia. Qed.
Lemma first_tok : forall neat w l v x r, sequence neat c b w l -> (forall t, In t x -> t <> CloseBrace) -> w ++ vis_w v ++ x <> [] ->
  exists t, peek (cs (w ++ vis_w v ++ x) ++ r) = Ok t (cs (w ++ vis_w v ++ x) ++ r) /\ t <> CloseBrace.
Proof.
  intros neat w l v x r H Hx N. destruct H as [|a v' s w ws l H Hs].
  - destruct v as [n|]; [exists (Vis n); split; [reflexivity|discriminate]|]. destruct x as [|t x]; [cbn in N; congruence|]. exists t. split; [reflexivity|apply Hx; left; reflexivity].
  - destruct a as [|n a]; [|exists (At n); split; [reflexivity|discriminate]]. destruct v' as [n|]; [exists (Vis n); split; [reflexivity|discriminate]|].
    apply keyword_yes in H. destruct H as [(t & w' & -> & L & _)|(e & _ & ->)].
    + exists t. split; [reflexivity|]. apply leading_facts in L. apply L.
    + exists (etok e). split; [reflexivity|destruct e; discriminate].
Qed.
Lemma seq_at : forall neat w l v f t r d, sequence neat c b w l -> match f with None => t = CloseBrace | Some _ => t <> Semi /\ t <> GreekQuestionMark end ->
  let ts := cs (w ++ vis_w v ++ match f with Some e => [etok e] | None => [] end) ++ Some t :: r in
  block_statements outer c b (S (length ts)) ts d = Some (Done (l, f) (Some t :: r) d).
Proof.
  intros neat w l v f t r d S Ht ts. unfold block_statements. pose proof (sequence_len _ _ _ S) as L.
  replace (Datatypes.S (length ts)) with (length l + Datatypes.S (length ts - length l)) by (unfold ts; rewrite app_length, map_length, app_length; lia).
  unfold ts at 2. rewrite cs_app, <- app_assoc. rewrite (seq_sequence outer c b neat w l S). destruct f as [e|].
  - destruct Ht as [H1 H2]. rewrite seq_last by assumption. cbn. rewrite app_nil_r. reflexivity.
  - subst t. rewrite app_nil_r, seq_stop. cbn. rewrite app_nil_r. reflexivity.
Qed.
Lemma statements_complete : forall neat w l f r d, body neat c b w l f -> statements outer c b (cs w ++ Some CloseBrace :: r) d = Some (Done (l, f) (Some CloseBrace :: r) d).
Proof.
  intros neat w l f r d H. unfold statements. destruct H as [w l v S Hn|w l v e S Hn|w l v e n S Hn].
  - destruct (w ++ vis_w v) as [|t0 w0] eqn:Ew.
    + apply app_eq_nil in Ew. destruct Ew as [-> _]. pose proof (sequence_len _ _ _ S) as L. destruct l; [reflexivity|cbn in L; lia].
    + rewrite <- Ew. destruct (first_tok neat w l v [] (Some CloseBrace :: r) S) as (t & E & N); [intros ? []|rewrite app_nil_r, Ew; discriminate|]. rewrite app_nil_r in E.
      rewrite (from_step _ _ _ _ _ _ E N). pose proof (seq_at neat w l v None CloseBrace r d S eq_refl) as G. cbn beta iota zeta in G. rewrite app_nil_r in G. rewrite G.
      rewrite Ew. reflexivity.
  - destruct (first_tok neat w l v [etok e] (Some CloseBrace :: r) S) as (t & E & N); [intros t [<-|[]]; destruct e; discriminate|destruct w; [destruct v; discriminate|discriminate]|].
    rewrite (from_step _ _ _ _ _ _ E N). pose proof (seq_at neat w l v (Some e) CloseBrace r d S) as G. cbn beta iota zeta in G. rewrite G by (split; discriminate).
    rewrite app_length. cbn [length]. rewrite Nat.add_succ_r. reflexivity.
  - assert (Ew : cs (w ++ vis_w v ++ [etok e; Vis n]) ++ Some CloseBrace :: r = cs (w ++ vis_w v ++ [etok e]) ++ Some (Vis n) :: Some CloseBrace :: r) by (rewrite !cs_app, <- !app_assoc; reflexivity).
    rewrite Ew. destruct (first_tok neat w l v [etok e] (Some (Vis n) :: Some CloseBrace :: r) S) as (t & E & N); [intros t [<-|[]]; destruct e; discriminate|destruct w; [destruct v; discriminate|discriminate]|].
    rewrite (from_step _ _ _ _ _ _ E N). pose proof (seq_at neat w l v (Some e) (Vis n) (Some CloseBrace :: r) d S) as G. cbn beta iota zeta in G. rewrite G by (split; discriminate).
    rewrite app_length. cbn [length]. rewrite !Nat.add_succ_r. rewrite (from_step _ _ _ _ _ (Vis n)) by (reflexivity || discriminate).
    pose proof (seq_at neat [] [] (Some n) None CloseBrace r d (s_nil neat c b) eq_refl) as G2. cbn beta iota zeta in G2. cbn [app vis_w map] in G2. cbn [missing]. rewrite G2.
    cbn [lost missing app]. reflexivity.
Qed.
End Bodies.

(** ** Files *)
Lemma g_item : forall t a v, grows (an_item t a v).
Proof. intros t a v. destruct t; cbn [an_item]; try apply g_ret. apply g_bind; [apply g_lift|intros ?; apply g_ret]. Qed.
Definition end_of_items (a : list nat) : D (item + unit) := dret (inr tt).
Notation isq := (seq item unit item_stop an_item (fun _ => dret (inr tt))).
Lemma items_sound : forall fuel ts d l u r, isq fuel ts d = Some (Done (l, u) r d) -> exists a v t, ts = cs (items_w l ++ attrs_w a ++ vis_w v) ++ r /\ peek r = Ok t r /\ forall n, t <> Item n.
Proof.
  induction fuel as [|fuel IH]; intros ts d l u r H; [discriminate|]. cbn [seq] in H. unfold with_recovery in H.
  pose proof (g_seq item unit item_stop an_item (fun _ => dret (inr tt)) g_item (fun a => g_ret (inr tt))) as Gs.
  destruct (g_head item an_item g_item ts d) as [y Hy].
  destruct (head item an_item ts d) as [[a [s|]] r1 d1|e r1 d1] eqn:Eh; cbn in Hy.
  - destruct (isq fuel r1 d1) as [[[l1 f1] r2 d2|]|] eqn:E; try discriminate. injection H as <- <- <- ->.
    assert (d1 = d) by (pose proof E as E'; apply Gs in E'; destruct E' as [z E']; cbn in E'; subst d1; apply grown in E'; destruct E' as [-> _]; apply app_nil_r).
    rewrite H in *. apply IH in E. destruct E as (a2 & v2 & t2 & -> & P2 & N2).
    apply head_ok in Eh. destruct Eh as (v & t & r3 & -> & P & K). destruct t; try discriminate.
    apply peek_ok in P. destruct P as [_ [[_ P]|[r' ->]]]; [discriminate|]. injection K as <- ->. exists a2, v2, t2. split; [|auto].
    cbn [items_w]. rewrite ?cs_app; cbn [map]; rewrite ?cs_app, <- ?app_assoc; cbn [app map]; rewrite ?cs_app, <- ?app_assoc; cbn [app map]. reflexivity.
  - cbn in H. injection H as <- <- <- <-. apply head_ok in Eh. destruct Eh as (v & t & r3 & -> & P & K).
    assert (X : r1 = r3 /\ forall n, t <> Item n).
    { destruct t; try (injection K as <-; split; [reflexivity|discriminate]). apply peek_ok in P. destruct P as [_ [[_ P]|[r4 ->]]]; discriminate. }
    destruct X as [-> X]. exists a, v, t. auto.
  - exfalso. apply Gs in H. destruct H as [z H]. cbn in H. subst d1. rewrite <- !app_assoc in H. apply grown1 in H. destruct y; discriminate.
Qed.
Lemma items_complete : forall l a v fuel d, length l < fuel -> isq fuel (cs (items_w l ++ attrs_w a ++ vis_w v)) d = Some (Done (l, tt) [] d).
Proof.
  induction l as [|[[n a0] v0] l IH]; intros a v fuel d L; (destruct fuel as [|fuel]; [lia|]).
  - cbn [items_w app seq]. unfold with_recovery.
    assert (Hd : head item an_item (cs (attrs_w a ++ vis_w v)) d = Done (a, None) [] d).
    { unfold head, dbind at 1, lift at 1. assert (A : attributes (cs (attrs_w a ++ vis_w v)) = Ok a (cs (vis_w v))).
      { induction a as [|m a IHa]; [destruct v; reflexivity|]. change (attrs_w (m :: a)) with (At m :: attrs_w a). cbn [app map attributes]. rewrite IHa. reflexivity. }
      rewrite A. destruct v; reflexivity. }
    rewrite Hd. reflexivity.
  - cbn [length] in L. cbn [items_w seq]. unfold with_recovery.
    replace (cs ((attrs_w a0 ++ vis_w v0 ++ Item n :: items_w l) ++ attrs_w a ++ vis_w v)) with (cs (attrs_w a0 ++ vis_w v0) ++ Some (Item n) :: cs (items_w l ++ attrs_w a ++ vis_w v))
      by (rewrite ?cs_app; cbn [map]; rewrite ?cs_app, <- ?app_assoc; cbn [app map]; rewrite ?cs_app, <- ?app_assoc; reflexivity).
    rewrite head_yes by discriminate. cbn [an_item]. unfold dbind, lift. cbn [next dret]. rewrite IH by lia. reflexivity.
Qed.
Lemma items_len : forall l, length l <= length (items_w l).
Proof. induction l as [|[[n a] v] l IH]; cbn; [lia|]. rewrite !app_length. cbn. lia. Qed.
Lemma file_sound : forall ts l, file ts = Some (Done l [] []) -> exists a v, ts = cs (items_w l ++ attrs_w a ++ vis_w v).
Proof.
  intros ts l H. unfold file in H. destruct (isq (S (length ts)) ts []) as [[[l1 u] r d|e r d]|] eqn:E; [| |discriminate].
  - destruct (peek r) as [t r'|] eqn:P; [|discriminate]. pose proof P as P'. apply peek_ok in P'. destruct P' as [-> _].
    assert (X : d = [] /\ l1 = l /\ r = []) by (destruct t; injection H as <- -> X; try (destruct d; discriminate); auto).
    destruct X as (-> & -> & ->). apply items_sound in E. destruct E as (a & v & t' & -> & _). exists a, v. rewrite app_nil_r. reflexivity.
  - injection H as _ _ H. destruct d; discriminate.
Qed.
Lemma file_complete : forall l a v, file (cs (items_w l ++ attrs_w a ++ vis_w v)) = Some (Done l [] []).
Proof. intros l a v. unfold file. rewrite items_complete; [reflexivity|]. pose proof (items_len l). rewrite map_length, app_length. lia. Qed.
Lemma file_ends : forall ts, exists x, file ts = Some x.
Proof.
  intros ts. unfold file. assert (E : exists x, isq (S (length ts)) ts [] = Some x).
  { apply seq_ends; [|reflexivity|intros; cbn; lia|lia]. intros t a v r d. destruct t; cbn; lia. }
  destruct E as [x ->]. destruct x as [[l u] r d|]; eauto.
Qed.
Lemma statements_ends : forall outer c b ts d, exists x, statements outer c b ts d = Some x.
Proof. intros. apply statements_from_ends. lia. Qed.

(** ** After an error *)
Section Resume.
Variable outer : tok -> bool.
Variable c : option unit_kind.
Variable b : bool.
Notation sq := (seq stmt (option expr) (stop outer) (by_keyword c b) other).
Lemma seq_body : forall w l f fuel r d, body true c b w l f -> length l < fuel -> sq fuel (cs w ++ Some CloseBrace :: r) d = Some (Done (l, f) (Some CloseBrace :: r) d).
Proof.
  intros w l f fuel r d H L. destruct H as [w l v S Hn|w l v e S Hn|w l v e n S Hn]; [| |discriminate].
  - replace fuel with (length l + Datatypes.S (fuel - length l - 1)) by lia. rewrite cs_app, <- app_assoc. rewrite (seq_sequence outer c b true w l S). rewrite seq_stop. cbn. rewrite app_nil_r. reflexivity.
  - replace fuel with (length l + Datatypes.S (fuel - length l - 1)) by lia. rewrite cs_app, <- app_assoc. rewrite (seq_sequence outer c b true w l S). rewrite seq_last by discriminate. cbn. rewrite app_nil_r. reflexivity.
Qed.
Lemma body_len : forall neat w l f, body neat c b w l f -> length l <= length w.
Proof. intros neat w l f H. destruct H as [w l v S Hn|w l v e S Hn|w l v e n S Hn]; apply sequence_len in S; rewrite !app_length; cbn; lia. Qed.
Lemma head_at : forall a t w r d, (forall n, t <> At n) -> (forall n, t <> Vis n) -> head stmt (by_keyword c b) (cs (attrs_w a ++ t :: w) ++ r) d =
  match by_keyword c b t a None (Some t :: cs w ++ r) d with Done s r d => Done (a, s) r d | Failed e r d => Failed e r d end.
Proof.
  intros a t w r d N1 N2. pose proof (head_yes stmt (by_keyword c b) a None t) as G. cbn [vis_w] in G. rewrite app_nil_r in G.
  rewrite cs_app, <- app_assoc. cbn [map app]. apply G; assumption.
Qed.
Lemma no_expression : forall t, not_expression t -> match t with Id _ | Ex _ => False | _ => True end.
Proof. intros t N. destruct t; try exact I; [apply (N (Name n))|apply (N (Expr n))]; reflexivity. Qed.
Lemma damaged : forall x y e r d, damage c b x y e -> head stmt (by_keyword c b) (x ++ cs y ++ r) d = Failed e (cs y ++ r) d.
Proof.
  intros x y e r d H. destruct H as [a p y|a t y N|a p t y N|a p t y N1 N2|a p ty t y N|t y N|t y N|e t y N|e t y N|t y N|n a k y K|n k y K|a t y E N1 N2 N3|a t y R N1 N2 N3 N4|a y E].
  - rewrite <- app_assoc. rewrite head_at by discriminate. destruct p; reflexivity.
  - rewrite head_at by discriminate. destruct t; try reflexivity; [exfalso; apply (N (PName n)); reflexivity|exfalso; apply (N (Pat n)); reflexivity].
  - rewrite head_at by discriminate. destruct p; (destruct t; try reflexivity; exfalso; eapply N; reflexivity).
  - rewrite head_at by discriminate. destruct p; (destruct t; try congruence; reflexivity).
  - cbn [app]. rewrite head_at by discriminate. apply no_expression in N. destruct p, ty; (destruct t; try reflexivity; destruct N).
  - destruct t; try reflexivity; [exfalso; apply (N (Name n)); reflexivity|exfalso; apply (N (Expr n)); reflexivity].
  - destruct t; try reflexivity; [exfalso; apply (N (Name n)); reflexivity|exfalso; apply (N (Expr n)); reflexivity].
  - destruct e; (destruct t; try congruence; reflexivity).
  - destruct e as [m|m]; (destruct t; try reflexivity; [exfalso; apply (N (Name n)); reflexivity|exfalso; apply (N (Expr n)); reflexivity]).
  - destruct t; try reflexivity. exfalso. eapply N. reflexivity.
  - rewrite (head_at (n :: a)) by (destruct K as [->|[->|[->|[m ->]]]]; discriminate). destruct K as [->|[->|[->|[m ->]]]]; reflexivity.
  - destruct K as [->|[->|[->|[->|[->|[m ->]]]]]]; reflexivity.
  - rewrite head_at by discriminate. subst c. destruct t; try congruence; reflexivity.
  - rewrite head_at by discriminate. destruct R as [->| ->]; (destruct t; try congruence; reflexivity).
  - rewrite head_at by discriminate. rewrite E. reflexivity.
Qed.
Lemma damage_head : forall x y e, damage c b x y e -> exists t q, x = Some t :: q /\ t <> CloseBrace.
Proof.
  intros x y e H. destruct H; try (destruct a as [|m a]; cbn; eexists _, _; (split; [reflexivity|discriminate])); try (eexists _, _; (split; [reflexivity|discriminate])).
Qed.
Lemma passed_stop : forall t, passed outer t -> stop outer t = false.
Proof. intros t (H1 & H2 & H3 & H4). unfold stop. rewrite H4. destruct t; cbn in *; try reflexivity; try congruence; exfalso; apply H1; exact I. Qed.
Lemma skip_junk : forall junk r t q, (forall t, In t junk -> passed outer t) -> r = Some t :: q -> stop outer t = true -> skip (stop outer) (cs junk ++ r) = r.
Proof.
  induction junk as [|x junk IH]; intros r t q H -> E; cbn [map app skip].
  - rewrite E. reflexivity.
  - rewrite passed_stop by (apply H; left; reflexivity). eapply IH; [intros; apply H; right; assumption|reflexivity|exact E].
Qed.
Lemma starts_leading : forall t, starts t -> leading t = true.
Proof. intros []; cbn; intros H; try reflexivity; destruct H. Qed.
Lemma resumes : forall w1 l1 x e junk w2 l2 f r d, sequence true c b w1 l1 -> damage c b x (junk ++ w2 ++ [CloseBrace]) e -> (forall t, In t junk -> passed outer t) ->
  body true c b w2 l2 f -> (w2 = [] \/ exists t w, w2 = t :: w /\ starts t) ->
  statements outer c b (cs w1 ++ x ++ cs junk ++ cs w2 ++ Some CloseBrace :: r) d = Some (Done (l1 ++ l2, f) (Some CloseBrace :: r) (d ++ [e])).
Proof.
  intros w1 l1 x e junk w2 l2 f r d S1 Hx Hj Hb Hw. unfold statements.
  assert (F : exists t, peek (cs w1 ++ x ++ cs junk ++ cs w2 ++ Some CloseBrace :: r) = Ok t (cs w1 ++ x ++ cs junk ++ cs w2 ++ Some CloseBrace :: r) /\ t <> CloseBrace).
  { destruct w1 as [|t0 w1].
    - destruct (damage_head _ _ _ Hx) as (t & q & -> & N). exists t. split; [reflexivity|exact N].
    - destruct (first_tok c b true (t0 :: w1) l1 None [] (x ++ cs junk ++ cs w2 ++ Some CloseBrace :: r) S1) as (t & E & N); [intros ? []|discriminate|]. cbn [vis_w] in E. rewrite !app_nil_r in E. eauto. }
  destruct F as (t & E & N). rewrite (from_step _ _ _ _ _ _ _ _ _ E N).
  set (ts := cs w1 ++ x ++ cs junk ++ cs w2 ++ Some CloseBrace :: r) in *.
  assert (Lt : length l1 + length l2 + 2 <= length ts).
  { unfold ts. rewrite !app_length, !map_length. cbn [length]. apply sequence_len in S1. apply body_len in Hb.
    assert (1 <= length x) by (destruct (damage_head _ _ _ Hx) as (t' & q & -> & _); cbn; lia). lia. }
  assert (G : block_statements outer c b (S (length ts)) ts d = Some (Done (l1 ++ l2, f) (Some CloseBrace :: r) (d ++ [e]))).
  { unfold block_statements. replace (S (length ts)) with (length l1 + S (length ts - length l1)) by lia. unfold ts at 2. rewrite (seq_sequence outer c b true w1 l1 S1).
    cbn [seq]. unfold with_recovery. pose proof (damaged x _ e r d Hx) as Dm. rewrite !cs_app, <- !app_assoc in Dm. cbn [map app] in Dm. rewrite Dm.
    assert (K : skip (stop outer) (cs junk ++ cs w2 ++ Some CloseBrace :: r) = cs w2 ++ Some CloseBrace :: r).
    { destruct Hw as [->|(t2 & w & -> & Hs)]; (eapply skip_junk; [exact Hj|reflexivity|]); [reflexivity|]. unfold stop. rewrite starts_leading by exact Hs. reflexivity. }
    rewrite K. rewrite (seq_body w2 l2 f) by (exact Hb || lia). reflexivity. }
  rewrite G. destruct (length ts) as [|n] eqn:Ln; [lia|]. reflexivity.
Qed.
Lemma opened_head : forall a s w t r d, opened a s w -> t <> Semi -> t <> GreekQuestionMark -> head stmt (by_keyword c b) (cs (attrs_w a ++ w) ++ Some t :: r) d = Done (a, Some s) (Some t :: r) (d ++ [MissingSemi t]).
Proof.
  intros a s w t r d H N1 N2. destruct H as [p ty v a|e|e v].
  - cbn [app]. rewrite head_at by discriminate. destruct p, ty, v; (destruct t; try congruence; reflexivity).
  - rewrite head_at by discriminate. destruct e; (destruct t; try congruence; reflexivity).
  - rewrite head_at by discriminate. destruct e, v; (destruct t; try congruence; reflexivity).
Qed.
Lemma opened_first : forall a s w, opened a s w -> exists t q, attrs_w a ++ w = t :: q /\ t <> CloseBrace.
Proof. intros a s w H. destruct H as [p ty v a|e|e v]; [destruct a as [|n a]| |]; eexists _, _; (split; [reflexivity|discriminate]). Qed.
Lemma missing_semi : forall w1 l1 a s w w2 l2 f t q r d, sequence true c b w1 l1 -> opened a s w -> body true c b w2 l2 f ->
  w2 ++ [CloseBrace] = t :: q -> t <> Semi -> t <> GreekQuestionMark ->
  statements outer c b (cs (w1 ++ (attrs_w a ++ w) ++ w2) ++ Some CloseBrace :: r) d = Some (Done (l1 ++ s :: l2, f) (Some CloseBrace :: r) (d ++ [MissingSemi t])).
Proof.
  intros w1 l1 a s w w2 l2 f t q r d S1 Ho Hb Hq N1 N2. unfold statements.
  assert (Hq' : cs w2 ++ Some CloseBrace :: r = Some t :: cs q ++ r).
  { replace (cs w2 ++ Some CloseBrace :: r) with (cs (w2 ++ [CloseBrace]) ++ r) by (rewrite cs_app, <- app_assoc; reflexivity). rewrite Hq. reflexivity. }
  destruct (opened_first _ _ _ Ho) as (t0 & q0 & E0 & N0). rewrite !cs_app, <- !app_assoc. set (ts := cs w1 ++ _).
  assert (F : exists t, peek ts = Ok t ts /\ t <> CloseBrace).
  { unfold ts. destruct w1 as [|t1 w1].
    - cbn [map app]. rewrite app_assoc, <- cs_app, E0. exists t0. split; [reflexivity|exact N0].
    - destruct (first_tok c b true (t1 :: w1) l1 None [] (cs (attrs_w a) ++ cs w ++ cs w2 ++ Some CloseBrace :: r) S1) as (t2 & E & N); [intros ? []|discriminate|]. cbn [vis_w] in E. rewrite !app_nil_r in E. eauto. }
  destruct F as (t2 & E & N). rewrite (from_step _ _ _ _ _ _ _ _ _ E N).
  assert (Lt : length l1 + length l2 + 2 <= length ts).
  { unfold ts. rewrite !app_length, !map_length. cbn [length]. apply sequence_len in S1. apply body_len in Hb.
    assert (1 <= length (attrs_w a ++ w)) by (rewrite E0; cbn; lia). rewrite app_length in H. lia. }
  assert (G : block_statements outer c b (S (length ts)) ts d = Some (Done (l1 ++ s :: l2, f) (Some CloseBrace :: r) (d ++ [MissingSemi t]))).
  { unfold block_statements. replace (S (length ts)) with (length l1 + S (length ts - length l1)) by lia. unfold ts at 2. rewrite (seq_sequence outer c b true w1 l1 S1).
    cbn [seq]. unfold with_recovery. rewrite (app_assoc (cs (attrs_w a))), <- cs_app. rewrite Hq'. rewrite (opened_head a s w t _ d Ho N1 N2). rewrite <- Hq'.
    rewrite (seq_body w2 l2 f) by (exact Hb || lia). reflexivity. }
  rewrite G. destruct (length ts) as [|n] eqn:Ln; [lia|]. reflexivity.
Qed.
End Resume.
