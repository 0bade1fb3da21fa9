(** Whatever the parser accepts is in the lenient grammar, with the parsed
    expression as its reading (C37). *)
From Coq Require Import List ZArith Lia Bool Arith.
From Verif Require Import ParseModel ParseSpec ParseFuel ParseComplete.
Import ListNotations.
Local Open Scope list_scope.

Lemma kind_eqb_eq a b : kind_eqb a b = true -> a = b.
Proof. destruct a, b; cbn; intros H; try discriminate H; reflexivity. Qed.

Lemma peek_true k ts : peek_kind k ts = true -> ts = k :: tl ts.
Proof. destruct ts as [|t ts]; cbn; intros H; [discriminate|]. now rewrite (kind_eqb_eq _ _ H). Qed.

Lemma eat_ok k ts u r : eat k ts = Ok u r -> ts = k :: r.
Proof.
  destruct ts as [|t ts]; cbn; [discriminate|]. destruct (kind_eqb k t) eqn:E; [|discriminate].
  intros H. injection H as <- <-. now rewrite (kind_eqb_eq _ _ E).
Qed.

Lemma ident_ok ts x r : identifier ts = Ok x r -> ts = TkId x :: r.
Proof. destruct ts as [|[] ts]; cbn; try discriminate. intros H. injection H as -> ->. reflexivity. Qed.

Lemma binop_kind k o : binop_from_kind k = Some o -> k = spell o.
Proof. destruct k; cbn; intros H; try discriminate H; injection H as <-; reflexivity. Qed.
Lemma unop_kind k u : unop_from_kind k = Some u -> k = uspell u.
Proof. destruct k; cbn; intros H; try discriminate H; injection H as <-; reflexivity. Qed.
Lemma peek_binop_some ts o : peek_binop ts = Some o -> ts = TkOp (spell o) :: tl ts.
Proof. destruct ts as [|[] ts]; cbn; try discriminate. intros H. now rewrite (binop_kind _ _ H). Qed.
Lemma peek_unop_some ts u : peek_unop ts = Some u -> ts = TkOp (uspell u) :: tl ts.
Proof. destruct ts as [|[] ts]; cbn; try discriminate. intros H. now rewrite (unop_kind _ _ H). Qed.

Lemma bind_ok {A B} (r : res A) (f : A -> list tok -> res B) b rest :
  bind r f = Ok b rest -> exists a ts, r = Ok a ts /\ f a ts = Ok b rest.
Proof. destruct r; cbn; try discriminate. eauto. Qed.

(** Signed integer tokens. *)
Inductive signed_int : list tok -> Z -> lkind -> Prop :=
| SI_none v k : signed_int [TkInt v k] (Z.of_N v) k
| SI_plus v k : signed_int [TkOp KPlus; TkInt v k] (Z.of_N v) k
| SI_minus v k : signed_int [TkOp KMinus; TkInt v k] (fst (literal true v k)) k.

Lemma int_literal_some ts z k rest : int_literal ts = Ok (Some (z, k)) rest ->
  exists ts1, ts = ts1 ++ rest /\ signed_int ts1 z k.
Proof.
  destruct ts as [|[] ts]; cbn; try discriminate.
  - intros H. injection H as H <-. destruct k0; cbn in H; injection H as <- <-; eexists [_]; split; try reflexivity; constructor.
  - destruct k0; try discriminate; (destruct ts as [|[] ts]; try discriminate);
      intros H; injection H as H <-; eexists [_; _]; (split; [reflexivity|]);
      destruct k0; cbn in H; injection H as <- <-; try apply SI_plus;
      (apply (SI_minus val Unsized) || apply (SI_minus val (Signed size)) || apply (SI_minus val (Unsigned size))).
Qed.

Lemma int_literal_none ts rest : int_literal ts = Ok None rest -> ts = rest.
Proof.
  destruct ts as [|[] ts]; cbn; try discriminate; try (intros H; injection H as <-; reflexivity).
  destruct k; try (intros H; injection H as <-; reflexivity); destruct ts as [|[] ts]; discriminate.
Qed.

Lemma tuple_suffix ts0 e ts1 z k i dep :
  g_suf true ts0 e -> signed_int ts1 z k -> tuple_index z = Some i ->
  g_suf true (ts0 ++ (if dep : bool then TkHash else TkDot) :: ts1) (ETupleIndex e i dep).
Proof.
  intros G S T. unfold tuple_index in T.
  destruct ((0 <=? z) && (z <? 2 ^ 128))%Z eqn:E; [|discriminate]. injection T as <-.
  apply andb_prop in E. destruct E as [E1 E2]. apply Z.leb_le in E1. apply Z.ltb_lt in E2.
  inversion S; subst.
  - now apply GS_tuple_index.
  - now apply GS_tuple_index_plus.
  - replace (fst (literal true v k)) with (Z.of_N v) in *; [now apply GS_tuple_index_minus|].
    destruct k; cbn in *; lia.
Qed.

Lemma bin_down j k ts e : g_bin true j ts e -> k <= j <= 12 -> g_bin true k ts e.
Proof.
  intros G [H1 H2]. replace k with (j - (j - k)) by lia. generalize (j - k) as d; intros d.
  induction d as [|d IH]; [now rewrite Nat.sub_0_r|].
  destruct (Nat.le_gt_cases j d).
  - now replace (j - S d) with (j - d) by lia.
  - apply GB_up; [lia|]. now replace (S (j - S d)) with (j - d) by lia.
Qed.

(** What [expr_bp] returns for a minimum power. *)
Definition above (m : nat) (ts : list tok) (e : expr) : Prop :=
  if m <? 12 then g_bin true (S m) ts e else g_un true ts e.

Definition S_expr n := forall ts e rest, p_expr n ts = Ok e rest ->
  exists ts1, ts = ts1 ++ rest /\ g_expr true ts1 e.
Definition S_bp n := forall m ts e rest, m <= 12 -> p_bp n m ts = Ok e rest ->
  exists ts1, ts = ts1 ++ rest /\ above m ts1 e /\ noop m rest.
Definition S_loop n := forall m lhs ts e rest j ts0, m <= 12 -> p_loop n m lhs ts = Ok e rest ->
  j <= 12 -> noop j ts -> (m < j /\ g_bin true j ts0 lhs \/ g_un true ts0 lhs) ->
  exists ts1, ts = ts1 ++ rest /\ above m (ts0 ++ ts1) e /\ noop m rest.
Definition S_base n := forall ts e rest, peek_unop ts = None -> p_base n ts = Ok e rest ->
  exists ts1, ts = ts1 ++ rest /\ g_post true ts1 e.
Definition S_if n := forall ts e rest, p_if n ts = Ok e rest ->
  exists ts1, ts = ts1 ++ rest /\ g_if true ts1 e.
Definition S_args n := forall ts a rest, p_args n ts = Ok a rest ->
  match a with
  | Some a => exists ts1, ts = ts1 ++ rest /\ g_args true ts1 a
  | None => ts = rest \/ ts = TkDollar :: rest
  end.
Definition S_list n := forall c ts l rest, p_list n c ts = Ok l rest ->
  exists ts1, ts = ts1 ++ rest /\ g_list true ts1 l.
Definition S_named n := forall ts l rest, p_named n ts = Ok l rest ->
  exists ts1, ts = ts1 ++ rest /\ g_named true ts1 l.
Definition S_suffix n := forall e ts e' rest ts0, p_suffix n e ts = Ok e' rest ->
  g_suf true ts0 e -> exists ts1, ts = ts1 ++ rest /\ g_post true (ts0 ++ ts1) e'.

Ltac lst := repeat (subst; cbn [app]; rewrite <- ?app_assoc); reflexivity.

Lemma sound n : S_expr n /\ S_bp n /\ S_loop n /\ S_base n /\ S_if n /\ S_args n /\ S_list n
  /\ S_named n /\ S_suffix n.
Proof.
  induction n as [|n (Xe & Xb & Xl & Xa & Xi & Xg & Xs & Xn & Xf)].
  { unfold S_expr, S_bp, S_loop, S_base, S_if, S_args, S_list, S_named, S_suffix; cbn.
    repeat split; intros; discriminate. }
  split; [|split; [|split; [|split; [|split; [|split; [|split; [|split]]]]]]].
  - (* p_expr *) intros ts e rest H. cbn [p_expr] in H.
    apply bind_ok in H. destruct H as (lhs & ts1 & H1 & H).
    destruct (Xb _ _ _ _ (Nat.le_0_l _) H1) as (p & -> & A & _). unfold above in A. cbn in A.
    destruct (peek_kind TkTick ts1) eqn:E.
    + apply bind_ok in H. destruct H as (u1 & ts2 & E2 & H). apply eat_ok in E2.
      apply bind_ok in H. destruct H as (f & ts3 & E3 & H). apply ident_ok in E3.
      apply bind_ok in H. destruct H as (u2 & ts4 & E4 & H). apply eat_ok in E4.
      apply bind_ok in H. destruct H as (rhs & ts5 & E5 & H). injection H as <- <-.
      destruct (Xe _ _ _ E5) as (p2 & -> & G2).
      exists (p ++ TkTick :: TkId f :: TkTick :: p2). split; [lst|]. now apply GE_infix.
    + injection H as <- <-. exists p. split; [reflexivity|]. now apply GE_bin.
  - (* p_bp *) intros m ts e rest Hm H. cbn [p_bp] in H. destruct (peek_unop ts) as [u|] eqn:E.
    + apply peek_unop_some in E. rewrite unop_power in H.
      apply bind_ok in H. destruct H as (rhs & ts1 & H1 & H).
      destruct (Xb _ _ _ _ (le_n 12) H1) as (p & E1 & A & _). unfold above in A. cbn in A.
      rewrite prefixed_eq in H. destruct (prefixed u rhs) as [lhs|] eqn:Pr; [|discriminate].
      destruct (Xl m lhs ts1 e rest 12 (TkOp (uspell u) :: p) Hm H (le_n 12)) as (p2 & -> & A2 & N2).
      * intros o _. pose proof (level_range o). lia.
      * right. now apply GU_op with rhs.
      * exists (TkOp (uspell u) :: p ++ p2). split; [rewrite E, E1; lst|]. auto.
    + apply bind_ok in H. destruct H as (lhs & ts1 & H1 & H).
      destruct (Xa _ _ _ E H1) as (p & -> & G).
      destruct (Xl m lhs ts1 e rest 12 p Hm H (le_n 12)) as (p2 & -> & A2 & N2).
      * intros o _. pose proof (level_range o). lia.
      * right. now apply GU_post.
      * exists (p ++ p2). split; [lst|]. auto.
  - (* p_loop *) intros m lhs ts e rest j ts0 Hm H Hj Nj D. cbn [p_loop] in H.
    assert (St : noop m ts -> Ok lhs ts = Ok e rest ->
                 exists ts1, ts = ts1 ++ rest /\ above m (ts0 ++ ts1) e /\ noop m rest).
    { intros Nm E. injection E as <- <-. exists []. split; [reflexivity|]. rewrite app_nil_r.
      split; [|assumption]. unfold above. destruct (Nat.ltb_spec m 12).
      - destruct D as [[D1 D]|D].
        + apply bin_down with j; [assumption|lia].
        + apply bin_down with 12; [now apply GB_un|lia].
      - destruct D as [[D1 D]|D]; [lia|assumption]. }
    destruct (peek_binop ts) as [o|] eqn:E.
    + rewrite power_level in H. cbn zeta in H. destruct (Nat.leb_spec (level o) m).
      * apply St; [|assumption]. intros o' Eo. rewrite E in Eo. injection Eo as <-. assumption.
      * apply bind_ok in H. destruct H as (rhs & ts1 & H1 & H).
        pose proof (level_range o) as Lr.
        destruct (Xb (level o) _ _ _ ltac:(lia) H1) as (p & E1 & A & N1).
        unfold above in A. destruct (Nat.ltb_spec (level o) 12); [|lia].
        assert (Gl : g_bin true (level o) ts0 lhs).
        { destruct D as [[D1 D]|D].
          - apply bin_down with j; [assumption|]. specialize (Nj o E). lia.
          - apply bin_down with 12; [now apply GB_un|lia]. }
        destruct (Xl m (EBin lhs o rhs) ts1 e rest (level o) (ts0 ++ TkOp (spell o) :: p) Hm H) as (p2 & -> & A2 & N2).
        -- lia.
        -- assumption.
        -- left. split; [lia|]. now apply GB_op.
        -- exists (TkOp (spell o) :: p ++ p2). apply peek_binop_some in E.
           split; [rewrite E, E1; lst|]. rewrite <- app_assoc in A2. auto.
    + apply St; [|assumption]. intros o' Eo. rewrite E in Eo. discriminate.
  - (* p_base *) intros ts e rest Nu H. cbn [p_base] in H.
    apply bind_ok in H. destruct H as (b & ts1 & H1 & H).
    assert (G : exists p, ts = p ++ ts1 /\ g_base true p b).
    { clear H. destruct ts as [|t ts]; [discriminate|]. destruct t; try discriminate H1.
      - (* TkInt *) cbn [int_literal bind] in H1. destruct k; cbn [literal] in H1; injection H1 as <- <-;
          eexists [_]; (split; [reflexivity|apply GA_int]).
      - injection H1 as <- <-. exists [TkBool b0]. split; [reflexivity|constructor].
      - (* TkId *) destruct (is_macro ts); [discriminate|].
        apply bind_ok in H1. destruct H1 as (a & ts2 & E1 & E2). pose proof (Xg _ _ _ E1) as Ga.
        destruct a as [a|]; injection E2 as <- <-.
        + destruct Ga as (p & -> & Ga). exists (TkId x :: p). split; [reflexivity|now constructor].
        + destruct Ga as [-> | ->]; [exists [TkId x]|exists [TkId x; TkDollar]]; (split; [reflexivity|now constructor]).
      - (* TkOp *) destruct k; try discriminate H1; destruct ts as [|[] ts]; try discriminate H1.
        + cbn [int_literal bind] in H1. destruct k; cbn [literal] in H1; injection H1 as <- <-;
          eexists [_; _]; (split; [reflexivity|apply GA_plus]).
        + discriminate Nu.
      - (* TkLP *) destruct (peek_kind TkRP ts) eqn:E1.
        { injection H1 as <- <-. apply peek_true in E1. exists [TkLP; TkRP]. split; [now rewrite E1|constructor]. }
        destruct (peek_kind TkComma ts) eqn:E2.
        { apply bind_ok in H1. destruct H1 as (u & ts2 & E3 & H1). injection H1 as <- <-.
          apply eat_ok in E3. apply peek_true in E2. exists [TkLP; TkComma; TkRP].
          split; [rewrite E2, E3; reflexivity|constructor]. }
        apply bind_ok in H1. destruct H1 as (first & ts2 & E3 & H1).
        destruct (Xe _ _ _ E3) as (p & -> & Gp).
        destruct ts2 as [|[] ts2]; try discriminate H1.
        + injection H1 as <- <-. exists (TkLP :: p ++ [TkRP]). split; [lst|now constructor].
        + apply bind_ok in H1. destruct H1 as (l & ts3 & E4 & H1).
          apply bind_ok in H1. destruct H1 as (u & ts4 & E5 & H1). injection H1 as <- <-.
          apply eat_ok in E5. destruct (Xs _ _ _ _ E4) as (p2 & -> & Gl).
          exists (TkLP :: p ++ TkComma :: p2 ++ [TkRP]). split; [lst|now constructor].
      - (* TkLB *) destruct (peek_kind TkRB ts) eqn:E1.
        { injection H1 as <- <-. apply peek_true in E1. exists (TkLB :: [] ++ [TkRB]).
          split; [now rewrite E1|]. apply GA_array. constructor. }
        apply bind_ok in H1. destruct H1 as (first & ts2 & E3 & H1).
        destruct (Xe _ _ _ E3) as (p & -> & Gp).
        destruct (peek_kind TkSemi ts2) eqn:E2.
        + apply peek_true in E2. apply bind_ok in H1. destruct H1 as (m & ts3 & E4 & H1).
          apply bind_ok in H1. destruct H1 as (u & ts4 & E5 & H1). injection H1 as <- <-.
          apply eat_ok in E5. destruct (Xe _ _ _ E4) as (p2 & E6 & Gl).
          exists (TkLB :: p ++ TkSemi :: p2 ++ [TkRB]).
          split; [rewrite E2, E6; lst|now constructor].
        + apply bind_ok in H1. destruct H1 as (l & ts3 & E4 & H1).
          apply bind_ok in H1. destruct H1 as (u & ts4 & E5 & H1). injection H1 as <- <-.
          apply eat_ok in E5. destruct (Xs _ _ _ _ E4) as (p2 & E6 & Gl).
          destruct (peek_kind TkComma ts2) eqn:E7.
          * apply peek_true in E7. exists (TkLB :: (p ++ TkComma :: p2) ++ [TkRB]).
            split; [rewrite E7, E6; lst|]. apply GA_array. now apply GL_cons.
          * exists (TkLB :: p ++ p2 ++ [TkRB]). split; [rewrite E6; lst|]. now apply GA_array_no_comma.
      - (* TkLBrace *) apply bind_ok in H1. destruct H1 as (e1 & ts2 & E3 & H1).
        apply bind_ok in H1. destruct H1 as (u & ts4 & E5 & H1). injection H1 as <- <-.
        apply eat_ok in E5. destruct (Xe _ _ _ E3) as (p & -> & Gp).
        exists (TkLBrace :: p ++ [TkRBrace]). split; [lst|]. apply GA_block. now constructor.
      - (* TkIf *) destruct (Xi _ _ _ H1) as (p & E & Gp). exists p. split; [assumption|]. now apply GA_if. }
    destruct G as (p & -> & G).
    destruct (Xf b ts1 e rest p H (GS_base _ _ _ G)) as (p2 & -> & G2).
    exists (p ++ p2). split; [lst|assumption].
  - (* p_if *) intros ts e rest H. cbn [p_if] in H.
    apply bind_ok in H. destruct H as (u1 & t1 & E1 & H). apply eat_ok in E1.
    apply bind_ok in H. destruct H as (c & t2 & E2 & H). destruct (Xe _ _ _ E2) as (p1 & -> & G1).
    apply bind_ok in H. destruct H as (u3 & t3 & E3 & H). apply eat_ok in E3.
    apply bind_ok in H. destruct H as (t & t4 & E4 & H). destruct (Xe _ _ _ E4) as (p2 & -> & G2).
    apply bind_ok in H. destruct H as (u5 & t5 & E5 & H). apply eat_ok in E5.
    apply bind_ok in H. destruct H as (u6 & t6 & E6 & H). apply eat_ok in E6.
    destruct (peek_kind TkLBrace t6) eqn:E7.
    + apply peek_true in E7. apply bind_ok in H. destruct H as (f & t7 & E8 & H).
      destruct (Xe _ _ _ E8) as (p3 & E9 & G3).
      apply bind_ok in H. destruct H as (u8 & t8 & E10 & H). apply eat_ok in E10. injection H as <- <-.
      exists (TkIf :: p1 ++ (TkLBrace :: p2 ++ [TkRBrace]) ++ TkElse :: (TkLBrace :: p3 ++ [TkRBrace])).
      split; [rewrite E1, E3, E5, E6, E7, E9, E10; lst|]. apply GI_else; [assumption|now constructor|now constructor].
    + destruct (peek_kind TkIf t6); [|discriminate].
      apply bind_ok in H. destruct H as (f & t7 & E8 & H). injection H as <- <-.
      destruct (Xi _ _ _ E8) as (p3 & E9 & G3).
      exists (TkIf :: p1 ++ (TkLBrace :: p2 ++ [TkRBrace]) ++ TkElse :: p3).
      split; [rewrite E1, E3, E5, E6, E9; lst|]. apply GI_elif; [assumption|now constructor|assumption].
  - (* p_args *) intros ts a rest H. cbn [p_args] in H. cbn zeta in H.
    destruct (peek_kind TkDollar ts) eqn:E1.
    + apply peek_true in E1. destruct (peek_kind TkLP (tl ts)) eqn:E2.
      * apply peek_true in E2. apply bind_ok in H. destruct H as (l & t1 & E3 & H).
        destruct (Xn _ _ _ E3) as (p & E4 & G).
        apply bind_ok in H. destruct H as (u & t2 & E5 & H). apply eat_ok in E5. injection H as <- <-.
        exists (TkDollar :: TkLP :: p ++ [TkRP]). split; [rewrite E1, E2, E4, E5; lst|now constructor].
      * injection H as <- <-. now right.
    + destruct (peek_kind TkLP ts) eqn:E2.
      * apply peek_true in E2. apply bind_ok in H. destruct H as (l & t1 & E3 & H).
        destruct (Xs _ _ _ _ E3) as (p & E4 & G).
        apply bind_ok in H. destruct H as (u & t2 & E5 & H). apply eat_ok in E5. injection H as <- <-.
        exists (TkLP :: p ++ [TkRP]). split; [rewrite E2, E4, E5; lst|now constructor].
      * injection H as <- <-. now left.
  - (* p_list *) intros c ts l rest H. cbn [p_list] in H.
    destruct (peek_kind c ts); [injection H as <- <-; exists []; split; [reflexivity|constructor]|].
    apply bind_ok in H. destruct H as (e & t1 & E1 & H). destruct (Xe _ _ _ E1) as (p & -> & G).
    destruct (peek_kind c t1); [injection H as <- <-; exists p; split; [reflexivity|now constructor]|].
    destruct (peek_kind TkComma t1) eqn:E2; [|discriminate]. apply peek_true in E2.
    apply bind_ok in H. destruct H as (l' & t2 & E3 & H). injection H as <- <-.
    destruct (Xs _ _ _ _ E3) as (p2 & E4 & G2).
    exists (p ++ TkComma :: p2). split; [rewrite E2, E4; lst|now constructor].
  - (* p_named *) intros ts l rest H. cbn [p_named] in H.
    destruct (peek_kind TkRP ts); [injection H as <- <-; exists []; split; [reflexivity|constructor]|].
    apply bind_ok in H. destruct H as (x & t1 & E1 & H). apply ident_ok in E1.
    apply bind_ok in H. destruct H as (v & t2 & E2 & H).
    apply bind_ok in H. destruct H as (l' & t3 & E3 & H). injection H as <- <-.
    assert (V : match v with
                | ESome e => exists p, t1 = TkColon :: p ++ t2 /\ g_expr true p e
                | ENone => t1 = t2
                end).
    { destruct (peek_kind TkColon t1) eqn:Ec.
      - apply peek_true in Ec. apply bind_ok in E2. destruct E2 as (e & t4 & E4 & E2). injection E2 as <- <-.
        destruct (Xe _ _ _ E4) as (p & E5 & G). exists p. split; [rewrite Ec, E5; reflexivity|assumption].
      - injection E2 as <- <-. reflexivity. }
    destruct (peek_kind TkRP t2).
    + injection E3 as <- <-. destruct v as [|e].
      * exists [TkId x]. split; [rewrite E1, V; reflexivity|constructor].
      * destruct V as (p & V & G). exists (TkId x :: TkColon :: p). split; [rewrite E1, V; reflexivity|now constructor].
    + destruct (peek_kind TkComma t2) eqn:E4; [|discriminate]. apply peek_true in E4.
      destruct (Xn _ _ _ E3) as (p2 & E5 & G2). destruct v as [|e].
      * exists (TkId x :: TkComma :: p2). split; [rewrite E1, V, E4, E5; reflexivity|now constructor].
      * destruct V as (p & V & G). exists (TkId x :: TkColon :: p ++ TkComma :: p2).
        split; [rewrite E1, V, E4, E5; lst|now constructor].
  - (* p_suffix *) intros e ts e' rest ts0 H G. cbn [p_suffix] in H.
    assert (Dn : Ok e ts = Ok e' rest -> exists ts1, ts = ts1 ++ rest /\ g_post true (ts0 ++ ts1) e').
    { intros E. injection E as <- <-. exists []. rewrite app_nil_r. split; [reflexivity|now constructor]. }
    destruct ts as [|t ts]; [auto|]. destruct t; auto; clear Dn.
    + (* TkLB *) apply bind_ok in H. destruct H as (e1 & t1 & E1 & H).
      apply bind_ok in H. destruct H as (u & t2 & E2 & H). apply eat_ok in E2.
      assert (Q : exists p, ts = p ++ t1 /\ g_suf true (ts0 ++ TkLB :: p ++ [TkRB]) e1).
      { destruct (peek_kind TkDotDot ts) eqn:Ed.
        - apply peek_true in Ed. destruct (peek_kind TkRB (tl ts)).
          + injection E1 as <- <-. exists ([] ++ TkDotDot :: []). split; [assumption|].
            apply (GS_range true ts0 e [] ENone [] ENone); [assumption|constructor|constructor].
          + apply bind_ok in E1. destruct E1 as (t & t3 & E3 & E1). injection E1 as <- <-.
            destruct (Xe _ _ _ E3) as (p & E4 & Gp). exists ([] ++ TkDotDot :: p).
            split; [rewrite Ed, E4; reflexivity|]. cbn [app].
            apply (GS_range true ts0 e [] ENone p (ESome t)); [assumption|constructor|now constructor].
        - apply bind_ok in E1. destruct E1 as (s & t3 & E3 & E1). destruct (Xe _ _ _ E3) as (p & -> & Gp).
          destruct (peek_kind TkDotDot t3) eqn:Ed2.
          + apply peek_true in Ed2. destruct (peek_kind TkRB (tl t3)).
            * injection E1 as <- <-. exists (p ++ TkDotDot :: []). split; [rewrite Ed2 at 1; lst|].
              rewrite <- app_assoc. cbn [app].
              apply (GS_range true ts0 e p (ESome s) [] ENone); [assumption|now constructor|constructor].
            * apply bind_ok in E1. destruct E1 as (t & t4 & E4 & E1). injection E1 as <- <-.
              destruct (Xe _ _ _ E4) as (p2 & E5 & Gp2). exists (p ++ TkDotDot :: p2).
              split; [rewrite Ed2, E5; lst|]. rewrite <- app_assoc. cbn [app].
              apply (GS_range true ts0 e p (ESome s) p2 (ESome t)); [assumption|now constructor|now constructor].
          + injection E1 as <- <-. exists p. split; [reflexivity|]. now apply GS_index. }
      destruct Q as (p & -> & Gq). destruct (Xf _ _ _ _ _ H Gq) as (p2 & -> & G2).
      exists (TkLB :: p ++ [TkRB] ++ p2). split; [rewrite E2; lst|].
      rewrite <- app_assoc in G2. cbn [app] in *. rewrite <- app_assoc in G2. exact G2.
    + (* TkDot *) apply bind_ok in H. destruct H as ([[z k]|] & t1 & E1 & H).
      * destruct (int_literal_some _ _ _ _ E1) as (p & -> & Si).
        destruct (tuple_index z) as [i|] eqn:Ti; [|discriminate].
        destruct (Xf _ _ _ _ _ H (tuple_suffix ts0 e p z k i false G Si Ti)) as (p2 & -> & G2).
        exists (TkDot :: p ++ p2). split; [lst|]. rewrite <- app_assoc in G2. exact G2.
      * apply int_literal_none in E1. subst t1.
        apply bind_ok in H. destruct H as (x & t1 & E1 & H). apply ident_ok in E1. subst ts.
        apply bind_ok in H. destruct H as (a & t2 & E1 & H). pose proof (Xg _ _ _ E1) as Ga.
        destruct a as [a|].
        -- destruct Ga as (p & -> & Ga).
           destruct (Xf _ _ _ _ _ H (GS_method true ts0 e x p a G Ga)) as (p2 & -> & G2).
           exists (TkDot :: TkId x :: p ++ p2). split; [lst|]. rewrite <- app_assoc in G2. exact G2.
        -- destruct Ga as [-> | ->].
           ++ destruct (Xf _ _ _ _ _ H (GS_field true ts0 e x G)) as (p2 & -> & G2).
              exists (TkDot :: TkId x :: p2). split; [lst|]. rewrite <- app_assoc in G2. exact G2.
           ++ destruct (Xf _ _ _ _ _ H (GS_field_dollar true ts0 e x eq_refl G)) as (p2 & -> & G2).
              exists (TkDot :: TkId x :: TkDollar :: p2). split; [lst|]. rewrite <- app_assoc in G2. exact G2.
    + (* TkHash *) apply bind_ok in H. destruct H as ([[z k]|] & t1 & E1 & H); [|discriminate].
      destruct (int_literal_some _ _ _ _ E1) as (p & -> & Si).
      destruct (tuple_index z) as [i|] eqn:Ti; [|discriminate].
      destruct (Xf _ _ _ _ _ H (tuple_suffix ts0 e p z k i true G Si Ti)) as (p2 & -> & G2).
      exists (TkHash :: p ++ p2). split; [lst|]. rewrite <- app_assoc in G2. exact G2.
    + (* TkAs *) destruct ts as [|[] ts]; try discriminate. injection H as <- <-.
      exists [TkAs; TkTy t]. split; [reflexivity|]. now apply GP_cast.
Qed.

Theorem parse_sound ts e : parse ts = Some e -> g_expr true ts e.
Proof.
  unfold parse. destruct (p_expr _ ts) as [e' [|t r]| |] eqn:E; try discriminate.
  intros H. injection H as <-. destruct (proj1 (sound _) _ _ _ E) as (p & -> & G).
  now rewrite app_nil_r.
Qed.
