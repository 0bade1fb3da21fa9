(** Lowered units compute what the source says. *)
From Coq Require Import String List ZArith Bool Arith Lia.
From Verif Require Import Bits BitsFacts Verilog CodegenModel CodegenSpec CgLayout CgMatch CgArith PatModel PatSpec PatProofs LowerModel LowerSpec LowerProofs RegSpec RegProofs ExprModel ExprSpec ExprOps.
Import ListNotations.
Local Open Scope list_scope.

(** ** The statements of the parts are among those of the whole *)
Lemma bind_inv {A B} (m : M A) (f : A -> M B) n r : bind m f n = Some r -> exists a n1, m n = Some (a, n1) /\ f a n1 = Some r.
Proof. unfold bind. destruct (m n) as [[a n1]|]; [eauto|discriminate]. Qed.
Lemma ret_inv {A} (a b : A) n n' : ret a n = Some (b, n') -> b = a.
Proof. unfold ret. congruence. Qed.
Lemma guard_inv b n r : guard b n = Some r -> b = true.
Proof. destruct b; [easy|discriminate]. Qed.
Ltac step H := let a := fresh "s" in let n := fresh "n" in let E := fresh "E" in
  apply bind_inv in H as (a & n & E & H).
Ltac done H := apply ret_inv in H; subst.

Lemma each_inv {A} (f : A -> M (list xstmt)) l : forall n s n', each f l n = Some (s, n') ->
  forall a, In a l -> exists n0 s0 n1, f a n0 = Some (s0, n1) /\ incl s0 s.
Proof.
  induction l as [|b l IH]; intros n s n' H a I; [easy|]. cbn [each] in H. step H. step H. done H.
  destruct I as [<-|I].
  - do 3 eexists. split; [eassumption|]. apply incl_appl, incl_refl.
  - destruct (IH _ _ _ E0 a I) as (n2 & s2 & n3 & Q & J). do 3 eexists. split; [eassumption|]. now apply incl_appr.
Qed.
Lemma arms_inv f o arms : forall n s ops n', lower_arms f o arms n = Some ((s, ops), n') ->
  forall p g e, In (p, g, e) arms -> exists n0 s0 n1, f e n0 = Some (s0, n1) /\ incl s0 s /\
    (forall g', g = Some g' -> exists n2 s2 n3, f g' n2 = Some (s2, n3) /\ incl s2 s) /\
    exists n4, incl (map XS (fst (lower p o (to_mir_type (lty p)) n4))) s.
Proof.
  induction arms as [|[[p0 g0] e0] arms IH]; intros n s ops n' H p g e I; [easy|]. cbn [lower_arms] in H.
  step H. step H. step H. destruct s2 as [s3 c]. step H. step H. destruct s4 as [s5 ops']. done H. injection H as -> ->.
  destruct I as [I|I].
  - injection I as -> -> ->. do 3 eexists. split; [eassumption|]. split; [|split].
    + do 3 apply incl_appr. apply incl_appl, incl_refl.
    + intros g' ->. cbn [lower_opt] in E0. do 3 eexists. split; [eassumption|]. apply incl_appr, incl_appl, incl_refl.
    + exists n. unfold lift in E. injection E as E. rewrite E. apply incl_appl, incl_refl.
  - destruct (IH _ _ _ _ E3 p g e I) as (n6 & s6 & n7 & Q & J & G & n8 & L). exists n6, s6, n7. split; [exact Q|].
    assert (X : forall l, incl l s5 -> incl l (map XS s0 ++ s1 ++ map XS s3 ++ s2 ++ s5)) by (intros; now do 4 apply incl_appr).
    split; [auto|]. split; [|eauto]. intros g' Hg. destruct (G g' Hg) as (? & ? & ? & ? & ?). eauto 7.
Qed.
Lemma stm_child st n s n' : lower_stm st n = Some (s, n') -> forall c, In c (stm_exprs st) ->
  exists n0 s0 n1, lower_expr c n0 = Some (s0, n1) /\ incl s0 s.
Proof.
  intros H c I. destruct st as [p e|e|p k r v|e|]; cbn [stm_exprs] in I; cbn [lower_stm] in H.
  - step H. step H. step H. done H. destruct I as [<-|[]]. do 3 eexists. split; [eassumption|]. apply incl_appl, incl_refl.
  - step H. step H. done H. destruct I as [<-|[]]. do 3 eexists. split; [eassumption|]. apply incl_refl.
  - step H. step H. step H. step H. step H. done H. destruct I as [<-|I].
    { do 3 eexists. split; [eassumption|]. apply incl_appl, incl_refl. }
    apply in_app_or in I as [I|[<-|[]]].
    + destruct r as [[a b]|]; [|easy]. cbn [lower_opt fst snd] in E0. step E0. step E0. done E0.
      destruct I as [<-|[<-|[]]]; do 3 eexists; (split; [eassumption|]); apply incl_appr, incl_appl; [apply incl_appl|apply incl_appr]; apply incl_refl.
    + do 3 eexists. split; [eassumption|]. do 2 apply incl_appr. apply incl_appl, incl_refl.
  - step H. done H. destruct I as [<-|[]]. do 3 eexists. split; [eassumption|]. apply incl_appl, incl_refl.
  - easy.
Qed.

(** What lowering emits for one expression itself. *)
Definition emitted (id : nat) (t : cty) (k : ekind) (s : list xstmt) : Prop :=
  let mt := to_mir_type t in
  let bind op args := In (XS (SBind (NExpr id) op args mt)) s in
  match k with
  | XName _ => True
  | XInt z => In (XS (SConst (NExpr id) mt (KInt z))) s
  | XBool b => In (XS (SConst (NExpr id) mt (KBool b))) s
  | XBin op a b => exists o, bin_operator op a b = Some o /\ bind (Op o) [variable a; variable b]
  | XUn op a => bind (Op (un_operator op)) [variable a]
  | XTuple l => bind (Op ConstructTuple) (map variable l)
  | XTupleIndex a i => bind (Op (IndexTuple i)) [variable a]
  | XField a members f => exists i, field_index members f = Some i /\ bind (Op (IndexTuple i)) [variable a]
  | XCast a => bind Alias [variable a]
  | XArray l => bind (Op ConstructArray) (map variable l)
  | XRepeat a n => bind (Op ConstructArray) (repeat (variable a) n)
  | XIndex a i => bind (Op IndexArray) [variable a; variable i]
  | XRange a from upto => exists e, match upto with Some n => Some n | None => match ety a with CArray _ n => Some n | _ => None end end = Some e /\
      bind (Op (RangeIndexArray (match from with Some n => n | None => 0 end) e)) [variable a]
  | XBlock ss r => (forall st, In st ss -> exists n0 s0 n1, lower_stm st n0 = Some (s0, n1) /\ incl s0 s) /\
      match r with Some _ => True | None => In (XNop (NExpr id) (TTuple [])) s end
  | XIf c a b => bind (Op Select) [variable c; variable a; variable b]
  | XMatch a arms => exists n0 s0 ops n1, lower_arms lower_expr (variable a) arms n0 = Some ((s0, ops), n1) /\ incl s0 s /\
      bind (Op Match) ops
  | XCall c args => exists st, call_stmt id mt c (map variable args) (map (fun a => to_mir_type (ety a)) args) = Some st /\ In st s
  end.
Lemma node_inv id t k n s n' : lower_expr (Ex id t k) n = Some (s, n') ->
  emitted id t k s /\ forall c, In c (children (Ex id t k)) -> exists n0 s0 n1, lower_expr c n0 = Some (s0, n1) /\ incl s0 s.
Proof.
  assert (L : forall (l : list xstmt) x, In x (l ++ [x])) by (intros; apply in_or_app; right; now left).
  assert (L2 : forall (a l : list xstmt) x, In x (a ++ l ++ [x])) by (intros; rewrite app_assoc; apply L).
  assert (L3 : forall (a b l : list xstmt) x, In x (a ++ b ++ l ++ [x])) by (intros; rewrite app_assoc; apply L2).
  intros H. destruct k; cbn [lower_expr] in H; cbn [emitted children].
  - split; easy.
  - done H. split; [now left|easy].
  - done H. split; [now left|easy].
  - destruct (bin_operator op a b) as [o|] eqn:O; [|discriminate]. step H. step H. done H. split; [eauto|].
    intros c [<-|[<-|[]]]; do 3 eexists; (split; [eassumption|]); [|apply incl_appr]; apply incl_appl, incl_refl.
  - step H. done H. split; [auto|]. intros c [<-|[]]; do 3 eexists; (split; [eassumption|]). apply incl_appl, incl_refl.
  - step H. done H. split; [auto|]. intros c I. destruct (each_inv _ _ _ _ _ E c I) as (n2 & s2 & n3 & Q & J). exists n2, s2, n3. split; [exact Q|]. now apply incl_appl.
  - step H. done H. split; [auto|]. intros c [<-|[]]; do 3 eexists; (split; [eassumption|]). apply incl_appl, incl_refl.
  - step H. destruct (field_index members f) as [i|] eqn:O; [|discriminate]. done H. split; [eauto|]. intros c [<-|[]]; do 3 eexists; (split; [eassumption|]). apply incl_appl, incl_refl.
  - step H. done H. split; [auto|]. intros c [<-|[]]; do 3 eexists; (split; [eassumption|]). apply incl_appl, incl_refl.
  - step H. done H. split; [auto|]. intros c I. destruct (each_inv _ _ _ _ _ E c I) as (n2 & s2 & n3 & Q & J). exists n2, s2, n3. split; [exact Q|]. now apply incl_appl.
  - step H. done H. split; [auto|]. intros c [<-|[]]; do 3 eexists; (split; [eassumption|]). apply incl_appl, incl_refl.
  - step H. step H. done H. split; [auto|]. intros c [<-|[<-|[]]]; do 3 eexists; (split; [eassumption|]); [|apply incl_appr]; apply incl_appl, incl_refl.
  - step H. destruct (match e with Some m => Some m | None => _ end) as [e'|] eqn:O; [|discriminate]. done H. split; [eauto|]. intros c [<-|[]]; do 3 eexists; (split; [eassumption|]). apply incl_appl, incl_refl.
  - step H. assert (J : incl s0 s /\ match r with Some e => exists n0 s0 n1, lower_expr e n0 = Some (s0, n1) /\ incl s0 s | None => In (XNop (NExpr id) (TTuple [])) s end).
    { destruct r as [e|].
      - step H. done H. split; [apply incl_appl, incl_refl|]. do 3 eexists. split; [eassumption|]. apply incl_appr, incl_refl.
      - done H. split; [apply incl_appl, incl_refl|auto]. }
    destruct J as [J R]. split; [split|].
    + intros st I. destruct (each_inv _ _ _ _ _ E st I) as (n2 & s2 & n3 & Q & K). exists n2, s2, n3. split; [exact Q|]. eapply incl_tran; eassumption.
    + now destruct r.
    + intros c I. apply in_app_or in I as [I|I].
      * apply in_flat_map in I as (st & I & I'). destruct (each_inv _ _ _ _ _ E st I) as (n2 & s2 & n3 & Q & K).
        destruct (stm_child _ _ _ _ Q c I') as (n4 & s4 & n5 & Q' & K'). exists n4, s4, n5. split; [exact Q'|]. eapply incl_tran; [eassumption|]. eapply incl_tran; eassumption.
      * destruct r as [e|]; [|easy]. destruct I as [<-|[]]. exact R.
  - step H. step H. step H. done H. split; [auto|].
    intros d [<-|[<-|[<-|[]]]]; do 3 eexists; (split; [eassumption|]); [|apply incl_appr|do 2 apply incl_appr]; apply incl_appl, incl_refl.
  - step H. step H. step H. destruct s2 as [s2 ops]. done H. split.
    + do 4 eexists. split; [eassumption|]. split; [|auto]. apply incl_appr, incl_appl, incl_refl.
    + intros c [<-|I]. { do 3 eexists. split; [eassumption|]. apply incl_appl, incl_refl. }
      apply in_flat_map in I as ([[p g] e] & I & I'). cbn [fst snd] in I'.
      destruct (arms_inv _ _ _ _ _ _ _ E1 p g e I) as (n4 & s4 & n5 & Q & K & G & _).
      assert (X : forall l, incl l s2 -> incl l (s1 ++ s2 ++ [XS (SBind (NExpr id) (Op Match) ops (to_mir_type t))])) by (intros; now apply incl_appr, incl_appl).
      apply in_app_or in I' as [I'|[<-|[]]].
      * destruct g as [g|]; [|easy]. destruct I' as [<-|[]]. destruct (G g eq_refl) as (? & ? & ? & ? & ?). eauto 7.
      * eauto 7.
  - step H. destruct (call_stmt id (to_mir_type t) c (map variable args) _) as [st|] eqn:O; [|discriminate]. done H. split; [eauto|].
    intros d I. destruct (each_inv _ _ _ _ _ E d I) as (n2 & s2 & n3 & Q & J). exists n2, s2, n3. split; [exact Q|]. now apply incl_appl.
Qed.
Lemma within_lowered b e : within b e -> forall n s n', lower_expr b n = Some (s, n') -> exists n0 s0 n1, lower_expr e n0 = Some (s0, n1) /\ incl s0 s.
Proof.
  induction 1 as [|e c W IH I]; intros n s n' H.
  - do 3 eexists. split; [eassumption|]. apply incl_refl.
  - destruct (IH _ _ _ H) as (n0 & s0 & n1 & Q & J). destruct e as [id t k]. destruct (proj2 (node_inv _ _ _ _ _ _ Q) c I) as (n2 & s2 & n3 & Q' & J').
    exists n2, s2, n3. split; [exact Q'|]. eapply incl_tran; eassumption.
Qed.
Lemma contains_lowered b st : contains b st -> forall n s n', lower_expr b n = Some (s, n') -> exists n0 s0 n1, lower_stm st n0 = Some (s0, n1) /\ incl s0 s.
Proof.
  intros [id t ss r s0 W I] n s n' H. destruct (within_lowered _ _ W _ _ _ H) as (n1 & s1 & n2 & Q & J).
  destruct (proj1 (proj1 (node_inv _ _ _ _ _ _ Q)) s0 I) as (n3 & s3 & n4 & Q' & J'). exists n3, s3, n4. split; [exact Q'|]. eapply incl_tran; eassumption.
Qed.

(** ** Patterns *)
Section Patterns.
  Variable types : mname -> ty.
  Variable rho : mname -> bits.
  Notation ok := (Forall (settled types rho)).
  Lemma pattern_binds p t self v n : lpat_type t p -> readable t -> types self = to_mir_type t -> encodes t v (rho self) ->
    ok (fst (lower p self (to_mir_type t) n)) -> forall x s u, binds p v x s u -> encodes s u (rho (NName x)).
  Proof.
    intros T R Ty E L. destruct (lower_bind _ _ _ _ _ _ _ T E L) as [L' Ev].
    destruct (lower_good types rho p t self v T R Ty E n L') as [X _]. auto.
  Qed.
  Lemma register_binds p t v n : lpat_type t p -> readable t -> types (value_name p) = to_mir_type t -> encodes t v (rho (value_name p)) ->
    ok (fst (lower_inner p (value_name p) n)) -> forall x s u, binds p v x s u -> encodes s u (rho (NName x)).
  Proof.
    intros T R Ty E L. destruct (lower_good types rho p t _ v T R Ty E n L) as [X _]. auto.
  Qed.
  Lemma settled_type x op args t : settled types rho (SBind x op args t) -> types x = t.
  Proof. destruct op; now intros [? _]. Qed.
  Lemma inner_types p x t : pat_name p x t -> forall self n, types (value_name p) = to_mir_type (lty p) ->
    ok (fst (lower_inner p self n)) -> types (NName x) = to_mir_type t.
  Proof.
    induction 1 as [id t x i|id t x q y s Q IH|id t k l q x s Ik Iq Q IH|id t i l q x s Iq Q IH]; intros self n Ty H.
    - exact Ty.
    - cbn [lower_inner] in H. destruct (lower_inner q (value_name q) n) as [rest n'] eqn:L. cbn [fst] in H.
      apply Forall_cons_iff in H as [H1 H2]. apply settled_type in H1. eapply IH; [exact H1|]. now rewrite L.
    - apply In_nth_error in Iq as [j Hj]. destruct Ik as [<-|[<-|[<-|[]]]].
      + rewrite lower_tuple in H. destruct (lower_idx_inv _ _ _ _ _ _ _ H j q Hj) as [H1 [n0 H2]]. apply settled_type in H1. eauto.
      + rewrite lower_array in H. destruct (lower_arr_inv _ _ _ _ _ _ _ H j q Hj) as (idx & _ & H1 & [n0 H2]). apply settled_type in H1. eauto.
      + rewrite lower_struct in H. destruct (lower_idx_inv _ _ _ _ _ _ _ H j q Hj) as [H1 [n0 H2]]. apply settled_type in H1. eauto.
    - apply In_nth_error in Iq as [j Hj]. rewrite lower_variant in H. destruct (lower_idx_inv _ _ _ _ _ _ _ H j q Hj) as [H1 [n0 H2]]. apply settled_type in H1. eauto.
  Qed.
  Lemma lower_types p x t : pat_name p x t -> forall self n, ok (fst (lower p self (to_mir_type (lty p)) n)) -> types (NName x) = to_mir_type t.
  Proof.
    intros N self n H. unfold lower in H. destruct (lower_inner p self n) as [rest n'] eqn:L. cbn [fst] in H.
    apply Forall_cons_iff in H as [H1 H2]. apply settled_type in H1. eapply (inner_types _ _ _ N self n); [exact H1|]. now rewrite L.
  Qed.
End Patterns.
Lemma lpat_lty t p : lpat_type t p -> lty p = t.
Proof. now inversion 1. Qed.

(** The first arm that applies decides. *)
Section Arms.
  Variable types : mname -> ty.
  Variable rho : mname -> bits.
  Variable f : expr -> M (list xstmt).
  Notation arm := (lpat * option expr * expr)%type.
  Definition bodies (arms : list arm) : list bits := map (fun a => rho (variable (snd a))) arms.
  Lemma arms_value operand t v ct (arms : list arm) : forall n s ops n',
    lower_arms f operand arms n = Some ((s, ops), n') ->
    (forall st, In (XS st) s -> settled types rho st) ->
    readable ct -> types operand = to_mir_type ct -> encodes ct v (rho operand) ->
    Forall (fun a => lpat_type ct (fst (fst a)) /\ types (variable (snd a)) = t /\ good_guard types rho (option_map variable (snd (fst a)))) arms ->
    exists bs, length bs = length arms /\
      map types ops = flat (repeat (TBool, t) (length arms)) /\
      map rho ops = flat (map (fun a => ([fst a], snd a)) (combine bs (bodies arms))) /\
      forall i a, nth_error arms i = Some a -> exists b, nth_error bs i = Some b /\
        (matches (erase (fst (fst a))) v -> [b] = match snd (fst a) with Some g => rho (variable g) | None => [B1] end) /\
        (~ matches (erase (fst (fst a))) v -> b = B0).
  Proof.
    induction arms as [|[[p g] e] arms IH]; intros n s ops n' H S R Ty En F.
    - cbn in H. done H. injection H as -> ->. exists []. cbn. repeat split; auto. intros [|i] a Q; discriminate.
    - cbn [lower_arms] in H. step H. step H. step H. destruct s2 as [s3 c]. step H. step H. destruct s4 as [s5 ops']. done H. injection H as -> ->.
      unfold lift in E. injection E as E. injection E1 as E1.
      apply Forall_cons_iff in F as [(Ta & Tb & Ga) F']. cbn [fst snd] in Ta, Tb, Ga.
      assert (S1 : Forall (settled types rho) s0) by (apply Forall_forall; intros st I; apply S, in_or_app; left; now apply in_map).
      assert (S3 : Forall (settled types rho) s3).
      { apply Forall_forall; intros st I; apply S, in_or_app; right. apply in_or_app; right. apply in_or_app; left. now apply in_map. }
      destruct (IH _ _ _ _ E3) as (bs & Lb & Et & Ev & K); auto.
      { intros st I. apply S. do 4 (apply in_or_app; right). exact I. }
      rewrite (lpat_lty _ _ Ta) in E.
      assert (L : Forall (settled types rho) (fst (lower p operand (to_mir_type ct) n))) by now rewrite E.
      destruct (pattern_lowering types rho p ct operand v (option_map variable g) _ _ _ _ _ Ta R Ty En Ga L E1 S3) as (P & N & _ & Tc).
      assert (exists b, rho c = [b]) as [b Hb].
      { destruct (matchb (erase p) v) eqn:Q.
        - apply matchb_spec in Q. rewrite (P Q). destruct g; [|now exists B1]. now destruct Ga as [_ ?].
        - exists B0. apply N. intros M. apply matchb_spec in M. congruence. }
      exists (b :: bs). cbn [length]. split; [congruence|]. cbn [map repeat flat combine fst snd bodies].
      rewrite Tc, Hb, Et, Ev, Tb. split; [reflexivity|]. split; [reflexivity|].
      intros [|i] a' Q; cbn in Q.
      + injection Q as <-. exists b. split; [reflexivity|]. cbn [fst snd]. rewrite Hb in P, N. split; [|intros M; specialize (N M); now injection N].
        intros M. specialize (P M). now destruct g.
      + exact (K i a' Q).
  Qed.
  Lemma match_value operand t v ct before p g e after x n s ops n' :
    let arms := before ++ (p, g, e) :: after in
    lower_arms f operand arms n = Some ((s, ops), n') ->
    (forall st, In (XS st) s -> settled types rho st) ->
    settled types rho (SBind x (Op Match) ops t) ->
    has_width t (rho x) -> has_width t (rho (variable e)) ->
    readable ct -> types operand = to_mir_type ct -> encodes ct v (rho operand) ->
    Forall (fun a => lpat_type ct (fst (fst a)) /\ types (variable (snd a)) = t /\ good_guard types rho (option_map variable (snd (fst a)))) arms ->
    Forall (fun a => ~ matches (erase (fst (fst a))) v \/ exists g, snd (fst a) = Some g /\ rho (variable g) = [B0]) before ->
    matches (erase p) v -> (forall g', g = Some g' -> rho (variable g') = [B1]) ->
    rho x = rho (variable e).
  Proof.
    intros arms E S [_ V] Wx W R Ty En F Hb M G.
    destruct (arms_value operand t v ct arms _ _ _ _ E S R Ty En F) as (bs & Lb & Et & Ev & K).
    assert (Ha : nth_error arms (length before) = Some (p, g, e)).
    { unfold arms. rewrite nth_error_app2, Nat.sub_diag by lia. reflexivity. }
    destruct (K _ _ Ha) as (b & Hbs & P & _). cbn [fst snd] in P.
    assert (b = B1) as ->.
    { specialize (P M). destruct g as [g|]; [rewrite (G g eq_refl) in P|]; now injection P. }
    rewrite Et, Ev in V.
    destruct (Nat.eq_dec (size t) 0) as [Z|Z].
    { unfold has_width in W, Wx. rewrite Z in *. apply length_zero_iff_nil in W, Wx. congruence. }
    set (cs := combine bs (bodies arms)) in *.
    assert (Lc : length cs = length arms) by (unfold cs, bodies; rewrite combine_length, map_length; lia).
    rewrite <- Lc in V.
    assert (Nc : forall i x y, nth_error bs i = Some x -> nth_error arms i = Some y -> nth_error cs i = Some (x, rho (variable (snd y)))).
    { unfold cs, bodies. clear. revert bs. induction arms as [|y0 arms IH]; intros [|x0 bs] [|i] x y Hx Hy; cbn in *; try discriminate; auto.
      congruence. }
    rewrite (match_first t cs (length before) (rho (variable e)) Z) in V; auto.
    - apply Some_inj in V. congruence.
    - exact (Nc _ _ _ Hbs Ha).
    - intros j c Hj Hc.
      assert (Hl : j < length arms) by (unfold arms; rewrite app_length; cbn; lia).
      destruct (nth_error arms j) as [aj|] eqn:Ej; [|apply nth_error_None in Ej; lia].
      destruct (K _ _ Ej) as (bj & Hbj & Pj & Nj).
      rewrite (Nc j bj aj Hbj Ej) in Hc. apply Some_inj in Hc. subst c. cbn [fst].
      unfold arms in Ej. rewrite nth_error_app1 in Ej by exact Hj.
      rewrite Forall_forall in Hb. destruct (Hb aj (nth_error_In _ _ Ej)) as [Q|(g' & Qg & Qv)]; [auto|].
      destruct (matchb (erase (fst (fst aj))) v) eqn:Qm.
      + apply matchb_spec in Qm. specialize (Pj Qm). rewrite Qg, Qv in Pj. now injection Pj.
      + apply Nj. intros Mj. apply matchb_spec in Mj. congruence.
  Qed.
End Arms.

(** ** Aggregates *)
Lemma F3_values ts vs ws i t v : Forall3 ts vs ws -> nth_error ts i = Some t -> nth_error vs i = Some v ->
  exists w, nth_error ws i = Some w /\ encodes t v w.
Proof. intros F Ht Hv. destruct (Forall3_nth _ _ _ _ _ F Ht) as (v' & w & Hv' & Hw & E). assert (v' = v) as -> by congruence. eauto. Qed.
Lemma tuple_part ts vs w i t v : encodes (CTuple ts) (VNode vs) w -> nth_error ts i = Some t -> nth_error vs i = Some v ->
  exists r, op_value (to_mir_type t) [to_mir_type (CTuple ts)] (IndexTuple i) [w] = Some r /\ encodes t v r.
Proof.
  intros E Ht Hv. inversion E as [? ? ws ? F V| | | | | | |]; subst. destruct (F3_values _ _ _ _ _ _ F Ht Hv) as (r & Hr & Er).
  destruct (tuple_round_trip _ _ (Forall3_widths _ _ _ F)) as (w' & V' & _ & Idx). rewrite V in V'. apply Some_inj in V'. subst w'.
  exists r. split; [|exact Er]. apply Idx; [|exact Hr]. now rewrite nth_error_map, Ht.
Qed.
Lemma struct_part ts vs w i t v : encodes (CStruct ts) (VNode vs) w -> nth_error ts i = Some t -> nth_error vs i = Some v ->
  exists r, op_value (to_mir_type t) [to_mir_type (CStruct ts)] (IndexTuple i) [w] = Some r /\ encodes t v r.
Proof.
  intros E Ht Hv. inversion E as [|? ? ws ? F V| | | | | |]; subst. destruct (F3_values _ _ _ _ _ _ F Ht Hv) as (r & Hr & Er).
  destruct (struct_round_trip _ _ (struct_widths _ _ (Forall3_widths _ _ _ F))) as (w' & V' & _ & Idx).
  rewrite struct_snd in V'. cbn [to_mir_type] in V. rewrite V in V'. apply Some_inj in V'. subst w'.
  exists r. split; [|exact Er].
  refine (Idx i (Coq.Strings.String.EmptyString, to_mir_type t) r _ Hr). now rewrite nth_error_map, Ht.
Qed.
Lemma array_parts t n vs w : encodes (CArray t n) (VNode vs) w -> exists ws, Forall3 (repeat t n) vs ws /\ length ws = n /\
  Forall (has_width (to_mir_type t)) ws /\ w = concat ws.
Proof.
  intros E. inversion E as [| |? ? ? ws ? F V| | | | |]; subst. exists ws. pose proof (Forall3_repeat _ _ _ _ F) as L.
  pose proof (widths_repeat _ _ _ (Forall3_widths _ _ _ F)) as W. repeat split; auto.
  pose proof (construct_array_value _ _ W) as C. rewrite L in C. rewrite C in V. now apply Some_inj in V.
Qed.
Lemma array_part t n m vs w iv k v : encodes (CArray t n) (VNode vs) w -> readable (CArray t n) ->
  encodes (CUint m) (VInt (Z.of_nat k)) iv -> nth_error vs k = Some v ->
  exists r, op_value (to_mir_type t) [to_mir_type (CArray t n); TUInt m] IndexArray [w; iv] = Some r /\ encodes t v r.
Proof.
  intros E R Ei Hv. destruct (array_parts _ _ _ _ E) as (ws & F & L & W & ->). inversion R as [| |? ? _ Big| | | | |]; subst.
  assert (Hk : nth_error (repeat t (length ws)) k = Some t).
  { apply nth_error_repeat. pose proof (Forall3_lengths _ _ _ F) as [L1 _]. rewrite repeat_length in L1. rewrite L1. apply nth_error_Some. congruence. }
  destruct (F3_values _ _ _ _ _ _ F Hk Hv) as (r & Hr & Er). exists r. split; [|exact Er]. cbn [to_mir_type].
  inversion Ei as [| | | | |? ? ? [_ U]| |]; subst. now apply index_array_value with k.
Qed.
Lemma F3_slice ts vs ws s k : Forall3 ts vs ws -> Forall3 (firstn k (skipn s ts)) (firstn k (skipn s vs)) (firstn k (skipn s ws)).
Proof.
  intros F. revert s k. induction F as [|t ts v vs w ws E F IH]; intros s k.
  - rewrite !skipn_nil, !firstn_nil. constructor.
  - destruct s as [|s]; [|exact (IH s k)]. destruct k as [|k]; [constructor|]. cbn. constructor; [exact E|exact (IH 0 k)].
Qed.
Lemma firstn_repeat {A} (x : A) k n : k <= n -> firstn k (repeat x n) = repeat x k.
Proof. revert n. induction k; intros [|n] H; cbn; try lia; auto. f_equal. apply IHk. lia. Qed.
Lemma skipn_repeat {A} (x : A) k n : skipn k (repeat x n) = repeat x (n - k).
Proof. revert n. induction k; intros [|n]; cbn; auto. Qed.
Lemma array_range el n s e vs w : encodes (CArray el n) (VNode vs) w -> s <= e <= n ->
  exists r, op_value (TArray (to_mir_type el) (e - s)) [to_mir_type (CArray el n)] (RangeIndexArray s e) [w] = Some r /\
    encodes (CArray el (e - s)) (VNode (firstn (e - s) (skipn s vs))) r.
Proof.
  intros E B. inversion E as [| |? ? ? ws ? F V| | | | |]; subst. pose proof (Forall3_repeat _ _ _ _ F) as L.
  pose proof (widths_repeat _ _ _ (Forall3_widths _ _ _ F)) as W.
  pose proof (F3_slice _ _ _ s (e - s) F) as F'. rewrite skipn_repeat, firstn_repeat in F' by lia.
  assert (Lf : length (firstn (e - s) (skipn s ws)) = e - s) by (rewrite firstn_length, skipn_length; lia).
  assert (Wf : Forall (has_width (to_mir_type el)) (firstn (e - s) (skipn s ws))).
  { apply Forall_forall. intros x I. rewrite Forall_forall in W. apply W. rewrite <- (firstn_skipn s ws). apply in_or_app. right.
    rewrite <- (firstn_skipn (e - s) (skipn s ws)). apply in_or_app. now left. }
  pose proof (construct_array_value _ _ Wf) as C. rewrite Lf in C.
  exists (concat (firstn (e - s) (skipn s ws))). split; [|econstructor; eassumption].
  destruct (Nat.eq_dec s e) as [->|Ne].
  - rewrite Nat.sub_diag. cbn [firstn concat]. apply op_value_zero. cbn [size]. lia.
  - cbn [to_mir_type]. rewrite <- L. rewrite (array_slice _ ws s e w); auto; try lia. now rewrite L.
Qed.

(** ** Units and instances *)
Lemma compile_nth prog : forall n ents n', compile prog n = Some (ents, n') -> forall k u, nth_error prog k = Some u ->
  exists e m m', nth_error ents k = Some e /\ generate_unit u m = Some (e, m').
Proof.
  induction prog as [|u0 prog IH]; intros n ents n' H k u Hk; [destruct k; discriminate|]. cbn [compile] in H. step H. step H. done H.
  destruct k; cbn in *; [injection Hk as <-; eauto|eauto].
Qed.
Lemma unit_inv u n e n' : generate_unit u n = Some (e, n') -> (exists n0, lower_expr (body u) n = Some (en_stmts e, n0)) /\
  en_inputs e = map (fun i => (NName (fst i), to_mir_type (snd i))) (inputs u) /\ en_output e = variable (body u).
Proof. intros H. unfold generate_unit in H. step H. done H. cbn. eauto. Qed.
Lemma within_trans a b c : within a b -> within b c -> within a c.
Proof. intros H. induction 1; auto. econstructor; eassumption. Qed.
Lemma child_within b e c : within b e -> In c (children e) -> within b c.
Proof. econstructor; eauto. Qed.
Lemma contains_within b st c : contains b st -> In c (stm_exprs st) -> within b c.
Proof.
  intros [id t ss r s W I] J. apply W_child with (Ex id t (XBlock ss r)); [exact W|]. cbn [children]. apply in_or_app. left. apply in_flat_map. eauto.
Qed.
Lemma map_repeat' {A B} (f : A -> B) a n : map f (repeat a n) = repeat (f a) n.
Proof. induction n; cbn; congruence. Qed.
Lemma filter_one {A} (f : A -> bool) l x : filter f l = [x] -> forall y, In y l -> f y = true -> y = x.
Proof. intros E y I Hy. assert (K : In y (filter f l)) by (apply filter_In; auto). rewrite E in K. now destruct K as [|[]]. Qed.
Lemma nth_combine_seq {A} (l : list A) i x : forall k, nth_error l i = Some x -> In (k + i, x) (combine (seq k (length l)) l).
Proof.
  revert i. induction l as [|y l IH]; intros [|i] k E; try discriminate; cbn in *.
  - injection E as ->. left. f_equal. lia.
  - right. replace (k + S i) with (S k + i) by lia. auto.
Qed.
Lemma field_index_nth members f i j : nth_error members i = Some f -> field_index members f = Some j -> j = i.
Proof.
  unfold field_index. intros Hi Hj. destruct (filter _ _) as [|[k m] [|]] eqn:E; try discriminate. injection Hj as ->.
  pose proof (filter_one _ _ _ E (0 + i, f) (nth_combine_seq _ _ _ 0 Hi)) as Q. cbn [snd] in Q. rewrite String.eqb_refl in Q. specialize (Q eq_refl). now injection Q.
Qed.

Section Main.
  Variables (prog : list unit_) (top c0 c1 : nat) (ents : list entity).
  Variable types : path -> mname -> ty.
  Variable rho : path -> nat -> mname -> bits.
  Variable given : nat -> nat -> val -> Prop.
  Variable start : path -> lpat -> val -> Prop.
  Hypothesis Comp : compile prog c0 = Some (ents, c1).
  Hypothesis WT : forall u, In u prog -> well_typed prog u.
  Hypothesis Run : runs ents top types rho.
  Hypothesis Same : same_inputs prog top given start rho.
  Notation reach := (reach prog top).
  Notation unit_at := (unit_at prog top).
  Notation entity_at := (entity_at ents top).
  Notation placed := (placed ents top).
  Notation holds := (holds ents types rho).

  Lemma entity_of q u : unit_at q = Some u -> exists e m m', entity_at q = Some e /\ generate_unit u m = Some (e, m').
  Proof. intros H. exact (compile_nth _ _ _ _ Comp _ _ H). Qed.
  Lemma reach_placed q : reach q -> placed q.
  Proof.
    induction 1 as [|q u id t k args R IH U W]; [constructor|]. destruct (entity_of _ _ U) as (e & m & m' & He & Hg).
    destruct (unit_inv _ _ _ _ Hg) as [[n0 L] _]. destruct (within_lowered _ _ W _ _ _ L) as (n1 & s1 & n2 & L' & I).
    destruct (proj1 (node_inv _ _ _ _ _ _ L')) as (st & C & J). cbn in C. injection C as <-. econstructor; eauto.
  Qed.
  Lemma well q u : unit_at q = Some u -> well_typed prog u.
  Proof. intros H. apply WT. eapply nth_error_In. exact H. Qed.
  Lemma statements q u : reach q -> unit_at q = Some u -> exists n s n', lower_expr (body u) n = Some (s, n') /\ forall st, In st s -> holds q st.
  Proof.
    intros R U. destruct (entity_of _ _ U) as (e & m & m' & He & Hg). destruct (unit_inv _ _ _ _ Hg) as [[n0 L] _].
    exists m, (en_stmts e), n0. split; [exact L|]. intros st I. exact (runs_stmts _ _ _ _ Run q e st (reach_placed q R) He I).
  Qed.
  Lemma live q u id t k : reach q -> unit_at q = Some u -> within (body u) (Ex id t k) -> exists s, emitted id t k s /\ forall st, In st s -> holds q st.
  Proof.
    intros R U W. destruct (statements _ _ R U) as (n & s & n' & L & H). destruct (within_lowered _ _ W _ _ _ L) as (n1 & s1 & n2 & L' & I).
    exists s1. split; [exact (proj1 (node_inv _ _ _ _ _ _ L'))|auto].
  Qed.
  Lemma live_stm q u st : reach q -> unit_at q = Some u -> contains (body u) st -> exists n s n', lower_stm st n = Some (s, n') /\ forall x, In x s -> holds q x.
  Proof.
    intros R U C. destruct (statements _ _ R U) as (n & s & n' & L & H). destruct (contains_lowered _ _ C _ _ _ L) as (n1 & s1 & n2 & L' & I). exists n1, s1, n2. split; auto.
  Qed.
  Lemma settled_all q n l : (forall st, In st (map XS l) -> holds q st) -> Forall (settled (types q) (rho q n)) l.
  Proof. intros H. apply Forall_forall. intros st I. exact (H (XS st) (in_map _ _ _ I) n). Qed.
  (** The statements of a register. *)
  Lemma live_reg q u p c r v : reach q -> unit_at q = Some u -> contains (body u) (SRegister p c r v) ->
    holds q (XReg (value_name p) (to_mir_type (lty p)) (variable c) (option_map (fun r => (variable (fst r), variable (snd r))) r) (variable v)) /\
    exists m, forall n, Forall (settled (types q) (rho q n)) (fst (lower_inner p (value_name p) m)).
  Proof.
    intros R U C. destruct (live_stm _ _ _ R U C) as (n & s & n' & L & H). cbn [lower_stm] in L. do 5 step L. done L. split.
    - apply H. do 3 (apply in_or_app; right). now left.
    - unfold lift in E3. eexists. intros m. apply settled_all. intros st I. apply H. do 3 (apply in_or_app; right). right.
      injection E3 as E3. rewrite E3 in I. exact I.
  Qed.
  Lemma live_let q u p e : reach q -> unit_at q = Some u -> contains (body u) (SLet p e) ->
    exists m, forall n, Forall (settled (types q) (rho q n)) (fst (lower p (variable e) (to_mir_type (lty p)) m)).
  Proof.
    intros R U C. destruct (live_stm _ _ _ R U C) as (n & s & n' & L & H). cbn [lower_stm] in L. do 3 step L. done L.
    unfold lift in E1. eexists. intros m. apply settled_all. intros st I. apply H. apply in_or_app; right. injection E1 as E1. rewrite E1 in I. exact I.
  Qed.
  Lemma live_arm q u id t a arms p g e : reach q -> unit_at q = Some u -> within (body u) (Ex id t (XMatch a arms)) -> In (p, g, e) arms ->
    exists m, forall n, Forall (settled (types q) (rho q n)) (fst (lower p (variable a) (to_mir_type (lty p)) m)).
  Proof.
    intros R U W I. destruct (live _ _ _ _ _ R U W) as (s & (n0 & s0 & ops & n1 & L & J & _) & H).
    destruct (arms_inv _ _ _ _ _ _ _ L p g e I) as (_ & _ & _ & _ & _ & _ & m & K). exists m. intros n. apply settled_all. auto.
  Qed.

  Lemma bound_type q u x t : reach q -> unit_at q = Some u -> bound u x t -> types q (NName x) = to_mir_type t.
  Proof.
    intros R U [x' t' I|p e x' t' C N|p c r v x' t' C N|id ty a arms p g e x' t' W I N].
    - destruct (entity_of _ _ U) as (e & m & m' & He & Hg). destruct (unit_inv _ _ _ _ Hg) as (_ & Ei & _).
      apply (runs_input _ _ _ _ Run q e); [now apply reach_placed|exact He|]. rewrite Ei. apply (in_map (fun i => (NName (fst i), to_mir_type (snd i))) _ _ I).
    - destruct (live_let _ _ _ _ R U C) as [m H]. exact (lower_types _ _ _ _ _ N _ _ (H 0)).
    - destruct (live_reg _ _ _ _ _ _ R U C) as [[T _] [m H]]. exact (inner_types _ _ _ _ _ N _ _ T (H 0)).
    - destruct (live_arm _ _ _ _ _ _ _ _ _ R U W I) as [m H]. exact (lower_types _ _ _ _ _ N _ _ (H 0)).
  Qed.
  Lemma bind_type q op args x t s : (forall st, In st s -> holds q st) -> In (XS (SBind x op args t)) s -> types q x = t.
  Proof. intros H I. exact (settled_type _ _ _ _ _ _ (H _ I 0)). Qed.
  Lemma call_type q id t c args tys st : call_stmt id t c args tys = Some st -> holds q st -> types q (NExpr id) = t.
  Proof.
    destruct c as [i| | |]; cbn [call_stmt]; intros C H.
    - assert (i = ITransmute \/ exists op, st = XS (SBind (NExpr id) (Op op) args t)) as [-> | [op ->]].
      { destruct i; [| | | | | | | | | | | | | |now left| | | | |]; right; destruct (intrinsic_operator _ t tys) as [op|]; try discriminate; injection C as <-; eauto. }
      + destruct args as [|a [|]]; try discriminate. destruct tys as [|ta [|]]; try discriminate. destruct (size t =? size ta); [|discriminate].
        injection C as <-. apply H.
      + exact (settled_type _ _ _ _ _ _ (H 0)).
    - injection C as <-. exact (settled_type _ _ _ _ _ _ (H 0)).
    - injection C as <-. exact (settled_type _ _ _ _ _ _ (H 0)).
    - injection C as <-. apply H.
  Qed.
  Lemma expr_type q u (R : reach q) (U : unit_at q = Some u) : forall e, within (body u) e -> types q (variable e) = to_mir_type (ety e).
  Proof.
    fix IH 1. intros [id t k] W. pose proof (well _ _ U _ W) as N. destruct (live _ _ _ _ _ R U W) as (s & Em & H).
    destruct k; cbn [node_ok emitted variable ety] in *; try (eapply bind_type; eassumption).
    - eapply bound_type; eassumption.
    - exact (proj1 (H _ Em 0)).
    - exact (proj1 (H _ Em 0)).
    - destruct Em as (o & _ & Em). eapply bind_type; eassumption.
    - destruct Em as (o & _ & Em). eapply bind_type; eassumption.
    - destruct Em as (o & _ & Em). eapply bind_type; eassumption.
    - destruct N as [_ N]. destruct Em as [_ Em]. destruct r as [r|].
      + rewrite <- N. apply IH. eapply W_child; [exact W|]. cbn [children]. apply in_or_app. right. now left.
      + subst t. exact (H _ Em).
    - destruct Em as (n0 & s0 & ops & n1 & _ & _ & Em). eapply bind_type; eassumption.
    - destruct Em as (st & C & I). eapply call_type; eauto.
  Qed.

  Notation ev := (ev prog top given start).
  Notation evs := (evs prog top given start).
  Notation first_arm := (first_arm prog top given start).
  Notation rv := (rv prog top given start).
  Definition P_ev q n e v : Prop := reach q -> forall u, unit_at q = Some u -> within (body u) e -> encodes (ety e) v (rho q n (variable e)).
  Definition P_evs q n l vs : Prop := reach q -> forall u, unit_at q = Some u -> (forall e, In e l -> within (body u) e) ->
    Forall3 (map ety l) vs (map (fun e => rho q n (variable e)) l).
  Definition P_arm q n v (arms : list (lpat * option expr * expr)) w : Prop := reach q -> forall u, unit_at q = Some u ->
    (forall p g e, In (p, g, e) arms -> within (body u) e /\ forall g', g = Some g' -> within (body u) g' /\ ety g' = CBool) ->
    exists before p g e after, arms = before ++ (p, g, e) :: after /\
      Forall (fun a => ~ matches (erase (fst (fst a))) v \/ exists g, snd (fst a) = Some g /\ rho q n (variable g) = [B0]) before /\
      matches (erase p) v /\ (forall g', g = Some g' -> rho q n (variable g') = [B1]) /\ encodes (ety e) w (rho q n (variable e)).
  Definition P_rv q n p v : Prop := reach q -> forall u, unit_at q = Some u -> forall c r e, contains (body u) (SRegister p c r e) ->
    encodes (lty p) v (rho q n (value_name p)).

  Lemma bool_bits b w : encodes CBool (VBool b) w -> w = [bit_of_bool b].
  Proof. intros E. inversion E as [| | | | | |? ? I|]; subst. exact I. Qed.
  Lemma result q n id t o args s r v : (forall st, In st s -> holds q st) -> In (XS (SBind (NExpr id) (Op o) args (to_mir_type t))) s ->
    op_value (to_mir_type t) (map (types q) args) o (map (rho q n) args) = Some r -> encodes t v r -> encodes t v (rho q n (NExpr id)).
  Proof. intros H I V E. destruct (H _ I n) as [_ V']. rewrite V in V'. apply Some_inj in V'. now rewrite <- V'. Qed.
  Lemma types_map q u l : reach q -> unit_at q = Some u -> (forall e, In e l -> within (body u) e) ->
    map (types q) (map variable l) = map to_mir_type (map ety l).
  Proof. intros R U W. rewrite !map_map. apply map_ext_in. intros e I. eapply expr_type; eauto. Qed.
  Lemma contains_ok u q st : unit_at q = Some u -> contains (body u) st -> stm_ok st.
  Proof.
    intros U [id t ss r s W I]. pose proof (well _ _ U _ W) as N. cbn [node_ok] in N. destruct N as [N _]. rewrite Forall_forall in N. auto.
  Qed.

  (** Registers. *)
  Lemma reg_step q u p c r e n : reach q -> unit_at q = Some u -> contains (body u) (SRegister p c r e) ->
    lty p = ety e /\ within (body u) c /\ ety c = CBool /\ within (body u) e /\
    (forall trig i, r = Some (trig, i) -> within (body u) trig /\ ety trig = CBool /\ within (body u) i /\ ety i = ety e) /\
    rho q (S n) (value_name p) =
      if posedge (rho q n (variable c)) (rho q (S n) (variable c)) then
        match r with
        | Some (trig, i) => if taken (rho q n (variable trig)) then rho q n (variable i) else rho q n (variable e)
        | None => rho q n (variable e)
        end
      else rho q n (value_name p).
  Proof.
    intros R U C. pose proof (contains_ok _ _ _ U C) as (Tc & [Tp _] & Tr). destruct (live_reg _ _ _ _ _ _ R U C) as [[_ H] _].
    apply lpat_lty in Tp.
    assert (Wc : within (body u) c) by (eapply contains_within; [exact C|now left]).
    assert (We : within (body u) e).
    { eapply contains_within; [exact C|]. cbn [stm_exprs]. right. apply in_or_app. right. now left. }
    assert (Wr : forall trig i, r = Some (trig, i) -> within (body u) trig /\ ety trig = CBool /\ within (body u) i /\ ety i = ety e).
    { intros trig i ->. destruct Tr as [Tt Ti].
      assert (within (body u) trig) by (eapply contains_within; [exact C|]; cbn; auto).
      assert (within (body u) i) by (eapply contains_within; [exact C|]; cbn; auto). auto. }
    assert (A : forall x, within (body u) x -> ety x = ety e -> assigned (size (to_mir_type (lty p))) (rho q n (variable x)) = rho q n (variable x)).
    { intros x Wx Tx. apply assigned_id. pose proof (runs_width _ _ _ _ Run q n (variable x)) as L. unfold has_width in L.
      rewrite (expr_type _ _ R U _ Wx) in L. now rewrite Tp, <- Tx. }
    repeat match goal with |- _ /\ _ => split end; auto.
    rewrite H. destruct (posedge (rho q n (variable c)) (rho q (S n) (variable c))); [|reflexivity].
    destruct r as [[trig i]|]; cbn [option_map fst snd]; [|now apply A]. destruct (Wr _ _ eq_refl) as (_ & _ & Wi & Ti). rewrite !A by auto. reflexivity.
  Qed.

  Scheme ev_m := Minimality for ExprSpec.ev Sort Prop
    with evs_m := Minimality for ExprSpec.evs Sort Prop
    with arm_m := Minimality for ExprSpec.first_arm Sort Prop
    with rv_m := Minimality for ExprSpec.rv Sort Prop.
  Combined Scheme all_ind from ev_m, evs_m, arm_m, rv_m.

  Lemma main : (forall q n e v, ev q n e v -> P_ev q n e v) /\ (forall q n l vs, evs q n l vs -> P_evs q n l vs) /\
    (forall q n v arms w, first_arm q n v arms w -> P_arm q n v arms w) /\ (forall q n p v, rv q n p v -> P_rv q n p v).
  Proof.
    apply (all_ind prog top given start P_ev P_evs P_arm P_rv).
    - (* given *) intros n u id t x v U I G R u' U' W. cbn [ety variable]. exact (proj1 Same u x t n v U I G).
    - (* argument *)
      intros q n u cid ct k args c i x a v id t Rq Uq W Hc Hi Ha _ IH R u' U' W'. cbn [ety variable].
      assert (Wa : within (body u) a) by (eapply W_child; [exact W|]; eapply nth_error_In; exact Ha).
      specialize (IH Rq u Uq Wa). destruct (live _ _ _ _ _ Rq Uq W) as (s & (st & C & I) & H). injection C as <-.
      destruct (H _ I) as (_ & e & He & Q). destruct (Q n) as [Q1 _]. clear Q.
      destruct (compile_nth _ _ _ _ Comp _ _ Hc) as (e' & m & m' & He' & Hg). assert (e' = e) as -> by congruence.
      destruct (unit_inv _ _ _ _ Hg) as (_ & Ei & _). rewrite Ei in Q1.
      apply (f_equal (fun l => nth_error l i)) in Q1. rewrite !nth_error_map, Ha, Hi in Q1. cbn in Q1. injection Q1 as Q1.
      pose proof (well _ _ Uq _ W) as N. cbn [node_ok] in N. destruct N as (c' & Hc' & T & _). assert (c' = c) as -> by congruence.
      apply (f_equal (fun l => nth_error l i)) in T. rewrite !nth_error_map, Ha, Hi in T. cbn in T. injection T as T.
      rewrite <- T, <- Q1. exact IH.
    - (* let *)
      intros q n u p e v x t w id U C _ IH B R u' U' W. assert (u' = u) as -> by congruence. cbn [ety variable].
      destruct (contains_ok _ _ _ U C) as [Tp Rp]. destruct (live_let _ _ _ _ R U C) as [m H].
      assert (We : within (body u) e) by (eapply contains_within; [exact C|now left]).
      rewrite (lpat_lty _ _ Tp) in H. exact (pattern_binds _ _ p (ety e) (variable e) v m Tp Rp (expr_type _ _ R U _ We) (IH R u U We) (H n) x t w B).
    - (* arm *)
      intros q n u mid mt a arms p g e v x t w id U Wm I _ IH M B R u' U' W. assert (u' = u) as -> by congruence. cbn [ety variable].
      pose proof (well _ _ U _ Wm) as N. cbn [node_ok] in N. rewrite Forall_forall in N. destruct (N _ I) as ([Tp Rp] & _).
      destruct (live_arm _ _ _ _ _ _ _ _ _ R U Wm I) as [m H]. assert (Wa : within (body u) a) by (eapply W_child; [exact Wm|now left]).
      rewrite (lpat_lty _ _ Tp) in H. exact (pattern_binds _ _ p (ety a) (variable a) v m Tp Rp (expr_type _ _ R U _ Wa) (IH R u U Wa) (H n) x t w B).
    - (* register *)
      intros q n u p c r e v x t w id U C _ IH B R u' U' W. assert (u' = u) as -> by congruence. cbn [ety variable].
      destruct (contains_ok _ _ _ U C) as (_ & [Tp Rp] & _). destruct (live_reg _ _ _ _ _ _ R U C) as [[T _] [m H]].
      specialize (IH R u U c r e C). rewrite (lpat_lty _ _ Tp) in *. exact (register_binds _ _ p (ety e) v m Tp Rp T IH (H n) x t w B).
    - (* integer *)
      intros q n id t z R u U W. cbn [ety variable]. destruct (live _ _ _ _ _ R U W) as (s & Em & H). destruct (H _ Em n) as [_ ->].
      destruct (well _ _ U _ W) as [T (m & N)]. unfold const_value. rewrite (number_size _ _ N). rewrite const_int_correct by apply N.
      pose proof (number_of_Z _ _ z N) as E. assert (wrap t z = z) as Q; [|now rewrite Q in E].
      destruct N as [Hm [-> | ->]]; cbn [wrap].
      + pose proof (pow2_pred m Hm). assert (B : (- 2 ^ Z.of_nat (m - 1) <= z < 2 ^ Z.of_nat (m - 1))%Z).
        { destruct m as [|k]; [lia|]. replace (S k - 1) with k by lia. now inversion T. }
        rewrite Z.mod_small by lia. lia.
      + apply Z.mod_small. now inversion T.
    - (* boolean *)
      intros q n id t b R u U W. cbn [ety variable]. destruct (live _ _ _ _ _ R U W) as (s & Em & H). destruct (H _ Em n) as [_ ->].
      pose proof (well _ _ U _ W) as N. cbn [node_ok] in N. subst t. change (to_mir_type CBool) with TBool. rewrite const_bool. apply encodes_bool.
    - (* binary *)
      intros q n id t op a b x y z m _ IHa _ IHb Hm V R u U W. cbn [ety variable]. destruct (live _ _ _ _ _ R U W) as (s & (o & O & Em) & H).
      assert (Wa : within (body u) a) by (eapply W_child; [exact W|now left]).
      assert (Wb : within (body u) b) by (eapply W_child; [exact W|right; now left]).
      pose proof (well _ _ U _ W) as N. cbn [node_ok] in N. subst m.
      destruct (bin_correct op (ety a) (ety b) t x y z _ _ o N V (IHa R u U Wa) (IHb R u U Wb) (bin_operator_bop _ _ _ _ O)) as (r & Hr & Er).
      eapply result; [exact H|exact Em| |exact Er]. cbn [map]. rewrite !(expr_type _ _ R U) by auto. exact Hr.
    - (* unary *)
      intros q n id t op a v w _ IHa V R u U W. cbn [ety variable]. destruct (live _ _ _ _ _ R U W) as (s & Em & H). cbn [emitted] in Em.
      assert (Wa : within (body u) a) by (eapply W_child; [exact W|now left]).
      pose proof (well _ _ U _ W) as N. cbn [node_ok] in N.
      destruct (un_correct op (ety a) t v w _ N V (IHa R u U Wa)) as (r & Hr & Er).
      eapply result; [exact H|exact Em| |exact Er]. cbn [map]. rewrite !(expr_type _ _ R U) by auto. exact Hr.
    - (* tuple *)
      intros q n id t l vs _ IH R u U W. cbn [ety variable]. destruct (live _ _ _ _ _ R U W) as (s & Em & H). cbn [emitted] in Em.
      assert (Wl : forall e, In e l -> within (body u) e) by (intros e I; eapply W_child; [exact W|exact I]).
      pose proof (well _ _ U _ W) as N. cbn [node_ok] in N. subst t. destruct (H _ Em n) as [_ V]. rewrite (types_map _ _ _ R U Wl) in V.
      apply LowerSpec.E_tuple with (ws := map (fun e => rho q n (variable e)) l); [exact (IH R u U Wl)|]. rewrite (map_map variable (rho q n)) in V. exact V.
    - (* tuple index *)
      intros q n id t a i vs v _ IHa Hv R u U W. cbn [ety variable]. destruct (live _ _ _ _ _ R U W) as (s & Em & H). cbn [emitted] in Em.
      assert (Wa : within (body u) a) by (eapply W_child; [exact W|now left]).
      pose proof (well _ _ U _ W) as N. cbn [node_ok] in N. destruct N as (ts & Ta & Ht). pose proof (IHa R u U Wa) as Ea. rewrite Ta in Ea.
      destruct (tuple_part _ _ _ _ _ _ Ea Ht Hv) as (r & Hr & Er).
      eapply result; [exact H|exact Em| |exact Er]. cbn [map]. rewrite (expr_type _ _ R U) by auto. rewrite Ta. exact Hr.
    - (* field *)
      intros q n id t a members f i vs v _ IHa Hi Hv R u U W. cbn [ety variable]. destruct (live _ _ _ _ _ R U W) as (s & (j & Hj & Em) & H).
      assert (Wa : within (body u) a) by (eapply W_child; [exact W|now left]).
      pose proof (well _ _ U _ W) as N. cbn [node_ok] in N. destruct N as (ts & i' & Ta & D & L & Hi' & Ht).
      assert (i' = i) as ->.
      { rewrite NoDup_nth_error in D. apply D; [apply nth_error_Some; congruence|congruence]. }
      assert (j = i) as -> by (eapply field_index_nth; eassumption).
      pose proof (IHa R u U Wa) as Ea. rewrite Ta in Ea. destruct (struct_part _ _ _ _ _ _ Ea Ht Hv) as (r & Hr & Er).
      eapply result; [exact H|exact Em| |exact Er]. cbn [map]. rewrite (expr_type _ _ R U) by auto. rewrite Ta. exact Hr.
    - (* cast *)
      intros q n id t a v _ IHa R u U W. cbn [ety variable]. destruct (live _ _ _ _ _ R U W) as (s & Em & H). cbn [emitted] in Em.
      assert (Wa : within (body u) a) by (eapply W_child; [exact W|now left]).
      pose proof (well _ _ U _ W) as N. cbn [node_ok] in N. destruct (H _ Em n) as [_ V]. rewrite V, <- N. exact (IHa R u U Wa).
    - (* array *)
      intros q n id t l vs _ IH R u U W. cbn [ety variable]. destruct (live _ _ _ _ _ R U W) as (s & Em & H). cbn [emitted] in Em.
      assert (Wl : forall e, In e l -> within (body u) e) by (intros e I; eapply W_child; [exact W|exact I]).
      pose proof (well _ _ U _ W) as N. cbn [node_ok] in N. destruct N as (el & -> & Tl). destruct (H _ Em n) as [_ V]. rewrite (types_map _ _ _ R U Wl) in V.
      assert (Q : map ety l = repeat el (length l)) by (clear - Tl; induction Tl; cbn; congruence).
      specialize (IH R u U Wl). rewrite Q in IH, V. rewrite map_repeat' in V. rewrite (map_map variable (rho q n)) in V. econstructor; [exact IH|]. exact V.
    - (* repeat *)
      intros q n id t a k v _ IHa R u U W. cbn [ety variable]. destruct (live _ _ _ _ _ R U W) as (s & Em & H). cbn [emitted] in Em.
      assert (Wa : within (body u) a) by (eapply W_child; [exact W|now left]).
      pose proof (well _ _ U _ W) as N. cbn [node_ok] in N. subst t. destruct (H _ Em n) as [_ V]. rewrite !map_repeat' in V. rewrite (expr_type _ _ R U _ Wa) in V.
      apply LowerSpec.E_array with (ws := repeat (rho q n (variable a)) k); [|exact V].
      pose proof (IHa R u U Wa) as Ea. clear - Ea. induction k; cbn; constructor; auto.
    - (* index *)
      intros q n id t a i vs k v _ IHa _ IHi Hv R u U W. cbn [ety variable]. destruct (live _ _ _ _ _ R U W) as (s & Em & H). cbn [emitted] in Em.
      assert (Wa : within (body u) a) by (eapply W_child; [exact W|now left]).
      assert (Wi : within (body u) i) by (eapply W_child; [exact W|right; now left]).
      pose proof (well _ _ U _ W) as N. cbn [node_ok] in N. destruct N as (m & b & Ta & Rd & Ti).
      pose proof (IHa R u U Wa) as Ea. pose proof (IHi R u U Wi) as Ei. rewrite Ta in Ea, Rd. rewrite Ti in Ei.
      destruct (array_part _ _ _ _ _ _ _ _ Ea Rd Ei Hv) as (r & Hr & Er).
      eapply result; [exact H|exact Em| |exact Er]. cbn [map]. rewrite !(expr_type _ _ R U) by auto. rewrite Ta, Ti. exact Hr.
    - (* range *)
      intros q n id t a from upto vs s0 e0 _ IHa Hs He R u U W. cbn [ety variable]. destruct (live _ _ _ _ _ R U W) as (s & (e1 & He1 & Em) & H).
      assert (Wa : within (body u) a) by (eapply W_child; [exact W|now left]).
      pose proof (well _ _ U _ W) as N. cbn [node_ok] in N. destruct N as (el & m & s2 & e2 & Ta & B & -> & Hs2 & He2).
      pose proof (IHa R u U Wa) as Ea. rewrite Ta in Ea, He1.
      assert (length vs = m) as Lv.
      { destruct (array_parts _ _ _ _ Ea) as (ws & F & _). apply Forall3_lengths in F. rewrite repeat_length in F. lia. }
      assert (e1 = e2 /\ e0 = e2 /\ s0 = s2) as (-> & -> & ->) by (destruct upto; repeat split; congruence).
      rewrite <- Hs2 in Em. destruct (array_range _ _ _ _ _ _ Ea B) as (r & Hr & Er).
      eapply result; [exact H|exact Em| |exact Er]. cbn [map]. rewrite (expr_type _ _ R U) by auto. rewrite Ta. exact Hr.
    - (* block *)
      intros q n id t ss r v _ IH R u U W. cbn [ety variable]. pose proof (well _ _ U _ W) as N. cbn [node_ok] in N. destruct N as [_ N]. rewrite <- N.
      apply (IH R u U). eapply W_child; [exact W|]. cbn [children]. apply in_or_app. right. now left.
    - (* unit *)
      intros q n id t ss R u U W. cbn [ety variable]. pose proof (well _ _ U _ W) as N. cbn [node_ok] in N. destruct N as [_ ->].
      pose proof (expr_type _ _ R U _ W) as T. cbn [variable ety] in T. pose proof (runs_width _ _ _ _ Run q n (NExpr id)) as L. rewrite T in L.
      apply length_zero_iff_nil in L. rewrite L. apply LowerSpec.E_tuple with (ws := []); [constructor|reflexivity].
    - (* then *)
      intros q n id t c a b v _ IHc _ IHa R u U W. cbn [ety variable]. destruct (live _ _ _ _ _ R U W) as (s & Em & H). cbn [emitted] in Em.
      assert (Wc : within (body u) c) by (eapply W_child; [exact W|now left]).
      assert (Wa : within (body u) a) by (eapply W_child; [exact W|right; now left]).
      assert (Wb : within (body u) b) by (eapply W_child; [exact W|right; right; now left]).
      pose proof (well _ _ U _ W) as N. cbn [node_ok] in N. destruct N as (Tc & Ta & Tb).
      pose proof (IHc R u U Wc) as Ec. rewrite Tc in Ec. apply bool_bits in Ec. pose proof (IHa R u U Wa) as Ea. rewrite Ta in Ea.
      eapply result; [exact H|exact Em| |exact Ea]. cbn [map]. rewrite !(expr_type _ _ R U) by auto. rewrite Tc, Ta, Tb, Ec.
      apply (select_value (to_mir_type t) true).
      + pose proof (runs_width _ _ _ _ Run q n (variable a)) as L. now rewrite (expr_type _ _ R U _ Wa), Ta in L.
      + pose proof (runs_width _ _ _ _ Run q n (variable b)) as L. now rewrite (expr_type _ _ R U _ Wb), Tb in L.
    - (* else *)
      intros q n id t c a b v _ IHc _ IHb R u U W. cbn [ety variable]. destruct (live _ _ _ _ _ R U W) as (s & Em & H). cbn [emitted] in Em.
      assert (Wc : within (body u) c) by (eapply W_child; [exact W|now left]).
      assert (Wa : within (body u) a) by (eapply W_child; [exact W|right; now left]).
      assert (Wb : within (body u) b) by (eapply W_child; [exact W|right; right; now left]).
      pose proof (well _ _ U _ W) as N. cbn [node_ok] in N. destruct N as (Tc & Ta & Tb).
      pose proof (IHc R u U Wc) as Ec. rewrite Tc in Ec. apply bool_bits in Ec. pose proof (IHb R u U Wb) as Eb. rewrite Tb in Eb.
      eapply result; [exact H|exact Em| |exact Eb]. cbn [map]. rewrite !(expr_type _ _ R U) by auto. rewrite Tc, Ta, Tb, Ec.
      apply (select_value (to_mir_type t) false).
      + pose proof (runs_width _ _ _ _ Run q n (variable a)) as L. now rewrite (expr_type _ _ R U _ Wa), Ta in L.
      + pose proof (runs_width _ _ _ _ Run q n (variable b)) as L. now rewrite (expr_type _ _ R U _ Wb), Tb in L.
    - (* match *)
      intros q n id t a arms v w _ IHa _ IH R u U W. cbn [ety variable]. destruct (live _ _ _ _ _ R U W) as (s & (n0 & s0 & ops & n1 & L & J & Em) & H).
      assert (Wa : within (body u) a) by (eapply W_child; [exact W|now left]).
      pose proof (well _ _ U _ W) as N. cbn [node_ok] in N. rewrite Forall_forall in N.
      assert (Wi : forall p g e, In (p, g, e) arms -> within (body u) e /\ forall g', g = Some g' -> within (body u) g' /\ ety g' = CBool).
      { intros p g e I. assert (K : forall x, In x (opt g ++ [e]) -> within (body u) x).
        { intros x Ix. eapply W_child; [exact W|]. cbn [children]. right. apply in_flat_map. exists (p, g, e). auto. }
        split; [apply K, in_or_app; right; now left|]. intros g' ->. split; [apply K, in_or_app; left; now left|]. apply (N _ I). }
      destruct (IH R u U Wi) as (before & p & g & e & after & Earms & Hb & M & Hg & Ee). subst arms.
      assert (Ie : In (p, g, e) (before ++ (p, g, e) :: after)) by (apply in_or_app; right; now left).
      destruct (N _ Ie) as ([Tp Rd] & Te & _). rewrite Te in Ee.
      rewrite (match_value (types q) (rho q n) lower_expr (variable a) (to_mir_type t) v (ety a) before p g e after (NExpr id) _ _ _ _ L).
      + exact Ee.
      + intros st I. exact (H _ (J _ I) n).
      + exact (H _ Em n).
      + pose proof (runs_width _ _ _ _ Run q n (NExpr id)) as Lw. pose proof (bind_type _ _ _ _ _ _ H Em) as T. now rewrite T in Lw.
      + exact (encodes_width _ _ _ Ee).
      + exact Rd.
      + exact (expr_type _ _ R U _ Wa).
      + exact (IHa R u U Wa).
      + apply Forall_forall. intros [[p' g'] e'] I. destruct (N _ I) as ([Tp' _] & Te' & Tg'). destruct (Wi _ _ _ I) as [We' Wg']. cbn [fst snd].
        split; [exact Tp'|]. split; [rewrite <- Te'; exact (expr_type _ _ R U _ We')|]. destruct g' as [g'|]; [|exact I0 || exact Logic.I]. cbn [option_map good_guard].
        destruct (Wg' _ eq_refl) as [Wg Tg]. pose proof (expr_type _ _ R U _ Wg) as T. rewrite Tg in T. split; [exact T|].
        pose proof (runs_width _ _ _ _ Run q n (variable g')) as Lw. rewrite T in Lw. unfold has_width in Lw. cbn in Lw.
        destruct (rho q n (variable g')) as [|b [|]]; try discriminate. eauto.
      + exact Hb.
      + exact M.
      + exact Hg.
    - (* intrinsic *)
      intros q n id t i args vs v _ IH V R u U W. cbn [ety variable]. destruct (live _ _ _ _ _ R U W) as (s & (st & C & I) & H).
      assert (Wl : forall e, In e args -> within (body u) e) by (intros e Ie; eapply W_child; [exact W|exact Ie]).
      pose proof (well _ _ U _ W) as N. cbn [node_ok] in N. specialize (IH R u U Wl).
      assert (i = ITransmute \/ i <> ITransmute) as [-> | Ni] by (destruct i; auto; right; discriminate).
      + destruct args as [|a [|]]; try discriminate C. cbn [map] in *. cbn [call_stmt] in C.
        destruct N as (ta & Ta & Sz). injection Ta as <-. rewrite <- Sz, Nat.eqb_refl in C. injection C as <-. destruct (H _ I) as [_ Q].
        rewrite Q, assigned_id.
        * destruct vs as [|v0 [|]]; try contradiction. cbn [intrinsic_value] in V. apply V.
          apply F3_one in IH as (w & Ew & E). now injection Ew as ->.
        * pose proof (runs_width _ _ _ _ Run q n (variable a)) as L. unfold has_width in L. rewrite (expr_type _ _ R U a) in L by (apply Wl; now left). congruence.
      + assert (exists o, intrinsic_operator i (to_mir_type t) (map to_mir_type (map ety args)) = Some o /\ st = XS (SBind (NExpr id) (Op o) (map variable args) (to_mir_type t))) as (o & O & ->).
        { rewrite map_map. cbn [call_stmt] in C. destruct i; try congruence; (destruct (intrinsic_operator _ (to_mir_type t) _) as [o|]; [|discriminate C]; injection C as <-; eauto). }
        destruct (intrinsic_correct i _ t vs v _ o Ni N V IH O) as (r & Hr & Er).
        eapply result; [exact H|exact I| |exact Er]. rewrite (types_map _ _ _ R U Wl), (map_map variable (rho q n)). exact Hr.
    - (* variant *)
      intros q n id t k args vs _ IH R u U W. cbn [ety variable]. destruct (live _ _ _ _ _ R U W) as (s & (st & C & I) & H). injection C as <-.
      assert (Wl : forall e, In e args -> within (body u) e) by (intros e Ie; eapply W_child; [exact W|exact Ie]).
      pose proof (well _ _ U _ W) as N. cbn [node_ok] in N. destruct N as (os & -> & Hk). destruct (H _ I n) as [_ V]. rewrite (types_map _ _ _ R U Wl) in V.
      rewrite (map_map variable (rho q n)) in V. econstructor; [exact Hk|exact (IH R u U Wl)|exact V].
    - (* struct *)
      intros q n id t args vs _ IH R u U W. cbn [ety variable]. destruct (live _ _ _ _ _ R U W) as (s & (st & C & I) & H). injection C as <-.
      assert (Wl : forall e, In e args -> within (body u) e) by (intros e Ie; eapply W_child; [exact W|exact Ie]).
      pose proof (well _ _ U _ W) as N. cbn [node_ok] in N. subst t. destruct (H _ I n) as [_ V]. rewrite (types_map _ _ _ R U Wl) in V.
      rewrite (map_map variable (rho q n)) in V. econstructor; [exact (IH R u U Wl)|exact V].
    - (* call *)
      intros q n id t k args c v Hc _ IH R u U W. cbn [ety variable]. destruct (live _ _ _ _ _ R U W) as (s & (st & C & I) & H). injection C as <-.
      pose proof (well _ _ U _ W) as N. cbn [node_ok] in N. destruct N as (c' & Hc' & _ & Tc). assert (c' = c) as -> by congruence.
      destruct (H _ I) as (_ & e & He & Q). destruct (Q n) as [_ Q2].
      destruct (compile_nth _ _ _ _ Comp _ _ Hc) as (e' & m & m' & He' & Hg). assert (e' = e) as -> by congruence.
      destruct (unit_inv _ _ _ _ Hg) as (_ & _ & Eo). rewrite Q2, Eo, Tc. apply (IH (R_call _ _ _ _ _ _ _ _ R U W) c Hc). constructor.
    - (* nil *) intros q n R u U W. constructor.
    - (* cons *) intros q n e l v vs _ IHe _ IHl R u U W. cbn [map]. constructor; [apply (IHe R u U); apply W; now left|apply (IHl R u U); intros; apply W; now right].
    - (* taken *)
      intros q n v p e r w M _ IH R u U W. exists [], p, None, e, r. destruct (W p None e (or_introl eq_refl)) as [We _].
      split; [reflexivity|]. split; [constructor|]. split; [exact M|]. split; [discriminate|exact (IH R u U We)].
    - (* guarded *)
      intros q n v p g e r w M _ IHg _ IH R u U W. exists [], p, (Some g), e, r. destruct (W p (Some g) e (or_introl eq_refl)) as [We Wg].
      destruct (Wg g eq_refl) as [Wg' Tg]. pose proof (IHg R u U Wg') as Eg. rewrite Tg in Eg. apply bool_bits in Eg.
      split; [reflexivity|]. split; [constructor|]. split; [exact M|]. split; [intros g' Q; injection Q as <-; exact Eg|exact (IH R u U We)].
    - (* other *)
      intros q n v p g e r w M _ IH R u U W. destruct (IH R u U) as (before & p' & g' & e' & after & -> & Hb & K); [intros p1 g1 e1 I1; apply (W p1 g1 e1); now right|].
      exists ((p, g, e) :: before), p', g', e', after. split; [reflexivity|]. split; [|exact K]. constructor; [now left|exact Hb].
    - (* refused *)
      intros q n v p g e r w _ IHg _ IH R u U W. destruct (IH R u U) as (before & p' & g' & e' & after & -> & Hb & K); [intros p1 g1 e1 I1; apply (W p1 g1 e1); now right|].
      exists ((p, Some g, e) :: before), p', g', e', after. split; [reflexivity|]. split; [|exact K]. constructor; [|exact Hb]. right. exists g. split; [reflexivity|].
      destruct (W p (Some g) e (or_introl eq_refl)) as [_ Wg]. destruct (Wg g eq_refl) as [Wg' Tg]. pose proof (IHg R u U Wg') as Eg. rewrite Tg in Eg. exact (bool_bits _ _ Eg).
    - (* start *) intros q p v S R u U c r e C. exact (proj2 Same q p v S).
    - (* reset *)
      intros q n u p c trig i e v U C _ IH1 _ IH2 _ IHt _ IHi R u' U' c' r' e' C'. clear u' U' c' r' e' C'.
      destruct (reg_step _ _ _ _ _ _ n R U C) as (T & Wc & Tc & We & Wr & ->). destruct (Wr _ _ eq_refl) as (Wt & Tt & Wi & Ti).
      pose proof (IH1 R u U Wc) as E1. pose proof (IH2 R u U Wc) as E2. pose proof (IHt R u U Wt) as Et. rewrite Tc in E1, E2. rewrite Tt in Et.
      apply bool_bits in E1, E2, Et. rewrite E1, E2, Et. cbn [bit_of_bool posedge nth taken existsb bit_eqb orb]. rewrite T, <- Ti. exact (IHi R u U Wi).
    - (* next *)
      intros q n u p c r e v U C _ IH1 _ IH2 _ IHt _ IHe R u' U' c' r' e' C'. clear u' U' c' r' e' C'.
      destruct (reg_step _ _ _ _ _ _ n R U C) as (T & Wc & Tc & We & Wr & ->).
      pose proof (IH1 R u U Wc) as E1. pose proof (IH2 R u U Wc) as E2. rewrite Tc in E1, E2. apply bool_bits in E1, E2. rewrite E1, E2.
      cbn [bit_of_bool posedge nth]. rewrite T. destruct r as [[trig i]|]; [|exact (IHe R u U We)]. destruct (Wr _ _ eq_refl) as (Wt & Tt & _).
      pose proof (IHt trig i eq_refl R u U Wt) as Et. rewrite Tt in Et. apply bool_bits in Et. rewrite Et. exact (IHe R u U We).
    - (* hold *)
      intros q n u p c r e v U C _ IH1 _ IHv R u' U' c' r' e' C'. clear u' U' c' r' e' C'.
      destruct (reg_step _ _ _ _ _ _ n R U C) as (T & Wc & Tc & We & Wr & ->).
      pose proof (IH1 R u U Wc) as E1. rewrite Tc in E1. apply bool_bits in E1. rewrite E1. cbn [bit_of_bool posedge nth]. exact (IHv R u U _ _ _ C).
    - (* low *)
      intros q n u p c r e v U C _ IH1 _ IHv R u' U' c' r' e' C'. clear u' U' c' r' e' C'.
      destruct (reg_step _ _ _ _ _ _ n R U C) as (T & Wc & Tc & We & Wr & ->).
      pose proof (IH1 R u U Wc) as E1. rewrite Tc in E1. apply bool_bits in E1. rewrite E1. unfold posedge.
      destruct (nth 0 (rho q n (variable c)) BX); cbn [bit_of_bool nth]; exact (IHv R u U _ _ _ C).
  Qed.
End Main.

(** ** What is accepted *)
Lemma expr_ind' (P : expr -> Prop) : (forall e, (forall c, In c (children e) -> P c) -> P e) -> forall e, P e.
Proof.
  intros H. fix IH 1. intros e. apply H. destruct e as [id t k].
  assert (L : forall A (f : A -> list expr) (l : list A), (forall a, In a l -> forall c, In c (f a) -> P c) -> forall c, In c (flat_map f l) -> P c).
  { intros A f l Q c I. apply in_flat_map in I as (a & Ia & Ic). eauto. }
  destruct k; cbn [children].
  - intros c [].
  - intros c [].
  - intros c [].
  - intros c [<-|[<-|[]]]; apply IH.
  - intros c [<-|[]]; apply IH.
  - induction l as [|a l IHl]; intros c I; [destruct I|destruct I as [<-|I]; [apply IH|exact (IHl c I)]].
  - intros c [<-|[]]; apply IH.
  - intros c [<-|[]]; apply IH.
  - intros c [<-|[]]; apply IH.
  - induction l as [|a l IHl]; intros c I; [destruct I|destruct I as [<-|I]; [apply IH|exact (IHl c I)]].
  - intros c [<-|[]]; apply IH.
  - intros c [<-|[<-|[]]]; apply IH.
  - intros c [<-|[]]; apply IH.
  - assert (S : forall c, In c (flat_map stm_exprs ss) -> P c).
    { induction ss as [|st ss IHs]; intros c I; [destruct I|]. cbn [flat_map] in I. apply in_app_or in I as [I|I]; [|exact (IHs c I)].
      destruct st as [p x|x|p k rs v|x|]; cbn [stm_exprs] in I.
      - destruct I as [<-|[]]; apply IH.
      - destruct I as [<-|[]]; apply IH.
      - destruct I as [<-|I]; [apply IH|]. apply in_app_or in I as [I|[<-|[]]]; [|apply IH]. destruct rs as [[a b]|]; [|destruct I]. destruct I as [<-|[<-|[]]]; apply IH.
      - destruct I as [<-|[]]; apply IH.
      - destruct I. }
    intros c I. apply in_app_or in I as [I|I]; [exact (S c I)|]. destruct r as [r|]; [|destruct I]. destruct I as [<-|[]]. apply IH.
  - intros d [<-|[<-|[<-|[]]]]; apply IH.
  - assert (S : forall c, In c (flat_map (fun arm : lpat * option expr * expr => opt (snd (fst arm)) ++ [snd arm]) arms) -> P c).
    { induction arms as [|[[p g] x] arms IHa]; intros c I; [destruct I|]. cbn [flat_map fst snd] in I. apply in_app_or in I as [I|I]; [|exact (IHa c I)].
      apply in_app_or in I as [I|[<-|[]]]; [|apply IH]. destruct g as [g|]; [|destruct I]. destruct I as [<-|[]]. apply IH. }
    intros c [<-|I]; [apply IH|exact (S c I)].
  - induction args as [|a l IHl]; intros d I; [destruct I|destruct I as [<-|I]; [apply IH|exact (IHl d I)]].
Qed.

Definition succeeds {A} (m : M A) : Prop := forall n, exists a n', m n = Some (a, n').
Lemma succeeds_ret {A} (a : A) : succeeds (ret a).
Proof. intros n. unfold ret. eauto. Qed.
Lemma succeeds_bind {A B} (m : M A) (f : A -> M B) : succeeds m -> (forall a, succeeds (f a)) -> succeeds (bind m f).
Proof. intros Hm Hf n. unfold bind. destruct (Hm n) as (a & n' & ->). apply Hf. Qed.
Lemma succeeds_guard b : b = true -> succeeds (guard b).
Proof. intros ->. apply succeeds_ret. Qed.
Lemma succeeds_lift {A} (g : gen A) : succeeds (lift g).
Proof. intros n. unfold lift. destruct (g n). eauto. Qed.
Lemma succeeds_each {A} (f : A -> M (list xstmt)) l : (forall a, In a l -> succeeds (f a)) -> succeeds (each f l).
Proof.
  induction l as [|a l IH]; intros H; cbn [each]; [apply succeeds_ret|]. apply succeeds_bind; [apply H; now left|]. intros s.
  apply succeeds_bind; [apply IH; intros; apply H; now right|]. intros. apply succeeds_ret.
Qed.
Lemma succeeds_arms f o arms : (forall p g e, In (p, g, e) arms -> succeeds (f e) /\ forall g', g = Some g' -> succeeds (f g')) -> succeeds (lower_arms f o arms).
Proof.
  induction arms as [|[[p g] e] arms IH]; intros H; cbn [lower_arms]; [apply succeeds_ret|]. destruct (H p g e (or_introl eq_refl)) as [He Hg].
  apply succeeds_bind; [apply succeeds_lift|intros s1]. apply succeeds_bind; [destruct g; [now apply Hg|apply succeeds_ret]|intros s2].
  apply succeeds_bind; [intros n; destruct (condition p o (option_map variable g) n) as [[? ?] ?]; eauto|intros [s3 c]].
  apply succeeds_bind; [exact He|intros s4]. apply succeeds_bind; [apply IH; intros p1 g1 e1 I1; apply (H p1 g1 e1); now right|intros [s5 ops]]. apply succeeds_ret.
Qed.

Lemma lpat_pat : forall p t, lpat_type t p -> pat_type t (erase p).
Proof.
  assert (F : forall l, Forall (fun p => forall t, lpat_type t p -> pat_type t (erase p)) l -> forall ts, Forall2 lpat_type ts l -> Forall2 pat_type ts (map erase l)).
  { induction 1 as [|p l Hp Hl IH]; intros ts T; inversion T; subst; cbn; constructor; auto. }
  induction p using lpat_ind'; intros s T; inversion T; subst; cbn [erase]; try (constructor; auto; fail).
  - constructor; [apply map_length|]. match goal with X : Forall (lpat_type _) _ |- _ => rename X into Fl end.
    clear - H Fl. induction H; inversion Fl; subst; cbn; constructor; auto.
  - econstructor; eauto.
Qed.
Lemma always_irrefutable t p : lpat_type t p -> binds_always t p -> irrefutable p = true.
Proof.
  intros T [(id & s & x & ->)|[D C]]; [reflexivity|]. unfold irrefutable, binding_accepted. rewrite (lpat_lty _ _ T).
  destruct (is_trivially_irrefutable (erase p)); [reflexivity|]. rewrite covering_accepted; auto.
  - intros q [Q|[]]. injection Q as <-. now apply lpat_pat.
  - intros v V. exists (erase p). split; [now left|auto].
Qed.
Lemma filter_none {A} (f : A -> bool) l : (forall x, In x l -> f x = false) -> filter f l = [].
Proof. induction l as [|a l IH]; intros H; [reflexivity|]. cbn. rewrite H by now left. apply IH. intros. apply H. now right. Qed.
Lemma field_filter f : forall members i k, NoDup members -> nth_error members i = Some f ->
  filter (fun im => String.eqb (snd im) f) (combine (seq k (length members)) members) = [(k + i, f)].
Proof.
  induction members as [|m members IH]; intros i k D E; [destruct i; discriminate|]. inversion D as [|? ? Ni D']; subst. cbn [length seq combine filter snd].
  destruct i as [|i]; cbn in E.
  - injection E as ->. rewrite String.eqb_refl. replace (k + 0) with k by lia. f_equal. apply filter_none. intros [j y] I. cbn [snd].
    apply in_combine_r in I. apply String.eqb_neq. congruence.
  - assert (N : String.eqb m f = false) by (apply String.eqb_neq; intros ->; apply Ni; eapply nth_error_In; exact E).
    rewrite N. rewrite (IH i (S k) D' E). f_equal. f_equal. lia.
Qed.
Lemma pow2_accepted id t n : n < 128 -> pow2_literal (Ex id t (XInt (2 ^ Z.of_nat n))) = true.
Proof.
  intros H. cbn [pow2_literal]. rewrite Z.log2_pow2, Z.log2_up_pow2, Z.eqb_refl by lia.
  assert (0 < 2 ^ Z.of_nat n)%Z by (apply Z.pow_pos_nonneg; lia). assert (2 ^ Z.of_nat n < 2 ^ 128)%Z by (apply Z.pow_lt_mono_r; lia).
  rewrite (proj2 (Z.ltb_lt _ _)), (proj2 (Z.ltb_lt _ _)) by assumption. reflexivity.
Qed.
Lemma intrinsic_accepted id i t args ns : intrinsic_type i args t -> length ns = length args ->
  exists st, call_stmt id (to_mir_type t) (CIntrinsic i) ns (map to_mir_type args) = Some st.
Proof.
  intros T L. destruct i; cbn [intrinsic_type] in T; cbn [call_stmt intrinsic_operator].
  1,2: destruct T as (a & -> & _ & ->); cbn; eauto.
  1-4: destruct T as (n & -> & ->); cbn; eauto.
  1-4: destruct T as (a & n & [_ [-> | ->]] & -> & ->); cbn; eauto.
  - destruct T as (n & m & B & [[-> ->]|[-> ->]]); cbn [map to_mir_type size]; rewrite (proj2 (Nat.ltb_ge _ _)) by lia; cbn; eauto.
  - destruct T as (n & m & B & -> & ->); cbn [map to_mir_type size]; rewrite (proj2 (Nat.ltb_ge _ _)) by lia; cbn; eauto.
  - destruct T as (n & m & B & -> & ->); cbn [map to_mir_type size]; rewrite (proj2 (Nat.ltb_ge _ _)) by lia; cbn; eauto.
  - destruct T as (n & m & B & B' & [[-> ->]|[-> ->]]); cbn [map to_mir_type size]; rewrite Nat.eqb_refl; cbn; eauto.
  - destruct T as (a & -> & S). destruct ns as [|x [|]]; try discriminate L. cbn [map]. rewrite S, Nat.eqb_refl. eauto.
  - destruct T as (n & _ & -> & ->); cbn; eauto.
  - destruct T as (n & _ & -> & ->); cbn; eauto.
  - destruct T as (n & _ & -> & ->); cbn; eauto.
  - destruct T as ((n & _ & [-> | ->]) & ->); cbn; eauto.
  - destruct T as ((n & _ & [-> | ->]) & ->); cbn; eauto.
Qed.
Lemma lower_accepted prog u : forall e, (forall x, within e x -> node_ok prog u x /\ node_sound x) -> succeeds (lower_expr e).
Proof.
  induction e as [e IH] using expr_ind'. intros H. destruct (H e (W_self e)) as [N S].
  assert (C : forall c, In c (children e) -> succeeds (lower_expr c)).
  { intros c I. apply (IH c I). intros x W. apply H. eapply within_trans; [|exact W]. eapply W_child; [constructor|exact I]. }
  clear IH H. destruct e as [id t k]; destruct k; cbn [children node_ok node_sound] in *; cbn [lower_expr].
  - apply succeeds_ret.
  - apply succeeds_ret.
  - apply succeeds_ret.
  - assert (exists o, bin_operator op a b = Some o) as [o ->].
    { unfold bin_operator. destruct op; cbn [bin_type] in N; eauto.
      1,2: destruct N as (n & _ & [(-> & _)|(-> & _)]); cbn; eauto.
      - destruct N as (n & m & _ & _ & [(-> & _)|(-> & _)]); cbn; eauto.
      - destruct S as (i & s & n & -> & Hn). rewrite pow2_accepted by exact Hn. destruct N as (-> & _ & n' & _ & [-> | ->]); cbn; eauto.
      - destruct S as (i & s & n & -> & Hn). rewrite pow2_accepted by exact Hn. destruct N as (-> & _ & n' & _ & [-> | ->]); cbn; eauto. }
    apply succeeds_bind; [apply C; now left|intros]. apply succeeds_bind; [apply C; right; now left|intros]. apply succeeds_ret.
  - apply succeeds_bind; [apply C; now left|intros]. apply succeeds_ret.
  - apply succeeds_bind; [now apply succeeds_each|intros]. apply succeeds_ret.
  - apply succeeds_bind; [apply C; now left|intros]. apply succeeds_ret.
  - apply succeeds_bind; [apply C; now left|intros]. destruct N as (ts & i & _ & D & _ & Hi & _). unfold field_index. rewrite (field_filter f members i 0 D Hi). apply succeeds_ret.
  - apply succeeds_bind; [apply C; now left|intros]. apply succeeds_ret.
  - apply succeeds_bind; [now apply succeeds_each|intros]. apply succeeds_ret.
  - apply succeeds_bind; [apply C; now left|intros]. apply succeeds_ret.
  - apply succeeds_bind; [apply C; now left|intros]. apply succeeds_bind; [apply C; right; now left|intros]. apply succeeds_ret.
  - apply succeeds_bind; [apply C; now left|intros]. destruct N as (el & n & s0 & e0 & -> & _). destruct e; apply succeeds_ret.
  - destruct N as [N _]. apply succeeds_bind.
    + apply succeeds_each. intros st I. rewrite Forall_forall in N, S. specialize (N st I). specialize (S st I).
      assert (Cs : forall c, In c (stm_exprs st) -> succeeds (lower_expr c)) by (intros c Ic; apply C, in_or_app; left; apply in_flat_map; eauto).
      destruct st as [p x|x|p ck rs v|x|]; cbn [lower_stm stm_ok stm_sound stm_exprs] in *.
      * apply succeeds_bind; [apply Cs; now left|intros]. destruct N as [T _]. apply succeeds_bind; [apply succeeds_guard; eapply always_irrefutable; eassumption|intros].
        apply succeeds_bind; [apply succeeds_lift|intros]. apply succeeds_ret.
      * apply succeeds_bind; [apply Cs; now left|intros]. rewrite S. apply succeeds_bind; [now apply succeeds_guard|intros]. apply succeeds_ret.
      * destruct N as (_ & [T _] & _). apply succeeds_bind; [apply Cs; now left|intros].
        apply succeeds_bind.
        { destruct rs as [[tr ini]|]; [|apply succeeds_ret]. cbn [lower_opt fst snd]. apply succeeds_bind; [apply Cs; cbn; auto|intros ?].
          apply succeeds_bind; [apply Cs; cbn; auto|intros ?]. apply succeeds_ret. }
        intros. apply succeeds_bind; [apply Cs; right; apply in_or_app; right; now left|intros].
        apply succeeds_bind; [apply succeeds_guard; eapply always_irrefutable; eassumption|intros].
        apply succeeds_bind; [apply succeeds_lift|intros]. apply succeeds_ret.
      * apply succeeds_bind; [apply Cs; now left|intros]. apply succeeds_ret.
      * apply succeeds_ret.
    + intros. destruct r as [r|]; [|apply succeeds_ret]. apply succeeds_bind; [apply C, in_or_app; right; now left|intros]. apply succeeds_ret.
  - apply succeeds_bind; [apply C; now left|intros]. apply succeeds_bind; [apply C; right; now left|intros]. apply succeeds_bind; [apply C; right; right; now left|intros]. apply succeeds_ret.
  - destruct S as [D S]. rewrite Forall_forall in N. apply succeeds_bind.
    { apply succeeds_guard. unfold exhaustive. rewrite covering_accepted; auto.
      - intros p I. apply in_map_iff in I as ([[q g] x] & E & I). cbn [fst snd] in E. destruct g; [discriminate|]. injection E as <-.
        apply lpat_pat. apply (N _ I).
      - intros v V. destruct (S v V) as (p & r & I & M). exists (erase p). split; [|exact M]. apply in_map_iff. exists (p, None, r). auto. }
    intros. apply succeeds_bind; [apply C; now left|intros]. apply succeeds_bind; [|intros [? ?]; apply succeeds_ret].
    apply succeeds_arms. intros p g x I. assert (K : forall y, In y (opt g ++ [x]) -> succeeds (lower_expr y)).
    { intros y Iy. apply C. right. apply in_flat_map. exists (p, g, x). auto. }
    split; [apply K, in_or_app; right; now left|]. intros g' ->. apply K, in_or_app. left. now left.
  - apply succeeds_bind; [now apply succeeds_each|intros].
    assert (exists st, call_stmt id (to_mir_type t) c (map variable args) (map (fun a => to_mir_type (ety a)) args) = Some st) as [st ->]; [|apply succeeds_ret].
    destruct c as [i| | |]; try (cbn; eauto; fail). rewrite <- (map_map ety to_mir_type). apply intrinsic_accepted; [exact N|]. now rewrite !map_length.
Qed.
Lemma compile_accepted prog units : (forall u, In u units -> well_typed prog u /\ forall e, within (body u) e -> node_sound e) -> succeeds (compile units).
Proof.
  induction units as [|u units IH]; intros H; cbn [compile]; [apply succeeds_ret|]. apply succeeds_bind.
  - unfold generate_unit. apply succeeds_bind; [|intros; apply succeeds_ret]. destruct (H u (or_introl eq_refl)) as [W S]. apply (lower_accepted prog u). intros x Wx. split; auto.
  - intros e. apply succeeds_bind; [apply IH; intros; apply H; now right|intros; apply succeeds_ret].
Qed.
