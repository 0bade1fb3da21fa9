(** C51: a compiled unit computes what its source says. *)
From Coq Require Import ZArith List Bool Arith String Lia.
From Verif Require Import Bits Verilog CodegenModel CodegenSpec PatModel PatSpec PatProofs LowerModel LowerSpec RegSpec ExprModel ExprSpec ExprProofs ExprNames.
Import ListNotations.
Local Open Scope list_scope.

(** The program [prog] is lowered to [ents] and the hardware runs, with [prog]'s unit
    number [top] at the top and fed what the source is fed. *)
Record compiled_run (prog : list unit_) (top : nat) (ents : list entity) (given : nat -> nat -> val -> Prop)
    (start : path -> lpat -> val -> Prop) (types : path -> mname -> ty) (rho : path -> nat -> mname -> bits) : Prop := {
  cr_compiled : exists c c', compile prog c = Some (ents, c');
  cr_typed : forall u, In u prog -> well_typed prog u;
  cr_runs : runs ents top types rho;
  cr_same : same_inputs prog top given start rho }.

(** The signal of each expression, in each instance and at each instant, carries the
    value of the expression. *)
Theorem C51_expressions : forall prog top ents given start types rho,
  compiled_run prog top ents given start types rho ->
  forall q n u e v, reach prog top q -> unit_at prog top q = Some u -> within (body u) e ->
    ev prog top given start q n e v -> encodes (ety e) v (rho q n (variable e)) /\ types q (variable e) = to_mir_type (ety e).
Proof.
  intros prog top ents given start types rho [(c & c' & C) T R S] q n u e v Rq U W E. split.
  - exact (proj1 (main _ _ _ _ _ _ _ _ _ C T R S) q n e v E Rq u U W).
  - exact (expr_type _ _ _ _ _ _ _ C T R q u Rq U e W).
Qed.
Print Assumptions C51_expressions.
(** The output of the design is the value of the body of its top unit. *)
Theorem C51_output : forall prog top ents given start types rho,
  compiled_run prog top ents given start types rho ->
  forall u en n v, nth_error prog top = Some u -> nth_error ents top = Some en -> ev prog top given start [] n (body u) v ->
    en_output_type en = to_mir_type (ety (body u)) /\ encodes (ety (body u)) v (rho [] n (en_output en)).
Proof.
  intros prog top ents given start types rho R u en n v U En E. pose proof (C51_expressions _ _ _ _ _ _ _ R [] n u (body u) v (R_top _ _) U (W_self _) E) as [K _].
  destruct (cr_compiled _ _ _ _ _ _ _ R) as (c & c' & C). destruct (compile_nth _ _ _ _ C _ _ U) as (e & m & m' & He & Hg). rewrite He in En. injection En as ->.
  unfold generate_unit in Hg. destruct (bind_inv _ _ _ _ Hg) as (s & n1 & _ & D). injection D as <- _. auto.
Qed.
Print Assumptions C51_output.
(** A register has the value the source gives it. *)
Theorem C51_registers : forall prog top ents given start types rho,
  compiled_run prog top ents given start types rho ->
  forall q n u p c r e v, reach prog top q -> unit_at prog top q = Some u -> contains (body u) (SRegister p c r e) ->
    rv prog top given start q n p v -> encodes (lty p) v (rho q n (value_name p)).
Proof.
  intros prog top ents given start types rho [(c & c' & C) T R S] q n u p ck r e v Rq U K E.
  exact (proj2 (proj2 (proj2 (main _ _ _ _ _ _ _ _ _ C T R S))) q n p v E Rq u U ck r e K).
Qed.
Print Assumptions C51_registers.
(** Each assertion is there, and what it watches is its condition. *)
Theorem C51_assertions : forall prog top ents given start types rho,
  compiled_run prog top ents given start types rho ->
  forall q n u e b, reach prog top q -> unit_at prog top q = Some u -> contains (body u) (SAssert e) -> ev prog top given start q n e (VBool b) ->
    exists en x, entity_at ents top q = Some en /\ In (XAssert x) (en_stmts en) /\ is_bool (rho q n x) b.
Proof.
  intros prog top ents given start types rho R q n u e b Rq U K E.
  assert (W : within (body u) e) by (apply (contains_within _ _ _ K); now left).
  destruct (C51_expressions _ _ _ _ _ _ _ R _ _ _ _ _ Rq U W E) as [V _].
  destruct (cr_compiled _ _ _ _ _ _ _ R) as (c & c' & C). destruct (compile_nth _ _ _ _ C _ _ U) as (en & m & m' & He & Hg). destruct (unit_inv _ _ _ _ Hg) as ([n0 L] & _).
  destruct (contains_lowered _ _ K _ _ _ L) as (n1 & s1 & n2 & L' & I). cbn [lower_stm] in L'. destruct (bind_inv _ _ _ _ L') as (s & n3 & _ & D). injection D as <- _.
  exists en, (variable e). split; [exact He|]. split; [apply I, in_or_app; right; now left|].
  assert (T : ety e = CBool). { inversion K; subst. pose proof (cr_typed _ _ _ _ _ _ _ R u (nth_error_In _ _ U) _ H) as N. cbn in N. destruct N as [N _]. rewrite Forall_forall in N. exact (N _ H0). }
  rewrite T in V. now inversion V.
Qed.
Print Assumptions C51_assertions.

(** Good programs are not refused, whatever the ids handed out before. *)
Theorem C51_accepted : forall prog c,
  (forall u, In u prog -> well_typed prog u /\ forall e, within (body u) e -> node_sound e) ->
  exists ents c', compile prog c = Some (ents, c').
Proof. intros prog c H. exact (compile_accepted prog prog H c). Qed.
Print Assumptions C51_accepted.
(** What an accepted program can be relied on: division by literal powers of two, matches
    without integer literals that cover every value, no value thrown away. *)
Theorem C51_refusals : forall prog c ents c' u, compile prog c = Some (ents, c') -> In u prog -> well_typed prog u ->
  (forall id t op a b, within (body u) (Ex id t (XBin op a b)) -> op = BDiv \/ op = BMod -> exists i s k, b = Ex i s (XInt (2 ^ k)) /\ (0 <= k < 128)%Z) /\
  (forall id t a arms, within (body u) (Ex id t (XMatch a arms)) -> data_type (ety a) -> (forall p e, In (p, None, e) arms -> literal_free (erase p)) ->
     forall v, has_type (ety a) v -> exists p e, In (p, None, e) arms /\ matches (erase p) v) /\
  (forall e, contains (body u) (SExpr e) -> to_mir_type (ety e) = TTuple []).
Proof.
  intros prog c ents c' u C Iu T. apply In_nth_error in Iu as [k U]. destruct (compile_nth _ _ _ _ C _ _ U) as (en & m & m' & He & Hg). destruct (unit_inv _ _ _ _ Hg) as ([n0 L] & _).
  split; [|split].
  - intros id t op a b W O. destruct (within_lowered _ _ W _ _ _ L) as (n1 & s1 & n2 & L' & I). cbn [lower_expr] in L'.
    assert (P : pow2_literal b = true) by (destruct O as [->| ->]; unfold bin_operator in L'; destruct (pow2_literal b); auto; discriminate).
    destruct b as [i s kd]. destruct kd; try discriminate. cbn in P. apply andb_true_iff in P as [P P3]. apply andb_true_iff in P as [P1 P2].
    apply Z.ltb_lt in P1, P2. apply Z.eqb_eq in P3. exists i, s, (Z.log2 z).
    assert (E : z = (2 ^ Z.log2 z)%Z). { destruct (Z.log2_log2_up_exact z P1) as [H _]. destruct (H P3) as [b E]. rewrite E at 2. rewrite Z.log2_pow2; [exact E|]. destruct (Z.le_gt_cases 0 b); auto. rewrite Z.pow_neg_r in E by lia. lia. }
    split; [now rewrite <- E|]. split; [apply Z.log2_nonneg|]. apply Z.log2_lt_pow2; auto.
  - intros id t a arms W D Lf v Hv. destruct (within_lowered _ _ W _ _ _ L) as (n1 & s1 & n2 & L' & I). cbn [lower_expr] in L'. destruct (bind_inv _ _ _ _ L') as (g & n3 & G & _).
    unfold guard, exhaustive in G. destruct (match_witnesses _ _) as [[|]|] eqn:M; try discriminate. pose proof (T _ W) as N. cbn [node_ok] in N. rewrite Forall_forall in N.
    assert (Src : forall p, In (p, false) (map (fun a => (erase (fst (fst a)), match snd (fst a) with Some _ => true | None => false end)) arms) -> exists q e, In (q, None, e) arms /\ p = erase q).
    { intros p J. apply in_map_iff in J as ([[q o] e] & E & J). cbn in E. destruct o; [discriminate|]. injection E as <-. eauto. }
    match type of M with match_witnesses _ ?l = _ => assert (Ty : forall p, In (p, false) l -> pat_type (ety a) p /\ literal_free p) end.
    { intros p J. destruct (Src p J) as (q & e & K & ->). split; [|eauto]. destruct (N _ K) as ((Q & _) & _). apply lpat_pat; assumption. }
    destruct (exhaustive_literal_free _ _ D Ty M v Hv) as (p & J & Mp).
    destruct (Src p J) as (q & e & K & ->). eauto.
  - intros e K. destruct (contains_lowered _ _ K _ _ _ L) as (n1 & s1 & n2 & L' & I). cbn [lower_stm] in L'. destruct (bind_inv _ _ _ _ L') as (s & n3 & _ & D). destruct (bind_inv _ _ _ _ D) as (g & n4 & G & _).
    unfold guard in G. destruct (to_mir_type (ety e)); try discriminate. match goal with |- TTuple ?l = _ => destruct l; [reflexivity|discriminate] end.
Qed.
Print Assumptions C51_refusals.

(** Distinct names in, distinct names out: when the ids and variables of a unit are
    distinct and below the counter, no signal of its entity has two drivers. *)
Theorem C51_single_driver : forall prog c ents c', compile prog c = Some (ents, c') ->
  (forall u, In u prog -> NoDup (map (fun i => NName (fst i)) (inputs u) ++ names (body u)) /\ (forall k, In (NExpr k) (names (body u)) -> k < c)) ->
  forall en, In en ents -> NoDup (map fst (en_inputs en) ++ flat_map drives (en_stmts en)).
Proof.
  induction prog as [|u prog IH]; intros c ents c' C H en I; cbn [compile] in C.
  - injection C as <- _. destruct I.
  - destruct (bind_inv _ _ _ _ C) as (e & n1 & G & C'). destruct (bind_inv _ _ _ _ C') as (es & n2 & C2 & D). injection D as <- _.
    destruct (H u (or_introl eq_refl)) as [N B]. destruct I as [<-|I].
    + exact (unit_drivers _ _ _ _ G N B).
    + apply (IH _ _ _ C2); auto. intros u' I'. destruct (H u' (or_intror I')) as [N' B']. split; auto. intros k K. pose proof (unit_counter _ _ _ _ G). specialize (B' k K). lia.
Qed.
Print Assumptions C51_single_driver.
(** Nothing dangles: every signal that is read is an input or has a driver. *)
Theorem C51_no_dangling : forall prog c ents c', compile prog c = Some (ents, c') -> (forall u, In u prog -> well_typed prog u) ->
  forall en x, In en ents -> x = en_output en \/ In x (flat_map reads (en_stmts en)) -> In x (map fst (en_inputs en)) \/ In x (flat_map drives (en_stmts en)).
Proof.
  intros prog c ents c' C T en x I X. apply in_app_or.
  assert (K : exists u m m', In u prog /\ generate_unit u m = Some (en, m')).
  { clear T X. revert c ents c' C I. induction prog as [|u prog IH]; intros c ents c' C I; cbn [compile] in C.
    - injection C as <- _. destruct I.
    - destruct (bind_inv _ _ _ _ C) as (e & n1 & G & C'). destruct (bind_inv _ _ _ _ C') as (es & n2 & C2 & D). injection D as <- _.
      destruct I as [<-|I]; [exists u, c, n1; split; auto; now left|]. destruct (IH _ _ _ C2 I) as (u' & m & m' & I' & G'). exists u', m, m'. split; auto. now right. }
  destruct K as (u & m & m' & Iu & G). apply (unit_signals _ _ _ _ _ (T u Iu) G). destruct X as [->|X]; [now left|now right].
Qed.
Print Assumptions C51_no_dangling.

(** ** Example
    [fn step(x: uint<2>) -> uint<2> { match x { 3 => 0, y => trunc(y + 1) } }]
    [entity count(clk, rst) -> uint<2> { reg(clk) c reset(rst: 3) = step(c); assert true; c }] *)
Definition u2 := CUint 2.
Definition step_unit : unit_ := Unit [(0, u2)] (Ex 0 u2 (XMatch (Ex 1 u2 (XName 0))
  [(LPat 2 u2 (KInteger 3), None, Ex 3 u2 (XInt 0));
   (LPat 4 u2 (KBound 1 None), None, Ex 5 u2 (XCall (CIntrinsic ITrunc) [Ex 6 (CUint 3) (XBin BAdd (Ex 7 u2 (XName 1)) (Ex 8 u2 (XInt 1)))]))])).
Definition call_step : expr := Ex 15 u2 (XCall (CUnit 0) [Ex 16 u2 (XName 4)]).
Definition count_reg : lpat := LPat 11 u2 (KBound 4 None).
Definition count_stm : stm := SRegister count_reg (Ex 12 CBool (XName 2)) (Some (Ex 13 CBool (XName 3), Ex 14 u2 (XInt 3))) call_step.
Definition count_unit : unit_ := Unit [(2, CBool); (3, CBool)] (Ex 10 u2 (XBlock [count_stm; SAssert (Ex 18 CBool (XBool true))] (Some (Ex 17 u2 (XName 4))))).
Definition count_prog : list unit_ := [step_unit; count_unit].
Definition count_ents : list entity := match compile count_prog 20 with Some (e, _) => e | None => [] end.
(** The clock is high in odd instants and there is a reset every third cycle. *)
Definition clk_at (k : nat) : bool := Nat.odd k.
Definition rst_at (k : nat) : bool := k =? 2.
Definition c_at (k : nat) : Z := nth k [0; 1; 1; 3; 3; 0]%Z 0%Z.
Definition count_given (n x : nat) (v : val) : Prop :=
  (x = 2 /\ v = VBool (clk_at (n mod 6))) \/ (x = 3 /\ v = VBool (rst_at (n mod 6))).
Definition count_start (q : path) (p : lpat) (v : val) : Prop := q = [] /\ p = count_reg /\ v = VInt 0.
Definition count_types (q : path) (x : mname) : ty :=
  match q, x with
  | [], (NExpr (14 | 15) | NName 4) => TUInt 2
  | [], (NExpr 18 | NName (2 | 3)) => TBool
  | [_], (NExpr (0 | 2 | 3 | 5 | 8 | 21) | NName (0 | 1)) => TUInt 2
  | [_], NExpr 6 => TUInt 3
  | [_], NExpr (20 | 22) => TBool
  | _, _ => TTuple []
  end.
Definition num (n : nat) (z : Z) : bits := const_value (TUInt n) (KInt z).
Definition flag (b : bool) : bits := [bit_of_bool b].
Definition stepped (z : Z) : Z := ((z + 1) mod 4)%Z.
Definition count_table (q : path) (k : nat) (x : mname) : bits :=
  match q, x with
  | [], NName 2 => flag (clk_at k)
  | [], NName 3 => flag (rst_at k)
  | [], NExpr 18 => flag true
  | [], NName 4 => num 2 (c_at k)
  | [], NExpr 14 => num 2 3
  | [], NExpr 15 => num 2 (stepped (c_at k))
  | [_], (NName (0 | 1) | NExpr 2) => num 2 (c_at k)
  | [_], NExpr 21 => num 2 3
  | [_], NExpr 20 => flag (c_at k =? 3)%Z
  | [_], NExpr 3 => num 2 0
  | [_], NExpr 22 => flag true
  | [_], NExpr 8 => num 2 1
  | [_], NExpr 6 => num 3 (c_at k + 1)
  | [_], (NExpr 5 | NExpr 0) => num 2 (stepped (c_at k))
  | _, _ => []
  end.
Definition count_rho (q : path) (n : nat) : mname -> bits := count_table q (n mod 6).

Lemma six n : exists k, k < 6 /\ n mod 6 = k /\ S n mod 6 = (S k) mod 6.
Proof.
  exists (n mod 6). split; [apply Nat.mod_upper_bound; lia|]. split; [reflexivity|]. change (S n) with (1 + n). change (S (n mod 6)) with (1 + n mod 6).
  rewrite (Nat.add_mod 1 n) by lia. rewrite (Nat.add_mod 1 (n mod 6)) by lia. rewrite Nat.mod_mod by lia. reflexivity.
Qed.
Ltac by_six n := let k := fresh "k" in let L := fresh "L" in let A := fresh "A" in let B := fresh "B" in
  destruct (six n) as (k & L & A & B); unfold count_rho, count_given in *; rewrite ?A, ?B in *; clear A B;
  destruct k as [|[|[|[|[|[|k]]]]]]; [| | | | | |lia]; clear L.
Lemma count_compiles : compile count_prog 20 = Some (count_ents, 23).
Proof. vm_compute. reflexivity. Qed.
Lemma count_typed u : In u count_prog -> well_typed count_prog u.
Proof.
  intros I e W.
  destruct I as [<-|[<-|[]]].
  - assert (Hin : In e [body step_unit; Ex 1 u2 (XName 0); Ex 3 u2 (XInt 0); Ex 5 u2 (XCall (CIntrinsic ITrunc) [Ex 6 (CUint 3) (XBin BAdd (Ex 7 u2 (XName 1)) (Ex 8 u2 (XInt 1)))]);
        Ex 6 (CUint 3) (XBin BAdd (Ex 7 u2 (XName 1)) (Ex 8 u2 (XInt 1))); Ex 7 u2 (XName 1); Ex 8 u2 (XInt 1)]).
    { induction W as [|e c W IH I]; [now left|]. repeat (destruct IH as [<-|IH]; [cbn in I; cbn; tauto|]). destruct IH. }
    repeat (destruct Hin as [<-|Hin]; [cbn|]); [| | | | | | |destruct Hin].
    + repeat constructor; cbn; lia.
    + apply BO_input. now left.
    + split; [constructor; cbn; lia|]. exists 2. split; [lia|now right].
    + exists 3, 2. split; [lia|]. right. split; reflexivity.
    + exists 2. split; [lia|]. right. repeat split.
    + eapply BO_arm; [constructor|right; left; reflexivity|]. constructor.
    + split; [constructor; cbn; lia|]. exists 2. split; [lia|now right].
  - assert (Hin : In e [body count_unit; Ex 12 CBool (XName 2); Ex 13 CBool (XName 3); Ex 14 u2 (XInt 3); call_step; Ex 16 u2 (XName 4); Ex 18 CBool (XBool true); Ex 17 u2 (XName 4)]).
    { induction W as [|e c W IH I]; [now left|]. repeat (destruct IH as [<-|IH]; [cbn in I; cbn; tauto|]). destruct IH. }
    assert (B : bound count_unit 4 u2).
    { eapply BO_reg with (p := count_reg); [|constructor]. econstructor; [constructor|]. now left. }
    repeat (destruct Hin as [<-|Hin]; [cbn|]); [| | | | | | | |destruct Hin].
    + split; [|reflexivity]. repeat constructor.
    + apply BO_input. now left.
    + apply BO_input. right. now left.
    + split; [constructor; cbn; lia|]. exists 2. split; [lia|now right].
    + exists step_unit. repeat split.
    + exact B.
    + reflexivity.
    + exact B.
Qed.
Lemma count_placed q : placed count_ents 1 q -> q = [] \/ q = [(15, 0)].
Proof.
  induction 1 as [|q e id k args t P IH E I]; [now left|]. right. destruct IH as [->| ->]; vm_compute in E; injection E as <-.
  - cbn [en_stmts In] in I. repeat destruct I as [I|I]; try discriminate I; try contradiction. injection I as <- <- _ _. reflexivity.
  - cbn [en_stmts In] in I. repeat destruct I as [I|I]; try discriminate I; contradiction.
Qed.
Lemma count_runs : runs count_ents 1 count_types count_rho.
Proof.
  constructor.
  - intros q n x. by_six n; destruct q as [|a [|b q]]; destruct x as [i|i]; try reflexivity;
      do 23 (destruct i as [|i]; [vm_compute; reflexivity|]); vm_compute; reflexivity.
  - intros q e x t P E I. destruct (count_placed q P) as [->| ->]; vm_compute in E; injection E as <-; cbn [en_inputs In] in I;
      repeat destruct I as [I|I]; try contradiction; injection I as <- <-; reflexivity.
  - intros q e s P E I. destruct (count_placed q P) as [->| ->]; vm_compute in E; injection E as <-; cbn [en_stmts In] in I;
      repeat destruct I as [<-|I]; try contradiction; cbn [holds].
    all: try exact Logic.I.
    all: try (intros n; by_six n; vm_compute; split; reflexivity).
    + split; [reflexivity|]. eexists. split; [vm_compute; reflexivity|]. intros n. by_six n; vm_compute; split; reflexivity.
    + split; [reflexivity|]. intros n. by_six n; vm_compute; reflexivity.
Qed.
Lemma count_same : same_inputs count_prog 1 count_given count_start count_rho.
Proof.
  split.
  - intros u x t n v U I G. vm_compute in U. injection U as <-. cbn [inputs In] in I. destruct I as [I|[I|[]]]; injection I as <- <-; destruct G as [[E ->]|[E ->]]; try discriminate; constructor; reflexivity.
  - intros q p v (-> & -> & ->). constructor. split; reflexivity.
Qed.
Lemma count_run : compiled_run count_prog 1 count_ents count_given count_start count_types count_rho.
Proof. constructor; [exists 20, 23; exact count_compiles|exact count_typed|exact count_runs|exact count_same]. Qed.
Notation cev := (ev count_prog 1 count_given count_start).
Notation crv := (rv count_prog 1 count_given count_start).
Lemma count_contains : contains (body count_unit) count_stm.
Proof. econstructor; [constructor|now left]. Qed.
Lemma count_clock n : cev [] n (Ex 12 CBool (XName 2)) (VBool (clk_at (n mod 6))).
Proof. eapply E_given; [reflexivity|now left|left; auto]. Qed.
Lemma count_reset n : cev [] n (Ex 13 CBool (XName 3)) (VBool (rst_at (n mod 6))).
Proof. eapply E_given; [reflexivity|right; now left|right; auto]. Qed.
Lemma count_name n z id : crv [] n count_reg (VInt z) -> cev [] n (Ex id u2 (XName 4)) (VInt z).
Proof. intros R. eapply E_register; [reflexivity|exact count_contains|exact R|constructor]. Qed.
Lemma count_call n z : (0 <= z < 4)%Z -> crv [] n count_reg (VInt z) -> cev [] n call_step (VInt (stepped z)).
Proof.
  intros B R. eapply E_call; [reflexivity|]. cbn [body step_unit].
  assert (X : forall id, cev [(15, 0)] n (Ex id u2 (XName 0)) (VInt z)).
  { intros id. apply (E_argument count_prog 1 count_given count_start [] n count_unit 15 u2 0 [Ex 16 u2 (XName 4)] step_unit 0 0 (Ex 16 u2 (XName 4)));
      [constructor|reflexivity| |reflexivity|reflexivity|reflexivity|now apply count_name].
    eapply W_child; [constructor|]. right. right. right. now left. }
  eapply E_match; [apply X|]. destruct (Z.eq_dec z 3) as [->|N].
  - apply A_taken; [constructor; reflexivity|]. constructor.
  - apply A_other; [intros M; inversion M; subst; cbn in *; congruence|]. apply A_taken; [constructor|].
    eapply E_intrinsic; [constructor; [|constructor]|exists (z + 1)%Z; split; reflexivity].
    eapply E_bin; [|constructor|reflexivity|reflexivity].
    eapply E_arm; [reflexivity|constructor|right; left; reflexivity|apply X|constructor|constructor].
Qed.
Lemma count_values : forall n, crv [] n count_reg (VInt (c_at (n mod 6))).
Proof.
  induction n as [|n IH]; [constructor; repeat split|].
  pose proof (count_clock n) as C0. pose proof (count_clock (S n)) as C1. pose proof (count_reset n) as R0. pose proof (count_call n) as V.
  destruct (six n) as (k & L & A & B). rewrite ?A, ?B in *. clear A B. destruct k as [|[|[|[|[|[|k]]]]]]; [| | | | | |lia]; clear L.
  - eapply R_next; [reflexivity|exact count_contains|exact C0|exact C1|intros t i [= <- <-]; exact R0|]. refine (V (c_at 0) _ IH). cbn; lia.
  - eapply R_hold; [reflexivity|exact count_contains|exact C0|exact IH].
  - eapply R_reset; [reflexivity|exact count_contains|exact C0|exact C1|exact R0|constructor].
  - eapply R_hold; [reflexivity|exact count_contains|exact C0|exact IH].
  - eapply R_next; [reflexivity|exact count_contains|exact C0|exact C1|intros t i [= <- <-]; exact R0|]. refine (V (c_at 4) _ IH). cbn; lia.
  - eapply R_hold; [reflexivity|exact count_contains|exact C0|exact IH].
Qed.
(** The counter compiles, runs for ever, and its source gives its output a value in
    every instant; the other hypotheses are met as well. *)
Example C51_nontrivial :
  compiled_run count_prog 1 count_ents count_given count_start count_types count_rho /\
  (forall n, cev [] n (body count_unit) (VInt (c_at (n mod 6)))) /\
  (forall n, encodes u2 (VInt (c_at (n mod 6))) (count_rho [] n (NName 4))) /\
  reach count_prog 1 [(15, 0)] /\ contains (body count_unit) (SAssert (Ex 18 CBool (XBool true))) /\
  (forall u, In u count_prog -> forall e, within (body u) e -> node_sound e) /\
  (forall u, In u count_prog -> NoDup (map (fun i => NName (fst i)) (inputs u) ++ names (body u)) /\ (forall k, In (NExpr k) (names (body u)) -> k < 20)).
Proof.
  assert (V : forall n, cev [] n (body count_unit) (VInt (c_at (n mod 6)))) by (intros n; apply E_block, count_name, count_values).
  split; [exact count_run|]. split; [exact V|]. split.
  { intros n. exact (proj2 (C51_output _ _ _ _ _ _ _ count_run count_unit (nth 1 count_ents (Entity [] (NName 0) TBool [])) n _ eq_refl eq_refl (V n))). }
  split. { apply (R_call count_prog 1 [] count_unit 15 u2 0 [Ex 16 u2 (XName 4)]); [constructor|reflexivity|]. eapply W_child; [constructor|]. right. right. right. now left. }
  split. { econstructor; [constructor|]. right. now left. }
  split.
  - intros u [<-|[<-|[]]] e W.
    + assert (Hin : In e [body step_unit; Ex 1 u2 (XName 0); Ex 3 u2 (XInt 0); Ex 5 u2 (XCall (CIntrinsic ITrunc) [Ex 6 (CUint 3) (XBin BAdd (Ex 7 u2 (XName 1)) (Ex 8 u2 (XInt 1)))]);
        Ex 6 (CUint 3) (XBin BAdd (Ex 7 u2 (XName 1)) (Ex 8 u2 (XInt 1))); Ex 7 u2 (XName 1); Ex 8 u2 (XInt 1)]).
      { induction W as [|e c W IH I]; [now left|]. repeat (destruct IH as [<-|IH]; [cbn in I; cbn; tauto|]). destruct IH. }
      repeat (destruct Hin as [<-|Hin]; [cbn [node_sound body step_unit]; try exact Logic.I|]); [|destruct Hin]. split; [repeat constructor|].
      intros v _. exists (LPat 4 u2 (KBound 1 None)). eexists. split; [right; left; reflexivity|]. constructor.
    + assert (Hin : In e [body count_unit; Ex 12 CBool (XName 2); Ex 13 CBool (XName 3); Ex 14 u2 (XInt 3); call_step; Ex 16 u2 (XName 4); Ex 18 CBool (XBool true); Ex 17 u2 (XName 4)]).
      { induction W as [|e c W IH I]; [now left|]. repeat (destruct IH as [<-|IH]; [cbn in I; cbn; tauto|]). destruct IH. }
      repeat (destruct Hin as [<-|Hin]; [cbn [node_sound body count_unit call_step]; try exact Logic.I|]); [|destruct Hin].
      constructor; [|constructor; [exact Logic.I|constructor]]. left. unfold count_reg. eauto.
  - intros u [<-|[<-|[]]]; split; cbn.
    + repeat constructor; cbn; intuition discriminate.
    + intros k I. repeat (destruct I as [I|I]; [try discriminate; injection I as <-; lia|]). destruct I.
    + repeat constructor; cbn; intuition discriminate.
    + intros k I. repeat (destruct I as [I|I]; [try discriminate; injection I as <-; lia|]). destruct I.
Qed.
