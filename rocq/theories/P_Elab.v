(** C53: programs the type checker accepts compile to hardware that computes what
    they say.  C52 gives the types, C51 the rest; models in [TypingModel],
    [ElabModel] and [ExprModel]. *)
From Coq Require Import List ZArith Bool Arith String Lia.
From Verif Require Import InferModel InferSpec InferNum TypingModel TypingSpec TypingProofs TypingTop ElabModel ElabSpec ElabShown ElabProofs ElabShownProofs BitsFacts P_Typing.
From Verif Require PatModel PatSpec LowerModel LowerSpec CodegenModel CodegenSpec Bits RegSpec ExprModel ExprSpec ExprProofs P_Expr.
Import ListNotations.
Local Open Scope list_scope.

(** The unit [u] passes the type checker, every type left open is chosen, and [e] is
    what lowering sees of it. *)
Definition checked_as (C : context) (fuel num int_ uint_ bool_ clock_ : nat) (arity : nat -> nat) (structs : nat -> option struct_)
    (heads : nat -> option head) (decls : nat -> option (nat * decl)) (member_name : nat -> string) (callee_of : nat -> option ExprModel.callee)
    (u : hunit) (e : ExprModel.unit_) : Prop :=
  exists gl s val depth,
    ordinary (no_bypass heads) no_declared_at (hu_body u) = true /\
    typecheck C fuel num int_ uint_ bool_ clock_ arity structs heads u = Some (gl, s) /\
    completes num int_ uint_ arity structs s val /\
    elab_unit decls depth member_name callee_of (recorded s val) (map val gl) u = Some e.
(** Every name is bound in its unit: name resolution (C31, C47). *)
Definition scoped (e : ExprModel.unit_) : Prop :=
  forall id t x, ExprSpec.within (ExprModel.body e) (ExprModel.Ex id t (ExprModel.XName x)) -> exists s, ExprSpec.bound e x s.

(** Checked units that lowering accepts are well typed as C51 asks. *)
Theorem C53_well_typed_partial : forall C fuel num int_ uint_ bool_ clock_ arity structs heads decls member_name callee_of units prog c ents c',
  surroundings C num int_ uint_ bool_ clock_ arity heads ->
  declared int_ uint_ bool_ clock_ decls structs heads member_name callee_of units ->
  Forall2 (checked_as C fuel num int_ uint_ bool_ clock_ arity structs heads decls member_name callee_of) units prog ->
  (forall e, In e prog -> scoped e /\ forall x, ExprSpec.within (ExprModel.body e) x -> careful x) ->
  ExprModel.compile prog c = Some (ents, c') ->
  forall e, In e prog -> ExprSpec.well_typed prog e.
Proof.
  intros C fuel num int_ uint_ bool_ clock_ arity structs heads decls member_name callee_of units prog c ents c' SU DE CH OK CO e I.
  assert (TYPES : forall k u, nth_error units k = Some u -> hu_metas u = [] -> exists c, nth_error prog k = Some c /\
    Forall2 (fun i x => exists t, means arity [] (snd i) t /\ is_conc decls t (CT (snd x))) (hu_inputs u) (ExprModel.inputs c) /\
    exists t, match hu_output u with Some o => means arity [] o t | None => t = TK BTuple [] end /\ is_conc decls t (CT (ExprModel.ety (ExprModel.body c)))).
  { assert (NTH : forall k u, nth_error units k = Some u -> exists c, nth_error prog k = Some c /\
      checked_as C fuel num int_ uint_ bool_ clock_ arity structs heads decls member_name callee_of u c).
    { clear - CH. induction CH as [|u0 e0 us es H CH IH]; intros [|k] u N; cbn in *; try discriminate; eauto. apply Some_inj in N. subst. eauto. }
    intros k u N M. destruct (NTH _ _ N) as (ec & NC & gl & s & val & depth & OR & TY & CM & EL). exists ec. split; auto.
    eapply unit_interface; eauto. eapply C52_well_typed_partial; eauto. }
  assert (U : exists u, checked_as C fuel num int_ uint_ bool_ clock_ arity structs heads decls member_name callee_of u e).
  { clear - CH I. induction CH; [destruct I|]. destruct I as [<-|I]; eauto. }
  destruct U as (u & gl & s & val & depth & OR & TY & CM & EL). destruct (OK e I) as [SC CF].
  eapply unit_typed; [exact DE | exact TYPES | eapply C52_well_typed_partial; eauto | exact EL | | exact SC].
  intros x W. split; [apply CF; auto|]. intros id t cl args ->.
  apply In_nth_error in I as [k N]. destruct (ExprProofs.compile_nth _ _ _ _ CO _ _ N) as (en & m & m' & He & Hg).
  destruct (ExprProofs.unit_inv _ _ _ _ Hg) as ([n0 L] & _). destruct (ExprProofs.within_lowered _ _ W _ _ _ L) as (n1 & s1 & n2 & L' & _).
  cbn [ExprModel.lower_expr] in L'. unfold ExprModel.bind in L'. destruct (ExprModel.each ExprModel.lower_expr args n1) as [[sa n3]|]; [|discriminate].
  destruct (ExprModel.call_stmt _ _ _ _ _); [discriminate|]. discriminate.
Qed.
Print Assumptions C53_well_typed_partial.

(** So the hardware shows on its output, at every instant, the value of the body of
    the top unit. *)
Theorem C53_output_partial : forall C fuel num int_ uint_ bool_ clock_ arity structs heads decls member_name callee_of units prog c ents c' top given start types rho,
  surroundings C num int_ uint_ bool_ clock_ arity heads ->
  declared int_ uint_ bool_ clock_ decls structs heads member_name callee_of units ->
  Forall2 (checked_as C fuel num int_ uint_ bool_ clock_ arity structs heads decls member_name callee_of) units prog ->
  (forall e, In e prog -> scoped e /\ forall x, ExprSpec.within (ExprModel.body e) x -> careful x) ->
  ExprModel.compile prog c = Some (ents, c') ->
  ExprSpec.runs ents top types rho -> ExprSpec.same_inputs prog top given start rho ->
  forall u en n v, nth_error prog top = Some u -> nth_error ents top = Some en -> ExprSpec.ev prog top given start [] n (ExprModel.body u) v ->
    ExprModel.en_output_type en = LowerModel.to_mir_type (ExprModel.ety (ExprModel.body u)) /\
    LowerSpec.encodes (ExprModel.ety (ExprModel.body u)) v (rho [] n (ExprModel.en_output en)).
Proof.
  intros C fuel num int_ uint_ bool_ clock_ arity structs heads decls member_name callee_of units prog c ents c' top given start types rho SU DE CH OK CO RU SA.
  apply (P_Expr.C51_output prog top ents given start types rho). constructor; eauto. eapply C53_well_typed_partial; eauto.
Qed.
Print Assumptions C53_output_partial.

(** What lowering sees of a checked unit is that unit: every part with the type found for
    it and nothing added, dropped or exchanged. *)
Theorem C53_same_unit : forall C fuel num int_ uint_ bool_ clock_ arity structs heads decls member_name callee_of u e,
  checked_as C fuel num int_ uint_ bool_ clock_ arity structs heads decls member_name callee_of u e ->
  exists gl s val, typecheck C fuel num int_ uint_ bool_ clock_ arity structs heads u = Some (gl, s) /\
    completes num int_ uint_ arity structs s val /\
    shows_unit decls member_name callee_of (recorded s val) (map val gl) u e.
Proof.
  intros C fuel num int_ uint_ bool_ clock_ arity structs heads decls member_name callee_of u e (gl & s & val & depth & _ & T & CM & E).
  exists gl, s, val. split; [exact T|]. split; [exact CM|]. eapply elab_unit_shows; eauto.
Qed.
Print Assumptions C53_same_unit.

(** ** A program
    [struct P<T> { lo: T, hi: T }]
    [fn step(x: uint<2>) -> uint<2> { match x { 3 => 0, y => trunc(y + 1) } }]
    [entity count(clk: clock, rst: bool, load: Option<uint<2>>) -> P<uint<2>> {
       reg(clk) c reset(rst: 3) = match load { Some(v) => v, None => step(c) };
       let p = P(c, 1);
       P(p.hi, p.lo)
     }] *)
Definition x_decls (d : nat) : option (nat * decl) :=
  match d with
  | 0 => Some (1, DPrim Signed) | 1 => Some (1, DPrim Unsigned) | 2 => Some (0, DPrim Boolean) | 3 => Some (0, DPrim Clock)
  | 4 => Some (1, DEnum [[]; [TSGeneric 0]])
  | 5 => Some (1, DStruct [(0, TSGeneric 0); (1, TSGeneric 0)])
  | _ => None
  end.
Definition x_structs (d : nat) : option struct_ := match d with 5 => Some [(0, TSGeneric 0); (1, TSGeneric 0)] | _ => None end.
Definition x_arity (d : nat) : nat := match d with 0 | 1 | 4 | 5 => 1 | _ => 0 end.
Definition x_member (f : nat) : string := match f with 0 => "lo"%string | _ => "hi"%string end.
Definition u2s : tspec := TSNamed 1 [TSInt 2].
Definition x_heads (f : nat) : option head :=
  match f with
  | 0 => Some (intrinsic_head 0 1 2 ExprModel.ITrunc)
  | 1 => Some (Head [] [] [] [u2s] (Some u2s) SpNone)
  | 2 => Some (Head [MType] [] [] [] (Some (self_spec 4 1)) SpNone)
  | 3 => Some (Head [MType] [] [] [TSGeneric 0] (Some (self_spec 4 1)) SpNone)
  | 4 => Some (Head [MType] [] [] [TSGeneric 0; TSGeneric 0] (Some (self_spec 5 1)) SpNone)
  | _ => None
  end.
Definition x_callee (f : nat) : option ExprModel.callee :=
  match f with
  | 0 => Some (ExprModel.CIntrinsic ExprModel.ITrunc) | 1 => Some (ExprModel.CUnit 0)
  | 2 => Some (ExprModel.CVariant 0) | 3 => Some (ExprModel.CVariant 1) | 4 => Some ExprModel.CStructInst
  | _ => None
  end.
Definition x_step : hunit := HUnit [] [] [(0, u2s)] (Some u2s)
  (HX 0 (HMatch (HX 1 (HName 0))
    [(HP 2 (PInt 3), None, HX 3 (HInt 0 LUnsized));
     (HP 4 (PBound 1 false None), None, HX 5 (HCall 0 None [HX 6 (HBin ExprModel.BAdd (HX 7 (HName 1)) (HX 8 (HInt 1 LUnsized)))]))])).
Definition x_count : hunit := HUnit [] [] [(2, TSNamed 3 []); (3, TSNamed 2 []); (4, TSNamed 4 [u2s])] (Some (TSNamed 5 [u2s]))
  (HX 10 (HBlock
    [HReg (HP 11 (PBound 5 false None)) None (HX 12 (HName 2))
       (HX 13 (HMatch (HX 14 (HName 4))
          [(HP 15 (PType 3 [HP 16 (PBound 6 false None)]), None, HX 17 (HName 6));
           (HP 18 (PType 2 []), None, HX 19 (HCall 1 None [HX 20 (HName 5)]))]))
       (Some (HX 21 (HName 3), HX 22 (HInt 3 LUnsized))) None;
     HLet (HP 23 (PBound 7 false None)) None (HX 24 (HCall 4 None [HX 25 (HName 5); HX 26 (HInt 1 LUnsized)]))]
    (Some (HX 27 (HCall 4 None [HX 28 (HField (HX 29 (HName 7)) 1); HX 30 (HField (HX 31 (HName 7)) 0)]))))).
Definition x_check (u : hunit) : option (glist * tst) := typecheck ctx 200 7 0 1 2 3 x_arity x_structs x_heads u.
Definition r_step := Eval vm_compute in x_check x_step.
Definition r_count := Eval vm_compute in x_check x_count.
(** [entity hold(clk: clock, rst: bool) -> uint<2> {
       reg(clk) c reset(rst: 3) = step(c);
       assert true;
       c
     }] *)
Definition x_hold : hunit := HUnit [] [] [(2, TSNamed 3 []); (3, TSNamed 2 [])] (Some u2s)
  (HX 10 (HBlock
    [HReg (HP 11 (PBound 4 false None)) None (HX 12 (HName 2)) (HX 15 (HCall 1 None [HX 16 (HName 4)]))
       (Some (HX 13 (HName 3), HX 14 (HInt 3 LUnsized))) None;
     HAssert (HX 18 (HBool true))]
    (Some (HX 17 (HName 4))))).
Definition r_hold := Eval vm_compute in x_check x_hold.

(** The types found, where nothing is left open *)
Fixpoint groundb (t : ty) : bool :=
  match t with TK b l => (if scalar b then match l with [] => true | _ => false end else true) && forallb groundb l | _ => false end.
Lemma groundb_ok : forall t, groundb t = true -> ground t.
Proof.
  fix IH 1. intros [b l|v]; cbn; try discriminate. intros H. apply andb_prop in H as [A B]. constructor.
  - intros S. rewrite S in A. destruct l; [reflexivity | discriminate].
  - revert B. clear A. induction l as [|t l IHl]; cbn; intros B; constructor; apply andb_prop in B as [B1 B2]; [apply IH | apply IHl]; assumption.
Qed.
Definition found (s : tst) (k : key) : option ty :=
  match List.find (fun e => key_eqb (fst e) k) (eqs s) with
  | Some e => match tree_of 50 (inf s) (snd e) with Some t => if groundb t then Some t else None | None => None end
  | None => None
  end.
Lemma x_around : surroundings ctx 7 0 1 2 3 x_arity x_heads.
Proof.
  constructor.
  - reflexivity.
  - intros b im. destruct b as [[|[|n]]|z|q|q| | | | |]; cbn; try contradiction; intros [<-|[]] _; auto.
  - repeat split; discriminate.
  - split; reflexivity.
  - intros f h H. assert (hd_bounds h = []) as E by (do 5 (destruct f as [|f]; [cbn in H; apply Some_inj in H; subst h; reflexivity|]); discriminate).
    unfold head_ok. rewrite E. cbn. split; [tauto|]. split; [constructor|]. split; [constructor|]. auto.
Qed.
Lemma x_declared u : hu_metas u = [] -> hu_inputs u <> [] -> Forall (fun i => explicit (snd i) = true) (hu_inputs u) -> (forall o, hu_output u = Some o -> explicit o = true) ->
  declared 0 1 2 3 x_decls x_structs x_heads x_member x_callee [x_step; u].
Proof.
  intros _ _ E1 E2. constructor; try reflexivity.
  - intros d ms H. do 5 (destruct d as [|d]; [discriminate|]). destruct d; [|discriminate]. cbn in H. apply Some_inj in H. subst. exists 1. reflexivity.
  - intros d k ms H. do 5 (destruct d as [|d]; [discriminate|]). destruct d; [|discriminate]. cbn in H. apply Some_inj in H. inversion H. cbn. repeat constructor; cbn; intuition discriminate.
  - intros f c h A B. destruct f as [|[|[|[|[|f]]]]]; cbn in A, B; try discriminate; apply Some_inj in A; apply Some_inj in B; subst; cbn.
    + reflexivity.
    + exists x_step. repeat split.
    + exists 4, [[]; [TSGeneric 0]]. repeat split.
    + exists 4, [[]; [TSGeneric 0]]. repeat split.
    + exists 5, [(0, TSGeneric 0); (1, TSGeneric 0)]. repeat split.
  - intros v [<-|[<-|[]]]; [|split; assumption]. split; [repeat constructor|]. intros o H. cbn in H. apply Some_inj in H. subst. reflexivity.
Qed.
Lemma x_checked u s e : x_check u = Some ([], s) -> ordinary (no_bypass x_heads) no_declared_at (hu_body u) = true ->
  cons (inf s) = [] -> reqs s = [] ->
  forallb (fun v => match tree_of 50 (inf s) v with Some _ => true | None => false end) (seq 0 (List.length (vars (inf s)))) = true ->
  elab_unit x_decls 50 x_member x_callee (found s) [] u = Some e ->
  checked_as ctx 200 7 0 1 2 3 x_arity x_structs x_heads x_decls x_member x_callee u e.
Proof.
  intros H OK CN RQ TR EL.
  destruct (C52_completion_partial ctx 200 7 0 1 2 3 x_arity x_structs x_heads u [] s
    (fun v => match nth_error (vars (inf s)) v with Some (Unknown _ m) => by_kind m | _ => TK BTuple [] end)
    (fun _ => true) x_around OK H CN RQ) as (val & CO & _ & WT).
  - apply (all_trees 50). exact TR.
  - intros v. destruct (nth_error (vars (inf s)) v) as [[b l|t m]|]; try (constructor; [discriminate | constructor]).
    apply by_kind_ok.
  - intros v m N. rewrite N. apply by_kind_ok.
  - exists [], s, val, 50. split; [assumption|]. split; [assumption|]. split; [assumption|].
    eapply elab_unit_more; [|exact EL]. intros k t. unfold found, recorded. destruct (List.find _ (eqs s)) as [x|]; [|discriminate].
    destruct (tree_of 50 (inf s) (snd x)) as [t'|] eqn:T; [|discriminate]. destruct (groundb t') eqn:G; [|discriminate]. intros X. apply Some_inj in X. subst. f_equal.
    eapply C52_found; [exact CO | apply (tree_of_ok 50); exact T | apply groundb_ok; exact G].
Qed.
Lemma step_checked : checked_as ctx 200 7 0 1 2 3 x_arity x_structs x_heads x_decls x_member x_callee x_step P_Expr.step_unit.
Proof. apply (x_checked _ (state_of r_step)); vm_compute; reflexivity. Qed.
Lemma hold_checked : checked_as ctx 200 7 0 1 2 3 x_arity x_structs x_heads x_decls x_member x_callee x_hold P_Expr.count_unit.
Proof. apply (x_checked _ (state_of r_hold)); vm_compute; reflexivity. Qed.
Definition count_e : ExprModel.unit_ := Eval vm_compute in match elab_unit x_decls 50 x_member x_callee (found (state_of r_count)) [] x_count with Some e => e | None => P_Expr.step_unit end.
Lemma count_checked : checked_as ctx 200 7 0 1 2 3 x_arity x_structs x_heads x_decls x_member x_callee x_count count_e.
Proof. apply (x_checked _ (state_of r_count)); vm_compute; reflexivity. Qed.
Definition x_opt : PatModel.cty := PatModel.CEnum [[]; [PatModel.CUint 2]].
Definition x_pair : PatModel.cty := PatModel.CStruct [PatModel.CUint 2; PatModel.CUint 2].
Fixpoint nodes (n : nat) (e : ExprModel.expr) : list ExprModel.expr :=
  match n with 0 => [] | S n => e :: flat_map (nodes n) (ExprSpec.children e) end.
Lemma x_positive t : In t [PatModel.CUint 2; PatModel.CUint 3; PatModel.CBool; x_opt; x_pair] -> positive t /\ LowerSpec.readable t.
Proof. intros I. repeat (destruct I as [<-|I]; [split; repeat constructor; cbn; try lia; discriminate|]). destruct I. Qed.
Ltac all_nodes n u H := let L := eval vm_compute in (nodes n (ExprModel.body u)) in
  match goal with W : ExprSpec.within _ ?e |- _ =>
    assert (H : In e L); [clear - W; let c := fresh "c" in let IH := fresh "IH" in let I := fresh "I" in induction W as [|? c W IH I]; [now left|]; repeat (destruct IH as [<-|IH]; [cbn in I; cbn; tauto|]); destruct IH|]
  end.
Lemma step_fine : scoped P_Expr.step_unit /\ forall x, ExprSpec.within (ExprModel.body P_Expr.step_unit) x -> careful x.
Proof.
  split.
  - intros id t x W. remember (ExprModel.Ex id t (ExprModel.XName x)) as e eqn:E. 
    all_nodes 6 P_Expr.step_unit Hin. assert (x = 0 \/ x = 1) as [-> | ->].
    { repeat (destruct Hin as [<-|Hin]; [try discriminate; injection E; intuition|]). destruct Hin. }
    + eexists. apply ExprSpec.BO_input. now left.
    + eexists. eapply ExprSpec.BO_arm; [constructor | right; left; reflexivity | constructor].
  - intros e W. all_nodes 6 P_Expr.step_unit Hin.
    assert (PR : positive (ExprModel.ety e) /\ LowerSpec.readable (ExprModel.ety e)).
    { apply x_positive. repeat (destruct Hin as [<-|Hin]; [cbn; tauto|]). destruct Hin. }
    split; [apply PR|]. split; [apply PR|]. repeat (destruct Hin as [<-|Hin]; [cbn; exact Logic.I|]). destruct Hin.
Qed.
Lemma hold_fine : scoped P_Expr.count_unit /\ forall x, ExprSpec.within (ExprModel.body P_Expr.count_unit) x -> careful x.
Proof.
  split.
  - intros id t x W. remember (ExprModel.Ex id t (ExprModel.XName x)) as e eqn:E. 
    all_nodes 6 P_Expr.count_unit Hin. assert (x = 2 \/ x = 3 \/ x = 4) as [-> | [-> | ->]].
    { repeat (destruct Hin as [<-|Hin]; [try discriminate; injection E; intuition|]). destruct Hin. }
    + eexists. apply ExprSpec.BO_input. now left.
    + eexists. apply ExprSpec.BO_input. right. now left.
    + eexists. eapply ExprSpec.BO_reg; [econstructor; [constructor | now left] | constructor].
  - intros e W. all_nodes 6 P_Expr.count_unit Hin.
    assert (PR : positive (ExprModel.ety e) /\ LowerSpec.readable (ExprModel.ety e)).
    { apply x_positive. repeat (destruct Hin as [<-|Hin]; [cbn; tauto|]). destruct Hin. }
    split; [apply PR|]. split; [apply PR|]. repeat (destruct Hin as [<-|Hin]; [cbn; exact Logic.I|]). destruct Hin.
Qed.
Lemma count_fine : scoped count_e /\ forall x, ExprSpec.within (ExprModel.body count_e) x -> careful x.
Proof.
  split.
  - intros id t x W. remember (ExprModel.Ex id t (ExprModel.XName x)) as e eqn:E. 
    all_nodes 8 count_e Hin. assert (In x [2; 3; 4; 5; 6; 7]) as I.
    { repeat (destruct Hin as [<-|Hin]; [try discriminate; injection E; cbn; intuition|]). destruct Hin. }
    destruct I as [<-|[<-|[<-|[<-|[<-|[<-|[]]]]]]].
    + eexists. apply ExprSpec.BO_input. now left.
    + eexists. apply ExprSpec.BO_input. right. now left.
    + eexists. apply ExprSpec.BO_input. right. right. now left.
    + eexists. eapply ExprSpec.BO_reg; [econstructor; [constructor | now left] | constructor].
    + eexists. eapply ExprSpec.BO_arm; [eapply ExprSpec.W_child; [constructor | cbn; right; right; right; left; reflexivity] | now left | eapply ExprSpec.PN_variant; [now left | constructor]].
    + eexists. eapply ExprSpec.BO_let; [econstructor; [constructor | right; now left] | constructor].
  - intros e W. all_nodes 8 count_e Hin.
    assert (PR : positive (ExprModel.ety e) /\ LowerSpec.readable (ExprModel.ety e)).
    { apply x_positive. repeat (destruct Hin as [<-|Hin]; [cbn; tauto|]). destruct Hin. }
    split; [apply PR|]. split; [apply PR|]. repeat (destruct Hin as [<-|Hin]; [cbn; exact Logic.I|]). destruct Hin.
Qed.
(** Both programs pass the checker and compile; the second, run with a reset every
    third cycle, counts. *)
Example C53_nontrivial :
  (exists ents c', ExprModel.compile [P_Expr.step_unit; count_e] 40 = Some (ents, c') /\
    Forall2 (checked_as ctx 200 7 0 1 2 3 x_arity x_structs x_heads x_decls x_member x_callee) [x_step; x_count] [P_Expr.step_unit; count_e] /\
    ExprSpec.well_typed [P_Expr.step_unit; count_e] count_e) /\
  Forall2 (checked_as ctx 200 7 0 1 2 3 x_arity x_structs x_heads x_decls x_member x_callee) [x_step; x_hold] P_Expr.count_prog /\
  (forall n, LowerSpec.encodes (PatModel.CUint 2) (PatSpec.VInt (P_Expr.c_at (n mod 6))) (P_Expr.count_rho [] n (LowerModel.NName 4))).
Proof.
  assert (A : Forall2 (checked_as ctx 200 7 0 1 2 3 x_arity x_structs x_heads x_decls x_member x_callee) [x_step; x_count] [P_Expr.step_unit; count_e])
    by (repeat constructor; [apply step_checked | apply count_checked]).
  assert (B : Forall2 (checked_as ctx 200 7 0 1 2 3 x_arity x_structs x_heads x_decls x_member x_callee) [x_step; x_hold] P_Expr.count_prog)
    by (repeat constructor; [apply step_checked | apply hold_checked]).
  split; [|split; [exact B|]].
  - destruct (ExprModel.compile [P_Expr.step_unit; count_e] 40) as [[ents c']|] eqn:CO; [|vm_compute in CO; discriminate].
    exists ents, c'. split; [reflexivity|]. split; [exact A|].
    refine (C53_well_typed_partial ctx 200 7 0 1 2 3 x_arity x_structs x_heads x_decls x_member x_callee [x_step; x_count] _ 40 _ _ x_around _ A _ CO count_e _).
    + apply x_declared; try discriminate; [reflexivity | repeat constructor |]. intros o H. cbn in H. apply Some_inj in H. subst. reflexivity.
    + intros e [<-|[<-|[]]]; [apply step_fine | apply count_fine].
    + right. now left.
  - intros n.
    refine (proj2 (C53_output_partial ctx 200 7 0 1 2 3 x_arity x_structs x_heads x_decls x_member x_callee [x_step; x_hold] P_Expr.count_prog 20 _ _ 1 _ _ _ _ x_around _ B _ P_Expr.count_compiles P_Expr.count_runs P_Expr.count_same
      P_Expr.count_unit (nth 1 P_Expr.count_ents (ExprModel.Entity [] (LowerModel.NName 0) CodegenModel.TBool [])) n _ eq_refl eq_refl _)).
    + apply x_declared; try discriminate; [reflexivity | repeat constructor |]. intros o H. cbn in H. apply Some_inj in H. subst. reflexivity.
    + intros e [<-|[<-|[]]]; [apply step_fine | apply hold_fine].
    + apply ExprSpec.E_block, P_Expr.count_name, P_Expr.count_values.
Qed.
Print Assumptions C53_nontrivial.
