(** C52: units the type checker accepts are well typed.  Specification in
    [TypingSpec], model in [TypingModel]. *)
From Coq Require Import List ZArith Bool Arith Lia.
From Verif Require Import InferModel InferSpec InferNum TypingModel TypingSpec TypingProofs TypingTop BitsFacts.
From Verif Require ExprModel.
Import ListNotations.

(** What is assumed of the program around the unit: all names of types are declared;
    the only implementations of [Number<N>] are those for [int<N>] and [uint<N>], as
    in core/ops.spade; these have one parameter; [bool] and [clock] are other types;
    heads as [head_ok] says. *)
Record surroundings (C : context) (num int_ uint_ bool_ clock_ : nat) (arity : nat -> nat)
    (heads : nat -> option head) : Prop := {
  su_declared : forall x, sym C x = SDeclared;
  su_numbers : forall b im, In im (impls C b) -> im_name im = num ->
    im = mkImpl num [([], MUint)] [TmV 0] [TmV 0] /\ (b = BNamed int_ \/ b = BNamed uint_);
  su_others : bool_ <> int_ /\ bool_ <> uint_ /\ clock_ <> int_ /\ clock_ <> uint_;
  su_arity : arity int_ = 1 /\ arity uint_ = 1;
  su_heads : forall f h, heads f = Some h -> head_ok h
}.

(** The types recorded for an accepted unit, with any choice of types for what is
    left open, make every name, expression, pattern and statement of it well typed. *)
Theorem C52_well_typed_partial : forall C fuel num int_ uint_ bool_ clock_ arity structs heads u gl s val,
  surroundings C num int_ uint_ bool_ clock_ arity heads ->
  ordinary (no_bypass heads) no_declared_at (hu_body u) = true ->
  typecheck C fuel num int_ uint_ bool_ clock_ arity structs heads u = Some (gl, s) ->
  completes num int_ uint_ arity structs s val ->
  well_typed int_ uint_ bool_ clock_ arity structs heads (recorded s val) (map val gl) u.
Proof.
  intros C fuel num int_ uint_ bool_ clock_ arity structs heads u gl s val [A B D E F].
  apply typecheck_ok; auto.
Qed.
Print Assumptions C52_well_typed_partial.

(** Such a choice keeps what the checker found. *)
Theorem C52_found : forall num int_ uint_ arity structs s val v t,
  completes num int_ uint_ arity structs s val -> Resolves (inf s) v t -> ground t -> val v = t.
Proof.
  intros. erewrite completes_resolves by eauto. apply ground_subst; auto.
Qed.
Print Assumptions C52_found.

(** When no constraint and no requirement is left over, and the types are finite,
    every choice of types of the right kinds for the unknown types extends to such a
    choice for everything. *)
Theorem C52_completion_partial : forall C fuel num int_ uint_ bool_ clock_ arity structs heads u gl s choice (signed : nat -> bool),
  surroundings C num int_ uint_ bool_ clock_ arity heads ->
  ordinary (no_bypass heads) no_declared_at (hu_body u) = true ->
  typecheck C fuel num int_ uint_ bool_ clock_ arity structs heads u = Some (gl, s) ->
  cons (inf s) = [] -> reqs s = [] ->
  (forall v, v < length (vars (inf s)) -> exists t, Resolves (inf s) v t /\ proper t) ->
  (forall v, ground (choice v)) ->
  (forall v m, nth_error (vars (inf s)) v = Some (Unknown [] m) -> has_kind (choice v) m) ->
  exists val, completes num int_ uint_ arity structs s val /\
    (forall v m, nth_error (vars (inf s)) v = Some (Unknown [] m) -> lookup (repl (inf s)) v = None -> val v = choice v) /\
    well_typed int_ uint_ bool_ clock_ arity structs heads (recorded s val) (map val gl) u.
Proof.
  intros C fuel num int_ uint_ bool_ clock_ arity structs heads u gl s choice signed SU OK H CN RQ TR GC KC.
  pose proof SU as [A B D E F].
  destruct (completion C fuel num int_ uint_ bool_ clock_ arity structs A B D E heads F u gl s choice signed OK H CN RQ TR GC KC) as (val & X & Y).
  exists val. split; auto. split; auto. eapply C52_well_typed_partial; eauto.
Qed.
Print Assumptions C52_completion_partial.

(** ** A unit *)

Definition ctx : context := mkCtx (fun _ => SDeclared)
  (fun b => match b with BNamed 0 | BNamed 1 => [mkImpl 7 [([], MUint)] [TmV 0] [TmV 0]] | _ => [] end).
Definition ar (n : nat) := match n with 0 | 1 => 1 | _ => 0 end.
(** [fn bounded<T, #uint N>(x: T) -> T where T: Number<N>] *)
Definition hds (f : nat) : option head := match f with
  | 0 => Some (Head [MType; MUint] [(0, 1)] [] [TSGeneric 0] (Some (TSGeneric 0)) SpNone)
  | _ => None end.
Definition no_structs (_ : nat) : option struct_ := None.
Definition int8 := TSNamed 0 [TSInt 8].
Definition bool_spec := TSNamed 2 [].
Lemma around : surroundings ctx 7 0 1 2 3 ar hds.
Proof.
  constructor.
  - reflexivity.
  - intros b im. destruct b as [[|[|n]]|z|q|q| | | | |]; cbn; try contradiction; intros [<-|[]] _; auto.
  - repeat split; discriminate.
  - split; reflexivity.
  - intros [|f] h H; cbn in H; [|discriminate]. apply Some_inj in H. subst h. split.
    + intros T N [X|[]]. injection X as <- <-. cbn. split; [reflexivity|]. split; [reflexivity|].
      split; [constructor; auto|]. intros r X. apply Some_inj in X. subst r. reflexivity.
    + cbn. split; [|split].
      * repeat constructor; cbn; tauto.
      * repeat constructor; cbn; tauto.
      * intros X. contradiction X. reflexivity.
Qed.

(** entity e(clk: clock, a: int<8>, b: int<8>, rst: bool) -> int<9> {
      let c = a + b;
      reg(clk) q reset (rst: 0) = if rst { c } else { q };
      bounded(q)
    } *)
Definition entity : hunit := HUnit [] [] [(0, TSNamed 3 []); (1, int8); (2, int8); (3, bool_spec)] (Some (TSNamed 0 [TSInt 9]))
 (HX 0 (HBlock [
   HLet (HP 1 (PBound 10 false None)) None (HX 2 (HBin ExprModel.BAdd (HX 3 (HName 1)) (HX 4 (HName 2))));
   HReg (HP 5 (PBound 11 false None)) None (HX 6 (HName 0)) (HX 7 (HIf (HX 8 (HName 3)) (HX 9 (HName 10)) (HX 30 (HName 11))))
     (Some (HX 31 (HName 3), HX 32 (HInt 0 LUnsized))) None
 ] (Some (HX 33 (HCall 0 None [HX 34 (HName 11)]))))).

Definition by_kind (m : meta) : ty :=
  match m with
  | MType | MAny => TK BTuple []
  | MUint | MInt | MNumber => tvalue 0
  | MBool => TK (BBool false) []
  | MStr => TK (BStr []) []
  end.
Lemma by_kind_ok m : ground (by_kind m) /\ has_kind (by_kind m) m.
Proof. split; destruct m; cbn; try exact Logic.I; try lia; constructor; auto; try discriminate; constructor. Qed.

Definition check (u : hunit) : option (glist * tst) := typecheck ctx 100 7 0 1 2 3 ar no_structs hds u.
Lemma accepted u gl s : check u = Some (gl, s) ->
  ordinary (no_bypass hds) no_declared_at (hu_body u) = true ->
  cons (inf s) = [] -> reqs s = [] ->
  forallb (fun v => match tree_of 50 (inf s) v with Some _ => true | None => false end) (seq 0 (length (vars (inf s)))) = true ->
  exists val, completes 7 0 1 ar no_structs s val /\
    well_typed 0 1 2 3 ar no_structs hds (recorded s val) (map val gl) u.
Proof.
  intros H OK CN RQ TR.
  destruct (C52_completion_partial ctx 100 7 0 1 2 3 ar no_structs hds u gl s
    (fun v => match nth_error (vars (inf s)) v with Some (Unknown _ m) => by_kind m | _ => TK BTuple [] end)
    (fun _ => true) around OK H CN RQ) as (val & CO & _ & WT).
  - apply (all_trees 50). exact TR.
  - intros v. destruct (nth_error (vars (inf s)) v) as [[b l|t m]|]; try (constructor; [discriminate | constructor]).
    apply by_kind_ok.
  - intros v m N. rewrite N. apply by_kind_ok.
  - exists val. split; assumption.
Qed.
Lemma record_of s val k t : completes 7 0 1 ar no_structs s val ->
  match List.find (fun e => key_eqb (fst e) k) (eqs s) with Some e => tree_of 50 (inf s) (snd e) | None => None end = Some t ->
  ground t -> recorded s val k = Some t.
Proof.
  intros CO. unfold recorded. destruct (List.find _ (eqs s)) as [e|]; [|discriminate]. intros H G. f_equal.
  eapply C52_found; [exact CO | apply (tree_of_ok 50); exact H | exact G].
Qed.
Lemma ground_sized b n : ground (sized b n).
Proof. repeat (constructor; try discriminate). Qed.

Definition entity_result : option (glist * tst) := Eval vm_compute in check entity.
Definition state_of (o : option (glist * tst)) : tst := match o with Some (_, s) => s | None => mkT (mkState [] [] [] []) [] [] end.
Example C52_nontrivial : exists s val,
  check entity = Some ([], s) /\
  completes 7 0 1 ar no_structs s val /\
  recorded s val (KName 11) = Some (sized 0 9) /\ recorded s val (KId 32) = Some (sized 0 9) /\
  well_typed 0 1 2 3 ar no_structs hds (recorded s val) [] entity.
Proof.
  assert (H : check entity = Some ([], state_of entity_result)) by (vm_compute; reflexivity).
  destruct (accepted entity [] _ H) as (val & CO & WT); try (vm_compute; reflexivity).
  exists (state_of entity_result), val. split; [exact H|]. split; [exact CO|].
  split; [|split; [|exact WT]]; apply record_of; try exact CO; try apply ground_sized; vm_compute; reflexivity.
Qed.

(** ** What the checker lets through *)

(** [fn f() -> int<0> { -1 }] is accepted, and -1 gets the type [int<0>], which does
    not have it: requirements.rs:386-404 computes the least value of [int<0>] as that
    of [int<1>]. *)
Definition minus_one : hunit := HUnit [] [] [] (Some (TSNamed 0 [TSInt 0])) (HX 0 (HInt (-1) LUnsized)).
Definition minus_one_result : option (glist * tst) := Eval vm_compute in check minus_one.
Theorem C52_minus_one_refuted : exists s val,
  check minus_one = Some ([], s) /\
  completes 7 0 1 ar no_structs s val /\
  recorded s val (KId 0) = Some (sized 0 0) /\ ~ fits_int 0 (-1).
Proof.
  assert (H : check minus_one = Some ([], state_of minus_one_result)) by (vm_compute; reflexivity).
  destruct (accepted minus_one [] _ H) as (val & CO & WT); try (vm_compute; reflexivity).
  exists (state_of minus_one_result), val. split; [exact H|]. split; [exact CO|].
  split; [|intros [X _]; lia].
  apply record_of; [exact CO | vm_compute; reflexivity | apply ground_sized].
Qed.
Print Assumptions C52_minus_one_refuted.

(** [fn f(x: bool) -> bool { bounded::<bool, 8>(x) }] is accepted, although [bool] is
    not a number: lib.rs:2734-2741 adds the bounds to the type given after [::], which
    does nothing to a known type. *)
Definition bypass : hunit := HUnit [] [] [(1, bool_spec)] (Some bool_spec)
  (HX 0 (HCall 0 (Some [bool_spec; TSInt 8]) [HX 1 (HName 1)])).
Theorem C52_turbofish_refuted : exists gl s,
  check bypass = Some (gl, s) /\
  forall val, completes 7 0 1 ar no_structs s val ->
    ~ well_typed 0 1 2 3 ar no_structs hds (recorded s val) (map val gl) bypass.
Proof.
  destruct (check bypass) as [[gl s]|] eqn:H; [|vm_compute in H; discriminate].
  exists gl, s. split; auto. intros val _ (_ & _ & t & T & _).
  inversion T as [? ? ? _ _ R]; subst. inversion R as [| | | | | | | | | | | | | | | | | | | | | | | |? ? ? h hs ts ? EH _ BH _ TF _ _ _]; subst.
  cbn in EH. apply Some_inj in EH. subst h. cbn in BH. specialize (TF _ eq_refl).
  inversion BH as [|? ? (x & n & X & _ & B) _]; subst. cbn [fst] in X.
  inversion TF as [|? t0 ? l0 M _]; subst. cbn in X. apply Some_inj in X. subst x. inversion M; subst.
  destruct B; discriminate.
Qed.
Print Assumptions C52_turbofish_refuted.

(** [fn f(a: int<8>) { decl x; let x @ true = a; }] is accepted: lib.rs:2179-2205
    compares [x] with the type of the whole pattern only. *)
Definition declared_at : hunit := HUnit [] [] [(1, int8)] None
  (HX 0 (HBlock [HDecl [10]; HLet (HP 1 (PBound 10 true (Some (HP 2 (PBool true))))) None (HX 3 (HName 1))] None)).
Theorem C52_declared_at_refuted : exists gl s,
  check declared_at = Some (gl, s) /\
  forall val, completes 7 0 1 ar no_structs s val ->
    ~ well_typed 0 1 2 3 ar no_structs hds (recorded s val) (map val gl) declared_at.
Proof.
  destruct (check declared_at) as [[gl s]|] eqn:H; [|vm_compute in H; discriminate].
  exists gl, s. split; auto. intros val _ (_ & IN & t & T & _).
  inversion IN as [|? ? (t1 & E1 & M1) _]; subst. cbn [fst snd] in E1, M1. unfold int8 in M1.
  inversion M1; subst.
  inversion T as [? ? ? _ _ R]; subst. inversion R as [| | | | | | | | | | | | |? ? ? FS| | | | | | | | | | |]; subst.
  inversion FS as [|? ? _ FS']; subst. inversion FS' as [|? ? CK _]; subst. inversion CK as [? ? ? t2 PT ET _| | | | |]; subst.
  inversion ET as [? ? ? _ _ R2]; subst. inversion R2 as [? ? E2| | | | | | | | | | | | | | | | | | | | | | | |]; subst.
  rewrite E1 in E2. apply Some_inj in E2. subst t2.
  inversion PT as [? ? ? _ _ PR]; subst. inversion PR as [| |? ? ? ? _ IQ| | |]; subst.
  specialize (IQ _ eq_refl). inversion IQ as [? ? ? _ _ PQ]; subst. inversion PQ.
Qed.
Print Assumptions C52_declared_at_refuted.
