(** Completions of what the checker leaves. *)
From Coq Require Import List ZArith Bool Arith Lia.
From Verif Require Import InferModel InferSpec InferChain InferState InferReach InferUnify InferCons InferNum InferNumOps.
From Verif Require Import TypingModel TypingSpec TypingProofs BitsFacts.
Import ListNotations.

Section Context.
Variable C : context.
Variable fuel : nat.
Variables num int_ uint_ bool_ clock_ : nat.
Variable arity : nat -> nat.
Variable structs : nat -> option struct_.
Hypothesis declared : forall x, sym C x = SDeclared.
Hypothesis numbers : forall b im, In im (impls C b) -> im_name im = num ->
  im = number_impl num /\ num_base int_ uint_ b.
Hypothesis not_numbers : bool_ <> int_ /\ bool_ <> uint_ /\ clock_ <> int_ /\ clock_ <> uint_.
Hypothesis arities : arity int_ = 1 /\ arity uint_ = 1.
Variable heads : nat -> option head.
Hypothesis heads_ok : forall f h, heads f = Some h -> head_ok h.

Lemma subst_ground th t : proper t -> (forall v, ground (th v)) -> ground (subst th t).
Proof.
  intros H T. induction t as [b l IH|n m] using ty_ind2; cbn; auto.
  inversion H as [? ? A B|]; subst. constructor.
  - intros X. rewrite (A X). reflexivity.
  - apply Forall_map. clear - B IH. induction B; constructor; inversion IH; subst; auto.
Qed.

Lemma completion u gl s choice (signed : nat -> bool) :
  ordinary (no_bypass heads) no_declared_at (hu_body u) = true ->
  typecheck C fuel num int_ uint_ bool_ clock_ arity structs heads u = Some (gl, s) ->
  cons (inf s) = [] -> reqs s = [] ->
  (forall v, v < length (vars (inf s)) -> exists t, Resolves (inf s) v t /\ proper t) ->
  (forall v, ground (choice v)) ->
  (forall v m, nth_error (vars (inf s)) v = Some (Unknown [] m) -> has_kind (choice v) m) ->
  exists val, completes num int_ uint_ arity structs s val /\
    (forall v m, nth_error (vars (inf s)) v = Some (Unknown [] m) -> lookup (repl (inf s)) v = None -> val v = choice v).
Proof.
  intros OK H CN RQ TR GC KC.
  destruct (visit_unit_ok C fuel num int_ uint_ bool_ clock_ arity structs declared numbers not_numbers arities
    heads heads_ok u OK gl s H) as (P' & ST & _).
  destruct (st_inv _ _ _ _ _ _ _ _ _ ST) as [GG _ _]. clear ST H.
  set (st := inf s) in *.
  destruct (finite_choice (fun v t => Resolves st v t /\ proper t) (length (vars st)) TR) as (tree & F). clear TR.
  set (th := fun v => match nth_error (vars st) v with
    | Some (Unknown [(_, [z])] _) => TK (BNamed (if signed v then int_ else uint_)) [subst choice (tree z)]
    | _ => choice v
    end).
  set (val := fun v => if v <? len st then subst th (tree v) else TK BTuple []).
  pose proof (g_closed _ _ _ _ _ _ GG) as CL.
  assert (GT : forall v, v < len st -> ground (subst choice (tree v))).
  { intros v L. apply subst_ground; auto. apply (F v L). }
  assert (LT : forall v tv p, nth_error (vars st) v = Some tv -> In p (tparams tv) -> p < len st).
  { intros v tv p N IN. apply (g_ids _ _ _ _ _ _ GG _ _ _ N IN). }
  assert (TG : forall v, ground (th v)).
  { intros v. unfold th. destruct (nth_error (vars st) v) as [[b ps|[|[x [|z [|? ?]]] [|? ?]] m]|] eqn:N; auto.
    constructor; [discriminate|]. constructor; [|constructor]. apply GT. eapply LT; [exact N|]. left. reflexivity. }
  assert (VR : forall v t, Resolves st v t -> val v = subst th t).
  { intros v t R. pose proof (resolves_lt _ _ _ CL R) as L. unfold val.
    apply Nat.ltb_lt in L as L'. rewrite L'. f_equal. eapply resolves_det; [apply F; auto | exact R]. }
  assert (LN : forall v tv, nth_error (vars st) v = Some tv -> v < len st).
  { intros v tv N. apply nth_error_Some. congruence. }
  assert (UN : forall v trs m, nth_error (vars st) v = Some (Unknown trs m) -> lookup (repl st) v = None -> val v = th v).
  { intros v trs m N LK. rewrite (VR v (TF v m)); [reflexivity|]. eapply res_unknown; eauto. }
  assert (SZ : forall v m z, nth_error (vars st) v = Some (Unknown [(num, [z])] m) -> lookup (repl st) v = None ->
     m = MType /\ subst choice (tree z) = val z).
  { intros v m z N LK. destruct (g_shape _ _ _ _ _ _ GG _ _ N) as [[X|[-> _]] _]; [discriminate|]. split; auto.
    assert (Lz : z < len st) by (eapply LT; [exact N | left; reflexivity]).
    destruct (g_size _ _ _ _ _ _ GG v z) as (r & tv & E & Nr & SH); [split; auto|].
    pose proof (proj1 (F z Lz)) as Rz. pose proof (VR _ _ Rz) as V. rewrite V.
    assert (X : Resolves st z (match tv with Known b _ => TK b [] | Unknown _ m => TF r m end)).
    { eapply res_of_ends; [exact E|]. destruct SH as [->|[q ->]].
      - eapply res_unknown; [apply (ends_rep _ _ _ E) | exact Nr].
      - eapply res_known; [apply (ends_rep _ _ _ E) | exact Nr | constructor]. }
    rewrite (resolves_det _ _ _ Rz _ X). destruct SH as [->|[q ->]]; cbn; auto.
    unfold th. rewrite Nr. reflexivity. }
  exists val. split.
  - constructor.
    + intros v. unfold val. destruct (v <? len st) eqn:L; [|constructor; [discriminate | constructor]].
      apply Nat.ltb_lt in L. apply subst_ground; auto. apply (F v L).
    + intros v j LK. fold st in LK. pose proof (proj2 (cl_keys _ CL _ _ LK)) as Lj.
      pose proof (proj1 (F j Lj)) as R. rewrite (VR _ _ R). apply VR. eapply res_link; eauto.
    + intros v b ps N LK. fold st in N, LK. pose proof (proj1 (F v (LN _ _ N))) as R. rewrite (VR _ _ R).
      inversion R as [? ? ? X|? b' ps' ts X N' FA|? ? ? X N']; subst; try congruence.
      assert (b' = b /\ ps' = ps) as [-> ->] by (split; congruence). cbn [subst]. f_equal.
      clear - FA VR. induction FA; cbn; f_equal; auto. symmetry. auto.
    + intros v trs m N LK. fold st in N, LK. rewrite (UN _ _ _ N LK).
      destruct (g_shape _ _ _ _ _ _ GG _ _ N) as [[->|[-> [z ->]]] _]; unfold th; rewrite N; [eapply KC; eauto | exact Logic.I].
    + intros v z m N LK. fold st in N, LK. rewrite (UN _ _ _ N LK). destruct (SZ _ _ _ N LK) as [-> E].
      unfold th. rewrite N, E. destruct (signed v); auto.
    + fold st. rewrite CN. intros v e [].
    + rewrite RQ. constructor.
  - intros v m N LK. rewrite (UN _ _ _ N LK). unfold th. rewrite N. reflexivity.
Qed.

(** What is known is kept *)
Lemma completes_resolves s val v t : completes num int_ uint_ arity structs s val ->
  Resolves (inf s) v t -> val v = subst val t.
Proof.
  intros [_ L K _ _ _ _] H. induction H using Resolves_ind2.
  - rewrite (L _ _ H). auto.
  - rewrite (K _ _ _ H0 H). cbn. f_equal. clear - H2. induction H2; cbn; f_equal; auto.
  - reflexivity.
Qed.
Lemma ground_subst th t : ground t -> subst th t = t.
Proof.
  induction t as [b l IH|n m] using ty_ind2; intros H; inversion H as [? ? A B]; subst. cbn. f_equal.
  clear - IH B. induction B; inversion IH; subst; cbn; f_equal; auto.
Qed.

End Context.

(** Finding the trees *)
Fixpoint tree_of (n : nat) (st : state) (v : nat) : option ty :=
  match n with
  | 0 => None
  | S n =>
    match lookup (repl st) v with
    | Some j => tree_of n st j
    | None =>
      match nth_error (vars st) v with
      | Some (Known b ps) =>
        match fold_right (fun p acc => match tree_of n st p, acc with Some t, Some l => Some (t :: l) | _, _ => None end) (Some []) ps with
        | Some ts => if scalar b && negb (match ps with [] => true | _ => false end) then None else Some (TK b ts)
        | None => None
        end
      | Some (Unknown _ m) => Some (TF v m)
      | None => None
      end
    end
  end.
Lemma tree_of_ok n st : forall v t, tree_of n st v = Some t -> Resolves st v t /\ proper t.
Proof.
  induction n as [|n IH]; cbn [tree_of]; [discriminate|]. intros v t.
  destruct (lookup (repl st) v) as [j|] eqn:LK.
  { intros H. destruct (IH _ _ H). split; auto. eapply res_link; eauto. }
  destruct (nth_error (vars st) v) as [[b ps|trs m]|] eqn:N; [| |discriminate].
  2:{ intros H. apply Some_inj in H. subst. split; [eapply res_unknown; eauto | constructor]. }
  destruct (fold_right _ _ ps) as [ts|] eqn:FR; [|discriminate].
  assert (FA : Forall2 (Resolves st) ps ts /\ Forall proper ts /\ (ps = [] -> ts = [])).
  { clear - IH FR. revert ts FR. induction ps as [|p ps IHp]; intros ts; cbn.
    - intros H. apply Some_inj in H. subst. repeat constructor.
    - destruct (tree_of n st p) as [t|] eqn:T; [|discriminate].
      destruct (fold_right _ _ ps) as [l|] eqn:FR; [|discriminate]. intros H. apply Some_inj in H. subst.
      destruct (IHp l eq_refl) as (A & B & _), (IH _ _ T). split; [constructor; auto|].
      split; [constructor; auto | discriminate]. }
  destruct FA as (A & B & D). destruct (scalar b) eqn:SC; cbn.
  - destruct ps as [|p ps]; cbn; [|discriminate]. intros H. apply Some_inj in H. subst t. split.
    + eapply res_known; eauto.
    + constructor; auto.
  - intros H. apply Some_inj in H. subst t. split; [eapply res_known; eauto|]. constructor; auto. congruence.
Qed.
Lemma all_trees n st :
  forallb (fun v => match tree_of n st v with Some _ => true | None => false end) (seq 0 (length (vars st))) = true ->
  forall v, v < length (vars st) -> exists t, Resolves st v t /\ proper t.
Proof.
  intros H v L. rewrite forallb_forall in H. specialize (H v). cbv beta in H.
  destruct (tree_of n st v) as [t|] eqn:T.
  - exists t. apply (tree_of_ok n); auto.
  - discriminate H. apply in_seq. lia.
Qed.
