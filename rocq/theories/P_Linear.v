(** C40: wires are used exactly once. *)
From Coq Require Import String List ZArith Bool Arith Lia.
From Verif Require Import ConcModel LinearModel LinearSpec LinearProofs.
Import ListNotations.
Local Open Scope list_scope.

(** If the check accepts a unit, every inverted or inout wire of every value that
    is created in it is used exactly once, for every unit whose branches and
    `x @ p` patterns carry no wires.  Full statement: the same without
    [simple_unit]'s restrictions; it is false, see the refutations below. *)
Theorem C40_exactly_once_partial : forall u,
  distinct_ids u -> simple_unit u -> check_linear_types u = true ->
  forall r ty q, In (r, ty) (created_unit u) -> wire ty q -> use_count (uses_unit u) r q = 1.
Proof. exact accepted_once. Qed.
Print Assumptions C40_exactly_once_partial.

(** A second use is reported, and so is a missing one. *)
Theorem C40_reported_partial : forall u r ty q,
  distinct_ids u -> simple_unit u -> In (r, ty) (created_unit u) -> wire ty q ->
  use_count (uses_unit u) r q <> 1 -> check_linear_types u = false.
Proof.
  intros u r ty q D S I W N. destruct (check_linear_types u) eqn:E; [|reflexivity].
  exfalso. apply N. exact (accepted_once u D S E r ty q I W).
Qed.
Print Assumptions C40_reported_partial.

Local Notation inv := (CBackward CBool).
Definition list_of (l : list expr) : exprs := fold_right ECons ENil l.

(** `entity e(a: inv bool, c: bool) -> inv bool {
       set a = true;
       match c { true => a, false => a }
     }` is accepted: [a] is set and is the value of both arms. *)
Definition match_unit : unit_ :=
  {| u_inputs := [(0, inv); (1, CBool)];
     u_body := E 10 inv (KBlock
       (SSet (E 11 inv (KName 0)) (E 12 CBool KLit) SNil)
       (list_of [E 13 inv (KMatch (E 14 CBool (KName 1))
         (ACons PLit ENil (E 15 inv (KName 0)) (ACons PLit ENil (E 16 inv (KName 0)) ANil)))])) |}.
Theorem C40_match_refuted : exists u r ty q,
  distinct_ids u /\ check_linear_types u = true /\ In (r, ty) (created_unit u) /\ wire ty q
  /\ use_count (uses_unit u) r q = 3.
Proof.
  exists match_unit, (RName 0), inv, []. split.
  { unfold distinct_ids. cbn. repeat constructor; cbn; intuition discriminate. }
  split; [vm_compute; reflexivity|]. split; [left; reflexivity|]. split; [constructor|vm_compute; reflexivity].
Qed.
Print Assumptions C40_match_refuted.

(** The same with `if c { a } else { a }`. *)
Definition if_unit : unit_ :=
  {| u_inputs := [(0, inv); (1, CBool)];
     u_body := E 10 inv (KBlock
       (SSet (E 11 inv (KName 0)) (E 12 CBool KLit) SNil)
       (list_of [E 13 inv (KIf (E 14 CBool (KName 1)) (E 15 inv (KName 0)) (E 16 inv (KName 0)))])) |}.
Theorem C40_if_refuted : exists u r ty q,
  distinct_ids u /\ check_linear_types u = true /\ In (r, ty) (created_unit u) /\ wire ty q
  /\ use_count (uses_unit u) r q = 3.
Proof.
  exists if_unit, (RName 0), inv, []. split.
  { unfold distinct_ids. cbn. repeat constructor; cbn; intuition discriminate. }
  split; [vm_compute; reflexivity|]. split; [left; reflexivity|]. split; [constructor|vm_compute; reflexivity].
Qed.
Print Assumptions C40_if_refuted.

(** `entity e(p: inv bool) { let q @ r = p; }` is accepted: [p] becomes [q] and
    [r], and nothing ever drives either. *)
Definition at_unit : unit_ :=
  {| u_inputs := [(0, inv)];
     u_body := E 10 (CTuple []) (KBlock
       (SBind (PBound 11 inv 1 (PCons (PBound 12 inv 2 PNil false) PNil) false) (E 13 inv (KName 0)) SNil) ENil) |}.
Theorem C40_at_refuted : exists u q r ty,
  distinct_ids u /\ check_linear_types u = true /\ In (q, ty) (created_unit u) /\ In (r, ty) (created_unit u)
  /\ q <> r /\ wire ty [] /\ use_count (uses_unit u) q [] = 0 /\ use_count (uses_unit u) r [] = 0.
Proof.
  exists at_unit, (RName 1), (RName 2), inv. split.
  { unfold distinct_ids. cbn. repeat constructor; cbn; intuition discriminate. }
  split; [vm_compute; reflexivity|]. split; [vm_compute; tauto|]. split; [vm_compute; tauto|].
  split; [discriminate|]. split; [constructor|]. split; vm_compute; reflexivity.
Qed.
Print Assumptions C40_at_refuted.

(** A unit with a port of two wires, an array of wires and a view:
    `entity e(p: P, w: [inv bool; 2]) -> inv bool {
       let (x, y) = (p.a, w[0]);
       let s = read_mut_wire(&p.b);
       set p.b = s; set x = s; g(w[1]); y }` *)
Definition P : cty := CStruct [("a"%string, inv); ("b"%string, inv)].
Definition arr : cty := CArray inv 2.
Definition good_unit (last : nat) : unit_ :=
  {| u_inputs := [(0, P); (1, arr)];
     u_body := E 10 inv (KBlock
       (SBind (PList (PCons (PBound 20 inv 2 PNil false) (PCons (PBound 21 inv 3 PNil false) PNil)))
          (E 30 (CTuple [inv; inv]) (KSeq (list_of
             [E 31 inv (KProj (E 32 P (KName 0)) (SField "a"));
              E 33 inv (KIndex (E 34 arr (KName 1)) (E 35 (CUInt 1) (KInt 0)))])))
       (SBind (PBound 22 CBool 4 PNil false)
          (E 40 CBool (KCall true (list_of
             [E 41 (CCopyView inv) (KRef (E 42 inv (KProj (E 43 P (KName 0)) (SField "b"))))])))
       (SSet (E 50 inv (KProj (E 51 P (KName 0)) (SField "b"))) (E 52 CBool (KName 4))
       (SSet (E 53 inv (KName 2)) (E 54 CBool (KName 4))
       (SExpr (E 55 (CTuple []) (KCall false (list_of
          [E 56 inv (KIndex (E 57 arr (KName 1)) (E 58 (CUInt 1) (KInt (Z.of_nat last))))])))
       SNil)))))
       (list_of [E 60 inv (KName 3)])) |}.
Example C40_nontrivial :
  distinct_ids (good_unit 1) /\ simple_unit (good_unit 1) /\ check_linear_types (good_unit 1) = true
  /\ In (RName 1, arr) (created_unit (good_unit 1)) /\ wire arr [SIdx 1]
  /\ use_count (uses_unit (good_unit 1)) (RName 1) [SIdx 1] = 1
  /\ distinct_ids (good_unit 0) /\ simple_unit (good_unit 0) /\ check_linear_types (good_unit 0) = false
  /\ use_count (uses_unit (good_unit 0)) (RName 1) [SIdx 0] = 2
  /\ use_count (uses_unit (good_unit 0)) (RName 1) [SIdx 1] = 0.
Proof.
  assert (D : forall n, distinct_ids (good_unit n)).
  { intros n. unfold distinct_ids. cbn. repeat constructor; cbn; intuition discriminate. }
  assert (S : forall n, n < 2 -> simple_unit (good_unit n)).
  { intros n Hn. unfold simple_unit. cbn. rewrite Nat2Z.id.
    repeat split; auto 20; try (constructor; cbn; auto; lia); try reflexivity. }
  split; [apply D|]. split; [apply S; lia|]. split; [vm_compute; reflexivity|].
  split; [vm_compute; tauto|]. split; [constructor; [lia|constructor]|]. split; [vm_compute; reflexivity|].
  split; [apply D|]. split; [apply S; lia|]. repeat split; vm_compute; reflexivity.
Qed.
