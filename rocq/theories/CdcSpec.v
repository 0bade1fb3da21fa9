(** What a user sees of [sync_wide] and [handshake]. *)
From Coq Require Import List Bool Arith.
From Verif Require Import CdcModel.
Import ListNotations.

Section Spec.
Context {I T : Type}.
Definition quiet (e : event I T) : bool :=
  match e with SrcEdge _ rst => negb rst | DstEdge rst => negb rst | BothEdges _ srst drst _ _ _ => negb srst && negb drst end.
Definition in_reset (e : event I T) : bool :=
  match e with SrcEdge _ rst => rst | DstEdge rst => rst | BothEdges _ srst drst _ _ _ => srst && drst end.
Definition src_edges (es : list (event I T)) : nat :=
  List.length (filter (fun e => match e with DstEdge _ => false | _ => true end) es).
Definition dst_edges (es : list (event I T)) : nat :=
  List.length (filter (fun e => match e with SrcEdge _ _ => false | _ => true end) es).

(** What the source domain gave, one for each of its edges. *)
Definition input (e : event I T) : list I :=
  match e with SrcEdge i _ => [i] | DstEdge _ => [] | BothEdges i _ _ _ _ _ => [i] end.
Definition inputs (es : list (event I T)) : list I := flat_map input es.

(** Enough source edges, then enough destination edges, [n] times over. *)
Inductive rounds : nat -> list (event I T) -> Prop :=
| rounds_0 es : rounds 0 es
| rounds_S n es1 es2 es3 : 4 <= src_edges es1 -> 3 <= dst_edges es2 -> rounds n es3 -> rounds (S n) (es1 ++ es2 ++ es3).
End Spec.

Section Wide.
Context {T : Type}.
Variable init : T.
(** The output after each event. *)
Fixpoint outs (s : wide T) (es : list (event T T)) : list T :=
  match es with [] => [] | e :: es => out (step init s e) :: outs (step init s e) es end.

(** [given]: the values given so far (the initial one first), of which the one at
    position [k] is shown; each further output shows a value given at an earlier edge,
    at the same or a later position. *)
Fixpoint follows (given : list T) (k : nat) (es : list (event T T)) (os : list T) : Prop :=
  match es, os with
  | [], [] => True
  | e :: es, o :: os => exists k', k <= k' /\ nth_error given k' = Some o /\ follows (given ++ input e) k' es os
  | _, _ => False
  end.

(** After a reset. *)
Definition fresh (s : wide T) : Prop :=
  tx s = Init /\ a1 s = false /\ a2 s = false /\ rx s = WaitReceive /\ out s = init /\ v1 s = false /\ v2 s = false.
End Wide.

Section Hand.
Context {T : Type}.
(** The values given: a source edge at which there is one. *)
Definition offers (es : list (event (option T) T)) : list T :=
  flat_map (fun i => match i with Some v => [v] | None => [] end) (inputs es).
(** The values received: the output during the cycle that begins at a destination
    edge. *)
Definition recv (s : hand T) (e : event (option T) T) : list T :=
  match e with
  | SrcEdge _ _ => []
  | _ => match data_out (hstep s e) with Some v => [v] | None => [] end
  end.
Fixpoint recvs (s : hand T) (es : list (event (option T) T)) : list T :=
  match es with [] => [] | e :: es => recv s e ++ recvs (hstep s e) es end.

(** Edges enough for a value to go over and for the acknowledgement to come back and
    be withdrawn. *)
Definition settled (es : list (event (option T) T)) : Prop :=
  exists b1 b2 b3 b4 b5, es = b1 ++ b2 ++ b3 ++ b4 ++ b5 /\
    1 <= src_edges b1 /\ 3 <= dst_edges b2 /\ 3 <= src_edges b3 /\ 3 <= dst_edges b4 /\ 2 <= src_edges b5.
(** Between any two values given there is time to settle. *)
Definition spaced (es : list (event (option T) T)) : Prop :=
  forall es1 e es2 e' es3, es = es1 ++ e :: es2 ++ e' :: es3 -> offers [e] <> [] -> offers [e'] <> [] -> settled es2.
Definition hfresh (s : hand T) : Prop :=
  htx s = WaitData /\ b1 s = false /\ b2 s = false /\ hrx s = WaitValid /\ data_out s = None /\ u1 s = false /\ u2 s = false.
End Hand.
