(** Crossing clock domains with a handshake: spade-compiler/stdlib/cdc.spade
    [sync_wide] and [handshake].

    Time is a sequence of clock edges, of the source clock, of the destination clock
    or of both at once.  A register takes its new value at an edge of its clock.  When
    both clocks have an edge at once, a synchroniser register that samples a bit of the
    other domain sees its old or its new value, and the many bits of the data, if they
    change at that moment, read as anything.  Without reset the registers hold
    anything. *)
From Coq Require Import List Bool.
Import ListNotations.

(** The input [i] of the source domain matters at its edges only.  [new_v], [new_a]:
    whether the new value of [valid], of [ack] is seen; [junk]: what changing data
    reads as. *)
Inductive event (I T : Type) :=
| SrcEdge (i : I) (rst : bool)
| DstEdge (rst : bool)
| BothEdges (i : I) (srst drst new_v new_a : bool) (junk : T).
Arguments SrcEdge {I T}. Arguments DstEdge {I T}. Arguments BothEdges {I T}.

(** ** sync_wide: cdc.spade:112-187 *)
(** cdc.spade:115-120 [TxState] *)
Inductive tx_state (T : Type) := Init | Setup (val : T) | Hold (val : T) | WaitRelease.
Arguments Init {T}. Arguments Setup {T}. Arguments Hold {T}. Arguments WaitRelease {T}.
(** cdc.spade:150-153 [RxState] *)
Inductive rx_state := WaitReceive | SendAck.

(** The registers: 131 [state], 138 [UNDEF], 129 the two of [sync2_bool] for [ack]; 161
    [state], 166 [out], 155 the two of [sync2_bool] for [valid]. *)
Record wide (T : Type) := {
  tx : tx_state T; undef : T; a1 : bool; a2 : bool;
  rx : rx_state; out : T; v1 : bool; v2 : bool }.
Arguments tx {T}. Arguments undef {T}. Arguments a1 {T}. Arguments a2 {T}. Arguments rx {T}. Arguments out {T}. Arguments v1 {T}. Arguments v2 {T}.

Section Wide.
Context {T : Type}.
(** cdc.spade:184 the parameter [init], taken to be a constant *)
Variable init : T.

(** cdc.spade:131-136 *)
Definition tx_next (s : wide T) (data_in : T) : tx_state T :=
  match tx s with
  | Init => Setup data_in
  | Setup data => Hold data
  | Hold data => if a2 s then WaitRelease else Hold data
  | WaitRelease => if negb (a2 s) then Setup data_in else WaitRelease
  end.
(** cdc.spade:139-146 *)
Definition valid_of (t : tx_state T) : bool := match t with Init => false | Setup _ => false | Hold _ => true | WaitRelease => false end.
Definition data_of (u : T) (t : tx_state T) : T := match t with Init => u | Setup d => d | Hold d => d | WaitRelease => u end.
(** cdc.spade:161-164 *)
Definition rx_next (s : wide T) : rx_state :=
  match rx s with WaitReceive => if v2 s then SendAck else WaitReceive | SendAck => if negb (v2 s) then WaitReceive else SendAck end.
(** cdc.spade:166-169 *)
Definition out_next (s : wide T) (data : T) : T :=
  match rx s, v2 s with WaitReceive, true => data | _, _ => out s end.
(** cdc.spade:171-174 *)
Definition ack_of (r : rx_state) : bool := match r with WaitReceive => false | SendAck => true end.

(** The source registers after an edge; [a] is what is seen of [ack]. *)
Definition src_edge (s : wide T) (i : T) (rst a : bool) : wide T :=
  {| tx := if rst then Init else tx_next s i; undef := undef s; a1 := a; a2 := a1 s;
     rx := rx s; out := out s; v1 := v1 s; v2 := v2 s |}.
(** The destination registers after an edge; [v] and [d] are what is seen of [valid]
    and the data. *)
Definition dst_edge (s : wide T) (rst v : bool) (d : T) : wide T :=
  {| tx := tx s; undef := undef s; a1 := a1 s; a2 := a2 s;
     rx := if rst then WaitReceive else rx_next s; out := if rst then init else out_next s d; v1 := v; v2 := v1 s |}.
(** Whether the data wires stay as they are at an edge of the source clock. *)
Definition steady (s : wide T) (rst : bool) : bool :=
  match tx s with
  | Init => rst
  | Setup _ => negb rst
  | Hold _ => negb rst && negb (a2 s)
  | WaitRelease => rst || a2 s
  end.
Definition step (s : wide T) (e : event T T) : wide T :=
  match e with
  | SrcEdge i rst => src_edge s i rst (ack_of (rx s))
  | DstEdge rst => dst_edge s rst (valid_of (tx s)) (data_of (undef s) (tx s))
  | BothEdges i srst drst new_v new_a junk =>
      let tx' := if srst then Init else tx_next s i in
      let rx' := if drst then WaitReceive else rx_next s in
      let d := if steady s srst then data_of (undef s) (tx s) else junk in
      {| tx := tx'; undef := undef s; a1 := ack_of (if new_a then rx' else rx s); a2 := a1 s;
         rx := rx'; out := if drst then init else out_next s d;
         v1 := valid_of (if new_v then tx' else tx s); v2 := v1 s |}
  end.
Definition run (s : wide T) (es : list (event T T)) : wide T := fold_left step es s.
End Wide.

(** ** handshake: cdc.spade:35-109 *)
(** cdc.spade:42-46 [TxState], 76-79 [RxState] *)
Inductive htx_state := WaitData | HoldData | WaitAck.
Inductive hrx_state := WaitValid | WaitInvalid.
(** The registers: 52 [state], 60 [data_held], 50 [ack]; 84 [state] and [data_out],
    82 [data_valid] *)
Record hand (T : Type) := {
  htx : htx_state; held : T; b1 : bool; b2 : bool;
  hrx : hrx_state; data_out : option T; u1 : bool; u2 : bool }.
Arguments htx {T}. Arguments held {T}. Arguments b1 {T}. Arguments b2 {T}. Arguments hrx {T}. Arguments data_out {T}. Arguments u1 {T}. Arguments u2 {T}.

Section Hand.
Context {T : Type}.
(** cdc.spade:52-58 *)
Definition htx_next (s : hand T) (data : option T) : htx_state :=
  match htx s, data, b2 s with
  | WaitData, None, _ => WaitData
  | WaitData, Some _, _ => HoldData
  | HoldData, _, _ => WaitAck
  | WaitAck, _, false => WaitAck
  | WaitAck, _, true => WaitData
  end.
(** cdc.spade:60-63 *)
Definition held_next (s : hand T) (data : option T) : T :=
  match data, htx s with Some d, WaitData => d | _, _ => held s end.
(** cdc.spade:66-70 *)
Definition hvalid (t : htx_state) : bool := match t with WaitData => false | HoldData => false | WaitAck => true end.
(** cdc.spade:84-89 *)
Definition hrx_next (s : hand T) (d : T) : hrx_state * option T :=
  match hrx s, u2 s with
  | WaitValid, false => (hrx s, None)
  | WaitValid, true => (WaitInvalid, Some d)
  | WaitInvalid, true => (WaitInvalid, None)
  | WaitInvalid, false => (WaitValid, None)
  end.
(** cdc.spade:91-94 *)
Definition hack (r : hrx_state) : bool := match r with WaitValid => false | WaitInvalid => true end.
(** [data_held] changes when data is given in the state [WaitData]; it is not reset *)
Definition hsteady (s : hand T) (data : option T) : bool := match data, htx s with Some _, WaitData => false | _, _ => true end.

Definition hstep (s : hand T) (e : event (option T) T) : hand T :=
  match e with
  | SrcEdge i rst =>
      {| htx := if rst then WaitData else htx_next s i; held := held_next s i; b1 := hack (hrx s); b2 := b1 s;
         hrx := hrx s; data_out := data_out s; u1 := u1 s; u2 := u2 s |}
  | DstEdge rst =>
      let n := if rst then (WaitValid, None) else hrx_next s (held s) in
      {| htx := htx s; held := held s; b1 := b1 s; b2 := b2 s;
         hrx := fst n; data_out := snd n; u1 := hvalid (htx s); u2 := u1 s |}
  | BothEdges i srst drst new_v new_a junk =>
      let tx' := if srst then WaitData else htx_next s i in
      let n := if drst then (WaitValid, None) else hrx_next s (if hsteady s i then held s else junk) in
      {| htx := tx'; held := held_next s i; b1 := hack (if new_a then fst n else hrx s); b2 := b1 s;
         hrx := fst n; data_out := snd n; u1 := hvalid (if new_v then tx' else htx s); u2 := u1 s |}
  end.
Definition hrun (s : hand T) (es : list (event (option T) T)) : hand T := fold_left hstep es s.
End Hand.
