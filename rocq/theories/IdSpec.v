(** Which identifiers were handed out. *)
From Coq Require Import List ZArith.
From Verif Require Import IdModel.
Import ListNotations.

(** the ids a tracker gave out, in order *)
Definition ids_of (t : nat) (es : list event) : list Z :=
  flat_map (fun e => match e with GotId t' id => if Nat.eqb t' t then [id] else [] | _ => [] end) es.
(** the next id of a table *)
Definition next_id (t : table) : Z := match t with Thawed id => id | Frozen _ id => id end.
