(** Handing out identifiers: trackers shared by threads, and the symbol table.
    Source: spade-common/src/id_tracker.rs, spade-hir/src/symbol_table.rs:851-868,
    1596-1628. *)
From Coq Require Import List ZArith.
Import ListNotations.
Local Open Scope Z_scope.

Definition u64 (x : Z) : Z := x mod 2 ^ 64.

(** ** id_tracker.rs.  A tracker is an atomic variable: the values it has had, the
    latest first ([Relaxed] read-modify-write operations on one variable are totally
    ordered; a [Relaxed] load may see an old value). *)
Definition tracker : Type := list Z.
Definition latest (t : tracker) : Z := hd 0 t.
(** id_tracker.rs:13-23, 55-65 *)
Definition new_at (id : Z) : tracker := [id].
Definition new_tracker : tracker := new_at 0.

(** What a thread does, with the result it gets.  Trackers are numbered. *)
Inductive op := Next (t : nat) | Peek (t : nat) | MakeClone (t : nat).
Inductive event := GotId (t : nat) (id : Z) | Saw (t : nat) (v : Z) | Cloned (t : nat) (t' : nat).

Definition set_nth {A : Type} (n : nat) (x : A) (l : list A) : list A :=
  firstn n l ++ x :: skipn (S n) l.

(** id_tracker.rs:25-41, 67-84 [next], [peek], [make_clone] *)
Inductive op_step : list tracker -> op -> event -> list tracker -> Prop :=
| os_next : forall ts t tr, nth_error ts t = Some tr ->
    op_step ts (Next t) (GotId t (latest tr)) (set_nth t (u64 (latest tr + 1) :: tr) ts)
| os_peek : forall ts t tr v, nth_error ts t = Some tr -> In v tr -> op_step ts (Peek t) (Saw t v) ts
| os_clone : forall ts t tr v, nth_error ts t = Some tr -> In v tr ->
    op_step ts (MakeClone t) (Cloned t (List.length ts)) (ts ++ [new_at v]).

(** Threads: what each has left to do.  A step is one operation of one of them. *)
Inductive run : list (list op) -> list tracker -> list event -> list (list op) -> list tracker -> Prop :=
| run_stop : forall ps ts, run ps ts [] ps ts
| run_step : forall ps ts i o rest e ts' es ps'' ts'', nth_error ps i = Some (o :: rest) ->
    op_step ts o e ts' -> run (set_nth i rest ps) ts' es ps'' ts'' -> run ps ts (e :: es) ps'' ts''.

(** ** symbol_table.rs *)

(** A symbol table with its tracker, or a frozen one with the table's and its own
    (1601-1605). *)
Inductive table := Thawed (id : Z) | Frozen (inner : Z) (id : Z).
Inductive table_op := AddThing | NewName | Freeze | Unfreeze.
(** 851-860 [add_thing_at_offset], 862-868 [freeze], 1612-1614 [new_name], 1618-1627
    [unfreeze].  [None]: the method does not exist on a value of that type. *)
Definition table_step (t : table) (o : table_op) : option (option Z * table) :=
  match t, o with
  | Thawed id, AddThing => Some (Some id, Thawed (u64 (id + 1)))
  | Thawed id, Freeze => Some (None, Frozen id id)
  | Frozen inner id, NewName => Some (Some id, Frozen inner (u64 (id + 1)))
  | Frozen inner id, Unfreeze => Some (None, Thawed id)
  | _, _ => None
  end.
Fixpoint table_run (t : table) (ops : list table_op) : option (list Z) :=
  match ops with
  | [] => Some []
  | o :: ops =>
      match table_step t o with
      | Some (id, t') =>
          option_map (fun ids => match id with Some id => id :: ids | None => ids end) (table_run t' ops)
      | None => None
      end
  end.
