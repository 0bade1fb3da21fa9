(** Names of instances.  Source: spade-mir/src/unit_name.rs,
    spade-compiler/src/compiler_state.rs:339-399. *)
From Coq Require Import String List Arith Bool.
From Verif Require Import MirModel.
Import ListNotations.
Local Open Scope list_scope.

(** Units are numbers. *)
(** unit_name.rs:41-43 [InstanceMap]: the instances in each unit *)
Definition instance_map : Type := list (nat * list (string * nat)).
(** unit_name.rs:65-67 [InstanceNameTracker] *)
Definition name_tracker : Type := list (string * nat).

(** std: maps from strings and from units *)
Definition s_get {V : Type} (m : list (string * V)) (k : string) : option V :=
  option_map snd (find (fun p => (fst p =? k)%string) m).
Definition s_insert {V : Type} (m : list (string * V)) (k : string) (v : V) : list (string * V) := (k, v) :: m.
Definition u_get {V : Type} (m : list (nat * V)) (k : nat) : option V :=
  option_map snd (find (fun p => fst p =? k) m).

(** unit_name.rs:82-108 [use_name] *)
Definition use_name (tr : name_tracker) (unit_name : nat) (instance_name : string) (in_unit : nat) (map : instance_map)
    : string * name_tracker * instance_map :=
  let e := match s_get tr instance_name with Some e => e | None => 0 end in
  let result := (instance_name ++ "_" ++ show_nat e)%string in
  let local := match u_get map in_unit with Some l => l | None => [] end in
  (result, s_insert tr instance_name (e + 1), (in_unit, s_insert local result unit_name) :: map).

(** codegen/mod.rs:1440 and 1004-1008: one module, whose instances are requested one
    after the other with a new tracker *)
Fixpoint instances (tr : name_tracker) (in_unit : nat) (reqs : list (nat * string)) (map : instance_map)
    : list string * instance_map :=
  match reqs with
  | [] => ([], map)
  | (unit_name, name) :: reqs =>
      let '(result, tr', map') := use_name tr unit_name name in_unit map in
      let q := instances tr' in_unit reqs map' in
      (result :: fst q, snd q)
  end.
(** every module in turn *)
Fixpoint modules (ms : list (nat * list (nat * string))) (map : instance_map) : list (list string) * instance_map :=
  match ms with
  | [] => ([], map)
  | (u, reqs) :: ms =>
      let r := instances [] u reqs map in
      let q := modules ms (snd r) in
      (fst r :: fst q, snd q)
  end.

(** compiler_state.rs:349-392: from the top module down a path of instance names *)
Fixpoint walk (map : instance_map) (current : nat) (path : list string) : option nat :=
  match path with
  | [] => Some current
  | i :: path =>
      match u_get map current with
      | Some local => match s_get local i with Some next => walk map next path | None => None end
      | None => None
      end
  end.
