(** Looking things up by source location.
    Source: spade-common/src/loc_map.rs.

    A [BTreeMap] is a list of pairs in increasing order of the keys, the outer
    [HashMap] a list of pairs.  File ids and byte indices are [nat]. *)
From Coq Require Import List Arith Bool.
Import ListNotations.

Section LocMap.
Variable T : Type.

(** location_info.rs: a value with a span and a file *)
Record loc (A : Type) := Loc { l_inner : A; l_start : nat; l_end : nat; l_file : nat }.
Arguments Loc {A}. Arguments l_inner {A}. Arguments l_start {A}. Arguments l_end {A}. Arguments l_file {A}.

(** std: [BTreeMap::entry(k).or_insert(default)] followed by a change to the value *)
Fixpoint bt_modify {V : Type} (k : nat) (default : V) (f : V -> V) (m : list (nat * V)) : list (nat * V) :=
  match m with
  | [] => [(k, f default)]
  | (k', v) :: m' =>
      if k <? k' then (k, f default) :: m
      else if k =? k' then (k, f v) :: m'
      else (k', v) :: bt_modify k default f m'
  end.
(** std: [BTreeMap::range(..=k)] and [BTreeMap::range(k..)] *)
Definition bt_to {V : Type} (k : nat) (m : list (nat * V)) : list (nat * V) := filter (fun p => fst p <=? k) m.
Definition bt_from {V : Type} (k : nat) (m : list (nat * V)) : list (nat * V) := filter (fun p => k <=? fst p) m.
(** std: [HashMap::entry(k).or_insert(default)] followed by a change, [HashMap::get] *)
Fixpoint hm_modify {V : Type} (k : nat) (default : V) (f : V -> V) (m : list (nat * V)) : list (nat * V) :=
  match m with
  | [] => [(k, f default)]
  | (k', v) :: m' => if k =? k' then (k, f v) :: m' else (k', v) :: hm_modify k default f m'
  end.
Definition hm_get {V : Type} (k : nat) (m : list (nat * V)) : option V :=
  option_map snd (find (fun p => fst p =? k) m).

(** loc_map.rs:9-12 [LocMap] *)
Definition loc_map : Type := list (nat * list (nat * list (nat * list T))).
(** loc_map.rs:15-19 [new] *)
Definition new_map : loc_map := [].
(** loc_map.rs:21-30 [insert] *)
Definition insert (m : loc_map) (thing : loc T) : loc_map :=
  hm_modify (l_file thing) []
    (bt_modify (l_start thing) []
      (bt_modify (l_end thing) [] (fun things => things ++ [l_inner thing]))) m.
(** loc_map.rs:32-52 [around] *)
Definition around (m : loc_map) (l : loc unit) : list (loc T) :=
  match hm_get (l_file l) m with
  | Some starts =>
      rev (flat_map (fun s =>
        flat_map (fun e => map (fun thing => Loc thing (fst s) (fst e) (l_file l)) (snd e))
          (bt_from (l_end l) (snd s)))
        (bt_to (l_start l) starts))
  | None => []
  end.
End LocMap.
Arguments Loc {A}. Arguments l_inner {A}. Arguments l_start {A}. Arguments l_end {A}. Arguments l_file {A}.
Arguments new_map {T}. Arguments insert {T}. Arguments around {T}.
