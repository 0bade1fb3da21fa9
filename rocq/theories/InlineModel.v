(** Inlining of units: spade-hir-lowering/src/inline.rs.

    Unit names are numbers; an instance of unit [c] is a binding with operator
    [MOther c].  Types are opaque here: only which names of a unit have a known
    type is kept.  Locations are left out. *)
From Coq Require Import List Bool Arith String.
From Verif Require Import CodegenModel MirModel.
Import ListNotations.
Local Open Scope list_scope.

(** monomorphisation.rs:183-188 [MirOutput] with spade-mir/src/lib.rs [Entity]:
    the [inline] flag and, for the type state, the names with a known type. *)
Record munit := { mu_entity : entity; mu_inline : bool; mu_typed : vn -> bool }.

(** inline.rs:363-367: the map from names to units; a later unit replaces an
    earlier one of the same name. *)
Definition source_map := list (nat * munit).
Definition find_unit (P : source_map) (c : nat) : option munit :=
  option_map snd (find (fun p => fst p =? c) (rev P)).

(** The two trackers: the next name number and the next expression number. *)
Record ids := { next_name : nat; next_expr : nat }.

(** inline.rs:105-115, 254-266 *)
Definition fresh_like (i : ids) (n : vn) : vn * ids :=
  match n with
  | Named _ s => (Named (next_name i) s, {| next_name := S (next_name i); next_expr := next_expr i |})
  | EId _ => (EId (next_expr i), {| next_name := next_name i; next_expr := S (next_expr i) |})
  end.
Fixpoint fresh_all (i : ids) (l : list vn) : list (vn * vn) * ids :=
  match l with
  | [] => ([], i)
  | n :: l =>
      let '(n', i) := fresh_like i n in
      let '(r, i) := fresh_all i l in
      ((n, n') :: r, i)
  end.

(** inline.rs:16-29 [InlinedStatements], 162-166 [InlinedEntity].  Of the map
    [name_map] of a call only the keys are ever used: [names]; of [type_map] only
    the names: [types]. *)
Inductive piece :=
| Normal (l : list stmt)
| InlinedCall (outer inner : vn) (t : ty) (target : pieces) (names : list vn)
              (inputs : list (vn * vn)) (types : list vn)
with pieces := PNil | PCons (p : piece) (l : pieces).

Definition name_map := list (vn * vn).
(** inline.rs:40: a map collected from pairs; the entry inserted last is first. *)
Definition get_final_name (nm : name_map) (n : vn) : vn := try_rename nm n.

Section Inline.
  (** The keys of a map in the order in which a [BTreeMap] lists them. *)
  Variable ord : list vn -> list vn.

  (** inline.rs:100-123 [new_name_map] *)
  Definition new_name_map (nm : name_map) (i : ids) (names : list vn) (inputs : list (vn * vn)) (types : list vn)
    : name_map * ids :=
    let '(r, i) := fresh_all i (ord names ++ ord (map fst nm) ++ types) in
    (rev (r ++ map (fun p => (fst p, get_final_name nm (snd p))) inputs), i).

  (** inline.rs:31-160 [InlinedStatements::finalize].  The result: the statements,
      the names that get a type (lines 125-138), and the trackers.  [None]: the
      diagnostic of lines 147-152. *)
  Fixpoint finalize (nm : name_map) (i : ids) (p : piece) : option (list stmt * list vn * ids) :=
    match p with
    | Normal l => Some (map (map_stmt (get_final_name nm)) l, [], i)
    | InlinedCall outer inner t target names inputs types =>
        let '(nm', i) := new_name_map nm i names inputs types in
        let typed := map (get_final_name nm') types in
        match lookup_name nm' inner with
        | None => None
        | Some inner' =>
            match finalize_all nm' i target with
            | None => None
            | Some (l, typed', i) => Some (l ++ [SAlias (get_final_name nm outer) inner' t], typed ++ typed', i)
            end
        end
    end
  with finalize_all (nm : name_map) (i : ids) (l : pieces) : option (list stmt * list vn * ids) :=
    match l with
    | PNil => Some ([], [], i)
    | PCons p l =>
        match finalize nm i p with
        | None => None
        | Some (a, ta, i) =>
            match finalize_all nm i l with
            | None => None
            | Some (b, tb, i) => Some (a ++ b, ta ++ tb, i)
            end
        end
    end.

  Variable P : source_map.

  (** inline.rs:220-237: the unit a statement calls, if it is to be inlined. *)
  Definition inline_call (s : stmt) : option (vn * nat * entity * (vn -> bool) * list vn * ty) :=
    match s with
    | SBind n (MOther c) ops t =>
        match find_unit P c with
        | Some u => if mu_inline u then Some (n, c, mu_entity u, mu_typed u, ops, t) else None
        | None => None
        end
    | _ => None
    end.

  (** [zip] *)
  Definition zip (e : entity) (ops : list vn) : list (vn * vn) := combine (map in_val (e_inputs e)) ops.

  (** inline.rs:195-356 [perform_inlining].  [fuel] bounds the depth of the
      recursion; [None]: it is used up (the code overflows its stack), or the
      entity does not exist (line 204). *)
  Definition cache := list (nat * pieces).
  Fixpoint perform_inlining (fuel : nat) (u : nat) (ca : cache) (i : ids) : option (pieces * cache * ids) :=
    match fuel with
    | 0 => None
    | S fuel =>
        match find (fun p => fst p =? u) ca with
        | Some (_, l) => Some (l, ca, i)
        | None =>
            match find_unit P u with
            | None => None
            | Some src =>
                match
                  (fix go (cur : list stmt) (ss : list stmt) (ca : cache) (i : ids) : option (pieces * cache * ids) :=
                     match ss with
                     | [] => Some (PCons (Normal cur) PNil, ca, i)
                     | s :: ss =>
                         match inline_call s with
                         | None => go (cur ++ [s]) ss ca i
                         | Some (n, c, e, typed, ops, t) =>
                             let '(m, i) := fresh_all i (flat_map defined (e_stmts e)) in
                             let types := map snd (filter (fun p => typed (fst p)) m) in
                             match perform_inlining fuel c ca i with
                             | None => None
                             | Some (target, ca, i) =>
                                 match go [] ss ca i with
                                 | None => None
                                 | Some (r, ca, i) =>
                                     Some (PCons (Normal cur)
                                            (PCons (InlinedCall n (e_output e) t target (map fst m) (zip e ops) types) r),
                                           ca, i)
                                 end
                             end
                         end
                     end) [] (e_stmts (mu_entity src)) ca i
                with
                | None => None
                | Some (l, ca, i) => Some (l, (u, l) :: ca, i)
                end
            end
        end
    end.

  (** inline.rs:370-374: the units that are not inlined themselves. *)
  Fixpoint perform_all (fuel : nat) (us : source_map) (ca : cache) (i : ids) : option (list (nat * entity * pieces) * ids) :=
    match us with
    | [] => Some ([], i)
    | (u, mu) :: us =>
        if mu_inline mu then perform_all fuel us ca i
        else
          match perform_inlining fuel u ca i with
          | None => None
          | Some (l, ca, i) =>
              match perform_all fuel us ca i with
              | None => None
              | Some (r, i) => Some ((u, mu_entity mu, l) :: r, i)
              end
          end
    end.

  Definition with_stmts (e : entity) (l : list stmt) : entity :=
    {| e_inputs := e_inputs e; e_output := e_output e; e_output_ty := e_output_ty e; e_stmts := l |}.

  (** inline.rs:168-193 [InlinedEntity::finalize], 376-379.  Each result carries
      the names that were given a type. *)
  Fixpoint finalize_units (us : list (nat * entity * pieces)) (i : ids) : option (list (nat * entity * list vn)) :=
    match us with
    | [] => Some []
    | (u, e, l) :: us =>
        match finalize_all [] i l with
        | None => None
        | Some (stmts, typed, i) =>
            match finalize_units us i with
            | None => None
            | Some r => Some ((u, with_stmts e stmts, typed) :: r)
            end
        end
    end.

  (** inline.rs:358-380 [do_inlining] *)
  Definition do_inlining (fuel : nat) (i : ids) : option (list (nat * entity * list vn)) :=
    match perform_all fuel P [] i with
    | None => None
    | Some (l, i) => finalize_units l i
    end.
End Inline.
