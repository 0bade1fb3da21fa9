(** The check that types do not contain themselves:
    spade-ast-lowering/src/global_symbols.rs:589-1112 [re_visit_type_declaration].

    Names of types are numbers, written types are [TypingModel.tspec].  A declaration is
    what it is made of: the types of the members of a struct or of all variants of an
    enum, the type an alias stands for, nothing for a built-in type.  Everything else
    about a declaration is left out, as are errors other than a cycle. *)
From Coq Require Import List Arith Bool.
From Verif Require Import TypingModel.
Import ListNotations.

(** [item_list.types] *)
Definition types_ : Type := list (nat * list tspec).
Definition body_of (g : types_) (d : nat) : option (list tspec) :=
  option_map snd (List.find (fun e => fst e =? d) g).

(** global_symbols.rs:1078-1112 [add_type_spec_name_ids_to_graph]: the names it adds, in
    the order it adds them *)
Fixpoint spec_names (s : tspec) : list nat :=
  match s with
  | TSNamed n l => n :: flat_map spec_names l
  | TSTuple l => flat_map spec_names l
  | TSArray a b => spec_names a ++ spec_names b
  | TSInverted a | TSCopyView a => spec_names a
  | TSInt _ | TSBool _ | TSStr _ | TSConst _ | TSGeneric _ | TSWildcard => []
  end.

(** [pending_names], a set, and [visited_edges], a map whose newest entry comes first *)
Definition pending : Type := list nat.
Definition edges : Type := list (nat * nat).
Definition insert (x : nat) (p : pending) : pending := if existsb (Nat.eqb x) p then p else x :: p.
Definition add_name (prev : nat) (s : pending * edges) (x : nat) : pending * edges :=
  (insert x (fst s), (x, prev) :: snd s).
Definition add_specs (prev : nat) (l : list tspec) (s : pending * edges) : pending * edges :=
  fold_left (add_name prev) (flat_map spec_names l) s.
Definition edge (e : edges) (x : nat) : option nat := option_map snd (List.find (fun p => fst p =? x) e).

(** global_symbols.rs:983-1057: the search.  Which pending name is taken next is up to
    the hash set: any number [order k p] picks one.  A name without a declaration is
    skipped.  [None]: no end within the fuel. *)
Inductive verdict := Accepted | Cycle (e : edges).
Definition pick (i : nat) (p : pending) : nat := nth (i mod length p) p 0.
Fixpoint search (fuel : nat) (order : nat -> pending -> nat) (g : types_) (d : nat) (s : pending * edges) : option verdict :=
  match fuel with
  | 0 => None
  | S fuel =>
      match fst s with
      | [] => Some Accepted
      | _ =>
          let x := pick (order fuel (fst s)) (fst s) in
          if x =? d then Some (Cycle (snd s))
          else
            let s := (remove Nat.eq_dec x (fst s), snd s) in
            search fuel order g d (match body_of g x with Some l => add_specs x l s | None => s end)
      end
  end.

(** global_symbols.rs:990-1011: the notes of the error, from the declaration back to it.
    [None]: a panic, or no end. *)
Fixpoint trail (fuel : nat) (e : edges) (d x : nat) : option (list nat) :=
  match fuel with
  | 0 => None
  | S fuel =>
      match edge e x with
      | None => None
      | Some y => if y =? d then Some [y] else option_map (cons y) (trail fuel e d y)
      end
  end.

(** The whole of [re_visit_type_declaration]: the declaration is added, or refused with
    the cycle *)
Inductive declared := Added (g : types_) | Refused (cycle : list nat) | Stuck.
Definition declare (fuel : nat) (order : nat -> pending -> nat) (g : types_) (d : nat) (l : list tspec) : declared :=
  match search fuel order g d (add_specs d l ([], [])) with
  | Some Accepted => Added ((d, l) :: g)
  | Some (Cycle e) => match trail fuel e d d with Some c => Refused c | None => Stuck end
  | None => Stuck
  end.

(** global_symbols.rs:366-369 and the other places types are declared, one after the
    other; a refused declaration is left out. *)
Fixpoint declare_all (fuel : nat) (order : nat -> pending -> nat) (ds : types_) (g : types_) : option types_ :=
  match ds with
  | [] => Some g
  | (d, l) :: ds =>
      match declare fuel order g d l with
      | Added g => declare_all fuel order ds g
      | Refused _ => declare_all fuel order ds g
      | Stuck => None
      end
  end.
