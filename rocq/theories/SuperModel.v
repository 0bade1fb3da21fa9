(** Supertraits: /repo/spade-ast-lowering/src/impls.rs:517-580 (the search for cycles when a
    trait is declared) and /repo/spade-typeinference/src/lib.rs:1929-1954, 2676-2763 (the
    bounds a bound brings with it).

    Types are those of ConformModel.v.  A trait is its parameters and its supertraits; the
    rest of a declaration is left out. *)
From Coq Require Import ZArith List Bool Arith.
From Verif Require Import ConformModel.
Import ListNotations.

(** spade-hir/src/lib.rs:484-490 [TraitSpec], without the way it is written *)
Record tspec := { ts_name : nat; ts_args : option texprs }.
Definition tspec_eqb (a b : tspec) : bool :=
  (ts_name a =? ts_name b) &&
  match ts_args a, ts_args b with
  | Some l, Some k => texprs_eqb l k
  | None, None => true
  | _, _ => false
  end.
Definition args_of (s : tspec) : texprs := match ts_args s with Some l => l | None => XNil end.
(** spade-hir/src/lib.rs:1113-1121 [TraitDef]; the field is called [subtraits] there *)
Record trait_ := { tr_params : list generic; tr_supers : list tspec }.
Definition traits_ : Type := list (nat * trait_).
Definition get_trait (g : traits_) (n : nat) : option trait_ := option_map snd (find (fun e => fst e =? n) g).

(** * The search: impls.rs:517-566 *)
(** [pending_names], a set, and [visited_edges], a map whose newest entry comes first.  The
    first entries (517-525) are collected: a name met twice is one entry, with the same value. *)
Definition pending : Type := list nat.
Definition edges : Type := list (nat * nat).
Definition contains (e : edges) (x : nat) : bool := existsb (fun p => fst p =? x) e.
Definition add_name (prev : nat) (s : pending * edges) (x : nat) : pending * edges :=
  if contains (snd s) x then s else (x :: fst s, (x, prev) :: snd s).
Definition add_supers (prev : nat) (l : list tspec) (s : pending * edges) : pending * edges :=
  fold_left (add_name prev) (map ts_name l) s.
Definition edge (e : edges) (x : nat) : option nat := option_map snd (find (fun p => fst p =? x) e).

(** Which pending name is taken next is up to the hash set.  A trait that has not been
    declared yet is skipped.  [None]: no end within the fuel. *)
Inductive verdict := Accepted | Cycle (e : edges).
Definition pick (i : nat) (p : pending) : nat := nth (i mod length p) p 0.
Fixpoint search (fuel : nat) (order : nat -> pending -> nat) (g : traits_) (d : nat) (s : pending * edges) : option verdict :=
  match fuel with
  | 0 => None
  | S fuel =>
      match fst s with
      | [] => Some Accepted
      | _ =>
          let x := pick (order fuel (fst s)) (fst s) in
          if x =? d then Some (Cycle (snd s))
          else
            let s := (remove Nat.eq_dec x (fst s), snd s) in
            search fuel order g d (match get_trait g x with Some t => add_supers x (tr_supers t) s | None => s end)
      end
  end.

(** 534-549: the notes of the error.  [None]: a panic, or no end. *)
Fixpoint trail (fuel : nat) (e : edges) (d x : nat) : option (list nat) :=
  match fuel with
  | 0 => None
  | S fuel =>
      match edge e x with
      | None => None
      | Some y => if y =? d then Some [y] else option_map (cons y) (trail fuel e d y)
      end
  end.

(** 517-580 and spade-hir/src/lib.rs:1235-1270 [add_trait], which refuses a name that is taken *)
Inductive declared := Added (g : traits_) | Refused_cycle (cycle : list nat) | Refused_twice | Stuck.
Definition declare (fuel : nat) (order : nat -> pending -> nat) (g : traits_) (d : nat) (t : trait_) : declared :=
  match search fuel order g d (add_supers d (tr_supers t) ([], [])) with
  | Some Accepted => match get_trait g d with Some _ => Refused_twice | None => Added ((d, t) :: g) end
  | Some (Cycle e) => match trail fuel e d d with Some c => Refused_cycle c | None => Stuck end
  | None => Stuck
  end.
(** The traits of a program, one after the other, up to the first error *)
Fixpoint declare_all (fuel : nat) (order : nat -> pending -> nat) (ds : traits_) (g : traits_) : declared :=
  match ds with
  | [] => Added g
  | (d, t) :: ds => match declare fuel order g d t with Added g => declare_all fuel order ds g | r => r end
  end.

(** * The bounds of a type parameter: typeinference lib.rs:1932-1945 *)
(** A queue; [all_transitive_traits] is a set.  [get_trait(..).unwrap()] panics for a trait
    that does not exist.  [None]: no end within the fuel. *)
Fixpoint transitive (fuel : nat) (g : traits_) (queue all : list tspec) : option (res (list tspec)) :=
  match fuel with
  | 0 => None
  | S fuel =>
      match queue with
      | [] => Some (Ok all)
      | s :: queue =>
          if existsb (tspec_eqb s) all then transitive fuel g queue all
          else
            match get_trait g (ts_name s) with
            | None => Some Panic
            | Some t => transitive fuel g (queue ++ tr_supers t) (s :: all)
            end
      end
  end.

(** typeinference lib.rs:301-345, 365-470, 2861-2870: whether a type can be made a type
    variable, with the generics [gl] in scope.  Aliases are taken to be expanded. *)
Section Var.
  Variable gl : list generic.
  Definition in_list (g : generic) : bool := existsb (generic_eqb g) gl.
  Fixpoint cg_var (c : cg) : res unit :=
    match c with
    | CName n => if in_list (Named n) then Ok tt else Bug
    | CBool _ | CInt _ | CStr _ => Ok tt
    | CBin _ a b => bind (cg_var a) (fun _ => cg_var b)
    | CUn _ a => cg_var a
    end.
  Fixpoint spec_var (s : spec) : res unit :=
    match s with
    | Declared _ es => exprs_var es
    | Generic g => if in_list g then Ok tt else Panic
    | Tuple l => specs_var l
    | Array s size => bind (spec_var s) (fun _ => expr_var size)
    | Inverted s | CopyView s => spec_var s
    | TraitSelf => Bug
    | Wildcard => Ok tt
    end
  with expr_var (e : texpr) : res unit :=
    match e with
    | ESpec s => spec_var s
    | EConst c => cg_var c
    | EBool _ | EInt _ | EStr _ => Ok tt
    end
  with specs_var (l : specs) : res unit :=
    match l with SNil => Ok tt | SCons s l => bind (spec_var s) (fun _ => specs_var l) end
  with exprs_var (l : texprs) : res unit :=
    match l with XNil => Ok tt | XCons e l => bind (expr_var e) (fun _ => exprs_var l) end.
  (** 2707-2712 *)
  Fixpoint visit_bounds (l : list tspec) : res unit :=
    match l with [] => Ok tt | s :: l => bind (exprs_var (args_of s)) (fun _ => visit_bounds l) end.
End Var.
(** 1929-1954 for one clause [T: traits]: the bounds put on [T] *)
Definition bounds (fuel : nat) (g : traits_) (gl : list generic) (traits : list tspec) : option (res (list tspec)) :=
  match transitive fuel g traits [] with
  | Some (Ok l) => Some (bind (visit_bounds gl l) (fun _ => Ok l))
  | r => r
  end.
