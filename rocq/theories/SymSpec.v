(** What name lookup should do. *)
From Coq Require Import List Bool Arith String.
From Verif Require Import SymModel.
Import ListNotations.
Local Open Scope list_scope.

(** The item a path names in the scope at position [o]. *)
Definition item (t : symtab) (o : nat) (p : path) (id : nat) : Prop := scope_vars t o p = Some id.
Definition is_alias (t : symtab) (id : nat) : Prop := exists ap ans, get (things t) id = Some (TAlias ap ans).

(** A segment with no special meaning at the head of a path. *)
Definition ordinary (g : segment) : Prop := g <> Named "lib" /\ g <> Named "self" /\ g <> Named "super".

(** Position [o] is the innermost scope in which [p] is declared. *)
Definition innermost (t : symtab) (o : nat) (p : path) : Prop :=
  (exists id, item t o p id) /\ forall o' id, o' < o -> ~ item t o' p id.
Definition undeclared (t : symtab) (p : path) : Prop := forall o id, ~ item t o p id.

(** [inside m ns]: namespace [ns] is module [m] or is in it. *)
Definition inside (m ns : path) : Prop := exists r, ns = m ++ r.

(** Who may use the item declared in [p]: the module meant by its marker, and what
    is inside that module.  [lib] is the root of the library `pub(lib)` refers to. *)
Inductive may_use (lib : path) : visibility -> path -> path -> Prop :=
| use_public p ns : may_use lib Public p ns
| use_lib p ns : inside lib ns -> may_use lib AtLib p ns
| use_self m x ns : inside m ns -> may_use lib AtSelf (m ++ [x]) ns
| use_implicit m x ns : inside m ns -> may_use lib Implicit (m ++ [x]) ns
| use_super m x y ns : inside m ns -> may_use lib AtSuper (m ++ [x; y]) ns
| use_super2 m x y z ns : inside m ns -> may_use lib AtSuperSuper (m ++ [x; y; z]) ns.
(** Item [id], found as [p], may be used from [ns]. *)
Definition usable (t : symtab) (id : nat) (p ns : path) : Prop :=
  forall v, get (visibilities t) id = Some v -> may_use (base t) v p ns.

(** A path that is only `lib`, `self`, or some `super`s. *)
Definition bare (p : path) : Prop :=
  p = [] \/ p = [Named "lib"] \/ p = [Named "self"] \/ exists n, p = repeat (Named "super") (S n).

(** The namespaces that can be the result of a bare path are items of the
    outermost scope, and not aliases: modules. *)
Definition module (t : symtab) (q : path) : Prop :=
  exists id, item t (current_scope t) q id /\ ~ is_alias t id.
Definition modules (t : symtab) (q : path) : Prop := forall n, module t (firstn n q).
Definition namespaces_ok (t : symtab) : Prop :=
  modules t (base t) /\
  forall id ap ans, In (id, TAlias ap ans) (things t) -> ap <> [] /\ modules t ans.

(** A marker `pub(super)` has a module to refer to. *)
Definition deep_enough (t : symtab) : Prop :=
  forall o p id v, item t o p id -> get (visibilities t) id = Some v ->
    match v with
    | Public | AtLib => True
    | Implicit | AtSelf => 1 <= List.length p
    | AtSuper => 2 <= List.length p
    | AtSuperSuper => 3 <= List.length p
    end.

(** The number of aliases. *)
Definition aliases (t : symtab) : nat := List.length (things t).

(** Numbers handed out so far. *)
Definition ids_ok (t : symtab) : Prop :=
  (forall o p id, item t o p id -> id < next_id t) /\ scopes t <> [].

(** [work n t n' t']: from [t], with [n] scopes of our own open, to [t'] with [n'],
    touching only our own scopes. *)
Inductive work : nat -> symtab -> nat -> symtab -> Prop :=
| work_done n t : work n t n t
| work_open n t b n' t' : work (S n) (new_scope t b) n' t' -> work n t n' t'
| work_close n t n' t' : work n (close_scope t) n' t' -> work (S n) t n' t'
| work_thing n t off name x v note n' t' :
    off < n -> work n (snd (add_thing_at t off name x v note)) n' t' -> work n t n' t'
| work_type n t name v note n' t' :
    0 < n -> work n (snd (add_type t name v note)) n' t' -> work n t n' t'
| work_namespace n t ns b n' t' : work n (with_namespace t ns b) n' t' -> work n t n' t'.

(** Items declared one after the other in the outermost scope, each refused if its
    name is taken. *)
Inductive declares : symtab -> symtab -> Prop :=
| declares_none t : declares t t
| declares_thing t name x v note id t1 t2 :
    add_unique_thing t name x v note = Some (id, t1) -> declares t1 t2 -> declares t t2
| declares_type t name v note id t1 t2 :
    add_unique_type t name v note = Some (id, t1) -> declares t1 t2 -> declares t t2
| declares_namespace t ns b t2 : declares (with_namespace t ns b) t2 -> declares t t2.

(** ** Direct paths *)
(** Scope, module and segments from which the path [p] in [ns] is walked. *)
Inductive begins (t : symtab) (ns : path) : path -> nat -> path -> list segment -> Prop :=
| begins_scope g r o : ordinary g -> innermost t o (ns ++ [g]) -> begins t ns (g :: r) o ns (g :: r)
| begins_root g r : ordinary g -> undeclared t (ns ++ [g]) -> begins t ns (g :: r) (current_scope t) [] (g :: r)
| begins_lib r : begins t ns (Named "lib" :: r) (current_scope t) (base t) r
| begins_self g r : begins t ns (Named "self" :: g :: r) (current_scope t) ns (g :: r)
| begins_super m k n r : ns = m ++ k -> List.length k = S n -> ~ (exists r', r = Named "super" :: r') ->
    begins t ns (repeat (Named "super") (S n) ++ r) (current_scope t) m r.
(** Every step from [p] through [segs] is an item, and may be used from [ns]. *)
Definition prefixes_ok (t : symtab) (check : bool) (ns : path) (o : nat) (p : path) (segs : list segment) : Prop :=
  forall a g b, segs = a ++ g :: b ->
    exists id, item t o (p ++ a ++ [g]) id /\ (check = true -> usable t id (p ++ a ++ [g]) ns).
Definition no_alias_on (t : symtab) (o : nat) (p : path) (segs : list segment) : Prop :=
  forall a g b id, segs = a ++ g :: b -> item t o (p ++ a ++ [g]) id -> ~ is_alias t id.

(** Every name in scope has a meaning. *)
Definition all_known (t : symtab) : Prop := forall o p id, item t o p id -> known t id = true.
(** The scopes inside position [o] let [id] through. *)
Definition let_through (t : symtab) (o id : nat) : Prop :=
  get (things t) id = None \/
  forall k s b, k < o -> nth_error (scopes t) k = Some s -> barrier s = Some b -> b id = true.

Definition one_scope (t : symtab) : Prop := List.length (scopes t) = 1.
