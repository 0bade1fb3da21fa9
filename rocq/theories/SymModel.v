(** The symbol table: spade-hir/src/symbol_table.rs.

    Identifiers of names ([NameID]) are numbers; their path is only used for
    printing.  Locations and the texts of diagnostics are left out.  Maps are
    association lists in which the entry inserted last comes first.  Scopes are
    listed from the innermost to the outermost, so [scope_offset] is a position. *)
From Coq Require Import List Bool Arith String.
Import ListNotations.
Local Open Scope list_scope.

(** spade-common/src/name.rs:99-104 [PathSegment], [Path] *)
Inductive segment := Named (s : string) | Impl (n : nat) | IfT | IfF.
Definition path := list segment.
Definition segment_eqb (a b : segment) : bool :=
  match a, b with
  | Named x, Named y => String.eqb x y
  | Impl x, Impl y => x =? y
  | IfT, IfT | IfF, IfF => true
  | _, _ => false
  end.
Fixpoint path_eqb (p q : path) : bool :=
  match p, q with
  | [], [] => true
  | a :: p, b :: q => segment_eqb a b && path_eqb p q
  | _, _ => false
  end.
(** name.rs:248-250 [prelude]; [None]: it panics. *)
Definition prelude (p : path) : option path := match p with [] => None | _ => Some (removelast p) end.

(** name.rs:11-22 *)
Inductive visibility := Implicit | Public | AtLib | AtSelf | AtSuper | AtSuperSuper.

(** symbol_table.rs:330-351 [Thing]: aliases, variables, and the rest, of which
    only a number for the kind is kept. *)
Inductive thing := TAlias (target : path) (in_namespace : path) | TVariable | TOther (kind : nat).

(** symbol_table.rs:498-503 [Scope].  A barrier accepts or refuses a thing, given
    by its id. *)
Record scope := { vars : list (path * nat); barrier : option (nat -> bool) }.
(** symbol_table.rs:533-554 [SymbolTable]; [namespace] and [base] as there. *)
Record symtab := {
  scopes : list scope;
  next_id : nat;
  types : list nat;
  things : list (nat * thing);
  visibilities : list (nat * visibility);
  notes : list (nat * nat);
  namespace : path;
  base : path }.

Definition get_path (l : list (path * nat)) (p : path) : option nat :=
  option_map snd (find (fun e => path_eqb (fst e) p) l).
Definition get {A} (l : list (nat * A)) (i : nat) : option A := option_map snd (find (fun e => fst e =? i) l).
Definition mem (i : nat) (l : list nat) : bool := existsb (Nat.eqb i) l.

Definition scope_vars (t : symtab) (off : nat) (p : path) : option nat :=
  match nth_error (scopes t) off with Some s => get_path (vars s) p | None => None end.
(** symbol_table.rs:608-610 *)
Definition current_scope (t : symtab) : nat := List.length (scopes t) - 1.

(** symbol_table.rs:21-57 [LookupError] *)
Inductive lookup_error :=
| NoSuchSymbol (p : path) | TooManySuper | NotVisible | AmbiguousPath | BarrierError | WrongKind.
(** [Panic]: the code panics.  [Endless]: the fuel is used up. *)
Inductive res (A : Type) := Ok (a : A) | Err (e : lookup_error) | Panic | Endless.
Arguments Ok {A}. Arguments Err {A}. Arguments Panic {A}. Arguments Endless {A}.

(** name.rs:216-237 [extract_prefix] *)
Inductive prefix := FromLib | FromSelf | FromSuper (levels : nat) | NoPrefix.
Definition is_name (s : string) (g : segment) : bool := match g with Named x => String.eqb x s | _ => false end.
Fixpoint count_super (p : path) : nat :=
  match p with g :: p => if is_name "super" g then S (count_super p) else 0 | [] => 0 end.
Definition extract_prefix (p : path) : prefix * path :=
  match p with
  | [] => (NoPrefix, p)
  | g :: r =>
      if is_name "lib" g then (FromLib, r)
      else if is_name "self" g then (FromSelf, r)
      else if is_name "super" g then (FromSuper (count_super p), skipn (count_super p) p)
      else (NoPrefix, p)
  end.

(** The first scope, from position [o] on, that has [p]. *)
Fixpoint find_scope (l : list scope) (o : nat) (p : path) : option nat :=
  match l with
  | [] => None
  | s :: l => match get_path (vars s) p with Some _ => Some o | None => find_scope l (S o) p end
  end.

(** symbol_table.rs:1301-1368: where the walk starts: scope, path and segments. *)
Definition start (t : symtab) (p ns : path) (offset : nat) : res (nat * path * list segment) :=
  let outer := current_scope t in
  match extract_prefix p with
  | (FromLib, r) => Ok (outer, base t, r)
  | (FromSuper n, r) =>
      if n <=? List.length ns then Ok (outer, firstn (List.length ns - n) ns, r) else Err TooManySuper
  | (FromSelf, r) =>
      match r with
      | [] =>
          match find_scope (skipn offset (scopes t)) offset (ns ++ firstn 1 p) with
          | Some o => Ok (o, ns, p)
          | None => Ok (outer, ns, r)
          end
      | _ => Ok (outer, ns, r)
      end
  | (NoPrefix, _) =>
      match p with
      | [] => Ok (0, namespace t, [])
      | g :: _ =>
          match find_scope (skipn offset (scopes t)) offset (ns ++ [g]) with
          | Some o => Ok (o, ns, p)
          | None => Ok (outer, [], p)
          end
      end
  end.

(** symbol_table.rs:1406-1413; [None]: [prelude] panics. *)
Definition visible_from (t : symtab) (v : visibility) (p : path) : option path :=
  match v with
  | Public => Some []
  | Implicit | AtSelf => prelude p
  | AtLib => Some (base t)
  | AtSuper => match prelude p with Some q => prelude q | None => None end
  | AtSuperSuper =>
      match prelude p with
      | Some q => match prelude q with Some q => prelude q | None => None end
      | None => None
      end
  end.
(** symbol_table.rs:1415-1424 *)
Fixpoint is_prefix (p q : path) : bool :=
  match p, q with
  | [], _ => true
  | a :: p, b :: q => segment_eqb a b && is_prefix p q
  | _ :: _, [] => false
  end.

(** symbol_table.rs:1398-1459: deprecation and visibility.  The second lookup made
    there for the labels of the diagnostic is left out. *)
Definition check_item (t : symtab) (check : bool) (id : nat) (p ns : path) (note : option nat) : res (option nat) :=
  if check then
    let note := match get (notes t) id with Some n => Some n | None => note end in
    match get (visibilities t) id with
    | None => Ok note
    | Some v =>
        match visible_from t v p with
        | None => Panic
        | Some q => if is_prefix q ns then Ok note else Err NotVisible
        end
    end
  else Ok note.

Definition known (t : symtab) (id : nat) : bool :=
  match get (things t) id with Some _ => true | None => mem id (types t) end.

Section Walk.
  Variable t : symtab.
  Variable check : bool.
  (** The recursive call: path, namespace, forbidden ids. *)
  Variable rec : path -> path -> list nat -> res (nat * path * option nat).
  Variable ns : path.
  Variable forbidden : list nat.

  (** symbol_table.rs:1378-1537: the inner [loop], for the segments still to come. *)
  Fixpoint settle (k : nat) (local : list nat) (rest : list segment) (off : nat) (p : path) (note : option nat)
    : res (nat * path * option nat) :=
    match k with
    | 0 => Endless
    | S k =>
        match scope_vars t off p with
        | None => Err (NoSuchSymbol p)
        | Some id =>
            if mem id forbidden then Err (NoSuchSymbol p)
            else
              match check_item t check id p ns note with
              | Ok note =>
                  if mem id (types t) && match rest with [] => true | _ => false end then Ok (off, p, note)
                  else
                    match get (things t) id with
                    | Some (TAlias ap ans) =>
                        let local := id :: local in
                        match rec ap ans local with
                        | Ok (aoff, awp, anote) =>
                            match rest with
                            | [] => settle k local rest aoff awp anote
                            | next :: _ =>
                                match scope_vars t aoff (awp ++ [next]), scope_vars t off (p ++ [next]) with
                                | None, Some _ => Ok (off, p, note)
                                | Some a, Some b => if known t a && known t b then Err AmbiguousPath else Panic
                                | _, None => settle k local rest aoff awp anote
                                end
                            end
                        | Err e => Err e
                        | Panic => Panic
                        | Endless => Endless
                        end
                    | _ => Ok (off, p, note)
                    end
              | Err e => Err e
              | Panic => Panic
              | Endless => Endless
              end
        end
    end.

  (** symbol_table.rs:1370-1376: the walk through the segments. *)
  Fixpoint walk (k : nat) (segments : list segment) (off : nat) (p : path) (note : option nat)
    : res (nat * path * option nat) :=
    match segments with
    | [] => Ok (off, p, note)
    | g :: segments =>
        match settle k forbidden segments off (p ++ [g]) note with
        | Ok (off, p, note) => walk k segments off p note
        | Err e => Err e
        | Panic => Panic
        | Endless => Endless
        end
    end.
End Walk.

(** symbol_table.rs:1291-1544 [canonicalize_in_namespace].  [fuel] bounds both the
    depth of the recursion and the turns of the inner loop. *)
Fixpoint canonicalize (fuel : nat) (t : symtab) (check : bool) (p ns : path) (forbidden : list nat) (offset : nat)
  : res (nat * path * option nat) :=
  match fuel with
  | 0 => Endless
  | S f =>
      match start t p ns offset with
      | Ok (off, wp, segments) =>
          walk t check (fun ap ans local => canonicalize f t check ap ans local offset) ns forbidden fuel segments off wp None
      | Err e => Err e
      | Panic => Panic
      | Endless => Endless
      end
  end.

(** symbol_table.rs:1227-1283 [lookup_id_in_namespace]: the id, and the note of the
    deprecation warning. *)
Definition lookup_id_in (fuel : nat) (t : symtab) (p ns : path) (check : bool) : res (nat * option nat) :=
  match canonicalize fuel t check p ns [] 0 with
  | Ok (off, wp, note) =>
      match scope_vars t off wp with
      | None => Panic
      | Some id =>
          match get (things t) id with
          | None => Ok (id, note)
          | Some _ =>
              if forallb (fun s => match barrier s with Some b => b id | None => true end) (firstn off (scopes t))
              then Ok (id, note) else Err BarrierError
          end
      end
  | Err e => Err e
  | Panic => Panic
  | Endless => Endless
  end.
(** symbol_table.rs:1221-1223 *)
Definition lookup_id (fuel : nat) (t : symtab) (p : path) (check : bool) : res (nat * option nat) :=
  lookup_id_in fuel t p (namespace t) check.

(** symbol_table.rs:1211-1217 [try_lookup_id] *)
Definition try_lookup_id (fuel : nat) (t : symtab) (p : path) (check : bool) : res (option nat) :=
  match lookup_id fuel t p check with
  | Ok (id, _) => Ok (Some id)
  | Err (NoSuchSymbol _) => Ok None
  | Err _ => Panic
  | Panic => Panic
  | Endless => Endless
  end.

(** symbol_table.rs:958-990 with 1024-1044: a lookup that wants a kind of thing.
    [turns] bounds the aliases it follows. *)
Fixpoint lookup_kind (turns fuel : nat) (t : symtab) (want : nat -> bool) (p ns : path) (check : bool) : res nat :=
  match turns with
  | 0 => Endless
  | S turns =>
      match lookup_id_in fuel t p ns check with
      | Ok (id, _) =>
          match get (things t) id with
          | None => Err WrongKind
          | Some (TOther k) => if want k then Ok id else Err WrongKind
          | Some (TAlias ap ans) => lookup_kind turns fuel t want ap ans check
          | Some TVariable => Err WrongKind
          end
      | Err e => Err e
      | Panic => Panic
      | Endless => Endless
      end
  end.

(** symbol_table.rs:586-606 *)
Definition with_scopes (t : symtab) (l : list scope) : symtab :=
  {| scopes := l; next_id := next_id t; types := types t; things := things t; visibilities := visibilities t;
     notes := notes t; namespace := namespace t; base := base t |}.
Definition new_scope (t : symtab) (b : option (nat -> bool)) : symtab :=
  with_scopes t ({| vars := []; barrier := b |} :: scopes t).
Definition close_scope (t : symtab) : symtab := with_scopes t (tl (scopes t)).

Definition put_var (s : scope) (p : path) (id : nat) : scope := {| vars := (p, id) :: vars s; barrier := barrier s |}.
Fixpoint put_at (l : list scope) (off : nat) (p : path) (id : nat) : list scope :=
  match l, off with
  | [], _ => []
  | s :: l, 0 => put_var s p id :: l
  | s :: l, S off => s :: put_at l off p id
  end.
Definition opt_cons {A} (o : option A) (l : list A) : list A := match o with Some x => x :: l | None => l end.
(** symbol_table.rs:649-698, 724-733, 850-860 [add_thing], [add_thing_at_offset] *)
Definition add_thing_at (t : symtab) (off : nat) (name : path) (x : thing) (v : option visibility) (note : option nat) : nat * symtab :=
  let id := next_id t in
  (id,
   {| scopes := put_at (scopes t) off (namespace t ++ name) id; next_id := S id; types := types t;
      things := (id, x) :: things t;
      visibilities := opt_cons (option_map (pair id) v) (visibilities t);
      notes := opt_cons (option_map (pair id) note) (notes t);
      namespace := namespace t; base := base t |}).
(** symbol_table.rs:744-795 [add_type] *)
Definition add_type (t : symtab) (name : path) (v : option visibility) (note : option nat) : nat * symtab :=
  let id := next_id t in
  (id,
   {| scopes := put_at (scopes t) 0 (namespace t ++ name) id; next_id := S id; types := id :: types t;
      things := things t;
      visibilities := opt_cons (option_map (pair id) v) (visibilities t);
      notes := opt_cons (option_map (pair id) note) (notes t);
      namespace := namespace t; base := base t |}).
(** symbol_table.rs:685-698 [add_thing_with_name_id] *)
Definition add_thing_with_id (t : symtab) (id : nat) (x : thing) (v : option visibility) (note : option nat) : symtab :=
  {| scopes := scopes t; next_id := next_id t; types := types t; things := (id, x) :: things t;
     visibilities := opt_cons (option_map (pair id) v) (visibilities t);
     notes := opt_cons (option_map (pair id) note) (notes t);
     namespace := namespace t; base := base t |}.
(** symbol_table.rs:628-646 *)
Definition with_namespace (t : symtab) (ns b : path) : symtab :=
  {| scopes := scopes t; next_id := next_id t; types := types t; things := things t; visibilities := visibilities t;
     notes := notes t; namespace := ns; base := b |}.
(** symbol_table.rs:1155-1177 [ensure_is_unique] *)
Definition is_unique (t : symtab) (name : path) : bool :=
  match scope_vars t (current_scope t) (namespace t ++ name) with
  | Some id => negb (known t id)
  | None => true
  end.
(** symbol_table.rs:713-722 [add_unique_thing], 827-848 [add_alias] *)
Definition add_unique_thing (t : symtab) (name : path) (x : thing) (v : option visibility) (note : option nat) : option (nat * symtab) :=
  if is_unique t name then Some (add_thing_at t 0 name x v note) else None.
(** symbol_table.rs:815-825 [add_unique_type] *)
Definition add_unique_type (t : symtab) (name : path) (v : option visibility) (note : option nat) : option (nat * symtab) :=
  if is_unique t name then Some (add_type t name v note) else None.
(** symbol_table.rs:557-584 [SymbolTable::new]: the root module. *)
Definition root_kind : nat := 0.
Definition empty_table : symtab :=
  snd (add_thing_at {| scopes := [{| vars := []; barrier := None |}]; next_id := 0; types := []; things := [];
                       visibilities := []; notes := []; namespace := []; base := [] |}
                    0 [] (TOther root_kind) None None).
