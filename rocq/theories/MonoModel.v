(** Monomorphisation: the queue of units to compile, the worker threads and the
    order of the results.  spade-hir-lowering/src/monomorphisation.rs.

    One step of the machine below is one atomic operation of one thread: a
    critical section up to the point where something outside it can be observed,
    or one access to an atomic variable.  Every interleaving of the threads of
    the code is a run of the machine; it has more runs, because any number of
    spawned jobs may be in progress at once. *)
From Coq Require Import List ZArith Bool Arith.
Import ListNotations.
Local Open Scope list_scope.

(** spade-types/src/lib.rs:238-251 [KnownType]; a name is its number
    (spade-common/src/name.rs:269-289), a string the list of its bytes. *)
Inductive kbase :=
| KNamed (n : nat) | KInteger (z : Z) | KBool (b : bool) | KString (s : list nat)
| KTuple | KArray | KInverted | KCopyView | KError.

(** spade-typeinference/src/equation.rs:548-549 [KnownTypeVar]; locations all
    compare equal (spade-common/src/location_info.rs:330-348) and are left out. *)
Inductive ktv := Known (b : kbase) (params : ktvs)
with ktvs := KNil | KCons (t : ktv) (l : ktvs).

(** monomorphisation.rs:58-63 [MonoKey] and the keys of the translation (line 69):
    the unit's name and its type arguments. *)
Definition mkey := (nat * ktvs)%type.

(** The derived orders (equation.rs:548, lib.rs:238, monomorphisation.rs:58):
    variants in the order of their declaration, then the fields. *)
Definition lex (a b : comparison) : comparison := match a with Eq => b | _ => a end.
Fixpoint list_compare (a b : list nat) : comparison :=
  match a, b with
  | [], [] => Eq
  | [], _ => Lt
  | _, [] => Gt
  | x :: a, y :: b => lex (Nat.compare x y) (list_compare a b)
  end.
Definition variant (b : kbase) : nat :=
  match b with
  | KNamed _ => 0 | KInteger _ => 1 | KBool _ => 2 | KString _ => 3 | KTuple => 4
  | KArray => 5 | KInverted => 6 | KCopyView => 7 | KError => 8
  end.
Definition bool_compare (a b : bool) : comparison :=
  match a, b with false, true => Lt | true, false => Gt | _, _ => Eq end.
Definition base_compare (a b : kbase) : comparison :=
  match a, b with
  | KNamed n, KNamed m => Nat.compare n m
  | KInteger n, KInteger m => Z.compare n m
  | KBool n, KBool m => bool_compare n m
  | KString n, KString m => list_compare n m
  | _, _ => Nat.compare (variant a) (variant b)
  end.
Fixpoint ktv_compare (a b : ktv) : comparison :=
  match a, b with Known x l, Known y r => lex (base_compare x y) (ktvs_compare l r) end
with ktvs_compare (a b : ktvs) : comparison :=
  match a, b with
  | KNil, KNil => Eq
  | KNil, _ => Lt
  | _, KNil => Gt
  | KCons x l, KCons y r => lex (ktv_compare x y) (ktvs_compare l r)
  end.
Definition key_compare (a b : mkey) : comparison :=
  lex (Nat.compare (fst a) (fst b)) (ktvs_compare (snd a) (snd b)).
Definition key_eqb (a b : mkey) : bool := match key_compare a b with Eq => true | _ => false end.
Definition key_leb (a b : mkey) : bool := match key_compare a b with Gt => false | _ => true end.

(** What compiling one instance does that other threads can see
    (monomorphisation.rs:331-560, lib.rs:2367-2399): it asks for other instances,
    and it takes fresh numbers for new names.  What it asks for depends on the
    instance only. *)
Inductive action := Request (k : mkey) | Fresh.

(** A program: the instances that are asked for at the start, with their own
    names, what compiling an instance does, and its results as functions of the
    number it was given and of the numbers it received.  An instance gives one
    unit, or nothing, or a list of errors. *)
Record program (R : Type) := {
  pr_roots : list nat;
  pr_body : mkey -> list action;
  pr_out : mkey -> list (nat -> list nat -> R) }.
Arguments pr_roots {R}. Arguments pr_body {R}. Arguments pr_out {R}.

(** Where a spawned job (lines 273-311) is.
    [Running]: the actions left and the numbers received;
    [Adding]: inside [request_compilation], the item is in the queue, the counter
    has not been increased, the lock is held (lines 143-149);
    [Leaving]: the counter has been decreased, the result not yet pushed. *)
Inductive phase :=
| Running (todo : list action) (got : list nat)
| Adding (todo : list action) (got : list nat)
| Leaving (got : list nat).
Record job := { jb_key : mkey; jb_name : nat; jb_phase : phase }.

(** The loop of line 262 with [next_target] (lines 156-181): about to lock the
    queue; found it empty and is in [yield_now]; has left the loop. *)
Inductive main_phase := Popping | Idle | Stopped.

Record state (R : Type) := {
  st_queue : list (mkey * nat);      (** to_compile *)
  st_names : list (mkey * nat);      (** translation *)
  st_next : nat;                     (** the id tracker of the symbol table *)
  st_remaining : nat;                (** remaining_units *)
  st_locked : bool;                  (** inner is locked *)
  st_jobs : list job;                (** spawned and not finished *)
  st_result : list (mkey * R);
  st_panic : bool;                   (** panic_marker *)
  st_main : main_phase;
  st_ended : list mkey               (** not in the code: the jobs that ended, in order *)
}.
Arguments st_queue {R}. Arguments st_names {R}. Arguments st_next {R}. Arguments st_remaining {R}.
Arguments st_locked {R}. Arguments st_jobs {R}. Arguments st_result {R}. Arguments st_panic {R}.
Arguments st_main {R}. Arguments st_ended {R}.

Fixpoint find_name (l : list (mkey * nat)) (k : mkey) : option nat :=
  match l with [] => None | (k', n) :: l => if key_eqb k' k then Some n else find_name l k end.

Section Machine.
Context {R : Type}.
Variable p : program R.

(** monomorphisation.rs:104-154 [request_compilation] for the initial requests
    (lines 233-249), which reuse the name; no other thread runs. *)
Definition request_root (s : state R) (n : nat) : state R :=
  match find_name (st_names s) (n, KNil) with
  | Some _ => s
  | None =>
      {| st_queue := st_queue s ++ [((n, KNil), n)]; st_names := st_names s ++ [((n, KNil), n)];
         st_next := st_next s; st_remaining := S (st_remaining s); st_locked := st_locked s;
         st_jobs := st_jobs s; st_result := st_result s; st_panic := st_panic s;
         st_main := st_main s; st_ended := st_ended s |}
  end.

(** [first]: the first number that is free. *)
Definition initial (first : nat) : state R :=
  fold_left request_root (pr_roots p)
    {| st_queue := []; st_names := []; st_next := first; st_remaining := 0; st_locked := false;
       st_jobs := []; st_result := []; st_panic := false; st_main := Popping; st_ended := [] |}.

(** One job is at another point. *)
Definition with_job (s : state R) (l : list job) (j : job) (ph : phase) (r : list job) : list job :=
  l ++ {| jb_key := jb_key j; jb_name := jb_name j; jb_phase := ph |} :: r.

Inductive step : state R -> state R -> Prop :=
(** lines 158-160, 262-273: an item is taken from the queue and spawned. *)
| StepPop s k n q : st_main s = Popping -> st_locked s = false -> st_queue s = (k, n) :: q ->
    step s {| st_queue := q; st_names := st_names s; st_next := st_next s; st_remaining := st_remaining s;
              st_locked := false;
              st_jobs := st_jobs s ++ [{| jb_key := k; jb_name := n; jb_phase := Running (pr_body p k) [] |}];
              st_result := st_result s; st_panic := st_panic s; st_main := Popping; st_ended := st_ended s |}
(** line 158, 161: the queue is empty. *)
| StepEmpty s : st_main s = Popping -> st_locked s = false -> st_queue s = [] ->
    step s {| st_queue := []; st_names := st_names s; st_next := st_next s; st_remaining := st_remaining s;
              st_locked := false; st_jobs := st_jobs s; st_result := st_result s; st_panic := st_panic s;
              st_main := Idle; st_ended := st_ended s |}
(** line 173, or line 163 with the condition false: the loop goes on. *)
| StepAgain s : st_main s = Idle ->
    step s {| st_queue := st_queue s; st_names := st_names s; st_next := st_next s; st_remaining := st_remaining s;
              st_locked := st_locked s; st_jobs := st_jobs s; st_result := st_result s; st_panic := st_panic s;
              st_main := Popping; st_ended := st_ended s |}
(** lines 163-171: the loop ends. *)
| StepStop s : st_main s = Idle -> st_remaining s = 0 \/ st_panic s = true ->
    step s {| st_queue := st_queue s; st_names := st_names s; st_next := st_next s; st_remaining := st_remaining s;
              st_locked := st_locked s; st_jobs := st_jobs s; st_result := st_result s; st_panic := st_panic s;
              st_main := Stopped; st_ended := st_ended s |}
(** A fresh number. *)
| StepFresh s l j r todo got : st_jobs s = l ++ j :: r -> jb_phase j = Running (Fresh :: todo) got ->
    step s {| st_queue := st_queue s; st_names := st_names s; st_next := S (st_next s); st_remaining := st_remaining s;
              st_locked := st_locked s; st_jobs := with_job s l j (Running todo (got ++ [st_next s])) r;
              st_result := st_result s; st_panic := st_panic s; st_main := st_main s; st_ended := st_ended s |}
(** lines 112-118: the instance was asked for before. *)
| StepKnown s l j r k n todo got : st_jobs s = l ++ j :: r -> jb_phase j = Running (Request k :: todo) got ->
    st_locked s = false -> find_name (st_names s) k = Some n ->
    step s {| st_queue := st_queue s; st_names := st_names s; st_next := st_next s; st_remaining := st_remaining s;
              st_locked := false; st_jobs := with_job s l j (Running todo (got ++ [n])) r;
              st_result := st_result s; st_panic := st_panic s; st_main := st_main s; st_ended := st_ended s |}
(** lines 112-146: a new instance, with a new name (lib.rs:2388-2392). *)
| StepNew s l j r k todo got : st_jobs s = l ++ j :: r -> jb_phase j = Running (Request k :: todo) got ->
    st_locked s = false -> find_name (st_names s) k = None ->
    step s {| st_queue := st_queue s ++ [(k, st_next s)]; st_names := st_names s ++ [(k, st_next s)];
              st_next := S (st_next s); st_remaining := st_remaining s;
              st_locked := true; st_jobs := with_job s l j (Adding todo (got ++ [st_next s])) r;
              st_result := st_result s; st_panic := st_panic s; st_main := st_main s; st_ended := st_ended s |}
(** lines 148-153: the counter is increased and the lock released. *)
| StepAdd s l j r todo got : st_jobs s = l ++ j :: r -> jb_phase j = Adding todo got ->
    step s {| st_queue := st_queue s; st_names := st_names s; st_next := st_next s; st_remaining := S (st_remaining s);
              st_locked := false; st_jobs := with_job s l j (Running todo got) r;
              st_result := st_result s; st_panic := st_panic s; st_main := st_main s; st_ended := st_ended s |}
(** lines 292-294: the counter is decreased. *)
| StepLeave s l j r got : st_jobs s = l ++ j :: r -> jb_phase j = Running [] got ->
    step s {| st_queue := st_queue s; st_names := st_names s; st_next := st_next s;
              st_remaining := st_remaining s - 1;
              st_locked := st_locked s; st_jobs := with_job s l j (Leaving got) r;
              st_result := st_result s; st_panic := st_panic s; st_main := st_main s; st_ended := st_ended s |}
(** lines 296-303: the results are pushed and the job ends. *)
| StepPush s l j r got : st_jobs s = l ++ j :: r -> jb_phase j = Leaving got ->
    step s {| st_queue := st_queue s; st_names := st_names s; st_next := st_next s; st_remaining := st_remaining s;
              st_locked := st_locked s; st_jobs := l ++ r;
              st_result := st_result s ++ map (fun f => (jb_key j, f (jb_name j) got)) (pr_out p (jb_key j));
              st_panic := st_panic s; st_main := st_main s; st_ended := st_ended s ++ [jb_key j] |}
(** lines 252-260: a job panics. *)
| StepPanic s l j r : st_jobs s = l ++ j :: r ->
    step s {| st_queue := st_queue s; st_names := st_names s; st_next := st_next s; st_remaining := st_remaining s;
              st_locked := st_locked s; st_jobs := l ++ r; st_result := st_result s;
              st_panic := true; st_main := st_main s; st_ended := st_ended s |}.

Inductive run (first : nat) : state R -> Prop :=
| RunInitial : run first (initial first)
| RunStep s s' : run first s -> step s s' -> run first s'.

(** The end of the scope (line 307): every spawned job has ended.  After a panic
    the scope panics too and there is no result. *)
Definition finished (s : state R) : Prop := st_main s = Stopped /\ st_jobs s = [] /\ st_panic s = false.

(** lines 308-314: the results, sorted by key with a stable sort. *)
Fixpoint insert_sorted (x : mkey * R) (l : list (mkey * R)) : list (mkey * R) :=
  match l with
  | [] => [x]
  | y :: l => if key_leb (fst x) (fst y) then x :: y :: l else y :: insert_sorted x l
  end.
Definition sort_by_key (l : list (mkey * R)) : list (mkey * R) := fold_right insert_sorted [] l.
Definition results (s : state R) : list R := map snd (sort_by_key (st_result s)).
End Machine.
