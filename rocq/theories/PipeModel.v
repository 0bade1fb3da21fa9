(** Model of pipeline lowering.
    Source: spade-hir-lowering/src/substitution.rs, pipelines.rs and the parts of
    lib.rs that read variables in a pipeline.

    Simplifications: source locations and types are left out, except that a name
    knows whether its type has size zero; a pattern that binds several names is a
    sequence of bindings; user registers ([Statement::Register]) are handled like
    bindings by this code and are left out; a marker with a count has been expanded
    by the flatten_regs pass before.  Data values are an arbitrary type [V] and
    operators arbitrary functions on it, so nothing here depends on the data path. *)
From Coq Require Import List Bool Arith.
Import ListNotations.

(** A name: one from the source, or one made by [symtab.new_name]. *)
Inductive pname := Src (x : nat) | Fresh (n : nat).

(** substitution.rs:13-31 [Substitution]; [Undefined] is the answer [None] of
    [lookup_referenced]. *)
Inductive sub :=
| Waiting (stages_left original_stage available_at : nat) (definition : nat)
| Available (n : pname)
| Wire
| ZeroSized.

(** substitution.rs:39-48 [Substitutions]; [inner] is indexed by stage.  The hash
    maps are functions. *)
Record subs := Subs {
  inner : list (nat -> option sub);
  live_vars : list nat;
}.
(** substitution.rs:57-63 [new] *)
Definition new_subs : subs := Subs [fun _ => None] [].
Definition last_map (s : subs) : nat -> option sub := last (inner s) (fun _ => None).
Definition put (m : nat -> option sub) (x : nat) (v : sub) : nat -> option sub :=
  fun y => if y =? x then Some v else m y.
Definition insert_last (s : subs) (x : nat) (v : sub) : list (nat -> option sub) :=
  removelast (inner s) ++ [put (last_map s) x v].

(** substitution.rs:33-37 [SubRegister] *)
Record subreg := SubRegister { original : nat; previous : pname; new : pname }.

(** substitution.rs:67-118: the loop of [next_stage] over the live variables.
    [n] is the state of the name generator.  [None] is a panic (index of a
    missing key). *)
Fixpoint step_vars (old : nat -> option sub) (live : list nat) (acc : nat -> option sub) (n : nat)
  : option ((nat -> option sub) * list subreg * nat) :=
  match live with
  | [] => Some (acc, [], n)
  | x :: rest =>
      match old x with
      | None => None
      | Some v =>
          let '(v', regs, n') :=
            match v with
            | Waiting 1 _ _ name => (Available (Src name), [], n)
            | Waiting lft orig at_ name => (Waiting (lft - 1) orig at_ name, [], n)
            | Available prev => (Available (Fresh n), [SubRegister x prev (Fresh n)], S n)
            | Wire => (Wire, [], n)
            | ZeroSized => (ZeroSized, [], n)
            end in
          match step_vars old rest (put acc x v') n' with
          | Some (m, regs', n'') => Some (m, regs ++ regs', n'')
          | None => None
          end
      end
  end.
(** substitution.rs:67-121 [next_stage] *)
Definition next_stage (s : subs) (n : nat) : option (subs * list subreg * nat) :=
  match step_vars (last_map s) (live_vars s) (fun _ => None) n with
  | Some (m, regs, n') => Some (Subs (inner s ++ [m]) (live_vars s), regs, n')
  | None => None
  end.

(** substitution.rs:125-150 [set_available] *)
Definition set_available (s : subs) (from time current_stage : nat) (zero_size : bool) : subs :=
  let availability :=
    if zero_size then ZeroSized
    else if time =? 0 then Available (Src from)
    else Waiting time current_stage (current_stage + time) from in
  Subs (insert_last s from availability) (live_vars s ++ [from]).
(** substitution.rs:152-158 [set_wire] *)
Definition set_wire (s : subs) (name : nat) : subs :=
  Subs (insert_last s name Wire) (live_vars s ++ [name]).

(** substitution.rs:162-167 [lookup] in stage [current_stage] *)
Definition lookup (s : subs) (current_stage : nat) (x : nat) : sub :=
  match nth current_stage (inner s) (fun _ => None) x with
  | Some v => v
  | None => Available (Src x)
  end.
(** substitution.rs:171-176 [lookup_referenced] *)
Definition lookup_referenced (s : subs) (in_stage : nat) (x : nat) : option sub :=
  nth in_stage (inner s) (fun _ => None) x.

(** lib.rs:1114-1160: the signal a use of variable [x] reads; [None] is the error
    "use of x before it is ready". *)
Definition read (s : subs) (stage : nat) (x : nat) : option pname :=
  match lookup s stage x with
  | Waiting _ _ _ _ => None
  | Available n => Some n
  | Wire | ZeroSized => Some (Src x)
  end.
(** lib.rs:1203-1222: the same for [stage(..).x] *)
Definition read_ref (s : subs) (stage : nat) (x : nat) : option pname :=
  match lookup_referenced s stage x with
  | None | Some (Waiting _ _ _ _) => None
  | Some (Available n) => Some n
  | Some Wire | Some ZeroSized => Some (Src x)
  end.

Inductive res (A : Type) := Ok (a : A) | Err.
Arguments Ok {A}. Arguments Err {A}.

Section Pipeline.
  Variable V : Type.
  Variable truth : V -> bool.

  (** spade-hir [Expression].  [EOp] stands for every kind whose subexpressions
      are all passed to [try_compute_availability]: tuples, arrays, indexing,
      operators, function calls.  [EMatch f s l]: [s] is the scrutinee and [l]
      the guards and arms in source order.  [EBlock x e b] is [{ let x = e; b }]. *)
  Inductive expr :=
  | EVar (x : nat)
  | EConst (v : V)
  | EOp (f : list V -> V) (l : list expr)
  | EPipe (depth : nat) (f : list V -> V) (l : list expr)
  | EIf (c a b : expr)
  | EMatch (f : V -> list V -> V) (s : expr) (l : list expr)
  | EBlock (x : nat) (e b : expr).

  (** pipelines.rs:631-659 [try_compute_availability]: the match on (a, result) *)
  Definition merge (a result : option nat) : res (option nat) :=
    match a, result with
    | a, None => Ok a
    | None, prev => Ok prev
    | Some a, Some prev => if a =? prev then Ok result else Err
    end.

  (** pipelines.rs:664-798 [available_in]; [lk] is [ctx.subs.lookup]. *)
  Fixpoint available_in (lk : nat -> sub) (e : expr) : res (option nat) :=
    let compute :=
      fix compute (l : list expr) (result : option nat) : res (option nat) :=
        match l with
        | [] => Ok result
        | e :: l => match available_in lk e with
                    | Ok a => match merge a result with
                              | Ok r => compute l r
                              | Err => Err
                              end
                    | Err => Err
                    end
        end in
    match e with
    | EVar x => match lk x with
                | Waiting _ _ _ _ | Available _ => Ok (Some 0)
                | Wire | ZeroSized => Ok None
                end
    | EConst _ => Ok None
    | EOp _ l => compute l None
    | EPipe depth _ l =>
        match compute l None with
        | Ok (Some a) => Ok (Some (a + depth))
        | Ok None => Ok (Some depth)
        | Err => Err
        end
    | EIf _ a b => compute [a; b] None            (* the condition is not looked at *)
    | EMatch _ _ l => compute l None              (* nor the scrutinee *)
    | EBlock _ _ b => available_in lk b
    end.

  (** Statements of a pipeline body. *)
  Inductive item :=
  | ILet (x : nat) (wire zero_size : bool) (e : expr)
  | IMark (cond : option expr).

  Record input := Input { iname : nat; iwire : bool; izero : bool }.
  Record pipeline := Pipeline { inputs : list input; body : list item; result : expr }.

  (** lower_pipeline, pipelines.rs:229-240: inputs *)
  Definition add_input (s : subs) (i : input) : subs :=
    if iwire i then set_wire s (iname i) else set_available s (iname i) 0 0 (izero i).

  (** A data register into stage [stage + 1] and its enable (pipelines.rs:136-191). *)
  Record preg := PReg { pr_stage : nat; pr_new : pname; pr_prev : pname; pr_enabled : bool }.

  (** Does stage [i] (before marker [i]) have an enable signal?  pipelines.rs:251-275:
      iff some marker from [i] on has a condition. *)
  Definition marks (b : list item) : list (option expr) :=
    flat_map (fun i => match i with IMark c => [c] | _ => [] end) b.
  Fixpoint enable_names_rev (rev_marks : list (option expr)) (has_enable : bool) : list bool :=
    match rev_marks with
    | [] => []
    | c :: r =>
        let has := has_enable || match c with Some _ => true | None => false end in
        has :: enable_names_rev r has
    end.
  Definition stage_enable_names (b : list item) : list bool :=
    rev (enable_names_rev (rev (marks b)) false).

  (** pipelines.rs:62-211 [handle_statement] over the body.  [ctx.subs.current_stage]
      is 0 throughout, so availabilities are computed with stage 0 lookups. *)
  Fixpoint handle (enables : list bool) (items : list item) (s : subs) (stage n : nat)
    : res (subs * list preg * nat) :=
    match items with
    | [] => Ok (s, [], n)
    | ILet x wire zero e :: rest =>
        match available_in (lookup s 0) e with
        | Err => Err
        | Ok time =>
            let time := match time with Some a => a | None => 0 end in
            let s' := if wire then set_wire s x else set_available s x time stage zero in
            handle enables rest s' stage n
        end
    | IMark _ :: rest =>
        match next_stage s n with
        | None => Err
        | Some (s', regs, n') =>
            match handle enables rest s' (S stage) n' with
            | Err => Err
            | Ok (s'', regs', n'') =>
                Ok (s'', map (fun r => PReg stage (new r) (previous r) (nth stage enables false)) regs ++ regs', n'')
            end
        end
    end.

  (** ** Enable and valid signals *)
  (** Boolean signals: the local condition of marker [i], the generated enable
      and valid signals, and temporaries. *)
  Inductive bname := BCond (i : nat) | BEnable (i : nat) | BValid (i : nat) | BTmp (n : nat).
  Inductive bstmt :=
  | SAlias (x a : bname)
  | SAnd (x a b : bname)
  | SNot (x a : bname)
  | SSelect (x c a b : bname)
  | SConst (x : bname) (b : bool)
  | SReg (x next : bname).

  (** pipelines.rs:297-356: enable signals, from the last stage to the first.
      Arguments: the local conditions in reverse order with their stage. *)
  Fixpoint enable_code (conds : list (nat * bool)) (current : option bname) : list bstmt :=
    match conds with
    | [] => []
    | (i, has) :: rest =>
        match has, current with
        | true, None => SAlias (BEnable i) (BCond i) :: enable_code rest (Some (BEnable i))
        | false, Some prev => SAlias (BEnable i) prev :: enable_code rest (Some (BEnable i))
        | true, Some prev => SAnd (BEnable i) (BCond i) prev :: enable_code rest (Some (BEnable i))
        | false, None => enable_code rest None
        end
    end.

  (** pipelines.rs:495-499 *)
  Inductive maybe_const := MVal (n : bname) | MConst (b : bool).
  Definition or_const_true (o : option bname) : maybe_const :=
    match o with Some n => MVal n | None => MConst true end.
  (** pipelines.rs:500-526 [to_value_name] *)
  Definition to_value_name (m : maybe_const) (n : nat) : bname * list bstmt * nat :=
    match m with
    | MVal x => (x, [], n)
    | MConst v => (BTmp n, [SConst (BTmp n) v], S n)
    end.
  (** pipelines.rs:539-568 [constexpr_and] *)
  Definition constexpr_and (l r : maybe_const) (n : nat) : maybe_const * list bstmt * nat :=
    match l, r with
    | MVal a, MVal b => (MVal (BTmp n), [SAnd (BTmp n) a b], S n)
    | MConst false, _ => (MConst false, [], n)
    | _, MConst false => (MConst false, [], n)
    | l, MConst true => (l, [], n)
    | MConst true, r => (r, [], n)
    end.
  (** pipelines.rs:570-604 [constexpr_select] *)
  Definition constexpr_select (on_true on_false select : maybe_const) (n : nat)
    : maybe_const * list bstmt * nat :=
    match select with
    | MVal sel =>
        let new := BTmp n in
        let '(t, s1, n) := to_value_name on_true (S n) in
        let '(f, s2, n) := to_value_name on_false n in
        (MVal new, s1 ++ s2 ++ [SSelect new sel t f], n)
    | MConst true => (on_true, [], n)
    | MConst false => (on_false, [], n)
    end.
  (** pipelines.rs:606-627 [constexpr_inv] *)
  Definition constexpr_inv (m : maybe_const) (n : nat) : maybe_const * list bstmt * nat :=
    match m with
    | MVal a => (MVal (BTmp n), [SNot (BTmp n) a], S n)
    | MConst b => (MConst (negb b), [], n)
    end.

  (** pipelines.rs:395-472: valid signals.  [conds]: which markers have a
      condition; [ready]: the ready signals ([None]: always ready). *)
  Fixpoint valid_code (ready : nat -> option bname) (i : nat) (conds : list bool)
      (prev_valid : option bname) (n : nat) : res (list bstmt * list (option bname)) :=
    match conds with
    | [] => Ok ([], [])
    | has :: rest =>
        let downstream_enable := or_const_true (ready (S i)) in
        let valid_select := or_const_true (ready i) in
        let valid_name := BValid (S i) in
        let '(valid_mux, s1, n) := constexpr_select (or_const_true prev_valid) (MVal valid_name) valid_select n in
        let '(local_cond_inv, s2, n) := constexpr_inv (if has then MVal (BCond i) else MConst true) n in
        let '(stall_here, s3, n) := constexpr_and local_cond_inv downstream_enable n in
        let '(stall_here_inv, s4, n) := constexpr_inv stall_here n in
        let '(valid_next, s5, n) := constexpr_and valid_mux stall_here_inv n in
        let pre := s1 ++ s2 ++ s3 ++ s4 ++ s5 in
        match valid_next with
        | MVal next =>
            match valid_code ready (S i) rest (Some valid_name) n with
            | Ok (s, vs) => Ok (pre ++ SReg valid_name next :: s, Some valid_name :: vs)
            | Err => Err
            end
        | MConst true =>
            match valid_code ready (S i) rest prev_valid n with
            | Ok (s, vs) => Ok (pre ++ s, None :: vs)
            | Err => Err
            end
        | MConst false => Err
        end
    end.

  (** Everything [lower_pipeline] produces. *)
  Record lowered := Lowered {
    l_subs : subs;
    l_regs : list preg;
    l_ctrl : list bstmt;
    l_ready : nat -> option bname;      (** stage.ready, [None] is [true] *)
    l_valid : list (option bname);      (** stage.valid *)
  }.
  Definition has_cond (c : option expr) : bool := match c with Some _ => true | None => false end.
  (** pipelines.rs:358-362 *)
  Definition ready_signals (b : list item) (i : nat) : option bname :=
    if nth i (stage_enable_names b) false then Some (BEnable i) else None.

  (** pipelines.rs:213-492 [lower_pipeline] *)
  Definition lower_pipeline (p : pipeline) (n : nat) : res lowered :=
    let s0 := fold_left add_input (inputs p) new_subs in
    match handle (stage_enable_names (body p)) (body p) s0 0 n with
    | Err => Err
    | Ok (s, regs, _) =>
        let conds := map has_cond (marks (body p)) in
        match valid_code (ready_signals (body p)) 0 conds None 0 with
        | Err => Err
        | Ok (vstmts, valids) =>
            match available_in (lookup s 0) (result p) with
            | Ok None | Ok (Some 0) =>
                Ok (Lowered s regs
                      (enable_code (rev (combine (seq 0 (length conds)) conds)) None ++ vstmts)
                      (ready_signals (body p)) (None :: valids))
            | _ => Err
            end
        end
    end.
End Pipeline.
Arguments EVar {V}. Arguments EConst {V}. Arguments EOp {V}. Arguments EPipe {V}. Arguments EIf {V}.
Arguments EMatch {V}. Arguments EBlock {V}. Arguments ILet {V}. Arguments IMark {V}.
Arguments available_in {V}. Arguments Pipeline {V}. Arguments inputs {V}. Arguments body {V}. Arguments result {V}.
Arguments marks {V}. Arguments stage_enable_names {V}. Arguments handle {V}. Arguments ready_signals {V}.
Arguments lower_pipeline {V}. Arguments has_cond {V}. Arguments enable_names_rev {V}.
