(** Specification for pipelines: what the lowered pipeline computes cycle by cycle,
    what the same source computes as an ordinary function, and which item is in
    which stage. *)
From Coq Require Import List Bool Arith.
From Verif Require Import PipeModel.
Import ListNotations.

Section Spec.
  Variable V : Type.
  Variable truth : V -> bool.
  Variable junk : V.            (** contents of a nested pipeline before its first result *)

  (** ** The ordinary function: the pipeline with all [reg] removed. *)
  Definition upd (env : nat -> V) (x : nat) (v : V) : nat -> V := fun y => if y =? x then v else env y.
  Fixpoint comb (e : expr V) (env : nat -> V) : V :=
    match e with
    | EVar x => env x
    | EConst v => v
    | EOp f l => f (map (fun e => comb e env) l)
    | EPipe _ f l => f (map (fun e => comb e env) l)
    | EIf c a b => if truth (comb c env) then comb a env else comb b env
    | EMatch f s l => f (comb s env) (map (fun e => comb e env) l)
    | EBlock x e b => comb b (upd env x (comb e env))
    end.
  Fixpoint run_lets (b : list (item V)) (env : nat -> V) : nat -> V :=
    match b with
    | [] => env
    | ILet x _ _ e :: b => run_lets b (upd env x (comb e env))
    | IMark _ :: b => run_lets b env
    end.
  (** The value of every variable for the item whose inputs are [env]. *)
  Definition item_value (p : pipeline V) (env : nat -> V) : nat -> V := run_lets (body p) env.
  Definition function_result (p : pipeline V) (env : nat -> V) : V :=
    comb (result p) (item_value p env).

  (** ** The hardware.  [sig] gives every data signal at every clock cycle. *)
  Definition stream := nat -> V.
  Definition updl (loc : nat -> option stream) (x : nat) (v : stream) : nat -> option stream :=
    fun y => if y =? x then Some v else loc y.
  (** Value at cycle [t] of the logic generated for [e] when variables are read
      through [rd]; [loc] holds names bound in enclosing blocks. *)
  Fixpoint hw (rd : nat -> option pname) (sig : pname -> stream) (loc : nat -> option stream)
      (e : expr V) (t : nat) : V :=
    match e with
    | EVar x => match loc x with
                | Some v => v t
                | None => match rd x with Some y => sig y t | None => junk end
                end
    | EConst v => v
    | EOp f l => f (map (fun e => hw rd sig loc e t) l)
    | EPipe d f l => if t <? d then junk else f (map (fun e => hw rd sig loc e (t - d)) l)
    | EIf c a b => if truth (hw rd sig loc c t) then hw rd sig loc a t else hw rd sig loc b t
    | EMatch f s l => f (hw rd sig loc s t) (map (fun e => hw rd sig loc e t) l)
    | EBlock x e b => hw rd sig (updl loc x (hw rd sig loc e)) b t
    end.
  Definition noloc : nat -> option stream := fun _ => None.

  (** One control statement holds in [bsig] at all cycles. *)
  Definition ctrl_holds (bsig : bname -> nat -> bool) (s : bstmt) : Prop :=
    match s with
    | SAlias x a => forall t, bsig x t = bsig a t
    | SAnd x a b => forall t, bsig x t = bsig a t && bsig b t
    | SNot x a => forall t, bsig x t = negb (bsig a t)
    | SSelect x c a b => forall t, bsig x t = if bsig c t then bsig a t else bsig b t
    | SConst x b => forall t, bsig x t = b
    | SReg x next => forall t, bsig x (S t) = bsig next t
    end.

  (** lib.rs:1063-1080: the body is lowered with [current_stage] counting markers. *)
  Fixpoint lets_hold (s : subs) (stage : nat) (b : list (item V)) (sig : pname -> stream) : Prop :=
    match b with
    | [] => True
    | ILet x _ _ e :: b =>
        (forall t, sig (Src x) t = hw (read s stage) sig noloc e t) /\ lets_hold s stage b sig
    | IMark _ :: b => lets_hold s (S stage) b sig
    end.
  (** pipelines.rs:106-131: the conditions are lowered during [handle_statement],
      when [ctx.subs.current_stage] is still 0. *)
  Fixpoint conds_hold (s : subs) (i : nat) (m : list (option (expr V))) (sig : pname -> stream)
      (bsig : bname -> nat -> bool) : Prop :=
    match m with
    | [] => True
    | None :: m => conds_hold s (S i) m sig bsig
    | Some c :: m =>
        (forall t, bsig (BCond i) t = truth (hw (read s 0) sig noloc c t)) /\ conds_hold s (S i) m sig bsig
    end.
  (** The register [r]: next value is the previous stage's if enabled, its own otherwise. *)
  Definition reg_holds (bsig : bname -> nat -> bool) (sig : pname -> stream) (r : preg) : Prop :=
    forall t, sig (pr_new r) (S t) =
      if pr_enabled r
      then if bsig (BEnable (pr_stage r)) t then sig (pr_prev r) t else sig (pr_new r) t
      else sig (pr_prev r) t.

  (** [sig], [bsig] is a run of the circuit generated for [p]. *)
  Record runs (p : pipeline V) (l : lowered) (sig : pname -> stream) (bsig : bname -> nat -> bool) : Prop := {
    run_regs : Forall (reg_holds bsig sig) (l_regs l);
    run_ctrl : Forall (ctrl_holds bsig) (l_ctrl l);
    run_lets_ : lets_hold (l_subs l) 0 (body p) sig;
    run_conds : conds_hold (l_subs l) 0 (marks (body p)) sig bsig;
  }.
  Definition stages (p : pipeline V) : nat := length (marks (body p)).
  (** The output port. *)
  Definition output (p : pipeline V) (l : lowered) (sig : pname -> stream) : stream :=
    hw (read (l_subs l) (stages p)) sig noloc (result p).

  (** ** Acceptance: what the rest of the compiler checks about names. *)
  (** Every variable read in [e] is either bound by a block in [e] or visible and
      ready in the stage. *)
  Fixpoint reads_ok (rd : nat -> option pname) (scope : list nat) (e : expr V) (bound : list nat) : Prop :=
    match e with
    | EVar x => In x bound \/ (In x scope /\ rd x <> None)
    | EConst _ => True
    | EOp _ l => (fix go l := match l with [] => True | e :: l => reads_ok rd scope e bound /\ go l end) l
    | EPipe _ _ l => (fix go l := match l with [] => True | e :: l => reads_ok rd scope e bound /\ go l end) l
    | EIf c a b => reads_ok rd scope c bound /\ reads_ok rd scope a bound /\ reads_ok rd scope b bound
    | EMatch _ s l => reads_ok rd scope s bound /\
        (fix go l := match l with [] => True | e :: l => reads_ok rd scope e bound /\ go l end) l
    | EBlock x e b => reads_ok rd scope e bound /\ reads_ok rd scope b (x :: bound)
    end.
  (** Names bound by blocks inside an expression. *)
  Fixpoint block_names (e : expr V) : list nat :=
    match e with
    | EVar _ | EConst _ => []
    | EOp _ l | EPipe _ _ l => flat_map block_names l
    | EIf c a b => block_names c ++ block_names a ++ block_names b
    | EMatch _ s l => block_names s ++ flat_map block_names l
    | EBlock x e b => x :: block_names e ++ block_names b
    end.
  Definition defs (b : list (item V)) : list nat :=
    flat_map (fun i => match i with ILet x _ _ _ => [x] | IMark _ => [] end) b.
  Definition exprs (b : list (item V)) : list (expr V) :=
    flat_map (fun i => match i with ILet _ _ _ e => [e] | IMark _ => [] end) b.
  Definition all_names (p : pipeline V) : list nat := map iname (inputs p) ++ defs (body p).
  Fixpoint body_reads_ok (s : subs) (stage : nat) (scope : list nat) (b : list (item V)) : Prop :=
    match b with
    | [] => True
    | ILet x _ _ e :: b => reads_ok (read s stage) scope e [] /\ body_reads_ok s stage (scope ++ [x]) b
    | IMark _ :: b => body_reads_ok s (S stage) scope b
    end.
  (** Names are unique (name resolution), every use is in scope and ready. *)
  Record accepted (p : pipeline V) (l : lowered) : Prop := {
    acc_lower : exists n, lower_pipeline p n = Ok l;
    acc_nodup : NoDup (all_names p);
    acc_blocks : forall e x, In e (result p :: exprs (body p)) -> In x (block_names e) -> ~ In x (all_names p);
    acc_reads : body_reads_ok (l_subs l) 0 (map iname (inputs p)) (body p);
    acc_result : reads_ok (read (l_subs l) (stages p)) (all_names p) (result p) [];
  }.

  (** ** Timing discipline.  The availability computation ignores conditions,
      scrutinees and names bound in blocks; [well_timed lk e] says that for [e]
      this makes no difference. *)
  Fixpoint well_timed (lk : nat -> sub) (e : expr V) : Prop :=
    match e with
    | EVar _ | EConst _ => True
    | EOp _ l | EPipe _ _ l => (fix go l := match l with [] => True | e :: l => well_timed lk e /\ go l end) l
    | EIf c a b =>
        well_timed lk c /\ well_timed lk a /\ well_timed lk b /\
        (available_in lk c = Ok None \/ (available_in lk c = available_in lk (EIf c a b)))
    | EMatch f s l =>
        well_timed lk s /\ (fix go l := match l with [] => True | e :: l => well_timed lk e /\ go l end) l /\
        (available_in lk s = Ok None \/ (available_in lk s = available_in lk (EMatch f s l)))
    | EBlock x e b =>
        well_timed lk e /\ well_timed lk b /\ (available_in lk e = Ok None \/ available_in lk e = Ok (Some 0))
    end.
  (** No nested pipelines. *)
  Fixpoint no_nested (e : expr V) : Prop :=
    match e with
    | EVar _ | EConst _ => True
    | EPipe _ _ _ => False
    | EOp _ l => (fix go l := match l with [] => True | e :: l => no_nested e /\ go l end) l
    | EIf c a b => no_nested c /\ no_nested a /\ no_nested b
    | EMatch _ s l => no_nested s /\ (fix go l := match l with [] => True | e :: l => no_nested e /\ go l end) l
    | EBlock _ e b => no_nested e /\ no_nested b
    end.

  (** ** Items.  [ready k t]: stage [k] moves on at the end of cycle [t].
      [item_in k t] is the cycle in which the item now in stage [k] was at the
      inputs, if there is one. *)
  Fixpoint item_in (ready : nat -> nat -> bool) (k t : nat) : option nat :=
    match k with
    | 0 => Some t
    | S k' =>
        (fix go t := match t with
                     | 0 => None
                     | S t' => if ready k' t' then item_in ready k' t' else go t'
                     end) t
    end.
  (** Names that are never delayed: [wire] inputs and bindings, zero-sized values. *)
  Definition undelayed (p : pipeline V) (x : nat) : Prop :=
    (exists i, In i (inputs p) /\ iname i = x /\ (iwire i || izero i) = true) \/
    (exists w z e, In (ILet x w z e) (body p) /\ (w || z) = true).
  (** Names that occur in an expression. *)
  Fixpoint vars (e : expr V) : list nat :=
    match e with
    | EVar x => [x]
    | EConst _ => []
    | EOp _ l | EPipe _ _ l => flat_map vars l
    | EIf c a b => vars c ++ vars a ++ vars b
    | EMatch _ s l => vars s ++ flat_map vars l
    | EBlock _ e b => vars e ++ vars b
    end.
  Definition used (p : pipeline V) (x : nat) : Prop :=
    exists e, In e (result p :: exprs (body p)) /\ In x (vars e).
  (** Those names that are read by the data path keep one value throughout.
      (Names read only in stall conditions may change.) *)
  Definition steady (p : pipeline V) (sig : pname -> stream) : Prop :=
    forall x, undelayed p x -> used p x -> forall t t', sig (Src x) t = sig (Src x) t'.
  (** The inputs in cycle [t]. *)
  Definition inputs_at (sig : pname -> stream) (t : nat) : nat -> V := fun x => sig (Src x) t.
  (** [stage.ready] and [stage.valid]. *)
  Definition ready_value (l : lowered) (bsig : bname -> nat -> bool) (k t : nat) : bool :=
    match l_ready l k with Some b => bsig b t | None => true end.
  Definition valid_value (l : lowered) (bsig : bname -> nat -> bool) (k t : nat) : bool :=
    match nth k (l_valid l) None with Some b => bsig b t | None => true end.
End Spec.
Arguments undelayed {V}. Arguments vars {V}. Arguments used {V}. Arguments steady {V}. Arguments inputs_at {V}.
Arguments comb {V}. Arguments hw {V}. Arguments run_lets {V}. Arguments item_value {V}. Arguments function_result {V}.
Arguments runs {V}. Arguments stages {V}. Arguments output {V}. Arguments accepted {V}. Arguments well_timed {V}.
Arguments no_nested {V}. Arguments lets_hold {V}. Arguments conds_hold {V}. Arguments reg_holds {V}.
Arguments reads_ok {V}. Arguments block_names {V}. Arguments defs {V}. Arguments exprs {V}. Arguments all_names {V}.
Arguments body_reads_ok {V}. Arguments upd {V}. Arguments updl {V}. Arguments noloc {V}.

(** ** Tokens between two stages.  [taken] lists what a stage hands over during
    the first [T] cycles: its data in every cycle in which it is valid and moves on. *)
Fixpoint taken {D : Type} (valid ready : nat -> bool) (data : nat -> D) (T : nat) : list D :=
  match T with
  | 0 => []
  | S T => taken valid ready data T ++ (if valid T && ready T then [data T] else [])
  end.
Definition held {D : Type} (valid : nat -> bool) (data : nat -> D) (T : nat) : list D :=
  if valid T then [data T] else [].

(** The items in stages [n], [n-1], ..., 1 that are marked valid. *)
Fixpoint in_flight {D : Type} (valid : nat -> nat -> bool) (data : nat -> nat -> D) (n T : nat) : list D :=
  match n with
  | 0 => []
  | S k => held (valid n) (data n) T ++ in_flight valid data k T
  end.

(** Variable [x] is bound in stage [d], is not a wire nor zero-sized, and its value
    takes [a] more stages to become available. *)
Definition bound_in {V} (p : pipeline V) (l : lowered) (x d a : nat) : Prop :=
  (d = 0 /\ a = 0 /\ exists i, In i (inputs p) /\ iname i = x /\ iwire i = false /\ izero i = false) \/
  (exists pre e post ta, body p = pre ++ ILet x false false e :: post /\ d = length (marks pre) /\
     available_in (lookup (l_subs l) 0) e = Ok ta /\ a = match ta with Some a => a | None => 0 end).
(** Variable [x] is bound in stage [d] as a wire or with a zero-sized value. *)
Definition bound_undelayed {V} (p : pipeline V) (x d : nat) : Prop :=
  (d = 0 /\ exists i, In i (inputs p) /\ iname i = x /\ (iwire i || izero i) = true) \/
  (exists pre w z e post, body p = pre ++ ILet x w z e :: post /\ (w || z) = true /\ d = length (marks pre)).
