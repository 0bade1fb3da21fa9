(** Three checks and rewrites of a unit after its type parameters are known:
    spade-hir-lowering/src/passes/flatten_regs.rs, passes/disallow_inout_bindings.rs and
    passes/disallow_zero_size.rs, with the order in which passes/pass.rs visits a unit and the
    order in which src/monomorphisation.rs:472-512 runs them.

    Expressions, patterns and repetition counts are known by their number, whose type is given
    by [type_of] (spade-typeinference/src/lib.rs [concrete_type_of]; [None] where it fails).
    Left out: the passes that run between these (lambdas: LamModel; methods: MethodModel;
    [gen if]: GenModel), locations, names, attributes, and the wording of messages. *)
From Coq Require Import List ZArith Bool.
Import ListNotations.

(** spade-types/src/lib.rs:51-95 [ConcreteType]: a number, [inout], a tuple, anything else with the
    size of its hardware type *)
Inductive ty := TInt (z : Z) | TInOut (size : N) | TTuple (l : list ty) | TOther (size : N).

(** spade-hir/src/expression.rs [UnaryOperator] *)
Inductive unop := Sub | Not | BitwiseNot | Dereference | Reference.

(** spade-hir/src/expression.rs [ExprKind], spade-hir/src/lib.rs [Statement].  [KLeaf]: the
    kinds without operands (pass.rs:203-216).  [KNode]: those of which every operand is visited
    in order and nothing else is done, that is tuples, arrays, indexing, fields, casts, calls and
    lambdas (pass.rs:36-97, 184-196); the first number says which. *)
Inductive expr := Ex (id : nat) (k : kind)
with kind :=
| KLeaf (n : nat)
| KNode (n : nat) (l : list expr)
| KBin (op : nat) (a b : expr)
| KUn (op : unop) (a : expr)
| KMatch (c : expr) (l : list branch)
| KBlock (l : list stmt) (r : option expr)
| KIf (c t f : expr)
| KTlIf (t f : expr)
with branch := Br (pattern : nat) (guard : option expr) (value : expr)
with stmt :=
| SError
| SDecl (l : list nat)
| SLabel (n : nat)
| SBind (pattern : nat) (value : expr)
| SExpr (e : expr)
| SAssert (e : expr)
| SSet (target value : expr)
| SReg (pattern : nat) (clock : expr) (reset : option (expr * expr)) (initial : option expr) (value : expr)
| SMark (x : option extra)
with extra := Count (c : nat) | Condition (e : expr).

Definition id_of (e : expr) : nat := match e with Ex i _ => i end.

(** What is reported *)
Inductive error :=
| UnknownCount (c : nat)
| CountNotInteger (c : nat)
| CountTooLarge (c : nat)
| Returned (e : nat)
| MustBeNoMangle (x : nat)
| BoundToName (pattern : nat)
| UnknownType (e : nat)
| ZeroOperand (e : nat)
| ZeroMatch (e : nat)
| GenIfLeft (e : nat)
| NoHardware (e : nat).
Inductive res (A : Type) := Ok (a : A) | Err (x : error).
Arguments Ok {A}. Arguments Err {A}.
Definition bind {A B} (r : res A) (f : A -> res B) : res B := match r with Ok a => f a | Err x => Err x end.
Definition opt {A B} (f : A -> res B) (o : option A) : res (option B) :=
  match o with Some a => bind (f a) (fun b => Ok (Some b)) | None => Ok None end.

(** passes/pass.rs:7-20 [Pass], without [visit_unit].  None of the three passes changes an
    expression other than by replacing statements, so [visit_expression] only checks. *)
Record pass := { visit_expression : expr -> res unit; visit_statement : stmt -> res (option (list stmt)) }.

(** pass.rs:105-117, the visits of all statements of a block *)
Fixpoint visit_all (f : stmt -> res (option (list stmt))) (l : list stmt) : res (list (option (list stmt))) :=
  match l with
  | [] => Ok []
  | s :: l => bind (f s) (fun a => bind (visit_all f l) (fun l => Ok (a :: l)))
  end.

(** pass.rs:28-220 [Passable::apply] for expressions: operands first, statements in order.
    Simplification: the statements a statement is replaced by are not gone into; the one pass
    that replaces any makes markers without operands. *)
Section Apply.
Variable p : pass.
Fixpoint apply (e : expr) : res expr :=
  let all := fix go (l : list expr) : res (list expr) :=
    match l with [] => Ok [] | a :: l => bind (apply a) (fun a => bind (go l) (fun l => Ok (a :: l))) end in
  match e with
  | Ex i k =>
      bind (match k with
            | KLeaf n => Ok (KLeaf n)
            | KNode n l => bind (all l) (fun l => Ok (KNode n l))
            | KBin op a b => bind (apply a) (fun a => bind (apply b) (fun b => Ok (KBin op a b)))
            | KUn op a => bind (apply a) (fun a => Ok (KUn op a))
            | KMatch c l =>
                let branches := fix go (l : list branch) : res (list branch) :=
                  match l with
                  | [] => Ok []
                  | Br q g v :: l =>
                      bind (match g with Some a => bind (apply a) (fun a => Ok (Some a)) | None => Ok None end) (fun g =>
                      bind (apply v) (fun v => bind (go l) (fun l => Ok (Br q g v :: l))))
                  end in
                bind (apply c) (fun c => bind (branches l) (fun l => Ok (KMatch c l)))
            | KBlock l r =>
                let stmts := fix go (l : list stmt) (new : list (option (list stmt))) : res (list stmt) :=
                  match l, new with
                  | s :: l, None :: new => bind (apply_stmt s) (fun s => bind (go l new) (fun l => Ok (s :: l)))
                  | _ :: l, Some n :: new => bind (go l new) (fun l => Ok (n ++ l))
                  | _, _ => Ok []
                  end in
                bind (visit_all (visit_statement p) l) (fun new =>
                bind (stmts l new) (fun l =>
                bind (match r with Some a => bind (apply a) (fun a => Ok (Some a)) | None => Ok None end) (fun r => Ok (KBlock l r))))
            | KIf c t f => bind (apply c) (fun c => bind (apply t) (fun t => bind (apply f) (fun f => Ok (KIf c t f))))
            | KTlIf t f => bind (apply t) (fun t => bind (apply f) (fun f => Ok (KTlIf t f)))
            end) (fun k => bind (visit_expression p (Ex i k)) (fun _ => Ok (Ex i k)))
  end
(** pass.rs:119-178 *)
with apply_stmt (s : stmt) : res stmt :=
  match s with
  | SError => Ok SError
  | SDecl l => Ok (SDecl l)
  | SLabel n => Ok (SLabel n)
  | SBind q v => bind (apply v) (fun v => Ok (SBind q v))
  | SExpr e => bind (apply e) (fun e => Ok (SExpr e))
  | SAssert e => bind (apply e) (fun e => Ok (SAssert e))
  | SSet t v => bind (apply t) (fun t => bind (apply v) (fun v => Ok (SSet t v)))
  | SReg q c r i v =>
      bind (match r with Some (t, w) => bind (apply t) (fun t => bind (apply w) (fun w => Ok (Some (t, w)))) | None => Ok None end) (fun r =>
      bind (match i with Some a => bind (apply a) (fun a => Ok (Some a)) | None => Ok None end) (fun i =>
      bind (apply c) (fun c => bind (apply v) (fun v => Ok (SReg q c r i v)))))
  | SMark (Some (Condition e)) => bind (apply e) (fun e => Ok (SMark (Some (Condition e))))
  | SMark (Some (Count c)) => Ok (SMark (Some (Count c)))
  | SMark None => Ok (SMark None)
  end.
End Apply.

Section Types.
Variable type_of : nat -> option ty.

(** [usize::MAX] on 64-bit hosts *)
Definition usize_max : Z := 2 ^ 64 - 1.

(** flatten_regs.rs:23-68 [visit_statement] *)
Definition flatten_statement (s : stmt) : res (option (list stmt)) :=
  match s with
  | SMark (Some (Count c)) =>
      match type_of c with
      | Some (TInt z) => if ((0 <=? z) && (z <=? usize_max))%Z then Ok (Some (repeat (SMark None) (Z.to_nat z))) else Err (CountTooLarge c)
      | Some _ => Err (CountNotInteger c)
      | None => Err (UnknownCount c)
      end
  | _ => Ok None
  end.
(** flatten_regs.rs:18-73 *)
Definition flatten_pass : pass := {| visit_expression := fun _ => Ok tt; visit_statement := flatten_statement |}.
Definition flatten_regs (e : expr) : res expr := apply flatten_pass e.

Definition is_inout (t : option ty) : bool := match t with Some (TInOut _) => true | _ => false end.

(** disallow_inout_bindings.rs:91-132, the statements of a block *)
Fixpoint inout_statements (l : list stmt) : res unit :=
  match l with
  | [] => Ok tt
  | s :: l =>
      match s with
      | SBind q _ | SReg q _ _ _ _ => if is_inout (type_of q) then Err (BoundToName q) else inout_statements l
      | _ => inout_statements l
      end
  end.
(** disallow_inout_bindings.rs:84-136 [visit_expression] *)
Definition inout_expression (e : expr) : res unit :=
  match e with Ex _ (KBlock l _) => inout_statements l | _ => Ok tt end.
Definition inout_pass : pass := {| visit_expression := inout_expression; visit_statement := fun _ => Ok None |}.

(** spade-hir/src/lib.rs [Unit]: whether each parameter of the head is [no_mangle], the names
    of the inputs, the body *)
Record unit_ := { head_inputs : list bool; inputs : list nat; body : expr }.
(** disallow_inout_bindings.rs:40-80, the loop over the parameters *)
Fixpoint inout_inputs (l : list (bool * nat)) : res unit :=
  match l with
  | [] => Ok tt
  | (no_mangle, x) :: l => if negb no_mangle && is_inout (type_of x) then Err (MustBeNoMangle x) else inout_inputs l
  end.
(** disallow_inout_bindings.rs:17-82 [visit_unit] *)
Definition inout_unit (u : unit_) : res unit :=
  if is_inout (type_of (id_of (body u))) then Err (Returned (id_of (body u))) else inout_inputs (combine (head_inputs u) (inputs u)).

(** The size of the hardware type, spade-hir-lowering/src/lib.rs [to_mir_type] and
    spade-mir/src/types.rs [size]; numbers have none *)
Fixpoint size (t : ty) : option N :=
  match t with
  | TInt _ => None
  | TInOut s | TOther s => Some s
  | TTuple l => (fix go (l : list ty) : option N := match l with
      | [] => Some 0%N
      | t :: l => match size t, go l with Some a, Some b => Some (a + b)%N | _, _ => None end
      end) l
  end.
(** disallow_zero_size.rs:20-24, 46-56: [zero] reports operand [e] if it has size zero *)
Definition not_zero (e : nat) (zero : error) : res unit :=
  match type_of e with
  | None => Err (UnknownType e)
  | Some t => match size t with None => Err (NoHardware e) | Some n => if (n =? 0)%N then Err zero else Ok tt end
  end.
(** disallow_zero_size.rs:19-110 [visit_expression] *)
Definition zero_expression (e : expr) : res unit :=
  match e with
  | Ex i k =>
      match k with
      | KBin _ a b => bind (not_zero (id_of a) (ZeroOperand (id_of a))) (fun _ => not_zero (id_of b) (ZeroOperand (id_of b)))
      | KUn op a =>
          match op with
          | Sub | Not | BitwiseNot => not_zero (id_of a) (ZeroOperand (id_of a))
          | Dereference | Reference => Ok tt
          end
      | KMatch _ (Br _ _ v :: _) => not_zero (id_of v) (ZeroMatch (id_of v))
      | KMatch _ [] => Ok tt
      | KTlIf _ _ => Err (GenIfLeft i)
      | KLeaf _ | KNode _ _ | KBlock _ _ | KIf _ _ _ => Ok tt
      end
  end.
Definition zero_pass : pass := {| visit_expression := zero_expression; visit_statement := fun _ => Ok None |}.

(** pass.rs:222-228 [Unit::apply] for each of the passes *)
Definition with_body (u : unit_) (b : expr) : unit_ := {| head_inputs := head_inputs u; inputs := inputs u; body := b |}.
Definition run_flatten (u : unit_) : res unit_ := bind (flatten_regs (body u)) (fun b => Ok (with_body u b)).
Definition run_inout (u : unit_) : res unit_ :=
  bind (inout_unit u) (fun _ => bind (apply inout_pass (body u)) (fun b => Ok (with_body u b))).
Definition run_zero (u : unit_) : res unit_ := bind (apply zero_pass (body u)) (fun b => Ok (with_body u b)).
(** monomorphisation.rs:485-512, without the passes in between *)
Definition run_passes (u : unit_) : res unit_ := bind (run_flatten u) (fun u => bind (run_inout u) run_zero).
End Types.
