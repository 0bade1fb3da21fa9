(** What initial values mean (C35): the hardware the same statements would
    compile to. *)
From Coq Require Import List ZArith Bool Arith.
From Verif Require Import Bits Verilog CodegenModel CodegenSpec EvalModel.
Import ListNotations.

(** Names with their types. *)
Notation tenv := (list (nat * ty)).
Notation benv := (list (nat * bits)).

(** The statements are well typed, and every name is bound once, before it is
    used.  Integer constants fit their type, as type checking requires
    (C31). *)
Inductive well_typed : tenv -> list estmt -> Prop :=
| WT_nil G : well_typed G []
| WT_op G name op ops tys t l :
    lookup G name = None -> lookups G ops = Some tys -> typed op tys t ->
    well_typed ((name, t) :: G) l -> well_typed G (EOp name op ops t :: l)
| WT_alias G name op t l :
    lookup G name = None -> lookup G op = Some t ->
    well_typed ((name, t) :: G) l -> well_typed G (EAlias name op t :: l)
| WT_int G name n z l :
    lookup G name = None -> 0 < n -> (- 2 ^ Z.of_nat (n - 1) <= z < 2 ^ Z.of_nat (n - 1))%Z ->
    well_typed ((name, TInt n) :: G) l -> well_typed G (EInt name (TInt n) z :: l)
| WT_uint G name n z l :
    lookup G name = None -> 0 < n -> (0 <= z < 2 ^ Z.of_nat n)%Z ->
    well_typed ((name, TUInt n) :: G) l -> well_typed G (EInt name (TUInt n) z :: l)
| WT_bool G name b l :
    lookup G name = None ->
    well_typed ((name, TBool) :: G) l -> well_typed G (EBool name TBool b :: l).

(** The type of the last statement. *)
Definition stmt_type (s : estmt) : ty :=
  match s with
  | EOp _ _ _ t | EAlias _ _ t | EInt _ t _ | EBool _ t _ => t
  | EOther => TTuple []
  end.

Definition stmt_name (s : estmt) : nat :=
  match s with
  | EOp n _ _ _ | EAlias n _ _ | EInt n _ _ | EBool n _ _ => n
  | EOther => 0
  end.

(** The signal a statement drives in hardware: operators by the Verilog the
    code generator emits for them ([op_value]), integer constants by their
    localparam ([const_int_value]), an alias by the signal it names. *)
Definition hw_stmt (G : tenv) (B : benv) (s : estmt) : option bits :=
  match s with
  | EOp _ op ops t =>
      match lookups G ops, lookups B ops with
      | Some tys, Some vals => op_value t tys op vals
      | _, _ => None
      end
  | EAlias _ op _ => lookup B op
  | EInt _ t z => const_int_value (size t) z
  | EBool _ _ b => Some [bit_of_bool b]
  | EOther => None
  end.

(** The signal the last statement drives. *)
Fixpoint hw_loop (G : tenv) (B : benv) (last : option bits) (l : list estmt) : option bits :=
  match l with
  | [] => last
  | s :: l =>
      match hw_stmt G B s with
      | Some v => hw_loop ((stmt_name s, stmt_type s) :: G) ((stmt_name s, v) :: B) (Some v) l
      | None => None
      end
  end.
Definition hardware (l : list estmt) : option bits := hw_loop [] [] None l.

(** No negation is applied to a signal holding the smallest value of its type,
    [-2^(n-1)], whose opposite the type cannot hold. *)
Fixpoint no_min_negation (G : tenv) (B : benv) (l : list estmt) : Prop :=
  match l with
  | [] => True
  | s :: l =>
      (forall name op n a, s = EOp name USub [op] (TInt n) -> lookup B op = Some a ->
         sval a <> Some (- 2 ^ Z.of_nat (n - 1))%Z)
      /\ forall v, hw_stmt G B s = Some v ->
           no_min_negation ((stmt_name s, stmt_type s) :: G) ((stmt_name s, v) :: B) l
  end.

(** The operators the evaluator supports. *)
Definition supported (s : estmt) : bool :=
  match s with
  | EOp _ op _ _ =>
      match op with
      | Add | Sub | USub | ConstructArray | ConstructTuple | ConstructEnum _ => true
      | _ => false
      end
  | EOther => false
  | _ => true
  end.

(** The number a bit pattern stands for when undefined bits are read as
    zero; least significant bit first. *)
Fixpoint num (b : bits) : Z :=
  match b with
  | [] => 0
  | d :: b => (match d with B1 => 1 | _ => 0 end) + 2 * num b
  end%Z.
