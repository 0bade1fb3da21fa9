(** Concrete types and the instances of a type pattern (C32). *)
From Coq Require Import List ZArith Bool Arith.
From Verif Require Import ImplModel.
Import ListNotations.

(** Types and type-level values without generics. *)
Inductive gty :=
| GNamed (n : nat) (args : list gval)
| GTuple (l : list gty)
| GArray (inner : gty) (size : gval)
| GInverted (inner : gty)
| GCopyView (inner : gty)
with gval :=
| GBool (b : bool)
| GInt (z : Z)
| GStr (s : nat)
| GTy (t : gty).

(** [aliases n = Some t]: the name [n] is declared as [type n = t].
    [is s p t]: [t] is what the pattern [p] stands for when its generics are
    replaced as [s] says.  A const generic may be any value. *)
Section Instances.
Variable aliases : nat -> option gty.
Variable s : nat -> gval.

Inductive is : spec -> gty -> Prop :=
| IsNamed n ps args : aliases n = None -> is_exprs ps args -> is (Declared n ps) (GNamed n args)
| IsAlias n t : aliases n = Some t -> is (Declared n TNil) t
| IsGeneric g t : s g = GTy t -> is (Generic g) t
| IsTuple ps l : is_specs ps l -> is (Tuple ps) (GTuple l)
| IsArray p t e v : is p t -> is_expr e v -> is (Array p e) (GArray t v)
| IsInverted p t : is p t -> is (Inverted p) (GInverted t)
| IsCopyView p t : is p t -> is (CopyView p) (GCopyView t)
with is_expr : texpr -> gval -> Prop :=
| IsBool b : is_expr (TBool b) (GBool b)
| IsInt z : is_expr (TInteger z) (GInt z)
| IsStr x : is_expr (TString x) (GStr x)
| IsTy p t : is p t -> is_expr (TSpec p) (GTy t)
| IsValue g v : s g = v -> is_expr (TSpec (Generic g)) v
| IsConst c v : is_expr (TConstGeneric c) v
with is_specs : specs -> list gty -> Prop :=
| IsNoSpecs : is_specs SNil []
| IsSpecs p t ps l : is p t -> is_specs ps l -> is_specs (SCons p ps) (t :: l)
with is_exprs : texprs -> list gval -> Prop :=
| IsNoExprs : is_exprs TNil []
| IsExprs e v es l : is_expr e v -> is_exprs es l -> is_exprs (TCons e es) (v :: l).
End Instances.

(** The impl applies to the type with these trait arguments. *)
Definition applies (aliases : nat -> option gty) (im : impl) (t : gty) (args : list gval) : Prop :=
  exists s, is aliases s (im_target im) t /\ is_exprs aliases s (im_trait_args im) args.

(** Nothing that is excluded in [C32_no_overlap_partial]: a boolean type
    argument, or the name of a type alias. *)
Fixpoint plain (aliases : nat -> option gty) (p : spec) : Prop :=
  match p with
  | Declared n ps => aliases n = None /\ plain_exprs aliases ps
  | Tuple l => plain_specs aliases l
  | Array p e => plain aliases p /\ plain_expr aliases e
  | Inverted p | CopyView p => plain aliases p
  | Generic _ | TraitSelf | Wildcard => True
  end
with plain_expr (aliases : nat -> option gty) (e : texpr) : Prop :=
  match e with
  | TBool _ => False
  | TSpec p => plain aliases p
  | _ => True
  end
with plain_specs (aliases : nat -> option gty) (l : specs) : Prop :=
  match l with SNil => True | SCons p l => plain aliases p /\ plain_specs aliases l end
with plain_exprs (aliases : nat -> option gty) (l : texprs) : Prop :=
  match l with TNil => True | TCons e l => plain_expr aliases e /\ plain_exprs aliases l end.
Definition plain_impl aliases (im : impl) : Prop :=
  plain aliases (im_target im) /\ plain_exprs aliases (im_trait_args im).
