(** Which blocks apply to a type (C54). *)
From Coq Require Import List ZArith Bool Arith.
From Verif Require Import InferModel InferSpec TypingModel MethodModel.
Import ListNotations.

(** [aliases n = Some s]: the name [n] is declared as [type n = s].  [matches th s t]: the
    written type [s] is the type [t] when its parameters are as [th] says. *)
Section Matches.
Variable aliases : nat -> option tspec.
Variable th : nat -> ty.
Inductive matches : tspec -> ty -> Prop :=
| M_int z : matches (TSInt z) (TK (BInt z) [])
| M_bool b : matches (TSBool b) (TK (BBool b) [])
| M_str s : matches (TSStr s) (TK (BStr s) [])
| M_generic k : matches (TSGeneric k) (th k)
| M_named n l ts : aliases n = None -> Forall2 matches l ts -> matches (TSNamed n l) (TK (BNamed n) ts)
| M_alias n s t : aliases n = Some s -> matches s t -> matches (TSNamed n []) t
| M_tuple l ts : Forall2 matches l ts -> matches (TSTuple l) (TK BTuple ts)
| M_array a b t u : matches a t -> matches b u -> matches (TSArray a b) (TK BArray [t; u])
| M_inverted a t : matches a t -> matches (TSInverted a) (TK BInverted [t])
| M_view a t : matches a t -> matches (TSCopyView a) (TK BCopyView [t]).
End Matches.

(** The block is for the type. *)
Definition applies (aliases : nat -> option tspec) (b : block) (t : ty) : Prop :=
  exists th, matches aliases th (bl_target b) t.
(** The block has the method. *)
Definition has_method (b : block) (m f : nat) (s : selfness) : Prop := In (m, (f, s)) (bl_fns b).

(** A type without its views, and how many it had *)
Fixpoint base_type (t : ty) : ty := match t with TK BCopyView (t :: _) => base_type t | _ => t end.
Fixpoint views (t : ty) : nat := match t with TK BCopyView (t :: _) => S (views t) | _ => 0 end.
(** The views the receiver of a method has inside it *)
Definition wanted (s : selfness) : Z := match s with SelfView => 1 | _ => 0 end.

(** Arguments of written types and types are of the right kind and number, as the
    declarations of the types say: numbers stand where numbers are expected. *)
Section Kinds.
Variable kinds : nat -> list meta.
Definition number_kind (m : meta) : Prop := m = MInt \/ m = MUint \/ m = MNumber.
Inductive type_spec : tspec -> Prop :=
| KS_generic k : type_spec (TSGeneric k)
| KS_named n l : Forall2 arg_spec (kinds n) l -> type_spec (TSNamed n l)
| KS_tuple l : Forall type_spec l -> type_spec (TSTuple l)
| KS_array a b : type_spec a -> arg_spec MUint b -> type_spec (TSArray a b)
| KS_inverted a : type_spec a -> type_spec (TSInverted a)
| KS_view a : type_spec a -> type_spec (TSCopyView a)
with arg_spec : meta -> tspec -> Prop :=
| KA_type s : type_spec s -> arg_spec MType s
| KA_int m z : number_kind m -> arg_spec m (TSInt z)
| KA_bool b : arg_spec MBool (TSBool b)
| KA_str s : arg_spec MStr (TSStr s)
| KA_value m k : arg_spec m (TSGeneric k).
Inductive type_tree : ty -> Prop :=
| KT_open v m : type_tree (TF v m)
| KT_named n l : Forall2 arg_tree (kinds n) l -> type_tree (TK (BNamed n) l)
| KT_tuple l : Forall type_tree l -> type_tree (TK BTuple l)
| KT_array t u : type_tree t -> arg_tree MUint u -> type_tree (TK BArray [t; u])
| KT_inverted t : type_tree t -> type_tree (TK BInverted [t])
| KT_view t : type_tree t -> type_tree (TK BCopyView [t])
with arg_tree : meta -> ty -> Prop :=
| KR_type t : type_tree t -> arg_tree MType t
| KR_int m z : number_kind m -> arg_tree m (TK (BInt z) [])
| KR_bool b : arg_tree MBool (TK (BBool b) [])
| KR_str s : arg_tree MStr (TK (BStr s) [])
| KR_open k v m : arg_tree k (TF v m).
End Kinds.

(** No parameter is used twice. *)
Fixpoint params (s : tspec) : list nat :=
  match s with
  | TSGeneric k => [k]
  | TSNamed _ l | TSTuple l => flat_map params l
  | TSArray a b => params a ++ params b
  | TSInverted a | TSCopyView a => params a
  | _ => []
  end.
Definition linear (b : block) : Prop := NoDup (params (bl_target b)).
(** No alias is named. *)
Fixpoint no_alias (aliases : nat -> option tspec) (s : tspec) : Prop :=
  match s with
  | TSNamed n l => aliases n = None /\ fold_right and True (map (no_alias aliases) l)
  | TSTuple l => fold_right and True (map (no_alias aliases) l)
  | TSArray a b => no_alias aliases a /\ no_alias aliases b
  | TSInverted a | TSCopyView a => no_alias aliases a
  | _ => True
  end.
(** The state after learning more *)
Definition learns (st st' : state) (v : nat) : Prop :=
  exists t th, Resolves st v t /\ Resolves st' v (subst th t).

(** The blocks of a program: for a type that may have methods, no alias in its name, and
    arguments of the right kind. *)
Definition well_formed (aliases : nat -> option tspec) (kinds : nat -> list meta) (blocks : list block) : Prop :=
  Forall (fun b => target_of (bl_target b) <> None /\ no_alias aliases (bl_target b) /\ type_spec kinds (bl_target b)) blocks.
