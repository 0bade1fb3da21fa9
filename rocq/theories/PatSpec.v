(** What a pattern means: values of a type, and which values a pattern matches. *)
From Coq Require Import List ZArith Bool.
From Verif Require Import PatModel.
Import ListNotations.
Local Open Scope Z_scope.

(** Values.  [VNode] is a tuple, struct or array. *)
Inductive val :=
| VNode (l : list val)
| VInt (z : Z)
| VBool (b : bool)
| VVariant (i : nat) (l : list val)
| VOpaque.

Inductive has_type : cty -> val -> Prop :=
| HT_tuple ts vs : Forall2 has_type ts vs -> has_type (CTuple ts) (VNode vs)
| HT_struct ts vs : Forall2 has_type ts vs -> has_type (CStruct ts) (VNode vs)
| HT_array t n vs : length vs = n -> Forall (has_type t) vs -> has_type (CArray t n) (VNode vs)
| HT_enum os i ts vs : nth_error os i = Some ts -> Forall2 has_type ts vs ->
    has_type (CEnum os) (VVariant i vs)
| HT_int n z : - 2 ^ Z.of_nat n <= z < 2 ^ Z.of_nat n -> has_type (CInt (S n)) (VInt z)
| HT_int0 : has_type (CInt 0) (VInt 0)
| HT_uint n z : 0 <= z < 2 ^ Z.of_nat n -> has_type (CUint n) (VInt z)
| HT_bool b : has_type CBool (VBool b)
| HT_noctor : has_type CNoCtor VOpaque
| HT_backward t : has_type (CBackward t) (VNode [])   (* no parts a pattern can look at *)
| HT_copy t : has_type (CCopyView t) VOpaque.

(** [matches k p v]: pattern [p] matches [v], where the literal [n] matches the
    integer [z] iff [k n z].  The meaning of the language is [k := eq]. *)
Inductive matches_with (k : Z -> Z -> Prop) : hpat -> val -> Prop :=
| M_int n z : k n z -> matches_with k (PInt n) (VInt z)
| M_bool b : matches_with k (PBool b) (VBool b)
| M_name x v : matches_with k (PBound x None) v
| M_at x p v : matches_with k p v -> matches_with k (PBound x (Some p)) v
| M_tuple ps vs : Forall2 (matches_with k) ps vs -> matches_with k (PTuple ps) (VNode vs)
| M_array ps vs : Forall2 (matches_with k) ps vs -> matches_with k (PArray ps) (VNode vs)
| M_struct ps vs : Forall2 (matches_with k) ps vs -> matches_with k (PStruct ps) (VNode vs)
| M_variant i ps vs : Forall2 (matches_with k) ps vs -> matches_with k (PVariant i ps) (VVariant i vs).
Definition matches : hpat -> val -> Prop := matches_with eq.

(** Well-typed patterns: what type inference guarantees
    (spade-typeinference/src/lib.rs:2236-2400); literals fit their type. *)
Inductive pat_type : cty -> hpat -> Prop :=
| PT_int t n : has_type t (VInt n) -> pat_type t (PInt n)
| PT_bool b : pat_type CBool (PBool b)
| PT_name t x : pat_type t (PBound x None)
| PT_at t x p : pat_type t p -> pat_type t (PBound x (Some p))
| PT_tuple ts ps : Forall2 pat_type ts ps -> pat_type (CTuple ts) (PTuple ps)
| PT_struct ts ps : Forall2 pat_type ts ps -> pat_type (CStruct ts) (PStruct ps)
| PT_array t n ps : length ps = n -> Forall (pat_type t) ps -> pat_type (CArray t n) (PArray ps)
| PT_variant os i ts ps : nth_error os i = Some ts -> Forall2 pat_type ts ps ->
    pat_type (CEnum os) (PVariant i ps).

(** Types built from data only: no clock, tristate, memory, inout (which have no
    constructors) and no copy views. *)
Inductive data_type : cty -> Prop :=
| D_tuple ts : Forall data_type ts -> data_type (CTuple ts)
| D_struct ts : Forall data_type ts -> data_type (CStruct ts)
| D_array t n : data_type t -> data_type (CArray t n)
| D_enum os : Forall (Forall data_type) os -> data_type (CEnum os)
| D_int n : data_type (CInt n)
| D_uint n : data_type (CUint n)
| D_bool : data_type CBool
| D_backward t : data_type (CBackward t).

(** Patterns without integer literals. *)
Inductive literal_free : hpat -> Prop :=
| L_bool b : literal_free (PBool b)
| L_name x : literal_free (PBound x None)
| L_at x p : literal_free p -> literal_free (PBound x (Some p))
| L_tuple ps : Forall literal_free ps -> literal_free (PTuple ps)
| L_array ps : Forall literal_free ps -> literal_free (PArray ps)
| L_struct ps : Forall literal_free ps -> literal_free (PStruct ps)
| L_variant i ps : Forall literal_free ps -> literal_free (PVariant i ps).

(** The values a reported witness stands for, read as it is printed:
    [lo..hi] is the integers from [lo] to [hi] inclusive ([within]), or only the
    lower end of the printed range ([at_low]). *)
Definition within (lo hi z : Z) : Prop := lo <= z <= hi.
Definition at_low (lo hi z : Z) : Prop := z = lo.
Inductive describes (R : Z -> Z -> Z -> Prop) : dpat -> val -> Prop :=
| W_wild fs t v : describes R (DPat Wildcard fs t) v
| W_single fs t vs : Forall2 (describes R) fs vs -> describes R (DPat Single fs t) (VNode vs)
| W_bool fs t b : describes R (DPat (BoolC b) fs t) (VBool b)
| W_variant i fs t vs : Forall2 (describes R) fs vs -> describes R (DPat (Variant i) fs t) (VVariant i vs)
| W_range lo hi fs t z : R lo hi z -> describes R (DPat (IntRange lo hi) fs t) (VInt z).
