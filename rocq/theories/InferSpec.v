(** What inferred types mean, independently of how unification computes them. *)
From Coq Require Import List Bool Arith ZArith.
From Verif Require Import InferModel.
Import ListNotations.

(** A type as a finite tree; [TF n m] is a type that is still unknown, of the meta
    type [m]. *)
Inductive ty := TK (b : base) (l : list ty) | TF (n : nat) (m : meta).

(** The type a type variable currently stands for: follow replacements, then read
    the entry.  A type that contained itself would have no tree. *)
Inductive Resolves (st : state) : nat -> ty -> Prop :=
| res_link : forall v j t,
    lookup (repl st) v = Some j -> Resolves st j t -> Resolves st v t
| res_known : forall v b ps ts,
    lookup (repl st) v = None -> nth_error (vars st) v = Some (Known b ps) ->
    Forall2 (Resolves st) ps ts -> Resolves st v (TK b ts)
| res_unknown : forall v trs m,
    lookup (repl st) v = None -> nth_error (vars st) v = Some (Unknown trs m) ->
    Resolves st v (TF v m).

(** Replacing the unknown types by types *)
Fixpoint subst (th : nat -> ty) (t : ty) : ty :=
  match t with
  | TK b l => TK b (map (subst th) l)
  | TF n _ => th n
  end.

(** The types of each meta type.  The error type has none. *)
Definition has_kind (t : ty) (m : meta) : Prop :=
  match m, t with
  | MAny, TK BError _ => False
  | MAny, _ => True
  | MType, TK (BNamed _ | BTuple | BArray | BInverted | BCopyView) _ => True
  | MType, TF _ MType => True
  | MNumber, TK (BInt _) _ => True
  | MNumber, TF _ (MNumber | MInt | MUint) => True
  | MInt, TK (BInt _) _ => True
  | MInt, TF _ MInt => True
  | MUint, TK (BInt z) _ => (0 <= z)%Z
  | MUint, TF _ MUint => True
  | MBool, TK (BBool _) _ => True
  | MBool, TF _ MBool => True
  | MStr, TK (BStr _) _ => True
  | MStr, TF _ MStr => True
  | _, _ => False
  end.

(** A substitution that gives every unknown type of a state a type of its kind *)
Definition respects (st : state) (th : nat -> ty) : Prop :=
  forall v trs m,
    lookup (repl st) v = None -> nth_error (vars st) v = Some (Unknown trs m) ->
    has_kind (th v) m.

(** Minimal widths: of an unsigned and of a signed integer *)
Definition fits_uint (n v : Z) : Prop := (0 <= n /\ 0 <= v < 2 ^ n)%Z.
Definition fits_int (n v : Z) : Prop := (1 <= n /\ - 2 ^ (n - 1) <= v < 2 ^ (n - 1))%Z.
Definition least (P : Z -> Prop) (n : Z) : Prop := P n /\ forall k, P k -> (n <= k)%Z.

Definition magnitude_bits (v n : Z) : Prop := least (fun n => fits_uint n (Z.abs v)) n.

(** Values of the same kind, which may be compared for equality *)
Inductive comparable : base -> base -> Prop :=
| cmp_int : forall a b, comparable (BInt a) (BInt b)
| cmp_bool : forall a b, comparable (BBool a) (BBool b)
| cmp_str : forall a b, comparable (BStr a) (BStr b).

(** The value of a type-level expression, when every variable has a value.
    Division truncates; a division by zero has no value. *)
Inductive Value (val : nat -> ty) : cexpr -> base -> Prop :=
| V_int : forall z, Value val (CInt z) (BInt z)
| V_bool : forall b, Value val (CBool b) (BBool b)
| V_str : forall s, Value val (CStr s) (BStr s)
| V_var_int : forall v z l, val v = TK (BInt z) l -> Value val (CVar v) (BInt z)
| V_var_bool : forall v b l, val v = TK (BBool b) l -> Value val (CVar v) (BBool b)
| V_var_str : forall v s l, val v = TK (BStr s) l -> Value val (CVar v) (BStr s)
| V_sum : forall l r a b, Value val l (BInt a) -> Value val r (BInt b) ->
    Value val (CSum l r) (BInt (a + b))
| V_difference : forall l r a b, Value val l (BInt a) -> Value val r (BInt b) ->
    Value val (CDifference l r) (BInt (a - b))
| V_product : forall l r a b, Value val l (BInt a) -> Value val r (BInt b) ->
    Value val (CProduct l r) (BInt (a * b))
| V_div : forall l r a b, Value val l (BInt a) -> Value val r (BInt b) -> b <> 0%Z ->
    Value val (CDiv l r) (BInt (Z.quot a b))
| V_mod : forall l r a b, Value val l (BInt a) -> Value val r (BInt b) -> b <> 0%Z ->
    Value val (CMod l r) (BInt (Z.rem a b))
| V_sub : forall e a, Value val e (BInt a) -> Value val (CSub e) (BInt (- a))
| V_eq : forall l r x y c, Value val l x -> Value val r y -> comparable x y ->
    (c = true <-> x = y) -> Value val (CEq l r) (BBool c)
| V_neq : forall l r x y c, Value val l x -> Value val r y -> comparable x y ->
    (c = true <-> x <> y) -> Value val (CNotEq l r) (BBool c)
| V_lt : forall l r a b c, Value val l (BInt a) -> Value val r (BInt b) ->
    (c = true <-> (a < b)%Z) -> Value val (CLt l r) (BBool c)
| V_gt : forall l r a b c, Value val l (BInt a) -> Value val r (BInt b) ->
    (c = true <-> (a > b)%Z) -> Value val (CGt l r) (BBool c)
| V_le : forall l r a b c, Value val l (BInt a) -> Value val r (BInt b) ->
    (c = true <-> (a <= b)%Z) -> Value val (CLe l r) (BBool c)
| V_ge : forall l r a b c, Value val l (BInt a) -> Value val r (BInt b) ->
    (c = true <-> (a >= b)%Z) -> Value val (CGe l r) (BBool c)
| V_not : forall e b, Value val e (BBool b) -> Value val (CLogicalNot e) (BBool (negb b))
| V_and : forall l r a b, Value val l (BBool a) -> Value val r (BBool b) ->
    Value val (CLogicalAnd l r) (BBool (a && b))
| V_or : forall l r a b, Value val l (BBool a) -> Value val r (BBool b) ->
    Value val (CLogicalOr l r) (BBool (a || b))
| V_xor : forall l r a b, Value val l (BBool a) -> Value val r (BBool b) ->
    Value val (CLogicalXor l r) (BBool (xorb a b))
| V_int_bits : forall e v n, Value val e (BInt v) -> least (fun n => fits_int n v) n ->
    Value val (CIntBits e) (BInt n)
| V_uint_bits : forall e v n, Value val e (BInt v) -> magnitude_bits v n ->
    Value val (CUintBits e) (BInt n).

(** The types of all variables under a substitution *)
Definition valuation (st : state) (th val : nat -> ty) : Prop :=
  forall v t, Resolves st v t -> val v = subst th t.

(** A completion of a state: types for all its variables that give every unknown
    type a type of its kind and satisfy the open constraints. *)
Definition Completion (st : state) (val : nat -> ty) : Prop :=
  (exists th, respects st th /\ valuation st th val) /\
  (forall v e, In (v, e) (cons st) -> exists k, Value val e k /\ val v = TK k []).

(** ** Histories *)

(** the kinds of type-level values, which have no parameters *)
Definition scalar (b : base) : bool :=
  match b with BInt _ | BBool _ | BStr _ => true | _ => false end.

(** the variables of an expression *)
Fixpoint cvars (e : cexpr) : list nat :=
  match e with
  | CBool _ | CInt _ | CStr _ => []
  | CVar v => [v]
  | CSum l r | CDifference l r | CProduct l r | CDiv l r | CMod l r
  | CEq l r | CNotEq l r | CLt l r | CGt l r | CLe l r | CGe l r
  | CLogicalAnd l r | CLogicalOr l r | CLogicalXor l r => cvars l ++ cvars r
  | CSub e | CLogicalNot e | CIntBits e | CUintBits e => cvars e
  end.

(** Index 0 is the error type, which a program has no name for. *)
Definition ordinary (st : state) (v : nat) : Prop := 0 < v < length (vars st).

(** A new type: of ordinary types, or unknown without trait bounds *)
Definition usable (st : state) (t : tvar) : Prop :=
  match t with
  | Known b ps => b <> BError /\ Forall (ordinary st) ps /\ (scalar b = true -> ps = [])
  | Unknown trs _ => trs = []
  end.

(** The states type inference reaches outside speculative attempts: from the empty
    state by new types, equations between types, new constraints and lookups.  With
    [errors], equations may also fail, after which inference goes on. *)
Inductive Reach (C : context) (errors : bool) : state -> Prop :=
| reach_start : Reach C errors (mkState [Known BError []] [[]] [] [])
| reach_new : forall st t v st', Reach C errors st -> usable st t ->
    add_type_var t st = Done v st' -> Reach C errors st'
| reach_equal : forall st n a b new st', Reach C errors st -> ordinary st a -> ordinary st b ->
    unify C n a b st = Done new st' -> Reach C errors st'
| reach_error : forall st n a b e st', errors = true -> Reach C errors st ->
    ordinary st a -> ordinary st b ->
    unify C n a b st = Fail e st' -> Reach C errors st'
| reach_require : forall st v e u st', Reach C errors st -> ordinary st v ->
    Forall (ordinary st) (cvars e) ->
    add_constraint v e st = Done u st' -> Reach C errors st'
| reach_look : forall st v r st', Reach C errors st -> ordinary st v ->
    get_type v st = Done r st' -> Reach C errors st'.

(** No unknown type is still open to signed, or none to unsigned, integers only. *)
Definition one_sign (st : state) : Prop :=
  (forall i trs, nth_error (vars st) i <> Some (Unknown trs MInt)) \/
  (forall i trs, nth_error (vars st) i <> Some (Unknown trs MUint)).

(** Several equations, one after the other *)
Fixpoint equate (C : context) (n : nat) (l : list (nat * nat)) : M unit :=
  match l with
  | [] => ret tt
  | (a, b) :: r => unify C n a b ;;; equate C n r
  end.

(** What may happen in a speculative attempt, which may nest; a failing equation
    does not end it. *)
Inductive op :=
| ONew (t : tvar) | OEqual (a b : nat) | ORequire (v : nat) (e : cexpr) | OLook (v : nat)
| OTry (l : list op).

Definition outcome {A} (o : out A) : option state :=
  match o with Done _ st | Fail _ st => Some st | _ => None end.

Fixpoint perform (C : context) (n : nat) (o : op) (st : state) : option state :=
  match o with
  | ONew t => outcome (add_type_var t st)
  | OEqual a b => outcome (unify C n a b st)
  | ORequire v e => outcome (add_constraint v e st)
  | OLook v => outcome (get_type v st)
  | OTry l =>
      match checkpoint st with
      | Done _ st1 =>
          match (fix go (l : list op) (st : state) : option state :=
                   match l with
                   | [] => Some st
                   | o :: r => match perform C n o st with Some st' => go r st' | None => None end
                   end) l st1 with
          | Some st2 => outcome (restore st2)
          | None => None
          end
      | _ => None
      end
  end.

(** Every type has as many parameters as its declaration says, in the state, in the
    implementations, and in what an attempt adds; and implementations exist only for
    types with a fixed number of parameters, that is, not for tuples. *)
Section Counts.
Variable arity : base -> option nat.

Fixpoint tmpl_counts (t : tmpl) : Prop :=
  match t with
  | TmK b l => (forall k, arity b = Some k -> length l = k) /\
      (fix all l := match l with [] => True | x :: r => tmpl_counts x /\ all r end) l
  | TmV _ => True
  end.

Definition tvar_counts (t : tvar) : Prop :=
  match t with
  | Known b ps => forall k, arity b = Some k -> length ps = k
  | Unknown _ _ => True
  end.

Record impl_counts (b : base) (im : trait_impl) : Prop := {
  ic_arity : exists k, arity b = Some k /\ length (im_target im) = k;
  ic_target : Forall tmpl_counts (im_target im);
  ic_trait : Forall tmpl_counts (im_trait im);
  ic_vars : Forall (fun vb => Forall (fun tr => Forall tmpl_counts (snd tr)) (fst vb)) (im_vars im)
}.

(** type-level values and the error type are never checked against a count *)
Definition arity_ok : Prop :=
  arity BError = None /\ forall b, scalar b = true -> arity b = None.

Fixpoint op_counts (o : op) : Prop :=
  match o with
  | ONew t => tvar_counts t
  | OTry l => (fix all l := match l with [] => True | x :: r => op_counts x /\ all r end) l
  | _ => True
  end.
End Counts.

(** ** Meta types *)

(** [at_least_as_concrete a b]: every type of kind [a] is one of kind [b] *)
Inductive at_least_as_concrete : meta -> meta -> Prop :=
| concrete_refl : forall m, at_least_as_concrete m m
| concrete_any : forall m, at_least_as_concrete m MAny
| concrete_int : at_least_as_concrete MInt MNumber
| concrete_uint : at_least_as_concrete MUint MNumber.
