(** What it means that a type is free of parts that are not data (C62). *)
From Coq Require Import List Arith ZArith Bool.
From Verif Require Import InferModel InferSpec TypingModel DeclModel DeclSpec AutoModel.
Import ListNotations.

(** The built-in types whose values cannot be copied, and those that are not data *)
Definition not_copy (p : primitive) : Prop := p = PMemory \/ p = PInOut.
Definition not_data (p : primitive) : Prop := not_copy p \/ p = PClock \/ p = PTri.
Definition excluded (tr : auto) (p : primitive) : Prop := match tr with Copy => not_copy p | Data => not_data p end.

Definition has_kind (g : items) (d : nat) (b : body) : Prop := exists a, lookup_type g d = Some {| args := a; kind := b |}.
(** The type something written stands for, where the type parameters are [ts]; an alias is
    replaced by what it stands for, and any number may be the value of an expression. *)
Inductive means (g : items) : list ty -> tspec -> ty -> Prop :=
| M_generic ts k t : nth_error ts k = Some t -> means g ts (TSGeneric k) t
| M_int ts z : means g ts (TSInt z) (TK (BInt z) [])
| M_bool ts b : means g ts (TSBool b) (TK (BBool b) [])
| M_str ts s : means g ts (TSStr s) (TK (BStr s) [])
| M_const ts e z : means g ts (TSConst e) (TK (BInt z) [])
| M_tuple ts l us : all_mean g ts l us -> means g ts (TSTuple l) (TK BTuple us)
| M_array ts a n u v : means g ts a u -> means g ts n v -> means g ts (TSArray a n) (TK BArray [u; v])
| M_inverted ts a u : means g ts a u -> means g ts (TSInverted a) (TK BInverted [u])
| M_view ts a u : means g ts a u -> means g ts (TSCopyView a) (TK BCopyView [u])
| M_named ts d l us : (forall s, ~ has_kind g d (BAlias s)) -> all_mean g ts l us -> means g ts (TSNamed d l) (TK (BNamed d) us)
| M_alias ts d l us s t : has_kind g d (BAlias s) -> all_mean g ts l us -> means g us s t -> means g ts (TSNamed d l) t
with all_mean (g : items) : list ty -> list tspec -> list ty -> Prop :=
| A_nil ts : all_mean g ts [] []
| A_cons ts s l u us : means g ts s u -> all_mean g ts l us -> all_mean g ts (s :: l) (u :: us).

(** [u] is a part of the values of [t]: a member of a tuple or struct, an element of an
    array, something an enum may carry.  What is behind [&] is not a part. *)
Inductive part (g : items) : ty -> ty -> Prop :=
| P_tuple l u : In u l -> part g (TK BTuple l) u
| P_element a n : part g (TK BArray [a; n]) a
| P_member d us l s u : has_kind g d (BStruct l) -> In s l -> means g us s u -> part g (TK (BNamed d) us) u
| P_payload d us vs v s u : has_kind g d (BEnum vs) -> In v vs -> In s v -> means g us s u -> part g (TK (BNamed d) us) u.
(** any number of steps *)
Inductive inside (g : items) : ty -> ty -> Prop :=
| I_here t : inside g t t
| I_in t u v : part g t u -> inside g u v -> inside g t v.
(** A type that is not [tr] whatever it is made of *)
Inductive barred (g : items) (tr : auto) : ty -> Prop :=
| B_inverted l : barred g tr (TK BInverted l)
| B_primitive d l p : has_kind g d (BPrimitive p) -> excluded tr p -> barred g tr (TK (BNamed d) l).
Definition pure (g : items) (tr : auto) (t : ty) : Prop := forall u, inside g t u -> ~ barred g tr u.

(** The arguments of type parameters fit their kinds: a type argument is a type with
    parameters that fit, the others are numbers, booleans or strings. *)
Definition constant (t : ty) : Prop := exists b, t = TK b [] /\ ((exists z, b = BInt z) \/ (exists c, b = BBool c) \/ (exists s, b = BStr s)).
Inductive kinded (g : items) : ty -> Prop :=
| K_tuple l : Forall (kinded g) l -> kinded g (TK BTuple l)
| K_array a n : kinded g a -> constant n -> kinded g (TK BArray [a; n])
| K_inverted a : kinded g a -> kinded g (TK BInverted [a])
| K_view a : kinded g a -> kinded g (TK BCopyView [a])
| K_named d us t : lookup_type g d = Some t -> (forall s, kind t <> BAlias s) ->
    Forall2 (fun m u => m = MType -> kinded g u) (args t) us -> Forall2 (fun m u => m <> MType -> constant u) (args t) us ->
    kinded g (TK (BNamed d) us).

(** The declarations as the check of C55 sees them *)
Definition made_of (b : body) : list tspec :=
  match b with BPrimitive _ => [] | BStruct l => l | BEnum vs => concat vs | BAlias s => [s] end.
Definition outline (g : items) : types_ := map (fun e => (fst e, made_of (kind (snd e)))) g.
(** Every name is declared, and every type parameter, and nothing is left to be inferred. *)
Fixpoint scoped (g : items) (n : nat) (s : tspec) : Prop :=
  match s with
  | TSInt _ | TSBool _ | TSStr _ | TSConst _ => True
  | TSTuple l => (fix go l := match l with [] => True | x :: l => scoped g n x /\ go l end) l
  | TSArray a b => scoped g n a /\ scoped g n b
  | TSNamed d l => (exists t, lookup_type g d = Some t /\ length l = length (args t)) /\
      (fix go l := match l with [] => True | x :: l => scoped g n x /\ go l end) l
  | TSGeneric k => k < n
  | TSInverted a | TSCopyView a => scoped g n a
  | TSWildcard => False
  end.
Definition well_scoped (g : items) : Prop :=
  forall d t, lookup_type g d = Some t -> Forall (scoped g (length (args t))) (made_of (kind t)).

(** [u] is a part of [t] or one of the arguments of [t], which its values may lack *)
Inductive touches (g : items) : ty -> ty -> Prop :=
| T_here t : touches g t t
| T_part t u v : part g t u -> touches g u v -> touches g t v
| T_argument d us u v : In u us -> touches g u v -> touches g (TK (BNamed d) us) v.
(** what is asked of [t] is asked of [u], too *)
Inductive surface (g : items) : ty -> ty -> Prop :=
| S_here t : surface g t t
| S_tuple l u v : In u l -> surface g u v -> surface g (TK BTuple l) v
| S_element a n v : surface g a v -> surface g (TK BArray [a; n]) v
| S_argument d us t u v : lookup_type g d = Some t -> In (MType, u) (combine (args t) us) -> surface g u v -> surface g (TK (BNamed d) us) v.
(** types without impls although they may have nothing that is barred *)
Definition unsupported (t : ty) : Prop := (exists l, t = TK BTuple l /\ 8 < length l) \/ (exists l, t = TK BCopyView l).

(** A program the compiler goes on with: the check of enums has nothing to say. *)
Definition passes (fuel : nat) (g : items) : Prop := NoDup (map fst g) /\ enum_errors fuel g = [].
(** What is behind [&] counted as well *)
Inductive behind (g : items) : ty -> ty -> Prop :=
| H_here t : behind g t t
| H_in t u v : part g t u -> behind g u v -> behind g t v
| H_view t v : behind g t v -> behind g (TK BCopyView [t]) v.
