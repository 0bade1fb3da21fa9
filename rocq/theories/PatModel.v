(** Model of the pattern usefulness check.
    Source: spade-hir-lowering/src/pattern.rs, spade-hir-lowering/src/usefulness.rs
    and the callers in spade-hir-lowering/src/lib.rs.

    Simplifications: names, source locations and the pretty printer are left out;
    [ConcreteType]s that cannot be the type of a value (type level integers, bools
    and strings, for which the code is [unreachable!]) are left out; the four
    primitive types without constructors share one case.  A Rust panic is
    [None]. *)
From Coq Require Import List ZArith Bool Arith.
Import ListNotations.
Local Open Scope Z_scope.

(** spade-types/src/lib.rs:62-105 [ConcreteType] *)
Inductive cty :=
| CTuple (l : list cty)
| CStruct (l : list cty)
| CArray (inner : cty) (n : nat)
| CEnum (options : list (list cty))
| CInt (bits : nat)
| CUint (bits : nat)
| CBool
| CNoCtor            (* Tri, Clock, Memory, InOut *)
| CBackward (inner : cty)
| CCopyView (inner : cty)
| CError.

(** spade-hir/src/lib.rs:42-80 [PatternKind], after name resolution; [Type] is
    split by [PatternableKind]; arguments are in parameter order. *)
Inductive hpat :=
| PInt (v : Z)
| PBool (b : bool)
| PBound (name : nat) (inner : option hpat)
| PTuple (l : list hpat)
| PArray (l : list hpat)
| PStruct (l : list hpat)
| PVariant (i : nat) (l : list hpat).

(** pattern.rs:182-198 [Constructor] *)
Inductive ctor :=
| Single
| BoolC (b : bool)
| Variant (i : nat)
| IntRange (min max : Z)
| Missing (all_missing : list ctor)
| Wildcard.

(** pattern.rs:297-302 [DeconstructedPattern] *)
Inductive dpat := DPat (c : ctor) (fields : list dpat) (ty : cty).

Definition dctor (p : dpat) : ctor := let '(DPat c _ _) := p in c.
Definition dfields (p : dpat) : list dpat := let '(DPat _ f _) := p in f.
Definition dty (p : dpat) : cty := let '(DPat _ _ t) := p in t.

(** [Option]-valued traversal: a panic in one element panics the whole. *)
Fixpoint traverse {A B} (f : A -> option B) (l : list A) : option (list B) :=
  match l with
  | [] => Some []
  | x :: r =>
      match f x, traverse f r with
      | Some y, Some ys => Some (y :: ys)
      | _, _ => None
      end
  end.

Fixpoint insert (e : Z) (l : list Z) : list Z :=
  match l with
  | [] => [e]
  | x :: r => if e <=? x then e :: l else x :: insert e r
  end.
(** [Vec::sort] *)
Definition sort (l : list Z) : list Z := fold_right insert [] l.
(** [Vec::dedup]: removes consecutive repeats *)
Fixpoint dedup (l : list Z) : list Z :=
  match l with
  | [] => []
  | x :: r =>
      match dedup r with
      | [] => [x]
      | y :: r' => if x =? y then y :: r' else x :: y :: r'
      end
  end.

(** The loop of pattern.rs:44-55 *)
Fixpoint cut (low max : Z) (edges : list Z) : list ctor :=
  match edges with
  | [] => [IntRange low max]
  | e :: r => IntRange low (e - 1) :: cut e max r
  end.

(** pattern.rs:290-294 [as_range] *)
Definition as_range (c : ctor) : option (Z * Z) :=
  match c with IntRange lo hi => Some (lo, hi) | _ => None end.

(** pattern.rs:27-56 [split_int_range] *)
Definition split_int_range (min max : Z) (others : list ctor) : option (list ctor) :=
  match traverse as_range others with
  | None => None
  | Some rs =>
      let edges := dedup (sort (flat_map (fun r => [fst r; snd r]) rs)) in
      Some (cut min max (filter (fun e => (min <? e) && (e <? max)) edges))
  end.

(** pattern.rs:220-245 [is_covered_by] *)
Definition is_covered_by (self other : ctor) : option bool :=
  match self, other with
  | _, Wildcard => Some true
  | Missing _, _ => Some false
  | Single, Single => Some true
  | Variant i, Variant j => Some (Nat.eqb i j)
  | IntRange smin smax, IntRange omin omax => Some ((omin <=? smin) && (smax <=? omax))
  | BoolC b1, BoolC b2 => Some (Bool.eqb b1 b2)
  | _, _ => None
  end.

Definition is_wildcard (c : ctor) : bool := match c with Wildcard => true | _ => false end.

(** [iter().any(f)] where [f] may panic; stops at the first [true]. *)
Fixpoint any {A} (f : A -> option bool) (l : list A) : option bool :=
  match l with
  | [] => Some false
  | x :: r => match f x with
              | None => None
              | Some true => Some true
              | Some false => any f r
              end
  end.

(** [iter().filter(f)] where [f] may panic. *)
Fixpoint filterM {A} (f : A -> option bool) (l : list A) : option (list A) :=
  match l with
  | [] => Some []
  | x :: r => match f x, filterM f r with
              | Some b, Some l' => Some (if b then x :: l' else l')
              | _, _ => None
              end
  end.

(** pattern.rs:147-180 [group_missing_constructors] *)
Definition group_missing_constructors (all_ctors others : list ctor) : option (list ctor) :=
  let non_wildcard_other := filter (fun c => negb (is_wildcard c)) others in
  match filterM (fun c => option_map negb (any (is_covered_by c) non_wildcard_other)) all_ctors with
  | None => None
  | Some missing =>
      Some (match missing with
            | [] => all_ctors
            | _ => non_wildcard_other ++ [Missing missing]
            end)
  end.

(** The value ranges of pattern.rs:90-91 and 114-115; [bits = 0] handled by the
    callers. *)
Definition int_bounds (bits : nat) : Z * Z :=
  (- 2 ^ (Z.of_nat bits - 1), 2 ^ (Z.of_nat bits - 1) - 1).
Definition uint_bounds (bits : nat) : Z * Z := (0, 2 ^ Z.of_nat bits - 1).

(** The integer case of [split_wildcard], with the recursive calls
    [ctor.split(ty, [])] on the other constructors unfolded: a wildcard gives the
    whole range, a range itself and anything else is left as it is. *)
Definition split_integer (bounds : Z * Z) (others : list ctor) : option (list ctor) :=
  let '(min, max) := bounds in
  split_int_range min max
    (map (fun c => match c with Wildcard => IntRange min max | _ => c end) others).

(** pattern.rs:58-141 [split_wildcard] *)
Definition split_wildcard (ty : cty) (others : list ctor) : option (list ctor) :=
  match ty with
  | CError | CTuple _ | CStruct _ | CArray _ _ | CBackward _ | CCopyView _ => Some [Single]
  | CEnum options => Some (map Variant (seq 0 (length options)))
  | CInt O | CUint O => Some [IntRange 0 0]
  | CInt bits => split_integer (int_bounds bits) others
  | CUint bits => split_integer (uint_bounds bits) others
  | CBool => group_missing_constructors [BoolC false; BoolC true] others
  | CNoCtor => Some []
  end.

(** pattern.rs:207-217 [Constructor::split] *)
Definition split (self : ctor) (ty : cty) (others : list ctor) : option (list ctor) :=
  match self with
  | Wildcard => split_wildcard ty others
  | IntRange min max => split_int_range min max others
  | _ => Some [self]
  end.

(** pattern.rs:247-280 [Constructor::fields] *)
Fixpoint single_fields (ty : cty) : option (list cty) :=
  match ty with
  | CTuple l | CStruct l => Some l
  | CArray inner n => Some (repeat inner n)
  | CEnum _ => None
  | CInt _ | CUint _ | CBool | CNoCtor | CBackward _ | CError => Some []
  | CCopyView inner => single_fields inner
  end.
Definition fields (c : ctor) (ty : cty) : option (list cty) :=
  match c with
  | Single => single_fields ty
  | Variant i => match ty with CEnum options => nth_error options i | _ => None end
  | BoolC _ | IntRange _ _ | Missing _ => Some []
  | Wildcard => None
  end.

(** pattern.rs:305-311 [DeconstructedPattern::wildcard] *)
Definition wildcard (ty : cty) : dpat := DPat Wildcard [] ty.

(** pattern.rs:390-395 [specialize], with [wild_from_ctor] (313-323) inlined. *)
Definition specialize (p : dpat) (other : ctor) : option (list dpat) :=
  let '(DPat c fs ty) := p in
  match c with
  | Wildcard => option_map (map wildcard) (fields other ty)
  | _ => Some fs
  end.

(** usefulness.rs:29-33 [PatStack::pop_head] *)
Definition pop_head (s : list dpat) (c : ctor) : option (list dpat) :=
  match s with
  | [] => None
  | h :: t => option_map (fun new => new ++ t) (specialize h c)
  end.

(** usefulness.rs:87-97 [Matrix::specialize] *)
Fixpoint specialize_matrix (rows : list (list dpat)) (c : ctor) : option (list (list dpat)) :=
  match rows with
  | [] => Some []
  | row :: rest =>
      match row with
      | [] => None
      | h :: _ =>
          match is_covered_by c (dctor h), specialize_matrix rest c with
          | Some true, Some m => option_map (fun r => r :: m) (pop_head row c)
          | Some false, Some m => Some m
          | _, _ => None
          end
      end
  end.

(** usefulness.rs:121-135 [Witness::apply_constructor]; the stack grows at the end. *)
Definition apply_constructor (w : list dpat) (c : ctor) (ty : cty) : option (list dpat) :=
  match fields c ty with
  | None => None
  | Some fs =>
      let arity := length fs in
      let len := length w in
      if (len <? arity)%nat then None
      else Some (firstn (len - arity) w ++ [DPat c (rev (skipn (len - arity) w)) ty])
  end.

(** usefulness.rs:176-196 [Usefulness::apply_constructor] *)
Definition apply_constructor_all (ws : list (list dpat)) (c : ctor) (ty : cty) : option (list (list dpat)) :=
  match ws with
  | [] => Some []
  | _ =>
      option_map (@concat _)
        (traverse (fun w =>
           match c with
           | Missing all => traverse (fun c' => apply_constructor w c' ty) all
           | _ => option_map (fun w' => [w']) (apply_constructor w c ty)
           end) ws)
  end.

(** usefulness.rs:225-260 [is_useful].  The recursion is bounded by [fuel]; [None]
    is a panic (or no fuel, which [is_useful_enough] in PatProofs.v excludes). *)
Fixpoint useful (fuel : nat) (pattern : list dpat) (rows : list (list dpat))
  : option (list (list dpat)) :=
  match fuel with
  | O => None
  | S fuel =>
      match pattern with
      | [] => Some (match rows with [] => [[]] | _ => [] end)
      | h :: _ =>
          match traverse (fun r => match r with [] => None | p :: _ => Some (dctor p) end) rows with
          | None => None
          | Some heads =>
              match split (dctor h) (dty h) heads with
              | None => None
              | Some ctors =>
                  option_map (@concat _)
                    (traverse (fun c =>
                       match pop_head pattern c, specialize_matrix rows c with
                       | Some p', Some m' =>
                           match useful fuel p' m' with
                           | Some ws => apply_constructor_all ws c (dty h)
                           | None => None
                           end
                       | _, _ => None
                       end) ctors)
              end
          end
      end
  end.

(** Number of constructor levels below a type: bounds the recursion of [useful]. *)
Fixpoint depth (t : cty) : nat :=
  match t with
  | CTuple l | CStruct l => S (list_sum (map depth l))
  | CArray inner n => S (depth inner * n)
  | CEnum options => S (list_sum (map (fun o => list_sum (map depth o)) options))
  | CBackward i => S (depth i)
  | CCopyView i => S (depth i)
  | _ => 1
  end.

(** pattern.rs:325-388 [from_hir]; the type of each pattern
    ([concrete_type_of_infallible]) is passed down from the type of the whole,
    [CError] standing for an ill-typed position. *)
Fixpoint from_hir (ty : cty) (p : hpat) : dpat :=
  match p with
  | PInt v => DPat (IntRange v (v + 1)) [] ty
  | PBool b => DPat (BoolC b) [] ty
  | PBound _ None => DPat Wildcard [] ty
  | PBound _ (Some p) => from_hir ty p
  | PTuple l | PArray l | PStruct l =>
      DPat Single
        ((fix go (ts : list cty) (l : list hpat) : list dpat :=
            match l with
            | [] => []
            | x :: r => from_hir (hd CError ts) x :: go (tl ts) r
            end)
           (match single_fields ty with Some ts => ts | None => [] end) l) ty
  | PVariant i l =>
      DPat (Variant i)
        ((fix go (ts : list cty) (l : list hpat) : list dpat :=
            match l with
            | [] => []
            | x :: r => from_hir (hd CError ts) x :: go (tl ts) r
            end)
           (match fields (Variant i) ty with Some ts => ts | None => [] end) l) ty
  end.

(** One arm of a [match]: pattern and whether it has an [if] guard. *)
Definition arm := (hpat * bool)%type.

(** spade-hir-lowering/src/lib.rs:1819-1838: the witnesses computed for a match;
    the match is rejected iff there are any.  [None] is a panic. *)
Definition match_witnesses (ty : cty) (arms : list arm) : option (list (list dpat)) :=
  useful (S (depth ty)) [wildcard ty]
    (map (fun a => [from_hir ty (fst a)]) (filter (fun a => negb (snd a)) arms)).

(** spade-hir-lowering/src/lib.rs:880-896 [is_trivially_irrefutable] *)
Fixpoint is_trivially_irrefutable (p : hpat) : bool :=
  match p with
  | PInt _ | PBool _ => false
  | PBound _ None => true
  | PBound _ (Some p) => is_trivially_irrefutable p
  | PTuple l | PArray l | PStruct l | PVariant _ l => forallb is_trivially_irrefutable l
  end.

(** spade-hir-lowering/src/lib.rs:900-934 [is_refutable], [check_irrefutable]:
    is a [let] or [reg] binding with this pattern accepted? *)
Definition binding_accepted (ty : cty) (p : hpat) : option bool :=
  if is_trivially_irrefutable p then Some true
  else option_map (fun ws => match ws with [] => true | _ => false end)
         (match_witnesses ty [(p, false)]).
