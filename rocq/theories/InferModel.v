(** Type inference: spade-typeinference/src/replacement.rs, constraints.rs,
    the unification part of lib.rs, and spade-types/src/meta_types.rs.

    Simplifications, everywhere: source locations, trace stack, requirements and
    the text of the errors are left out; a [TypeVarID] is its index ([inner]),
    since every index is allocated once and carries one key; [NameID]s and trait
    names are numbers (their own equality and order compare the number,
    spade-common/src/name.rs:269-289); a type-level string is a list of
    characters. *)
From Coq Require Import List Bool Arith ZArith.
Import ListNotations.

(** ** Meta types *)

(** meta_types.rs:14-26 *)
Inductive meta := MAny | MType | MNumber | MInt | MUint | MBool | MStr.

(** meta_types.rs:30-56 [unify_meta] *)
Definition unify_meta (l r : meta) : option meta :=
  match l, r with
  | MAny, other => Some other
  | other, MAny => Some other
  | MNumber, MInt | MInt, MNumber => Some MInt
  | MNumber, MUint | MUint, MNumber => Some MUint
  | MType, MType | MInt, MInt | MNumber, MNumber
  | MBool, MBool | MStr, MStr | MUint, MUint => Some l
  | _, _ => None
  end.

(** meta_types.rs:14-26, the derived order: by declaration order *)
Definition meta_index (m : meta) : nat :=
  match m with
  | MAny => 0 | MType => 1 | MNumber => 2 | MInt => 3 | MUint => 4 | MBool => 5 | MStr => 6
  end.

(** meta_types.rs:62-64 [is_more_concrete_than] *)
Definition is_more_concrete_than (a b : meta) : bool :=
  if meta_index b <? meta_index a then false else true.

(** ** Types *)

(** spade-types/src/lib.rs:239-251 [KnownType] *)
Inductive base :=
| BNamed (n : nat) | BInt (z : Z) | BBool (b : bool) | BStr (s : list nat)
| BTuple | BArray | BInverted | BCopyView | BError.

(** traits.rs:33-36 [TraitReq] and 88-91 [TraitList] *)
Definition trait_req : Type := nat * list nat.

(** equation.rs:287-293 [TypeVar] *)
Inductive tvar :=
| Known (b : base) (params : list nat)
| Unknown (traits : list trait_req) (m : meta).

(** constraints.rs:15-42 [ConstraintExpr] *)
Inductive cexpr :=
| CBool (b : bool) | CInt (z : Z) | CStr (s : list nat) | CVar (v : nat)
| CSum (l r : cexpr) | CDifference (l r : cexpr) | CProduct (l r : cexpr)
| CDiv (l r : cexpr) | CMod (l r : cexpr) | CSub (e : cexpr)
| CEq (l r : cexpr) | CNotEq (l r : cexpr)
| CLt (l r : cexpr) | CGt (l r : cexpr) | CLe (l r : cexpr) | CGe (l r : cexpr)
| CLogicalNot (e : cexpr) | CLogicalAnd (l r : cexpr) | CLogicalOr (l r : cexpr)
| CLogicalXor (l r : cexpr)
| CIntBits (e : cexpr) | CUintBits (e : cexpr).

(** One layer of replacements, newest entry first: inserting shadows. *)
Definition layer : Type := list (nat * nat).

(** The parts of [TypeState] (lib.rs:120-180) that unification reads or writes:
    [vars] is [shared.type_vars], [repl] the [ReplacementStack] with the top
    first, [cons] the constraints, [saved] the stack of checkpoints. *)
Record state := mkState {
  vars : list tvar;
  repl : list layer;
  cons : list (nat * cexpr);
  saved : list (list (nat * cexpr))
}.

Definition set_vars (st : state) x := mkState x (repl st) (cons st) (saved st).
Definition set_repl (st : state) x := mkState (vars st) x (cons st) (saved st).
Definition set_cons (st : state) x := mkState (vars st) (repl st) x (saved st).

(** ** Computations on the state *)

Inductive error := ENormal | EMeta | ERecursive | EUnsatisfied | ESpecific | EConstraint.

(** The outcome of a call: a value, a reported error (the state it leaves is
    kept, errors do not undo anything), a crash of the compiler, or no outcome
    within the fuel given to the model. *)
Inductive out (A : Type) :=
| Done (a : A) (st : state)
| Fail (e : error) (st : state)
| Panic
| NoFuel.
Arguments Done {A} a st. Arguments Fail {A} e st. Arguments Panic {A}. Arguments NoFuel {A}.

Definition M (A : Type) : Type := state -> out A.
Definition ret {A} (a : A) : M A := fun st => Done a st.
Definition fail {A} (e : error) : M A := fun st => Fail e st.
Definition panic {A} : M A := fun _ => Panic.
Definition bind {A B} (m : M A) (f : A -> M B) : M B := fun st =>
  match m st with
  | Done a st' => f a st'
  | Fail e st' => Fail e st'
  | Panic => Panic
  | NoFuel => NoFuel
  end.
Notation "x <- a ;; b" := (bind a (fun x => b)) (at level 61, a at next level, right associativity).
Notation "a ;;; b" := (bind a (fun _ => b)) (at level 61, right associativity).

(** ** replacement.rs *)

Fixpoint assoc (l : list (nat * nat)) (k : nat) : option nat :=
  match l with
  | [] => None
  | (a, b) :: r => if a =? k then Some b else assoc r k
  end.

(** replacement.rs:57-60: the layers from the top down, the first that has the key *)
Fixpoint lookup (R : list layer) (k : nat) : option nat :=
  match R with
  | [] => None
  | l :: r => match assoc l k with Some j => Some j | None => lookup r k end
  end.

Definition entries (R : list layer) : nat := length (concat R).

(** replacement.rs:55-64, the [while let]: the end of the chain and the keys
    passed on the way.  The loop has no bound; no chain without a cycle is longer
    than the number of entries, and [None] stands for an endless loop. *)
Fixpoint chase (R : list layer) (n : nat) (k : nat) : option (nat * list nat) :=
  match n with
  | 0 => None
  | S n' =>
      match lookup R k with
      | None => Some (k, [])
      | Some j =>
          match chase R n' j with
          | None => None
          | Some (t, seen) => Some (t, k :: seen)
          end
      end
  end.

(** replacement.rs:38-46 [insert] *)
Definition insert (R : list layer) (from to : nat) : list layer :=
  match R with
  | [] => []
  | l :: r => ((from, to) :: l) :: r
  end.

(** replacement.rs:48-71 [get], with its path compression into the top layer *)
Definition get (R : list layer) (k : nat) : option (nat * list layer) :=
  match chase R (S (entries R)) k with
  | None => None
  | Some (t, seen) => Some (t, fold_left (fun R' key => insert R' key t) seen R)
  end.

(** lib.rs:3823-3850 [get_type] on a [TypeVarID] and 3722-3724 [get_replacement] *)
Definition get_type (v : nat) : M nat := fun st =>
  match get (repl st) v with
  | None => NoFuel
  | Some (t, R) => Done t (set_repl st R)
  end.

(** equation.rs:27-40 [resolve]; the path compression of this lookup is left out
    (it never changes the outcome of a lookup: theorem C26_lookup). *)
Definition resolve (st : state) (v : nat) : option tvar :=
  match chase (repl st) (S (entries (repl st))) v with
  | None => None
  | Some (t, _) => nth_error (vars st) t
  end.

(** lib.rs:233-242 [add_type_var] *)
Definition add_type_var (t : tvar) : M nat := fun st =>
  Done (length (vars st)) (set_vars st (vars st ++ [t])).

(** lib.rs:3738-3751 [checkpoint] and 3753-3769 [restore] *)
Definition checkpoint : M unit := fun st =>
  Done tt (mkState (vars st) ([] :: repl st) (cons st) (cons st :: saved st)).
Definition restore : M unit := fun st =>
  match saved st with
  | [] => Panic
  | c :: sv => Done tt (mkState (vars st) (tl (repl st)) c sv)
  end.

(** ** constraints.rs *)

(** The number of bits of the magnitude, [BigInt::bits]. *)
Definition bigint_bits (z : Z) : Z := if (z =? 0)%Z then 0%Z else (Z.log2 (Z.abs z) + 1)%Z.

Definition str_eqb (a b : list nat) : bool := if list_eq_dec Nat.eq_dec a b then true else false.

(** constraints.rs:160-172 [int_binop] and 173-184 [bool_binop]; 229-282 the
    comparisons.  [l] and [r] are the evaluated operands, [self] the expression. *)
Definition int_binop (self : cexpr) (l r : option cexpr) (op : Z -> Z -> option Z) : option cexpr :=
  match l, r with
  | Some (CInt a), Some (CInt b) => option_map CInt (op a b)
  | Some _, Some _ => Some self
  | _, _ => None
  end.
Definition bool_binop (self : cexpr) (l r : option cexpr) (op : bool -> bool -> bool) : option cexpr :=
  match l, r with
  | Some (CBool a), Some (CBool b) => Some (CBool (op a b))
  | Some _, Some _ => Some self
  | _, _ => None
  end.
Definition cmp_binop (self : cexpr) (l r : option cexpr) (op : Z -> Z -> bool) : option cexpr :=
  match l, r with
  | Some (CInt a), Some (CInt b) => Some (CBool (op a b))
  | Some _, Some _ => Some self
  | _, _ => None
  end.
Definition eq_binop (self : cexpr) (l r : option cexpr) (op : bool -> bool) : option cexpr :=
  match l, r with
  | Some (CBool a), Some (CBool b) => Some (CBool (op (Bool.eqb a b)))
  | Some (CInt a), Some (CInt b) => Some (CBool (op (a =? b)%Z))
  | Some (CStr a), Some (CStr b) => Some (CBool (op (str_eqb a b)))
  | Some _, Some _ => Some self
  | _, _ => None
  end.

(** constraints.rs:158-303 [evaluate]; [None] is a crash: division by zero, or a
    constraint variable inferred to be an ordinary type. *)
Fixpoint evaluate (st : state) (e : cexpr) : option cexpr :=
  match e with
  | CInt _ | CBool _ | CStr _ => Some e
  | CVar v =>
      match resolve st v with
      | None => None
      | Some (Known (BInt i) _) => Some (CInt i)
      | Some (Known (BBool b) _) => Some (CBool b)
      | Some (Known (BStr s) _) => Some (CStr s)
      | Some (Known BError _) => Some e
      | Some (Known _ _) => None
      | Some (Unknown _ _) => Some e
      end
  | CSum l r => int_binop e (evaluate st l) (evaluate st r) (fun a b => Some (a + b)%Z)
  | CDifference l r => int_binop e (evaluate st l) (evaluate st r) (fun a b => Some (a - b)%Z)
  | CProduct l r => int_binop e (evaluate st l) (evaluate st r) (fun a b => Some (a * b)%Z)
  | CDiv l r => int_binop e (evaluate st l) (evaluate st r)
                  (fun a b => if (b =? 0)%Z then None else Some (Z.quot a b))
  | CMod l r => int_binop e (evaluate st l) (evaluate st r)
                  (fun a b => if (b =? 0)%Z then None else Some (Z.rem a b))
  | CSub x =>
      match evaluate st x with
      | None => None | Some (CInt v) => Some (CInt (- v)%Z) | Some _ => Some e
      end
  | CEq l r => eq_binop e (evaluate st l) (evaluate st r) (fun b => b)
  | CNotEq l r => eq_binop e (evaluate st l) (evaluate st r) negb
  | CLt l r => cmp_binop e (evaluate st l) (evaluate st r) Z.ltb
  | CGt l r => cmp_binop e (evaluate st l) (evaluate st r) (fun a b => (b <? a)%Z)
  | CLe l r => cmp_binop e (evaluate st l) (evaluate st r) Z.leb
  | CGe l r => cmp_binop e (evaluate st l) (evaluate st r) (fun a b => (b <=? a)%Z)
  | CLogicalNot x =>
      match evaluate st x with
      | None => None | Some (CBool b) => Some (CBool (negb b)) | Some _ => Some e
      end
  | CLogicalAnd l r => bool_binop e (evaluate st l) (evaluate st r) andb
  | CLogicalOr l r => bool_binop e (evaluate st l) (evaluate st r) orb
  | CLogicalXor l r => bool_binop e (evaluate st l) (evaluate st r) xorb
  | CIntBits x =>
      match evaluate st x with
      | None => None
      | Some (CInt v) =>
          let bits := if (v <? 0)%Z then bigint_bits (- v - 1) else bigint_bits v in
          Some (CInt (bits + 1)%Z)
      | Some _ => Some e
      end
  | CUintBits x =>
      match evaluate st x with
      | None => None | Some (CInt v) => Some (CInt (bigint_bits v)) | Some _ => Some e
      end
  end.

(** constraints.rs:420-499 [update_type_level_value_constraints]: the constraints
    left and the values found, in order. *)
Fixpoint update_constraints (st : state) (cs : list (nat * cexpr))
    : option (list (nat * cexpr) * list (nat * base)) :=
  match cs with
  | [] => Some ([], [])
  | (v, e) :: rest =>
      match evaluate st e, update_constraints st rest with
      | Some e', Some (rem, known) =>
          match e' with
          | CInt z => Some (rem, (v, BInt z) :: known)
          | CBool b => Some (rem, (v, BBool b) :: known)
          | CStr s => Some (rem, (v, BStr s) :: known)
          | _ => Some ((v, e') :: rem, known)
          end
      | _, _ => None
      end
  end.

(** ** Trait implementations *)

(** A template type (equation.rs:215-281 [TemplateTypeVarID]): the tree of a type
    of an impl block, with the type parameters of the block numbered.  The code
    keeps templates as type variables that are only ever copied; the model keeps
    their trees.  Copies of equal subtrees are not shared. *)
Inductive tmpl := TmK (b : base) (l : list tmpl) | TmV (n : nat).

(** traits.rs:12-18 [TraitImpl]; [im_vars] are the bounds and meta types of the
    type parameters of the impl block. *)
Record trait_impl := mkImpl {
  im_name : nat;
  im_vars : list (list (nat * list tmpl) * meta);
  im_target : list tmpl;
  im_trait : list tmpl
}.

(** spade-hir/src/symbol_table.rs [TypeSymbol], as far as unification looks at it *)
Inductive symbol := SDeclared | SGenericArg (has_traits : bool) | SGenericMeta.

(** lib.rs [Context]: the symbol table and the trait implementations by target *)
Record context := mkCtx {
  sym : nat -> symbol;
  impls : base -> list trait_impl
}.

(** equation.rs:228-281 [make_copy_with_mapping] *)
Fixpoint copy (n : nat) (im : trait_impl) (t : tmpl) (mp : list (nat * nat)) : M (nat * list (nat * nat)) :=
  match n with
  | 0 => fun _ => NoFuel
  | S n' =>
      let copies := fix go (l : list tmpl) (mp : list (nat * nat)) : M (list nat * list (nat * nat)) :=
        match l with
        | [] => ret ([], mp)
        | t :: r => a <- copy n' im t mp ;; b <- go r (snd a) ;; ret (fst a :: fst b, snd b)
        end in
      match t with
      | TmK b l => a <- copies l mp ;; v <- add_type_var (Known b (fst a)) ;; ret (v, snd a)
      | TmV k =>
          match assoc mp k with
          | Some v => ret (v, mp)
          | None =>
              match nth_error (im_vars im) k with
              | None => panic
              | Some (trs, m) =>
                  a <- (fix go (l : list (nat * list tmpl)) (mp : list (nat * nat))
                          : M (list trait_req * list (nat * nat)) :=
                          match l with
                          | [] => ret ([], mp)
                          | (nm, ps) :: r =>
                              a <- copies ps mp ;; b <- go r (snd a) ;;
                              ret ((nm, fst a) :: fst b, snd b)
                          end) trs mp ;;
                  v <- add_type_var (Unknown (fst a) m) ;;
                  ret (v, (k, v) :: snd a)
              end
          end
      end
  end.

(** ** Unification *)

Section Unify.
Variable C : context.

(** traits.rs:102-104 [get_trait] *)
Fixpoint get_trait (l : list trait_req) (name : nat) : option trait_req :=
  match l with
  | [] => None
  | t :: r => if fst t =? name then Some t else get_trait r name
  end.

(** lib.rs:3162-3167, the [BTreeSet] of the trait names *)
Fixpoint insert_name (x : nat) (l : list nat) : list nat :=
  match l with
  | [] => [x]
  | y :: r => if x <? y then x :: l else if x =? y then l else y :: insert_name x r
  end.
Definition trait_names (t1 t2 : list trait_req) : list nat :=
  fold_right insert_name [] (map fst (t1 ++ t2)).

Definition mem (x : nat) (l : list nat) : bool := existsb (Nat.eqb x) l.

(** lib.rs:3425-3482 [check_type_for_recursion]: [Some true] if a type on the way
    down is reached again.  [seen] is the path from the start. *)
Fixpoint check_rec (n : nat) (st : state) (seen : list nat) (ty : nat) : option bool :=
  match n with
  | 0 => None
  | S n' =>
      let seen' := ty :: seen in
      let check := fix go (l : list nat) : option bool :=
        match l with
        | [] => Some false
        | p :: r =>
            if mem p seen' then Some true
            else match check_rec n' st seen' p with
                 | None => None
                 | Some true => Some true
                 | Some false => go r
                 end
        end in
      match resolve st ty with
      | None => None
      | Some (Known b ps) => check ps
      | Some (Unknown trs _) => check (concat (map snd trs))
      end
  end.

(** lib.rs:3318-3329, the body of the loop over the replaced types *)
Definition insert_replacement (from to : nat) : M unit := fun st =>
  Done tt (set_repl st (insert (repl st) from to)).
Definition check_recursion (to : nat) : M unit := fun st =>
  match check_rec (S (length (vars st))) st [] to with
  | None => NoFuel
  | Some false => Done tt st
  | Some true =>
      (e <- add_type_var (Known BError []) ;; insert_replacement to e ;;; fail ERecursive) st
  end.
Definition replace_one (r new : nat) : M unit :=
  from <- get_type r ;;
  to <- get_type new ;;
  insert_replacement from to ;;;
  check_recursion to.

(** lib.rs:3318-3329, the loop; [same] is [v1.inner == v2.inner] *)
Fixpoint replace_all (same : bool) (replaced : list nat) (new : nat) : M unit :=
  match replaced with
  | [] => ret tt
  | r :: rest => (if same then ret tt else replace_one r new) ;;; replace_all same rest new
  end.

(** lib.rs:3248-3301, the match on the known base and the meta type *)
Definition kind_fits (b : base) (m : meta) : bool :=
  match b, m with
  | _, MAny => true
  | (BNamed _ | BTuple | BArray | BInverted | BCopyView), MType => true
  | BBool _, MBool => true
  | BStr _, MStr => true
  | BInt _, (MInt | MNumber) => true
  | BInt z, MUint => negb (z <? 0)%Z
  | _, _ => false
  end.

(** method_resolution.rs:33-45 [into_impl_target] *)
Definition impl_target (b : base) : bool :=
  match b with
  | BNamed _ | BTuple | BArray | BInverted | BCopyView => true
  | _ => false
  end.

(** lib.rs:3153-3205, the type variable for two unknown types of the merged meta
    type [m]; [unify] is the unification of trait parameters. *)
Section Merge.
Variable unify : nat -> nat -> M nat.

Fixpoint unify_zip (p1 p2 : list nat) : M (list nat) :=
  match p1, p2 with
  | a :: r1, b :: r2 => x <- unify a b ;; xs <- unify_zip r1 r2 ;; ret (x :: xs)
  | _, _ => ret []
  end.

Fixpoint merge_traits (names : list nat) (t1 t2 : list trait_req) : M (list trait_req) :=
  match names with
  | [] => ret []
  | name :: rest =>
      t <- match get_trait t1 name, get_trait t2 name with
           | Some r1, Some r2 => ps <- unify_zip (snd r1) (snd r2) ;; ret (name, ps)
           | Some t, None => ret t
           | None, Some t => ret t
           | None, None => panic
           end ;;
      ts <- merge_traits rest t1 t2 ;;
      ret (t :: ts)
  end.

(** lib.rs:3570-3588, [all] over the zipped parameters: each against a fresh copy *)
Fixpoint all_match (fuel : nat) (im : trait_impl) (ls : list tmpl) (rs : list nat) : M bool :=
  match ls, rs with
  | l :: ls', r :: rs' =>
      a <- copy fuel im l [] ;;
      (fun st =>
         match unify (fst a) r st with
         | Done _ st' => all_match fuel im ls' rs' st'
         | Fail _ st' => Done false st'
         | Panic => Panic
         | NoFuel => NoFuel
         end)
  | _, _ => ret true
  end.

(** lib.rs:3558-3598, the [filter_map] over the implementations for the target *)
Fixpoint matching_impls (fuel : nat) (req : trait_req) (params : list nat) (ims : list trait_impl)
    : M (list trait_impl) :=
  match ims with
  | [] => ret []
  | im :: rest =>
      if negb (length (im_trait im) =? length (snd req)) then matching_impls fuel req params rest
      else if negb (im_name im =? fst req) then matching_impls fuel req params rest
      else
        checkpoint ;;;
        tm <- all_match fuel im (im_trait im) (snd req) ;;
        if negb (length (im_target im) =? length params) then matching_impls fuel req params rest
        else
          pm <- all_match fuel im (im_target im) params ;;
          restore ;;;
          xs <- matching_impls fuel req params rest ;;
          ret (if tm && pm then im :: xs else xs)
  end.

(** lib.rs:3551-3622, over the required traits: the implementation found for
    each, or [None] when one is missing *)
Fixpoint ensure_each (fuel : nat) (b : base) (params : list nat) (reqs : list trait_req)
    : M (option (list (trait_impl * trait_req))) :=
  match reqs with
  | [] => ret (Some [])
  | req :: rest =>
      ims <- matching_impls fuel req params (impls C b) ;;
      match ims with
      | [] => o <- ensure_each fuel b params rest ;; ret None
      | [im] => o <- ensure_each fuel b params rest ;; ret (option_map (fun l => (im, req) :: l) o)
      | _ => fail ESpecific
      end
  end.

(** lib.rs:3484-3645 [ensure_impls] on the known type [b] with [params] *)
Definition ensure_impls (fuel : nat) (b : base) (params : list nat) (reqs : list trait_req)
    : M (list (trait_impl * trait_req)) :=
  if impl_target b then
    o <- ensure_each fuel b params reqs ;;
    match o with Some l => ret l | None => fail EUnsatisfied end
  else match reqs with [] => ret [] | _ => fail EUnsatisfied end.

(** lib.rs:3226-3235: the parameters of the trait against a copy of the impl's *)
Fixpoint unify_trait_params (fuel : nat) (im : trait_impl) (ls : list nat) (rs : list tmpl)
    (mp : list (nat * nat)) : M (list (nat * nat)) :=
  match ls, rs with
  | l :: ls', r :: rs' =>
      a <- copy fuel im r mp ;; unify l (fst a) ;;; unify_trait_params fuel im ls' rs' (snd a)
  | _, _ => ret mp
  end.

(** lib.rs:3237-3245: the parameters of the type against a copy of the impl's *)
Fixpoint unify_target_params (fuel : nat) (im : trait_impl) (ls : list tmpl) (rs : list nat)
    (mp : list (nat * nat)) : M (list nat) :=
  match ls, rs with
  | l :: ls', r :: rs' =>
      a <- copy fuel im l mp ;; x <- unify (fst a) r ;;
      xs <- unify_target_params fuel im ls' rs' (snd a) ;; ret (x :: xs)
  | _, _ => ret []
  end.

(** lib.rs:3224-3246 *)
Fixpoint unify_impls (fuel : nat) (l : list (trait_impl * trait_req)) (params : list nat) : M (list nat) :=
  match l with
  | [] => ret params
  | (im, req) :: rest =>
      mp <- unify_trait_params fuel im (snd req) (im_trait im) [] ;;
      ps <- unify_target_params fuel im (im_target im) params mp ;;
      unify_impls fuel rest ps
  end.
End Merge.

(** lib.rs:3354-3419, the loop of [unify] over the constraints.  Every round that
    is not the last removes a constraint. *)
Section Loop.
Variable inner : nat -> nat -> M nat.

Fixpoint infer_known (l : list (nat * base)) : M unit :=
  match l with
  | [] => ret tt
  | (v, b) :: rest =>
      e <- add_type_var (Known b []) ;;
      (fun st =>
         match inner e v st with
         | Done _ st' => Done tt st'
         | Fail ENormal st' | Fail EMeta st' => Fail EConstraint st'
         | Fail e st' => Fail e st'
         | Panic => Panic
         | NoFuel => NoFuel
         end) ;;;
      infer_known rest
  end.

Fixpoint constraint_loop (n : nat) : M unit :=
  match n with
  | 0 => fun _ => NoFuel
  | S n' => fun st =>
      match update_constraints st (cons st) with
      | None => Panic
      | Some (rem, known) =>
          match known with
          | [] => Done tt (set_cons st rem)
          | _ => (infer_known known ;;; constraint_loop n') (set_cons st rem)
          end
      end
  end.

(** lib.rs:3344-3423 [unify] *)
Definition unify_with (v1 v2 : nat) : M nat :=
  new <- inner v1 v2 ;;
  (fun st => constraint_loop (S (length (cons st))) st) ;;;
  ret new.
End Loop.

(** lib.rs:3034-3062 [unify_params] *)
Fixpoint unify_params (inner : nat -> nat -> M nat) (p1 p2 : list nat) : M unit :=
  match p1, p2 with
  | a :: r1, b :: r2 => inner a b ;;; unify_params inner r1 r2
  | _, _ => ret tt
  end.
Definition unify_params_checked inner (p1 p2 : list nat) : M unit :=
  if length p1 =? length p2 then unify_params inner p1 p2 else fail ENormal.

(** lib.rs:3072-3150: two known types *)
Definition unify_known (inner : nat -> nat -> M nat) (v1 v2 : nat)
    (b1 : base) (p1 : list nat) (b2 : base) (p2 : list nat) : M (nat * list nat) :=
  match b1, b2 with
  | BInt x, BInt y => if (x =? y)%Z then ret (v1, []) else fail ENormal
  | BStr x, BStr y => if str_eqb x y then ret (v1, []) else fail ENormal
  | BBool x, BBool y => if Bool.eqb x y then ret (v1, []) else fail ENormal
  | BNamed x, BNamed y =>
      match sym C x, sym C y with
      | SDeclared, SDeclared =>
          if x =? y then unify_params_checked inner p1 p2 ;;; ret (v1, []) else fail ENormal
      | SDeclared, SGenericArg tr => if tr then panic else ret (v1, [])
      | SGenericArg tr, SDeclared => if tr then panic else ret (v2, [])
      | SGenericArg t1, SGenericArg t2 => if t1 || t2 then panic else ret (v1, [])
      | _, _ => panic
      end
  | BArray, BArray | BTuple, BTuple | BInverted, BInverted | BCopyView, BCopyView =>
      unify_params_checked inner p1 p2 ;;; ret (v1, [])
  | _, _ => fail ENormal
  end.

(** lib.rs:2988-3331 [unify_inner]; one unit of fuel per nested call *)
Fixpoint unify_inner (n : nat) (e1 e2 : nat) : M nat :=
  match n with
  | 0 => fun _ => NoFuel
  | S n' =>
      let inner := unify_inner n' in
      let unify := unify_with inner in
      v1 <- get_type e1 ;;
      v2 <- get_type e2 ;;
      result <- (fun st =>
        match resolve st v1, resolve st v2 with
        | Some (Known BError _), Some _ => Done (v1, [v2]) st
        | Some _, Some (Known BError _) => Done (v2, [v1]) st
        | Some (Known b1 p1), Some (Known b2 p2) => unify_known inner v1 v2 b1 p1 b2 p2 st
        | Some (Unknown t1 m1), Some (Unknown t2 m2) =>
            match unify_meta m1 m2 with
            | None => Fail EMeta st
            | Some MType =>
                (ts <- merge_traits unify (trait_names t1 t2) t1 t2 ;;
                 new <- add_type_var (Unknown ts MType) ;; ret (new, [v1; v2])) st
            | Some m => (new <- add_type_var (Unknown [] m) ;; ret (new, [v1; v2])) st
            end
        | Some (Known b ps), Some (Unknown trs m) =>
            (l <- ensure_impls unify n' b ps trs ;;
             ps' <- unify_impls unify n' l ps ;;
             if kind_fits b m then new <- add_type_var (Known b ps') ;; ret (new, [v1; v2])
             else fail EMeta) st
        | Some (Unknown trs m), Some (Known b ps) =>
            (l <- ensure_impls unify n' b ps trs ;;
             ps' <- unify_impls unify n' l ps ;;
             if kind_fits b m then new <- add_type_var (Known b ps') ;; ret (new, [v2; v1])
             else fail EMeta) st
        | _, _ => Panic
        end) ;;
      replace_all (v1 =? v2) (snd result) (fst result) ;;;
      ret (fst result)
  end.

(** lib.rs:3344-3423 [unify] *)
Definition unify (n : nat) (v1 v2 : nat) : M nat := unify_with (unify_inner n) v1 v2.

(** lib.rs:3726-3734 [do_and_restore] around [unify], and 3334-3342 [can_unify] *)
Definition can_unify (n : nat) (v1 v2 : nat) : M bool := fun st =>
  match checkpoint st with
  | Done _ st1 =>
      match unify n v1 v2 st1 with
      | Done _ st2 => (restore ;;; ret true) st2
      | Fail _ st2 => (restore ;;; ret false) st2
      | Panic => Panic
      | NoFuel => NoFuel
      end
  | _ => Panic
  end.

(** lib.rs:2959-2975 [add_constraint] *)
Definition add_constraint (v : nat) (e : cexpr) : M unit := fun st =>
  Done tt (set_cons st (cons st ++ [(v, e)])).
End Unify.
