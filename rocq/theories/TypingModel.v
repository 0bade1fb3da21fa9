(** Type checking of a unit: spade-typeinference/src/lib.rs (units, patterns,
    statements, generic lists, calls), expression.rs and requirements.rs, on top of the
    unification of [InferModel].

    [None] is a diagnostic, a panic or a call of [unify] that does not end.  The code
    goes on after a diagnostic, with the type of the expression an error, and rejects
    the program in the end; the model stops at the first one.  A second visit of an
    expression, which the code skips, also stops the model: only the arguments of
    methods are visited twice.

    Left out: methods and associated calls (C32), lambdas, pipelines and stage
    references (C17-C20), memories (C12), tristate values, dereferencing, aliases and
    bounds in type declarations, defaults of type parameters, field and tuple access
    through copy views and inverted types, and the [Data] bounds that
    lib.rs:840-1104 adds after the body, which only reject more. *)
From Coq Require Import List ZArith Bool Arith.
From Verif Require Import InferModel.
From Verif Require ExprModel.
Import ListNotations.
Local Open Scope list_scope.

(** ** HIR *)

(** equation.rs [TypedExpression] *)
Inductive key := KId (i : nat) | KName (x : nat).
Definition key_eqb (a b : key) : bool :=
  match a, b with
  | KId i, KId j | KName i, KName j => i =? j
  | _, _ => false
  end.

(** spade-hir/src/lib.rs [TypeSpec], [TypeExpression] and [ConstGeneric].  Type
    parameters are numbered; the variables of a type-level expression are such
    numbers. *)
Inductive tspec :=
| TSInt (z : Z) | TSBool (b : bool) | TSStr (s : list nat)
| TSConst (e : cexpr)
| TSNamed (n : nat) (l : list tspec)
| TSGeneric (k : nat)
| TSTuple (l : list tspec)
| TSArray (t size : tspec)
| TSInverted (t : tspec) | TSCopyView (t : tspec)
| TSWildcard.

(** spade-hir/src/lib.rs [WhereClauseKind] *)
Inductive wkind := WEq | WNeq | WLt | WLeq | WGt | WGeq.
(** The functions with rules of their own *)
Inductive special := SpNone | SpConcat | SpTrunc | SpDivMod.
(** spade-hir/src/lib.rs [UnitHead]: the kinds of the type parameters, the bounds
    [T: Number<N>] as (T, N), the [where] clauses on numbers, the types of the
    parameters and the result.  Constructors of structs and enum variants have heads
    too, and patterns use them. *)
Record head := Head {
  hd_metas : list meta;
  hd_bounds : list (nat * nat);
  hd_where : list (nat * wkind * cexpr);
  hd_params : list tspec;
  hd_ret : option tspec;
  hd_special : special
}.
(** The members of a struct, by name *)
Definition struct_ : Type := list (nat * tspec).

(** spade-hir/src/lib.rs [PatternKind] *)
Inductive hpat := HP (id : nat) (k : hpkind)
with hpkind :=
| PInt (z : Z) | PBool (b : bool)
| PBound (x : nat) (pre_declared : bool) (inner : option hpat)
| PTuple (l : list hpat) | PArray (l : list hpat)
| PType (name : nat) (args : list hpat).
Definition pid (p : hpat) : nat := let '(HP i _) := p in i.

(** spade-hir/src/expression.rs [ExprKind], [IntLiteralKind]; lib.rs [Statement].
    Arguments are in the order of the parameters (C36). *)
Inductive lit := LUnsized | LSigned (size : option Z) | LUnsigned (size : option Z).
Definition const : Type := (nat * cexpr)%type.   (* [ConstGenericWithId] *)
Inductive hx := HX (id : nat) (k : hkind)
with hkind :=
| HName (x : nat)
| HInt (z : Z) (l : lit)
| HBool (b : bool)
| HTypeInt (k : nat)
| HTypeBool
| HTuple (l : list hx)
| HTupleIndex (a : hx) (i : nat)
| HField (a : hx) (f : nat)
| HCast (a : hx) (t : tspec)
| HArray (l : list hx)
| HRepeat (a : hx) (n : const)
| HIndex (a i : hx)
| HRange (a : hx) (s e : option const)
| HBlock (ss : list hstm) (r : option hx)
| HIf (c a b : hx)
| HGenIf (c : const) (a b : hx)
| HMatch (a : hx) (arms : list (hpat * option hx * hx))
| HBin (op : ExprModel.binop) (a b : hx)
| HUn (op : ExprModel.unop) (a : hx)
| HRef (a : hx)
| HCall (f : nat) (tf : option (list tspec)) (args : list hx)
with hstm :=
| HLet (p : hpat) (t : option tspec) (e : hx)
| HExpr (e : hx)
| HReg (p : hpat) (t : option tspec) (clock value : hx) (reset : option (hx * hx)) (initial : option hx)
| HDecl (l : list nat)
| HAssert (e : hx)
| HSet (target value : hx).
Definition hid (e : hx) : nat := let '(HX i _) := e in i.

Record hunit := HUnit {
  hu_metas : list meta;
  hu_where : list (nat * wkind * cexpr);
  hu_inputs : list (nat * tspec);
  hu_output : option tspec;
  hu_body : hx
}.

(** ** State *)

(** requirements.rs:20-98 [Requirement]; [ConstantInt] *)
Inductive litval := LitZ (z : Z) | LitVar (v : nat).
Inductive req :=
| RFits (value : litval) (t : nat)
| RField (target : nat) (f : nat) (e : nat)
| REndAfterStart (s e : nat)
| RInArray (i size : nat)
| RNonZero (size : nat)
| RWhere (k : wkind) (l r : nat)
| RShared (l : list nat).

(** The part of [OwnedTypeState] (lib.rs:120-180) used here *)
Record tst := mkT { inf : state; eqs : list (key * nat); reqs : list req }.
Definition T (A : Type) : Type := tst -> option (A * tst).
Definition tret {A} (a : A) : T A := fun s => Some (a, s).
Definition tfail {A} : T A := fun _ => None.
Definition tbind {A B} (m : T A) (f : A -> T B) : T B := fun s =>
  match m s with Some (a, s') => f a s' | None => None end.
Notation "'do' x <- m ; k" := (tbind m (fun x => k)) (at level 200, x pattern, m at level 100, k at level 200).
Notation "'run' m ; k" := (tbind m (fun _ => k)) (at level 200, m at level 100, k at level 200).

Definition lift {A} (m : M A) : T A := fun s =>
  match m (inf s) with Done a st => Some (a, mkT st (eqs s) (reqs s)) | _ => None end.
Definition new_var (t : tvar) : T nat := lift (add_type_var t).
Definition constrain (v : nat) (e : cexpr) : T unit := lift (add_constraint v e).
Definition of_option {A} (o : option A) : T A := fun s => match o with Some a => Some (a, s) | None => None end.
Definition resolved (v : nat) : T tvar := fun s => match resolve (inf s) v with Some t => Some (t, s) | None => None end.

Fixpoint find (l : list (key * nat)) (k : key) : option nat :=
  match l with
  | [] => None
  | (j, v) :: r => if key_eqb j k then Some v else find r k
  end.
(** lib.rs:2937-2957 [add_equation] *)
Definition add_equation (k : key) (v : nat) : T unit := fun s =>
  match find (eqs s) k with
  | None => Some (tt, mkT (inf s) ((k, v) :: eqs s) (reqs s))
  | Some _ => None
  end.
(** lib.rs:493-502 [type_of] *)
Definition type_of (k : key) : T nat := fun s => match find (eqs s) k with Some v => Some (v, s) | None => None end.
(** lib.rs:2977-2983 [add_requirement] *)
Definition add_requirement (r : req) : T unit := fun s => Some (tt, mkT (inf s) (eqs s) (reqs s ++ [r])).

(** A list in order *)
Definition each {A} (f : A -> T unit) : list A -> T unit :=
  fix go l := match l with [] => tret tt | a :: r => run f a; go r end.
Definition collect {A B} (f : A -> T B) : list A -> T (list B) :=
  fix go l := match l with [] => tret [] | a :: r => do b <- f a; do q <- go r; tret (b :: q) end.
(** A list whose elements but the first are told so *)
Definition each_after {A} (f : bool -> A -> T unit) : bool -> list A -> T unit :=
  fix go i l := match l with [] => tret tt | a :: r => run f i a; go true r end.
(** Two lists, which ast lowering has made equally long (spade-ast-lowering/src/lib.rs:1800-1850) *)
Definition each2 {A B} (f : A -> B -> T unit) : list A -> list B -> T unit :=
  fix go l m := match l, m with
                | [], [] => tret tt
                | a :: l', b :: m' => run f a b; go l' m'
                | _, _ => tfail
                end.
Definition onto {A} (f : A -> T unit) (o : option A) : T unit := match o with Some a => f a | None => tret tt end.

Section Check.
Variable C : context.
(** enough steps for each call of [unify] *)
Variable fuel : nat.
(** [Number], [int], [uint], [bool] and [clock]; the number of parameters of each
    type (checked in spade-ast-lowering/src/lib.rs:405-425); structs and heads. *)
Variables num int_ uint_ bool_ clock_ : nat.
Variable arity : nat -> nat.
Variable structs : nat -> option struct_.
Variable heads : nat -> option head.

(** lib.rs:3344-3423 *)
Definition equal (a b : nat) : T unit := lift (bind (unify C fuel a b) (fun _ => ret tt)).
(** The types of the unit's, struct's or called head's type parameters; lib.rs:2013 *)
Definition glist : Type := list nat.

(** ** Types *)

(** lib.rs:504-684 *)
Definition new_generic (m : meta) : T nat := new_var (Unknown [] m).
Definition new_number : T (nat * nat) :=
  do size <- new_generic MUint;
  do t <- new_var (Unknown [(num, [size])] MType);
  tret (t, size).
Definition new_sized (b : nat) (m : meta) : T (nat * nat) :=
  do size <- new_generic m;
  do t <- new_var (Known (BNamed b) [size]);
  tret (t, size).
Definition new_int (z : Z) : T nat := new_var (Known (BInt z) []).
Definition t_bool : T nat := new_var (Known (BNamed bool_) []).
Definition t_clock : T nat := new_var (Known (BNamed clock_) []).

(** lib.rs:2823-2900 [visit_const_generic] *)
Fixpoint const_generic (gl : glist) (e : cexpr) : option cexpr :=
  let two f a b :=
    match const_generic gl a, const_generic gl b with Some x, Some y => Some (f x y) | _, _ => None end in
  let one f a := option_map f (const_generic gl a) in
  match e with
  | CBool _ | CInt _ | CStr _ => Some e
  | CVar k => option_map CVar (nth_error gl k)
  | CSum a b => two CSum a b | CDifference a b => two CDifference a b | CProduct a b => two CProduct a b
  | CDiv a b => two CDiv a b | CMod a b => two CMod a b | CSub a => one CSub a
  | CEq a b => two CEq a b | CNotEq a b => two CNotEq a b
  | CLt a b => two CLt a b | CGt a b => two CGt a b | CLe a b => two CLe a b | CGe a b => two CGe a b
  | CLogicalNot a => one CLogicalNot a | CLogicalAnd a b => two CLogicalAnd a b
  | CLogicalOr a b => two CLogicalOr a b | CLogicalXor a b => two CLogicalXor a b
  | CIntBits a => one CIntBits a | CUintBits a => one CUintBits a
  end.

(** lib.rs:289-490 [hir_type_expr_to_var], [type_var_from_hir] *)
Fixpoint spec_var (gl : glist) (t : tspec) : T nat :=
  match t with
  | TSInt z => new_int z
  | TSBool b => new_var (Known (BBool b) [])
  | TSStr s => new_var (Known (BStr s) [])
  | TSConst e => do c <- of_option (const_generic gl e); do v <- new_generic MAny; run constrain v c; tret v
  | TSNamed n l =>
      do ps <- collect (spec_var gl) l;
      if length l =? arity n then new_var (Known (BNamed n) ps) else tfail
  | TSGeneric k => of_option (nth_error gl k)
  | TSTuple l => do ps <- collect (spec_var gl) l; new_var (Known BTuple ps)
  | TSArray t n => do a <- spec_var gl t; do b <- spec_var gl n; new_var (Known BArray [a; b])
  | TSInverted t => do a <- spec_var gl t; new_var (Known BInverted [a])
  | TSCopyView t => do a <- spec_var gl t; new_var (Known BCopyView [a])
  | TSWildcard => new_generic MAny
  end.

(** lib.rs:2765-2821 [visit_const_generic_with_id]; [metas] are the kinds of the
    unit's type parameters *)
Definition const_meta (metas : list meta) (e : cexpr) : option meta :=
  match e with
  | CVar k =>
      match nth_error metas k with
      | Some MType | Some MAny | None => None
      | Some m => Some m
      end
  | CBool _ => Some MBool
  | CStr _ => Some MStr
  | CInt _ | CSum _ _ | CDifference _ _ | CProduct _ _ | CDiv _ _ | CMod _ _ | CSub _
  | CIntBits _ | CUintBits _ => Some MNumber
  | CEq _ _ | CNotEq _ _ | CLt _ _ | CGt _ _ | CLe _ _ | CGe _ _
  | CLogicalNot _ | CLogicalAnd _ _ | CLogicalOr _ _ | CLogicalXor _ _ => Some MBool
  end.
Definition const_var (metas : list meta) (gl : glist) (c : const) : T nat :=
  do m <- of_option (const_meta metas (snd c));
  do v <- new_generic m;
  do e <- of_option (const_generic gl (snd c));
  run add_equation (KId (fst c)) v;
  run constrain v e;
  tret v.

(** ** Requirements *)

(** requirements.rs:386-404: zero always fits; a size of more than 32 bits is an error *)
Definition literal_fits (signed : bool) (size v : Z) : bool :=
  (v =? 0)%Z ||
  (if signed then ((- 2 ^ Z.max 0 (size - 1) <=? v) && (v <=? 2 ^ Z.max 0 (size - 1) - 1))%Z
   else ((0 <=? v) && (v <=? 2 ^ size - 1))%Z).
Definition member (s : struct_) (f : nat) : option tspec :=
  option_map snd (List.find (fun m => fst m =? f) s).
Definition where_holds (k : wkind) (l r : Z) : bool :=
  match k with
  | WEq => l =? r | WNeq => negb (l =? r) | WLt => l <? r | WLeq => l <=? r | WGt => r <? l | WGeq => r <=? l
  end%Z.
(** two numbers that must both be known *)
Definition compare (f : Z -> Z -> bool) (a b : nat) : T (option (list (nat * nat))) :=
  do x <- resolved a; do y <- resolved b;
  match x, y with
  | Known (BInt x) _, Known (BInt y) _ => if f x y then tret (Some []) else tfail
  | Unknown _ _, _ | _, Unknown _ _ => tret None
  | _, _ => tfail
  end.
(** the first of the types that is known; requirements.rs:620-627 *)
Fixpoint first_known (l : list nat) : T (option (base * list nat)) :=
  match l with
  | [] => tret None
  | t :: r => do x <- resolved t; match x with Known b ps => tret (Some (b, ps)) | Unknown _ _ => first_known r end
  end.
(** requirements.rs:108-660 [check]: no change, or satisfied, with types to be made
    equal as (from, to) *)
Definition check (r : req) : T (option (list (nat * nat))) :=
  match r with
  | RFits value t =>
      do x <- resolved t;
      match x with
      | Unknown _ _ | Known BError _ => tret None
      | Known (BNamed n) ps =>
          if (n =? int_) || (n =? uint_) then
            match ps with
            | [p] =>
                do y <- resolved p;
                match y with
                | Unknown _ _ | Known BError _ => tret None
                | Known (BInt size) _ =>
                    if (0 <=? size)%Z && (size <? 2 ^ 32)%Z then
                      do v <- match value with
                              | LitZ z => tret (Some z)
                              | LitVar v =>
                                  do w <- resolved v;
                                  match w with
                                  | Unknown _ _ => tret None
                                  | Known (BInt z) _ => tret (Some z)
                                  | Known _ _ => tfail
                                  end
                              end;
                      match v with
                      | None => tret None
                      | Some z => if literal_fits (n =? int_) size z then tret (Some []) else tfail
                      end
                    else tfail
                | Known _ _ => tfail
                end
            | _ => tfail
            end
          else tfail
      | Known _ _ => tfail
      end
  | RField target f e =>
      do x <- resolved target;
      match x with
      | Unknown _ _ => tret None
      | Known (BNamed n) ps =>
          match structs n with
          | Some s =>
              do spec <- of_option (member s f);
              do v <- spec_var ps spec;
              tret (Some [(e, v)])
          | None => tfail
          end
      | Known _ _ => tfail
      end
  | REndAfterStart s e => compare Z.leb s e
  | RInArray i size => compare Z.leb i size
  | RNonZero size =>
      do x <- resolved size;
      match x with
      | Known (BInt z) _ => if (z =? 0)%Z then tfail else tret (Some [])
      | Unknown _ _ => tret None
      | Known _ _ => tfail
      end
  | RWhere k l r => compare (where_holds k) l r
  | RShared l =>
      do k <- first_known l;
      match k with
      | None => tret None
      | Some (b, ps) =>
          do rs <- collect (fun t => do qs <- collect (fun _ => new_generic MAny) ps;
                                     do v <- new_var (Known b qs); tret (t, v)) l;
          tret (Some rs)
      end
  end.
(** requirements.rs:692-705 [check_or_add] *)
Definition check_or_add (r : req) : T unit :=
  do x <- check r;
  match x with
  | None => add_requirement r
  | Some rs => each (fun p => equal (fst p) (snd p)) rs
  end.
(** lib.rs:3660-3720 [check_requirements], with all requirements looked at once per
    round.  Every round that does not end drops at least one. *)
Fixpoint check_round (l : list req) : T (list req * list (nat * nat)) :=
  match l with
  | [] => tret ([], [])
  | r :: rest =>
      do x <- check r;
      do (keep, rs) <- check_round rest;
      match x with
      | None => tret (r :: keep, rs)
      | Some qs => tret (keep, qs ++ rs)
      end
  end.
Definition set_reqs (l : list req) : T unit := fun s => Some (tt, mkT (inf s) (eqs s) l).
Definition get_reqs : T (list req) := fun s => Some (reqs s, s).
Fixpoint check_rounds (n : nat) : T unit :=
  match n with
  | 0 => tfail
  | S n' =>
      do l <- get_reqs;
      do (keep, rs) <- check_round l;
      run set_reqs keep;
      match rs with
      | [] => tret tt
      | _ => run each (fun p => equal (snd p) (fst p)) rs; check_rounds n'
      end
  end.
Definition check_requirements : T unit := do l <- get_reqs; check_rounds (S (length l)).

(** ** Generic lists *)

(** lib.rs:1838-1884: a type for each type parameter, equal to the one after [::<] *)
Fixpoint new_list (prev : glist) (metas : list meta) (tf : option (list tspec)) : T glist :=
  match metas with
  | [] => match tf with Some (_ :: _) => tfail | _ => tret [] end
  | m :: r =>
      do t <- new_generic m;
      do rest <- match tf with
                 | None => tret None
                 | Some (s :: tl) => do ty <- spec_var prev s; run equal ty t; tret (Some tl)
                 | Some [] => tfail
                 end;
      do l <- new_list prev r rest;
      tret (t :: l)
  end.
(** lib.rs:1925-1985, the clauses on numbers *)
Definition where_clause (gl : glist) (w : nat * wkind * cexpr) : T unit :=
  let '(k, kind, e) := w in
  do v <- of_option (nth_error gl k);
  do c <- of_option (const_generic gl e);
  match kind with
  | WEq => constrain v c
  | _ => do r <- new_generic MInt; run constrain r c; add_requirement (RWhere kind v r)
  end.
Fixpoint update {A} (l : list A) (k : nat) (a : A) : list A :=
  match l, k with
  | [], _ => []
  | _ :: r, 0 => a :: r
  | x :: r, S k' => x :: update r k' a
  end.
(** lib.rs:2700-2762 [visit_trait_bounds]: an unknown type is replaced by one with the
    bound; a type that is already known is not looked at *)
Definition trait_bound (metas : list meta) (gl : glist) (b : nat * nat) : T glist :=
  match nth_error metas (fst b) with
  | Some MType =>
      do old <- of_option (nth_error gl (fst b));
      do size <- of_option (nth_error gl (snd b));
      do x <- resolved old;
      match x with
      | Known _ _ => tret gl
      | Unknown trs _ =>
          do new <- new_var (Unknown (trs ++ [(num, [size])]) MType);
          run lift (insert_replacement old new);
          tret (update gl (fst b) new)
      end
  | _ => tret gl
  end.
Fixpoint trait_bounds (metas : list meta) (gl : glist) (l : list (nat * nat)) : T glist :=
  match l with
  | [] => tret gl
  | b :: r => do gl' <- trait_bound metas gl b; trait_bounds metas gl' r
  end.
(** lib.rs:1743-2000 [create_generic_list]; the parameters after [::<] have been
    matched (C36) *)
Definition generic_list (prev : glist) (tf : option (list tspec)) (metas : list meta)
    (wh : list (nat * wkind * cexpr)) (bounds : list (nat * nat)) : T glist :=
  match tf, metas with
  | Some _, [] => tfail
  | _, _ =>
      do gl <- new_list prev metas tf;
      run each (where_clause gl) wh;
      trait_bounds metas gl bounds
  end.

(** ** Patterns *)

(** lib.rs:2155-2360 [visit_pattern] *)
Fixpoint visit_pattern (p : hpat) : T unit :=
  let '(HP id k) := p in
  do self <- new_generic MType;
  run add_equation (KId id) self;
  match k with
  | PInt z =>
      do (t, _) <- new_number;
      run add_requirement (RFits (LitZ z) t);
      equal self t
  | PBool _ => do b <- t_bool; equal self b
  | PBound x pre inner =>
      run match inner with
          | Some q =>
              run visit_pattern q;
              if pre then tret tt else do t <- type_of (KId (pid q)); add_equation (KName x) t
          | None => if pre then tret tt else add_equation (KName x) self
          end;
      do t <- type_of (KName x);
      equal self t
  | PTuple l =>
      run each visit_pattern l;
      do ts <- collect (fun q => type_of (KId (pid q))) l;
      do t <- new_var (Known BTuple ts);
      equal self t
  | PArray l =>
      run each visit_pattern l;
      match l with
      | [] => tfail
      | q :: r =>
          do inner <- type_of (KId (pid q));
          run each (fun q => do t <- type_of (KId (pid q)); equal t inner) r;
          do n <- new_int (Z.of_nat (length l));
          do t <- new_var (Known BArray [inner; n]);
          equal self t
      end
  | PType name args =>
      do h <- of_option (heads name);
      do ret <- of_option (hd_ret h);
      do gl <- generic_list [] None (hd_metas h) [] [];
      do cond <- spec_var gl ret;
      run equal self cond;
      each2 (fun a t =>
          run visit_pattern a;
          do v <- spec_var gl t;
          do w <- type_of (KId (pid a));
          equal w v) args (hd_params h)
  end.

(** ** Operators *)

(** expression.rs:806-915 *)
Definition minus (e : cexpr) : cexpr := CSub e.
Definition binary (op : ExprModel.binop) (self a b : nat) : T unit :=
  match op with
  | ExprModel.BAdd | ExprModel.BSub =>
      do (in_t, lhs) <- new_number;
      do (res_t, res) <- new_number;
      run constrain res (CSum (CVar lhs) (CInt 1));
      run constrain lhs (CSum (CVar res) (CSub (CInt 1)));
      run equal a in_t;
      run equal a b;
      run equal self res_t;
      check_or_add (RShared [in_t; res_t])
  | ExprModel.BMul =>
      do (lhs_t, lhs) <- new_number;
      do (rhs_t, rhs) <- new_number;
      do (res_t, res) <- new_number;
      run constrain res (CSum (CVar lhs) (CVar rhs));
      run constrain lhs (CSum (CVar res) (CSub (CVar rhs)));
      run constrain rhs (CSum (CVar res) (CSub (CVar lhs)));
      run equal a lhs_t;
      run equal b rhs_t;
      run equal self res_t;
      check_or_add (RShared [lhs_t; rhs_t; res_t])
  | _ =>
      do (t, _) <- new_number;
      run equal a t;
      run equal a b;
      equal self b
  end.
(** expression.rs:917-965 *)
Definition unary (op : ExprModel.unop) (self a : nat) : T unit :=
  match op with
  | ExprModel.UMinus => do (t, _) <- new_sized int_ MUint; run equal a t; equal self t
  | ExprModel.UBitNot => do (t, _) <- new_number; run equal a t; equal self t
  | ExprModel.UNot => do t <- t_bool; run equal a t; equal self t
  end.
(** lib.rs:1586-1664 [handle_concat], [handle_trunc], [handle_comb_mod_or_div] *)
Definition special_rule (sp : special) (gl : glist) : T unit :=
  match sp with
  | SpNone => tret tt
  | SpConcat =>
      do a <- of_option (nth_error gl 0); do b <- of_option (nth_error gl 1); do r <- of_option (nth_error gl 2);
      do (lhs_t, lhs) <- new_number;
      do (rhs_t, rhs) <- new_number;
      do (res_t, res) <- new_number;
      run equal a lhs_t;
      run equal b rhs_t;
      run equal r res_t;
      run constrain res (CSum (CVar lhs) (CVar rhs));
      run constrain lhs (CSum (CVar res) (CSub (CVar rhs)));
      run constrain rhs (CSum (CVar res) (CSub (CVar lhs)));
      add_requirement (RShared [lhs_t; rhs_t; res_t])
  | SpTrunc =>
      do a <- of_option (nth_error gl 0); do r <- of_option (nth_error gl 1);
      do (in_t, _) <- new_number;
      do (res_t, _) <- new_number;
      run equal a in_t;
      run equal r res_t;
      add_requirement (RShared [in_t; res_t])
  | SpDivMod =>
      do a <- of_option (nth_error gl 0);
      do (t, _) <- new_number;
      equal a t
  end.

(** ** Expressions *)

Section Body.
(** of the unit *)
Variable metas : list meta.
Variable gl : glist.

(** lib.rs:1153-1222 [type_check_argument_list] *)
Definition check_args (cl : glist) (ps : list tspec) (args : list hx) : T unit :=
  each2 (fun p a =>
      do t <- spec_var cl p;
      do v <- type_of (KId (hid a));
      equal v t) ps args.
Fixpoint pairwise (l : list hx) : T unit :=
  match l with
  | x :: ((y :: _) as r) =>
      do a <- type_of (KId (hid y)); do b <- type_of (KId (hid x)); run equal a b; pairwise r
  | _ => tret tt
  end.

(** lib.rs:1225-1388 [visit_expression], expression.rs; lib.rs:2364-2552
    [visit_statement], 2554-2672 [visit_register] *)
Fixpoint visit (e : hx) : T unit :=
  let '(HX id k) := e in
  do self <- new_generic MType;
  run add_equation (KId id) self;
  let ty e := type_of (KId (hid e)) in
  match k with
  | HName x => do t <- type_of (KName x); equal self t
  | HInt z l =>
      do t <- match l with
              | LUnsized => do (t, _) <- new_number; tret t
              | LSigned size => do (t, n) <- new_sized int_ MInt;
                                run onto (fun z => do s <- new_int z; equal n s) size; tret t
              | LUnsigned size => do (t, n) <- new_sized uint_ MUint;
                                  run onto (fun z => do s <- new_int z; equal n s) size; tret t
              end;
      run equal t self;
      check_or_add (RFits (LitZ z) t)
  | HBool _ => do t <- t_bool; equal self t
  | HTypeInt k =>
      do (t, _) <- new_number;
      run equal t self;
      do v <- of_option (nth_error gl k);
      check_or_add (RFits (LitVar v) t)
  | HTypeBool => do t <- t_bool; equal t self
  | HTuple l =>
      run each visit l;
      do ts <- collect ty l;
      do t <- new_var (Known BTuple ts);
      equal self t
  | HTupleIndex a i =>
      run visit a;
      do t <- ty a;
      do x <- resolved t;
      match x with
      | Known BTuple ts => do u <- of_option (nth_error ts i); equal self u
      | _ => tfail
      end
  | HField a f =>
      run visit a;
      do t <- ty a;
      check_or_add (RField t f self)
  | HCast a s =>
      run visit a;
      do t <- spec_var gl s;
      do v <- ty a;
      run equal v t;
      equal self t
  | HArray l =>
      run each visit l;
      run pairwise l;
      do inner <- match l with [] => new_generic MType | a :: _ => ty a end;
      do n <- new_int (Z.of_nat (length l));
      do t <- new_var (Known BArray [inner; n]);
      equal self t
  | HRepeat a c =>
      run visit a;
      do inner <- ty a;
      do size <- const_var metas gl c;
      do u <- new_generic MUint;
      run equal size u;
      do t <- new_var (Known BArray [inner; size]);
      equal self t
  | HIndex a i =>
      run visit a;
      run visit i;
      do inner <- new_generic MType;
      run equal self inner;
      do size <- new_generic MUint;
      do (int_t, int_size) <- new_sized uint_ MUint;
      run constrain int_size (CUintBits (CDifference (CVar size) (CInt 1)));
      do ti <- ty i;
      run equal ti int_t;
      do arr <- new_var (Known BArray [self; size]);
      run check_or_add (RNonZero size);
      do ta <- ty a;
      equal ta arr
  | HRange a from upto =>
      run visit a;
      do inner <- new_generic MType;
      do in_size <- new_generic MUint;
      do in_t <- new_var (Known BArray [inner; in_size]);
      do out_size <- new_generic MUint;
      do out_t <- new_var (Known BArray [inner; out_size]);
      do s <- match from with Some c => const_var metas gl c | None => new_int 0 end;
      do e <- match upto with Some c => const_var metas gl c | None => tret in_size end;
      run constrain out_size (CDifference (CVar e) (CVar s));
      run check_or_add (REndAfterStart s e);
      run check_or_add (RInArray e in_size);
      run equal self out_t;
      do ta <- ty a;
      equal ta in_t
  | HBlock ss r =>
      run each visit_stm ss;
      match r with
      | Some r => run visit r; do t <- ty r; equal self t
      | None => do t <- new_var (Known BTuple []); equal self t
      end
  | HIf c a b =>
      run visit c; run visit a; run visit b;
      do tc <- ty c; do bool <- t_bool;
      run equal tc bool;
      do ta <- ty a; do tb <- ty b;
      run equal tb ta;
      equal self tb
  | HGenIf c a b =>
      do v <- const_var metas gl c;
      do bool <- new_generic MBool;
      run equal v bool;
      run visit a; run visit b;
      do ta <- ty a; do tb <- ty b;
      run equal self ta;
      equal self tb
  | HMatch a arms =>
      run visit a;
      do ta <- ty a;
      match arms with
      | [] => tfail
      | (_, _, first) :: _ =>
          run each_after (fun (i : bool) (arm : hpat * option hx * hx) =>
              let '(p, g, e) := arm in
              run visit_pattern p;
              do tp <- type_of (KId (pid p));
              run equal tp ta;
              run match g with
                  | Some g => run visit g; do tg <- ty g; do bool <- t_bool; equal tg bool
                  | None => tret tt
                  end;
              run visit e;
              if i then do t0 <- ty first; do te <- ty e; equal t0 te else tret tt) false arms;
          do t0 <- ty first;
          equal t0 self
      end
  | HBin op a b =>
      run visit a; run visit b;
      do ta <- ty a; do tb <- ty b;
      binary op self ta tb
  | HUn op a =>
      run visit a;
      do ta <- ty a;
      unary op self ta
  | HRef a =>
      run visit a;
      do inner <- new_generic MType;
      do view <- new_var (Known BCopyView [inner]);
      run equal self view;
      do ta <- ty a;
      equal ta inner
  | HCall f tf args =>
      do h <- of_option (heads f);
      do cl <- generic_list gl tf (hd_metas h) (hd_where h) (hd_bounds h);
      run each visit args;
      run special_rule (hd_special h) cl;
      run check_args cl (hd_params h) args;
      do ret <- match hd_ret h with Some t => spec_var cl t | None => new_var (Known BTuple []) end;
      equal self ret
  end
with visit_stm (s : hstm) : T unit :=
  let ty e := type_of (KId (hid e)) in
  match s with
  | HLet p spec e =>
      run visit e;
      run visit_pattern p;
      do tp <- type_of (KId (pid p));
      do te <- ty e;
      run equal tp te;
      onto (fun s => do t <- spec_var gl s; equal tp t) spec
  | HExpr e => visit e
  | HReg p spec clock value reset initial =>
      run visit_pattern p;
      do tp <- type_of (KId (pid p));
      do tv <- match spec with
               | Some s => do t <- spec_var gl s; run equal tp t; tret (Some t)
               | None => tret None
               end;
      run visit clock;
      run visit value;
      do t <- ty value;
      run onto (equal t) tv;
      run match reset with
          | Some (cond, v) =>
              run visit cond; run visit v;
              do tc <- ty cond; do bool <- t_bool;
              run equal tc bool;
              do tr <- ty v;
              equal tr t
          | None => tret tt
          end;
      run match initial with
          | Some v => run visit v; do tr <- ty v; equal tr t
          | None => tret tt
          end;
      do tc <- ty clock; do c <- t_clock;
      run equal tc c;
      equal tp t
  | HDecl l => each (fun x => do t <- new_generic MType; add_equation (KName x) t) l
  | HAssert e =>
      run visit e;
      do t <- ty e; do bool <- t_bool;
      equal t bool
  | HSet target value =>
      run visit target;
      run visit value;
      do inner <- new_generic MType;
      do outer <- new_var (Known BInverted [inner]);
      do tt_ <- ty target;
      run equal tt_ outer;
      do tv <- ty value;
      equal tv inner
  end.
End Body.

(** lib.rs:687-830 [visit_unit]; index 0 is the error type *)
Definition start : tst := mkT (mkState [Known BError []] [[]] [] []) [] [].
Definition visit_unit (u : hunit) : T glist :=
  do gl <- generic_list [] None (hu_metas u) (hu_where u) [];
  run each (fun i => do t <- spec_var gl (snd i); add_equation (KName (fst i)) t) (hu_inputs u);
  run visit (hu_metas u) gl (hu_body u);
  do out <- match hu_output u with Some t => spec_var gl t | None => new_var (Known BTuple []) end;
  do body <- type_of (KId (hid (hu_body u)));
  run equal body out;
  run check_requirements;
  tret gl.
(** The unit is accepted: the type parameters and the types in the end *)
Definition typecheck (u : hunit) : option (glist * tst) := visit_unit u start.
End Check.
