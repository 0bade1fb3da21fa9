(** Model of the lowering of patterns and [match] to MIR.
    Source: spade-hir-lowering/src/lib.rs.

    Simplifications: source locations are left out; fresh expression ids come
    from a counter that is threaded through (the [ExprIdTracker]); the arguments
    of a struct pattern are in parameter order, as spade-ast-lowering leaves them
    (src/lib.rs:1837), so [arg_index] is the position. *)
From Coq Require Import List ZArith Bool Arith String.
From Verif Require Import Bits Verilog CodegenModel PatModel.
Import ListNotations.
Local Open Scope list_scope.

(** spade-mir/src/lib.rs [ValueName] *)
Inductive mname := NName (n : nat) | NExpr (n : nat).

(** spade-hir-lowering/src/lib.rs:231-330 [to_mir_type]; primitive types without
    constructors are left to [TBool] (Clock, Tri), names of fields to [""]. *)
Fixpoint to_mir_type (t : cty) : ty :=
  match t with
  | CError => TUInt 1
  | CTuple l => TTuple (map to_mir_type l)
  | CStruct l => TStruct (map (fun t => (EmptyString, to_mir_type t)) l)
  | CArray inner n => TArray (to_mir_type inner) n
  | CEnum os => TEnum (map (map to_mir_type) os)
  | CInt n => TInt n
  | CUint n => TUInt n
  | CBool | CNoCtor => TBool
  | CBackward i => TBackward (to_mir_type i)
  | CCopyView i => TCopyView (to_mir_type i)
  end.

(** spade-mir/src/lib.rs [Statement], the two forms used here. *)
Inductive const := KInt (z : Z) | KBool (b : bool).
Inductive mop := Alias | Op (op : operator).
Inductive stmt :=
| SBind (name : mname) (op : mop) (operands : list mname) (t : ty)
| SConst (name : mname) (t : ty) (c : const).

(** spade-hir [Loc<Pattern>] with the pattern's id; the type is the one
    [concrete_type_of] answers for that id. *)
Inductive lpat := LPat (id : nat) (t : cty) (k : lkind)
with lkind :=
| KInteger (z : Z)
| KBoolean (b : bool)
| KBound (name : nat) (inner : option lpat)
| KTuple (l : list lpat)
| KArray (l : list lpat)
| KStruct (l : list lpat)
| KVariant (variant : nat) (l : list lpat).
Definition lty (p : lpat) : cty := let '(LPat _ t _) := p in t.
Definition lkind_of (p : lpat) : lkind := let '(LPat _ _ k) := p in k.

(** lib.rs:846-866 [value_name] *)
Definition value_name (p : lpat) : mname :=
  match p with
  | LPat _ _ (KBound n _) => NName n
  | LPat id _ _ => NExpr id
  end.

(** State: the next fresh expression id. *)
Definition gen (A : Type) := nat -> A * nat.

(** lib.rs:389-557 [lower_no_initial_binding] *)
Fixpoint lower_inner (p : lpat) (self_name : mname) (n : nat) : list stmt * nat :=
  let '(LPat _ _ k) := p in
  match k with
  | KInteger _ | KBoolean _ | KBound _ None => ([], n)
  | KBound _ (Some q) =>
      let '(rest, n) := lower_inner q (value_name q) n in
      (SBind (value_name q) Alias [self_name] (to_mir_type (lty q)) :: rest, n)
  | KTuple l | KStruct l =>
      (fix go (i : nat) (l : list lpat) (n : nat) : list stmt * nat :=
         match l with
         | [] => ([], n)
         | q :: r =>
             let '(a, n) := lower_inner q (value_name q) n in
             let '(b, n) := go (S i) r n in
             (SBind (value_name q) (Op (IndexTuple i)) [self_name] (to_mir_type (lty q)) :: a ++ b, n)
         end) 0 l n
  | KArray l =>
      let index_ty := TInt (Nat.log2 (List.length l) + 1) in
      (fix go (i : nat) (l : list lpat) (n : nat) : list stmt * nat :=
         match l with
         | [] => ([], n)
         | q :: r =>
             let idx := NExpr n in
             let '(a, n') := lower_inner q (value_name q) (S n) in
             let '(b, n'') := go (S i) r n' in
             (SConst idx index_ty (KInt (Z.of_nat i))
                :: SBind (value_name q) (Op IndexArray) [self_name; idx] (to_mir_type (lty q))
                :: a ++ b, n'')
         end) 0 l n
  | KVariant v l =>
      (fix go (i : nat) (l : list lpat) (n : nat) : list stmt * nat :=
         match l with
         | [] => ([], n)
         | q :: r =>
             let '(a, n) := lower_inner q (value_name q) n in
             let '(b, n) := go (S i) r n in
             (SBind (value_name q) (Op (EnumMember v i)) [self_name] (to_mir_type (lty q)) :: a ++ b, n)
         end) 0 l n
  end.

(** lib.rs:559-588 [lower] *)
Definition lower (p : lpat) (self_name : mname) (self_ty : ty) (n : nat) : list stmt * nat :=
  let '(rest, n) := lower_inner p self_name n in
  (SBind (value_name p) Alias [self_name] self_ty :: rest, n).

(** lib.rs:368-384: the chain of [LogicalAnd]s in [all_conditions] *)
Fixpoint and_chain (acc : mname) (ops : list mname) (n : nat) : list stmt * mname * nat :=
  match ops with
  | [] => ([], acc, n)
  | op :: r =>
      let new := NExpr n in
      let '(s, res, n') := and_chain new r (S n) in
      (SBind new (Op LogicalAnd) [acc; op] TBool :: s, res, n')
  end.
(** lib.rs:346-385 [all_conditions] *)
Definition all_conditions (ops : list mname) (n : nat) : list stmt * mname * nat :=
  match ops with
  | [] => ([SConst (NExpr n) TBool (KBool true)], NExpr n, S n)
  | op :: r => and_chain op r n
  end.

Definition opt_list {A} (o : option A) : list A := match o with Some a => [a] | None => [] end.

(** lib.rs:590-842 [condition]: statements, the name of the condition, next id *)
Fixpoint condition (p : lpat) (value : mname) (if_cond : option mname) (n : nat)
  : list stmt * mname * nat :=
  let '(LPat _ t k) := p in
  let result := NExpr n in
  let n := S n in
  match k with
  | KInteger v =>
      let c := NExpr n in
      let n := S n in
      match if_cond with
      | Some g =>
          let mid := NExpr n in
          ([SConst c (to_mir_type t) (KInt v);
            SBind mid (Op Eq) [value; c] TBool;
            SBind result (Op LogicalAnd) [mid; g] TBool], result, S n)
      | None =>
          ([SConst c (to_mir_type t) (KInt v);
            SBind result (Op Eq) [value; c] TBool], result, n)
      end
  | KBoolean true =>
      match if_cond with
      | Some g => ([SBind result (Op LogicalAnd) [value; g] TBool], result, n)
      | None => ([], value, n)
      end
  | KBoolean false =>
      match if_cond with
      | Some g =>
          let neg := NExpr n in
          ([SBind neg (Op LogicalNot) [value] TBool;
            SBind result (Op LogicalAnd) [neg; g] TBool], result, S n)
      | None => ([SBind result (Op LogicalNot) [value] TBool], result, n)
      end
  | KBound _ (Some q) =>
      let '(s, r, n) := condition q (value_name q) if_cond n in
      (s ++ [SBind result Alias [r] TBool], r, n)
  | KBound _ None =>
      match if_cond with
      | Some g => ([SBind result Alias [g] TBool], result, n)
      | None => ([SConst result TBool (KBool true)], result, n)
      end
  | KTuple l | KArray l =>
      let '(s, rs, n) :=
        (fix go (l : list lpat) (n : nat) : list stmt * list mname * nat :=
           match l with
           | [] => ([], [], n)
           | q :: r =>
               let '(s1, r1, n) := condition q (value_name q) None n in
               let '(s2, r2, n) := go r n in
               (s1 ++ s2, r1 :: r2, n)
           end) l n in
      let '(s', res, n) := all_conditions (rs ++ opt_list if_cond) n in
      (s ++ s', res, n)
  | KStruct l | KVariant _ l =>
      let self := NExpr n in
      let n := S n in
      let self_condition :=
        match k with
        | KVariant v _ => SBind self (Op (IsEnumVariant v)) [value] TBool
        | _ => SConst self TBool (KBool true)
        end in
      let '(s, rs, n) :=
        (fix go (l : list lpat) (n : nat) : list stmt * list mname * nat :=
           match l with
           | [] => ([], [], n)
           | q :: r =>
               let '(s1, r1, n) := condition q (value_name q) None n in
               let '(s2, r2, n) := go r n in
               (s1 ++ s2, r1 :: r2, n)
           end) l n in
      let '(s', res, n) := all_conditions (self :: rs ++ opt_list if_cond) n in
      (self_condition :: s ++ s', res, n)
  end.

(** One arm after lowering its guard and body: pattern, variable of the guard,
    variable of the result. *)
Record larm := Arm { apat : lpat; aguard : option mname; abody : mname }.

(** lib.rs:1893-1935: the pattern part of lowering [match operand { arms }] into
    the name [self]; the statements of the guards and bodies themselves are
    produced elsewhere. *)
Fixpoint match_arms (operand : mname) (arms : list larm) (n : nat) : list stmt * list mname * nat :=
  match arms with
  | [] => ([], [], n)
  | a :: r =>
      let '(s1, n) := lower (apat a) operand (to_mir_type (lty (apat a))) n in
      let '(s2, c, n) := condition (apat a) operand (aguard a) n in
      let '(s3, ops, n) := match_arms operand r n in
      (s1 ++ s2 ++ s3, c :: abody a :: ops, n)
  end.
Definition lower_match (self operand : mname) (t : cty) (arms : list larm) (n : nat) : list stmt :=
  let '(s, ops, _) := match_arms operand arms n in
  s ++ [SBind self (Op Match) ops (to_mir_type t)].
