(** Concrete types and their lowering.
    Source: spade-types/src/lib.rs, spade-hir-lowering/src/lib.rs. *)
From Coq Require Import List Arith String.
From Verif Require Import CodegenModel.
Import ListNotations.
Local Open Scope list_scope.

(** spade-types/src/lib.rs:38-62 [ConcreteType].  The primitive types with their
    parameters are separate constructors; [bool], [clock] and [tri] are one.  Type
    level integers, bools and strings, which are not types of values, are left out,
    as are the name and the field translators of a struct. *)
Inductive cty :=
| CError
| CTuple (l : list cty)
| CStruct (l : list (string * cty))
| CArray (inner : cty) (len : nat)
| CEnum (l : list (string * list (string * cty)))
| CBool
| CInt (n : nat)
| CUInt (n : nat)
| CMemory (inner : cty) (len : nat)
| CInOut (inner : cty)
| CBackward (inner : cty)
| CCopyView (inner : cty).

(** spade-hir-lowering/src/lib.rs:231-318 [ConcreteType::to_mir_type] *)
Fixpoint to_mir_type (t : cty) : ty :=
  match t with
  | CError => TUInt 1
  | CTuple l => TTuple (map to_mir_type l)
  | CStruct l => TStruct (map (fun p => (fst p, to_mir_type (snd p))) l)
  | CArray inner len => TArray (to_mir_type inner) len
  | CEnum l => TEnum (map (fun o => map (fun p => to_mir_type (snd p)) (snd o)) l)
  | CBool => TBool
  | CInt n => TInt n
  | CUInt n => TUInt n
  | CMemory inner len => TMemory (to_mir_type inner) len
  | CInOut inner => TInOut (to_mir_type inner)
  | CBackward inner => TBackward (to_mir_type inner)
  | CCopyView inner => TCopyView (to_mir_type inner)
  end.

Section Ind.
Variable P : cty -> Prop.
Hypothesis H_error : P CError.
Hypothesis H_tuple : forall l, Forall P l -> P (CTuple l).
Hypothesis H_struct : forall l, Forall (fun p => P (snd p)) l -> P (CStruct l).
Hypothesis H_array : forall t n, P t -> P (CArray t n).
Hypothesis H_enum : forall l, Forall (fun o => Forall (fun p => P (snd p)) (snd o)) l -> P (CEnum l).
Hypothesis H_bool : P CBool.
Hypothesis H_int : forall n, P (CInt n).
Hypothesis H_uint : forall n, P (CUInt n).
Hypothesis H_memory : forall t n, P t -> P (CMemory t n).
Hypothesis H_inout : forall t, P t -> P (CInOut t).
Hypothesis H_backward : forall t, P t -> P (CBackward t).
Hypothesis H_view : forall t, P t -> P (CCopyView t).
Fixpoint cty_rect' (t : cty) : P t :=
  match t with
  | CError => H_error
  | CTuple l => H_tuple l ((fix go l := match l return Forall P l with
                            | [] => Forall_nil _ | x :: r => Forall_cons _ (cty_rect' x) (go r) end) l)
  | CStruct l => H_struct l ((fix go l := match l return Forall (fun p => P (snd p)) l with
                            | [] => Forall_nil _ | x :: r => Forall_cons _ (cty_rect' (snd x)) (go r) end) l)
  | CArray t n => H_array t n (cty_rect' t)
  | CEnum l => H_enum l ((fix go l := match l return Forall (fun o => Forall (fun p => P (snd p)) (snd o)) l with
        | [] => Forall_nil _
        | o :: r => Forall_cons _
            ((fix in_ m := match m return Forall (fun p => P (snd p)) m with
               | [] => Forall_nil _ | x :: r => Forall_cons _ (cty_rect' (snd x)) (in_ r) end) (snd o)) (go r)
        end) l)
  | CBool => H_bool
  | CInt n => H_int n
  | CUInt n => H_uint n
  | CMemory t n => H_memory t n (cty_rect' t)
  | CInOut t => H_inout t (cty_rect' t)
  | CBackward t => H_backward t (cty_rect' t)
  | CCopyView t => H_view t (cty_rect' t)
  end.
End Ind.
