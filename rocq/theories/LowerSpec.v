(** What the lowered code is supposed to compute. *)
From Coq Require Import List ZArith Bool Arith.
From Verif Require Import Bits Verilog CodegenModel CodegenSpec PatModel PatSpec LowerModel.
Import ListNotations.
Local Open Scope list_scope.

(** The value driven on a signal by a statement, given the types and the values
    of the other signals (codegen/mod.rs:100-177 and 928-1112). *)
Definition const_value (t : ty) (c : const) : bits :=
  match c with
  | KBool b => assign_val (fun _ => []) (size t) (VDec (if b then 1 else 0))
  | KInt z => match const_int_value (size t) z with Some v => v | None => [] end
  end.

(** All signals have settled: every statement's equation holds. [types] gives the
    declared type of each signal. *)
Definition settled (types : mname -> ty) (rho : mname -> bits) (s : stmt) : Prop :=
  match s with
  | SBind x (Op op) args t =>
      types x = t /\ op_value t (map types args) op (map rho args) = Some (rho x)
  | SBind x Alias args t =>
      types x = t /\ match args with [a] => rho x = rho a | _ => False end
  | SConst x t c => types x = t /\ rho x = const_value t c
  end.

(** [encodes t v w]: [w] is the hardware value of [v] at type [t], as built by
    Spade's own constructors from hardware values of the parts. *)
Inductive encodes : cty -> val -> bits -> Prop :=
| E_tuple ts vs ws w : Forall3 ts vs ws ->
    op_value (TTuple (map to_mir_type ts)) (map to_mir_type ts) ConstructTuple ws = Some w ->
    encodes (CTuple ts) (VNode vs) w
| E_struct ts vs ws w : Forall3 ts vs ws ->
    op_value (to_mir_type (CStruct ts)) (map to_mir_type ts) ConstructTuple ws = Some w ->
    encodes (CStruct ts) (VNode vs) w
| E_array t n vs ws w : Forall3 (repeat t n) vs ws ->
    op_value (TArray (to_mir_type t) n) (repeat (to_mir_type t) n) ConstructArray ws = Some w ->
    encodes (CArray t n) (VNode vs) w
| E_enum os i ts vs ws w : nth_error os i = Some ts -> Forall3 ts vs ws ->
    op_value (to_mir_type (CEnum os)) (map to_mir_type ts) (ConstructEnum i) ws = Some w ->
    encodes (CEnum os) (VVariant i vs) w
| E_int n z w : represents (TInt n) w z -> encodes (CInt n) (VInt z) w
| E_uint n z w : represents (TUInt n) w z -> encodes (CUint n) (VInt z) w
| E_bool b w : is_bool w b -> encodes CBool (VBool b) w
| E_backward t : encodes (CBackward t) (VNode []) []
with Forall3 : list cty -> list val -> list bits -> Prop :=
| F3_nil : Forall3 [] [] []
| F3_cons t ts v vs w ws : encodes t v w -> Forall3 ts vs ws ->
    Forall3 (t :: ts) (v :: vs) (w :: ws).

(** Forgetting ids and types. *)
Fixpoint erase (p : lpat) : hpat :=
  let '(LPat _ _ k) := p in
  match k with
  | KInteger z => PInt z
  | KBoolean b => PBool b
  | KBound x None => PBound x None
  | KBound x (Some q) => PBound x (Some (erase q))
  | KTuple l => PTuple (map erase l)
  | KArray l => PArray (map erase l)
  | KStruct l => PStruct (map erase l)
  | KVariant i l => PVariant i (map erase l)
  end.

(** The annotated types are the ones type inference computes. *)
Inductive lpat_type : cty -> lpat -> Prop :=
| LT_int id t z : has_type t (VInt z) -> lpat_type t (LPat id t (KInteger z))
| LT_bool id b : lpat_type CBool (LPat id CBool (KBoolean b))
| LT_name id t x : lpat_type t (LPat id t (KBound x None))
| LT_at id t x q : lpat_type t q -> lpat_type t (LPat id t (KBound x (Some q)))
| LT_tuple id ts l : Forall2 lpat_type ts l -> lpat_type (CTuple ts) (LPat id (CTuple ts) (KTuple l))
| LT_struct id ts l : Forall2 lpat_type ts l -> lpat_type (CStruct ts) (LPat id (CStruct ts) (KStruct l))
| LT_array id t n l : length l = n -> Forall (lpat_type t) l -> lpat_type (CArray t n) (LPat id (CArray t n) (KArray l))
| LT_variant id os i ts l : nth_error os i = Some ts -> Forall2 lpat_type ts l ->
    lpat_type (CEnum os) (LPat id (CEnum os) (KVariant i l)).

(** [binds p v x t u]: when [p] is matched against [v], the name [x] stands for
    the part [u] of type [t]. *)
Inductive binds : lpat -> val -> nat -> cty -> val -> Prop :=
| B_name id t x i v : binds (LPat id t (KBound x i)) v x t v
| B_at id t x q v y s u : binds q v y s u -> binds (LPat id t (KBound x (Some q))) v y s u
| B_tuple id t l vs i q v x s u : nth_error l i = Some q -> nth_error vs i = Some v ->
    binds q v x s u -> binds (LPat id t (KTuple l)) (VNode vs) x s u
| B_array id t l vs i q v x s u : nth_error l i = Some q -> nth_error vs i = Some v ->
    binds q v x s u -> binds (LPat id t (KArray l)) (VNode vs) x s u
| B_struct id t l vs i q v x s u : nth_error l i = Some q -> nth_error vs i = Some v ->
    binds q v x s u -> binds (LPat id t (KStruct l)) (VNode vs) x s u
| B_variant id t k l vs i q v x s u : nth_error l i = Some q -> nth_error vs i = Some v ->
    binds q v x s u -> binds (LPat id t (KVariant k l)) (VVariant k vs) x s u.

(** The types for which C02 and C03 hold: arrays of at most 2^32 bits, and no
    one-variant enum in which a one-bit member is followed by wider ones. *)
Inductive readable : cty -> Prop :=
| R_tuple ts : Forall readable ts -> readable (CTuple ts)
| R_struct ts : Forall readable ts -> readable (CStruct ts)
| R_array t n : readable t -> (Z.of_nat (size (to_mir_type (CArray t n))) <= 2 ^ 32)%Z -> readable (CArray t n)
| R_enum os : Forall (Forall readable) os ->
    (length os = 1 -> forall ts i, nth_error os 0 = Some ts -> option_map (fun t => size (to_mir_type t)) (nth_error ts i) = Some 1 ->
       list_sum (map (fun t => size (to_mir_type t)) (skipn (S i) ts)) = 0) -> readable (CEnum os)
| R_int n : readable (CInt n)
| R_uint n : readable (CUint n)
| R_bool : readable CBool
| R_backward t : readable (CBackward t).
