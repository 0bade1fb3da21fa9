(** What the checks and rewrites of PassModel are for, stated without visiting anything. *)
From Coq Require Import List ZArith Bool Relations.
Import ListNotations.
From Verif Require Import PassModel.

(** [a] is an expression written directly in statement [s], or directly in expression [e] *)
Inductive in_stmt : stmt -> expr -> Prop :=
| is_bind q v : in_stmt (SBind q v) v
| is_expr e : in_stmt (SExpr e) e
| is_assert e : in_stmt (SAssert e) e
| is_target t v : in_stmt (SSet t v) t
| is_value t v : in_stmt (SSet t v) v
| is_clock q c r i v : in_stmt (SReg q c r i v) c
| is_trigger q c t w i v : in_stmt (SReg q c (Some (t, w)) i v) t
| is_reset q c t w i v : in_stmt (SReg q c (Some (t, w)) i v) w
| is_initial q c r i v : in_stmt (SReg q c r (Some i) v) i
| is_next q c r i v : in_stmt (SReg q c r i v) v
| is_condition e : in_stmt (SMark (Some (Condition e))) e.
Inductive operand : expr -> expr -> Prop :=
| o_node i n l a : In a l -> operand (Ex i (KNode n l)) a
| o_left i op a b : operand (Ex i (KBin op a b)) a
| o_right i op a b : operand (Ex i (KBin op a b)) b
| o_un i op a : operand (Ex i (KUn op a)) a
| o_scrutinee i c l : operand (Ex i (KMatch c l)) c
| o_guard i c l q g v : In (Br q (Some g) v) l -> operand (Ex i (KMatch c l)) g
| o_arm i c l q g v : In (Br q g v) l -> operand (Ex i (KMatch c l)) v
| o_stmt i l r s a : In s l -> in_stmt s a -> operand (Ex i (KBlock l r)) a
| o_result i l r : operand (Ex i (KBlock l (Some r))) r
| o_cond i c t f : operand (Ex i (KIf c t f)) c
| o_then i c t f : operand (Ex i (KIf c t f)) t
| o_else i c t f : operand (Ex i (KIf c t f)) f
| o_gthen i t f : operand (Ex i (KTlIf t f)) t
| o_gelse i t f : operand (Ex i (KTlIf t f)) f.
(** [a] is [e] or occurs in it at any depth *)
Inductive inside : expr -> expr -> Prop :=
| in_self e : inside e e
| in_step e a b : operand e a -> inside a b -> inside e b.
(** Statement [s] occurs in [e], at any depth *)
Definition stmt_inside (e : expr) (s : stmt) : Prop := exists i l r, inside e (Ex i (KBlock l r)) /\ In s l.

(** ** Registers *)
Section Unrolled.
(** How many stages a count stands for *)
Variable count : nat -> nat.
(** How many stages a statement moves what follows it on by *)
Definition advance (s : stmt) : nat :=
  match s with SMark (Some (Count c)) => count c | SMark _ => 1 | _ => 0 end.
(** Markers that are nothing but registers *)
Definition bare (s : stmt) : bool := match s with SMark (Some (Count _)) | SMark None => true | _ => false end.
(** Everything in a block that is not a bare marker, with the stage it is in *)
Fixpoint timeline (l : list stmt) (stage : nat) : list (nat * stmt) :=
  match l with
  | [] => []
  | s :: l => if bare s then timeline l (stage + advance s) else (stage, s) :: timeline l (stage + advance s)
  end.
(** The number of stages of a block *)
Definition stages (l : list stmt) : nat := list_sum (map advance l).

(** The second is the first except for the way registers are written: in every block the same
    things are in the same stages *)
Inductive unrolled : expr -> expr -> Prop :=
| u_leaf i n : unrolled (Ex i (KLeaf n)) (Ex i (KLeaf n))
| u_node i n l l' : Forall2 unrolled l l' -> unrolled (Ex i (KNode n l)) (Ex i (KNode n l'))
| u_bin i op a b a' b' : unrolled a a' -> unrolled b b' -> unrolled (Ex i (KBin op a b)) (Ex i (KBin op a' b'))
| u_un i op a a' : unrolled a a' -> unrolled (Ex i (KUn op a)) (Ex i (KUn op a'))
| u_match i c c' l l' : unrolled c c' -> Forall2 unrolled_branch l l' -> unrolled (Ex i (KMatch c l)) (Ex i (KMatch c' l'))
| u_block i l l' r r' :
    Forall2 placed (timeline l 0) (timeline l' 0) -> stages l = stages l' -> unrolled_opt r r' ->
    unrolled (Ex i (KBlock l r)) (Ex i (KBlock l' r'))
| u_if i c t f c' t' f' : unrolled c c' -> unrolled t t' -> unrolled f f' -> unrolled (Ex i (KIf c t f)) (Ex i (KIf c' t' f'))
| u_tlif i t f t' f' : unrolled t t' -> unrolled f f' -> unrolled (Ex i (KTlIf t f)) (Ex i (KTlIf t' f'))
with unrolled_opt : option expr -> option expr -> Prop :=
| u_none : unrolled_opt None None
| u_some a a' : unrolled a a' -> unrolled_opt (Some a) (Some a')
with unrolled_branch : branch -> branch -> Prop :=
| u_branch q g g' v v' : unrolled_opt g g' -> unrolled v v' -> unrolled_branch (Br q g v) (Br q g' v')
with placed : nat * stmt -> nat * stmt -> Prop :=
| u_placed n s s' : unrolled_stmt s s' -> placed (n, s) (n, s')
with unrolled_stmt : stmt -> stmt -> Prop :=
| u_error : unrolled_stmt SError SError
| u_decl l : unrolled_stmt (SDecl l) (SDecl l)
| u_label n : unrolled_stmt (SLabel n) (SLabel n)
| u_bind q v v' : unrolled v v' -> unrolled_stmt (SBind q v) (SBind q v')
| u_expr e e' : unrolled e e' -> unrolled_stmt (SExpr e) (SExpr e')
| u_assert e e' : unrolled e e' -> unrolled_stmt (SAssert e) (SAssert e')
| u_set t v t' v' : unrolled t t' -> unrolled v v' -> unrolled_stmt (SSet t v) (SSet t' v')
| u_reg q c r i v c' r' i' v' :
    unrolled c c' -> unrolled_opt (option_map fst r) (option_map fst r') -> unrolled_opt (option_map snd r) (option_map snd r') ->
    unrolled_opt i i' -> unrolled v v' ->
    unrolled_stmt (SReg q c r i v) (SReg q c' r' i' v')
| u_condition e e' : unrolled e e' -> unrolled_stmt (SMark (Some (Condition e))) (SMark (Some (Condition e'))).
End Unrolled.

Section Types.
Variable type_of : nat -> option ty.
(** The number a count stands for *)
Definition count_of (c : nat) : nat := match type_of c with Some (TInt z) => Z.to_nat z | _ => 0 end.
(** A count that can be written out: it is known, a number, and not beyond what the host counts *)
Definition countable (c : nat) : Prop := exists z, type_of c = Some (TInt z) /\ (0 <= z < 2 ^ 64)%Z.
(** The report [x] gives the true reason why count [c] cannot be written out *)
Definition count_fault (c : nat) (x : error) : Prop :=
  (x = UnknownCount c /\ type_of c = None) \/
  (x = CountNotInteger c /\ exists t, type_of c = Some t /\ forall z, t <> TInt z) \/
  (x = CountTooLarge c /\ exists z, type_of c = Some (TInt z) /\ ~ (0 <= z < 2 ^ 64)%Z).

(** ** Wires that go both ways *)
Definition inout (x : nat) : Prop := exists s, type_of x = Some (TInOut s).
(** A type that is or holds [inout] *)
Inductive holds_inout : ty -> Prop :=
| h_inout s : holds_inout (TInOut s)
| h_tuple l t : In t l -> holds_inout t -> holds_inout (TTuple l).
(** The pattern of a [let] or [reg] in [e] *)
Definition bound_in (e : expr) (q : nat) : Prop :=
  (exists v, stmt_inside e (SBind q v)) \/ (exists c r i v, stmt_inside e (SReg q c r i v)).

(** ** Values without bits *)
(** [a] is an operand of an operator that computes with its bits *)
Inductive computed_with (e : expr) : expr -> Prop :=
| c_left i op a b : inside e (Ex i (KBin op a b)) -> computed_with e a
| c_right i op a b : inside e (Ex i (KBin op a b)) -> computed_with e b
| c_un i op a : inside e (Ex i (KUn op a)) -> op = Sub \/ op = Not \/ op = BitwiseNot -> computed_with e a.
(** [v] is what arm number [n] of a [match] gives *)
Definition arm_in (e : expr) (n : nat) (v : expr) : Prop :=
  exists i c l q g, inside e (Ex i (KMatch c l)) /\ nth_error l n = Some (Br q g v).
(** How many bits a value has: those of its members together; a number of the type level has none *)
Inductive bits : ty -> N -> Prop :=
| bits_other n : bits (TOther n) n
| bits_inout n : bits (TInOut n) n
| bits_unit : bits (TTuple []) 0%N
| bits_member t l m n : bits t m -> bits (TTuple l) n -> bits (TTuple (t :: l)) (m + n)%N.
Definition sized (e : expr) : Prop := exists t n, type_of (id_of e) = Some t /\ size t = Some n /\ n <> 0%N.
(** The report [x] gives the true reason why [e] is not sized; [zero] is the report for size zero *)
Definition size_fault (e : nat) (zero x : error) : Prop :=
  (x = UnknownType e /\ type_of e = None) \/ (x = NoHardware e /\ exists t, type_of e = Some t /\ size t = None) \/
  (x = zero /\ exists t, type_of e = Some t /\ size t = Some 0%N).
(** All arms of a [match] have one type, which the type checker sees to *)
Definition arms_agree (e : expr) : Prop :=
  forall i c l q g v q' g' v', inside e (Ex i (KMatch c l)) -> In (Br q g v) l -> In (Br q' g' v') l ->
  type_of (id_of v) = type_of (id_of v').
(** No [gen if] is left *)
Definition no_gen_if (e : expr) : Prop := forall i t f, ~ inside e (Ex i (KTlIf t f)).
End Types.
