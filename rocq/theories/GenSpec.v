(** What [gen if] means (C63). *)
From Coq Require Import List Arith Bool.
From Verif Require Import GenModel.
Import ListNotations.

(** The grammar: a branch is a block or another [gen if] ([EErr] stands for a syntax error). *)
Inductive branch : expr -> Prop :=
| B_error : branch EErr
| B_if c t f : branch t -> branch f -> branch (EIf c t f)
| B_block l r : ends r -> branch (EBlk l r)
with ends : option expr -> Prop :=
| N_none : ends None
| N_if c t f : branch t -> branch f -> ends (Some (EIf c t f))
| N_other e : (forall c t f, e <> EIf c t f) -> ends (Some e).

(** What is left of a body if the conditions have the given values: the statements in front
    of a [gen if] are followed by those of the branch that is taken. *)
Definition after (l : list stmt) (e : expr) : expr := match e with EBlk l' r => EBlk (l ++ l') r | e => e end.
Inductive picks (conds : nat -> bool) : expr -> expr -> Prop :=
| K_error : picks conds EErr EErr
| K_end l r : (forall c t f, r <> Some (EIf c t f)) -> picks conds (EBlk l r) (EBlk l r)
| K_yes l c t f e : conds c = true -> picks conds t e -> picks conds (EBlk l (Some (EIf c t f))) (after l e)
| K_no l c t f e : conds c = false -> picks conds f e -> picks conds (EBlk l (Some (EIf c t f))) (after l e)
| K_else_yes c t f e : conds c = true -> picks conds t e -> picks conds (EIf c t f) e
| K_else_no c t f e : conds c = false -> picks conds f e -> picks conds (EIf c t f) e.

(** What a unit comes to, among units made for it: its body, or, if that only hands its
    inputs and type parameters on to one of those units, takes the result and waits for as
    many stages as the unit has, what that unit comes to. *)
Definition names_one (gen : list unit_) (e : expr) : Prop :=
  exists x k n args tf l r v, e = EBlk (SLet x (ECall k n args tf) :: l) r /\ In v gen /\ id v = n.
Definition waits (k : ukind) : list stmt := match k with Pipeline d => [SReg d] | _ => [] end.
Inductive runs (gen : list unit_) (conds : nat -> bool) : unit_ -> res expr -> Prop :=
| R_own u r : lower conds true (body u) = r -> (forall e, r = Ok e -> ~ names_one gen e) -> runs gen conds u r
| R_on u v x tf r :
    lower conds true (body u) = Ok (EBlk (SLet x (ECall (ukind_ u) (id v) (map EVar (inputs v)) tf) :: waits (ukind_ u)) (Some (EVar x))) ->
    In v gen -> ukind_ v = ukind_ u -> inputs v = inputs u -> type_params v = type_params u ->
    match tf with Some l => l | None => [] end = type_params v ->
    runs gen conds v r -> runs gen conds u r.

(** The calls in something written are to units with smaller numbers. *)
Inductive calls (n : nat) : expr -> Prop :=
| C_here k args tf : calls n (ECall k n args tf)
| C_argument k m args tf e : In e args -> calls n e -> calls n (ECall k m args tf)
| C_operand k l e : In e l -> calls n e -> calls n (EOther k l)
| C_yes c t f : calls n t -> calls n (EIf c t f)
| C_no c t f : calls n f -> calls n (EIf c t f)
| C_bound l r x e : In (SLet x e) l -> calls n e -> calls n (EBlk l r)
| C_statement l r k es e : In (SOther k es) l -> In e es -> calls n e -> calls n (EBlk l r)
| C_result l e : calls n e -> calls n (EBlk l (Some e)).
Definition known (s : ctx) (u : unit_) : Prop := forall n, calls n (body u) -> n < next s.

(** A [gen if] where it must not be: not at the end of a block or bound by a [let], in the
    unit's body, a branch or such a place again *)
Inductive misplaced : bool -> expr -> Prop :=
| W_here c t f : misplaced false (EIf c t f)
| W_yes a c t f : misplaced a t -> misplaced a (EIf c t f)
| W_no a c t f : misplaced a f -> misplaced a (EIf c t f)
| W_bound a l r x e : In (SLet x e) l -> misplaced a e -> misplaced a (EBlk l r)
| W_result a l e : misplaced a e -> misplaced a (EBlk l (Some e))
| W_statement a l r k es e : In (SOther k es) l -> In e es -> misplaced false e -> misplaced a (EBlk l r)
| W_argument a k n l tf e : In e l -> misplaced false e -> misplaced a (ECall k n l tf)
| W_operand a k l e : In e l -> misplaced false e -> misplaced a (EOther k l).

(** How deep [gen if]s are nested at the end *)
Fixpoint nest (e : expr) : nat :=
  match e with
  | EIf _ t f => S (Nat.max (nest t) (nest f))
  | EBlk _ (Some (EIf _ t f)) => S (Nat.max (nest t) (nest f))
  | _ => 0
  end.
