(** What a program made of several units means. *)
From Coq Require Import List Bool Arith String.
From Verif Require Import CodegenModel MirModel MirSpec InlineModel.
Import ListNotations.
Local Open Scope list_scope.

Section Meaning.
  Variable m : semantics.
  (** The unit with a given name; a name without a unit is a primitive. *)
  Variable env : nat -> option entity.

  Definition primitive (s : stmt) : Prop :=
    match s with
    | SBind _ (MOther c) _ _ => env c = None
    | SAssert _ => False
    | _ => True
    end.

  (** [block I sg l a]: the signals [sg] obey the statements [l], where an
      instance of unit [c] obeys [I c]; [a]: the asserted conditions, those inside
      instances included, in the order of the statements. *)
  Inductive block (I : nat -> list (D m) -> D m -> list (D m) -> Prop) (sg : vn -> D m)
    : list stmt -> list (D m) -> Prop :=
  | block_nil : block I sg [] []
  | block_instance n c ops t a l b :
      env c <> None -> I c (map sg ops) (sg n) a -> block I sg l b ->
      block I sg (SBind n (MOther c) ops t :: l) (a ++ b)
  | block_assert v l b : block I sg l b -> block I sg (SAssert v :: l) (sg v :: b)
  | block_primitive s l b : primitive s -> holds m sg s -> block I sg l b -> block I sg (s :: l) b.

  (** [runs c ins out a]: unit [c] can show the signals [ins] at its inputs and
      [out] at its output, with the asserted conditions [a]. *)
  Inductive runs : nat -> list (D m) -> D m -> list (D m) -> Prop :=
  | runs_unit c e sg a :
      env c = Some e -> block runs sg (e_stmts e) a ->
      runs c (map (fun i => sg (in_val i)) (e_inputs e)) (sg (e_output e)) a.
End Meaning.

(** The number a name was given is below the next one to be handed out. *)
Definition below (i : ids) (n : vn) : Prop :=
  match n with Named k _ => k < next_name i | EId k => k < next_expr i end.

(** Is [c] an inlined unit? *)
Definition inlined (P : source_map) (c : nat) : Prop :=
  exists u, find_unit P c = Some u /\ mu_inline u = true.

(** The units before inlining. *)
Definition before (P : source_map) (c : nat) : option entity := option_map mu_entity (find_unit P c).
(** The units after it. *)
Definition after (out : list (nat * entity * list vn)) (c : nat) : option entity :=
  option_map (fun p => snd (fst p)) (find (fun p => fst (fst p) =? c) out).

(** What lowering guarantees: unit names are distinct; a unit uses only names it
    defines, no two inputs are the same signal; the numbers in its names were
    handed out before; calls have one operand per input. *)
Definition well_formed (P : source_map) (i : ids) : Prop :=
  NoDup (map fst P) /\
  forall c u, In (c, u) P ->
    closed (mu_entity u) /\
    NoDup (map in_val (e_inputs (mu_entity u))) /\
    Forall (below i) (definitions (mu_entity u)) /\
    forall n c' u' ops t, In (SBind n (MOther c') ops t) (e_stmts (mu_entity u)) -> In (c', u') P ->
      List.length ops = List.length (e_inputs (mu_entity u')).

(** Inlined units do not contain themselves. *)
Definition acyclic (P : source_map) (rank : nat -> nat) : Prop :=
  forall c u n c' ops t, In (c, u) P -> In (SBind n (MOther c') ops t) (e_stmts (mu_entity u)) ->
    inlined P c' -> rank c' < rank c.
