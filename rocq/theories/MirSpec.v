(** What a MIR entity means, for any meaning of its operators. *)
From Coq Require Import List Bool Arith String Permutation.
From Verif Require Import Bits CodegenModel MirModel.
Import ListNotations.

(** A semantics gives every operator, register and constant a relation between
    the signals it connects.  [D] is the type of signals: for example the whole
    history of the forward and backward wires of a value, so sequential and
    inverted behaviour are included. *)
Record semantics : Type := Build_semantics {
  D : Type;
  s_op : mop -> ty -> D -> list D -> Prop;
  s_reg : ty -> option nat -> D -> option (D * D) -> D -> D -> Prop;
  s_const : ty -> nat -> D -> Prop;
  s_set : D -> D -> Prop
}.

(** The equation a statement imposes on the signals. *)
Definition holds (m : semantics) (sg : vn -> D m) (s : stmt) : Prop :=
  match s with
  | SBind n o ops t => s_op m o t (sg n) (map sg ops)
  | SAlias n o _ => sg n = sg o
  | SReg n t c r i v =>
      s_reg m t i (sg c) (match r with Some (a, b) => Some (sg a, sg b) | None => None end) (sg v) (sg n)
  | SConst n t c => s_const m t c (sg n)
  | SSet a b => s_set m (sg a) (sg b)
  | SAssert _ | SError => True
  end.

(** An assignment of signals to the names of an entity is one of its behaviours
    when every statement holds. *)
Definition behaves (m : semantics) (sg : vn -> D m) (e : entity) : Prop :=
  Forall (holds m sg) (e_stmts e).

Definition asserted (e : entity) : list vn :=
  flat_map (fun s => match s with SAssert v => [v] | _ => [] end) (e_stmts e).

(** What is visible from outside: inputs, output and asserted conditions. *)
Definition observations (m : semantics) (sg : vn -> D m) (e : entity) : list (D m) :=
  map (fun i => sg (in_val i)) (e_inputs e) ++ [sg (e_output e)] ++ map sg (asserted e).

(** Every name has at most one definition. *)
Definition single_definitions (e : entity) : Prop := NoDup (definitions e).

(** The names a statement uses. *)
Definition used (s : stmt) : list vn :=
  match s with
  | SBind _ _ ops _ => ops
  | SAlias _ o _ => [o]
  | SReg _ _ c r _ v => c :: v :: match r with Some (a, b) => [a; b] | None => [] end
  | SConst _ _ _ => []
  | SAssert v => [v]
  | SSet a b => [a; b]
  | SError => []
  end.
Definition closed (e : entity) : Prop :=
  In (e_output e) (definitions e) /\
  forall s x, In s (e_stmts e) -> In x (used s) -> In x (definitions e).

(** How many of the names in [l] are written [s] in the source. *)
Definition occurrences (s : string) (l : list vn) : nat :=
  List.length (filter (fun n => match n with Named _ t => String.eqb t s | EId _ => false end) l).

(** [f] renumbers named variables without changing their spelling. *)
Definition renumbering (f : vn -> vn) : Prop :=
  (forall i, f (EId i) = EId i) /\ (forall i s, exists j, f (Named i s) = Named j s).

(** The source spellings occurring in an entity. *)
Definition spellings (e : entity) : list string :=
  map in_name (e_inputs e)
  ++ flat_map (fun n => match n with Named _ s => [s] | EId _ => [] end) (definitions e).

(** No variable is spelled like a name the compiler makes up for another one. *)
Definition no_reserved_spelling (e : entity) : Prop :=
  forall s t k, In s (spellings e) -> In t (spellings e) ->
    ~ In s ([t ++ "_n" ++ show_nat k; t ++ "_mut"; t ++ "_n" ++ show_nat k ++ "_mut";
             "_e_" ++ show_nat k; "_e_" ++ show_nat k ++ "_mut"; t ++ "_i"; t ++ "_o";
             "input__"; "output__"])%string.

(** Ports carry the name of the local variable they initialise, and no two
    parameters have the same name; an unmangled port is an input or an output. *)
Definition ports_ok (e : entity) : Prop :=
  (forall i, In i (e_inputs e) -> exists k, in_val i = Named k (in_name i)) /\
  NoDup (map in_name (e_inputs e)) /\
  (forall i, In i (e_inputs e) -> in_no_mangle i = true ->
     size (in_ty i) = 0 \/ backward_size (in_ty i) = 0).

(** Names that never carry inverted wires of their own: inputs, and what
    registers, constants, assertions, assigned values and the output mention. *)
Definition plain_uses (e : entity) : list vn :=
  map in_val (e_inputs e) ++ e_output e ::
  flat_map (fun s => match s with
                     | SReg n _ c r _ v => n :: c :: v :: match r with Some (a, b) => [a; b] | None => [] end
                     | SConst n _ _ => [n]
                     | SAssert v => [v]
                     | SSet _ v => [v]
                     | _ => []
                     end) (e_stmts e).
(** They are not bound to an operator at a type with backward wires. *)
Definition plain_uses_ok (e : entity) : Prop :=
  forall s n k, In s (e_stmts e) -> as_binding s = Some (n, k) -> In n (plain_uses e) ->
    backward_size (snd k) = 0.

(** A named signal without backward wires: every alias that mentions it has a
    type without backward wires. *)
Definition plainly_named (e : entity) (x : vn) : Prop :=
  (exists i s, x = Named i s) /\
  forall a b t, In (SAlias a b t) (e_stmts e) -> a = x \/ b = x -> backward_size t = 0.

(** Reading the same place of the same wires gives the same wire: true of every
    operator except instances and fresh ports. *)
Definition determined (m : semantics) : Prop :=
  forall o t d d' ops, o = MIndexMemory \/ (exists x, o = MOp x) -> backward_size t <> 0 ->
    s_op m o t d ops -> s_op m o t d' ops -> d = d'.
