(** What it means for two modules to be the same up to renaming (C42). *)
From Coq Require Import List Bool Arith String.
From Verif Require Import Bits CodegenModel MirModel.
Import ListNotations.
Local Open Scope list_scope.

(** A renaming changes only the numbers. *)
Definition renaming (f : vn -> vn) : Prop :=
  forall x, match x, f x with
            | Named _ s, Named _ t => s = t
            | EId _, EId _ => True
            | _, _ => False
            end.

(** Names a statement uses. *)
Definition used (s : stmt) : list vn :=
  match s with
  | SBind _ _ ops _ => ops
  | SAlias _ o _ => [o]
  | SReg _ _ c r _ v => c :: v :: match r with Some (t, i) => [t; i] | None => [] end
  | SConst _ _ _ => []
  | SAssert v => [v]
  | SSet t v => [t; v]
  | SError => []
  end.
(** Every name in a module, and the ones it uses. *)
Definition uses (e : entity) : list vn := e_output e :: flat_map used (e_stmts e).
Definition variables (e : entity) : list vn := definitions e ++ uses e.

(** The number of a name, and which of the two number spaces it is in. *)
Definition number (x : vn) : bool * nat :=
  match x with Named i _ => (true, i) | EId i => (false, i) end.

(** Every variable is defined once, under its own number. *)
Definition well_numbered (e : entity) : Prop := NoDup (map number (definitions e)).

Definition same_up_to_renaming (e1 e2 : entity) : Prop :=
  exists f, renaming f
    /\ (forall x y, In x (variables e1) -> In y (variables e1) -> f x = f y -> x = y)
    /\ rename_entity f e1 = e2.

(** Nothing undefined is used, and there is no error statement. *)
Definition closed (e : entity) : Prop :=
  (forall x, In x (uses e) -> In x (definitions e)) /\ ~ In SError (e_stmts e).
