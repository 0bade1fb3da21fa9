(** Comparison of MIR modules up to variable ids: spade-mir/src/diff.rs.

    A module is its name and an [entity] of MirModel.  Attributes and the
    [inline] flag are not looked at by the code (diff.rs:228-265) and are not in
    the model; source locations take no part in equality. *)
From Coq Require Import List Bool Arith String.
From Verif Require Import Bits CodegenModel MirModel.
Import ListNotations.
Local Open Scope list_scope.
Local Open Scope nat_scope.

(** diff.rs:16-21 [VarMap].  The reverse maps are written and never read: left
    out.  A later entry for a key hides an earlier one. *)
Record varmap := { expr_map : list (nat * nat); name_map : list (nat * nat) }.
(** diff.rs:30-37 *)
Definition new_map : varmap := {| expr_map := []; name_map := [] |}.
Definition get (m : list (nat * nat)) (k : nat) : option nat :=
  option_map snd (find (fun p => fst p =? k) m).
(** diff.rs:39-47 [map_expr], [map_name] *)
Definition map_expr (m : varmap) (i j : nat) : varmap :=
  {| expr_map := (i, j) :: expr_map m; name_map := name_map m |}.
Definition map_name (m : varmap) (i j : nat) : varmap :=
  {| expr_map := expr_map m; name_map := (i, j) :: name_map m |}.

(** diff.rs:49-66 [try_update_name] *)
Definition try_update_name (m : varmap) (l r : vn) : option varmap :=
  match l, r with
  | Named i1 n1, Named i2 n2 => if String.eqb n1 n2 then Some (map_name m i1 i2) else None
  | EId i1, EId i2 => Some (map_expr m i1 i2)
  | _, _ => None
  end.

Definition maps (m : list (nat * nat)) (l r : nat) : bool :=
  match get m l with Some v => v =? r | None => false end.
(** diff.rs:68-95 [compare_name], [compare_exprs], [compare_vals] *)
Definition compare_vals (m : varmap) (l r : vn) : bool :=
  match l, r with
  | Named i1 n1, Named i2 n2 => String.eqb n1 n2 && maps (name_map m) i1 i2
  | EId i1, EId i2 => maps (expr_map m) i1 i2
  | _, _ => false
  end.

(** Pairs of a [zip]; the rest of the longer list is dropped. *)
Fixpoint zip_all {A B} (f : A -> B -> bool) (l : list A) (r : list B) : bool :=
  match l, r with
  | x :: l, y :: r => f x y && zip_all f l r
  | _, _ => true
  end.

Definition opt_eqb {A} (f : A -> A -> bool) (a b : option A) : bool :=
  match a, b with
  | Some x, Some y => f x y
  | None, None => true
  | _, _ => false
  end.

(** diff.rs:99-198 [compare_statements] *)
Definition compare_statements (m : varmap) (s1 s2 : stmt) : bool :=
  match s1, s2 with
  | SBind _ o1 a1 t1, SBind _ o2 a2 t2 =>
      ty_eqb t1 t2 && mop_eqb o1 o2 && (List.length a1 =? List.length a2) && zip_all (compare_vals m) a1 a2
  | SAlias _ a1 t1, SAlias _ a2 t2 => ty_eqb t1 t2 && compare_vals m a1 a2
  | SReg _ t1 c1 r1 i1 v1, SReg _ t2 c2 r2 i2 v2 =>
      ty_eqb t1 t2 && compare_vals m v1 v2 && compare_vals m c1 c2
      && opt_eqb (fun p q => compare_vals m (fst p) (fst q) && compare_vals m (snd p) (snd q)) r1 r2
      && opt_eqb Nat.eqb i1 i2
  | SConst _ t1 v1, SConst _ t2 v2 => ty_eqb t1 t2 && (v1 =? v2)
  | SAssert v1, SAssert v2 => compare_vals m v1 v2
  | SSet t1 v1, SSet t2 v2 => compare_vals m t1 t2 && compare_vals m v1 v2
  | _, _ => false
  end.

(** diff.rs:200-226 [populate_var_map].  A [Binding] here is [SBind] or
    [SAlias]. *)
Definition populate_one (m : varmap) (s1 s2 : stmt) : option varmap :=
  match s1, s2 with
  | (SBind n1 _ _ _ | SAlias n1 _ _), (SBind n2 _ _ _ | SAlias n2 _ _) => try_update_name m n1 n2
  | SReg n1 _ _ _ _ _, SReg n2 _ _ _ _ _ => try_update_name m n1 n2
  | SConst n1 _ _, SConst n2 _ _ => try_update_name m n1 n2
  | SAssert _, SAssert _ => Some m
  | SSet _ _, SSet _ _ => Some m
  | _, _ => None
  end.
Fixpoint populate_var_map (m : varmap) (l r : list stmt) : option varmap :=
  match l, r with
  | x :: l, y :: r =>
      match populate_one m x y with Some m => populate_var_map m l r | None => None end
  | _, _ => Some m
  end.

(** diff.rs:232-252: the inputs. *)
Fixpoint compare_inputs (m : varmap) (l r : list minput) : option varmap :=
  match l, r with
  | x :: l, y :: r =>
      if Bool.eqb (in_no_mangle x) (in_no_mangle y) && String.eqb (in_name x) (in_name y) then
        match try_update_name m (in_val x) (in_val y) with
        | Some m => if ty_eqb (in_ty x) (in_ty y) then compare_inputs m l r else None
        | None => None
        end
      else None
  | _, _ => Some m
  end.

(** diff.rs:228-265 [compare_entity] *)
Definition compare_entity (p1 p2 : string * entity) (m : varmap) : bool :=
  let '(n1, e1) := p1 in
  let '(n2, e2) := p2 in
  String.eqb n1 n2 && ty_eqb (e_output_ty e1) (e_output_ty e2)
  && match compare_inputs m (e_inputs e1) (e_inputs e2) with
     | None => false
     | Some m =>
         match populate_var_map m (e_stmts e1) (e_stmts e2) with
         | None => false
         | Some m =>
             zip_all (compare_statements m) (e_stmts e1) (e_stmts e2)
             && (List.length (e_stmts e1) =? List.length (e_stmts e2))
             && compare_vals m (e_output e1) (e_output e2)
         end
     end.
