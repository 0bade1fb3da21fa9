(** Names of Verilog modules: from the units of a program by way of their instances to
    the text in front of the ports.  spade-ast-lowering/src/lib.rs, type_level_if.rs,
    spade-hir-lowering/src/lib.rs, monomorphisation.rs, spade-mir/src/unit_name.rs. *)
From Coq Require Import String List Arith Bool.
From Verif Require Import MirModel MonoModel.
Import ListNotations.
Local Open Scope string_scope.

(** spade-common/src/name.rs:98-104 [PathSegment] and 138-147; a string stands for its
    bytes *)
Inductive segment := Named (s : string) | Impl (n : nat) | IfT | IfF.
Definition show_segment (s : segment) : string :=
  match s with
  | Named s => s
  | Impl n => "impl#" ++ show_nat n
  | IfT => "if#true"
  | IfF => "if#false"
  end.
Definition path : Type := list segment.
(** name.rs:153-155 [to_strings], joined with [::] *)
Definition show_path (p : path) : string := String.concat "::" (map show_segment p).
(** name.rs:269-289 [NameID] *)
Definition name_id : Type := nat * path.
(** spade-hir/src/lib.rs:726-737 [UnitName] *)
Inductive unit_name := WithID (n : name_id) | FullPath (n : name_id) | Unmangled (s : string) (n : name_id).
(** spade-hir-lowering/src/lib.rs:200-226 [as_mir] and unit_name.rs:109-120; the path
    kept for instance names is left out *)
Inductive mir_name := Unescaped (s : string) | Escaped (s : string).
Definition as_mir (u : unit_name) : mir_name :=
  match u with
  | WithID (id, p) => Escaped (show_path p ++ "[" ++ show_nat id ++ "]")
  | FullPath (_, p) => Escaped (show_path p)
  | Unmangled s _ => Unescaped s
  end.
(** unit_name.rs:141-146 [as_verilog] *)
Definition as_verilog (m : mir_name) : string :=
  match m with Unescaped s => s | Escaped s => "\" ++ s ++ " " end.

(** A unit: its path, the name it was written with, whether it or the impl block it is
    in has type parameters, whether [#[no_mangle]] is written on it, whether it is
    [extern], and whether it was made for one branch of a type-level if. *)
Record unit_ := { u_path : path; u_ident : string; u_generic : bool; u_no_mangle : bool; u_extern : bool; u_branch : bool }.
(** ast-lowering/lib.rs:1333-1374 and type_level_if.rs:113; [None]: refused.  On units in
    generic impl blocks [#[no_mangle]] is refused even if they are extern; here only the
    common case is. *)
Definition name_of (id : nat) (u : unit_) : option unit_name :=
  if u_branch u then Some (WithID (id, u_path u))
  else if u_no_mangle u then
    if u_generic u && negb (u_extern u) then None else Some (Unmangled (u_ident u) (id, u_path u))
  else if u_generic u then Some (WithID (id, u_path u)) else Some (FullPath (id, u_path u)).
(** monomorphisation.rs:128-136: the name of an instance, from that of its unit and
    the number it got *)
Definition renamed (u : unit_name) (n : nat) : unit_name :=
  match u with
  | WithID (_, p) => WithID (n, p)
  | FullPath (_, p) => FullPath (n, p)
  | Unmangled s (_, p) => Unmangled s (n, p)
  end.

Section Program.
Variable units : nat -> option unit_.
(** all units, in some order *)
Variable all_units : list nat.
(** What compiling an instance does, in order: it takes a number for a new name, or
    instantiates a unit with type arguments. *)
Variable work : mkey -> list (option mkey).

Definition unit_name_of (id : nat) : option unit_name := match units id with Some u => name_of id u | None => None end.
(** the generic units that are not extern *)
Definition instantiated (id : nat) : bool := match units id with Some u => u_generic u && negb (u_extern u) | None => false end.
(** monomorphisation.rs:236-247: compiled from the start *)
Definition is_root (id : nat) : bool := match units id with Some u => negb (u_generic u) && negb (u_extern u) | None => false end.
(** hir-lowering/lib.rs:2367-2399: an instance of a generic unit is asked for, the
    others are not *)
Definition action_of (w : option mkey) : list action :=
  match w with
  | None => [Fresh]
  | Some k => if instantiated (fst k) then [Request k] else []
  end.
(** hir-lowering/lib.rs:2388-2402, 2416, 2523: the names of the modules it
    instantiates, from the numbers it received *)
Fixpoint instance_names (w : list (option mkey)) (got : list nat) : list string :=
  match w with
  | [] => []
  | None :: w => instance_names w (tl got)
  | Some k :: w =>
      if instantiated (fst k) then
        match units (fst k) with
        | Some u => as_verilog (as_mir (WithID (hd 0 got, u_path u)))
        | None => ""
        end :: instance_names w (tl got)
      else
        match unit_name_of (fst k) with Some n => as_verilog (as_mir n) | None => "" end :: instance_names w got
  end.
(** The module an instance gives: its name and those of the modules in it.  Units whose
    compilation fails are left out. *)
Definition module_ : Type := string * list string.
Definition module_of (k : mkey) (n : nat) (got : list nat) : module_ :=
  (match unit_name_of (fst k) with Some u => as_verilog (as_mir (renamed u n)) | None => "" end, instance_names (work k) got).
Definition compiled : program module_ :=
  {| pr_roots := filter is_root all_units;
     pr_body := fun k => flat_map action_of (work k);
     pr_out := fun k => [module_of k] |}.
End Program.
