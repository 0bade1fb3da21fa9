(** Register passes: spade-mir/src/passes/split_compound_regs.rs and
    auto_clock_gating.rs.  Locations are left out; the expression id tracker is a
    counter. *)
From Coq Require Import List Bool Arith.
From Verif Require Import Bits CodegenModel MirModel.
Import ListNotations.

(** ** split_compound_regs.rs *)

(** A member of a compound register: its type, and how to make its register from
    the register name, the value name and the id counter. *)
Definition member : Type := ty * (vn -> vn -> nat -> list stmt * nat).

(** split_compound_regs.rs:44-78, the [map] over the members: the register
    names, the statements, the counter. *)
Fixpoint split_members (value : vn) (ms : list member) (i n : nat) : list vn * list stmt * nat :=
  match ms with
  | [] => ([], [], n)
  | (t, mk) :: rest =>
      let split_name := EId n in
      let reg_name := EId (S n) in
      let r := mk reg_name split_name (S (S n)) in
      let q := split_members value rest (S i) (snd r) in
      (reg_name :: fst (fst q),
       SBind split_name (MOp (IndexTuple i)) [value] t :: fst r ++ snd (fst q),
       snd q)
  end.

(** split_compound_regs.rs:39-93 [generate_split_code] *)
Definition generate_split_code (t : ty) (name value : vn) (ms : list member) (n : nat)
  : list stmt * nat :=
  let q := split_members value ms 0 n in
  (snd (fst q) ++ [SBind name (MOp ConstructTuple) (fst (fst q)) t], snd q).

(** split_compound_regs.rs:95-133 [split_compound_reg] for a register without
    initial value.  An array length always fits a [usize] here. *)
Fixpoint split_compound_reg (clock : vn) (reset : option (vn * vn)) (t : ty)
    (name value : vn) (n : nat) {struct t} : list stmt * nat :=
  match t with
  | TTuple members =>
      generate_split_code t name value
        (map (fun m => (m, split_compound_reg clock reset m)) members) n
  | TStruct members =>
      generate_split_code t name value
        (map (fun m => (snd m, split_compound_reg clock reset (snd m))) members) n
  | TArray inner length =>
      generate_split_code t name value
        (repeat (inner, split_compound_reg clock reset inner) length) n
  | _ => ([SReg name t clock reset None value], n)
  end.

(** split_compound_regs.rs:19-37 [transform_statements] *)
Fixpoint split_compound_regs (ss : list stmt) (n : nat) : list stmt * nat :=
  match ss with
  | [] => ([], n)
  | s :: rest =>
      let r := match s with
               | SReg name t clock reset None value => split_compound_reg clock reset t name value n
               | other => ([other], n)
               end in
      let q := split_compound_regs rest (snd r) in
      (fst r ++ fst q, snd q)
  end.

(** ** auto_clock_gating.rs *)

(** auto_clock_gating.rs:14-53 [split_trivial_tag_value]; the names are given. *)
Definition split_trivial_tag_value (value : vn) (payload : list ty) (tag_name payload_name : vn) : list stmt :=
  let payload_size := list_sum (map size payload) in
  [SBind tag_name (MOp (RangeIndexBits payload_size (payload_size + 1))) [value] TBool;
   SBind payload_name (MOp (RangeIndexBits 0 payload_size)) [value] (TTuple payload)].

(** auto_clock_gating.rs:61-162 [perform_trivial_gating] for a register without
    initial value; [None] when the register is left alone. *)
Definition perform_trivial_gating (clock : vn) (reset : option (vn * vn)) (t : ty)
    (name value : vn) (n : nat) : option (list stmt * nat) :=
  match t with
  | TEnum [[]; payload] =>
      let tag_reg := EId n in
      let payload_reg := EId (n + 1) in
      let payload_reg_value := EId (n + 2) in
      let value_tag := EId (n + 3) in
      let value_payload := EId (n + 4) in
      let split_value := split_trivial_tag_value value payload value_tag value_payload in
      let '(split_reset, reset_tag, reset_payload, n') :=
        match reset with
        | Some (trig, val) =>
            (split_trivial_tag_value val payload (EId (n + 5)) (EId (n + 6)),
             Some (trig, EId (n + 5)), Some (trig, EId (n + 6)), n + 7)
        | None => ([], None, None, n + 5)
        end in
      Some
        (split_value ++ split_reset ++
         [SReg tag_reg TBool clock reset_tag None value_tag;
          SBind payload_reg_value (MOp Select) [value_tag; value_payload; payload_reg] (TTuple payload);
          SReg payload_reg (TTuple payload) clock reset_payload None payload_reg_value;
          SBind name (MOp Concat) [tag_reg; payload_reg] t],
         n')
  | _ => None
  end.

(** auto_clock_gating.rs:168-182 [transform_statements] *)
Fixpoint enum_clock_gating (ss : list stmt) (n : nat) : list stmt * nat :=
  match ss with
  | [] => ([], n)
  | s :: rest =>
      let r := match s with
               | SReg name t clock reset None value =>
                   match perform_trivial_gating clock reset t name value n with
                   | Some r => r
                   | None => ([s], n)
                   end
               | other => ([other], n)
               end in
      let q := enum_clock_gating rest (snd r) in
      (fst r ++ fst q, snd q)
  end.
