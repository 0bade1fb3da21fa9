(** What it means that modules have names of their own (C56). *)
From Coq Require Import String List Arith Bool Ascii.
From Verif Require Import MirModel MonoModel MonoSpec UnitNameModel.
Import ListNotations.
Local Open Scope string_scope.

(** Identifiers as both Spade and Verilog have them: letters, digits and underscores, no
    digit in front.  Spade allows characters outside of ASCII as well. *)
Definition ident_char (c : ascii) : bool :=
  let n := nat_of_ascii c in
  (((48 <=? n) && (n <=? 57)) || ((65 <=? n) && (n <=? 90)) || (n =? 95) || ((97 <=? n) && (n <=? 122)))%nat.
Definition starts_well (s : string) : Prop :=
  match s with EmptyString => False | String c _ => ((48 <=? nat_of_ascii c) && (nat_of_ascii c <=? 57))%nat = false end.
Definition ident (s : string) : Prop := starts_well s /\ forall c, In c (list_ascii_of_string s) -> ident_char c = true.
(** printable and not a space *)
Definition visible (s : string) : Prop := forall c, In c (list_ascii_of_string s) -> (33 <= nat_of_ascii c <= 126)%nat.

(** IEEE 1364, 3.7: the identifier a piece of Verilog text stands for.  Neither the
    backslash in front nor the space after it is part of it. *)
Inductive spells : string -> string -> Prop :=
| Spells_simple s : ident s -> spells s s
| Spells_escaped s : s <> "" -> visible s -> spells ("\" ++ s ++ " ") s.

Section Program.
Variable units : nat -> option unit_.
Variable all_units : list nat.
Variable work : mkey -> list (option mkey).

(** What the earlier phases and the author of the program see to. *)
Record well_named (first : nat) : Prop := {
  wn_known : forall id u, units id = Some u -> In id all_units /\ id < first;
  wn_accepted : forall id u, units id = Some u -> name_of id u <> None;
  wn_idents : forall id u, units id = Some u -> u_path u <> [] /\ ident (u_ident u) /\ forall s, In (Named s) (u_path u) -> ident s;
  (** a path means one item (symbol_table.rs:1155-1177 [ensure_is_unique]) *)
  wn_paths : forall a b u v, units a = Some u -> units b = Some v -> u_path u = u_path v ->
    u_branch u = false -> u_branch v = false -> a = b;
  (** names that are not mangled are the author's business: no two alike, and none like
      that of a unit outside of all modules *)
  wn_plain : forall a b u v, units a = Some u -> units b = Some v -> u_no_mangle u = true -> u_branch u = false ->
    u_no_mangle v = true /\ u_branch v = false /\ u_ident u = u_ident v \/ u_path v = [Named (u_ident u)] -> a = b;
  wn_calls : forall k k', In (Some k') (work k) -> exists u, units (fst k') = Some u /\ (u_generic u = false -> snd k' = KNil) }.
(** the instances a unit makes *)
Definition calls (w : list (option mkey)) : list mkey := flat_map (fun o => match o with Some k => [k] | None => [] end) w.
(** [text] names the module compiled for [k] or, if that is extern, its own one, which is
    no module of the program. *)
Definition refers (ms : list (mkey * module_)) (k : mkey) (text : string) : Prop :=
  exists u, units (fst k) = Some u /\
    if u_extern u then
      (exists n, name_of (fst k) u = Some n /\ text = as_verilog (as_mir n))
      /\ forall k' m x, In (k', m) ms -> spells text x -> ~ spells (fst m) x
    else exists m, In (k, m) ms /\ text = fst m.
End Program.
