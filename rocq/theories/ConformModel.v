(** Whether an [impl] block is what its trait asks for:
    /repo/spade-ast-lowering/src/impls.rs, [visit_impl_inner] up to the insertion into the
    table of impls (which is ImplModel.v).

    Names are the numbers of [NameID]s; positions, documentation and attributes are left
    out (the derived equality of types ignores positions: spade-common/src/location_info.rs:318-326).
    The heads of units and the types of the block are given as HIR; how they are looked up
    is SymModel.v. *)
From Coq Require Import ZArith List Bool String Arith.
Import ListNotations.
Open Scope nat_scope.

(** * Types: /repo/spade-hir/src/lib.rs:317-369, 598-621 *)
Inductive generic := Named (id : nat) | Hidden (id : nat).
Inductive cgop := Add | Sub | Mul | Div | Mod | Eq_ | NotEq | Lt_ | Gt_ | Le_ | Ge_ | And_ | Or_ | Xor_.
Inductive cguop := IntBitsFor | UintBitsFor | Not_.
Inductive cg :=
| CName (id : nat)
| CBool (b : bool)
| CInt (z : Z)
| CStr (s : string)
| CBin (op : cgop) (a b : cg)
| CUn (op : cguop) (a : cg).
Inductive spec :=
| Declared (n : nat) (es : texprs)
| Generic (g : generic)
| Tuple (l : specs)
| Array (s : spec) (size : texpr)
| Inverted (s : spec)
| CopyView (s : spec)
| TraitSelf
| Wildcard
with texpr :=
| ESpec (s : spec)
| EBool (b : bool)
| EInt (z : Z)
| EStr (s : string)
| EConst (c : cg)
with specs := SNil | SCons (s : spec) (l : specs)
with texprs := XNil | XCons (e : texpr) (l : texprs).

Scheme spec_mut := Induction for spec Sort Prop
  with texpr_mut := Induction for texpr Sort Prop
  with specs_mut := Induction for specs Sort Prop
  with texprs_mut := Induction for texprs Sort Prop.
Combined Scheme types_ind from spec_mut, texpr_mut, specs_mut, texprs_mut.

(** Derived equality *)
Definition generic_eqb (a b : generic) : bool :=
  match a, b with
  | Named x, Named y | Hidden x, Hidden y => x =? y
  | _, _ => false
  end.
Definition cgop_eq_dec (a b : cgop) : {a = b} + {a <> b}. Proof. decide equality. Defined.
Definition cguop_eq_dec (a b : cguop) : {a = b} + {a <> b}. Proof. decide equality. Defined.
Fixpoint cg_eqb (a b : cg) : bool :=
  match a, b with
  | CName x, CName y => x =? y
  | CBool x, CBool y => Bool.eqb x y
  | CInt x, CInt y => Z.eqb x y
  | CStr x, CStr y => String.eqb x y
  | CBin o a1 a2, CBin o' b1 b2 => (if cgop_eq_dec o o' then true else false) && cg_eqb a1 b1 && cg_eqb a2 b2
  | CUn o a1, CUn o' b1 => (if cguop_eq_dec o o' then true else false) && cg_eqb a1 b1
  | _, _ => false
  end.
Fixpoint spec_eqb (a b : spec) : bool :=
  match a, b with
  | Declared n l, Declared m k => (n =? m) && texprs_eqb l k
  | Generic g, Generic h => generic_eqb g h
  | Tuple l, Tuple k => specs_eqb l k
  | Array s x, Array t y => spec_eqb s t && texpr_eqb x y
  | Inverted s, Inverted t => spec_eqb s t
  | CopyView s, CopyView t => spec_eqb s t
  | TraitSelf, TraitSelf => true
  | Wildcard, Wildcard => true
  | _, _ => false
  end
with texpr_eqb (a b : texpr) : bool :=
  match a, b with
  | ESpec s, ESpec t => spec_eqb s t
  | EBool x, EBool y => Bool.eqb x y
  | EInt x, EInt y => Z.eqb x y
  | EStr x, EStr y => String.eqb x y
  | EConst c, EConst d => cg_eqb c d
  | _, _ => false
  end
with specs_eqb (a b : specs) : bool :=
  match a, b with
  | SNil, SNil => true
  | SCons s l, SCons t k => spec_eqb s t && specs_eqb l k
  | _, _ => false
  end
with texprs_eqb (a b : texprs) : bool :=
  match a, b with
  | XNil, XNil => true
  | XCons s l, XCons t k => texpr_eqb s t && texprs_eqb l k
  | _, _ => false
  end.

(** An error for the user, an internal error ([Diagnostic::bug]), or a panic *)
Inductive res (A : Type) := Ok (a : A) | Refused | Bug | Panic.
Arguments Ok {A}. Arguments Refused {A}. Arguments Bug {A}. Arguments Panic {A}.
Definition bind {A B} (r : res A) (f : A -> res B) : res B :=
  match r with Ok a => f a | Refused => Refused | Bug => Bug | Panic => Panic end.
Definition guard (b : bool) : res unit := if b then Ok tt else Refused.

(** * Heads: lib.rs:889-903, 1105-1121.  What a parameter requires is kept although nothing
    below reads it; markers such as [wire] are left out. *)
Record param := { p_name : generic; p_bounds : list nat; p_meta : nat; p_default : option texpr }.
Inductive kind := Function | Entity | Pipeline (depth : texpr).
Record head := {
  h_kind : kind;
  h_unsafe : bool;
  h_params : list param;                    (* [unit_type_params] *)
  h_hidden : list param;                    (* [hidden_type_params], from [impl Trait] *)
  h_inputs : list (string * spec);
  h_output : option spec }.
(** lib.rs:906-914 *)
Definition output_type (h : head) : spec := match h_output h with Some s => s | None => Tuple SNil end.

(** A trait.  Its associated types and methods are maps made from a list: the last entry of
    a name counts. *)
Record trait_def := {
  t_params : option (list param);
  t_assoc : list (string * (nat * list param));
  t_fns : list (string * head) }.
Definition get {A} (x : string) (l : list (string * A)) : option A :=
  option_map snd (find (fun p => String.eqb x (fst p)) (rev l)).

(** An [impl] block, visited: the type it is for, the name given to [Self], the arguments of
    the trait, the associated types, the units and whether they lack a body *)
Record block := {
  b_target : spec;
  b_self : nat;
  b_args : option (list texpr);
  b_assoc : list (string * (nat * list param));
  b_units : list (string * (bool * head)) }.

(** * impls.rs:800-875 [resolve_trait_self] *)
Definition remapped (remaps : list (nat * nat)) (n : nat) : nat :=
  match find (fun p => n =? fst p) remaps with Some p => snd p | None => n end.
Section Resolve.
  Variables (target : spec) (self_id : nat) (remaps : list (nat * nat)).
  Fixpoint resolve (s : spec) : spec :=
    match s with
    | Tuple l => Tuple (resolve_specs l)
    | Array s size => Array (resolve s) (resolve_expr size)
    | Inverted s => Inverted (resolve s)
    | CopyView s => CopyView (resolve s)
    | TraitSelf => target
    | Declared n es => if n =? self_id then target else Declared (remapped remaps n) (resolve_exprs es)
    | Generic _ | Wildcard => s
    end
  with resolve_expr (e : texpr) : texpr :=
    match e with
    | ESpec s => ESpec (resolve s)
    | EBool _ | EInt _ | EStr _ | EConst _ => e
    end
  with resolve_specs (l : specs) : specs :=
    match l with SNil => SNil | SCons s l => SCons (resolve s) (resolve_specs l) end
  with resolve_exprs (l : texprs) : texprs :=
    match l with XNil => XNil | XCons e l => XCons (resolve_expr e) (resolve_exprs l) end.
End Resolve.

(** * impls.rs:1102-1435 [map_const_generic_to_trait], [map_type_expr_to_trait],
    [map_type_spec_to_trait] *)
Fixpoint position (g : generic) (l : list generic) : option nat :=
  match l with
  | [] => None
  | h :: l => if generic_eqb h g then Some 0 else option_map S (position g l)
  end.
(** [impl_type_params[param_idx]] *)
Definition at_index (l : list texpr) (i : nat) : res texpr := match nth_error l i with Some e => Ok e | None => Panic end.

Section Map.
  Variables (tp mp : list generic) (targs margs : list texpr).
  (** The trait's parameters first, then the method's *)
  Definition replacement (g : generic) : res texpr :=
    match position g tp with
    | Some i => at_index targs i
    | None =>
        match position g mp with
        | Some i => at_index margs i
        | None => Bug
        end
    end.
  Definition as_const (e : texpr) : res cg :=
    match e with
    | ESpec (Generic (Named n)) => Ok (CName n)
    | ESpec _ => Bug
    | EBool b => Ok (CBool b)
    | EInt z => Ok (CInt z)
    | EStr s => Ok (CStr s)
    | EConst c => Ok c
    end.
  Fixpoint map_cg (c : cg) : res cg :=
    match c with
    | CName n => bind (replacement (Named n)) as_const
    | CBin o a b => bind (map_cg a) (fun a => bind (map_cg b) (fun b => Ok (CBin o a b)))
    | CUn o a => bind (map_cg a) (fun a => Ok (CUn o a))
    | CBool _ | CInt _ | CStr _ => Ok c
    end.
  Definition as_spec (e : texpr) : res spec := match e with ESpec s => Ok s | _ => Bug end.
  (** 1434: everything else, copy views among it, is left as it is *)
  Fixpoint map_spec (s : spec) : res spec :=
    match s with
    | Declared n es => bind (map_exprs es) (fun es => Ok (Declared n es))
    | Generic g => bind (replacement g) as_spec
    | Tuple l => bind (map_specs l) (fun l => Ok (Tuple l))
    | Array s size => bind (map_spec s) (fun s => bind (map_expr size) (fun size => Ok (Array s size)))
    | Inverted s => bind (map_spec s) (fun s => Ok (Inverted s))
    | CopyView _ | TraitSelf | Wildcard => Ok s
    end
  with map_expr (e : texpr) : res texpr :=
    match e with
    | EBool _ | EInt _ | EStr _ => Ok e
    | ESpec s => bind (map_spec s) (fun s => Ok (ESpec s))
    | EConst c => bind (map_cg c) (fun c => Ok (EConst c))
    end
  with map_specs (l : specs) : res specs :=
    match l with
    | SNil => Ok SNil
    | SCons s l => bind (map_spec s) (fun s => bind (map_specs l) (fun l => Ok (SCons s l)))
    end
  with map_exprs (l : texprs) : res texprs :=
    match l with
    | XNil => Ok XNil
    | XCons e l => bind (map_expr e) (fun e => bind (map_exprs l) (fun l => Ok (XCons e l)))
    end.
  Fixpoint map_inputs (l : list (string * spec)) : res (list (string * spec)) :=
    match l with
    | [] => Ok []
    | (x, s) :: l => bind (map_spec s) (fun s => bind (map_inputs l) (fun l => Ok ((x, s) :: l)))
    end.
End Map.

(** impls.rs:1027-1038: the arguments of the trait, then the defaults of its other
    parameters; a missing default is an [unwrap] of nothing *)
Fixpoint or_default (args : list texpr) (ps : list param) : res (list texpr) :=
  match args, ps with
  | [], [] => Ok []
  | [], p :: ps =>
      match p_default p with
      | Some d => bind (or_default [] ps) (fun l => Ok (d :: l))
      | None => Panic
      end
  | a :: args, _ :: ps => bind (or_default args ps) (fun l => Ok (a :: l))
  | _ :: _, [] => Bug
  end.
Definition listed {A} (o : option (list A)) : list A := match o with Some l => l | None => [] end.

(** impls.rs:1009-1100 [map_trait_method_parameters] *)
Definition method_params (h : head) : list generic := map p_name (h_params h ++ h_hidden h).
Definition map_head (t : trait_def) (args : option (list texpr)) (trait_method impl_method : head) : res head :=
  bind (or_default (listed args) (listed (t_params t))) (fun targs =>
  let m := map_spec (map p_name (listed (t_params t))) (method_params trait_method) targs
             (map (fun g => ESpec (Generic g)) (method_params impl_method)) in
  let mi := map_inputs (map p_name (listed (t_params t))) (method_params trait_method) targs
             (map (fun g => ESpec (Generic g)) (method_params impl_method)) in
  bind (mi (h_inputs trait_method)) (fun inputs =>
  bind (match h_output trait_method with Some s => bind (m s) (fun s => Ok (Some s)) | None => Ok None end) (fun output =>
  Ok {| h_kind := h_kind trait_method; h_unsafe := h_unsafe trait_method; h_params := h_params trait_method;
        h_hidden := h_hidden trait_method; h_inputs := inputs; h_output := output |}))).

(** impls.rs:877-911 [check_output_type_for_impl_method_and_trait_method_matches] *)
Definition check_output (target : spec) (self_id : nat) (remaps : list (nat * nat)) (impl_method trait_method : head) : res unit :=
  guard (spec_eqb (resolve target self_id remaps (output_type impl_method))
                  (resolve target self_id remaps (output_type trait_method))).
(** impls.rs:913-1004 [check_params_for_impl_method_and_trait_method_match] *)
Fixpoint check_inputs (target : spec) (self_id : nat) (remaps : list (nat * nat)) (is_ ts : list (string * spec)) : res unit :=
  match is_, ts with
  | [], [] => Ok tt
  | (i, a) :: is_, (t, b) :: ts =>
      bind (guard (String.eqb i t)) (fun _ =>
      bind (guard (spec_eqb (resolve target self_id remaps b) (resolve target self_id remaps a))) (fun _ =>
      check_inputs target self_id remaps is_ ts))
  | _, _ => Refused
  end.

(** impls.rs:586-672 [check_generic_params_match_trait_def] *)
Fixpoint without_default (ps : list param) : nat :=
  match ps with p :: ps => match p_default p with None => S (without_default ps) | Some _ => 0 end | [] => 0 end.
Definition check_generic_params (t : trait_def) (args : option (list texpr)) : res unit :=
  match t_params t, args with
  | Some ps, Some l => guard ((without_default ps <=? List.length l) && (List.length l <=? List.length ps))
  | Some ps, None => guard (without_default ps =? 0)
  | None, Some _ => Refused
  | None, None => Ok tt
  end.

(** impls.rs:123-150: the associated types, whose names [visit_type_declaration] refuses to
    declare twice *)
Fixpoint visit_assoc (t : trait_def) (l : list (string * (nat * list param))) : res (list (nat * nat)) :=
  match l with
  | [] => Ok []
  | (x, (n, ps)) :: l =>
      match get x (t_assoc t) with
      | None => Refused
      | Some (m, qs) =>
          bind (guard (List.length ps =? List.length qs)) (fun _ =>
          bind (visit_assoc t l) (fun remaps => Ok ((m, n) :: remaps)))
      end
  end.
Fixpoint distinct (l : list string) : bool :=
  match l with [] => true | x :: l => negb (existsb (String.eqb x) l) && distinct l end.

(** impls.rs:152-232: the units *)
Fixpoint visit_units (t : trait_def) (b : block) (remaps : list (nat * nat)) (seen : list string) (l : list (string * (bool * head))) : res unit :=
  match l with
  | [] => Ok tt
  | (x, (is_extern, i)) :: l =>
      match get x (t_fns t) with
      | None => Refused
      | Some m =>
          bind (guard (negb (existsb (String.eqb x) seen))) (fun _ =>
          bind (guard (negb is_extern)) (fun _ =>
          bind (guard (Bool.eqb (h_unsafe i) (h_unsafe m))) (fun _ =>
          bind (guard (List.length (h_params i) =? List.length (h_params m))) (fun _ =>
          bind (map_head t (b_args b) m i) (fun m' =>
          bind (check_output (b_target b) (b_self b) remaps i m') (fun _ =>
          bind (check_inputs (b_target b) (b_self b) remaps (h_inputs i) (h_inputs m')) (fun _ =>
          visit_units t b remaps (x :: seen) l)))))))
      end
  end.

(** impls.rs:675-712 [check_no_missing_elements] *)
Definition none_missing {A B} (wanted : list (string * A)) (given : list (string * B)) : bool :=
  forallb (fun w => existsb (String.eqb (fst w)) (map fst given)) wanted.

(** impls.rs:36-255 [visit_impl_inner] for a block that names a trait *)
Definition visit_impl (t : trait_def) (b : block) : res unit :=
  bind (check_generic_params t (b_args b)) (fun _ =>
  bind (guard (distinct (map fst (b_assoc b)))) (fun _ =>
  bind (visit_assoc t (b_assoc b)) (fun remaps =>
  bind (visit_units t b remaps [] (b_units b)) (fun _ =>
  bind (guard (none_missing (t_assoc t) (b_assoc b))) (fun _ =>
  guard (none_missing (t_fns t) (b_units b))))))).
