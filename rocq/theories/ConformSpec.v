(** What it means for an [impl] block to follow its trait, stated with the meaning of types.

    A reading says what each name, generic parameter and way of building types stands for,
    in any domain.  A block follows the trait when, for each method, its types and those in
    the trait stand for the same things in every reading in which [Self] is the target, the
    parameters of the trait are the arguments the block gives (or the defaults), the
    parameters of the method are those of the method in the block, and the associated types
    of the trait are those of the block. *)
From Coq Require Import ZArith List Bool String Arith.
From Verif Require Import ConformModel.
Import ListNotations.

Record reading (D : Type) := {
  r_name : nat -> list D -> D;
  r_var : generic -> D;
  r_tuple : list D -> D;
  r_array : D -> D -> D;
  r_inv : D -> D;
  r_view : D -> D;
  r_self : D;
  r_wild : D;
  r_bool : bool -> D;
  r_int : Z -> D;
  r_str : string -> D;
  r_bin : cgop -> D -> D -> D;
  r_un : cguop -> D -> D }.
Arguments r_name {D}. Arguments r_var {D}. Arguments r_tuple {D}. Arguments r_array {D}. Arguments r_inv {D}.
Arguments r_view {D}. Arguments r_self {D}. Arguments r_wild {D}. Arguments r_bool {D}. Arguments r_int {D}.
Arguments r_str {D}. Arguments r_bin {D}. Arguments r_un {D}.

Section Meaning.
  Context {D : Type} (R : reading D).
  Fixpoint cg_means (c : cg) : D :=
    match c with
    | CName n => r_var R (Named n)
    | CBool b => r_bool R b
    | CInt z => r_int R z
    | CStr s => r_str R s
    | CBin o a b => r_bin R o (cg_means a) (cg_means b)
    | CUn o a => r_un R o (cg_means a)
    end.
  Fixpoint means (s : spec) : D :=
    match s with
    | Declared n es => r_name R n (all_mean es)
    | Generic g => r_var R g
    | Tuple l => r_tuple R (each_means l)
    | Array s size => r_array R (means s) (expr_means size)
    | Inverted s => r_inv R (means s)
    | CopyView s => r_view R (means s)
    | TraitSelf => r_self R
    | Wildcard => r_wild R
    end
  with expr_means (e : texpr) : D :=
    match e with
    | ESpec s => means s
    | EBool b => r_bool R b
    | EInt z => r_int R z
    | EStr s => r_str R s
    | EConst c => cg_means c
    end
  with each_means (l : specs) : list D :=
    match l with SNil => [] | SCons s l => means s :: each_means l end
  with all_mean (l : texprs) : list D :=
    match l with XNil => [] | XCons e l => expr_means e :: all_mean l end.
End Meaning.

(** What the block gives for the trait's parameter number [i] *)
Definition argument (t : trait_def) (b : block) (i : nat) : option texpr :=
  match nth_error (listed (b_args b)) i with
  | Some e => Some e
  | None => match nth_error (listed (t_params t)) i with Some p => p_default p | None => None end
  end.

(** A reading of the method [m] of the trait as the method [i] of the block *)
Record fits {D} (R : reading D) (t : trait_def) (b : block) (m i : head) : Prop := {
  fits_self : r_self R = means R (b_target b);
  fits_alias : forall l, r_name R (b_self b) l = means R (b_target b);
  fits_params : forall k p e, nth_error (listed (t_params t)) k = Some p -> argument t b k = Some e ->
    r_var R (p_name p) = expr_means R e;
  fits_method : forall k p q, nth_error (h_params m ++ h_hidden m) k = Some p -> nth_error (h_params i ++ h_hidden i) k = Some q ->
    r_var R (p_name p) = r_var R (p_name q);
  fits_assoc : forall x n ps n' ps' l, get x (t_assoc t) = Some (n, ps) -> In (x, (n', ps')) (b_assoc b) ->
    r_name R n l = r_name R n' l }.

(** The same inputs by name and type, and the same output *)
Definition same_signature (t : trait_def) (b : block) (m i : head) : Prop :=
  map fst (h_inputs i) = map fst (h_inputs m) /\
  forall D (R : reading D), fits R t b m i ->
    map (fun a => means R (snd a)) (h_inputs i) = map (fun a => means R (snd a)) (h_inputs m) /\
    means R (output_type i) = means R (output_type m).

Definition follows (t : trait_def) (b : block) : Prop :=
  NoDup (map fst (b_units b)) /\ (forall x, In x (map fst (b_units b)) <-> In x (map fst (t_fns t))) /\
  NoDup (map fst (b_assoc b)) /\ (forall x, In x (map fst (b_assoc b)) <-> In x (map fst (t_assoc t))) /\
  (forall x n ps m qs, In (x, (n, ps)) (b_assoc b) -> get x (t_assoc t) = Some (m, qs) -> List.length ps = List.length qs) /\
  (forall x e i m, In (x, (e, i)) (b_units b) -> get x (t_fns t) = Some m ->
     e = false /\ h_unsafe i = h_unsafe m /\ List.length (h_params i) = List.length (h_params m) /\
     same_signature t b m i).

(** * Where names occur *)
Section Mentions.
  Variables (gs : list generic) (ns : list nat) (self : bool).
  Definition has (g : generic) : bool := existsb (generic_eqb g) gs.
  Fixpoint cg_mentions (c : cg) : bool :=
    match c with
    | CName n => has (Named n)
    | CBin _ a b => cg_mentions a || cg_mentions b
    | CUn _ a => cg_mentions a
    | _ => false
    end.
  (** Whether one of the generics [gs] or of the names [ns] occurs, or, if [self], [Self] *)
  Fixpoint mentions (s : spec) : bool :=
    match s with
    | Declared n es => existsb (Nat.eqb n) ns || any_mentions es
    | Generic g => has g
    | Tuple l => some_mentions l
    | Array s size => mentions s || expr_mentions size
    | Inverted s | CopyView s => mentions s
    | TraitSelf => self
    | Wildcard => false
    end
  with expr_mentions (e : texpr) : bool :=
    match e with ESpec s => mentions s | EConst c => cg_mentions c | _ => false end
  with some_mentions (l : specs) : bool :=
    match l with SNil => false | SCons s l => mentions s || some_mentions l end
  with any_mentions (l : texprs) : bool :=
    match l with XNil => false | XCons e l => expr_mentions e || any_mentions l end.
End Mentions.

(** The names of a trait's method do not occur in the block: identifiers are handed out
    once (C44). *)
Definition trait_generics (t : trait_def) (m : head) : list generic :=
  map p_name (listed (t_params t)) ++ map p_name (h_params m ++ h_hidden m).
Definition trait_names (t : trait_def) (b : block) : list nat := b_self b :: map (fun a => fst (snd a)) (t_assoc t).
Record scoped (t : trait_def) (b : block) (m i : head) : Prop := {
  sc_distinct : NoDup (trait_generics t m);
  sc_assoc : NoDup (map fst (t_assoc t)) /\ NoDup (trait_names t b);
  sc_target : mentions (trait_generics t m) (trait_names t b) true (b_target b) = false;
  sc_args : forall k e, argument t b k = Some e -> expr_mentions (trait_generics t m) [] false e = false;
  sc_method : forall q, In q (h_params i ++ h_hidden i) -> ~ In (p_name q) (trait_generics t m);
  sc_types : forall x n ps, In (x, (n, ps)) (b_assoc b) -> ~ In n (trait_names t b) }.

(** A signature without const generic expressions and without views of parameters *)
Section Simple.
  Variable gs : list generic.
  Fixpoint simple (s : spec) : bool :=
    match s with
    | Declared _ es => simple_exprs es
    | Generic _ | TraitSelf | Wildcard => true
    | Tuple l => simple_specs l
    | Array s size => simple s && simple_expr size
    | Inverted s => simple s
    | CopyView s => simple s && negb (mentions gs [] false s)
    end
  with simple_expr (e : texpr) : bool :=
    match e with ESpec s => simple s | EConst _ => false | _ => true end
  with simple_specs (l : specs) : bool :=
    match l with SNil => true | SCons s l => simple s && simple_specs l end
  with simple_exprs (l : texprs) : bool :=
    match l with XNil => true | XCons e l => simple_expr e && simple_exprs l end.
  (** All generics are among [gs] *)
  Fixpoint closed (s : spec) : bool :=
    match s with
    | Declared _ es => closed_exprs es
    | Generic g => existsb (generic_eqb g) gs
    | TraitSelf | Wildcard => true
    | Tuple l => closed_specs l
    | Array s size => closed s && closed_expr size
    | Inverted s | CopyView s => closed s
    end
  with closed_expr (e : texpr) : bool :=
    match e with ESpec s => closed s | _ => true end
  with closed_specs (l : specs) : bool :=
    match l with SNil => true | SCons s l => closed s && closed_specs l end
  with closed_exprs (l : texprs) : bool :=
    match l with XNil => true | XCons e l => closed_expr e && closed_exprs l end.
End Simple.

(** The types of a head *)
Definition signature (h : head) : list spec := output_type h :: map snd (h_inputs h).
(** A method for which the check is exact: as many [impl Trait] parameters, simple types,
    arguments that are types *)
Record exact (t : trait_def) (b : block) (m i : head) : Prop := {
  ex_scoped : scoped t b m i;
  ex_hidden : List.length (h_hidden i) = List.length (h_hidden m);
  ex_args : forall k e, argument t b k = Some e -> exists s, e = ESpec s /\ simple [] s = true;
  ex_target : simple [] (b_target b) = true;
  ex_trait : forall s, In s (signature m) -> simple (trait_generics t m) s = true /\ closed (trait_generics t m) s = true;
  ex_impl : forall s, In s (signature i) -> simple [] s = true /\ mentions (trait_generics t m) [] false s = false }.
