(** What supertraits mean (C59). *)
From Coq Require Import ZArith List Bool Arith.
From Verif Require Import ConformModel ConformSpec SuperModel.
Import ListNotations.

(** [x] is written as a supertrait of [p]. *)
Definition super_of (g : traits_) (p x : nat) : Prop := exists t s, In (p, t) g /\ In s (tr_supers t) /\ ts_name s = x.
(** By any number of steps, at least one *)
Inductive leads (g : traits_) : nat -> nat -> Prop :=
| L_one p x : super_of g p x -> leads g p x
| L_more p q x : super_of g p q -> leads g q x -> leads g p x.
(** [x] is a supertrait of [a], which is one of [b], and so on *)
Fixpoint chain (g : traits_) (x : nat) (l : list nat) : Prop :=
  match l with
  | [] => True
  | y :: l => super_of g y x /\ chain g y l
  end.

(** What a bound [traits] on a type (which stands for [self]) asks for: trait [n] with
    arguments that stand for [ds].  A supertrait is read with the parameters of its trait
    standing for the arguments and [Self] for the type. *)
Section Required.
  Context {D : Type} (R : reading D) (self : D) (g : traits_) (traits : list tspec).
  Fixpoint nth_var (gs : list generic) (ds : list D) (x : generic) (otherwise : D) : D :=
    match gs, ds with
    | h :: gs, d :: ds => if generic_eqb h x then d else nth_var gs ds x otherwise
    | _, _ => otherwise
    end.
  Definition inside (ps : list generic) (ds : list D) : reading D :=
    {| r_name := r_name R; r_var := fun x => nth_var ps ds x (r_var R x); r_tuple := r_tuple R; r_array := r_array R;
       r_inv := r_inv R; r_view := r_view R; r_self := self; r_wild := r_wild R; r_bool := r_bool R; r_int := r_int R;
       r_str := r_str R; r_bin := r_bin R; r_un := r_un R |}.
  Inductive required : nat -> list D -> Prop :=
  | Q_here s : In s traits -> required (ts_name s) (all_mean R (args_of s))
  | Q_super n ds t s : required n ds -> In (n, t) g -> In s (tr_supers t) ->
      required (ts_name s) (all_mean (inside (tr_params t) ds) (args_of s)).
End Required.

(** All generics in the arguments of a bound are among [gs], and, unless [self], [Self] does
    not occur. *)
Section Scope.
  Variables (gs : list generic) (self : bool).
  Definition has_g (x : generic) : bool := existsb (generic_eqb x) gs.
  Fixpoint cg_scope (c : cg) : bool :=
    match c with
    | CName n => has_g (Named n)
    | CBin _ a b => cg_scope a && cg_scope b
    | CUn _ a => cg_scope a
    | _ => true
    end.
  Fixpoint spec_scope (s : spec) : bool :=
    match s with
    | Declared _ es => exprs_scope es
    | Generic x => has_g x
    | Tuple l => specs_scope l
    | Array s size => spec_scope s && expr_scope size
    | Inverted s | CopyView s => spec_scope s
    | TraitSelf => self
    | Wildcard => true
    end
  with expr_scope (e : texpr) : bool :=
    match e with ESpec s => spec_scope s | EConst c => cg_scope c | _ => true end
  with specs_scope (l : specs) : bool :=
    match l with SNil => true | SCons s l => spec_scope s && specs_scope l end
  with exprs_scope (l : texprs) : bool :=
    match l with XNil => true | XCons e l => expr_scope e && exprs_scope l end.
End Scope.

(** Every trait named is declared, with the names in scope. *)
Definition known (g : traits_) (s : tspec) : Prop := exists t, In (ts_name s, t) g.
Record scoped_traits (g : traits_) : Prop := {
  sg_names : NoDup (map fst g);
  sg_known : forall n t s, In (n, t) g -> In s (tr_supers t) -> known g s;
  sg_scope : forall n t s, In (n, t) g -> In s (tr_supers t) -> exprs_scope (tr_params t) true (args_of s) = true }.
(** No supertrait is given a parameter of its trait, or [Self], as an argument. *)
Definition plain_supers (g : traits_) : Prop :=
  forall n t s, In (n, t) g -> In s (tr_supers t) -> exprs_scope [] false (args_of s) = true.
