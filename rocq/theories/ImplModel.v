(** Registration of impl blocks: spade-hir/src/impl_tab.rs and [get_impl_target]
    of spade-ast-lowering/src/impls.rs.

    Names, generics and strings are numbers.  Where clauses and trait bounds are
    not looked at by the code. *)
From Coq Require Import List ZArith Bool Arith.
Import ListNotations.
Local Open Scope list_scope.

(** spade-hir/src/lib.rs:279-289 [TypeExpression], 349-369 [TypeSpec].  The lists
    of the code are written out as [specs] and [texprs]. *)
Inductive spec :=
| Declared (base : nat) (params : texprs)
| Generic (g : nat)
| Tuple (l : specs)
| Array (inner : spec) (size : texpr)
| Inverted (inner : spec)
| CopyView (inner : spec)
| TraitSelf
| Wildcard
with texpr :=
| TBool (b : bool)
| TInteger (z : Z)
| TString (s : nat)
| TSpec (s : spec)
| TConstGeneric (c : nat)
with specs := SNil | SCons (s : spec) (l : specs)
with texprs := TNil | TCons (e : texpr) (l : texprs).

Fixpoint slen (l : specs) : nat := match l with SNil => 0 | SCons _ l => S (slen l) end.
Fixpoint tlen (l : texprs) : nat := match l with TNil => 0 | TCons _ l => S (tlen l) end.

(** [None]: the code reaches [unreachable!].  [Iterator::all] stops at the first
    [false]. *)
Definition and_then (a : option bool) (b : option bool) : option bool :=
  match a with Some true => b | _ => a end.

(** impl_tab.rs:88-139 [type_specs_overlap], 141-158 [type_exprs_overlap]; the
    last two are the [zip(...).all(...)] inside them. *)
Fixpoint specs_overlap (l r : spec) : option bool :=
  match l, r with
  | Generic _, _ => Some true
  | _, Generic _ => Some true
  | Declared lb lp, Declared rb rp => if lb =? rb then all_exprs lp rp else Some false
  | Declared _ _, _ => Some false
  | Tuple li, Tuple ri => if slen li =? slen ri then all_specs li ri else Some false
  | Tuple _, _ => Some false
  | Array li ls, Array ri rs => and_then (specs_overlap li ri) (exprs_overlap ls rs)
  | Array _ _, _ => Some false
  | Inverted li, Inverted ri => specs_overlap li ri
  | Inverted _, _ => Some false
  | CopyView li, CopyView ri => specs_overlap li ri
  | CopyView _, _ => Some false
  | TraitSelf, _ => None
  | Wildcard, _ => None
  end
with exprs_overlap (l r : texpr) : option bool :=
  match l, r with
  | TConstGeneric _, _ | _, TConstGeneric _ => None
  | TSpec ls, TSpec rs => specs_overlap ls rs
  | TSpec _, _ | _, TSpec _ => Some true
  | TInteger a, TInteger b => Some (a =? b)%Z
  | TString a, TString b => Some (a =? b)
  | _, _ => Some false
  end
with all_specs (l r : specs) : option bool :=
  match l, r with
  | SCons a l, SCons b r => and_then (specs_overlap a b) (all_specs l r)
  | _, _ => Some true
  end
with all_exprs (l r : texprs) : option bool :=
  match l, r with
  | TCons a l, TCons b r => and_then (exprs_overlap a b) (all_exprs l r)
  | _, _ => Some true
  end.

(** spade-hir/src/lib.rs:1123-1129 [ImplTarget], 969-975 [TraitName]. *)
Inductive impl_target := ITArray | ITInverted | ITCopyView | ITTuple | ITNamed (n : nat).
Inductive trait_name := TrNamed (n : nat) | TrAnonymous (impl : nat).

Definition target_eqb (a b : impl_target) : bool :=
  match a, b with
  | ITArray, ITArray | ITInverted, ITInverted | ITCopyView, ITCopyView | ITTuple, ITTuple => true
  | ITNamed n, ITNamed m => n =? m
  | _, _ => false
  end.
Definition trait_eqb (a b : trait_name) : bool :=
  match a, b with
  | TrNamed n, TrNamed m | TrAnonymous n, TrAnonymous m => n =? m
  | _, _ => false
  end.

(** impl_tab.rs:11-17: the table.  The nested maps are a list of entries with
    their keys. *)
Record entry := { en_target : impl_target; en_trait : trait_name; en_args : texprs; en_trait_args : texprs }.
Definition impl_tab := list entry.

(** impl_tab.rs:41-64: does an entry stand in the way?  [Some false]: no. *)
Definition conflicts (target : impl_target) (tr : trait_name) (args trait_args : texprs) (en : entry) : option bool :=
  if target_eqb (en_target en) target && trait_eqb (en_trait en) tr then
    and_then (if tlen (en_args en) =? tlen args then all_exprs (en_args en) args else Some false)
             (all_exprs (en_trait_args en) trait_args)
  else Some false.

(** impl_tab.rs:26-85 [ImplTab::insert].  [None]: refused or unreachable. *)
Definition insert (tab : impl_tab) (target : impl_target) (tr : trait_name) (args trait_args : texprs) : option impl_tab :=
  if forallb (fun en => match conflicts target tr args trait_args en with Some false => true | _ => false end) tab
  then Some (tab ++ [{| en_target := target; en_trait := tr; en_args := args; en_trait_args := trait_args |}])
  else None.

(** spade-ast-lowering/src/impls.rs:319-383 [get_impl_target]; [None]: a
    diagnostic. *)
Fixpoint spec_args (l : specs) : texprs :=
  match l with SNil => TNil | SCons s l => TCons (TSpec s) (spec_args l) end.
Definition get_impl_target (s : spec) : option (impl_target * texprs) :=
  match s with
  | Array inner size => Some (ITArray, TCons (TSpec inner) (TCons size TNil))
  | Declared n args => Some (ITNamed n, args)
  | Inverted inner => Some (ITInverted, TCons (TSpec inner) TNil)
  | CopyView inner => Some (ITCopyView, TCons (TSpec inner) TNil)
  | Tuple l => Some (ITTuple, spec_args l)
  | Generic _ | TraitSelf | Wildcard => None
  end.

(** An impl block: [impl Trait<args> for target]. *)
Record impl := { im_trait : trait_name; im_trait_args : texprs; im_target : spec }.

(** impls.rs:78, 233-245: the blocks are visited in order. *)
Fixpoint register (tab : impl_tab) (l : list impl) : option impl_tab :=
  match l with
  | [] => Some tab
  | im :: l =>
      match get_impl_target (im_target im) with
      | Some (target, args) =>
          match insert tab target (im_trait im) args (im_trait_args im) with
          | Some tab => register tab l
          | None => None
          end
      | None => None
      end
  end.
