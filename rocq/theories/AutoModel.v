(** The traits [Copy] and [Data], which the compiler implements by itself:
    spade-ast-lowering/src/auto_traits.rs, spade-hir/src/auto_traits.rs and
    spade-compiler/core/marker.spade; and how a type is found to implement them,
    spade-typeinference/src/lib.rs:3484-3640 [ensure_impls].

    Names of types are numbers, written types are [TypingModel.tspec] and types are
    [InferSpec.ty].  A place in the text is stood for by what is written there.  Left out:
    the documentation, attributes and names of members, the names given to type
    parameters. *)
From Coq Require Import List Arith Bool.
From Verif Require Import InferModel InferSpec TypingModel.
Import ListNotations.

(** spade-hir/src/symbol_table.rs:515-518 [LangItem] *)
Inductive auto := Copy | Data.
(** spade-types/src/lib.rs [PrimitiveType] *)
Inductive primitive := PInt | PUint | PBool | PClock | PTri | PMemory | PInOut.
(** spade-hir/src/lib.rs [TypeDeclKind]: what the members of a struct or the members of
    the variants of an enum are, or what an alias stands for *)
Inductive body := BPrimitive (p : primitive) | BStruct (l : list tspec) | BEnum (vs : list (list tspec)) | BAlias (s : tspec).
(** spade-hir/src/lib.rs [TypeDeclaration]: the kinds of the type parameters, and the body *)
Record tdecl := { args : list meta; kind : body }.
(** [item_list.types] *)
Definition items : Type := list (nat * tdecl).
Definition lookup_type (g : items) (d : nat) : option tdecl := option_map snd (List.find (fun e => fst e =? d) g).

(** spade-hir/src/auto_traits.rs:5-41 [CopyWitness], [DataWitness]: the place [loc] leads
    to, something written with [inv] or a built-in type.  [Stuck]: no end within the fuel,
    or one of the [unreachable!] of auto_traits.rs. *)
Inductive wit := HereInv (s : tspec) | HereDecl (d : nat).
Inductive found := Clean | Found (w : wit) | Stuck.

(** auto_traits.rs:143-154 and 191-200 *)
Definition prim_fails (tr : auto) (p : primitive) : bool :=
  match tr, p with
  | _, (PInt | PUint | PBool) => false
  | Copy, (PClock | PTri) => false
  | Copy, (PMemory | PInOut) => true
  | Data, (PClock | PTri | PMemory | PInOut) => true
  end.

(** [Iterator::find_map] *)
Definition first {A} (f : A -> found) : list A -> found :=
  fix go l := match l with [] => Clean | x :: l => match f x with Clean => go l | r => r end end.

Section Witness.
(** the answer for a declaration *)
Variable decl : nat -> found.
(** auto_traits.rs:23-135 [get_copy_witness] and [get_data_witness] of a [TypeExpression]
    and a [TypeSpec] *)
Fixpoint spec_wit (s : tspec) : found :=
  match s with
  | TSInt _ | TSBool _ | TSStr _ | TSConst _ => Clean
  | TSTuple l => first spec_wit l
  | TSArray a _ => spec_wit a
  | TSNamed d l => match decl d with Clean => first spec_wit l | r => r end
  | TSGeneric _ => Clean
  | TSInverted _ => Found (HereInv s)
  | TSCopyView _ => Clean
  | TSWildcard => Stuck
  end.
End Witness.
(** auto_traits.rs:137-226, of a [TypeDeclaration] *)
Fixpoint decl_wit (fuel : nat) (tr : auto) (g : items) (d : nat) : found :=
  match fuel with
  | 0 => Stuck
  | S fuel =>
      match lookup_type g d with
      | None => Stuck
      | Some t =>
          match kind t with
          | BEnum _ => Clean
          | BPrimitive p => if prim_fails tr p then Found (HereDecl d) else Clean
          | BStruct l => first (spec_wit (decl_wit fuel tr g)) l
          | BAlias s => spec_wit (decl_wit fuel tr g) s
          end
      end
  end.

(** auto_traits.rs:228-256 [enforce_enum_data]: the errors, as the enum and the place that
    is not data *)
Definition enum_errors (fuel : nat) (g : items) : list (nat * found) :=
  flat_map (fun e =>
    match kind (snd e) with
    | BEnum vs =>
        flat_map (fun s => match spec_wit (decl_wit fuel Data g) s with Clean => [] | r => [(fst e, r)] end) (concat vs)
    | _ => []
    end) g.

(** spade-hir/src/lib.rs [ImplBlock], of a named type: which trait, which type, and
    whether each type parameter has the trait as its bound *)
Definition impl : Type := auto * nat * list bool.
(** auto_traits.rs:258-337 [impl_auto_trait] *)
Definition impl_auto_trait (fuel : nat) (tr : auto) (g : items) : list impl :=
  flat_map (fun e =>
    match decl_wit fuel tr g (fst e) with
    | Clean => [(tr, fst e, map (fun m => match m with MType => true | _ => false end) (args (snd e)))]
    | _ => []
    end) g.
(** auto_traits.rs:340-357 [impl_auto_traits], after the impls written in the program *)
Definition all_impls (fuel : nat) (g : items) (written : list impl) : list impl :=
  written ++ impl_auto_trait fuel Copy g ++ impl_auto_trait fuel Data g.

Definition auto_eqb (a b : auto) : bool := match a, b with Copy, Copy | Data, Data => true | _, _ => false end.
(** lib.rs:3546-3640 [ensure_impls], for these two traits and a type without unknown
    parts: the first impl that fits; that there is only one is C58's matter.  A parameter
    is unified with the impl's, which has the trait as a bound or none; that their kinds
    agree is C31's.  Tuples and arrays have the impls of marker.spade:8-18 and 31-41; there
    are none for [inv] and [&]. *)
Fixpoint implements (is : list impl) (tr : auto) (t : ty) : bool :=
  let fits := fix go (bs : list bool) (l : list ty) {struct l} : bool :=
    match bs, l with
    | [], [] => true
    | b :: bs, t :: l => (negb b || implements is tr t) && go bs l
    | _, _ => false
    end in
  match t with
  | TK (BNamed d) l => existsb (fun i => let '(a, x, bs) := i in auto_eqb a tr && (x =? d) && fits bs l) is
  | TK BTuple l => (length l <=? 8) && forallb (implements is tr) l
  | TK BArray [a; _] => implements is tr a
  | _ => false
  end.
