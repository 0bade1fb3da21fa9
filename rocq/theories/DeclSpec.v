(** What it means that types are finite (C55). *)
From Coq Require Import List Arith ZArith Bool.
From Verif Require Import InferModel InferSpec TypingModel DeclModel ElabModel.
Import ListNotations.

(** A name occurs in a written type. *)
Inductive occurs (x : nat) : tspec -> Prop :=
| O_here l : occurs x (TSNamed x l)
| O_named n l s : In s l -> occurs x s -> occurs x (TSNamed n l)
| O_tuple l s : In s l -> occurs x s -> occurs x (TSTuple l)
| O_element a b : occurs x a -> occurs x (TSArray a b)
| O_size a b : occurs x b -> occurs x (TSArray a b)
| O_inverted a : occurs x a -> occurs x (TSInverted a)
| O_view a : occurs x a -> occurs x (TSCopyView a).

(** The declaration of [p] mentions [x]. *)
Definition mentions (g : types_) (p x : nat) : Prop := exists l s, In (p, l) g /\ In s l /\ occurs x s.
(** By way of any number of declarations, at least one *)
Inductive leads (g : types_) : nat -> nat -> Prop :=
| L_one p x : mentions g p x -> leads g p x
| L_more p q x : mentions g p q -> leads g q x -> leads g p x.
(** [x] is mentioned by [a], which is mentioned by [b], and so on *)
Fixpoint chain (g : types_) (x : nat) (l : list nat) : Prop :=
  match l with
  | [] => True
  | y :: l => mentions g y x /\ chain g y l
  end.

(** The declarations as lowering sees them ([ElabModel]) are the accepted ones. *)
Definition parts (b : decl) : list tspec :=
  match b with
  | DPrim _ => []
  | DStruct l => map snd l
  | DEnum l => concat l
  end.
Definition listed (g : types_) (decls : nat -> option (nat * decl)) : Prop :=
  forall d k b, decls d = Some (k, b) -> In (d, parts b) g.
(** Spelling out a type comes to an end: a fixed depth is enough. *)
Definition spelled_out (decls : nat -> option (nat * decl)) (t : ty) : Prop :=
  exists depth, forall fuel, depth <= fuel -> conc_of decls fuel t = conc_of decls depth t.
(** Declarations the compiler has accepted, one after the other, each of another name;
    it may have refused others, and may take pending names in any order. *)
Definition accepted (g : types_) : Prop := exists fuel order ds, NoDup (map fst ds) /\ declare_all fuel order ds [] = Some g.
