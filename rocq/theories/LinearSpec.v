(** Wires and their uses (C40). *)
From Coq Require Import List ZArith Bool Arith String.
From Verif Require Import ConcModel LinearModel.
Import ListNotations.
Local Open Scope list_scope.

(** [wire t q]: a value of type [t] has an inverted or inout wire at [q]. *)
Fixpoint field_ty (l : list (string * cty)) (f : string) : option cty :=
  match l with [] => None | (g, t) :: l => if String.eqb g f then Some t else field_ty l f end.
Inductive wire : cty -> path -> Prop :=
| WInverted t : wire (CBackward t) []
| WInOut t : wire (CInOut t) []
| WTuple l i t q : nth_error l i = Some t -> wire t q -> wire (CTuple l) (SIdx i :: q)
| WStruct l f t q : field_ty l f = Some t -> wire t q -> wire (CStruct l) (SField f :: q)
| WArray t n i q : i < n -> wire t q -> wire (CArray t n) (SIdx i :: q).

(** What an expression stands for: a part of a named value, or of a value an
    expression makes. *)
Definition place := (ref * path)%type.

(** An element of an array of wires, with a constant index. *)
Definition is_element (a i : expr) : option nat :=
  if is_linear (ty_of a) then
    match kind_of i with KInt z => Some (Z.to_nat z) | _ => None end
  else None.
Definition extend (p : place) (s : step) : place := (fst p, snd p ++ [s]).
Fixpoint place_of (e : expr) : place :=
  match e with
  | E id _ k =>
      match k with
      | KName n | KPipeRef n _ _ => (RName n, [])
      | KProj a s => extend (place_of a) s
      | KIndex a i => match is_element a i with Some n => extend (place_of a) (SIdx n) | None => (RAnon id, []) end
      | _ => (RAnon id, [])
      end
  end.

(** The values that are created, with their types: every bound name, and every
    expression that is not a part of another value. *)
Fixpoint created_pat (p : pat) : list (ref * cty) :=
  match p with
  | PLit => []
  | PBound _ ty n inner pre => (if pre then [] else [(RName n, ty)]) ++ created_pats inner
  | PList l => created_pats l
  end
with created_pats (l : pats) : list (ref * cty) :=
  match l with PNil => [] | PCons p l => created_pat p ++ created_pats l end.

Definition named (l : list (nat * cty)) : list (ref * cty) := map (fun p => (RName (fst p), snd p)) l.

Fixpoint created (e : expr) : list (ref * cty) :=
  match e with
  | E id ty k =>
      match k with
      | KName _ => []
      | KInt _ | KLit => [(RAnon id, ty)]
      | KSeq l => (RAnon id, ty) :: created_l l
      | KRepeat a _ | KRange a | KCast a | KUnary a | KRef a => (RAnon id, ty) :: created a
      | KIndex a i =>
          match is_element a i with Some _ => [] | None => [(RAnon id, ty)] end ++ created a ++ created i
      | KProj a _ => created a
      | KBinary a b => (RAnon id, ty) :: created a ++ created b
      | KMatch c l => (RAnon id, ty) :: created c ++ created_arms l
      | KBlock l r => (RAnon id, ty) :: created_stmts l ++ created_l r
      | KCall _ args => (RAnon id, ty) :: created_l args
      | KIf c t f => (RAnon id, ty) :: created c ++ created t ++ created f
      | KPipeRef n tn declares => if declares then [(RName n, tn)] else []
      end
  end
with created_l (l : exprs) : list (ref * cty) :=
  match l with ENil => [] | ECons e l => created e ++ created_l l end
with created_arms (l : arms) : list (ref * cty) :=
  match l with ANil => [] | ACons p g e l => created_pat p ++ created_l g ++ created e ++ created_arms l end
with created_stmts (l : stmts) : list (ref * cty) :=
  match l with
  | SNil => []
  | SBind p e l => created e ++ created_pat p ++ created_stmts l
  | SExpr e l | SCond e l => created e ++ created_stmts l
  | SReg p clk reset initial value l =>
      created_pat p ++ created clk ++ created_l reset ++ created_l initial ++ created value ++ created_stmts l
  | SDecl names l => named names ++ created_stmts l
  | SSkip l => created_stmts l
  | SSet t v l => created t ++ created v ++ created_stmts l
  end.
Definition created_unit (u : unit_) : list (ref * cty) := named (u_inputs u) ++ created (u_body u).

(** The uses: an operand is used by what it becomes a part of, is passed to, is
    bound to, is selected by or set with.  Taking a part, `&`, and
    `read_mut_wire` do not use it; an expression standing alone as a statement is
    not used. *)
Fixpoint uses (e : expr) : list place :=
  match e with
  | E _ _ k =>
      match k with
      | KName _ | KInt _ | KLit | KPipeRef _ _ _ => []
      | KSeq l => uses_l l
      | KRepeat a n => uses a ++ repeat (place_of a) n
      | KIndex a i =>
          uses a ++ uses i ++ match is_element a i with Some _ => [] | None => [place_of a] end ++ [place_of i]
      | KRange a | KCast a | KUnary a => uses a ++ [place_of a]
      | KProj a _ | KRef a => uses a
      | KBinary a b => uses a ++ uses b ++ [place_of a; place_of b]
      | KMatch c l => uses c ++ [place_of c] ++ uses_arms l
      | KBlock l r => uses_stmts l ++ uses_l r
      | KCall reads args => if reads then only_inside args else uses_l args
      | KIf c t f => uses c ++ uses t ++ uses f ++ [place_of c; place_of t; place_of f]
      end
  end
with uses_l (l : exprs) : list place :=
  match l with ENil => [] | ECons e l => uses e ++ [place_of e] ++ uses_l l end
with only_inside (l : exprs) : list place :=
  match l with ENil => [] | ECons e l => uses e ++ only_inside l end
with uses_arms (l : arms) : list place :=
  match l with ANil => [] | ACons _ g e l => uses_l g ++ uses e ++ [place_of e] ++ uses_arms l end
with uses_stmts (l : stmts) : list place :=
  match l with
  | SNil => []
  | SBind _ e l => uses e ++ [place_of e] ++ uses_stmts l
  | SExpr e l => uses e ++ uses_stmts l
  | SReg _ clk reset initial value l =>
      uses clk ++ [place_of clk] ++ uses_l reset ++ uses_l initial ++ uses value ++ [place_of value] ++ uses_stmts l
  | SDecl _ l | SSkip l => uses_stmts l
  | SCond e l => uses e ++ [place_of e] ++ uses_stmts l
  | SSet t v l => uses t ++ uses v ++ [place_of t; place_of v] ++ uses_stmts l
  end.
(** The body's value is the unit's output. *)
Definition uses_unit (u : unit_) : list place := uses (u_body u) ++ [place_of (u_body u)].

(** How often the wire at [q] of the value [r] is used. *)
Fixpoint is_prefix (a b : path) : bool :=
  match a, b with
  | [], _ => true
  | s :: a, t :: b => step_eqb s t && is_prefix a b
  | _, _ => false
  end.
Definition use_count (us : list place) (r : ref) (q : path) : nat :=
  List.length (filter (fun u => ref_eqb (fst u) r && is_prefix (snd u) q) us).

(** Every reference a unit introduces: expressions and patterns have ids of their
    own and a name is bound once. *)
Fixpoint ids_pat (p : pat) : list ref :=
  match p with
  | PLit => []
  | PBound id _ n inner pre => RAnon id :: (if pre then [] else [RName n]) ++ ids_pats inner
  | PList l => ids_pats l
  end
with ids_pats (l : pats) : list ref :=
  match l with PNil => [] | PCons p l => ids_pat p ++ ids_pats l end.
Definition names_of (l : list (nat * cty)) : list ref := map (fun p => RName (fst p)) l.
Fixpoint ids (e : expr) : list ref :=
  match e with
  | E id _ k =>
      RAnon id ::
      match k with
      | KName _ | KInt _ | KLit => []
      | KSeq l => ids_l l
      | KRepeat a _ | KRange a | KCast a | KUnary a | KRef a | KProj a _ => ids a
      | KIndex a b | KBinary a b => ids a ++ ids b
      | KMatch c l => ids c ++ ids_arms l
      | KBlock l r => ids_stmts l ++ ids_l r
      | KCall _ args => ids_l args
      | KIf c t f => ids c ++ ids t ++ ids f
      | KPipeRef n _ declares => if declares then [RName n] else []
      end
  end
with ids_l (l : exprs) : list ref := match l with ENil => [] | ECons e l => ids e ++ ids_l l end
with ids_arms (l : arms) : list ref :=
  match l with ANil => [] | ACons p g e l => ids_pat p ++ ids_l g ++ ids e ++ ids_arms l end
with ids_stmts (l : stmts) : list ref :=
  match l with
  | SNil => []
  | SBind p e l => ids e ++ ids_pat p ++ ids_stmts l
  | SExpr e l | SCond e l => ids e ++ ids_stmts l
  | SReg p clk reset initial value l =>
      ids_pat p ++ ids clk ++ ids_l reset ++ ids_l initial ++ ids value ++ ids_stmts l
  | SDecl names l => names_of names ++ ids_stmts l
  | SSkip l => ids_stmts l
  | SSet t v l => ids t ++ ids v ++ ids_stmts l
  end.
Definition distinct_ids (u : unit_) : Prop := NoDup (names_of (u_inputs u) ++ ids (u_body u)).

(** The types fit: a name has the type it was bound with, and a part the type of
    the part.  A part of a view is a view, or a value without wires. *)
Inductive part : cty -> step -> cty -> Prop :=
| PartTuple l i t : nth_error l i = Some t -> part (CTuple l) (SIdx i) t
| PartStruct l f t : field_ty l f = Some t -> part (CStruct l) (SField f) t
| PartArray t n i : i < n -> part (CArray t n) (SIdx i) t
| PartView t s t' : s <> SView -> is_linear t' = false -> part (CCopyView t) s t'.

(** [simple]: fitting types, and none of the operands that are not followed by the
    check is a wire: the value matched on and the values of the arms, the
    condition and the branches of an `if`, the operand of a cast, the clock, reset
    and initial value of a register, and a pattern `x @ p`. *)
Fixpoint flat_pats (l : pats) : Prop :=
  match l with PNil => True | PCons p l => flat_pat p /\ flat_pats l end
with flat_pat (p : pat) : Prop :=
  match p with
  | PLit => True
  | PBound _ ty _ inner _ => is_linear ty = false /\ flat_pats inner
  | PList l => flat_pats l
  end.
Fixpoint simple_pat (G : list (ref * cty)) (p : pat) : Prop :=
  match p with
  | PLit => True
  | PBound _ ty n inner _ => In (RName n, ty) G /\ simple_pats G inner
      /\ match inner with PNil => True | _ => is_linear ty = false /\ flat_pats inner end
  | PList l => simple_pats G l
  end
with simple_pats (G : list (ref * cty)) (l : pats) : Prop :=
  match l with PNil => True | PCons p l => simple_pat G p /\ simple_pats G l end.

Definition no_wire (e : expr) : Prop := is_linear (ty_of e) = false.
Fixpoint no_wires (l : exprs) : Prop := match l with ENil => True | ECons e l => no_wire e /\ no_wires l end.
Fixpoint simple (G : list (ref * cty)) (e : expr) : Prop :=
  match e with
  | E id ty k =>
      match k with
      | KName n => In (RName n, ty) G
      | KInt _ | KLit => True
      | KSeq l => simple_l G l
      | KRepeat a _ | KRange a | KUnary a | KRef a => simple G a
      | KCast a => simple G a /\ no_wire a
      | KIndex a i => simple G a /\ simple G i
          /\ match is_element a i with Some n => part (ty_of a) (SIdx n) ty | None => True end
      | KProj a s => simple G a /\ part (ty_of a) s ty
      | KBinary a b => simple G a /\ simple G b
      | KMatch c l => simple G c /\ no_wire c /\ simple_arms G l
      | KBlock l r => simple_stmts G l /\ simple_l G r
      | KCall _ args => simple_l G args
      | KIf c t f => simple G c /\ simple G t /\ simple G f /\ no_wire c /\ no_wire t /\ no_wire f
      | KPipeRef n _ _ => In (RName n, ty) G
      end
  end
with simple_l (G : list (ref * cty)) (l : exprs) : Prop :=
  match l with ENil => True | ECons e l => simple G e /\ simple_l G l end
with simple_arms (G : list (ref * cty)) (l : arms) : Prop :=
  match l with
  | ANil => True
  | ACons p g e l => simple_pat G p /\ simple_l G g /\ no_wires g /\ simple G e /\ no_wire e /\ simple_arms G l
  end
with simple_stmts (G : list (ref * cty)) (l : stmts) : Prop :=
  match l with
  | SNil => True
  | SBind p e l => simple_pat G p /\ simple G e /\ simple_stmts G l
  | SExpr e l => simple G e /\ simple_stmts G l
  | SReg p clk reset initial value l =>
      simple_pat G p /\ simple G clk /\ no_wire clk /\ simple_l G reset /\ no_wires reset
      /\ simple_l G initial /\ no_wires initial /\ simple G value /\ simple_stmts G l
  | SDecl _ l | SSkip l => simple_stmts G l
  | SCond e l => simple G e /\ no_wire e /\ simple_stmts G l
  | SSet t v l => simple G t /\ simple G v /\ simple_stmts G l
  end.
Definition simple_unit (u : unit_) : Prop := simple (created_unit u) (u_body u).
