(** From the types the checker found to the concrete types lowering works with, and
    what lowering sees of a unit: spade-typeinference/src/mir_type_lowering.rs,
    spade-hir-lowering/src/passes/lower_type_level_if.rs and the calls of
    [concrete_type_of] in spade-hir-lowering/src/lib.rs.

    [None] is a diagnostic or a panic.  Left out: aliases, [Tri], memories, [inout],
    inverted types ([resolve_recursive_inversions] changes no other type), copy views,
    initial values of registers, [set], and generic units: every unit has been
    monomorphised. *)
From Coq Require Import List ZArith Bool Arith String.
From Verif Require Import InferModel InferSpec TypingModel.
From Verif Require PatModel LowerModel ExprModel.
Import ListNotations.
Local Open Scope list_scope.
Notation cty := PatModel.cty.

(** spade-types/src/lib.rs:38-62 [ConcreteType] with its type-level values *)
Inductive conc := CT (t : cty) | CN (z : Z) | CB (b : bool) | CS (s : list nat).
(** spade-types/src/lib.rs [PrimitiveType]; spade-hir/src/lib.rs [TypeDeclKind],
    [TypeDeclaration] with the number of its type parameters *)
Inductive prim := Signed | Unsigned | Boolean | Clock.
Inductive decl := DPrim (p : prim) | DStruct (l : struct_) | DEnum (l : list (list tspec)).

Definition all {A B} (f : A -> option B) : list A -> option (list B) :=
  fix go l := match l with
              | [] => Some []
              | a :: r => match f a, go r with Some b, Some q => Some (b :: q) | _, _ => None end
              end.
Definition as_type (c : option conc) : option cty := match c with Some (CT t) => Some t | _ => None end.
Definition as_size (c : option conc) : option nat :=
  match c with Some (CN z) => if (0 <=? z)%Z then Some (Z.to_nat z) else None | _ => None end.

Section Types.
Variable decls : nat -> option (nat * decl).

(** spade-hir-lowering/src/lib.rs:231-318: what primitive types become *)
Definition prim_conc (p : prim) (ps : list conc) : option cty :=
  match p, ps with
  | Signed, [n] => option_map PatModel.CInt (as_size (Some n))
  | Unsigned, [n] => option_map PatModel.CUint (as_size (Some n))
  | (Boolean | Clock), [] => Some PatModel.CBool
  | _, _ => None
  end.
(** mir_type_lowering.rs:81-160 [type_decl_to_concrete] *)
Definition decl_conc (spec : list conc -> tspec -> option conc) (d : nat) (ps : list conc) : option cty :=
  match decls d with
  | None => None
  | Some (k, body) =>
      if List.length ps =? k then
        match body with
        | DPrim p => prim_conc p ps
        | DStruct ms => option_map PatModel.CStruct (all (fun m => as_type (spec ps (snd m))) ms)
        | DEnum os => option_map PatModel.CEnum (all (all (fun s => as_type (spec ps s))) os)
        end
      else None
  end.
(** mir_type_lowering.rs:162-262 [type_spec_to_concrete], [type_expr_to_concrete];
    [fuel] is more than how deep type declarations nest, which is finite (they may not
    contain themselves) *)
Fixpoint spec_conc (fuel : nat) (ps : list conc) (s : tspec) : option conc :=
  match fuel with
  | 0 => None
  | S fuel =>
      match s with
      | TSInt z => Some (CN z)
      | TSBool b => Some (CB b)
      | TSStr s => Some (CS s)
      | TSGeneric k => nth_error ps k
      | TSNamed d l =>
          match all (spec_conc fuel ps) l with
          | Some qs => option_map CT (decl_conc (spec_conc fuel) d qs)
          | None => None
          end
      | TSTuple l => option_map (fun q => CT (PatModel.CTuple q)) (all (fun s => as_type (spec_conc fuel ps s)) l)
      | TSArray a n =>
          match as_type (spec_conc fuel ps a), as_size (spec_conc fuel ps n) with
          | Some t, Some k => Some (CT (PatModel.CArray t k))
          | _, _ => None
          end
      | TSConst _ | TSWildcard | TSInverted _ | TSCopyView _ => None
      end
  end.
(** mir_type_lowering.rs:264-355 [inner_ungenerify_type], on the type a variable
    stands for *)
Fixpoint conc_of (fuel : nat) (t : ty) : option conc :=
  match fuel with
  | 0 => None
  | S fuel =>
      match t with
      | TK (BInt z) _ => Some (CN z)
      | TK (BBool b) _ => Some (CB b)
      | TK (BStr s) _ => Some (CS s)
      | TK (BNamed d) l =>
          match all (conc_of fuel) l with
          | Some qs => option_map CT (decl_conc (spec_conc fuel) d qs)
          | None => None
          end
      | TK BTuple l => option_map (fun q => CT (PatModel.CTuple q)) (all (fun s => as_type (conc_of fuel s)) l)
      | TK BArray [a; n] =>
          match as_type (conc_of fuel a), as_size (conc_of fuel n) with
          | Some t, Some k => Some (CT (PatModel.CArray t k))
          | _, _ => None
          end
      | _ => None
      end
  end.

Section Unit.
Variable fuel : nat.
(** names of struct members; what a call or constructor pattern refers to *)
Variable member_name : nat -> string.
Variable callee_of : nat -> option ExprModel.callee.
(** the types recorded and those of the unit's type parameters *)
Variable ty_of : key -> option ty.
Variable gs : list ty.

(** mir_type_lowering.rs:375-397 [concrete_type_of] *)
Definition type_at (k : key) : option cty := match ty_of k with Some t => as_type (conc_of fuel t) | None => None end.
(** spade-hir-lowering/src/const_generic.rs:10-40 [resolve_int] *)
Definition size_at (c : const) : option nat :=
  match ty_of (KId (fst c)) with Some t => as_size (conc_of fuel t) | None => None end.
Definition optional {A B} (f : A -> option B) (o : option A) : option (option B) :=
  match o with Some a => option_map Some (f a) | None => Some None end.

Fixpoint elab_pat (p : hpat) : option LowerModel.lpat :=
  let '(HP id k) := p in
  match type_at (KId id) with
  | None => None
  | Some t =>
      option_map (LowerModel.LPat id t)
      match k with
      | PInt z => Some (LowerModel.KInteger z)
      | PBool b => Some (LowerModel.KBoolean b)
      | PBound x _ None => Some (LowerModel.KBound x None)
      | PBound x _ (Some q) => option_map (fun q => LowerModel.KBound x (Some q)) (elab_pat q)
      | PTuple l => option_map LowerModel.KTuple (all elab_pat l)
      | PArray l => option_map LowerModel.KArray (all elab_pat l)
      | PType name l =>
          match callee_of name, all elab_pat l with
          | Some ExprModel.CStructInst, Some q => Some (LowerModel.KStruct q)
          | Some (ExprModel.CVariant v), Some q => Some (LowerModel.KVariant v q)
          | _, _ => None
          end
      end
  end.

Definition two {A B C} (f : A -> B -> C) (a : option A) (b : option B) : option C :=
  match a, b with Some a, Some b => Some (f a b) | _, _ => None end.
Definition three {A B C D} (f : A -> B -> C -> D) (a : option A) (b : option B) (c : option C) : option D :=
  match a, b, c with Some a, Some b, Some c => Some (f a b c) | _, _, _ => None end.

Fixpoint elab (e : hx) : option ExprModel.expr :=
  let '(HX id k) := e in
  let opt_ (o : option hx) : option (option ExprModel.expr) :=
    match o with Some a => option_map Some (elab a) | None => Some None end in
  match k with
  (* lower_type_level_if.rs:20-52, without its restriction on where [gen if] may be *)
  | HGenIf c a b =>
      match ty_of (KId (fst c)) with
      | Some (TK (BBool v) _) => if v then elab a else elab b
      | _ => None
      end
  | _ =>
  match type_at (KId id) with
  | None => None
  | Some t =>
      option_map (ExprModel.Ex id t)
      match k with
      | HName x => Some (ExprModel.XName x)
      | HInt z _ => Some (ExprModel.XInt z)
      | HBool b => Some (ExprModel.XBool b)
      | HTypeInt g => match nth_error gs g with Some (TK (BInt z) _) => Some (ExprModel.XInt z) | _ => None end
      | HTuple l => option_map ExprModel.XTuple (all elab l)
      | HTupleIndex a i => option_map (fun a => ExprModel.XTupleIndex a i) (elab a)
      | HField a f =>
          match ty_of (KId (hid a)) with
          | Some (TK (BNamed d) _) =>
              match decls d, elab a with
              | Some (_, DStruct ms), Some a =>
                  Some (ExprModel.XField a (map (fun m => member_name (fst m)) ms) (member_name f))
              | _, _ => None
              end
          | _ => None
          end
      | HCast a _ => option_map ExprModel.XCast (elab a)
      | HArray l => option_map ExprModel.XArray (all elab l)
      | HRepeat a c => two ExprModel.XRepeat (elab a) (size_at c)
      | HIndex a i => two ExprModel.XIndex (elab a) (elab i)
      | HRange a s e => three ExprModel.XRange (elab a) (optional size_at s) (optional size_at e)
      | HBlock ss r => two ExprModel.XBlock (all elab_stm ss) (opt_ r)
      | HIf c a b => three ExprModel.XIf (elab c) (elab a) (elab b)
      | HMatch a arms =>
          two ExprModel.XMatch (elab a)
            (all (fun arm : hpat * option hx * hx => let '(p, g, e) := arm in
               three (fun p g e => (p, g, e)) (elab_pat p) (opt_ g) (elab e)) arms)
      | HBin op a b => two (ExprModel.XBin op) (elab a) (elab b)
      | HUn op a => option_map (ExprModel.XUn op) (elab a)
      | HCall f _ args => two ExprModel.XCall (callee_of f) (all elab args)
      | HGenIf _ _ _ | HTypeBool | HRef _ => None
      end
  end
  end
with elab_stm (s : hstm) : option ExprModel.stm :=
  match s with
  | HLet p _ e => two ExprModel.SLet (elab_pat p) (elab e)
  | HExpr e => option_map ExprModel.SExpr (elab e)
  | HReg p _ clock value reset None =>
      match elab_pat p, elab clock,
            match reset with Some (a, b) => option_map Some (two pair (elab a) (elab b)) | None => Some None end,
            elab value with
      | Some p, Some c, Some r, Some v => Some (ExprModel.SRegister p c r v)
      | _, _, _, _ => None
      end
  | HReg _ _ _ _ _ (Some _) => None
  | HDecl _ => Some ExprModel.SDecl
  | HAssert e => option_map ExprModel.SAssert (elab e)
  | HSet _ _ => None
  end.

Definition elab_unit (u : hunit) : option ExprModel.unit_ :=
  two ExprModel.Unit
    (all (fun i => option_map (pair (fst i)) (type_at (KName (fst i)))) (hu_inputs u))
    (elab (hu_body u)).
End Unit.
End Types.
