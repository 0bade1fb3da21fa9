(** Method resolution: spade-typeinference/src/method_resolution.rs, and the lookups of
    spade-hir-lowering/src/passes/lower_methods.rs.

    Types are variables of the inference state ([InferModel]), written types are
    [TypingModel.tspec].  Names of methods, functions and traits are numbers. *)
From Coq Require Import List ZArith Bool Arith.
From Verif Require Import InferModel TypingModel.
Import ListNotations.

(** spade-hir/src/lib.rs:1123-1129 [ImplTarget] *)
Inductive impl_target := ITArray | ITInverted | ITCopyView | ITTuple | ITNamed (n : nat).
Definition target_eqb (a b : impl_target) : bool :=
  match a, b with
  | ITArray, ITArray | ITInverted, ITInverted | ITCopyView, ITCopyView | ITTuple, ITTuple => true
  | ITNamed n, ITNamed m => n =? m
  | _, _ => false
  end.

(** spade-hir/src/lib.rs:1079-1086 [Selfness] *)
Inductive selfness := SelfValue | SelfView | SelfStatic.

(** traits.rs:12-18 [TraitImpl] with spade-hir/src/lib.rs:1096-1103 [ImplBlock]: whether
    the block is one without a trait ([TraitName::Anonymous]), its target, and its
    methods by name.  The type parameters are those of the target. *)
Record block := Block { bl_anonymous : bool; bl_target : tspec; bl_fns : list (nat * (nat * selfness)) }.

(** spade-ast-lowering/src/impls.rs:320-391 [get_impl_target]; an alias is registered
    under its own name.  [None]: a diagnostic. *)
Definition target_of (s : tspec) : option impl_target :=
  match s with
  | TSNamed n _ => Some (ITNamed n)
  | TSTuple _ => Some ITTuple
  | TSArray _ _ => Some ITArray
  | TSInverted _ => Some ITInverted
  | TSCopyView _ => Some ITCopyView
  | _ => None
  end.

(** typeinference/src/lib.rs:2066-2152 [visit_impl_blocks]: the blocks by target.  They
    are read from hash maps, so their order is arbitrary. *)
Definition table (blocks : list block) (k : impl_target) : list block :=
  filter (fun b => match target_of (bl_target b) with Some k' => target_eqb k' k | None => false end) blocks.

(** method_resolution.rs:33-45 [into_impl_target] *)
Definition into_impl_target (b : base) : option impl_target :=
  match b with
  | BError | BInt _ | BBool _ | BStr _ => None
  | BNamed n => Some (ITNamed n)
  | BTuple => Some ITTuple
  | BArray => Some ITArray
  | BInverted => Some ITInverted
  | BCopyView => Some ITCopyView
  end.

(** method_resolution.rs:266-273 [Overlap].  [None] in an [option overlap] is one of the
    [unreachable!] cases, an index out of bounds, or a variable without an entry. *)
Inductive overlap := Yes | No | Maybe.

(** method_resolution.rs:275-295 [all_overlap]: stops at the first that is not [Yes] *)
Fixpoint all_overlap (l : list (option overlap)) : option overlap :=
  match l with
  | [] => Some Yes
  | Some Yes :: l => all_overlap l
  | o :: _ => o
  end.

(** method_resolution.rs:297-311 [specs_are_overlapping], 357-371
    [exprs_are_overlapping]: the arguments are compared one by one, and lazily. *)
Definition args_overlap (f : tspec -> nat -> option overlap) (specs : list tspec) (vars : list nat) : option overlap :=
  if length specs =? length vars then all_overlap (map (fun p => fst p (snd p)) (combine (map f specs) vars)) else Some No.

(** [into_iter().all_overlap()] on an array: both elements are computed *)
Definition both_overlap (a b : option overlap) : option overlap :=
  match a, b with
  | Some _, Some _ => all_overlap [a; b]
  | _, _ => None
  end.

(** method_resolution.rs:373-423 [spec_is_overlapping] and 313-355
    [expr_is_overlapping], which differ in the written types they take *)
Fixpoint is_overlapping (st : state) (s : tspec) (v : nat) {struct s} : option overlap :=
  match s with
  | TSGeneric _ => Some Yes
  | _ =>
      match resolve st v with
      | None => None
      | Some t =>
          match s, t with
          | TSConst _, _ => None
          | TSBool a, Known (BBool b) _ => Some (if Bool.eqb a b then Yes else No)
          | TSInt a, Known (BInt b) _ => Some (if (a =? b)%Z then Yes else No)
          | TSStr a, Known (BStr b) _ => Some (if str_eqb a b then Yes else No)
          | _, Unknown _ _ => Some Maybe
          | TSBool _, _ | TSInt _, _ | TSStr _, _ => None
          | TSNamed n l, Known (BNamed m) ps => if n =? m then args_overlap (is_overlapping st) l ps else Some No
          | TSNamed _ _, _ => Some No
          | TSTuple l, Known BTuple ps => args_overlap (is_overlapping st) l ps
          | TSTuple _, _ => Some No
          | TSArray a b, Known BArray (p :: q :: _) => both_overlap (is_overlapping st a p) (is_overlapping st b q)
          | TSArray _ _, Known BArray _ => None
          | TSArray _ _, _ => Some No
          | TSInverted a, Known BInverted (p :: _) => is_overlapping st a p
          | TSInverted _, Known BInverted [] => None
          | TSInverted _, _ => Some No
          | TSCopyView a, Known BCopyView (p :: _) => is_overlapping st a p
          | TSCopyView _, Known BCopyView [] => None
          | TSCopyView _, _ => Some No
          | TSWildcard, _ | TSGeneric _, _ => None
          end
      end
  end.

(** method_resolution.rs:99-108: views are taken off.  The loop has no bound; [None] is
    a missing entry, or no end within the fuel. *)
Fixpoint unview (st : state) (fuel v layers : nat) : option (nat * tvar * nat) :=
  match fuel with
  | 0 => None
  | S fuel =>
      match resolve st v with
      | Some (Known BCopyView (p :: _)) => unview st fuel p (S layers)
      | Some (Known BCopyView []) | None => None
      | Some t => Some (v, t, layers)
      end
  end.

(** What [select_method] answers: a function and by how many views the receiver has to be
    adjusted, or that it is too early to tell, or one of its errors. *)
Inductive selection :=
| Chosen (f : nat) (delta : Z)
| Wait
| NoMethods | NoMethod | TooMany | WrongSelf
| Crash.

(** method_resolution.rs:126-161: what each block with the method says *)
Definition offers (st : state) (method v : nat) (bs : list block) : list (block * nat * selfness * option overlap) :=
  flat_map (fun b => flat_map (fun m => if fst m =? method
    then [(b, fst (snd m), snd (snd m), is_overlapping st (bl_target b) v)] else []) (bl_fns b)) bs.
Definition says (o : option overlap) (x : block * nat * selfness * option overlap) : bool :=
  match snd x, o with
  | Some Yes, Some Yes | Some No, Some No | Some Maybe, Some Maybe | None, None => true
  | _, _ => false
  end.

(** method_resolution.rs:220-262: does the call fit the method? *)
Definition with_self (f : nat) (s : selfness) (takes_self : bool) (delta : Z) : selection :=
  match takes_self, s with
  | true, SelfValue => Chosen f delta
  | true, SelfView => Chosen f (delta + 1)
  | true, SelfStatic => WrongSelf
  | false, SelfStatic => Chosen f delta
  | false, _ => WrongSelf
  end.

(** method_resolution.rs:91-265 [select_method] *)
Definition select_method (st : state) (fuel : nat) (blocks : list block) (self_ method : nat) (takes_self : bool) : selection :=
  match unview st fuel self_ 0 with
  | None => Crash
  | Some (raw, t, layers) =>
      match match t with Known b _ => into_impl_target b | Unknown _ _ => None end with
      | None => NoMethods
      | Some target =>
          let os := offers st method raw (table blocks target) in
          if existsb (says None) os then Crash
          else if existsb (says (Some Maybe)) os then Wait
          else
            let delta := (- Z.of_nat layers)%Z in
            match filter (says (Some Yes)) os with
            | [] => NoMethod
            | [(_, f, s, _)] => with_self f s takes_self delta
            | many =>
                match List.find (fun x => bl_anonymous (fst (fst (fst x)))) many with
                | Some (_, f, s, _) => with_self f s takes_self delta
                | None => TooMany
                end
            end
      end
  end.

(** method_resolution.rs:47-85 [methods_for_type], offered as completions by the language
    server: names and functions *)
Definition methods_for_type (st : state) (blocks : list block) (v : nat) : option (list (nat * nat)) :=
  match resolve st v with
  | None => None
  | Some (Unknown _ _) => Some []
  | Some (Known b _) =>
      match into_impl_target b with
      | None => Some []
      | Some target =>
          let l := flat_map (fun b => map (fun m => (fst m, fst (snd m), is_overlapping st (bl_target b) v)) (bl_fns b)) (table blocks target) in
          if existsb (fun x => match snd x with None => true | _ => false end) l then None
          else Some (map fst (filter (fun x => match snd x with Some Yes => true | _ => false end) l))
      end
  end.
