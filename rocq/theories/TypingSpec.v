(** Typing rules of the language, independently of how the checker finds the types. *)
From Coq Require Import List ZArith Bool Arith.
From Verif Require Import InferModel InferSpec TypingModel.
From Verif Require ExprModel.
Import ListNotations.
Local Open Scope Z_scope.

(** A type without unknown parts; type-level values have no parameters *)
Inductive ground : ty -> Prop :=
| ground_type : forall b l, (scalar b = true -> l = []) -> Forall ground l -> ground (TK b l).

(** A type, with or without unknown parts, where type-level values have no parameters *)
Inductive proper : ty -> Prop :=
| proper_type : forall b l, (scalar b = true -> l = []) -> Forall proper l -> proper (TK b l)
| proper_unknown : forall n m, proper (TF n m).

Definition tvalue (z : Z) : ty := TK (BInt z) [].
Definition named (n : nat) : ty := TK (BNamed n) [].
Definition array (t : ty) (n : Z) : ty := TK BArray [t; tvalue n].
(** the types of a list of type parameters, for type-level expressions *)
Definition env (gs : list ty) (k : nat) : ty := nth k gs (TK BError []).

Section Rules.
Variables int_ uint_ bool_ clock_ : nat.
Variable arity : nat -> nat.
Variable structs : nat -> option struct_.
Variable heads : nat -> option head.

(** [int<n>] and [uint<n>] *)
Definition sized (b : nat) (n : Z) : ty := TK (BNamed b) [tvalue n].
Definition is_number (t : ty) (b : nat) (n : Z) : Prop :=
  (b = int_ \/ b = uint_) /\ 0 <= n /\ t = sized b n.

(** The type a written type means when the type parameters in scope are [gs] *)
Inductive means (gs : list ty) : tspec -> ty -> Prop :=
| m_int : forall z, means gs (TSInt z) (tvalue z)
| m_bool : forall b, means gs (TSBool b) (TK (BBool b) [])
| m_str : forall s, means gs (TSStr s) (TK (BStr s) [])
| m_const : forall e b, Value (env gs) e b -> means gs (TSConst e) (TK b [])
| m_named : forall n l ts, length l = arity n -> Forall2 (means gs) l ts -> means gs (TSNamed n l) (TK (BNamed n) ts)
| m_generic : forall k t, nth_error gs k = Some t -> means gs (TSGeneric k) t
| m_tuple : forall l ts, Forall2 (means gs) l ts -> means gs (TSTuple l) (TK BTuple ts)
| m_array : forall a n t s, means gs a t -> means gs n s -> means gs (TSArray a n) (TK BArray [t; s])
| m_inverted : forall a t, means gs a t -> means gs (TSInverted a) (TK BInverted [t])
| m_view : forall a t, means gs a t -> means gs (TSCopyView a) (TK BCopyView [t])
| m_wildcard : forall t, means gs TSWildcard t.

(** A literal has a number type that has its value.  Sizes have 32 bits.
    [int<0>] has the one value 0, but the checker also takes -1 for it
    ([C52_minus_one_refuted]). *)
Definition in_range (b : nat) (n z : Z) : Prop :=
  z = 0 \/ (b = int_ /\ - 2 ^ (n - 1) <= z < 2 ^ (n - 1)) \/ (b = uint_ /\ 0 <= z < 2 ^ n) \/
  (b = int_ /\ n = 0 /\ z = -1).
Definition literal (z : Z) (t : ty) : Prop :=
  exists b n, is_number t b n /\ n < 2 ^ 32 /\ in_range b n z.
Definition suffix (l : lit) (t : ty) : Prop :=
  match l with
  | LUnsized => True
  | LSigned o => exists n, t = sized int_ n /\ (forall m, o = Some m -> n = m)
  | LUnsigned o => exists n, t = sized uint_ n /\ (forall m, o = Some m -> n = m)
  end.

Definition relation (k : wkind) (l r : Z) : Prop :=
  match k with
  | WEq => l = r | WNeq => l <> r | WLt => l < r | WLeq => l <= r | WGt => l > r | WGeq => l >= r
  end.
(** Types for the parameters of a head: of their kinds and meeting the [where] clauses *)
Definition clause (hs : list ty) (w : nat * wkind * cexpr) : Prop :=
  let '(k, kind, e) := w in
  match kind with
  | WEq => exists b, nth_error hs k = Some (TK b []) /\ Value (env hs) e b
  | _ => exists l r, nth_error hs k = Some (tvalue l) /\ Value (env hs) e (BInt r) /\ relation kind l r
  end.
Definition instance (metas : list meta) (wh : list (nat * wkind * cexpr)) (hs : list ty) : Prop :=
  Forall2 has_kind hs metas /\ Forall (clause hs) wh.
(** [T: Number<N>] *)
Definition bound_holds (hs : list ty) (b : nat * nat) : Prop :=
  exists t n, nth_error hs (fst b) = Some t /\ nth_error hs (snd b) = Some n /\
    (t = TK (BNamed int_) [n] \/ t = TK (BNamed uint_) [n]).
Definition special_holds (sp : special) (hs : list ty) : Prop :=
  match sp with
  | SpNone => True
  | SpConcat => exists b m n x y z, nth_error hs 0 = Some x /\ nth_error hs 1 = Some y /\ nth_error hs 2 = Some z /\
      is_number x b m /\ is_number y b n /\ is_number z b (m + n)
  | SpTrunc => exists b m n x y, nth_error hs 0 = Some x /\ nth_error hs 1 = Some y /\
      is_number x b m /\ is_number y b n
  | SpDivMod => exists b n x, nth_error hs 0 = Some x /\ is_number x b n
  end.

(** [ty_of]: the type recorded for each name, expression, pattern and type-level
    expression; [gs]: the types of the type parameters of the unit. *)
Variable ty_of : key -> option ty.
Variable gs : list ty.

Definition const_is (c : const) (b : base) : Prop :=
  ty_of (KId (fst c)) = Some (TK b []) /\ Value (env gs) (snd c) b.

Inductive ptyped : hpat -> ty -> Prop :=
| ptyped_node : forall id k t, ty_of (KId id) = Some t -> has_kind t MType -> prule k t -> ptyped (HP id k) t
with prule : hpkind -> ty -> Prop :=
| pr_int : forall z t, literal z t -> prule (PInt z) t
| pr_bool : forall b, prule (PBool b) (named bool_)
| pr_bound : forall x pre inner t, ty_of (KName x) = Some t ->
    (forall q, inner = Some q -> ptyped q t) -> prule (PBound x pre inner) t
| pr_tuple : forall l ts, Forall2 ptyped l ts -> prule (PTuple l) (TK BTuple ts)
| pr_array : forall l t, l <> [] -> Forall (fun q => ptyped q t) l -> prule (PArray l) (array t (Z.of_nat (length l)))
| pr_type : forall name args h r hs ts t, heads name = Some h -> hd_ret h = Some r ->
    Forall2 has_kind hs (hd_metas h) -> means hs r t ->
    Forall2 (means hs) (hd_params h) ts -> Forall2 ptyped args ts -> prule (PType name args) t.

Inductive typed : hx -> ty -> Prop :=
| typed_node : forall id k t, ty_of (KId id) = Some t -> has_kind t MType -> rule k t -> typed (HX id k) t
with rule : hkind -> ty -> Prop :=
| r_name : forall x t, ty_of (KName x) = Some t -> rule (HName x) t
| r_int : forall z l t, literal z t -> suffix l t -> rule (HInt z l) t
| r_bool : forall b, rule (HBool b) (named bool_)
| r_type_int : forall k z t, nth_error gs k = Some (tvalue z) -> literal z t -> rule (HTypeInt k) t
| r_type_bool : rule HTypeBool (named bool_)
| r_tuple : forall l ts, Forall2 typed l ts -> rule (HTuple l) (TK BTuple ts)
| r_tuple_index : forall a i ts t, typed a (TK BTuple ts) -> nth_error ts i = Some t -> rule (HTupleIndex a i) t
| r_field : forall a f n ps members spec t, typed a (TK (BNamed n) ps) -> structs n = Some members ->
    In (f, spec) members -> means ps spec t -> rule (HField a f) t
| r_cast : forall a s t, typed a t -> means gs s t -> rule (HCast a s) t
| r_array : forall l t, Forall (fun a => typed a t) l -> rule (HArray l) (array t (Z.of_nat (length l)))
| r_repeat : forall a c t n, typed a t -> const_is c (BInt n) -> 0 <= n -> rule (HRepeat a c) (array t n)
| r_index : forall a i t n w, typed a (array t n) -> 0 < n -> typed i (sized uint_ w) ->
    magnitude_bits (n - 1) w -> rule (HIndex a i) t
| r_range : forall a from upto t n s e, typed a (array t n) ->
    (forall c, from = Some c -> const_is c (BInt s)) -> (from = None -> s = 0) ->
    (forall c, upto = Some c -> const_is c (BInt e)) -> (upto = None -> e = n) ->
    s <= e <= n -> rule (HRange a from upto) (array t (e - s))
| r_block : forall ss r t, Forall checked ss ->
    (forall e, r = Some e -> typed e t) -> (r = None -> t = TK BTuple []) -> rule (HBlock ss r) t
| r_if : forall c a b t, typed c (named bool_) -> typed a t -> typed b t -> rule (HIf c a b) t
| r_gen_if : forall c a b t v, const_is c (BBool v) -> typed a t -> typed b t -> rule (HGenIf c a b) t
| r_match : forall a u arms t, typed a u -> arms <> [] -> Forall (arm u t) arms -> rule (HMatch a arms) t
| r_add : forall op a b base n t, op = ExprModel.BAdd \/ op = ExprModel.BSub ->
    typed a (sized base n) -> typed b (sized base n) -> is_number t base (n + 1) -> 0 <= n -> rule (HBin op a b) t
| r_mul : forall a b base m n t, typed a (sized base m) -> typed b (sized base n) ->
    is_number t base (m + n) -> 0 <= m -> 0 <= n -> rule (HBin ExprModel.BMul a b) t
| r_same : forall op a b base n t, op <> ExprModel.BAdd -> op <> ExprModel.BSub -> op <> ExprModel.BMul ->
    typed a t -> typed b t -> is_number t base n -> rule (HBin op a b) t
| r_minus : forall a n, 0 <= n -> typed a (sized int_ n) -> rule (HUn ExprModel.UMinus a) (sized int_ n)
| r_not : forall a, typed a (named bool_) -> rule (HUn ExprModel.UNot a) (named bool_)
| r_bit_not : forall a b n t, typed a t -> is_number t b n -> rule (HUn ExprModel.UBitNot a) t
| r_ref : forall a t, typed a t -> rule (HRef a) (TK BCopyView [t])
| r_call : forall f tf args h hs ts t, heads f = Some h ->
    instance (hd_metas h) (hd_where h) hs ->
    Forall (bound_holds hs) (hd_bounds h) ->
    special_holds (hd_special h) hs ->
    (forall l, tf = Some l -> Forall2 (means gs) l hs) ->
    Forall2 (means hs) (hd_params h) ts -> Forall2 typed args ts ->
    match hd_ret h with Some r => means hs r t | None => t = TK BTuple [] end ->
    rule (HCall f tf args) t
with arm : ty -> ty -> hpat * option hx * hx -> Prop :=
| arm_ok : forall u t p g e, ptyped p u ->
    (forall c, g = Some c -> typed c (named bool_)) -> typed e t -> arm u t (p, g, e)
with checked : hstm -> Prop :=
| c_let : forall p s e t, ptyped p t -> typed e t ->
    match s with Some s => means gs s t | None => True end -> checked (HLet p s e)
| c_expr : forall e t, typed e t -> checked (HExpr e)
| c_reg : forall p s clock value reset initial t, ptyped p t ->
    match s with Some s => means gs s t | None => True end ->
    typed clock (named clock_) -> typed value t ->
    (forall c v, reset = Some (c, v) -> typed c (named bool_) /\ typed v t) ->
    (forall v, initial = Some v -> typed v t) ->
    checked (HReg p s clock value reset initial)
| c_decl : forall l, Forall (fun x => exists t, ty_of (KName x) = Some t) l -> checked (HDecl l)
| c_assert : forall e, typed e (named bool_) -> checked (HAssert e)
| c_set : forall a e t, typed a (TK BInverted [t]) -> typed e t -> checked (HSet a e).

(** A unit of which all is well typed *)
Definition well_typed (u : hunit) : Prop :=
  instance (hu_metas u) (hu_where u) gs /\
  Forall (fun i => exists t, ty_of (KName (fst i)) = Some t /\ means gs (snd i) t) (hu_inputs u) /\
  exists t, typed (hu_body u) t /\
    match hu_output u with Some o => means gs o t | None => t = TK BTuple [] end.

(** ** The types the checker leaves *)

Definition requirement_holds (val : nat -> ty) (r : req) : Prop :=
  match r with
  | RFits value t =>
      match value with LitZ z => literal z (val t) | LitVar v => exists z, val v = tvalue z /\ literal z (val t) end
  | RField target f e => exists n ps members spec, val target = TK (BNamed n) ps /\ structs n = Some members /\
      In (f, spec) members /\ means ps spec (val e)
  | REndAfterStart s e | RInArray s e => exists x y, val s = tvalue x /\ val e = tvalue y /\ x <= y
  | RNonZero s => exists x, val s = tvalue x /\ x <> 0
  | RWhere k l r => exists x y, val l = tvalue x /\ val r = tvalue y /\ relation k x y
  | RShared l => exists b, Forall (fun t => exists ps, val t = TK b ps) l
  end.

End Rules.

(** A choice of types for everything the checker left open: every variable has a
    type, those that are known have the known type, the others one of their kind that
    meets its bound, and the open constraints and requirements hold.  For a unit
    with type parameters each such choice is an instance of it. *)
Record completes (num int_ uint_ : nat) (arity : nat -> nat) (structs : nat -> option struct_)
    (s : tst) (val : nat -> ty) : Prop := {
  co_ground : forall v, ground (val v);
  co_link : forall v j, lookup (repl (inf s)) v = Some j -> val v = val j;
  co_known : forall v b ps, nth_error (vars (inf s)) v = Some (Known b ps) -> lookup (repl (inf s)) v = None ->
    val v = TK b (map val ps);
  co_unknown : forall v trs m, nth_error (vars (inf s)) v = Some (Unknown trs m) -> lookup (repl (inf s)) v = None ->
    has_kind (val v) m;
  co_bound : forall v size m, nth_error (vars (inf s)) v = Some (Unknown [(num, [size])] m) ->
    lookup (repl (inf s)) v = None ->
    val v = TK (BNamed int_) [val size] \/ val v = TK (BNamed uint_) [val size];
  co_constraints : forall v e, In (v, e) (cons (inf s)) -> exists k, Value val e k /\ val v = TK k [];
  co_requirements : Forall (requirement_holds int_ uint_ arity structs val) (reqs s)
}.
(** The types recorded *)
Definition recorded (s : tst) (val : nat -> ty) (k : key) : option ty :=
  match List.find (fun e => key_eqb (fst e) k) (eqs s) with Some e => Some (val (snd e)) | None => None end.

(** ** What is assumed of heads and calls *)

(** The written type uses the type parameter [k], other than in an expression *)
Fixpoint mentions (k : nat) (t : tspec) : bool :=
  match t with
  | TSGeneric j => Nat.eqb j k
  | TSNamed _ l | TSTuple l => existsb (mentions k) l
  | TSArray a b => mentions k a || mentions k b
  | TSInverted a | TSCopyView a => mentions k a
  | _ => false
  end.
(** The sizes [N] of the bounds [T: Number<N>] are parameters of the kind [#uint] that
    no type mentions: with [int<N>] among the parameters the checker loses track of
    the size ([C27_unlinked_refuted]). *)
Definition head_ok (h : head) : Prop :=
  (forall T N, In (T, N) (hd_bounds h) ->
     nth_error (hd_metas h) T = Some MType /\ nth_error (hd_metas h) N = Some MUint /\
     Forall (fun p => mentions N p = false) (hd_params h) /\
     (forall r, hd_ret h = Some r -> mentions N r = false)) /\
  NoDup (map fst (hd_bounds h)) /\ NoDup (map snd (hd_bounds h)) /\
  (hd_special h <> SpNone -> hd_bounds h = []).

(** No type arguments for functions with bounds: the checker does not compare them
    ([C52_turbofish_refuted]). *)
Definition no_bypass (heads : nat -> option head) (f : nat) (tf : option (list tspec)) : bool :=
  match tf, heads f with
  | Some _, Some h => match hd_bounds h with [] => true | _ => false end
  | _, _ => true
  end.
(** No name declared beforehand is bound with [@]: the checker does not compare its
    type with that of the pattern after the [@] ([C52_declared_at_refuted]). *)
Fixpoint no_declared_at (p : hpat) : bool :=
  let '(HP _ k) := p in
  match k with
  | PInt _ | PBool _ | PBound _ _ None => true
  | PBound _ pre (Some q) => negb pre && no_declared_at q
  | PTuple l | PArray l | PType _ l => forallb no_declared_at l
  end.
(** All calls satisfy [ok] and all patterns [pok] *)
Fixpoint ordinary (ok : nat -> option (list tspec) -> bool) (pok : hpat -> bool) (e : hx) : bool :=
  let '(HX _ k) := e in
  let all := forallb (ordinary ok pok) in
  let opt (o : option hx) := match o with Some e => ordinary ok pok e | None => true end in
  match k with
  | HName _ | HInt _ _ | HBool _ | HTypeInt _ | HTypeBool => true
  | HTuple l | HArray l => all l
  | HTupleIndex a _ | HField a _ | HCast a _ | HRepeat a _ | HRange a _ _ | HUn _ a | HRef a => ordinary ok pok a
  | HIndex a b | HBin _ a b | HGenIf _ a b => all [a; b]
  | HIf a b c => all [a; b; c]
  | HBlock ss r => forallb (ordinary_stm ok pok) ss && opt r
  | HMatch a arms => ordinary ok pok a && forallb (fun x => let '(p, g, e) := x in pok p && opt g && ordinary ok pok e) arms
  | HCall f tf args => ok f tf && all args
  end
with ordinary_stm (ok : nat -> option (list tspec) -> bool) (pok : hpat -> bool) (s : hstm) : bool :=
  let all := forallb (ordinary ok pok) in
  let opt (o : option hx) := match o with Some e => ordinary ok pok e | None => true end in
  match s with
  | HLet p _ e => pok p && ordinary ok pok e
  | HExpr e | HAssert e => ordinary ok pok e
  | HReg p _ c v r i => pok p && all [c; v] && match r with Some (a, b) => all [a; b] | None => true end && opt i
  | HDecl _ => true
  | HSet a b => all [a; b]
  end.
