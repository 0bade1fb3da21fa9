(** What a unit means, told by the source alone, and what it is for hardware to run the
    statements of a unit. *)
From Coq Require Import List ZArith Bool Arith String.
From Verif Require Import Bits Verilog CodegenModel CodegenSpec PatModel PatSpec LowerModel LowerSpec RegSpec ExprModel.
Import ListNotations.
Local Open Scope list_scope.

(** ** Parts of a unit *)
Definition opt {A} (o : option A) : list A := match o with Some a => [a] | None => [] end.
(** The expressions directly in a statement or an expression. *)
Definition stm_exprs (s : stm) : list expr :=
  match s with
  | SLet _ e | SExpr e | SAssert e => [e]
  | SRegister _ c r v => c :: match r with Some (t, i) => [t; i] | None => [] end ++ [v]
  | SDecl => []
  end.
Definition children (e : expr) : list expr :=
  let '(Ex _ _ k) := e in
  match k with
  | XName _ | XInt _ | XBool _ => []
  | XBin _ a b | XIndex a b => [a; b]
  | XUn _ a | XTupleIndex a _ | XField a _ _ | XCast a | XRepeat a _ | XRange a _ _ => [a]
  | XTuple l | XArray l | XCall _ l => l
  | XBlock ss r => flat_map stm_exprs ss ++ opt r
  | XIf c a b => [c; a; b]
  | XMatch a arms => a :: flat_map (fun arm => opt (snd (fst arm)) ++ [snd arm]) arms
  end.
Inductive within (b : expr) : expr -> Prop :=
| W_self : within b b
| W_child e c : within b e -> In c (children e) -> within b c.
Inductive contains (b : expr) : stm -> Prop :=
| C_stm id t ss r s : within b (Ex id t (XBlock ss r)) -> In s ss -> contains b s.

(** The names in a pattern and their types. *)
Inductive pat_name : lpat -> nat -> cty -> Prop :=
| PN_here id t x i : pat_name (LPat id t (KBound x i)) x t
| PN_at id t x q y s : pat_name q y s -> pat_name (LPat id t (KBound x (Some q))) y s
| PN_in id t k l q x s : In k [KTuple l; KArray l; KStruct l] -> In q l -> pat_name q x s -> pat_name (LPat id t k) x s
| PN_variant id t i l q x s : In q l -> pat_name q x s -> pat_name (LPat id t (KVariant i l)) x s.
(** Where a name can come from. *)
Inductive bound (u : unit_) : nat -> cty -> Prop :=
| BO_input x t : In (x, t) (inputs u) -> bound u x t
| BO_let p e x t : contains (body u) (SLet p e) -> pat_name p x t -> bound u x t
| BO_reg p c r v x t : contains (body u) (SRegister p c r v) -> pat_name p x t -> bound u x t
| BO_arm id ty a arms p g e x t : within (body u) (Ex id ty (XMatch a arms)) -> In (p, g, e) arms -> pat_name p x t -> bound u x t.

(** ** Numbers *)
(** The number of type [t] with the same low bits as [z]. *)
Definition wrap (t : cty) (z : Z) : Z :=
  match t with
  | CInt n => ((z + 2 ^ Z.of_nat (n - 1)) mod 2 ^ Z.of_nat n - 2 ^ Z.of_nat (n - 1))%Z
  | CUint n => (z mod 2 ^ Z.of_nat n)%Z
  | _ => z
  end.
(** Numbers with at least one bit. *)
Definition number (t : cty) (n : nat) : Prop := 0 < n /\ (t = CInt n \/ t = CUint n).
(** [z] is what [x op y] is, for operands of type [t] with [n] bits: sums, differences
    and products have room enough except for a negative difference of [uint]s; shifts
    keep the width, by a non-negative amount; quotients, by a positive divisor, go towards zero. *)
Definition bin_value (op : binop) (t : cty) (n : nat) (x y z : Z) : Prop :=
  match op with
  | BAdd => z = x + y
  | BSub => z = match t with CUint _ => (x - y) mod 2 ^ Z.of_nat (n + 1) | _ => x - y end
  | BMul => z = x * y
  | BShl => 0 <= y /\ z = wrap t (x * 2 ^ y)
  | BShr => 0 <= y /\ z = wrap t ((x mod 2 ^ Z.of_nat n) / 2 ^ y)
  | BSar => 0 <= y /\ z = wrap t (wrap (CInt n) x / 2 ^ y)
  | BDiv => 0 < y /\ z = Z.quot x y
  | BMod => 0 < y /\ z = Z.rem x y
  end%Z.
Definition bin_type (op : binop) (a b t : cty) : Prop :=
  match op with
  | BAdd | BSub => exists n, 0 < n /\ (a = CInt n /\ b = CInt n /\ t = CInt (n + 1) \/ a = CUint n /\ b = CUint n /\ t = CUint (n + 1))
  | BMul => exists n m, 0 < n /\ 0 < m /\ (a = CInt n /\ b = CInt m /\ t = CInt (n + m) \/ a = CUint n /\ b = CUint m /\ t = CUint (n + m))
  | BShl | BShr | BSar | BDiv | BMod => a = t /\ b = t /\ exists n, number t n
  end.
Definition un_value (op : unop) (t : cty) (v w : val) : Prop :=
  match op, v, w with
  | UMinus, VInt x, VInt z => z = wrap t (- x)
  | UNot, VBool a, VBool b => b = negb a
  | UBitNot, VInt x, VInt z => z = wrap t (- x - 1)
  | _, _, _ => False
  end%Z.
Definition un_type (op : unop) (a t : cty) : Prop :=
  match op with
  | UMinus => exists n, 0 < n /\ a = CInt n /\ t = CInt n
  | UNot => a = CBool /\ t = CBool
  | UBitNot => a = t /\ exists n, number t n
  end.

(** ** The special functions *)
Definition pointwise (f : bool -> bool -> bool) (a b c : val) : Prop :=
  exists x y, List.length x = List.length y /\ a = VNode (map VBool x) /\ b = VNode (map VBool y) /\
    c = VNode (map (fun p => VBool (f (fst p) (snd p))) (combine x y)).
Definition compared (f : Z -> Z -> bool) (a b c : val) : Prop := exists x y, a = VInt x /\ b = VInt y /\ c = VBool (f x y).
(** [ta] are the types of the arguments, [t] that of the result. *)
Definition intrinsic_value (i : intrinsic) (ta : list cty) (t : cty) (args : list val) (r : val) : Prop :=
  match i, ta, args with
  | IEq, _, [a; b] => exists c, r = VBool c /\ (c = true <-> a = b)
  | INe, _, [a; b] => exists c, r = VBool c /\ (c = true <-> a <> b)
  | IBitNot, _, [a] => exists x, a = VNode (map VBool x) /\ r = VNode (map (fun b => VBool (negb b)) x)
  | IBitAnd, _, [a; b] => pointwise andb a b r
  | IBitOr, _, [a; b] => pointwise orb a b r
  | IBitXor, _, [a; b] => pointwise xorb a b r
  | ILt, _, [a; b] => compared Z.ltb a b r
  | ILe, _, [a; b] => compared Z.leb a b r
  | IGt, _, [a; b] => compared Z.gtb a b r
  | IGe, _, [a; b] => compared Z.geb a b r
  | ITrunc, _, [a] => exists x, a = VInt x /\ r = VInt (wrap t x)
  | (ISext | IZext), _, [a] => r = a
  | IConcat, [_; (CInt n | CUint n)], [a; b] => exists x y, a = VInt x /\ b = VInt y /\ r = VInt (wrap t (x * 2 ^ Z.of_nat n + y mod 2 ^ Z.of_nat n))
  (* the value with the very same bits *)
  | ITransmute, [s], [a] => forall w, encodes s a w -> encodes t r w
  | IReduceAnd, _, [a] => exists x, a = VNode (map VBool x) /\ r = VBool (forallb (fun b => b) x)
  | IReduceOr, _, [a] => exists x, a = VNode (map VBool x) /\ r = VBool (existsb (fun b => b) x)
  | IReduceXor, _, [a] => exists x, a = VNode (map VBool x) /\ r = VBool (fold_right xorb false x)
  | ICombDiv, _, [a; b] => exists x y, a = VInt x /\ b = VInt y /\ (0 < y)%Z /\ r = VInt (Z.quot x y)
  | ICombMod, _, [a; b] => exists x y, a = VInt x /\ b = VInt y /\ (0 < y)%Z /\ r = VInt (Z.rem x y)
  | _, _, _ => False
  end.
(** Types whose values are equal just when their bits are; for enums see C11. *)
Inductive plain : cty -> Prop :=
| PL_int n : plain (CInt n)
| PL_uint n : plain (CUint n)
| PL_bool : plain CBool
| PL_tuple ts : Forall plain ts -> plain (CTuple ts)
| PL_struct ts : Forall plain ts -> plain (CStruct ts)
| PL_array t n : plain t -> plain (CArray t n).
Definition intrinsic_type (i : intrinsic) (ta : list cty) (t : cty) : Prop :=
  match i with
  | IEq | INe => exists a, ta = [a; a] /\ plain a /\ t = CBool
  | IBitNot => exists n, ta = [CArray CBool n] /\ t = CArray CBool n
  | IBitAnd | IBitOr | IBitXor => exists n, ta = [CArray CBool n; CArray CBool n] /\ t = CArray CBool n
  | ILt | ILe | IGt | IGe => exists a n, number a n /\ ta = [a; a] /\ t = CBool
  | ITrunc => exists n m, 0 < m <= n /\ (ta = [CInt n] /\ t = CInt m \/ ta = [CUint n] /\ t = CUint m)
  | ISext => exists n m, 0 < n <= m /\ ta = [CInt n] /\ t = CInt m
  | IZext => exists n m, 0 < n <= m /\ ta = [CUint n] /\ t = CUint m
  | IConcat => exists n m, 0 < n /\ 0 < m /\ (ta = [CInt n; CInt m] /\ t = CInt (n + m) \/ ta = [CUint n; CUint m] /\ t = CUint (n + m))
  | ITransmute => exists a, ta = [a] /\ size (to_mir_type a) = size (to_mir_type t)
  | IReduceAnd | IReduceOr | IReduceXor => exists n, 0 < n /\ ta = [CArray CBool n] /\ t = CBool
  | ICombDiv | ICombMod => (exists n, number t n) /\ ta = [t; t]
  end.

(** ** Well-typed units *)
Section Typing.
  Variable prog : list unit_.
  Definition pattern_ok (t : cty) (p : lpat) : Prop := lpat_type t p /\ readable t.
  Definition stm_ok (s : stm) : Prop :=
    match s with
    | SLet p e => pattern_ok (ety e) p
    | SRegister p c r v =>
        ety c = CBool /\ pattern_ok (ety v) p /\
        match r with Some (trig, i) => ety trig = CBool /\ ety i = ety v | None => True end
    | SAssert e => ety e = CBool
    | SExpr _ | SDecl => True
    end.
  (** What type inference has checked of one expression.  A clock is a [CBool], which
      is what it becomes in MIR. *)
  Definition node_ok (u : unit_) (e : expr) : Prop :=
    let '(Ex _ t k) := e in
    match k with
    | XName x => bound u x t
    | XInt z => has_type t (VInt z) /\ exists n, number t n
    | XBool _ => t = CBool
    | XBin op a b => bin_type op (ety a) (ety b) t
    | XUn op a => un_type op (ety a) t
    | XTuple l => t = CTuple (map ety l)
    | XTupleIndex a i => exists ts, ety a = CTuple ts /\ nth_error ts i = Some t
    | XField a members f => exists ts i, ety a = CStruct ts /\ NoDup members /\ List.length members = List.length ts /\
        nth_error members i = Some f /\ nth_error ts i = Some t
    | XCast a => ety a = t
    | XArray l => exists el, t = CArray el (List.length l) /\ Forall (fun a => ety a = el) l
    | XRepeat a n => t = CArray (ety a) n
    | XIndex a i => exists n m, ety a = CArray t n /\ readable (ety a) /\ ety i = CUint m
    | XRange a from upto => exists el n s e, ety a = CArray el n /\ s <= e <= n /\ t = CArray el (e - s) /\
        s = match from with Some s => s | None => 0 end /\ e = match upto with Some e => e | None => n end
    | XBlock ss r => Forall stm_ok ss /\ match r with Some r => ety r = t | None => t = CTuple [] end
    | XIf c a b => ety c = CBool /\ ety a = t /\ ety b = t
    | XMatch a arms => Forall (fun arm => let '(p, g, e) := arm in
        pattern_ok (ety a) p /\ ety e = t /\ match g with Some g => ety g = CBool | None => True end) arms
    | XCall (CIntrinsic i) args => intrinsic_type i (map ety args) t
    | XCall (CVariant v) args => exists os, t = CEnum os /\ nth_error os v = Some (map ety args)
    | XCall CStructInst args => t = CStruct (map ety args)
    | XCall (CUnit k) args => exists c, nth_error prog k = Some c /\ map ety args = map snd (inputs c) /\ t = ety (body c)
    end.
  Definition well_typed (u : unit_) : Prop := forall e, within (body u) e -> node_ok u e.
End Typing.

(** ** Values *)
(** An instance of a unit is named by the calls that lead to it, innermost first: the
    id of the call and the unit called. *)
Definition path : Type := list (nat * nat).
Section Semantics.
  Variable prog : list unit_.
  Variable top : nat.
  (** What is on the inputs of the top unit in the [n]-th instant, and what the
      registers hold in the first. *)
  Variable given : nat -> nat -> val -> Prop.
  Variable start : path -> lpat -> val -> Prop.
  Definition unit_at (p : path) : option unit_ := nth_error prog (match p with [] => top | (_, k) :: _ => k end).
  Inductive reach : path -> Prop :=
  | R_top : reach []
  | R_call q u id t k args : reach q -> unit_at q = Some u -> within (body u) (Ex id t (XCall (CUnit k) args)) -> reach ((id, k) :: q).

  (** [ev q n e v]: in instance [q] and instant [n], the value of [e] is [v].  Names
      stand for what they are bound to, wherever in the unit that is; what does not
      matter to the value needs no value.  A name that depends on itself has none.
      [rv]: the register bound to a pattern holds a value.  It takes a new one between
      two instants if its clock rises there. *)
  Inductive ev : path -> nat -> expr -> val -> Prop :=
  | E_given n u id t x v : unit_at [] = Some u -> In (x, t) (inputs u) -> given n x v -> ev [] n (Ex id t (XName x)) v
  | E_argument q n u cid ct k args c i x a v id t :
      reach q -> unit_at q = Some u -> within (body u) (Ex cid ct (XCall (CUnit k) args)) -> nth_error prog k = Some c ->
      nth_error (inputs c) i = Some (x, t) -> nth_error args i = Some a -> ev q n a v ->
      ev ((cid, k) :: q) n (Ex id t (XName x)) v
  | E_let q n u p e v x t w id : unit_at q = Some u -> contains (body u) (SLet p e) ->
      ev q n e v -> binds p v x t w -> ev q n (Ex id t (XName x)) w
  | E_arm q n u mid mt a arms p g e v x t w id : unit_at q = Some u -> within (body u) (Ex mid mt (XMatch a arms)) ->
      In (p, g, e) arms -> ev q n a v -> matches (erase p) v -> binds p v x t w -> ev q n (Ex id t (XName x)) w
  | E_register q n u p c r e v x t w id : unit_at q = Some u -> contains (body u) (SRegister p c r e) ->
      rv q n p v -> binds p v x t w -> ev q n (Ex id t (XName x)) w
  | E_int q n id t z : ev q n (Ex id t (XInt z)) (VInt z)
  | E_boolean q n id t b : ev q n (Ex id t (XBool b)) (VBool b)
  | E_bin q n id t op a b x y z m : ev q n a (VInt x) -> ev q n b (VInt y) -> size (to_mir_type (ety a)) = m ->
      bin_value op (ety a) m x y z -> ev q n (Ex id t (XBin op a b)) (VInt z)
  | E_un q n id t op a v w : ev q n a v -> un_value op t v w -> ev q n (Ex id t (XUn op a)) w
  | E_tuple_ q n id t l vs : evs q n l vs -> ev q n (Ex id t (XTuple l)) (VNode vs)
  | E_tuple_index q n id t a i vs v : ev q n a (VNode vs) -> nth_error vs i = Some v -> ev q n (Ex id t (XTupleIndex a i)) v
  | E_field q n id t a members f i vs v : ev q n a (VNode vs) -> nth_error members i = Some f -> nth_error vs i = Some v ->
      ev q n (Ex id t (XField a members f)) v
  | E_cast q n id t a v : ev q n a v -> ev q n (Ex id t (XCast a)) v
  | E_array_ q n id t l vs : evs q n l vs -> ev q n (Ex id t (XArray l)) (VNode vs)
  | E_repeat q n id t a k v : ev q n a v -> ev q n (Ex id t (XRepeat a k)) (VNode (repeat v k))
  | E_index q n id t a i vs k v : ev q n a (VNode vs) -> ev q n i (VInt (Z.of_nat k)) -> nth_error vs k = Some v ->
      ev q n (Ex id t (XIndex a i)) v
  | E_range q n id t a from upto vs s e : ev q n a (VNode vs) ->
      s = match from with Some s => s | None => 0 end -> e = match upto with Some e => e | None => List.length vs end ->
      ev q n (Ex id t (XRange a from upto)) (VNode (firstn (e - s) (skipn s vs)))
  | E_block q n id t ss r v : ev q n r v -> ev q n (Ex id t (XBlock ss (Some r))) v
  | E_unit q n id t ss : ev q n (Ex id t (XBlock ss None)) (VNode [])
  | E_then q n id t c a b v : ev q n c (VBool true) -> ev q n a v -> ev q n (Ex id t (XIf c a b)) v
  | E_else q n id t c a b v : ev q n c (VBool false) -> ev q n b v -> ev q n (Ex id t (XIf c a b)) v
  | E_match q n id t a arms v w : ev q n a v -> first_arm q n v arms w -> ev q n (Ex id t (XMatch a arms)) w
  | E_intrinsic q n id t i args vs v : evs q n args vs -> intrinsic_value i (map ety args) t vs v ->
      ev q n (Ex id t (XCall (CIntrinsic i) args)) v
  | E_variant q n id t k args vs : evs q n args vs -> ev q n (Ex id t (XCall (CVariant k) args)) (VVariant k vs)
  | E_struct_ q n id t args vs : evs q n args vs -> ev q n (Ex id t (XCall CStructInst args)) (VNode vs)
  | E_call q n id t k args c v : nth_error prog k = Some c -> ev ((id, k) :: q) n (body c) v ->
      ev q n (Ex id t (XCall (CUnit k) args)) v
  with evs : path -> nat -> list expr -> list val -> Prop :=
  | Es_nil q n : evs q n [] []
  | Es_cons q n e l v vs : ev q n e v -> evs q n l vs -> evs q n (e :: l) (v :: vs)
  with first_arm : path -> nat -> val -> list (lpat * option expr * expr) -> val -> Prop :=
  | A_taken q n v p e r w : matches (erase p) v -> ev q n e w -> first_arm q n v ((p, None, e) :: r) w
  | A_guarded q n v p g e r w : matches (erase p) v -> ev q n g (VBool true) -> ev q n e w -> first_arm q n v ((p, Some g, e) :: r) w
  | A_other q n v p g e r w : ~ matches (erase p) v -> first_arm q n v r w -> first_arm q n v ((p, g, e) :: r) w
  | A_refused q n v p g e r w : ev q n g (VBool false) -> first_arm q n v r w -> first_arm q n v ((p, Some g, e) :: r) w
  with rv : path -> nat -> lpat -> val -> Prop :=
  | R_start q p v : start q p v -> rv q 0 p v
  | R_reset q n u p c trig i e v : unit_at q = Some u -> contains (body u) (SRegister p c (Some (trig, i)) e) ->
      ev q n c (VBool false) -> ev q (S n) c (VBool true) -> ev q n trig (VBool true) -> ev q n i v -> rv q (S n) p v
  | R_next q n u p c r e v : unit_at q = Some u -> contains (body u) (SRegister p c r e) ->
      ev q n c (VBool false) -> ev q (S n) c (VBool true) ->
      (forall trig i, r = Some (trig, i) -> ev q n trig (VBool false)) -> ev q n e v -> rv q (S n) p v
  | R_hold q n u p c r e v : unit_at q = Some u -> contains (body u) (SRegister p c r e) ->
      ev q n c (VBool true) -> rv q n p v -> rv q (S n) p v
  | R_low q n u p c r e v : unit_at q = Some u -> contains (body u) (SRegister p c r e) ->
      ev q (S n) c (VBool false) -> rv q n p v -> rv q (S n) p v.
End Semantics.

(** ** Hardware *)
Section Hardware.
  Variable ents : list entity.
  Variable top : nat.
  (** The declared types and the vector on each signal of each instance. *)
  Variable types : path -> mname -> ty.
  Variable rho : path -> nat -> mname -> bits.
  Definition entity_at (q : path) : option entity := nth_error ents (match q with [] => top | (_, k) :: _ => k end).
  (** One statement of instance [q] does its work (codegen/mod.rs:100-190, 928-1153). *)
  Definition holds (q : path) (s : xstmt) : Prop :=
    match s with
    | XS s => forall n, settled (types q) (rho q n) s
    | XNop x t => types q x = t
    | XBlackBox x a t => types q x = t /\ forall n, rho q n x = assigned (size t) (rho q n a)
    | XInstance (NExpr id) k args t =>
        types q (NExpr id) = t /\ exists e, nth_error ents k = Some e /\
        forall n, map (rho q n) args = map (fun i => rho ((id, k) :: q) n (fst i)) (en_inputs e) /\
          rho q n (NExpr id) = rho ((id, k) :: q) n (en_output e)
    | XInstance (NName _) _ _ _ => False
    | XReg x t c r v =>
        types q x = t /\ forall n, rho q (S n) x =
          if posedge (rho q n c) (rho q (S n) c) then
            match r with
            | Some (trig, i) => if taken (rho q n trig) then assigned (size t) (rho q n i) else assigned (size t) (rho q n v)
            | None => assigned (size t) (rho q n v)
            end
          else rho q n x
    | XAssert _ => True
    end.
  (** The whole design runs: in every instance each signal has its width, the inputs
      have their types and every statement holds. *)
  Inductive placed : path -> Prop :=
  | P_top : placed []
  | P_inst q e id k args t : placed q -> entity_at q = Some e -> In (XInstance (NExpr id) k args t) (en_stmts e) -> placed ((id, k) :: q).
  Record runs : Prop := Runs {
    runs_width : forall q n x, has_width (types q x) (rho q n x);
    runs_input : forall q e x t, placed q -> entity_at q = Some e -> In (x, t) (en_inputs e) -> types q x = t;
    runs_stmts : forall q e s, placed q -> entity_at q = Some e -> In s (en_stmts e) -> holds q s }.
End Hardware.

(** The hardware gets what the source is given. *)
Definition same_inputs (prog : list unit_) (top : nat) (given : nat -> nat -> val -> Prop) (start : path -> lpat -> val -> Prop)
    (rho : path -> nat -> mname -> bits) : Prop :=
  (forall u x t n v, nth_error prog top = Some u -> In (x, t) (inputs u) -> given n x v -> encodes t v (rho [] n (NName x))) /\
  (forall q p v, start q p v -> encodes (lty p) v (rho q 0 (value_name p))).

(** ** Units that should be accepted *)
(** A plain name, or a pattern of data that matches every value. *)
Definition binds_always (t : cty) (p : lpat) : Prop :=
  (exists id s x, p = LPat id s (KBound x None)) \/
  data_type t /\ forall v, has_type t v -> matches (erase p) v.
Definition stm_sound (s : stm) : Prop :=
  match s with
  | SLet p e => binds_always (ety e) p
  | SRegister p _ _ v => binds_always (ety v) p
  | SExpr e => ety e = CTuple []
  | SAssert _ | SDecl => True
  end.
(** Division is by a literal power of two, a [match] covers every value, bindings cannot
    fail and an expression that is a statement has no value. *)
Definition node_sound (e : expr) : Prop :=
  let '(Ex _ _ k) := e in
  match k with
  | XBin (BDiv | BMod) _ b => exists id t n, b = Ex id t (XInt (2 ^ Z.of_nat n)) /\ n < 128
  | XMatch a arms => data_type (ety a) /\
      forall v, has_type (ety a) v -> exists p r, In (p, None, r) arms /\ matches (erase p) v
  | XBlock ss _ => Forall stm_sound ss
  | _ => True
  end.

(** ** Signals *)
(** The names a pattern and an expression bring with them: of every expression, every
    pattern and every variable that is bound. *)
Fixpoint pat_names (p : lpat) : list mname :=
  value_name p ::
  match p with
  | LPat _ _ (KInteger _) | LPat _ _ (KBoolean _) | LPat _ _ (KBound _ None) => []
  | LPat _ _ (KBound _ (Some q)) => pat_names q
  | LPat _ _ (KTuple l) | LPat _ _ (KArray l) | LPat _ _ (KStruct l) | LPat _ _ (KVariant _ l) => flat_map pat_names l
  end.
Fixpoint names (e : expr) : list mname :=
  let '(Ex id _ k) := e in
  NExpr id ::
  match k with
  | XName _ | XInt _ | XBool _ => []
  | XBin _ a b | XIndex a b => names a ++ names b
  | XUn _ a | XTupleIndex a _ | XField a _ _ | XCast a | XRepeat a _ | XRange a _ _ => names a
  | XTuple l | XArray l | XCall _ l => flat_map names l
  | XBlock ss r => flat_map stm_names ss ++ match r with Some r => names r | None => [] end
  | XIf c a b => names c ++ names a ++ names b
  | XMatch a arms => names a ++ flat_map (fun arm => pat_names (fst (fst arm)) ++ match snd (fst arm) with Some g => names g | None => [] end ++ names (snd arm)) arms
  end
with stm_names (s : stm) : list mname :=
  match s with
  | SLet p e => names e ++ pat_names p
  | SExpr e | SAssert e => names e
  | SRegister p c r v => names c ++ match r with Some (t, i) => names t ++ names i | None => [] end ++ names v ++ pat_names p
  | SDecl => []
  end.
(** The signal a statement drives and those it reads. *)
Definition drives (s : xstmt) : list mname :=
  match s with
  | XS (SBind x _ _ _) | XS (SConst x _ _) | XNop x _ | XBlackBox x _ _ | XInstance x _ _ _ | XReg x _ _ _ _ => [x]
  | XAssert _ => []
  end.
Definition reads (s : xstmt) : list mname :=
  match s with
  | XS (SBind _ _ args _) | XInstance _ _ args _ => args
  | XS (SConst _ _ _) | XNop _ _ => []
  | XBlackBox _ a _ | XAssert a => [a]
  | XReg _ _ c r v => c :: v :: match r with Some (t, i) => [t; i] | None => [] end
  end.
