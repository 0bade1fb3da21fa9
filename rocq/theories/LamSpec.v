(** What local names and lambdas mean, on both sides.

    The source is read with the usual rules: a name means the nearest binding around it,
    made before it; a lambda is a closure that remembers the bindings around it.  The
    result of compilation knows no names, only identifiers, and no closures, only structs
    and units.

    Registers and names declared ahead take the value that is given for them, one after
    the other, in [given]; a declared name must then be defined with that value.  What a
    register takes next is recorded in [log]. *)
From Coq Require Import ZArith List Bool String Arith.
From Verif Require Import LamModel.
Import ListNotations.
Open Scope nat_scope.

Inductive val :=
| VInt (z : Z)
| VTup (vs : list val)
| VCon (id : nat) (vs : list val)
| VClo (rho : list (string * val)) (entity : bool) (ps : pats) (ss : stmts) (e : expr).

Fixpoint same (a b : val) : bool :=
  let fix sames l m := match l, m with [], [] => true | a :: l, b :: m => same a b && sames l m | _, _ => false end in
  match a, b with
  | VInt x, VInt y => Z.eqb x y
  | VTup l, VTup m => sames l m
  | VCon i l, VCon j m => Nat.eqb i j && sames l m
  | _, _ => false
  end.

Definition lookup_id {A} (id : nat) (l : list (nat * A)) : option A :=
  match find (fun p => Nat.eqb id (fst p)) l with Some p => Some (snd p) | None => None end.

Record world := { given : list val; log : list (val * val) }.
Definition draw (w : world) : option (val * world) :=
  match given w with v :: l => Some (v, {| given := l; log := log w |}) | [] => None end.
Definition record (v v' : val) (w : world) : world := {| given := given w; log := log w ++ [(v, v')] |}.

(** ** The source *)
Section Source.
Variable g : items.   (* the structs and enum variants of the program *)

Definition senv := list (string * val).
(** What a name that is not a local one means. *)
Definition constructor (rho : senv) (c : string) : option nat :=
  match assoc c rho, assoc c g with
  | None, Some (id, IsVariant _) | None, Some (id, IsStruct _) => Some id
  | _, _ => None
  end.
(** A name in a pattern is an enum variant if it is known as one without parameters. *)
Definition is_variant (rho : senv) (x : string) : option nat :=
  match assoc x rho, assoc x g with None, Some (id, IsVariant 0) => Some id | _, _ => None end.

(** Bindings made so far, and the names declared in this block but not yet defined. *)
Definition bindings := (senv * list string)%type.
Definition bind (x : string) (v : val) (b : bindings) : option bindings :=
  let (rho, pending) := b in
  if existsb (String.eqb x) pending
  then match assoc x rho with
       | Some v' => if same v v' then Some (rho, filter (fun y => negb (String.eqb x y)) pending) else None
       | None => None
       end
  else Some ((x, v) :: rho, pending).

Fixpoint smatch (p : pat) (v : val) (b : bindings) : option bindings :=
  match p with
  | PInt z => match v with VInt z' => if Z.eqb z z' then Some b else None | _ => None end
  | PName x =>
      match is_variant (fst b) x with
      | Some id => match v with VCon id' [] => if Nat.eqb id id' then Some b else None | _ => None end
      | None => bind x v b
      end
  | PAt x p => match smatch p v b with Some b => bind x v b | None => None end
  | PTup ps => match v with VTup vs => smatches ps vs b | _ => None end
  | PCon c ps =>
      match constructor (fst b) c, v with
      | Some id, VCon id' vs => if Nat.eqb id id' then smatches ps vs b else None
      | _, _ => None
      end
  end
with smatches (ps : pats) (vs : list val) (b : bindings) : option bindings :=
  match ps, vs with
  | PNil, [] => Some b
  | PCons p ps, v :: vs => match smatch p v b with Some b => smatches ps vs b | None => None end
  | _, _ => None
  end.

Fixpoint sdeclare (xs : list string) (b : bindings) (w : world) : option (bindings * world) :=
  match xs with
  | [] => Some (b, w)
  | x :: xs => match draw w with Some (v, w) => sdeclare xs ((x, v) :: fst b, x :: snd b) w | None => None end
  end.

Section Eval.
Variable app : val -> option val -> list val -> world -> option (val * world).   (* calls *)

Fixpoint seval (e : expr) (rho : senv) (w : world) : option (val * world) :=
  match e with
  | EInt z => Some (VInt z, w)
  | EVar x => match assoc x rho with Some v => Some (v, w) | None => None end
  | EAdd a b =>
      match seval a rho w with
      | Some (VInt x, w) => match seval b rho w with Some (VInt y, w) => Some (VInt (x + y), w) | _ => None end
      | _ => None
      end
  | ETup es => match sevals es rho w with Some (vs, w) => Some (VTup vs, w) | None => None end
  | EIdx e i =>
      match seval e rho w with
      | Some (VTup vs, w) => match nth_error vs i with Some v => Some (v, w) | None => None end
      | _ => None
      end
  | ECon c es =>
      match constructor rho c, sevals es rho w with
      | Some id, Some (vs, w) => Some (VCon id vs, w)
      | _, _ => None
      end
  | EIf c a b =>
      match seval c rho w with
      | Some (VInt z, w) => if Z.eqb z 0 then seval b rho w else seval a rho w
      | _ => None
      end
  | EMatch e l => match seval e rho w with Some (v, w) => sarms l v rho w | None => None end
  | EBlock ss e => match sstmts ss (rho, []) w with Some (rho, w) => seval e rho w | None => None end
  | ELam entity ps ss e => Some (VClo rho entity ps ss e, w)
  | ECall f es =>
      match seval f rho w with
      | Some (f, w) => match sevals es rho w with Some (vs, w) => app f None vs w | None => None end
      | None => None
      end
  | EInst f c es =>
      match seval f rho w with
      | Some (f, w) =>
          match seval c rho w with
          | Some (c, w) => match sevals es rho w with Some (vs, w) => app f (Some c) vs w | None => None end
          | None => None
          end
      | None => None
      end
  end
with sevals (es : exprs) (rho : senv) (w : world) : option (list val * world) :=
  match es with
  | ENil => Some ([], w)
  | ECons e es =>
      match seval e rho w with
      | Some (v, w) => match sevals es rho w with Some (vs, w) => Some (v :: vs, w) | None => None end
      | None => None
      end
  end
with sarms (l : arms) (v : val) (rho : senv) (w : world) : option (val * world) :=
  match l with
  | ANil => None
  | ACons p c e l =>
      match smatch p v (rho, []) with
      | Some b =>
          match seval c (fst b) w with
          | Some (VInt z, w) => if Z.eqb z 0 then sarms l v rho w else seval e (fst b) w
          | _ => None
          end
      | None => sarms l v rho w
      end
  end
with sstmts (ss : stmts) (b : bindings) (w : world) : option (senv * world) :=
  match ss with
  | SNil => Some (fst b, w)
  | SDecl xs ss => match sdeclare xs b w with Some (b, w) => sstmts ss b w | None => None end
  | SLet p e ss =>
      match seval e (fst b) w with
      | Some (v, w) => match smatch p v b with Some b => sstmts ss b w | None => None end
      | None => None
      end
  | SReg p e ss =>
      match draw w with
      | Some (v, w) =>
          match smatch p v b with
          | Some b =>
              match seval e (fst b) w with
              | Some (v', w) => sstmts ss b (record v v' w)
              | None => None
              end
          | None => None
          end
      | None => None
      end
  end.
End Eval.

(** Calls of lambdas, up to the depth [n]: the body with the arguments and the bindings
    remembered. *)
Fixpoint scall (n : nat) (f : val) (clk : option val) (vs : list val) (w : world) : option (val * world) :=
  match n, f with
  | S n, VClo rho entity ps ss e =>
      match (if entity
             then match clk, ps with Some c, PCons _ ps => Some (("clk"%string, c) :: rho, ps) | _, _ => None end
             else match clk with None => Some (rho, ps) | Some _ => None end) with
      | Some (rho, ps) =>
          match smatches ps vs (rho, []) with
          | Some b => seval (scall n) (EBlock ss e) (fst b) w
          | None => None
          end
      | None => None
      end
  | _, _ => None
  end.

(** A unit with inputs [xs]. *)
Definition run_source (n : nat) (xs : list string) (body : expr) (vs : list val) (w : world) : option (val * world) :=
  seval (scall n) body (rev (combine xs vs)) w.
End Source.

(** ** What is compiled *)
Section Target.
Variable P : units.
Definition tenv := list (nat * val).

Definition tbind (id : nat) (pre : bool) (v : val) (eta : tenv) : option tenv :=
  if pre then match lookup_id id eta with Some v' => if same v v' then Some eta else None | None => None end
  else Some ((id, v) :: eta).

Fixpoint tmatch (p : hpat) (v : val) (eta : tenv) : option tenv :=
  match p with
  | HPInt z => match v with VInt z' => if Z.eqb z z' then Some eta else None | _ => None end
  | HPBind id pre => tbind id pre v eta
  | HPAt id pre p => match tmatch p v eta with Some eta => tbind id pre v eta | None => None end
  | HPTup ps => match v with VTup vs => tmatches ps vs eta | _ => None end
  | HPCon id ps => match v with VCon id' vs => if Nat.eqb id id' then tmatches ps vs eta else None | _ => None end
  end
with tmatches (ps : hpats) (vs : list val) (eta : tenv) : option tenv :=
  match ps, vs with
  | HPNil, [] => Some eta
  | HPCons p ps, v :: vs => match tmatch p v eta with Some eta => tmatches ps vs eta | None => None end
  | _, _ => None
  end.

Fixpoint tdeclare (ids : list nat) (eta : tenv) (w : world) : option (tenv * world) :=
  match ids with
  | [] => Some (eta, w)
  | id :: ids => match draw w with Some (v, w) => tdeclare ids ((id, v) :: eta) w | None => None end
  end.

(** A field of a generated struct, by its name. *)
Fixpoint position (x : string) (l : list string) : option nat :=
  match l with [] => None | y :: l => if String.eqb x y then Some 0 else option_map S (position x l) end.
Definition field (v : val) (x : string) : option val :=
  match v with
  | VCon id vs =>
      match lookup_id id P with
      | Some u => match position x (u_fields u) with Some i => nth_error vs i | None => None end
      | None => None
      end
  | _ => None
  end.

Section Eval.
Variable app : val -> option val -> list val -> world -> option (val * world).

Fixpoint teval (e : hexpr) (eta : tenv) (w : world) : option (val * world) :=
  match e with
  | HInt z => Some (VInt z, w)
  | HVar id => match lookup_id id eta with Some v => Some (v, w) | None => None end
  | HAdd a b =>
      match teval a eta w with
      | Some (VInt x, w) => match teval b eta w with Some (VInt y, w) => Some (VInt (x + y), w) | _ => None end
      | _ => None
      end
  | HTup es => match tevals es eta w with Some (vs, w) => Some (VTup vs, w) | None => None end
  | HIdx e i =>
      match teval e eta w with
      | Some (VTup vs, w) => match nth_error vs i with Some v => Some (v, w) | None => None end
      | _ => None
      end
  | HCon id es => match tevals es eta w with Some (vs, w) => Some (VCon id vs, w) | None => None end
  | HField e x =>
      match teval e eta w with
      | Some (v, w) => match field v x with Some v => Some (v, w) | None => None end
      | None => None
      end
  | HIf c a b =>
      match teval c eta w with
      | Some (VInt z, w) => if Z.eqb z 0 then teval b eta w else teval a eta w
      | _ => None
      end
  | HMatch e l => match teval e eta w with Some (v, w) => tarms l v eta w | None => None end
  | HBlock ss e => match tstmts ss eta w with Some (eta, w) => teval e eta w | None => None end
  | HLam _ _ _ _ _ _ _ _ => None
  | HCall f es =>
      match teval f eta w with
      | Some (f, w) => match tevals es eta w with Some (vs, w) => app f None vs w | None => None end
      | None => None
      end
  | HInst f c es =>
      match teval f eta w with
      | Some (f, w) =>
          match teval c eta w with
          | Some (c, w) => match tevals es eta w with Some (vs, w) => app f (Some c) vs w | None => None end
          | None => None
          end
      | None => None
      end
  end
with tevals (es : hexprs) (eta : tenv) (w : world) : option (list val * world) :=
  match es with
  | HNil => Some ([], w)
  | HCons e es =>
      match teval e eta w with
      | Some (v, w) => match tevals es eta w with Some (vs, w) => Some (v :: vs, w) | None => None end
      | None => None
      end
  end
with tarms (l : harms) (v : val) (eta : tenv) (w : world) : option (val * world) :=
  match l with
  | HANil => None
  | HACons p c e l =>
      match tmatch p v eta with
      | Some eta' =>
          match teval c eta' w with
          | Some (VInt z, w) => if Z.eqb z 0 then tarms l v eta w else teval e eta' w
          | _ => None
          end
      | None => tarms l v eta w
      end
  end
with tstmts (ss : hstmts) (eta : tenv) (w : world) : option (tenv * world) :=
  match ss with
  | HSNil => Some (eta, w)
  | HSDecl ids ss => match tdeclare ids eta w with Some (eta, w) => tstmts ss eta w | None => None end
  | HSLet p e ss =>
      match teval e eta w with
      | Some (v, w) => match tmatch p v eta with Some eta => tstmts ss eta w | None => None end
      | None => None
      end
  | HSReg p e ss =>
      match draw w with
      | Some (v, w) =>
          match tmatch p v eta with
          | Some eta =>
              match teval e eta w with
              | Some (v', w) => tstmts ss eta (record v v' w)
              | None => None
              end
          | None => None
          end
      | None => None
      end
  end.
End Eval.

(** A call of a generated unit, chosen by the type of the receiver: the unit knows its
    inputs and nothing else.  The type of [args] is a tuple of [u_arity] members. *)
Fixpoint tcall (n : nat) (f : val) (clk : option val) (vs : list val) (w : world) : option (val * world) :=
  match n, f with
  | S n, VCon lid _ =>
      match lookup_id lid P with
      | Some u =>
          if List.length vs =? u_arity u
          then match u_clock u, clk with
               | Some c, Some v => teval (tcall n) (HBlock (u_ss u) (u_e u)) [(u_self u, f); (c, v); (u_args u, VTup vs)] w
               | None, None => teval (tcall n) (HBlock (u_ss u) (u_e u)) [(u_self u, f); (u_args u, VTup vs)] w
               | _, _ => None
               end
          else None
      | None => None
      end
  | _, _ => None
  end.

Definition run_target (n : nat) (ids : list nat) (h : hexpr) (vs : list val) (w : world) : option (val * world) :=
  teval (tcall n) (lower h) (rev (combine ids vs)) w.
End Target.

(** ** Vocabulary of the theorems *)

(** A value made of numbers, tuples and the program's own structs and variants. *)
Fixpoint plain (g : items) (v : val) : bool :=
  match v with
  | VInt _ => true
  | VTup vs => forallb (plain g) vs
  | VCon id vs => existsb (fun i => Nat.eqb id (fst (snd i))) g && forallb (plain g) vs
  | VClo _ _ _ _ _ => false
  end.
Definition plain_world (g : items) (w : world) : bool :=
  forallb (plain g) (given w) && forallb (fun p => plain g (fst p) && plain g (snd p)) (log w).

(** The program uses the name. *)
Fixpoint pat_uses (x : string) (p : pat) : bool :=
  match p with
  | PInt _ => false
  | PName y => String.eqb x y
  | PAt y p => String.eqb x y || pat_uses x p
  | PTup ps => pats_use x ps
  | PCon c ps => String.eqb x c || pats_use x ps
  end
with pats_use (x : string) (ps : pats) : bool :=
  match ps with PNil => false | PCons p ps => pat_uses x p || pats_use x ps end.
Fixpoint uses (x : string) (e : expr) : bool :=
  match e with
  | EInt _ => false
  | EVar y => String.eqb x y
  | EAdd a b => uses x a || uses x b
  | ETup es => exprs_use x es
  | EIdx e _ => uses x e
  | ECon c es => String.eqb x c || exprs_use x es
  | EIf c a b => uses x c || uses x a || uses x b
  | EMatch e l => uses x e || arms_use x l
  | EBlock ss e => stmts_use x ss || uses x e
  | ELam _ ps ss e => pats_use x ps || stmts_use x ss || uses x e
  | ECall f es => uses x f || exprs_use x es
  | EInst f c es => uses x f || uses x c || exprs_use x es
  end
with exprs_use (x : string) (es : exprs) : bool :=
  match es with ENil => false | ECons e es => uses x e || exprs_use x es end
with arms_use (x : string) (l : arms) : bool :=
  match l with ANil => false | ACons p g e l => pat_uses x p || uses x g || uses x e || arms_use x l end
with stmts_use (x : string) (ss : stmts) : bool :=
  match ss with
  | SNil => false
  | SDecl xs ss => existsb (String.eqb x) xs || stmts_use x ss
  | SLet p e ss => pat_uses x p || uses x e || stmts_use x ss
  | SReg p e ss => pat_uses x p || uses x e || stmts_use x ss
  end.

(** The names a block declares ahead, and those its statements then define. *)
Fixpoint pat_defines (p : hpat) : list nat :=
  match p with
  | HPInt _ => []
  | HPBind id pre => if pre then [id] else []
  | HPAt id pre p => pat_defines p ++ if pre then [id] else []
  | HPTup ps => pats_define ps
  | HPCon _ ps => pats_define ps
  end
with pats_define (ps : hpats) : list nat :=
  match ps with HPNil => [] | HPCons p ps => pat_defines p ++ pats_define ps end.
Fixpoint declared (ss : hstmts) : list nat :=
  match ss with
  | HSNil => []
  | HSDecl ids ss => ids ++ declared ss
  | HSLet _ _ ss | HSReg _ _ ss => declared ss
  end.
Fixpoint defined (ss : hstmts) : list nat :=
  match ss with
  | HSNil => []
  | HSDecl _ ss => defined ss
  | HSLet p _ ss | HSReg p _ ss => pat_defines p ++ defined ss
  end.
(** The blocks of an expression, and the names defined in arms and by parameters. *)
Fixpoint blocks (h : hexpr) : list hstmts :=
  match h with
  | HInt _ | HVar _ => []
  | HAdd a b => blocks a ++ blocks b
  | HTup es => blocks_exprs es
  | HIdx e _ => blocks e
  | HCon _ es => blocks_exprs es
  | HField e _ => blocks e
  | HIf c a b => blocks c ++ blocks a ++ blocks b
  | HMatch e l => blocks e ++ blocks_arms l
  | HBlock ss e => ss :: blocks_stmts ss ++ blocks e
  | HLam _ _ _ _ _ _ ss e => ss :: blocks_stmts ss ++ blocks e
  | HCall f es => blocks f ++ blocks_exprs es
  | HInst f c es => blocks f ++ blocks c ++ blocks_exprs es
  end
with blocks_exprs (es : hexprs) : list hstmts :=
  match es with HNil => [] | HCons e es => blocks e ++ blocks_exprs es end
with blocks_arms (l : harms) : list hstmts :=
  match l with HANil => [] | HACons _ g e l => blocks g ++ blocks e ++ blocks_arms l end
with blocks_stmts (ss : hstmts) : list hstmts :=
  match ss with
  | HSNil => []
  | HSDecl _ ss => blocks_stmts ss
  | HSLet _ e ss | HSReg _ e ss => blocks e ++ blocks_stmts ss
  end.
Fixpoint elsewhere (h : hexpr) : list nat :=
  match h with
  | HInt _ | HVar _ => []
  | HAdd a b => elsewhere a ++ elsewhere b
  | HTup es => elsewhere_exprs es
  | HIdx e _ => elsewhere e
  | HCon _ es => elsewhere_exprs es
  | HField e _ => elsewhere e
  | HIf c a b => elsewhere c ++ elsewhere a ++ elsewhere b
  | HMatch e l => elsewhere e ++ elsewhere_arms l
  | HBlock ss e => elsewhere_stmts ss ++ elsewhere e
  | HLam _ _ _ _ _ ps ss e => pats_define ps ++ elsewhere_stmts ss ++ elsewhere e
  | HCall f es => elsewhere f ++ elsewhere_exprs es
  | HInst f c es => elsewhere f ++ elsewhere c ++ elsewhere_exprs es
  end
with elsewhere_exprs (es : hexprs) : list nat :=
  match es with HNil => [] | HCons e es => elsewhere e ++ elsewhere_exprs es end
with elsewhere_arms (l : harms) : list nat :=
  match l with HANil => [] | HACons p g e l => pat_defines p ++ elsewhere g ++ elsewhere e ++ elsewhere_arms l end
with elsewhere_stmts (ss : hstmts) : list nat :=
  match ss with
  | HSNil => []
  | HSDecl _ ss => elsewhere_stmts ss
  | HSLet _ e ss | HSReg _ e ss => elsewhere e ++ elsewhere_stmts ss
  end.
