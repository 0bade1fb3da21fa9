(** The linear check: spade-hir-lowering/src/linear_check/{mod,linear_state}.rs. *)
From Coq Require Import List ZArith Bool Arith String.
From Verif Require Import ConcModel.
Import ListNotations.
Local Open Scope list_scope.

(** The part of spade-hir/src/expression.rs [ExprKind], lib.rs [Statement] and
    [PatternKind] the check looks at.  Every expression and pattern carries its
    id and its concrete type (from the type state, which is complete at this
    point).  Where the code has an optional expression, the list has at most one
    element.

    [KLit]: the expressions without operands (literals other than integers,
    stage.valid, ...); [KSeq]: tuple and array literals; [KProj]: [TupleIndex] and
    [FieldAccess]; [KUnary]: `-`, `!`, `~`; [KRef]: `&` and `*`; the flag of
    [KCall]: the callee is `std::ports::read_mut_wire`; named and positional
    arguments are the same. *)
Inductive step := SIdx (i : nat) | SField (f : string) | SView.

Inductive pat :=
| PLit
| PBound (id : nat) (ty : cty) (name : nat) (inner : pats) (pre_declared : bool)
| PList (l : pats)
with pats := PNil | PCons (p : pat) (l : pats).

Inductive expr := E (id : nat) (ty : cty) (k : kind)
with kind :=
| KName (n : nat)
| KInt (z : Z)
| KLit
| KSeq (l : exprs)
| KRepeat (a : expr) (n : nat)
| KIndex (a i : expr)
| KRange (a : expr)
| KProj (a : expr) (s : step)
| KCast (a : expr)
| KBinary (a b : expr)
| KUnary (a : expr)
| KRef (a : expr)
| KMatch (c : expr) (l : arms)
| KBlock (l : stmts) (result : exprs)
| KCall (reads : bool) (args : exprs)
| KIf (c t f : expr)
| KPipeRef (n : nat) (ty : cty) (declares : bool)
with exprs := ENil | ECons (e : expr) (l : exprs)
with arms := ANil | ACons (p : pat) (guard : exprs) (e : expr) (l : arms)
with stmts :=
| SNil
| SBind (p : pat) (e : expr) (l : stmts)
| SExpr (e : expr) (l : stmts)
| SReg (p : pat) (clk : expr) (reset initial : exprs) (value : expr) (l : stmts)
| SDecl (names : list (nat * cty)) (l : stmts)
| SCond (e : expr) (l : stmts)       (** a pipeline marker with a condition *)
| SSkip (l : stmts)                  (** other markers, labels, asserts *)
| SSet (target value : expr) (l : stmts).

Definition id_of (e : expr) : nat := match e with E id _ _ => id end.
Definition ty_of (e : expr) : cty := match e with E _ ty _ => ty end.
Definition kind_of (e : expr) : kind := match e with E _ _ k => k end.

(** linear_state.rs:50-78 [is_linear]. *)
Fixpoint is_linear (t : cty) : bool :=
  match t with
  | CTuple l => existsb is_linear l
  | CStruct l => existsb (fun p => is_linear (snd p)) l
  | CArray inner _ => is_linear inner
  | CInOut _ | CBackward _ => true
  | CError | CEnum _ | CBool | CInt _ | CUInt _ | CMemory _ _ | CCopyView _ => false
  end.

(** linear_state.rs:153-158 [UsageInfo], 166-173 [LinearTreeKind].  The nodes for
    structs, tuples and arrays are one constructor; their children are found by
    field name or index. *)
Inductive usage := Unlimited | Unused | Consumed.
Inductive tree :=
| Leaf (u : usage)
| Node (l : list (step * tree))
| View (t : tree).

(** 177-214 [try_consume]; [None]: the error. *)
Fixpoint try_consume (t : tree) : option tree :=
  match t with
  | Leaf Unlimited => Some (Leaf Unlimited)
  | Leaf Unused => Some (Leaf Consumed)
  | Leaf Consumed => None
  | Node l =>
      match (fix go (l : list (step * tree)) : option (list (step * tree)) :=
         match l with
         | [] => Some []
         | (s, t) :: l =>
             match try_consume t with
             | Some t => match go l with Some l => Some ((s, t) :: l) | None => None end
             | None => None
             end
         end) l with
      | Some l => Some (Node l)
      | None => None
      end
  | View t => Some (View t)
  end.

(** 287-326 [LinearTree::check_unused]. *)
Fixpoint no_unused (t : tree) : bool :=
  match t with
  | Leaf Unused => false
  | Leaf _ => true
  | Node l => forallb (fun p => no_unused (snd p)) l
  | View _ => true
  end.

(** 329-386 [build_linear_tree]. *)
Fixpoint build (t : cty) : tree :=
  match t with
  | CTuple l =>
      Node ((fix go (i : nat) (l : list cty) : list (step * tree) :=
               match l with [] => [] | t :: l => (SIdx i, build t) :: go (S i) l end) 0 l)
  | CStruct l => Node (map (fun p => (SField (fst p), build (snd p))) l)
  | CArray inner n =>
      if is_linear inner then Node (map (fun i => (SIdx i, build inner)) (seq 0 n)) else Leaf Unlimited
  | CInOut _ | CBackward _ => Leaf Unused
  | CCopyView inner => View (build inner)
  | CError | CEnum _ | CBool | CInt _ | CUInt _ | CMemory _ _ => Leaf Unlimited
  end.

(** 388-392 [ItemReference]. *)
Inductive ref := RName (n : nat) | RAnon (id : nat).

Definition step_eqb (a b : step) : bool :=
  match a, b with
  | SIdx i, SIdx j => i =? j
  | SField f, SField g => String.eqb f g
  | SView, SView => true
  | _, _ => false
  end.
Definition ref_eqb (a b : ref) : bool :=
  match a, b with RName n, RName m | RAnon n, RAnon m => n =? m | _, _ => false end.

(** A pointer to a node: the number of the tree, in the order of creation, and the
    way from its root.  Trees are never shared, so this identifies the
    [Rc<RefCell<LinearTree>>]. *)
Definition path := list step.
Definition addr := (nat * path)%type.
Fixpoint path_eqb (a b : path) : bool :=
  match a, b with
  | [], [] => true
  | s :: a, t :: b => step_eqb s t && path_eqb a b
  | _, _ => false
  end.
Definition addr_eqb (a b : addr) : bool := (fst a =? fst b) && path_eqb (snd a) (snd b).

(** 414-418 [LinearState], with the trees and with the aliases every node keeps
    (161-164) in the order they were added. *)
Record state := { heap : list tree; refs : list (ref * addr); aliases : list (addr * ref) }.

Fixpoint lookup (l : list (ref * addr)) (r : ref) : option addr :=
  match l with [] => None | (r', a) :: l => if ref_eqb r' r then Some a else lookup l r end.
(** [HashMap::insert] replaces. *)
Definition set_ref (l : list (ref * addr)) (r : ref) (a : addr) : list (ref * addr) :=
  (r, a) :: filter (fun p => negb (ref_eqb (fst p) r)) l.
Definition aliases_of (st : state) (a : addr) : list ref :=
  map snd (filter (fun p => addr_eqb (fst p) a) (aliases st)).

Fixpoint child (l : list (step * tree)) (s : step) : option tree :=
  match l with [] => None | (s', t) :: l => if step_eqb s' s then Some t else child l s end.
Fixpoint get (t : tree) (p : path) : option tree :=
  match p with
  | [] => Some t
  | s :: p =>
      match t, s with
      | View t, SView => get t p
      | Node l, SView => None
      | Node l, _ => match child l s with Some t => get t p | None => None end
      | _, _ => None
      end
  end.
(** The tree with the node at [p] changed by [f]. *)
Fixpoint modify (f : tree -> option tree) (p : path) (t : tree) : option tree :=
  match p with
  | [] => f t
  | s :: p =>
      match t, s with
      | View t, SView => match modify f p t with Some t => Some (View t) | None => None end
      | Node l, SView => None
      | Node l, _ =>
          match (fix go (l : list (step * tree)) : option (list (step * tree)) :=
             match l with
             | [] => None
             | (s', t) :: l =>
                 if step_eqb s' s then match modify f p t with Some t => Some ((s', t) :: l) | None => None end
                 else match go l with Some l => Some ((s', t) :: l) | None => None end
             end) l with
          | Some l => Some (Node l)
          | None => None
          end
      | _, _ => None
      end
  end.
Fixpoint set_nth {A} (l : list A) (n : nat) (x : A) : list A :=
  match l, n with [], _ => [] | _ :: l, 0 => x :: l | y :: l, S n => y :: set_nth l n x end.

(** 457-462 [push_type], 464-483 [push_new_expression], [push_new_name]. *)
Definition push (r : ref) (ty : cty) (st : state) : state :=
  let a := (List.length (heap st), []) in
  {| heap := heap st ++ [build ty]; refs := set_ref (refs st) r a; aliases := aliases st ++ [(a, r)] |}.

(** 485-521 [merge]; [None]: a diagnostic. *)
Definition add_ref (st : state) (a : addr) (r : ref) : state :=
  {| heap := heap st; refs := set_ref (refs st) r a; aliases := aliases st ++ [(a, r)] |}.
Definition merge (st : state) (l r : ref) : option state :=
  match lookup (refs st) l, lookup (refs st) r with
  | Some a, None => Some (add_ref st a r)
  | None, Some a => Some (add_ref st a l)
  | Some a, Some b => if addr_eqb a b then Some st else None
  | None, None => None
  end.

(** 531-560 [alias_subtree]: views are looked through.  [None]: a panic. *)
Fixpoint strip (t : tree) : path * tree :=
  match t with View t => let '(p, t) := strip t in (SView :: p, t) | t => ([], t) end.
Definition alias_sub (st : state) (id base : nat) (s : step) : option state :=
  match lookup (refs st) (RAnon base) with
  | Some (k, p) =>
      match nth_error (heap st) k with
      | Some t =>
          match get t p with
          | Some t =>
              let '(views, t) := strip t in
              match get t [s] with
              | Some _ => Some (add_ref st (k, p ++ views ++ [s]) (RAnon id))
              | None => None
              end
          | None => None
          end
      | None => None
      end
  | None => None
  end.

(** 687-713 of [consume_id]: the trees found by following the aliases.  [refs] is
    the stack with its top first. *)
Fixpoint walk (fuel : nat) (st : state) (seen : list addr) (stack : list ref) : option (list addr) :=
  match fuel with
  | 0 => None
  | S fuel =>
      match stack with
      | [] => Some seen
      | r :: stack =>
          match lookup (refs st) r with
          | None => None
          | Some a =>
              if existsb (addr_eqb a) seen then Some seen
              else walk fuel st (seen ++ [a]) (rev (aliases_of st a) ++ stack)
          end
      end
  end.
Definition consume_at (st : state) (a : addr) : option state :=
  match nth_error (heap st) (fst a) with
  | Some t =>
      match modify try_consume (snd a) t with
      | Some t => Some {| heap := set_nth (heap st) (fst a) t; refs := refs st; aliases := aliases st |}
      | None => None
      end
  | None => None
  end.
Fixpoint consume_all (st : state) (l : list addr) : option state :=
  match l with
  | [] => Some st
  | a :: l => match consume_at st a with Some st => consume_all st l | None => None end
  end.
(** 683-727 [consume_id]. *)
Definition consume_id (st : state) (id : nat) : option state :=
  match walk (S (S (List.length (refs st)))) st [] [RAnon id] with
  | Some l => consume_all st l
  | None => None
  end.
Definition consume (st : state) (e : expr) : option state := consume_id st (id_of e).

Notation "'do' x <- a ; b" := (match a with Some x => b | None => None end)
  (at level 200, x name, a at level 100, b at level 200, right associativity).

(** 647-677 [consume_pattern]. *)
Fixpoint consume_pattern (p : pat) (st : state) : option state :=
  match p with
  | PLit => Some st
  | PBound id _ _ inner _ => do st <- consume_id st id; consume_patterns inner st
  | PList l => consume_patterns l st
  end
with consume_patterns (l : pats) (st : state) : option state :=
  match l with
  | PNil => Some st
  | PCons p l => do st <- consume_pattern p st; consume_patterns l st
  end.

(** 605-645 [push_pattern]. *)
Fixpoint push_pattern (p : pat) (st : state) : option state :=
  match p with
  | PLit => Some st
  | PBound id ty name inner pre =>
      let st := if pre then st else push (RAnon id) ty st in
      do st <- merge st (RAnon id) (RName name);
      match inner with
      | PNil => Some st
      | _ =>
          do st <- push_patterns inner st;
          do st <- consume_patterns inner st;
          consume_id st id
      end
  | PList l => push_patterns l st
  end
with push_patterns (l : pats) (st : state) : option state :=
  match l with
  | PNil => Some st
  | PCons p l => do st <- push_pattern p st; push_patterns l st
  end.

(** mod.rs:149-190 *)
Definition produces_new_resource (k : kind) : bool :=
  match k with KName _ | KProj _ _ | KPipeRef _ _ _ => false | _ => true end.

Fixpoint push_names (l : list (nat * cty)) (st : state) : state :=
  match l with [] => st | (n, ty) :: l => push_names l (push (RName n) ty st) end.

(** mod.rs:143-426 [visit_expression], 76-140 [visit_statement].  [visit_consume]
    and [visit_all]: a list of operands that are, or are not, consumed. *)
Fixpoint visit (e : expr) (st : state) : option state :=
  match e with
  | E id ty k => visit_kind id k (if produces_new_resource k then push (RAnon id) ty st else st)
  end
with visit_kind (id : nat) (k : kind) (st : state) : option state :=
  match k with
  | KName n => merge st (RAnon id) (RName n)
  | KInt _ | KLit => Some st
  | KSeq l => visit_consume l st
  | KRepeat a _ => do st <- visit a st; do st <- consume st a; consume st a
  | KIndex a i =>
      do st <- visit a st;
      do st <- visit i st;
      do st <-
        (if is_linear (ty_of a) then
           match kind_of i with
           | KInt z => if (z <? 0)%Z then None else alias_sub st id (id_of a) (SIdx (Z.to_nat z))
           | _ => None
           end
         else consume st a);
      consume st i
  | KRange a => do st <- visit a st; consume st a
  | KProj a s => do st <- visit a st; alias_sub st id (id_of a) s
  | KCast a => visit a st
  | KBinary a b => do st <- visit a st; do st <- visit b st; do st <- consume st a; consume st b
  | KUnary a => do st <- visit a st; consume st a
  | KRef a => visit a st
  | KMatch c l => do st <- visit c st; visit_arms l st
  | KBlock l r => do st <- visit_stmts l st; visit_consume r st
  | KCall reads args => if reads then visit_all args st else visit_consume args st
  | KIf c t f => do st <- visit c st; do st <- visit t st; visit f st
  | KPipeRef n ty declares =>
      merge (if declares then push (RName n) ty st else st) (RAnon id) (RName n)
  end
with visit_consume (l : exprs) (st : state) : option state :=
  match l with
  | ENil => Some st
  | ECons e l => do st <- visit e st; do st <- consume st e; visit_consume l st
  end
with visit_all (l : exprs) (st : state) : option state :=
  match l with
  | ENil => Some st
  | ECons e l => do st <- visit e st; visit_all l st
  end
with visit_arms (l : arms) (st : state) : option state :=
  match l with
  | ANil => Some st
  | ACons p g e l =>
      do st <- push_pattern p st; do st <- visit_all g st; do st <- visit e st; visit_arms l st
  end
with visit_stmts (l : stmts) (st : state) : option state :=
  match l with
  | SNil => Some st
  | SBind p e l => do st <- visit e st; do st <- consume st e; do st <- push_pattern p st; visit_stmts l st
  | SExpr e l => do st <- visit e st; visit_stmts l st
  | SReg p clk reset initial value l =>
      do st <- push_pattern p st;
      do st <- visit clk st;
      do st <- visit_all reset st;
      do st <- visit_all initial st;
      do st <- visit value st;
      do st <- consume st value;
      visit_stmts l st
  | SDecl names l => visit_stmts l (push_names names st)
  | SCond e l => do st <- visit e st; visit_stmts l st
  | SSkip l => visit_stmts l st
  | SSet target value l =>
      do st <- visit target st;
      do st <- visit value st;
      do st <- consume st target;
      do st <- consume st value;
      visit_stmts l st
  end.

(** linear_state.rs:431-455 [LinearState::check_unused]. *)
Definition check_unused (st : state) : bool :=
  forallb (fun p =>
    match nth_error (heap st) (fst (snd p)) with
    | Some t => match get t (snd (snd p)) with Some t => no_unused t | None => true end
    | None => true
    end) (refs st).

(** A unit: its inputs and its body. *)
Record unit_ := { u_inputs : list (nat * cty); u_body : expr }.

(** mod.rs:31-74 [check_linear_types]: accepted or not. *)
Definition check_linear_types (u : unit_) : bool :=
  match
    (do st <- visit (u_body u) (push_names (u_inputs u) {| heap := []; refs := []; aliases := [] |});
     consume st (u_body u))
  with
  | Some st => check_unused st
  | None => false
  end.
