(** MIR entities and the passes that run on them before code generation:
    spade-mir/src/lib.rs (statements), aliasing.rs, renaming.rs,
    passes/deduplicate_mut_wires.rs, and the identifiers of codegen/util.rs.

    Simplifications: source locations, attributes and the [ValueNameSource] of a
    name are dropped (they take no part in equality, lib.rs:86-105); operators
    other than the expression operators of CodegenModel are opaque tokens, as
    are constants and the initial value of a register. *)
From Coq Require Import List ZArith Bool Arith String DecimalString.
From Verif Require Import Bits CodegenModel.
Import ListNotations.
Local Open Scope list_scope.
Local Open Scope nat_scope.

(** spade-mir/src/lib.rs:86-105 [ValueName]; [EId] is [ValueName::Expr]. *)
Inductive vn :=
| Named (id : nat) (name : string)
| EId (id : nat).

Definition vn_eqb (a b : vn) : bool :=
  match a, b with
  | Named i s, Named j t => (i =? j) && String.eqb s t
  | EId i, EId j => i =? j
  | _, _ => false
  end.

Definition mem (x : vn) (l : list vn) : bool := existsb (vn_eqb x) l.

(** spade-mir/src/lib.rs:170-320.  The statement-level operators are tokens with
    the property the passes look at: [deduplicable] for
    passes/deduplicate_mut_wires.rs:39-108 (only [IndexMemory] among them). *)
Inductive mop :=
| MOp (o : operator)
| MIndexMemory
| MOther (token : nat).

(** spade-mir/src/lib.rs:540-640 [Statement].  [SAlias name operand ty] is a
    [Binding] whose operator is [Alias]; it always has exactly one operand. *)
Inductive stmt :=
| SBind (name : vn) (op : mop) (operands : list vn) (t : ty)
| SAlias (name operand : vn) (t : ty)
| SReg (name : vn) (t : ty) (clock : vn) (reset : option (vn * vn)) (initial : option nat) (value : vn)
| SConst (name : vn) (t : ty) (c : nat)
| SAssert (v : vn)
| SSet (target value : vn)
| SError.

(** spade-mir/src/lib.rs:655-700 [MirInput], [Entity] *)
Record minput := { in_name : string; in_val : vn; in_ty : ty; in_no_mangle : bool }.
Record entity :=
  { e_inputs : list minput; e_output : vn; e_output_ty : ty; e_stmts : list stmt }.

(** Rename every value name in a statement (the name replacement loops of
    aliasing.rs:127-166 and renaming.rs:170-213). *)
Definition map_stmt (f : vn -> vn) (s : stmt) : stmt :=
  match s with
  | SBind n o ops t => SBind (f n) o (map f ops) t
  | SAlias n o t => SAlias (f n) (f o) t
  | SReg n t c r i v =>
      SReg (f n) t (f c) (match r with Some (a, b) => Some (f a, f b) | None => None end) i (f v)
  | SConst n t c => SConst (f n) t c
  | SAssert v => SAssert (f v)
  | SSet a b => SSet (f a) (f b)
  | SError => SError
  end.

(** ** Alias flattening, spade-mir/src/aliasing.rs *)

(** The adjacency map [edges] (lines 21, 32-47), as an association list; a
    [BTreeMap] iterates in key order, here in insertion order. *)
Definition adj := list (vn * list vn).
Fixpoint push_edge (x y : vn) (E : adj) : adj :=
  match E with
  | [] => [(x, [y])]
  | (k, l) :: E' => if vn_eqb k x then (k, l ++ [y]) :: E' else (k, l) :: push_edge x y E'
  end.
Fixpoint build_edges (ss : list stmt) (E : adj) : adj :=
  match ss with
  | [] => E
  | SAlias n o _ :: r => build_edges r (push_edge o n (push_edge n o E))
  | _ :: r => build_edges r E
  end.
Definition find_edges (x : vn) (E : adj) : option (list vn) :=
  option_map snd (find (fun p => vn_eqb (fst p) x) E).
Definition remove_edges (x : vn) (E : adj) : adj :=
  filter (fun p => negb (vn_eqb (fst p) x)) E.
Definition add_node (x : vn) (c : list vn) : list vn := if mem x c then c else c ++ [x].

(** aliasing.rs:64-77, the inner [while] loop. *)
Fixpoint visit (fuel : nat) (E : adj) (to_visit cluster : list vn) : adj * list vn :=
  match fuel, to_visit with
  | S fuel, node :: rest =>
      match find_edges node E with
      | Some es => visit fuel (remove_edges node E) (rest ++ es) (add_node node cluster)
      | None => visit fuel E rest (add_node node cluster)
      end
  | _, _ => (E, cluster)
  end.
Definition edge_count (E : adj) : nat := list_sum (map (fun p => List.length (snd p)) E).
(** aliasing.rs:61-79, the outer [while] loop. *)
Fixpoint clusters (fuel : nat) (E : adj) : list (list vn) :=
  match fuel, E with
  | S fuel, (source, _) :: _ =>
      let r := visit (S (edge_count E)) E [source] [] in
      snd r :: clusters fuel (fst r)
  | _, _ => []
  end.

(** aliasing.rs:92-100, the sort key of a cluster member. *)
Definition node_key (inputs : list vn) (n : vn) : nat :=
  if mem n inputs then 0 else match n with Named _ _ => 1 | EId _ => 2 end.
(** [sorted_by_key(..).next()]: the first member with the smallest key. *)
Fixpoint first_min (key : vn -> nat) (best : vn) (l : list vn) : vn :=
  match l with
  | [] => best
  | x :: r => first_min key (if key x <? key best then x else best) r
  end.
Definition representative (inputs c : list vn) : option vn :=
  match c with [] => None | x :: r => Some (first_min (node_key inputs) x r) end.

(** [types] map, aliasing.rs:35-36: the last alias statement mentioning a name wins. *)
Fixpoint alias_ty (ss : list stmt) (x : vn) (acc : option ty) : option ty :=
  match ss with
  | [] => acc
  | SAlias n o t :: r => alias_ty r x (if vn_eqb n x || vn_eqb o x then Some t else acc)
  | _ :: r => alias_ty r x acc
  end.

Definition rename_table := list (vn * vn).
Definition lookup_name (m : rename_table) (x : vn) : option vn :=
  option_map snd (find (fun p => vn_eqb (fst p) x) m).
(** aliasing.rs:9-13 [try_rename] *)
Definition try_rename (m : rename_table) (x : vn) : vn :=
  match lookup_name m x with Some y => y | None => x end.

Section Flatten.
  (** Iteration order of a [HashSet]: some reordering of its elements. *)
  Variable ord : list vn -> list vn.

  (** aliasing.rs:81-118: [final_aliases] and [new_aliases] contributed by one cluster. *)
  Definition cluster_aliases (inputs : list vn) (ss : list stmt) (c : list vn)
    : rename_table * list (vn * vn) :=
    let c := ord c in
    match representative inputs c with
    | None => ([], [])
    | Some rep =>
        let others := filter (fun n => negb (vn_eqb n rep)) c in
        (map (fun n => (n, rep)) others,
         map (fun n => (rep, n))
           (filter (fun n => match n with
                             | Named _ _ => match alias_ty ss n None with
                                            | Some t => backward_size t =? 0
                                            | None => false
                                            end
                             | EId _ => false
                             end) others))
    end.

  Definition final_aliases (inputs : list vn) (ss : list stmt) : rename_table :=
    let E := build_edges ss [] in
    List.concat (map (fun c => fst (cluster_aliases inputs ss c)) (clusters (List.length E) E)).
  Definition new_aliases (inputs : list vn) (ss : list stmt) : list (vn * vn) :=
    let E := build_edges ss [] in
    List.concat (map (fun c => snd (cluster_aliases inputs ss c)) (clusters (List.length E) E)).

  (** aliasing.rs:120-131 *)
  Definition retain (m : rename_table) (s : stmt) : bool :=
    match s with
    | SAlias n o _ => match lookup_name m o, lookup_name m n with None, None => true | _, _ => false end
    | _ => true
    end.

  (** aliasing.rs:19-189 [flatten_aliases] *)
  Definition flatten_aliases (e : entity) : entity :=
    let inputs := map in_val (e_inputs e) in
    let m := final_aliases inputs (e_stmts e) in
    let extra :=
      map (fun p => SAlias (snd p) (fst p)
                      (match alias_ty (e_stmts e) (fst p) None with Some t => t | None => TTuple [] end))
        (new_aliases inputs (e_stmts e)) in
    {| e_inputs := e_inputs e;
       e_output := try_rename m (e_output e);
       e_output_ty := e_output_ty e;
       e_stmts := map (map_stmt (try_rename m)) (filter (retain m) (e_stmts e)) ++ extra |}.
End Flatten.

(** ** Predictable names, spade-mir/src/renaming.rs *)

Definition counts := list (string * nat).
Fixpoint bump (s : string) (c : counts) : nat * counts :=
  match c with
  | [] => (0, [(s, 0)])
  | (k, v) :: r => if String.eqb k s then (S v, (k, S v) :: r)
                   else let p := bump s r in (fst p, (k, v) :: snd p)
  end.
(** The last insertion for a key wins, so [name_map] is kept newest first. *)
Record name_state := { ns_names : counts; ns_map : rename_table }.
(** renaming.rs:74-90 [NameState::push] *)
Definition push_name (st : name_state) (n : vn) : name_state :=
  match n with
  | Named _ s =>
      let p := bump s (ns_names st) in
      {| ns_names := snd p; ns_map := (n, Named (fst p) s) :: ns_map st |}
  | EId _ => {| ns_names := ns_names st; ns_map := (n, n) :: ns_map st |}
  end.
(** The name a statement defines (renaming.rs:117-148). *)
Definition defined (s : stmt) : list vn :=
  match s with
  | SBind n _ _ _ | SAlias n _ _ | SReg n _ _ _ _ _ | SConst n _ _ => [n]
  | SAssert _ | SSet _ _ | SError => []
  end.
Definition definitions (e : entity) : list vn :=
  map in_val (e_inputs e) ++ flat_map defined (e_stmts e).
(** renaming.rs:92-97 [NameState::get] *)
Definition get_name (st : name_state) (n : vn) : vn := try_rename (ns_map st) n.
Definition name_table (e : entity) : name_state :=
  fold_left push_name (definitions e) {| ns_names := []; ns_map := [] |}.

Definition rename_entity (f : vn -> vn) (e : entity) : entity :=
  {| e_inputs := map (fun i => {| in_name := in_name i; in_val := f (in_val i);
                                  in_ty := in_ty i; in_no_mangle := in_no_mangle i |}) (e_inputs e);
     e_output := f (e_output e);
     e_output_ty := e_output_ty e;
     e_stmts := map (map_stmt f) (e_stmts e) |}.
(** renaming.rs:100-216 [make_names_predictable] *)
Definition make_names_predictable (e : entity) : entity :=
  rename_entity (get_name (name_table e)) e.

(** ** Emitted identifiers.  An escaped identifier [\x ] denotes the same name as
    [x] (IEEE 1364-2005, 3.7.1), so only the unescaped spelling is modelled. *)
Definition show_nat (n : nat) : string := NilEmpty.string_of_uint (Nat.to_uint n).
(** [Display for ValueName], spade-mir/src/lib.rs:141-158, and
    codegen/util.rs:7-14 [unescaped_var_name] *)
Definition var_name (n : vn) : string :=
  match n with
  | Named id s =>
      if (id =? 0) && negb (String.eqb s "new"%string) then s else (s ++ "_n" ++ show_nat id)%string
  | EId id => ("_e_" ++ show_nat id)%string
  end.
(** codegen/util.rs:32-45 [backward_var_name] *)
Definition backward_var_name (n : vn) : string :=
  match n with
  | Named id s =>
      if id =? 0 then (s ++ "_mut")%string else (s ++ "_n" ++ show_nat id ++ "_mut")%string
  | EId id => ("_e_" ++ show_nat id ++ "_mut")%string
  end.
(** codegen/util.rs:60-74 *)
Definition mangle_input (no_mangle : bool) (s : string) : string :=
  (if no_mangle then s else s ++ "_i")%string.
Definition mangle_output (no_mangle : bool) (s : string) : string :=
  (if no_mangle then s else s ++ "_o")%string.

(** The type a statement declares its name with. *)
Definition defined_ty (s : stmt) : list (vn * ty) :=
  match s with
  | SBind n _ _ t | SAlias n _ t | SReg n t _ _ _ _ | SConst n t _ => [(n, t)]
  | SAssert _ | SSet _ _ | SError => []
  end.
Definition decl_names (p : vn * ty) : list string :=
  (if size (snd p) =? 0 then [] else [var_name (fst p)])
  ++ (if backward_size (snd p) =? 0 then [] else [backward_var_name (fst p)]).
(** The identifiers declared by [entity_code] (codegen/mod.rs:1337-1470): ports,
    the local copy of each input (omitted for a [no_mangle] forward port), the
    output ports, and one declaration per defining statement
    ([statement_declaration], mod.rs:33-190). *)
Definition declared_names (e : entity) : list string :=
  flat_map (fun i =>
      (if size (in_ty i) =? 0 then []
       else mangle_input (in_no_mangle i) (in_name i)
            :: (if in_no_mangle i then [] else [var_name (in_val i)]))
      ++ (if backward_size (in_ty i) =? 0 then []
          else [mangle_output (in_no_mangle i) (in_name i); backward_var_name (in_val i)]))
    (e_inputs e)
  ++ (if backward_size (e_output_ty e) =? 0 then [] else ["input__"%string])
  ++ (if size (e_output_ty e) =? 0 then [] else ["output__"%string])
  ++ flat_map (fun s => flat_map decl_names (defined_ty s)) (e_stmts e).

(** ** De-duplication of inverted wires, passes/deduplicate_mut_wires.rs *)

(** lines 39-108 [op_needs_deduplication]; [Alias] is treated with [SAlias]. *)
Definition op_needs_deduplication (o : mop) : bool :=
  match o with
  | MOp (IndexArray | RangeIndexArray _ _ | RangeIndexBits _ _ | ConstructTuple | ConstructEnum _
        | ConstructCopyView | IsEnumVariant _ | EnumMember _ _ | Select | IndexTuple _) => true
  | MIndexMemory => true
  | _ => false
  end.

(** A binding as the pass sees it: name, (operator, operands, type) key, and
    whether its operator is deduplicable.  [None] in the key stands for [Alias]. *)
Definition as_binding (s : stmt) : option (vn * (option mop * list vn * ty)) :=
  match s with
  | SBind n o ops t => Some (n, (Some o, ops, t))
  | SAlias n o t => Some (n, (None, [o], t))
  | _ => None
  end.
Definition needs_dedup (k : option mop * list vn * ty) : bool :=
  nonzero (backward_size (snd k))
  && match fst (fst k) with Some o => op_needs_deduplication o | None => true end.

Definition operator_eq_dec (a b : operator) : {a = b} + {a <> b}.
Proof. decide equality; apply Nat.eq_dec. Defined.
Definition mop_eqb (a b : mop) : bool :=
  match a, b with
  | MOp x, MOp y => if operator_eq_dec x y then true else false
  | MIndexMemory, MIndexMemory => true
  | MOther i, MOther j => i =? j
  | _, _ => false
  end.
Definition list_eqb {A} (f : A -> A -> bool) : list A -> list A -> bool :=
  fix go (a b : list A) : bool :=
    match a, b with
    | [], [] => true
    | x :: a, y :: b => f x y && go a b
    | _, _ => false
    end.
(** Derived [PartialEq] of spade-mir/src/types.rs:4-28 [Type]. *)
Fixpoint ty_eqb (a b : ty) : bool :=
  match a, b with
  | TInt n, TInt m | TUInt n, TUInt m => n =? m
  | TBool, TBool => true
  | TTuple l, TTuple m => list_eqb ty_eqb l m
  | TStruct l, TStruct m =>
      list_eqb (fun p q => String.eqb (fst p) (fst q) && ty_eqb (snd p) (snd q)) l m
  | TArray i n, TArray j m | TMemory i n, TMemory j m => ty_eqb i j && (n =? m)
  | TEnum l, TEnum m => list_eqb (list_eqb ty_eqb) l m
  | TBackward i, TBackward j | TCopyView i, TCopyView j | TInOut i, TInOut j => ty_eqb i j
  | _, _ => false
  end.
Definition key_eqb (a b : option mop * list vn * ty) : bool :=
  match fst (fst a), fst (fst b) with
  | Some x, Some y => mop_eqb x y
  | None, None => true
  | _, _ => false
  end
  && list_eqb vn_eqb (snd (fst a)) (snd (fst b)) && ty_eqb (snd a) (snd b).

(** lines 26-37 [recursive_lookup]; the fuel bounds the recursion, which for a
    cyclic table would not end. *)
Fixpoint recursive_lookup (fuel : nat) (m : rename_table) (x : vn) : option vn :=
  match fuel with
  | 0 => None
  | S fuel =>
      match lookup_name m x with
      | Some next => match recursive_lookup fuel m next with Some d => Some d | None => Some next end
      | None => None
      end
  end.

Definition seen_table := list ((option mop * list vn * ty) * vn).
(** The first loop of [replace_duplicate_mut_wires], lines 112-146.  Both maps
    are kept newest first. *)
Fixpoint find_replaced (ss : list stmt) (seen : seen_table) (m : rename_table) : rename_table :=
  match ss with
  | [] => m
  | s :: r =>
      match as_binding s with
      | Some (n, k) =>
          let m' :=
            if needs_dedup k then
              match find (fun p => key_eqb (fst p) k) seen with
              | Some (_, prev) =>
                  (n, match recursive_lookup (S (List.length m)) m prev with
                      | Some d => d | None => prev end) :: m
              | None => m
              end
            else m in
          find_replaced r ((k, n) :: seen) m'
      | None => find_replaced r seen m
      end
  end.
(** lines 148-192, the second loop. *)
Definition dedup_stmt (m : rename_table) (s : stmt) : list stmt :=
  match s with
  | SBind n o ops t =>
      match lookup_name m n with Some _ => [] | None => [SBind n o (map (try_rename m) ops) t] end
  | SAlias n o t =>
      match lookup_name m n with Some _ => [] | None => [SAlias n (try_rename m o) t] end
  | SSet target v => match lookup_name m target with Some _ => [] | None => [s] end
  | SReg _ _ _ _ _ _ | SConst _ _ _ | SAssert _ | SError => [s]
  end.
(** lines 110-199 [replace_duplicate_mut_wires]; every round with a replacement
    removes a statement, so [length ss] rounds are enough. *)
Fixpoint replace_duplicate_mut_wires (fuel : nat) (ss : list stmt) : list stmt :=
  let m := find_replaced ss [] [] in
  let r := flat_map (dedup_stmt m) ss in
  match fuel, m with
  | S fuel, _ :: _ => replace_duplicate_mut_wires fuel r
  | _, _ => r
  end.
(** lines 14-23; the entity's output name is not part of the statements and is
    left as it is. *)
Definition deduplicate_mut_wires (e : entity) : entity :=
  {| e_inputs := e_inputs e; e_output := e_output e; e_output_ty := e_output_ty e;
     e_stmts := replace_duplicate_mut_wires (List.length (e_stmts e)) (e_stmts e) |}.
