(** Local names and lambdas: how lowering of the syntax tree gives each variable an
    identifier and finds what a lambda captures, and how monomorphisation turns lambdas
    into structs and units.

    /repo/spade-ast-lowering/src/lib.rs, lambda.rs, /repo/spade-hir/src/symbol_table.rs,
    /repo/spade-hir-lowering/src/passes/lower_lambda_defs.rs.

    Simplifications.  Types are left out (so a lambda has one instance instead of one for
    each choice of types, and the key of a replacement is the lambda alone).  Names are
    single identifiers, found by scope (the rules for paths, aliases and visibility are
    those of SymModel.v); of the expressions there are representatives: numbers, variables,
    addition, tuples, constructors of structs and enum variants, [if], [match], blocks,
    lambdas and their calls.  Booleans are the numbers 0 and 1.  A visit that reports an
    error is [None].  Pipelines and their stage references are left out. *)
From Coq Require Import ZArith List Bool String Arith.
Import ListNotations.
Open Scope nat_scope.

(** * The syntax tree: /repo/spade-ast/src/lib.rs *)
Inductive pat :=
| PInt (z : Z)
| PName (x : string)                       (* [Pattern::Path] with one segment *)
| PAt (x : string) (p : pat)               (* [Pattern::Bound] *)
| PTup (ps : pats)
| PCon (c : string) (ps : pats)            (* [Pattern::Type] with positional arguments *)
with pats := PNil | PCons (p : pat) (ps : pats).

Inductive expr :=
| EInt (z : Z)
| EVar (x : string)
| EAdd (a b : expr)
| ETup (es : exprs)
| EIdx (e : expr) (i : nat)
| ECon (c : string) (es : exprs)           (* a call of a struct or of an enum variant *)
| EIf (c a b : expr)
| EMatch (e : expr) (l : arms)
| EBlock (ss : stmts) (e : expr)
| ELam (entity : bool) (ps : pats) (ss : stmts) (e : expr)
| ECall (f : expr) (es : exprs)            (* [f.call((..))] *)
| EInst (f clk : expr) (es : exprs)        (* [inst f.call(clk, (..))] *)
with exprs := ENil | ECons (e : expr) (es : exprs)
with arms := ANil | ACons (p : pat) (g e : expr) (l : arms)   (* no [if]: the guard 1 *)
with stmts :=
| SNil
| SDecl (xs : list string) (ss : stmts)
| SLet (p : pat) (e : expr) (ss : stmts)
| SReg (p : pat) (e : expr) (ss : stmts).

Fixpoint plen (ps : pats) : nat := match ps with PNil => 0 | PCons _ ps => S (plen ps) end.

(** * HIR: /repo/spade-hir/src/lib.rs, expression.rs.  Variables are [NameID]s. *)
Inductive hpat :=
| HPInt (z : Z)
| HPBind (id : nat) (pre_declared : bool)
| HPAt (id : nat) (pre_declared : bool) (p : hpat)
| HPTup (ps : hpats)
| HPCon (id : nat) (ps : hpats)
with hpats := HPNil | HPCons (p : hpat) (ps : hpats).

Inductive hexpr :=
| HInt (z : Z)
| HVar (id : nat)
| HAdd (a b : hexpr)
| HTup (es : hexprs)
| HIdx (e : hexpr) (i : nat)
| HCon (id : nat) (es : hexprs)
| HField (e : hexpr) (x : string)
| HIf (c a b : hexpr)
| HMatch (e : hexpr) (l : harms)
| HBlock (ss : hstmts) (e : hexpr)
(* [LambdaDef]: the generated struct, what is captured, the inputs of the generated unit
   ([self], the clock and [args]), the clock in the body, the arguments and the body *)
| HLam (lid : nat) (caps : list (string * nat)) (self args : nat) (clock : option (nat * nat))
       (ps : hpats) (ss : hstmts) (e : hexpr)
| HCall (f : hexpr) (es : hexprs)
| HInst (f clk : hexpr) (es : hexprs)
with hexprs := HNil | HCons (e : hexpr) (es : hexprs)
with harms := HANil | HACons (p : hpat) (g e : hexpr) (l : harms)
with hstmts :=
| HSNil
| HSDecl (ids : list nat) (ss : hstmts)
| HSLet (p : hpat) (e : hexpr) (ss : hstmts)
| HSReg (p : hpat) (e : hexpr) (ss : hstmts).

(** * The symbol table: symbol_table.rs:330-350, 485-512, 534-555.
    A thing is kept beside the identifier it belongs to. *)
Inductive thing := IsVar | IsVariant (params : nat) | IsStruct (params : nat).

Definition assoc {A} (x : string) (l : list (string * A)) : option A :=
  match find (fun p => String.eqb x (fst p)) l with Some p => Some (snd p) | None => None end.

(** [declarations]: the name still to be defined, or [None] when it has been.
    [barrier]: what the closure passed to [new_scope_with_barrier] has collected. *)
Record scope := {
  vars : list (string * (nat * thing));
  decls : list (string * option nat);
  barrier : option (list (string * nat)) }.
Record table := { next : nat; scopes : list scope }.

(** lambda.rs:93-120: the closure called with a thing found beyond the scope: a variable is
    remembered unless one of its name has been. *)
Definition noted (x : string) (id : nat) (k : thing) (s : scope) : scope :=
  match barrier s, k with
  | Some caps, IsVar =>
      if existsb (fun c => String.eqb x (fst c)) caps then s
      else {| vars := vars s; decls := decls s; barrier := Some (caps ++ [(x, id)]) |}
  | _, _ => s
  end.

(** symbol_table.rs:1227-1287, 1350-1371: the innermost scope that has the name; the
    barriers of the scopes inside that one are told. *)
Fixpoint lookup (x : string) (l : list scope) : option (nat * thing * list scope) :=
  match l with
  | [] => None
  | s :: l =>
      match assoc x (vars s) with
      | Some (id, k) => Some (id, k, s :: l)
      | None =>
          match lookup x l with
          | Some (id, k, l') => Some (id, k, noted x id k s :: l')
          | None => None
          end
      end
  end.

Definition with_scopes (t : table) (l : list scope) : table := {| next := next t; scopes := l |}.
(** symbol_table.rs:586-606 *)
Definition push (b : option (list (string * nat))) (t : table) : table :=
  with_scopes t ({| vars := []; decls := []; barrier := b |} :: scopes t).
Definition pop (t : table) : table := with_scopes t (tl (scopes t)).

(** symbol_table.rs:649-683, 724-733: a new identifier in the innermost scope *)
Definition add_thing (x : string) (k : thing) (t : table) : nat * table :=
  match scopes t with
  | [] => (next t, t)
  | s :: l =>
      (next t, {| next := S (next t);
                  scopes := {| vars := (x, (next t, k)) :: vars s; decls := decls s; barrier := barrier s |} :: l |})
  end.
Definition fresh_id (t : table) : nat * table := (next t, {| next := S (next t); scopes := scopes t |}).

(** symbol_table.rs:887-910 [add_declaration] *)
Definition add_declaration (x : string) (t : table) : option (nat * table) :=
  let '(found, t) :=
    match lookup x (scopes t) with
    | Some (_, IsVar, l) => (true, with_scopes t l)
    | Some (_, _, l) => (false, with_scopes t l)
    | None => (false, t)
    end in
  match scopes t with
  | s :: _ =>
      if found || existsb (fun d => String.eqb x (fst d)) (decls s) then None
      else
        let (id, t) := add_thing x IsVar t in
        match scopes t with
        | s :: l => Some (id, with_scopes t ({| vars := vars s; decls := (x, Some id) :: decls s; barrier := barrier s |} :: l))
        | [] => None
        end
  | [] => None
  end.

(** lib.rs:1680-1716 [bind_variable], symbol_table.rs:928-943 *)
Definition bind_variable (x : string) (t : table) : option (nat * bool * table) :=
  match scopes t with
  | [] => None
  | s :: l =>
      match assoc x (decls s) with
      | Some (Some id) =>
          Some (id, true, with_scopes t ({| vars := vars s; decls := (x, None) :: decls s; barrier := barrier s |} :: l))
      | Some None => None
      | None => let (id, t) := add_thing x IsVar t in Some (id, false, t)
      end
  end.

(** lib.rs:1652-1657, 1679-1870 [visit_pattern]; 1738-1755 for a name: an enum variant
    without parameters, else a variable *)
Fixpoint visit_pattern (p : pat) (t : table) : option (hpat * table) :=
  match p with
  | PInt z => Some (HPInt z, t)
  | PName x =>
      let bind t := match bind_variable x t with Some (id, pre, t) => Some (HPBind id pre, t) | None => None end in
      match lookup x (scopes t) with
      | Some (id, IsVariant 0, l) => Some (HPCon id HPNil, with_scopes t l)
      | Some (_, _, l) => bind (with_scopes t l)
      | None => bind t
      end
  | PAt x p =>
      match visit_pattern p t with
      | Some (h, t) => match bind_variable x t with Some (id, pre, t) => Some (HPAt id pre h, t) | None => None end
      | None => None
      end
  | PTup ps => match visit_patterns ps t with Some (hs, t) => Some (HPTup hs, t) | None => None end
  | PCon c ps =>
      match lookup c (scopes t) with
      | Some (id, IsVariant n, l) | Some (id, IsStruct n, l) =>
          if plen ps =? n
          then match visit_patterns ps (with_scopes t l) with Some (hs, t) => Some (HPCon id hs, t) | None => None end
          else None
      | _ => None
      end
  end
with visit_patterns (ps : pats) (t : table) : option (hpats * table) :=
  match ps with
  | PNil => Some (HPNil, t)
  | PCons p ps =>
      match visit_pattern p t with
      | Some (h, t) => match visit_patterns ps t with Some (hs, t) => Some (HPCons h hs, t) | None => None end
      | None => None
      end
  end.

(** lib.rs:1880-1890: the names of a [decl] *)
Fixpoint visit_names (xs : list string) (t : table) : option (list nat * table) :=
  match xs with
  | [] => Some ([], t)
  | x :: xs =>
      match add_declaration x t with
      | Some (id, t) => match visit_names xs t with Some (ids, t) => Some (id :: ids, t) | None => None end
      | None => None
      end
  end.

(** lib.rs:2742-2765, symbol_table.rs:945-956 [get_undefined_declarations], for the last entry
    of each name *)
Definition all_defined (t : table) : bool :=
  match scopes t with
  | [] => true
  | s :: _ => forallb (fun d => match assoc (fst d) (decls s) with Some (Some _) => false | _ => true end) (decls s)
  end.

(** lambda.rs:482-567 [handle_unit_kind]: whether there is a clock, and the arguments *)
Definition handle_unit_kind (entity : bool) (ps : pats) : option (bool * pats) :=
  if entity
  then match ps with PCons (PName x) ps => if String.eqb x "clk" then Some (true, ps) else None | _ => None end
  else Some (false, ps).

Definition captured (t : table) : list (string * nat) :=
  match scopes t with s :: _ => match barrier s with Some c => c | None => [] end | [] => [] end.

(** lib.rs:2120-2740 [visit_expression], 1875-2010 [visit_statement], 2781-2799
    [visit_block], 2800-2815 [visit_register] (the pattern before the value),
    lambda.rs:67-480 [visit_lambda] *)
Fixpoint visit_expression (e : expr) (t : table) : option (hexpr * table) :=
  match e with
  | EInt z => Some (HInt z, t)
  | EVar x =>
      match lookup x (scopes t) with
      | Some (id, IsVar, l) => Some (HVar id, with_scopes t l)
      | _ => None
      end
  | EAdd a b =>
      match visit_expression a t with
      | Some (a, t) => match visit_expression b t with Some (b, t) => Some (HAdd a b, t) | None => None end
      | None => None
      end
  | ETup es => match visit_expressions es t with Some (es, t) => Some (HTup es, t) | None => None end
  | EIdx e i => match visit_expression e t with Some (e, t) => Some (HIdx e i, t) | None => None end
  | ECon c es =>
      match lookup c (scopes t) with
      | Some (id, IsVariant _, l) | Some (id, IsStruct _, l) =>
          match visit_expressions es (with_scopes t l) with Some (es, t) => Some (HCon id es, t) | None => None end
      | _ => None
      end
  | EIf c a b =>
      match visit_expression c t with
      | Some (c, t) =>
          match visit_expression a t with
          | Some (a, t) => match visit_expression b t with Some (b, t) => Some (HIf c a b, t) | None => None end
          | None => None
          end
      | None => None
      end
  | EMatch e l =>
      match visit_expression e t with
      | Some (e, t) => match visit_arms l t with Some (l, t) => Some (HMatch e l, t) | None => None end
      | None => None
      end
  | EBlock ss e =>
      match visit_statements ss (push None t) with
      | Some (ss, t) =>
          match visit_expression e t with
          | Some (e, t) => if all_defined t then Some (HBlock ss e, pop t) else None
          | None => None
          end
      | None => None
      end
  | ELam entity ps ss e =>
      match handle_unit_kind entity ps with
      | None => None
      | Some (has_clock, ps) =>
          let t := push (Some []) t in
          let (clk, t) := if has_clock then add_thing "clk" IsVar t else (0, t) in
          match visit_patterns ps t with
          | None => None
          | Some (ps, t) =>
              match visit_statements ss (push None t) with
              | None => None
              | Some (ss, t) =>
                  match visit_expression e t with
                  | None => None
                  | Some (e, t) =>
                      if all_defined t then
                        let t := pop t in
                        let caps := captured t in
                        (* the struct is added to the scope the lambda is in *)
                        let (lid, t) := add_thing "Lambda" (IsStruct (List.length caps)) (pop t) in
                        let (self, t) := fresh_id t in
                        let (args, t) := fresh_id t in
                        let (clock, t) := fresh_id t in
                        Some (HLam lid caps self args (if has_clock then Some (clk, clock) else None) ps ss e, t)
                      else None
                  end
              end
          end
      end
  | ECall f es =>
      match visit_expression f t with
      | Some (f, t) => match visit_expressions es t with Some (es, t) => Some (HCall f es, t) | None => None end
      | None => None
      end
  | EInst f c es =>
      match visit_expression f t with
      | Some (f, t) =>
          match visit_expression c t with
          | Some (c, t) => match visit_expressions es t with Some (es, t) => Some (HInst f c es, t) | None => None end
          | None => None
          end
      | None => None
      end
  end
with visit_expressions (es : exprs) (t : table) : option (hexprs * table) :=
  match es with
  | ENil => Some (HNil, t)
  | ECons e es =>
      match visit_expression e t with
      | Some (e, t) => match visit_expressions es t with Some (es, t) => Some (HCons e es, t) | None => None end
      | None => None
      end
  end
with visit_arms (l : arms) (t : table) : option (harms * table) :=
  match l with
  | ANil => Some (HANil, t)
  | ACons p g e l =>
      match visit_pattern p (push None t) with
      | Some (p, t) =>
          match visit_expression g t with
          | Some (g, t) =>
              match visit_expression e t with
              | Some (e, t) => match visit_arms l (pop t) with Some (l, t) => Some (HACons p g e l, t) | None => None end
              | None => None
              end
          | None => None
          end
      | None => None
      end
  end
with visit_statements (ss : stmts) (t : table) : option (hstmts * table) :=
  match ss with
  | SNil => Some (HSNil, t)
  | SDecl xs ss =>
      match visit_names xs t with
      | Some (ids, t) => match visit_statements ss t with Some (ss, t) => Some (HSDecl ids ss, t) | None => None end
      | None => None
      end
  | SLet p e ss =>
      match visit_expression e t with
      | Some (e, t) =>
          match visit_pattern p t with
          | Some (p, t) => match visit_statements ss t with Some (ss, t) => Some (HSLet p e ss, t) | None => None end
          | None => None
          end
      | None => None
      end
  | SReg p e ss =>
      match visit_pattern p t with
      | Some (p, t) =>
          match visit_expression e t with
          | Some (e, t) => match visit_statements ss t with Some (ss, t) => Some (HSReg p e ss, t) | None => None end
          | None => None
          end
      | None => None
      end
  end.

(** lib.rs:1310-1434 [visit_unit]: the items of the program are in the outermost scope *)
Definition items := list (string * (nat * thing)).
Definition first_id (g : items) : nat := S (list_max (map (fun i => fst (snd i)) g)).
Fixpoint add_inputs (xs : list string) (t : table) : list nat * table :=
  match xs with
  | [] => ([], t)
  | x :: xs => let (id, t) := add_thing x IsVar t in let (ids, t) := add_inputs xs t in (id :: ids, t)
  end.
Definition visit_unit (g : items) (xs : list string) (body : expr) : option (list nat * hexpr) :=
  let t := {| next := first_id g; scopes := [{| vars := g; decls := []; barrier := None |}] |} in
  let (ids, t) := add_inputs xs (push None t) in
  match visit_expression body t with Some (h, _) => Some (ids, h) | None => None end.

(** * Lambdas become structs and units *)

(** lower_lambda_defs.rs:20-26, 64-180 [replace_in]: the new body of the generated unit with
    inputs [self], the clock and [args] *)
Record lambda_unit := {
  u_fields : list string;                   (* of the generated struct *)
  u_arity : nat;                            (* of the tuple [args] *)
  u_self : nat; u_args : nat; u_clock : option nat;
  u_ss : hstmts; u_e : hexpr }.
Fixpoint arg_bindings (args : nat) (i : nat) (ps : hpats) (rest : hstmts) : hstmts :=
  match ps with
  | HPNil => rest
  | HPCons p ps => HSLet p (HIdx (HVar args) i) (arg_bindings args (S i) ps rest)
  end.
Definition clock_binding (c : option (nat * nat)) (rest : hstmts) : hstmts :=
  match c with Some (clk, input) => HSLet (HPBind clk false) (HVar input) rest | None => rest end.
Fixpoint capture_bindings (self : nat) (caps : list (string * nat)) (rest : hstmts) : hstmts :=
  match caps with
  | [] => rest
  | (x, id) :: caps => HSLet (HPBind id false) (HField (HVar self) x) (capture_bindings self caps rest)
  end.
Fixpoint hplen (ps : hpats) : nat := match ps with HPNil => 0 | HPCons _ ps => S (hplen ps) end.
Definition replace_in (caps : list (string * nat)) (self args : nat) (clock : option (nat * nat)) (ps : hpats) (ss : hstmts) (e : hexpr)
  : lambda_unit :=
  {| u_fields := map fst caps; u_arity := hplen ps; u_self := self; u_args := args; u_clock := option_map snd clock;
     u_ss := arg_bindings args 0 ps (clock_binding clock (capture_bindings self caps ss)); u_e := e |}.

Fixpoint vars_of (ids : list nat) : hexprs := match ids with [] => HNil | id :: ids => HCons (HVar id) (vars_of ids) end.

(** lower_lambda_defs.rs:233-349, pass.rs:31-229 (children first): a lambda becomes a call
    of its struct with the captured variables *)
Fixpoint lower (h : hexpr) : hexpr :=
  match h with
  | HInt z => HInt z
  | HVar id => HVar id
  | HAdd a b => HAdd (lower a) (lower b)
  | HTup es => HTup (lower_exprs es)
  | HIdx e i => HIdx (lower e) i
  | HCon id es => HCon id (lower_exprs es)
  | HField e x => HField (lower e) x
  | HIf c a b => HIf (lower c) (lower a) (lower b)
  | HMatch e l => HMatch (lower e) (lower_arms l)
  | HBlock ss e => HBlock (lower_stmts ss) (lower e)
  | HLam lid caps _ _ _ _ _ _ => HCon lid (vars_of (map snd caps))
  | HCall f es => HCall (lower f) (lower_exprs es)
  | HInst f c es => HInst (lower f) (lower c) (lower_exprs es)
  end
with lower_exprs (es : hexprs) : hexprs :=
  match es with HNil => HNil | HCons e es => HCons (lower e) (lower_exprs es) end
with lower_arms (l : harms) : harms :=
  match l with HANil => HANil | HACons p g e l => HACons p (lower g) (lower e) (lower_arms l) end
with lower_stmts (ss : hstmts) : hstmts :=
  match ss with
  | HSNil => HSNil
  | HSDecl ids ss => HSDecl ids (lower_stmts ss)
  | HSLet p e ss => HSLet p (lower e) (lower_stmts ss)
  | HSReg p e ss => HSReg p (lower e) (lower_stmts ss)
  end.

(** The units recorded on the way, by generated struct: lower_lambda_defs.rs:302-320 *)
Definition units := list (nat * lambda_unit).
Fixpoint replacements (h : hexpr) : units :=
  match h with
  | HInt _ | HVar _ => []
  | HAdd a b => replacements a ++ replacements b
  | HTup es => replacements_exprs es
  | HIdx e _ => replacements e
  | HCon _ es => replacements_exprs es
  | HField e _ => replacements e
  | HIf c a b => replacements c ++ replacements a ++ replacements b
  | HMatch e l => replacements e ++ replacements_arms l
  | HBlock ss e => replacements_stmts ss ++ replacements e
  | HLam lid caps self args clock ps ss e =>
      (lid, replace_in caps self args clock ps (lower_stmts ss) (lower e)) :: replacements_stmts ss ++ replacements e
  | HCall f es => replacements f ++ replacements_exprs es
  | HInst f c es => replacements f ++ replacements c ++ replacements_exprs es
  end
with replacements_exprs (es : hexprs) : units :=
  match es with HNil => [] | HCons e es => replacements e ++ replacements_exprs es end
with replacements_arms (l : harms) : units :=
  match l with HANil => [] | HACons _ g e l => replacements g ++ replacements e ++ replacements_arms l end
with replacements_stmts (ss : hstmts) : units :=
  match ss with
  | HSNil => []
  | HSDecl _ ss => replacements_stmts ss
  | HSLet _ e ss => replacements e ++ replacements_stmts ss
  | HSReg _ e ss => replacements e ++ replacements_stmts ss
  end.
