(** Type level [if], written [gen if]: how a unit that ends in one is split into units,
    spade-ast-lowering/src/type_level_if.rs, and how a branch is chosen once the parameters
    of the unit are known, spade-hir-lowering/src/passes/lower_type_level_if.rs, visited as
    in passes/pass.rs.

    Names of units and variables are their numbers ([NameID]), conditions are numbers whose
    values are given.  Other expressions and other statements are a number
    and their operands.  Left out: locations, expression ids, types of bindings, the head of a
    unit other than its kind, parameters and type parameters. *)
From Coq Require Import List Arith Bool.
Import ListNotations.

(** spade-hir/src/lib.rs [UnitKind], spade-hir/src/expression.rs [CallKind]; the depth of a
    pipeline is a type expression, a number here *)
Inductive ukind := Function | Entity | Pipeline (depth : nat).
(** spade-hir/src/expression.rs [ExprKind] and spade-hir/src/lib.rs [Statement] *)
Inductive expr :=
| EErr
| EIf (c : nat) (t f : expr)
| EBlk (l : list stmt) (r : option expr)
| ECall (k : ukind) (callee : nat) (args : list expr) (turbofish : option (list nat))
| EVar (x : nat)
| EOther (k : nat) (l : list expr)
with stmt :=
| SLet (x : nat) (e : expr)
| SReg (count : nat)
| SOther (k : nat) (l : list expr).
(** spade-common/src/name.rs:98-104 [PathSegment] *)
Inductive segment := Named (s : nat) | IfT | IfF.
(** spade-hir/src/lib.rs [Unit]; [inline] counts [Attribute::Inline] *)
Record unit_ := { id : nat; path : list segment; ukind_ : ukind; type_params : list nat; inputs : list nat; inline : nat; body : expr }.

(** The next number for a name ([symtab]), and [item_list.executables], the newest first *)
Record ctx := { next : nat; items : list unit_ }.
Inductive res (A : Type) := Ok (a : A) | Bug | Refused.
Arguments Ok {A}. Arguments Bug {A}. Arguments Refused {A}.
Definition bind {A B} (r : res A) (f : A -> res B) : res B := match r with Ok a => f a | Bug => Bug | Refused => Refused end.

(** type_level_if.rs:46-78 [absorb_statements] *)
Fixpoint absorb_statements (e : expr) (outer : list stmt) : res expr :=
  match e with
  | EIf c t f => bind (absorb_statements t outer) (fun t => bind (absorb_statements f outer) (fun f => Ok (EIf c t f)))
  | EBlk l r => Ok (EBlk (outer ++ l) r)
  | EErr => Ok EErr
  | _ => Bug
  end.

Definition with_body (u : unit_) (b : expr) : unit_ :=
  {| id := id u; path := path u; ukind_ := ukind_ u; type_params := type_params u; inputs := inputs u; inline := inline u; body := b |}.
Definition with_inline (u : unit_) : unit_ :=
  {| id := id u; path := path u; ukind_ := ukind_ u; type_params := type_params u; inputs := inputs u; inline := S (inline u); body := body u |}.
Definition with_name (u : unit_) (n : nat) (p : list segment) : unit_ :=
  {| id := n; path := p; ukind_ := ukind_ u; type_params := type_params u; inputs := inputs u; inline := inline u; body := body u |}.

(** type_level_if.rs:124-183 [call_expanded] *)
Definition call_expanded (u : unit_) (n : nat) : expr :=
  ECall (ukind_ u) n (map EVar (inputs u)) (match type_params u with [] => None | l => Some l end).

(** type_level_if.rs:80-267 [expand_type_level_if] with [expand_body] (86-122); [None]: no
    end within the fuel *)
Fixpoint expand (fuel : nat) (u : unit_) (s : ctx) : option (res (unit_ * ctx)) :=
  match fuel with
  | 0 => None
  | S fuel =>
      let expand_body (statements : list stmt) (new_body : expr) (seg : segment) (s : ctx) : option (res (nat * ctx)) :=
        match absorb_statements new_body statements with
        | Bug => Some Bug
        | Refused => Some Refused
        | Ok absorbed =>
            let b := match absorbed with
                     | EIf _ _ _ => Ok (EBlk [] (Some absorbed))
                     | EBlk _ _ | EErr => Ok absorbed
                     | _ => Bug
                     end in
            match b with
            | Ok b =>
                let n := next s in
                let v := with_name (with_body (with_inline u) b) n (path u ++ [seg]) in
                match expand fuel v {| next := S n; items := items s |} with
                | Some (Ok (v, s)) => Some (Ok (n, {| next := next s; items := v :: items s |}))
                | Some Bug => Some Bug
                | Some Refused => Some Refused
                | None => None
                end
            | Bug => Some Bug
            | Refused => Some Refused
            end
        end in
      match body u with
      | EBlk statements (Some (EIf c t f)) =>
          match expand_body statements t IfT s with
          | Some (Ok (nt, s)) =>
              match expand_body statements f IfT s with
              | Some (Ok (nf, s)) =>
                  let result := next s in
                  let value := EIf c (call_expanded u nt) (call_expanded u nf) in
                  let regs := match ukind_ u with Pipeline d => [SReg d] | _ => [] end in
                  let b := EBlk (SLet result value :: regs) (Some (EVar result)) in
                  expand fuel (with_inline (with_body u b)) {| next := S result; items := items s |}
              | Some Bug => Some Bug
              | Some Refused => Some Refused
              | None => None
              end
          | Some Bug => Some Bug
          | Some Refused => Some Refused
          | None => None
          end
      | EBlk _ _ => Some (Ok (u, s))
      | _ => Some (Ok (with_body u EErr, s))
      end
  end.

(** lower_type_level_if.rs:20-55 [visit_expression], after the children (passes/pass.rs:22,
    198-202); 63-90 [mark_allowed_tlifs], which marks the ids of some expressions, is the
    argument [allowed].  [conds] is the value each condition has. *)
Section Lower.
Variable conds : nat -> bool.
Fixpoint lower (allowed : bool) (e : expr) : res expr :=
  let all := fix go (l : list expr) : res (list expr) :=
    match l with [] => Ok [] | a :: l => bind (lower false a) (fun a => bind (go l) (fun l => Ok (a :: l))) end in
  match e with
  | EErr => Ok EErr
  | EVar x => Ok (EVar x)
  | ECall k n l t => bind (all l) (fun l => Ok (ECall k n l t))
  | EOther k l => bind (all l) (fun l => Ok (EOther k l))
  | EBlk l r =>
      let stmts := fix go (l : list stmt) : res (list stmt) :=
        match l with [] => Ok [] | a :: l => bind (lower_stmt allowed a) (fun a => bind (go l) (fun l => Ok (a :: l))) end in
      bind (stmts l) (fun l => match r with Some r => bind (lower allowed r) (fun r => Ok (EBlk l (Some r))) | None => Ok (EBlk l None) end)
  | EIf c t f =>
      bind (lower allowed t) (fun t => bind (lower allowed f) (fun f =>
      if allowed then Ok (if conds c then t else f) else Refused))
  end
with lower_stmt (allowed : bool) (a : stmt) : res stmt :=
  let all := fix go (l : list expr) : res (list expr) :=
    match l with [] => Ok [] | a :: l => bind (lower false a) (fun a => bind (go l) (fun l => Ok (a :: l))) end in
  match a with
  | SLet x e => bind (lower allowed e) (fun e => Ok (SLet x e))
  | SReg c => Ok (SReg c)
  | SOther k l => bind (all l) (fun l => Ok (SOther k l))
  end.
End Lower.
