(** Matching arguments with parameters: spade-hir/src/param_util.rs, and the
    arguments of named patterns in spade-ast-lowering/src/lib.rs.

    Simplifications: identifiers are numbers, locations and the wording of the
    errors are left out.  Equality and hash of a [Loc] are those of what it
    contains (spade-common/src/location_info.rs:318-368), so a set of located
    identifiers is a set of identifiers. *)
From Coq Require Import List Bool Arith.
Import ListNotations.

Section Args.
(** [T]: what an argument is; [TL]: what a parameter's type is *)
Variables T TL : Type.

(** param_util.rs:148-150 [ParameterListWrapper]: name, type and default *)
Record param := mkParam { p_name : nat; p_ty : TL; p_default : option T }.

(** param_util.rs:132-137 *)
Inductive kind := KPositional | KNamed | KShort | KDefault.
(** param_util.rs:141-146 *)
Record argument := mkArg { a_target : nat; a_value : T; a_ty : TL; a_kind : kind }.

(** spade-hir/src/expression.rs [NamedArgument]: target, value, written in full *)
Inductive named_arg := NFull (i : nat) (e : T) | NShort (i : nat) (e : T).
(** spade-hir/src/expression.rs [ArgumentList] *)
Inductive arg_list := Positional (l : list T) | Named (l : list named_arg).

(** param_util.rs:14-41 [ArgumentError]; of [TooFew] and [TooMany] also the numbers
    the messages show *)
Inductive arg_error :=
| TooFew (got expected : nat) (missing : list nat) (num_defaults : nat)
| TooMany (got expected : nat) (num_defaults : nat)
| NoSuch (name : nat)
| Missing (missing : list nat)
| Duplicate (name : nat).

Inductive result (A : Type) := Ok (a : A) | Err (e : arg_error).
Arguments Ok {A}. Arguments Err {A}.

(** param_util.rs:153-178 [try_get_arg_type], [arg_index], [arg_default] *)
Fixpoint arg_index (ps : list param) (name : nat) : option nat :=
  match ps with
  | [] => None
  | p :: r => if p_name p =? name then Some 0 else option_map S (arg_index r name)
  end.
Definition find_param (ps : list param) (name : nat) : option param :=
  find (fun p => p_name p =? name) ps.

(** param_util.rs:221-226 [num_defaults]: the defaults at the end *)
Fixpoint take_defaults (ps : list param) : nat :=
  match ps with
  | [] => 0
  | p :: r => match p_default p with Some _ => S (take_defaults r) | None => 0 end
  end.
Definition num_defaults (ps : list param) : nat := take_defaults (rev ps).

(** param_util.rs:228-271, the [map] over [zip_longest], collected: the first error
    is returned.  [i] is the index, [all] the parameters, [n] the number of arguments,
    [self] is 1 for a method call.  Subtractions that would overflow cannot: a method
    call has at least the receiver. *)
Fixpoint positional (all : list param) (n self : nat) (i : nat) (args : list T) (ps : list param)
    : result (list argument) :=
  match args, ps with
  | [], [] => Ok []
  | a :: args', p :: ps' =>
      match positional all n self (S i) args' ps' with
      | Ok r => Ok (mkArg (p_name p) a (p_ty p) KPositional :: r)
      | Err e => Err e
      end
  | _ :: _, [] => Err (TooMany (n - self) (length all - self) (num_defaults all))
  | [], p :: ps' =>
      match p_default p with
      | Some d =>
          match positional all n self (S i) [] ps' with
          | Ok r => Ok (mkArg (p_name p) d (p_ty p) KDefault :: r)
          | Err e => Err e
          end
      | None => Err (TooFew (i - self) (length all - self) (map p_name (skipn n all)) (num_defaults all))
      end
  end.

Definition target (a : named_arg) : nat := match a with NFull i _ | NShort i _ => i end.
Definition value (a : named_arg) : T := match a with NFull _ e | NShort _ e => e end.
Definition kind_of (a : named_arg) : kind := match a with NFull _ _ => KNamed | NShort _ _ => KShort end.

Definition member (x : nat) (l : list nat) : bool := existsb (Nat.eqb x) l.
Definition remove_name (x : nat) (l : list nat) : list nat := filter (fun y => negb (x =? y)) l.

(** param_util.rs:283-324, the [map] over the arguments; [bound] and [unbound] are
    the two sets *)
Fixpoint bind_named (ps : list param) (bound unbound : list nat) (args : list named_arg)
    : result (list (nat * argument) * list nat) :=
  match args with
  | [] => Ok ([], unbound)
  | arg :: rest =>
      if member (target arg) bound then Err (Duplicate (target arg))
      else
        match find_param ps (target arg), arg_index ps (target arg) with
        | Some p, Some index =>
            match bind_named ps (target arg :: bound) (remove_name (target arg) unbound) rest with
            | Ok (r, u) => Ok ((index, mkArg (target arg) (value arg) (p_ty p) (kind_of arg)) :: r, u)
            | Err e => Err e
            end
        | _, _ => Err (NoSuch (target arg))
        end
  end.

(** param_util.rs:326-343, the defaults for what is not bound, in the order [names] in
    which the set is enumerated *)
Fixpoint add_defaults (ps : list param) (names : list nat) (unbound : list nat)
    : list (nat * argument) * list nat :=
  match names with
  | [] => ([], unbound)
  | name :: rest =>
      match find_param ps name, arg_index ps name with
      | Some p, Some index =>
          match p_default p with
          | Some d =>
              let q := add_defaults ps rest (remove_name name unbound) in
              ((index, mkArg name d (p_ty p) KDefault) :: fst q, snd q)
          | None => add_defaults ps rest unbound
          end
      | _, _ => add_defaults ps rest unbound
      end
  end.

(** [sort_by_key], which is stable *)
Fixpoint insert_sorted {A} (x : nat * A) (l : list (nat * A)) : list (nat * A) :=
  match l with
  | [] => [x]
  | y :: r => if fst x <=? fst y then x :: l else y :: insert_sorted x r
  end.
Definition sort_by_index {A} (l : list (nat * A)) : list (nat * A) := fold_right insert_sorted [] l.

(** param_util.rs:210-359 [match_args_with_params]; [enum] is the order in which a
    hash set is enumerated *)
Definition match_args_with_params (enum : list nat -> list nat) (args : arg_list) (ps : list param)
    (is_method : bool) : result (list argument) :=
  match args with
  | Positional l => positional ps (length l) (if is_method then 1 else 0) 0 l ps
  | Named l =>
      match bind_named ps [] (nodup Nat.eq_dec (map p_name ps)) l with
      | Err e => Err e
      | Ok (r, unbound) =>
          let q := add_defaults ps (enum unbound) unbound in
          let sorted := sort_by_index (r ++ fst q) in
          match snd q with
          | [] => Ok (map snd sorted)
          | missing => Err (Missing missing)
          end
      end
  end.

(** spade-ast-lowering/src/lib.rs:1777-1838, the arguments of a named pattern: the
    [map] over the patterns, then the check that nothing is missing, then the sort *)
Fixpoint bind_patterns (bound unbound : list nat) (args : list named_arg) : result (list named_arg * list nat) :=
  match args with
  | [] => Ok ([], unbound)
  | arg :: rest =>
      if member (target arg) bound then Err (Duplicate (target arg))
      else if negb (member (target arg) unbound) then Err (NoSuch (target arg))
      else
        match bind_patterns (target arg :: bound) (remove_name (target arg) unbound) rest with
        | Ok (r, u) => Ok (arg :: r, u)
        | Err e => Err e
        end
  end.
Definition match_patterns (args : list named_arg) (ps : list param) : result (list named_arg) :=
  match bind_patterns [] (nodup Nat.eq_dec (map p_name ps)) args with
  | Err e => Err e
  | Ok (r, []) =>
      Ok (map snd (sort_by_index (map (fun a => (match arg_index ps (target a) with Some i => i | None => 0 end, a)) r)))
  | Ok (_, missing) => Err (Missing missing)
  end.

(** param_util.rs:53-60 and 80-102: the numbers the messages show; unsigned
    subtractions, where [None] is a crash *)
Definition checked_sub (a b : nat) : option nat := if b <=? a then Some (a - b) else None.
Definition at_least (expected nd : nat) : option nat :=
  if 0 <? nd then checked_sub expected nd else Some expected.
Definition message_numbers (e : arg_error) : option (list nat) :=
  match e with
  | TooMany got expected nd =>
      match at_least expected nd with Some l => Some [l; expected; got] | None => None end
  | TooFew got expected missing nd =>
      match at_least expected nd, checked_sub (length missing) nd with
      | Some l, Some count => Some [l; expected; got; count]
      | _, _ => None
      end
  | _ => Some []
  end.
End Args.
Arguments Ok {A}. Arguments Err {A}.
Arguments mkParam {T TL}. Arguments p_name {T TL}. Arguments p_ty {T TL}. Arguments p_default {T TL}.
Arguments mkArg {T TL}. Arguments a_target {T TL}. Arguments a_value {T TL}. Arguments a_ty {T TL}. Arguments a_kind {T TL}.
Arguments NFull {T}. Arguments NShort {T}. Arguments Positional {T}. Arguments Named {T}.
Arguments target {T}. Arguments value {T}. Arguments kind_of {T}.
Arguments match_args_with_params {T TL}. Arguments match_patterns {T TL}. Arguments positional {T TL}.
Arguments bind_named {T TL}. Arguments add_defaults {T TL}. Arguments arg_index {T TL}. Arguments find_param {T TL}.
Arguments take_defaults {T TL}. Arguments num_defaults {T TL}. Arguments bind_patterns {T}.
