(** What it means for a call to fill parameters. *)
From Coq Require Import List.
From Verif Require Import ArgsModel.
Import ListNotations.

Section Spec.
Context {T TL : Type}.

(** A parameter gets the named argument of its name, or else its default. *)
Inductive fills_named (args : list (named_arg T)) (p : param T TL) : argument T TL -> Prop :=
| fill_given : forall a, In a args -> target a = p_name p ->
    fills_named args p (mkArg (p_name p) (value a) (p_ty p) (kind_of a))
| fill_default : forall d, ~ In (p_name p) (map target args) -> p_default p = Some d ->
    fills_named args p (mkArg (p_name p) d (p_ty p) KDefault).

(** A call with named arguments is right: no name twice, only names of parameters,
    and every parameter without default named. *)
Definition named_call_ok (args : list (named_arg T)) (ps : list (param T TL)) : Prop :=
  NoDup (map target args) /\
  incl (map target args) (map p_name ps) /\
  forall p, In p ps -> p_default p = None -> In (p_name p) (map target args).

(** The [i]-th parameter gets the [i]-th argument, or else its default. *)
Definition fills_positional (args : list T) (i : nat) (p : param T TL) (a : argument T TL) : Prop :=
  match nth_error args i with
  | Some v => a = mkArg (p_name p) v (p_ty p) KPositional
  | None => exists d, p_default p = Some d /\ a = mkArg (p_name p) d (p_ty p) KDefault
  end.
Definition positional_call_ok (args : list T) (ps : list (param T TL)) : Prop :=
  length args <= length ps /\
  forall i p, nth_error ps i = Some p -> p_default p = None -> i < length args.
End Spec.
