(** What has to be compiled, and in which order the results come (C38). *)
From Coq Require Import List ZArith Bool Arith Sorting.
From Verif Require Import MonoModel.
Import ListNotations.

(** Asked for at the start, or asked for by something needed. *)
Inductive needed {R} (p : program R) : mkey -> Prop :=
| NeededRoot n : In n (pr_roots p) -> needed p (n, KNil)
| NeededBy k k' : needed p k -> In (Request k') (pr_body p k) -> needed p k'.

(** The numbers an instance receives: for a request, the name of what it asked
    for. *)
Inductive received (name : mkey -> nat) : list action -> list nat -> Prop :=
| RecNil : received name [] []
| RecFresh n todo got : received name todo got -> received name (Fresh :: todo) (n :: got)
| RecRequest k todo got : received name todo got -> received name (Request k :: todo) (name k :: got).

(** The results of a list of instances, for a choice of names. *)
Definition outputs {R} (p : program R) (name : mkey -> nat) (got : mkey -> list nat) (ks : list mkey) : list R :=
  concat (map (fun k => map (fun f => f (name k) (got k)) (pr_out p k)) ks).

Definition key_lt (a b : mkey) : Prop := key_compare a b = Lt.

(** Executions, counting the steps in which a job or the queue moves (the others
    are those of the main loop when it finds nothing to do). *)
Inductive steps {R} (p : program R) : nat -> state R -> state R -> Prop :=
| StepsNone s : steps p 0 s s
| StepsWork n s s1 s2 : steps p n s s1 -> step p s1 s2 -> st_main s1 = st_main s2 -> steps p (S n) s s2
| StepsIdle n s s1 s2 : steps p n s s1 -> step p s1 s2 -> st_main s1 <> st_main s2 -> steps p n s s2.
