(** C36 matching arguments with parameters. *)
From Coq Require Import List Bool Arith Lia Permutation.
From Verif Require Import ArgsModel ArgsSpec ArgsProofs.
Import ListNotations.

(** [enum] stands for the unknown order in which a hash set is enumerated. *)

(** Named calls are accepted exactly when they are right. *)
Theorem C36_named_accepted : forall T TL enum (args : list (named_arg T)) (ps : list (param T TL)) m,
  (forall l, Permutation (enum l) l) -> NoDup (map p_name ps) ->
  ((exists r, match_args_with_params enum (Named args) ps m = Ok r) <-> named_call_ok args ps).
Proof.
  intros T TL enum args ps m P N. split.
  - intros (r & H). pose proof (named_spec enum args ps m P N) as S. rewrite H in S. apply S.
  - apply named_ok_accepted; auto.
Qed.
Print Assumptions C36_named_accepted.

(** Then every parameter occurs once, in the order of the declaration, and gets the
    argument of its name or its default. *)
Theorem C36_named_result : forall T TL enum (args : list (named_arg T)) (ps : list (param T TL)) m r,
  (forall l, Permutation (enum l) l) -> NoDup (map p_name ps) ->
  match_args_with_params enum (Named args) ps m = Ok r -> Forall2 (fills_named args) ps r.
Proof.
  intros T TL enum args ps m r P N H. pose proof (named_spec enum args ps m P N) as S. rewrite H in S. apply S.
Qed.
Print Assumptions C36_named_result.

(** The order of the arguments, the order of enumeration and the kind of call do not
    matter. *)
Theorem C36_order : forall T TL enum enum' (args args' : list (named_arg T)) (ps : list (param T TL)) m m' r,
  (forall l, Permutation (enum l) l) -> (forall l, Permutation (enum' l) l) -> NoDup (map p_name ps) ->
  Permutation args args' ->
  match_args_with_params enum (Named args) ps m = Ok r ->
  match_args_with_params enum' (Named args') ps m' = Ok r.
Proof.
  intros T TL enum enum' args args' ps m m' r P P' N PA H.
  pose proof (named_spec enum args ps m P N) as S. rewrite H in S. destruct S as [OK F].
  pose proof (call_ok_perm _ _ _ PA OK) as OK'.
  destruct (named_ok_accepted enum' args' ps m' P' N OK') as [r' H']. rewrite H'. f_equal.
  pose proof (named_spec enum' args' ps m' P' N) as S'. rewrite H' in S'. destruct S' as [_ F'].
  eapply fills_all_unique; [apply OK'|exact F'|].
  clear - F PA. induction F; constructor; auto. eapply fills_perm; eauto.
Qed.
Print Assumptions C36_order.

(** When a named call is refused, the error is what is wrong with it. *)
Theorem C36_named_errors : forall T TL enum (args : list (named_arg T)) (ps : list (param T TL)) m e,
  (forall l, Permutation (enum l) l) -> NoDup (map p_name ps) ->
  match_args_with_params enum (Named args) ps m = Err e ->
  match e with
  | Duplicate n => exists l1 a l2 b l3, args = l1 ++ a :: l2 ++ b :: l3 /\ target a = n /\ target b = n
  | NoSuch n => In n (map target args) /\ ~ In n (map p_name ps)
  | Missing l => l <> [] /\ NoDup l /\
      forall x, In x l <-> exists p, In p ps /\ p_name p = x /\ p_default p = None /\ ~ In x (map target args)
  | _ => False
  end.
Proof.
  intros T TL enum args ps m e P N H. pose proof (named_spec enum args ps m P N) as S. rewrite H in S.
  destruct e; auto. destruct S as (A & B & _ & C). auto.
Qed.
Print Assumptions C36_named_errors.

(** Positional calls are accepted exactly when there is an argument for every
    parameter without default, and none too many; arguments go by position. *)
Theorem C36_positional_accepted : forall T TL enum (args : list T) (ps : list (param T TL)) m,
  (exists r, match_args_with_params enum (Positional args) ps m = Ok r) <-> positional_call_ok args ps.
Proof.
  intros T TL enum args ps m. cbn. split.
  - intros (r & H). apply positional_ok in H as (A & _ & C & _). split; auto.
  - intros (L & D). destruct (positional ps (length args) (if m then 1 else 0) 0 args ps) eqn:E; eauto.
    exfalso. apply positional_err in E as [[A _]|(j & p & A & B & C & _)]; [lia|].
    specialize (D _ _ B C). lia.
Qed.
Print Assumptions C36_positional_accepted.

Theorem C36_positional_result : forall T TL enum (args : list T) (ps : list (param T TL)) m r,
  match_args_with_params enum (Positional args) ps m = Ok r ->
  length r = length ps /\
  forall i p a, nth_error ps i = Some p -> nth_error r i = Some a -> fills_positional args i p a.
Proof. intros T TL enum args ps m r H. cbn in H. apply positional_ok in H. tauto. Qed.
Print Assumptions C36_positional_result.

(** The messages about a wrong number of arguments can be written: the numbers in
    them are never negative.  A method call has its receiver as an argument, and
    parameters of methods have no defaults. *)
Theorem C36_messages : forall T TL enum (args : arg_list T) (ps : list (param T TL)) m e,
  (m = true -> match args with Positional l => l <> [] | Named _ => True end /\ Forall (fun p => p_default p = None) ps) ->
  match_args_with_params enum args ps m = Err e -> message_numbers e <> None.
Proof.
  intros T TL enum [args|args] ps m e M H.
  - cbn in H. assert (SL : (if m then 1 else 0) <= length args).
    { destruct m; [|lia]. destruct (M eq_refl) as [NE _]. destruct args; [congruence|cbn; lia]. }
    apply positional_err in H as [[A ->]|(j & p & A & B & C & _ & ->)]; cbn.
    + unfold at_least, checked_sub. destruct (0 <? num_defaults ps) eqn:E0; [|discriminate].
      destruct (num_defaults ps <=? length ps - (if m then 1 else 0)) eqn:E; [discriminate|].
      apply Nat.leb_gt in E. apply Nat.ltb_lt in E0. exfalso. destruct m.
      * destruct (M eq_refl) as [_ F]. unfold num_defaults in E0.
        destruct (rev ps) as [|p r] eqn:R; cbn in E0; [lia|].
        assert (I : In p ps) by (apply in_rev; rewrite R; left; auto).
        rewrite Forall_forall in F. rewrite (F _ I) in E0. lia.
      * pose proof (take_defaults_length (rev ps)). rewrite rev_length in H. unfold num_defaults in E. lia.
    + pose proof (num_defaults_le _ _ _ B C) as L. assert (j < length ps) by (apply nth_error_Some; congruence).
      unfold at_least, checked_sub. rewrite map_length, skipn_length.
      destruct (num_defaults ps <=? length ps - length args) eqn:E; [|apply Nat.leb_gt in E; lia].
      destruct (0 <? num_defaults ps); [|discriminate].
      destruct (num_defaults ps <=? length ps - (if m then 1 else 0)) eqn:E2; [discriminate|].
      apply Nat.leb_gt in E2. lia.
  - cbn in H. pose proof (bind_named_spec ps args [] (nodup Nat.eq_dec (map p_name ps))) as B.
    destruct (bind_named ps [] (nodup Nat.eq_dec (map p_name ps)) args) as [[r u]|e'].
    + destruct (snd (add_defaults ps (enum u) u)); inversion H; subst; discriminate.
    + inversion H; subst. destruct e; try contradiction; discriminate.
Qed.
Print Assumptions C36_messages.

(** Patterns with named fields: every field exactly once. *)
Theorem C36_patterns : forall T TL (args : list (named_arg T)) (ps : list (param T TL)), NoDup (map p_name ps) ->
  match match_patterns args ps with
  | Ok r => Permutation r args /\ map target r = map p_name ps
  | Err (Duplicate n) => exists l1 a l2 b l3, args = l1 ++ a :: l2 ++ b :: l3 /\ target a = n /\ target b = n
  | Err (NoSuch n) => In n (map target args) /\ ~ In n (map p_name ps)
  | Err (Missing l) => l <> [] /\ NoDup l /\
      forall x, In x l <-> In x (map p_name ps) /\ ~ In x (map target args)
  | Err _ => False
  end.
Proof.
  intros T TL args ps N. pose proof (patterns_spec args ps N) as S.
  destruct (match_patterns args ps) as [r|[]]; auto.
  - destruct S as (_ & A & B). auto.
  - destruct S as (A & B & _ & C). auto.
Qed.
Print Assumptions C36_patterns.

(** A pattern that names every field once is accepted. *)
Theorem C36_patterns_accepted : forall T TL (args : list (named_arg T)) (ps : list (param T TL)), NoDup (map p_name ps) ->
  Permutation (map target args) (map p_name ps) -> exists r, match_patterns args ps = Ok r.
Proof.
  intros T TL args ps N P. pose proof (patterns_spec args ps N) as S.
  assert (ND : NoDup (map target args)) by (eapply Permutation_NoDup; [apply Permutation_sym|]; eauto).
  destruct (match_patterns args ps) as [r|[]]; eauto; try contradiction.
  - destruct S as [A B]. destruct B. eapply Permutation_in; eauto.
  - destruct S as (A & _ & _ & C). destruct missing as [|x l]; [congruence|].
    destruct (proj1 (C x)) as [I NI]; [left; auto|]. destruct NI.
    eapply Permutation_in; [apply Permutation_sym|]; eauto.
  - destruct S as (l1 & a & l2 & b & l3 & -> & <- & E).
    rewrite map_app, map_cons, map_app, map_cons in ND. apply NoDup_remove_2 in ND. destruct ND.
    rewrite !in_app_iff. right. right. left. auto.
Qed.
Print Assumptions C36_patterns_accepted.

(** Three parameters, the second with a default; the call names the third and the
    first. *)
Definition ex_params : list (param nat nat) :=
  [mkParam 10 0 None; mkParam 11 1 (Some 99); mkParam 12 2 None].
Example C36_nontrivial :
  NoDup (map p_name ex_params) /\
  match_args_with_params (@rev nat) (Named [NShort 12 7; NFull 10 5]) ex_params false =
    Ok [mkArg 10 5 0 KNamed; mkArg 11 99 1 KDefault; mkArg 12 7 2 KShort] /\
  match_args_with_params (@rev nat) (Positional [5; 6]) ex_params false = Err (TooFew 2 3 [12] 0) /\
  match_args_with_params (@rev nat) (Named [NFull 11 1]) ex_params false = Err (Missing [10; 12]) /\
  match_patterns [NFull 12 7; NShort 10 5; NFull 11 6] ex_params = Ok [NShort 10 5; NFull 11 6; NFull 12 7].
Proof. split; [repeat constructor; cbn; lia|]. vm_compute. auto. Qed.
