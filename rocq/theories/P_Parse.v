(** C37: expressions are read back as they were written.

    Modelled: literals, names, calls with positional and named arguments,
    method calls, fields, tuple indices, indexing and ranges, casts to one type
    token, prefix and binary operators, infix calls, tuples, arrays, blocks
    holding one expression, and [if].  Not modelled: statements in blocks,
    [match], [inst], pipeline references, lambdas, turbofish, string literals,
    [gen]/comptime expressions and error recovery. *)
From Coq Require Import List ZArith Lia Bool Arith.
From Verif Require Import ParseModel ParseSpec ParseFuel ParseComplete ParseSound ParseRound.
Import ListNotations.
Local Open Scope list_scope.

(** The tokens of an expression, written with parentheses only where the levels
    of the operators ask for them, parse to that expression. *)
Theorem C37_round_trip_partial :
  forall e, valid e -> exists e', parse (print e 1) = Some e' /\ strip e' = strip e.
Proof. exact round_trip. Qed.

(** Two expressions written the same way are the same. *)
Theorem C37_print_injective_partial :
  forall e1 e2, valid e1 -> valid e2 -> print e1 1 = print e2 1 -> strip e1 = strip e2.
Proof.
  intros e1 e2 V1 V2 E. destruct (round_trip e1 V1) as (a & Pa & Sa).
  destruct (round_trip e2 V2) as (b & Pb & Sb). rewrite E in Pa. congruence.
Qed.

(** Every sequence of tokens in the grammar is accepted and read as the grammar
    reads it. *)
Theorem C37_complete_partial :
  forall ts e, g_expr false ts e -> parse ts = Some e.
Proof. exact parse_complete. Qed.

(** The grammar reads no sequence of tokens in two ways. *)
Theorem C37_unambiguous_partial :
  forall ts e1 e2, g_expr false ts e1 -> g_expr false ts e2 -> e1 = e2.
Proof. exact grammar_unambiguous. Qed.

(** Everything accepted is in the grammar, up to the three tolerated
    spellings. *)
Theorem C37_sound_partial :
  forall ts e, parse ts = Some e -> g_expr true ts e.
Proof. exact parse_sound. Qed.

(** The parser finishes: the bound on nested calls used by [parse] is never
    reached. *)
Theorem C37_terminates_partial :
  forall ts, p_expr (10 * length ts + 10) ts <> Fuel.
Proof. exact parse_enough. Qed.

(** Grouping of two operators: by level, to the left within a level. *)
Theorem C37_grouping_partial :
  forall ta a o1 tb b o2 tc c,
  g_un false ta a -> g_un false tb b -> g_un false tc c ->
  parse (ta ++ TkOp (spell o1) :: tb ++ TkOp (spell o2) :: tc) =
  Some (if level o2 <=? level o1 then EBin (EBin a o1 b) o2 c else EBin a o1 (EBin b o2 c)).
Proof.
  intros ta a o1 tb b o2 tc c Ga Gb Gc. apply parse_complete.
  pose proof (level_range o1). pose proof (level_range o2).
  assert (D : forall ts e k, g_un false ts e -> k <= 12 -> g_bin false k ts e).
  { intros ts e k G Hk. apply der_bin_down with 12; [now apply GB_un|lia]. }
  apply GE_bin. destruct (Nat.leb_spec (level o2) (level o1)).
  - apply der_bin_down with (level o2); [|lia].
    replace (ta ++ TkOp (spell o1) :: tb ++ TkOp (spell o2) :: tc)
      with ((ta ++ TkOp (spell o1) :: tb) ++ TkOp (spell o2) :: tc) by (rewrite <- app_assoc; reflexivity).
    apply GB_op; [|apply D; [assumption|lia]].
    apply der_bin_down with (level o1); [|lia]. apply GB_op; apply D; try assumption; lia.
  - apply der_bin_down with (level o1); [|lia]. apply GB_op; [apply D; [assumption|lia]|].
    apply der_bin_down with (level o2); [|lia]. apply GB_op; apply D; try assumption; lia.
Qed.

(** What the parser takes beyond the grammar. *)
(** `[a b]`: a missing comma. *)
Theorem C37_missing_comma_refuted :
  exists ts e, parse ts = Some e /\ forall e', ~ g_expr false ts e'.
Proof.
  exists [TkLB; TkId 0; TkId 1; TkRB], (EArray (ECons (EId 0) (ECons (EId 1) ENil))).
  split; [reflexivity|]. intros e' G.
  assert (E : e' = EArray (ECons (EId 0) (ECons (EId 1) ENil))).
  { apply parse_complete in G. vm_compute in G. injection G as <-. reflexivity. }
  subst e'. clear - G.
  assert (B : forall k ts e, g_bin false k ts e -> forall l, e = EArray l -> g_base false ts e).
  { intros k ts e H. induction H; intros l0 El; subst.
    - inversion H as [? ? Hp|u ts0 e0 e0' ? Pr]; subst.
      + inversion Hp as [? ? Hs|]; subst. inversion Hs; subst. assumption.
      + destruct u, e0; try discriminate Pr; destruct k; discriminate Pr.
    - eapply IHg_bin; reflexivity.
    - discriminate. }
  inversion G as [ts e H|]; subst. specialize (B _ _ _ H _ eq_refl). clear H G. rename B into H.
  inversion H as [| | | | | | | | | |ts l L Et| | |ts e K|ts e K]; subst; try discriminate.
  - change [TkId 0; TkId 1; TkRB] with ([TkId 0; TkId 1] ++ [TkRB]) in Et.
    apply app_inj_tail in Et. destruct Et as [-> _].
    inversion L as [|ts e L1|ts e ts' l L1 L2 Et]; subst.
    destruct ts as [|x [|y [|z ts]]]; cbn in Et; try discriminate; destruct ts; discriminate.
  - inversion K.
  - inversion K.
Qed.

(** `a $ + b`: a stray dollar sign. *)
Theorem C37_dollar_refuted :
  parse [TkId 0; TkDollar; TkOp KPlus; TkId 1] = parse [TkId 0; TkOp KPlus; TkId 1]
  /\ parse [TkId 0; TkOp KPlus; TkId 1] = Some (EBin (EId 0) BAdd (EId 1)).
Proof. split; reflexivity. Qed.

(** `a.-1u`: a sign before an unsigned tuple index. *)
Theorem C37_index_sign_refuted :
  parse [TkId 0; TkDot; TkOp KMinus; TkInt 1 (Unsigned None)] = Some (ETupleIndex (EId 0) 1 false).
Proof. reflexivity. Qed.

(** `!f(a, -2)[x + 1 .. ] * (y - (z - 1)) == w.m$(p: q) as t` *)
Definition ex_expr : expr :=
  EBin
    (EBin (EUn UNot_ (ERange (ECall 1 (APositional (ECons (EId 2) (ECons (EInt (-2) Unsized) ENil))))
                        (ESome (EBin (EId 3) BAdd (EInt 1 (Signed None)))) ENone))
       BMul (EBin (EId 4) BSub (EBin (EId 5) BSub (EInt 1 Unsized))))
    BEq (ECast (EMethod (EId 6) 7 (ANamed (NFull 8 (EId 9) NNil))) 0).

Example C37_nontrivial :
  valid ex_expr
  /\ parse (print ex_expr 1) =
     Some (EBin
       (EBin (EUn UNot_ (ERange (ECall 1 (APositional (ECons (EId 2) (ECons (EInt (-2) Unsized) ENil))))
                           (ESome (EBin (EId 3) BAdd (EInt 1 (Signed None)))) ENone))
          BMul (EParen (EBin (EId 4) BSub (EParen (EBin (EId 5) BSub (EInt 1 Unsized))))))
       BEq (ECast (EMethod (EId 6) 7 (ANamed (NFull 8 (EId 9) NNil))) 0))
  /\ length (print ex_expr 1) = 37
  /\ g_un false [TkOp KMinus; TkInt 3 Unsized] (EInt (-3) Unsized)
  /\ parse [TkId 0; TkOp KPlus] = None.
Proof.
  split; [cbn; repeat (split; try lia)|]. split; [reflexivity|]. split; [reflexivity|].
  split; [|reflexivity]. apply (GU_op false USub_ [TkInt 3 Unsized] (EInt 3 Unsized)); [|reflexivity].
  apply GU_post, GP_suf, GS_base. exact (GA_int false 3 Unsized).
Qed.

Print Assumptions C37_round_trip_partial.
Print Assumptions C37_print_injective_partial.
Print Assumptions C37_complete_partial.
Print Assumptions C37_unambiguous_partial.
Print Assumptions C37_sound_partial.
Print Assumptions C37_terminates_partial.
Print Assumptions C37_grouping_partial.
Print Assumptions C37_missing_comma_refuted.
Print Assumptions C37_dollar_refuted.
Print Assumptions C37_index_sign_refuted.
