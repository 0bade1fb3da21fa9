(** C42: two modules the comparison calls the same differ only by a one-to-one
    renaming.  Proved for modules with the same number of inputs in which every
    variable is defined once under its own number; the refuted theorems show
    what goes wrong otherwise. *)
From Coq Require Import String List Bool Arith Lia.
From Verif Require Import Bits CodegenModel MirModel DiffModel DiffSpec DiffProofs.
Import ListNotations.
Local Open Scope list_scope.
Local Open Scope nat_scope.

Theorem C42_sound_partial :
  forall n1 e1 n2 e2,
  List.length (e_inputs e1) = List.length (e_inputs e2) -> well_numbered e1 -> well_numbered e2 ->
  compare_entity (n1, e1) (n2, e2) new_map = true ->
  n1 = n2 /\ same_up_to_renaming e1 e2.
Proof. exact compare_sound. Qed.

(** And the other way: modules that differ by a renaming are called the same. *)
Theorem C42_complete_partial :
  forall n e1 e2, well_numbered e1 -> closed e1 -> same_up_to_renaming e1 e2 ->
  compare_entity (n, e1) (n, e2) new_map = true.
Proof. intros n e1 e2 W C (f & R & _ & E). exact (compare_complete n e1 e2 f W C R E). Qed.

Definition inp (s : string) (v : vn) : minput :=
  {| in_name := s; in_val := v; in_ty := TInt 8; in_no_mangle := false |}.

(** A module with one more input is called the same. *)
Theorem C42_inputs_refuted :
  exists n e1 e2, well_numbered e1 /\ well_numbered e2 /\ closed e1 /\ closed e2
    /\ compare_entity (n, e1) (n, e2) new_map = true /\ ~ same_up_to_renaming e1 e2.
Proof.
  exists "m"%string,
    {| e_inputs := [inp "a" (Named 0 "a")]; e_output := Named 0 "a"; e_output_ty := TInt 8; e_stmts := [] |},
    {| e_inputs := [inp "a" (Named 0 "a"); inp "b" (Named 1 "b")]; e_output := Named 0 "a";
       e_output_ty := TInt 8; e_stmts := [] |}.
  split; [repeat constructor; cbn; intuition discriminate|].
  split; [repeat constructor; cbn; intuition discriminate|].
  split; [split; cbn; intuition|]. split; [split; cbn; intuition|].
  split; [reflexivity|]. intros (f & _ & _ & E). discriminate E.
Qed.

(** Numbers that are unique only together with the name, as the renaming pass
    makes them: a different input is returned, and the modules are called the
    same. *)
Theorem C42_shared_numbers_refuted :
  exists n e1 e2, List.length (e_inputs e1) = List.length (e_inputs e2)
    /\ NoDup (definitions e1) /\ NoDup (definitions e2) /\ closed e1 /\ closed e2
    /\ compare_entity (n, e1) (n, e2) new_map = true /\ ~ same_up_to_renaming e1 e2.
Proof.
  exists "m"%string,
    {| e_inputs := [inp "a" (Named 0 "a"); inp "b" (Named 0 "b"); inp "c" (Named 1 "a")];
       e_output := Named 0 "a"; e_output_ty := TInt 8; e_stmts := [] |},
    {| e_inputs := [inp "a" (Named 1 "a"); inp "b" (Named 2 "b"); inp "c" (Named 2 "a")];
       e_output := Named 2 "a"; e_output_ty := TInt 8; e_stmts := [] |}.
  split; [reflexivity|].
  split; [repeat constructor; cbn; intuition discriminate|].
  split; [repeat constructor; cbn; intuition discriminate|].
  split; [split; cbn; intuition|]. split; [split; cbn; intuition|].
  split; [reflexivity|]. intros (f & _ & _ & E). unfold rename_entity in E. cbn in E.
  injection E as E1 E2 E3 E4 E5 E6 || injection E as E1 E2 E3 E4. congruence.
Qed.

(** The reverse map is never read: two variables may be sent to one. *)
Theorem C42_one_to_one_refuted :
  exists n e1 e2, well_numbered e1 /\ List.length (e_inputs e1) = List.length (e_inputs e2)
    /\ compare_entity (n, e1) (n, e2) new_map = true /\ compare_entity (n, e2) (n, e1) new_map = false
    /\ ~ same_up_to_renaming e1 e2.
Proof.
  exists "m"%string,
    {| e_inputs := []; e_output := EId 2; e_output_ty := TInt 8;
       e_stmts := [SConst (EId 0) (TInt 8) 1; SConst (EId 1) (TInt 8) 2;
                   SBind (EId 2) (MOp Add) [EId 0; EId 1] (TInt 8)] |},
    {| e_inputs := []; e_output := EId 2; e_output_ty := TInt 8;
       e_stmts := [SConst (EId 0) (TInt 8) 1; SConst (EId 0) (TInt 8) 2;
                   SBind (EId 2) (MOp Add) [EId 0; EId 0] (TInt 8)] |}.
  split; [repeat constructor; cbn; intuition discriminate|].
  split; [reflexivity|]. split; [reflexivity|]. split; [reflexivity|].
  intros (f & _ & I & E). unfold rename_entity in E. cbn in E. injection E as E1 E2 E3 E4 E5 E6 || injection E as E1 E2 E3 E4.
  assert (Q : EId 0 = EId 1) by (apply I; cbn; auto; congruence). discriminate Q.
Qed.

(** A register with reset fed by an adder, under two numberings. *)
Definition ex_diff (a clk rst r s k : nat) : entity :=
  {| e_inputs := [inp "a" (Named a "a"); inp "clk" (Named clk "clk"); inp "rst" (Named rst "rst")];
     e_output := Named r "r"; e_output_ty := TInt 8;
     e_stmts := [SConst (EId k) (TInt 8) 0;
                 SReg (Named r "r") (TInt 8) (Named clk "clk") (Some (Named rst "rst", EId k)) None (EId s);
                 SBind (EId s) (MOp Add) [Named a "a"; Named r "r"] (TInt 8)] |}.

Example C42_nontrivial :
  compare_entity ("m"%string, ex_diff 0 1 2 3 4 5) ("m"%string, ex_diff 9 8 7 6 5 4) new_map = true
  /\ well_numbered (ex_diff 0 1 2 3 4 5) /\ well_numbered (ex_diff 9 8 7 6 5 4) /\ closed (ex_diff 0 1 2 3 4 5)
  /\ same_up_to_renaming (ex_diff 0 1 2 3 4 5) (ex_diff 9 8 7 6 5 4)
  /\ compare_entity ("m"%string, ex_diff 0 1 2 3 4 5)
       ("m"%string, {| e_inputs := e_inputs (ex_diff 9 8 7 6 5 4); e_output := Named 9 "a";
                       e_output_ty := TInt 8; e_stmts := e_stmts (ex_diff 9 8 7 6 5 4) |}) new_map = false.
Proof.
  assert (W1 : well_numbered (ex_diff 0 1 2 3 4 5)) by (repeat constructor; cbn; intuition discriminate).
  assert (W2 : well_numbered (ex_diff 9 8 7 6 5 4)) by (repeat constructor; cbn; intuition discriminate).
  split; [reflexivity|]. split; [assumption|]. split; [assumption|].
  split; [split; cbn; intuition discriminate|]. split; [|reflexivity].
  exact (proj2 (C42_sound_partial "m" (ex_diff 0 1 2 3 4 5) "m" (ex_diff 9 8 7 6 5 4) eq_refl W1 W2 eq_refl)).
Qed.

Print Assumptions C42_sound_partial.
Print Assumptions C42_complete_partial.
Print Assumptions C42_inputs_refuted.
Print Assumptions C42_shared_numbers_refuted.
Print Assumptions C42_one_to_one_refuted.
