(** C57: a name in a compiled unit means what it means in the source, also inside lambdas. *)
From Coq Require Import ZArith List Bool String Arith Permutation.
From Verif Require Import LamModel LamSpec LamProofs LamSim LamDecl.
Import ListNotations.
Open Scope string_scope.

(** An accepted unit, run on any inputs and any values of its registers and declared names,
    gives the result and the next register values that its source gives: for every depth of
    calls, and it fails exactly when the source does.  [uses "Lambda"]: see
    [C57_lambda_name_refuted]. *)
Theorem C57_unit_partial : forall (g : items) (xs : list string) (body : expr) (ids : list nat) (h : hexpr) (n : nat) (vs : list val) (w : world),
  (forall x id, assoc x g <> Some (id, IsVar)) ->
  visit_unit g xs body = Some (ids, h) ->
  uses "Lambda" body = false -> existsb (String.eqb "Lambda") xs = false ->
  List.length vs = List.length xs -> forallb (plain g) vs = true -> plain_world g w = true ->
  (forall v w', plain g v = true -> plain_world g w' = true ->
     (run_source g n xs body vs w = Some (v, w') <-> run_target (replacements h) n ids h vs w = Some (v, w'))) /\
  (run_source g n xs body vs w = None <-> run_target (replacements h) n ids h vs w = None).
Proof. exact unit_same. Qed.
Print Assumptions C57_unit_partial.

(** Every name a block declares ahead is defined exactly once by the statements of that
    block, and nowhere else. *)
Theorem C57_declared : forall (g : items) (xs : list string) (body : expr) (ids : list nat) (h : hexpr),
  visit_unit g xs body = Some (ids, h) ->
  (forall ss, In ss (blocks h) -> NoDup (declared ss) /\ Permutation (declared ss) (defined ss)) /\ elsewhere h = [].
Proof.
  intros g xs body ids h H. apply unit_decl in H as [A B]. rewrite Forall_forall in A. split; [exact A|exact B].
Qed.
Print Assumptions C57_declared.

(** The program may not use the name [Lambda]: the struct made for a lambda is added under
    that name to the scope the lambda is in, and is found instead of the program's own. *)
Definition own : items := [("Lambda", (0, IsStruct 1)); ("Some", (1, IsVariant 1)); ("None", (2, IsVariant 0))].
Definition hidden : expr :=
  EBlock (SLet (PName "f") (ELam false (PCons (PName "x") PNil) SNil (EVar "x"))
         (SLet (PName "y") (ECall (EVar "f") (ECons (EInt 3) ENil)) SNil))
    (ECon "Lambda" (ECons (EVar "y") ENil)).
Theorem C57_lambda_name_refuted : exists g xs body ids h vs w v w',
  visit_unit g xs body = Some (ids, h) /\ plain g v = true /\
  run_source g 1 xs body vs w = Some (v, w') /\ run_target (replacements h) 1 ids h vs w <> Some (v, w') /\
  run_target (replacements h) 1 ids h vs w <> None.
Proof.
  exists own, [], hidden.
  destruct (visit_unit own [] hidden) as [[ids h]|] eqn:E; [|vm_compute in E; discriminate].
  exists ids, h, [], {| given := []; log := [] |}, (VCon 0 [VInt 3]), {| given := []; log := [] |}.
  split; [reflexivity|]. split; [reflexivity|]. split; [vm_compute; reflexivity|].
  vm_compute in E. inversion E; subst. split; vm_compute; discriminate.
Qed.
Print Assumptions C57_lambda_name_refuted.

(** Nested lambdas, a name that is bound again between a lambda and its call, a name declared
    ahead, a register, an entity with its clock, a variant in a pattern. *)
Definition program : expr :=
  EBlock
    (SDecl ["d"]
    (SLet (PName "k") (EInt 10)
    (SLet (PName "add") (ELam false (PCons (PName "a") PNil) SNil
        (ELam false (PCons (PName "b") PNil) SNil (EAdd (EVar "k") (EAdd (EVar "a") (EAdd (EVar "b") (EVar "d"))))))
    (SLet (PName "k") (EInt 1000)
    (SReg (PName "r") (EAdd (EVar "r") (EInt 1))
    (SLet (PName "ent") (ELam true (PCons (PName "clk") (PCons (PCon "Some" (PCons (PName "k") PNil)) PNil)) SNil (EAdd (EVar "clk") (EAdd (EVar "k") (EVar "r"))))
    (SLet (PName "d") (EAdd (EVar "i") (EInt 1)) SNil)))))))
    (ETup (ECons (ECall (ECall (EVar "add") (ECons (EVar "k") ENil)) (ECons (EInt 5) ENil))
          (ECons (EInst (EVar "ent") (EInt 1) (ECons (ECon "Some" (ECons (EInt 20) ENil)) ENil))
          (ECons (EMatch (ECon "None" ENil) (ACons (PName "None") (EInt 0) (EInt 1) (ACons (PName "other") (EInt 1) (EVar "k") ANil))) ENil)))).
Example C57_nontrivial :
  exists ids h, visit_unit own ["i"] program = Some (ids, h) /\
    (forall x id, assoc x own <> Some (id, IsVar)) /\ uses "Lambda" program = false /\ List.length (replacements h) = 3 /\
    let w := {| given := [VInt 8; VInt 40]; log := [] |} in
    let r := Some (VTup [VInt 1023; VInt 61; VInt 1000], {| given := []; log := [(VInt 40, VInt 41)] |}) in
    plain_world own w = true /\
    run_source own 2 ["i"] program [VInt 7] w = r /\ run_target (replacements h) 2 ids h [VInt 7] w = r.
Proof.
  destruct (visit_unit own ["i"] program) as [[ids h]|] eqn:E; [|vm_compute in E; discriminate].
  exists ids, h. split; [reflexivity|]. split.
  { intros x id. unfold assoc, own. cbn [find fst]. destruct (String.eqb x "Lambda"); [discriminate|]. destruct (String.eqb x "Some"); [discriminate|].
    destruct (String.eqb x "None"); discriminate. }
  vm_compute in E. inversion E; subst. split; [vm_compute; reflexivity|]. split; [vm_compute; reflexivity|]. cbv zeta.
  split; [vm_compute; reflexivity|]. split; vm_compute; reflexivity.
Qed.
