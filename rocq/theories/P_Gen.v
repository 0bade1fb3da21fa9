(** C63: [gen if] keeps the branch whose condition holds.  Model: [GenModel];
    specification: [GenSpec]. *)
From Coq Require Import List Arith Bool.
From Verif Require Import GenModel GenSpec GenProofs.
Import ListNotations.

(** The body of a unit is a block, or was not understood. *)
Definition written_as_block (u : unit_) : Prop := (exists l r, body u = EBlk l r) \/ body u = EErr.

(** After a unit has been split up, what it comes to is, for all values of the conditions,
    what is left of its body: the statements in front, those of the branches taken, and the
    result of the last of them.  Every call on the way passes on the inputs and type
    parameters, and a pipeline waits for as many stages as it has. *)
Theorem C63_runs : forall fuel u s u' s', written_as_block u -> known s u -> expand fuel u s = Some (Ok (u', s')) ->
  exists gen, items s' = gen ++ items s /\ NoDup (map id gen) /\
    forall conds e, picks conds (body u) e -> runs gen conds u' (lower conds true e).
Proof.
  intros fuel u s u' s' B K H. destruct (expand_fine fuel u s u' s' B H) as (_ & _ & _ & _ & _ & gen & E & F & ND & R). exists gen. split; [exact E|]. split; [exact ND|].
  intros conds e P. apply R with (n0 := next s); auto.
  - apply incl_refl.
  - intros v I. rewrite Forall_forall in F. apply F. exact I.
Qed.
Print Assumptions C63_runs.

(** What is left of a body is one thing, and so is what a unit comes to. *)
Theorem C63_meaning : (forall conds b, branch b -> exists e, picks conds b e /\ forall e', picks conds b e' -> e' = e) /\
  (forall gen conds u r r', NoDup (map id gen) -> runs gen conds u r -> runs gen conds u r' -> r = r').
Proof.
  split.
  - intros conds b B. destruct (picks_total conds b B) as (e & P). exists e. split; auto. intros e' P'. symmetry. eapply picks_det; eauto.
  - intros gen conds u r r' ND R R'. eapply runs_det; eauto.
Qed.
Print Assumptions C63_meaning.

(** Splitting a unit up comes to an end without an internal error. *)
Theorem C63_terminates : forall u s, written_as_block u -> branch (body u) -> forall fuel, nest (body u) < fuel ->
  exists u' s', expand fuel u s = Some (Ok (u', s')).
Proof. intros u s B R fuel N. now apply expand_total. Qed.
Print Assumptions C63_terminates.

(** The unit keeps its name, kind and parameters; the units made for it are of its kind,
    have its parameters, are to be inlined and have numbers of their own. *)
Theorem C63_heads : forall fuel u s u' s', written_as_block u -> expand fuel u s = Some (Ok (u', s')) ->
  id u' = id u /\ path u' = path u /\ ukind_ u' = ukind_ u /\ type_params u' = type_params u /\ inputs u' = inputs u /\
  exists gen, items s' = gen ++ items s /\ NoDup (map id gen) /\
    forall v, In v gen -> next s <= id v < next s' /\ ukind_ v = ukind_ u /\ type_params v = type_params u /\ inputs v = inputs u /\ 0 < inline v.
Proof.
  intros fuel u s u' s' B H. destruct (expand_fine fuel u s u' s' B H) as (_ & I & P & (K & T & J) & _ & gen & E & F & ND & _). repeat (split; [assumption|]).
  exists gen. split; [exact E|]. split; [exact ND|]. intros v V. rewrite Forall_forall in F. destruct (F v V) as (X & (Y1 & Y2 & Y3) & Z). repeat (split; [assumption|]).
  eapply Nat.le_lt_trans; [apply Nat.le_0_l|exact Z].
Qed.
Print Assumptions C63_heads.

(** A body is refused exactly if a [gen if] is where it must not be, in a branch that is
    taken or not. *)
Theorem C63_position : forall conds e, (lower conds true e = Refused <-> misplaced true e) /\ lower conds true e <> Bug.
Proof.
  intros conds e. destruct (position conds e true) as [[E M]|[[e' E] M]]; rewrite E; split; try discriminate; split; intros H; auto; try discriminate. destruct (M H).
Qed.
Print Assumptions C63_position.

(** [pipeline(3) u<#N>(a, b) { s1; gen if c0 { s2; gen if c1 { s3; x } else { y } } else if c2 { z } else { w } }] *)
Definition sample : unit_ :=
  {| id := 5; path := [Named 1]; ukind_ := Pipeline 3; type_params := [9]; inputs := [20; 21]; inline := 0;
     body := EBlk [SOther 1 []] (Some (EIf 0
       (EBlk [SOther 2 []; SReg 1] (Some (EIf 1 (EBlk [SOther 3 []] (Some (EVar 30))) (EBlk [] (Some (ECall Function 2 [EVar 20] None))))))
       (EIf 2 (EBlk [SLet 31 (EVar 21)] (Some (EVar 31))) (EBlk [] None)))) |}.
Definition start : ctx := {| next := 100; items := [] |}.
Example sample_branch : branch (body sample).
Proof.
  apply B_block, N_if; [apply B_block, N_if | apply B_if]; apply B_block; try apply N_none; apply N_other; discriminate.
Qed.
Example sample_expands : exists u' s', expand 3 sample start = Some (Ok (u', s')) /\ length (items s') = 6.
Proof.
  set (r := expand 3 sample start). vm_compute in r. match eval unfold r in r with Some (Ok (?u', ?s')) => exists u', s' end. split; reflexivity.
Qed.
Example C63_nontrivial : written_as_block sample /\ known start sample /\ branch (body sample) /\ nest (body sample) = 2 /\
  (exists u' s', expand 3 sample start = Some (Ok (u', s')) /\ length (items s') = 6) /\
  picks (fun c => c =? 0) (body sample) (EBlk [SOther 1 []; SOther 2 []; SReg 1] (Some (ECall Function 2 [EVar 20] None))) /\
  picks (fun c => c =? 2) (body sample) (EBlk [SOther 1 []; SLet 31 (EVar 21)] (Some (EVar 31))).
Proof.
  split; [left; do 2 eexists; reflexivity|]. refine (conj _ _).
  - intros n C. eapply small_calls; [exact C|reflexivity].
  - split; [exact sample_branch|]. split; [reflexivity|]. split; [exact sample_expands|]. split.
    + apply (K_yes _ [SOther 1 []] 0 _ _ (EBlk [SOther 2 []; SReg 1] (Some (ECall Function 2 [EVar 20] None)))); [reflexivity|].
      apply (K_no _ [SOther 2 []; SReg 1] 1 _ _ (EBlk [] (Some (ECall Function 2 [EVar 20] None)))); [reflexivity|]. apply K_end. discriminate.
    + apply (K_no _ [SOther 1 []] 0 _ _ (EBlk [SLet 31 (EVar 21)] (Some (EVar 31)))); [reflexivity|]. apply K_else_yes; [reflexivity|]. apply K_end. discriminate.
Qed.

(** The units made for the two branches have the same path, [u::if#true]; only their
    numbers differ. *)
Theorem C63_path_refuted : exists fuel u s u' s' v w, written_as_block u /\ known s u /\ expand fuel u s = Some (Ok (u', s')) /\
  In v (items s') /\ In w (items s') /\ id v <> id w /\ path v = path w.
Proof.
  set (u := {| id := 5; path := [Named 1]; ukind_ := Function; type_params := []; inputs := []; inline := 0; body := EBlk [] (Some (EIf 0 (EBlk [] (Some (EVar 30))) (EBlk [] (Some (EVar 31))))) |}).
  set (r := expand 3 u start). vm_compute in r.
  match eval unfold r in r with Some (Ok (?u', {| next := ?n; items := [?w; ?v] |})) =>
    exists 3, u, start, u', {| next := n; items := [w; v] |}, v, w end.
  refine (conj _ (conj _ _)); [left; do 2 eexists; reflexivity | intros n C; eapply small_calls; [exact C|reflexivity]|].
  split; [reflexivity|]. cbn. repeat split; auto.
Qed.
Print Assumptions C63_path_refuted.

(** The error message says that a [gen if] can only be the result of a unit; one that is
    bound by [let] is accepted, too. *)
Theorem C63_let_refuted : exists conds l x c t f r e, lower conds true (EBlk (SLet x (EIf c t f) :: l) (Some r)) = Ok e /\ (forall c t f, r <> EIf c t f).
Proof. exists (fun _ => true), [], 1, 0, (EVar 2), (EVar 3), (EVar 1). eexists. split; [reflexivity|discriminate]. Qed.
Print Assumptions C63_let_refuted.
