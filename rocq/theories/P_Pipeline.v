(** C17-C20: pipelines. *)
From Coq Require Import List Bool Arith Lia.
From Verif Require Import PipeModel PipeSpec PipeProofs PipeRun PipeFun PipeCtrl PipeDelay.
Import ListNotations.

Definition no_conditions {V} (p : pipeline V) : Prop := Forall (fun c => c = None) (marks (body p)).
Definition all_timed {V} (p : pipeline V) (l : lowered) : Prop :=
  forall e, In e (result p :: exprs (body p)) -> well_timed (lookup (l_subs l) 0) e.

Lemma unstalled : forall V truth junk (p : pipeline V) l sig bsig, accepted p l -> runs truth junk p l sig bsig ->
  no_conditions p -> forall k t, ready_value l bsig k t = true.
Proof.
  intros V truth junk p l sig bsig Ha Hr Hn k t. rewrite (ready_iff V truth junk p l sig bsig Ha Hr).
  intros j _. unfold cond_value. unfold no_conditions in Hn. rewrite Forall_forall in Hn.
  destruct (nth_in_or_default j (marks (body p)) None) as [H| ->]; [now rewrite (Hn _ H)|reflexivity].
Qed.

(** C17: in a pipeline without stalls, a variable bound in stage [d] whose value is
    available [a] stages later is, when read in stage [s >= d + a], the value it had
    [s - (d + a)] cycles earlier; before that stage reading it is an error; wires and
    zero-sized values are never delayed. *)
Theorem C17_delay : forall V truth junk (p : pipeline V) l sig bsig x d a s,
  accepted p l -> runs truth junk p l sig bsig -> no_conditions p ->
  bound_in p l x d a -> d + a <= s <= stages p ->
  exists y, read (l_subs l) s x = Some y /\ forall t, sig y (t + (s - (d + a))) = sig (Src x) t.
Proof.
  intros V truth junk p l sig bsig x d a s Ha Hr Hn Hb Hs.
  destruct (delayed V truth junk p l sig bsig Ha Hr x d a Hb (unstalled _ _ _ _ _ _ _ Ha Hr Hn) (s - (d + a)))
    as (y & E & Hy); [lia|].
  exists y. split; [|exact Hy]. unfold read, lookup. replace (d + a + (s - (d + a))) with s in E by lia. now rewrite E.
Qed.
Theorem C17_too_early : forall V truth junk (p : pipeline V) l sig bsig x d a s,
  accepted p l -> runs truth junk p l sig bsig ->
  bound_in p l x d a -> d <= s < d + a -> s <= stages p ->
  read (l_subs l) s x = None.
Proof.
  intros V truth junk p l sig bsig x d a s Ha Hr Hb Hs Hn.
  eapply not_ready_before; eauto; lia.
Qed.
Theorem C17_undelayed : forall V truth junk (p : pipeline V) l sig bsig x d s,
  accepted p l -> runs truth junk p l sig bsig ->
  bound_undelayed p x d -> d <= s <= stages p ->
  read (l_subs l) s x = Some (Src x).
Proof.
  intros V truth junk p l sig bsig x d s Ha Hr Hb Hs.
  destruct (undelayed_entry V truth junk p l sig bsig Ha Hr x d Hb (s - d)) as (v & E & Hv); [lia|].
  replace (d + (s - d)) with s in E by lia. unfold read, lookup. rewrite E. destruct v; try discriminate; reflexivity.
Qed.
(** ... so a pipeline with [n] stages computes, [n] cycles later, the function
    that its body describes with all [reg] statements removed. *)
Theorem C17_function : forall V truth junk (p : pipeline V) l sig bsig,
  accepted p l -> runs truth junk p l sig bsig -> no_conditions p -> steady p sig -> all_timed p l ->
  forall t, output truth junk p l sig (t + stages p) = function_result truth p (inputs_at sig t).
Proof.
  intros V truth junk p l sig bsig Ha Hr Hn Hs Ht t.
  pose proof (unstalled _ _ _ _ _ _ _ Ha Hr Hn) as U.
  eapply output_value; eauto. rewrite (item_in_unstalled _ U).
  destruct (Nat.ltb_spec (t + stages p) (stages p)); [lia|]. f_equal. lia.
Qed.

(** C18: [stage.ready] is the conjunction of this and all later conditions (each
    condition as the compiler evaluates it), and all registers into a stage move
    together exactly when it holds. *)
Theorem C18_ready : forall V truth junk (p : pipeline V) l sig bsig k t,
  accepted p l -> runs truth junk p l sig bsig ->
  ready_value l bsig k t = true <->
  (forall j c, k <= j -> nth_error (marks (body p)) j = Some (Some c) ->
     truth (hw truth junk (read (l_subs l) 0) sig noloc c t) = true).
Proof.
  intros V truth junk p l sig bsig k t Ha Hr. rewrite (ready_iff V truth junk p l sig bsig Ha Hr).
  pose proof (run_conds _ _ _ _ _ _ _ Hr) as Hc.
  assert (G : forall m i, conds_hold truth junk (l_subs l) i m sig bsig ->
    forall j c, nth_error m j = Some (Some c) ->
    forall t, bsig (BCond (i + j)) t = truth (hw truth junk (read (l_subs l) 0) sig noloc c t)).
  { clear. induction m as [|[c|] m IH]; intros i Hc j c' Hj t; [destruct j; discriminate| |].
    - cbn in Hc. destruct Hc as [H1 H2]. destruct j as [|j].
      + cbn in Hj. injection Hj as <-. rewrite Nat.add_0_r. apply H1.
      + rewrite <- Nat.add_succ_comm. eapply IH; eauto.
    - cbn in Hc. destruct j as [|j]; [discriminate|]. rewrite <- Nat.add_succ_comm. eapply IH; eauto. }
  specialize (G _ _ Hc). cbn [Nat.add] in G. unfold cond_value. split.
  - intros H j c Hj Hnj. rewrite <- (G j c Hnj). specialize (H j Hj).
    erewrite nth_error_nth in H by exact Hnj. exact H.
  - intros H j Hj. destruct (nth j (marks (body p)) None) as [c|] eqn:E; [|reflexivity].
    assert (Hnj : nth_error (marks (body p)) j = Some (Some c)).
    { rewrite (nth_error_nth' _ None); [now rewrite E|].
      destruct (Nat.lt_ge_cases j (length (marks (body p)))); [assumption|].
      rewrite nth_overflow in E by assumption. discriminate. }
    rewrite (G j c Hnj). eauto.
Qed.
Theorem C18_registers : forall V truth junk (p : pipeline V) l sig bsig r t,
  accepted p l -> runs truth junk p l sig bsig -> In r (l_regs l) ->
  (ready_value l bsig (pr_stage r) t = true -> sig (pr_new r) (S t) = sig (pr_prev r) t) /\
  (ready_value l bsig (pr_stage r) t = false -> sig (pr_new r) (S t) = sig (pr_new r) t).
Proof.
  intros V truth junk p l sig bsig r t Ha Hr Hin.
  pose proof (regs_advance V truth junk p l sig bsig Ha Hr r Hin t) as E.
  split; intros H; rewrite H in E; exact E.
Qed.
(** ... so for every stall history all variables in a stage belong to the same item. *)
Theorem C18_items : forall V truth junk (p : pipeline V) l sig bsig,
  accepted p l -> runs truth junk p l sig bsig -> steady p sig -> all_timed p l ->
  (forall e, In e (exprs (body p)) -> no_nested e) ->
  forall k x y t t0, k <= stages p -> In x (all_names p) -> used p x ->
  read_ref (l_subs l) k x = Some y ->
  item_in (ready_value l bsig) k t = Some t0 ->
  sig y t = item_value truth p (inputs_at sig t0) x.
Proof.
  intros V truth junk p l sig bsig Ha Hr Hs Ht Hn k x y t t0 Hk Hx Hu Hy Hi.
  eapply stage_values; eauto.
Qed.

(** C19: nothing is lost, duplicated or reordered, whatever the stall history. *)
Lemma regs_stage : forall V en (items : list (item V)) s stage n s' regs n',
  handle en items s stage n = Ok (s', regs, n') ->
  Forall (fun r => pr_stage r < stage + length (marks items)) regs.
Proof.
  induction items as [|[x w z e|c] items IH]; cbn [handle]; intros s stage n s' regs n' H.
  - injection H as <- <- <-. constructor.
  - destruct (available_in (lookup s 0) e); [|discriminate]. eapply IH; eauto.
  - destruct (next_stage s n) as [[[s1 rg] n1]|]; [|discriminate].
    destruct (handle en items s1 (S stage) n1) as [[[s2 rg2] n2]|] eqn:E; [|discriminate].
    injection H as <- <- <-. change (marks (IMark c :: items)) with (c :: marks items). cbn [length].
    apply Forall_app. split.
    + apply Forall_forall. intros r Hr. apply in_map_iff in Hr as (q & <- & _). cbn. lia.
    + eapply Forall_impl; [|eapply IH; eauto]. cbn. intros. lia.
Qed.
Theorem C19_registers : forall V truth junk (p : pipeline V) l sig bsig r T,
  accepted p l -> runs truth junk p l sig bsig -> In r (l_regs l) ->
  let k := pr_stage r in
  let valid := valid_value l bsig in
  let ready := ready_value l bsig in
  held (valid (S k)) (sig (pr_new r)) 0 ++ taken (valid k) (ready k) (sig (pr_prev r)) T =
  taken (valid (S k)) (ready (S k)) (sig (pr_new r)) T ++ held (valid (S k)) (sig (pr_new r)) T.
Proof.
  intros V truth junk p l sig bsig r T Ha Hr Hin. cbv zeta.
  eapply reg_conserve; eauto.
  destruct (acc_lower _ _ _ Ha) as [n Hlow]. apply lower_inv in Hlow as (s0 & n' & -> & Hh & _).
  apply regs_stage in Hh. rewrite Forall_forall in Hh. exact (Hh r Hin).
Qed.
Theorem C19_items : forall V truth junk (p : pipeline V) l sig bsig T,
  accepted p l -> runs truth junk p l sig bsig ->
  let valid := valid_value l bsig in
  let ready := ready_value l bsig in
  let item := item_in ready in
  in_flight valid item (stages p) 0 ++ taken (fun _ => true) (ready 0) (fun t => Some t) T =
  taken (valid (stages p)) (fun _ => true) (item (stages p)) T ++ in_flight valid item (stages p) T.
Proof.
  intros V truth junk p l sig bsig T Ha Hr. cbv zeta. exact (items_conserve V truth junk p l sig bsig Ha Hr T).
Qed.
(** The results seen with [valid] at the output are the function applied to the
    accepted inputs, in order; at most [stages p] are still on their way. *)
Theorem C19_stream : forall V truth junk (p : pipeline V) l sig bsig,
  accepted p l -> runs truth junk p l sig bsig -> steady p sig -> all_timed p l ->
  (forall e, In e (exprs (body p)) -> no_nested e) ->
  (forall k, 1 <= k <= stages p -> valid_value l bsig k 0 = false) ->
  forall T, exists rest, length rest <= stages p /\
  map (fun t => function_result truth p (inputs_at sig t))
      (taken (fun _ => true) (ready_value l bsig 0) (fun t => t) T) =
  taken (valid_value l bsig (stages p)) (fun _ => true) (output truth junk p l sig) T ++ rest.
Proof. intros V truth junk p l sig bsig Ha Hr. exact (stream V truth junk p l sig bsig Ha Hr). Qed.

(** C20: an accepted expression with availability [a] has, at cycle [t], the
    combinational value of its inputs at cycle [t - a].  Partial: excludes the
    expressions for which the availability computation ignores a subexpression
    that matters ([well_timed]); see the refutations below. *)
Theorem C20_availability_partial : forall V truth junk (s : subs) stage sig scope (e : expr V) a,
  available_in (lookup s 0) e = Ok (Some a) ->
  well_timed (lookup s 0) e ->
  reads_ok (read s stage) scope e [] ->
  (forall x, In x (block_names e) -> is_wire (lookup s 0 x) = false /\ ~ In x scope) ->
  (forall x y, In x scope -> is_wire (lookup s 0 x) = true -> read s stage x = Some y ->
     forall t t', sig y t = sig y t') ->
  forall t, a <= t ->
  hw truth junk (read s stage) sig noloc e t =
  comb truth e (fun x => match read s stage x with Some y => sig y (t - a) | None => junk end).
Proof.
  intros V truth junk s stage sig scope e a Ha Hw Hr Hb Hs t Ht.
  set (env := fun u x => match read s stage x with Some y => sig y u | None => junk end).
  apply (hw_comb V truth junk (read s stage) sig (lookup s 0) scope e [] noloc env (Some a)); auto.
  - intros x [].
  - intros x Hx _. split; [reflexivity|]. intros y Ey u. unfold env. now rewrite Ey.
  - intros x Hx Hwx u u'. unfold env. destruct (read s stage x) as [y|] eqn:E; [eapply Hs; eauto|reflexivity].
Qed.

Print Assumptions C17_delay.
Print Assumptions C17_too_early.
Print Assumptions C17_undelayed.
Print Assumptions C17_function.
Print Assumptions C18_ready.
Print Assumptions C18_registers.
Print Assumptions C18_items.
Print Assumptions C19_registers.
Print Assumptions C19_items.
Print Assumptions C19_stream.
Print Assumptions C20_availability_partial.

(** ** Concrete cases *)
Definition dummy : lowered := Lowered new_subs [] [] (fun _ => None) [].
Definition low {V} (p : pipeline V) : lowered := match lower_pipeline p 0 with Ok l => l | Err => dummy end.
Definition sum (l : list nat) : nat := fold_right Nat.add 0 l.
Definition nz (n : nat) : bool := negb (n =? 0).
Definition dly (g : nat -> nat) (t : nat) : nat := match t with 0 => 0 | S t => g t end.

(** An unstalled pipeline with a nested pipeline and a wire, for every input stream. *)
Definition ex_p : pipeline nat :=
  Pipeline [Input 0 false false; Input 1 true false]
    [ILet 2 false false (EPipe 1 sum [EVar 0; EConst 3]); IMark None;
     ILet 3 false false (EIf (EVar 0) (EVar 2) (EVar 0)); IMark None]
    (EOp sum [EVar 3; EVar 0; EVar 1]).
Definition ex_sig (f : nat -> nat) (n : pname) (t : nat) : nat :=
  let s2 t := if t <? 1 then 0 else sum [f (t - 1); 3] in
  let s3 t := if nz (dly f t) then s2 t else dly f t in
  match n with
  | Src 0 => f t
  | Src 1 => 5
  | Src 2 => s2 t
  | Src 3 => s3 t
  | Fresh 0 => dly f t
  | Fresh 1 => dly (dly f) t
  | Fresh 2 => dly s2 t
  | Fresh 3 => dly s3 t
  | _ => 0
  end.
Lemma ex_accepted : accepted ex_p (low ex_p).
Proof.
  constructor.
  - exists 0. reflexivity.
  - repeat constructor; cbn; intuition discriminate.
  - intros e x He Hx. exfalso. cbn in He. repeat (destruct He as [<-|He]; [exact Hx|]). exact He.
  - cbn. intuition (auto; try discriminate).
  - cbn. intuition (auto; try discriminate).
Qed.
Lemma ex_runs : forall f, runs nz 0 ex_p (low ex_p) (ex_sig f) (fun _ _ => true).
Proof.
  intros f. constructor.
  - repeat (constructor; [intros t; reflexivity|]). constructor.
  - constructor.
  - cbn. repeat split; intros t; reflexivity.
  - exact I.
Qed.
Example C17_nontrivial : forall f,
  accepted ex_p (low ex_p) /\ runs nz 0 ex_p (low ex_p) (ex_sig f) (fun _ _ => true) /\
  no_conditions ex_p /\ steady ex_p (ex_sig f) /\ all_timed ex_p (low ex_p) /\
  bound_in ex_p (low ex_p) 2 0 1 /\ bound_in ex_p (low ex_p) 3 1 0 /\ bound_undelayed ex_p 1 0 /\
  stages ex_p = 2 /\
  function_result nz ex_p (inputs_at (ex_sig f) 7) = (if nz (f 7) then sum [f 7; 3] else f 7) + (f 7 + (5 + 0)).
Proof.
  intros f. split; [apply ex_accepted|]. split; [apply ex_runs|].
  split; [repeat constructor|]. split.
  { intros x [(i & Hi & <- & H)|(w & z & e & Hi & H)] _ t t'.
    - destruct Hi as [<-|[<-|[]]]; [discriminate|reflexivity].
    - repeat (destruct Hi as [Hi|Hi]; [first [discriminate Hi|injection Hi as <- <- <- _; discriminate H]|]); destruct Hi. }
  split; [intros e He; cbn in He; repeat (destruct He as [<-|He]; [cbn; tauto|]); destruct He|].
  split.
  { right. exists [], (EPipe 1 sum [EVar 0; EConst 3]), (tl (body ex_p)), (Some 1). repeat split. }
  split.
  { right. exists [ILet 2 false false (EPipe 1 sum [EVar 0; EConst 3]); IMark None],
      (EIf (EVar 0) (EVar 2) (EVar 0)), [IMark None], (Some 0). repeat split. }
  split.
  { left. split; [reflexivity|]. exists (Input 1 true false). repeat split. right. now left. }
  split; reflexivity.
Qed.

(** C20 (and C17): the availability of [if], [match] and blocks ignores the
    condition, the scrutinee and the bindings.  The compiler accepts pipelines whose
    output is not their function. *)
Definition wrong {V} (truth : V -> bool) (junk : V) (p : pipeline V) : Prop :=
  exists sig bsig t, accepted p (low p) /\ runs truth junk p (low p) sig bsig /\ no_conditions p /\
    steady p sig /\
    output truth junk p (low p) sig (t + stages p) <> function_result truth p (inputs_at sig t).
(** [let y = inst(1) f(x) + if x {1} else {0}; reg; y] *)
Definition if_p : pipeline nat :=
  Pipeline [Input 0 false false]
    [ILet 1 false false (EOp sum [EPipe 1 sum [EVar 0]; EIf (EVar 0) (EConst 1) (EConst 0)]); IMark None]
    (EVar 1).
Theorem C20_if_refuted : wrong nz 0 if_p.
Proof.
  set (f := fun t : nat => if t =? 0 then 4 else 0).
  exists (fun n t => match n with
    | Src 0 => f t
    | Src 1 => sum [if t <? 1 then 0 else sum [f (t - 1)]; if nz (f t) then 1 else 0]
    | Fresh 0 => dly f t | _ => 0 end), (fun _ _ => true), 0.
  split.
  { constructor.
    - exists 0. reflexivity.
    - repeat constructor; cbn; intuition discriminate.
    - intros e x He Hx. exfalso. cbn in He. repeat (destruct He as [<-|He]; [exact Hx|]). exact He.
    - cbn. intuition (auto; try discriminate).
    - cbn. intuition (auto; try discriminate). }
  split.
  { constructor.
    - repeat (constructor; [intros t; reflexivity|]). constructor.
    - constructor.
    - cbn. repeat split; intros t; reflexivity.
    - exact I. }
  split; [repeat constructor|]. split.
  { intros x [(i & Hi & <- & H)|(w & z & e & Hi & H)] _ t t'.
    - destruct Hi as [<-|[]]; discriminate.
    - repeat (destruct Hi as [Hi|Hi]; [first [discriminate Hi|injection Hi as <- <- <- _; discriminate H]|]); destruct Hi. }
  cbn. discriminate.
Qed.
(** [let y = match inst(1) f(x) { _ => x }]: the scrutinee is one cycle late. *)
Definition match_p : pipeline nat :=
  Pipeline [Input 0 false false] [] (EMatch (fun s l => s + sum l) (EPipe 1 sum [EVar 0]) [EVar 0]).
Theorem C20_match_refuted : wrong nz 0 match_p.
Proof.
  exists (fun n t => match n with Src 0 => if t =? 0 then 4 else 0 | _ => 0 end), (fun _ _ => true), 0.
  split.
  { constructor.
    - exists 0. reflexivity.
    - repeat constructor; cbn; intuition discriminate.
    - intros e x He Hx. exfalso. cbn in He. repeat (destruct He as [<-|He]; [exact Hx|]). exact He.
    - cbn. intuition (auto; try discriminate).
    - cbn. intuition (auto; try discriminate). }
  split; [constructor; try constructor; exact I|].
  split; [constructor|]. split.
  { intros x [(i & Hi & <- & H)|(w & z & e & Hi & H)] _ t t'; [destruct Hi as [<-|[]]; discriminate|destruct Hi]. }
  cbn. discriminate.
Qed.
(** [{ let y = inst(1) f(x); y }] counts as available at once. *)
Definition block_p : pipeline nat :=
  Pipeline [Input 0 false false] [] (EBlock 9 (EPipe 1 sum [EVar 0]) (EVar 9)).
Theorem C20_block_refuted : wrong nz 0 block_p.
Proof.
  exists (fun n t => match n with Src 0 => if t =? 0 then 4 else 0 | _ => 0 end), (fun _ _ => true), 0.
  split.
  { constructor.
    - exists 0. reflexivity.
    - repeat constructor; cbn; intuition discriminate.
    - intros e x [<-|[]] Hx F. cbn in *. destruct Hx as [<-|[]]. destruct F as [F|[]]; discriminate.
    - cbn. intuition (auto; try discriminate).
    - cbn. intuition (auto; try discriminate). }
  split; [constructor; try constructor; exact I|].
  split; [constructor|]. split.
  { intros x [(i & Hi & <- & H)|(w & z & e & Hi & H)] _ t t'; [destruct Hi as [<-|[]]; discriminate|destruct Hi]. }
  cbn. discriminate.
Qed.
Print Assumptions C20_if_refuted.
Print Assumptions C20_match_refuted.
Print Assumptions C20_block_refuted.

(** C18: the condition of a later [reg] is not read in its own stage: with
    [reg; reg[x];] the second condition is the input [x] of the current cycle, not the
    [x] of the item in stage 1. *)
Definition cond_p : pipeline nat :=
  Pipeline [Input 0 false false] [IMark None; IMark (Some (EVar 0))] (EVar 0).
Definition cond_en (t : nat) : bool := negb (t =? 1).
Theorem C18_condition_stage_refuted : exists (p : pipeline nat) l sig bsig j c t,
  accepted p l /\ runs nz 0 p l sig bsig /\ nth_error (marks (body p)) j = Some (Some c) /\
  reads_ok (read (l_subs l) j) (all_names p) c [] /\ 
  bsig (BCond j) t <> nz (hw nz 0 (read (l_subs l) j) sig noloc c t).
Proof.
  exists cond_p, (low cond_p),
    (fun n t => match n with Src 0 => if t =? 1 then 0 else 1 | _ => 1 end),
    (fun b t => match b with
       | BCond _ | BEnable _ | BTmp 4 | BTmp 5 => cond_en t
       | BValid 1 | BTmp 0 | BTmp 1 => true
       | BValid _ => match t with 0 => true | S t => cond_en t end
       | BTmp 3 => negb (cond_en t)
       | BTmp _ => if cond_en t then true else match t with 0 => true | S t => cond_en t end
       end), 1, (EVar 0), 1.
  split.
  { constructor.
    - exists 0. reflexivity.
    - repeat constructor; cbn; intuition discriminate.
    - intros e x He Hx. exfalso. cbn in He. repeat (destruct He as [<-|He]; [exact Hx|]). exact He.
    - exact I.
    - cbn. intuition (auto; try discriminate). }
  split.
  { constructor.
    - unfold low. cbn. repeat (constructor; [intros t; cbn; unfold cond_en; destruct t as [|[|t]]; reflexivity|]). constructor.
    - unfold low. cbn. repeat (constructor; [intros t; cbn; unfold cond_en; destruct t as [|[|[|t]]]; reflexivity|]). constructor.
    - exact I.
    - cbn. split; [|exact I]. intros t. unfold cond_en, nz. destruct t as [|[|t]]; reflexivity. }
  split; [reflexivity|]. split; [cbn; intuition (auto; discriminate)|]. cbn. discriminate.
Qed.
Print Assumptions C18_condition_stage_refuted.

(** A pipeline that stalls, for every input stream and every stall history. *)
Fixpoint hold (en : nat -> bool) (g : nat -> nat) (t : nat) : nat :=
  match t with 0 => 0 | S t => if en t then g t else hold en g t end.
Definition st_p : pipeline nat :=
  Pipeline [Input 0 false false; Input 1 false false]
    [IMark (Some (EVar 1)); ILet 2 false false (EOp sum [EVar 0; EConst 1]); IMark None]
    (EOp sum [EVar 2; EVar 0]).
Definition st_sig (f : nat -> nat) (en : nat -> bool) (n : pname) (t : nat) : nat :=
  let e t := if en t then 1 else 0 in
  let s2 t := sum [hold en f t; 1] in
  match n with
  | Src 0 => f t
  | Src 1 => e t
  | Src 2 => s2 t
  | Fresh 0 => hold en f t
  | Fresh 1 => hold en e t
  | Fresh 2 => dly (hold en f) t
  | Fresh 3 => dly (hold en e) t
  | Fresh 4 => dly s2 t
  | _ => 0
  end.
Definition st_bsig (en : nat -> bool) (b : bname) (t : nat) : bool :=
  let v1 t := match t with 0 => false | S t => en t end in
  let v2 t := match t with 0 => false | S t => v1 t end in
  match b with
  | BCond _ | BEnable _ => en t
  | BValid 1 => v1 t
  | BValid _ => v2 t
  | BTmp 0 => if en t then true else v1 t
  | BTmp 1 => true
  | BTmp 2 => negb (en t)
  | BTmp 3 => en t
  | BTmp _ => (if en t then true else v1 t) && en t
  end.
Example C19_nontrivial : forall f en,
  accepted st_p (low st_p) /\ runs nz 0 st_p (low st_p) (st_sig f en) (st_bsig en) /\
  steady st_p (st_sig f en) /\ all_timed st_p (low st_p) /\
  (forall e, In e (exprs (body st_p)) -> no_nested e) /\
  (forall k, 1 <= k <= stages st_p -> valid_value (low st_p) (st_bsig en) k 0 = false) /\
  length (l_regs (low st_p)) = 5.
Proof.
  intros f en. split.
  { constructor.
    - exists 0. reflexivity.
    - repeat constructor; cbn; intuition discriminate.
    - intros e x He Hx. exfalso. cbn in He. repeat (destruct He as [<-|He]; [exact Hx|]). exact He.
    - cbn. intuition (auto; try discriminate).
    - cbn. intuition (auto; try discriminate). }
  split.
  { constructor.
    - unfold low. cbn. repeat (constructor; [intros t; reflexivity|]). constructor.
    - unfold low. cbn. repeat (constructor; [intros t; cbn; try destruct t; cbn; try destruct (en _); cbn; reflexivity|]).
      constructor; [|constructor; [|constructor]]; intros t; cbn.
      + destruct (en t); [reflexivity|]. now rewrite andb_false_r.
      + reflexivity.
    - cbn. repeat split; intros t; reflexivity.
    - cbn. split; [|exact I]. intros t. unfold nz. destruct (en t); reflexivity. }
  split.
  { intros x [(i & Hi & <- & H)|(w & z & e & Hi & H)] _ t t'.
    - destruct Hi as [<-|[<-|[]]]; discriminate.
    - repeat (destruct Hi as [Hi|Hi]; [first [discriminate Hi|injection Hi as <- <- <- _; discriminate H]|]); destruct Hi. }
  split; [intros e He; cbn in He; repeat (destruct He as [<-|He]; [cbn; tauto|]); destruct He|].
  split; [intros e He; cbn in He; repeat (destruct He as [<-|He]; [cbn; tauto|]); destruct He|].
  split; [|reflexivity].
  intros k Hk. change (stages st_p) with 2 in Hk. destruct k as [|[|[|k]]]; [lia|reflexivity|reflexivity|lia].
Qed.

(** A nested pipeline does not stall with the pipeline around it: the value it
    delivers to a stalled stage belongs to another item. *)
Definition nest_p : pipeline nat :=
  Pipeline [Input 0 false false; Input 1 false false]
    [ILet 2 false false (EPipe 1 sum [EVar 0]); IMark None; IMark (Some (EVar 1))] (EVar 2).
Theorem C18_nested_refuted : exists (p : pipeline nat) l sig bsig t t0,
  accepted p l /\ runs nz 0 p l sig bsig /\ steady p sig /\ all_timed p l /\
  (forall k, 1 <= k <= stages p -> valid_value l bsig k 0 = false) /\
  valid_value l bsig (stages p) t = true /\
  item_in (ready_value l bsig) (stages p) t = Some t0 /\
  output nz 0 p l sig t <> function_result nz p (inputs_at sig t0).
Proof.
  set (en := fun t : nat => negb (t =? 1)).
  set (f := fun t : nat => t + 1).
  set (e := fun t : nat => if en t then 1 else 0).
  set (s2 := fun t : nat => if t <? 1 then 0 else sum [f (t - 1)]).
  set (v1 := fun t : nat => match t with 0 => false | _ => true end).
  set (v2 := fun t : nat => match t with 0 => false | S t => en t && v1 t end).
  exists nest_p, (low nest_p),
    (fun n t => match n with Src 0 => f t | Src 1 => e t | Src 2 => s2 t
       | Fresh 0 => hold en f t | Fresh 1 => hold en e t
       | Fresh 2 => hold en (hold en f) t | Fresh 3 => hold en (hold en e) t
       | Fresh 4 => hold en s2 t | _ => 0 end),
    (fun b t => match b with
       | BCond _ | BEnable _ => en t
       | BValid 1 => v1 t
       | BValid _ => v2 t
       | BTmp 0 => if en t then true else v1 t
       | BTmp 1 => true
       | BTmp 2 => if en t then v1 t else v2 t
       | BTmp 3 => negb (en t)
       | BTmp 4 => en t
       | BTmp _ => en t && v1 t
       end), 3, 0.
  split.
  { constructor.
    - exists 0. reflexivity.
    - repeat constructor; cbn; intuition discriminate.
    - intros q x He Hx. exfalso. cbn in He. repeat (destruct He as [<-|He]; [exact Hx|]). exact He.
    - cbn. intuition (auto; try discriminate).
    - cbn. intuition (auto; try discriminate). }
  split.
  { constructor.
    - unfold low. cbn. repeat (constructor; [intros t; reflexivity|]). constructor.
    - unfold low. cbn. repeat (constructor; [intros t; destruct t as [|[|[|t]]]; reflexivity|]). constructor.
    - cbn. repeat split; intros t; reflexivity.
    - cbn. split; [|exact I]. intros t. unfold nz, e. destruct (en t); reflexivity. }
  split.
  { intros x [(i & Hi & <- & H)|(w & z & q & Hi & H)] _ t t'.
    - destruct Hi as [<-|[<-|[]]]; discriminate.
    - repeat (destruct Hi as [Hi|Hi]; [first [discriminate Hi|injection Hi as <- <- <- _; discriminate H]|]); destruct Hi. }
  split; [intros q He; cbn in He; repeat (destruct He as [<-|He]; [cbn; tauto|]); destruct He|].
  split; [intros k Hk; change (stages nest_p) with 2 in Hk; destruct k as [|[|[|k]]]; [lia|reflexivity|reflexivity|lia]|].
  split; [reflexivity|]. split; [reflexivity|]. cbn. discriminate.
Qed.
Print Assumptions C18_nested_refuted.
Example C18_nontrivial : forall f en t,
  ready_value (low st_p) (st_bsig en) 0 t = en t /\ ready_value (low st_p) (st_bsig en) 1 t = true /\
  item_in (ready_value (low st_p) (st_bsig (fun t => negb (t =? 2)))) 1 3 = Some 1 /\
  used st_p 2 /\ read_ref (l_subs (low st_p)) 2 2 = Some (Fresh 4) /\
  item_value nz st_p (inputs_at (st_sig f en) 1) 2 = f 1 + 1.
Proof.
  intros f en t. repeat split; try reflexivity.
  exists (EOp sum [EVar 2; EVar 0]). cbn. auto.
Qed.
Example C20_nontrivial :
  let s := l_subs (low ex_p) in
  available_in (lookup s 0) (EOp sum [EPipe 2 sum [EVar 0; EVar 1]; EPipe 1 sum [EPipe 1 sum [EVar 0]]; EConst 4]) = Ok (Some 2) /\
  available_in (lookup s 0) (EOp sum [EPipe 2 sum [EVar 0]; EVar 0]) = Err /\
  is_wire (lookup s 0 1) = true.
Proof. repeat split. Qed.
