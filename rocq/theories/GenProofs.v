(** Proofs about [gen if] (C63). *)
From Coq Require Import List Arith Bool Lia.
From Verif Require Import GenModel GenSpec.
Import ListNotations.

Section expr_ind2.
Variables (P : expr -> Prop) (Q : stmt -> Prop).
Hypotheses (H1 : P EErr) (H2 : forall c t f, P t -> P f -> P (EIf c t f))
  (H3 : forall l r, Forall Q l -> (forall e, r = Some e -> P e) -> P (EBlk l r))
  (H4 : forall k n l tf, Forall P l -> P (ECall k n l tf)) (H5 : forall x, P (EVar x)) (H6 : forall k l, Forall P l -> P (EOther k l))
  (H7 : forall x e, P e -> Q (SLet x e)) (H8 : forall c, Q (SReg c)) (H9 : forall k l, Forall P l -> Q (SOther k l)).
Fixpoint expr_ind2 (e : expr) : P e :=
  let all := fix go (l : list expr) : Forall P l := match l with [] => Forall_nil _ | x :: l => Forall_cons x (expr_ind2 x) (go l) end in
  match e with
  | EErr => H1
  | EIf c t f => H2 c t f (expr_ind2 t) (expr_ind2 f)
  | EBlk l r => H3 l r ((fix go (l : list stmt) : Forall Q l := match l with [] => Forall_nil _ | x :: l => Forall_cons x (stmt_ind2 x) (go l) end) l)
      (match r as r return forall e, r = Some e -> P e with
       | Some e => fun e' E => match E in _ = o return match o with Some x => P x | None => True end with eq_refl => expr_ind2 e end
       | None => fun e' E => match E in _ = o return match o with Some x => P x | None => True end with eq_refl => I end
       end)
  | ECall k n l tf => H4 k n l tf (all l)
  | EVar x => H5 x
  | EOther k l => H6 k l (all l)
  end
with stmt_ind2 (a : stmt) : Q a :=
  let all := fix go (l : list expr) : Forall P l := match l with [] => Forall_nil _ | x :: l => Forall_cons x (expr_ind2 x) (go l) end in
  match a with
  | SLet x e => H7 x e (expr_ind2 e)
  | SReg c => H8 c
  | SOther k l => H9 k l (all l)
  end.
End expr_ind2.

Section Lower.
Variable conds : nat -> bool.
Notation lower := (lower conds).
Notation lower_stmt := (lower_stmt conds).
Fixpoint lower_all (l : list expr) : res (list expr) :=
  match l with [] => Ok [] | a :: l => bind (lower false a) (fun a => bind (lower_all l) (fun l => Ok (a :: l))) end.
Definition lower_stmts (a : bool) := fix go (l : list stmt) : res (list stmt) :=
  match l with [] => Ok [] | x :: l => bind (lower_stmt a x) (fun x => bind (go l) (fun l => Ok (x :: l))) end.
Lemma stmts_cons a x l : lower_stmts a (x :: l) = bind (lower_stmt a x) (fun x => bind (lower_stmts a l) (fun l => Ok (x :: l))).
Proof. reflexivity. Qed.
Lemma lower_call a k n l tf : lower a (ECall k n l tf) = bind (lower_all l) (fun l => Ok (ECall k n l tf)).
Proof. reflexivity. Qed.
Lemma lower_other a k l : lower a (EOther k l) = bind (lower_all l) (fun l => Ok (EOther k l)).
Proof. reflexivity. Qed.
Lemma lower_blk a l r : lower a (EBlk l r) = bind (lower_stmts a l) (fun l => match r with Some r => bind (lower a r) (fun r => Ok (EBlk l (Some r))) | None => Ok (EBlk l None) end).
Proof. reflexivity. Qed.
Lemma lower_if a c t f : lower a (EIf c t f) = bind (lower a t) (fun t => bind (lower a f) (fun f => if a then Ok (if conds c then t else f) else Refused)).
Proof. reflexivity. Qed.
Lemma lower_sother a k l : lower_stmt a (SOther k l) = bind (lower_all l) (fun l => Ok (SOther k l)).
Proof. reflexivity. Qed.
Lemma lower_slet a x e : lower_stmt a (SLet x e) = bind (lower a e) (fun e => Ok (SLet x e)).
Proof. reflexivity. Qed.

(** Positions *)
Definition told (a : bool) (e : expr) : Prop := (lower a e = Refused /\ misplaced a e) \/ (exists e', lower a e = Ok e') /\ ~ misplaced a e.
Definition told_stmt (s : stmt) : Prop := forall a,
  match s with
  | SLet x e => told a e
  | SReg _ => True
  | SOther k l => (lower_all l = Refused /\ exists e, In e l /\ misplaced false e) \/ (exists l', lower_all l = Ok l') /\ ~ exists e, In e l /\ misplaced false e
  end.
Lemma told_all l : Forall (fun e => forall a, told a e) l ->
  (lower_all l = Refused /\ exists e, In e l /\ misplaced false e) \/ (exists l', lower_all l = Ok l') /\ ~ exists e, In e l /\ misplaced false e.
Proof.
  induction 1 as [|e l H F IH]; [right; split; [eexists; reflexivity|]; intros (e & [] & _)|]. cbn [lower_all].
  destruct (H false) as [[E M]|[[e' E] M]]; rewrite E; cbn [bind].
  - left. split; auto. exists e. cbn. auto.
  - destruct IH as [[G (x & I & X)]|[[l' G] X]]; rewrite G; cbn [bind].
    + left. split; auto. exists x. cbn. auto.
    + right. split; [eauto|]. intros (x & [I|I] & Y); [subst; auto|]. eauto.
Qed.
Definition bad_stmt (a : bool) (s : stmt) : Prop :=
  match s with SLet x e => misplaced a e | SReg _ => False | SOther k l => exists e, In e l /\ misplaced false e end.
Lemma told_stmts a l : Forall told_stmt l ->
  (lower_stmts a l = Refused /\ exists s, In s l /\ bad_stmt a s) \/ (exists l', lower_stmts a l = Ok l') /\ ~ exists s, In s l /\ bad_stmt a s.
Proof.
  induction 1 as [|s l H F IH]; [right; split; [eexists; reflexivity|]; intros (e & [] & _)|]. rewrite stmts_cons.
  assert (Z : (lower_stmt a s = Refused /\ bad_stmt a s) \/ (exists s', lower_stmt a s = Ok s') /\ ~ bad_stmt a s).
  { specialize (H a). destruct s as [x e|c|k es]; cbn [bad_stmt].
    - rewrite lower_slet. destruct H as [[E M]|[[e' E] M]]; rewrite E; cbn [bind]; [left; auto | right; split; [eauto|auto]].
    - right. split; [eexists; reflexivity | tauto].
    - rewrite lower_sother. destruct H as [[E M]|[[e' E] M]]; rewrite E; cbn [bind]; [left; auto | right; split; [eauto|auto]]. }
  destruct Z as [[E M]|[[s' E] M]]; rewrite E; cbn [bind].
  - left. split; auto. exists s. cbn. auto.
  - destruct IH as [[G (x & I & X)]|[[l' G] X]]; rewrite G; cbn [bind].
    + left. split; auto. exists x. cbn. auto.
    + right. split; [eauto|]. intros (x & [I|I] & Y); [subst; auto|]. eauto.
Qed.
Lemma bad_blk a l r s : In s l -> bad_stmt a s -> misplaced a (EBlk l r).
Proof. intros I B. destruct s as [x e|c|k es]; cbn in B; [eapply W_bound; eauto | destruct B | destruct B as (e & J & M); eapply W_statement; eauto]. Qed.
Lemma position : forall e a, told a e.
Proof.
  apply (expr_ind2 (fun e => forall a, told a e) told_stmt); unfold told_stmt.
  - intros a. right. split; [eexists; reflexivity|]. intros M; inversion M.
  - intros c t f IHt IHf a. unfold told. rewrite lower_if. destruct (IHt a) as [[E M]|[[t' E] M]]; rewrite E; cbn [bind]; [left; split; auto; now apply W_yes|].
    destruct (IHf a) as [[G N]|[[f' G] N]]; rewrite G; cbn [bind]; [left; split; auto; now apply W_no|].
    destruct a; [right; split; [eauto|intros X; inversion X; auto] | left; split; auto; constructor].
  - intros l r Hl Hr a. unfold told. rewrite lower_blk. destruct (told_stmts a l Hl) as [[E (s & I & B)]|[[l' E] M]]; rewrite E; cbn [bind]; [left; split; auto; eapply bad_blk; eauto|].
    assert (X : misplaced a (EBlk l r) -> exists e, r = Some e /\ misplaced a e).
    { intros X. inversion X; subst; eauto; exfalso; apply M.
      - eexists. split; [eassumption|]. cbn. assumption.
      - eexists. split; [eassumption|]. cbn. eauto. }
    destruct r as [r|]; [|right; split; [eauto|]; intros Y; destruct (X Y) as (? & ? & _); discriminate].
    destruct (Hr r eq_refl a) as [[G N]|[[r' G] N]]; rewrite G; cbn [bind]; [left; split; auto; now apply W_result|].
    right. split; [eauto|]. intros Y. destruct (X Y) as (e & Z & W). injection Z as ->. auto.
  - intros k n l tf H a. unfold told. rewrite lower_call. destruct (told_all l H) as [[E (e & I & B)]|[[l' E] M]]; rewrite E; cbn [bind]; [left; split; auto; eapply W_argument; eauto|].
    right. split; [eauto|]. intros X. inversion X; subst. apply M. eauto.
  - intros x a. right. split; [eexists; reflexivity|]. intros M; inversion M.
  - intros k l H a. unfold told. rewrite lower_other. destruct (told_all l H) as [[E (e & I & B)]|[[l' E] M]]; rewrite E; cbn [bind]; [left; split; auto; eapply W_operand; eauto|].
    right. split; [eauto|]. intros X. inversion X; subst. apply M. eauto.
  - intros x e H a. apply H.
  - auto.
  - intros k l H _. now apply told_all.
Qed.

(** Calls *)
Definition calls_stmt (n : nat) (s : stmt) : Prop := match s with SLet x e => calls n e | SReg _ => False | SOther k l => exists e, In e l /\ calls n e end.
Definition kept (e : expr) : Prop := forall a e' n, lower a e = Ok e' -> calls n e' -> calls n e.
Lemma bind_ok {A B} (r : res A) (f : A -> res B) b : bind r f = Ok b -> exists a, r = Ok a /\ f a = Ok b.
Proof. destruct r; cbn; intros H; [eauto|discriminate|discriminate]. Qed.
Lemma kept_all l : Forall kept l -> forall l' n, lower_all l = Ok l' -> (exists e, In e l' /\ calls n e) -> exists e, In e l /\ calls n e.
Proof.
  induction 1 as [|e l H F IH]; cbn [lower_all]; intros l' n E (x & I & C).
  - injection E as <-. destruct I.
  - apply bind_ok in E as (e' & E & G). apply bind_ok in G as (m & G & K). injection K as <-. destruct I as [<-|I].
    + exists e. split; [cbn; auto|]. eapply H; eauto.
    + destruct (IH m n G) as (y & J & Y); [eauto|]. exists y. cbn. auto.
Qed.
Lemma kept_stmts a l : Forall (fun s => forall a s' n, lower_stmt a s = Ok s' -> calls_stmt n s' -> calls_stmt n s) l ->
  forall l' n, lower_stmts a l = Ok l' -> (exists e, In e l' /\ calls_stmt n e) -> exists e, In e l /\ calls_stmt n e.
Proof.
  induction 1 as [|e l H F IH]; intros l' n E (x & I & C).
  - injection E as <-. destruct I.
  - rewrite stmts_cons in E. apply bind_ok in E as (e' & E & G). apply bind_ok in G as (m & G & K). injection K as <-. destruct I as [<-|I].
    + exists e. split; [cbn; auto|]. eapply H; eauto.
    + destruct (IH m n G) as (y & J & Y); [eauto|]. exists y. cbn. auto.
Qed.
Lemma calls_blk n l r s : In s l -> calls_stmt n s -> calls n (EBlk l r).
Proof. intros I C. destruct s as [x e|c|k es]; cbn in C; [eapply C_bound; eauto | destruct C | destruct C as (e & J & M); eapply C_statement; eauto]. Qed.
Lemma blk_calls n l r : calls n (EBlk l r) -> (exists s, In s l /\ calls_stmt n s) \/ exists e, r = Some e /\ calls n e.
Proof. intros C. inversion C; subst; [left; eexists; split; [eassumption|assumption] | left; eexists; split; [eassumption|cbn; eauto] | right; eauto]. Qed.
Lemma lower_calls : forall e, kept e.
Proof.
  apply (expr_ind2 kept (fun s => forall a s' n, lower_stmt a s = Ok s' -> calls_stmt n s' -> calls_stmt n s)).
  - intros a e' n E C. injection E as <-. exact C.
  - intros c t f Ht Hf a e' n E C. rewrite lower_if in E. apply bind_ok in E as (t' & E & G). apply bind_ok in G as (f' & G & K). destruct a; [|discriminate].
    injection K as <-. destruct (conds c); [apply C_yes; eapply Ht; eauto | apply C_no; eapply Hf; eauto].
  - intros l r Hl Hr a e' n E C. rewrite lower_blk in E. apply bind_ok in E as (l' & E & G). destruct r as [r|].
    + apply bind_ok in G as (r' & G & K). injection K as <-. apply blk_calls in C as [C|(x & X & C)].
      * destruct (kept_stmts a l Hl l' n E C) as (s & I & S). eapply calls_blk; eauto.
      * injection X as <-. apply C_result. eapply Hr; eauto.
    + injection G as <-. apply blk_calls in C as [C|(x & X & C)]; [|discriminate].
      destruct (kept_stmts a l Hl l' n E C) as (s & I & S). eapply calls_blk; eauto.
  - intros k m l tf H a e' n E C. rewrite lower_call in E. apply bind_ok in E as (l' & E & G). injection G as <-. inversion C as [| ? ? ? ? x I D| | | | | |]; subst; [constructor|].
    destruct (kept_all l H l' n E) as (y & J & Y); [eauto|]. eapply C_argument; eauto.
  - intros x a e' n E C. injection E as <-. exact C.
  - intros k l H a e' n E C. rewrite lower_other in E. apply bind_ok in E as (l' & E & G). injection G as <-. inversion C as [| |? ? x I D| | | | |]; subst.
    destruct (kept_all l H l' n E) as (y & J & Y); [eauto|]. eapply C_operand; eauto.
  - intros x e H a s' n E C. rewrite lower_slet in E. apply bind_ok in E as (e' & E & G). injection G as <-. eapply H; eauto.
  - intros c a s' n E C. injection E as <-. exact C.
  - intros k l H a s' n E C. rewrite lower_sother in E. apply bind_ok in E as (l' & E & G). injection G as <-. eapply kept_all; eauto.
Qed.
End Lower.

(** Branches *)
Scheme branch_ind2 := Minimality for branch Sort Prop with ends_ind2 := Minimality for ends Sort Prop.
Combined Scheme branch_both from branch_ind2, ends_ind2.
Lemma absorb_total l : forall t, branch t -> exists t', absorb_statements t l = Ok t' /\ branch t' /\ nest t' = nest t /\
  (forall conds e, picks conds t e -> picks conds t' (after l e)) /\ (forall n, calls n t' -> calls n t \/ exists s, In s l /\ calls_stmt n s) /\
  match t' with EIf _ _ _ | EBlk _ _ | EErr => True | _ => False end.
Proof.
  intros t. induction t as [|c t f IHt IHf|m r _ _|k n args tf _|x|k args _|x e _|c|k args _] using expr_ind2 with (Q := fun _ => True); try exact I; intros B; auto; try (inversion B; fail).
  - exists EErr. repeat split; auto. intros conds e K. inversion K; subst. constructor.
  - inversion B as [|? ? ? Bt Bf|]; subst. destruct IHt as (t' & A & Bt' & N & P & C & _); auto. destruct IHf as (f' & A' & Bf' & N' & P' & C' & _); auto.
    exists (EIf c t' f'). cbn [absorb_statements]. rewrite A, A'. cbn [bind]. split; auto. split; [now constructor|]. split; [cbn; congruence|]. split; [|split; [|exact I]].
    + intros conds e K. inversion K; subst; [apply K_else_yes | apply K_else_no]; auto.
    + intros n X. inversion X; subst; [destruct (C n) | destruct (C' n)]; auto; left; [now apply C_yes | now apply C_no].
  - exists (EBlk (l ++ m) r). cbn [absorb_statements]. split; auto. inversion B; subst. split; [now constructor|]. split; [reflexivity|]. split; [|split; [|exact I]].
    + intros conds e K. inversion K; subst; cbn [after].
      * now apply K_end.
      * replace (after l (after m e0)) with (after (l ++ m) e0) by (destruct e0; cbn; auto; now rewrite app_assoc). now apply K_yes.
      * replace (after l (after m e0)) with (after (l ++ m) e0) by (destruct e0; cbn; auto; now rewrite app_assoc). now apply K_no.
    + intros n X. apply blk_calls in X as [(s & I & S)|(e & -> & S)]; [|left; now apply C_result]. apply in_app_or in I as [I|I]; [eauto|]. left. eapply calls_blk; eauto.
Qed.
Lemma absorb_inv l : forall t t', absorb_statements t l = Ok t' -> (forall conds e, picks conds t e -> picks conds t' (after l e)) /\
  (forall n, calls n t' -> calls n t \/ exists s, In s l /\ calls_stmt n s).
Proof.
  intros t. induction t as [|c t f IHt IHf|m r _ _|k n args tf _|x|k args _|x e _|c|k args _] using expr_ind2 with (Q := fun _ => True); try exact I; intros t' A; auto; cbn [absorb_statements] in A; try discriminate.
  - injection A as <-. split; auto. intros conds e K. inversion K; subst. constructor.
  - apply bind_ok in A as (x & A & G). apply bind_ok in G as (y & G & K). injection K as <-. destruct (IHt x A) as [P C], (IHf y G) as [P' C']. split.
    + intros conds e K. inversion K; subst; [apply K_else_yes | apply K_else_no]; auto.
    + intros n X. inversion X; subst; [destruct (C n) | destruct (C' n)]; auto; left; [now apply C_yes | now apply C_no].
  - injection A as <-. split.
    + intros conds e K. inversion K; subst; cbn [after].
      * now apply K_end.
      * replace (after l (after m e0)) with (after (l ++ m) e0) by (destruct e0; cbn; auto; now rewrite app_assoc). now apply K_yes.
      * replace (after l (after m e0)) with (after (l ++ m) e0) by (destruct e0; cbn; auto; now rewrite app_assoc). now apply K_no.
    + intros n X. apply blk_calls in X as [(s & I & S)|(e & -> & S)]; [|left; now apply C_result]. apply in_app_or in I as [I|I]; [eauto|]. left. eapply calls_blk; eauto.
Qed.

(** One branch of [expand] *)
Definition branch_unit (u : unit_) (b : expr) (n : nat) (seg : segment) : unit_ := with_name (with_body (with_inline u) b) n (path u ++ [seg]).
Definition body_step (fuel : nat) (u : unit_) (statements : list stmt) (new_body : expr) (seg : segment) (s : ctx) : option (res (nat * ctx)) :=
  match absorb_statements new_body statements with
  | Bug => Some Bug
  | Refused => Some Refused
  | Ok absorbed =>
      match (match absorbed with EIf _ _ _ => Ok (EBlk [] (Some absorbed)) | EBlk _ _ | EErr => Ok absorbed | _ => Bug end) with
      | Ok b =>
          match expand fuel (branch_unit u b (next s) seg) {| next := S (next s); items := items s |} with
          | Some (Ok (v, s')) => Some (Ok (next s, {| next := next s'; items := v :: items s' |}))
          | Some Bug => Some Bug
          | Some Refused => Some Refused
          | None => None
          end
      | Bug => Some Bug
      | Refused => Some Refused
      end
  end.
Definition hands_on (u : unit_) (c nt nf result : nat) : unit_ :=
  with_inline (with_body u (EBlk (SLet result (EIf c (call_expanded u nt) (call_expanded u nf)) :: waits (ukind_ u)) (Some (EVar result)))).
Lemma expand_eq fuel u s : expand (S fuel) u s =
  match body u with
  | EBlk statements (Some (EIf c t f)) =>
      match body_step fuel u statements t IfT s with
      | Some (Ok (nt, s)) =>
          match body_step fuel u statements f IfT s with
          | Some (Ok (nf, s)) => expand fuel (hands_on u c nt nf (next s)) {| next := S (next s); items := items s |}
          | Some Bug => Some Bug
          | Some Refused => Some Refused
          | None => None
          end
      | Some Bug => Some Bug
      | Some Refused => Some Refused
      | None => None
      end
  | EBlk _ _ => Some (Ok (u, s))
  | _ => Some (Ok (with_body u EErr, s))
  end.
Proof. reflexivity. Qed.

Definition same_head (u v : unit_) : Prop := ukind_ v = ukind_ u /\ type_params v = type_params u /\ inputs v = inputs u.
Definition a_block (u : unit_) : Prop := (exists l r, body u = EBlk l r) \/ body u = EErr.
Definition right_runs (u u' : unit_) (gen : list unit_) : Prop :=
  forall G conds e n0, incl gen G -> (forall v, In v G -> n0 <= id v) -> (forall n, calls n (body u) -> n < n0) -> picks conds (body u) e -> runs G conds u' (lower conds true e).
Definition fine (u : unit_) (s : ctx) (u' : unit_) (s' : ctx) : Prop :=
  next s <= next s' /\ id u' = id u /\ path u' = path u /\ same_head u u' /\ inline u <= inline u' /\
  exists gen, items s' = gen ++ items s /\ Forall (fun v => next s <= id v < next s' /\ same_head u v /\ inline u < inline v) gen /\ NoDup (map id gen) /\ right_runs u u' gen.

Lemma own_runs u G conds n0 e : (forall v, In v G -> n0 <= id v) -> (forall n, calls n e -> n < n0) -> body u = e -> runs G conds u (lower conds true e).
Proof.
  intros HG HC <-. apply R_own; auto. intros e E (x & k & n & args & tf & l & r & v & -> & I & <-). specialize (HG v I).
  assert (C : calls (id v) (body u)).
  { eapply lower_calls; [exact E|]. eapply C_bound; [left; reflexivity|]. constructor. }
  specialize (HC _ C). lia.
Qed.
Lemma lower_vars conds l : lower_all conds (map EVar l) = Ok (map EVar l).
Proof. induction l as [|x l IH]; auto. cbn [map lower_all]. rewrite IH. reflexivity. Qed.
Lemma lower_waits conds k : lower_stmts conds true (waits k) = Ok (waits k).
Proof. destruct k; reflexivity. Qed.
Lemma lower_hands conds u c nt nf x : lower conds true (body (hands_on u c nt nf x)) =
  Ok (EBlk (SLet x (call_expanded u (if conds c then nt else nf)) :: waits (ukind_ u)) (Some (EVar x))).
Proof.
  cbn [hands_on with_inline with_body body]. rewrite lower_blk, stmts_cons, lower_slet, lower_if. unfold call_expanded. rewrite !lower_call, lower_vars. cbn [bind].
  rewrite lower_waits. cbn [bind]. destruct (conds c); reflexivity.
Qed.
Lemma hands_runs G (conds : nat -> bool) u c nt nf x v r : In v G -> id v = (if conds c then nt else nf) -> same_head u v -> runs G conds v r -> runs G conds (hands_on u c nt nf x) r.
Proof.
  intros I E (K & T & J) R. eapply R_on with (v := v) (x := x); [|exact I|exact K|exact J|exact T| |exact R].
  - rewrite lower_hands, <- E. unfold call_expanded. rewrite J. reflexivity.
  - rewrite T. destruct (type_params u); reflexivity.
Qed.

Lemma step_fine fuel u l t c f other seg s n s' : (forall u s u' s', a_block u -> expand fuel u s = Some (Ok (u', s')) -> fine u s u' s') ->
  body u = EBlk l (Some (EIf c t f)) -> (other = t \/ other = f) -> body_step fuel u l other seg s = Some (Ok (n, s')) ->
  next s < next s' /\ n = next s /\ exists v gen, id v = n /\ items s' = v :: gen ++ items s /\ same_head u v /\ inline u < inline v /\
    Forall (fun v => next s < id v < next s' /\ same_head u v /\ inline u < inline v) gen /\ NoDup (map id (v :: gen)) /\
    forall G conds e n0, incl (v :: gen) G -> (forall v, In v G -> n0 <= id v) -> (forall n, calls n (body u) -> n < n0) -> picks conds other e -> runs G conds v (lower conds true (after l e)).
Proof.
  intros IH B O H. unfold body_step in H. destruct (absorb_statements other l) as [t'| |] eqn:A; try discriminate. apply absorb_inv in A as [P C].
  destruct (match t' with EIf _ _ _ => Ok (EBlk [] (Some t')) | EBlk _ _ | EErr => Ok t' | _ => Bug end) as [b| |] eqn:EB; try discriminate.
  destruct (expand fuel (branch_unit u b (next s) seg) {| next := S (next s); items := items s |}) as [[[v s1]| |]|] eqn:X; try discriminate.
  injection H as <- <-. cbn [next items]. apply IH in X.
  2:{ unfold a_block. cbn. destruct t'; try discriminate; injection EB as <-; eauto. }
  destruct X as (X1 & X2 & X3 & (K & T & J) & X5 & gen & X6 & X7 & X8 & X9). cbn in *.
  assert (PB : forall conds e, picks conds other e -> picks conds b (after l e)).
  { intros conds e Y. specialize (P conds e Y). destruct t'; try discriminate; injection EB as <-; auto.
    inversion P as [| | | |? ? ? e' Z W|? ? ? e' Z W]; subst.
    - replace (after l e) with (after [] (after l e)) by (destruct (after l e); reflexivity). now apply K_yes.
    - replace (after l e) with (after [] (after l e)) by (destruct (after l e); reflexivity). now apply K_no. }
  assert (CB : forall n, calls n b -> calls n (body u)).
  { intros n Y. assert (Z : calls n t').
    { destruct t'; try discriminate; injection EB as <-; auto. apply blk_calls in Y as [(? & [] & _)|(e & E & Y)]. injection E as <-. exact Y. }
    rewrite B. destruct (C n Z) as [W|(st & I & W)]; [|eapply calls_blk; eauto]. apply C_result. destruct O as [->| ->]; [now apply C_yes | now apply C_no]. }
  split; [lia|]. split; [reflexivity|]. exists v, gen. split; [exact X2|]. split; [now rewrite X6|]. split; [now repeat split|]. split; [lia|]. split; [|split].
  - eapply Forall_impl; [|exact X7]. cbv beta. intros w (W1 & (W2 & W3 & W4) & W5). split; [lia|]. split; [now repeat split|lia].
  - cbn. constructor; [|exact X8]. intros I. apply in_map_iff in I as (w & W & I). rewrite Forall_forall in X7. destruct (X7 w I) as (Y & _). lia.
  - intros G conds e n0 G1 G2 G3 Y. apply X9 with (n0 := n0).
    + intros w W. apply G1. cbn. auto.
    + exact G2.
    + auto.
    + auto.
Qed.

Lemma expand_fine : forall fuel u s u' s', a_block u -> expand fuel u s = Some (Ok (u', s')) -> fine u s u' s'.
Proof.
  induction fuel as [|fuel IH]; intros u s u' s' AB H; [discriminate|]. rewrite expand_eq in H.
  assert (OWN : forall l r, body u = EBlk l r -> (forall c t f, r <> Some (EIf c t f)) -> (u, s) = (u', s') -> fine u s u' s').
  { intros l r E NI X. injection X as <- <-. repeat split; auto. exists []. split; [reflexivity|]. split; [constructor|]. split; [constructor|].
    intros G conds e n0 _ G2 G3 Y. rewrite E in *. inversion Y; subst; try (exfalso; eapply NI; reflexivity). eapply own_runs; eauto. }
  destruct AB as [(l & r & E)|E]; rewrite E in H.
  2:{ injection H as <- <-. repeat split; auto. exists []. split; [reflexivity|]. split; [constructor|]. split; [constructor|].
      intros G conds e n0 _ G2 G3 Y. rewrite E in *. inversion Y; subst. eapply own_runs; eauto. }
  destruct r as [r|]; [|apply (OWN l None E); [discriminate|congruence]].
  destruct r as [|c t f| | | |]; try (eapply OWN; [exact E|discriminate|congruence]). clear OWN.
  destruct (body_step fuel u l t IfT s) as [[[nt s1]| |]|] eqn:S1; try discriminate.
  destruct (body_step fuel u l f IfT s1) as [[[nf s2]| |]|] eqn:S2; try discriminate.
  destruct fuel as [|fuel']; [discriminate|]. rewrite expand_eq in H. cbn [hands_on with_inline with_body body] in H. injection H as <- <-.
  eapply step_fine in S1; eauto. destruct S1 as (A1 & -> & v & gen & A3 & A4 & A5 & A6 & A7 & A8 & A9).
  eapply step_fine in S2; eauto. destruct S2 as (B1 & -> & w & hen & B3 & B4 & B5 & B6 & B7 & B8 & B9).
  change (fine u s (hands_on u c (next s) (next s1) (next s2)) {| next := S (next s2); items := items s2 |}).
  unfold fine. cbn [next items]. split; [lia|]. do 2 (split; [reflexivity|]). split; [now repeat split|]. split; [cbn; lia|].
  exists ((w :: hen) ++ (v :: gen)). split; [rewrite B4, A4; cbn; now rewrite <- app_assoc|]. split; [|split].
  - apply Forall_app. split; constructor.
    + split; [lia|auto].
    + eapply Forall_impl; [|exact B7]. cbv beta. intros x (X & Y). split; [lia|auto].
    + split; [lia|auto].
    + eapply Forall_impl; [|exact A7]. cbv beta. intros x (X & Y). split; [lia|auto].
  - rewrite map_app. clear - A1 B1 A3 B3 A7 B7 A8 B8.
    assert (HV : forall n, In n (map id (v :: gen)) -> n < next s1).
    { intros n [<-|I]; [lia|]. apply in_map_iff in I as (x & <- & I). rewrite Forall_forall in A7. apply A7 in I. lia. }
    assert (HW : forall n, In n (map id (w :: hen)) -> next s1 <= n).
    { intros n [<-|I]; [lia|]. apply in_map_iff in I as (x & <- & I). rewrite Forall_forall in B7. apply B7 in I. lia. }
    revert HW B8. generalize (map id (w :: hen)) as p. intros p HW NP. induction p as [|a p IHp]; [exact A8|]. inversion NP; subst. cbn. constructor.
    + intros I. apply in_app_or in I as [I|I]; [auto|]. specialize (HV _ I). specialize (HW a (or_introl eq_refl)). lia.
    + apply IHp; auto. intros n I. apply HW. cbn. auto.
  - intros G conds e n0 G1 G2 G3 Y. rewrite E in Y. inversion Y as [|? ? NI|? ? ? ? e0 EC Z|? ? ? ? e0 EC Z| |]; subst.
    + exfalso. eapply NI; reflexivity.
    + eapply hands_runs with (v := v); [apply G1; apply in_or_app; cbn; auto|now rewrite EC|exact A5|].
      eapply A9; eauto. intros x X. apply G1. apply in_or_app. auto.
    + eapply hands_runs with (v := w); [apply G1; apply in_or_app; cbn; auto|now rewrite EC|exact B5|].
      eapply B9; eauto. intros x X. apply G1. apply in_or_app. auto.
Qed.

(** The end of the expansion *)
Lemma step_total fuel u l t seg s : (forall u s, branch (body u) -> a_block u -> nest (body u) < fuel -> exists u' s', expand fuel u s = Some (Ok (u', s'))) ->
  branch t -> nest t < fuel -> exists n s', body_step fuel u l t seg s = Some (Ok (n, s')).
Proof.
  intros IH B N. unfold body_step. destruct (absorb_total l t B) as (t' & A & B' & N' & _ & _ & Sh). rewrite A.
  assert (Z : exists b, match t' with EIf _ _ _ => Ok (EBlk [] (Some t')) | EBlk _ _ | EErr => Ok t' | _ => Bug end = Ok b /\ branch b /\ nest b < fuel /\ ((exists l r, b = EBlk l r) \/ b = EErr)).
  { destruct t'; try destruct Sh.
    - exists EErr. split; auto. split; auto. split; [lia|auto].
    - eexists. split; [reflexivity|]. inversion B'; subst. split; [constructor; now constructor|]. split; [cbn in *; lia|eauto].
    - eexists. split; [reflexivity|]. split; [auto|]. split; [lia|eauto]. }
  destruct Z as (b & -> & Bb & Nb & Ab). destruct (IH (branch_unit u b (next s) seg) {| next := S (next s); items := items s |}) as (v & s1 & X); auto.
  rewrite X. eauto.
Qed.
Lemma expand_total : forall fuel u s, branch (body u) -> a_block u -> nest (body u) < fuel -> exists u' s', expand fuel u s = Some (Ok (u', s')).
Proof.
  induction fuel as [|fuel IH]; intros u s B AB N; [lia|]. rewrite expand_eq. destruct AB as [(l & r & E)|E]; rewrite E in *; [|eauto].
  destruct r as [r|]; [|eauto]. destruct r as [|c t f| | | |]; eauto. inversion B as [| |? ? X]; subst. inversion X as [|? ? ? Bt Bf|? Y]; subst; [|exfalso; eapply Y; reflexivity].
  cbn [nest] in N. destruct (step_total fuel u l t IfT s IH Bt) as (nt & s1 & ->); [lia|]. destruct (step_total fuel u l f IfT s1 IH Bf) as (nf & s2 & ->); [lia|].
  destruct fuel as [|fuel]; [lia|]. rewrite expand_eq. cbn. eauto.
Qed.

(** [picks] is a function *)
Lemma picks_det conds b e : picks conds b e -> forall e', picks conds b e' -> e = e'.
Proof.
  induction 1 as [|l r N|l c t f e C P IH|l c t f e C P IH|c t f e C P IH|c t f e C P IH]; intros e' Q; inversion Q; subst; auto; try congruence;
    try (exfalso; eapply N; reflexivity); f_equal; auto.
Qed.
Lemma picks_total conds : forall b, branch b -> exists e, picks conds b e.
Proof.
  enough (H : (forall b, branch b -> exists e, picks conds b e) /\ (forall r, ends r -> forall l, exists e, picks conds (EBlk l r) e)) by apply H.
  apply branch_both.
  - eexists. constructor.
  - intros c t f _ (e & E) _ (e' & E'). destruct (conds c) eqn:C; eexists; [apply K_else_yes | apply K_else_no]; eauto.
  - intros l r _ H. apply H.
  - intros l. eexists. apply K_end. discriminate.
  - intros c t f _ (e & E) _ (e' & E') l. destruct (conds c) eqn:C; eexists; [apply K_yes | apply K_no]; eauto.
  - intros e N l. eexists. apply K_end. intros c t f X. injection X as ->. eapply N; reflexivity.
Qed.
Lemma runs_det gen conds : NoDup (map id gen) -> forall u r, runs gen conds u r -> forall r', runs gen conds u r' -> r = r'.
Proof.
  intros ND. assert (U : forall v w, In v gen -> In w gen -> id v = id w -> v = w).
  { clear - ND. induction gen as [|a g IH]; intros v w I J E; [destruct I|]. inversion ND as [|? ? NI ND']; subst.
    destruct I as [<-|I], J as [<-|J]; auto; exfalso; apply NI; [rewrite E | rewrite <- E]; now apply in_map. }
  induction 1 as [u r L N|u v x tf r L I K J T F R IH]; intros r' Q; inversion Q as [? ? L' N'|? v' x' tf' ? L' I' K' J' T' F' R']; subst; auto.
  - exfalso. eapply N; [exact L'|]. do 8 eexists. split; [reflexivity|]. split; [exact I'|reflexivity].
  - exfalso. eapply N'; [exact L|]. do 8 eexists. split; [reflexivity|]. split; [exact I|reflexivity].
  - apply IH. rewrite L in L'. injection L' as _ E _ _. rewrite (U v v' I I' E). exact R'.
Qed.

(** Deciding which calls there are, for examples *)
Fixpoint small (b : nat) (e : expr) : bool :=
  let all := fix go (l : list expr) : bool := match l with [] => true | x :: l => small b x && go l end in
  match e with
  | EErr | EVar _ => true
  | EIf _ t f => small b t && small b f
  | ECall _ n l _ => (n <? b) && all l
  | EOther _ l => all l
  | EBlk l r => (fix go (l : list stmt) : bool := match l with [] => true | x :: l => small_stmt b x && go l end) l && match r with Some e => small b e | None => true end
  end
with small_stmt (b : nat) (s : stmt) : bool :=
  let all := fix go (l : list expr) : bool := match l with [] => true | x :: l => small b x && go l end in
  match s with SLet _ e => small b e | SReg _ => true | SOther _ l => all l end.
Lemma small_all b l e : (fix go (l : list expr) : bool := match l with [] => true | x :: l => small b x && go l end) l = true -> In e l -> small b e = true.
Proof. induction l as [|x l IH]; cbn; intros H I; [destruct I|]. apply andb_prop in H as [H1 H2]. destruct I as [->|I]; auto. Qed.
Lemma small_stmts b l s : (fix go (l : list stmt) : bool := match l with [] => true | x :: l => small_stmt b x && go l end) l = true -> In s l -> small_stmt b s = true.
Proof. induction l as [|x l IH]; cbn; intros H I; [destruct I|]. apply andb_prop in H as [H1 H2]. destruct I as [->|I]; auto. Qed.
Lemma small_calls b n e : calls n e -> small b e = true -> n < b.
Proof.
  induction 1 as [k args tf|k m args tf e I C IH|k l e I C IH|c t f C IH|c t f C IH|l r x e I C IH|l r k es e I J C IH|l e C IH]; cbn [small]; intros H.
  - apply andb_prop in H as [H _]. now apply Nat.ltb_lt.
  - apply andb_prop in H as [_ H]. eapply IH, small_all; eauto.
  - eapply IH, small_all; eauto.
  - apply andb_prop in H as [H _]. auto.
  - apply andb_prop in H as [_ H]. auto.
  - apply andb_prop in H as [H _]. apply (small_stmts b l (SLet x e) H) in I. auto.
  - apply andb_prop in H as [H _]. apply (small_stmts b l (SOther k es) H) in I. eapply IH, small_all; eauto.
  - apply andb_prop in H as [_ H]. auto.
Qed.
