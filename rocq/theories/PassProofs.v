(** Proofs about PassModel. *)
From Coq Require Import List ZArith Bool Lia Arith.
Import ListNotations.
From Verif Require Import PassModel PassSpec.

(** ** Induction over expressions *)
Definition osize (f : expr -> nat) (o : option expr) : nat := match o with Some a => f a | None => 0 end.
Fixpoint esize (e : expr) : nat :=
  let all := fix go (l : list expr) : nat := match l with [] => 0 | a :: l => esize a + go l end in
  match e with
  | Ex _ k => S (match k with
      | KLeaf _ => 0
      | KNode _ l => all l
      | KBin _ a b => esize a + esize b
      | KUn _ a => esize a
      | KMatch c l => esize c + (fix go (l : list branch) : nat := match l with [] => 0
          | Br _ g v :: l => match g with Some a => esize a | None => 0 end + esize v + go l end) l
      | KBlock l r => (fix go (l : list stmt) : nat := match l with [] => 0 | s :: l => ssize s + go l end) l + match r with Some a => esize a | None => 0 end
      | KIf c t f => esize c + esize t + esize f
      | KTlIf t f => esize t + esize f
      end)
  end
with ssize (s : stmt) : nat :=
  match s with
  | SBind _ v | SExpr v | SAssert v => esize v
  | SSet t v => esize t + esize v
  | SReg _ c r i v => esize c + match r with Some (t, w) => esize t + esize w | None => 0 end + match i with Some a => esize a | None => 0 end + esize v
  | SMark (Some (Condition e)) => esize e
  | _ => 0
  end.
Lemma in_stmt_size : forall s a, in_stmt s a -> esize a <= ssize s.
Proof. intros s a H. inversion H; subst; cbn [ssize]; lia. Qed.
Lemma operand_size : forall e a, operand e a -> esize a < esize e.
Proof.
  intros e a H; inversion H; subst; cbn [esize]; apply le_n_S; try lia.
  - clear H. induction l as [|b l IH]; [destruct H0|]. destruct H0 as [->|H0]; [lia|]. specialize (IH H0). lia.
  - enough (esize a <= (fix go (l0 : list branch) : nat := match l0 with [] => 0
      | Br _ g0 v0 :: l1 => match g0 with Some a0 => esize a0 | None => 0 end + esize v0 + go l1 end) l) by lia.
    clear H. induction l as [|[q' g' v'] l IH]; [destruct H0|]. destruct H0 as [E|H0]; [injection E as -> -> ->; lia|]. specialize (IH H0). lia.
  - enough (esize a <= (fix go (l0 : list branch) : nat := match l0 with [] => 0
      | Br _ g0 v0 :: l1 => match g0 with Some a0 => esize a0 | None => 0 end + esize v0 + go l1 end) l) by lia.
    clear H. induction l as [|[q' g' v'] l IH]; [destruct H0|]. destruct H0 as [E|H0]; [injection E as -> -> ->; lia|]. specialize (IH H0). lia.
  - apply in_stmt_size in H1.
    enough (esize a <= (fix go (l0 : list stmt) : nat := match l0 with [] => 0 | s :: l1 => ssize s + go l1 end) l) by lia.
    clear H. induction l as [|s' l IH]; [destruct H0|]. destruct H0 as [->|H0]; [lia|]. specialize (IH H0). lia.
Qed.
Lemma expr_wf : forall P : expr -> Prop, (forall e, (forall a, operand e a -> P a) -> P e) -> forall e, P e.
Proof.
  intros P H. enough (G : forall n e, esize e < n -> P e) by (intro e; apply (G (S (esize e)) e); lia).
  induction n; intros e He; [lia|]. apply H. intros a Ha. apply IHn. apply operand_size in Ha. lia.
Qed.
Lemma inside_trans : forall a b c, inside a b -> inside b c -> inside a c.
Proof. induction 1; eauto using in_step. Qed.

Lemma bind_ok : forall {A B} (r : res A) (f : A -> res B) y, bind r f = Ok y -> exists a, r = Ok a /\ f a = Ok y.
Proof. intros A B [a|x] f y H; [eauto|discriminate]. Qed.
Lemma bind_err : forall {A B} (r : res A) (f : A -> res B) y, bind r f = Err y -> r = Err y \/ exists a, r = Ok a /\ f a = Err y.
Proof. intros A B [a|x] f y H; cbn in H; [eauto|injection H as ->; eauto]. Qed.

(** The parts of [apply], named *)
Section Named.
Variable p : pass.
Definition apply_all := fix go (l : list expr) : res (list expr) :=
  match l with [] => Ok [] | a :: l => bind (apply p a) (fun a => bind (go l) (fun l => Ok (a :: l))) end.
Definition apply_opt (o : option expr) : res (option expr) :=
  match o with Some a => bind (apply p a) (fun a => Ok (Some a)) | None => Ok None end.
Definition apply_branches := fix go (l : list branch) : res (list branch) :=
  match l with
  | [] => Ok []
  | Br q g v :: l => bind (apply_opt g) (fun g => bind (apply p v) (fun v => bind (go l) (fun l => Ok (Br q g v :: l))))
  end.
Definition apply_stmts := fix go (l : list stmt) (new : list (option (list stmt))) : res (list stmt) :=
  match l, new with
  | s :: l, None :: new => bind (apply_stmt p s) (fun s => bind (go l new) (fun l => Ok (s :: l)))
  | _ :: l, Some n :: new => bind (go l new) (fun l => Ok (n ++ l))
  | _, _ => Ok []
  end.
Definition apply_kind (k : kind) : res kind :=
  match k with
  | KLeaf n => Ok (KLeaf n)
  | KNode n l => bind (apply_all l) (fun l => Ok (KNode n l))
  | KBin op a b => bind (apply p a) (fun a => bind (apply p b) (fun b => Ok (KBin op a b)))
  | KUn op a => bind (apply p a) (fun a => Ok (KUn op a))
  | KMatch c l => bind (apply p c) (fun c => bind (apply_branches l) (fun l => Ok (KMatch c l)))
  | KBlock l r =>
      bind (visit_all (visit_statement p) l) (fun new => bind (apply_stmts l new) (fun l => bind (apply_opt r) (fun r => Ok (KBlock l r))))
  | KIf c t f => bind (apply p c) (fun c => bind (apply p t) (fun t => bind (apply p f) (fun f => Ok (KIf c t f))))
  | KTlIf t f => bind (apply p t) (fun t => bind (apply p f) (fun f => Ok (KTlIf t f)))
  end.
Lemma apply_eq : forall i k, apply p (Ex i k) = bind (apply_kind k) (fun k => bind (visit_expression p (Ex i k)) (fun _ => Ok (Ex i k))).
Proof. intros i k. destruct k; reflexivity. Qed.
Definition apply_reset (r : option (expr * expr)) : res (option (expr * expr)) :=
  match r with Some (t, w) => bind (apply p t) (fun t => bind (apply p w) (fun w => Ok (Some (t, w)))) | None => Ok None end.
Definition apply_one (s : stmt) : res stmt :=
  match s with
  | SError => Ok SError
  | SDecl l => Ok (SDecl l)
  | SLabel n => Ok (SLabel n)
  | SBind q v => bind (apply p v) (fun v => Ok (SBind q v))
  | SExpr e => bind (apply p e) (fun e => Ok (SExpr e))
  | SAssert e => bind (apply p e) (fun e => Ok (SAssert e))
  | SSet t v => bind (apply p t) (fun t => bind (apply p v) (fun v => Ok (SSet t v)))
  | SReg q c r i v =>
      bind (apply_reset r) (fun r => bind (apply_opt i) (fun i =>
      bind (apply p c) (fun c => bind (apply p v) (fun v => Ok (SReg q c r i v)))))
  | SMark (Some (Condition e)) => bind (apply p e) (fun e => Ok (SMark (Some (Condition e))))
  | SMark (Some (Count c)) => Ok (SMark (Some (Count c)))
  | SMark None => Ok (SMark None)
  end.
Lemma apply_one_eq : forall s, apply_stmt p s = apply_one s.
Proof. intros s. destruct s as [| | | | | | | |[[]|]]; reflexivity. Qed.
End Named.

(** ** Passes that only check *)
Section Check.
Variable p : pass.
Hypothesis keeps : forall s, visit_statement p s = Ok None.
(** [None]: nothing wrong *)
Definition fine (e : expr) : Prop := forall a, inside e a -> visit_expression p a = Ok tt.
Definition good_for {A} (r : res A) (a : A) (bad : error -> Prop) (ok : Prop) : Prop :=
  match r with Ok b => b = a /\ ok | Err x => bad x end.
Definition checked (e : expr) : Prop :=
  good_for (apply p e) e (fun x => exists a, inside e a /\ visit_expression p a = Err x) (fine e).
Definition wrong (part : expr -> Prop) (x : error) : Prop := exists a b, part a /\ inside a b /\ visit_expression p b = Err x.
Definition right_ (part : expr -> Prop) : Prop := forall a, part a -> fine a.

Lemma checked_step : forall a (part : expr -> Prop), part a -> checked a ->
  match apply p a with Ok b => b = a /\ fine a | Err x => wrong part x end.
Proof.
  intros a part Ha H. unfold checked, good_for in H. destruct (apply p a); [exact H|].
  destruct H as [b [Hb E]]. exists a, b. auto.
Qed.
Lemma all_checked : forall l, (forall a, In a l -> checked a) ->
  good_for (apply_all p l) l (wrong (fun a => In a l)) (right_ (fun a => In a l)).
Proof.
  induction l as [|a l IH]; intros H; cbn [apply_all]; [split; [reflexivity|intros b []]|].
  pose proof (checked_step a (fun x => In x (a :: l)) (or_introl eq_refl) (H a (or_introl eq_refl))) as Ha.
  destruct (apply p a) as [a'|x]; cbn [bind]; [|exact Ha]. destruct Ha as [-> Ha].
  specialize (IH (fun b Hb => H b (or_intror Hb))). fold (apply_all p). destruct (apply_all p l) as [l'|x]; cbn [bind good_for] in *.
  - destruct IH as [-> IH]. split; [reflexivity|]. intros b [<-|Hb]; [exact Ha|apply IH, Hb].
  - destruct IH as [b [c [Hb IH]]]. exists b, c. split; [right; exact Hb|exact IH].
Qed.
Lemma opt_checked : forall o, (forall a, o = Some a -> checked a) ->
  good_for (apply_opt p o) o (wrong (fun a => o = Some a)) (right_ (fun a => o = Some a)).
Proof.
  intros [a|] H; cbn [apply_opt good_for]; [|split; [reflexivity|intros b Hb; discriminate]].
  pose proof (checked_step a (fun x => Some a = Some x) eq_refl (H a eq_refl)) as Ha.
  destruct (apply p a) as [a'|x]; cbn [bind good_for]; [|exact Ha]. destruct Ha as [-> Ha].
  split; [reflexivity|]. intros b Hb. injection Hb as <-. exact Ha.
Qed.
Definition branch_part (l : list branch) (a : expr) : Prop := exists q g v, In (Br q g v) l /\ (g = Some a \/ v = a).
Lemma branches_checked : forall l, (forall a, branch_part l a -> checked a) ->
  good_for (apply_branches p l) l (wrong (branch_part l)) (right_ (branch_part l)).
Proof.
  induction l as [|[q g v] l IH]; intros H; cbn [apply_branches]; [split; [reflexivity|intros b (?&?&?&[]&_)]|].
  assert (Pg : forall a, g = Some a -> branch_part (Br q g v :: l) a) by (intros a E; exists q, g, v; split; [left; reflexivity|left; exact E]).
  assert (Pv : branch_part (Br q g v :: l) v) by (exists q, g, v; split; [left; reflexivity|right; reflexivity]).
  pose proof (opt_checked g (fun a E => H a (Pg a E))) as Hg.
  destruct (apply_opt p g) as [g'|x]; cbn [bind good_for] in *.
  2: { destruct Hg as [a [b [Ha Hb]]]. exists a, b. split; [apply Pg, Ha|exact Hb]. }
  destruct Hg as [-> Hg]. pose proof (checked_step v _ Pv (H v Pv)) as Hv.
  destruct (apply p v) as [v'|x]; cbn [bind]; [|exact Hv]. destruct Hv as [-> Hv].
  assert (Pl : forall a, branch_part l a -> branch_part (Br q g v :: l) a) by (intros a (q'&g'&v'&I&E); exists q', g', v'; split; [right; exact I|exact E]).
  specialize (IH (fun a Ha => H a (Pl a Ha))). fold (apply_branches p). destruct (apply_branches p l) as [l'|x]; cbn [bind good_for] in *.
  - destruct IH as [-> IH]. split; [reflexivity|]. intros a (q'&g'&v'&[I|I]&E).
    + injection I as <- <- <-. destruct E as [E| <-]; [apply Hg, E|exact Hv].
    + apply IH. exists q', g', v'. auto.
  - destruct IH as [a [b [Ha Hb]]]. exists a, b. split; [apply Pl, Ha|exact Hb].
Qed.
Lemma stmt_checked : forall s, (forall a, in_stmt s a -> checked a) ->
  good_for (apply_stmt p s) s (wrong (in_stmt s)) (right_ (in_stmt s)).
Proof.
  intros s H.
  rewrite apply_one_eq. destruct s as [|l|n|q v|e|e|t v|q c r i v|[[c|e]|]]; cbn [apply_one];
    try solve [split; [reflexivity|intros b Hb; inversion Hb]].
  - pose proof (checked_step v _ (is_bind q v) (H v (is_bind q v))) as Ha.
    destruct (apply p v); cbn [bind good_for]; [|exact Ha]. destruct Ha as [-> Ha]. split; [reflexivity|]. intros b Hb; inversion Hb; subst; exact Ha.
  - pose proof (checked_step e _ (is_expr e) (H e (is_expr e))) as Ha.
    destruct (apply p e); cbn [bind good_for]; [|exact Ha]. destruct Ha as [-> Ha]. split; [reflexivity|]. intros b Hb; inversion Hb; subst; exact Ha.
  - pose proof (checked_step e _ (is_assert e) (H e (is_assert e))) as Ha.
    destruct (apply p e); cbn [bind good_for]; [|exact Ha]. destruct Ha as [-> Ha]. split; [reflexivity|]. intros b Hb; inversion Hb; subst; exact Ha.
  - pose proof (checked_step t _ (is_target t v) (H t (is_target t v))) as Ht.
    destruct (apply p t); cbn [bind good_for]; [|exact Ht]. destruct Ht as [-> Ht].
    pose proof (checked_step v _ (is_value t v) (H v (is_value t v))) as Hv.
    destruct (apply p v); cbn [bind good_for]; [|exact Hv]. destruct Hv as [-> Hv].
    split; [reflexivity|]. intros b Hb; inversion Hb; subst; assumption.
  - assert (Hr : match apply_reset p r with
                 | Ok r' => r' = r /\ (forall t w, r = Some (t, w) -> fine t /\ fine w) | Err x => wrong (in_stmt (SReg q c r i v)) x end).
    { destruct r as [[t w]|]; cbn [apply_reset]; [|split; [reflexivity|discriminate]].
      pose proof (checked_step t _ (is_trigger q c t w i v) (H t (is_trigger q c t w i v))) as Ht.
      destruct (apply p t); cbn [bind]; [|exact Ht]. destruct Ht as [-> Ht].
      pose proof (checked_step w _ (is_reset q c t w i v) (H w (is_reset q c t w i v))) as Hw.
      destruct (apply p w); cbn [bind]; [|exact Hw]. destruct Hw as [-> Hw].
      split; [reflexivity|]. intros t' w' E. injection E as <- <-. auto. }
    destruct (apply_reset p r) as [r'|x]; cbn [bind good_for]; [|exact Hr].
    destruct Hr as [-> Hr].
    assert (Hi : match apply_opt p i with Ok i' => i' = i /\ (forall a, i = Some a -> fine a) | Err x => wrong (in_stmt (SReg q c r i v)) x end).
    { assert (Pi : forall a, i = Some a -> in_stmt (SReg q c r i v) a) by (intros a ->; constructor).
      pose proof (opt_checked i (fun a E => H a (Pi a E))) as G. destruct (apply_opt p i); cbn [good_for] in G; [exact G|].
      destruct G as (a & b & Ha & Hb). exists a, b. split; [apply Pi, Ha|exact Hb]. }
    destruct (apply_opt p i) as [i'|x]; cbn [bind good_for]; [|exact Hi]. destruct Hi as [-> Hi].
    pose proof (checked_step c _ (is_clock q c r i v) (H c (is_clock q c r i v))) as Hc.
    destruct (apply p c); cbn [bind good_for]; [|exact Hc]. destruct Hc as [-> Hc].
    pose proof (checked_step v _ (is_next q c r i v) (H v (is_next q c r i v))) as Hv.
    destruct (apply p v); cbn [bind good_for]; [|exact Hv]. destruct Hv as [-> Hv].
    split; [reflexivity|]. intros b Hb; inversion Hb; subst; try assumption.
    + apply (Hr b w eq_refl).
    + apply (Hr t b eq_refl).
    + apply (Hi b eq_refl).
  - pose proof (checked_step e _ (is_condition e) (H e (is_condition e))) as Ha.
    destruct (apply p e); cbn [bind good_for]; [|exact Ha]. destruct Ha as [-> Ha]. split; [reflexivity|]. intros b Hb; inversion Hb; subst; exact Ha.
Qed.
Definition stmts_part (l : list stmt) (a : expr) : Prop := exists s, In s l /\ in_stmt s a.
Lemma visit_all_none : forall l, visit_all (visit_statement p) l = Ok (map (fun _ => None) l).
Proof. induction l as [|s l IH]; cbn; [reflexivity|]. rewrite keeps, IH. reflexivity. Qed.
Lemma stmts_checked : forall l, (forall a, stmts_part l a -> checked a) ->
  good_for (apply_stmts p l (map (fun _ => None) l)) l (wrong (stmts_part l)) (right_ (stmts_part l)).
Proof.
  induction l as [|s l IH]; intros H; cbn [apply_stmts map]; [split; [reflexivity|intros b (?&[]&_)]|].
  assert (Ps : forall a, in_stmt s a -> stmts_part (s :: l) a) by (intros a E; exists s; split; [left; reflexivity|exact E]).
  pose proof (stmt_checked s (fun a E => H a (Ps a E))) as Hs.
  destruct (apply_stmt p s) as [s'|x]; cbn [bind good_for] in *.
  2: { destruct Hs as (a & b & Ha & Hb). exists a, b. split; [apply Ps, Ha|exact Hb]. }
  destruct Hs as [-> Hs].
  assert (Pl : forall a, stmts_part l a -> stmts_part (s :: l) a) by (intros a (s'&I&E); exists s'; split; [right; exact I|exact E]).
  specialize (IH (fun a Ha => H a (Pl a Ha))). fold (apply_stmts p). destruct (apply_stmts p l _) as [l'|x]; cbn [bind good_for] in *.
  - destruct IH as [-> IH]. split; [reflexivity|]. intros a (s'&[I|I]&E); [subst; apply Hs, E|apply IH; exists s'; auto].
  - destruct IH as (a & b & Ha & Hb). exists a, b. split; [apply Pl, Ha|exact Hb].
Qed.

Lemma kind_checked : forall i k, (forall a, operand (Ex i k) a -> checked a) ->
  good_for (apply_kind p k) k (wrong (operand (Ex i k))) (right_ (operand (Ex i k))).
Proof.
  intros i k H.
  destruct k as [n|n l|op a b|op a|c l|l r|c t f|t f]; cbn [apply_kind].
  - split; [reflexivity|]. intros a Ha; inversion Ha.
  - pose proof (all_checked l (fun a I => H a (o_node i n l a I))) as G.
    destruct (apply_all p l); cbn [bind good_for] in *.
    + destruct G as [-> G]. split; [reflexivity|]. intros a Ha; inversion Ha; subst. apply G; assumption.
    + destruct G as (a & b & Ha & Hb). exists a, b. split; [constructor; exact Ha|exact Hb].
  - pose proof (checked_step a _ (o_left i op a b) (H _ (o_left i op a b))) as Ha.
    destruct (apply p a); cbn [bind good_for]; [|exact Ha]. destruct Ha as [-> Ha].
    pose proof (checked_step b _ (o_right i op a b) (H _ (o_right i op a b))) as Hb.
    destruct (apply p b); cbn [bind good_for]; [|exact Hb]. destruct Hb as [-> Hb].
    split; [reflexivity|]. intros x Hx; inversion Hx; subst; assumption.
  - pose proof (checked_step a _ (o_un i op a) (H _ (o_un i op a))) as Ha.
    destruct (apply p a); cbn [bind good_for]; [|exact Ha]. destruct Ha as [-> Ha].
    split; [reflexivity|]. intros x Hx; inversion Hx; subst; assumption.
  - pose proof (checked_step c _ (o_scrutinee i c l) (H _ (o_scrutinee i c l))) as Hc.
    destruct (apply p c); cbn [bind good_for]; [|exact Hc]. destruct Hc as [-> Hc].
    assert (Pl : forall a, branch_part l a -> operand (Ex i (KMatch c l)) a).
    { intros a (q&g&v&I&[E|E]); subst; [eapply o_guard; exact I|eapply o_arm; exact I]. }
    pose proof (branches_checked l (fun a I => H a (Pl a I))) as G.
    destruct (apply_branches p l); cbn [bind good_for] in *.
    + destruct G as [-> G]. split; [reflexivity|]. intros a Ha; inversion Ha; subst; [exact Hc| |]; apply G; do 3 eexists; split; try eassumption; auto.
    + destruct G as (a & b & Ha & Hb). exists a, b. split; [apply Pl, Ha|exact Hb].
  - rewrite visit_all_none; cbn [bind].
    assert (Pl : forall a, stmts_part l a -> operand (Ex i (KBlock l r)) a) by (intros a (s&I&E); eapply o_stmt; eassumption).
    pose proof (stmts_checked l (fun a I => H a (Pl a I))) as G.
    destruct (apply_stmts p l _); cbn [bind good_for] in *.
    2: { destruct G as (a & b & Ha & Hb). exists a, b. split; [apply Pl, Ha|exact Hb]. }
    destruct G as [-> G].
    assert (Pr : forall a, r = Some a -> operand (Ex i (KBlock l r)) a) by (intros a ->; constructor).
    pose proof (opt_checked r (fun a E => H a (Pr a E))) as R.
    destruct (apply_opt p r); cbn [bind good_for] in *.
    + destruct R as [-> R]. split; [reflexivity|]. intros a Ha; inversion Ha; subst; [apply G; eexists; eauto|apply R; reflexivity].
    + destruct R as (a & b & Ha & Hb). exists a, b. split; [apply Pr, Ha|exact Hb].
  - pose proof (checked_step c _ (o_cond i c t f) (H _ (o_cond i c t f))) as Hc.
    destruct (apply p c); cbn [bind good_for]; [|exact Hc]. destruct Hc as [-> Hc].
    pose proof (checked_step t _ (o_then i c t f) (H _ (o_then i c t f))) as Ht.
    destruct (apply p t); cbn [bind good_for]; [|exact Ht]. destruct Ht as [-> Ht].
    pose proof (checked_step f _ (o_else i c t f) (H _ (o_else i c t f))) as Hf.
    destruct (apply p f); cbn [bind good_for]; [|exact Hf]. destruct Hf as [-> Hf].
    split; [reflexivity|]. intros x Hx; inversion Hx; subst; assumption.
  - pose proof (checked_step t _ (o_gthen i t f) (H _ (o_gthen i t f))) as Ht.
    destruct (apply p t); cbn [bind good_for]; [|exact Ht]. destruct Ht as [-> Ht].
    pose proof (checked_step f _ (o_gelse i t f) (H _ (o_gelse i t f))) as Hf.
    destruct (apply p f); cbn [bind good_for]; [|exact Hf]. destruct Hf as [-> Hf].
    split; [reflexivity|]. intros x Hx; inversion Hx; subst; assumption.
Qed.

Theorem check_exact : forall e, checked e.
Proof.
  apply expr_wf. intros [i k] IH. unfold checked. rewrite apply_eq.
  pose proof (kind_checked i k IH) as G. destruct (apply_kind p k) as [k'|x]; cbn [bind good_for] in *.
  - destruct G as [-> G]. destruct (visit_expression p (Ex i k)) as [[]|x] eqn:V; cbn [bind good_for].
    + split; [reflexivity|]. intros a Ha. inversion Ha; subst; [exact V|]. eapply G; eassumption.
    + exists (Ex i k). split; [constructor|exact V].
  - destruct G as (a & b & Ha & Hb & E). exists b. split; [eapply in_step; eassumption|exact E].
Qed.
Lemma check_ok : forall e e', apply p e = Ok e' <-> e' = e /\ fine e.
Proof.
  intros e e'. pose proof (check_exact e) as G. unfold checked, good_for in G. split.
  - intros E. rewrite E in G. exact G.
  - intros [-> F]. destruct (apply p e) as [b|x]; [destruct G as [-> _]; reflexivity|].
    destruct G as (a & Ha & E). rewrite (F a Ha) in E. discriminate.
Qed.
Lemma check_err : forall e x, apply p e = Err x -> exists a, inside e a /\ visit_expression p a = Err x.
Proof. intros e x E. pose proof (check_exact e) as G. unfold checked, good_for in G. rewrite E in G. exact G. Qed.
End Check.

(** ** Writing out registers *)
Section Flatten.
Variable type_of : nat -> option ty.
Notation p := (flatten_pass type_of).
Notation cnt := (count_of type_of).
Definition marker (c : nat) : stmt := SMark (Some (Count c)).
Local Notation reason := (count_fault type_of).
Definition clean (e : expr) : Prop := forall c, ~ stmt_inside e (marker c).
Definition ready (e : expr) : Prop := forall c, stmt_inside e (marker c) -> countable type_of c.
Definition bad (e : expr) (x : error) : Prop := exists c, stmt_inside e (marker c) /\ reason c x.
Definition flat (e : expr) : Prop :=
  match apply p e with Ok e' => unrolled cnt e e' /\ clean e' /\ ready e | Err x => bad e x end.

(** All of a list of parts *)
Definition all_clean (part : expr -> Prop) : Prop := forall a, part a -> clean a.
Definition all_ready (part : expr -> Prop) : Prop := forall a, part a -> ready a.
Definition any_bad (part : expr -> Prop) (x : error) : Prop := exists a, part a /\ bad a x.
Definition flats {A} (r : res A) (part : expr -> Prop) (R : A -> Prop) (part' : A -> expr -> Prop) : Prop :=
  match r with Ok l' => R l' /\ all_clean (part' l') /\ all_ready part | Err x => any_bad part x end.

Lemma flat_step : forall a (part : expr -> Prop), part a -> flat a ->
  match apply p a with Ok a' => unrolled cnt a a' /\ clean a' /\ ready a | Err x => any_bad part x end.
Proof. intros a part Ha H. unfold flat in H. destruct (apply p a); [exact H|]. exists a. auto. Qed.
Lemma all_flat : forall l, (forall a, In a l -> flat a) ->
  flats (apply_all p l) (fun a => In a l) (Forall2 (unrolled cnt) l) (fun l' a => In a l').
Proof.
  induction l as [|a l IH]; intros H; cbn [apply_all]; [repeat split; [constructor|intros ? []|intros ? []]|].
  pose proof (flat_step a (fun x => In x (a :: l)) (or_introl eq_refl) (H a (or_introl eq_refl))) as Ha.
  destruct (apply p a) as [a'|x]; cbn [bind]; [|exact Ha]. destruct Ha as (U & C & R).
  specialize (IH (fun b Hb => H b (or_intror Hb))). fold (apply_all p). destruct (apply_all p l) as [l'|x]; cbn [bind flats] in *.
  - destruct IH as (U' & C' & R'). repeat split; [constructor; assumption| |]; intros b [<-|Hb]; auto.
  - destruct IH as (b & Hb & B). exists b. split; [right; exact Hb|exact B].
Qed.
Lemma opt_flat : forall o, (forall a, o = Some a -> flat a) ->
  flats (apply_opt p o) (fun a => o = Some a) (unrolled_opt cnt o) (fun o' a => o' = Some a).
Proof.
  intros [a|] H; cbn [apply_opt flats]; [|repeat split; [constructor|intros ? ?; discriminate|intros ? ?; discriminate]].
  pose proof (flat_step a (fun x => Some a = Some x) eq_refl (H a eq_refl)) as Ha.
  destruct (apply p a) as [a'|x]; cbn [bind flats]; [|exact Ha]. destruct Ha as (U & C & R).
  repeat split; [constructor; exact U| |]; intros b Hb; injection Hb as <-; assumption.
Qed.
Lemma branches_flat : forall l, (forall a, branch_part l a -> flat a) ->
  flats (apply_branches p l) (branch_part l) (Forall2 (unrolled_branch cnt) l) branch_part.
Proof.
  induction l as [|[q g v] l IH]; intros H; cbn [apply_branches]; [repeat split; [constructor|intros b (?&?&?&[]&_)|intros b (?&?&?&[]&_)]|].
  assert (Pg : forall a, g = Some a -> branch_part (Br q g v :: l) a) by (intros a E; exists q, g, v; split; [left; reflexivity|left; exact E]).
  assert (Pv : branch_part (Br q g v :: l) v) by (exists q, g, v; split; [left; reflexivity|right; reflexivity]).
  pose proof (opt_flat g (fun a E => H a (Pg a E))) as Hg.
  destruct (apply_opt p g) as [g'|x]; cbn [bind flats] in *.
  2: { destruct Hg as (a & Ha & B). exists a. split; [apply Pg, Ha|exact B]. }
  destruct Hg as (Ug & Cg & Rg). pose proof (flat_step v _ Pv (H v Pv)) as Hv.
  destruct (apply p v) as [v'|x]; cbn [bind]; [|exact Hv]. destruct Hv as (Uv & Cv & Rv).
  assert (Pl : forall a, branch_part l a -> branch_part (Br q g v :: l) a) by (intros a (q'&g''&v''&I&E); exists q', g'', v''; split; [right; exact I|exact E]).
  specialize (IH (fun a Ha => H a (Pl a Ha))). fold (apply_branches p). destruct (apply_branches p l) as [l'|x]; cbn [bind flats] in *.
  - destruct IH as (U & C & R). repeat split.
    + constructor; [constructor; assumption|assumption].
    + intros a (q'&g''&v''&[I|I]&E).
      * injection I as <- <- <-. destruct E as [E| <-]; [apply Cg, E|exact Cv].
      * apply C. exists q', g'', v''. auto.
    + intros a (q'&g''&v''&[I|I]&E).
      * injection I as <- <- <-. destruct E as [E| <-]; [apply Rg, E|exact Rv].
      * apply R. exists q', g'', v''. auto.
  - destruct IH as (a & Ha & B). exists a. split; [apply Pl, Ha|exact B].
Qed.
Ltac fstep a o H := let G := fresh in pose proof (flat_step a _ o (H a o)) as G;
  destruct (apply p a); cbn [bind flats]; [destruct G as (? & ? & ?)|exact G].
Ltac fend := split; [constructor; assumption|split; intros ? Hb; inversion Hb; subst; assumption].
Lemma stmt_flat : forall s, (forall c, s <> marker c) -> s <> SMark None -> (forall a, in_stmt s a -> flat a) ->
  flats (apply_stmt p s) (in_stmt s) (unrolled_stmt cnt s) in_stmt.
Proof.
  intros s Hm Hn H.
  rewrite apply_one_eq. destruct s as [|l|n|q v|e|e|t v|q c r i v|[[c|e]|]]; cbn [apply_one]; try solve [exfalso; apply (Hm c); reflexivity]; try congruence; try solve [cbn [flats]; fend].
  - fstep v (is_bind q v) H; fend.
  - fstep e (is_expr e) H; fend.
  - fstep e (is_assert e) H; fend.
  - fstep t (is_target t v) H. fstep v (is_value t v) H. fend.
  - assert (Hr : match apply_reset p r with
                 | Ok r' => unrolled_opt cnt (option_map fst r) (option_map fst r') /\ unrolled_opt cnt (option_map snd r) (option_map snd r')
                     /\ (forall t w, r' = Some (t, w) -> clean t /\ clean w) /\ (forall t w, r = Some (t, w) -> ready t /\ ready w)
                 | Err x => any_bad (in_stmt (SReg q c r i v)) x end).
    { destruct r as [[t w]|]; cbn [apply_reset]; [|repeat split; try constructor; discriminate].
      fstep t (is_trigger q c t w i v) H. fstep w (is_reset q c t w i v) H.
      split; [constructor; assumption|]. split; [constructor; assumption|]. split; intros t' w' E; injection E as <- <-; auto. }
    destruct (apply_reset p r) as [r'|x]; cbn [bind flats]; [|exact Hr]. destruct Hr as (Ur1 & Ur2 & Cr & Rr).
    assert (Hi : flats (apply_opt p i) (in_stmt (SReg q c r i v)) (fun i' => unrolled_opt cnt i i' /\ (forall a, i' = Some a -> clean a) /\ (forall a, i = Some a -> ready a)) (fun _ _ => False)
                 \/ exists i', apply_opt p i = Ok i' /\ unrolled_opt cnt i i' /\ (forall a, i' = Some a -> clean a) /\ (forall a, i = Some a -> ready a)).
    { assert (Pi : forall a, i = Some a -> in_stmt (SReg q c r i v) a) by (intros a ->; constructor).
      pose proof (opt_flat i (fun a E => H a (Pi a E))) as G. destruct (apply_opt p i) as [i'|x]; cbn [flats] in G.
      - right. exists i'. destruct G as (U & C & R). auto.
      - left. destruct G as (a & Ha & B). exists a. split; [apply Pi, Ha|exact B]. }
    assert (Hi' : match apply_opt p i with Ok i' => unrolled_opt cnt i i' /\ (forall a, i' = Some a -> clean a) /\ (forall a, i = Some a -> ready a) | Err x => any_bad (in_stmt (SReg q c r i v)) x end).
    { destruct Hi as [Hi|(i' & -> & Hi)]; [|exact Hi]. destruct (apply_opt p i); cbn [flats] in Hi; [apply Hi|exact Hi]. }
    clear Hi. destruct (apply_opt p i) as [i'|x]; cbn [bind flats]; [|exact Hi']. destruct Hi' as (Ui & Ci & Ri).
    fstep c (is_clock q c r i v) H. fstep v (is_next q c r i v) H.
    split; [constructor; assumption|]. split; intros b Hb; inversion Hb; subst; try assumption.
    + apply (Cr b w eq_refl).
    + apply (Cr t b eq_refl).
    + apply (Ci b eq_refl).
    + apply (Rr b w eq_refl).
    + apply (Rr t b eq_refl).
    + apply (Ri b eq_refl).
  - fstep e (is_condition e) H; fend.
Qed.

Lemma timeline_repeat : forall k l n, timeline cnt (repeat (SMark None) k ++ l) n = timeline cnt l (n + k).
Proof.
  induction k as [|k IH]; intros l n; cbn [repeat app timeline bare advance]; [f_equal; lia|].
  rewrite IH. f_equal. lia.
Qed.
Lemma stages_repeat : forall k l, stages cnt (repeat (SMark None) k ++ l) = k + stages cnt l.
Proof. induction k as [|k IH]; intros l; [reflexivity|]. unfold stages in *. cbn [repeat app map advance list_sum fold_right] in *. rewrite IH. reflexivity. Qed.
Lemma visit_marker : forall s, (exists c, s = marker c) \/ flatten_statement type_of s = Ok None.
Proof. intros s. destruct s as [| | | | | | | |[[c|e]|]]; auto. left. exists c. reflexivity. Qed.
Lemma usize_max_lt : forall z, (((0 <=? z) && (z <=? usize_max))%Z = true <-> (0 <= z < 2 ^ 64)%Z).
Proof. intros z. unfold usize_max. rewrite andb_true_iff, Z.leb_le, Z.leb_le. lia. Qed.
Lemma marker_result : forall c, match flatten_statement type_of (marker c) with
  | Ok r => r = Some (repeat (SMark None) (cnt c)) /\ countable type_of c | Err x => reason c x end.
Proof.
  intros c. cbn [flatten_statement marker]. unfold count_of, countable, count_fault. destruct (type_of c) as [[z|s|l|s]|] eqn:E; rewrite ?E;
    try solve [right; left; split; [reflexivity|eexists; split; [reflexivity|intros; discriminate]]].
  - destruct ((0 <=? z) && (z <=? usize_max))%Z eqn:B.
    + apply usize_max_lt in B. split; [reflexivity|]. exists z. auto.
    + right; right. split; [reflexivity|]. exists z. split; [reflexivity|]. intros G. apply usize_max_lt in G. congruence.
  - auto.
Qed.
Definition stmts_bad (l : list stmt) (x : error) : Prop := any_bad (stmts_part l) x \/ exists c, In (marker c) l /\ reason c x.
Lemma visit_all_flat : forall l, match visit_all (flatten_statement type_of) l with
  | Ok new => new = map (fun s => match s with SMark (Some (Count c)) => Some (repeat (SMark None) (cnt c)) | _ => None end) l
      /\ forall c, In (marker c) l -> countable type_of c
  | Err x => exists c, In (marker c) l /\ reason c x end.
Proof.
  induction l as [|s l IH]; cbn [visit_all]; [split; [reflexivity|intros c []]|].
  destruct (visit_marker s) as [[c ->]|E].
  - pose proof (marker_result c) as G. destruct (flatten_statement type_of (marker c)) as [r|x]; cbn [bind].
    + destruct G as [-> G]. destruct (visit_all _ l) as [new|x]; cbn [bind].
      * destruct IH as [-> IH]. split; [reflexivity|]. intros c' [E|I]; [injection E as <-; exact G|apply IH, I].
      * destruct IH as (c' & I & R). exists c'. split; [right; exact I|exact R].
    + exists c. split; [left; reflexivity|exact G].
  - rewrite E; cbn [bind]. assert (Nm : forall c, s <> marker c).
    { intros c ->. pose proof (marker_result c) as G. rewrite E in G. destruct G; discriminate. }
    destruct (visit_all _ l) as [new|x]; cbn [bind].
    + destruct IH as [-> IH]. split.
      * cbn [map]. f_equal. destruct s as [| | | | | | | |[[c|e]|]]; try reflexivity. exfalso; apply (Nm c); reflexivity.
      * intros c [E'|I]; [exfalso; apply (Nm c); exact E'|apply IH, I].
    + destruct IH as (c' & I & R). exists c'. split; [right; exact I|exact R].
Qed.
Lemma stmts_flat : forall l, (forall a, stmts_part l a -> flat a) ->
  flats (apply_stmts p l (map (fun s => match s with SMark (Some (Count c)) => Some (repeat (SMark None) (cnt c)) | _ => None end) l)) (stmts_part l)
    (fun l' => (forall n, Forall2 (placed cnt) (timeline cnt l n) (timeline cnt l' n)) /\ stages cnt l = stages cnt l' /\ forall c, ~ In (marker c) l') stmts_part.
Proof.
  induction l as [|s l IH]; intros H; cbn [apply_stmts map]; [repeat split; [constructor|intros c []|intros ? (?&[]&_)|intros ? (?&[]&_)]|].
  assert (Ps : forall a, in_stmt s a -> stmts_part (s :: l) a) by (intros a E; exists s; split; [left; reflexivity|exact E]).
  assert (Pl : forall a, stmts_part l a -> stmts_part (s :: l) a) by (intros a (s'&I&E); exists s'; split; [right; exact I|exact E]).
  specialize (IH (fun a Ha => H a (Pl a Ha))). fold (apply_stmts p).
  set (new := map _ l) in *. set (r := apply_stmts p l new) in *.
  assert (Bad : forall x, any_bad (stmts_part l) x -> any_bad (stmts_part (s :: l)) x) by (intros x (a & Ha & B); exists a; auto).
  destruct (visit_marker s) as [[c ->]|E].
  - cbn [marker]. destruct r as [l'|x]; cbn [bind flats] in *; [|apply Bad, IH].
    destruct IH as ((T & S & N) & C & R). split; [split; [|split]|split].
    + intros n. rewrite timeline_repeat. cbn [marker timeline bare advance]. apply T.
    + rewrite stages_repeat. unfold stages in *. cbn [map advance marker list_sum fold_right]. rewrite <- S. reflexivity.
    + intros c' I. apply in_app_or in I. destruct I as [I|I]; [apply repeat_spec in I; discriminate|apply (N c'), I].
    + intros a (s' & I & Hs). apply in_app_or in I. destruct I as [I|I]; [apply repeat_spec in I; subst; inversion Hs|apply C; exists s'; auto].
    + intros a (s' & [<-|I] & Hs); [inversion Hs|apply R; exists s'; auto].
  - assert (Nm : forall c, s <> marker c).
    { intros c ->. pose proof (marker_result c) as G. rewrite E in G. destruct G; discriminate. }
    assert (En : match s with SMark (Some (Count c)) => Some (repeat (SMark None) (cnt c)) | _ => None end = None).
    { destruct s as [| | | | | | | |[[c|e]|]]; try reflexivity. exfalso; apply (Nm c); reflexivity. }
    rewrite En. clear En.
    assert (Hs : flats (apply_stmt p s) (in_stmt s) (fun s' => (forall n l1 l2, (forall n, Forall2 (placed cnt) (timeline cnt l1 n) (timeline cnt l2 n)) ->
                  Forall2 (placed cnt) (timeline cnt (s :: l1) n) (timeline cnt (s' :: l2) n)) /\ advance cnt s = advance cnt s' /\ forall c, s' <> marker c) in_stmt).
    { assert (D : s = SMark None \/ s <> SMark None) by (destruct s as [| | | | | | | |[[c|e]|]]; auto; right; discriminate).
      destruct D as [->|D].
      - cbn. split; [split; [|split]|split]; try solve [intros a Ha; inversion Ha]; [|reflexivity].
        intros n l1 l2 G. apply G.
      - pose proof (stmt_flat s Nm D (fun a Ha => H a (Ps a Ha))) as G. destruct (apply_stmt p s) as [s'|x]; cbn [flats] in *; [|exact G].
        destruct G as (U & C & R). split; [|auto]. split; [|split].
        + intros n l1 l2 G. inversion U; subst; cbn [timeline bare advance]; (constructor; [constructor; exact U|apply G]).
        + inversion U; reflexivity.
        + intros c ->. inversion U. }
    destruct (apply_stmt p s) as [s'|x]; cbn [bind flats] in *.
    2: { destruct Hs as (a & Ha & B). exists a. auto. }
    destruct Hs as ((T1 & A1 & N1) & C1 & R1).
    destruct r as [l'|x]; cbn [bind flats] in *; [|apply Bad, IH].
    destruct IH as ((T & S & N) & C & R). split; [split; [|split]|split].
    + intros n. apply T1, T.
    + unfold stages in *. cbn [map list_sum fold_right]. fold (list_sum (map (advance cnt) l)) (list_sum (map (advance cnt) l')). rewrite A1, S. reflexivity.
    + intros c [I|I]; [apply (N1 c), I|apply (N c), I].
    + intros a (s'' & [<-|I] & Hs); [apply C1, Hs|apply C; exists s''; auto].
    + intros a (s'' & [<-|I] & Hs); [apply R1, Hs|apply R; exists s''; auto].
Qed.
Lemma stmt_inside_inv : forall i k s, stmt_inside (Ex i k) s ->
  (exists l r, k = KBlock l r /\ In s l) \/ exists a, operand (Ex i k) a /\ stmt_inside a s.
Proof.
  intros i k s (j & l & r & I & Hs). inversion I as [|? a ? O I']; subst; [left; eauto|].
  right. exists a. split; [exact O|]. exists j, l, r. auto.
Qed.
Lemma stmt_inside_step : forall e a s, operand e a -> stmt_inside a s -> stmt_inside e s.
Proof. intros e a s O (j & l & r & I & Hs). exists j, l, r. split; [eapply in_step; eassumption|exact Hs]. Qed.
Definition block_ok (k : kind) : Prop := forall l r c, k = KBlock l r -> In (marker c) l -> countable type_of c.
Definition block_clean (k : kind) : Prop := forall l r c, k = KBlock l r -> ~ In (marker c) l.
Lemma kind_flat : forall i k, (forall a, operand (Ex i k) a -> flat a) ->
  match apply_kind p k with
  | Ok k' => unrolled cnt (Ex i k) (Ex i k') /\ all_clean (operand (Ex i k')) /\ block_clean k' /\ all_ready (operand (Ex i k)) /\ block_ok k
  | Err x => any_bad (operand (Ex i k)) x \/ exists l r c, k = KBlock l r /\ In (marker c) l /\ reason c x
  end.
Proof.
  intros i k H.
  Ltac kstep a o H := let G := fresh in pose proof (flat_step a _ o (H a o)) as G;
    destruct (apply _ a); cbn [bind]; [destruct G as (? & ? & ?)|left; exact G].
  Ltac kend := split; [constructor; assumption|split; [intros ? Ho; inversion Ho; subst; assumption|split; [intros ? ? ? E; discriminate E|split; [intros ? Ho; inversion Ho; subst; assumption|intros ? ? ? E; discriminate E]]]].
  destruct k as [n|n l|op a b|op a|c l|l r|c t f|t f]; cbn [apply_kind].
  - kend.
  - pose proof (all_flat l (fun a I => H a (o_node i n l a I))) as G.
    destruct (apply_all p l); cbn [bind flats] in *.
    + destruct G as (U & C & R). split; [apply u_node; exact U|split; [|split; [intros ? ? ? E; discriminate E|split; [|intros ? ? ? E; discriminate E]]]]; intros y Hy; inversion Hy; subst; auto.
    + left. destruct G as (a & Ha & B). exists a. split; [constructor; exact Ha|exact B].
  - kstep a (o_left i op a b) H. kstep b (o_right i op a b) H. kend.
  - kstep a (o_un i op a) H. kend.
  - kstep c (o_scrutinee i c l) H.
    assert (Pl : forall a, branch_part l a -> operand (Ex i (KMatch c l)) a).
    { intros z (q&g&v&I&[E|E]); subst; [eapply o_guard; exact I|eapply o_arm; exact I]. }
    pose proof (branches_flat l (fun a I => H a (Pl a I))) as G.
    destruct (apply_branches p l); cbn [bind flats] in *.
    + destruct G as (U & C & R). split; [constructor; assumption|split; [|split; [intros ? ? ? E; discriminate E|split; [|intros ? ? ? E; discriminate E]]]];
        intros x Hx; inversion Hx; subst; try assumption; (apply C || apply R); do 3 eexists; split; try eassumption; auto.
    + left. destruct G as (z & Hz & B). exists z. split; [apply Pl, Hz|exact B].
  - pose proof (visit_all_flat l) as V. change (visit_statement p) with (flatten_statement type_of).
    destruct (visit_all _ l) as [new|x]; cbn [bind].
    2: { right. destruct V as (c & I & R). exists l, r, c. auto. }
    destruct V as [-> V].
    assert (Pl : forall a, stmts_part l a -> operand (Ex i (KBlock l r)) a) by (intros a (s&I&E); eapply o_stmt; eassumption).
    pose proof (stmts_flat l (fun a I => H a (Pl a I))) as G.
    destruct (apply_stmts p l _) as [l'|x]; cbn [bind flats] in *.
    2: { left. destruct G as (a & Ha & B). exists a. split; [apply Pl, Ha|exact B]. }
    destruct G as ((T & S & N) & C & R).
    assert (Pr : forall a, r = Some a -> operand (Ex i (KBlock l r)) a) by (intros a ->; constructor).
    pose proof (opt_flat r (fun a E => H a (Pr a E))) as G.
    destruct (apply_opt p r); cbn [bind flats] in *.
    2: { left. destruct G as (a & Ha & B). exists a. split; [apply Pr, Ha|exact B]. }
    destruct G as (U' & C' & R'). split; [constructor; [apply T|exact S|exact U']|split; [|split; [|split]]].
    + intros x Hx; inversion Hx; subst; [apply C; eexists; eauto|apply C'; reflexivity].
    + intros ? ? c E. injection E as <- <-. apply N.
    + intros x Hx; inversion Hx; subst; [apply R; eexists; eauto|apply R'; reflexivity].
    + intros ? ? c E. injection E as <- <-. apply V.
  - kstep c (o_cond i c t f) H. kstep t (o_then i c t f) H. kstep f (o_else i c t f) H. kend.
  - kstep t (o_gthen i t f) H. kstep f (o_gelse i t f) H. kend.
Qed.
Theorem flatten_exact : forall e, flat e.
Proof.
  apply expr_wf. intros [i k] IH. unfold flat. rewrite apply_eq.
  pose proof (kind_flat i k IH) as G. destruct (apply_kind p k) as [k'|x]; cbn [bind visit_expression flatten_pass].
  - destruct G as (U & C & N & R & B). split; [exact U|split].
    + intros c I. destruct (stmt_inside_inv _ _ _ I) as [(l & r & E & J)|(a & O & J)]; [apply (N l r c E J)|apply (C a O c J)].
    + intros c I. destruct (stmt_inside_inv _ _ _ I) as [(l & r & E & J)|(a & O & J)]; [apply (B l r c E J)|apply (R a O c J)].
  - destruct G as [(a & O & c & I & Rs)|(l & r & c & -> & I & Rs)].
    + exists c. split; [eapply stmt_inside_step; eassumption|exact Rs].
    + exists c. split; [|exact Rs]. exists i, l, r. split; [constructor|exact I].
Qed.
Lemma reason_not : forall c x, reason c x -> ~ countable type_of c.
Proof.
  intros c x [(_ & E)|[(_ & t & E & N)|(_ & z & E & N)]] (z' & E' & B); rewrite E in E'; try discriminate.
  - injection E' as ->. eapply N; reflexivity.
  - injection E' as ->. auto.
Qed.
End Flatten.

(** ** Both ways wires *)
Section InOut.
Variable type_of : nat -> option ty.
Lemma is_inout_iff : forall x, is_inout (type_of x) = true <-> inout type_of x.
Proof.
  intros x. unfold is_inout, inout. destruct (type_of x) as [[z|s|l|s]|]; split; try discriminate; try solve [intros [s' E]; discriminate]; eauto.
Qed.
Lemma inout_statements_ok : forall l, inout_statements type_of l = Ok tt <->
  forall q, (exists v, In (SBind q v) l) \/ (exists c r i v, In (SReg q c r i v) l) -> ~ inout type_of q.
Proof.
  induction l as [|s l IH]; cbn [inout_statements]; [split; [intros _ q [(v & [])|(c & r & i & v & [])]|reflexivity]|].
  assert (D : (exists q v, s = SBind q v) \/ (exists q c r i v, s = SReg q c r i v) \/
    ((forall q v, s <> SBind q v) /\ (forall q c r i v, s <> SReg q c r i v))) by (destruct s; eauto 9; right; right; split; discriminate).
  destruct D as [(q & v & ->)|[(q & c & r & i & v & ->)|[N1 N2]]].
  - destruct (is_inout (type_of q)) eqn:E.
    + split; [discriminate|]. intros H. exfalso. apply (H q); [left; exists v; left; reflexivity|apply is_inout_iff, E].
    + rewrite IH. split; intros H q' Hq.
      * destruct Hq as [(v' & [Hq|Hq])|(c' & r' & i' & v' & [Hq|Hq])]; try discriminate.
        -- injection Hq as <- <-. rewrite <- is_inout_iff. congruence.
        -- apply H. eauto.
        -- apply H. eauto 9.
      * apply H. destruct Hq as [(v' & Hq)|(c' & r' & i' & v' & Hq)]; [left; exists v'; right; exact Hq|right; exists c', r', i', v'; right; exact Hq].
  - destruct (is_inout (type_of q)) eqn:E.
    + split; [discriminate|]. intros H. exfalso. apply (H q); [right; exists c, r, i, v; left; reflexivity|apply is_inout_iff, E].
    + rewrite IH. split; intros H q' Hq.
      * destruct Hq as [(v' & [Hq|Hq])|(c' & r' & i' & v' & [Hq|Hq])]; try discriminate.
        -- apply H. eauto.
        -- injection Hq as <- _ _ _ _. rewrite <- is_inout_iff. congruence.
        -- apply H. eauto 9.
      * apply H. destruct Hq as [(v' & Hq)|(c' & r' & i' & v' & Hq)]; [left; exists v'; right; exact Hq|right; exists c', r', i', v'; right; exact Hq].
  - assert (E : match s with SBind q _ | SReg q _ _ _ _ => if is_inout (type_of q) then Err (BoundToName q) else inout_statements type_of l
                | _ => inout_statements type_of l end = inout_statements type_of l).
    { destruct s as [| | |q v| | | |q c r i v| ]; try reflexivity; [destruct (N1 q v eq_refl)|destruct (N2 q c r i v eq_refl)]. }
    rewrite E, IH. split; intros H q' Hq; apply H.
    + destruct Hq as [(v' & [Hq|Hq])|(c' & r' & i' & v' & [Hq|Hq])]; [destruct (N1 _ _ Hq)|eauto|destruct (N2 _ _ _ _ _ Hq)|eauto 9].
    + destruct Hq as [(v' & Hq)|(c' & r' & i' & v' & Hq)]; [left; exists v'; right; exact Hq|right; exists c', r', i', v'; right; exact Hq].
Qed.
Lemma inout_statements_err : forall l x, inout_statements type_of l = Err x ->
  exists q, x = BoundToName q /\ inout type_of q /\ ((exists v, In (SBind q v) l) \/ (exists c r i v, In (SReg q c r i v) l)).
Proof.
  induction l as [|s l IH]; intros x H; [discriminate|].
  assert (G : inout_statements type_of l = Err x -> exists q, x = BoundToName q /\ inout type_of q /\ ((exists v, In (SBind q v) (s :: l)) \/ (exists c r i v, In (SReg q c r i v) (s :: l)))).
  { intros E. destruct (IH x E) as (q & Ex & I & [(v & J)|(c & r & i & v & J)]); exists q; (split; [exact Ex|split; [exact I|]]); [left; exists v; right; exact J|right; exists c, r, i, v; right; exact J]. }
  destruct s as [|l'|n|q v|e|e|t v|q c r i v|m]; cbn [inout_statements] in H; auto.
  - destruct (is_inout (type_of q)) eqn:E; [|auto]. injection H as <-. exists q. split; [reflexivity|]. split; [apply is_inout_iff, E|]. left. exists v. left. reflexivity.
  - destruct (is_inout (type_of q)) eqn:E; [|auto]. injection H as <-. exists q. split; [reflexivity|]. split; [apply is_inout_iff, E|]. right. exists c, r, i, v. left. reflexivity.
Qed.
Lemma inout_inputs_ok : forall h l, inout_inputs type_of (combine h l) = Ok tt <->
  forall n x, nth_error h n = Some false -> nth_error l n = Some x -> ~ inout type_of x.
Proof.
  induction h as [|b h IH]; intros l; cbn [combine inout_inputs]; [split; [intros _ [|n] x E; discriminate|reflexivity]|].
  destruct l as [|x l]; cbn [inout_inputs]; [split; [intros _ [|n] x E E'; discriminate|reflexivity]|].
  destruct b; cbn [negb andb].
  - rewrite IH. split; intros H n y E E'; [destruct n; [discriminate|apply (H n y E E')]|apply (H (S n) y E E')].
  - destruct (is_inout (type_of x)) eqn:E.
    + split; [discriminate|]. intros H. exfalso. apply (H 0 x eq_refl eq_refl), is_inout_iff, E.
    + rewrite IH. split; intros H n y E1 E2.
      * destruct n; [injection E2 as <-; rewrite <- is_inout_iff; congruence|apply (H n y E1 E2)].
      * apply (H (S n) y E1 E2).
Qed.
Lemma inout_inputs_err : forall h l x, inout_inputs type_of (combine h l) = Err x ->
  exists n y, x = MustBeNoMangle y /\ nth_error h n = Some false /\ nth_error l n = Some y /\ inout type_of y.
Proof.
  induction h as [|b h IH]; intros l x H; [discriminate|]. destruct l as [|y l]; [discriminate|]. cbn [combine inout_inputs] in H.
  destruct (negb b && is_inout (type_of y)) eqn:E.
  - apply andb_true_iff in E. destruct E as [E1 E2]. injection H as <-. exists 0, y. split; [reflexivity|].
    destruct b; [discriminate|]. split; [reflexivity|]. split; [reflexivity|apply is_inout_iff, E2].
  - destruct (IH l x H) as (n & z & G). exists (S n), z. exact G.
Qed.
Lemma fine_inout : forall e, fine (inout_pass type_of) e <-> forall q, bound_in e q -> ~ inout type_of q.
Proof.
  intros e. unfold fine. split.
  - intros H q [(v & i & l & r & I & J)|(c & r' & i' & v & i & l & r & I & J)]; specialize (H _ I); cbn in H; rewrite inout_statements_ok in H; apply H; eauto 9.
  - intros H [i k] I. cbn. destruct k as [n|n l|op a b|op a|c l|l r|c t f|t f]; try reflexivity.
    apply inout_statements_ok. intros q [(v & J)|(c & r' & i' & v & J)]; apply H; [left; exists v, i, l, r; auto|right; exists c, r', i', v, i, l, r; auto].
Qed.
Lemma with_same : forall u, with_body u (body u) = u.
Proof. intros []; reflexivity. Qed.
Lemma run_inout_ok : forall u u', run_inout type_of u = Ok u' <->
  u' = u /\ ~ inout type_of (id_of (body u)) /\
  (forall n x, nth_error (head_inputs u) n = Some false -> nth_error (inputs u) n = Some x -> ~ inout type_of x) /\
  forall q, bound_in (body u) q -> ~ inout type_of q.
Proof.
  intros u u'. unfold run_inout, inout_unit. destruct (is_inout (type_of (id_of (body u)))) eqn:E.
  - split; [discriminate|]. intros (_ & N & _). exfalso. apply N, is_inout_iff, E.
  - assert (N : ~ inout type_of (id_of (body u))) by (rewrite <- is_inout_iff; congruence).
    split.
    + intros H. apply bind_ok in H. destruct H as ([] & H1 & H). apply bind_ok in H. destruct H as (b & H2 & H). injection H as <-.
      apply (check_ok (inout_pass type_of)) in H2; [|reflexivity]. destruct H2 as [-> F].
      split; [apply with_same|]. split; [exact N|]. split; [apply inout_inputs_ok, H1|apply fine_inout, F].
    + intros (-> & _ & H1 & H2). apply inout_inputs_ok in H1. rewrite H1; cbn [bind].
      apply fine_inout in H2. destruct (check_ok (inout_pass type_of) (fun _ => eq_refl) (body u) (body u)) as [_ G].
      rewrite (G (conj eq_refl H2)). cbn [bind]. rewrite with_same. reflexivity.
Qed.
Lemma run_inout_err : forall u x, run_inout type_of u = Err x ->
  (x = Returned (id_of (body u)) /\ inout type_of (id_of (body u))) \/
  (exists n y, x = MustBeNoMangle y /\ nth_error (head_inputs u) n = Some false /\ nth_error (inputs u) n = Some y /\ inout type_of y) \/
  (exists q, x = BoundToName q /\ bound_in (body u) q /\ inout type_of q).
Proof.
  intros u x. unfold run_inout, inout_unit. destruct (is_inout (type_of (id_of (body u)))) eqn:E.
  - intros H. injection H as <-. left. split; [reflexivity|apply is_inout_iff, E].
  - intros H. apply bind_err in H. destruct H as [H|(a & _ & H)]; [right; left; apply inout_inputs_err, H|].
    apply bind_err in H. destruct H as [H|(b & _ & H)]; [|discriminate].
    apply (check_err (inout_pass type_of)) in H; [|reflexivity]. destruct H as ([i k] & I & H). right; right.
    cbn in H. destruct k as [n|n l|op c d|op c|c l|l r|c t f|t f]; try discriminate.
    apply inout_statements_err in H. destruct H as (q & Ex & Hq & [(v & J)|(c & r' & i' & v & J)]); exists q; (split; [exact Ex|split; [|exact Hq]]).
    + left. exists v, i, l, r. auto.
    + right. exists c, r', i', v, i, l, r. auto.
Qed.
End InOut.

(** ** Values without bits *)
Section Zero.
Variable type_of : nat -> option ty.
Lemma not_zero_ok : forall e x, not_zero type_of (id_of e) x = Ok tt <-> sized type_of e.
Proof.
  intros e x. unfold not_zero, sized. destruct (type_of (id_of e)) as [t|]; [|split; [discriminate|intros (t & n & E & _); discriminate]].
  destruct (size t) as [n|] eqn:S; [|split; [discriminate|intros (t' & n & E & E' & _); injection E as <-; congruence]].
  destruct (N.eqb_spec n 0).
  - split; [discriminate|]. intros (t' & n' & E & E' & N). injection E as <-. congruence.
  - split; [intros _; exists t, n; auto|reflexivity].
Qed.
Local Notation unsized := (size_fault type_of).
Lemma not_zero_err : forall e zero x, not_zero type_of e zero = Err x -> unsized e zero x.
Proof.
  intros e zero x. unfold not_zero, size_fault. destruct (type_of e) as [t|]; [|intros H; injection H as <-; auto].
  destruct (size t) as [n|] eqn:S; [|intros H; injection H as <-; eauto 9].
  destruct (N.eqb_spec n 0); [|discriminate]. intros H; injection H as <-. subst n. eauto 9.
Qed.
Lemma fine_zero : forall e, fine (zero_pass type_of) e <->
  no_gen_if e /\ (forall a, computed_with e a -> sized type_of a) /\ (forall v, arm_in e 0 v -> sized type_of v).
Proof.
  intros e. unfold fine. split.
  - intros H. split; [|split].
    + intros i t f I. specialize (H _ I). discriminate.
    + intros a Ha. inversion Ha as [i op b c I|i op b c I|i op b I O]; subst; specialize (H _ I); cbn in H.
      * apply bind_ok in H. destruct H as ([] & H & _). eapply not_zero_ok; exact H.
      * apply bind_ok in H. destruct H as ([] & _ & H). eapply not_zero_ok; exact H.
      * destruct O as [->|[->| ->]]; eapply not_zero_ok; exact H.
    + intros v (i & c & l & q & g & I & E). destruct l as [|b l]; [discriminate|]. injection E as ->.
      specialize (H _ I). eapply not_zero_ok; exact H.
  - intros (G & C & A) [i k] I. cbn. destruct k as [n|n l|op a b|op a|c l|l r|c t f|t f]; try reflexivity.
    + assert (Ha : sized type_of a) by (apply C; eapply c_left; exact I).
      assert (Hb : sized type_of b) by (apply C; eapply c_right; exact I).
      rewrite <- (not_zero_ok a (ZeroOperand (id_of a))) in Ha. rewrite Ha. cbn [bind]. apply not_zero_ok, Hb.
    + destruct op; try reflexivity; apply not_zero_ok, C; eapply c_un; try exact I; auto.
    + destruct l as [|[q g v] l]; [reflexivity|]. apply not_zero_ok, A. exists i, c, (Br q g v :: l), q, g. auto.
    + destruct (G i t f I).
Qed.
Lemma run_zero_ok : forall u u', run_zero type_of u = Ok u' <->
  u' = u /\ no_gen_if (body u) /\ (forall a, computed_with (body u) a -> sized type_of a) /\ (forall v, arm_in (body u) 0 v -> sized type_of v).
Proof.
  intros u u'. unfold run_zero. rewrite <- fine_zero. split.
  - intros H. apply bind_ok in H. destruct H as (b & H & E). injection E as <-.
    apply (check_ok (zero_pass type_of)) in H; [|reflexivity]. destruct H as [-> F]. split; [apply with_same|exact F].
  - intros [-> F]. destruct (check_ok (zero_pass type_of) (fun _ => eq_refl) (body u) (body u)) as [_ G].
    rewrite (G (conj eq_refl F)). cbn [bind]. rewrite with_same. reflexivity.
Qed.
Lemma run_zero_err : forall u x, run_zero type_of u = Err x ->
  (exists i t f, x = GenIfLeft i /\ inside (body u) (Ex i (KTlIf t f))) \/
  (exists a, computed_with (body u) a /\ unsized (id_of a) (ZeroOperand (id_of a)) x) \/
  (exists v, arm_in (body u) 0 v /\ unsized (id_of v) (ZeroMatch (id_of v)) x).
Proof.
  intros u x H. unfold run_zero in H. apply bind_err in H. destruct H as [H|(b & _ & H)]; [|discriminate].
  apply (check_err (zero_pass type_of)) in H; [|reflexivity]. destruct H as ([i k] & I & H). cbn in H.
  destruct k as [n|n l|op a b|op a|c l|l r|c t f|t f]; try discriminate.
  - right; left. apply bind_err in H. destruct H as [H|(y & _ & H)]; apply not_zero_err in H; [exists a|exists b]; (split; [|exact H]); [eapply c_left|eapply c_right]; exact I.
  - right; left. destruct op; try discriminate; apply not_zero_err in H; exists a; (split; [eapply c_un; eauto|exact H]).
  - right; right. destruct l as [|[q g v] l]; [discriminate|]. apply not_zero_err in H. exists v. split; [|exact H]. exists i, c, (Br q g v :: l), q, g. auto.
  - injection H as <-. left. exists i, t, f. auto.
Qed.
End Zero.

(** ** Writing out registers keeps everything else *)
Section Keeps.
Variable cnt : nat -> nat.
Lemma in_timeline : forall l n s, bare s = false -> In s l -> exists m, In (m, s) (timeline cnt l n).
Proof.
  induction l as [|a l IH]; intros n s B I; [destruct I|]. cbn [timeline]. destruct I as [->|I].
  - rewrite B. exists n. left. reflexivity.
  - destruct (IH (n + advance cnt a) s B I) as [m J]. exists m. destruct (bare a); [exact J|right; exact J].
Qed.
Lemma timeline_in : forall l n m s, In (m, s) (timeline cnt l n) -> In s l.
Proof.
  induction l as [|a l IH]; intros n m s I; [destruct I|]. cbn [timeline] in I. destruct (bare a); [right; eapply IH, I|].
  destruct I as [E|I]; [injection E as _ ->; left; reflexivity|right; eapply IH, I].
Qed.
Lemma Forall2_in : forall {A B} (R : A -> B -> Prop) l l' a, Forall2 R l l' -> In a l -> exists b, In b l' /\ R a b.
Proof. induction 1 as [|x y l l' H _ IH]; intros I; [destruct I|]. destruct I as [->|I]; [exists y; split; [left; reflexivity|exact H]|]. destruct (IH I) as (b & J & G). exists b. split; [right; exact J|exact G]. Qed.
Lemma in_stmt_bare : forall s a, in_stmt s a -> bare s = false.
Proof. intros s a H; inversion H; reflexivity. Qed.
Lemma stmt_kept : forall l l' s, Forall2 (placed cnt) (timeline cnt l 0) (timeline cnt l' 0) -> bare s = false -> In s l ->
  exists s', In s' l' /\ unrolled_stmt cnt s s'.
Proof.
  intros l l' s T B I. destruct (in_timeline l 0 s B I) as [m J]. destruct (Forall2_in _ _ _ _ T J) as ((m' & s') & J' & P).
  inversion P; subst. exists s'. split; [eapply timeline_in, J'|assumption].
Qed.
Lemma in_stmt_kept : forall s s' a, unrolled_stmt cnt s s' -> in_stmt s a -> exists a', in_stmt s' a' /\ unrolled cnt a a'.
Proof.
  intros s s' a U H. inversion U as [ | | |q v v' Uv|e e' Ue|e e' Ue|t v t' v' Ut Uv|q c r i v c' r' i' v' Uc Ur1 Ur2 Ui Uv|e e' Ue]; subst; inversion H; subst;
    try solve [eexists; split; [constructor|assumption]].
  - destruct r' as [[t' w']|]; inversion Ur1; inversion Ur2; subst. exists t'. split; [constructor|assumption].
  - destruct r' as [[t' w']|]; inversion Ur1; inversion Ur2; subst. exists w'. split; [constructor|assumption].
  - destruct i' as [b|]; inversion Ui; subst. exists b. split; [constructor|assumption].
Qed.
Lemma operand_kept : forall e e' a, unrolled cnt e e' -> operand e a -> exists a', operand e' a' /\ unrolled cnt a a'.
Proof.
  intros e e' a U O. inversion O; subst; inversion U; subst; try solve [eexists; split; [constructor|assumption]].
  - match goal with H : Forall2 _ _ _, I : In _ _ |- _ => destruct (Forall2_in _ _ _ _ H I) as (b & J & G) end. exists b. split; [constructor; exact J|exact G].
  - match goal with H : Forall2 _ _ _, I : In _ _ |- _ => destruct (Forall2_in _ _ _ _ H I) as (b & J & G) end. inversion G as [? g1 g2 v1 v2 Ug Uv]; subst. inversion Ug; subst.
    eexists. split; [eapply o_guard; exact J|assumption].
  - match goal with H : Forall2 _ _ _, I : In _ _ |- _ => destruct (Forall2_in _ _ _ _ H I) as (b & J & G) end. inversion G as [? g1 g2 v1 v2 Ug Uv]; subst.
    eexists. split; [eapply o_arm; exact J|assumption].
  - match goal with H : Forall2 _ _ _, I : In _ _, B : in_stmt _ _ |- _ => destruct (stmt_kept _ _ _ H (in_stmt_bare _ _ B) I) as (s' & J & G); destruct (in_stmt_kept _ _ _ G B) as (a' & J' & G') end.
    exists a'. split; [eapply o_stmt; eassumption|exact G'].
  - match goal with H : unrolled_opt _ _ _ |- _ => inversion H; subst end. eexists. split; [constructor|assumption].
Qed.
Lemma inside_kept : forall e a, inside e a -> forall e', unrolled cnt e e' -> exists a', inside e' a' /\ unrolled cnt a a'.
Proof.
  induction 1 as [e|e a b O I IH]; intros e' U; [exists e'; split; [constructor|exact U]|].
  destruct (operand_kept _ _ _ U O) as (a' & O' & U'). destruct (IH a' U') as (b' & I' & G). exists b'. split; [eapply in_step; eassumption|exact G].
Qed.
Lemma id_kept : forall e e', unrolled cnt e e' -> id_of e' = id_of e.
Proof. intros e e' U; inversion U; reflexivity. Qed.
Lemma bound_kept : forall e e' q, unrolled cnt e e' -> bound_in e q -> bound_in e' q.
Proof.
  intros e e' q U [(v & i & l & r & I & J)|(c & r0 & i0 & v & i & l & r & I & J)]; destruct (inside_kept _ _ I _ U) as (a' & I' & U');
    inversion U' as [ | | | | |? ? l' ? r' T _ _| |]; subst.
  - destruct (stmt_kept l l' (SBind q v) T eq_refl J) as (s' & J' & G). inversion G; subst. left. eexists _, i, l', r'. split; eassumption.
  - destruct (stmt_kept l l' (SReg q c r0 i0 v) T eq_refl J) as (s' & J' & G). inversion G; subst. right. do 4 eexists. exists i, l', r'. split; eassumption.
Qed.
Lemma computed_kept : forall e e' a, unrolled cnt e e' -> computed_with e a -> exists a', computed_with e' a' /\ id_of a' = id_of a.
Proof.
  intros e e' a U C. inversion C as [i op b c I|i op b c I|i op b I O]; subst; destruct (inside_kept _ _ I _ U) as (x & I' & U'); inversion U'; subst;
    eexists; (split; [|eapply id_kept; eassumption]); [eapply c_left; exact I'|eapply c_right; exact I'|eapply c_un; eassumption].
Qed.
Lemma Forall2_nth : forall {A B} (R : A -> B -> Prop) l l' n a, Forall2 R l l' -> nth_error l n = Some a -> exists b, nth_error l' n = Some b /\ R a b.
Proof. intros A B R l l' n a H. revert n. induction H as [|x y l l' H _ IH]; intros [|n] E; try discriminate; [injection E as ->; exists y; auto|apply (IH n E)]. Qed.
Lemma arm_kept : forall e e' n v, unrolled cnt e e' -> arm_in e n v -> exists v', arm_in e' n v' /\ id_of v' = id_of v.
Proof.
  intros e e' n v U (i & c & l & q & g & I & E). destruct (inside_kept _ _ I _ U) as (x & I' & U'). inversion U' as [ | | | |? ? c' ? l' Uc Ul| | |]; subst.
  destruct (Forall2_nth _ _ _ _ _ Ul E) as (b & E' & G). inversion G; subst.
  eexists. split; [exists i, c', l'; do 2 eexists; split; eassumption|eapply id_kept; eassumption].
Qed.
End Keeps.
