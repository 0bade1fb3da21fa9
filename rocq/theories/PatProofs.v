(** Proofs about the usefulness check. *)
From Coq Require Import List ZArith Bool Arith Lia ZifyBool Sorting.Sorted.
From Verif Require Import PatModel PatSpec.
Import ListNotations.
Local Open Scope Z_scope.

(** ** Helpers *)
Lemma traverse_some A B (f : A -> option B) (g : A -> B) l :
  (forall x, In x l -> f x = Some (g x)) -> traverse f l = Some (map g l).
Proof.
  induction l; intros H; cbn; [easy|].
  rewrite (H a) by now left. rewrite IHl; [easy|]. intros; apply H; now right.
Qed.
Lemma traverse_exists A B (f : A -> option B) l :
  (forall x, In x l -> exists y, f x = Some y) ->
  exists ys, traverse f l = Some ys /\ Forall2 (fun x y => f x = Some y) l ys.
Proof.
  induction l; intros H; cbn.
  - exists []; auto.
  - destruct (H a) as [y Hy]; [now left|]. destruct IHl as [ys [E F]]; [intros; apply H; now right|].
    rewrite Hy, E. exists (y :: ys); auto.
Qed.
Lemma in_concat_inv A (x : A) ll : In x (concat ll) -> exists l, In l ll /\ In x l.
Proof. apply in_concat. Qed.
Lemma Forall2_app_inv_len A B (R : A -> B -> Prop) l1 l2 m1 m2 :
  length l1 = length m1 -> Forall2 R (l1 ++ l2) (m1 ++ m2) -> Forall2 R l1 m1 /\ Forall2 R l2 m2.
Proof.
  revert m1. induction l1; destruct m1; cbn; intros L H; try easy.
  inversion H; subst. destruct (IHl1 m1) as [? ?]; [lia|easy|]. auto.
Qed.
Lemma Forall2_length' A B (R : A -> B -> Prop) l m : Forall2 R l m -> length l = length m.
Proof. induction 1; cbn; lia. Qed.
Lemma Forall2_in_r A B (R : A -> B -> Prop) l m y :
  Forall2 R l m -> In y m -> exists x, In x l /\ R x y.
Proof. induction 1; intros []; subst; [eauto with datatypes|]. destruct (IHForall2 H1) as [? []]; eauto with datatypes. Qed.
Lemma Forall2_in_l A B (R : A -> B -> Prop) l m x :
  Forall2 R l m -> In x l -> exists y, In y m /\ R x y.
Proof. induction 1; intros []; subst; [eauto with datatypes|]. destruct (IHForall2 H1) as [? []]; eauto with datatypes. Qed.

(** ** Splitting integer ranges *)
Lemma insert_in e l x : In x (insert e l) <-> x = e \/ In x l.
Proof.
  induction l; cbn; [intuition|]. destruct (e <=? a); cbn; [intuition|]. rewrite IHl. intuition.
Qed.
Lemma sort_in l x : In x (sort l) <-> In x l.
Proof. unfold sort. induction l; cbn; [easy|]. rewrite insert_in, IHl. intuition. Qed.
Lemma insert_sorted e l : StronglySorted Z.le l -> StronglySorted Z.le (insert e l).
Proof.
  induction 1; cbn; [repeat constructor|].
  destruct (Z.leb_spec e a).
  - constructor; [constructor; auto|]. constructor; [lia|].
    eapply Forall_impl; [|eassumption]. intros; cbn in *; lia.
  - constructor; [easy|]. apply Forall_forall. intros x Hx. apply insert_in in Hx as [->|Hx]; [lia|].
    rewrite Forall_forall in H0; auto.
Qed.
Lemma sort_sorted l : StronglySorted Z.le (sort l).
Proof. unfold sort. induction l; cbn; [constructor|]. now apply insert_sorted. Qed.
Lemma dedup_in l x : In x (dedup l) <-> In x l.
Proof.
  induction l as [|a l IH]; [easy|]. cbn [dedup]. destruct (dedup l) as [|y r] eqn:E.
  - cbn in *. intuition.
  - destruct (Z.eqb_spec a y).
    + subst. rewrite IH. cbn in *. intuition. 
    + cbn in *. intuition.
Qed.
Lemma dedup_sorted l : StronglySorted Z.le l -> StronglySorted Z.lt (dedup l).
Proof.
  induction 1 as [|a l S IH F]; [constructor|]. cbn [dedup].
  pose proof (dedup_in l) as Hin.
  destruct (dedup l) as [|y r] eqn:E; [repeat constructor|].
  destruct (Z.eqb_spec a y); [easy|].
  constructor; [easy|]. apply Forall_forall. intros x Hx.
  assert (Hy : a <= y) by (rewrite Forall_forall in F; apply F, Hin; now left).
  inversion IH as [|? ? ? Fy]; subst. destruct Hx as [<-|Hx]; [lia|].
  rewrite Forall_forall in Fy. specialize (Fy x Hx). lia.
Qed.
Lemma filter_sorted (f : Z -> bool) l : StronglySorted Z.lt l -> StronglySorted Z.lt (filter f l).
Proof.
  induction 1; cbn; [constructor|]. destruct (f a); [|easy]. constructor; [easy|].
  apply Forall_forall. intros x Hx. apply filter_In in Hx as [Hx _]. rewrite Forall_forall in H0. auto.
Qed.

Lemma cut_spec es : forall low max,
  StronglySorted Z.lt es -> low <= max -> Forall (fun e => low < e < max) es ->
  Forall (fun c => exists lo hi, c = IntRange lo hi /\ low <= lo <= hi /\ hi <= max /\
                     Forall (fun e => e <= lo \/ hi < e) es) (cut low max es) /\
  (forall z, low <= z <= max -> exists lo hi, In (IntRange lo hi) (cut low max es) /\ lo <= z <= hi).
Proof.
  induction es as [|e es IH]; intros low max S L F; cbn [cut].
  - split.
    + constructor; [|constructor]. exists low, max. repeat split; auto; lia.
    + intros z Hz. exists low, max. split; [now left|easy].
  - inversion S; subst. inversion F; subst.
    destruct (IH e max) as [A B]; [easy|lia| |].
    { apply Forall_forall. intros x Hx. rewrite Forall_forall in H2, H4.
      specialize (H2 x Hx). specialize (H4 x Hx). cbn in *. lia. }
    split.
    + constructor.
      * exists low, (e - 1). repeat split; try lia. constructor; [lia|].
        eapply Forall_impl; [|exact H2]. cbn; intros; lia.
      * eapply Forall_impl; [|exact A]. intros c (lo & hi & -> & ? & ? & ?).
        exists lo, hi. repeat split; try lia. constructor; [lia|easy].
    + intros z Hz. destruct (Z_lt_le_dec z e).
      * exists low, (e - 1). split; [now left|lia].
      * destruct (B z) as (lo & hi & ? & ?); [lia|]. exists lo, hi. split; [now right|easy].
Qed.

(** Constructors of the rows of an integer column. *)
Definition int_ctor (c : ctor) : Prop := c = Wildcard \/ exists v, c = IntRange v (v + 1).

Lemma split_integer_spec min max others :
  min <= max -> Forall int_ctor others ->
  exists cs, split_integer (min, max) others = Some cs /\
    (forall c, In c cs -> exists lo hi, c = IntRange lo hi /\ min <= lo <= hi /\ hi <= max /\
       (forall v, In (IntRange v (v + 1)) others -> v = lo -> hi <= v + 1)) /\
    (forall z, min <= z <= max -> exists lo hi, In (IntRange lo hi) cs /\ lo <= z <= hi).
Proof.
  intros L F. unfold split_integer, split_int_range.
  set (o := map _ others).
  pose (g := fun c => match c with IntRange a b => (a, b) | _ => (0, 0) end).
  rewrite (traverse_some _ _ as_range g).
  2:{ intros x Hx. unfold o in Hx. apply in_map_iff in Hx as (c & <- & Hc).
      rewrite Forall_forall in F. destruct (F c Hc) as [->|[v ->]]; reflexivity. }
  eexists; split; [reflexivity|].
  set (edges := dedup _). set (es := filter _ edges).
  assert (Sd : StronglySorted Z.lt es) by (apply filter_sorted, dedup_sorted, sort_sorted).
  assert (Fe : Forall (fun e => min < e < max) es).
  { apply Forall_forall. intros x Hx. apply filter_In in Hx. lia. }
  destruct (cut_spec es min max Sd L Fe) as [A B]. split; [|exact B].
  intros c Hc. rewrite Forall_forall in A. destruct (A c Hc) as (lo & hi & -> & ? & ? & E).
  exists lo, hi. repeat split; try lia. intros v Hv ->.
  destruct (Z_lt_le_dec (lo + 1) max); [|lia].
  assert (Hes : In (lo + 1) es).
  { apply filter_In. split; [|lia]. apply dedup_in, sort_in, in_flat_map.
    exists (lo, lo + 1). split; [|cbn; auto]. apply in_map_iff.
    exists (IntRange lo (lo + 1)). split; [reflexivity|]. apply in_map_iff.
    exists (IntRange lo (lo + 1)). now split. }
  rewrite Forall_forall in E. specialize (E _ Hes). lia.
Qed.

(** ** Well-formed deconstructed patterns *)
Section Wf.
  Variable lit : Prop.
  Inductive wfp : cty -> dpat -> Prop :=
  | WF_wild t : wfp t (DPat Wildcard [] t)
  | WF_single t ts fs : (forall i, t <> CCopyView i) -> split_wildcard t [] = Some [Single] ->
      single_fields t = Some ts -> Forall2 wfp ts fs -> wfp t (DPat Single fs t)
  | WF_variant os i ts fs : nth_error os i = Some ts -> Forall2 wfp ts fs ->
      wfp (CEnum os) (DPat (Variant i) fs (CEnum os))
  | WF_bool b : wfp CBool (DPat (BoolC b) [] CBool)
  | WF_int t v : lit -> has_type t (VInt v) -> wfp t (DPat (IntRange v (v + 1)) [] t).
End Wf.

Definition stack_depth (ts : list cty) : nat := list_sum (map depth ts).

Lemma list_sum_app' a b : list_sum (a ++ b) = (list_sum a + list_sum b)%nat.
Proof. apply list_sum_app. Qed.
Lemma list_sum_cons' a l : list_sum (a :: l) = (a + list_sum l)%nat.
Proof. reflexivity. Qed.
Lemma list_sum_repeat (a n : nat) : list_sum (repeat a n) = (a * n)%nat.
Proof. induction n; cbn [repeat]; [cbn; lia|]. rewrite list_sum_cons', IHn. lia. Qed.

Lemma map_repeat A B (f : A -> B) a n : map f (repeat a n) = repeat (f a) n.
Proof. induction n; cbn; congruence. Qed.

(** The types below a constructor of a data type. *)
Definition ctor_of (t : cty) (c : ctor) : Prop :=
  match t, c with
  | (CTuple _ | CStruct _ | CArray _ _ | CBackward _), Single => True
  | CEnum os, Variant i => (i < length os)%nat
  | (CInt _ | CUint _), IntRange lo hi => lo <= hi
  | CBool, BoolC _ => True
  | CBool, Missing l => l <> [] /\ Forall (fun c => exists b, c = BoolC b) l
  | _, _ => False
  end.

Lemma fields_ok t c : data_type t -> ctor_of t c ->
  exists ts, fields c t = Some ts /\ Forall data_type ts /\ (stack_depth ts < depth t)%nat.
Proof.
  intros D C. unfold stack_depth.
  destruct D; destruct c; cbn in C; try easy; cbn [fields single_fields].
  - exists ts. repeat split; auto.
  - exists ts. repeat split; auto.
  - exists (repeat t n). repeat split.
    + apply Forall_forall. intros x Hx. now apply repeat_spec in Hx as ->.
    + rewrite map_repeat, list_sum_repeat. cbn. lia.
  - destruct (nth_error os i) as [ts|] eqn:E; [|apply nth_error_None in E; lia].
    exists ts. repeat split.
    + rewrite Forall_forall in H. apply H. now apply nth_error_In in E.
    + cbn [depth]. clear -E. enough (list_sum (map depth ts) <= list_sum (map (fun o => list_sum (map depth o)) os))%nat by lia.
      revert i E. induction os; intros [|i] E; try discriminate E; cbn [map nth_error] in *; rewrite list_sum_cons'.
      * injection E as ->. lia.
      * specialize (IHos _ E). lia.
  - exists []. repeat split; auto.
  - exists []. repeat split; auto.
  - exists []. repeat split; auto.
  - exists []. repeat split; auto.
  - exists []. repeat split; auto. cbn. lia.
Qed.

Section Main.
  (** [R]: the values a witness range stands for; [lit]: integer literals occur. *)
  Variable R : Z -> Z -> Z -> Prop.
  Variable lit : Prop.
  Hypothesis R_low : forall lo hi, lo <= hi -> R lo hi lo.
  Hypothesis R_lit : lit -> forall lo hi z, R lo hi z -> z = lo.

  Inductive dec (Q : Z -> Z -> Z -> Prop) : ctor -> val -> list val -> Prop :=
  | De_single vs : dec Q Single (VNode vs) vs
  | De_variant i vs : dec Q (Variant i) (VVariant i vs) vs
  | De_bool b : dec Q (BoolC b) (VBool b) []
  | De_range lo hi z : Q lo hi z -> dec Q (IntRange lo hi) (VInt z) []
  | De_missing l b : In (BoolC b) l -> dec Q (Missing l) (VBool b) [].

  Lemma bounds_int n : 2 ^ (Z.of_nat (S n) - 1) = 2 ^ Z.of_nat n.
  Proof. f_equal. lia. Qed.

  (** Heads of well-formed rows. *)
  Lemma wfp_int_head t p : (exists n, t = CInt n \/ t = CUint n) -> wfp lit t p -> int_ctor (dctor p).
  Proof.
    intros (n & [->| ->]) W; inversion W; subst; cbn; try (now left); try (right; eauto; fail).
    - destruct n; cbn in *; [discriminate|]. destruct (int_bounds (S n)); cbn in *.
      unfold split_int_range in *; cbn in *; discriminate.
    - destruct n; cbn in *; discriminate.
  Qed.

  Lemma split_ok t ps : data_type t -> Forall (wfp lit t) ps ->
    exists cs, split_wildcard t (map dctor ps) = Some cs /\ Forall (ctor_of t) cs /\
      (forall v, has_type t v -> exists c vs ts, In c cs /\ dec within c v vs /\
          fields c t = Some ts /\ Forall2 has_type ts vs) /\
      (forall c, In c cs -> forall p, In p ps ->
          exists b, is_covered_by c (dctor p) = Some b /\
           (b = false -> forall v vs, dec R c v vs -> ~ describes at_low p v)) /\
      (forall c, In c cs -> forall lo hi, c = IntRange lo hi -> has_type t (VInt lo)).
  Proof.
    intros D W.
    assert (IntCase : forall min max, min <= max -> (exists n, t = CInt n \/ t = CUint n) ->
      (forall z, has_type t (VInt z) <-> min <= z <= max) ->
      (forall v, has_type t v -> exists z, v = VInt z) ->
      (forall c, fields c t = match c with IntRange _ _ => Some [] | _ => fields c t end) ->
      exists cs, split_integer (min, max) (map dctor ps) = Some cs /\ Forall (ctor_of t) cs /\
      (forall v, has_type t v -> exists c vs ts, In c cs /\ dec within c v vs /\
          fields c t = Some ts /\ Forall2 has_type ts vs) /\
      (forall c, In c cs -> forall p, In p ps ->
          exists b, is_covered_by c (dctor p) = Some b /\
           (b = false -> forall v vs, dec R c v vs -> ~ describes at_low p v)) /\
      (forall c, In c cs -> forall lo hi, c = IntRange lo hi -> has_type t (VInt lo))).
    { intros min max L T HT HV HF.
      assert (FI : Forall int_ctor (map dctor ps)).
      { apply Forall_map. eapply Forall_impl; [|exact W]. intros p. now apply wfp_int_head. }
      destruct (split_integer_spec min max (map dctor ps) L FI) as (cs & E & A & B).
      exists cs. repeat split; auto.
      - apply Forall_forall. intros c Hc. destruct (A c Hc) as (lo & hi & -> & ? & ? & _).
        destruct T as (n & [->| ->]); cbn; lia.
      - intros v Hv. destruct (HV v Hv) as [z ->]. apply HT in Hv. destruct (B z Hv) as (lo & hi & I & ?).
        exists (IntRange lo hi), [], []. repeat split; auto. now constructor.
      - intros c Hc p Hp. destruct (A c Hc) as (lo & hi & -> & ? & ? & X).
        rewrite Forall_forall in FI. specialize (FI (dctor p) (in_map _ _ _ Hp)).
        destruct FI as [Q|[v Q]]; rewrite Q; cbn [is_covered_by].
        + exists true. split; [easy|discriminate].
        + eexists; split; [reflexivity|]. intros F w vs Dw De.
          destruct p as [pc fs pt]; cbn in Q; subst. inversion De; subst. inversion Dw; subst.
          match goal with H : at_low _ _ _ |- _ => red in H; subst end.
          assert (lit). { rewrite Forall_forall in W. specialize (W _ Hp). inversion W; subst; auto. }
          match goal with H : R _ _ _ |- _ => apply R_lit in H; [|assumption] end. subst.
          assert (hi <= lo + 1). { apply X; auto. apply in_map_iff. eexists. split; [|exact Hp]. reflexivity. }
          lia.
      - intros c Hc lo hi ->. destruct (A _ Hc) as (lo' & hi' & Q & ? & ? & X). injection Q as <- <-.
        apply HT. lia. }
    assert (Sing : split_wildcard t (map dctor ps) = Some [Single] ->
       (forall v, has_type t v -> exists vs ts, dec within Single v vs /\
          single_fields t = Some ts /\ Forall2 has_type ts vs) ->
       ctor_of t Single ->
       (forall p, In p ps -> dctor p = Single \/ dctor p = Wildcard) ->
       exists cs, split_wildcard t (map dctor ps) = Some cs /\ Forall (ctor_of t) cs /\
      (forall v, has_type t v -> exists c vs ts, In c cs /\ dec within c v vs /\
          fields c t = Some ts /\ Forall2 has_type ts vs) /\
      (forall c, In c cs -> forall p, In p ps ->
          exists b, is_covered_by c (dctor p) = Some b /\
           (b = false -> forall v vs, dec R c v vs -> ~ describes at_low p v)) /\
      (forall c, In c cs -> forall lo hi, c = IntRange lo hi -> has_type t (VInt lo))).
    { intros E V C P. exists [Single]. repeat split; auto.
      - intros v Hv. destruct (V v Hv) as (vs & ts & ? & ? & ?). exists Single, vs, ts. cbn; auto.
      - intros c [<-|[]] p Hp. exists true. split; [|discriminate].
        destruct (P p Hp) as [->| ->]; reflexivity.
      - intros c [<-|[]]; discriminate. }
    assert (SingP : ctor_of t Single -> forall p, In p ps -> dctor p = Single \/ dctor p = Wildcard).
    { intros C p Hp. rewrite Forall_forall in W. specialize (W p Hp).
      inversion W; subst; auto; try easy.
      inversion H0; subst; easy. }
    destruct D.
    - apply Sing; [reflexivity| |exact I|exact (SingP I)]. intros v Hv. inversion Hv; subst. eexists _, _. split; [constructor|]. split; [reflexivity|assumption].
    - apply Sing; [reflexivity| |exact I|exact (SingP I)]. intros v Hv. inversion Hv; subst. eexists _, _. split; [constructor|]. split; [reflexivity|assumption].
    - apply Sing; [reflexivity| |exact I|exact (SingP I)]. intros v Hv. inversion Hv; subst. eexists _, _. split; [constructor|]. split; [reflexivity|].
      clear -H3. induction H3; cbn; constructor; auto.
    - (* enum *)
      clear Sing SingP IntCase. eexists; split; [reflexivity|]. repeat split.
      + apply Forall_map, Forall_forall. intros i Hi. apply in_seq in Hi. cbn. lia.
      + intros v Hv. inversion Hv; subst. exists (Variant i), vs, ts. repeat split; auto; [|constructor].
        apply in_map, in_seq. split; [lia|]. apply nth_error_Some. congruence.
      + intros c Hc p Hp. apply in_map_iff in Hc as (i & <- & _).
        rewrite Forall_forall in W. specialize (W p Hp). inversion W; subst; cbn [dctor is_covered_by].
        * exists true. split; [easy|discriminate].
        * discriminate.
        * eexists; split; [reflexivity|]. intros F v vs Dv De.
          inversion De; subst. inversion Dv; subst. rewrite Nat.eqb_refl in F. discriminate.
        * inversion H1.
      + intros c Hc lo hi ->. apply in_map_iff in Hc as (i & ? & _). discriminate.
    - destruct n.
      + (* int<0> *)
        clear Sing SingP IntCase. eexists; split; [reflexivity|]. repeat split.
        * constructor; [cbn; lia|constructor].
        * intros v Hv. inversion Hv; subst. exists (IntRange 0 0), [], []. repeat split; auto; [now left|].
          constructor. red; lia.
        * intros c [<-|[]] p Hp. rewrite Forall_forall in W. specialize (W p Hp).
          destruct (wfp_int_head _ _ (ex_intro _ 0%nat (or_introl eq_refl)) W) as [Q|[v Q]]; rewrite Q; cbn [is_covered_by].
          -- exists true. split; [easy|discriminate].
          -- eexists; split; [reflexivity|]. intros F w vs Dw De.
             inversion W; subst; cbn in Q; try discriminate. injection Q as ->.
             inversion H0; subst. lia.
        * intros c [<-|[]] lo hi Q. injection Q as <- <-. constructor.
      + apply IntCase.
        * rewrite bounds_int. assert (0 < 2 ^ Z.of_nat n) by (apply Z.pow_pos_nonneg; lia). lia.
        * eauto.
        * intros z. rewrite bounds_int. split; [intros H; inversion H; subst; lia|constructor; lia].
        * intros v Hv. inversion Hv; subst; eauto.
        * intros []; reflexivity.
    - destruct n.
      + clear Sing SingP IntCase. eexists; split; [reflexivity|]. repeat split.
        * constructor; [cbn; lia|constructor].
        * intros v Hv. inversion Hv; subst. exists (IntRange 0 0), [], []. repeat split; auto; [now left|].
          constructor. red. cbn in *. lia.
        * intros c [<-|[]] p Hp. rewrite Forall_forall in W. specialize (W p Hp).
          destruct (wfp_int_head _ _ (ex_intro _ 0%nat (or_intror eq_refl)) W) as [Q|[v Q]]; rewrite Q; cbn [is_covered_by].
          -- exists true. split; [easy|discriminate].
          -- eexists; split; [reflexivity|]. intros F w vs Dw De.
             inversion W; subst; cbn in Q; try discriminate. injection Q as ->.
             inversion H0; subst. cbn in *. lia.
        * intros c [<-|[]] lo hi Q. injection Q as <- <-. constructor. cbn; lia.
      + apply IntCase.
        * assert (0 < 2 ^ Z.of_nat (S n)) by (apply Z.pow_pos_nonneg; lia). lia.
        * eauto.
        * intros z. split; [intros H; inversion H; subst; lia|constructor; lia].
        * intros v Hv. inversion Hv; subst; eauto.
        * intros []; reflexivity.
    - (* bool *)
      clear Sing SingP IntCase. cbn [split_wildcard].
      assert (HB : Forall (fun c => c = Wildcard \/ exists b, c = BoolC b) (map dctor ps)).
      { apply Forall_map. eapply Forall_impl; [|exact W]. intros p Hp. inversion Hp; subst; cbn; eauto.
        - discriminate.
        - inversion H0. }
      unfold group_missing_constructors.
      set (nw := filter _ _).
      assert (Hnw : Forall (fun c => exists b, c = BoolC b) nw).
      { apply Forall_forall. intros c Hc. apply filter_In in Hc as [Hc N].
        rewrite Forall_forall in HB. destruct (HB c Hc) as [->|?]; [discriminate|easy]. }
      assert (Any : forall b, any (is_covered_by (BoolC b)) nw =
                Some (existsb (fun c => match c with BoolC b' => Bool.eqb b b' | _ => false end) nw)).
      { intros b. clear -Hnw. induction Hnw as [|c l [b' ->] F IH]; [reflexivity|].
        cbn. destruct (Bool.eqb b b'); cbn; auto. }
      assert (ExB : forall b, existsb (fun c => match c with BoolC b' => Bool.eqb b b' | _ => false end) nw = true <-> In (BoolC b) nw).
      { intros b. rewrite existsb_exists. split.
        - intros (c & I & E). rewrite Forall_forall in Hnw. destruct (Hnw c I) as [b' ->].
          apply eqb_prop in E as ->. easy.
        - intros I. exists (BoolC b). split; [easy|]. apply eqb_reflx. }
      assert (Res : exists cs, 
         match filterM (fun c => option_map negb (any (is_covered_by c) nw)) [BoolC false; BoolC true] with
         | None => None
         | Some missing => Some (match missing with [] => [BoolC false; BoolC true] | _ => nw ++ [Missing missing] end)
         end = Some cs /\ Forall (ctor_of CBool) cs /\
         (forall b, exists c, In c cs /\ dec within c (VBool b) []) /\
         (forall l b, In (Missing l) cs -> In (BoolC b) l -> ~ In (BoolC b) nw)).
      { cbn [filterM]. rewrite !Any. cbn [option_map].
        pose proof (ExB false) as E0. pose proof (ExB true) as E1.
        destruct (existsb (fun c => match c with BoolC b' => Bool.eqb false b' | _ => false end) nw);
        destruct (existsb (fun c => match c with BoolC b' => Bool.eqb true b' | _ => false end) nw);
        cbn [negb]; eexists; (split; [reflexivity|]).
        - repeat split.
          + repeat constructor.
          + intros []; eexists; (split; [|constructor]); cbn; auto.
          + intros l b [|[|[]]]; discriminate.
        - assert (~ In (BoolC true) nw) by (intros ?; apply E1 in H; discriminate).
          repeat split.
          + apply Forall_app. split; [eapply Forall_impl; [|exact Hnw]; intros c [b ->]; easy|].
            constructor; [|constructor]. split; [easy|]. repeat constructor; eauto.
          + intros [].
            * exists (Missing [BoolC true]). split; [apply in_or_app; right; now left|]. constructor. now left.
            * exists (BoolC false). split; [apply in_or_app; left; now apply E0|]. constructor.
          + intros l b I J. apply in_app_or in I as [I|[I|[]]].
            * rewrite Forall_forall in Hnw. destruct (Hnw _ I). discriminate.
            * injection I as <-. destruct J as [[= <-]|[]]. easy.
        - assert (~ In (BoolC false) nw) by (intros ?; apply E0 in H; discriminate).
          repeat split.
          + apply Forall_app. split; [eapply Forall_impl; [|exact Hnw]; intros c [b ->]; easy|].
            constructor; [|constructor]. split; [easy|]. repeat constructor; eauto.
          + intros [].
            * exists (BoolC true). split; [apply in_or_app; left; now apply E1|]. constructor.
            * exists (Missing [BoolC false]). split; [apply in_or_app; right; now left|]. constructor. now left.
          + intros l b I J. apply in_app_or in I as [I|[I|[]]].
            * rewrite Forall_forall in Hnw. destruct (Hnw _ I). discriminate.
            * injection I as <-. destruct J as [[= <-]|[]]. easy.
        - assert (~ In (BoolC false) nw) by (intros ?; apply E0 in H; discriminate).
          assert (~ In (BoolC true) nw) by (intros ?; apply E1 in H0; discriminate).
          repeat split.
          + apply Forall_app. split; [eapply Forall_impl; [|exact Hnw]; intros c [b ->]; easy|].
            constructor; [|constructor]. split; [easy|]. repeat constructor; eauto.
          + intros b. exists (Missing [BoolC false; BoolC true]).
            split; [apply in_or_app; right; now left|]. constructor. destruct b; cbn; auto.
          + intros l b I J. apply in_app_or in I as [I|[I|[]]].
            * rewrite Forall_forall in Hnw. destruct (Hnw _ I). discriminate.
            * injection I as <-. destruct J as [[= <-]|[[= <-]|[]]]; easy. }
      destruct Res as (cs & E & C & Cov & Mis). exists cs. repeat split; auto.
      + intros v Hv. inversion Hv; subst. destruct (Cov b) as (c & I & Dc).
        exists c, [], []. repeat split; auto. inversion Dc; subst; reflexivity.
      + intros c Hc p Hp. rewrite Forall_forall in W, C. specialize (W p Hp). specialize (C c Hc).
        destruct (is_wildcard (dctor p)) eqn:Wd.
        { destruct p as [pc]; cbn in *; destruct pc; try discriminate. exists true. split; [|discriminate].
          destruct c; reflexivity. }
        inversion W; subst; cbn in Wd; try discriminate; [|inversion H0].
        destruct c; cbn in C; try easy; cbn [dctor is_covered_by].
        * eexists; split; [reflexivity|]. intros F v vs Dv De. inversion De; subst. inversion Dv; subst.
          rewrite eqb_reflx in F. discriminate.
        * exists false. split; [reflexivity|]. intros _ v vs Dv De. inversion De; subst. inversion Dv; subst.
          eapply Mis; [exact Hc|eassumption|]. apply filter_In. split; [|easy].
          change (BoolC b) with (dctor (DPat (BoolC b) [] CBool)). now apply in_map.
      + intros c Hc lo hi ->. rewrite Forall_forall in C. specialize (C _ Hc). easy.
    - apply Sing; [reflexivity| |exact I|exact (SingP I)]. intros v Hv. inversion Hv; subst.
      eexists _, _. split; [constructor|]. split; [reflexivity|constructor].
  Qed.

  (** Popping the head of a row. *)
  Lemma wild_wf ts : Forall2 (wfp lit) ts (map wildcard ts).
  Proof. induction ts; cbn; constructor; auto. constructor. Qed.

  Lemma specialize_ok t c ts p : data_type t -> ctor_of t c -> fields c t = Some ts -> wfp lit t p ->
    is_covered_by c (dctor p) = Some true ->
    exists fs, specialize p c = Some fs /\ Forall2 (wfp lit) ts fs /\
      (forall v vs, dec within c v vs -> Forall2 (describes within) fs vs -> describes within p v) /\
      (forall v vs, dec R c v vs -> length vs = length ts -> describes at_low p v -> Forall2 (describes at_low) fs vs).
  Proof.
    intros D C F W Cov.
    assert (Wild : p = DPat Wildcard [] t -> exists fs, specialize p c = Some fs /\ Forall2 (wfp lit) ts fs /\
      (forall v vs, dec within c v vs -> Forall2 (describes within) fs vs -> describes within p v) /\
      (forall v vs, dec R c v vs -> length vs = length ts -> describes at_low p v -> Forall2 (describes at_low) fs vs)).
    { intros ->. cbn [specialize]. rewrite F. cbn [option_map]. eexists; split; [reflexivity|].
      split; [apply wild_wf|]. split; [intros; constructor|].
      intros v vs _ L _. clear -L. revert vs L. induction ts; destruct vs; cbn; intros; try lia; constructor; auto.
      constructor. }
    inversion W; subst; [auto| | | |]; clear Wild; cbn [dctor] in Cov; cbn [specialize];
      (eexists; split; [reflexivity|]).
    - (* Single *)
      assert (c = Single).
      { destruct c; cbn in Cov; try discriminate; auto. }
      subst. cbn in F. rewrite F in H1. injection H1 as ->. repeat split; auto.
      + intros v vs Dv Fv. inversion Dv; subst. now constructor.
      + intros v vs Dv _ De. inversion Dv; subst. inversion De; subst. easy.
    - destruct c; cbn in Cov; try discriminate. injection Cov as E. apply Nat.eqb_eq in E as ->.
      cbn in F. rewrite F in H. injection H as ->. repeat split; auto.
      + intros v vs Dv Fv. inversion Dv; subst. now constructor.
      + intros v vs Dv _ De. inversion Dv; subst. inversion De; subst. easy.
    - destruct c; cbn in Cov; try discriminate. injection Cov as E. apply eqb_prop in E as ->.
      cbn in F. injection F as <-. repeat split; auto.
      + intros v vs Dv Fv. inversion Dv; subst. now constructor.
      + intros v vs Dv L De. destruct vs; [constructor|discriminate].
    - destruct c; cbn in Cov; try discriminate. injection Cov as E.
      cbn in F. injection F as <-. repeat split; auto.
      + intros v0 vs Dv Fv. inversion Dv; subst. constructor.
        match goal with H : within _ _ _ |- _ => red in H |- * end. lia.
      + intros v0 vs Dv L De. destruct vs; [constructor|discriminate].
  Qed.

  Lemma matrix_ok t c ts ts' : data_type t -> ctor_of t c -> fields c t = Some ts -> forall rows,
    Forall (Forall2 (wfp lit) (t :: ts')) rows ->
    (forall h tl, In (h :: tl) rows -> exists b, is_covered_by c (dctor h) = Some b) ->
    exists m, specialize_matrix rows c = Some m /\ Forall (Forall2 (wfp lit) (ts ++ ts')) m /\
      (forall v vs rest, dec within c v vs -> length vs = length ts ->
         Exists (fun r => Forall2 (describes within) r (vs ++ rest)) m ->
         Exists (fun r => Forall2 (describes within) r (v :: rest)) rows) /\
      (forall v vs rest h tl, In (h :: tl) rows -> is_covered_by c (dctor h) = Some true ->
         dec R c v vs -> length vs = length ts ->
         Forall2 (describes at_low) (h :: tl) (v :: rest) ->
         exists r, In r m /\ Forall2 (describes at_low) r (vs ++ rest)).
  Proof.
    intros D C F rows. induction rows as [|row rows IH]; intros W Cov; cbn [specialize_matrix].
    - exists []. repeat split; auto.
      + intros v vs rest _ _ X. inversion X.
      + intros v vs rest h tl [].
    - inversion W as [|? ? Wr Wrs]; subst. inversion Wr as [|? h ? tl Wh Wt]; subst.
      destruct IH as (m & E & Wm & S & K); [easy|intros; eapply Cov; right; eassumption|].
      destruct (Cov h tl) as [b Hb]; [now left|]. rewrite Hb, E. destruct b.
      + destruct (specialize_ok t c ts h D C F Wh Hb) as (fs & Es & Wf & Sf & Kf).
        cbn [pop_head option_map]. rewrite Es. cbn [option_map]. eexists; split; [reflexivity|].
        split; [constructor; [now apply Forall2_app|easy]|].
        assert (Lf : length fs = length ts) by (symmetry; eapply Forall2_length'; eassumption).
        split.
        * intros v vs rest Dv L X. inversion X as [? ? X'|? ? X']; subst.
          -- apply Forall2_app_inv_len in X' as [A B]; [|lia]. left. constructor; eauto.
          -- right. eapply S; eauto.
        * intros v vs rest h0 tl0 [Q|Q] Cv Dv L De.
          -- injection Q as <- <-. inversion De; subst. exists (fs ++ tl). split; [now left|].
             apply Forall2_app; eauto.
          -- destruct (K v vs rest h0 tl0) as (r & I & ?); auto. exists r. split; [now right|easy].
      + eexists; split; [reflexivity|]. split; [easy|]. split.
        * intros v vs rest Dv L X. right. eapply S; eauto.
        * intros v vs rest h0 tl0 [Q|Q] Cv Dv L De.
          -- injection Q as <- <-. congruence.
          -- eapply K; eauto.
  Qed.

  Lemma build_val t c ts vs : data_type t -> ctor_of t c -> (forall l, c <> Missing l) ->
    fields c t = Some ts -> Forall2 has_type ts vs ->
    (forall lo hi, c = IntRange lo hi -> has_type t (VInt lo)) ->
    exists v, has_type t v /\ forall fs, Forall2 (describes R) fs vs -> describes R (DPat c fs t) v.
  Proof.
    intros D C M F V I. destruct c.
    - exists (VNode vs). split; [|intros; now constructor].
      destruct D; cbn in C; try easy; cbn in F; injection F as <-; try now constructor.
      + constructor.
        * apply Forall2_length' in V. rewrite repeat_length in V. easy.
        * clear -V. revert vs V. induction n; intros vs V; inversion V; subst; constructor; auto.
      + inversion V; subst. constructor.
    - exists (VBool b). destruct D; cbn in C; try easy. split; [constructor|intros; constructor].
    - exists (VVariant i vs). destruct D; cbn in C; try easy. split; [|intros; now constructor].
      econstructor; eauto.
    - exists (VInt min). split; [eauto|]. intros fs _. constructor. apply R_low.
      destruct D; cbn in C; easy.
    - now destruct (M all_missing).
    - destruct D; cbn in C; easy.
  Qed.

  Lemma describes_dec t c fs v : describes R (DPat c fs t) v -> c <> Wildcard -> 
    (length fs = 0%nat \/ c = Single \/ exists i, c = Variant i) ->
    exists vs, dec R c v vs /\ Forall2 (describes R) fs vs.
  Proof.
    intros H W L. inversion H; subst; try easy.
    - exists vs. split; [constructor|easy].
    - destruct fs; [|destruct L as [?|[?|[? ?]]]; discriminate]. exists []. split; constructor.
    - exists vs. split; [constructor|easy].
    - destruct fs; [|destruct L as [?|[?|[? ?]]]; discriminate]. exists []. split; constructor. easy.
  Qed.

  (** [apply_constructor] on a witness stack of the right length. *)
  Lemma apply_ok w c t ts k : fields c t = Some ts -> length w = (length ts + k)%nat ->
    exists w' fs tl, apply_constructor w c t = Some w' /\ length w' = S k /\
      rev w = fs ++ tl /\ length fs = length ts /\ rev w' = DPat c fs t :: tl.
  Proof.
    intros F L. unfold apply_constructor. rewrite F.
    destruct (Nat.ltb_spec (length w) (length ts)); [lia|].
    eexists _, (rev (skipn (length w - length ts) w)), (rev (firstn (length w - length ts) w)).
    split; [reflexivity|].
    repeat split.
    - rewrite app_length, firstn_length. cbn. lia.
    - rewrite <- rev_app_distr, firstn_skipn. easy.
    - rewrite rev_length, skipn_length. lia.
    - rewrite rev_app_distr. reflexivity.
  Qed.

  Definition good_witness (ts : list cty) (rows : list (list dpat)) (w : list dpat) : Prop :=
    length w = length ts /\
    (exists vs, Forall2 has_type ts vs /\ Forall2 (describes R) (rev w) vs) /\
    (forall vs, Forall2 (describes R) (rev w) vs -> forall row, In row rows ->
       ~ Forall2 (describes at_low) row vs).

  Theorem useful_spec fuel : forall ts rows,
    Forall data_type ts -> Forall (Forall2 (wfp lit) ts) rows -> (stack_depth ts < fuel)%nat ->
    exists ws, useful fuel (map wildcard ts) rows = Some ws /\
      (ws = [] -> forall vs, Forall2 has_type ts vs ->
         Exists (fun row => Forall2 (describes within) row vs) rows) /\
      (forall w, In w ws -> good_witness ts rows w).
  Proof.
    induction fuel as [|fuel IH]; intros ts rows D W Dep; [lia|].
    destruct ts as [|t ts]; cbn [useful map].
    - eexists; split; [reflexivity|]. destruct rows as [|r rows].
      + split; [discriminate|]. intros w [<-|[]]. split; [easy|]. split.
        * exists []. split; constructor.
        * intros vs _ row [].
      + split; [|intros w []]. intros _ vs V. inversion V; subst. left.
        inversion W; subst. inversion H1; subst. constructor.
    - inversion D as [|? ? Dt Dts]; subst.
      (* heads *)
      set (hds := map (fun r => hd (wildcard t) r) rows).
      assert (Eh : traverse (fun r : list dpat => match r with [] => None | p :: _ => Some (dctor p) end) rows
                   = Some (map dctor hds)).
      { unfold hds. rewrite map_map. apply traverse_some. intros r Hr. rewrite Forall_forall in W.
        specialize (W r Hr). inversion W; subst. reflexivity. }
      assert (Wh : Forall (wfp lit t) hds).
      { apply Forall_map. eapply Forall_impl; [|exact W]. intros r Hr. inversion Hr; subst. easy. }
      rewrite Eh. cbn [wildcard dctor dty split]. fold (wildcard t).
      destruct (split_ok t hds Dt Wh) as (cs & Ec & Cc & Cover & Cov & Lo). rewrite Ec.
      assert (Each : forall c, In c cs -> exists ws,
         match pop_head (wildcard t :: map wildcard ts) c, specialize_matrix rows c with
         | Some p', Some m' => match useful fuel p' m' with
                               | Some ws => apply_constructor_all ws c t
                               | None => None end
         | _, _ => None end = Some ws /\
         (ws = [] -> forall v vs tsc rest, fields c t = Some tsc -> dec within c v vs ->
            Forall2 has_type tsc vs -> Forall2 has_type ts rest ->
            Exists (fun row => Forall2 (describes within) row (v :: rest)) rows) /\
         (forall w, In w ws -> good_witness (t :: ts) rows w)).
      { intros c Hc. rewrite Forall_forall in Cc. pose proof (Cc c Hc) as Cok.
        destruct (fields_ok t c Dt Cok) as (tsc & Fc & Dc & Dd).
        assert (Cov' : forall h tl, In (h :: tl) rows -> exists b, is_covered_by c (dctor h) = Some b).
        { intros h tl I. destruct (Cov c Hc h) as (b & ? & _); eauto.
          unfold hds. apply in_map_iff. now exists (h :: tl). }
        destruct (matrix_ok t c tsc ts Dt Cok Fc rows W Cov') as (m & Em & Wm & Sm & Km).
        cbn [pop_head wildcard specialize]. rewrite Fc. cbn [option_map]. rewrite <- map_app, Em.
        destruct (IH (tsc ++ ts) m) as (ws & Ew & Sw & Kw); [now apply Forall_app|easy| |].
        { unfold stack_depth in *. cbn [map] in Dep. rewrite list_sum_cons' in Dep.
          rewrite map_app, list_sum_app'. lia. }
        rewrite Ew.
        assert (Good : forall w, In w ws -> forall c', (forall l, c' <> Missing l) -> ctor_of t c' ->
           fields c' t = Some tsc -> (forall lo hi, c' = IntRange lo hi -> has_type t (VInt lo)) ->
           (forall v vs, dec R c' v vs -> dec R c v vs) ->
           exists w', apply_constructor w c' t = Some w' /\ good_witness (t :: ts) rows w').
        { intros w Hw c' NM Ck' F' L' De'. destruct (Kw w Hw) as (Lw & (vs & Vt & Vd) & Nw).
          rewrite app_length in Lw.
          destruct (apply_ok w c' t tsc (length ts) F' Lw) as (w' & fs & tl & Ea & La & Er & Lf & Er').
          exists w'. split; [easy|]. split; [easy|]. split.
          - rewrite Er'. apply Forall2_app_inv_l in Vt as (vs1 & vs2 & V1 & V2 & ->).
            rewrite Er in Vd. apply Forall2_app_inv_len in Vd as [Vd1 Vd2];
              [|rewrite Lf; eapply Forall2_length'; exact V1].
            destruct (build_val t c' tsc vs1 Dt Ck' NM F' V1 L') as (v & Hv & Hd).
            exists (v :: vs2). split; constructor; auto.
          - rewrite Er'. intros us Us row Hr Hm.
            inversion Us as [|? v ? rest Uv Ur]; subst.
            assert (NW : c' <> Wildcard) by (intros ->; destruct Dt; cbn in Ck'; easy).
            destruct (describes_dec t c' fs v Uv NW) as (us1 & D1 & D2).
            { destruct c'; try easy; eauto; left; rewrite Lf; cbn in F'; injection F' as <-; reflexivity. }
            assert (Lu : length us1 = length tsc) by (rewrite <- Lf; symmetry; eapply Forall2_length'; exact D2).
            inversion Hm as [|h ? tl' ? Hh Ht]; subst.
            destruct (Cov c Hc h) as (b & Hb & Nb).
            { unfold hds. apply in_map_iff. now exists (h :: tl'). }
            destruct b; [|now apply (Nb eq_refl v us1 (De' _ _ D1))].
            destruct (Km v us1 rest h tl' Hr Hb (De' _ _ D1) Lu Hm) as (r & Ir & Hrm).
            apply (Nw (us1 ++ rest)) with (row := r); auto. rewrite Er. apply Forall2_app; auto. }
        assert (Snil : ws = [] -> forall v vs tsc' rest, fields c t = Some tsc' -> dec within c v vs ->
            Forall2 has_type tsc' vs -> Forall2 has_type ts rest ->
            Exists (fun row => Forall2 (describes within) row (v :: rest)) rows).
        { intros -> v vs tsc' rest F' Dv V1 V2. rewrite Fc in F'. injection F' as <-.
          eapply Sm; [exact Dv|symmetry; eapply Forall2_length'; exact V1|].
          apply Sw; [easy|]. apply Forall2_app; auto. }
        destruct ws as [|w0 ws0].
        { exists []. split; [reflexivity|]. split; [|intros w []]. intros _ v vs tsc' rest Q1 Q2 Q3 Q4. rewrite <- Fc in Q1. exact (Snil eq_refl v vs tsc' rest Q1 Q2 Q3 Q4). }
        unfold apply_constructor_all.
        destruct (match c with Missing l => Some l | _ => None end) as [all|] eqn:Miss.
        - destruct c; try discriminate. injection Miss as ->.
          assert (Hall : t = CBool /\ all <> [] /\ Forall (fun c => exists b, c = BoolC b) all).
          { destruct Dt; cbn in Cok; easy. }
          destruct Hall as (-> & Hne & Hall). cbn in Fc. injection Fc as <-.
          assert (Each2 : forall w, In w (w0 :: ws0) -> exists l,
             traverse (fun c' => apply_constructor w c' CBool) all = Some l /\ l <> [] /\
             forall x, In x l -> good_witness (CBool :: ts) rows x).
          { intros w Hw. destruct (traverse_exists _ _ (fun c' => apply_constructor w c' CBool) all) as (l & El & Fl).
            { intros c' Hc'. rewrite Forall_forall in Hall. destruct (Hall c' Hc') as [b ->].
              destruct (Good w Hw (BoolC b)) as (w' & ? & _); eauto; try easy.
              intros v vs Hd. inversion Hd; subst. now constructor. }
            exists l. split; [easy|]. split.
            - intros ->. inversion Fl; subst. easy.
            - intros x Hx. destruct (Forall2_in_r _ _ _ _ _ _ Fl Hx) as (c' & Hc' & E').
              rewrite Forall_forall in Hall. destruct (Hall c' Hc') as [b ->].
              destruct (Good w Hw (BoolC b)) as (w' & E2 & G); eauto; try easy.
              + intros v vs Hd. inversion Hd; subst. now constructor.
              + rewrite E' in E2. injection E2 as ->. easy. }
          destruct (traverse_exists _ _ (fun w => traverse (fun c' => apply_constructor w c' CBool) all) (w0 :: ws0)) as (ll & El & Fl).
          { intros w Hw. destruct (Each2 w Hw) as (l & ? & _). eauto. }
          cbn beta iota. rewrite El. cbn [option_map]. eexists; split; [reflexivity|]. split.
          + intros E. exfalso. inversion Fl as [|? l ? ll' E1 F1]; subst.
            destruct (Each2 w0 (or_introl eq_refl)) as (l' & E2 & N & _).
            rewrite E1 in E2. injection E2 as ->. cbn in E. apply app_eq_nil in E as [-> _]. easy.
          + intros w Hw. apply in_concat_inv in Hw as (l & Hl & Hwl).
            destruct (Forall2_in_r _ _ _ _ _ _ Fl Hl) as (w1 & Hw1 & E1).
            destruct (Each2 w1 Hw1) as (l' & E2 & _ & G). rewrite E1 in E2. injection E2 as ->. auto.
        - assert (Good2 : forall w, In w (w0 :: ws0) -> exists w', apply_constructor w c t = Some w' /\ good_witness (t :: ts) rows w').
          { intros w Hw. apply (Good w Hw c); eauto.
            - intros l ->. discriminate. }
          set (f := fun w => option_map (fun w' => [w']) (apply_constructor w c t)).
          replace (traverse _ (w0 :: ws0)) with (traverse f (w0 :: ws0)).
          2:{ unfold f. destruct c; try reflexivity. discriminate. }
          destruct (traverse_exists _ _ f (w0 :: ws0)) as (ll & El & Fl).
          { intros w Hw. destruct (Good2 w Hw) as (w' & E & _). unfold f. rewrite E. cbn. eauto. }
          rewrite El. cbn [option_map]. eexists; split; [reflexivity|]. split.
          + intros E. exfalso. inversion Fl as [|? l ? ll' E1 F1]; subst. unfold f in E1.
            destruct (apply_constructor w0 c t); [|discriminate]. injection E1 as <-. discriminate.
          + intros w Hw. apply in_concat_inv in Hw as (l & Hl & Hwl).
            destruct (Forall2_in_r _ _ _ _ _ _ Fl Hl) as (w1 & Hw1 & E1).
            destruct (Good2 w1 Hw1) as (w' & E2 & G). unfold f in E1. rewrite E2 in E1. injection E1 as <-.
            destruct Hwl as [<-|[]]. easy. }
      match goal with |- context [traverse ?g cs] => destruct (traverse_exists _ _ g cs) as (ll & El & Fl) end.
      { intros c Hc. destruct (Each c Hc) as (ws & E & _). exists ws. exact E. }
      rewrite El. cbn [option_map]. eexists; split; [reflexivity|]. split.
      + intros E vs V. inversion V as [|? v ? rest Hv Hrest]; subst.
        destruct (Cover v Hv) as (c & vsc & tsc & Hc & Dc & Fc & Tc).
        destruct (Each c Hc) as (ws & Ew & Sw & _).
        destruct (Forall2_in_l _ _ _ _ _ _ Fl Hc) as (ws' & Hws' & Ew').
        assert (ws' = ws) as -> by (rewrite Ew' in Ew; now injection Ew).
        eapply Sw; eauto.
        destruct ws as [|w ws]; [easy|]. exfalso.
        assert (In w (concat ll)) by (apply in_concat; exists (w :: ws); split; [easy|now left]).
        rewrite E in H. easy.
      + intros w Hw. apply in_concat_inv in Hw as (l & Hl & Hwl).
        destruct (Forall2_in_r _ _ _ _ _ _ Fl Hl) as (c & Hc & Ew').
        destruct (Each c Hc) as (ws & Ew & _ & G). rewrite Ew' in Ew. injection Ew as ->. auto.
  Qed.
End Main.

(** ** From source patterns *)
Section HpatInd.
  Variable P : hpat -> Prop.
  Hypothesis Hint : forall v, P (PInt v).
  Hypothesis Hbool : forall b, P (PBool b).
  Hypothesis Hname : forall x, P (PBound x None).
  Hypothesis Hat : forall x p, P p -> P (PBound x (Some p)).
  Hypothesis Htuple : forall l, Forall P l -> P (PTuple l).
  Hypothesis Harray : forall l, Forall P l -> P (PArray l).
  Hypothesis Hstruct : forall l, Forall P l -> P (PStruct l).
  Hypothesis Hvariant : forall i l, Forall P l -> P (PVariant i l).
  Fixpoint hpat_ind' (p : hpat) : P p :=
    let go := fix go (l : list hpat) : Forall P l :=
      match l with [] => Forall_nil P | x :: r => Forall_cons x (hpat_ind' x) (go r) end in
    match p with
    | PInt v => Hint v
    | PBool b => Hbool b
    | PBound x None => Hname x
    | PBound x (Some p) => Hat x p (hpat_ind' p)
    | PTuple l => Htuple l (go l)
    | PArray l => Harray l (go l)
    | PStruct l => Hstruct l (go l)
    | PVariant i l => Hvariant i l (go l)
    end.
End HpatInd.

Fixpoint from_hir_list (ts : list cty) (l : list hpat) : list dpat :=
  match l with
  | [] => []
  | x :: r => from_hir (hd CError ts) x :: from_hir_list (tl ts) r
  end.
Lemma from_hir_go l : forall ts,
  (fix go (ts : list cty) (l : list hpat) : list dpat :=
            match l with
            | [] => []
            | x :: r => from_hir (hd CError ts) x :: go (tl ts) r
            end) ts l = from_hir_list ts l.
Proof. induction l; intros; cbn; [easy|]. now rewrite IHl. Qed.

Lemma from_hir_list_describes Q l (Hl : Forall (fun p => forall ty v,
    describes Q (from_hir ty p) v <-> matches_with (fun n z => Q n (n + 1) z) p v) l) :
  forall ts vs, Forall2 (describes Q) (from_hir_list ts l) vs <->
    Forall2 (matches_with (fun n z => Q n (n + 1) z)) l vs.
Proof.
  induction Hl; intros ts vs; cbn; (split; intros H'; inversion H'; subst; constructor).
  - now apply H in H2.
  - now apply IHHl in H4.
  - now apply H.
  - now apply IHHl.
Qed.

Lemma from_hir_describes Q p : forall ty v,
  describes Q (from_hir ty p) v <-> matches_with (fun n z => Q n (n + 1) z) p v.
Proof.
  induction p using hpat_ind'; intros ty v0; cbn [from_hir];
    try rewrite from_hir_go;
    try (split; intros H'; inversion H'; subst; constructor; auto; eapply from_hir_list_describes; eauto; fail).
  rewrite IHp. split; [now constructor|]. intros H; inversion H; subst. easy.
Qed.

Lemma from_hir_list_wf lit l (Hl : Forall (fun p => forall ty, pat_type ty p -> (lit \/ literal_free p) -> wfp lit ty (from_hir ty p)) l) :
  forall ts, Forall2 pat_type ts l -> (lit \/ Forall literal_free l) -> Forall2 (wfp lit) ts (from_hir_list ts l).
Proof.
  induction Hl; intros ts F L; inversion F; subst; cbn; constructor.
  - apply H; auto. destruct L as [|L]; auto. inversion L; auto.
  - apply IHHl; auto. destruct L as [|L]; auto. inversion L; auto.
Qed.

Lemma from_hir_wf lit p : forall ty, pat_type ty p -> (lit \/ literal_free p) -> wfp lit ty (from_hir ty p).
Proof.
  induction p using hpat_ind'; intros ty T L; cbn [from_hir]; try rewrite from_hir_go; inversion T; subst;
    try (econstructor; cbn; eauto; fail).
  - constructor; auto. destruct L as [|L]; [easy|inversion L].
  - apply IHp; auto. destruct L as [|L]; auto. inversion L; auto.
  - econstructor; try reflexivity; [easy|]. cbn. apply from_hir_list_wf; auto. destruct L as [|L]; auto. inversion L; auto.
  - econstructor; try reflexivity; [easy|]. cbn. apply from_hir_list_wf; auto.
    + clear -H3. induction H3; cbn; constructor; auto.
    + destruct L as [|L]; auto. inversion L; auto.
  - econstructor; try reflexivity; [easy|]. cbn. apply from_hir_list_wf; auto. destruct L as [|L]; auto. inversion L; auto.
  - econstructor; eauto. cbn. match goal with H : nth_error _ _ = Some _ |- _ => rewrite H end. apply from_hir_list_wf; auto. destruct L as [|L]; auto. inversion L; auto.
Qed.

Lemma matches_with_iff (k k' : Z -> Z -> Prop) p : (forall n z, k n z -> k' n z) -> forall v, matches_with k p v -> matches_with k' p v.
Proof.
  intros K. induction p using hpat_ind'; intros v0 M; inversion M; subst; constructor; auto.
  all: match goal with H : Forall2 _ _ _ |- _ => revert H end;
       match goal with H : Forall _ _ |- _ => revert H end; clear;
       intros H; revert vs; induction H; intros vs F; inversion F; subst; constructor; auto.
Qed.

(** ** The verdict on a match *)
Lemma match_spec (R : Z -> Z -> Z -> Prop) (lit : Prop) ty arms :
  (forall lo hi, lo <= hi -> R lo hi lo) -> (lit -> forall lo hi z, R lo hi z -> z = lo) ->
  data_type ty -> (forall p, In (p, false) arms -> pat_type ty p /\ (lit \/ literal_free p)) ->
  exists ws, match_witnesses ty arms = Some ws /\
    (ws = [] -> forall v, has_type ty v -> exists p, In (p, false) arms /\
        matches_with (fun n z => n <= z <= n + 1) p v) /\
    (forall w, In w ws -> exists p, w = [p] /\
       (exists v, has_type ty v /\ describes R p v) /\
       (forall v, describes R p v -> forall q, In (q, false) arms -> ~ matches q v)).
Proof.
  intros R1 R2 D T.
  set (rows := map (fun a => [from_hir ty (fst a)]) (filter (fun a => negb (snd a)) arms)).
  assert (Rows : forall row, In row rows -> exists p, row = [from_hir ty p] /\ In (p, false) arms).
  { intros row Hr. unfold rows in Hr. apply in_map_iff in Hr as ([p g] & <- & Hp).
    apply filter_In in Hp as [Hp Hg]. destruct g; [discriminate|]. exists p. auto. }
  assert (Rows' : forall p, In (p, false) arms -> In [from_hir ty p] rows).
  { intros p Hp. apply in_map_iff. exists (p, false). split; [easy|]. apply filter_In. auto. }
  assert (W : Forall (Forall2 (wfp lit) [ty]) rows).
  { apply Forall_forall. intros row Hr. destruct (Rows row Hr) as (p & -> & Hp).
    destruct (T p Hp). constructor; [|constructor]. now apply from_hir_wf. }
  destruct (useful_spec R lit R1 R2 (S (depth ty)) [ty] rows) as (ws & E & S & K); auto.
  { unfold stack_depth. cbn. lia. }
  exists ws. split; [exact E|]. split.
  - intros Q v Hv. specialize (S Q [v]). rewrite Exists_exists in S. destruct S as (row & Hr & M); auto.
    destruct (Rows row Hr) as (p & -> & Hp). exists p. split; [easy|].
    inversion M; subst. now apply from_hir_describes in H2.
  - intros w Hw. destruct (K w Hw) as (L & (vs & V & M) & N).
    destruct w as [|p [|]]; try discriminate. exists p. split; [easy|].
    inversion V as [|? v ? ? Hv V']; subst. inversion V'; subst. inversion M; subst.
    split; [eauto|]. intros v' Hd q Hq Mq.
    apply (N [v']) with (row := [from_hir ty q]); auto.
    + constructor; auto.
    + constructor; [|constructor]. apply from_hir_describes.
      unfold matches in Mq. eapply matches_with_iff; [|exact Mq]. intros; red; auto.
Qed.

(** An accepted match without integer literals covers every value. *)
Theorem exhaustive_literal_free ty arms :
  data_type ty -> (forall p, In (p, false) arms -> pat_type ty p /\ literal_free p) ->
  match_witnesses ty arms = Some [] ->
  forall v, has_type ty v -> exists p, In (p, false) arms /\ matches p v.
Proof.
  intros D T E v Hv.
  destruct (match_spec within False ty arms) as (ws & E' & S & _); auto.
  - intros; red; lia.
  - easy.
  - intros p Hp. destruct (T p Hp). auto.
  - rewrite E in E'. injection E' as <-. destruct (S eq_refl v Hv) as (p & Hp & M).
    exists p. split; [easy|]. destruct (T p Hp) as [_ L]. clear -L M.
    unfold matches. revert v L M. induction p using hpat_ind'; intros v' L M; inversion L; subst; inversion M; subst; constructor; auto.
    all: match goal with H : Forall2 _ _ _ |- _ => revert H end;
       match goal with H : Forall literal_free _ |- _ => revert H end;
       match goal with H : Forall _ _ |- _ => revert H end; clear;
       intros H; revert vs; induction H; intros vs L F; inversion F; subst; inversion L; subst; constructor; auto.
Qed.

(** An accepted match covers every value if each literal is read as itself or its
    successor. *)
Theorem exhaustive_up_to_one ty arms :
  data_type ty -> (forall p, In (p, false) arms -> pat_type ty p) ->
  match_witnesses ty arms = Some [] ->
  forall v, has_type ty v -> exists p, In (p, false) arms /\
     matches_with (fun n z => n <= z <= n + 1) p v.
Proof.
  intros D T E v Hv.
  destruct (match_spec at_low True ty arms) as (ws & E' & S & _); auto.
  - intros; reflexivity.
  - rewrite E in E'. injection E' as <-. auto.
Qed.

(** A match that covers every value is accepted. *)
Theorem covering_accepted ty arms :
  data_type ty -> (forall p, In (p, false) arms -> pat_type ty p) ->
  (forall v, has_type ty v -> exists p, In (p, false) arms /\ matches p v) ->
  match_witnesses ty arms = Some [].
Proof.
  intros D T C.
  destruct (match_spec at_low True ty arms) as (ws & E & _ & K); auto.
  - intros; reflexivity.
  - rewrite E. destruct ws as [|w ws]; [easy|]. exfalso.
    destruct (K w (or_introl eq_refl)) as (p & _ & (v & Hv & Hd) & N).
    destruct (C v Hv) as (q & Hq & M). exact (N v Hd q Hq M).
Qed.

Theorem witness_low ty arms ws :
  data_type ty -> (forall p, In (p, false) arms -> pat_type ty p) ->
  match_witnesses ty arms = Some ws ->
  forall w, In w ws -> exists p, w = [p] /\
    (exists v, has_type ty v /\ describes at_low p v) /\
    (forall v, describes at_low p v -> forall q, In (q, false) arms -> ~ matches q v).
Proof.
  intros D T E w Hw.
  destruct (match_spec at_low True ty arms) as (ws' & E' & _ & K); auto.
  - intros; reflexivity.
  - rewrite E in E'. injection E' as <-. auto.
Qed.

Theorem witness_all ty arms ws :
  data_type ty -> (forall p, In (p, false) arms -> pat_type ty p /\ literal_free p) ->
  match_witnesses ty arms = Some ws ->
  forall w, In w ws -> exists p, w = [p] /\
    (exists v, has_type ty v /\ describes within p v) /\
    (forall v, describes within p v -> forall q, In (q, false) arms -> ~ matches q v).
Proof.
  intros D T E w Hw.
  destruct (match_spec within False ty arms) as (ws' & E' & _ & K); auto.
  - intros; red; lia.
  - easy.
  - intros p Hp. destruct (T p Hp). auto.
  - rewrite E in E'. injection E' as <-. auto.
Qed.

Theorem never_panics ty arms :
  data_type ty -> (forall p, In (p, false) arms -> pat_type ty p) ->
  exists ws, match_witnesses ty arms = Some ws.
Proof.
  intros D T. destruct (match_spec at_low True ty arms) as (ws & E & _); eauto.
  intros; reflexivity.
Qed.
