(** The signals of a lowered unit: each has one driver, and what is read is driven. *)
From Coq Require Import String List ZArith Bool Arith Lia Permutation.
From Verif Require Import Bits Verilog CodegenModel CodegenSpec PatModel PatSpec LowerModel LowerSpec LowerProofs ExprModel ExprSpec ExprProofs.
Import ListNotations.
Local Open Scope list_scope.

(** ** Fresh names *)
Definition below (n : nat) (l : list mname) : Prop := forall k, In (NExpr k) l -> k < n.
(** [d] is driven: out of [l], or fresh, each once. *)
Definition Piece (l d : list mname) (n n' : nat) : Prop :=
  n <= n' /\ (forall x, In x d -> In x l \/ exists k, x = NExpr k /\ n <= k < n') /\ (NoDup l -> below n l -> NoDup d).
Lemma piece_nil l n : Piece l [] n n.
Proof. split; [lia|]. split; [easy|]. intros. constructor. Qed.
Lemma piece_one x n : Piece [x] [x] n n.
Proof. split; [lia|]. split; [now left|]. intros. now repeat constructor. Qed.
Lemma piece_fresh n : Piece [] [NExpr n] n (S n).
Proof. split; [lia|]. split; [|intros; repeat constructor; easy]. intros x [<-|[]]. right. exists n. split; [easy|lia]. Qed.
Lemma piece_skip n : Piece [] [] n (S n).
Proof. split; [lia|]. split; [easy|]. intros. constructor. Qed.
Lemma NoDup_app_iff {A} (a b : list A) : NoDup (a ++ b) <-> NoDup a /\ NoDup b /\ forall x, In x a -> In x b -> False.
Proof.
  induction a as [|x a IH]; cbn.
  - split; [intros H; repeat split; [constructor|exact H|easy]|now intros (_ & H & _)].
  - rewrite !NoDup_cons_iff, IH, in_app_iff. split.
    + intros (Nx & Na & Nb & D). repeat split; auto. intros y [->|I] J; eauto.
    + intros ((Nx & Na) & Nb & D). repeat split; auto; [|eauto]. intros [I|I]; eauto.
Qed.
Lemma piece_app l1 l2 d1 d2 n n1 n2 : Piece l1 d1 n n1 -> Piece l2 d2 n1 n2 -> Piece (l1 ++ l2) (d1 ++ d2) n n2.
Proof.
  intros (A & B & C) (A' & B' & C'). split; [lia|]. split.
  - intros x I. apply in_app_iff in I as [I|I]; [destruct (B _ I) as [J|(k & -> & K)]|destruct (B' _ I) as [J|(k & -> & K)]];
      try (left; apply in_app_iff; auto; fail); right; exists k; (split; [easy|lia]).
  - intros N L. apply NoDup_app_iff in N as (N1 & N2 & D).
    assert (L1 : below n l1) by (intros k I; apply L, in_app_iff; now left).
    assert (L2 : below n l2) by (intros k I; apply L, in_app_iff; now right).
    apply NoDup_app_iff. split; [auto|]. split; [apply C'; [exact N2|intros k I; specialize (L2 k I); lia]|].
    intros x I J. destruct (B _ I) as [I'|(k & -> & K)], (B' _ J) as [J'|(k' & E & K')]; subst; eauto.
    + specialize (L1 _ I'). lia.
    + specialize (L2 _ J'). lia.
    + injection E as ->. lia.
Qed.
Lemma piece_perm l l' d d' n n' : Piece l d n n' -> Permutation l l' -> Permutation d d' -> Piece l' d' n n'.
Proof.
  intros (A & B & C) Pl Pd. split; [exact A|]. split.
  - intros x I. apply (Permutation_in _ (Permutation_sym Pd)) in I. destruct (B x I) as [J|J]; [left; now apply (Permutation_in _ Pl)|now right].
  - intros N L. apply (Permutation_NoDup Pd), C; [now apply (Permutation_NoDup (Permutation_sym Pl))|]. intros k I. apply L. now apply (Permutation_in _ Pl).
Qed.
Lemma piece_more l l' d n n' : Piece l d n n' -> (forall x, In x l -> In x l') -> (NoDup l' -> NoDup l) -> Piece l' d n n'.
Proof.
  intros (A & B & C) I N. split; [exact A|]. split; [intros x J; destruct (B x J); auto|]. intros N' L. apply C; [auto|]. intros k J. apply L. auto.
Qed.
Lemma piece_cons x l d n n' : Piece l d n n' -> Piece (x :: l) (x :: d) n n'.
Proof. intros H. exact (piece_app [x] l [x] d n n n' (piece_one x n) H). Qed.
Lemma piece_unused x l d n n' : Piece l d n n' -> Piece (x :: l) d n n'.
Proof. intros H. eapply piece_more; [exact H|intros y I; now right|]. intros N. now inversion N. Qed.

Notation dr s := (flat_map drives s).
Lemma dr_app a b : dr (a ++ b) = dr a ++ dr b.
Proof. apply flat_map_app. Qed.
Lemma dr_xs a b : dr (map XS (a ++ b)) = dr (map XS a) ++ dr (map XS b).
Proof. rewrite map_app. apply flat_map_app. Qed.
Ltac perm := first [reflexivity | solve [ repeat rewrite <- app_assoc; cbn [app]; repeat rewrite app_nil_r;
  repeat (first [apply Permutation_refl | apply Permutation_cons; [reflexivity|] | apply Permutation_app_head ]) ] ].

(** ** Patterns *)
Definition subs (p : lpat) : list mname := tl (pat_names p).
Lemma pat_names_eq p : pat_names p = value_name p :: subs p.
Proof. now destruct p as [id t k]; destruct k. Qed.
Definition inner_ok (p : lpat) : Prop := forall self n s n', lower_inner p self n = (s, n') -> Piece (subs p) (dr (map XS s)) n n'.
Lemma idx_piece op self l : Forall inner_ok l -> forall i n s n', lower_idx op self i l n = (s, n') -> Piece (flat_map pat_names l) (dr (map XS s)) n n'.
Proof.
  induction 1 as [|q l Hq Hl IH]; intros i n s n' E; cbn [lower_idx] in E.
  - injection E as <- <-. apply piece_nil.
  - destruct (lower_inner q (value_name q) n) as [a n1] eqn:Ea. destruct (lower_idx op self (S i) l n1) as [b n2] eqn:Eb. injection E as <- <-.
    cbn [flat_map map drives app]. rewrite pat_names_eq. cbn [app]. apply piece_cons. rewrite dr_xs. eapply piece_app; [exact (Hq _ _ _ _ Ea)|exact (IH _ _ _ _ Eb)].
Qed.
Lemma arr_piece ity self l : Forall inner_ok l -> forall i n s n', lower_arr ity self i l n = (s, n') -> Piece (flat_map pat_names l) (dr (map XS s)) n n'.
Proof.
  induction 1 as [|q l Hq Hl IH]; intros i n s n' E; cbn [lower_arr] in E.
  - injection E as <- <-. apply piece_nil.
  - destruct (lower_inner q (value_name q) (S n)) as [a n1] eqn:Ea. destruct (lower_arr ity self (S i) l n1) as [b n2] eqn:Eb. injection E as <- <-.
    cbn [flat_map map drives app]. rewrite pat_names_eq. cbn [app].
    apply (piece_app [] _ [NExpr n] _ n (S n) n2); [apply piece_fresh|]. apply piece_cons. rewrite dr_xs. eapply piece_app; [exact (Hq _ _ _ _ Ea)|exact (IH _ _ _ _ Eb)].
Qed.
Lemma inner_piece p : inner_ok p.
Proof.
  induction p using lpat_ind'; intros self n s n' E; unfold subs; cbn [pat_names tl].
  - injection E as <- <-. apply piece_nil.
  - injection E as <- <-. apply piece_nil.
  - injection E as <- <-. apply piece_nil.
  - cbn [lower_inner] in E. destruct (lower_inner p (value_name p) n) as [r n1] eqn:Er. injection E as <- <-. cbn [map flat_map drives app].
    rewrite pat_names_eq. apply piece_cons. exact (IHp _ _ _ _ Er).
  - rewrite lower_tuple in E. eapply idx_piece; eassumption.
  - rewrite lower_array in E. eapply arr_piece; eassumption.
  - rewrite lower_struct in E. eapply idx_piece; eassumption.
  - rewrite lower_variant in E. eapply idx_piece; eassumption.
Qed.
Lemma lower_piece p self t n s n' : lower p self t n = (s, n') -> Piece (pat_names p) (dr (map XS s)) n n'.
Proof.
  unfold lower. intros E. destruct (lower_inner p self n) as [r n1] eqn:Er. injection E as <- <-. cbn [map flat_map drives app].
  rewrite pat_names_eq. apply piece_cons. exact (inner_piece _ _ _ _ _ Er).
Qed.
Lemma chain_piece ops : forall acc n s r n', and_chain acc ops n = (s, r, n') -> Piece [] (dr (map XS s)) n n'.
Proof.
  induction ops as [|o ops IH]; intros acc n s r n' E; cbn [and_chain] in E.
  - injection E as <- <- <-. apply piece_nil.
  - destruct (and_chain (NExpr n) ops (S n)) as [[s1 r1] n1] eqn:E1. injection E as <- <- <-. cbn [map flat_map drives app].
    exact (piece_app [] [] [NExpr n] _ n (S n) n1 (piece_fresh n) (IH _ _ _ _ _ E1)).
Qed.
Lemma all_piece ops n s r n' : all_conditions ops n = (s, r, n') -> Piece [] (dr (map XS s)) n n'.
Proof.
  destruct ops as [|o ops]; cbn [all_conditions]; intros E.
  - injection E as <- <- <-. apply piece_fresh.
  - eapply chain_piece. exact E.
Qed.
Definition cond_ok (p : lpat) : Prop := forall v g n s r n', condition p v g n = (s, r, n') -> Piece [] (dr (map XS s)) n n'.
Lemma list_piece l : Forall cond_ok l -> forall n s rs n', cond_list l n = (s, rs, n') -> Piece [] (dr (map XS s)) n n'.
Proof.
  induction 1 as [|q l Hq Hl IH]; intros n s rs n' E; cbn [cond_list] in E.
  - injection E as <- <- <-. apply piece_nil.
  - destruct (condition q (value_name q) None n) as [[s1 r1] n1] eqn:E1. destruct (cond_list l n1) as [[s2 r2] n2] eqn:E2. injection E as <- <- <-.
    rewrite dr_xs. exact (piece_app [] [] _ _ _ _ _ (Hq _ _ _ _ _ _ E1) (IH _ _ _ _ E2)).
Qed.
Lemma two n : Piece [] [NExpr n; NExpr (S n)] n (S (S n)).
Proof. exact (piece_app [] [] [_] [_] _ _ _ (piece_fresh n) (piece_fresh (S n))). Qed.
Lemma three n : Piece [] [NExpr n; NExpr (S n); NExpr (S (S n))] n (S (S (S n))).
Proof. exact (piece_app [] [] [_] [_; _] _ _ _ (piece_fresh n) (two (S n))). Qed.
Lemma swapped d d' n n' : Piece [] d n n' -> Permutation d d' -> Piece [] d' n n'.
Proof. intros H P. exact (piece_perm _ _ _ _ _ _ H (Permutation_refl []) P). Qed.
Lemma cond_piece p : cond_ok p.
Proof.
  induction p using lpat_ind'; intros v g n s r n' E.
  - cbn [condition] in E. destruct g; injection E as <- <- <-; cbn [map flat_map drives app].
    + apply (swapped _ _ _ _ (three n)). apply (Permutation_app_comm [_] [_; _]).
    + apply (swapped _ _ _ _ (two n)). apply perm_swap.
  - destruct b; cbn [condition] in E; destruct g; injection E as <- <- <-; cbn [map flat_map drives app].
    + apply piece_fresh. + apply piece_skip.
    + apply (swapped _ _ _ _ (two n)). apply perm_swap. + apply piece_fresh.
  - cbn [condition] in E. destruct g; injection E as <- <- <-; apply piece_fresh.
  - cbn [condition] in E. destruct (condition p (value_name p) g (S n)) as [[s1 r1] n1] eqn:E1. injection E as <- <- <-.
    rewrite dr_xs. eapply swapped; [exact (piece_app [] [] _ _ _ _ _ (piece_fresh n) (IHp _ _ _ _ _ _ E1))|]. cbn [map flat_map drives app]. apply (Permutation_app_comm [_]).
  - rewrite condition_tuple in E. destruct (cond_list l (S n)) as [[s1 rs] n1] eqn:E1. destruct (all_conditions (rs ++ opt_list g) n1) as [[s2 r2] n2] eqn:E2. injection E as <- <- <-.
    rewrite dr_xs. exact (piece_app [] [] [] _ _ _ _ (piece_skip n) (piece_app [] [] _ _ _ _ _ (list_piece _ H _ _ _ _ E1) (all_piece _ _ _ _ _ E2))).
  - rewrite condition_array in E. destruct (cond_list l (S n)) as [[s1 rs] n1] eqn:E1. destruct (all_conditions (rs ++ opt_list g) n1) as [[s2 r2] n2] eqn:E2. injection E as <- <- <-.
    rewrite dr_xs. exact (piece_app [] [] [] _ _ _ _ (piece_skip n) (piece_app [] [] _ _ _ _ _ (list_piece _ H _ _ _ _ E1) (all_piece _ _ _ _ _ E2))).
  - rewrite condition_struct in E. destruct (cond_list l (S (S n))) as [[s1 rs] n1] eqn:E1. destruct (all_conditions (NExpr (S n) :: rs ++ opt_list g) n1) as [[s2 r2] n2] eqn:E2. injection E as <- <- <-.
    cbn [map flat_map drives]. rewrite dr_xs.
    exact (piece_app [] [] [] _ _ _ _ (piece_skip n) (piece_app [] [] [_] _ _ _ _ (piece_fresh (S n)) (piece_app [] [] _ _ _ _ _ (list_piece _ H _ _ _ _ E1) (all_piece _ _ _ _ _ E2)))).
  - rewrite condition_variant in E. destruct (cond_list l (S (S n))) as [[s1 rs] n1] eqn:E1. destruct (all_conditions (NExpr (S n) :: rs ++ opt_list g) n1) as [[s2 r2] n2] eqn:E2. injection E as <- <- <-.
    cbn [map flat_map drives]. rewrite dr_xs.
    exact (piece_app [] [] [] _ _ _ _ (piece_skip n) (piece_app [] [] [_] _ _ _ _ (piece_fresh (S n)) (piece_app [] [] _ _ _ _ _ (list_piece _ H _ _ _ _ E1) (all_piece _ _ _ _ _ E2)))).
Qed.

(** ** Expressions *)
Definition expr_ok (e : expr) : Prop := forall n s n', lower_expr e n = Some (s, n') -> Piece (names e) (dr s) n n'.
Ltac stepp H := let a := fresh "s" in let n := fresh "n" in let E := fresh "E" in apply bind_inv in H as (a & n & E & H).
Lemma ret_inv' {A} (a b : A) n n' : ret a n = Some (b, n') -> b = a /\ n' = n.
Proof. unfold ret. intros H. injection H as -> ->. auto. Qed.
Ltac donep H := let E1 := fresh in let E2 := fresh in apply ret_inv' in H as [E1 E2]; subst.
Lemma each_piece l : (forall e, In e l -> expr_ok e) -> forall n s n', each lower_expr l n = Some (s, n') -> Piece (flat_map names l) (dr s) n n'.
Proof.
  induction l as [|e l IH]; intros H n s n' E; cbn [each] in E.
  - donep E. apply piece_nil.
  - stepp E. stepp E. donep E. rewrite dr_app. cbn [flat_map]. eapply piece_app; [eapply H; [now left|eassumption]|]. eapply IH; [intros; apply H; now right|eassumption].
Qed.
Lemma guard_inv' b n a n' : guard b n = Some (a, n') -> n' = n.
Proof. destruct b; [|discriminate]. intros H. now injection H. Qed.
Lemma lift_inv {A} (g : gen A) n a n' : lift g n = Some (a, n') -> g n = (a, n').
Proof. unfold lift. congruence. Qed.
Lemma stm_piece st n s n' : (forall e, In e (stm_exprs st) -> expr_ok e) -> lower_stm st n = Some (s, n') -> Piece (stm_names st) (dr s) n n'.
Proof.
  intros H E. destruct st as [p e|e|p c r v|e|]; cbn [lower_stm stm_names stm_exprs] in *.
  - do 3 stepp E. donep E. apply guard_inv' in E1. subst. apply lift_inv in E2. rewrite dr_app. eapply piece_app; [eapply H; [now left|eassumption]|]. eapply lower_piece. exact E2.
  - do 2 stepp E. donep E. apply guard_inv' in E1. subst. eapply H; [now left|eassumption].
  - do 5 stepp E. donep E. apply guard_inv' in E3. subst. apply lift_inv in E4. rewrite !dr_app.
    eapply piece_app; [eapply H; [now left|eassumption]|]. eapply piece_app.
    { instantiate (1 := n1). destruct r as [[a b]|]; cbn [lower_opt fst snd] in E1.
      - do 2 stepp E1. donep E1. rewrite dr_app. eapply piece_app; (eapply H; [cbn; auto|eassumption]).
      - donep E1. apply piece_nil. }
    eapply piece_app; [eapply H; [right; apply in_or_app; right; now left|eassumption]|]. rewrite pat_names_eq.
    cbn [flat_map drives app]. apply piece_cons. eapply inner_piece. exact E4.
  - stepp E. donep E. rewrite dr_app. cbn [flat_map drives app]. rewrite app_nil_r. eapply H; [now left|eassumption].
  - donep E. apply piece_nil.
Qed.
Lemma stms_piece l : (forall st, In st l -> forall e, In e (stm_exprs st) -> expr_ok e) -> forall n s n', each lower_stm l n = Some (s, n') -> Piece (flat_map stm_names l) (dr s) n n'.
Proof.
  induction l as [|st l IH]; intros H n s n' E; cbn [each] in E.
  - donep E. apply piece_nil.
  - stepp E. stepp E. donep E. rewrite dr_app. cbn [flat_map]. eapply piece_app; [eapply stm_piece; [apply H; now left|eassumption]|]. eapply IH; [intros st' I; apply H; now right|eassumption].
Qed.
Lemma arms_piece o arms : (forall p g e, In (p, g, e) arms -> expr_ok e /\ forall g', g = Some g' -> expr_ok g') -> forall n s ops n', lower_arms lower_expr o arms n = Some ((s, ops), n') ->
  Piece (flat_map (fun arm => pat_names (fst (fst arm)) ++ match snd (fst arm) with Some g => names g | None => [] end ++ names (snd arm)) arms) (dr s) n n'.
Proof.
  induction arms as [|[[p g] e] arms IH]; intros H n s ops n' E; cbn [lower_arms] in E.
  - donep E. injection H0 as -> ->. apply piece_nil.
  - do 3 stepp E. destruct s2 as [s3 c]. do 2 stepp E. destruct s4 as [s5 ops']. donep E. injection H0 as -> ->. cbn [flat_map fst snd].
    destruct (H p g e (or_introl eq_refl)) as [He Hg]. apply lift_inv in E0. injection E2 as E2.
    rewrite !dr_app, <- !app_assoc. eapply piece_app; [eapply lower_piece; exact E0|]. eapply piece_app.
    { instantiate (1 := n1). destruct g as [g|]; cbn [lower_opt] in E1; [eapply Hg; [reflexivity|eassumption]|donep E1; apply piece_nil]. }
    apply (piece_app [] _ _ _ _ n2 _); [eapply cond_piece; exact E2|]. eapply piece_app; [eapply He; eassumption|].
    eapply IH; [intros p' g' e' I; apply (H p' g' e'); now right|eassumption].
Qed.
Lemma self_last id l d n n' x : drives x = [NExpr id] -> Piece l (dr d) n n' -> Piece (NExpr id :: l) (dr (d ++ [x])) n n'.
Proof.
  intros X H. rewrite dr_app. cbn [flat_map]. rewrite X, app_nil_r. eapply piece_perm; [exact (piece_cons (NExpr id) _ _ _ _ H)|reflexivity|].
  apply (Permutation_app_comm [_]).
Qed.
Lemma expr_piece : forall e, expr_ok e.
Proof.
  induction e as [e IH] using expr_ind'. intros n s n' E. destruct e as [id t k]; destruct k; cbn [children] in IH; cbn [lower_expr] in E; cbn [names].
  - donep E. apply piece_nil.
  - donep E. apply piece_one.
  - donep E. apply piece_one.
  - destruct (bin_operator op a b); [|discriminate]. do 2 stepp E. donep E. rewrite app_assoc. apply self_last; [reflexivity|]. rewrite dr_app.
    eapply piece_app; eapply IH; try eassumption; cbn; auto.
  - stepp E. donep E. apply self_last; [reflexivity|]. eapply IH; [now left|eassumption].
  - stepp E. donep E. apply self_last; [reflexivity|]. eapply each_piece; eassumption.
  - stepp E. donep E. apply self_last; [reflexivity|]. eapply IH; [now left|eassumption].
  - stepp E. destruct (field_index members f); [|discriminate]. donep E. apply self_last; [reflexivity|]. eapply IH; [now left|eassumption].
  - stepp E. donep E. apply self_last; [reflexivity|]. eapply IH; [now left|eassumption].
  - stepp E. donep E. apply self_last; [reflexivity|]. eapply each_piece; eassumption.
  - stepp E. donep E. apply self_last; [reflexivity|]. eapply IH; [now left|eassumption].
  - do 2 stepp E. donep E. rewrite app_assoc. apply self_last; [reflexivity|]. rewrite dr_app. eapply piece_app; eapply IH; try eassumption; cbn; auto.
  - stepp E. destruct (match e with Some m => Some m | None => _ end); [|discriminate]. donep E. apply self_last; [reflexivity|]. eapply IH; [now left|eassumption].
  - stepp E. assert (S : Piece (flat_map stm_names ss) (dr s0) n n0).
    { eapply stms_piece; [|eassumption]. intros st I e Ie. apply IH, in_or_app. left. apply in_flat_map. eauto. }
    destruct r as [r|].
    + stepp E. donep E. apply piece_unused. rewrite dr_app. eapply piece_app; [exact S|]. eapply IH; [apply in_or_app; right; now left|eassumption].
    + donep E. apply self_last; [reflexivity|]. now rewrite app_nil_r.
  - do 3 stepp E. donep E. rewrite !app_assoc. apply self_last; [reflexivity|]. rewrite !dr_app. eapply piece_app; [eapply piece_app|]; eapply IH; try eassumption; cbn; auto.
  - do 3 stepp E. destruct s2 as [s2 ops]. donep E. apply guard_inv' in E0. subst. rewrite app_assoc. apply self_last; [reflexivity|]. rewrite dr_app.
    eapply piece_app; [eapply IH; [now left|eassumption]|]. eapply arms_piece; [|eassumption]. intros p g x I.
    assert (K : forall y, In y (opt g ++ [x]) -> expr_ok y) by (intros y Iy; apply IH; right; apply in_flat_map; exists (p, g, x); auto).
    split; [apply K, in_or_app; right; now left|]. intros g' ->. apply K, in_or_app. left. now left.
  - stepp E. destruct (call_stmt id (to_mir_type t) c (map variable args) _) as [st|] eqn:C; [|discriminate]. donep E. apply self_last; [|eapply each_piece; eassumption].
    destruct c as [i| | |]; cbn [call_stmt] in C; try (injection C as <-; reflexivity).
    destruct i; cbn [call_stmt] in C; try (match type of C with option_map _ ?o = _ => destruct o; [|discriminate]; injection C as <-; reflexivity end).
    repeat match type of C with context [match ?x with _ => _ end] => destruct x; try discriminate end. injection C as <-. reflexivity.
Qed.

(** ** What is read *)
Notation rd s := (flat_map reads s).
Lemma rd_app a b : rd (a ++ b) = rd a ++ rd b.
Proof. apply flat_map_app. Qed.
Lemma rd_xs a b : rd (map XS (a ++ b)) = rd (map XS a) ++ rd (map XS b).
Proof. rewrite map_app. apply flat_map_app. Qed.
Lemma xs_incl (a b : list xstmt) : incl a b -> incl (dr a) (dr b).
Proof. intros H x I. apply in_flat_map in I as (y & I & J). apply in_flat_map. eauto. Qed.

Definition inner_reads_ok (p : lpat) : Prop := forall self n s n', lower_inner p self n = (s, n') ->
  incl (rd (map XS s)) (self :: dr (map XS s)) /\ incl (subs p) (dr (map XS s)).
Ltac inc := intros ? ?; cbn [In app] in *; rewrite ?in_app_iff in *; cbn [In] in *; intuition.
Lemma idx_reads op self l : Forall inner_reads_ok l -> forall i n s n', lower_idx op self i l n = (s, n') ->
  incl (rd (map XS s)) (self :: dr (map XS s)) /\ incl (flat_map pat_names l) (dr (map XS s)).
Proof.
  induction 1 as [|q l Hq Hl IH]; intros i n s n' E; cbn [lower_idx] in E.
  - injection E as <- <-. split; intros x [].
  - destruct (lower_inner q (value_name q) n) as [a n1] eqn:Ea. destruct (lower_idx op self (S i) l n1) as [b n2] eqn:Eb. injection E as <- <-.
    destruct (Hq _ _ _ _ Ea) as [A1 A2]. destruct (IH _ _ _ _ Eb) as [B1 B2]. cbn [flat_map map drives reads app]. rewrite pat_names_eq, dr_xs, rd_xs. cbn [app].
    split.
    + intros x [<-|I]; [now left|]. apply in_app_iff in I as [I|I].
      * apply A1 in I. destruct I as [<-|I]; [right; now left|right; right; apply in_app_iff; now left].
      * apply B1 in I. destruct I as [<-|I]; [now left|right; right; apply in_app_iff; now right].
    + intros x [<-|I]; [now left|]. right. apply in_app_iff in I as [I|I]; apply in_app_iff; auto.
Qed.
Lemma arr_reads ity self l : Forall inner_reads_ok l -> forall i n s n', lower_arr ity self i l n = (s, n') ->
  incl (rd (map XS s)) (self :: dr (map XS s)) /\ incl (flat_map pat_names l) (dr (map XS s)).
Proof.
  induction 1 as [|q l Hq Hl IH]; intros i n s n' E; cbn [lower_arr] in E.
  - injection E as <- <-. split; intros x [].
  - destruct (lower_inner q (value_name q) (S n)) as [a n1] eqn:Ea. destruct (lower_arr ity self (S i) l n1) as [b n2] eqn:Eb. injection E as <- <-.
    destruct (Hq _ _ _ _ Ea) as [A1 A2]. destruct (IH _ _ _ _ Eb) as [B1 B2]. cbn [flat_map map drives reads app]. rewrite pat_names_eq, dr_xs, rd_xs. cbn [app].
    split.
    + intros x [<-|[<-|I]]; [now left|right; now left|]. apply in_app_iff in I as [I|I].
      * apply A1 in I. destruct I as [<-|I]; [right; right; now left|right; right; right; apply in_app_iff; now left].
      * apply B1 in I. destruct I as [<-|I]; [now left|right; right; right; apply in_app_iff; now right].
    + intros x [<-|I]; [right; now left|]. right. right. apply in_app_iff in I as [I|I]; apply in_app_iff; auto.
Qed.
Lemma inner_reads p : inner_reads_ok p.
Proof.
  induction p using lpat_ind'; intros self n s n' E; unfold subs; cbn [pat_names tl].
  - injection E as <- <-. split; intros ? [].
  - injection E as <- <-. split; intros ? [].
  - injection E as <- <-. split; intros ? [].
  - cbn [lower_inner] in E. destruct (lower_inner p (value_name p) n) as [r n1] eqn:Er. injection E as <- <-. cbn [map flat_map drives reads app].
    destruct (IHp _ _ _ _ Er) as [A1 A2]. rewrite pat_names_eq. split.
    + intros y [<-|I]; [now left|]. right. apply A1 in I. exact I.
    + intros y [<-|I]; [now left|]. right. auto.
  - rewrite lower_tuple in E. eapply idx_reads; eassumption.
  - rewrite lower_array in E. eapply arr_reads; eassumption.
  - rewrite lower_struct in E. eapply idx_reads; eassumption.
  - rewrite lower_variant in E. eapply idx_reads; eassumption.
Qed.
Lemma lower_reads p self t n s n' : lower p self t n = (s, n') ->
  incl (rd (map XS s)) (self :: dr (map XS s)) /\ incl (pat_names p) (dr (map XS s)).
Proof.
  unfold lower. intros E. destruct (lower_inner p self n) as [r n1] eqn:Er. injection E as <- <-. cbn [map flat_map drives reads app].
  destruct (inner_reads _ _ _ _ _ Er) as [A1 A2]. rewrite pat_names_eq. split.
  - intros x [<-|I]; [now left|]. apply A1 in I. destruct I as [<-|I]; [now left|right; now right].
  - intros x [<-|I]; [now left|]. right. auto.
Qed.
Lemma chain_reads ops : forall acc n s r n', and_chain acc ops n = (s, r, n') -> incl (r :: rd (map XS s)) (acc :: ops ++ dr (map XS s)).
Proof.
  induction ops as [|o ops IH]; intros acc n s r n' E; cbn [and_chain] in E.
  - injection E as <- <- <-. intros x [<-|[]]. now left.
  - destruct (and_chain (NExpr n) ops (S n)) as [[s1 r1] n1] eqn:E1. injection E as <- <- <-. specialize (IH _ _ _ _ _ E1). cbn [map flat_map drives reads app].
    assert (K : forall x, In x (r1 :: rd (map XS s1)) -> In x (acc :: o :: ops ++ NExpr n :: dr (map XS s1))).
    { intros x I. apply IH in I. destruct I as [<-|I]; [right; right; apply in_app_iff; right; now left|]. right. right. apply in_app_iff in I as [I|I]; apply in_app_iff; [now left|right; now right]. }
    intros x [<-|[<-|[<-|I]]]; [apply K; now left|now left|right; now left|apply K; now right].
Qed.
Lemma all_reads ops n s r n' : all_conditions ops n = (s, r, n') -> incl (r :: rd (map XS s)) (ops ++ dr (map XS s)).
Proof.
  destruct ops as [|o ops]; cbn [all_conditions]; intros E.
  - injection E as <- <- <-. cbn. intros x [<-|[]]. now left.
  - exact (chain_reads _ _ _ _ _ _ E).
Qed.
Definition cond_reads_ok (p : lpat) : Prop := forall v g n s r n', condition p v g n = (s, r, n') ->
  incl (r :: rd (map XS s)) (v :: opt_list g ++ subs p ++ dr (map XS s)).
Lemma list_reads l : Forall cond_reads_ok l -> forall n s rs n', cond_list l n = (s, rs, n') ->
  incl (rs ++ rd (map XS s)) (flat_map pat_names l ++ dr (map XS s)).
Proof.
  induction 1 as [|q l Hq Hl IH]; intros n s rs n' E; cbn [cond_list] in E.
  - injection E as <- <- <-. intros x [].
  - destruct (condition q (value_name q) None n) as [[s1 r1] n1] eqn:E1. destruct (cond_list l n1) as [[s2 r2] n2] eqn:E2. injection E as <- <- <-.
    specialize (Hq _ _ _ _ _ _ E1). specialize (IH _ _ _ _ E2). cbn [flat_map]. rewrite rd_xs, dr_xs, pat_names_eq.
    assert (K1 : forall x, In x (r1 :: rd (map XS s1)) -> In x (((value_name q :: subs q) ++ flat_map pat_names l) ++ dr (map XS s1) ++ dr (map XS s2))).
    { intros x I. apply Hq in I. cbn [opt_list app] in I. rewrite !in_app_iff. cbn [In app] in *. destruct I as [<-|I]; [left; left; now left|]. apply in_app_iff in I as [I|I]; [left; left; now right|right; now left]. }
    assert (K2 : forall x, In x (r2 ++ rd (map XS s2)) -> In x (((value_name q :: subs q) ++ flat_map pat_names l) ++ dr (map XS s1) ++ dr (map XS s2))).
    { intros x I. apply IH in I. rewrite !in_app_iff. apply in_app_iff in I as [I|I]; [left; now right|right; now right]. }
    intros x I. cbn [app] in I. destruct I as [<-|I]; [apply K1; now left|]. rewrite !in_app_iff in I. destruct I as [I|[I|I]]; [apply K2, in_app_iff; now left|apply K1; now right|apply K2, in_app_iff; now right].
Qed.
Lemma multi_reads l g first n s1 rs n1 s2 r n2 : Forall cond_reads_ok l -> cond_list l n = (s1, rs, n1) -> all_conditions (first ++ rs ++ opt_list g) n1 = (s2, r, n2) ->
  incl (r :: rd (map XS (s1 ++ s2))) (first ++ opt_list g ++ flat_map pat_names l ++ dr (map XS (s1 ++ s2))).
Proof.
  intros H E1 E2. pose proof (list_reads _ H _ _ _ _ E1) as A. pose proof (all_reads _ _ _ _ _ E2) as B. rewrite rd_xs, dr_xs.
  assert (K1 : forall x, In x (rs ++ rd (map XS s1)) -> In x (first ++ opt_list g ++ flat_map pat_names l ++ dr (map XS s1) ++ dr (map XS s2))).
  { intros x I. apply A in I. rewrite !in_app_iff in *. tauto. }
  assert (K2 : forall x, In x (r :: rd (map XS s2)) -> In x (first ++ opt_list g ++ flat_map pat_names l ++ dr (map XS s1) ++ dr (map XS s2))).
  { intros x I. apply B in I. rewrite !in_app_iff in I. destruct I as [[I|[I|I]]|I].
    - rewrite !in_app_iff. tauto.
    - apply K1, in_app_iff. now left.
    - rewrite !in_app_iff. tauto.
    - rewrite !in_app_iff. tauto. }
  intros x [<-|I]; [apply K2; now left|]. apply in_app_iff in I as [I|I]; [apply K1, in_app_iff; now right|apply K2; now right].
Qed.
Lemma cond_reads p : cond_reads_ok p.
Proof.
  induction p using lpat_ind'; intros v g n s r n' E.
  - cbn [condition] in E. destruct g; injection E as <- <- <-; intros y I; cbn in *; intuition.
  - destruct b; cbn [condition] in E; destruct g; injection E as <- <- <-; intros y I; cbn in *; intuition.
  - cbn [condition] in E. destruct g; injection E as <- <- <-; intros y I; cbn in *; intuition.
  - cbn [condition] in E. destruct (condition p (value_name p) g (S n)) as [[s1 r1] n1] eqn:E1. injection E as <- <- <-. specialize (IHp _ _ _ _ _ _ E1).
    rewrite rd_xs, dr_xs. unfold subs. cbn [pat_names tl map flat_map drives reads app]. rewrite pat_names_eq.
    assert (K : forall y, In y (r1 :: rd (map XS s1)) -> In y (v :: opt_list g ++ (value_name p :: subs p) ++ dr (map XS s1) ++ [NExpr n])).
    { intros y I. apply IHp in I. cbn [In] in *. rewrite !in_app_iff in *. cbn [In]. tauto. }
    intros y [<-|I]; [apply K; now left|]. apply in_app_iff in I as [I|[<-|[]]]; [apply K; now right|apply K; now left].
  - rewrite condition_tuple in E. destruct (cond_list l (S n)) as [[s1 rs] n1] eqn:E1. destruct (all_conditions (rs ++ opt_list g) n1) as [[s2 r2] n2] eqn:E2. injection E as <- <- <-.
    intros y I. right. exact (multi_reads l g [] _ _ _ _ _ _ _ H E1 E2 y I).
  - rewrite condition_array in E. destruct (cond_list l (S n)) as [[s1 rs] n1] eqn:E1. destruct (all_conditions (rs ++ opt_list g) n1) as [[s2 r2] n2] eqn:E2. injection E as <- <- <-.
    intros y I. right. exact (multi_reads l g [] _ _ _ _ _ _ _ H E1 E2 y I).
  - rewrite condition_struct in E. destruct (cond_list l (S (S n))) as [[s1 rs] n1] eqn:E1. destruct (all_conditions (NExpr (S n) :: rs ++ opt_list g) n1) as [[s2 r2] n2] eqn:E2. injection E as <- <- <-.
    intros y I. cbn [map flat_map drives reads app] in *. pose proof (multi_reads l g [NExpr (S n)] _ _ _ _ _ _ _ H E1 E2 y I) as K.
    unfold subs. cbn [pat_names tl]. cbn [In app] in *. rewrite !in_app_iff in *. cbn [In]. tauto.
  - rewrite condition_variant in E. destruct (cond_list l (S (S n))) as [[s1 rs] n1] eqn:E1. destruct (all_conditions (NExpr (S n) :: rs ++ opt_list g) n1) as [[s2 r2] n2] eqn:E2. injection E as <- <- <-.
    intros y I. cbn [map flat_map drives reads app] in *.
    assert (K : In y (r2 :: rd (map XS (s1 ++ s2))) \/ y = v) by (destruct I as [<-|[<-|I]]; [left; now left|now right|left; now right]).
    destruct K as [K| ->]; [|now left]. apply (multi_reads l g [NExpr (S n)] _ _ _ _ _ _ _ H E1 E2) in K.
    unfold subs. cbn [pat_names tl]. cbn [In app] in *. rewrite !in_app_iff in *. cbn [In]. tauto.
Qed.

(** [D]: the signals that are driven. *)
Section Closed.
  Variable D : list mname.
  Definition reads_ok (e : expr) : Prop := (forall c, within e c -> In (variable c) D) -> forall n s n', lower_expr e n = Some (s, n') -> incl (dr s) D -> incl (rd s) D.
  Lemma each_reads l : (forall e, In e l -> reads_ok e) -> (forall e c, In e l -> within e c -> In (variable c) D) ->
    forall n s n', each lower_expr l n = Some (s, n') -> incl (dr s) D -> incl (rd s) D.
  Proof.
    induction l as [|e l IH]; intros H V n s n' E Ds; cbn [each] in E.
    - donep E. intros x [].
    - stepp E. stepp E. donep E. rewrite dr_app in Ds. rewrite rd_app. apply incl_app.
      + eapply H; [now left|intros; eapply V; [now left|assumption]|eassumption|]. intros x I. apply Ds, in_app_iff. now left.
      + eapply IH; [intros; apply H; now right|intros; eapply V; [right|]; eassumption|eassumption|]. intros x I. apply Ds, in_app_iff. now right.
  Qed.
  Lemma stm_reads st n s n' : (forall e, In e (stm_exprs st) -> reads_ok e) -> (forall e c, In e (stm_exprs st) -> within e c -> In (variable c) D) ->
    lower_stm st n = Some (s, n') -> incl (dr s) D -> incl (rd s) D.
  Proof.
    intros H V E Ds. destruct st as [p e|e|p c r v|e|]; cbn [lower_stm stm_exprs] in *.
    - do 3 stepp E. donep E. apply lift_inv in E2. rewrite dr_app in Ds. rewrite rd_app. apply incl_app.
      + eapply H; [now left|intros; eapply V; [now left|assumption]|eassumption|]. intros x I. apply Ds, in_app_iff. now left.
      + intros x I. apply (proj1 (lower_reads _ _ _ _ _ _ E2)) in I. destruct I as [<-|I]; [eapply V; [now left|constructor]|]. apply Ds, in_app_iff. now right.
    - do 2 stepp E. donep E. eapply H; [now left|intros; eapply V; [now left|assumption]|eassumption|exact Ds].
    - do 5 stepp E. donep E. apply lift_inv in E4. rewrite !dr_app in Ds. rewrite !rd_app.
      assert (D1 : incl (dr s0) D) by (intros x I; apply Ds; rewrite !in_app_iff; tauto).
      assert (D2 : incl (dr s1) D) by (intros x I; apply Ds; rewrite !in_app_iff; tauto).
      assert (D3 : incl (dr s2) D) by (intros x I; apply Ds; rewrite !in_app_iff; tauto).
      assert (D4 : incl (dr (map XS s4)) D) by (intros x I; apply Ds; rewrite !in_app_iff; tauto).
      assert (D5 : In (value_name p) D) by (apply Ds; rewrite !in_app_iff; cbn; tauto).
      assert (Iv : In v (c :: match r with Some (t, i) => [t; i] | None => [] end ++ [v])) by (right; apply in_app_iff; right; now left).
      repeat apply incl_app.
      + eapply H; [now left|intros; eapply V; [now left|assumption]|eassumption|exact D1].
      + destruct r as [[a b]|]; cbn [lower_opt fst snd] in E1.
        * do 2 stepp E1. donep E1. rewrite dr_app in D2. rewrite rd_app. apply incl_app.
          -- eapply (H a); [cbn; auto|intros; eapply (V a); [cbn; auto|assumption]|eassumption|]. intros x I. apply D2, in_app_iff. now left.
          -- eapply (H b); [cbn; auto|intros; eapply (V b); [cbn; auto|assumption]|eassumption|]. intros x I. apply D2, in_app_iff. now right.
        * donep E1. intros x [].
      + eapply H; [exact Iv|intros; eapply V; [exact Iv|assumption]|eassumption|exact D3].
      + cbn [reads]. intros x I. destruct I as [<-|[<-|I]]; [eapply V; [now left|constructor]|eapply V; [exact Iv|constructor]|].
        destruct r as [[a b]|]; cbn [option_map fst snd] in I; [|destruct I]. destruct I as [<-|[<-|[]]]; [apply (V a); [cbn; auto|constructor]|apply (V b); [cbn; auto|constructor]].
      + intros x [].
      + intros x I. apply (proj1 (inner_reads _ _ _ _ _ E4)) in I. destruct I as [<-|I]; auto.
    - stepp E. donep E. rewrite dr_app in Ds. rewrite rd_app. apply incl_app.
      + eapply H; [now left|intros; eapply V; [now left|assumption]|eassumption|]. intros x I. apply Ds, in_app_iff. now left.
      + intros x [<-|[]]. eapply V; [now left|constructor].
    - donep E. intros x [].
  Qed.
  Lemma stms_reads l : (forall st, In st l -> forall e, In e (stm_exprs st) -> reads_ok e) -> (forall st e c, In st l -> In e (stm_exprs st) -> within e c -> In (variable c) D) ->
    forall n s n', each lower_stm l n = Some (s, n') -> incl (dr s) D -> incl (rd s) D.
  Proof.
    induction l as [|st l IH]; intros H V n s n' E Ds; cbn [each] in E.
    - donep E. intros x [].
    - stepp E. stepp E. donep E. rewrite dr_app in Ds. rewrite rd_app. apply incl_app.
      + eapply stm_reads; [apply H; now left|intros; eapply V; [now left|eassumption|assumption]|eassumption|]. intros x I. apply Ds, in_app_iff. now left.
      + eapply IH; [intros st' I; apply H; now right|intros st' e c I; apply (V st' e c); now right|eassumption|]. intros x I. apply Ds, in_app_iff. now right.
  Qed.
  Lemma arms_reads o arms : In o D -> (forall p g e, In (p, g, e) arms -> (reads_ok e /\ forall c, within e c -> In (variable c) D) /\
      forall g', g = Some g' -> reads_ok g' /\ forall c, within g' c -> In (variable c) D) ->
    forall n s ops n', lower_arms lower_expr o arms n = Some ((s, ops), n') -> incl (dr s) D -> incl (rd s) D /\ incl ops D.
  Proof.
    intros Io. induction arms as [|[[p g] e] arms IH]; intros H n s ops n' E Ds; cbn [lower_arms] in E.
    - donep E. injection H0 as -> ->. split; intros x [].
    - do 3 stepp E. destruct s2 as [s3 c]. do 2 stepp E. destruct s4 as [s5 ops']. donep E. injection H0 as -> ->.
      destruct (H p g e (or_introl eq_refl)) as [[He Ve] Hg]. apply lift_inv in E0. injection E2 as E2. rewrite !dr_app in Ds. rewrite !rd_app.
      assert (D1 : incl (dr (map XS s0)) D) by (intros x I; apply Ds; rewrite !in_app_iff; tauto).
      assert (D2 : incl (dr s1) D) by (intros x I; apply Ds; rewrite !in_app_iff; tauto).
      assert (D3 : incl (dr (map XS s3)) D) by (intros x I; apply Ds; rewrite !in_app_iff; tauto).
      assert (D4 : incl (dr s2) D) by (intros x I; apply Ds; rewrite !in_app_iff; tauto).
      assert (D5 : incl (dr s5) D) by (intros x I; apply Ds; rewrite !in_app_iff; tauto).
      destruct (lower_reads _ _ _ _ _ _ E0) as [R1 R2].
      assert (K : incl (c :: rd (map XS s3)) D).
      { intros x I. apply (cond_reads _ _ _ _ _ _ _ E2) in I. destruct I as [<-|I]; [exact Io|]. rewrite !in_app_iff in I. destruct I as [I|[I|I]]; [|apply D1, R2; rewrite pat_names_eq; now right|auto].
        destruct g as [g|]; [|destruct I]. destruct I as [<-|[]]. apply (Hg g eq_refl). constructor. }
      destruct (IH (fun p' g' e' I => H p' g' e' (or_intror I)) _ _ _ _ E4 D5) as [A1 A2]. split.
      + repeat apply incl_app; [| |intros x I; apply K; now right| |exact A1].
        * intros x I. apply R1 in I. destruct I as [<-|I]; auto.
        * destruct g as [g|]; cbn [lower_opt] in E1; [|donep E1; intros x []]. destruct (Hg g eq_refl) as [Hg' Vg]. eapply Hg'; eassumption.
        * eapply He; eassumption.
      + intros x [<-|[<-|I]]; [apply K; now left|apply Ve; constructor|auto].
  Qed.
  Lemma self_reads d x : incl (dr (d ++ [x])) D -> (incl (dr d) D -> incl (rd d) D) -> incl (reads x) D -> incl (rd (d ++ [x])) D.
  Proof.
    intros Ds H R. rewrite rd_app. rewrite dr_app in Ds. apply incl_app; [apply H; intros y I; apply Ds, in_app_iff; now left|]. cbn [flat_map]. now rewrite app_nil_r.
  Qed.
  Lemma expr_reads : forall e, reads_ok e.
  Proof.
    induction e as [e IH] using expr_ind'. intros V n s n' E Ds.
    assert (Vc : forall c, In c (children e) -> forall d, within c d -> In (variable d) D).
    { intros c I d W. apply V. eapply within_trans; [|exact W]. eapply W_child; [constructor|exact I]. }
    assert (Vs : forall c, In c (children e) -> In (variable c) D) by (intros c I; apply (Vc c I); constructor).
    assert (L1 : forall c n s n', In c (children e) -> lower_expr c n = Some (s, n') -> incl (dr s) D -> incl (rd s) D) by (intros; eapply IH; eauto).
    assert (L2 : forall a b n s n' m t m', In a (children e) -> In b (children e) -> lower_expr a n = Some (s, n') -> lower_expr b m = Some (t, m') -> incl (dr (s ++ t)) D -> incl (rd (s ++ t)) D).
    { intros a b m1 s1 m2 m3 t1 m4 Ia Ib Ea Eb Dd. rewrite dr_app in Dd. rewrite rd_app. apply incl_app; [eapply (L1 a); eauto|eapply (L1 b); eauto]; intros x I; apply Dd, in_app_iff; auto. }
    destruct e as [id t k]; destruct k; cbn [lower_expr] in E; cbn [children] in *.
    - donep E. intros ? [].
    - donep E. intros ? [].
    - donep E. intros ? [].
    - destruct (bin_operator op a b); [|discriminate]. do 2 stepp E. donep E. rewrite app_assoc in *. apply self_reads; [exact Ds| |].
      + eapply (L2 a b); try eassumption; cbn; auto.
      + intros x [<-|[<-|[]]]; apply Vs; cbn; auto.
    - stepp E. donep E. apply self_reads; [exact Ds|eapply L1; [now left|eassumption]|]. intros x [<-|[]]; apply Vs; now left.
    - stepp E. donep E. apply self_reads; [exact Ds|eapply each_reads; try eassumption; intros; eapply Vc; eassumption|]. intros x I. cbn [reads] in I. apply in_map_iff in I as (c & <- & I). now apply Vs.
    - stepp E. donep E. apply self_reads; [exact Ds|eapply L1; [now left|eassumption]|]. intros x [<-|[]]; apply Vs; now left.
    - stepp E. destruct (field_index members f); [|discriminate]. donep E. apply self_reads; [exact Ds|eapply L1; [now left|eassumption]|]. intros x [<-|[]]; apply Vs; now left.
    - stepp E. donep E. apply self_reads; [exact Ds|eapply L1; [now left|eassumption]|]. intros x [<-|[]]; apply Vs; now left.
    - stepp E. donep E. apply self_reads; [exact Ds|eapply each_reads; try eassumption; intros; eapply Vc; eassumption|]. intros x I. cbn [reads] in I. apply in_map_iff in I as (c & <- & I). now apply Vs.
    - stepp E. donep E. apply self_reads; [exact Ds|eapply L1; [now left|eassumption]|]. intros x I. cbn [reads] in I. apply repeat_spec in I. subst. apply Vs; now left.
    - do 2 stepp E. donep E. rewrite app_assoc in *. apply self_reads; [exact Ds| |].
      + eapply (L2 a i); try eassumption; cbn; auto.
      + intros x [<-|[<-|[]]]; apply Vs; cbn; auto.
    - stepp E. destruct (match e with Some m => Some m | None => _ end); [|discriminate]. donep E. apply self_reads; [exact Ds|eapply L1; [now left|eassumption]|]. intros x [<-|[]]; apply Vs; now left.
    - stepp E. assert (S : incl (dr s0) D -> incl (rd s0) D).
      { intros Dd. eapply stms_reads; [| |eassumption|exact Dd].
        - intros st I e Ie. apply IH, in_or_app. left. apply in_flat_map. eauto.
        - intros st e c I Ie. apply (Vc e), in_or_app. left. apply in_flat_map. eauto. }
      destruct r as [r|].
      + stepp E. donep E. rewrite dr_app in Ds. rewrite rd_app. apply incl_app; [apply S; intros x I; apply Ds, in_app_iff; now left|].
        eapply (L1 r); [apply in_or_app; right; now left|eassumption|]. intros x I; apply Ds, in_app_iff; now right.
      + donep E. apply self_reads; [exact Ds|exact S|]. intros x [].
    - do 3 stepp E. donep E. rewrite app_assoc in *. rewrite (app_assoc (s0 ++ s1)) in *. apply self_reads; [exact Ds| |].
      + intros Dd. rewrite dr_app in Dd. rewrite rd_app. apply incl_app.
        * eapply (L2 c a); try eassumption; cbn; auto. intros x I; apply Dd, in_app_iff; now left.
        * eapply (L1 b); [cbn; auto|eassumption|]. intros x I; apply Dd, in_app_iff; now right.
      + intros x [<-|[<-|[<-|[]]]]; apply Vs; cbn; auto.
    - do 3 stepp E. destruct s2 as [s2 ops]. donep E. rewrite app_assoc in *. rewrite !dr_app in Ds.
      assert (D2 : incl (dr s2) D) by (intros x I; apply Ds; rewrite !in_app_iff; tauto).
      assert (K : forall p g x, In (p, g, x) arms -> forall y, In y (opt g ++ [x]) -> reads_ok y /\ forall d, within y d -> In (variable d) D).
      { intros p g x I y Iy. assert (J : In y (a :: flat_map (fun arm : lpat * option expr * expr => opt (snd (fst arm)) ++ [snd arm]) arms)) by (right; apply in_flat_map; exists (p, g, x); auto).
        split; [now apply IH|]. now apply Vc. }
      assert (H : forall p g x, In (p, g, x) arms -> (reads_ok x /\ forall c, within x c -> In (variable c) D) /\ forall g', g = Some g' -> reads_ok g' /\ forall c, within g' c -> In (variable c) D).
      { intros p g x I. split; [apply (K p g x I), in_or_app; right; now left|]. intros g' ->. apply (K p (Some g') x I), in_or_app. left. now left. }
      match goal with E : lower_arms _ _ _ _ = Some (s2, ops, _) |- _ => destruct (arms_reads (variable a) arms (Vs a (or_introl eq_refl)) H _ _ _ _ E D2) as [R1 R2] end.
      rewrite !rd_app. apply incl_app; [apply incl_app; [|exact R1]|cbn [flat_map reads]; rewrite ?app_nil_r; exact R2]. eapply (L1 a); [now left|eassumption|]. intros x I; apply Ds; rewrite !in_app_iff; tauto.
    - stepp E. destruct (call_stmt id (to_mir_type t) c (map variable args) _) as [st|] eqn:C; [|discriminate]. donep E. apply self_reads; [exact Ds|eapply each_reads; try eassumption; intros; eapply Vc; eassumption|].
      assert (R : reads st = map variable args).
      { destruct c as [i| | |]; cbn [call_stmt] in C; try (injection C as <-; reflexivity).
        destruct i; cbn [call_stmt] in C; try (match type of C with option_map _ ?o = _ => destruct o; [|discriminate]; injection C as <-; reflexivity end).
        destruct args as [|a [|]]; try discriminate. cbn [map] in *. destruct (_ =? _); [|discriminate]. injection C as <-. reflexivity. }
      rewrite R. intros x I. apply in_map_iff in I as (d & <- & I). now apply Vs.
  Qed.
End Closed.

(** Everything has a name that is driven. *)
Lemma pat_name_in p x t : pat_name p x t -> In (NName x) (pat_names p).
Proof.
  induction 1 as [id t x i|id t x q y s Q IH|id t k l q x s Ik Iq Q IH|id t i l q x s Iq Q IH].
  - now left.
  - right. exact IH.
  - destruct Ik as [<-|[<-|[<-|[]]]]; right; apply in_flat_map; eauto.
  - right. apply in_flat_map. eauto.
Qed.
Lemma variable_driven prog u n s n' : well_typed prog u -> lower_expr (body u) n = Some (s, n') ->
  forall e, within (body u) e -> In (variable e) (map (fun i => NName (fst i)) (inputs u) ++ dr s).
Proof.
  intros WT L. fix IH 1. intros [id t k] W. pose proof (WT _ W) as N. destruct (within_lowered _ _ W _ _ _ L) as (n1 & s1 & n2 & L' & I).
  pose proof (proj1 (node_inv _ _ _ _ _ _ L')) as Em.
  assert (K : forall x st, In st s1 -> In x (drives st) -> In x (map (fun i => NName (fst i)) (inputs u) ++ dr s)).
  { intros x st J X. apply in_app_iff. right. apply in_flat_map. eauto. }
  destruct k; cbn [node_ok emitted variable] in *; try (eapply K; [exact Em|now left]).
  - destruct N as [x t I'|p e x t C N|p c r v x t C N|id' ty a arms p g e x t Wm I' N]; apply in_app_iff.
    + left. apply (in_map (fun i => NName (fst i)) _ _ I').
    + right. destruct (contains_lowered _ _ C _ _ _ L) as (n3 & s3 & n4 & L3 & I3). apply (xs_incl _ _ I3). cbn [lower_stm] in L3. do 3 stepp L3. donep L3.
      rewrite dr_app. apply in_app_iff. right. apply lift_inv in E1. apply (proj2 (lower_reads _ _ _ _ _ _ E1)). now apply pat_name_in with t.
    + right. destruct (contains_lowered _ _ C _ _ _ L) as (n3 & s3 & n4 & L3 & I3). apply (xs_incl _ _ I3). cbn [lower_stm] in L3. do 5 stepp L3. donep L3.
      rewrite !dr_app. do 3 (apply in_app_iff; right). apply lift_inv in E3. apply pat_name_in in N. rewrite pat_names_eq in N. cbn [flat_map drives app].
      destruct N as [<-|N]; [now left|]. right. now apply (proj2 (inner_reads _ _ _ _ _ E3)).
    + right. destruct (within_lowered _ _ Wm _ _ _ L) as (n3 & s3 & n4 & L3 & I3). destruct (proj1 (node_inv _ _ _ _ _ _ L3)) as (n5 & s5 & ops & n6 & La & Ia & _).
      destruct (arms_inv _ _ _ _ _ _ _ La p g e I') as (_ & _ & _ & _ & _ & _ & m & J). apply (xs_incl s5 s); [eapply incl_tran; eassumption|]. apply (xs_incl _ _ J).
      destruct (lower p (variable a) (to_mir_type (lty p)) m) as [sl ml] eqn:El. cbn [fst]. apply (proj2 (lower_reads _ _ _ _ _ _ El)). now apply pat_name_in with t.
  - destruct Em as (o & _ & Em). eapply K; [exact Em|now left].
  - destruct Em as (o & _ & Em). eapply K; [exact Em|now left].
  - destruct Em as (o & _ & Em). eapply K; [exact Em|now left].
  - destruct Em as [_ Em]. destruct r as [r|].
    + apply IH. eapply W_child; [exact W|]. cbn [children]. apply in_or_app. right. now left.
    + eapply K; [exact Em|now left].
  - destruct Em as (n0 & s0 & ops & n3 & _ & _ & Em). eapply K; [exact Em|now left].
  - destruct Em as (st & C & J). eapply K; [exact J|].
    destruct c as [i| | |]; cbn [call_stmt] in C; try (injection C as <-; now left).
    destruct i; cbn [call_stmt] in C; try (match type of C with option_map _ ?o = _ => destruct o; [|discriminate]; injection C as <-; now left end).
    repeat match type of C with context [match ?x with _ => _ end] => destruct x; try discriminate end. injection C as <-. now left.
Qed.
Lemma unit_signals prog u n e n' : well_typed prog u -> generate_unit u n = Some (e, n') ->
  incl (en_output e :: rd (en_stmts e)) (map fst (en_inputs e) ++ dr (en_stmts e)).
Proof.
  intros WT G. destruct (unit_inv _ _ _ _ G) as ([n0 L] & Ei & Eo). rewrite Ei, Eo, map_map. cbn [fst].
  pose proof (variable_driven _ _ _ _ _ WT L) as V. intros x [<-|I]; [apply V; constructor|].
  apply (expr_reads _ (body u) V _ _ _ L); [|exact I]. intros y J. apply in_app_iff. now right.
Qed.
Lemma unit_drivers u n e n' : generate_unit u n = Some (e, n') -> NoDup (map (fun i => NName (fst i)) (inputs u) ++ names (body u)) -> below n (names (body u)) ->
  NoDup (map fst (en_inputs e) ++ dr (en_stmts e)).
Proof.
  intros G N B. destruct (unit_inv _ _ _ _ G) as ([n0 L] & Ei & _). rewrite Ei, map_map. cbn [fst]. apply NoDup_app_iff in N as (N1 & N2 & Dj).
  destruct (expr_piece _ _ _ _ L) as (_ & P & Q). apply NoDup_app_iff. repeat split; auto. intros x I J. destruct (P x J) as [K|(k & -> & _)]; [eauto|].
  apply in_map_iff in I as (i & E & _). discriminate.
Qed.
Lemma unit_counter u n e n' : generate_unit u n = Some (e, n') -> n <= n'.
Proof. unfold generate_unit. intros H. stepp H. donep H. exact (proj1 (expr_piece _ _ _ _ E)). Qed.
