From Coq Require Import List Ascii String Arith Lia.
Import ListNotations.
From Verif Require Import ArgModel ArgSpec.

Lemma split_not : forall t, split t <> [].
Proof. destruct t; simpl; [discriminate|]. destruct (Ascii.eqb _ _); [discriminate|]. destruct (split t); discriminate. Qed.

Lemma split_one : forall t, no_comma t -> split t = [t].
Proof.
  induction t; intros H; simpl; auto.
  destruct (Ascii.eqb_spec a comma). { elim H; left; auto. }
  rewrite IHt; auto. intros X; apply H; right; auto.
Qed.

Lemma split_app : forall a b, no_comma a -> split (a ++ [comma] ++ b) = a :: split b.
Proof.
  induction a; intros b H; simpl; auto.
  destruct (Ascii.eqb_spec a comma). { elim H; left; auto. }
  simpl in IHa. rewrite IHa; auto. intros X; apply H; right; auto.
Qed.

Lemma split_parts : forall t p, In p (split t) -> no_comma p.
Proof.
  induction t; simpl; intros p H. { destruct H as [<-|[]]. intros []. }
  destruct (Ascii.eqb_spec a comma).
  - destruct H as [<-|H]; auto. intros [].
  - destruct (split t) as [|q ps] eqn:E.
    + elim (split_not t E).
    + destruct H as [<-|H].
      * intros [X|X]; [congruence|]. exact (IHt q (or_introl eq_refl) X).
      * apply IHt. right; auto.
Qed.

Fixpoint join (l : list text) : text :=
  match l with [] => [] | [p] => p | p :: l => p ++ [comma] ++ join l end.

Lemma split_join : forall t, join (split t) = t.
Proof.
  induction t; auto. cbn [split].
  destruct (Ascii.eqb_spec a comma).
  - subst. pose proof (split_not t). destruct (split t); [easy|]. simpl in *. rewrite IHt; auto.
  - pose proof (split_not t). destruct (split t) as [|p [|q ps]]; [easy| |]; simpl in *; rewrite IHt; auto.
Qed.

Lemma split_length : forall t, List.length (split t) = S (commas t).
Proof.
  unfold commas. induction t; auto. cbn [split count_occ].
  destruct (Ascii.eqb_spec a comma), (ascii_dec a comma); try congruence.
  - simpl. rewrite IHt; auto.
  - pose proof (split_not t). destruct (split t); [easy|]. simpl in *. auto.
Qed.

Lemma commas_none : forall t, no_comma t <-> commas t = 0.
Proof. intros. unfold no_comma, commas. rewrite (count_occ_not_In ascii_dec). tauto. Qed.

Lemma continue_iff : forall l lead p, continue_path lead l = Some (p, []) <->
  exists q, p = lead ++ q /\ (forall n, written (n :: q) = Ident n :: l \/ written (n :: q) ++ [Separator] = Ident n :: l).
Proof.
  assert (G : forall m l, List.length l <= m -> forall lead p, continue_path lead l = Some (p, []) <->
  exists q, p = lead ++ q /\ (forall n, written (n :: q) = Ident n :: l \/ written (n :: q) ++ [Separator] = Ident n :: l)).
  { induction m; intros l L lead p.
    - destruct l; [|simpl in L; lia]. simpl. split.
      + intros [= <-]. exists []. rewrite app_nil_r. auto.
      + intros (q & -> & H). specialize (H []). destruct q; [rewrite app_nil_r; auto|].
        destruct H as [H|H]; simpl in H; discriminate.
    - destruct l as [|[x| | |] l].
      + simpl. split.
        * intros [= <-]. exists []. rewrite app_nil_r. auto.
        * intros (q & -> & H). specialize (H []). destruct q; [rewrite app_nil_r; auto|].
          destruct H as [H|H]; simpl in H; discriminate.
      + simpl. split; [discriminate|]. intros (q & _ & H). specialize (H []).
        destruct q; destruct H as [H|H]; simpl in H; discriminate.
      + destruct l as [|[y| | |] l].
        * simpl. split.
          -- intros [= <-]. exists []. rewrite app_nil_r. auto.
          -- intros (q & -> & H). specialize (H []). destruct q; [rewrite app_nil_r; auto|].
             destruct q; destruct H as [H|H]; simpl in H; discriminate.
        * cbn [continue_path]. rewrite IHm by (simpl in L; lia). split.
          -- intros (q & -> & H). exists (y :: q). rewrite <- app_assoc. split; auto.
             intros n. specialize (H y). change (written (n :: y :: q)) with (Ident n :: Separator :: written (y :: q)).
             destruct H as [H|H]; [left|right; cbn [app]]; rewrite H; auto.
          -- intros (q & -> & H). destruct q as [|z q].
             { specialize (H []). destruct H as [H|H]; simpl in H; discriminate. }
             assert (z = y). { specialize (H []). destruct q; destruct H as [H|H]; simpl in H; congruence. }
             subst z. exists q. rewrite <- app_assoc. split; auto. intros n. specialize (H []).
             change (written ([] :: y :: q)) with (Ident [] :: Separator :: written (y :: q)) in H.
             destruct H as [H|H]; [left|right]; destruct q; simpl in *; congruence.
        * simpl. split; [discriminate|]. intros (q & _ & H). specialize (H []).
          destruct q as [|? [|]]; destruct H as [H|H]; simpl in H; discriminate.
        * simpl. split; [discriminate|]. intros (q & _ & H). specialize (H []).
          destruct q as [|? [|]]; destruct H as [H|H]; simpl in H; discriminate.
        * simpl. split; [discriminate|]. intros (q & _ & H). specialize (H []).
          destruct q as [|? [|]]; destruct H as [H|H]; simpl in H; discriminate.
      + simpl. split; [discriminate|]. intros (q & _ & H). specialize (H []).
        destruct q; destruct H as [H|H]; simpl in H; discriminate.
      + simpl. split; [discriminate|]. intros (q & _ & H). specialize (H []).
        destruct q; destruct H as [H|H]; simpl in H; discriminate. }
  intros. eapply G; eauto.
Qed.

Lemma path_iff : forall l p, path l = Some (p, []) <-> p <> [] /\ (l = written p \/ l = written p ++ [Separator]).
Proof.
  intros l p. split.
  - destruct l as [|[x| | |] l]; try discriminate. simpl. intros H. apply continue_iff in H.
    destruct H as (q & -> & H). split; [discriminate|]. specialize (H x). simpl app.
    destruct H as [H|H]; [left|right]; symmetry; exact H.
  - intros (P & H). destruct p as [|x q]; [easy|].
    assert (exists l', l = Ident x :: l') as (l' & ->) by (destruct q; destruct H as [->| ->]; simpl; eauto).
    simpl. apply continue_iff. exists q. split; auto. intros n.
    destruct q; destruct H as [H|H]; [left|right|left|right]; simpl in *; congruence.
Qed.

Lemma part_iff : forall lex t q p, namespace_part lex t q = Ok p <-> stands_loosely lex t p.
Proof.
  intros. unfold namespace_part, stands_loosely, stands_for. destruct t as [|c t].
  - split. { intros [= <-]. auto. } intros [[(_ & ->)|(X & _)]|(X & _)]; congruence.
  - assert (N : c :: t <> []) by discriminate. split.
    + destruct (path (lex (c :: t))) as [(p', [|])|] eqn:E; simpl; intros H; try discriminate.
      injection H as <-. apply path_iff in E. destruct E as (P & [E|E]); [left; right|right]; auto.
    + intros H. assert (E : path (lex (c :: t)) = Some (p, [])).
      { apply path_iff. destruct H as [[(X & _)|(_ & P & E)]|(_ & P & E)]; [congruence| |]; auto. }
      rewrite E. auto.
Qed.

Lemma part_err : forall lex t q m, namespace_part lex t q = Err m -> m = Parsing t \/ m = Parsing q.
Proof.
  unfold namespace_part. intros lex t q m. destruct t; [discriminate|].
  destruct (path _) as [(p, r)|]; [destruct (expect_eof r)|]; intros [= <-]; auto.
Qed.
