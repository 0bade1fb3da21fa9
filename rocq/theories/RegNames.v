(** The register passes define every signal once. *)
From Coq Require Import List Bool Arith Lia Permutation.
From Verif Require Import Bits CodegenModel CodegenSpec MirModel MirSpec MirDedup RegModel.
Import ListNotations.

(** the fresh names are between [n] and [n'] *)
Definition within (n n' : nat) (l : list vn) : Prop := Forall (fun x => exists k, x = EId k /\ n <= k < n') l.
Definition defines (r : list stmt * nat) (n : nat) (name : vn) : Prop :=
  n <= snd r /\ exists fresh, Permutation (flat_map defined (fst r)) (name :: fresh) /\ NoDup fresh /\ within n (snd r) fresh.

Lemma within_mono : forall n n' m m' l, m <= n -> n' <= m' -> within n n' l -> within m m' l.
Proof. intros n n' m m' l A B. apply Forall_impl. intros x (k & -> & L). exists k. split; auto. lia. Qed.
Lemma within_disjoint : forall n m k l l', within n m l -> within m k l' -> forall x, In x l -> ~ In x l'.
Proof.
  unfold within. intros n m k l l' A B x I J. rewrite Forall_forall in A, B.
  destruct (A _ I) as (a & -> & La). destruct (B _ J) as (b & E & Lb). inversion E. lia.
Qed.
Lemma NoDup_app_intro : forall A (l l' : list A), NoDup l -> NoDup l' -> (forall x, In x l -> ~ In x l') -> NoDup (l ++ l').
Proof.
  induction l as [|a l IH]; intros l' N N' D; auto. inversion N; subst. cbn. constructor.
  - rewrite in_app_iff. intros [I|I]; [auto|]. apply (D a (or_introl eq_refl) I).
  - apply IH; auto. intros x I. apply D. right. auto.
Qed.

Lemma split_members_names : forall value ms i n,
  Forall (fun m : member => forall nm vl k, defines (snd m nm vl k) k nm) ms ->
  let q := split_members value ms i n in
  n <= snd q /\ exists fresh, Permutation (flat_map defined (snd (fst q))) fresh /\ NoDup fresh /\ within n (snd q) fresh.
Proof.
  induction ms as [|[t mk] ms IH]; intros i n F.
  - cbn. split; auto. exists []. split; [constructor|]. split; constructor.
  - inversion F as [|m l D Fl]; subst. specialize (D (EId (S n)) (EId n) (S (S n))). cbn [snd] in D.
    destruct D as (Le & fr & P & N & W). cbn [split_members fst snd].
    specialize (IH (S i) (snd (mk (EId (S n)) (EId n) (S (S n)))) Fl). cbn zeta in IH.
    destruct IH as (Le' & fr' & P' & N' & W'). split; [lia|].
    exists (EId n :: (EId (S n) :: fr) ++ fr'). split.
    + cbn [flat_map defined app]. apply perm_skip. rewrite flat_map_app. apply (Permutation_app (l := _) (l' := EId (S n) :: fr)); auto.
    + assert (W2 : within (S n) (snd (mk (EId (S n)) (EId n) (S (S n)))) (EId (S n) :: fr)).
      { constructor; [exists (S n); split; auto; lia|]. eapply within_mono; [| |exact W]; lia. }
      assert (N2 : NoDup (EId (S n) :: fr)).
      { constructor; auto. intros I. unfold within in W. rewrite Forall_forall in W.
        destruct (W _ I) as (k & E & L). inversion E. lia. }
      assert (W3 : within (S n) (snd (split_members value ms (S i) (snd (mk (EId (S n)) (EId n) (S (S n))))))
        ((EId (S n) :: fr) ++ fr')).
      { apply Forall_app. split; [eapply within_mono; [| |exact W2]; lia|eapply within_mono; [| |exact W']; lia]. }
      split.
      * constructor.
        -- intros I. unfold within in W3. rewrite Forall_forall in W3. destruct (W3 _ I) as (k & E & L). inversion E. lia.
        -- apply NoDup_app_intro; auto. eapply within_disjoint; eauto.
      * constructor; [exists n; split; auto; lia|]. eapply within_mono; [| |exact W3]; lia.
Qed.
Lemma generate_names : forall t name value ms n,
  Forall (fun m : member => forall nm vl k, defines (snd m nm vl k) k nm) ms ->
  defines (generate_split_code t name value ms n) n name.
Proof.
  intros t name value ms n F. pose proof (split_members_names value ms 0 n F) as H. cbn zeta in H.
  destruct H as (Le & fr & P & N & W). split; auto. exists fr. split; [|auto].
  unfold generate_split_code. cbn [fst snd]. rewrite flat_map_app. cbn.
  rewrite P. symmetry. apply Permutation_cons_append.
Qed.
Lemma split_reg_names : forall clock reset t name value n,
  defines (split_compound_reg clock reset t name value n) n name.
Proof.
  intros clock reset. induction t using ty_nested_ind; intros name value k;
    try (split; [apply le_n|]; exists []; split; [apply Permutation_refl|]; split; constructor).
  - cbn [split_compound_reg]. apply generate_names. apply Forall_forall. intros m I.
    apply in_map_iff in I as (x & <- & I). rewrite Forall_forall in H. intros. apply H. exact I.
  - cbn [split_compound_reg]. apply generate_names. apply Forall_forall. intros m I.
    apply in_map_iff in I as (x & <- & I). rewrite Forall_forall in H. intros. apply (H x I).
  - cbn [split_compound_reg]. apply generate_names. apply Forall_forall. intros m I.
    apply repeat_spec in I. subst m. intros. apply IHt.
Qed.

(** A pass that replaces a statement by ones which define its name and fresh ones. *)
Section Pass.
Variable step : stmt -> nat -> list stmt * nat.
Hypothesis step_ok : forall s n, n <= snd (step s n) /\ exists fresh,
  Permutation (flat_map defined (fst (step s n))) (defined s ++ fresh) /\ NoDup fresh /\ within n (snd (step s n)) fresh.
Fixpoint pass (ss : list stmt) (n : nat) : list stmt * nat :=
  match ss with
  | [] => ([], n)
  | s :: rest => let r := step s n in let q := pass rest (snd r) in (fst r ++ fst q, snd q)
  end.
Lemma pass_names : forall ss n, n <= snd (pass ss n) /\ exists fresh,
  Permutation (flat_map defined (fst (pass ss n))) (flat_map defined ss ++ fresh) /\ NoDup fresh /\
  within n (snd (pass ss n)) fresh.
Proof.
  induction ss as [|s ss IH]; intros n.
  - cbn. split; auto. exists []. split; [constructor|]. split; constructor.
  - cbn [pass fst snd flat_map]. destruct (step_ok s n) as (Le & fr & P & N & W).
    destruct (IH (snd (step s n))) as (Le' & fr' & P' & N' & W'). split; [lia|].
    exists (fr ++ fr'). split; [|split].
    + rewrite flat_map_app, P, P', <- !app_assoc. apply Permutation_app_head.
      rewrite !app_assoc. apply Permutation_app_tail. apply Permutation_app_comm.
    + apply NoDup_app_intro; auto. eapply within_disjoint; eauto.
    + apply Forall_app. split; [eapply within_mono; [| |exact W]; lia|eapply within_mono; [| |exact W']; lia].
Qed.
Lemma pass_once : forall ss n, NoDup (flat_map defined ss) ->
  (forall k, In (EId k) (flat_map defined ss) -> k < n) ->
  NoDup (flat_map defined (fst (pass ss n))) /\
  incl (flat_map defined ss) (flat_map defined (fst (pass ss n))) /\
  forall x, In x (flat_map defined (fst (pass ss n))) ->
    In x (flat_map defined ss) \/ exists k, x = EId k /\ n <= k < snd (pass ss n).
Proof.
  intros ss n N B. destruct (pass_names ss n) as (Le & fr & P & Nf & W). split; [|split].
  - rewrite P. apply NoDup_app_intro; auto. intros x I J. unfold within in W. rewrite Forall_forall in W.
    destruct (W _ J) as (k & -> & L). apply B in I. lia.
  - intros x I. rewrite P. apply in_or_app. auto.
  - intros x I. rewrite P in I. apply in_app_or in I as [I|I]; auto. right. unfold within in W. rewrite Forall_forall in W. auto.
Qed.
End Pass.

Definition split_step (s : stmt) (n : nat) : list stmt * nat :=
  match s with
  | SReg name t clock reset None value => split_compound_reg clock reset t name value n
  | other => ([other], n)
  end.
Lemma split_is_pass : forall ss n, split_compound_regs ss n = pass split_step ss n.
Proof.
  induction ss as [|s ss IH]; intros n; [reflexivity|]. cbn [split_compound_regs pass].
  destruct s as [ | |nm t c r [i|] v| | | | ]; cbn [split_step fst snd]; rewrite IH; reflexivity.
Qed.
Lemma unchanged : forall s n, n <= snd ([s], n) /\ exists fresh : list vn,
  Permutation (flat_map defined (fst ([s], n))) (defined s ++ fresh) /\ NoDup fresh /\ within n (snd ([s], n)) fresh.
Proof. intros. split; [apply le_n|]. exists []. cbn. split; [auto|]. split; constructor. Qed.
Lemma split_step_ok : forall s n, n <= snd (split_step s n) /\ exists fresh,
  Permutation (flat_map defined (fst (split_step s n))) (defined s ++ fresh) /\ NoDup fresh /\
  within n (snd (split_step s n)) fresh.
Proof.
  intros s n. destruct s as [ | |nm t c r [i|] v| | | | ]; try apply unchanged.
  apply split_reg_names.
Qed.

Definition gate_step (s : stmt) (n : nat) : list stmt * nat :=
  match s with
  | SReg name t clock reset None value =>
      match perform_trivial_gating clock reset t name value n with
      | Some r => r
      | None => ([s], n)
      end
  | other => ([other], n)
  end.
Lemma gate_is_pass : forall ss n, enum_clock_gating ss n = pass gate_step ss n.
Proof.
  induction ss as [|s ss IH]; intros n; [reflexivity|]. cbn [enum_clock_gating pass]. fold (gate_step s n).
  rewrite IH. reflexivity.
Qed.
Lemma gate_step_ok : forall s n, n <= snd (gate_step s n) /\ exists fresh,
  Permutation (flat_map defined (fst (gate_step s n))) (defined s ++ fresh) /\ NoDup fresh /\
  within n (snd (gate_step s n)) fresh.
Proof.
  intros s n. destruct s as [ | |nm t c r [i|] v| | | | ]; try apply unchanged. cbn [gate_step].
  destruct (perform_trivial_gating c r t nm v n) as [[ss n']|] eqn:G; [|apply unchanged]. cbn [fst snd defined].
  unfold perform_trivial_gating in G.
  destruct t as [| | | | | | |opts | | | ]; try discriminate. destruct opts as [|[|? ?] [|payload [|? ?]]]; try discriminate.
  destruct r as [[trig v0]|]; cbv zeta iota in G; inversion G; subst; clear G; (split; [lia|]).
  - exists [EId (n + 3); EId (n + 4); EId (n + 5); EId (n + 6); EId n; EId (n + 2); EId (n + 1)].
    split; [|split].
    +      match goal with |- Permutation ?a ?b => change b with (nm :: removelast a) end. cbn [removelast].
      match goal with |- Permutation ?a (nm :: ?b) => change a with (b ++ [nm]) end.
      symmetry. apply Permutation_cons_append.
    + repeat constructor; cbn; intros H; repeat (destruct H as [H|H]; [inversion H; lia|]); auto.
    + repeat constructor; eexists; (split; [reflexivity|lia]).
  - exists [EId (n + 3); EId (n + 4); EId n; EId (n + 2); EId (n + 1)].
    split; [|split].
    + match goal with |- Permutation ?a ?b => change b with (nm :: removelast a) end. cbn.
      match goal with |- Permutation ?a (nm :: ?b) => change a with (b ++ [nm]) end.
      symmetry. apply Permutation_cons_append.
    + repeat constructor; cbn; intros H; repeat (destruct H as [H|H]; [inversion H; lia|]); auto.
    + repeat constructor; eexists; (split; [reflexivity|lia]).
Qed.
