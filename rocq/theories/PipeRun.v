(** The registers inserted between stages keep every variable of an item together. *)
From Coq Require Import List Bool Arith Lia.
From Verif Require Import PipeModel PipeSpec PipeProofs.
Import ListNotations.

Lemma item_in_S : forall ready k t,
  item_in ready (S k) (S t) = if ready k t then item_in ready k t else item_in ready (S k) t.
Proof. reflexivity. Qed.
Lemma item_in_S0 : forall ready k, item_in ready (S k) 0 = None.
Proof. reflexivity. Qed.

Lemma item_in_unstalled : forall ready, (forall k t, ready k t = true) ->
  forall k t, item_in ready k t = if t <? k then None else Some (t - k).
Proof.
  intros ready Hr. induction k as [|k IH]; intros t.
  - cbn. now rewrite Nat.sub_0_r.
  - destruct t as [|t]; [reflexivity|]. rewrite item_in_S, Hr, IH. reflexivity.
Qed.

Section Run.
  Variable V : Type.
  Notation m0 := (fun _ : nat => @None sub).

  Lemma last_map_nth : forall s stage, length (inner s) = S stage -> last_map s = nth stage (inner s) m0.
  Proof.
    intros [inn live] stage H. unfold last_map. cbn in *.
    destruct (rev inn) as [|m r] eqn:E.
    - apply (f_equal (@length _)) in E. rewrite rev_length in E. cbn in E. lia.
    - apply (f_equal (@rev _)) in E. rewrite rev_involutive in E. cbn in E. subst inn.
      rewrite last_last. rewrite app_length, rev_length in H. cbn in H.
      rewrite app_nth2; rewrite rev_length; [|lia]. replace (stage - length r) with 0 by lia. reflexivity.
  Qed.

  Lemma insert_last_nth : forall s stage x v k, length (inner s) = S stage ->
    length (insert_last s x v) = S stage /\
    nth k (insert_last s x v) m0 = (if k =? stage then put (last_map s) x v else nth k (inner s) m0).
  Proof.
    intros [inn live] stage x v k H. unfold insert_last, last_map. cbn [inner] in *.
    destruct (rev inn) as [|m r] eqn:E.
    - apply (f_equal (@length _)) in E. rewrite rev_length in E. cbn in E. lia.
    - apply (f_equal (@rev _)) in E. rewrite rev_involutive in E. cbn in E. subst inn.
      rewrite removelast_last, last_last. rewrite app_length, rev_length in H. cbn in H.
      split; [rewrite app_length, rev_length; cbn; lia|].
      destruct (Nat.eqb_spec k stage) as [->|Hne].
      + rewrite app_nth2; rewrite rev_length; [|lia]. replace (stage - length r) with 0 by lia. reflexivity.
      + destruct (Nat.lt_ge_cases k (length r)).
        * rewrite !app_nth1; rewrite ?rev_length; auto.
        * rewrite !nth_overflow; auto; rewrite app_length, rev_length; cbn; lia.
  Qed.

  Lemma nodup_snoc : forall (l : list nat) x, NoDup l -> ~ In x l -> NoDup (l ++ [x]).
  Proof.
    induction l as [|y l IH]; cbn; intros x Hl Hx; [constructor; [intros []|constructor]|].
    inversion Hl; subst. constructor.
    - rewrite in_app_iff. cbn. intros [?|[->|[]]]; tauto.
    - apply IH; tauto.
  Qed.

  (** One marker. *)
  Definition follows (regs : list subreg) (v v' : sub) : Prop :=
    match v with
    | Waiting lft o a d => v' = if lft =? 1 then Available (Src d) else Waiting (lft - 1) o a d
    | Available p => exists r, In r regs /\ previous r = p /\ v' = Available (new r)
    | Wire => v' = Wire
    | ZeroSized => v' = ZeroSized
    end.
  Lemma follows_mono : forall regs regs' v v', (forall r, In r regs -> In r regs') ->
    follows regs v v' -> follows regs' v v'.
  Proof.
    intros regs regs' [] v' Hi; cbn; auto. intros (r & A & B & C). exists r. auto.
  Qed.
  Lemma step_vars_ok : forall old live acc n m regs n',
    step_vars old live acc n = Some (m, regs, n') -> NoDup live ->
    (forall x, ~ In x live -> m x = acc x) /\
    (forall x, In x live -> exists v v', old x = Some v /\ m x = Some v' /\ follows regs v v').
  Proof.
    induction live as [|x live IH]; intros acc n m regs n' H Hn.
    - cbn in H. injection H as <- <- <-. split; [auto|intros x []].
    - inversion Hn as [|? ? Hnx Hnl]; subst. cbn in H.
      destruct (old x) as [v|] eqn:Ev; [|discriminate].
      set (q := match v with
            | Waiting 1 _ _ name => (Available (Src name), [], n)
            | Waiting lft orig at_ name => (Waiting (lft - 1) orig at_ name, [], n)
            | Available prev => (Available (Fresh n), [SubRegister x prev (Fresh n)], S n)
            | Wire => (Wire, [], n)
            | ZeroSized => (ZeroSized, [], n)
            end) in *.
      assert (Hq : follows (snd (fst q)) v (fst (fst q))).
      { unfold q. destruct v as [lft o a d|p| |]; cbn; auto.
        - destruct lft as [|[|lft]]; reflexivity.
        - eexists. split; [left; reflexivity|]. auto. }
      destruct q as [[v' rg] n1]. cbn in Hq.
      destruct (step_vars old live (put acc x v') n1) as [[[m' regs'] n2]|] eqn:E; [|discriminate].
      injection H as <- <- <-. destruct (IH _ _ _ _ _ E Hnl) as [I1 I2]. split.
      + intros y Hy. rewrite I1; [|intros F; apply Hy; now right].
        unfold put. destruct (Nat.eqb_spec y x) as [->|]; [exfalso; apply Hy; now left|reflexivity].
      + intros y [->|Hy].
        * exists v, v'. split; [exact Ev|]. split.
          -- rewrite I1 by exact Hnx. unfold put. now rewrite Nat.eqb_refl.
          -- eapply follows_mono; [|exact Hq]. intros r Hr. apply in_app_iff. now left.
        * destruct (I2 y Hy) as (w & w' & A & B & C). exists w, w'. repeat split; auto.
          eapply follows_mono; [|exact C]. intros r Hr. apply in_app_iff. now right.
  Qed.

  Lemma next_nth : forall s stage n s' regs n', length (inner s) = S stage ->
    next_stage s n = Some (s', regs, n') ->
    live_vars s' = live_vars s /\ length (inner s') = S (S stage) /\
    (forall k, k <= stage -> nth k (inner s') m0 = nth k (inner s) m0).
  Proof.
    intros s stage n s' regs n' L H. unfold next_stage in H.
    destruct (step_vars _ _ _ _) as [[[m rg] n1]|]; [|discriminate]. injection H as <- <- <-. cbn.
    rewrite app_length. cbn. repeat split; [lia|]. intros k Hk. apply app_nth1. lia.
  Qed.

  (** Later statements do not change what earlier names mean. *)
  Definition after_let (s : subs) (x : nat) (wire zero : bool) (time stage : nat) : subs :=
    if wire then set_wire s x else set_available s x time stage zero.
  Lemma after_let_eq : forall s x wire zero time stage, exists v,
    after_let s x wire zero time stage = Subs (insert_last s x v) (live_vars s ++ [x]) /\
    v = (if wire then Wire else if zero then ZeroSized else
         if time =? 0 then Available (Src x) else Waiting time stage (stage + time) x).
  Proof.
    intros. unfold after_let, set_wire, set_available. eexists. split; [|reflexivity].
    destruct wire; reflexivity.
  Qed.

  Lemma handle_extends : forall enables (items : list (item V)) s stage n s' regs n',
    handle enables items s stage n = Ok (s', regs, n') -> length (inner s) = S stage ->
    live_vars s' = live_vars s ++ defs items /\
    length (inner s') = S (stage + length (marks items)) /\
    (forall k x, k <= stage -> ~ In x (defs items) -> nth k (inner s') m0 x = nth k (inner s) m0 x).
  Proof.
    induction items as [|[x wire zero e|c] items IH]; intros s stage n s' regs n' H L.
    - cbn in H. injection H as <- <- <-. cbn. rewrite app_nil_r, Nat.add_0_r. auto.
    - cbn in H. destruct (available_in (lookup s 0) e) as [time|]; [|discriminate].
      fold (after_let s x wire zero (match time with Some a => a | None => 0 end) stage) in H.
      destruct (after_let_eq s x wire zero (match time with Some a => a | None => 0 end) stage) as (v & Ev & _).
      rewrite Ev in H. apply IH in H; [|apply insert_last_nth; auto].
      destruct H as (A & B & C). cbn in A, B, C. cbn. repeat split.
      + rewrite A, <- app_assoc. reflexivity.
      + exact B.
      + intros k y Hk Hy. rewrite C; [|exact Hk|tauto].
        rewrite (proj2 (insert_last_nth s stage x v k L)). destruct (Nat.eqb_spec k stage) as [->|]; [|reflexivity].
        unfold put. destruct (Nat.eqb_spec y x) as [->|]; [tauto|]. now rewrite (last_map_nth _ _ L).
    - cbn in H. destruct (next_stage s n) as [[[s1 rg] n1]|] eqn:E; [|discriminate].
      destruct (handle enables items s1 (S stage) n1) as [[[s2 rg2] n2]|] eqn:E2; [|discriminate].
      injection H as <- <- <-. destruct (next_nth _ _ _ _ _ _ L E) as (N1 & N2 & N3).
      destruct (IH _ _ _ _ _ _ E2 N2) as (A & B & C). cbn. repeat split.
      + now rewrite A, N1.
      + rewrite B. unfold marks. lia.
      + intros k y Hk Hy. rewrite C by (auto; lia). now rewrite N3 by lia.
  Qed.


  Variable sig : pname -> nat -> V.
  Variable ready : nat -> nat -> bool.
  Variable Ref : nat -> nat -> V.
  Variable used : nat -> Prop.

  (** What an entry of the substitution table of stage [k] promises. *)
  Definition R (k x : nat) (v : sub) : Prop :=
    match v with
    | Available y => forall t t0, item_in ready k t = Some t0 -> sig y t = Ref x t0
    | Waiting lft _ at_ d =>
        d = x /\ 1 <= lft /\ k + lft = at_ /\
        (forall t t0, item_in ready at_ t = Some t0 -> sig (Src x) t = Ref x t0)
    | Wire | ZeroSized => used x -> forall t t1 t0, item_in ready k t1 = Some t0 -> sig (Src x) t = Ref x t0
    end.
  Definition defprop (x d : nat) (steady : bool) (a : nat) : Prop :=
    if steady then used x -> forall t t1 t0, item_in ready d t1 = Some t0 -> sig (Src x) t = Ref x t0
    else forall t t0, item_in ready (d + a) t = Some t0 -> sig (Src x) t = Ref x t0.

  Record inv (s : subs) (stage : nat) : Prop := {
    inv_len : length (inner s) = S stage;
    inv_R : forall k x v, nth k (inner s) m0 x = Some v -> R k x v;
    inv_live : forall x, In x (live_vars s) -> last_map s x <> None;
    inv_dom : forall k x, nth k (inner s) m0 x <> None -> In x (live_vars s);
    inv_nodup : NoDup (live_vars s);
    inv_wire : forall k x v w, nth 0 (inner s) m0 x = Some w -> is_wire w = true ->
      k <= stage -> nth k (inner s) m0 x = Some v -> v = w;
  }.

  (** One definition. *)
  Lemma insert_inv : forall s stage x v, inv s stage -> ~ In x (live_vars s) -> R stage x v ->
    inv (Subs (insert_last s x v) (live_vars s ++ [x])) stage.
  Proof.
    intros s stage x v H Hx HR. destruct (insert_last_nth s stage x v 0 (inv_len _ _ H)) as [L _].
    constructor; cbn [inner live_vars].
    - exact L.
    - intros k y w. rewrite (proj2 (insert_last_nth s stage x v k (inv_len _ _ H))).
      destruct (Nat.eqb_spec k stage) as [->|Hne]; [|apply (inv_R _ _ H)].
      unfold put. destruct (Nat.eqb_spec y x) as [->|Hy].
      + intros E. injection E as <-. exact HR.
      + rewrite (last_map_nth _ _ (inv_len _ _ H)). apply (inv_R _ _ H).
    - intros y Hy. rewrite (last_map_nth _ stage); [|exact L]. cbn [inner].
      rewrite (proj2 (insert_last_nth s stage x v stage (inv_len _ _ H))), Nat.eqb_refl.
      unfold put. destruct (Nat.eqb_spec y x) as [->|Hne]; [discriminate|].
      apply (inv_live _ _ H). apply in_app_iff in Hy as [Hy|[->|[]]]; [exact Hy|congruence].
    - intros k y. rewrite (proj2 (insert_last_nth s stage x v k (inv_len _ _ H))).
      rewrite in_app_iff. destruct (Nat.eqb_spec k stage) as [->|Hne].
      + unfold put. destruct (Nat.eqb_spec y x) as [->|Hy]; [right; now left|].
        rewrite (last_map_nth _ _ (inv_len _ _ H)). intros E. left. eapply inv_dom; eauto.
      + intros E. left. eapply inv_dom; eauto.
    - apply nodup_snoc; [apply (inv_nodup _ _ H)|exact Hx].
    - intros k y v1 w1. rewrite !(fun k => proj2 (insert_last_nth s stage x v k (inv_len _ _ H))).
      rewrite (last_map_nth _ _ (inv_len _ _ H)).
      intros A B C D.
      assert (G : forall j, (if j =? stage then put (nth stage (inner s) m0) x v else nth j (inner s) m0) y =
                  if (j =? stage) && (y =? x) then Some v else nth j (inner s) m0 y).
      { intros j. destruct (Nat.eqb_spec j stage) as [->|]; cbn; [|reflexivity].
        unfold put. destruct (y =? x); reflexivity. }
      rewrite G in A, D. destruct (Nat.eqb_spec y x) as [->|Hne].
      + rewrite andb_true_r in A, D.
        assert (N : forall j, nth j (inner s) m0 x = None).
        { intros j. destruct (nth j (inner s) m0 x) eqn:En; [|reflexivity].
          exfalso. apply Hx. apply (inv_dom _ _ H j). congruence. }
        rewrite N in A, D. destruct (Nat.eqb_spec 0 stage); [|discriminate].
        destruct (Nat.eqb_spec k stage); [|discriminate]. congruence.
      + rewrite andb_false_r in A, D. eapply inv_wire; eauto.
  Qed.

  Lemma item_in_prev : forall k t t0, item_in ready (S k) t = Some t0 -> exists t', item_in ready k t' = Some t0.
  Proof.
    intros k t t0. induction t as [|t IH]; intros H; [discriminate|].
    rewrite item_in_S in H. destruct (ready k t); eauto.
  Qed.

  Definition advances (stage : nat) (r : subreg) : Prop :=
    forall t, sig (new r) (S t) = if ready stage t then sig (previous r) t else sig (new r) t.

  Lemma next_inv : forall s stage n s' regs n', inv s stage ->
    next_stage s n = Some (s', regs, n') -> Forall (advances stage) regs ->
    inv s' (S stage).
  Proof.
    intros s stage n s' regs n' H E Hr.
    destruct (next_nth _ _ _ _ _ _ (inv_len _ _ H) E) as (N1 & N2 & N3).
    unfold next_stage in E.
    destruct (step_vars _ _ _ _) as [[[m rg] n1]|] eqn:Es; [|discriminate]. injection E as <- <- <-.
    destruct (step_vars_ok _ _ _ _ _ _ _ Es (inv_nodup _ _ H)) as [S1 S2].
    assert (Nl : nth (S stage) (inner s ++ [m]) m0 = m).
    { rewrite app_nth2 by (rewrite (inv_len _ _ H); lia). rewrite (inv_len _ _ H), Nat.sub_diag. reflexivity. }
    constructor; cbn [inner live_vars].
    - exact N2.
    - intros k x v Hk. destruct (Nat.le_gt_cases k stage).
      { cbn in N3. rewrite N3 in Hk by lia. now apply (inv_R _ _ H). }
      destruct (Nat.eq_dec k (S stage)) as [->|Hne].
      2:{ rewrite nth_overflow in Hk; [discriminate|]. cbn in N2. lia. }
      rewrite Nl in Hk. destruct (in_dec Nat.eq_dec x (live_vars s)) as [Hin|Hin].
      2:{ rewrite S1 in Hk by exact Hin. discriminate. }
      destruct (S2 x Hin) as (w & w' & A & B & C). rewrite B in Hk. injection Hk as <-.
      rewrite (last_map_nth _ _ (inv_len _ _ H)) in A. apply (inv_R _ _ H) in A.
      destruct w as [lft o a d|p| |]; cbn in C.
      + subst w'. destruct A as (-> & A1 & A2 & A3). destruct (Nat.eqb_spec lft 1) as [->|Hl].
        * cbn. replace a with (S stage) in A3 by lia. exact A3.
        * cbn. repeat split; auto; lia.
      + destruct C as (r & C1 & <- & ->). rewrite Forall_forall in Hr. specialize (Hr r C1). unfold R in A |- *.
        intros t. induction t as [|t IH]; intros t0 Ht; [rewrite item_in_S0 in Ht; discriminate|].
        rewrite item_in_S in Ht. rewrite Hr. destruct (ready stage t); auto.
      + subst w'. intros Hu t t1 t0 Ht. apply item_in_prev in Ht as [t2 Ht]. exact (A Hu t t2 t0 Ht).
      + subst w'. intros Hu t t1 t0 Ht. apply item_in_prev in Ht as [t2 Ht]. exact (A Hu t t2 t0 Ht).
    - intros x Hx. rewrite (last_map_nth _ (S stage)) by exact N2. cbn [inner]. rewrite Nl.
      destruct (S2 x Hx) as (w & w' & A & B & C). congruence.
    - intros k x Hk. destruct (Nat.le_gt_cases k stage).
      { cbn in N3. rewrite N3 in Hk by lia. eapply inv_dom; eauto. }
      destruct (Nat.eq_dec k (S stage)) as [->|Hne].
      2:{ rewrite nth_overflow in Hk; [congruence|]. cbn in N2. lia. }
      rewrite Nl in Hk. destruct (in_dec Nat.eq_dec x (live_vars s)) as [Hin|Hin]; [exact Hin|].
      rewrite S1 in Hk by exact Hin. congruence.
    - apply (inv_nodup _ _ H).
    - intros k x v w A B C D. cbn [inner] in N3. rewrite N3 in A by lia.
      destruct (Nat.eq_dec k (S stage)) as [->|Hne].
      2:{ rewrite N3 in D by lia. apply (inv_wire _ _ H k x v w); auto; lia. }
      rewrite Nl in D. destruct (in_dec Nat.eq_dec x (live_vars s)) as [Hin|Hin].
      2:{ rewrite S1 in D by exact Hin. discriminate. }
      destruct (S2 x Hin) as (w1 & w' & A1 & B1 & C1). rewrite B1 in D. injection D as <-.
      rewrite (last_map_nth _ _ (inv_len _ _ H)) in A1.
      assert (w1 = w) by (eapply (inv_wire _ _ H stage); eauto). subst w1.
      destruct w; cbn in B; try discriminate; exact C1.
  Qed.

  (** The obligations for the definitions of a body. *)
  Definition Rall (s : subs) (k : nat) (scope : list nat) : Prop :=
    forall x, In x scope -> exists v, nth k (inner s) m0 x = Some v /\ R k x v.
  Definition time_of (o : option nat) : nat := match o with Some a => a | None => 0 end.
  Fixpoint defs_ok (s : subs) (stage : nat) (scope : list nat) (items : list (item V)) : Prop :=
    match items with
    | [] => True
    | ILet x w z e :: b =>
        (Rall s stage scope -> forall ta, available_in (lookup s 0) e = Ok ta ->
         defprop x stage (w || z) (time_of ta)) /\
        defs_ok s stage (scope ++ [x]) b
    | IMark _ :: b => defs_ok s (S stage) scope b
    end.

  Lemma handle_inv : forall enables (items : list (item V)) s stage n s' regs n',
    handle enables items s stage n = Ok (s', regs, n') ->
    inv s stage ->
    NoDup (live_vars s ++ defs items) ->
    body_reads_ok s' stage (live_vars s) items ->
    (forall e x, In e (exprs items) -> In x (block_names e) -> ~ In x (defs items)) ->
    (forall r, In r regs -> forall t, sig (pr_new r) (S t) =
        if ready (pr_stage r) t then sig (pr_prev r) t else sig (pr_new r) t) ->
    defs_ok s' stage (live_vars s) items ->
    inv s' (stage + length (marks items)).
  Proof.
    induction items as [|[x wire zero e|c] items IH]; intros s stage n s' regs n' H Hi Hnd Hrd Hbl Hrg Hdf.
    - cbn in H. injection H as <- <- <-. cbn. now rewrite Nat.add_0_r.
    - pose proof (handle_extends _ _ _ _ _ _ _ _ H (inv_len _ _ Hi)) as (X1 & X2 & X3).
      cbn in H. destruct (available_in (lookup s 0) e) as [time|] eqn:Ea; [|discriminate].
      fold (time_of time) in H. fold (after_let s x wire zero (time_of time) stage) in H.
      destruct (after_let_eq s x wire zero (time_of time) stage) as (v & Ev & Ev').
      rewrite Ev in H. cbn in Hdf. destruct Hdf as [Hd Hdf]. cbn in Hrd. destruct Hrd as [Hre Hrd].
      cbn in Hnd. assert (Hx : ~ In x (live_vars s)).
      { intros F. apply NoDup_remove_2 in Hnd. apply Hnd. apply in_app_iff. now left. }
      assert (Hsc : forall y, In y (live_vars s) -> ~ In y (defs (ILet x wire zero e :: items))).
      { intros y Hy F. clear -Hnd Hy F. change (defs (ILet x wire zero e :: items)) with (x :: defs items) in F.
        induction (live_vars s) as [|z l IHl]; [destruct Hy|]. cbn in Hnd. inversion Hnd; subst.
        destruct Hy as [->|Hy]; [apply H1; apply in_app_iff; now right|]. now apply IHl. }
      assert (Ra : Rall s' stage (live_vars s)).
      { intros y Hy. rewrite X3 by auto.
        pose proof (inv_live _ _ Hi y Hy) as Hl. rewrite (last_map_nth _ _ (inv_len _ _ Hi)) in Hl.
        destruct (nth stage (inner s) m0 y) as [w|] eqn:Ew; [|congruence].
        exists w. split; [reflexivity|]. now apply (inv_R _ _ Hi). }
      assert (Ha : available_in (lookup s' 0) e = Ok time).
      { rewrite <- Ea. eapply avail_ext; [exact Hre|]. intros y Hy.
        unfold lookup. rewrite X3; [reflexivity|lia|].
        destruct Hy as [Hy|[[]|Hy]]; [auto|]. apply (Hbl e); [now left|exact Hy]. }
      assert (Hi' : inv (Subs (insert_last s x v) (live_vars s ++ [x])) stage).
      { apply insert_inv; auto. specialize (Hd Ra time Ha). unfold defprop in Hd. subst v.
        destruct wire; [exact Hd|]. destruct zero; [exact Hd|]. unfold orb in Hd.
        destruct (Nat.eqb_spec (time_of time) 0) as [Hz|Hne]; unfold R.
        - rewrite Hz, Nat.add_0_r in Hd. exact Hd.
        - split; [reflexivity|]. split; [lia|]. split; [reflexivity|]. exact Hd. }
      eapply IH in H; eauto.
      + cbn. rewrite <- app_assoc. exact Hnd.
      + intros e' y He' Hy. specialize (Hbl e' y). cbn in Hbl. tauto.
    - cbn in H. destruct (next_stage s n) as [[[s1 rg] n1]|] eqn:E; [|discriminate].
      destruct (handle enables items s1 (S stage) n1) as [[[s2 rg2] n2]|] eqn:E2; [|discriminate].
      injection H as <- <- <-.
      destruct (next_nth _ _ _ _ _ _ (inv_len _ _ Hi) E) as (N1 & N2 & N3).
      assert (Hi' : inv s1 (S stage)).
      { eapply next_inv; eauto. apply Forall_forall. intros r Hr t.
        apply (Hrg (PReg stage (new r) (previous r) (nth stage enables false))).
        apply in_app_iff. left. apply in_map_iff. eauto. }
      cbn [marks flat_map]. replace (stage + length ([c] ++ flat_map (fun i : item V => match i with
                                                     | ILet _ _ _ _ => []
                                                     | IMark c0 => [c0]
                                                     end) items)) with (S stage + length (marks items))
        by (cbn; unfold marks; lia).
      rewrite <- N1 in Hnd. cbn in Hrd, Hdf. rewrite <- N1 in Hrd, Hdf.
      eapply IH; eauto.
      intros r Hr. apply Hrg. apply in_app_iff. now right.
  Qed.
End Run.
