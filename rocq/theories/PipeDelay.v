(** How far a variable is delayed when it is read in a later stage. *)
From Coq Require Import List Bool Arith Lia.
From Verif Require Import PipeModel PipeSpec PipeProofs PipeRun PipeFun PipeCtrl.
Import ListNotations.

Section Delay.
  Variable V : Type.
  Notation m0 := (fun _ : nat => @None sub).

  Lemma in_split_disjoint : forall (A B : list nat) x, NoDup (A ++ B) -> In x A -> ~ In x B.
  Proof.
    induction A as [|a A IH]; intros B x Hn Hx F; [destruct Hx|]. cbn in Hn. inversion Hn; subst.
    destruct Hx as [->|Hx]; [apply H1; apply in_app_iff; now right|]. eapply IH; eauto.
  Qed.

  (** The entries of one variable in consecutive stages. *)
  Lemma chain : forall enables (items : list (item V)) s stage n s' regs n' x,
    handle enables items s stage n = Ok (s', regs, n') ->
    length (inner s) = S stage -> NoDup (live_vars s ++ defs items) -> In x (live_vars s) ->
    forall j, j < length (marks items) ->
    exists v v' rg, nth (stage + j) (inner s') m0 x = Some v /\ nth (stage + S j) (inner s') m0 x = Some v' /\
      follows rg v v' /\
      forall r, In r rg -> In (PReg (stage + j) (new r) (previous r) (nth (stage + j) enables false)) regs.
  Proof.
    induction items as [|[y w z e|c] items IH]; intros s stage n s' regs n' x H L Hn Hx j Hj.
    - cbn in Hj. lia.
    - cbn in H. destruct (available_in (lookup s 0) e) as [time|]; [|discriminate].
      fold (time_of time) in H. fold (after_let s y w z (time_of time) stage) in H.
      destruct (after_let_eq s y w z (time_of time) stage) as (v & Ev & _). rewrite Ev in H.
      eapply IH in H; eauto.
      + now apply insert_last_nth.
      + cbn. rewrite <- app_assoc. exact Hn.
      + cbn. apply in_app_iff. now left.
    - cbn in H. destruct (next_stage s n) as [[[s1 rg] n1]|] eqn:E; [|discriminate].
      destruct (handle enables items s1 (S stage) n1) as [[[s2 rg2] n2]|] eqn:E2; [|discriminate].
      injection H as <- <- <-.
      destruct (next_nth _ _ _ _ _ _ L E) as (N1 & N2 & N3).
      destruct (handle_extends V _ _ _ _ _ _ _ _ E2 N2) as (X1 & X2 & X3).
      destruct j as [|j].
      + unfold next_stage in E. destruct (step_vars _ _ _ _) as [[[m rg'] n3]|] eqn:Es; [|discriminate].
        injection E as <- -> ->.
        assert (Hnl : NoDup (live_vars s)).
        { clear -Hn. induction (live_vars s) as [|a A IHA]; [constructor|]. cbn in Hn. inversion Hn; subst.
          constructor; [|auto]. intros F. apply H1. apply in_app_iff. now left. }
        destruct (step_vars_ok _ _ _ _ _ _ _ Es Hnl) as [_ S2].
        destruct (S2 x Hx) as (v & v' & A & B & C). exists v, v', rg.
        assert (Hxd : ~ In x (defs items)) by (eapply in_split_disjoint; [exact Hn|exact Hx]).
        rewrite Nat.add_0_r, Nat.add_1_r. rewrite !X3 by (auto; lia). cbn [inner].
        rewrite app_nth1 by lia. rewrite app_nth2 by lia. rewrite L, Nat.sub_diag. cbn [nth].
        rewrite (last_map_nth _ _ L) in A. repeat split; auto.
        intros r Hr. apply in_app_iff. left. apply in_map_iff. eauto.
      + cbn [marks flat_map app length] in Hj.
        assert (Hj' : j < length (marks items)) by (unfold marks; cbn in Hj; lia).
        rewrite <- N1 in Hn. cbn [defs flat_map app] in Hn.
        destruct (IH _ _ _ _ _ _ x E2 N2 Hn ltac:(now rewrite N1) j Hj') as (v & v' & r & A & B & C & D).
        exists v, v', r. replace (stage + S (S j)) with (S stage + S j) by lia.
        replace (stage + S j) with (S stage + j) by lia. repeat split; auto.
        intros q Hq. apply in_app_iff. right. auto.
  Qed.

  Section One.
    Variable truth : V -> bool.
    Variable junk : V.
    Variable p : pipeline V.
    Variable l : lowered.
    Variable sig : pname -> nat -> V.
    Variable bsig : bname -> nat -> bool.
    Hypothesis Hacc : accepted p l.
    Hypothesis Hrun : runs truth junk p l sig bsig.

    Lemma inputs_entry : forall ins s done, length (inner s) = 1 -> live_vars s = map iname done ->
      NoDup (map iname (done ++ ins)) ->
      let s1 := fold_left add_input ins s in
      length (inner s1) = 1 /\ live_vars s1 = map iname (done ++ ins) /\
      (forall y, ~ In y (map iname ins) -> nth 0 (inner s1) m0 y = nth 0 (inner s) m0 y) /\
      (forall i, In i ins -> nth 0 (inner s1) m0 (iname i) =
         Some (if iwire i then Wire else if izero i then ZeroSized else Available (Src (iname i)))).
    Proof using.
      induction ins as [|i ins IH]; intros s done L Hl Hn; cbv zeta.
      - cbn. rewrite app_nil_r. repeat split; auto. intros i [].
      - cbn [fold_left].
        destruct (after_let_eq s (iname i) (iwire i) (izero i) 0 0) as (v & Ev & Ev').
        change (after_let s (iname i) (iwire i) (izero i) 0 0) with (add_input s i) in Ev. rewrite Ev.
        destruct (insert_last_nth s 0 (iname i) v 0 L) as [I1 I2]. cbn [Nat.eqb] in I2.
        replace (done ++ i :: ins) with ((done ++ [i]) ++ ins) in Hn by (now rewrite <- app_assoc).
        destruct (IH (Subs (insert_last s (iname i) v) (live_vars s ++ [iname i])) (done ++ [i])) as (A & B & C & D).
        + exact I1.
        + cbn. now rewrite Hl, map_app.
        + exact Hn.
        + replace (done ++ i :: ins) with ((done ++ [i]) ++ ins) by (now rewrite <- app_assoc).
          split; [exact A|split; [exact B|split]].
          * intros y Hy. rewrite C by (intros F; apply Hy; now right). cbn [inner]. rewrite I2.
            unfold put. destruct (Nat.eqb_spec y (iname i)) as [->|]; [exfalso; apply Hy; now left|].
            now rewrite (last_map_nth _ _ L).
          * intros j [<-|Hj]; [|now apply D].
            rewrite C.
            -- cbn [inner]. rewrite I2. unfold put. rewrite Nat.eqb_refl. subst v. reflexivity.
            -- rewrite map_app in Hn. apply (in_split_disjoint _ _ (iname i) Hn).
               rewrite map_app. apply in_app_iff. right. now left.
    Qed.

    Lemma entry_input : forall i, In i (inputs p) ->
      nth 0 (inner (l_subs l)) m0 (iname i) =
      Some (if iwire i then Wire else if izero i then ZeroSized else Available (Src (iname i))).
    Proof.
      intros i Hi. destruct (acc_lower _ _ _ Hacc) as [n Hlow].
      apply lower_inv in Hlow as (s0 & n' & -> & Hh & _).
      pose proof (acc_nodup _ _ _ Hacc) as Hn. unfold all_names in Hn.
      assert (Hni : NoDup (map iname (inputs p))).
      { clear -Hn. induction (map iname (inputs p)) as [|a A IHA]; [constructor|]. cbn in Hn. inversion Hn; subst.
        constructor; [|auto]. intros F. apply H1. apply in_app_iff. now left. }
      destruct (inputs_entry (inputs p) new_subs [] eq_refl eq_refl Hni) as (A & B & C & D).
      destruct (handle_extends V _ _ _ _ _ _ _ _ Hh A) as (X1 & X2 & X3).
      rewrite X3; [now apply D|lia|]. apply (in_split_disjoint _ _ _ Hn). now apply in_map.
    Qed.

    Lemma entry_let : forall pre x w z e post, body p = pre ++ ILet x w z e :: post ->
      exists ta, available_in (lookup (l_subs l) 0) e = Ok ta /\
      nth (length (marks pre)) (inner (l_subs l)) m0 x =
      Some (if w then Wire else if z then ZeroSized else if time_of ta =? 0 then Available (Src x)
            else Waiting (time_of ta) (length (marks pre)) (length (marks pre) + time_of ta) x).
    Proof.
      intros pre x w z e post Hb. destruct (acc_lower _ _ _ Hacc) as [n Hlow].
      apply lower_inv in Hlow as (s0 & n' & -> & Hh & _).
      pose proof (acc_nodup _ _ _ Hacc) as Hn. pose proof (acc_reads _ _ _ Hacc) as Hrd.
      unfold all_names in Hn.
      assert (Hni : NoDup (map iname (inputs p))).
      { clear -Hn. induction (map iname (inputs p)) as [|a A IHA]; [constructor|]. cbn in Hn. inversion Hn; subst.
        constructor; [|auto]. intros F. apply H1. apply in_app_iff. now left. }
      destruct (inputs_entry (inputs p) new_subs [] eq_refl eq_refl Hni) as (A & B & _ & _). cbn [app] in B.
      set (s0 := fold_left add_input (inputs p) new_subs) in *.
      assert (Hbl : forall e x, In e (exprs (body p)) -> In x (block_names e) -> ~ In x (defs (body p))).
      { intros e1 x1 He1 Hx1 F. apply (acc_blocks _ _ _ Hacc e1 x1 (or_intror He1) Hx1).
        apply in_app_iff. now right. }
      rewrite <- B in Hn, Hrd.
      assert (GG : forall pre n n' s stage items regs en,
        handle en items s stage n = Ok (l_subs l, regs, n') ->
        length (inner s) = S stage -> NoDup (live_vars s ++ defs items) ->
        body_reads_ok (l_subs l) stage (live_vars s) items ->
        (forall e x, In e (exprs items) -> In x (block_names e) -> ~ In x (defs items)) ->
        items = pre ++ ILet x w z e :: post ->
        exists ta, available_in (lookup (l_subs l) 0) e = Ok ta /\
        nth (stage + length (marks pre)) (inner (l_subs l)) m0 x =
        Some (if w then Wire else if z then ZeroSized else if time_of ta =? 0 then Available (Src x)
              else Waiting (time_of ta) (stage + length (marks pre)) (stage + length (marks pre) + time_of ta) x));
        [|exact (GG pre _ _ _ 0 _ _ _ Hh A Hn Hrd Hbl Hb)].
      clear. induction pre as [|[y w1 z1 e1|c] pre IH]; intros n n' s stage items regs en Hh A Hn Hrd Hbl Hb; subst items.
      - cbn [app marks flat_map length]. rewrite Nat.add_0_r. cbn [app] in *.
        pose proof (handle_extends V _ _ _ _ _ _ _ _ Hh A) as (X1 & X2 & X3).
        cbn in Hh. destruct (available_in (lookup s 0) e) as [ta|] eqn:Ea; [|discriminate].
        exists ta. split.
        + rewrite <- Ea. cbn in Hrd. eapply avail_ext; [exact (proj1 Hrd)|]. intros q Hq.
          unfold lookup. rewrite X3; [reflexivity|lia|].
          destruct Hq as [Hq|[[]|Hq]]; [apply (in_split_disjoint _ _ _ Hn Hq)|].
          apply (Hbl e); [now left|exact Hq].
        + fold (time_of ta) in Hh. fold (after_let s x w z (time_of ta) stage) in Hh.
          destruct (after_let_eq s x w z (time_of ta) stage) as (v & Ev & Ev'). rewrite Ev in Hh.
          destruct (insert_last_nth s stage x v stage A) as [I1 I2].
          destruct (handle_extends V _ _ _ _ _ _ _ _ Hh I1) as (_ & _ & Y3).
          rewrite Y3; [|lia|].
          * cbn [inner]. rewrite I2, Nat.eqb_refl. unfold put. rewrite Nat.eqb_refl. now subst v.
          * cbn in Hn. apply NoDup_remove_2 in Hn. rewrite in_app_iff in Hn. tauto.
      - pose proof (handle_extends V _ _ _ _ _ _ _ _ Hh A) as (X1 & X2 & X3).
        cbn in Hh. destruct (available_in (lookup s 0) e1) as [ta|] eqn:Ea; [|discriminate].
        fold (time_of ta) in Hh. fold (after_let s y w1 z1 (time_of ta) stage) in Hh.
        destruct (after_let_eq s y w1 z1 (time_of ta) stage) as (v & Ev & Ev'). rewrite Ev in Hh.
        cbn in Hrd. destruct Hrd as [_ Hrd].
        eapply (IH _ _ _ _ _ _ _ Hh); eauto.
        + now apply insert_last_nth.
        + cbn. rewrite <- app_assoc. exact Hn.
        + intros e2 x2 He2 Hx2 F. apply (Hbl e2 x2); [now right|exact Hx2|now right].
      - cbn in Hh. destruct (next_stage s n) as [[[s1 rg] n1]|] eqn:E; [|discriminate].
        destruct (handle en (pre ++ ILet x w z e :: post) s1 (S stage) n1) as [[[s2 rg2] n2]|] eqn:E2; [|discriminate].
        injection Hh as Es <- <-. rewrite Es in E2.
        destruct (next_nth _ _ _ _ _ _ A E) as (N1 & N2 & N3).
        cbn [app marks flat_map length]. rewrite <- Nat.add_succ_comm.
        cbn in Hrd. rewrite <- N1 in Hn, Hrd.
        eapply (IH _ _ _ _ _ _ _ E2); eauto.
    Qed.

    Lemma chain_body : forall x d j, bound_in p l x d 0 \/ (exists a, bound_in p l x d a) \/ bound_undelayed p x d ->
      d <= j -> j < stages p ->
      exists v v' rg, nth j (inner (l_subs l)) m0 x = Some v /\ nth (S j) (inner (l_subs l)) m0 x = Some v' /\
        follows rg v v' /\
        forall r t, In r rg -> sig (new r) (S t) = if ready_value l bsig j t then sig (previous r) t else sig (new r) t.
    Proof.
      intros x d j Hbd Hd Hj. destruct (acc_lower _ _ _ Hacc) as [n Hlow].
      apply lower_inv in Hlow as (s0 & n' & -> & Hh & _).
      pose proof (acc_nodup _ _ _ Hacc) as Hn. unfold all_names in Hn.
      assert (Hni : NoDup (map iname (inputs p))).
      { clear -Hn. induction (map iname (inputs p)) as [|a A IHA]; [constructor|]. cbn in Hn. inversion Hn; subst.
        constructor; [|auto]. intros F. apply H1. apply in_app_iff. now left. }
      destruct (inputs_entry (inputs p) new_subs [] eq_refl eq_refl Hni) as (A & B & _ & _). cbn [app] in B.
      set (s0 := fold_left add_input (inputs p) new_subs) in *. rewrite <- B in Hn.
      assert (G : exists v v' rg, nth j (inner (l_subs l)) m0 x = Some v /\ nth (S j) (inner (l_subs l)) m0 x = Some v' /\
        follows rg v v' /\ forall r, In r rg -> In (PReg j (new r) (previous r) (nth j (stage_enable_names (body p)) false)) (l_regs l)).
      { assert (Hcase : In x (live_vars s0) \/ exists pre w z e post, body p = pre ++ ILet x w z e :: post /\ d = length (marks pre)).
        { rewrite B. destruct Hbd as [Hbd|[[a Hbd]|Hbd]]; destruct Hbd as [Hbd|Hbd].
          - left. destruct Hbd as (_ & _ & i & Hi & <- & _). now apply in_map.
          - right. destruct Hbd as (pre & e & post & ta & E1 & E2 & _). eauto 8.
          - left. destruct Hbd as (_ & _ & i & Hi & <- & _). now apply in_map.
          - right. destruct Hbd as (pre & e & post & ta & E1 & E2 & _). eauto 8.
          - left. destruct Hbd as (_ & i & Hi & <- & _). now apply in_map.
          - right. destruct Hbd as (pre & w & z & e & post & E1 & _ & E2). eauto 8. }
        destruct Hcase as [Hx|(pre & w & z & e & post & Eb & ->)].
        - exact (chain _ _ _ _ _ _ _ _ x Hh A Hn Hx j Hj).
        - unfold stages in Hj. rewrite Eb in Hh, Hn, Hj. rewrite <- Eb in Hh at 1.
          clear Hbd Hni. rename Eb into Eb0.
          assert (GG : forall pre n n' s stage regs, 
            handle (stage_enable_names (body p)) (pre ++ ILet x w z e :: post) s stage n = Ok (l_subs l, regs, n') ->
            length (inner s) = S stage -> NoDup (live_vars s ++ defs (pre ++ ILet x w z e :: post)) ->
            stage + length (marks pre) <= j -> j < stage + length (marks (pre ++ ILet x w z e :: post)) ->
            exists v v' rg, nth j (inner (l_subs l)) m0 x = Some v /\ nth (S j) (inner (l_subs l)) m0 x = Some v' /\
            follows rg v v' /\ forall r, In r rg -> In (PReg j (new r) (previous r) (nth j (stage_enable_names (body p)) false)) regs).
          { clear. induction pre as [|[y w1 z1 e1|c] pre IH]; intros n n' s stage regs Hh A Hn H1 H2.
            - cbn [app] in *. cbn in Hh. destruct (available_in (lookup s 0) e) as [ta|] eqn:Ea; [|discriminate].
              fold (time_of ta) in Hh. fold (after_let s x w z (time_of ta) stage) in Hh.
              destruct (after_let_eq s x w z (time_of ta) stage) as (v & Ev & Ev'). rewrite Ev in Hh.
              destruct (insert_last_nth s stage x v stage A) as [I1 I2].
              cbn [marks flat_map length app] in H1, H2.
              destruct (chain _ _ _ _ _ _ _ _ x Hh I1) with (j := j - stage) as (v1 & v2 & rg & C1 & C2 & C3 & C4).
              + cbn. rewrite <- app_assoc. exact Hn.
              + cbn. apply in_app_iff. right. now left.
              + unfold marks. lia.
              + replace (stage + (j - stage)) with j in * by lia. replace (stage + S (j - stage)) with (S j) in * by lia.
                eauto 8.
            - cbn in Hh. destruct (available_in (lookup s 0) e1) as [ta|] eqn:Ea; [|discriminate].
              fold (time_of ta) in Hh. fold (after_let s y w1 z1 (time_of ta) stage) in Hh.
              destruct (after_let_eq s y w1 z1 (time_of ta) stage) as (v & Ev & Ev'). rewrite Ev in Hh.
              eapply (IH _ _ _ _ _ Hh); eauto.
              + now apply insert_last_nth.
              + cbn. rewrite <- app_assoc. exact Hn.
            - cbn in Hh. destruct (next_stage s n) as [[[s1 rg] n1]|] eqn:E; [|discriminate].
              destruct (handle _ (pre ++ ILet x w z e :: post) s1 (S stage) n1) as [[[s2 rg2] n2]|] eqn:E2; [|discriminate].
              injection Hh as Es <- <-. rewrite Es in E2.
              destruct (next_nth _ _ _ _ _ _ A E) as (N1 & N2 & N3).
              cbn [app defs flat_map] in Hn. rewrite <- N1 in Hn.
              change (marks (IMark c :: pre)) with (c :: marks pre) in H1. cbn [length] in H1.
              change (marks ((IMark c :: pre) ++ ILet x w z e :: post)) with (c :: marks (pre ++ ILet x w z e :: post)) in H2.
              cbn [length] in H2.
              destruct (IH _ _ _ _ _ E2 N2 Hn) as (v1 & v2 & rg1 & C1 & C2 & C3 & C4); [lia|lia|].
              exists v1, v2, rg1. repeat split; auto. intros r Hr. apply in_app_iff. right. auto. }
          eapply (GG pre _ _ _ 0 _ Hh A Hn); lia. }
      destruct G as (v & v' & rg & G1 & G2 & G3 & G4). exists v, v', rg. repeat split; auto.
      intros r t Hr. specialize (G4 r Hr). eapply (regs_advance V truth junk p l sig bsig Hacc Hrun) in G4. exact G4.
    Qed.

    Lemma bound_entry : forall x d a, bound_in p l x d a ->
      d <= stages p /\
      nth d (inner (l_subs l)) m0 x = Some (if a =? 0 then Available (Src x) else Waiting a d (d + a) x).
    Proof.
      intros x d a [(-> & -> & i & Hi & <- & H1 & H2)|(pre & e & post & ta & Hb & -> & Ha & ->)].
      - split; [lia|]. rewrite (entry_input i Hi), H1, H2. reflexivity.
      - split.
        + unfold stages. rewrite Hb, marks_app, app_length. lia.
        + destruct (entry_let _ _ _ _ _ _ Hb) as (ta' & Ha' & En).
          assert (ta' = ta) by congruence. subst ta'. exact En.
    Qed.

    Lemma waiting_entry : forall x d a, bound_in p l x d a -> forall i, i < a -> d + i <= stages p ->
      nth (d + i) (inner (l_subs l)) m0 x = Some (Waiting (a - i) d (d + a) x).
    Proof.
      intros x d a Hb. destruct (bound_entry x d a Hb) as [Hd He].
      induction i as [|i IH]; intros Hi Hs.
      - rewrite Nat.add_0_r, Nat.sub_0_r, He. destruct (Nat.eqb_spec a 0); [lia|reflexivity].
      - destruct (chain_body x d (d + i)) as (v & v' & rg & C1 & C2 & C3 & C4); [eauto|lia|lia|].
        rewrite IH in C1 by lia. injection C1 as <-. cbn in C3.
        replace (d + S i) with (S (d + i)) by lia. rewrite C2. subst v'.
        destruct (Nat.eqb_spec (a - i) 1); [lia|]. replace (a - i - 1) with (a - S i) by lia. reflexivity.
    Qed.

    Lemma available_entry : forall x d a, bound_in p l x d a -> d + a <= stages p ->
      nth (d + a) (inner (l_subs l)) m0 x = Some (Available (Src x)).
    Proof.
      intros x d a Hb Hs. destruct (Nat.eq_dec a 0) as [->|Ha].
      - rewrite Nat.add_0_r. apply (bound_entry x d 0 Hb).
      - destruct (chain_body x d (d + (a - 1))) as (v & v' & rg & C1 & C2 & C3 & C4); [eauto|lia|lia|].
        rewrite (waiting_entry x d a Hb) in C1 by lia. injection C1 as <-. cbn in C3.
        replace (d + a) with (S (d + (a - 1))) by lia. rewrite C2, C3.
        replace (a - (a - 1)) with 1 by lia. reflexivity.
    Qed.

    Lemma not_ready_before : forall x d a k, bound_in p l x d a -> d <= k -> k < d + a -> k <= stages p ->
      read (l_subs l) k x = None.
    Proof.
      intros x d a k Hb H1 H2 H3. unfold read, lookup.
      replace k with (d + (k - d)) by lia. rewrite (waiting_entry x d a Hb) by lia. reflexivity.
    Qed.

    (** General form: in a stage that has the item of cycle... with registers that
        advance when [ready]. *)
    Lemma delayed : forall x d a, bound_in p l x d a ->
      (forall k t, ready_value l bsig k t = true) ->
      forall i, d + a + i <= stages p ->
      exists y, nth (d + a + i) (inner (l_subs l)) m0 x = Some (Available y) /\
        forall t, sig y (t + i) = sig (Src x) t.
    Proof.
      intros x d a Hb Hr. induction i as [|i IH]; intros Hs.
      - exists (Src x). rewrite Nat.add_0_r. split; [apply available_entry; auto; lia|].
        intros t. now rewrite Nat.add_0_r.
      - destruct IH as (y & E & Hy); [lia|].
        destruct (chain_body x d (d + a + i)) as (v & v' & rg & C1 & C2 & C3 & C4); [eauto|lia|lia|].
        rewrite E in C1. injection C1 as <-. cbn in C3. destruct C3 as (r & Hr1 & Hr2 & ->).
        exists (new r). replace (d + a + S i) with (S (d + a + i)) by lia. split; [exact C2|].
        intros t. rewrite Nat.add_succ_r, (C4 r _ Hr1), Hr, Hr2. apply Hy.
    Qed.

    Lemma undelayed_entry : forall x d, bound_undelayed p x d -> forall i, d + i <= stages p ->
      exists v, nth (d + i) (inner (l_subs l)) m0 x = Some v /\ is_wire v = true.
    Proof.
      intros x d Hb. induction i as [|i IH]; intros Hs.
      - rewrite Nat.add_0_r. destruct Hb as [(-> & i & Hi & <- & Hw)|(pre & w & z & e & post & Eb & Hw & ->)].
        + rewrite (entry_input i Hi). eexists. split; [reflexivity|].
          destruct (iwire i); [reflexivity|]. cbn in Hw. rewrite Hw. reflexivity.
        + destruct (entry_let _ _ _ _ _ _ Eb) as (ta & _ & En). rewrite En. eexists. split; [reflexivity|].
          destruct w; [reflexivity|]. cbn in Hw. rewrite Hw. reflexivity.
      - destruct IH as (v & E & Hv); [lia|].
        destruct (chain_body x d (d + i)) as (v1 & v' & rg & C1 & C2 & C3 & C4); [eauto|lia|lia|].
        rewrite E in C1. injection C1 as <-. replace (d + S i) with (S (d + i)) by lia.
        exists v'. split; [exact C2|]. destruct v; cbn in Hv; try discriminate; cbn in C3; now subst v'.
    Qed.
  End One.
End Delay.
