(** Proofs about pipelines. *)
From Coq Require Import List Bool Arith Lia.
From Verif Require Import PipeModel PipeSpec.
Import ListNotations.

Section Proofs.
  Variable V : Type.

  (** ** Induction on expressions *)
  Section ExprInd.
    Variable P : expr V -> Prop.
    Hypothesis Hvar : forall x, P (EVar x).
    Hypothesis Hconst : forall v, P (EConst v).
    Hypothesis Hop : forall f l, Forall P l -> P (EOp f l).
    Hypothesis Hpipe : forall d f l, Forall P l -> P (EPipe d f l).
    Hypothesis Hif : forall c a b, P c -> P a -> P b -> P (EIf c a b).
    Hypothesis Hmatch : forall f s l, P s -> Forall P l -> P (EMatch f s l).
    Hypothesis Hblock : forall x e b, P e -> P b -> P (EBlock x e b).
    Fixpoint expr_ind' (e : expr V) : P e :=
      let go := fix go (l : list (expr V)) : Forall P l :=
        match l with [] => Forall_nil _ | e :: l => Forall_cons _ (expr_ind' e) (go l) end in
      match e with
      | EVar x => Hvar x
      | EConst v => Hconst v
      | EOp f l => Hop f l (go l)
      | EPipe d f l => Hpipe d f l (go l)
      | EIf c a b => Hif c a b (expr_ind' c) (expr_ind' a) (expr_ind' b)
      | EMatch f s l => Hmatch f s l (expr_ind' s) (go l)
      | EBlock x e b => Hblock x e b (expr_ind' e) (expr_ind' b)
      end.
  End ExprInd.

  (** ** Availability *)
  Definition compute (lk : nat -> sub) :=
    fix compute (l : list (expr V)) (result : option nat) : res (option nat) :=
      match l with
      | [] => Ok result
      | e :: l => match available_in lk e with
                  | Ok a => match merge a result with Ok r => compute l r | Err => Err end
                  | Err => Err
                  end
      end.

  Lemma merge_ok : forall a r r', merge a r = Ok r' ->
    (a = None \/ a = r') /\ (r = None \/ r = r').
  Proof.
    intros [a|] [r|] r' H; cbn in H.
    - destruct (a =? r) eqn:E; [|discriminate]. apply Nat.eqb_eq in E. injection H as <-. subst. auto.
    - injection H as <-. auto.
    - injection H as <-. auto.
    - injection H as <-. auto.
  Qed.

  Lemma compute_ok : forall lk l acc r, compute lk l acc = Ok r ->
    (acc = None \/ acc = r) /\
    Forall (fun e => exists ri, available_in lk e = Ok ri /\ (ri = None \/ ri = r)) l.
  Proof.
    induction l as [|e l IH]; cbn; intros acc r H.
    - injection H as <-. split; [auto|constructor].
    - destruct (available_in lk e) as [a|] eqn:Ea; [|discriminate].
      destruct (merge a acc) as [m|] eqn:Em; [|discriminate].
      apply IH in H as [H1 H2]. apply merge_ok in Em as [M1 M2]. split.
      + destruct M2 as [->| ->]; [now left|]. exact H1.
      + constructor; [|exact H2]. exists a. split; [exact Ea|].
        destruct M1 as [->| ->]; [now left|]. exact H1.
  Qed.

  (** The Prop-valued list folds of the specification, as [Forall]. *)
  Lemma go_forall : forall (Q : expr V -> Prop) l,
    (fix go l := match l with [] => True | e :: l => Q e /\ go l end) l <-> Forall Q l.
  Proof.
    induction l as [|e l IH]; cbn; [split; [constructor|trivial]|].
    rewrite IH. split; [intros [A B]; constructor; auto|intros H; inversion H; auto].
  Qed.

  Definition is_wire (v : sub) : bool := match v with Wire | ZeroSized => true | _ => false end.

  Lemma avail_ext : forall lk lk' (e : expr V) rd scope bound,
    reads_ok rd scope e bound ->
    (forall x, In x scope \/ In x bound \/ In x (block_names e) -> is_wire (lk x) = is_wire (lk' x)) ->
    available_in lk e = available_in lk' e.
  Proof.
    intros lk lk' e rd scope. induction e as [x|v|f l IH|d f l IH|c a b IHc IHa IHb|f s l IHs IH|x e b IHe IHb]
      using expr_ind'; intros bound Hr Hx.
    - cbn. assert (E : is_wire (lk x) = is_wire (lk' x)).
      { apply Hx. cbn in Hr. tauto. }
      destruct (lk x), (lk' x); cbn in E; try discriminate; reflexivity.
    - reflexivity.
    - cbn in Hr. rewrite go_forall in Hr.
      cbn -[available_in]. change (compute lk l None = compute lk' l None).
      assert (G : forall acc, compute lk l acc = compute lk' l acc); [|apply G].
      cbn in Hx. clear -IH Hr Hx. induction l as [|e l IHl]; cbn; intros acc; [reflexivity|].
      inversion IH; subst; inversion Hr; subst.
      rewrite (H1 bound); [|assumption|].
      2:{ intros y Hy. apply Hx. cbn. rewrite in_app_iff. tauto. }
      destruct (available_in lk' e); [|reflexivity]. destruct (merge a acc); [|reflexivity].
      apply IHl; auto. intros y Hy. apply Hx. cbn. rewrite in_app_iff. tauto.
    - cbn in Hr. rewrite go_forall in Hr.
      cbn -[available_in].
      assert (G : forall acc, compute lk l acc = compute lk' l acc).
      { cbn in Hx. clear -IH Hr Hx. induction l as [|e l IHl]; cbn; intros acc; [reflexivity|].
        inversion IH; subst; inversion Hr; subst.
        rewrite (H1 bound); [|assumption|].
        2:{ intros y Hy. apply Hx. cbn. rewrite in_app_iff. tauto. }
        destruct (available_in lk' e); [|reflexivity]. destruct (merge a acc); [|reflexivity].
        apply IHl; auto. intros y Hy. apply Hx. cbn. rewrite in_app_iff. tauto. }
      cbn. specialize (G None). cbn in G. unfold compute in G. rewrite G. reflexivity.
    - cbn in Hr. destruct Hr as (Hc & Ha & Hb). cbn in Hx |- *.
      rewrite (IHa bound Ha), (IHb bound Hb); [reflexivity| |];
        intros y Hy; apply Hx; rewrite !in_app_iff; tauto.
    - cbn in Hr. destruct Hr as (Hs & Hr). rewrite go_forall in Hr.
      change (compute lk l None = compute lk' l None).
      assert (G : forall acc, compute lk l acc = compute lk' l acc); [|apply G].
      cbn in Hx. clear -IH Hr Hx. induction l as [|e l IHl]; cbn; intros acc; [reflexivity|].
      inversion IH; subst; inversion Hr; subst.
      rewrite (H1 bound); [|assumption|].
      2:{ intros y Hy. apply Hx. cbn. rewrite !in_app_iff. tauto. }
      destruct (available_in lk' e); [|reflexivity]. destruct (merge a acc); [|reflexivity].
      apply IHl; auto. intros y Hy. apply Hx. cbn. rewrite !in_app_iff in *. tauto.
    - cbn in Hr. destruct Hr as [He Hb]. cbn. apply (IHb (x :: bound)); [exact Hb|].
      intros y Hy. apply Hx. cbn. rewrite in_app_iff. cbn in Hy. tauto.
  Qed.

  Lemma no_nested_avail : forall lk (e : expr V) r, no_nested e -> available_in lk e = Ok r -> r = None \/ r = Some 0.
  Proof.
    intros lk e. induction e as [x|v|f l IH|d f l IH|c a b IHc IHa IHb|f s l IHs IH|x e b IHe IHb]
      using expr_ind'; intros r Hn Ha.
    - cbn in Ha. destruct (lk x); injection Ha as <-; auto.
    - injection Ha as <-. auto.
    - cbn in Hn. rewrite go_forall in Hn.
      assert (G : forall acc, (acc = None \/ acc = Some 0) -> compute lk l acc = Ok r -> r = None \/ r = Some 0).
      { clear Ha. induction l as [|e l IHl]; cbn; intros acc Hacc Hc.
        - injection Hc as <-. exact Hacc.
        - inversion IH; subst. inversion Hn; subst.
          destruct (available_in lk e) as [a|] eqn:Ea; [|discriminate].
          destruct (merge a acc) as [m|] eqn:Em; [|discriminate].
          apply (IHl) with (acc := m); auto.
          specialize (H1 a H3 eq_refl).
          destruct H1 as [->| ->], Hacc as [->| ->]; cbn in Em; injection Em as <-; auto. }
      apply (G None); auto.
    - destruct Hn.
    - cbn in Hn. destruct Hn as (Nc & Na & Nb).
      cbn in Ha. destruct (available_in lk a) as [ra|] eqn:Ea; [|discriminate].
      destruct (available_in lk b) as [rb|] eqn:Eb; [|destruct ra; discriminate].
      specialize (IHa ra Na eq_refl). specialize (IHb rb Nb eq_refl).
      destruct IHa as [->| ->], IHb as [->| ->]; cbn in Ha; injection Ha as <-; auto.
    - cbn in Hn. destruct Hn as [_ Hn]. rewrite go_forall in Hn.
      assert (G : forall acc, (acc = None \/ acc = Some 0) -> compute lk l acc = Ok r -> r = None \/ r = Some 0).
      { clear Ha. induction l as [|e l IHl]; cbn; intros acc Hacc Hc.
        - injection Hc as <-. exact Hacc.
        - inversion IH; subst. inversion Hn; subst.
          destruct (available_in lk e) as [a|] eqn:Ea; [|discriminate].
          destruct (merge a acc) as [m|] eqn:Em; [|discriminate].
          apply (IHl) with (acc := m); auto.
          specialize (H1 a H3 eq_refl).
          destruct H1 as [->| ->], Hacc as [->| ->]; cbn in Em; injection Em as <-; auto. }
      apply (G None); auto.
    - cbn in *. apply IHb; tauto.
  Qed.

  (** ** The value of an expression with a given availability *)
  Definition nonwire_blocks (lk : nat -> sub) (e : expr V) (scope : list nat) : Prop :=
    forall x, In x (block_names e) -> is_wire (lk x) = false /\ ~ In x scope.

  Variable truth : V -> bool.
  Variable junk : V.
  Lemma hw_comb : forall rd sig lk scope (e : expr V) bound loc env r,
    available_in lk e = Ok r ->
    well_timed lk e ->
    reads_ok rd scope e bound ->
    nonwire_blocks lk e scope ->
    (forall x, In x bound -> is_wire (lk x) = false /\ exists v, loc x = Some v /\ forall u, v u = env u x) ->
    (forall x, In x scope -> ~ In x bound -> loc x = None /\
        forall y, rd x = Some y -> forall u, sig y u = env u x) ->
    (forall x, In x scope -> is_wire (lk x) = true -> forall u u', env u x = env u' x) ->
    (forall x, In x bound \/ ~ In x bound) ->
    forall a, (r = None \/ r = Some a) ->
    forall t, a <= t ->
    hw truth junk rd sig loc e t = comb truth e (env (t - a)).
  Proof.
    intros rd sig lk scope e.
    induction e as [x|v|f l IH|d f l IH|c a1 b IHc IHa IHb|f s l IHs IH|x e b IHe IHb]
      using expr_ind'; intros bound loc env r Hav Hwt Hr Hbl Hb Hs Hw Hdec a Hra t Hat.
    - cbn. cbn in Hr. destruct (Hdec x) as [Hin|Hnin].
      + destruct (Hb x Hin) as (Hnw & v & Hv & Hvu). rewrite Hv, Hvu.
        cbn in Hav. destruct (lk x); cbn in Hnw; try discriminate; injection Hav as <-;
          (destruct Hra as [Hra|Hra]; [discriminate|injection Hra as <-]; now rewrite Nat.sub_0_r).
      + destruct Hr as [Hr|[Hsc Hrd]]; [contradiction|].
        destruct (Hs x Hsc Hnin) as [Hl Hy]. rewrite Hl.
        destruct (rd x) as [y|] eqn:Ey; [|congruence]. rewrite (Hy y eq_refl).
        cbn in Hav. destruct (lk x) eqn:El; injection Hav as <-;
          try (destruct Hra as [Hra|Hra]; [discriminate|injection Hra as <-]; now rewrite Nat.sub_0_r);
          (apply Hw; [exact Hsc|now rewrite El]).
    - reflexivity.
    - cbn. f_equal. apply map_ext_in. intros e He.
      change (compute lk l None = Ok r) in Hav. apply compute_ok in Hav as [_ Hav].
      cbn in Hwt, Hr. rewrite go_forall in Hwt, Hr. rewrite Forall_forall in IH, Hav, Hwt, Hr.
      destruct (Hav e He) as (ri & E1 & E2).
      eapply (IH e He); eauto.
      + intros z Hz. apply Hbl. cbn. rewrite in_flat_map. eauto.
      + destruct E2 as [->| ->]; [now left|exact Hra].
    - cbn -[Nat.ltb]. cbn in Hav.
      change ((match compute lk l None with Ok (Some a) => Ok (Some (a + d)) | Ok None => Ok (Some d) | Err => Err end) = Ok r) in Hav.
      destruct (compute lk l None) as [ra|] eqn:Ec; [|discriminate].
      apply compute_ok in Ec as [_ Ec].
      set (a' := match ra with Some a => a | None => 0 end).
      assert (Er : r = Some (a' + d)).
      { unfold a'. destruct ra; injection Hav as <-; reflexivity. }
      subst r. destruct Hra as [Hra|Hra]; [discriminate|].
      assert (a = a' + d) by congruence. subst a.
      destruct (Nat.ltb_spec t d); [lia|]. f_equal. apply map_ext_in. intros e He.
      cbn in Hwt, Hr. rewrite go_forall in Hwt, Hr. rewrite Forall_forall in IH, Ec, Hwt, Hr.
      destruct (Ec e He) as (ri & E1 & E2).
      replace (t - (a' + d)) with (t - d - a') by lia.
      eapply (IH e He); eauto.
      + intros z Hz. apply Hbl. cbn. rewrite in_flat_map. eauto.
      + destruct E2 as [->| ->]; [now left|]. unfold a'. destruct ra; auto.
      + lia.
    - cbn in Hr, Hwt. destruct Hr as (Rc & Ra & Rb). destruct Hwt as (Wc & Wa & Wb & Wt).
      fold (available_in lk (EIf c a1 b)) in Wt.
      assert (Hc : exists rc, available_in lk c = Ok rc /\ (rc = None \/ rc = r)).
      { destruct Wt as [Wt|Wt]; [eauto|]. exists r. split; [|now right]. etransitivity; [exact Wt|exact Hav]. }
      destruct Hc as (rc & Hc & Hrc).
      change (compute lk [a1; b] None = Ok r) in Hav. apply compute_ok in Hav as [_ Hav].
      inversion Hav as [|? ? (r1 & A1 & A2) Hav']; subst. inversion Hav' as [|? ? (r2 & B1 & B2) _]; subst.
      assert (Nc : nonwire_blocks lk c scope) by (intros z Hz; apply Hbl; cbn; rewrite !in_app_iff; tauto).
      assert (Na : nonwire_blocks lk a1 scope) by (intros z Hz; apply Hbl; cbn; rewrite !in_app_iff; tauto).
      assert (Nb : nonwire_blocks lk b scope) by (intros z Hz; apply Hbl; cbn; rewrite !in_app_iff; tauto).
      cbn.
      rewrite (IHc bound loc env rc Hc Wc Rc Nc Hb Hs Hw Hdec a); [|destruct Hrc as [->| ->]; auto|exact Hat].
      rewrite (IHa bound loc env r1 A1 Wa Ra Na Hb Hs Hw Hdec a); [|destruct A2 as [->| ->]; auto|exact Hat].
      rewrite (IHb bound loc env r2 B1 Wb Rb Nb Hb Hs Hw Hdec a); [|destruct B2 as [->| ->]; auto|exact Hat].
      reflexivity.
    - cbn in Hr, Hwt. destruct Hr as (Rs & Rl). destruct Hwt as (Ws & Wl & Wt).
      assert (Hc : exists rc, available_in lk s = Ok rc /\ (rc = None \/ rc = r)).
      { destruct Wt as [Wt|Wt]; [eauto|]. exists r. split; [|now right]. etransitivity; [exact Wt|exact Hav]. }
      destruct Hc as (rc & Hc & Hrc).
      change (compute lk l None = Ok r) in Hav. apply compute_ok in Hav as [_ Hav].
      rewrite go_forall in Wl, Rl. rewrite Forall_forall in IH, Hav, Wl, Rl.
      cbn. f_equal.
      + eapply (IHs bound loc env rc); eauto.
        * intros z Hz; apply Hbl; cbn; rewrite !in_app_iff; tauto.
        * destruct Hrc as [->| ->]; auto.
      + apply map_ext_in. intros e He. destruct (Hav e He) as (ri & E1 & E2).
        eapply (IH e He); eauto.
        * intros z Hz; apply Hbl; cbn; rewrite in_app_iff, in_flat_map. eauto.
        * destruct E2 as [->| ->]; [now left|exact Hra].
    - cbn in Hr, Hwt. destruct Hr as (Re & Rb). destruct Hwt as (We & Wb & Wt). cbn in Hav |- *.
      assert (Ne : nonwire_blocks lk e scope) by (intros z Hz; apply Hbl; cbn; rewrite !in_app_iff; tauto).
      assert (Nb : nonwire_blocks lk b scope) by (intros z Hz; apply Hbl; cbn; rewrite !in_app_iff; tauto).
      assert (Hx : is_wire (lk x) = false /\ ~ In x scope) by (apply Hbl; cbn; tauto). destruct Hx as [Hx1 Hx2].
      assert (He : forall u, hw truth junk rd sig loc e u = comb truth e (env u)).
      { intros u. replace (env u) with (env (u - 0)) by now rewrite Nat.sub_0_r.
        destruct Wt as [Wt|Wt]; eapply (IHe bound); eauto; lia. }
      set (env' := fun u => upd (env u) x (comb truth e (env u))).
      change (hw truth junk rd sig (updl loc x (hw truth junk rd sig loc e)) b t = comb truth b (env' (t - a))).
      apply (IHb (x :: bound) _ env' r Hav Wb Rb Nb).
      + intros y [->|Hy].
        * split; [exact Hx1|]. eexists. unfold updl. rewrite Nat.eqb_refl. split; [reflexivity|].
          intros u. unfold env', upd. rewrite Nat.eqb_refl. apply He.
        * destruct (Hb y Hy) as (B1 & v & B2 & B3). split; [exact B1|].
          unfold updl, env', upd. destruct (Nat.eqb_spec y x) as [->|Hne].
          -- eexists. split; [reflexivity|]. apply He.
          -- exists v. auto.
      + intros y Hy Hny. cbn in Hny. assert (y <> x) by (intros ->; tauto).
        unfold updl, env', upd. destruct (Nat.eqb_spec y x); [contradiction|]. apply Hs; tauto.
      + intros y Hy Hyw u u'. assert (y <> x) by (intros ->; tauto).
        unfold env', upd. destruct (Nat.eqb_spec y x); [contradiction|]. now apply Hw.
      + intros y. destruct (Nat.eq_dec x y); [left; now left|].
        destruct (Hdec y); [left; now right|right]. intros [?|?]; tauto.
      + exact Hra.
      + exact Hat.
  Qed.

End Proofs.
