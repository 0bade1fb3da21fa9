(** A lowered pipeline computes the function its source describes. *)
From Coq Require Import List Bool Arith Lia.
From Verif Require Import PipeModel PipeSpec PipeProofs PipeRun.
Import ListNotations.

Section Fun.
  Variable V : Type.
  Variable truth : V -> bool.
  Variable junk : V.
  Notation m0 := (fun _ : nat => @None sub).

  Lemma comb_ext : forall rd scope (e : expr V) bound env env',
    reads_ok rd scope e bound ->
    (forall x, In x bound \/ (In x scope /\ rd x <> None) -> env x = env' x) ->
    comb truth e env = comb truth e env'.
  Proof.
    intros rd scope e.
    induction e as [x|v|f l IH|d f l IH|c a b IHc IHa IHb|f s l IHs IH|x e b IHe IHb]
      using expr_ind'; intros bound env env' Hr He; cbn in Hr |- *; rewrite ?go_forall in Hr.
    - apply He. tauto.
    - reflexivity.
    - f_equal. apply map_ext_in. intros e Hin. rewrite Forall_forall in IH, Hr. eapply IH; eauto.
    - f_equal. apply map_ext_in. intros e Hin. rewrite Forall_forall in IH, Hr. eapply IH; eauto.
    - destruct Hr as (H1 & H2 & H3).
      rewrite (IHc bound env env'), (IHa bound env env'), (IHb bound env env'); auto.
    - destruct Hr as (H1 & H2). rewrite (IHs bound env env') by auto. f_equal.
      apply map_ext_in. intros e Hin. rewrite Forall_forall in IH, H2. eapply IH; eauto.
    - destruct Hr as (H1 & H2). apply (IHb (x :: bound)); [exact H2|].
      intros y Hy. unfold upd. destruct (Nat.eqb_spec y x) as [->|Hne]; [eapply IHe; eauto|].
      apply He. destruct Hy as [[->|Hy]|Hy]; tauto.
  Qed.

  Definition narrow (e : expr V) (scope : list nat) : list nat :=
    filter (fun x => existsb (Nat.eqb x) (vars e)) scope.
  Lemma narrow_in : forall e scope x, In x (narrow e scope) -> In x scope /\ In x (vars e).
  Proof.
    intros e scope x H. apply filter_In in H as [A B]. split; [exact A|].
    apply existsb_exists in B as (y & B & C). apply Nat.eqb_eq in C. now subst y.
  Qed.
  Lemma reads_narrow : forall rd scope (big : list nat) (e : expr V) bound,
    (forall x, In x (vars e) -> In x big) ->
    reads_ok rd scope e bound ->
    reads_ok rd (filter (fun x => existsb (Nat.eqb x) big) scope) e bound.
  Proof.
    intros rd scope big e.
    induction e as [x|v|f l IH|d f l IH|c a b IHc IHa IHb|f s l IHs IH|x e b IHe IHb]
      using expr_ind'; intros bound Hv Hr; cbn in Hr |- *; rewrite ?go_forall in *; cbn in Hv.
    - destruct Hr as [Hr|[Hr1 Hr2]]; [now left|]. right. split; [|exact Hr2].
      apply filter_In. split; [exact Hr1|]. apply existsb_exists. exists x. split; [apply Hv; now left|apply Nat.eqb_refl].
    - exact I.
    - rewrite Forall_forall in *. intros e He. apply IH; auto. intros x Hx. apply Hv. apply in_flat_map. eauto.
    - rewrite Forall_forall in *. intros e He. apply IH; auto. intros x Hx. apply Hv. apply in_flat_map. eauto.
    - destruct Hr as (H1 & H2 & H3). repeat split; [apply IHc|apply IHa|apply IHb]; auto;
        intros x Hx; apply Hv; rewrite !in_app_iff; tauto.
    - destruct Hr as (H1 & H2). split; [apply IHs; auto; intros x Hx; apply Hv; rewrite in_app_iff; tauto|].
      rewrite Forall_forall in *. intros e He. apply IH; auto. intros x Hx. apply Hv.
      rewrite in_app_iff, in_flat_map. eauto.
    - destruct Hr as (H1 & H2). split; [apply IHe|apply IHb]; auto; intros y Hy; apply Hv; rewrite in_app_iff; tauto.
  Qed.
  Lemma reads_narrow' : forall rd scope (e : expr V), reads_ok rd scope e [] -> reads_ok rd (narrow e scope) e [].
  Proof. intros rd scope e H. apply reads_narrow; auto. Qed.

  Lemma run_lets_other : forall b env x, ~ In x (defs b) -> run_lets truth b env x = env x.
  Proof.
    induction b as [|[y w z e|c] b IH]; cbn; intros env x H; [reflexivity| |].
    - rewrite IH by tauto. unfold upd. destruct (Nat.eqb_spec x y) as [->|]; [tauto|reflexivity].
    - apply IH. exact H.
  Qed.
  Lemma run_lets_app : forall b b' env x, run_lets truth (b ++ b') env x = run_lets truth b' (run_lets truth b env) x.
  Proof. induction b as [|[y w z e|c] b IH]; cbn; intros; auto. Qed.
  Lemma defs_app : forall b b' : list (item V), defs (b ++ b') = defs b ++ defs b'.
  Proof. intros. unfold defs. apply flat_map_app. Qed.
  Lemma marks_app : forall b b' : list (item V), marks (b ++ b') = marks b ++ marks b'.
  Proof. intros. unfold marks. apply flat_map_app. Qed.
  Lemma exprs_app : forall b b' : list (item V), exprs (b ++ b') = exprs b ++ exprs b'.
  Proof. intros. unfold exprs. apply flat_map_app. Qed.

  Lemma handle_enabled : forall enables (items : list (item V)) s stage n s' regs n',
    handle enables items s stage n = Ok (s', regs, n') ->
    Forall (fun r => pr_enabled r = nth (pr_stage r) enables false) regs.
  Proof.
    induction items as [|[x w z e|c] items IH]; cbn; intros s stage n s' regs n' H.
    - injection H as <- <- <-. constructor.
    - destruct (available_in (lookup s 0) e); [|discriminate]. eapply IH; eauto.
    - destruct (next_stage s n) as [[[s1 rg] n1]|]; [|discriminate].
      destruct (handle enables items s1 (S stage) n1) as [[[s2 rg2] n2]|] eqn:E; [|discriminate].
      injection H as <- <- <-. apply Forall_app. split; [|eauto].
      apply Forall_forall. intros r Hr. apply in_map_iff in Hr as (q & <- & _). reflexivity.
  Qed.

  Lemma lower_inv : forall (p : pipeline V) n l, lower_pipeline p n = Ok l ->
    exists s0 n', s0 = fold_left add_input (inputs p) new_subs /\
      handle (stage_enable_names (body p)) (body p) s0 0 n = Ok (l_subs l, l_regs l, n') /\
      l_ready l = ready_signals (body p) /\
      (exists vstmts valids, valid_code (ready_signals (body p)) 0 (map has_cond (marks (body p))) None 0 = Ok (vstmts, valids) /\
         l_valid l = None :: valids /\
         l_ctrl l = enable_code (rev (combine (seq 0 (length (map has_cond (marks (body p))))) (map has_cond (marks (body p))))) None ++ vstmts) /\
      (available_in (lookup (l_subs l) 0) (result p) = Ok None \/
       available_in (lookup (l_subs l) 0) (result p) = Ok (Some 0)).
  Proof.
    intros p n l H. unfold lower_pipeline in H.
    destruct (handle _ _ _ _ _) as [[[s regs] n']|] eqn:E; [|discriminate].
    destruct (valid_code _ _ _ _ _) as [[vs vv]|] eqn:Ev; [|discriminate].
    exists (fold_left add_input (inputs p) new_subs), n'. split; [reflexivity|].
    destruct (available_in (lookup s 0) (result p)) as [[[|?]|]|] eqn:Ea; try discriminate;
      injection H as <-; cbn; (split; [exact E|split; [reflexivity|split; [|auto]]]); eauto 6.
  Qed.

  Section Accepted.
    Variable p : pipeline V.
    Variable l : lowered.
    Variable sig : pname -> nat -> V.
    Variable bsig : bname -> nat -> bool.
    Hypothesis Hacc : accepted p l.
    Hypothesis Hrun : runs truth junk p l sig bsig.
    Hypothesis Hsteady : steady p sig.
    Let ready := ready_value l bsig.
    Let Ref x u := item_value truth p (inputs_at sig u) x.
    Let s' := l_subs l.
    Hypothesis Htimed : forall e, In e (result p :: exprs (body p)) -> well_timed (lookup (l_subs l) 0) e.
    (** either nothing stalls or there are no nested pipelines *)
    Hypothesis Hstall : (forall k t, ready_value l bsig k t = true) \/ (forall e, In e (exprs (body p)) -> no_nested e).

    Lemma timing : forall e ta d, In e (exprs (body p)) -> available_in (lookup s' 0) e = Ok ta ->
      (forall t t0, item_in ready (d + time_of ta) t = Some t0 ->
         time_of ta <= t /\ item_in ready d (t - time_of ta) = Some t0) /\
      (forall t t0, item_in ready d t = Some t0 -> exists t', item_in ready (d + time_of ta) t' = Some t0).
    Proof.
      intros e ta d He Ha. destruct Hstall as [Hs|Hs].
      - pose proof (item_in_unstalled ready Hs) as U. split.
        + intros t t0. rewrite !U. destruct (Nat.ltb_spec t (d + time_of ta)); [discriminate|].
          intros E. injection E as <-. split; [lia|].
          destruct (Nat.ltb_spec (t - time_of ta) d); [lia|]. f_equal. lia.
        + intros t t0 E. exists (t + time_of ta). rewrite U in E |- *.
          destruct (Nat.ltb_spec t d); [discriminate|]. injection E as <-.
          destruct (Nat.ltb_spec (t + time_of ta) (d + time_of ta)); [lia|]. f_equal. lia.
      - apply no_nested_avail in Ha; [|now apply Hs].
        assert (time_of ta = 0) as -> by (destruct Ha as [->| ->]; reflexivity).
        rewrite Nat.add_0_r. split.
        + intros t t0 E. rewrite Nat.sub_0_r. split; [lia|exact E].
        + intros t t0 E. eauto.
    Qed.

    Lemma nodup_scope : forall pre x w z e post, body p = pre ++ ILet x w z e :: post ->
      ~ In x (map iname (inputs p) ++ defs pre) /\ ~ In x (defs post) /\
      (forall y, In y (map iname (inputs p) ++ defs pre) -> y <> x /\ ~ In y (defs post)).
    Proof.
      intros pre x w z e post Hb. pose proof (acc_nodup _ _ _ Hacc) as Hn. unfold all_names in Hn.
      rewrite Hb, defs_app in Hn. cbn in Hn. rewrite app_assoc in Hn.
      change (NoDup ((map iname (inputs p) ++ defs pre) ++ x :: defs post)) in Hn.
      pose proof (NoDup_remove_2 _ _ _ Hn) as N2. rewrite in_app_iff in N2.
      split; [tauto|split; [tauto|]]. intros y Hy. split; [intros ->; tauto|].
      clear N2. revert Hy Hn. generalize (map iname (inputs p) ++ defs pre). intros L.
      induction L as [|q L IH]; intros Hy Hn; [destruct Hy|]. cbn in Hn. inversion Hn; subst.
      destruct Hy as [->|Hy]; [|now apply IH]. rewrite in_app_iff in *. cbn in *. tauto.
    Qed.

    (** The variables visible in stage [d] have the values of the item there. *)
    Lemma hw_ref : forall scope e d ta, In e (result p :: exprs (body p)) ->
      available_in (lookup s' 0) e = Ok ta ->
      reads_ok (read s' d) scope e [] ->
      (forall x, In x scope -> In x (all_names p)) ->
      inv V sig ready Ref (used p) s' (stages p) ->
      d <= stages p ->
      Rall V sig ready Ref (used p) s' d scope ->
      forall t t0, time_of ta <= t -> item_in ready d (t - time_of ta) = Some t0 ->
      hw truth junk (read s' d) sig noloc e t = comb truth e (fun x => Ref x t0).
    Proof.
      intros scope e d ta He Ha Hr Hsc Hinv Hd HR t t0 Ht Hit.
      set (env := fun u x => match read s' d x with Some y => sig y u | None => junk end).
      transitivity (comb truth e (env (t - time_of ta))).
      - apply (hw_comb V truth junk (read s' d) sig (lookup s' 0) (narrow e scope) e [] noloc env ta Ha (Htimed e He)
                 (reads_narrow' _ _ _ Hr)).
        + intros x Hx. split.
          * unfold lookup. destruct (nth 0 (inner s') m0 x) as [v|] eqn:E; [|reflexivity].
            exfalso. apply (acc_blocks _ _ _ Hacc e x He Hx).
            assert (Hl : In x (live_vars s')) by (eapply inv_dom; [exact Hinv|rewrite E; discriminate]).
            destruct (acc_lower _ _ _ Hacc) as [n Hlow]. apply lower_inv in Hlow as (s0 & n' & -> & Hh & _).
            assert (L0 : forall ins s, live_vars (fold_left add_input ins s) = live_vars s ++ map iname ins /\
                      (length (inner s) = 1 -> length (inner (fold_left add_input ins s)) = 1)).
            { clear. induction ins as [|i ins IH]; intros s; cbn; [now rewrite app_nil_r|].
              destruct (IH (add_input s i)) as [I1 I2]. rewrite I1. split.
              - unfold add_input, set_wire, set_available. destruct (iwire i); cbn; now rewrite <- app_assoc.
              - intros H. apply I2. unfold add_input, set_wire, set_available.
                destruct (iwire i); cbn; now apply (insert_last_nth s 0 _ _ 0). }
            destruct (L0 (inputs p) new_subs) as [L1 L2].
            pose proof (handle_extends V _ _ _ _ _ _ _ _ Hh (L2 eq_refl)) as (X1 & _ & _).
            fold s' in X1. rewrite X1, L1 in Hl. exact Hl.
          * intros F. apply narrow_in in F as [F _]. apply (acc_blocks _ _ _ Hacc e x He Hx). now apply Hsc.
        + intros x [].
        + intros x Hx _. split; [reflexivity|]. intros y Ey u. unfold env. now rewrite Ey.
        + intros x Hx Hw u u'. apply narrow_in in Hx as [Hx Hxe].
          assert (Hu : used p x) by (exists e; auto). unfold lookup in Hw.
          destruct (nth 0 (inner s') m0 x) as [w|] eqn:E0; [|discriminate].
          destruct (HR x Hx) as (v & Ev & HRv).
          assert (v = w) by (eapply (inv_wire _ _ _ _ _ _ _ Hinv d); eauto). subst w.
          assert (Er : read s' d x = Some (Src x)).
          { unfold read, lookup. rewrite Ev. destruct v; cbn in Hw; try discriminate; reflexivity. }
          unfold env. rewrite Er.
          destruct v; cbn in Hw; try discriminate; unfold R in HRv;
            rewrite (HRv Hu u _ _ Hit), (HRv Hu u' _ _ Hit); reflexivity.
        + intros x. right. intros [].
        + destruct ta; auto.
        + exact Ht.
      - apply (comb_ext (read s' d) (narrow e scope) e []); [now apply reads_narrow'|].
        intros x [[]|[Hx Hrx]]. apply narrow_in in Hx as [Hx Hxe].
        assert (Hu : used p x) by (exists e; auto). destruct (HR x Hx) as (v & Ev & HRv). unfold env.
        unfold read, lookup in *. rewrite Ev in *. destruct v; [congruence| | |]; unfold R in HRv; eauto.
    Qed.

    Lemma init_inv : inv V sig ready Ref (used p) (fold_left add_input (inputs p) new_subs) 0 /\
      live_vars (fold_left add_input (inputs p) new_subs) = map iname (inputs p).
    Proof.
      assert (G : forall ins s done, inputs p = done ++ ins -> live_vars s = map iname done ->
        inv V sig ready Ref (used p) s 0 ->
        inv V sig ready Ref (used p) (fold_left add_input ins s) 0 /\
        live_vars (fold_left add_input ins s) = map iname (inputs p)).
      { induction ins as [|i ins IH]; intros s done Hd Hl Hi.
        - cbn. rewrite app_nil_r in Hd. subst done. auto.
        - cbn. pose proof (acc_nodup _ _ _ Hacc) as Hn. unfold all_names in Hn.
          assert (Hni : ~ In (iname i) (defs (body p))).
          { intros F. rewrite Hd, map_app in Hn. cbn in Hn. rewrite <- app_assoc in Hn. cbn in Hn.
            apply NoDup_remove_2 in Hn. apply Hn. rewrite !in_app_iff. tauto. }
          assert (Hnl : ~ In (iname i) (live_vars s)).
          { rewrite Hl. intros F. rewrite Hd, map_app in Hn. cbn in Hn. rewrite <- app_assoc in Hn. cbn in Hn.
            apply NoDup_remove_2 in Hn. apply Hn. rewrite !in_app_iff. tauto. }
          destruct (after_let_eq s (iname i) (iwire i) (izero i) 0 0) as (v & Ev & Ev').
          change (after_let s (iname i) (iwire i) (izero i) 0 0) with (add_input s i) in Ev.
          rewrite Ev. apply (IH _ (done ++ [i])).
          + now rewrite <- app_assoc.
          + cbn. now rewrite Hl, map_app.
          + apply insert_inv; auto.
            assert (HRef : forall u, Ref (iname i) u = sig (Src (iname i)) u).
            { intros u. unfold Ref, item_value. now rewrite run_lets_other. }
            assert (Hst : (iwire i || izero i) = true -> used p (iname i) -> forall t t', sig (Src (iname i)) t = sig (Src (iname i)) t').
            { intros Hw Hu. apply Hsteady; [|exact Hu]. left. exists i. split; [rewrite Hd; apply in_app_iff; right; now left|auto]. }
            subst v. destruct (iwire i); [|destruct (izero i)]; unfold R.
            * intros Hu t t1 t0 _. rewrite HRef. now apply Hst.
            * intros Hu t t1 t0 _. rewrite HRef. now apply Hst.
            * cbn. intros t t0 E. injection E as ->. now rewrite HRef. }
      apply (G (inputs p) new_subs []); auto.
      assert (N : forall k x, nth k (inner new_subs) m0 x = None).
      { intros [|[|k]] x; reflexivity. }
      constructor; cbn [live_vars new_subs].
      - reflexivity.
      - intros k x v. rewrite N. discriminate.
      - intros x [].
      - intros k x. rewrite N. congruence.
      - constructor.
      - intros k x v w. rewrite N. discriminate.
    Qed.

    Lemma regs_advance : forall r, In r (l_regs l) -> forall t, sig (pr_new r) (S t) =
        if ready (pr_stage r) t then sig (pr_prev r) t else sig (pr_new r) t.
    Proof.
      intros r Hr t. destruct (acc_lower _ _ _ Hacc) as [n Hlow].
      apply lower_inv in Hlow as (s0 & n' & -> & Hh & Hrs & _).
      pose proof (handle_enabled _ _ _ _ _ _ _ _ Hh) as He. rewrite Forall_forall in He. specialize (He r Hr).
      pose proof (run_regs _ _ _ _ _ _ _ Hrun) as Hg. rewrite Forall_forall in Hg. rewrite (Hg r Hr t).
      unfold ready, ready_value. rewrite Hrs. unfold ready_signals. rewrite <- He.
      destruct (pr_enabled r); reflexivity.
    Qed.

    (** [defs_ok] needs the invariant of the final table, which [handle_inv] gives
        from [defs_ok]; the two are proved together, one statement at a time. *)
    Lemma body_inv : forall items pre s n regs n',
      body p = pre ++ items ->
      handle (stage_enable_names (body p)) items s (length (marks pre)) n = Ok (s', regs, n') ->
      inv V sig ready Ref (used p) s (length (marks pre)) ->
      live_vars s = map iname (inputs p) ++ defs pre ->
      lets_hold truth junk s' (length (marks pre)) items sig ->
      body_reads_ok s' (length (marks pre)) (live_vars s) items ->
      (forall r, In r regs -> In r (l_regs l)) ->
      inv V sig ready Ref (used p) s' (stages p).
    Proof.
      induction items as [|[x wire zero e|c] items IH]; intros pre s n regs n' Hb H Hi Hl Hlets Hrd Hrg.
      - cbn in H. injection H as <- <- <-. unfold stages. rewrite Hb, app_nil_r. exact Hi.
      - assert (He : In e (exprs (body p))).
        { rewrite Hb, exprs_app. apply in_app_iff. right. now left. }
        destruct (nodup_scope _ _ _ _ _ _ Hb) as (Nx & Np & Ns). rewrite <- Hl in Nx, Ns.
        assert (Hbl : forall y, In y (block_names e) -> ~ In y (all_names p)).
        { intros y Hy. apply (acc_blocks _ _ _ Hacc e); [now right|exact Hy]. }
        pose proof (handle_extends V _ _ _ _ _ _ _ _ H (inv_len _ _ _ _ _ _ _ Hi)) as (X1 & X2 & X3).
        cbn in H. destruct (available_in (lookup s 0) e) as [time|] eqn:Ea; [|discriminate].
        fold (time_of time) in H. fold (after_let s x wire zero (time_of time) (length (marks pre))) in H.
        destruct (after_let_eq s x wire zero (time_of time) (length (marks pre))) as (v & Ev & Ev').
        rewrite Ev in H. cbn in Hrd. destruct Hrd as [Hre Hrd]. cbn in Hlets. destruct Hlets as [Hlet Hlets].
        set (d := length (marks pre)) in *.
        assert (Hsc : forall y, In y (live_vars s) -> ~ In y (defs (ILet x wire zero e :: items))).
        { intros y Hy F. change (defs (ILet x wire zero e :: items)) with (x :: defs items) in F.
          destruct (Ns y Hy). destruct F as [F|F]; [now symmetry in F|]. tauto. }
        assert (Hall : forall y, In y (live_vars s) -> In y (all_names p)).
        { intros y. rewrite Hl. unfold all_names. rewrite Hb, defs_app, !in_app_iff. tauto. }
        assert (Hd : forall y, In y (defs (ILet x wire zero e :: items)) -> In y (all_names p)).
        { intros y Hy. unfold all_names. rewrite Hb, defs_app, !in_app_iff. tauto. }
        assert (Ra : Rall V sig ready Ref (used p) s d (live_vars s)).
        { intros y Hy.
          pose proof (inv_live _ _ _ _ _ _ _ Hi y Hy) as Hlv. rewrite (last_map_nth _ _ (inv_len _ _ _ _ _ _ _ Hi)) in Hlv.
          destruct (nth d (inner s) m0 y) as [w|] eqn:Ew; [|congruence].
          exists w. split; [reflexivity|]. now apply (inv_R _ _ _ _ _ _ _ Hi). }
        assert (Hlk : forall y, In y (live_vars s) -> forall k, k <= d -> nth k (inner s') m0 y = nth k (inner s) m0 y).
        { intros y Hy k Hk. apply X3; auto. }
        assert (Ha : available_in (lookup s' 0) e = Ok time).
        { rewrite <- Ea. eapply avail_ext; [exact Hre|]. intros y Hy.
          unfold lookup. rewrite X3; [reflexivity|lia|].
          destruct Hy as [Hy|[[]|Hy]]; [auto|]. intros F. apply (Hbl y Hy). now apply Hd. }
        (* the value computed by the let *)
        assert (Hval : forall t t0, time_of time <= t -> item_in ready d (t - time_of time) = Some t0 ->
                  sig (Src x) t = Ref x t0).
        { intros t t0 Ht Hit. rewrite Hlet.
          set (env := fun u x => match read s' d x with Some y => sig y u | None => junk end).
          transitivity (comb truth e (env (t - time_of time))).
          - apply (hw_comb V truth junk (read s' d) sig (lookup s' 0) (narrow e (live_vars s)) e [] noloc env time Ha
                     (Htimed e (or_intror He)) (reads_narrow' _ _ _ Hre)).
            + intros y Hy. split; [|intros F; apply narrow_in in F as [F _]; apply (Hbl y Hy); auto].
              unfold lookup. rewrite X3; [|lia|intros F; apply (Hbl y Hy); auto].
              destruct (nth 0 (inner s) m0 y) eqn:E; [|reflexivity]. exfalso.
              apply (Hbl y Hy), Hall. eapply inv_dom; [exact Hi|]. rewrite E. discriminate.
            + intros y [].
            + intros y Hy _. split; [reflexivity|]. intros q Eq u. unfold env. now rewrite Eq.
            + intros y Hy Hw u u'. apply narrow_in in Hy as [Hy Hye].
              assert (Hu : used p y) by (exists e; split; [now right|exact Hye]). unfold lookup in Hw. rewrite (Hlk y Hy) in Hw by lia.
              destruct (nth 0 (inner s) m0 y) as [w|] eqn:E0; [|discriminate].
              destruct (Ra y Hy) as (v1 & Ev1 & HRv).
              assert (v1 = w) by (eapply (inv_wire _ _ _ _ _ _ _ Hi d); eauto). subst w.
              assert (Er : read s' d y = Some (Src y)).
              { unfold read, lookup. rewrite (Hlk y Hy) by lia. rewrite Ev1.
                destruct v1; cbn in Hw; try discriminate; reflexivity. }
              unfold env. rewrite Er.
              destruct v1; cbn in Hw; try discriminate; unfold R in HRv;
                rewrite (HRv Hu u _ _ Hit), (HRv Hu u' _ _ Hit); reflexivity.
            + intros y. right. intros [].
            + destruct time; auto.
            + exact Ht.
          - transitivity (comb truth e (fun y => Ref y t0)).
            + apply (comb_ext (read s' d) (narrow e (live_vars s)) e []); [now apply reads_narrow'|].
              intros y [[]|[Hy Hry]]. apply narrow_in in Hy as [Hy Hye].
              assert (Hu : used p y) by (exists e; split; [now right|exact Hye]). destruct (Ra y Hy) as (v1 & Ev1 & HRv). unfold env.
              unfold read, lookup in *. rewrite (Hlk y Hy) in * by lia. rewrite Ev1 in *.
              destruct v1; [congruence| | |]; unfold R in HRv; eauto.
            + assert (ER : Ref x t0 = comb truth e (run_lets truth pre (inputs_at sig t0))).
              { unfold Ref, item_value. rewrite Hb, run_lets_app. cbn.
                rewrite run_lets_other by exact Np. unfold upd. now rewrite Nat.eqb_refl. }
              rewrite ER. apply (comb_ext (read s' d) (live_vars s) e []); [exact Hre|].
              intros y [[]|[Hy _]]. unfold Ref, item_value. rewrite Hb, run_lets_app.
              apply run_lets_other. now apply Hsc. }
        assert (Hi' : inv V sig ready Ref (used p) (Subs (insert_last s x v) (live_vars s ++ [x])) d).
        { apply insert_inv; auto. destruct (timing e time d He Ha) as [T1 T2]. subst v.
          assert (Hst : (wire || zero) = true -> R V sig ready Ref (used p) d x Wire).
          { intros Hw Hu t t1 t0 Hit. destruct (T2 _ _ Hit) as [t2 Ht2]. destruct (T1 _ _ Ht2) as [T3 T4].
            rewrite <- (Hval t2 t0 T3 T4). apply Hsteady; [|exact Hu]. right. exists wire, zero, e. split; [|exact Hw].
            rewrite Hb. apply in_app_iff. right. now left. }
          destruct wire; [now apply Hst|]. destruct zero; [now apply Hst|].
          assert (Hv2 : forall t t0, item_in ready (d + time_of time) t = Some t0 -> sig (Src x) t = Ref x t0).
          { intros t t0 Hit. destruct (T1 _ _ Hit). now apply Hval. }
          destruct (Nat.eqb_spec (time_of time) 0) as [Hz|Hne]; unfold R.
          - rewrite Hz, Nat.add_0_r in Hv2. exact Hv2.
          - split; [reflexivity|]. split; [lia|]. split; [reflexivity|]. exact Hv2. }
        assert (Em : length (marks (pre ++ [ILet x wire zero e])) = d).
        { rewrite marks_app. cbn. now rewrite app_nil_r. }
        eapply (IH (pre ++ [ILet x wire zero e])); rewrite ?Em; eauto.
        + now rewrite <- app_assoc.
        + cbn. rewrite Hl, defs_app, <- app_assoc. reflexivity.
      - cbn in H. destruct (next_stage s n) as [[[s1 rg] n1]|] eqn:E; [|discriminate].
        destruct (handle _ items s1 (S (length (marks pre))) n1) as [[[s2 rg2] n2]|] eqn:E2; [|discriminate].
        injection H as E3 <- <-. rewrite E3 in E2.
        destruct (next_nth _ _ _ _ _ _ (inv_len _ _ _ _ _ _ _ Hi) E) as (N1 & N2 & N3).
        assert (Hi' : inv V sig ready Ref (used p) s1 (S (length (marks pre)))).
        { eapply next_inv; eauto. apply Forall_forall. intros r Hr t.
          apply (regs_advance (PReg (length (marks pre)) (new r) (previous r) (nth (length (marks pre)) (stage_enable_names (body p)) false))).
          apply Hrg. apply in_app_iff. left. apply in_map_iff. eauto. }
        assert (Em : length (marks (pre ++ [IMark c])) = S (length (marks pre))).
        { rewrite marks_app. cbn. rewrite app_length. cbn. lia. }
        eapply (IH (pre ++ [IMark c])); rewrite ?Em; eauto.
        + now rewrite <- app_assoc.
        + rewrite N1, Hl, defs_app. cbn. now rewrite app_nil_r.
        + now rewrite N1.
        + intros r Hr. apply Hrg. apply in_app_iff. now right.
    Qed.

    Lemma final_inv : inv V sig ready Ref (used p) s' (stages p) /\ live_vars s' = all_names p.
    Proof.
      destruct init_inv as [Hi Hl]. pose proof (acc_lower _ _ _ Hacc) as [n Hlow].
      apply lower_inv in Hlow as (s0 & n' & -> & Hh & _). split.
      - eapply (body_inv (body p) []); eauto.
        + cbn. now rewrite app_nil_r.
        + exact (run_lets_ _ _ _ _ _ _ _ Hrun).
        + cbn. rewrite Hl. exact (acc_reads _ _ _ Hacc).
      - pose proof (handle_extends V _ _ _ _ _ _ _ _ Hh (inv_len _ _ _ _ _ _ _ Hi)) as (X1 & _ & _).
        unfold s'. rewrite X1, Hl. reflexivity.
    Qed.

    (** Every variable that can be read in stage [k] has the value it has in the
        item that is in stage [k]. *)
    Lemma stage_values : forall k x y t t0, k <= stages p -> In x (all_names p) -> used p x ->
      read_ref s' k x = Some y -> item_in ready k t = Some t0 -> sig y t = Ref x t0.
    Proof.
      intros k x y t t0 Hk Hx Hu Hr Hit. destruct final_inv as [Hi Hl].
      unfold read_ref, lookup_referenced in Hr. destruct (nth k (inner s') m0 x) as [v|] eqn:E; [|discriminate].
      apply (inv_R _ _ _ _ _ _ _ Hi) in E. destruct v; try discriminate; injection Hr as <-; unfold R in E; eauto.
    Qed.

    Lemma output_value : forall t t0, item_in ready (stages p) t = Some t0 ->
      output truth junk p l sig t = function_result truth p (inputs_at sig t0).
    Proof.
      intros t t0 Hit. destruct final_inv as [Hi Hl]. pose proof (acc_lower _ _ _ Hacc) as [n Hlow].
      apply lower_inv in Hlow as (s0 & n' & -> & Hh & _ & _ & Hres).
      assert (exists ta, available_in (lookup s' 0) (result p) = Ok ta /\ time_of ta = 0) as (ta & Ha & Hz).
      { destruct Hres as [Hr|Hr]; eauto. }
      unfold output. fold s'.
      rewrite (hw_ref (all_names p) (result p) (stages p) ta) with (t0 := t0); auto.
      - now left.
      - exact (acc_result _ _ _ Hacc).
      - intros x Hx. rewrite <- Hl in Hx. pose proof (inv_live _ _ _ _ _ _ _ Hi x Hx) as Hlv.
        rewrite (last_map_nth _ _ (inv_len _ _ _ _ _ _ _ Hi)) in Hlv.
        destruct (nth (stages p) (inner s') m0 x) as [v|] eqn:E; [|congruence].
        exists v. split; [reflexivity|]. now apply (inv_R _ _ _ _ _ _ _ Hi).
      - lia.
      - rewrite Hz, Nat.sub_0_r. exact Hit.
    Qed.
  End Accepted.
End Fun.
