(** Stall and valid signals. *)
From Coq Require Import List Bool Arith Lia.
From Verif Require Import PipeModel PipeSpec PipeProofs PipeRun PipeFun.
Import ListNotations.

Section Ctrl.
  Variable bsig : bname -> nat -> bool.
  Notation holds := (Forall (ctrl_holds bsig)).

  (** ** Which stages have an enable *)
  Lemma enable_names_rev_app : forall V (l1 l2 : list (option (expr V))) b,
    enable_names_rev (l1 ++ l2) b = enable_names_rev l1 b ++ enable_names_rev l2 (b || existsb has_cond l1).
  Proof.
    induction l1 as [|c l1 IH]; intros l2 b; cbn; [now rewrite orb_false_r|].
    rewrite IH, orb_assoc. reflexivity.
  Qed.
  Definition names_of {V} (m : list (option (expr V))) : list bool := rev (enable_names_rev (rev m) false).
  Lemma names_of_cons : forall V (c : option (expr V)) m, names_of (c :: m) = existsb has_cond (c :: m) :: names_of m.
  Proof.
    intros V c m. unfold names_of. cbn [rev]. rewrite enable_names_rev_app, rev_app_distr. cbn. f_equal.
    rewrite orb_comm. f_equal.
    induction m as [|d m IH]; [reflexivity|]. cbn. rewrite existsb_app. cbn. rewrite IH, orb_false_r. apply orb_comm.
  Qed.
  Lemma names_of_nth : forall V (m : list (option (expr V))) i, nth i (names_of m) false = existsb has_cond (skipn i m).
  Proof.
    induction m as [|c m IH]; intros i; [destruct i; reflexivity|].
    rewrite names_of_cons. destruct i; [reflexivity|]. apply IH.
  Qed.

  (** ** Enable = conjunction of the remaining conditions *)
  Fixpoint allc (k : nat) (cs : list bool) (t : nat) : bool :=
    match cs with
    | [] => true
    | h :: cs => (if h then bsig (BCond k) t else true) && allc (S k) cs t
    end.
  Lemma allc_none : forall cs k t, existsb (fun b => b) cs = false -> allc k cs t = true.
  Proof.
    induction cs as [|h cs IH]; intros k t H; [reflexivity|]. cbn in *.
    apply orb_false_elim in H as [-> H]. cbn. now apply IH.
  Qed.
  Fixpoint cur_after (conds : list (nat * bool)) (cur : option bname) : option bname :=
    match conds with
    | [] => cur
    | (i, has) :: rest => cur_after rest (match has, cur with false, None => None | _, _ => Some (BEnable i) end)
    end.
  Lemma enable_code_app : forall l1 l2 cur,
    enable_code (l1 ++ l2) cur = enable_code l1 cur ++ enable_code l2 (cur_after l1 cur).
  Proof.
    induction l1 as [|[i h] l1 IH]; intros l2 cur; [reflexivity|]. cbn.
    destruct h, cur; rewrite IH; reflexivity.
  Qed.
  Lemma cur_after_app : forall l1 l2 cur, cur_after (l1 ++ l2) cur = cur_after l2 (cur_after l1 cur).
  Proof. induction l1 as [|[i h] l1 IH]; intros l2 cur; [reflexivity|]. cbn. apply IH. Qed.
  Lemma cur_after_all : forall cs k,
    cur_after (rev (combine (seq k (length cs)) cs)) None =
    if existsb (fun b => b) cs then Some (BEnable k) else None.
  Proof.
    induction cs as [|h cs IH]; intros k; [reflexivity|]. cbn [length seq combine rev].
    rewrite cur_after_app, IH. cbn. destruct h; cbn; [destruct (existsb _ cs); reflexivity|].
    destruct (existsb _ cs); reflexivity.
  Qed.
  Lemma enable_code_value : forall cs k,
    holds (enable_code (rev (combine (seq k (length cs)) cs)) None) ->
    forall i, existsb (fun b => b) (skipn i cs) = true ->
    forall t, bsig (BEnable (k + i)) t = allc (k + i) (skipn i cs) t.
  Proof.
    induction cs as [|h cs IH]; intros k H i Hi t; [destruct i; discriminate|].
    cbn [length seq combine rev] in H. rewrite enable_code_app, cur_after_all in H.
    apply Forall_app in H as [H1 H2]. destruct i as [|i].
    - rewrite Nat.add_0_r. cbn in Hi |- *. cbn in H2.
      destruct (existsb (fun b => b) cs) eqn:E.
      + specialize (IH (S k) H1 0 E t). rewrite Nat.add_0_r in IH. cbn [skipn] in IH.
        destruct h; inversion H2 as [|? ? H3 _]; subst; cbn in H3; rewrite H3, IH; reflexivity.
      + rewrite orb_false_r in Hi. subst h. inversion H2 as [|? ? H3 _]; subst. cbn in H3.
        rewrite H3, allc_none by exact E. now rewrite andb_true_r.
    - rewrite <- Nat.add_succ_comm. cbn [skipn]. apply (IH (S k) H1 i Hi t).
  Qed.

  (** ** Constant folding helpers *)
  Definition mval (m : maybe_const) (t : nat) : bool := match m with MVal n => bsig n t | MConst b => b end.
  Lemma and_value : forall l r n m s n', constexpr_and l r n = (m, s, n') -> holds s ->
    forall t, mval m t = mval l t && mval r t.
  Proof.
    intros [a|[]] [b|[]] n m s n' H Hs t; cbn in H; injection H as <- <- <-; cbn;
      rewrite ?andb_true_r, ?andb_false_r; auto.
    inversion Hs as [|? ? H1 _]; subst. apply H1.
  Qed.
  Lemma inv_value : forall a n m s n', constexpr_inv a n = (m, s, n') -> holds s ->
    forall t, mval m t = negb (mval a t).
  Proof.
    intros [a|b] n m s n' H Hs t; cbn in H; injection H as <- <- <-; cbn; auto.
    inversion Hs as [|? ? H1 _]; subst. apply H1.
  Qed.
  Lemma name_value : forall a n x s n', to_value_name a n = (x, s, n') -> holds s ->
    forall t, bsig x t = mval a t.
  Proof.
    intros [a|b] n x s n' H Hs t; cbn in H; injection H as <- <- <-; cbn; auto.
    inversion Hs as [|? ? H1 _]; subst. apply H1.
  Qed.
  Lemma select_value : forall a b c n m s n', constexpr_select a b c n = (m, s, n') -> holds s ->
    forall t, mval m t = if mval c t then mval a t else mval b t.
  Proof.
    intros a b [c|[]] n m s n' H Hs t; cbn in H.
    - destruct (to_value_name a (S n)) as [[ta s1] n1] eqn:E1.
      destruct (to_value_name b n1) as [[tb s2] n2] eqn:E2.
      injection H as <- <- <-. apply Forall_app in Hs as [S1 Hs]. apply Forall_app in Hs as [S2 S3].
      inversion S3 as [|? ? H1 _]; subst. cbn in H1 |- *. rewrite H1.
      now rewrite (name_value _ _ _ _ _ E1 S1), (name_value _ _ _ _ _ E2 S2).
    - injection H as <- <- <-. reflexivity.
    - injection H as <- <- <-. reflexivity.
  Qed.

  (** ** Valid signals *)
  Definition oval (o : option bname) (t : nat) : bool := match o with Some n => bsig n t | None => true end.
  Lemma valid_code_value : forall ready conds i prev n stmts valids,
    valid_code ready i conds prev n = Ok (stmts, valids) -> holds stmts ->
    length valids = length conds /\
    forall j, j < length conds -> forall t,
      oval (nth j valids None) (S t) =
      (if oval (ready (i + j)) t then oval (nth j (prev :: valids) None) t else oval (nth j valids None) t) &&
      negb (negb (if nth j conds false then bsig (BCond (i + j)) t else true) && oval (ready (i + S j)) t).
  Proof.
    induction conds as [|h conds IH]; intros i prev n stmts valids H Hs.
    - cbn in H. injection H as <- <-. split; [reflexivity|]. cbn. intros; lia.
    - cbn in H.
      destruct (constexpr_select _ _ _ _) as [[mux s1] n1] eqn:E1.
      destruct (constexpr_inv (if h then _ else _) n1) as [[ci s2] n2] eqn:E2.
      destruct (constexpr_and ci _ n2) as [[sh s3] n3] eqn:E3.
      destruct (constexpr_inv sh n3) as [[shi s4] n4] eqn:E4.
      destruct (constexpr_and mux shi n4) as [[vn s5] n5] eqn:E5.
      assert (Hval : forall pre rest, stmts = (s1 ++ s2 ++ s3 ++ s4 ++ s5) ++ rest -> pre = tt ->
        holds rest /\ forall t, mval vn t =
          (if oval (ready i) t then oval prev t else bsig (BValid (S i)) t) &&
          negb (negb (if h then bsig (BCond i) t else true) && oval (ready (S i)) t)).
      { intros pre rest E _. subst stmts. apply Forall_app in Hs as [Hs Hrest]. split; [exact Hrest|].
        apply Forall_app in Hs as [A1 Hs]. apply Forall_app in Hs as [A2 Hs].
        apply Forall_app in Hs as [A3 Hs]. apply Forall_app in Hs as [A4 A5].
        intros t. rewrite (and_value _ _ _ _ _ _ E5 A5), (select_value _ _ _ _ _ _ _ E1 A1).
        rewrite (inv_value _ _ _ _ _ E4 A4), (and_value _ _ _ _ _ _ E3 A3), (inv_value _ _ _ _ _ E2 A2).
        destruct (ready i), (ready (S i)), prev, h; reflexivity. }
      destruct vn as [next|[]]; [| |discriminate].
      + destruct (valid_code ready (S i) conds (Some (BValid (S i))) n5) as [[s vs]|] eqn:Er; [|discriminate].
        injection H as <- <-.
        destruct (Hval tt (SReg (BValid (S i)) next :: s)) as [Hrest Hv]; [reflexivity|reflexivity|].
        inversion Hrest as [|? ? Hreg Hrest']; subst. cbn in Hreg.
        destruct (IH _ _ _ _ _ Er Hrest') as [L G]. split; [cbn; lia|].
        intros j Hj t. destruct j as [|j].
        * rewrite Nat.add_0_r, Nat.add_1_r. cbn [nth oval]. rewrite Hreg. apply Hv.
        * cbn [length] in Hj. specialize (G j ltac:(lia) t).
          replace (i + S (S j)) with (S i + S j) by lia. replace (i + S j) with (S i + j) by lia. exact G.
      + destruct (valid_code ready (S i) conds prev n5) as [[s vs]|] eqn:Er; [|discriminate].
        injection H as <- <-.
        destruct (Hval tt s) as [Hrest Hv]; [reflexivity|reflexivity|].
        assert (Hp : prev = None).
        { destruct prev as [pv|]; [|reflexivity]. exfalso.
          destruct (ready i) as [rb|]; cbn in E1.
          - injection E1 as <- <- <-. destruct shi as [b|[]]; cbn in E5; discriminate.
          - injection E1 as <- <- <-. destruct shi as [b|[]]; cbn in E5; discriminate. }
        subst prev. destruct (IH _ _ _ _ _ Er Hrest) as [L G]. split; [cbn; lia|].
        intros j Hj t. destruct j as [|j].
        * rewrite Nat.add_0_r, Nat.add_1_r. cbn [nth oval]. specialize (Hv t). cbn [mval oval] in Hv.
          destruct (oval (ready i) t); [exact Hv|].
          symmetry in Hv. apply andb_prop in Hv as [_ Hv]. now rewrite Hv.
        * cbn [length] in Hj. specialize (G j ltac:(lia) t).
          replace (i + S (S j)) with (S i + S j) by lia. replace (i + S j) with (S i + j) by lia. exact G.
  Qed.
End Ctrl.

(** ** Conservation of items between two stages *)
Lemma conserve : forall D (valid0 valid1 ready0 ready1 cond : nat -> bool) (d0 d1 : nat -> D),
  (forall t, ready0 t = cond t && ready1 t) ->
  (forall t, valid1 (S t) = (if ready0 t then valid0 t else valid1 t) && negb (negb (cond t) && ready1 t)) ->
  (forall t, d1 (S t) = if ready0 t then d0 t else d1 t) ->
  forall T, held valid1 d1 0 ++ taken valid0 ready0 d0 T = taken valid1 ready1 d1 T ++ held valid1 d1 T.
Proof.
  intros D valid0 valid1 ready0 ready1 cond d0 d1 Hr Hv Hd T. induction T as [|T IH].
  - cbn. now rewrite app_nil_r.
  - cbn [taken]. rewrite app_assoc, IH. unfold held. rewrite Hv, Hd, Hr.
    destruct (cond T), (ready1 T), (valid1 T), (valid0 T); cbn; rewrite <- ?app_assoc, ?app_nil_r; reflexivity.
Qed.

Lemma conserve_all : forall D (valid ready : nat -> nat -> bool) (data : nat -> nat -> D) n,
  (forall k, k < n -> forall T, held (valid (S k)) (data (S k)) 0 ++ taken (valid k) (ready k) (data k) T =
      taken (valid (S k)) (ready (S k)) (data (S k)) T ++ held (valid (S k)) (data (S k)) T) ->
  forall T, in_flight valid data n 0 ++ taken (valid 0) (ready 0) (data 0) T =
            taken (valid n) (ready n) (data n) T ++ in_flight valid data n T.
Proof.
  induction n as [|n IH]; intros H T; cbn [in_flight].
  - now rewrite app_nil_r.
  - rewrite <- app_assoc, IH by (intros; apply H; lia). rewrite app_assoc, (H n) by lia. now rewrite <- app_assoc.
Qed.

Lemma taken_prefix : forall D E (f : D -> E) (v r : nat -> bool) (d : nat -> option D) (out : nat -> E) T rest L,
  (forall t x, d t = Some x -> out t = f x) ->
  map Some L = taken v r d T ++ rest ->
  exists rest', length rest' = length rest /\ map f L = taken v r out T ++ rest'.
Proof.
  intros D E f v r d out T. induction T as [|T IH]; intros rest L Hf H.
  - cbn in *. exists (map f L). split; [|reflexivity].
    rewrite map_length. apply (f_equal (@length _)) in H. now rewrite map_length in H.
  - cbn [taken] in *. rewrite <- app_assoc in H.
    destruct (IH _ L Hf H) as (rest' & Hl & He). destruct (v T && r T) eqn:Evr.
    + cbn in Hl. destruct rest' as [|e rest']; [discriminate|]. exists rest'. split; [cbn in Hl; lia|].
      rewrite He, <- app_assoc. f_equal. cbn. f_equal.
      (* the element at this position of L *)
      assert (Hn : nth_error (map f L) (length (taken v r d T)) = Some e).
      { rewrite He. assert (Hlen : length (taken v r d T) = length (taken v r out T)).
        { clear. induction T as [|T IH]; [reflexivity|]. cbn. rewrite !app_length, IH. destruct (v T && r T); reflexivity. }
        rewrite Hlen, nth_error_app2, Nat.sub_diag by lia. reflexivity. }
      assert (Hn' : nth_error (map Some L) (length (taken v r d T)) = Some (d T)).
      { rewrite H. rewrite nth_error_app2, Nat.sub_diag by lia. reflexivity. }
      rewrite nth_error_map in Hn, Hn'. destruct (nth_error L _) as [x|]; [|discriminate].
      cbn in Hn, Hn'. injection Hn as <-. injection Hn' as Hn'. symmetry. apply Hf. now symmetry.
    + cbn in Hl. exists rest'. split; [exact Hl|]. now rewrite app_nil_r.
Qed.

Lemma in_flight_length : forall D valid (data : nat -> nat -> D) n T, length (in_flight valid data n T) <= n.
Proof.
  induction n as [|n IH]; intros T; [reflexivity|]. cbn [in_flight]. rewrite app_length.
  specialize (IH T). unfold held. destruct (valid (S n) T); cbn; lia.
Qed.

Section Main.
  Variable V : Type.
  Variable truth : V -> bool.
  Variable junk : V.

  Section One.
    Variable p : pipeline V.
    Variable l : lowered.
    Variable sig : pname -> nat -> V.
    Variable bsig : bname -> nat -> bool.
    Hypothesis Hacc : accepted p l.
    Hypothesis Hrun : runs truth junk p l sig bsig.

    Definition cond_value (k t : nat) : bool :=
      match nth k (marks (body p)) None with Some _ => bsig (BCond k) t | None => true end.

    Lemma existsb_has : forall cs : list (option (expr V)), existsb has_cond cs = existsb (fun b => b) (map has_cond cs).
    Proof. induction cs as [|c cs IH]; cbn; [reflexivity|]. now rewrite IH. Qed.

    Lemma ready_allc : forall k t, ready_value l bsig k t = allc bsig k (map has_cond (skipn k (marks (body p)))) t.
    Proof.
      intros k t. destruct (acc_lower _ _ _ Hacc) as [n Hlow].
      apply lower_inv in Hlow as (s0 & n' & _ & _ & Hr & (vs & vv & Hvc & _ & Hctrl) & _).
      unfold ready_value. rewrite Hr. unfold ready_signals.
      change (stage_enable_names (body p)) with (names_of (marks (body p))). rewrite names_of_nth, existsb_has.
      destruct (existsb (fun b => b) (map has_cond (skipn k (marks (body p))))) eqn:E.
      - pose proof (run_ctrl _ _ _ _ _ _ _ Hrun) as Hc. rewrite Hctrl in Hc. apply Forall_app in Hc as [Hc _].
        rewrite <- skipn_map in E |- *.
        pose proof (enable_code_value bsig _ 0 Hc k E t) as Hv. exact Hv.
      - symmetry. now apply allc_none.
    Qed.

    Lemma skipn_nth_cons : forall A (d : A) (L : list A) k, k < length L -> skipn k L = nth k L d :: skipn (S k) L.
    Proof.
      induction L as [|a L IH]; intros k H; cbn in H; [lia|]. destruct k; [reflexivity|]. cbn.
      rewrite (IH k) by lia. reflexivity.
    Qed.

    Lemma ready_step : forall k t, k < stages p ->
      ready_value l bsig k t = cond_value k t && ready_value l bsig (S k) t.
    Proof.
      intros k t Hk. rewrite !ready_allc. unfold stages in Hk.
      rewrite (skipn_nth_cons _ None) by exact Hk. cbn. unfold cond_value.
      destruct (nth k (marks (body p)) None); reflexivity.
    Qed.
    Lemma ready_last : forall k t, stages p <= k -> ready_value l bsig k t = true.
    Proof.
      intros k t Hk. rewrite ready_allc. unfold stages in Hk. now rewrite skipn_all2.
    Qed.
    Lemma ready_iff : forall k t, ready_value l bsig k t = true <->
      (forall j, k <= j -> cond_value j t = true).
    Proof.
      assert (G : forall d k t, stages p - k = d -> (ready_value l bsig k t = true <->
        (forall j, k <= j -> cond_value j t = true))).
      { induction d as [|d IH]; intros k t Hd.
        - rewrite ready_last by lia. split; [|auto]. intros _ j Hj. unfold cond_value.
          rewrite nth_overflow; [reflexivity|]. unfold stages in Hd. lia.
        - rewrite ready_step by lia. rewrite andb_true_iff, (IH (S k)) by lia. split.
          + intros [A B] j Hj. destruct (Nat.eq_dec j k) as [->|]; [exact A|apply B; lia].
          + intros H. split; [apply H; lia|]. intros j Hj. apply H. lia. }
      intros k t. eapply G. reflexivity.
    Qed.

    Lemma valid_step : forall k t, k < stages p ->
      valid_value l bsig (S k) (S t) =
      (if ready_value l bsig k t then valid_value l bsig k t else valid_value l bsig (S k) t) &&
      negb (negb (cond_value k t) && ready_value l bsig (S k) t).
    Proof.
      intros k t Hk. pose proof (acc_lower _ _ _ Hacc) as [n Hlow].
      apply lower_inv in Hlow as (s0 & n' & _ & _ & Hr & (vs & vv & Hvc & Hvl & Hctrl) & _).
      pose proof (run_ctrl _ _ _ _ _ _ _ Hrun) as Hc. rewrite Hctrl in Hc. apply Forall_app in Hc as [_ Hc].
      destruct (valid_code_value bsig _ _ _ _ _ _ _ Hvc Hc) as [L G].
      rewrite map_length in G. specialize (G k Hk t). cbn [Nat.add] in G.
      unfold valid_value, ready_value, cond_value. rewrite Hvl, Hr. cbn [nth] in G |- *.
      unfold oval in G. rewrite G. f_equal. f_equal. f_equal. f_equal.
      change false with (@has_cond V None). rewrite map_nth. destruct (nth k (marks (body p)) None); reflexivity.
    Qed.

    Lemma pair_conserve : forall D k (d0 d1 : nat -> D), k < stages p ->
      (forall t, d1 (S t) = if ready_value l bsig k t then d0 t else d1 t) ->
      forall T, held (valid_value l bsig (S k)) d1 0 ++ taken (valid_value l bsig k) (ready_value l bsig k) d0 T =
        taken (valid_value l bsig (S k)) (ready_value l bsig (S k)) d1 T ++ held (valid_value l bsig (S k)) d1 T.
    Proof.
      intros D k d0 d1 Hk Hd. apply conserve with (cond := cond_value k); auto.
      - intros t. now apply ready_step.
      - intros t. now apply valid_step.
    Qed.

    Lemma reg_conserve : forall r, In r (l_regs l) -> pr_stage r < stages p -> forall T,
      held (valid_value l bsig (S (pr_stage r))) (sig (pr_new r)) 0 ++
      taken (valid_value l bsig (pr_stage r)) (ready_value l bsig (pr_stage r)) (sig (pr_prev r)) T =
      taken (valid_value l bsig (S (pr_stage r))) (ready_value l bsig (S (pr_stage r))) (sig (pr_new r)) T ++
      held (valid_value l bsig (S (pr_stage r))) (sig (pr_new r)) T.
    Proof.
      intros r Hr Hk T. apply pair_conserve; [exact Hk|].
      eapply regs_advance; eauto.
    Qed.

    Lemma items_conserve : forall T,
      let item k t := item_in (ready_value l bsig) k t in
      in_flight (valid_value l bsig) item (stages p) 0 ++
      taken (fun _ => true) (ready_value l bsig 0) (fun t => Some t) T =
      taken (valid_value l bsig (stages p)) (fun _ => true) (item (stages p)) T ++
      in_flight (valid_value l bsig) item (stages p) T.
    Proof.
      intros T item.
      assert (V0 : forall t, valid_value l bsig 0 t = true).
      { intros t. unfold valid_value. pose proof (acc_lower _ _ _ Hacc) as [n Hlow].
        apply lower_inv in Hlow as (s0 & n' & _ & _ & Hr & (vs & vv & Hvc & Hvl & Hctrl) & _).
        rewrite Hvl. reflexivity. }
      assert (E : forall (v r v' r' : nat -> bool) (d d' : nat -> option nat) T,
        (forall t, v t = v' t) -> (forall t, r t = r' t) -> (forall t, d t = d' t) ->
        taken v r d T = taken v' r' d' T).
      { intros v r v' r' d d' T0 A B C. induction T0 as [|T0 IH]; [reflexivity|]. cbn. now rewrite IH, A, B, C. }
      rewrite (E (fun _ => true) (ready_value l bsig 0) (valid_value l bsig 0) (ready_value l bsig 0) (fun t => Some t) (item 0));
        [|intros; now rewrite V0|reflexivity|reflexivity].
      rewrite (E (valid_value l bsig (stages p)) (fun _ => true) (valid_value l bsig (stages p)) (ready_value l bsig (stages p))
                 (item (stages p)) (item (stages p)));
        [|reflexivity|intros; now rewrite ready_last|reflexivity].
      apply conserve_all. intros k Hk. apply pair_conserve; [exact Hk|]. intros t. reflexivity.
    Qed.

    (** End to end: the valid outputs are the results of the accepted inputs, in
        order, except for those still in the pipeline. *)
    Lemma stream : 
      steady p sig ->
      (forall e, In e (result p :: exprs (body p)) -> well_timed (lookup (l_subs l) 0) e) ->
      (forall e, In e (exprs (body p)) -> no_nested e) ->
      (forall k, 1 <= k <= stages p -> valid_value l bsig k 0 = false) ->
      forall T, exists rest, length rest <= stages p /\
      map (fun t => function_result truth p (inputs_at sig t))
          (taken (fun _ => true) (ready_value l bsig 0) (fun t => t) T) =
      taken (valid_value l bsig (stages p)) (fun _ => true) (output truth junk p l sig) T ++ rest.
    Proof.
      intros Hst Htm Hnn Hv0 T.
      pose proof (items_conserve T) as H. cbv zeta in H.
      assert (Hz : in_flight (valid_value l bsig) (fun k t => item_in (ready_value l bsig) k t) (stages p) 0 = []).
      { revert Hv0. generalize (stages p). induction n as [|n IH]; intros Hv0; [reflexivity|].
        cbn [in_flight]. unfold held. rewrite Hv0 by lia. apply IH. intros k Hk. apply Hv0. lia. }
      rewrite Hz in H. cbn [app] in H.
      assert (Hm : taken (fun _ => true) (ready_value l bsig 0) (fun t => Some t) T =
                   map Some (taken (fun _ => true) (ready_value l bsig 0) (fun t => t) T)).
      { clear. induction T as [|T IH]; [reflexivity|]. cbn. rewrite map_app, IH. destruct (ready_value l bsig 0 T); reflexivity. }
      rewrite Hm in H.
      destruct (taken_prefix _ _ (fun t => function_result truth p (inputs_at sig t)) _ _ _ (output truth junk p l sig) _ _ _
                  ltac:(intros t x Hx; eapply output_value; eauto) H) as (rest & Hl & He).
      exists rest. split; [|exact He]. rewrite Hl. apply in_flight_length.
    Qed.
  End One.
End Main.
