(** Rolling back: which parts of the state a call leaves alone, with trait bounds
    and implementations. *)
From Coq Require Import List Bool Arith ZArith Lia.
From Verif Require Import InferModel InferSpec InferChain.
Import ListNotations.

Section Roll.
Variable C : context.

(** the number of parameters of the types that have implementations *)
Variable arity : base -> option nat.

Definition counts (st : state) : Prop :=
  forall i b ps k, nth_error (vars st) i = Some (Known b ps) -> arity b = Some k -> length ps = k.

Notation tm_ok := (tmpl_counts arity).
Notation impl_ok := (impl_counts arity).
Notation ik_arity := (ic_arity arity).
Notation ik_target := (ic_target arity).
Notation ik_trait := (ic_trait arity).
Notation ik_vars := (ic_vars arity).

Hypothesis impls_ok : forall b, Forall (impl_ok b) (impls C b).

(** what a computation may change *)
Record keeps (st st' : state) : Prop := {
  ks_tl : tl (repl st') = tl (repl st);
  ks_nil : repl st <> [] -> repl st' <> [];
  ks_saved : saved st' = saved st;
  ks_vars : exists ext, vars st' = vars st ++ ext;
  ks_counts : counts st -> counts st'
}.

Lemma keeps_refl st : keeps st st.
Proof. constructor; auto. exists []. rewrite app_nil_r. auto. Qed.

Lemma keeps_trans a b c : keeps a b -> keeps b c -> keeps a c.
Proof.
  intros [A1 A2 A3 [x A4] A5] [B1 B2 B3 [y B4] B5]. constructor; try congruence; auto.
  exists (x ++ y). rewrite B4, A4, app_assoc. auto.
Qed.

Definition bal {A} (m : M A) (Q : A -> Prop) : Prop :=
  forall st, counts st -> repl st <> [] ->
  match m st with
  | Done a st' => keeps st st' /\ Q a
  | Fail _ st' => keeps st st'
  | _ => True
  end.

Lemma bal_bind {A B} (m : M A) (f : A -> M B) P Q :
  bal m P -> (forall a, P a -> bal (f a) Q) -> bal (bind m f) Q.
Proof.
  intros H F st CN N. unfold bind. specialize (H st CN N).
  destruct (m st) as [a s1|e s1| |]; auto. destruct H as [K p].
  specialize (F a p s1 (ks_counts _ _ K CN) (ks_nil _ _ K N)).
  destruct (f a s1) as [b s2|e s2| |]; auto.
  - destruct F. split; auto. eapply keeps_trans; eauto.
  - eapply keeps_trans; eauto.
Qed.

Lemma bal_weaken {A} (m : M A) (P Q : A -> Prop) : (forall a, P a -> Q a) -> bal m P -> bal m Q.
Proof.
  intros I H st CN N. specialize (H st CN N). destruct (m st); auto. destruct H. auto.
Qed.

Lemma bal_ret {A} (a : A) (Q : A -> Prop) : Q a -> bal (ret a) Q.
Proof. intros H st _ _. split; auto using keeps_refl. Qed.
Lemma bal_fail {A} e (Q : A -> Prop) : bal (fail e) Q.
Proof. intros st _ _. cbn. apply keeps_refl. Qed.
Lemma bal_panic {A} (Q : A -> Prop) : bal panic Q.
Proof. intros st _ _. exact I. Qed.
Lemma bal_fuel {A} (Q : A -> Prop) : bal (fun _ => NoFuel) Q.
Proof. intros st _ _. exact I. Qed.

Definition any {A} (_ : A) : Prop := True.
Hint Unfold any : core.

Lemma bal_seq {A B} (m : M A) (f : A -> M B) Q :
  bal m any -> (forall a, bal (f a) Q) -> bal (bind m f) Q.
Proof. intros H F. eapply bal_bind; [exact H | auto]. Qed.

Lemma set_repl_keeps st R : tl R = tl (repl st) -> (repl st <> [] -> R <> []) -> keeps st (set_repl st R).
Proof. intros A B. constructor; cbn; auto. exists []. rewrite app_nil_r. auto. Qed.

Lemma bal_get_type v : bal (get_type v) any.
Proof.
  intros st CN N. unfold get_type. destruct (get (repl st) v) as [[t R]|] eqn:G; auto.
  destruct (get_inv _ _ _ _ N G) as (_ & _ & T & N'). split; [apply set_repl_keeps; auto | exact I].
Qed.

Definition tv_ok (t : tvar) : Prop :=
  match t with Known b ps => forall k, arity b = Some k -> length ps = k | Unknown _ _ => True end.

Lemma bal_add t : tv_ok t -> bal (add_type_var t) any.
Proof.
  intros H st CN N. cbn. split; [|exact I]. constructor; cbn; eauto.
  intros CN' i b ps k X A. unfold counts in CN'. cbn in X.
  destruct (lt_dec i (length (vars st))) as [L|L].
  - rewrite nth_error_app1 in X by auto. eauto.
  - rewrite nth_error_app2 in X by lia. destruct (i - length (vars st)) as [|j]; cbn in X.
    + injection X as ->. apply H. auto.
    + destruct j; discriminate.
Qed.

Lemma bal_insert a b : bal (insert_replacement a b) any.
Proof.
  intros st CN N. cbn. split; [|exact I]. apply set_repl_keeps; [apply insert_tl|].
  intros H. apply insert_nil. auto.
Qed.

Lemma err_ok : arity BError = None -> tv_ok (Known BError []).
Proof. intros E k H. congruence. Qed.

Hypothesis err_arity : arity BError = None.

Lemma bal_check to : bal (check_recursion to) any.
Proof.
  intros st CN N. unfold check_recursion.
  destruct (check_rec (S (length (vars st))) st [] to) as [[|]|]; auto.
  - assert (H : bal (e <- add_type_var (Known BError []) ;; insert_replacement to e ;;; @fail unit ERecursive) any).
    { apply bal_seq; [apply bal_add, err_ok; auto|]. intros e.
      apply bal_seq; [apply bal_insert|]. intros. apply bal_fail. }
    exact (H st CN N).
  - split; auto using keeps_refl.
Qed.

Lemma bal_replace_one r new : bal (replace_one r new) any.
Proof.
  unfold replace_one. repeat (apply bal_seq; [apply bal_get_type || apply bal_insert | intros ?]).
  apply bal_check.
Qed.

Lemma bal_replace_all same rs new : bal (replace_all same rs new) any.
Proof.
  induction rs as [|r rs IH]; cbn [replace_all]; [apply bal_ret; auto|].
  apply bal_seq; [|auto]. destruct same; [apply bal_ret; auto | apply bal_replace_one].
Qed.

(** ** Copies of templates *)

Definition all_tm (l : list tmpl) : Prop := Forall tm_ok l.

Lemma tm_ok_list b l : tm_ok (TmK b l) -> (forall k, arity b = Some k -> length l = k) /\ Forall tm_ok l.
Proof.
  cbn [tm_ok]. intros [A B]. split; auto. clear A. induction l; constructor; [apply B | apply IHl, B].
Qed.

Lemma bal_copy im b0 n : impl_ok b0 im -> forall t mp, tm_ok t -> bal (copy n im t mp) any.
Proof.
  intros IM. induction n as [|n IH]; intros t mp T; [apply bal_fuel|].
  set (copies := fix go (l : list tmpl) (mp : list (nat * nat)) : M (list nat * list (nat * nat)) :=
        match l with
        | [] => ret ([], mp)
        | t :: r => a <- copy n im t mp ;; b <- go r (snd a) ;; ret (fst a :: fst b, snd b)
        end).
  assert (CP : forall l mp, Forall tm_ok l -> bal (copies l mp) (fun a => length (fst a) = length l)).
  { induction l as [|x l IHl]; intros mp0 F; cbn.
    - apply bal_ret. auto.
    - inversion F; subst. apply bal_seq; [apply IH; auto|]. intros a.
      eapply bal_bind; [apply IHl; auto|]. intros c E. apply bal_ret. cbn in *. lia. }
  destruct t as [b l|k].
  - apply tm_ok_list in T as [T1 T2].
    change (copy (S n) im (TmK b l) mp) with
      (a <- copies l mp ;; v <- add_type_var (Known b (fst a)) ;; ret (v, snd a)).
    eapply bal_bind; [apply CP; auto|]. intros a E.
    apply bal_seq; [|intros; apply bal_ret; auto].
    apply bal_add. intros k H. rewrite E. auto.
  - change (copy (S n) im (TmV k) mp) with
      (match assoc mp k with
          | Some v => ret (v, mp)
          | None =>
              match nth_error (im_vars im) k with
              | None => panic
              | Some (trs, m) =>
                  a <- (fix go (l : list (nat * list tmpl)) (mp : list (nat * nat))
                          : M (list trait_req * list (nat * nat)) :=
                          match l with
                          | [] => ret ([], mp)
                          | (nm, ps) :: r =>
                              a <- copies ps mp ;; b <- go r (snd a) ;;
                              ret ((nm, fst a) :: fst b, snd b)
                          end) trs mp ;;
                  v <- add_type_var (Unknown (fst a) m) ;;
                  ret (v, (k, v) :: snd a)
              end
          end).
    destruct (assoc mp k); [apply bal_ret; auto|].
    destruct (nth_error (im_vars im) k) as [[trs m]|] eqn:E; [|apply bal_panic].
    apply bal_seq.
    + apply nth_error_In in E. pose proof (ik_vars _ _ IM) as V. rewrite Forall_forall in V.
      specialize (V _ E). cbn in V. clear - V CP. revert mp.
      induction trs as [|[nm ps] trs IHt]; intros mp; [apply bal_ret; auto|].
      inversion V; subst. apply bal_seq.
      * eapply bal_weaken; [|apply CP; auto]. auto.
      * intros a. apply bal_seq; [apply IHt; auto|]. intros. apply bal_ret. auto.
    + intros a. apply bal_seq; [apply bal_add; exact I | intros; apply bal_ret; auto].
Qed.

(** ** The rest of unification *)

Section Inner.
Variable u : nat -> nat -> M nat.
Hypothesis U : forall a b, bal (u a b) any.

Lemma bal_unify_zip p1 : forall p2, bal (unify_zip u p1 p2) any.
Proof.
  induction p1; intros []; cbn; try (apply bal_ret; auto; fail).
  apply bal_seq; [apply U|]. intros. apply bal_seq; [auto|]. intros. apply bal_ret. auto.
Qed.

Lemma bal_merge_traits names t1 t2 : bal (merge_traits u names t1 t2) any.
Proof.
  induction names; cbn [merge_traits]; [apply bal_ret; auto|].
  apply bal_seq.
  - destruct (get_trait t1 a), (get_trait t2 a); try (apply bal_ret; auto; fail); [|apply bal_panic].
    apply bal_seq; [apply bal_unify_zip | intros; apply bal_ret; auto].
  - intros. apply bal_seq; [auto|]. intros. apply bal_ret. auto.
Qed.

Lemma bal_all_match b f im ls : impl_ok b im -> Forall tm_ok ls -> forall rs, bal (all_match u f im ls rs) any.
Proof.
  intros IM F. induction F as [|l ls Hl _ IH]; intros [|r rs]; cbn [all_match]; try (apply bal_ret; auto; fail).
  apply bal_seq; [eapply bal_copy; eauto|]. intros a st CN N. cbn beta.
  pose proof (U (fst a) r st CN N) as H. destruct (u (fst a) r st) as [x s1|e s1| |]; try exact H; auto.
  destruct H as [K _]. pose proof (IH rs s1 (ks_counts _ _ K CN) (ks_nil _ _ K N)) as H2.
    destruct (all_match u f im ls rs s1) as [y s2|e s2| |]; auto; [destruct H2; split; auto|];
      eapply keeps_trans; eauto.
Qed.

Definition nofail {A} (m : M A) : Prop := forall st e st', m st <> Fail e st'.

Lemma nofail_bind {A B} (m : M A) (f : A -> M B) : nofail m -> (forall a, nofail (f a)) -> nofail (bind m f).
Proof.
  intros H F st e st'. unfold bind. destruct (m st) as [a s1|e1 s1| |] eqn:E; try discriminate.
  - apply F.
  - exfalso. exact (H _ _ _ E).
Qed.
Lemma nofail_ret {A} (a : A) : nofail (ret a).
Proof. intros st e st'. discriminate. Qed.

Lemma nofail_copy im n : forall t mp, nofail (copy n im t mp).
Proof.
  induction n as [|n IH]; intros t mp; [intros st e st'; discriminate|].
  set (copies := fix go (l : list tmpl) (mp : list (nat * nat)) : M (list nat * list (nat * nat)) :=
        match l with
        | [] => ret ([], mp)
        | t :: r => a <- copy n im t mp ;; b <- go r (snd a) ;; ret (fst a :: fst b, snd b)
        end).
  assert (CP : forall l mp, nofail (copies l mp)).
  { induction l as [|x l IHl]; intros mp0; cbn; [apply nofail_ret|].
    apply nofail_bind; [apply IH|]. intros a. apply nofail_bind; [apply IHl|]. intros. apply nofail_ret. }
  destruct t as [b l|k].
  - change (copy (S n) im (TmK b l) mp) with
      (a <- copies l mp ;; v <- add_type_var (Known b (fst a)) ;; ret (v, snd a)).
    apply nofail_bind; [apply CP|]. intros a. apply nofail_bind; [intros st e st'; discriminate|].
    intros. apply nofail_ret.
  - change (copy (S n) im (TmV k) mp) with
      (match assoc mp k with
          | Some v => ret (v, mp)
          | None =>
              match nth_error (im_vars im) k with
              | None => panic
              | Some (trs, m) =>
                  a <- (fix go (l : list (nat * list tmpl)) (mp : list (nat * nat))
                          : M (list trait_req * list (nat * nat)) :=
                          match l with
                          | [] => ret ([], mp)
                          | (nm, ps) :: r =>
                              a <- copies ps mp ;; b <- go r (snd a) ;;
                              ret ((nm, fst a) :: fst b, snd b)
                          end) trs mp ;;
                  v <- add_type_var (Unknown (fst a) m) ;;
                  ret (v, (k, v) :: snd a)
              end
          end).
    destruct (assoc mp k); [apply nofail_ret|].
    destruct (nth_error (im_vars im) k) as [[trs m]|]; [|intros st e st'; discriminate].
    apply nofail_bind.
    + clear - CP. revert mp. induction trs as [|[nm ps] trs IHt]; intros mp; [apply nofail_ret|].
      apply nofail_bind; [apply CP|]. intros a. apply nofail_bind; [apply IHt|]. intros. apply nofail_ret.
    + intros a. apply nofail_bind; [intros st e st'; discriminate|]. intros. apply nofail_ret.
Qed.

Lemma nofail_all_match f im ls : forall rs, nofail (all_match u f im ls rs).
Proof.
  induction ls as [|l ls IH]; intros [|r rs]; cbn [all_match]; try apply nofail_ret.
  apply nofail_bind; [apply nofail_copy|]. intros a st e st'.
  destruct (u (fst a) r st); try discriminate. apply IH.
Qed.

Lemma bal_matching b f req params ims : Forall (impl_ok b) ims ->
  (forall k, arity b = Some k -> length params = k) -> bal (matching_impls u f req params ims) (fun l => incl l ims).
Proof.
  intros F PK. induction F as [|im ims IM F IH]; cbn [matching_impls]; [apply bal_ret, incl_refl|].
  assert (IH' : bal (matching_impls u f req params ims) (fun l => incl l (im :: ims)))
    by (eapply bal_weaken; [|exact IH]; intros; apply incl_tl; auto).
  destruct (negb (length (im_trait im) =? length (snd req))); [exact IH'|].
  destruct (negb (im_name im =? fst req)); [exact IH'|].
  destruct (ik_arity _ _ IM) as (k & AK & LK).
  rewrite LK, (PK _ AK), Nat.eqb_refl. cbn [negb].
  intros st CN N. unfold bind at 1, checkpoint. unfold bind at 1.
  set (s0 := mkState (vars st) ([] :: repl st) (cons st) (cons st :: saved st)).
  assert (N0 : repl s0 <> []) by discriminate.
  pose proof (bal_all_match b f im (im_trait im) IM (ik_trait _ _ IM) (snd req) s0 CN N0) as H1.
  pose proof (nofail_all_match f im (im_trait im) (snd req) s0) as NF1.
  destruct (all_match u f im (im_trait im) (snd req) s0) as [tm s1|e s1| |]; auto;
    [|exfalso; eapply NF1; reflexivity].
  destruct H1 as [K1 _]. unfold bind at 1.
  pose proof (ks_counts _ _ K1 CN) as CN1. pose proof (ks_nil _ _ K1 N0) as N1.
  pose proof (bal_all_match b f im (im_target im) IM (ik_target _ _ IM) params s1 CN1 N1) as H2.
  pose proof (nofail_all_match f im (im_target im) params s1) as NF2.
  destruct (all_match u f im (im_target im) params s1) as [pm s2|e s2| |]; auto;
    [|exfalso; eapply NF2; reflexivity].
  destruct H2 as [K2 _]. pose proof (keeps_trans _ _ _ K1 K2) as [T NN SV [ext V] CO].
  unfold bind at 1, restore. rewrite SV. cbn [saved s0].
  set (s3 := mkState (vars s2) (tl (repl s2)) (cons st) (saved st)).
  assert (K3 : keeps st s3).
  { constructor; cbn.
    - rewrite T. cbn. auto.
    - rewrite T. cbn. auto.
    - auto.
    - exists ext. exact V.
    - intros _. exact (CO CN). }
  assert (CN3 : counts s3) by exact (CO CN).
  assert (N3 : repl s3 <> []) by (apply (ks_nil _ _ K3); auto).
  unfold bind at 1. pose proof (IH s3 CN3 N3) as H3.
  destruct (matching_impls u f req params ims s3) as [xs s4|e s4| |]; auto.
  - destruct H3 as [K4 X]. split; [eapply keeps_trans; eauto|].
    destruct (tm && pm); [|apply incl_tl; auto]. intros y [<-|Y]; [left; auto | right; auto].
  - eapply keeps_trans; eauto.
Qed.

Lemma bal_ensure_each b f params reqs : (forall k, arity b = Some k -> length params = k) ->
  bal (ensure_each C u f b params reqs)
    (fun o => forall l, o = Some l -> Forall (fun p => impl_ok b (fst p)) l).
Proof.
  intros PK. induction reqs as [|req reqs IH]; cbn [ensure_each].
  - apply bal_ret. intros l H. injection H as <-. constructor.
  - eapply bal_bind; [apply (bal_matching b); auto|]. intros [|im [|im' ims]] X.
    + apply bal_seq; [eapply bal_weaken; [|exact IH]; auto|]. intros. apply bal_ret. discriminate.
    + eapply bal_bind; [exact IH|]. intros o HO. apply bal_ret. intros l E.
      destruct o as [l'|]; [|discriminate]. injection E as <-. constructor; [|apply HO; auto].
      pose proof (impls_ok b) as IO. rewrite Forall_forall in IO. apply IO, X. left. auto.
    + apply bal_fail.
Qed.

Lemma bal_ensure_impls b f params reqs : (forall k, arity b = Some k -> length params = k) ->
  bal (ensure_impls C u f b params reqs) (fun l => Forall (fun p => impl_ok b (fst p)) l).
Proof.
  intros PK. unfold ensure_impls. destruct (impl_target b).
  - eapply bal_bind; [apply bal_ensure_each; auto|]. intros [l|] H; [apply bal_ret; auto | apply bal_fail].
  - destruct reqs; [apply bal_ret; constructor | apply bal_fail].
Qed.

Lemma bal_trait_params b f im ls : impl_ok b im -> forall rs mp, Forall tm_ok rs ->
  bal (unify_trait_params u f im ls rs mp) any.
Proof.
  intros IM. induction ls as [|l ls IH]; intros [|r rs] mp F; cbn [unify_trait_params]; try (apply bal_ret; auto; fail).
  inversion F; subst. apply bal_seq; [eapply bal_copy; eauto|]. intros a.
  apply bal_seq; [apply U|]. intros. apply IH. auto.
Qed.

Lemma bal_target_params b f im ls : impl_ok b im -> forall rs mp, Forall tm_ok ls -> length ls = length rs ->
  bal (unify_target_params u f im ls rs mp) (fun l => length l = length rs).
Proof.
  intros IM. induction ls as [|l ls IH]; intros [|r rs] mp F L; cbn [unify_target_params]; try discriminate.
  - apply bal_ret. auto.
  - inversion F; subst. apply bal_seq; [eapply bal_copy; eauto|]. intros a.
    apply bal_seq; [apply U|]. intros x. eapply bal_bind; [apply IH; auto|].
    intros xs E. apply bal_ret. cbn in *. lia.
Qed.

Lemma bal_unify_impls b f l : Forall (fun p => impl_ok b (fst p)) l -> forall params,
  (forall k, arity b = Some k -> length params = k) ->
  bal (unify_impls u f l params) (fun ps => length ps = length params).
Proof.
  induction 1 as [|[im req] l IM _ IH]; intros params PK; cbn [unify_impls]; [apply bal_ret; auto|].
  cbn in IM. destruct (ik_arity _ _ IM) as (k & AK & LK).
  apply bal_seq; [eapply bal_trait_params; eauto; apply (ik_trait _ _ IM)|]. intros mp.
  eapply bal_bind.
  - eapply (bal_target_params b); eauto; [apply (ik_target _ _ IM)|]. rewrite LK, (PK _ AK). auto.
  - intros ps E. eapply bal_weaken; [|apply IH].
    + cbn. intros a Ea. congruence.
    + rewrite E. auto.
Qed.
End Inner.

Section Loop.
Variable i : nat -> nat -> M nat.
Hypothesis B : forall a b, bal (i a b) any.
Hypothesis lit_arity : forall k, arity (BInt k) = None.
Hypothesis lit_arity_b : forall k, arity (BBool k) = None.
Hypothesis lit_arity_s : forall k, arity (BStr k) = None.

Lemma bal_infer_known l : (forall v b, In (v, b) l -> arity b = None) -> bal (infer_known i l) any.
Proof.
  induction l as [|[v b] l IH]; intros H; cbn [infer_known]; [apply bal_ret; auto|].
  apply bal_seq.
  - apply bal_add. intros k E. rewrite (H v b) in E by (left; auto). discriminate.
  - intros e. apply bal_seq; [|intros; apply IH; intros v0 b0 X; apply (H v0); right; auto].
    intros st CN N. pose proof (B e v st CN N) as X.
    destruct (i e v st) as [x s1|er s1| |]; auto; destruct er; auto.
Qed.

Lemma update_lits st cs : forall rem known, update_constraints st cs = Some (rem, known) ->
  forall v b, In (v, b) known -> arity b = None.
Proof.
  induction cs as [|[v e] cs IH]; cbn [update_constraints]; intros rem known H.
  - injection H as <- <-. intros v b [].
  - destruct (evaluate st e) as [e'|]; [|discriminate].
    destruct (update_constraints st cs) as [[r k]|]; [|discriminate]. specialize (IH _ _ eq_refl).
    destruct e'; injection H as <- <-; auto; intros v0 b0 [X|X]; eauto; injection X as <- <-; auto.
Qed.

Lemma bal_loop n : bal (constraint_loop i n) any.
Proof.
  induction n as [|n IH]; [apply bal_fuel|]. intros st CN N. cbn [constraint_loop].
  destruct (update_constraints st (cons st)) as [[rem known]|] eqn:E; auto.
  assert (K : keeps st (set_cons st rem)).
  { constructor; cbn; auto. exists []. rewrite app_nil_r. auto. }
  destruct known as [|kv kn]; [split; auto|].
  assert (H : bal (infer_known i (kv :: kn) ;;; constraint_loop i n) any).
  { apply bal_seq; [|auto]. apply bal_infer_known. eapply update_lits; eauto. }
  specialize (H (set_cons st rem) CN N).
  destruct ((infer_known i (kv :: kn) ;;; constraint_loop i n) (set_cons st rem)) as [x s1|e s1| |]; auto.
  - destruct H. split; auto. eapply keeps_trans; eauto.
  - eapply keeps_trans; eauto.
Qed.

Lemma bal_unify_with a b : bal (unify_with i a b) any.
Proof.
  unfold unify_with. apply bal_seq; [apply B|]. intros new. apply bal_seq; [|intros; apply bal_ret; auto].
  intros st. apply bal_loop.
Qed.

Lemma bal_params p1 : forall p2, bal (unify_params i p1 p2) any.
Proof.
  induction p1; intros []; cbn; try (apply bal_ret; auto; fail). apply bal_seq; auto.
Qed.

Lemma bal_known v1 v2 b1 p1 b2 p2 : bal (unify_known C i v1 v2 b1 p1 b2 p2) any.
Proof.
  assert (PC : bal (unify_params_checked i p1 p2 ;;; ret (v1, @nil nat)) any).
  { apply bal_seq; [|intros; apply bal_ret; auto]. unfold unify_params_checked.
    destruct (length p1 =? length p2); [apply bal_params | apply bal_fail]. }
  destruct b1, b2; cbn [unify_known]; try apply bal_fail; auto.
  - destruct (sym C n), (sym C n0); try apply bal_panic;
      try (destruct has_traits; [apply bal_panic | apply bal_ret; auto]).
    + destruct (n =? n0); [exact PC | apply bal_fail].
    + destruct (has_traits || has_traits0); [apply bal_panic | apply bal_ret; auto].
  - destruct (z =? z0)%Z; [apply bal_ret; auto | apply bal_fail].
  - destruct (Bool.eqb b b0); [apply bal_ret; auto | apply bal_fail].
  - destruct (str_eqb s s0); [apply bal_ret; auto | apply bal_fail].
Qed.
End Loop.

Hypothesis lit_arity : forall k, arity (BInt k) = None.
Hypothesis lit_arity_b : forall k, arity (BBool k) = None.
Hypothesis lit_arity_s : forall k, arity (BStr k) = None.

Lemma resolve_nth st v tv : resolve st v = Some tv -> exists r, nth_error (vars st) r = Some tv.
Proof.
  unfold resolve. destruct (chase _ _ v) as [[t s]|]; [|discriminate]. eauto.
Qed.

Lemma bal_inner n : forall a b, bal (unify_inner C n a b) any.
Proof.
  induction n as [|n IH]; intros a b; [apply bal_fuel|].
  pose proof (bal_unify_with _ IH lit_arity lit_arity_b lit_arity_s) as U.
  cbn [unify_inner].
  apply bal_seq; [apply bal_get_type|]. intros v1. apply bal_seq; [apply bal_get_type|]. intros v2.
  apply bal_seq; [|intros r; apply bal_seq; [apply bal_replace_all | intros; apply bal_ret; auto]].
  assert (KU : forall b ps trs m (x : list nat), (forall k, arity b = Some k -> length ps = k) ->
    bal (l <- ensure_impls C (unify_with (unify_inner C n)) n b ps trs ;;
         ps' <- unify_impls (unify_with (unify_inner C n)) n l ps ;;
         if kind_fits b m then new <- add_type_var (Known b ps') ;; ret (new, x) else fail EMeta) any).
  { intros b0 ps trs m x PK. eapply bal_bind; [apply bal_ensure_impls; auto|]. intros l HL.
    eapply bal_bind; [apply (bal_unify_impls _ U b0); auto|]. intros ps' E.
    destruct (kind_fits b0 m); [|apply bal_fail].
    apply bal_seq; [|intros; apply bal_ret; auto]. apply bal_add. intros k H. rewrite E. auto. }
  intros st CN N.
  destruct (resolve st v1) as [[b1 p1|t1 m1]|] eqn:R1; [| |exact I].
  - apply resolve_nth in R1 as (r1 & R1).
    destruct (resolve st v2) as [[b2 p2|t2 m2]|] eqn:R2.
    + destruct b1; try (split; [apply keeps_refl | exact I]; fail);
        destruct b2; try (split; [apply keeps_refl | exact I]; fail);
        apply bal_known; auto.
    + destruct b1; try (split; [apply keeps_refl | exact I]; fail); apply KU; auto; intros ? ?; eapply CN; eauto.
    + destruct b1; exact I.
  - destruct (resolve st v2) as [[b2 p2|t2 m2]|] eqn:R2; [| |exact I].
    + apply resolve_nth in R2 as (r2 & R2).
      destruct b2; try (split; [apply keeps_refl | exact I]; fail); apply KU; auto; intros ? ?; eapply CN; eauto.
    + destruct (unify_meta m1 m2) as [m|]; [|apply keeps_refl].
      assert (ADD : bal (new <- add_type_var (Unknown [] m) ;; ret (new, [v1; v2])) any)
        by (apply bal_seq; [apply bal_add; exact I | intros; apply bal_ret; auto]).
      assert (MT : bal (ts <- merge_traits (unify_with (unify_inner C n)) (trait_names t1 t2) t1 t2 ;;
                        new <- add_type_var (Unknown ts MType) ;; ret (new, [v1; v2])) any).
      { apply bal_seq; [apply bal_merge_traits; auto|]. intros.
        apply bal_seq; [apply bal_add; exact I | intros; apply bal_ret; auto]. }
      destruct m; first [exact (MT st CN N) | exact (ADD st CN N)].
Qed.

Theorem bal_unify n a b : bal (unify C n a b) any.
Proof. apply bal_unify_with; auto. apply bal_inner. Qed.
End Roll.

