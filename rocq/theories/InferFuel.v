(** More fuel never changes an outcome. *)
From Coq Require Import List Bool Arith ZArith Lia.
From Verif Require Import InferModel.
Import ListNotations.

Definition ole {A} (a b : out A) : Prop := a = NoFuel \/ a = b.
Definition mle {A} (a b : M A) : Prop := forall st, ole (a st) (b st).

Lemma mle_refl {A} (m : M A) : mle m m.
Proof. intros st. right. auto. Qed.

Lemma mle_bind {A B} (m m' : M A) (f f' : A -> M B) :
  mle m m' -> (forall a, mle (f a) (f' a)) -> mle (bind m f) (bind m' f').
Proof.
  intros H F st. unfold bind. destruct (H st) as [E|E]; rewrite E; [left; auto|].
  destruct (m' st); try (right; reflexivity). apply F.
Qed.

Lemma mle_fuel {A} (m : M A) : mle (fun _ => NoFuel) m.
Proof. intros st. left. auto. Qed.

Ltac mono := repeat first [ apply mle_bind; [|intros ?] | apply mle_refl ].

Definition ile (i i' : nat -> nat -> M nat) : Prop := forall a b, mle (i a b) (i' a b).

Lemma copy_mono im n : forall t mp, mle (copy n im t mp) (copy (S n) im t mp).
Proof.
  induction n as [|n IH]; intros t mp; [apply mle_fuel|].
  set (c1 := fix go (l : list tmpl) (mp : list (nat * nat)) : M (list nat * list (nat * nat)) :=
        match l with
        | [] => ret ([], mp)
        | t :: r => a <- copy n im t mp ;; b <- go r (snd a) ;; ret (fst a :: fst b, snd b)
        end).
  set (c2 := fix go (l : list tmpl) (mp : list (nat * nat)) : M (list nat * list (nat * nat)) :=
        match l with
        | [] => ret ([], mp)
        | t :: r => a <- copy (S n) im t mp ;; b <- go r (snd a) ;; ret (fst a :: fst b, snd b)
        end).
  assert (CS : forall l mp, mle (c1 l mp) (c2 l mp)).
  { induction l as [|x l IHl]; intros mp0; cbn; mono; auto. apply IH. }
  assert (E1 : forall t mp, copy (S n) im t mp =
      match t with
      | TmK b l => a <- c1 l mp ;; v <- add_type_var (Known b (fst a)) ;; ret (v, snd a)
      | TmV k =>
          match assoc mp k with
          | Some v => ret (v, mp)
          | None =>
              match nth_error (im_vars im) k with
              | None => panic
              | Some (trs, m) =>
                  a <- (fix go (l : list (nat * list tmpl)) (mp : list (nat * nat))
                          : M (list trait_req * list (nat * nat)) :=
                          match l with
                          | [] => ret ([], mp)
                          | (nm, ps) :: r =>
                              a <- c1 ps mp ;; b <- go r (snd a) ;;
                              ret ((nm, fst a) :: fst b, snd b)
                          end) trs mp ;;
                  v <- add_type_var (Unknown (fst a) m) ;;
                  ret (v, (k, v) :: snd a)
              end
          end
      end) by (intros [] ?; reflexivity).
  assert (E2 : forall t mp, copy (S (S n)) im t mp =
      match t with
      | TmK b l => a <- c2 l mp ;; v <- add_type_var (Known b (fst a)) ;; ret (v, snd a)
      | TmV k =>
          match assoc mp k with
          | Some v => ret (v, mp)
          | None =>
              match nth_error (im_vars im) k with
              | None => panic
              | Some (trs, m) =>
                  a <- (fix go (l : list (nat * list tmpl)) (mp : list (nat * nat))
                          : M (list trait_req * list (nat * nat)) :=
                          match l with
                          | [] => ret ([], mp)
                          | (nm, ps) :: r =>
                              a <- c2 ps mp ;; b <- go r (snd a) ;;
                              ret ((nm, fst a) :: fst b, snd b)
                          end) trs mp ;;
                  v <- add_type_var (Unknown (fst a) m) ;;
                  ret (v, (k, v) :: snd a)
              end
          end
      end) by (intros [] ?; reflexivity).
  rewrite E1, E2. destruct t as [b l|k].
  - mono. apply CS.
  - destruct (assoc mp k); [apply mle_refl|].
    destruct (nth_error (im_vars im) k) as [[trs m]|]; [|apply mle_refl].
    apply mle_bind; [|intros; apply mle_refl].
    generalize mp. clear - CS. induction trs as [|[nm ps] trs IH]; intros mp; mono; auto.
Qed.

Section Mono.
Variables i i' : nat -> nat -> M nat.
Hypothesis I : ile i i'.

Lemma unify_zip_mono p1 : forall p2, mle (unify_zip i p1 p2) (unify_zip i' p1 p2).
Proof. induction p1; intros []; cbn; mono; try apply I; auto. Qed.

Lemma merge_traits_mono names t1 t2 : mle (merge_traits i names t1 t2) (merge_traits i' names t1 t2).
Proof.
  induction names; cbn; mono; auto.
  destruct (get_trait t1 a), (get_trait t2 a); mono. apply unify_zip_mono.
Qed.

Lemma all_match_mono f im ls : forall rs, mle (all_match i f im ls rs) (all_match i' (S f) im ls rs).
Proof.
  induction ls as [|l ls IH]; intros [|r rs]; cbn [all_match]; try apply mle_refl.
  apply mle_bind; [apply copy_mono|]. intros a st.
  destruct (I (fst a) r st) as [E|E]; rewrite E; [left; auto|].
  destruct (i' (fst a) r st); try (right; reflexivity). apply IH.
Qed.

Lemma matching_impls_mono f req params ims :
  mle (matching_impls i f req params ims) (matching_impls i' (S f) req params ims).
Proof.
  induction ims as [|im ims IH]; cbn [matching_impls]; [apply mle_refl|].
  destruct (negb (length (im_trait im) =? length (snd req))); auto.
  destruct (negb (im_name im =? fst req)); auto.
  mono; [apply all_match_mono|].
  destruct (negb (length (im_target im) =? length params)); auto.
  mono; [apply all_match_mono | exact IH].
Qed.

Lemma ensure_each_mono C f b params reqs :
  mle (ensure_each C i f b params reqs) (ensure_each C i' (S f) b params reqs).
Proof.
  induction reqs as [|req reqs IH]; cbn [ensure_each]; [apply mle_refl|].
  apply mle_bind; [apply matching_impls_mono|]. intros [|im [|? ?]]; mono; auto.
Qed.

Lemma ensure_impls_mono C f b params reqs :
  mle (ensure_impls C i f b params reqs) (ensure_impls C i' (S f) b params reqs).
Proof.
  unfold ensure_impls. destruct (impl_target b); [|apply mle_refl].
  apply mle_bind; [apply ensure_each_mono | intros; apply mle_refl].
Qed.

Lemma unify_trait_params_mono f im ls : forall rs mp,
  mle (unify_trait_params i f im ls rs mp) (unify_trait_params i' (S f) im ls rs mp).
Proof.
  induction ls as [|l ls IH]; intros [|r rs] mp; cbn [unify_trait_params]; try apply mle_refl.
  apply mle_bind; [apply copy_mono|]. intros a. apply mle_bind; [apply I|]. intros. apply IH.
Qed.

Lemma unify_target_params_mono f im ls : forall rs mp,
  mle (unify_target_params i f im ls rs mp) (unify_target_params i' (S f) im ls rs mp).
Proof.
  induction ls as [|l ls IH]; intros [|r rs] mp; cbn [unify_target_params]; try apply mle_refl.
  apply mle_bind; [apply copy_mono|]. intros a. apply mle_bind; [apply I|]. intros.
  mono. apply IH.
Qed.

Lemma unify_impls_mono f l : forall params,
  mle (unify_impls i f l params) (unify_impls i' (S f) l params).
Proof.
  induction l as [|[im req] l IH]; intros params; cbn [unify_impls]; [apply mle_refl|].
  apply mle_bind; [apply unify_trait_params_mono|]. intros a.
  apply mle_bind; [apply unify_target_params_mono|]. intros. apply IH.
Qed.

Lemma infer_known_mono l : mle (infer_known i l) (infer_known i' l).
Proof.
  induction l as [|[v b] l IH]; cbn [infer_known]; [apply mle_refl|].
  apply mle_bind; [apply mle_refl|]. intros e. apply mle_bind; [|intros; apply IH].
  intros st. destruct (I e v st) as [E|E]; rewrite E; [left; auto | right; auto].
Qed.

Lemma constraint_loop_mono n : mle (constraint_loop i n) (constraint_loop i' n).
Proof.
  induction n as [|n IH]; [apply mle_refl|]. intros st. cbn [constraint_loop].
  destruct (update_constraints st (cons st)) as [[rem [|k kn]]|]; try (right; reflexivity).
  apply mle_bind; [apply infer_known_mono | intros; apply IH].
Qed.

Lemma unify_with_mono : ile (unify_with i) (unify_with i').
Proof.
  intros a b. unfold unify_with. apply mle_bind; [apply I|]. intros new.
  apply mle_bind; [|intros; apply mle_refl]. intros st. apply constraint_loop_mono.
Qed.

Lemma unify_params_mono p1 : forall p2, mle (unify_params i p1 p2) (unify_params i' p1 p2).
Proof.
  induction p1; intros []; cbn; try apply mle_refl. apply mle_bind; [apply I | intros; apply IHp1].
Qed.

Lemma unify_params_checked_mono p1 p2 :
  mle (unify_params_checked i p1 p2) (unify_params_checked i' p1 p2).
Proof.
  unfold unify_params_checked. destruct (length p1 =? length p2); [apply unify_params_mono | apply mle_refl].
Qed.

Lemma unify_known_mono C v1 v2 b1 p1 b2 p2 :
  mle (unify_known C i v1 v2 b1 p1 b2 p2) (unify_known C i' v1 v2 b1 p1 b2 p2).
Proof.
  assert (PC : forall x : nat, mle (unify_params_checked i p1 p2 ;;; ret (x, @nil nat))
                             (unify_params_checked i' p1 p2 ;;; ret (x, @nil nat)))
    by (intros; apply mle_bind; [apply unify_params_checked_mono | intros; apply mle_refl]).
  destruct b1, b2; cbn [unify_known]; try apply mle_refl; try apply PC.
  destruct (sym C n), (sym C n0); try apply mle_refl. destruct (n =? n0); [apply PC | apply mle_refl].
Qed.
End Mono.

Lemma unify_inner_mono C n : ile (unify_inner C n) (unify_inner C (S n)).
Proof.
  induction n as [|n IH]; intros a b; [apply mle_fuel|].
  pose proof (unify_with_mono _ _ IH) as U.
  set (w := S n) at 2. cbn [unify_inner]. subst w.
  fold (unify_inner C (S n)).
  apply mle_bind; [apply mle_refl|]. intros v1.
  apply mle_bind; [apply mle_refl|]. intros v2.
  apply mle_bind; [|intros; apply mle_refl].
  assert (EI : forall b ps trs (f : list nat -> M (nat * list nat)),
    mle (l <- ensure_impls C (unify_with (unify_inner C n)) n b ps trs ;;
         ps' <- unify_impls (unify_with (unify_inner C n)) n l ps ;; f ps')
        (l <- ensure_impls C (unify_with (unify_inner C (S n))) (S n) b ps trs ;;
         ps' <- unify_impls (unify_with (unify_inner C (S n))) (S n) l ps ;; f ps')).
  { intros. apply mle_bind; [apply ensure_impls_mono; auto|]. intros l.
    apply mle_bind; [apply unify_impls_mono; auto | intros; apply mle_refl]. }
  intros st.
  destruct (resolve st v1) as [[b1 p1|t1 m1]|]; [| |right; reflexivity];
    (destruct (resolve st v2) as [[b2 p2|t2 m2]|]; [| |try (right; reflexivity)]).
  - destruct b1; try (right; reflexivity); destruct b2; try (right; reflexivity);
      apply unify_known_mono; auto.
  - destruct b1; try (right; reflexivity); apply EI.

  - destruct b2; try (right; reflexivity); apply EI.
  - destruct (unify_meta m1 m2) as [[]|]; try (right; reflexivity).
    apply mle_bind; [apply merge_traits_mono; auto | intros; apply mle_refl].
Qed.

Theorem fuel_mono C n m a b st : n <= m -> unify_inner C n a b st <> NoFuel ->
  unify_inner C m a b st = unify_inner C n a b st.
Proof.
  intros L. induction L as [|m L IH]; auto. intros H.
  destruct (unify_inner_mono C m a b st) as [E|E].
  - rewrite IH in E by auto. contradiction.
  - rewrite <- E. auto.
Qed.

Lemma ile_trans i j k : ile i j -> ile j k -> ile i k.
Proof.
  intros A B a b st. destruct (A a b st) as [E|E]; [left; auto|].
  destruct (B a b st) as [E'|E']; [left; congruence | right; congruence].
Qed.

Lemma unify_inner_ile C n m : n <= m -> ile (unify_inner C n) (unify_inner C m).
Proof.
  induction 1 as [|m L IH]; [intros a b; apply mle_refl|].
  eapply ile_trans; [exact IH | apply unify_inner_mono].
Qed.

(** More fuel for a whole call *)
Theorem unify_fuel C n m a b st : n <= m -> unify C n a b st <> NoFuel ->
  unify C m a b st = unify C n a b st.
Proof.
  intros L H. destruct (unify_with_mono _ _ (unify_inner_ile C n m L) a b st) as [E|E].
  - contradiction.
  - symmetry. exact E.
Qed.
