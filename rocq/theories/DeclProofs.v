(** Proofs about [DeclModel]. *)
From Coq Require Import List Arith Bool Lia Permutation.
From Verif Require Import InferModel InferSpec TypingModel DeclModel DeclSpec ElabModel ElabProofs BitsFacts.
Import ListNotations.

Lemma in_names x : forall s, In x (spec_names s) <-> occurs x s.
Proof.
  assert (LIST : forall l, Forall (fun s => In x (spec_names s) <-> occurs x s) l -> In x (flat_map spec_names l) <-> exists s, In s l /\ occurs x s).
  { intros l F. rewrite Forall_forall in F. rewrite in_flat_map. split; intros (s & I & H); exists s; (split; [assumption|]); apply (F s I); assumption. }
  induction s as [z|b|y|e|n l IH|k|l IH|a b IHa IHb|a IHa|a IHa|] using tspec_ind'; cbn [spec_names]; try (split; [intros [] | intros H; inversion H]; fail).
  - cbn. rewrite (LIST l IH). split.
    + intros [->|(s & I & O)]; [apply O_here | eapply O_named; eauto].
    + intros H. inversion H; subst; eauto.
  - rewrite (LIST l IH). split; [intros (s & I & O); eapply O_tuple; eauto | intros H; inversion H; subst; eauto].
  - rewrite in_app_iff, IHa, IHb. split; [intros [H|H]; [apply O_element | apply O_size]; auto | intros H; inversion H; subst; auto].
  - rewrite IHa. split; [apply O_inverted | intros H; inversion H; subst; auto].
  - rewrite IHa. split; [apply O_view | intros H; inversion H; subst; auto].
Qed.
Lemma in_all_names x l : In x (flat_map spec_names l) <-> exists s, In s l /\ occurs x s.
Proof. rewrite in_flat_map. split; intros (s & I & H); exists s; (split; [assumption|]); apply in_names; assumption. Qed.

Definition succ (g : types_) (x : nat) : list nat := match body_of g x with Some l => flat_map spec_names l | None => [] end.
Lemma body_in g d l : NoDup (map fst g) -> (body_of g d = Some l <-> In (d, l) g).
Proof.
  unfold body_of. induction g as [|[k m] g IH]; cbn; intros ND; [split; [discriminate|intros []]|]. inversion ND as [|? ? NI ND']; subst.
  destruct (Nat.eqb_spec k d) as [->|N]; cbn.
  - split; intros H; [apply Some_inj in H; subst; auto|]. destruct H as [H|H]; [inversion H; auto|]. destruct NI. apply (in_map fst) in H. exact H.
  - rewrite (IH ND'). split; auto. intros [H|H]; auto. inversion H; congruence.
Qed.
Lemma mentions_succ g p x : NoDup (map fst g) -> (mentions g p x <-> In x (succ g p)).
Proof.
  intros ND. unfold succ, mentions. split.
  - intros (l & s & I & J & O). apply (body_in g p l ND) in I. rewrite I. apply in_all_names. eauto.
  - destruct (body_of g p) as [l|] eqn:B; [|intros []]. intros H. apply in_all_names in H as (s & I & O). apply body_in in B; auto. exists l, s. auto.
Qed.

(** No declaration leads to itself, in the form used below *)
Definition down (g : types_) (y x : nat) : Prop := mentions g x y.
Definition good (g : types_) : Prop := NoDup (map fst g) /\ forall x, Acc (down g) x.
Lemma good_nil : good [].
Proof. split; [constructor|]. intros x. constructor. intros y (l & s & [] & _). Qed.
Lemma leads_trans g a b c : leads g a b -> leads g b c -> leads g a c.
Proof. intros H K. induction H; [eapply L_more; eauto | eapply L_more; eauto]. Qed.
Lemma good_acyclic g : good g -> forall d, ~ leads g d d.
Proof.
  intros [_ A] d. induction (A d) as [d _ IH]. intros H. inversion H as [? ? M|? q ? M L]; subst.
  - apply (IH d M). auto.
  - apply (IH q M). eapply leads_trans; [exact L|]. apply L_one. exact M.
Qed.

(** Weights *)
Fixpoint sum (l : list nat) : nat := match l with [] => 0 | x :: l => x + sum l end.
Inductive weight (g : types_) : nat -> nat -> Prop :=
| Weight x ns : Forall2 (weight g) (succ g x) ns -> weight g x (S (sum ns)).
Lemma weight_ex g : good g -> forall x, exists n, weight g x n.
Proof.
  intros [ND A] x. induction (A x) as [x _ IH].
  assert (F : forall l, (forall y, In y l -> In y (succ g x)) -> exists ns, Forall2 (weight g) l ns).
  { induction l as [|y l IHl]; intros I; [exists []; constructor|]. destruct IHl as (ns & F); [intros; apply I; cbn; auto|].
    destruct (IH y) as (n & W); [apply mentions_succ; [auto|]; apply I; cbn; auto|]. exists (n :: ns). constructor; auto. }
  destruct (F (succ g x)) as (ns & W); auto. exists (S (sum ns)). constructor. auto.
Qed.
Lemma sum_app a b : sum (a ++ b) = sum a + sum b.
Proof. induction a; cbn; lia. Qed.
Definition weighs (g : types_) (p : pending) (n : nat) : Prop := exists ns, Forall2 (weight g) p ns /\ sum ns <= n.
Lemma weigh_insert g x p n k : weighs g p n -> weight g x k -> weighs g (insert x p) (n + k).
Proof.
  intros (ns & F & L) W. unfold insert. destruct (existsb _ _); [exists ns; split; auto; lia|]. exists (k :: ns). split; [constructor; auto|]. cbn. lia.
Qed.
Lemma weigh_names g prev : forall names (s : pending * edges) n ks, weighs g (fst s) n -> Forall2 (weight g) names ks -> weighs g (fst (fold_left (add_name prev) names s)) (n + sum ks).
Proof.
  induction names as [|x names IH]; intros s n ks W F; inversion F as [|? k ? ks' W1 F1]; subst; cbn.
  - destruct W as (ns & A & B). exists ns. split; auto. lia.
  - replace (n + (k + sum ks')) with ((n + k) + sum ks') by lia. apply IH; auto. cbn. apply weigh_insert; auto.
Qed.
Lemma weight_det g : forall x a, weight g x a -> forall b, weight g x b -> a = b.
Proof.
  fix IH 3. intros x a H b K. destruct H as [x ns F]. inversion K as [? ms G]; subst. f_equal. f_equal. clear K.
  revert ms G. induction F as [|y n l ns W F IHF]; intros ms G; inversion G; subst; [reflexivity|]. f_equal; [eapply IH; eauto|apply IHF; assumption].
Qed.
Lemma weigh_drop g x p ns : Forall2 (weight g) p ns -> exists m, weighs g (remove Nat.eq_dec x p) m /\ m <= sum ns.
Proof.
  intros F. induction F as [|y a p ns WY F IH]. { exists 0. split; [exists []; split; [constructor|auto]|auto]. } destruct IH as (m & (ms & A & B) & C). cbn.
  destruct (Nat.eq_dec x y); [exists m; split; [exists ms; auto|lia]|]. exists (a + m). split; [exists (a :: ms); split; [constructor; auto|cbn; lia]|lia].
Qed.
Lemma weigh_remove g x p : forall n k, weighs g p n -> weight g x k -> In x p -> exists m, weighs g (remove Nat.eq_dec x p) m /\ m + k <= n.
Proof.
  intros n k (ns & F & L) W. revert n L. induction F as [|y a p ns WY F IH]; intros n L I; [destruct I|]. cbn in L.
  assert (DROP : exists m, weighs g (remove Nat.eq_dec x p) m /\ m <= sum ns) by (apply weigh_drop; assumption).
  cbn. destruct (Nat.eq_dec x y) as [->|N].
  - rewrite (weight_det _ _ _ W _ WY). destruct DROP as (m & A & B). exists m. split; auto. lia.
  - destruct I as [I|I]; [congruence|]. destruct (IH (sum ns) (le_n _) I) as (m & (ms & A & B) & C). exists (a + m). split; [exists (a :: ms); split; [constructor; auto|cbn; lia]|lia].
Qed.

Lemma pick_in i (p : pending) : p <> [] -> In (pick i p) p.
Proof. intros N. unfold pick. apply nth_In. apply Nat.mod_upper_bound. destruct p; cbn; congruence. Qed.
Lemma in_insert y x p : In y (insert x p) <-> y = x \/ In y p.
Proof.
  unfold insert. destruct (existsb (Nat.eqb x) p) eqn:E; cbn; [|intuition].
  apply existsb_exists in E as (z & I & Z). apply Nat.eqb_eq in Z. subst z. split; auto. intros [->|H]; auto.
Qed.
Lemma in_added prev y : forall names (s : pending * edges), In y (fst (fold_left (add_name prev) names s)) <-> In y names \/ In y (fst s).
Proof.
  induction names as [|x names IH]; intros s; cbn; [intuition|]. rewrite IH. cbn. rewrite in_insert. intuition.
Qed.
Definition expand (g : types_) (x : nat) (s : pending * edges) : pending * edges :=
  let s := (remove Nat.eq_dec x (fst s), snd s) in match body_of g x with Some l => add_specs x l s | None => s end.
Lemma expand_names g x s : expand g x s = fold_left (add_name x) (succ g x) (remove Nat.eq_dec x (fst s), snd s).
Proof. unfold expand, succ, add_specs. destruct (body_of g x); reflexivity. Qed.
Lemma search_step fuel order g d (s : pending * edges) : fst s <> [] -> search (S fuel) order g d s =
  let x := pick (order fuel (fst s)) (fst s) in if x =? d then Some (Cycle (snd s)) else search fuel order g d (expand g x s).
Proof. intros N. destruct s as [[|a p] e]; [destruct N; reflexivity|reflexivity]. Qed.
Lemma expand_weight g x (s : pending * edges) n k : weighs g (fst s) n -> weight g x k -> In x (fst s) -> exists m, weighs g (fst (expand g x s)) m /\ m < n.
Proof.
  intros W K I. rewrite expand_names. inversion K as [? ns F]; subst. destruct (weigh_remove _ _ _ _ _ W K I) as (m & A & B).
  exists (m + sum ns). split; [|lia]. apply weigh_names; auto.
Qed.

(** The search ends. *)
Lemma search_ends order g d : good g -> forall n fuel (s : pending * edges), weighs g (fst s) n -> n < fuel -> search fuel order g d s <> None.
Proof.
  intros G. induction n as [n IH] using lt_wf_ind. intros fuel s W L. destruct fuel as [|fuel]; [lia|].
  destruct (fst s) as [|a p] eqn:E; [cbn [search]; rewrite E; discriminate|]. rewrite search_step by (rewrite E; discriminate). cbv zeta.
  assert (I : In (pick (order fuel (fst s)) (fst s)) (fst s)) by (apply pick_in; rewrite E; discriminate).
  destruct (_ =? _); [discriminate|]. destruct (weight_ex g G (pick (order fuel (fst s)) (fst s))) as (k & K). rewrite <- E in W.
  destruct (expand_weight _ _ _ _ _ W K I) as (m & WM & LM). apply (IH m LM); auto. lia.
Qed.

(** What it finds *)
Inductive reach (g : types_) (d : nat) : nat -> Prop :=
| R_here : reach g d d
| R_step x y : In y (succ g x) -> reach g d y -> reach g d x.
Lemma search_accepted order g d : forall fuel (s : pending * edges), search fuel order g d s = Some Accepted -> forall x, In x (fst s) -> ~ reach g d x.
Proof.
  induction fuel as [|fuel IH]; intros s H x I R; [discriminate|]. destruct (fst s) as [|a p] eqn:E; [destruct I|]. rewrite <- E in I.
  rewrite search_step in H by (rewrite E; discriminate). cbv zeta in H. set (y := pick _ _) in *. destruct (Nat.eqb_spec y d); [discriminate|].
  specialize (IH _ H). rewrite expand_names in IH.
  destruct (Nat.eq_dec x y) as [->|N].
  - inversion R as [|? z J R']; subst; [congruence|]. apply (IH z); auto. apply in_added. auto.
  - apply (IH x); auto. apply in_added. right. cbn. apply in_in_remove; auto.
Qed.

(** The notes of the error *)
Definition traced (g : types_) (d : nat) (s : pending * edges) : Prop :=
  (forall x p, edge (snd s) x = Some p -> mentions g p x /\ (p = d \/ edge (snd s) p <> None))
  /\ (forall x, In x (fst s) -> edge (snd s) x <> None).
Lemma edge_cons x p e y : edge ((x, p) :: e) y = if x =? y then Some p else edge e y.
Proof. unfold edge. cbn. destruct (x =? y); reflexivity. Qed.
Lemma traced_add g d prev x s : traced g d s -> mentions g prev x -> prev = d \/ edge (snd s) prev <> None -> traced g d (add_name prev s x).
Proof.
  intros [A B] M P. unfold add_name.
  assert (MONO : forall y, edge (snd s) y <> None -> edge ((x, prev) :: snd s) y <> None) by (intros y H; rewrite edge_cons; destruct (x =? y); [discriminate|exact H]).
  split; cbn [fst snd].
  - intros y p E. rewrite edge_cons in E. destruct (Nat.eqb_spec x y) as [->|N].
    + apply Some_inj in E. subst p. split; [exact M|]. destruct P; auto.
    + destruct (A y p E) as [H1 H2]. split; [exact H1|]. destruct H2; auto.
  - intros y I. apply in_insert in I as [->|I]; [rewrite edge_cons, Nat.eqb_refl; discriminate|auto].
Qed.
Lemma traced_names g d prev : forall names s, traced g d s -> (forall x, In x names -> mentions g prev x) -> prev = d \/ edge (snd s) prev <> None ->
  traced g d (fold_left (add_name prev) names s).
Proof.
  induction names as [|x names IH]; intros s T M P; [exact T|]. cbn. apply IH.
  - apply traced_add; auto. apply M. cbn. auto.
  - intros y I. apply M. cbn. auto.
  - destruct P as [P|P]; auto. right. unfold add_name. cbn [snd]. rewrite edge_cons. destruct (x =? prev); [discriminate|exact P].
Qed.
Lemma traced_expand g l d x s : NoDup (map fst g) -> traced ((d, l) :: g) d s -> In x (fst s) -> traced ((d, l) :: g) d (expand g x s).
Proof.
  intros ND T I. rewrite expand_names. apply traced_names.
  - destruct T as [A B]. split; cbn [fst snd]; auto. intros y J. apply in_remove in J as [J _]. auto.
  - intros y J. apply mentions_succ in J as (m & q & J1 & J2 & J3); auto. exists m, q. cbn. auto.
  - right. apply T. exact I.
Qed.
Lemma search_cycle order g l d : NoDup (map fst g) -> forall fuel (s : pending * edges) e, traced ((d, l) :: g) d s -> search fuel order g d s = Some (Cycle e) ->
  exists p, In d p /\ traced ((d, l) :: g) d (p, e).
Proof.
  intros ND. induction fuel as [|fuel IH]; intros s e T H; [discriminate|]. destruct (fst s) as [|a p] eqn:E.
  - cbn [search] in H. rewrite E in H. discriminate.
  - rewrite search_step in H by (rewrite E; discriminate). cbv zeta in H.
    assert (I : In (pick (order fuel (fst s)) (fst s)) (fst s)) by (apply pick_in; rewrite E; discriminate).
    destruct (Nat.eqb_spec (pick (order fuel (fst s)) (fst s)) d) as [D|N].
    + rewrite D in I. exists (fst s). split; [exact I|]. assert (X : snd s = e) by congruence. rewrite <- X, <- surjective_pairing. exact T.
    + apply (IH _ _ (traced_expand _ _ _ _ _ ND T I) H).
Qed.
Lemma last_cons_ne {A} (y : A) c x z : c <> [] -> last (y :: c) x = last c z.
Proof. revert y. induction c as [|a c IH]; intros y N; [destruct N; reflexivity|]. destruct c as [|b c]; [reflexivity|]. change (last (a :: b :: c) x = last (b :: c) z). apply IH. discriminate. Qed.
Lemma trail_true g d e : (forall x p, edge e x = Some p -> mentions g p x) -> forall fuel x c, trail fuel e d x = Some c -> chain g x c /\ last c x = d /\ c <> [].
Proof.
  intros M. induction fuel as [|fuel IH]; intros x c H; [discriminate|]. cbn in H. destruct (edge e x) as [y|] eqn:E; [|discriminate].
  destruct (Nat.eqb_spec y d) as [->|N].
  - apply Some_inj in H. subst c. cbn. repeat split; auto. discriminate.
  - destruct (trail fuel e d y) as [c'|] eqn:T; [|discriminate]. apply Some_inj in H. subst c. destruct (IH _ _ T) as (A & B & C). cbn [chain]. repeat split; auto; [|discriminate].
    rewrite (last_cons_ne y c' x y C). exact B.
Qed.

Lemma mentions_other g d l p x : p <> d -> mentions ((d, l) :: g) p x -> mentions g p x.
Proof. intros N (m & q & [I|I] & J & O); [inversion I; congruence|]. exists m, q. auto. Qed.
Lemma mentions_more g d l p x : mentions g p x -> mentions ((d, l) :: g) p x.
Proof. intros (m & q & I & J & O). exists m, q. cbn. auto. Qed.
Lemma mentions_key g p x : mentions g p x -> In p (map fst g).
Proof. intros (m & q & I & J & O). apply (in_map fst) in I. exact I. Qed.
Lemma trail_ends g l d e : good g -> (forall x p, edge e x = Some p -> mentions ((d, l) :: g) p x /\ (p = d \/ edge e p <> None)) ->
  forall fuel seen x, edge e x <> None -> NoDup seen -> incl seen (map fst g) -> (forall y, In y seen -> x = y \/ leads g x y) -> ~ In d seen ->
  (x = d \/ In x seen) -> length g < fuel + length seen -> trail fuel e d x <> None.
Proof.
  intros G M. induction fuel as [|fuel IH]; intros seen x EX ND IN LE NS X L.
  - exfalso. pose proof (NoDup_incl_length ND IN) as K. rewrite map_length in K. cbn in L. lia.
  - cbn. destruct (edge e x) as [y|] eqn:E; [|congruence]. destruct (M _ _ E) as [MY PY]. destruct (Nat.eqb_spec y d) as [->|N]; [discriminate|].
    apply mentions_other in MY; auto. destruct PY as [PY|PY]; [congruence|].
    assert (NI : ~ In y seen).
    { intros I. destruct (LE y I) as [->|K]; [apply (good_acyclic g G y); apply L_one; exact MY|].
      apply (good_acyclic g G y). eapply L_more; eauto. }
    assert (H : trail fuel e d y <> None).
    { apply (IH (y :: seen)); auto.
      - constructor; auto.
      - intros z [<-|I]; [eapply mentions_key; exact MY|auto].
      - intros z [<-|I]; auto. right. destruct (LE z I) as [->|K]; [apply L_one; exact MY | eapply L_more; eauto].
      - intros [I|I]; auto.
      - right. cbn. auto.
      - cbn [length]. lia. }
    destruct (trail fuel e d y); [discriminate|congruence].
Qed.

Lemma start_traced g d l : traced ((d, l) :: g) d (add_specs d l ([], [])).
Proof.
  unfold add_specs. apply traced_names; auto.
  - split; [discriminate|intros x []].
  - intros x I. apply in_all_names in I as (s & I & O). exists l, s. cbn. auto.
Qed.
Lemma start_pending d l x : In x (fst (add_specs d l ([], []))) <-> In x (flat_map spec_names l).
Proof. unfold add_specs. rewrite in_added. cbn. intuition. Qed.
Lemma good_add g d l : good g -> ~ In d (map fst g) -> (forall x, In x (flat_map spec_names l) -> ~ reach g d x) -> good ((d, l) :: g).
Proof.
  intros [ND A] NI H. assert (ND' : NoDup (map fst ((d, l) :: g))) by (constructor; auto). split; [exact ND'|].
  assert (OUT : forall x, ~ reach g d x -> Acc (down ((d, l) :: g)) x).
  { intros x. induction (A x) as [x _ IH]. intros R. constructor. intros y M. assert (x <> d) by (intros ->; apply R; constructor).
    apply mentions_other in M; auto. apply IH; auto. intros K. apply R. eapply R_step; [|exact K]. apply mentions_succ; auto. }
  assert (D : Acc (down ((d, l) :: g)) d).
  { constructor. intros y M. apply OUT. apply H. unfold down in M. apply mentions_succ in M; auto. unfold succ, body_of in M. cbn in M. rewrite Nat.eqb_refl in M. exact M. }
  intros x. induction (A x) as [x _ IH]. destruct (Nat.eq_dec x d) as [->|N]; [exact D|]. constructor. intros y M. apply IH. eapply mentions_other; eauto.
Qed.
Lemma declare_good fuel order g d l g' : good g -> ~ In d (map fst g) -> declare fuel order g d l = Added g' -> g' = (d, l) :: g /\ good g'.
Proof.
  intros G NI H. unfold declare in H. destruct (search _ _ _ _ _) as [[|e]|] eqn:E; [|destruct (trail _ _ _ _); discriminate|discriminate].
  inversion H; subst. split; auto. apply good_add; auto. intros x I. apply (search_accepted _ _ _ _ _ E). apply start_pending. exact I.
Qed.
Lemma declare_cycle fuel order g d l c : good g -> declare fuel order g d l = Refused c -> chain ((d, l) :: g) d c /\ last c d = d /\ c <> [].
Proof.
  intros [ND A] H. unfold declare in H. destruct (search _ _ _ _ _) as [[|e]|] eqn:E; [discriminate| |discriminate].
  destruct (trail _ _ _ _) as [c'|] eqn:T; [|discriminate]. inversion H; subst c'.
  destruct (search_cycle _ _ l _ ND _ _ _ (start_traced g d l) E) as (p & I & TR & _). eapply trail_true; [|exact T]. intros x q K. apply TR. exact K.
Qed.
Lemma declare_ends g d l : good g -> exists N, forall fuel order, N <= fuel -> declare fuel order g d l <> Stuck.
Proof.
  intros G. assert (W : exists n, weighs g (fst (add_specs d l ([], []))) n).
  { generalize (fst (add_specs d l ([], []))). intros p. induction p as [|x p IH]; [exists 0, []; split; [constructor|auto]|].
    destruct IH as (n & ns & F & L). destruct (weight_ex g G x) as (k & K). exists (k + n), (k :: ns). split; [constructor; auto|cbn; lia]. }
  destruct W as (n & W). exists (S n + S (length g)). intros fuel order L. unfold declare.
  pose proof (search_ends order g d G n fuel _ W ltac:(lia)) as S1. destruct (search _ _ _ _ _) as [[|e]|] eqn:E; [discriminate| |congruence].
  destruct (search_cycle _ _ l _ (proj1 G) _ _ _ (start_traced g d l) E) as (p & I & TR & PE).
  assert (T : trail fuel e d d <> None).
  { apply (trail_ends g l d e G TR fuel []); auto; [constructor|intros x []|intros x []|cbn; lia]. }
  destruct (trail fuel e d d); [discriminate|congruence].
Qed.
Lemma chain_leads g : forall c x d, chain g x c -> last c x = d -> c <> [] -> leads g d x.
Proof.
  induction c as [|y c IH]; intros x d C L N; [congruence|]. destruct C as [M C]. destruct c as [|z c].
  - cbn in L. subst. apply L_one. exact M.
  - rewrite (last_cons_ne y (z :: c) x y) in L by discriminate. eapply leads_trans; [apply (IH y d C L); discriminate|]. apply L_one. exact M.
Qed.
Lemma leads_incl g h : incl g h -> forall a b, leads g a b -> leads h a b.
Proof.
  intros I a b L. assert (M : forall p x, mentions g p x -> mentions h p x) by (intros p x (m & q & J & K); exists m, q; auto).
  induction L; [apply L_one; auto | eapply L_more; eauto].
Qed.

Lemma NoDup_cons_app_swap {A} (d : A) l g : ~ In d (l ++ g) -> NoDup (l ++ g) -> NoDup (l ++ d :: g).
Proof. intros N H. apply (Permutation_NoDup (Permutation_middle l g d)). constructor; auto. Qed.
Lemma declare_all_good fuel order : forall ds g r, good g -> NoDup (map fst ds ++ map fst g) -> declare_all fuel order ds g = Some r -> good r /\ incl g r /\ incl r (ds ++ g).
Proof.
  induction ds as [|[d l] ds IH]; intros g r G ND H; cbn in H; [inversion H; subst; split; [exact G|]; split; apply incl_refl|].
  cbn in ND. inversion ND as [|? ? NI ND']; subst. destruct (declare fuel order g d l) as [g'|c|] eqn:E; [| |discriminate].
  - destruct (declare_good _ _ _ _ _ _ G (fun I => NI (in_or_app _ _ _ (or_intror I))) E) as [-> G']. apply IH in H; auto.
    + destruct H as (A & B & C). split; [exact A|]. split; [intros x I; apply B; cbn; auto|]. intros x I. apply C in I. apply in_app_or in I as [I|[I|I]]; [cbn; right; apply in_or_app; auto|left; auto|right; apply in_or_app; auto].
    + cbn. apply NoDup_cons_app_swap; auto.
  - apply IH in H; auto. destruct H as (A & B & C). split; [exact A|]. split; [exact B|]. intros x I. right. apply C. exact I.
Qed.

(** A program is accepted exactly when none of its declarations leads to itself. *)
Lemma declare_all_rev fuel order : forall ds g, good g -> NoDup (map fst ds ++ map fst g) -> (forall d, ~ leads (ds ++ g) d d) ->
  declare_all fuel order ds g <> None -> declare_all fuel order ds g = Some (rev ds ++ g).
Proof.
  induction ds as [|[d l] ds IH]; intros g G ND NL H; [reflexivity|]. cbn in ND. inversion ND as [|? ? NI ND']; subst.
  cbn in H. cbn [declare_all rev]. destruct (declare fuel order g d l) as [g'|c|] eqn:E; [| |congruence].
  - destruct (declare_good _ _ _ _ _ _ G (fun I => NI (in_or_app _ _ _ (or_intror I))) E) as [-> G']. rewrite IH; auto.
    + rewrite <- app_assoc. reflexivity.
    + cbn. apply NoDup_cons_app_swap; auto.
    + intros x L. apply (NL x). eapply leads_incl; [|exact L]. intros y I. apply in_app_or in I as [I|[I|I]]; [right; apply in_or_app; auto|left; auto|right; apply in_or_app; auto].
  - exfalso. destruct (declare_cycle _ _ _ _ _ _ G E) as (A & B & C). apply (NL d). eapply leads_incl; [|exact (chain_leads _ _ _ _ A B C)].
    intros y [I|I]; [left; auto|right; apply in_or_app; auto].
Qed.
Lemma declare_all_ends : forall ds g, good g -> NoDup (map fst ds ++ map fst g) -> exists N, forall fuel order, N <= fuel -> declare_all fuel order ds g <> None.
Proof.
  induction ds as [|[d l] ds IH]; intros g G ND; [exists 0; discriminate|]. cbn in ND. inversion ND as [|? ? NI ND']; subst.
  assert (NIg : ~ In d (map fst g)) by (intros I; apply NI; apply in_or_app; auto).
  destruct (declare_ends g d l G) as (N0 & H0). destruct (IH g G ND') as (N1 & H1).
  (* if it can be added at all, that is with a good result *)
  assert (X : exists N2, forall fuel order g', N2 <= fuel -> declare fuel order g d l = Added g' -> declare_all fuel order ds g' <> None).
  { destruct (declare N0 (fun _ _ => 0) g d l) as [g'|c|] eqn:E; [| |destruct (H0 N0 (fun _ _ => 0) (le_n _) E)].
    - destruct (declare_good _ _ _ _ _ _ G NIg E) as [-> G']. destruct (IH _ G') as (N2 & H2); [cbn; apply NoDup_cons_app_swap; auto|].
      exists N2. intros fuel order g' L K. destruct (declare_good _ _ _ _ _ _ G NIg K) as [-> _]. apply H2. exact L.
    - exists 0. intros fuel order g' L K. exfalso. destruct (declare_good _ _ _ _ _ _ G NIg K) as [-> G'].
      destruct (declare_cycle _ _ _ _ _ _ G E) as (A & B & C). apply (good_acyclic _ G' d). exact (chain_leads _ _ _ _ A B C). }
  destruct X as (N2 & H2). exists (N0 + N1 + N2). intros fuel order L. cbn. destruct (declare fuel order g d l) as [g'|c|] eqn:E.
  - apply (H2 fuel order g'); auto. lia.
  - apply H1. lia.
  - intros _. refine (H0 fuel order _ E). lia.
Qed.

(** Spelling types out ends. *)
Section Spelled.
Variable g : types_.
Variable decls : nat -> option (nat * decl).
Hypothesis G : good g.
Hypothesis LI : listed g decls.
Definition steady (s : tspec) : Prop := exists N, forall a b ps, N <= a -> N <= b -> spec_conc decls a ps s = spec_conc decls b ps s.
Definition steady_decl (d : nat) : Prop := exists N, forall a b ps, N <= a -> N <= b -> decl_conc decls (spec_conc decls a) d ps = decl_conc decls (spec_conc decls b) d ps.
Lemma all_same {A B} (f h : A -> option B) l : Forall (fun x => f x = h x) l -> all f l = all h l.
Proof. induction 1 as [|x l E F IH]; [reflexivity|]. change (match f x, all f l with Some b, Some q => Some (b :: q) | _, _ => None end = match h x, all h l with Some b, Some q => Some (b :: q) | _, _ => None end). rewrite E, IH. reflexivity. Qed.
Lemma steady_list l : Forall steady l -> exists N, forall a b ps, N <= a -> N <= b -> Forall (fun s => spec_conc decls a ps s = spec_conc decls b ps s) l.
Proof.
  induction 1 as [|s l (N1 & H1) F (N2 & H2)]; [exists 0; constructor|]. exists (N1 + N2). intros a b ps A B. constructor; [apply H1; lia|apply H2; lia].
Qed.
Lemma steady_spec : forall s, (forall x, occurs x s -> steady_decl x) -> steady s.
Proof.
  induction s as [z|v|y|e|n l IH|k|l IH|a b IHa IHb|a IHa|a IHa|] using tspec_ind'; intros H;
    try (exists 1; intros [|a'] [|b'] ps A B; try lia; reflexivity).
  - destruct (H n (O_here _ _)) as (N1 & H1). destruct (steady_list l) as (N2 & H2).
    { rewrite Forall_forall in *. intros s I. apply IH; auto. intros x O. apply H. eapply O_named; eauto. }
    exists (S (N1 + N2)). intros [|a] [|b] ps A B; try lia. cbn [spec_conc].
    rewrite (all_same (spec_conc decls a ps) (spec_conc decls b ps) l) by (apply H2; lia). destruct (all _ l); [|reflexivity]. rewrite (H1 a b) by lia. reflexivity.
  - destruct (steady_list l) as (N2 & H2).
    { rewrite Forall_forall in *. intros s I. apply IH; auto. intros x O. apply H. eapply O_tuple; eauto. }
    exists (S N2). intros [|a] [|b] ps A B; try lia. cbn [spec_conc]. f_equal. apply all_same. eapply Forall_impl; [|apply (H2 a b ps); lia]. intros s E. cbn in E. rewrite E. reflexivity.
  - destruct IHa as (N1 & H1); [intros; apply H; apply O_element; auto|]. destruct IHb as (N2 & H2); [intros; apply H; apply O_size; auto|].
    exists (S (N1 + N2)). intros [|a'] [|b'] ps A B; try lia. cbn [spec_conc]. rewrite (H1 a' b'), (H2 a' b') by lia. reflexivity.
Qed.
Lemma steady_all d : steady_decl d.
Proof.
  induction (proj2 G d) as [d _ IH]. unfold steady_decl, decl_conc. destruct (decls d) as [[k b]|] eqn:D; [|exists 0; auto].
  assert (ST : Forall steady (parts b)).
  { apply Forall_forall. intros s I. apply steady_spec. intros x O. apply IH. exists (parts b), s. split; [apply (LI _ _ _ D)|auto]. }
  destruct (steady_list _ ST) as (N & H). exists N. intros a a' ps A B. specialize (H a a' ps A B). destruct (length ps =? k); [|reflexivity].
  destruct b as [p|l|l]; [reflexivity| |]; cbn [parts] in H; f_equal; apply all_same.
  - rewrite Forall_map in H. eapply Forall_impl; [|exact H]. intros m E. cbn in E. rewrite E. reflexivity.
  - apply Forall_forall. intros o I. apply all_same. apply Forall_forall. intros s J. rewrite Forall_forall in H. rewrite H; auto. apply in_concat. eauto.
Qed.
Definition steady_ty (t : ty) : Prop := exists N, forall a b, N <= a -> N <= b -> conc_of decls a t = conc_of decls b t.
Lemma steady_tys l : Forall steady_ty l -> exists N, forall a b, N <= a -> N <= b -> Forall (fun s => conc_of decls a s = conc_of decls b s) l.
Proof.
  induction 1 as [|s l (N1 & H1) F (N2 & H2)]; [exists 0; constructor|]. exists (N1 + N2). intros a b A B. constructor; [apply H1; lia|apply H2; lia].
Qed.
Lemma steady_types : forall t, steady_ty t.
Proof.
  fix IH 1. intros t. destruct t as [k l|v m].
  all: try (exists 1; intros [|a] [|b] A B; try lia; reflexivity).
  assert (F : Forall steady_ty l) by (clear - IH; induction l as [|t l IHl]; constructor; [apply IH|exact IHl]).
  destruct (steady_tys l F) as (N1 & H1). clear IH F. destruct k as [d|z|v|s| | | | |]; try (exists 1; intros [|a] [|b] A B; try lia; reflexivity).
  - destruct (steady_all d) as (N2 & H2). exists (S (N1 + N2)). intros [|a] [|b] A B; try lia. cbn [conc_of].
    rewrite (all_same (conc_of decls a) (conc_of decls b) l) by (apply H1; lia). destruct (all _ l); [|reflexivity]. rewrite (H2 a b) by lia. reflexivity.
  - exists (S N1). intros [|a] [|b] A B; try lia. cbn [conc_of]. f_equal. apply all_same. eapply Forall_impl; [|apply (H1 a b); lia]. intros s E. cbn in E. rewrite E. reflexivity.
  - exists (S N1). intros [|a] [|b] A B; try lia. specialize (H1 a b ltac:(lia) ltac:(lia)). destruct l as [|x [|y [|]]]; try reflexivity. cbn [conc_of].
    inversion H1 as [|? ? E1 H2]; subst. inversion H2 as [|? ? E2 H3]; subst. rewrite E1, E2. reflexivity.
Qed.
End Spelled.
Lemma accepted_good g : accepted g -> good g.
Proof. intros (fuel & order & ds & ND & H). apply (declare_all_good fuel order ds [] g good_nil) in H; [apply H|]. cbn. rewrite app_nil_r. exact ND. Qed.
Lemma spelled_types g decls : good g -> listed g decls -> forall t, spelled_out decls t.
Proof. intros G L t. destruct (steady_types g decls G L t) as (N & H). exists N. intros fuel K. apply H; auto. Qed.

(** A type that leads to itself is never spelled out. *)
Section Endless.
Variable g : types_.
Variable decls : nat -> option (nat * decl).
Hypothesis ND : NoDup (map fst g).
Hypothesis LI : listed g decls.
Definition made (f : nat) (x : nat) : Prop := exists ps t, decl_conc decls (spec_conc decls f) x ps = Some t.
Lemma all_some {A B} (f : A -> option B) : forall l r, all f l = Some r -> forall x, In x l -> exists y, f x = Some y.
Proof.
  induction l as [|a l IH]; intros r H x I; [destruct I|]. change (match f a, all f l with Some b, Some q => Some (b :: q) | _, _ => None end = Some r) in H.
  destruct (f a) eqn:E; [|discriminate]. destruct (all f l) eqn:F; [|discriminate]. destruct I as [->|I]; eauto.
Qed.
Lemma as_type_some c t : as_type c = Some t -> exists k, c = Some k.
Proof. destruct c; [eauto|discriminate]. Qed.
Lemma as_size_some c t : as_size c = Some t -> exists k, c = Some k.
Proof. destruct c; [eauto|discriminate]. Qed.
Lemma spec_made x s : occurs x s -> forall f ps c, spec_conc decls f ps s = Some c -> exists f', f' < f /\ made f' x.
Proof.
  induction 1 as [l|n l s I O IH|l s I O IH|a b O IH|a b O IH|a O IH|a O IH]; intros [|f] ps c H; try discriminate; cbn [spec_conc] in H.
  - destruct (all _ l) as [qs|]; [|discriminate]. destruct (decl_conc _ _ x qs) eqn:D; [|discriminate]. exists f. split; [lia|]. exists qs, c0. exact D.
  - destruct (all _ l) as [qs|] eqn:A; [|discriminate]. destruct (all_some _ _ _ A s I) as (y & E). destruct (IH _ _ _ E) as (f' & L & M). exists f'. split; auto.
  - destruct (all _ l) as [qs|] eqn:A; [|discriminate]. destruct (all_some _ _ _ A s I) as (y & E). apply as_type_some in E as (k & E). destruct (IH _ _ _ E) as (f' & L & M). exists f'. split; auto.
  - destruct (as_type _) eqn:A; [|discriminate]. apply as_type_some in A as (k & E). destruct (IH _ _ _ E) as (f' & L & M). exists f'. split; auto.
  - destruct (as_type _); [|discriminate]. destruct (as_size _) eqn:A; [|discriminate]. apply as_size_some in A as (k & E). destruct (IH _ _ _ E) as (f' & L & M). exists f'. split; auto.
Qed.
Lemma mentions_made p x : mentions g p x -> forall f, made f p -> exists f', f' < f /\ made f' x.
Proof.
  intros (l & s & I & J & O) f (ps & t & D). unfold decl_conc in D. destruct (decls p) as [[k b]|] eqn:E; [|discriminate]. pose proof (LI _ _ _ E) as K.
  apply body_in in I; auto. apply body_in in K; auto. assert (l = parts b) by congruence. subst l. destruct (_ =? _); [|discriminate].
  destruct b as [q|ms|os]; cbn [parts] in J; [destruct J| |].
  - apply in_map_iff in J as (m & <- & J). destruct (all _ ms) eqn:A; [|discriminate]. destruct (all_some _ _ _ A m J) as (y & Y). cbn in Y. apply as_type_some in Y as (c & Y). eapply spec_made; eauto.
  - apply in_concat in J as (o & J1 & J2). destruct (all _ os) eqn:A; [|discriminate]. destruct (all_some _ _ _ A o J1) as (y & Y). destruct (all_some _ _ _ Y s J2) as (z & Z). apply as_type_some in Z as (c & Z). eapply spec_made; eauto.
Qed.
Lemma leads_made p x : leads g p x -> forall f, made f p -> exists f', f' < f /\ made f' x.
Proof.
  induction 1 as [p x M|p q x M L IH]; intros f H; [eapply mentions_made; eauto|]. destruct (mentions_made _ _ M _ H) as (f1 & L1 & H1). destruct (IH _ H1) as (f2 & L2 & H2). exists f2. split; [lia|exact H2].
Qed.
Lemma never_made d : leads g d d -> forall f, ~ made f d.
Proof. intros L f. induction f as [f IH] using lt_wf_ind. intros M. destruct (leads_made _ _ L _ M) as (f' & K & M'). exact (IH f' K M'). Qed.
Lemma never_spelled d : leads g d d -> forall fuel l, conc_of decls fuel (TK (BNamed d) l) = None.
Proof.
  intros L [|fuel] l; [reflexivity|]. cbn [conc_of]. destruct (all _ l) as [qs|]; [|reflexivity]. destruct (decl_conc _ _ d qs) eqn:D; [|reflexivity].
  destruct (never_made d L fuel). exists qs, c. exact D.
Qed.
End Endless.
