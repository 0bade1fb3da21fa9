(** Proofs about the traits the compiler implements by itself (C62). *)
From Coq Require Import List Arith ZArith Bool Lia.
From Verif Require Import InferModel InferSpec InferState TypingModel DeclModel DeclSpec ElabProofs DeclProofs AutoModel AutoSpec.
Import ListNotations.

Lemma first_clean {A} (f : A -> found) l : first f l = Clean <-> Forall (fun x => f x = Clean) l.
Proof.
  induction l as [|a l IH]; cbn; [split; auto|]. destruct (f a) eqn:E; split; intros H; try discriminate.
  - constructor; [exact E | now apply IH].
  - inversion H; subst. now apply IH.
  - inversion H; congruence.
  - inversion H; congruence.
Qed.
Lemma first_found {A} (f : A -> found) w l : first f l = Found w -> exists x, In x l /\ f x = Found w.
Proof.
  induction l as [|a l IH]; cbn; [discriminate|]. destruct (f a) eqn:E; intros H; try discriminate.
  - destruct (IH H) as (x & I & F). eauto.
  - exists a. split; [auto | congruence].
Qed.

Lemma prim_excluded tr p : prim_fails tr p = true <-> excluded tr p.
Proof. destruct tr, p; unfold excluded, not_data, not_copy; cbn; split; intros H; auto; try discriminate; intuition discriminate. Qed.

(** What is data can be copied *)
Lemma spec_data_copy (f h : nat -> found) : (forall d, f d = Clean -> h d = Clean) -> forall s, spec_wit f s = Clean -> spec_wit h s = Clean.
Proof.
  intros D. induction s as [z|b|y|e|n l IH|k|l IH|a b IHa IHb|a IHa|a IHa|] using tspec_ind'; cbn [spec_wit]; auto; try discriminate.
  - destruct (f n) eqn:E; try discriminate. rewrite (D n E), !first_clean. intros F. rewrite Forall_forall in *. auto.
  - rewrite !first_clean. intros F. rewrite Forall_forall in *. auto.
Qed.
Lemma decl_data_copy g : forall fuel d, decl_wit fuel Data g d = Clean -> decl_wit fuel Copy g d = Clean.
Proof.
  induction fuel as [|fuel IH]; intros d; cbn [decl_wit]; [discriminate|]. destruct (lookup_type g d) as [t|]; [|discriminate].
  destruct (kind t) as [p|l|vs|s]; auto.
  - destruct p; cbn; auto; discriminate.
  - rewrite !first_clean. intros F. rewrite Forall_forall in *. intros x I. apply (spec_data_copy _ _ IH). auto.
  - apply (spec_data_copy _ _ IH).
Qed.

(** Types found to be [tr] *)
Inductive ok (g : items) (tr : auto) : ty -> Prop :=
| ok_tuple l : Forall (ok g tr) l -> ok g tr (TK BTuple l)
| ok_array a n : ok g tr a -> ok g tr (TK BArray [a; n])
| ok_view l : ok g tr (TK BCopyView l)
| ok_const t : constant t -> ok g tr t
| ok_named d us fuel : decl_wit fuel tr g d = Clean -> Forall (ok g tr) us -> ok g tr (TK (BNamed d) us).

Scheme means_ind2 := Minimality for means Sort Prop with all_mean_ind2 := Minimality for all_mean Sort Prop.
Combined Scheme means_both from means_ind2, all_mean_ind2.
Lemma spec_ok g tr :
  (forall ts s u, means g ts s u -> Forall (ok g tr) ts -> forall fuel, spec_wit (decl_wit fuel tr g) s = Clean -> ok g tr u) /\
  (forall ts l us, all_mean g ts l us -> Forall (ok g tr) ts -> forall fuel, Forall (fun s => spec_wit (decl_wit fuel tr g) s = Clean) l -> Forall (ok g tr) us).
Proof.
  apply means_both; cbn [spec_wit].
  - intros ts k t E F fuel _. rewrite Forall_forall in F. apply F. eapply nth_error_In; eauto.
  - intros ts z _ _ _. apply ok_const. exists (BInt z). split; eauto.
  - intros ts z _ _ _. apply ok_const. exists (BBool z). split; eauto.
  - intros ts z _ _ _. apply ok_const. exists (BStr z). split; eauto.
  - intros ts e z _ _ _. apply ok_const. exists (BInt z). split; eauto.
  - intros ts l us _ IH F fuel C. apply ok_tuple. apply (IH F fuel). now apply first_clean.
  - intros ts a n u v _ IHa _ _ F fuel C. apply ok_array. eauto.
  - discriminate.
  - intros. apply ok_view.
  - intros ts d l us _ _ IH F fuel C. destruct (decl_wit fuel tr g d) eqn:E; try discriminate. eapply ok_named; [exact E|].
    apply (IH F fuel). now apply first_clean.
  - intros ts d l us s t (a & K) _ IHl _ IHs F fuel C. destruct (decl_wit fuel tr g d) eqn:E; try discriminate.
    destruct fuel as [|fuel]; [discriminate E|]. cbn [decl_wit] in E. rewrite K in E. cbn in E.
    apply (IHs) with (fuel := fuel); [|exact E]. apply (IHl F (S fuel)). now apply first_clean.
  - constructor.
  - intros ts s l u us _ IHs _ IHl F fuel C. inversion C; subst. constructor; eauto.
Qed.

Lemma lookup_in g d t : lookup_type g d = Some t -> In (d, t) g.
Proof.
  unfold lookup_type. destruct (List.find (fun e => fst e =? d) g) as [[k m]|] eqn:E; cbn; [|discriminate]. intros H. injection H as <-.
  apply find_some in E as [I E]. apply Nat.eqb_eq in E. cbn in E. now subst.
Qed.
Lemma in_lookup g d t : NoDup (map fst g) -> In (d, t) g -> lookup_type g d = Some t.
Proof.
  unfold lookup_type. induction g as [|[k m] g IH]; cbn; intros ND I; [destruct I|]. inversion ND as [|? ? NI ND']; subst.
  destruct (Nat.eqb_spec k d) as [->|N]; cbn.
  - destruct I as [I|I]; [congruence|]. destruct NI. apply (in_map fst) in I. exact I.
  - destruct I as [I|I]; [congruence | auto].
Qed.

Lemma payload_clean fuel g d vs v s : passes fuel g -> has_kind g d (BEnum vs) -> In v vs -> In s v -> spec_wit (decl_wit fuel Data g) s = Clean.
Proof.
  intros [ND E] (a & K) V S. apply lookup_in in K. unfold enum_errors in E.
  destruct (spec_wit (decl_wit fuel Data g) s) as [|w|] eqn:W; auto; exfalso.
  - assert (I : In (d, Found w) []); [|destruct I]. rewrite <- E. apply in_flat_map. eexists. split; [exact K|]. cbn.
    apply in_flat_map. exists s. split; [apply in_concat; eauto|]. rewrite W. cbn. auto.
  - assert (I : In (d, Stuck) []); [|destruct I]. rewrite <- E. apply in_flat_map. eexists. split; [exact K|]. cbn.
    apply in_flat_map. exists s. split; [apply in_concat; eauto|]. rewrite W. cbn. auto.
Qed.
Lemma part_ok fuel g tr t u : passes fuel g -> part g t u -> ok g tr t -> ok g tr u.
Proof.
  intros P Q O. destruct Q as [l u I|a n|d us l s u K I M|d us vs v s u K I J M].
  - inversion O as [? F| | |? (b & E & C)|]; subst; [rewrite Forall_forall in F; auto|]. injection E as <- ->. destruct I.
  - inversion O as [|? ? F| |? (b & E & C)|]; subst; auto. discriminate.
  - inversion O as [| | |? (b & E & C)|? ? f D F]; subst; [injection E as <- ->; destruct C as [[? C]|[[? C]|[? C]]]; discriminate|].
    destruct f as [|f]; [discriminate|]. destruct K as (a & K). cbn [decl_wit] in D. rewrite K in D. cbn in D. rewrite first_clean, Forall_forall in D.
    eapply (proj1 (spec_ok g tr)); eauto.
  - inversion O as [| | |? (b & E & C)|? ? f D F]; subst; [injection E as <- ->; destruct C as [[? C]|[[? C]|[? C]]]; discriminate|].
    pose proof (payload_clean fuel g d vs v s P K I J) as W. eapply (proj1 (spec_ok g tr)); [exact M | exact F | instantiate (1 := fuel)].
    destruct tr; [|exact W]. eapply spec_data_copy; [|exact W]. apply decl_data_copy.
Qed.
Lemma ok_free g tr t : ok g tr t -> ~ barred g tr t.
Proof.
  intros O B. destruct B as [l|d l p (a & K) X].
  - inversion O as [| | |? (b & E & C)|]; subst. injection E as <- ->. destruct C as [[? C]|[[? C]|[? C]]]; discriminate.
  - inversion O as [| | |? (b & E & C)|? ? f D F]; subst; [injection E as <- ->; destruct C as [[? C]|[[? C]|[? C]]]; discriminate|].
    destruct f as [|f]; [discriminate|]. cbn [decl_wit] in D. rewrite K in D. cbn in D. apply prim_excluded in X. rewrite X in D. discriminate.
Qed.
Lemma ok_pure fuel g tr t : passes fuel g -> ok g tr t -> pure g tr t.
Proof.
  intros P O u I. induction I as [t|t u v Q I IH]; [now apply ok_free|]. apply IH. eapply part_ok; eauto.
Qed.

(** Finding an impl *)
Definition want (m : meta) : bool := match m with MType => true | _ => false end.
Definition fits (is : list impl) (tr : auto) := fix go (bs : list bool) (l : list ty) {struct l} : bool :=
  match bs, l with
  | [], [] => true
  | b :: bs, t :: l => (negb b || implements is tr t) && go bs l
  | _, _ => false
  end.
Lemma implements_named is tr d l : implements is tr (TK (BNamed d) l) = existsb (fun i => let '(a, x, bs) := i in auto_eqb a tr && (x =? d) && fits is tr bs l) is.
Proof. reflexivity. Qed.
Lemma auto_eqb_eq a b : auto_eqb a b = true <-> a = b.
Proof. destruct a, b; cbn; split; congruence. Qed.
Lemma in_auto fuel g tr a d bs : In (a, d, bs) (impl_auto_trait fuel tr g) <->
  a = tr /\ exists t, In (d, t) g /\ decl_wit fuel tr g d = Clean /\ bs = map want (args t).
Proof.
  unfold impl_auto_trait. rewrite in_flat_map. split.
  - intros ([k t] & I & H). cbn in H. destruct (decl_wit fuel tr g k) eqn:E; cbn in H; try destruct H as [H|[]]; try tauto.
    inversion H; subst. split; auto. exists t. auto.
  - intros (-> & t & I & E & ->). exists (d, t). split; auto. cbn. rewrite E. cbn. auto.
Qed.
Lemma in_impls fuel g tr d bs : In (tr, d, bs) (all_impls fuel g []) <-> exists t, In (d, t) g /\ decl_wit fuel tr g d = Clean /\ bs = map want (args t).
Proof.
  unfold all_impls. cbn [app]. rewrite in_app_iff, !in_auto. split.
  - intros [[-> H]|[-> H]]; exact H.
  - intros H. destruct tr; auto.
Qed.
Lemma named_impl fuel g tr d l : NoDup (map fst g) -> implements (all_impls fuel g []) tr (TK (BNamed d) l) = true <->
  exists t, lookup_type g d = Some t /\ decl_wit fuel tr g d = Clean /\ fits (all_impls fuel g []) tr (map want (args t)) l = true.
Proof.
  intros ND. rewrite implements_named, existsb_exists. split.
  - intros ([[a x] bs] & I & H). apply andb_prop in H as [H F]. apply andb_prop in H as [A X]. apply auto_eqb_eq in A. apply Nat.eqb_eq in X. subst.
    apply in_impls in I as (t & I & C & ->). exists t. split; auto. now apply in_lookup.
  - intros (t & L & C & F). exists (tr, d, map want (args t)). split.
    + apply in_impls. exists t. split; auto. now apply lookup_in.
    + now rewrite (proj2 (auto_eqb_eq tr tr) eq_refl), Nat.eqb_refl.
Qed.

Lemma fits_ok is g tr : forall ms l, Forall (fun t => kinded g t -> implements is tr t = true -> ok g tr t) l ->
  fits is tr (map want ms) l = true -> Forall2 (fun m u => m = MType -> kinded g u) ms l -> Forall2 (fun m u => m <> MType -> constant u) ms l -> Forall (ok g tr) l.
Proof.
  induction ms as [|m ms IH]; intros [|t l] F H K C; [constructor | inversion K | inversion K |].
  inversion F as [|? ? F1 F2]; inversion K as [|? ? ? ? K1 K2]; inversion C as [|? ? ? ? C1 C2]; subst.
  cbn in H; apply andb_prop in H as [H1 H2]. constructor; [|now apply IH].
  destruct m; cbn in H1; auto; apply ok_const; apply C1; discriminate.
Qed.
Lemma implements_ok fuel g tr : NoDup (map fst g) -> forall t, kinded g t -> implements (all_impls fuel g []) tr t = true -> ok g tr t.
Proof.
  intros ND. induction t as [b l IH|] using ty_ind2; intros K H; [|discriminate].
  inversion K as [l' F|a n Ka Cn|a Ka|a Ka|d us t L NA F C]; subst.
  - cbn in H. apply andb_prop in H as [_ H]. apply ok_tuple. rewrite forallb_forall in H. rewrite Forall_forall in *. auto.
  - cbn in H. apply ok_array. inversion IH; auto.
  - discriminate.
  - discriminate.
  - apply (named_impl fuel g tr d l ND) in H as (t' & L' & D & H). assert (t' = t) by congruence. subst. eapply ok_named; [exact D|].
    eapply fits_ok; eauto.
Qed.

Lemma fits_data_copy fuel g : forall ms l, Forall (fun t => implements (all_impls fuel g []) Data t = true -> implements (all_impls fuel g []) Copy t = true) l ->
  fits (all_impls fuel g []) Data ms l = true -> fits (all_impls fuel g []) Copy ms l = true.
Proof.
  induction ms as [|m ms IH]; intros [|t l] F H; auto. cbn in *. inversion F as [|? ? F1 F2]; subst. apply andb_prop in H as [H1 H2]. rewrite IH; auto. rewrite andb_true_r.
  destruct m; cbn in *; auto.
Qed.
Lemma data_copy fuel g : NoDup (map fst g) -> forall t, implements (all_impls fuel g []) Data t = true -> implements (all_impls fuel g []) Copy t = true.
Proof.
  intros ND. induction t as [b l IH|] using ty_ind2; [|discriminate]. destruct b; try discriminate.
  - rewrite !(named_impl fuel g _ n l ND). intros (t & L & D & F). exists t. split; [exact L|]. split; [now apply decl_data_copy|]. now apply fits_data_copy.
  - cbn [implements]. intros H. apply andb_prop in H as [-> H]. cbn [andb]. rewrite forallb_forall in *. rewrite Forall_forall in IH. auto.
  - destruct l as [|a [|n [|]]]; try discriminate. cbn [implements]. inversion IH; auto.
Qed.

(** Refusals *)
Section Complete.
Variables (g : items) (tr : auto).
Hypothesis no_alias : forall d s, ~ has_kind g d (BAlias s).
Hypothesis ws : well_scoped g.
Lemma scoped_list n l : ((fix go l := match l with [] => True | x :: l => scoped g n x /\ go l end) l) <-> Forall (scoped g n) l.
Proof. induction l as [|a l IH]; split; intros H; auto; [constructor; [apply H|apply IH, H] | inversion H; subst; split; [auto|now apply IH]]. Qed.
Lemma means_total ts : forall s, scoped g (length ts) s -> exists u, means g ts s u.
Proof.
  assert (L : forall l, Forall (fun s => scoped g (length ts) s -> exists u, means g ts s u) l -> Forall (scoped g (length ts)) l -> exists us, all_mean g ts l us).
  { induction 1 as [|s l H F IH]; intros S; [exists []; constructor|]. inversion S; subst. destruct H as (u & M); auto. destruct IH as (us & A); auto.
    exists (u :: us). constructor; auto. }
  induction s as [z|b|y|e|n l IH|k|l IH|a b IHa IHb|a IHa|a IHa|] using tspec_ind'; cbn [scoped]; intros H.
  - eexists. apply M_int. - eexists. apply M_bool. - eexists. apply M_str. - exists (TK (BInt 0%Z) []). apply M_const.
  - destruct H as [_ H]. apply scoped_list in H. destruct (L l IH H) as (us & A). eexists. apply M_named; eauto.
  - destruct (nth_error ts k) eqn:E; [exists t; now apply M_generic|]. apply nth_error_None in E. lia.
  - apply scoped_list in H. destruct (L l IH H) as (us & A). eexists. apply M_tuple; eauto.
  - destruct H as [Ha Hb]. destruct (IHa Ha) as (u & U), (IHb Hb) as (v & V). eexists. apply M_array; eauto.
  - destruct (IHa H) as (u & U). eexists. apply M_inverted; eauto.
  - destruct (IHa H) as (u & U). eexists. apply M_view; eauto.
  - destruct H.
Qed.
Lemma all_mean_in ts l us s : all_mean g ts l us -> In s l -> exists u, In u us /\ means g ts s u.
Proof. induction 1 as [|ts x l u us M A IH]; intros []; [subst; exists u; cbn; auto|]. destruct IH as (v & I & N); auto. exists v. cbn. auto. Qed.
Lemma all_mean_length ts l us : all_mean g ts l us -> length l = length us.
Proof. induction 1; cbn; congruence. Qed.
Definition met (t : ty) : Prop := exists v, touches g t v /\ barred g tr v.
Lemma met_part t u : part g t u -> met u -> met t.
Proof. intros P (v & T & B). exists v. split; auto. eapply T_part; eauto. Qed.
Lemma spec_met (decl : nat -> found) : (forall d w, decl d = Found w -> forall t us, lookup_type g d = Some t -> length us = length (args t) -> met (TK (BNamed d) us)) ->
  forall s w ts u, spec_wit decl s = Found w -> scoped g (length ts) s -> means g ts s u -> met u.
Proof.
  intros D. induction s as [z|b|y|e|n l IH|k|l IH|a b IHa IHb|a IHa|a IHa|] using tspec_ind'; intros w ts u H S M; cbn [spec_wit] in H; try discriminate; inversion M; subst.
  - cbn [scoped] in S. destruct S as [(t & L & N) S]. destruct (decl n) eqn:E; try discriminate.
    + apply first_found in H as (s & I & W). eapply all_mean_in in I as J; eauto. destruct J as (u & J & Mu). rewrite Forall_forall in IH.
      apply scoped_list in S. rewrite Forall_forall in S. destruct (IH s I w ts u W (S s I) Mu) as (v & T & B). exists v. split; auto. eapply T_argument; eauto.
    + eapply D; eauto. erewrite <- all_mean_length; eauto.
  - exfalso. eapply no_alias; eauto.
  - apply first_found in H as (s & I & W). eapply all_mean_in in I as J; eauto. destruct J as (u & J & Mu). rewrite Forall_forall in IH. cbn [scoped] in S.
    apply scoped_list in S. rewrite Forall_forall in S. eapply met_part; [apply P_tuple; eauto|]. eapply IH; eauto.
  - cbn [scoped] in S. destruct S. eapply met_part; [apply P_element|]. eapply IHa; eauto.
  - eexists. split; [apply T_here|]. constructor.
Qed.
Lemma decl_met : forall fuel d w, decl_wit fuel tr g d = Found w -> forall t us, lookup_type g d = Some t -> length us = length (args t) -> met (TK (BNamed d) us).
Proof.
  induction fuel as [|fuel IH]; intros d w H t us L N; [discriminate|]. cbn [decl_wit] in H. rewrite L in H. pose proof (ws d t L) as S. destruct t as [ar k]. cbn in *.
  destruct k as [p|l|vs|s]; cbn in *.
  - destruct (prim_fails tr p) eqn:E; [|discriminate]. exists (TK (BNamed d) us). split; [constructor|]. eapply B_primitive; [eexists; eauto|]. now apply prim_excluded.
  - apply first_found in H as (s & I & W). rewrite Forall_forall in S. destruct (means_total us s) as (u & M); [rewrite N; auto|].
    eapply met_part; [eapply P_member; [eexists; eauto|eauto|eauto]|]. eapply (spec_met (decl_wit fuel tr g)); eauto. rewrite N. auto.
  - discriminate.
  - exfalso. eapply no_alias. eexists. eauto.
Qed.

Variable fuel : nat.
Hypothesis nodup : NoDup (map fst g).
Hypothesis enough : forall d t, lookup_type g d = Some t -> decl_wit fuel tr g d <> Stuck.
Lemma fits_all ts : forall ms l, Forall2 (fun m u => m = MType -> kinded g u) ms l -> (forall m u, In (m, u) (combine ms l) -> In (m, u) (combine (map (fun x => x) ms) l)) ->
  (forall u, In (MType, u) (combine ms l) -> implements ts tr u = true) -> fits ts tr (map want ms) l = true.
Proof.
  induction ms as [|m ms IH]; intros [|t l] F _ H; inversion F; subst; auto. cbn. rewrite IH; auto.
  - rewrite andb_true_r. destruct m; cbn; auto. apply H. cbn. auto.
  - intros ? ?. now rewrite map_id.
  - intros u I. apply H. cbn. auto.
Qed.
Lemma complete : forall t, kinded g t -> (forall u, touches g t u -> ~ barred g tr u) -> (forall u, surface g t u -> ~ unsupported u) ->
  implements (all_impls fuel g []) tr t = true.
Proof.
  induction t as [b l IH|n m] using ty_ind2; intros K T S; [|inversion K].
  inversion K as [l' F|a n Ka Cn|a Ka|a Ka|d us t L NA F C]; subst.
  - cbn. apply andb_true_intro. split.
    + apply Nat.leb_le. destruct (Nat.le_gt_cases (length l) 8); auto. exfalso. apply (S (TK BTuple l)); [constructor|]. left. eauto.
    + apply forallb_forall. intros x I. rewrite Forall_forall in *. apply IH; auto.
      * intros u U. apply T. eapply T_part; [apply P_tuple; eauto|auto].
      * intros u U. apply S. eapply S_tuple; eauto.
  - cbn. inversion IH; subst. apply H1; auto.
    + intros u U. apply T. eapply T_part; [apply P_element|auto].
    + intros u U. apply S. now apply S_element.
  - exfalso. apply (T (TK BInverted [a])); constructor.
  - exfalso. apply (S (TK BCopyView [a])); [constructor|]. right. eauto.
  - apply named_impl; auto. exists t. split; auto. split.
    + destruct (decl_wit fuel tr g d) eqn:E; auto.
      * exfalso. assert (N : length l = length (args t)) by (clear - F; induction F; cbn; congruence).
        destruct (decl_met fuel d w E t l L N) as (v & V & B). exact (T v V B).
      * exfalso. eapply enough; eauto.
    + apply fits_all; auto; [intros; now rewrite map_id|]. intros u I. pose proof (in_combine_r _ _ _ _ I) as J. rewrite Forall_forall in IH.
      apply IH; auto.
      * clear - F I. induction F; [destruct I|]. destruct I as [I|I]; [inversion I; subst; auto | auto].
      * intros v V. apply T. eapply T_argument; eauto.
      * intros v V. apply S. eapply S_argument; eauto.
Qed.
End Complete.

(** The search for a witness comes to an end *)
Definition settles (g : items) (tr : auto) (d : nat) : Prop := exists N, forall fuel, N <= fuel -> decl_wit fuel tr g d = decl_wit N tr g d /\ decl_wit N tr g d <> Stuck.
Lemma first_ext {A} (f h : A -> found) l : Forall (fun x => f x = h x) l -> first f l = first h l.
Proof. induction 1 as [|x l E F IH]; auto. cbn. rewrite E. destruct (h x); auto. Qed.
Lemma first_stuck {A} (f : A -> found) l : Forall (fun x => f x <> Stuck) l -> first f l <> Stuck.
Proof. induction 1 as [|x l E F IH]; cbn; [discriminate|]. destruct (f x); congruence. Qed.
Definition steady_wit (g : items) (tr : auto) (s : tspec) : Prop :=
  exists N, forall fuel, N <= fuel -> spec_wit (decl_wit fuel tr g) s = spec_wit (decl_wit N tr g) s /\ spec_wit (decl_wit N tr g) s <> Stuck.
Lemma steady_wits g tr l : Forall (steady_wit g tr) l ->
  exists N, forall fuel, N <= fuel -> first (spec_wit (decl_wit fuel tr g)) l = first (spec_wit (decl_wit N tr g)) l /\ first (spec_wit (decl_wit N tr g)) l <> Stuck.
Proof.
  intros F. assert (H : exists N, forall fuel, N <= fuel -> Forall (fun s => spec_wit (decl_wit fuel tr g) s = spec_wit (decl_wit N tr g) s /\ spec_wit (decl_wit N tr g) s <> Stuck) l).
  { induction F as [|s l (a & A) F (b & B)]; [exists 0; constructor|]. exists (Nat.max a b). intros fuel L. constructor.
    - destruct (A fuel) as [A1 A2]; [lia|]. destruct (A (Nat.max a b)) as [A3 _]; [lia|]. split; congruence.
    - pose proof (B fuel ltac:(lia)) as B1. pose proof (B (Nat.max a b) ltac:(lia)) as B2. rewrite Forall_forall in *. intros x I.
      destruct (B1 x I), (B2 x I). split; congruence. }
  destruct H as (N & H). exists N. intros fuel L. specialize (H fuel L). split; [apply first_ext | apply first_stuck]; eapply Forall_impl; try exact H; cbv beta; tauto.
Qed.
Lemma steady_one g tr n : forall s, scoped g n s -> (forall x, occurs x s -> settles g tr x) -> steady_wit g tr s.
Proof.
  induction s as [z|b|y|e|m l IH|k|l IH|a b IHa IHb|a IHa|a IHa|] using tspec_ind'; cbn [scoped]; intros S H; try (exists 0; cbn; split; [reflexivity|discriminate]).
  - destruct S as [_ S]. apply scoped_list in S. assert (F : Forall (steady_wit g tr) l).
    { rewrite Forall_forall in *. intros x I. apply IH; auto. intros y O. apply H. eapply O_named; eauto. }
    destruct (steady_wits g tr l F) as (a & A). destruct (H m (O_here m l)) as (b & B). exists (Nat.max a b). intros fuel L. cbn [spec_wit].
    destruct (A fuel) as [A1 A2]; [lia|]. destruct (A (Nat.max a b)) as [A3 _]; [lia|]. destruct (B fuel) as [B1 B2]; [lia|]. destruct (B (Nat.max a b)) as [B3 _]; [lia|].
    rewrite B1, B3, A1, A3. split; auto. destruct (decl_wit b tr g m); congruence.
  - apply scoped_list in S. assert (F : Forall (steady_wit g tr) l).
    { rewrite Forall_forall in *. intros x I. apply IH; auto. intros y O. apply H. eapply O_tuple; eauto. }
    destruct (steady_wits g tr l F) as (a & A). exists a. exact A.
  - destruct S as [S _]. destruct IHa as (N & A); auto. { intros x O. apply H. now apply O_element. } exists N. exact A.
  - destruct S.
Qed.
Lemma outline_body g d t : lookup_type g d = Some t -> In (d, made_of (kind t)) (outline g).
Proof. intros L. apply lookup_in in L. unfold outline. apply in_map_iff. exists (d, t). auto. Qed.
Lemma scoped_declared g n : forall s x, scoped g n s -> occurs x s -> exists t, lookup_type g x = Some t.
Proof.
  induction s as [z|b|y|e|m l IH|k|l IH|a b IHa IHb|a IHa|a IHa|] using tspec_ind'; cbn [scoped]; intros x S O; inversion O; subst; try tauto.
  - destruct S as [(t & L & _) _]. eauto.
  - destruct S as [_ S]. apply scoped_list in S. rewrite Forall_forall in *. eauto.
  - apply scoped_list in S. rewrite Forall_forall in *. eauto.
  - apply IHa; tauto.
  - apply IHb; tauto.
  - eauto.
  - eauto.
Qed.
Lemma all_settle g tr : good (outline g) -> well_scoped g -> forall d, (exists t, lookup_type g d = Some t) -> settles g tr d.
Proof.
  intros [_ A] W d. induction (A d) as [d _ IH]. intros (t & L). pose proof (W d t L) as SC.
  assert (F : Forall (steady_wit g tr) (made_of (kind t))).
  { rewrite Forall_forall in *. intros s I. eapply steady_one; [eauto|]. intros x O. apply IH; [|eapply scoped_declared; eauto].
    exists (made_of (kind t)), s. split; [now apply outline_body | auto]. }
  assert (G : forall f, decl_wit (S f) tr g d = match kind t with BEnum _ => Clean | BPrimitive p => if prim_fails tr p then Found (HereDecl d) else Clean
    | BStruct l => first (spec_wit (decl_wit f tr g)) l | BAlias s => spec_wit (decl_wit f tr g) s end) by (intros f; cbn [decl_wit]; now rewrite L).
  destruct (kind t) as [p|l|vs|s]; cbn in F.
  - exists 1. intros [|f] N; [lia|]. rewrite !G. destruct (prim_fails tr p); split; auto; discriminate.
  - destruct (steady_wits g tr l F) as (a & B). exists (S a). intros [|f] N; [lia|]. rewrite !G. apply B. lia.
  - exists 1. intros [|f] N; [lia|]. rewrite !G. split; auto; discriminate.
  - inversion F as [|? ? (a & B) _]; subst. exists (S a). intros [|f] N; [lia|]. rewrite !G. apply B. lia.
Qed.
Lemma settle_bound g tr : good (outline g) -> well_scoped g ->
  exists N, forall fuel, N <= fuel -> forall d t, lookup_type g d = Some t -> decl_wit fuel tr g d = decl_wit N tr g d /\ decl_wit fuel tr g d <> Stuck.
Proof.
  intros G W. assert (H : forall l, incl l g -> exists N, forall fuel, N <= fuel -> forall d t, lookup_type g d = Some t -> In d (map fst l) -> decl_wit fuel tr g d = decl_wit N tr g d /\ decl_wit fuel tr g d <> Stuck).
  { induction l as [|[k m] l IH]; intros I; [exists 0; intros fuel _ d t _ []|]. destruct IH as (a & A); [intros x X; apply I; cbn; auto|].
    destruct (lookup_type g k) as [t|] eqn:E.
    - destruct (all_settle g tr G W k) as (b & B); [eauto|]. exists (Nat.max a b). intros fuel L d t' D [J|J].
      + cbn in J. subst. destruct (B fuel) as [B1 B2]; [lia|]. destruct (B (Nat.max a b)) as [B3 _]; [lia|]. split; congruence.
      + destruct (A fuel ltac:(lia) d t' D J) as [A1 A2]. destruct (A (Nat.max a b) ltac:(lia) d t' D J) as [A3 A4]. split; congruence.
    - exists a. intros fuel L d t D [J|J]; [cbn in J; congruence|]. eauto. }
  destruct (H g (incl_refl g)) as (N & B). exists N. intros fuel L d t D. eapply B; eauto. apply lookup_in in D. apply (in_map fst) in D. exact D.
Qed.

(** The outcome does not depend on the fuel, once it is enough *)
Lemma spec_wit_ext g n (f h : nat -> found) : (forall d t, lookup_type g d = Some t -> f d = h d) -> forall s, scoped g n s -> spec_wit f s = spec_wit h s.
Proof.
  intros E. induction s as [z|b|y|e|m l IH|k|l IH|a b IHa IHb|a IHa|a IHa|] using tspec_ind'; cbn [scoped spec_wit]; intros S; auto.
  - destruct S as [(t & L & _) S]. apply scoped_list in S. rewrite (E m t L). rewrite (first_ext (spec_wit f) (spec_wit h)); auto. rewrite Forall_forall in *. auto.
  - apply scoped_list in S. apply first_ext. rewrite Forall_forall in *. auto.
  - apply IHa. tauto.
Qed.
Lemma flat_map_same {A B} (f h : A -> list B) l : (forall x, In x l -> f x = h x) -> flat_map f l = flat_map h l.
Proof. induction l as [|a l IH]; intros H; auto. cbn. rewrite H by (cbn; auto). rewrite IH; auto. intros x I. apply H. cbn. auto. Qed.
Lemma outcome g : good (outline g) -> well_scoped g -> NoDup (map fst g) -> exists bound, forall fuel, bound <= fuel ->
  (forall written, all_impls fuel g written = all_impls bound g written) /\ enum_errors fuel g = enum_errors bound g /\
  (forall tr d t, lookup_type g d = Some t -> decl_wit fuel tr g d <> Stuck) /\ (forall d, ~ In (d, Stuck) (enum_errors fuel g)).
Proof.
  intros G W ND. destruct (settle_bound g Copy G W) as (a & A), (settle_bound g Data G W) as (b & B). exists (Nat.max a b). intros fuel L.
  assert (Q : forall tr d t, lookup_type g d = Some t -> decl_wit fuel tr g d = decl_wit (Nat.max a b) tr g d /\ decl_wit fuel tr g d <> Stuck).
  { intros [] d t D.
    - destruct (A fuel ltac:(lia) d t D). destruct (A (Nat.max a b) ltac:(lia) d t D). split; congruence.
    - destruct (B fuel ltac:(lia) d t D). destruct (B (Nat.max a b) ltac:(lia) d t D). split; congruence. }
  assert (R : forall tr d t s, In (d, t) g -> In s (made_of (kind t)) -> spec_wit (decl_wit fuel tr g) s = spec_wit (decl_wit (Nat.max a b) tr g) s).
  { intros tr d t s I J. apply (in_lookup g d t ND) in I. pose proof (W d t I) as S. rewrite Forall_forall in S. eapply spec_wit_ext; [|exact (S s J)].
    intros x y D. apply (Q tr x y D). }
  assert (T : forall n s, scoped g n s -> spec_wit (decl_wit fuel Data g) s <> Stuck).
  { intros n. induction s as [z|c|y|e|m l IH|k|l IH|u v IHa IHb|u IHa|u IHa|] using tspec_ind'; cbn [scoped spec_wit]; intros S; auto; try discriminate.
    - destruct S as [(t & D & _) S]. apply scoped_list in S. destruct (Q Data m t D) as [_ NS]. destruct (decl_wit fuel Data g m); [|discriminate|congruence].
      apply first_stuck. rewrite Forall_forall in *. auto.
    - apply scoped_list in S. apply first_stuck. rewrite Forall_forall in *. auto.
    - apply IHa. tauto. }
  split; [|split; [|split]].
  - intros written. unfold all_impls. assert (E : forall tr, impl_auto_trait fuel tr g = impl_auto_trait (Nat.max a b) tr g); [|now rewrite !E].
    intros tr. apply flat_map_same. intros [d t] I. cbn. apply (in_lookup g d t ND) in I. destruct (Q tr d t I) as [-> _]. reflexivity.
  - apply flat_map_same. intros [d t] I. cbn. destruct (kind t) as [p|l|vs|s] eqn:K; auto. apply flat_map_same. intros s J.
    rewrite (R Data d t s I); auto. rewrite K. exact J.
  - intros tr d t D. apply (Q tr d t D).
  - intros d I. apply in_flat_map in I as ([x t] & I & J). cbn in J. destruct (kind t) as [p|l|vs|s] eqn:K; try destruct J. apply in_flat_map in J as (s & J & H).
    apply (in_lookup g x t ND) in I. pose proof (W x t I) as S. rewrite K in S. cbn in S. rewrite Forall_forall in S. pose proof (T _ s (S s J)) as NS.
    destruct (spec_wit (decl_wit fuel Data g) s); cbn in H; [destruct H| |congruence]. destruct H as [H|[]]. discriminate.
Qed.
Lemma reported fuel g d w : (forall d s, ~ has_kind g d (BAlias s)) -> well_scoped g -> NoDup (map fst g) -> In (d, Found w) (enum_errors fuel g) ->
  exists a vs v s, lookup_type g d = Some {| args := a; kind := BEnum vs |} /\ In v vs /\ In s v /\
    forall us, length us = length a -> exists u, means g us s u /\ met g Data u.
Proof.
  intros NA W ND I. apply in_flat_map in I as ([x t] & I & J). cbn in J. apply (in_lookup g x t ND) in I. pose proof (W x t I) as S. destruct t as [a k]. cbn in *.
  destruct k as [p|l|vs|s]; try destruct J. apply in_flat_map in J as (s & J & H). cbn in S. rewrite Forall_forall in S.
  destruct (spec_wit (decl_wit fuel Data g) s) eqn:E; cbn in H; [destruct H| |destruct H as [H|[]]; discriminate]. destruct H as [H|[]]. inversion H; subst.
  apply in_concat in J as K. destruct K as (v & V & Sv). exists a, vs, v, s. repeat (split; [assumption|]). intros us N.
  assert (Z : scoped g (length us) s) by (rewrite N; auto). destruct (means_total g NA us s Z) as (u & M). exists u. split; auto.
  eapply (spec_met g Data NA (decl_wit fuel Data g)); eauto. intros y q Y. eapply decl_met; eauto.
Qed.
