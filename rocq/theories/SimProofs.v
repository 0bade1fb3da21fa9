(** Proofs about fields in the simulation API. *)
From Coq Require Import String List Arith Bool Lia.
From Verif Require Import Bits BitsFacts Verilog CodegenModel CodegenSpec CgLayout InvModel InvProofs ConcModel SimModel SimSpec.
Import ListNotations.
Local Open Scope list_scope.

Lemma find_first : forall (ms : list (string * cty)) next n u, NoDup (map fst ms) ->
  find (fun p => (fst p =? next)%string) ms = Some (n, u) ->
  n = next /\ exists i, nth_error ms i = Some (next, u) /\
    forall f start, locate f ms next start = (start + list_sum (firstn i (map (fun p => f (snd p)) ms)), f u).
Proof.
  induction ms as [|[m t] ms IH]; intros next n u N H; [discriminate|]. cbn in H.
  destruct (m =? next)%string eqn:E.
  - inversion H; subst. apply String.eqb_eq in E. subst. split; auto. exists 0. split; auto.
    intros. cbn. rewrite String.eqb_refl. f_equal. lia.
  - inversion N; subst. destruct (IH _ _ _ H3 H) as (-> & i & Hi & L). split; auto. exists (S i). split; auto.
    intros f start. cbn [locate map firstn]. rewrite E, L. cbn [snd]. rewrite list_sum_cons. f_equal. lia.
Qed.
Lemma has_field_find : forall (ms : list (string * cty)) next,
  existsb (fun p => (fst p =? next)%string) ms = true -> exists p, find (fun p => (fst p =? next)%string) ms = Some p.
Proof.
  induction ms as [|p ms IH]; intros next H; [discriminate|]. cbn in *. destruct (fst p =? next)%string; eauto.
Qed.

Lemma split_widths : forall tys (w : bits), List.length w = list_sum (map size tys) ->
  exists vals, Forall2 has_width tys vals /\ w = concat (rev vals).
Proof.
  induction tys as [|t tys IH]; intros w H.
  - exists []. split; auto. destruct w; [auto|discriminate].
  - cbn [map] in H. rewrite list_sum_cons in H.
    destruct (IH (firstn (list_sum (map size tys)) w)) as (vals & F & E).
    { rewrite firstn_length. lia. }
    exists (skipn (list_sum (map size tys)) w :: vals). split.
    + constructor; auto. unfold has_width. rewrite skipn_length. lia.
    + cbn [rev]. rewrite concat_app, <- E. cbn. rewrite app_nil_r. symmetry. apply firstn_skipn.
Qed.
Lemma index_slice : forall big tys i t w, tuple_members big = Some tys -> nth_error tys i = Some t ->
  List.length w = list_sum (map size tys) ->
  op_value t [big] (IndexTuple i) [w] = Some (slice w (list_sum (map size (skipn (S i) tys))) (size t)).
Proof.
  intros big tys i t w M H L. destruct (split_widths _ _ L) as (vals & F & ->).
  destruct (Forall2_nth_error _ _ _ _ _ F H) as (v & Hv & W).
  rewrite (index_any t tys vals i v big); auto. f_equal.
  rewrite <- (slice_concat_rev vals i v Hv) at 1. unfold has_width in W. rewrite W. f_equal.
  rewrite <- !skipn_map. rewrite (fits_lengths _ _ F). auto.
Qed.
Lemma slice_slice : forall (w : bits) a n b m, b + m <= n -> a + n <= List.length w ->
  slice (slice w a n) b m = slice w (a + b) m.
Proof.
  intros w a n b m H L. rewrite !slice_spec; rewrite ?length_slice; try lia.
  rewrite skipn_firstn_comm, skipn_skipn, firstn_firstn. f_equal; [lia|]. f_equal. lia.
Qed.

Definition fwd_inv (W : bits) (fr : field_ref) (w : bits) : Prop :=
  List.length w = fwd_size (f_ty fr) /\
  match f_fwd fr with
  | Some r => r_to r = r_from r + fwd_size (f_ty fr) /\ r_to r <= List.length W /\ fwd_size (f_ty fr) <> 0 /\
      w = slice W (List.length W - r_to r) (fwd_size (f_ty fr)) /\
      (r_full r = true -> r_from r = 0 /\ r_to r = List.length W)
  | None => fwd_size (f_ty fr) = 0
  end.
Definition back_inv (N : nat) (fr : field_ref) (pos : nat) : Prop :=
  match f_back fr with
  | Some r => r_to r = r_from r + back_size (f_ty fr) /\ r_to r <= N /\ back_size (f_ty fr) <> 0 /\ pos = N - r_to r /\
      (r_full r = true -> r_from r = 0 /\ r_to r = N)
  | None => back_size (f_ty fr) = 0
  end.

Lemma sum_at : forall l i (x : nat), nth_error l i = Some x ->
  list_sum l = list_sum (firstn i l) + x + list_sum (skipn (S i) l).
Proof.
  intros l i x H. rewrite (nth_error_split_at l i x H) at 1. rewrite list_sum_app, list_sum_cons. lia.
Qed.
Lemma fwd_size_struct : forall ms, fwd_size (CStruct ms) = list_sum (map (fun p => fwd_size (snd p)) ms).
Proof. intros. unfold fwd_size. cbn [to_mir_type size]. rewrite map_map. auto. Qed.
Lemma back_size_struct : forall ms, back_size (CStruct ms) = list_sum (map (fun p => back_size (snd p)) ms).
Proof. intros. unfold back_size. cbn [to_mir_type backward_size]. rewrite map_map. auto. Qed.

Lemma step_inv : forall fr next fr', proper (f_ty fr) -> field_of_field fr next = Found fr' ->
  exists ms i, f_ty fr = CStruct ms /\ nth_error ms i = Some (next, f_ty fr') /\ proper (f_ty fr') /\
    forall W w, fwd_inv W fr w -> exists x,
      op_value (to_mir_type (f_ty fr')) [to_mir_type (CStruct ms)] (IndexTuple i) [w] = Some x /\ fwd_inv W fr' x.
Proof.
  intros fr next fr' P H. unfold field_of_field in H.
  destruct (concrete_ty_has_field (f_ty fr) next) eqn:HF; [|discriminate]. cbn [negb] in H.
  destruct fr as [ff fb t]. cbn [f_ty f_fwd f_back] in *.
  destruct t; try discriminate. cbn [assume_struct] in H.
  inversion P as [ms ND PF|t NS]; subst; [|destruct (NS l); auto].
  destruct (find (fun p => (fst p =? next)%string) l) as [[n u]|] eqn:F; [|discriminate].
  inversion H; subst; clear H. cbn [f_ty f_fwd f_back].
  destruct (find_first _ _ _ _ ND F) as (-> & i & Hi & L).
  exists l, i. split; auto. split; auto. split.
  { apply nth_error_In in Hi. rewrite Forall_forall in PF. apply (PF _ Hi). }
  intros W w [Lw I]. cbn [f_ty f_fwd] in *. rewrite fwd_size_struct in *.
  assert (Hm : nth_error (map (fun p => to_mir_type (snd p)) l) i = Some (to_mir_type u)).
  { rewrite nth_error_map, Hi. auto. }
  assert (Hs : nth_error (map (fun p => fwd_size (snd p)) l) i = Some (fwd_size u)) by (rewrite nth_error_map, Hi; auto).
  pose proof (sum_at _ _ _ Hs) as Sum.
  assert (SK : list_sum (map size (skipn (S i) (map (fun p => to_mir_type (snd p)) l))) =
               list_sum (skipn (S i) (map (fun p => fwd_size (snd p)) l))).
  { rewrite <- skipn_map, map_map. auto. }
  eexists. split.
  { apply index_slice with (tys := map (fun p => to_mir_type (snd p)) l); auto.
    - cbn. rewrite map_map. auto.
    - rewrite map_map. exact Lw. }
  rewrite SK. fold (fwd_size u). split; [apply length_slice|]. cbn [f_ty f_fwd].
  unfold get_range. destruct ff as [r|]; [|lia].
  destruct I as (T & B & NZ & E & FL). rewrite L. cbn [Nat.add].
  destruct (Nat.eqb_spec (fwd_size u) 0) as [Z|Z]; [auto|]. cbn [r_from r_to r_full].
  split; [lia|]. split; [lia|]. split; auto. split.
  - rewrite E. rewrite slice_slice by lia. f_equal. lia.
  - intros Ful. apply andb_true_iff in Ful as [Ful E2]. apply andb_true_iff in Ful as [Ful E1].
    apply Nat.eqb_eq in E1, E2. destruct (FL Ful). lia.
Qed.

Lemma step_back : forall fr next fr' ms i, proper (f_ty fr) -> field_of_field fr next = Found fr' ->
  f_ty fr = CStruct ms -> nth_error ms i = Some (next, f_ty fr') ->
  forall N pos, back_inv N fr pos -> exists pos', back_inv N fr' pos' /\
    forall k, k < back_size (f_ty fr') -> exists r,
      routes (to_mir_type (f_ty fr')) [to_mir_type (CStruct ms)] (IndexTuple i) [] = Some r /\
      exists j, nth_error r k = Some (Bwd 0, j) /\ pos' + k = pos + j /\ j < back_size (CStruct ms).
Proof.
  intros fr next fr' ms i P H T Hi N pos I. unfold field_of_field in H.
  destruct (concrete_ty_has_field (f_ty fr) next) eqn:HF; [|discriminate]. cbn [negb] in H.
  destruct fr as [ff fb t]. cbn [f_ty f_fwd f_back] in *. subst t. cbn [assume_struct] in H.
  inversion P as [ms' ND PF|t NS]; subst; [|destruct (NS ms); auto].
  destruct (find (fun p => (fst p =? next)%string) ms) as [[n u]|] eqn:F; [|discriminate].
  inversion H; subst; clear H. cbn [f_ty f_fwd f_back] in *.
  destruct (find_first _ _ _ _ ND F) as (-> & i' & Hi' & L).
  assert (i' = i).
  { eapply NoDup_nth_error with (l := map fst ms); auto.
    - rewrite map_length. apply nth_error_Some. congruence.
    - rewrite !nth_error_map, Hi, Hi'. auto. }
  subst i'.
  assert (Hs : nth_error (map (fun p => back_size (snd p)) ms) i = Some (back_size u)) by (rewrite nth_error_map, Hi; auto).
  pose proof (sum_at _ _ _ Hs) as Sum.
  assert (Hm : nth_error (map (fun p => to_mir_type (snd p)) ms) i = Some (to_mir_type u)) by (rewrite nth_error_map, Hi; auto).
  assert (SK : list_sum (map backward_size (skipn (S i) (map (fun p => to_mir_type (snd p)) ms))) =
               list_sum (skipn (S i) (map (fun p => back_size (snd p)) ms))).
  { rewrite <- skipn_map, map_map. auto. }
  unfold back_inv in *. cbn [f_ty f_back] in *. rewrite back_size_struct in *. unfold get_range.
  exists (pos + list_sum (skipn (S i) (map (fun p => back_size (snd p)) ms))). split.
  - destruct fb as [r|]; [|lia]. destruct I as (TT & B & NZ & E & FL). rewrite L. cbn [Nat.add].
    destruct (Nat.eqb_spec (back_size u) 0) as [Z|Z]; [auto|]. cbn [r_from r_to r_full].
    split; [lia|]. split; [lia|]. split; auto. split; [lia|].
    intros Ful. apply andb_true_iff in Ful as [Ful E2]. apply andb_true_iff in Ful as [Ful E1].
    apply Nat.eqb_eq in E1, E2. destruct (FL Ful). lia.
  - intros k Hk.
    destruct (index_tuple_routes (map (fun p => to_mir_type (snd p)) ms) (to_mir_type (CStruct ms)) i (to_mir_type u) [] k)
      as (r & R & Rk); auto.
    + cbn. rewrite map_map. auto.
    + cbn. rewrite !map_map. auto.
    + exists r. split; auto. eexists. split; [exact Rk|]. rewrite SK. split; lia.
Qed.

Lemma fields_ok : forall path fr fr', proper (f_ty fr) -> fields fr path = Found fr' ->
  (forall W w, fwd_inv W fr w -> exists y, field_bits (f_ty fr) path (f_ty fr') w y /\ fwd_inv W fr' y) /\
  (forall N pos, back_inv N fr pos -> exists pos', back_inv N fr' pos' /\
     forall k, k < back_size (f_ty fr') -> exists p, back_bit (f_ty fr) path (f_ty fr') k p /\ pos' + k = pos + p /\
       p < back_size (f_ty fr)).
Proof.
  induction path as [|f path IH]; intros fr fr' P H.
  - inversion H; subst. split.
    + intros W w I. exists w. split; auto. constructor.
    + intros N pos I. exists pos. split; auto. intros k Hk. exists k. split; auto. constructor.
  - cbn in H. destruct (field_of_field fr f) as [fr1| |] eqn:E; try discriminate.
    destruct (step_inv _ _ _ P E) as (ms & i & T & Hi & P1 & S).
    pose proof (step_back _ _ _ _ _ P E T Hi) as SB.
    destruct (IH _ _ P1 H) as [A B]. split.
    + intros W w I. destruct (S _ _ I) as (x & O & I1). destruct (A _ _ I1) as (y & FB & I2).
      exists y. split; auto. rewrite T. econstructor; eauto.
    + intros N pos I. destruct (SB _ _ I) as (p1 & I1 & Q). destruct (B _ _ I1) as (p2 & I2 & Q2).
      exists p2. split; auto. intros k Hk. destruct (Q2 k Hk) as (j & BB & EJ & Lj).
      destruct (Q j Lj) as (r & R & j' & Rj & EE & Lt). exists j'. split; [|split; [lia|rewrite T; auto]].
      rewrite T. econstructor; eauto.
Qed.

Lemma whole_inv : forall t W, List.length W = fwd_size t -> fwd_inv W (whole t) W.
Proof.
  intros t W L. split; auto. cbn. unfold whole_range. destruct (Nat.eqb_spec (fwd_size t) 0) as [Z|Z]; auto.
  cbn. split; auto. split; [lia|]. split; auto. split; [|intros; lia].
  fold (fwd_size t). rewrite <- L, Nat.sub_diag. rewrite slice_spec by lia. cbn [skipn]. rewrite firstn_all. auto.
Qed.
Lemma whole_back : forall t, back_inv (back_size t) (whole t) 0.
Proof.
  intros t. unfold back_inv. cbn. unfold whole_range. destruct (Nat.eqb_spec (back_size t) 0) as [Z|Z]; auto.
  cbn. repeat split; auto; lia.
Qed.

(** every path through structs is found *)
Lemma path_found : forall t path u, has_path t path u -> proper t -> forall fr, f_ty fr = t ->
  exists fr', fields fr path = Found fr' /\ f_ty fr' = u.
Proof.
  intros t path u H. induction H as [t|ms f u path u' I H IH]; intros P fr E.
  - exists fr. auto.
  - inversion P as [ms' ND PF|t NS]; subst; [|destruct (NS ms); auto].
    cbn [fields]. unfold field_of_field. rewrite E. cbn [concrete_ty_has_field assume_struct].
    assert (HE : existsb (fun p => (fst p =? f)%string) ms = true).
    { apply existsb_exists. exists (f, u). split; auto. cbn. apply String.eqb_refl. }
    rewrite HE. cbn [negb]. destruct (has_field_find _ _ HE) as ([n v] & F). rewrite F.
    destruct (find_first _ _ _ _ ND F) as (-> & i & Hi & _).
    assert (v = u).
    { apply In_nth_error in I as (j & Hj). assert (i = j).
      { eapply NoDup_nth_error with (l := map fst ms); auto.
        - rewrite map_length. apply nth_error_Some. congruence.
        - rewrite !nth_error_map, Hi, Hj. auto. }
      congruence. }
    subst v. apply IH; auto. rewrite Forall_forall in PF. apply (PF _ I).
Qed.
Lemma path_only : forall path fr fr', fields fr path = Found fr' -> has_path (f_ty fr) path (f_ty fr').
Proof.
  induction path as [|f path IH]; intros fr fr' H; cbn in H.
  - inversion H; subst. constructor.
  - destruct (field_of_field fr f) as [fr1| |] eqn:E; try discriminate. unfold field_of_field in E.
    destruct (concrete_ty_has_field (f_ty fr) f); [|discriminate]. cbn [negb] in E.
    destruct (f_ty fr) eqn:T; try discriminate. cbn in E.
    destruct (find (fun p => (fst p =? f)%string) l) as [[n u]|] eqn:F; [|discriminate]. inversion E; subst.
    apply find_some in F as [I Q]. cbn in Q. apply String.eqb_eq in Q. subst.
    econstructor; eauto. apply (IH _ _ H).
Qed.

(** ** Reading and writing a range *)
Lemma read_range_slice : forall (W : bits) r, r_from r <= r_to r -> r_to r <= List.length W ->
  rev (read_range (rev W) r) = slice W (List.length W - r_to r) (r_to r - r_from r).
Proof.
  intros W r A B. unfold read_range. rewrite slice_spec by lia.
  rewrite skipn_rev, firstn_rev, rev_involutive. rewrite firstn_length.
  rewrite skipn_firstn_comm. f_equal; [lia|]. f_equal. lia.
Qed.
Lemma set_bits_length : forall s lo b, List.length (set_bits s lo b) = List.length s.
Proof. induction s as [|x s IH]; intros [|lo] [|y b]; cbn; auto. Qed.
Lemma set_bits_nth : forall s lo b i, lo + List.length b <= List.length s ->
  nth i (set_bits s lo b) BX = if (lo <=? i) && (i <? lo + List.length b) then nth (i - lo) b BX else nth i s BX.
Proof.
  induction s as [|x s IH]; intros lo b i L.
  - cbn in L. destruct b; [|cbn in L; lia]. cbn [set_bits].
    assert (Z : forall k, nth k (@nil bit) BX = BX) by (intros [|k]; auto).
    rewrite !Z. destruct ((lo <=? i) && (i <? lo + List.length (@nil bit))); auto.
  - destruct lo as [|lo].
    + destruct b as [|y b]; cbn [set_bits].
      * cbn. auto.
      * destruct i as [|i]; cbn; auto. rewrite IH by (cbn in *; lia). cbn. rewrite Nat.sub_0_r. auto.
    + assert (E : set_bits (x :: s) (S lo) b = x :: set_bits s lo b) by (destruct b; auto).
      rewrite E. destruct i as [|i]; cbn [nth]; auto. rewrite IH by (cbn in *; lia). cbn. auto.
Qed.

Lemma nth_firstn_lt : forall (l : bits) n k d, k < n -> nth k (firstn n l) d = nth k l d.
Proof. induction l as [|x l IH]; intros [|n] [|k] d H; cbn; auto; try lia. apply IH. lia. Qed.
Lemma nth_skipn_add : forall (l : bits) n k d, nth k (skipn n l) d = nth (n + k) l d.
Proof. induction l as [|x l IH]; intros [|n] k d; cbn; auto. destruct k; auto. Qed.

(** ** Sessions *)
Lemma path_eqb_eq : forall a b, path_eqb a b = true <-> a = b.
Proof.
  induction a as [|x a IH]; intros [|y b]; cbn; split; intros H; try discriminate; auto.
  - apply andb_true_iff in H as [H1 H2]. apply String.eqb_eq in H1. apply IH in H2. congruence.
  - inversion H; subst. apply andb_true_iff. split; [apply String.eqb_refl|]. apply IH. auto.
Qed.
Lemma fields_snoc : forall path fr f, fields fr (path ++ [f]) =
  match fields fr path with Found fr' => field_of_field fr' f | NoSuchField => NoSuchField | Crash => Crash end.
Proof.
  induction path as [|g path IH]; intros fr f; cbn.
  - destruct (field_of_field fr f); auto.
  - destruct (field_of_field fr g); auto.
Qed.
Section Sessions.
Variable ports : list string -> option cty.
(** a path determines the port *)
Hypothesis distinct : forall root root' path path' t t', ports root = Some t -> ports root' = Some t' ->
  root ++ path = root' ++ path' -> root = root' /\ path = path'.

Definition good_cache (s : session) : Prop := forall p f, In (p, f) (ss_cache s) ->
  exists root t path, ports root = Some t /\ p = root ++ path /\ fields (whole t) path = Found f.
Lemma cached_good : forall s root t path f, good_cache s -> ports root = Some t -> cached s (root ++ path) = Some f ->
  fields (whole t) path = Found f.
Proof.
  intros s root t path f G P C. unfold cached in C.
  destruct (find (fun e => path_eqb (fst e) (root ++ path)) (ss_cache s)) as [[p f']|] eqn:F; [|discriminate].
  inversion C; subst. apply find_some in F as [I E]. cbn in E. apply path_eqb_eq in E. subst p.
  destruct (G _ _ I) as (root' & t' & path' & P' & E & H). destruct (distinct _ _ _ _ _ _ P P' E) as [<- <-]. congruence.
Qed.
Lemma remember_good : forall s root t path f, good_cache s -> ports root = Some t -> fields (whole t) path = Found f ->
  good_cache (remember s (root ++ path) f).
Proof.
  intros s root t path f G P H p f' [E|I]; [|eauto]. inversion E; subst. exists root, t, path. auto.
Qed.

Lemma session_fields_ok : forall rest s root t path fr fr', good_cache s -> ss_owned s = true -> ports root = Some t ->
  fields (whole t) path = Found fr -> fields (whole t) (path ++ rest) = Found fr' ->
  exists s', session_fields s (root ++ path) fr rest = (Found fr', s') /\ good_cache s' /\ ss_owned s' = true.
Proof.
  induction rest as [|f rest IH]; intros s root t path fr fr' G O P H H'.
  - rewrite app_nil_r in H'. cbn. exists s. split; [congruence|auto].
  - cbn [session_fields]. replace (path ++ f :: rest) with ((path ++ [f]) ++ rest) in H' by (rewrite <- app_assoc; auto).
    assert (ST : exists fr1, fields (whole t) (path ++ [f]) = Found fr1).
    { clear - H'. revert H'. generalize (whole t). generalize (path ++ [f]). clear.
      induction l as [|g l IH]; intros fr H; cbn in *; [eauto|]. destruct (field_of_field fr g); try discriminate. eauto. }
    destruct ST as [fr1 S1]. unfold session_field. rewrite <- app_assoc.
    destruct (cached s (root ++ path ++ [f])) as [fc|] eqn:C.
    + pose proof (cached_good _ _ _ _ _ G P C) as Q. apply (IH s root t (path ++ [f]) fc fr'); auto.
    + rewrite O. assert (F1 : field_of_field fr f = Found fr1) by (rewrite fields_snoc, H in S1; auto). rewrite F1.
      eapply IH; [|exact O|exact P|exact S1|exact H']. eapply remember_good; eauto.
Qed.
Lemma requests_ok : forall qs s, good_cache s -> ss_owned s = true ->
  (forall root path, In (root, path) qs -> exists t fr, ports root = Some t /\ fields (whole t) path = Found fr) ->
  requests ports s qs = map (fun q => match ports (fst q) with
    | Some t => fields (whole t) (snd q) | None => NoSuchField end) qs.
Proof.
  induction qs as [|[root path] qs IH]; intros s G O Q; [reflexivity|]. cbn [requests map fst snd].
  destruct (Q root path (or_introl eq_refl)) as (t & fr & P & F). unfold request. cbn [fst snd]. rewrite P, F.
  assert (PF : exists s1, port_field s root t = (Found (whole t), s1) /\ good_cache s1 /\ ss_owned s1 = true).
  { unfold port_field. destruct (cached s root) as [f|] eqn:C.
    - rewrite <- (app_nil_r root) in C. pose proof (cached_good _ _ _ _ _ G P C) as E. cbn in E. inversion E; subst.
      exists s. auto.
    - rewrite O. eexists. split; [reflexivity|]. split; auto.
      replace root with (root ++ []) at 1 by apply app_nil_r. eapply remember_good; eauto. }
  destruct PF as (s1 & -> & G1 & O1).
  destruct (session_fields_ok path s1 root t [] (whole t) fr G1 O1 P eq_refl F) as (s2 & E & G2 & O2).
  rewrite app_nil_r in E. rewrite E. cbn [fst snd]. f_equal. apply IH; auto. intros. apply Q. right. auto.
Qed.
End Sessions.
Lemma unit_ports_distinct : forall output args root root' path path' t t',
  unit_ports output args root = Some t -> unit_ports output args root' = Some t' ->
  root ++ path = root' ++ path' -> root = root' /\ path = path'.
Proof.
  intros output args root root' path path' t t' H H' E.
  destruct root as [|r [|a [|? ?]]]; try discriminate; destruct root' as [|r' [|a' [|? ?]]]; try discriminate; cbn in *.
  - inversion E; auto.
  - inversion E; subst. destruct (r' =? "o")%string eqn:A; [|discriminate]. apply String.eqb_eq in A. subst. discriminate.
  - inversion E; subst. destruct (r' =? "o")%string eqn:A; [|discriminate]. apply String.eqb_eq in A. subst. discriminate.
  - inversion E; auto.
Qed.
