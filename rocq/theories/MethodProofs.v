(** Proofs about method resolution. *)
From Coq Require Import List ZArith Bool Arith Lia.
From Verif Require Import InferModel InferSpec InferChain InferState TypingModel TypingSpec TypingProofs BitsFacts MethodModel MethodSpec.
Import ListNotations.

Lemma Forall2_length {A B} (R : A -> B -> Prop) l m : Forall2 R l m -> length l = length m.
Proof. induction 1; cbn; auto. Qed.

(** ** The comparison on trees *)
Definition args_ov (f : tspec -> ty -> option overlap) (l : list tspec) (ts : list ty) : option overlap :=
  if length l =? length ts then all_overlap (map (fun p => fst p (snd p)) (combine (map f l) ts)) else Some No.
Fixpoint ov (s : tspec) (t : ty) {struct s} : option overlap :=
  match s with
  | TSGeneric _ => Some Yes
  | _ =>
      match s, t with
      | TSConst _, _ => None
      | TSBool a, TK (BBool b) _ => Some (if Bool.eqb a b then Yes else No)
      | TSInt a, TK (BInt b) _ => Some (if (a =? b)%Z then Yes else No)
      | TSStr a, TK (BStr b) _ => Some (if str_eqb a b then Yes else No)
      | _, TF _ _ => Some Maybe
      | TSBool _, _ | TSInt _, _ | TSStr _, _ => None
      | TSNamed n l, TK (BNamed m) ps => if n =? m then args_ov ov l ps else Some No
      | TSNamed _ _, _ => Some No
      | TSTuple l, TK BTuple ps => args_ov ov l ps
      | TSTuple _, _ => Some No
      | TSArray a b, TK BArray (p :: q :: _) => both_overlap (ov a p) (ov b q)
      | TSArray _ _, TK BArray _ => None
      | TSArray _ _, _ => Some No
      | TSInverted a, TK BInverted (p :: _) => ov a p
      | TSInverted _, TK BInverted [] => None
      | TSInverted _, _ => Some No
      | TSCopyView a, TK BCopyView (p :: _) => ov a p
      | TSCopyView _, TK BCopyView [] => None
      | TSCopyView _, _ => Some No
      | TSWildcard, _ | TSGeneric _, _ => None
      end
  end.

Lemma resolve_tree st v t : Resolves st v t ->
  match t with
  | TK b ts => exists ps, resolve st v = Some (Known b ps) /\ Forall2 (Resolves st) ps ts
  | TF n m => exists trs, resolve st v = Some (Unknown trs m)
  end.
Proof.
  intros H. destruct (resolves_ends _ _ _ H) as (r & E & R). rewrite (resolve_spec _ _ _ E).
  pose proof (ends_rep _ _ _ E) as K. inversion R; subst; try congruence; eauto.
Qed.

Lemma args_ov_ok st l : Forall (fun s => forall v t, Resolves st v t -> is_overlapping st s v = ov s t) l ->
  forall ps ts, Forall2 (Resolves st) ps ts -> args_overlap (is_overlapping st) l ps = args_ov ov l ts.
Proof.
  intros IH ps ts F. unfold args_overlap, args_ov. rewrite (Forall2_length _ _ _ F). destruct (length l =? length ts); auto.
  f_equal. revert l IH. induction F as [|p t ps ts R F IHF]; intros [|s l] IH; cbn; auto. inversion IH; subst. f_equal; auto.
Qed.
Lemma ov_ok st : forall s v t, Resolves st v t -> is_overlapping st s v = ov s t.
Proof.
  induction s as [z|b|x|e|n l IH|k|l IH|a b IHa IHb|a IHa|a IHa|] using tspec_ind'; intros v t R; cbn [is_overlapping ov]; auto;
    pose proof (resolve_tree _ _ _ R) as H; destruct t as [h ts|i m];
    try (destruct H as (trs & H); rewrite H; reflexivity); destruct H as (ps & H & F); rewrite H; try reflexivity;
    destruct h; try reflexivity.
  - destruct (n =? n0); auto. apply args_ov_ok; auto.
  - apply args_ov_ok; auto.
  - inversion F as [|p t ps' ts' R1 F1]; subst; [reflexivity|]. inversion F1 as [|q u ps2 ts2 R2 F2]; subst; [reflexivity|]. rewrite (IHa _ _ R1), (IHb _ _ R2). reflexivity.
  - inversion F as [|p t ps' ts' R1 F1]; subst; [reflexivity|]. auto.
  - inversion F as [|p t ps' ts' R1 F1]; subst; [reflexivity|]. auto.
Qed.

Lemma unview_tree st : forall t v fuel k, Resolves st v t -> tsize t < fuel ->
  match base_type t with
  | TK BCopyView _ => unview st fuel v k = None
  | TK b ts => exists raw ps, unview st fuel v k = Some (raw, Known b ps, k + views t) /\ Resolves st raw (TK b ts)
  | TF n m => exists raw trs, unview st fuel v k = Some (raw, Unknown trs m, k + views t) /\ Resolves st raw (TF n m)
  end.
Proof.
  fix IH 1. intros t v fuel k R L. destruct fuel as [|fuel]; [lia|]. pose proof (resolve_tree _ _ _ R) as H. cbn [unview].
  destruct t as [b ts|n m].
  - destruct H as (ps & H & F). rewrite H. destruct b; cbn [base_type views]; try (exists v, ps; rewrite Nat.add_0_r; auto; fail).
    destruct ts as [|t ts]; inversion F as [|x ? ? ? RX FX]; subst; [reflexivity|]. cbn [base_type views]. specialize (IH t x fuel (S k) RX).
    rewrite <- Nat.add_succ_comm. apply IH. cbn [tsize map list_sum fold_right] in L. lia.
  - destruct H as (trs & H). rewrite H. exists v, trs. cbn. rewrite Nat.add_0_r. auto.
Qed.

(** ** What the comparison means *)
Section Aliases.
Variable aliases : nat -> option tspec.

Lemma all_overlap_yes l : all_overlap l = Some Yes -> Forall (fun o => o = Some Yes) l.
Proof. induction l as [|[[]|] l IH]; cbn; intros H; try discriminate; constructor; auto. Qed.
Lemma all_overlap_yes' l : Forall (fun o => o = Some Yes) l -> all_overlap l = Some Yes.
Proof. induction 1 as [|o l H F IH]; cbn; auto. subst. auto. Qed.
Lemma all_overlap_no l : all_overlap l = Some No -> exists o, In o l /\ o = Some No.
Proof. induction l as [|[[]|] l IH]; cbn; intros H; try discriminate; eauto. destruct (IH H) as (o & I & E). eauto. Qed.
Lemma args_yes l ts : args_ov ov l ts = Some Yes <-> Forall2 (fun s t => ov s t = Some Yes) l ts.
Proof.
  unfold args_ov. split.
  - destruct (length l =? length ts) eqn:E; [|discriminate]. apply Nat.eqb_eq in E. intros H. apply all_overlap_yes in H.
    revert ts E H. induction l as [|s l IH]; intros [|t ts] E H; cbn in *; try discriminate; inversion H; subst; constructor; auto.
  - intros F. rewrite (Forall2_length _ _ _ F), Nat.eqb_refl. apply all_overlap_yes'. induction F; cbn; constructor; auto.
Qed.
Lemma args_no l ts : args_ov ov l ts = Some No -> length l = length ts -> exists k s t, nth_error l k = Some s /\ nth_error ts k = Some t /\ ov s t = Some No.
Proof.
  unfold args_ov. intros H E. rewrite E, Nat.eqb_refl in H. revert ts E H. induction l as [|s l IH]; intros [|t ts] E H; cbn in *; try discriminate.
  destruct (ov s t) as [[]|] eqn:O; try discriminate.
  - injection E as E. destruct (IH ts E H) as (k & s' & t' & A & B & C). exists (S k), s', t'. auto.
  - exists 0, s, t. auto.
Qed.

Lemma subst_length th (l : list ty) : length (map (subst th) l) = length l.
Proof. apply map_length. Qed.

(** A sure no stays one and excludes the type. *)
Lemma ov_no : forall s t, no_alias aliases s -> ov s t = Some No -> forall th g, ~ matches aliases g s (subst th t).
Proof.
  induction s as [z|b|x|e|n l IH|k|l IH|a b IHa IHb|a IHa|a IHa|] using tspec_ind'; intros t NA H th g M; cbn [ov] in H; try discriminate; cbn [no_alias] in NA;
    destruct t as [h ts|i m]; try discriminate; cbn [subst] in M; inversion M; subst; cbn in H; try discriminate.
  - destruct (Z.eqb_spec z z) in H; congruence.
  - rewrite eqb_reflx in H. discriminate.
  - unfold str_eqb in H. destruct (list_eq_dec Nat.eq_dec x x); congruence.
  - rewrite Nat.eqb_refl in H. match goal with X : Forall2 _ l _ |- _ => rename X into F end.
    destruct (args_no _ _ H) as (k & s & t & A & B & C); [rewrite (Forall2_length _ _ _ F), map_length; reflexivity|].
    destruct NA as [_ NA]. assert (ALL : no_alias aliases s).
    { apply nth_error_In in A. clear - NA A. induction l; cbn in *; [destruct A|]. destruct NA, A; subst; auto. }
    rewrite Forall_forall in IH. apply (IH s (nth_error_In _ _ A) t ALL C th g).
    clear - F A B. revert k A B. remember (map (subst th) ts) as us eqn:E. revert ts E. induction F; intros ts E k A B; [destruct k; discriminate|].
    destruct ts as [|t0 ts]; [discriminate|]. cbn in E. injection E as -> ->. destruct k; cbn in A, B.
    + apply Some_inj in A, B. subst. auto.
    + eauto.
  - destruct NA as [NA _]. congruence.
  - match goal with X : Forall2 _ l _ |- _ => rename X into F end.
    destruct (args_no _ _ H) as (k & s & t & A & B & C); [rewrite (Forall2_length _ _ _ F), map_length; reflexivity|].
    assert (ALL : no_alias aliases s).
    { apply nth_error_In in A. clear - NA A. induction l; cbn in *; [destruct A|]. destruct NA, A; subst; auto. }
    rewrite Forall_forall in IH. apply (IH s (nth_error_In _ _ A) t ALL C th g).
    clear - F A B. revert k A B. remember (map (subst th) ts) as us eqn:E. revert ts E. induction F; intros ts E k A B; [destruct k; discriminate|].
    destruct ts as [|t0 ts]; [discriminate|]. cbn in E. injection E as -> ->. destruct k; cbn in A, B.
    + apply Some_inj in A, B. subst. auto.
    + eauto.
  - destruct ts as [|p [|q [|? ?]]]; try discriminate. match goal with E : _ :: _ = _ |- _ => cbn in E; injection E as -> -> end. destruct NA as [NA NB].
    unfold both_overlap in H. destruct (ov a p) as [[]|] eqn:O1; destruct (ov b q) as [[]|] eqn:O2; cbn in H; try discriminate; try (eapply IHa; eauto; fail); eapply IHb; eauto.
  - destruct ts as [|p [|? ?]]; try discriminate. match goal with E : _ :: _ = _ |- _ => cbn in E; injection E as -> end. eapply IHa; eauto.
  - destruct ts as [|p [|? ?]]; try discriminate. match goal with E : _ :: _ = _ |- _ => cbn in E; injection E as -> end. eapply IHa; eauto.
Qed.

Section Kinded.
Variable kinds : nat -> list meta.
Definition shaped (t : ty) : Prop := type_tree kinds t \/ exists m, arg_tree kinds m t.
Lemma arg_shaped m t : arg_tree kinds m t -> shaped t.
Proof. right. eauto. Qed.
Lemma shaped_named n ts : shaped (TK (BNamed n) ts) -> Forall shaped ts.
Proof.
  assert (L : forall ms, Forall2 (arg_tree kinds) ms ts -> Forall shaped ts) by (intros ms F; induction F; constructor; auto; eapply arg_shaped; eauto).
  intros [H|[m H]]; inversion H; subst; eauto. match goal with X : type_tree _ _ |- _ => inversion X; subst; eauto end.
Qed.
Lemma shaped_tuple ts : shaped (TK BTuple ts) -> Forall shaped ts.
Proof.
  assert (L : Forall (type_tree kinds) ts -> Forall shaped ts) by (intros F; induction F; constructor; auto; left; auto).
  intros [H|[m H]]; inversion H; subst; auto. match goal with X : type_tree _ _ |- _ => inversion X; subst; auto end.
Qed.
Lemma shaped_array ts : shaped (TK BArray ts) -> exists t u, ts = [t; u] /\ shaped t /\ shaped u.
Proof.
  intros [H|[m H]]; [inversion H; subst|inversion H; subst; match goal with X : type_tree _ _ |- _ => inversion X; subst end];
    do 2 eexists; (split; [reflexivity|]); split; solve [left; eauto | eapply arg_shaped; eauto].
Qed.
Lemma shaped_inverted ts : shaped (TK BInverted ts) -> exists t, ts = [t] /\ shaped t.
Proof. intros [H|[m H]]; [inversion H; subst|inversion H; subst; match goal with X : type_tree _ _ |- _ => inversion X; subst end]; eexists; (split; [reflexivity|]); left; eauto. Qed.
Lemma shaped_view ts : shaped (TK BCopyView ts) -> exists t, ts = [t] /\ shaped t.
Proof. intros [H|[m H]]; [inversion H; subst|inversion H; subst; match goal with X : type_tree _ _ |- _ => inversion X; subst end]; eexists; (split; [reflexivity|]); left; eauto. Qed.
Lemma shaped_value b ts : shaped (TK b ts) -> match b with BInt _ | BBool _ | BStr _ => ts = [] | _ => True end.
Proof.
  destruct b; auto; intros [H|[m H]]; try (inversion H; fail); inversion H; subst; auto; match goal with X : type_tree _ _ |- _ => inversion X end.
Qed.

Lemma matches_ext g g' : forall s t, no_alias aliases s -> (forall k, In k (params s) -> g k = g' k) -> matches aliases g s t -> matches aliases g' s t.
Proof.
  induction s as [z|b|x|e|n l IH|k|l IH|a b IHa IHb|a IHa|a IHa|] using tspec_ind'; intros t NA E M; inversion M; subst; try (constructor; auto; fail); cbn [no_alias params] in *.
  - constructor; auto. destruct NA as [_ NA]. match goal with X : Forall2 _ l _ |- _ => rename X into F end. clear M.
    induction F as [|s t l ts X F IHF]; constructor.
    + inversion IH; subst. destruct NA. apply H2; auto. intros; apply E. cbn. apply in_or_app. auto.
    + inversion IH; subst. destruct NA. apply IHF; auto. intros; apply E. cbn. apply in_or_app. auto.
  - destruct NA. congruence.
  - rewrite (E k) by (cbn; auto). constructor.
  - constructor. match goal with X : Forall2 _ l _ |- _ => rename X into F end. clear M.
    induction F as [|s t l ts X F IHF]; constructor.
    + inversion IH; subst. destruct NA. apply H1; auto. intros; apply E. cbn. apply in_or_app. auto.
    + inversion IH; subst. destruct NA. apply IHF; auto. intros; apply E. cbn. apply in_or_app. auto.
  - destruct NA. constructor; [apply IHa | apply IHb]; auto; intros; apply E; apply in_or_app; auto.
Qed.

Lemma join (l1 l2 : list nat) (g1 g2 : nat -> ty) : (forall k, In k l1 -> ~ In k l2) ->
  exists g, (forall k, In k l1 -> g1 k = g k) /\ (forall k, In k l2 -> g2 k = g k).
Proof.
  intros D. exists (fun k => if in_dec Nat.eq_dec k l1 then g1 k else g2 k). split; intros k I; destruct (in_dec Nat.eq_dec k l1); try tauto. destruct (D k); auto.
Qed.
Lemma NoDup_app_inv {A} (l m : list A) : NoDup (l ++ m) -> NoDup l /\ NoDup m /\ forall x, In x l -> ~ In x m.
Proof.
  induction l as [|a l IH]; cbn; intros H; [split; [constructor|]; split; auto|]. inversion H; subst. destruct (IH H3) as (A1 & A2 & A3).
  split; [constructor; auto; intros X; apply H2; apply in_or_app; auto|]. split; auto. intros x [<-|I]; auto. intros X. apply H2. apply in_or_app. auto.
Qed.

(** A sure yes is a match. *)
Lemma list_yes th l : Forall (fun s => forall t, no_alias aliases s -> NoDup (params s) -> shaped t -> ov s t = Some Yes -> exists g, matches aliases g s (subst th t)) l ->
  forall ts, fold_right and True (map (no_alias aliases) l) -> NoDup (flat_map params l) -> Forall shaped ts -> Forall2 (fun s t => ov s t = Some Yes) l ts ->
  exists g, Forall2 (matches aliases g) l (map (subst th) ts).
Proof.
  induction 1 as [|s l H F IH]; intros ts NA ND SH Y; inversion Y as [|? t ? ts' Y1 Y2]; subst; [exists (fun _ => TK BTuple []); constructor|].
  cbn in NA, ND. destruct NA as [NA NAs]. apply NoDup_app_inv in ND as (N1 & N2 & N3). inversion SH; subst.
  destruct (H t NA N1) as (g1 & G1); auto. destruct (IH ts' NAs N2) as (g2 & G2); auto.
  destruct (join _ _ g1 g2 N3) as (g & J1 & J2). exists g. cbn. constructor; [eapply matches_ext; eauto|].
  clear - G2 J2 NAs. revert J2 NAs. induction G2; intros J2 NAs; constructor; cbn in NAs; destruct NAs.
  - apply (matches_ext g2); auto. intros; apply J2. cbn. apply in_or_app. auto.
  - apply IHG2; auto. intros; apply J2. cbn. apply in_or_app. auto.
Qed.
Lemma ov_yes th : forall s t, no_alias aliases s -> NoDup (params s) -> shaped t -> ov s t = Some Yes -> exists g, matches aliases g s (subst th t).
Proof.
  induction s as [z|b|x|e|n l IH|k|l IH|a b IHa IHb|a IHa|a IHa|] using tspec_ind'; intros t NA ND SH Y; cbn [no_alias params] in *; cbn [ov] in Y;
    try (exists (fun _ => subst th t); constructor; fail); destruct t as [h ts|i m]; try discriminate; destruct h as [c|c|c|c| | | | |]; try discriminate; cbn [subst].
  - destruct (Z.eqb_spec z c); try discriminate. subst. pose proof (shaped_value _ _ SH) as ->. exists (fun _ => TK BTuple []). constructor.
  - destruct (eqb b c) eqn:E; try discriminate. apply eqb_prop in E. subst. pose proof (shaped_value _ _ SH) as ->. exists (fun _ => TK BTuple []). constructor.
  - unfold str_eqb in Y. destruct (list_eq_dec Nat.eq_dec x c); try discriminate. subst. pose proof (shaped_value _ _ SH) as ->. exists (fun _ => TK BTuple []). constructor.
  - destruct (Nat.eqb_spec n c); try discriminate. subst. apply args_yes in Y. destruct NA as [NA NAs].
    destruct (list_yes th l IH ts NAs ND (shaped_named _ _ SH) Y) as (g & G). exists g. constructor; auto.
  - apply args_yes in Y. destruct (list_yes th l IH ts NA ND (shaped_tuple _ SH) Y) as (g & G). exists g. constructor; auto.
  - destruct (shaped_array _ SH) as (t & u & -> & S1 & S2). unfold both_overlap in Y. destruct (ov a t) as [[]|] eqn:O1; destruct (ov b u) as [[]|] eqn:O2; cbn in Y; try discriminate.
    destruct NA as [N1 N2]. apply NoDup_app_inv in ND as (D1 & D2 & D3). destruct (IHa t N1 D1 S1 O1) as (g1 & G1). destruct (IHb u N2 D2 S2 O2) as (g2 & G2).
    destruct (join _ _ g1 g2 D3) as (g & J1 & J2). exists g. constructor; eapply matches_ext; eauto.
  - destruct (shaped_inverted _ SH) as (t & -> & S1). destruct (IHa t NA ND S1 Y) as (g & G). exists g. constructor. auto.
  - destruct (shaped_view _ SH) as (t & -> & S1). destruct (IHa t NA ND S1 Y) as (g & G). exists g. constructor. auto.
Qed.

(** Kinds rule out crashes. *)
Lemma ov_some : forall s, (forall t, type_spec kinds s -> type_tree kinds t -> ov s t <> None) /\
  (forall m t, arg_spec kinds m s -> arg_tree kinds m t -> ov s t <> None).
Proof.
  assert (LIST : forall (P : tspec -> ty -> Prop) l ts, (forall s t, In s l -> P s t -> ov s t <> None) -> Forall2 P l ts -> args_ov ov l ts <> None).
  { intros P l ts H F. unfold args_ov. rewrite (Forall2_length _ _ _ F), Nat.eqb_refl. induction F as [|s t l ts X F IHF]; cbn; [discriminate|].
    specialize (H s t (or_introl eq_refl) X) as H1. destruct (ov s t) as [[]|]; try discriminate; try congruence. apply IHF. intros; apply H; cbn; auto. }
  assert (EITHER : forall s, (forall t, type_spec kinds s -> type_tree kinds t -> ov s t <> None) -> 
    (forall m t, arg_spec kinds m s -> arg_tree kinds m t -> match s with TSInt _ | TSBool _ | TSStr _ => ov s t <> None | _ => True end) ->
    (forall t, type_spec kinds s -> type_tree kinds t -> ov s t <> None) /\ (forall m t, arg_spec kinds m s -> arg_tree kinds m t -> ov s t <> None)).
  { intros s A B. split; auto. intros m t X Y. specialize (B m t X Y). inversion X; subst; auto; [|cbn; discriminate].
    inversion Y; subst; auto; try (match goal with H : number_kind MType |- _ => destruct H as [?|[?|?]]; discriminate end).
    apply A; auto. constructor. }
  induction s as [z|b|x|e|n l IH|k|l IH|a b IHa IHb|a IHa|a IHa|] using tspec_ind'; apply EITHER; try (intros; exact Logic.I); try (intros t TS; inversion TS; fail).
  - intros m t A B. inversion A; subst; try (match goal with X : type_spec _ _ |- _ => inversion X; fail end). match goal with H : number_kind m |- _ => rename H into N end.
    inversion B; subst; cbn; try discriminate; destruct N as [?|[?|?]]; discriminate.
  - intros m t A B. inversion A; subst; try (match goal with X : type_spec _ _ |- _ => inversion X; fail end). inversion B; subst; cbn; try discriminate. match goal with H : number_kind MBool |- _ => destruct H as [?|[?|?]]; discriminate end.
  - intros m t A B. inversion A; subst; try (match goal with X : type_spec _ _ |- _ => inversion X; fail end). inversion B; subst; cbn; try discriminate. match goal with H : number_kind MStr |- _ => destruct H as [?|[?|?]]; discriminate end.
  - intros t TS TT. inversion TS as [|? ? F1| | | |]; subst. destruct TT as [v m|c ts F2| | | |]; cbn; try discriminate.
    destruct (Nat.eqb_spec n c); [|discriminate]. subst. 
    apply (LIST (fun s t => exists m, arg_spec kinds m s /\ arg_tree kinds m t)).
    + intros s t I (m & A & B). rewrite Forall_forall in IH. eapply IH; eauto.
    + clear - F1 F2. revert ts F2. induction F1; intros ts F2; inversion F2; subst; constructor; eauto.
  - intros t _ _. cbn. discriminate.
  - intros t TS TT. inversion TS as [| |? F1| | |]; subst. destruct TT as [v m|c ts F2|ts F2| | |]; cbn; try discriminate.
    unfold args_ov. destruct (Nat.eqb_spec (length l) (length ts)) as [E|]; [|discriminate].
    assert (X : args_ov ov l ts <> None); [|unfold args_ov in X; rewrite E, Nat.eqb_refl in X; exact X].
    apply (LIST (fun s t => type_spec kinds s /\ type_tree kinds t)).
    + intros s t I [A B]. rewrite Forall_forall in IH. apply IH; auto.
    + clear - F1 F2 E. revert ts F2 E. induction F1; intros [|t ts] F2 E; cbn in E; try discriminate; constructor; inversion F2; subst; auto.
  - intros t TS TT. inversion TS; subst. destruct TT as [v m|c ts F2|ts F2|p q TP TQ| |]; cbn; try discriminate.
    unfold both_overlap. destruct (ov a p) as [[]|] eqn:O1; [| | |exfalso; apply (proj1 IHa p); auto]; (destruct (ov b q) as [[]|] eqn:O2; [| | |exfalso; eapply (proj2 IHb MUint q); eauto]); discriminate.
  - intros t TS TT. inversion TS; subst. destruct TT; cbn; try discriminate. apply (proj1 IHa); auto.
  - intros t TS TT. inversion TS; subst. destruct TT; cbn; try discriminate. apply (proj1 IHa); auto.
Qed.
End Kinded.

(** Learning more keeps a sure answer. *)
Lemma ov_keeps_yes th : forall s t, ov s t = Some Yes -> ov s (subst th t) = Some Yes.
Proof.
  assert (LIST : forall l, Forall (fun s => forall t, ov s t = Some Yes -> ov s (subst th t) = Some Yes) l -> forall ts, args_ov ov l ts = Some Yes -> args_ov ov l (map (subst th) ts) = Some Yes).
  { intros l IH ts H. apply args_yes in H. apply args_yes. induction H; cbn; constructor; inversion IH; subst; auto. }
  induction s as [z|b|x|e|n l IH|k|l IH|a b IHa IHb|a IHa|a IHa|] using tspec_ind'; intros t H; cbn [ov] in *; auto; destruct t as [h ts|i m]; try discriminate; cbn [subst]; destruct h; auto; try discriminate.
  - destruct (n =? n0); auto.
  - destruct ts as [|p [|q ts]]; try discriminate. cbn [map]. unfold both_overlap in *. destruct (ov a p) as [[]|] eqn:O1; destruct (ov b q) as [[]|] eqn:O2; cbn in H; try discriminate.
    rewrite (IHa _ O1), (IHb _ O2). reflexivity.
  - destruct ts; cbn [map]; auto.
  - destruct ts; cbn [map]; auto.
Qed.
Lemma ov_keeps_no th : forall s t, ov s t = Some No -> ov s (subst th t) = Some No \/ ov s (subst th t) = None.
Proof.
  assert (LIST : forall l, Forall (fun s => forall t, ov s t = Some No -> ov s (subst th t) = Some No \/ ov s (subst th t) = None) l ->
    forall ts, args_ov ov l ts = Some No -> args_ov ov l (map (subst th) ts) = Some No \/ args_ov ov l (map (subst th) ts) = None).
  { intros l IH ts H. unfold args_ov in *. rewrite map_length. destruct (length l =? length ts); auto. revert ts H.
    induction IH as [|s l IHs IH IHl]; intros [|t ts] H; cbn in *; try discriminate.
    destruct (ov s t) as [[]|] eqn:O; try discriminate.
    - rewrite (ov_keeps_yes th _ _ O). auto.
    - destruct (IHs _ O) as [-> | ->]; auto. }
  induction s as [z|b|x|e|n l IH|k|l IH|a b IHa IHb|a IHa|a IHa|] using tspec_ind'; intros t H; cbn [ov] in *; auto; destruct t as [h ts|i m]; try discriminate; cbn [subst]; destruct h; auto; try discriminate.
  - destruct (n =? n0); auto.
  - destruct ts as [|p [|q ts]]; try discriminate. cbn [map]. unfold both_overlap in *. destruct (ov a p) as [[]|] eqn:O1; destruct (ov b q) as [[]|] eqn:O2; cbn in H; try discriminate.
    + rewrite (ov_keeps_yes th _ _ O1). destruct (IHb _ O2) as [-> | ->]; auto.
    + destruct (IHa _ O1) as [-> | ->]; auto. rewrite (ov_keeps_yes th _ _ O2). auto.
    + destruct (IHa _ O1) as [-> | ->]; auto. destruct (IHb _ O2) as [-> | ->]; auto.
    + destruct (IHa _ O1) as [-> | ->]; auto. destruct (ov b (subst th q)); auto.
  - destruct ts; cbn [map]; auto.
  - destruct ts; cbn [map]; auto.
Qed.
End Aliases.

(** ** Selection *)
Definition offers_t (t : ty) (m : nat) (bs : list block) : list (block * nat * selfness * option overlap) :=
  flat_map (fun b => flat_map (fun x => if fst x =? m then [(b, fst (snd x), snd (snd x), ov (bl_target b) t)] else []) (bl_fns b)) bs.
Definition pick (t : ty) (blocks : list block) (m : nat) (takes : bool) (layers : nat) : selection :=
  match t with
  | TK BCopyView _ => Crash
  | TF _ _ => NoMethods
  | TK b _ =>
      match into_impl_target b with
      | None => NoMethods
      | Some target =>
          let os := offers_t t m (table blocks target) in
          if existsb (says None) os then Crash
          else if existsb (says (Some Maybe)) os then Wait
          else
            let delta := (- Z.of_nat layers)%Z in
            match filter (says (Some Yes)) os with
            | [] => NoMethod
            | [(_, f, s, _)] => with_self f s takes delta
            | many =>
                match List.find (fun x => bl_anonymous (fst (fst (fst x)))) many with
                | Some (_, f, s, _) => with_self f s takes delta
                | None => TooMany
                end
            end
      end
  end.
Lemma offers_ok st m v t bs : Resolves st v t -> offers st m v bs = offers_t t m bs.
Proof.
  intros R. unfold offers, offers_t. apply flat_map_ext. intros b. apply flat_map_ext. intros x. rewrite (ov_ok st _ _ _ R). reflexivity.
Qed.
Lemma unview_some st : forall fuel v k t raw tv n, Resolves st v t -> unview st fuel v k = Some (raw, tv, n) ->
  n = k + views t /\ Resolves st raw (base_type t) /\ match base_type t with TK BCopyView _ => False | TK b _ => exists ps, tv = Known b ps | TF _ m => exists trs, tv = Unknown trs m end.
Proof.
  induction fuel as [|fuel IH]; intros v k t raw tv n R H; [discriminate|]. cbn [unview] in H. pose proof (resolve_tree _ _ _ R) as T. destruct t as [b ts|i m].
  - destruct T as (ps & T & F). rewrite T in H. destruct b; try (apply Some_inj in H; injection H as <- <- <-; cbn; rewrite Nat.add_0_r; split; auto; split; auto; eauto; fail).
    destruct ts as [|t ts]; inversion F as [|p ? ps' ? RX FX]; subst; [discriminate|]. cbn [base_type views].
    destruct (IH _ _ _ _ _ _ RX H) as (A & B & C). split; [lia|]. auto.
  - destruct T as (trs & T). rewrite T in H. apply Some_inj in H. injection H as <- <- <-. cbn. rewrite Nat.add_0_r. split; auto. split; auto. eauto.
Qed.
Lemma select_pick_gen st raw tv n t blocks m takes :
  Resolves st raw t -> match t with TK BCopyView _ => False | TK b _ => exists ps, tv = Known b ps | TF _ m => exists trs, tv = Unknown trs m end ->
  match match tv with Known b _ => into_impl_target b | Unknown _ _ => None end with
      | None => NoMethods
      | Some target =>
          let os := offers st m raw (table blocks target) in
          if existsb (says None) os then Crash
          else if existsb (says (Some Maybe)) os then Wait
          else
            let delta := (- Z.of_nat n)%Z in
            match filter (says (Some Yes)) os with
            | [] => NoMethod
            | [(_, f, s, _)] => with_self f s takes delta
            | many =>
                match List.find (fun x => bl_anonymous (fst (fst (fst x)))) many with
                | Some (_, f, s, _) => with_self f s takes delta
                | None => TooMany
                end
            end
      end = pick t blocks m takes n.
Proof.
  intros R H. unfold pick. destruct t as [b ts|i k]; [|destruct H as (trs & ->); reflexivity].
  destruct b; try contradiction; destruct H as (ps & ->); cbn [into_impl_target]; try reflexivity; rewrite (offers_ok _ _ _ _ _ R); reflexivity.
Qed.
Lemma select_pick st fuel blocks v m takes t r : Resolves st v t -> select_method st fuel blocks v m takes = r -> r <> Crash -> pick (base_type t) blocks m takes (views t) = r.
Proof.
  intros R H N. unfold select_method in H. destruct (unview st fuel v 0) as [[[raw tv] n]|] eqn:U; [|congruence].
  destruct (unview_some _ _ _ _ _ _ _ _ R U) as (E & R' & K). cbn in E. subst n. rewrite <- H. symmetry. apply select_pick_gen; auto.
Qed.
Lemma pick_select st fuel blocks v m takes t : Resolves st v t -> tsize t < fuel -> select_method st fuel blocks v m takes = pick (base_type t) blocks m takes (views t).
Proof.
  intros R L. unfold select_method. pose proof (unview_tree st t v fuel 0 R L) as U. destruct (base_type t) as [b ts|i k] eqn:E.
  - destruct b; try (rewrite U; reflexivity); destruct U as (raw & ps & U & R'); rewrite U; match type of U with _ = Some (_, ?tv, _) => exact (select_pick_gen st raw tv (views t) _ blocks m takes R' (ex_intro _ ps eq_refl)) end.
  - destruct U as (raw & trs & U & R'). rewrite U. match type of U with _ = Some (_, ?tv, _) => exact (select_pick_gen st raw tv (views t) _ blocks m takes R' (ex_intro _ trs eq_refl)) end.
Qed.

Lemma in_offers t m bs b f s o : In (b, f, s, o) (offers_t t m bs) <-> In b bs /\ has_method b m f s /\ o = ov (bl_target b) t.
Proof.
  unfold offers_t, has_method. rewrite in_flat_map. split.
  - intros (b' & I & J). apply in_flat_map in J as ((k & f' & s') & J & K). cbn in K. destruct (Nat.eqb_spec k m); [|destruct K]. destruct K as [K|[]]. injection K as <- <- <- <-. subst. auto.
  - intros (I & J & ->). exists b. split; auto. apply in_flat_map. exists (m, (f, s)). split; auto. cbn. rewrite Nat.eqb_refl. now left.
Qed.
Lemma in_table blocks k b : In b (table blocks k) <-> In b blocks /\ target_of (bl_target b) = Some k.
Proof.
  unfold table. rewrite filter_In. split; intros [A B]; split; auto.
  - destruct (target_of (bl_target b)) as [k'|]; [|discriminate]. f_equal. destruct k', k; cbn in B; try discriminate; auto. apply Nat.eqb_eq in B. subst. auto.
  - rewrite B. destruct k; cbn; auto. apply Nat.eqb_refl.
Qed.
Lemma says_eq o x : says o x = true <-> snd x = o.
Proof. destruct x as [[[b f] s] [[]|]], o as [[]|]; cbn; split; intros H; try discriminate; auto; congruence. Qed.
Lemma existsb_says o l : existsb (says o) l = false -> forall x, In x l -> snd x <> o.
Proof. intros H x I E. apply says_eq in E. assert (existsb (says o) l = true) by (apply existsb_exists; eauto). congruence. Qed.

Lemma applies_target aliases b h ts : target_of (bl_target b) <> None -> no_alias aliases (bl_target b) -> applies aliases b (TK h ts) -> target_of (bl_target b) = into_impl_target h.
Proof. intros T N (g & M). destruct (bl_target b); cbn in T; try congruence; inversion M; subst; auto. cbn in N. destruct N. congruence. Qed.

Section Program.
Variable aliases : nat -> option tspec.
Variable kinds : nat -> list meta.
Variable blocks : list block.
Hypothesis WF : well_formed aliases kinds blocks.
Lemma wf b : In b blocks -> target_of (bl_target b) <> None /\ no_alias aliases (bl_target b) /\ type_spec kinds (bl_target b).
Proof. unfold well_formed in WF. rewrite Forall_forall in WF. apply WF. Qed.

(** A block that may apply is among the offers, and not ruled out. *)
Lemma offered h ts m th b f s k : into_impl_target h = Some k -> In b blocks -> has_method b m f s -> applies aliases b (subst th (TK h ts)) ->
  In (b, f, s, ov (bl_target b) (TK h ts)) (offers_t (TK h ts) m (table blocks k)) /\ ov (bl_target b) (TK h ts) <> Some No.
Proof.
  intros K I M A. destruct (wf b I) as (T & N & _). split.
  - apply in_offers. split; auto. apply in_table. split; auto. rewrite <- K. eapply applies_target; eauto.
  - intros E. destruct A as (g & A). eapply ov_no; eauto.
Qed.
Lemma no_target h ts th b f s m : into_impl_target h = None -> In b blocks -> has_method b m f s -> ~ applies aliases b (subst th (TK h ts)).
Proof. intros K I _ A. destruct (wf b I) as (T & N & _). apply applies_target in A; auto. congruence. Qed.

Lemma pick_chosen h ts m takes n f d : Forall linear blocks -> shaped kinds (TK h ts) -> pick (TK h ts) blocks m takes n = Chosen f d ->
  exists b s, In b blocks /\ has_method b m f s /\ (takes = true <-> s <> SelfStatic) /\ (Z.of_nat n + d = wanted s)%Z /\
    forall th, applies aliases b (subst th (TK h ts)) /\
      forall b' f' s', In b' blocks -> has_method b' m f' s' -> applies aliases b' (subst th (TK h ts)) -> (b', f', s') = (b, f, s) \/ bl_anonymous b = true.
Proof.
  intros LI SH H. unfold pick in H.
  assert (SELF : forall f0 s0, with_self f0 s0 takes (- Z.of_nat n) = Chosen f d -> f0 = f /\ (takes = true <-> s0 <> SelfStatic) /\ (Z.of_nat n + d = wanted s0)%Z).
  { intros f0 s0 W. unfold with_self in W. destruct takes, s0; try discriminate; injection W as <- <-; (split; [reflexivity|]); cbn [wanted]; (split; [split; congruence | lia]). }
  assert (H' : match into_impl_target h with None => NoMethods | Some target =>
     let os := offers_t (TK h ts) m (table blocks target) in
          if existsb (says None) os then Crash
          else if existsb (says (Some Maybe)) os then Wait
          else
            let delta := (- Z.of_nat n)%Z in
            match filter (says (Some Yes)) os with
            | [] => NoMethod
            | [(_, f, s, _)] => with_self f s takes delta
            | many =>
                match List.find (fun x => bl_anonymous (fst (fst (fst x)))) many with
                | Some (_, f, s, _) => with_self f s takes delta
                | None => TooMany
                end
            end end = Chosen f d) by (destruct h; auto; discriminate).
  clear H. rename H' into H. destruct (into_impl_target h) as [k|] eqn:K; [|discriminate]. cbv zeta in H.
  set (os := offers_t (TK h ts) m (table blocks k)) in *.
  destruct (existsb (says None) os) eqn:E1; [discriminate|]. destruct (existsb (says (Some Maybe)) os) eqn:E2; [discriminate|].
  assert (YES : forall th b' f' s', In b' blocks -> has_method b' m f' s' -> applies aliases b' (subst th (TK h ts)) -> In (b', f', s', Some Yes) (filter (says (Some Yes)) os)).
  { intros th b' f' s' I M A. destruct (offered h ts m th b' f' s' k K I M A) as [O NO]. pose proof (existsb_says _ _ E1 _ O) as N1. pose proof (existsb_says _ _ E2 _ O) as N2. cbn in N1, N2.
    apply filter_In. destruct (ov (bl_target b') (TK h ts)) as [[]|] eqn:V; try congruence. split; auto. }
  assert (BACK : forall b0 f0 s0 o0, In (b0, f0, s0, o0) (filter (says (Some Yes)) os) -> In b0 blocks /\ has_method b0 m f0 s0 /\ forall th, applies aliases b0 (subst th (TK h ts))).
  { intros b0 f0 s0 o0 I. apply filter_In in I as [I S]. apply says_eq in S. cbn in S. subst o0. apply in_offers in I as (I & M & V). apply in_table in I as [I _]. split; auto. split; auto.
    intros th. destruct (wf b0 I) as (_ & N & _). rewrite Forall_forall in LI. destruct (ov_yes aliases kinds th _ _ N (LI b0 I) SH (eq_sym V)) as (g & G). exists g. auto. }
  destruct (filter (says (Some Yes)) os) as [|[[[b0 f0] s0] o0] [|y rest]] eqn:FL; [discriminate| |].
  - destruct (SELF _ _ H) as (-> & S1 & S2). destruct (BACK b0 f s0 o0 (or_introl eq_refl)) as (I & M & A). exists b0, s0. repeat (split; [assumption|]).
    intros th. split; auto. intros b' f' s' I' M' A'. left. destruct (YES th b' f' s' I' M' A') as [X|[]]. congruence.
  - destruct (List.find _ _) as [[[[b1 f1] s1] o1]|] eqn:FD; [|discriminate]. destruct (SELF _ _ H) as (-> & S1 & S2). apply find_some in FD as [I1 AN]. cbn in AN.
    destruct (BACK _ _ _ _ I1) as (I & M & A). exists b1, s1. repeat (split; [assumption|]). intros th. split; auto.
Qed.

Lemma pick_missing h ts m takes n : pick (TK h ts) blocks m takes n = NoMethod \/ pick (TK h ts) blocks m takes n = NoMethods ->
  forall th b f s, In b blocks -> has_method b m f s -> ~ applies aliases b (subst th (TK h ts)).
Proof.
  intros H th b f s I M A. unfold pick in H. destruct (into_impl_target h) as [k|] eqn:K; [|eapply no_target; eauto].
  destruct (offered h ts m th b f s k K I M A) as [O NO].
  set (os := offers_t (TK h ts) m (table blocks k)) in *.
  assert (H' : (if existsb (says None) os then true else if existsb (says (Some Maybe)) os then true else match filter (says (Some Yes)) os with [] => false | _ => true end) = false).
  { assert (WS : forall f s, with_self f s takes (- Z.of_nat n) <> NoMethod /\ with_self f s takes (- Z.of_nat n) <> NoMethods) by (intros ? []; destruct takes; cbn; split; discriminate).
    destruct h; cbn in K; try discriminate; destruct (existsb (says None) os); try (destruct H; discriminate); destruct (existsb (says (Some Maybe)) os); try (destruct H; discriminate);
      (destruct (filter (says (Some Yes)) os) as [|[[[b0 f0] s0] o0] [|y rest]]; [reflexivity| |]; 
       [destruct (WS f0 s0), H; congruence | destruct (List.find _ _) as [[[[b1 f1] s1] o1]|]; [destruct (WS f1 s1), H; congruence | destruct H; discriminate]]). }
  destruct (existsb (says None) os) eqn:E1; [discriminate|]. destruct (existsb (says (Some Maybe)) os) eqn:E2; [discriminate|].
  pose proof (existsb_says _ _ E1 _ O) as N1. pose proof (existsb_says _ _ E2 _ O) as N2. cbn in N1, N2.
  assert (J : In (b, f, s, ov (bl_target b) (TK h ts)) (filter (says (Some Yes)) os)).
  { apply filter_In. split; auto. apply says_eq. cbn. destruct (ov (bl_target b) (TK h ts)) as [[]|]; congruence. }
  destruct (filter (says (Some Yes)) os); [destruct J | discriminate].
Qed.

(** Several matches come from several blocks. *)
Lemma offers_blocks t m bs : (forall b, In b bs -> NoDup (map fst (bl_fns b))) -> NoDup bs -> NoDup (map (fun x => fst (fst (fst x))) (offers_t t m bs)).
Proof.
  intros K ND. induction ND as [|b bs NI ND IH]; [constructor|]. unfold offers_t in *. cbn [flat_map]. rewrite map_app.
  specialize (K b (or_introl eq_refl)) as KB. specialize (IH (fun b I => K b (or_intror I))).
  assert (ONE : exists l, map (fun x : block * nat * selfness * option overlap => fst (fst (fst x))) (flat_map (fun x => if fst x =? m then [(b, fst (snd x), snd (snd x), ov (bl_target b) t)] else []) (bl_fns b)) = l /\ (l = [] \/ l = [b])).
  { eexists. split; [reflexivity|]. clear - KB. induction (bl_fns b) as [|[k fs] l IHl]; [left; reflexivity|]. cbn in KB. inversion KB; subst. cbn [flat_map fst snd].
    destruct (Nat.eqb_spec k m) as [->|]; [|cbn; auto]. right. cbn. f_equal.
    clear - H1. induction l as [|[k' fs'] l IHl]; [reflexivity|]. cbn in *. destruct (Nat.eqb_spec k' m) as [->|]; [tauto|]. cbn. apply IHl. tauto. }
  destruct ONE as (l & -> & [-> | ->]); cbn; auto. constructor; auto.
  intros I. apply in_map_iff in I as ([[[b' f] s] o] & E & I). cbn in E. subst b'. apply (in_offers t m bs) in I as [I _]. auto.
Qed.
Lemma nodup_map_filter {A B} (f : A -> B) p l : NoDup (map f l) -> NoDup (map f (filter p l)).
Proof.
  induction l as [|a l IH]; cbn; intros H; auto. inversion H; subst. destruct (p a); cbn; auto. constructor; auto.
  intros I. apply H2. apply in_map_iff in I as (x & E & I). apply filter_In in I as [I _]. apply in_map_iff. eauto.
Qed.
Lemma pick_too_many h ts m takes n : Forall linear blocks -> shaped kinds (TK h ts) -> NoDup blocks -> (forall b, In b blocks -> NoDup (map fst (bl_fns b))) ->
  pick (TK h ts) blocks m takes n = TooMany ->
  exists b1 b2 f1 f2 s1 s2, b1 <> b2 /\ In b1 blocks /\ In b2 blocks /\ has_method b1 m f1 s1 /\ has_method b2 m f2 s2 /\ bl_anonymous b1 = false /\ bl_anonymous b2 = false /\
    forall th, applies aliases b1 (subst th (TK h ts)) /\ applies aliases b2 (subst th (TK h ts)).
Proof.
  intros LI SH ND KD H. unfold pick in H. 
  assert (WS : forall f s, with_self f s takes (- Z.of_nat n) <> TooMany) by (intros ? []; destruct takes; cbn; discriminate).
  assert (X : exists k x y rest, into_impl_target h = Some k /\ filter (says (Some Yes)) (offers_t (TK h ts) m (table blocks k)) = x :: y :: rest /\
    List.find (fun x => bl_anonymous (fst (fst (fst x)))) (x :: y :: rest) = None).
  { assert (K : exists k, into_impl_target h = Some k) by (destruct h; cbn in *; try discriminate; eauto). destruct K as (k & K). exists k. rewrite K in H.
    set (os := offers_t (TK h ts) m (table blocks k)) in *.
    destruct h; cbn in K; try discriminate; cbv zeta in H; (destruct (existsb (says None) os); [discriminate|]); (destruct (existsb (says (Some Maybe)) os); [discriminate|]);
      (destruct (filter (says (Some Yes)) os) as [|[[[b0 f0] s0] o0] [|y rest]]; [discriminate | destruct (WS _ _ H) | ]);
      exists (b0, f0, s0, o0), y, rest; (split; [auto|]); (split; [auto|]); (destruct (List.find _ _) as [[[[b1 f1] s1] o1]|] eqn:FD; [destruct (WS _ _ H) | auto]). }
  destruct X as (k & x & y & rest & K & FL & FD).
  assert (NDM : NoDup (map (fun x => fst (fst (fst x))) (x :: y :: rest))).
  { rewrite <- FL. apply nodup_map_filter. apply offers_blocks; [|apply NoDup_filter; auto]. intros b I. apply in_table in I as [I _]. auto. }
  destruct x as [[[b1 f1] s1] o1], y as [[[b2 f2] s2] o2]. cbn in NDM. inversion NDM as [|? ? N1 _]; subst.
  assert (BACK : forall b0 f0 s0 o0, In (b0, f0, s0, o0) ((b1, f1, s1, o1) :: (b2, f2, s2, o2) :: rest) -> In b0 blocks /\ has_method b0 m f0 s0 /\ bl_anonymous b0 = false /\ forall th, applies aliases b0 (subst th (TK h ts))).
  { intros b0 f0 s0 o0 I. pose proof (find_none _ _ FD _ I) as AN. cbn in AN. rewrite <- FL in I. apply filter_In in I as [I S]. apply says_eq in S. cbn in S. subst o0. apply in_offers in I as (I & M & V). apply in_table in I as [I _]. split; auto. split; auto. split; auto.
    intros th. destruct (wf b0 I) as (_ & N & _). rewrite Forall_forall in LI. destruct (ov_yes aliases kinds th _ _ N (LI b0 I) SH (eq_sym V)) as (g & G). exists g. auto. }
  destruct (BACK b1 f1 s1 o1 (or_introl eq_refl)) as (A1 & A2 & A3 & A4). destruct (BACK b2 f2 s2 o2 (or_intror (or_introl eq_refl))) as (B1 & B2 & B3 & B4).
  exists b1, b2, f1, f2, s1, s2. split; [intros ->; apply N1; cbn; auto|]. repeat (split; [assumption|]). auto.
Qed.

(** A known type is never waited for. *)
Lemma ov_ground : forall s t, ground t -> ov s t <> Some Maybe.
Proof.
  assert (LIST : forall l, Forall (fun s => forall t, ground t -> ov s t <> Some Maybe) l -> forall ts, Forall ground ts -> args_ov ov l ts <> Some Maybe).
  { intros l IH ts G. unfold args_ov. destruct (length l =? length ts); [|discriminate]. revert ts G. induction IH as [|s l H IH IHl]; intros [|t ts] G; cbn; try discriminate.
    inversion G; subst. specialize (H t H2). destruct (ov s t) as [[]|]; try congruence. auto. }
  induction s as [z|b|x|e|n l IH|k|l IH|a b IHa IHb|a IHa|a IHa|] using tspec_ind'; intros t G; inversion G as [h ts SC F]; subst; cbn [ov]; try discriminate; destruct h; try discriminate.
  - destruct (_ =? _)%Z; discriminate.
  - destruct (eqb _ _); discriminate.
  - destruct (str_eqb _ _); discriminate.
  - destruct (n =? n0); [auto|discriminate].
  - auto.
  - destruct ts as [|p [|q ts]]; try discriminate. inversion F as [|? ? G1 F1]; subst. inversion F1; subst. unfold both_overlap.
    specialize (IHa p G1). specialize (IHb q H1). destruct (ov a p) as [[]|]; destruct (ov b q) as [[]|]; cbn; congruence.
  - destruct ts; [discriminate|]. inversion F; subst. auto.
  - destruct ts; [discriminate|]. inversion F; subst. auto.
Qed.
Lemma pick_ground t m takes n : ground t -> pick t blocks m takes n <> Wait.
Proof.
  intros G. assert (WS : forall f s, with_self f s takes (- Z.of_nat n) <> Wait) by (intros ? []; destruct takes; cbn; discriminate).
  assert (M : forall k, existsb (says (Some Maybe)) (offers_t t m (table blocks k)) = false).
  { intros k. destruct (existsb _ _) eqn:E; auto. apply existsb_exists in E as ([[[b f] s] o] & I & S). apply says_eq in S. cbn in S. subst o. apply in_offers in I as (_ & _ & V). destruct (ov_ground _ _ G (eq_sym V)). }
  unfold pick. destruct t as [h ts|]; [|discriminate]. 
  destruct h; cbn [into_impl_target]; cbv zeta; try discriminate; rewrite M; destruct (existsb (says None) _); try discriminate; destruct (filter _ _) as [|[[[b0 f0] s0] o0] [|y rest]]; try discriminate; auto;
    destruct (List.find _ _) as [[[[b1 f1] s1] o1]|]; auto; discriminate.
Qed.

(** Kinds rule out crashes. *)
Lemma pick_no_crash t m takes n : type_tree kinds t -> (forall ts, t <> TK BCopyView ts) -> pick t blocks m takes n <> Crash.
Proof.
  intros G NV. assert (WS : forall f s, with_self f s takes (- Z.of_nat n) <> Crash) by (intros ? []; destruct takes; cbn; discriminate).
  assert (M : forall k, existsb (says None) (offers_t t m (table blocks k)) = false).
  { intros k. destruct (existsb _ _) eqn:E; auto. apply existsb_exists in E as ([[[b f] s] o] & I & S). apply says_eq in S. cbn in S. subst o. apply in_offers in I as (I & _ & V).
    apply in_table in I as [I _]. destruct (wf b I) as (_ & _ & T). destruct (proj1 (ov_some kinds _) t T G (eq_sym V)). }
  unfold pick. destruct t as [h ts|]; [|discriminate]. 
  destruct h; cbn [into_impl_target]; cbv zeta; try discriminate; try (destruct (NV _ eq_refl); fail); rewrite M; (destruct (existsb (says (Some Maybe)) _); try discriminate); destruct (filter _ _) as [|[[[b0 f0] s0] o0] [|y rest]]; try discriminate; auto;
    destruct (List.find _ _) as [[[[b1 f1] s1] o1]|]; auto; discriminate.
Qed.

(** A final answer stays. *)
Lemma offers_keep th t m bs : (forall b, In b bs -> type_spec kinds (bl_target b)) -> type_tree kinds (subst th t) ->
  existsb (says None) (offers_t t m bs) = false -> existsb (says (Some Maybe)) (offers_t t m bs) = false -> offers_t (subst th t) m bs = offers_t t m bs.
Proof.
  intros K T E1 E2.
  assert (A : forall b f s, In b bs -> has_method b m f s -> ov (bl_target b) (subst th t) = ov (bl_target b) t).
  { intros b f s I M. assert (O : In (b, f, s, ov (bl_target b) t) (offers_t t m bs)) by (apply in_offers; auto).
    pose proof (existsb_says _ _ E1 _ O) as N1. pose proof (existsb_says _ _ E2 _ O) as N2. cbn in N1, N2. destruct (ov (bl_target b) t) as [[]|] eqn:V; try congruence.
    - apply ov_keeps_yes. auto.
    - destruct (ov_keeps_no th _ _ V) as [X|X]; auto. destruct (proj1 (ov_some kinds _) _ (K b I) T X). }
  clear E1 E2. unfold offers_t. induction bs as [|b bs IH]; [reflexivity|]. cbn [flat_map]. f_equal.
  - assert (B : forall f s, has_method b m f s -> ov (bl_target b) (subst th t) = ov (bl_target b) t) by (intros; eapply A; eauto; now left).
    unfold has_method in B. induction (bl_fns b) as [|[k [f s]] l IHl]; [reflexivity|]. cbn [flat_map fst snd]. f_equal.
    + destruct (Nat.eqb_spec k m) as [->|]; auto. rewrite (B f s); auto. now left.
    + apply IHl. intros; eapply B. right. eauto.
  - apply IH; intros; [apply K; now right | eapply A; eauto; now right].
Qed.
Lemma pick_stable th h ts m takes n r : type_tree kinds (subst th (TK h ts)) -> pick (TK h ts) blocks m takes n = r -> r <> Wait -> r <> Crash ->
  pick (subst th (TK h ts)) blocks m takes n = r.
Proof.
  intros T H NW NC. subst r. unfold pick in *. cbn [subst].
  destruct h; cbn [into_impl_target] in *; auto;
  match goal with |- context [offers_t _ m ?tab] => 
    match type of NW with context [offers_t ?t0 m _] => assert (E : offers_t (subst th t0) m tab = offers_t t0 m tab);
      [apply offers_keep; auto; [intros b I; apply in_table in I as [I _]; apply (wf b I) | | ]; 
        destruct (existsb (says None) (offers_t t0 m tab)); try congruence; destruct (existsb (says (Some Maybe)) (offers_t t0 m tab)); congruence | cbn [subst] in E; rewrite E; reflexivity] end end.
Qed.
End Program.
