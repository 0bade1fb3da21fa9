(** Proofs about pattern lowering. *)
From Coq Require Import List ZArith Lia Bool Arith.
From Verif Require Import Bits BitsFacts Verilog CodegenModel CodegenSpec CgLayout CgArith CgMatch
  PatModel PatSpec PatProofs LowerModel LowerSpec.
Import ListNotations.

(** ** Induction principles *)
Section LpatInd.
  Variable P : lpat -> Prop.
  Hypothesis Hint : forall id t z, P (LPat id t (KInteger z)).
  Hypothesis Hbool : forall id t b, P (LPat id t (KBoolean b)).
  Hypothesis Hname : forall id t x, P (LPat id t (KBound x None)).
  Hypothesis Hat : forall id t x q, P q -> P (LPat id t (KBound x (Some q))).
  Hypothesis Htuple : forall id t l, Forall P l -> P (LPat id t (KTuple l)).
  Hypothesis Harray : forall id t l, Forall P l -> P (LPat id t (KArray l)).
  Hypothesis Hstruct : forall id t l, Forall P l -> P (LPat id t (KStruct l)).
  Hypothesis Hvariant : forall id t i l, Forall P l -> P (LPat id t (KVariant i l)).
  Fixpoint lpat_ind' (p : lpat) : P p :=
    let go := fix go (l : list lpat) : Forall P l :=
      match l with [] => Forall_nil P | x :: r => Forall_cons x (lpat_ind' x) (go r) end in
    match p with
    | LPat id t (KInteger v) => Hint id t v
    | LPat id t (KBoolean b) => Hbool id t b
    | LPat id t (KBound x None) => Hname id t x
    | LPat id t (KBound x (Some p)) => Hat id t x p (lpat_ind' p)
    | LPat id t (KTuple l) => Htuple id t l (go l)
    | LPat id t (KArray l) => Harray id t l (go l)
    | LPat id t (KStruct l) => Hstruct id t l (go l)
    | LPat id t (KVariant i l) => Hvariant id t i l (go l)
    end.
End LpatInd.

Scheme encodes_mut := Induction for encodes Sort Prop
  with Forall3_mut := Induction for Forall3 Sort Prop.

(** ** Encodings have the declared width *)
Lemma Forall3_lengths ts vs ws : Forall3 ts vs ws -> length ts = length vs /\ length vs = length ws.
Proof. induction 1; cbn; lia. Qed.

Lemma Forall3_repeat t n vs ws : Forall3 (repeat t n) vs ws -> length ws = n.
Proof. intros H. apply Forall3_lengths in H. rewrite repeat_length in H. lia. Qed.

Lemma widths_repeat t n ws : Forall2 has_width (map to_mir_type (repeat t n)) ws -> Forall (has_width (to_mir_type t)) ws.
Proof.
  revert ws. induction n; intros ws H; cbn in H; inversion H; subst; constructor; auto.
Qed.

Lemma struct_widths ts ws : Forall2 has_width (map to_mir_type ts) ws ->
  Forall2 (fun f v => has_width (snd f) v) (map (fun t => (Coq.Strings.String.EmptyString, to_mir_type t)) ts) ws.
Proof. revert ws. induction ts; intros ws H; cbn in *; inversion H; subst; constructor; auto. Qed.

Lemma struct_snd ts : map snd (map (fun t => (Coq.Strings.String.EmptyString, to_mir_type t)) ts) = map to_mir_type ts.
Proof. rewrite map_map. reflexivity. Qed.

Lemma encodes_width : forall t v w, encodes t v w -> has_width (to_mir_type t) w.
Proof.
  apply (encodes_mut (fun t v w _ => has_width (to_mir_type t) w)
                     (fun ts vs ws _ => Forall2 has_width (map to_mir_type ts) ws)); intros; cbn; auto.
  - destruct (tuple_round_trip _ _ H) as (w' & E & W & _). rewrite e in E. apply Some_inj in E. now subst.
  - destruct (struct_round_trip _ _ (struct_widths _ _ H)) as (w' & E & W & _).
    rewrite struct_snd in E. cbn in e. rewrite e in E. apply Some_inj in E. now subst.
  - pose proof (Forall3_repeat _ _ _ _ f) as L. apply widths_repeat in H.
    pose proof (construct_array_value _ _ H) as E. rewrite L in E. rewrite e in E. apply Some_inj in E. subst.
    unfold has_width. cbn. rewrite (length_concat_uniform _ (size (to_mir_type t))); [lia|].
    now apply Forall_fits_length.
  - pose proof (enum_round_trip (map (map to_mir_type) os) i (map to_mir_type ts) ws) as R.
    rewrite nth_error_map, e in R. destruct (R eq_refl H) as (w' & E & W & _).
    cbn in e0. rewrite e0 in E. apply Some_inj in E. now subst.
  - destruct r. easy.
  - destruct r. easy.
  - unfold is_bool in i. subst. easy.
  - reflexivity.
Qed.

Lemma Forall3_widths ts vs ws : Forall3 ts vs ws -> Forall2 has_width (map to_mir_type ts) ws.
Proof. induction 1; cbn; constructor; auto. eapply encodes_width; eauto. Qed.

Lemma Forall3_nth ts vs ws i t : Forall3 ts vs ws -> nth_error ts i = Some t ->
  exists v w, nth_error vs i = Some v /\ nth_error ws i = Some w /\ encodes t v w.
Proof.
  intros H. revert i. induction H; intros [|i] E; cbn in *; try discriminate.
  - injection E as ->. eauto.
  - auto.
Qed.

(** ** Deciding a match *)
Fixpoint matchb (p : hpat) (v : val) : bool :=
  let fix all (l : list hpat) (vs : list val) : bool :=
    match l, vs with
    | [], [] => true
    | p :: l, v :: vs => matchb p v && all l vs
    | _, _ => false
    end in
  match p, v with
  | PInt n, VInt z => Z.eqb n z
  | PBool b, VBool c => Bool.eqb b c
  | PBound _ None, _ => true
  | PBound _ (Some q), v => matchb q v
  | PTuple l, VNode vs | PArray l, VNode vs | PStruct l, VNode vs => all l vs
  | PVariant i l, VVariant j vs => Nat.eqb i j && all l vs
  | _, _ => false
  end.
Fixpoint matchb_all (l : list hpat) (vs : list val) : bool :=
    match l, vs with
    | [], [] => true
    | p :: l, v :: vs => matchb p v && matchb_all l vs
    | _, _ => false
    end.
Lemma matchb_go l : forall vs,
  (fix all (l : list hpat) (vs : list val) : bool :=
    match l, vs with
    | [], [] => true
    | p :: l, v :: vs => matchb p v && all l vs
    | _, _ => false
    end) l vs = matchb_all l vs.
Proof. reflexivity. Qed.

Lemma matchb_all_spec l (H : Forall (fun p => forall v, matchb p v = true <-> matches p v) l) :
  forall vs, matchb_all l vs = true <-> Forall2 matches l vs.
Proof.
  induction H; intros [|v vs]; cbn; (split; intros M; try discriminate; try (now inversion M)).
  - apply andb_true_iff in M as [A B]. constructor; [now apply H|now apply IHForall].
  - inversion M; subst. apply andb_true_iff. split; [now apply H|now apply IHForall].
Qed.

Lemma matchb_spec p : forall v, matchb p v = true <-> matches p v.
Proof.
  induction p using hpat_ind'; intros w; unfold matches in *.
  - destruct w; cbn; split; intros M; try discriminate; try (now inversion M).
    + apply Z.eqb_eq in M. subst. now constructor.
    + inversion M; subst. apply Z.eqb_refl.
  - destruct w; cbn; split; intros M; try discriminate; try (now inversion M).
    + apply eqb_prop in M. subst. now constructor.
    + inversion M; subst. apply eqb_reflx.
  - split; [constructor|]. destruct w; reflexivity.
  - replace (matchb (PBound x (Some p)) w) with (matchb p w) by (destruct w; reflexivity).
    rewrite IHp. split; [now constructor|]. intros M; inversion M; subst; easy.
  - destruct w; cbn; rewrite ?matchb_go; split; intros M; try discriminate; try (now inversion M).
    + constructor. now apply (matchb_all_spec l H).
    + inversion M; subst. now apply (matchb_all_spec l H).
  - destruct w; cbn; rewrite ?matchb_go; split; intros M; try discriminate; try (now inversion M).
    + constructor. now apply (matchb_all_spec l H).
    + inversion M; subst. now apply (matchb_all_spec l H).
  - destruct w; cbn; rewrite ?matchb_go; split; intros M; try discriminate; try (now inversion M).
    + constructor. now apply (matchb_all_spec l H).
    + inversion M; subst. now apply (matchb_all_spec l H).
  - destruct w; cbn; rewrite ?matchb_go; split; intros M; try discriminate; try (now inversion M).
    + apply andb_true_iff in M as [A B]. apply Nat.eqb_eq in A. subst. constructor. now apply (matchb_all_spec l H).
    + inversion M; subst. rewrite Nat.eqb_refl. now apply (matchb_all_spec l H).
Qed.

(** ** Values of the boolean operators *)
Lemma truth1 b : truth [b] = b.
Proof. destruct b; reflexivity. Qed.

Lemma and_value ta tb a b : op_value TBool [ta; tb] LogicalAnd [a; b] = Some [band (truth a) (truth b)].
Proof.
  rewrite (op_value_unfold _ _ _ _ (DAssign (VBin OLAnd (fv 0) (fv 1)))) by (cbn; auto).
  cbn [drive size]. f_equal. apply assign_one_bit; [reflexivity|].
  cbn [eval signed fv width operand_env nth].
  rewrite !resize_id by reflexivity. reflexivity.
Qed.
Lemma not_value ta a : op_value TBool [ta] LogicalNot [a] = Some [bnot (truth a)].
Proof.
  rewrite (op_value_unfold _ _ _ _ (DAssign (VUn ULogNot (fv 0)))) by (cbn; auto).
  cbn [drive size]. f_equal. apply assign_one_bit; [reflexivity|].
  cbn [eval signed fv width operand_env nth].
  rewrite !resize_id by reflexivity. reflexivity.
Qed.
Lemma const_bool b : const_value TBool (KBool b) = [bit_of_bool b].
Proof. destruct b; reflexivity. Qed.

(** ** Named versions of the inner loops *)
Fixpoint lower_idx (op : nat -> operator) (self : mname) (i : nat) (l : list lpat) (n : nat) : list stmt * nat :=
  match l with
  | [] => ([], n)
  | q :: r =>
      let '(a, n) := lower_inner q (value_name q) n in
      let '(b, n) := lower_idx op self (S i) r n in
      (SBind (value_name q) (Op (op i)) [self] (to_mir_type (lty q)) :: a ++ b, n)
  end.
Fixpoint lower_arr (ity : ty) (self : mname) (i : nat) (l : list lpat) (n : nat) : list stmt * nat :=
  match l with
  | [] => ([], n)
  | q :: r =>
      let idx := NExpr n in
      let '(a, n') := lower_inner q (value_name q) (S n) in
      let '(b, n'') := lower_arr ity self (S i) r n' in
      (SConst idx ity (KInt (Z.of_nat i))
         :: SBind (value_name q) (Op IndexArray) [self; idx] (to_mir_type (lty q))
         :: a ++ b, n'')
  end.
Fixpoint cond_list (l : list lpat) (n : nat) : list stmt * list mname * nat :=
  match l with
  | [] => ([], [], n)
  | q :: r =>
      let '(s1, r1, n) := condition q (value_name q) None n in
      let '(s2, r2, n) := cond_list r n in
      (s1 ++ s2, r1 :: r2, n)
  end.

Lemma lower_tuple id t l self n : lower_inner (LPat id t (KTuple l)) self n = lower_idx IndexTuple self 0 l n.
Proof.
  cbn [lower_inner]. generalize (Nat.log2 (length l) + 1). intros ity. generalize 0. revert n.
  induction l as [|q l IH]; intros n k; [reflexivity|]. cbn [lower_idx lower_arr].
  destruct (lower_inner q (value_name q) n) as [a n1]. rewrite <- IH. reflexivity.
Qed.
Lemma lower_struct id t l self n : lower_inner (LPat id t (KStruct l)) self n = lower_idx IndexTuple self 0 l n.
Proof.
  cbn [lower_inner]. generalize (Nat.log2 (length l) + 1). intros ity. generalize 0. revert n.
  induction l as [|q l IH]; intros n k; [reflexivity|]. cbn [lower_idx lower_arr].
  destruct (lower_inner q (value_name q) n) as [a n1]. rewrite <- IH. reflexivity.
Qed.
Lemma lower_variant id t v l self n : lower_inner (LPat id t (KVariant v l)) self n = lower_idx (EnumMember v) self 0 l n.
Proof.
  cbn [lower_inner]. generalize (Nat.log2 (length l) + 1). intros ity. generalize 0. revert n.
  induction l as [|q l IH]; intros n k; [reflexivity|]. cbn [lower_idx lower_arr].
  destruct (lower_inner q (value_name q) n) as [a n1]. rewrite <- IH. reflexivity.
Qed.
Lemma lower_array id t l self n : lower_inner (LPat id t (KArray l)) self n = lower_arr (TInt (Nat.log2 (length l) + 1)) self 0 l n.
Proof.
  cbn [lower_inner]. generalize (Nat.log2 (length l) + 1). intros ity. generalize 0. revert n.
  induction l as [|q l IH]; intros n k; [reflexivity|]. cbn [lower_idx lower_arr].
  destruct (lower_inner q (value_name q) (S n)) as [a n1]. rewrite <- IH. reflexivity.
Qed.
Lemma condition_tuple id t l v g n : condition (LPat id t (KTuple l)) v g n =
  let '(s, rs, n) := cond_list l (S n) in
  let '(s', res, n) := all_conditions (rs ++ opt_list g) n in (s ++ s', res, n).
Proof. reflexivity. Qed.
Lemma condition_array id t l v g n : condition (LPat id t (KArray l)) v g n =
  let '(s, rs, n) := cond_list l (S n) in
  let '(s', res, n) := all_conditions (rs ++ opt_list g) n in (s ++ s', res, n).
Proof. reflexivity. Qed.
Lemma condition_struct id t l v g n : condition (LPat id t (KStruct l)) v g n =
  let '(s, rs, n') := cond_list l (S (S n)) in
  let '(s', res, n') := all_conditions (NExpr (S n) :: rs ++ opt_list g) n' in
  (SConst (NExpr (S n)) TBool (KBool true) :: s ++ s', res, n').
Proof. reflexivity. Qed.
Lemma condition_variant id t i l v g n : condition (LPat id t (KVariant i l)) v g n =
  let '(s, rs, n') := cond_list l (S (S n)) in
  let '(s', res, n') := all_conditions (NExpr (S n) :: rs ++ opt_list g) n' in
  (SBind (NExpr (S n)) (Op (IsEnumVariant i)) [v] TBool :: s ++ s', res, n').
Proof. reflexivity. Qed.

Section Solution.
  Variable types : mname -> ty.
  Variable rho : mname -> bits.
  Notation ok := (Forall (settled types rho)).

  Lemma lower_idx_inv op self l : forall i n, ok (fst (lower_idx op self i l n)) ->
    forall j q, nth_error l j = Some q ->
      settled types rho (SBind (value_name q) (Op (op (i + j))) [self] (to_mir_type (lty q))) /\
      exists n0, ok (fst (lower_inner q (value_name q) n0)).
  Proof.
    induction l as [|a l IH]; intros i n H j q E; [destruct j; discriminate|].
    cbn [lower_idx] in H. destruct (lower_inner a (value_name a) n) as [sa n1] eqn:Ea.
    destruct (lower_idx op self (S i) l n1) as [sb n2] eqn:Eb. cbn [fst] in H.
    apply Forall_cons_iff in H as [H1 H2]. apply Forall_app in H2 as [H2 H3].
    destruct j; cbn in E.
    - injection E as ->. rewrite Nat.add_0_r. split; [easy|]. exists n. now rewrite Ea.
    - replace (i + S j) with (S i + j) by lia. eapply (IH (S i) n1); [now rewrite Eb|easy].
  Qed.
  Lemma lower_arr_inv ity self l : forall i n, ok (fst (lower_arr ity self i l n)) ->
    forall j q, nth_error l j = Some q ->
      exists idx, settled types rho (SConst idx ity (KInt (Z.of_nat (i + j)))) /\
      settled types rho (SBind (value_name q) (Op IndexArray) [self; idx] (to_mir_type (lty q))) /\
      exists n0, ok (fst (lower_inner q (value_name q) n0)).
  Proof.
    induction l as [|a l IH]; intros i n H j q E; [destruct j; discriminate|].
    cbn [lower_arr] in H. destruct (lower_inner a (value_name a) (S n)) as [sa n1] eqn:Ea.
    destruct (lower_arr ity self (S i) l n1) as [sb n2] eqn:Eb. cbn [fst] in H.
    apply Forall_cons_iff in H as [H1 H2]. apply Forall_cons_iff in H2 as [H3 H4]. apply Forall_app in H4 as [H4 H5].
    destruct j; cbn in E.
    - injection E as ->. rewrite Nat.add_0_r. exists (NExpr n). split; [easy|]. split; [easy|]. exists (S n). now rewrite Ea.
    - replace (i + S j) with (S i + j) by lia. eapply (IH (S i) n1); [now rewrite Eb|easy].
  Qed.
  Lemma cond_list_inv l : forall n s rs n', cond_list l n = (s, rs, n') -> ok s ->
    Forall2 (fun q r => exists n0 s0 n1, condition q (value_name q) None n0 = (s0, r, n1) /\ ok s0) l rs.
  Proof.
    induction l as [|a l IH]; intros n s rs n' E H; cbn in E.
    - injection E as <- <- <-. constructor.
    - destruct (condition a (value_name a) None n) as [[s1 r1] n1] eqn:E1.
      destruct (cond_list l n1) as [[s2 r2] n2] eqn:E2. injection E as <- <- <-.
      apply Forall_app in H as [H1 H2]. constructor; [|eapply IH; eauto].
      exists n, s1, n1. now rewrite E1.
  Qed.

  Lemma and_chain_value ops : forall acc n s r n', and_chain acc ops n = (s, r, n') -> ok s ->
    (rho acc = [B1] -> (forall o, In o ops -> rho o = [B1]) -> rho r = [B1]) /\
    (rho acc = [B0] -> rho r = [B0]) /\
    (forall o, In o ops -> rho o = [B0] -> rho r = [B0]) /\
    (forall ops' g b, ops = ops' ++ [g] -> rho g = [b] -> rho acc = [B1] ->
        (forall o, In o ops' -> rho o = [B1]) -> rho r = [b]) /\
    (types acc = TBool -> types r = TBool).
  Proof.
    induction ops as [|o ops IH]; intros acc n s r n' E H; cbn in E.
    - injection E as <- <- <-. split; [easy|]. split; [easy|]. split; [intros o []|].
      split; [|easy]. intros ops' g b Q. symmetry in Q. apply app_eq_nil in Q as [_ Q]. discriminate.
    - destruct (and_chain (NExpr n) ops (S n)) as [[s1 r1] n1] eqn:E1. injection E as <- <- <-.
      apply Forall_cons_iff in H as [Hs H1]. destruct (IH _ _ _ _ _ E1 H1) as (A & B & C & D & F).
      destruct Hs as [Ht Hv]. cbn [map] in Hv. rewrite and_value in Hv. apply Some_inj in Hv.
      repeat split.
      + intros Ha Ho. apply A; [|intros; apply Ho; now right].
        rewrite <- Hv, Ha, (Ho o) by now left. reflexivity.
      + intros Ha. apply B. rewrite <- Hv, Ha. reflexivity.
      + intros o' [<-|Ho'] Hz; [|eauto]. apply B. rewrite <- Hv, Hz, !truth1. destruct (truth (rho acc)); reflexivity.
      + intros ops' g b Q Hg Ha Ho. destruct ops' as [|o' ops']; cbn in Q; injection Q as -> ->.
        * cbn in E1. injection E1 as <- <- <-. rewrite <- Hv, Ha, Hg, !truth1. destruct b; reflexivity.
        * eapply D; eauto.
          -- rewrite <- Hv, Ha, (Ho o') by now left. reflexivity.
          -- intros; apply Ho; now right.
      + auto.
  Qed.

  Definition guard_bit (g : option mname) (b : bit) : Prop :=
    match g with Some x => rho x = [b] /\ types x = TBool | None => b = B1 end.

  Lemma all_conditions_value rs g b : forall n s r n',
    all_conditions (rs ++ opt_list g) n = (s, r, n') -> ok s -> guard_bit g b ->
    ((forall o, In o rs -> rho o = [B1]) -> rho r = [b]) /\
    (forall o, In o rs -> rho o = [B0] -> rho r = [B0]) /\
    ((forall o rs', rs = o :: rs' -> types o = TBool) -> types r = TBool).
  Proof.
    intros n s r n' E H G. destruct rs as [|o rs]; cbn [app] in E.
    - assert (rho r = [b] /\ types r = TBool) as [Q1 Q2]; [|split; [easy|split; [intros o []|easy]]].
      destruct g as [x|]; cbn in E, G.
      + injection E as <- <- <-. easy.
      + injection E as <- <- <-. apply Forall_cons_iff in H as [[T ->] _]. split; [subst; apply (const_bool true)|easy].
    - cbn [all_conditions] in E. destruct (and_chain_value _ _ _ _ _ _ E H) as (A & B & C & D & F). repeat split.
      + intros Ho. destruct g as [x|]; cbn in G.
        * eapply D; [reflexivity|apply G|apply Ho; now left|intros; apply Ho; now right].
        * subst. cbn in A. rewrite app_nil_r in A. apply A; [apply Ho; now left|intros; apply Ho; now right].
      + intros o' [<-|Ho'] Hz; [auto|]. apply (C o'); auto. apply in_or_app. now left.
      + intros To. eapply F, To. reflexivity.
  Qed.

  Definition Good (p : lpat) : Prop := forall t self v,
    lpat_type t p -> readable t -> types self = to_mir_type t -> encodes t v (rho self) ->
    forall n0, ok (fst (lower_inner p self n0)) ->
    (encodes t v (rho (value_name p)) -> forall x s u, binds p v x s u -> encodes s u (rho (NName x))) /\
    (forall g b n1 st r n2, condition p self g n1 = (st, r, n2) -> ok st -> guard_bit g b ->
       rho r = [if matchb (erase p) v then b else B0] /\ types r = TBool).

  (** Children that read their part of an aggregate. *)
  Lemma children l ts vs :
    Forall Good l -> Forall2 lpat_type ts l -> Forall readable ts -> length vs = length ts ->
    (forall j q t v, nth_error l j = Some q -> nth_error ts j = Some t -> nth_error vs j = Some v ->
        types (value_name q) = to_mir_type t /\ encodes t v (rho (value_name q)) /\
        exists n0, ok (fst (lower_inner q (value_name q) n0))) ->
    (forall j q v x s u, nth_error l j = Some q -> nth_error vs j = Some v -> binds q v x s u -> encodes s u (rho (NName x))) /\
    (forall n s rs n', cond_list l n = (s, rs, n') -> ok s ->
       (matchb_all (map erase l) vs = true -> forall r, In r rs -> rho r = [B1]) /\
       (matchb_all (map erase l) vs = false -> exists r, In r rs /\ rho r = [B0]) /\
       (forall r, In r rs -> types r = TBool)).
  Proof.
    intros G T R L V. split.
    - intros j q v x s u Hq Hv Hb.
      assert (Hj : j < length ts) by (rewrite <- L; apply nth_error_Some; congruence).
      destruct (nth_error ts j) as [t|] eqn:Ht; [|apply nth_error_None in Ht; lia].
      destruct (V j q t v Hq Ht Hv) as (A & B & n0 & C).
      rewrite Forall_forall in G. pose proof (G q (nth_error_In _ _ Hq)) as Gq.
      assert (Tq : lpat_type t q).
      { destruct (Forall2_nth_error _ _ _ _ _ T Ht) as (q' & Hq' & ?). congruence. }
      rewrite Forall_forall in R. pose proof (R t (nth_error_In _ _ Ht)) as Rt.
      destruct (Gq t (value_name q) v Tq Rt A B n0 C) as [X _]. eauto.
    - intros n s rs n' E H. pose proof (cond_list_inv l n s rs n' E H) as F. clear E H.
      revert ts vs T R L V. induction F as [|q r l rs Fq F IH]; intros ts vs T R L V.
      + inversion T; subst. destruct vs; [|discriminate]. cbn. split; [intros _ r []|]. split; [discriminate|intros r []].
      + inversion T as [|t ? ts' ? Tq Tl]; subst. destruct vs as [|v vs]; [discriminate|].
        inversion G as [|? ? Gq Gl]; subst. inversion R as [|? ? Rq Rl]; subst.
        destruct (V 0 q t v eq_refl eq_refl eq_refl) as (A & B & n0 & C).
        destruct Fq as (n1 & s0 & n2 & Ec & Hs).
        destruct (Gq t (value_name q) v Tq Rq A B n0 C) as [_ Y].
        destruct (Y None B1 _ _ _ _ Ec Hs eq_refl) as [Yv Yt].
        destruct (IH Gl ts' vs Tl Rl) as (P & N & Q); [cbn in L; lia| |].
        { intros j q' t' v' Hq Ht Hv. exact (V (S j) q' t' v' Hq Ht Hv). }
        cbn [map matchb_all]. assert (Q' : forall r0, In r0 (r :: rs) -> types r0 = TBool) by (intros r0 [<-|]; auto).
        destruct (matchb (erase q) v); cbn [andb].
        * split; [|split; [|exact Q']].
          -- intros M r' [<-|Hr]; [easy|]. auto.
          -- intros M. destruct (N M) as (r' & I & Z). exists r'. split; [now right|easy].
        * split; [discriminate|]. split; [|exact Q']. intros _. exists r. split; [now left|easy].
  Qed.

  Lemma eq_repr t a z x : has_type t (VInt x) -> encodes t (VInt z) a ->
    op_value TBool [to_mir_type t; to_mir_type t] Eq [a; const_value (to_mir_type t) (KInt x)]
    = Some [bit_of_bool (z =? x)%Z].
  Proof.
    intros T E. inversion E; subst; cbn [to_mir_type const_value size].
    - assert (R : represents (TInt n) (match const_int_value n x with Some v => v | None => [] end) x).
      { destruct n.
        - inversion T; subst. split; reflexivity.
        - rewrite const_int_correct by lia. apply represents_of_Z_signed; [lia|].
          inversion T; subst. replace (S n - 1) with n by lia. easy. }
      match goal with H : represents _ a z |- _ => now rewrite (compare_signed Eq Z.eqb n _ _ z x eq_refl H R) end.
    - assert (R : represents (TUInt n) (match const_int_value n x with Some v => v | None => [] end) x).
      { destruct n.
        - inversion T; subst. cbn in *. assert (x = 0%Z) by lia. subst. split; reflexivity.
        - rewrite const_int_correct by lia. apply represents_of_Z_unsigned.
          inversion T; subst. easy. }
      match goal with H : represents _ a z |- _ => now rewrite (compare_unsigned Eq Z.eqb n _ _ z x eq_refl H R) end.
  Qed.

  Lemma alllen l vs : matchb_all l vs = true -> length l = length vs.
  Proof. revert vs. induction l; intros [|v vs] H; cbn in *; try discriminate; auto. apply andb_true_iff in H as [_ H]. f_equal; auto. Qed.

  Lemma lower_good p : Good p.
  Proof.
    induction p using lpat_ind'; intros ct self v T R Ty E n0 L.
    - (* integer *)
      inversion T as [? ? ? HT| | | | | | |]; subst. split; [intros _ y s u B; inversion B|].
      intros g b n1 st r n2 C H G.
      assert (Hv : exists i, v = VInt i).
      { inversion HT; subst; inversion E; subst; eauto. }
      destruct Hv as [i ->]. cbn [erase matchb].
      cbn [condition] in C. destruct g as [x|]; injection C as <- <- <-.
      + apply Forall_cons_iff in H as [[T1 V1] H']. apply Forall_cons_iff in H' as [[T2 V2] H''].
        apply Forall_cons_iff in H'' as [[T3 V3] _]. cbn [map] in *.
        rewrite Ty, T1, V1, (eq_repr t _ i z HT E) in V2. apply Some_inj in V2.
        rewrite and_value in V3. apply Some_inj in V3. destruct G as [G Gt]. split; [|easy]. rewrite <- V3, <- V2, G, !truth1, (Z.eqb_sym i z).
        destruct (Z.eqb z i), b; reflexivity.
      + apply Forall_cons_iff in H as [[T1 V1] H']. apply Forall_cons_iff in H' as [[T2 V2] _]. cbn [map] in *.
        rewrite Ty, T1, V1, (eq_repr t _ i z HT E) in V2. apply Some_inj in V2.
        cbn in G. split; [|easy]. subst. rewrite <- V2, (Z.eqb_sym i z). destruct (Z.eqb z i); reflexivity.
    - (* bool *)
      inversion T; subst. inversion E as [| | | | | |c w Hc|]; subst.
      split; [intros _ y s u B; inversion B|].
      intros g gb n1 st r n2 C H G. unfold is_bool in Hc. cbn [erase matchb]. cbn [condition] in C.
      destruct b, g as [x|]; injection C as <- <- <-; cbn in G.
      + apply Forall_cons_iff in H as [[T1 V1] _]. cbn [map] in V1. rewrite and_value in V1. apply Some_inj in V1.
        destruct G as [G Gt]. split; [|easy]. rewrite <- V1, G, Hc, !truth1. destruct c, gb; reflexivity.
      + subst. rewrite Hc. split; [|easy]. destruct c; reflexivity.
      + apply Forall_cons_iff in H as [[T1 V1] H']. apply Forall_cons_iff in H' as [[T2 V2] _]. cbn [map] in *.
        rewrite not_value in V1. apply Some_inj in V1. rewrite and_value in V2. apply Some_inj in V2.
        destruct G as [G Gt]. split; [|easy]. rewrite <- V2, <- V1, G, Hc, !truth1. destruct c, gb; reflexivity.
      + subst. apply Forall_cons_iff in H as [[T1 V1] _]. cbn [map] in V1. rewrite not_value in V1. apply Some_inj in V1.
        split; [|easy]. rewrite <- V1, Hc, !truth1. destruct c; reflexivity.
    - (* name *)
      inversion T; subst. split.
      + intros Ev y s u B. inversion B; subst. exact Ev.
      + intros g b n1 st r n2 C H G. replace (matchb (erase (LPat id t (KBound x None))) v) with true by (destruct v; reflexivity).
        cbn [condition] in C. destruct g as [y|]; injection C as <- <- <-; apply Forall_cons_iff in H as [[T1 V1] _]; cbn in G.
        * destruct G as [G Gt]. now rewrite V1.
        * split; [|easy]. subst. rewrite V1. apply (const_bool true).
    - (* at *)
      inversion T; subst. cbn [lower_inner] in L.
      destruct (lower_inner p (value_name p) n0) as [rest n1] eqn:Er. cbn [fst] in L.
      apply Forall_cons_iff in L as [Hs Hrest]. destruct Hs as [T1 V1].
      assert (lty p = t) as Lt by (match goal with H : lpat_type t p |- _ => inversion H; reflexivity end).
      rewrite Lt in T1.
      destruct (IHp t (value_name p) v) with (n0 := n0) as [X Y]; auto.
      { now rewrite V1. }
      { now rewrite Er. }
      split.
      + intros Ev y s u B. inversion B; subst; [exact Ev|]. apply X; auto. now rewrite V1.
      + intros g b n2 st r n3 C H G. cbn [condition] in C.
        destruct (condition p (value_name p) g (S n2)) as [[s' r'] n'] eqn:Ec. injection C as <- <- <-.
        apply Forall_app in H as [H _]. destruct (Y g b _ _ _ _ Ec H G) as [-> Yt]. split; [|easy].
        destruct v; reflexivity.
    - (* tuple *)
      inversion T as [| | | |? ts ? F| | |]; subst. inversion E as [? vs ws w F3 Ew| | | | | | |]; subst.
      inversion R as [? Rs| | | | | | |]; subst.
      rewrite lower_tuple in L.
      destruct (tuple_round_trip _ _ (Forall3_widths _ _ _ F3)) as (w' & Ew' & _ & Idx).
      rewrite Ew in Ew'. apply Some_inj in Ew'. subst w'.
      destruct (Forall3_lengths _ _ _ F3) as [L1 L2].
      destruct (children l ts vs) as [X Y]; auto.
      { intros j q t v Hq Ht Hv. destruct (lower_idx_inv _ _ _ _ _ L j q Hq) as ([T1 V1] & N).
        destruct (Forall3_nth _ _ _ _ _ F3 Ht) as (v' & w & Hv' & Hw & En).
        assert (v' = v) as -> by congruence.
        assert (lty q = t) as Lt.
        { destruct (Forall2_nth_error _ _ _ _ _ F Ht) as (q' & Hq' & Tq). assert (q' = q) by congruence. subst. inversion Tq; reflexivity. }
        rewrite Lt in *. split; [easy|]. split; [|easy]. cbn [map] in V1. rewrite Ty in V1. cbn [to_mir_type Nat.add] in V1.
        rewrite (Idx j (to_mir_type t) w) in V1; auto.
        - apply Some_inj in V1. now rewrite <- V1.
        - rewrite nth_error_map, Ht. reflexivity. }
      split.
      + intros _ x s u B. inversion B; subst. eauto.
      + intros g b n1 st r n2 C H1 G. rewrite condition_tuple in C.
        destruct (cond_list l (S n1)) as [[s rs] n'] eqn:Ec.
        destruct (all_conditions (rs ++ opt_list g) n') as [[s' res] n''] eqn:Ea. injection C as <- <- <-.
        apply Forall_app in H1 as [Hs Hs']. destruct (Y _ _ _ _ Ec Hs) as (P & N & Q).
        destruct (all_conditions_value rs g b _ _ _ _ Ea Hs' G) as (P' & N' & Q').
        split; [|apply Q'; intros o rs' Ho; try (injection Ho as <- <-); auto; try (apply Q; subst; now left)].
        cbn [erase matchb]. rewrite matchb_go. destruct (matchb_all (map erase l) vs) eqn:M.
        * apply P'. auto.
        * destruct (N eq_refl) as (o & I & Z). eauto.
    - (* array *)
      inversion T as [| | | | | |? t' n ? Ln F|]; subst. inversion E as [| |? ? vs ws w F3 Ew| | | | |]; subst.
      inversion R as [| |? ? Rs Big| | | | |]; subst.
      rewrite lower_array in L.
      destruct (Forall3_lengths _ _ _ F3) as [L1 L2]. rewrite repeat_length in L1.
      assert (Lw : length ws = length l) by lia.
      assert (Hw : Forall (has_width (to_mir_type t')) ws) by (apply (widths_repeat t' (length l)); now apply (Forall3_widths _ vs)).
      destruct (array_round_trip (to_mir_type t') ws Hw) as (w' & Ew' & _ & Idx).
      { rewrite Lw. exact Big. }
      rewrite Lw, Ew in Ew'. apply Some_inj in Ew'. subst w'.
      destruct (children l (repeat t' (length l)) vs) as [X Y]; auto.
      { clear -F. induction F; cbn; constructor; auto. }
      { apply Forall_forall. intros y Hy. now apply repeat_spec in Hy as ->. }
      { rewrite repeat_length. lia. }
      { intros j q t v Hq Ht Hv. destruct (lower_arr_inv _ _ _ _ _ L j q Hq) as (idx & [T0 V0] & [T1 V1] & N).
        destruct (Forall3_nth _ _ _ _ _ F3 Ht) as (v' & w & Hv' & Hw' & En).
        assert (v' = v) as -> by congruence.
        assert (t = t') as -> by (apply nth_error_In, repeat_spec in Ht; easy).
        assert (lty q = t') as Lt.
        { rewrite Forall_forall in F. specialize (F q (nth_error_In _ _ Hq)). inversion F; reflexivity. }
        rewrite Lt in *. split; [easy|]. split; [|easy]. cbn [map] in V1. rewrite Ty in V1.
        cbn [to_mir_type] in V1. rewrite <- Lw in V1.
        rewrite (Idx j w) in V1; auto.
        - apply Some_inj in V1. now rewrite <- V1.
        - rewrite V0. unfold const_value. cbn [size]. rewrite const_int_correct by lia. cbn [Nat.add].
          assert (Hj : j < length l) by (apply nth_error_Some; congruence).
          rewrite uval_of_Z. f_equal. apply Z.mod_small. split; [lia|].
          rewrite <- (Nat2Z.inj_pow 2). apply inj_lt.
          pose proof (Nat.log2_spec (length l)). rewrite Nat.add_1_r. lia. }
      split.
      + intros _ x s u B. inversion B; subst. eauto.
      + intros g b n1 st r n2 C H1 G. rewrite condition_array in C.
        destruct (cond_list l (S n1)) as [[s rs] n'] eqn:Ec.
        destruct (all_conditions (rs ++ opt_list g) n') as [[s' res] n''] eqn:Ea. injection C as <- <- <-.
        apply Forall_app in H1 as [Hs Hs']. destruct (Y _ _ _ _ Ec Hs) as (P & N & Q).
        destruct (all_conditions_value rs g b _ _ _ _ Ea Hs' G) as (P' & N' & Q').
        split; [|apply Q'; intros o rs' Ho; try (injection Ho as <- <-); auto; try (apply Q; subst; now left)].
        cbn [erase matchb]. rewrite matchb_go. destruct (matchb_all (map erase l) vs) eqn:M.
        * apply P'. auto.
        * destruct (N eq_refl) as (o & I & Z). eauto.
    - (* struct *)
      inversion T as [| | | | |? ts ? F| |]; subst. inversion E as [|? vs ws w F3 Ew| | | | | |]; subst.
      inversion R as [|? Rs| | | | | |]; subst.
      rewrite lower_struct in L.
      destruct (struct_round_trip _ _ (struct_widths _ _ (Forall3_widths _ _ _ F3))) as (w' & Ew' & _ & Idx).
      rewrite struct_snd in Ew'. cbn [to_mir_type] in Ew. rewrite Ew in Ew'. apply Some_inj in Ew'. subst w'.
      destruct (Forall3_lengths _ _ _ F3) as [L1 L2].
      destruct (children l ts vs) as [X Y]; auto.
      { intros j q t v Hq Ht Hv. destruct (lower_idx_inv _ _ _ _ _ L j q Hq) as ([T1 V1] & N).
        destruct (Forall3_nth _ _ _ _ _ F3 Ht) as (v' & w & Hv' & Hw & En).
        assert (v' = v) as -> by congruence.
        assert (lty q = t) as Lt.
        { destruct (Forall2_nth_error _ _ _ _ _ F Ht) as (q' & Hq' & Tq). assert (q' = q) by congruence. subst. inversion Tq; reflexivity. }
        rewrite Lt in *. split; [easy|]. split; [|easy]. cbn [map] in V1. rewrite Ty in V1. cbn [to_mir_type] in V1.
        pose proof (Idx j (Coq.Strings.String.EmptyString, to_mir_type t) w) as I. cbn [snd] in I.
        cbn [Nat.add] in V1. rewrite I in V1; auto.
        - apply Some_inj in V1. now rewrite <- V1.
        - rewrite nth_error_map, Ht. reflexivity. }
      split.
      + intros _ x s u B. inversion B; subst. eauto.
      + intros g b n1 st r n2 C H1 G. rewrite condition_struct in C.
        destruct (cond_list l (S (S n1))) as [[s rs] n'] eqn:Ec.
        destruct (all_conditions (NExpr (S n1) :: rs ++ opt_list g) n') as [[s' res] n''] eqn:Ea. injection C as <- <- <-.
        apply Forall_cons_iff in H1 as [[T0 V0] H2]. rewrite const_bool in V0.
        apply Forall_app in H2 as [Hs Hs']. destruct (Y _ _ _ _ Ec Hs) as (P & N & Q).
        destruct (all_conditions_value (NExpr (S n1) :: rs) g b _ _ _ _ Ea Hs' G) as (P' & N' & Q').
        split; [|apply Q'; intros o rs' Ho; try (injection Ho as <- <-); auto; try (apply Q; subst; now left)].
        cbn [erase matchb]. rewrite matchb_go. destruct (matchb_all (map erase l) vs) eqn:M.
        * apply P'. intros o [<-|Ho]; auto.
        * destruct (N eq_refl) as (o & I & Z). apply (N' o); auto. now right.
    - (* variant *)
      inversion T as [| | | | | | |? os ? ts ? Hn F]; subst. inversion E as [| | |? k tsv vs ws w Hk F3 Ew| | | |]; subst.
      inversion R as [| | |? Rs One| | | |]; subst.
      rewrite lower_variant in L.
      pose proof (enum_round_trip (map (map to_mir_type) os) k (map to_mir_type tsv) ws) as RT.
      rewrite nth_error_map, Hk in RT. destruct (RT eq_refl (Forall3_widths _ _ _ F3)) as (w' & Ew' & _ & Is & Idx).
      cbn [to_mir_type] in Ew. rewrite Ew in Ew'. apply Some_inj in Ew'. subst w'.
      destruct (Forall3_lengths _ _ _ F3) as [L1 L2].
      assert (Hi : i < length (map (map to_mir_type) os)) by (rewrite map_length; apply nth_error_Some; congruence).
      assert (Cond : forall g b n1 st r n2, condition (LPat id (CEnum os) (KVariant i l)) self g n1 = (st, r, n2) ->
        ok st -> guard_bit g b -> i <> k -> rho r = [B0] /\ types r = TBool).
      { intros g b n1 st r n2 C H1 G Nk. rewrite condition_variant in C.
        destruct (cond_list l (S (S n1))) as [[s rs] n'] eqn:Ec.
        destruct (all_conditions (NExpr (S n1) :: rs ++ opt_list g) n') as [[s' res] n''] eqn:Ea. injection C as <- <- <-.
        apply Forall_cons_iff in H1 as [[T0 V0] H2]. cbn [map] in V0. rewrite Ty in V0. cbn [to_mir_type] in V0.
        rewrite (Is i Hi) in V0. apply Some_inj in V0.
        apply Forall_app in H2 as [Hs Hs'].
        destruct (all_conditions_value (NExpr (S n1) :: rs) g b _ _ _ _ Ea Hs' G) as (P' & N' & Q').
        split; [|apply Q'; intros o rs' Ho; injection Ho as <- <-; auto].
        apply (N' (NExpr (S n1))); [now left|]. rewrite <- V0. apply Nat.eqb_neq in Nk. now rewrite Nk. }
      destruct (Nat.eq_dec i k) as [->|Nk].
      2:{ split.
          - intros _ x s u B. inversion B; subst. easy.
          - intros g b n1 st r n2 C H1 G. destruct (Cond _ _ _ _ _ _ C H1 G Nk) as [-> Ct]. split; [|exact Ct].
            cbn [erase matchb]. apply Nat.eqb_neq in Nk. now rewrite Nk. }
      assert (ts = tsv) by congruence. subst tsv.
      destruct (children l ts vs) as [X Y]; auto.
      { rewrite Forall_forall in Rs. apply Rs. eapply nth_error_In; eauto. }
      { intros j q t v Hq Ht Hv. destruct (lower_idx_inv _ _ _ _ _ L j q Hq) as ([T1 V1] & N).
        destruct (Forall3_nth _ _ _ _ _ F3 Ht) as (v' & w & Hv' & Hw & En).
        assert (v' = v) as -> by congruence.
        assert (lty q = t) as Lt.
        { destruct (Forall2_nth_error _ _ _ _ _ F Ht) as (q' & Hq' & Tq). assert (q' = q) by congruence. subst. inversion Tq; reflexivity. }
        rewrite Lt in *. split; [easy|]. split; [|easy]. cbn [map] in V1. rewrite Ty in V1. cbn [to_mir_type Nat.add] in V1.
        rewrite (Idx j (to_mir_type t) w) in V1; auto.
        - apply Some_inj in V1. now rewrite <- V1.
        - rewrite nth_error_map, Ht. reflexivity.
        - unfold member_access_ok. rewrite map_length. intros H1 H2.
          assert (k = 0) as -> by (assert (k < length os) by (apply nth_error_Some; congruence); lia).
          rewrite skipn_map, map_map. apply (One H1 ts j Hk).
          rewrite nth_error_map in H2. rewrite Ht in *. exact H2. }
      split.
      + intros _ x s u B. inversion B; subst. eauto.
      + intros g b n1 st r n2 C H1 G. rewrite condition_variant in C.
        destruct (cond_list l (S (S n1))) as [[s rs] n'] eqn:Ec.
        destruct (all_conditions (NExpr (S n1) :: rs ++ opt_list g) n') as [[s' res] n''] eqn:Ea. injection C as <- <- <-.
        apply Forall_cons_iff in H1 as [[T0 V0] H2]. cbn [map] in V0. rewrite Ty in V0. cbn [to_mir_type] in V0.
        rewrite (Is k Hi), Nat.eqb_refl in V0. apply Some_inj in V0.
        apply Forall_app in H2 as [Hs Hs']. destruct (Y _ _ _ _ Ec Hs) as (P & N & Q).
        destruct (all_conditions_value (NExpr (S n1) :: rs) g b _ _ _ _ Ea Hs' G) as (P' & N' & Q').
        split; [|apply Q'; intros o rs' Ho; try (injection Ho as <- <-); auto; try (apply Q; subst; now left)].
        cbn [erase matchb]. rewrite Nat.eqb_refl, matchb_go. cbn [andb]. destruct (matchb_all (map erase l) vs) eqn:M.
        * apply P'. intros o [<-|Ho]; auto.
        * destruct (N eq_refl) as (o & I & Z). apply (N' o); auto. now right.
  Qed.
End Solution.

(** ** Patterns and whole matches *)
Section Final.
  Variable types : mname -> ty.
  Variable rho : mname -> bits.
  Notation ok := (Forall (settled types rho)).

  Definition good_guard (g : option mname) : Prop :=
    match g with Some x => types x = TBool /\ exists b, rho x = [b] | None => True end.

  Lemma lower_bind p self t v n : lpat_type t p -> encodes t v (rho self) ->
    ok (fst (lower p self (to_mir_type t) n)) ->
    ok (fst (lower_inner p self n)) /\ encodes t v (rho (value_name p)).
  Proof.
    intros T E. unfold lower. destruct (lower_inner p self n) as [rest n']. cbn [fst]. intros H.
    apply Forall_cons_iff in H as [[_ H] H']. now rewrite H.
  Qed.

  Theorem pattern_lowering p t self v guard n n1 stmts result n2 :
    lpat_type t p -> readable t -> types self = to_mir_type t -> encodes t v (rho self) -> good_guard guard ->
    ok (fst (lower p self (to_mir_type t) n)) ->
    condition p self guard n1 = (stmts, result, n2) -> ok stmts ->
    (matches (erase p) v ->
       rho result = match guard with Some g => rho g | None => [B1] end) /\
    (~ matches (erase p) v -> rho result = [B0]) /\
    (forall x s u, binds p v x s u -> encodes s u (rho (NName x))) /\
    types result = TBool.
  Proof.
    intros T R Ty E G L C S. destruct (lower_bind _ _ _ _ _ T E L) as [L' Ev].
    destruct (lower_good types rho p t self v T R Ty E n L') as [X Y].
    assert (exists b, guard_bit types rho guard b) as [b Gb].
    { destruct guard as [g|]; cbn in *; [|eauto]. destruct G as [Gt [b Gb]]. eauto. }
    destruct (Y guard b n1 stmts result n2 C S Gb) as [Yv Yt]. rewrite Yv.
    split; [|split; [|split]]; auto.
    - intros M. apply matchb_spec in M. rewrite M. destruct guard; cbn in Gb; [now destruct Gb as [-> _]|now subst].
    - intros M. destruct (matchb (erase p) v) eqn:Q; [|easy]. apply matchb_spec in Q. easy.
  Qed.

  Lemma match_arms_inv operand t v ct arms : forall n stmts ops n',
    match_arms operand arms n = (stmts, ops, n') -> ok stmts ->
    readable ct -> types operand = to_mir_type ct -> encodes ct v (rho operand) ->
    Forall (fun a => lpat_type ct (apat a) /\ types (abody a) = t /\ good_guard (aguard a)) arms ->
    exists bs, length bs = length arms /\
      map types ops = flat (repeat (TBool, t) (length arms)) /\
      map rho ops = flat (map (fun a => ([fst a], snd a)) (combine bs (map (fun a => rho (abody a)) arms))) /\
      forall i a, nth_error arms i = Some a -> exists b, nth_error bs i = Some b /\
        (matches (erase (apat a)) v -> [b] = match aguard a with Some g => rho g | None => [B1] end) /\
        (~ matches (erase (apat a)) v -> b = B0) /\
        (forall x s u, binds (apat a) v x s u -> encodes s u (rho (NName x))).
  Proof.
    induction arms as [|a arms IH]; intros n stmts ops n' E S R Ty En F.
    - injection E as <- <- <-. exists []. cbn. repeat split; auto. intros [|i] a Q; discriminate.
    - cbn [match_arms] in E. destruct (lower (apat a) operand (to_mir_type (lty (apat a))) n) as [s1 n1] eqn:E1.
      destruct (condition (apat a) operand (aguard a) n1) as [[s2 c] n2] eqn:E2.
      destruct (match_arms operand arms n2) as [[s3 ops'] n3] eqn:E3. injection E as <- <- <-.
      apply Forall_app in S as [S1 S]. apply Forall_app in S as [S2 S3].
      inversion F as [|? ? (Ta & Tb & Ga) F']; subst.
      destruct (IH _ _ _ _ E3 S3 R Ty En F') as (bs & Lb & Et & Ev & K).
      assert (lty (apat a) = ct) as Lt by (inversion Ta; reflexivity). rewrite Lt in E1.
      destruct (pattern_lowering (apat a) ct operand v (aguard a) n n1 s2 c n2 Ta R Ty En Ga) as (P & N & B & Tc); auto.
      { now rewrite E1. }
      assert (exists b, rho c = [b]) as [b Hb].
      { destruct (matchb (erase (apat a)) v) eqn:Q.
        - apply matchb_spec in Q. rewrite (P Q). destruct (aguard a); [|eauto]. now destruct Ga as [_ ?].
        - exists B0. apply N. intros M. apply matchb_spec in M. congruence. }
      exists (b :: bs). cbn [length]. split; [congruence|]. cbn [map repeat flat combine fst snd].
      rewrite Tc, Hb, Et, Ev. split; [reflexivity|]. split; [reflexivity|].
      intros [|i] a' Q; cbn in Q.
      + injection Q as <-. exists b. split; [reflexivity|]. rewrite Hb in P, N. split; [exact P|]. split; [|exact B].
        intros M. specialize (N M). now injection N.
      + exact (K i a' Q).
  Qed.

  Theorem match_lowering operand self t ct v n before a after :
    let arms := before ++ a :: after in
    readable ct -> types operand = to_mir_type ct -> encodes ct v (rho operand) ->
    Forall (fun a => lpat_type ct (apat a) /\ types (abody a) = to_mir_type t /\ good_guard (aguard a)) arms ->
    has_width (to_mir_type t) (rho (abody a)) ->
    ok (lower_match self operand t arms n) ->
    Forall (fun b => ~ matches (erase (apat b)) v \/ exists g, aguard b = Some g /\ rho g = [B0]) before ->
    matches (erase (apat a)) v -> (forall g, aguard a = Some g -> rho g = [B1]) ->
    rho self = rho (abody a) /\
    (forall x s u, binds (apat a) v x s u -> encodes s u (rho (NName x))).
  Proof.
    intros arms R Ty En F W S Hb M G. unfold lower_match in S.
    destruct (match_arms operand arms n) as [[stmts ops] n'] eqn:E.
    apply Forall_app in S as [S Sm]. apply Forall_cons_iff in Sm as [[T V] _].
    destruct (match_arms_inv operand (to_mir_type t) v ct arms _ _ _ _ E S R Ty En F) as (bs & Lb & Et & Ev & K).
    assert (Ha : nth_error arms (length before) = Some a).
    { unfold arms. rewrite nth_error_app2, Nat.sub_diag by lia. reflexivity. }
    destruct (K _ _ Ha) as (b & Hbs & P & _ & B). split; [|exact B].
    assert (b = B1) as ->.
    { specialize (P M). destruct (aguard a) as [g|]; [rewrite (G g eq_refl) in P|]; now injection P. }
    rewrite Et, Ev in V.
    destruct (Nat.eq_dec (size (to_mir_type t)) 0) as [Z|Z].
    { rewrite op_value_zero in V by exact Z. apply Some_inj in V. unfold has_width in W. rewrite Z in W.
      apply length_zero_iff_nil in W. congruence. }
    set (cs := combine bs (map (fun a => rho (abody a)) arms)) in *.
    assert (Lc : length cs = length arms) by (unfold cs; rewrite combine_length, map_length; lia).
    rewrite <- Lc in V.
    assert (Nc : forall i x y, nth_error bs i = Some x -> nth_error arms i = Some y -> nth_error cs i = Some (x, rho (abody y))).
    { unfold cs. clear. revert bs. induction arms as [|y0 arms IH]; intros [|x0 bs] [|i] x y Hx Hy; cbn in *; try discriminate; auto.
      congruence. }
    rewrite (match_first (to_mir_type t) cs (length before) (rho (abody a)) Z) in V; auto.
    - apply Some_inj in V. congruence.
    - intros j c Hj Hc.
      assert (Hl : j < length arms) by (unfold arms; rewrite app_length; cbn; lia).
      destruct (nth_error arms j) as [aj|] eqn:Ej; [|apply nth_error_None in Ej; lia].
      destruct (K _ _ Ej) as (bj & Hbj & Pj & Nj & _).
      rewrite (Nc j bj aj Hbj Ej) in Hc. apply Some_inj in Hc. subst c. cbn [fst].
      unfold arms in Ej. rewrite nth_error_app1 in Ej by exact Hj.
      rewrite Forall_forall in Hb. destruct (Hb aj (nth_error_In _ _ Ej)) as [Q|(g & Qg & Qv)]; [auto|].
      destruct (matchb (erase (apat aj)) v) eqn:Qm.
      + apply matchb_spec in Qm. specialize (Pj Qm). rewrite Qg, Qv in Pj. now injection Pj.
      + apply Nj. intros Mj. apply matchb_spec in Mj. congruence.
  Qed.
End Final.
