(** Proofs about LexModel.v *)
From Coq Require Import NArith List Bool Ascii String Arith Lia.
From Verif Require Import LexModel LexSpec.
Import ListNotations.
Open Scope N_scope.

(** * Languages of regular expressions *)
Inductive star (P : text -> Prop) : text -> Prop :=
| S_nil : star P []
| S_app u v : P u -> star P v -> star P (u ++ v).
Fixpoint lang (r : regex) (w : text) : Prop :=
  match r with
  | Zero => False
  | One => w = []
  | Cls f => exists c, w = [c] /\ f c = true
  | Seq a b => exists u v, w = u ++ v /\ lang a u /\ lang b v
  | Alt a b => lang a w \/ lang b w
  | Star a => star (lang a) w
  end.
Lemma nullable_ok r : nullable r = true <-> lang r [].
Proof.
  induction r; cbn.
  - split; [discriminate|intros []].
  - intuition.
  - split; [discriminate|intros (c & E & _); discriminate].
  - rewrite andb_true_iff, IHr1, IHr2. split; [intros [A B]; exists [], []; auto|]. intros (u & v & E & A & B). symmetry in E. apply app_eq_nil in E as [-> ->]. auto.
  - rewrite orb_true_iff, IHr1, IHr2. reflexivity.
  - split; auto. intros _. constructor.
Qed.
Lemma seq_ok a b w : lang (seq a b) w <-> lang (Seq a b) w.
Proof.
  assert (Z : forall x, lang (Seq x Zero) w <-> False) by (intros x; split; [intros (u & v & _ & _ & []) | intros []]).
  assert (Y : forall x, lang (Seq Zero x) w <-> False) by (intros x; split; [intros (u & v & _ & [] & _) | intros []]).
  assert (X : forall x, lang (Seq One x) w <-> lang x w). { intros x. split; [intros (u & v & -> & -> & H); exact H|]. intros H. exists [], w. cbn. auto. }
  destruct a; cbn [seq]; try (rewrite Y; cbn; tauto); destruct b; cbn [seq]; try (rewrite Z; cbn; tauto); try (rewrite X; reflexivity); reflexivity.
Qed.
Lemma alt_ok a b w : lang (alt a b) w <-> lang a w \/ lang b w.
Proof. destruct a; cbn [alt]; try (cbn; tauto); destruct b; cbn; tauto. Qed.
Lemma star_cons P c w : star P (c :: w) <-> exists u v, w = u ++ v /\ P (c :: u) /\ star P v.
Proof.
  split.
  - intros H. remember (c :: w) as x eqn:E. revert c w E. induction H as [|u v A B IH]; intros c w E; [discriminate|]. destruct u as [|d u]; cbn in E; [auto|].
    inversion E; subst. exists u, v. auto.
  - intros (u & v & -> & A & B). apply (S_app P (c :: u) v A B).
Qed.
Lemma deriv_ok c : forall r w, lang (deriv c r) w <-> lang r (c :: w).
Proof.
  induction r; intros w; cbn [deriv].
  - reflexivity.
  - cbn. split; [intros []|discriminate].
  - cbn. destruct (f c) eqn:F; cbn; split.
    + intros ->. exists c. auto.
    + intros (d & E & _). inversion E. auto.
    + intros [].
    + intros (d & E & H). inversion E; subst. congruence.
  - assert (X : lang (Seq (deriv c r1) r2) w <-> exists u v, w = u ++ v /\ lang r1 (c :: u) /\ lang r2 v).
    { cbn. split; intros (u & v & E & A & B); exists u, v; (split; [exact E|split; [now apply IHr1|exact B]]). }
    assert (Y : lang (Seq r1 r2) (c :: w) <-> (exists u v, w = u ++ v /\ lang r1 (c :: u) /\ lang r2 v) \/ (lang r1 [] /\ lang r2 (c :: w))).
    { split.
      - intros (u & v & E & A & B). destruct u as [|d u]; [right; cbn in E; subst; auto|]. inversion E; subst. left. exists u, v. auto.
      - intros [(u & v & -> & A & B)|[A B]]; [exists (c :: u), v; auto|exists [], (c :: w); auto]. }
    rewrite Y. destruct (nullable r1) eqn:N.
    + rewrite alt_ok, seq_ok, X, IHr2. apply nullable_ok in N. tauto.
    + rewrite seq_ok, X. split; auto. intros [H|[H _]]; auto. apply nullable_ok in H. congruence.
  - rewrite alt_ok, IHr1, IHr2. reflexivity.
  - rewrite seq_ok. cbn [lang]. rewrite star_cons. split; intros (u & v & E & A & B); exists u, v; (split; [exact E|split; [now apply IHr|exact B]]).
Qed.

(** * The longest match *)
Notation rule := (kind * regex)%type.
Fixpoint winner (rs : list rule) (k : kind) (w : text) : Prop :=
  match rs with
  | [] => False
  | (k', r) :: rs => (k = k' /\ lang r w) \/ (~ lang r w /\ winner rs k w)
  end.
Definition matched (rs : list rule) (w : text) : Prop := exists k r, In (k, r) rs /\ lang r w.
Lemma advance_winner c k w : forall rs, winner (advance c rs) k w <-> winner rs k (c :: w).
Proof.
  induction rs as [|[k' r] rs IH]; [reflexivity|]. unfold advance. cbn [map filter]. cbn [fst snd]. fold (advance c rs).
  assert (D := deriv_ok c r w). cbn [winner]. rewrite <- D, <- IH. destruct (deriv c r); cbn [winner]; try reflexivity; cbn; tauto.
Qed.
Lemma advance_matched c w rs : matched (advance c rs) w <-> matched rs (c :: w).
Proof.
  unfold matched, advance. split.
  - intros (k & r & I & L). apply filter_In in I as [I _]. apply in_map_iff in I as ([k' r'] & E & I). inversion E; subst. exists k, r'. split; auto. now apply deriv_ok.
  - intros (k & r & I & L). apply deriv_ok in L. exists k, (deriv c r). split; auto. apply filter_In. split; [apply in_map_iff; exists (k, r); auto|]. cbn. destruct (deriv c r); auto.
Qed.
Lemma find_winner rs : match find (fun kr => nullable (snd kr)) rs with Some kr => winner rs (fst kr) [] | None => ~ matched rs [] end.
Proof.
  induction rs as [|[k r] rs IH]; cbn; [intros (k & r & [] & _)|]. destruct (nullable r) eqn:N; cbn.
  - left. split; auto. now apply nullable_ok.
  - assert (NL : ~ lang r []) by (intros L; apply nullable_ok in L; congruence). destruct (find _ rs) as [kr|]; [right; auto|].
    intros (k' & r' & [E|I] & L); [inversion E; subst; contradiction|apply IH; exists k', r'; auto].
Qed.
Definition munched (rs : list rule) (t : text) (n : nat) (best res : option (kind * nat)) : Prop :=
  match res with
  | Some (k, m) =>
      (best = Some (k, m) /\ forall j, (j <= List.length t)%nat -> ~ matched rs (firstn j t)) \/
      exists j, (j <= List.length t)%nat /\ m = (n + j)%nat /\ winner rs k (firstn j t) /\ forall i, (j < i <= List.length t)%nat -> ~ matched rs (firstn i t)
  | None => best = None /\ forall j, (j <= List.length t)%nat -> ~ matched rs (firstn j t)
  end.
Lemma munch_ok : forall t rs n best, munched rs t n best (munch rs t n best).
Proof.
  induction t as [|c t IH]; intros rs n best; cbn [munch]; pose proof (find_winner rs) as F.
  - destruct (find _ rs) as [[k r]|]; cbn in *.
    + right. exists O. cbn. repeat split; auto; lia.
    + destruct best as [[k m]|]; cbn; [left|]; (split; [reflexivity|]); intros j L; destruct j; auto.
  - set (best' := match find _ rs with Some kr => Some (fst kr, n) | None => best end).
    assert (B : match find (fun kr => nullable (snd kr)) rs with Some kr => best' = Some (fst kr, n) | None => best' = best end) by (unfold best'; destruct (find _ rs); reflexivity).
    assert (STEP : forall i, (0 < i <= S (List.length t))%nat -> firstn i (c :: t) = c :: firstn (i - 1) t).
    { intros i L. destruct i as [|i]; [lia|]. cbn. now rewrite Nat.sub_0_r. }
    assert (REST : forall res, munched (advance c rs) t (S n) best' res -> munched rs (c :: t) n best res).
    { intros res M. destruct res as [[k m]|]; cbn in M |- *.
      - destruct M as [[E NM]|(j & L & -> & W & NM)].
        + destruct (find (fun kr => nullable (snd kr)) rs) as [[k0 r0]|].
          * right. exists O. cbn in F. rewrite B in E. inversion E; subst. cbn. split; [lia|]. split; [lia|]. split; [exact F|]. intros i I. rewrite STEP by lia. rewrite <- advance_matched. apply NM. lia.
          * left. split; [congruence|]. intros j J. destruct j as [|j]; [exact F|]. rewrite STEP by lia. rewrite <- advance_matched. apply NM. lia.
        + right. exists (S j). split; [lia|]. split; [lia|]. split; [rewrite STEP by lia; rewrite <- advance_winner; replace (S j - 1)%nat with j by lia; exact W|].
          intros i I. rewrite STEP by lia. rewrite <- advance_matched. apply NM. lia.
      - destruct M as [E NM]. destruct (find (fun kr => nullable (snd kr)) rs) as [[k0 r0]|]; [congruence|]. split; [congruence|]. intros j J. destruct j as [|j]; [exact F|]. rewrite STEP by lia. rewrite <- advance_matched. apply NM. lia. }
    apply REST. destruct (advance c rs) as [|x l] eqn:A.
    + assert (NM : forall w, ~ matched [] w) by (intros w (k & r & [] & _)). destruct best' as [[k m]|]; cbn; auto.
    + rewrite <- A. apply IH.
Qed.

(** * The rules and the spelling *)
Lemma lit_ok s w : lang (lit s) w <-> w = chars s.
Proof.
  unfold lit. generalize (chars s). intros l. revert w. induction l as [|c l IH]; intros w; cbn; [reflexivity|]. split.
  - intros (u & v & -> & (d & -> & E) & L). apply IH in L. apply N.eqb_eq in E. subst. reflexivity.
  - intros ->. exists [c], l. split; [reflexivity|]. split; [exists c; split; auto; apply N.eqb_refl|]. now apply IH.
Qed.
Lemma star_cls f w : lang (Star (Cls f)) w <-> forallb f w = true.
Proof.
  cbn. induction w as [|c w IH]; cbn; [split; auto; constructor|]. rewrite star_cons, andb_true_iff, <- IH. split.
  - intros (u & v & -> & (d & E & F) & S). inversion E; subst. auto.
  - intros [F S]. exists [], w. split; [reflexivity|]. split; [exists c; auto|exact S].
Qed.
Lemma name_ok cl w : lang (Seq (Cls (first cl)) (Star (Cls (further cl)))) w <-> name cl w.
Proof.
  split.
  - intros (u & v & -> & (c & -> & F) & L). apply star_cls in L. exists c, v. auto.
  - intros (c & u & -> & F & L). exists [c], u. split; [reflexivity|]. split; [exists c; auto|]. now apply star_cls.
Qed.
Lemma after_lit s r w : lang (Seq (lit s) r) w <-> exists u, w = chars s ++ u /\ lang r u.
Proof.
  split.
  - intros (u & v & -> & L & H). apply lit_ok in L. subst. exists v. auto.
  - intros (u & -> & H). exists (chars s), u. split; [reflexivity|]. split; [now apply lit_ok|exact H].
Qed.
Lemma numeral_ok dig wid w : lang (number dig (under dig) wid) w <-> numeral dig wid w.
Proof.
  unfold number, numeral. split.
  - intros (u & v & -> & (d & -> & D) & (ds & s & -> & L & H)). apply star_cls in L. exists d, ds, s. split; [reflexivity|]. split; [exact D|]. split; [exact L|].
    destruct H as [H|(m & n & -> & (c & -> & M) & H)]; [left; exact H|]. apply star_cls in H. right. exists c, n. auto.
  - intros (d & ds & s & -> & D & L & H). exists [d], (ds ++ s). split; [reflexivity|]. split; [exists d; auto|]. exists ds, s. split; [reflexivity|]. split; [now apply star_cls|].
    destruct H as [->|(m & n & -> & M & H)]; [left; reflexivity|]. right. exists [m], n. split; [reflexivity|]. split; [exists m; auto|now apply star_cls].
Qed.
Lemma content_app q u v : content q u -> content q v -> content q (u ++ v).
Proof. intros H. induction H; cbn; intros V; auto; [apply C_escape|apply C_plain]; auto. Qed.
Lemma quoted_ok q w : lang (quoted q) w <-> exists u, w = u ++ [q] /\ content q u.
Proof.
  unfold quoted. split.
  - intros (u & v & -> & S & (c & -> & E)). apply N.eqb_eq in E. subst c. exists u. split; [reflexivity|]. cbn [lang] in S.
    induction S as [|a b A B IH]; [constructor|]. apply content_app; [|exact IH]. destruct A as [(x & y & -> & (c & -> & C) & (d & -> & D))|(c & -> & C)].
    + apply N.eqb_eq in C. subst c. cbn. apply C_escape; [|constructor]. apply negb_true_iff, N.eqb_neq in D. exact D.
    + apply andb_prop in C as [C1 C2]. apply negb_true_iff, N.eqb_neq in C1, C2. apply C_plain; auto. constructor.
  - intros (u & -> & C). exists u, [q]. split; [reflexivity|]. split; [|exists q; split; auto; apply N.eqb_refl]. cbn [lang]. induction C as [|c t N C IH|c t N1 N2 C IH].
    + constructor.
    + apply (S_app _ [backslash; c] t); auto. left. exists [backslash], [c]. split; [reflexivity|]. split; [exists backslash; auto|]. exists c. split; auto. now apply negb_true_iff, N.eqb_neq.
    + apply (S_app _ [c] t); auto. right. exists c. split; auto. apply andb_true_iff. split; now apply negb_true_iff, N.eqb_neq.
Qed.
Lemma notin_forallb q u : forallb (fun c => negb (c =? q)) u = true <-> ~ In q u.
Proof.
  induction u as [|c u IH]; cbn; [intuition|]. rewrite andb_true_iff, IH, negb_true_iff, N.eqb_neq. intuition.
Qed.
Lemma rules_ok cl k r : In (k, r) (rules cl) -> forall w, lang r w <-> spelled cl k w.
Proof.
  unfold rules. intros I. apply in_app_or in I as [I|I].
  - apply in_map_iff in I as (s & E & I). inversion E; subst. intros w. rewrite lit_ok. cbn [spelled]. tauto.
  - cbn [In] in I. repeat (destruct I as [I|I]; [injection I; intros; subst k r; clear I|]); [..|destruct I]; cbn [spelled].
    + apply lit_ok.
    + apply lit_ok.
    + cbn [lang]. split; [intros (c & -> & E); apply N.eqb_eq in E; now subst|]. intros ->. exists 894. auto.
    + cbn [lang]. split.
      * intros (c & -> & E). rewrite !orb_true_iff, !N.eqb_eq in E. cbn [In]. destruct E as [->|[->|[->|[->|E]]]]; [auto..|discriminate].
      * cbn. intros [<-|[<-|[<-|[<-|[]]]]]; eexists; split; reflexivity.
    + split.
      * intros (u & v & -> & H & L). apply name_ok in L. destruct H as [H|H]; [cbn in H; subst u; left; exact L|]. apply lit_ok in H. subst u. right. exists v. auto.
      * intros [H|(u & -> & H)]; apply name_ok in H; [exists [], w|exists (chars "r#"), u]; (split; [reflexivity|]); split; auto; [left; reflexivity|right; now apply lit_ok].
    + apply numeral_ok.
    + rewrite after_lit. split; intros (u & -> & H); exists u; (split; [reflexivity|]); now apply (numeral_ok hex digit).
    + rewrite after_lit. split; intros (u & -> & H); exists u; (split; [reflexivity|]); now apply (numeral_ok oct oct).
    + rewrite after_lit. split; intros (u & -> & H); exists u; (split; [reflexivity|]); now apply (numeral_ok bin digit).
    + rewrite after_lit. split; intros (u & -> & H); exists u; (split; [reflexivity|]); now apply name_ok.
    + rewrite after_lit. split; intros (u & -> & H); exists u; (split; [reflexivity|]); now apply name_ok.
    + rewrite after_lit. split; [intros (u & -> & H); apply quoted_ok in H as (v & -> & H); exists v; auto|]. intros (u & -> & H). exists (u ++ [quote1]). split; [reflexivity|]. apply quoted_ok. eauto.
    + rewrite after_lit. split; [intros (u & -> & H); apply quoted_ok in H as (v & -> & H); exists v; auto|]. intros (u & -> & H). exists (u ++ [quote2]). split; [reflexivity|]. apply quoted_ok. eauto.
    + rewrite after_lit. split.
      * intros (u & -> & (a & b & -> & (c & -> & C) & H)). apply lit_ok in H. subst b. exists c. auto.
      * intros (c & -> & C). exists [c; quote1]. split; [reflexivity|]. exists [c], [quote1]. split; [reflexivity|]. split; [exists c; auto|]. now apply lit_ok.
    + rewrite after_lit. split.
      * intros (u & -> & (a & b & -> & S & H)). apply lit_ok in H. subst b. apply star_cls, notin_forallb in S. exists a. auto.
      * intros (u & -> & S). exists (u ++ [quote2]). split; [reflexivity|]. exists u, [quote2]. split; [reflexivity|]. split; [now apply star_cls, notin_forallb|]. now apply lit_ok.
    + rewrite after_lit. split; intros (u & -> & H); exists u; (split; [reflexivity|]); now apply star_cls.
    + rewrite after_lit. split; intros (u & -> & H); exists u; (split; [reflexivity|]); now apply star_cls.
    + rewrite after_lit. split; intros (u & -> & H); exists u; (split; [reflexivity|]); now apply star_cls.
Qed.
Lemma rules_all cl k w : spelled cl k w -> exists r, In (k, r) (rules cl).
Proof.
  intros H. unfold rules. destruct k; [destruct H as [I _]; exists (lit s); apply in_or_app; left; apply in_map_iff; exists s; auto|..];
    eexists; apply in_or_app; right; cbn [In]; repeat (first [left; reflexivity|right]).
Qed.
Lemma matched_spelled cl w : matched (rules cl) w <-> exists k, spelled cl k w.
Proof.
  split.
  - intros (k & r & I & L). exists k. now apply (rules_ok cl k r I).
  - intros [k S]. destruct (rules_all cl k w S) as [r I]. exists k, r. split; auto. now apply (rules_ok cl k r I).
Qed.
