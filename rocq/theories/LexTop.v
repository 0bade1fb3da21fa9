(** Which token comes first, numbers, literals and comments *)
From Coq Require Import NArith List Bool Ascii String Arith Lia.
From Verif Require Import LexModel LexSpec LexProofs.
Import ListNotations.
Open Scope N_scope.

(** * The beginning of a token tells its kind *)
Definition code (k : kind) : nat :=
  match k with
  | Fixed _ => 0 | Greek => 1 | Ident => 2 | Int => 3 | Hex => 4 | Oct => 5 | Bin => 6 | Label => 7 | LabelRef => 8 | Char => 9
  | Bytes => 10 | Utf8 => 11 | Str => 12 | Outer => 13 | Inner => 14 | Comment => 15 | Space => 16 | Open => 17 | Close => 18
  end%nat.
Definition guess (cl : classes) (w : text) : nat :=
  match w with
  | [] => 0%nat
  | c :: r =>
      let d := hd 0 r in
      if c =? 39 then (if existsb (N.eqb 39) r then 11%nat else 7%nat)
      else if c =? 64 then (match r with [] => 0%nat | _ => 8%nat end)
      else if c =? 34 then 12%nat
      else if c =? 47 then (if d =? 47 then (let e := hd 0 (tl r) in if e =? 47 then 13%nat else if e =? 33 then 14%nat else 15%nat) else if d =? 42 then 17%nat else 0%nat)
      else if c =? 42 then (if d =? 47 then 18%nat else 0%nat)
      else if c =? 894 then 1%nat
      else if existsb (N.eqb c) [32; 9; 10; 13] then 16%nat
      else if digit c then (if c =? 48 then (if d =? 120 then 4%nat else if d =? 111 then 5%nat else if d =? 98 then 6%nat else 3%nat) else 3%nat)
      else if (c =? 98) && (d =? 39) then 9%nat
      else if (c =? 98) && (d =? 34) then 10%nat
      else if first cl c then 2%nat else 0%nat
  end.

(** [first] and [further] are made of comparisons. *)
Lemma first_ascii cl c : c < 128 -> first cl c = true -> letter c = true \/ c = 95.
Proof.
  unfold first. intros L H. assert (B : beyond c = false) by (unfold beyond; apply andb_false_iff; left; apply N.ltb_ge; lia). rewrite B in H. cbn [andb] in H.
  rewrite orb_false_r in H. apply orb_prop in H as [H|H]; auto. right. unfold is in H. cbn in H. rewrite orb_false_r in H. now apply N.eqb_eq in H.
Qed.
Lemma further_ascii cl c : c < 128 -> further cl c = true -> letter c = true \/ digit c = true \/ c = 95.
Proof.
  unfold further. intros L H. assert (B : beyond c = false) by (unfold beyond; apply andb_false_iff; left; apply N.ltb_ge; lia). rewrite B in H. cbn [andb] in H.
  rewrite orb_false_r in H. apply orb_prop in H as [H|H]; [apply orb_prop in H as [H|H]; auto|]. right. right. unfold is in H. cbn in H. rewrite orb_false_r in H. now apply N.eqb_eq in H.
Qed.
Lemma letter_le c : letter c = true -> 65 <= c <= 122.
Proof. unfold letter. rewrite orb_true_iff, !andb_true_iff, !N.leb_le. lia. Qed.
Lemma digit_le c : digit c = true <-> 48 <= c <= 57.
Proof. unfold digit. rewrite andb_true_iff, !N.leb_le. lia. Qed.
Lemma first_not cl c : first cl c = true -> ~ In c [39; 64; 34; 47; 42; 894; 32; 9; 10; 13; 48; 49; 50; 51; 52; 53; 54; 55; 56; 57; 35].
Proof. intros H I. cbn in I. repeat (destruct I as [<-|I]; [vm_compute in H; discriminate|]). destruct I. Qed.
Lemma further_not cl c : further cl c = true -> ~ In c [39; 64; 34; 47; 42; 894; 32; 9; 10; 13; 35; 46].
Proof. intros H I. cbn in I. repeat (destruct I as [<-|I]; [vm_compute in H; discriminate|]). destruct I. Qed.
Lemma wordy_not cl c : wordy cl c = true -> ~ In c [32; 34; 39].
Proof. intros H I. cbn in I. repeat (destruct I as [<-|I]; [vm_compute in H; discriminate|]). destruct I. Qed.
Lemma all_not {A} (f : A -> bool) u x : forallb f u = true -> f x = false -> ~ In x u.
Proof. intros F N I. rewrite forallb_forall in F. apply F in I. congruence. Qed.
Lemma name_guess cl c u : name cl (c :: u) -> guess cl (c :: u) = 2%nat.
Proof.
  intros (c' & u' & E & F & R). inversion E; subst c' u'. pose proof (first_not _ _ F) as N. cbn in N. unfold guess.
  assert (NQ : c =? 39 = false) by (apply N.eqb_neq; intuition congruence). rewrite NQ.
  assert (N64 : c =? 64 = false) by (apply N.eqb_neq; intuition congruence). rewrite N64.
  assert (N34 : c =? 34 = false) by (apply N.eqb_neq; intuition congruence). rewrite N34.
  assert (N47 : c =? 47 = false) by (apply N.eqb_neq; intuition congruence). rewrite N47.
  assert (N42 : c =? 42 = false) by (apply N.eqb_neq; intuition congruence). rewrite N42.
  assert (N894 : c =? 894 = false) by (apply N.eqb_neq; intuition congruence). rewrite N894.
  assert (SP : existsb (N.eqb c) [32; 9; 10; 13] = false).
  { destruct (existsb _ _) eqn:E'; auto. apply existsb_exists in E' as (x & I & E'). apply N.eqb_eq in E'. subst x. cbn in I. intuition congruence. }
  rewrite SP. assert (DG : digit c = false).
  { destruct (digit c) eqn:D; auto. apply digit_le in D. exfalso. assert (c = 48 \/ c = 49 \/ c = 50 \/ c = 51 \/ c = 52 \/ c = 53 \/ c = 54 \/ c = 55 \/ c = 56 \/ c = 57) by lia. intuition congruence. }
  rewrite DG, F. assert (H : hd 0 u =? 39 = false /\ hd 0 u =? 34 = false).
  { destruct u as [|d u]; [split; reflexivity|]. cbn in R |- *. apply andb_prop in R as [R _]. apply further_not in R. cbn in R. split; apply N.eqb_neq; intuition congruence. }
  destruct H as [-> ->]. rewrite !andb_false_r. reflexivity.
Qed.
Lemma digit_guess cl c r : digit c = true -> guess cl (c :: r) = if c =? 48 then (if hd 0 r =? 120 then 4%nat else if hd 0 r =? 111 then 5%nat else if hd 0 r =? 98 then 6%nat else 3%nat) else 3%nat.
Proof.
  intros D. unfold guess. pose proof (proj1 (digit_le c) D) as L. assert (SP : existsb (N.eqb c) [32; 9; 10; 13] = false).
  { destruct (existsb _ _) eqn:E'; auto. apply existsb_exists in E' as (x & I & E'). apply N.eqb_eq in E'. subst x. cbn in I. destruct I as [I|[I|[I|[I|[]]]]]; subst; lia. }
  rewrite SP, D. repeat match goal with |- context [c =? ?x] => lazymatch x with 48 => fail | _ => replace (c =? x) with false by (symmetry; apply N.eqb_neq; lia) end end. reflexivity.
Qed.
Lemma fixed_guess cl s : In s keywords -> guess cl (chars s) = 2%nat.
Proof. intros I. cbn in I. repeat (destruct I as [<-|I]; [vm_compute; reflexivity|]). destruct I. Qed.
Lemma marks_guess cl s : In s marks -> guess cl (chars s) = 0%nat.
Proof. intros I. cbn in I. repeat (destruct I as [<-|I]; [vm_compute; reflexivity|]). destruct I. Qed.

Lemma guess_ok cl k w : spelled cl k w ->
  match k with
  | Fixed s => (In s keywords /\ guess cl w = 2%nat) \/ (In s marks /\ guess cl w = 0%nat)
  | Comment => In (guess cl w) [13; 14; 15]%nat
  | _ => guess cl w = code k
  end.
Proof.
  destruct k; cbn [spelled code].
  - intros [I ->]. apply in_app_or in I as [I|I]; [left|right]; split; auto; [apply fixed_guess|apply marks_guess]; auto.
  - intros ->. reflexivity.
  - intros [(c & u & -> & H)|(u & -> & H)].
    + apply name_guess. exists c, u. auto.
    + destruct H as (c & v & -> & F & R). vm_compute. reflexivity.
  - intros (d & ds & s & -> & D & L & H). rewrite digit_guess; auto. destruct (d =? 48); auto.
    assert (X : forall x, In x [120; 111; 98] -> hd 0 (ds ++ s) =? x = false).
    { intros x I. apply N.eqb_neq. intros E. destruct ds as [|e ds]; cbn in E, L.
      - destruct H as [->|(m & n & -> & M & _)]; cbn in E; [subst; cbn in I; intuition discriminate|]. subst m. cbn in I. repeat (destruct I as [<-|I]; [vm_compute in M; discriminate|]). destruct I.
      - apply andb_prop in L as [L _]. subst e. cbn in I. repeat (destruct I as [<-|I]; [vm_compute in L; discriminate|]). destruct I. }
    rewrite !X by (cbn; auto). reflexivity.
  - intros (u & -> & _). reflexivity.
  - intros (u & -> & _). reflexivity.
  - intros (u & -> & _). reflexivity.
  - intros (u & -> & (c & v & -> & F & R)). cbn [guess]. change (quote1 =? 39) with true. cbn [existsb].
    assert (X : existsb (N.eqb 39) (c :: v) = false).
    { destruct (existsb _ _) eqn:E; auto. apply existsb_exists in E as (x & I & E). apply N.eqb_eq in E. subst x. destruct I as [I|I].
      - subst c. apply first_not in F. cbn in F. tauto.
      - rewrite forallb_forall in R. apply R, further_not in I. cbn in I. tauto. }
    cbn [existsb] in X. rewrite X. reflexivity.
  - intros (u & -> & (c & v & -> & _)). reflexivity.
  - intros (u & -> & _). reflexivity.
  - intros (u & -> & _). reflexivity.
  - intros (c & -> & _). cbn. rewrite orb_true_r. reflexivity.
  - intros (u & -> & _). reflexivity.
  - intros (u & -> & _). reflexivity.
  - intros (u & -> & _). reflexivity.
  - cbn [In]. intros [<-|[<-|[<-|[<-|[]]]]]; reflexivity.
  - intros (u & -> & _). cbn. destruct (hd 0 u =? 47); cbn; auto. destruct (hd 0 u =? 33); cbn; auto.
  - intros ->. reflexivity.
  - intros ->. reflexivity.
Qed.
Lemma chars_inj : forall s s', chars s = chars s' -> s = s'.
Proof.
  induction s as [|a s IH]; intros [|b s'] H; cbn in H; try discriminate; auto. inversion H. f_equal; auto.
  rewrite <- (ascii_N_embedding a), <- (ascii_N_embedding b). congruence.
Qed.
Lemma apart s : In s keywords -> In s marks -> False.
Proof.
  intros I J. assert (C : forallb (fun s => negb (existsb (String.eqb s) marks)) keywords = true) by (vm_compute; reflexivity).
  rewrite forallb_forall in C. specialize (C s I). apply negb_true_iff in C. assert (X : existsb (String.eqb s) marks = true) by (apply existsb_exists; exists s; split; [exact J|apply String.eqb_refl]). congruence.
Qed.
Lemma one_kind cl k k' w : spelled cl k w -> spelled cl k' w -> k = k' \/ preferred k k' \/ preferred k' k.
Proof.
  intros H H'. pose proof (guess_ok cl k w H) as G. pose proof (guess_ok cl k' w H') as G'.
  destruct k, k'; cbn [code preferred In] in *; auto;
    try (destruct G as [[? G]|[? G]]); try (destruct G' as [[? G']|[? G']]); try (rewrite G in G'; discriminate); auto;
    try (left; f_equal; apply chars_inj; destruct H, H'; congruence);
    try (exfalso; intuition congruence); try tauto.
Qed.

(** * The first token *)
Lemma winner_in : forall rs k w, winner rs k w -> exists r, In (k, r) rs /\ lang r w.
Proof.
  induction rs as [|[k' r] rs IH]; intros k w W; [destruct W|]. destruct W as [[-> L]|[_ W]]; [exists r; cbn; auto|]. destruct (IH _ _ W) as (r' & I & L). exists r'. cbn. auto.
Qed.
Lemma winner_first : forall rs k w k' r', winner rs k w -> In (k', r') rs -> lang r' w -> exists a b r, rs = a ++ (k, r) :: b /\ In (k', r') ((k, r) :: b).
Proof.
  induction rs as [|[k0 r0] rs IH]; intros k w k' r' W I L; [destruct I|]. destruct W as [[-> L0]|[N W]].
  - exists [], rs, r0. auto.
  - destruct I as [E|I]; [inversion E; subst; contradiction|]. destruct (IH _ _ _ _ W I L) as (a & b & r & -> & J). exists ((k0, r0) :: a), b, r. auto.
Qed.
(** Positions in the table: keywords come before names, documentation before comments. *)
Definition rank (k : kind) : nat := match k with Fixed _ => 0 | Ident => 1 | Outer | Inner => 2 | Comment => 3 | _ => 1 end%nat.
Lemma rules_sorted cl : forall a b kr kr', rules cl = a ++ kr :: b -> In kr' b -> (rank (fst kr) <= rank (fst kr'))%nat.
Proof.
  assert (X : forall rs : list rule, (forall i j, (i < j < List.length rs)%nat -> (rank (fst (nth i rs (Comment, Zero))) <= rank (fst (nth j rs (Comment, Zero))))%nat) ->
    forall a b kr kr', rs = a ++ kr :: b -> In kr' b -> (rank (fst kr) <= rank (fst kr'))%nat).
  { intros rs H a b kr kr' -> I. apply (In_nth _ _ (Comment, Zero)) in I as (n & L & <-). specialize (H (List.length a) (List.length a + S n)%nat). rewrite app_length in H. cbn [List.length] in H.
    rewrite nth_middle in H. rewrite app_nth2 in H by lia. replace (List.length a + S n - List.length a)%nat with (S n) in H by lia. cbn [nth] in H. apply H. lia. }
  apply X. intros i j [L M].
  assert (C : forallb (fun i => forallb (fun j => (j <=? i) || (rank (fst (nth i (rules cl) (Comment, Zero))) <=? rank (fst (nth j (rules cl) (Comment, Zero)))))%nat (List.seq 0 (List.length (rules cl)))) (List.seq 0 (List.length (rules cl))) = true) by (vm_compute; reflexivity).
  rewrite forallb_forall in C. specialize (C i). rewrite forallb_forall in C. specialize (C ltac:(apply in_seq; lia) j ltac:(apply in_seq; lia)).
  apply orb_prop in C as [C|C]; apply Nat.leb_le in C; lia.
Qed.
Lemma winner_preferred cl k w k' : winner (rules cl) k w -> spelled cl k' w -> k = k' \/ preferred k k'.
Proof.
  intros W S. destruct (rules_all cl k' w S) as [r' I]. pose proof S as L. apply (rules_ok cl k' r' I) in L.
  destruct (winner_first _ _ _ _ _ W I L) as (a & b & r & E & J). destruct (winner_in _ _ _ W) as (r0 & I0 & L0). apply (rules_ok cl k r0 I0) in L0.
  destruct (one_kind cl k k' w L0 S) as [|[P|P]]; auto. destruct J as [J|J]; [inversion J; auto|]. pose proof (rules_sorted cl a b _ _ E J) as R. cbn in R.
  exfalso. destruct k', k; cbn in P, R; try contradiction; lia.
Qed.
Lemma spelled_nonempty cl k : ~ spelled cl k [].
Proof.
  intros H. pose proof (guess_ok cl k [] H) as G. destruct k; cbn [guess code In] in G; try discriminate G; try (intuition discriminate).
  destruct H as [I E]. destruct s; [|discriminate]. revert I. clear. cbn. intros I. repeat (destruct I as [I|I]; [discriminate|]). destruct I.
Qed.

Lemma munch_some rs t k n : munch rs t 0 None = Some (k, n) -> (n <= List.length t)%nat /\ winner rs k (firstn n t) /\ forall i, (n < i <= List.length t)%nat -> ~ matched rs (firstn i t).
Proof.
  intros M. pose proof (munch_ok t rs 0 None) as P. rewrite M in P. cbn [munched] in P. destruct P as [[E _]|(j & L & E & W & NM)]; [discriminate|]. cbn in E. subst n. auto.
Qed.
Lemma munch_none rs t : munch rs t 0 None = None -> forall i, (i <= List.length t)%nat -> ~ matched rs (firstn i t).
Proof. intros M. pose proof (munch_ok t rs 0 None) as P. rewrite M in P. destruct P as [_ NM]. exact NM. Qed.
Lemma lex_eq cl more c t : lex cl more (c :: t) = match munch (rules cl) (c :: t) 0 None with Some (k, n) => Token k (firstn n (c :: t)) (skipn n (c :: t)) | None => Bad (skipn (more (c :: t)) t) end.
Proof. reflexivity. Qed.
Lemma prefix_firstn {A} (t w r : list A) : t = w ++ r -> firstn (List.length w) t = w /\ (List.length w <= List.length t)%nat.
Proof. intros ->. rewrite firstn_app, firstn_all, Nat.sub_diag, app_nil_r, app_length. split; [reflexivity|lia]. Qed.
Lemma lex_token cl more t k w r : lex cl more t = Token k w r ->
  t = w ++ r /\ w <> [] /\ spelled cl k w /\
  (forall k' w' r', t = w' ++ r' -> spelled cl k' w' -> (List.length w' <= List.length w)%nat) /\
  (forall k', spelled cl k' w -> k = k' \/ preferred k k').
Proof.
  intros H. destruct t as [|c t]; [discriminate|]. rewrite lex_eq in H. pose proof (munch_some (rules cl) (c :: t)) as P. revert H P.
  generalize (munch (rules cl) (c :: t) 0 None). intros o H P. destruct o as [[k0 n]|]; [|discriminate].
  destruct (P k0 n eq_refl) as (L & W & NM). clear P. inversion H; subst k0 w r.
  destruct (winner_in _ _ _ W) as (r & I & LG). apply (rules_ok cl k r I) in LG.
  split; [symmetry; apply firstn_skipn|]. split; [intros E; rewrite E in LG; exact (spelled_nonempty _ _ LG)|]. split; [exact LG|]. split.
  - intros k' w' r' E S. rewrite firstn_length_le by exact L. destruct (Nat.le_gt_cases (List.length w') n) as [|G]; auto. exfalso.
    destruct (prefix_firstn _ _ _ E) as [E1 E2]. apply (NM (List.length w')); [lia|]. rewrite E1. apply matched_spelled. exists k'. exact S.
  - intros k' S. eapply winner_preferred; eauto.
Qed.
Lemma lex_bad cl more c t r : lex cl more (c :: t) = Bad r -> r = skipn (more (c :: t)) t /\ forall k w r', c :: t = w ++ r' -> ~ spelled cl k w.
Proof.
  intros H. rewrite lex_eq in H. pose proof (munch_none (rules cl) (c :: t)) as P. revert H P. generalize (munch (rules cl) (c :: t) 0 None). intros o H P. destruct o as [[k0 n]|]; [discriminate|].
  specialize (P eq_refl). split; [congruence|]. intros k w r' E S. destruct (prefix_firstn _ _ _ E) as [E1 E2]. apply (P (List.length w)); [exact E2|]. rewrite E1. apply matched_spelled. exists k. exact S.
Qed.
Lemma lex_end cl more t : lex cl more t = End -> t = [].
Proof. destruct t as [|c t]; auto. rewrite lex_eq. generalize (munch (rules cl) (c :: t) 0 None). intros [[k n]|]; discriminate. Qed.
Lemma lex_of cl more k w r : spelled cl k w -> (forall k' v, spelled cl k' (w ++ v) -> v <> [] -> forall r', r <> v ++ r') -> (forall k', spelled cl k' w -> k' = k \/ ~ preferred k' k) ->
  lex cl more (w ++ r) = Token k w r.
Proof.
  intros S NL U. assert (NE : w <> []) by (intros ->; exact (spelled_nonempty _ _ S)). destruct (lex cl more (w ++ r)) as [|r0|k0 w0 r0] eqn:E.
  - apply lex_end in E. destruct w; [congruence|discriminate].
  - exfalso. destruct w as [|c w]; [congruence|]. apply lex_bad in E as [_ E]. apply (E k (c :: w) r); auto.
  - apply lex_token in E as (A & B & C & D & F). pose proof (D k w r eq_refl S) as L.
    assert (w0 = w /\ r0 = r) as [-> ->].
    { apply app_eq_app in A as (v & [[-> ->]|[-> ->]]).
      - (* w = w0 ++ v *) rewrite app_length in L. destruct v; [rewrite app_nil_r; auto|cbn in L; lia].
      - destruct v as [|x v]; [rewrite app_nil_r; auto|]. exfalso. apply (NL k0 (x :: v) C) with (r' := r0); [discriminate|reflexivity]. }
    f_equal. destruct (F k S) as [->|P]; auto. destruct (U k0 C) as [->|Q]; auto. contradiction.
Qed.
