(** Comments *)
From Coq Require Import NArith List Bool Ascii String Arith Lia.
From Verif Require Import LexModel LexSpec LexProofs LexTop LexMore.
Import ListNotations.
Open Scope N_scope.

Section Comments.
  Variables (cl : classes) (more : text -> nat).
  Notation lx := (lex cl more).
  Notation hp := (helper cl more).
  Notation ins := (inside cl more).

  Lemma inside_eq f t : ins (S f) t =
    match hp f t with
    | None => None
    | Some (Failed r) => ins f r
    | Some (Got Close _ r) => hp f r
    | Some Eof => Some (Failed [])
    | Some (Got _ _ r) => ins f r
    end.
  Proof. reflexivity. Qed.
  Lemma mono : forall f t x, (hp f t = Some x -> hp (S f) t = Some x) /\ (ins f t = Some x -> ins (S f) t = Some x).
  Proof.
    induction f as [|f IH]; intros t x; [split; discriminate|]. split.
    - rewrite !(helper_eq cl more). destruct (lx t) as [|r|k w r]; auto. destruct k; auto; apply IH.
    - rewrite !inside_eq. destruct (hp f t) as [y|] eqn:E; [|discriminate]. apply IH in E. rewrite E. destruct y as [|r|k w r]; auto; [apply IH|]. destruct k; apply IH.
  Qed.
  Lemma mono_le f g t x : (f <= g)%nat -> (hp f t = Some x -> hp g t = Some x) /\ (ins f t = Some x -> ins g t = Some x).
  Proof.
    intros L. induction L as [|g L IH]; [auto|]. destruct IH as [A B]. split; intros H; apply mono; auto.
  Qed.
  Lemma lex_shorter t : match lx t with End => t = [] | Bad r | Token _ _ r => (List.length r < List.length t)%nat end.
  Proof.
    destruct (lx t) as [|r|k w r] eqn:E.
    - now apply lex_end in E.
    - destruct t as [|c t]; [discriminate|]. apply lex_bad in E as [-> _]. rewrite skipn_length. cbn. lia.
    - apply lex_token in E as (-> & N & _). rewrite app_length. destruct w; [congruence|cbn; lia].
  Qed.
  Lemma ends : forall f t,
    ((2 * List.length t + 1 <= f)%nat -> exists x, hp f t = Some x /\ match x with Eof => True | Failed r | Got _ _ r => (List.length r < List.length t)%nat end) /\
    ((2 * List.length t + 2 <= f)%nat -> exists x, ins f t = Some x /\ match x with Eof => True | Failed r | Got _ _ r => (List.length r <= List.length t)%nat end).
  Proof.
    induction f as [|f IH]; intros t; [split; lia|]. split; intros L.
    - rewrite (helper_eq cl more). pose proof (lex_shorter t) as LS. destruct (lx t) as [|r|k w r]; [exists Eof; auto|exists (Failed r); auto|].
      assert (SK : exists x, hp f r = Some x /\ match x with Eof => True | Failed r0 | Got _ _ r0 => (List.length r0 < List.length t)%nat end).
      { destruct (IH r) as [A _]. destruct A as (x & E & X); [lia|]. exists x. split; auto. destruct x; lia. }
      assert (OP : exists x, ins f r = Some x /\ match x with Eof => True | Failed r0 | Got _ _ r0 => (List.length r0 < List.length t)%nat end).
      { destruct (IH r) as [_ A]. destruct A as (x & E & X); [lia|]. exists x. split; auto. destruct x; lia. }
      destruct k; auto; eexists; (split; [reflexivity|exact LS]).
    - rewrite inside_eq. destruct (IH t) as [A _]. destruct A as (x & E & X); [lia|]. rewrite E. destruct x as [|r|k w r].
      + exists (Failed []). split; [reflexivity|]. cbn. lia.
      + destruct (IH r) as [_ B]. destruct B as (y & E' & Y); [lia|]. exists y. split; auto. destruct y; lia.
      + assert (SK : exists x, hp f r = Some x /\ match x with Eof => True | Failed r0 | Got _ _ r0 => (List.length r0 <= List.length t)%nat end).
        { destruct (IH r) as [B _]. destruct B as (y & E' & Y); [lia|]. exists y. split; auto. destruct y; lia. }
        assert (OP : exists x, ins f r = Some x /\ match x with Eof => True | Failed r0 | Got _ _ r0 => (List.length r0 <= List.length t)%nat end).
        { destruct (IH r) as [_ B]. destruct B as (y & E' & Y); [lia|]. exists y. split; auto. destruct y; lia. }
        destruct k; auto.
  Qed.
  (** The outcome, whatever the fuel *)
  Definition gives (t : text) (x : next) : Prop := exists f, hp f t = Some x.
  Definition gives_in (t : text) (x : next) : Prop := exists f, ins f t = Some x.
  Lemma next_gives t x : next_token cl more t = Some x <-> gives t x.
  Proof.
    split; [intros H; eexists; exact H|]. intros [f H]. unfold next_token. destruct (ends (2 * List.length t + 2) t) as [A _]. destruct A as (y & E & _); [lia|]. rewrite E. f_equal.
    destruct (Nat.le_ge_cases f (2 * List.length t + 2)) as [L|L].
    - apply (mono_le _ _ t x L) in H. congruence.
    - apply (mono_le _ _ t y L) in E. congruence.
  Qed.
  Lemma next_same t r : (forall x, gives r x -> gives t x) -> next_token cl more t = next_token cl more r.
  Proof.
    intros H. destruct (ends (2 * List.length r + 2) r) as [A _]. destruct A as (x & E & _); [lia|]. fold (next_token cl more r) in E. rewrite E. apply next_gives. apply H. now apply next_gives.
  Qed.
  Lemma gives_skip t k w r x : lx t = Token k w r -> k = Space \/ k = Comment -> gives r x -> gives t x.
  Proof. intros E K [f H]. exists (S f). rewrite (helper_eq cl more), E. destruct K as [-> | ->]; exact H. Qed.
  Lemma gives_open t w r x : lx t = Token Open w r -> gives_in r x -> gives t x.
  Proof. intros E [f H]. exists (S f). rewrite (helper_eq cl more), E. exact H. Qed.
  Lemma gives_got t k w r : lx t = Token k w r -> match k with Space | Comment | Open => False | _ => True end -> gives t (Got k w r).
  Proof. intros E N. exists 1%nat. now apply helper_got. Qed.
  Lemma gives_fails t r : lx t = Bad r -> gives t (Failed r).
  Proof. intros E. exists 1%nat. rewrite (helper_eq cl more), E. reflexivity. Qed.
  Lemma gives_in_more t y x : gives t y -> match y with Failed r => gives_in r x | Got Close _ r => gives r x | Eof => x = Failed [] | Got _ _ r => gives_in r x end -> gives_in t x.
  Proof.
    intros [f H] Y.
    assert (D : exists g, match y with Failed r => ins g r = Some x | Got Close _ r => hp g r = Some x | Eof => x = Failed [] | Got _ _ r => ins g r = Some x end).
    { destruct y as [|r|k w r]; [exists O; exact Y|exact Y|]. destruct k; exact Y. }
    destruct D as [g D]. exists (S (Nat.max f g)). rewrite inside_eq. apply (mono_le f (Nat.max f g)) in H; [|lia]. rewrite H.
    destruct y as [|r|k w r].
    - subst. reflexivity.
    - apply (mono_le g (Nat.max f g)); [lia|exact D].
    - destruct k; apply (mono_le g (Nat.max f g)); try lia; exact D.
  Qed.

  (** * Where a comment ends *)
  Lemma comment_end_suffix : forall t d r, comment_end d t = Some r -> exists u, t = u ++ r /\ (2 <= List.length u)%nat.
  Proof.
    assert (X : forall n t d r, (List.length t <= n)%nat -> comment_end d t = Some r -> exists u, t = u ++ r /\ (2 <= List.length u)%nat).
    { induction n as [|n IH]; intros t d r L H; [destruct t; [discriminate|cbn in L; lia]|]. destruct t as [|a [|b t]]; try discriminate. cbn [comment_end] in H.
      cbn [List.length] in L. destruct ((a =? 47) && (b =? 42)).
      - apply IH in H as (u & -> & LU); [|lia]. exists (a :: b :: u). cbn. split; [reflexivity|lia].
      - destruct ((a =? 42) && (b =? 47)).
        + destruct d as [|d].
          * assert (E : t = r) by congruence. subst. exists [a; b]. cbn. auto.
          * apply IH in H as (u & -> & LU); [|lia]. exists (a :: b :: u). cbn. split; [reflexivity|lia].
        + change (comment_end d (b :: t) = Some r) in H. apply IH in H as (u & E & LU); [|cbn; lia]. exists (a :: u). rewrite E. cbn. split; [reflexivity|lia]. }
    intros t d r. apply (X (List.length t)). lia.
  Qed.
  Lemma comment_end_split : forall t d, comment_end (S d) t = match comment_end 0 t with Some r => comment_end d r | None => None end.
  Proof.
    assert (X : forall n t d e, (List.length t <= n)%nat -> comment_end (S (e + d)) t = match comment_end e t with Some r => comment_end d r | None => None end).
    { induction n as [|n IH]; intros t d e L; [destruct t; [reflexivity|cbn in L; lia]|]. destruct t as [|a [|b t]]; try reflexivity. cbn [comment_end]. cbn [List.length] in L.
      destruct ((a =? 47) && (b =? 42)); [apply (IH t d (S e)); lia|]. destruct ((a =? 42) && (b =? 47)).
      - destruct e as [|e]; [reflexivity|]. apply (IH t d e). lia.
      - change (comment_end (S (e + d)) (b :: t) = match comment_end e (b :: t) with Some r => comment_end d r | None => None end). apply IH. cbn. lia. }
    intros t d. apply (X (List.length t) t d O). lia.
  Qed.
  Lemma skip_one d a t : a <> 47 -> a <> 42 -> comment_end d (a :: t) = comment_end d t.
  Proof.
    intros A B. destruct t as [|b t]; [reflexivity|]. cbn [comment_end]. apply N.eqb_neq in A, B. rewrite A, B. reflexivity.
  Qed.
  Lemma skip_all d : forall w t, ~ In 47 w -> ~ In 42 w -> comment_end d (w ++ t) = comment_end d t.
  Proof. induction w as [|a w IH]; intros t A B; [reflexivity|]. cbn [app]. rewrite skip_one; [apply IH|..]; cbn in A, B; tauto. Qed.
  Lemma quiet_app u v : quiet (u ++ v) = true -> quiet v = true.
  Proof. induction u as [|a u IH]; [auto|]. cbn. intros H. apply andb_prop in H as [_ H]. auto. Qed.

  (** Tokens that begin without quotes and without [//] *)
  Definition mild (t : text) : Prop :=
    match t with
    | [] => True
    | a :: t1 => a <> quote1 /\ a <> quote2 /\ match t1 with b :: _ => b <> quote1 /\ b <> quote2 /\ ~ (a = 47 /\ b = 47) | [] => True end
    end.
  Lemma quiet_mild u r : quiet u = true -> (2 <= List.length u)%nat -> mild (u ++ r).
  Proof.
    destruct u as [|a [|b u]]; cbn [List.length]; try lia. cbn [quiet app mild]. rewrite !andb_true_iff, !negb_true_iff, !N.eqb_neq. intros (((A & B) & C) & (((D & E) & _) & _)) _. repeat split; auto.
    intros [-> ->]. vm_compute in C. discriminate.
  Qed.
  Lemma quiet_mild_all u : quiet u = true -> mild u.
  Proof.
    destruct u as [|a [|b u]]; cbn [quiet mild]; auto.
    - rewrite !andb_true_iff, !negb_true_iff, !N.eqb_neq. tauto.
    - rewrite !andb_true_iff, !negb_true_iff, !N.eqb_neq. intros (((A & B) & C) & (((D & E) & _) & _)). repeat split; auto. intros [-> ->]. vm_compute in C. discriminate.
  Qed.
  Lemma name_no c u : name cl (c :: u) -> ~ In 47 (c :: u) /\ ~ In 42 (c :: u).
  Proof.
    intros (c' & u' & E & F & R). inversion E; subst c' u'. apply first_not in F. cbn in F. rewrite forallb_forall in R.
    split; intros [I|I]; try (subst c; tauto); apply R, further_not in I; cbn in I; tauto.
  Qed.
  Lemma numeral_no dig wid w x : dig x = false -> wid x = false -> is "_" x = false -> is "uUiI" x = false -> numeral dig wid w -> ~ In x w.
  Proof.
    intros D W U S (d & ds & s & -> & Hd & Hs & H) [I|I]; [congruence|]. apply in_app_or in I as [I|I].
    - rewrite forallb_forall in Hs. apply Hs in I. unfold under in I. rewrite D, U in I. discriminate.
    - destruct H as [->|(m & n & -> & M & H)]; [destruct I|]. destruct I as [I|I]; [subst; congruence|]. rewrite forallb_forall in H. apply H in I. congruence.
  Qed.
  Lemma fixed_no s : In s (keywords ++ marks) -> (~ In 47 (chars s) /\ ~ In 42 (chars s)) \/ s = "/"%string \/ s = "*"%string \/ s = "*."%string.
  Proof.
    intros I. assert (C : forallb (fun s => (negb (existsb (N.eqb 47) (chars s)) && negb (existsb (N.eqb 42) (chars s))) || existsb (String.eqb s) ["/"; "*"; "*."]%string) (keywords ++ marks) = true) by (vm_compute; reflexivity).
    rewrite forallb_forall in C. specialize (C s I). apply orb_prop in C as [C|C].
    - left. apply andb_prop in C as [A B]. rewrite negb_true_iff in A, B. split; intros J; [assert (X : existsb (N.eqb 47) (chars s) = true) by (apply existsb_exists; eauto using N.eqb_refl)|assert (X : existsb (N.eqb 42) (chars s) = true) by (apply existsb_exists; eauto using N.eqb_refl)]; congruence.
    - right. apply existsb_exists in C as (x & X & E). apply String.eqb_eq in E. subst x. cbn in X. intuition.
  Qed.
  Lemma mild_kind k w r : mild (w ++ r) -> spelled cl k w -> k = Open \/ k = Close \/ (~ In 47 w /\ ~ In 42 w) \/ w = [47] \/ w = [42] \/ w = [42; 46].
  Proof.
    intros M S. assert (Q : forall x w', w = x :: w' -> x <> quote1 /\ x <> quote2) by (intros x w' ->; cbn in M; tauto).
    assert (Q2 : forall x y w', w = x :: y :: w' -> y <> quote1 /\ y <> quote2 /\ ~ (x = 47 /\ y = 47)) by (intros x y w' ->; cbn in M; tauto).
    destruct k; auto; cbn [spelled] in S.
    - destruct S as [I ->]. destruct (fixed_no s I) as [H|[->|[->| ->]]]; [right; right; left; exact H|right; right; right; left; reflexivity|right; right; right; right; left; reflexivity|right; right; right; right; right; reflexivity].
    - subst. right. right. left. cbn. intuition discriminate.
    - right. right. left. destruct S as [H|(u & -> & H)]; destruct H as (c & u' & -> & H); [apply name_no; exists c, u'; auto|].
      destruct (name_no c u') as [A B]; [exists c, u'; auto|]. split; intros I; apply in_app_or in I as [I|I]; auto; cbn in I; intuition discriminate.
    - right. right. left. split; (eapply numeral_no; [| | | |exact S]; reflexivity).
    - right. right. left. destruct S as (u & -> & S). split; intros I; (apply in_app_or in I as [I|I]; [cbn in I; intuition discriminate|revert I; eapply numeral_no; [| | | |exact S]; reflexivity]).
    - right. right. left. destruct S as (u & -> & S). split; intros I; (apply in_app_or in I as [I|I]; [cbn in I; intuition discriminate|revert I; eapply numeral_no; [| | | |exact S]; reflexivity]).
    - right. right. left. destruct S as (u & -> & S). split; intros I; (apply in_app_or in I as [I|I]; [cbn in I; intuition discriminate|revert I; eapply numeral_no; [| | | |exact S]; reflexivity]).
    - destruct S as (u & -> & _). destruct (Q quote1 u eq_refl). congruence.
    - right. right. left. destruct S as (u & -> & (c & u' & -> & H)). destruct (name_no c u') as [A B]; [exists c, u'; auto|]. split; intros [I|I]; auto; discriminate.
    - destruct S as (u & -> & _). destruct (Q2 98 39 (u ++ [quote1]) eq_refl) as [X _]. exfalso. apply X. reflexivity.
    - destruct S as (u & -> & _). destruct (Q2 98 34 (u ++ [quote2]) eq_refl) as [_ [X _]]. exfalso. apply X. reflexivity.
    - destruct S as (c & -> & _). destruct (Q quote1 [c; quote1] eq_refl). congruence.
    - destruct S as (u & -> & _). destruct (Q quote2 (u ++ [quote2]) eq_refl). congruence.
    - destruct S as (u & -> & _). destruct (Q2 47 47 (47 :: u) eq_refl) as (_ & _ & X). tauto.
    - destruct S as (u & -> & _). destruct (Q2 47 47 (33 :: u) eq_refl) as (_ & _ & X). tauto.
    - right. right. left. cbn in S. destruct S as [<-|[<-|[<-|[<-|[]]]]]; cbn; intuition discriminate.
    - destruct S as (u & -> & _). destruct (Q2 47 47 u eq_refl) as (_ & _ & X). tauto.
  Qed.
  (** A character that starts a token is one, but for quotes. *)
  Lemma single c w k : spelled cl k (c :: w) -> c <> quote1 -> c <> quote2 -> exists k', spelled cl k' [c].
  Proof.
    intros S Q1 Q2. assert (FI : forall x, first cl x = true -> exists k', spelled cl k' [x]) by (intros x F; exists Ident; left; exists x, []; auto).
    assert (DI : forall x, digit x = true -> exists k', spelled cl k' [x]) by (intros x F; exists Int; exists x, [], []; cbn; auto).
    assert (MK : forall s, In s marks -> chars s = [c] -> exists k', spelled cl k' [c]) by (intros s I E; exists (Fixed s); split; [apply in_or_app; auto|auto]).
    destruct k; cbn [spelled] in S.
    - destruct S as [I E]. apply in_app_or in I as [I|I].
      + apply FI. assert (C : forallb (fun s => match chars s with x :: _ => letter x | [] => false end) keywords = true) by (vm_compute; reflexivity). rewrite forallb_forall in C. specialize (C s I). rewrite <- E in C. unfold first. rewrite C. reflexivity.
      + assert (C : forallb (fun s => existsb (fun s' => match chars s, chars s' with x :: _, [y] => x =? y | _, _ => false end) marks) marks = true) by (vm_compute; reflexivity).
        rewrite forallb_forall in C. specialize (C s I). apply existsb_exists in C as (s' & I' & C). rewrite <- E in C. destruct (chars s') as [|y [|]] eqn:E'; try discriminate. apply N.eqb_eq in C. subst y. eapply MK; eauto.
    - inversion S. subst. exists Greek. reflexivity.
    - destruct S as [(x & u & E & F & _)|(u & E & _)]; inversion E; subst; [auto|apply FI; reflexivity].
    - destruct S as (d & ds & s & E & D & _). inversion E; subst. auto.
    - destruct S as (u & E & _). inversion E; subst. apply DI. reflexivity.
    - destruct S as (u & E & _). inversion E; subst. apply DI. reflexivity.
    - destruct S as (u & E & _). inversion E; subst. apply DI. reflexivity.
    - destruct S as (u & E & _). inversion E; subst. congruence.
    - destruct S as (u & E & _). inversion E; subst. apply (MK "@"%string); [|reflexivity]. vm_compute. tauto.
    - destruct S as (u & E & _). inversion E; subst. apply FI. reflexivity.
    - destruct S as (u & E & _). inversion E; subst. apply FI. reflexivity.
    - destruct S as (u & E & _). inversion E; subst. congruence.
    - destruct S as (u & E & _). inversion E; subst. congruence.
    - destruct S as (u & E & _). inversion E; subst. apply (MK "/"%string); [|reflexivity]. vm_compute. tauto.
    - destruct S as (u & E & _). inversion E; subst. apply (MK "/"%string); [|reflexivity]. vm_compute. tauto.
    - exists Space. cbn in S |- *. destruct S as [S|[S|[S|[S|[]]]]]; inversion S; auto.
    - destruct S as (u & E & _). inversion E; subst. apply (MK "/"%string); [|reflexivity]. vm_compute. tauto.
    - inversion S; subst. apply (MK "/"%string); [|reflexivity]. vm_compute. tauto.
    - inversion S; subst. apply (MK "*"%string); [|reflexivity]. vm_compute. tauto.
  Qed.
  Hypothesis ONE : one_by_one cl more.
  Lemma mild_bad c t r : mild (c :: t) -> lx (c :: t) = Bad r -> r = t /\ c <> 47 /\ c <> 42.
  Proof.
    intros M E. apply lex_bad in E as [-> NS]. assert (X : forall k w, ~ spelled cl k (c :: w)).
    { intros k w S. destruct (single c w k S) as [k' S']; [apply M|apply M|]. exact (NS k' [c] t eq_refl S'). }
    rewrite (ONE c t X). cbn [skipn]. split; [reflexivity|]. split; intros ->; [apply (X Open [42])|apply (X Close [47])]; reflexivity.
  Qed.
  (** One step inside a comment *)
  Lemma mild_step t k w r : mild t -> lx t = Token k w r ->
    (k = Open /\ w = chars "/*") \/ (k = Close /\ w = chars "*/") \/ (k <> Open /\ k <> Close /\ forall d, comment_end d t = comment_end d r).
  Proof.
    intros M E. apply lex_token in E as (-> & N & S & LONG & _). destruct (mild_kind k w r M S) as [->|[->|H]]; [left; auto|right; left; auto|].
    right. right. split; [intros ->; cbn in S; subst w; destruct H as [[A _]|[H|[H|H]]]; try discriminate; apply A; cbn; auto|].
    split; [intros ->; cbn in S; subst w; destruct H as [[A _]|[H|[H|H]]]; try discriminate; apply A; cbn; auto|].
    intros d. destruct H as [[A B]|[->|[->| ->]]].
    - now apply skip_all.
    - destruct r as [|b r]; [reflexivity|]. cbn [app comment_end]. change (47 =? 42) with false. cbn [andb]. destruct (N.eqb_spec b 42) as [->|X]; [|reflexivity].
      exfalso. assert (L := LONG Open [47; 42] r eq_refl eq_refl). cbn in L. lia.
    - destruct r as [|b r]; [reflexivity|]. cbn [app comment_end]. change (42 =? 47) with false. cbn [andb]. destruct (N.eqb_spec b 47) as [->|X]; [|reflexivity].
      exfalso. assert (L := LONG Close [42; 47] r eq_refl eq_refl). cbn in L. lia.
    - cbn [app comment_end]. change (42 =? 47) with false. change (46 =? 47) with false. change (46 =? 42) with false. cbn [andb]. destruct r as [|b r]; [reflexivity|]. reflexivity.
  Qed.
  Lemma open_pair d t : comment_end d (chars "/*" ++ t) = comment_end (S d) t.
  Proof. reflexivity. Qed.
  Lemma close_pair d t : comment_end d (chars "*/" ++ t) = match d with O => Some t | S d => comment_end d t end.
  Proof. reflexivity. Qed.

  (** A comment that ends *)
  Lemma comment_closed : forall n t u r, (List.length t <= n)%nat -> comment_end 0 t = Some r -> t = u ++ r -> quiet u = true ->
    (forall x, gives r x -> gives_in t x).
  Proof.
    induction n as [|n IH]; intros t u r L H E Q x G; [destruct t; [discriminate|cbn in L; lia]|].
    assert (CUT : forall d t' r', comment_end d t' = Some r' -> forall v, t = v ++ t' -> r' = r -> exists u', t' = u' ++ r /\ quiet u' = true).
    { intros d t' r' C v -> ->. apply comment_end_suffix in C as (u' & -> & _). exists u'. split; [reflexivity|]. assert (E' : u = v ++ u') by (apply (app_inv_tail r); rewrite <- E, app_assoc; reflexivity). subst u. now apply quiet_app in Q. }
    assert (M : mild t). { rewrite E. apply quiet_mild; auto. destruct (comment_end_suffix _ _ _ H) as (u' & E' & L'). assert (u = u') by (apply (app_inv_tail r); congruence). now subst. }
    pose proof (lex_shorter t) as LS. destruct (lx t) as [|r1|k w r1] eqn:LX.
    - rewrite LS in H. discriminate.
    - destruct t as [|c t]; [discriminate|]. destruct (mild_bad c t r1 M LX) as (-> & C1 & C2). rewrite skip_one in H by assumption. destruct (CUT _ _ _ H [c] eq_refl eq_refl) as (u' & E' & Q').
      eapply gives_in_more; [apply gives_fails; exact LX|]. apply (IH t u' r); auto. cbn in L. lia.
    - assert (TW : t = w ++ r1) by (apply lex_token in LX; apply LX). destruct (mild_step t k w r1 M LX) as [[-> W]|[[-> W]|(N1 & N2 & SK)]].
      + (* a nested comment *) rewrite TW, W, open_pair, comment_end_split in H. destruct (comment_end 0 r1) as [r2|] eqn:H1; [|discriminate].
        destruct (comment_end_suffix _ _ _ H1) as (v & V & _). destruct (CUT 0%nat r2 r H (w ++ v)) as (u' & E' & Q'); [rewrite TW, V, app_assoc; reflexivity|reflexivity|].
        assert (QV : quiet v = true).
        { assert (E2 : u = w ++ v ++ u') by (apply (app_inv_tail r); rewrite <- E, TW, V, E', !app_assoc; reflexivity). rewrite E2 in Q. apply quiet_app in Q. clear - Q. revert Q. induction v as [|a v IHv]; [reflexivity|]. cbn [app quiet].
          rewrite !andb_true_iff. intros (((A & B) & C) & D). rewrite (IHv D). repeat split; auto. destruct v; [destruct (a =? 47); auto|exact C]. }
        (* the next helper continues after the nested comment *)
        assert (G2 : forall y, gives r2 y -> gives t y). { intros y Y. eapply gives_open; [exact LX|]. apply (IH r1 v r2); auto. lia. }
        assert (IN2 : gives_in r2 x). { apply (IH r2 u' r); auto. apply (f_equal (@List.length N)) in V. rewrite app_length in V. lia. }
        destruct IN2 as [f IN2]. destruct f as [|f]; [discriminate|]. rewrite inside_eq in IN2. destruct (hp f r2) as [y|] eqn:HY; [|discriminate].
        eapply gives_in_more; [apply G2; exists f; exact HY|]. destruct y as [|r3|k3 w3 r3]; [congruence|exists f; exact IN2|]. destruct k3; exists f; exact IN2.
      + rewrite TW, W, close_pair in H. assert (E2 : r1 = r) by congruence. subst r1. eapply gives_in_more; [apply (gives_got t Close w r LX); exact I|]. exact G.
      + rewrite SK in H. destruct (CUT _ _ _ H w TW eq_refl) as (u' & E' & Q'). assert (IN2 : gives_in r1 x) by (apply (IH r1 u' r); auto; lia).
        assert (SKIP : k = Space \/ k = Comment -> gives_in t x).
        { intros K. destruct IN2 as [f IN2]. destruct f as [|f]; [discriminate|]. rewrite inside_eq in IN2. destruct (hp f r1) as [y|] eqn:HY; [|discriminate].
          eapply gives_in_more; [eapply gives_skip; [exact LX|exact K|exists f; exact HY]|]. destruct y as [|r3|k3 w3 r3]; [congruence|exists f; exact IN2|]. destruct k3; exists f; exact IN2. }
        destruct k; try (apply SKIP; auto; fail); try congruence; (eapply gives_in_more; [apply (gives_got t _ w r1 LX); exact I|]; exact IN2).
  Qed.
  (** A comment that does not end *)
  Lemma comment_open : forall n t, (List.length t <= n)%nat -> comment_end 0 t = None -> quiet t = true -> gives_in t (Failed []).
  Proof.
    induction n as [|n IH]; intros t L H Q.
    { destruct t; [|cbn in L; lia]. eapply gives_in_more; [exists 1%nat; reflexivity|reflexivity]. }
    assert (M : mild t) by now apply quiet_mild_all. pose proof (lex_shorter t) as LS. destruct (lx t) as [|r1|k w r1] eqn:LX.
    - subst t. eapply gives_in_more; [exists 1%nat; reflexivity|reflexivity].
    - destruct t as [|c t]; [discriminate|]. destruct (mild_bad c t r1 M LX) as (-> & C1 & C2). rewrite skip_one in H by assumption.
      eapply gives_in_more; [apply gives_fails; exact LX|]. apply IH; auto; [cbn in L; lia|]. apply (quiet_app [c]); exact Q.
    - assert (TW : t = w ++ r1) by (apply lex_token in LX; apply LX). assert (Q1 : quiet r1 = true) by (rewrite TW in Q; now apply quiet_app in Q).
      destruct (mild_step t k w r1 M LX) as [[-> W]|[[-> W]|(N1 & N2 & SK)]].
      + rewrite TW, W, open_pair, comment_end_split in H. destruct (comment_end 0 r1) as [r2|] eqn:H1.
        * destruct (comment_end_suffix _ _ _ H1) as (v & V & _).
          assert (QV : quiet v = true).
          { rewrite V in Q1. clear - Q1. revert Q1. induction v as [|a v IHv]; [reflexivity|]. cbn [app quiet]. rewrite !andb_true_iff. intros (((A & B) & C) & D). rewrite (IHv D). repeat split; auto. destruct v; [destruct (a =? 47); auto|exact C]. }
          assert (G2 : forall y, gives r2 y -> gives t y). { intros y Y. eapply gives_open; [exact LX|]. apply (comment_closed (List.length r1) r1 v r2); auto. }
          assert (IN2 : gives_in r2 (Failed [])). { apply IH; auto; [apply (f_equal (@List.length N)) in V; rewrite app_length in V; lia|]. rewrite V in Q1. now apply quiet_app in Q1. }
          destruct IN2 as [f IN2]. destruct f as [|f]; [discriminate|]. rewrite inside_eq in IN2. destruct (hp f r2) as [y|] eqn:HY; [|discriminate].
          eapply gives_in_more; [apply G2; exists f; exact HY|]. destruct y as [|r3|k3 w3 r3]; [congruence|exists f; exact IN2|]. destruct k3; exists f; exact IN2.
        * eapply gives_in_more; [eapply gives_open; [exact LX|]; apply IH; auto; lia|]. apply (gives_in_more [] Eof); [exists 1%nat; reflexivity|reflexivity].
      + rewrite TW, W, close_pair in H. discriminate.
      + rewrite SK in H. assert (IN2 : gives_in r1 (Failed [])) by (apply IH; auto; lia).
        assert (SKIP : k = Space \/ k = Comment -> gives_in t (Failed [])).
        { intros K. destruct IN2 as [f IN2]. destruct f as [|f]; [discriminate|]. rewrite inside_eq in IN2. destruct (hp f r1) as [y|] eqn:HY; [|discriminate].
          eapply gives_in_more; [eapply gives_skip; [exact LX|exact K|exists f; exact HY]|]. destruct y as [|r3|k3 w3 r3]; [congruence|exists f; exact IN2|]. destruct k3; exists f; exact IN2. }
        destruct k; try (apply SKIP; auto; fail); try congruence; (eapply gives_in_more; [apply (gives_got t _ w r1 LX); exact I|]; exact IN2).
  Qed.
End Comments.

Lemma lex_open cl more t : lex cl more (chars "/*" ++ t) = Token Open (chars "/*") t.
Proof.
  apply lex_of.
  - reflexivity.
  - intros k v S NE r _. pose proof (guess_ok _ _ _ S) as G. change (guess cl (chars "/*" ++ v)) with 17%nat in G.
    destruct k; cbn [code In] in G; try discriminate; try (intuition discriminate). cbn [spelled] in S. change (chars "/*" ++ v = chars "/*") in S. apply (f_equal (@List.length N)) in S. rewrite app_length in S. destruct v; [congruence|cbn in S; lia].
  - intros k S. right. intros P. destruct k; cbn in P; contradiction.
Qed.
(** A comment up to the end of the line *)
Lemma lex_line cl more u r : line u -> match u with c :: _ => c <> 47 /\ c <> 33 | [] => True end -> lex cl more (chars "//" ++ u ++ newline :: r) = Token Comment (chars "//" ++ u) (newline :: r).
Proof.
  intros L N. change (chars "//" ++ u ++ newline :: r) with ((chars "//" ++ u) ++ newline :: r). apply lex_of.
  - exists u. auto.
  - intros k v S V r' E. destruct v as [|x v]; [congruence|]. inversion E; subst x. pose proof (guess_ok _ _ _ S) as G.
    assert (C : exists pre y, In k [Outer; Inner; Comment] /\ spelled cl k ((chars "//" ++ u) ++ newline :: v) /\ (chars "//" ++ u) ++ newline :: v = pre ++ y /\ line y /\ In newline y).
    { destruct k; cbn [spelled] in S; try (exfalso; revert G; change ((chars "//" ++ u) ++ newline :: v) with (47 :: 47 :: u ++ newline :: v); cbn [guess hd tl]; change (47 =? 39) with false; change (47 =? 64) with false; change (47 =? 34) with false; change (47 =? 47) with true; cbv iota zeta;
        destruct (hd 0 (u ++ newline :: v) =? 47); [|destruct (hd 0 (u ++ newline :: v) =? 33)]; cbn [code]; intuition discriminate).
      - exfalso. destruct S as (y & E2 & L2). change (47 :: 47 :: u ++ newline :: v = 47 :: 47 :: 47 :: y) in E2. inversion E2 as [E3]. destruct u as [|c u]; [discriminate|]. inversion E3. subst. tauto.
      - exfalso. destruct S as (y & E2 & L2). change (47 :: 47 :: u ++ newline :: v = 47 :: 47 :: 33 :: y) in E2. inversion E2 as [E3]. destruct u as [|c u]; [discriminate|]. inversion E3. subst. tauto.
      - destruct S as (y & E2 & L2). exists (chars "//"), y. split; [cbn; auto|]. split; [exists y; auto|]. split; [exact E2|]. split; [exact L2|]. change (47 :: 47 :: u ++ newline :: v = 47 :: 47 :: y) in E2. inversion E2. apply in_or_app. right. cbn. auto. }
    destruct C as (pre & y & _ & _ & _ & L2 & I). unfold line in L2. rewrite forallb_forall in L2. apply L2 in I. discriminate.
  - intros k S. destruct k; cbn [preferred]; auto; right; auto.
    + intros _. destruct S as (y & E & _). change (47 :: 47 :: u = 47 :: 47 :: 47 :: y) in E. inversion E. subst. tauto.
    + intros _. destruct S as (y & E & _). change (47 :: 47 :: u = 47 :: 47 :: 33 :: y) in E. inversion E. subst. tauto.
Qed.
