(** Token by token; numbers, literals and comments *)
From Coq Require Import NArith List Bool Ascii String Arith Lia.
From Verif Require Import LexModel LexSpec LexProofs LexTop.
Import ListNotations.
Open Scope N_scope.

(** * Tokens apart by blanks *)
Lemma in_chars_blank s : In s (keywords ++ marks) -> ~ In 32 (chars s).
Proof.
  intros I J. assert (C : forallb (fun s => negb (existsb (N.eqb 32) (chars s))) (keywords ++ marks) = true) by (vm_compute; reflexivity).
  rewrite forallb_forall in C. specialize (C s I). apply negb_true_iff in C. assert (X : existsb (N.eqb 32) (chars s) = true) by (apply existsb_exists; exists 32; auto). congruence.
Qed.
Lemma name_blank cl w : name cl w -> ~ In 32 w.
Proof.
  intros (c & u & -> & F & R) [I|I]; [subst; apply first_not in F; cbn in F; tauto|]. rewrite forallb_forall in R. apply R, further_not in I. cbn in I. tauto.
Qed.
Lemma numeral_blank dig wid w : dig 32 = false -> wid 32 = false -> numeral dig wid w -> ~ In 32 w.
Proof.
  intros D W (d & ds & s & -> & Hd & Hs & H) [I|I]; [congruence|]. apply in_app_or in I as [I|I].
  - rewrite forallb_forall in Hs. apply Hs in I. unfold under in I. rewrite D in I. discriminate.
  - destruct H as [->|(m & n & -> & M & H)]; [destruct I|]. destruct I as [I|I]; [subst; discriminate|]. rewrite forallb_forall in H. apply H in I. congruence.
Qed.
Definition blankless (k : kind) : bool := match k with Char | Bytes | Str | Outer | Inner | Comment | Space => false | _ => true end.
Lemma no_blank cl k w : spelled cl k w -> blankless k = true -> ~ In 32 w.
Proof.
  destruct k; cbn [spelled blankless]; intros H B; try discriminate.
  - destruct H as [I ->]. now apply in_chars_blank.
  - subst. cbn. intuition discriminate.
  - destruct H as [H|(u & -> & H)]; [eapply name_blank; eauto|]. intros I. apply in_app_or in I as [I|I]; [cbn in I; intuition discriminate|eapply name_blank; eauto].
  - eapply numeral_blank; [| |exact H]; reflexivity.
  - destruct H as (u & -> & H). intros I. apply in_app_or in I as [I|I]; [cbn in I; intuition discriminate|]. revert I. eapply numeral_blank; [| |exact H]; reflexivity.
  - destruct H as (u & -> & H). intros I. apply in_app_or in I as [I|I]; [cbn in I; intuition discriminate|]. revert I. eapply numeral_blank; [| |exact H]; reflexivity.
  - destruct H as (u & -> & H). intros I. apply in_app_or in I as [I|I]; [cbn in I; intuition discriminate|]. revert I. eapply numeral_blank; [| |exact H]; reflexivity.
  - destruct H as (u & -> & H). intros [I|I]; [discriminate|eapply name_blank; eauto].
  - destruct H as (u & -> & H). intros [I|I]; [discriminate|eapply name_blank; eauto].
  - destruct H as (c & -> & H). apply wordy_not in H. cbn in H. intros [I|[I|[I|[]]]]; [discriminate|subst; tauto|discriminate].
  - subst. cbn. intuition discriminate.
  - subst. cbn. intuition discriminate.
Qed.
Lemma content_split q u : q <> backslash -> content q u -> forall x, ~ content q (u ++ q :: x).
Proof.
  intros Q C. induction C as [|c t N C IH|c t N1 N2 C IH]; intros x X; cbn in X.
  - inversion X; subst; congruence.
  - inversion X; subst; [|congruence]. eapply IH; eauto.
  - inversion X; subst; [congruence|]. eapply IH; eauto.
Qed.
Lemma guess_kind cl k w n : spelled cl k w -> guess cl w = n -> (n = 9 -> k = Char)%nat /\ (n = 10 -> k = Bytes)%nat /\ (n = 12 -> k = Str)%nat /\ (In n [13; 14; 15] -> k = Outer \/ k = Inner \/ k = Comment)%nat.
Proof.
  intros S E. pose proof (guess_ok cl k w S) as G. destruct k; cbn [code In] in *; try (destruct G as [[_ G]|[_ G]]); repeat split; intros; subst; try congruence; try tauto; exfalso; intuition congruence.
Qed.
Lemma app_last {A} (a b : list A) x y : a ++ [x] = b ++ [y] -> a = b /\ x = y.
Proof. apply app_inj_tail. Qed.
Lemma longer cl k k' w x : plain cl k w -> spelled cl k' (w ++ 32 :: x) -> False.
Proof.
  intros [S P] S'. assert (NE : w <> []) by (intros ->; exact (spelled_nonempty _ _ S)).
  destruct (blankless k') eqn:B; [apply (no_blank _ _ _ S' B); apply in_or_app; right; cbn; auto|].
  assert (LAST : forall u q, w ++ 32 :: x = u ++ [q] -> q <> 32 -> exists y, x = y ++ [q]).
  { intros u q E N. destruct (exists_last (l := x)) as (y & z & ->).
    - intros ->. apply app_last in E as [_ E]. congruence.
    - exists y. change (w ++ 32 :: y ++ [z] = u ++ [q]) in E. rewrite app_comm_cons, app_assoc in E. apply app_last in E as [_ ->]. reflexivity. }
  destruct k'; try discriminate; cbn [spelled] in S'.
  - destruct S' as (u & E & C). destruct w as [|a [|b w]]; [congruence|inversion E|]. inversion E as [[E1 E2 E3]]. subst a b.
    assert (G : k = Char) by (apply (guess_kind cl k _ _ S eq_refl); reflexivity). subst k. destruct S as (u2 & E4 & C2). inversion E4 as [E5]. subst w. clear E E4.
    destruct (LAST (98 :: 39 :: u) quote1) as [y ->]; [cbn; f_equal; f_equal; exact E3|discriminate|].
    rewrite <- app_assoc in E3. cbn in E3. assert (E6 : u2 ++ quote1 :: 32 :: y = u). { apply (app_last _ _ quote1 quote1). rewrite <- E3, <- app_assoc. reflexivity. }
    subst u. eapply content_split; [|exact C2|exact C]. discriminate.
  - destruct S' as (u & E & C). destruct w as [|a [|b w]]; [congruence|inversion E|]. inversion E as [[E1 E2 E3]]. subst a b.
    assert (G : k = Bytes) by (apply (guess_kind cl k _ _ S eq_refl); reflexivity). subst k. destruct S as (u2 & E4 & C2). inversion E4 as [E5]. subst w. clear E E4.
    destruct (LAST (98 :: 34 :: u) quote2) as [y ->]; [cbn; f_equal; f_equal; exact E3|discriminate|].
    rewrite <- app_assoc in E3. cbn in E3. assert (E6 : u2 ++ quote2 :: 32 :: y = u). { apply (app_last _ _ quote2 quote2). rewrite <- E3, <- app_assoc. reflexivity. }
    subst u. eapply content_split; [|exact C2|exact C]. discriminate.
  - destruct S' as (u & E & C). destruct w as [|a w]; [congruence|]. inversion E as [[E1 E3]]. subst a.
    assert (G : k = Str) by (apply (guess_kind cl k _ _ S eq_refl); reflexivity). subst k. destruct S as (u2 & E4 & C2). inversion E4 as [E5]. subst w. clear E E4.
    destruct (LAST (34 :: u) quote2) as [y ->]; [cbn; f_equal; exact E3|discriminate|].
    rewrite <- app_assoc in E3. cbn in E3. assert (E6 : u2 ++ quote2 :: 32 :: y = u). { apply (app_last _ _ quote2 quote2). rewrite <- E3, <- app_assoc. reflexivity. }
    subst u. apply C. apply in_or_app. right. cbn. auto.
  - destruct S' as (u & E & C). destruct w as [|a [|b w]]; [congruence|inversion E|]. inversion E; subst a b.
    destruct (guess_kind cl k _ _ S eq_refl) as (_ & _ & _ & G). destruct G as [->|[->| ->]]; try exact P. cbn. destruct (hd 0 w =? 47); [cbn; auto|]. destruct (hd 0 w =? 33); cbn; auto.
  - destruct S' as (u & E & C). destruct w as [|a [|b w]]; [congruence|inversion E|]. inversion E; subst a b.
    destruct (guess_kind cl k _ _ S eq_refl) as (_ & _ & _ & G). destruct G as [->|[->| ->]]; try exact P. cbn. destruct (hd 0 w =? 47); [cbn; auto|]. destruct (hd 0 w =? 33); cbn; auto.
  - assert (L : List.length (w ++ 32 :: x) = 1%nat) by (cbn in S'; destruct S' as [<-|[<-|[<-|[<-|[]]]]]; reflexivity). rewrite app_length in L. cbn in L. destruct w; [congruence|cbn in L; lia].
  - destruct S' as (u & E & C). destruct w as [|a [|b w]]; [congruence|inversion E|]. inversion E; subst a b.
    destruct (guess_kind cl k _ _ S eq_refl) as (_ & _ & _ & G). destruct G as [->|[->| ->]]; try exact P. cbn. destruct (hd 0 w =? 47); [cbn; auto|]. destruct (hd 0 w =? 33); cbn; auto.
Qed.
Lemma lex_plain cl more k w r : plain cl k w -> lex cl more (w ++ 32 :: r) = Token k w (32 :: r).
Proof.
  intros P. apply lex_of.
  - apply P.
  - intros k' v S N r' E. destruct v as [|x v]; [congruence|]. inversion E; subst x. exact (longer _ _ _ _ _ P S).
  - intros k' S'. right. intros Q. destruct P as [S P]. destruct k', k; cbn in Q; try contradiction. apply P. destruct S' as [_ ->]. now apply in_map.
Qed.
Lemma lex_blank cl more r : lex cl more (32 :: r) = Token Space [32] r.
Proof.
  apply (lex_of cl more Space [32] r).
  - cbn. auto.
  - intros k v S N r' _. pose proof (guess_ok _ _ _ S) as G. cbn [app guess] in G. change (guess cl (32 :: v)) with 16%nat in G.
    destruct k; cbn [code In] in G; try discriminate; try (intuition discriminate). cbn in S. destruct S as [S|[S|[S|[S|[]]]]]; inversion S. congruence.
  - intros k S. right. intros Q. destruct k; cbn in Q; contradiction.
Qed.
Lemma helper_eq cl more f t : helper cl more (S f) t =
  match lex cl more t with End => Some Eof | Bad r => Some (Failed r) | Token Space _ r | Token Comment _ r => helper cl more f r | Token Open _ r => inside cl more f r | Token k w r => Some (Got k w r) end.
Proof. reflexivity. Qed.
Lemma helper_got cl more f t k w r : lex cl more t = Token k w r -> match k with Space | Comment | Open => False | _ => True end -> helper cl more (S f) t = Some (Got k w r).
Proof. intros E N. cbn [helper]. rewrite E. destruct k; try contradiction; reflexivity. Qed.
Lemma plain_helper k w cl : plain cl k w -> match k with Space | Comment | Open => False | _ => True end.
Proof. intros [_ P]. destruct k; auto. Qed.
Lemma tokens_spaced cl more : forall l, (forall k w, In (k, w) l -> plain cl k w) ->
  forall f, (List.length l < f)%nat -> tokens cl more f (spaced l) = Some (l, true) /\ tokens cl more f (32 :: spaced l) = Some (l, true).
Proof.
  induction l as [|[k w] l IH]; intros P f L; (destruct f as [|f]; [cbn in L; lia|]).
  - split; [reflexivity|]. cbn [tokens]. unfold next_token. cbn [spaced flat_map List.length]. change (2 * 1 + 2)%nat with (S (S 2)).
    rewrite helper_eq.
    rewrite (lex_blank cl more []). reflexivity.
  - assert (PK : plain cl k w) by (apply P; cbn; auto). assert (PL : forall k w, In (k, w) l -> plain cl k w) by (intros; apply P; cbn; auto).
    assert (E : spaced ((k, w) :: l) = w ++ 32 :: spaced l) by (unfold spaced; cbn; rewrite <- app_assoc; reflexivity).
    cbn [List.length] in L. assert (N : match k with Space | Comment | Open => False | _ => True end) by (eapply plain_helper; eauto).
    destruct (IH PL f) as [_ IH2]; [lia|]. rewrite E. split; cbn [tokens].
    + assert (NT : next_token cl more (w ++ 32 :: spaced l) = Some (Got k w (32 :: spaced l))).
      { unfold next_token. generalize (w ++ 32 :: spaced l) (lex_plain cl more k w (spaced l) PK). intros T HT. replace (2 * List.length T + 2)%nat with (S (2 * List.length T + 1))%nat by lia.
        now apply helper_got. }
      rewrite NT, IH2. reflexivity.
    + assert (NT : next_token cl more (32 :: w ++ 32 :: spaced l) = Some (Got k w (32 :: spaced l))).
      { unfold next_token. cbn [List.length]. generalize (w ++ 32 :: spaced l) (lex_plain cl more k w (spaced l) PK). intros T HT. replace (2 * S (List.length T) + 2)%nat with (S (S (2 * List.length T + 2)))%nat by lia.
        rewrite helper_eq, lex_blank. now apply helper_got. }
      rewrite NT, IH2. reflexivity.
Qed.

(** * Numbers *)
Lemma hex_cases x : hex x = true -> In x (chars "0123456789abcdefABCDEF").
Proof.
  unfold hex, digit. rewrite !orb_true_iff, !andb_true_iff, !N.leb_le. intros H. cbn.
  assert (X : x = 48 \/ x = 49 \/ x = 50 \/ x = 51 \/ x = 52 \/ x = 53 \/ x = 54 \/ x = 55 \/ x = 56 \/ x = 57 \/ x = 97 \/ x = 98 \/ x = 99 \/ x = 100 \/ x = 101 \/ x = 102 \/ x = 65 \/ x = 66 \/ x = 67 \/ x = 68 \/ x = 69 \/ x = 70) by lia.
  intuition.
Qed.
Definition known_digits (dig : N -> bool) (radix : N) : Prop :=
  (forall x, dig x = true -> hex x = true) /\ (forall x, dig x = true -> digit_value radix (lower x) = Some (face x)).
Lemma dig_hex (dig : N -> bool) : (dig = digit \/ dig = hex \/ dig = oct \/ dig = bin) -> forall x, dig x = true -> hex x = true.
Proof.
  intros D x H. unfold hex. destruct D as [->|[->|[->| ->]]]; [rewrite H; reflexivity|exact H| |].
  - assert (E : digit x = true) by (unfold oct, digit in *; rewrite andb_true_iff, !N.leb_le in *; lia). rewrite E. reflexivity.
  - assert (E : digit x = true) by (unfold bin, digit in *; rewrite andb_true_iff, !N.leb_le in *; lia). rewrite E. reflexivity.
Qed.
Lemma known_radix k radix pre dig : radix_of k = Some (radix, pre, dig) -> known_digits dig radix.
Proof.
  intros R. assert (D : dig = digit \/ dig = hex \/ dig = oct \/ dig = bin) by (destruct k; cbn in R; inversion R; auto). split; [apply dig_hex; exact D|].
  intros x H. pose proof (hex_cases x (dig_hex dig D x H)) as C. destruct k; cbn in R; inversion R; subst; cbn in C; repeat (destruct C as [<-|C]; [first [vm_compute; reflexivity|vm_compute in H; discriminate]|]); destruct C.
Qed.
Lemma hex_plain x : hex x = true -> is "_" x = false /\ is "_" (lower x) = false /\ is "u" (lower x) = false /\ is "i" (lower x) = false.
Proof. intros H. apply hex_cases in H. cbn in H. repeat (destruct H as [<-|H]; [repeat split|]). destruct H. Qed.
Definition cleaned (t : text) : text := filter (fun x => negb (is "_" x)) (map lower t).
Lemma cleaned_digits dig radix : known_digits dig radix -> forall t, forallb (under dig) t = true ->
  cleaned t = map lower (without_underscores t) /\ forall x, In x (without_underscores t) -> dig x = true.
Proof.
  intros [DH DV]. induction t as [|x t IH]; cbn [forallb]; intros H; [split; [reflexivity|intros x []]|]. apply andb_prop in H as [X T]. destruct (IH T) as [A B]. unfold under in X. apply orb_prop in X as [X|X].
  - destruct (hex_plain x (DH x X)) as (P1 & P2 & _). unfold cleaned, without_underscores in *. cbn [map filter]. rewrite P1, P2. cbn [negb map]. rewrite A. split; [reflexivity|]. intros y [<-|I]; auto.
  - assert (E : x = 95) by (unfold is in X; cbn in X; rewrite orb_false_r in X; now apply N.eqb_eq in X). subst x. unfold cleaned, without_underscores in *. cbn. auto.
Qed.
Lemma digits_positional dig radix : known_digits dig radix -> forall t, (forall x, In x t -> dig x = true) -> forall acc, digits radix acc (map lower t) = Some (acc * radix ^ N.of_nat (List.length t) + positional radix t).
Proof.
  intros [_ DV]. induction t as [|x t IH]; intros H acc; cbn [map digits positional List.length].
  - cbn. f_equal. lia.
  - rewrite DV by (apply H; cbn; auto). rewrite IH by (intros; apply H; cbn; auto). f_equal. rewrite Nat2N.inj_succ, N.pow_succ_r'. lia.
Qed.
Lemma known_ten : known_digits digit 10.
Proof. apply (known_radix Int 10 [] digit). reflexivity. Qed.
Lemma lower_digits n : forallb digit n = true -> map lower n = n /\ cleaned n = n /\ without_underscores n = n /\ ~ In 117 n /\ ~ In 105 n.
Proof.
  induction n as [|x n IH]; cbn [forallb]; intros H; [repeat split; auto|]. apply andb_prop in H as [X H]. destruct (IH H) as (A & B & C & D & E). pose proof (proj1 (digit_le x) X) as L.
  assert (LX : lower x = x) by (unfold lower; destruct (N.leb_spec 65 x); [lia|reflexivity]).
  assert (UX : is "_" x = false) by (unfold is; cbn; rewrite orb_false_r; apply N.eqb_neq; lia).
  unfold cleaned, without_underscores in *. cbn [map filter]. rewrite LX, UX, A. cbn [negb]. rewrite A in B. rewrite B. repeat split; auto; intros [I|I]; auto; lia.
Qed.
Lemma parse_bytes_width n : forallb digit n = true -> parse_bytes n 10 = width n.
Proof.
  intros H. unfold parse_bytes, width. destruct n as [|x n]; [reflexivity|]. destruct (lower_digits _ H) as (A & _). rewrite <- A at 1.
  rewrite (digits_positional digit 10 known_ten); [reflexivity|]. intros y I. rewrite forallb_forall in H. auto.
Qed.
Lemma split_at_app x a b : ~ In x a -> split_at x (a ++ x :: b) = (a, b).
Proof.
  induction a as [|y a IH]; cbn; intros N; [now rewrite N.eqb_refl|]. destruct (N.eqb_spec y x) as [->|E]; [destruct N; auto|]. rewrite IH by tauto. reflexivity.
Qed.
Lemma until_none x a : ~ In x a -> until x a = a.
Proof.
  unfold until. induction a as [|y a IH]; cbn; intros N; [reflexivity|]. destruct (N.eqb_spec y x) as [->|E]; [destruct N; auto|]. cbn. rewrite IH by tauto. reflexivity.
Qed.
Lemma is_one x y : is (String (ascii_of_N x) EmptyString) y = true <-> y = N_of_ascii (ascii_of_N x).
Proof. unfold is. cbn. rewrite orb_false_r. apply N.eqb_eq. Qed.
Lemma no_is s a : (forall x, In x a -> is s x = false) -> existsb (is s) a = false.
Proof. induction a as [|x a IH]; cbn; intros H; auto. rewrite H by auto. rewrite IH by auto. reflexivity. Qed.
Lemma parse_int_ok dig radix d ds s : known_digits dig radix -> dig d = true -> forallb (under dig) ds = true ->
  (s = [] \/ exists m n, s = m :: n /\ is "uUiI" m = true /\ forallb digit n = true) ->
  exists lk, parse_int (d :: ds ++ s) radix = Some (positional radix (without_underscores (d :: ds)), lk) /\ suffix s lk.
Proof.
  intros K D DS H. assert (UD : forallb (under dig) (d :: ds) = true) by (cbn; unfold under at 1; rewrite D; exact DS).
  destruct (cleaned_digits _ _ K _ UD) as [C ALL]. set (body := without_underscores (d :: ds)) in *.
  assert (NB : forall x, In x (map lower body) -> is "u" x = false /\ is "i" x = false /\ x <> 117 /\ x <> 105).
  { intros x I. apply in_map_iff in I as (y & <- & I). destruct (hex_plain y (proj1 K y (ALL y I))) as (_ & _ & P & Q). split; [exact P|]. split; [exact Q|]. split; intros E; rewrite E in *; discriminate. }
  assert (BN : body <> []). { unfold body, without_underscores. cbn [filter]. destruct (hex_plain d (proj1 K d D)) as (P & _). rewrite P. discriminate. }
  assert (PB : parse_bytes (map lower body) radix = Some (positional radix body)).
  { unfold parse_bytes. destruct (map lower body) as [|x l] eqn:E; [apply map_eq_nil in E; congruence|]. rewrite <- E. rewrite (digits_positional dig radix K body ALL). reflexivity. }
  change (d :: ds ++ s) with ((d :: ds) ++ s). unfold parse_int.
  assert (FL : filter (fun x => negb (is "_" x)) (map lower ((d :: ds) ++ s)) = map lower body ++ cleaned s).
  { rewrite map_app, filter_app. fold (cleaned (d :: ds)) (cleaned s). rewrite C. reflexivity. }
  rewrite FL. destruct H as [->|(m & n & -> & M & N)].
  - unfold cleaned. cbn [map filter]. rewrite app_nil_r. rewrite (no_is "u") by (intros x I; apply NB in I; tauto). rewrite (no_is "i") by (intros x I; apply NB in I; tauto). rewrite PB. exists Unsized. split; reflexivity.
  - destruct (lower_digits n N) as (L1 & L2 & _ & N1 & N2).
    assert (MM : m = 117 \/ m = 85 \/ m = 105 \/ m = 73).
    { unfold is in M. cbn [chars existsb] in M. rewrite !orb_true_iff, !N.eqb_eq in M. cbn in M. intuition discriminate. }
    assert (CS : cleaned (m :: n) = lower m :: n).
    { unfold cleaned in *. cbn [map filter]. rewrite L2. destruct MM as [->|[->|[->| ->]]]; reflexivity. }
    rewrite CS. assert (W : parse_bytes n 10 = width n) by now apply parse_bytes_width.
    assert (NUB : ~ In 117 (map lower body)) by (intros I; apply NB in I; tauto). assert (NIB : ~ In 105 (map lower body)) by (intros I; apply NB in I; tauto).
    assert (UU : lower m = 117 -> existsb (is "u") (map lower body ++ lower m :: n) = true). { intros E. apply existsb_exists. exists 117. split; [rewrite E; apply in_or_app; cbn; auto|reflexivity]. }
    assert (UI : lower m = 105 -> existsb (is "u") (map lower body ++ lower m :: n) = false /\ existsb (is "i") (map lower body ++ lower m :: n) = true).
    { intros E. split.
      - apply no_is. intros x I. apply in_app_or in I as [I|[I|I]]; [apply NB in I; tauto|subst x; rewrite E; reflexivity|]. unfold is. cbn. rewrite orb_false_r. apply N.eqb_neq. intros ->. contradiction.
      - apply existsb_exists. exists 105. split; [rewrite E; apply in_or_app; cbn; auto|reflexivity]. }
    assert (CASE : (lower m = 117 /\ is "uU" m = true) \/ (lower m = 105 /\ is "iI" m = true)) by (destruct MM as [->|[->|[->| ->]]]; [left|left|right|right]; split; reflexivity).
    destruct CASE as [[E X]|[E X]].
    + rewrite (UU E), E. rewrite split_at_app by exact NUB. cbn [fst snd]. rewrite until_none by exact N1. rewrite W, PB. exists (Unsigned (width n)). split; [reflexivity|]. cbn. auto.
    + destruct (UI E) as [-> ->]. rewrite E. rewrite split_at_app by exact NIB. cbn [fst snd]. rewrite until_none by exact N2. rewrite W, PB. exists (Signed (width n)). split; [reflexivity|]. cbn. auto.
Qed.

(** * Bytes *)
Lemma escape_ok q c v : ~ In q [48; 116; 110; 114] -> (escape c q = Some v <-> In (c, v) [(48, 0); (116, 9); (110, 10); (114, 13); (q, q)]).
Proof.
  intros Q. cbn in Q. unfold escape. cbn [In]. destruct (N.eqb_spec c 48) as [->|A]; [split; [intros E; inversion E; auto|intros [E|[E|[E|[E|[E|[]]]]]]; inversion E; subst; auto; tauto]|].
  destruct (N.eqb_spec c 116) as [->|B]; [split; [intros E; inversion E; auto|intros [E|[E|[E|[E|[E|[]]]]]]; inversion E; subst; auto; tauto]|].
  destruct (N.eqb_spec c 110) as [->|C]; [split; [intros E; inversion E; auto|intros [E|[E|[E|[E|[E|[]]]]]]; inversion E; subst; auto; tauto]|].
  destruct (N.eqb_spec c 114) as [->|D]; [split; [intros E; inversion E; auto|intros [E|[E|[E|[E|[E|[]]]]]]; inversion E; subst; auto; tauto]|].
  destruct (N.eqb_spec c q) as [->|F]; split.
  - intros E. inversion E; subst. auto 6.
  - intros [E|[E|[E|[E|[E|[]]]]]]; inversion E; subst; auto; congruence.
  - discriminate.
  - intros [E|[E|[E|[E|[E|[]]]]]]; inversion E; subst; congruence.
Qed.
Lemma escape_small q c v : q < 128 -> escape c q = Some v -> c < 128.
Proof.
  unfold escape. intros Q. destruct (N.eqb_spec c 48); [lia|]. destruct (N.eqb_spec c 116); [lia|]. destruct (N.eqb_spec c 110); [lia|]. destruct (N.eqb_spec c 114); [lia|]. destruct (N.eqb_spec c q); [lia|discriminate].
Qed.
Lemma bytes_of_ok u : content quote2 u -> forall l, bytes_of false u = Some l <-> stands quote2 u l.
Proof.
  assert (BS : 127 <? backslash = false) by reflexivity. assert (Q : ~ In quote2 [48; 116; 110; 114]) by (cbn; intuition discriminate).
  intros C. induction C as [|c t N C IH|c t N1 N2 C IH]; intros l; cbn [bytes_of].
  - split; [intros E; inversion E; constructor|]. intros S. inversion S. reflexivity.
  - rewrite BS. change (backslash =? backslash) with true. cbv iota. split.
    + destruct (127 <? c); [discriminate|]. destruct (escape c quote2) as [v|] eqn:E; [|discriminate]. destruct (bytes_of false t) as [l'|] eqn:T; [|discriminate]. intros X. inversion X; subst l.
      apply St_escape; [now apply escape_ok|now apply IH].
    + intros S. inversion S as [|? v ? l' I R|]; subst; [|congruence]. apply escape_ok in I; auto. assert (L : 127 <? c = false) by (apply N.ltb_ge; apply escape_small in I; [lia|reflexivity]).
      rewrite L, I. apply IH in R. rewrite R. reflexivity.
  - apply N.eqb_neq in N1 as N1'. rewrite N1'. split.
    + destruct (127 <? c) eqn:L; [discriminate|]. apply N.ltb_ge in L. destruct (bytes_of false t) as [l'|] eqn:T; [|discriminate]. intros X. inversion X; subst l. apply St_plain; auto; [lia|now apply IH].
    + intros S. inversion S as [| |? ? l' L0 M1 M2 R]; subst; [congruence|]. assert (L : 127 <? c = false) by (apply N.ltb_ge; lia). rewrite L. apply IH in R. rewrite R. reflexivity.
Qed.
Lemma inner_ok a b u q : inner (a :: b :: u ++ [q]) = u.
Proof. unfold inner. cbn [skipn List.length]. rewrite app_length. cbn [List.length]. replace (S (S (List.length u + 1)) - 3)%nat with (List.length u) by lia. rewrite firstn_app, firstn_all, Nat.sub_diag. cbn. apply app_nil_r. Qed.
Lemma char_ok u : content quote1 u -> forall v, char_literal (chars "b'" ++ u ++ [quote1]) = Some v <-> stands quote1 u [v].
Proof.
  intros C v. unfold char_literal. change (chars "b'" ++ u ++ [quote1]) with (98 :: 39 :: u ++ [quote1]). rewrite inner_ok.
  assert (Q : ~ In quote1 [48; 116; 110; 114]) by (cbn; intuition discriminate).
  destruct C as [|c t N C|c t N1 N2 C].
  - split; [discriminate|]. intros S. inversion S.
  - destruct t as [|d t].
    + split.
      * change (127 <? backslash) with false. cbn [orb]. change (backslash =? backslash) with true. cbv iota. destruct (127 <? c); [discriminate|]. intros E. apply St_escape; [now apply escape_ok|constructor].
      * intros S. inversion S as [|? v' ? l' H3 R|]; subst; [|congruence]. apply escape_ok in H3; auto. change (127 <? backslash) with false. cbn [orb]. change (backslash =? backslash) with true. cbv iota.
        assert (L : 127 <? c = false) by (apply N.ltb_ge; apply escape_small in H3; [lia|reflexivity]). rewrite L. exact H3.
    + split; [discriminate|]. intros S. inversion S; subst; [|congruence]. match goal with X : stands _ (_ :: _) [] |- _ => inversion X end.
  - destruct t as [|d t].
    + split.
      * destruct (127 <? c) eqn:L; [discriminate|]. apply N.ltb_ge in L. intros E. inversion E; subst. apply St_plain; auto; [lia|constructor].
      * intros S. inversion S; subst. assert (L : 127 <? v = false) by (apply N.ltb_ge; lia). rewrite L. reflexivity.
    + split.
      * destruct t; [|discriminate]. destruct ((127 <? c) || (127 <? d)); [discriminate|]. apply N.eqb_neq in N1. rewrite N1. discriminate.
      * intros S. inversion S; subst; [congruence|]. match goal with X : stands _ (_ :: _) [] |- _ => inversion X end.
Qed.
Lemma stands_backslash q u l : q <> backslash -> stands q u l -> ~ In backslash l.
Proof.
  intros Q S. induction S as [|c v t l I S IH|c t l L N1 N2 S IH]; cbn; [auto| |].
  - intros [E|E]; [|auto]. subst v. cbn in I. destruct I as [I|[I|[I|[I|[I|[]]]]]]; inversion I. congruence.
  - intros [E|E]; auto.
Qed.
Lemma writable l : (forall b, In b l -> b < 128 /\ b <> backslash) -> exists u, content quote2 u /\ stands quote2 u l.
Proof.
  induction l as [|b l IH]; intros H; [exists []; split; constructor|]. destruct IH as (u & C & S); [intros; apply H; cbn; auto|]. destruct (H b) as [L N]; [cbn; auto|].
  destruct (N.eq_dec b quote2) as [->|Q].
  - exists (backslash :: quote2 :: u). split; [apply C_escape; auto; discriminate|]. apply St_escape; auto. cbn. auto 6.
  - exists (b :: u). split; [apply C_plain; auto|apply St_plain; auto].
Qed.
