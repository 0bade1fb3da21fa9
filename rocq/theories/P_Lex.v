(** C60: a text is split into tokens and literals as it is written. *)
From Coq Require Import NArith List Bool Ascii String Arith Lia.
From Verif Require Import LexModel LexSpec LexProofs LexTop LexMore LexComment.
Import ListNotations.
Open Scope N_scope.

(** The words, the signs and the classes of characters the spellings below are about *)
Theorem C60_table : forall s, (In s keywords <-> In s words_of_the_language) /\ (In s marks <-> In s signs_of_the_language).
Proof.
  assert (X : forall a b, forallb (fun s => existsb (String.eqb s) b) a = true -> forall s, In s a -> In s b).
  { intros a b F s I. rewrite forallb_forall in F. apply F in I. apply existsb_exists in I as (x & J & E). apply String.eqb_eq in E. now subst. }
  intros s. split; split; apply X; vm_compute; reflexivity.
Qed.
Print Assumptions C60_table.
Theorem C60_classes : forall c,
  (digit c = true <-> In c (chars "0123456789")) /\ (hex c = true <-> In c (chars "0123456789ABCDEFabcdef")) /\
  (oct c = true <-> In c (chars "01234567")) /\ (bin c = true <-> In c (chars "01")) /\
  (letter c = true <-> In c (chars "ABCDEFGHIJKLMNOPQRSTUVWXYZabcdefghijklmnopqrstuvwxyz")) /\
  (beyond c = true <-> 128 <= c /\ c <> 894) /\
  forall cl, (first cl c = true <-> letter c = true \/ c = 95 \/ beyond c = true /\ xid_start cl c = true) /\
    (further cl c = true <-> letter c = true \/ digit c = true \/ c = 95 \/ beyond c = true /\ xid_continue cl c = true) /\
    (wordy cl c = true <-> letter c = true \/ digit c = true \/ c = 95 \/ beyond c = true /\ word cl c = true).
Proof.
  intros c.
  assert (X : forall f l, (forall x, f x = true -> x < 128) -> forallb (fun n => Bool.eqb (f (N.of_nat n)) (existsb (N.eqb (N.of_nat n)) l)) (List.seq 0 128) = true -> forallb (fun x => x <? 128) l = true -> (f c = true <-> In c l)).
  { intros f l B F L. assert (E : c < 128 -> f c = existsb (N.eqb c) l).
    { intros S. rewrite forallb_forall in F. specialize (F (N.to_nat c)). rewrite N2Nat.id in F. apply eqb_prop, F, in_seq. lia. }
    split.
    - intros H. pose proof (B c H) as S. rewrite (E S) in H. apply existsb_exists in H as (x & I & Q). apply N.eqb_eq in Q. now subst.
    - intros I. rewrite forallb_forall in L. pose proof (L c I) as S. apply N.ltb_lt in S. rewrite (E S). apply existsb_exists. exists c. split; [exact I|apply N.eqb_refl]. }
  assert (U : forall x, is "_" x = true <-> x = 95). { intros x. unfold is. cbn. rewrite orb_false_r, N.eqb_eq. tauto. }
  repeat match goal with |- (_ <-> In _ _) /\ _ => split; [apply X; [intros x; unfold digit, hex, oct, bin, letter, digit; repeat rewrite orb_true_iff || rewrite andb_true_iff || rewrite N.leb_le; lia|vm_compute; reflexivity|vm_compute; reflexivity]|] end.
  split; [unfold beyond; rewrite andb_true_iff, N.ltb_lt, negb_true_iff, N.eqb_neq; split; intros [A B]; (split; [lia|exact B])|].
  intros cl. unfold first, further, wordy. rewrite !orb_true_iff, !andb_true_iff, U. tauto.
Qed.
Print Assumptions C60_classes.

(** Whatever the text, the lexer takes the longest token it starts with, and of two readings
    of that token the preferred one.  It fails only where no token starts. *)
Theorem C60_longest : forall cl more t,
  match lex cl more t with
  | End => t = []
  | Bad r => exists c t', t = c :: t' /\ r = skipn (more t) t' /\ forall k w r', t = w ++ r' -> ~ spelled cl k w
  | Token k w r => t = w ++ r /\ w <> [] /\ spelled cl k w /\
      (forall k' w' r', t = w' ++ r' -> spelled cl k' w' -> (List.length w' <= List.length w)%nat) /\
      (forall k', spelled cl k' w -> k = k' \/ preferred k k')
  end.
Proof.
  intros cl more t. destruct (lex cl more t) as [|r|k w r] eqn:E.
  - now apply lex_end in E.
  - destruct t as [|c t]; [discriminate|]. apply lex_bad in E as [A B]. exists c, t. auto.
  - now apply lex_token in E.
Qed.
Print Assumptions C60_longest.

(** The next token is found, or its absence or an error reported, after finitely many steps. *)
Theorem C60_ends : forall cl more t, exists x, next_token cl more t = Some x /\
  match x with Eof => True | Failed r | Got _ _ r => (List.length r < List.length t)%nat end.
Proof. intros cl more t. apply (ends cl more (2 * List.length t + 2) t). lia. Qed.
Print Assumptions C60_ends.

(** Any sequence of tokens is read back as it was written. *)
Theorem C60_tokens : forall cl more l, (forall k w, In (k, w) l -> plain cl k w) ->
  forall f, (List.length l < f)%nat -> tokens cl more f (spaced l) = Some (l, true).
Proof. intros cl more l P f L. apply (tokens_spaced cl more l P f L). Qed.
Print Assumptions C60_tokens.

(** A number stands for the value of its digits in its radix, underscores left out, and the
    suffix gives its sign and width. *)
Theorem C60_number : forall cl k radix pre dig d ds s,
  radix_of k = Some (radix, pre, dig) -> dig d = true -> forallb (under dig) ds = true ->
  spelled cl k (pre ++ d :: ds ++ s) ->
  (s = [] \/ exists m n, s = m :: n /\ is "uUiI" m = true /\ forallb digit n = true) ->
  exists lk, number_of k (pre ++ d :: ds ++ s) = Some (Some (positional radix (without_underscores (d :: ds)), lk)) /\ suffix s lk.
Proof.
  intros cl k radix pre dig d ds s R D DS _ H. destruct (parse_int_ok dig radix d ds s (known_radix _ _ _ _ R) D DS H) as (lk & P & S). exists lk. split; [|exact S].
  destruct k; cbn in R; inversion R; subst; unfold number_of; cbn [app skipn chars]; f_equal; exact P.
Qed.
Print Assumptions C60_number.

(** Every number token has such a value: reading it never panics. *)
Theorem C60_number_total : forall cl k w, radix_of k <> None -> spelled cl k w -> exists v lk, number_of k w = Some (Some (v, lk)).
Proof.
  intros cl k w R S.
  assert (X : forall dig wid u, numeral dig wid u -> (forall x, wid x = true -> digit x = true) -> exists d ds s, u = d :: ds ++ s /\ dig d = true /\ forallb (under dig) ds = true /\ (s = [] \/ exists m n, s = m :: n /\ is "uUiI" m = true /\ forallb digit n = true)).
  { intros dig wid u (d & ds & s & E & A & B & C) W. exists d, ds, s. repeat split; auto. destruct C as [->|(m & n & -> & M & F)]; [auto|]. right. exists m, n. repeat split; auto.
    rewrite forallb_forall in F |- *. auto. }
  assert (Y : forall pre u, (exists radix dig wid, radix_of k = Some (radix, pre, dig) /\ numeral dig wid u /\ (forall x, wid x = true -> digit x = true)) -> w = pre ++ u -> exists v lk, number_of k w = Some (Some (v, lk))).
  { intros pre u (radix & dig & wid & Rk & NU & W) ->. destruct (X dig wid u NU W) as (d & ds & s & E & A & B & C). rewrite E in S |- *.
    destruct (C60_number cl k radix pre dig d ds s Rk A B S C) as (lk & P & _). eauto. }
  assert (O : forall x, oct x = true -> digit x = true). { intros x. unfold oct, digit. rewrite !andb_true_iff, !N.leb_le. lia. }
  destruct k; cbn in R; try congruence.
  - apply (Y [] w); [|reflexivity]. exists 10, digit, digit. auto.
  - destruct S as (u & E & NU). apply (Y (chars "0x") u); [|exact E]. exists 16, hex, digit. auto.
  - destruct S as (u & E & NU). apply (Y (chars "0o") u); [|exact E]. exists 8, oct, oct. auto.
  - destruct S as (u & E & NU). apply (Y (chars "0b") u); [|exact E]. exists 2, bin, digit. auto.
Qed.
Print Assumptions C60_number_total.

(** [r#fn] is the name [fn]; [a] is [a], ['a] and [@a] are the label [a]. *)
Theorem C60_names : forall cl u, name cl u ->
  name_of Ident u = Some u /\ name_of Ident (chars "r#" ++ u) = Some u /\
  name_of Label (quote1 :: u) = Some u /\ name_of LabelRef (chars "@" ++ u) = Some u.
Proof.
  intros cl u (c & r & -> & F & R). split; [|repeat split]. unfold name_of. destruct r as [|b r]; [reflexivity|]. cbn [forallb] in R. apply andb_prop in R as [B _].
  destruct (N.eqb_spec b 35) as [->|N]; [|rewrite andb_false_r; reflexivity]. apply further_not in B. cbn in B. exfalso. tauto.
Qed.
Print Assumptions C60_names.

(** A byte string or byte character that is a token is either one the rules for escapes give
    a meaning, and then has that meaning, or is refused. *)
Theorem C60_bytes : forall cl w, spelled cl Bytes w -> forall l,
  bytes_literal w = Some l <-> exists u, w = chars "b""" ++ u ++ [quote2] /\ stands quote2 u l.
Proof.
  intros cl w (u & -> & C) l. unfold bytes_literal. change (chars "b""" ++ u ++ [quote2]) with (98 :: 34 :: u ++ [quote2]). rewrite inner_ok, (bytes_of_ok u C l). split.
  - intros S. exists u. auto.
  - intros (u' & E & S). inversion E as [E']. apply app_inv_tail in E'. now subst.
Qed.
Print Assumptions C60_bytes.
Theorem C60_char : forall cl w, spelled cl Char w -> forall v,
  char_literal w = Some v <-> exists u, w = chars "b'" ++ u ++ [quote1] /\ stands quote1 u [v].
Proof.
  intros cl w (u & -> & C) v. rewrite (char_ok u C v). split.
  - intros S. exists u. auto.
  - intros (u' & E & S). inversion E as [E']. apply app_inv_tail in E'. now subst.
Qed.
Print Assumptions C60_char.

(** Every sequence of bytes below 128 without the backslash can be written.
    Missing: the backslash, for which it is false (below). *)
Theorem C60_writable_partial : forall cl l, (forall b, In b l -> b < 128 /\ b <> backslash) ->
  exists w, spelled cl Bytes w /\ bytes_literal w = Some l.
Proof.
  intros cl l H. destruct (writable l H) as (u & C & S). exists (chars "b""" ++ u ++ [quote2]). assert (SP : spelled cl Bytes (chars "b""" ++ u ++ [quote2])) by (exists u; auto).
  split; [exact SP|]. apply (C60_bytes cl _ SP). exists u. auto.
Qed.
Print Assumptions C60_writable_partial.

(** A comment is skipped up to the matching [*/] whatever it contains, if it contains no
    quotes and no [//].  Missing: comments with these, for which it is false (below).
    [one_by_one] is about Logos, which is not modelled: see DESIGN.md. *)
Theorem C60_comment_partial : forall cl more, one_by_one cl more -> forall u r,
  comment_end 0 (u ++ r) = Some r -> quiet u = true ->
  next_token cl more (chars "/*" ++ u ++ r) = next_token cl more r.
Proof.
  intros cl more ONE u r C Q. apply next_same. intros x G. eapply gives_open; [apply lex_open|]. eapply (comment_closed cl more ONE); eauto.
Qed.
Print Assumptions C60_comment_partial.
(** One that is not closed is an error that takes the rest of the text. *)
Theorem C60_unclosed_partial : forall cl more, one_by_one cl more -> forall t,
  comment_end 0 t = None -> quiet t = true -> next_token cl more (chars "/*" ++ t) = Some (Failed []).
Proof.
  intros cl more ONE t C Q. apply next_gives. eapply gives_open; [apply lex_open|]. eapply (comment_open cl more ONE); eauto.
Qed.
Print Assumptions C60_unclosed_partial.
(** [//] skips the rest of the line, whatever it contains, unless it is documentation. *)
Theorem C60_line : forall cl more u r, line u -> match u with c :: _ => c <> 47 /\ c <> 33 | [] => True end ->
  next_token cl more (chars "//" ++ u ++ newline :: r) = next_token cl more (newline :: r).
Proof.
  intros cl more u r L N. apply next_same. intros x G. eapply gives_skip; [apply lex_line; assumption|auto|exact G].
Qed.
Print Assumptions C60_line.

(** * Where the lexer and the claim differ *)
Definition ascii_only : classes := {| xid_start := fun _ => false; xid_continue := fun _ => false; word := fun _ => false |}.
Definition none_left : text -> nat := fun _ => 0%nat.
Definition read (s : string) : option (list (kind * text) * bool) := tokens ascii_only none_left 100 (chars s).

(** The width of an octal number has octal digits only: [0o17u8] is read as [0o17u] and [8],
    while [0x17u8] is one number. *)
Theorem C60_octal_refuted :
  read "0o17u8" = Some ([(Oct, chars "0o17u"); (Int, chars "8")], true) /\
  read "0x17u8" = Some ([(Hex, chars "0x17u8")], true).
Proof. split; vm_compute; reflexivity. Qed.
Print Assumptions C60_octal_refuted.

(** No byte string contains a backslash. *)
Theorem C60_backslash_refuted : exists b, b < 128 /\ forall cl w l, spelled cl Bytes w -> bytes_literal w = Some l -> ~ In b l.
Proof.
  exists backslash. split; [reflexivity|]. intros cl w l S B. apply (C60_bytes cl w S) in B as (u & _ & ST). apply (stands_backslash quote2 u l); [discriminate|exact ST].
Qed.
Print Assumptions C60_backslash_refuted.

(** Quotes and [//] count inside comments: code between two comments with one quote each is
    lost without an error, and [//] hides the end of a comment. *)
Theorem C60_comment_refuted :
  read "/* 5"" */ fn a /* 6"" */ b" = Some ([(Ident, chars "b")], true) /\
  comment_end 0 (chars " 5"" */ fn a /* 6"" */ b") = Some (chars " fn a /* 6"" */ b") /\
  read "/* a // */ b" = Some ([], false) /\ comment_end 0 (chars " a // */ b") = Some (chars " b").
Proof. repeat split; vm_compute; reflexivity. Qed.
Print Assumptions C60_comment_refuted.

(** * A case *)
Example C60_nontrivial :
  read "fn r#fn fnx >>>. 0x1F_u8 'a' 'a @b b'\'' /* /* */ ~x */ y // foo" =
    Some ([(Fixed "fn", chars "fn"); (Ident, chars "r#fn"); (Ident, chars "fnx"); (Fixed ">>>", chars ">>>"); (Fixed ".", chars ".");
           (Hex, chars "0x1F_u8"); (Utf8, chars "'a'"); (Label, chars "'a"); (LabelRef, chars "@b"); (Char, chars "b'\''"); (Ident, chars "y")], true) /\
  number_of Hex (chars "0x1F_u8") = Some (Some (31, Unsigned (Some 8))) /\
  char_literal (chars "b'\''") = Some 39 /\
  bytes_literal (chars "b""a\n\""""") = Some [97; 10; 34] /\ bytes_literal (chars "b""\x""") = None /\
  one_by_one ascii_only none_left /\
  comment_end 0 (chars " /* */ ~x */ y") = Some (chars " y") /\ quiet (chars " /* */ ~x */") = true /\
  comment_end 0 (chars " /* */ y") = None /\ quiet (chars " /* */ y") = true /\
  (forall k w, In (k, w) [(Fixed "fn", chars "fn"); (Ident, chars "fnx"); (Int, chars "1_0i3")] -> plain ascii_only k w).
Proof.
  split; [vm_compute; reflexivity|]. do 9 (split; [first [vm_compute; reflexivity|intros c t _; reflexivity]|]).
  intros k w [E|[E|[E|[]]]]; inversion E; subst; split; auto.
  - split; [vm_compute; tauto|reflexivity].
  - left. exists 102, [110; 120]. vm_compute. auto.
  - intros I. vm_compute in I. repeat (destruct I as [I|I]; [discriminate|]). destruct I.
  - exists 49, [95; 48], [105; 51]. split; [reflexivity|]. split; [reflexivity|]. split; [reflexivity|]. right. exists 105, [51]. auto.
Qed.
