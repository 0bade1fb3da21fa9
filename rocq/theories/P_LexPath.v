(** C60: paths are read as written *)
From Coq Require Import NArith List Bool Ascii String Arith Lia.
From Verif Require Import LexModel LexSpec LexProofs LexTop LexMore.
Import ListNotations.
Open Scope N_scope.

Definition colon : N := 58.
(** The names of a path with [::], and nothing else, between them *)
Fixpoint path_text (p : list text) : text :=
  match p with [] => [] | [w] => w | w :: p => w ++ [colon; colon] ++ path_text p end.
Fixpoint path_tokens (p : list text) : list (kind * text) :=
  match p with [] => [] | [w] => [(Ident, w)] | w :: p => (Ident, w) :: (Fixed "::", [colon; colon]) :: path_tokens p end.

Lemma name_no_colon cl w : name cl w -> ~ In 58 w.
Proof.
  intros (c & u & -> & F & G) [E|I]; [subst c; discriminate F|]. rewrite forallb_forall in G. apply G in I. discriminate I.
Qed.
Lemma keywords_no_colon s : In s keywords -> ~ In 58 (chars s).
Proof.
  intros I J. assert (K : forallb (fun s => negb (existsb (N.eqb 58) (chars s))) keywords = true) by (vm_compute; reflexivity).
  rewrite forallb_forall in K. apply K in I. apply negb_true_iff in I. rewrite <- not_true_iff_false in I. apply I.
  apply existsb_exists. exists 58. auto.
Qed.
Lemma name_colon_guess cl w x : name cl w -> guess cl (w ++ 58 :: x) = 2%nat.
Proof.
  intros (c & u & -> & F & R). pose proof (first_not _ _ F) as N. cbn in N. cbn [app]. unfold guess.
  assert (NQ : c =? 39 = false) by (apply N.eqb_neq; intuition congruence). rewrite NQ.
  assert (N64 : c =? 64 = false) by (apply N.eqb_neq; intuition congruence). rewrite N64.
  assert (N34 : c =? 34 = false) by (apply N.eqb_neq; intuition congruence). rewrite N34.
  assert (N47 : c =? 47 = false) by (apply N.eqb_neq; intuition congruence). rewrite N47.
  assert (N42 : c =? 42 = false) by (apply N.eqb_neq; intuition congruence). rewrite N42.
  assert (N894 : c =? 894 = false) by (apply N.eqb_neq; intuition congruence). rewrite N894.
  assert (SP : existsb (N.eqb c) [32; 9; 10; 13] = false).
  { destruct (existsb _ _) eqn:E'; auto. apply existsb_exists in E' as (z & I & E'). apply N.eqb_eq in E'. subst z. cbn in I. intuition congruence. }
  rewrite SP. assert (DG : digit c = false).
  { destruct (digit c) eqn:D; auto. apply digit_le in D. exfalso. assert (c = 48 \/ c = 49 \/ c = 50 \/ c = 51 \/ c = 52 \/ c = 53 \/ c = 54 \/ c = 55 \/ c = 56 \/ c = 57) by lia. intuition congruence. }
  rewrite DG, F. assert (H : hd 0 (u ++ 58 :: x) =? 39 = false /\ hd 0 (u ++ 58 :: x) =? 34 = false).
  { destruct u as [|d u]; [split; reflexivity|]. cbn in R |- *. apply andb_prop in R as [R _]. apply further_not in R. cbn in R. split; apply N.eqb_neq; intuition congruence. }
  destruct H as [-> ->]. rewrite !andb_false_r. reflexivity.
Qed.
Lemma name_longer cl k w x : name cl w -> spelled cl k (w ++ 58 :: x) -> False.
Proof.
  intros H S. pose proof (guess_ok _ _ _ S) as G. rewrite (name_colon_guess cl w x H) in G.
  assert (I : In 58 (w ++ 58 :: x)) by (apply in_or_app; right; left; auto).
  destruct k; cbn [code In] in G; try discriminate; try (intuition discriminate).
  - destruct G as [[K _]|[_ G]]; [|discriminate]. destruct S as [_ S]. rewrite S in I. exact (keywords_no_colon _ K I).
  - destruct S as [S|(u & E & S)]; [exact (name_no_colon _ _ S I)|]. rewrite E in I. apply in_app_or in I as [I|I].
    + cbn in I. intuition discriminate.
    + exact (name_no_colon _ _ S I).
Qed.
Lemma only_ident cl w : ~ In w (map chars keywords) -> forall k', spelled cl k' w -> k' = Ident \/ ~ preferred k' Ident.
Proof. intros P k' S. right. intros Q. destruct k'; cbn in Q; try contradiction. destruct S as [_ ->]. apply P. now apply in_map. Qed.
Lemma lex_name cl more w x : name cl w -> ~ In w (map chars keywords) -> lex cl more (w ++ 58 :: x) = Token Ident w (58 :: x).
Proof.
  intros H P. apply lex_of.
  - left; auto.
  - intros k' v S N r' E. destruct v as [|y v]; [congruence|]. inversion E; subst y. exact (name_longer _ _ _ _ H S).
  - now apply only_ident.
Qed.
Lemma lex_last cl more w : name cl w -> ~ In w (map chars keywords) -> lex cl more w = Token Ident w [].
Proof.
  intros H P. rewrite <- (app_nil_r w) at 1. apply lex_of.
  - left; auto.
  - intros k' v S N r' E. destruct v; [congruence|discriminate].
  - now apply only_ident.
Qed.
Lemma lex_colons cl more c x : first cl c = true -> lex cl more (58 :: 58 :: c :: x) = Token (Fixed "::") [58; 58] (c :: x).
Proof.
  intros F. apply (lex_of cl more (Fixed "::") [58; 58] (c :: x)).
  - split; [|reflexivity]. apply in_or_app. right. vm_compute. tauto.
  - intros k v S N r' E. destruct v as [|y v]; [congruence|]. inversion E; subst y. pose proof (guess_ok _ _ _ S) as G.
    change (guess cl ([58; 58] ++ c :: v)) with 0%nat in G. destruct k; cbn [code In] in G; try discriminate; try (intuition discriminate).
    destruct G as [[_ G]|[K _]]; [discriminate|]. destruct S as [_ S].
    assert (M : forallb (fun s => match chars s with 58 :: 58 :: _ :: _ => false | _ => true end) marks = true) by (vm_compute; reflexivity).
    rewrite forallb_forall in M. apply M in K. rewrite <- S in K. discriminate.
  - intros k S. right. intros Q. destruct k; cbn in Q; contradiction.
Qed.

Lemma next_got cl more t k w r : lex cl more t = Token k w r -> match k with Space | Comment | Open => False | _ => True end -> next_token cl more t = Some (Got k w r).
Proof. intros E N. unfold next_token. replace (2 * List.length t + 2)%nat with (S (2 * List.length t + 1))%nat by lia. now apply helper_got. Qed.

(** A path written without blanks is its names, with [::] between them: no name, and no [::], runs into its neighbour. *)
Theorem C60_path : forall cl more p, (forall w, In w p -> name cl w /\ ~ In w (map chars keywords)) ->
  forall f, (2 * List.length p < f)%nat -> tokens cl more f (path_text p) = Some (path_tokens p, true).
Proof.
  intros cl more. induction p as [|w p IH]; intros P f L; (destruct f as [|f]; [cbn in L; lia|]); [reflexivity|].
  destruct (P w (or_introl eq_refl)) as [H K]. destruct p as [|w' p].
  - cbn [path_text path_tokens tokens].
    rewrite (next_got cl more w Ident w [] (lex_last cl more w H K) I).
    destruct f; [cbn in L; lia|]. reflexivity.
  - assert (IH' : forall f, (2 * List.length (w' :: p) < f)%nat -> tokens cl more f (path_text (w' :: p)) = Some (path_tokens (w' :: p), true)).
    { apply IH. intros; apply P; right; auto. }
    change (path_text (w :: w' :: p)) with (w ++ 58 :: 58 :: path_text (w' :: p)).
    change (path_tokens (w :: w' :: p)) with ((Ident, w) :: (Fixed "::", [58; 58]) :: path_tokens (w' :: p)).
    assert (B : exists c x, path_text (w' :: p) = c :: x /\ first cl c = true).
    { destruct (P w' (or_intror (or_introl eq_refl))) as [(c & u & -> & F & _) _]. destruct p; [exists c, u|exists c, (u ++ [colon; colon] ++ path_text (t :: p))]; auto. }
    destruct B as (c & x & B & F). revert IH'. generalize (path_tokens (w' :: p)). rewrite B. intros ts IH'.
    cbn [tokens].
    rewrite (next_got cl more _ Ident w _ (lex_name cl more w (58 :: c :: x) H K) I).
    destruct f as [|f]; [cbn in L; lia|]. cbn [tokens].
    rewrite (next_got cl more _ _ _ _ (lex_colons cl more c x F) I).
    rewrite IH' by (cbn [List.length] in *; lia). reflexivity.
Qed.
Print Assumptions C60_path.

Example C60_nontrivial_path :
  let cl := {| xid_start := fun _ => true; xid_continue := fun _ => true; word := fun _ => true |} in
  let p := [chars "lib"; chars "r"; chars "entity1"; [955]] in
  (forall w, In w p -> name cl w /\ ~ In w (map chars keywords)) /\ path_text p = chars "lib::r::entity1::" ++ [955].
Proof.
  cbn zeta. split; [|reflexivity]. intros w I.
  assert (N : forall c u cl, first cl c = true -> forallb (further cl) u = true -> name cl (c :: u)) by (intros c u cl A B; exists c, u; auto).
  assert (M : forall w, existsb (fun s => if list_eq_dec N.eq_dec (chars s) w then true else false) keywords = false -> ~ In w (map chars keywords)).
  { intros v E J. apply in_map_iff in J as (s & <- & J). rewrite <- not_true_iff_false in E. apply E. apply existsb_exists. exists s. split; auto. destruct list_eq_dec; congruence. }
  destruct I as [<-|[<-|[<-|[<-|[]]]]]; (split; [apply N; reflexivity|apply M; vm_compute; reflexivity]).
Qed.
