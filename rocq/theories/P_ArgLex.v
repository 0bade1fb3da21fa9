(** C68 with the lexer of C60: arguments written as paths of names *)
From Coq Require Import NArith List Bool Ascii String Arith Lia.
From Verif Require LexModel LexSpec LexTop P_Lex.
From Verif Require Import ArgModel ArgSpec ArgProofs P_Arg P_LexPath.
Import ListNotations.

(** The tokens of C60 as far as a path is concerned (spade-parser/src/lexer.rs; TokenKind::is_identifier): the name
    an identifier stands for, [::], and others; what is no token comes last, as nothing is read behind it. *)
Definition letters (t : text) : LexModel.text := map N_of_ascii t.
Definition seen (kw : LexModel.kind * LexModel.text) : token :=
  match LexModel.name_of (fst kw) (snd kw), fst kw with
  | Some n, LexModel.Ident => Ident (map ascii_of_N n)
  | _, LexModel.Fixed s => if String.eqb s "::" then Separator else Other
  | _, _ => Other
  end.
Definition lexer (cl : LexModel.classes) (more : LexModel.text -> nat) (t : text) : list token :=
  match LexModel.tokens cl more (S (2 * List.length t)) (letters t) with
  | Some (l, true) => map seen l
  | Some (l, false) => map seen l ++ [NoToken]
  | None => [NoToken]
  end.

(** A path as one writes it *)
Fixpoint spelling (p : list text) : text :=
  match p with [] => [] | [w] => w | w :: p => w ++ list_ascii_of_string "::" ++ spelling p end.
Definition proper (cl : LexModel.classes) (w : text) : Prop :=
  LexSpec.name cl (letters w) /\ ~ In (letters w) (map LexModel.chars LexModel.keywords).

Lemma letters_spelling p : letters (spelling p) = path_text (map letters p).
Proof.
  induction p as [|w [|w' p] IH]; try reflexivity. unfold letters in *.
  change (spelling (w :: w' :: p)) with (w ++ list_ascii_of_string "::" ++ spelling (w' :: p)).
  rewrite !map_app, IH. reflexivity.
Qed.
Lemma back w : map ascii_of_N (letters w) = w.
Proof. unfold letters. rewrite map_map, (map_ext _ (fun x => x)) by apply ascii_N_embedding. apply map_id. Qed.
Lemma no_comma_name cl w : proper cl w -> no_comma w.
Proof.
  intros [(c & u & E & F & G) _] I. assert (J : In 44%N (letters w)) by (apply in_map_iff; exists comma; auto).
  rewrite E in J. destruct J as [J|J]; [subst c; discriminate F|]. rewrite forallb_forall in G. apply G in J. discriminate J.
Qed.
Lemma no_comma_spelling cl p : (forall w, In w p -> proper cl w) -> no_comma (spelling p).
Proof.
  induction p as [|w [|w' p] IH]; intros P. { intros []. } { apply (no_comma_name cl). apply P. left; auto. }
  change (spelling (w :: w' :: p)) with (w ++ list_ascii_of_string "::" ++ spelling (w' :: p)).
  intros I. apply in_app_or in I as [I|I]. { revert I. apply (no_comma_name cl). apply P. left; auto. }
  apply in_app_or in I as [I|I]. { cbn in I. intuition discriminate. } revert I. apply IH. intros; apply P; right; auto.
Qed.
Lemma proper_nonempty cl w : proper cl w -> (1 <= List.length w)%nat.
Proof. intros [(c & u & E & _) _]. destruct w; [discriminate|simpl; lia]. Qed.
Lemma spelling_long cl p : (forall w, In w p -> proper cl w) -> (List.length p <= List.length (spelling p))%nat.
Proof.
  induction p as [|w [|w' p] IH]; intros P; [auto| |].
  - apply (proper_nonempty cl). apply P. left; auto.
  - change (spelling (w :: w' :: p)) with (w ++ list_ascii_of_string "::" ++ spelling (w' :: p)).
    rewrite !app_length. assert (H := IH (fun v I => P v (or_intror I))). cbn [List.length] in *. pose proof (proper_nonempty cl w (P w (or_introl eq_refl))). lia.
Qed.
Lemma seen_path cl p : (forall w, In w p -> proper cl w) -> map seen (path_tokens (map letters p)) = written p.
Proof.
  assert (Y : forall w, proper cl w -> seen (LexModel.Ident, letters w) = Ident w).
  { intros w W. unfold seen. cbn [fst snd]. rewrite (proj1 (P_Lex.C60_names cl _ (proj1 W))), back. reflexivity. }
  induction p as [|w [|w' p] IH]; intros P; auto.
  - cbn [map path_tokens written]. rewrite Y; auto. apply P. left; auto.
  - change (path_tokens (map letters (w :: w' :: p))) with ((LexModel.Ident, letters w) :: (LexModel.Fixed "::", [colon; colon]) :: path_tokens (map letters (w' :: p))).
    change (written (w :: w' :: p)) with (Ident w :: Separator :: written (w' :: p)).
    rewrite <- IH by (intros; apply P; right; auto). cbn [map]. rewrite Y by (apply P; left; auto). reflexivity.
Qed.
Lemma spelling_stands cl more p : (forall w, In w p -> proper cl w) -> stands_for (lexer cl more) (spelling p) p.
Proof.
  intros P. destruct p as [|w p]; [left; auto|]. right.
  pose proof (spelling_long cl _ P) as L. split. { intros E. rewrite E in L. simpl in L. lia. } split; [discriminate|].
  unfold lexer. rewrite letters_spelling, C60_path.
  - apply (seen_path cl); auto.
  - intros v I. apply in_map_iff in I as (w0 & <- & I). apply P. auto.
  - rewrite map_length. lia.
Qed.

(** Whatever names, that are no keywords, the two paths are made of, and whatever the file is called, as long as there is no
    comma in it: written down, they are read. *)
Theorem C68_lexed : forall cl more b n f, (forall w, In w (b ++ n) -> proper cl w) -> no_comma f ->
  namespaced_file (lexer cl more) (triple (spelling b) (spelling n) f) = Ok {| base_namespace := b; namespace := n; name := f |}.
Proof.
  intros cl more b n f P F. apply C68_as_written; auto.
  - apply (no_comma_spelling cl). intros; apply P, in_or_app; auto.
  - apply (no_comma_spelling cl). intros; apply P, in_or_app; auto.
  - apply spelling_stands. intros; apply P, in_or_app; auto.
  - apply spelling_stands. intros; apply P, in_or_app; auto.
Qed.
Print Assumptions C68_lexed.

(** A keyword in a path is refused. *)
Example C68_nontrivial_lexed :
  let cl := LexModel.Build_classes (fun _ => true) (fun _ => true) (fun _ => true) in
  let more := fun _ => 0%nat in
  (forall w, In w [t "a"; t "a"; t "b1"] -> proper cl w) /\
  triple (spelling [t "a"]) (spelling [t "a"; t "b1"]) (t "b.spade") = t "a,a::b1,b.spade" /\
  namespaced_file (lexer cl more) (t "a,a::b1,b.spade") = Ok {| base_namespace := [t "a"]; namespace := [t "a"; t "b1"]; name := t "b.spade" |} /\
  namespaced_file (lexer cl more) (t "lib,lib::pipeline,x") = Err (Parsing (t "lib::pipeline")) /\
  namespaced_file (lexer cl more) (t "lib::pipeline,lib,x") = Err (Parsing (t "lib")).
Proof.
  cbn zeta. split; [|repeat split; vm_compute; reflexivity]. intros w I.
  assert (N : forall c u cl, LexModel.first cl c = true -> forallb (LexModel.further cl) u = true -> LexSpec.name cl (c :: u)) by (intros c u cl A B; exists c, u; auto).
  assert (M : forall w, existsb (fun s => if list_eq_dec N.eq_dec (LexModel.chars s) w then true else false) LexModel.keywords = false -> ~ In w (map LexModel.chars LexModel.keywords)).
  { intros v E J. apply in_map_iff in J as (s & <- & J). rewrite <- not_true_iff_false in E. apply E. apply existsb_exists. exists s. split; auto. destruct list_eq_dec; congruence. }
  destruct I as [<-|[<-|[<-|[]]]]; (split; [apply N; reflexivity|apply M; vm_compute; reflexivity]).
Qed.
