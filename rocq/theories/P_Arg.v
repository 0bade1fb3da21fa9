(** C68: the files compiled are the ones named, each in the namespaces given with it *)
From Coq Require Import List Ascii String Arith Lia.
Import ListNotations.
From Verif Require Import ArgModel ArgSpec ArgProofs.

(** An argument is taken exactly if it has no comma, being then the name of a file outside of any namespace,
    or has two, with a path, or nothing, in front of each; and the file, and its namespaces, are those written. *)
Theorem C68_taken : forall lex arg f, namespaced_file lex arg = Ok f <->
  no_comma arg /\ f = {| base_namespace := []; namespace := []; name := arg |} \/
  exists r n, arg = triple r n (name f) /\ no_comma r /\ no_comma n /\ no_comma (name f) /\
    stands_loosely lex r (base_namespace f) /\ stands_loosely lex n (namespace f).
Proof.
  intros lex arg f. unfold namespaced_file. split.
  - pose proof (split_join arg) as J. pose proof (split_parts arg) as P.
    destruct (split arg) as [|p0 [|p1 [|p2 [|p3 ps]]]]; try discriminate.
    + intros [= <-]. left. simpl in J. subst. split; auto. apply P; left; auto.
    + destruct (namespace_part lex p0 p1) as [b|] eqn:E0; [|discriminate].
      destruct (namespace_part lex p1 p1) as [n|] eqn:E1; [|discriminate].
      intros [= <-]. right. exists p0, p1. simpl in *. apply part_iff in E0, E1.
      repeat split; auto.
  - intros [(N & ->)|(r & n & -> & R & N & F & Hr & Hn)].
    + rewrite split_one; auto.
    + unfold triple. rewrite split_app, split_app, split_one by auto.
      rewrite (proj2 (part_iff lex r n _) Hr), (proj2 (part_iff lex n n _) Hn). destruct f; auto.
Qed.
Print Assumptions C68_taken.

(** In particular whatever paths and name are written, these are read. *)
Theorem C68_as_written : forall lex r n f b m, no_comma r -> no_comma n -> no_comma f ->
  stands_for lex r b -> stands_for lex n m ->
  namespaced_file lex (triple r n f) = Ok {| base_namespace := b; namespace := m; name := f |}.
Proof.
  intros. apply C68_taken. right. exists r, n. simpl. unfold stands_loosely. tauto.
Qed.
Print Assumptions C68_as_written.

(** An argument with a wrong number of commas is refused as such, and no other is; any other message quotes one of the
    two paths, and then one of the two is wrong. *)
Theorem C68_refused : forall lex arg m, namespaced_file lex arg = Err m ->
  match m with
  | Commas k => commas arg <> 0 /\ commas arg <> 2 /\ k = S (commas arg)
  | Parsing q => exists r n f, arg = triple r n f /\ no_comma r /\ no_comma n /\ no_comma f /\ (q = r \/ q = n) /\
      ((forall p, ~ stands_loosely lex r p) \/ (forall p, ~ stands_loosely lex n p) /\ q = n)
  end.
Proof.
  intros lex arg m. unfold namespaced_file.
  pose proof (split_length arg) as L. pose proof (split_join arg) as J. pose proof (split_parts arg) as P.
  destruct (split arg) as [|p0 [|p1 [|p2 [|p3 ps]]]]; try discriminate.
  - intros [= <-]. simpl in L. simpl. lia.
  - assert (K : arg = triple p0 p1 p2) by (unfold triple; rewrite <- J; auto).
    destruct (namespace_part lex p0 p1) as [b|e] eqn:E0.
    + destruct (namespace_part lex p1 p1) as [n|e] eqn:E1; [discriminate|]. intros [= <-].
      pose proof (part_err _ _ _ _ E1) as [-> | ->]; exists p0, p1, p2; simpl in P; repeat split; auto;
        right; split; auto; intros p X; apply (part_iff lex p1 p1) in X; congruence.
    + intros [= <-].
      pose proof (part_err _ _ _ _ E0) as [-> | ->]; exists p0, p1, p2; simpl in P; repeat split; auto;
        left; intros p X; apply (part_iff lex p0 p1) in X; congruence.
  - intros [= <-]. simpl in *. lia.
Qed.
Print Assumptions C68_refused.

(** The files of a command file are compiled in the order given, each as it would be on the command line; one wrong entry,
    or no entry, and nothing is. *)
Theorem C68_list : forall lex l fs, infiles lex l = Some fs <-> l <> [] /\ Forall2 (fun a f => namespaced_file lex a = Ok f) l fs.
Proof.
  intros lex l fs.
  assert (G : forall l fs, file_list lex l = Ok fs <-> Forall2 (fun a f => namespaced_file lex a = Ok f) l fs).
  { clear. induction l as [|a l IH]; intros fs; simpl.
    - split. { intros [= <-]; auto. } intros H; inversion H; auto.
    - split.
      + destruct (namespaced_file lex a) eqn:E; [|discriminate]. destruct (file_list lex l) eqn:F; [|discriminate].
        intros [= <-]. constructor; auto. apply IH; auto.
      + intros H; inversion H as [|? ? ? ? H1 H2]; subst. rewrite H1. apply IH in H2. rewrite H2. auto. }
  unfold infiles. specialize (G l). destruct (file_list lex l) as [[|f gs]|m].
  - split; [discriminate|]. intros (N & H). apply G in H. injection H as <-.
    assert (X : Forall2 (fun a f => namespaced_file lex a = Ok f) l []) by (apply G; auto). inversion X; subst; easy.
  - split.
    + intros [= <-]. assert (X : Forall2 (fun a f => namespaced_file lex a = Ok f) l (f :: gs)) by (apply G; auto).
      split; auto. inversion X; discriminate.
    + intros (_ & H). apply G in H. injection H as <-. auto.
  - split; [discriminate|]. intros (_ & H). apply G in H. discriminate.
Qed.
Print Assumptions C68_list.

(** A lexer of names of lower case letters and [::], for the examples *)
Definition t (s : string) : text := list_ascii_of_string s.
Definition low (c : ascii) : bool := (97 <=? nat_of_ascii c) && (nat_of_ascii c <=? 122).
Fixpoint small_lex (l : text) : list token :=
  match l with
  | [] => []
  | c :: r => let k := small_lex r in
      if low c then match k with
                    | Ident n :: k' => if low (hd " "%char r) then Ident (c :: n) :: k' else Ident [c] :: k
                    | _ => Ident [c] :: k end
      else if Ascii.eqb c ":" then match r with ":"%char :: r => Separator :: small_lex r | _ => NoToken :: k end
      else if Ascii.eqb c " " then k
      else if Ascii.eqb c "!" then Other :: k else NoToken :: k
  end.

Example C68_nontrivial :
  namespaced_file small_lex (t "a,a::bc,dir/x y.spade") =
    Ok {| base_namespace := [t "a"]; namespace := [t "a"; t "bc"]; name := t "dir/x y.spade" |} /\
  namespaced_file small_lex (t "dir/x.spade") = Ok {| base_namespace := []; namespace := []; name := t "dir/x.spade" |} /\
  namespaced_file small_lex (t ",,x") = Ok {| base_namespace := []; namespace := []; name := t "x" |} /\
  namespaced_file small_lex (t "a,a::?,x") = Err (Parsing (t "a::?")) /\
  namespaced_file small_lex (t "a::::b,a,x") = Err (Parsing (t "a")) /\
  stands_for small_lex (t "a::bc") [t "a"; t "bc"] /\ no_comma (t "a::bc") /\
  infiles small_lex [t "x"; t "a,a,y"] =
    Some [{| base_namespace := []; namespace := []; name := t "x" |}; {| base_namespace := [t "a"]; namespace := [t "a"]; name := t "y" |}] /\
  infiles small_lex [t "x"; t "a,y"] = None.
Proof.
  repeat split; try reflexivity.
  - right. repeat split; discriminate.
  - apply commas_none. reflexivity.
Qed.

(** The part quoted is not always the wrong one: with something behind a path in front, the second is quoted, also when
    nothing is wrong about it. *)
Theorem C68_quoted_refuted : exists lex r n f q,
  namespaced_file lex (triple r n f) = Err (Parsing q) /\ no_comma r /\ no_comma n /\ no_comma f /\ q <> r /\
  stands_for lex q [q].
Proof.
  exists small_lex, (t "a!"), (t "b"), (t "x"), (t "b"). repeat split; try (apply commas_none; reflexivity); try discriminate.
  right. repeat split; discriminate.
Qed.
Print Assumptions C68_quoted_refuted.

(** The number of commas said is never the number there is. *)
Theorem C68_commas_refuted : (exists lex arg k, namespaced_file lex arg = Err (Commas k)) /\
  forall lex arg k, namespaced_file lex arg = Err (Commas k) -> k <> commas arg.
Proof.
  split. { exists small_lex, (t "a,x"), 2. reflexivity. }
  intros lex arg k H. apply C68_refused in H. lia.
Qed.
Print Assumptions C68_commas_refuted.

(** A path with a [::] too many is taken as the path without it. *)
Theorem C68_trailing_refuted : exists lex arg r n f b, arg = triple r n (name f) /\ no_comma r /\ no_comma n /\ no_comma (name f) /\
  namespaced_file lex arg = Ok f /\ lex r = written b ++ [Separator] /\ (forall p, ~ stands_for lex r p).
Proof.
  exists small_lex, (t "a::,a,x"), (t "a::"), (t "a"), {| base_namespace := [t "a"]; namespace := [t "a"]; name := t "x" |}, [t "a"].
  repeat split; try (apply commas_none; reflexivity).
  intros p [(X & _)|(_ & _ & X)]; [discriminate|].
  change (small_lex (t "a::")) with [Ident (t "a"); Separator] in X. destruct p as [|? [|? [|]]]; discriminate.
Qed.
Print Assumptions C68_trailing_refuted.

(** A file with a comma in its name cannot be given, neither alone nor with namespaces; with two commas it may be taken
    for another. *)
Theorem C68_names_refuted : (forall lex f g arg, ~ no_comma f -> namespaced_file lex arg = Ok g -> name g <> f) /\
  exists lex arg g, namespaced_file lex arg = Ok g /\ name g <> arg /\ commas arg = 2.
Proof.
  split.
  - intros lex f g arg C H E. apply C68_taken in H. destruct H as [(N & ->)|(r & n & _ & _ & _ & N & _)]; simpl in *; subst; contradiction.
  - exists small_lex, (t "a,b,x"), {| base_namespace := [t "a"]; namespace := [t "b"]; name := t "x" |}. repeat split; discriminate.
Qed.
Print Assumptions C68_names_refuted.
