(** Reading types: the parser comes to an end and reads all that the grammar has *)
From Coq Require Import NArith ZArith List Bool String Arith Lia.
From Verif Require Import LexModel SynModel SynSpec SynProofs.
Import ListNotations.
Open Scope nat_scope.
Open Scope string_scope.
Open Scope list_scope.

(** * More fuel changes nothing *)
Lemma tuple_below f g p q ts : f <= g -> (forall ts, below (p ts) (q ts)) -> below (tuple_of f p ts) (tuple_of g q ts).
Proof. intros L H. unfold tuple_of. destruct (accept "," ts); [apply below_refl|]. apply bind_below; [now apply list_below|]. intros. apply below_refl. Qed.
Lemma args_below f g p q ts : f <= g -> (forall ts, below (p ts) (q ts)) -> below (generics_of f p ts) (generics_of g q ts).
Proof. intros L H. unfold generics_of. destruct (peek_kind "<" ts); [|apply below_refl]. apply bind_below; [now apply list_below|]. intros. apply below_refl. Qed.
Theorem types_below : forall f g, f <= g -> forall ts,
  below (p_texp f ts) (p_texp g ts) /\ (forall b, below (p_spec f b ts) (p_spec g b ts)) /\ below (p_trait f ts) (p_trait g ts).
Proof.
  induction f as [|f IH]; intros g L ts; [repeat split; intros; now left|]. destruct g as [|g]; [lia|].
  assert (L' : f <= g) by lia. specialize (IH g L').
  assert (P : forall ts, below (p_texp f ts) (p_texp g ts)) by (intros; apply IH).
  assert (SP : forall b ts, below (p_spec f b ts) (p_spec g b ts)) by (intros; apply IH).
  assert (PT : forall ts, below (p_trait f ts) (p_trait g ts)) by (intros; apply IH).
  split; [|split].
  - cbn [p_texp]. destruct (accept "true" ts); [apply below_refl|]. destruct (accept "false" ts); [apply below_refl|]. apply bind_below; [apply below_refl|]. intros i r.
    destruct i; [apply below_refl|]. destruct ts as [|t ts]; [apply SP|]. destruct t; try apply SP; apply below_refl.
  - intros b. cbn [p_spec]. destruct (accept "inv" ts); [apply then_below, P|]. destruct (accept "~" ts); [apply below_refl|].
    destruct (accept "&" ts) as [r|]; [destruct (accept "mut" r); [apply below_refl|apply then_below, P]|]. destruct (accept "&&" ts); [apply then_below, P|].
    destruct (accept "impl" ts); [apply bind_below; [now apply list_below|intros; apply below_refl]|]. destruct (accept "(" ts); [now apply tuple_below|].
    destruct (accept "[" ts).
    + apply bind_below; [apply P|]. intros a r. destruct (accept "]" r); [apply below_refl|]. apply bind_below; [apply below_refl|]. intros _ r1. apply bind_below; [apply P|]. intros. apply below_refl.
    + apply bind_below; [apply below_refl|]. intros a r. destruct (is_wild a); [apply below_refl|]. apply then_below. now apply args_below.
  - cbn [p_trait]. apply bind_below; [apply below_refl|]. intros a r. apply bind_below; [now apply args_below|]. intros a1 r1. destruct (accept "(" r1); [|apply below_refl].
    apply bind_below; [now apply tuple_below|]. intros a2 r2. destruct (accept "->" r2); [|apply below_refl]. apply bind_below; [apply P|]. intros. apply below_refl.
Qed.

(** * The parser comes to an end *)
Definition size (ts : list tok) : nat := List.length (expand ts).
Lemma size_bound ts : size ts <= 3 * List.length ts.
Proof.
  unfold size. induction ts as [|t ts IH]; [cbn; lia|]. rewrite expand_cons, app_length. cbn [List.length].
  assert (List.length (parts t) <= 3); [|lia]. destruct t; cbn [parts List.length]; try lia. destruct (s =? ">>"); [cbn; lia|]. destruct (s =? ">>>"); [cbn; lia|]. destruct (s =? "&&"); cbn; lia.
Qed.
Lemma accept_size k ts r : simple k = true -> accept k ts = Some r -> size ts = S (size r).
Proof. intros S H. apply accept_sound in H; [|exact S]. unfold size. rewrite H. reflexivity. Qed.
Lemma expect_size {A} k (a b : A) ts r : simple k = true -> expect k a ts = Got b r -> size ts = S (size r).
Proof. intros S H. apply expect_sound in H as [_ H]; [|exact S]. unfold size. rewrite H. reflexivity. Qed.
Lemma peek_size k ts : simple k = true -> k <> ">" -> k <> "{" -> peek_kind k ts = true -> size ts = S (size (tl ts)).
Proof. intros S G B H. apply peek_tl in H; auto. unfold size. rewrite H at 1. rewrite expand_cons, parts_simple by exact S. reflexivity. Qed.
Lemma path_size ts p r : p_path ts = Got p r -> size r < size ts.
Proof. intros H. apply path_sound in H as (pre & _ & X & G). unfold size. rewrite X, app_length. destruct G. cbn. lia. Qed.
Lemma texp_size f ts t r : p_texp f ts = Got t r -> size r <= size ts.
Proof. intros H. apply (types_sound f ts r) in H as (pre & X & _). unfold size. rewrite X, app_length. lia. Qed.
Lemma spec_size f b ts t r : p_spec f b ts = Got t r -> size r <= size ts.
Proof. intros H. apply (types_sound f ts r) in H as (pre & X & _). unfold size. rewrite X, app_length. lia. Qed.
Lemma trait_size f ts t r : p_trait f ts = Got t r -> size r <= size ts.
Proof. intros H. apply (types_sound f ts r) in H as (pre & X & _). unfold size. rewrite X, app_length. lia. Qed.
Lemma texps_size g f e ts l r : p_list g (p_texp f) "," [e] ts = Got l r -> size r <= size ts.
Proof. intros H. eapply texps_sound in H as (pre & X & _); [|intros us t r0; apply (types_sound f us r0)]. unfold size. rewrite X, app_length. lia. Qed.
Lemma tuple_size g f ts t r : tuple_of g (p_texp f) ts = Got t r -> size r <= size ts.
Proof. intros H. eapply tuple_sound in H as (pre & l & X & _); [|intros us t0 r0; apply (types_sound f us r0)]. unfold size. rewrite X, app_length. lia. Qed.
Lemma args_size g f ts t r : generics_of g (p_texp f) ts = Got t r -> size r <= size ts.
Proof. intros H. eapply args_sound in H as (pre & X & _); [|intros us t0 r0; apply (types_sound f us r0)]. unfold size. rewrite X, app_length. lia. Qed.
Lemma path_ends ts : p_path ts <> Fuel.
Proof. unfold p_path, identifier. destruct ts as [|t ts]; [discriminate|]. destruct t; discriminate. Qed.
Lemma int_ends ts : int_literal ts <> Fuel.
Proof. unfold int_literal. destruct ts as [|t ts]; [discriminate|]. destruct t; try discriminate. destruct ((s =? "+") || (s =? "-")); [|discriminate]. destruct ts as [|t ts]; [discriminate|]. destruct t; discriminate. Qed.

Section Ends.
  Variables (f : nat).
  Hypothesis P : forall ts, 3 * size ts + 3 <= f -> p_texp f ts <> Fuel.
  Hypothesis PT : forall ts, 3 * size ts + 3 <= f -> p_trait f ts <> Fuel.
  Lemma texps_ends e ts : 3 * size ts + 3 <= f -> p_list f (p_texp f) "," [e] ts <> Fuel.
  Proof.
    intros L. apply (list_ends _ "," _ expand (fun _ => eq_refl) comma_ok _ (size ts)); [|intros; eapply texp_size; eassumption| |]; unfold size in *; [|lia|lia].
    intros us B. apply P. unfold size. lia.
  Qed.
  Lemma traits_ends ends ts : 3 * size ts + 3 <= f -> p_list f (p_trait f) "+" ends ts <> Fuel.
  Proof.
    intros L. apply (list_ends _ "+" _ expand (fun _ => eq_refl) plus_ok _ (size ts)); [|intros; eapply trait_size; eassumption| |]; unfold size in *; [|lia|lia].
    intros us B. apply PT. unfold size. lia.
  Qed.
  Lemma tuple_ends ts : 3 * size ts + 3 <= f -> tuple_of f (p_texp f) ts <> Fuel.
  Proof. intros L. unfold tuple_of. destruct (accept "," ts); [apply expect_ends|]. apply bind_ends; [now apply texps_ends|]. intros. apply expect_ends. Qed.
  Lemma args_ends ts : 3 * size ts + 3 <= f -> generics_of f (p_texp f) ts <> Fuel.
  Proof.
    intros L. unfold generics_of. destruct (peek_kind "<" ts) eqn:K; [|discriminate]. apply peek_size in K; try discriminate; [|reflexivity].
    apply bind_ends; [apply texps_ends; lia|]. intros. apply expect_ends.
  Qed.
End Ends.
Theorem types_end : forall f ts,
  (3 * size ts + 3 <= f -> p_texp f ts <> Fuel) /\ (forall b, 3 * size ts + 2 <= f -> p_spec f b ts <> Fuel) /\ (3 * size ts + 3 <= f -> p_trait f ts <> Fuel).
Proof.
  induction f as [|f IH]; intros ts; [repeat split; intros; lia|].
  assert (P : forall ts, 3 * size ts + 3 <= f -> p_texp f ts <> Fuel) by (intros; now apply IH).
  assert (SP : forall b ts, 3 * size ts + 2 <= f -> p_spec f b ts <> Fuel) by (intros; now apply IH).
  assert (PT : forall ts, 3 * size ts + 3 <= f -> p_trait f ts <> Fuel) by (intros; now apply IH).
  split; [|split].
  - intros L. cbn [p_texp]. destruct (accept "true" ts); [discriminate|]. destruct (accept "false" ts); [discriminate|]. apply bind_ends; [apply int_ends|]. intros i r _.
    destruct i; [discriminate|]. destruct ts as [|t ts]; [apply SP; lia|]. destruct t; try discriminate; apply SP; lia.
  - intros b L. cbn [p_spec]. destruct (accept "inv" ts) eqn:A; [apply accept_size in A; [|reflexivity]; apply then_ends, P; lia|]. clear A. destruct (accept "~" ts); [discriminate|].
    destruct (accept "&" ts) as [r|] eqn:A; [apply accept_size in A; [|reflexivity]; destruct (accept "mut" r); [discriminate|apply then_ends, P; lia]|]. clear A.
    destruct (accept "&&" ts) as [r|] eqn:A. { apply accept_double in A. apply then_ends, P. unfold size in *. rewrite A in L. cbn [List.length] in L. lia. } clear A.
    destruct (accept "impl" ts) as [r|] eqn:A. { apply accept_size in A; [|reflexivity]. apply bind_ends; [apply traits_ends; auto; lia|]. intros. destruct b; discriminate. } clear A.
    destruct (accept "(" ts) as [r|] eqn:A. { apply accept_size in A; [|reflexivity]. apply tuple_ends; auto; lia. } clear A.
    destruct (accept "[" ts) as [r|] eqn:A.
    + apply accept_size in A; [|reflexivity]. apply bind_ends; [apply P; lia|]. intros a r1 E. apply texp_size in E. destruct (accept "]" r1); [discriminate|]. apply bind_ends; [apply expect_ends|].
      intros x2 r2 E2. apply expect_size in E2; [|reflexivity]. apply bind_ends; [apply P; lia|]. intros. apply expect_ends.
    + apply bind_ends; [apply path_ends|]. intros a r E. apply path_size in E. destruct (is_wild a); [discriminate|]. apply then_ends, args_ends; auto; lia.
  - intros L. cbn [p_trait]. apply bind_ends; [apply path_ends|]. intros a r E. apply path_size in E. apply bind_ends; [apply args_ends; auto; lia|]. intros a1 r1 E1. apply args_size in E1.
    destruct (accept "(" r1) as [r2|] eqn:A; [|discriminate]. apply accept_size in A; [|reflexivity]. apply bind_ends; [apply tuple_ends; auto; lia|]. intros a3 r3 E3. apply tuple_size in E3.
    destruct (accept "->" r3) as [r4|] eqn:A4; [|discriminate]. apply accept_size in A4; [|reflexivity]. apply bind_ends; [apply P; lia|]. discriminate.
Qed.

(** * The parser reads all that the grammar has *)
Definition reads {A} (p : nat -> list tok -> res A) (pre : list tok) (a : A) (ok : list tok -> Prop) : Prop :=
  forall ts us, expand ts = pre ++ us -> ok us -> exists n r, expand r = us /\ forall f, n <= f -> p f ts = Got a r.
Definition reads_list {A} (p : nat -> list tok -> res A) sep ends (pre : list tok) (l : list A) (ok : list tok -> Prop) : Prop :=
  forall ts us, expand ts = pre ++ us -> ok us -> exists n r, expand r = us /\ forall f g, n <= f -> n <= g -> p_list f (p g) sep ends ts = Got l r.

Definition spec_head (x : tok) : Prop := match x with Id _ => True | Sg s => In s ["inv"; "&"; "impl"; "("; "["] | _ => False end.
Definition texp_head (x : tok) : Prop := match x with Id _ | Num _ _ | Text _ | Braced _ => True | Sg s => In s ["true"; "false"; "+"; "-"; "inv"; "&"; "("; "["] | _ => False end.
Lemma path_head pre p : g_path false pre p -> exists s us, pre = Id s :: us.
Proof. destruct 1. eauto. Qed.
Lemma spec_starts b pre t : g_spec false b pre t -> exists x us, pre = x :: us /\ spec_head x /\ (b = false -> x <> Sg "impl").
Proof.
  intros H. destruct H; try (eexists; eexists; split; [reflexivity|]; split; [cbn; tauto|discriminate]).
  - apply path_head in H as (s & us & ->). do 2 eexists. split; [reflexivity|]. split; [exact I|discriminate].
  - apply path_head in H as (s & us' & ->). do 2 eexists. split; [reflexivity|]. split; [exact I|discriminate].
Qed.
Lemma texp_starts pre t : g_texp false pre t -> exists x us, pre = x :: us /\ texp_head x.
Proof.
  intros H. destruct H; try (eexists; eexists; split; [reflexivity|]; cbn; tauto).
  - destruct H; eexists; eexists; (split; [reflexivity|]); cbn; tauto.
  - apply spec_starts in H as (x & us & -> & H & N). exists x, us. split; [reflexivity|]. destruct x; cbn in *; auto. assert (s <> "impl") by (intros ->; now apply N). intuition.
Qed.
Lemma trait_starts pre t : g_trait false pre t -> exists s us, pre = Id s :: us.
Proof. intros H. destruct H; apply path_head in H as (s & us' & ->); cbn; eauto. Qed.

Lemma lead_amp us ts : expand ts = Sg "&" :: us -> (exists r, ts = Sg "&" :: r /\ expand r = us) \/ (exists r, ts = Sg "&&" :: r /\ us = Sg "&" :: expand r).
Proof.
  intros E. destruct ts as [|t ts]; [discriminate|]. rewrite expand_cons in E. destruct t; try discriminate. cbn [parts] in E.
  destruct (s =? ">>"); [inversion E; congruence|]. destruct (s =? ">>>"); [inversion E; congruence|]. destruct (String.eqb_spec s "&&") as [->|N]; inversion E; subst; eauto.
Qed.
Lemma texp_step x us ts : spec_head x -> expand ts = x :: us -> forall f, p_texp (S f) ts = p_spec f false ts.
Proof.
  intros H E f. destruct x; try contradiction; [apply lead in E as (r & -> & _); try discriminate; reflexivity|].
  destruct (string_dec s "&") as [->|N]; [apply lead_amp in E as [(r & -> & _)|(r & -> & _)]; reflexivity|].
  apply lead in E as (r & -> & _); [|intros C; inversion C; subst; cbn in H; intuition discriminate|congruence].
  cbn in H. intuition; subst; try reflexivity; congruence.
Qed.
Lemma ended_true ends ts s us : expand ts = Sg s :: us -> In s ends -> (forall e, In e ends -> In e closing \/ e = "]") -> ended ends ts = true.
Proof.
  intros E I C. unfold ended. apply existsb_exists. exists s. split; [exact I|]. rewrite peek_expand, E, String.eqb_refl; [reflexivity| |];
  (destruct (C s I) as [H|H]; [cbn in H; intuition; subst; (reflexivity || discriminate)|subst; (reflexivity || discriminate)]).
Qed.
Lemma ended_false ends ts : (forall e, In e ends -> In e closing \/ e = "]") -> match expand ts with Sg s :: _ => ~ In s ends | Braced _ :: _ => ~ In "{" ends | _ => True end -> ended ends ts = false.
Proof.
  intros C H. unfold ended. destruct (existsb (fun m => peek_kind m ts) ends) eqn:X; [|reflexivity]. apply existsb_exists in X as (e & I & X).
  rewrite peek_expand in X; [|destruct (C e I) as [Q|Q]; [cbn in Q; intuition; subst; reflexivity|subst; reflexivity]|destruct (C e I) as [Q|Q]; [cbn in Q; intuition; subst; discriminate|subst; discriminate]].
  destruct (expand ts) as [|x us]; [discriminate|]. destruct x; try discriminate; apply String.eqb_eq in X; subst; contradiction.
Qed.
Lemma list_nil {A} (p : nat -> list tok -> res A) sep ends (ok : list tok -> Prop) :
  (forall ts, ok (expand ts) -> ended ends ts = true) -> reads_list p sep ends [] [] ok.
Proof. intros H ts us E O. exists 1, ts. split; [exact E|]. intros f g F G. destruct f; [lia|]. cbn [p_list]. rewrite H; [reflexivity|]. rewrite E. exact O. Qed.
Lemma list_one {A} (p : nat -> list tok -> res A) sep ends pre a (ok1 ok : list tok -> Prop) :
  (forall ts, ok (expand ts) -> ended ends ts = true) -> (forall ts us, expand ts = pre ++ us -> ended ends ts = false) -> (forall us, ok us -> ok1 us) ->
  reads p pre a ok1 -> reads_list p sep ends pre [a] ok.
Proof.
  intros H N O1 R ts us E O. destruct (R ts us E (O1 _ O)) as (n & r & X & K). exists (S n), r. split; [exact X|]. intros f g F G. destruct f; [lia|]. cbn [p_list]. rewrite (N ts us E), K by lia. cbn [bind].
  rewrite H; [reflexivity|]. rewrite X. exact O.
Qed.
Lemma list_more {A} (p : nat -> list tok -> res A) sep ends pre a pre' l (ok1 ok : list tok -> Prop) :
  simple sep = true -> sep <> "&" -> sep <> ">" -> sep <> "{" -> (forall ts us, expand ts = Sg sep :: us -> ended ends ts = false) -> (forall ts us, expand ts = pre ++ us -> ended ends ts = false) -> (forall us, ok1 (Sg sep :: us)) ->
  reads p pre a ok1 -> reads_list p sep ends pre' l ok -> reads_list p sep ends (pre ++ Sg sep :: pre') (a :: l) ok.
Proof.
  intros S1 S2 S3 S4 H N O1 R R' ts us E O. rewrite <- app_assoc in E. cbn [app] in E. destruct (R ts _ E (O1 _)) as (n & r & X & K). apply lead in X as (r1 & -> & X); [|congruence|congruence].
  destruct (R' r1 us X O) as (n' & r2 & X2 & K'). exists (S (n + n')), r2. split; [exact X2|]. intros f g F G. destruct f; [lia|]. cbn [p_list]. rewrite (N ts _ E), K by lia. cbn [bind].
  rewrite (H (Sg sep :: r1) (expand r1)) by (rewrite expand_cons, parts_simple by exact S1; reflexivity). cbn [peek_kind]. rewrite String.eqb_refl. cbn [orb tl]. rewrite K' by lia. reflexivity.
Qed.
Scheme g_texp_m := Minimality for g_texp Sort Prop
  with g_spec_m := Minimality for g_spec Sort Prop
  with g_args_m := Minimality for g_args Sort Prop
  with g_texps_m := Minimality for g_texps Sort Prop
  with g_trait_m := Minimality for g_trait Sort Prop
  with g_traits_m := Minimality for g_traits Sort Prop.
Combined Scheme types_ind from g_texp_m, g_spec_m, g_args_m, g_texps_m, g_trait_m, g_traits_m.

Definition after_spec (b : bool) (us : list tok) : Prop := stop after_type us /\ (b = true -> closed closing us).
Lemma stop_sub a b us : (forall s, In s b -> In s a) -> stop a us -> stop b us.
Proof. destruct us as [|x us]; auto. destruct x; auto. cbn. auto. Qed.
Lemma closed_stop ends bad us : (forall s, In s ends -> ~ In s bad) -> closed ends us -> stop bad us.
Proof. intros H (s & r & -> & I). cbn. auto. Qed.
Lemma closing_stop us : closed closing us -> stop after_trait us.
Proof. apply closed_stop. cbn. intros s H. intuition; subst; discriminate. Qed.
Ltac two f := destruct f as [|f]; [lia|].
Lemma texps_strict pre l : g_texps false pre l -> pre = [] \/ exists x us, pre = x :: us /\ texp_head x.
Proof. intros H. destruct H; auto; apply texp_starts in H as (x & us' & -> & H); right; cbn; eauto. Qed.
Lemma args_stop pre g us : g_args false pre g -> stop ["::"] us -> stop ["::"] (pre ++ us).
Proof. intros H S. destruct H; [exact S|]. cbn. intuition discriminate. Qed.

Theorem types_complete :
  (forall pre t, g_texp false pre t -> reads p_texp pre t (stop after_type)) /\
  (forall b pre t, g_spec false b pre t -> reads (fun f => p_spec f b) pre t (after_spec b)) /\
  (forall pre g, g_args false pre g -> reads (fun f => generics_of f (p_texp f)) pre g (stop ["<"])) /\
  (forall pre l, g_texps false pre l -> forall e, In e [")"; ">"] -> reads_list p_texp "," [e] pre l (closed [e])) /\
  (forall pre t, g_trait false pre t -> reads p_trait pre t (stop after_trait)) /\
  (forall pre l, g_traits false pre l -> forall ends, (forall e, In e ends -> In e closing) -> reads_list p_trait "+" ends pre l (closed ends)).
Proof.
  apply types_ind.
  - intros ts us E O. apply lead in E as (r & -> & E); try discriminate. exists 1, r. split; [exact E|]. intros f F. two f. reflexivity.
  - intros ts us E O. apply lead in E as (r & -> & E); try discriminate. exists 1, r. split; [exact E|]. intros f F. two f. reflexivity.
  - intros pre l G ts us E O. destruct (int_complete _ _ _ _ G E) as (r & X & I & A1 & A2). exists 1, r. split; [exact X|]. intros f F. two f. cbn [p_texp]. rewrite A1, A2, I. cbn [bind]. rewrite value_signed. reflexivity.
  - intros s ts us E O. apply lead in E as (r & -> & E); try discriminate. exists 1, r. split; [exact E|]. intros f F. two f. reflexivity.
  - intros x ts us E O. apply lead in E as (r & -> & E); try discriminate. exists 1, r. split; [exact E|]. intros f F. two f. reflexivity.
  - intros pre t G R ts us E O. destruct (R ts us E) as (n & r & X & K); [split; [exact O|discriminate]|]. exists (S n), r. split; [exact X|]. intros f F. two f.
    apply spec_starts in G as (x & us' & -> & H & _). cbn [app] in E. rewrite (texp_step x _ ts H E). apply K. lia.
  - (* inv *) intros b pre t G R ts us E [O _]. cbn [app] in E. apply lead in E as (r & -> & E); try discriminate. destruct (R r us E O) as (n & r1 & X & K). exists (S n), r1. split; [exact X|]. intros f F. two f.
    change (p_spec (S f) b (Sg "inv" :: r)) with (then_ YInv (p_texp f r)). rewrite K by lia. reflexivity.
  - (* & *) intros b pre t G R ts us E [O _]. cbn [app] in E. apply lead_amp in E as [(r & -> & E)|(r & -> & E)].
    + destruct (R r us E O) as (n & r1 & X & K). exists (S n), r1. split; [exact X|]. intros f F. two f.
      change (p_spec (S f) b (Sg "&" :: r)) with (match accept "mut" r with Some _ => Err | None => then_ YView (p_texp f r) end).
      rewrite accept_none; [rewrite K by lia; reflexivity|reflexivity|discriminate|]. apply texp_starts in G as (x & us' & -> & H). rewrite E. cbn [app]. destruct x; auto. intros ->. cbn in H. intuition discriminate.
    + destruct (R (Sg "&" :: r) us) as (n & r1 & X & K); [symmetry; exact E|exact O|]. exists (S n), r1. split; [exact X|]. intros f F. two f.
      specialize (K (S (S f))). change (p_texp (S (S f)) (Sg "&" :: r)) with (match accept "mut" r with Some _ => Err | None => then_ YView (p_texp f r) end) in K.
      change (p_spec (S f) b (Sg "&&" :: r)) with (then_ (fun t => YView (YView t)) (p_texp f r)). destruct (accept "mut" r); [discriminate K; lia|].
      destruct (p_texp f r); cbn in *; [|discriminate K; lia|discriminate K; lia]. assert (K' := K ltac:(lia)). inversion K'; subst. reflexivity.
  - (* impl *) intros pre l G R NE ts us E [O C]. cbn [app] in E. apply lead in E as (r & -> & E); try discriminate. destruct (R closing (fun e H => H) r us E (C eq_refl)) as (n & r1 & X & K). exists (S n), r1. split; [exact X|]. intros f F. two f.
    change (p_spec (S f) true (Sg "impl" :: r)) with (bind (p_list f (p_trait f) "+" closing r) (fun l r => Got (YImpl l) r)). rewrite K by lia. reflexivity.
  - (* tuple *) intros b pre l G R ts us E [O _]. cbn [app] in E. rewrite <- app_assoc in E. apply lead in E as (r & -> & E); try discriminate. destruct (R ")" (or_introl eq_refl) r _ E) as (n & r1 & X & K); [eexists; eexists; split; [reflexivity|]; cbn; auto|].
    destruct (eat_complete ")" r1 us eq_refl) as (r2 & X2 & K2); [discriminate|exact X|]. exists (S n), r2. split; [exact K2|]. intros f F. two f.
    change (p_spec (S f) b (Sg "(" :: r)) with (tuple_of f (p_texp f) r). unfold tuple_of. rewrite accept_none; [|reflexivity|discriminate|].
    + rewrite K by lia. cbn [bind]. unfold expect. rewrite X2. reflexivity.
    + rewrite E. apply texps_strict in G as [->|(x & us' & -> & H)]; [cbn; discriminate|]. cbn [app]. destruct x; auto. intros ->. cbn in H. intuition discriminate.
  - (* unit *) intros b ts us E [O _]. cbn [app] in E. apply lead in E as (r & -> & E); try discriminate. apply lead in E as (r1 & -> & E); try discriminate. apply lead in E as (r2 & -> & E); try discriminate. exists 1, r2. split; [exact E|]. intros f F. two f. reflexivity.
  - (* array *) intros b pre t pre' m G R G' R' ts us E [O _]. cbn [app] in E. rewrite <- app_assoc in E. cbn [app] in E. rewrite <- app_assoc in E. apply lead in E as (r & -> & E); try discriminate.
    destruct (R r _ E) as (n & r1 & X & K); [cbn; intuition discriminate|]. apply lead in X as (r2 & -> & X); try discriminate. destruct (R' r2 _ X) as (n' & r3 & X' & K'); [cbn; intuition discriminate|].
    apply lead in X' as (r4 & -> & X'); try discriminate. exists (S (n + n')), r4. split; [exact X'|]. intros f F. two f.
    change (p_spec (S f) b (Sg "[" :: r)) with (bind (p_texp f r) (fun t r => match accept "]" r with Some _ => Err | None => bind (expect ";" tt r) (fun _ r => bind (p_texp f r) (fun n r => expect "]" (YArr t n) r)) end)).
    rewrite K by lia. cbn [bind]. change (accept "]" (Sg ";" :: r2)) with (@None (list tok)). change (expect ";" tt (Sg ";" :: r2)) with (Got tt r2). cbv iota. cbn [bind]. rewrite K' by lia. reflexivity.
  - (* wild *) intros b pre G ts us E [O _]. destruct (path_complete _ _ _ _ G E) as (r & X & K). { eapply stop_sub; [|exact O]. cbn. intuition. }
    exists 1, r. split; [exact X|]. intros f F. two f. apply path_head in G as (s & us' & ->). apply lead in E as (r1 & -> & E); try discriminate.
    change (p_spec (S f) b (Id s :: r1)) with (bind (p_path (Id s :: r1)) (fun p r => if is_wild p then Got YWild r else then_ (YNamed p) (generics_of f (p_texp f) r))). rewrite K. reflexivity.
  - (* named *) intros b pre p pre' g G NW GA R ts us E [O _]. rewrite <- app_assoc in E. destruct (path_complete _ _ _ _ G E) as (r & X & K). { eapply args_stop; [exact GA|]. eapply stop_sub; [|exact O]. cbn. intuition. }
    destruct (R r us X) as (n & r1 & X1 & K1). { eapply stop_sub; [|exact O]. cbn. intuition. }
    exists (S n), r1. split; [exact X1|]. intros f F. two f. apply path_head in G as (s & us' & ->). apply lead in E as (r2 & -> & E); try discriminate.
    change (p_spec (S f) b (Id s :: r2)) with (bind (p_path (Id s :: r2)) (fun p r => if is_wild p then Got YWild r else then_ (YNamed p) (generics_of f (p_texp f) r))). rewrite K. cbn [bind].
    destruct (is_wild p) eqn:W; [apply is_wild_ok in W; contradiction|]. rewrite K1 by lia. reflexivity.
  - (* no arguments *) intros ts us E O. exists 0, ts. split; [exact E|]. intros f F. unfold generics_of. rewrite peek_expand; [|reflexivity|discriminate]. cbn [app] in E. rewrite E. destruct us as [|x us]; [reflexivity|]. destruct x; try reflexivity.
    destruct (String.eqb_spec s "<") as [->|N]; [|reflexivity]. exfalso. apply O. cbn. auto.
  - (* arguments *) intros pre l G R ts us E O. cbn [app] in E. rewrite <- app_assoc in E. apply lead in E as (r & -> & E); try discriminate. destruct (R ">" (or_intror (or_introl eq_refl)) r _ E) as (n & r1 & X & K); [eexists; eexists; split; [reflexivity|]; cbn; auto|].
    destruct (eat_complete ">" r1 us eq_refl) as (r2 & X2 & K2); [discriminate|exact X|]. exists n, r2. split; [exact K2|]. intros f F. unfold generics_of. change (peek_kind "<" (Sg "<" :: r)) with true. cbv iota. cbn [tl]. rewrite K by lia. cbn [bind]. unfold expect. rewrite X2. reflexivity.
  - (* lists of types *) intros e I. apply list_nil. intros ts (s & us & E & [<-|[]]). eapply ended_true; [exact E|cbn; auto|]. intros e' [<-|[]]. left. cbn in *. intuition; subst; auto 10.
  - intros pre t G R e I. assert (C : forall e', In e' [e] -> In e' closing \/ e' = "]"). { intros e' [<-|[]]. left. cbn in *. intuition; subst; auto 10. }
    eapply list_one; [| | |exact R].
    + intros ts (s & us & E & [<-|[]]). eapply ended_true; [exact E|cbn; auto|exact C].
    + intros ts us E. apply ended_false; [exact C|]. apply texp_starts in G as (x & us' & -> & H). rewrite E. cbn [app]. destruct x; auto; cbn in *; intuition; subst; discriminate.
    + intros us Q. eapply closed_stop; [|exact Q]. intros s [<-|[]]. cbn in *. intuition; subst; discriminate.
  - intros pre t pre' l G R G' R' e I. assert (C : forall e', In e' [e] -> In e' closing \/ e' = "]"). { intros e' [<-|[]]. left. cbn in *. intuition; subst; auto 10. }
    eapply list_more; try reflexivity; try discriminate; [| | |exact R|now apply R'].
    + intros ts us E. apply ended_false; [exact C|]. rewrite E. cbn in *. intuition; subst; discriminate.
    + intros ts us E. apply ended_false; [exact C|]. apply texp_starts in G as (x & us' & -> & H). rewrite E. cbn [app]. destruct x; auto; cbn in *; intuition; subst; discriminate.
    + intros us. cbn. intuition discriminate.
  - (* traits *) intros pre p pre' g G GA R ts us E O. rewrite <- app_assoc in E. destruct (path_complete _ _ _ _ G E) as (r & X & K). { eapply args_stop; [exact GA|]. eapply stop_sub; [|exact O]. cbn. intuition. }
    destruct (R r us X) as (n & r1 & X1 & K1). { eapply stop_sub; [|exact O]. cbn. intuition. }
    exists (S n), r1. split; [exact X1|]. intros f F. two f. cbn [p_trait]. rewrite K. cbn [bind]. rewrite K1 by lia. cbn [bind]. rewrite accept_none; [reflexivity|reflexivity|discriminate|]. rewrite X1. destruct us as [|x us]; auto. destruct x; auto. intros ->. apply O. cbn. auto.
  - intros pre p pre' g vs l G GA R GT RT ts us E O. rewrite <- app_assoc in E. rewrite <- app_assoc in E. destruct (path_complete _ _ _ _ G E) as (r & X & K). { eapply args_stop; [exact GA|]. cbn. intuition discriminate. }
    destruct (R r _ X) as (n & r1 & X1 & K1). { cbn. intuition discriminate. } destruct (RT r1 us X1) as (n2 & r2 & X2 & K2). { split; [|discriminate]. eapply stop_sub; [|exact O]. cbn. intuition. }
    cbn [app] in X1. apply lead in X1 as (r3 & -> & X3); try discriminate.
    exists (S (n + n2)), r2. split; [exact X2|]. intros f F. two f. cbn [p_trait]. rewrite K. cbn [bind]. rewrite K1 by lia. cbn [bind]. change (accept "(" (Sg "(" :: r3)) with (Some r3). cbv iota.
    specialize (K2 (S f) ltac:(lia)). change (p_spec (S f) false (Sg "(" :: r3)) with (tuple_of f (p_texp f) r3) in K2. rewrite K2. cbn [bind].
    rewrite accept_none; [reflexivity|reflexivity|discriminate|]. rewrite X2. destruct us as [|x us]; auto. destruct x; auto. intros ->. apply O. cbn. auto.
  - intros pre p pre' g vs l ws o G GA R GT RT GO RO ts us E O. rewrite <- !app_assoc in E. cbn [app] in E. rewrite <- !app_assoc in E. cbn [app] in E. destruct (path_complete _ _ _ _ G E) as (r & X & K). { eapply args_stop; [exact GA|]. cbn. intuition discriminate. }
    destruct (R r _ X) as (n & r1 & X1 & K1). { cbn. intuition discriminate. } destruct (RT r1 (Sg "->" :: ws ++ us)) as (n2 & r2 & X2 & K2). { rewrite X1. reflexivity. } { split; [|discriminate]. cbn. intuition discriminate. }
    apply lead in X1 as (r3 & -> & X3); try discriminate. apply lead in X2 as (r4 & -> & X4); try discriminate. destruct (RO r4 us X4) as (n5 & r5 & X5 & K5). { eapply stop_sub; [|exact O]. cbn. intuition. }
    exists (S (n + n2 + n5)), r5. split; [exact X5|]. intros f F. two f. cbn [p_trait]. rewrite K. cbn [bind]. rewrite K1 by lia. cbn [bind]. change (accept "(" (Sg "(" :: r3)) with (Some r3). cbv iota.
    specialize (K2 (S f) ltac:(lia)). change (p_spec (S f) false (Sg "(" :: r3)) with (tuple_of f (p_texp f) r3) in K2. rewrite K2. cbn [bind]. change (accept "->" (Sg "->" :: r4)) with (Some r4). cbv iota. rewrite K5 by lia. reflexivity.
  - intros ends C. apply list_nil. intros ts (s & us & E & I). eapply ended_true; [exact E|exact I|]. intros e H. left. now apply C.
  - intros pre t G R ends C. assert (C' : forall e', In e' ends -> In e' closing \/ e' = "]") by (intros e' H; left; now apply C). eapply list_one; [| | |exact R].
    + intros ts (s & us & E & I). eapply ended_true; [exact E|exact I|exact C'].
    + intros ts us E. apply ended_false; [exact C'|]. apply trait_starts in G as (s & us' & ->). rewrite E. exact I.
    + intros us (s & r & -> & I). apply closing_stop. exists s, r. auto.
  - intros pre t pre' l G R G' R' ends C. assert (C' : forall e', In e' ends -> In e' closing \/ e' = "]") by (intros e' H; left; now apply C). eapply list_more; try reflexivity; try discriminate; [| | |exact R|now apply R'].
    + intros ts us E. apply ended_false; [exact C'|]. rewrite E. intros I. apply C in I. cbn in I. intuition discriminate.
    + intros ts us E. apply ended_false; [exact C'|]. apply trait_starts in G as (s & us' & ->). rewrite E. exact I.
    + intros us. cbn. intuition discriminate.
Qed.
