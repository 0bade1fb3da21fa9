(** Reading types: proofs *)
From Coq Require Import NArith ZArith List Bool String Arith Lia.
From Verif Require Import LexModel SynModel SynSpec.
Import ListNotations.
Open Scope nat_scope.
Open Scope string_scope.
Open Scope list_scope.

Lemma expand_app a b : expand (a ++ b) = expand a ++ expand b.
Proof. apply flat_map_app. Qed.
Lemma expand_cons t r : expand (t :: r) = parts t ++ expand r.
Proof. reflexivity. Qed.
Definition simple (k : string) : bool := negb ((k =? ">>") || (k =? ">>>") || (k =? "&&")).
Lemma parts_simple k : simple k = true -> parts (Sg k) = [Sg k].
Proof.
  unfold simple. cbn [parts]. destruct (k =? ">>"); [discriminate|]. destruct (k =? ">>>"); [discriminate|]. destruct (k =? "&&"); [discriminate|]. reflexivity.
Qed.
Lemma eat_sound k ts r : simple k = true -> eat k ts = Some r -> expand ts = Sg k :: expand r.
Proof.
  intros S. destruct ts as [|t ts]; [discriminate|]. destruct t; try discriminate. cbn [eat]. destruct (String.eqb_spec s k) as [->|N].
  - intros E. inversion E; subst. rewrite expand_cons, parts_simple by assumption. reflexivity.
  - destruct (String.eqb_spec k ">") as [->|]; [|discriminate]. cbn [andb]. destruct (String.eqb_spec s ">>") as [->|]; [intros E; inversion E; subst; reflexivity|].
    destruct (String.eqb_spec s ">>>") as [->|]; [intros E; inversion E; subst; reflexivity|discriminate].
Qed.
Lemma accept_eat k ts r : accept k ts = Some r -> eat k ts = Some r.
Proof. unfold accept. destruct (peek_kind k ts); [auto|discriminate]. Qed.
Lemma accept_sound k ts r : simple k = true -> accept k ts = Some r -> expand ts = Sg k :: expand r.
Proof. intros S H. apply accept_eat in H. now apply eat_sound. Qed.
Lemma accept_double ts r : accept "&&" ts = Some r -> expand ts = Sg "&" :: Sg "&" :: expand r.
Proof.
  intros H. apply accept_eat in H. destruct ts as [|t ts]; [discriminate|]. destruct t; try discriminate. cbn [eat] in H. destruct (String.eqb_spec s "&&") as [->|N]; [|discriminate]. inversion H; subst. reflexivity.
Qed.
Lemma expect_sound {A} k (a b : A) ts r : simple k = true -> expect k a ts = Got b r -> b = a /\ expand ts = Sg k :: expand r.
Proof. unfold expect. intros S. destruct (eat k ts) eqn:E; [|discriminate]. intros H. inversion H; subst. split; [reflexivity|now apply eat_sound]. Qed.
Lemma peek_tl k ts : k <> ">" -> k <> "{" -> peek_kind k ts = true -> ts = Sg k :: tl ts.
Proof.
  intros G B. destruct ts as [|t ts]; [discriminate|]. destruct t; try discriminate; cbn [peek_kind].
  - intros H. apply String.eqb_eq in H. congruence.
  - apply String.eqb_neq in G. rewrite G. cbn [andb]. rewrite orb_false_r. intros H. apply String.eqb_eq in H. now subst.
Qed.
Lemma lead x us ts : expand ts = x :: us -> x <> Sg ">" -> x <> Sg "&" -> exists r, ts = x :: r /\ expand r = us.
Proof.
  intros E G A. destruct ts as [|t ts]; [discriminate|]. rewrite expand_cons in E. destruct t; try (inversion E; subst; eauto; fail). cbn [parts] in E.
  destruct (s =? ">>"); [inversion E; congruence|]. destruct (s =? ">>>"); [inversion E; congruence|]. destruct (s =? "&&"); [inversion E; congruence|]. inversion E; subst. eauto.
Qed.
Lemma expand_nil ts : expand ts = [] -> ts = [].
Proof.
  destruct ts as [|t ts]; auto. rewrite expand_cons. destruct t; try discriminate. cbn [parts]. destruct (s =? ">>"); [discriminate|]. destruct (s =? ">>>"); [discriminate|]. destruct (s =? "&&"); discriminate.
Qed.
Lemma peek_expand k ts : simple k = true -> k <> "&" ->
  peek_kind k ts = match expand ts with Sg s :: _ => s =? k | Braced _ :: _ => k =? "{" | _ => false end.
Proof.
  intros S A. unfold simple in S. rewrite negb_true_iff, !orb_false_iff in S. destruct S as [[S1 S2] S3]. destruct ts as [|t ts]; [reflexivity|]. rewrite expand_cons. destruct t; try reflexivity. cbn [peek_kind parts].
  destruct (String.eqb_spec s ">>") as [->|N1]; [cbn [app]; rewrite (String.eqb_sym ">>" k), S1; cbn [orb]; rewrite (String.eqb_sym ">" k), andb_true_r; reflexivity|].
  destruct (String.eqb_spec s ">>>") as [->|N2]; [cbn [app]; rewrite (String.eqb_sym ">>>" k), S2; cbn [orb]; rewrite (String.eqb_sym ">" k), andb_true_r; reflexivity|].
  cbn [orb]. rewrite andb_false_r, orb_false_r. destruct (String.eqb_spec s "&&") as [->|N3]; [|reflexivity].
  cbn [app]. rewrite (String.eqb_sym "&&" k), S3. apply String.eqb_neq in A. rewrite (String.eqb_sym "&" k), A. reflexivity.
Qed.
Lemma eat_complete k ts us : simple k = true -> k <> "&" -> expand ts = Sg k :: us -> exists r, eat k ts = Some r /\ expand r = us.
Proof.
  intros S A E. destruct ts as [|t ts]; [discriminate|]. rewrite expand_cons in E. destruct t; try (cbn in E; discriminate). cbn [eat]. cbn [parts] in E.
  destruct (String.eqb_spec s k) as [->|N]. { pose proof (parts_simple k S) as P. cbn [parts] in P. rewrite P in E. inversion E. eauto. }
  destruct (String.eqb_spec s ">>") as [->|N1]. { inversion E; subst. cbn. eauto. }
  destruct (String.eqb_spec s ">>>") as [->|N2]. { inversion E; subst. cbn. eauto. }
  destruct (String.eqb_spec s "&&") as [->|N3]; [inversion E; congruence|]. inversion E. congruence.
Qed.
Lemma accept_complete k ts us : simple k = true -> k <> "&" -> expand ts = Sg k :: us -> exists r, accept k ts = Some r /\ expand r = us.
Proof.
  intros S A E. destruct (eat_complete k ts us S A E) as (r & H & R). exists r. split; [|exact R]. unfold accept. rewrite peek_expand, E, String.eqb_refl by assumption. exact H.
Qed.
Lemma accept_none k ts : simple k = true -> k <> "&" -> match expand ts with Sg s :: _ => s <> k | _ => True end -> accept k ts = None.
Proof.
  intros S A H. unfold accept. destruct (peek_kind k ts) eqn:P; [|reflexivity]. rewrite peek_expand in P by assumption. destruct ts as [|t ts]; [reflexivity|]. destruct t; try reflexivity.
  destruct (expand (Sg s :: ts)) as [|x us] eqn:E; [discriminate|]. destruct x; try discriminate.
  - rewrite expand_cons in E. cbn [parts] in E. destruct (s =? ">>"); [discriminate|]. destruct (s =? ">>>"); [discriminate|]. destruct (s =? "&&"); discriminate.
  - apply String.eqb_eq in P. congruence.
Qed.

(** * Inversion, order and termination of sequences *)
Lemma bind_got {A B} (x : res A) (k : A -> list tok -> res B) b r : bind x k = Got b r -> exists a r', x = Got a r' /\ k a r' = Got b r.
Proof. destruct x; cbn; try discriminate. eauto. Qed.
Lemma then_got {A B} (f : A -> B) x b r : then_ f x = Got b r -> exists a, x = Got a r /\ b = f a.
Proof. destruct x; cbn; try discriminate. intros E; inversion E; subst. eauto. Qed.
Definition below {A} (x y : res A) : Prop := x = Fuel \/ x = y.
Lemma below_refl {A} (x : res A) : below x x. Proof. now right. Qed.
Lemma bind_below {A B} (x y : res A) (k l : A -> list tok -> res B) : below x y -> (forall a r, below (k a r) (l a r)) -> below (bind x k) (bind y l).
Proof. intros [->| ->] H; [now left|]. destruct y; cbn; [apply H|right; reflexivity|right; reflexivity]. Qed.
Lemma then_below {A B} (f : A -> B) x y : below x y -> below (then_ f x) (then_ f y).
Proof. intros H. apply bind_below; [exact H|]. intros. apply below_refl. Qed.
Lemma bind_ends {A B} (x : res A) (k : A -> list tok -> res B) : x <> Fuel -> (forall a r, x = Got a r -> k a r <> Fuel) -> bind x k <> Fuel.
Proof. destruct x; cbn; intros N H; [now apply H|discriminate|congruence]. Qed.
Lemma then_ends {A B} (f : A -> B) x : x <> Fuel -> then_ f x <> Fuel.
Proof. intros N. apply bind_ends; [exact N|]. discriminate. Qed.
Lemma expect_ends {A} k (a : A) ts : expect k a ts <> Fuel.
Proof. unfold expect. destruct (eat k ts); discriminate. Qed.

Section Lists.
  Variables (A : Type) (sep : string) (ends : list string).
  Lemma list_below (p q : list tok -> res A) : (forall ts, below (p ts) (q ts)) -> forall f g, f <= g -> forall ts, below (p_list f p sep ends ts) (p_list g q sep ends ts).
  Proof.
    intros H. induction f as [|f IH]; intros g L ts; [now left|]. destruct g as [|g]; [lia|]. cbn [p_list]. destruct (ended ends ts); [apply below_refl|].
    apply bind_below; [apply H|]. intros a r. destruct (ended ends r); [apply below_refl|]. destruct (peek_kind sep r); [|apply below_refl]. apply then_below, IH. lia.
  Qed.
  Inductive sep_by (P : list tok -> A -> Prop) : list tok -> list A -> Prop :=
  | S_nil : sep_by P [] []
  | S_one ts a : P ts a -> sep_by P ts [a]
  | S_more ts a us l : P ts a -> sep_by P us l -> sep_by P (ts ++ Sg sep :: us) (a :: l).
  Variable ex : list tok -> list tok.
  Hypothesis EX : forall r, ex (Sg sep :: r) = Sg sep :: ex r.
  Hypothesis SEP : sep <> ">" /\ sep <> "{".
  Lemma list_sound (P : list tok -> A -> Prop) (p : list tok -> res A) : (forall ts a r, p ts = Got a r -> exists pre, ex ts = pre ++ ex r /\ P pre a) ->
    forall f ts l r, p_list f p sep ends ts = Got l r -> (exists pre, ex ts = pre ++ ex r /\ sep_by P pre l) /\ ended ends r = true.
  Proof.
    intros H. induction f as [|f IH]; intros ts l r; [discriminate|]. cbn [p_list]. destruct (ended ends ts) eqn:E.
    - intros G. inversion G; subst. split; [exists []; split; [reflexivity|constructor]|exact E].
    - intros G. apply bind_got in G as (a & r1 & PA & G). destruct (H _ _ _ PA) as (pre & X & Q). destruct (ended ends r1) eqn:E1.
      + inversion G; subst. split; [|exact E1]. exists pre. split; [exact X|now constructor].
      + destruct (peek_kind sep r1) eqn:K; [|discriminate]. apply then_got in G as (l' & G & ->). apply IH in G as [(pre' & X' & Q') E']. split; [|exact E'].
        exists (pre ++ Sg sep :: pre'). split; [|now constructor]. rewrite X. rewrite (peek_tl sep r1 (proj1 SEP) (proj2 SEP) K), EX, X', <- app_assoc. reflexivity.
  Qed.
  Lemma list_ends (p : list tok -> res A) n : (forall ts, List.length (ex ts) <= n -> p ts <> Fuel) ->
    (forall ts a r, p ts = Got a r -> List.length (ex r) <= List.length (ex ts)) ->
    forall f ts, List.length (ex ts) < f -> List.length (ex ts) <= n -> p_list f p sep ends ts <> Fuel.
  Proof.
    intros N W. induction f as [|f IH]; intros ts L B; [lia|]. cbn [p_list]. destruct (ended ends ts); [discriminate|]. apply bind_ends; [now apply N|]. intros a r E. destruct (ended ends r); [discriminate|].
    destruct (peek_kind sep r) eqn:K; [|discriminate]. apply then_ends. apply W in E. rewrite (peek_tl sep r (proj1 SEP) (proj2 SEP) K), EX in E. cbn [List.length] in E. apply IH; lia.
  Qed.
End Lists.

(** * Paths and numbers *)
Lemma path_sound ts p r : p_path ts = Got p r -> exists pre, ts = pre ++ r /\ expand ts = pre ++ expand r /\ g_path true pre p.
Proof.
  assert (C : forall n ts l r, List.length ts <= n -> continue_path ts = (l, r) -> exists pre, ts = pre ++ r /\ expand ts = pre ++ expand r /\ g_more true pre l).
  { induction n as [|n IH]; intros us l r0 L H; (destruct us as [|t us]; [inversion H; subst; exists []; repeat split; constructor|]); [cbn in L; lia|].
    destruct t; try (inversion H; subst; exists []; repeat split; constructor; fail). cbn [continue_path] in H. destruct (String.eqb_spec s "::") as [->|N]; [|inversion H; subst; exists []; repeat split; constructor].
    destruct us as [|t us]; [inversion H; subst; exists [Sg "::"]; repeat split; now constructor|].
    destruct t; try (inversion H; subst; exists [Sg "::"]; repeat split; now constructor).
    destruct (continue_path us) as [l' r'] eqn:E. inversion H; subst. cbn [fst snd]. apply IH in E as (pre & -> & X & G); [|cbn in L; lia]. exists (Sg "::" :: Id s :: pre). split; [reflexivity|]. split; [|now constructor].
    cbn [app expand flat_map parts]. change (flat_map parts (pre ++ r0)) with (expand (pre ++ r0)). rewrite X. reflexivity. }
  unfold p_path. destruct ts as [|t ts]; [discriminate|]. destruct t; try discriminate. cbn [identifier bind]. destruct (continue_path ts) as [l' r'] eqn:E. cbn [fst snd]. intros H. inversion H; subst.
  destruct (C (List.length ts) ts l' r (le_n _) E) as (pre & E1 & E2 & G). exists (Id s :: pre). split; [now rewrite E1|]. split; [|now constructor]. cbn [expand flat_map parts app]. change (flat_map parts ts) with (expand ts). now rewrite E2.
Qed.
Lemma path_complete : forall pre p ts us, g_path false pre p -> expand ts = pre ++ us -> stop ["::"] us -> exists r, expand r = us /\ p_path ts = Got p r.
Proof.
  assert (C : forall pre l, g_more false pre l -> forall ts us, expand ts = pre ++ us -> stop ["::"] us -> exists r, expand r = us /\ continue_path ts = (l, r)).
  { intros pre l G. induction G as [|D|s ps l G IH]; intros ts us E ST; [|discriminate|].
    - exists ts. split; [exact E|]. destruct ts as [|t ts]; [reflexivity|]. destruct t; try reflexivity. cbn [continue_path]. destruct (String.eqb_spec s "::") as [->|N]; [|reflexivity]. cbn in E. subst us. exfalso. apply ST. cbn. auto.
    - cbn [app] in E. apply lead in E as (r1 & -> & E); try discriminate. apply lead in E as (r2 & -> & E); try discriminate. destruct (IH r2 us E ST) as (r & R & C). exists r. split; [exact R|].
      cbn [continue_path]. change ("::" =? "::") with true. cbv iota. rewrite C. reflexivity. }
  intros pre p ts us G E ST. destruct G as [s ps l G]. cbn [app] in E. apply lead in E as (r1 & -> & E); try discriminate. destruct (C _ _ G r1 us E ST) as (r & R & K). exists r. split; [exact R|].
  unfold p_path. cbn [identifier bind]. rewrite K. reflexivity.
Qed.
Lemma literal_signed m v k : literal_of m v k = signed_as (if m then - Z.of_N v else Z.of_N v)%Z k.
Proof. destruct k, m; cbn [literal_of signed_as]; try reflexivity; f_equal; [rewrite Z.abs_opp|]; rewrite Z.abs_eq by apply N2Z.is_nonneg; now rewrite N2Z.id. Qed.
Lemma value_signed l : as_signed l = value l.
Proof. destruct l; reflexivity. Qed.
Lemma int_sound ts i r : int_literal ts = Got i r -> match i with Some l => exists pre, ts = pre ++ r /\ expand ts = pre ++ expand r /\ g_int pre l | None => r = ts end.
Proof.
  unfold int_literal. destruct ts as [|t ts]; [intros H; inversion H; reflexivity|]. destruct t; try (intros H; inversion H; reflexivity).
  - intros H. inversion H; subst. exists [Num v k]. repeat split. rewrite literal_signed. constructor.
  - destruct (String.eqb_spec s "+") as [->|N1]; [|destruct (String.eqb_spec s "-") as [->|N2]]; cbn [orb]; [| |intros H; inversion H; reflexivity].
    + destruct ts as [|t ts]; [discriminate|]. destruct t; try discriminate. intros H. inversion H; subst. exists [Sg "+"; Num v k]. repeat split. rewrite literal_signed. constructor.
    + destruct ts as [|t ts]; [discriminate|]. destruct t; try discriminate. intros H. inversion H; subst. exists [Sg "-"; Num v k]. repeat split. rewrite literal_signed. constructor.
Qed.
Lemma int_complete pre l ts us : g_int pre l -> expand ts = pre ++ us -> exists r, expand r = us /\ int_literal ts = Got (Some l) r /\ accept "true" ts = None /\ accept "false" ts = None.
Proof.
  intros G E. destruct G; cbn [app] in E; apply lead in E as (r1 & -> & E); try discriminate; try (apply lead in E as (r2 & -> & E); try discriminate); eexists; (split; [exact E|]); cbn [int_literal]; rewrite literal_signed; auto.
Qed.

(** * Soundness *)
Lemma is_wild_ok p : is_wild p = true <-> p = ("_", []).
Proof. destruct p as [s [|x l]]; cbn; [|split; discriminate]. rewrite String.eqb_eq. split; [intros ->; reflexivity|intros H; now inversion H]. Qed.
Lemma sep_texps ts l : sep_by ty "," (g_texp true) ts l -> g_texps true ts l.
Proof. induction 1; econstructor; eauto. Qed.
Lemma sep_traits ts l : sep_by trait "+" (g_trait true) ts l -> g_traits true ts l.
Proof. induction 1; econstructor; eauto. Qed.
Definition comma_ok : "," <> ">" /\ "," <> "{". Proof. split; discriminate. Qed.
Definition plus_ok : "+" <> ">" /\ "+" <> "{". Proof. split; discriminate. Qed.

Section Step.
  Variable p : list tok -> res ty.
  Hypothesis P : forall ts t r, p ts = Got t r -> exists pre, expand ts = pre ++ expand r /\ g_texp true pre t.
  Lemma texps_sound f e ts l r : p_list f p "," [e] ts = Got l r -> exists pre, expand ts = pre ++ expand r /\ g_texps true pre l.
  Proof. intros H. eapply (list_sound _ _ _ expand) in H as [(pre & X & S) _]; [|intros; reflexivity|exact comma_ok|exact P]. exists pre. split; [exact X|now apply sep_texps]. Qed.
  Lemma tuple_sound f ts t r : tuple_of f p ts = Got t r -> exists pre l, expand ts = pre ++ expand r /\ t = YTup l /\ forall b, g_spec true b (Sg "(" :: pre) t.
  Proof.
    unfold tuple_of. destruct (accept "," ts) as [r1|] eqn:A.
    - intros H. apply expect_sound in H as [-> X]; [|reflexivity]. apply accept_sound in A; [|reflexivity]. exists [Sg ","; Sg ")"], []. rewrite A, X. repeat split. intros b. constructor.
    - intros H. apply bind_got in H as (l & r1 & L & H). apply expect_sound in H as [-> X]; [|reflexivity]. apply texps_sound in L as (pre & E & G). exists (pre ++ [Sg ")"]), l. rewrite E, X, <- app_assoc. repeat split. intros b. now constructor.
  Qed.
  Lemma args_sound f ts g r : generics_of f p ts = Got g r -> exists pre, expand ts = pre ++ expand r /\ g_args true pre g.
  Proof.
    unfold generics_of. destruct (peek_kind "<" ts) eqn:K.
    - intros H. apply bind_got in H as (l & r1 & L & H). apply expect_sound in H as [-> X]; [|reflexivity]. apply texps_sound in L as (pre & E & G). apply peek_tl in K; try discriminate.
      exists (Sg "<" :: pre ++ [Sg ">"]). split; [|now constructor]. rewrite K, expand_cons. change (parts (Sg "<")) with [Sg "<"]. cbn [app]. rewrite E, X, <- app_assoc. reflexivity.
    - intros H. inversion H; subst. exists []. split; [reflexivity|constructor].
  Qed.
End Step.
Theorem types_sound : forall f ts r,
  (forall t, p_texp f ts = Got t r -> exists pre, expand ts = pre ++ expand r /\ g_texp true pre t) /\
  (forall b t, p_spec f b ts = Got t r -> exists pre, expand ts = pre ++ expand r /\ g_spec true b pre t) /\
  (forall t, p_trait f ts = Got t r -> exists pre, expand ts = pre ++ expand r /\ g_trait true pre t).
Proof.
  induction f as [|f IH]; intros ts r; [repeat split; discriminate|].
  assert (P : forall ts t r, p_texp f ts = Got t r -> exists pre, expand ts = pre ++ expand r /\ g_texp true pre t) by (intros us t r0; apply (IH us r0)).
  assert (SP : forall b ts t r, p_spec f b ts = Got t r -> exists pre, expand ts = pre ++ expand r /\ g_spec true b pre t) by (intros b us t r0; apply (IH us r0)).
  assert (PT : forall ts t r, p_trait f ts = Got t r -> exists pre, expand ts = pre ++ expand r /\ g_trait true pre t) by (intros us t r0; apply (IH us r0)).
  clear IH. split; [|split].
  - intros t. cbn [p_texp]. destruct (accept "true" ts) as [r1|] eqn:A1. { intros H. inversion H; subst. apply accept_sound in A1; [|reflexivity]. exists [Sg "true"]. split; [exact A1|constructor]. }
    destruct (accept "false" ts) as [r1|] eqn:A2. { intros H. inversion H; subst. apply accept_sound in A2; [|reflexivity]. exists [Sg "false"]. split; [exact A2|constructor]. }
    intros H. apply bind_got in H as (i & r1 & I & H). apply int_sound in I. destruct i as [l|].
    + inversion H; subst. destruct I as (pre & _ & X & G). exists pre. split; [exact X|]. rewrite value_signed. now constructor.
    + subst r1. destruct ts as [|x ts]; [apply SP in H as (pre & X & G); exists pre; split; [exact X|now apply T_spec]|].
      destruct x; try (apply SP in H as (pre & X & G); exists pre; split; [exact X|now apply T_spec]).
      * inversion H; subst. exists [Text s]. split; [reflexivity|constructor].
      * inversion H; subst. exists [Braced x]. split; [reflexivity|constructor].
  - intros b t. cbn [p_spec]. destruct (accept "inv" ts) as [r1|] eqn:A1.
    { intros H. apply then_got in H as (t' & H & ->). apply accept_sound in A1; [|reflexivity]. apply P in H as (pre & X & G). exists (Sg "inv" :: pre). rewrite A1, X. split; [reflexivity|now constructor]. }
    destruct (accept "~" ts); [discriminate|]. destruct (accept "&" ts) as [r1|] eqn:A2.
    { destruct (accept "mut" r1); [discriminate|]. intros H. apply then_got in H as (t' & H & ->). apply accept_sound in A2; [|reflexivity]. apply P in H as (pre & X & G). exists (Sg "&" :: pre). rewrite A2, X. split; [reflexivity|now constructor]. }
    destruct (accept "&&" ts) as [r1|] eqn:A3.
    { intros H. apply then_got in H as (t' & H & ->). apply accept_double in A3. apply P in H as (pre & X & G). exists (Sg "&" :: Sg "&" :: pre). rewrite A3, X. split; [reflexivity|]. apply T_view, T_spec, T_view. exact G. }
    destruct (accept "impl" ts) as [r1|] eqn:A4.
    { intros H. apply bind_got in H as (l & r2 & L & H). destruct b; [|discriminate]. inversion H; subst. apply accept_sound in A4; [|reflexivity].
      eapply (list_sound _ _ _ expand) in L as [(pre & X & S) _]; [|intros; reflexivity|exact plus_ok|exact PT]. apply sep_traits in S. exists (Sg "impl" :: pre). rewrite A4, X. split; [reflexivity|]. constructor; auto. }
    destruct (accept "(" ts) as [r1|] eqn:A5.
    { intros H. apply accept_sound in A5; [|reflexivity]. eapply tuple_sound in H as (pre & l & X & -> & G); [|exact P]. exists (Sg "(" :: pre). rewrite A5, X. split; [reflexivity|apply G]. }
    destruct (accept "[" ts) as [r1|] eqn:A6.
    { intros H. apply accept_sound in A6; [|reflexivity]. apply bind_got in H as (u & r2 & U & H). destruct (accept "]" r2); [discriminate|]. apply bind_got in H as (x & r3 & E & H). apply expect_sound in E as [_ E]; [|reflexivity].
      apply bind_got in H as (n & r4 & N & H). apply expect_sound in H as [-> H]; [|reflexivity]. apply P in U as (pre & X & G). apply P in N as (pre' & X' & G'). exists (Sg "[" :: pre ++ Sg ";" :: pre' ++ [Sg "]"]).
      split; [|now constructor]. rewrite A6, X, E, X', H. cbn [app]. rewrite <- !app_assoc. cbn [app]. rewrite <- app_assoc. reflexivity. }
    intros H. apply bind_got in H as (q & r1 & Q & H). apply path_sound in Q as (pre & _ & X & G). destruct (is_wild q) eqn:W.
    { apply is_wild_ok in W. subst q. inversion H; subst. exists pre. split; [exact X|now constructor]. }
    apply then_got in H as (g & H & ->). eapply args_sound in H as (pre' & X' & G'); [|exact P]. exists (pre ++ pre'). rewrite X, X', <- app_assoc. split; [reflexivity|]. constructor; auto. intros C. apply is_wild_ok in C. congruence.
  - intros t. cbn [p_trait]. intros H. apply bind_got in H as (q & r1 & Q & H). apply path_sound in Q as (pre & _ & X & G). apply bind_got in H as (g & r2 & R & H). eapply args_sound in R as (pre' & X' & G'); [|exact P].
    destruct (accept "(" r2) as [r3|] eqn:A.
    + apply accept_sound in A; [|reflexivity]. apply bind_got in H as (u & r4 & U & H). eapply tuple_sound in U as (vs & l & X2 & -> & G2); [|exact P]. destruct (accept "->" r4) as [r5|] eqn:AR.
      * apply accept_sound in AR; [|reflexivity]. apply bind_got in H as (o & r6 & O & H). inversion H; subst. apply P in O as (ws & X3 & G3). exists (pre ++ pre' ++ Sg "(" :: vs ++ Sg "->" :: ws).
        split; [|now constructor]. rewrite X, X', A, X2, AR, X3. rewrite <- !app_assoc. cbn [app]. rewrite <- !app_assoc. reflexivity.
      * inversion H; subst. exists (pre ++ pre' ++ Sg "(" :: vs). split; [|now constructor]. rewrite X, X', A, X2. rewrite <- !app_assoc. reflexivity.
    + inversion H; subst. exists (pre ++ pre'). split; [|now constructor]. rewrite X, X', <- app_assoc. reflexivity.
Qed.
