(** Reading type parameters, patterns and [use] *)
From Coq Require Import NArith ZArith List Bool String Arith Lia.
From Verif Require Import LexModel SynModel SynSpec SynProofs SynTypes.
Import ListNotations.
Open Scope nat_scope.
Open Scope string_scope.
Open Scope list_scope.

Lemma identifier_sound ts s r : identifier ts = Got s r -> ts = Id s :: r /\ expand ts = Id s :: expand r /\ size ts = S (size r).
Proof. unfold identifier. destruct ts as [|t ts]; [discriminate|]. destruct t; try discriminate. intros H. inversion H; subst. repeat split. Qed.
Lemma identifier_ends ts : identifier ts <> Fuel.
Proof. unfold identifier. destruct ts as [|t ts]; [discriminate|]. destruct t; discriminate. Qed.
Lemma texp_sound f ts t r : p_texp f ts = Got t r -> exists pre, expand ts = pre ++ expand r /\ g_texp true pre t.
Proof. apply (types_sound f ts r). Qed.
Lemma trait_sound f ts t r : p_trait f ts = Got t r -> exists pre, expand ts = pre ++ expand r /\ g_trait true pre t.
Proof. apply (types_sound f ts r). Qed.
Lemma texp_ends f ts : 3 * size ts + 3 <= f -> p_texp f ts <> Fuel.
Proof. apply (types_end f ts). Qed.
Lemma trait_ends f ts : 3 * size ts + 3 <= f -> p_trait f ts <> Fuel.
Proof. apply (types_end f ts). Qed.
Lemma traits_sound g f ends ts l r : p_list g (p_trait f) "+" ends ts = Got l r -> exists pre, expand ts = pre ++ expand r /\ g_traits true pre l.
Proof. intros L. eapply (list_sound _ _ _ expand) in L as [(pre & X & S) _]; [|intros; reflexivity|exact plus_ok|apply trait_sound]. apply sep_traits in S. eauto. Qed.
Lemma sound_size (ts r : list tok) (P : list tok -> Prop) : (exists pre, expand ts = pre ++ expand r /\ P pre) -> size r <= size ts.
Proof. intros (pre & X & _). unfold size. rewrite X, app_length. lia. Qed.

(** * Type parameters *)
Lemma default_sound f ts d r : p_default f ts = Got d r -> exists pre, expand ts = pre ++ expand r /\ g_default true pre d.
Proof.
  unfold p_default. destruct (accept "=" ts) as [r1|] eqn:A.
  - intros H. apply then_got in H as (t & H & ->). apply accept_sound in A; [|reflexivity]. apply texp_sound in H as (pre & X & G). exists (Sg "=" :: pre). rewrite A, X. split; [reflexivity|now constructor].
  - intros H. inversion H; subst. exists []. split; [reflexivity|constructor].
Qed.
Lemma param_sound f ts p r : p_param f ts = Got p r -> exists pre, expand ts = pre ++ expand r /\ g_param true pre p.
Proof.
  unfold p_param. destruct (accept "#" ts) as [r1|] eqn:A.
  - intros H. apply accept_sound in A; [|reflexivity]. apply bind_got in H as (m & r2 & M & H). apply identifier_sound in M as (_ & M & _). apply bind_got in H as (s & r3 & I & H). apply identifier_sound in I as (_ & I & _).
    apply then_got in H as (d & D & ->). apply default_sound in D as (pre & X & G). exists (Sg "#" :: Id m :: Id s :: pre). rewrite A, M, I, X. split; [reflexivity|now constructor].
  - intros H. apply bind_got in H as (s & r1 & I & H). apply identifier_sound in I as (_ & I & _). apply bind_got in H as (l & r2 & L & H). apply then_got in H as (d & D & ->). apply default_sound in D as (pre & X & G).
    destruct (accept ":" r1) as [r3|] eqn:C.
    + apply accept_sound in C; [|reflexivity]. apply traits_sound in L as (pre' & X' & G'). exists (Id s :: Sg ":" :: pre' ++ pre). rewrite I, C, X', X. split; [cbn; now rewrite <- app_assoc|now constructor].
    + inversion L; subst. exists (Id s :: pre). rewrite I, X. split; [reflexivity|now constructor].
Qed.
Lemma sep_params ts l : sep_by type_param "," (g_param true) ts l -> g_plist true ts l.
Proof. induction 1; econstructor; eauto. Qed.
Theorem params_sound f ts l r : p_params f ts = Got l r -> exists pre, expand ts = pre ++ expand r /\ g_params true pre l.
Proof.
  unfold p_params. destruct (peek_kind "<" ts) eqn:K.
  - intros H. apply bind_got in H as (l' & r1 & L & H). apply expect_sound in H as [-> X]; [|reflexivity]. eapply (list_sound _ _ _ expand) in L as [(pre & E & G) _]; [|intros; reflexivity|exact comma_ok|apply param_sound]. apply sep_params in G. apply peek_tl in K; try discriminate.
    exists (Sg "<" :: pre ++ [Sg ">"]). split; [|now constructor]. rewrite K, expand_cons. change (parts (Sg "<")) with [Sg "<"]. cbn [app]. rewrite E, X, <- app_assoc. reflexivity.
  - intros H. inversion H; subst. exists []. split; [reflexivity|constructor].
Qed.
Lemma default_below f g ts : f <= g -> below (p_default f ts) (p_default g ts).
Proof. intros L. unfold p_default. destruct (accept "=" ts); [apply then_below, types_below, L|apply below_refl]. Qed.
Lemma param_below f g ts : f <= g -> below (p_param f ts) (p_param g ts).
Proof.
  intros L. unfold p_param. destruct (accept "#" ts).
  - apply bind_below; [apply below_refl|]. intros. apply bind_below; [apply below_refl|]. intros. now apply then_below, default_below.
  - apply bind_below; [apply below_refl|]. intros s r. apply bind_below; [destruct (accept ":" r); [apply list_below; [|exact L]; intros; now apply types_below|apply below_refl]|]. intros. now apply then_below, default_below.
Qed.
Lemma params_below f g ts : f <= g -> below (p_params f ts) (p_params g ts).
Proof. intros L. unfold p_params. destruct (peek_kind "<" ts); [|apply below_refl]. apply bind_below; [apply list_below; [|exact L]; intros; now apply param_below|]. intros. apply below_refl. Qed.
Lemma default_ends f ts : 3 * size ts + 3 <= f -> p_default f ts <> Fuel.
Proof. intros L. unfold p_default. destruct (accept "=" ts) eqn:A; [|discriminate]. apply accept_size in A; [|reflexivity]. apply then_ends, texp_ends. lia. Qed.
Lemma param_ends f ts : 3 * size ts + 3 <= f -> p_param f ts <> Fuel.
Proof.
  intros L. unfold p_param. destruct (accept "#" ts) eqn:A.
  - apply accept_size in A; [|reflexivity]. apply bind_ends; [apply identifier_ends|]. intros a r E. apply identifier_sound in E as (_ & _ & E). apply bind_ends; [apply identifier_ends|]. intros a1 r1 E1. apply identifier_sound in E1 as (_ & _ & E1). apply then_ends, default_ends. lia.
  - apply bind_ends; [apply identifier_ends|]. intros a r E. apply identifier_sound in E as (_ & _ & E). destruct (accept ":" r) eqn:C.
    + apply accept_size in C; [|reflexivity]. apply bind_ends; [apply traits_ends; [intros; now apply trait_ends|lia]|]. intros a1 r1 E1. apply traits_sound, sound_size in E1. apply then_ends, default_ends. lia.
    + cbn [bind]. apply then_ends, default_ends. lia.
Qed.
Theorem params_end f ts : 3 * size ts + 3 <= f -> p_params f ts <> Fuel.
Proof.
  intros L. unfold p_params. destruct (peek_kind "<" ts) eqn:K; [|discriminate]. apply peek_size in K; try discriminate; [|reflexivity]. apply bind_ends; [|intros; apply expect_ends].
  apply (list_ends _ "," _ expand (fun _ => eq_refl) comma_ok _ (size (tl ts))); [|intros us a r H; apply param_sound, sound_size in H; exact H| |]; fold (size (tl ts)); [|lia|lia].
  intros us B. apply param_ends. fold (size us) in B. lia.
Qed.
Definition param_ok : list tok -> Prop := closed [","; ">"].
Lemma default_complete pre d : g_default false pre d -> reads p_default pre d param_ok.
Proof.
  intros G ts us E O. destruct G as [|pre t G].
  - exists 0, ts. split; [exact E|]. intros f _. unfold p_default. rewrite accept_none; [reflexivity|reflexivity|discriminate|]. destruct O as (s & r & -> & I). cbn [app] in E. rewrite E. intros ->. cbn in I. intuition discriminate.
  - cbn [app] in E. apply lead in E as (r & -> & E); try discriminate. destruct (proj1 types_complete _ _ G r us E) as (n & r1 & X & K). { eapply closed_stop; [|exact O]. cbn. intros s I. intuition; subst; discriminate. }
    exists n, r1. split; [exact X|]. intros f F. unfold p_default. change (accept "=" (Sg "=" :: r)) with (Some r). cbv iota. rewrite K by lia. reflexivity.
Qed.
Lemma default_closed pre d us : g_default false pre d -> param_ok us -> closed ["="; ","; ">"] (pre ++ us).
Proof. intros G (s & r & -> & I). destruct G; cbn [app]; do 2 eexists; (split; [reflexivity|]); cbn in *; intuition. Qed.
Lemma param_complete pre p : g_param false pre p -> reads p_param pre p param_ok.
Proof.
  intros G ts us E O. destruct G as [s pre d G|s pre l pre' d GT G|m s pre d G]; cbn [app] in E; apply lead in E as (r & -> & E); try discriminate.
  - destruct (default_complete _ _ G r us E O) as (n & r1 & X & K). exists n, r1. split; [exact X|]. intros f F. unfold p_param. change (accept "#" (Id s :: r)) with (@None (list tok)). cbv iota. cbn [identifier bind].
    rewrite accept_none; [|reflexivity|discriminate|]. { cbn [bind]. rewrite K by lia. reflexivity. }
    destruct (default_closed _ _ us G O) as (x & y & Q & I). rewrite E, Q. intros ->. cbn in I. intuition discriminate.
  - apply lead in E as (r1 & -> & E); try discriminate. rewrite <- app_assoc in E. assert (C := default_closed _ _ us G O). assert (TC := types_complete). destruct TC as (_ & _ & _ & _ & _ & TC).
    destruct (TC _ _ GT ["="; ","; ">"]) with (ts := r1) (us := pre' ++ us) as (n & r2 & X & K); [cbn; intuition|exact E|exact C|].
    destruct (default_complete _ _ G r2 us X O) as (n' & r3 & X' & K'). exists (n + n'), r3. split; [exact X'|]. intros f F. unfold p_param. change (accept "#" (Id s :: Sg ":" :: r1)) with (@None (list tok)). cbv iota. cbn [identifier bind].
    change (accept ":" (Sg ":" :: r1)) with (Some r1). cbv iota. rewrite K by lia. cbn [bind]. rewrite K' by lia. reflexivity.
  - apply lead in E as (r1 & -> & E); try discriminate. apply lead in E as (r2 & -> & E); try discriminate. destruct (default_complete _ _ G r2 us E O) as (n & r3 & X & K). exists n, r3. split; [exact X|]. intros f F. unfold p_param.
    change (accept "#" (Sg "#" :: Id m :: Id s :: r2)) with (Some (Id m :: Id s :: r2)). cbv iota. cbn [identifier bind]. rewrite K by lia. reflexivity.
Qed.
Lemma param_starts pre p us ts : g_param false pre p -> expand ts = pre ++ us -> ended [">"] ts = false.
Proof. intros G E. apply ended_false; [cbn; intuition; subst; auto 10|]. rewrite E. destruct G; cbn; auto. intuition discriminate. Qed.
Lemma plist_complete pre l : g_plist false pre l -> reads_list p_param "," [">"] pre l (closed [">"]).
Proof.
  assert (C : forall e, In e [">"] -> In e closing \/ e = "]") by (cbn; intuition; subst; auto 10).
  induction 1 as [|pre t G|pre t pre' l G GL IH].
  - apply list_nil. intros ts (s & us & E & I). eapply ended_true; eauto.
  - eapply list_one; [| | |now apply param_complete].
    + intros ts (s & us & E & I). eapply ended_true; eauto.
    + intros. eapply param_starts; eauto.
    + intros us (s & r & -> & I). exists s, r. cbn in *. intuition.
  - eapply list_more; try reflexivity; try discriminate; [| | |now apply param_complete|exact IH].
    + intros ts us E. apply ended_false; [exact C|]. rewrite E. cbn. intuition discriminate.
    + intros. eapply param_starts; eauto.
    + intros us. exists ",", us. cbn. auto.
Qed.
Theorem params_complete pre l : g_params false pre l -> reads p_params pre l (stop ["<"]).
Proof.
  intros G ts us E O. destruct G as [|pre l G].
  - exists 0, ts. split; [exact E|]. intros f _. unfold p_params. cbn [app] in E. rewrite peek_expand, E by (reflexivity || discriminate). destruct us as [|x us]; [reflexivity|]. destruct x; try reflexivity.
    destruct (String.eqb_spec s "<") as [->|N]; [|reflexivity]. exfalso. apply O. cbn. auto.
  - cbn [app] in E. rewrite <- app_assoc in E. apply lead in E as (r & -> & E); try discriminate. destruct (plist_complete _ _ G r _ E) as (n & r1 & X & K); [eexists; eexists; split; [reflexivity|]; cbn; auto|].
    destruct (eat_complete ">" r1 us eq_refl) as (r2 & X2 & K2); [discriminate|exact X|]. exists n, r2. split; [exact K2|]. intros f F. unfold p_params. change (peek_kind "<" (Sg "<" :: r)) with true. cbv iota. cbn [tl]. rewrite K by lia. cbn [bind]. unfold expect. rewrite X2. reflexivity.
Qed.

(** * Patterns *)
Lemma sep_pats ts l : sep_by pat "," (g_pat true) ts l -> g_pats true ts l.
Proof. induction 1; econstructor; eauto. Qed.
Lemma sep_fields ts l : sep_by (string * option pat) "," (g_field true) ts l -> g_fields true ts l.
Proof. induction 1; econstructor; eauto. Qed.
Section Field.
  Variable p : list tok -> res pat.
  Hypothesis P : forall ts t r, p ts = Got t r -> exists pre, expand ts = pre ++ expand r /\ g_pat true pre t.
  Lemma field_sound ts t r : p_field p ts = Got t r -> exists pre, expand ts = pre ++ expand r /\ g_field true pre t.
  Proof.
    unfold p_field. intros H. apply bind_got in H as (s & r1 & I & H). apply identifier_sound in I as (_ & I & _). destruct (accept ":" r1) as [r2|] eqn:A.
    - apply accept_sound in A; [|reflexivity]. apply then_got in H as (a & H & ->). apply P in H as (pre & X & G). exists (Id s :: Sg ":" :: pre). rewrite I, A, X. split; [reflexivity|now constructor].
    - inversion H; subst. exists [Id s]. split; [exact I|constructor].
  Qed.
  Lemma pats_sound f e ts l r : p_list f p "," [e] ts = Got l r -> exists pre, expand ts = pre ++ expand r /\ g_pats true pre l.
  Proof. intros H. eapply (list_sound _ _ _ expand) in H as [(pre & X & S) _]; [|intros; reflexivity|exact comma_ok|exact P]. exists pre. split; [exact X|now apply sep_pats]. Qed.
  Lemma fields_sound f e ts l r : p_list f (p_field p) "," [e] ts = Got l r -> exists pre, expand ts = pre ++ expand r /\ g_fields true pre l.
  Proof. intros H. eapply (list_sound _ _ _ expand) in H as [(pre & X & S) _]; [|intros; reflexivity|exact comma_ok|exact field_sound]. exists pre. split; [exact X|now apply sep_fields]. Qed.
End Field.
Theorem pat_sound : forall f ts t r, p_pat f ts = Got t r -> exists pre, expand ts = pre ++ expand r /\ g_pat true pre t.
Proof.
  induction f as [|f IH]; intros ts t r; [discriminate|]. cbn [p_pat].
  destruct (accept "(" ts) as [r1|] eqn:A. { apply accept_sound in A; [|reflexivity]. intros H. apply bind_got in H as (l & r2 & L & H). apply expect_sound in H as [-> H]; [|reflexivity]. apply pats_sound in L as (pre & X & G); [|exact IH].
    exists (Sg "(" :: pre ++ [Sg ")"]). rewrite A, X, H. cbn [app]. rewrite <- app_assoc. split; [reflexivity|now constructor]. } clear A.
  destruct (accept "[" ts) as [r1|] eqn:A. { apply accept_sound in A; [|reflexivity]. intros H. apply bind_got in H as (l & r2 & L & H). apply expect_sound in H as [-> H]; [|reflexivity]. apply pats_sound in L as (pre & X & G); [|exact IH].
    exists (Sg "[" :: pre ++ [Sg "]"]). rewrite A, X, H. cbn [app]. rewrite <- app_assoc. split; [reflexivity|now constructor]. } clear A.
  intros H. apply bind_got in H as (i & r1 & I & H). apply int_sound in I. destruct i as [l|]. { inversion H; subst. destruct I as (pre & _ & X & G). exists pre. split; [exact X|now constructor]. } clear I.
  destruct (accept "true" ts) as [r2|] eqn:A. { inversion H; subst. apply accept_sound in A; [|reflexivity]. exists [Sg "true"]. split; [exact A|constructor]. } clear A.
  destruct (accept "false" ts) as [r2|] eqn:A. { inversion H; subst. apply accept_sound in A; [|reflexivity]. exists [Sg "false"]. split; [exact A|constructor]. } clear A.
  assert (REST : match accept "wire" ts with Some r => then_ (APath true) (p_path r) | None =>
      bind (p_path ts) (fun n r =>
        if match snd n with [] => peek_kind "@" r | _ => false end then then_ (ABound (fst n)) (p_pat f (tl r))
        else match accept "(" r with
        | Some r => bind (p_list f (p_pat f) "," [")"] r) (fun l r => expect ")" (APos n l) r)
        | None =>
        match accept "$" r with
        | Some r => bind (expect "(" tt r) (fun _ r => bind (p_list f (p_field (p_pat f)) "," [")"] r) (fun l r => expect ")" (ANamed n l) r))
        | None => Got (APath false n) r
        end end) end = Got t r -> exists pre, expand ts = pre ++ expand r /\ g_pat true pre t).
  { clear H. destruct (accept "wire" ts) as [r2|] eqn:A.
    - intros H. apply accept_sound in A; [|reflexivity]. apply then_got in H as (n & H & ->). apply path_sound in H as (pre & _ & X & G). exists (Sg "wire" :: pre). rewrite A, X. split; [reflexivity|now constructor].
    - intros H. apply bind_got in H as (n & r2 & N & H). apply path_sound in N as (pre & _ & X & G). destruct (match snd n with [] => peek_kind "@" r2 | _ => false end) eqn:B.
      + destruct n as [s [|? ?]]; cbn [snd fst] in *; [|discriminate]. apply then_got in H as (q & H & ->). apply IH in H as (pre' & X' & G'). apply peek_tl in B; try discriminate. exists (pre ++ Sg "@" :: pre').
        split; [|now constructor]. rewrite X, B, expand_cons. cbn [parts app]. change (parts (Sg "@")) with [Sg "@"]. cbn [app]. rewrite X', <- app_assoc. reflexivity.
      + destruct (accept "(" r2) as [r3|] eqn:P.
        * apply accept_sound in P; [|reflexivity]. apply bind_got in H as (l & r4 & L & H). apply expect_sound in H as [-> H]; [|reflexivity]. apply pats_sound in L as (pre' & X' & G'); [|exact IH]. exists (pre ++ Sg "(" :: pre' ++ [Sg ")"]).
          split; [|now constructor]. rewrite X, P, X', H, <- !app_assoc. cbn [app]. rewrite <- app_assoc. reflexivity.
        * destruct (accept "$" r2) as [r3|] eqn:D.
          -- apply accept_sound in D; [|reflexivity]. apply bind_got in H as (x & r4 & Q & H). apply expect_sound in Q as [_ Q]; [|reflexivity]. apply bind_got in H as (l & r5 & L & H). apply expect_sound in H as [-> H]; [|reflexivity].
             apply fields_sound in L as (pre' & X' & G'); [|exact IH]. exists (pre ++ Sg "$" :: Sg "(" :: pre' ++ [Sg ")"]). split; [|now constructor]. rewrite X, D, Q, X', H, <- !app_assoc. cbn [app]. rewrite <- app_assoc. reflexivity.
          -- inversion H; subst. exists pre. split; [exact X|now constructor]. }
  destruct ts as [|x ts]; [now apply REST|]. destruct x; try (now apply REST).
  destruct v; [|discriminate]. inversion H; subst. exists [Chr (Some n)]. split; [reflexivity|apply P_char].
Qed.
Lemma field_below p q ts : (forall ts, below (p ts) (q ts)) -> below (p_field p ts) (p_field q ts).
Proof. intros H. unfold p_field. apply bind_below; [apply below_refl|]. intros s r. destruct (accept ":" r); [apply then_below, H|apply below_refl]. Qed.
Theorem pat_below : forall f g, f <= g -> forall ts, below (p_pat f ts) (p_pat g ts).
Proof.
  induction f as [|f IH]; intros g L ts; [now left|]. destruct g as [|g]; [lia|]. assert (L' : f <= g) by lia. specialize (IH g L'). cbn [p_pat].
  destruct (accept "(" ts); [apply bind_below; [now apply list_below|intros; apply below_refl]|]. destruct (accept "[" ts); [apply bind_below; [now apply list_below|intros; apply below_refl]|].
  apply bind_below; [apply below_refl|]. intros i r. destruct i; [apply below_refl|]. destruct (accept "true" ts); [apply below_refl|]. destruct (accept "false" ts); [apply below_refl|].
  match goal with |- below (match ts with [] => ?x | _ => _ end) (match ts with [] => ?y | _ => _ end) => assert (B : below x y) end.
  { destruct (accept "wire" ts); [apply below_refl|]. apply bind_below; [apply below_refl|]. intros n r1. destruct (match snd n with [] => peek_kind "@" r1 | _ => false end); [apply then_below, IH|].
    destruct (accept "(" r1); [apply bind_below; [now apply list_below|intros; apply below_refl]|]. destruct (accept "$" r1); [|apply below_refl]. apply bind_below; [apply below_refl|]. intros _ r2.
    apply bind_below; [apply list_below; [|exact L']; intros; apply field_below, IH|intros; apply below_refl]. }
  destruct ts as [|x ts]; [exact B|]. destruct x; try exact B. destruct v; apply below_refl.
Qed.
Theorem pat_end : forall f ts, 3 * size ts + 3 <= f -> p_pat f ts <> Fuel.
Proof.
  induction f as [|f IH]; intros ts L; [lia|]. cbn [p_pat].
  assert (PS : forall ts a r, p_pat f ts = Got a r -> size r <= size ts) by (intros us a r H; apply pat_sound, sound_size in H; exact H).
  assert (LE : forall e ts, 3 * size ts + 3 <= f -> p_list f (p_pat f) "," [e] ts <> Fuel).
  { intros e us B. apply (list_ends _ "," _ expand (fun _ => eq_refl) comma_ok _ (size us)); [|exact PS| |]; fold (size us); [|lia|lia]. intros vs C. apply IH. fold (size vs) in C. lia. }
  assert (FE : forall e ts, 3 * size ts + 3 <= f -> p_list f (p_field (p_pat f)) "," [e] ts <> Fuel).
  { intros e us B. apply (list_ends _ "," _ expand (fun _ => eq_refl) comma_ok _ (size us)); [|intros vs a r H; apply (field_sound _ (pat_sound f)), sound_size in H; exact H| |]; fold (size us); [|lia|lia]. intros vs C. fold (size vs) in C.
    unfold p_field. apply bind_ends; [apply identifier_ends|]. intros a r E. apply identifier_sound in E as (_ & _ & E). destruct (accept ":" r) eqn:A; [|discriminate]. apply accept_size in A; [|reflexivity]. apply then_ends, IH. lia. }
  destruct (accept "(" ts) eqn:A; [apply accept_size in A; [|reflexivity]; apply bind_ends; [apply LE; lia|intros; apply expect_ends]|]. clear A.
  destruct (accept "[" ts) eqn:A; [apply accept_size in A; [|reflexivity]; apply bind_ends; [apply LE; lia|intros; apply expect_ends]|]. clear A.
  apply bind_ends; [apply int_ends|]. intros i r _. destruct i; [discriminate|]. destruct (accept "true" ts); [discriminate|]. destruct (accept "false" ts); [discriminate|].
  match goal with |- match ts with [] => ?x | _ => _ end <> _ => assert (B : x <> Fuel) end.
  { destruct (accept "wire" ts); [apply then_ends, path_ends|]. apply bind_ends; [apply path_ends|]. intros n r1 E. apply path_size in E. destruct (match snd n with [] => peek_kind "@" r1 | _ => false end) eqn:K.
    - destruct n as [s [|? ?]]; cbn [snd] in K; [|discriminate]. apply peek_size in K; try discriminate; [|reflexivity]. apply then_ends, IH. lia.
    - destruct (accept "(" r1) eqn:A; [apply accept_size in A; [|reflexivity]; apply bind_ends; [apply LE; lia|intros; apply expect_ends]|]. clear A. destruct (accept "$" r1) eqn:A; [|discriminate]. apply accept_size in A; [|reflexivity].
      apply bind_ends; [apply expect_ends|]. intros x r2 E2. apply expect_size in E2; [|reflexivity]. apply bind_ends; [apply FE; lia|intros; apply expect_ends]. }
  destruct ts as [|x ts]; [exact B|]. destruct x; try exact B. destruct v; discriminate.
Qed.
Scheme g_pat_m := Minimality for g_pat Sort Prop
  with g_pats_m := Minimality for g_pats Sort Prop
  with g_field_m := Minimality for g_field Sort Prop
  with g_fields_m := Minimality for g_fields Sort Prop.
Combined Scheme pats_ind from g_pat_m, g_pats_m, g_field_m, g_fields_m.
Definition pat_head (x : tok) : Prop := match x with Id _ | Num _ _ | Chr _ => True | Sg s => In s ["("; "["; "+"; "-"; "true"; "false"; "wire"] | _ => False end.
Lemma pat_starts pre t : g_pat false pre t -> exists x us, pre = x :: us /\ pat_head x.
Proof.
  intros H. destruct H; try (eexists; eexists; split; [reflexivity|]; cbn; tauto); try (destruct H; eexists; eexists; (split; [reflexivity|]); cbn; tauto).
Qed.
Lemma field_starts pre t : g_field false pre t -> exists s us, pre = Id s :: us.
Proof. destruct 1; eauto. Qed.
Lemma in_closed e us : closed [e] (Sg e :: us). Proof. exists e, us. cbn. auto. Qed.
Definition rest_of (f : nat) (n : path) (r : list tok) : res pat :=
  if match snd n with [] => peek_kind "@" r | _ => false end then then_ (ABound (fst n)) (p_pat f (tl r))
  else match accept "(" r with
  | Some r => bind (p_list f (p_pat f) "," [")"] r) (fun l r => expect ")" (APos n l) r)
  | None =>
  match accept "$" r with
  | Some r => bind (expect "(" tt r) (fun _ r => bind (p_list f (p_field (p_pat f)) "," [")"] r) (fun l r => expect ")" (ANamed n l) r))
  | None => Got (APath false n) r
  end end.
Lemma pat_of_path f pre n ts us : g_path false pre n -> expand ts = pre ++ us -> stop ["::"] us -> exists r, expand r = us /\ p_pat (S f) ts = rest_of f n r.
Proof.
  intros G E S. destruct (path_complete _ _ _ _ G E S) as (r & X & K). exists r. split; [exact X|]. apply path_head in G as (s & us' & ->). apply lead in E as (r1 & -> & E); try discriminate.
  change (p_pat (Datatypes.S f) (Id s :: r1)) with (bind (p_path (Id s :: r1)) (rest_of f)). rewrite K. reflexivity.
Qed.
Lemma pat_of_path' pre n ts us : g_path false pre n -> expand ts = pre ++ us -> stop ["::"] us -> exists r, expand r = us /\ forall f, p_pat (S f) ts = rest_of f n r.
Proof.
  intros G E S. destruct (path_complete _ _ _ _ G E S) as (r & X & K). exists r. split; [exact X|]. intros f. apply path_head in G as (s & us' & ->). apply lead in E as (r1 & -> & E); try discriminate.
  change (p_pat (Datatypes.S f) (Id s :: r1)) with (bind (p_path (Id s :: r1)) (rest_of f)). rewrite K. reflexivity.
Qed.
Theorem pats_complete :
  (forall pre t, g_pat false pre t -> reads p_pat pre t (stop after_pattern)) /\
  (forall pre l, g_pats false pre l -> forall e, In e [")"; "]"] -> reads_list p_pat "," [e] pre l (closed [e])) /\
  (forall pre t, g_field false pre t -> reads (fun f => p_field (p_pat f)) pre t (closed [","; ")"])) /\
  (forall pre l, g_fields false pre l -> reads_list (fun f => p_field (p_pat f)) "," [")"] pre l (closed [")"])).
Proof.
  assert (CE : forall e, In e [")"; "]"] -> forall e', In e' [e] -> In e' closing \/ e' = "]") by (intros e I e' [<-|[]]; cbn in *; intuition; subst; auto 10).
  apply pats_ind.
  - intros pre l G R ts us E O. cbn [app] in E. rewrite <- app_assoc in E. apply lead in E as (r & -> & E); try discriminate. destruct (R ")" (or_introl eq_refl) r _ E (in_closed _ _)) as (n & r1 & X & K).
    apply lead in X as (r2 & -> & X); try discriminate. exists (S n), r2. split; [exact X|]. intros f F. two f. change (p_pat (S f) (Sg "(" :: r)) with (bind (p_list f (p_pat f) "," [")"] r) (fun l r => expect ")" (ATup l) r)). rewrite K by lia. reflexivity.
  - intros pre l G R ts us E O. cbn [app] in E. rewrite <- app_assoc in E. apply lead in E as (r & -> & E); try discriminate. destruct (R "]" (or_intror (or_introl eq_refl)) r _ E (in_closed _ _)) as (n & r1 & X & K).
    apply lead in X as (r2 & -> & X); try discriminate. exists (S n), r2. split; [exact X|]. intros f F. two f. change (p_pat (S f) (Sg "[" :: r)) with (bind (p_list f (p_pat f) "," ["]"] r) (fun l r => expect "]" (AArr l) r)). rewrite K by lia. reflexivity.
  - intros pre l G ts us E O. destruct (int_complete _ _ _ _ G E) as (r & X & I & _). exists 1, r. split; [exact X|]. intros f F. two f. cbn [p_pat].
    rewrite (accept_none "(") by (try reflexivity; try discriminate; rewrite E; destruct G; cbn; auto; discriminate).
    rewrite (accept_none "[") by (try reflexivity; try discriminate; rewrite E; destruct G; cbn; auto; discriminate). rewrite I. reflexivity.
  - intros ts us E O. apply lead in E as (r & -> & E); try discriminate. exists 1, r. split; [exact E|]. intros f F. two f. reflexivity.
  - intros ts us E O. apply lead in E as (r & -> & E); try discriminate. exists 1, r. split; [exact E|]. intros f F. two f. reflexivity.
  - intros v ts us E O. apply lead in E as (r & -> & E); try discriminate. exists 1, r. split; [exact E|]. intros f F. two f. reflexivity.
  - intros pre n G ts us E O. cbn [app] in E. apply lead in E as (r & -> & E); try discriminate. destruct (path_complete _ _ _ _ G E) as (r1 & X & K). { eapply stop_sub; [|exact O]. cbn. intuition. }
    exists 1, r1. split; [exact X|]. intros f F. two f. change (p_pat (S f) (Sg "wire" :: r)) with (then_ (APath true) (p_path r)). rewrite K. reflexivity.
  - intros pre s pre' p G GP R ts us E O. rewrite <- app_assoc in E. cbn [app] in E. destruct (pat_of_path' _ _ _ _ G E) as (r & X & K); [cbn; intuition discriminate|]. apply lead in X as (r1 & -> & X); try discriminate.
    destruct (R r1 us X O) as (n & r2 & X2 & K2). exists (S n), r2. split; [exact X2|]. intros f F. two f. rewrite K. unfold rest_of. cbn [snd fst]. change (peek_kind "@" (Sg "@" :: r1)) with true. cbv iota. cbn [tl]. rewrite K2 by lia. reflexivity.
  - intros pre m pre' l G GP R ts us E O. rewrite <- app_assoc in E. cbn [app] in E. rewrite <- app_assoc in E. destruct (pat_of_path' _ _ _ _ G E) as (r & X & K); [cbn; intuition discriminate|]. apply lead in X as (r1 & -> & X); try discriminate.
    destruct (R ")" (or_introl eq_refl) r1 _ X (in_closed _ _)) as (n & r2 & X2 & K2). apply lead in X2 as (r3 & -> & X3); try discriminate. exists (S n), r3. split; [exact X3|]. intros f F. two f. rewrite K. unfold rest_of.
    change (peek_kind "@" (Sg "(" :: r1)) with false. change (accept "(" (Sg "(" :: r1)) with (Some r1). destruct (snd m); rewrite K2 by lia; reflexivity.
  - intros pre m pre' l G GP R ts us E O. rewrite <- app_assoc in E. cbn [app] in E. rewrite <- app_assoc in E. destruct (pat_of_path' _ _ _ _ G E) as (r & X & K); [cbn; intuition discriminate|]. apply lead in X as (r1 & -> & X); try discriminate. apply lead in X as (r4 & -> & X); try discriminate.
    destruct (R r4 _ X (in_closed _ _)) as (n & r2 & X2 & K2). apply lead in X2 as (r3 & -> & X3); try discriminate. exists (S n), r3. split; [exact X3|]. intros f F. two f. rewrite K. unfold rest_of.
    change (peek_kind "@" (Sg "$" :: Sg "(" :: r4)) with false. change (accept "(" (Sg "$" :: Sg "(" :: r4)) with (@None (list tok)). change (accept "$" (Sg "$" :: Sg "(" :: r4)) with (Some (Sg "(" :: r4)). change (expect "(" tt (Sg "(" :: r4)) with (Got tt r4). cbv iota. cbn [bind].
    destruct (snd m); cbv iota; change (expect "(" tt (Sg "(" :: r4)) with (Got tt r4); cbn [bind]; rewrite K2 by lia; reflexivity.
  - intros pre m G ts us E O. destruct (pat_of_path' _ _ _ _ G E) as (r & X & K). { eapply stop_sub; [|exact O]. cbn. intuition. }
    exists 1, r. split; [exact X|]. intros f F. two f. rewrite K. unfold rest_of. assert (N : forall k, In k after_pattern -> match expand r with Sg s :: _ => s <> k | _ => True end). { intros k I. rewrite X. destruct us as [|x us]; auto. destruct x; auto. intros ->. apply O. exact I. }
    rewrite (accept_none "(") by (try reflexivity; try discriminate; apply N; cbn; auto). rewrite (accept_none "$") by (try reflexivity; try discriminate; apply N; cbn; auto). rewrite peek_expand; [|reflexivity|discriminate]. specialize (N "@" ltac:(cbn; auto)). destruct (snd m); [|reflexivity].
    destruct (expand r) as [|x xs]; [reflexivity|]. destruct x; try reflexivity. apply String.eqb_neq in N. rewrite N. reflexivity.
  - intros e I. apply list_nil. intros ts (s & us & E & J). eapply ended_true; [exact E|exact J|now apply CE].
  - intros pre t G R e I. eapply list_one; [| | |exact R].
    + intros ts (s & us & E & J). eapply ended_true; [exact E|exact J|now apply CE].
    + intros ts us E. apply ended_false; [now apply CE|]. apply pat_starts in G as (x & us' & -> & H). rewrite E. cbn [app]. destruct x; auto; cbn in *; intuition; subst; discriminate.
    + intros us Q. eapply closed_stop; [|exact Q]. intros s [<-|[]]. cbn in *. intuition; subst; discriminate.
  - intros pre t pre' l G R G' R' e I. eapply list_more; try reflexivity; try discriminate; [| | |exact R|now apply R'].
    + intros ts us E. apply ended_false; [now apply CE|]. rewrite E. cbn in *. intuition; subst; discriminate.
    + intros ts us E. apply ended_false; [now apply CE|]. apply pat_starts in G as (x & us' & -> & H). rewrite E. cbn [app]. destruct x; auto; cbn in *; intuition; subst; discriminate.
    + intros us. cbn. intuition discriminate.
  - intros s ts us E O. cbn [app] in E. apply lead in E as (r & -> & E); try discriminate. exists 0, r. split; [exact E|]. intros f F. unfold p_field. cbn [identifier bind]. rewrite accept_none; [reflexivity|reflexivity|discriminate|].
    destruct O as (x & y & -> & I). rewrite E. intros ->. cbn in I. intuition discriminate.
  - intros s pre p G R ts us E O. cbn [app] in E. apply lead in E as (r & -> & E); try discriminate. apply lead in E as (r1 & -> & E); try discriminate. destruct (R r1 us E) as (n & r2 & X & K). { eapply closed_stop; [|exact O]. cbn. intros x I. intuition; subst; discriminate. }
    exists n, r2. split; [exact X|]. intros f F. unfold p_field. cbn [identifier bind]. change (accept ":" (Sg ":" :: r1)) with (Some r1). cbv iota. rewrite K by lia. reflexivity.
  - apply list_nil. intros ts (s & us & E & J). eapply ended_true; [exact E|exact J|apply CE; cbn; auto].
  - intros pre t G R. eapply list_one; [| | |exact R].
    + intros ts (s & us & E & J). eapply ended_true; [exact E|exact J|apply CE; cbn; auto].
    + intros ts us E. apply ended_false; [apply CE; cbn; auto|]. apply field_starts in G as (x & us' & ->). rewrite E. exact I.
    + intros us (s & r & -> & I). exists s, r. cbn in *. intuition.
  - intros pre t pre' l G R G' R'. eapply list_more; try reflexivity; try discriminate; [| | |exact R|exact R'].
    + intros ts us E. apply ended_false; [apply CE; cbn; auto|]. rewrite E. cbn. intuition discriminate.
    + intros ts us E. apply ended_false; [apply CE; cbn; auto|]. apply field_starts in G as (x & us' & ->). rewrite E. exact I.
    + intros us. exists ",", us. cbn. auto.
Qed.
