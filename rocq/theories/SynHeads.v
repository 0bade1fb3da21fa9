(** Reading [use] and the heads of units *)
From Coq Require Import NArith ZArith List Bool String Arith Lia.
From Verif Require Import LexModel SynModel SynSpec SynProofs SynTypes SynPats.
Import ListNotations.
Open Scope nat_scope.
Open Scope string_scope.
Open Scope list_scope.

(** * use *)
Definition under (prefix : list string) (l : list (list string * option string)) : list (list string * option string) := map (fun x => (prefix ++ fst x, snd x)) l.
Lemma under_nil l : under [] l = l.
Proof. unfold under. rewrite <- (map_id l) at 2. apply map_ext. intros [a b]. reflexivity. Qed.
Lemma under_one p s l : under (p ++ [s]) l = under p (map (fun x => (s :: fst x, snd x)) l).
Proof. unfold under. rewrite map_map. apply map_ext. intros x. cbn [fst snd]. now rewrite <- app_assoc. Qed.
Lemma sep_uses ts l : sep_by (list (list string * option string)) "," (fun pre l => g_use pre l) ts l -> g_uses ts (List.concat l).
Proof. induction 1; cbn [List.concat]; [constructor|rewrite app_nil_r; now constructor|now constructor]. Qed.
Theorem use_sound : forall f prefix ts l r, p_use f prefix ts = Got l r -> exists pre l0, expand ts = pre ++ expand r /\ g_use pre l0 /\ l = under prefix l0.
Proof.
  induction f as [|f IH]; intros prefix ts l r; [discriminate|]. cbn [p_use].
  assert (SET : match accept "{" ts with Some r => bind (p_list f (p_use f []) "," ["}"] r) (fun l r => expect "}" (map (fun x => (prefix ++ fst x, snd x)) (List.concat l)) r) | None => Err end = Got l r ->
    exists pre l0, expand ts = pre ++ expand r /\ g_use pre l0 /\ l = under prefix l0).
  { destruct (accept "{" ts) as [r1|] eqn:A; [|discriminate]. apply accept_sound in A; [|reflexivity]. intros H. apply bind_got in H as (k & r2 & L & H). apply expect_sound in H as [-> H]; [|reflexivity].
    eapply (list_sound _ _ _ expand) with (P := fun pre l => g_use pre l) in L as [(pre & X & S) _]; [|intros; reflexivity|exact comma_ok|].
    - apply sep_uses in S. exists (Sg "{" :: pre ++ [Sg "}"]), (List.concat k). rewrite A, X, H. cbn [app]. rewrite <- app_assoc. repeat split. now constructor.
    - intros us a r0 Q. apply IH in Q as (pre & l0 & X & G & ->). rewrite under_nil. eauto. }
  destruct ts as [|t ts]; [exact SET|]. destruct t; try exact SET. clear SET. cbn [app].
  destruct (accept "as" ts) as [r1|] eqn:A.
  - apply accept_sound in A; [|reflexivity]. intros H. apply bind_got in H as (a & r2 & I & H). apply identifier_sound in I as (_ & I & _). inversion H; subst. exists [Id s; Sg "as"; Id a], [([s], Some a)]. rewrite expand_cons. cbn [parts app]. rewrite A, I. repeat split. constructor.
  - clear A. destruct (accept "::" ts) as [r1|] eqn:A.
    + apply accept_sound in A; [|reflexivity]. intros H. apply IH in H as (pre & l0 & X & G & ->). exists (Id s :: Sg "::" :: pre), (map (fun x => (s :: fst x, snd x)) l0). rewrite expand_cons. cbn [parts app]. rewrite A, X. repeat split; [now constructor|apply under_one].
    + intros H. inversion H; subst. exists [Id s], [([s], None)]. repeat split. constructor.
Qed.
Theorem use_below : forall f g, f <= g -> forall prefix ts, below (p_use f prefix ts) (p_use g prefix ts).
Proof.
  induction f as [|f IH]; intros g L prefix ts; [now left|]. destruct g as [|g]; [lia|]. assert (L' : f <= g) by lia. specialize (IH g L'). cbn [p_use].
  assert (SET : below (match accept "{" ts with Some r => bind (p_list f (p_use f []) "," ["}"] r) (fun l r => expect "}" (map (fun x => (prefix ++ fst x, snd x)) (List.concat l)) r) | None => Err end)
    (match accept "{" ts with Some r => bind (p_list g (p_use g []) "," ["}"] r) (fun l r => expect "}" (map (fun x => (prefix ++ fst x, snd x)) (List.concat l)) r) | None => Err end)).
  { destruct (accept "{" ts); [|apply below_refl]. apply bind_below; [apply list_below; [apply IH|exact L']|]. intros. apply below_refl. }
  destruct ts as [|t ts]; [exact SET|]. destruct t; try exact SET. destruct (accept "as" ts); [apply below_refl|]. destruct (accept "::" ts); [apply IH|apply below_refl].
Qed.
Theorem use_end : forall f prefix ts, 3 * size ts + 3 <= f -> p_use f prefix ts <> Fuel.
Proof.
  induction f as [|f IH]; intros prefix ts L; [lia|]. cbn [p_use].
  assert (SET : match accept "{" ts with Some r => bind (p_list f (p_use f []) "," ["}"] r) (fun l r => expect "}" (map (fun x => (prefix ++ fst x, snd x)) (List.concat l)) r) | None => Err end <> Fuel).
  { destruct (accept "{" ts) as [r1|] eqn:A; [|discriminate]. apply accept_size in A; [|reflexivity]. apply bind_ends; [|intros; apply expect_ends].
    apply (list_ends _ "," _ expand (fun _ => eq_refl) comma_ok _ (size r1)); fold (size r1); [| |lia|lia].
    - intros us B. apply IH. fold (size us) in B. lia.
    - intros us a r Q. apply use_sound in Q as (pre & l0 & X & _). rewrite X, app_length. lia. }
  destruct ts as [|t ts]; [exact SET|]. destruct t; try exact SET. destruct (accept "as" ts); [apply bind_ends; [apply identifier_ends|discriminate]|]. destruct (accept "::" ts) as [r1|] eqn:A; [|discriminate].
  apply accept_size in A; [|reflexivity]. apply IH. unfold size in *. rewrite expand_cons in L. cbn [parts app List.length] in L. lia.
Qed.
Scheme g_use_m := Minimality for g_use Sort Prop
  with g_uses_m := Minimality for g_uses Sort Prop.
Combined Scheme uses_ind from g_use_m, g_uses_m.
Lemma use_starts pre l : g_use pre l -> exists x us, pre = x :: us /\ (x = Sg "{" \/ exists s, x = Id s).
Proof. destruct 1; eauto 6. Qed.
Lemma ended_brace_true ts us : expand ts = Sg "}" :: us -> ended ["}"] ts = true.
Proof. intros E. eapply ended_true; [exact E|cbn; auto|]. cbn. intuition; subst; auto 10. Qed.
Theorem use_complete :
  (forall pre l, g_use pre l -> forall prefix, reads (fun f => p_use f prefix) pre (under prefix l) (stop after_use)) /\
  (forall pre l, g_uses pre l -> exists k, List.concat k = l /\ reads_list (fun f => p_use f []) "," ["}"] pre k (closed ["}"])).
Proof.
  assert (CE : forall e, In e ["}"] -> In e closing \/ e = "]") by (cbn; intuition; subst; auto 10).
  assert (ENDF : forall pre l, g_use pre l -> forall ts us, expand ts = pre ++ us -> ended ["}"] ts = false).
  { intros pre l G ts us E. apply ended_false; [exact CE|]. apply use_starts in G as (x & us' & -> & [->|(s & ->)]); rewrite E; cbn; auto. intuition discriminate. }
  apply uses_ind.
  - intros s prefix ts us E O. cbn [app] in E. apply lead in E as (r & -> & E); try discriminate. exists 1, r. split; [exact E|]. intros f F. two f. cbn [p_use].
    assert (N : forall k, In k after_use -> match expand r with Sg s :: _ => s <> k | _ => True end). { intros k I. rewrite E. destruct us as [|x us]; auto. destruct x; auto. intros ->. apply O. exact I. }
    rewrite (accept_none "as") by (try reflexivity; try discriminate; apply N; cbn; auto). rewrite (accept_none "::") by (try reflexivity; try discriminate; apply N; cbn; auto). reflexivity.
  - intros s a prefix ts us E O. cbn [app] in E. apply lead in E as (r & -> & E); try discriminate. apply lead in E as (r1 & -> & E); try discriminate. apply lead in E as (r2 & -> & E); try discriminate. exists 1, r2. split; [exact E|]. intros f F. two f. reflexivity.
  - intros s pre l G R prefix ts us E O. cbn [app] in E. apply lead in E as (r & -> & E); try discriminate. apply lead in E as (r1 & -> & E); try discriminate. destruct (R (prefix ++ [s]) r1 us E O) as (n & r2 & X & K). exists (S n), r2. split; [exact X|]. intros f F. two f.
    change (p_use (S f) prefix (Id s :: Sg "::" :: r1)) with (p_use f (prefix ++ [s]) r1). rewrite K by lia. now rewrite under_one.
  - intros pre l G (k & <- & R) prefix ts us E O. cbn [app] in E. rewrite <- app_assoc in E. apply lead in E as (r & -> & E); try discriminate. destruct (R r _ E (in_closed _ _)) as (n & r1 & X & K). apply lead in X as (r2 & -> & X); try discriminate. exists (S n), r2. split; [exact X|]. intros f F. two f.
    change (p_use (S f) prefix (Sg "{" :: r)) with (bind (p_list f (p_use f []) "," ["}"] r) (fun l r => expect "}" (under prefix (List.concat l)) r)). rewrite K by lia. reflexivity.
  - exists []. split; [reflexivity|]. apply list_nil. intros ts (s & us & E & [<-|[]]). eapply ended_brace_true; eauto.
  - intros pre l G R. exists [l]. split; [apply app_nil_r|]. specialize (R []). rewrite under_nil in R. eapply list_one; [| | |exact R].
    + intros ts (s & us & E & [<-|[]]). eapply ended_brace_true; eauto.
    + eauto.
    + intros us Q. eapply closed_stop; [|exact Q]. intros s [<-|[]]. cbn. intuition discriminate.
  - intros pre l pre' l' G R G' (k & <- & R'). exists (l :: k). split; [reflexivity|]. specialize (R []). rewrite under_nil in R. eapply list_more; try reflexivity; try discriminate; [| | |exact R|exact R'].
    + intros ts us E. apply ended_false; [exact CE|]. rewrite E. cbn. intuition discriminate.
    + eauto.
    + intros us. cbn. intuition discriminate.
Qed.

(** * Inputs *)
Lemma attributes_sound ts : ts = map Attr (fst (attributes ts)) ++ snd (attributes ts) /\ expand ts = map Attr (fst (attributes ts)) ++ expand (snd (attributes ts)).
Proof. induction ts as [|t ts [IH1 IH2]]; [split; reflexivity|]. destruct t; try (split; reflexivity). cbn [attributes fst snd map app]. rewrite expand_cons. cbn [parts app]. split; f_equal; assumption. Qed.
Lemma attributes_complete l : forall ts us, expand ts = map Attr l ++ us -> match us with Attr _ :: _ => False | _ => True end -> exists r, attributes ts = (l, r) /\ expand r = us.
Proof.
  induction l as [|a l IH]; intros ts us E N.
  - exists ts. split; [|exact E]. cbn [map app] in E. destruct ts as [|t ts]; [reflexivity|]. destruct t; try reflexivity. rewrite expand_cons in E. cbn in E. subst us. contradiction.
  - cbn [map app] in E. apply lead in E as (r & -> & E); try discriminate. destruct (IH r us E N) as (r1 & A & X). exists r1. split; [|exact X]. cbn [attributes]. rewrite A. reflexivity.
Qed.
Lemma wire_sound ts : expand ts = if_ (fst (wire_ ts)) "wire" ++ expand (snd (wire_ ts)).
Proof. unfold wire_. destruct (accept "wire" ts) eqn:A; [|reflexivity]. apply accept_sound in A; [exact A|reflexivity]. Qed.
Lemma flag_sound k ts : simple k = true -> expand ts = if_ (fst (flag k ts)) k ++ expand (snd (flag k ts)).
Proof. intros S. unfold flag. destruct (accept k ts) eqn:A; [|reflexivity]. apply accept_sound in A; [exact A|exact S]. Qed.
Lemma wire_flag ts : wire_ ts = flag "wire" ts. Proof. reflexivity. Qed.
Lemma flag_complete k b ts us : simple k = true -> k <> "&" -> k <> ">" -> expand ts = if_ b k ++ us -> match us with Sg s :: _ => s <> k | _ => True end -> exists r, flag k ts = (b, r) /\ expand r = us.
Proof.
  intros S A G E N. unfold flag. destruct b; cbn [if_ app] in E.
  - apply accept_complete in E as (r & -> & E); auto. exists r. auto.
  - exists ts. rewrite accept_none; auto. rewrite E. exact N.
Qed.
Lemma input_sound f b ts i r : p_input f b ts = Got i r -> exists pre, expand ts = pre ++ expand r /\ g_input true b pre i.
Proof.
  unfold p_input. cbv zeta. intros H. apply bind_got in H as (s & r1 & I & H). apply identifier_sound in I as (_ & I & _). apply bind_got in H as (x & r2 & C & H). apply expect_sound in C as [_ C]; [|reflexivity]. apply then_got in H as (t & H & ->).
  apply (types_sound f r2 r) in H as (pre & X & G). eexists. split; [|apply N_input; exact G]. rewrite (proj2 (attributes_sound ts)) at 1. rewrite (wire_sound (snd (attributes ts))) at 1. rewrite I, C, X, <- !app_assoc. reflexivity.
Qed.
Lemma sep_inputs b ts l : sep_by input "," (g_input true b) ts l -> g_ilist true b ts l.
Proof. induction 1; econstructor; eauto. Qed.
Lemma ilist_sound f g b ends ts l r : p_list g (p_input f b) "," ends ts = Got l r -> exists pre, expand ts = pre ++ expand r /\ g_ilist true b pre l.
Proof. intros L. eapply (list_sound _ _ _ expand) in L as [(pre & X & S) _]; [|intros; reflexivity|exact comma_ok|apply input_sound]. apply sep_inputs in S. eauto. Qed.
Theorem inputs_sound f b ts i r : p_inputs f b ts = Got i r -> exists pre, expand ts = pre ++ expand r /\ g_inputs true b pre i.
Proof.
  unfold p_inputs. cbv zeta. pose proof (proj2 (attributes_sound ts)) as EA. pose proof (wire_sound (snd (attributes ts))) as EW. set (a := attributes ts) in *. set (w := wire_ (snd a)) in *. clearbody a w.
  destruct (accept "&" (snd w)) as [r1|] eqn:A.
  - apply accept_sound in A; [|reflexivity]. destruct r1 as [|t r1]; [discriminate|]. destruct t; try discriminate. destruct (String.eqb_spec s "self") as [->|N]; [|discriminate]. cbn [tl]. intros H. apply then_got in H as (l & L & ->).
    destruct (accept "," r1) as [r2|] eqn:C; apply ilist_sound in L as (pre & X & G).
    + apply accept_sound in C; [|reflexivity]. eexists. split; [|apply (NI_more _ _ (fst a) (fst w) true); exact G]. unfold self_. rewrite EA, EW, A, expand_cons. cbn [parts app]. rewrite C, X. cbn [if_ app]. rewrite <- !app_assoc. reflexivity.
    + eexists. split; [|apply (NI_tight _ _ (fst a) (fst w) true); [reflexivity|exact G]]. unfold self_. rewrite EA, EW, A, expand_cons. cbn [parts app]. rewrite X. cbn [if_ app]. rewrite <- !app_assoc. reflexivity.
  - destruct (match snd w with Id s :: _ => s =? "self" | _ => false end) eqn:HERE.
    + destruct (snd w) as [|t r1] eqn:SW; [discriminate|]. destruct t; try discriminate. apply String.eqb_eq in HERE as ->. cbn [tl]. intros H. apply then_got in H as (l & L & ->).
      destruct (accept "," r1) as [r2|] eqn:C; apply ilist_sound in L as (pre & X & G).
      * apply accept_sound in C; [|reflexivity]. eexists. split; [|apply (NI_more _ _ (fst a) (fst w) false); exact G]. unfold self_. rewrite EA, EW, expand_cons. cbn [parts app]. rewrite C, X. cbn [if_ app]. rewrite <- !app_assoc. reflexivity.
      * eexists. split; [|apply (NI_tight _ _ (fst a) (fst w) false); [reflexivity|exact G]]. unfold self_. rewrite EA, EW, expand_cons. cbn [parts app]. rewrite X. cbn [if_ app]. rewrite <- !app_assoc. reflexivity.
    + intros H. apply bind_got in H as (l & r1 & L & H). apply ilist_sound in L as (pre & X & G). destruct l as [|j l].
      * destruct (fst a) eqn:FA; [|discriminate]. destruct (fst w) eqn:FW; [discriminate|]. inversion H; subst. exists pre. split; [|now constructor]. rewrite EA, EW. exact X.
      * inversion H; subst. clear H.
        destruct (fst a) eqn:FA, (fst w) eqn:FW; (eexists; split; [rewrite EA, EW, X, !app_assoc; reflexivity|]);
          match goal with |- g_inputs _ _ _ {| in_self := None; in_args := ?i :: _ |} => idtac end;
          [pose proof (NI_twice true b [] true pre j l eq_refl G) as Q|pose proof (NI_twice true b [] false pre j l eq_refl G) as Q|pose proof (NI_twice true b (n :: l0) true pre j l eq_refl G) as Q|pose proof (NI_twice true b (n :: l0) false pre j l eq_refl G) as Q];
          cbn [map if_ app orb] in Q |- *; rewrite ?app_nil_r, <- ?app_assoc; cbn [app]; try exact Q; destruct j; exact Q.
Qed.
Lemma attributes_size ts : size (snd (attributes ts)) <= size ts.
Proof. unfold size. rewrite (proj2 (attributes_sound ts)). rewrite app_length. lia. Qed.
Lemma flag_size k ts : simple k = true -> size (snd (flag k ts)) <= size ts.
Proof. intros S. unfold size. rewrite (flag_sound k ts S). rewrite app_length. lia. Qed.
Lemma spec_ends f b ts : 3 * size ts + 2 <= f -> p_spec f b ts <> Fuel.
Proof. apply (types_end f ts). Qed.
Lemma input_below f g b ts : f <= g -> below (p_input f b ts) (p_input g b ts).
Proof. intros L. unfold p_input. cbv zeta. apply bind_below; [apply below_refl|]. intros. apply bind_below; [apply below_refl|]. intros. now apply then_below, types_below. Qed.
Lemma input_ends f b ts : 3 * size ts + 3 <= f -> p_input f b ts <> Fuel.
Proof.
  intros L. unfold p_input. cbv zeta. rewrite wire_flag. pose proof (attributes_size ts). pose proof (flag_size "wire" (snd (attributes ts)) eq_refl). apply bind_ends; [apply identifier_ends|]. intros s r E. apply identifier_sound in E as (_ & _ & E).
  apply bind_ends; [apply expect_ends|]. intros x r1 E1. apply expect_size in E1; [|reflexivity]. apply then_ends, spec_ends. lia.
Qed.
Lemma ilist_ends f b ends ts : 3 * size ts + 3 <= f -> p_list f (p_input f b) "," ends ts <> Fuel.
Proof.
  intros L. apply (list_ends _ "," _ expand (fun _ => eq_refl) comma_ok _ (size ts)); fold (size ts); [| |lia|lia].
  - intros us B. apply input_ends. fold (size us) in B. lia.
  - intros us a r Q. apply input_sound, sound_size in Q. exact Q.
Qed.
Theorem inputs_below f g b ts : f <= g -> below (p_inputs f b ts) (p_inputs g b ts).
Proof.
  intros L. unfold p_inputs. cbv zeta. assert (B : forall ts, below (p_list f (p_input f b) "," [")"] ts) (p_list g (p_input g b) "," [")"] ts)) by (intros; apply list_below; [intros; now apply input_below|exact L]).
  match goal with |- below (if ?c then _ else _) _ => destruct c end; [apply then_below, B|]. destruct (accept "&" (snd (wire_ (snd (attributes ts))))); [apply below_refl|]. apply bind_below; [apply B|]. intros. apply below_refl.
Qed.
Theorem inputs_end f b ts : 3 * size ts + 3 <= f -> p_inputs f b ts <> Fuel.
Proof.
  intros L. unfold p_inputs. cbv zeta. rewrite wire_flag. pose proof (attributes_size ts). pose proof (flag_size "wire" (snd (attributes ts)) eq_refl). set (w := flag "wire" (snd (attributes ts))) in *. clearbody w.
  destruct (accept "&" (snd w)) as [r|] eqn:A.
  - apply accept_size in A; [|reflexivity]. destruct r as [|t r]; [discriminate|]. destruct t; try discriminate. destruct (s =? "self"); [|discriminate]. cbn [tl]. apply then_ends.
    assert (size (Id s :: r) = S (size r)) by reflexivity. destruct (accept "," r) as [r1|] eqn:C; [apply accept_size in C; [|reflexivity]|]; apply ilist_ends; lia.
  - destruct (match snd w with Id s :: _ => s =? "self" | _ => false end) eqn:HERE.
    + destruct (snd w) as [|t r]; [discriminate|]. destruct t; try discriminate. cbn [tl]. apply then_ends. assert (size (Id s :: r) = S (size r)) by reflexivity. destruct (accept "," r) as [r1|] eqn:C; [apply accept_size in C; [|reflexivity]|]; apply ilist_ends; lia.
    + apply bind_ends; [apply ilist_ends; lia|]. intros l r _. destruct l; [|discriminate]. destruct (match fst (attributes ts) with [] => fst w | _ => true end); discriminate.
Qed.
Lemma input_complete b pre i : g_input false b pre i -> reads (fun f => p_input f b) pre i (closed [","; ")"]).
Proof.
  intros G ts us E O. destruct G as [l w s pre t G]. rewrite <- !app_assoc in E. cbn [app] in E.
  destruct (attributes_complete l ts _ E) as (r1 & A1 & X1); [destruct w; exact I|]. destruct (flag_complete "wire" w r1 _ eq_refl ltac:(discriminate) ltac:(discriminate) X1) as (r2 & A2 & X2); [exact I|].
  apply lead in X2 as (r3 & -> & X3); try discriminate. apply lead in X3 as (r4 & -> & X4); try discriminate. destruct types_complete as (_ & TC & _). destruct (TC _ _ _ G r4 us X4) as (n & r5 & X5 & K).
  { split; [eapply closed_stop; [|exact O]; cbn; intros x J; intuition; subst; discriminate|]. intros _. destruct O as (x & y & -> & J). exists x, y. split; [reflexivity|]. cbn in *. intuition. }
  exists n, r5. split; [exact X5|]. intros f F. unfold p_input. cbv zeta. rewrite A1. cbn [fst snd]. rewrite wire_flag, A2. cbn [fst snd identifier bind]. change (expect ":" tt (Sg ":" :: r4)) with (Got tt r4). cbn [bind]. rewrite K by lia. reflexivity.
Qed.
Lemma input_starts b pre i ts us : g_input false b pre i -> expand ts = pre ++ us -> ended [")"] ts = false.
Proof.
  intros G E. apply ended_false; [cbn; intuition; subst; auto 10|]. rewrite E. destruct G as [l w s pre t G]. destruct l; [|exact I]. destruct w; cbn; auto. intuition discriminate.
Qed.
Lemma ilist_complete b pre l : g_ilist false b pre l -> reads_list (fun f => p_input f b) "," [")"] pre l (closed [")"]).
Proof.
  assert (C : forall e, In e [")"] -> In e closing \/ e = "]") by (cbn; intuition; subst; auto 10).
  induction 1 as [|pre t G|pre t pre' l G GL IH].
  - apply list_nil. intros ts (s & us & E & I). eapply ended_true; eauto.
  - eapply list_one; [| | |now apply input_complete].
    + intros ts (s & us & E & I). eapply ended_true; eauto.
    + intros. eapply input_starts; eauto.
    + intros us (s & r & -> & I). exists s, r. cbn in *. intuition.
  - eapply list_more; try reflexivity; try discriminate; [| | |now apply input_complete|exact IH].
    + intros ts us E. apply ended_false; [exact C|]. rewrite E. cbn. intuition discriminate.
    + intros. eapply input_starts; eauto.
    + intros us. exists ",", us. cbn. auto.
Qed.
Definition bare (i : input) : input := {| i_attrs := []; i_wire := false; i_name := i_name i; i_type := i_type i |}.
Lemma ilist_strip b pre i k : g_ilist false b pre (i :: k) -> exists rest, pre = map Attr (i_attrs i) ++ if_ (i_wire i) "wire" ++ Id (i_name i) :: rest /\ g_ilist false b (Id (i_name i) :: rest) (bare i :: k).
Proof.
  intros H. inversion H as [|ts t G|ts t us l G GL]; subst; destruct G as [l0 w s ts t G]; cbn [i_attrs i_wire i_name i_type bare].
  - eexists. split; [reflexivity|]. apply IL_one. exact (N_input false b [] false s ts t G).
  - eexists (Sg ":" :: ts ++ Sg "," :: us). split; [rewrite <- !app_assoc; reflexivity|]. apply (IL_more false b (Id s :: Sg ":" :: ts)); [exact (N_input false b [] false s ts t G)|exact GL].
Qed.
Lemma self_complete l w (a : bool) rest ts us : expand ts = self_ l w a ++ rest ++ us -> exists r1 r2, attributes ts = (l, r1) /\ wire_ r1 = (w, r2) /\
  exists r, expand r = rest ++ us /\ (if a then r2 = Sg "&" :: Id "self" :: r else r2 = Id "self" :: r).
Proof.
  unfold self_. rewrite <- !app_assoc. intros E. destruct (attributes_complete l ts _ E) as (r1 & A1 & X1); [destruct w, a; exact I|]. destruct (flag_complete "wire" w r1 _ eq_refl ltac:(discriminate) ltac:(discriminate) X1) as (r2 & A2 & X2); [destruct a; cbn; auto; discriminate|].
  exists r1, r2. split; [exact A1|]. split; [exact A2|]. destruct a; cbn [if_ app] in X2.
  - apply lead_amp in X2 as [(r & -> & X)|(r & _ & X)]; [|discriminate]. apply lead in X as (r3 & -> & X); try discriminate. eauto.
  - apply lead in X2 as (r & -> & X); try discriminate. eauto.
Qed.
Lemma self_step f b l w (a : bool) r1 r2 ts r : attributes ts = (l, r1) -> wire_ r1 = (w, r2) -> (if a then r2 = Sg "&" :: Id "self" :: r else r2 = Id "self" :: r) ->
  p_inputs f b ts = then_ (fun k => {| in_self := Some (l, w, a); in_args := k |}) (p_list f (p_input f b) "," [")"] (match accept "," r with Some r => r | None => r end)).
Proof. intros A W R. unfold p_inputs. cbv zeta. rewrite A. cbn [fst snd]. rewrite W. cbn [fst snd]. destruct a; subst r2; reflexivity. Qed.
Theorem inputs_complete b pre i : g_inputs false b pre i -> reads (fun f => p_inputs f b) pre i (closed [")"]).
Proof.
  intros G ts us E O. destruct G as [pre l GL NS|l w a|l w a pre k GL|l w a pre k BAD GL|l w pre i k BAD GL]; try discriminate.
  - destruct l as [|i k].
    + assert (pre = []) by (inversion GL; reflexivity). subst pre. destruct O as (s & r & -> & [<-|[]]). cbn [app] in E. apply lead in E as (r1 & -> & E); try discriminate. exists 1, (Sg ")" :: r1). split; [rewrite expand_cons, E; reflexivity|]. intros f F. two f. reflexivity.
    + apply ilist_strip in GL as (rest & -> & GL). rewrite <- !app_assoc in E. cbn [app] in E. destruct (attributes_complete _ ts _ E) as (r1 & A1 & X1); [destruct (i_wire i); exact I|].
      destruct (flag_complete "wire" _ r1 _ eq_refl ltac:(discriminate) ltac:(discriminate) X1) as (r2 & A2 & X2); [exact I|]. destruct (ilist_complete _ _ _ GL r2 us X2 O) as (n & r3 & X3 & K). apply lead in X2 as (r4 & -> & X4); try discriminate.
      exists n, r3. split; [exact X3|]. intros f F. unfold p_inputs. cbv zeta. rewrite A1. cbn [fst snd]. rewrite wire_flag, A2. cbn [fst snd]. change (accept "&" (Id (i_name i) :: r4)) with (@None (list tok)). cbv iota.
      apply String.eqb_neq in NS. rewrite NS. rewrite K by lia. cbn [bind]. destruct i as [ia iw iname it]; cbn [i_attrs i_wire i_name i_type bare]. destruct ia, iw; reflexivity.
  - rewrite <- (app_nil_l us) in E. apply self_complete in E as (r1 & r2 & A & W & r & X & R). cbn [app] in X. destruct O as (s & us' & -> & [<-|[]]). apply lead in X as (r3 & -> & X); try discriminate. exists 1, (Sg ")" :: r3). split; [rewrite expand_cons, X; reflexivity|].
    intros f F. two f. rewrite (self_step _ _ _ _ _ _ _ _ _ A W R). reflexivity.
  - rewrite <- app_assoc in E. apply self_complete in E as (r1 & r2 & A & W & r & X & R). cbn [app] in X. apply lead in X as (r3 & -> & X); try discriminate. destruct (ilist_complete _ _ _ GL r3 us X O) as (n & r4 & X4 & K). exists n, r4. split; [exact X4|].
    intros f F. rewrite (self_step _ _ _ _ _ _ _ _ _ A W R). change (accept "," (Sg "," :: r3)) with (Some r3). cbv iota. rewrite K by lia. reflexivity.
Qed.

(** * Heads of units *)
Lemma kind_sound f ts k r : p_kind f ts = Got k r -> exists pre, expand ts = pre ++ expand r /\ g_kind true pre k.
Proof.
  unfold p_kind. destruct (accept "pipeline" ts) as [r1|] eqn:A.
  - apply accept_sound in A; [|reflexivity]. intros H. apply bind_got in H as (x & r2 & P & H). apply expect_sound in P as [_ P]; [|reflexivity]. apply bind_got in H as (d & r3 & D & H). apply texp_sound in D as (pre & X & G). apply expect_sound in H as [-> H]; [|reflexivity].
    exists (Sg "pipeline" :: Sg "(" :: pre ++ [Sg ")"]). rewrite A, P, X, H. cbn [app]. rewrite <- app_assoc. split; [reflexivity|now constructor].
  - clear A. destruct (accept "fn" ts) as [r1|] eqn:A; [|clear A; destruct (accept "entity" ts) as [r1|] eqn:A; [|discriminate]]; apply accept_sound in A; try reflexivity; intros H; inversion H; subst; eexists; (split; [|constructor]); exact A.
Qed.
Definition p_out (f : nat) (ts : list tok) : res (option ty) := match accept "->" ts with Some r => then_ Some (p_spec f false r) | None => Got None ts end.
Lemma out_sound f ts o r : p_out f ts = Got o r -> exists pre, expand ts = pre ++ expand r /\ g_output true pre o.
Proof.
  unfold p_out. destruct (accept "->" ts) as [r1|] eqn:A.
  - apply accept_sound in A; [|reflexivity]. intros H. apply then_got in H as (t & H & ->). apply (types_sound f r1 r) in H as (pre & X & G). exists (Sg "->" :: pre). rewrite A, X. split; [reflexivity|now constructor].
  - intros H. inversion H; subst. exists []. split; [reflexivity|constructor].
Qed.
Theorem head_sound f ts h r : p_head f ts = Got h r -> exists pre, expand ts = pre ++ expand r /\ g_head true pre h.
Proof.
  unfold p_head. cbv zeta. intros H. apply bind_got in H as (k & r1 & K & H). apply kind_sound in K as (ks & XK & GK). apply bind_got in H as (s & r2 & I & H). apply identifier_sound in I as (_ & I & _). apply bind_got in H as (p & r3 & P & H). apply params_sound in P as (ps & XP & GP).
  apply bind_got in H as (x & r4 & E4 & H). apply expect_sound in E4 as [_ E4]; [|reflexivity]. apply bind_got in H as (i & r5 & N & H). apply inputs_sound in N as (is & XI & GI). apply bind_got in H as (y & r6 & E6 & H). apply expect_sound in E6 as [_ E6]; [|reflexivity].
  apply bind_got in H as (o & r7 & O & H). apply (out_sound f) in O as (os & XO & GO). inversion H; subst.
  eexists. split; [|apply G_head; [exact GK|exact GP|exact GI|exact GO]]. rewrite (flag_sound "unsafe" ts eq_refl) at 1. rewrite (flag_sound "extern" (snd (flag "unsafe" ts)) eq_refl) at 1. rewrite XK, I, XP, E4, XI, E6, XO.
  rewrite <- !app_assoc. cbn [app]. rewrite <- !app_assoc. cbn [app]. rewrite <- !app_assoc. cbn [app]. reflexivity.
Qed.
Theorem head_below f g ts : f <= g -> below (p_head f ts) (p_head g ts).
Proof.
  intros L. unfold p_head. cbv zeta. apply bind_below.
  { unfold p_kind. destruct (accept "pipeline" _); [|apply below_refl]. apply bind_below; [apply below_refl|]. intros. apply bind_below; [now apply types_below|]. intros. apply below_refl. }
  intros k r. apply bind_below; [apply below_refl|]. intros s r1. apply bind_below; [now apply params_below|]. intros p r2. apply bind_below; [apply below_refl|]. intros x r3. apply bind_below; [now apply inputs_below|]. intros i r4. apply bind_below; [apply below_refl|].
  intros y r5. apply bind_below; [|intros; apply below_refl]. destruct (accept "->" r5); [|apply below_refl]. now apply then_below, types_below.
Qed.
Theorem head_end f ts : 3 * size ts + 3 <= f -> p_head f ts <> Fuel.
Proof.
  intros L. unfold p_head. cbv zeta. pose proof (flag_size "unsafe" ts eq_refl). pose proof (flag_size "extern" (snd (flag "unsafe" ts)) eq_refl). set (us := snd (flag "extern" (snd (flag "unsafe" ts)))) in *. clearbody us. apply bind_ends.
  { unfold p_kind. destruct (accept "pipeline" us) eqn:A; [|destruct (accept "fn" us); [discriminate|]; destruct (accept "entity" us); discriminate]. apply accept_size in A; [|reflexivity]. apply bind_ends; [apply expect_ends|]. intros x r E. apply expect_size in E; [|reflexivity].
    apply bind_ends; [apply texp_ends; lia|]. intros. apply expect_ends. }
  intros k r E. apply kind_sound, sound_size in E. apply bind_ends; [apply identifier_ends|]. intros s r1 E1. apply identifier_sound in E1 as (_ & _ & E1). apply bind_ends; [apply params_end; lia|]. intros p r2 E2. apply params_sound, sound_size in E2.
  apply bind_ends; [apply expect_ends|]. intros x r3 E3. apply expect_size in E3; [|reflexivity]. apply bind_ends; [apply inputs_end; lia|]. intros i r4 E4. apply inputs_sound, sound_size in E4. apply bind_ends; [apply expect_ends|]. intros y r5 E5. apply expect_size in E5; [|reflexivity].
  apply bind_ends; [|discriminate]. destruct (accept "->" r5) eqn:A; [|discriminate]. apply accept_size in A; [|reflexivity]. apply then_ends, spec_ends. lia.
Qed.
Lemma kind_complete pre k : g_kind false pre k -> reads p_kind pre k (fun _ => True).
Proof.
  intros G ts us E _. destruct G as [| |pre d G]; cbn [app] in E; apply lead in E as (r & -> & E); try discriminate.
  - exists 0, r. split; [exact E|reflexivity].
  - exists 0, r. split; [exact E|reflexivity].
  - apply lead in E as (r1 & -> & E); try discriminate. rewrite <- app_assoc in E. destruct types_complete as (TC & _). destruct (TC _ _ G r1 _ E) as (n & r2 & X & K); [cbn; intuition discriminate|]. apply lead in X as (r3 & -> & X); try discriminate.
    exists n, r3. split; [exact X|]. intros f F. unfold p_kind. change (accept "pipeline" (Sg "pipeline" :: Sg "(" :: r1)) with (Some (Sg "(" :: r1)). cbv iota. change (expect "(" tt (Sg "(" :: r1)) with (Got tt r1). cbn [bind]. rewrite K by lia. reflexivity.
Qed.
Lemma out_complete pre o : g_output false pre o -> reads p_out pre o (stop after_head).
Proof.
  intros G ts us E O. destruct G as [|pre t G].
  - exists 0, ts. split; [exact E|]. intros f _. unfold p_out. rewrite accept_none; [reflexivity|reflexivity|discriminate|]. cbn [app] in E. rewrite E. destruct us as [|x us]; auto. destruct x; auto. intros ->. apply O. cbn. auto.
  - cbn [app] in E. apply lead in E as (r & -> & E); try discriminate. destruct types_complete as (_ & TC & _). destruct (TC _ _ _ G r us E) as (n & r1 & X & K); [split; [|discriminate]; eapply stop_sub; [|exact O]; cbn; intuition|].
    exists n, r1. split; [exact X|]. intros f F. unfold p_out. change (accept "->" (Sg "->" :: r)) with (Some r). cbv iota. rewrite K by lia. reflexivity.
Qed.
Theorem head_complete pre h : g_head false pre h -> reads p_head pre h (stop after_head).
Proof.
  intros G ts us E O. destruct G as [u e ks k s ps p is i os o GK GP GI GO].
  rewrite <- !app_assoc in E. cbn [app] in E. rewrite <- !app_assoc in E. cbn [app] in E. rewrite <- !app_assoc in E. cbn [app] in E.
  destruct (flag_complete "unsafe" u ts _ eq_refl ltac:(discriminate) ltac:(discriminate) E) as (r1 & A1 & X1); [destruct e; [discriminate|]; destruct GK; discriminate|].
  destruct (flag_complete "extern" e r1 _ eq_refl ltac:(discriminate) ltac:(discriminate) X1) as (r2 & A2 & X2); [destruct GK; discriminate|].
  destruct (kind_complete _ _ GK r2 _ X2 I) as (n3 & r3 & X3 & K3). apply lead in X3 as (r4 & -> & X4); try discriminate. destruct (params_complete _ _ GP r4 _ X4) as (n5 & r5 & X5 & K5); [cbn; intuition discriminate|].
  apply lead in X5 as (r6 & -> & X6); try discriminate. destruct (inputs_complete _ _ _ GI r6 _ X6 (in_closed _ _)) as (n7 & r7 & X7 & K7). apply lead in X7 as (r8 & -> & X8); try discriminate. destruct (out_complete _ _ GO r8 us X8 O) as (n9 & r9 & X9 & K9).
  exists (n3 + n5 + n7 + n9), r9. split; [exact X9|]. intros f F. unfold p_head. cbv zeta. rewrite A1. cbn [fst snd]. rewrite A2. cbn [fst snd]. rewrite K3 by lia. cbn [bind identifier]. rewrite K5 by lia. cbn [bind].
  change (expect "(" tt (Sg "(" :: r6)) with (Got tt r6). cbn [bind]. rewrite K7 by lia. cbn [bind]. change (expect ")" tt (Sg ")" :: r8)) with (Got tt r8). cbn [bind]. specialize (K9 f ltac:(lia)). unfold p_out in K9. rewrite K9. reflexivity.
Qed.
