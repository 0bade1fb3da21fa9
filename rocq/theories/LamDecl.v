(** Names declared ahead are defined exactly once, in their block. *)
From Coq Require Import ZArith List Bool String Arith Lia Permutation.
From Verif Require Import LamModel LamSpec LamProofs.
Import ListNotations.
Open Scope nat_scope.

Definition dtable (t : table) : list (list (string * option nat)) := map decls (scopes t).

Lemma lookup_decls x l : forall id k l', lookup x l = Some (id, k, l') -> map decls l' = map decls l.
Proof.
  induction l as [|s l IH]; cbn [lookup]; intros id k l' H; [discriminate|]. destruct (assoc x (vars s)) as [[i j]|]; [inversion H; reflexivity|].
  destruct (lookup x l) as [[[i j] l0]|] eqn:L; [|discriminate]. inversion H; subst. cbn [map]. rewrite (IH _ _ _ eq_refl). f_equal.
  unfold noted. destruct (barrier s); [|reflexivity]. destruct k; try reflexivity. destruct (existsb _ l1); reflexivity.
Qed.

(** What is open in a list of declarations. *)
Definition open (D : list (string * option nat)) (n : nat) (L : list (string * nat)) : Prop :=
  NoDup (map fst L) /\ NoDup (map snd L) /\ (forall x id, assoc x D = Some (Some id) <-> In (x, id) L) /\ (forall x id, In (x, id) L -> id < n).
Definition hd_decls (t : table) : list (string * option nat) := match dtable t with D :: _ => D | [] => [] end.

Lemma open_nil n : open [] n [].
Proof. split; [constructor|]. split; [constructor|]. split; [intros x id; split; [discriminate|intros []]|intros x id []]. Qed.
Lemma open_le D n m L : open D n L -> n <= m -> open D m L.
Proof. intros (A & B & C & E) H. split; [exact A|]. split; [exact B|]. split; [exact C|]. intros x id K. specialize (E x id K). lia. Qed.

(** [t] to [t'] with declarations [ds] made and [es] defined in the innermost scope *)
Definition dstep (t t' : table) (ds es : list nat) : Prop :=
  next t <= next t' /\ tl (dtable t') = tl (dtable t) /\ (dtable t = [] -> dtable t' = []) /\ NoDup ds /\ (forall i, In i ds -> next t <= i < next t') /\
  forall L, open (hd_decls t) (next t) L -> exists L', open (hd_decls t') (next t') L' /\ Permutation (ds ++ map snd L) (es ++ map snd L').
Lemma dstep_same t t' : next t <= next t' -> dtable t' = dtable t -> dstep t t' [] [].
Proof.
  intros H E. split; [exact H|]. split; [now rewrite E|]. split; [now rewrite E|]. split; [constructor|]. split; [intros i []|].
  intros L O. exists L. split; [|reflexivity]. unfold hd_decls in *. rewrite E. eapply open_le; eauto.
Qed.
Lemma dstep_trans a b c d1 e1 d2 e2 : dstep a b d1 e1 -> dstep b c d2 e2 -> dstep a c (d1 ++ d2) (e1 ++ e2).
Proof.
  intros (A1 & A2 & A3 & A4 & A5 & A6) (B1 & B2 & B3 & B4 & B5 & B6). split; [lia|]. split; [congruence|]. split; [auto|]. split; [|split].
  - apply NoDup_app_intro; auto. intros x K1 K2. specialize (A5 x K1). specialize (B5 x K2). lia.
  - intros i K. apply in_app_iff in K as [K|K]; [specialize (A5 i K)|specialize (B5 i K)]; lia.
  - intros L O. destruct (A6 L O) as (L1 & O1 & P1). destruct (B6 L1 O1) as (L2 & O2 & P2). exists L2. split; [exact O2|].
    rewrite <- !app_assoc. rewrite <- P2. rewrite (Permutation_app_swap_app d1 d2), (Permutation_app_swap_app e1 d2). now apply Permutation_app_head.
Qed.

Lemma add_thing_step x k t : dstep t (snd (add_thing x k t)) [] [].
Proof. unfold add_thing. destruct (scopes t) as [|s l] eqn:E; cbn [snd]; apply dstep_same; cbn; try lia; unfold dtable; cbn [scopes]; now rewrite ?E. Qed.

Lemma declare_step x t id t' : add_declaration x t = Some (id, t') -> dstep t t' [id] [].
Proof.
  intros H. unfold add_declaration in H.
  assert (X : exists t1, next t1 = next t /\ dtable t1 = dtable t /\
    match scopes t1 with
    | s :: _ => if existsb (fun d => String.eqb x (fst d)) (decls s) then None
                else let (id, t) := add_thing x IsVar t1 in
                     match scopes t with
                     | s :: l => Some (id, with_scopes t ({| vars := vars s; decls := (x, Some id) :: decls s; barrier := barrier s |} :: l))
                     | [] => None end
    | [] => None end = Some (id, t')).
  { destruct (lookup x (scopes t)) as [[[i k] l']|] eqn:L; [|exists t; auto]. exists (with_scopes t l'). split; [reflexivity|].
    split; [exact (lookup_decls _ _ _ _ _ L)|]. destruct k; cbn [orb] in H; try exact H. cbn [with_scopes scopes] in *. destruct l'; discriminate. }
  clear H. destruct X as (t1 & N & E & H). destruct (scopes t1) as [|s r] eqn:ES; [discriminate|].
  destruct (existsb (fun d => String.eqb x (fst d)) (decls s)) eqn:D; [discriminate|]. unfold add_thing in H. rewrite ES in H. cbn [scopes with_scopes vars decls barrier next] in H.
  inversion H; subst. clear H. assert (E' : dtable t = decls s :: map decls r) by (rewrite <- E; unfold dtable; rewrite ES; reflexivity).
  assert (NX : assoc x (decls s) = None).
  { unfold assoc. destruct (find (fun p => String.eqb x (fst p)) (decls s)) as [q|] eqn:F; [|reflexivity].
    apply find_some in F as [F1 F2]. assert (K : existsb (fun d => String.eqb x (fst d)) (decls s) = true) by (apply existsb_exists; eauto). congruence. }
  unfold dstep, hd_decls, with_scopes. rewrite E', N. unfold dtable. cbn [next scopes map decls tl]. split; [lia|]. split; [reflexivity|]. split; [discriminate|].
  split; [constructor; [tauto|constructor]|]. split; [intros i [<-|[]]; lia|].
  intros L (O1 & O2 & O3 & O4). exists ((x, next t) :: L). split; [|reflexivity]. split; [|split; [|split]]; cbn [map fst snd].
  - constructor; [|exact O1]. intros K. apply in_map_iff in K as ([y i] & K1 & K2). cbn in K1. subst y. apply O3 in K2. congruence.
  - constructor; [|exact O2]. intros K. apply in_map_iff in K as ([y i] & K1 & K2). cbn in K1. subst i. specialize (O4 _ _ K2). lia.
  - intros y i. rewrite assoc_cons. destruct (String.eqb_spec y x) as [->|NE].
    + split; [intros K; inversion K; now left|]. intros [K|K]; [inversion K; reflexivity|]. apply O3 in K. congruence.
    + rewrite O3. split; [now right|]. intros [K|K]; [inversion K; congruence|exact K].
  - intros y i [K|K]; [inversion K; lia|]. specialize (O4 _ _ K). lia.
Qed.

Lemma bind_step x t id pre t' : bind_variable x t = Some (id, pre, t') -> dstep t t' [] (if pre then [id] else []).
Proof.
  intros H. unfold bind_variable in H. destruct (scopes t) as [|s r] eqn:ES; [discriminate|].
  destruct (assoc x (decls s)) as [[i|]|] eqn:A; [|discriminate|].
  - inversion H; subst. unfold dstep, hd_decls, dtable. rewrite ES. cbn [with_scopes next scopes map decls tl]. split; [lia|]. split; [reflexivity|]. split; [discriminate|].
    split; [constructor|]. split; [intros j []|]. intros L (O1 & O2 & O3 & O4). pose proof (proj1 (O3 x id) A) as K. apply in_split in K as (L1 & L2 & ->).
    exists (L1 ++ L2). rewrite !map_app in *. cbn [map fst snd] in *. split; [|cbn; now rewrite <- Permutation_middle].
    split; [rewrite map_app; exact (NoDup_remove_1 _ _ _ O1)|]. split; [rewrite map_app; exact (NoDup_remove_1 _ _ _ O2)|]. split.
    + intros y j. rewrite assoc_cons. destruct (String.eqb_spec y x) as [->|NE].
      * split; [discriminate|]. intros K. exfalso. apply (NoDup_remove_2 _ _ _ O1). rewrite <- map_app. change x with (fst (x, j)). now apply in_map.
      * rewrite O3, !in_app_iff. cbn [In]. split; [|tauto]. intros [K|[K|K]]; auto. inversion K; congruence.
    + intros y j K. apply (O4 y j). apply in_app_iff in K as [K|K]; apply in_or_app; [now left|right; now right].
  - pose proof (add_thing_step x IsVar t) as Q. destruct (add_thing x IsVar t) as [id' t1] eqn:E. cbn [snd] in Q. inversion H; subst. exact Q.
Qed.

Lemma lookup_dstep x t id k l : lookup x (scopes t) = Some (id, k, l) -> dstep t (with_scopes t l) [] [].
Proof. intros L. apply dstep_same; [cbn; lia|]. exact (lookup_decls _ _ _ _ _ L). Qed.

Lemma pattern_dstep :
  (forall p t h t', visit_pattern p t = Some (h, t') -> dstep t t' [] (pat_defines h)) /\
  (forall ps t h t', visit_patterns ps t = Some (h, t') -> dstep t t' [] (pats_define h)).
Proof.
  apply pat_pats_ind; cbn [visit_pattern visit_patterns].
  - intros z t h t' H. inversion H; subst. now apply dstep_same.
  - intros x t h t' H.
    assert (K : forall t1, dstep t t1 [] [] -> match bind_variable x t1 with Some (id, pre, t) => Some (HPBind id pre, t) | None => None end = Some (h, t') -> dstep t t' [] (pat_defines h)).
    { intros t1 D E. destruct (bind_variable x t1) as [[[id pre] t2]|] eqn:Eb; [|discriminate]. inversion E; subst. exact (dstep_trans _ _ _ [] [] [] _ D (bind_step _ _ _ _ _ Eb)). }
    destruct (lookup x (scopes t)) as [[[id k] l]|] eqn:L.
    + pose proof (lookup_dstep _ _ _ _ _ L) as D. destruct k as [|[|m]|m]; try (apply (K _ D H)). inversion H; subst. exact D.
    + apply (K t); [now apply dstep_same|exact H].
  - intros x p IH t h t' H. destruct (visit_pattern p t) as [[hp t1]|] eqn:E1; [|discriminate].
    destruct (bind_variable x t1) as [[[id pre] t2]|] eqn:E2; [|discriminate]. inversion H; subst. exact (dstep_trans _ _ _ [] _ [] _ (IH _ _ _ E1) (bind_step _ _ _ _ _ E2)).
  - intros ps IH t h t' H. destruct (visit_patterns ps t) as [[hp t1]|] eqn:E1; [|discriminate]. inversion H; subst. exact (IH _ _ _ E1).
  - intros c ps IH t h t' H. destruct (lookup c (scopes t)) as [[[id k] l]|] eqn:L; [|discriminate].
    assert (X : match visit_patterns ps (with_scopes t l) with Some (hs, t) => Some (HPCon id hs, t) | None => None end = Some (h, t')).
    { destruct k; [discriminate| |]; destruct (plen ps =? params); try discriminate; exact H. }
    destruct (visit_patterns ps (with_scopes t l)) as [[hp t1]|] eqn:E1; [|discriminate]. inversion X; subst.
    exact (dstep_trans _ _ _ [] [] [] _ (lookup_dstep _ _ _ _ _ L) (IH _ _ _ E1)).
  - intros t h t' H. inversion H; subst. now apply dstep_same.
  - intros p IHp ps IHs t h t' H. destruct (visit_pattern p t) as [[hp t1]|] eqn:E1; [|discriminate].
    destruct (visit_patterns ps t1) as [[hs t2]|] eqn:E2; [|discriminate]. inversion H; subst. exact (dstep_trans _ _ _ [] _ [] _ (IHp _ _ _ E1) (IHs _ _ _ E2)).
Qed.
Lemma names_dstep xs : forall t ids t', visit_names xs t = Some (ids, t') -> dstep t t' ids [].
Proof.
  induction xs as [|x xs IH]; cbn [visit_names]; intros t ids t' H; [inversion H; subst; now apply dstep_same|].
  destruct (add_declaration x t) as [[id t1]|] eqn:E1; [|discriminate]. destruct (visit_names xs t1) as [[ids' t2]|] eqn:E2; [|discriminate]. inversion H; subst.
  exact (dstep_trans _ _ _ [id] [] _ [] (declare_step _ _ _ _ E1) (IH _ _ _ E2)).
Qed.

(** What holds of an accepted expression. *)
Definition block_ok (ss : hstmts) : Prop := NoDup (declared ss) /\ Permutation (declared ss) (defined ss).
Definition calm (t t' : table) (bs : list hstmts) (el : list nat) : Prop :=
  next t <= next t' /\ dtable t' = dtable t /\ Forall block_ok bs /\ el = [].
Lemma calm_trans a b c b1 b2 e1 e2 : calm a b b1 e1 -> calm b c b2 e2 -> calm a c (b1 ++ b2) (e1 ++ e2).
Proof. intros (A1 & A2 & A3 & A4) (B1 & B2 & B3 & B4). split; [lia|]. split; [congruence|]. split; [apply Forall_app; auto|now rewrite A4, B4]. Qed.
Lemma calm_dstep a b bs e : calm a b bs e -> dstep a b [] [].
Proof. intros (A1 & A2 & _). now apply dstep_same. Qed.
Lemma calm_same t t' : next t <= next t' -> dtable t' = dtable t -> calm t t' [] [].
Proof. intros A B. split; [exact A|]. split; [exact B|]. split; [constructor|reflexivity]. Qed.

(** the scope of a match arm, or of the parameters of a lambda *)
Lemma pushed_none b t t' es : dstep (push b t) t' [] es -> es = [] /\ dtable (pop t') = dtable t /\ next t <= next t' /\ hd_decls t' = hd_decls t'.
Proof.
  intros (A1 & A2 & A3 & A4 & A5 & A6). destruct (A6 [] (open_nil _)) as (L & O & Q). cbn [app map] in Q. apply Permutation_nil in Q.
  apply app_eq_nil in Q as [-> _]. split; [reflexivity|]. split; [|auto]. unfold dtable in *. unfold pop, push, with_scopes in *. cbn [scopes map tl] in A2.
  cbn [scopes]. destruct (scopes t'); cbn [map tl] in *; exact A2.
Qed.
(** a block *)
Lemma pushed_block b t t' ds es : dstep (push b t) t' ds es -> all_defined t' = true -> NoDup ds /\ Permutation ds es /\ dtable (pop t') = dtable t /\ next t <= next t'.
Proof.
  intros (A1 & A2 & A3 & A4 & A5 & A6) AD. destruct (A6 [] (open_nil _)) as (L & (O1 & O2 & O3 & O4) & Q). cbn [app map] in Q. rewrite app_nil_r in Q.
  assert (L = []).
  { destruct L as [|[x id] L]; [reflexivity|]. exfalso. pose proof (proj2 (O3 x id) (or_introl eq_refl)) as K. unfold hd_decls, dtable in K. unfold all_defined in AD.
    destruct (scopes t') as [|s r]; cbn [map] in K; [discriminate|]. rewrite forallb_forall in AD. pose proof K as K'. unfold assoc in K'.
    destruct (find (fun p => String.eqb x (fst p)) (decls s)) as [q|] eqn:F; [|discriminate]. apply find_some in F as [F1 F2]. apply String.eqb_eq in F2.
    specialize (AD q F1). rewrite <- F2, K in AD. discriminate. }
  subst L. cbn [map] in Q. rewrite app_nil_r in Q. split; [exact A4|]. split; [exact Q|]. split; [|exact A1].
  unfold dtable in *. unfold pop, push, with_scopes in *. cbn [scopes map tl] in A2. cbn [scopes]. destruct (scopes t'); cbn [map tl] in *; exact A2.
Qed.

Definition sdstep (t t' : table) (h : hstmts) : Prop :=
  dstep t t' (declared h) (defined h) /\ Forall block_ok (blocks_stmts h) /\ elsewhere_stmts h = [].

Lemma visit_decl :
  (forall e t h t', visit_expression e t = Some (h, t') -> calm t t' (blocks h) (elsewhere h)) /\
  (forall es t h t', visit_expressions es t = Some (h, t') -> calm t t' (blocks_exprs h) (elsewhere_exprs h)) /\
  (forall a t h t', visit_arms a t = Some (h, t') -> calm t t' (blocks_arms h) (elsewhere_arms h)) /\
  (forall ss t h t', visit_statements ss t = Some (h, t') -> sdstep t t' h).
Proof.
  apply expr_all_ind; cbn [visit_expression visit_expressions visit_arms visit_statements].
  - intros z t h t' H. inversion H; subst. now apply calm_same.
  - intros x t h t' H. destruct (lookup x (scopes t)) as [[[id k] l]|] eqn:L; [|discriminate]. destruct k; try discriminate. inversion H; subst.
    apply calm_same; [cbn; lia|]. exact (lookup_decls _ _ _ _ _ L).
  - intros a IHa b IHb t h t' H. destruct (visit_expression a t) as [[ha t1]|] eqn:E1; [|discriminate].
    destruct (visit_expression b t1) as [[hb t2]|] eqn:E2; [|discriminate]. inversion H; subst. eapply calm_trans; eauto.
  - intros es IH t h t' H. destruct (visit_expressions es t) as [[ha t1]|] eqn:E1; [|discriminate]. inversion H; subst. exact (IH _ _ _ E1).
  - intros e IH i t h t' H. destruct (visit_expression e t) as [[ha t1]|] eqn:E1; [|discriminate]. inversion H; subst. exact (IH _ _ _ E1).
  - intros c es IH t h t' H. destruct (lookup c (scopes t)) as [[[id k] l]|] eqn:L; [|discriminate].
    assert (X : match visit_expressions es (with_scopes t l) with Some (es, t) => Some (HCon id es, t) | None => None end = Some (h, t')) by (destruct k; [discriminate|exact H|exact H]).
    destruct (visit_expressions es (with_scopes t l)) as [[ha t1]|] eqn:E1; [|discriminate]. inversion X; subst.
    change (blocks (HCon id ha)) with ([] ++ blocks_exprs ha). change (elsewhere (HCon id ha)) with ([] ++ elsewhere_exprs ha).
    eapply calm_trans; [|exact (IH _ _ _ E1)]. apply calm_same; [cbn; lia|]. exact (lookup_decls _ _ _ _ _ L).
  - intros c IHc a IHa b IHb t h t' H. destruct (visit_expression c t) as [[hc t0]|] eqn:E0; [|discriminate].
    destruct (visit_expression a t0) as [[ha t1]|] eqn:E1; [|discriminate]. destruct (visit_expression b t1) as [[hb t2]|] eqn:E2; [|discriminate]. inversion H; subst.
    eapply calm_trans; [eauto|]. eapply calm_trans; eauto.
  - intros e IHe a IHa t h t' H. destruct (visit_expression e t) as [[hc t0]|] eqn:E0; [|discriminate].
    destruct (visit_arms a t0) as [[ha t1]|] eqn:E1; [|discriminate]. inversion H; subst. eapply calm_trans; eauto.
  - intros ss IHs e IHe t h t' H. destruct (visit_statements ss (push None t)) as [[hs t0]|] eqn:E0; [|discriminate].
    destruct (visit_expression e t0) as [[he t1]|] eqn:E1; [|discriminate]. destruct (all_defined t1) eqn:AD; [|discriminate]. inversion H; subst.
    destruct (IHs _ _ _ E0) as (S1 & S2 & S3). pose proof (IHe _ _ _ E1) as C1. pose proof (dstep_trans _ _ _ _ _ _ _ S1 (calm_dstep _ _ _ _ C1)) as D. rewrite !app_nil_r in D.
    destruct (pushed_block _ _ _ _ _ D AD) as (B1 & B2 & B3 & B4). destruct C1 as (C1 & C2 & C3 & C4).
    split; [exact B4|]. split; [exact B3|]. cbn [blocks elsewhere]. split; [|now rewrite S3, C4]. constructor; [now split|]. apply Forall_app; auto.
  - intros en ps ss IHs e IHe t h t' H. destruct (handle_unit_kind en ps) as [[hc ps']|]; [|discriminate].
    destruct (if hc then add_thing "clk" IsVar (push (Some []) t) else (0, push (Some []) t)) as [clk t1] eqn:E1.
    assert (D1 : dstep (push (Some []) t) t1 [] []).
    { destruct hc; [|inversion E1; subst; now apply dstep_same]. pose proof (add_thing_step "clk" IsVar (push (Some []) t)) as Q. rewrite E1 in Q. exact Q. }
    destruct (visit_patterns ps' t1) as [[hp t2]|] eqn:E2; [|discriminate].
    destruct (visit_statements ss (push None t2)) as [[hs t3]|] eqn:E3; [|discriminate].
    destruct (visit_expression e t3) as [[he t4]|] eqn:E4; [|discriminate]. destruct (all_defined t4) eqn:AD; [|discriminate].
    pose proof (dstep_trans _ _ _ _ _ _ _ D1 (proj2 pattern_dstep _ _ _ _ E2)) as D2. cbn [app] in D2.
    destruct (IHs _ _ _ E3) as (S1 & S2 & S3). pose proof (IHe _ _ _ E4) as C1. pose proof (dstep_trans _ _ _ _ _ _ _ S1 (calm_dstep _ _ _ _ C1)) as D. rewrite !app_nil_r in D.
    destruct (pushed_block _ _ _ _ _ D AD) as (B1 & B2 & B3 & B4). destruct C1 as (C1 & C2 & C3 & C4).
    destruct (pushed_none _ _ _ _ (dstep_trans _ _ _ _ _ _ _ D2 (dstep_same t2 (pop t4) B4 B3))) as (N1 & N2 & N3 & _). rewrite app_nil_r in N1.
    set (k := IsStruct (List.length (captured (pop t4)))) in *.
    pose proof (add_thing_step LAM k (pop (pop t4))) as D3. destruct (add_thing LAM k (pop (pop t4))) as [lid t5] eqn:E5. cbn [snd] in D3. cbn [fresh_id next scopes] in H.
    assert (T5 : dtable t5 = dtable (pop (pop t4)) /\ next (pop (pop t4)) <= next t5).
    { unfold add_thing in E5. destruct (scopes (pop (pop t4))) as [|s r] eqn:ES; inversion E5; subst; [auto|]. split; [|cbn; lia]. unfold dtable. rewrite ES. reflexivity. }
    inversion H; subst. split; [|split; [|cbn [blocks elsewhere]; split]].
    + destruct T5 as [_ T5]. unfold pop, with_scopes in *. cbn [next] in *. lia.
    + change (dtable {| next := S (S (S (next t5))); scopes := scopes t5 |}) with (dtable t5). rewrite (proj1 T5). exact N2.
    + constructor; [now split|]. apply Forall_app; auto.
    + now rewrite N1, S3, C4.
  - intros f IHf es IHe t h t' H. destruct (visit_expression f t) as [[hc t0]|] eqn:E0; [|discriminate].
    destruct (visit_expressions es t0) as [[ha t1]|] eqn:E1; [|discriminate]. inversion H; subst. eapply calm_trans; eauto.
  - intros f IHf c IHc es IHe t h t' H. destruct (visit_expression f t) as [[hc t0]|] eqn:E0; [|discriminate].
    destruct (visit_expression c t0) as [[ha t1]|] eqn:E1; [|discriminate]. destruct (visit_expressions es t1) as [[hb t2]|] eqn:E2; [|discriminate]. inversion H; subst.
    eapply calm_trans; [eauto|]. eapply calm_trans; eauto.
  - intros t h t' H. inversion H; subst. now apply calm_same.
  - intros e IHe es IHs t h t' H. destruct (visit_expression e t) as [[hc t0]|] eqn:E0; [|discriminate].
    destruct (visit_expressions es t0) as [[ha t1]|] eqn:E1; [|discriminate]. inversion H; subst. eapply calm_trans; eauto.
  - intros t h t' H. inversion H; subst. now apply calm_same.
  - intros p c IHc e IHe a IHa t h t' H. destruct (visit_pattern p (push None t)) as [[hp t0]|] eqn:E0; [|discriminate].
    destruct (visit_expression c t0) as [[hc t1]|] eqn:E1; [|discriminate]. destruct (visit_expression e t1) as [[he t2]|] eqn:E2; [|discriminate].
    destruct (visit_arms a (pop t2)) as [[ha t3]|] eqn:E3; [|discriminate]. inversion H; subst.
    pose proof (proj1 pattern_dstep _ _ _ _ E0) as D0. pose proof (calm_trans _ _ _ _ _ _ _ (IHc _ _ _ E1) (IHe _ _ _ E2)) as C.
    pose proof (dstep_trans _ _ _ _ _ _ _ D0 (calm_dstep _ _ _ _ C)) as D. destruct (pushed_none _ _ _ _ D) as (N1 & N2 & N3 & _). rewrite app_nil_r in N1.
    pose proof (IHa _ _ _ E3) as (A1 & A2 & A3 & A4). destruct C as (C1 & C2 & C3 & C4). cbn [blocks_arms elsewhere_arms].
    split; [unfold pop, with_scopes in A1; cbn [next] in A1; lia|]. split; [congruence|]. split; [rewrite app_assoc; apply Forall_app; auto|]. rewrite N1. cbn [app]. rewrite app_assoc, C4. exact A4.
  - intros t h t' H. inversion H; subst. split; [now apply dstep_same|]. split; [constructor|reflexivity].
  - intros xs ss IHs t h t' H. destruct (visit_names xs t) as [[ids t0]|] eqn:E0; [|discriminate].
    destruct (visit_statements ss t0) as [[hs t1]|] eqn:E1; [|discriminate]. inversion H; subst. destruct (IHs _ _ _ E1) as (S1 & S2 & S3).
    split; [|auto]. exact (dstep_trans _ _ _ _ _ _ _ (names_dstep _ _ _ _ E0) S1).
  - intros p e IHe ss IHs t h t' H. destruct (visit_expression e t) as [[he t0]|] eqn:E0; [|discriminate].
    destruct (visit_pattern p t0) as [[hp t1]|] eqn:E1; [|discriminate]. destruct (visit_statements ss t1) as [[hs t2]|] eqn:E2; [|discriminate]. inversion H; subst.
    destruct (IHs _ _ _ E2) as (S1 & S2 & S3). pose proof (IHe _ _ _ E0) as C. split; [|split].
    + exact (dstep_trans _ _ _ [] [] _ _ (calm_dstep _ _ _ _ C) (dstep_trans _ _ _ [] _ _ _ (proj1 pattern_dstep _ _ _ _ E1) S1)).
    + cbn [blocks_stmts]. apply Forall_app. split; [apply C|exact S2].
    + cbn [elsewhere_stmts]. destruct C as (_ & _ & _ & ->). exact S3.
  - intros p e IHe ss IHs t h t' H. destruct (visit_pattern p t) as [[hp t0]|] eqn:E0; [|discriminate].
    destruct (visit_expression e t0) as [[he t1]|] eqn:E1; [|discriminate]. destruct (visit_statements ss t1) as [[hs t2]|] eqn:E2; [|discriminate]. inversion H; subst.
    destruct (IHs _ _ _ E2) as (S1 & S2 & S3). pose proof (IHe _ _ _ E1) as C. split; [|split].
    + pose proof (dstep_trans _ _ _ [] _ _ _ (proj1 pattern_dstep _ _ _ _ E0) (dstep_trans _ _ _ [] [] _ _ (calm_dstep _ _ _ _ C) S1)) as D. exact D.
    + cbn [blocks_stmts]. apply Forall_app. split; [apply C|exact S2].
    + cbn [elsewhere_stmts]. destruct C as (_ & _ & _ & ->). exact S3.
Qed.

Lemma unit_decl g xs body ids h : visit_unit g xs body = Some (ids, h) -> Forall block_ok (blocks h) /\ elsewhere h = [].
Proof.
  unfold visit_unit. destruct (add_inputs xs _) as [ids' t1]. destruct (visit_expression body t1) as [[h' t2]|] eqn:E; [|discriminate]. intros H. inversion H; subst.
  apply (proj1 visit_decl) in E as (_ & _ & A & B). auto.
Qed.
