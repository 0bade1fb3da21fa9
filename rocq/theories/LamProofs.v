(** Names, captures and the lowering of lambdas. *)
From Coq Require Import ZArith List Bool String Arith Lia.
From Verif Require Import LamModel LamSpec.
Import ListNotations.
Open Scope nat_scope.

Scheme pat_mut := Induction for pat Sort Prop with pats_mut := Induction for pats Sort Prop.
Combined Scheme pat_pats_ind from pat_mut, pats_mut.
Scheme expr_mut := Induction for expr Sort Prop with exprs_mut := Induction for exprs Sort Prop
with arms_mut := Induction for arms Sort Prop with stmts_mut := Induction for stmts Sort Prop.
Combined Scheme expr_all_ind from expr_mut, exprs_mut, arms_mut, stmts_mut.

Notation LAM := "Lambda"%string.

Fixpoint find_scope (x : string) (l : list scope) : option (nat * thing) :=
  match l with
  | [] => None
  | s :: l => match assoc x (vars s) with Some r => Some r | None => find_scope x l end
  end.
Fixpoint cross (x : string) (l : list scope) : bool :=
  match l with
  | [] => false
  | s :: l => match assoc x (vars s) with Some _ => false | None => match barrier s with Some _ => true | None => cross x l end end
  end.
Fixpoint caps_of (l : list scope) : list (string * nat) :=
  match l with [] => [] | s :: l => match barrier s with Some c => c | None => caps_of l end end.

(** How a scope changes while what is inside it is visited. *)
Definition bext (s s' : scope) : Prop :=
  match barrier s, barrier s' with None, None => True | Some c, Some c' => exists d, c' = c ++ d | _, _ => False end.
Definition ext (s s' : scope) : Prop :=
  (forall x, x <> LAM -> assoc x (vars s') = assoc x (vars s)) /\ decls s' = decls s /\ bext s s'.
Definition evo (l l' : list scope) : Prop :=
  match l, l' with s :: r, s' :: r' => bext s s' /\ Forall2 ext r r' | [], [] => True | _, _ => False end.

Lemma bext_refl s : bext s s.
Proof. unfold bext. destruct (barrier s); [exists []; now rewrite app_nil_r|exact I]. Qed.
Lemma bext_trans a b c : bext a b -> bext b c -> bext a c.
Proof.
  unfold bext. destruct (barrier a), (barrier b), (barrier c); try tauto. intros [d ->] [e ->]. exists (d ++ e). now rewrite app_assoc.
Qed.
Lemma ext_refl s : ext s s.
Proof. split; [reflexivity|]. split; [reflexivity|apply bext_refl]. Qed.
Lemma ext_trans a b c : ext a b -> ext b c -> ext a c.
Proof.
  intros (A1 & A2 & A3) (B1 & B2 & B3). split; [intros x H; rewrite B1, A1; auto|]. split; [congruence|eapply bext_trans; eauto].
Qed.
Lemma exts_refl l : Forall2 ext l l.
Proof. induction l; constructor; auto using ext_refl. Qed.
Lemma exts_trans a b c : Forall2 ext a b -> Forall2 ext b c -> Forall2 ext a c.
Proof.
  intros H. revert c. induction H; intros c K; inversion K; subst; constructor; eauto using ext_trans.
Qed.
Lemma evo_refl l : evo l l.
Proof. destruct l; cbn; [exact I|]. split; [apply bext_refl|apply exts_refl]. Qed.
Lemma evo_trans a b c : evo a b -> evo b c -> evo a c.
Proof.
  destruct a, b, c; cbn; try tauto. intros [A1 A2] [B1 B2]. split; [eapply bext_trans; eauto|eapply exts_trans; eauto].
Qed.
Lemma exts_evo l l' : Forall2 ext l l' -> evo l l'.
Proof. intros H. inversion H; subst; cbn; [exact I|]. split; [apply H0|assumption]. Qed.

Lemma find_ext l l' x : Forall2 ext l l' -> x <> LAM -> find_scope x l' = find_scope x l.
Proof. intros H N. induction H as [|s s' l l' (E & _) F IH]; cbn [find_scope]; [reflexivity|]. rewrite (E x N), IH. reflexivity. Qed.
Lemma cross_ext l l' x : Forall2 ext l l' -> x <> LAM -> cross x l' = cross x l.
Proof.
  intros H N. induction H as [|s s' l l' (E & _ & B) F IH]; cbn [cross]; [reflexivity|]. rewrite (E x N), IH.
  unfold bext in B. destruct (barrier s), (barrier s'); tauto.
Qed.
Lemma caps_ext l l' : Forall2 ext l l' -> incl (caps_of l) (caps_of l').
Proof.
  intros H. induction H as [|s s' l l' (_ & _ & B) F IH]; cbn [caps_of]; [apply incl_refl|].
  unfold bext in B. destruct (barrier s), (barrier s'); try tauto. destruct B as [d ->]. apply incl_appl, incl_refl.
Qed.
Lemma caps_evo l l' : evo l l' -> incl (caps_of l) (caps_of l').
Proof.
  destruct l as [|s r], l' as [|s' r']; cbn [evo caps_of]; try tauto; [intros; apply incl_refl|]. intros [B F]. unfold bext in B.
  destruct (barrier s), (barrier s'); try tauto; [|now apply caps_ext]. destruct B as [d ->]. apply incl_appl, incl_refl.
Qed.

(** What holds of the captures of every barrier. *)
Fixpoint inv (l : list scope) : Prop :=
  match l with
  | [] => True
  | s :: r =>
      match barrier s with
      | None => True
      | Some c => NoDup (map fst c) /\ forall x i, In (x, i) c -> x <> LAM /\ find_scope x r = Some (i, IsVar) /\ (cross x r = true -> In (x, i) (caps_of r))
      end /\ inv r
  end.
Definition below (n : nat) (l : list scope) : Prop :=
  forall x id k, x <> LAM -> find_scope x l = Some (id, k) -> id < n.

Lemma inv_tail s r r' : inv (s :: r) -> inv r' -> Forall2 ext r r' -> inv (s :: r').
Proof.
  cbn [inv]. intros [H _] J E. split; [|exact J]. destruct (barrier s); [|exact I]. destruct H as [N H]. split; [exact N|].
  intros x i K. destruct (H x i K) as (A & B & C). split; [exact A|]. rewrite (find_ext _ _ _ E A), (cross_ext _ _ _ E A).
  split; [exact B|]. intros D. apply (caps_ext _ _ E). now apply C.
Qed.
Lemma inv_head s s' r : inv (s :: r) -> barrier s' = barrier s -> inv (s' :: r).
Proof. cbn [inv]. intros [H J] E. rewrite E. now split. Qed.

Lemma eqb_neq x y : String.eqb x y = false <-> x <> y.
Proof. split; intros H; [intros ->; now rewrite String.eqb_refl in H|now apply String.eqb_neq]. Qed.

Lemma existsb_names x (c : list (string * nat)) : existsb (fun c => String.eqb x (fst c)) c = true <-> In x (map fst c).
Proof.
  rewrite existsb_exists, in_map_iff. split.
  - intros (p & A & B). apply String.eqb_eq in B. exists p. auto.
  - intros (p & A & B). exists p. split; [exact B|]. rewrite A. apply String.eqb_refl.
Qed.

Lemma lookup_none x l : lookup x l = None <-> find_scope x l = None.
Proof.
  induction l as [|s l IH]; cbn [lookup find_scope]; [tauto|]. destruct (assoc x (vars s)) as [[id k]|]; [split; discriminate|].
  destruct (lookup x l) as [[[id k] l']|]; rewrite <- IH; split; congruence.
Qed.
Lemma lookup_some x l id k l' : x <> LAM -> inv l -> lookup x l = Some (id, k, l') ->
  find_scope x l = Some (id, k) /\ Forall2 ext l l' /\ inv l' /\ (k = IsVar -> cross x l = true -> In (x, id) (caps_of l')).
Proof.
  intros N. revert l'. induction l as [|s l IH]; cbn [lookup find_scope cross]; intros l' V H; [discriminate|].
  destruct (assoc x (vars s)) as [[id0 k0]|] eqn:E.
  - inversion H; subst. split; [reflexivity|]. split; [apply exts_refl|]. split; [exact V|]. discriminate.
  - destruct (lookup x l) as [[[id0 k0] l0]|] eqn:L; [|discriminate]. inversion H; subst.
    destruct (IH l0 (proj2 V) eq_refl) as (F & X & J & C).
    assert (B : ext s (noted x id k s)).
    { unfold noted. destruct (barrier s) as [c|] eqn:Eb; [|apply ext_refl]. destruct k; try apply ext_refl.
      destruct (existsb (fun c0 => String.eqb x (fst c0)) c); [apply ext_refl|]. split; [reflexivity|]. split; [reflexivity|].
      unfold bext. cbn [barrier]. rewrite Eb. now eexists. }
    split; [exact F|]. split; [now constructor|].
    pose proof (inv_tail _ _ _ V J X) as VT.
    assert (CC : k = IsVar -> cross x l = true -> In (x, id) (caps_of l0)) by exact C.
    assert (SM : forall (caps : list (string * nat)), barrier s = Some caps -> In x (map fst caps) -> In (x, id) caps).
    { intros caps Eb K. cbn [inv] in V. rewrite Eb in V. destruct V as [[_ V] _]. apply in_map_iff in K as ([y i] & K1 & K2). cbn in K1. subst y.
      destruct (V _ _ K2) as (_ & K & _). rewrite F in K. inversion K; subst. exact K2. }
    unfold noted. destruct (barrier s) as [caps|] eqn:Eb.
    + destruct k.
      * destruct (existsb (fun c => String.eqb x (fst c)) caps) eqn:EX.
        -- split; [exact VT|]. intros _ _. cbn [caps_of]. rewrite Eb. apply SM; [reflexivity|]. now apply existsb_names.
        -- split; [|intros _ _; cbn [caps_of barrier]; apply in_or_app; right; now left].
           cbn [inv barrier]. split; [|exact J]. cbn [inv] in VT. rewrite Eb in VT. destruct VT as [[ND VT] _].
           split.
           ++ rewrite map_app. cbn [map fst].
              assert (~ In x (map fst caps)) by (intros K; apply existsb_names in K; congruence).
              clear - ND H0. induction (map fst caps) as [|y m IH]; cbn [app]; [constructor; [tauto|constructor]|].
              inversion ND; subst. constructor; [|apply IH; auto; intros K; apply H0; now right].
              intros K. apply in_app_iff in K as [K|[K|[]]]; [tauto|]. subst. apply H0. now left.
           ++ intros y i K. apply in_app_iff in K as [K|[K|[]]]; [exact (VT y i K)|]. inversion K; subst. split; [exact N|].
              rewrite (find_ext _ _ _ X N), (cross_ext _ _ _ X N). split; [exact F|]. intros CR. now apply CC.
      * split; [exact VT|discriminate].
      * split; [exact VT|discriminate].
    + split; [exact VT|]. intros K CR. cbn [caps_of]. rewrite Eb. now apply CC.
Qed.

Section Fixed.
Variable g : items.
Definition shape (l : list scope) : Prop :=
  forall x, x <> LAM -> match find_scope x l with Some (_, IsVar) => True | r => r = assoc x g end.
Definition uniq (l : list scope) : Prop :=
  forall x y id, x <> LAM -> y <> LAM -> find_scope x l = Some (id, IsVar) -> find_scope y l = Some (id, IsVar) -> x = y.
Definition good (n : nat) (l : list scope) : Prop := inv l /\ below n l /\ shape l /\ uniq l.

Lemma good_ext n l l' m : good n l -> Forall2 ext l l' -> inv l' -> n <= m -> good m l'.
Proof.
  intros (_ & B & S & U) E J L. split; [exact J|]. split; [|split].
  - intros x id k N H. rewrite (find_ext _ _ _ E N) in H. pose proof (B x id k N H). lia.
  - intros x N. rewrite (find_ext _ _ _ E N). now apply S.
  - intros x y id N M. rewrite (find_ext _ _ _ E N), (find_ext _ _ _ E M). now apply U.
Qed.
Lemma good_push n l b : good n l -> b = None \/ b = Some [] -> good n ({| vars := []; decls := []; barrier := b |} :: l).
Proof.
  intros (J & B & S & U) D. split; [|split; [|split]].
  - cbn [inv barrier]. split; [|exact J]. destruct D as [->| ->]; [exact I|]. split; [constructor|intros x i []].
  - exact B.
  - exact S.
  - exact U.
Qed.

Lemma assoc_cons {A} x y (a : A) l : assoc x ((y, a) :: l) = if String.eqb x y then Some a else assoc x l.
Proof. unfold assoc. cbn [find fst]. destruct (String.eqb x y); reflexivity. Qed.

(** Names known afterwards: as before, or new. *)
Definition news (n : nat) (l l' : list scope) : Prop :=
  forall x, x <> LAM ->
    (find_scope x l' = find_scope x l /\ cross x l' = cross x l) \/
    (exists id, n <= id /\ find_scope x l' = Some (id, IsVar) /\ cross x l' = false).
Lemma news_refl n l : news n l l.
Proof. intros x _. now left. Qed.
Lemma news_ext n l l' : Forall2 ext l l' -> news n l l'.
Proof. intros E x N. left. split; [now apply find_ext|now apply cross_ext]. Qed.
Lemma news_trans n m a b c : n <= m -> news n a b -> news m b c -> news n a c.
Proof.
  intros L H K x N. destruct (K x N) as [[E1 E2]|(id & A & B & C)]; [|right; exists id; repeat split; auto; lia].
  rewrite E1, E2. now apply H.
Qed.

(** * What a visit of a pattern does to the table *)
Fixpoint binds (p : hpat) : list nat :=
  match p with
  | HPInt _ => []
  | HPBind id pre => if pre then [] else [id]
  | HPAt id pre p => binds p ++ if pre then [] else [id]
  | HPTup ps => binds_all ps
  | HPCon _ ps => binds_all ps
  end
with binds_all (ps : hpats) : list nat :=
  match ps with HPNil => [] | HPCons p ps => binds p ++ binds_all ps end.

Definition step_ok (n : nat) (l : list scope) (t' : table) (ids : list nat) : Prop :=
  good (next t') (scopes t') /\ n <= next t' /\ evo l (scopes t') /\ news n l (scopes t') /\
  (forall i, In i ids -> n <= i /\ i < next t').

Lemma step_trans n l t1 t2 a b : step_ok n l t1 a -> step_ok (next t1) (scopes t1) t2 b -> step_ok n l t2 (a ++ b).
Proof.
  intros (A1 & A2 & A3 & A4 & A5) (B1 & B2 & B3 & B4 & B5). split; [exact B1|]. split; [lia|].
  split; [eapply evo_trans; eauto|]. split; [eapply news_trans; eauto|].
  intros i H. apply in_app_iff in H as [H|H]; [pose proof (A5 i H)|pose proof (B5 i H)]; lia.
Qed.

Lemma add_ok n s l x k m : good n (s :: l) -> (x <> LAM -> k = IsVar) -> S n <= m ->
  good m ({| vars := (x, (n, k)) :: vars s; decls := decls s; barrier := barrier s |} :: l) /\
  news n (s :: l) ({| vars := (x, (n, k)) :: vars s; decls := decls s; barrier := barrier s |} :: l).
Proof.
  intros (J & B & S & U) K L.
  assert (F : forall y, y <> LAM -> find_scope y ({| vars := (x, (n, k)) :: vars s; decls := decls s; barrier := barrier s |} :: l)
    = if String.eqb y x then Some (n, k) else find_scope y (s :: l)).
  { intros y N. cbn [find_scope vars]. rewrite assoc_cons. destruct (String.eqb y x); reflexivity. }
  split; [split; [|split; [|split]]|].
  - eapply inv_head; [exact J|reflexivity].
  - intros y id k' N H. rewrite (F y N) in H. destruct (String.eqb y x); [inversion H; lia|]. specialize (B y id k' N H). lia.
  - intros y N. rewrite (F y N). destruct (String.eqb_spec y x) as [->|]; [rewrite (K N); exact I|exact (S y N)].
  - intros y z id N M. rewrite (F y N), (F z M).
    destruct (String.eqb_spec y x) as [->|], (String.eqb_spec z x) as [->|]; [reflexivity| | |now apply U].
    + intros A1 A2. inversion A1; subst. specialize (B z id IsVar M A2). lia.
    + intros A1 A2. inversion A2; subst. specialize (B y id IsVar N A1). lia.
  - intros y N. rewrite (F y N). cbn [cross vars barrier]. rewrite assoc_cons.
    destruct (String.eqb_spec y x) as [->|]; [right; exists n; rewrite (K N); auto|left; now split].
Qed.

Lemma bind_ok n l x id pre t' : good n l -> x <> LAM -> bind_variable x {| next := n; scopes := l |} = Some (id, pre, t') ->
  step_ok n l t' (if pre then [] else [id]).
Proof.
  intros G N H. unfold bind_variable in H. cbn [scopes] in H. destruct l as [|s l]; [discriminate|].
  destruct (assoc x (decls s)) as [[i|]|] eqn:D; [|discriminate|].
  - inversion H; subst. cbn [with_scopes next scopes].
    assert (E : good n ({| vars := vars s; decls := (x, None) :: decls s; barrier := barrier s |} :: l)).
    { destruct G as (J & B & S & U). split; [eapply inv_head; [exact J|reflexivity]|]. split; [exact B|]. split; [exact S|exact U]. }
    split; [exact E|]. split; [cbn; lia|]. split; [cbn; split; [unfold bext; cbn; destruct (barrier s); [exists []; now rewrite app_nil_r|exact I]|apply exts_refl]|].
    split; [intros y M; now left|]. intros i [].
  - unfold add_thing in H. cbn [scopes next] in H. inversion H; subst. cbn [next scopes].
    destruct (add_ok id s l x IsVar (S id) G (fun _ => eq_refl) (le_n _)) as [E1 E2].
    split; [exact E1|]. split; [cbn; lia|]. split; [cbn; split; [unfold bext; cbn; destruct (barrier s); [exists []; now rewrite app_nil_r|exact I]|apply exts_refl]|].
    split; [exact E2|]. intros i [<-|[]]. cbn. lia.
Qed.

Lemma lookup_step n l x id k l' : good n l -> x <> LAM -> lookup x l = Some (id, k, l') -> step_ok n l {| next := n; scopes := l' |} [].
Proof.
  intros G N H. destruct (lookup_some _ _ _ _ _ N (proj1 G) H) as (F & X & J & C).
  split; [eapply good_ext; eauto|]. split; [cbn; lia|]. split; [now apply exts_evo|]. split; [now apply news_ext|]. intros i [].
Qed.

Lemma table_eta t : t = {| next := next t; scopes := scopes t |}.
Proof. destruct t; reflexivity. Qed.

Ltac split_uses :=
  repeat match goal with
  | H : _ || _ = false |- _ => apply orb_false_iff in H as [? ?]
  | H : String.eqb LAM _ = false |- _ => apply eqb_neq in H; apply not_eq_sym in H
  end.

Lemma step_refl n l : good n l -> step_ok n l {| next := n; scopes := l |} [].
Proof. intros G. split; [exact G|]. split; [cbn; lia|]. split; [apply evo_refl|]. split; [apply news_refl|]. intros i []. Qed.

Lemma pattern_ok :
  (forall p n l h t', good n l -> pat_uses LAM p = false -> visit_pattern p {| next := n; scopes := l |} = Some (h, t') -> step_ok n l t' (binds h)) /\
  (forall ps n l h t', good n l -> pats_use LAM ps = false -> visit_patterns ps {| next := n; scopes := l |} = Some (h, t') -> step_ok n l t' (binds_all h)).
Proof.
  apply pat_pats_ind; cbn [visit_pattern visit_patterns pat_uses pats_use].
  - intros z n l h t' G U H. inversion H; subst. now apply step_refl.
  - intros x n l h t' G U H. apply eqb_neq in U. assert (N : x <> LAM) by congruence. cbn [scopes] in H.
    assert (K : forall l', lookup x l = None /\ l' = l \/ (exists id k, lookup x l = Some (id, k, l')) ->
      match bind_variable x {| next := n; scopes := l' |} with Some (id, pre, t) => Some (HPBind id pre, t) | None => None end = Some (h, t') -> step_ok n l t' (binds h)).
    { intros l' C E. destruct (bind_variable x {| next := n; scopes := l' |}) as [[[id pre] t]|] eqn:Eb; [|discriminate]. inversion E; subst.
      assert (ST : step_ok n l {| next := n; scopes := l' |} []).
      { destruct C as [[_ ->]|(i & k & L)]; [now apply step_refl|eapply lookup_step; eauto]. }
      change (binds (HPBind id pre)) with ([] ++ if pre then [] else [id]). eapply step_trans; [exact ST|].
      eapply bind_ok; [apply ST|exact N|exact Eb]. }
    destruct (lookup x l) as [[[id k] l']|] eqn:L.
    + destruct k as [|[|m]|m]; try (apply (K l'); [right; eauto|exact H]).
      inversion H; subst. eapply lookup_step; eauto.
    + apply (K l); [now left|exact H].
  - intros x p IH n l h t' G U H. split_uses.
    destruct (visit_pattern p {| next := n; scopes := l |}) as [[hp t1]|] eqn:E1; [|discriminate].
    destruct (bind_variable x t1) as [[[id pre] t2]|] eqn:E2; [|discriminate]. inversion H; subst. pose proof (IH _ _ _ _ G H1 E1) as ST.
    eapply step_trans; [exact ST|]. eapply (bind_ok _ _ x); [apply ST|assumption|rewrite <- table_eta; exact E2].
  - intros ps IH n l h t' G U H. destruct (visit_patterns ps {| next := n; scopes := l |}) as [[hp t1]|] eqn:E1; [|discriminate]. inversion H; subst.
    exact (IH _ _ _ _ G U E1).
  - intros c ps IH n l h t' G U H. split_uses. cbn [scopes] in H.
    destruct (lookup c l) as [[[id k] l']|] eqn:L; [|discriminate].
    assert (ST : step_ok n l {| next := n; scopes := l' |} []) by (eapply lookup_step; eauto).
    assert (X : match visit_patterns ps {| next := n; scopes := l' |} with Some (hs, t) => Some (HPCon id hs, t) | None => None end = Some (h, t')).
    { destruct k; [discriminate| |]; destruct (plen ps =? params); try discriminate; exact H. }
    destruct (visit_patterns ps {| next := n; scopes := l' |}) as [[hp t1]|] eqn:E1; [|discriminate]. inversion X; subst.
    change (binds (HPCon id hp)) with ([] ++ binds_all hp). eapply step_trans; [exact ST|]. exact (IH _ _ _ _ (proj1 ST) H1 E1).
  - intros n l h t' G U H. inversion H; subst. now apply step_refl.
  - intros p IHp ps IHs n l h t' G U H. split_uses.
    destruct (visit_pattern p {| next := n; scopes := l |}) as [[hp t1]|] eqn:E1; [|discriminate].
    destruct (visit_patterns ps t1) as [[hs t2]|] eqn:E2; [|discriminate]. inversion H; subst. cbn [binds_all].
    pose proof (IHp _ _ _ _ G H0 E1) as ST. eapply step_trans; [exact ST|]. eapply IHs; [apply ST|assumption|rewrite <- table_eta; exact E2].
Qed.

(** * What a visit of an expression does to the table *)
Definition lids (n m : nat) (us : units) : Prop :=
  NoDup (map fst us) /\ forall i, In i (map fst us) -> n <= i /\ i < m.
Lemma NoDup_app_intro {A} (a b : list A) : NoDup a -> NoDup b -> (forall x, In x a -> In x b -> False) -> NoDup (a ++ b).
Proof.
  induction a as [|x a IH]; cbn [app]; intros A1 B1 D; [exact B1|]. inversion A1; subst. constructor.
  - intros K. apply in_app_iff in K as [K|K]; [tauto|]. exact (D x (or_introl eq_refl) K).
  - apply IH; auto. intros y K1 K2. exact (D y (or_intror K1) K2).
Qed.
Lemma lids_nil n m : lids n m [].
Proof. split; [constructor|intros i []]. Qed.
Lemma lids_app n m k a b : lids n m a -> lids m k b -> n <= m -> m <= k -> lids n k (a ++ b).
Proof.
  intros [A1 A2] [B1 B2] L1 L2. split.
  - rewrite map_app. apply NoDup_app_intro; auto. intros x K1 K2. pose proof (A2 x K1). pose proof (B2 x K2). lia.
  - intros i K. rewrite map_app, in_app_iff in K. destruct K as [K|K]; [pose proof (A2 i K)|pose proof (B2 i K)]; lia.
Qed.

Definition estep (n : nat) (l : list scope) (t' : table) (us : units) : Prop :=
  good (next t') (scopes t') /\ n <= next t' /\ Forall2 ext l (scopes t') /\ lids n (next t') us.
Definition sstep (n : nat) (l : list scope) (t' : table) (us : units) : Prop :=
  step_ok n l t' [] /\ lids n (next t') us.

Lemma estep_trans n l t1 t2 a b : estep n l t1 a -> estep (next t1) (scopes t1) t2 b -> estep n l t2 (a ++ b).
Proof.
  intros (A1 & A2 & A3 & A4) (B1 & B2 & B3 & B4). split; [exact B1|]. split; [lia|]. split; [eapply exts_trans; eauto|].
  eapply lids_app; eauto.
Qed.
Lemma sstep_trans n l t1 t2 a b : sstep n l t1 a -> sstep (next t1) (scopes t1) t2 b -> sstep n l t2 (a ++ b).
Proof.
  intros (A1 & A2) (B1 & B2). split; [exact (step_trans _ _ _ _ [] [] A1 B1)|]. eapply lids_app; [exact A2|exact B2|exact (proj1 (proj2 A1))|exact (proj1 (proj2 B1))].
Qed.
Lemma estep_sstep n l t us : estep n l t us -> sstep n l t us.
Proof.
  intros (A1 & A2 & A3 & A4). split; [|exact A4]. split; [exact A1|]. split; [exact A2|]. split; [now apply exts_evo|].
  split; [now apply news_ext|]. intros i [].
Qed.
Lemma step_sstep n l t ids : step_ok n l t ids -> sstep n l t [].
Proof. intros (A1 & A2 & A3 & A4 & A5). split; [|apply lids_nil]. split; [exact A1|]. split; [exact A2|]. split; [exact A3|]. split; [exact A4|]. intros i []. Qed.
Lemma estep_refl n l : good n l -> estep n l {| next := n; scopes := l |} [].
Proof. intros G. split; [exact G|]. split; [cbn; lia|]. split; [apply exts_refl|apply lids_nil]. Qed.

Lemma sstep_pop n l b t us : good n l -> sstep n ({| vars := []; decls := []; barrier := b |} :: l) t us -> estep n l (pop t) us.
Proof.
  intros G ((A1 & A2 & A3 & _) & A5). unfold pop, with_scopes. split; [|split; [exact A2|split; [|exact A5]]]; cbn [next scopes].
  - destruct (scopes t) as [|s r]; cbn [evo] in A3; [tauto|]. cbn [tl]. eapply good_ext; [exact G|apply A3|apply A1|exact A2].
  - destruct (scopes t) as [|s r]; cbn [evo] in A3; [tauto|]. apply A3.
Qed.

Lemma lookup_estep n l x id k l' : good n l -> x <> LAM -> lookup x l = Some (id, k, l') -> estep n l {| next := n; scopes := l' |} [].
Proof.
  intros G N H. destruct (lookup_some _ _ _ _ _ N (proj1 G) H) as (F & X & J & C).
  split; [eapply good_ext; eauto|]. split; [cbn; lia|]. split; [exact X|]. apply lids_nil.
Qed.

Lemma declaration_ok n l x id t' : good n l -> x <> LAM -> add_declaration x {| next := n; scopes := l |} = Some (id, t') ->
  exists l1 s r, (lookup x l = None /\ l1 = l \/ exists i k, lookup x l = Some (i, k, l1) /\ k <> IsVar) /\ l1 = s :: r /\ assoc x (decls s) = None /\ id = n /\
  t' = {| next := S n; scopes := {| vars := (x, (n, IsVar)) :: vars s; decls := (x, Some n) :: decls s; barrier := barrier s |} :: r |}.
Proof.
  intros G N H. unfold add_declaration in H. cbn [scopes] in H.
  assert (X : exists l1, (lookup x l = None /\ l1 = l \/ exists i k, lookup x l = Some (i, k, l1) /\ k <> IsVar) /\
    match l1 with
    | s :: _ => if existsb (fun d => String.eqb x (fst d)) (decls s) then None
                else let (id, t) := add_thing x IsVar {| next := n; scopes := l1 |} in
                     match scopes t with
                     | s :: l => Some (id, with_scopes t ({| vars := vars s; decls := (x, Some id) :: decls s; barrier := barrier s |} :: l))
                     | [] => None end
    | [] => None end = Some (id, t')).
  { destruct (lookup x l) as [[[i k] l']|] eqn:L.
    - destruct k; cbn [with_scopes scopes next orb] in H.
      + destruct l'; discriminate.
      + exists l'. split; [right; eauto; do 2 eexists; split; [reflexivity|discriminate]|exact H].
      + exists l'. split; [right; eauto; do 2 eexists; split; [reflexivity|discriminate]|exact H].
    - exists l. split; [left; auto|exact H]. }
  destruct X as (l1 & C & E). destruct l1 as [|s r]; [discriminate|].
  destruct (existsb (fun d => String.eqb x (fst d)) (decls s)) eqn:D; [discriminate|].
  unfold add_thing in E. cbn [scopes next with_scopes vars decls barrier] in E. inversion E; subst. exists (s :: r), s, r.
  split; [exact C|]. split; [reflexivity|]. split; [|split; reflexivity].
  unfold assoc. destruct (find (fun p => String.eqb x (fst p)) (decls s)) as [q|] eqn:F; [|reflexivity].
  apply find_some in F as [F1 F2]. assert (K : existsb (fun d => String.eqb x (fst d)) (decls s) = true) by (apply existsb_exists; eauto). congruence.
Qed.

Lemma declaration_step n l x id t' : good n l -> x <> LAM -> add_declaration x {| next := n; scopes := l |} = Some (id, t') -> sstep n l t' [].
Proof.
  intros G N H. destruct (declaration_ok _ _ _ _ _ G N H) as (l1 & s & r & C & -> & D & -> & ->).
  assert (ST : sstep n l {| next := n; scopes := s :: r |} []).
  { destruct C as [[_ <-]|(i & k & L & _)]; [apply estep_sstep, estep_refl; exact G|]. eapply estep_sstep, lookup_estep; eauto. }
  change (@nil (nat * lambda_unit)) with (@nil (nat * lambda_unit) ++ []). eapply sstep_trans; [exact ST|]. cbn [next scopes].
  destruct (add_ok n s r x IsVar (S n) (proj1 (proj1 ST)) (fun _ => eq_refl) (le_n _)) as [(E1 & E2 & E3 & E5) E4].
  split; [|apply lids_nil]. split; [|split; [cbn; lia|split; [|split; [exact E4|intros i []]]]].
  - cbn [next scopes]. split; [eapply inv_head; [exact E1|reflexivity]|]. split; [exact E2|]. split; [exact E3|exact E5].
  - cbn [scopes evo]. split; [unfold bext; cbn; destruct (barrier s); [exists []; now rewrite app_nil_r|exact I]|apply exts_refl].
Qed.
Lemma names_ok xs : forall n l ids t', good n l -> existsb (String.eqb LAM) xs = false -> visit_names xs {| next := n; scopes := l |} = Some (ids, t') -> sstep n l t' [].
Proof.
  induction xs as [|x xs IH]; cbn [visit_names existsb]; intros n l ids t' G U H.
  - inversion H; subst. now apply estep_sstep, estep_refl.
  - split_uses. destruct (add_declaration x {| next := n; scopes := l |}) as [[id t1]|] eqn:E1; [|discriminate].
    destruct (visit_names xs t1) as [[ids' t2]|] eqn:E2; [|discriminate]. inversion H; subst.
    pose proof (declaration_step _ _ _ _ _ G H0 E1) as ST. change (@nil (nat * lambda_unit)) with (@nil (nat * lambda_unit) ++ []).
    eapply sstep_trans; [exact ST|]. eapply IH; [apply ST|assumption|rewrite <- table_eta; exact E2].
Qed.

Lemma lam_head n l t' us k m : estep n l t' us -> next t' + 4 <= m ->
  exists t2, snd (add_thing LAM k t') = t2 /\ fst (add_thing LAM k t') = next t' /\ next t2 <= S (next t') /\ next t' <= next t2 /\ estep n l {| next := m; scopes := scopes t2 |} us.
Proof.
  intros (A1 & A2 & A3 & A4) L. eexists. split; [reflexivity|]. unfold add_thing.
  assert (LD : lids n m us) by (destruct A4 as [B1 B2]; split; [exact B1|]; intros i H; pose proof (B2 i H); lia).
  destruct (scopes t') as [|s r] eqn:E; cbn [fst snd next scopes].
  - split; [reflexivity|]. split; [lia|]. split; [lia|]. rewrite E. split; [|split; [cbn; lia|split; [exact A3|exact LD]]].
    cbn [next scopes]. eapply good_ext; [exact A1|apply exts_refl|apply A1|lia].
  - split; [reflexivity|]. split; [lia|]. split; [lia|].
    assert (X : Forall2 ext (s :: r) ({| vars := (LAM, (next t', k)) :: vars s; decls := decls s; barrier := barrier s |} :: r)).
    { constructor; [|apply exts_refl]. split; [|split; [reflexivity|]].
      - intros x N. cbn [vars]. rewrite assoc_cons. apply eqb_neq in N. rewrite N. reflexivity.
      - unfold bext. cbn. destruct (barrier s); [exists []; now rewrite app_nil_r|exact I]. }
    split; [|split; [cbn; lia|split; [eapply exts_trans; eauto|exact LD]]]. cbn [next scopes].
    eapply good_ext; [exact A1|exact X|eapply inv_head; [apply A1|reflexivity]|lia].
Qed.

Lemma expr_ok :
  (forall e n l h t', good n l -> uses LAM e = false -> visit_expression e {| next := n; scopes := l |} = Some (h, t') -> estep n l t' (replacements h)) /\
  (forall es n l h t', good n l -> exprs_use LAM es = false -> visit_expressions es {| next := n; scopes := l |} = Some (h, t') -> estep n l t' (replacements_exprs h)) /\
  (forall a n l h t', good n l -> arms_use LAM a = false -> visit_arms a {| next := n; scopes := l |} = Some (h, t') -> estep n l t' (replacements_arms h)) /\
  (forall ss n l h t', good n l -> stmts_use LAM ss = false -> visit_statements ss {| next := n; scopes := l |} = Some (h, t') -> sstep n l t' (replacements_stmts h)).
Proof.
  apply expr_all_ind; cbn [visit_expression visit_expressions visit_arms visit_statements uses exprs_use arms_use stmts_use].
  - intros z n l h t' G U H. inversion H; subst. now apply estep_refl.
  - intros x n l h t' G U H. split_uses. cbn [scopes] in H. destruct (lookup x l) as [[[id k] l']|] eqn:L; [|discriminate].
    destruct k; try discriminate. inversion H; subst. eapply lookup_estep; eauto.
  - intros a IHa b IHb n l h t' G U H. split_uses.
    destruct (visit_expression a {| next := n; scopes := l |}) as [[ha t1]|] eqn:E1; [|discriminate].
    destruct (visit_expression b t1) as [[hb t2]|] eqn:E2; [|discriminate]. inversion H; subst. cbn [replacements].
    pose proof (IHa _ _ _ _ G H0 E1) as ST. eapply estep_trans; [exact ST|]. eapply IHb; [apply ST|assumption|rewrite <- table_eta; exact E2].
  - intros es IH n l h t' G U H. destruct (visit_expressions es {| next := n; scopes := l |}) as [[ha t1]|] eqn:E1; [|discriminate]. inversion H; subst.
    exact (IH _ _ _ _ G U E1).
  - intros e IH i n l h t' G U H. destruct (visit_expression e {| next := n; scopes := l |}) as [[ha t1]|] eqn:E1; [|discriminate]. inversion H; subst.
    exact (IH _ _ _ _ G U E1).
  - intros c es IH n l h t' G U H. split_uses. cbn [scopes] in H. destruct (lookup c l) as [[[id k] l']|] eqn:L; [|discriminate].
    pose proof (lookup_estep _ _ _ _ _ _ G H0 L) as ST.
    assert (X : match visit_expressions es {| next := n; scopes := l' |} with Some (es, t) => Some (HCon id es, t) | None => None end = Some (h, t')).
    { destruct k; [discriminate|exact H|exact H]. }
    destruct (visit_expressions es {| next := n; scopes := l' |}) as [[ha t1]|] eqn:E1; [|discriminate]. inversion X; subst.
    change (replacements (HCon id ha)) with ([] ++ replacements_exprs ha). eapply estep_trans; [exact ST|]. eapply IH; [apply ST|assumption|exact E1].
  - intros c IHc a IHa b IHb n l h t' G U H. split_uses.
    destruct (visit_expression c {| next := n; scopes := l |}) as [[hc t0]|] eqn:E0; [|discriminate].
    destruct (visit_expression a t0) as [[ha t1]|] eqn:E1; [|discriminate].
    destruct (visit_expression b t1) as [[hb t2]|] eqn:E2; [|discriminate]. inversion H; subst. cbn [replacements].
    pose proof (IHc _ _ _ _ G ltac:(assumption) E0) as S0. eapply estep_trans; [exact S0|].
    assert (S1 : estep (next t0) (scopes t0) t1 (replacements ha)) by (eapply IHa; [apply S0|assumption|rewrite <- table_eta; exact E1]).
    eapply estep_trans; [exact S1|]. eapply IHb; [apply S1|assumption|rewrite <- table_eta; exact E2].
  - intros e IHe a IHa n l h t' G U H. split_uses.
    destruct (visit_expression e {| next := n; scopes := l |}) as [[hc t0]|] eqn:E0; [|discriminate].
    destruct (visit_arms a t0) as [[ha t1]|] eqn:E1; [|discriminate]. inversion H; subst. cbn [replacements].
    pose proof (IHe _ _ _ _ G H0 E0) as S0. eapply estep_trans; [exact S0|]. eapply IHa; [apply S0|assumption|rewrite <- table_eta; exact E1].
  - intros ss IHs e IHe n l h t' G U H. split_uses. unfold push, with_scopes in H. cbn [next scopes] in H.
    destruct (visit_statements ss _) as [[hs t0]|] eqn:E0; [|discriminate].
    destruct (visit_expression e t0) as [[he t1]|] eqn:E1; [|discriminate].
    destruct (all_defined t1); [|discriminate]. inversion H; subst. cbn [replacements].
    pose proof (IHs _ _ _ _ (good_push _ _ None G (or_introl eq_refl)) H0 E0) as S0.
    eapply sstep_pop; [exact G|]. eapply sstep_trans; [exact S0|]. apply estep_sstep. eapply IHe; [apply S0|assumption|rewrite <- table_eta; exact E1].
  - intros en ps ss IHs e IHe n l h t' G U H. split_uses.
    destruct (handle_unit_kind en ps) as [[hc ps']|] eqn:HK; [|discriminate].
    assert (UP : pats_use LAM ps' = false).
    { unfold handle_unit_kind in HK. destruct en; [|inversion HK; subst; assumption]. destruct ps as [|[| |? ?| |] ps]; try discriminate.
      destruct (String.eqb x "clk"); [|discriminate]. inversion HK; subst. cbn [pats_use] in *. split_uses. assumption. }
    remember (push (Some []) {| next := n; scopes := l |}) as t0 eqn:Et0.
    destruct (if hc then add_thing "clk" IsVar t0 else (0, t0)) as [clk t1] eqn:Ec.
    assert (S0 : sstep n ({| vars := []; decls := []; barrier := Some [] |} :: l) t1 []).
    { pose proof (good_push _ _ (Some []) G (or_intror eq_refl)) as G0.
      destruct hc; [|inversion Ec; subst; now apply estep_sstep, estep_refl].
      rewrite Et0 in Ec. unfold push, with_scopes, add_thing in Ec. cbn [scopes next] in Ec. inversion Ec; subst.
      destruct (add_ok clk {| vars := []; decls := []; barrier := Some [] |} l "clk" IsVar (S clk) G0 (fun _ => eq_refl) (le_n _)) as [X1 X2].
      cbn [vars decls barrier] in X1, X2. split; [|apply lids_nil]. split; [exact X1|]. split; [cbn; lia|].
      split; [cbn; split; [unfold bext; cbn; now exists []|apply exts_refl]|]. split; [exact X2|]. intros i []. }
    destruct (visit_patterns ps' t1) as [[hp t2]|] eqn:E2; [|discriminate].
    destruct (visit_statements ss (push None t2)) as [[hs t3]|] eqn:E3; [|discriminate].
    destruct (visit_expression e t3) as [[he t4]|] eqn:E4; [|discriminate].
    destruct (all_defined t4); [|discriminate].
    assert (S1 : sstep n ({| vars := []; decls := []; barrier := Some [] |} :: l) t2 []).
    { change (@nil (nat * lambda_unit)) with (@nil (nat * lambda_unit) ++ []). eapply sstep_trans; [exact S0|]. eapply step_sstep.
      eapply (proj2 pattern_ok); [apply S0|exact UP|rewrite <- table_eta; exact E2]. }
    assert (S3 : sstep (next t2) ({| vars := []; decls := []; barrier := None |} :: scopes t2) t4 (replacements_stmts hs ++ replacements he)).
    { assert (X : sstep (next t2) ({| vars := []; decls := []; barrier := None |} :: scopes t2) t3 (replacements_stmts hs)).
      { eapply IHs; [apply good_push; [apply S1|now left]|assumption|exact E3]. }
      eapply sstep_trans; [exact X|]. apply estep_sstep. eapply IHe; [apply X|assumption|rewrite <- table_eta; exact E4]. }
    assert (S4 : estep (next t2) (scopes t2) (pop t4) (replacements_stmts hs ++ replacements he)) by (eapply sstep_pop; [apply S1|exact S3]).
    assert (S5 : estep n l (pop (pop t4)) (replacements_stmts hs ++ replacements he)).
    { apply sstep_pop with (b := Some []); [exact G|]. change (replacements_stmts hs ++ replacements he) with ([] ++ (replacements_stmts hs ++ replacements he)).
      eapply sstep_trans; [exact S1|]. now apply estep_sstep. }
    set (k := IsStruct (List.length (captured (pop t4)))) in *.
    destruct (add_thing LAM k (pop (pop t4))) as [lid t5] eqn:E5. cbn [fresh_id next scopes fst snd] in H.
    destruct (lam_head n l _ _ k (S (S (S (S (next (pop (pop t4))))))) S5 ltac:(lia)) as (t6 & Q1 & Q2 & Q3 & Q3' & Q4). rewrite E5 in Q1, Q2. cbn [fst snd] in Q1, Q2. subst t6.
    inversion H; subst t'. cbn [replacements next scopes]. destruct Q4 as (R1 & R2 & R3 & R4). cbn [next scopes] in *.
    split; [|split; [cbn; pose proof (proj1 (proj2 S5)); lia|split; [exact R3|]]].
    + cbn [next scopes]. destruct R1 as (X1 & X2 & X3).
      (* identifiers are below the next one even if the table had no scope *)
      split; [exact X1|]. split; [|exact X3].
      intros x id kk N F. pose proof (find_ext _ _ x R3 N) as FE. rewrite F in FE. symmetry in FE.
      pose proof (proj1 (proj2 G) x id kk N FE). pose proof (proj1 (proj2 S5)). lia.
    + destruct S5 as (_ & L5 & _ & [Y1 Y2]). split; cbn [map fst].
      * constructor; [|exact Y1]. intros K. pose proof (Y2 _ K). lia.
      * pose proof (proj1 (proj2 S4)) as M1. pose proof (proj1 (proj2 (proj1 S1))) as M2. unfold pop, with_scopes in *. cbn [next] in *.
        intros i [<-|K]; [lia|]. pose proof (Y2 _ K). cbn in *. lia.
  - intros f IHf es IHe n l h t' G U H. split_uses.
    destruct (visit_expression f {| next := n; scopes := l |}) as [[hc t0]|] eqn:E0; [|discriminate].
    destruct (visit_expressions es t0) as [[ha t1]|] eqn:E1; [|discriminate]. inversion H; subst. cbn [replacements].
    pose proof (IHf _ _ _ _ G H0 E0) as S0. eapply estep_trans; [exact S0|]. eapply IHe; [apply S0|assumption|rewrite <- table_eta; exact E1].
  - intros f IHf c IHc es IHe n l h t' G U H. split_uses.
    destruct (visit_expression f {| next := n; scopes := l |}) as [[hc t0]|] eqn:E0; [|discriminate].
    destruct (visit_expression c t0) as [[ha t1]|] eqn:E1; [|discriminate].
    destruct (visit_expressions es t1) as [[hb t2]|] eqn:E2; [|discriminate]. inversion H; subst. cbn [replacements].
    pose proof (IHf _ _ _ _ G ltac:(assumption) E0) as S0. eapply estep_trans; [exact S0|].
    assert (S1 : estep (next t0) (scopes t0) t1 (replacements ha)) by (eapply IHc; [apply S0|assumption|rewrite <- table_eta; exact E1]).
    eapply estep_trans; [exact S1|]. eapply IHe; [apply S1|assumption|rewrite <- table_eta; exact E2].
  - intros n l h t' G U H. inversion H; subst. now apply estep_refl.
  - intros e IHe es IHs n l h t' G U H. split_uses.
    destruct (visit_expression e {| next := n; scopes := l |}) as [[hc t0]|] eqn:E0; [|discriminate].
    destruct (visit_expressions es t0) as [[ha t1]|] eqn:E1; [|discriminate]. inversion H; subst. cbn [replacements_exprs].
    pose proof (IHe _ _ _ _ G H0 E0) as S0. eapply estep_trans; [exact S0|]. eapply IHs; [apply S0|assumption|rewrite <- table_eta; exact E1].
  - intros n l h t' G U H. inversion H; subst. now apply estep_refl.
  - intros p c IHc e IHe a IHa n l h t' G U H. split_uses. unfold push, with_scopes in H. cbn [next scopes] in H.
    destruct (visit_pattern p _) as [[hp t0]|] eqn:E0; [|discriminate].
    destruct (visit_expression c t0) as [[hc t1]|] eqn:E1; [|discriminate].
    destruct (visit_expression e t1) as [[he t2]|] eqn:E2; [|discriminate].
    destruct (visit_arms a (pop t2)) as [[ha t3]|] eqn:E3; [|discriminate]. inversion H; subst. cbn [replacements_arms].
    assert (S0 : sstep n ({| vars := []; decls := []; barrier := None |} :: l) t0 []).
    { eapply step_sstep, (proj1 pattern_ok); [apply good_push; [exact G|now left]|eassumption|exact E0]. }
    assert (S1 : estep (next t0) (scopes t0) t1 (replacements hc)) by (eapply IHc; [apply S0|assumption|rewrite <- table_eta; exact E1]).
    assert (S2 : estep (next t1) (scopes t1) t2 (replacements he)) by (eapply IHe; [apply S1|assumption|rewrite <- table_eta; exact E2]).
    assert (S3 : estep n l (pop t2) (replacements hc ++ replacements he)).
    { eapply sstep_pop; [exact G|]. change (replacements hc ++ replacements he) with ([] ++ (replacements hc ++ replacements he)).
      eapply sstep_trans; [exact S0|]. eapply sstep_trans; [apply estep_sstep; exact S1|apply estep_sstep; exact S2]. }
    rewrite app_assoc. eapply estep_trans; [exact S3|]. eapply IHa; [apply S3|assumption|rewrite <- table_eta; exact E3].
  - intros n l h t' G U H. inversion H; subst. apply estep_sstep. now apply estep_refl.
  - intros xs ss IHs n l h t' G U H. split_uses.
    destruct (visit_names xs {| next := n; scopes := l |}) as [[ids t0]|] eqn:E0; [|discriminate].
    destruct (visit_statements ss t0) as [[hs t1]|] eqn:E1; [|discriminate]. inversion H; subst. cbn [replacements_stmts].
    pose proof (names_ok _ _ _ _ _ G H0 E0) as S0. change (replacements_stmts hs) with ([] ++ replacements_stmts hs).
    eapply sstep_trans; [exact S0|]. eapply IHs; [apply S0|assumption|rewrite <- table_eta; exact E1].
  - intros p e IHe ss IHs n l h t' G U H. split_uses.
    destruct (visit_expression e {| next := n; scopes := l |}) as [[he t0]|] eqn:E0; [|discriminate].
    destruct (visit_pattern p t0) as [[hp t1]|] eqn:E1; [|discriminate].
    destruct (visit_statements ss t1) as [[hs t2]|] eqn:E2; [|discriminate]. inversion H; subst. cbn [replacements_stmts].
    pose proof (IHe _ _ _ _ G ltac:(assumption) E0) as S0. eapply sstep_trans; [apply estep_sstep; exact S0|].
    assert (S1 : sstep (next t0) (scopes t0) t1 []) by (eapply step_sstep, (proj1 pattern_ok); [apply S0|eassumption|rewrite <- table_eta; exact E1]).
    change (replacements_stmts hs) with ([] ++ replacements_stmts hs). eapply sstep_trans; [exact S1|]. eapply IHs; [apply S1|assumption|rewrite <- table_eta; exact E2].
  - intros p e IHe ss IHs n l h t' G U H. split_uses.
    destruct (visit_pattern p {| next := n; scopes := l |}) as [[hp t0]|] eqn:E0; [|discriminate].
    destruct (visit_expression e t0) as [[he t1]|] eqn:E1; [|discriminate].
    destruct (visit_statements ss t1) as [[hs t2]|] eqn:E2; [|discriminate]. inversion H; subst. cbn [replacements_stmts].
    assert (S0 : sstep n l t0 []) by (eapply step_sstep, (proj1 pattern_ok); [exact G|eassumption|exact E0]).
    change (replacements he ++ replacements_stmts hs) with ([] ++ replacements he ++ replacements_stmts hs). eapply sstep_trans; [exact S0|].
    assert (S1 : estep (next t0) (scopes t0) t1 (replacements he)) by (eapply IHe; [apply S0|assumption|rewrite <- table_eta; exact E1]).
    eapply sstep_trans; [apply estep_sstep; exact S1|]. eapply IHs; [apply S1|assumption|rewrite <- table_eta; exact E2].
Qed.
End Fixed.
