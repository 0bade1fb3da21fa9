(** Readings exist, and the check is exact for simple signatures *)
From Coq Require Import ZArith List Bool String Arith Lia.
From Verif Require Import ConformModel ConformSpec ConformProofs.
Import ListNotations.

(** * Readings that differ in some names only *)
Record like {D} (gs : list generic) (ns : list nat) (self : bool) (R R' : reading D) : Prop := {
  l_name : forall n l, ~ In n ns -> r_name R n l = r_name R' n l;
  l_var : forall g, ~ In g gs -> r_var R g = r_var R' g;
  l_self : self = false -> r_self R = r_self R';
  l_tuple : forall l, r_tuple R l = r_tuple R' l;
  l_array : forall a b, r_array R a b = r_array R' a b;
  l_inv : forall a, r_inv R a = r_inv R' a;
  l_view : forall a, r_view R a = r_view R' a;
  l_wild : r_wild R = r_wild R';
  l_bool : forall b, r_bool R b = r_bool R' b;
  l_int : forall z, r_int R z = r_int R' z;
  l_str : forall s, r_str R s = r_str R' s;
  l_bin : forall o a b, r_bin R o a b = r_bin R' o a b;
  l_un : forall o a, r_un R o a = r_un R' o a }.

Lemma has_in : forall gs g, has gs g = false -> ~ In g gs.
Proof.
  intros gs g H I. unfold has in H. assert (existsb (generic_eqb g) gs = true); [|congruence].
  apply existsb_exists. exists g. split; [exact I|now apply generic_eqb_eq].
Qed.
Lemma not_in_has : forall gs g, ~ In g gs -> has gs g = false.
Proof.
  intros gs g H. unfold has. destruct (existsb (generic_eqb g) gs) eqn:E; [|reflexivity].
  apply existsb_exists in E as (h & I & E). apply generic_eqb_eq in E. subst. contradiction.
Qed.
Lemma names_in : forall n ns, existsb (Nat.eqb n) ns = false -> ~ In n ns.
Proof.
  intros n ns H I. assert (existsb (Nat.eqb n) ns = true); [|congruence]. apply existsb_exists. exists n. split; [exact I|apply Nat.eqb_refl].
Qed.

Section Mention.
  Variables (gs : list generic) (ns : list nat) (self : bool).
  Notation M := (mentions gs ns self).
  Notation E := (expr_mentions gs ns self).
  Notation S_ := (some_mentions gs ns self).
  Notation A := (any_mentions gs ns self).
  Lemma me_decl : forall n es, M (Declared n es) = existsb (Nat.eqb n) ns || A es. Proof. reflexivity. Qed.
  Lemma me_gen : forall g, M (Generic g) = has gs g. Proof. reflexivity. Qed.
  Lemma me_tup : forall l, M (Tuple l) = S_ l. Proof. reflexivity. Qed.
  Lemma me_arr : forall s e, M (Array s e) = M s || E e. Proof. reflexivity. Qed.
  Lemma me_inv : forall s, M (Inverted s) = M s. Proof. reflexivity. Qed.
  Lemma me_view : forall s, M (CopyView s) = M s. Proof. reflexivity. Qed.
  Lemma me_spec : forall s, E (ESpec s) = M s. Proof. reflexivity. Qed.
  Lemma me_scons : forall s l, S_ (SCons s l) = M s || S_ l. Proof. reflexivity. Qed.
  Lemma me_xcons : forall s l, A (XCons s l) = E s || A l. Proof. reflexivity. Qed.
End Mention.
Ltac mes := rewrite ?me_decl, ?me_gen, ?me_tup, ?me_arr, ?me_inv, ?me_view, ?me_spec, ?me_scons, ?me_xcons in *.

Lemma like_means : forall D gs ns self (R R' : reading D), like gs ns self R R' ->
  (forall s, mentions gs ns self s = false -> means R s = means R' s) /\
  (forall e, expr_mentions gs ns self e = false -> expr_means R e = expr_means R' e) /\
  (forall l, some_mentions gs ns self l = false -> each_means R l = each_means R' l) /\
  (forall l, any_mentions gs ns self l = false -> all_mean R l = all_mean R' l).
Proof.
  intros D gs ns self R R' L. apply types_ind; intros; mes; ms; try reflexivity.
  - apply orb_false_iff in H0 as [N X]. rewrite (H X). apply (l_name _ _ _ _ _ L). now apply names_in.
  - apply (l_var _ _ _ _ _ L). now apply has_in.
  - rewrite (H H0). apply (l_tuple _ _ _ _ _ L).
  - apply orb_false_iff in H1 as [X Y]. rewrite (H X), (H0 Y). apply (l_array _ _ _ _ _ L).
  - rewrite (H H0). apply (l_inv _ _ _ _ _ L).
  - rewrite (H H0). apply (l_view _ _ _ _ _ L).
  - exact (l_self _ _ _ _ _ L H).
  - exact (l_wild _ _ _ _ _ L).
  - exact (H H0).
  - apply (l_bool _ _ _ _ _ L).
  - apply (l_int _ _ _ _ _ L).
  - apply (l_str _ _ _ _ _ L).
  - cbn [expr_mentions] in H. change (cg_means R c = cg_means R' c). revert H. clear - L. induction c; cbn; intros H.
    + apply (l_var _ _ _ _ _ L). now apply has_in.
    + apply (l_bool _ _ _ _ _ L).
    + apply (l_int _ _ _ _ _ L).
    + apply (l_str _ _ _ _ _ L).
    + apply orb_false_iff in H as [X Y]. rewrite (IHc1 X), (IHc2 Y). apply (l_bin _ _ _ _ _ L).
    + rewrite (IHc H). apply (l_un _ _ _ _ _ L).
  - apply orb_false_iff in H1 as [X Y]. now rewrite (H X), (H0 Y).
  - apply orb_false_iff in H1 as [X Y]. now rewrite (H X), (H0 Y).
Qed.

(** * A reading for each method *)
Lemma position_some : forall g l, In g l -> exists k, position g l = Some k.
Proof.
  intros g l. induction l as [|h l IH]; intros I; [destruct I|]. cbn. destruct (generic_eqb h g) eqn:E; [eauto|].
  destruct I as [I|I]; [subst; rewrite (proj2 (generic_eqb_eq g g) eq_refl) in E; discriminate|].
  destruct (IH I) as (k & P). rewrite P. cbn. eauto.
Qed.
Lemma position_none : forall g l, ~ In g l -> position g l = None.
Proof.
  intros g l. induction l as [|h l IH]; intros I; [reflexivity|]. cbn. destruct (generic_eqb h g) eqn:E.
  - apply generic_eqb_eq in E. subst. exfalso. apply I. now left.
  - rewrite IH; [reflexivity|]. intros C. apply I. now right.
Qed.
Lemma position_unique : forall l k g, NoDup l -> nth_error l k = Some g -> position g l = Some k.
Proof.
  induction l as [|h l IH]; intros k g ND N; [destruct k; discriminate|]. inversion ND; subst. cbn. destruct k; cbn in N.
  - inversion N; subst. now rewrite (proj2 (generic_eqb_eq g g) eq_refl).
  - destruct (generic_eqb h g) eqn:E.
    + apply generic_eqb_eq in E. subst. exfalso. apply H1. eapply nth_error_In; eassumption.
    + rewrite (IH _ _ H2 N). reflexivity.
Qed.

(** The block's name for an associated type of the trait *)
Fixpoint block_name (t : trait_def) (l : list (string * (nat * list param))) (n : nat) : option nat :=
  match l with
  | [] => None
  | (x, (n', _)) :: l =>
      match get x (t_assoc t) with
      | Some (m, _) => if m =? n then Some n' else block_name t l n
      | None => block_name t l n
      end
  end.

Lemma nodup_map_inj : forall A B (f : A -> B) l x y, NoDup (map f l) -> In x l -> In y l -> f x = f y -> x = y.
Proof.
  intros A B f l x y. induction l as [|a l IH]; cbn; intros ND X Y E; [destruct X|]. inversion ND; subst.
  destruct X as [X|X], Y as [Y|Y]; subst; auto.
  - exfalso. apply H1. rewrite E. now apply in_map.
  - exfalso. apply H1. rewrite <- E. now apply in_map.
Qed.
Lemma in_get : forall A (l : list (string * A)) x a, NoDup (map fst l) -> In (x, a) l -> get x l = Some a.
Proof.
  intros A l x a ND I. destruct (get_some _ x l) as (a' & G); [apply in_map_iff; exists (x, a); auto|].
  rewrite G. f_equal. apply get_in in G. assert (E : (x, a') = (x, a)) by (eapply nodup_map_inj; eauto). congruence.
Qed.

Section Block.
  Variables (t : trait_def) (b : block).
  Hypothesis names : NoDup (map fst (t_assoc t)).
  Hypothesis ids : NoDup (trait_names t b).

  Lemma assoc_id : forall x y n ps qs, get x (t_assoc t) = Some (n, ps) -> get y (t_assoc t) = Some (n, qs) -> x = y.
  Proof.
    intros x y n ps qs G H. apply get_in in G, H. inversion ids; subst.
    assert (E : (x, (n, ps)) = (y, (n, qs))).
    { apply (nodup_map_inj _ _ (fun a => fst (snd a)) (t_assoc t)); auto. }
    congruence.
  Qed.
  Lemma assoc_names : forall x n ps, get x (t_assoc t) = Some (n, ps) -> In n (map (fun a => fst (snd a)) (t_assoc t)).
  Proof. intros x n ps G. apply get_in in G. apply in_map_iff. exists (x, (n, ps)). auto. Qed.
  Lemma assoc_not_self : forall x n ps, get x (t_assoc t) = Some (n, ps) -> n <> b_self b.
  Proof. intros x n ps G E. subst. inversion ids; subst. apply H1. eapply assoc_names; eassumption. Qed.
  Lemma block_name_some : forall l x n ps n' ps', NoDup (map fst l) -> get x (t_assoc t) = Some (n, ps) -> In (x, (n', ps')) l ->
    block_name t l n = Some n'.
  Proof.
    intros l x n ps n' ps' ND G. induction l as [|[y [k qs]] l IH]; cbn; intros I; [destruct I|]. cbn in ND. inversion ND; subst.
    destruct I as [I|I].
    - inversion I; subst. rewrite G. now rewrite Nat.eqb_refl.
    - destruct (get y (t_assoc t)) as [[m rs]|] eqn:H; [|now apply IH]. destruct (m =? n) eqn:E; [|now apply IH].
      apply Nat.eqb_eq in E. subst. assert (x = y) by (eapply assoc_id; eassumption). subst y.
      exfalso. apply H1. apply in_map_iff. exists (x, (n', ps')). auto.
  Qed.
  Lemma block_name_none : forall l n, ~ In n (map (fun a => fst (snd a)) (t_assoc t)) -> block_name t l n = None.
  Proof.
    intros l n H. induction l as [|[y [k qs]] l IH]; cbn; [reflexivity|]. destruct (get y (t_assoc t)) as [[m rs]|] eqn:G; [|exact IH].
    destruct (m =? n) eqn:E; [|exact IH]. apply Nat.eqb_eq in E. subst. exfalso. apply H. eapply assoc_names; eassumption.
  Qed.
End Block.

Section Reread.
  Context {D : Type} (R0 : reading D) (t : trait_def) (b : block) (m i : head).
  Definition R1 : reading D :=
    {| r_name := fun n l => if n =? b_self b then means R0 (b_target b)
                            else match block_name t (b_assoc b) n with Some n' => r_name R0 n' l | None => r_name R0 n l end;
       r_var := r_var R0; r_tuple := r_tuple R0; r_array := r_array R0; r_inv := r_inv R0; r_view := r_view R0;
       r_self := means R0 (b_target b); r_wild := r_wild R0; r_bool := r_bool R0; r_int := r_int R0; r_str := r_str R0;
       r_bin := r_bin R0; r_un := r_un R0 |}.
  Definition R2 : reading D :=
    {| r_name := r_name R1;
       r_var := fun g =>
         match position g (map p_name (listed (t_params t))) with
         | Some k => match argument t b k with Some e => expr_means R1 e | None => r_var R0 g end
         | None =>
             match position g (method_params m) with
             | Some k => match nth_error (method_params i) k with Some h => r_var R0 h | None => r_var R0 g end
             | None => r_var R0 g
             end
         end;
       r_tuple := r_tuple R0; r_array := r_array R0; r_inv := r_inv R0; r_view := r_view R0;
       r_self := r_self R1; r_wild := r_wild R0; r_bool := r_bool R0; r_int := r_int R0; r_str := r_str R0;
       r_bin := r_bin R0; r_un := r_un R0 |}.

  Hypothesis sc : scoped t b m i.
  Hypothesis nd : NoDup (map fst (b_assoc b)).

  Lemma split_generics : NoDup (map p_name (listed (t_params t))) /\ NoDup (method_params m) /\
    (forall g, In g (method_params m) -> ~ In g (map p_name (listed (t_params t)))).
  Proof.
    pose proof (sc_distinct _ _ _ _ sc) as ND. unfold trait_generics in ND. fold (method_params m) in ND.
    revert ND. generalize (map p_name (listed (t_params t))) as l1. generalize (method_params m) as l2. clear.
    intros l2 l1. induction l1 as [|a l1 IH]; cbn; intros ND; [repeat split; [constructor|exact ND|intros ? ? []]|].
    inversion ND; subst. destruct (IH H2) as (A & B & C). split; [|split]; auto.
    - constructor; [intros X; apply H1; apply in_or_app; auto|exact A].
    - intros g G [E|I]; [subst; apply H1; apply in_or_app; auto|]. exact (C g G I).
  Qed.

  Lemma like_vars : like (trait_generics t m) [] false R2 R1.
  Proof.
    constructor; try reflexivity. intros g N. cbn. unfold trait_generics in N. fold (method_params m) in N.
    rewrite position_none by (intros X; apply N; apply in_or_app; auto).
    rewrite position_none by (intros X; apply N; apply in_or_app; auto). reflexivity.
  Qed.
  Lemma like_names : like (trait_generics t m) (trait_names t b) true R2 R0.
  Proof.
    constructor; try reflexivity; try discriminate.
    - intros n l N. cbn. unfold trait_names in N. destruct (n =? b_self b) eqn:E.
      + apply Nat.eqb_eq in E. subst. exfalso. apply N. now left.
      + rewrite block_name_none; [reflexivity|]. intros X. apply N. now right.
    - intros g N. pose proof (l_var _ _ _ _ _ like_vars g N) as H. exact H.
  Qed.

  Lemma reading_fits : fits R2 t b m i.
  Proof.
    pose proof (sc_assoc _ _ _ _ sc) as [N1 N2].
    assert (T : means R2 (b_target b) = means R0 (b_target b)).
    { apply (proj1 (like_means _ _ _ _ _ _ like_names)). exact (sc_target _ _ _ _ sc). }
    destruct split_generics as (ND1 & ND2 & SEP). constructor.
    - cbn. now rewrite T.
    - intros l. cbn. rewrite Nat.eqb_refl. now rewrite T.
    - intros k p e P A. cbn. rewrite (position_unique _ k (p_name p) ND1).
      + rewrite A. symmetry. apply (proj1 (proj2 (like_means _ _ _ _ _ _ like_vars))). exact (sc_args _ _ _ _ sc _ _ A).
      + rewrite nth_error_map, P. reflexivity.
    - intros k p q P Q. cbn. assert (K : nth_error (method_params m) k = Some (p_name p)) by (unfold method_params; rewrite nth_error_map, P; reflexivity).
      assert (I : nth_error (method_params i) k = Some (p_name q)) by (unfold method_params; rewrite nth_error_map, Q; reflexivity).
      rewrite (position_none _ (map p_name (listed (t_params t)))) by (apply SEP; eapply nth_error_In; eassumption).
      rewrite (position_unique _ _ _ ND2 K), I.
      pose proof (sc_method _ _ _ _ sc q (nth_error_In _ _ Q)) as NQ.
      pose proof (l_var _ _ _ _ _ like_names _ NQ) as V. cbn in V. symmetry. exact V.
    - intros x n ps n' ps' l G I. cbn. pose proof (assoc_not_self _ _ N2 _ _ _ G) as NS. apply Nat.eqb_neq in NS. rewrite NS.
      rewrite (block_name_some _ _ N2 _ _ _ _ _ _ nd G I).
      pose proof (sc_types _ _ _ _ sc _ _ _ I) as NN. pose proof (l_name _ _ _ _ _ like_names n' l NN) as V. cbn in V. symmetry. exact V.
  Qed.
End Reread.

Theorem readings_exist : forall D (R0 : reading D) t b m i, scoped t b m i -> NoDup (map fst (b_assoc b)) ->
  exists R, fits R t b m i /\
    forall s, mentions (trait_generics t m) (trait_names t b) true s = false -> means R s = means R0 s.
Proof.
  intros D R0 t b m i sc nd. exists (R2 R0 t b m i). split; [now apply reading_fits|].
  exact (proj1 (like_means _ _ _ _ _ _ (like_names R0 t b m i))).
Qed.

(** * The check is exact *)
Definition to_spec (e : texpr) : spec := match e with ESpec s => s | _ => Wildcard end.
Fixpoint to_specs (l : list texpr) : specs := match l with [] => SNil | e :: l => SCons (to_spec e) (to_specs l) end.
Fixpoint to_exprs (l : list texpr) : texprs := match l with [] => XNil | e :: l => XCons e (to_exprs l) end.
Fixpoint list_specs (l : specs) : list texpr := match l with SNil => [] | SCons s l => ESpec s :: list_specs l end.
Fixpoint list_exprs (l : texprs) : list texpr := match l with XNil => [] | XCons e l => e :: list_exprs l end.
Lemma to_list_specs : forall l, to_specs (list_specs l) = l.
Proof. induction l; cbn; congruence. Qed.
Lemma to_list_exprs : forall l, to_exprs (list_exprs l) = l.
Proof. induction l; cbn; congruence. Qed.
Lemma list_specs_inj : forall l k, list_specs l = list_specs k -> l = k.
Proof. intros l k H. apply (f_equal to_specs) in H. now rewrite !to_list_specs in H. Qed.

Section Simplicity.
  Variable gs : list generic.
  Lemma si_decl : forall n es, simple gs (Declared n es) = simple_exprs gs es. Proof. reflexivity. Qed.
  Lemma si_tup : forall l, simple gs (Tuple l) = simple_specs gs l. Proof. reflexivity. Qed.
  Lemma si_arr : forall s e, simple gs (Array s e) = simple gs s && simple_expr gs e. Proof. reflexivity. Qed.
  Lemma si_inv : forall s, simple gs (Inverted s) = simple gs s. Proof. reflexivity. Qed.
  Lemma si_view : forall s, simple gs (CopyView s) = simple gs s && negb (mentions gs [] false s). Proof. reflexivity. Qed.
  Lemma si_spec : forall s, simple_expr gs (ESpec s) = simple gs s. Proof. reflexivity. Qed.
  Lemma si_scons : forall s l, simple_specs gs (SCons s l) = simple gs s && simple_specs gs l. Proof. reflexivity. Qed.
  Lemma si_xcons : forall s l, simple_exprs gs (XCons s l) = simple_expr gs s && simple_exprs gs l. Proof. reflexivity. Qed.
  Lemma cl_decl : forall n es, closed gs (Declared n es) = closed_exprs gs es. Proof. reflexivity. Qed.
  Lemma cl_tup : forall l, closed gs (Tuple l) = closed_specs gs l. Proof. reflexivity. Qed.
  Lemma cl_arr : forall s e, closed gs (Array s e) = closed gs s && closed_expr gs e. Proof. reflexivity. Qed.
  Lemma cl_inv : forall s, closed gs (Inverted s) = closed gs s. Proof. reflexivity. Qed.
  Lemma cl_view : forall s, closed gs (CopyView s) = closed gs s. Proof. reflexivity. Qed.
  Lemma cl_spec : forall s, closed_expr gs (ESpec s) = closed gs s. Proof. reflexivity. Qed.
  Lemma cl_scons : forall s l, closed_specs gs (SCons s l) = closed gs s && closed_specs gs l. Proof. reflexivity. Qed.
  Lemma cl_xcons : forall s l, closed_exprs gs (XCons s l) = closed_expr gs s && closed_exprs gs l. Proof. reflexivity. Qed.
End Simplicity.
Ltac sis := rewrite ?si_decl, ?si_tup, ?si_arr, ?si_inv, ?si_view, ?si_spec, ?si_scons, ?si_xcons in *.
Ltac cls := rewrite ?cl_decl, ?cl_tup, ?cl_arr, ?cl_inv, ?cl_view, ?cl_spec, ?cl_scons, ?cl_xcons in *.

(** Simple for some parameters is simple for none *)
Lemma simple_nil : forall gs,
  (forall s, simple gs s = true -> simple [] s = true) /\ (forall e, simple_expr gs e = true -> simple_expr [] e = true) /\
  (forall l, simple_specs gs l = true -> simple_specs [] l = true) /\ (forall l, simple_exprs gs l = true -> simple_exprs [] l = true).
Proof.
  intros gs. assert (NM : (forall s, mentions [] [] false s = false) /\ (forall e, expr_mentions [] [] false e = false) /\
    (forall l, some_mentions [] [] false l = false) /\ (forall l, any_mentions [] [] false l = false)).
  { apply types_ind; intros; mes; cbn [existsb orb]; rewrite ?H, ?H0; try reflexivity.
    change (cg_mentions [] c = false). induction c; cbn; auto. now rewrite IHc1, IHc2. }
  apply types_ind; intros; sis; try reflexivity; try discriminate; try (now apply H);
  try (apply andb_prop in H1 as [A B]; rewrite (H A), (H0 B); reflexivity).
  apply andb_prop in H0 as [A B]. rewrite (H A), (proj1 NM). reflexivity.
Qed.

Section Free.
  Variables (target : spec) (self_id : nat) (remaps : list (nat * nat)).
  Variables (tp mp : list generic) (targs margs : list texpr).
  Notation rs_ := (resolve target self_id remaps).
  Definition free : reading texpr :=
    {| r_name := fun n l => if n =? self_id then ESpec target else ESpec (Declared (remapped remaps n) (to_exprs l));
       r_var := fun g => match replacement tp mp targs margs g with Ok e => resolve_expr target self_id remaps e | _ => ESpec (Generic g) end;
       r_tuple := fun l => ESpec (Tuple (to_specs l));
       r_array := fun a s => ESpec (Array (to_spec a) s);
       r_inv := fun a => ESpec (Inverted (to_spec a));
       r_view := fun a => ESpec (CopyView (to_spec a));
       r_self := ESpec target; r_wild := ESpec Wildcard;
       r_bool := EBool; r_int := EInt; r_str := EStr;
       r_bin := fun _ a _ => a; r_un := fun _ a => a |}.

  Lemma f_decl : forall n l, r_name free n l = if n =? self_id then ESpec target else ESpec (Declared (remapped remaps n) (to_exprs l)). Proof. reflexivity. Qed.

  (** Without the trait's parameters: only [Self] and the associated types are put in *)
  Lemma free_resolve :
    (forall s, simple [] s = true -> mentions (tp ++ mp) [] false s = false -> means free s = ESpec (rs_ s)) /\
    (forall e, simple_expr [] e = true -> expr_mentions (tp ++ mp) [] false e = false -> expr_means free e = resolve_expr target self_id remaps e) /\
    (forall l, simple_specs [] l = true -> some_mentions (tp ++ mp) [] false l = false -> each_means free l = list_specs (resolve_specs target self_id remaps l)) /\
    (forall l, simple_exprs [] l = true -> any_mentions (tp ++ mp) [] false l = false -> all_mean free l = list_exprs (resolve_exprs target self_id remaps l)).
  Proof.
    apply types_ind; intros; sis; mes; ms; rs; try reflexivity; try discriminate.
    - cbn [existsb orb] in H1. rewrite (H H0 H1), f_decl, to_list_exprs. destruct (n =? self_id); reflexivity.
    - cbn. unfold replacement. apply has_in in H0. rewrite position_none by (intros X; apply H0; apply in_or_app; auto).
      rewrite position_none by (intros X; apply H0; apply in_or_app; auto). reflexivity.
    - rewrite (H H0 H1). cbn. now rewrite to_list_specs.
    - apply orb_false_iff in H2 as [X Y]. apply andb_prop in H1 as [A B]. rewrite (H A X), (H0 B Y). reflexivity.
    - rewrite (H H0 H1). reflexivity.
    - apply andb_prop in H0 as [A _]. rewrite (H A H1). reflexivity.
    - exact (H H0 H1).
    - apply orb_false_iff in H2 as [X Y]. apply andb_prop in H1 as [A B]. rewrite (H A X), (H0 B Y). reflexivity.
    - apply orb_false_iff in H2 as [X Y]. apply andb_prop in H1 as [A B]. rewrite (H A X), (H0 B Y). reflexivity.
  Qed.

  (** With them: what the check puts in *)
  Hypothesis found : forall g, In g (tp ++ mp) -> exists s, replacement tp mp targs margs g = Ok (ESpec s).
  Lemma free_map :
    (forall s, simple (tp ++ mp) s = true -> closed (tp ++ mp) s = true ->
       exists s', map_spec tp mp targs margs s = Ok s' /\ means free s = ESpec (rs_ s')) /\
    (forall e, simple_expr (tp ++ mp) e = true -> closed_expr (tp ++ mp) e = true ->
       exists e', map_expr tp mp targs margs e = Ok e' /\ expr_means free e = resolve_expr target self_id remaps e') /\
    (forall l, simple_specs (tp ++ mp) l = true -> closed_specs (tp ++ mp) l = true ->
       exists l', map_specs tp mp targs margs l = Ok l' /\ each_means free l = list_specs (resolve_specs target self_id remaps l')) /\
    (forall l, simple_exprs (tp ++ mp) l = true -> closed_exprs (tp ++ mp) l = true ->
       exists l', map_exprs tp mp targs margs l = Ok l' /\ all_mean free l = list_exprs (resolve_exprs target self_id remaps l')).
  Proof.
    apply types_ind; intros; sis; cls; ms; ps; try discriminate.
    - destruct (H H0 H1) as (es' & A & B). rewrite A. exists (Declared n es'). split; [reflexivity|]. rs. rewrite B, f_decl, to_list_exprs.
      destruct (n =? self_id); reflexivity.
    - cbn in H0. apply existsb_exists in H0 as (h & I & E). apply generic_eqb_eq in E. subst h. destruct (found g I) as (s & F).
      exists s. change (map_spec tp mp targs margs (Generic g)) with (bind (replacement tp mp targs margs g) as_spec). rewrite F.
      split; [reflexivity|]. cbn. rewrite F. reflexivity.
    - destruct (H H0 H1) as (l' & A & B). rewrite A. exists (Tuple l'). split; [reflexivity|]. rs. rewrite B. cbn. now rewrite to_list_specs.
    - apply andb_prop in H1 as [A1 A2]. apply andb_prop in H2 as [B1 B2]. destruct (H A1 B1) as (s' & X1 & X2). destruct (H0 A2 B2) as (e' & Y1 & Y2).
      rewrite X1. cbn [bind]. rewrite Y1. exists (Array s' e'). split; [reflexivity|]. rs. rewrite X2, Y2. reflexivity.
    - destruct (H H0 H1) as (s' & A & B). rewrite A. exists (Inverted s'). split; [reflexivity|]. rs. rewrite B. reflexivity.
    - apply andb_prop in H0 as [A B]. apply negb_true_iff in B. exists (CopyView s). split; [reflexivity|]. rs.
      rewrite (proj1 free_resolve s (proj1 (simple_nil _) _ A) B). reflexivity.
    - exists TraitSelf. split; reflexivity.
    - exists Wildcard. split; reflexivity.
    - destruct (H H0 H1) as (s' & A & B). rewrite A. exists (ESpec s'). split; [reflexivity|]. rs. exact B.
    - exists (EBool b). split; reflexivity.
    - exists (EInt z). split; reflexivity.
    - exists (EStr s). split; reflexivity.
    - exists SNil. split; reflexivity.
    - apply andb_prop in H1 as [A1 A2]. apply andb_prop in H2 as [B1 B2]. destruct (H A1 B1) as (s' & X1 & X2). destruct (H0 A2 B2) as (e' & Y1 & Y2).
      rewrite X1. cbn [bind]. rewrite Y1. exists (SCons s' e'). split; [reflexivity|]. rs. rewrite X2, Y2. reflexivity.
    - exists XNil. split; reflexivity.
    - apply andb_prop in H1 as [A1 A2]. apply andb_prop in H2 as [B1 B2]. destruct (H A1 B1) as (s' & X1 & X2). destruct (H0 A2 B2) as (e' & Y1 & Y2).
      rewrite X1. cbn [bind]. rewrite Y1. exists (XCons s' e'). split; [reflexivity|]. rs. rewrite X2, Y2. reflexivity.
  Qed.
  Lemma free_inputs : forall l, (forall a, In a l -> simple (tp ++ mp) (snd a) = true /\ closed (tp ++ mp) (snd a) = true) ->
    exists l', map_inputs tp mp targs margs l = Ok l' /\ map fst l' = map fst l /\
      map (fun a => means free (snd a)) l = map (fun a => ESpec (rs_ (snd a))) l'.
  Proof.
    induction l as [|[x s] l IH]; intros H; [exists []; auto|].
    destruct IH as (l' & A & B & C); [intros a I; apply H; now right|].
    destruct (H (x, s) (or_introl eq_refl)) as [P Q]. cbn in P, Q. destruct (proj1 free_map s P Q) as (s' & X & Y).
    exists ((x, s') :: l'). cbn [map_inputs map fst snd]. rewrite X. cbn [bind]. rewrite A. cbn [bind]. rewrite B, C, Y. auto.
  Qed.
End Free.

Lemma mentions_less : forall gs ns,
  (forall s, mentions gs ns true s = false -> mentions gs [] false s = false) /\ (forall e, expr_mentions gs ns true e = false -> expr_mentions gs [] false e = false) /\
  (forall l, some_mentions gs ns true l = false -> some_mentions gs [] false l = false) /\ (forall l, any_mentions gs ns true l = false -> any_mentions gs [] false l = false).
Proof.
  intros gs ns. apply types_ind; intros; mes; try reflexivity; try assumption; try (now apply H).
  - apply orb_false_iff in H0 as [_ X]. cbn. now apply H.
  - apply orb_false_iff in H1 as [X Y]. now rewrite (H X), (H0 Y).
  - apply orb_false_iff in H1 as [X Y]. now rewrite (H X), (H0 Y).
  - apply orb_false_iff in H1 as [X Y]. now rewrite (H X), (H0 Y).
Qed.
Lemma resolve_id : forall gs ns target self_id remaps, In self_id ns -> (forall p, In p remaps -> In (fst p) ns) ->
  (forall s, mentions gs ns true s = false -> resolve target self_id remaps s = s) /\
  (forall e, expr_mentions gs ns true e = false -> resolve_expr target self_id remaps e = e) /\
  (forall l, some_mentions gs ns true l = false -> resolve_specs target self_id remaps l = l) /\
  (forall l, any_mentions gs ns true l = false -> resolve_exprs target self_id remaps l = l).
Proof.
  intros gs ns target self_id remaps HS HR. apply types_ind; intros; mes; rs; try reflexivity.
  - apply orb_false_iff in H0 as [N X]. apply names_in in N. rewrite (H X). destruct (n =? self_id) eqn:E.
    + apply Nat.eqb_eq in E. subst. contradiction.
    + unfold remapped. destruct (find (fun p => n =? fst p) remaps) as [p|] eqn:F; [|reflexivity].
      apply find_some in F as [F1 F2]. apply Nat.eqb_eq in F2. subst. apply HR in F1. contradiction.
  - now rewrite (H H0).
  - apply orb_false_iff in H1 as [X Y]. now rewrite (H X), (H0 Y).
  - now rewrite (H H0).
  - now rewrite (H H0).
  - discriminate.
  - now rewrite (H H0).
  - apply orb_false_iff in H1 as [X Y]. now rewrite (H X), (H0 Y).
  - apply orb_false_iff in H1 as [X Y]. now rewrite (H X), (H0 Y).
Qed.

Lemma or_default_ok : forall args ps, List.length args <= List.length ps ->
  (forall k p, nth_error ps k = Some p -> nth_error args k = None -> p_default p <> None) ->
  exists l, or_default args ps = Ok l /\ List.length l = List.length ps /\
    forall k p, nth_error ps k = Some p -> nth_error l k = match nth_error args k with Some e => Some e | None => p_default p end.
Proof.
  induction args as [|a args IH].
  - induction ps as [|p ps IHp]; intros L H.
    + exists []. split; [reflexivity|]. split; [reflexivity|]. intros [|k] q Q; discriminate.
    + cbn. destruct (p_default p) as [d|] eqn:E; [|exfalso; exact (H 0 p eq_refl eq_refl E)].
      destruct IHp as (l & A & B & C); [cbn; lia|intros k q Q N; apply (H (S k) q Q); destruct k; reflexivity|].
      exists (d :: l). rewrite A. split; [reflexivity|]. split; [cbn; congruence|].
      intros [|k] q Q; cbn in Q; [inversion Q; subst; cbn; auto|]. cbn. specialize (C k q Q). destruct k; exact C.
  - intros [|p ps] L H; cbn in L; [lia|]. cbn.
    destruct (IH ps) as (l & A & B & C); [lia|intros k q Q N; exact (H (S k) q Q N)|].
    exists (a :: l). rewrite A. split; [reflexivity|]. split; [cbn; congruence|].
    intros [|k] q Q; cbn in *; [reflexivity|]. exact (C k q Q).
Qed.

Lemma visit_assoc_runs : forall t l,
  (forall x n ps, In (x, (n, ps)) l -> exists m qs, get x (t_assoc t) = Some (m, qs) /\ List.length ps = List.length qs) ->
  exists remaps, visit_assoc t l = Ok remaps.
Proof.
  intros t. induction l as [|[x [n ps]] l IH]; intros H; [exists []; reflexivity|]. cbn.
  destruct (H x n ps (or_introl eq_refl)) as (m & qs & G & L). rewrite G, L, Nat.eqb_refl. cbn.
  destruct IH as (r & R); [intros; eapply H; right; eassumption|]. rewrite R. cbn. eauto.
Qed.
Lemma visit_assoc_remapped : forall t b l remaps, NoDup (map fst (t_assoc t)) -> NoDup (trait_names t b) -> NoDup (map fst l) ->
  visit_assoc t l = Ok remaps -> forall x n ps n' ps', get x (t_assoc t) = Some (n, ps) -> In (x, (n', ps')) l -> remapped remaps n = n'.
Proof.
  intros t b l remaps N1 N2. revert remaps. induction l as [|[y [k qs]] l IH]; intros remaps ND V x n ps n' ps' G I; [destruct I|].
  cbn in V. destruct (get y (t_assoc t)) as [[m rs']|] eqn:H; [|discriminate]. apply bind_ok in V as (u & V1 & V). apply bind_ok in V as (r & V2 & V).
  inversion V; subst. cbn in ND. inversion ND; subst. unfold remapped. cbn [find fst]. destruct I as [I|I].
  - inversion I; subst. rewrite G in H. inversion H; subst. rewrite Nat.eqb_refl. reflexivity.
  - destruct (n =? m) eqn:E.
    + apply Nat.eqb_eq in E. subst. assert (x = y) by (eapply (assoc_id t b); eassumption). subst y.
      exfalso. apply H2. apply in_map_iff. exists (x, (n', ps')). auto.
    + exact (IH r H3 V2 x n ps n' ps' G I).
Qed.

Section Exact.
  Variables (t : trait_def) (b : block) (m i : head) (remaps : list (nat * nat)) (targs : list texpr).
  Hypothesis ex : exact t b m i.
  Hypothesis nd : NoDup (map fst (b_assoc b)).
  Hypothesis va : visit_assoc t (b_assoc b) = Ok remaps.
  Hypothesis lens : List.length (h_params i) = List.length (h_params m).
  Hypothesis targs_nth : forall k p, nth_error (listed (t_params t)) k = Some p -> nth_error targs k = argument t b k.
  Hypothesis given : forall k p, nth_error (listed (t_params t)) k = Some p -> exists e, argument t b k = Some e.
  Hypothesis od : or_default (listed (b_args b)) (listed (t_params t)) = Ok targs.
  Let tp := map p_name (listed (t_params t)).
  Let margs := map (fun g => ESpec (Generic g)) (method_params i).
  Let F := free (b_target b) (b_self b) remaps tp (method_params m) targs margs.
  Let sc := ex_scoped _ _ _ _ ex.

  Lemma gens : trait_generics t m = tp ++ method_params m. Proof. reflexivity. Qed.
  Lemma tp_found : forall k p e, nth_error (listed (t_params t)) k = Some p -> argument t b k = Some e ->
    replacement tp (method_params m) targs margs (p_name p) = Ok e.
  Proof.
    intros k p e P A. unfold replacement. destruct (split_generics t b m i sc) as (ND1 & _). fold tp in ND1.
    rewrite (position_unique tp k (p_name p) ND1); [|unfold tp; rewrite nth_error_map, P; reflexivity].
    unfold at_index. rewrite (targs_nth k p P), A. reflexivity.
  Qed.
  Lemma mp_found : forall k p q, nth_error (h_params m ++ h_hidden m) k = Some p -> nth_error (h_params i ++ h_hidden i) k = Some q ->
    replacement tp (method_params m) targs margs (p_name p) = Ok (ESpec (Generic (p_name q))).
  Proof.
    intros k p q P Q. unfold replacement. destruct (split_generics t b m i sc) as (_ & ND2 & SEP). fold tp in SEP.
    assert (K : nth_error (method_params m) k = Some (p_name p)) by (unfold method_params; rewrite nth_error_map, P; reflexivity).
    rewrite position_none by (apply SEP; eapply nth_error_In; eassumption). rewrite (position_unique _ _ _ ND2 K).
    unfold at_index, margs, method_params. rewrite !nth_error_map, Q. reflexivity.
  Qed.
  Lemma all_found : forall g, In g (tp ++ method_params m) -> exists s, replacement tp (method_params m) targs margs g = Ok (ESpec s).
  Proof.
    intros g I. apply in_app_or in I as [I|I].
    - unfold tp in I. apply in_map_iff in I as (p & E & I). subst. apply In_nth_error in I as (k & P).
      destruct (given k p P) as (e & A). rewrite (tp_found k p e P A). destruct (ex_args _ _ _ _ ex k e A) as (s & E & _). subst. eauto.
    - unfold method_params in I. apply in_map_iff in I as (p & E & I). subst. apply In_nth_error in I as (k & P).
      assert (L : k < List.length (h_params i ++ h_hidden i)).
      { rewrite app_length, lens, (ex_hidden _ _ _ _ ex), <- app_length. apply nth_error_Some. congruence. }
      apply nth_error_Some in L. destruct (nth_error (h_params i ++ h_hidden i) k) as [q|] eqn:Q; [|congruence].
      rewrite (mp_found _ _ _ P Q). eauto.
  Qed.
  Lemma names_of_remaps : forall p, In p remaps -> In (fst p) (trait_names t b).
  Proof.
    intros [n n'] I. apply (proj2 (visit_assoc_ok _ _ _ va)) in I as (x & ps & qs & G & _). cbn. right. eapply assoc_names; eassumption.
  Qed.
  Lemma target_free : means F (b_target b) = ESpec (b_target b).
  Proof.
    pose proof (sc_target _ _ _ _ sc) as T. unfold F.
    rewrite (proj1 (free_resolve _ _ _ _ _ _ _) _ (ex_target _ _ _ _ ex)).
    - f_equal. exact (proj1 (resolve_id (trait_generics t m) (trait_names t b) (b_target b) (b_self b) remaps (or_introl eq_refl) names_of_remaps) _ T).
    - exact (proj1 (mentions_less _ _) _ T).
  Qed.
  Lemma free_fits : fits F t b m i.
  Proof.
    pose proof (sc_assoc _ _ _ _ sc) as [N1 N2]. constructor.
    - rewrite target_free. reflexivity.
    - intros l. rewrite target_free. cbn. now rewrite Nat.eqb_refl.
    - intros k p e P A. destruct (ex_args _ _ _ _ ex k e A) as (s & E & SS). subst e.
      change (r_var F (p_name p)) with (match replacement tp (method_params m) targs margs (p_name p) with Ok e => resolve_expr (b_target b) (b_self b) remaps e | _ => ESpec (Generic (p_name p)) end).
      rewrite (tp_found k p _ P A). symmetry. apply (proj1 (proj2 (free_resolve _ _ _ _ _ _ _))); [exact SS|].
      exact (sc_args _ _ _ _ sc _ _ A).
    - intros k p q P Q.
      change (match replacement tp (method_params m) targs margs (p_name p) with Ok e => resolve_expr (b_target b) (b_self b) remaps e | _ => ESpec (Generic (p_name p)) end =
              match replacement tp (method_params m) targs margs (p_name q) with Ok e => resolve_expr (b_target b) (b_self b) remaps e | _ => ESpec (Generic (p_name q)) end).
      rewrite (mp_found _ _ _ P Q). pose proof (sc_method _ _ _ _ sc q (nth_error_In _ _ Q)) as NQ. rewrite gens in NQ.
      unfold replacement. rewrite position_none by (intros X; apply NQ; apply in_or_app; auto).
      rewrite position_none by (intros X; apply NQ; apply in_or_app; auto). reflexivity.
    - intros x n ps n' ps' l G I. cbn. pose proof (assoc_not_self _ _ N2 _ _ _ G) as NS. apply Nat.eqb_neq in NS. rewrite NS.
      pose proof (sc_types _ _ _ _ sc _ _ _ I) as NN.
      assert (NS' : (n' =? b_self b) = false) by (apply Nat.eqb_neq; intros E; subst; apply NN; now left). rewrite NS'.
      rewrite (visit_assoc_remapped t b _ _ N1 N2 nd va _ _ _ _ _ G I).
      assert (RN : remapped remaps n' = n').
      { unfold remapped. destruct (find (fun p => n' =? fst p) remaps) as [p|] eqn:FF; [|reflexivity].
        apply find_some in FF as [F1 F2]. apply Nat.eqb_eq in F2. subst. apply names_of_remaps in F1. contradiction. }
      now rewrite RN.
  Qed.

  Hypothesis same : same_signature t b m i.
  Lemma method_accepted : exists m', map_head t (b_args b) m i = Ok m' /\
    check_output (b_target b) (b_self b) remaps i m' = Ok tt /\
    check_inputs (b_target b) (b_self b) remaps (h_inputs i) (h_inputs m') = Ok tt.
  Proof.
    destruct same as [NM SIG]. destruct (SIG _ F free_fits) as [VI VO]. unfold map_head. rewrite od. cbn [bind]. fold tp. fold margs.
    destruct (free_inputs (b_target b) (b_self b) remaps tp (method_params m) targs margs all_found (h_inputs m)) as (ins & A & B & C).
    { intros a I. apply (ex_trait _ _ _ _ ex). right. now apply in_map. }
    rewrite A. cbn [bind].
    assert (O : exists o, match h_output m with Some s => bind (map_spec tp (method_params m) targs margs s) (fun s => Ok (Some s)) | None => Ok None end = Ok o /\
       means F (output_type m) = ESpec (resolve (b_target b) (b_self b) remaps match o with Some s => s | None => Tuple SNil end)).
    { destruct (ex_trait _ _ _ _ ex (output_type m) (or_introl eq_refl)) as [P Q]. unfold output_type in P, Q |- *. destruct (h_output m) as [s|].
      - destruct (proj1 (free_map (b_target b) (b_self b) remaps tp (method_params m) targs margs all_found) s P Q) as (s' & X & Y).
        exists (Some s'). rewrite X. auto.
      - exists None. auto. }
    destruct O as (o & O1 & O2). rewrite O1. cbn [bind]. eexists. split; [reflexivity|]. split.
    - unfold check_output. destruct (ex_impl _ _ _ _ ex (output_type i) (or_introl eq_refl)) as [P Q].
      pose proof (proj1 (free_resolve (b_target b) (b_self b) remaps tp (method_params m) targs margs) _ P Q) as X.
      fold F in X. rewrite VO, O2 in X.
      assert (Y : forall s s', ESpec s = ESpec s' -> s = s') by (intros ? ? Z; now inversion Z). apply Y in X. rewrite <- X. unfold output_type. cbn [h_output]. rewrite (proj1 eqb_refl). reflexivity.
    - cbn [h_inputs]. fold F in C. rewrite C in VI. rewrite <- NM in B.
      assert (PI : forall a, In a (h_inputs i) -> means F (snd a) = ESpec (resolve (b_target b) (b_self b) remaps (snd a))).
      { intros a I. destruct (ex_impl _ _ _ _ ex (snd a)) as [P Q]; [right; now apply in_map|].
        exact (proj1 (free_resolve (b_target b) (b_self b) remaps tp (method_params m) targs margs) _ P Q). }
      clear A C. revert B VI PI. generalize (h_inputs i) as li. clear. intros li. revert ins. induction li as [|[x s] li IH]; intros [|[y s'] ins] B VI PI; cbn in *; try discriminate; [reflexivity|].
      inversion B; subst. inversion VI as [[V1 V2]]. rewrite String.eqb_refl. cbn [guard bind].
      pose proof (PI (x, s) (or_introl eq_refl)) as X. cbn in X. rewrite V1 in X. inversion X as [Y]. rewrite Y, (proj1 eqb_refl). cbn [guard bind].
      apply IH; auto.
  Qed.
End Exact.

Theorem following_accepted : forall t b,
  follows t b -> check_generic_params t (b_args b) = Ok tt ->
  (forall k p, nth_error (listed (t_params t)) k = Some p -> exists e, argument t b k = Some e) ->
  (forall x e i m, In (x, (e, i)) (b_units b) -> get x (t_fns t) = Some m -> exact t b m i) ->
  visit_impl t b = Ok tt.
Proof.
  intros t b (ND & US & NA & AS & AL & MS) CG GV EX. unfold visit_impl. rewrite CG. cbn [bind].
  rewrite (proj2 (distinct_nodup _) NA). cbn [guard bind].
  assert (LE : List.length (listed (b_args b)) <= List.length (listed (t_params t))).
  { unfold check_generic_params in CG. destruct (t_params t) as [ps|], (b_args b) as [l|]; cbn; try discriminate; try lia.
    destruct (without_default ps <=? List.length l); [|discriminate]. destruct (List.length l <=? List.length ps) eqn:E; [|discriminate]. now apply Nat.leb_le. }
  assert (DF : forall k p, nth_error (listed (t_params t)) k = Some p -> nth_error (listed (b_args b)) k = None -> p_default p <> None).
  { intros k p P N C. destruct (GV k p P) as (e & A). unfold argument in A. rewrite N, P in A. congruence. }
  destruct (or_default_ok _ _ LE DF) as (targs & OD & _ & TN).
  assert (TN' : forall k p, nth_error (listed (t_params t)) k = Some p -> nth_error targs k = argument t b k).
  { intros k p P. rewrite (TN k p P). unfold argument. rewrite P. reflexivity. }
  destruct (visit_assoc_runs t (b_assoc b)) as (remaps & VA).
  { intros x n ps I. destruct (get_some _ x (t_assoc t)) as ([m qs] & G).
    - apply AS. apply in_map_iff. exists (x, (n, ps)). auto.
    - exists m, qs. split; [exact G|]. eapply AL; eassumption. }
  rewrite VA. cbn [bind].
  assert (VU : forall l seen, (forall a, In a l -> In a (b_units b)) -> NoDup (map fst l) -> (forall x, In x seen -> ~ In x (map fst l)) ->
    visit_units t b remaps seen l = Ok tt).
  { induction l as [|[x [e i]] l IH]; intros seen SUB NDL SN; [reflexivity|]. cbn [visit_units].
    pose proof (SUB _ (or_introl eq_refl)) as I. destruct (get_some _ x (t_fns t)) as (m & G).
    { apply US. apply in_map_iff. exists (x, (e, i)). auto. }
    rewrite G. destruct (MS x e i m I G) as (E1 & E2 & E3 & E4). subst e. cbn in NDL. inversion NDL; subst.
    destruct (existsb (String.eqb x) seen) eqn:S1.
    { apply existsb_exists in S1 as (y & Y1 & Y2). apply String.eqb_eq in Y2. subst. exfalso. apply (SN y Y1). now left. }
    rewrite E2, Bool.eqb_reflx, E3, Nat.eqb_refl. cbn [negb guard bind].
    destruct (method_accepted t b m i remaps targs (EX x false i m I G) NA VA E3 TN' GV OD E4) as (m' & A1 & A2 & A3).
    rewrite A1. cbn [bind]. rewrite A2. cbn [bind]. rewrite A3. cbn [bind]. apply IH; auto.
    - intros a A. apply SUB. now right.
    - intros y [Y|Y]; [subst; assumption|]. intros C. apply (SN y Y). now right. }
  rewrite VU; [|auto|exact ND|intros ? []]. cbn [bind].
  rewrite (proj2 (none_missing_in _ _ _ _)); [|intros x X; now apply AS]. cbn [guard bind].
  rewrite (proj2 (none_missing_in _ _ _ _)); [reflexivity|intros x X; now apply US].
Qed.

(** * The number of arguments *)
Lemma without_default_le : forall ps n, (forall k p, nth_error ps k = Some p -> n <= k -> p_default p <> None) -> without_default ps <= n.
Proof.
  induction ps as [|p ps IH]; intros n H; cbn [without_default]; [lia|]. destruct (p_default p) eqn:E; [lia|]. destruct n as [|n]; [exfalso; exact (H 0 p eq_refl (le_n 0) E)|].
  apply le_n_S, IH. intros k q Q L. apply (H (S k) q Q). lia.
Qed.
Lemma without_default_ge : forall ps k p, nth_error ps k = Some p -> without_default ps <= k -> exists j q, j <= k /\ nth_error ps j = Some q /\ p_default q <> None.
Proof.
  induction ps as [|q ps IH]; intros k p N L; [destruct k; discriminate|]. cbn [without_default] in L. destruct (p_default q) eqn:E.
  - exists 0, q. split; [lia|]. split; [reflexivity|congruence].
  - destruct k as [|k]; [lia|]. destruct (IH k p N) as (j & r & J & R & D); [lia|]. exists (S j), r. split; [lia|]. split; assumption.
Qed.
Lemma enough_arguments : forall t b, (b_args b <> None -> t_params t <> None) ->
  List.length (listed (b_args b)) <= List.length (listed (t_params t)) ->
  (forall k p, nth_error (listed (t_params t)) k = Some p -> exists e, argument t b k = Some e) ->
  check_generic_params t (b_args b) = Ok tt.
Proof.
  intros t b S L G. unfold check_generic_params, argument in *. destruct (t_params t) as [ps|], (b_args b) as [l|]; cbn [listed] in *.
  - rewrite (proj2 (Nat.leb_le _ _) L). assert (W : without_default ps <= List.length l).
    { apply without_default_le. intros k p P K D. destruct (G k p P) as [e E]. rewrite P in E. rewrite (proj2 (nth_error_None l k) K) in E. congruence. }
    rewrite (proj2 (Nat.leb_le _ _) W). reflexivity.
  - assert (W : without_default ps <= 0).
    { apply without_default_le. intros k p P K D. destruct (G k p P) as [e E]. rewrite P in E. destruct k; cbn in E; congruence. }
    assert (Z : without_default ps = 0) by lia. rewrite Z. reflexivity.
  - exfalso. apply S; congruence.
  - reflexivity.
Qed.
Lemma arguments_fit : forall t b, visit_impl t b = Ok tt ->
  (b_args b <> None -> t_params t <> None) /\
  List.length (listed (b_args b)) <= List.length (listed (t_params t)) /\
  forall k p, nth_error (listed (t_params t)) k = Some p -> nth_error (listed (b_args b)) k = None ->
    exists j q, j <= k /\ nth_error (listed (t_params t)) j = Some q /\ p_default q <> None.
Proof.
  intros t b H. unfold visit_impl in H. destruct (check_generic_params t (b_args b)) as [[]| | |] eqn:C; cbn [bind] in H; try discriminate. clear H.
  unfold check_generic_params in C. destruct (t_params t) as [ps|], (b_args b) as [l|]; cbn [listed] in *; try discriminate.
  - destruct (without_default ps <=? List.length l) eqn:W; [|discriminate]. destruct (List.length l <=? List.length ps) eqn:L; [|discriminate]. apply Nat.leb_le in W, L.
    split; [congruence|]. split; [exact L|]. intros k p P N. apply nth_error_None in N. eapply without_default_ge; [exact P|lia].
  - destruct (without_default ps =? 0) eqn:W; [|discriminate]. apply Nat.eqb_eq in W. split; [congruence|]. split; [cbn; lia|]. intros k p P _. eapply without_default_ge; [exact P|lia].
  - split; [congruence|]. split; [cbn; lia|]. intros k p P. destruct k; discriminate.
Qed.
