(** Proofs about MIR comparison (C42). *)
From Coq Require Import String List Bool Arith Lia.
From Verif Require Import Bits CodegenModel MirModel MirAlias MirDedup DiffModel DiffSpec.
Import ListNotations.
Local Open Scope list_scope.
Local Open Scope nat_scope.

(** The renaming a map stands for. *)
Definition apply_map (m : varmap) (x : vn) : vn :=
  match x with
  | Named i s => Named (match get (name_map m) i with Some j => j | None => i end) s
  | EId i => EId (match get (expr_map m) i with Some j => j | None => i end)
  end.
Definition mapped (m : varmap) (x : vn) : Prop :=
  match x with
  | Named i _ => get (name_map m) i <> None
  | EId i => get (expr_map m) i <> None
  end.
(** The number a number is sent to. *)
Definition image (m : varmap) (k : bool * nat) : option nat :=
  get (if fst k then name_map m else expr_map m) (snd k).

Lemma apply_renaming m : renaming (apply_map m).
Proof. intros []; cbn; auto. Qed.

Lemma compare_vals_spec m a b : compare_vals m a b = true <-> mapped m a /\ b = apply_map m a.
Proof.
  unfold compare_vals, maps. destruct a as [i s|i], b as [j t|j]; cbn.
  - rewrite andb_true_iff. destruct (get (name_map m) i) as [v|].
    + rewrite String.eqb_eq, Nat.eqb_eq. split; [intros [-> ->]; split; congruence|intros [_ E]; injection E; auto].
    + split; [intros [_ H]; discriminate|intros [H _]; congruence].
  - split; [discriminate|intros [_ H]; discriminate].
  - split; [discriminate|intros [_ H]; discriminate].
  - destruct (get (expr_map m) i) as [v|].
    + rewrite Nat.eqb_eq. split; [intros ->; split; congruence|intros [_ E]; injection E; auto].
    + split; [discriminate|intros [H _]; congruence].
Qed.

(** ** How the map is filled *)
Definition same_shape (a b : vn) : Prop :=
  match a, b with
  | Named _ s, Named _ t => s = t
  | EId _, EId _ => True
  | _, _ => False
  end.
Definition update (m : varmap) (p : vn * vn) : varmap :=
  match p with
  | (Named i _, Named j _) => map_name m i j
  | (EId i, EId j) => map_expr m i j
  | _ => m
  end.
Definition fill (m : varmap) (l : list (vn * vn)) : varmap := fold_left update l m.

Lemma update_name_spec m a b m' : try_update_name m a b = Some m' <-> same_shape a b /\ m' = update m (a, b).
Proof.
  destruct a as [i s|i], b as [j t|j]; cbn; try (split; [discriminate|tauto]).
  - destruct (String.eqb_spec s t).
    + split; [intros H; injection H as <-; auto|intros [_ ->]; reflexivity].
    + split; [discriminate|tauto].
  - split; [intros H; injection H as <-; auto|intros [_ ->]; reflexivity].
Qed.

Lemma image_update m a b k : same_shape a b ->
  image (update m (a, b)) k = if (if bool_dec (fst (number a)) (fst k) then snd (number a) =? snd k else false)
                              then Some (snd (number b)) else image m k.
Proof.
  destruct a as [i s|i], b as [j t|j], k as [[] k]; cbn; try tauto; intros _; unfold image, get; cbn;
    try reflexivity; destruct (i =? k); reflexivity.
Qed.

Lemma number_eq a b : same_shape a b -> fst (number a) = fst (number b).
Proof. destruct a, b; cbn; tauto. Qed.

(** Filling with pairs whose left numbers are distinct. *)
Lemma image_fill l : forall m k, Forall (fun p => same_shape (fst p) (snd p)) l ->
  NoDup (map (fun p => number (fst p)) l) ->
  (forall a b, In (a, b) l -> image (fill m l) (number a) = Some (snd (number b)))
  /\ ((~ In k (map (fun p => number (fst p)) l)) -> image (fill m l) k = image m k).
Proof.
  induction l as [|[a b] l IH]; intros m k F N; [split; [intros ? ? []|reflexivity]|].
  inversion F as [|? ? Fa Fl]; subst. inversion N as [|? ? Na Nl]; subst. cbn in Fa.
  change (fill m ((a, b) :: l)) with (fill (update m (a, b)) l). split.
  - intros a' b' [E|I].
    + injection E as <- <-. destruct (IH (update m (a, b)) (number a) Fl Nl) as [_ K].
      rewrite K by assumption. rewrite image_update by assumption.
      destruct (bool_dec (fst (number a)) (fst (number a))); [|congruence]. now rewrite Nat.eqb_refl.
    + exact (proj1 (IH (update m (a, b)) k Fl Nl) a' b' I).
  - intros Nk. destruct (IH (update m (a, b)) k Fl Nl) as [_ K]. cbn in Nk.
    rewrite K by tauto. rewrite image_update by assumption.
    destruct (bool_dec (fst (number a)) (fst k)); [|reflexivity].
    destruct (Nat.eqb_spec (snd (number a)) (snd k)); [|reflexivity].
    exfalso. apply Nk. left. destruct (number a), k; cbn in *; congruence.
Qed.

(** ** What acceptance gives *)
Definition input_pairs (l r : list minput) : list (vn * vn) := combine (map in_val l) (map in_val r).

Definition same_input (x y : minput) : Prop :=
  in_no_mangle x = in_no_mangle y /\ in_name x = in_name y /\ in_ty x = in_ty y /\ same_shape (in_val x) (in_val y).

Lemma compare_inputs_spec l : forall r m m', List.length l = List.length r ->
  compare_inputs m l r = Some m' <-> Forall2 same_input l r /\ m' = fill m (input_pairs l r).
Proof.
  induction l as [|x l IH]; intros [|y r] m m' L; cbn in L; try discriminate.
  - cbn. split; [intros H; injection H as <-; auto|intros [_ ->]; reflexivity].
  - cbn [compare_inputs]. destruct (Bool.eqb (in_no_mangle x) (in_no_mangle y) && String.eqb (in_name x) (in_name y)) eqn:E.
    2:{ split; [discriminate|]. intros [F _]. inversion F as [|? ? ? ? (A & B & _) _]; subst.
        rewrite A, B, eqb_reflx, String.eqb_refl in E. discriminate. }
    apply andb_true_iff in E. destruct E as [E1 E2]. apply eqb_prop in E1. apply String.eqb_eq in E2.
    destruct (try_update_name m (in_val x) (in_val y)) as [m1|] eqn:U.
    2:{ split; [discriminate|]. intros [F _]. inversion F as [|? ? ? ? (_ & _ & _ & S) _]; subst.
        rewrite (proj2 (update_name_spec m (in_val x) (in_val y) _) (conj S eq_refl)) in U. discriminate. }
    apply update_name_spec in U. destruct U as [S ->].
    destruct (ty_eqb (in_ty x) (in_ty y)) eqn:T.
    2:{ split; [discriminate|]. intros [F _]. inversion F as [|? ? ? ? (_ & _ & A & _) _]; subst.
        rewrite A in T. rewrite (proj2 (ty_eqb_eq _ _) eq_refl) in T. discriminate. }
    apply ty_eqb_eq in T. rewrite (IH r (update m (in_val x, in_val y)) m') by lia.
    split.
    + intros [F ->]. split; [|reflexivity]. constructor; [unfold same_input; auto|assumption].
    + intros [F ->]. inversion F; subst. auto.
Qed.

(** Same kind of statement as [populate_var_map] sees it. *)
Definition stmt_pairs (s1 s2 : stmt) : list (vn * vn) := combine (defined s1) (defined s2).
Definition same_kind (s1 s2 : stmt) : Prop :=
  match s1, s2 with
  | (SBind _ _ _ _ | SAlias _ _ _), (SBind _ _ _ _ | SAlias _ _ _)
  | SReg _ _ _ _ _ _, SReg _ _ _ _ _ _ | SConst _ _ _, SConst _ _ _
  | SAssert _, SAssert _ | SSet _ _, SSet _ _ => True
  | _, _ => False
  end
  /\ Forall (fun p => same_shape (fst p) (snd p)) (stmt_pairs s1 s2).

Lemma populate_one_spec s1 s2 m m' :
  populate_one m s1 s2 = Some m' <-> same_kind s1 s2 /\ m' = fill m (stmt_pairs s1 s2).
Proof.
  unfold same_kind, stmt_pairs.
  destruct s1, s2; cbn -[try_update_name]; try (split; [discriminate|tauto]);
    try (rewrite update_name_spec; split;
         [intros [S ->]; repeat split; auto|intros [[_ F] ->]; inversion F; subst; auto]);
    (split; [intros H; injection H as <-; auto|intros [_ ->]; reflexivity]).
Qed.

Fixpoint all_pairs (l r : list stmt) : list (vn * vn) :=
  match l, r with
  | x :: l, y :: r => stmt_pairs x y ++ all_pairs l r
  | _, _ => []
  end.

Lemma fill_app m a b : fill m (a ++ b) = fill (fill m a) b.
Proof. unfold fill. apply fold_left_app. Qed.

Lemma populate_spec l : forall r m m', List.length l = List.length r ->
  populate_var_map m l r = Some m' <-> Forall2 same_kind l r /\ m' = fill m (all_pairs l r).
Proof.
  induction l as [|x l IH]; intros [|y r] m m' L; cbn in L; try discriminate.
  - cbn. split; [intros H; injection H as <-; auto|intros [_ ->]; reflexivity].
  - cbn [populate_var_map all_pairs]. destruct (populate_one m x y) as [m1|] eqn:P.
    + apply populate_one_spec in P. destruct P as [K ->]. rewrite IH by lia. rewrite fill_app.
      split; [intros [F ->]; split; [constructor|]; auto|intros [F ->]; inversion F; auto].
    + split; [discriminate|]. intros [F _]. inversion F as [|? ? ? ? K _]; subst.
      rewrite (proj2 (populate_one_spec x y m _) (conj K eq_refl)) in P. discriminate.
Qed.

Lemma same_kind_defined s1 s2 : same_kind s1 s2 -> List.length (defined s1) = List.length (defined s2).
Proof. intros [H _]. destruct s1, s2; cbn in *; tauto. Qed.

Lemma all_pairs_combine l : forall r, Forall2 same_kind l r ->
  all_pairs l r = combine (flat_map defined l) (flat_map defined r).
Proof.
  intros r F. induction F as [|x y l r K F IH]; [reflexivity|]. cbn.
  rewrite IH. apply same_kind_defined in K. unfold stmt_pairs.
  generalize dependent (defined y). generalize (defined x).
  intros a. induction a as [|? a IHa]; intros [|? b] L; cbn in *; try discriminate; [reflexivity|].
  f_equal. apply IHa. lia.
Qed.

(** ** Statements *)
Lemma zip_all_spec (f : vn -> vn) m : forall l r, List.length l = List.length r ->
  (zip_all (compare_vals m) l r = true <-> Forall (mapped m) l /\ r = map (apply_map m) l).
Proof.
  induction l as [|x l IH]; intros [|y r] L; cbn in L; try discriminate; cbn.
  - split; auto.
  - rewrite andb_true_iff, compare_vals_spec, IH by lia. split.
    + intros [[M ->] [F ->]]. auto.
    + intros [F E]. inversion F; subst. injection E as -> ->. auto.
Qed.

Definition def_renamed (m : varmap) (s1 s2 : stmt) : Prop := defined s2 = map (apply_map m) (defined s1).

Lemma compare_statements_sound m s1 s2 : def_renamed m s1 s2 ->
  compare_statements m s1 s2 = true -> map_stmt (apply_map m) s1 = s2 /\ Forall (mapped m) (used s1).
Proof.
  unfold def_renamed. intros D C.
  destruct s1, s2; cbn in *; try discriminate; rewrite ?andb_true_iff in C.
  - destruct C as [[[T O] L] Z]. apply ty_eqb_eq in T. apply mop_eqb_eq in O. apply Nat.eqb_eq in L.
    apply (zip_all_spec (fun x => x)) in Z; [|assumption]. destruct Z as [F ->]. injection D as ->. subst. auto.
  - destruct C as [T V]. apply ty_eqb_eq in T. apply compare_vals_spec in V. destruct V as [M ->].
    injection D as ->. subst. auto.
  - destruct C as [[[[T V] C] R] I]. apply ty_eqb_eq in T. apply compare_vals_spec in V, C.
    destruct V as [V ->], C as [C ->]. injection D as ->. subst.
    assert (EI : initial = initial0).
    { destruct initial, initial0; cbn in I; try discriminate; [apply Nat.eqb_eq in I; congruence|reflexivity]. }
    subst. destruct reset as [[a b]|], reset0 as [[a' b']|]; cbn in R; try discriminate.
    + apply andb_true_iff in R. destruct R as [A B]. apply compare_vals_spec in A, B.
      destruct A as [A ->], B as [B ->]. split; [reflexivity|]. repeat constructor; assumption.
    + split; [reflexivity|]. repeat constructor; assumption.
  - destruct C as [T V]. apply ty_eqb_eq in T. apply Nat.eqb_eq in V. injection D as ->. subst. auto.
  - apply compare_vals_spec in C. destruct C as [M ->]. auto.
  - destruct C as [A B]. apply compare_vals_spec in A, B. destruct A as [A ->], B as [B ->]. auto.
Qed.

Lemma compare_statements_complete m s : s <> SError -> Forall (mapped m) (used s) ->
  compare_statements m s (map_stmt (apply_map m) s) = true.
Proof.
  intros Ne M.
  assert (Ty : forall t, ty_eqb t t = true) by (intros; now apply ty_eqb_eq).
  assert (V : forall x, mapped m x -> compare_vals m x (apply_map m x) = true)
    by (intros; now apply compare_vals_spec).
  destruct s; cbn in *; rewrite ?Ty, ?Nat.eqb_refl; cbn; try congruence.
  - rewrite (proj2 (mop_eqb_eq op op) eq_refl), map_length, Nat.eqb_refl. cbn.
    apply (zip_all_spec (fun x => x)); [now rewrite map_length|auto].
  - inversion M; subst. auto.
  - inversion M as [|? ? Mc M1]; subst. inversion M1 as [|? ? Mv M2]; subst.
    rewrite !V by assumption. cbn.
    replace (opt_eqb Nat.eqb initial initial) with true by (destruct initial; cbn; now rewrite ?Nat.eqb_refl).
    rewrite andb_true_r. destruct reset as [[a b]|]; [|reflexivity]. cbn.
    inversion M2 as [|? ? Ma M3]; subst. inversion M3; subst. rewrite !V by assumption. reflexivity.
  - inversion M; subst. auto.
  - inversion M as [|? ? Ma M3]; subst. inversion M3; subst. rewrite !V by assumption. reflexivity.
Qed.

(** ** Entities *)
Lemma combine_in_map (m : varmap) : forall l r, List.length l = List.length r ->
  (forall a b, In (a, b) (combine l r) -> b = apply_map m a) -> r = map (apply_map m) l.
Proof.
  induction l as [|x l IH]; intros [|y r] L H; cbn in *; try discriminate; [reflexivity|].
  f_equal; [apply H; now left|apply IH; [lia|]; intros a b I; apply H; now right].
Qed.

Lemma map_number_combine : forall (l r : list vn), List.length l = List.length r ->
  map (fun p => number (fst p)) (combine l r) = map number l.
Proof. induction l as [|x l IH]; intros [|y r] L; cbn in *; try discriminate; [reflexivity|]. f_equal. apply IH. lia. Qed.

Lemma apply_image m a b : same_shape a b -> image m (number a) = Some (snd (number b)) -> b = apply_map m a.
Proof. destruct a, b; cbn; unfold image; cbn; try tauto; intros S ->; congruence. Qed.

Lemma mapped_image m a : mapped m a <-> image m (number a) <> None.
Proof. destruct a; reflexivity. Qed.

Lemma filled l r : List.length l = List.length r ->
  Forall (fun p => same_shape (fst p) (snd p)) (combine l r) -> NoDup (map number l) ->
  let m := fill new_map (combine l r) in
  r = map (apply_map m) l
  /\ (forall x, mapped m x <-> In (number x) (map number l))
  /\ (NoDup (map number r) -> forall x y, mapped m x -> mapped m y -> apply_map m x = apply_map m y -> x = y).
Proof.
  intros L F N m.
  assert (N' : NoDup (map (fun p => number (fst p)) (combine l r))) by now rewrite map_number_combine.
  assert (E : r = map (apply_map m) l).
  { apply combine_in_map; [assumption|]. intros a b I. apply apply_image.
    - rewrite Forall_forall in F. exact (F (a, b) I).
    - exact (proj1 (image_fill _ new_map (true, 0) F N') a b I). }
  assert (Mp : forall x, mapped m x <-> In (number x) (map number l)).
  { intros x. rewrite mapped_image. destruct (in_dec (fun a b : bool * nat => ltac:(decide equality; [apply Nat.eq_dec|apply bool_dec]) : {a = b} + {a <> b}) (number x) (map number l)) as [I|I].
    - split; [auto|]. intros _. apply in_map_iff in I. destruct I as (a & Ea & Ia).
      destruct (In_nth l a (EId 0) Ia) as (k & Hk & Ek).
      assert (Ip : In (a, nth k r (EId 0)) (combine l r)).
      { rewrite <- Ek. rewrite <- combine_nth by assumption. apply nth_In. rewrite combine_length. lia. }
      rewrite <- Ea. unfold m. rewrite (proj1 (image_fill _ new_map (true, 0) F N') _ _ Ip). discriminate.
    - split; [|tauto]. intros H. exfalso. apply H. unfold m.
      rewrite (proj2 (image_fill _ new_map (number x) F N')); [|now rewrite map_number_combine].
      destruct (number x) as [[] ?]; reflexivity. }
  split; [assumption|]. split; [assumption|]. intros Nr x y Mx My Exy.
  apply Mp in Mx, My. apply in_map_iff in Mx, My. destruct Mx as (a & Ea & Ia), My as (b & Eb & Ib).
  assert (G : number (apply_map m a) = number (apply_map m b)).
  { assert (Q : forall u v, number u = number v -> number (apply_map m u) = number (apply_map m v)).
    { intros [] [] Q; cbn in *; try discriminate Q; injection Q as ->; reflexivity. }
    rewrite (Q a x Ea), (Q b y Eb). now f_equal. }
  assert (Eab : a = b).
  { destruct (In_nth l a (EId 0) Ia) as (k & Hk & Ek). destruct (In_nth l b (EId 0) Ib) as (j & Hj & Ej).
    assert (k = j).
    { apply (proj1 (NoDup_nth (map number r) (number (apply_map m (EId 0)))) Nr).
      - rewrite map_length. lia.
      - rewrite map_length. lia.
      - rewrite !(map_nth number), E, !map_nth, Ek, Ej. exact G. }
    subst j. congruence. }
  subst b. destruct x, y, a; cbn in *; congruence.
Qed.

Lemma definitions_combine e1 e2 : List.length (e_inputs e1) = List.length (e_inputs e2) ->
  Forall2 same_kind (e_stmts e1) (e_stmts e2) ->
  input_pairs (e_inputs e1) (e_inputs e2) ++ all_pairs (e_stmts e1) (e_stmts e2)
  = combine (definitions e1) (definitions e2)
  /\ List.length (definitions e1) = List.length (definitions e2).
Proof.
  intros L F. unfold definitions, input_pairs. rewrite all_pairs_combine by assumption.
  assert (Ls : List.length (flat_map defined (e_stmts e1)) = List.length (flat_map defined (e_stmts e2))).
  { clear L. induction F as [|x y l r K F IH]; [reflexivity|]. cbn. rewrite !app_length, IH.
    now rewrite (same_kind_defined x y K). }
  split; [|rewrite !app_length, !map_length; lia].
  assert (Lm : List.length (map in_val (e_inputs e1)) = List.length (map in_val (e_inputs e2)))
    by (rewrite !map_length; assumption).
  revert Lm. generalize (map in_val (e_inputs e2)). generalize (map in_val (e_inputs e1)).
  intros a. induction a as [|x a IH]; intros [|y b] Lm; cbn in *; try discriminate; [reflexivity|].
  f_equal. apply IH. lia.
Qed.

Lemma shapes_combine e1 e2 : Forall2 same_input (e_inputs e1) (e_inputs e2) ->
  Forall2 same_kind (e_stmts e1) (e_stmts e2) ->
  Forall (fun p => same_shape (fst p) (snd p))
    (input_pairs (e_inputs e1) (e_inputs e2) ++ all_pairs (e_stmts e1) (e_stmts e2)).
Proof.
  intros Fi Fs. apply Forall_app. split.
  - unfold input_pairs. induction Fi as [|x y l r (_ & _ & _ & S) F IH]; cbn; constructor; auto.
  - induction Fs as [|x y l r [_ K] F IH]; cbn; [constructor|]. apply Forall_app. auto.
Qed.

Lemma map_app_split {A B} (f : A -> B) a b c d :
  List.length a = List.length c -> a ++ b = map f (c ++ d) -> a = map f c /\ b = map f d.
Proof.
  rewrite map_app. intros L E. assert (List.length a = List.length (map f c)) by now rewrite map_length.
  apply app_inj_pair in E || (revert c L H E; induction a as [|x a IH]; intros [|y c] L H E; cbn in *; try discriminate; auto).
  injection E as -> E. destruct (IH c ltac:(lia) ltac:(lia) E) as [-> ->]. auto.
Qed.

Lemma inputs_renamed f l r : Forall2 same_input l r -> map in_val r = map f (map in_val l) ->
  r = map (fun i => {| in_name := in_name i; in_val := f (in_val i);
                       in_ty := in_ty i; in_no_mangle := in_no_mangle i |}) l.
Proof.
  intros F. induction F as [|x y l r (A & B & C & _) F IH]; intros E; [reflexivity|].
  cbn in E. injection E as E1 E2. cbn. rewrite <- IH by assumption. f_equal.
  destruct x, y; cbn in *; congruence.
Qed.

Lemma stmts_sound m l : forall r, Forall2 same_kind l r -> flat_map defined r = map (apply_map m) (flat_map defined l) ->
  zip_all (compare_statements m) l r = true ->
  map (map_stmt (apply_map m)) l = r /\ Forall (mapped m) (flat_map used l).
Proof.
  intros r F. induction F as [|x y l r K F IH]; intros D Z; [split; [reflexivity|constructor]|].
  cbn in D, Z. apply andb_true_iff in Z. destruct Z as [Z1 Z2].
  apply map_app_split in D; [|symmetry; now apply same_kind_defined]. destruct D as [D1 D2].
  destruct (compare_statements_sound m x y D1 Z1) as [E U]. destruct (IH D2 Z2) as [E' U'].
  cbn. rewrite E, E'. split; [reflexivity|]. apply Forall_app. auto.
Qed.

Theorem compare_sound n1 e1 n2 e2 :
  List.length (e_inputs e1) = List.length (e_inputs e2) -> well_numbered e1 -> well_numbered e2 ->
  compare_entity (n1, e1) (n2, e2) new_map = true -> n1 = n2 /\ same_up_to_renaming e1 e2.
Proof.
  intros L W1 W2 C. cbn in C. rewrite !andb_true_iff in C. destruct C as [[En Et] C].
  apply String.eqb_eq in En. apply ty_eqb_eq in Et. split; [assumption|].
  destruct (compare_inputs new_map (e_inputs e1) (e_inputs e2)) as [m0|] eqn:Ci; [|discriminate].
  apply compare_inputs_spec in Ci; [|assumption]. destruct Ci as [Fi ->].
  destruct (populate_var_map _ (e_stmts e1) (e_stmts e2)) as [m1|] eqn:Cp; [|discriminate].
  rewrite !andb_true_iff in C. destruct C as [[Z Ls] Co]. apply Nat.eqb_eq in Ls.
  apply populate_spec in Cp; [|assumption]. destruct Cp as [Fs ->]. rewrite <- fill_app in *.
  destruct (definitions_combine e1 e2 L Fs) as [Ec Ld]. pose proof (shapes_combine e1 e2 Fi Fs) as Sh.
  rewrite Ec in *. set (m := fill new_map (combine (definitions e1) (definitions e2))) in *.
  destruct (filled _ _ Ld Sh W1) as (Ed & Mp & Inj). fold m in Ed, Mp, Inj. specialize (Inj W2).
  unfold definitions in Ed. apply map_app_split in Ed; [|rewrite !map_length; lia]. destruct Ed as [Ei Es].
  destruct (stmts_sound m _ _ Fs Es Z) as [Em U].
  apply compare_vals_spec in Co. destruct Co as [Mo Eo].
  assert (All : forall x, In x (variables e1) -> mapped m x).
  { intros x I. unfold variables, uses in I. apply in_app_or in I. destruct I as [I|[<-|I]].
    - apply Mp. now apply in_map.
    - assumption.
    - rewrite Forall_forall in U. now apply U. }
  exists (apply_map m). split; [apply apply_renaming|]. split.
  - intros x y Ix Iy. apply Inj; now apply All.
  - unfold rename_entity. rewrite <- (inputs_renamed (apply_map m) _ _ Fi Ei), Em, <- Eo, Et. now destruct e2.
Qed.

(** ** Completeness *)
Lemma renaming_shape f x : renaming f -> same_shape x (f x).
Proof. intros R. specialize (R x). unfold same_shape. destruct x, (f _); exact R. Qed.

Lemma agree_map m f l : (forall x, In x l -> apply_map m x = f x) -> map (apply_map m) l = map f l.
Proof. intros H. apply map_ext_in. exact H. Qed.

Lemma map_stmt_agree f g s : (forall x, In x (defined s) -> f x = g x) -> (forall x, In x (used s) -> f x = g x) ->
  map_stmt f s = map_stmt g s.
Proof.
  intros D U. destruct s; cbn in *; try (rewrite (D name) by auto).
  - f_equal. apply map_ext_in. auto.
  - now rewrite U by auto.
  - rewrite (U clock), (U value) by auto. destruct reset as [[a b]|]; [|reflexivity].
    now rewrite (U a), (U b) by (cbn; auto).
  - reflexivity.
  - now rewrite U by auto.
  - now rewrite (U target), (U value) by auto.
  - reflexivity.
Qed.

Lemma zip_all_map (P : stmt -> stmt -> bool) g l : (forall x, In x l -> P x (g x) = true) ->
  zip_all P l (map g l) = true.
Proof.
  induction l as [|x l IH]; intros H; [reflexivity|]. cbn. rewrite H by now left. apply IH.
  intros y I. apply H. now right.
Qed.

Theorem compare_complete n e1 e2 f :
  well_numbered e1 -> closed e1 -> renaming f -> rename_entity f e1 = e2 ->
  compare_entity (n, e1) (n, e2) new_map = true.
Proof.
  intros W [Cl Ne] R Er.
  assert (Li : List.length (e_inputs e1) = List.length (e_inputs e2)) by (subst; cbn; now rewrite map_length).
  assert (Ls : List.length (e_stmts e1) = List.length (e_stmts e2)) by (subst; cbn; now rewrite map_length).
  assert (Fi : Forall2 same_input (e_inputs e1) (e_inputs e2)).
  { subst e2. cbn. clear - R. induction (e_inputs e1) as [|x l IH]; cbn; constructor; [|assumption].
    unfold same_input; cbn. pose proof (renaming_shape f (in_val x) R). auto. }
  assert (Fs : Forall2 same_kind (e_stmts e1) (e_stmts e2)).
  { subst e2. cbn. clear - R Ne. induction (e_stmts e1) as [|x l IH]; cbn; constructor.
    - unfold same_kind. destruct x; cbn; try (exfalso; apply Ne; now left);
        (split; [exact I|]); repeat constructor; cbn; now apply renaming_shape.
    - apply IH. intros H. apply Ne. now right. }
  destruct (definitions_combine e1 e2 Li Fs) as [Ec Ld]. pose proof (shapes_combine e1 e2 Fi Fs) as Sh.
  rewrite Ec in Sh. destruct (filled _ _ Ld Sh W) as (Ed & Mp & _).
  set (m := fill new_map (combine (definitions e1) (definitions e2))) in *.
  assert (Df : definitions e2 = map f (definitions e1)).
  { subst e2. unfold definitions. cbn. rewrite map_app, !map_map. f_equal. clear.
    induction (e_stmts e1) as [|x l IH]; [reflexivity|]. cbn. rewrite map_app, IH. f_equal. now destruct x. }
  assert (Ag : forall x, In x (definitions e1) -> apply_map m x = f x).
  { rewrite Df in Ed. intros x I. destruct (In_nth _ _ x I) as (k & Hk & Ek).
    rewrite <- Ek. rewrite <- (map_nth f), <- (map_nth (apply_map m)), <- Ed.
    apply nth_indep. now rewrite map_length. }
  assert (Mu : forall x, In x (uses e1) -> mapped m x).
  { intros x I. apply Mp, in_map, Cl, I. }
  assert (St : e_stmts e2 = map (map_stmt (apply_map m)) (e_stmts e1)).
  { subst e2. cbn. apply map_ext_in. intros s I. apply map_stmt_agree; intros x J.
    - symmetry. apply Ag. unfold definitions. apply in_or_app. right. apply in_flat_map. eauto.
    - symmetry. apply Ag, Cl. right. apply in_flat_map. eauto. }
  cbn. rewrite String.eqb_refl.
  replace (e_output_ty e2) with (e_output_ty e1) by (subst; reflexivity).
  rewrite (proj2 (ty_eqb_eq _ _) eq_refl). cbn.
  rewrite (proj2 (compare_inputs_spec _ _ new_map _ Li) (conj Fi eq_refl)).
  rewrite (proj2 (populate_spec _ _ _ _ Ls) (conj Fs eq_refl)).
  rewrite <- fill_app, Ec. fold m. rewrite !andb_true_iff. repeat split.
  - rewrite St. apply zip_all_map. intros s I. apply compare_statements_complete.
    + intros ->. now apply Ne.
    + apply Forall_forall. intros x J. apply Mu. right. apply in_flat_map. eauto.
  - now apply Nat.eqb_eq.
  - apply compare_vals_spec. split; [apply Mu; now left|].
    rewrite Ag by (apply Cl; now left). subst e2. reflexivity.
Qed.
