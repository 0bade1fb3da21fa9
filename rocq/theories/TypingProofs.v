(** Steps of the checker: what each leaves true, and what every completion of the
    state after it says about the state before. *)
From Coq Require Import List ZArith Bool Arith Lia.
From Verif Require Import InferModel InferSpec InferChain InferState InferUnify InferCons InferNum InferNumOps.
From Verif Require Import TypingModel TypingSpec BitsFacts.
Import ListNotations.

Section Context.
Variable C : context.
Variable fuel : nat.
Variables num int_ uint_ bool_ clock_ : nat.
Variable arity : nat -> nat.
Variable structs : nat -> option struct_.
Hypothesis declared : forall x, sym C x = SDeclared.
Hypothesis numbers : forall b im, In im (impls C b) -> im_name im = num ->
  im = number_impl num /\ num_base int_ uint_ b.
Hypothesis not_numbers : bool_ <> int_ /\ bool_ <> uint_ /\ clock_ <> int_ /\ clock_ <> uint_.
Hypothesis arities : arity int_ = 1 /\ arity uint_ = 1.

Notation G := (G num int_ uint_).
Notation CSolT := (CSolT num int_ uint_).
Notation holds := (requirement_holds int_ uint_ arity structs).
Notation means := (means arity).
Notation is_number := (is_number int_ uint_).

Definition rpub (P : nat -> Prop) (r : req) : Prop :=
  match r with
  | RField _ _ e => P e
  | RShared l => Forall P l
  | _ => True
  end.

Record Inv (P : nat -> Prop) (s : tst) : Prop := {
  i_G : G P E0 (inf s);
  i_eqs : forall k v, find (eqs s) k = Some v -> P v;
  i_reqs : Forall (rpub P) (reqs s)
}.
Record Sol (s : tst) (val : nat -> ty) : Prop := {
  s_sol : CSolT (inf s) val;
  s_ground : forall v, ground (val v);
  s_reqs : Forall (holds val) (reqs s)
}.
Definition ext (E F : list (key * nat)) : Prop := forall k v, find E k = Some v -> find F k = Some v.
Record step (P : nat -> Prop) (s : tst) (P' : nat -> Prop) (s' : tst) : Prop := {
  st_inv : Inv P' s';
  st_P : forall p, P p -> P' p;
  st_vars : exists l, vars (inf s') = vars (inf s) ++ l;
  st_ext : ext (eqs s) (eqs s');
  st_sol : forall val, Sol s' val -> Sol s val
}.
Definition know (s : tst) (Q : (nat -> ty) -> list (key * nat) -> Prop) : Prop :=
  forall val F, Sol s val -> ext (eqs s) F -> Q val F.
Definition tri {A} (P : nat -> Prop) (s : tst) (m : T A) (Q : (nat -> Prop) -> A -> tst -> Prop) : Prop :=
  forall a s', m s = Some (a, s') -> exists P', step P s P' s' /\ Q P' a s'.
Definition idok (s : tst) (v : nat) : Prop := v < len (inf s) /\ ~ err_id (inf s) v.
Definition tyof (val : nat -> ty) (F : list (key * nat)) (k : key) : option ty :=
  match List.find (fun e => key_eqb (fst e) k) F with Some e => Some (val (snd e)) | None => None end.

Lemma step_refl P s : Inv P s -> step P s P s.
Proof. intros I. constructor; auto; [exists []; rewrite app_nil_r; auto | intros k v H; auto]. Qed.
Lemma step_trans P1 s1 P2 s2 P3 s3 : step P1 s1 P2 s2 -> step P2 s2 P3 s3 -> step P1 s1 P3 s3.
Proof.
  intros [A1 A2 (l1 & A3) A4 A5] [B1 B2 (l2 & B3) B4 B5]. constructor; auto.
  - exists (l1 ++ l2). rewrite B3, A3, app_assoc. auto.
  - intros k v H. auto.
Qed.

Lemma tri_bind {A B} P s (m : T A) (f : A -> T B) Q R : tri P s m Q ->
  (forall P1 a s1, step P s P1 s1 -> Q P1 a s1 -> tri P1 s1 (f a) R) -> tri P s (tbind m f) R.
Proof.
  intros M K b s' H. unfold tbind in H. destruct (m s) as [[a s1]|] eqn:E; [|discriminate].
  destruct (M a s1 E) as (P1 & S1 & Q1). destruct (K P1 a s1 S1 Q1 b s' H) as (P2 & S2 & Q2).
  exists P2. split; auto. eapply step_trans; eauto.
Qed.
Lemma tri_ret {A} P s (a : A) (Q : (nat -> Prop) -> A -> tst -> Prop) : Inv P s -> Q P a s -> tri P s (tret a) Q.
Proof. intros I H b s' E. injection E as <- <-. exists P. split; auto. apply step_refl. auto. Qed.
Lemma tri_fail {A} P s (Q : (nat -> Prop) -> A -> tst -> Prop) : tri P s tfail Q.
Proof. intros a s' H. discriminate. Qed.
Lemma tri_weak {A} P s (m : T A) (Q R : (nat -> Prop) -> A -> tst -> Prop) : tri P s m Q ->
  (forall P' a s', step P s P' s' -> Q P' a s' -> R P' a s') -> tri P s m R.
Proof. intros M K a s' H. destruct (M a s' H) as (P' & S1 & Q1). eauto. Qed.

Lemma know_mono P s P' s' Q : step P s P' s' -> know s Q -> know s' Q.
Proof. intros ST K val F SV X. apply K; [apply (st_sol _ _ _ _ ST); auto|]. intros k v H. apply X, (st_ext _ _ _ _ ST), H. Qed.
Lemma find_mono P s P' s' k v : step P s P' s' -> find (eqs s) k = Some v -> find (eqs s') k = Some v.
Proof. intros ST. apply (st_ext _ _ _ _ ST). Qed.
Lemma len_mono P s P' s' : step P s P' s' -> len (inf s) <= len (inf s').
Proof. intros ST. destruct (st_vars _ _ _ _ ST) as (l & E). unfold len. rewrite E, app_length. lia. Qed.
Lemma idok_mono P s P' s' v : step P s P' s' -> idok s v -> idok s' v.
Proof.
  intros ST [A B]. split; [pose proof (len_mono _ _ _ _ ST); lia|]. intros (ps & X). apply B. exists ps.
  destruct (st_vars _ _ _ _ ST) as (l & E). rewrite E, nth_error_app1 in X; auto.
Qed.
Lemma pub_idok P s v : Inv P s -> P v -> idok s v.
Proof. intros I H. apply (g_P _ _ _ _ _ _ (i_G _ _ I)). auto. Qed.
Lemma rpub_mono (P P' : nat -> Prop) r : (forall p, P p -> P' p) -> rpub P r -> rpub P' r.
Proof. intros H. destruct r; cbn; auto. apply Forall_impl. auto. Qed.

(** *** Types *)
Lemma inv_inf (P P' : nat -> Prop) s st : Inv P s -> (forall p, P p -> P' p) -> G P' E0 st -> Inv P' (mkT st (eqs s) (reqs s)).
Proof.
  intros [A B D] H GG. constructor; auto.
  - intros k v X. apply H. eapply B; eauto.
  - cbn. eapply Forall_impl; [|exact D]. intros r. apply rpub_mono. auto.
Qed.
Lemma step_var (P P' : nat -> Prop) s tv : Inv P s -> (forall p, P p -> P' p) -> G P' E0 (with_var (inf s) tv) ->
  step P s P' (mkT (with_var (inf s) tv) (eqs s) (reqs s)).
Proof.
  intros I H GG. constructor.
  - eapply inv_inf; eauto.
  - auto.
  - exists [tv]. reflexivity.
  - intros k v X. exact X.
  - intros val [X Y Z]. destruct X as [X1 X2]. constructor; auto. split; auto.
    destruct (solT_with_var _ _ _ (inf s) tv val (g_closed _ _ _ _ _ _ (i_G _ _ I)) X1). auto.
Qed.
Lemma sol_var P s tv val : Inv P s -> Sol (mkT (with_var (inf s) tv) (eqs s) (reqs s)) val ->
  InferNum.holdsT num int_ uint_ val (len (inf s)) tv.
Proof.
  intros I [[X _] _ _]. eapply solT_with_var in X; [apply X | apply (g_closed _ _ _ _ _ _ (i_G _ _ I))].
Qed.

Lemma new_known_ok P s b ps : Inv P s -> b <> BError -> (scalar b = true -> ps = []) ->
  (num_base int_ uint_ b -> length ps = 1) -> Forall P ps ->
  tri P s (new_var (Known b ps)) (fun P' v s' => P' v /\ know s' (fun val _ => val v = TK b (map val ps))).
Proof.
  intros I NB SC CT FP a s' H. unfold new_var, lift, add_type_var in H. injection H as <- <-.
  exists (fun p => P p \/ p = len (inf s)).
  assert (ST : step P s (fun p => P p \/ p = len (inf s)) (mkT (with_var (inf s) (Known b ps)) (eqs s) (reqs s))).
  { apply step_var; auto. apply G_new_known; auto; [apply (i_G _ _ I)|]. apply Forall_forall. auto. }
  split; [exact ST|]. split; [right; reflexivity|].
  intros val F SV _. apply (sol_var P s _ val I SV).
Qed.
Lemma new_generic_pub (pub : bool) P s m : Inv P s ->
  tri P s (new_generic m) (fun P' v s' => (forall p, P' p -> P p \/ pub = true /\ p = v) /\ (pub = true -> P' v) /\ idok s' v /\
    len (inf s) = v /\ inf s' = with_var (inf s) (Unknown [] m) /\ eqs s' = eqs s /\ reqs s' = reqs s /\
    know s' (fun val _ => has_kind (val v) m)).
Proof.
  intros I a s' H. unfold new_generic, new_var, lift, add_type_var in H. injection H as <- <-.
  exists (fun p => P p \/ pub = true /\ p = len (inf s)).
  assert (ST : step P s (fun p => P p \/ pub = true /\ p = len (inf s)) (mkT (with_var (inf s) (Unknown [] m)) (eqs s) (reqs s))).
  { apply step_var; auto. apply G_new_unknown; apply (i_G _ _ I). }
  split; [exact ST|]. split; [auto|]. split; [auto|]. split; [|split; [reflexivity|split; [reflexivity|split; [reflexivity|split; [reflexivity|]]]]].
  - split; [change (len (inf s) < len (with_var (inf s) (Unknown [] m))); rewrite len_with_var; lia|].
    intros (ps & X). change (nth_error (vars (with_var (inf s) (Unknown [] m))) (len (inf s)) = Some (Known BError ps)) in X.
    rewrite nth_with_var_new in X. discriminate.
  - intros val F SV _. apply (sol_var P s _ val I SV).
Qed.
Lemma new_generic_ok P s m : Inv P s ->
  tri P s (new_generic m) (fun P' v s' => P' v /\ know s' (fun val _ => has_kind (val v) m)).
Proof. intros I. eapply tri_weak; [apply (new_generic_pub true); auto|]. cbn. intros; tauto. Qed.

Lemma ground_uint t : ground t -> has_kind t MUint -> exists z, t = tvalue z /\ (0 <= z)%Z.
Proof.
  intros GR H. destruct GR as [b l SC _]. destruct b; try contradiction. exists z. rewrite (SC eq_refl). auto.
Qed.
Lemma ground_int t : ground t -> has_kind t MInt -> exists z, t = tvalue z.
Proof. intros GR H. destruct GR as [b l SC _]. destruct b; try contradiction. exists z. rewrite (SC eq_refl). auto. Qed.
Lemma ground_bool t : ground t -> has_kind t MBool -> exists z, t = TK (BBool z) [].
Proof. intros GR H. destruct GR as [b l SC _]. destruct b; try contradiction. exists b. rewrite (SC eq_refl). auto. Qed.

(** a number type whose size only it holds on to *)
Lemma new_number_ok P s : Inv P s ->
  tri P s (new_number num) (fun P' r s' => P' (fst r) /\ idok s' (snd r) /\
    know s' (fun val _ => exists b n, is_number (val (fst r)) b n /\ val (snd r) = tvalue n)).
Proof.
  intros I. unfold new_number. eapply tri_bind; [apply (new_generic_pub false); auto|].
  intros P1 size s1 ST (NP & _ & ID & LE & E1 & E2 & E3 & K1). pose proof (st_inv _ _ _ _ ST) as I1.
  pose proof (i_G _ _ I) as G0. pose proof (i_G _ _ I1) as G1.
  assert (LO : lonely P1 (inf s1) size).
  { subst size. rewrite E1. intros o p O. apply (lonely_fresh num int_ uint_ P (inf s) MUint G0 o p).
    destruct o as [x|]; [exact O|]. cbn in *. destruct (NP p O) as [X|[X _]]; [auto | discriminate]. }
  assert (LK : lookup (repl (inf s1)) size = None).
  { rewrite E1, <- LE. exact (lookup_fresh (inf s) (g_closed _ _ _ _ _ _ G0)). }
  assert (NT : nth_error (vars (inf s1)) size = Some (Unknown [] MUint)).
  { rewrite E1, <- LE. apply nth_with_var_new. }
  intros r s' H. unfold tbind, new_var, lift, add_type_var, tret in H. injection H as <- <-.
  exists (fun p => P1 p \/ p = len (inf s1)).
  assert (ST2 : step P1 s1 (fun p => P1 p \/ p = len (inf s1))
    (mkT (with_var (inf s1) (Unknown [(num, [size])] MType)) (eqs s1) (reqs s1))).
  { apply step_var; auto. apply G_new_number; auto. apply ID. }
  split; [exact ST2|]. cbn [fst snd]. split; [right; reflexivity|]. split; [eapply idok_mono; [exact ST2 | auto]|].
  intros val F SV X. destruct (sol_var P1 s1 _ val I1 SV) as [_ B]. specialize (B size eq_refl).
  pose proof (know_mono _ _ _ _ _ ST2 K1 val F SV X) as K2. cbn in K2.
  destruct (ground_uint _ (s_ground _ _ SV size) K2) as (z & Z1 & Z2). rewrite Z1 in B.
  destruct B as [B|B]; [exists int_, z | exists uint_, z]; (split; [|auto]); split; auto.
Qed.

(** *** Equations between types *)
Lemma equal_ok P s a b : Inv P s -> P a -> P b ->
  tri P s (equal C fuel a b) (fun P' _ s' => know s' (fun val _ => val a = val b)).
Proof.
  intros I Pa Pb r s' H. unfold equal, lift, bind, ret in H.
  destruct (unify C fuel a b (inf s)) as [x st| | |] eqn:U; try discriminate. injection H as <- <-.
  pose proof (unify_number C declared num int_ uint_ numbers fuel P _ _ _ _ _ (i_G _ _ I) Pa Pb U) as B.
  exists P. split.
  - constructor.
    + eapply inv_inf; eauto. apply (bg_G _ _ _ _ _ _ _ _ B).
    + auto.
    + apply (bg_ext _ _ _ _ _ _ _ _ B).
    + intros k v X. exact X.
    + intros val [X Y Z]. constructor; auto. apply (bg_sol _ _ _ _ _ _ _ _ B) in X. apply X.
  - intros val F [X Y Z] _. apply (bg_sol _ _ _ _ _ _ _ _ B) in X. apply X.
Qed.

(** *** Constraints, equations and requirements *)
Lemma constrain_ok P s v e : Inv P s -> idok s v -> Forall (fun x => x < len (inf s)) (cvars e) ->
  tri P s (constrain v e) (fun P' _ s' => know s' (fun val _ => exists k, Value val e k /\ val v = TK k [])).
Proof.
  intros I [L N] CV r s' H. unfold constrain, lift, add_constraint in H. injection H as <- <-.
  exists P. split.
  - constructor.
    + eapply inv_inf; eauto. apply G_constrain; auto. apply (i_G _ _ I).
    + auto.
    + exists []. rewrite app_nil_r. reflexivity.
    + intros k w X. exact X.
    + intros val [X Y Z]. constructor; auto. apply csol_constrain in X. apply X.
  - intros val F [X Y Z] _. apply csol_constrain in X. apply X.
Qed.
Lemma find_add E k v j : find ((k, v) :: E) j = if key_eqb k j then Some v else find E j.
Proof. reflexivity. Qed.
Lemma key_eqb_eq a b : key_eqb a b = true <-> a = b.
Proof. destruct a, b; cbn; rewrite ?Nat.eqb_eq; split; congruence. Qed.
Lemma add_equation_ok P s k v : Inv P s -> P v ->
  tri P s (add_equation k v) (fun P' _ s' => find (eqs s') k = Some v).
Proof.
  intros I Pv r s' H. unfold add_equation in H. destruct (find (eqs s) k) eqn:E; [discriminate|]. injection H as <- <-.
  exists P. split.
  - constructor.
    + constructor; cbn; [apply (i_G _ _ I) | | apply (i_reqs _ _ I)].
      intros j w X. destruct (key_eqb k j); [congruence | eapply (i_eqs _ _ I); eauto].
    + auto.
    + exists []. rewrite app_nil_r. reflexivity.
    + intros j w X. cbn. destruct (key_eqb k j) eqn:Q; auto. apply key_eqb_eq in Q. congruence.
    + intros val [X Y Z]. constructor; auto.
  - cbn. replace (key_eqb k k) with true; auto. symmetry. apply key_eqb_eq. auto.
Qed.
Lemma type_of_ok P s k : Inv P s -> tri P s (type_of k) (fun P' v s' => P' v /\ find (eqs s') k = Some v).
Proof.
  intros I v s' H. unfold type_of in H. destruct (find (eqs s) k) eqn:E; [|discriminate]. injection H as <- <-.
  exists P. split; [apply step_refl; auto|]. split; auto. eapply (i_eqs _ _ I); eauto.
Qed.
(** when the type is known already *)
Lemma type_of_is P s k v : Inv P s -> find (eqs s) k = Some v -> tri P s (type_of k) (fun P' w s' => w = v).
Proof.
  intros I E w s' H. unfold type_of in H. rewrite E in H. injection H as <- <-.
  exists P. split; [apply step_refl; auto|]. auto.
Qed.
Lemma add_requirement_ok P s r : Inv P s -> rpub P r ->
  tri P s (add_requirement r) (fun P' _ s' => know s' (fun val _ => holds val r)).
Proof.
  intros I R u s' H. unfold add_requirement in H. injection H as <- <-. exists P. split.
  - constructor.
    + constructor; cbn; [apply (i_G _ _ I) | apply (i_eqs _ _ I)|]. apply Forall_app. split; [apply (i_reqs _ _ I) | auto].
    + auto.
    + exists []. rewrite app_nil_r. reflexivity.
    + intros j w X. exact X.
    + intros val [X Y Z]. cbn in Z. apply Forall_app in Z as [Z _]. constructor; auto.
  - intros val F [X Y Z] _. cbn in Z. apply Forall_app in Z as [_ Z]. inversion Z; auto.
Qed.
Lemma of_option_ok {A} P s (o : option A) : Inv P s -> tri P s (of_option o) (fun P' a s' => o = Some a).
Proof. intros I a s' H. unfold of_option in H. destruct o; [|discriminate]. injection H as <- <-. exists P. split; [apply step_refl; auto | auto]. Qed.
(** what is found out about a type by looking at it *)
Lemma resolved_ok P s v : Inv P s -> tri P s (resolved v) (fun P' t s' =>
  match t with
  | Known b ps => know s' (fun val _ => val v = TK b (map val ps)) /\
      Forall P' ps /\ (num_base int_ uint_ b -> length ps = 1) /\ (scalar b = true -> ps = []) /\ (P v -> b <> BError)
  | Unknown _ _ => True
  end).
Proof.
  intros I t s' H. unfold resolved in H. destruct (resolve (inf s) v) as [x|] eqn:R; [|discriminate]. injection H as -> <-.
  pose proof (i_G _ _ I) as GG. pose proof (g_chains _ _ _ _ _ _ GG) as CH.
  destruct t as [b ps|trs m].
  - destruct (resolve_root _ _ _ CH R) as (r & R1 & R2 & R3).
    set (P' := fun p => P p \/ In p ps).
    assert (I' : Inv P' s).
    { destruct s as [st E q]. apply (inv_inf P P' (mkT st E q) st I); [unfold P'; auto|].
      apply G_publish; auto. intros p X. destruct (g_ids _ _ _ _ _ _ GG r _ p R3 X) as [X1 X2].
      split; auto. split; auto. eapply param_free; eauto. }
    exists P'. split.
    + constructor; auto; [unfold P'; auto | exists []; rewrite app_nil_r; auto | intros k w X; auto].
    + split.
      * intros val F SV _. destruct (resolve_val _ _ _ _ _ _ _ (s_sol _ _ SV) CH R) as (q & Q1 & Q2 & Q3 & Q4).
        rewrite Q3. exact Q4.
      * split; [apply Forall_forall; unfold P'; auto|].
        split; [|split; [apply (cl_scalar _ (g_closed _ _ _ _ _ _ GG) _ _ _ R3)|]].
        -- intros NB. destruct (g_shape _ _ _ _ _ _ GG r _ R3) as [_ CT]. eapply CT; eauto.
        -- intros X ->. destruct (g_P _ _ _ _ _ _ GG v X) as [_ NE].
           assert (ER : err_id (inf s) r) by (exists ps; auto).
           rewrite (g_ne _ _ _ _ _ _ GG v r R1 ER) in NE. auto.
  - exists P. split; [apply step_refl; auto | exact Logic.I].
Qed.

(** *** Lists *)
Definition mono (M : (nat -> Prop) -> tst -> Prop) : Prop := forall P s P' s', step P s P' s' -> M P s -> M P' s'.
Lemma mono_P v : mono (fun P _ => P v).
Proof. intros P s P' s' ST H. apply (st_P _ _ _ _ ST). auto. Qed.
Lemma mono_know Q : mono (fun _ s => know s Q).
Proof. intros P s P' s' ST H. eapply know_mono; eauto. Qed.
Lemma mono_find k v : mono (fun _ s => find (eqs s) k = Some v).
Proof. intros P s P' s' ST H. eapply find_mono; eauto. Qed.
Lemma mono_and M N : mono M -> mono N -> mono (fun P s => M P s /\ N P s).
Proof. intros A B P s P' s' ST [H K]. split; eauto. Qed.
Lemma mono_true : mono (fun _ _ => True).
Proof. intros P s P' s' ST H. auto. Qed.
Lemma mono_forall {A} (M : A -> (nat -> Prop) -> tst -> Prop) l : (forall a, mono (M a)) -> mono (fun P s => Forall (fun a => M a P s) l).
Proof. intros A0 P s P' s' ST H. eapply Forall_impl; [|exact H]. intros a. cbn. apply A0. auto. Qed.
Lemma mono_ex {A} (M : A -> (nat -> Prop) -> tst -> Prop) : (forall a, mono (M a)) -> mono (fun P s => exists a, M a P s).
Proof. intros A0 P s P' s' ST (a & H). exists a. eapply A0; eauto. Qed.

Lemma each_ok {A} M (Q : A -> (nat -> Prop) -> tst -> Prop) (f : A -> T unit) : mono M -> (forall a, mono (Q a)) ->
  forall l P s, (forall P s a, In a l -> Inv P s -> M P s -> tri P s (f a) (fun P' _ s' => Q a P' s')) ->
  Inv P s -> M P s -> tri P s (each f l) (fun P' _ s' => Forall (fun a => Q a P' s') l).
Proof.
  intros MM MQ. induction l as [|a l IH]; intros P s HF I HM.
  - apply tri_ret; auto.
  - change (each f (a :: l)) with (tbind (f a) (fun _ => each f l)).
    eapply tri_bind; [apply HF; cbn; auto|]. intros P1 u s1 ST Qa.
    eapply tri_weak; [apply IH; [intros; apply HF; cbn; auto | apply (st_inv _ _ _ _ ST) | eapply MM; eauto]|].
    intros P2 u2 s2 ST2 Ql. constructor; auto. eapply MQ; eauto.
Qed.
Lemma collect_ok {A B} M (Q : A -> B -> (nat -> Prop) -> tst -> Prop) (f : A -> T B) : mono M -> (forall a b, mono (Q a b)) ->
  forall l P s, (forall P s a, In a l -> Inv P s -> M P s -> tri P s (f a) (fun P' b s' => Q a b P' s')) ->
  Inv P s -> M P s -> tri P s (collect f l) (fun P' bs s' => Forall2 (fun a b => Q a b P' s') l bs).
Proof.
  intros MM MQ. induction l as [|a l IH]; intros P s HF I HM.
  - apply tri_ret; auto.
  - change (collect f (a :: l)) with (tbind (f a) (fun b => tbind (collect f l) (fun q => tret (b :: q)))).
    eapply tri_bind; [apply HF; cbn; auto|]. intros P1 b s1 ST Qa. cbn beta.
    eapply tri_bind; [apply IH; [intros; apply HF; cbn; auto | apply (st_inv _ _ _ _ ST) | eapply MM; eauto]|].
    intros P2 bs s2 ST2 Ql. apply tri_ret; [apply (st_inv _ _ _ _ ST2)|]. constructor; auto. eapply MQ; eauto.
Qed.
Lemma each2_ok {A B} M (Q : A -> B -> (nat -> Prop) -> tst -> Prop) (f : A -> B -> T unit) : mono M -> (forall a b, mono (Q a b)) ->
  forall l m P s, (forall P s a b, In a l -> In b m -> Inv P s -> M P s -> tri P s (f a b) (fun P' _ s' => Q a b P' s')) ->
  Inv P s -> M P s -> tri P s (each2 f l m) (fun P' _ s' => Forall2 (fun a b => Q a b P' s') l m).
Proof.
  intros MM MQ. induction l as [|a l IH]; intros [|b m] P s HF I HM; try apply tri_fail.
  - apply tri_ret; auto.
  - change (each2 f (a :: l) (b :: m)) with (tbind (f a b) (fun _ => each2 f l m)).
    eapply tri_bind; [apply HF; cbn; auto|]. intros P1 u s1 ST Qa.
    eapply tri_weak; [apply IH; [intros; apply HF; cbn; auto | apply (st_inv _ _ _ _ ST) | eapply MM; eauto]|].
    intros P2 u2 s2 ST2 Ql. constructor; auto. eapply MQ; eauto.
Qed.
Lemma each_after_true {A} (f : bool -> A -> T unit) l : each_after f true l = each (f true) l.
Proof.
  induction l as [|a l IH]; [reflexivity|].
  change (each_after f true (a :: l)) with (tbind (f true a) (fun _ => each_after f true l)).
  rewrite IH. reflexivity.
Qed.

(** *** Written types *)
Lemma tspec_ind' (Q : tspec -> Prop) :
  (forall z, Q (TSInt z)) -> (forall b, Q (TSBool b)) -> (forall s, Q (TSStr s)) -> (forall e, Q (TSConst e)) ->
  (forall n l, Forall Q l -> Q (TSNamed n l)) -> (forall k, Q (TSGeneric k)) -> (forall l, Forall Q l -> Q (TSTuple l)) ->
  (forall a b, Q a -> Q b -> Q (TSArray a b)) -> (forall a, Q a -> Q (TSInverted a)) -> (forall a, Q a -> Q (TSCopyView a)) ->
  Q TSWildcard -> forall t, Q t.
Proof.
  intros H1 H2 H3 H4 H5 H6 H7 H8 H9 H10 H11. fix IH 1.
  intros [z|b|x|e|n l|k|l|a b|a|a|].
  - apply H1.
  - apply H2.
  - apply H3.
  - apply H4.
  - apply H5. induction l; constructor; [apply IH | assumption].
  - apply H6.
  - apply H7. induction l; constructor; [apply IH | assumption].
  - apply H8; apply IH.
  - apply H9, IH.
  - apply H10, IH.
  - apply H11.
Qed.

Lemma env_nth (gl : list nat) k v (val : nat -> ty) : nth_error gl k = Some v -> env (map val gl) k = val v.
Proof. intros H. unfold env. apply nth_error_nth. rewrite nth_error_map, H. auto. Qed.

Lemma const_generic_vars gl : forall e c, const_generic gl e = Some c -> forall v, In v (cvars c) -> In v gl.
Proof.
  induction e; intros c H w IN; cbn in H;
  repeat match type of H with
  | context [const_generic gl ?x] => let E := fresh in destruct (const_generic gl x) eqn:E; cbn in H; [|discriminate H]
  end; try (injection H as <-; cbn in IN; rewrite ?in_app_iff in IN; intuition eauto; fail).
  destruct (nth_error gl v) eqn:E; [|discriminate]. injection H as <-. destruct IN as [<-|[]]. eapply nth_error_In; eauto.
Qed.
Lemma const_generic_value gl val : forall e c b, const_generic gl e = Some c -> Value val c b -> Value (env (map val gl)) e b.
Proof.
  induction e; intros c k H VV; cbn in H;
  repeat match type of H with
  | context [const_generic gl ?x] => let E := fresh in destruct (const_generic gl x) eqn:E; cbn in H; [|discriminate H]
  end; try (injection H as <-; inversion VV; subst; econstructor; eauto; fail).
  destruct (nth_error gl v) eqn:E; [|discriminate]. injection H as <-. apply env_nth with (val := val) in E.
  inversion VV; subst; econstructor; rewrite E; eauto.
Qed.

Lemma forall2_len {A B} (R : A -> B -> Prop) l m : Forall2 R l m -> length l = length m.
Proof. induction 1; cbn; auto. Qed.
Lemma forall2_know s (Q : tspec -> nat -> (nat -> ty) -> Prop) (R : (nat -> ty) -> tspec -> ty -> Prop) :
  forall l ps (P' : nat -> Prop), Forall2 (fun a b => P' b /\ know s (fun val _ => R val a (val b))) l ps ->
  Forall P' ps /\ know s (fun val _ => Forall2 (R val) l (map val ps)).
Proof.
  intros l ps P' H. induction H as [|a b l ps [H1 H2] _ [IH1 IH2]]; split; auto.
  - intros val F SV X. constructor.
  - intros val F SV X. cbn. constructor; [eapply H2; eauto | eapply IH2; eauto].
Qed.

Definition gl_lt (gl : glist) (s : tst) : Prop := Forall (fun v => v < len (inf s)) gl.
Lemma mono_gl_lt gl : mono (fun _ s => gl_lt gl s).
Proof. intros P s P' s' ST H. eapply Forall_impl; [|exact H]. cbn. intros v X. pose proof (len_mono _ _ _ _ ST). lia. Qed.
Definition gl_pub (gl : glist) (t : tspec) (P : nat -> Prop) : Prop :=
  forall k v, mentions k t = true -> nth_error gl k = Some v -> P v.
Lemma mono_gl_pub gl t : mono (fun P _ => gl_pub gl t P).
Proof. intros P s P' s' ST H k v A B. apply (st_P _ _ _ _ ST). eauto. Qed.

Lemma spec_var_ok gl : forall t P s, Inv P s -> gl_lt gl s -> gl_pub gl t P ->
  tri P s (spec_var arity gl t) (fun P' v s' => P' v /\ know s' (fun val _ => means (map val gl) t (val v))).
Proof.
  assert (LIST : forall l, Forall (fun t => forall P s, Inv P s -> gl_lt gl s -> gl_pub gl t P ->
      tri P s (spec_var arity gl t) (fun P' v s' => P' v /\ know s' (fun val _ => means (map val gl) t (val v)))) l ->
    forall P s, Inv P s -> gl_lt gl s -> (forall t, In t l -> gl_pub gl t P) ->
    tri P s (collect (spec_var arity gl) l) (fun P' ps s' => length ps = length l /\ Forall P' ps /\
      know s' (fun val _ => Forall2 (means (map val gl)) l (map val ps)))).
  { intros l IH P s I GL GP.
    eapply tri_weak; [apply (collect_ok (fun P s => gl_lt gl s /\ forall t, In t l -> gl_pub gl t P)
      (fun t v P' s' => P' v /\ know s' (fun val _ => means (map val gl) t (val v)))); auto|].
    - apply mono_and; [apply mono_gl_lt|]. intros P1 s1 P2 s2 ST X t IN. eapply mono_gl_pub; eauto.
    - intros a b. apply mono_and; [apply mono_P | apply mono_know].
    - intros P1 s1 a IN I1 [M1 M2]. rewrite Forall_forall in IH. apply IH; auto.
    - intros P' ps s' ST H. split; [symmetry; exact (forall2_len _ _ _ H)|].
      apply (forall2_know s' (fun _ _ _ => True) (fun val => means (map val gl))); auto. }
  assert (SUB : forall (P : nat -> Prop) l, (forall k v, existsb (mentions k) l = true -> nth_error gl k = Some v -> P v) ->
     forall t, In t l -> gl_pub gl t P).
  { intros P l H t IN k v X Y. apply (H k v); auto. apply existsb_exists. eauto. }
  induction t as [z|b|x|e|n l IH|k|l IH|a b IHa IHb|a IHa|a IHa|] using tspec_ind'; intros P s I GL GP; cbn [spec_var].
  - eapply tri_weak; [apply new_known_ok; auto; try discriminate; intros [X|X]; discriminate|].
    intros P' v s' _ [A B]. split; auto. intros val F SV X. rewrite (B val F SV X). constructor.
  - eapply tri_weak; [apply new_known_ok; auto; try discriminate; intros [X|X]; discriminate|].
    intros P' v s' _ [A B]. split; auto. intros val F SV X. rewrite (B val F SV X). constructor.
  - eapply tri_weak; [apply new_known_ok; auto; try discriminate; intros [X|X]; discriminate|].
    intros P' v s' _ [A B]. split; auto. intros val F SV X. rewrite (B val F SV X). constructor.
  - eapply tri_bind; [apply of_option_ok; auto|]. intros P1 c s1 ST1 EC. cbv beta in EC. apply (mono_gl_lt gl _ _ _ _ ST1) in GL.
    eapply tri_bind; [apply new_generic_ok, (st_inv _ _ _ _ ST1)|]. intros P2 v s2 ST2 [Pv _].
    apply (mono_gl_lt gl _ _ _ _ ST2) in GL. pose proof (st_inv _ _ _ _ ST2) as I2.
    eapply tri_bind; [apply constrain_ok; [auto | eapply pub_idok; eauto |]|].
    { apply Forall_forall. intros w W. unfold gl_lt in GL. rewrite Forall_forall in GL. apply GL. eapply const_generic_vars; eauto. }
    intros P3 u s3 ST3 K. apply tri_ret; [apply (st_inv _ _ _ _ ST3)|]. split; [apply (st_P _ _ _ _ ST3); auto|].
    intros val F SV X. destruct (K val F SV X) as (b & V1 & V2). rewrite V2. constructor. eapply const_generic_value; eauto.
  - eapply tri_bind; [apply LIST; auto; apply SUB; exact GP|]. intros P1 ps s1 ST1 (LE & FP & K).
    destruct (length l =? arity n) eqn:AR; [|apply tri_fail]. apply Nat.eqb_eq in AR.
    eapply tri_weak; [apply new_known_ok; [apply (st_inv _ _ _ _ ST1) | discriminate | discriminate | | auto]|].
    { intros [X|X]; injection X as ->; destruct arities; lia. }
    intros P2 v s2 ST2 [A B]. split; auto. intros val F SV X. rewrite (B val F SV X). constructor; auto.
    exact (know_mono _ _ _ _ _ ST2 K val F SV X).
  - intros v s' H. unfold of_option in H. destruct (nth_error gl k) as [w|] eqn:E; [|discriminate]. injection H as <- <-.
    exists P. split; [apply step_refl; auto|]. split; [eapply GP; eauto; cbn; apply Nat.eqb_refl|].
    intros val F SV X. constructor. rewrite nth_error_map, E. auto.
  - eapply tri_bind; [apply LIST; auto; apply SUB; exact GP|]. intros P1 ps s1 ST1 (LE & FP & K).
    eapply tri_weak; [apply new_known_ok; [apply (st_inv _ _ _ _ ST1) | discriminate | discriminate | intros [X|X]; discriminate | auto]|].
    intros P2 v s2 ST2 [A B]. split; auto. intros val F SV X. rewrite (B val F SV X). constructor; auto.
    exact (know_mono _ _ _ _ _ ST2 K val F SV X).
  - assert (GA : gl_pub gl a P) by (intros k v X; apply GP; cbn; rewrite X; auto).
    assert (GB : gl_pub gl b P) by (intros k v X; apply GP; cbn; rewrite X, orb_true_r; auto).
    eapply tri_bind; [apply IHa; auto|]. intros P1 x s1 ST1 [Px Kx].
    eapply tri_bind; [apply IHb; [apply (st_inv _ _ _ _ ST1) | eapply mono_gl_lt; eauto | eapply mono_gl_pub; eauto]|].
    intros P2 y s2 ST2 [Py Ky]. apply (st_P _ _ _ _ ST2) in Px. apply (know_mono _ _ _ _ _ ST2) in Kx.
    eapply tri_weak; [apply new_known_ok; [apply (st_inv _ _ _ _ ST2) | discriminate | discriminate | intros [X|X]; discriminate | auto]|].
    intros P3 v s3 ST3 [A B]. split; auto. intros val F SV X. rewrite (B val F SV X). constructor.
    + exact (know_mono _ _ _ _ _ ST3 Kx val F SV X).
    + exact (know_mono _ _ _ _ _ ST3 Ky val F SV X).
  - eapply tri_bind; [apply IHa; auto|]. intros P1 x s1 ST1 [Px Kx].
    eapply tri_weak; [apply new_known_ok; [apply (st_inv _ _ _ _ ST1) | discriminate | discriminate | intros [X|X]; discriminate | auto]|].
    intros P3 v s3 ST3 [A B]. split; auto. intros val F SV X. rewrite (B val F SV X). constructor.
    exact (know_mono _ _ _ _ _ ST3 Kx val F SV X).
  - eapply tri_bind; [apply IHa; auto|]. intros P1 x s1 ST1 [Px Kx].
    eapply tri_weak; [apply new_known_ok; [apply (st_inv _ _ _ _ ST1) | discriminate | discriminate | intros [X|X]; discriminate | auto]|].
    intros P3 v s3 ST3 [A B]. split; auto. intros val F SV X. rewrite (B val F SV X). constructor.
    exact (know_mono _ _ _ _ _ ST3 Kx val F SV X).
  - eapply tri_weak; [apply new_generic_ok; auto|]. intros P' v s' _ [A B]. split; auto.
    intros val F SV X. constructor.
Qed.

Ltac adv ST :=
  cbv beta in *;
  lazymatch type of ST with
  | step ?P ?s ?P1 ?s1 =>
    let I := fresh "I" in
    pose proof (st_inv _ _ _ _ ST) as I;
    repeat match goal with
    | H : Inv P s |- _ => clear H
    | H : P _ |- _ => apply (st_P _ _ _ _ ST) in H
    | H : Forall P ?l |- _ => apply (Forall_impl P1 (st_P _ _ _ _ ST)) in H
    | H : know s _ |- _ => apply (know_mono _ _ _ _ _ ST) in H
    | H : find (eqs s) _ = Some _ |- _ => apply (find_mono _ _ _ _ _ _ ST) in H
    | H : idok s _ |- _ => apply (idok_mono _ _ _ _ _ ST) in H
    | H : gl_lt ?g s |- _ => apply (mono_gl_lt g _ _ _ _ ST) in H
    | H : gl_pub ?g ?t P |- _ => apply (mono_gl_pub g t _ _ _ _ ST) in H
    end; clear ST
  end.
Ltac side := try assumption; try discriminate; try reflexivity; auto; try (eapply pub_idok; eassumption);
  try (intros [?X|?X]; discriminate).
Tactic Notation "go" uconstr(L) := eapply tri_bind; [apply L; side | cbv beta].
Tactic Notation "fin" uconstr(L) := eapply tri_weak; [apply L; side | cbv beta].
Ltac kn val F SV X := repeat match goal with K : know _ _ |- _ => specialize (K val F SV X); cbv beta in K end.
Ltac done := apply tri_ret; [assumption|].

(** *** Type-level expressions in the body *)
Lemma const_var_ok metas gl c P s : Inv P s -> gl_lt gl s ->
  tri P s (const_var metas gl c) (fun P' v s' => P' v /\ find (eqs s') (KId (fst c)) = Some v /\
    know s' (fun val _ => exists b, val v = TK b [] /\ Value (env (map val gl)) (snd c) b)).
Proof.
  intros I GL. unfold const_var.
  go of_option_ok. intros P1 m s1 ST EM. adv ST.
  go new_generic_ok. intros P2 v s2 ST [Pv K]. adv ST.
  go of_option_ok. intros P3 e s3 ST EE. adv ST.
  go add_equation_ok. intros P4 u s4 ST FE. adv ST.
  go constrain_ok.
  { apply Forall_forall. intros w W. unfold gl_lt in GL. rewrite Forall_forall in GL. apply GL. eapply const_generic_vars; eauto. }
  intros P5 u' s5 ST KC. adv ST. done. split; auto. split; auto.
  intros val F SV X. kn val F SV X. destruct KC as (b & V1 & V2). exists b. split; auto. eapply const_generic_value; eauto.
Qed.

(** *** Requirements *)
Lemma compare_ok f (R : Z -> Z -> Prop) a b P s : Inv P s -> (forall x y, f x y = true -> R x y) ->
  tri P s (compare f a b) (fun P' r s' => match r with
    | None => True
    | Some l => l = [] /\ know s' (fun val _ => exists x y, val a = tvalue x /\ val b = tvalue y /\ R x y)
    end).
Proof.
  intros I HR. unfold compare.
  go resolved_ok. intros P1 x s1 ST HX. adv ST. go resolved_ok. intros P2 y s2 ST HY.
  destruct x as [bx px|]; [destruct HX as (HX & _ & _ & SX & _)|]; (destruct y as [by_ py|]; [destruct HY as (HY & _ & _ & SY & _)|]); adv ST;
    try (destruct bx); try (done; exact Logic.I); try apply tri_fail.
  destruct by_; try apply tri_fail. rewrite (SX eq_refl), (SY eq_refl) in *.
  destruct (f z z0) eqn:E; [|apply tri_fail]. done. split; auto. intros val F SV X. kn val F SV X.
  exists z, z0. auto.
Qed.

Lemma where_holds_ok k x y : where_holds k x y = true -> relation k x y.
Proof.
  destruct k; cbn; rewrite ?negb_true_iff, ?Z.eqb_eq, ?Z.eqb_neq, ?Z.ltb_lt, ?Z.leb_le; lia.
Qed.

Lemma literal_fits_ok n size z : n = int_ \/ n = uint_ -> (0 <= size)%Z -> literal_fits (n =? int_) size z = true ->
  in_range int_ uint_ n size z.
Proof.
  intros N L. unfold literal_fits, in_range. rewrite orb_true_iff, Z.eqb_eq. intros [->|H]; [auto|].
  destruct (n =? int_) eqn:E.
  - apply Nat.eqb_eq in E. apply andb_true_iff in H as [A B]. apply Z.leb_le in A, B.
    destruct (Z.eq_dec size 0) as [->|NZ].
    + cbn in A, B. destruct (Z.eq_dec z 0); auto. right. right. right. split; auto. split; auto. lia.
    + rewrite Z.max_r in A, B by lia. right. left. split; auto. lia.
  - apply Nat.eqb_neq in E. apply andb_true_iff in H as [A B]. apply Z.leb_le in A, B.
    right. right. left. split; [tauto | lia].
Qed.

Definition eqn (val : nat -> ty) (p : nat * nat) : Prop := val (fst p) = val (snd p).
Definition found (P : nat -> Prop) (s : tst) (r : req) (res : option (list (nat * nat))) : Prop :=
  match res with
  | None => True
  | Some rs => Forall (fun p => P (fst p) /\ P (snd p)) rs /\ know s (fun val _ => Forall (eqn val) rs -> holds val r)
  end.
Lemma mono_found r res : mono (fun P s => found P s r res).
Proof.
  intros P s P' s' ST. destruct res as [rs|]; cbn; auto. intros [A B]. split; [|eapply know_mono; eauto].
  eapply Forall_impl; [|exact A]. cbn. intros p [X Y]. split; apply (st_P _ _ _ _ ST); auto.
Qed.

Lemma member_in m f t : member m f = Some t -> In (f, t) m.
Proof.
  unfold member. destruct (List.find (fun x => fst x =? f) m) as [[g u]|] eqn:E; [|discriminate].
  cbn. intros X. injection X as <-. apply find_some in E as [A B]. cbn in B. apply Nat.eqb_eq in B. subst. auto.
Qed.

Lemma first_known_ok : forall l P s, Inv P s -> Forall P l ->
  tri P s (first_known l) (fun P' r s' => match r with
    | None => True
    | Some (b, ps) => b <> BError /\ (num_base int_ uint_ b -> length ps = 1) /\ (scalar b = true -> ps = [])
    end).
Proof.
  induction l as [|t l IH]; intros P s I FP; cbn [first_known].
  - done. exact Logic.I.
  - inversion FP as [|? ? Pt FP']; subst. go resolved_ok. intros P1 x s1 ST HX.
    destruct x as [b ps|].
    + destruct HX as (_ & _ & A & B & D). apply (st_P _ _ _ _ ST) in Pt as Pt'. apply tri_ret; [apply (st_inv _ _ _ _ ST)|]. auto.
    + adv ST. apply IH; auto.
Qed.

Lemma check_ok r P s : Inv P s -> rpub P r -> tri P s (check int_ uint_ arity structs r) (fun P' res s' => found P' s' r res).
Proof.
  intros I RP. destruct r as [value t|target f e|a b|a b|size|k a b|l]; cbn [check].
  - go resolved_ok. intros P1 x s1 ST HX. destruct x as [b ps|]; [|adv ST; done; exact Logic.I].
    destruct HX as (HX & FP & CT & _). adv ST.
    destruct b as [n|z|b|s0| | | | |]; try apply tri_fail; try (done; exact Logic.I).
    destruct ((n =? int_) || (n =? uint_)) eqn:EN; [|apply tri_fail].
    assert (NB : n = int_ \/ n = uint_) by (apply orb_true_iff in EN; rewrite !Nat.eqb_eq in EN; auto).
    destruct ps as [|p [|q ps]]; try apply tri_fail.
    go resolved_ok. intros P2 y s2 ST HY. destruct y as [b ps|]; [|adv ST; done; exact Logic.I].
    destruct HY as (HY & _ & _ & SY & _). adv ST. destruct b as [n'|size|b|s0| | | | |]; try apply tri_fail; try (done; exact Logic.I).
    rewrite (SY eq_refl) in HY.
    destruct ((0 <=? size)%Z && (size <? 2 ^ 32)%Z) eqn:ES; [|apply tri_fail].
    apply andb_true_iff in ES as [E1 E2]. apply Z.leb_le in E1. apply Z.ltb_lt in E2.
    assert (LIT : forall z, literal_fits (n =? int_) size z = true -> know s2 (fun val _ => literal int_ uint_ z (val t))).
    { intros z LF val F SV X. kn val F SV X. exists n, size. split; [|split; [auto | apply literal_fits_ok; auto]].
      split; auto. split; auto. rewrite HX. cbn. rewrite HY. reflexivity. }
    eapply tri_bind with (Q := fun P' v s' => match v with
       | None => True
       | Some z => forall zz, zz = z -> literal_fits (n =? int_) size z = true -> know s' (fun val _ => holds val (RFits value t)) end).
    { destruct value as [z|v].
      - done. intros zz _ LF. exact (LIT z LF).
      - go resolved_ok. intros P3 w s3 ST HW. destruct w as [b' ps'|]; [|adv ST; done; exact Logic.I].
        destruct HW as (HW & _ & _ & SW & _). 
        assert (LIT' : forall z, literal_fits (n =? int_) size z = true -> know s3 (fun val _ => literal int_ uint_ z (val t))).
        { intros z LF. eapply know_mono; [exact ST | auto]. }
        adv ST. destruct b'; try apply tri_fail. rewrite (SW eq_refl) in HW. done. intros zz _ LF val F SV X.
        specialize (LIT' z LF). kn val F SV X. exists z. auto. }
    intros P3 v s3 ST HV. adv ST. destruct v as [z|]; [|done; exact Logic.I].
    destruct (literal_fits (n =? int_) size z) eqn:LF; [|apply tri_fail]. done. split; [constructor|].
    intros val F SV X _. exact (HV z eq_refl eq_refl val F SV X).
  - cbn [rpub] in RP. go resolved_ok. intros P1 x s1 ST HX. destruct x as [b ps|]; [|adv ST; done; exact Logic.I].
    destruct HX as (HX & FP & _). adv ST. destruct b as [n|z|b|s0| | | | |]; try apply tri_fail.
    destruct (structs n) as [members|] eqn:EM; [|apply tri_fail].
    go of_option_ok. intros P2 spec s2 ST ES. adv ST.
    assert (GL : gl_lt ps s2).
    { unfold gl_lt. eapply Forall_impl; [|exact FP]. intros p X. apply (pub_idok _ _ _ I X). }
    assert (GP : gl_pub ps spec P2).
    { intros k v _ N. rewrite Forall_forall in FP. apply FP. eapply nth_error_In; eauto. }
    go spec_var_ok. intros P3 v s3 ST [Pv KV]. adv ST. done. split; [repeat constructor; auto|].
    intros val F SV X EQ. kn val F SV X. inversion EQ as [|? ? E1 _]; subst. unfold eqn in E1. cbn in E1.
    exists n, (map val ps), members, spec. split; auto. split; auto. split; [apply member_in; auto|]. rewrite E1. auto.
  - fin (compare_ok Z.leb Z.le). { intros x y H. apply Z.leb_le. auto. }
    intros P' res s' ST H. destruct res as [rs|]; [|exact Logic.I]. destruct H as [-> K]. split; [constructor|].
    intros val F SV X _. exact (K val F SV X).
  - fin (compare_ok Z.leb Z.le). { intros x y H. apply Z.leb_le. auto. }
    intros P' res s' ST H. destruct res as [rs|]; [|exact Logic.I]. destruct H as [-> K]. split; [constructor|].
    intros val F SV X _. exact (K val F SV X).
  - go resolved_ok. intros P1 x s1 ST HX. destruct x as [b ps|]; [|adv ST; done; exact Logic.I].
    destruct HX as (HX & _ & _ & SX & _). adv ST. destruct b as [n|z|b|s0| | | | |]; try apply tri_fail.
    rewrite (SX eq_refl) in HX. destruct (z =? 0)%Z eqn:EZ; [apply tri_fail|]. apply Z.eqb_neq in EZ.
    done. split; [constructor|]. intros val F SV X _. exists z. split; auto. apply (HX val F SV X).
  - fin (compare_ok (where_holds k) (relation k)). { intros x y. apply where_holds_ok. }
    intros P' res s' ST H. destruct res as [rs|]; [|exact Logic.I]. destruct H as [-> K]. split; [constructor|].
    intros val F SV X _. exact (K val F SV X).
  - cbn [rpub] in RP. go first_known_ok. intros P1 k s1 ST HK. adv ST. destruct k as [[b ps]|]; [|done; exact Logic.I].
    destruct HK as (NB & CT & SC).
    eapply tri_bind; [apply (collect_ok (fun P _ => Forall P l)
      (fun t p P' s' => fst p = t /\ P' (fst p) /\ P' (snd p) /\ know s' (fun val _ => exists qs, val (snd p) = TK b qs))); auto|].
    + intros Pa sa Pb sb ST H. eapply Forall_impl; [|exact H]. apply (st_P _ _ _ _ ST).
    + intros t p Pa sa Pb sb ST (A & B & D & E). split; auto. split; [apply (st_P _ _ _ _ ST); auto|].
      split; [apply (st_P _ _ _ _ ST); auto | eapply know_mono; eauto].
    + intros Pa sa t IN Ia FPa.
      eapply tri_bind; [apply (collect_ok (fun _ _ => True) (fun _ v P' _ => P' v)); auto|].
      { apply mono_true. } { intros _ v. apply mono_P. }
      { intros Pb sb _ _ Ib _. eapply tri_weak; [apply new_generic_ok; auto|]. cbv beta. tauto. }
      intros Pb qs sb ST F2. adv ST.
      assert (FQ : Forall Pb qs) by (clear - F2; induction F2; constructor; auto).
      pose proof (forall2_len _ _ _ F2) as LQ.
      eapply tri_bind; [apply new_known_ok; auto|].
      { intros S0. rewrite (SC S0) in LQ. destruct qs; [auto | discriminate]. }
      { intros N0. rewrite <- LQ. auto. }
      intros Pc v sc ST [Pv KV]. adv ST. done. cbn. split; auto. split; [rewrite Forall_forall in FPa; auto|].
      split; auto. intros val F SV X. eexists. apply (KV val F SV X).
    + intros P2 rs s2 ST F2. adv ST. done. split.
      * clear - F2. induction F2 as [|? ? ? ? (_ & A & B & _)]; constructor; auto.
      * intros val F SV X EQ. exists b. clear - F2 SV X EQ.
        induction F2 as [|t p l rs (E & _ & _ & K)]; constructor.
        -- inversion EQ as [|? ? E1 E2]; subst. unfold eqn in E1. rewrite E1. apply (K val F SV X).
        -- apply IHF2. inversion EQ; auto.
Qed.

Lemma equals_ok rs P s : Inv P s -> Forall (fun p => P (fst p) /\ P (snd p)) rs ->
  tri P s (each (fun p => equal C fuel (fst p) (snd p)) rs) (fun P' _ s' => know s' (fun val _ => Forall (eqn val) rs)).
Proof.
  intros I FP. eapply tri_weak; [apply (each_ok (fun P _ => Forall (fun p => P (fst p) /\ P (snd p)) rs)
     (fun p _ s' => know s' (fun val _ => eqn val p))); auto|].
  - intros Pa sa Pb sb ST H. eapply Forall_impl; [|exact H]. cbn. intros p [A B]. split; apply (st_P _ _ _ _ ST); auto.
  - intros p. apply mono_know.
  - intros Pa sa p IN Ia FPa. rewrite Forall_forall in FPa. destruct (FPa p IN). apply equal_ok; auto.
  - intros P' u s' ST H val F SV X. eapply Forall_impl; [|exact H]. cbn. intros p K. apply (K val F SV X).
Qed.
Lemma check_or_add_ok r P s : Inv P s -> rpub P r ->
  tri P s (check_or_add C fuel int_ uint_ arity structs r) (fun P' _ s' => know s' (fun val _ => holds val r)).
Proof.
  intros I RP. unfold check_or_add. go check_ok. intros P1 res s1 ST FO.
  apply (rpub_mono _ _ _ (st_P _ _ _ _ ST)) in RP. adv ST.
  destruct res as [rs|]; [|apply add_requirement_ok; auto].
  destruct FO as [A B]. fin equals_ok. intros P2 u s2 ST K. adv ST. intros val F SV X. kn val F SV X. auto.
Qed.

(** *** All requirements at the end *)

(** what only looks at the types does not depend on the requirements *)
Definition blind {A} (m : T A) : Prop := forall st E q a s', m (mkT st E q) = Some (a, s') ->
  exists st', s' = mkT st' E q /\ forall q', m (mkT st E q') = Some (a, mkT st' E q').
Lemma blind_bind {A B} (m : T A) (f : A -> T B) : blind m -> (forall a, blind (f a)) -> blind (tbind m f).
Proof.
  intros M K st E q b s' H. unfold tbind in H. destruct (m (mkT st E q)) as [[a s1]|] eqn:E1; [|discriminate].
  destruct (M _ _ _ _ _ E1) as (st1 & -> & H1). destruct (K _ _ _ _ _ _ H) as (st2 & -> & H2).
  exists st2. split; auto. intros q'. unfold tbind. rewrite H1. auto.
Qed.
Lemma blind_ret {A} (a : A) : blind (tret a).
Proof. intros st E q b s' H. injection H as <- <-. exists st. auto. Qed.
Lemma blind_fail {A} : blind (@tfail A).
Proof. intros st E q b s' H. discriminate. Qed.
Lemma blind_lift {A} (m : M A) : blind (lift m).
Proof.
  intros st E q b s' H. unfold lift in *. cbn in *. destruct (m st); try discriminate. injection H as <- <-. eauto.
Qed.
Lemma blind_option {A} (o : option A) : blind (of_option o).
Proof. intros st E q b s' H. unfold of_option in *. destruct o; [|discriminate]. injection H as <- <-. eauto. Qed.
Lemma blind_resolved v : blind (resolved v).
Proof. intros st E q b s' H. unfold resolved in *. cbn in *. destruct (resolve st v); [|discriminate]. injection H as <- <-. eauto. Qed.
Lemma blind_collect {A B} (f : A -> T B) l : (forall a, In a l -> blind (f a)) -> blind (collect f l).
Proof.
  induction l as [|a l IH]; intros H; [apply blind_ret|].
  change (collect f (a :: l)) with (tbind (f a) (fun b => tbind (collect f l) (fun q => tret (b :: q)))).
  apply blind_bind; [apply H; cbn; auto|]. intros b. apply blind_bind; [apply IH; intros; apply H; cbn; auto|]. intros q. apply blind_ret.
Qed.
Lemma blind_each {A} (f : A -> T unit) l : (forall a, In a l -> blind (f a)) -> blind (each f l).
Proof.
  induction l as [|a l IH]; intros H; [apply blind_ret|].
  change (each f (a :: l)) with (tbind (f a) (fun _ => each f l)).
  apply blind_bind; [apply H; cbn; auto|]. intros b. apply IH; intros; apply H; cbn; auto.
Qed.
Lemma blind_spec gl t : blind (spec_var arity gl t).
Proof.
  induction t as [z|b|x|e|n l IH|k|l IH|a b IHa IHb|a IHa|a IHa|] using tspec_ind'; cbn [spec_var];
    try apply blind_lift; try apply blind_option.
  - apply blind_bind; [apply blind_option|]. intros c. apply blind_bind; [apply blind_lift|]. intros v.
    apply blind_bind; [apply blind_lift|]. intros u. apply blind_ret.
  - apply blind_bind; [apply blind_collect; rewrite Forall_forall in IH; auto|]. intros ps.
    destruct (length l =? arity n); [apply blind_lift | apply blind_fail].
  - apply blind_bind; [apply blind_collect; rewrite Forall_forall in IH; auto|]. intros ps. apply blind_lift.
  - apply blind_bind; auto. intros x. apply blind_bind; auto. intros y. apply blind_lift.
  - apply blind_bind; auto. intros x. apply blind_lift.
  - apply blind_bind; auto. intros x. apply blind_lift.
Qed.
Lemma blind_compare f a b : blind (compare f a b).
Proof.
  unfold compare. apply blind_bind; [apply blind_resolved|]. intros x. apply blind_bind; [apply blind_resolved|]. intros y.
  destruct x as [[]|]; destruct y as [[]|]; try apply blind_fail; try apply blind_ret.
  destruct (f z z0); [apply blind_ret | apply blind_fail].
Qed.
Lemma blind_first l : blind (first_known l).
Proof.
  induction l as [|t l IH]; [apply blind_ret|]. cbn [first_known]. apply blind_bind; [apply blind_resolved|].
  intros [b ps|]; [apply blind_ret | auto].
Qed.
Lemma blind_check r : blind (check int_ uint_ arity structs r).
Proof.
  destruct r as [value t|target f e|a b|a b|size|k a b|l]; cbn [check]; try apply blind_compare.
  - apply blind_bind; [apply blind_resolved|]. intros [[n|z|b|s0| | | | |] ps|]; try apply blind_fail; try apply blind_ret.
    destruct ((n =? int_) || (n =? uint_)); [|apply blind_fail]. destruct ps as [|p [|q ps]]; try apply blind_fail.
    apply blind_bind; [apply blind_resolved|]. intros [[n'|size|b|s0| | | | |] ps|]; try apply blind_fail; try apply blind_ret.
    destruct ((0 <=? size)%Z && (size <? 2 ^ 32)%Z); [|apply blind_fail].
    apply blind_bind.
    + destruct value; [apply blind_ret|]. apply blind_bind; [apply blind_resolved|].
      intros [[]|]; try apply blind_fail; apply blind_ret.
    + intros [z|]; [|apply blind_ret]. destruct (literal_fits (n =? int_) size z); [apply blind_ret | apply blind_fail].
  - apply blind_bind; [apply blind_resolved|]. intros [[n|z|b|s0| | | | |] ps|]; try apply blind_fail; try apply blind_ret.
    destruct (structs n); [|apply blind_fail]. apply blind_bind; [apply blind_option|]. intros spec.
    apply blind_bind; [apply blind_spec|]. intros v. apply blind_ret.
  - apply blind_bind; [apply blind_resolved|]. intros [[n|z|b|s0| | | | |] ps|]; try apply blind_fail; try apply blind_ret.
    destruct (z =? 0)%Z; [apply blind_fail | apply blind_ret].
  - apply blind_bind; [apply blind_first|]. intros [[b ps]|]; [|apply blind_ret].
    apply blind_bind; [|intros rs; apply blind_ret]. apply blind_collect. intros t _.
    apply blind_bind; [apply blind_collect; intros; apply blind_lift|]. intros qs. apply blind_bind; [apply blind_lift|]. intros v. apply blind_ret.
Qed.
Lemma blind_round l : blind (check_round int_ uint_ arity structs l).
Proof.
  induction l as [|r l IH]; [apply blind_ret|]. cbn [check_round]. apply blind_bind; [apply blind_check|]. intros x.
  apply blind_bind; auto. intros [keep rs]. destruct x; apply blind_ret.
Qed.

Lemma check_round_ok : forall l P s, Inv P s -> Forall (rpub P) l ->
  tri P s (check_round int_ uint_ arity structs l) (fun P' r s' => incl (fst r) l /\
    Forall (fun p => P' (fst p) /\ P' (snd p)) (snd r) /\
    know s' (fun val _ => Forall (eqn val) (snd r) -> Forall (holds val) (fst r) -> Forall (holds val) l)).
Proof.
  induction l as [|r l IH]; intros P s I FP; cbn [check_round].
  - done. split; [intros x []|]. split; [constructor|]. intros val F SV X _ _. constructor.
  - inversion FP as [|? ? R0 R1]; subst. go check_ok. intros P1 x s1 ST FO.
    assert (R1' : Forall (rpub P1) l).
    { eapply Forall_impl; [|exact R1]. intros q. apply rpub_mono, (st_P _ _ _ _ ST). }
    adv ST. go IH. intros P2 [keep rs] s2 ST (A & B & K). apply (mono_found r x _ _ _ _ ST) in FO. adv ST. cbn [fst snd] in *.
    destruct x as [qs|]; done; cbn [fst snd].
    + destruct FO as [F1 F2]. split; [intros z Z; right; auto|]. split; [apply Forall_app; auto|].
      intros val F SV X E H. apply Forall_app in E as [E1 E2]. kn val F SV X. constructor; auto.
    + split; [intros z [->|Z]; [left; auto | right; auto]|]. split; auto.
      intros val F SV X E H. kn val F SV X. inversion H; subst. constructor; auto.
Qed.

Lemma sol_drop s q val : Forall (holds val) (reqs s) -> Sol (mkT (inf s) (eqs s) q) val -> Sol s val.
Proof. intros R [A B D]. constructor; auto. Qed.

Lemma check_rounds_ok : forall n P s, Inv P s ->
  tri P s (check_rounds C fuel int_ uint_ arity structs n) (fun P' _ s' => True).
Proof.
  induction n as [|n IH]; intros P [st E l] I u s' H; [discriminate|]. cbn [check_rounds] in H.
  unfold tbind at 1, get_reqs in H. cbn [reqs] in H. unfold tbind at 1 in H.
  destruct (check_round int_ uint_ arity structs l (mkT st E l)) as [[[keep rs] s1]|] eqn:CR; [|discriminate].
  destruct (blind_round _ _ _ _ _ _ CR) as (st1 & -> & CR'). specialize (CR' []).
  assert (I0 : Inv P (mkT st E [])) by (constructor; [apply (i_G _ _ I) | apply (i_eqs _ _ I) | constructor]).
  destruct (check_round_ok l P _ I0 (i_reqs _ _ I) _ _ CR') as (P1 & S1 & A1 & B1 & K1). cbn [fst snd] in *.
  pose proof (st_inv _ _ _ _ S1) as I1.
  assert (B1' : Forall (fun p => P1 (fst p) /\ P1 (snd p)) (map (fun p => (snd p, fst p)) rs)).
  { rewrite Forall_map. eapply Forall_impl; [|exact B1]. cbn. tauto. }
  assert (EQS : each (fun p => equal C fuel (snd p) (fst p)) rs = each (fun p => equal C fuel (fst p) (snd p)) (map (fun p => (snd p, fst p)) rs)).
  { clear. induction rs as [|[x y] rs IHr]; [reflexivity|].
    change (tbind (equal C fuel y x) (fun _ => each (fun p => equal C fuel (snd p) (fst p)) rs) =
            tbind (equal C fuel y x) (fun _ => each (fun p => equal C fuel (fst p) (snd p)) (map (fun p => (snd p, fst p)) rs))).
    rewrite IHr. reflexivity. }
  assert (STEP : forall st2 P2, step P1 (mkT st1 E []) P2 (mkT st2 E []) ->
     know (mkT st2 E []) (fun val _ => Forall (eqn val) rs) -> step P (mkT st E l) P2 (mkT st2 E keep)).
  { intros st2 P2 S2 K2. pose proof (step_trans _ _ _ _ _ _ S1 S2) as S3. constructor.
    - destruct (st_inv _ _ _ _ S3) as [X Y _]. constructor; auto. cbn. apply Forall_forall. intros r R.
      eapply rpub_mono; [apply (st_P _ _ _ _ S3)|]. pose proof (i_reqs _ _ I) as Q. cbn in Q. rewrite Forall_forall in Q. auto.
    - apply (st_P _ _ _ _ S3).
    - apply (st_vars _ _ _ _ S3).
    - apply (st_ext _ _ _ _ S3).
    - intros val [X Y Z]. cbn in *.
      assert (V2 : Sol (mkT st2 E []) val) by (constructor; auto; constructor).
      assert (EE : ext E E) by (intros k v Q; auto).
      pose proof (know_mono _ _ _ _ _ S2 K1 val E V2 EE) as W1. pose proof (K2 val E V2 EE) as W2. cbv beta in *.
      eapply sol_drop; [|apply (st_sol _ _ _ _ S3); exact V2]. cbn. auto. }
  unfold tbind at 1, set_reqs in H. cbn [inf eqs] in H.
  destruct rs as [|r0 rs].
  - injection H as <- <-. exists P1. split; auto. apply STEP; [apply step_refl; auto|]. intros val F SV X. constructor.
  - unfold tbind in H.
    destruct (each (fun p => equal C fuel (snd p) (fst p)) (r0 :: rs) (mkT st1 E keep)) as [[u2 s2]|] eqn:EA; [|discriminate].
    assert (BL : blind (each (fun p : nat * nat => equal C fuel (snd p) (fst p)) (r0 :: rs))) by (apply blind_each; intros; apply blind_lift).
    destruct (BL _ _ _ _ _ EA) as (st2 & -> & EA'). specialize (EA' []). rewrite EQS in EA'.
    destruct (equals_ok _ _ _ I1 B1' _ _ EA') as (P2 & S2 & K2).
    assert (S02 : step P (mkT st E l) P2 (mkT st2 E keep)).
    { apply STEP; auto. intros val F SV X. specialize (K2 val F SV X). cbv beta in K2. rewrite Forall_map in K2.
      eapply Forall_impl; [|exact K2]. unfold eqn. cbn. auto. }
    destruct (IH P2 _ (st_inv _ _ _ _ S02) _ _ H) as (P3 & S3 & _). exists P3. split; auto. eapply step_trans; eauto.
Qed.
Lemma check_requirements_ok P s : Inv P s ->
  tri P s (check_requirements C fuel int_ uint_ arity structs) (fun P' _ s' => True).
Proof. intros I. unfold check_requirements. intros u s' H. unfold tbind, get_reqs in H. eapply check_rounds_ok; eauto. Qed.

(** *** Type parameters *)
Definition raw (s : tst) (v : nat) (m : meta) : Prop :=
  lookup (repl (inf s)) v = None /\ nth_error (vars (inf s)) v = Some (Unknown [] m).
(** new types without parameters, and constraints *)
Record quiet (P : nat -> Prop) (s : tst) (P' : nat -> Prop) (s' : tst) : Prop := {
  q_repl : repl (inf s') = repl (inf s);
  q_vars : exists l, vars (inf s') = vars (inf s) ++ l /\ Forall (fun tv => tparams tv = []) l;
  q_P : forall p, P' p -> P p \/ len (inf s) <= p
}.
Lemma quiet_refl P s : quiet P s P s.
Proof. constructor; auto. exists []. rewrite app_nil_r. auto. Qed.
Lemma quiet_trans P1 s1 P2 s2 P3 s3 : quiet P1 s1 P2 s2 -> quiet P2 s2 P3 s3 -> quiet P1 s1 P3 s3.
Proof.
  intros [A1 (l1 & A2 & A3) A4] [B1 (l2 & B2 & B3) B4]. constructor.
  - congruence.
  - exists (l1 ++ l2). rewrite B2, A2, app_assoc. split; auto. apply Forall_app. auto.
  - intros p H. apply B4 in H as [H|H]; auto. right. unfold len in *. rewrite A2, app_length in H. lia.
Qed.
Lemma raw_quiet P s P' s' v m : quiet P s P' s' -> raw s v m -> raw s' v m.
Proof.
  intros [A (l & B & _) _] [R1 R2]. split; [congruence|]. rewrite B, nth_error_app1; auto. apply nth_error_Some. congruence.
Qed.
Lemma fresh_self st p r : closed st -> len st <= p -> ends (repl st) p r -> r = p.
Proof.
  intros CL L H. inversion H; subst; auto. match goal with K : lookup _ p = Some _ |- _ => apply (cl_keys _ CL) in K end. lia.
Qed.
Lemma lonely_quiet P s P' s' v : Inv P s -> quiet P s P' s' -> v < len (inf s) ->
  lonely P (inf s) v -> lonely P' (inf s') v.
Proof.
  intros I [A (l & B & F) D] L LO o p O E. rewrite A in E. destruct o as [x|].
  - destruct O as (O1 & tv & O2 & O3). rewrite A in O1. rewrite B in O2.
    destruct (Nat.lt_ge_cases x (length (vars (inf s)))) as [X|X].
    + rewrite nth_error_app1 in O2 by auto. apply (LO (Some x) p); [split; eauto | auto].
    + rewrite nth_error_app2 in O2 by auto. apply nth_error_In in O2. rewrite Forall_forall in F. rewrite (F _ O2) in O3. destruct O3.
  - cbn in O. apply D in O as [O|O]; [apply (LO None p); auto|].
    apply fresh_self in E; auto; [lia | apply (g_closed _ _ _ _ _ _ (i_G _ _ I))].
Qed.

Lemma new_list_none prev : forall metas (pub : nat -> bool) P s, Inv P s ->
  tri P s (new_list C fuel arity prev metas None) (fun P' gl s' => quiet P s P' s' /\
    length gl = length metas /\
    (forall v, In v gl -> len (inf s) <= v) /\ NoDup gl /\
    (forall k v m, nth_error gl k = Some v -> nth_error metas k = Some m ->
       raw s' v m /\ idok s' v /\ (pub k = true -> P' v) /\ (pub k = false -> lonely P' (inf s') v)) /\
    know s' (fun val _ => Forall2 has_kind (map val gl) metas)).
Proof.
  induction metas as [|m metas IH]; intros pub P s I; cbn [new_list].
  - done. split; [apply quiet_refl|]. split; auto. split; [intros v []|]. split; [constructor|].
    split; [intros [|k] v m H; discriminate|]. intros val F SV X. constructor.
  - eapply tri_bind; [apply (new_generic_pub (pub 0)); auto|]. cbv beta.
    intros P1 t s1 ST (NP & PT & ID & LE & E1 & E2 & E3 & K1).
    pose proof (st_inv _ _ _ _ ST) as I1.
    assert (Q1 : quiet P s P1 s1).
    { constructor.
      - rewrite E1. reflexivity.
      - exists [Unknown [] m]. rewrite E1. split; [reflexivity | repeat constructor].
      - intros p H. apply NP in H as [H|[_ ->]]; [auto | right; lia]. }
    assert (R1 : raw s1 t m).
    { split; rewrite E1, <- LE; [exact (lookup_fresh (inf s) (g_closed _ _ _ _ _ _ (i_G _ _ I))) | apply nth_with_var_new]. }
    assert (LO : pub 0 = false -> lonely P1 (inf s1) t).
    { intros PF. rewrite E1, <- LE. intros o p O. apply (lonely_fresh num int_ uint_ P (inf s) m (i_G _ _ I) o p).
      destruct o as [x|]; [exact O|]. cbn in *. destruct (NP p O) as [X|[X _]]; [auto | congruence]. }
    assert (L1 : len (inf s1) = S (len (inf s))) by (rewrite E1; apply len_with_var).
    eapply tri_bind; [apply (tri_ret P1 s1 None (fun P' r s' => r = None /\ s' = s1 /\ P' = P1)); auto|]. cbv beta.
    intros P1' rest s1' ST' (-> & -> & ->). clear ST'.
    eapply tri_bind; [apply (IH (fun k => pub (S k))); auto|]. cbv beta.
    intros P2 gl s2 ST2 (Q2 & LG & GE & ND & RW & K2).
    assert (LO2 : pub 0 = false -> lonely P2 (inf s2) t) by (intros PF; apply (lonely_quiet P1 s1); auto; lia).
    assert (PT2 : pub 0 = true -> P2 t) by (intros PF; apply (st_P _ _ _ _ ST2); auto). adv ST2. done.
    split; [eapply quiet_trans; eauto|]. split; [cbn; auto|]. split; [|split; [|split]].
    + intros v [<-|H]; [lia|]. apply GE in H. lia.
    + constructor; auto. intros H. apply GE in H. lia.
    + intros [|k] v m' H1 H2; cbn in H1, H2.
      * apply Some_inj in H1. apply Some_inj in H2. subst v m'.
        split; [eapply raw_quiet; eauto|]. split; auto.
      * apply (RW k v m' H1 H2).
    + intros val F SV X. kn val F SV X. cbn. constructor; auto.
Qed.

(** with types after [::<] *)
Lemma new_list_some prev : forall metas tf P s, Inv P s -> gl_lt prev s -> Forall P prev ->
  tri P s (new_list C fuel arity prev metas tf) (fun P' gl s' => Forall P' gl /\
    know s' (fun val _ => Forall2 has_kind (map val gl) metas) /\
    (forall l, tf = Some l -> know s' (fun val _ => Forall2 (means (map val prev)) l (map val gl)))).
Proof.
  induction metas as [|m metas IH]; intros tf P s I GL FP; cbn [new_list].
  - destruct tf as [[|]|]; try apply tri_fail; done; (split; [constructor|]); (split; [intros val F SV X; constructor|]);
      intros l H; try discriminate. injection H as <-. intros val F SV X. constructor.
  - go new_generic_ok. intros P1 t s1 ST [Pt Kt]. adv ST.
    eapply tri_bind with (Q := fun P' rest s' => gl_lt prev s' /\ Forall P' prev /\ P' t /\ know s' (fun val _ => has_kind (val t) m) /\
      match tf with
      | None => rest = None
      | Some [] => False
      | Some (x :: tl) => rest = Some tl /\ know s' (fun val _ => means (map val prev) x (val t))
      end).
    { destruct tf as [[|x tl]|].
      - apply tri_fail.
      - assert (GP : gl_pub prev x P1).
        { intros k v _ N. rewrite Forall_forall in FP. apply FP. eapply nth_error_In; eauto. }
        go spec_var_ok. intros P2 ty s2 ST [Py Ky]. adv ST.
        go equal_ok. intros P3 u s3 ST KE. adv ST. done.
        split; auto. split; auto. split; auto. split; auto. split; auto.
        intros val F SV X. kn val F SV X. rewrite <- KE. auto.
      - done. repeat split; auto. }
    cbv beta. intros P2 rest s2 ST (GL' & FP' & Pt' & Kt' & H). adv ST.
    go (IH rest). intros P3 gl s3 ST (FG & KG & KT).
    assert (H' : match tf with None => rest = None | Some [] => False
      | Some (x :: tl) => rest = Some tl /\ know s3 (fun val _ => means (map val prev) x (val t)) end).
    { destruct tf as [[|x tl]|]; auto. destruct H as [H1 H2]. split; auto. eapply know_mono; eauto. }
    adv ST. done. split; [constructor; auto|]. split.
    + intros val F SV X. kn val F SV X. cbn. constructor; auto.
    + intros l ->. destruct l as [|x tl]; [contradiction|]. destruct H' as [-> H'].
      specialize (KT tl eq_refl). intros val F SV X. kn val F SV X. cbn. constructor; auto.
Qed.

(** [where] clauses *)
Lemma where_clause_ok gl w P s : Inv P s -> Forall (idok s) gl ->
  tri P s (where_clause gl w) (fun P' _ s' => quiet P s P' s' /\ know s' (fun val _ => clause (map val gl) w)).
Proof.
  intros I GL. destruct w as [[k kind] e]. cbn [where_clause].
  intros u s' H. unfold tbind at 1, of_option in H. destruct (nth_error gl k) as [v|] eqn:EV; [|discriminate].
  unfold tbind at 1 in H. destruct (const_generic gl e) as [c|] eqn:EC; [|discriminate].
  assert (IDV : idok s v) by (rewrite Forall_forall in GL; apply GL; eapply nth_error_In; eauto).
  assert (CV : forall s', len (inf s) <= len (inf s') -> Forall (fun x => x < len (inf s')) (cvars c)).
  { intros s1 L. apply Forall_forall. intros w W. eapply const_generic_vars in W; eauto.
    rewrite Forall_forall in GL. apply GL in W. destruct W. lia. }
  destruct (match kind with WEq => true | _ => false end) eqn:KQ.
  - destruct kind; try discriminate.
    pose proof (constrain_ok P s v c I IDV (CV s (Nat.le_refl _)) u s') as X.
    pose proof H as H0. unfold constrain, lift, add_constraint in H0. injection H0 as <- <-.
    destruct (X H) as (P' & ST & K). exists P.
    assert (ST0 : step P s P (mkT (set_cons (inf s) (cons (inf s) ++ [(v, c)])) (eqs s) (reqs s))).
    { destruct ST as [A B D E F]. constructor; auto.
      eapply inv_inf; eauto. apply G_constrain; try apply IDV; [apply (i_G _ _ I) | apply (CV s); lia]. }
    split; auto. split; [constructor; auto; exists []; rewrite app_nil_r; auto|].
    intros val F SV Y. destruct (K val F SV Y) as (b & V1 & V2). exists b. split.
    + rewrite nth_error_map, EV. cbn. congruence.
    + eapply const_generic_value; eauto.
  - assert (H' : (do r <- new_generic MInt; run constrain r c; add_requirement (RWhere kind v r)) s = Some (u, s')).
    { destruct kind; try discriminate; exact H. }
    clear H. revert u s' H'.
    change (tri P s (do r <- new_generic MInt; run constrain r c; add_requirement (RWhere kind v r))
      (fun P' _ s' => quiet P s P' s' /\ know s' (fun val _ => clause (map val gl) (k, kind, e)))).
    eapply tri_bind; [apply (new_generic_pub false); auto|]. cbv beta.
    intros P1 r s1 ST (NP & _ & ID & LE & E1 & E2 & E3 & K1).
    assert (Q1 : quiet P s P1 s1).
    { constructor.
      - rewrite E1. reflexivity.
      - exists [Unknown [] MInt]. rewrite E1. split; [reflexivity | repeat constructor].
      - intros p H. apply NP in H as [H|[H _]]; [auto | discriminate]. }
    pose proof (len_mono _ _ _ _ ST) as LM. adv ST.
    assert (TC : tri P1 s1 (constrain r c) (fun P' _ s' => P' = P1 /\ quiet P1 s1 P1 s' /\
       know s' (fun val _ => exists k, Value val c k /\ val r = TK k []))).
    { intros u s' H. pose proof (constrain_ok P1 s1 r c I0 ID (CV s1 LM) u s' H) as (P' & ST & K).
      pose proof H as H0. unfold constrain, lift, add_constraint in H0. injection H0 as <- <-.
      exists P1. split; [|split; [auto|split; [constructor; auto; exists []; rewrite app_nil_r; auto | auto]]].
      destruct ST as [A B D E F]. constructor; auto.
      eapply inv_inf; eauto. apply G_constrain; try apply ID; [apply (i_G _ _ I0) | apply (CV s1); lia]. }
    eapply tri_bind; [exact TC|]. cbv beta. intros P2 u s2 ST (-> & Q2 & KC). 
    assert (Q3 : quiet P s P1 s2) by (eapply quiet_trans; eauto).
    adv ST. intros u' s3 H.
    pose proof (add_requirement_ok P1 s2 (RWhere kind v r) I Logic.I u' s3 H) as (P3 & ST3 & K3).
    pose proof H as H0. unfold add_requirement in H0. injection H0 as <- <-.
    exists P1. split; [|split].
    + destruct ST3 as [A B D E F]. constructor; auto. constructor; cbn; [apply (i_G _ _ I) | apply (i_eqs _ _ I)|].
      apply Forall_app. split; [apply (i_reqs _ _ I) | repeat constructor].
    + destruct Q3 as [A B D]. constructor; auto.
    + apply (know_mono _ _ _ _ _ ST3) in KC. apply (know_mono _ _ _ _ _ ST3) in K1.
      intros val F SV X. kn val F SV X. destruct KC as (b & V1 & V2).
      destruct K3 as (x & y & X1 & X2 & X3). rewrite V2 in X2. injection X2 as ->.
      unfold clause. apply (const_generic_value _ _ _ _ _ EC) in V1.
      assert (N : nth_error (map val gl) k = Some (tvalue x)) by (rewrite nth_error_map, EV; cbn; congruence).
      destruct kind; try discriminate; exists x, y; auto.
Qed.
Lemma where_clauses_ok gl : forall wh P s, Inv P s -> Forall (idok s) gl ->
  tri P s (each (where_clause gl) wh) (fun P' _ s' => quiet P s P' s' /\ know s' (fun val _ => Forall (clause (map val gl)) wh)).
Proof.
  induction wh as [|w wh IH]; intros P s I GL.
  - apply tri_ret; auto. split; [apply quiet_refl|]. intros val F SV X. constructor.
  - change (each (where_clause gl) (w :: wh)) with (tbind (where_clause gl w) (fun _ => each (where_clause gl) wh)).
    eapply tri_bind; [apply where_clause_ok; auto|]. cbv beta. intros P1 u s1 ST [Q1 K1].
    assert (GL1 : Forall (idok s1) gl).
    { eapply Forall_impl; [|exact GL]. intros v. apply (idok_mono _ _ _ _ _ ST). }
    adv ST. eapply tri_weak; [apply IH; auto|]. cbv beta. intros P2 u2 s2 ST [Q2 K2]. adv ST.
    split; [eapply quiet_trans; eauto|]. intros val F SV X. kn val F SV X. constructor; auto.
Qed.

(** bounds of type parameters *)
Lemma nth_update {A} (l : list A) k a j : nth_error (update l k a) j =
  if j =? k then match nth_error l j with Some _ => Some a | None => None end else nth_error l j.
Proof. revert k j. induction l as [|x l IH]; intros [|k] [|j]; cbn; auto; try (destruct j; reflexivity). destruct (j =? k); auto. Qed.
Lemma update_len {A} (l : list A) k a : length (update l k a) = length l.
Proof. revert k. induction l as [|x l IH]; intros [|k]; cbn; auto. Qed.

Record ready (metas : list meta) (bs : list (nat * nat)) (gl : glist) (P : nat -> Prop) (s : tst) : Prop := {
  rd_len : length gl = length metas;
  rd_ok : forall k v, nth_error gl k = Some v -> idok s v;
  rd_inj : forall i j v, nth_error gl i = Some v -> nth_error gl j = Some v -> i = j;
  rd_T : forall T N v, In (T, N) bs -> nth_error gl T = Some v -> raw s v MType /\ P v;
  rd_N : forall T N v, In (T, N) bs -> nth_error gl N = Some v -> raw s v MUint /\ lonely P (inf s) v
}.
Definition carried (gl : glist) (P : nat -> Prop) (gl' : glist) (P' : nat -> Prop) : Prop :=
  forall k v v', nth_error gl k = Some v -> nth_error gl' k = Some v' -> P v -> P' v'.

Lemma trait_bound_ok metas T N bs gl P s : Inv P s -> ready metas ((T, N) :: bs) gl P s ->
  nth_error metas T = Some MType -> nth_error metas N = Some MUint ->
  ~ In T (map fst bs) -> ~ In N (map snd bs) ->
  (forall T' N', In (T', N') bs -> nth_error metas T' = Some MType /\ nth_error metas N' = Some MUint) ->
  tri P s (trait_bound num metas gl (T, N)) (fun P' gl' s' => ready metas bs gl' P' s' /\ carried gl P gl' P' /\
    know s' (fun val _ => map val gl' = map val gl /\ bound_holds int_ uint_ (map val gl) (T, N))).
Proof.
  intros I [RL RO RI RT RN] MT MN NT NN MM gl' s' H.
  assert (MLT : forall k m, nth_error metas k = Some m -> exists v, nth_error gl k = Some v).
  { intros k m X. destruct (nth_error gl k) as [v|] eqn:E; eauto. apply nth_error_None in E.
    assert (k < length metas) by (apply nth_error_Some; congruence). lia. }
  destruct (MLT _ _ MT) as (old & EO). destruct (MLT _ _ MN) as (size & ES).
  destruct (RT T N old (or_introl eq_refl) EO) as ([O1 O2] & PO).
  destruct (RN T N size (or_introl eq_refl) ES) as ([Z1 Z2] & LO).
  unfold trait_bound in H. cbn [fst snd] in H. rewrite MT, EO, ES in H.
  unfold of_option, tbind, tret in H. cbv beta iota in H. unfold resolved in H.
  rewrite (resolve_spec (inf s) old old (ends_root _ _ O1)), O2 in H. cbv beta iota in H.
  unfold new_var, lift, add_type_var, insert_replacement in H. cbn [app] in H. injection H as <- <-.
  set (st1 := with_var (inf s) (Unknown [(num, [size])] MType)).
  set (new := len (inf s)).
  set (P1 := fun p => P p \/ p = len (inf s)).
  pose proof (i_G _ _ I) as G0. pose proof (g_closed _ _ _ _ _ _ G0) as CL. pose proof (g_chains _ _ _ _ _ _ G0) as CH.
  pose proof (cl_repl _ CL) as RNE.
  pose proof (RO _ _ EO) as [LOLD _]. pose proof (RO _ _ ES) as [LSIZE _].
  assert (G1 : G P1 E0 st1) by (apply G_new_number; auto).
  assert (ST1 : step P s P1 (mkT st1 (eqs s) (reqs s))) by (apply step_var; auto; intros; left; auto).
  assert (A1 : nth_error (vars st1) old = Some (Unknown [] MType)).
  { unfold st1. cbn. rewrite nth_error_app1; auto. }
  assert (A2 : nth_error (vars st1) new = Some (Unknown [(num, [size])] MType)) by apply nth_with_var_new.
  assert (A3 : lookup (repl st1) new = None) by exact (lookup_fresh (inf s) CL).
  assert (A4 : lookup (repl st1) old = None) by exact O1.
  assert (G2 : G P1 E0 (with_repl st1 old new)) by (eapply G_link; eauto).
  assert (ON : old <> new) by (unfold new; lia).
  assert (LKR : forall k, k <> old -> lookup (repl (with_repl st1 old new)) k = lookup (repl (inf s)) k).
  { intros k X. unfold with_repl. cbn. rewrite lookup_insert by auto. replace (old =? k) with false; auto.
    symmetry. apply Nat.eqb_neq. auto. }
  change (length (vars (inf s))) with new.
  change (set_repl (set_vars (inf s) (vars (inf s) ++ [Unknown [(num, [size])] MType])) (insert (repl (inf s)) old new)) with (with_repl st1 old new).
  assert (ST2 : step P1 (mkT st1 (eqs s) (reqs s)) P1 (mkT (with_repl st1 old new) (eqs s) (reqs s))).
  { constructor; auto.
    - apply (inv_inf P1 P1 (mkT st1 (eqs s) (reqs s))); auto. apply (st_inv _ _ _ _ ST1).
    - exists []. rewrite app_nil_r. reflexivity.
    - intros k v X. exact X.
    - intros val [X Y Z]. constructor; auto. eapply csol_link in X; [apply X | | | | | | ]; eauto. }
  exists P1. split; [eapply step_trans; eauto|].
  assert (RAW : forall v m, v <> old -> raw s v m -> raw (mkT (with_repl st1 old new) (eqs s) (reqs s)) v m).
  { intros v m X [R1 R2]. split; cbn [inf].
    - rewrite LKR; auto.
    - change (nth_error (vars (inf s) ++ [Unknown [(num, [size])] MType]) v = Some (Unknown [] m)).
      rewrite nth_error_app1; auto. apply nth_error_Some. congruence. }
  split; [|split].
  - constructor.
    + rewrite update_len. auto.
    + intros k v X. rewrite nth_update in X. destruct (k =? T).
      * destruct (nth_error gl k); [|discriminate]. apply Some_inj in X. subst v.
        eapply pub_idok; [eapply st_inv; exact ST2 | right; reflexivity].
      * apply (idok_mono _ _ _ _ _ ST2), (idok_mono _ _ _ _ _ ST1). eauto.
    + intros i j v X Y. rewrite nth_update in X, Y. destruct (i =? T) eqn:EI, (j =? T) eqn:EJ; rewrite ?Nat.eqb_eq in *.
      * congruence.
      * destruct (nth_error gl i); [|discriminate]. apply Some_inj in X. subst v. apply RO in Y. destruct Y. unfold new in *; lia.
      * destruct (nth_error gl j); [|discriminate]. apply Some_inj in Y. subst v. apply RO in X. destruct X. unfold new in *; lia.
      * eauto.
    + intros T' N' v X Y. rewrite nth_update in Y.
      assert (TT : T' <> T) by (intros ->; apply NT; apply (in_map fst) in X; exact X).
      apply Nat.eqb_neq in TT. rewrite TT in Y. apply Nat.eqb_neq in TT.
      destruct (RT T' N' v (or_intror X) Y) as [R1 R2]. split; [|left; auto]. apply RAW; auto.
      intros ->. apply TT. eapply RI; eauto.
    + intros T' N' v X Y. rewrite nth_update in Y.
      assert (NT' : N' <> T) by (intros ->; destruct (MM _ _ X); congruence).
      apply Nat.eqb_neq in NT'. rewrite NT' in Y. apply Nat.eqb_neq in NT'.
      assert (NN' : N' <> N) by (intros ->; apply NN; apply (in_map snd) in X; exact X).
      destruct (RN T' N' v (or_intror X) Y) as [R1 R2].
      assert (VO : v <> old) by (intros ->; apply NT'; eapply RI; eauto).
      split; [apply RAW; auto|]. pose proof (RO _ _ Y) as [LV _].
      assert (EI : forall p r, ends (repl (with_repl st1 old new)) p r -> exists r0, ends (repl (inf s)) p r0 /\ r = if r0 =? old then new else r0).
      { intros p r K. unfold with_repl in K. cbn in K. eapply ends_insert_inv; eauto. }
      intros o p O E. cbn [inf] in E. apply EI in E as (r0 & E & V).
      destruct (r0 =? old) eqn:Q; [unfold new in V; lia|]. subst r0.
      destruct o as [x|].
      * destruct O as (B1 & tv & B2 & B3). cbn [inf] in B1, B2.
        assert (XO : x <> old).
        { intros ->. unfold with_repl in B1. cbn in B1. rewrite lookup_insert, Nat.eqb_refl in B1 by auto. discriminate. }
        rewrite LKR in B1 by auto.
        change (nth_error (vars (inf s) ++ [Unknown [(num, [size])] MType]) x = Some tv) in B2.
        destruct (Nat.lt_ge_cases x (length (vars (inf s)))) as [L|L].
        -- rewrite nth_error_app1 in B2 by auto. apply (R2 (Some x) p); auto. split; eauto.
        -- rewrite nth_error_app2 in B2 by auto. apply nth_error_In in B2 as [<-|[]]. cbn in B3. destruct B3 as [<-|[]].
           pose proof (ends_det _ _ _ E _ (ends_root _ _ Z1)) as D. subst v. apply NN'. eapply RI; eauto.
      * cbn in O. destruct O as [O| ->]; [apply (R2 None p); auto|].
        apply (fresh_self (inf s)) in E; auto. lia.
  - intros k v v' X Y PV. rewrite nth_update in Y. destruct (k =? T).
    + destruct (nth_error gl k); [|discriminate]. apply Some_inj in Y. subst v'. right. reflexivity.
    + rewrite X in Y. apply Some_inj in Y. subst v'. left. auto.
  - intros val F SV X.
    pose proof (csol_link num int_ uint_ st1 old new size val RNE (g_chains _ _ _ _ _ _ G1) A4 A3 A1 A2 (s_sol _ _ SV)) as [CS VE].
    assert (SV1 : Sol (mkT st1 (eqs s) (reqs s)) val) by (constructor; [exact CS | apply (s_ground _ _ SV) | apply (s_reqs _ _ SV)]).
    pose proof (sol_var P s _ val I SV1) as [_ B]. specialize (B size eq_refl). fold new in B.
    split.
    + clear - EO VE. revert T EO. induction gl as [|x gl IH]; intros [|k] EO; cbn in *; try discriminate.
      * apply Some_inj in EO. subst x. rewrite VE. reflexivity.
      * f_equal. auto.
    + exists (val old), (val size). cbn [fst snd]. rewrite !nth_error_map, EO, ES. cbn. split; auto. split; auto.
      rewrite VE. exact B.
Qed.
Definition bounds_ok (metas : list meta) (bs : list (nat * nat)) : Prop :=
  (forall T N, In (T, N) bs -> nth_error metas T = Some MType /\ nth_error metas N = Some MUint) /\
  NoDup (map fst bs) /\ NoDup (map snd bs).

Lemma trait_bounds_ok metas : forall bs gl P s, Inv P s -> ready metas bs gl P s -> bounds_ok metas bs ->
  tri P s (trait_bounds num metas gl bs) (fun P' gl' s' => length gl' = length metas /\ Forall (idok s') gl' /\ carried gl P gl' P' /\
    know s' (fun val _ => map val gl' = map val gl /\ Forall (bound_holds int_ uint_ (map val gl)) bs)).
Proof.
  induction bs as [|[T N] bs IH]; intros gl P s I RD (B1 & B2 & B3); cbn [trait_bounds].
  - done. destruct RD as [RL RO RI RT RN]. split; auto. split; [|split].
    + apply Forall_forall. intros v X. apply In_nth_error in X as (k & X). eauto.
    + intros k v v' X Y. congruence.
    + intros val F SV X. split; auto.
  - inversion B2; subst. inversion B3; subst. cbn [fst snd] in *.
    destruct (B1 T N (or_introl eq_refl)) as [MT MN].
    eapply tri_bind; [apply (trait_bound_ok metas T N bs); auto; intros; apply B1; right; auto|]. cbv beta.
    intros P1 gl1 s1 ST (RD1 & CA & K). adv ST.
    eapply tri_weak; [apply IH; auto; split; [intros; apply B1; right; auto | auto]|]. cbv beta.
    intros P2 gl2 s2 ST (L2 & ID & CA2 & K2). adv ST. split; auto. split; auto. split.
    + intros k v v' X Y PV. destruct (nth_error gl1 k) as [w|] eqn:E.
      * eapply CA2; eauto.
      * apply nth_error_None in E. assert (k < length gl2) by (apply nth_error_Some; congruence).
        rewrite (rd_len _ _ _ _ _ RD1) in E. lia.
    + intros val F SV X. kn val F SV X. destruct K as [K3 K4], K2 as [K5 K6]. rewrite K3 in *. split; auto.
Qed.

Lemma generic_list_ok prev tf metas wh bs P s : Inv P s -> gl_lt prev s -> Forall P prev -> bounds_ok metas bs ->
  (tf = None \/ bs = []) ->
  tri P s (generic_list C fuel num arity prev tf metas wh bs) (fun P' gl s' => gl_lt gl s' /\ 
    (forall k v, nth_error gl k = Some v -> (forall T, ~ In (T, k) bs) -> P' v) /\
    know s' (fun val _ => instance metas wh (map val gl) /\ Forall (bound_holds int_ uint_ (map val gl)) bs /\
      forall l, tf = Some l -> Forall2 (means (map val prev)) l (map val gl))).
Proof.
  intros I GP FP BO CASE.
  set (pub := fun k => negb (existsb (fun b => snd b =? k) bs)).
  assert (PUB : forall k, (forall T, ~ In (T, k) bs) -> pub k = true).
  { intros k X. unfold pub. destruct (existsb _ bs) eqn:E; auto. apply existsb_exists in E as ([T N] & E1 & E2).
    apply Nat.eqb_eq in E2. cbn in E2. subst. exfalso. eapply X; eauto. }
  assert (MAIN : tri P s (do gl <- new_list C fuel arity prev metas tf; run each (where_clause gl) wh; trait_bounds num metas gl bs)
    (fun P' gl s' => gl_lt gl s' /\ 
    (forall k v, nth_error gl k = Some v -> (forall T, ~ In (T, k) bs) -> P' v) /\
    know s' (fun val _ => instance metas wh (map val gl) /\ Forall (bound_holds int_ uint_ (map val gl)) bs /\
      forall l, tf = Some l -> Forall2 (means (map val prev)) l (map val gl)))).
  { destruct (match tf with None => true | _ => false end) eqn:ET.
    - destruct tf; [discriminate|].
      eapply tri_bind; [apply (new_list_none prev metas pub); auto|]. cbv beta.
      intros P1 gl s1 ST (Q1 & LG & GE & ND & RW & K1).
      assert (ALL : forall k v, nth_error gl k = Some v -> exists m, nth_error metas k = Some m).
      { intros k v X. destruct (nth_error metas k) eqn:E; eauto. apply nth_error_None in E.
        assert (k < length gl) by (apply nth_error_Some; congruence). lia. }
      assert (ID : Forall (idok s1) gl).
      { apply Forall_forall. intros v X. apply In_nth_error in X as (k & X). destruct (ALL _ _ X) as (m & M). eapply RW; eauto. }
      clear Q1. adv ST.
      eapply tri_bind; [apply where_clauses_ok; auto|]. cbv beta. intros P2 u s2 ST (Q2 & K2).
      assert (ID2 : Forall (idok s2) gl).
      { eapply Forall_impl; [|exact ID]. intros v. apply (idok_mono _ _ _ _ _ ST). }
      assert (RD : ready metas bs gl P2 s2).
      { constructor; auto.
        - intros k v X. rewrite Forall_forall in ID2. apply ID2. eapply nth_error_In; eauto.
        - intros i j v X Y. apply NoDup_nth_error with (l := gl); auto; [apply nth_error_Some; congruence | congruence].
        - intros T N v X Y. destruct (proj1 BO _ _ X) as [M1 M2]. destruct (RW _ _ _ Y M1) as (R1 & R2 & R3 & R4).
          split; [eapply raw_quiet; eauto|]. apply (st_P _ _ _ _ ST), R3, PUB. intros T' Z. destruct (proj1 BO _ _ Z). congruence.
        - intros T N v X Y. destruct (proj1 BO _ _ X) as [M1 M2]. destruct (RW _ _ _ Y M2) as (R1 & R2 & R3 & R4).
          split; [eapply raw_quiet; eauto|]. eapply (lonely_quiet P1 s1); eauto; [apply R2|]. apply R4. unfold pub.
          rewrite negb_false_iff. apply existsb_exists. exists (T, N). split; auto. apply Nat.eqb_refl. }
      assert (PB : forall k v, nth_error gl k = Some v -> (forall T, ~ In (T, k) bs) -> P2 v).
      { intros k v X Y. destruct (ALL _ _ X) as (m & M). apply (st_P _ _ _ _ ST). apply (RW _ _ _ X M). auto. }
      adv ST. eapply tri_weak; [apply trait_bounds_ok; auto|]. cbv beta. intros P3 gl' s3 ST (L3 & I3 & CA & K3). adv ST.
      split; [|split].
      + eapply Forall_impl; [|exact I3]. intros v X. apply X.
      + intros k v X Y. destruct (nth_error gl k) as [w|] eqn:E.
        * eapply CA; eauto.
        * apply nth_error_None in E. assert (k < length gl') by (apply nth_error_Some; congruence). lia.
      + intros val F SV X. kn val F SV X. destruct K3 as [E K3]. rewrite E. split; [split; auto|]. split; auto. discriminate.
    - destruct CASE as [->| ->]; [discriminate|].
      eapply tri_bind; [apply (new_list_some prev metas tf); auto|]. cbv beta. intros P1 gl s1 ST (FG & K1 & KT).
      assert (ID : Forall (idok s1) gl).
      { pose proof (st_inv _ _ _ _ ST). eapply Forall_impl; [|exact FG]. intros v X. eapply pub_idok; eauto. }
      destruct tf as [l|]; [|discriminate]. specialize (KT l eq_refl). adv ST.
      eapply tri_bind; [apply where_clauses_ok; auto|]. cbv beta. intros P2 u s2 ST (Q2 & K2).
      assert (ID2 : Forall (idok s2) gl).
      { eapply Forall_impl; [|exact ID]. intros v. apply (idok_mono _ _ _ _ _ ST). }
      adv ST. cbn [trait_bounds]. done. split; [|split].
      + eapply Forall_impl; [|exact ID2]. intros v X. apply X.
      + intros k v X _. rewrite Forall_forall in FG. apply FG. eapply nth_error_In; eauto.
      + intros val F SV X. kn val F SV X. split; [split; auto|]. split; auto. intros l' E. injection E as <-. auto. }
  unfold generic_list. destruct tf; [destruct metas; [apply tri_fail|]|]; exact MAIN.
Qed.

(** *** Operators *)
Lemma value_var val v z x : val v = tvalue z -> Value val (CVar v) (BInt x) -> x = z.
Proof. intros E H. inversion H; subst. rewrite E in *. match goal with K : tvalue _ = TK _ _ |- _ => injection K end. congruence. Qed.
Lemma value_sum val a b k : Value val (CSum a b) k -> exists x y, Value val a (BInt x) /\ Value val b (BInt y) /\ k = BInt (x + y).
Proof. intros H. inversion H; subst. eauto 6. Qed.
Lemma sum_vars val r l m x y z : val r = tvalue z -> val l = tvalue x -> val m = tvalue y ->
  (exists k, Value val (CSum (CVar l) (CVar m)) k /\ val r = TK k []) -> z = (x + y)%Z.
Proof.
  intros R L M (k & H & E). apply value_sum in H as (u & v & A & B & ->).
  apply (value_var _ _ _ _ L) in A. apply (value_var _ _ _ _ M) in B. subst. rewrite R in E. injection E. auto.
Qed.
Lemma sum_one val r l x z : val r = tvalue z -> val l = tvalue x ->
  (exists k, Value val (CSum (CVar l) (CInt 1)) k /\ val r = TK k []) -> z = (x + 1)%Z.
Proof.
  intros R L (k & H & E). apply value_sum in H as (u & v & A & B & ->).
  apply (value_var _ _ _ _ L) in A. inversion B; subst. rewrite R in E. injection E. auto.
Qed.
Lemma number_same t b n c ps : is_number t b n -> t = TK c ps -> c = BNamed b.
Proof. intros (_ & _ & E) F. rewrite E in F. injection F. auto. Qed.
Lemma number_base_same t u b c m n k : is_number t b m -> is_number u c n ->
  (exists ps, t = TK k ps) -> (exists ps, u = TK k ps) -> b = c.
Proof.
  intros A B (p & E) (q & F). apply (number_same _ _ _ _ _ A) in E. apply (number_same _ _ _ _ _ B) in F. congruence.
Qed.
Lemma t_bool_ok P s : Inv P s -> tri P s (t_bool bool_) (fun P' v s' => P' v /\ know s' (fun val _ => val v = named bool_)).
Proof.
  intros I. unfold t_bool. fin new_known_ok; [|intros P1 v s1 ST X; exact X].
  destruct not_numbers as (A & B & _). intros [X|X]; injection X as X; congruence.
Qed.
Lemma t_clock_ok P s : Inv P s -> tri P s (t_clock clock_) (fun P' v s' => P' v /\ know s' (fun val _ => val v = named clock_)).
Proof.
  intros I. unfold t_clock. fin new_known_ok; [|intros P1 v s1 ST X; exact X].
  destruct not_numbers as (_ & _ & A & B). intros [X|X]; injection X as X; congruence.
Qed.
Lemma new_int_ok P s z : Inv P s -> tri P s (new_int z) (fun P' v s' => P' v /\ know s' (fun val _ => val v = tvalue z)).
Proof. intros I. unfold new_int. fin new_known_ok. intros P1 v s1 ST X. exact X. Qed.
Lemma new_unit_ok P s : Inv P s -> tri P s (new_var (Known BTuple [])) (fun P' v s' => P' v /\ know s' (fun val _ => val v = TK BTuple [])).
Proof. intros I. fin new_known_ok. intros P1 v s1 ST X. exact X. Qed.
Lemma new_sized_ok P s b m : Inv P s -> b = int_ \/ b = uint_ -> m = MInt \/ m = MUint ->
  tri P s (new_sized b m) (fun P' r s' => P' (fst r) /\ P' (snd r) /\
    know s' (fun val _ => exists n, val (snd r) = tvalue n /\ (m = MUint -> (0 <= n)%Z) /\ val (fst r) = sized b n)).
Proof.
  intros I B M. unfold new_sized. go new_generic_ok. intros P1 size s1 ST [Ps Ks]. adv ST.
  go new_known_ok. intros P2 t s2 ST [Pt Kt]. adv ST. done. cbn [fst snd]. split; auto. split; auto.
  intros val F SV X. kn val F SV X. destruct M as [-> | ->].
  - destruct (ground_int _ (s_ground _ _ SV size) Ks) as (z & Z). exists z. rewrite Kt. cbn. rewrite Z.
    split; auto. split; [discriminate | reflexivity].
  - destruct (ground_uint _ (s_ground _ _ SV size) Ks) as (z & Z & W). exists z. rewrite Kt. cbn. rewrite Z. auto.
Qed.

Definition bin_rule (op : ExprModel.binop) (t a b : ty) : Prop :=
  match op with
  | ExprModel.BAdd | ExprModel.BSub => exists base n, a = sized base n /\ b = sized base n /\ is_number t base (n + 1) /\ (0 <= n)%Z
  | ExprModel.BMul => exists base m n, a = sized base m /\ b = sized base n /\ is_number t base (m + n) /\ (0 <= m)%Z /\ (0 <= n)%Z
  | _ => exists base n, a = t /\ b = t /\ is_number t base n
  end.
Ltac lens := repeat constructor; match goal with H : idok _ ?x |- ?x < _ => apply H end.
Lemma binary_ok op self a b P s : Inv P s -> P self -> P a -> P b ->
  tri P s (binary C fuel num int_ uint_ arity structs op self a b) (fun P' _ s' =>
    know s' (fun val _ => bin_rule op (val self) (val a) (val b))).
Proof.
  intros I Ps Pa Pb.
  assert (AS : tri P s (do (in_t, lhs) <- new_number num; do (res_t, res) <- new_number num;
      run constrain res (CSum (CVar lhs) (CInt 1)); run constrain lhs (CSum (CVar res) (CSub (CInt 1)));
      run equal C fuel a in_t; run equal C fuel a b; run equal C fuel self res_t;
      check_or_add C fuel int_ uint_ arity structs (RShared [in_t; res_t]))
    (fun P' _ s' => know s' (fun val _ => exists base n, val a = sized base n /\ val b = sized base n /\ is_number (val self) base (n + 1) /\ (0 <= n)%Z))).
  { go new_number_ok. intros P1 [it lhs] s1 ST (A1 & A2 & K1). cbn [fst snd] in *. adv ST.
    go new_number_ok. intros P2 [rt res] s2 ST (B1 & B2 & K2). cbn [fst snd] in *. adv ST.
    go constrain_ok; [lens|]. intros P3 u3 s3 ST K3. adv ST.
    go constrain_ok; [lens|]. intros P4 u4 s4 ST K4. adv ST. clear K4.
    go equal_ok. intros P5 u5 s5 ST K5. adv ST. go equal_ok. intros P6 u6 s6 ST K6. adv ST. go equal_ok. intros P7 u7 s7 ST K7. adv ST.
    fin check_or_add_ok; [repeat constructor; auto|]. intros P8 u8 s8 ST K8. adv ST. intros val F SV X. kn val F SV X.
    destruct K1 as (b1 & n1 & N1 & V1), K2 as (b2 & n2 & N2 & V2), K8 as (bb & FA).
    inversion FA as [|? ? S1 FA1]; subst. inversion FA1 as [|? ? S2 FA2]; subst.
    pose proof (number_base_same _ _ _ _ _ _ _ N1 N2 S1 S2) as <-.
    pose proof (sum_one _ _ _ _ _ V2 V1 K3) as ->. exists b1, n1. rewrite <- K6, K5, K7. destruct N1 as (Y1 & Y2 & Y3). repeat split; auto; apply N2. }
  assert (EQ : tri P s (do (t, _) <- new_number num; run equal C fuel a t; run equal C fuel a b; equal C fuel self b)
     (fun P' _ s' => know s' (fun val _ => exists base n, val a = val self /\ val b = val self /\ is_number (val self) base n))).
  { go new_number_ok. intros P1 [t n] s1 ST (A1 & A2 & K1). cbn [fst snd] in *. adv ST.
    go equal_ok. intros P2 u2 s2 ST K2. adv ST. go equal_ok. intros P3 u3 s3 ST K3. adv ST. fin equal_ok. intros P4 u4 s4 ST K4. adv ST.
    intros val F SV X. kn val F SV X. destruct K1 as (b1 & n1 & N1 & V1). exists b1, n1.
    split; [congruence|]. split; [congruence|]. rewrite K4, <- K3, K2. exact N1. }
  destruct op; cbn [binary bin_rule]; try exact AS; try exact EQ.
  go new_number_ok. intros P1 [lt lhs] s1 ST (A1 & A2 & K1). cbn [fst snd] in *. adv ST.
  go new_number_ok. intros P2 [rt rhs] s2 ST (B1 & B2 & K2). cbn [fst snd] in *. adv ST.
  go new_number_ok. intros P3 [et res] s3 ST (D1 & D2 & K3). cbn [fst snd] in *. adv ST.
  go constrain_ok; [lens|]. intros P4 u4 s4 ST K4. adv ST.
  go constrain_ok; [lens|]. intros P5 u5 s5 ST K5. adv ST. clear K5.
  go constrain_ok; [lens|]. intros P6 u6 s6 ST K6. adv ST. clear K6.
  go equal_ok. intros P7 u7 s7 ST K7. adv ST. go equal_ok. intros P8 u8 s8 ST K8. adv ST. go equal_ok. intros P9 u9 s9 ST K9. adv ST.
  fin check_or_add_ok; [repeat constructor; auto|]. intros P10 u10 s10 ST K10. adv ST. intros val F SV X. kn val F SV X.
  destruct K1 as (b1 & n1 & N1 & V1), K2 as (b2 & n2 & N2 & V2), K3 as (b3 & n3 & N3 & V3), K10 as (bb & FA).
  inversion FA as [|? ? S1 FA1]; subst. inversion FA1 as [|? ? S2 FA2]; subst. inversion FA2 as [|? ? S3 FA3]; subst.
  pose proof (number_base_same _ _ _ _ _ _ _ N1 N2 S1 S2) as <-.
  pose proof (number_base_same _ _ _ _ _ _ _ N1 N3 S1 S3) as <-.
  pose proof (sum_vars _ _ _ _ _ _ _ V3 V1 V2 K4) as ->. exists b1, n1, n2. rewrite K7, K8, K9.
  destruct N1 as (Y1 & Y2 & Y3), N2 as (X1 & X2 & X3). repeat split; auto; apply N3.
Qed.

Definition un_rule (op : ExprModel.unop) (t a : ty) : Prop :=
  match op with
  | ExprModel.UMinus => exists n, (0 <= n)%Z /\ a = sized int_ n /\ t = sized int_ n
  | ExprModel.UNot => a = named bool_ /\ t = named bool_
  | ExprModel.UBitNot => exists b n, a = t /\ is_number t b n
  end.
Lemma unary_ok op self a P s : Inv P s -> P self -> P a ->
  tri P s (unary C fuel num int_ bool_ op self a) (fun P' _ s' => know s' (fun val _ => un_rule op (val self) (val a))).
Proof.
  intros I Ps Pa. destruct op; cbn [unary un_rule].
  - go new_sized_ok. intros P1 [t n] s1 ST (A1 & A2 & K1). cbn [fst snd] in *. adv ST.
    go equal_ok. intros P2 u2 s2 ST K2. adv ST. fin equal_ok. intros P3 u3 s3 ST K3. adv ST.
    intros val F SV X. kn val F SV X. destruct K1 as (z & Z1 & Z2 & Z3). exists z. rewrite K2, K3. auto.
  - go t_bool_ok. intros P1 t s1 ST (A1 & K1). adv ST.
    go equal_ok. intros P2 u2 s2 ST K2. adv ST. fin equal_ok. intros P3 u3 s3 ST K3. adv ST.
    intros val F SV X. kn val F SV X. split; congruence.
  - go new_number_ok. intros P1 [t n] s1 ST (A1 & A2 & K1). cbn [fst snd] in *. adv ST.
    go equal_ok. intros P2 u2 s2 ST K2. adv ST. fin equal_ok. intros P3 u3 s3 ST K3. adv ST.
    intros val F SV X. kn val F SV X. destruct K1 as (b & z & Z1 & Z2). exists b, z. rewrite K2, K3. auto.
Qed.

Lemma special_rule_ok sp cl P s : Inv P s -> (sp <> SpNone -> Forall P cl) ->
  tri P s (special_rule C fuel num sp cl) (fun P' _ s' => know s' (fun val _ => special_holds int_ uint_ sp (map val cl))).
Proof.
  intros I FP. destruct sp; cbn [special_rule special_holds].
  - done. intros val F SV X. exact Logic.I.
  - specialize (FP ltac:(discriminate)). rewrite Forall_forall in FP.
    go of_option_ok. intros P1 a s1 ST EA. pose proof (FP a (nth_error_In _ _ EA)) as Pa.
    pose proof (fun x h => FP x h) as FP'. clear FP.
    assert (FP1 : forall x, In x cl -> P1 x) by (intros; apply (st_P _ _ _ _ ST); auto). clear FP'. adv ST.
    go of_option_ok. intros P2 b s2 ST EB. pose proof (FP1 b (nth_error_In _ _ EB)) as Pb.
    assert (FP2 : forall x, In x cl -> P2 x) by (intros; apply (st_P _ _ _ _ ST); auto). clear FP1. adv ST.
    go of_option_ok. intros P3 r s3 ST ER. pose proof (FP2 r (nth_error_In _ _ ER)) as Pr. clear FP2. adv ST.
    go new_number_ok. intros P4 [lt lhs] s4 ST (A1 & A2 & K1). cbn [fst snd] in *. adv ST.
    go new_number_ok. intros P5 [rt rhs] s5 ST (B1 & B2 & K2). cbn [fst snd] in *. adv ST.
    go new_number_ok. intros P6 [et res] s6 ST (D1 & D2 & K3). cbn [fst snd] in *. adv ST.
    go equal_ok. intros P7 u7 s7 ST K7. adv ST. go equal_ok. intros P8 u8 s8 ST K8. adv ST. go equal_ok. intros P9 u9 s9 ST K9. adv ST.
    go constrain_ok; [lens|]. intros P10 u10 s10 ST K10. adv ST.
    go constrain_ok; [lens|]. intros P11 u11 s11 ST K11. adv ST. clear K11.
    go constrain_ok; [lens|]. intros P12 u12 s12 ST K12. adv ST. clear K12.
    fin add_requirement_ok; [repeat constructor; auto|]. intros P13 u13 s13 ST K13. adv ST. intros val F SV X. kn val F SV X.
    destruct K1 as (b1 & n1 & N1 & V1), K2 as (b2 & n2 & N2 & V2), K3 as (b3 & n3 & N3 & V3), K13 as (bb & FA).
    inversion FA as [|? ? S1 FA1]; subst. inversion FA1 as [|? ? S2 FA2]; subst. inversion FA2 as [|? ? S3 FA3]; subst.
    pose proof (number_base_same _ _ _ _ _ _ _ N1 N2 S1 S2) as <-.
    pose proof (number_base_same _ _ _ _ _ _ _ N1 N3 S1 S3) as <-.
    pose proof (sum_vars _ _ _ _ _ _ _ V3 V1 V2 K10) as ->. exists b1, n1, n2, (val a), (val b), (val r).
    rewrite !nth_error_map, EA, EB, ER. cbn [option_map]. rewrite K7, K8, K9. repeat (split; [reflexivity|]). auto.
  - specialize (FP ltac:(discriminate)). rewrite Forall_forall in FP.
    go of_option_ok. intros P1 a s1 ST EA. pose proof (FP a (nth_error_In _ _ EA)) as Pa.
    assert (FP1 : forall x, In x cl -> P1 x) by (intros; apply (st_P _ _ _ _ ST); auto). clear FP. adv ST.
    go of_option_ok. intros P2 b s2 ST EB. pose proof (FP1 b (nth_error_In _ _ EB)) as Pb. clear FP1. adv ST.
    go new_number_ok. intros P4 [lt lhs] s4 ST (A1 & A2 & K1). cbn [fst snd] in *. adv ST.
    go new_number_ok. intros P5 [rt rhs] s5 ST (B1 & B2 & K2). cbn [fst snd] in *. adv ST.
    go equal_ok. intros P7 u7 s7 ST K7. adv ST. go equal_ok. intros P8 u8 s8 ST K8. adv ST.
    fin add_requirement_ok; [repeat constructor; auto|]. intros P13 u13 s13 ST K13. adv ST. intros val F SV X. kn val F SV X.
    destruct K1 as (b1 & n1 & N1 & V1), K2 as (b2 & n2 & N2 & V2), K13 as (bb & FA).
    inversion FA as [|? ? S1 FA1]; subst. inversion FA1 as [|? ? S2 FA2]; subst.
    pose proof (number_base_same _ _ _ _ _ _ _ N1 N2 S1 S2) as <-.
    exists b1, n1, n2, (val a), (val b). rewrite !nth_error_map, EA, EB. cbn [option_map]. rewrite K7, K8. repeat (split; [reflexivity|]). auto.
  - specialize (FP ltac:(discriminate)). rewrite Forall_forall in FP.
    go of_option_ok. intros P1 a s1 ST EA. pose proof (FP a (nth_error_In _ _ EA)) as Pa. clear FP. adv ST.
    go new_number_ok. intros P4 [lt lhs] s4 ST (A1 & A2 & K1). cbn [fst snd] in *. adv ST.
    fin equal_ok. intros P7 u7 s7 ST K7. adv ST. intros val F SV X. kn val F SV X.
    destruct K1 as (b1 & n1 & N1 & V1). exists b1, n1, (val a). rewrite nth_error_map, EA. cbn [option_map]. rewrite K7. auto.
Qed.

(** *** Patterns *)
Definition psub (q : hpat) (k : hpkind) : Prop :=
  match k with
  | PInt _ | PBool _ | PBound _ _ None => False
  | PBound _ _ (Some p) => q = p
  | PTuple l | PArray l | PType _ l => In q l
  end.
Lemma hpat_ind' (Q : hpat -> Prop) : (forall id k, (forall q, psub q k -> Q q) -> Q (HP id k)) -> forall p, Q p.
Proof.
  intros H. fix IH 1. intros [id k]. apply H. destruct k as [z|b|x pre [p|]|l|l|n l]; cbn [psub]; intros q K.
  - destruct K.
  - destruct K.
  - rewrite K. apply IH.
  - destruct K.
  - revert q K. induction l as [|a l IHl]; intros q K; [destruct K|]. destruct K as [K|K]; [rewrite <- K; apply IH | apply IHl; exact K].
  - revert q K. induction l as [|a l IHl]; intros q K; [destruct K|]. destruct K as [K|K]; [rewrite <- K; apply IH | apply IHl; exact K].
  - revert q K. induction l as [|a l IHl]; intros q K; [destruct K|]. destruct K as [K|K]; [rewrite <- K; apply IH | apply IHl; exact K].
Qed.

Variable heads : nat -> option head.
Notation ptyped := (ptyped int_ uint_ bool_ arity heads).
Notation prule := (prule int_ uint_ bool_ arity heads).

Definition pdone (p : hpat) (P : nat -> Prop) (s : tst) : Prop :=
  exists v, find (eqs s) (KId (pid p)) = Some v /\ P v /\ know s (fun val F => ptyped (tyof val F) p (val v)).
Lemma mono_pdone p : mono (pdone p).
Proof. intros P s P' s' ST (v & A & B & D). exists v. split; [eapply find_mono; eauto|]. split; [apply (st_P _ _ _ _ ST); auto | eapply know_mono; eauto]. Qed.
Lemma mono_pdones l : mono (fun P s => Forall (fun p => pdone p P s) l).
Proof. apply mono_forall. apply mono_pdone. Qed.
Lemma tyof_find val F s k v : find (eqs s) k = Some v -> ext (eqs s) F -> tyof val F k = Some (val v).
Proof.
  intros A X. apply X in A. unfold tyof. clear X. induction F as [|[j w] l IH]; [discriminate|]. cbn in *.
  destruct (key_eqb j k); [injection A as ->; reflexivity | auto].
Qed.

(** the types of a list of patterns or expressions that have been visited *)
Lemma types_of_ok {A} (key_ : A -> key) (done_ : A -> (nat -> Prop) -> tst -> Prop) (typed_ : (nat -> ty) -> list (key * nat) -> A -> ty -> Prop) :
  (forall a, mono (done_ a)) ->
  (forall a P s, done_ a P s -> exists v, find (eqs s) (key_ a) = Some v /\ P v /\ know s (fun val F => typed_ val F a (val v))) ->
  forall l P s, Inv P s -> Forall (fun a => done_ a P s) l ->
  tri P s (collect (fun q => type_of (key_ q)) l) (fun P' ts s' => Forall P' ts /\ know s' (fun val F => Forall2 (typed_ val F) l (map val ts))).
Proof.
  intros MD HD. induction l as [|a l IH]; intros P s I FD.
  - apply tri_ret; auto. split; [constructor|]. intros val F SV X. constructor.
  - change (collect (fun q => type_of (key_ q)) (a :: l)) with (tbind (type_of (key_ a)) (fun b => tbind (collect (fun q => type_of (key_ q)) l) (fun q => tret (b :: q)))).
    inversion FD as [|? ? Da Dl]; subst. destruct (HD _ _ _ Da) as (v & E & Pv & K).
    go (type_of_is P s (key_ a) v). intros P1 w s1 ST ->.
    assert (Dl1 : Forall (fun a => done_ a P1 s1) l).
    { eapply Forall_impl; [|exact Dl]. intros x. apply (MD x). exact ST. }
    clear Da Dl FD. adv ST. go IH. intros P2 ts s2 ST [FT KT]. adv ST. done. split; [constructor; auto|].
    intros val F SV X. kn val F SV X. cbn. constructor; auto.
Qed.

Lemma visit_pattern_ok : forall p, no_declared_at p = true -> forall P s, Inv P s ->
  tri P s (visit_pattern C fuel num bool_ arity heads p) (fun P' _ s' => pdone p P' s').
Proof.
  induction p as [id k IH] using hpat_ind'. intros ND P s I. cbn [visit_pattern].
  go new_generic_ok. intros P1 self s1 ST [Pv Kv]. adv ST.
  go add_equation_ok. intros P2 u2 s2 ST FE. adv ST.
  assert (FINISH : forall (m : T unit), tri P2 s2 m (fun P' _ s' => know s' (fun val F => prule (tyof val F) k (val self))) ->
    tri P2 s2 m (fun P' _ s' => pdone (HP id k) P' s')).
  { intros m H. eapply tri_weak; [exact H|]. cbv beta. intros P3 u3 s3 ST K. adv ST. exists self. split; auto. split; auto.
    intros val F SV X. kn val F SV X. constructor; auto. eapply tyof_find; eauto. }
  apply FINISH. clear FINISH.
  assert (EACH : forall l, (forall q, In q l -> psub q k) -> forallb no_declared_at l = true -> forall P s, Inv P s ->
     tri P s (each (visit_pattern C fuel num bool_ arity heads) l) (fun P' _ s' => Forall (fun q => pdone q P' s') l)).
  { intros l SUB OK P3 s3 I3. rewrite forallb_forall in OK. apply (each_ok (fun _ _ => True) pdone); auto using mono_true, mono_pdone. }
  destruct k as [z|b|x pre inner|l|l|name args].
  - go new_number_ok. intros P3 [t n] s3 ST (A & B & K). cbn [fst snd] in *. adv ST.
    go add_requirement_ok. intros P4 u4 s4 ST K4. adv ST.
    fin equal_ok. intros P5 u5 s5 ST K5. adv ST. intros val F SV X. kn val F SV X. constructor. rewrite K5. exact K4.
  - go t_bool_ok. intros P3 t s3 ST (A & K). adv ST.
    fin equal_ok. intros P5 u5 s5 ST K5. adv ST. intros val F SV X. kn val F SV X. rewrite K5, K. constructor.
  - destruct inner as [q|].
    + cbn [no_declared_at] in ND. apply andb_true_iff in ND as [ND1 ND2]. destruct pre; [discriminate|].
      eapply tri_bind with (Q := fun P' _ s' => P' self /\ exists v, find (eqs s') (KName x) = Some v /\ P' v /\
         know s' (fun val F => ptyped (tyof val F) q (val v))).
      { go IH. intros P3 u3 s3 ST (v & A & B & K). adv ST.
        go (type_of_is P3 s3 (KId (pid q)) v). intros P4 w s4 ST ->. adv ST.
        fin add_equation_ok. intros P5 u5 s5 ST FX. adv ST. split; auto. exists v. auto. }
      cbv beta. intros P3 u3 s3 ST (Ps & v & A & B & K). adv ST.
      go (type_of_is P3 s3 (KName x) v). intros P4 w s4 ST ->. adv ST.
      fin equal_ok. intros P5 u5 s5 ST K5. adv ST. intros val F SV X.
      pose proof (tyof_find val F _ _ _ A X) as TX. kn val F SV X. rewrite K5. constructor; auto. intros q' E. injection E as <-. auto.
    + eapply tri_bind with (Q := fun P' _ s' => P' self).
      { destruct pre.
        - done. auto.
        - fin add_equation_ok. intros P3 u3 s3 ST _. adv ST. auto. }
      cbv beta. intros P3 u3 s3 ST Ps. adv ST.
      go type_of_ok. intros P4 t s4 ST (A & B). adv ST. fin equal_ok. intros P5 u5 s5 ST K5. adv ST.
      intros val F SV X. pose proof (tyof_find val F _ _ _ B X) as TX. kn val F SV X. rewrite K5. constructor; auto. discriminate.
  - cbn [no_declared_at] in ND. go EACH. intros P3 u3 s3 ST FD. adv ST.
    go (types_of_ok (fun q => KId (pid q)) pdone (fun val F => ptyped (tyof val F)) mono_pdone (fun a P s H => H) l).
    intros P4 ts s4 ST [FT KT]. adv ST. go new_known_ok. intros P5 t s5 ST [A K]. adv ST.
    fin equal_ok. intros P6 u6 s6 ST K6. adv ST. intros val F SV X. kn val F SV X. rewrite K6, K. constructor. exact KT.
  - cbn [no_declared_at] in ND. go EACH. intros P3 u3 s3 ST FD. adv ST. destruct l as [|q r]; [apply tri_fail|].
    inversion FD as [|? ? Dq Dr]; subst. destruct Dq as (v & Ev & Pv' & KV).
    go (type_of_is P3 s3 (KId (pid q)) v). intros P4 w s4 ST ->.
    apply (mono_pdones r _ _ _ _ ST) in Dr. clear FD. adv ST.
    assert (RS : tri P4 s4 (each (fun q => do t <- type_of (KId (pid q)); equal C fuel t v) r)
      (fun P' _ s' => Forall (fun q => know s' (fun val F => ptyped (tyof val F) q (val v))) r)).
    { eapply tri_weak; [apply (each_ok (fun P s => P v /\ Forall (fun p => pdone p P s) r)
        (fun q P' s' => know s' (fun val F => ptyped (tyof val F) q (val v)))); auto|].
      - apply mono_and; [apply mono_P | apply mono_pdones].
      - intros a. apply mono_know.
      - intros P5 s5 a IN I5 [Pv5 D5]. rewrite Forall_forall in D5. specialize (D5 a IN). destruct D5 as (t & Et & Pt & Kt).
        go (type_of_is P5 s5 (KId (pid a)) t). intros P6 w s6 ST ->. adv ST. fin equal_ok. intros P7 u7 s7 ST K7. adv ST.
        intros val F SV X. kn val F SV X. rewrite <- K7. auto.
      - auto. }
    go RS. intros P5 u5 s5 ST KR.
    assert (KA : know s5 (fun val F => Forall (fun q => ptyped (tyof val F) q (val v)) r)).
    { intros val F SV X. eapply Forall_impl; [|exact KR]. intros a Ka. apply Ka; auto. }
    clear KR. adv ST. go new_int_ok. intros P6 n s6 ST [Pn Kn]. adv ST.
    go new_known_ok. intros P7 t s7 ST [A K]. adv ST. fin equal_ok. intros P8 u8 s8 ST K8. adv ST.
    intros val F SV X. kn val F SV X. rewrite K8, K. cbn [map]. rewrite Kn.
    apply (pr_array int_ uint_ bool_ arity heads (tyof val F) (q :: r) (val v)); [discriminate|]. constructor; auto.
  - cbn [no_declared_at] in ND. rewrite forallb_forall in ND.
    go of_option_ok. intros P3 h s3 ST Eh. adv ST. go of_option_ok. intros P4 ret s4 ST Er. adv ST.
    go generic_list_ok.
    { constructor. } { split; [intros T N []|]. split; constructor. }
    intros P5 gl s5 ST (GL & PU & KI). assert (FP : Forall P5 gl).
    { apply Forall_forall. intros v H. apply In_nth_error in H as (j & H). eapply PU; eauto. } clear PU.
    adv ST.
    assert (GP : forall t, gl_pub gl t P5).
    { intros t j v _ H. rewrite Forall_forall in FP. apply FP. eapply nth_error_In; eauto. }
    go spec_var_ok. intros P6 cond s6 ST [Pc Kc]. adv ST. clear GP. go equal_ok. intros P7 u7 s7 ST K7. adv ST.
    set (BODY := fun a t => run visit_pattern C fuel num bool_ arity heads a; do v <- spec_var arity gl t; do w <- type_of (KId (pid a)); equal C fuel w v).
    eapply tri_weak with (Q := fun P' _ s' => Forall2 (fun a t => know s' (fun val F => exists ty, means (map val gl) t ty /\ ptyped (tyof val F) a ty)) args (hd_params h)).
    { apply (each2_ok (fun P s => gl_lt gl s /\ Forall P gl) (fun a t P' s' => know s' (fun val F => exists ty, means (map val gl) t ty /\ ptyped (tyof val F) a ty)) BODY); auto.
      - apply mono_and; [apply mono_gl_lt | apply mono_forall; intros; apply mono_P].
      - intros a b. apply mono_know.
      - intros P8 s8 a t INa INt I8 [GL8 FP8]. unfold BODY. go IH. intros P9 u9 s9 ST (v & A & B & K). adv ST.
        assert (GP : gl_pub gl t P9).
        { intros j w _ H. rewrite Forall_forall in FP8. apply FP8. eapply nth_error_In; eauto. }
        go spec_var_ok. intros P10 w s10 ST [Pw Kw]. clear GP. adv ST.
        go (type_of_is P10 s10 (KId (pid a)) v). intros P11 w' s11 ST ->. adv ST. fin equal_ok. intros P12 u12 s12 ST K12. adv ST.
        intros val F SV X. kn val F SV X. exists (val w). split; auto. rewrite <- K12. auto. }
    cbv beta. intros P8 u8 s8 ST F2. adv ST. intros val F SV X. kn val F SV X. destruct KI as ((KI & _) & _ & _). rewrite K7.
    assert (TS : exists ts, Forall2 (means (map val gl)) (hd_params h) ts /\ Forall2 (ptyped (tyof val F)) args ts).
    { clear - F2 SV X. induction F2 as [|a t l m H F2 IH]; [exists []; split; constructor|].
      destruct IH as (ts & A & B). destruct (H val F SV X) as (y & Y1 & Y2). exists (y :: ts). split; constructor; auto. }
    destruct TS as (ts & T1 & T2). econstructor; eauto.
Qed.

(** *** Expressions and statements *)
Definition opt_list {A} (o : option A) : list A := match o with Some a => [a] | None => [] end.
Definition kids (k : hkind) : list hx :=
  match k with
  | HName _ | HInt _ _ | HBool _ | HTypeInt _ | HTypeBool => []
  | HTuple l | HArray l | HCall _ _ l => l
  | HTupleIndex a _ | HField a _ | HCast a _ | HRepeat a _ | HRange a _ _ | HUn _ a | HRef a => [a]
  | HIndex a b | HBin _ a b | HGenIf _ a b => [a; b]
  | HIf a b c => [a; b; c]
  | HBlock _ r => opt_list r
  | HMatch a arms => a :: flat_map (fun x => let '(_, g, e) := x in e :: opt_list g) arms
  end.
Definition stms (k : hkind) : list hstm := match k with HBlock ss _ => ss | _ => [] end.
Definition skids (s : hstm) : list hx :=
  match s with
  | HLet _ _ e | HExpr e | HAssert e => [e]
  | HReg _ _ c v r i => c :: v :: match r with Some (a, b) => [a; b] | None => [] end ++ opt_list i
  | HDecl _ => []
  | HSet a b => [a; b]
  end.
Section Hx_ind.
Variable Q : hx -> Prop.
Variable R : hstm -> Prop.
Hypothesis HQ : forall id k, (forall e, In e (kids k) -> Q e) -> (forall s, In s (stms k) -> R s) -> Q (HX id k).
Hypothesis HR : forall s, (forall e, In e (skids s) -> Q e) -> R s.
Fixpoint hx_rec' (e : hx) : Q e :=
  let list_ := fix go (l : list hx) : Forall Q l :=
    match l return Forall Q l with [] => Forall_nil Q | a :: r => Forall_cons a (hx_rec' a) (go r) end in
  let opt_ (o : option hx) : Forall Q (opt_list o) :=
    match o return Forall Q (opt_list o) with Some a => Forall_cons a (hx_rec' a) (Forall_nil Q) | None => Forall_nil Q end in
  let slist_ := fix go (l : list hstm) : Forall R l :=
    match l return Forall R l with [] => Forall_nil R | a :: r => Forall_cons a (hstm_rec' a) (go r) end in
  let arms_ := fix go (l : list (hpat * option hx * hx)) : Forall Q (flat_map (fun x => let '(_, g, e) := x in e :: opt_list g) l) :=
    match l return Forall Q (flat_map (fun x => let '(_, g, e) := x in e :: opt_list g) l) with
    | [] => Forall_nil Q
    | (p, g, e) :: r => Forall_cons e (hx_rec' e) (proj2 (Forall_app _ _ _) (conj (opt_ g) (go r)))
    end in
  match e return Q e with
  | HX id k => HQ id k
      (proj1 (Forall_forall Q (kids k)) (match k return Forall Q (kids k) with
       | HName _ | HInt _ _ | HBool _ | HTypeInt _ | HTypeBool => Forall_nil Q
       | HTuple l | HArray l | HCall _ _ l => list_ l
       | HTupleIndex a _ | HField a _ | HCast a _ | HRepeat a _ | HRange a _ _ | HUn _ a | HRef a => Forall_cons a (hx_rec' a) (Forall_nil Q)
       | HIndex a b | HBin _ a b | HGenIf _ a b => Forall_cons a (hx_rec' a) (Forall_cons b (hx_rec' b) (Forall_nil Q))
       | HIf a b c => Forall_cons a (hx_rec' a) (Forall_cons b (hx_rec' b) (Forall_cons c (hx_rec' c) (Forall_nil Q)))
       | HBlock _ r => opt_ r
       | HMatch a arms => Forall_cons a (hx_rec' a) (arms_ arms)
       end))
      (proj1 (Forall_forall R (stms k)) (match k return Forall R (stms k) with
       | HBlock ss _ => slist_ ss
       | _ => Forall_nil R
       end))
  end
with hstm_rec' (s : hstm) : R s :=
  let opt_ (o : option hx) : Forall Q (opt_list o) :=
    match o return Forall Q (opt_list o) with Some a => Forall_cons a (hx_rec' a) (Forall_nil Q) | None => Forall_nil Q end in
  HR s (proj1 (Forall_forall Q (skids s)) (match s return Forall Q (skids s) with
  | HLet _ _ e | HExpr e | HAssert e => Forall_cons e (hx_rec' e) (Forall_nil Q)
  | HReg _ _ c v r i => Forall_cons c (hx_rec' c) (Forall_cons v (hx_rec' v)
      (proj2 (Forall_app _ _ _) (conj (match r return Forall Q (match r with Some (a, b) => [a; b] | None => [] end) with
        | Some (a, b) => Forall_cons a (hx_rec' a) (Forall_cons b (hx_rec' b) (Forall_nil Q))
        | None => Forall_nil Q
        end) (opt_ i))))
  | HDecl _ => Forall_nil Q
  | HSet a b => Forall_cons a (hx_rec' a) (Forall_cons b (hx_rec' b) (Forall_nil Q))
  end)).
End Hx_ind.

Hypothesis heads_ok : forall f h, heads f = Some h -> head_ok h.
Section Body.
Variable metas : list meta.
Variable gl : glist.
Notation typed := (typed int_ uint_ bool_ clock_ arity structs heads).
Notation rule := (rule int_ uint_ bool_ clock_ arity structs heads).
Notation checked := (checked int_ uint_ bool_ clock_ arity structs heads).
Notation arm := (arm int_ uint_ bool_ clock_ arity structs heads).
Notation ordinary := (ordinary (no_bypass heads) no_declared_at).
Notation ordinary_stm := (ordinary_stm (no_bypass heads) no_declared_at).
Notation visit := (visit C fuel num int_ uint_ bool_ clock_ arity structs heads metas gl).
Notation visit_stm := (visit_stm C fuel num int_ uint_ bool_ clock_ arity structs heads metas gl).

Definition xdone (e : hx) (P : nat -> Prop) (s : tst) : Prop :=
  exists v, find (eqs s) (KId (hid e)) = Some v /\ P v /\ know s (fun val F => typed (tyof val F) (map val gl) e (val v)).
Lemma mono_xdone e : mono (xdone e).
Proof. intros P s P' s' ST (v & A & B & D). exists v. split; [eapply find_mono; eauto|]. split; [apply (st_P _ _ _ _ ST); auto | eapply know_mono; eauto]. Qed.
Lemma mono_xdones l : mono (fun P s => Forall (fun p => xdone p P s) l).
Proof. apply mono_forall. apply mono_xdone. Qed.
Definition scope (P : nat -> Prop) (s : tst) : Prop := gl_lt gl s /\ Forall P gl.
Lemma mono_scope : mono scope.
Proof. apply mono_and; [apply mono_gl_lt | apply mono_forall; intros; apply mono_P]. Qed.

Lemma spec_ok t P s : Inv P s -> gl_lt gl s -> Forall P gl ->
  tri P s (spec_var arity gl t) (fun P' v s' => P' v /\ know s' (fun val _ => means (map val gl) t (val v))).
Proof.
  intros I GL FP. apply spec_var_ok; auto. intros k v _ H. rewrite Forall_forall in FP. apply FP. eapply nth_error_In; eauto.
Qed.
Lemma const_int (val : nat -> ty) F s c v x : find (eqs s) (KId (fst c)) = Some v -> ext (eqs s) F -> val v = tvalue x ->
  (exists b, val v = TK b [] /\ Value (env (map val gl)) (snd c) b) -> const_is (tyof val F) (map val gl) c (BInt x).
Proof.
  intros E X V (b & B1 & B2). rewrite V in B1. injection B1 as <-. split; auto. rewrite (tyof_find val F _ _ _ E X). rewrite V. reflexivity.
Qed.

Definition callable (h : head) (cl : glist) (P : nat -> Prop) : Prop :=
  Forall (fun t => gl_pub cl t P) (hd_params h) /\ (forall r, hd_ret h = Some r -> gl_pub cl r P) /\
  (hd_special h <> SpNone -> Forall P cl).
Lemma mono_callable h cl : mono (fun P _ => callable h cl P).
Proof.
  intros P s P' s' ST (A & B & D). split; [|split].
  - eapply Forall_impl; [|exact A]. intros t. apply (mono_gl_pub cl t _ _ _ _ ST).
  - intros r H. apply (mono_gl_pub cl r _ _ _ _ ST). auto.
  - intros H. eapply Forall_impl; [exact (st_P _ _ _ _ ST) | auto].
Qed.

Lemma pairwise_ok : forall l P s, Inv P s -> Forall (fun e => xdone e P s) l ->
  tri P s (pairwise C fuel l) (fun P' _ s' => forall a r v, l = a :: r -> find (eqs s) (KId (hid a)) = Some v ->
    know s' (fun val F => Forall (fun e => typed (tyof val F) (map val gl) e (val v)) l)).
Proof.
  induction l as [|x [|y r] IH]; intros P s I FD.
  - apply tri_ret; auto. discriminate.
  - apply tri_ret; auto. intros a r v E. injection E as <- <-. intros EV. inversion FD as [|? ? (w & E & _ & K) _]; subst.
    rewrite E in EV. injection EV as ->. intros val F SV X. kn val F SV X. repeat constructor. auto.
  - change (pairwise C fuel (x :: y :: r)) with (do a <- type_of (KId (hid y)); do b <- type_of (KId (hid x)); run equal C fuel a b; pairwise C fuel (y :: r)).
    inversion FD as [|? ? (vx & Ex & Px & Kx) FY]; subst. pose proof FY as FY0. inversion FY0 as [|? ? (vy & Ey & Py & _) _]; subst. clear FY0.
    assert (W : forall v, find (eqs s) (KId (hid x)) = Some v -> v = vx) by (intros; congruence). clear FD.
    go (type_of_is P s (KId (hid y)) vy). intros P1 w s1 ST ->. apply (mono_xdones _ _ _ _ _ ST) in FY. adv ST.
    go (type_of_is P1 s1 (KId (hid x)) vx). intros P2 w s2 ST ->. apply (mono_xdones _ _ _ _ _ ST) in FY. adv ST.
    go equal_ok. intros P3 u3 s3 ST K3. apply (mono_xdones _ _ _ _ _ ST) in FY. adv ST.
    fin IH. intros P4 u4 s4 ST H. specialize (H y r vy eq_refl Ey). adv ST.
    intros a q v E. injection E as <- <-. intros EV. apply W in EV. subst v.
    intros val F SV X. kn val F SV X. rewrite K3 in H. constructor; auto.
Qed.

Lemma check_args_ok h cl args P s : Inv P s -> gl_lt cl s -> callable h cl P -> Forall (fun e => xdone e P s) args ->
  tri P s (check_args C fuel arity cl (hd_params h) args) (fun P' _ s' => know s' (fun val F => exists ts,
    Forall2 (means (map val cl)) (hd_params h) ts /\ Forall2 (typed (tyof val F) (map val gl)) args ts)).
Proof.
  intros I GL (CP & _ & _) FD. unfold check_args.
  set (BODY := fun p a => do t <- spec_var arity cl p; do v <- type_of (KId (hid a)); equal C fuel v t).
  eapply tri_weak with (Q := fun P' _ s' => Forall2 (fun t a => know s' (fun val F => exists ty, means (map val cl) t ty /\ typed (tyof val F) (map val gl) a ty)) (hd_params h) args).
  { apply (each2_ok (fun P s => gl_lt cl s /\ Forall (fun t => gl_pub cl t P) (hd_params h) /\ Forall (fun e => xdone e P s) args)
      (fun t a P' s' => know s' (fun val F => exists ty, means (map val cl) t ty /\ typed (tyof val F) (map val gl) a ty)) BODY); auto.
    - apply mono_and; [apply mono_gl_lt|]. apply mono_and; [apply mono_forall; intros; apply mono_gl_pub | apply mono_xdones].
    - intros a b. apply mono_know.
    - intros P1 s1 t a INt INa I1 (GL1 & CP1 & FD1). unfold BODY. rewrite Forall_forall in CP1, FD1.
      specialize (CP1 t INt). specialize (FD1 a INa). destruct FD1 as (v & E & Pv & K).
      go spec_var_ok. intros P2 w s2 ST [Pw Kw]. adv ST.
      go (type_of_is P2 s2 (KId (hid a)) v). intros P3 w' s3 ST ->. adv ST. fin equal_ok. intros P4 u4 s4 ST K4. adv ST.
      intros val F SV X. kn val F SV X. exists (val w). split; auto. rewrite <- K4. auto. }
  cbv beta. intros P8 u8 s8 ST F2. adv ST. intros val F SV X.
  clear - F2 SV X. induction F2 as [|t a l m H F2 IH]; [exists []; split; constructor|].
  destruct IH as (ts & A & B). destruct (H val F SV X) as (y & Y1 & Y2). exists (y :: ts). split; constructor; auto.
Qed.

Ltac tyo := eapply tri_bind; [eapply type_of_is; [assumption | eassumption]|]; cbv beta;
  let P := fresh "P" in let w := fresh "w" in let s := fresh "s" in let ST := fresh "ST" in intros P w s ST ->; adv ST.
Tactic Notation "eql" ident(K) := eapply tri_bind; [apply equal_ok; side|]; cbv beta;
  let P := fresh "P" in let w := fresh "u" in let s := fresh "s" in let ST := fresh "ST" in intros P w s ST K; adv ST.
Tactic Notation "eqlast" ident(K) := eapply tri_weak; [apply equal_ok; side|]; cbv beta;
  let P := fresh "P" in let w := fresh "u" in let s := fresh "s" in let ST := fresh "ST" in intros P w s ST K; adv ST.
Tactic Notation "vis" constr(H) ident(v) ident(E) ident(Pv) ident(K) := eapply tri_bind; [apply H; side|]; cbv beta;
  let P := fresh "P" in let w := fresh "u" in let s := fresh "s" in let ST := fresh "ST" in intros P w s ST (v & E & Pv & K); adv ST.

Definition vok (e : hx) : Prop := ordinary e = true -> forall P s, Inv P s -> gl_lt gl s -> Forall P gl ->
  tri P s (visit e) (fun P' _ s' => xdone e P' s').
Definition sok (st : hstm) : Prop := ordinary_stm st = true -> forall P s, Inv P s -> gl_lt gl s -> Forall P gl ->
  tri P s (visit_stm st) (fun P' _ s' => know s' (fun val F => checked (tyof val F) (map val gl) st)).

Lemma each_visit l : (forall e, In e l -> vok e) -> forallb ordinary l = true -> forall P s, Inv P s -> gl_lt gl s -> Forall P gl ->
  tri P s (each visit l) (fun P' _ s' => Forall (fun e => xdone e P' s') l).
Proof.
  intros IH OK P s I GL FP. rewrite forallb_forall in OK.
  apply (each_ok scope xdone); auto using mono_scope, mono_xdone; [|split; auto].
  intros P1 s1 a IN I1 [G1 F1]. apply IH; auto.
Qed.
Lemma each_visit_stm l : (forall e, In e l -> sok e) -> forallb ordinary_stm l = true -> forall P s, Inv P s -> gl_lt gl s -> Forall P gl ->
  tri P s (each visit_stm l) (fun P' _ s' => know s' (fun val F => Forall (checked (tyof val F) (map val gl)) l)).
Proof.
  intros IH OK P s I GL FP. rewrite forallb_forall in OK.
  eapply tri_weak; [apply (each_ok scope (fun st P' s' => know s' (fun val F => checked (tyof val F) (map val gl) st))); auto using mono_scope; [| |split; auto]|].
  - intros a. apply mono_know.
  - intros P1 s1 a IN I1 [G1 F1]. apply IH; auto.
  - cbv beta. intros P1 u s1 ST H val F SV X. eapply Forall_impl; [|exact H]. intros a Ka. apply Ka; auto.
Qed.

Lemma stm_ok : forall st, (forall e, In e (skids st) -> vok e) -> sok st.
Proof.
  intros st IH OK P s I GL FP. destruct st as [p spec e|e|p spec clock value reset initial|l|e|a e]; cbn [TypingModel.visit_stm TypingSpec.ordinary_stm skids forallb] in *.
  - apply andb_true_iff in OK as [O1 O2]. vis (IH e (or_introl eq_refl) O2) v E Pv K.
    go (visit_pattern_ok p O1). intros P31 u31 s31 ST (vp & Ep & Pp & Kp). adv ST. tyo. tyo. eql K1.
    destruct spec as [t|]; cbn [onto].
    + go spec_ok. intros P34 w s34 ST [Pw Kw]. adv ST. eqlast K2. intros val F SV X. kn val F SV X.
      econstructor; [exact Kp | rewrite K1; exact K | cbn; rewrite K2; exact Kw].
    + done. intros val F SV X. kn val F SV X. econstructor; [exact Kp | rewrite K1; exact K | exact Logic.I].
  - eapply tri_weak; [apply (IH e (or_introl eq_refl) OK); auto|]. cbv beta. intros P31 u s31 ST (v & E & Pv & K). adv ST.
    intros val F SV X. kn val F SV X. econstructor; eauto.
  - apply andb_true_iff in OK as [OK O5]. apply andb_true_iff in OK as [OK O4]. apply andb_true_iff in OK as [O1 O2].
    apply andb_true_iff in O2 as [O2 O3]. apply andb_true_iff in O3 as [O3 _].
    go (visit_pattern_ok p O1). intros P31 u31 s31 ST (vp & Ep & Pp & Kp). adv ST. tyo.
    eapply tri_bind with (Q := fun (P' : nat -> Prop) (tv : option nat) (s' : tst) => know s' (fun val _ => match spec with Some t => means (map val gl) t (val vp) | None => True end) /\
       forall t, tv = Some t -> P' t).
    { destruct spec as [t|].
      - go spec_ok. intros P34 w s34 ST [Pw Kw]. adv ST. eql K2. done. split; [intros val F SV X; kn val F SV X; rewrite K2; auto|].
        intros t' H. injection H as <-. auto.
      - done. split; [intros val F SV X; exact Logic.I | discriminate]. }
    cbv beta. intros P33 tv s33 ST [KS PT].
    assert (IHc := IH clock (or_introl eq_refl) O2). assert (IHv := IH value (or_intror (or_introl eq_refl)) O3).
    assert (PT' : match tv with Some t => P33 t | None => True end) by (destruct tv; auto). clear PT.
    adv ST.
    eapply tri_bind; [apply IHc; side|]. cbv beta. intros P34 u34 s34 ST (vc & Ec & Pc & Kc).
    assert (PT : match tv with Some t => P34 t | None => True end) by (destruct tv; auto; apply (st_P _ _ _ _ ST); auto). clear PT'. adv ST.
    eapply tri_bind; [apply IHv; side|]. cbv beta. intros P35 u35 s35 ST (vv & Ev & Pv & Kv).
    assert (PT' : match tv with Some t => P35 t | None => True end) by (destruct tv; auto; apply (st_P _ _ _ _ ST); auto). clear PT. adv ST.
    eapply tri_bind; [eapply type_of_is; [assumption | eassumption]|]; cbv beta. intros P36 w s36 ST ->.
    assert (PT : match tv with Some t => P36 t | None => True end) by (destruct tv; auto; apply (st_P _ _ _ _ ST); auto). clear PT'. adv ST.
    eapply tri_bind with (Q := fun _ _ _ => True).
    { destruct tv as [t|]; cbn [onto]; [|done; exact Logic.I]. fin equal_ok. auto. }
    cbv beta. intros P37 u37 s37 ST _. clear PT tv. adv ST.
    eapply tri_bind with (Q := fun P' _ s' => know s' (fun val F => forall c v, reset = Some (c, v) ->
       typed (tyof val F) (map val gl) c (named bool_) /\ typed (tyof val F) (map val gl) v (val vv))).
    { destruct reset as [[c v]|]; [|done; intros val F SV X c v H; discriminate].
      apply andb_true_iff in O4 as [O6 O7]. apply andb_true_iff in O7 as [O7 _].
      vis (IH c (or_intror (or_intror (or_introl eq_refl))) O6) vr Er Pr Kr.
      vis (IH v (or_intror (or_intror (or_intror (or_introl eq_refl)))) O7) vw Ew Pw Kw. tyo.
      go t_bool_ok. intros P20 b s20 ST [Pb Kb]. adv ST. eql K1. tyo. eqlast K2.
      intros val F SV X. kn val F SV X. intros c' v' H. injection H as <- <-. split; [rewrite <- Kb, <- K1 | rewrite <- K2]; auto. }
    cbv beta. intros P38 u38 s38 ST KR. adv ST.
    eapply tri_bind with (Q := fun P' _ s' => know s' (fun val F => forall v, initial = Some v -> typed (tyof val F) (map val gl) v (val vv))).
    { destruct initial as [v|]; [|done; intros val F SV X c H; discriminate].
      assert (IN : In v (clock :: value :: match reset with Some (a, b) => [a; b] | None => [] end ++ [v])).
      { right. right. apply in_or_app. right. left. auto. }
      vis (IH v IN O5) vr Er Pr Kr. tyo. eqlast K2.
      intros val F SV X. kn val F SV X. intros v' H. injection H as <-. rewrite <- K2. auto. }
    cbv beta. intros P39 u39 s39 ST KI. adv ST. tyo.
    go t_clock_ok. intros P20 b s20 ST [Pb Kb]. adv ST. eql K1. eqlast K2.
    intros val F SV X. kn val F SV X. rewrite K2 in *.
    apply (c_reg int_ uint_ bool_ clock_ arity structs heads (tyof val F) (map val gl) p spec clock value reset initial (val vv)); auto.
    rewrite <- Kb, <- K1. auto.
  - eapply tri_weak; [apply (each_ok (fun _ _ => True) (fun x P' s' => know s' (fun val F => exists t, tyof val F (KName x) = Some t))); auto using mono_true|].
    + intros a. apply mono_know.
    + intros P31 s31 x IN I1 _. go new_generic_ok. intros P32 t s32 ST [Pt Kt]. adv ST. fin add_equation_ok. intros P33 u33 s33 ST E. adv ST.
      intros val F SV X. exists (val t). eapply tyof_find; eauto.
    + cbv beta. intros P31 u s31 ST H val F SV X. constructor. eapply Forall_impl; [|exact H]. intros a Ka. apply Ka; auto.
  - vis (IH e (or_introl eq_refl) OK) v E Pv K. tyo. go t_bool_ok. intros P20 b s20 ST [Pb Kb]. adv ST. eqlast K1.
    intros val F SV X. kn val F SV X. constructor. rewrite <- Kb, <- K1. auto.
  - apply andb_true_iff in OK as [O1 O2]. apply andb_true_iff in O2 as [O2 _].
    vis (IH a (or_introl eq_refl) O1) va Ea Pa Ka. vis (IH e (or_intror (or_introl eq_refl)) O2) ve Ee Pe Ke.
    go new_generic_ok. intros P32 t s32 ST [Pt Kt]. adv ST. go new_known_ok. intros P33 o s33 ST [Po Ko]. adv ST.
    tyo. eql K1. tyo. eqlast K2. intros val F SV X. kn val F SV X. econstructor; [|exact Ke].
    replace (TK BInverted [val ve]) with (val va) by (rewrite K1, Ko; cbn; rewrite K2; reflexivity). exact Ka.
Qed.

Lemma literal_type_ok l P s : Inv P s ->
  tri P s (match l with
              | LUnsized => do (t, _) <- new_number num; tret t
              | LSigned size => do (t, n) <- new_sized int_ MInt;
                                run onto (fun z => do s <- new_int z; equal C fuel n s) size; tret t
              | LUnsigned size => do (t, n) <- new_sized uint_ MUint;
                                  run onto (fun z => do s <- new_int z; equal C fuel n s) size; tret t
              end) (fun P' t s' => P' t /\ know s' (fun val _ => suffix int_ uint_ l (val t))).
Proof.
  intros I.
  assert (SZ : forall n size P s, Inv P s -> P n -> tri P s (onto (fun z => do s <- new_int z; equal C fuel n s) size)
     (fun P' _ s' => know s' (fun val _ => forall m, size = Some m -> val n = tvalue m))).
  { intros n [m|] P1 s1 I1 Pn; cbn [onto].
    - go new_int_ok. intros P32 w s32 ST [Pw Kw]. adv ST. eqlast K1. intros val F SV X. kn val F SV X. intros m' H. injection H as <-. congruence.
    - done. intros val F SV X m H. discriminate. }
  destruct l as [|size|size].
  - go new_number_ok. intros P33 [t n] s33 ST (A & B & K). cbn [fst snd] in *. adv ST. done. split; auto. intros val F SV X. exact Logic.I.
  - go new_sized_ok. intros P33 [t n] s33 ST (A & B & K). cbn [fst snd] in *. adv ST.
    go SZ. intros P34 u s34 ST KS. adv ST. done. split; auto. intros val F SV X. kn val F SV X.
    destruct K as (x & X1 & X2 & X3). exists x. split; auto. intros m H. apply KS in H. rewrite X1 in H. injection H. auto.
  - go new_sized_ok. intros P33 [t n] s33 ST (A & B & K). cbn [fst snd] in *. adv ST.
    go SZ. intros P34 u s34 ST KS. adv ST. done. split; auto. intros val F SV X. kn val F SV X.
    destruct K as (x & X1 & X2 & X3). exists x. split; auto. intros m H. apply KS in H. rewrite X1 in H. injection H. auto.
Qed.

Lemma arms_ok (first : hx) ta arms P s : Inv P s -> gl_lt gl s -> Forall P gl -> P ta ->
  (exists p g r, arms = (p, g, first) :: r) ->
  (forall e, In e (flat_map (fun x => let '(_, g, e) := x in e :: opt_list g) arms) -> vok e) ->
  forallb (fun x => let '(p, g, e) := x in no_declared_at p && match g with Some e => ordinary e | None => true end && ordinary e) arms = true ->
  tri P s (each_after (fun (i : bool) (arm : hpat * option hx * hx) =>
              let '(p, g, e) := arm in
              run visit_pattern C fuel num bool_ arity heads p;
              do tp <- type_of (KId (pid p));
              run equal C fuel tp ta;
              run match g with
                  | Some g => run visit g; do tg <- type_of (KId (hid g)); do bool <- t_bool bool_; equal C fuel tg bool
                  | None => tret tt
                  end;
              run visit e;
              if i then do t0 <- type_of (KId (hid first)); do te <- type_of (KId (hid e)); equal C fuel t0 te else tret tt) false arms)
   (fun P' _ s' => exists v, find (eqs s') (KId (hid first)) = Some v /\ P' v /\
      know s' (fun val F => Forall (arm (tyof val F) (map val gl) (val ta) (val v)) arms)).
Proof.
  intros I GL FP Pt (p0 & g0 & r & EA) IH OK. match goal with |- tri _ _ (each_after ?B _ _) _ => set (BODY := B) end.
  assert (PRE : forall (i : bool) (p : hpat) (g : option hx) (e : hx), In (p, g, e) arms ->
     forall (P : nat -> Prop) (s : tst) (Q : (nat -> Prop) -> tst -> Prop), Inv P s -> gl_lt gl s -> Forall P gl -> P ta ->
     (forall (P' : nat -> Prop) (s' : tst), step P s P' s' -> Inv P' s' -> forall v : nat, find (eqs s') (KId (hid e)) = Some v -> P' v ->
        know s' (fun val F => arm (tyof val F) (map val gl) (val ta) (val v) (p, g, e)) ->
        tri P' s' (if i then do t0 <- type_of (KId (hid first)); do te <- type_of (KId (hid e)); equal C fuel t0 te else tret tt)
           (fun P'' _ s'' => Q P'' s'')) ->
     tri P s (BODY i (p, g, e)) (fun P' _ s' => Q P' s')).
  { intros i p g e IN P1 s1 Q I1 GL1 FP1 Pt1 K. unfold BODY.
    rewrite forallb_forall in OK. specialize (OK _ IN). cbn in OK. apply andb_true_iff in OK as [OK O3]. apply andb_true_iff in OK as [O1 O2].
    assert (IHe : vok e) by (apply IH; apply in_flat_map; exists (p, g, e); split; [auto | left; auto]).
    assert (IHg : forall c, g = Some c -> vok c).
    { intros c ->. apply IH. apply in_flat_map. exists (p, Some c, e). split; [auto | right; left; auto]. }
    assert (TR : forall P' s', step P1 s1 P' s' -> step P1 s1 P' s') by auto.
    eapply tri_bind; [apply (visit_pattern_ok p O1); auto|]. cbv beta. intros P31 u31 s31 ST1 (vp & Ep & Pp & Kp).
    pose proof ST1 as ST. adv ST.
    eapply tri_bind; [eapply type_of_is; [assumption | eassumption]|]; cbv beta. intros P32 w s32 ST2 ->. pose proof ST2 as ST. adv ST.
    go equal_ok. intros P33 u33 s33 ST3 K3. pose proof ST3 as ST. adv ST.
    eapply tri_bind with (Q := fun P' _ s' => know s' (fun val F => forall c, g = Some c -> typed (tyof val F) (map val gl) c (named bool_))).
    { destruct g as [c|]; [|done; intros val F SV X c H; discriminate].
      vis (IHg c eq_refl O2) vr Er Pr Kr. tyo. go t_bool_ok. intros P20 b s20 ST [Pb Kb]. adv ST. eqlast K1.
      intros val F SV X. kn val F SV X. intros c' H. injection H as <-. rewrite <- Kb, <- K1. auto. }
    cbv beta. intros P34 u34 s34 ST4 KG. pose proof ST4 as ST. adv ST.
    eapply tri_bind; [apply IHe; side|]; cbv beta. intros P35 u35 s35 ST5 (ve & Ee & Pe & Ke). pose proof ST5 as ST. adv ST.
    apply (K P35 s35) with (v := ve); auto.
    - eapply step_trans; [|exact ST5]. eapply step_trans; [|exact ST4]. eapply step_trans; [|exact ST3]. eapply step_trans; eauto.
    - intros val F SV X. kn val F SV X. constructor; auto. rewrite <- K3. auto. }
  subst arms. change (each_after BODY false ((p0, g0, first) :: r)) with (tbind (BODY false (p0, g0, first)) (fun _ => each_after BODY true r)).
  eapply tri_bind with (Q := fun P' _ s' => scope P' s' /\ P' ta /\ exists v, find (eqs s') (KId (hid first)) = Some v /\ P' v /\
     know s' (fun val F => arm (tyof val F) (map val gl) (val ta) (val v) (p0, g0, first))).
  { apply PRE; auto; [left; auto|]. intros P31 s31 ST I1 v E Pv K. adv ST. done. split; [split; auto|]. split; auto. exists v. auto. }
  cbv beta. intros P31 u31 s31 ST ([GL1 FP1] & Pt1 & v & E & Pv & K). clear GL FP Pt. adv ST. rewrite each_after_true.
  set (D := fun (a : hpat * option hx * hx) (P' : nat -> Prop) (s' : tst) => know s' (fun val F => arm (tyof val F) (map val gl) (val ta) (val v) a)).
  assert (REST : tri P31 s31 (each (BODY true) r) (fun P' _ s' => Forall (fun a => D a P' s') r)).
  { apply (each_ok (fun P s => scope P s /\ P ta /\ find (eqs s) (KId (hid first)) = Some v /\ P v) D); auto.
    - apply mono_and; [apply mono_scope|]. apply mono_and; [apply mono_P|]. apply mono_and; [apply mono_find | apply mono_P].
    - intros a. apply mono_know.
    - intros P32 s32 [[p g] e] IN I2 ([GL2 FP2] & Pt2 & E2 & Pv2).
      apply (PRE true p g e (or_intror IN) P32 s32 (fun P' s' => D (p, g, e) P' s')); auto.
      intros P33 s33 ST I3 w Ew Pw Kw. adv ST. tyo. tyo. eqlast K1. intros val F SV X. kn val F SV X. rewrite K1. auto.
    - split; [split; auto | auto]. }
  eapply tri_weak; [exact REST|]. cbv beta. intros P32 u32 s32 ST FD. adv ST. exists v. split; auto. split; auto.
  intros val F SV X. kn val F SV X. constructor; auto. eapply Forall_impl; [|exact FD]. intros a Ka. apply Ka; auto.
Qed.

Lemma value_bits val e k : Value val (CUintBits (CDifference (CVar e) (CInt 1))) k -> forall n, val e = tvalue n ->
  exists w, k = BInt w /\ magnitude_bits (n - 1) w.
Proof.
  intros H n E. inversion H as [| | | | | | | | | | | | | | | | | | | | | | |? v w HD MB]; subst.
  inversion HD; subst. match goal with K : Value val (CVar e) _ |- _ => apply (value_var _ _ _ _ E) in K; subst end.
  match goal with K : Value val (CInt 1) _ |- _ => inversion K; subst end. eauto.
Qed.
Lemma value_diff val a b k : Value val (CDifference (CVar a) (CVar b)) k -> forall x y, val a = tvalue x -> val b = tvalue y -> k = BInt (x - y).
Proof.
  intros H x y A B. inversion H; subst.
  match goal with K : Value val (CVar a) _ |- _ => apply (value_var _ _ _ _ A) in K; subst end.
  match goal with K : Value val (CVar b) _ |- _ => apply (value_var _ _ _ _ B) in K; subst end. reflexivity.
Qed.

Lemma expr_ok : forall id k, (forall e, In e (kids k) -> vok e) -> (forall st, In st (stms k) -> sok st) -> vok (HX id k).
Proof.
  intros id k IH IS OK P s I GL FP. cbn [TypingModel.visit].
  go new_generic_ok. intros P31 self s31 ST [Pv Kv]. adv ST.
  go add_equation_ok. intros P32 u32 s32 ST FE. adv ST.
  assert (FINISH : forall (m : T unit), tri P32 s32 m (fun P' _ s' => know s' (fun val F => rule (tyof val F) (map val gl) k (val self))) ->
    tri P32 s32 m (fun P' _ s' => xdone (HX id k) P' s')).
  { intros m H. eapply tri_weak; [exact H|]. cbv beta. intros P33 u33 s33 ST K. adv ST. exists self. split; auto. split; auto.
    intros val F SV X. kn val F SV X. constructor; auto. eapply tyof_find; eauto. }
  apply FINISH. clear FINISH.
  destruct k as [x|z l|b|k| |l|a i|a f|a t|l|a c|a i|a from upto|ss r|c a b|c a b|a arms|op a b|op a|a|f tf args]; cbn [TypingSpec.ordinary kids stms forallb] in *.
  - go type_of_ok. intros P34 t s34 ST (A & B). adv ST. eqlast K1. intros val F SV X.
    pose proof (tyof_find val F _ _ _ B X) as TX. kn val F SV X. rewrite K1. constructor. auto.
  - go literal_type_ok. intros P34 t s34 ST [Pt Kt]. adv ST. eql K1. fin check_or_add_ok. intros P35 u35 s35 ST K2. adv ST.
    intros val F SV X. kn val F SV X. rewrite <- K1. constructor; auto.
  - go t_bool_ok. intros P34 t s34 ST [Pt Kt]. adv ST. eqlast K1. intros val F SV X. kn val F SV X. rewrite K1, Kt. constructor.
  - go new_number_ok. intros P34 [t n] s34 ST (A & B & K). cbn [fst snd] in *. adv ST. eql K1.
    go of_option_ok. intros P35 v s35 ST EV. adv ST. fin check_or_add_ok. intros P36 u36 s36 ST K2. adv ST.
    intros val F SV X. kn val F SV X. destruct K2 as (z & Z1 & Z2). rewrite <- K1. econstructor; [|exact Z2].
    rewrite nth_error_map, EV. cbn. congruence.
  - go t_bool_ok. intros P34 t s34 ST [Pt Kt]. adv ST. eqlast K1. intros val F SV X. kn val F SV X. rewrite <- K1, Kt. constructor.
  - go (each_visit l IH OK). intros P33 u33 s33 ST FD. adv ST.
    go (types_of_ok (fun q => KId (hid q)) xdone (fun val F => typed (tyof val F) (map val gl)) mono_xdone (fun a P s H => H) l).
    intros P34 ts s34 ST [FT KT]. adv ST. go new_known_ok. intros P35 t s35 ST [A K]. adv ST.
    eqlast K1. intros val F SV X. kn val F SV X. rewrite K1, K. constructor. exact KT.
  - vis (IH a (or_introl eq_refl) OK) va Ea Pa Ka. tyo. go resolved_ok. intros P36 x s36 ST HX. destruct x as [b ps|]; [|apply tri_fail].
    destruct HX as (KX & FX & _). adv ST. destruct b; try apply tri_fail.
    go of_option_ok. intros P37 uu s37 ST EU. adv ST.
    assert (Pu : P37 uu) by (rewrite Forall_forall in FX; apply FX; eapply nth_error_In; eauto).
    eqlast K1. intros val F SV X. kn val F SV X. rewrite KX in Ka. econstructor; [exact Ka|]. rewrite nth_error_map, EU. cbn. congruence.
  - vis (IH a (or_introl eq_refl) OK) va Ea Pa Ka. tyo. fin check_or_add_ok. intros P36 u36 s36 ST K2. adv ST.
    intros val F SV X. kn val F SV X. destruct K2 as (n & ps & members & spec & E1 & E2 & E3 & E4). rewrite E1 in Ka. econstructor; eauto.
  - vis (IH a (or_introl eq_refl) OK) va Ea Pa Ka. go spec_ok. intros P36 w s36 ST [Pw Kw]. adv ST. tyo. eql K1. eqlast K2.
    intros val F SV X. kn val F SV X. rewrite K2. constructor; auto. rewrite <- K1. auto.
  - go (each_visit l IH OK). intros P33 u33 s33 ST FD. adv ST.
    eapply tri_bind; [apply pairwise_ok; auto|]. cbv beta. intros P34 u34 s34 ST HP. 
    assert (FD1 := mono_xdones _ _ _ _ _ ST FD). 
    assert (HP' : forall a r, l = a :: r -> exists v, find (eqs s34) (KId (hid a)) = Some v /\ P34 v /\
       know s34 (fun val F => Forall (fun e => typed (tyof val F) (map val gl) e (val v)) l)).
    { intros a r E. rewrite E in FD. inversion FD as [|? ? (v & Ev & Pv' & _) _]; subst. exists v. 
      split; [eapply find_mono; eauto|]. split; [apply (st_P _ _ _ _ ST); auto | eapply HP; eauto]. }
    clear HP FD FD1. adv ST.
    eapply tri_bind with (Q := fun P' v s' => P' v /\ know s' (fun val F => Forall (fun e => typed (tyof val F) (map val gl) e (val v)) l)).
    { destruct l as [|a r].
      - fin new_generic_ok. intros P35 v s35 ST [A B]. adv ST. split; auto. intros val F SV X. constructor.
      - destruct (HP' a r eq_refl) as (v & Ev & Pv' & KV). fin (type_of_is P34 s34 (KId (hid a)) v).
        intros P35 w s35 ST ->. adv ST. auto. }
    cbv beta. intros P35 v s35 ST [Pw KW]. clear HP'. adv ST. go new_int_ok. intros P36 n s36 ST [Pn Kn]. adv ST.
    go new_known_ok. intros P37 t s37 ST [A K]. adv ST. eqlast K1. intros val F SV X. kn val F SV X. rewrite K1, K. cbn [map]. rewrite Kn.
    apply (r_array int_ uint_ bool_ clock_ arity structs heads (tyof val F) (map val gl) l (val v)). auto.
  - vis (IH a (or_introl eq_refl) OK) va Ea Pa Ka. tyo. go const_var_ok. intros P36 size s36 ST (Ps & Es & Ks). adv ST.
    go new_generic_ok. intros P37 uu s37 ST [Pu Ku]. adv ST. eql K1. go new_known_ok. intros P38 t s38 ST [A K]. adv ST. eqlast K2.
    intros val F SV X.
    destruct (ground_uint _ (s_ground _ _ SV uu) (Ku val F SV X)) as (n & N1 & N2).
    assert (SE : val size = tvalue n) by (rewrite (K1 val F SV X); exact N1).
    pose proof (const_int val F _ c size n Es X SE (Ks val F SV X)) as CI. kn val F SV X. rewrite K2, K. cbn [map]. rewrite SE.
    apply (r_repeat int_ uint_ bool_ clock_ arity structs heads (tyof val F) (map val gl) a c (val va) n); auto.
  - apply andb_true_iff in OK as [O1 O2]. apply andb_true_iff in O2 as [O2 _].
    vis (IH a (or_introl eq_refl) O1) va Ea Pa Ka. vis (IH i (or_intror (or_introl eq_refl)) O2) vi Ei Pi Ki.
    go new_generic_ok. intros P36 inner s36 ST [Pn Kn]. adv ST. eql K1. go new_generic_ok. intros P37 size s37 ST [Pz Kz]. adv ST.
    go new_sized_ok. intros P38 [it isz] s38 ST (A & B & K). cbn [fst snd] in *. adv ST.
    go constrain_ok; [repeat constructor; eapply pub_idok; eassumption|]. intros P39 u39 s39 ST KC. adv ST. tyo. eql K2.
    go new_known_ok. intros P40 arr s40 ST [Pr Kr]. adv ST. go check_or_add_ok. intros P41 u41 s41 ST KN. adv ST. tyo. eqlast K3.
    intros val F SV X.
    destruct (ground_uint _ (s_ground _ _ SV size) (Kz val F SV X)) as (n & N1 & N2). kn val F SV X.
    destruct KN as (y & Y1 & Y2). rewrite N1 in Y1. injection Y1 as <-.
    destruct KC as (k & V1 & V2). destruct (value_bits _ _ _ V1 n N1) as (w & -> & MB).
    destruct K as (m & M1 & M2 & M3). rewrite M1 in V2. injection V2 as ->.
    apply (r_index int_ uint_ bool_ clock_ arity structs heads (tyof val F) (map val gl) a i (val self) n w); auto.
    + replace (array (val self) n) with (val va); auto. rewrite K3, Kr. cbn [map]. rewrite N1. reflexivity.
    + lia.
    + rewrite <- M3, <- K2. auto.
  - vis (IH a (or_introl eq_refl) OK) va Ea Pa Ka.
    go new_generic_ok. intros P36 inner s36 ST [Pn Kn]. adv ST. go new_generic_ok. intros P37 isz s37 ST [Pz Kz]. adv ST.
    go new_known_ok. intros P38 it s38 ST [Pit Kit]. adv ST. go new_generic_ok. intros P39 osz s39 ST [Poz Koz]. adv ST.
    go new_known_ok. intros P40 ot s40 ST [Pot Kot]. adv ST.
    eapply tri_bind with (Q := fun P' v s' => P' v /\ know s' (fun val F => forall x, val v = tvalue x ->
      (forall c, from = Some c -> const_is (tyof val F) (map val gl) c (BInt x)) /\ (from = None -> x = 0%Z))).
    { destruct from as [c|].
      - fin const_var_ok. intros P41 v s41 ST (A & B & K). adv ST. split; auto. intros val F SV X x V. split; [|discriminate].
        intros c' E. injection E as <-. eapply const_int; eauto.
      - fin new_int_ok. intros P41 v s41 ST (A & K). adv ST. split; auto. intros val F SV X x V. kn val F SV X. split; [discriminate|].
        intros _. rewrite K in V. injection V. auto. }
    cbv beta. intros P41 vs s41 ST [Ps Ks]. adv ST.
    eapply tri_bind with (Q := fun P' v s' => P' v /\ know s' (fun val F => forall x, val v = tvalue x ->
      (forall c, upto = Some c -> const_is (tyof val F) (map val gl) c (BInt x)) /\ (upto = None -> val isz = tvalue x))).
    { destruct upto as [c|].
      - fin const_var_ok. intros P42 v s42 ST (A & B & K). adv ST. split; auto. intros val F SV X x V. split; [|discriminate].
        intros c' E. injection E as <-. eapply const_int; eauto.
      - done. split; auto. intros val F SV X x V. split; [discriminate|]. auto. }
    cbv beta. intros P42 ve s42 ST [Pe Ke]. adv ST.
    go constrain_ok; [repeat constructor; eapply pub_idok; eassumption|]. intros P43 u43 s43 ST KC. adv ST.
    go check_or_add_ok. intros P44 u44 s44 ST K1. adv ST. go check_or_add_ok. intros P45 u45 s45 ST K2. adv ST. eql K3. tyo. eqlast K4.
    intros val F SV X. kn val F SV X.
    destruct K1 as (x & y & X1 & Y1 & L1). destruct K2 as (y' & n & Y2 & N1 & L2). rewrite Y1 in Y2. injection Y2 as <-.
    destruct KC as (k & V1 & V2). pose proof (value_diff _ _ _ _ V1 _ _ Y1 X1) as ->.
    destruct (Ks _ X1) as [S1 S2]. destruct (Ke _ Y1) as [E1 E2].
    rewrite K3, Kot. cbn [map]. rewrite V2.
    apply (r_range int_ uint_ bool_ clock_ arity structs heads (tyof val F) (map val gl) a from upto (val inner) n x y); auto.
    + replace (array (val inner) n) with (val va); auto. rewrite K4, Kit. cbn [map]. rewrite N1. reflexivity.
    + intros U. specialize (E2 U). rewrite N1 in E2. injection E2. auto.
  - apply andb_true_iff in OK as [O1 O2].
    go (each_visit_stm ss IS O1). intros P36 u36 s36 ST KS. adv ST. destruct r as [e|].
    + vis (IH e (or_introl eq_refl) O2) va Ea Pa Ka. tyo. eqlast K1. intros val F SV X. kn val F SV X. rewrite K1.
      constructor; auto; [intros e' E; injection E as <-; auto | discriminate].
    + go new_unit_ok. intros P37 t s37 ST [A K]. adv ST. eqlast K1. intros val F SV X. kn val F SV X. rewrite K1, K.
      constructor; auto. discriminate.
  - apply andb_true_iff in OK as [O1 O2]. apply andb_true_iff in O2 as [O2 O3]. apply andb_true_iff in O3 as [O3 _].
    vis (IH c (or_introl eq_refl) O1) vc Ec Pc Kc. vis (IH a (or_intror (or_introl eq_refl)) O2) va Ea Pa Ka.
    vis (IH b (or_intror (or_intror (or_introl eq_refl))) O3) vb Eb Pb Kb. tyo. go t_bool_ok. intros P40 t s40 ST [Pt Kt]. adv ST.
    eql K1. tyo. tyo. eql K2. eqlast K3. intros val F SV X. kn val F SV X. constructor.
    + rewrite <- Kt, <- K1. auto.
    + rewrite K3, K2. auto.
    + rewrite K3. auto.
  - apply andb_true_iff in OK as [O1 O2]. apply andb_true_iff in O2 as [O2 _].
    go const_var_ok. intros P36 v s36 ST (Ps & Es & Ks). adv ST. go new_generic_ok. intros P37 t s37 ST [Pt Kt]. adv ST. eql K1.
    vis (IH a (or_introl eq_refl) O1) va Ea Pa Ka. vis (IH b (or_intror (or_introl eq_refl)) O2) vb Eb Pb Kb. tyo. tyo. eql K2. eqlast K3.
    intros val F SV X. destruct (ground_bool _ (s_ground _ _ SV t) (Kt val F SV X)) as (bb & B1).
    pose proof (tyof_find val F _ _ _ Es X) as TX. kn val F SV X. destruct Ks as (b0 & V1 & V2).
    assert (b0 = BBool bb) as -> by (rewrite K1, B1 in V1; injection V1; auto).
    econstructor; [split; [rewrite TX, V1; reflexivity | exact V2]| |]; [rewrite K2 | rewrite K3]; auto.
  - apply andb_true_iff in OK as [O1 O2]. vis (IH a (or_introl eq_refl) O1) va Ea Pa Ka. tyo.
    destruct arms as [|[[p0 g0] first] r]; [apply tri_fail|].
    eapply tri_bind; [apply (arms_ok first va ((p0, g0, first) :: r)); auto; [eauto | intros e H; apply IH; right; exact H]|].
    cbv beta. intros P40 u40 s40 ST (v & E & Pw & K). adv ST. tyo. eqlast K1. intros val F SV X. kn val F SV X.
    econstructor; [exact Ka | discriminate | rewrite <- K1; exact K].
  - apply andb_true_iff in OK as [O1 O2]. apply andb_true_iff in O2 as [O2 _].
    vis (IH a (or_introl eq_refl) O1) va Ea Pa Ka. vis (IH b (or_intror (or_introl eq_refl)) O2) vb Eb Pb Kb. tyo. tyo.
    fin binary_ok. intros P40 u40 s40 ST K. adv ST. intros val F SV X. kn val F SV X.
    destruct op; cbn [bin_rule] in K;
      first [ destruct K as (base & m & n & A1 & A2 & A3 & A4 & A5); rewrite A1 in Ka; rewrite A2 in Kb; eapply r_mul; eassumption
            | destruct K as (base & n & A1 & A2 & A3 & A4); rewrite A1 in Ka; rewrite A2 in Kb; eapply r_add; [|eassumption..]; auto
            | destruct K as (base & n & A1 & A2 & A3); rewrite A1 in Ka; rewrite A2 in Kb; eapply r_same; try eassumption; discriminate ].
  - vis (IH a (or_introl eq_refl) OK) va Ea Pa Ka. tyo. fin unary_ok. intros P40 u40 s40 ST K. adv ST.
    intros val F SV X. kn val F SV X. destruct op; cbn [un_rule] in K.
    + destruct K as (n & A1 & A2 & A3). rewrite A2 in Ka. rewrite A3. constructor; auto.
    + destruct K as (A1 & A2). rewrite A1 in Ka. rewrite A2. constructor; auto.
    + destruct K as (b & n & A1 & A2). rewrite A1 in Ka. econstructor; eauto.
  - vis (IH a (or_introl eq_refl) OK) va Ea Pa Ka. go new_generic_ok. intros P36 inner s36 ST [Pn Kn]. adv ST.
    go new_known_ok. intros P37 t s37 ST [A K]. adv ST. eql K1. tyo. eqlast K2. intros val F SV X. kn val F SV X.
    rewrite K1, K. cbn [map]. rewrite <- K2. constructor. auto.
  - apply andb_true_iff in OK as [O1 O2]. go of_option_ok. intros P36 h s36 ST EH. adv ST.
    pose proof (heads_ok f h EH) as (HB & HB2 & HB3 & HB4).
    assert (BO : bounds_ok (hd_metas h) (hd_bounds h)).
    { split; [intros T N H; destruct (HB T N H) as (X1 & X2 & _); auto | auto]. }
    assert (CASE : tf = None \/ hd_bounds h = []).
    { unfold no_bypass in O1. rewrite EH in O1. destruct tf; auto. destruct (hd_bounds h); auto. discriminate. }
    go generic_list_ok. intros P37 cl s37 ST (GC & PU & KI).
    assert (CB : callable h cl P37).
    { split; [|split].
      - apply Forall_forall. intros t IN k v M N. eapply PU; eauto. intros T H. destruct (HB T k H) as (_ & _ & X & _).
        rewrite Forall_forall in X. rewrite (X t IN) in M. discriminate.
      - intros t E k v M N. eapply PU; eauto. intros T H. destruct (HB T k H) as (_ & _ & _ & X). rewrite (X t E) in M. discriminate.
      - intros SP. rewrite (HB4 SP) in PU. apply Forall_forall. intros v IN. apply In_nth_error in IN as (k & N). eapply PU; eauto. }
    clear PU. adv ST.
    go (each_visit args IH O2). intros P38 u38 s38 ST FD. apply (mono_callable _ _ _ _ _ _ ST) in CB. adv ST.
    eapply tri_bind; [apply special_rule_ok; [assumption | apply CB]|]. cbv beta. intros P39 u39 s39 ST KS.
    apply (mono_callable _ _ _ _ _ _ ST) in CB. apply (mono_xdones _ _ _ _ _ ST) in FD. adv ST.
    eapply tri_bind; [apply check_args_ok; auto|]. cbv beta. intros P40 u40 s40 ST KA.
    apply (mono_callable _ _ _ _ _ _ ST) in CB. clear FD. adv ST.
    eapply tri_bind with (Q := fun P' v s' => P' v /\ know s' (fun val _ => match hd_ret h with Some r => means (map val cl) r (val v) | None => val v = TK BTuple [] end)).
    { destruct (hd_ret h) as [t|] eqn:ER.
      - destruct CB as (_ & CB & _). apply spec_var_ok; auto.
      - apply new_unit_ok; auto. }
    cbv beta. intros P41 v s41 ST [Pr Kr]. clear CB. adv ST. eqlast K1. intros val F SV X. kn val F SV X.
    destruct KI as (I1 & I2 & I3), KA as (ts & A1 & A2). 
    apply (r_call int_ uint_ bool_ clock_ arity structs heads (tyof val F) (map val gl) f tf args h (map val cl) ts); auto.
    rewrite K1. exact Kr.
Qed.

Lemma visit_ok e : vok e.
Proof. exact (hx_rec' vok sok expr_ok stm_ok e). Qed.
End Body.

(** *** Units *)
Lemma completes_sol s val : completes num int_ uint_ arity structs s val -> Sol s val.
Proof.
  intros [A B D E F H K]. constructor; auto. split; [split|].
  - intros k r X. induction X; auto. rewrite <- IHX. eauto.
  - intros i [b ps|trs m] N L; cbn.
    + eauto.
    + split; [eapply E; eauto|]. intros z ->. eapply F; eauto.
  - intros v e IN. destruct (H v e IN) as (k & V1 & V2). exists k. auto.
Qed.
Lemma visit_unit_ok u : ordinary (no_bypass heads) no_declared_at (hu_body u) = true ->
  tri (fun _ => False) start (visit_unit C fuel num int_ uint_ bool_ clock_ arity structs heads u) (fun P' gl s' =>
    know s' (fun val F => well_typed int_ uint_ bool_ clock_ arity structs heads (tyof val F) (map val gl) u)).
Proof.
  intros OK.
  assert (I : Inv (fun _ => False) start).
  { constructor; [apply G_start; auto | intros k v H; discriminate | constructor]. }
  unfold visit_unit. go generic_list_ok.
  { constructor. } { split; [intros T N []|]. split; constructor. }
  intros P1 gl s1 ST (GL & PU & KI).
  assert (FP : Forall P1 gl).
  { apply Forall_forall. intros v H. apply In_nth_error in H as (j & H). eapply PU; eauto. } clear PU. adv ST.
  set (BODY := fun i : nat * tspec => do t <- spec_var arity gl (snd i); add_equation (KName (fst i)) t).
  assert (IN : tri P1 s1 (each BODY (hu_inputs u)) (fun P' _ s' => know s' (fun val F =>
     Forall (fun i => exists t, tyof val F (KName (fst i)) = Some t /\ means (map val gl) (snd i) t) (hu_inputs u)))).
  { eapply tri_weak; [apply (each_ok (scope gl) (fun i P' s' => know s' (fun val F => exists t, tyof val F (KName (fst i)) = Some t /\ means (map val gl) (snd i) t))); auto; [apply mono_scope | | | split; auto]|].
    - intros a. apply mono_know.
    - intros P2 s2 a _ I2 [G2 F2]. unfold BODY. go spec_ok. intros P3 v s3 ST [Pv Kv]. adv ST. fin add_equation_ok. intros P4 u4 s4 ST E. adv ST.
      intros val F SV X. pose proof (tyof_find val F _ _ _ E X) as TX. kn val F SV X. exists (val v). auto.
    - cbv beta. intros P2 u2 s2 ST H val F SV X. eapply Forall_impl; [|exact H]. intros a Ka. apply Ka; auto. }
  go IN. intros P2 u2 s2 ST KN. clear IN. adv ST.
  go (visit_ok (hu_metas u) gl (hu_body u) OK). intros P3 u3 s3 ST (v & E & Pv & K). adv ST.
  eapply tri_bind with (Q := fun P' w s' => P' w /\ know s' (fun val _ => match hu_output u with Some o => means (map val gl) o (val w) | None => val w = TK BTuple [] end)).
  { destruct (hu_output u) as [o|]; [apply spec_ok; auto | apply new_unit_ok; auto]. }
  cbv beta. intros P4 w s4 ST [Pw Kw]. adv ST.
  go (type_of_is P4 s4 (KId (hid (hu_body u))) v). intros P5 w' s5 ST ->. adv ST. go equal_ok. intros P6 u6 s6 ST K6. adv ST.
  go check_requirements_ok. intros P7 u7 s7 ST _. adv ST. done. intros val F SV X. kn val F SV X. destruct KI as (KI & _).
  split; auto. split; auto. exists (val v). split; auto. rewrite K6. exact Kw.
Qed.

Theorem typecheck_ok u gl s val : ordinary (no_bypass heads) no_declared_at (hu_body u) = true ->
  typecheck C fuel num int_ uint_ bool_ clock_ arity structs heads u = Some (gl, s) ->
  completes num int_ uint_ arity structs s val ->
  well_typed int_ uint_ bool_ clock_ arity structs heads (recorded s val) (map val gl) u.
Proof.
  intros OK H CO. destruct (visit_unit_ok u OK gl s H) as (P' & ST & K).
  specialize (K val (eqs s) (completes_sol _ _ CO) (fun k v X => X)). cbv beta in K.
  exact K.
Qed.
End Context.
