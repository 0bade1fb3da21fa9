(** From the typing rules to what lowering assumes. *)
From Coq Require Import List ZArith Bool Arith String Lia.
From Verif Require Import InferModel InferSpec InferCons TypingModel TypingSpec TypingProofs ElabModel ElabSpec BitsFacts.
From Verif Require PatModel PatSpec LowerModel LowerSpec ExprModel ExprSpec ExprProofs CodegenModel.
Import ListNotations.
Local Open Scope list_scope.

(** ** Lists *)
Lemma all_inv {A B} (f : A -> option B) : forall l q, all f l = Some q -> Forall2 (fun a b => f a = Some b) l q.
Proof.
  induction l as [|a l IH]; intros q H; cbn in H.
  - apply Some_inj in H. subst. constructor.
  - destruct (f a) as [b|] eqn:E; [|discriminate]. destruct (all f l) as [r|]; [|discriminate].
    apply Some_inj in H. subst. constructor; auto.
Qed.
Lemma all_intro {A B} (f : A -> option B) l q : Forall2 (fun a b => f a = Some b) l q -> all f l = Some q.
Proof. induction 1 as [|a b l q E F IH]; cbn; [reflexivity|]. rewrite E, IH. reflexivity. Qed.
Lemma all_mono {A B} (f g : A -> option B) : (forall a b, f a = Some b -> g a = Some b) ->
  forall l q, all f l = Some q -> all g l = Some q.
Proof. intros H l q E. apply all_intro. apply all_inv in E. induction E; constructor; auto. Qed.
Lemma as_type_inv o t : as_type o = Some t -> o = Some (CT t).
Proof. destruct o as [[]|]; cbn; try discriminate. intros H. apply Some_inj in H. subst. reflexivity. Qed.
Lemma as_size_inv o n : as_size o = Some n -> o = Some (CN (Z.of_nat n)).
Proof.
  destruct o as [[]|]; cbn; try discriminate. destruct (Z.leb_spec 0 z); [|discriminate]. intros E.
  apply Some_inj in E. subst. rewrite Z2Nat.id by assumption. reflexivity.
Qed.
Lemma as_size_nat n : as_size (Some (CN (Z.of_nat n))) = Some n.
Proof. cbn. destruct (Z.leb_spec 0 (Z.of_nat n)); [|lia]. rewrite Nat2Z.id. reflexivity. Qed.
Lemma map_some {A B} (f : A -> B) o b : option_map f o = Some b -> exists a, o = Some a /\ b = f a.
Proof. destruct o as [a|]; cbn; [|discriminate]. intros H. apply Some_inj in H. eauto. Qed.

Lemma Forall2_weaken {A B} (P Q : A -> B -> Prop) : (forall a b, P a b -> Q a b) -> forall l m, Forall2 P l m -> Forall2 Q l m.
Proof. intros H l m F. induction F; constructor; auto. Qed.

Section Conc.
Variable decls : nat -> option (nat * decl).
Notation spec_conc := (spec_conc decls).
Notation conc_of := (conc_of decls).
Notation decl_conc := (decl_conc decls).

Lemma decl_mono (f g : list conc -> tspec -> option conc) d ps c :
  (forall ps s c, f ps s = Some c -> g ps s = Some c) -> decl_conc f d ps = Some c -> decl_conc g d ps = Some c.
Proof.
  intros M. unfold ElabModel.decl_conc. destruct (decls d) as [[k [p|ms|os]]|]; auto; destruct (List.length ps =? k); auto; intros H.
  - apply map_some in H as (q & E & ->).
    assert (X : all (fun m => as_type (g ps (snd m))) ms = Some q).
    { apply (all_mono (fun m => as_type (f ps (snd m)))); [|exact E]. intros a b K. apply as_type_inv in K. rewrite (M _ _ _ K). reflexivity. }
    rewrite X. reflexivity.
  - apply map_some in H as (q & E & ->).
    assert (X : all (all (fun s => as_type (g ps s))) os = Some q).
    { apply (all_mono (all (fun s => as_type (f ps s)))); [|exact E]. intros a b K.
      apply (all_mono (fun s => as_type (f ps s))); [|exact K]. intros a' b' K'. apply as_type_inv in K'. rewrite (M _ _ _ K'). reflexivity. }
    rewrite X. reflexivity.
Qed.
Lemma spec_step : forall f ps s c, spec_conc f ps s = Some c -> spec_conc (S f) ps s = Some c.
Proof.
  induction f as [|f IH]; intros ps s c H; [discriminate|]. destruct s; try exact H.
  - cbn [ElabModel.spec_conc] in H. destruct (all (spec_conc f ps) l) as [qs|] eqn:E; [|discriminate].
    apply map_some in H as (t & D & ->).
    assert (E' : all (spec_conc (S f) ps) l = Some qs) by (apply (all_mono (spec_conc f ps)); auto).
    change (spec_conc (S (S f)) ps (TSNamed n l)) with
      (match all (spec_conc (S f) ps) l with Some qs => option_map CT (decl_conc (spec_conc (S f)) n qs) | None => None end).
    rewrite E'. rewrite (decl_mono (spec_conc f) (spec_conc (S f)) n qs t); auto.
  - cbn [ElabModel.spec_conc] in H. apply map_some in H as (q & E & ->).
    change (spec_conc (S (S f)) ps (TSTuple l)) with
      (option_map (fun q => CT (PatModel.CTuple q)) (all (fun s => as_type (spec_conc (S f) ps s)) l)).
    rewrite (all_mono (fun s => as_type (spec_conc f ps s)) (fun s => as_type (spec_conc (S f) ps s))) with (q := q); auto.
    intros a b K. apply as_type_inv in K. rewrite (IH _ _ _ K). reflexivity.
  - cbn [ElabModel.spec_conc] in H. destruct (as_type (spec_conc f ps s1)) as [t|] eqn:E1; [|discriminate].
    destruct (as_size (spec_conc f ps s2)) as [k|] eqn:E2; [|discriminate].
    change (spec_conc (S (S f)) ps (TSArray s1 s2)) with
      (match as_type (spec_conc (S f) ps s1), as_size (spec_conc (S f) ps s2) with Some t, Some k => Some (CT (PatModel.CArray t k)) | _, _ => None end).
    apply as_type_inv in E1. apply as_size_inv in E2. rewrite (IH _ _ _ E1), (IH _ _ _ E2), as_size_nat. exact H.
Qed.
Lemma spec_mono f g ps s c : f <= g -> spec_conc f ps s = Some c -> spec_conc g ps s = Some c.
Proof. induction 1; auto. intros H'. apply spec_step. auto. Qed.
Lemma conc_step : forall f t c, conc_of f t = Some c -> conc_of (S f) t = Some c.
Proof.
  induction f as [|f IH]; intros t c H; [discriminate|]. destruct t as [b l|]; [|discriminate]. destruct b as [name|z0|q0|q0| | | | |]; try exact H.
  - cbn [ElabModel.conc_of] in H. destruct (all (conc_of f) l) as [qs|] eqn:E; [|discriminate].
    apply map_some in H as (t & D & ->).
    change (conc_of (S (S f)) (TK (BNamed name) l)) with
      (match all (conc_of (S f)) l with Some qs => option_map CT (decl_conc (spec_conc (S f)) name qs) | None => None end).
    rewrite (all_mono (conc_of f) (conc_of (S f)) IH l qs E).
    rewrite (decl_mono (spec_conc f) (spec_conc (S f)) name qs t); auto. intros. apply spec_step. assumption.
  - cbn [ElabModel.conc_of] in H. apply map_some in H as (q & E & ->).
    change (conc_of (S (S f)) (TK BTuple l)) with
      (option_map (fun q => CT (PatModel.CTuple q)) (all (fun s => as_type (conc_of (S f) s)) l)).
    rewrite (all_mono (fun s => as_type (conc_of f s)) (fun s => as_type (conc_of (S f) s))) with (q := q); auto.
    intros a b K. apply as_type_inv in K. rewrite (IH _ _ K). reflexivity.
  - destruct l as [|a [|n [|]]]; try discriminate. cbn [ElabModel.conc_of] in H.
    destruct (as_type (conc_of f a)) as [t|] eqn:E1; [|discriminate].
    destruct (as_size (conc_of f n)) as [k|] eqn:E2; [|discriminate].
    change (conc_of (S (S f)) (TK BArray [a; n])) with
      (match as_type (conc_of (S f) a), as_size (conc_of (S f) n) with Some t, Some k => Some (CT (PatModel.CArray t k)) | _, _ => None end).
    apply as_type_inv in E1. apply as_size_inv in E2. rewrite (IH _ _ E1), (IH _ _ E2), as_size_nat. exact H.
Qed.
Lemma conc_mono f g t c : f <= g -> conc_of f t = Some c -> conc_of g t = Some c.
Proof. induction 1; auto. intros H'. apply conc_step. auto. Qed.
Lemma conc_det f g t c d : conc_of f t = Some c -> conc_of g t = Some d -> c = d.
Proof.
  intros A B. apply (conc_mono f (Nat.max f g)) in A; [|lia]. apply (conc_mono g (Nat.max f g)) in B; [|lia].
  rewrite A in B. apply Some_inj in B. auto.
Qed.

(** some amount of fuel does *)
Definition is_conc (t : ty) (c : conc) : Prop := exists f, conc_of f t = Some c.
Lemma is_conc_det t c d : is_conc t c -> is_conc t d -> c = d.
Proof. intros [f A] [g B]. eapply conc_det; eauto. Qed.
Lemma is_conc_list ts cs : Forall2 is_conc ts cs -> exists f, Forall2 (fun t c => conc_of f t = Some c) ts cs.
Proof.
  induction 1 as [|t c ts cs [f A] F [g IH]]; [exists 0; constructor|]. exists (Nat.max f g). constructor.
  - eapply conc_mono; [|exact A]. lia.
  - eapply Forall2_weaken; [|exact IH]. cbv beta. intros a b. apply conc_mono. lia.
Qed.

Lemma tspec_ind' (P : tspec -> Prop) :
  (forall z, P (TSInt z)) -> (forall b, P (TSBool b)) -> (forall s, P (TSStr s)) -> (forall e, P (TSConst e)) ->
  (forall n l, Forall P l -> P (TSNamed n l)) -> (forall k, P (TSGeneric k)) -> (forall l, Forall P l -> P (TSTuple l)) ->
  (forall a b, P a -> P b -> P (TSArray a b)) -> (forall a, P a -> P (TSInverted a)) -> (forall a, P a -> P (TSCopyView a)) ->
  P TSWildcard -> forall s, P s.
Proof.
  intros H1 H2 H3 H4 H5 H6 H7 H8 H9 H10 H11. fix IH 1. intros [z|b|s|e|n l|k|l|a b|a|a|].
  - apply H1. - apply H2. - apply H3. - apply H4.
  - apply H5. induction l as [|a l IHl]; constructor; [apply IH | exact IHl].
  - apply H6.
  - apply H7. induction l as [|a l IHl]; constructor; [apply IH | exact IHl].
  - apply H8; apply IH. - apply H9; apply IH. - apply H10; apply IH. - exact H11.
Qed.

Variable arity : nat -> nat.
Notation means := (means arity).
Lemma means_conc ps cs : Forall2 is_conc ps cs -> forall f s c t,
  spec_conc f cs s = Some c -> means ps s t -> is_conc t c.
Proof.
  intros FP. induction f as [|f IH]; intros s c t H M; [discriminate|]. destruct M; cbn [ElabModel.spec_conc] in H; try discriminate.
  - exists 1. exact H.
  - exists 1. exact H.
  - exists 1. exact H.
  - destruct (all (spec_conc f cs) l) as [qs|] eqn:E; [|discriminate]. apply map_some in H as (d & D & ->).
    apply all_inv in E. assert (F : Forall2 is_conc ts qs).
    { clear - IH E H1. revert qs E. induction H1 as [|s t l ts M F IHF]; intros qs E; inversion E; subst; constructor; eauto. }
    apply is_conc_list in F as [g F]. exists (S (Nat.max f g)). cbn [ElabModel.conc_of].
    rewrite (all_intro (conc_of (Nat.max f g)) ts qs).
    + rewrite (decl_mono (spec_conc f) (spec_conc (Nat.max f g)) n qs d); auto. intros ps' s' c'. apply spec_mono. lia.
    + eapply Forall2_weaken; [|exact F]. cbv beta. intros a b. apply conc_mono. lia.
  - clear - FP H H0. revert cs FP H. revert k H0. induction ps as [|p ps IHp]; intros k E cs FP H; [destruct k; discriminate|].
    inversion FP; subst. destruct k as [|k]; cbn in *.
    + apply Some_inj in E, H. subst. assumption.
    + eapply IHp; eauto.
  - apply map_some in H as (q & E & ->). apply all_inv in E.
    assert (F : Forall2 is_conc ts (map CT q)).
    { clear - IH E H0. revert q E. induction H0 as [|s t l ts M F IHF]; intros qs E; inversion E; subst; constructor; eauto.
      apply as_type_inv in H1. eauto. }
    apply is_conc_list in F as [g F]. exists (S g). cbn [ElabModel.conc_of].
    rewrite (all_intro (fun s => as_type (conc_of g s)) ts q); [reflexivity|].
    clear - F. revert q F. induction ts as [|t ts IHt]; intros [|c q] F; inversion F; subst; constructor; auto. rewrite H2. reflexivity.
  - destruct (as_type (spec_conc f cs a)) as [u|] eqn:E1; [|discriminate].
    destruct (as_size (spec_conc f cs n)) as [k|] eqn:E2; [|discriminate]. apply Some_inj in H. subst c.
    apply as_type_inv in E1. apply as_size_inv in E2. destruct (IH _ _ _ E1 M1) as [g1 A]. destruct (IH _ _ _ E2 M2) as [g2 B].
    exists (S (Nat.max g1 g2)). cbn [ElabModel.conc_of].
    rewrite (conc_mono g1 (Nat.max g1 g2) _ _ ltac:(lia) A), (conc_mono g2 (Nat.max g1 g2) _ _ ltac:(lia) B), as_size_nat. reflexivity.
Qed.
Lemma means_det ps : forall s, explicit s = true -> forall t u, means ps s t -> means ps s u -> t = u.
Proof.
  assert (LIST : forall l, Forall (fun s => explicit s = true -> forall t u, means ps s t -> means ps s u -> t = u) l -> forallb explicit l = true ->
     forall ts us, Forall2 (means ps) l ts -> Forall2 (means ps) l us -> ts = us).
  { intros l F E ts us A. revert us. induction A as [|s t l ts M A IHA]; intros us B; inversion B; subst; [reflexivity|].
    inversion F; subst. cbn in E. apply andb_true_iff in E as [E1 E2]. f_equal; auto. }
  induction s using tspec_ind'; intros E t u A B; inversion A; subst; inversion B; subst; try reflexivity; cbn [explicit] in E.
  - f_equal. eapply value_det; eauto.
  - f_equal. eapply LIST; eauto.
  - congruence.
  - f_equal. eapply LIST; eauto.
  - apply andb_true_iff in E as [E1 E2]. rewrite (IHs1 E1 t0 t), (IHs2 E2 s s0); auto.
  - rewrite (IHs E t0 t); auto.
  - rewrite (IHs E t0 t); auto.
  - discriminate.
Qed.
End Conc.

Section Program.
Variables int_ uint_ bool_ clock_ : nat.
Variable arity : nat -> nat.
Variable structs : nat -> option struct_.
Variable heads : nat -> option head.
Variable decls : nat -> option (nat * decl).
Variable member_name : nat -> string.
Variable callee_of : nat -> option ExprModel.callee.
Variable units : list hunit.
Hypothesis D : declared int_ uint_ bool_ clock_ decls structs heads member_name callee_of units.
Notation is_conc := (is_conc decls).
Notation means := (means arity).

(** *** What concrete types look like *)
Lemma conc_named d ps c : is_conc (TK (BNamed d) ps) c -> exists cs f t, Forall2 is_conc ps cs /\ c = CT t /\ decl_conc decls (spec_conc decls f) d cs = Some t.
Proof.
  intros [[|f] H]; [discriminate|]. cbn [conc_of] in H. destruct (all (conc_of decls f) ps) as [cs|] eqn:E; [|discriminate].
  apply map_some in H as (t & A & ->). exists cs, f, t. split; auto. apply all_inv in E. eapply Forall2_weaken; [|exact E].
  intros a b X. exists f. exact X.
Qed.
Lemma conc_tuple ts c : is_conc (TK BTuple ts) (CT c) -> exists q, c = PatModel.CTuple q /\ Forall2 (fun t x => is_conc t (CT x)) ts q.
Proof.
  intros [[|f] H]; [discriminate|]. cbn [conc_of] in H. apply map_some in H as (q & E & X). injection X as ->. exists q. split; auto.
  apply all_inv in E. eapply Forall2_weaken; [|exact E]. intros a b X. apply as_type_inv in X. exists f. exact X.
Qed.
Lemma conc_value z c : is_conc (tvalue z) c -> c = CN z.
Proof. intros [[|f] H]; [discriminate|]. cbn in H. apply Some_inj in H. auto. Qed.
Lemma conc_array t s c : is_conc (TK BArray [t; s]) (CT c) -> exists e k, c = PatModel.CArray e k /\ is_conc t (CT e) /\ is_conc s (CN (Z.of_nat k)).
Proof.
  intros [[|f] H]; [discriminate|]. cbn [conc_of] in H.
  destruct (as_type (conc_of decls f t)) as [e|] eqn:E1; [|discriminate]. destruct (as_size (conc_of decls f s)) as [k|] eqn:E2; [|discriminate].
  injection H as <-. apply as_type_inv in E1. apply as_size_inv in E2. exists e, k. split; auto. split; exists f; auto.
Qed.
Lemma conc_sized_array t n c : is_conc (array t n) (CT c) -> exists e k, c = PatModel.CArray e k /\ is_conc t (CT e) /\ n = Z.of_nat k.
Proof.
  intros H. apply conc_array in H as (e & k & -> & A & B). exists e, k. split; auto. split; auto.
  apply conc_value in B. injection B as ->. reflexivity.
Qed.
Lemma conc_int n c : is_conc (sized int_ n) (CT c) -> exists k, n = Z.of_nat k /\ c = PatModel.CInt k.
Proof.
  intros H. apply conc_named in H as (cs & f & t & F & E & H). injection E as <-. unfold decl_conc in H. rewrite (de_int _ _ _ _ _ _ _ _ _ _ D) in H.
  inversion F as [|? x ? r X R]; subst. inversion R; subst. apply conc_value in X. subst x. cbn in H.
  destruct (Z.leb_spec 0 n); [|discriminate]. cbn in H. apply Some_inj in H. subst. exists (Z.to_nat n). split; auto. rewrite Z2Nat.id; auto.
Qed.
Lemma conc_uint n c : is_conc (sized uint_ n) (CT c) -> exists k, n = Z.of_nat k /\ c = PatModel.CUint k.
Proof.
  intros H. apply conc_named in H as (cs & f & t & F & E & H). injection E as <-. unfold decl_conc in H. rewrite (de_uint _ _ _ _ _ _ _ _ _ _ D) in H.
  inversion F as [|? x ? r X R]; subst. inversion R; subst. apply conc_value in X. subst x. cbn in H.
  destruct (Z.leb_spec 0 n); [|discriminate]. cbn in H. apply Some_inj in H. subst. exists (Z.to_nat n). split; auto. rewrite Z2Nat.id; auto.
Qed.
Lemma conc_bool c : is_conc (named bool_) (CT c) -> c = PatModel.CBool.
Proof.
  intros H. apply conc_named in H as (cs & f & t & F & E & H). injection E as <-. unfold decl_conc in H. rewrite (de_bool _ _ _ _ _ _ _ _ _ _ D) in H.
  inversion F; subst. cbn in H. apply Some_inj in H. auto.
Qed.
Lemma conc_clock c : is_conc (named clock_) (CT c) -> c = PatModel.CBool.
Proof.
  intros H. apply conc_named in H as (cs & f & t & F & E & H). injection E as <-. unfold decl_conc in H. rewrite (de_clock _ _ _ _ _ _ _ _ _ _ D) in H.
  inversion F; subst. cbn in H. apply Some_inj in H. auto.
Qed.
Lemma conc_struct d ps k ms c : decls d = Some (k, DStruct ms) -> is_conc (TK (BNamed d) ps) (CT c) ->
  exists cs f q, Forall2 is_conc ps cs /\ c = PatModel.CStruct q /\ Forall2 (fun m x => spec_conc decls f cs (snd m) = Some (CT x)) ms q.
Proof.
  intros E H. apply conc_named in H as (cs & f & t & F & X & H). injection X as <-. unfold decl_conc in H. rewrite E in H.
  destruct (List.length cs =? k); [|discriminate]. apply map_some in H as (q & A & ->). exists cs, f, q. split; auto. split; auto.
  apply all_inv in A. eapply Forall2_weaken; [|exact A]. intros a b. apply as_type_inv.
Qed.
Lemma conc_enum d ps k os c : decls d = Some (k, DEnum os) -> is_conc (TK (BNamed d) ps) (CT c) ->
  exists cs f q, Forall2 is_conc ps cs /\ c = PatModel.CEnum q /\ Forall2 (Forall2 (fun s x => spec_conc decls f cs s = Some (CT x))) os q.
Proof.
  intros E H. apply conc_named in H as (cs & f & t & F & X & H). injection X as <-. unfold decl_conc in H. rewrite E in H.
  destruct (List.length cs =? k); [|discriminate]. apply map_some in H as (q & A & ->). exists cs, f, q. split; auto. split; auto.
  apply all_inv in A. eapply Forall2_weaken; [|exact A]. intros a b X. apply all_inv in X. eapply Forall2_weaken; [|exact X]. intros a' b'. apply as_type_inv.
Qed.
Lemma conc_is_number t b n c : is_number int_ uint_ t b n -> is_conc t (CT c) ->
  exists k, n = Z.of_nat k /\ (b = int_ /\ c = PatModel.CInt k \/ b = uint_ /\ c = PatModel.CUint k).
Proof.
  intros ([-> | ->] & N & ->) H.
  - apply conc_int in H as (k & -> & ->). eauto 6.
  - apply conc_uint in H as (k & -> & ->). eauto 6.
Qed.
Lemma distinct_numbers : int_ <> uint_.
Proof. intros E. pose proof (de_int _ _ _ _ _ _ _ _ _ _ D) as A. pose proof (de_uint _ _ _ _ _ _ _ _ _ _ D) as B. rewrite E in A. rewrite A in B. discriminate. Qed.
Lemma literal_conc z t c : literal int_ uint_ z t -> is_conc t (CT c) -> positive c ->
  PatSpec.has_type c (PatSpec.VInt z) /\ exists n, ExprSpec.number c n.
Proof.
  intros (b & n & N & _ & R) H P. destruct (conc_is_number _ _ _ _ N H) as (k & -> & [(-> & ->)|(-> & ->)]); inversion P; subst.
  - split; [|exists k; split; auto]. destruct k as [|k]; [lia|]. constructor.
    assert (B : (0 < 2 ^ Z.of_nat k)%Z) by (apply Z.pow_pos_nonneg; lia).
    unfold in_range in R. replace (Z.of_nat (S k) - 1)%Z with (Z.of_nat k) in R by lia.
    destruct R as [-> | [(_ & R)|[(E & R)|(_ & E & _)]]]; try lia. destruct (distinct_numbers E).
  - split; [|exists k; split; auto]. constructor.
    assert (B : (0 < 2 ^ Z.of_nat k)%Z) by (apply Z.pow_pos_nonneg; lia).
    destruct R as [-> | [(E & R)|[(_ & R)|(E & _)]]]; try lia; destruct (distinct_numbers (eq_sym E)).
Qed.

(** the arguments of a constructor *)
Lemma self_params gs d ts t k : List.length gs = k -> means gs (self_spec d k) t -> t = TK (BNamed d) ts -> ts = gs.
Proof.
  intros L M ->. inversion M as [| | | |n l us A F| | | | | |]; subst. clear - F. revert F.
  assert (X : forall pre post vs, Forall2 (means (pre ++ post)) (map TSGeneric (seq (List.length pre) (List.length post))) vs -> vs = post).
  { intros pre post. revert pre. induction post as [|a post IH]; intros pre vs F; cbn in F; inversion F; subst; [reflexivity|].
    inversion H1; subst. rewrite nth_error_app2 in H0 by lia. rewrite Nat.sub_diag in H0. cbn in H0. apply Some_inj in H0. subst. f_equal.
    apply (IH (pre ++ [y])). rewrite <- app_assoc. rewrite app_length. cbn. rewrite Nat.add_1_r. exact H3. }
  apply (X [] gs ts).
Qed.
Lemma self_type gs d t k : means gs (self_spec d k) t -> exists ts, t = TK (BNamed d) ts.
Proof. intros M. inversion M; subst. eauto. Qed.
Lemma params_conc gs cs f specs ts xs ys : Forall2 is_conc gs cs ->
  Forall2 (fun s x => spec_conc decls f cs s = Some (CT x)) specs xs -> Forall2 (means gs) specs ts ->
  Forall2 (fun t y => is_conc t (CT y)) ts ys -> xs = ys.
Proof.
  intros G S. revert ts ys. induction S as [|s x specs xs E S IH]; intros ts ys M C; inversion M; subst; inversion C; subst; [reflexivity|].
  f_equal; [|eauto]. pose proof (means_conc decls arity gs cs G f s _ _ E H1) as A. pose proof (is_conc_det _ _ _ _ A H2) as X. injection X. auto.
Qed.
Lemma struct_args gs d ms ts t c ys : decls d = Some (List.length gs, DStruct ms) -> means gs (self_spec d (List.length gs)) t ->
  Forall2 (means gs) (map snd ms) ts -> is_conc t (CT c) -> Forall2 (fun t y => is_conc t (CT y)) ts ys -> c = PatModel.CStruct ys.
Proof.
  intros E M P H Y. destruct (self_type _ _ _ _ M) as [us U]. pose proof (self_params _ _ _ _ _ eq_refl M U). subst us t.
  destruct (conc_struct _ _ _ _ _ E H) as (cs & f & q & G & -> & F). f_equal. apply (params_conc gs cs f (map snd ms) ts q ys); auto. clear - F. induction F; constructor; auto.
Qed.
Lemma variant_args gs d os v ps ts t c ys : decls d = Some (List.length gs, DEnum os) -> nth_error os v = Some ps -> means gs (self_spec d (List.length gs)) t ->
  Forall2 (means gs) ps ts -> is_conc t (CT c) -> Forall2 (fun t y => is_conc t (CT y)) ts ys -> exists q, c = PatModel.CEnum q /\ nth_error q v = Some ys.
Proof.
  intros E N M P H Y. destruct (self_type _ _ _ _ M) as [us U]. pose proof (self_params _ _ _ _ _ eq_refl M U). subst us t.
  destruct (conc_enum _ _ _ _ _ E H) as (cs & f & q & G & -> & F). exists q. split; auto.
  assert (X : exists xs, nth_error q v = Some xs /\ Forall2 (fun s x => spec_conc decls f cs s = Some (CT x)) ps xs).
  { clear - F N. revert v N. induction F as [|s x os q S F IH]; intros [|v] N; cbn in *; try discriminate; eauto. apply Some_inj in N. subst. eauto. }
  destruct X as (xs & X & S). rewrite X. f_equal. eapply params_conc; eauto.
Qed.

Section Unit.
Variable fuel : nat.
Variable ty_of : key -> option ty.
Variable gs : list ty.
Notation type_at := (type_at decls fuel ty_of).
Notation elab_pat := (elab_pat decls fuel callee_of ty_of).
Notation elab := (elab decls fuel member_name callee_of ty_of gs).
Notation elab_stm := (elab_stm decls fuel member_name callee_of ty_of gs).
Notation ptyped := (ptyped int_ uint_ bool_ arity heads ty_of).
Notation prule := (prule int_ uint_ bool_ arity heads ty_of).
Notation typed := (typed int_ uint_ bool_ clock_ arity structs heads ty_of gs).
Notation rule := (rule int_ uint_ bool_ clock_ arity structs heads ty_of gs).
Notation arm := (arm int_ uint_ bool_ clock_ arity structs heads ty_of gs).
Notation checked := (checked int_ uint_ bool_ clock_ arity structs heads ty_of gs).

Lemma type_at_conc k t c : ty_of k = Some t -> type_at k = Some c -> is_conc t (CT c).
Proof. unfold ElabModel.type_at. intros -> H. apply as_type_inv in H. exists fuel. exact H. Qed.
Lemma same_type_at k j t c : ty_of k = Some t -> ty_of j = Some t -> type_at k = Some c -> type_at j = Some c.
Proof. unfold ElabModel.type_at. intros -> ->. auto. Qed.

Definition names_typed (p : LowerModel.lpat) : Prop := forall x s, ExprSpec.pat_name p x s -> type_at (KName x) = Some s.
Lemma pat_args (l : list hpat) : (forall p, In p l -> forall t, ptyped p t -> forall p' c, elab_pat p = Some p' -> is_conc t (CT c) -> positive c -> LowerSpec.lpat_type c p' /\ names_typed p') ->
  forall ts q xs, Forall2 ptyped l ts -> Forall2 (fun a b => elab_pat a = Some b) l q -> Forall2 (fun t x => is_conc t (CT x)) ts xs -> Forall positive xs ->
  Forall2 LowerSpec.lpat_type xs q /\ Forall names_typed q.
Proof.
  intros IH ts q xs T. revert q xs. induction T as [|p t l ts P T IHT]; intros q xs E C PS; inversion E; subst; inversion C; subst; inversion PS; subst; [split; constructor|].
  destruct (IHT (fun p I => IH p (or_intror I)) l' l'0) as [A B]; auto. destruct (IH p (or_introl eq_refl) t P y y0) as [A' B']; auto.
Qed.
Lemma pat_name_inv id t k x s : ExprSpec.pat_name (LowerModel.LPat id t k) x s ->
  match k with
  | LowerModel.KInteger _ | LowerModel.KBoolean _ => False
  | LowerModel.KBound y None => x = y /\ s = t
  | LowerModel.KBound y (Some q) => (x = y /\ s = t) \/ ExprSpec.pat_name q x s
  | LowerModel.KTuple l | LowerModel.KArray l | LowerModel.KStruct l | LowerModel.KVariant _ l => exists q, In q l /\ ExprSpec.pat_name q x s
  end.
Proof.
  intros N. inversion N as [? ? ? i|? ? ? q ? ? Nq|? ? ? l q ? ? I Iq Nq|? ? ? l q ? ? Iq Nq]; subst.
  - destruct i; auto.
  - auto.
  - cbn in I. destruct I as [<-|[<-|[<-|[]]]]; eauto.
  - eauto.
Qed.
Lemma names_in id t k l : In k [LowerModel.KTuple l; LowerModel.KArray l; LowerModel.KStruct l] -> Forall names_typed l -> names_typed (LowerModel.LPat id t k).
Proof.
  intros I F x s N. rewrite Forall_forall in F. apply pat_name_inv in N. cbn in I.
  destruct I as [<-|[<-|[<-|[]]]]; destruct N as (q & Iq & N); eapply F; eauto.
Qed.
(** the type of a pattern *)
Lemma elab_pat_type p t : ptyped p t -> forall p', elab_pat p = Some p' -> is_conc t (CT (LowerModel.lty p')).
Proof.
  intros [id k t' E K R] p' H. cbn [ElabModel.elab_pat] in H. destruct (type_at (KId id)) as [c|] eqn:TA; [|discriminate].
  apply map_some in H as (k' & _ & ->). cbn. eapply type_at_conc; eauto.
Qed.
Lemma args_types l ts q : Forall2 ptyped l ts -> Forall2 (fun a b => elab_pat a = Some b) l q ->
  Forall2 (fun t x => is_conc t (CT x)) ts (map LowerModel.lty q).
Proof. intros T. revert q. induction T; intros q E; inversion E; subst; cbn; constructor; auto. eapply elab_pat_type; eauto. Qed.
Lemma pattern_conc : forall p t, ptyped p t -> forall p' c, elab_pat p = Some p' -> is_conc t (CT c) -> positive c -> LowerSpec.lpat_type c p' /\ names_typed p'.
Proof.
  induction p as [id k IH] using hpat_ind'. intros t T p' c H C P. inversion T as [? ? ? E K R]; subst. cbn [ElabModel.elab_pat] in H.
  destruct (type_at (KId id)) as [c'|] eqn:TA; [|discriminate]. pose proof (type_at_conc _ _ _ E TA) as C'.
  pose proof (is_conc_det _ _ _ _ C' C) as X. injection X as ->. clear C'. apply map_some in H as (k' & H & ->).
  destruct R as [z t L|b|x pre inner t N I|l ts F|l t NE F|name args h r hs ts t HH HR HK M MP F].
  - apply Some_inj in H. subst. split; [constructor; eapply literal_conc; eauto|]. intros x s X. destruct (pat_name_inv _ _ _ _ _ X).
  - apply Some_inj in H. subst. rewrite (conc_bool _ C). split; [constructor|]. intros x s X. destruct (pat_name_inv _ _ _ _ _ X).
  - destruct inner as [q|].
    + apply map_some in H as (q' & H & ->). destruct (IH q eq_refl t (I q eq_refl) q' c H C P) as [A B]. split; [constructor; auto|].
      intros y s X. destruct (pat_name_inv _ _ _ _ _ X) as [[-> ->]|X']; [eapply same_type_at; [exact E|exact N|exact TA] | apply B; auto].
    + apply Some_inj in H. subst. split; [constructor|].
      intros y s X. destruct (pat_name_inv _ _ _ _ _ X) as [-> ->]. eapply same_type_at; [exact E|exact N|exact TA].
  - apply map_some in H as (q & H & ->). apply all_inv in H. destruct (conc_tuple _ _ C) as (xs & -> & X). inversion P; subst.
    destruct (pat_args l IH ts q xs F H X) as [A B]; auto. split; [constructor; auto | apply (names_in _ _ _ q); cbn; auto].
  - apply map_some in H as (q & H & ->). apply all_inv in H. destruct (conc_sized_array _ _ _ C) as (e & n & -> & X & N). inversion P; subst.
    destruct (pat_args l IH (repeat t (List.length l)) q (repeat e (List.length l))) as [A B]; auto.
    + clear - F. induction F; cbn; constructor; auto.
    + clear - X. induction (List.length l); cbn; constructor; auto.
    + apply Forall_forall. intros y Y. apply repeat_spec in Y. subst. assumption.
    + split; [|apply (names_in _ _ _ q); cbn; auto]. assert (LQ : List.length q = List.length l) by (clear - H; induction H; cbn; auto).
      constructor; [lia|]. clear - A LQ. rewrite <- LQ in A. clear LQ. induction q; constructor; cbn in A; inversion A; subst; auto.
  - destruct (callee_of name) as [cl|] eqn:EC; [|discriminate]. destruct (all elab_pat args) as [q|] eqn:EQ; [|destruct cl; discriminate]. apply all_inv in EQ.
    pose proof (de_heads _ _ _ _ _ _ _ _ _ _ D _ _ _ EC HH) as HO. pose proof (args_types _ _ _ F EQ) as AT.
    assert (LH : List.length hs = List.length (hd_metas h)) by (clear - HK; induction HK; cbn; auto).
    destruct cl; try discriminate; apply Some_inj in H; subst k'; cbn in HO.
    + destruct HO as (d & os & DD & NV & RR). rewrite HR in RR. apply Some_inj in RR. subst r. rewrite <- LH in *.
      destruct (variant_args _ _ _ _ _ _ _ _ _ DD NV M MP C AT) as (os' & -> & NO).
      assert (PA : Forall positive (map LowerModel.lty q)). { inversion P; subst. rewrite Forall_forall in H0. apply (H0 _ (nth_error_In _ _ NO)). }
      destruct (pat_args args IH ts q _ F EQ AT PA) as [A B]. split; [econstructor; eauto|].
      intros x s X. destruct (pat_name_inv _ _ _ _ _ X) as (q' & Iq & X'). rewrite Forall_forall in B. eapply B; eauto.
    + destruct HO as (d & ms & DD & PP & RR). rewrite HR in RR. apply Some_inj in RR. subst r. rewrite PP in MP. rewrite <- LH in *.
      pose proof (struct_args _ _ _ _ _ _ _ DD M MP C AT). subst c. inversion P; subst.
      destruct (pat_args args IH ts q _ F EQ AT H0) as [A B]. split; [constructor; auto | apply (names_in _ _ _ q); cbn; auto].
Qed.

(** *** Expressions *)
Lemma elab_type : forall e t, typed e t -> forall e', elab e = Some e' -> is_conc t (CT (ExprModel.ety e')).
Proof.
  apply (hx_rec' (fun e => forall t, typed e t -> forall e', elab e = Some e' -> is_conc t (CT (ExprModel.ety e'))) (fun _ => True)); [|auto].
  intros id k IH _ t T e' H. inversion T as [? ? ? E K R]; subst.
  assert (X : (forall c a b, k <> HGenIf c a b) -> is_conc t (CT (ExprModel.ety e'))).
  { intros N. destruct (type_at (KId id)) as [c|] eqn:TA.
    - assert (Y : exists k', e' = ExprModel.Ex id c k').
      { destruct k; cbn [ElabModel.elab] in H; rewrite ?TA in H; try (apply map_some in H as (k' & _ & ->); eauto). exfalso. eapply N. reflexivity. }
      destruct Y as [k' ->]. cbn. eapply type_at_conc; eauto.
    - exfalso. destruct k; cbn [ElabModel.elab] in H; rewrite ?TA in H; try discriminate. eapply N. reflexivity. }
  destruct k; try (apply X; discriminate). clear X. cbn [ElabModel.elab] in H.
  inversion R as [| | | | | | | | | | | | | | |? ? ? ? v CI Ta Tb| | | | | | | | |]; subst.
  destruct (ty_of (KId (fst c))) as [[[]|]|]; try discriminate. destruct b0; [eapply (IH a) | eapply (IH b)]; cbn; eauto.
Qed.
Lemma elab_types l ts q : Forall2 typed l ts -> Forall2 (fun a b => elab a = Some b) l q -> Forall2 (fun t x => is_conc t (CT x)) ts (map ExprModel.ety q).
Proof. intros T. revert q. induction T; intros q E; inversion E; subst; cbn; constructor; auto. eapply elab_type; eauto. Qed.

(** the special functions *)
Lemma conc_number b n c : is_conc (TK (BNamed b) [n]) (CT c) ->
  (b = int_ -> exists k, c = PatModel.CInt k /\ is_conc n (CN (Z.of_nat k))) /\
  (b = uint_ -> exists k, c = PatModel.CUint k /\ is_conc n (CN (Z.of_nat k))).
Proof.
  intros H. apply conc_named in H as (cs & f & t & F & E & H). injection E as <-. unfold decl_conc in H.
  inversion F as [|? x ? r X R]; subst. inversion R; subst.
  split; intros ->; [rewrite (de_int _ _ _ _ _ _ _ _ _ _ D) in H | rewrite (de_uint _ _ _ _ _ _ _ _ _ _ D) in H]; cbn [List.length Nat.eqb prim_conc] in H;
    apply map_some in H as (k & A & ->); apply as_size_inv in A; apply Some_inj in A; subst x; eauto.
Qed.
Lemma conc_int_value z l c : is_conc (TK (BInt z) l) c -> c = CN z.
Proof. intros [[|f] H]; [discriminate|]. cbn in H. apply Some_inj in H. auto. Qed.
Ltac invl := repeat match goal with
  | H : Forall2 _ (_ :: _) _ |- _ => inversion H; subst; clear H
  | H : Forall2 _ [] _ |- _ => inversion H; subst; clear H
  | H : Forall _ (_ :: _) |- _ => inversion H; subst; clear H
  | H : TypingSpec.means _ _ (TSGeneric _) _ |- _ => inversion H; subst; clear H
  | H : TypingSpec.means _ _ (bool_s _) _ |- _ => inversion H; subst; clear H
  | H : TypingSpec.means _ _ (bits _ _) _ |- _ => inversion H; subst; clear H
  | H : TypingSpec.means _ _ (int_of _ _) _ |- _ => inversion H; subst; clear H
  | H : TypingSpec.means _ _ (uint_of _ _) _ |- _ => inversion H; subst; clear H
  | A : nth_error ?l ?n = Some ?a, B : nth_error ?l ?n = Some ?b |- _ => rewrite A in B; apply Some_inj in B; subst
  | A : is_conc ?t (CT ?x), B : is_conc ?t (CT ?y) |- _ => 
      let X := fresh in pose proof (is_conc_det _ _ _ _ A B) as X; injection X as X; subst; clear B
  end.
Lemma intrinsic_ok i hs ts t xs c :
  let h := intrinsic_head int_ uint_ bool_ i in
  instance (hd_metas h) (hd_where h) hs -> Forall (bound_holds int_ uint_ hs) (hd_bounds h) -> special_holds int_ uint_ (hd_special h) hs ->
  Forall2 (means hs) (hd_params h) ts -> Forall2 (fun t x => is_conc t (CT x)) ts xs ->
  match hd_ret h with Some r => means hs r t | None => t = TK BTuple [] end -> is_conc t (CT c) ->
  Forall positive xs -> positive c ->
  match i with
  | ExprModel.IEq | ExprModel.INe => Forall ExprSpec.plain xs
  | ExprModel.IReduceAnd | ExprModel.IReduceOr | ExprModel.IReduceXor => Forall (fun x => x <> PatModel.CArray PatModel.CBool 0) xs
  | ExprModel.ITrunc => forall x, xs = [x] -> CodegenModel.size (LowerModel.to_mir_type c) <= CodegenModel.size (LowerModel.to_mir_type x)
  | ExprModel.ITransmute => forall x, xs = [x] -> CodegenModel.size (LowerModel.to_mir_type x) = CodegenModel.size (LowerModel.to_mir_type c)
  | _ => True
  end -> ExprSpec.intrinsic_type i xs c.
Proof.
  intros h [HK HW] HB HS MP XS MR C PX PC EX. subst h.
  assert (BITS : forall b n x, b = TK (BNamed bool_) [] -> is_conc (TK BArray [b; n]) (CT x) -> exists k, x = PatModel.CArray PatModel.CBool k /\ is_conc n (CN (Z.of_nat k))).
  { intros b n x -> H. apply conc_array in H as (e & k & -> & A & B). rewrite (conc_bool _ A). eauto. }
  assert (BOOL : forall x, is_conc (TK (BNamed bool_) []) (CT x) -> x = PatModel.CBool) by exact conc_bool.
  assert (NUM : forall t n x, t = TK (BNamed int_) [n] \/ t = TK (BNamed uint_) [n] -> is_conc t (CT x) -> positive x -> exists k, ExprSpec.number x k).
  { intros u n x [-> | ->] H P; apply conc_number in H as [A B]; [destruct (A eq_refl) as (k & -> & _) | destruct (B eq_refl) as (k & -> & _)]; inversion P; subst; exists k; split; auto. }
  assert (GEQ : forall y z x w, clause hs (1, WGeq, CVar 0) -> nth_error hs 0 = Some y -> nth_error hs 1 = Some z ->
    is_conc y (CN (Z.of_nat x)) -> is_conc z (CN (Z.of_nat w)) -> x <= w).
  { intros y z x w (l & r & A & V & G) Y Z_ CY CZ. rewrite A in Z_. apply Some_inj in Z_. subst z. apply conc_value in CZ. injection CZ as <-.
    assert (EV : exists ps, env hs 0 = TK (BInt r) ps) by (inversion V; subst; eauto). destruct EV as [ps EV]. unfold env in EV. destruct hs as [|y' hs']; [discriminate|]. cbn in Y, EV. apply Some_inj in Y. subst y'.
    rewrite EV in CY. apply conc_int_value in CY. injection CY as <-. cbn in G. lia. }
  destruct i; cbn -[nth_error clause] in *; invl; try rewrite (BOOL _ C);
    try match goal with H : is_conc (TK BArray [TK (BNamed bool_) []; _]) (CT ?x) |- _ => destruct (BITS _ _ _ eq_refl H) as (kk & -> & _) end; try (exists kk; auto; fail).
  - eauto.
  - eauto.
  - destruct H6 as (u & n & A & _ & B). cbn [fst] in A. rewrite H0 in A. apply Some_inj in A. subst u. destruct (NUM _ _ _ B H3 H5) as [k NK]. eauto.
  - destruct H6 as (u & n & A & _ & B). cbn [fst] in A. rewrite H0 in A. apply Some_inj in A. subst u. destruct (NUM _ _ _ B H3 H5) as [k NK]. eauto.
  - destruct H6 as (u & n & A & _ & B). cbn [fst] in A. rewrite H0 in A. apply Some_inj in A. subst u. destruct (NUM _ _ _ B H3 H5) as [k NK]. eauto.
  - destruct H6 as (u & n & A & _ & B). cbn [fst] in A. rewrite H0 in A. apply Some_inj in A. subst u. destruct (NUM _ _ _ B H3 H5) as [k NK]. eauto.
  - destruct HS as (b & m & n & x & z & A & B & NX & NZ). invl.
    destruct (conc_is_number _ _ _ _ NX H2) as (k & -> & X). destruct (conc_is_number _ _ _ _ NZ C) as (j & -> & Y). specialize (EX _ eq_refl).
    exists k, j. destruct X as [[-> ->]|[-> ->]]; destruct Y as [[EB ->]|[EB ->]]; try (destruct (distinct_numbers EB)); try (destruct (distinct_numbers (eq_sym EB)));
      cbn in EX; inversion PC; subst; split; auto; lia.
  - apply conc_number in H2 as [H2 _]. destruct (H2 eq_refl) as (x & -> & A). apply conc_number in C as [C _]. destruct (C eq_refl) as (w & -> & B).
    exists x, w. inversion H3; subst. split; auto. split; auto. eapply GEQ; eauto.
  - apply conc_number in H2 as [_ H2]. destruct (H2 eq_refl) as (x & -> & A). apply conc_number in C as [_ C]. destruct (C eq_refl) as (w & -> & B).
    exists x, w. inversion H3; subst. split; auto. split; auto. eapply GEQ; eauto.
  - destruct HS as (b & m & n & x & z & w & A & B & E & NX & NZ & NW). invl.
    destruct (conc_is_number _ _ _ _ NX H3) as (k & -> & X). destruct (conc_is_number _ _ _ _ NZ H4) as (j & -> & Y). destruct (conc_is_number _ _ _ _ NW C) as (s & ES & Z_).
    assert (s = k + j) by lia. subst s. exists k, j. 
    destruct X as [[-> ->]|[-> ->]]; destruct Y as [[EB ->]|[EB ->]]; try (destruct (distinct_numbers EB)); try (destruct (distinct_numbers (eq_sym EB)));
    destruct Z_ as [[EB' ->]|[EB' ->]]; try (destruct (distinct_numbers EB')); try (destruct (distinct_numbers (eq_sym EB')));
      inversion H5; inversion H7; subst; auto.
  - exists y0. auto.
  - exists kk. split; auto. destruct kk; [contradiction|lia].
  - exists kk. split; auto. destruct kk; [contradiction|lia].
  - exists kk. split; auto. destruct kk; [contradiction|lia].
  - destruct HS as (b & n & x & A & N). invl. split; auto. destruct (conc_is_number _ _ _ _ N C) as (k & -> & [[-> ->]|[-> ->]]); inversion PC; subst; exists k; split; auto.
  - destruct HS as (b & n & x & A & N). invl. split; auto. destruct (conc_is_number _ _ _ _ N C) as (k & -> & [[-> ->]|[-> ->]]); inversion PC; subst; exists k; split; auto.
Qed.

Variable prog : list ExprModel.unit_.
(** what calls of units rely on *)
Hypothesis unit_types : forall k u, nth_error units k = Some u -> hu_metas u = [] -> exists c, nth_error prog k = Some c /\
  Forall2 (fun i x => exists t, means [] (snd i) t /\ is_conc t (CT (snd x))) (hu_inputs u) (ExprModel.inputs c) /\
  exists t, match hu_output u with Some o => means [] o t | None => t = TK BTuple [] end /\ is_conc t (CT (ExprModel.ety (ExprModel.body c))).

(** the checks of lowering passed *)
Definition lowered (e : ExprModel.expr) : Prop :=
  forall id t c args, e = ExprModel.Ex id t (ExprModel.XCall c args) ->
  ExprModel.call_stmt id (LowerModel.to_mir_type t) c (map ExprModel.variable args) (map (fun a => LowerModel.to_mir_type (ExprModel.ety a)) args) <> None.
Definition fine (e : ExprModel.expr) : Prop := careful e /\ lowered e.
Definition pattern_in (e : ExprModel.expr) (p : LowerModel.lpat) : Prop :=
  let '(ExprModel.Ex _ _ k) := e in
  match k with
  | ExprModel.XBlock ss _ => (exists e, In (ExprModel.SLet p e) ss) \/ (exists c r v, In (ExprModel.SRegister p c r v) ss)
  | ExprModel.XMatch a arms => exists g e, In (p, g, e) arms
  | _ => False
  end.
Definition good (e : ExprModel.expr) : Prop :=
  match e with
  | ExprModel.Ex _ t (ExprModel.XName x) => type_at (KName x) = Some t
  | _ => forall u, ExprSpec.node_ok prog u e
  end /\ forall p, pattern_in e p -> names_typed p.

Lemma units_det k u us : nth_error units k = Some u -> Forall2 (means []) (map snd (hu_inputs u)) us -> forall xs c, 
  Forall2 (fun t x => is_conc t (CT x)) us xs -> 
  Forall2 (fun i x => exists t, means [] (snd i) t /\ is_conc t (CT (snd x))) (hu_inputs u) (ExprModel.inputs c) ->
  xs = map snd (ExprModel.inputs c).
Proof.
  intros N M xs c X I. destruct (de_explicit _ _ _ _ _ _ _ _ _ _ D u (nth_error_In _ _ N)) as [EX _].
  revert us M xs X EX. induction I as [|i x l m (t & A & B) I IH]; intros us M xs X EX; cbn in M; inversion M; subst; inversion X; subst; [reflexivity|].
  inversion EX; subst. cbn. f_equal; [|eauto]. assert (y = t) by (eapply means_det; eauto). subst. assert (Z_ := is_conc_det _ _ _ _ H2 B). injection Z_ as ->. reflexivity.
Qed.
Lemma call_ok f h c hs ts id t ct args : heads f = Some h -> callee_of f = Some c ->
  instance (hd_metas h) (hd_where h) hs -> Forall (bound_holds int_ uint_ hs) (hd_bounds h) -> special_holds int_ uint_ (hd_special h) hs ->
  Forall2 (means hs) (hd_params h) ts -> Forall2 (fun t x => is_conc t (CT x)) ts (map ExprModel.ety args) ->
  match hd_ret h with Some r => means hs r t | None => t = TK BTuple [] end -> is_conc t (CT ct) ->
  fine (ExprModel.Ex id ct (ExprModel.XCall c args)) -> (forall a, In a args -> fine a) ->
  forall u, ExprSpec.node_ok prog u (ExprModel.Ex id ct (ExprModel.XCall c args)).
Proof.
  intros HH CC HI HB HS MP AT MR C [CA LO] FA u. pose proof (de_heads _ _ _ _ _ _ _ _ _ _ D _ _ _ CC HH) as HO.
  assert (LH : List.length hs = List.length (hd_metas h)) by (destruct HI as [HK _]; clear - HK; induction HK; cbn; auto).
  destruct c as [i|v| |k]; cbn [head_of ExprSpec.node_ok] in *.
  - subst h. eapply intrinsic_ok; eauto.
    + apply Forall_forall. intros x X. apply in_map_iff in X as (a & <- & I). apply FA in I as [[I _] _]. exact I.
    + apply CA.
    + destruct CA as (_ & _ & CA). specialize (LO _ _ _ _ eq_refl). destruct i; auto.
      * rewrite Forall_map. exact CA.
      * rewrite Forall_map. exact CA.
      * intros x X. destruct args as [|a [|]]; try discriminate. cbn in X. injection X as <-. cbn -[Nat.ltb Nat.eqb CodegenModel.size] in LO. destruct (Nat.ltb_spec (CodegenModel.size (LowerModel.to_mir_type (ExprModel.ety a))) (CodegenModel.size (LowerModel.to_mir_type ct))); [|lia].
        exfalso. apply LO. reflexivity.
      * intros x X. destruct args as [|a [|]]; try discriminate. cbn in X. injection X as <-. cbn -[Nat.ltb Nat.eqb CodegenModel.size] in LO.
        destruct (Nat.eqb_spec (CodegenModel.size (LowerModel.to_mir_type ct)) (CodegenModel.size (LowerModel.to_mir_type (ExprModel.ety a)))); auto. exfalso. apply LO. reflexivity.
      * rewrite Forall_map. exact CA.
      * rewrite Forall_map. exact CA.
      * rewrite Forall_map. exact CA.
  - destruct HO as (d & os & DD & NV & RR). rewrite RR in MR. rewrite <- LH in *. eapply variant_args; eauto.
  - destruct HO as (d & ms & DD & PP & RR). rewrite RR in MR. rewrite PP in MP. rewrite <- LH in *. eapply struct_args; eauto.
  - destruct HO as (uu & NU & HM & UM & PP & RR). rewrite HM in LH. destruct hs; [|discriminate]. rewrite PP in MP. rewrite RR in MR.
    destruct (unit_types _ _ NU UM) as (cu & NP & IN & t' & OT & CO). exists cu. split; auto. split; [eapply units_det; eauto|].
    assert (t' = t). { destruct (hu_output uu) as [o|] eqn:EO; [|congruence]. eapply means_det; eauto. apply (de_explicit _ _ _ _ _ _ _ _ _ _ D uu (nth_error_In _ _ NU)). auto. }
    subst t'. pose proof (is_conc_det _ _ _ _ C CO) as X. injection X. auto.
Qed.

Lemma within_inv b x : ExprSpec.within b x -> x = b \/ exists c, In c (ExprSpec.children b) /\ ExprSpec.within c x.
Proof.
  induction 1 as [|e c W IH I]; auto. right. destruct IH as [-> | (d & J & W')].
  - exists c. split; auto. constructor.
  - exists d. split; auto. eapply ExprSpec.W_child; eauto.
Qed.
Lemma within_child b c x : In c (ExprSpec.children b) -> ExprSpec.within c x -> ExprSpec.within b x.
Proof. intros I W. apply (ExprProofs.within_trans b c x); auto. apply (ExprSpec.W_child b b c); auto. constructor. Qed.
Lemma all_good e : good e -> (forall c, In c (ExprSpec.children e) -> forall x, ExprSpec.within c x -> good x) -> forall x, ExprSpec.within e x -> good x.
Proof. intros A B x W. destruct (within_inv _ _ W) as [-> |(c & I & W')]; eauto. Qed.

Definition stm_names (s : ExprModel.stm) : Prop :=
  match s with ExprModel.SLet p _ | ExprModel.SRegister p _ _ _ => names_typed p | _ => True end.
Definition Qe (e : hx) : Prop := forall t e', typed e t -> elab e = Some e' -> (forall x, ExprSpec.within e' x -> fine x) -> forall x, ExprSpec.within e' x -> good x.
Definition Rs (s : hstm) : Prop := forall s', checked s -> elab_stm s = Some s' ->
  (forall c x, In c (ExprSpec.stm_exprs s') -> ExprSpec.within c x -> fine x) ->
  ExprSpec.stm_ok s' /\ stm_names s' /\ forall c x, In c (ExprSpec.stm_exprs s') -> ExprSpec.within c x -> good x.

Lemma size_at_conc c z n : ty_of (KId (fst c)) = Some (TK (BInt z) []) -> size_at decls fuel ty_of c = Some n -> z = Z.of_nat n.
Proof.
  unfold size_at. intros -> H. apply as_size_inv in H. assert (X : is_conc (tvalue z) (CN (Z.of_nat n))) by (exists fuel; exact H).
  apply conc_value in X. injection X. auto.
Qed.
Lemma kids_good l ts q : Forall2 typed l ts -> Forall2 (fun a b => elab a = Some b) l q -> (forall a, In a l -> Qe a) ->
  forall c, In c q -> (forall x, ExprSpec.within c x -> fine x) -> forall x, ExprSpec.within c x -> good x.
Proof.
  intros T. revert q. induction T as [|a t l ts Ta T IH]; intros q E QS c I; inversion E; subst; [destruct I|].
  destruct I as [<-|I]; [eapply (QS a); cbn; eauto | eapply IH; eauto; intros; apply QS; cbn; auto].
Qed.
Lemma two_inv {A B C0} (f : A -> B -> C0) a b c : two f a b = Some c -> exists x y, a = Some x /\ b = Some y /\ c = f x y.
Proof. destruct a as [x|], b as [y|]; cbn; try discriminate. intros H. apply Some_inj in H. eauto. Qed.
Lemma three_inv {A B C0 E} (f : A -> B -> C0 -> E) a b c d : three f a b c = Some d -> exists x y z, a = Some x /\ b = Some y /\ c = Some z /\ d = f x y z.
Proof. destruct a as [x|], b as [y|], c as [z|]; cbn; try discriminate. intros H. apply Some_inj in H. eauto 8. Qed.
Lemma arms_good : forall (u t : ty) arms q ut, is_conc u (CT ut) -> positive ut -> LowerSpec.readable ut ->
  Forall (arm u t) arms ->
  Forall2 (fun (a : hpat * option hx * hx) b => (let '(p, g, e) := a in three (fun p g e => (p, g, e)) (elab_pat p) (match g with Some a => option_map Some (elab a) | None => Some None end) (elab e)) = Some b) arms q ->
  (forall e, In e (flat_map (fun x => let '(_, g, e) := x in e :: opt_list g) arms) -> Qe e) ->
  forall ct, is_conc t (CT ct) ->
  Forall (fun arm => let '(p, g, e) := arm in ExprSpec.pattern_ok ut p /\ ExprModel.ety e = ct /\ match g with Some g => ExprModel.ety g = PatModel.CBool | None => True end) q /\
  (forall p g e, In (p, g, e) q -> names_typed p) /\
  forall c, In c (flat_map (fun arm => ExprSpec.opt (snd (fst arm)) ++ [snd arm]) q) -> (forall x, ExprSpec.within c x -> fine x) -> forall x, ExprSpec.within c x -> good x.
Proof.
  intros u t arms q ut CU PU RU FA. revert q. induction FA as [|a arms A FA IH]; intros q E QS ct CT_; inversion E as [|? b ? r EA ER]; subst.
  - split; [constructor|]. split; [intros p g e []|intros c []].
  - inversion A as [? ? p g e PT GT ET]; subst. apply three_inv in EA as (p' & g' & e' & EP & EG & EE & ->).
    destruct (IH r ER (fun e I => QS e (in_or_app _ _ _ (or_intror I))) ct CT_) as (I1 & I2 & I3).
    destruct (pattern_conc _ _ PT _ _ EP CU PU) as [P1 P2].
    assert (GG : match g' with Some b => exists a, g = Some a /\ elab a = Some b | None => g = None end).
    { destruct g as [a|]; [apply map_some in EG as (b & X & ->); eauto | apply Some_inj in EG; subst; auto]. }
    split; [|split].
    + constructor; auto. split; [split; auto|]. split.
      * pose proof (elab_type _ _ ET _ EE) as X. pose proof (is_conc_det _ _ _ _ X CT_) as Y. injection Y. auto.
      * destruct g' as [b|]; auto. destruct GG as (a & -> & EB). apply conc_bool. eapply elab_type; [apply GT; reflexivity | exact EB].
    + intros p0 g0 e0 [X|X]; [injection X as <- <- <-; auto | eapply I2; eauto].
    + intros c I. cbn [flat_map] in I. apply in_app_or in I as [I|I]; [|apply I3; auto]. apply in_app_or in I as [I|[<-|[]]].
      * cbn in I. destruct g' as [b|]; [|destruct I]. destruct I as [<-|[]]. destruct GG as (a & -> & EB).
        intros FX x W. refine (QS a _ _ _ (GT _ eq_refl) EB FX x W). cbn. auto.
      * intros FX x W. refine (QS e _ _ _ ET EE FX x W). cbn. auto.
Qed.
Lemma stms_good ss q : Forall checked ss -> Forall2 (fun a b => elab_stm a = Some b) ss q -> (forall s, In s ss -> Rs s) ->
  (forall c x, In c (flat_map ExprSpec.stm_exprs q) -> ExprSpec.within c x -> fine x) ->
  Forall ExprSpec.stm_ok q /\ Forall stm_names q /\ forall c x, In c (flat_map ExprSpec.stm_exprs q) -> ExprSpec.within c x -> good x.
Proof.
  intros K. revert q. induction K as [|s ss CS K IH]; intros q E RS FX; inversion E as [|? b ? r EA ER]; subst.
  - split; [constructor|]. split; [constructor|intros c x []].
  - cbn [flat_map] in *. destruct (IH r ER (fun s I => RS s (or_intror I)) (fun c x I => FX c x (in_or_app _ _ _ (or_intror I)))) as (A & B & C0).
    destruct (RS s (or_introl eq_refl) b CS EA (fun c x I => FX c x (in_or_app _ _ _ (or_introl I)))) as (A' & B' & C').
    split; [constructor; auto|]. split; [constructor; auto|]. intros c x I W. apply in_app_or in I as [I|I]; eauto.
Qed.

Lemma elab_stm_eq s : elab_stm s =
  match s with
  | HLet p _ e => two ExprModel.SLet (elab_pat p) (elab e)
  | HExpr e => option_map ExprModel.SExpr (elab e)
  | HReg p _ clock value reset None =>
      match elab_pat p, elab clock,
            match reset with Some (a, b) => option_map Some (two pair (elab a) (elab b)) | None => Some None end,
            elab value with
      | Some p, Some c, Some r, Some v => Some (ExprModel.SRegister p c r v)
      | _, _, _, _ => None
      end
  | HReg _ _ _ _ _ (Some _) => None
  | HDecl _ => Some ExprModel.SDecl
  | HAssert e => option_map ExprModel.SAssert (elab e)
  | HSet _ _ => None
  end.
Proof. destruct s; reflexivity. Qed.
Lemma main : forall e, Qe e.
Proof.
  apply (hx_rec' Qe Rs).
  - intros id k IH IHs t e' T H F. inversion T as [? ? ? E K R]; subst.
    assert (NODE : (forall c a b, k <> HGenIf c a b) -> exists ct k', type_at (KId id) = Some ct /\ is_conc t (CT ct) /\ e' = ExprModel.Ex id ct k').
    { intros N. destruct (type_at (KId id)) as [c|] eqn:TA.
      - assert (Y : exists k', e' = ExprModel.Ex id c k').
        { destruct k; cbn [ElabModel.elab] in H; rewrite ?TA in H; try (apply map_some in H as (k' & _ & ->); eauto). exfalso. eapply N. reflexivity. }
        destruct Y as [k' ->]. exists c, k'. split; auto. split; auto. eapply type_at_conc; eauto.
      - exfalso. destruct k; cbn [ElabModel.elab] in H; rewrite ?TA in H; try discriminate. eapply N. reflexivity. }
    assert (KID : forall c, In c (ExprSpec.children e') -> forall x, ExprSpec.within c x -> fine x).
    { intros c I x W. apply F. eapply within_child; eauto. }
    assert (GEN : (exists c a b, k = HGenIf c a b) \/ (forall c a b, k <> HGenIf c a b)) by (destruct k; eauto; right; discriminate).
    destruct GEN as [(c & a & b & ->)|GEN].
    { cbn [ElabModel.elab] in H. inversion R as [| | | | | | | | | | | | | | |? ? ? ? v CI Ta Tb| | | | | | | | |]; subst.
      destruct (ty_of (KId (fst c))) as [[[]|]|]; try discriminate. destruct b0; [eapply (IH a) | eapply (IH b)]; cbn; eauto. }
    destruct (NODE GEN) as (ct & k' & TA & C & ->). clear NODE.
    assert (PC : positive ct) by (destruct (F _ (ExprSpec.W_self _)) as [[P _] _]; exact P).
    assert (SELF : fine (ExprModel.Ex id ct k')) by (apply F; constructor).
    assert (ONE : forall a ta a', In a (kids k) -> typed a ta -> elab a = Some a' -> In a' (ExprSpec.children (ExprModel.Ex id ct k')) ->
      is_conc ta (CT (ExprModel.ety a')) /\ fine a' /\ forall x, ExprSpec.within a' x -> good x).
    { intros a ta a' I Ta Ea Ic. split; [eapply elab_type; eauto|]. split; [apply (KID _ Ic); constructor|]. apply (IH a I ta a' Ta Ea). intros x W. apply (KID _ Ic x W). }
    assert (MANY : forall l ts q, (forall a, In a l -> In a (kids k)) -> Forall2 typed l ts -> Forall2 (fun a b => elab a = Some b) l q ->
      (forall c, In c q -> In c (ExprSpec.children (ExprModel.Ex id ct k'))) ->
      Forall2 (fun t x => is_conc t (CT x)) ts (map ExprModel.ety q) /\ (forall c, In c q -> fine c) /\ forall c, In c q -> forall x, ExprSpec.within c x -> good x).
    { intros l ts q I Tl El Ic. split; [eapply elab_types; eauto|]. split; [intros c J; apply (KID _ (Ic _ J)); constructor|].
      intros c J. eapply kids_good; eauto. }
    pose proof KID as KIDS. pose proof IH as IHk. pose proof GEN as NOGEN. clear IH KID F T GEN.
    destruct R as [x t N|z l t L SU|b|g z t NG L| |l ts TL|a i ts t Ta N|a f n ps members spec t Ta SN IM M|a s t Ta M|l t TL|a c t n Ta CI NN
      |a i t n w Ta NP Ti MB|a from upto t n s e Ta F1 F2 U1 U2 LE|ss r t CS R1 R2|c a b t Tc Ta Tb|c a b t v CI Ta Tb|a u arms t Ta NE FA
      |op a b base n t OP Ta Tb NU NN|a b base m n t Ta Tb NU NM NN|op a b base n t O1 O2 O3 Ta Tb NU|a n NN Ta|a Ta|a b n t Ta NU|a t Ta|f tf args h hs ts t HH HI HB HS TF MP TA2 MR];
      cbn [ElabModel.elab] in H; try rewrite TA in H; try (apply map_some in H as (k0 & H & X); injection X as <-); try discriminate.
    + (* name *) apply Some_inj in H. subst. apply all_good; [|intros c []]. split; [exact (same_type_at _ _ _ _ E N TA) | intros p []].
    + apply Some_inj in H. subst. apply all_good; [|intros c []]. split; [|intros p []]. intros u. eapply literal_conc; eauto.
    + apply Some_inj in H. subst. apply all_good; [|intros c []]. split; [|intros p []]. intros u. cbn. apply conc_bool. auto.
    + unfold tvalue in NG. rewrite NG in H. apply Some_inj in H. subst. apply all_good; [|intros c []]. split; [|intros p []]. intros u. eapply literal_conc; eauto.
    + apply map_some in H as (q & H & ->). apply all_inv in H. destruct (MANY l ts q) as (A & B & G); cbn; auto. apply all_good; auto.
      split; [|intros p []]. intros u. cbn. destruct (conc_tuple _ _ C) as (xs & -> & X). f_equal. clear - A X.
      revert ts X A. generalize (map ExprModel.ety q) as ys. induction xs as [|x xs IH]; intros ys ts X A; inversion X; subst; inversion A; subst; [reflexivity|].
      f_equal; [|eauto]. pose proof (is_conc_det _ _ _ _ H1 H2) as Y. injection Y. auto.
    + apply map_some in H as (a' & H & ->). destruct (ONE a _ a' (or_introl eq_refl) Ta H (or_introl eq_refl)) as (A & B & G). apply all_good; [|intros c [<-|[]]; auto].
      split; [|intros p []]. intros u. cbn. destruct (conc_tuple _ _ A) as (xs & -> & X). exists xs. split; auto.
      clear - X N C. revert i N. induction X as [|y x ts xs E X IH]; intros [|i] N; cbn in *; try discriminate; auto. apply Some_inj in N. subst.
      pose proof (is_conc_det _ _ _ _ E C) as Y. injection Y as ->. reflexivity.
    + (* field *) assert (TA' : ty_of (KId (hid a)) = Some (TK (BNamed n) ps)) by (inversion Ta; subst; auto). rewrite TA' in H.
      destruct (de_structs _ _ _ _ _ _ _ _ _ _ D _ _ SN) as [kk DN]. rewrite DN in H. destruct (elab a) as [a'|] eqn:EA; [|discriminate]. apply Some_inj in H. subst.
      destruct (ONE a _ a' (or_introl eq_refl) Ta EA (or_introl eq_refl)) as (A & B & G). apply all_good; [|intros c [<-|[]]; auto].
      split; [|intros p []]. intros u. cbn. destruct (conc_struct _ _ _ _ _ DN A) as (cs & fu & q & PS & EQ & FM). rewrite EQ.
      apply In_nth_error in IM as [i IM].
      assert (X : exists x, nth_error q i = Some x /\ spec_conc decls fu cs spec = Some (CT x)).
      { clear - FM IM. revert i IM. induction FM as [|m x ms q E FM IH]; intros [|i] IM; cbn in *; try discriminate; eauto. apply Some_inj in IM. subst. eauto. }
      destruct X as (x & X & SC). pose proof (means_conc decls arity ps cs PS _ _ _ _ SC M) as Y. pose proof (is_conc_det _ _ _ _ Y C) as Z_. injection Z_ as ->.
      exists q, i. split; auto. split; [eapply (de_members _ _ _ _ _ _ _ _ _ _ D); eauto|]. split; [rewrite map_length; clear - FM; induction FM; cbn; auto|].
      split; auto. rewrite nth_error_map, IM. reflexivity.
    + apply map_some in H as (a' & H & ->). destruct (ONE a _ a' (or_introl eq_refl) Ta H (or_introl eq_refl)) as (A & B & G). apply all_good; [|intros c [<-|[]]; auto].
      split; [|intros p []]. intros u. cbn. pose proof (is_conc_det _ _ _ _ A C) as X. injection X. auto.
    + apply map_some in H as (q & H & ->). apply all_inv in H. assert (TL2 : Forall2 typed l (repeat t (List.length l))) by (clear - TL; induction TL; cbn; constructor; auto).
      destruct (MANY l _ q (fun a I => I) TL2 H (fun a I => I)) as (A & B & G). apply all_good; auto. split; [|intros p []]. intros u. cbn.
      destruct (conc_sized_array _ _ _ C) as (el & kk & -> & X & N). exists el. assert (LQ : List.length q = List.length l) by (clear - H; induction H; cbn; auto).
      split; [f_equal; lia|]. clear - A X LQ. rewrite <- LQ in A. clear LQ. induction q as [|a q IH]; constructor; cbn in A; inversion A; subst; auto.
      pose proof (is_conc_det _ _ _ _ H2 X) as Y. injection Y. auto.
    + apply two_inv in H as (a' & m & H & HS & ->). destruct CI as [CI _]. pose proof (size_at_conc _ _ _ CI HS). subst n.
      destruct (ONE a _ a' (or_introl eq_refl) Ta H (or_introl eq_refl)) as (A & B & G). apply all_good; [|intros c' [<-|[]]; auto].
      split; [|intros p []]. intros u. cbn. destruct (conc_sized_array _ _ _ C) as (el & kk & -> & X & N). apply Nat2Z.inj in N. subst.
      pose proof (is_conc_det _ _ _ _ A X) as Y. injection Y as ->. reflexivity.
    + apply two_inv in H as (a' & i' & H & HS & ->). destruct (ONE a _ a' (or_introl eq_refl) Ta H (or_introl eq_refl)) as (A & B & G).
      destruct (ONE i _ i' (or_intror (or_introl eq_refl)) Ti HS (or_intror (or_introl eq_refl))) as (A' & B' & G').
      apply all_good; [|intros c' [<-|[<-|[]]]; auto]. split; [|intros p []]. intros u. cbn. destruct (conc_sized_array _ _ _ A) as (el & kk & EQ & X & N).
      destruct (conc_uint _ _ A') as (mm & _ & EQ'). pose proof (is_conc_det _ _ _ _ X C) as Y. injection Y as ->. exists kk, mm. split; auto. split; auto. apply B.
    + apply three_inv in H as (a' & s' & e' & H & HS & HE & ->). destruct (ONE a _ a' (or_introl eq_refl) Ta H (or_introl eq_refl)) as (A & B & G).
      apply all_good; [|intros c' [<-|[]]; auto]. split; [|intros p []]. intros u. cbn. destruct (conc_sized_array _ _ _ A) as (el & kk & EQ & X & ->).
      destruct (conc_sized_array _ _ _ C) as (el' & k2 & -> & X' & N). pose proof (is_conc_det _ _ _ _ X X') as Y. injection Y as <-.
      assert (ES : s = Z.of_nat (match s' with Some s => s | None => 0 end)).
      { destruct from as [c|]; cbn in HS; [apply map_some in HS as (m & HS & ->); destruct (F1 _ eq_refl) as [CI _]; eapply size_at_conc; eauto | apply Some_inj in HS; subst s'; auto]. }
      assert (EE : e = Z.of_nat (match e' with Some e => e | None => kk end)).
      { destruct upto as [c|]; cbn in HE; [apply map_some in HE as (m & HE & ->); destruct (U1 _ eq_refl) as [CI _]; eapply size_at_conc; eauto | apply Some_inj in HE; subst e'; auto]. }
      exists el, kk, (match s' with Some s => s | None => 0 end), (match e' with Some e => e | None => kk end). split; auto.
      remember (match s' with Some s => s | None => 0 end) as sn. remember (match e' with Some e => e | None => kk end) as en. clear - ES EE LE N.
      split; [lia|]. split; auto. f_equal. lia.
    + (* block *) apply two_inv in H as (q & r' & H & HR & ->). apply all_inv in H.
      destruct (stms_good ss q CS H IHs) as (A & B & G).
      { intros c x I W. apply (KIDS c); auto. cbn. apply in_or_app. auto. }
      assert (RR : match r' with Some b => exists a, r = Some a /\ elab a = Some b | None => r = None end).
      { destruct r as [a|]; [apply map_some in HR as (b & X & ->); eauto | apply Some_inj in HR; subst; auto]. }
      assert (RG : match r' with Some b => is_conc t (CT (ExprModel.ety b)) /\ forall x, ExprSpec.within b x -> good x | None => t = TK BTuple [] end).
      { destruct r' as [b|]; [|auto]. destruct RR as (a & -> & EB). destruct (ONE a t b) as (X & _ & Y); cbn; auto. apply in_or_app. cbn. auto. }
      apply all_good.
      * split; [intros u; cbn; split; auto|].
        -- destruct r' as [b|]; [destruct RG as [X _]; pose proof (is_conc_det _ _ _ _ X C) as Y; injection Y; auto|].
           subst t. destruct (conc_tuple _ _ C) as (xs & -> & X). inversion X. reflexivity.
        -- intros p P. cbn in P. rewrite Forall_forall in B. destruct P as [(e & I)|(c & rr & v & I)]; apply (B _ I).
      * intros c I x W. cbn in I. apply in_app_or in I as [I|I]; [eapply G; eauto|]. destruct r' as [b|]; [|destruct I]. destruct I as [<-|[]]. apply RG; auto.
    + apply three_inv in H as (c' & a' & b' & HC & HA & HB & ->).
      destruct (ONE c _ c' (or_introl eq_refl) Tc HC (or_introl eq_refl)) as (A1 & _ & G1).
      destruct (ONE a _ a' (or_intror (or_introl eq_refl)) Ta HA (or_intror (or_introl eq_refl))) as (A2 & _ & G2).
      destruct (ONE b _ b' (or_intror (or_intror (or_introl eq_refl))) Tb HB (or_intror (or_intror (or_introl eq_refl)))) as (A3 & _ & G3).
      apply all_good; [|intros y [<-|[<-|[<-|[]]]]; auto]. split; [|intros p []]. intros u. cbn. split; [apply conc_bool; auto|].
      pose proof (is_conc_det _ _ _ _ A2 C) as Y2. pose proof (is_conc_det _ _ _ _ A3 C) as Y3. injection Y2. injection Y3. auto.
    + (* gen if *) destruct (NOGEN _ _ _ eq_refl).
    + (* match *) apply two_inv in H as (a' & q & HA & HQ & ->). apply all_inv in HQ.
      destruct (ONE a _ a' (or_introl eq_refl) Ta HA (or_introl eq_refl)) as (A1 & [[P1 [R1 _]] _] & G1).
      destruct (arms_good u t arms q _ A1 P1 R1 FA HQ (fun e I => IHk e (or_intror I)) ct C) as (X & Y & Z_).
      apply all_good.
      * split; [intros uu; cbn; exact X|]. intros p (g & e & I). eapply Y; eauto.
      * intros c I. cbn in I. destruct I as [<-|I]; auto. apply Z_; auto. intros x W. apply (KIDS c); cbn; auto.
    + apply two_inv in H as (a' & b' & HA & HB & ->). destruct (ONE a _ a' (or_introl eq_refl) Ta HA (or_introl eq_refl)) as (A1 & F1 & G1).
      destruct (ONE b _ b' (or_intror (or_introl eq_refl)) Tb HB (or_intror (or_introl eq_refl))) as (A2 & F2 & G2).
      apply all_good; [|intros y [<-|[<-|[]]]; auto]. split; [|intros p []]. intros u. cbn.
      assert (BT : ExprSpec.bin_type ExprModel.BAdd (ExprModel.ety a') (ExprModel.ety b') ct).
      { destruct NU as ([-> | ->] & N0 & ->).
        - destruct (conc_int _ _ C) as (j & E1 & ->). destruct (conc_int _ _ A1) as (j1 & E2 & X1). destruct (conc_int _ _ A2) as (j2 & E3 & X2). rewrite X1, X2.
          destruct F1 as [[P _] _]. rewrite X1 in P. inversion P; subst. exists j1. split; auto. left. split; auto. split; f_equal; lia.
        - destruct (conc_uint _ _ C) as (j & E1 & ->). destruct (conc_uint _ _ A1) as (j1 & E2 & X1). destruct (conc_uint _ _ A2) as (j2 & E3 & X2). rewrite X1, X2.
          destruct F1 as [[P _] _]. rewrite X1 in P. inversion P; subst. exists j1. split; auto. right. split; auto. split; f_equal; lia. }
      destruct OP as [-> | ->]; exact BT.
    + apply two_inv in H as (a' & b' & HA & HB & ->). destruct (ONE a _ a' (or_introl eq_refl) Ta HA (or_introl eq_refl)) as (A1 & F1 & G1).
      destruct (ONE b _ b' (or_intror (or_introl eq_refl)) Tb HB (or_intror (or_introl eq_refl))) as (A2 & F2 & G2).
      apply all_good; [|intros y [<-|[<-|[]]]; auto]. split; [|intros p []]. intros u. cbn.
      destruct F1 as [[P1 _] _]. destruct F2 as [[P2 _] _]. destruct NU as ([-> | ->] & N0 & ->).
      * destruct (conc_int _ _ C) as (j & E1 & ->). destruct (conc_int _ _ A1) as (j1 & E2 & X1). destruct (conc_int _ _ A2) as (j2 & E3 & X2). rewrite X1, X2 in *.
        inversion P1; inversion P2; subst. exists j1, j2. split; auto. split; auto. left. split; auto. split; auto. f_equal; lia.
      * destruct (conc_uint _ _ C) as (j & E1 & ->). destruct (conc_uint _ _ A1) as (j1 & E2 & X1). destruct (conc_uint _ _ A2) as (j2 & E3 & X2). rewrite X1, X2 in *.
        inversion P1; inversion P2; subst. exists j1, j2. split; auto. split; auto. right. split; auto. split; auto. f_equal; lia.
    + apply two_inv in H as (a' & b' & HA & HB & ->). destruct (ONE a _ a' (or_introl eq_refl) Ta HA (or_introl eq_refl)) as (A1 & F1 & G1).
      destruct (ONE b _ b' (or_intror (or_introl eq_refl)) Tb HB (or_intror (or_introl eq_refl))) as (A2 & F2 & G2).
      apply all_good; [|intros y [<-|[<-|[]]]; auto]. split; [|intros p []]. intros u. cbn.
      assert (BT : ExprModel.ety a' = ct /\ ExprModel.ety b' = ct /\ exists n, ExprSpec.number ct n).
      { pose proof (is_conc_det _ _ _ _ A1 C) as Y1. pose proof (is_conc_det _ _ _ _ A2 C) as Y2. injection Y1 as Y1. injection Y2 as Y2. split; auto. split; auto.
        destruct (conc_is_number _ _ _ _ NU C) as (j & _ & [[_ X]|[_ X]]); rewrite X in *; inversion PC; subst; exists j; split; auto. }
      destruct op; try contradiction; exact BT.
    + apply map_some in H as (a' & H & ->). destruct (ONE a _ a' (or_introl eq_refl) Ta H (or_introl eq_refl)) as (A & B & G). apply all_good; [|intros c [<-|[]]; auto].
      split; [|intros p []]. intros u. cbn. destruct (conc_int _ _ C) as (j & -> & X). destruct (conc_int _ _ A) as (j1 & E0 & X1). apply Nat2Z.inj in E0. subst. inversion PC; subst. exists j1. auto.
    + apply map_some in H as (a' & H & ->). destruct (ONE a _ a' (or_introl eq_refl) Ta H (or_introl eq_refl)) as (A & B & G). apply all_good; [|intros c [<-|[]]; auto].
      split; [|intros p []]. intros u. cbn. split; apply conc_bool; auto.
    + apply map_some in H as (a' & H & ->). destruct (ONE a _ a' (or_introl eq_refl) Ta H (or_introl eq_refl)) as (A & B & G). apply all_good; [|intros c [<-|[]]; auto].
      split; [|intros p []]. intros u. cbn. pose proof (is_conc_det _ _ _ _ A C) as Y. injection Y as Y. split; auto.
      destruct (conc_is_number _ _ _ _ NU C) as (j & _ & [[_ X]|[_ X]]); rewrite X in *; inversion PC; subst; exists j; split; auto.
    + apply two_inv in H as (cl & q & HC & HQ & ->). apply all_inv in HQ. destruct (MANY args ts q (fun a I => I) TA2 HQ (fun a I => I)) as (A & B & G).
      apply all_good; auto. split; [|intros p []]. intros u. eapply call_ok; eauto.
  - intros s IH s' CS H F. destruct CS as [p so e t PT ET SP|e t ET|p so clock value reset initial t PT SP TC TV TR TI|l FD|e ET|a e t TA TE]; rewrite elab_stm_eq in H.
    + apply two_inv in H as (p' & e' & HP_ & HE & ->). pose proof (elab_type _ _ ET _ HE) as C. destruct (F e' e' (or_introl eq_refl) (ExprSpec.W_self _)) as [[P [RD _]] _].
      destruct (pattern_conc _ _ PT _ _ HP_ C P) as [A B]. split; [split; auto|]. split; auto.
      intros c x [<-|[]] W. refine (IH e (or_introl eq_refl) _ _ ET HE _ x W). intros y Y. eapply F; [left; reflexivity|exact Y].
    + apply map_some in H as (e' & HE & ->). split; [exact Logic.I|]. split; [exact Logic.I|].
      intros c x [<-|[]] W. refine (IH e (or_introl eq_refl) _ _ ET HE _ x W). intros y Y. eapply F; [left; reflexivity|exact Y].
    + destruct initial; [discriminate|]. destruct (elab_pat p) as [p'|] eqn:HP_; [|discriminate]. destruct (elab clock) as [c'|] eqn:HC; [|discriminate].
      destruct (match reset with Some (a, b) => option_map Some (two pair (elab a) (elab b)) | None => Some None end) as [r'|] eqn:HR; [|discriminate].
      destruct (elab value) as [v'|] eqn:HV; [|discriminate]. apply Some_inj in H. subst s'. cbn [ExprSpec.stm_exprs] in F.
      assert (IV : In v' (c' :: match r' with Some (t, i) => [t; i] | None => [] end ++ [v'])) by (right; apply in_or_app; right; left; reflexivity).
      assert (RR : match r' with Some (x, y) => exists a b, reset = Some (a, b) /\ elab a = Some x /\ elab b = Some y | None => True end).
      { destruct reset as [[a b]|]; [|apply Some_inj in HR; subst; auto]. apply map_some in HR as (ab & HR & ->). apply two_inv in HR as (x & y & X & Y & ->). eauto 6. }
      pose proof (elab_type _ _ TV _ HV) as C. destruct (F v' v' IV (ExprSpec.W_self _)) as [[P [RD _]] _].
      destruct (pattern_conc _ _ PT _ _ HP_ C P) as [A B]. split; [|split; [exact B|]].
      * split; [apply conc_clock; eapply elab_type; eauto|]. split; [split; auto|]. destruct r' as [[x y]|]; auto. destruct RR as (a & b & -> & X & Y).
        destruct (TR _ _ eq_refl) as [T1 T2]. split; [apply conc_bool; eapply elab_type; eauto|]. pose proof (elab_type _ _ T2 _ Y) as C2. pose proof (is_conc_det _ _ _ _ C2 C) as Z_. injection Z_. auto.
      * intros c x I W. cbn in I. pose proof I as I0. destruct I as [<-|I].
        { refine (IH clock _ _ _ TC HC _ x W); [cbn; auto|]. intros y Y. eapply F; [left; reflexivity|exact Y]. }
        apply in_app_or in I as [I|[<-|[]]].
        { destruct r' as [[x1 y1]|]; [|destruct I]. destruct RR as (a & b & -> & X & Y). destruct (TR _ _ eq_refl) as [T1 T2]. destruct I as [<-|[<-|[]]].
          - refine (IH a _ _ _ T1 X _ x W); [cbn; auto|]. intros y W'. eapply F; [|exact W']. cbn; auto.
          - refine (IH b _ _ _ T2 Y _ x W); [cbn; auto|]. intros y W'. eapply F; [|exact W']. cbn; auto. }
        { refine (IH value _ _ _ TV HV _ x W); [cbn; auto|]. intros y Y. eapply F; [exact IV|exact Y]. }
    + apply Some_inj in H. subst. split; [exact Logic.I|]. split; [exact Logic.I|]. intros c x [].
    + apply map_some in H as (e' & HE & ->). split; [apply conc_bool; eapply elab_type; eauto|]. split; [exact Logic.I|].
      intros c x [<-|[]] W. refine (IH e (or_introl eq_refl) _ _ ET HE _ x W). intros y Y. eapply F; [left; reflexivity|exact Y].
    + discriminate.
Qed.

(** *** A unit *)
Notation elab_unit := (elab_unit decls fuel member_name callee_of ty_of gs).
Lemma inputs_conc l (m : list (nat * cty)) : Forall (fun i => exists t, ty_of (KName (fst i)) = Some t /\ means gs (snd i) t) l ->
  Forall2 (fun i x => fst x = fst i /\ type_at (KName (fst i)) = Some (snd x)) l m ->
  Forall2 (fun i x => exists t, means gs (snd i) t /\ is_conc t (CT (snd x))) l m.
Proof.
  intros IN UI. induction UI as [|i x l m [A B] UI IH]; constructor; inversion IN; subst; auto.
  destruct H1 as (t & E & M). exists t. split; auto. eapply type_at_conc; eauto.
Qed.
Lemma inputs_type (l : list (nat * tspec)) (m : list (nat * cty)) y t : Forall2 (fun i x => fst x = fst i /\ type_at (KName (fst i)) = Some (snd x)) l m ->
  In (y, t) m -> type_at (KName y) = Some t.
Proof. intros UI I. induction UI as [|i z l m [A B] UI IH]; [destruct I|]. destruct I as [->|I]; auto. cbn in *. subst. exact B. Qed.
Variable u : hunit.
Hypothesis WT : TypingSpec.well_typed int_ uint_ bool_ clock_ arity structs heads ty_of gs u.
Variable e : ExprModel.unit_.
Hypothesis EU : elab_unit u = Some e.

Lemma unit_inputs : Forall2 (fun i x => fst x = fst i /\ type_at (KName (fst i)) = Some (snd x)) (hu_inputs u) (ExprModel.inputs e).
Proof.
  unfold ElabModel.elab_unit in EU. apply two_inv in EU as (ins & b & A & _ & ->). cbn. apply all_inv in A. eapply Forall2_weaken; [|exact A].
  cbv beta. intros i x H. apply map_some in H as (c & H & ->). auto.
Qed.
Lemma unit_body : elab (hu_body u) = Some (ExprModel.body e).
Proof. unfold ElabModel.elab_unit in EU. apply two_inv in EU as (ins & b & _ & B & ->). exact B. Qed.
Lemma unit_interface : hu_metas u = [] ->
  Forall2 (fun i x => exists t, means [] (snd i) t /\ is_conc t (CT (snd x))) (hu_inputs u) (ExprModel.inputs e) /\
  exists t, match hu_output u with Some o => means [] o t | None => t = TK BTuple [] end /\ is_conc t (CT (ExprModel.ety (ExprModel.body e))).
Proof.
  intros M. destruct WT as ([HK _] & IN & t & T & O). rewrite M in HK. assert (EG : gs = []) by (inversion HK; auto). split.
  - pose proof (inputs_conc _ _ IN unit_inputs) as X. rewrite EG in X. exact X.
  - exists t. rewrite EG in O. split; auto. eapply elab_type; [exact T | exact unit_body].
Qed.
Hypothesis FINE : forall x, ExprSpec.within (ExprModel.body e) x -> fine x.
Hypothesis SCOPED : forall id t x, ExprSpec.within (ExprModel.body e) (ExprModel.Ex id t (ExprModel.XName x)) -> exists s, ExprSpec.bound e x s.
Lemma unit_good x : ExprSpec.within (ExprModel.body e) x -> good x.
Proof. destruct WT as (_ & _ & t & T & _). exact (main (hu_body u) t _ T unit_body FINE x). Qed.
Lemma bound_type x s : ExprSpec.bound e x s -> type_at (KName x) = Some s.
Proof.
  assert (IN : forall b p, ExprSpec.within (ExprModel.body e) b -> pattern_in b p -> forall y s0, ExprSpec.pat_name p y s0 -> type_at (KName y) = Some s0).
  { intros b p W P. destruct (unit_good _ W) as [_ G]. exact (G _ P). }
  intros [y t I|p v y t K N|p c r v y t K N|id t0 a arms p g b y t W I N].
  - eapply inputs_type; [exact unit_inputs|exact I].
  - inversion K as [id t0 ss r s0 W I]; subst. eapply IN; [exact W| |exact N]. cbn. left. eauto.
  - inversion K as [id t0 ss r0 s0 W I]; subst. eapply IN; [exact W| |exact N]. cbn. right. eauto.
  - eapply IN; [exact W| |exact N]. cbn. eauto.
Qed.
Lemma unit_typed : ExprSpec.well_typed prog e.
Proof.
  intros [id t k] W. pose proof (unit_good _ W) as [G _]. destruct k; try apply G. cbn in G |- *.
  destruct (SCOPED _ _ _ W) as [s B]. pose proof (bound_type _ _ B) as X. rewrite G in X. apply Some_inj in X. subst. exact B.
Qed.
End Unit. End Program.

(** ** More types known *)
Section More.
Variable decls : nat -> option (nat * decl).
Variable fuel : nat.
Variable member_name : nat -> string.
Variable callee_of : nat -> option ExprModel.callee.
Variable gs : list ty.
Variables f g : key -> option ty.
Hypothesis MORE : forall k t, f k = Some t -> g k = Some t.

Lemma type_at_more k c : type_at decls fuel f k = Some c -> type_at decls fuel g k = Some c.
Proof. unfold type_at. destruct (f k) as [t|] eqn:E; [|discriminate]. rewrite (MORE _ _ E). auto. Qed.
Lemma size_at_more k c : size_at decls fuel f k = Some c -> size_at decls fuel g k = Some c.
Proof. unfold size_at. destruct (f (KId (fst k))) as [t|] eqn:E; [|discriminate]. rewrite (MORE _ _ E). auto. Qed.
Lemma optional_more o c : optional (size_at decls fuel f) o = Some c -> optional (size_at decls fuel g) o = Some c.
Proof. destruct o; cbn; auto. intros H. apply map_some in H as (a & H & ->). rewrite (size_at_more _ _ H). reflexivity. Qed.
Lemma all_more {A B} (h j : A -> option B) l q : (forall a, In a l -> forall b, h a = Some b -> j a = Some b) -> all h l = Some q -> all j l = Some q.
Proof.
  intros H E. apply all_intro. apply all_inv in E. induction E; constructor; [apply H; cbn; auto|]. apply IHE. intros; apply H; cbn; auto.
Qed.
Notation pat_f := (elab_pat decls fuel callee_of f).
Notation pat_g := (elab_pat decls fuel callee_of g).
Lemma elab_pat_more : forall p p', pat_f p = Some p' -> pat_g p = Some p'.
Proof.
  induction p as [id k IH] using hpat_ind'. intros p' H. cbn [elab_pat] in *. destruct (type_at decls fuel f (KId id)) as [c|] eqn:TA; [|discriminate].
  rewrite (type_at_more _ _ TA). apply map_some in H as (k' & H & ->). destruct k as [z|b|x pre [q|]|l|l|n l]; cbn [psub] in IH.
  - rewrite H. reflexivity.
  - rewrite H. reflexivity.
  - apply map_some in H as (q' & H & ->). rewrite (IH q eq_refl _ H). reflexivity.
  - rewrite H. reflexivity.
  - apply map_some in H as (q & H & ->). rewrite (all_more pat_f pat_g l q); auto.
  - apply map_some in H as (q & H & ->). rewrite (all_more pat_f pat_g l q); auto.
  - destruct (callee_of n) as [cl|]; [|discriminate]. destruct (all pat_f l) as [q|] eqn:E; [|destruct cl; discriminate].
    rewrite (all_more pat_f pat_g l q) by auto. rewrite H. reflexivity.
Qed.
Notation ex_f := (elab decls fuel member_name callee_of f gs).
Notation ex_g := (elab decls fuel member_name callee_of g gs).
Notation st_f := (elab_stm decls fuel member_name callee_of f gs).
Notation st_g := (elab_stm decls fuel member_name callee_of g gs).
Lemma elab_more : forall e e', ex_f e = Some e' -> ex_g e = Some e'.
Proof.
  apply (hx_rec' (fun e => forall e', ex_f e = Some e' -> ex_g e = Some e') (fun s => forall s', st_f s = Some s' -> st_g s = Some s')).
  - intros id k IH IHs e' H.
    assert (LIST : forall l q, (forall a, In a l -> In a (kids k)) -> all ex_f l = Some q -> all ex_g l = Some q).
    { intros l q I. apply all_more. intros a J. apply IH. auto. }
    destruct k; cbn [elab] in H |- *; 
      try (destruct (type_at decls fuel f (KId id)) as [ct|] eqn:TA; [|discriminate]; rewrite (type_at_more _ _ TA); apply map_some in H as (k' & H & ->)); cbn [kids] in *.
    + rewrite H. reflexivity.
    + rewrite H. reflexivity.
    + rewrite H. reflexivity.
    + rewrite H. reflexivity.
    + rewrite H. reflexivity.
    + apply map_some in H as (q & H & ->). rewrite (LIST _ _ (fun a I => I) H). reflexivity.
    + apply map_some in H as (a' & H & ->). rewrite (IH a (or_introl eq_refl) _ H). reflexivity.
    + destruct (f (KId (hid a))) as [t|] eqn:E; [|discriminate]. rewrite (MORE _ _ E). destruct t as [[]|]; try discriminate. destruct (decls n) as [[? []]|]; try discriminate.
      destruct (ex_f a) as [a'|] eqn:EA; [|discriminate]. rewrite (IH a (or_introl eq_refl) _ EA). rewrite H. reflexivity.
    + apply map_some in H as (a' & H & ->). rewrite (IH a (or_introl eq_refl) _ H). reflexivity.
    + apply map_some in H as (q & H & ->). rewrite (LIST _ _ (fun a I => I) H). reflexivity.
    + apply two_inv in H as (a' & m & H & S & ->). rewrite (IH a (or_introl eq_refl) _ H), (size_at_more _ _ S). reflexivity.
    + apply two_inv in H as (a' & m & H & S & ->). rewrite (IH a (or_introl eq_refl) _ H), (IH i (or_intror (or_introl eq_refl)) _ S). reflexivity.
    + apply three_inv in H as (a' & m & n & H & X & Y & ->). rewrite (IH a (or_introl eq_refl) _ H), (optional_more _ _ X), (optional_more _ _ Y). reflexivity.
    + apply two_inv in H as (q & r' & H & R & ->). match goal with |- context [all ?j ss] => rewrite (all_more st_f j ss q (fun a I b K => IHs a I b K) H) end.
      destruct r as [a|]; [|apply Some_inj in R; subst; reflexivity]. apply map_some in R as (b & R & ->). rewrite (IH a (or_introl eq_refl) _ R). reflexivity.
    + apply three_inv in H as (x & y & z & X & Y & Z_ & ->). rewrite (IH c (or_introl eq_refl) _ X), (IH a (or_intror (or_introl eq_refl)) _ Y), (IH b (or_intror (or_intror (or_introl eq_refl))) _ Z_). reflexivity.
    + destruct (f (KId (fst c))) as [t|] eqn:E; [|discriminate]. rewrite (MORE _ _ E). destruct t as [[]|]; try discriminate. destruct b0; apply IH; cbn; auto.
    + apply two_inv in H as (a' & q & H & S & ->). rewrite (IH a (or_introl eq_refl) _ H).
      match type of S with all ?h _ = _ => match goal with |- context [all ?j arms] => rewrite (all_more h j arms q); [reflexivity| |exact S] end end.
      intros [[p gd] e] I b K. apply three_inv in K as (x & y & z & X & Y & Z_ & ->). rewrite (elab_pat_more _ _ X).
      assert (SUB : forall e0, In e0 (e :: opt_list gd) -> ex_f e0 = ex_f e0 /\ forall b, ex_f e0 = Some b -> ex_g e0 = Some b).
      { intros e0 I0. split; auto. apply IH. right. apply in_flat_map. exists (p, gd, e). auto. }
      rewrite (proj2 (SUB e (or_introl eq_refl)) _ Z_). destruct gd as [a0|]; [|apply Some_inj in Y; subst; reflexivity].
      apply map_some in Y as (b & Y & ->). rewrite (proj2 (SUB a0 (or_intror (or_introl eq_refl))) _ Y). reflexivity.
    + apply two_inv in H as (a' & m & H & S & ->). rewrite (IH a (or_introl eq_refl) _ H), (IH b (or_intror (or_introl eq_refl)) _ S). reflexivity.
    + apply map_some in H as (a' & H & ->). rewrite (IH a (or_introl eq_refl) _ H). reflexivity.
    + rewrite H. reflexivity.
    + apply two_inv in H as (cl & q & H & S & ->). rewrite H, (LIST _ _ (fun a I => I) S). reflexivity.
  - intros s IH s' H. rewrite elab_stm_eq in *. destruct s as [p so e|e|p so clock value reset [i|]|l|e|a b]; cbn [skids] in IH.
    + apply two_inv in H as (p' & e' & H & S & ->). rewrite (elab_pat_more _ _ H), (IH e (or_introl eq_refl) _ S). reflexivity.
    + apply map_some in H as (a' & H & ->). rewrite (IH e (or_introl eq_refl) _ H). reflexivity.
    + discriminate.
    + destruct (pat_f p) as [p'|] eqn:EP; [|discriminate]. rewrite (elab_pat_more _ _ EP). destruct (ex_f clock) as [c'|] eqn:EC; [|discriminate]. rewrite (IH clock (or_introl eq_refl) _ EC).
      destruct (ex_f value) as [v'|] eqn:EV; [|destruct reset as [[]|]; [destruct (option_map _ _)|]; discriminate]. rewrite (IH value (or_intror (or_introl eq_refl)) _ EV).
      destruct reset as [[a b]|]; [|exact H]. destruct (two pair (ex_f a) (ex_f b)) as [ab|] eqn:ET; [|discriminate]. apply two_inv in ET as (x & y & X & Y & ->).
      rewrite (IH a ltac:(cbn; auto) _ X), (IH b ltac:(cbn; auto) _ Y). exact H.
    + exact H.
    + apply map_some in H as (a' & H & ->). rewrite (IH e (or_introl eq_refl) _ H). reflexivity.
    + discriminate.
Qed.
Lemma elab_unit_more u e : elab_unit decls fuel member_name callee_of f gs u = Some e -> elab_unit decls fuel member_name callee_of g gs u = Some e.
Proof.
  unfold elab_unit. intros H. apply two_inv in H as (ins & b & A & B & ->). rewrite (elab_more _ _ B).
  match type of A with all ?h _ = _ => match goal with |- context [all ?j ?l] => rewrite (all_more h j l ins); [reflexivity| |exact A] end end.
  intros i _ x H. apply map_some in H as (c & H & ->). rewrite (type_at_more _ _ H). reflexivity.
Qed.
End More.
