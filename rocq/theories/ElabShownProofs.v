(** Proofs about [ElabShown]. *)
From Coq Require Import List ZArith Bool Arith String Lia.
From Verif Require Import InferModel InferSpec TypingModel TypingSpec TypingProofs ElabModel ElabSpec ElabShown ElabProofs BitsFacts.
From Verif Require PatModel LowerModel ExprModel.
Import ListNotations.
Local Open Scope list_scope.

Section Shown.
Variable decls : nat -> option (nat * decl).
Notation written := (written decls). Notation stands := (stands decls). Notation instance := (instance decls).

Lemma F2 {A B} (P Q : A -> B -> Prop) l q : (forall a b, In a l -> P a b -> Q a b) -> Forall2 P l q -> Forall2 Q l q.
Proof. intros H F. induction F; constructor; [apply H; cbn; auto|]. apply IHF. intros; apply H; cbn; auto. Qed.
Lemma decl_instance fuel d ps t : (forall ps s c, spec_conc decls fuel ps s = Some c -> written ps s c) ->
  decl_conc decls (spec_conc decls fuel) d ps = Some t -> instance d ps t.
Proof.
  intros IH H. unfold decl_conc in H. destruct (decls d) as [[k body]|] eqn:D; [|discriminate]. destruct (Nat.eqb_spec (List.length ps) k); [|discriminate]. subst k.
  destruct body as [p|ms|os].
  - destruct p; cbn [prim_conc] in H; destruct ps as [|c [|]]; try discriminate; cbn in D.
    + apply map_some in H as (n & H & ->). apply as_size_inv in H. apply Some_inj in H. subst. apply I_int. auto.
    + apply map_some in H as (n & H & ->). apply as_size_inv in H. apply Some_inj in H. subst. apply I_uint. auto.
    + apply Some_inj in H. subst. apply I_bool. auto.
    + apply Some_inj in H. subst. apply I_clock. auto.
  - apply map_some in H as (ts & H & ->). apply all_inv in H. apply I_struct with ms; auto. eapply F2; [|exact H]. intros a b _ E. apply as_type_inv in E. auto.
  - apply map_some in H as (ts & H & ->). apply all_inv in H. apply I_enum with os; auto. eapply F2; [|exact H]. intros a b _ E. apply all_inv in E. eapply F2; [|exact E].
    intros x y _ E'. apply as_type_inv in E'. auto.
Qed.
Lemma spec_written fuel : forall ps s c, spec_conc decls fuel ps s = Some c -> written ps s c.
Proof.
  induction fuel as [|fuel IH]; intros ps s c H; [discriminate|]. destruct s; cbn [spec_conc] in H; try discriminate; try (apply Some_inj in H; subst; constructor; fail).
  - destruct (all (spec_conc decls fuel ps) l) as [qs|] eqn:E; [|discriminate]. apply map_some in H as (t & H & ->). apply all_inv in E.
    apply W_named with qs; [eapply F2; [|exact E]; auto|]. eapply decl_instance; eauto.
  - constructor. auto.
  - apply map_some in H as (ts & H & ->). apply all_inv in H. constructor. eapply F2; [|exact H]. intros a b _ E. apply as_type_inv in E. auto.
  - destruct (as_type _) as [t|] eqn:T; [|discriminate]. destruct (as_size _) as [k|] eqn:K; [|discriminate]. apply Some_inj in H. subst. apply as_type_inv in T. apply as_size_inv in K. constructor; auto.
Qed.
Lemma conc_stands fuel : forall t c, conc_of decls fuel t = Some c -> stands t c.
Proof.
  induction fuel as [|fuel IH]; intros t c H; [discriminate|]. destruct t as [h l|]; [|discriminate]. destruct h; cbn [conc_of] in H; try discriminate; try (apply Some_inj in H; subst; constructor; fail).
  - destruct (all (conc_of decls fuel) l) as [qs|] eqn:E; [|discriminate]. apply map_some in H as (t & H & ->). apply all_inv in E.
    apply ST_named with qs; [eapply F2; [|exact E]; auto|]. eapply decl_instance; eauto. apply spec_written.
  - apply map_some in H as (ts & H & ->). apply all_inv in H. constructor. eapply F2; [|exact H]. intros a b _ E. apply as_type_inv in E. auto.
  - destruct l as [|a [|n [|]]]; try discriminate. destruct (as_type _) as [t|] eqn:T; [|discriminate]. destruct (as_size _) as [k|] eqn:K; [|discriminate]. apply Some_inj in H. subst. apply as_type_inv in T. apply as_size_inv in K. constructor; auto.
Qed.

Variable fuel : nat.
Variable member_name : nat -> string.
Variable callee_of : nat -> option ExprModel.callee.
Variable ty_of : key -> option ty.
Variable gs : list ty.
Notation of_type := (of_type decls ty_of). Notation of_size := (of_size decls ty_of).
Lemma type_of k t : type_at decls fuel ty_of k = Some t -> of_type k t.
Proof. unfold type_at. intros H. destruct (ty_of k) as [u|] eqn:E; [|discriminate]. exists u. split; auto. apply as_type_inv in H. eapply conc_stands; eauto. Qed.
Lemma size_of c n : size_at decls fuel ty_of c = Some n -> of_size c n.
Proof. unfold size_at. intros H. destruct (ty_of (KId (fst c))) as [u|] eqn:E; [|discriminate]. exists u. split; auto. apply as_size_inv in H. eapply conc_stands; eauto. Qed.
Lemma sizes_of o n : optional (size_at decls fuel ty_of) o = Some n -> opt2 of_size o n.
Proof. intros H. destruct o as [c|]; cbn in H; [|apply Some_inj in H; subst; constructor]. apply map_some in H as (k & H & ->). constructor. apply size_of. auto. Qed.

Notation shows_pat := (shows_pat decls callee_of ty_of).
Notation shows := (shows decls member_name callee_of ty_of gs).
Notation shows_stm := (shows_stm decls member_name callee_of ty_of gs).
Notation shows_arm := (shows_arm decls member_name callee_of ty_of gs).
Notation pat := (elab_pat decls fuel callee_of ty_of).
Notation ex := (elab decls fuel member_name callee_of ty_of gs).
Notation st := (elab_stm decls fuel member_name callee_of ty_of gs).
Lemma elab_pat_shows : forall p p', pat p = Some p' -> shows_pat p p'.
Proof.
  induction p as [id k IH] using hpat_ind'. intros p' H. cbn [elab_pat] in *. destruct (type_at decls fuel ty_of (KId id)) as [c|] eqn:TA; [|discriminate].
  apply map_some in H as (k' & H & ->). constructor; [apply type_of; auto|]. destruct k as [z|b|x pre [q|]|l|l|n l]; cbn [psub] in IH.
  - apply Some_inj in H. subst. constructor.
  - apply Some_inj in H. subst. constructor.
  - apply map_some in H as (q' & H & ->). constructor. constructor. apply (IH q eq_refl _ H).
  - apply Some_inj in H. subst. constructor. constructor.
  - apply map_some in H as (q & H & ->). apply all_inv in H. constructor. eapply F2; [|exact H]. auto.
  - apply map_some in H as (q & H & ->). apply all_inv in H. constructor. eapply F2; [|exact H]. auto.
  - destruct (callee_of n) as [cl|] eqn:CN; [|discriminate]. destruct (all pat l) as [q|] eqn:E; [|destruct cl; discriminate]. apply all_inv in E.
    destruct cl; try discriminate; apply Some_inj in H; subst; econstructor; eauto; eapply F2; try exact E; auto.
Qed.
Lemma elab_shows : forall e e', ex e = Some e' -> shows e e'.
Proof.
  apply (hx_rec' (fun e => forall e', ex e = Some e' -> shows e e') (fun s => forall s', st s = Some s' -> shows_stm s s')).
  - intros id k IH IHs e' H.
    assert (LIST : forall l q, (forall a, In a l -> In a (kids k)) -> all ex l = Some q -> Forall2 shows l q).
    { intros l q I E. apply all_inv in E. eapply F2; [|exact E]. intros a b J. apply IH. auto. }
    destruct k; cbn [elab] in H |- *; 
      try (destruct (type_at decls fuel ty_of (KId id)) as [ct|] eqn:TA; [|discriminate]; apply type_of in TA; apply map_some in H as (k' & H & ->); constructor; [exact TA|]); cbn [kids] in *.
    + apply Some_inj in H. subst. constructor.
    + apply Some_inj in H. subst. constructor.
    + apply Some_inj in H. subst. constructor.
    + destruct (nth_error gs _) as [[[]|]|] eqn:E; try discriminate. apply Some_inj in H. subst. econstructor; eauto.
    + discriminate.
    + apply map_some in H as (q & H & ->). constructor. apply (LIST _ _ (fun a I => I) H).
    + apply map_some in H as (a' & H & ->). constructor. apply (IH a (or_introl eq_refl) _ H).
    + destruct (ty_of (KId (hid a))) as [t|] eqn:E; [|discriminate]. destruct t as [[]|]; try discriminate. destruct (decls n) as [[? []]|] eqn:D; try discriminate.
      destruct (ex a) as [a'|] eqn:EA; [|discriminate]. apply Some_inj in H. subst. econstructor; eauto. apply (IH a (or_introl eq_refl) _ EA).
    + apply map_some in H as (a' & H & ->). constructor. apply (IH a (or_introl eq_refl) _ H).
    + apply map_some in H as (q & H & ->). constructor. apply (LIST _ _ (fun a I => I) H).
    + apply two_inv in H as (a' & m & H & S & ->). constructor; [apply (IH a (or_introl eq_refl) _ H)|apply size_of; auto].
    + apply two_inv in H as (a' & m & H & S & ->). constructor; [apply (IH a (or_introl eq_refl) _ H)|apply (IH i (or_intror (or_introl eq_refl)) _ S)].
    + apply three_inv in H as (a' & m & n & H & X & Y & ->). constructor; [apply (IH a (or_introl eq_refl) _ H)|apply sizes_of; auto|apply sizes_of; auto].
    + apply two_inv in H as (q & r' & H & R & ->). constructor.
      * change (all st ss = Some q) in H. apply all_inv in H. eapply F2; [|exact H]. intros a b I. apply IHs. auto.
      * destruct r as [a|]; [|apply Some_inj in R; subst; constructor]. apply map_some in R as (b & R & ->). constructor. apply (IH a (or_introl eq_refl) _ R).
    + apply three_inv in H as (x & y & z & X & Y & Z_ & ->). constructor; [apply (IH c (or_introl eq_refl) _ X)|apply (IH a (or_intror (or_introl eq_refl)) _ Y)|apply (IH b (or_intror (or_intror (or_introl eq_refl))) _ Z_)].
    + destruct (ty_of (KId (fst c))) as [t|] eqn:E; [|discriminate]. destruct t as [[]|]; try discriminate. destruct b0.
      * eapply SX_taken; eauto. apply (IH a); cbn; auto.
      * eapply SX_not_taken; eauto. apply (IH b); cbn; auto.
    + apply two_inv in H as (a' & q & H & S & ->). constructor; [apply (IH a (or_introl eq_refl) _ H)|]. apply all_inv in S. eapply F2; [|exact S].
      intros [[p gd] e] b I K. apply three_inv in K as (x & y & z & X & Y & Z_ & ->).
      assert (SUB : forall e0, In e0 (e :: opt_list gd) -> forall b, ex e0 = Some b -> shows e0 b).
      { intros e0 I0. apply IH. right. apply in_flat_map. exists (p, gd, e). auto. }
      constructor; [apply elab_pat_shows; auto| |apply (SUB e (or_introl eq_refl) _ Z_)]. destruct gd as [a0|]; [|apply Some_inj in Y; subst; constructor].
      apply map_some in Y as (b & Y & ->). constructor. apply (SUB a0 (or_intror (or_introl eq_refl)) _ Y).
    + apply two_inv in H as (a' & m & H & S & ->). constructor; [apply (IH a (or_introl eq_refl) _ H)|apply (IH b (or_intror (or_introl eq_refl)) _ S)].
    + apply map_some in H as (a' & H & ->). constructor. apply (IH a (or_introl eq_refl) _ H).
    + discriminate.
    + apply two_inv in H as (cl & q & H & S & ->). constructor; [exact H|apply (LIST _ _ (fun a I => I) S)].
  - intros s IH s' H. rewrite elab_stm_eq in *. destruct s as [p so e|e|p so clock value reset [i|]|l|e|a b]; cbn [skids] in IH.
    + apply two_inv in H as (p' & e' & H & S & ->). constructor; [apply elab_pat_shows; auto|apply (IH e (or_introl eq_refl) _ S)].
    + apply map_some in H as (a' & H & ->). constructor. apply (IH e (or_introl eq_refl) _ H).
    + discriminate.
    + destruct (pat p) as [p'|] eqn:EP; [|discriminate]. apply elab_pat_shows in EP. destruct (ex clock) as [c'|] eqn:EC; [|discriminate]. apply (IH clock (or_introl eq_refl)) in EC.
      destruct (ex value) as [v'|] eqn:EV; [|destruct reset as [[]|]; [destruct (option_map _ _)|]; discriminate]. apply (IH value (or_intror (or_introl eq_refl))) in EV.
      destruct reset as [[a b]|]; [|apply Some_inj in H; subst; constructor; auto]. destruct (two pair (ex a) (ex b)) as [ab|] eqn:ET; [|discriminate]. apply two_inv in ET as (x & y & X & Y & ->).
      cbn in H. apply Some_inj in H. subst. constructor; auto; [apply (IH a ltac:(cbn; auto) _ X)|apply (IH b ltac:(cbn; auto) _ Y)].
    + apply Some_inj in H. subst. constructor.
    + apply map_some in H as (a' & H & ->). constructor. apply (IH e (or_introl eq_refl) _ H).
    + discriminate.
Qed.
Lemma elab_unit_shows u v : elab_unit decls fuel member_name callee_of ty_of gs u = Some v -> shows_unit decls member_name callee_of ty_of gs u v.
Proof.
  unfold elab_unit. intros H. apply two_inv in H as (ins & b & A & B & ->). split; [|apply elab_shows; auto]. cbn. apply all_inv in A. eapply F2; [|exact A].
  intros i x _ H. apply map_some in H as (c & H & ->). split; auto. apply type_of. auto.
Qed.
End Shown.
