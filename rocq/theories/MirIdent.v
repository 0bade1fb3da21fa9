(** Emitted identifiers are distinct. *)
From Coq Require Import String List Bool Arith Lia Ascii DecimalString Decimal DecimalNat.
From Verif Require Import Bits CodegenModel MirModel MirSpec MirAlias MirRename.
Import ListNotations.
Local Open Scope list_scope.

Notation chars := String.list_ascii_of_string.
Lemma chars_app : forall a b, chars (String.append a b) = chars a ++ chars b.
Proof. induction a; cbn; intros; [auto|]. now rewrite IHa. Qed.
Lemma chars_inj : forall a b, chars a = chars b -> a = b.
Proof.
  intros a b H. rewrite <- (String.string_of_list_ascii_of_string a), H.
  apply String.string_of_list_ascii_of_string.
Qed.

Definition is_digit (c : ascii) : bool := (48 <=? nat_of_ascii c) && (nat_of_ascii c <=? 57).
Lemma uint_digits : forall u, Forall (fun c => is_digit c = true) (chars (NilEmpty.string_of_uint u)).
Proof. induction u; cbn; constructor; auto. Qed.
Lemma show_digits : forall n, Forall (fun c => is_digit c = true) (chars (show_nat n)).
Proof. intros. apply uint_digits. Qed.
Lemma show_nonempty : forall n, chars (show_nat n) <> [].
Proof.
  intros n. unfold show_nat. destruct (Nat.to_uint n) eqn:Q; cbn; try discriminate.
  exfalso. assert (N : n = 0) by (rewrite <- (Unsigned.of_to n), Q; reflexivity). subst. discriminate.
Qed.
Lemma show_inj : forall a b, show_nat a = show_nat b -> a = b.
Proof.
  intros a b H. apply Unsigned.to_uint_inj. unfold show_nat in H.
  pose proof (NilEmpty.usu (Nat.to_uint a)) as Q. rewrite H, NilEmpty.usu in Q. congruence.
Qed.

(** Splitting off a trailing run of digits is unambiguous. *)
Lemma split_digits : forall d d' (r r' : list ascii) c c',
  Forall (fun x => is_digit x = true) d -> Forall (fun x => is_digit x = true) d' ->
  is_digit c = false -> is_digit c' = false ->
  d ++ c :: r = d' ++ c' :: r' -> d = d' /\ c = c' /\ r = r'.
Proof.
  induction d as [|x d IH]; intros d' r r' c c' F F' N N' H; destruct d' as [|y d']; cbn in H.
  - inversion H; auto.
  - inversion H; subst. inversion F'; subst. congruence.
  - inversion H; subst. inversion F; subst. congruence.
  - inversion H; subst. inversion F; inversion F'; subst. apply IH in H2 as (-> & -> & ->); auto.
Qed.
Lemma trailing_digits : forall a a' c c' n n',
  is_digit c = false -> is_digit c' = false ->
  (a ++ [c]) ++ chars (show_nat n) = (a' ++ [c']) ++ chars (show_nat n') ->
  a = a' /\ c = c' /\ n = n'.
Proof.
  intros a a' c c' n n' N N' H. apply (f_equal (@List.rev ascii)) in H.
  rewrite !rev_app_distr in H. cbn in H.
  apply split_digits in H as (H1 & H2 & H3); auto.
  - apply (f_equal (@List.rev ascii)) in H1, H3. rewrite !rev_involutive in *. split; auto. split; auto.
    apply show_inj, chars_inj. auto.
  - apply Forall_rev, show_digits.
  - apply Forall_rev, show_digits.
Qed.

(** ** Structured identifiers *)
Inductive base :=
| Raw (s : String.string) | Num (s : String.string) (k : nat) | Ex (k : nat).
Inductive ident := IV (b : base) | IB (b : base) | PI (s : String.string) | PO (s : String.string) | IIn | IOut.
Definition spell_base (b : base) : String.string :=
  match b with
  | Raw s => s
  | Num s k => String.append s (String.append "_n"%string (show_nat k))
  | Ex k => String.append "_e_"%string (show_nat k)
  end.
Definition spell (i : ident) : String.string :=
  match i with
  | IV b => spell_base b
  | IB b => String.append (spell_base b) "_mut"%string
  | PI s => String.append s "_i"%string
  | PO s => String.append s "_o"%string
  | IIn => "input__"%string
  | IOut => "output__"%string
  end.
Definition fbase (n : vn) : base :=
  match n with
  | Named id s => if (id =? 0) && negb (String.eqb s "new"%string) then Raw s else Num s id
  | EId k => Ex k
  end.
Definition bbase (n : vn) : base :=
  match n with
  | Named id s => if id =? 0 then Raw s else Num s id
  | EId k => Ex k
  end.
Lemma append_assoc : forall a b c, String.append (String.append a b) c = String.append a (String.append b c).
Proof. intros. apply chars_inj. rewrite !chars_app. now rewrite app_assoc. Qed.
Lemma var_name_spell : forall n, var_name n = spell (IV (fbase n)).
Proof. intros [id s|k]; cbn; auto. destruct ((id =? 0) && negb (String.eqb s "new"%string)); auto. Qed.
Lemma backward_spell : forall n, backward_var_name n = spell (IB (bbase n)).
Proof.
  intros [id s|k]; cbn; auto.
  - destruct (id =? 0); cbn; auto. rewrite !append_assoc. reflexivity.
Qed.

Definition names_of (i : ident) : list String.string :=
  match i with
  | IV (Raw s) | IV (Num s _) | IB (Raw s) | IB (Num s _) | PI s | PO s => [s]
  | _ => []
  end.
Definition owner_base (b : base) : vn :=
  match b with Raw s => Named 0 s | Num s k => Named k s | Ex k => EId k end.
Definition owner (i : ident) : option vn :=
  match i with
  | IV b | IB b => Some (owner_base b)
  | PI s | PO s => Some (Named 0 s)
  | IIn | IOut => None
  end.

Section Clean.
  Variable names : list String.string.
  Hypothesis clean : forall s t k, In s names -> In t names ->
    ~ In s ([t ++ "_n"%string ++ show_nat k; t ++ "_mut"%string; t ++ "_n"%string ++ show_nat k ++ "_mut"%string;
             "_e_"%string ++ show_nat k; "_e_"%string ++ show_nat k ++ "_mut"%string; t ++ "_i"%string; t ++ "_o"%string;
             "input__"%string; "output__"])%string.

  Definition inames (i : ident) : Prop := forall s, In s (names_of i) -> In s names.

  Lemma last_neq : forall (a b : list ascii) x y, x <> y -> a ++ [x] = b ++ [y] -> False.
  Proof. intros a b x y N H. apply app_inj_tail in H as [_ H]. congruence. Qed.

  Lemma num_num : forall s t k j, spell_base (Num s k) = spell_base (Num t j) -> s = t /\ k = j.
  Proof.
    intros s t k j H. apply (f_equal chars) in H. cbn in H. rewrite !chars_app in H. cbn in H.
    assert (A : forall x n, chars x ++ "_"%char :: "n"%char :: chars (show_nat n)
             = ((chars x ++ ["_"%char]) ++ ["n"%char]) ++ chars (show_nat n)).
    { intros. now rewrite <- !app_assoc. }
    rewrite !A in H. apply trailing_digits in H as (H1 & _ & ->); auto.
    apply app_inj_tail in H1 as [H1 _]. apply chars_inj in H1. auto.
  Qed.
  Lemma num_ex : forall s k j, spell_base (Num s k) <> spell_base (Ex j).
  Proof.
    intros s k j H. apply (f_equal chars) in H. cbn in H. rewrite !chars_app in H. cbn in H.
    assert (A : forall x n, chars x ++ "_"%char :: "n"%char :: chars (show_nat n)
             = ((chars x ++ ["_"%char]) ++ ["n"%char]) ++ chars (show_nat n)).
    { intros. now rewrite <- !app_assoc. }
    rewrite A in H.
    change ("_"%char :: "e"%char :: "_"%char :: chars (show_nat j))
      with ((["_"%char; "e"%char] ++ ["_"%char]) ++ chars (show_nat j)) in H.
    apply trailing_digits in H as (_ & H & _); auto. discriminate.
  Qed.
  Lemma ex_ex : forall k j, spell_base (Ex k) = spell_base (Ex j) -> k = j.
  Proof.
    intros k j H. apply (f_equal chars) in H. cbn in H. apply show_inj, chars_inj. congruence.
  Qed.

  Lemma base_inj : forall b c, inames (IV b) -> inames (IV c) -> spell_base b = spell_base c -> b = c.
  Proof.
    unfold inames. intros b c Hb Hc H.
    destruct b as [s|s k|k], c as [t|t j|j]; cbn [names_of] in *.
    - cbn in H. congruence.
    - exfalso. apply (clean s t j); [apply Hb|apply Hc|]; cbn; auto.
    - exfalso. apply (clean s s j); [apply Hb|apply Hb|]; cbn; auto 6.
    - exfalso. apply (clean t s k); [apply Hc|apply Hb|]; cbn; auto.
    - apply num_num in H as [-> ->]. auto.
    - exfalso. eapply num_ex; eauto.
    - exfalso. apply (clean t t k); [apply Hc|apply Hc|]; cbn; auto 6.
    - exfalso. eapply num_ex; eauto.
    - apply ex_ex in H. congruence.
  Qed.

  Lemma digit_last : forall b, (exists s, b = Raw s) \/ exists l c, chars (spell_base b) = l ++ [c] /\ is_digit c = true.
  Proof.
    intros [s|s k|k]; [eauto| |]; right.
    - pose proof (show_nonempty k) as N. pose proof (show_digits k) as F.
      destruct (exists_last N) as (l & c & Q). rewrite Q in F. apply Forall_app in F as [_ F]. inversion F; subst.
      exists (chars s ++ ["_"%char; "n"%char] ++ l), c. split; auto.
      cbn. rewrite !chars_app. cbn. rewrite Q. now rewrite <- app_assoc.
    - pose proof (show_nonempty k) as N. pose proof (show_digits k) as F.
      destruct (exists_last N) as (l & c & Q). rewrite Q in F. apply Forall_app in F as [_ F]. inversion F; subst.
      exists (["_"%char; "e"%char; "_"%char] ++ l), c. split; auto.
      cbn. rewrite Q. auto.
  Qed.

  (** The last character tells the kinds of generated names apart. *)
  Lemma last_clash : forall b (l : list ascii) c, is_digit c = false -> chars (spell_base b) = l ++ [c] ->
    exists s, b = Raw s.
  Proof.
    intros b l c N H. destruct (digit_last b) as [|(l' & c' & Q & D)]; auto.
    exfalso. rewrite Q in H. apply app_inj_tail in H as [_ ->]. congruence.
  Qed.

  Lemma append_inj : forall a b c, String.append a c = String.append b c -> a = b.
  Proof.
    intros a b c H. apply (f_equal chars) in H. rewrite !chars_app in H.
    apply app_inv_tail in H. now apply chars_inj.
  Qed.

  Lemma base_vs : forall b t, inames (IV b) -> In t (map spell_base [b]) ->
    (forall s, b = Raw s -> In s names) /\ t = spell_base b.
  Proof. intros b t H [->|[]]. split; auto. intros s ->. apply H. now left. Qed.

  Lemma IV_vs_IB : forall b c, inames (IV b) -> inames (IB c) -> spell (IV b) <> spell (IB c).
  Proof.
    unfold inames. intros b c Hb Hc H. cbn [spell] in H.
    assert (R : exists s, b = Raw s).
    { apply (last_clash b (chars (spell_base c) ++ ["_"; "m"; "u"]%char) "t"%char); auto.
      rewrite H, chars_app. cbn. now rewrite <- app_assoc. }
    destruct R as [s ->]. cbn in H. cbn [names_of] in Hb.
    destruct c as [t|t j|j]; cbn [names_of] in Hc.
    - apply (clean s t 0); [apply Hb|apply Hc|]; cbn; auto.
    - apply (clean s t j); [apply Hb|apply Hc|]; cbn; auto. right; right; left. subst s. cbn.
      now rewrite !append_assoc.
    - apply (clean s s j); [apply Hb|apply Hb|]; cbn; auto. do 4 right; left. subst s. auto.
  Qed.
  Lemma IV_vs_PI : forall b t, inames (IV b) -> In t names -> spell (IV b) <> spell (PI t).
  Proof.
    unfold inames. intros b t Hb Ht H. cbn [spell] in H.
    assert (R : exists s, b = Raw s).
    { apply (last_clash b (chars t ++ ["_"]%char) "i"%char); auto. rewrite H, chars_app. cbn. now rewrite <- app_assoc. }
    destruct R as [s ->]. cbn in H. apply (clean s t 0); [apply Hb; now left|auto|]. do 5 right. left. auto.
  Qed.
  Lemma IV_vs_PO : forall b t, inames (IV b) -> In t names -> spell (IV b) <> spell (PO t).
  Proof.
    unfold inames. intros b t Hb Ht H. cbn [spell] in H.
    assert (R : exists s, b = Raw s).
    { apply (last_clash b (chars t ++ ["_"]%char) "o"%char); auto. rewrite H, chars_app. cbn. now rewrite <- app_assoc. }
    destruct R as [s ->]. cbn in H. apply (clean s t 0); [apply Hb; now left|auto|]. do 6 right. left. auto.
  Qed.
  Lemma IV_vs_IIn : forall b, inames (IV b) -> spell (IV b) <> spell IIn.
  Proof.
    unfold inames. intros b Hb H. cbn [spell] in H.
    assert (R : exists s, b = Raw s).
    { apply (last_clash b (chars "input_"%string) "_"%char); auto. rewrite H. auto. }
    destruct R as [s ->]. cbn in H. apply (clean s s 0); [apply Hb; now left|apply Hb; now left|]. do 7 right. left. auto.
  Qed.
  Lemma IV_vs_IOut : forall b, inames (IV b) -> spell (IV b) <> spell IOut.
  Proof.
    unfold inames. intros b Hb H. cbn [spell] in H.
    assert (R : exists s, b = Raw s).
    { apply (last_clash b (chars "output_"%string) "_"%char); auto. rewrite H. auto. }
    destruct R as [s ->]. cbn in H. apply (clean s s 0); [apply Hb; now left|apply Hb; now left|]. do 8 right. left. auto.
  Qed.

  Ltac tails H :=
    apply (f_equal chars) in H; cbn [spell] in H; rewrite ?chars_app in H;
    apply (f_equal (@List.rev ascii)) in H; rewrite ?rev_app_distr in H; cbn in H; discriminate.

  Lemma spell_inj : forall i j, inames i -> inames j -> spell i = spell j -> i = j.
  Proof.
    intros i j Hi Hj H.
    destruct i as [b|b|s|s| |], j as [c|c|t|t| |];
      try (exfalso; tails H); try reflexivity.
    - f_equal. apply base_inj; auto.
    - exfalso. eapply IV_vs_IB; [| |exact H]; auto.
    - exfalso. eapply IV_vs_PI; [| |exact H]; auto. apply Hj. now left.
    - exfalso. eapply IV_vs_PO; [| |exact H]; auto. apply Hj. now left.
    - exfalso. eapply IV_vs_IIn; [|exact H]; auto.
    - exfalso. eapply IV_vs_IOut; [|exact H]; auto.
    - exfalso. symmetry in H. eapply IV_vs_IB; [| |exact H]; auto.
    - f_equal. apply append_inj in H. apply base_inj; auto.
    - exfalso. symmetry in H. eapply IV_vs_PI; [| |exact H]; auto. apply Hi. now left.
    - f_equal. apply append_inj in H. auto.
    - exfalso. symmetry in H. eapply IV_vs_PO; [| |exact H]; auto. apply Hi. now left.
    - f_equal. apply append_inj in H. auto.
    - exfalso. symmetry in H. eapply IV_vs_IIn; [|exact H]; auto.
    - exfalso. symmetry in H. eapply IV_vs_IOut; [|exact H]; auto.
  Qed.
End Clean.

(** ** The declarations of an entity *)
Definition decl_idents (p : vn * ty) : list ident :=
  (if size (snd p) =? 0 then [] else [IV (fbase (fst p))])
  ++ (if backward_size (snd p) =? 0 then [] else [IB (bbase (fst p))]).
Definition input_idents (i : minput) : list ident :=
  (if size (in_ty i) =? 0 then []
   else (if in_no_mangle i then IV (Raw (in_name i)) else PI (in_name i))
        :: (if in_no_mangle i then [] else [IV (fbase (in_val i))]))
  ++ (if backward_size (in_ty i) =? 0 then []
      else [if in_no_mangle i then IV (Raw (in_name i)) else PO (in_name i); IB (bbase (in_val i))]).
Definition declared_idents (e : entity) : list ident :=
  flat_map input_idents (e_inputs e)
  ++ (if backward_size (e_output_ty e) =? 0 then [] else [IIn])
  ++ (if size (e_output_ty e) =? 0 then [] else [IOut])
  ++ flat_map (fun s => flat_map decl_idents (defined_ty s)) (e_stmts e).

Lemma flat_map_map : forall (A B C : Type) (f : B -> C) (g : A -> list B) l,
  map f (flat_map g l) = flat_map (fun x => map f (g x)) l.
Proof. induction l; cbn; auto. now rewrite map_app, IHl. Qed.

Lemma declared_spell : forall e, declared_names e = map spell (declared_idents e).
Proof.
  intros e. unfold declared_names, declared_idents. rewrite !map_app, !flat_map_map.
  f_equal; [|f_equal; [|f_equal]].
  - apply flat_map_ext. intros i. unfold input_idents, mangle_input, mangle_output.
    rewrite map_app, var_name_spell, backward_spell.
    destruct (size (in_ty i) =? 0), (backward_size (in_ty i) =? 0), (in_no_mangle i); reflexivity.
  - destruct (backward_size (e_output_ty e) =? 0); auto.
  - destruct (size (e_output_ty e) =? 0); auto.
  - apply flat_map_ext. intros s. rewrite flat_map_map. apply flat_map_ext. intros p.
    unfold decl_names, decl_idents. rewrite map_app, var_name_spell, backward_spell.
    destruct (size (snd p) =? 0), (backward_size (snd p) =? 0); reflexivity.
Qed.

Lemma owner_fbase : forall n, owner_base (fbase n) = n.
Proof.
  intros [id s|k]; cbn; auto. destruct (id =? 0) eqn:Q; cbn; auto.
  apply Nat.eqb_eq in Q. subst. destruct (String.eqb s "new"%string); auto.
Qed.
Lemma owner_bbase : forall n, owner_base (bbase n) = n.
Proof. intros [id s|k]; cbn; auto. destruct (id =? 0) eqn:Q; cbn; auto. apply Nat.eqb_eq in Q. now subst. Qed.

Lemma NoDup_owned : forall (A : Type) (g : A -> list ident) (o : A -> list vn) l,
  (forall a, In a l -> NoDup (g a)) ->
  (forall a i, In a l -> In i (g a) -> exists n, owner i = Some n /\ In n (o a)) ->
  NoDup (flat_map o l) ->
  NoDup (flat_map g l).
Proof.
  induction l as [|a l IH]; intros N O D; cbn; [constructor|].
  cbn in D. apply NoDup_app_intro.
  - apply N. now left.
  - apply IH.
    + intros. apply N. now right.
    + intros. apply O; auto. now right.
    + eapply NoDup_right; eauto.
  - intros i I J. apply in_flat_map in J as (b & J & K).
    destruct (O a i (or_introl eq_refl) I) as (n & Q & On).
    destruct (O b i (or_intror J) K) as (n' & Q' & On'). rewrite Q in Q'. inversion Q'; subst.
    eapply NoDup_split_disjoint; [exact D|exact On|]. apply in_flat_map. eauto.
Qed.

Lemma defined_defined_ty : forall s, map fst (defined_ty s) = defined s.
Proof. destruct s; reflexivity. Qed.

Section Entity.
  Variable e : entity.
  Hypothesis SD : single_definitions e.
  Hypothesis inputs_zero : forall i, In i (e_inputs e) -> in_val i = Named 0 (in_name i).
  Hypothesis one_way : forall i, In i (e_inputs e) -> in_no_mangle i = true ->
     size (in_ty i) = 0 \/ backward_size (in_ty i) = 0.

  Lemma input_owner : forall i x, In i (e_inputs e) -> In x (input_idents i) -> owner x = Some (in_val i).
  Proof.
    intros i x I J. unfold input_idents in J. apply in_app_or in J as [J|J].
    - destruct (size (in_ty i) =? 0); [destruct J|]. destruct J as [<-|J].
      + rewrite (inputs_zero i I). destruct (in_no_mangle i); auto.
      + destruct (in_no_mangle i); [destruct J|]. destruct J as [<-|[]]. cbn. now rewrite owner_fbase.
    - destruct (backward_size (in_ty i) =? 0); [destruct J|]. destruct J as [<-|[<-|[]]].
      + rewrite (inputs_zero i I). destruct (in_no_mangle i); auto.
      + cbn. now rewrite owner_bbase.
  Qed.
  Lemma input_nodup : forall i, In i (e_inputs e) -> NoDup (input_idents i).
  Proof.
    intros i I. unfold input_idents. pose proof (one_way i I) as W.
    destruct (size (in_ty i) =? 0) eqn:Q, (backward_size (in_ty i) =? 0) eqn:Q', (in_no_mangle i);
      cbn; repeat constructor; cbn;
      try (intros K; repeat destruct K as [K|K]; try discriminate; auto; fail).
    all: apply Nat.eqb_neq in Q, Q'; destruct W; auto; lia.
  Qed.
  Lemma decl_owner : forall p x, In x (decl_idents p) -> owner x = Some (fst p).
  Proof.
    intros p x J. unfold decl_idents in J. apply in_app_or in J as [J|J].
    - destruct (size (snd p) =? 0); [destruct J|]. destruct J as [<-|[]]. cbn. now rewrite owner_fbase.
    - destruct (backward_size (snd p) =? 0); [destruct J|]. destruct J as [<-|[]]. cbn. now rewrite owner_bbase.
  Qed.
  Lemma stmt_owner : forall s x, In x (flat_map decl_idents (defined_ty s)) ->
    exists n, owner x = Some n /\ In n (defined s).
  Proof.
    intros s x J. apply in_flat_map in J as (p & J & K). exists (fst p). split.
    - now apply decl_owner.
    - rewrite <- defined_defined_ty. now apply in_map.
  Qed.

  Lemma idents_nodup : NoDup (declared_idents e).
  Proof.
    unfold declared_idents.
    assert (N1 : NoDup (flat_map input_idents (e_inputs e))).
    { apply NoDup_owned with (o := fun i => [in_val i]).
      - intros. now apply input_nodup.
      - intros a i I J. exists (in_val a). split; [now apply input_owner|now left].
      - apply NoDup_left with (l2 := flat_map defined (e_stmts e)).
        replace (flat_map (fun i => [in_val i]) (e_inputs e)) with (map in_val (e_inputs e)); [exact SD|].
        clear. induction (e_inputs e); cbn; congruence. }
    assert (N2 : NoDup (flat_map (fun s => flat_map decl_idents (defined_ty s)) (e_stmts e))).
    { apply NoDup_owned with (o := defined).
      - intros s _. destruct s; cbn; try constructor; rewrite app_nil_r; unfold decl_idents; cbn;
          destruct (size t =? 0), (backward_size t =? 0); cbn; repeat constructor; cbn;
          intros K; repeat destruct K as [K|K]; auto; discriminate.
      - intros a i _ J. now apply stmt_owner.
      - eapply NoDup_right. exact SD. }
    apply NoDup_app_intro; auto.
    - apply NoDup_app_intro; [destruct (_ =? 0); repeat constructor; auto|apply NoDup_app_intro|].
      + destruct (_ =? 0); repeat constructor; auto.
      + auto.
      + intros x I J. apply in_flat_map in J as (s & _ & J). apply stmt_owner in J as (n & J & _).
        destruct (_ =? 0); [destruct I|]. destruct I as [<-|[]]. discriminate.
      + intros x I J. destruct (backward_size _ =? 0); [destruct I|]. destruct I as [<-|[]].
        apply in_app_or in J as [J|J].
        * destruct (_ =? 0); [destruct J|]. destruct J as [J|[]]. discriminate.
        * apply in_flat_map in J as (s & _ & J). apply stmt_owner in J as (n & J & _). discriminate.
    - intros x I J. apply in_flat_map in I as (i & I & K). pose proof (input_owner i x I K) as O.
      apply in_app_or in J as [J|J].
      + destruct (_ =? 0); [destruct J|]. destruct J as [<-|[]]. discriminate.
      + apply in_app_or in J as [J|J].
        * destruct (_ =? 0); [destruct J|]. destruct J as [<-|[]]. discriminate.
        * apply in_flat_map in J as (s & Is & J). apply stmt_owner in J as (n & J & Jn).
          rewrite O in J. inversion J; subst.
          eapply NoDup_split_disjoint; [exact SD|apply in_map; exact I|]. apply in_flat_map. eauto.
  Qed.

  Lemma ident_names : forall x, In x (declared_idents e) -> inames (spellings e) x.
  Proof.
    assert (D : forall n s, In n (definitions e) -> n = Named 0 s \/ (exists k, n = Named k s) -> In s (spellings e)).
    { intros n s I Q. unfold spellings. apply in_or_app. right. apply in_flat_map. exists n. split; auto.
      destruct Q as [->|[k ->]]; now left. }
    assert (F : forall n s, In n (definitions e) -> In s (names_of (IV (fbase n))) -> In s (spellings e)).
    { intros [id t|k] s I J; [|destruct J]. apply (D _ _ I). right.
      cbn in J. destruct (_ && _); destruct J as [<-|[]]; eauto. }
    assert (B : forall n s, In n (definitions e) -> In s (names_of (IB (bbase n))) -> In s (spellings e)).
    { intros [id t|k] s I J; [|destruct J]. apply (D _ _ I). right.
      cbn in J. destruct (_ =? 0); destruct J as [<-|[]]; eauto. }
    intros x I s Hs. unfold declared_idents in I. apply in_app_or in I as [I|I].
    - apply in_flat_map in I as (i & I & J).
      assert (Ii : In (in_name i) (spellings e)).
      { unfold spellings. apply in_or_app. left. now apply in_map. }
      assert (Id : In (in_val i) (definitions e)).
      { unfold definitions. apply in_or_app. left. now apply in_map. }
      unfold input_idents in J. apply in_app_or in J as [J|J].
      + destruct (size _ =? 0); [destruct J|]. destruct J as [<-|J].
        * destruct (in_no_mangle i); destruct Hs as [<-|[]]; auto.
        * destruct (in_no_mangle i); [destruct J|]. destruct J as [<-|[]]. eauto.
      + destruct (backward_size _ =? 0); [destruct J|]. destruct J as [<-|[<-|[]]]; [|eauto].
        destruct (in_no_mangle i); destruct Hs as [<-|[]]; auto.
    - apply in_app_or in I as [I|I]; [destruct (_ =? 0); [destruct I|destruct I as [<-|[]]; destruct Hs]|].
      apply in_app_or in I as [I|I]; [destruct (_ =? 0); [destruct I|destruct I as [<-|[]]; destruct Hs]|].
      apply in_flat_map in I as (st & I & J). apply in_flat_map in J as (p & J & K).
      assert (Id : In (fst p) (definitions e)).
      { unfold definitions. apply in_or_app. right. apply in_flat_map. exists st. split; auto.
        rewrite <- defined_defined_ty. now apply in_map. }
      unfold decl_idents in K. apply in_app_or in K as [K|K].
      + destruct (_ =? 0); [destruct K|]. destruct K as [<-|[]]. eauto.
      + destruct (_ =? 0); [destruct K|]. destruct K as [<-|[]]. eauto.
  Qed.

  Lemma declared_nodup : no_reserved_spelling e -> NoDup (declared_names e).
  Proof.
    intros C. rewrite declared_spell. apply NoDup_map_in; [|apply idents_nodup].
    intros x y I J H. eapply spell_inj; eauto using ident_names.
  Qed.
End Entity.

(** ** After renaming, inputs carry number zero *)
Lemma spellings_rename : forall e, single_definitions e ->
  forall s, In s (spellings (make_names_predictable e)) -> In s (spellings e).
Proof.
  intros e SD s H. unfold spellings in *. apply in_app_or in H as [H|H].
  - apply in_or_app. left. cbn in H. rewrite map_map in H. cbn in H. auto.
  - apply in_or_app. right. apply in_flat_map in H as (n & I & J).
    unfold make_names_predictable in I. rewrite definitions_rename in I. apply in_map_iff in I as (n0 & <- & I).
    apply in_flat_map. exists n0. split; auto. destruct (in_split _ _ I) as (a & b & Q).
    rewrite (predictable_number e a n0 b) in J; auto. destruct n0; auto.
Qed.

Lemma occurrences_zero : forall s l, (forall k, ~ In (Named k s) l) -> occurrences s l = 0.
Proof.
  intros s l H. unfold occurrences. induction l as [|n l IH]; cbn; auto.
  destruct n as [k t|k].
  - destruct (String.eqb t s) eqn:Q; [|apply IH; intros k' I; apply (H k'); now right].
    apply String.eqb_eq in Q. subst. exfalso. apply (H k). now left.
  - apply IH. intros k' I. apply (H k'). now right.
Qed.

Theorem declared_names_distinct : forall e,
  single_definitions e -> ports_ok e -> no_reserved_spelling e ->
  NoDup (declared_names (make_names_predictable e)).
Proof.
  intros e SD (PN & ND & OW) C. apply declared_nodup.
  - now apply predictable_single_definitions.
  - intros i I. cbn in I. apply in_map_iff in I as (i0 & <- & I). cbn.
    destruct (PN i0 I) as [k Q]. apply in_split in I as (a & b & J).
    rewrite (predictable_number e (map in_val a) (in_val i0) (map in_val b ++ flat_map defined (e_stmts e))); auto.
    + rewrite Q. cbn. f_equal. apply occurrences_zero. intros k' I. apply in_map_iff in I as (i1 & Q1 & I1).
      destruct (PN i1) as [k1 Q2]; [rewrite J; apply in_or_app; auto|]. rewrite Q1 in Q2. inversion Q2; subst.
      rewrite J, map_app in ND. cbn in ND. apply NoDup_remove_2 in ND. apply ND. apply in_or_app. left.
      rewrite H1. now apply in_map.
    + unfold definitions. rewrite J, map_app. cbn. now rewrite <- app_assoc.
  - intros i I. cbn in I. apply in_map_iff in I as (i0 & <- & I). cbn. auto.
  - intros s t k Is It. apply (C s t k); now apply spellings_rename.
Qed.
