(** Proofs about [UnitNameModel]. *)
From Coq Require Import String List Arith Bool Ascii Lia Sorting.
From Verif Require Import MirModel MirIdent MonoModel MonoSpec P_Mono UnitNameModel UnitNameSpec.
Import ListNotations.
Local Open Scope list_scope.

Definition free (x : ascii) (l : list ascii) : Prop := ~ In x l.
Lemma split_at (x : ascii) : forall a b r r', free x a -> free x b -> a ++ x :: r = b ++ x :: r' -> a = b /\ r = r'.
Proof.
  unfold free. induction a as [|c a IH]; intros b r r' A B H; destruct b as [|d b]; cbn in *; inversion H; subst; auto.
  - destruct B. auto.
  - destruct A. auto.
  - destruct (IH b r r') as [-> ->]; auto.
Qed.
Lemma no_split (x : ascii) a b r : free x a -> a <> b ++ x :: r.
Proof. intros F ->. apply F. apply in_or_app. cbn. auto. Qed.

Lemma ident_free s x : ident s -> ident_char x = false -> free x (chars s).
Proof. intros [_ F] E I. rewrite (F x I) in E. discriminate. Qed.
Lemma digits_free n x : is_digit x = false -> free x (chars (show_nat n)).
Proof. intros E I. pose proof (show_digits n) as F. rewrite Forall_forall in F. rewrite (F x I) in E. discriminate. Qed.
Definition seg_ok (s : segment) : Prop := match s with Named s => ident s | _ => True end.
Lemma seg_free s x : seg_ok s -> ident_char x = false -> is_digit x = false -> x <> "#"%char -> free x (chars (show_segment s)).
Proof.
  intros H E D N. destruct s as [s|n| |]; cbn [show_segment].
  - apply ident_free; auto.
  - rewrite chars_app. intros I. apply in_app_or in I as [I|I]; [|exact (digits_free n x D I)]. cbn in I. repeat (destruct I as [<-|I]; [vm_compute in E; congruence|]). destruct I.
  - cbn. intros I. repeat (destruct I as [<-|I]; [vm_compute in E; congruence|]). destruct I.
  - cbn. intros I. repeat (destruct I as [<-|I]; [vm_compute in E; congruence|]). destruct I.
Qed.
Lemma show_segment_inj s t : seg_ok s -> seg_ok t -> show_segment s = show_segment t -> s = t.
Proof.
  assert (H : forall s x, ident s -> In "#"%char (chars x) -> s <> x) by (intros s' x I J ->; exact (ident_free x "#"%char I eq_refl J)).
  intros S1 T1 E. destruct s as [s|n| |], t as [t|m| |]; cbn [show_segment seg_ok] in *; auto; try (exfalso; discriminate E);
    try (exfalso; eapply H; [exact S1| |exact E]; cbn; tauto); try (exfalso; eapply H; [exact T1| |symmetry; exact E]; cbn; tauto).
  - subst. reflexivity.
  - apply (f_equal chars) in E. rewrite !chars_app in E. apply app_inv_head in E. apply chars_inj in E. apply show_inj in E. subst. reflexivity.
Qed.

Definition path_ok (p : path) : Prop := p <> [] /\ forall s, In s p -> seg_ok s.
Fixpoint joined (l : list (list ascii)) : list ascii :=
  match l with
  | [] => []
  | [x] => x
  | x :: l => x ++ ":"%char :: ":"%char :: joined l
  end.
Lemma show_path_chars p : chars (show_path p) = joined (map (fun s => chars (show_segment s)) p).
Proof.
  unfold show_path. induction p as [|s [|t p] IH]; [reflexivity|reflexivity|]. cbn [map String.concat joined] in *. rewrite chars_app. f_equal.
  cbn [String.append]. rewrite <- IH. reflexivity.
Qed.
Lemma joined_inj : forall l m, l <> [] -> m <> [] -> Forall (free ":"%char) l -> Forall (free ":"%char) m -> joined l = joined m -> l = m.
Proof.
  induction l as [|x l IH]; intros m N N' F F' E; [congruence|]. destruct m as [|y m]; [congruence|]. inversion F; inversion F'; subst.
  destruct l as [|x' l], m as [|y' m]; cbn [joined] in E.
  - subst. reflexivity.
  - exfalso. eapply (no_split ":"%char x y); [assumption|exact E].
  - exfalso. eapply (no_split ":"%char y x); [assumption|symmetry; exact E].
  - apply split_at in E as [-> E]; auto. inversion E. f_equal. apply IH; auto; discriminate.
Qed.
Lemma path_free p x : path_ok p -> ident_char x = false -> is_digit x = false -> x <> "#"%char -> x <> ":"%char -> free x (chars (show_path p)).
Proof.
  intros [_ H] E D N N'. rewrite show_path_chars. revert H. induction p as [|s p IH]; intros H; [intros []|]. destruct p as [|t p]; cbn [map joined] in *.
  - apply seg_free; auto. apply H. cbn. auto.
  - intros I. apply in_app_or in I as [I|[I|[I|I]]]; try congruence.
    + exact (seg_free s x (H s (or_introl eq_refl)) E D N I).
    + apply IH; auto. intros; apply H; cbn in *; auto.
Qed.
Lemma show_path_inj p q : path_ok p -> path_ok q -> show_path p = show_path q -> p = q.
Proof.
  intros [N H] [N' H'] E. apply (f_equal chars) in E. rewrite !show_path_chars in E.
  assert (F : forall p : path, (forall s, In s p -> seg_ok s) -> Forall (free ":"%char) (map (fun s => chars (show_segment s)) p)).
  { clear. intros p H. apply Forall_forall. intros x I. apply in_map_iff in I as (s & <- & I). apply seg_free; auto; discriminate. }
  apply joined_inj in E; auto; try (intros X; apply map_eq_nil in X; congruence).
  clear N N' F. revert q H' E. induction p as [|s p IH]; intros [|t q] H' E; cbn in E; inversion E; auto. f_equal.
  - apply show_segment_inj; [apply H; cbn; auto|apply H'; cbn; auto|]. apply chars_inj. assumption.
  - apply IH; auto; intros; [apply H|apply H']; cbn; auto.
Qed.

(** The identifier of a name *)
Definition spelt (u : unit_name) : string :=
  match as_mir u with Unescaped s => s | Escaped s => s end.
Definition uname_ok (u : unit_name) : Prop :=
  match u with WithID (_, p) | FullPath (_, p) => path_ok p | Unmangled s _ => ident s end.
Lemma hidden_char c : ~ (33 <= nat_of_ascii c <= 126) -> ident_char c = false /\ is_digit c = false /\ c <> "#"%char /\ c <> ":"%char /\ c <> "["%char /\ c <> "]"%char.
Proof. destruct c as [[] [] [] [] [] [] [] []]; vm_compute; intros H; repeat split; try reflexivity; try discriminate; exfalso; apply H; lia. Qed.
Lemma path_visible p : path_ok p -> forall c, In c (chars (show_path p)) -> 33 <= nat_of_ascii c <= 126.
Proof.
  intros P c I. destruct (Nat.le_gt_cases 33 (nat_of_ascii c)) as [A|A].
  - destruct (Nat.le_gt_cases (nat_of_ascii c) 126) as [B|B]; [lia|]. exfalso. destruct (hidden_char c ltac:(lia)) as (H1 & H2 & H3 & H4 & _). exact (path_free p c P H1 H2 H3 H4 I).
  - exfalso. destruct (hidden_char c ltac:(lia)) as (H1 & H2 & H3 & H4 & _). exact (path_free p c P H1 H2 H3 H4 I).
Qed.
Lemma digit_visible c : is_digit c = true -> 33 <= nat_of_ascii c <= 126.
Proof. unfold is_digit. rewrite andb_true_iff, !Nat.leb_le. lia. Qed.
Lemma ident_nonempty s : ident s -> s <> ""%string.
Proof. intros [H _] ->. exact H. Qed.
Lemma path_nonempty p : path_ok p -> show_path p <> ""%string.
Proof.
  intros [N H] E. apply (f_equal chars) in E. rewrite show_path_chars in E. destruct p as [|s p]; [congruence|].
  assert (X : chars (show_segment s) <> []).
  { pose proof (H s (or_introl eq_refl)) as O. destruct s as [s|n| |]; cbn; try discriminate. cbn in O. apply ident_nonempty in O. destruct s; [congruence|discriminate]. }
  destruct p as [|t p]; cbn [map joined chars String.list_ascii_of_string] in E; [congruence|]. apply app_eq_nil in E as [_ E]. discriminate.
Qed.
Lemma spells_spelt u x : uname_ok u -> (spells (as_verilog (as_mir u)) x <-> x = spelt u).
Proof.
  assert (ESC : forall s, ~ ident (String "\" (String.append s " "))) by (intros s [_ F]; specialize (F "\"%char (or_introl eq_refl)); discriminate F).
  assert (INV : forall s, s <> ""%string -> visible s -> (spells (String "\" (String.append s " ")) x <-> x = s)).
  { intros s NE V. split; [|intros ->; apply (Spells_escaped s NE V)]. intros H. inversion H as [t I E|t A B E]; subst; [destruct (ESC s I)|].
    apply (f_equal chars) in E. rewrite !chars_app in E. apply app_inv_tail in E. apply chars_inj in E. exact E. }
  intros OK. unfold spelt. destruct u as [[n p]|[n p]|s n]; cbn [as_mir as_verilog].
  - apply INV.
    + intros E. apply (path_nonempty p OK). destruct (show_path p); [reflexivity|discriminate].
    + intros c I. rewrite chars_app in I. apply in_app_or in I as [I|I]; [exact (path_visible p OK c I)|]. cbn [String.append] in I. change (In c ("["%char :: chars (show_nat n ++ "]"))) in I.
      destruct I as [<-|I]; [vm_compute; lia|]. rewrite chars_app in I. apply in_app_or in I as [I|[<-|[]]]; [|vm_compute; lia]. apply digit_visible. pose proof (show_digits n) as F. rewrite Forall_forall in F. apply F. exact I.
  - apply INV; [exact (path_nonempty p OK)|]. intros c I. exact (path_visible p OK c I).
  - cbn in OK. split; [|intros ->; constructor; exact OK]. intros H. inversion H as [t I E|t A B E]; subst; [reflexivity|]. destruct (ESC x OK).
Qed.
Lemma spelt_withid n p : chars (spelt (WithID (n, p))) = chars (show_path p) ++ "["%char :: chars (show_nat n) ++ ["]"%char].
Proof. unfold spelt. cbn [as_mir]. rewrite chars_app. f_equal. cbn. f_equal. rewrite chars_app. reflexivity. Qed.
Lemma spelt_ids n p m q : path_ok p -> path_ok q -> spelt (WithID (n, p)) = spelt (WithID (m, q)) -> n = m /\ p = q.
Proof.
  intros P Q E. apply (f_equal chars) in E. rewrite !spelt_withid in E. apply split_at in E as [E1 E2]; try (apply path_free; auto; discriminate).
  apply app_inj_tail in E2 as [E2 _]. split; [apply show_inj, chars_inj; auto|]. apply show_path_inj; auto. apply chars_inj. exact E1.
Qed.
Lemma spelt_id_no n p u : uname_ok u -> (forall q, u <> WithID q) -> spelt (WithID (n, p)) <> spelt u.
Proof.
  intros OK N E. apply (f_equal chars) in E. rewrite spelt_withid in E.
  assert (F : free "["%char (chars (spelt u))).
  { destruct u as [q|[m q]|s m]; [destruct (N q eq_refl)| |]; unfold spelt; cbn [as_mir]; [apply path_free; auto; discriminate|apply ident_free; auto]. }
  symmetry in E. revert E. apply no_split. exact F.
Qed.
Lemma spelt_plain s a n p : ident s -> path_ok p -> spelt (Unmangled s a) = spelt (FullPath (n, p)) -> p = [Named s].
Proof.
  intros I P E. unfold spelt in E. cbn [as_mir] in E. symmetry in E. apply (show_path_inj p [Named s]); auto. split; [discriminate|]. intros t [<-|[]]. exact I.
Qed.

(** Whole programs *)
Section Program.
Variable units : nat -> option unit_.
Variable all_units : list nat.
Variable work : mkey -> list (option mkey).
Variable first : nat.
Hypothesis W : well_named units all_units work first.
Notation prog := (compiled units all_units work).

Lemma known_ok id u : units id = Some u -> exists n, name_of id u = Some n /\ uname_ok n.
Proof.
  intros U. destruct (wn_idents _ _ _ _ W _ _ U) as (A & B & C). pose proof (wn_accepted _ _ _ _ W _ _ U) as D.
  assert (P : path_ok (u_path u)) by (split; [exact A|]; intros [s|n| |] I; cbn; auto).
  unfold name_of in *. destruct (u_branch u); [eexists; split; [reflexivity|exact P]|]. destruct (u_no_mangle u).
  - destruct (_ && _); [congruence|]. eexists; split; [reflexivity|exact B].
  - destruct (u_generic u); eexists; (split; [reflexivity|exact P]).
Qed.
Lemma renamed_ok n k : uname_ok n -> uname_ok (renamed n k).
Proof. destruct n as [[a p]|[a p]|s [a p]]; auto. Qed.

(** What is needed *)
Lemma needed_kind k : needed prog k -> (exists u, units (fst k) = Some u /\ u_extern u = false /\ (u_generic u = false -> snd k = KNil)).
Proof.
  intros [n I|k0 k' N I]; cbn in I.
  - apply filter_In in I as [_ R]. unfold is_root in R. cbn. destruct (units n) as [u|]; [|discriminate]. apply andb_true_iff in R as [G E]. apply negb_true_iff in G, E. exists u. auto.
  - apply in_flat_map in I as (w & J & I). destruct w as [q|]; [|destruct I as [I|[]]; discriminate]. cbn in I. unfold instantiated in I.
    destruct (units (fst q)) as [u|] eqn:U; [|destruct I]. destruct (u_generic u) eqn:G; [|destruct I]. destruct (u_extern u) eqn:E; [destruct I|]. destruct I as [I|[]]. inversion I; subst. exists u. rewrite G. split; auto. split; auto. discriminate.
Qed.
Lemma needed_root id u : units id = Some u -> u_generic u = false -> u_extern u = false -> In id (pr_roots prog).
Proof. intros U G E. cbn. apply filter_In. split; [apply (wn_known _ _ _ _ W _ _ U)|]. unfold is_root. rewrite U, G, E. reflexivity. Qed.

(** Names of needed instances are distinct. *)
Lemma plain_paths a b u v : units a = Some u -> units b = Some v -> u_no_mangle u = true -> u_branch u = false -> u_path v = [Named (u_ident u)] -> a = b.
Proof. intros A B C D E. exact (wn_plain _ _ _ _ W a b u v A B C D (or_intror E)). Qed.
Lemma distinct_units a b u v na nb ka kb : units a = Some u -> units b = Some v -> name_of a u = Some na -> name_of b v = Some nb -> uname_ok na -> uname_ok nb ->
  spelt (renamed na ka) = spelt (renamed nb kb) -> a = b \/ ka = kb /\ (exists p, na = WithID p) /\ exists q, nb = WithID q.
Proof.
  intros A B NA NB OA OB E.
  assert (PA : forall q, na = FullPath q -> snd q = u_path u /\ u_branch u = false).
  { intros q ->. unfold name_of in NA. destruct (u_branch u); [discriminate|]. destruct (u_no_mangle u); [destruct (_ && _); discriminate|]. destruct (u_generic u); [discriminate|]. inversion NA. auto. }
  assert (PB : forall q, nb = FullPath q -> snd q = u_path v /\ u_branch v = false).
  { intros q ->. unfold name_of in NB. destruct (u_branch v); [discriminate|]. destruct (u_no_mangle v); [destruct (_ && _); discriminate|]. destruct (u_generic v); [discriminate|]. inversion NB. auto. }
  assert (UA : forall s q, na = Unmangled s q -> s = u_ident u /\ u_no_mangle u = true /\ u_branch u = false).
  { intros s q ->. unfold name_of in NA. destruct (u_branch u); [discriminate|]. destruct (u_no_mangle u); [|destruct (u_generic u); discriminate]. destruct (_ && _); [discriminate|]. inversion NA. auto. }
  assert (UB : forall s q, nb = Unmangled s q -> s = u_ident v /\ u_no_mangle v = true /\ u_branch v = false).
  { intros s q ->. unfold name_of in NB. destruct (u_branch v); [discriminate|]. destruct (u_no_mangle v); [|destruct (u_generic v); discriminate]. destruct (_ && _); [discriminate|]. inversion NB. auto. }
  destruct na as [[i p]|[i p]|s [i p]], nb as [[j q]|[j q]|t [j q]]; cbn [renamed] in E; cbn in OA, OB.
  - apply spelt_ids in E as [E _]; auto. right. split; [exact E|]. split; eexists; reflexivity.
  - exfalso. revert E. apply spelt_id_no; [exact OB|discriminate].
  - exfalso. revert E. apply spelt_id_no; [exact OB|discriminate].
  - exfalso. symmetry in E. revert E. apply spelt_id_no; [exact OA|discriminate].
  - left. apply show_path_inj in E; auto. destruct (PA _ eq_refl) as [Pa Ba], (PB _ eq_refl) as [Pb Bb]. cbn in Pa, Pb. subst. eapply (wn_paths _ _ _ _ W); eauto.
  - left. symmetry in E. apply spelt_plain in E; auto. destruct (PA _ eq_refl) as [Pa Ba], (UB _ _ eq_refl) as (Ub & Mb & Bb). cbn in Pa. subst. symmetry. eapply plain_paths; eauto.
  - exfalso. symmetry in E. revert E. apply spelt_id_no; [exact OA|discriminate].
  - left. apply spelt_plain in E; auto. destruct (PB _ eq_refl) as [Pb Bb], (UA _ _ eq_refl) as (Ub & Mb & Bb'). cbn in Pb. subst. eapply plain_paths; eauto.
  - left. destruct (UA _ _ eq_refl) as (Ua & Ma & Ba), (UB _ _ eq_refl) as (Ub & Mb & Bb). cbn in E. subst. apply (wn_plain _ _ _ _ W a b u v A B Ma Ba). left. auto.
Qed.

Lemma generic_id a u n : u_generic u = true -> u_extern u = false -> name_of a u = Some n -> n = WithID (a, u_path u).
Proof. intros G E H. unfold name_of in H. rewrite G, E in H. destruct (u_branch u); [inversion H; reflexivity|]. destruct (u_no_mangle u); [discriminate|]. inversion H. reflexivity. Qed.

Section Naming.
Variable name : mkey -> nat.
Hypothesis INJ : forall k k', needed prog k -> needed prog k' -> name k = name k' -> k = k'.
Hypothesis ROOT : forall n, In n (pr_roots prog) -> name (n, KNil) = n.
Lemma name_text k got u n : units (fst k) = Some u -> name_of (fst k) u = Some n -> fst (module_of units work k (name k) got) = as_verilog (as_mir (renamed n (name k))).
Proof. intros U N. unfold module_of, unit_name_of. cbn [fst]. rewrite U, N. reflexivity. Qed.
Lemma distinct_keys k k' got got' x : needed prog k -> needed prog k' -> spells (fst (module_of units work k (name k) got)) x -> spells (fst (module_of units work k' (name k') got')) x -> k = k'.
Proof.
  intros K K' S1 S2. destruct (needed_kind k K) as (u & U & EU & PU). destruct (needed_kind k' K') as (v & V & EV & PV).
  destruct (known_ok _ _ U) as (n & N & ON). destruct (known_ok _ _ V) as (m & M & OM).
  rewrite (name_text k got u n U N) in S1. rewrite (name_text k' got' v m V M) in S2.
  apply spells_spelt in S1; [|apply renamed_ok; exact ON]. apply spells_spelt in S2; [|apply renamed_ok; exact OM]. rewrite S1 in S2.
  destruct (distinct_units _ _ _ _ _ _ _ _ U V N M ON OM S2) as [E|(E & _)]; [|apply INJ; auto].
  rewrite E in U. assert (u = v) by congruence. subst v. destruct (u_generic u) eqn:G.
  - apply INJ; auto. rewrite (generic_id _ _ _ G EU N) in *. rewrite (generic_id _ _ _ G EU M) in *.
    cbn [renamed] in S2. apply spelt_ids in S2 as [S2 _]; auto.
  - destruct k as [a p], k' as [b q]. cbn in *. rewrite (PU eq_refl), (PV eq_refl). congruence.
Qed.
Lemma received_calls w : forall got, received name (flat_map (action_of units) w) got -> (forall k, In (Some k) w -> exists u, units (fst k) = Some u) ->
  Forall2 (fun k text => exists u n, units (fst k) = Some u /\ name_of (fst k) u = Some n /\
     text = as_verilog (as_mir (if u_generic u && negb (u_extern u) then renamed n (name k) else n))) (calls w) (instance_names units w got).
Proof.
  induction w as [|o w IH]; intros got R U; [constructor|]. assert (U' : forall k, In (Some k) w -> exists u, units (fst k) = Some u) by (intros k I; apply U; right; exact I).
  destruct o as [k|]; cbn [calls flat_map instance_names].
  - destruct (U k (or_introl eq_refl)) as (u & UK). destruct (known_ok _ _ UK) as (n & N & _). cbn [flat_map action_of] in R. unfold unit_name_of. unfold instantiated in *. rewrite UK in *.
    destruct (u_generic u && negb (u_extern u)) eqn:G.
    + cbn in R. inversion R as [| |? ? got' R']; subst. cbn [hd tl app]. constructor; [|apply IH; auto]. exists u, n. rewrite G. split; auto. split; auto.
      apply andb_true_iff in G as [G E]. apply negb_true_iff in E. rewrite (generic_id _ _ _ G E N). reflexivity.
    + cbn in R. cbn [app]. constructor; [|apply IH; auto]. exists u, n. rewrite G, N. auto.
  - cbn [flat_map action_of] in R. cbn in R. inversion R as [|a ? got' R'|]; subst. cbn [tl app]. apply IH; auto.
Qed.
Lemma extern_no (k k' : mkey) got u n x : units (fst k) = Some u -> u_extern u = true -> name_of (fst k) u = Some n -> fst k < first ->
  (forall q, needed prog q -> (exists m, In m (pr_roots prog) /\ q = (m, KNil)) \/ first <= name q) ->
  needed prog k' -> spells (as_verilog (as_mir n)) x -> ~ spells (fst (module_of units work k' (name k') got)) x.
Proof.
  intros U EU N LT FR K' S1 S2. destruct (needed_kind k' K') as (v & V & EV & PV). destruct (known_ok _ _ U) as (n' & N' & ON). rewrite N in N'. inversion N'; subst n'.
  destruct (known_ok _ _ V) as (m & M & OM). rewrite (name_text k' got v m V M) in S2. apply spells_spelt in S1; auto. apply spells_spelt in S2; [|apply renamed_ok; exact OM]. rewrite S1 in S2.
  assert (ID : n = renamed n (fst k)).
  { unfold name_of in N. destruct (u_branch u); [inversion N; reflexivity|]. destruct (u_no_mangle u); [destruct (_ && _); [discriminate|]; inversion N; reflexivity|]. destruct (u_generic u); inversion N; reflexivity. }
  rewrite ID in S2. destruct (distinct_units _ _ _ _ _ _ _ _ U V N M ON OM S2) as [E|(E & _ & (q & ->))]; [rewrite E in U; congruence|].
  destruct (u_generic v) eqn:G.
  - destruct (FR k' K') as [(r & I & ->)|F]; [|lia]. cbn in I. apply filter_In in I as [_ I]. cbn in V. unfold is_root in I. rewrite V, G in I. discriminate.
  - destruct k' as [b r]. cbn in *. rewrite (PV eq_refl) in *. rewrite (ROOT b) in E; [|apply filter_In; split; [apply (wn_known _ _ _ _ W _ _ V)|unfold is_root; rewrite V, G, EV; reflexivity]].
    rewrite E in U. congruence.
Qed.
End Naming.
End Program.
