(** Inlining preserves the meaning of programs. *)
From Coq Require Import List Bool Arith String Lia.
From Verif Require Import CodegenModel MirModel MirSpec InlineModel InlineSpec MirAlias.
Import ListNotations.
Local Open Scope list_scope.

(** ** Trackers *)
Definition ids_le (i j : ids) : Prop := next_name i <= next_name j /\ next_expr i <= next_expr j.
Lemma ids_le_refl i : ids_le i i. Proof. split; lia. Qed.
Lemma ids_le_trans i j k : ids_le i j -> ids_le j k -> ids_le i k.
Proof. intros [] []; split; lia. Qed.
Lemma below_mono i j n : ids_le i j -> below i n -> below j n.
Proof. intros [A B] H. destruct n; cbn in *; lia. Qed.
Definition between (i j : ids) (n : vn) : Prop := ~ below i n /\ below j n.

Lemma fresh_like_spec i n n' i' : fresh_like i n = (n', i') ->
  ids_le i i' /\ between i i' n'.
Proof. destruct n; intros H; inversion H; subst; unfold ids_le, between; cbn; lia. Qed.
Lemma fresh_all_spec l : forall i r i', fresh_all i l = (r, i') ->
  map fst r = l /\ ids_le i i' /\ Forall (between i i') (map snd r) /\ NoDup (map snd r).
Proof.
  induction l as [|n l IH]; intros i r i' H; cbn in H.
  - inversion H; subst. repeat split; try lia; constructor.
  - destruct (fresh_like i n) as [n' j] eqn:F. destruct (fresh_all j l) as [r' k] eqn:G.
    inversion H; subst. apply fresh_like_spec in F as [L B]. apply IH in G as (M & L' & A & N).
    cbn. repeat split; try (f_equal; exact M); try (eapply ids_le_trans; eassumption).
    + constructor.
      * destruct B. split; [assumption|eapply below_mono; eassumption].
      * eapply Forall_impl; [|exact A]. intros x [X Y]. split; [|assumption].
        intros Z. apply X. eapply below_mono; eassumption.
    + constructor; [|assumption]. intros I. rewrite Forall_forall in A. apply A in I as [I _]. apply I, B.
Qed.

(** ** Units by name *)
Lemma find_unit_in P c u : find_unit P c = Some u -> In (c, u) P.
Proof.
  unfold find_unit. destruct (find _ _) as [[c' u']|] eqn:F; cbn; [|discriminate].
  intros H. inversion H; subst. apply find_some in F as [I E]. apply Nat.eqb_eq in E. cbn in E. subst.
  now apply in_rev.
Qed.
Lemma in_find_unit P c u : NoDup (map fst P) -> In (c, u) P -> find_unit P c = Some u.
Proof.
  intros N I. unfold find_unit. destruct (find _ _) as [[c' u']|] eqn:F.
  - apply find_some in F as [J E]. apply Nat.eqb_eq in E. cbn in E. subst. apply in_rev in J. cbn. f_equal.
    clear - N I J. induction P as [|p P IH]; [destruct I|]. cbn in N. apply NoDup_cons_iff in N as [X N].
    destruct I as [->|I], J as [E|J].
    + now inversion E.
    + exfalso. apply X. apply (in_map fst) in J. exact J.
    + subst. exfalso. apply X. apply (in_map fst) in I. exact I.
    + auto.
  - apply (in_rev P) in I. eapply find_none in F; [|exact I]. cbn in F. rewrite Nat.eqb_refl in F. discriminate.
Qed.

Section P.
Variable ord : list vn -> list vn.
Hypothesis ord_in : forall l x, In x (ord l) <-> In x l.
Variable P : source_map.

Definition names (l : list stmt) : list vn := flat_map (fun s => defined s ++ used s) l.

(** ** What inlining produces, statement by statement *)
Record renames (f g : vn -> vn) (i j : ids) (e : entity) (ops : list vn) : Prop := {
  rn_le : ids_le i j;
  rn_inputs : map g (map in_val (e_inputs e)) = map f ops;
  rn_fresh : forall k, In k (definitions e) -> ~ In k (map in_val (e_inputs e)) -> between i j (g k);
  rn_inj : forall k k', In k (definitions e) -> ~ In k (map in_val (e_inputs e)) ->
             In k' (definitions e) -> ~ In k' (map in_val (e_inputs e)) -> g k = g k' -> k = k' }.

Inductive Fin : (vn -> vn) -> ids -> list stmt -> list stmt -> ids -> Prop :=
| Fin_nil f i : Fin f i [] [] i
| Fin_keep f i s ss out i' : inline_call P s = None -> Fin f i ss out i' ->
    Fin f i (s :: ss) (map_stmt f s :: out) i'
| Fin_call f g i s n c e ty ops t i1 body i2 ss out i3 :
    inline_call P s = Some (n, c, e, ty, ops, t) -> renames f g i i1 e ops ->
    Fin g i1 (e_stmts e) body i2 -> Fin f i2 ss out i3 ->
    Fin f i (s :: ss) (body ++ SAlias (f n) (g (e_output e)) t :: out) i3.

Lemma inline_call_inv s n c e ty ops t : inline_call P s = Some (n, c, e, ty, ops, t) ->
  s = SBind n (MOther c) ops t /\ exists u, find_unit P c = Some u /\ mu_inline u = true /\ mu_entity u = e /\ mu_typed u = ty.
Proof.
  destruct s as [n' o ops' t'| | | | | |]; cbn; try discriminate. destruct o; try discriminate.
  destruct (find_unit P token) as [u|] eqn:F; [|discriminate]. destruct (mu_inline u) eqn:I; [|discriminate].
  intros H. inversion H; subst. split; [reflexivity|]. exists u. auto.
Qed.

(** ** The maps *)
Lemma vn_eqb_true a b : vn_eqb a b = true <-> a = b.
Proof.
  destruct a as [i s|i], b as [j t|j]; cbn; try (split; discriminate).
  - rewrite andb_true_iff, Nat.eqb_eq, String.eqb_eq. split; [intros [-> ->]; reflexivity|intros H; inversion H; auto].
  - rewrite Nat.eqb_eq. split; [intros ->; reflexivity|intros H; inversion H; auto].
Qed.
Lemma vn_dec (a b : vn) : {a = b} + {a <> b}.
Proof. destruct (vn_eqb a b) eqn:E; [left; now apply vn_eqb_true|right; intros H; apply vn_eqb_true in H; congruence]. Qed.

Lemma lookup_app a b x : lookup_name (a ++ b) x = match lookup_name a x with Some y => Some y | None => lookup_name b x end.
Proof.
  induction a as [|[k v] a IH]; cbn; [reflexivity|]. unfold lookup_name in *. cbn.
  destruct (vn_eqb k x); [reflexivity|]. exact IH.
Qed.
Lemma lookup_some_in a x y : lookup_name a x = Some y -> In (x, y) a.
Proof.
  unfold lookup_name. destruct (find _ _) as [[k v]|] eqn:F; cbn; [|discriminate].
  intros H. inversion H; subst. apply find_some in F as [I E]. cbn in E. apply vn_eqb_true in E. subst. exact I.
Qed.
Lemma lookup_none_in a x : lookup_name a x = None -> ~ In x (map fst a).
Proof.
  unfold lookup_name. destruct (find _ _) as [[k v]|] eqn:F; cbn; [discriminate|].
  intros _ I. apply in_map_iff in I as ([k v] & E & I). cbn in E. subst.
  eapply find_none in F; [|exact I]. cbn in F. assert (vn_eqb x x = true) by now apply vn_eqb_true. congruence.
Qed.
Lemma lookup_none_notin a x : ~ In x (map fst a) -> lookup_name a x = None.
Proof.
  intros N. destruct (lookup_name a x) eqn:L; [|reflexivity]. exfalso. apply N.
  apply lookup_some_in in L. apply (in_map fst) in L. exact L.
Qed.
Lemma nodup_snd (r : list (vn * vn)) k k' v : NoDup (map snd r) -> In (k, v) r -> In (k', v) r -> k = k'.
Proof.
  induction r as [|[a b] r IH]; cbn; intros N I J; [destruct I|]. apply NoDup_cons_iff in N as [X N].
  destruct I as [I|I], J as [J|J].
  - congruence.
  - inversion I; subst. exfalso. apply X. apply (in_map snd) in J. exact J.
  - inversion J; subst. exfalso. apply X. apply (in_map snd) in I. exact I.
  - auto.
Qed.

Lemma combine_lookup (ks vs : list vn) (h : vn -> vn) : NoDup ks -> List.length vs = List.length ks ->
  forall (rest : name_map),
  map (fun k => match lookup_name (rev (map (fun p => (fst p, h (snd p))) (combine ks vs)) ++ rest) k with Some y => y | None => k end) ks
  = map h vs.
Proof.
  intros N. revert vs. induction ks as [|k ks IH]; intros vs L rest.
  - destruct vs; [reflexivity|discriminate].
  - destruct vs as [|v vs]; [discriminate|]. cbn in L. apply NoDup_cons_iff in N as [X N].
    cbn [combine map fst snd rev]. f_equal.
    + rewrite <- app_assoc. rewrite lookup_app.
      replace (lookup_name (rev _) k) with (@None vn).
      * rewrite lookup_app. unfold lookup_name at 1. cbn.
        assert (E : vn_eqb k k = true) by now apply vn_eqb_true. rewrite E. reflexivity.
      * symmetry. apply lookup_none_notin. rewrite map_rev, map_map. cbn. intros I. apply in_rev in I. apply X.
        apply in_map_iff in I as ([a b] & E & I). cbn in E. subst. eapply in_combine_l; exact I.
    + transitivity (map (fun k0 => match lookup_name (rev (map (fun p => (fst p, h (snd p))) (combine ks vs)) ++ ([(k, h v)] ++ rest)) k0 with Some y => y | None => k0 end) ks).
      * apply map_ext. intros k0. rewrite app_assoc. reflexivity.
      * apply IH; [assumption|lia].
Qed.

Definition arity_ok (l : list stmt) : Prop :=
  forall s n c e ty ops t, In s l -> inline_call P s = Some (n, c, e, ty, ops, t) ->
    List.length ops = List.length (e_inputs e) /\ NoDup (map in_val (e_inputs e)).

Lemma new_map_renames nm i e ops types nm' i' :
  List.length ops = List.length (e_inputs e) -> NoDup (map in_val (e_inputs e)) ->
  new_name_map ord nm i (flat_map defined (e_stmts e)) (zip e ops) types = (nm', i') ->
  renames (get_final_name nm) (get_final_name nm') i i' e ops
  /\ forall k, In k (definitions e) -> In k (map fst nm').
Proof.
  intros L N H. unfold new_name_map in H.
  destruct (fresh_all i _) as [r j] eqn:F. inversion H; subst. clear H.
  apply fresh_all_spec in F as (M & LE & A & ND).
  assert (K : forall k, In k (definitions e) -> ~ In k (map in_val (e_inputs e)) ->
    In (k, get_final_name (rev (r ++ map (fun p => (fst p, get_final_name nm (snd p))) (zip e ops))) k) r).
  { intros k I NI. unfold get_final_name, try_rename. rewrite rev_app_distr, lookup_app.
    rewrite lookup_none_notin.
    2:{ rewrite map_rev, map_map. cbn. intros J. apply in_rev in J. apply NI.
        apply in_map_iff in J as ([a b] & E & J). cbn in E. subst. eapply in_combine_l; exact J. }
    destruct (lookup_name (rev r) k) as [y|] eqn:Y.
    - apply lookup_some_in in Y. now apply in_rev.
    - exfalso. apply lookup_none_in in Y. apply Y. rewrite map_rev. apply -> in_rev. rewrite M.
      apply in_or_app. left. apply ord_in. unfold definitions in I. apply in_app_iff in I. tauto. }
  split; [split|].
  - exact LE.
  - unfold get_final_name at 1, try_rename. rewrite rev_app_distr. unfold zip.
    rewrite combine_lookup; [reflexivity|assumption|rewrite map_length; lia].
  - intros k I NI. specialize (K k I NI). rewrite Forall_forall in A. apply A. apply (in_map snd) in K. exact K.
  - intros k k' I NI I' NI' E. apply (K k I) in NI. apply (K k' I') in NI'. rewrite E in NI. eapply nodup_snd; eassumption.
  - intros k I. rewrite map_rev. apply -> in_rev. rewrite map_app, M. apply in_or_app.
    unfold definitions in I. apply in_app_iff in I as [I|I].
    + right. rewrite map_map. cbn. change (In k (map fst (zip e ops))). unfold zip.
      assert (G : forall (a : list vn) (b : list vn), List.length b = List.length a -> map fst (combine a b) = a).
      { induction a as [|x a IH]; intros [|y b] HH; try discriminate; [reflexivity|]. cbn. f_equal. apply IH. cbn in HH. lia. }
      rewrite G; [exact I|rewrite map_length; lia].
    + left. apply in_or_app. left. apply ord_in. exact I.
Qed.

(** ** From the two phases to [Fin] *)
Inductive made : list stmt -> pieces -> Prop :=
| made_end l : Forall (fun s => inline_call P s = None) l -> made l (PCons (Normal l) PNil)
| made_call pre s n c e ty ops t ss target types r :
    Forall (fun s => inline_call P s = None) pre -> inline_call P s = Some (n, c, e, ty, ops, t) ->
    made (e_stmts e) target -> made ss r ->
    made (pre ++ s :: ss)
      (PCons (Normal pre)
        (PCons (InlinedCall n (e_output e) t target (flat_map defined (e_stmts e)) (zip e ops) types) r)).

Lemma Fin_prefix f i pre ss out i' : Forall (fun s => inline_call P s = None) pre -> Fin f i ss out i' ->
  Fin f i (pre ++ ss) (map (map_stmt f) pre ++ out) i'.
Proof. induction 1; cbn; intros F; [exact F|]. constructor; auto. Qed.

Hypothesis arities : forall c u, find_unit P c = Some u -> arity_ok (e_stmts (mu_entity u)).

Lemma finalize_call nm i n o t target nms inputs types r :
  finalize_all ord nm i (PCons (InlinedCall n o t target nms inputs types) r) =
  (let '(nm', i) := new_name_map ord nm i nms inputs types in
   match lookup_name nm' o with
   | None => None
   | Some o' =>
       match finalize_all ord nm' i target with
       | None => None
       | Some (l, t1, i) =>
           match finalize_all ord nm i r with
           | None => None
           | Some (b, t2, i) =>
               Some ((l ++ [SAlias (get_final_name nm n) o' t]) ++ b, (map (get_final_name nm') types ++ t1) ++ t2, i)
           end
       end
   end).
Proof.
  cbn. destruct (new_name_map ord nm i nms inputs types) as [nm' j]. destruct (lookup_name nm' o); [|reflexivity].
  fold (finalize_all ord). destruct (finalize_all ord nm' j target) as [[[l t1] i2]|]; reflexivity.
Qed.
Lemma finalize_normal nm i l r :
  finalize_all ord nm i (PCons (Normal l) r) =
  match finalize_all ord nm i r with
  | None => None
  | Some (b, t, i) => Some (map (map_stmt (get_final_name nm)) l ++ b, t, i)
  end.
Proof. reflexivity. Qed.

Lemma made_fin ss ps : made ss ps -> arity_ok ss -> forall nm i out ty i',
  finalize_all ord nm i ps = Some (out, ty, i') -> Fin (get_final_name nm) i ss out i'.
Proof.
  induction 1 as [l A|pre s n c e ty ops t ss target types r A C M1 IH1 M2 IH2]; intros AR nm i out ty' i' H.
  - cbn in H. inversion H; subst. rewrite app_nil_r. rewrite <- (app_nil_r l) at 1. rewrite <- (app_nil_r (map _ l)).
    apply Fin_prefix; [assumption|constructor].
  - rewrite finalize_normal, finalize_call in H.
    destruct (new_name_map ord nm i _ (zip e ops) types) as [nm' j] eqn:NM.
    destruct (lookup_name nm' (e_output e)) as [o|] eqn:O; [|discriminate].
    destruct (finalize_all ord nm' j target) as [[[body t1] i2]|] eqn:F1; [|discriminate].
    destruct (finalize_all ord nm i2 r) as [[[out2 t2] i3]|] eqn:F2; [|discriminate].
    inversion H; subst. clear H.
    apply Fin_prefix; [assumption|]. rewrite <- app_assoc. cbn.
    assert (IS : In s (pre ++ s :: ss)) by (apply in_elt).
    destruct (AR _ _ _ _ _ _ _ IS C) as [L N].
    apply new_map_renames in NM as [RN _]; [|assumption|assumption].
    replace o with (get_final_name nm' (e_output e)) by (unfold get_final_name, try_rename; now rewrite O).
    eapply Fin_call.
    + exact C.
    + exact RN.
    + eapply IH1; [|exact F1]. apply inline_call_inv in C as (_ & u & U & _ & <- & _). eapply arities; exact U.
    + eapply IH2; [|exact F2]. intros s' n' c' e' ty2 ops' t' I. apply AR. apply in_or_app. right. right. exact I.
Qed.

(** The body of the loop of [perform_inlining]. *)
Section Loop.
Variable perform : nat -> cache -> ids -> option (pieces * cache * ids).
Fixpoint loop_ (cur : list stmt) (ss : list stmt) (ca : cache) (i : ids) {struct ss} : option (pieces * cache * ids) :=
  match ss with
  | [] => Some (PCons (Normal cur) PNil, ca, i)
  | s :: ss =>
      match inline_call P s with
      | None => loop_ (cur ++ [s]) ss ca i
      | Some (n, c, e, typed, ops, t) =>
          let '(m, i) := fresh_all i (flat_map defined (e_stmts e)) in
          let types := map snd (filter (fun p => typed (fst p)) m) in
          match perform c ca i with
          | None => None
          | Some (target, ca, i) =>
              match loop_ [] ss ca i with
              | None => None
              | Some (r, ca, i) =>
                  Some (PCons (Normal cur)
                         (PCons (InlinedCall n (e_output e) t target (map fst m) (zip e ops) types) r),
                        ca, i)
              end
          end
      end
  end.
End Loop.
Definition loop (fuel : nat) := loop_ (perform_inlining P fuel).
Lemma perform_unfold fuel u ca i :
  perform_inlining P (S fuel) u ca i =
  match find (fun p => fst p =? u) ca with
  | Some (_, l) => Some (l, ca, i)
  | None =>
      match find_unit P u with
      | None => None
      | Some src =>
          match loop fuel [] (e_stmts (mu_entity src)) ca i with
          | None => None
          | Some (l, ca, i) => Some (l, (u, l) :: ca, i)
          end
      end
  end.
Proof. reflexivity. Qed.

Definition cache_ok (ca : cache) : Prop :=
  forall u l, In (u, l) ca -> exists src, find_unit P u = Some src /\ made (e_stmts (mu_entity src)) l.

Lemma perform_made fuel : forall u ca i l ca' i', cache_ok ca ->
  perform_inlining P fuel u ca i = Some (l, ca', i') ->
  cache_ok ca' /\ ids_le i i' /\ exists src, find_unit P u = Some src /\ made (e_stmts (mu_entity src)) l.
Proof.
  induction fuel as [|fuel IH]; [intros; discriminate|].
  assert (LP : forall ss cur ca i l ca' i', cache_ok ca -> Forall (fun s => inline_call P s = None) cur ->
    loop fuel cur ss ca i = Some (l, ca', i') -> cache_ok ca' /\ ids_le i i' /\ made (cur ++ ss) l).
  { induction ss as [|s ss IHs]; intros cur ca i l ca' i' CO CU H; cbn [loop loop_] in H; unfold loop in H; cbn [loop_] in H; fold (loop fuel) in H.
    - inversion H; subst. rewrite app_nil_r. repeat split; try assumption; try lia. now constructor.
    - destruct (inline_call P s) as [[[[[[n c] e] ty] ops] t]|] eqn:C.
      + destruct (fresh_all i _) as [m i1] eqn:F. apply fresh_all_spec in F as (M & L1 & _).
        destruct (perform_inlining P fuel c ca i1) as [[[target ca1] i2]|] eqn:PI; [|discriminate].
        apply IH in PI as (CO1 & L2 & src & FU & MA); [|assumption].
        destruct (loop fuel [] ss ca1 i2) as [[[r ca2] i3]|] eqn:LO; [|discriminate].
        apply IHs in LO as (CO2 & L3 & MA2); [|assumption|constructor].
        inversion H; subst. split; [assumption|]. split; [eauto using ids_le_trans|]. rewrite M.
        econstructor; [assumption|exact C| |exact MA2].
        apply inline_call_inv in C as (_ & u' & U & _ & <- & _). congruence.
      + apply IHs in H; [|assumption|apply Forall_app; auto]. rewrite <- app_assoc in H. exact H. }
  intros u ca i l ca' i' CO H. rewrite perform_unfold in H.
  destruct (find _ ca) as [[u' l']|] eqn:F.
  - inversion H; subst. apply find_some in F as [I E]. apply Nat.eqb_eq in E. cbn in E. subst.
    split; [assumption|]. split; [apply ids_le_refl|]. exact (CO _ _ I).
  - destruct (find_unit P u) as [src|] eqn:FU; [|discriminate].
    destruct (loop fuel [] _ ca i) as [[[l0 ca0] i0]|] eqn:LO; [|discriminate].
    inversion H; subst. apply LP in LO as (CO2 & L & MA); [|assumption|constructor].
    split; [|split; [assumption|exists src; auto]].
    intros v lv [E|I]; [inversion E; subst; exists src; auto|auto].
Qed.

(** ** Names of the result *)
Hypothesis closeds : forall c u, find_unit P c = Some u -> closed (mu_entity u).

Lemma closed_names e x : closed e -> In x (names (e_stmts e)) -> In x (definitions e).
Proof.
  intros [_ C] I. apply in_flat_map in I as (s & J & K). apply in_app_iff in K as [K|K].
  - apply in_or_app. right. apply in_flat_map. eauto.
  - eapply C; eassumption.
Qed.

Lemma map_stmt_names f s : defined (map_stmt f s) ++ used (map_stmt f s) = map f (defined s ++ used s).
Proof. destruct s as [| |? ? ? [[]|]| | | |]; reflexivity. Qed.

Lemma renames_below f g i j e ops : renames f g i j e ops -> (forall x, In x ops -> below i (f x)) ->
  forall k, In k (definitions e) -> below j (g k).
Proof.
  intros R B k I. destruct (in_dec vn_dec k (map in_val (e_inputs e))) as [J|J].
  - assert (In (g k) (map f ops)). { rewrite <- (rn_inputs _ _ _ _ _ _ R). now apply in_map. }
    apply in_map_iff in H as (x & <- & X). eapply below_mono; [apply R|auto].
  - apply (rn_fresh _ _ _ _ _ _ R) in J as [_ J]; auto.
Qed.

Lemma Fin_le f i ss out i' : Fin f i ss out i' -> ids_le i i'.
Proof.
  induction 1; [apply ids_le_refl|assumption|].
  eapply ids_le_trans; [eapply rn_le; eassumption|]. eapply ids_le_trans; eassumption.
Qed.

Lemma Fin_below f i ss out i' : Fin f i ss out i' -> (forall x, In x (names ss) -> below i (f x)) ->
  forall x, In x (names out) -> below i' x.
Proof.
  induction 1 as [f i|f i s ss out i' C F IH|f g i s n c e ty ops t i1 body i2 ss out i3 C R F1 IH1 F2 IH2]; intros B x I.
  - destruct I.
  - cbn in I. rewrite map_stmt_names in I. apply in_app_iff in I as [I|I].
    + apply in_map_iff in I as (y & <- & Y). eapply below_mono; [eapply Fin_le; exact F|].
      apply B. cbn. apply in_or_app. now left.
    + apply IH; [|exact I]. intros y Y. apply B. cbn. apply in_or_app. now right.
  - pose proof (inline_call_inv _ _ _ _ _ _ _ C) as (-> & u & U & _ & EU & _). subst e.
    assert (G : forall k, In k (definitions (mu_entity u)) -> below i1 (g k)).
    { eapply renames_below; [exact R|]. intros y Y. apply B. cbn. right. apply in_or_app. left. exact Y. }
    unfold names in I. rewrite flat_map_app in I. apply in_app_iff in I as [I|I].
    + eapply below_mono; [eapply Fin_le; exact F2|]. apply IH1; [|exact I].
      intros y Y. apply G. apply closed_names; [eapply closeds; exact U|exact Y].
    + cbn in I. destruct I as [<-|[<-|I]].
      * eapply below_mono; [|apply B; cbn; auto]. eapply ids_le_trans; [eapply rn_le; exact R|].
        eapply ids_le_trans; [eapply Fin_le; exact F1|eapply Fin_le; exact F2].
      * eapply below_mono; [|apply G]. eapply ids_le_trans; [eapply Fin_le; exact F1|eapply Fin_le; exact F2].
        apply (closeds _ _ U).
      * apply IH2; [|exact I]. intros y Y. eapply below_mono; [|apply B; cbn; right; apply in_or_app; right; exact Y].
        eapply ids_le_trans; [eapply rn_le; exact R|eapply Fin_le; exact F1].
Qed.

(** ** Meaning *)
Section Sem.
Variable m : semantics.

Lemma runs_induction env (T : nat -> list (D m) -> D m -> list (D m) -> Prop) :
  (forall c e sg a, env c = Some e -> block m env (fun c i o a => runs m env c i o a /\ T c i o a) sg (e_stmts e) a ->
     T c (map (fun i => sg (in_val i)) (e_inputs e)) (sg (e_output e)) a) ->
  forall c ins o a, runs m env c ins o a -> T c ins o a.
Proof.
  intros H. fix IH 5. intros c ins o a R. destruct R as [c e sg a E B]. apply H; [exact E|].
  clear E. revert B. generalize (e_stmts e) as l. revert a.
  fix IHB 3. intros a l B. destruct B as [|n c' ops t a l b K R B|v l b B|s l b K HO B].
  - constructor.
  - constructor; [exact K|split; [exact R|exact (IH _ _ _ _ R)]|exact (IHB _ _ B)].
  - constructor. exact (IHB _ _ B).
  - apply block_primitive; [exact K|exact HO|exact (IHB _ _ B)].
Qed.

Lemma holds_map f (sg sg' : vn -> D m) s : (forall x, In x (defined s ++ used s) -> sg' (f x) = sg x) ->
  holds m sg s <-> holds m sg' (map_stmt f s).
Proof.
  intros H. destruct s as [n o ops t|n o t|n t c r i v|n t c|v|a b|]; cbn in *.
  - rewrite H by auto. rewrite map_map. erewrite map_ext_in with (f := fun x => sg' (f x)); [reflexivity|].
    intros x X. apply H. auto.
  - rewrite !H by auto. reflexivity.
  - destruct r as [[a b]|]; cbn in *; rewrite !H by auto 10; reflexivity.
  - rewrite !H by auto. reflexivity.
  - tauto.
  - rewrite !H by auto. reflexivity.
  - tauto.
Qed.

Lemma block_ext env I (sg sg' : vn -> D m) l a : (forall x, In x (names l) -> sg' x = sg x) ->
  block m env I sg l a -> block m env I sg' l a.
Proof.
  intros H B. induction B as [|n c ops t a l b K R B IH|v l b B IH|s l b K HO B IH].
  - constructor.
  - constructor; [exact K| |apply IH; intros x X; apply H; cbn; right; apply in_or_app; now right].
    replace (map sg' ops) with (map sg ops).
    + rewrite H; [exact R|cbn; auto].
    + apply map_ext_in. intros x X. symmetry. apply H. cbn. right. apply in_or_app. now left.
  - rewrite <- (H v) by (cbn; auto). constructor. apply IH. intros x X. apply H. cbn. auto.
  - apply block_primitive; [exact K| |apply IH; intros x X; apply H; cbn; apply in_or_app; now right].
    replace s with (map_stmt (fun x => x) s) by (destruct s as [| |? ? ? [[]|]| | | |]; cbn; rewrite ?map_id; reflexivity).
    apply (proj1 (holds_map _ _ _ _ (fun x X => H x (in_or_app _ _ _ (or_introl X))))). exact HO.
Qed.
Lemma block_app env I (sg : vn -> D m) l a l' b : block m env I sg l a -> block m env I sg l' b ->
  block m env I sg (l ++ l') (a ++ b).
Proof.
  induction 1 as [|n c ops t a l b' K R B IH|v l b' B IH|s l b' K HO B IH]; intros H; cbn; [exact H| | |].
  - rewrite <- app_assoc. constructor; auto.
  - constructor; auto.
  - apply block_primitive; auto.
Qed.
Lemma block_app_inv env I (sg : vn -> D m) l l' ab : block m env I sg (l ++ l') ab ->
  exists a b, ab = a ++ b /\ block m env I sg l a /\ block m env I sg l' b.
Proof.
  revert ab. induction l as [|s l IH]; cbn; intros ab B.
  - exists [], ab. repeat split; [constructor|exact B].
  - inversion B as [|n c ops t a l0 b K R B' E1 E2|v l0 b B' E1 E2|s0 l0 b K HO B' E1 E2]; subst;
      apply IH in B' as (x & y & -> & X & Y).
    + exists (a ++ x), y. rewrite app_assoc. repeat split; [constructor|]; assumption.
    + exists (sg v :: x), y. repeat split; [constructor|]; assumption.
    + exists x, y. repeat split; [apply block_primitive|]; assumption.
Qed.
Lemma block_mono env (I J : nat -> list (D m) -> D m -> list (D m) -> Prop) sg l a :
  (forall c i o a, I c i o a -> J c i o a) -> block m env I sg l a -> block m env J sg l a.
Proof. intros H. induction 1; [constructor|constructor; auto|constructor; auto|apply block_primitive; auto]. Qed.

Variable env2 : nat -> option entity.
Variable first : ids.
(** The units after inlining. *)
Hypothesis kept : forall c u, find_unit P c = Some u -> mu_inline u = false ->
  exists out i i', env2 c = Some (with_stmts (mu_entity u) out) /\ ids_le first i /\
    Fin (get_final_name []) i (e_stmts (mu_entity u)) out i'.
Hypothesis gone : forall c e, env2 c = Some e -> exists u, find_unit P c = Some u /\ mu_inline u = false.
Hypothesis belows : forall c u, find_unit P c = Some u -> Forall (below first) (definitions (mu_entity u)).
Let env1 := before P.

Lemma env1_some c e : env1 c = Some e -> exists u, find_unit P c = Some u /\ mu_entity u = e.
Proof. unfold env1, before. destruct (find_unit P c) as [u|]; cbn; [|discriminate]. intros H. inversion H. eauto. Qed.

Definition T (c : nat) (ins : list (D m)) (o : D m) (a : list (D m)) : Prop :=
  forall u, find_unit P c = Some u ->
  if mu_inline u then
    forall f g i j ops body i' sg0, renames f g i j (mu_entity u) ops ->
      Fin g j (e_stmts (mu_entity u)) body i' ->
      (forall x, In x ops -> below i (f x)) -> map (fun x => sg0 (f x)) ops = ins ->
      exists sg', (forall x, below i x -> sg' x = sg0 x) /\ block m env2 (runs m env2) sg' body a
        /\ sg' (g (e_output (mu_entity u))) = o
  else runs m env2 c ins o a.

Lemma forward_block f i ss out i' : Fin f i ss out i' ->
  (forall x, In x (names ss) -> below i (f x)) ->
  forall sg a, block m env1 T sg ss a ->
  forall sg0, (forall x, In x (names ss) -> sg0 (f x) = sg x) ->
  exists sg', (forall x, below i x -> sg' x = sg0 x) /\ block m env2 (runs m env2) sg' out a.
Proof.
  induction 1 as [f i|f i s ss out i' C F IH|f g i s n c e ty ops t i1 body i2 ss out i3 C R F1 _ F2 IH2];
    intros B sg a BL sg0 S0.
  - inversion BL; subst. exists sg0. split; [auto|constructor].
  - assert (BS : forall x, In x (names ss) -> below i (f x)) by (intros x X; apply B; cbn; apply in_or_app; now right).
    assert (SS : forall x, In x (names ss) -> sg0 (f x) = sg x) by (intros x X; apply S0; cbn; apply in_or_app; now right).
    assert (SN : forall sg', (forall x, below i x -> sg' x = sg0 x) -> forall x, In x (defined s ++ used s) -> sg' (f x) = sg x).
    { intros sg' A x X. assert (IN : In x (names (s :: ss))) by (cbn; apply in_or_app; now left).
      rewrite A by (apply B; exact IN). apply S0. exact IN. }
    inversion BL as [|n c ops t a1 l0 b K RT B' E1 E2|v l0 b B' E1 E2|s0 l0 b K HO B' E1 E2]; subst;
      destruct (IH BS sg _ B' sg0 SS) as (sg' & A & BO); exists sg'; (split; [exact A|]); specialize (SN sg' A).
    + destruct (env1 c) as [e|] eqn:E; [|congruence]. apply env1_some in E as (u & U & <-).
      specialize (RT u U). cbn in C. rewrite U in C. destruct (mu_inline u) eqn:IL; [discriminate|].
      cbn [map_stmt]. constructor; [|  |exact BO].
      * destruct (kept _ _ U IL) as (o' & j & j' & E & _). congruence.
      * rewrite map_map. erewrite map_ext_in; [rewrite SN; [exact RT|cbn; auto]|].
        intros x X. apply SN. cbn. auto.
    + cbn [map_stmt]. rewrite <- (SN v) by (cbn; auto). constructor. exact BO.
    + apply block_primitive; [| |exact BO].
      * destruct s as [n o ops t| | | | | |]; cbn in *; auto. destruct o; auto.
        destruct (env2 token) eqn:E; [|reflexivity]. apply gone in E as (u & U & _).
        unfold env1, before in K. rewrite U in K. discriminate.
      * exact (proj1 (holds_map f sg sg' s SN) HO).
  - pose proof (inline_call_inv _ _ _ _ _ _ _ C) as (-> & u & U & IL & EU & _). subst e.
    assert (E1c : env1 c = Some (mu_entity u)) by (unfold env1, before; rewrite U; reflexivity).
    inversion BL as [|n' c' ops' t' a1 l0 b K RT B' X1 X2|v l0 b B' X1 X2|s0 l0 b K HO B' X1 X2]; subst.
    2:{ cbn in K. congruence. }
    specialize (RT u U). rewrite IL in RT.
    assert (BO : forall x, In x ops -> below i (f x)) by (intros x X; apply B; cbn; right; apply in_or_app; now left).
    destruct (RT f g i i1 ops body i2 sg0 R F1 BO) as (sg1 & A1 & B1 & O1).
    { apply map_ext_in. intros x X. apply S0. cbn. right. apply in_or_app. now left. }
    assert (LE : ids_le i i2) by (eapply ids_le_trans; [eapply rn_le; exact R|eapply Fin_le; exact F1]).
    destruct (IH2) with (sg := sg) (a := b) (sg0 := sg1) as (sg' & A & BO2).
    { intros x X. eapply below_mono; [exact LE|]. apply B. cbn. right. apply in_or_app. now right. }
    { exact B'. }
    { intros x X. rewrite A1; [apply S0|apply B]; cbn; right; apply in_or_app; now right. }
    exists sg'. split.
    { intros x X. rewrite A by (eapply below_mono; [exact LE|exact X]). auto. }
    assert (G : forall k, In k (definitions (mu_entity u)) -> below i1 (g k)) by (eapply renames_below; [exact R|exact BO]).
    apply block_app.
    + eapply block_ext; [|exact B1]. intros x X. apply A. eapply Fin_below; [exact F1| |exact X].
      intros y Y. apply G. apply closed_names; [eapply closeds; exact U|exact Y].
    + apply block_primitive; [exact Logic.I| |exact BO2]. cbn.
      rewrite (A (g _)).
      2:{ eapply below_mono; [eapply Fin_le; exact F1|]. apply G. apply (closeds _ _ U). }
      rewrite O1. rewrite A by (eapply below_mono; [exact LE|]; apply B; cbn; auto).
      rewrite A1 by (apply B; cbn; auto). apply S0. cbn. auto.
Qed.

Lemma final_nil x : get_final_name [] x = x. Proof. reflexivity. Qed.

Lemma forward_unit c ins o a : runs m env1 c ins o a -> T c ins o a.
Proof.
  revert c ins o a. apply (runs_induction env1 T). intros c e sg a E B.
  apply block_mono with (J := T) in B; [|intros ? ? ? ? [_ H]; exact H].
  intros u U. assert (e = mu_entity u) as ->.
  { unfold env1, before in E. rewrite U in E. now inversion E. }
  pose proof (closeds _ _ U) as CL. destruct (mu_inline u) eqn:IL.
  - intros f g i j ops body i' sg0 R F BO EQ.
    set (ins := map in_val (e_inputs (mu_entity u))) in *.
    set (hit := fun x k => vn_eqb (g k) x && negb (mem k ins)).
    set (sg1 := fun x => match find (hit x) (definitions (mu_entity u)) with Some k => sg k | None => sg0 x end).
    assert (MEM : forall k, mem k ins = true <-> In k ins).
    { intros k. unfold mem. rewrite existsb_exists. split.
      - intros (y & Y & Q). apply vn_eqb_true in Q. now subst.
      - intros I. exists k. split; [exact I|now apply vn_eqb_true]. }
    assert (HIT : forall x k, hit x k = true -> g k = x /\ ~ In k ins).
    { intros x k H. apply andb_true_iff in H as [H1 H2]. apply vn_eqb_true in H1. split; [exact H1|].
      intros I. apply MEM in I. rewrite I in H2. discriminate. }
    assert (OLD : forall x, below i x -> sg1 x = sg0 x).
    { intros x X. unfold sg1. destruct (find (hit x) _) as [k|] eqn:Q; [|reflexivity].
      apply find_some in Q as [I H]. apply HIT in H as [<- H].
      destruct (rn_fresh _ _ _ _ _ _ R k I H) as [NB _]. contradiction. }
    assert (INS : forall k, In k ins -> sg0 (g k) = sg k).
    { pose proof (rn_inputs _ _ _ _ _ _ R) as Q. fold ins in Q.
      assert (Q2 : map sg0 (map g ins) = map sg ins).
      { rewrite Q, map_map, EQ. unfold ins. rewrite map_map. reflexivity. }
      clear - Q2. induction ins as [|k l IH]; intros y Y; [destruct Y|]. inversion Q2. destruct Y as [<-|Y]; auto. }
    assert (NEW : forall k, In k (definitions (mu_entity u)) -> sg1 (g k) = sg k).
    { intros k I. destruct (in_dec vn_dec k ins) as [J|J].
      - rewrite OLD; [apply INS; exact J|].
        assert (Q : In (g k) (map f ops)) by (rewrite <- (rn_inputs _ _ _ _ _ _ R); apply in_map; exact J).
        apply in_map_iff in Q as (x & <- & X). apply BO. exact X.
      - unfold sg1. destruct (find (hit (g k)) _) as [k'|] eqn:Q.
        + apply find_some in Q as [I' H]. apply HIT in H as [H N]. f_equal.
          eapply rn_inj; [exact R|exact I'|exact N|exact I|exact J|exact H].
        + eapply find_none in Q; [|exact I]. unfold hit in Q.
          assert (vn_eqb (g k) (g k) = true) by now apply vn_eqb_true. rewrite H in Q. cbn in Q.
          destruct (mem k ins) eqn:M; [|discriminate]. apply MEM in M. contradiction. }
    assert (G : forall k, In k (definitions (mu_entity u)) -> below j (g k)) by (eapply renames_below; eassumption).
    destruct (forward_block g j _ body i' F) with (sg := sg) (a := a) (sg0 := sg1) as (sg' & A & BB).
    { intros x X. apply G. apply closed_names; assumption. }
    { exact B. }
    { intros x X. apply NEW. apply closed_names; assumption. }
    exists sg'. split; [|split; [exact BB|]].
    + intros x X. rewrite A by (eapply below_mono; [eapply rn_le; exact R|exact X]). apply OLD. exact X.
    + destruct CL as [CO _]. rewrite A by (apply G; exact CO). apply NEW. exact CO.
  - destruct (kept _ _ U IL) as (out & i & i' & E2 & LE & F).
    assert (BE : forall x, In x (definitions (mu_entity u)) -> below i x).
    { intros x X. eapply below_mono; [exact LE|]. pose proof (belows _ _ U) as Q. rewrite Forall_forall in Q. auto. }
    destruct (forward_block _ _ _ _ _ F) with (sg := sg) (a := a) (sg0 := sg) as (sg' & A & BB).
    { intros x X. rewrite final_nil. apply BE. apply closed_names; assumption. }
    { exact B. }
    { intros x X. reflexivity. }
    pose proof (runs_unit m env2 c _ sg' a E2 BB) as RU. cbn in RU.
    rewrite A in RU by (apply BE; apply CL). erewrite map_ext_in in RU; [exact RU|].
    intros y Y. cbn. apply A. apply BE. apply in_or_app. left. apply in_map. exact Y.
Qed.

Lemma backward_block f i ss out i' : Fin f i ss out i' -> forall sg' a,
  block m env2 (runs m env1) sg' out a ->
  block m env1 (runs m env1) (fun x => sg' (f x)) ss a.
Proof.
  induction 1 as [f i|f i s ss out i' C F IH|f g i s n c e ty ops t i1 body i2 ss out i3 C R F1 IH1 F2 IH2];
    intros sg' a BL.
  - inversion BL; subst. constructor.
  - destruct s as [n o ops t| | | | | |]; cbn in BL;
      inversion BL as [|n' c' ops' t' a1 l0 b K RT B' X1 X2|v' l0 b B' X1 X2|s0 l0 b K HO B' X1 X2]; subst;
      try (apply IH in B'); try (constructor; fail).
    + constructor; [| |exact B'].
      * destruct (env2 c') eqn:E; [|congruence]. apply gone in E as (u & U & _). unfold env1, before. rewrite U. discriminate.
      * rewrite map_map in RT. exact RT.
    + apply block_primitive; [| |exact B'].
      * cbn in *. destruct o; auto. unfold env1, before. destruct (find_unit P token) as [u|] eqn:U; [|reflexivity].
        destruct (mu_inline u) eqn:IL; [cbn in C; discriminate|]. destruct (kept _ _ U IL) as (? & ? & ? & E & _). congruence.
      * match goal with |- holds _ _ ?s => exact (proj2 (holds_map f (fun x => sg' (f x)) sg' s (fun x _ => eq_refl)) HO) end.
    + apply block_primitive; [exact K| |exact B']. match goal with |- holds _ _ ?s => exact (proj2 (holds_map f (fun x => sg' (f x)) sg' s (fun x _ => eq_refl)) HO) end.
    + apply block_primitive; [exact K| |exact B']. match goal with |- holds _ _ ?s => exact (proj2 (holds_map f (fun x => sg' (f x)) sg' s (fun x _ => eq_refl)) HO) end.
    + apply block_primitive; [exact K| |exact B']. match goal with |- holds _ _ ?s => exact (proj2 (holds_map f (fun x => sg' (f x)) sg' s (fun x _ => eq_refl)) HO) end.
    + exact (block_assert m env1 (runs m env1) (fun x => sg' (f x)) v ss b B').
    + destruct K.
    + apply block_primitive; [exact K| |exact B']. match goal with |- holds _ _ ?s => exact (proj2 (holds_map f (fun x => sg' (f x)) sg' s (fun x _ => eq_refl)) HO) end.
    + apply block_primitive; [exact K| |exact B']. exact Logic.I.
  - pose proof (inline_call_inv _ _ _ _ _ _ _ C) as (-> & u & U & IL & EU & _). subst e.
    assert (E1c : env1 c = Some (mu_entity u)) by (unfold env1, before; rewrite U; reflexivity).
    apply block_app_inv in BL as (a1 & a2 & -> & BB & BA).
    inversion BA as [|n' c' ops' t' a3 l0 b K RT B' X1 X2|v' l0 b B' X1 X2|s0 l0 b K HO B' X1 X2]; subst.
    apply IH2 in B'. apply IH1 in BB. constructor; [congruence| |exact B'].
    cbn in HO. rewrite HO.
    pose proof (runs_unit m env1 c _ (fun x => sg' (g x)) a1 E1c BB) as RU. cbn in RU.
    replace (map (fun x => sg' (f x)) ops) with (map (fun i => sg' (g (in_val i))) (e_inputs (mu_entity u))); [exact RU|].
    pose proof (rn_inputs _ _ _ _ _ _ R) as Q. apply (f_equal (map sg')) in Q. rewrite !map_map in Q. exact Q.
Qed.

Lemma backward_unit c ins o a : runs m env2 c ins o a -> runs m env1 c ins o a.
Proof.
  revert c ins o a. apply (runs_induction env2 (runs m env1)). intros c e sg a E B.
  apply block_mono with (J := runs m env1) in B; [|intros ? ? ? ? [_ H]; exact H].
  destruct (gone _ _ E) as (u & U & IL). destruct (kept _ _ U IL) as (out & i & i' & E2 & _ & F).
  rewrite E in E2. inversion E2; subst. cbn in *. apply (backward_block _ _ _ _ _ F) in B.
  apply (runs_unit m env1 c (mu_entity u) (fun x => sg x) a).
  - unfold env1, before. rewrite U. reflexivity.
  - exact B.
Qed.
End Sem.
End P.

(** ** The whole pass *)
Section Pass.
Variable ord : list vn -> list vn.
Hypothesis ord_in : forall l x, In x (ord l) <-> In x l.
Variable P : source_map.
Variable first : ids.
Hypothesis WF : well_formed P first.

Lemma wf_closed c u : find_unit P c = Some u -> closed (mu_entity u).
Proof. intros H. apply find_unit_in in H. destruct WF as [_ W]. apply (W _ _ H). Qed.
Lemma wf_below c u : find_unit P c = Some u -> Forall (below first) (definitions (mu_entity u)).
Proof. intros H. apply find_unit_in in H. destruct WF as [_ W]. apply (W _ _ H). Qed.
Lemma wf_arity c u : find_unit P c = Some u -> arity_ok P (e_stmts (mu_entity u)).
Proof.
  intros H s n c' e ty ops t I C. apply find_unit_in in H. destruct WF as [_ W].
  apply inline_call_inv in C as (-> & u' & U & _ & <- & _). apply find_unit_in in U. split.
  - eapply (W _ _ H); eassumption.
  - apply (W _ _ U).
Qed.

Definition unit_made (x : nat * entity * pieces) : Prop :=
  exists u, find_unit P (fst (fst x)) = Some u /\ mu_inline u = false /\ mu_entity u = snd (fst x)
    /\ made P (e_stmts (mu_entity u)) (snd x).

Lemma perform_all_made fuel : forall us ca i r i', (forall x, In x us -> In x P) -> cache_ok P ca ->
  perform_all P fuel us ca i = Some (r, i') ->
  ids_le i i' /\ Forall unit_made r /\
  map (fun x => fst (fst x)) r = map fst (filter (fun p => negb (mu_inline (snd p))) us).
Proof.
  induction us as [|[u mu] us IH]; intros ca i r i' SUB CO H; cbn [perform_all] in H.
  - inversion H; subst. split; [apply ids_le_refl|]. split; [constructor|reflexivity].
  - cbn. destruct (mu_inline mu) eqn:IL; cbn.
    + eapply IH; [|exact CO|exact H]. intros x X. apply SUB. now right.
    + destruct (perform_inlining P fuel u ca i) as [[[l ca1] i1]|] eqn:PI; [|discriminate].
      apply perform_made in PI as (CO1 & L1 & src & FU & MA); [|assumption].
      destruct (perform_all P fuel us ca1 i1) as [[r' i2]|] eqn:PA; [|discriminate].
      apply IH in PA as (L2 & F & M); [|intros x X; apply SUB; now right|assumption].
      inversion H; subst. split; [eapply ids_le_trans; eassumption|]. split; [|cbn; f_equal; exact M].
      constructor; [|assumption]. exists src. cbn.
      assert (src = mu) as ->.
      { assert (X : find_unit P u = Some mu) by (apply in_find_unit; [apply WF|apply SUB; now left]). congruence. }
      auto.
Qed.

Definition unit_out (i : ids) (x : nat * entity * list vn) : Prop :=
  exists u out j j', find_unit P (fst (fst x)) = Some u /\ mu_inline u = false
    /\ snd (fst x) = with_stmts (mu_entity u) out /\ ids_le i j
    /\ Fin P (get_final_name []) j (e_stmts (mu_entity u)) out j'.
Lemma finalize_units_out : forall us i r, Forall unit_made us -> finalize_units ord us i = Some r ->
  Forall (unit_out i) r /\ map (fun x => fst (fst x)) r = map (fun x => fst (fst x)) us.
Proof.
  induction us as [|[[u e] l] us IH]; intros i r M H; cbn [finalize_units] in H.
  - inversion H; subst. split; [constructor|reflexivity].
  - destruct (finalize_all ord [] i l) as [[[stmts ty] i1]|] eqn:F; [|discriminate].
    destruct (finalize_units ord us i1) as [r'|] eqn:R; [|discriminate].
    inversion M as [|x y (mu & FU & IL & E & MA) M']; subst. cbn in *. subst.
    inversion H; subst. clear H. apply IH in R as [FO MP]; [|assumption].
    pose proof (made_fin ord ord_in P wf_arity _ _ MA (wf_arity _ _ FU) _ _ _ _ _ F) as FI.
    split; [|cbn; f_equal; exact MP]. constructor.
    + exists mu, stmts, i, i1. cbn. repeat split; try assumption; try reflexivity; apply ids_le_refl.
    + eapply Forall_impl; [|exact FO]. intros x (mu' & o & j & j' & A & B & C & L & D).
      exists mu', o, j, j'. repeat split; try assumption; [apply (ids_le_trans _ _ _ (Fin_le _ _ _ _ _ _ FI) L)..].
Qed.

Lemma do_inlining_out fuel out : do_inlining ord P fuel first = Some out ->
  Forall (unit_out first) out /\
  map (fun x => fst (fst x)) out = map fst (filter (fun p => negb (mu_inline (snd p))) P).
Proof.
  unfold do_inlining. destruct (perform_all P fuel P [] first) as [[l i]|] eqn:PA; [|discriminate].
  apply perform_all_made in PA as (L & M & N); [|auto|intros ? ? []].
  intros H. apply finalize_units_out in H as [F K]; [|assumption]. split; [|congruence].
  eapply Forall_impl; [|exact F]. intros x (u & o & j & j' & A & B & C & L' & D).
  exists u, o, j, j'. repeat split; try assumption; [apply (ids_le_trans _ _ _ L L')..].
Qed.

Lemma nodup_filter_fst (l : source_map) f : NoDup (map fst l) -> NoDup (map fst (filter f l)).
Proof.
  induction l as [|p l IH]; cbn; intros N; [constructor|]. apply NoDup_cons_iff in N as [X N].
  destruct (f p); cbn; [|auto]. constructor; [|auto]. intros I. apply X.
  apply in_map_iff in I as (q & E & I). apply filter_In in I as [I _]. rewrite <- E. now apply in_map.
Qed.

Lemma out_kept fuel out : do_inlining ord P fuel first = Some out ->
  forall c u, find_unit P c = Some u -> mu_inline u = false ->
  exists stmts i i', after out c = Some (with_stmts (mu_entity u) stmts) /\ ids_le first i /\
    Fin P (get_final_name []) i (e_stmts (mu_entity u)) stmts i'.
Proof.
  intros H c u U IL. apply do_inlining_out in H as [F M].
  assert (I : In c (map (fun x => fst (fst x)) out)).
  { rewrite M. apply in_map_iff. exists (c, u). split; [reflexivity|]. apply filter_In.
    split; [now apply find_unit_in|]. cbn. now rewrite IL. }
  unfold after. destruct (find _ out) as [[[c' e'] ty]|] eqn:FD.
  - apply find_some in FD as [J E]. apply Nat.eqb_eq in E. cbn in E. subst.
    rewrite Forall_forall in F. destruct (F _ J) as (u' & o & j & j' & A & B & C & L & D). cbn in *.
    assert (u' = u) as -> by congruence. exists o, j, j'. rewrite C. auto.
  - exfalso. apply in_map_iff in I as (x & E & I). eapply find_none in FD; [|exact I]. cbn in FD.
    rewrite E, Nat.eqb_refl in FD. discriminate.
Qed.
Lemma out_gone fuel out : do_inlining ord P fuel first = Some out ->
  forall c e, after out c = Some e -> exists u, find_unit P c = Some u /\ mu_inline u = false.
Proof.
  intros H c e. apply do_inlining_out in H as [F M]. unfold after.
  destruct (find _ out) as [[[c' e'] ty]|] eqn:FD; [|discriminate]. intros _.
  apply find_some in FD as [J E]. apply Nat.eqb_eq in E. cbn in E. subst.
  rewrite Forall_forall in F. destruct (F _ J) as (u' & o & j & j' & A & B & _). cbn in *. eauto.
Qed.

Theorem inlining_correct m fuel out c ins o a : do_inlining ord P fuel first = Some out ->
  ~ inlined P c -> runs m (before P) c ins o a <-> runs m (after out) c ins o a.
Proof.
  intros H NI. split.
  - intros R. destruct (before P c) as [e|] eqn:E.
    2:{ inversion R; congruence. }
    unfold before in E. destruct (find_unit P c) as [u|] eqn:U; [|discriminate].
    eapply (forward_unit P wf_closed m (after out) first) in R.
    + specialize (R u U). destruct (mu_inline u) eqn:IL; [|exact R]. exfalso. apply NI. exists u. auto.
    + eapply out_kept; exact H.
    + eapply out_gone; exact H.
    + exact wf_below.
  - intros R. eapply (backward_unit P m (after out) first).
    + eapply out_kept; exact H.
    + eapply out_gone; exact H.
    + exact R.
Qed.

(** ** Names *)
Lemma map_stmt_defined f s : defined (map_stmt f s) = map f (defined s).
Proof. destruct s; reflexivity. Qed.
Lemma map_stmt_used f s : used (map_stmt f s) = map f (used s).
Proof. destruct s as [| |? ? ? [[]|]| | | |]; reflexivity. Qed.

Lemma Fin_defined f i ss out i' : Fin P f i ss out i' -> forall x, In x (flat_map defined ss) -> In (f x) (flat_map defined out).
Proof.
  induction 1 as [f i|f i s ss out i' C F IH|f g i s n c e ty ops t i1 body i2 ss out i3 C R F1 IH1 F2 IH2]; intros x X.
  - destruct X.
  - cbn in *. rewrite map_stmt_defined. apply in_app_iff in X as [X|X]; apply in_or_app; [left; now apply in_map|right; auto].
  - apply inline_call_inv in C as (-> & _). cbn in X. rewrite flat_map_app. apply in_or_app. right. cbn.
    destruct X as [<-|X]; [now left|right; auto].
Qed.

Hypothesis single : forall c u, find_unit P c = Some u -> single_definitions (mu_entity u).

Lemma NoDup_app_inv (A : Type) (l l' : list A) : NoDup (l ++ l') ->
  NoDup l /\ NoDup l' /\ forall x, In x l -> ~ In x l'.
Proof.
  induction l as [|y l IH]; cbn; intros N.
  - split; [constructor|]. split; [assumption|]. intros x [].
  - apply NoDup_cons_iff in N as [X N]. destruct (IH N) as (A1 & A2 & A3). split; [|split; [assumption|]].
    + constructor; [|assumption]. intros I. apply X. apply in_or_app. now left.
    + intros x [<-|I]; [|auto]. intros J. apply X. apply in_or_app. now right.
Qed.
Lemma NoDup_app_intro (A : Type) (l l' : list A) : NoDup l -> NoDup l' -> (forall x, In x l -> ~ In x l') -> NoDup (l ++ l').
Proof.
  induction l as [|y l IH]; cbn; intros N N' D; [assumption|]. apply NoDup_cons_iff in N as [X N].
  constructor.
  - intros I. apply in_app_iff in I as [I|I]; [contradiction|]. apply (D y); auto.
  - apply IH; auto.
Qed.

Lemma defined_not_input c u y : find_unit P c = Some u -> In y (flat_map defined (e_stmts (mu_entity u))) ->
  ~ In y (map in_val (e_inputs (mu_entity u))) /\ In y (definitions (mu_entity u)).
Proof.
  intros U I. split.
  - intros J. apply single in U. unfold single_definitions, definitions in U.
    apply NoDup_app_inv in U as (_ & _ & D). apply (D y); assumption.
  - apply in_or_app. now right.
Qed.

Lemma Fin_origin f i ss out i' : Fin P f i ss out i' -> forall x, In x (flat_map defined out) ->
  (exists y, In y (flat_map defined ss) /\ x = f y) \/ between i i' x.
Proof.
  induction 1 as [f i|f i s ss out i' C F IH|f g i s n c e ty ops t i1 body i2 ss out i3 C R F1 IH1 F2 IH2]; intros x X.
  - destruct X.
  - cbn in X. rewrite map_stmt_defined in X. apply in_app_iff in X as [X|X].
    + apply in_map_iff in X as (y & <- & Y). left. exists y. split; [cbn; apply in_or_app; now left|reflexivity].
    + destruct (IH _ X) as [(y & Y & ->)|B]; [|now right]. left. exists y. split; [cbn; apply in_or_app; now right|reflexivity].
  - pose proof (Fin_le _ _ _ _ _ _ F1) as L1. pose proof (Fin_le _ _ _ _ _ _ F2) as L2. pose proof (rn_le _ _ _ _ _ _ R) as L0.
    pose proof (inline_call_inv _ _ _ _ _ _ _ _ C) as (-> & u & U & _ & <- & _).
    rewrite flat_map_app in X. apply in_app_iff in X as [X|X].
    + right. destruct (IH1 _ X) as [(y & Y & ->)|[B1 B2]].
      * destruct (defined_not_input _ _ _ U Y) as [N I]. destruct (rn_fresh _ _ _ _ _ _ R _ I N) as [A B].
        split; [assumption|]. eapply below_mono; [|exact B]. eapply ids_le_trans; eassumption.
      * split; [intros Z; apply B1; eapply below_mono; eassumption|eapply below_mono; eassumption].
    + cbn in X. destruct X as [<-|X].
      * left. exists n. split; [now left|reflexivity].
      * destruct (IH2 _ X) as [(y & Y & ->)|[B1 B2]].
        -- left. exists y. split; [now right|reflexivity].
        -- right. split; [|assumption]. intros Z. apply B1. eapply below_mono; [|exact Z]. eapply ids_le_trans; eassumption.
Qed.

Lemma Fin_nodup f i ss out i' : Fin P f i ss out i' -> NoDup (flat_map defined ss) ->
  (forall x y, In x (flat_map defined ss) -> In y (flat_map defined ss) -> f x = f y -> x = y) ->
  (forall x, In x (flat_map defined ss) -> below i (f x)) -> NoDup (flat_map defined out).
Proof.
  induction 1 as [f i|f i s ss out i' C F IH|f g i s n c e ty ops t i1 body i2 ss out i3 C R F1 IH1 F2 IH2]; intros N INJ B.
  - constructor.
  - cbn in *. rewrite map_stmt_defined. pose proof (NoDup_app_inv _ _ _ N) as (N1 & N2 & D). apply NoDup_app_intro.
    + destruct s; cbn; repeat constructor; cbn; tauto.
    + apply IH; [assumption| |].
      * intros x y X Y. apply INJ; apply in_or_app; now right.
      * intros x X. apply B. apply in_or_app. now right.
    + intros x X Y. apply in_map_iff in X as (z & <- & Z).
      destruct (Fin_origin _ _ _ _ _ F _ Y) as [(y & Y' & E)|[B1 _]].
      * apply INJ in E; [|apply in_or_app; now left|apply in_or_app; now right]. subst. apply (D y); assumption.
      * apply B1. apply B. apply in_or_app. now left.
  - pose proof (Fin_le _ _ _ _ _ _ F1) as L1. pose proof (Fin_le _ _ _ _ _ _ F2) as L2. pose proof (rn_le _ _ _ _ _ _ R) as L0.
    pose proof (inline_call_inv _ _ _ _ _ _ _ _ C) as (-> & u & U & _ & <- & _). cbn in N, B, INJ.
    apply NoDup_cons_iff in N as [X N].
    assert (BODY : forall x, In x (flat_map defined body) -> ~ below i x /\ below i2 x).
    { intros x Y. destruct (Fin_origin _ _ _ _ _ F1 _ Y) as [(y & Y' & ->)|[B1 B2]].
      - destruct (defined_not_input _ _ _ U Y') as [NI I]. destruct (rn_fresh _ _ _ _ _ _ R _ I NI) as [A1 A2].
        split; [assumption|eapply below_mono; eassumption].
      - split; [|assumption]. intros Z. apply B1. eapply below_mono; eassumption. }
    assert (REST : forall x, In x (flat_map defined out) -> (exists y, In y (flat_map defined ss) /\ x = f y) \/ ~ below i2 x).
    { intros x Y. destruct (Fin_origin _ _ _ _ _ F2 _ Y) as [Z|[B1 B2]]; auto. }
    rewrite flat_map_app. cbn. apply NoDup_app_intro.
    + apply IH1.
      * pose proof (single _ _ U) as S. unfold single_definitions, definitions in S. apply NoDup_app_inv in S. tauto.
      * intros x y X1 Y1. destruct (defined_not_input _ _ _ U X1), (defined_not_input _ _ _ U Y1).
        apply (rn_inj _ _ _ _ _ _ R); assumption.
      * intros x X1. destruct (defined_not_input _ _ _ U X1) as [NI I]. apply (rn_fresh _ _ _ _ _ _ R _ I NI).
    + constructor.
      * intros Y. destruct (REST _ Y) as [(y & Y' & E)|NB].
        -- apply INJ in E; auto. subst. contradiction.
        -- apply NB. eapply below_mono; [|apply B; now left]. eapply ids_le_trans; eassumption.
      * apply IH2; [assumption|auto|]. intros x X1. eapply below_mono; [|apply B; now right]. eapply ids_le_trans; eassumption.
    + intros x X1 [<-|Y].
      * apply BODY in X1 as [NB _]. apply NB. apply B. now left.
      * apply BODY in X1 as [NB BB]. destruct (REST _ Y) as [(y & Y' & ->)|NB'].
        -- apply NB. apply B. now right.
        -- contradiction.
Qed.

Lemma Fin_used f i ss out i' : Fin P f i ss out i' -> forall x, In x (flat_map used out) ->
  (exists y, In y (flat_map used ss) /\ x = f y) \/ In x (flat_map defined out).
Proof.
  induction 1 as [f i|f i s ss out i' C F IH|f g i s n c e ty ops t i1 body i2 ss out i3 C R F1 IH1 F2 IH2]; intros x X.
  - destruct X.
  - cbn in X. rewrite map_stmt_used in X. apply in_app_iff in X as [X|X].
    + apply in_map_iff in X as (y & <- & Y). left. exists y. split; [cbn; apply in_or_app; now left|reflexivity].
    + destruct (IH _ X) as [(y & Y & ->)|B].
      * left. exists y. split; [cbn; apply in_or_app; now right|reflexivity].
      * right. cbn. apply in_or_app. now right.
  - pose proof (inline_call_inv _ _ _ _ _ _ _ _ C) as (-> & u & U & _ & <- & _).
    assert (K : forall y, In y (definitions (mu_entity u)) ->
      (exists z, In z ops /\ g y = f z) \/ In (g y) (flat_map defined body)).
    { intros y Y. unfold definitions in Y. apply in_app_iff in Y as [Y|Y].
      - left. assert (In (g y) (map f ops)) by (rewrite <- (rn_inputs _ _ _ _ _ _ R); now apply in_map).
        apply in_map_iff in H as (z & E & Z). eauto.
      - right. eapply Fin_defined; eassumption. }
    rewrite flat_map_app in *. apply in_app_iff in X as [X|X].
    + destruct (IH1 _ X) as [(y & Y & ->)|B].
      * assert (Y' : In y (definitions (mu_entity u))).
        { pose proof (wf_closed _ _ U) as [_ CL]. apply in_flat_map in Y as (s & S1 & S2). eapply CL; eassumption. }
        destruct (K y Y') as [(z & Z & E)|B].
        -- left. exists z. split; [cbn; apply in_or_app; now left|assumption].
        -- right. apply in_or_app. now left.
      * right. apply in_or_app. now left.
    + cbn in X. destruct X as [<-|X].
      * destruct (K (e_output (mu_entity u))) as [(z & Z & E)|B].
        -- apply (wf_closed _ _ U).
        -- left. exists z. split; [cbn; apply in_or_app; now left|assumption].
        -- right. apply in_or_app. now left.
      * destruct (IH2 _ X) as [(y & Y & ->)|B].
        -- left. exists y. split; [cbn; apply in_or_app; now right|reflexivity].
        -- right. apply in_or_app. right. cbn. now right.
Qed.

Theorem inlining_names fuel out c e ty : do_inlining ord P fuel first = Some out -> In (c, e, ty) out ->
  single_definitions e /\ closed e.
Proof.
  intros H I. apply do_inlining_out in H as [F _]. rewrite Forall_forall in F.
  destruct (F _ I) as (u & o & j & j' & U & IL & E & L & FI). cbn in *. subst e.
  assert (BE : forall x, In x (definitions (mu_entity u)) -> below j x).
  { intros x X. eapply below_mono; [exact L|]. pose proof (wf_below _ _ U) as Q. rewrite Forall_forall in Q. auto. }
  assert (ID : forall x, In x (flat_map defined (e_stmts (mu_entity u))) -> In x (flat_map defined o)).
  { intros x X. apply (Fin_defined _ _ _ _ _ FI). exact X. }
  split.
  - unfold single_definitions, definitions. cbn. pose proof (single _ _ U) as S. unfold single_definitions, definitions in S.
    apply NoDup_app_inv in S as (S1 & S2 & S3). apply NoDup_app_intro; [assumption| |].
    + apply (Fin_nodup _ _ _ _ _ FI); [assumption|auto|]. intros x X. apply BE. apply in_or_app. now right.
    + intros x X Y. destruct (Fin_origin _ _ _ _ _ FI _ Y) as [(y & Y' & E)|[B1 _]].
      * rewrite final_nil in E. subst. apply (S3 y); assumption.
      * apply B1. apply BE. apply in_or_app. now left.
  - destruct (wf_closed _ _ U) as [C1 C2]. split; cbn.
    + unfold definitions in *. cbn. apply in_app_iff in C1 as [C1|C1]; apply in_or_app; auto.
    + intros s x S X. unfold definitions. cbn.
      assert (X' : In x (flat_map used o)) by (apply in_flat_map; eauto).
      destruct (Fin_used _ _ _ _ _ FI _ X') as [(y & Y & E)|B]; [|apply in_or_app; now right].
      rewrite final_nil in E. subst. apply in_flat_map in Y as (s' & S1 & S2).
      specialize (C2 _ _ S1 S2). unfold definitions in C2. apply in_app_iff in C2 as [C2|C2]; apply in_or_app; auto.
Qed.

(** ** No inlined unit is still called *)
Lemma inline_call_map f s : inline_call P s = None -> inline_call P (map_stmt f s) = None.
Proof.
  destruct s as [n o ops t| | | | | |]; cbn; try reflexivity. destruct o; try reflexivity.
  destruct (find_unit P token) as [u|]; [|reflexivity]. destruct (mu_inline u); [discriminate|reflexivity].
Qed.
Lemma Fin_no_call f i ss out i' : Fin P f i ss out i' -> forall s, In s out -> inline_call P s = None.
Proof.
  induction 1 as [f i|f i s0 ss out i' C F IH|f g i s0 n c e ty ops t i1 body i2 ss out i3 C R F1 IH1 F2 IH2]; intros s I.
  - destruct I.
  - destruct I as [<-|I]; [now apply inline_call_map|auto].
  - apply in_app_iff in I as [I|[<-|I]]; [auto|reflexivity|auto].
Qed.
Theorem inlining_no_call fuel out c e ty : do_inlining ord P fuel first = Some out -> In (c, e, ty) out ->
  forall n c' ops t, In (SBind n (MOther c') ops t) (e_stmts e) -> ~ inlined P c'.
Proof.
  intros H I n c' ops t S (u & U & IL). apply do_inlining_out in H as [F _]. rewrite Forall_forall in F.
  destruct (F _ I) as (u0 & o & j & j' & _ & _ & E & _ & FI). cbn in *. subst e.
  apply (Fin_no_call _ _ _ _ _ FI) in S. cbn in S. rewrite U, IL in S. discriminate.
Qed.

(** ** The result has the same units with the same ports *)
Theorem inlining_units fuel out : do_inlining ord P fuel first = Some out ->
  map (fun x => fst (fst x)) out = map fst (filter (fun p => negb (mu_inline (snd p))) P) /\
  forall c e ty u, In (c, e, ty) out -> In (c, u) P ->
    mu_inline u = false /\ e_inputs e = e_inputs (mu_entity u) /\ e_output e = e_output (mu_entity u) /\ e_output_ty e = e_output_ty (mu_entity u).
Proof.
  intros H. apply do_inlining_out in H as [F M]. split; [assumption|]. intros c e ty u I J.
  rewrite Forall_forall in F. destruct (F _ I) as (u0 & o & j & j' & U & IL & E & _). cbn in *. subst e.
  apply in_find_unit in J; [|apply WF]. assert (u0 = u) as -> by congruence. auto.
Qed.

(** ** Inlining ends *)
Section Total.
Variable rank : nat -> nat.
Hypothesis AC : acyclic P rank.

Lemma perform_total fuel : forall u src ca i, find_unit P u = Some src -> rank u < fuel ->
  exists l ca' i', perform_inlining P fuel u ca i = Some (l, ca', i').
Proof.
  induction fuel as [|fuel IH]; [intros; lia|]. intros u src ca i U R. rewrite perform_unfold.
  destruct (find _ ca) as [[u' l']|]; [eauto|]. rewrite U.
  assert (LP : forall ss cur ca i, (forall s, In s ss -> In s (e_stmts (mu_entity src))) ->
    exists l ca' i', loop P fuel cur ss ca i = Some (l, ca', i')).
  { induction ss as [|s ss IHs]; intros cur ca0 i0 SUB; unfold loop; cbn [loop_]; fold (loop P fuel).
    - eauto.
    - destruct (inline_call P s) as [[[[[[n c] e] ty] ops] t]|] eqn:C.
      + destruct (fresh_all i0 _) as [m i1]. pose proof (inline_call_inv _ _ _ _ _ _ _ _ C) as (-> & u' & U' & IL & _).
        destruct (IH c u' ca0 i1 U') as (l1 & ca1 & i2 & ->).
        { assert (rank c < rank u); [|lia]. eapply AC.
          - apply find_unit_in. exact U.
          - apply SUB. now left.
          - exists u'. auto. }
        destruct (IHs [] ca1 i2) as (l2 & ca2 & i3 & ->); [intros s S; apply SUB; now right|]. eauto.
      + apply IHs. intros s' S. apply SUB. now right. }
  destruct (LP (e_stmts (mu_entity src)) [] ca i) as (l & ca' & i' & ->); [auto|]. eauto.
Qed.

Lemma perform_all_total fuel : forall us ca i, (forall x, In x us -> In x P) -> (forall c u, In (c, u) P -> rank c < fuel) ->
  exists r i', perform_all P fuel us ca i = Some (r, i').
Proof.
  induction us as [|[u mu] us IH]; intros ca i SUB R; cbn [perform_all]; [eauto|].
  destruct (mu_inline mu).
  - apply IH; [intros x X; apply SUB; now right|assumption].
  - assert (I : In (u, mu) P) by (apply SUB; now left).
    destruct (perform_total fuel u mu ca i) as (l & ca' & i' & ->); [apply in_find_unit; [apply WF|assumption]|eauto|].
    destruct (IH ca' i') as (r & i2 & ->); [intros x X; apply SUB; now right|assumption|]. eauto.
Qed.

Lemma made_total ss ps : made P ss ps -> arity_ok P ss -> forall nm i,
  exists r, finalize_all ord nm i ps = Some r.
Proof.
  induction 1 as [l A|pre s n c e ty ops t ss target types r A C M1 IH1 M2 IH2]; intros AR nm i.
  - cbn. eauto.
  - rewrite finalize_normal, finalize_call.
    destruct (new_name_map ord nm i _ (zip e ops) types) as [nm' j] eqn:NM.
    assert (IS : In s (pre ++ s :: ss)) by (apply in_elt).
    destruct (AR _ _ _ _ _ _ _ IS C) as [L N].
    apply new_map_renames in NM as [_ K]; [|exact ord_in|assumption|assumption].
    pose proof (inline_call_inv _ _ _ _ _ _ _ _ C) as (_ & u & U & _ & <- & _).
    destruct (lookup_name nm' _) as [o|] eqn:O.
    2:{ exfalso. apply lookup_none_in in O. apply O. apply K. apply (wf_closed _ _ U). }
    destruct (IH1 (wf_arity _ _ U) nm' j) as [[[a b] i2] ->].
    assert (AR2 : arity_ok P ss).
    { intros s' n' c' e' ty2 ops' t' I. apply AR. apply in_or_app. right. right. exact I. }
    destruct (IH2 AR2 nm i2) as [[[a2 b2] i3] ->].
    eauto.
Qed.

Theorem inlining_total fuel : (forall c u, In (c, u) P -> rank c < fuel) -> exists out, do_inlining ord P fuel first = Some out.
Proof.
  intros R. unfold do_inlining. destruct (perform_all_total fuel P [] first (fun x H => H) R) as (l & i & PA). rewrite PA.
  apply perform_all_made in PA as (_ & M & _); [|auto|intros ? ? []]. clear R.
  revert i. induction M as [|[[c e] ps] us (u & U & _ & EE & MA) M IH]; intros i; cbn [finalize_units fst snd] in *; [eauto|].
  destruct (made_total _ _ MA (wf_arity _ _ U) [] i) as [[[a b] i2] ->]. destruct (IH i2) as [r ->]. eauto.
Qed.
End Total.
End Pass.
