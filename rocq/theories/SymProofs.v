(** Proofs about name lookup. *)
From Coq Require Import String List Bool Arith Lia.
From Verif Require Import SymModel SymSpec.
Import ListNotations.
Local Open Scope list_scope.

(** ** Equality *)
Lemma segment_eqb_true a b : segment_eqb a b = true <-> a = b.
Proof.
  destruct a as [x|x| |], b as [y|y| |]; cbn; try (split; [discriminate|intros H; discriminate H]).
  - rewrite String.eqb_eq. split; [intros ->; reflexivity|intros H; now inversion H].
  - rewrite Nat.eqb_eq. split; [intros ->; reflexivity|intros H; now inversion H].
  - split; reflexivity.
  - split; reflexivity.
Qed.
Lemma path_eqb_true p : forall q, path_eqb p q = true <-> p = q.
Proof.
  induction p as [|a p IH]; intros [|b q]; cbn; try (split; [discriminate|intros H; discriminate H]); [split; reflexivity|].
  rewrite andb_true_iff, segment_eqb_true, IH. split; [intros [-> ->]; reflexivity|intros H; inversion H; auto].
Qed.
Lemma mem_in i l : mem i l = true <-> In i l.
Proof.
  unfold mem. rewrite existsb_exists. split.
  - intros (x & I & E). apply Nat.eqb_eq in E. now subst.
  - intros I. exists i. split; [assumption|apply Nat.eqb_refl].
Qed.
Lemma mem_false i l : mem i l = false <-> ~ In i l.
Proof. rewrite <- mem_in. destruct (mem i l); split; congruence. Qed.
Lemma get_in {A} (l : list (nat * A)) i x : get l i = Some x -> In (i, x) l.
Proof.
  unfold get. destruct (find _ l) as [[j y]|] eqn:F; cbn; [|discriminate]. intros H. inversion H; subst.
  apply find_some in F as [I E]. apply Nat.eqb_eq in E. cbn in E. now subst.
Qed.
Lemma mem_cons x a l : mem x (a :: l) = (x =? a) || mem x l.
Proof. reflexivity. Qed.
Lemma is_prefix_inside p : forall q, is_prefix p q = true <-> inside p q.
Proof.
  induction p as [|a p IH]; intros q; cbn.
  - split; [intros _; now exists q|reflexivity].
  - destruct q as [|b q].
    + split; [discriminate|intros (r & H); discriminate H].
    + rewrite andb_true_iff, segment_eqb_true, IH. split.
      * intros [-> (r & ->)]. now exists r.
      * intros (r & H). inversion H; subst. split; [reflexivity|now exists r].
Qed.

(** ** Visibility *)
Lemma prelude_some p q : prelude p = Some q -> exists x, p = q ++ [x].
Proof.
  destruct p as [|a p]; [discriminate|]. cbn. intros H. inversion H; subst.
  exists (last (a :: p) a). apply (app_removelast_last (l := a :: p) a). discriminate.
Qed.
Lemma prelude_snoc q x : prelude (q ++ [x]) = Some q.
Proof. unfold prelude. destruct (q ++ [x]) eqn:E; [destruct q; discriminate|]. rewrite <- E. now rewrite removelast_last. Qed.

Lemma visible_may_use t v p q ns : visible_from t v p = Some q -> is_prefix q ns = true -> may_use (base t) v p ns.
Proof.
  intros V I. apply is_prefix_inside in I. destruct v; cbn in V.
  - apply prelude_some in V as (x & ->). now constructor.
  - constructor.
  - inversion V; subst. now constructor.
  - apply prelude_some in V as (x & ->). now constructor.
  - destruct (prelude p) as [p1|] eqn:E1; [|discriminate]. apply prelude_some in E1 as (x & ->).
    apply prelude_some in V as (y & ->). rewrite <- app_assoc. now constructor.
  - destruct (prelude p) as [p1|] eqn:E1; [|discriminate]. apply prelude_some in E1 as (x & ->).
    destruct (prelude p1) as [p2|] eqn:E2; [|discriminate]. apply prelude_some in E2 as (y & ->).
    apply prelude_some in V as (z & ->). rewrite <- !app_assoc. now constructor.
Qed.
Lemma may_use_visible t v p ns : may_use (base t) v p ns -> exists q, visible_from t v p = Some q /\ is_prefix q ns = true.
Proof.
  intros H. destruct H as [p ns|p ns I|m x ns I|m x ns I|m x y ns I|m x y z ns I]; cbn.
  - eexists. split; reflexivity.
  - eexists. split; [reflexivity|now apply is_prefix_inside].
  - rewrite prelude_snoc. eexists. split; [reflexivity|now apply is_prefix_inside].
  - rewrite prelude_snoc. eexists. split; [reflexivity|now apply is_prefix_inside].
  - change (m ++ [x; y]) with (m ++ ([x] ++ [y])). rewrite app_assoc, !prelude_snoc.
    eexists. split; [reflexivity|now apply is_prefix_inside].
  - change (m ++ [x; y; z]) with (m ++ ([x] ++ ([y] ++ [z]))). rewrite !app_assoc, !prelude_snoc.
    eexists. split; [reflexivity|now apply is_prefix_inside].
Qed.
Lemma check_item_ok t id p ns note note' : check_item t true id p ns note = Ok note' -> usable t id p ns.
Proof.
  unfold check_item, usable. intros H v V. rewrite V in H.
  destruct (visible_from t v p) as [q|] eqn:E; [|discriminate]. destruct (is_prefix q ns) eqn:I; [|discriminate].
  eapply visible_may_use; eassumption.
Qed.
Lemma check_item_usable t id p ns note : usable t id p ns -> exists note', check_item t true id p ns note = Ok note'.
Proof.
  unfold check_item, usable. intros H. destruct (get (visibilities t) id) as [v|]; [|eauto].
  destruct (may_use_visible _ _ _ _ (H v eq_refl)) as (q & -> & ->). eauto.
Qed.
Lemma check_item_not_endless t c id p ns note : check_item t c id p ns note <> Endless.
Proof.
  unfold check_item. destruct c; [|discriminate]. destruct (get (visibilities t) id); [|discriminate].
  destruct (visible_from t v p); [|discriminate]. destruct (is_prefix p0 ns); discriminate.
Qed.

(** ** What a walk that succeeds has found *)
Section Walk.
Variable t : symtab.
Variable check : bool.
Variable rec : path -> path -> list nat -> res (nat * path * option nat).
Variable ns : path.
Variable forbidden : list nat.

Definition found (rest : list segment) (o : nat) (p : path) : Prop :=
  exists id, item t o p id /\ ~ In id forbidden /\ (check = true -> usable t id p ns) /\
    (rest = [] -> In id (types t) \/ ~ is_alias t id).

Lemma settle_found k : forall local rest off p note o q n,
  settle t check rec ns forbidden k local rest off p note = Ok (o, q, n) -> found rest o q.
Proof.
  induction k as [|k IH]; intros local rest off p note o q n H; [discriminate|]. cbn [settle] in H.
  destruct (scope_vars t off p) as [id|] eqn:I; [|discriminate].
  destruct (mem id forbidden) eqn:F; [discriminate|]. apply mem_false in F.
  destruct (check_item t check id p ns note) as [note'| | |] eqn:C; try discriminate.
  assert (U : check = true -> usable t id p ns) by (intros ->; eapply check_item_ok; exact C).
  destruct (mem id (types t) && match rest with [] => true | _ => false end) eqn:TY.
  - inversion H; subst. apply andb_true_iff in TY as [TY _]. apply mem_in in TY. exists id. repeat split; auto.
  - destruct (get (things t) id) as [[ap ans| |]|] eqn:G.
    + destruct (rec ap ans (id :: local)) as [[[aoff awp] anote]| | |] eqn:R; try discriminate.
      destruct rest as [|nx rest'].
      * eapply IH; exact H.
      * destruct (scope_vars t aoff (awp ++ [nx])), (scope_vars t off (p ++ [nx])).
        -- destruct (known t n0 && known t n1); discriminate.
        -- eapply IH; exact H.
        -- inversion H; subst. exists id. repeat split; auto. discriminate.
        -- eapply IH; exact H.
    + inversion H; subst. exists id. repeat split; auto. intros _. right. intros (ap & ans & G'). congruence.
    + inversion H; subst. exists id. repeat split; auto. intros _. right. intros (ap & ans & G'). congruence.
    + inversion H; subst. exists id. repeat split; auto. intros _. right. intros (ap & ans & G'). congruence.
Qed.

Lemma walk_found k : forall segs off p note o q n, segs <> [] ->
  walk t check rec ns forbidden k segs off p note = Ok (o, q, n) -> found [] o q.
Proof.
  induction segs as [|g segs IH]; intros off p note o q n N H; [congruence|]. cbn [walk] in H.
  destruct (settle _ _ _ _ _ _ _ _ _ _ _) as [[[o1 p1] n1]| | |] eqn:S; try discriminate.
  destruct segs as [|g' segs].
  - cbn in H. inversion H; subst. eapply settle_found; exact S.
  - eapply IH; [discriminate|exact H].
Qed.

(** ** It ends *)
Definition alias_ids : list nat := nodup Nat.eq_dec (map fst (things t)).
Definition left_over (l : list nat) : nat := List.length (filter (fun i => negb (mem i l)) alias_ids).

Lemma left_over_cons id l : is_alias t id -> ~ In id l -> left_over (id :: l) < left_over l.
Proof.
  intros (ap & ans & G) N. apply get_in in G. apply (in_map fst) in G. cbn in G.
  unfold left_over, alias_ids. apply (nodup_In Nat.eq_dec) in G. revert G.
  induction (nodup Nat.eq_dec (map fst (things t))) as [|x r IH]; intros G; [destruct G|].
  assert (M : forall r', List.length (filter (fun i => negb (mem i (id :: l))) r') <= List.length (filter (fun i => negb (mem i l)) r')).
  { induction r' as [|y r' IHr]; [auto|]. cbn [filter]. rewrite mem_cons.
    destruct (y =? id); cbn [orb negb]; destruct (mem y l); cbn [orb negb List.length]; lia. }
  cbn [filter]. destruct G as [->|G].
  - rewrite mem_cons, Nat.eqb_refl. apply mem_false in N. rewrite N. specialize (M r). cbn [orb negb List.length]. lia.
  - specialize (IH G). rewrite mem_cons. specialize (M r).
    destruct (x =? id); cbn [orb negb]; destruct (mem x l); cbn [orb negb List.length]; lia.
Qed.

Lemma settle_ends k : forall local rest off p note, left_over local < k ->
  (forall id, item t off p id -> ~ In id forbidden -> ~ In id local \/ ~ is_alias t id) ->
  (forall i, In i forbidden -> In i local) ->
  (forall ap ans l, In (TAlias ap ans) (map snd (things t)) -> left_over l < left_over local -> rec ap ans l <> Endless) ->
  (forall ap ans l o q n, In (TAlias ap ans) (map snd (things t)) -> rec ap ans l = Ok (o, q, n) ->
     forall id, item t o q id -> ~ In id l \/ ~ is_alias t id) ->
  settle t check rec ns forbidden k local rest off p note <> Endless.
Proof.
  induction k as [|k IH]; intros local rest off p note L A SUB E R H; [lia|]. cbn [settle] in H.
  destruct (scope_vars t off p) as [id|] eqn:I; [|discriminate].
  destruct (mem id forbidden) eqn:F; [discriminate|]. apply mem_false in F.
  destruct (check_item t check id p ns note) as [note'| | |] eqn:C; try discriminate.
  2:{ now apply check_item_not_endless in C. }
  destruct (mem id (types t) && _); [discriminate|].
  destruct (get (things t) id) as [[ap ans| |]|] eqn:G; try discriminate.
  assert (AL : is_alias t id) by (exists ap, ans; exact G).
  assert (NI : ~ In id local) by (destruct (A id I F); tauto).
  assert (INT : In (TAlias ap ans) (map snd (things t))) by (apply get_in in G; apply (in_map snd) in G; exact G).
  pose proof (left_over_cons id local AL NI) as LT.
  pose proof (E ap ans (id :: local) INT LT) as NE.
  destruct (rec ap ans (id :: local)) as [[[aoff awp] anote]| | |] eqn:RE; try discriminate; [|congruence].
  assert (K : settle t check rec ns forbidden k (id :: local) rest aoff awp anote <> Endless).
  { apply IH.
    - lia.
    - intros id' I' _. exact (R _ _ _ _ _ _ INT RE id' I').
    - intros i IN. right. auto.
    - intros ap' ans' l IN LL. apply E; [assumption|lia].
    - exact R. }
  destruct rest as [|nx rest']; [contradiction|].
  destruct (scope_vars t aoff (awp ++ [nx])), (scope_vars t off (p ++ [nx])); try contradiction; try discriminate.
  destruct (known t n && known t n0); discriminate.
Qed.
End Walk.

Lemma skipn_repeat_super p : count_super p = List.length p -> p = repeat (Named "super") (List.length p).
Proof.
  induction p as [|g p IH]; intros H; [reflexivity|]. cbn in *. destruct (is_name "super" g) eqn:E; [|discriminate].
  inversion H as [H1]. rewrite H1. rewrite (IH H1) at 1. f_equal.
  destruct g; cbn in E; try discriminate. apply String.eqb_eq in E. now subst.
Qed.
Lemma count_super_le p : count_super p <= List.length p.
Proof. induction p as [|g p IH]; cbn; [lia|]. destruct (is_name "super" g); lia. Qed.
Lemma is_name_true s g : is_name s g = true <-> g = Named s.
Proof.
  destruct g; cbn; try (split; [discriminate|intros H; discriminate H]). rewrite String.eqb_eq.
  split; [intros ->; reflexivity|intros H; now inversion H].
Qed.

(** Without segments to walk the path is bare, and the result a namespace. *)
Lemma start_bare t p ns offset o q : start t p ns offset = Ok (o, q, []) ->
  bare p /\ (p <> [] -> o = current_scope t /\ (q = base t \/ exists n, q = firstn n ns)).
Proof.
  unfold start. destruct p as [|g r]; cbn [extract_prefix].
  - intros H. inversion H; subst. split; [now left|congruence].
  - destruct (is_name "lib" g) eqn:L.
    { apply is_name_true in L. subst. intros H. inversion H; subst. split; [right; now left|auto]. }
    destruct (is_name "self" g) eqn:SF.
    { apply is_name_true in SF. subst. destruct r as [|g' r]; [|intros H; inversion H].
      destruct (find_scope _ _ _); intros H; inversion H; subst.
      split; [right; right; now left|]. intros _. split; [reflexivity|]. right. exists (List.length q). now rewrite firstn_all. }
    destruct (is_name "super" g) eqn:U.
    { destruct (_ <=? _); [|discriminate]. intros H. inversion H as [[H1 H2 H3]]. split.
      - right. right. right. exists (List.length r). change (S (List.length r)) with (List.length (g :: r)).
        apply skipn_repeat_super. pose proof (count_super_le (g :: r)) as LE.
        assert (LS := skipn_length (count_super (g :: r)) (g :: r)). cbn [count_super] in *. rewrite U in *. rewrite H3 in LS.
        cbn [List.length] in *. lia.
      - intros _. split; [reflexivity|]. right. eauto. }
    destruct (find_scope _ _ _); discriminate.
Qed.

Lemma canonicalize_found fuel t check p ns forbidden offset o q n : ~ bare p ->
  canonicalize fuel t check p ns forbidden offset = Ok (o, q, n) -> found t check ns forbidden [] o q.
Proof.
  intros B H. destruct fuel as [|f]; [discriminate|]. cbn [canonicalize] in H.
  destruct (start t p ns offset) as [[[o1 p1] segs]| | |] eqn:S; try discriminate.
  destruct segs as [|g segs]; [exfalso; apply B; exact (proj1 (start_bare _ _ _ _ _ _ S))|].
  apply walk_found in H; [exact H|discriminate].
Qed.

Lemma canonicalize_alias fuel t check ap ans l offset o q n : namespaces_ok t -> In (TAlias ap ans) (map snd (things t)) ->
  canonicalize fuel t check ap ans l offset = Ok (o, q, n) -> forall id, item t o q id -> ~ In id l \/ ~ is_alias t id.
Proof.
  intros [NB NA] INT H id I. apply in_map_iff in INT as ([i x] & E & INT). cbn in E. subst x.
  destruct (NA _ _ _ INT) as [NE MO].
  destruct fuel as [|f]; [discriminate|]. cbn [canonicalize] in H.
  destruct (start t ap ans offset) as [[[o1 p1] segs]| | |] eqn:S; try discriminate.
  destruct segs as [|g segs].
  - cbn in H. inversion H; subst. right. apply start_bare in S as [_ S]. destruct (S NE) as [-> [->|(m & ->)]].
    + destruct (NB (List.length (base t))) as (id' & I' & A). rewrite firstn_all in I'. unfold item in *. congruence.
    + destruct (MO m) as (id' & I' & A). unfold item in *. congruence.
  - apply walk_found in H; [|discriminate]. destruct H as (id' & I' & F & _). unfold item in *. left. congruence.
Qed.

Theorem canonicalize_ends t check : namespaces_ok t -> forall fuel p ns forbidden offset,
  left_over t forbidden < fuel -> canonicalize fuel t check p ns forbidden offset <> Endless.
Proof.
  intros NO. induction fuel as [|f IH]; intros p ns forbidden offset L; [lia|]. cbn [canonicalize].
  destruct (start t p ns offset) as [[[o1 p1] segs]| | |] eqn:S; try discriminate.
  2:{ unfold start in S. destruct (extract_prefix p) as [[| |n|] r]; try discriminate.
      - destruct r; [destruct (find_scope _ _ _)|]; discriminate.
      - destruct (n <=? _); discriminate.
      - destruct p; [discriminate|]. destruct (find_scope _ _ _); discriminate. }
  clear S. generalize (@None nat) as note. revert o1 p1.
  induction segs as [|g segs IHs]; intros o1 p1 note; cbn [walk]; [discriminate|].
  match goal with |- match ?s with Ok _ => _ | _ => _ end <> _ => assert (K : s <> Endless); [|destruct s as [[[o2 p2] n2]| | |]; try discriminate; try contradiction; apply IHs] end.
  apply settle_ends.
  - exact L.
  - intros id _ N. now left.
  - auto.
  - intros ap ans l _ LT. apply IH. lia.
  - intros ap ans l o q n INT. apply canonicalize_alias; assumption.
Qed.

(** ** Paths without aliases *)
Lemma no_alias_cons t o p g segs : no_alias_on t o p (g :: segs) -> no_alias_on t o (p ++ [g]) segs.
Proof.
  intros H a x b id E I. subst. apply (H (g :: a) x b id); [reflexivity|]. rewrite <- app_assoc in I. exact I.
Qed.

Lemma settle_plain t check rec ns k local rest o p note :
  (forall id, item t o p id -> ~ is_alias t id) -> forall r,
  settle t check rec ns [] (S k) local rest o p note = Ok r ->
  (exists n, r = (o, p, n)) /\ exists id, item t o p id /\ (check = true -> usable t id p ns).
Proof.
  intros NA r H. cbn [settle] in H. destruct (scope_vars t o p) as [id|] eqn:I; [|discriminate]. cbn in H.
  specialize (NA id I).
  destruct (check_item t check id p ns note) as [n'| | |] eqn:C; try discriminate.
  assert (U : check = true -> usable t id p ns) by (intros ->; eapply check_item_ok; exact C).
  destruct (mem id (types t) && _).
  { inversion H; subst. eauto 6. }
  destruct (get (things t) id) as [[ap ans| |]|] eqn:G; try (inversion H; subst; eauto 6).
  exfalso. apply NA. exists ap, ans. exact G.
Qed.
Lemma settle_plain_conv t check rec ns k local rest o p note id :
  item t o p id -> ~ is_alias t id -> (check = true -> usable t id p ns) ->
  exists n, settle t check rec ns [] (S k) local rest o p note = Ok (o, p, n).
Proof.
  intros I NA U. cbn [settle]. unfold item in I. rewrite I. cbn.
  assert (C : exists n', check_item t check id p ns note = Ok n').
  { destruct check; [apply check_item_usable; auto|cbn; eauto]. }
  destruct C as (n' & ->). destruct (mem id (types t) && _); [eauto|].
  destruct (get (things t) id) as [[ap ans| |]|] eqn:G; eauto. exfalso. apply NA. exists ap, ans. exact G.
Qed.

Lemma walk_plain t check rec ns k segs : forall o p note,
  no_alias_on t o p segs -> forall r,
  walk t check rec ns [] (S k) segs o p note = Ok r ->
  (exists n, r = (o, p ++ segs, n)) /\ prefixes_ok t check ns o p segs.
Proof.
  induction segs as [|g segs IH]; intros o p note NA r H; cbn [walk] in H.
  - inversion H; subst. rewrite app_nil_r. split; [eauto|]. intros a g b E. destruct a; discriminate.
  - destruct (settle _ _ _ _ _ _ _ _ _ _ _) as [r1| | |] eqn:S; try discriminate.
    apply settle_plain in S as [(n & ->) (id & I & U)].
    2:{ intros id I. apply (NA [] g segs id eq_refl). exact I. }
    apply IH in H as [(n' & ->) P]; [|apply no_alias_cons; assumption]. rewrite <- app_assoc. split; [eauto|].
    intros a x b E. destruct a as [|y a]; inversion E; subst.
    + cbn. eauto.
    + destruct (P a x b eq_refl) as (id' & I' & U'). rewrite <- app_assoc in I', U'. cbn in *. eauto.
Qed.
Lemma walk_plain_conv t check rec ns k segs : forall o p note,
  no_alias_on t o p segs -> prefixes_ok t check ns o p segs ->
  exists n, walk t check rec ns [] (S k) segs o p note = Ok (o, p ++ segs, n).
Proof.
  induction segs as [|g segs IH]; intros o p note NA P; cbn [walk].
  - rewrite app_nil_r. eauto.
  - destruct (P [] g segs eq_refl) as (id & I & U). cbn in I, U.
    destruct (settle_plain_conv t check rec ns k [] segs o (p ++ [g]) note id I) as (n & ->); [|assumption|].
    { apply (NA [] g segs id eq_refl). exact I. }
    destruct (IH o (p ++ [g]) n) as (n' & ->).
    + now apply no_alias_cons.
    + intros a x b E. subst. destruct (P (g :: a) x b eq_refl) as (id' & I' & U').
      exists id'. rewrite <- app_assoc. cbn. auto.
    + rewrite <- app_assoc. eauto.
Qed.

(** ** Where a path starts *)
Lemma find_scope_some l : forall o p r, find_scope l o p = Some r ->
  exists k, r = o + k /\ (exists s id, nth_error l k = Some s /\ get_path (vars s) p = Some id) /\
    forall k' s id, k' < k -> nth_error l k' = Some s -> get_path (vars s) p <> Some id.
Proof.
  induction l as [|s l IH]; intros o p r H; [discriminate|]. cbn [find_scope] in H.
  destruct (get_path (vars s) p) as [id|] eqn:G.
  - inversion H; subst. exists 0. split; [lia|]. split; [exists s, id; auto|]. intros k' s' id' L. lia.
  - apply IH in H as (k & -> & (s' & id & N & G') & M). exists (S k). split; [lia|]. split; [exists s', id; auto|].
    intros k' s2 id2 L N2. destruct k' as [|k']; [cbn in N2; inversion N2; subst; congruence|].
    apply (M k' s2 id2); [lia|exact N2].
Qed.
Lemma find_scope_none l : forall o p, find_scope l o p = None -> forall k s id, nth_error l k = Some s -> get_path (vars s) p <> Some id.
Proof.
  induction l as [|s l IH]; intros o p H k s' id N; [destruct k; discriminate|]. cbn [find_scope] in H.
  destruct (get_path (vars s) p) eqn:G; [discriminate|]. destruct k as [|k]; [cbn in N; inversion N; subst; congruence|].
  eapply IH; eassumption.
Qed.
Lemma find_scope_innermost t p o : innermost t o p -> find_scope (scopes t) 0 p = Some o.
Proof.
  intros [(id & I) M]. destruct (find_scope (scopes t) 0 p) as [r|] eqn:F.
  - apply find_scope_some in F as (k & -> & (s & id' & N & G) & Q). cbn. f_equal.
    destruct (lt_eq_lt_dec k o) as [[L|E]|L]; [|assumption|].
    + exfalso. apply (M k id' L). unfold item, scope_vars. now rewrite N.
    + exfalso. unfold item, scope_vars in I. destruct (nth_error (scopes t) o) as [s'|] eqn:N'; [|discriminate].
      exact (Q o s' id L N' I).
  - exfalso. unfold item, scope_vars in I. destruct (nth_error (scopes t) o) as [s'|] eqn:N'; [|discriminate].
    eapply find_scope_none; eassumption.
Qed.
Lemma find_scope_undeclared t p : undeclared t p -> find_scope (scopes t) 0 p = None.
Proof.
  intros U. destruct (find_scope (scopes t) 0 p) as [r|] eqn:F; [|reflexivity].
  apply find_scope_some in F as (k & _ & (s & id' & N & G) & _). exfalso. apply (U k id').
  unfold item, scope_vars. now rewrite N.
Qed.
Lemma ordinary_prefix g r : ordinary g -> extract_prefix (g :: r) = (NoPrefix, g :: r).
Proof.
  intros (A & B & C). cbn [extract_prefix].
  destruct (is_name "lib" g) eqn:L; [apply is_name_true in L; contradiction|].
  destruct (is_name "self" g) eqn:S; [apply is_name_true in S; contradiction|].
  destruct (is_name "super" g) eqn:U; [apply is_name_true in U; contradiction|]. reflexivity.
Qed.
Lemma start_innermost t g r ns o : ordinary g -> innermost t o (ns ++ [g]) -> start t (g :: r) ns 0 = Ok (o, ns, g :: r).
Proof. intros O I. unfold start. rewrite ordinary_prefix by assumption. cbn [skipn]. now rewrite (find_scope_innermost _ _ _ I). Qed.
Lemma start_root t g r ns : ordinary g -> undeclared t (ns ++ [g]) -> start t (g :: r) ns 0 = Ok (current_scope t, [], g :: r).
Proof. intros O I. unfold start. rewrite ordinary_prefix by assumption. cbn [skipn]. now rewrite (find_scope_undeclared _ _ I). Qed.

(** ** No panic *)
Lemma check_item_no_panic t c id o p ns note : deep_enough t -> item t o p id -> check_item t c id p ns note <> Panic.
Proof.
  intros D I. unfold check_item. destruct c; [|discriminate].
  destruct (get (visibilities t) id) as [v|] eqn:V; [|discriminate]. specialize (D o p id v I V).
  assert (E : forall q : path, 1 <= List.length q -> exists q' x, q = q' ++ [x] /\ List.length q = S (List.length q')).
  { intros q L. destruct q as [|a q] using rev_ind; [cbn in L; lia|]. exists q, a. rewrite app_length. cbn. split; [reflexivity|lia]. }
  assert (K : visible_from t v p <> None).
  { destruct v; cbn.
    - destruct (E p) as (q & x & -> & _); [lia|]. rewrite prelude_snoc. discriminate.
    - discriminate.
    - discriminate.
    - destruct (E p) as (q & x & -> & _); [lia|]. rewrite prelude_snoc. discriminate.
    - destruct (E p) as (q & x & -> & LQ); [lia|]. rewrite prelude_snoc.
      destruct (E q) as (q2 & y & -> & _); [lia|]. rewrite prelude_snoc. discriminate.
    - destruct (E p) as (q & x & -> & LQ); [lia|]. rewrite prelude_snoc.
      destruct (E q) as (q2 & y & -> & LQ2); [lia|]. rewrite prelude_snoc.
      destruct (E q2) as (q3 & z & -> & _); [lia|]. rewrite prelude_snoc. discriminate. }
  destruct (visible_from t v p); [|congruence]. destruct (is_prefix p0 ns); discriminate.
Qed.


Lemma settle_no_panic t check rec ns forbidden : deep_enough t -> all_known t ->
  (forall ap ans l, rec ap ans l <> Panic) -> forall k local rest off p note,
  settle t check rec ns forbidden k local rest off p note <> Panic.
Proof.
  intros D KN R. induction k as [|k IH]; intros local rest off p note; [discriminate|]. cbn [settle].
  destruct (scope_vars t off p) as [id|] eqn:I; [|discriminate].
  destruct (mem id forbidden); [discriminate|].
  pose proof (check_item_no_panic t check id off p ns note D I) as C.
  destruct (check_item t check id p ns note) as [n'| | |]; try discriminate; try contradiction.
  destruct (mem id (types t) && _); [discriminate|].
  destruct (get (things t) id) as [[ap ans| |]|]; try discriminate.
  pose proof (R ap ans (id :: local)) as RR. destruct (rec ap ans (id :: local)) as [[[ao aw] an]| | |]; try discriminate; try contradiction.
  destruct rest as [|nx rest']; [apply IH|].
  destruct (scope_vars t ao (aw ++ [nx])) as [a|] eqn:EA, (scope_vars t off (p ++ [nx])) as [b|] eqn:EB; try apply IH; try discriminate.
  rewrite (KN _ _ _ EA), (KN _ _ _ EB). discriminate.
Qed.
Lemma walk_no_panic t check rec ns forbidden : deep_enough t -> all_known t ->
  (forall ap ans l, rec ap ans l <> Panic) -> forall k segs off p note,
  walk t check rec ns forbidden k segs off p note <> Panic.
Proof.
  intros D KN R k. induction segs as [|g segs IH]; intros off p note; cbn [walk]; [discriminate|].
  pose proof (settle_no_panic t check rec ns forbidden D KN R k forbidden segs off (p ++ [g]) note) as S.
  destruct (settle _ _ _ _ _ _ _ _ _ _ _) as [[[o q] n]| | |]; try discriminate; try contradiction. apply IH.
Qed.
Lemma start_no_panic t p ns offset : start t p ns offset <> Panic.
Proof.
  unfold start. destruct (extract_prefix p) as [[| |n|] r]; try discriminate.
  - destruct r; [destruct (find_scope _ _ _)|]; discriminate.
  - destruct (n <=? _); discriminate.
  - destruct p; [discriminate|]. destruct (find_scope _ _ _); discriminate.
Qed.
Lemma canonicalize_no_panic t check : deep_enough t -> all_known t -> forall fuel p ns forbidden offset,
  canonicalize fuel t check p ns forbidden offset <> Panic.
Proof.
  intros D KN. induction fuel as [|f IH]; intros p ns forbidden offset; [discriminate|]. cbn [canonicalize].
  pose proof (start_no_panic t p ns offset) as S.
  destruct (start t p ns offset) as [[[o q] segs]| | |]; try discriminate; try contradiction.
  apply walk_no_panic; try assumption. intros. apply IH.
Qed.
Theorem lookup_no_panic t : deep_enough t -> all_known t -> modules t (base t) -> forall fuel p ns check,
  p <> [] -> modules t ns -> lookup_id_in fuel t p ns check <> Panic.
Proof.
  intros D KN MB fuel p ns check NE MN. unfold lookup_id_in.
  pose proof (canonicalize_no_panic t check D KN fuel p ns [] 0) as C.
  destruct (canonicalize fuel t check p ns [] 0) as [[[o q] n]| | |] eqn:E; try discriminate; try contradiction.
  assert (K : exists id, item t o q id).
  { destruct fuel as [|f]; [discriminate|]. cbn [canonicalize] in E.
    destruct (start t p ns 0) as [[[o1 p1] segs]| | |] eqn:S; try discriminate.
    destruct segs as [|g segs].
    - cbn in E. inversion E; subst. apply start_bare in S as [_ S]. destruct (S NE) as [-> [->|(m & ->)]].
      + destruct (MB (List.length (base t))) as (id' & I' & _). rewrite firstn_all in I'. eauto.
      + destruct (MN m) as (id' & I' & _). eauto.
    - apply walk_found in E; [|discriminate]. destruct E as (id & I & _). eauto. }
  destruct K as (id & I). unfold item in I. rewrite I.
  destruct (get (things t) id); [|discriminate]. destruct (forallb _ _); discriminate.
Qed.

(** ** Work in inner scopes leaves no trace *)
Record same (t u : symtab) : Prop := {
  sm_scopes : scopes t = scopes u;
  sm_namespace : namespace t = namespace u;
  sm_base : base t = base u;
  sm_types : forall o p id, item t o p id -> mem id (types t) = mem id (types u);
  sm_things : forall o p id, item t o p id -> get (things t) id = get (things u) id;
  sm_vis : forall o p id, item t o p id -> get (visibilities t) id = get (visibilities u) id;
  sm_notes : forall o p id, item t o p id -> get (notes t) id = get (notes u) id }.

Section Same.
Variables t u : symtab.
Hypothesis S : same t u.
Lemma same_vars o p : scope_vars u o p = scope_vars t o p.
Proof. unfold scope_vars. now rewrite (sm_scopes _ _ S). Qed.
Lemma same_start p ns off : start u p ns off = start t p ns off.
Proof.
  unfold start, current_scope. rewrite (sm_scopes _ _ S), (sm_base _ _ S), (sm_namespace _ _ S). reflexivity.
Qed.
Lemma same_settle check rec rec' ns forbidden : (forall ap ans l, rec' ap ans l = rec ap ans l) -> forall k local rest off p note,
  settle u check rec' ns forbidden k local rest off p note = settle t check rec ns forbidden k local rest off p note.
Proof.
  intros R. induction k as [|k IH]; intros local rest off p note; [reflexivity|]. cbn [settle]. rewrite same_vars.
  destruct (scope_vars t off p) as [id|] eqn:I; [|reflexivity]. destruct (mem id forbidden); [reflexivity|].
  assert (C : check_item u check id p ns note = check_item t check id p ns note).
  { unfold check_item. rewrite (sm_vis _ _ S _ _ _ I), (sm_notes _ _ S _ _ _ I). destruct check; [|reflexivity].
    destruct (get (visibilities u) id) as [v|]; [|reflexivity].
    replace (visible_from u v p) with (visible_from t v p); [reflexivity|]. unfold visible_from. now rewrite (sm_base _ _ S). }
  rewrite C. destruct (check_item t check id p ns note); try reflexivity.
  rewrite (sm_types _ _ S _ _ _ I), (sm_things _ _ S _ _ _ I).
  destruct (mem id (types u) && _); [reflexivity|]. destruct (get (things u) id) as [[ap ans| |]|]; try reflexivity.
  rewrite R. destruct (rec ap ans (id :: local)) as [[[ao aw] an]| | |]; try reflexivity.
  destruct rest as [|nx rest']; [apply IH|]. rewrite !same_vars.
  destruct (scope_vars t ao (aw ++ [nx])) as [x|] eqn:EX, (scope_vars t off (p ++ [nx])) as [y|] eqn:EY; try apply IH; try reflexivity.
  unfold known. now rewrite (sm_types _ _ S _ _ _ EX), (sm_things _ _ S _ _ _ EX), (sm_types _ _ S _ _ _ EY), (sm_things _ _ S _ _ _ EY).
Qed.
Lemma same_walk check rec rec' ns forbidden : (forall ap ans l, rec' ap ans l = rec ap ans l) -> forall k segs off p note,
  walk u check rec' ns forbidden k segs off p note = walk t check rec ns forbidden k segs off p note.
Proof.
  intros R k. induction segs as [|g segs IH]; intros off p note; [reflexivity|]. cbn [walk].
  rewrite (same_settle check rec rec' ns forbidden R). destruct (settle t _ _ _ _ _ _ _ _ _ _) as [[[o q] n]| | |]; auto.
Qed.
Lemma same_canonicalize check : forall fuel p ns forbidden off,
  canonicalize fuel u check p ns forbidden off = canonicalize fuel t check p ns forbidden off.
Proof.
  induction fuel as [|f IH]; intros p ns forbidden off; [reflexivity|]. cbn [canonicalize]. rewrite same_start.
  destruct (start t p ns off) as [[[o q] segs]| | |]; try reflexivity. apply same_walk. intros. apply IH.
Qed.
Lemma same_lookup fuel p ns check : lookup_id_in fuel u p ns check = lookup_id_in fuel t p ns check.
Proof.
  unfold lookup_id_in. rewrite same_canonicalize. destruct (canonicalize fuel t check p ns [] 0) as [[[o q] n]| | |]; try reflexivity.
  rewrite same_vars. destruct (scope_vars t o q) as [id|] eqn:I; [|reflexivity].
  rewrite (sm_things _ _ S _ _ _ I), (sm_scopes _ _ S). reflexivity.
Qed.
End Same.

(** [t'] has the outer scopes of [t] below [n] scopes of its own, and agrees on all
    numbers handed out before. *)
Record extends (t : symtab) (n : nat) (t' : symtab) : Prop := {
  ex_scopes : exists own, List.length own = n /\ scopes t' = own ++ scopes t;
  ex_next : next_id t <= next_id t';
  ex_types : forall id, id < next_id t -> mem id (types t') = mem id (types t);
  ex_things : forall id, id < next_id t -> get (things t') id = get (things t) id;
  ex_vis : forall id, id < next_id t -> get (visibilities t') id = get (visibilities t) id;
  ex_notes : forall id, id < next_id t -> get (notes t') id = get (notes t) id }.

Lemma get_cons_ne {A} (l : list (nat * A)) i j x : i <> j -> get ((i, x) :: l) j = get l j.
Proof. intros N. unfold get. cbn. destruct (Nat.eqb_spec i j); [contradiction|reflexivity]. Qed.
Lemma get_opt_cons {A} (o : option A) (l : list (nat * A)) i j : i <> j -> get (opt_cons (option_map (pair i) o) l) j = get l j.
Proof. intros N. destruct o; cbn; [now apply get_cons_ne|reflexivity]. Qed.
Lemma mem_cons_ne i j l : i <> j -> mem j (i :: l) = mem j l.
Proof. intros N. unfold mem. cbn. destruct (Nat.eqb_spec j i); [congruence|reflexivity]. Qed.
Lemma put_at_app own l off p id : off < List.length own -> put_at (own ++ l) off p id = put_at own off p id ++ l.
Proof.
  revert off. induction own as [|s own IH]; intros off L; [cbn in L; lia|]. destruct off as [|off]; [reflexivity|].
  cbn in *. f_equal. apply IH. lia.
Qed.
Lemma put_at_length l off p id : List.length (put_at l off p id) = List.length l.
Proof. revert off. induction l as [|s l IH]; intros [|off]; cbn; auto. Qed.

Lemma work_extends n u n' t' : work n u n' t' -> forall t, extends t n u -> extends t n' t'.
Proof.
  induction 1 as [n u|n u b n' t' W IH|n u n' t' W IH|n u off name x v note n' t' L W IH|n u name v note n' t' L W IH|n u ns b n' t' W IH];
    intros t E; [exact E|apply IH; clear IH..].
  - destruct E as [(own & LO & SC) EN ET EH EV EO]. constructor; cbn; try assumption.
    exists ({| vars := []; barrier := b |} :: own). cbn. rewrite SC. split; [now rewrite LO|reflexivity].
  - destruct E as [(own & LO & SC) EN ET EH EV EO]. constructor; cbn; try assumption.
    destruct own as [|s own]; [discriminate|]. exists own. rewrite SC. cbn in *. split; [lia|reflexivity].
  - destruct E as [(own & LO & SC) EN ET EH EV EO]. constructor; cbn.
    + exists (put_at own off (namespace u ++ name) (next_id u)). rewrite put_at_length. split; [assumption|].
      rewrite SC. apply put_at_app. lia.
    + lia.
    + assumption.
    + intros id I. rewrite get_cons_ne by lia. auto.
    + intros id I. rewrite get_opt_cons by lia. auto.
    + intros id I. rewrite get_opt_cons by lia. auto.
  - destruct E as [(own & LO & SC) EN ET EH EV EO]. constructor; cbn.
    + exists (put_at own 0 (namespace u ++ name) (next_id u)). rewrite put_at_length. split; [assumption|].
      rewrite SC. apply put_at_app. lia.
    + lia.
    + intros id I. fold (mem id (types u)). change (mem id (next_id u :: types u) = mem id (types t)). rewrite mem_cons_ne by lia. auto.
    + assumption.
    + intros id I. rewrite get_opt_cons by lia. auto.
    + intros id I. rewrite get_opt_cons by lia. auto.
  - destruct E as [(own & LO & SC) EN ET EH EV EO]. constructor; cbn; try assumption. eauto.
Qed.
Theorem work_same t t' : ids_ok t -> work 0 t 0 t' -> namespace t' = namespace t -> base t' = base t -> same t t'.
Proof.
  intros [ID _] W N B. assert (E : extends t 0 t).
  { constructor; auto. exists []. auto. }
  apply (work_extends _ _ _ _ W) in E. destruct E as [(own & LO & SC) EN ET EH EV EO].
  destruct own; [|discriminate]. cbn in SC.
  constructor; auto; intros o p id I; symmetry; eauto.
Qed.

(** ** Items are declared once *)
Lemma get_path_cons_ne l p q i : p <> q -> get_path ((p, i) :: l) q = get_path l q.
Proof.
  intros N. unfold get_path. cbn. destruct (path_eqb p q) eqn:E; [apply path_eqb_true in E; contradiction|reflexivity].
Qed.
Lemma get_path_cons l p i : get_path ((p, i) :: l) p = Some i.
Proof. unfold get_path. cbn. assert (E : path_eqb p p = true) by now apply path_eqb_true. now rewrite E. Qed.

Lemma put0_item t p q i id : one_scope t -> scope_vars t 0 p = Some id -> p <> q ->
  match nth_error (put_at (scopes t) 0 q i) 0 with Some s => get_path (vars s) p | None => None end = Some id.
Proof.
  unfold one_scope, scope_vars. destruct (scopes t) as [|s [|s' l]]; cbn; try discriminate. intros _ H N.
  rewrite get_path_cons_ne by congruence. exact H.
Qed.
Lemma declares_keeps t t' : declares t t' -> one_scope t -> all_known t -> (forall o p id, item t o p id -> id < next_id t) ->
  forall p id, item t 0 p id -> item t' 0 p id.
Proof.
  induction 1 as [t|t name x v note id1 t1 t2 A D IH|t name v note id1 t1 t2 A D IH|t ns b t2 D IH]; intros ONE KN BE p id I.
  - exact I.
  - unfold add_unique_thing in A. destruct (is_unique t name) eqn:U; [|discriminate].
    unfold add_thing_at in A. inversion A; subst. clear A.
    assert (NP : forall q i, item t 0 q i -> q <> namespace t ++ name).
    { intros q i Q ->. unfold is_unique, current_scope in U. rewrite ONE in U. cbn in U. unfold item in Q. rewrite Q in U.
      rewrite (KN 0 _ _ Q) in U. discriminate. }
    apply IH.
    + unfold one_scope. cbn. rewrite put_at_length. exact ONE.
    + intros o q i Q. unfold item, scope_vars in Q. cbn in Q. unfold one_scope in ONE. unfold known. cbn.
      destruct (scopes t) as [|s [|s' l]] eqn:SC; try discriminate. cbn in Q. destruct o as [|o]; [|destruct o; discriminate].
      cbn in Q. destruct (path_eqb (namespace t ++ name) q) eqn:E.
      * apply path_eqb_true in E. subst. rewrite get_path_cons in Q. inversion Q; subst. unfold get. cbn. now rewrite Nat.eqb_refl.
      * rewrite get_path_cons_ne in Q by (intros X; apply path_eqb_true in X; congruence).
        assert (I0 : item t 0 q i) by (unfold item, scope_vars; rewrite SC; exact Q).
        pose proof (BE _ _ _ I0). rewrite get_cons_ne by lia. exact (KN _ _ _ I0).
    + intros o q i Q. unfold item, scope_vars in Q. cbn in Q |- *. unfold one_scope in ONE.
      destruct (scopes t) as [|s [|s' l]] eqn:SC; try discriminate. cbn in Q. destruct o as [|o]; [|destruct o; discriminate].
      cbn in Q. destruct (path_eqb (namespace t ++ name) q) eqn:E.
      * apply path_eqb_true in E. subst. rewrite get_path_cons in Q. inversion Q; subst. lia.
      * rewrite get_path_cons_ne in Q by (intros X; apply path_eqb_true in X; congruence).
        assert (I0 : item t 0 q i) by (unfold item, scope_vars; rewrite SC; exact Q). pose proof (BE _ _ _ I0). lia.
    + unfold item, scope_vars. cbn [scopes]. apply put0_item; [assumption|exact I|eapply NP; exact I].
  - unfold add_unique_type in A. destruct (is_unique t name) eqn:U; [|discriminate].
    unfold add_type in A. inversion A; subst. clear A.
    assert (NP : forall q i, item t 0 q i -> q <> namespace t ++ name).
    { intros q i Q ->. unfold is_unique, current_scope in U. rewrite ONE in U. cbn in U. unfold item in Q. rewrite Q in U.
      rewrite (KN 0 _ _ Q) in U. discriminate. }
    apply IH.
    + unfold one_scope. cbn. rewrite put_at_length. exact ONE.
    + intros o q i Q. unfold item, scope_vars in Q. cbn in Q. unfold one_scope in ONE. unfold known. cbn [things types].
      destruct (scopes t) as [|s [|s' l]] eqn:SC; try discriminate. cbn in Q. destruct o as [|o]; [|destruct o; discriminate].
      cbn in Q. destruct (path_eqb (namespace t ++ name) q) eqn:E.
      * apply path_eqb_true in E. subst. rewrite get_path_cons in Q. inversion Q; subst.
        destruct (get (things t) (next_id t)); [reflexivity|]. apply mem_in. now left.
      * rewrite get_path_cons_ne in Q by (intros X; apply path_eqb_true in X; congruence).
        assert (I0 : item t 0 q i) by (unfold item, scope_vars; rewrite SC; exact Q).
        pose proof (BE _ _ _ I0). pose proof (KN _ _ _ I0) as K. unfold known in K.
        destruct (get (things t) i); [reflexivity|]. apply mem_in. right. now apply mem_in.
    + intros o q i Q. unfold item, scope_vars in Q. cbn in Q |- *. unfold one_scope in ONE.
      destruct (scopes t) as [|s [|s' l]] eqn:SC; try discriminate. cbn in Q. destruct o as [|o]; [|destruct o; discriminate].
      cbn in Q. destruct (path_eqb (namespace t ++ name) q) eqn:E.
      * apply path_eqb_true in E. subst. rewrite get_path_cons in Q. inversion Q; subst. lia.
      * rewrite get_path_cons_ne in Q by (intros X; apply path_eqb_true in X; congruence).
        assert (I0 : item t 0 q i) by (unfold item, scope_vars; rewrite SC; exact Q). pose proof (BE _ _ _ I0). lia.
    + unfold item, scope_vars. cbn [scopes]. apply put0_item; [assumption|exact I|eapply NP; exact I].
  - apply IH; try assumption.
Qed.

(** ** The note of the item found is returned *)
Lemma settle_note t rec ns forbidden k : forall local rest off p note o q n,
  settle t true rec ns forbidden k local rest off p note = Ok (o, q, n) ->
  forall id w, item t o q id -> get (notes t) id = Some w -> n = Some w.
Proof.
  induction k as [|k IH]; intros local rest off p note o q n H id w I W; [discriminate|]. cbn [settle] in H.
  destruct (scope_vars t off p) as [id'|] eqn:I'; [|discriminate]. destruct (mem id' forbidden); [discriminate|].
  destruct (check_item t true id' p ns note) as [note'| | |] eqn:C; try discriminate.
  assert (K : id' = id -> note' = Some w).
  { intros ->. unfold check_item in C. rewrite W in C. destruct (get (visibilities t) id); [|congruence].
    destruct (visible_from t v p); [|discriminate]. destruct (is_prefix p0 ns); congruence. }
  assert (F : Ok (off, p, note') = Ok (o, q, n) -> n = Some w).
  { intros E. inversion E; subst. apply K. unfold item in I. congruence. }
  destruct (mem id' (types t) && _); [auto|]. destruct (get (things t) id') as [[ap ans| |]|]; auto.
  destruct (rec ap ans (id' :: local)) as [[[ao aw] an]| | |]; try discriminate.
  destruct rest as [|nx rest']; [eapply IH; eassumption|].
  destruct (scope_vars t ao (aw ++ [nx])), (scope_vars t off (p ++ [nx])); auto; try (eapply IH; eassumption).
  destruct (known t n0 && known t n1); discriminate.
Qed.
Lemma walk_note t rec ns forbidden k : forall segs off p note o q n, segs <> [] ->
  walk t true rec ns forbidden k segs off p note = Ok (o, q, n) ->
  forall id w, item t o q id -> get (notes t) id = Some w -> n = Some w.
Proof.
  induction segs as [|g segs IH]; intros off p note o q n N H id w I W; [congruence|]. cbn [walk] in H.
  destruct (settle _ _ _ _ _ _ _ _ _ _ _) as [[[o1 p1] n1]| | |] eqn:S; try discriminate.
  destruct segs as [|g' segs].
  - cbn in H. inversion H; subst. eapply settle_note; eassumption.
  - refine (IH _ _ _ _ _ _ _ H _ _ I W). discriminate.
Qed.

(** ** Where the walk begins *)
Lemma count_super_repeat n r : ~ (exists r', r = Named "super" :: r') -> count_super (repeat (Named "super") n ++ r) = n.
Proof.
  intros N. induction n as [|n IH]; cbn.
  - destruct r as [|g r]; [reflexivity|]. cbn. destruct (is_name "super" g) eqn:E; [|reflexivity].
    apply is_name_true in E. subst. exfalso. eauto.
  - now rewrite IH.
Qed.
Lemma begins_start t ns p o q segs : begins t ns p o q segs -> start t p ns 0 = Ok (o, q, segs).
Proof.
  intros H. destruct H as [g r o O I|g r O U|r|g r|m k n r E L NS].
  - now apply start_innermost.
  - now apply start_root.
  - reflexivity.
  - reflexivity.
  - unfold start. change (repeat (Named "super") (S n) ++ r) with (Named "super" :: (repeat (Named "super") n ++ r)) at 1.
    cbn [extract_prefix is_name]. change (String.eqb "super" "lib") with false. change (String.eqb "super" "self") with false.
    change (String.eqb "super" "super") with true. cbv iota.
    change (Named "super" :: (repeat (Named "super") n ++ r)) with (repeat (Named "super") (S n) ++ r).
    rewrite count_super_repeat by assumption. subst ns. rewrite app_length, L.
    destruct (Nat.leb_spec (S n) (List.length m + S n)); [|lia].
    replace (List.length m + S n - S n) with (List.length m) by lia.
    rewrite firstn_app, firstn_all, Nat.sub_diag. cbn [firstn]. rewrite app_nil_r.
    rewrite <- (repeat_length (Named "super") (S n)) at 1. rewrite skipn_app, skipn_all, Nat.sub_diag. reflexivity.
Qed.
Lemma accepts_forallb t o id : (forall k s b, k < o -> nth_error (scopes t) k = Some s -> barrier s = Some b -> b id = true) <->
  forallb (fun s => match barrier s with Some b => b id | None => true end) (firstn o (scopes t)) = true.
Proof.
  rewrite forallb_forall. split.
  - intros H s I. apply In_nth_error in I as (k & N).
    assert (L : k < o).
    { assert (L : k < List.length (firstn o (scopes t))) by (apply nth_error_Some; congruence).
      pose proof (firstn_le_length o (scopes t)). rewrite firstn_length in L. lia. }
    destruct (barrier s) as [b|] eqn:B; [|reflexivity]. apply (H k s b L); [|exact B].
    rewrite <- N. clear - L. revert k L. generalize (scopes t) as l. induction o as [|o IH]; intros l k L; [lia|].
    destruct l as [|x l]; [destruct k; reflexivity|]. destruct k as [|k]; [reflexivity|]. cbn. apply IH. lia.
  - intros H k s b L N B. assert (I : In s (firstn o (scopes t))).
    { apply nth_error_In with (n := k). rewrite <- N. clear - L. revert k L. generalize (scopes t) as l.
      induction o as [|o IH]; intros l k L; [lia|].
      destruct l as [|x l]; [destruct k; reflexivity|]. destruct k as [|k]; [reflexivity|]. cbn. apply IH. lia. }
    specialize (H s I). now rewrite B in H.
Qed.

(** ** Fewer forbidden names do not spoil a lookup that succeeds *)
Lemma settle_forbid t check rec rec' ns forbidden forbidden' :
  (forall i, In i forbidden' -> In i forbidden) ->
  (forall ap ans l l' r, (forall i, In i l' -> In i l) -> rec ap ans l = Ok r -> rec' ap ans l' = Ok r) ->
  forall k local local' rest off p note r, (forall i, In i local' -> In i local) ->
  settle t check rec ns forbidden k local rest off p note = Ok r ->
  settle t check rec' ns forbidden' k local' rest off p note = Ok r.
Proof.
  intros F R. induction k as [|k IH]; intros local local' rest off p note r L H; [discriminate|]. cbn [settle] in *.
  destruct (scope_vars t off p) as [id|]; [|discriminate].
  destruct (mem id forbidden) eqn:M; [discriminate|].
  assert (M' : mem id forbidden' = false) by (apply mem_false; apply mem_false in M; auto). rewrite M'.
  destruct (check_item t check id p ns note); try discriminate.
  destruct (mem id (types t) && _); [exact H|]. destruct (get (things t) id) as [[ap ans| |]|]; try exact H.
  assert (L1 : forall i, In i (id :: local') -> In i (id :: local)) by (intros i [->|I]; [now left|right; auto]).
  destruct (rec ap ans (id :: local)) as [[[ao aw] an]| | |] eqn:E; try discriminate.
  rewrite (R _ _ _ _ _ L1 E). destruct rest as [|nx rest']; [eapply IH; eassumption|].
  destruct (scope_vars t ao (aw ++ [nx])), (scope_vars t off (p ++ [nx])); try exact H; eapply IH; eassumption.
Qed.
Lemma walk_forbid t check rec rec' ns forbidden forbidden' :
  (forall i, In i forbidden' -> In i forbidden) ->
  (forall ap ans l l' r, (forall i, In i l' -> In i l) -> rec ap ans l = Ok r -> rec' ap ans l' = Ok r) ->
  forall k segs off p note r,
  walk t check rec ns forbidden k segs off p note = Ok r -> walk t check rec' ns forbidden' k segs off p note = Ok r.
Proof.
  intros F R k. induction segs as [|g segs IH]; intros off p note r H; [exact H|]. cbn [walk] in *.
  destruct (settle t check rec ns forbidden k forbidden segs off (p ++ [g]) note) as [[[o q] n]| | |] eqn:S; try discriminate.
  rewrite (settle_forbid t check rec rec' ns forbidden forbidden' F R _ _ forbidden' _ _ _ _ _ F S). auto.
Qed.
Lemma canonicalize_forbid t check : forall fuel p ns forbidden forbidden' off r, (forall i, In i forbidden' -> In i forbidden) ->
  canonicalize fuel t check p ns forbidden off = Ok r -> canonicalize fuel t check p ns forbidden' off = Ok r.
Proof.
  induction fuel as [|f IH]; intros p ns forbidden forbidden' off r F H; [discriminate|]. cbn [canonicalize] in *.
  destruct (start t p ns off) as [[[o q] segs]| | |]; try discriminate.
  refine (walk_forbid _ _ _ _ _ _ _ F _ _ _ _ _ _ _ H). intros ap ans l l' r' L. now apply IH.
Qed.

(** More fuel does not change an answer. *)
Lemma settle_more t check rec rec' ns forbidden :
  (forall ap ans l, rec ap ans l <> Endless -> rec' ap ans l = rec ap ans l) ->
  forall k k' local rest off p note, k <= k' ->
  settle t check rec ns forbidden k local rest off p note <> Endless ->
  settle t check rec' ns forbidden k' local rest off p note = settle t check rec ns forbidden k local rest off p note.
Proof.
  intros R. induction k as [|k IH]; intros k' local rest off p note L H; [contradiction (H eq_refl)|].
  destruct k' as [|k']; [lia|]. cbn [settle] in *.
  destruct (scope_vars t off p) as [id|]; [|reflexivity]. destruct (mem id forbidden); [reflexivity|].
  destruct (check_item t check id p ns note); try reflexivity.
  destruct (mem id (types t) && _); [reflexivity|]. destruct (get (things t) id) as [[ap ans| |]|]; try reflexivity.
  assert (NE : rec ap ans (id :: local) <> Endless) by (intros E; rewrite E in H; contradiction (H eq_refl)).
  rewrite (R _ _ _ NE). destruct (rec ap ans (id :: local)) as [[[ao aw] an]| | |]; try reflexivity.
  destruct rest as [|nx rest']; [apply IH; [lia|assumption]|].
  destruct (scope_vars t ao (aw ++ [nx])), (scope_vars t off (p ++ [nx])); try reflexivity; (apply IH; [lia|assumption]).
Qed.
Lemma walk_more t check rec rec' ns forbidden :
  (forall ap ans l, rec ap ans l <> Endless -> rec' ap ans l = rec ap ans l) ->
  forall k k' segs off p note, k <= k' ->
  walk t check rec ns forbidden k segs off p note <> Endless ->
  walk t check rec' ns forbidden k' segs off p note = walk t check rec ns forbidden k segs off p note.
Proof.
  intros R k k' segs. induction segs as [|g segs IH]; intros off p note L H; [reflexivity|]. cbn [walk] in *.
  assert (NE : settle t check rec ns forbidden k forbidden segs off (p ++ [g]) note <> Endless)
    by (intros E; rewrite E in H; contradiction (H eq_refl)).
  rewrite (settle_more t check rec rec' ns forbidden R k k' _ _ _ _ _ L NE).
  destruct (settle t check rec ns forbidden k forbidden segs off (p ++ [g]) note) as [[[o q] n]| | |]; auto.
Qed.
Lemma canonicalize_more t check : forall fuel fuel' p ns forbidden off, fuel <= fuel' ->
  canonicalize fuel t check p ns forbidden off <> Endless ->
  canonicalize fuel' t check p ns forbidden off = canonicalize fuel t check p ns forbidden off.
Proof.
  induction fuel as [|f IH]; intros fuel' p ns forbidden off L H; [contradiction (H eq_refl)|].
  destruct fuel' as [|f']; [lia|]. cbn [canonicalize] in *.
  destruct (start t p ns off) as [[[o q] segs]| | |]; try reflexivity.
  apply walk_more; [|assumption|exact H]. intros ap ans l NE. apply IH; [lia|exact NE].
Qed.
Lemma lookup_more t fuel fuel' p ns check : fuel <= fuel' -> lookup_id_in fuel t p ns check <> Endless ->
  lookup_id_in fuel' t p ns check = lookup_id_in fuel t p ns check.
Proof.
  intros L H. unfold lookup_id_in in *. rewrite (canonicalize_more t check fuel fuel'); [reflexivity|assumption|].
  intros E. rewrite E in H. contradiction (H eq_refl).
Qed.
