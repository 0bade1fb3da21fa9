(** C47: what a name means. *)
From Coq Require Import String List Bool Arith Lia.
From Verif Require Import SymModel SymSpec SymProofs.
Import ListNotations.
Local Open Scope list_scope.

Lemma lookup_inv fuel t p ns check id n : lookup_id_in fuel t p ns check = Ok (id, n) ->
  exists o q, canonicalize fuel t check p ns [] 0 = Ok (o, q, n) /\ item t o q id /\ let_through t o id.
Proof.
  unfold lookup_id_in. destruct (canonicalize fuel t check p ns [] 0) as [[[o q] n']| | |]; try discriminate.
  destruct (scope_vars t o q) as [id'|] eqn:I; [|discriminate].
  destruct (get (things t) id') eqn:G.
  - destruct (forallb _ _) eqn:F; [|discriminate]. intros H. inversion H; subst. exists o, q. repeat split; try assumption.
    right. now apply accepts_forallb.
  - intros H. inversion H; subst. exists o, q. repeat split; try assumption. now left.
Qed.
Lemma lookup_intro fuel t p ns check id n o q : canonicalize fuel t check p ns [] 0 = Ok (o, q, n) -> item t o q id -> let_through t o id ->
  lookup_id_in fuel t p ns check = Ok (id, n).
Proof.
  intros C I L. unfold lookup_id_in. rewrite C. unfold item in I. rewrite I. destruct (get (things t) id) eqn:G; [|reflexivity].
  destruct L as [L|L]; [congruence|]. apply accepts_forallb in L. now rewrite L.
Qed.

(** A lookup ends, whatever the aliases: with more turns than there are items the
    answer is there, and more turns do not change it. *)
Theorem C47_terminates : forall t, namespaces_ok t -> forall p ns check,
  exists r, r <> Endless /\ forall fuel, aliases t < fuel -> lookup_id_in fuel t p ns check = r.
Proof.
  intros t NO p ns check. set (f := S (aliases t)).
  assert (E : lookup_id_in f t p ns check <> Endless).
  { assert (C : canonicalize f t check p ns [] 0 <> Endless).
    { apply canonicalize_ends; [assumption|]. unfold f, aliases, left_over, alias_ids.
      assert (A : forall (h : nat -> bool) l, List.length (filter h l) <= List.length l).
      { intros h l. induction l as [|x l IH]; [auto|]. cbn. destruct (h x); cbn; lia. }
      pose proof (A (fun i => negb (mem i [])) (nodup Nat.eq_dec (map fst (things t)))).
      assert (B : List.length (nodup Nat.eq_dec (map fst (things t))) <= List.length (map fst (things t))).
      { apply NoDup_incl_length; [apply NoDup_nodup|]. intros x. apply nodup_In. }
      rewrite map_length in B. lia. }
    unfold lookup_id_in. destruct (canonicalize f t check p ns [] 0) as [[[o q] n]| | |]; try discriminate; try contradiction.
    destruct (scope_vars t o q); [|discriminate]. destruct (get (things t) n0); [|discriminate].
    destruct (forallb _ _); discriminate. }
  exists (lookup_id_in f t p ns check). split; [assumption|].
  intros fuel L. apply lookup_more; [unfold f; lia|assumption].
Qed.

(** What a checked lookup finds may be used from the place of the name, and is no
    alias, except where a type is its own alias. *)
Theorem C47_visible : forall t fuel p ns id n, ~ bare p -> lookup_id_in fuel t p ns true = Ok (id, n) ->
  (exists o q, item t o q id /\ usable t id q ns) /\ (In id (types t) \/ ~ is_alias t id).
Proof.
  intros t fuel p ns id n B H. apply lookup_inv in H as (o & q & C & I & _).
  apply canonicalize_found in C; [|assumption]. destruct C as (id' & I' & _ & U & A).
  assert (E : id' = id) by (unfold item in *; congruence). subst. split; [eauto|auto].
Qed.

(** A path on which there is no alias: it means the item one gets by going down from
    where it starts, and is accepted if and only if every step exists and may be used
    and no scope in between keeps the item out. *)
Theorem C47_direct : forall t f check p ns o q segs id, begins t ns p o q segs -> no_alias_on t o q segs ->
  ((exists n, lookup_id_in (S f) t p ns check = Ok (id, n)) <->
   prefixes_ok t check ns o q segs /\ item t o (q ++ segs) id /\ let_through t o id).
Proof.
  intros t f check p ns o q segs id B NA. apply begins_start in B. split.
  - intros (n & H). apply lookup_inv in H as (o' & q' & C & I & L). cbn [canonicalize] in C. rewrite B in C.
    apply walk_plain in C as [(n' & E) P]; [|assumption]. inversion E; subst. auto.
  - intros (P & I & L).
    destruct (walk_plain_conv t check (fun ap ans local => canonicalize f t check ap ans local 0) ns f segs o q None NA P) as (n & W).
    exists n. eapply lookup_intro; [|exact I|exact L]. cbn [canonicalize]. rewrite B. exact W.
Qed.

(** A single name means its innermost declaration; declarations further out do not
    matter. *)
Theorem C47_innermost : forall t f check x ns o id, ordinary x -> innermost t o (ns ++ [x]) -> item t o (ns ++ [x]) id ->
  ~ is_alias t id -> (check = true -> usable t id (ns ++ [x]) ns) ->
  (let_through t o id -> exists n, lookup_id_in (S f) t [x] ns check = Ok (id, n)) /\
  (forall id' n, lookup_id_in (S f) t [x] ns check = Ok (id', n) -> id' = id /\ let_through t o id).
Proof.
  intros t f check x ns o id O IM I NA U.
  assert (B : begins t ns [x] o ns [x]) by (constructor; assumption).
  assert (N : no_alias_on t o ns [x]).
  { intros a g b id' E I'. destruct a as [|y [|z a]]; inversion E; subst. cbn in I'. unfold item in *. congruence. }
  split.
  - intros L. apply (proj2 (C47_direct t f check [x] ns o ns [x] id B N)). split; [|auto].
    intros a g b E. destruct a as [|y [|z a]]; inversion E; subst. cbn. eauto.
  - intros id' n H. assert (H' : exists n, lookup_id_in (S f) t [x] ns check = Ok (id', n)) by eauto.
    apply (proj1 (C47_direct t f check [x] ns o ns [x] id' B N)) in H' as (_ & I' & L).
    assert (E : id' = id) by (unfold item in *; congruence). subst. auto.
Qed.

(** A name that stands for another path means what that path means where the alias
    was written, and both may be used from the place of the name. *)
Theorem C47_use : forall t f x ns o a ap ans id n, namespaces_ok t -> ordinary x ->
  innermost t o (ns ++ [x]) -> item t o (ns ++ [x]) a -> get (things t) a = Some (TAlias ap ans) -> ~ In a (types t) ->
  lookup_id_in (S f) t [x] ns true = Ok (id, n) ->
  usable t a (ns ++ [x]) ns /\ (exists n', lookup_id_in f t ap ans true = Ok (id, n')) /\
  exists o' q, item t o' q id /\ usable t id q ns.
Proof.
  intros t f x ns o a ap ans id n NO O IM I G NT H.
  apply lookup_inv in H as (o' & q & C & I' & L). cbn [canonicalize] in C.
  rewrite (start_innermost t x [] ns o O IM) in C. cbn [walk] in C.
  destruct (settle _ _ _ _ _ _ _ _ _ _ _) as [[[o1 p1] n1]| | |] eqn:S; try discriminate. inversion C; subst. clear C.
  cbn [settle] in S. unfold item in I. rewrite I in S. cbn [mem existsb] in S.
  destruct (check_item t true a (ns ++ [x]) ns None) as [note| | |] eqn:CK; try discriminate.
  apply mem_false in NT. rewrite NT in S. cbn [andb] in S. rewrite G in S.
  destruct (canonicalize f t true ap ans [a] 0) as [[[ao aw] an]| | |] eqn:R; try discriminate.
  split; [eapply check_item_ok; exact CK|].
  assert (ST : found t true ns [] [] o' q) by (eapply settle_found; exact S).
  assert (AW : exists id2, item t ao aw id2 /\ (In id2 (types t) \/ ~ is_alias t id2)).
  { assert (INT : In (TAlias ap ans) (map snd (things t))) by (apply get_in in G; apply (in_map snd) in G; exact G).
    destruct f as [|f']; [discriminate|]. cbn [canonicalize] in R.
    destruct (start t ap ans 0) as [[[o2 p2] segs]| | |] eqn:S2; try discriminate. destruct segs as [|g segs].
    - cbn in R. inversion R; subst. destruct NO as [NB NA]. apply in_map_iff in INT as ([i y] & E & INT). cbn in E. subst y.
      destruct (NA _ _ _ INT) as [NE MO]. apply start_bare in S2 as [_ S2]. destruct (S2 NE) as [-> [->|(m & ->)]].
      + destruct (NB (List.length (base t))) as (id2 & I2 & A2). rewrite firstn_all in I2. eauto.
      + destruct (MO m) as (id2 & I2 & A2). eauto.
    - apply walk_found in R; [|discriminate]. destruct R as (id2 & I2 & _ & _ & A2). exists id2. auto. }
  destruct AW as (id2 & I2 & A2).
  assert (E : ao = o' /\ aw = q).
  { clear - S I2 A2. destruct f as [|k]; [discriminate|]. cbn [settle] in S. unfold item in I2. rewrite I2 in S. cbn [mem existsb] in S.
    destruct (check_item t true id2 aw ns an) as [n'| | |]; try discriminate.
    destruct A2 as [A2|A2].
    - apply mem_in in A2. rewrite A2 in S. cbn [andb] in S. now inversion S.
    - destruct (mem id2 (types t) && true); [now inversion S|].
      destruct (get (things t) id2) as [[ap' ans'| |]|] eqn:G2; try (now inversion S).
      exfalso. apply A2. exists ap', ans'. exact G2. }
  destruct E as [-> ->]. split.
  - exists an. eapply lookup_intro; [|exact I'|exact L].
    apply (canonicalize_forbid t true f ap ans [a] [] 0); [intros i []|exact R].
  - destruct ST as (id3 & I3 & _ & U & _). assert (E : id3 = id) by (unfold item in *; congruence). subst. eauto.
Qed.

(** What is found went through all scopes in between. *)
Theorem C47_barriers : forall t fuel p ns check id n, lookup_id_in fuel t p ns check = Ok (id, n) ->
  exists o q, item t o q id /\ let_through t o id.
Proof. intros t fuel p ns check id n H. apply lookup_inv in H as (o & q & _ & I & L). eauto. Qed.

(** A lookup for a kind of item gives an item of that kind, and refuses one that is not
    a name for such an item. *)
Theorem C47_kind : forall t turns fuel want p ns check id,
  (lookup_kind turns fuel t want p ns check = Ok id ->
   exists o q k, item t o q id /\ let_through t o id /\ get (things t) id = Some (TOther k) /\ want k = true) /\
  (forall n k, lookup_id_in fuel t p ns check = Ok (id, n) -> get (things t) id = Some (TOther k) ->
   (want k = true <-> lookup_kind (S turns) fuel t want p ns check = Ok id) /\
   (want k = false <-> lookup_kind (S turns) fuel t want p ns check = Err WrongKind)).
Proof.
  intros t turns fuel want p ns check id. split.
  - revert p ns. induction turns as [|turns IH]; intros p ns H; [discriminate|]. cbn [lookup_kind] in H.
    destruct (lookup_id_in fuel t p ns check) as [[i n]| | |] eqn:L; try discriminate.
    destruct (get (things t) i) as [[ap ans| |k]|] eqn:G; try discriminate; [eauto|].
    destruct (want k) eqn:W; [|discriminate]. inversion H; subst.
    apply C47_barriers in L as (o & q & I & LT). exists o, q, k. auto.
  - intros n k L G. cbn [lookup_kind]. rewrite L, G. destruct (want k); split; split; intros; auto; discriminate.
Qed.

(** After any work in scopes opened and closed again every name means what it meant
    before. *)
Theorem C47_scopes : forall t t', ids_ok t -> work 0 t 0 t' -> namespace t' = namespace t -> base t' = base t ->
  forall fuel p check, lookup_id fuel t' p check = lookup_id fuel t p check.
Proof.
  intros t t' ID W N B fuel p check. unfold lookup_id. rewrite N. apply same_lookup. now apply work_same.
Qed.

(** Declaring an item never takes a name that is taken, so no item is lost. *)
Theorem C47_unique :
  (forall t t', declares t t' -> one_scope t -> all_known t -> ids_ok t -> forall p id, item t 0 p id -> item t' 0 p id) /\
  (forall t name x v note id, item t (current_scope t) (namespace t ++ name) id -> known t id = true ->
     add_unique_thing t name x v note = None /\ add_unique_type t name v note = None).
Proof.
  split.
  - intros t t' D O K [B _] p id I. eapply declares_keeps; eassumption.
  - intros t name x v note id I K. unfold add_unique_thing, add_unique_type, is_unique.
    unfold item in I. rewrite I, K. auto.
Qed.

(** A lookup does not panic. *)
Theorem C47_no_panic : forall t, deep_enough t -> all_known t -> modules t (base t) ->
  forall fuel p ns check, p <> [] -> modules t ns -> lookup_id_in fuel t p ns check <> Panic.
Proof. exact lookup_no_panic. Qed.

(** The use of a deprecated item is reported. *)
Theorem C47_deprecated : forall t fuel p ns id n w, ~ bare p -> lookup_id_in fuel t p ns true = Ok (id, n) ->
  get (notes t) id = Some w -> n = Some w.
Proof.
  intros t fuel p ns id n w B H W. apply lookup_inv in H as (o & q & C & I & _).
  destruct fuel as [|f]; [discriminate|]. cbn [canonicalize] in C.
  destruct (start t p ns 0) as [[[o1 p1] segs]| | |] eqn:S; try discriminate.
  destruct segs as [|g segs]; [exfalso; apply B; exact (proj1 (start_bare _ _ _ _ _ _ S))|].
  refine (walk_note _ _ _ _ _ _ _ _ _ _ _ _ _ C _ _ I W). discriminate.
Qed.

Print Assumptions C47_kind.
Print Assumptions C47_terminates.
Print Assumptions C47_visible.
Print Assumptions C47_direct.
Print Assumptions C47_innermost.
Print Assumptions C47_use.
Print Assumptions C47_barriers.
Print Assumptions C47_scopes.
Print Assumptions C47_unique.
Print Assumptions C47_no_panic.
Print Assumptions C47_deprecated.

(** ** Where it goes wrong *)
Definition declare (t : symtab) (ns b : path) (name : string) (x : thing) (v : option visibility) (note : option nat) : symtab :=
  match add_unique_thing (with_namespace t ns b) [Named name] x v note with Some (_, t) => t | None => t end.
Definition a : segment := Named "a".
Definition b : segment := Named "b".

(** `pub(lib)` is relative to the library of the user, not to that of the item: a
    `pub(lib)` item of library [a] can be used from library [b]. *)
Definition two_libraries : symtab :=
  let t := declare empty_table [] [] "a" (TOther 0) (Some Public) None in
  let t := declare t [] [] "b" (TOther 0) (Some Public) None in
  let t := declare t [a] [a] "x" (TOther 1) (Some AtLib) None in
  with_namespace t [b] [b].
Theorem C47_pub_lib_refuted : exists t id n lib x, item t 0 (lib ++ [x]) id /\ get (visibilities t) id = Some AtLib /\
  ~ inside lib (namespace t) /\ lookup_id 5 t (lib ++ [x]) true = Ok (id, n).
Proof.
  exists two_libraries, 3, None, [a], (Named "x"). repeat split; try (vm_compute; reflexivity).
  intros (r & H). discriminate H.
Qed.

(** A deprecated `use` gives no warning. *)
Definition old_alias : symtab :=
  let t := declare empty_table [] [] "a" (TOther 0) (Some Public) None in
  let t := declare t [a] [a] "x" (TOther 1) (Some Public) None in
  declare t [a] [a] "old" (TAlias [Named "x"] [a]) (Some Public) (Some 7).
Theorem C47_deprecated_use_refuted : exists t p id alias, item t 0 (namespace t ++ p) alias /\ get (notes t) alias = Some 7 /\
  lookup_id 5 t p true = Ok (id, None).
Proof. exists old_alias, [Named "old"], 2, 3. repeat split; vm_compute; reflexivity. Qed.

(** `pub(super)` on an item of the root makes every use of it panic. *)
Definition top_super : symtab := declare empty_table [] [] "x" (TOther 1) (Some AtSuper) None.
Theorem C47_super_at_root_refuted : exists t p, lookup_id 5 t p true = Panic.
Proof. exists top_super, [Named "x"]. vm_compute. reflexivity. Qed.

(** `type A = A;` used as a trait: the lookup follows the alias for ever. *)
Definition type_a : symtab :=
  let t := declare empty_table [] [] "a" (TOther 0) (Some Public) None in
  let '(id, t) := add_type (with_namespace t [a] [a]) [Named "A"] (Some Implicit) None in
  add_thing_with_id t id (TAlias [Named "A"] [a]) (Some Implicit) None.
Theorem C47_trait_alias_refuted : exists t p, forall turns fuel, lookup_kind turns (S fuel) t (fun k => k =? 1) p (namespace t) true = Endless.
Proof.
  exists type_a, [Named "A"]. induction turns as [|turns IH]; intros fuel; [reflexivity|]. exact (IH fuel).
Qed.

(** Looking whether a name is there panics if it is there but may not be used. *)
Definition hidden : symtab :=
  let t := declare empty_table [] [] "a" (TOther 0) (Some Public) None in
  let t := declare t [a] [a] "b" (TOther 0) (Some Public) None in
  let t := declare t [a; b] [a] "x" (TOther 1) (Some Implicit) None in
  let t := declare t [a] [a] "y" (TAlias [Named "b"; Named "x"] [a]) (Some Implicit) None in
  with_namespace t [a] [a].
Theorem C47_try_refuted : exists t p, try_lookup_id 5 t p true = Panic.
Proof. exists hidden, [Named "y"]. vm_compute. reflexivity. Qed.

(** ** A table *)
(** Library [a] with a module [b]; [b] has a private [x], a public [y] that is
    deprecated and a `pub(super)` [z]; [a] has `use b::y as u;` and
    `use lib::b as c;`, and a unit [f] in whose body there are two variables [v],
    the inner one behind a barrier that keeps number 9 out. *)
Definition outer_table : symtab := Eval vm_compute in
  let t := declare empty_table [] [] "a" (TOther 0) (Some Public) None in
  let t := declare t [a] [a] "b" (TOther 0) (Some Public) None in
  let t := declare t [a; b] [a] "x" (TOther 1) (Some Implicit) None in
  let t := declare t [a; b] [a] "y" (TOther 1) (Some Public) (Some 7) in
  let t := declare t [a; b] [a] "z" (TOther 1) (Some AtSuper) None in
  let t := declare t [a] [a] "u" (TAlias [b; Named "y"] [a]) (Some Implicit) None in
  let t := declare t [a] [a] "c" (TAlias [Named "lib"; b] [a]) (Some Public) None in
  let t := declare t [a] [a] "f" (TOther 2) (Some Public) None in
  with_namespace t [a] [a].
Definition table : symtab := Eval vm_compute in
  let t := new_scope outer_table None in
  let t := snd (add_thing_at t 0 [Named "v"] TVariable None None) in
  let t := snd (add_thing_at t 0 [Named "w"] TVariable None None) in
  let t := new_scope t (Some (fun id => negb (id =? 10))) in
  snd (add_thing_at t 0 [Named "v"] TVariable None None).

Definition all_vars (t : symtab) : list (path * nat) := flat_map vars (scopes t).
Lemma item_in t o p id : item t o p id -> In (p, id) (all_vars t).
Proof.
  unfold item, scope_vars, all_vars. destruct (nth_error (scopes t) o) as [s|] eqn:N; [|discriminate]. intros H.
  apply in_flat_map. exists s. split; [eapply nth_error_In; exact N|]. unfold get_path in H.
  destruct (find _ (vars s)) as [[q i]|] eqn:F; [|discriminate]. apply find_some in F as [I E]. cbn in *.
  apply path_eqb_true in E. inversion H; subst. exact I.
Qed.
Lemma item_all t (f : path -> nat -> bool) : forallb (fun e => f (fst e) (snd e)) (all_vars t) = true ->
  forall o p id, item t o p id -> f p id = true.
Proof. intros F o p id I. apply item_in in I. rewrite forallb_forall in F. exact (F _ I). Qed.
Lemma modules_intro t q : Forall (fun n => module t (firstn n q)) (seq 0 (S (List.length q))) -> modules t q.
Proof.
  intros F n. rewrite Forall_forall in F. destruct (le_lt_dec n (List.length q)) as [L|L].
  - apply F. apply in_seq. lia.
  - rewrite firstn_all2 by lia. rewrite <- (firstn_all q). apply F. apply in_seq. lia.
Qed.
Lemma module_intro t q id : item t (current_scope t) q id -> match get (things t) id with Some (TAlias _ _) => False | _ => True end -> module t q.
Proof. intros I G. exists id. split; [assumption|]. intros (ap & ans & E). now rewrite E in G. Qed.

Lemma table_a : modules table [a].
Proof.
  apply modules_intro. cbn [List.length seq]. repeat constructor; eapply module_intro; vm_compute; try reflexivity; exact I.
Qed.
Lemma table_namespaces : namespaces_ok table.
Proof.
  split; [exact table_a|]. intros id ap ans H.
  assert (F : Forall (fun e => match snd e with TAlias ap ans => ap <> [] /\ ans = [a] | _ => True end) (things table)).
  { vm_compute. repeat constructor; discriminate. }
  rewrite Forall_forall in F. specialize (F _ H). cbn in F. destruct F as [N ->]. split; [assumption|exact table_a].
Qed.
Definition deep_b (t : symtab) (p : path) (id : nat) : bool :=
  match get (visibilities t) id with
  | Some (Implicit | AtSelf) => 1 <=? List.length p
  | Some AtSuper => 2 <=? List.length p
  | Some AtSuperSuper => 3 <=? List.length p
  | _ => true
  end.
Lemma table_deep : deep_enough table.
Proof.
  assert (F : forallb (fun e => deep_b table (fst e) (snd e)) (all_vars table) = true) by (vm_compute; reflexivity).
  intros o p id v I V. pose proof (item_all table (deep_b table) F o p id I) as D. unfold deep_b in D. rewrite V in D.
  destruct v; try exact Logic.I; now apply Nat.leb_le.
Qed.
Lemma table_known : all_known table.
Proof.
  assert (F : forallb (fun e => known table (snd e)) (all_vars table) = true) by (vm_compute; reflexivity).
  exact (item_all table (fun _ => known table) F).
Qed.
Lemma table_ids : ids_ok table.
Proof.
  assert (F : forallb (fun e => snd e <? next_id table) (all_vars table) = true) by (vm_compute; reflexivity).
  split; [|discriminate]. intros o p id I. apply Nat.ltb_lt. exact (item_all table (fun _ id => id <? next_id table) F o p id I).
Qed.
Definition after_work : symtab := 
  close_scope (snd (add_type (snd (add_thing_at (new_scope table None) 0 [Named "v"] TVariable None None)) [Named "w"] None None)).
Definition declared : symtab := declare outer_table [a; b] [a] "new" (TOther 1) (Some Public) None.

Example C47_nontrivial :
  (* the hypotheses about the table *)
  (namespaces_ok table /\ deep_enough table /\ all_known table /\ ids_ok table /\ modules table (base table)) /\
  (* a visible item, a private one, and one for the parent *)
  lookup_id 20 table [b; Named "y"] true = Ok (4, Some 7) /\
  lookup_id 20 table [b; Named "x"] true = Err NotVisible /\
  lookup_id_in 20 table [Named "x"] [a; b] true = Ok (3, None) /\
  lookup_id 20 table [Named "lib"; b; Named "z"] true = Ok (5, None) /\
  lookup_id_in 20 table [Named "super"; b; Named "x"] [a; b] true = Ok (3, None) /\
  (* aliases, of an item and of a module *)
  lookup_id 20 table [Named "u"] true = Ok (4, Some 7) /\
  lookup_id 20 table [Named "c"; Named "z"] true = Ok (5, None) /\
  (* the inner variable, and one behind a barrier *)
  lookup_id 20 table [Named "v"] true = Ok (11, None) /\
  lookup_id 20 table [Named "w"] true = Err BarrierError /\
  (* the hypotheses of the other theorems *)
  (begins table [a] [Named "lib"; b; Named "y"] 2 [a] [b; Named "y"] /\ no_alias_on table 2 [a] [b; Named "y"]) /\
  (ordinary (Named "v") /\ innermost table 0 ([a] ++ [Named "v"]) /\ item table 1 ([a] ++ [Named "v"]) 9) /\
  (innermost table 2 ([a] ++ [Named "u"]) /\ get (things table) 6 = Some (TAlias [b; Named "y"] [a]) /\ ~ In 6 (types table)) /\
  (work 0 table 0 after_work /\ next_id table < next_id after_work) /\
  (declares outer_table declared /\ one_scope outer_table /\ item declared 0 [a; b; Named "new"] 9) /\
  ~ bare [b; Named "y"].
Proof.
  assert (INN : forall o p, match find_scope (scopes table) 0 p with Some o' => o' = o | None => False end -> innermost table o p).
  { intros o p H. destruct (find_scope (scopes table) 0 p) as [o'|] eqn:F; [|destruct H]. subst.
    apply find_scope_some in F as (k & -> & (s & id & N & G) & Q). split.
    - exists id. unfold item, scope_vars. change (0 + k) with k. now rewrite N.
    - intros o' id' L I'. unfold item, scope_vars in I'. destruct (nth_error (scopes table) o') as [s'|] eqn:N'; [|discriminate].
      exact (Q o' s' id' L N' I'). }
  unfold ordinary. repeat match goal with |- _ /\ _ => split end; try (vm_compute; reflexivity).
  - exact table_namespaces.
  - exact table_deep.
  - exact table_known.
  - exact table_ids.
  - exact table_a.
  - change [a] with (base table) at 2. change 2 with (current_scope table). apply begins_lib.
  - intros pre g post id E I (ap & ans & G). destruct pre as [|y [|y' [|z pre]]]; inversion E; subst; vm_compute in I; inversion I; subst; vm_compute in G; discriminate.
  - discriminate.
  - discriminate.
  - discriminate.
  - apply INN. vm_compute. reflexivity.
  - apply INN. vm_compute. reflexivity.
  - vm_compute. intros [].
  - unfold after_work. apply work_open with (b := None). eapply (work_thing 1 _ 0); [lia|]. eapply (work_type 1); [lia|].
    apply work_close. apply work_done.
  - apply Nat.ltb_lt. vm_compute. reflexivity.
  - eapply declares_namespace with (ns := [a; b]) (b := [a]).
    eapply declares_thing with (name := [Named "new"]) (x := TOther 1) (v := Some Public) (note := None); [|apply declares_none]. reflexivity.
  - intros [H|[H|[H|(n & H)]]]; try discriminate.
Qed.
