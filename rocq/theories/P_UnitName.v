(** C56: every module has a name of its own, and instances name the right module. *)
From Coq Require Import String List Arith ZArith Bool Ascii Lia Sorting.
From Verif Require Import MirModel MonoModel MonoSpec MonoOrder P_Mono UnitNameModel UnitNameSpec UnitNameProofs.
Import ListNotations.
Local Open Scope list_scope.

Lemma sorted_nodup ks : StronglySorted key_lt ks -> NoDup ks.
Proof.
  induction 1 as [|k ks H IH F]; constructor; auto. intros I. rewrite Forall_forall in F. exact (key_lt_irrefl k (F k I)).
Qed.

(** For every program and every schedule of the compiler's threads: one module for each
    instance that is needed; each has a name Verilog allows, no two the same; and what a
    module instantiates is, one by one, the modules of the instances its unit asks for,
    or extern ones, which no module of the program hides.  Missing: see the theorems
    below about names the author chose. *)
Theorem C56_modules_partial : forall units all_units work first s, well_named units all_units work first ->
  run (compiled units all_units work) first s -> finished s ->
  exists ms : list (mkey * module_),
    results s = map snd ms /\ NoDup (map fst ms) /\ (forall k, In k (map fst ms) <-> needed (compiled units all_units work) k)
    /\ (forall k m, In (k, m) ms -> exists x, spells (fst m) x)
    /\ (forall k m k' m' x, In (k, m) ms -> In (k', m') ms -> spells (fst m) x -> spells (fst m') x -> k = k' /\ m = m')
    /\ (forall k m, In (k, m) ms -> Forall2 (refers units ms) (calls (work k)) (snd m)).
Proof.
  intros units all_units work first s W Rn Fi. set (p := compiled units all_units work) in *.
  assert (Lt : forall n, In n (pr_roots p) -> n < first).
  { intros n I. cbn in I. apply filter_In in I as [_ I]. unfold is_root in I. destruct (units n) as [u|] eqn:U; [|discriminate]. apply (wn_known _ _ _ _ W _ _ U). }
  destruct (results_named _ p first s Rn Fi Lt) as (ks & name & got & SO & NE & RE & INJ & REC & ROOT & FRESH).
  set (f := fun k => (k, module_of units work k (name k) (got k))).
  assert (FST : map fst (map f ks) = ks) by (rewrite map_map; apply map_id).
  assert (IN : forall k m, In (k, m) (map f ks) <-> In k ks /\ m = module_of units work k (name k) (got k)).
  { intros k m. rewrite in_map_iff. split; [intros (k0 & E & I); inversion E; subst; auto|intros [I ->]; exists k; auto]. }
  exists (map f ks). rewrite FST. split; [|split; [exact (sorted_nodup ks SO)|split; [exact NE|split; [|split]]]].
  - rewrite RE. clear. unfold outputs. induction ks as [|k ks IH]; [reflexivity|]. cbn [map concat]. rewrite IH. reflexivity.
  - intros k m I. apply IN in I as [I ->]. apply NE in I. destruct (needed_kind units all_units work k I) as (u & U & _).
    destruct (known_ok units all_units work first W _ _ U) as (n & N & O). exists (spelt (renamed n (name k))). rewrite (name_text units work name k (got k) u n U N).
    apply spells_spelt; [apply renamed_ok; exact O|reflexivity].
  - intros k m k' m' x I I' S1 S2. apply IN in I as [I ->]. apply IN in I' as [I' ->]. apply NE in I, I'.
    assert (k = k') by (eapply (distinct_keys units all_units work first W name INJ); eauto). subst. auto.
  - intros k m I. apply IN in I as [I ->]. apply NE in I. cbn [snd module_of].
    assert (K : forall q, In (Some q) (work k) -> exists u, units (fst q) = Some u) by (intros q J; destruct (wn_calls _ _ _ _ W _ _ J) as (u & U & _); eauto).
    pose proof (received_calls units all_units work first W name (work k) (got k) (REC k I) K) as F.
    assert (CALL : forall q, In q (calls (work k)) -> In (Some q) (work k)).
    { intros q J. unfold calls in J. apply in_flat_map in J as ([o|] & J1 & J2); [|destruct J2]. destruct J2 as [->|[]]. exact J1. }
    revert F CALL. generalize (calls (work k)) (instance_names units (work k) (got k)). intros cs ts F CALL.
    induction F as [|q t cs ts (u & n & U & N & T) F IH]; constructor; [|apply IH; intros; apply CALL; cbn; auto].
    pose proof (CALL q (or_introl eq_refl)) as CQ. destruct (wn_calls _ _ _ _ W _ _ CQ) as (u' & U' & NIL). assert (u' = u) by congruence. subst u'.
    exists u. split; [exact U|]. destruct (u_extern u) eqn:EX.
    + rewrite andb_false_r in T. split; [exists n; auto|]. intros k' m x J S1. apply IN in J as [J ->]. apply NE in J. subst t.
      eapply (extern_no units all_units work first W name ROOT q k' (got k') u n x); eauto. apply (wn_known _ _ _ _ W _ _ U).
    + assert (NQ : needed p q).
      { destruct (u_generic u) eqn:G.
        - eapply NeededBy; [exact I|]. cbn. apply in_flat_map. exists (Some q). split; [exact CQ|]. cbn. unfold instantiated. rewrite U, G, EX. cbn. auto.
        - destruct q as [a l]. cbn in *. rewrite (NIL eq_refl). apply NeededRoot. exact (needed_root units all_units work first W a u U G EX). }
      exists (module_of units work q (name q) (got q)). split; [apply IN; split; [apply NE; exact NQ|reflexivity]|]. rewrite (name_text units work name q (got q) u n U N).
      cbn in T. destruct (u_generic u) eqn:G; [exact T|]. cbn in T. rewrite T. f_equal. f_equal. destruct q as [a l]. cbn in *. rewrite (NIL eq_refl).
      rewrite (ROOT a (needed_root units all_units work first W a u U G EX)).
      unfold name_of in N. destruct (u_branch u); [inversion N; reflexivity|]. destruct (u_no_mangle u); [destruct (_ && _); [discriminate|]; inversion N; reflexivity|]. rewrite G in N. inversion N. reflexivity.
Qed.
Print Assumptions C56_modules_partial.

(** ** Names the author chose are not looked at *)
Definition plain (p : path) (s : string) : unit_ := {| u_path := p; u_ident := s; u_generic := false; u_no_mangle := true; u_extern := false; u_branch := false |}.
Definition mangled (p : path) (s : string) : unit_ := {| u_path := p; u_ident := s; u_generic := false; u_no_mangle := false; u_extern := false; u_branch := false |}.
Definition two (a b : unit_) (n : nat) : option unit_ := match n with 0 => Some a | 1 => Some b | _ => None end.
(** one schedule: the first job moves, else the main loop *)
Fixpoint greedy (fuel : nat) (p : program module_) (s : state module_) : option (state module_) :=
  match fuel with
  | 0 => None
  | S fuel =>
      match st_main s, st_jobs s with
      | Stopped, [] => Some s
      | _, _ => match move_job p s 0 with
                | Some s => greedy fuel p s
                | None => match move_main p s with Some s => greedy fuel p s | None => None end
                end
      end
  end.
Lemma greedy_run p first : forall fuel s s', run p first s -> greedy fuel p s = Some s' -> run p first s'.
Proof.
  induction fuel as [|fuel IH]; intros s s' R H; [discriminate|]. cbn [greedy] in H.
  assert (X : match move_job p s 0 with
                | Some s => greedy fuel p s
                | None => match move_main p s with Some s => greedy fuel p s | None => None end
                end = Some s' -> run p first s').
  { destruct (move_job p s 0) as [s1|] eqn:J.
    - apply IH. eapply RunStep; [exact R|]. apply (move_step p s (Some 0) s1). exact J.
    - destruct (move_main p s) as [s1|] eqn:M; [|discriminate]. apply IH. eapply RunStep; [exact R|]. apply (move_step p s None s1). exact M. }
  destruct (st_main s); auto. destruct (st_jobs s); auto. congruence.
Qed.
Definition ended (p : program module_) (first : nat) : state module_ := match greedy 100 p (initial p first) with Some s => s | None => initial p first end.
Lemma ended_run p first : run p first (ended p first).
Proof. unfold ended. destruct (greedy 100 p (initial p first)) as [s|] eqn:G; [|constructor]. exact (greedy_run p first 100 _ _ (RunInitial _ _) G). Qed.
Notation both a b := (compiled (two a b) [0; 1] (fun _ => [])).

(** `#[no_mangle] fn go` in two modules `a` and `b`: both become the module `go`. *)
Theorem C56_plain_refuted : exists units all_units work first s,
  run (compiled units all_units work) first s /\ finished s
  /\ (forall id u, units id = Some u -> name_of id u <> None) /\ (forall a b u v, units a = Some u -> units b = Some v -> u_path u = u_path v -> a = b)
  /\ results s = [("go"%string, []); ("go"%string, [])].
Proof.
  set (a := plain [Named "a"; Named "go"] "go"). set (b := plain [Named "b"; Named "go"] "go").
  exists (two a b), [0; 1], (fun _ => []), 5, (ended (both a b) 5). split; [apply ended_run|]. split; [repeat split; vm_compute; reflexivity|]. split; [|split].
  - intros [|[|id]] u H; inversion H; subst; discriminate.
  - intros [|[|i]] [|[|j]] u v A B H; inversion A; inversion B; subst; auto; discriminate.
  - vm_compute. reflexivity.
Qed.
Print Assumptions C56_plain_refuted.

(** `#[no_mangle] fn go` in a module and `fn go` outside of all: one is `go`, the other
    the same identifier with a backslash. *)
Theorem C56_outer_refuted : exists units all_units work first s x y,
  run (compiled units all_units work) first s /\ finished s
  /\ (forall id u, units id = Some u -> name_of id u <> None) /\ (forall a b u v, units a = Some u -> units b = Some v -> u_path u = u_path v -> a = b)
  /\ results s = [(x, []); (y, [])] /\ spells x "go" /\ spells y "go".
Proof.
  set (a := plain [Named "a"; Named "go"] "go"). set (b := mangled [Named "go"] "go").
  exists (two a b), [0; 1], (fun _ => []), 5, (ended (both a b) 5), "go"%string, "\go "%string. split; [apply ended_run|]. split; [repeat split; vm_compute; reflexivity|]. split; [|split; [|split; [|split]]].
  - intros [|[|id]] u H; inversion H; subst; discriminate.
  - intros [|[|i]] [|[|j]] u v A B H; inversion A; inversion B; subst; auto; discriminate.
  - vm_compute. reflexivity.
  - cbn. apply Spells_simple. split; [reflexivity|]. cbn. intros c [<-|[<-|[]]]; reflexivity.
  - apply (Spells_escaped "go"); [discriminate|]. cbn. intros c [<-|[<-|[]]]; vm_compute; lia.
Qed.
Print Assumptions C56_outer_refuted.

(** A function named with a letter outside of ASCII, such as the one with code 233: the
    text is no identifier of Verilog. *)
Theorem C56_unicode_refuted : exists s, forall id, let u := mangled [Named s] s in
  exists n, name_of id u = Some n /\ forall x, ~ spells (as_verilog (as_mir n)) x.
Proof.
  exists (String (ascii_of_nat 195) (String (ascii_of_nat 169) EmptyString)). intros id. cbn zeta. eexists. split; [reflexivity|]. intros x H.
  remember (as_verilog _) as t eqn:T. apply (f_equal list_ascii_of_string) in T. match type of T with _ = ?r => let r' := eval vm_compute in r in change r with r' in T end. destruct H as [t [A B]|t A B].
  - rewrite T in B. specialize (B "\"%char (or_introl eq_refl)). discriminate B.
  - destruct t as [|c t]; [congruence|]. change (list_ascii_of_string ("\" ++ String c t ++ " ")) with ("\"%char :: c :: list_ascii_of_string (t ++ " ")) in T.
    inversion T as [[C1 C2]]. specialize (B c (or_introl eq_refl)). rewrite C1 in B. vm_compute in B. lia.
Qed.
Print Assumptions C56_unicode_refuted.

(** In `lib a`: `#[no_mangle] entity top`, generic `f` with a branch for a type-level if
    on either side (5 and 6), `g` in an impl block, `extern` entity `e`. *)
Definition ex_unit (n : nat) : option unit_ :=
  match n with
  | 0 => Some (plain [Named "a"; Named "top"] "top")
  | 1 => Some {| u_path := [Named "a"; Named "f"]; u_ident := "f"; u_generic := true; u_no_mangle := false; u_extern := false; u_branch := false |}
  | 2 => Some (mangled [Named "a"; Impl 3; Named "g"] "g")
  | 3 => Some {| u_path := [Named "a"; Named "e"]; u_ident := "e"; u_generic := false; u_no_mangle := true; u_extern := true; u_branch := false |}
  | 5 | 6 => Some {| u_path := [Named "a"; Named "f"; IfT]; u_ident := "f"; u_generic := true; u_no_mangle := false; u_extern := false; u_branch := true |}
  | _ => None
  end.
Definition bool_arg : ktvs := KCons (Known (KBool true) KNil) KNil.
Definition int_arg : ktvs := KCons (Known (KInteger 8%Z) KNil) KNil.
Definition ex_work (k : mkey) : list (option mkey) :=
  match k with
  | (0, KNil) => [Some (1, bool_arg); None; Some (1, int_arg); Some (2, KNil); Some (3, KNil)]
  | (1, l) => if key_eqb k (1, bool_arg) then [Some (5, l)] else [Some (6, l); Some (2, KNil)]
  | _ => []
  end.
Local Open Scope string_scope.
Notation ex_prog := (compiled ex_unit [0; 1; 2; 3; 5; 6] ex_work).
Lemma ex_cases (P : nat -> unit_ -> Prop) : (forall n, In n [0; 1; 2; 3; 5; 6] -> match ex_unit n with Some u => P n u | None => True end) -> forall n u, ex_unit n = Some u -> P n u.
Proof.
  intros H n u E. assert (I : In n [0; 1; 2; 3; 5; 6]) by (destruct n as [|[|[|[|[|[|[|n]]]]]]]; try discriminate; cbn; tauto). specialize (H n I). rewrite E in H. exact H.
Qed.
Lemma ident_check s : (match s with EmptyString => false | String c _ => negb ((48 <=? nat_of_ascii c)%nat && (nat_of_ascii c <=? 57)%nat) end && forallb ident_char (list_ascii_of_string s))%bool = true -> ident s.
Proof.
  intros H. apply andb_true_iff in H as [A B]. split; [destruct s; [discriminate|]; cbn; apply negb_true_iff; exact A|]. rewrite forallb_forall in B. exact B.
Qed.
Example C56_nontrivial : well_named ex_unit [0; 1; 2; 3; 5; 6] ex_work 7
  /\ run ex_prog 7 (ended ex_prog 7) /\ finished (ended ex_prog 7)
  /\ results (ended ex_prog 7) =
     [("top", ["\a::f[7] "; "\a::f[9] "; "\a::impl#3::g "; "e"]); ("\a::f[9] ", ["\a::f::if#true[11] "; "\a::impl#3::g "]);
      ("\a::f[7] ", ["\a::f::if#true[10] "]); ("\a::impl#3::g ", []); ("\a::f::if#true[10] ", []); ("\a::f::if#true[11] ", [])].
Proof.
  split; [|split; [apply ended_run|split; [repeat split; vm_compute; reflexivity|vm_compute; reflexivity]]]. split.
  - apply (ex_cases (fun id _ => In id [0; 1; 2; 3; 5; 6] /\ id < 7)). cbn. intros n I. destruct (ex_unit n); auto. split; [tauto|lia].
  - apply (ex_cases (fun id u => name_of id u <> None)). cbn. intros n I. repeat (destruct I as [<-|I]; [discriminate|]). destruct I.
  - apply (ex_cases (fun id u => u_path u <> [] /\ ident (u_ident u) /\ forall s, In (Named s) (u_path u) -> ident s)). cbn. intros n I.
    repeat (destruct I as [<-|I]; [split; [discriminate|]; split; [apply ident_check; vm_compute; reflexivity|]; intros s J; cbn in J;
      repeat (destruct J as [J|J]; [inversion J; apply ident_check; vm_compute; reflexivity|]); destruct J|]). destruct I.
  - intros a b u v A B P BU BV. destruct a as [|[|[|[|[|[|[|a]]]]]]]; try discriminate A; inversion A; subst u; clear A; try discriminate BU;
      destruct b as [|[|[|[|[|[|[|b]]]]]]]; try discriminate B; inversion B; subst v; clear B; solve [reflexivity|discriminate].
  - intros a b u v A B M BU H. destruct a as [|[|[|[|[|[|[|a]]]]]]]; try discriminate A; inversion A; subst u; clear A; try discriminate M;
      destruct b as [|[|[|[|[|[|[|b]]]]]]]; try discriminate B; inversion B; subst v; clear B; destruct H as [(M1 & M2 & M3)|M1]; solve [reflexivity|discriminate].
  - intros [[|[|k]] l] q I; cbn in I.
    + destruct l; [|destruct I]. cbn in I. repeat (destruct I as [I|I]; [first [discriminate I|injection I as <-; eexists; split; [reflexivity|cbn; intros; solve [reflexivity|discriminate]]]|]). destruct I.
    + destruct (key_eqb _ _); cbn in I; repeat (destruct I as [I|I]; [first [discriminate I|injection I as <-; eexists; split; [reflexivity|cbn; intros; solve [reflexivity|discriminate]]]|]); destruct I.
    + destruct I.
Qed.
