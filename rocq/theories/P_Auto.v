(** C62: what the compiler takes to be [Copy] or [Data] is.  Model: [AutoModel];
    specification: [AutoSpec]. *)
From Coq Require Import List Arith ZArith Bool.
From Verif Require Import InferModel InferSpec TypingModel DeclModel DeclSpec DeclProofs AutoModel AutoSpec AutoProofs.
Import ListNotations.

(** A type that is found to implement [Data] has no inverted part, however deep, no memory,
    [inout], clock or tristate; one that is found to implement [Copy] has no inverted part,
    memory or [inout]. *)
Theorem C62_sound : forall fuel g tr t, passes fuel g -> kinded g t ->
  implements (all_impls fuel g []) tr t = true -> pure g tr t.
Proof. intros fuel g tr t P K H. eapply ok_pure; [exact P|]. eapply implements_ok; eauto. apply P. Qed.
Print Assumptions C62_sound.

(** Everything that is data can be copied. *)
Theorem C62_data_copy : forall fuel g t, NoDup (map fst g) ->
  implements (all_impls fuel g []) Data t = true -> implements (all_impls fuel g []) Copy t = true.
Proof. intros. now apply data_copy. Qed.
Print Assumptions C62_data_copy.

(** A type implements the trait if nothing barred is among its parts and arguments, and
    none of the types asked about is a wide tuple or a view.  Aliases are left out: their
    arguments are gone from the type. *)
Theorem C62_complete : forall fuel g tr t, NoDup (map fst g) -> well_scoped g -> (forall d s, ~ has_kind g d (BAlias s)) ->
  (forall d t, lookup_type g d = Some t -> decl_wit fuel tr g d <> Stuck) -> kinded g t ->
  (forall u, touches g t u -> ~ barred g tr u) -> (forall u, surface g t u -> ~ unsupported u) ->
  implements (all_impls fuel g []) tr t = true.
Proof. intros fuel g tr t ND W NA E K T S. apply complete; auto. Qed.
Print Assumptions C62_complete.

(** An error about an enum names one that may carry something that is not data, whatever
    its arguments are. *)
Theorem C62_reported : forall fuel g d w, (forall d s, ~ has_kind g d (BAlias s)) -> well_scoped g -> NoDup (map fst g) ->
  In (d, Found w) (enum_errors fuel g) ->
  exists a vs v s, lookup_type g d = Some {| args := a; kind := BEnum vs |} /\ In v vs /\ In s v /\
    forall us, length us = length a -> exists u, means g us s u /\ exists x, touches g u x /\ barred g Data x.
Proof. intros fuel g d w NA W ND I. exact (reported fuel g d w NA W ND I). Qed.
Print Assumptions C62_reported.

(** For declarations that do not contain themselves (C55), the impls are found after
    finitely many steps, without a panic, and more fuel changes nothing. *)
Theorem C62_terminates : forall g, accepted (outline g) -> well_scoped g -> NoDup (map fst g) -> exists bound, forall fuel, bound <= fuel ->
  (forall written, all_impls fuel g written = all_impls bound g written) /\ enum_errors fuel g = enum_errors bound g /\
  (forall tr d t, lookup_type g d = Some t -> decl_wit fuel tr g d <> Stuck) /\ (forall d, ~ In (d, Stuck) (enum_errors fuel g)).
Proof. intros g A W ND. apply outcome; auto. now apply accepted_good. Qed.
Print Assumptions C62_terminates.

(** A small program: [int<#N>], [bool], [clock], [struct Port {x: inv bool}],
    [struct Pair<T> {a: T, b: Word}], [enum Option<T> {None, Some(x: T)}],
    [struct Phantom<T> {}], [struct Watch {c: &clock}], [struct Wide {x: (bool, ..., bool)}]
    with nine, [Memory], [type Word = int<8>], [struct Own {p: Port}] *)
Definition bool_ : tspec := TSNamed 1 [].
Definition program : items :=
  [(0, {| args := [MUint]; kind := BPrimitive PInt |});
   (1, {| args := []; kind := BPrimitive PBool |});
   (2, {| args := []; kind := BPrimitive PClock |});
   (3, {| args := []; kind := BStruct [TSInverted bool_] |});
   (4, {| args := [MType]; kind := BStruct [TSGeneric 0; TSNamed 10 []] |});
   (5, {| args := [MType]; kind := BEnum [[]; [TSGeneric 0]] |});
   (6, {| args := [MType]; kind := BStruct [] |});
   (7, {| args := []; kind := BStruct [TSCopyView (TSNamed 2 [])] |});
   (8, {| args := []; kind := BStruct [TSTuple (repeat bool_ 9)] |});
   (9, {| args := [MType; MUint]; kind := BPrimitive PMemory |});
   (10, {| args := []; kind := BAlias (TSNamed 0 [TSInt 8]) |});
   (11, {| args := []; kind := BStruct [TSNamed 3 []] |})].
Definition named (d : nat) (l : list ty) : ty := TK (BNamed d) l.
Definition word : ty := named 0 [TK (BInt 8) []].
Definition impls : list impl := all_impls 20 program [].

Example program_passes : passes 20 program.
Proof. split; [|reflexivity]. repeat constructor; cbn; intuition discriminate. Qed.
Example program_scoped : well_scoped program.
Proof.
  intros d t L. apply lookup_in in L. cbn in L. repeat (destruct L as [L|L]; [injection L as <- <-; cbn; repeat (constructor; cbn; eauto 20)|]). destruct L.
Qed.
Example C62_nontrivial :
  passes 20 program /\ well_scoped program /\
  implements impls Data (named 5 [named 4 [word]]) = true /\ implements impls Data (TK BArray [TK BTuple [word; named 1 []]; TK (BInt 3) []]) = true /\
  implements impls Copy (named 2 []) = true /\ implements impls Data (named 2 []) = false /\
  implements impls Copy (named 3 []) = false /\ implements impls Copy (named 4 [named 3 []]) = false /\ implements impls Data (named 5 [named 11 []]) = false /\
  implements impls Copy (named 9 [word; TK (BInt 4) []]) = false /\
  enum_errors 20 ((12, {| args := []; kind := BEnum [[TSNamed 11 []]] |}) :: program) = [(12, Found (HereInv (TSInverted bool_)))].
Proof. split; [exact program_passes|]. split; [exact program_scoped|]. vm_compute. auto 20. Qed.
Example C62_nontrivial_kinded : kinded program (named 5 [named 4 [word]]).
Proof.
  assert (W : kinded program word).
  { eapply K_named; [reflexivity|discriminate| |]; repeat constructor; try discriminate. intros _. exists (BInt 8). eauto. }
  eapply K_named; [reflexivity|discriminate| |]; repeat constructor; try congruence; intros _.
  eapply K_named; [reflexivity|discriminate| |]; repeat constructor; congruence.
Qed.
Example C62_nontrivial_inside : inside program (named 4 [named 11 []]) (TK BInverted [named 1 []]).
Proof.
  eapply I_in; [eapply P_member with (s := TSGeneric 0); [eexists; reflexivity|cbn; auto|apply M_generic; reflexivity]|].
  eapply I_in; [eapply P_member with (s := TSNamed 3 []); [eexists; reflexivity|cbn; auto|]|].
  { apply M_named; [intros s (a & H); discriminate|constructor]. }
  eapply I_in; [eapply P_member with (s := TSInverted bool_); [eexists; reflexivity|cbn; auto|]|apply I_here].
  apply M_inverted. apply M_named; [intros s (a & H); discriminate|constructor].
Qed.

(** The declarations are accepted by the check of C55, and without the alias they meet what
    [C62_complete] asks for. *)
Example C62_nontrivial_accepted : accepted (outline program).
Proof.
  exists 60, (fun _ _ => 0), (rev (outline program)). split.
  - cbn. repeat constructor; cbn; intuition discriminate.
  - vm_compute. reflexivity.
Qed.
Definition plain : items := (12, {| args := [MType]; kind := BStruct [TSGeneric 0; TSNamed 0 [TSInt 8]] |}) ::
  filter (fun e => negb (fst e =? 10) && negb (fst e =? 4)) program.
Example C62_nontrivial_complete : NoDup (map fst plain) /\ well_scoped plain /\ (forall d s, ~ has_kind plain d (BAlias s)) /\
  (forall d t, lookup_type plain d = Some t -> decl_wit 20 Data plain d <> Stuck) /\ implements (all_impls 20 plain []) Data (named 12 [named 5 [word]]) = true.
Proof.
  split; [cbn; repeat constructor; cbn; intuition discriminate|]. split; [|split; [|split; [|reflexivity]]].
  - intros d t L. apply lookup_in in L. cbn in L. repeat (destruct L as [L|L]; [injection L as <- <-; cbn; repeat (constructor; cbn; eauto 20)|]). destruct L.
  - intros d s (a & L). apply lookup_in in L. cbn in L. repeat (destruct L as [L|L]; [discriminate|]). destruct L.
  - intros d t L. apply lookup_in in L. cbn in L. repeat (destruct L as [L|L]; [injection L as <- <-; vm_compute; discriminate|]). destruct L.
Qed.

(** What is behind a view is never looked at: a struct with a view of a clock is data, and
    the clock can be taken out again. *)
Theorem C62_view_refuted : exists fuel g t, passes fuel g /\ kinded g t /\ implements (all_impls fuel g []) Data t = true /\
  exists u, behind g t u /\ barred g Data u.
Proof.
  exists 20, program, (named 7 []). split; [exact program_passes|]. split; [eapply K_named; [reflexivity|discriminate|constructor|constructor]|]. split; [reflexivity|].
  exists (named 2 []). split.
  - eapply H_in; [eapply P_member with (s := TSCopyView (TSNamed 2 [])); [eexists; reflexivity|cbn; auto|]|].
    + apply M_view. apply M_named; [intros s (a & H); discriminate|constructor].
    + apply H_view. apply H_here.
  - eapply B_primitive; [eexists; reflexivity|]. cbn. unfold not_data. auto.
Qed.
Print Assumptions C62_view_refuted.

(** A struct may be data although its only member is not: tuples have impls up to eight
    members only, and a view has none. *)
Theorem C62_member_refuted : exists fuel g d s u, passes fuel g /\ has_kind g d (BStruct [s]) /\ means g [] s u /\ kinded g u /\
  implements (all_impls fuel g []) Data (named d []) = true /\ implements (all_impls fuel g []) Data u = false.
Proof.
  exists 20, program, 8, (TSTuple (repeat bool_ 9)), (TK BTuple (repeat (named 1 []) 9)). split; [exact program_passes|]. split; [eexists; reflexivity|].
  assert (M : means program [] bool_ (named 1 [])) by (apply M_named; [intros s (a & H); discriminate|constructor]).
  assert (K : kinded program (named 1 [])) by (eapply K_named; [reflexivity|discriminate|constructor|constructor]).
  split; [apply M_tuple; cbn [repeat]; repeat (apply A_cons; [exact M|]); apply A_nil|]. split; [apply K_tuple; cbn [repeat]; repeat (apply Forall_cons; [exact K|]); apply Forall_nil|]. split; reflexivity.
Qed.
Print Assumptions C62_member_refuted.

(** Arguments count even if no value of them is held: a struct without members is not data
    if its argument is not. *)
Theorem C62_phantom_refuted : exists fuel g t, passes fuel g /\ kinded g t /\ (forall u, ~ part g t u) /\ pure g Data t /\
  implements (all_impls fuel g []) Data t = false.
Proof.
  assert (N : forall u, ~ part program (named 6 [named 3 []]) u).
  { intros u H. inversion H as [| |? ? l s ? (a & K) I M|? ? vs v s ? (a & K)]; subst; cbn in K; [|discriminate]. injection K as <- <-. destruct I. }
  exists 20, program, (named 6 [named 3 []]). split; [exact program_passes|]. split.
  { eapply K_named; [reflexivity|discriminate| |]; repeat constructor; try congruence. intros _. eapply K_named; [reflexivity|discriminate|constructor|constructor]. }
  split; [exact N|]. split; [|reflexivity]. intros u I. inversion I as [|? ? ? P]; subst; [|destruct (N _ P)].
  intros B. inversion B as [|? ? ? (a & K)]; subst. discriminate.
Qed.
Print Assumptions C62_phantom_refuted.

(** The traits can be implemented by hand: [impl Copy for Port {}] and
    [impl Data for Port {}] make a type with an inverted part data. *)
Theorem C62_written_refuted : exists fuel g written t, passes fuel g /\ kinded g t /\ implements (all_impls fuel g written) Data t = true /\ ~ pure g Data t.
Proof.
  exists 20, program, [(Copy, 3, []); (Data, 3, [])], (named 3 []). split; [exact program_passes|]. split; [eapply K_named; [reflexivity|discriminate|constructor|constructor]|]. split; [reflexivity|].
  intros P. apply (P (TK BInverted [named 1 []])); [|constructor].
  eapply I_in; [eapply P_member with (s := TSInverted bool_); [eexists; reflexivity|cbn; auto|]|apply I_here].
  apply M_inverted. apply M_named; [intros s (a & H); discriminate|constructor].
Qed.
Print Assumptions C62_written_refuted.
