(** C58: an accepted [impl] block gives what its trait asks for. *)
From Coq Require Import ZArith List Bool String Arith.
From Verif Require Import ConformModel ConformSpec ConformProofs ConformExact.
Import ListNotations.
Open Scope string_scope.

(** The block has exactly the methods and the associated types of the trait, each once; each
    method has the inputs and the output of the trait's, by name and by meaning, for any
    meaning of types in which [Self], the trait's parameters, the method's parameters and the
    associated types stand for what the block gives. *)
Theorem C58_accepted : forall (t : trait_def) (b : block), visit_impl t b = Ok tt -> follows t b.
Proof. exact accepted_follows. Qed.
Print Assumptions C58_accepted.

(** Such meanings exist: any meaning of the types that do not mention the trait's own names
    extends to one. *)
Theorem C58_meanings : forall (D : Type) (R0 : reading D) (t : trait_def) (b : block) (m i : head),
  scoped t b m i -> NoDup (map fst (b_assoc b)) ->
  exists R, fits R t b m i /\
    forall s, mentions (trait_generics t m) (trait_names t b) true s = false -> means R s = means R0 s.
Proof. exact readings_exist. Qed.
Print Assumptions C58_meanings.

(** A block that follows the trait is accepted if the signatures have no const generic
    expressions and no views ([&T]) of the trait's parameters, the arguments of the trait are
    types, and the method in the block has as many [impl Trait] inputs as the trait's.
    Missing: the other signatures, for which it is false (below). *)
Theorem C58_complete_partial : forall (t : trait_def) (b : block),
  (b_args b <> None -> t_params t <> None) ->
  List.length (listed (b_args b)) <= List.length (listed (t_params t)) ->
  (forall k p, nth_error (listed (t_params t)) k = Some p -> exists e, argument t b k = Some e) ->
  (forall x e i m, In (x, (e, i)) (b_units b) -> get x (t_fns t) = Some m -> exact t b m i) ->
  (visit_impl t b = Ok tt <-> follows t b).
Proof.
  intros t b S L G E. split; [apply accepted_follows|]. intros F. apply following_accepted; auto. now apply enough_arguments.
Qed.
Print Assumptions C58_complete_partial.

(** An accepted block gives no arguments to a trait that takes none, and no more than it takes. *)
Theorem C58_arguments : forall (t : trait_def) (b : block), visit_impl t b = Ok tt ->
  (b_args b <> None -> t_params t <> None) /\
  List.length (listed (b_args b)) <= List.length (listed (t_params t)) /\
  forall k p, nth_error (listed (t_params t)) k = Some p -> nth_error (listed (b_args b)) k = None ->
    exists j q, j <= k /\ nth_error (listed (t_params t)) j = Some q /\ p_default q <> None.
Proof. exact arguments_fit. Qed.
Print Assumptions C58_arguments.

(** * Where the check and the claim differ *)
Definition bool_ : spec := Declared 100 XNil.
Definition par (g : nat) (d : option texpr) : param := {| p_name := Named g; p_bounds := []; p_meta := 0; p_default := d |}.
Definition fn (ps : list param) (ins : list (string * spec)) (o : option spec) : head :=
  {| h_kind := Function; h_unsafe := false; h_params := ps; h_hidden := []; h_inputs := ins; h_output := o |}.
Definition trait_of (ps : list param) (m : head) : trait_def :=
  {| t_params := match ps with [] => None | _ => Some ps end; t_assoc := []; t_fns := [("f", m)] |}.
Definition block_of (args : list texpr) (i : head) : block :=
  {| b_target := bool_; b_self := 9; b_args := match args with [] => None | _ => Some args end; b_assoc := []; b_units := [("f", (false, i))] |}.

Lemma one_follows : forall ps m args i, h_unsafe i = h_unsafe m -> List.length (h_params i) = List.length (h_params m) ->
  same_signature (trait_of ps m) (block_of args i) m i -> follows (trait_of ps m) (block_of args i).
Proof.
  intros ps m args i A B C. split; [repeat constructor; intros []|]. split; [reflexivity|]. split; [constructor|]. split; [reflexivity|].
  split; [intros x n qs k rs []|]. intros x e i' m' [I|[]] G. inversion I; subst. cbn in G. inversion G; subst. auto.
Qed.

(** Whether a method is a function, an entity or a pipeline is not compared: a call through
    the trait, checked as a call of a function, becomes one of an entity once the type is
    known. *)
Theorem C58_kind_refuted : exists t b m i, visit_impl t b = Ok tt /\ get "f" (t_fns t) = Some m /\
  In ("f", (false, i)) (b_units b) /\ h_kind m = Function /\ h_kind i = Entity.
Proof.
  exists (trait_of [] (fn [] [("self", TraitSelf)] None)),
    (block_of [] {| h_kind := Entity; h_unsafe := false; h_params := []; h_hidden := []; h_inputs := [("self", bool_)]; h_output := None |}).
  eexists. eexists. split; [vm_compute; reflexivity|]. split; [reflexivity|]. split; [left; reflexivity|]. split; reflexivity.
Qed.
Print Assumptions C58_kind_refuted.

(** What a method's type parameters must satisfy is not compared: a method of the trait that
    takes any type is given by one that asks for a trait (here number 7). *)
Theorem C58_bounds_refuted : exists t b m i, visit_impl t b = Ok tt /\ get "f" (t_fns t) = Some m /\
  In ("f", (false, i)) (b_units b) /\ map p_bounds (h_params m) = [[]] /\ map p_bounds (h_params i) = [[7]].
Proof.
  exists (trait_of [] (fn [par 1 None] [("self", TraitSelf); ("x", Generic (Named 1))] None)),
    (block_of [] (fn [{| p_name := Named 2; p_bounds := [7]; p_meta := 0; p_default := None |}] [("self", bool_); ("x", Generic (Named 2))] None)).
  eexists. eexists. split; [vm_compute; reflexivity|]. split; [reflexivity|]. split; [left; reflexivity|]. split; reflexivity.
Qed.
Print Assumptions C58_bounds_refuted.

(** [trait Tr<T> { fn f(self, x: &T); }  impl Tr<bool> for bool { fn f(self, x: &bool) }] is
    refused: the parameter of the trait is not replaced under a view. *)
Theorem C58_copy_view_refuted : exists t b, follows t b /\ visit_impl t b = Refused.
Proof.
  exists (trait_of [par 1 None] (fn [] [("self", TraitSelf); ("x", CopyView (Generic (Named 1)))] None)),
    (block_of [ESpec bool_] (fn [] [("self", bool_); ("x", CopyView bool_)] None)).
  split; [|vm_compute; reflexivity]. apply one_follows; try reflexivity. split; [reflexivity|]. intros D R F. split; [|reflexivity]. cbn.
  pose proof (fits_self _ _ _ _ _ F) as A. pose proof (fits_params _ _ _ _ _ F 0 _ _ eq_refl eq_refl) as B. cbn in A, B. now rewrite A, B.
Qed.
Print Assumptions C58_copy_view_refuted.

(** [trait Tr<#uint N> { fn f(self, x: uint<N>); }  impl Tr<8> for bool { fn f(self, x: uint<8>) }]
    is an internal error. *)
Theorem C58_number_refuted : exists t b, follows t b /\ visit_impl t b = Bug.
Proof.
  exists (trait_of [par 1 None] (fn [] [("self", TraitSelf); ("x", Declared 101 (XCons (ESpec (Generic (Named 1))) XNil))] None)),
    (block_of [EInt 8] (fn [] [("self", bool_); ("x", Declared 101 (XCons (EInt 8) XNil))] None)).
  split; [|vm_compute; reflexivity]. apply one_follows; try reflexivity. split; [reflexivity|]. intros D R F. split; [|reflexivity]. cbn.
  pose proof (fits_self _ _ _ _ _ F) as A. pose proof (fits_params _ _ _ _ _ F 0 _ _ eq_refl eq_refl) as B. cbn in A, B. now rewrite A, B.
Qed.
Print Assumptions C58_number_refuted.

(** [trait Tr<A, B = A> { fn f(self, x: B); }  impl Tr<bool> for bool { fn f(self, x: bool) }]
    is refused: the trait's parameters are not replaced in a default. *)
Theorem C58_default_refuted : exists t b, follows t b /\ visit_impl t b = Refused.
Proof.
  exists (trait_of [par 1 None; par 2 (Some (ESpec (Generic (Named 1))))] (fn [] [("self", TraitSelf); ("x", Generic (Named 2))] None)),
    (block_of [ESpec bool_] (fn [] [("self", bool_); ("x", bool_)] None)).
  split; [|vm_compute; reflexivity]. apply one_follows; try reflexivity. split; [reflexivity|]. intros D R F. split; [|reflexivity]. cbn.
  pose proof (fits_self _ _ _ _ _ F) as A. pose proof (fits_params _ _ _ _ _ F 0 _ _ eq_refl eq_refl) as B.
  pose proof (fits_params _ _ _ _ _ F 1 _ _ eq_refl eq_refl) as C. cbn in A, B, C. now rewrite A, C, B.
Qed.
Print Assumptions C58_default_refuted.

(** [trait Tr { fn f(self, x: impl Fn); }] given by [fn f(self, x: bool)] panics instead of
    being refused. *)
Theorem C58_hidden_refuted : exists t b, visit_impl t b = Panic.
Proof.
  exists (trait_of [] {| h_kind := Function; h_unsafe := false; h_params := [];
      h_hidden := [{| p_name := Hidden 5; p_bounds := [7]; p_meta := 0; p_default := None |}];
      h_inputs := [("self", TraitSelf); ("x", Generic (Hidden 5))]; h_output := None |}),
    (block_of [] (fn [] [("self", bool_); ("x", bool_)] None)).
  vm_compute. reflexivity.
Qed.
Print Assumptions C58_hidden_refuted.

(** A trait may declare two methods of one name; only the last is asked for. *)
Theorem C58_repeated_refuted : exists t b m i, visit_impl t b = Ok tt /\ In ("f", m) (t_fns t) /\
  In ("f", (false, i)) (b_units b) /\ ~ same_signature t b m i.
Proof.
  exists {| t_params := None; t_assoc := []; t_fns := [("f", fn [] [("self", TraitSelf); ("x", bool_)] None); ("f", fn [] [("self", TraitSelf)] None)] |},
    (block_of [] (fn [] [("self", bool_)] None)).
  eexists. eexists. split; [vm_compute; reflexivity|]. split; [left; reflexivity|]. split; [left; reflexivity|]. intros [A _]. discriminate A.
Qed.
Print Assumptions C58_repeated_refuted.

(** * A case
    [trait Tr<T, U = bool> { type Out; fn f<V>(self, x: T, y: [V; 3]) -> (Out, U, inv Self); }]
    [impl<A> Tr<A> for S<A> { type Out = ...; fn f<W>(self, x: A, y: [W; 3]) -> (Self::Out, bool, inv S<A>) }] *)
Definition a_trait : trait_def :=
  {| t_params := Some [par 1 None; par 2 (Some (ESpec bool_))];
     t_assoc := [("Out", (50, []))];
     t_fns := [("f", fn [par 3 None] [("self", TraitSelf); ("x", Generic (Named 1)); ("y", Array (Generic (Named 3)) (EInt 3))]
                 (Some (Tuple (SCons (Declared 50 XNil) (SCons (Generic (Named 2)) (SCons (Inverted TraitSelf) SNil))))))] |}.
Definition s_of_a : spec := Declared 102 (XCons (ESpec (Generic (Named 4))) XNil).
Definition a_block (third : spec) : block :=
  {| b_target := s_of_a; b_self := 9; b_args := Some [ESpec (Generic (Named 4))]; b_assoc := [("Out", (60, []))];
     b_units := [("f", (false, fn [par 5 None] [("self", s_of_a); ("x", Generic (Named 4)); ("y", Array (Generic (Named 5)) (EInt 3))]
                 (Some (Tuple (SCons (Declared 60 XNil) (SCons bool_ (SCons (Inverted third) SNil)))))))] |}.
Example C58_nontrivial :
  visit_impl a_trait (a_block s_of_a) = Ok tt /\
  visit_impl a_trait (a_block (Declared 9 XNil)) = Ok tt /\
  visit_impl a_trait (a_block bool_) = Refused /\
  ~ follows a_trait (a_block bool_) /\
  (forall third, third = s_of_a \/ third = Declared 9 XNil \/ third = bool_ ->
     (b_args (a_block third) <> None -> t_params a_trait <> None) /\
     List.length (listed (b_args (a_block third))) <= List.length (listed (t_params a_trait)) /\
     (forall k p, nth_error (listed (t_params a_trait)) k = Some p -> exists e, argument a_trait (a_block third) k = Some e) /\
     (forall x e i m, In (x, (e, i)) (b_units (a_block third)) -> get x (t_fns a_trait) = Some m -> exact a_trait (a_block third) m i)).
Proof.
  assert (EX : forall third, third = s_of_a \/ third = Declared 9 XNil \/ third = bool_ ->
     (b_args (a_block third) <> None -> t_params a_trait <> None) /\
     List.length (listed (b_args (a_block third))) <= List.length (listed (t_params a_trait)) /\
     (forall k p, nth_error (listed (t_params a_trait)) k = Some p -> exists e, argument a_trait (a_block third) k = Some e) /\
     (forall x e i m, In (x, (e, i)) (b_units (a_block third)) -> get x (t_fns a_trait) = Some m -> exact a_trait (a_block third) m i)).
  { intros third T. split; [discriminate|]. split; [cbn; auto|]. split.
    - intros [|[|[|k]]] p H; cbn in H; try discriminate; eexists; reflexivity.
    - intros x e i m [I|[]] G. inversion I; subst. cbn in G. inversion G; subst. constructor.
      + constructor.
        * vm_compute. repeat constructor; cbn; intros C; repeat (destruct C as [C|C]; [discriminate|]); assumption.
        * split; repeat constructor; cbn; intros C; repeat (destruct C as [C|C]; [discriminate|]); assumption.
        * reflexivity.
        * intros [|[|[|k]]] e H; cbn in H; inversion H; reflexivity.
        * intros q [Q|[]]. subst. cbn. intros C; repeat (destruct C as [C|C]; [discriminate|]); assumption.
        * intros x n ps [Q|[]]. inversion Q; subst. cbn. intros C; repeat (destruct C as [C|C]; [discriminate|]); assumption.
      + reflexivity.
      + intros [|[|[|k]]] e H; cbn in H; inversion H; eexists; split; reflexivity.
      + reflexivity.
      + intros s Q. cbn in Q. repeat (destruct Q as [Q|Q]; [subst; split; reflexivity|]). destruct Q.
      + intros s Q. cbn in Q. destruct T as [T|[T|T]]; subst third; repeat (destruct Q as [Q|Q]; [subst; split; reflexivity|]); destruct Q. }
  split; [vm_compute; reflexivity|]. split; [vm_compute; reflexivity|]. split; [vm_compute; reflexivity|]. split; [|exact EX].
  intros F. destruct (EX bool_) as (A & L & B & C); [auto|]. apply (proj2 (C58_complete_partial _ _ A L B C)) in F. vm_compute in F. discriminate.
Qed.
