(** C55: types are finite. *)
From Coq Require Import List Arith ZArith Bool Lia Permutation.
From Verif Require Import InferModel InferSpec TypingModel DeclModel DeclSpec ElabModel DeclProofs.
Import ListNotations.

(** Whatever has been accepted before and in whichever order pending names are looked
    at, the check of a declaration ends, and so does the walk back along the cycle. *)
Theorem C55_terminates : forall g, accepted g -> forall d l, exists bound, forall fuel order, bound <= fuel -> declare fuel order g d l <> Stuck.
Proof. intros g A d l. apply declare_ends. apply accepted_good. exact A. Qed.
Print Assumptions C55_terminates.

(** A declaration is accepted only if it does not lead to itself, and is then one more
    of the accepted ones. *)
Theorem C55_accepted : forall g, accepted g -> forall d l fuel order g', ~ In d (map fst g) -> declare fuel order g d l = Added g' ->
  g' = (d, l) :: g /\ forall x, ~ leads g' x x.
Proof. intros g A d l fuel order g' N H. destruct (declare_good _ _ _ _ _ _ (accepted_good g A) N H) as [E G]. split; [exact E|]. apply good_acyclic. exact G. Qed.
Print Assumptions C55_accepted.

(** It is refused only if it does, and the notes of the error, one after the other, are
    a way from it back to itself. *)
Theorem C55_refused : forall g, accepted g -> forall d l fuel order cycle, declare fuel order g d l = Refused cycle ->
  chain ((d, l) :: g) d cycle /\ cycle <> [] /\ last cycle d = d /\ leads ((d, l) :: g) d d.
Proof.
  intros g A d l fuel order c H. destruct (declare_cycle _ _ _ _ _ _ (accepted_good g A) H) as (C & L & N). split; [exact C|]. split; [exact N|]. split; [exact L|].
  exact (chain_leads _ _ _ _ C L N).
Qed.
Print Assumptions C55_refused.

(** A whole program: no declaration is refused exactly when none leads to itself. *)
Theorem C55_program : forall ds, NoDup (map fst ds) -> exists bound, forall fuel order, bound <= fuel ->
  exists g, declare_all fuel order ds [] = Some g /\ incl g ds /\ (forall d, ~ leads g d d) /\ ((forall d, ~ leads ds d d) <-> Permutation g ds).
Proof.
  intros ds ND. assert (ND' : NoDup (map fst ds ++ map fst (@nil (nat * list tspec)))) by (cbn; rewrite app_nil_r; exact ND).
  destruct (declare_all_ends ds [] good_nil ND') as (N & H). exists N. intros fuel order L. specialize (H fuel order L).
  destruct (declare_all fuel order ds []) as [g|] eqn:E; [|congruence]. exists g. split; [reflexivity|].
  destruct (declare_all_good _ _ _ _ _ good_nil ND' E) as (G & _ & I). rewrite app_nil_r in I. split; [exact I|]. split; [apply good_acyclic; exact G|]. split.
  - intros NL. rewrite (declare_all_rev fuel order ds [] good_nil ND') in E.
    + inversion E. rewrite app_nil_r. symmetry. apply Permutation_rev.
    + rewrite app_nil_r. exact NL.
    + rewrite E. discriminate.
  - intros P d K. apply (good_acyclic g G d). eapply leads_incl; [|exact K]. intros x J. apply (Permutation_in _ (Permutation_sym P)). exact J.
Qed.
Print Assumptions C55_program.

(** So whether a program is refused depends neither on the order of its declarations
    nor on that of pending names. *)
Theorem C55_order : forall ds es, NoDup (map fst ds) -> Permutation ds es -> exists bound, forall f1 f2 o1 o2 g h, bound <= f1 -> bound <= f2 ->
  declare_all f1 o1 ds [] = Some g -> declare_all f2 o2 es [] = Some h -> (Permutation g ds <-> Permutation h es).
Proof.
  intros ds es ND P. assert (NE : NoDup (map fst es)) by (eapply Permutation_NoDup; [apply Permutation_map; exact P|exact ND]).
  destruct (C55_program ds ND) as (N1 & H1). destruct (C55_program es NE) as (N2 & H2). exists (N1 + N2). intros f1 f2 o1 o2 g h L1 L2 E1 E2.
  destruct (H1 f1 o1 ltac:(lia)) as (g' & A1 & _ & _ & B1). destruct (H2 f2 o2 ltac:(lia)) as (h' & A2 & _ & _ & B2).
  assert (g' = g) by congruence. assert (h' = h) by congruence. subst. rewrite <- B1, <- B2. split; intros NL d K; apply (NL d); eapply leads_incl; try exact K; intros x I.
  - apply (Permutation_in _ (Permutation_sym P)). exact I.
  - apply (Permutation_in _ P). exact I.
Qed.
Print Assumptions C55_order.

(** What acceptance is for: lowering can spell out every type there is, in a fixed
    number of nested steps. *)
Theorem C55_finite : forall g decls, accepted g -> listed g decls -> forall t, spelled_out decls t.
Proof. intros g decls A L t. eapply spelled_types; [apply accepted_good; exact A|exact L]. Qed.
Print Assumptions C55_finite.

(** And refusal loses nothing: a type that leads to itself could never be spelled out,
    even when it does so only as an argument that is not used. *)
Theorem C55_endless : forall g decls, NoDup (map fst g) -> listed g decls -> forall d, leads g d d -> forall fuel l, conc_of decls fuel (TK (BNamed d) l) = None.
Proof. exact never_spelled. Qed.
Print Assumptions C55_endless.

(** uint<N> and bool; enum Option<T> {None, Some {v: T}}; struct P {a: Option<uint<8>>,
    b: ([bool; 2], P0)} with struct P0 {}: accepted, and P is spelled out.
    struct A {b: Option<B>}, struct B {a: [A; 2]}: the second is refused. *)
Definition ex_ty (d : nat) : nat * decl :=
  match d with
  | 0 => (1, DPrim Unsigned)
  | 1 => (0, DPrim Boolean)
  | 2 => (1, DEnum [[]; [TSGeneric 0]])
  | 3 => (0, DStruct [(0, TSNamed 2 [TSNamed 0 [TSInt 8]]); (1, TSTuple [TSArray (TSNamed 1 []) (TSInt 2); TSNamed 4 []])])
  | _ => (0, DStruct [])
  end.
Definition ex_decls (d : nat) : option (nat * decl) := if d <=? 4 then Some (ex_ty d) else None.
Definition ex_program : types_ := map (fun d => (d, parts (snd (ex_ty d)))) [3; 0; 1; 4; 2].
Definition ex_a : nat * list tspec := (5, [TSNamed 2 [TSNamed 6 []]]).
Definition ex_b : nat * list tspec := (6, [TSArray (TSNamed 5 []) (TSInt 2)]).
Example C55_nontrivial :
  accepted (rev ex_program) /\ listed (rev ex_program) ex_decls
  /\ conc_of ex_decls 5 (TK (BNamed 3) []) = Some (CT (PatModel.CStruct [PatModel.CEnum [[]; [PatModel.CUint 8]]; PatModel.CTuple [PatModel.CArray PatModel.CBool 2; PatModel.CStruct []]]))
  /\ conc_of ex_decls 2 (TK (BNamed 3) []) = None
  /\ declare 100 (fun _ _ => 0) (rev ex_program) 5 (snd ex_a) = Added (ex_a :: rev ex_program)
  /\ declare 100 (fun n _ => n) (ex_a :: rev ex_program) 6 (snd ex_b) = Refused [5; 6]
  /\ declare 100 (fun _ _ => 0) [] 7 [TSNamed 8 [TSNamed 7 []]] = Refused [7].
Proof.
  split; [exists 100, (fun _ _ => 0), ex_program; split; [|vm_compute; reflexivity]|].
  { cbn. repeat (constructor; [cbn; lia|]). constructor. }
  split. { intros d k b H. unfold ex_decls in H. destruct d as [|[|[|[|[|d]]]]]; inversion H; subst; cbn; auto 10. }
  split; [vm_compute; reflexivity|]. split; [vm_compute; reflexivity|].
  split; [vm_compute; reflexivity|]. split; vm_compute; reflexivity.
Qed.
