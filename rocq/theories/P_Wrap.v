(** C67: test benches in C++ set and read the values they name. *)
From Coq Require Import List NArith Arith Bool String Lia.
Import ListNotations.
Open Scope nat_scope. Open Scope string_scope. Open Scope list_scope.
From Verif Require Import WrapModel WrapSpec WrapProofs.

(** Setting an input of any width to a value leaves exactly that value in the port, whatever it held before *)
Theorem C67_input : forall w n p, 0 < w -> (n < 2 ^ N.of_nat w)%N -> shape w p -> exists q, set_input w n p = Some q /\ shape w q /\ number q = n.
Proof. exact input_exact. Qed.
Print Assumptions C67_input.
(** Reading an output of any width gives its bits, most significant first, all of them and no others *)
Theorem C67_output : forall w p, 0 < w -> shape w p -> exists s, output_string w p = Some s /\ written w (number p) s.
Proof. exact output_exact. Qed.
Print Assumptions C67_output.
(** Through a wire what was set is read *)
Theorem C67_wire : forall w n p, 0 < w -> (n < 2 ^ N.of_nat w)%N -> shape w p ->
  exists q s, set_input w n p = Some q /\ output_string w q = Some s /\ written w n s.
Proof.
  intros w n p L H S. destruct (input_exact w n p L H S) as (q & E & S' & <-). destruct (output_exact w q L S') as (s & E' & W). eauto.
Qed.
Print Assumptions C67_wire.
(** Following members from the class of the output gives, for every field that has bits, a class that reads this field *)
Theorem C67_fields : forall t p u cls, field t p u -> size u <> 0%N -> exists c, reaches (output_wrappers [] cls t) cls p c /\ path c = p.
Proof. intros t p u cls F N. destruct (proj2 (fields_reached t p u F N) [] cls) as (d & R & P). eauto. Qed.
Print Assumptions C67_fields.
(** Every class that is used is there, if all fields have bits *)
Theorem C67_declared_partial : forall t cls c n k, (forall p u, field t p u -> size u <> 0%N) ->
  In c (output_wrappers [] cls t) -> In (n, k) (members c) -> exists d, In d (output_wrappers [] cls t) /\ name d = k.
Proof. intros t cls c n k V. apply (declared t V). Qed.
Print Assumptions C67_declared_partial.
(** Not without that: a field without bits gets no class, but its struct still has a member of it, and the header does not compile *)
Theorem C67_declared_refuted : exists t cls c n k, In c (output_wrappers [] cls t) /\ In (n, k) (members c) /\ forall d, In d (output_wrappers [] cls t) -> name d <> k.
Proof.
  exists (Struct [("a", Other 8); ("v", Other 0)]), "top_o", (Class "top_o" [] [("a", "top_o_a"); ("v", "top_o_v")]), "v", "top_o_v".
  split; [right; left; reflexivity|]. split; [right; left; reflexivity|]. intros d [<-|[<-|[]]]; discriminate.
Qed.
Print Assumptions C67_declared_refuted.
(** Not: classes have names of their own *)
Theorem C67_class_names_refuted : exists t cls a b, In a (output_wrappers [] cls t) /\ In b (output_wrappers [] cls t) /\ path a <> path b /\ name a = name b.
Proof.
  exists (Struct [("a", Struct [("b", Other 1)]); ("a_b", Other 2)]), "top_o", (Class "top_o_a_b" ["a"; "b"] []), (Class "top_o_a_b" ["a_b"] []).
  split; [left; reflexivity|]. split; [right; right; left; reflexivity|]. split; [discriminate|reflexivity].
Qed.
Print Assumptions C67_class_names_refuted.

Example C67_nontrivial_words : set_input 70 (2 ^ 69 + 2 ^ 32 + 5)%N (Words [9; 9; 9]%N) = Some (Words [5; 1; 32]%N) /\ shape 70 (Words [9; 9; 9]%N) /\
  option_map (fun s => (List.length s, firstn 7 s, skipn 66 s)) (output_string 70 (Words [5; 1; 32]%N)) = Some (70, [true; false; false; false; false; false; false], [false; true; false; true]).
Proof.
  split; [reflexivity|]. split; [|reflexivity]. split; [lia|]. split; [cbn; lia|]. intros x H. cbn in H. repeat destruct H as [<-|H]; try reflexivity. destruct H.
Qed.
Example C67_nontrivial_full : set_input 96 7 (Words [9; 9; 9]%N) = Some (Words [7; 0; 0]%N) /\ output_code 96 = [(32, Some 2); (32, Some 1); (32, Some 0)] /\ set_input 64 7 (Scalar 1) = Some (Scalar 7).
Proof. repeat split; reflexivity. Qed.
Example C67_nontrivial_classes : output_wrappers [] "t_o" (Struct [("a", Other 8); ("s", Struct [("b", Other 1)])]) =
  [Class "t_o_a" ["a"] []; Class "t_o_s_b" ["s"; "b"] []; Class "t_o_s" ["s"] [("b", "t_o_s_b")]; Class "t_o" [] [("a", "t_o_a"); ("s", "t_o_s")]] /\
  field (Struct [("a", Other 8); ("s", Struct [("b", Other 1)])]) ["s"; "b"] (Other 1).
Proof. split; [reflexivity|]. eapply f_in; [right; left; reflexivity|]. eapply f_in; [left; reflexivity|apply f_here]. Qed.
