(** What looking up a location should give. *)
From Coq Require Import List Arith.
From Verif Require Import LocModel.
Import ListNotations.

Section Spec.
Variable T : Type.
(** the span of [outer] covers that of [inner], in the same file *)
Definition encloses {A B : Type} (outer : loc A) (inner : loc B) : Prop :=
  l_file outer = l_file inner /\ l_start outer <= l_start inner /\ l_end inner <= l_end outer.
Definition same_span {A B : Type} (a : loc A) (b : loc B) : Prop :=
  l_file a = l_file b /\ l_start a = l_start b /\ l_end a = l_end b.
(** the map after a history of insertions *)
Definition recorded (history : list (loc T)) : loc_map T := fold_left insert history new_map.
(** [a] comes before [b] in [l] *)
Definition before (l : list (loc T)) (a b : loc T) : Prop := exists l1 l2 l3, l = l1 ++ a :: l2 ++ b :: l3.
End Spec.
Arguments recorded {T}. Arguments before {T}.
