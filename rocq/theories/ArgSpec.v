(** What a file argument means, said without reading it. *)
From Coq Require Import List Ascii String.
Import ListNotations.
From Verif Require Import ArgModel.

(** a path as its tokens are written: names with [::] between them *)
Fixpoint written (p : list text) : list token :=
  match p with
  | [] => []
  | [n] => [Ident n]
  | n :: p => Ident n :: Separator :: written p
  end.

(** a text that stands for a path: nothing, for the empty path, or names with [::] between them *)
Definition stands_for (lex : text -> list token) (t : text) (p : list text) : Prop :=
  t = [] /\ p = [] \/ t <> [] /\ p <> [] /\ lex t = written p.

(** … or the same with one more [::] behind them *)
Definition stands_loosely (lex : text -> list token) (t : text) (p : list text) : Prop :=
  stands_for lex t p \/ t <> [] /\ p <> [] /\ lex t = written p ++ [Separator].

Definition no_comma (t : text) : Prop := ~ In comma t.
Definition commas (t : text) : nat := count_occ ascii_dec t comma.
Definition triple (r n f : text) : text := r ++ [comma] ++ n ++ [comma] ++ f.
