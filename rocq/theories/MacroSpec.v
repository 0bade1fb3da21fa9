(** What macros are written like, and what the built-in ones stand for. *)
From Coq Require Import List NArith Arith Bool String.
Import ListNotations.
Open Scope nat_scope. Open Scope string_scope. Open Scope list_scope.
From Verif Require Import MacroModel.

(** Token lists in which every opening token has its closing token *)
Inductive balanced (open close : tok) : list tok -> Prop :=
| b_nil : balanced open close []
| b_one t l : t <> open -> t <> close -> balanced open close l -> balanced open close (t :: l)
| b_nest l l' : balanced open close l -> balanced open close l' -> balanced open close (open :: l ++ close :: l').
Inductive pair_of : tok -> tok -> Prop :=
| d_paren : pair_of OpenParen CloseParen
| d_brace : pair_of OpenBrace CloseBrace
| d_bracket : pair_of OpenBracket CloseBracket.
Definition delimiter (t : tok) : Prop := exists o c, pair_of o c /\ (t = o \/ t = c).
Definition repeats (t : tok) : Prop := t = Asterisk \/ t = Plus \/ t = QuestionMark.

(** How patterns are written *)
Definition reps_tok (r : reps) : tok := match r with Optional => QuestionMark | Many0 => Asterisk | Many1 => Plus end.
Fixpoint written (p : mpat) : list tok :=
  match p with
  | MToken t => [t]
  | MFragment name kind => [Dollar; Ident name; Colon; Ident kind]
  | MEnclosed l o c => o :: flat_map written l ++ [c]
  | MRepeated l d r => [Dollar; OpenParen] ++ flat_map written l ++ [CloseParen] ++ match d with Some t => [t] | None => [] end ++ [reps_tok r]
  end.
(** Patterns that can be written *)
Inductive proper : mpat -> Prop :=
| w_token t : t <> Dollar -> t <> Eof -> ~ delimiter t -> proper (MToken t)
| w_fragment name kind : proper (MFragment name kind)
| w_enclosed l o c : pair_of o c -> Forall proper l -> proper (MEnclosed l o c)
| w_repeated l d r : Forall proper l -> (forall t, d = Some t -> ~ delimiter t /\ ~ repeats t /\ t <> Eof) -> proper (MRepeated l d r).

(** Rules, and definitions: one rule, or several between braces with or without a last comma *)
Definition template_ok (l : list tok) : Prop := balanced OpenBrace CloseBrace l.
Definition template (l : list tok) : list tok := OpenBrace :: l ++ [CloseBrace].
Definition rule_written (a : rule) : list tok := written (fst a) ++ FatArrow :: template (snd a).
Definition rule_ok (a : rule) : Prop := proper (fst a) /\ template_ok (snd a).
Inductive definition : list rule -> list tok -> Prop :=
| d_single l t : proper (MEnclosed l OpenParen CloseParen) -> template_ok t ->
    definition [(MEnclosed l OpenParen CloseParen, t)] (written (MEnclosed l OpenParen CloseParen) ++ template t)
| d_several l ts : several l ts -> definition l (OpenBrace :: ts ++ [CloseBrace])
with several : list rule -> list tok -> Prop :=
| s_nil : several [] []
| s_last a : rule_ok a -> several [a] (rule_written a)
| s_cons a l ts : rule_ok a -> several l ts -> several (a :: l) (rule_written a ++ Comma :: ts).

(** ** The built-in macros *)
Section Files.
Variable files : dir -> option (list N).
Variable parse : list N -> option (aexpr * list tok).
Variable path_of : string -> bool * dir.
(** The file a path names, seen from a directory *)
Definition named_file (base : dir) (s : string) (f : dir) : Prop :=
  (fst (path_of s) = true /\ f = snd (path_of s)) \/ (fst (path_of s) = false /\ f = base ++ snd (path_of s)).
(** [e'] is [e] with the expressions of the files written in place of each [include!]; those of
    a file are looked for beside it.  The numbers of bytes files [include_bytes!] names are there as they are. *)
Inductive in_place : dir -> aexpr -> hexpr -> Prop :=
| p_node base n l l' : Forall2 (in_place base) l l' -> in_place base (ANode n l) (HNode n l')
| p_include base s folder name src e left h :
    named_file base s (folder ++ [name]) -> files (folder ++ [name]) = Some src -> parse src = Some (e, left) -> in_place folder e h ->
    in_place base (AMacro Include [Str s]) h
| p_bytes base s f bytes :
    named_file base s f -> files f = Some bytes -> in_place base (AMacro IncludeBytes [Str s]) (HBytes (map (fun b => (b, 8%N)) bytes)).
End Files.
