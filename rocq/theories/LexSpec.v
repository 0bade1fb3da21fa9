(** How tokens are spelled and what they stand for (C60). *)
From Coq Require Import NArith List Bool Ascii String Arith.
From Verif Require Import LexModel.
Import ListNotations.
Open Scope N_scope.

(** * Spelling *)
Section Spelling.
  Variable cl : classes.
  Definition name (w : text) : Prop := exists c u, w = c :: u /\ first cl c = true /\ forallb (further cl) u = true.
  (** A digit, digits and underscores, and perhaps one of u, U, i, I with a width *)
  Definition numeral (dig wid : N -> bool) (w : text) : Prop :=
    exists d ds s, w = d :: ds ++ s /\ dig d = true /\ forallb (under dig) ds = true /\
      (s = [] \/ exists m n, s = m :: n /\ is "uUiI" m = true /\ forallb wid n = true).
  (** What stands between the quotes [q]: the quote and the backslash only after a backslash *)
  Inductive content (q : N) : text -> Prop :=
  | C_end : content q []
  | C_escape c t : c <> newline -> content q t -> content q (backslash :: c :: t)
  | C_plain c t : c <> backslash -> c <> q -> content q t -> content q (c :: t).
  Definition line (t : text) : Prop := forallb (fun c => negb (c =? newline)) t = true.
  Definition spelled (k : kind) (w : text) : Prop :=
    match k with
    | Fixed s => In s (keywords ++ marks) /\ w = chars s
    | Greek => w = [894]
    | Ident => name w \/ exists u, w = chars "r#" ++ u /\ name u
    | Int => numeral digit digit w
    | Hex => exists u, w = chars "0x" ++ u /\ numeral hex digit u
    | Oct => exists u, w = chars "0o" ++ u /\ numeral oct oct u
    | Bin => exists u, w = chars "0b" ++ u /\ numeral bin digit u
    | Label => exists u, w = quote1 :: u /\ name u
    | LabelRef => exists u, w = chars "@" ++ u /\ name u
    | Char => exists u, w = chars "b'" ++ u ++ [quote1] /\ content quote1 u
    | Bytes => exists u, w = chars "b""" ++ u ++ [quote2] /\ content quote2 u
    | Utf8 => exists c, w = [quote1; c; quote1] /\ wordy cl c = true
    | Str => exists u, w = quote2 :: u ++ [quote2] /\ ~ In quote2 u
    | Outer => exists u, w = chars "///" ++ u /\ line u
    | Inner => exists u, w = chars "//!" ++ u /\ line u
    | Comment => exists u, w = chars "//" ++ u /\ line u
    | Space => In w [[32]; [9]; [10]; [13]]
    | Open => w = chars "/*"
    | Close => w = chars "*/"
    end.
  (** Two readings of one text: a keyword is preferred to a name, documentation to a comment. *)
  Definition preferred (k k' : kind) : Prop :=
    match k, k' with
    | Fixed s, Ident => In s keywords
    | Outer, Comment | Inner, Comment => True
    | _, _ => False
    end.
  (** Tokens a program is made of, as opposed to spaces, comments and documentation *)
  Definition plain (k : kind) (w : text) : Prop :=
    spelled k w /\
    match k with
    | Space | Comment | Open | Close | Outer | Inner => False
    | Ident => ~ In w (map chars keywords)
    | _ => True
    end.
End Spelling.
(** Every token followed by a blank *)
Definition spaced (l : list (kind * text)) : text := flat_map (fun kw => snd kw ++ [32]) l.

(** * Numbers *)
(** The value of a digit in any radix up to 16, and of a row of digits *)
Fixpoint index (x : N) (t : text) : N := match t with [] => 0 | y :: t => if y =? x then 0 else 1 + index x t end.
Definition face (x : N) : N := if is "ABCDEF" x then index x (chars "0123456789ABCDEF") else index x (chars "0123456789abcdef").
Fixpoint positional (radix : N) (t : text) : N :=
  match t with [] => 0 | x :: t => face x * radix ^ N.of_nat (List.length t) + positional radix t end.
Definition without_underscores (t : text) : text := filter (fun x => negb (is "_" x)) t.
Definition width (n : text) : option N := match n with [] => None | _ => Some (positional 10 n) end.
Definition suffix (s : text) (k : literal_kind) : Prop :=
  match s with
  | [] => k = Unsized
  | m :: n => (is "uU" m = true /\ k = Unsigned (width n)) \/ (is "iI" m = true /\ k = Signed (width n))
  end.
Definition radix_of (k : kind) : option (N * text * (N -> bool)) :=
  match k with
  | Int => Some (10, [], digit)
  | Hex => Some (16, chars "0x", hex)
  | Oct => Some (8, chars "0o", oct)
  | Bin => Some (2, chars "0b", bin)
  | _ => None
  end.

(** * Comments *)
(** What follows a comment of which [/*] has been read, [d] more being open: comments nest,
    and what else is in them does not matter. *)
Fixpoint comment_end (d : nat) (t : text) : option text :=
  match t with
  | [] => None
  | a :: t1 =>
      match t1 with
      | [] => None
      | b :: t2 =>
          if (a =? 47) && (b =? 42) then comment_end (S d) t2
          else if (a =? 42) && (b =? 47) then match d with O => Some t2 | S d => comment_end d t2 end
          else comment_end d t1
      end
  end.
(** No quotes and no [//] *)
Fixpoint quiet (t : text) : bool :=
  match t with
  | [] => true
  | a :: t1 => negb (a =? quote1) && negb (a =? quote2) && negb ((a =? 47) && match t1 with b :: _ => b =? 47 | [] => false end) && quiet t1
  end.
(** After a character that starts no token, the lexer goes on with the next one. *)
Definition one_by_one (cl : classes) (more : text -> nat) : Prop :=
  forall c t, (forall k w, ~ spelled cl k (c :: w)) -> more (c :: t) = O.

(** * Bytes *)
(** What the text between the quotes [q] stands for *)
Inductive stands (q : N) : text -> list N -> Prop :=
| St_nil : stands q [] []
| St_escape c v t l : In (c, v) [(48, 0); (116, 9); (110, 10); (114, 13); (q, q)] -> stands q t l -> stands q (backslash :: c :: t) (v :: l)
| St_plain c t l : c < 128 -> c <> backslash -> c <> q -> stands q t l -> stands q (c :: t) (c :: l).

(** * The words and signs of the language, and its classes of characters *)
Definition words_of_the_language : list string :=
  ["fn"; "entity"; "pipeline"; "struct"; "enum"; "trait"; "impl"; "mod"; "use"; "as"; "type"; "where"; "pub"; "extern"; "unsafe"; "macro";
   "let"; "decl"; "mut"; "inv"; "wire"; "reg"; "reset"; "initial"; "stage"; "inst"; "set"; "assert"; "gen"; "if"; "else"; "match"; "for";
   "true"; "false"; "LOW"; "HIGH"; "HIGHIMP"]%string.
Definition signs_of_the_language : list string :=
  ["("; ")"; "["; "]"; "{"; "}"; ","; "."; ".."; ";"; ":"; "::"; "->"; "=>"; "="; "@"; "#"; "$"; "?"; "`"; "!"; "~";
   "+"; "-"; "*"; "/"; "%"; "&"; "|"; "^"; "&&"; "||"; "^^"; "=="; "!="; "<"; ">"; "<="; ">="; "<<"; ">>"; ">>>"; "+."; "-."; "*."; "<<."; ">>."]%string.
