(** From text to tokens: /repo/spade-ast/src/token.rs (the table of tokens, of which the
    library Logos 0.16 makes an automaton, and the reading of numbers) and
    /repo/spade-parser/src/lib.rs:437-545, 3146-3209 (character and string literals; comments).

    A text is a list of characters given by their code points.  The automaton of Logos is
    modelled by derivatives of the regular expressions: it takes the longest match, and
    between rules that match equally much the one with the higher priority, which the table
    below lists earlier.  What Logos leaves out after a character that starts no token is the
    parameter [more].  Spans are left out. *)
From Coq Require Import NArith List Bool Ascii String Arith.
Import ListNotations.
Open Scope N_scope.

Definition text : Type := list N.
Fixpoint chars (s : string) : text :=
  match s with EmptyString => [] | String a s => N_of_ascii a :: chars s end.

(** * Regular expressions *)
Inductive regex := Zero | One | Cls (f : N -> bool) | Seq (a b : regex) | Alt (a b : regex) | Star (a : regex).
Fixpoint nullable (r : regex) : bool :=
  match r with
  | Zero | Cls _ => false
  | One | Star _ => true
  | Seq a b => nullable a && nullable b
  | Alt a b => nullable a || nullable b
  end.
Definition seq (a b : regex) : regex := match a, b with Zero, _ | _, Zero => Zero | One, b => b | a, b => Seq a b end.
Definition alt (a b : regex) : regex := match a, b with Zero, b => b | a, Zero => a | a, b => Alt a b end.
Fixpoint deriv (c : N) (r : regex) : regex :=
  match r with
  | Zero | One => Zero
  | Cls f => if f c then One else Zero
  | Seq a b => if nullable a then alt (seq (deriv c a) b) (deriv c b) else seq (deriv c a) b
  | Alt a b => alt (deriv c a) (deriv c b)
  | Star a => seq (deriv c a) (Star a)
  end.

(** * Characters *)
(** The Unicode classes beyond ASCII: XID_Start, XID_Continue and \w.  The Greek question mark
    (U+037E) is in none of them. *)
Record classes := { xid_start : N -> bool; xid_continue : N -> bool; word : N -> bool }.
Definition is (c : string) (x : N) : bool := existsb (N.eqb x) (chars c).
Definition letter (x : N) : bool := ((65 <=? x) && (x <=? 90)) || ((97 <=? x) && (x <=? 122)).
Definition digit (x : N) : bool := (48 <=? x) && (x <=? 57).
Definition beyond (x : N) : bool := (127 <? x) && negb (x =? 894).
Definition hex (x : N) : bool := digit x || ((65 <=? x) && (x <=? 70)) || ((97 <=? x) && (x <=? 102)).
Definition oct (x : N) : bool := (48 <=? x) && (x <=? 55).
Definition bin (x : N) : bool := (48 <=? x) && (x <=? 49).
Definition first (cl : classes) (x : N) : bool := letter x || is "_" x || beyond x && xid_start cl x.
Definition further (cl : classes) (x : N) : bool := letter x || digit x || is "_" x || beyond x && xid_continue cl x.
Definition wordy (cl : classes) (x : N) : bool := letter x || digit x || is "_" x || beyond x && word cl x.
Definition quote1 : N := 39.
Definition quote2 : N := 34.
Definition newline : N := 10.
Definition backslash : N := 92.

(** * The table: token.rs:42-290 *)
Inductive kind :=
| Fixed (s : string)       (* keywords, operators, brackets: 63-247 *)
| Greek                    (* 245 *)
| Ident | Int | Hex | Oct | Bin | Label | LabelRef | Char | Bytes | Utf8 | Str
| Outer | Inner | Space | Comment | Open | Close.
Definition lit (s : string) : regex := fold_right (fun c r => Seq (Cls (N.eqb c)) r) One (chars s).
Definition opt (r : regex) : regex := Alt One r.
(** 50-65: digits, underscores, and a width *)
Definition number (dig dig' wid : N -> bool) : regex :=
  Seq (Cls dig) (Seq (Star (Cls dig')) (opt (Seq (Cls (is "uUiI")) (Star (Cls wid))))).
Definition quoted (q : N) : regex :=
  Seq (Star (Alt (Seq (Cls (N.eqb backslash)) (Cls (fun c => negb (c =? newline)))) (Cls (fun c => negb (c =? backslash) && negb (c =? q))))) (Cls (N.eqb q)).
Definition keywords : list string :=
  ["true"; "false"; "LOW"; "HIGH"; "HIGHIMP"; "reg"; "let"; "decl"; "inst"; "reset"; "initial"; "if"; "else"; "match"; "set";
   "pipeline"; "stage"; "entity"; "trait"; "impl"; "for"; "macro"; "fn"; "enum"; "struct"; "wire"; "mod"; "type"; "use"; "as";
   "assert"; "mut"; "inv"; "pub"; "where"; "gen"; "extern"; "unsafe"]%string.
Definition marks : list string :=
  ["+"; "-"; "*"; "/"; "%"; "=="; "!="; "<"; ">"; "<="; ">="; ">>>"; ">>"; "<<"; "+."; "-."; "*."; ">>."; "<<."; "||"; "&&"; "^^";
   "&"; "|"; "?"; "!"; "^"; "~"; "`"; "="; "("; ")"; "{"; "}"; "["; "]"; "=>"; "->"; "@"; ","; "."; ".."; ";"; ":"; "::"; "#"; "$"]%string.
Definition under (f : N -> bool) (x : N) : bool := f x || is "_" x.
Definition rules (cl : classes) : list (kind * regex) :=
  map (fun s => (Fixed s, lit s)) (keywords ++ marks) ++
  [(Open, lit "/*"); (Close, lit "*/"); (Greek, Cls (N.eqb 894)); (Space, Cls (fun c => existsb (N.eqb c) [32; 9; 10; 13]));
   (Ident, Seq (opt (lit "r#")) (Seq (Cls (first cl)) (Star (Cls (further cl)))));
   (Int, number digit (under digit) digit);
   (Hex, Seq (lit "0x") (number hex (under hex) digit));
   (Oct, Seq (lit "0o") (number oct (under oct) oct));
   (Bin, Seq (lit "0b") (number bin (under bin) digit));
   (Label, Seq (lit "'") (Seq (Cls (first cl)) (Star (Cls (further cl)))));
   (LabelRef, Seq (lit "@") (Seq (Cls (first cl)) (Star (Cls (further cl)))));
   (Char, Seq (lit "b'") (quoted quote1));
   (Bytes, Seq (lit "b""") (quoted quote2));
   (Utf8, Seq (lit "'") (Seq (Cls (wordy cl)) (lit "'")));
   (Str, Seq (lit """") (Seq (Star (Cls (fun c => negb (c =? quote2)))) (lit """")));
   (Outer, Seq (lit "///") (Star (Cls (fun c => negb (c =? newline)))));
   (Inner, Seq (lit "//!") (Star (Cls (fun c => negb (c =? newline)))));
   (Comment, Seq (lit "//") (Star (Cls (fun c => negb (c =? newline)))))].

(** * The automaton *)
Definition advance (c : N) (rs : list (kind * regex)) : list (kind * regex) :=
  filter (fun kr => match snd kr with Zero => false | _ => true end) (map (fun kr => (fst kr, deriv c (snd kr))) rs).
Fixpoint munch (rs : list (kind * regex)) (t : text) (n : nat) (best : option (kind * nat)) : option (kind * nat) :=
  let best := match find (fun kr => nullable (snd kr)) rs with Some kr => Some (fst kr, n) | None => best end in
  match t with
  | [] => best
  | c :: t => match advance c rs with [] => best | rs => munch rs t (S n) best end
  end.

(** One step of [lex.next()], with the whitespace Logos skips still there *)
Inductive step := End | Bad (rest : text) | Token (k : kind) (w rest : text).
Section Lexer.
  Variables (cl : classes) (more : text -> nat).
  Definition lex (t : text) : step :=
    match t with
    | [] => End
    | c :: t' =>
        match munch (rules cl) t 0 None with
        | Some (k, n) => Token k (firstn n t) (skipn n t)
        | None => Bad (skipn (more t) t')
        end
    end.

  (** * Comments: lib.rs:3146-3209 *)
  (** [Failed]: an error; the lexer stands before [rest].  [None]: no end within the fuel. *)
  Inductive next := Eof | Failed (rest : text) | Got (k : kind) (w rest : text).
  Fixpoint helper (fuel : nat) (t : text) {struct fuel} : option next :=
    match fuel with
    | O => None
    | S fuel =>
        match lex t with
        | End => Some Eof
        | Bad r => Some (Failed r)
        | Token Space _ r | Token Comment _ r => helper fuel r
        | Token Open _ r => inside fuel r
        | Token k w r => Some (Got k w r)
        end
    end
  with inside (fuel : nat) (t : text) {struct fuel} : option next :=
    match fuel with
    | O => None
    | S fuel =>
        match helper fuel t with
        | None => None
        | Some (Failed r) => inside fuel r
        | Some (Got Close _ r) => helper fuel r
        | Some Eof => Some (Failed [])
        | Some (Got _ _ r) => inside fuel r
        end
    end.
  Definition next_token (t : text) : option next := helper (2 * List.length t + 2) t.
  (** All tokens up to the end or the first error *)
  Fixpoint tokens (fuel : nat) (t : text) : option (list (kind * text) * bool) :=
    match fuel with
    | O => None
    | S fuel =>
        match next_token t with
        | None => None
        | Some Eof => Some ([], true)
        | Some (Failed _) => Some ([], false)
        | Some (Got k w r) => option_map (fun x => ((k, w) :: fst x, snd x)) (tokens fuel r)
        end
    end.
End Lexer.

(** * Numbers: token.rs:14-33 *)
Inductive literal_kind := Unsized | Signed (n : option N) | Unsigned (n : option N).
Definition lower (x : N) : N := if (65 <=? x) && (x <=? 90) then x + 32 else x.
Definition digit_value (radix x : N) : option N :=
  let v := if digit x then Some (x - 48) else if (97 <=? x) && (x <=? 122) then Some (x - 87) else None in
  match v with Some v => if v <? radix then Some v else None | None => None end.
Fixpoint digits (radix : N) (acc : N) (t : text) : option N :=
  match t with
  | [] => Some acc
  | x :: t => match digit_value radix x with Some v => digits radix (acc * radix + v) t | None => None end
  end.
(** [BigUint::parse_bytes]: nothing is no number *)
Definition parse_bytes (t : text) (radix : N) : option N := match t with [] => None | _ => digits radix 0 t end.
Fixpoint split_at (x : N) (t : text) : text * text :=
  match t with [] => ([], []) | y :: t => if y =? x then ([], t) else let p := split_at x t in (y :: fst p, snd p) end.
Definition until (x : N) (t : text) : text := fst (split_at x t).
(** [None]: the [unwrap] panics *)
Definition parse_int (slice : text) (radix : N) : option (N * literal_kind) :=
  let lowered := filter (fun x => negb (is "_" x)) (map lower slice) in
  let '(cleaned, k) :=
    if existsb (is "u") lowered then let p := split_at 117 lowered in (fst p, Unsigned (parse_bytes (until 117 (snd p)) 10))
    else if existsb (is "i") lowered then let p := split_at 105 lowered in (fst p, Signed (parse_bytes (until 105 (snd p)) 10))
    else (lowered, Unsized) in
  match parse_bytes cleaned radix with Some v => Some (v, k) | None => None end.
Definition number_of (k : kind) (w : text) : option (option (N * literal_kind)) :=
  match k with
  | Int => Some (parse_int w 10)
  | Hex => Some (parse_int (skipn 2 w) 16)
  | Oct => Some (parse_int (skipn 2 w) 8)
  | Bin => Some (parse_int (skipn 2 w) 2)
  | _ => None
  end.
(** 35-41, 250-254 *)
Definition name_of (k : kind) (w : text) : option text :=
  match k with
  | Ident => Some (match w with a :: b :: r => if (a =? 114) && (b =? 35) then r else w | _ => w end)
  | Label | LabelRef => Some (skipn 1 w)
  | _ => None
  end.

(** * Character and string literals: lib.rs:437-545, token.rs:256-259 *)
Definition escape (c delimiter : N) : option N :=
  if c =? 48 then Some 0 else if c =? 116 then Some 9 else if c =? 110 then Some 10 else if c =? 114 then Some 13
  else if c =? delimiter then Some delimiter else None.
(** [None]: an error *)
Fixpoint bytes_of (escaped : bool) (t : text) : option (list N) :=
  match t with
  | [] => Some []
  | c :: t =>
      if 127 <? c then None
      else if escaped then match escape c quote2 with Some v => option_map (cons v) (bytes_of false t) | None => None end
      else if c =? backslash then bytes_of true t
      else option_map (cons c) (bytes_of false t)
  end.
Definition inner (w : text) : text := firstn (List.length w - 3) (skipn 2 w).
Definition bytes_literal (w : text) : option (list N) := bytes_of false (inner w).
Definition char_literal (w : text) : option N :=
  match inner w with
  | [c] => if 127 <? c then None else Some c
  | [b; c] => if (127 <? b) || (127 <? c) then None else if b =? backslash then escape c quote1 else None
  | _ => None
  end.
