(** How the compiler reads the files it is given on its command line, or in a
    command file (spade-compiler/src/namespaced_file.rs, spade-compiler/src/main.rs).
    What the lexer makes of a text is a parameter: it is the subject of C60. *)
From Coq Require Import List Ascii String Arith.
Import ListNotations.

Definition text : Type := list ascii.
Definition comma : ascii := ","%char.

(** The tokens a path is read from (spade-parser/src/lexer.rs): an identifier, [::], any
    other token, and what is no token at all (lib.rs:3170-3173).  The end of
    the list is the end of the text.  Comments are skipped by the lexer's part of the parser
    (lib.rs:3150-3166) and are not in the list. *)
Inductive token := Ident (n : text) | Separator | Other | NoToken.

(** str::split(','), as namespaced_file.rs:19 uses it: never empty *)
Fixpoint split (t : text) : list text :=
  match t with
  | [] => [[]]
  | c :: t => if Ascii.eqb c comma then [] :: split t
              else match split t with p :: ps => (c :: p) :: ps | [] => [[c]] end
  end.

(** Parser::continue_path, spade-parser/src/lib.rs:225-244: the path so far, and the tokens
    not read.  The locations and the note of a trailing [::] are left out; [path] drops the
    latter (lib.rs:209-211). *)
Fixpoint continue_path (leading : list text) (l : list token) : option (list text * list token) :=
  match l with
  | NoToken :: _ => None
  | Separator :: r =>
      match r with
      | NoToken :: _ => None
      | Ident n :: r => continue_path (leading ++ [n]) r
      | _ => Some (leading, r)
      end
  | _ => Some (leading, l)
  end.

(** Parser::path, lib.rs:209-219, with Parser::identifier, lib.rs:198-206 *)
Definition path (l : list token) : option (list text * list token) :=
  match l with Ident n :: r => continue_path [n] r | _ => None end.

(** Parser::expect_eof, lib.rs:191-194 *)
Definition expect_eof (l : list token) : bool := match l with [] => true | _ => false end.

(** NamespacedFile, namespaced_file.rs:6-14 *)
Record file := { base_namespace : list text; namespace : list text; name : text }.

(** What namespaced_file says of a wrong argument (namespaced_file.rs:33-39, 43-49, 63-69,
    71-77, 87-89): the text quoted after "when parsing", or the number in "Got string with
    … commas".  What the parser's diagnostic adds is left out. *)
Inductive message := Parsing (quoted : text) | Commas (n : nat).
Inductive result (A : Type) := Ok (a : A) | Err (m : message).
Arguments Ok {A}. Arguments Err {A}.

Section Arg.
Variable lex : text -> list token.

(** namespaced_file.rs:28-52 and 54-80: the part read, and the part quoted if something is left
    behind the path.  The two blocks differ in the part they read. *)
Definition namespace_part (part quoted_behind : text) : result (list text) :=
  match part with
  | [] => Ok []
  | _ => match path (lex part) with
         | None => Err (Parsing part)
         | Some (p, r) => if expect_eof r then Ok p else Err (Parsing quoted_behind)
         end
  end.

(** namespaced_file, namespaced_file.rs:18-91.  The case of no parts does not arise, as str::split
    gives at least one. *)
Definition namespaced_file (arg : text) : result file :=
  match split arg with
  | [_] => Ok {| base_namespace := []; namespace := []; name := arg |}
  | [p0; p1; p2] =>
      match namespace_part p0 p1 with
      | Err m => Err m
      | Ok b => match namespace_part p1 p1 with
                | Err m => Err m
                | Ok n => Ok {| base_namespace := b; namespace := n; name := p2 |}
                end
      end
  | ps => Err (Commas (List.length ps))
  end.

(** main.rs:104-109: the files of a command file, the first wrong one being reported *)
Fixpoint file_list (l : list text) : result (list file) :=
  match l with
  | [] => Ok []
  | a :: l => match namespaced_file a with
              | Err m => Err m
              | Ok f => match file_list l with Err m => Err m | Ok fs => Ok (f :: fs) end
              end
  end.

(** main.rs:98-119: the files compiled, with a command file.  [None]: the list is empty, or
    an entry is wrong. *)
Definition infiles (l : list text) : option (list file) :=
  match file_list l with
  | Err _ => None
  | Ok [] => None
  | Ok (infile :: extra_files) => Some ([infile] ++ extra_files)
  end.
End Arg.
