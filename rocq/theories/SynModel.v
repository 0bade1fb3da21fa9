(** Types, patterns and the heads of units, from tokens:
    /repo/spade-parser/src/lib.rs 198-290, 870-930, 1169-1490, 1625-1840, 1877-2005, 2795-2905
    and 3019-3140.

    The tokens are those of the lexer (C60) except that an expression in braces and an
    attribute are one token each: what is inside is not read here (expressions: C37).
    The one token of look-ahead ([peeked]) is the head of the list; the token left by splitting
    [>>] is put back there.  Locations, error messages and the recovery from errors are left
    out.  [where] clauses are left out of the heads of units. *)
From Coq Require Import NArith ZArith List Bool String Arith.
From Verif Require Import LexModel.
Import ListNotations.
Open Scope string_scope.
Open Scope list_scope.
Open Scope nat_scope.

Inductive tok :=
| Id (s : string)
| Num (v : N) (k : literal_kind)
| Text (s : string)
| Chr (v : option N)     (* [None]: not one ASCII character (C60) *)
| Uni                    (* a character without b *)
| Braced (x : nat)       (* an expression in braces *)
| Attr (a : nat)         (* an attribute *)
| Sg (s : string).       (* keywords and signs *)

(** [Fuel]: the bound on nested calls was reached *)
Inductive res (A : Type) := Got (a : A) (rest : list tok) | Err | Fuel.
Arguments Got {A}. Arguments Err {A}. Arguments Fuel {A}.
Definition bind {A B} (x : res A) (k : A -> list tok -> res B) : res B :=
  match x with Got a r => k a r | Err => Err | Fuel => Fuel end.
Definition then_ {A B} (f : A -> B) (x : res A) : res B := bind x (fun a r => Got (f a) r).

(** 3119-3131 [peek_kind] *)
Definition peek_kind (k : string) (ts : list tok) : bool :=
  match ts with
  | Sg s :: _ => (s =? k)%string || ((k =? ">")%string && ((s =? ">>")%string || (s =? ">>>")%string))
  | Braced _ :: _ => (k =? "{")%string
  | _ => false
  end.
(** 3019-3057 [eat] *)
Definition eat (k : string) (ts : list tok) : option (list tok) :=
  match ts with
  | Sg s :: r =>
      if (s =? k)%string then Some r
      else if (k =? ">")%string && (s =? ">>")%string then Some (Sg ">" :: r)
      else if (k =? ">")%string && (s =? ">>>")%string then Some (Sg ">>" :: r)
      else None
  | _ => None
  end.
(** 3095-3103 [peek_and_eat] *)
Definition accept (k : string) (ts : list tok) : option (list tok) := if peek_kind k ts then eat k ts else None.
Definition expect {A} (k : string) (a : A) (ts : list tok) : res A := match eat k ts with Some r => Got a r | None => Err end.
Definition ended (ends : list string) (ts : list tok) : bool := existsb (fun m => peek_kind m ts) ends.

(** 2848-2904 [token_separated]; 2833-2843 [comma_separated] *)
Fixpoint p_list {A} (fuel : nat) (p : list tok -> res A) (sep : string) (ends : list string) (ts : list tok) : res (list A) :=
  match fuel with
  | O => Fuel
  | S fuel =>
      if ended ends ts then Got [] ts
      else bind (p ts) (fun a r =>
        if ended ends r then Got [a] r
        else if peek_kind sep r then then_ (cons a) (p_list fuel p sep ends (tl r))
        else Err)
  end.

(** 198-207 [identifier], 209-245 [path]: a [::] at the end is taken *)
Definition identifier (ts : list tok) : res string := match ts with Id s :: r => Got s r | _ => Err end.
Fixpoint continue_path (ts : list tok) : list string * list tok :=
  match ts with
  | Sg s :: r =>
      if (s =? "::")%string then
        match r with
        | Id n :: r' => let x := continue_path r' in (n :: fst x, snd x)
        | _ => ([], r)
        end
      else ([], ts)
  | _ => ([], ts)
  end.
Definition path : Type := string * list string.
Definition p_path (ts : list tok) : res path :=
  bind (identifier ts) (fun s r => let x := continue_path r in Got (s, fst x) (snd x)).

(** 870-921 [int_literal]; 923-932 [bool_literal] *)
Inductive int_lit := LUnsized (z : Z) | LSigned (z : Z) (n : option N) | LUnsigned (v : N) (n : option N).
Definition literal_of (minus : bool) (v : N) (k : literal_kind) : int_lit :=
  let z := if minus then Z.opp (Z.of_N v) else Z.of_N v in
  match k with
  | Signed n => LSigned z n
  | Unsized => LUnsized z
  | Unsigned n => LUnsigned v n
  end.
Definition int_literal (ts : list tok) : res (option int_lit) :=
  match ts with
  | Num v k :: r => Got (Some (literal_of false v k)) r
  | Sg s :: r =>
      if (s =? "+")%string || (s =? "-")%string then
        match r with Num v k :: r => Got (Some (literal_of (s =? "-")%string v k)) r | _ => Err end
      else Got None ts
  | _ => Got None ts
  end.
(** spade-ast/src/lib.rs [IntLiteral::as_signed] *)
Definition as_signed (l : int_lit) : Z := match l with LUnsized z | LSigned z _ => z | LUnsigned v _ => Z.of_N v end.

(** * Types: 1169-1353, 1785-1840 *)
Inductive ty :=
| YBool (b : bool) | YInt (z : Z) | YStr (s : string) | YConst (x : nat)
| YInv (t : ty) | YView (t : ty) | YImpl (l : list trait)
| YTup (l : list ty) | YArr (t n : ty) | YWild | YNamed (p : path) (g : option (list ty))
with trait := Trait (p : path) (g : option (list ty)) (paren : bool).

Definition is_wild (p : path) : bool := match p with (s, []) => (s =? "_")%string | _ => false end.
(** 1298-1318 [tuple_spec], after the parenthesis *)
Definition tuple_of (fuel : nat) (p : list tok -> res ty) (r : list tok) : res ty :=
  match accept "," r with
  | Some r => expect ")" (YTup []) r
  | None => bind (p_list fuel p "," [")"] r) (fun l r => expect ")" (YTup l) r)
  end.
(** 1785-1800 [generic_spec_list] *)
Definition generics_of (fuel : nat) (p : list tok -> res ty) (ts : list tok) : res (option (list ty)) :=
  if peek_kind "<" ts then bind (p_list fuel p "," [">"] (tl ts)) (fun l r => expect ">" (Some l) r) else Got None ts.
Definition listed_types (g : option (list ty)) : list ty := match g with Some l => l | None => [] end.

Fixpoint p_texp (fuel : nat) (ts : list tok) {struct fuel} : res ty :=
  match fuel with
  | O => Fuel
  | S fuel =>
      match accept "true" ts with Some r => Got (YBool true) r | None =>
      match accept "false" ts with Some r => Got (YBool false) r | None =>
      bind (int_literal ts) (fun i r =>
        match i with
        | Some l => Got (YInt (as_signed l)) r
        | None =>
            match ts with
            | Text s :: r => Got (YStr s) r
            | Braced x :: r => Got (YConst x) r
            | _ => p_spec fuel false ts
            end
        end)
      end end
  end
with p_spec (fuel : nat) (impl_ok : bool) (ts : list tok) {struct fuel} : res ty :=
  match fuel with
  | O => Fuel
  | S fuel =>
      match accept "inv" ts with Some r => then_ YInv (p_texp fuel r) | None =>
      match accept "~" ts with Some _ => Err | None =>
      match accept "&" ts with
      | Some r => match accept "mut" r with Some _ => Err | None => then_ YView (p_texp fuel r) end
      | None =>
      match accept "&&" ts with Some r => then_ (fun t => YView (YView t)) (p_texp fuel r) | None =>
      match accept "impl" ts with
      | Some r =>
          bind (p_list fuel (p_trait fuel) "+" ["="; ","; "}"; ")"; ">"; "{"] r) (fun l r =>
          if impl_ok then Got (YImpl l) r else Err)
      | None =>
      match accept "(" ts with Some r => tuple_of fuel (p_texp fuel) r | None =>
      match accept "[" ts with
      | Some r =>
          bind (p_texp fuel r) (fun t r =>
          match accept "]" r with
          | Some _ => Err
          | None => bind (expect ";" tt r) (fun _ r => bind (p_texp fuel r) (fun n r => expect "]" (YArr t n) r))
          end)
      | None =>
          bind (p_path ts) (fun p r =>
          if is_wild p then Got YWild r else then_ (YNamed p) (generics_of fuel (p_texp fuel) r))
      end end end end end end end
  end
with p_trait (fuel : nat) (ts : list tok) {struct fuel} : res trait :=
  match fuel with
  | O => Fuel
  | S fuel =>
      bind (p_path ts) (fun p r =>
      bind (generics_of fuel (p_texp fuel) r) (fun g r =>
      match accept "(" r with
      | Some r =>
          bind (tuple_of fuel (p_texp fuel) r) (fun t r =>
          match accept "->" r with
          | Some r => bind (p_texp fuel r) (fun o r => Got (Trait p (Some (listed_types g ++ [t; o])) true) r)
          | None => Got (Trait p (Some (listed_types g ++ [t; YTup []])) true) r
          end)
      | None => Got (Trait p g false) r
      end))
  end.

(** * Type parameters: 1716-1783 *)
Inductive type_param := PName (s : string) (bounds : list trait) (d : option ty) | PMeta (meta s : string) (d : option ty).
Definition p_default (fuel : nat) (ts : list tok) : res (option ty) :=
  match accept "=" ts with Some r => then_ Some (p_texp fuel r) | None => Got None ts end.
Definition p_param (fuel : nat) (ts : list tok) : res type_param :=
  match accept "#" ts with
  | Some r => bind (identifier r) (fun m r => bind (identifier r) (fun s r => then_ (PMeta m s) (p_default fuel r)))
  | None =>
      bind (identifier ts) (fun s r =>
      bind (match accept ":" r with Some r => p_list fuel (p_trait fuel) "+" ["="; ","; ">"] r | None => Got [] r end) (fun l r =>
      then_ (PName s l) (p_default fuel r)))
  end.
Definition p_params (fuel : nat) (ts : list tok) : res (option (list type_param)) :=
  if peek_kind "<" ts then bind (p_list fuel (p_param fuel) "," [">"] (tl ts)) (fun l r => expect ">" (Some l) r) else Got None ts.

(** * Patterns: 1363-1487, 508-557 *)
Inductive pat :=
| ATup (l : list pat) | AArr (l : list pat) | AInt (i : int_lit) | ABool (b : bool)
| ABound (s : string) (p : pat) | APos (n : path) (l : list pat) | ANamed (n : path) (l : list (string * option pat))
| APath (wire : bool) (n : path).
Definition p_field (p : list tok -> res pat) (ts : list tok) : res (string * option pat) :=
  bind (identifier ts) (fun s r => match accept ":" r with Some r => then_ (fun a => (s, Some a)) (p r) | None => Got (s, None) r end).
Fixpoint p_pat (fuel : nat) (ts : list tok) : res pat :=
  match fuel with
  | O => Fuel
  | S fuel =>
      match accept "(" ts with Some r => bind (p_list fuel (p_pat fuel) "," [")"] r) (fun l r => expect ")" (ATup l) r) | None =>
      match accept "[" ts with Some r => bind (p_list fuel (p_pat fuel) "," ["]"] r) (fun l r => expect "]" (AArr l) r) | None =>
      bind (int_literal ts) (fun i r =>
      match i with Some l => Got (AInt l) r | None =>
      match accept "true" ts with Some r => Got (ABool true) r | None =>
      match accept "false" ts with Some r => Got (ABool false) r | None =>
      match ts with
      | Uni :: _ | Chr None :: _ => Err
      | Chr (Some v) :: r => Got (AInt (LUnsigned v (Some 8%N))) r
      | _ =>
      match accept "wire" ts with Some r => then_ (APath true) (p_path r) | None =>
      bind (p_path ts) (fun n r =>
        if match snd n with [] => peek_kind "@" r | _ => false end then then_ (ABound (fst n)) (p_pat fuel (tl r))
        else match accept "(" r with
        | Some r => bind (p_list fuel (p_pat fuel) "," [")"] r) (fun l r => expect ")" (APos n l) r)
        | None =>
        match accept "$" r with
        | Some r => bind (expect "(" tt r) (fun _ r => bind (p_list fuel (p_field (p_pat fuel)) "," [")"] r) (fun l r => expect ")" (ANamed n l) r))
        | None => Got (APath false n) r
        end end)
      end end end end end) end end
  end.

(** * use: 247-289 *)
Fixpoint p_use (fuel : nat) (prefix : list string) (ts : list tok) : res (list (list string * option string)) :=
  match fuel with
  | O => Fuel
  | S fuel =>
      match ts with
      | Id s :: r =>
          let prefix := prefix ++ [s] in
          match accept "as" r with
          | Some r => bind (identifier r) (fun a r => Got [(prefix, Some a)] r)
          | None => match accept "::" r with Some r => p_use fuel prefix r | None => Got [(prefix, None)] r end
          end
      | _ =>
          match accept "{" ts with
          | Some r =>
              bind (p_list fuel (p_use fuel []) "," ["}"] r) (fun l r =>
              expect "}" (map (fun x => (prefix ++ fst x, snd x)) (List.concat l)) r)
          | None => Err
          end
      end
  end.

(** * Heads of units: 1625-1705, 1877-1905, 1952-2018 *)
Fixpoint attributes (ts : list tok) : list nat * list tok :=
  match ts with Attr a :: r => let x := attributes r in (a :: fst x, snd x) | _ => ([], ts) end.
Definition wire_ (ts : list tok) : bool * list tok := match accept "wire" ts with Some r => (true, r) | None => (false, ts) end.
Record input := { i_attrs : list nat; i_wire : bool; i_name : string; i_type : ty }.
Definition p_input (fuel : nat) (impl_ok : bool) (ts : list tok) : res input :=
  let a := attributes ts in
  let w := wire_ (snd a) in
  bind (identifier (snd w)) (fun s r =>
  bind (expect ":" tt r) (fun _ r =>
  then_ (fun t => {| i_attrs := fst a; i_wire := fst w; i_name := s; i_type := t |}) (p_spec fuel impl_ok r))).
(** [self]: its attributes, [wire] and [&] *)
Record inputs := { in_self : option (list nat * bool * bool); in_args : list input }.
Definition p_inputs (fuel : nat) (impl_ok : bool) (ts : list tok) : res inputs :=
  let a := attributes ts in
  let w := wire_ (snd a) in
  let amp := accept "&" (snd w) in
  let r := match amp with Some r => r | None => snd w end in
  let here := match r with Id s :: _ => (s =? "self")%string | _ => false end in
  if here then
    let r := tl r in
    let r := match accept "," r with Some r => r | None => r end in
    then_ (fun l => {| in_self := Some (fst a, fst w, match amp with Some _ => true | None => false end); in_args := l |})
      (p_list fuel (p_input fuel impl_ok) "," [")"] r)
  else
    match amp with
    | Some _ => Err
    | None =>
        bind (p_list fuel (p_input fuel impl_ok) "," [")"] r) (fun l r =>
        match l with
        | [] => if match fst a with [] => fst w | _ => true end then Err else Got {| in_self := None; in_args := [] |} r
        | i :: l =>
            let i := match fst a with [] => i | l => {| i_attrs := l; i_wire := i_wire i; i_name := i_name i; i_type := i_type i |} end in
            let i := if fst w then {| i_attrs := i_attrs i; i_wire := true; i_name := i_name i; i_type := i_type i |} else i in
            Got {| in_self := None; in_args := i :: l |} r
        end)
    end.
Inductive unit_kind := UFn | UEntity | UPipeline (depth : ty).
Record head := { h_unsafe : bool; h_extern : bool; h_kind : unit_kind; h_name : string; h_params : option (list type_param); h_inputs : inputs; h_output : option ty }.
Definition p_kind (fuel : nat) (ts : list tok) : res unit_kind :=
  match accept "pipeline" ts with
  | Some r => bind (expect "(" tt r) (fun _ r => bind (p_texp fuel r) (fun d r => expect ")" (UPipeline d) r))
  | None => match accept "fn" ts with Some r => Got UFn r | None => match accept "entity" ts with Some r => Got UEntity r | None => Err end end
  end.
Definition flag (k : string) (ts : list tok) : bool * list tok := match accept k ts with Some r => (true, r) | None => (false, ts) end.
(** [Err] also stands for [Ok(None)], when no unit starts here *)
Definition p_head (fuel : nat) (ts : list tok) : res head :=
  let u := flag "unsafe" ts in
  let e := flag "extern" (snd u) in
  bind (p_kind fuel (snd e)) (fun k r =>
  bind (identifier r) (fun s r =>
  bind (p_params fuel r) (fun g r =>
  bind (expect "(" tt r) (fun _ r =>
  bind (p_inputs fuel true r) (fun i r =>
  bind (expect ")" tt r) (fun _ r =>
  bind (match accept "->" r with Some r => then_ Some (p_spec fuel false r) | None => Got None r end) (fun o r =>
  Got {| h_unsafe := fst u; h_extern := fst e; h_kind := k; h_name := s; h_params := g; h_inputs := i; h_output := o |} r))))))).

(** Enough fuel: see C61_terminates *)
Definition enough (ts : list tok) : nat := 12 * List.length ts + 12.
