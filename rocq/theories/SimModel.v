(** Fields of ports in the simulation API.
    Source: spade-simulation-ext/src/lib.rs, range.rs, field_ref.rs and
    spade-python/python/spade/__init__.py.

    Simplifications: u64 and BigUint are [nat]; the type of a field is its concrete
    type; the cache of results is left out. *)
From Coq Require Import String List Arith Bool.
From Verif Require Import Bits CodegenModel ConcModel.
Import ListNotations.
Local Open Scope list_scope.

(** range.rs:9-15 *)
Record range := mkRange { r_from : nat; r_to : nat; r_full : bool }.
(** range.rs:19-24 [as_downto] *)
Definition as_downto (r : range) (size : nat) : nat * nat := (size - r_to r, size - r_from r).

(** field_ref.rs:41-62, without path and source *)
Record field_ref := mkRef { f_fwd : option range; f_back : option range; f_ty : cty }.

(** what a call does: a result, an error, or a panic *)
Inductive outcome (A : Type) := Found (a : A) | NoSuchField | Crash.
Arguments Found {A}. Arguments NoSuchField {A}. Arguments Crash {A}.

(** lib.rs:1005-1015 *)
Fixpoint concrete_ty_has_field (t : cty) (field : string) : bool :=
  match t with
  | CStruct members => existsb (fun p => (fst p =? field)%string) members
  | CBackward inner => concrete_ty_has_field inner field
  | _ => false
  end.

(** lib.rs:556-562: the bits before the field, and the size of the field *)
Fixpoint locate (size_fn : cty -> nat) (members : list (string * cty)) (next : string) (start : nat) : nat * nat :=
  match members with
  | [] => (start, 0)
  | (f, t) :: rest =>
      if (f =? next)%string then (start, size_fn t) else locate size_fn rest next (start + size_fn t)
  end.
(** lib.rs:549-590 [get_range] *)
Definition get_range (size_fn : cty -> nat) (members : list (string * cty)) (next : string) (outer : option range)
    : option range :=
  match outer with
  | None => None
  | Some outer =>
      let '(start_in_outer, self_size) := locate size_fn members next 0 in
      let start := r_from outer + start_in_outer in
      let end_ := start + self_size in
      let full := r_full outer && (r_from outer =? start) && (r_to outer =? end_) in
      if self_size =? 0 then None else Some (mkRange start end_ full)
  end.

Definition fwd_size (t : cty) : nat := size (to_mir_type t).
Definition back_size (t : cty) : nat := backward_size (to_mir_type t).

(** spade-types/src/lib.rs:65-74 [assume_struct]; [None] is the [unreachable!] *)
Definition assume_struct (t : cty) : option (list (string * cty)) :=
  match t with CStruct ms => Some ms | _ => None end.

(** lib.rs:420-634 [field_of_field].  The type of the field is that of the member
    (the requirement solved in between is that the struct has the field). *)
Definition field_of_field (fr : field_ref) (next : string) : outcome field_ref :=
  if negb (concrete_ty_has_field (f_ty fr) next) then NoSuchField
  else
    match assume_struct (f_ty fr) with
    | None => Crash
    | Some members =>
        match find (fun p => (fst p =? next)%string) members with
        | None => Crash
        | Some (_, t) =>
            Found (mkRef (get_range fwd_size members next (f_fwd fr)) (get_range back_size members next (f_back fr)) t)
        end
    end.

(** lib.rs:383-417 [output_as_field_ref] and 672-697 [arg_as_field] *)
Definition whole_range (n : nat) : option range := if n =? 0 then None else Some (mkRange 0 n true).
Definition whole (t : cty) : field_ref := mkRef (whole_range (fwd_size t)) (whole_range (back_size t)) t.

(** lib.rs:637-651 [output_field]: the path, one field after the other *)
Fixpoint fields (fr : field_ref) (path : list string) : outcome field_ref :=
  match path with
  | [] => Found fr
  | f :: rest =>
      match field_of_field fr f with
      | Found fr' => fields fr' rest
      | NoSuchField => NoSuchField
      | Crash => Crash
      end
  end.

(** lib.rs:728-729, [extract_field_read_bits]: from the text of the signal, which has
    its most significant bit first *)
Definition read_range (text : list bit) (r : range) : list bit := firstn (r_to r - r_from r) (skipn (r_from r) text).

(** __init__.py:122-139 [set_value__]: [signal[idx]] and [bits[i]] count from the least
    significant bit *)
Fixpoint set_bits (signal : bits) (lo : nat) (b : bits) : bits :=
  match signal, lo, b with
  | [], _, _ => []
  | s :: signal', 0, x :: b' => x :: set_bits signal' 0 b'
  | _, 0, [] => signal
  | s :: signal', S lo', _ => s :: set_bits signal' lo' b
  end.
Definition write_range (signal : bits) (r : range) (b : bits) : bits :=
  if r_full r then b
  else let '(lo, hi) := as_downto r (List.length signal) in set_bits signal lo (firstn (hi - lo) b).

(** ** A session of requests.
    [ss_owned]: whether the compiler state is there ([OwnedState] is taken out at the
    start of a request and put back at its end); [ss_cache]: the [field_cache], from
    the path of a field, which starts with "o" or "i", to the field. *)
Record session := mkSession { ss_owned : bool; ss_cache : list (list string * field_ref) }.
(** lib.rs:260-271: a new session *)
Definition new_session : session := mkSession true [].
Fixpoint path_eqb (a b : list string) : bool :=
  match a, b with
  | [], [] => true
  | x :: a, y :: b => (x =? y)%string && path_eqb a b
  | _, _ => false
  end.
Definition cached (s : session) (p : list string) : option field_ref :=
  option_map snd (find (fun e => path_eqb (fst e) p) (ss_cache s)).
Definition remember (s : session) (p : list string) (f : field_ref) : session :=
  mkSession (ss_owned s) ((p, f) :: ss_cache s).

(** lib.rs:343-417 [output_as_field_ref] and 653-707 [arg_as_field] for a port that
    exists: [root] is the path of the port. *)
Definition port_field (s : session) (root : list string) (t : cty) : outcome field_ref * session :=
  match cached s root with
  | Some f => (Found f, s)
  | None => if ss_owned s then (Found (whole t), remember s root (whole t)) else (Crash, s)
  end.
(** lib.rs:419-635 [field_of_field] with the cache and the state: the state is taken
    out at 428 and put back at 608, but not on the way out at 445-450. *)
Definition session_field (s : session) (path : list string) (fr : field_ref) (next : string) : outcome field_ref * session :=
  match cached s (path ++ [next]) with
  | Some f => (Found f, s)
  | None =>
      if ss_owned s then
        match field_of_field fr next with
        | Found f => (Found f, remember s (path ++ [next]) f)
        | NoSuchField => (NoSuchField, mkSession false (ss_cache s))
        | Crash => (Crash, mkSession false (ss_cache s))
        end
      else (Crash, s)
  end.
Fixpoint session_fields (s : session) (path : list string) (fr : field_ref) (rest : list string)
    : outcome field_ref * session :=
  match rest with
  | [] => (Found fr, s)
  | f :: rest =>
      match session_field s path fr f with
      | (Found fr', s') => session_fields s' (path ++ [f]) fr' rest
      | r => r
      end
  end.
(** A request: a port, given by its path, and the path from there. *)
Definition request (ports : list string -> option cty) (s : session) (q : list string * list string)
    : outcome field_ref * session :=
  match ports (fst q) with
  | None => (NoSuchField, s)
  | Some t =>
      match port_field s (fst q) t with
      | (Found fr, s') => session_fields s' (fst q) fr (snd q)
      | r => r
      end
  end.
Fixpoint requests (ports : list string -> option cty) (s : session) (qs : list (list string * list string))
    : list (outcome field_ref) :=
  match qs with
  | [] => []
  | q :: qs => let r := request ports s q in fst r :: requests ports (snd r) qs
  end.
(** lib.rs:383, 654: the output is at "o", the argument [a] at "i", "a" *)
Definition unit_ports (output : option cty) (args : list (string * cty)) (root : list string) : option cty :=
  match root with
  | [r] => if (r =? "o")%string then output else None
  | [r; a] => if (r =? "i")%string then option_map snd (find (fun p => (fst p =? a)%string) args) else None
  | _ => None
  end.
