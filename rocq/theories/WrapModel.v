(** The C++ classes through which test benches set inputs and read outputs:
    spade-mir/src/verilator_wrapper.rs, with spade-cxx/src/spade.rs:53-65.

    The generated text is modelled as the assignments and classes it consists of; C++, Verilator's
    ports and std::bitset by what they do.  Left out: the layout of the text, constructors, and which
    number a value stands for (EvalModel). *)
From Coq Require Import List NArith Arith Bool String.
Import ListNotations.
Open Scope nat_scope. Open Scope list_scope.

(** num-bigint's [to_u32_digits]: least significant first, none for zero *)
Fixpoint u32_digits (fuel : nat) (n : N) : list N :=
  match fuel with
  | 0 => []
  | S fuel => if (n =? 0)%N then [] else (n mod 2 ^ 32)%N :: u32_digits fuel (n / 2 ^ 32)%N
  end.
Definition to_u32_digits (n : N) : list N := u32_digits (N.to_nat (N.size n)) n.
(** spade-cxx/src/spade.rs:55-62, the number of words; exact as long as the width is exact in floating point *)
Definition word_count (w : nat) : nat := (w + 31) / 32.
(** spade-cxx/src/spade.rs:53-65 [as_u32_chunks]; [None] is the overflow of the subtraction, a panic *)
Definition as_u32_chunks (w : nat) (n : N) : option (list N) :=
  let digits := to_u32_digits n in
  if List.length digits <=? word_count w then Some (digits ++ repeat 0%N (word_count w - List.length digits)) else None.

(** A port of the verilated module: a number, or words if it has more than 64 bits *)
Inductive port := Scalar (n : N) | Words (l : list N).
(** verilator_wrapper.rs:108-126, the assignments of an input of [w] bits *)
Inductive assignment := Whole | Word (i : nat).
Definition input_code (w : nat) : list assignment :=
  if w =? 0 then []
  else if w <=? 64 then [Whole]
  else map Word (seq 0 (w / 32)) ++ (if negb (w mod 32 =? 0) then [Word (w / 32)] else []).
Fixpoint put (l : list N) (i : nat) (x : N) : option (list N) :=
  match l, i with
  | [], _ => None
  | _ :: l, 0 => Some (x :: l)
  | y :: l, S i => match put l i x with Some l => Some (y :: l) | None => None end
  end.
(** Running one; [None]: undefined in C++, or a panic *)
Definition run_assignment (w : nat) (n : N) (a : assignment) (p : port) : option port :=
  match a, p with
  | Whole, Scalar _ => if (n <? 2 ^ 64)%N then Some (Scalar n) else None
  | Word i, Words l =>
      match as_u32_chunks w n with
      | Some s => match nth_error s i with Some x => match put l i x with Some l => Some (Words l) | None => None end | None => None end
      | None => None
      end
  | _, _ => None
  end.
Fixpoint run_input (w : nat) (n : N) (l : list assignment) (p : port) : option port :=
  match l with [] => Some p | a :: l => match run_assignment w n a p with Some p => run_input w n l p | None => None end end.
(** Setting an input of [w] bits to the value with number [n] *)
Definition set_input (w : nat) (n : N) (p : port) : option port := run_input w n (input_code w) p.

(** verilator_wrapper.rs:216-248 [output_string_generator]: [std::bitset]s of so many bits, from the port or one of its words *)
Definition output_code (w : nat) : list (nat * option nat) :=
  if w =? 0 then []
  else if w <=? 64 then [(w, None)]
  else (if negb (w mod 32 =? 0) then [(w mod 32, Some (w / 32))] else []) ++ map (fun i => (32, Some i)) (rev (seq 0 (w / 32))).
(** A [std::bitset<k>] written to a stream: most significant first *)
Definition bitset (k : nat) (n : N) : list bool := map (fun i => N.testbit n (N.of_nat i)) (rev (seq 0 k)).
Definition run_bitset (c : nat * option nat) (p : port) : option (list bool) :=
  match snd c, p with
  | None, Scalar n => Some (bitset (fst c) n)
  | Some i, Words l => match nth_error l i with Some x => Some (bitset (fst c) x) | None => None end
  | _, _ => None
  end.
Fixpoint run_output (l : list (nat * option nat)) (p : port) : option (list bool) :=
  match l with
  | [] => Some []
  | c :: l => match run_bitset c p, run_output l p with Some a, Some b => Some (a ++ b) | _, _ => None end
  end.
Definition output_string (w : nat) (p : port) : option (list bool) := run_output (output_code w) p.

(** ** Classes *)
(** spade-mir/src/types.rs [Type]: a struct with its fields, or anything else by its size *)
Inductive ty := Other (size : N) | Struct (fields : list (string * ty)).
Fixpoint size (t : ty) : N :=
  match t with Other n => n | Struct l => fold_right (fun f s => (size (snd f) + s)%N) 0%N l end.
(** A class: its name, the path of the field it reads, and its members with their classes *)
Record class := Class { name : string; path : list string; members : list (string * string) }.
(** verilator_wrapper.rs:12-94 [output_wrappers] *)
Fixpoint output_wrappers (p : list string) (cls : string) (t : ty) : list class :=
  if (size t =? 0)%N then []
  else
    match t with
    | Other _ => [Class cls p []]
    | Struct l =>
        (fix go (l : list (string * ty)) : list class := match l with [] => [] | (n, t) :: l => output_wrappers (p ++ [n]) (cls ++ "_" ++ n)%string t ++ go l end) l
        ++ [Class cls p (map (fun f => (fst f, (cls ++ "_" ++ fst f)%string)) l)]
    end.
