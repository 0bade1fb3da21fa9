(** The grammar of types, patterns, [use] and the heads of units (C61).

    A derivation relates a sequence of tokens to what it stands for.  With [lax] the grammar
    also has the spellings the parser tolerates: a [::] after a path, [impl] without traits,
    [self] without a comma after it, a second [wire] or attributes after it, and attributes or
    [wire] before the first input twice. *)
From Coq Require Import NArith ZArith List Bool String.
From Verif Require Import LexModel SynModel.
Import ListNotations.
Open Scope string_scope.
Open Scope list_scope.

(** [>>] stands for two [>], [>>>] for three, [&&] for two [&]. *)
Definition parts (t : tok) : list tok :=
  match t with
  | Sg s => if (s =? ">>")%string then [Sg ">"; Sg ">"] else if (s =? ">>>")%string then [Sg ">"; Sg ">"; Sg ">"]
            else if (s =? "&&")%string then [Sg "&"; Sg "&"] else [t]
  | _ => [t]
  end.
Definition expand (ts : list tok) : list tok := flat_map parts ts.

Section Grammar.
  Variable lax : bool.

  (** * Names and literals *)
  Inductive g_more : list tok -> list string -> Prop :=
  | M_end : g_more [] []
  | M_trail : lax = true -> g_more [Sg "::"] []
  | M_next s ts l : g_more ts l -> g_more (Sg "::" :: Id s :: ts) (s :: l).
  Inductive g_path : list tok -> path -> Prop :=
  | G_path s ts l : g_more ts l -> g_path (Id s :: ts) (s, l).
  (** The sign of a number that is said to be unsigned does not count. *)
  Definition signed_as (z : Z) (k : literal_kind) : int_lit :=
    match k with Unsized => LUnsized z | Signed n => LSigned z n | Unsigned n => LUnsigned (Z.to_N (Z.abs z)) n end.
  Inductive g_int : list tok -> int_lit -> Prop :=
  | I_plain v k : g_int [Num v k] (signed_as (Z.of_N v) k)
  | I_plus v k : g_int [Sg "+"; Num v k] (signed_as (Z.of_N v) k)
  | I_minus v k : g_int [Sg "-"; Num v k] (signed_as (- Z.of_N v) k).
  Definition value (l : int_lit) : Z := match l with LUnsized z => z | LSigned z _ => z | LUnsigned v _ => Z.of_N v end.

  (** * Types *)
  Inductive g_texp : list tok -> ty -> Prop :=
  | T_true : g_texp [Sg "true"] (YBool true)
  | T_false : g_texp [Sg "false"] (YBool false)
  | T_int ts l : g_int ts l -> g_texp ts (YInt (value l))
  | T_str s : g_texp [Text s] (YStr s)
  | T_const x : g_texp [Braced x] (YConst x)
  | T_spec ts t : g_spec false ts t -> g_texp ts t
  with g_spec : bool -> list tok -> ty -> Prop :=
  | T_inv b ts t : g_texp ts t -> g_spec b (Sg "inv" :: ts) (YInv t)
  | T_view b ts t : g_texp ts t -> g_spec b (Sg "&" :: ts) (YView t)
  | T_impl ts l : g_traits ts l -> lax = true \/ l <> [] -> g_spec true (Sg "impl" :: ts) (YImpl l)
  | T_tuple b ts l : g_texps ts l -> g_spec b (Sg "(" :: ts ++ [Sg ")"]) (YTup l)
  | T_unit b : g_spec b [Sg "("; Sg ","; Sg ")"] (YTup [])
  | T_array b ts t us n : g_texp ts t -> g_texp us n -> g_spec b (Sg "[" :: ts ++ Sg ";" :: us ++ [Sg "]"]) (YArr t n)
  | T_wild b ts : g_path ts ("_", []) -> g_spec b ts YWild
  | T_named b ts p us g : g_path ts p -> p <> ("_", []) -> g_args us g -> g_spec b (ts ++ us) (YNamed p g)
  with g_args : list tok -> option (list ty) -> Prop :=
  | A_none : g_args [] None
  | A_some ts l : g_texps ts l -> g_args (Sg "<" :: ts ++ [Sg ">"]) (Some l)
  with g_texps : list tok -> list ty -> Prop :=
  | L_nil : g_texps [] []
  | L_one ts t : g_texp ts t -> g_texps ts [t]
  | L_more ts t us l : g_texp ts t -> g_texps us l -> g_texps (ts ++ Sg "," :: us) (t :: l)
  (** [Tr<A>(B, C) -> D] stands for [Tr<A, (B, C), D>]. *)
  with g_trait : list tok -> trait -> Prop :=
  | R_plain ts p us g : g_path ts p -> g_args us g -> g_trait (ts ++ us) (Trait p g false)
  | R_paren ts p us g vs l : g_path ts p -> g_args us g -> g_spec false (Sg "(" :: vs) (YTup l) ->
      g_trait (ts ++ us ++ Sg "(" :: vs) (Trait p (Some (listed_types g ++ [YTup l; YTup []])) true)
  | R_arrow ts p us g vs l ws o : g_path ts p -> g_args us g -> g_spec false (Sg "(" :: vs) (YTup l) -> g_texp ws o ->
      g_trait (ts ++ us ++ Sg "(" :: vs ++ Sg "->" :: ws) (Trait p (Some (listed_types g ++ [YTup l; o])) true)
  with g_traits : list tok -> list trait -> Prop :=
  | B_nil : g_traits [] []
  | B_one ts t : g_trait ts t -> g_traits ts [t]
  | B_more ts t us l : g_trait ts t -> g_traits us l -> g_traits (ts ++ Sg "+" :: us) (t :: l).

  (** * Type parameters *)
  Inductive g_default : list tok -> option ty -> Prop :=
  | D_none : g_default [] None
  | D_some ts t : g_texp ts t -> g_default (Sg "=" :: ts) (Some t).
  Inductive g_param : list tok -> type_param -> Prop :=
  | Q_name s us d : g_default us d -> g_param (Id s :: us) (PName s [] d)
  | Q_bounds s ts l us d : g_traits ts l -> g_default us d -> g_param (Id s :: Sg ":" :: ts ++ us) (PName s l d)
  | Q_meta m s us d : g_default us d -> g_param (Sg "#" :: Id m :: Id s :: us) (PMeta m s d).
  Inductive g_plist : list tok -> list type_param -> Prop :=
  | QL_nil : g_plist [] []
  | QL_one ts t : g_param ts t -> g_plist ts [t]
  | QL_more ts t us l : g_param ts t -> g_plist us l -> g_plist (ts ++ Sg "," :: us) (t :: l).
  Inductive g_params : list tok -> option (list type_param) -> Prop :=
  | QP_none : g_params [] None
  | QP_some ts l : g_plist ts l -> g_params (Sg "<" :: ts ++ [Sg ">"]) (Some l).

  (** * Patterns *)
  Inductive g_pat : list tok -> pat -> Prop :=
  | P_tuple ts l : g_pats ts l -> g_pat (Sg "(" :: ts ++ [Sg ")"]) (ATup l)
  | P_array ts l : g_pats ts l -> g_pat (Sg "[" :: ts ++ [Sg "]"]) (AArr l)
  | P_int ts l : g_int ts l -> g_pat ts (AInt l)
  | P_true : g_pat [Sg "true"] (ABool true)
  | P_false : g_pat [Sg "false"] (ABool false)
  | P_char v : g_pat [Chr (Some v)] (AInt (LUnsigned v (Some 8%N)))
  | P_wire ts n : g_path ts n -> g_pat (Sg "wire" :: ts) (APath true n)
  | P_bound ts s us p : g_path ts (s, []) -> g_pat us p -> g_pat (ts ++ Sg "@" :: us) (ABound s p)
  | P_pos ts n us l : g_path ts n -> g_pats us l -> g_pat (ts ++ Sg "(" :: us ++ [Sg ")"]) (APos n l)
  | P_named ts n us l : g_path ts n -> g_fields us l -> g_pat (ts ++ Sg "$" :: Sg "(" :: us ++ [Sg ")"]) (ANamed n l)
  | P_path ts n : g_path ts n -> g_pat ts (APath false n)
  with g_pats : list tok -> list pat -> Prop :=
  | PL_nil : g_pats [] []
  | PL_one ts t : g_pat ts t -> g_pats ts [t]
  | PL_more ts t us l : g_pat ts t -> g_pats us l -> g_pats (ts ++ Sg "," :: us) (t :: l)
  with g_field : list tok -> string * option pat -> Prop :=
  | F_short s : g_field [Id s] (s, None)
  | F_full s ts p : g_pat ts p -> g_field (Id s :: Sg ":" :: ts) (s, Some p)
  with g_fields : list tok -> list (string * option pat) -> Prop :=
  | FL_nil : g_fields [] []
  | FL_one ts t : g_field ts t -> g_fields ts [t]
  | FL_more ts t us l : g_field ts t -> g_fields us l -> g_fields (ts ++ Sg "," :: us) (t :: l).

  (** * use: the paths named, each with what it is called *)
  Inductive g_use : list tok -> list (list string * option string) -> Prop :=
  | U_name s : g_use [Id s] [([s], None)]
  | U_as s a : g_use [Id s; Sg "as"; Id a] [([s], Some a)]
  | U_in s ts l : g_use ts l -> g_use (Id s :: Sg "::" :: ts) (map (fun x => (s :: fst x, snd x)) l)
  | U_set ts l : g_uses ts l -> g_use (Sg "{" :: ts ++ [Sg "}"]) l
  with g_uses : list tok -> list (list string * option string) -> Prop :=
  | UL_nil : g_uses [] []
  | UL_one ts l : g_use ts l -> g_uses ts l
  | UL_more ts l us k : g_use ts l -> g_uses us k -> g_uses (ts ++ Sg "," :: us) (l ++ k).

  (** * Inputs and heads of units *)
  Definition if_ (b : bool) (k : string) : list tok := if b then [Sg k] else [].
  Inductive g_input (impl_ok : bool) : list tok -> input -> Prop :=
  | N_input l w s ts t : g_spec impl_ok ts t ->
      g_input impl_ok (map Attr l ++ if_ w "wire" ++ Id s :: Sg ":" :: ts) {| i_attrs := l; i_wire := w; i_name := s; i_type := t |}.
  Inductive g_ilist (impl_ok : bool) : list tok -> list input -> Prop :=
  | IL_nil : g_ilist impl_ok [] []
  | IL_one ts t : g_input impl_ok ts t -> g_ilist impl_ok ts [t]
  | IL_more ts t us l : g_input impl_ok ts t -> g_ilist impl_ok us l -> g_ilist impl_ok (ts ++ Sg "," :: us) (t :: l).
  Definition self_ (l : list nat) (w a : bool) : list tok := map Attr l ++ if_ w "wire" ++ if_ a "&" ++ [Id "self"].
  Inductive g_inputs (impl_ok : bool) : list tok -> inputs -> Prop :=
  | NI_plain ts l : g_ilist impl_ok ts l -> match l with i :: _ => i_name i <> "self" | [] => True end ->
      g_inputs impl_ok ts {| in_self := None; in_args := l |}
  | NI_self l w a : g_inputs impl_ok (self_ l w a) {| in_self := Some (l, w, a); in_args := [] |}
  | NI_more l w a ts k : g_ilist impl_ok ts k -> g_inputs impl_ok (self_ l w a ++ Sg "," :: ts) {| in_self := Some (l, w, a); in_args := k |}
  | NI_tight l w a ts k : lax = true -> g_ilist impl_ok ts k -> g_inputs impl_ok (self_ l w a ++ ts) {| in_self := Some (l, w, a); in_args := k |}
  | NI_twice l w ts i k : lax = true -> g_ilist impl_ok ts (i :: k) ->
      g_inputs impl_ok (map Attr l ++ if_ w "wire" ++ ts)
        {| in_self := None;
           in_args := {| i_attrs := match l with [] => i_attrs i | _ => l end; i_wire := w || i_wire i; i_name := i_name i; i_type := i_type i |} :: k |}.
  Inductive g_kind : list tok -> unit_kind -> Prop :=
  | K_fn : g_kind [Sg "fn"] UFn
  | K_entity : g_kind [Sg "entity"] UEntity
  | K_pipeline ts d : g_texp ts d -> g_kind (Sg "pipeline" :: Sg "(" :: ts ++ [Sg ")"]) (UPipeline d).
  Inductive g_output : list tok -> option ty -> Prop :=
  | O_none : g_output [] None
  | O_some ts t : g_spec false ts t -> g_output (Sg "->" :: ts) (Some t).
  Inductive g_head : list tok -> head -> Prop :=
  | G_head u e ks k s ps p is i os o : g_kind ks k -> g_params ps p -> g_inputs true is i -> g_output os o ->
      g_head (if_ u "unsafe" ++ if_ e "extern" ++ ks ++ Id s :: ps ++ Sg "(" :: is ++ Sg ")" :: os)
        {| h_unsafe := u; h_extern := e; h_kind := k; h_name := s; h_params := p; h_inputs := i; h_output := o |}.
End Grammar.

(** What may follow: nothing that would go on with the type, the pattern, the path *)
Definition stop (bad : list string) (us : list tok) : Prop := match us with Sg s :: _ => ~ In s bad | _ => True end.
Definition after_type : list string := ["::"; "<"].
Definition after_trait : list string := ["::"; "<"; "("; "->"].
(** What closes a list of traits *)
Definition closing : list string := ["="; ","; "}"; ")"; ">"; "{"].
Definition closed (ends : list string) (us : list tok) : Prop := exists s r, us = Sg s :: r /\ In s ends.
Definition after_pattern : list string := ["::"; "@"; "("; "$"].
Definition after_use : list string := ["::"; "as"].
Definition after_head : list string := ["::"; "<"; "->"].
