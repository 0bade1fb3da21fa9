(** C61: types, patterns, [use] and the heads of units are read back as written *)
From Coq Require Import NArith ZArith List Bool String Arith Lia.
From Verif Require Import LexModel SynModel SynSpec SynProofs SynTypes SynPats SynHeads.
Import ListNotations.
Open Scope nat_scope.
Open Scope string_scope.
Open Scope list_scope.

Lemma enough_for ts : 3 * size ts + 3 <= enough ts.
Proof. unfold enough. pose proof (size_bound ts). lia. Qed.
Lemma settle {A} (p : nat -> list tok -> res A) ts (a : A) us :
  (forall f g, f <= g -> below (p f ts) (p g ts)) -> p (enough ts) ts <> Fuel -> (exists n r, expand r = us /\ forall f, n <= f -> p f ts = Got a r) ->
  exists r, p (enough ts) ts = Got a r /\ expand r = us.
Proof.
  intros B N (n & r & X & K). exists r. split; [|exact X]. destruct (B (enough ts) (enough ts + n)) as [E|E]; [lia|contradiction|]. rewrite E. apply K. lia.
Qed.

(** Whatever tokens the grammar has for a type, followed by something that does not go on with
    it, are read as that type, and what follows is left. *)
Theorem C61_types pre t ts us :
  g_texp false pre t -> expand ts = pre ++ us -> stop after_type us -> exists r, p_texp (enough ts) ts = Got t r /\ expand r = us.
Proof.
  intros G E O. apply settle; [intros f g L; now apply types_below|apply texp_ends, enough_for|]. now apply (proj1 types_complete pre t G).
Qed.
(** ... and where [impl] is allowed *)
Theorem C61_specs b pre t ts us :
  g_spec false b pre t -> expand ts = pre ++ us -> stop after_type us -> (b = true -> closed closing us) -> exists r, p_spec (enough ts) b ts = Got t r /\ expand r = us.
Proof.
  intros G E O C. apply (settle (fun f => p_spec f b)); [intros f g L; now apply types_below|apply spec_ends; pose proof (enough_for ts); lia|]. apply (proj1 (proj2 types_complete) b pre t G); [exact E|]. split; assumption.
Qed.
Theorem C61_params pre l ts us :
  g_params false pre l -> expand ts = pre ++ us -> stop ["<"] us -> exists r, p_params (enough ts) ts = Got l r /\ expand r = us.
Proof. intros G E O. apply settle; [intros f g L; now apply params_below|apply params_end, enough_for|]. now apply (params_complete pre l G). Qed.
Theorem C61_patterns pre t ts us :
  g_pat false pre t -> expand ts = pre ++ us -> stop after_pattern us -> exists r, p_pat (enough ts) ts = Got t r /\ expand r = us.
Proof. intros G E O. apply settle; [intros f g L; now apply pat_below|apply pat_end, enough_for|]. now apply (proj1 pats_complete pre t G). Qed.
Theorem C61_use pre l ts us :
  g_use pre l -> expand ts = pre ++ us -> stop after_use us -> exists r, p_use (enough ts) [] ts = Got l r /\ expand r = us.
Proof.
  intros G E O. apply (settle (fun f => p_use f [])); [intros f g L; now apply use_below|apply use_end, enough_for|]. pose proof (proj1 use_complete pre l G []) as R. rewrite under_nil in R. now apply R.
Qed.
Theorem C61_heads pre h ts us :
  g_head false pre h -> expand ts = pre ++ us -> stop after_head us -> exists r, p_head (enough ts) ts = Got h r /\ expand r = us.
Proof. intros G E O. apply settle; [intros f g L; now apply head_below|apply head_end, enough_for|]. now apply (head_complete pre h G). Qed.

(** What is read was written: a type, pattern, [use] or head that comes out was spelled by the
    tokens taken, up to the spellings the parser tolerates ([lax]). *)
Theorem C61_sound f ts r :
  (forall t, p_texp f ts = Got t r -> exists pre, expand ts = pre ++ expand r /\ g_texp true pre t) /\
  (forall b t, p_spec f b ts = Got t r -> exists pre, expand ts = pre ++ expand r /\ g_spec true b pre t) /\
  (forall l, p_params f ts = Got l r -> exists pre, expand ts = pre ++ expand r /\ g_params true pre l) /\
  (forall t, p_pat f ts = Got t r -> exists pre, expand ts = pre ++ expand r /\ g_pat true pre t) /\
  (forall l, p_use f [] ts = Got l r -> exists pre, expand ts = pre ++ expand r /\ g_use pre l) /\
  (forall h, p_head f ts = Got h r -> exists pre, expand ts = pre ++ expand r /\ g_head true pre h).
Proof.
  split; [|split; [|split; [|split; [|split]]]]; intros.
  - now apply texp_sound with f.
  - now apply (types_sound f ts r).
  - now apply params_sound with f.
  - now apply pat_sound with f.
  - apply use_sound in H as (pre & l0 & X & G & ->). rewrite under_nil. eauto.
  - now apply head_sound with f.
Qed.

(** The parser stops on every sequence of tokens, with no more nested calls than
    [enough] says, and more of them would not change the result. *)
Theorem C61_terminates ts :
  p_texp (enough ts) ts <> Fuel /\ (forall b, p_spec (enough ts) b ts <> Fuel) /\ p_params (enough ts) ts <> Fuel /\
  p_pat (enough ts) ts <> Fuel /\ p_use (enough ts) [] ts <> Fuel /\ p_head (enough ts) ts <> Fuel.
Proof.
  pose proof (enough_for ts) as L. split; [now apply texp_ends|]. split; [intros; apply spec_ends; lia|]. split; [now apply params_end|]. split; [now apply pat_end|]. split; [now apply use_end|now apply head_end].
Qed.
Theorem C61_settled ts f : enough ts <= f ->
  p_texp f ts = p_texp (enough ts) ts /\ p_pat f ts = p_pat (enough ts) ts /\ p_use f [] ts = p_use (enough ts) [] ts /\ p_head f ts = p_head (enough ts) ts.
Proof.
  intros L. destruct (C61_terminates ts) as (T1 & _ & _ & T2 & T3 & T4).
  split; [destruct (proj1 (types_below _ _ L ts)) as [E|E]; [contradiction|auto]|]. split; [destruct (pat_below _ _ L ts) as [E|E]; [contradiction|auto]|].
  split; [destruct (use_below _ _ L [] ts) as [E|E]; [contradiction|auto]|destruct (head_below _ _ ts L) as [E|E]; [contradiction|auto]].
Qed.

(** Nothing can be read in two ways. *)
Lemma fixed ts us : expand ts = us -> expand ts = us ++ []. Proof. now rewrite app_nil_r. Qed.
Theorem C61_unambiguous ts :
  (forall t t', g_texp false (expand ts) t -> g_texp false (expand ts) t' -> t = t') /\
  (forall t t', g_pat false (expand ts) t -> g_pat false (expand ts) t' -> t = t') /\
  (forall t t', g_use (expand ts) t -> g_use (expand ts) t' -> t = t') /\
  (forall t t', g_head false (expand ts) t -> g_head false (expand ts) t' -> t = t').
Proof.
  split; [|split; [|split]]; intros t t' G G'.
  - destruct (C61_types _ _ ts [] G (fixed _ _ eq_refl) I) as (r & E & _). destruct (C61_types _ _ ts [] G' (fixed _ _ eq_refl) I) as (r' & E' & _). congruence.
  - destruct (C61_patterns _ _ ts [] G (fixed _ _ eq_refl) I) as (r & E & _). destruct (C61_patterns _ _ ts [] G' (fixed _ _ eq_refl) I) as (r' & E' & _). congruence.
  - destruct (C61_use _ _ ts [] G (fixed _ _ eq_refl) I) as (r & E & _). destruct (C61_use _ _ ts [] G' (fixed _ _ eq_refl) I) as (r' & E' & _). congruence.
  - destruct (C61_heads _ _ ts [] G (fixed _ _ eq_refl) I) as (r & E & _). destruct (C61_heads _ _ ts [] G' (fixed _ _ eq_refl) I) as (r' & E' & _). congruence.
Qed.

(** * What the parser takes although the grammar does not have it *)
(** A path may end in [::]. *)
Theorem C61_trailing_refuted : exists ts t, p_texp (enough ts) ts = Got t [] /\ ~ g_texp false (expand ts) t.
Proof.
  exists [Id "a"; Sg "::"], (YNamed ("a", []) None). split; [reflexivity|]. intros G. destruct (C61_types _ _ [Id "a"; Sg "::"; Id "b"] [Id "b"] G eq_refl I) as (r & E & X). vm_compute in E. inversion E.
Qed.
(** [-5u8] in a type or a pattern is 5. *)
Theorem C61_sign_refuted :
  p_texp 9 [Sg "-"; Num 5 (Unsigned (Some 8%N))] = Got (YInt 5) [] /\
  p_pat 9 [Sg "-"; Num 5 (Unsigned (Some 8%N))] = Got (AInt (LUnsigned 5 (Some 8%N))) [].
Proof. split; reflexivity. Qed.
(** [impl] may name no trait, *)
Theorem C61_impl_refuted : p_spec 9 true [Sg "impl"; Sg ")"] = Got (YImpl []) [Sg ")"].
Proof. reflexivity. Qed.
(** no comma is needed after [self], *)
Theorem C61_self_refuted : exists i, p_inputs 30 true [Id "self"; Id "x"; Sg ":"; Id "T"; Sg ")"] = Got i [Sg ")"] /\ List.length (in_args i) = 1 /\ in_self i = Some ([], false, false).
Proof. eexists. repeat split. Qed.
(** and attributes after the [wire] of the first input are lost if there are some before it. *)
Theorem C61_attributes_refuted : exists i, p_inputs 30 true [Attr 1; Sg "wire"; Attr 2; Id "x"; Sg ":"; Id "T"; Sg ")"] = Got i [Sg ")"] /\ map i_attrs (in_args i) = [[1]].
Proof. eexists. repeat split. Qed.
(** [>=] is not split, so [a: T<U>= x] is refused although [a: T<U> = x] is not. *)
Theorem C61_equals_refuted :
  p_texp 40 [Id "T"; Sg "<"; Id "U"; Sg ">"; Sg "="; Id "x"] = Got (YNamed ("T", []) (Some [YNamed ("U", []) None])) [Sg "="; Id "x"] /\
  p_texp 40 [Id "T"; Sg "<"; Id "U"; Sg ">="; Id "x"] = Err.
Proof. split; reflexivity. Qed.

(** [Map<[uint<8>; 3], Option<&&_>>] and what follows *)
Definition name (s : string) : ty := YNamed (s, []) None.
Lemma g_name s : s <> "_" -> g_texp false [Id s] (name s).
Proof. intros N. apply T_spec. apply (T_named false false [Id s] (s, []) [] None); [constructor; constructor|congruence|constructor]. Qed.
Definition written : list tok :=
  [Id "Map"; Sg "<"; Sg "["; Id "uint"; Sg "<"; Num 8 Unsized; Sg ">"; Sg ";"; Num 3 Unsized; Sg "]"; Sg ","; Id "Option"; Sg "<"; Sg "&&"; Id "T"; Sg ">>"].
Definition meant : ty :=
  YNamed ("Map", []) (Some [YArr (YNamed ("uint", []) (Some [YInt 8])) (YInt 3); YNamed ("Option", []) (Some [YView (YView (name "T"))])]).
Example C61_nontrivial : g_texp false (expand written) meant /\ p_texp (enough (written ++ [Sg "="])) (written ++ [Sg "="]) = Got meant [Sg "="].
Proof.
  split; [|reflexivity].
  assert (E8 : g_texp false [Num 8 Unsized] (YInt 8)) by exact (T_int false _ _ (I_plain 8 Unsized)). assert (E3 : g_texp false [Num 3 Unsized] (YInt 3)) by exact (T_int false _ _ (I_plain 3 Unsized)).
  apply T_spec. apply (T_named false false [Id "Map"] ("Map", []) (tl (expand written))); [constructor; constructor|discriminate|].
  apply (A_some false (([Sg "["; Id "uint"; Sg "<"; Num 8 Unsized; Sg ">"; Sg ";"; Num 3 Unsized; Sg "]"] ++ Sg "," :: [Id "Option"; Sg "<"; Sg "&"; Sg "&"; Id "T"; Sg ">"]))).
  apply L_more.
  - apply T_spec. apply (T_array false false [Id "uint"; Sg "<"; Num 8 Unsized; Sg ">"] _ [Num 3 Unsized]); [|exact E3]. apply T_spec. apply (T_named false false [Id "uint"] ("uint", []) [Sg "<"; Num 8 Unsized; Sg ">"]); [constructor; constructor|discriminate|].
    apply (A_some false [Num 8 Unsized]). now apply L_one.
  - apply L_one, T_spec. apply (T_named false false [Id "Option"] ("Option", []) [Sg "<"; Sg "&"; Sg "&"; Id "T"; Sg ">"]); [constructor; constructor|discriminate|]. apply (A_some false [Sg "&"; Sg "&"; Id "T"]). apply L_one, T_spec, T_view, T_spec, T_view. now apply g_name.
Qed.
(** [extern pipeline(3) f<#uint N, T: Tr + U>(#[a] wire &self, x: impl Fn(T) -> N) -> T] *)
Definition whole : list tok :=
  [Sg "extern"; Sg "pipeline"; Sg "("; Num 3 Unsized; Sg ")"; Id "f"; Sg "<"; Sg "#"; Id "uint"; Id "N"; Sg ","; Id "T"; Sg ":"; Id "Tr"; Sg "+"; Id "U"; Sg ">"; Sg "("; Attr 7; Sg "wire"; Sg "&"; Id "self"; Sg ",";
   Id "x"; Sg ":"; Sg "impl"; Id "Fn"; Sg "("; Id "T"; Sg ")"; Sg "->"; Id "N"; Sg ")"; Sg "->"; Id "T"; Sg "{"].
Example C61_nontrivial_head : p_head (enough whole) whole = Got
  {| h_unsafe := false; h_extern := true; h_kind := UPipeline (YInt 3); h_name := "f";
     h_params := Some [PMeta "uint" "N" None; PName "T" [Trait ("Tr", []) None false; Trait ("U", []) None false] None];
     h_inputs := {| in_self := Some ([7], true, true);
                    in_args := [{| i_attrs := []; i_wire := false; i_name := "x"; i_type := YImpl [Trait ("Fn", []) (Some [YTup [name "T"]; name "N"]) true] |}] |};
     h_output := Some (name "T") |} [Sg "{"].
Proof. reflexivity. Qed.
(** [use a::{b, c::{d as e, f}}], [P::Q(x @ (1, -2), [true, _], r$(s, t: 3))] *)
Example C61_nontrivial_use :
  p_use 99 [] [Id "a"; Sg "::"; Sg "{"; Id "b"; Sg ","; Id "c"; Sg "::"; Sg "{"; Id "d"; Sg "as"; Id "e"; Sg ","; Id "f"; Sg "}"; Sg "}"; Sg ";"]
  = Got [(["a"; "b"], None); (["a"; "c"; "d"], Some "e"); (["a"; "c"; "f"], None)] [Sg ";"].
Proof. reflexivity. Qed.
Example C61_nontrivial_pattern :
  p_pat 99 [Id "P"; Sg "::"; Id "Q"; Sg "("; Id "x"; Sg "@"; Sg "("; Num 1 Unsized; Sg ","; Sg "-"; Num 2 Unsized; Sg ")"; Sg ","; Sg "["; Sg "true"; Sg ","; Id "_"; Sg "]"; Sg ",";
            Id "r"; Sg "$"; Sg "("; Id "s"; Sg ","; Id "t"; Sg ":"; Num 3 Unsized; Sg ")"; Sg ")"; Sg "="]
  = Got (APos ("P", ["Q"]) [ABound "x" (ATup [AInt (LUnsized 1); AInt (LUnsized (-2))]); AArr [ABool true; APath false ("_", [])];
                            ANamed ("r", []) [("s", None); ("t", Some (AInt (LUnsized 3)))]]) [Sg "="].
Proof. reflexivity. Qed.

Print Assumptions C61_types.
Print Assumptions C61_specs.
Print Assumptions C61_params.
Print Assumptions C61_patterns.
Print Assumptions C61_use.
Print Assumptions C61_heads.
Print Assumptions C61_sound.
Print Assumptions C61_terminates.
Print Assumptions C61_settled.
Print Assumptions C61_unambiguous.
Print Assumptions C61_trailing_refuted.
Print Assumptions C61_sign_refuted.
Print Assumptions C61_impl_refuted.
Print Assumptions C61_self_refuted.
Print Assumptions C61_attributes_refuted.
Print Assumptions C61_equals_refuted.
