(** C65: macros are read as they are written, and the built-in ones stand for what is in the files. *)
From Coq Require Import List NArith Arith Bool String Lia.
Import ListNotations.
Open Scope nat_scope. Open Scope string_scope. Open Scope list_scope.
From Verif Require Import MacroModel MacroSpec MacroProofs.

(** A stream between delimiters is what is between the opening token and the closing token that matches it *)
Theorem C65_stream : forall o c ts l rest, pair_of o c ->
  (exists fuel, enclosed_token_stream fuel o c ts = Got l rest) <-> ts = o :: l ++ c :: rest /\ balanced o c l.
Proof.
  intros o c ts l rest P. split.
  - intros [fuel H]. exact (enclosed_sound o c P fuel ts l rest H).
  - intros [-> B]. exists (S (List.length l)). apply enclosed_complete; [exact P|exact B|lia].
Qed.
Print Assumptions C65_stream.
Theorem C65_call : forall ts l rest, (exists fuel, macro_call fuel ts = Got l rest) <->
  exists o c, pair_of o c /\ ts = o :: l ++ c :: rest /\ balanced o c l.
Proof.
  intros ts l rest. split.
  - intros [fuel H]. unfold macro_call in H. destruct ts as [|t ts]; [discriminate|]. cbn [peek] in H. destruct t; try discriminate;
      [exists OpenParen, CloseParen|exists OpenBrace, CloseBrace|exists OpenBracket, CloseBracket]; (split; [constructor|]); (apply C65_stream; [constructor|eauto]).
  - intros (o & c & P & H). apply (C65_stream _ _ _ _ _ P) in H. destruct H as [fuel H]. exists fuel. unfold macro_call.
    assert (E : peek ts = o) by (apply (enclosed_sound _ _ P) in H; destruct H as [-> _]; reflexivity).
    rewrite E. destruct P; exact H.
Qed.
Print Assumptions C65_call.
(** Where no closing token matches the opening one, reading never ends *)
Theorem C65_unmatched : forall o c ts, pair_of o c -> (forall l rest, ts = l ++ c :: rest -> ~ balanced o c l) ->
  forall fuel, enclosed_token_stream fuel o c (o :: ts) = Fuel.
Proof. intros o c ts P H fuel. exact (enclosed_hangs o c P ts H fuel). Qed.
Print Assumptions C65_unmatched.

(** A pattern is read exactly from what it is written as *)
Theorem C65_pattern : forall p, proper p -> exists n, forall rest fuel, n <= fuel -> macro_pattern fuel (written p ++ rest) = Got p rest.
Proof. intros p H. exists (psize p). intros rest fuel. apply pattern_complete, H. Qed.
Print Assumptions C65_pattern.
Theorem C65_pattern_only : forall fuel ts p rest, ~ In Eof ts -> ts <> [] -> macro_pattern fuel ts = Got p rest -> ts = written p ++ rest /\ proper p.
Proof. intros fuel. exact (proj1 (pattern_sound fuel)). Qed.
Print Assumptions C65_pattern_only.
(** So no two patterns are written alike *)
Theorem C65_unambiguous : forall p q r r', proper p -> proper q -> written p ++ r = written q ++ r' -> p = q /\ r = r'.
Proof.
  intros p q r r' P Q E. pose proof (pattern_complete p P r (psize p + psize q) ltac:(lia)) as A.
  pose proof (pattern_complete q Q r' (psize p + psize q) ltac:(lia)) as B. rewrite E, B in A. injection A as <- <-. auto.
Qed.
Print Assumptions C65_unambiguous.

(** The rules of a definition are those written, in order *)
Theorem C65_rules : forall l ts, definition l ts -> exists n, forall rest fuel, n <= fuel -> macro_rules fuel (ts ++ rest) = Got l rest.
Proof. exact definition_complete. Qed.
Print Assumptions C65_rules.
Theorem C65_rules_only : forall fuel ts l rest, ~ In Eof ts -> macro_rules fuel ts = Got l rest -> exists ts', ts = ts' ++ rest /\ definition l ts'.
Proof. exact definition_sound. Qed.
Print Assumptions C65_rules_only.

(** A program with [include!] and [include_bytes!] is the one with the files written in their place *)
Theorem C65_include : forall files parse path_of base e h,
  (exists fuel, lower files parse path_of fuel (Some base) e = Lowered h) <-> in_place files parse path_of base e h.
Proof.
  intros files parse path_of base e h. split.
  - intros [fuel H]. exact (lower_sound _ _ _ fuel base e h H).
  - intros H. destruct (lower_complete _ _ _ base e h H) as [fuel G]. exists fuel. apply G. constructor.
Qed.
Print Assumptions C65_include.
(** How much is followed changes no answer *)
Theorem C65_stable : forall files parse path_of fuel k wd e, lower files parse path_of fuel wd e <> Endless ->
  lower files parse path_of (fuel + k) wd e = lower files parse path_of fuel wd e.
Proof. intros. apply lower_mono. assumption. Qed.
Print Assumptions C65_stable.
(** Bytes are eight bits wide each, as many as the file has, in its order *)
Theorem C65_bytes : forall files parse path_of fuel base s h, lower files parse path_of (S fuel) (Some base) (AMacro IncludeBytes [Str s]) = Lowered h ->
  exists f bytes, named_file path_of base s f /\ files f = Some bytes /\
    exists l, h = HBytes l /\ List.length l = List.length bytes /\ forall i b, nth_error bytes i = Some b -> nth_error l i = Some (b, 8%N).
Proof.
  intros files parse path_of fuel base s h H. apply lower_sound in H. inversion H as [| |base' s' f bytes Nf Fi]; subst.
  exists f, bytes. split; [exact Nf|]. split; [exact Fi|]. eexists. split; [reflexivity|]. split; [apply map_length|].
  intros i b E. rewrite nth_error_map, E. reflexivity.
Qed.
Print Assumptions C65_bytes.
(** A macro of the program's own is always refused *)
Theorem C65_own : forall files parse path_of fuel wd ts, lower files parse path_of (S fuel) wd (AMacro User ts) = Refused.
Proof. reflexivity. Qed.
Print Assumptions C65_own.

(** ** What is not so *)
(** An unclosed call, template or pattern is no error: the parser goes on for ever *)
Theorem C65_unclosed_refuted : exists call definition pattern, forall fuel,
  macro_call fuel call = Fuel /\ macro_rules fuel definition = Fuel /\ macro_pattern fuel pattern = Fuel.
Proof.
  exists [OpenParen; Ident "a"], [OpenParen; CloseParen; OpenBrace; OpenBrace; CloseBrace], [OpenParen; Ident "a"].
  assert (P : forall fuel, parts fuel CloseParen [] = Fuel).
  { induction fuel as [|fuel IH]; [reflexivity|]. cbn. destruct fuel as [|fuel]; [reflexivity|]. cbn [macro_pattern peek tl bind]. rewrite IH. reflexivity. }
  intros fuel. split; [|split].
  - unfold macro_call. cbn [peek]. apply (enclosed_hangs _ _ d_paren). intros l rest E _.
    assert (I : In CloseParen [Ident "a"]) by (rewrite E; apply in_or_app; right; left; reflexivity). destruct I as [I|[]]. discriminate.
  - unfold macro_rules. cbn [peek]. destruct fuel as [|[|fuel]]; [reflexivity|reflexivity|].
    assert (E : macro_pattern (S (S fuel)) [OpenParen; CloseParen; OpenBrace; OpenBrace; CloseBrace] = Got (MEnclosed [] OpenParen CloseParen) [OpenBrace; OpenBrace; CloseBrace]) by reflexivity.
    rewrite E. cbn [bind]. unfold macro_template. rewrite (enclosed_hangs _ _ d_brace); [reflexivity|]. intros l rest H B.
    destruct l as [|a [|b l]].
    + discriminate.
    + injection H as <- _. inversion B as [|? ? N|l0 l1 _ _ Q]; [congruence|]. destruct l0; discriminate.
    + injection H as _ _ H. destruct l; discriminate.
  - destruct fuel as [|[|[|fuel]]]; [reflexivity|reflexivity|reflexivity|]. cbn [macro_pattern peek tl].
    assert (E : parts (S (S fuel)) CloseParen [Ident "a"] = Fuel).
    { change (bind (macro_pattern (S fuel) [Ident "a"]) (fun p r => then_ (cons p) (parts (S fuel) CloseParen r)) = Fuel). cbn [macro_pattern peek tl bind]. rewrite P. reflexivity. }
    rewrite E. reflexivity.
Qed.
Print Assumptions C65_unclosed_refuted.
(** What a file holds after its first expression is dropped without a word *)
Theorem C65_left_refuted : exists files parse path_of base s e left h,
  parse [1%N; 2%N] = Some (e, left) /\ left <> [] /\ files ["d"; "f"] = Some [1%N; 2%N] /\
  lower files parse path_of 2 (Some base) (AMacro Include [Str s]) = Lowered h /\ h = HNode 7 [].
Proof.
  exists (fun d => if list_eq_dec string_dec d ["d"; "f"] then Some [1%N; 2%N] else None), (fun _ => Some (ANode 7 [], [Plus; Other 3])),
    (fun s => (false, [s])), ["d"], "f", (ANode 7 []), [Plus; Other 3], (HNode 7 []).
  repeat split; discriminate.
Qed.
Print Assumptions C65_left_refuted.
(** A file that includes itself is followed for ever *)
Theorem C65_cycle_refuted : exists files parse path_of base e, forall fuel, lower files parse path_of fuel (Some base) e = Endless.
Proof.
  exists (fun _ => Some []), (fun _ => Some (ANode 1 [AMacro Include [Str "f"]], [])), (fun s => (false, [s])), [], (AMacro Include [Str "f"]).
  assert (G : forall n fuel, fuel <= n -> forall base, lower (fun _ => Some []) (fun _ => Some (ANode 1 [AMacro Include [Str "f"]], [])) (fun s => (false, [s])) fuel (Some base) (AMacro Include [Str "f"]) = Endless).
  { induction n as [|n IH]; intros fuel L base; [replace fuel with 0 by lia; reflexivity|]. destruct fuel as [|fuel]; [reflexivity|].
    cbn [lower]. cbv zeta. destruct (join base (false, ["f"])) as [|x f] eqn:J; [destruct base; discriminate|].
    destruct fuel as [|fuel]; [reflexivity|]. cbn [lower lower_all]. rewrite IH by lia. reflexivity. }
  intros fuel. apply (G fuel); constructor.
Qed.
Print Assumptions C65_cycle_refuted.
(** [include!("/")] is no error but a crash *)
Theorem C65_root_refuted : exists path_of s, forall files parse fuel base, lower files parse path_of (S fuel) (Some base) (AMacro Include [Str s]) = Bug.
Proof. exists (fun s => (true, [])), "/". reflexivity. Qed.
Print Assumptions C65_root_refuted.

(** ** Cases *)
Example C65_nontrivial_call : macro_call 9 [OpenParen; Ident "f"; OpenParen; Comma; CloseParen; OpenBrace; CloseParen; Plus] = Got [Ident "f"; OpenParen; Comma; CloseParen; OpenBrace] [Plus].
Proof. reflexivity. Qed.
Definition some_pattern : mpat := MEnclosed [MRepeated [MFragment "x" "expr"; MToken Colon] (Some Comma) Many0; MEnclosed [] OpenBracket CloseBracket; MToken Plus] OpenParen CloseParen.
Example C65_nontrivial_pattern : proper some_pattern /\ written some_pattern =
  [OpenParen; Dollar; OpenParen; Dollar; Ident "x"; Colon; Ident "expr"; Colon; CloseParen; Comma; Asterisk; OpenBracket; CloseBracket; Plus; CloseParen].
Proof.
  assert (D : forall t, t = Colon \/ t = Plus \/ t = Comma -> ~ delimiter t) by (intros t H (o & c & P & Q); destruct P; intuition congruence).
  split; [|reflexivity]. apply w_enclosed; [constructor|]. apply Forall_cons; [|apply Forall_cons; [|apply Forall_cons; [|apply Forall_nil]]].
  - apply w_repeated.
    + apply Forall_cons; [apply w_fragment|apply Forall_cons; [apply w_token; [discriminate|discriminate|apply D; auto]|apply Forall_nil]].
    + intros t E. injection E as <-. split; [apply D; auto|]. split; [intros [H|[H|H]]; discriminate|discriminate].
  - apply w_enclosed; [constructor|apply Forall_nil].
  - apply w_token; [discriminate|discriminate|apply D; auto].
Qed.
Example C65_nontrivial_rules : definition [(MToken (Ident "a"), [Plus]); (MEnclosed [] OpenBrace CloseBrace, [OpenBrace; CloseBrace])]
  [OpenBrace; Ident "a"; FatArrow; OpenBrace; Plus; CloseBrace; Comma; OpenBrace; CloseBrace; FatArrow; OpenBrace; OpenBrace; CloseBrace; CloseBrace; CloseBrace].
Proof.
  assert (D : ~ delimiter (Ident "a")) by (intros (o & c & P & Q); destruct P; intuition congruence).
  apply (d_several _ [Ident "a"; FatArrow; OpenBrace; Plus; CloseBrace; Comma; OpenBrace; CloseBrace; FatArrow; OpenBrace; OpenBrace; CloseBrace; CloseBrace]).
  apply (s_cons (MToken (Ident "a"), [Plus]) _ [OpenBrace; CloseBrace; FatArrow; OpenBrace; OpenBrace; CloseBrace; CloseBrace]).
  - split; cbn; [constructor; [discriminate|discriminate|exact D]|]. apply b_one; [discriminate|discriminate|constructor].
  - apply (s_last (MEnclosed [] OpenBrace CloseBrace, [OpenBrace; CloseBrace])). split; cbn; [repeat constructor|]. apply (b_nest _ _ [] []); constructor.
Qed.
(** A file that includes the bytes of one beside it *)
Definition some_files (d : dir) : option (list N) :=
  if list_eq_dec string_dec d ["a"; "sub"; "f"] then Some [1%N] else if list_eq_dec string_dec d ["a"; "sub"; "g"] then Some [5%N; 255%N] else None.
Definition some_parse (l : list N) : option (aexpr * list tok) :=
  match l with [1%N] => Some (ANode 4 [AMacro IncludeBytes [Str "g"]], []) | _ => None end.
Definition some_path (s : string) : bool * dir := if String.eqb s "sub/f" then (false, ["sub"; "f"]) else (false, [s]).
Example C65_nontrivial_include : in_place some_files some_parse some_path ["a"] (ANode 2 [AMacro Include [Str "sub/f"]; ANode 3 []])
  (HNode 2 [HNode 4 [HBytes [(5%N, 8%N); (255%N, 8%N)]]; HNode 3 []]).
Proof. apply C65_include. exists 5. reflexivity. Qed.
Example C65_nontrivial_unmatched : forall l rest, [OpenParen; CloseParen] = l ++ CloseParen :: rest -> ~ balanced OpenParen CloseParen l.
Proof.
  intros l rest H B. destruct l as [|a [|b l]]; [discriminate| |].
  - injection H as <- _. inversion B as [|? ? N|l0 l1 _ _ Q]; [congruence|]. destruct l0; discriminate.
  - injection H as _ _ H. destruct l; discriminate.
Qed.
