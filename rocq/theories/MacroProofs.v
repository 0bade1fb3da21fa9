(** Proofs about MacroModel. *)
From Coq Require Import List NArith Arith Bool String Lia.
Import ListNotations.
Open Scope nat_scope. Open Scope string_scope. Open Scope list_scope.
From Verif Require Import MacroModel MacroSpec.

Lemma tok_eqb_eq : forall a b, tok_eqb a b = true <-> a = b.
Proof.
  intros a b. split.
  - destruct a, b; cbn; intros H; try discriminate; try reflexivity; try (apply String.eqb_eq in H; congruence); apply Nat.eqb_eq in H; congruence.
  - intros <-. destruct a; cbn; try reflexivity; try apply String.eqb_refl; apply Nat.eqb_refl.
Qed.
Lemma tok_eqb_refl : forall a, tok_eqb a a = true.
Proof. intros a. apply tok_eqb_eq. reflexivity. Qed.
Lemma tok_eqb_neq : forall a b, a <> b -> tok_eqb a b = false.
Proof. intros a b H. destruct (tok_eqb a b) eqn:E; [apply tok_eqb_eq in E; congruence|reflexivity]. Qed.
Lemma bind_got : forall {A B} (x : res A) (k : A -> list tok -> res B) b r, bind x k = Got b r -> exists a r', x = Got a r' /\ k a r' = Got b r.
Proof. intros A B [a r'| |] k b r H; try discriminate. eauto. Qed.
Lemma eat_got : forall {A} k ts (f : list tok -> res A) a r, k <> Eof -> eat k ts f = Got a r -> exists ts', ts = k :: ts' /\ f ts' = Got a r.
Proof.
  intros A k ts f a r N H. unfold eat in H. destruct (tok_eqb (peek ts) k) eqn:E; [|discriminate]. apply tok_eqb_eq in E.
  destruct ts as [|t ts]; [cbn in E; congruence|]. cbn in E. subst. eauto.
Qed.
Lemma eat_cons : forall {A} k ts (f : list tok -> res A), eat k (k :: ts) f = f ts.
Proof. intros. unfold eat. cbn [peek]. rewrite tok_eqb_refl. reflexivity. Qed.

(** ** Streams *)
Section Stream.
Variables o c : tok.
Hypothesis Hp : pair_of o c.
Lemma pair_facts : o <> c /\ c <> Eof /\ o <> Eof.
Proof. destruct Hp; repeat split; discriminate. Qed.
Lemma stream_nil : forall fuel n, stream fuel o c n [] = Fuel.
Proof.
  induction fuel as [|fuel IH]; intros n; [reflexivity|]. cbn [stream peek]. destruct pair_facts as (N & Nc & No).
  rewrite (tok_eqb_neq Eof c) by congruence. cbn [negb orb]. rewrite (tok_eqb_neq Eof o) by congruence. cbn [tl]. rewrite IH. reflexivity.
Qed.
(** Balanced up to [n] closing tokens *)
Inductive bal_n : nat -> list tok -> Prop :=
| n_0 l : balanced o c l -> bal_n 0 l
| n_S n l l' : balanced o c l -> bal_n n l' -> bal_n (S n) (l ++ c :: l').
Lemma bal_one : forall t n l, t <> o -> t <> c -> bal_n n l -> bal_n n (t :: l).
Proof. intros t n l H H' [l0 B|m l0 l1 B B']; [constructor; constructor; assumption|]. rewrite app_comm_cons. constructor; [constructor; assumption|exact B']. Qed.
Lemma bal_close : forall n l, bal_n n l -> bal_n (S n) (c :: l).
Proof. intros n l H. apply (n_S n [] l); [constructor|exact H]. Qed.
Lemma bal_open : forall n l, bal_n (S n) l -> bal_n n (o :: l).
Proof.
  intros n l H. inversion H as [|m l0 l1 B B']; subst. inversion B' as [? B1|m l2 l3 B1 B2]; subst.
  - constructor. apply b_nest; assumption.
  - replace (o :: l0 ++ c :: l2 ++ c :: l3) with ((o :: l0 ++ c :: l2) ++ c :: l3) by (cbn; rewrite <- app_assoc; reflexivity).
    constructor; [apply b_nest; assumption|exact B2].
Qed.
Lemma stream_sound : forall fuel n ts l rest, stream fuel o c n ts = Got l rest -> ts = l ++ rest /\ peek rest = c /\ bal_n n l.
Proof.
  destruct pair_facts as (N & Nc & No).
  induction fuel as [|fuel IH]; intros n ts l rest H; [discriminate|].
  destruct ts as [|t ts]; [rewrite stream_nil in H; discriminate|]. cbn [stream peek tl] in H.
  destruct (negb (tok_eqb t c) || Nat.ltb 0 n) eqn:E.
  - apply bind_got in H. destruct H as (l' & r & H & E'). injection E' as <- <-. apply IH in H. destruct H as (-> & P & B).
    split; [reflexivity|]. split; [exact P|].
    destruct (tok_eqb t o) eqn:Eo; [apply tok_eqb_eq in Eo; subst; apply bal_open, B|].
    destruct (tok_eqb t c) eqn:Ec.
    + apply tok_eqb_eq in Ec. subst t. cbn in E. destruct n as [|n]; [discriminate|]. apply bal_close, B.
    + apply bal_one; [intros ->; rewrite tok_eqb_refl in Eo; discriminate|intros ->; rewrite tok_eqb_refl in Ec; discriminate|exact B].
  - injection H as <- <-. apply orb_false_iff in E. destruct E as [E1 E2]. apply negb_false_iff, tok_eqb_eq in E1. subst t.
    split; [reflexivity|]. split; [reflexivity|]. apply Nat.ltb_ge in E2. replace n with 0 by lia. constructor. constructor.
Qed.
Lemma then_then : forall {A B C} (f : A -> B) (g : B -> C) x, then_ g (then_ f x) = then_ (fun a => g (f a)) x.
Proof. intros A B C f g [a r| |]; reflexivity. Qed.
Lemma then_ext : forall {A B} (f g : A -> B) x, (forall a, f a = g a) -> then_ f x = then_ g x.
Proof. intros A B f g [a r| |] H; cbn; [rewrite H|..]; reflexivity. Qed.
Lemma stream_skip : forall l, balanced o c l -> forall fuel n ts, (l = [] \/ 0 < List.length l) ->
  stream (List.length l + fuel) o c n (l ++ ts) = then_ (app l) (stream fuel o c n ts).
Proof.
  destruct pair_facts as (N & Nc & No).
  assert (Sk : forall t fuel n ts, negb (tok_eqb t c) || Nat.ltb 0 n = true ->
    stream (S fuel) o c n (t :: ts) = then_ (cons t) (stream fuel o c (if tok_eqb t o then S n else if tok_eqb t c then pred n else n) ts)).
  { intros t fuel n ts E. cbn [stream peek tl]. rewrite E. reflexivity. }
  induction 1 as [|t l Ho Hc B IH|l l' B IH B' IH']; intros fuel n ts _.
  - cbn [List.length Nat.add app]. destruct (stream fuel o c n ts); reflexivity.
  - cbn [List.length Nat.add app]. rewrite Sk by (rewrite (tok_eqb_neq t c Hc); reflexivity). rewrite (tok_eqb_neq t o Ho), (tok_eqb_neq t c Hc).
    rewrite IH by (destruct l; [left; reflexivity|right; cbn; lia]). rewrite then_then. reflexivity.
  - cbn [List.length app]. rewrite app_length. cbn [List.length]. rewrite <- app_assoc. cbn [app Nat.add].
    replace (List.length l + S (List.length l') + fuel) with (List.length l + S (List.length l' + fuel)) by lia.
    rewrite Sk by (rewrite (tok_eqb_neq o c) by congruence; reflexivity). rewrite tok_eqb_refl.
    rewrite IH by (destruct l; [left; reflexivity|right; cbn; lia]).
    rewrite Sk by (rewrite orb_true_r; reflexivity). rewrite (tok_eqb_neq c o) by congruence. rewrite tok_eqb_refl. cbn [pred].
    rewrite IH' by (destruct l'; [left; reflexivity|right; cbn; lia]). rewrite !then_then. apply then_ext. intros a. cbn. rewrite <- app_assoc. reflexivity.
Qed.
Lemma stream_complete : forall l rest fuel, balanced o c l -> List.length l < fuel -> stream fuel o c 0 (l ++ c :: rest) = Got l (c :: rest).
Proof.
  intros l rest fuel B L. replace fuel with (List.length l + S (fuel - List.length l - 1)) by lia.
  rewrite stream_skip; [|exact B|destruct l; [left; reflexivity|right; cbn; lia]].
  cbn [stream peek]. rewrite tok_eqb_refl. cbn. rewrite app_nil_r. reflexivity.
Qed.
Lemma enclosed_sound : forall fuel ts l rest, enclosed_token_stream fuel o c ts = Got l rest -> ts = o :: l ++ c :: rest /\ balanced o c l.
Proof.
  intros fuel ts l rest H. destruct pair_facts as (N & Nc & No). unfold enclosed_token_stream in H. apply eat_got in H; [|exact No].
  destruct H as (ts' & -> & H). apply bind_got in H. destruct H as (l' & r & H & E). apply eat_got in E; [|exact Nc].
  destruct E as (r' & -> & E). injection E as <- <-. apply stream_sound in H. destruct H as (-> & _ & B). inversion B; subst. auto.
Qed.
Lemma enclosed_complete : forall fuel l rest, balanced o c l -> List.length l < fuel ->
  enclosed_token_stream fuel o c (o :: l ++ c :: rest) = Got l rest.
Proof. intros. unfold enclosed_token_stream. rewrite eat_cons, stream_complete by assumption. cbn [bind]. apply eat_cons. Qed.
Lemma stream_not_err : forall fuel n ts, stream fuel o c n ts <> Err.
Proof.
  induction fuel as [|fuel IH]; intros n ts; [discriminate|]. cbn [stream].
  destruct (negb (tok_eqb (peek ts) c) || Nat.ltb 0 n); [|discriminate].
  destruct (stream fuel o c _ (tl ts)) eqn:E; cbn; try discriminate. destruct (IH _ _ E).
Qed.
Lemma enclosed_hangs : forall ts, (forall l rest, ts = l ++ c :: rest -> ~ balanced o c l) -> forall fuel, enclosed_token_stream fuel o c (o :: ts) = Fuel.
Proof.
  intros ts H fuel. destruct (enclosed_token_stream fuel o c (o :: ts)) as [l rest| |] eqn:E; [| |reflexivity].
  - apply enclosed_sound in E. destruct E as [E B]. injection E as E. destruct (H l rest E B).
  - unfold enclosed_token_stream in E. rewrite eat_cons in E. destruct (stream fuel o c 0 ts) as [l r| |] eqn:S; cbn [bind] in E; [|destruct (stream_not_err _ _ _ S)|discriminate].
    apply stream_sound in S. destruct S as (_ & P & _). unfold eat in E. rewrite P, tok_eqb_refl in E. discriminate.
Qed.
End Stream.

(** ** Patterns *)
Fixpoint psize (p : mpat) : nat :=
  match p with
  | MToken _ | MFragment _ _ => 1
  | MRepeated l _ _ | MEnclosed l _ _ => S (S (list_sum (map (fun q => S (psize q)) l)))
  end.
Lemma mpat_wf : forall P : mpat -> Prop, (forall t, P (MToken t)) -> (forall a b, P (MFragment a b)) ->
  (forall l d r, Forall P l -> P (MRepeated l d r)) -> (forall l o c, Forall P l -> P (MEnclosed l o c)) -> forall p, P p.
Proof.
  intros P H1 H2 H3 H4. fix F 1. intros [t|l d r|l o c|a b]; [apply H1| | |apply H2].
  - apply H3. induction l; constructor; auto.
  - apply H4. induction l; constructor; auto.
Qed.
Definition closing (t : tok) : Prop := t = CloseParen \/ t = CloseBrace \/ t = CloseBracket.
Lemma pair_closing : forall o c, pair_of o c -> closing c.
Proof. intros o c []; unfold closing; auto. Qed.
Lemma closing_delimiter : forall t, closing t -> delimiter t.
Proof. intros t [->|[->| ->]]; [exists OpenParen, CloseParen|exists OpenBrace, CloseBrace|exists OpenBracket, CloseBracket]; (split; [constructor|auto]). Qed.
Lemma not_delimiter : forall t, ~ delimiter t -> t <> OpenParen /\ t <> CloseParen /\ t <> OpenBrace /\ t <> CloseBrace /\ t <> OpenBracket /\ t <> CloseBracket.
Proof.
  intros t H. repeat split; intros ->; apply H;
    [exists OpenParen, CloseParen|exists OpenParen, CloseParen|exists OpenBrace, CloseBrace|exists OpenBrace, CloseBrace|exists OpenBracket, CloseBracket|exists OpenBracket, CloseBracket]; (split; [constructor|auto]).
Qed.
Lemma delimiter_dec : forall t, delimiter t -> closing t \/ t = OpenParen \/ t = OpenBrace \/ t = OpenBracket.
Proof. intros t (o & c & P & [->| ->]); destruct P; unfold closing; auto. Qed.
Lemma written_peek : forall p rest, proper p -> ~ closing (peek (written p ++ rest)).
Proof.
  intros p rest H C. inversion H as [t Hd He Ht|a b|l o c P F|l d r F D]; subst; cbn in C.
  - apply Ht, closing_delimiter, C.
  - destruct C as [C|[C|C]]; discriminate.
  - destruct P; destruct C as [C|[C|C]]; discriminate.
  - destruct C as [C|[C|C]]; discriminate.
Qed.
Lemma parts_complete : forall l, Forall proper l ->
  (forall p, In p l -> forall rest fuel, psize p <= fuel -> macro_pattern fuel (written p ++ rest) = Got p rest) ->
  forall close rest fuel, closing close -> S (list_sum (map (fun q => S (psize q)) l)) <= fuel ->
  parts fuel close (flat_map written l ++ close :: rest) = Got l (close :: rest).
Proof.
  induction l as [|p l IH]; intros F H close rest fuel C L.
  - destruct fuel as [|fuel]; [cbn in L; lia|]. cbn [flat_map app parts peek]. rewrite tok_eqb_refl. reflexivity.
  - inversion F as [|? ? Hp F']; subst. cbn [map list_sum fold_right] in L. fold (list_sum (map (fun q => S (psize q)) l)) in L.
    destruct fuel as [|fuel]; [lia|]. cbn [flat_map parts]. rewrite <- app_assoc.
    rewrite tok_eqb_neq by (intros E; apply (written_peek p (flat_map written l ++ close :: rest) Hp); rewrite E; exact C).
    rewrite (H p (or_introl eq_refl)) by lia. cbn [bind].
    rewrite (IH F' (fun q I => H q (or_intror I)) close rest fuel C) by lia. reflexivity.
Qed.
Lemma reps_complete : forall r rest, p_reps (reps_tok r :: rest) = Got r rest.
Proof. intros [] rest; reflexivity. Qed.
Lemma reps_delim : forall r rest, p_delim (reps_tok r :: rest) = Got None (reps_tok r :: rest).
Proof. intros [] rest; reflexivity. Qed.
Lemma some_delim : forall t rest, ~ delimiter t -> ~ repeats t -> p_delim (t :: rest) = Got (Some t) rest.
Proof.
  intros t rest D R. apply not_delimiter in D. destruct D as (? & ? & ? & ? & ? & ?). unfold repeats in R.
  unfold p_delim. cbn [peek tl]. destruct t; try reflexivity; try congruence; exfalso; apply R; auto.
Qed.
Lemma token_got : forall fuel t rest, t <> Dollar -> ~ delimiter t -> macro_pattern (S fuel) (t :: rest) = Got (MToken t) rest.
Proof.
  intros fuel t rest D N. apply not_delimiter in N. destruct N as (? & ? & ? & ? & ? & ?). cbn [macro_pattern peek tl].
  destruct t; try reflexivity; congruence.
Qed.
Lemma pattern_complete : forall p, proper p -> forall rest fuel, psize p <= fuel -> macro_pattern fuel (written p ++ rest) = Got p rest.
Proof.
  intros p. induction p as [t|a b|l d r IH|l o c IH] using mpat_wf; intros H rest fuel L; (destruct fuel as [|fuel]; [cbn in L; lia|]).
  - inversion H; subst. apply token_got; assumption.
  - reflexivity.
  - inversion H as [| | |? ? ? F D]; subst. cbn [written]. rewrite <- !app_assoc. cbn [app macro_pattern peek tl]. cbn [psize] in L.
    rewrite (parts_complete l F); [|intros p I; rewrite Forall_forall in IH, F; apply (IH p I (F p I))|left; reflexivity|lia].
    cbn [bind tl]. destruct d as [t|]; cbn [app].
    + destruct (D t eq_refl) as (D1 & D2 & _). rewrite some_delim by assumption. cbn [bind]. rewrite reps_complete. reflexivity.
    + rewrite reps_delim. cbn [bind]. rewrite reps_complete. reflexivity.
  - inversion H as [| |? ? ? P F|]; subst. cbn [written]. rewrite <- app_comm_cons, <- app_assoc. cbn [app].
    assert (G : parts fuel c (flat_map written l ++ c :: rest) = Got l (c :: rest)).
    { apply parts_complete; [exact F|intros p I; rewrite Forall_forall in IH, F; apply (IH p I (F p I))|eapply pair_closing, P|cbn [psize] in L; lia]. }
    cbn [macro_pattern peek tl]. destruct P; rewrite G; reflexivity.
Qed.
Lemma pattern_nil : forall fuel p rest, macro_pattern fuel [] = Got p rest -> rest = [].
Proof. intros [|fuel] p rest H; [discriminate|]. cbn in H. injection H as <- <-. reflexivity. Qed.
Lemma parts_nil : forall fuel close l rest, close <> Eof -> parts fuel close [] <> Got l rest.
Proof.
  induction fuel as [|fuel IH]; intros close l rest N; [discriminate|]. cbn [parts peek]. rewrite tok_eqb_neq by congruence.
  intros H. apply bind_got in H. destruct H as (p & r & H & E). apply pattern_nil in H. subst.
  apply bind_got in E. destruct E as (l' & r' & E & _). exact (IH _ _ _ N E).
Qed.
Definition no_eof (ts : list tok) : Prop := ~ In Eof ts.
Lemma no_eof_app : forall a b, no_eof (a ++ b) -> no_eof b.
Proof. intros a b H I. apply H, in_or_app. auto. Qed.
Lemma no_eof_tl : forall t b, no_eof (t :: b) -> no_eof b.
Proof. intros t b H I. apply H. right. exact I. Qed.
Lemma not_closing_delimiter : forall t', ~ closing t' -> t' <> OpenParen -> t' <> OpenBrace -> t' <> OpenBracket -> ~ delimiter t'.
Proof. intros t' A1 A2 A3 A4 D. apply delimiter_dec in D. destruct D as [D|[D|[D|D]]]; contradiction. Qed.
Lemma delim_sound : forall ts d r, no_eof ts -> r <> [] -> p_delim ts = Got d r ->
  ts = (match d with Some t => [t] | None => [] end) ++ r /\ (forall t, d = Some t -> ~ delimiter t /\ ~ repeats t /\ t <> Eof).
Proof.
  intros ts d r NE N E. unfold p_delim in E. destruct ts as [|x ts]; [cbn in E; injection E as <- <-; congruence|].
  cbn [peek tl] in E. destruct x; try discriminate; injection E as <- <-; (split; [reflexivity|]); intros t Et; try discriminate; injection Et as <-;
    (split; [apply not_closing_delimiter; try discriminate; intros [C|[C|C]]; discriminate|split; [intros [C|[C|C]]; discriminate|]]);
    try discriminate. exfalso. apply NE. left. reflexivity.
Qed.
Lemma pattern_sound : forall fuel,
  (forall ts p rest, no_eof ts -> ts <> [] -> macro_pattern fuel ts = Got p rest -> ts = written p ++ rest /\ proper p) /\
  (forall close ts l rest, closing close -> no_eof ts -> parts fuel close ts = Got l rest ->
     ts = flat_map written l ++ rest /\ Forall proper l /\ exists r, rest = close :: r).
Proof.
  assert (CE : forall c, closing c -> c <> Eof) by (intros c [->|[->| ->]]; discriminate).
  induction fuel as [|fuel [IHp IHl]]; [split; intros; discriminate|]. split.
  - intros ts p rest NE N H. destruct ts as [|t ts]; [congruence|]. cbn [macro_pattern peek tl] in H.
    assert (Enc : forall o c, pair_of o c -> t = o ->
      bind (parts fuel c ts) (fun l r => Got (MEnclosed l t (peek r)) (tl r)) = Got p rest -> t :: ts = written p ++ rest /\ proper p).
    { intros o c P -> G. apply bind_got in G. destruct G as (l & r & G & E). injection E as <- <-.
      apply IHl in G; [|eapply pair_closing, P|eapply no_eof_tl, NE]. destruct G as (-> & F & r' & ->). cbn [peek tl written].
      split; [rewrite <- app_comm_cons, <- app_assoc; reflexivity|]. constructor; assumption. }
    assert (Tok : t <> Dollar -> ~ delimiter t -> Got (MToken t) ts = Got p rest -> t :: ts = written p ++ rest /\ proper p).
    { intros D1 D2 E. injection E as <- <-. split; [reflexivity|]. constructor; [exact D1|intros ->; apply NE; left; reflexivity|exact D2]. }
    assert (Nd : forall t', ~ closing t' -> t' <> OpenParen -> t' <> OpenBrace -> t' <> OpenBracket -> ~ delimiter t').
    { intros t' A1 A2 A3 A4 D. apply delimiter_dec in D. destruct D as [D|[D|[D|D]]]; contradiction. }
    destruct t; try discriminate;
      try (apply Tok; [discriminate|apply Nd; try discriminate; intros [C|[C|C]]; discriminate|exact H]).
    + (* $ *) destruct ts as [|t ts]; [discriminate|]. cbn [peek tl] in H. destruct t as [ | | | | | | | | | | | | |name| | |]; try discriminate.
      * apply bind_got in H. destruct H as (l & r & H & E). apply IHl in H; [|left; reflexivity|eapply no_eof_tl, no_eof_tl, NE].
        destruct H as (-> & F & r' & ->). cbn [tl] in E. apply bind_got in E. destruct E as (d & r & E1 & E2).
        apply bind_got in E2. destruct E2 as (rp & r2 & E2 & E3). injection E3 as <- <-.
        assert (NE' : no_eof r') by (apply no_eof_tl, no_eof_tl, no_eof_app, no_eof_tl in NE; exact NE).
        assert (R : r = reps_tok rp :: r2).
        { unfold p_reps in E2. destruct r as [|x r]; [discriminate|]. cbn [peek tl] in E2. destruct x; try discriminate; injection E2 as <- <-; reflexivity. }
        subst r.
        assert (Dd : r' = (match d with Some t => [t] | None => [] end) ++ reps_tok rp :: r2 /\ (forall t, d = Some t -> ~ delimiter t /\ ~ repeats t /\ t <> Eof)).
        { apply delim_sound in E1; [|exact NE'|discriminate]. destruct E1 as [E1 E1']. split; [exact E1|exact E1']. }
        destruct Dd as [-> Dd]. cbn [written]. split; [|constructor; assumption].
        cbn [app]. rewrite <- !app_assoc. cbn [app]. rewrite <- app_assoc. reflexivity.
      * apply eat_got in H; [|discriminate]. destruct H as (ts' & -> & H). apply bind_got in H. destruct H as (k & r & H & E). injection E as <- <-.
        unfold identifier in H. destruct ts' as [|x ts']; [discriminate|]. cbn [peek tl] in H. destruct x; try discriminate. injection H as <- <-.
        split; [reflexivity|constructor].
    + apply (Enc OpenParen CloseParen); [constructor|reflexivity|exact H].
    + apply (Enc OpenBrace CloseBrace); [constructor|reflexivity|exact H].
    + apply (Enc OpenBracket CloseBracket); [constructor|reflexivity|exact H].
  - intros close ts l rest C NE H. cbn [parts] in H. destruct ts as [|t ts].
    + exfalso. apply (parts_nil (S fuel) close l rest (CE _ C)). exact H.
    + destruct (tok_eqb (peek (t :: ts)) close) eqn:E.
      * injection H as <- <-. apply tok_eqb_eq in E. cbn in E. subst. split; [reflexivity|]. split; [constructor|eauto].
      * apply bind_got in H. destruct H as (p & r & H & G). apply bind_got in G. destruct G as (l' & r' & G & E'). injection E' as <- <-.
        apply IHp in H; [|exact NE|discriminate]. destruct H as [Ht P]. rewrite Ht in NE. apply no_eof_app in NE.
        apply IHl in G; [|exact C|exact NE]. destruct G as (-> & F & R). cbn [flat_map]. rewrite <- app_assoc. split; [exact Ht|]. split; [constructor; assumption|exact R].
Qed.

(** ** Rules *)
Lemma template_complete : forall l rest fuel, template_ok l -> List.length l < fuel -> macro_template fuel (template l ++ rest) = Got l rest.
Proof. intros l rest fuel H L. unfold macro_template, template. cbn [app]. rewrite <- app_assoc. apply enclosed_complete; [constructor|exact H|exact L]. Qed.
Lemma template_sound : forall fuel ts l rest, macro_template fuel ts = Got l rest -> ts = template l ++ rest /\ template_ok l.
Proof. intros fuel ts l rest H. apply (enclosed_sound _ _ d_brace) in H. destruct H as [-> B]. split; [unfold template; cbn; rewrite <- app_assoc; reflexivity|exact B]. Qed.
Definition rsize (a : rule) : nat := psize (fst a) + S (List.length (snd a)).
Lemma rule_complete : forall a rest fuel, rule_ok a -> rsize a <= fuel -> p_rule fuel (rule_written a ++ rest) = Got a rest.
Proof.
  intros [p t] rest fuel [Hp Ht] L. unfold rsize in L. cbn [fst snd] in *. unfold p_rule, rule_written. cbn [fst snd]. rewrite <- app_assoc.
  rewrite pattern_complete by (auto; lia). cbn [bind app]. rewrite eat_cons. rewrite template_complete by (auto; lia). reflexivity.
Qed.
Lemma rule_sound : forall fuel ts a rest, no_eof ts -> ts <> [] -> p_rule fuel ts = Got a rest -> ts = rule_written a ++ rest /\ rule_ok a.
Proof.
  intros fuel ts a rest NE N H. unfold p_rule in H. apply bind_got in H. destruct H as (p & r & H & E).
  apply pattern_sound in H; [|exact NE|exact N]. destruct H as [-> P].
  apply eat_got in E; [|discriminate]. destruct E as (r' & -> & E). apply bind_got in E. destruct E as (t & r & E & E'). injection E' as <- <-.
  apply template_sound in E. destruct E as [-> T]. unfold rule_written, rule_ok. cbn [fst snd]. rewrite <- app_assoc. auto.
Qed.
Lemma rules_complete : forall l ts, several l ts -> forall rest fuel, S (list_sum (map (fun a => S (rsize a)) l)) <= fuel ->
  p_rules fuel (ts ++ CloseBrace :: rest) = Got l (CloseBrace :: rest).
Proof.
  assert (NC : forall a rest, rule_ok a -> tok_eqb (peek (rule_written a ++ rest)) CloseBrace = false).
  { intros a rest [P _]. apply tok_eqb_neq. unfold rule_written. rewrite <- app_assoc. intros E. apply (written_peek (fst a) ((FatArrow :: template (snd a)) ++ rest) P). rewrite E. right; left; reflexivity. }
  induction 1 as [|a Ha|a l ts Ha Hl IH]; intros rest fuel L; (destruct fuel as [|fuel]; [lia|]).
  - reflexivity.
  - cbn [p_rules]. rewrite NC by exact Ha. cbn [map list_sum fold_right] in L. rewrite rule_complete by (auto; lia). reflexivity.
  - cbn [p_rules]. cbn [map list_sum fold_right] in L. fold (list_sum (map (fun a => S (rsize a)) l)) in L. rewrite <- app_assoc. rewrite NC by exact Ha. rewrite rule_complete by (auto; lia).
    cbn [bind app peek tok_eqb]. rewrite eat_cons. rewrite IH by lia. reflexivity.
Qed.
Lemma p_rules_nil : forall fuel l rest, p_rules fuel [] <> Got l rest.
Proof.
  intros [|fuel] l rest H; [discriminate|]. cbn [p_rules peek tok_eqb] in H. apply bind_got in H. destruct H as (a & r & H & _).
  unfold p_rule in H. apply bind_got in H. destruct H as (p & r' & H & E). apply pattern_nil in H. subst. discriminate.
Qed.
Lemma rules_sound : forall fuel ts l rest, no_eof ts -> p_rules fuel ts = Got l rest -> exists r ts', rest = CloseBrace :: r /\ ts = ts' ++ rest /\ several l ts'.
Proof.
  induction fuel as [|fuel IH]; intros ts l rest NE H; [discriminate|].
  destruct ts as [|t ts]; [destruct (p_rules_nil _ _ _ H)|]. cbn [p_rules] in H.
  destruct (tok_eqb (peek (t :: ts)) CloseBrace) eqn:E.
  - apply tok_eqb_eq in E. cbn in E. injection H as <- <-. subst. exists ts, []. split; [reflexivity|]. split; [reflexivity|constructor].
  - apply bind_got in H. destruct H as (a & r & H & G). apply rule_sound in H; [|exact NE|discriminate]. destruct H as [Ht Ha].
    rewrite Ht in NE. apply no_eof_app in NE. rewrite Ht. destruct (tok_eqb (peek r) CloseBrace) eqn:E'.
    + apply tok_eqb_eq in E'. injection G as <- <-. destruct r as [|x r]; [discriminate|]. cbn in E'. subst x. exists r, (rule_written a). split; [reflexivity|]. split; [reflexivity|constructor; exact Ha].
    + apply eat_got in G; [|discriminate]. destruct G as (r' & -> & G). apply bind_got in G. destruct G as (l' & r2 & G & E2). injection E2 as <- <-.
      apply IH in G; [|eapply no_eof_tl, NE]. destruct G as (r3 & ts' & -> & -> & S). exists r3, (rule_written a ++ Comma :: ts').
      split; [reflexivity|]. split; [rewrite <- app_assoc; reflexivity|constructor; assumption].
Qed.
Lemma definition_complete : forall l ts, definition l ts -> exists n, forall rest fuel, n <= fuel -> macro_rules fuel (ts ++ rest) = Got l rest.
Proof.
  intros l ts [ps t P T|l' ts' Hs].
  - exists (psize (MEnclosed ps OpenParen CloseParen) + S (List.length t)). intros rest fuel L. rewrite <- app_assoc. unfold macro_rules.
    change (peek (written (MEnclosed ps OpenParen CloseParen) ++ template t ++ rest)) with OpenParen. cbv iota.
    rewrite pattern_complete by (auto; lia). cbn [bind]. rewrite template_complete by (auto; lia). reflexivity.
  - exists (S (list_sum (map (fun a => S (rsize a)) l'))). intros rest fuel L. cbn [app macro_rules peek tl]. rewrite <- app_assoc. cbn [app].
    rewrite (rules_complete _ _ Hs) by exact L. cbn [bind]. apply eat_cons.
Qed.
Lemma definition_sound : forall fuel ts l rest, no_eof ts -> macro_rules fuel ts = Got l rest -> exists ts', ts = ts' ++ rest /\ definition l ts'.
Proof.
  intros fuel ts l rest NE H. unfold macro_rules in H. destruct ts as [|t ts]; [discriminate|]. cbn [peek] in H. destruct t; try discriminate.
  - apply bind_got in H. destruct H as (p & r & H & E). pose proof H as H'. apply pattern_sound in H; [|exact NE|discriminate]. destruct H as [Ht P].
    apply bind_got in E. destruct E as (t & r' & E & E'). injection E' as <- <-. apply template_sound in E. destruct E as [-> T].
    assert (Ep : exists l, p = MEnclosed l OpenParen CloseParen).
    { destruct p as [t0|l d r0|l o c|a b]; cbn in Ht; injection Ht as Ht; try discriminate.
      - inversion P as [? ? ? D| | |]; subst. exfalso. apply D. exists OpenParen, CloseParen. split; [constructor|auto].
      - subst. inversion P as [| |? ? ? Q|]; subst. inversion Q; subst. eauto. }
    destruct Ep as [ps ->]. eexists. split; [|apply d_single; assumption]. rewrite <- app_assoc. exact Ht.
  - cbn [tl] in H. apply bind_got in H. destruct H as (l' & r & H & E). apply eat_got in E; [|discriminate]. destruct E as (r' & -> & E). injection E as <- <-.
    apply rules_sound in H; [|eapply no_eof_tl, NE]. destruct H as (r2 & ts' & E & -> & S). injection E as <-.
    exists (OpenBrace :: ts' ++ [CloseBrace]). split; [cbn; rewrite <- app_assoc; reflexivity|constructor; exact S].
Qed.

(** ** The built-in macros *)
Section Lower.
Variable files : dir -> option (list N).
Variable parse : list N -> option (aexpr * list tok).
Variable path_of : string -> bool * dir.
Notation lower := (lower files parse path_of).
Notation in_place := (in_place files parse path_of).
Lemma join_named : forall base s f, join base (path_of s) = f <-> named_file path_of base s f.
Proof.
  intros base s f. unfold join, named_file. destruct (path_of s) as [[] d]; cbn; split.
  - intros <-. auto.
  - intros [[_ ->]|[E _]]; [reflexivity|discriminate].
  - intros <-. auto.
  - intros [[E _]|[_ ->]]; [discriminate|reflexivity].
Qed.
Lemma removelast_eq : forall (f : dir), f <> [] -> exists folder name, f = folder ++ [name] /\ removelast f = folder.
Proof. intros f N. destruct (exists_last N) as (folder & name & ->). exists folder, name. split; [reflexivity|apply removelast_last]. Qed.
Lemma lower_all_got : forall f n l done h, lower_all f n l done = Lowered h -> exists l', h = HNode n (done ++ l') /\ Forall2 (fun a b => f a = Lowered b) l l'.
Proof.
  intros f n. induction l as [|a l IH]; intros done h H; cbn in H.
  - injection H as <-. exists []. rewrite app_nil_r. auto.
  - destruct (f a) as [b| | |] eqn:E; try discriminate. apply IH in H. destruct H as (l' & -> & F). exists (b :: l').
    split; [rewrite <- app_assoc; reflexivity|constructor; assumption].
Qed.
Lemma lower_all_do : forall f n l l' done, Forall2 (fun a b => f a = Lowered b) l l' -> lower_all f n l done = Lowered (HNode n (done ++ l')).
Proof.
  intros f n l l' done F. revert done. induction F as [|a b l l' E F IH]; intros done; cbn.
  - rewrite app_nil_r. reflexivity.
  - rewrite E, IH, <- app_assoc. reflexivity.
Qed.
Lemma lower_all_mono : forall (f g : aexpr -> outcome) n l done, (forall a, f a <> Endless -> g a = f a) -> lower_all f n l done <> Endless -> lower_all g n l done = lower_all f n l done.
Proof.
  intros f g n l. induction l as [|a l IH]; intros done H N; [reflexivity|]. cbn in *.
  assert (E : f a <> Endless) by (intros E; rewrite E in N; congruence). rewrite (H a E). destruct (f a); try reflexivity. apply IH; assumption.
Qed.
Lemma lower_mono : forall fuel wd e k, lower fuel wd e <> Endless -> lower (fuel + k) wd e = lower fuel wd e.
Proof.
  induction fuel as [|fuel IH]; intros wd e k N; [cbn in N; congruence|]. cbn [Nat.add MacroModel.lower] in *.
  destruct e as [n l|m ts].
  - apply lower_all_mono; [intros a H; apply IH, H|exact N].
  - destruct m; try reflexivity. destruct ts as [|t ts]; [reflexivity|]. destruct t; try reflexivity. destruct ts; [|reflexivity].
    destruct wd as [base|]; [|reflexivity]. cbv zeta in *. destruct (join base (path_of s)); [reflexivity|].
    destruct (files _) as [src|]; [|reflexivity]. destruct (parse src) as [[e left]|]; [|reflexivity]. apply IH, N.
Qed.
Lemma lower_sound : forall fuel base e h, lower fuel (Some base) e = Lowered h -> in_place base e h.
Proof.
  induction fuel as [|fuel IH]; intros base e h H; [discriminate|]. cbn [MacroModel.lower] in H. destruct e as [n l|m ts].
  - apply lower_all_got in H. destruct H as (l' & -> & F). apply p_node. cbn [app]. induction F; constructor; auto.
  - destruct m; try discriminate; (destruct ts as [|t ts]; [discriminate|]); destruct t; try discriminate; (destruct ts; [|discriminate]).
    + cbv zeta in H. destruct (join base (path_of s)) as [|x f] eqn:J; [discriminate|].
      destruct (removelast_eq (x :: f)) as (folder & name & E & R); [discriminate|].
      destruct (files (x :: f)) as [src|] eqn:Fi; [|discriminate]. destruct (parse src) as [[e left]|] eqn:P; [|discriminate].
      rewrite R in H. apply IH in H. apply (p_include _ _ _ base s folder name src e left h); [|rewrite <- E; exact Fi|exact P|exact H].
      apply join_named. rewrite J. exact E.
    + destruct (files (join base (path_of s))) as [bytes|] eqn:Fi; [|discriminate]. injection H as <-.
      apply (p_bytes _ _ _ base s (join base (path_of s)) bytes); [apply join_named; reflexivity|exact Fi].
Qed.
Lemma lower_lift : forall n m wd e h, n <= m -> lower n wd e = Lowered h -> lower m wd e = Lowered h.
Proof. intros n m wd e h L H. replace m with (n + (m - n)) by lia. rewrite lower_mono; [exact H|rewrite H; discriminate]. Qed.
Lemma lower_complete : forall base e h, in_place base e h -> exists fuel, forall k, fuel <= k -> lower k (Some base) e = Lowered h.
Proof.
  fix F 4. intros base e h [base0 n l l' H|base0 s folder name src e0 left h0 Nf Fi P H|base0 s f bytes Nf Fi].
  - assert (G : exists fuel, forall k, fuel <= k -> Forall2 (fun a b => lower k (Some base0) a = Lowered b) l l').
    { induction H as [|a b l l' Hab _ IH]; [exists 0; constructor|].
      destruct (F _ _ _ Hab) as [f1 G1]. destruct IH as [f2 G2]. exists (f1 + f2). intros k L. constructor; [apply G1; lia|apply G2; lia]. }
    destruct G as [fuel G]. exists (S fuel). intros [|k] L; [lia|]. cbn [MacroModel.lower].
    exact (lower_all_do _ n l l' [] (G k ltac:(lia))).
  - destruct (F _ _ _ H) as [fuel G]. exists (S fuel). intros [|k] L; [lia|]. cbn [MacroModel.lower]. apply join_named in Nf. rewrite Nf. cbv zeta.
    destruct (folder ++ [name]) as [|x f] eqn:E; [destruct folder; discriminate|]. rewrite Fi, P. rewrite <- E, removelast_last. apply G. lia.
  - exists 1. intros [|k] L; [lia|]. cbn [MacroModel.lower]. apply join_named in Nf. rewrite Nf, Fi. reflexivity.
Qed.
End Lower.
