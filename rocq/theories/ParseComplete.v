(** Everything the grammar derives is parsed, and parsed that way (C37). *)
From Coq Require Import List ZArith Lia Bool Arith.
From Verif Require Import ParseModel ParseSpec ParseFuel.
Import ListNotations.
Local Open Scope list_scope.

Scheme ge_ind := Minimality for g_expr Sort Prop
with gb_ind := Minimality for g_bin Sort Prop
with gu_ind := Minimality for g_un Sort Prop
with gp_ind := Minimality for g_post Sort Prop
with gs_ind := Minimality for g_suf Sort Prop
with go_ind := Minimality for g_opt Sort Prop
with ga_ind := Minimality for g_base Sort Prop
with gk_ind := Minimality for g_block Sort Prop
with gi_ind := Minimality for g_if Sort Prop
with gr_ind := Minimality for g_args Sort Prop
with gl_ind := Minimality for g_list Sort Prop
with gn_ind := Minimality for g_named Sort Prop.
Combined Scheme g_mutind from ge_ind, gb_ind, gu_ind, gp_ind, gs_ind, go_ind, ga_ind, gk_ind,
  gi_ind, gr_ind, gl_ind, gn_ind.

(** ** Tables agree *)
Lemma binop_spell o : binop_from_kind (spell o) = Some o.
Proof. destruct o; reflexivity. Qed.
Lemma unop_spell u : unop_from_kind (uspell u) = Some u.
Proof. destruct u; reflexivity. Qed.
Lemma power_level o : binop_binding_power o = level o.
Proof. destruct o; reflexivity. Qed.
Lemma level_range o : 1 <= level o <= 11.
Proof. destruct o; cbn; lia. Qed.
Lemma unop_power u : unop_binding_power u = 12.
Proof. destruct u; reflexivity. Qed.
Lemma prefixed_eq u e : inline_negative_literal u e = prefixed u e.
Proof. destruct u, e; try reflexivity. destruct k; reflexivity. Qed.

(** ** First and next tokens *)
Definition base_start (t : tok) : bool :=
  match t with
  | TkInt _ _ | TkBool _ | TkId _ | TkOp KPlus | TkLP | TkLB | TkLBrace | TkIf => true
  | _ => false
  end.
Definition expr_start (t : tok) : bool :=
  base_start t || match t with TkOp k => match unop_from_kind k with Some _ => true | None => false end | _ => false end.
Definition starts (p : tok -> bool) (ts : list tok) : Prop :=
  exists t r, ts = t :: r /\ p t = true.

Lemma starts_app p ts r : starts p ts -> starts p (ts ++ r).
Proof. intros (t & r' & -> & H). exists t, (r' ++ r). auto. Qed.

Lemma base_expr_start ts : starts base_start ts -> starts expr_start ts.
Proof. intros (t & r & -> & H). exists t, r. unfold expr_start. rewrite H. auto. Qed.

Definition suffix_tok (t : tok) : bool :=
  match t with
  | TkHash | TkDot | TkLB | TkAs | TkLP | TkDollar | TkOp KNot => true
  | _ => false
  end.
Definition args_tok (t : tok) : bool :=
  match t with TkLP | TkDollar | TkOp KNot => true | _ => false end.
Definition next_not (p : tok -> bool) (rest : list tok) : Prop :=
  match rest with t :: _ => p t = false | [] => True end.

Lemma suffix_args rest : next_not suffix_tok rest -> next_not args_tok rest.
Proof. destruct rest as [|[] rest]; cbn; auto; try discriminate. Qed.

(** No binary operator binding tighter than [k] follows. *)
Definition noop (k : nat) (rest : list tok) : Prop :=
  forall o, peek_binop rest = Some o -> level o <= k.

(** What may follow a whole expression. *)
Definition follow (rest : list tok) : Prop :=
  match rest with
  | [] => True
  | t :: _ =>
      match t with
      | TkRP | TkRB | TkRBrace | TkLBrace | TkComma | TkSemi | TkDotDot | TkColon | TkElse => True
      | _ => False
      end
  end.

Lemma follow_suffix rest : follow rest -> next_not suffix_tok rest.
Proof. destruct rest as [|[] rest]; cbn; auto; contradiction. Qed.
Lemma follow_noop k rest : follow rest -> noop k rest.
Proof. destruct rest as [|[] rest]; cbn; intros H o E; try discriminate E; contradiction. Qed.
Lemma follow_tick rest : follow rest -> peek_kind TkTick rest = false.
Proof. destruct rest as [|[] rest]; cbn; auto; contradiction. Qed.

(** ** Eventually *)
Definition ev {A} (f : nat -> res A) (r : res A) : Prop := exists n, forall k, n <= k -> f k = r.

Ltac evs :=
  repeat match goal with
  | H : ev _ _ |- _ => let n := fresh "n" in let E := fresh "E" in destruct H as [n E]
  end.
Ltac step_ev bound :=
  exists (S bound); intros k0 Hk0; (destruct k0 as [|k0]; [lia|]);
  cbn [p_expr p_bp p_loop p_base p_if p_args p_list p_named p_suffix].

Lemma loop_stops k e rest : noop k rest -> ev (fun n => p_loop n k e rest) (Ok e rest).
Proof.
  intros N. step_ev 0. unfold noop in N. destruct (peek_binop rest) as [o|]; [|reflexivity].
  specialize (N o eq_refl). rewrite power_level.
  destruct (Nat.leb_spec (level o) k); [reflexivity|lia].
Qed.

Lemma suffix_stops e rest : next_not suffix_tok rest -> ev (fun n => p_suffix n e rest) (Ok e rest).
Proof.
  intros N. step_ev 0. destruct rest as [|[] rest]; cbn in N; try discriminate N; reflexivity.
Qed.

Lemma no_args rest : next_not args_tok rest ->
  is_macro rest = false /\ ev (fun n => p_args n rest) (Ok None rest).
Proof.
  intros N. split.
  - destruct rest as [|[] rest]; cbn in *; auto; destruct k; auto; discriminate N.
  - step_ev 0. destruct rest as [|[] rest]; cbn in N; try discriminate N; reflexivity.
Qed.

Lemma start_unop ts : starts base_start ts -> peek_unop ts = None.
Proof. intros (t & r & -> & H). destruct t; try discriminate H; try reflexivity. destruct k; try discriminate H; reflexivity. Qed.

Lemma start_not c ts : starts expr_start ts -> In c [TkRP; TkRB; TkComma; TkDotDot; TkTick; TkColon] ->
  peek_kind c ts = false.
Proof.
  intros (t & r & -> & H) I. cbn in I.
  destruct t; try discriminate H; cbn; intuition (subst; reflexivity).
Qed.

(** ** The theorem *)
Definition P_expr (ts : list tok) (e : expr) : Prop :=
  starts expr_start ts /\
  forall rest, follow rest -> ev (fun n => p_expr n (ts ++ rest)) (Ok e rest).
Definition P_bin (k : nat) (ts : list tok) (e : expr) : Prop :=
  starts expr_start ts /\
  forall m rest R, m < k -> next_not suffix_tok rest -> noop k rest ->
    ev (fun n => p_loop n m e rest) R -> ev (fun n => p_bp n m (ts ++ rest)) R.
Definition P_un (ts : list tok) (e : expr) : Prop :=
  starts expr_start ts /\
  forall m rest R, next_not suffix_tok rest ->
    ev (fun n => p_loop n m e rest) R -> ev (fun n => p_bp n m (ts ++ rest)) R.
Definition P_post (ts : list tok) (e : expr) : Prop :=
  starts base_start ts /\
  forall rest, next_not suffix_tok rest -> ev (fun n => p_base n (ts ++ rest)) (Ok e rest).
Definition P_suf (ts : list tok) (e : expr) : Prop :=
  starts base_start ts /\
  forall rest R, next_not args_tok rest ->
    ev (fun n => p_suffix n e rest) R -> ev (fun n => p_base n (ts ++ rest)) R.
Definition P_opt (ts : list tok) (o : oexpr) : Prop :=
  match o with ENone => ts = [] | ESome e => P_expr ts e end.
Definition P_block (ts : list tok) (e : expr) : Prop :=
  exists e0 ts0, e = EBlock e0 /\ ts = TkLBrace :: ts0 ++ [TkRBrace] /\ P_expr ts0 e0.
Definition P_if (ts : list tok) (e : expr) : Prop :=
  (exists r, ts = TkIf :: r) /\ forall rest, ev (fun n => p_if n (ts ++ rest)) (Ok e rest).
Definition P_args (ts : list tok) (a : args) : Prop :=
  (forall rest, is_macro (ts ++ rest) = false)
  /\ forall rest, ev (fun n => p_args n (ts ++ rest)) (Ok (Some a) rest).
Definition P_list0 (ts : list tok) (l : exprs) : Prop :=
  forall c rest, c = TkRP \/ c = TkRB ->
    ev (fun n => p_list n c (ts ++ c :: rest)) (Ok l (c :: rest)).
Definition P_list (ts : list tok) (l : exprs) : Prop :=
  P_list0 ts l /\
  match l with
  | ENil => ts = []
  | ECons e l' => (P_expr ts e /\ l' = ENil)
      \/ exists ts1 ts2, ts = ts1 ++ TkComma :: ts2 /\ P_expr ts1 e /\ P_list0 ts2 l'
  end.
Definition P_named (ts : list tok) (l : named) : Prop :=
  forall rest, ev (fun n => p_named n (ts ++ TkRP :: rest)) (Ok l (TkRP :: rest)).

Lemma closes c rest : c = TkRP \/ c = TkRB -> follow (c :: rest).
Proof. intros [-> | ->]; exact I. Qed.
Lemma kind_close c : c = TkRP \/ c = TkRB -> kind_eqb c c = true /\ kind_eqb c TkComma = false
  /\ kind_eqb TkComma c = false.
Proof. intros [-> | ->]; auto. Qed.

Lemma complete :
  (forall ts e, g_expr false ts e -> P_expr ts e)
  /\ (forall k ts e, g_bin false k ts e -> P_bin k ts e)
  /\ (forall ts e, g_un false ts e -> P_un ts e)
  /\ (forall ts e, g_post false ts e -> P_post ts e)
  /\ (forall ts e, g_suf false ts e -> P_suf ts e)
  /\ (forall ts e, g_opt false ts e -> P_opt ts e)
  /\ (forall ts e, g_base false ts e -> P_suf ts e)
  /\ (forall ts e, g_block false ts e -> P_block ts e)
  /\ (forall ts e, g_if false ts e -> P_if ts e)
  /\ (forall ts e, g_args false ts e -> P_args ts e)
  /\ (forall ts e, g_list false ts e -> P_list ts e)
  /\ (forall ts e, g_named false ts e -> P_named ts e).
Proof.
  apply g_mutind; try discriminate.
  - (* GE_bin *) intros ts e _ [S0 H]. split; [assumption|]. intros rest F.
    assert (E : ev (fun n => p_bp n 0 (ts ++ rest)) (Ok e rest)).
    { apply H; [lia|now apply follow_suffix|now apply follow_noop|].
      apply loop_stops. now apply follow_noop. }
    destruct E as [n E]. step_ev n. unfold None_. rewrite E by lia. cbn [bind].
    now rewrite follow_tick.
  - (* GE_infix *) intros ts f ts' l r _ [S0 H] _ [S1 H1]. split; [now apply starts_app|]. intros rest F.
    rewrite <- app_assoc. cbn [app].
    assert (E : ev (fun n => p_bp n 0 (ts ++ TkTick :: TkId f :: TkTick :: ts' ++ rest))
                  (Ok l (TkTick :: TkId f :: TkTick :: ts' ++ rest))).
    { apply H; [lia|reflexivity|intros o E; discriminate E|].
      apply loop_stops. intros o E; discriminate E. }
    destruct E as [n E]. destruct (H1 rest F) as [n1 E1]. step_ev (n + n1).
    unfold None_. rewrite E by lia. cbn [bind peek_kind kind_eqb eat identifier].
    rewrite E1 by lia. reflexivity.
  - (* GB_un *) intros ts e _ [S0 H]. split; [assumption|]. intros m rest R Hm Ns Nn Lp. now apply H.
  - (* GB_up *) intros k ts e Hk _ [S0 H]. split; [assumption|]. intros m rest R Hm Ns Nn Lp.
    apply H; try assumption; [lia|]. intros o E. specialize (Nn o E). lia.
  - (* GB_op *) intros o ts ts' l r _ [S0 H] _ [S1 H1]. split; [now apply starts_app|].
    intros m rest R Hm Ns Nn Lp. rewrite <- app_assoc. cbn [app].
    apply H; [assumption|cbn; destruct o; reflexivity| |].
    + intros o' E. cbn in E. rewrite binop_spell in E. injection E as <-. lia.
    + assert (E : ev (fun n => p_bp n (level o) (ts' ++ rest)) (Ok r rest)).
      { apply H1; [lia|assumption| |].
        - intros o' E. specialize (Nn o' E). lia.
        - apply loop_stops. exact Nn. }
      destruct E as [n E]. destruct Lp as [n1 E1]. step_ev (n + n1).
      cbn [peek_binop]. rewrite binop_spell. cbn zeta. rewrite power_level.
      destruct (Nat.leb_spec (level o) m); [lia|]. cbn [tl]. rewrite E by lia. cbn [bind]. apply E1. lia.
  - (* GU_post *) intros ts e _ [S0 H]. split; [now apply base_expr_start|]. intros m rest R Ns Lp.
    destruct (H rest Ns) as [n E]. destruct Lp as [n1 E1]. step_ev (n + n1).
    rewrite start_unop by now apply starts_app. rewrite E by lia. cbn [bind]. apply E1. lia.
  - (* GU_op *) intros u ts e e' _ [S0 H] Pr. split.
    { exists (TkOp (uspell u)), ts. split; [reflexivity|]. destruct u; reflexivity. }
    intros m rest R Ns Lp. cbn [app].
    assert (E : ev (fun n => p_bp n 12 (ts ++ rest)) (Ok e rest)).
    { apply H; [assumption|]. apply loop_stops. intros o _. pose proof (level_range o). lia. }
    destruct E as [n E]. destruct Lp as [n1 E1]. step_ev (n + n1).
    cbn [peek_unop]. rewrite unop_spell, unop_power. cbn [tl]. rewrite E by lia. cbn [bind].
    rewrite prefixed_eq, Pr. apply E1. lia.
  - (* GP_suf *) intros ts e _ [S0 H]. split; [assumption|]. intros rest Ns.
    apply H; [now apply suffix_args|now apply suffix_stops].
  - (* GP_cast *) intros ts e t _ [S0 H]. split; [now apply starts_app|]. intros rest Ns.
    rewrite <- app_assoc. cbn [app]. apply H; [reflexivity|]. step_ev 0. reflexivity.
  - (* GS_base *) intros ts e _ H. exact H.
  - (* GS_tuple_index *) intros ts e v k dep _ [S0 H] Hv. split; [now apply starts_app|].
    intros rest R Na [n E]. rewrite <- app_assoc. cbn [app]. apply H; [now destruct dep|].
    assert (Ti : tuple_index (Z.of_N v) = Some (Z.of_N v)).
    { unfold tuple_index. replace ((0 <=? Z.of_N v)%Z) with true by (symmetry; apply Z.leb_le; lia).
      apply Z.ltb_lt in Hv. rewrite Hv. reflexivity. }
    step_ev n. destruct dep; cbn [int_literal bind]; destruct k; cbn [literal]; rewrite Ti; apply E; lia.
  - (* GS_field *) intros ts e x _ [S0 H]. split; [now apply starts_app|].
    intros rest R Na [n E]. rewrite <- app_assoc. cbn [app]. apply H; [reflexivity|].
    destruct (proj2 (no_args rest Na)) as [n1 E1]. step_ev (n + n1).
    cbn [int_literal bind identifier]. rewrite E1 by lia. cbn [bind]. apply E. lia.
  - (* GS_method *) intros ts e x ats a _ [S0 H] _ [M1 H1]. split; [now apply starts_app|].
    intros rest R Na [n E]. rewrite <- app_assoc. cbn [app]. apply H; [reflexivity|].
    destruct (H1 rest) as [n1 E1]. step_ev (n + n1).
    cbn [int_literal bind identifier]. rewrite E1 by lia. cbn [bind]. apply E. lia.
  - (* GS_index *) intros ts e ts' i _ [S0 H] _ [S1 H1]. split; [now apply starts_app|].
    intros rest R Na [n E]. rewrite <- app_assoc. cbn [app]. apply H; [reflexivity|].
    rewrite <- app_assoc. cbn [app].
    destruct (H1 (TkRB :: rest) I) as [n1 E1]. step_ev (n + n1).
    rewrite (start_not TkDotDot) by (try apply starts_app; cbn; auto).
    rewrite E1 by lia. cbn [bind peek_kind kind_eqb eat]. apply E. lia.
  - (* GS_range *) intros ts e ts1 s ts2 t _ [S0 H] _ H1 _ H2. split; [now apply starts_app|].
    intros rest R Na [n E]. rewrite <- app_assoc. cbn [app]. apply H; [reflexivity|].
    rewrite <- app_assoc. cbn [app]. rewrite <- app_assoc. cbn [app].
    destruct s as [|s]; cbn [P_opt] in H1; [subst ts1|destruct H1 as [S1 H1]];
      (destruct t as [|t]; cbn [P_opt] in H2; [subst ts2|destruct H2 as [S2 H2]]).
    + step_ev n. cbn [app peek_kind kind_eqb tl bind eat]. apply E. lia.
    + destruct (H2 (TkRB :: rest) I) as [n1 E1]. step_ev (n + n1).
      cbn [app]. cbn [peek_kind kind_eqb tl]. rewrite (start_not TkRB) by (try apply starts_app; cbn; auto).
      rewrite E1 by lia. cbn [bind eat kind_eqb]. apply E. lia.
    + destruct (H1 (TkDotDot :: TkRB :: rest) I) as [n1 E1]. step_ev (n + n1). cbn [app].
      rewrite (start_not TkDotDot) by (try apply starts_app; cbn; auto).
      rewrite E1 by lia. cbn [bind peek_kind kind_eqb tl eat]. apply E. lia.
    + destruct (H1 (TkDotDot :: ts2 ++ TkRB :: rest) I) as [n1 E1].
      destruct (H2 (TkRB :: rest) I) as [n2 E2]. step_ev (n + n1 + n2).
      rewrite (start_not TkDotDot) by (try apply starts_app; cbn; auto).
      rewrite E1 by lia. cbn [bind]. cbn [peek_kind kind_eqb tl].
      rewrite (start_not TkRB) by (try apply starts_app; cbn; auto).
      rewrite E2 by lia. cbn [bind eat kind_eqb]. apply E. lia.
  - (* GO_none *) reflexivity.
  - (* GO_some *) intros ts e _ H. exact H.
  - (* GA_int *) intros v k. split; [exists (TkInt v k), []; auto|]. intros rest R Na [n E].
    step_ev n. cbn [int_literal bind]. destruct k; cbn [literal]; apply E; lia.
  - (* GA_plus *) intros v k. split; [do 2 eexists; split; [reflexivity|reflexivity]|]. intros rest R Na [n E].
    step_ev n. cbn [int_literal bind app]. destruct k; cbn [literal]; apply E; lia.
  - (* GA_bool *) intros b. split; [do 2 eexists; split; reflexivity|]. intros rest R Na [n E].
    step_ev n. cbn [app bind]. apply E; lia.
  - (* GA_id *) intros x. split; [do 2 eexists; split; reflexivity|]. intros rest R Na [n E].
    destruct (no_args rest Na) as [Nm [n1 E1]]. step_ev (n + n1). cbn [app]. rewrite Nm, E1 by lia.
    cbn [bind]. apply E. lia.
  - (* GA_call *) intros x ats a _ [M H]. split; [do 2 eexists; split; reflexivity|]. intros rest R Na [n E].
    destruct (H rest) as [n1 E1]. step_ev (n + n1). cbn [app]. rewrite M, E1 by lia.
    cbn [bind]. apply E. lia.
  - (* GA_unit *) split; [do 2 eexists; split; reflexivity|]. intros rest R Na [n E].
    step_ev n. cbn [app peek_kind kind_eqb tl bind]. apply E. lia.
  - (* GA_unit_comma *) split; [do 2 eexists; split; reflexivity|]. intros rest R Na [n E].
    step_ev n. cbn [app peek_kind kind_eqb tl bind eat]. apply E. lia.
  - (* GA_paren *) intros ts e _ [S0 H]. split; [do 2 eexists; split; reflexivity|]. intros rest R Na [n E].
    cbn [app]. rewrite <- app_assoc. cbn [app]. destruct (H (TkRP :: rest) I) as [n1 E1]. step_ev (n + n1).
    rewrite (start_not TkRP), (start_not TkComma) by (try apply starts_app; cbn; auto).
    rewrite E1 by lia. cbn [bind]. apply E. lia.
  - (* GA_tuple *) intros ts e ts' l _ [S0 H] _ [H1 _]. split; [do 2 eexists; split; reflexivity|].
    intros rest R Na [n E]. cbn [app]. rewrite <- app_assoc. cbn [app]. rewrite <- app_assoc. cbn [app].
    destruct (H (TkComma :: ts' ++ TkRP :: rest) I) as [n1 E1].
    destruct (H1 TkRP rest (or_introl eq_refl)) as [n2 E2]. step_ev (n + n1 + n2).
    rewrite (start_not TkRP), (start_not TkComma) by (try apply starts_app; cbn; auto).
    rewrite E1 by lia. cbn [bind]. rewrite E2 by lia. cbn [bind eat kind_eqb]. apply E. lia.
  - (* GA_array *) intros ts l _ [H0 H]. split; [do 2 eexists; split; reflexivity|]. intros rest R Na [n E].
    cbn [app]. rewrite <- app_assoc. cbn [app]. destruct l as [|e l].
    + subst ts. step_ev n. cbn [app peek_kind kind_eqb tl bind]. apply E. lia.
    + destruct H as [[[S0 H] ->]|(ts1 & ts2 & -> & [S0 H] & H1)].
      * destruct (H (TkRB :: rest) I) as [n1 E1]. step_ev (S (n + n1)).
        rewrite (start_not TkRB) by (try apply starts_app; cbn; auto).
        rewrite E1 by lia. cbn [bind peek_kind kind_eqb].
        destruct k0 as [|k0]; [lia|]. cbn [p_list peek_kind kind_eqb bind eat]. apply E. lia.
      * rewrite <- app_assoc. cbn [app].
        destruct (H (TkComma :: ts2 ++ TkRB :: rest) I) as [n1 E1].
        destruct (H1 TkRB rest (or_intror eq_refl)) as [n2 E2]. step_ev (n + n1 + n2).
        rewrite (start_not TkRB) by (try apply starts_app; cbn; auto).
        rewrite E1 by lia. cbn [bind peek_kind kind_eqb tl]. rewrite E2 by lia.
        cbn [bind eat kind_eqb]. apply E. lia.
  - (* GA_shorthand *) intros ts e ts' m _ [S0 H] _ [S1 H1]. split; [do 2 eexists; split; reflexivity|].
    intros rest R Na [n E]. cbn [app]. rewrite <- app_assoc. cbn [app]. rewrite <- app_assoc. cbn [app].
    destruct (H (TkSemi :: ts' ++ TkRB :: rest) I) as [n1 E1].
    destruct (H1 (TkRB :: rest) I) as [n2 E2]. step_ev (n + n1 + n2).
    rewrite (start_not TkRB) by (try apply starts_app; cbn; auto).
    rewrite E1 by lia. cbn [bind peek_kind kind_eqb tl]. rewrite E2 by lia.
    cbn [bind eat kind_eqb]. apply E. lia.
  - (* GA_block *) intros ts e _ (e0 & ts0 & -> & -> & S0 & H). split; [do 2 eexists; split; reflexivity|].
    intros rest R Na [n E]. cbn [app]. rewrite <- app_assoc. cbn [app].
    destruct (H (TkRBrace :: rest) I) as [n1 E1]. step_ev (n + n1).
    rewrite E1 by lia. cbn [bind eat kind_eqb]. apply E. lia.
  - (* GA_if *) intros ts e _ [[r ->] H]. split; [do 2 eexists; split; reflexivity|].
    intros rest R Na [n E]. destruct (H rest) as [n1 E1]. step_ev (n + n1). cbn [app].
    cbn [app] in E1. rewrite E1 by lia. cbn [bind]. apply E. lia.
  - (* GB_block *) intros ts e _ H. exists e, ts. auto.
  - (* GI_else *) intros ts c ts1 t ts2 f _ [S0 H] _ (t0 & ts1' & -> & -> & S1 & H1) _ (f0 & ts2' & -> & -> & S2 & H2).
    split; [eexists; reflexivity|]. intros rest. cbn [app].
    repeat (rewrite <- app_assoc; cbn [app]).
    destruct (H (TkLBrace :: ts1' ++ TkRBrace :: TkElse :: TkLBrace :: ts2' ++ TkRBrace :: rest) I) as [n1 E1].
    destruct (H1 (TkRBrace :: TkElse :: TkLBrace :: ts2' ++ TkRBrace :: rest) I) as [n2 E2].
    destruct (H2 (TkRBrace :: rest) I) as [n3 E3]. step_ev (n1 + n2 + n3).
    cbn [eat kind_eqb bind]. rewrite E1 by lia. cbn [bind eat kind_eqb]. rewrite E2 by lia.
    cbn [bind eat kind_eqb peek_kind tl]. rewrite E3 by lia. reflexivity.
  - (* GI_elif *) intros ts c ts1 t ts2 f _ [S0 H] _ (t0 & ts1' & -> & -> & S1 & H1) _ [[r ->] H2].
    split; [eexists; reflexivity|]. intros rest. cbn [app].
    repeat (rewrite <- app_assoc; cbn [app]).
    destruct (H (TkLBrace :: ts1' ++ TkRBrace :: TkElse :: TkIf :: r ++ rest) I) as [n1 E1].
    destruct (H1 (TkRBrace :: TkElse :: TkIf :: r ++ rest) I) as [n2 E2].
    destruct (H2 rest) as [n3 E3]. step_ev (n1 + n2 + n3). cbn [app] in E3.
    cbn [eat kind_eqb bind]. rewrite E1 by lia. cbn [bind eat kind_eqb]. rewrite E2 by lia.
    cbn [bind eat kind_eqb peek_kind]. rewrite E3 by lia. reflexivity.
  - (* GR_positional *) intros ts l _ [H _]. split; [reflexivity|]. intros rest. cbn [app].
    rewrite <- app_assoc. cbn [app].
    destruct (H TkRP rest (or_introl eq_refl)) as [n E]. step_ev n.
    cbn [peek_kind kind_eqb tl]. cbn zeta. cbn [peek_kind kind_eqb tl]. rewrite E by lia. reflexivity.
  - (* GR_named *) intros ts l _ H. split; [reflexivity|]. intros rest. cbn [app].
    rewrite <- app_assoc. cbn [app]. destruct (H rest) as [n E]. step_ev n.
    cbn [peek_kind kind_eqb tl]. cbn zeta. cbn [peek_kind kind_eqb tl]. rewrite E by lia. reflexivity.
  - (* GL_nil *) split; [|reflexivity]. intros c rest Hc. step_ev 0. cbn [app peek_kind].
    destruct (kind_close c Hc) as (-> & _). reflexivity.
  - (* GL_one *) intros ts e _ H. split; [|left; auto]. destruct H as [S0 H]. intros c rest Hc.
    destruct (H (c :: rest) (closes c rest Hc)) as [n E]. step_ev n.
    rewrite start_not by (try (apply starts_app; assumption); destruct Hc as [-> | ->]; cbn; auto).
    rewrite E by lia. cbn [bind peek_kind]. destruct (kind_close c Hc) as (-> & _). reflexivity.
  - (* GL_cons *) intros ts e ts' l _ H _ [H1 _].
    assert (G : P_list0 (ts ++ TkComma :: ts') (ECons e l)).
    { destruct H as [S0 H]. intros c rest Hc. rewrite <- app_assoc. cbn [app].
      destruct (H (TkComma :: ts' ++ c :: rest) I) as [n E]. destruct (H1 c rest Hc) as [n1 E1]. step_ev (n + n1).
      rewrite start_not by (try (apply starts_app; assumption); destruct Hc as [-> | ->]; cbn; auto).
      rewrite E by lia. cbn [bind peek_kind tl]. destruct (kind_close c Hc) as (_ & -> & _).
      cbn [kind_eqb]. rewrite E1 by lia. reflexivity. }
    split; [exact G|]. right. exists ts, ts'. auto.
  - (* GN_nil *) intros rest. step_ev 0. reflexivity.
  - (* GN_full_one *) intros x ts e _ [S0 H] rest. cbn [app].
    destruct (H (TkRP :: rest) I) as [n E]. step_ev n.
    cbn [peek_kind kind_eqb identifier bind tl]. rewrite E by lia. reflexivity.
  - (* GN_full *) intros x ts e ts' l _ [S0 H] _ H1 rest. cbn [app]. rewrite <- app_assoc. cbn [app].
    destruct (H (TkComma :: ts' ++ TkRP :: rest) I) as [n E]. destruct (H1 rest) as [n1 E1]. step_ev (n + n1).
    cbn [peek_kind kind_eqb identifier bind tl]. rewrite E by lia.
    cbn [peek_kind kind_eqb bind tl]. rewrite E1 by lia. reflexivity.
  - (* GN_short_one *) intros x rest. step_ev 0. reflexivity.
  - (* GN_short *) intros x ts' l _ H rest. cbn [app]. destruct (H rest) as [n E]. step_ev n.
    cbn [peek_kind kind_eqb identifier bind tl]. rewrite E by lia. reflexivity.
Qed.

Theorem parse_complete ts e : g_expr false ts e -> parse ts = Some e.
Proof.
  intros G. destruct (proj1 complete ts e G) as [_ H]. destruct (H [] I) as [n E].
  rewrite app_nil_r in E. unfold parse. rewrite (parse_fuel ts n); rewrite E by lia; [reflexivity|discriminate].
Qed.

Theorem grammar_unambiguous ts e1 e2 : g_expr false ts e1 -> g_expr false ts e2 -> e1 = e2.
Proof. intros H1 H2. apply parse_complete in H1, H2. congruence. Qed.
