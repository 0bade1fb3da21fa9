(** Printed expressions are in the grammar, so they parse back (C37). *)
From Coq Require Import List ZArith Lia Bool Arith.
From Verif Require Import ParseModel ParseSpec ParseFuel ParseComplete.
Import ListNotations.
Local Open Scope list_scope.

Scheme expr_mind := Induction for expr Sort Prop
with exprs_mind := Induction for exprs Sort Prop
with oexpr_mind := Induction for oexpr Sort Prop
with args_mind := Induction for args Sort Prop
with named_mind := Induction for named Sort Prop.
Combined Scheme expr_mutind from expr_mind, exprs_mind, oexpr_mind, args_mind, named_mind.

Definition der (k : nat) (ts : list tok) (e : expr) : Prop :=
  if k <=? 12 then g_bin false k ts e else if k =? 13 then g_post false ts e else g_suf false ts e.

Lemma der_bin_down j k ts e : g_bin false j ts e -> k <= j <= 12 -> g_bin false k ts e.
Proof.
  intros G [H1 H2]. replace k with (j - (j - k)) by lia. generalize (j - k) as d; intros d.
  induction d as [|d IH]; [now rewrite Nat.sub_0_r|].
  destruct (Nat.le_gt_cases j d).
  - now replace (j - S d) with (j - d) by lia.
  - apply GB_up; [lia|]. now replace (S (j - S d)) with (j - d) by lia.
Qed.

Lemma der_down j k ts e : der j ts e -> k <= j <= 14 -> der k ts e.
Proof.
  unfold der. intros D H.
  assert (P : 12 < j -> g_post false ts e).
  { intros Hj. destruct (Nat.leb_spec j 12); [lia|]. destruct (Nat.eqb_spec j 13); [assumption|now constructor]. }
  assert (B : g_bin false (Nat.min j 12) ts e).
  { destruct (Nat.leb_spec j 12).
    - now rewrite Nat.min_l by lia.
    - rewrite Nat.min_r by lia. apply GB_un, GU_post, P. lia. }
  destruct (Nat.leb_spec k 12); [apply der_bin_down with (Nat.min j 12); [assumption|lia]|].
  destruct (Nat.eqb_spec k 13); [apply P; lia|].
  destruct (Nat.leb_spec j 12); [lia|]. destruct (Nat.eqb_spec j 13); [lia|assumption].
Qed.

Lemma der_expr k ts e : der k ts e -> 1 <= k <= 14 -> g_expr false ts e.
Proof. intros D H. apply GE_bin. exact (der_down k 1 ts e D H). Qed.

Lemma level_of_range e : 1 <= level_of e <= 14.
Proof. destruct e; cbn; try lia; [destruct (z <? 0)%Z; lia|pose proof (level_range o); lia]. Qed.

Lemma print_eq e k : print e k =
  if level_of e <? k then TkLP :: print e 0 ++ [TkRP] else print e 0.
Proof. destruct e; reflexivity. Qed.

(** The printed form without outer parentheses. *)
Definition R (e : expr) : Prop := valid e ->
  exists e', der (level_of e) (print e 0) e' /\ strip e' = strip e /\ is_literal e' = is_literal e
    /\ match e with
       | EBlock _ => g_block false (print e 0) e'
       | EIf _ _ _ => g_if false (print e 0) e'
       | _ => True
       end.

Lemma R_at e k : R e -> valid e -> k <= 14 ->
  exists e', der k (print e k) e' /\ strip e' = strip e /\ (is_literal e' = true -> is_literal e = true).
Proof.
  intros H V Hk. destruct (H V) as (e' & D & St & Li & _). rewrite print_eq.
  pose proof (level_of_range e).
  destruct (Nat.ltb_spec (level_of e) k).
  - exists (EParen e'). split; [|split; [exact St|discriminate]].
    apply der_down with 14; [|lia]. unfold der. cbn. apply GS_base, GA_paren.
    apply der_expr with (level_of e); [assumption|lia].
  - exists e'. split; [apply der_down with (level_of e); [assumption|lia]|]. split; [exact St|congruence].
Qed.

Lemma R_expr e : R e -> valid e -> exists e', g_expr false (print e 1) e' /\ strip e' = strip e.
Proof.
  intros H V. destruct (R_at e 1 H V) as (e' & D & St & _); [lia|]. exists e'. split; [|assumption].
  apply der_expr with 1; [assumption|lia].
Qed.

Lemma R_suf e : R e -> valid e -> exists e', g_suf false (print e 14) e' /\ strip e' = strip e.
Proof. intros H V. destruct (R_at e 14 H V) as (e' & D & St & _); [lia|]. exists e'. auto. Qed.

Definition R_list (l : exprs) : Prop := valid_list l ->
  (exists l', g_list false (print_list l) l' /\ strip_list l' = strip_list l)
  /\ match l with
     | ENil => True
     | ECons e r => exists e' r', g_expr false (print e 1) e' /\ strip e' = strip e
         /\ g_list false (print_list r) r' /\ strip_list r' = strip_list r
     end.
Definition R_opt (o : oexpr) : Prop := valid_opt o ->
  exists o', g_opt false (print_opt o) o' /\ strip_opt o' = strip_opt o.
Definition R_args (a : args) : Prop := valid_args a ->
  exists a', g_args false (print_args a) a' /\ strip_args a' = strip_args a.
Definition R_named (l : named) : Prop := valid_named l ->
  exists l', g_named false (print_named l) l' /\ strip_named l' = strip_named l.

Lemma printed :
  (forall e, R e) /\ (forall l, R_list l) /\ (forall o, R_opt o) /\ (forall a, R_args a) /\ (forall l, R_named l).
Proof.
  apply expr_mutind.
  - (* EInt *) intros z k V. cbn [level_of print]. destruct (Z.ltb_spec z 0) as [Hz|Hz].
    + exists (EInt z k). cbn [Nat.ltb Nat.leb]. split; [|auto]. unfold der. cbn [Nat.leb].
      apply GB_un. apply (GU_op false USub_ [TkInt (Z.to_N (- z)) k] (EInt (Z.of_N (Z.to_N (- z))) k)).
      * apply GU_post, GP_suf, GS_base, GA_int.
      * rewrite Z2N.id by lia. destruct k; cbn in *; rewrite ?Z.opp_involutive; try reflexivity. lia.
    + exists (EInt z k). split; [|auto]. unfold der. cbn [Nat.leb Nat.eqb Nat.ltb].
      rewrite <- (Z2N.id z) at 2 by lia. apply GS_base, GA_int.
  - (* EBool *) intros b V. exists (EBool b). split; [|auto]. apply GS_base, GA_bool.
  - (* EId *) intros x V. exists (EId x). split; [|auto]. apply GS_base, GA_id.
  - (* ECall *) intros f a IH V. destruct (IH V) as (a' & G & St). exists (ECall f a').
    split; [|cbn; rewrite St; auto]. apply GS_base, GA_call, G.
  - (* ETuple *) intros l IH V. destruct (IH V) as [_ St]. destruct l as [|e r].
    + exists (ETuple ENil). split; [|auto]. apply GS_base, GA_unit.
    + destruct St as (e' & r' & G & Se & Gr & Sr). exists (ETuple (ECons e' r')).
      split; [|cbn; rewrite Se, Sr; auto]. apply GS_base, GA_tuple; assumption.
  - (* EParen *) intros e IH V. destruct (R_expr e IH V) as (e' & G & St). exists (EParen e').
    split; [|cbn; rewrite St; auto]. apply GS_base, GA_paren, G.
  - (* EArray *) intros l IH V. destruct (IH V) as [(l' & G & St) _]. exists (EArray l').
    split; [|cbn; rewrite St; auto]. apply GS_base, GA_array, G.
  - (* EShorthand *) intros e IH m IHm [V Vm]. destruct (R_expr e IH V) as (e' & G & St).
    destruct (R_expr m IHm Vm) as (m' & Gm & Sm). exists (EShorthand e' m').
    split; [|cbn; rewrite St, Sm; auto]. apply GS_base, GA_shorthand; assumption.
  - (* EIndex *) intros e IH i IHi [V Vi]. destruct (R_suf e IH V) as (e' & G & St).
    destruct (R_expr i IHi Vi) as (i' & Gi & Si). exists (EIndex e' i').
    split; [|cbn; rewrite St, Si; auto]. apply GS_index; assumption.
  - (* ERange *) intros e IH s IHs t IHt (V & Vs & Vt). destruct (R_suf e IH V) as (e' & G & St).
    destruct (IHs Vs) as (s' & Gs & Ss). destruct (IHt Vt) as (t' & Gt & St').
    exists (ERange e' s' t'). split; [|cbn; rewrite St, Ss, St'; auto]. apply GS_range; assumption.
  - (* ETupleIndex *) intros e IH i d [V Vi]. destruct (R_suf e IH V) as (e' & G & St).
    exists (ETupleIndex e' i d). split; [|cbn; rewrite St; auto].
    unfold der. cbn [level_of Nat.leb Nat.eqb print Nat.ltb]. rewrite <- (Z2N.id i) at 2 by lia.
    apply GS_tuple_index; [assumption|]. rewrite Z2N.id by lia. lia.
  - (* EField *) intros e IH x V. destruct (R_suf e IH V) as (e' & G & St). exists (EField e' x).
    split; [|cbn; rewrite St; auto]. apply GS_field, G.
  - (* EMethod *) intros e IH x a IHa [V Va]. destruct (R_suf e IH V) as (e' & G & St).
    destruct (IHa Va) as (a' & Ga & Sa). exists (EMethod e' x a').
    split; [|cbn; rewrite St, Sa; auto]. apply GS_method; assumption.
  - (* ECast *) intros e IH t V. destruct (R_suf e IH V) as (e' & G & St). exists (ECast e' t).
    split; [|cbn; rewrite St; auto]. apply GP_cast, G.
  - (* EUn *) intros u e IH V. cbn [print Nat.ltb Nat.leb level_of]. destruct (is_literal e) eqn:L.
    + destruct (R_expr e IH V) as (e' & G & St). exists (EUn u (EParen e')).
      split; [|cbn; rewrite St; auto]. apply GB_un. apply GU_op with (EParen e').
      * apply GU_post, GP_suf, GS_base, GA_paren, G.
      * destruct u; reflexivity.
    + destruct (R_at e 12 IH V) as (e' & G & St & Li); [lia|]. exists (EUn u e').
      split; [|cbn; rewrite St; auto]. apply GB_un. apply GU_op with e'.
      * unfold der in G. cbn [Nat.leb] in G. inversion G; subst; try assumption; try lia.
        destruct o; discriminate.
      * rewrite L in Li. destruct u, e'; try reflexivity. destruct k; specialize (Li eq_refl); discriminate.
  - (* EBin *) intros l IHl o r IHr [Vl Vr]. pose proof (level_range o) as Lr.
    destruct (R_at l (level o) IHl Vl) as (l' & Gl & Sl & _); [lia|].
    destruct (R_at r (S (level o)) IHr Vr) as (r' & Gr & Sr & _); [lia|].
    exists (EBin l' o r'). split; [|cbn; rewrite Sl, Sr; auto].
    unfold der in *. cbn [level_of].
    destruct (Nat.leb_spec (level o) 12); [|lia]. destruct (Nat.leb_spec (S (level o)) 12); [|lia].
    cbn [print level_of Nat.ltb Nat.leb].
    apply GB_op; assumption.
  - (* EBlock *) intros e IH V. destruct (R_expr e IH V) as (e' & G & St). exists (EBlock e').
    split; [|split; [cbn; now rewrite St|split; [reflexivity|now constructor]]].
    apply GS_base, GA_block. now constructor.
  - (* EIf *) intros c IHc t IHt f IHf (Vc & Vt & Vf & Bt & Bf).
    destruct (R_expr c IHc Vc) as (c' & Gc & Sc).
    destruct (IHt Vt) as (t' & _ & St & _ & Gt). destruct (IHf Vf) as (f' & _ & Sf & _ & Gf).
    assert (G : g_if false (print (EIf c t f) 0) (EIf c' t' f')).
    { cbn [print level_of Nat.ltb Nat.leb]. rewrite (print_eq t 14), (print_eq f 14).
      destruct t; try contradiction. cbn [level_of Nat.ltb Nat.leb] in *.
      destruct f; try contradiction; cbn [level_of Nat.ltb Nat.leb] in *.
      - apply GI_else; assumption.
      - apply GI_elif; assumption. }
    exists (EIf c' t' f'). split; [|split; [cbn; now rewrite Sc, St, Sf|auto]].
    apply GS_base, GA_if, G.
  - (* ENil *) intros V. split; [|exact I]. exists ENil. split; [constructor|reflexivity].
  - (* ECons *) intros e IH l IHl [V Vl]. destruct (R_expr e IH V) as (e' & G & St).
    destruct (IHl Vl) as [(l' & Gl & Sl) _]. split; [|exists e', l'; auto]. exists (ECons e' l').
    split; [|cbn; rewrite St, Sl; auto]. destruct l as [|e2 l].
    + destruct l'; [|discriminate Sl]. cbn [print_list]. now apply GL_one.
    + change (g_list false (print e 1 ++ TkComma :: print_list (ECons e2 l)) (ECons e' l')). now apply GL_cons.
  - (* ENone *) intros V. exists ENone. split; [constructor|reflexivity].
  - (* ESome *) intros e IH V. destruct (R_expr e IH V) as (e' & G & St). exists (ESome e').
    split; [now constructor|cbn; now rewrite St].
  - (* APositional *) intros l IH V. destruct (IH V) as [(l' & G & St) _]. exists (APositional l').
    split; [now constructor|cbn; now rewrite St].
  - (* ANamed *) intros l IH V. destruct (IH V) as (l' & G & St). exists (ANamed l').
    split; [now constructor|cbn; now rewrite St].
  - (* NNil *) intros V. exists NNil. split; [constructor|reflexivity].
  - (* NFull *) intros x e IH l IHl [V Vl]. destruct (R_expr e IH V) as (e' & G & St).
    destruct (IHl Vl) as (l' & Gl & Sl). exists (NFull x e' l').
    split; [now apply GN_full|cbn; now rewrite St, Sl].
  - (* NShort *) intros x l IHl Vl. destruct (IHl Vl) as (l' & Gl & Sl). exists (NShort x l').
    split; [now apply GN_short|cbn; now rewrite Sl].
Qed.

Theorem round_trip e : valid e -> exists e', parse (print e 1) = Some e' /\ strip e' = strip e.
Proof.
  intros V. destruct (R_expr e (proj1 printed e) V) as (e' & G & St). exists e'.
  split; [now apply parse_complete|assumption].
Qed.
