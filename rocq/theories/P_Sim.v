(** C45: fields of ports in the simulation API. *)
From Coq Require Import String List Arith Bool Lia.
From Verif Require Import Bits BitsFacts Verilog CodegenModel CodegenSpec InvModel ConcModel SimModel SimSpec SimProofs.
Import ListNotations.
Local Open Scope list_scope.

(** A path is accepted exactly when it goes through fields of structs. *)
Theorem C45_paths : forall t path, proper t ->
  ((exists fr, fields (whole t) path = Found fr) <-> (exists u, has_path t path u)) /\
  (forall fr, fields (whole t) path = Found fr -> has_path t path (f_ty fr)).
Proof.
  intros t path P. split; [split|].
  - intros [fr H]. exists (f_ty fr). apply (path_only path (whole t) fr H).
  - intros [u H]. destruct (path_found _ _ _ H P (whole t) eq_refl) as (fr & F & _). eauto.
  - intros fr H. apply (path_only path (whole t) fr H).
Qed.
Print Assumptions C45_paths.

(** What is read at a path is what the generated field accesses give. *)
Theorem C45_read : forall t path fr (w : bits), proper t -> fields (whole t) path = Found fr ->
  List.length w = fwd_size t ->
  exists y, field_bits t path (f_ty fr) w y /\
    match f_fwd fr with
    | Some r => rev (read_range (rev w) r) = y
    | None => y = []
    end.
Proof.
  intros t path fr w P H L. destruct (fields_ok path (whole t) fr P H) as [A _].
  destruct (A _ _ (whole_inv _ _ L)) as (y & FB & Ly & I). exists y. split; auto.
  destruct (f_fwd fr) as [r|].
  - destruct I as (T & B & NZ & E & _). rewrite read_range_slice by lia. rewrite E. f_equal. lia.
  - rewrite I in Ly. destruct y; auto; discriminate.
Qed.
Print Assumptions C45_read.

(** Writing at a path puts the value in the field and changes no other bit. *)
Theorem C45_write : forall t path fr r (w x : bits), proper t -> fields (whole t) path = Found fr ->
  f_fwd fr = Some r -> List.length w = fwd_size t -> List.length x = fwd_size (f_ty fr) ->
  List.length (write_range w r x) = List.length w /\
  field_bits t path (f_ty fr) (write_range w r x) x /\
  forall i, ~ (fst (as_downto r (fwd_size t)) <= i < snd (as_downto r (fwd_size t))) ->
    nth i (write_range w r x) BX = nth i w BX.
Proof.
  intros t path fr r w x P H F L Lx. destruct (fields_ok path (whole t) fr P H) as [A _].
  assert (LW : List.length (write_range w r x) = List.length w).
  { destruct (A _ _ (whole_inv _ _ L)) as (y & _ & _ & I). rewrite F in I. destruct I as (T & B & NZ & E & FL).
    unfold write_range. destruct (r_full r).
    - destruct (FL eq_refl). lia.
    - unfold as_downto. apply set_bits_length. }
  split; auto.
  destruct (A _ _ (whole_inv t _ (eq_trans LW L))) as (y & FB & Ly & I). rewrite F in I.
  destruct I as (T & B & NZ & E & FL). rewrite LW in *.
  assert (XY : y = x /\ forall i, ~ (List.length w - r_to r <= i < List.length w - r_from r) ->
    nth i (write_range w r x) BX = nth i w BX).
  { subst y. unfold write_range, as_downto. destruct (r_full r).
    - destruct (FL eq_refl) as [F0 F1]. split.
      + rewrite F1, Nat.sub_diag. rewrite slice_spec by lia. cbn [skipn]. apply firstn_all2. lia.
      + intros i Hi. rewrite !nth_overflow; auto; lia.
    - rewrite firstn_all2 by lia. split.
      + apply nth_ext with (d := BX) (d' := BX); [rewrite length_slice; auto|].
        intros n Hn. rewrite length_slice in Hn.
        rewrite slice_spec by (rewrite set_bits_length; lia). 
        rewrite nth_firstn_lt by auto. rewrite nth_skipn_add.
        rewrite set_bits_nth by lia.
        replace (_ <=? _) with true by (symmetry; apply Nat.leb_le; lia).
        replace (_ <? _) with true by (symmetry; apply Nat.ltb_lt; lia). cbn [andb]. f_equal. lia.
      + intros i Hi. rewrite set_bits_nth by lia.
        destruct (Nat.leb_spec (List.length w - r_to r) i); cbn [andb]; auto.
        destruct (Nat.ltb_spec i (List.length w - r_to r + List.length x)); auto. exfalso. lia. }
  destruct XY as [-> O]. split; auto. rewrite <- L. exact O.
Qed.
Print Assumptions C45_write.

(** The backward range of a field: bit [k] of the backward part of the field is the bit
    at offset [k] of its range. *)
Theorem C45_backward : forall t path fr, proper t -> fields (whole t) path = Found fr ->
  match f_back fr with
  | Some r => snd (as_downto r (back_size t)) = fst (as_downto r (back_size t)) + back_size (f_ty fr) /\
      forall k, k < back_size (f_ty fr) ->
      back_bit t path (f_ty fr) k (fst (as_downto r (back_size t)) + k)
  | None => back_size (f_ty fr) = 0
  end.
Proof.
  intros t path fr P H. destruct (fields_ok path (whole t) fr P H) as [_ B].
  destruct (B _ _ (whole_back t)) as (pos & I & Q). unfold back_inv in I. destruct (f_back fr) as [r|]; auto.
  destruct I as (T & Le & NZ & E & _). cbn. split; [lia|]. intros k Hk. destruct (Q k Hk) as (p & BB & EP & _).
  cbn in EP. rewrite <- E, EP. exact BB.
Qed.
Print Assumptions C45_backward.

(** A field of an inverted struct exists, but asking for it panics. *)
Theorem C45_inverted_refuted : exists t f u, (exists ms, t = CBackward (CStruct ms) /\ In (f, u) ms) /\
  fields (whole t) [f] = Crash.
Proof.
  exists (CBackward (CStruct [("a"%string, CBool)])), "a"%string, (CBool).
  split; [eexists; split; [reflexivity|left; reflexivity]|]. vm_compute. reflexivity.
Qed.
Print Assumptions C45_inverted_refuted.

(** A session answers every request as if it were the first, as long as the requests
    are for ports and fields that exist. *)
Theorem C45_history_partial : forall output args qs,
  (forall root path, In (root, path) qs -> exists t fr, unit_ports output args root = Some t /\
     fields (whole t) path = Found fr) ->
  requests (unit_ports output args) new_session qs =
  map (fun q => match unit_ports output args (fst q) with
    | Some t => fields (whole t) (snd q) | None => NoSuchField end) qs.
Proof.
  intros output args qs H. apply requests_ok; auto.
  - intros. eapply unit_ports_distinct; eauto.
  - intros p f [].
Qed.
Print Assumptions C45_history_partial.

(** Missing: after a request for a field that does not exist, which is an error, a
    request that is fine panics. *)
Theorem C45_history_refuted : exists t bad good fr,
  fields (whole t) bad = NoSuchField /\ fields (whole t) good = Found fr /\
  requests (unit_ports (Some t) []) new_session [(["o"%string], bad); (["o"%string], good)] = [NoSuchField; Crash].
Proof.
  exists (CStruct [("x"%string, CBool)]), ["y"%string], ["x"%string]. eexists.
  split; [vm_compute; reflexivity|]. split; [vm_compute; reflexivity|]. vm_compute. reflexivity.
Qed.
Print Assumptions C45_history_refuted.

(** struct Inner {x: uint<3>, y: bool}; struct Outer {a: int<4>, b: Inner, c: inv uint<2>, d: bool} *)
Definition ex_inner := CStruct [("x"%string, CUInt 3); ("y"%string, CBool)].
Definition ex_outer := CStruct [("a"%string, CInt 4); ("b"%string, ex_inner);
  ("c"%string, CBackward (CUInt 2)); ("d"%string, CBool); ("e"%string, CBackward CBool)].
Example C45_nontrivial : proper ex_outer /\
  fields (whole ex_outer) ["b"; "x"]%string = Found (mkRef (Some (mkRange 4 7 false)) None (CUInt 3)) /\
  fields (whole ex_outer) ["c"]%string = Found (mkRef None (Some (mkRange 0 2 false)) (CBackward (CUInt 2))) /\
  fields (whole ex_outer) ["z"]%string = NoSuchField /\
  read_range (rev (rev [B0;B0;B0;B0; B1;B1;B0; B0; B1])) (mkRange 4 7 false) = [B1;B1;B0] /\
  write_range (repeat B0 9) (mkRange 4 7 false) [B1;B0;B1] = [B0;B0;B1;B0;B1;B0;B0;B0;B0] /\
  write_range [B0; B1] (mkRange 0 2 true) [B1;B0] = [B1;B0].
Proof.
  split.
  { constructor.
    - cbn. repeat constructor; cbn; intuition discriminate.
    - repeat apply Forall_cons; try apply Forall_nil; cbn [snd]; try (apply pr_other; discriminate).
      constructor.
      + cbn. repeat constructor; cbn; intuition discriminate.
      + repeat apply Forall_cons; try apply Forall_nil; cbn [snd]; apply pr_other; discriminate. }
  split; [vm_compute; reflexivity|]. split; [vm_compute; reflexivity|]. split; [vm_compute; reflexivity|].
  split; [vm_compute; reflexivity|]. split; vm_compute; reflexivity.
Qed.

Example C45_history_nontrivial :
  requests (unit_ports (Some ex_outer) [("a"%string, ex_inner)]) new_session
    [(["o"], ["b"; "x"]); (["i"; "a"], ["x"]); (["o"], ["b"; "y"]); (["o"], ["b"; "x"])]%string =
  [Found (mkRef (Some (mkRange 4 7 false)) None (CUInt 3)); Found (mkRef (Some (mkRange 0 3 false)) None (CUInt 3));
   Found (mkRef (Some (mkRange 7 8 false)) None CBool); Found (mkRef (Some (mkRange 4 7 false)) None (CUInt 3))].
Proof. vm_compute. reflexivity. Qed.
