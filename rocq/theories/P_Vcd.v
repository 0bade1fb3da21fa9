(** C33 numbers and C34 values in waveforms. *)
From Coq Require Import String List ZArith Lia Bool Arith.
From Verif Require Import Bits BitsFacts Verilog CodegenModel CodegenSpec CgLayout ConcModel VcdModel VcdSpec VcdProofs.
Import ListNotations.
Local Open Scope list_scope.

(** ** C33.  [as_bits] reads the waveform value, most significant bit first. *)
Theorem C33_unsigned : forall v, ~ In VX v -> ~ In VZ v ->
  exists z, uval (as_bits v) = Some z /\ translate_unsigned_int v = Value z.
Proof.
  intros v X Z. exists (bin false v). assert (U := uval_as_bits v (conj X Z)). split; auto.
  apply unsigned_value; auto.
Qed.
Print Assumptions C33_unsigned.
Theorem C33_signed : forall v, v <> [] -> ~ In VX v -> ~ In VZ v ->
  exists z, sval (as_bits v) = Some z /\ translate_signed_int v = Some (Value z).
Proof.
  intros v N X Z. assert (U := uval_as_bits v (conj X Z)).
  unfold sval. rewrite U. destruct (msb (as_bits v)) eqn:M; eexists; split; eauto; apply signed_value; auto;
  unfold sval; rewrite U, M; auto.
Qed.
Print Assumptions C33_signed.
(** Unknown bits are reported; X before Z. *)
Theorem C33_undefined : forall v,
  (In VX v -> translate_unsigned_int v = Undef /\ translate_signed_int v = Some Undef) /\
  (~ In VX v -> In VZ v -> translate_unsigned_int v = HighImpedance /\ translate_signed_int v = Some HighImpedance).
Proof.
  intros v. unfold translate_unsigned_int, translate_signed_int. split.
  - intros H. apply contains_in in H. rewrite H. auto.
  - intros N H. apply contains_in in H. rewrite H.
    destruct (contains v VX) eqn:E; auto. apply contains_in in E. contradiction.
Qed.
Print Assumptions C33_undefined.
(** A value of more than 64 bits, and a negative one. *)
Example C33_nontrivial :
  translate_unsigned_int (V1 :: repeat V0 64) = Value (2 ^ 64)%Z /\
  translate_signed_int (V1 :: repeat V0 69 ++ [V1]) = Some (Value (1 - 2 ^ 70)%Z) /\
  translate_signed_int [V0; VZ; VX] = Some Undef.
Proof. vm_compute. auto. Qed.

(** ** C34.  For every value of every type, the bits the generated code builds for it
    are printed as that value; whatever the unused bits of an enum are.  Arrays come
    out with the last element first, see below: hence partial. *)
Theorem C34_text_partial : forall t v w wave,
  carries t v w -> shows w wave -> translate_value t wave = Some (show (@rev string) v t).
Proof. intros t v w wave C S. destruct translate_ok as [T _]. destruct (T t v w C) as [_ G]. auto. Qed.
Print Assumptions C34_text_partial.

Theorem C34_text_short_arrays : forall t v w wave,
  carries t v w -> short_arrays t = true -> shows w wave -> translate_value t wave = Some (show (fun l => l) v t).
Proof.
  intros t v w wave C A S. rewrite (C34_text_partial _ _ _ _ C S). f_equal.
  destruct show_short as [T _]. eauto.
Qed.
Print Assumptions C34_text_short_arrays.

(** The array [1, 2] is printed as [2,1]. *)
Theorem C34_array_refuted : exists t v w wave s,
  carries t v w /\ shows w wave /\ translate_value t wave = Some s /\ s <> show (fun l => l) v t /\
  s = "[2,1]"%string /\ show (fun l => l) v t = "[1,2]"%string.
Proof.
  exists (CArray (CUInt 2) 2), (AArray [ANum 1; ANum 2]), [B1; B0; B0; B1], [V1; V0; V0; V1], "[2,1]"%string.
  split.
  - eapply (c_array _ _ _ [[B1; B0]; [B0; B1]]); [|reflexivity].
    repeat constructor.
  - split; [repeat constructor|]. split; [reflexivity|]. split; [|split]; try reflexivity. vm_compute. discriminate.
Qed.
Print Assumptions C34_array_refuted.

(** A value whose leading digits are left out in the file is printed like the whole. *)
Theorem C34_abbreviated : forall t v w wave short,
  carries t v w -> shows w wave -> abbreviates short wave -> translate_value t short = translate_value t wave.
Proof.
  intros t v w wave short C S A. apply abbreviated_same; auto. rewrite (shows_length _ _ S).
  destruct translate_ok as [T _]. apply (T t v w C).
Qed.
Print Assumptions C34_abbreviated.

(** Struct { a: int<3>, e: Option<(bool, uint<1>)> } with value {-2, Some((true, 0))}. *)
Definition opt_ty := CEnum [("None", []); ("Some", [("val", CTuple [CBool; CUInt 1])])]%string.
Definition ex_ty := CStruct [("a", CInt 3); ("e", opt_ty)]%string.
Definition ex_value := AStruct [ANum (-2); AVariant 1 [ATuple [ABool true; ANum 0]]].
Example C34_nontrivial :
  carries ex_ty ex_value [B0; B1; B1; B0; B1; B1] /\ short_arrays ex_ty = true /\
  translate_value ex_ty [V1; V1; V0; V1; V1; V0] = Some "{a:-2,e:Some((true,0))}"%string /\
  carries opt_ty (AVariant 0 []) [BX; BX; B0] /\
  translate_value opt_ty [V0; VX; V1] = Some "None()"%string.
Proof.
  split.
  { eapply (c_struct _ _ [[B0; B1; B1]; [B0; B1; B1]]); [|reflexivity].
    constructor; [repeat constructor|]. constructor; [|constructor].
    eapply (c_enum _ _ _ _ _ [[B0; B1]]); [reflexivity| |reflexivity].
    constructor; [|constructor]. eapply (c_tuple _ _ [[B1]; [B0]]); [|reflexivity].
    repeat constructor. }
  split; [reflexivity|]. split; [reflexivity|]. split; [|reflexivity].
  eapply (c_enum _ _ _ _ _ []); [reflexivity|constructor|reflexivity].
Qed.
