(** * The range of the 24-bit encoder, exactly *)

From Coq Require Import ZArith List Bool Reals Lra Lia.
From Flocq Require Import Core.Core IEEE754.BinarySingleNaN.
From Verif Require Import Model.Floats Model.SampleFormat Spec.Bytes Proof.FloatFacts Proof.SampleFormatP.
Import ListNotations.
Local Open Scope R_scope.

(** the f32 next to 1 *)
Definition above1 : f32 := lit 8388609 (-23).
Lemma above1_ok : is_finite above1 = true /\ B2R above1 = 1 + bpow radix2 (-23).
Proof.
  destruct (B2R_of_SF above1 false 8388609 (-23)) as [F V]; [vm_compute; reflexivity|]. split; [exact F|].
  rewrite V. change (bpow radix2 (-23)) with (/ 8388608). simpl cond_Zopp. lra.
Qed.
Lemma above_one (s : f32) : is_finite s = true -> 1 < B2R s -> 1 + bpow radix2 (-23) <= B2R s.
Proof.
  intros F H. assert (F1 : generic_format radix2 (FLT_exp (-149) 24) 1) by (change 1 with (bpow radix2 0); apply generic_format_bpow; unfold FLT_exp; lia).
  assert (FS : generic_format radix2 (FLT_exp (-149) 24) (B2R s)) by exact (fmt_B2R (prec:=24) (emax:=128) s).
  pose proof (succ_le_lt radix2 (FLT_exp (-149) 24) 1 (B2R s) F1 FS H) as L.
  rewrite succ_eq_pos in L by lra. replace (bpow radix2 (-23)) with (ulp radix2 (FLT_exp (-149) 24) 1); [exact L|].
  change 1 with (bpow radix2 0). rewrite ulp_bpow. reflexivity.
Qed.

Lemma i24_range_iff (s : f32) : is_nan s = false ->
  ((- (2 ^ 23 - 1) <= sample_to_i24 s <= 2 ^ 23 - 1)%Z <-> is_finite s = true /\ Rabs (B2R s) <= 1).
Proof.
  intro N. destruct above1_ok as [Fa Va]. split.
  - intro H. assert (E1 : sample_to_i24 above1 = 8388608%Z) by (vm_compute; reflexivity).
    assert (E2 : sample_to_i24 (fneg above1) = (-8388608)%Z) by (vm_compute; reflexivity).
    assert (U : fle above1 s = true -> False).
    { intro L. destruct (encoders_monotone _ _ L) as (_ & _ & M). lia. }
    assert (D : fle s (fneg above1) = true -> False).
    { intro L. destruct (encoders_monotone _ _ L) as (_ & _ & M). lia. }
    destruct (is_finite s) eqn:F.
    + split; [reflexivity|]. destruct (Rle_lt_dec (Rabs (B2R s)) 1) as [L|L]; [exact L|]. exfalso.
      destruct (Rle_lt_dec 0 (B2R s)) as [P|P].
      * rewrite Rabs_pos_eq in L by exact P. apply U. apply fle_true; [exact Fa|exact F|]. rewrite Va. apply above_one; assumption.
      * rewrite Rabs_left in L by exact P. apply D. pose proof (fneg_fin s) as Fn. pose proof (fneg_R s) as Vn.
        apply fle_true; [exact F|rewrite (fneg_fin above1); exact Fa|].
        rewrite (fneg_R above1), Va. assert (1 + bpow radix2 (-23) <= B2R (fneg s)); [|lra].
        apply above_one; [rewrite Fn; exact F|lra].
    + exfalso. destruct s as [b|b| |b sm e HB]; try discriminate. destruct b; [apply D|apply U]; reflexivity.
  - intros [F H]. pose proof (i24_in_range s F H). lia.
Qed.

Lemma i24_bytes_wrap (s : f32) : exists v k : Z, denotes (sample_to_i24_bytes s) v /\ sample_to_i24 s = (v + k * 2 ^ 24)%Z.
Proof.
  set (u := sample_to_i24 s). set (k := ((u + 2 ^ 23) / 2 ^ 24)%Z). exists (u - k * 2 ^ 24)%Z, k. split; [|lia].
  unfold sample_to_i24_bytes. fold u. replace u with ((u - k * 2 ^ 24) + k * 2 ^ 24)%Z at 1 by lia. rewrite to_le_4_mod.
  apply denotes_i24. unfold k. pose proof (Z.div_mod (u + 2 ^ 23) (2 ^ 24) ltac:(lia)). pose proof (Z.mod_pos_bound (u + 2 ^ 23) (2 ^ 24) ltac:(lia)). lia.
Qed.
