(** * C83-C85: LowPass and HighPass in the f32 arithmetic of the program: where they stay bounded, where they do not, and what a constant leaves behind

    [cos_accurate], [pow_int_accurate] (Spec/Libm.v): the platform's cos is within 2^-50 on [-8,8], and powf(x,2), powf(x,3)
    are within a relative 2^-50; both hold of correctly rounded functions ([ideal_libm]). *)

From Coq Require Import ZArith List Bool Reals Lra Lia.
From Flocq Require Import Core.Core IEEE754.BinarySingleNaN.
From Verif Require Import Model.Floats Model.Modifiers Model.Filters Spec.Libm Proof.FloatFacts Proof.LibmP Proof.FormatsP Proof.GeneratorsP4
  Proof.FilterNanP Proof.FilterF32P2 Proof.FilterDcP Proof.FilterDcP2.
Import ListNotations.
Local Open Scope R_scope.

(** ** C83: stability in f32 from 600 Hz on, for any resonance argument (it is clamped) and any bounded input *)
Theorem C83_lowpass_f32_bounded : forall (m : libm) (fc r : f64) (X : R) (xs : list f32), cos_accurate m -> pow_int_accurate m ->
  let s := lp_new m fc r in fle (of_Z 600) (lp_fc s) = true ->
  bpow radix2 (-100) <= X <= bpow radix2 90 -> (forall x, In x xs -> fin x /\ Rabs (B2R x) <= X) ->
  forall y, In y (fst (run lp_process s xs)) -> fin y /\ Rabs (B2R y) <= (92000 / B2R (lp_fc s) + 6) * X.
Proof. exact lp_f32_stable. Qed.
Theorem C83_highpass_f32_bounded : forall (m : libm) (fc r : f64) (X : R) (xs : list f32), cos_accurate m -> pow_int_accurate m ->
  let s := hp_new m fc r in fle (of_Z 600) (hp_fc s) = true ->
  bpow radix2 (-100) <= X <= bpow radix2 90 -> (forall x, In x xs -> fin x /\ Rabs (B2R x) <= X) ->
  forall y, In y (fst (run hp_process s xs)) -> fin y /\ Rabs (B2R y) <= (368000 / B2R (hp_fc s) + 26) * X.
Proof. exact hp_f32_stable. Qed.
(** 1000 Hz, resonance 1, input 1, -1, 1: the hypotheses hold and the bound is 98 *)
Example C83_ex : forall y, In y (fst (run lp_process (lp_new ideal_libm (of_Z 1000) (of_Z 1)) [f1; fneg f1; f1])) -> Rabs (B2R y) <= 98.
Proof.
  intros y Hy. assert (EF : lp_fc (lp_new ideal_libm (of_Z 1000) (of_Z 1)) = of_Z 1000).
  { change (clamp_fc (of_Z 1000) = of_Z 1000). apply B2SF_inj. vm_compute. reflexivity. }
  assert (V : B2R (of_Z 1000 : f64) = 1000) by (apply of_Z64; lia).
  assert (O : B2R (f1 : f32) = 1) by (unfold B2R; cbn; unfold F2R; cbn; lra).
  destruct (C83_lowpass_f32_bounded ideal_libm (of_Z 1000) (of_Z 1) 1 [f1; fneg f1; f1] ideal_cos_accurate ideal_pow_int) with (y := y) as [_ B].
  - rewrite EF. vm_compute. reflexivity.
  - change 1 with (bpow radix2 0). split; apply bpow_le; lia.
  - intros x [<-|[<-|[<-|[]]]]; (split; [reflexivity|]); rewrite ?fneg_R, O, ?Rabs_Ropp, Rabs_pos_eq; lra.
  - exact Hy.
  - rewrite EF, V in B. lra.
Qed.

(** ** C84: no such bound at 20 Hz: resonance 1, constant input 1.0, and from some sample on every output is NaN, whatever is fed afterwards *)
Theorem C84_lowpass_f32_stable_refuted : forall m : libm, cos_accurate m -> pow_int_accurate m ->
  exists n : nat, forall (xs : list f32) (y : f32),
    In y (fst (run lp_process (snd (run lp_process (lp_new m (of_Z 20) (of_Z 1)) (repeat f1 n))) xs)) -> y = B754_nan.
Proof. exact lp_diverges. Qed.
Theorem C84_highpass_f32_stable_refuted : forall m : libm, cos_accurate m -> pow_int_accurate m ->
  exists n : nat, forall (xs : list f32) (y : f32),
    In y (fst (run hp_process (snd (run hp_process (hp_new m (of_Z 20) (of_Z 1)) (repeat f1 n))) xs)) -> y = B754_nan.
Proof. exact hp_diverges. Qed.
Example C84_ex : exists m : libm, cos_accurate m /\ pow_int_accurate m.
Proof. exists ideal_libm. split; [exact ideal_cos_accurate|exact ideal_pow_int]. Qed.

(** ** C85: once the input has been the constant c for four samples it enters the recurrence only as one rounding residue d, the same for every sample *)
Theorem C85_highpass_constant_residue : forall (m : libm) (fc r : f64) (c : f32), cos_accurate m -> pow_int_accurate m ->
  let k := hp_coeff (hp_new m fc r) in fle (lit 1 (-10)) (hp_fc (hp_new m fc r)) = true ->
  fin c -> bpow radix2 (-100) <= Rabs (B2R c) <= bpow radix2 100 ->
  exists d : f32, fin d /\ Rabs (B2R d) <= 3 * bpow radix2 (-24) * Rabs (B2R c) /\
  forall s y1 y2 y3, hp_coeff s = k -> hp_hist s = (mkH c c c, mkH y1 y2 y3) ->
    fst (hp_process s c) = fadd (fadd (fadd d (fmul (hc_b1 k) y1)) (fmul (hc_b2 k) y2)) (fmul (hc_b3 k) y3).
Proof. exact hp_dc_residue. Qed.
(** but the residue is amplified: 130 Hz, resonance 0, constant 1.0 settles at a constant output above 0.01 *)
Theorem C85_highpass_removes_dc_refuted : forall m : libm, cos_accurate m -> pow_int_accurate m ->
  exists (n : nat) (v : f32), fin v /\ 1 / 100 < B2R v /\
  forall k, fst (run hp_process (snd (run hp_process (hp_new m (of_Z 130) f0) (repeat f1 n))) (repeat f1 k)) = repeat v k.
Proof. exact hp_dc_leaks. Qed.
Example C85_ex : fle (lit 1 (-10)) (hp_fc (hp_new ideal_libm (of_Z 130) f0)) = true /\ bpow radix2 (-100) <= Rabs (B2R (f1 : f32)) <= bpow radix2 100.
Proof.
  split; [change (fle (lit 1 (-10)) (clamp_fc (of_Z 130)) = true); vm_compute; reflexivity|].
  assert (O : B2R (f1 : f32) = 1) by (unfold B2R; cbn; unfold F2R; cbn; lra). rewrite O, Rabs_R1.
  change 1 with (bpow radix2 0). split; apply bpow_le; lia.
Qed.
