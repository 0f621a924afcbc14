(** * C86, C87: the difference equations of the filters over the samples actually heard, and boundedness of BandPass in the program's arithmetic

    [ago k l n] (Spec/Delayed.v) is the sample k places before place n of the list l, zero before its start. *)

From Coq Require Import ZArith List Bool Reals Lra Lia.
From Flocq Require Import Core.Core IEEE754.BinarySingleNaN.
From Verif Require Import Model.Floats Model.Modifiers Model.Filters Spec.Libm Spec.Delayed Proof.FloatFacts Proof.LibmP Proof.FormatsP Proof.GeneratorsP4
  Proof.DiffEqP Proof.BandPassF32P Proof.TrackP3.
Import ListNotations.
Local Open Scope R_scope.

(** ** C86: every output is the documented combination of the last inputs and outputs, silence before the start *)
Theorem C86_lowpass_difference_equation : forall (s : lowpass) (xs : list f32) (n : nat), lp_outs s = hist0 f0 -> (n < length xs)%nat ->
  let ys := fst (run lp_process s xs) in let c := lp_coeff s in
  nth n ys f0 = fadd (fadd (fadd (fmul (c0 c) (ago 0 xs n)) (fmul (c1 c) (ago 1 ys n))) (fmul (c2 c) (ago 2 ys n))) (fmul (c3 c) (ago 3 ys n)).
Proof. exact lp_difference. Qed.
Theorem C86_highpass_difference_equation : forall (s : highpass) (xs : list f32) (n : nat), hp_hist s = (hist0 f0, hist0 f0) -> (n < length xs)%nat ->
  let ys := fst (run hp_process s xs) in let c := hp_coeff s in
  nth n ys f0 = fadd (fadd (fadd (fadd (fadd (fadd (fmul (c0 (hc_a c)) (ago 0 xs n)) (fmul (c1 (hc_a c)) (ago 1 xs n))) (fmul (c2 (hc_a c)) (ago 2 xs n)))
      (fmul (c3 (hc_a c)) (ago 3 xs n))) (fmul (hc_b1 c) (ago 1 ys n))) (fmul (hc_b2 c) (ago 2 ys n))) (fmul (hc_b3 c) (ago 3 ys n)).
Proof. exact hp_difference. Qed.
Theorem C86_bandpass_difference_equation : forall (m : libm) (s : bandpass) (xs : list f32) (n : nat), bp_hist s = bph0 -> (n < length xs)%nat ->
  let ys := fst (run (bp_process m) s xs) in let c := bp_coeff s in
  nth n ys f0 = to32 (fsub (fadd (fmul (bc_a0 c) (to64 (fsub (ago 0 xs n) (ago 2 xs n)))) (fmul (bc_b1 c) (to64 (ago 1 ys n)))) (fmul (bc_b2 c) (to64 (ago 2 ys n)))).
Proof. exact bp_difference. Qed.
(** a constant, or anything of period two (DC, the Nyquist frequency), enters the band pass through its first two samples only, with no residue *)
Theorem C86_bandpass_blocks_period_two : forall (m : libm) (s : bandpass) (xs : list f32) (n : nat), bp_hist s = bph0 -> (2 <= n < length xs)%nat ->
  is_finite (nth n xs f0) = true -> nth (n - 2) xs f0 = nth n xs f0 ->
  let ys := fst (run (bp_process m) s xs) in let c := bp_coeff s in
  nth n ys f0 = to32 (fsub (fadd (fmul (bc_a0 c) f0) (fmul (bc_b1 c) (to64 (nth (n - 1) ys f0)))) (fmul (bc_b2 c) (to64 (nth (n - 2) ys f0)))).
Proof. exact bp_period2. Qed.
(** a band pass with coefficients 1, 0, 0 is the two-sample comb x[n] - x[n-2] *)
Example C86_ex : map B2SF (fst (run (bp_process ideal_libm) (mkBP f1 f1 (mkBPC f1 f0 f0) bph0)
    [of_Z 5; of_Z 7; of_Z 9; of_Z 9; of_Z 9; of_Z 2])) = map B2SF [of_Z 5 : f32; of_Z 7; of_Z 4; of_Z 2; of_Z 0; of_Z (-7)].
Proof. vm_compute. reflexivity. Qed.

(** ** C87: BandPass is bounded for every pair of corners between 20 Hz and 20 kHz *)
Theorem C87_bandpass_f32_bounded : forall (m : libm) (f q : f64) (X : R) (xs : list f32), tan_accurate m ->
  let s := bp_new m f q in let lo := fst (bp_get_corners m s) in let hi := snd (bp_get_corners m s) in
  fle (of_Z 20) lo = true /\ fle lo (of_Z 20000) = true -> fle (of_Z 20) hi = true /\ fle hi (of_Z 20000) = true ->
  bpow radix2 (-100) <= X <= bpow radix2 90 -> (forall x, In x xs -> fin x /\ Rabs (B2R x) <= X) ->
  forall y, In y (fst (run (bp_process m) s xs)) -> fin y /\ Rabs (B2R y) <= (34000 / B2R lo + 3) * X.
Proof. exact bp_f32_stable. Qed.
(** in terms of the corners asked for, in either order *)
Theorem C87_bandpass_asked_corners_bounded : forall (m : libm) (a b : f64) (X : R) (xs : list f32), tan_accurate m -> fin a -> fin b ->
  20001 / 1000 <= B2R a <= 19999999 / 1000 -> 20001 / 1000 <= B2R b <= 19999999 / 1000 -> bpow radix2 (-20) <= Rabs (B2R a - B2R b) ->
  bpow radix2 (-100) <= X <= bpow radix2 90 -> (forall x, In x xs -> fin x /\ Rabs (B2R x) <= X) ->
  forall y, In y (fst (run (bp_process m) (bp_from_corners m (a, b)) xs)) -> fin y /\ Rabs (B2R y) <= (34001 / Rmin (B2R a) (B2R b) + 3) * X.
Proof. exact bp_corners_stable. Qed.
Example C87_ex : let c := bp_get_corners ideal_libm (bp_new ideal_libm (of_Z 1000) (of_Z 2)) in tan_accurate ideal_libm /\
  (fle (of_Z 20) (fst c) = true /\ fle (fst c) (of_Z 20000) = true) /\ (fle (of_Z 20) (snd c) = true /\ fle (snd c) (of_Z 20000) = true).
Proof. split; [exact ideal_tan|]. vm_compute. repeat split. Qed.
