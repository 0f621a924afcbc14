(** * C121: filters whose parameters are changed while they run

    [moves_over y z1 z2 D] (Spec/Change.v): y is finite and within D of z1 at every sample, and ends up within D of z2.  [played step s x] is what
    the program puts out for the input x starting from the state s; [response step s x] is the same for the exact filter over the reals.
    [xx_past s] lists the samples the filter remembers; [within l B] says they are finite and at most B. *)
From Coq Require Import ZArith List Bool Reals Lra Lia Psatz.
From Flocq Require Import Core.Core IEEE754.BinarySingleNaN.
From Verif Require Import Model.Floats Model.Modifiers Model.Filters Spec.Libm Spec.Response Spec.Track Spec.Change Proof.FloatFacts Proof.LibmP Proof.FormatsP Proof.GeneratorsP4
  Proof.BandPassF32P Proof.TrackP Proof.TrackP3 Proof.TrackP4 Proof.ChangeP2 Proof.ChangeP3 Properties.Response.
Import ListNotations.
Local Open Scope R_scope.

(** ** the filter set to new parameters in the middle of a sound follows, from the very next sample, the exact filter with the new parameters started from the
    remembered samples, and forgets the old setting: in the end it follows the exact filter that was at rest when the parameters were changed *)
Theorem C121_lowpass_retuned : forall (m : libm) (s s' : lowpass) (fc r : f64) (B X : R) (x : nat -> f32), cos_accurate m -> pow_int_accurate m ->
  (s' = lp_set_fc m s fc \/ s' = lp_set_r m s r) ->
  is_finite (lp_fc s') = true -> 600 <= B2R (lp_fc s') <= 24000 -> is_finite (lp_r s') = true -> 0 <= B2R (lp_r s') <= 1 ->
  within (lp_past s) B -> B * pad_for (B2R (lp_fc s')) <= X -> bpow radix2 (-100) <= X <= bpow radix2 90 -> (forall n, is_finite (x n) = true /\ Rabs (B2R (x n)) <= X) ->
  let exact_filter := lp_exact (B2R (lp_fc s')) (B2R (lp_r s')) in
  moves_over (played lp_process s' x) (response exact_filter (nums (lp_outs s)) (fun n => B2R (x n))) (response exact_filter (hist0 0) (fun n => B2R (x n)))
    (lp_drift (B2R (lp_fc s')) * X).
Proof. exact lp_retuned. Qed.
Theorem C121_highpass_retuned : forall (m : libm) (s s' : highpass) (fc r : f64) (B X : R) (x : nat -> f32), cos_accurate m -> pow_int_accurate m ->
  (s' = hp_set_fc m s fc \/ s' = hp_set_r m s r) ->
  is_finite (hp_fc s') = true -> 600 <= B2R (hp_fc s') <= 24000 -> is_finite (hp_r s') = true -> 0 <= B2R (hp_r s') <= 1 ->
  within (hp_past s) B -> B * pad_for (B2R (hp_fc s')) <= X -> bpow radix2 (-100) <= X <= bpow radix2 90 -> (forall n, is_finite (x n) = true /\ Rabs (B2R (x n)) <= X) ->
  let exact_filter := hp_exact (B2R (hp_fc s')) (B2R (hp_r s')) in
  moves_over (played hp_process s' x) (response exact_filter (nums (fst (hp_hist s)), nums (snd (hp_hist s))) (fun n => B2R (x n)))
    (response exact_filter (hist0 0, hist0 0) (fun n => B2R (x n))) (hp_drift (B2R (hp_fc s')) * X).
Proof. exact hp_retuned. Qed.
Theorem C121_bandpass_retuned : forall (m : libm) (s s' : bandpass) (f q : f64) (c : f64 * f64) (B X : R) (x : nat -> f32), tan_accurate m ->
  (s' = bp_set_f64 m s f \/ s' = bp_set_quality m s q \/ s' = bp_set_corners m s c) ->
  let lo := fst (bp_get_corners m s') in let hi := snd (bp_get_corners m s') in
  fle (of_Z 20) lo = true /\ fle lo (of_Z 20000) = true -> fle (of_Z 20) hi = true /\ fle hi (of_Z 20000) = true ->
  within (bp_past s) B -> 10 * B <= X -> bpow radix2 (-100) <= X <= bpow radix2 90 -> (forall n, is_finite (x n) = true /\ Rabs (B2R (x n)) <= X) ->
  moves_over (played (bp_process m) s' x) (response (bp_real (B2R lo) (B2R hi)) (bnums (bp_hist s)) (fun n => B2R (x n)))
    (response (bp_real (B2R lo) (B2R hi)) (mkBPH 0 0 0 0) (fun n => B2R (x n))) (bp_drift (B2R lo) (B2R hi) * X).
Proof. exact bp_retuned. Qed.

(** ** so a tone comes out with the gain and phase of the new setting, whatever was heard before *)
Theorem C121_lowpass_retuned_tone : forall (m : libm) (s s' : lowpass) (fc r : f64) (B X : R) (x : nat -> f32) (om : R) (w : C) (eps : R), cos_accurate m -> pow_int_accurate m ->
  (s' = lp_set_fc m s fc \/ s' = lp_set_r m s r) ->
  is_finite (lp_fc s') = true -> 600 <= B2R (lp_fc s') <= 24000 -> is_finite (lp_r s') = true -> 0 <= B2R (lp_r s') <= 1 ->
  within (lp_past s) B -> B * pad_for (B2R (lp_fc s')) <= X -> bpow radix2 (-100) <= X <= bpow radix2 90 -> carries x om w eps X ->
  let f := B2R (lp_fc s') in let q := B2R (lp_r s') in
  hums (played lp_process s' x) om (cmul (lp_H f q om) w) (lp_drift f * X + (6 / rad f + 3) * eps).
Proof. exact lp_retuned_tone. Qed.
Theorem C121_highpass_retuned_tone : forall (m : libm) (s s' : highpass) (fc r : f64) (B X : R) (x : nat -> f32) (om : R) (w : C) (eps : R), cos_accurate m -> pow_int_accurate m ->
  (s' = hp_set_fc m s fc \/ s' = hp_set_r m s r) ->
  is_finite (hp_fc s') = true -> 600 <= B2R (hp_fc s') <= 24000 -> is_finite (hp_r s') = true -> 0 <= B2R (hp_r s') <= 1 ->
  within (hp_past s) B -> B * pad_for (B2R (hp_fc s')) <= X -> bpow radix2 (-100) <= X <= bpow radix2 90 -> carries x om w eps X ->
  let f := B2R (hp_fc s') in let q := B2R (hp_r s') in
  hums (played hp_process s' x) om (cmul (hp_H f q om) w) (hp_drift f * X + (12 / rad f + 8) * eps).
Proof. exact hp_retuned_tone. Qed.
Theorem C121_bandpass_retuned_tone : forall (m : libm) (s s' : bandpass) (f q : f64) (c : f64 * f64) (B X : R) (x : nat -> f32) (om : R) (w : C) (eps : R), tan_accurate m ->
  (s' = bp_set_f64 m s f \/ s' = bp_set_quality m s q \/ s' = bp_set_corners m s c) ->
  let lo := fst (bp_get_corners m s') in let hi := snd (bp_get_corners m s') in
  fle (of_Z 20) lo = true /\ fle lo (of_Z 20000) = true -> fle (of_Z 20) hi = true /\ fle hi (of_Z 20000) = true ->
  within (bp_past s) B -> 10 * B <= X -> bpow radix2 (-100) <= X <= bpow radix2 90 -> carries x om w eps X ->
  hums (played (bp_process m) s' x) om (cmul (bp_H (B2R lo) (B2R hi) om) w)
    (bp_drift (B2R lo) (B2R hi) * X + 2 / ((1 - Rabs (pole_at (B2R lo))) * (1 - Rabs (pole_at (B2R hi)))) * eps).
Proof. exact bp_retuned_tone. Qed.
(** a low pass at 3 kHz, whatever its coefficients, that remembers the outputs 1/8, -1/8 and 1/8 is set to 12 kHz and given a constant 1/2: half comes out, to within 1/2000, in the end *)
Example C121_ex : forall c : coeffs f32, let e := lit 1 (-3) : f32 in let half := lit 1 (-1) : f32 in
  let s := mkLP (of_Z 3000) f0 c (mkH e (fneg e) e) in let s' := lp_set_fc ideal_libm s (of_Z 12000) in
  within (lp_past s) (/ 8) /\
  exists K rho, 0 <= rho < 1 /\ forall n, Rabs (B2R (played lp_process s' (fun _ => half) n) - / 2) <= / 2000 + K * rho ^ n.
Proof.
  intros c e half s s'.
  assert (VE : is_finite e = true /\ B2R e = / 8) by (destruct (B2R_of_SF e false 8388608 (-26)) as [F ->]; [vm_compute; reflexivity|split; [exact F|cbn; lra]]).
  assert (VH : is_finite half = true /\ B2R half = / 2) by (destruct (B2R_of_SF half false 8388608 (-24)) as [F ->]; [vm_compute; reflexivity|split; [exact F|cbn; lra]]).
  assert (W : within (lp_past s) (/ 8)).
  { assert (Q : forallb (fun v => is_finite v && fle (fabs v) e) (lp_past s) = true) by (vm_compute; reflexivity).
    intros v Hv. rewrite forallb_forall in Q. specialize (Q v Hv). apply andb_prop in Q. destruct Q as [Q1 Q2]. split; [exact Q1|].
    apply fle_true in Q2; [|rewrite fabs_fin; exact Q1|apply VE]. rewrite fabs_R in Q2. rewrite (proj2 VE) in Q2. exact Q2. }
  split; [exact W|].
  assert (FS : lp_fc s' = of_Z 12000) by (apply B2SF_inj; vm_compute; reflexivity). assert (RS : lp_r s' = f0) by (apply B2SF_inj; vm_compute; reflexivity).
  destruct (of_Z64 12000 ltac:(lia)) as [F12 V12].
  assert (HC : carries (fun _ => half) 0 (/ 2, 0) 0 1).
  { intro n. split; [apply VH|]. rewrite (proj2 VH). unfold tone. cbn [fst snd]. rewrite Rmult_0_l, cos_0. split; apply Rabs_le; lra. }
  assert (PD : / 8 * pad_for (B2R (lp_fc s')) <= 1).
  { rewrite FS, V12. unfold pad_for, rad. pose proof PI_bounds as PB. replace (2 / (2 * PI * 12000 / 48000)) with (4 / PI) by (field; lra).
    assert (0 < 4 / PI <= 14 / 10) by (split; [apply Rdiv_lt_0_compat; lra|apply Rmult_le_reg_r with PI; [lra|]; unfold Rdiv at 1; rewrite Rmult_assoc, Rinv_l by lra; lra]).
    assert ((1 + 4 / PI) * (1 + 4 / PI) <= 24 / 10 * (24 / 10)) by (apply Rmult_le_compat; lra). lra. }
  pose proof (C121_lowpass_retuned_tone ideal_libm s s' (of_Z 12000) f0 (/ 8) 1 (fun _ => half) 0 (/ 2, 0) 0 ideal_cos_accurate ideal_pow_int (or_introl eq_refl)) as T.
  rewrite FS, RS, V12 in T. rewrite FS, V12 in PD. cbv zeta in T.
  destruct T as (K & rho & Hr & T); [exact F12|lra|reflexivity|change (B2R (f0 : f64)) with 0; lra|exact W|exact PD| |exact HC|].
  - change (bpow radix2 (-100) <= bpow radix2 0 <= bpow radix2 90). split; apply bpow_le; lia.
  - exists K, rho. split; [exact Hr|]. intro n. destruct (T n) as [_ BB]. change (B2R (f0 : f64)) with 0 in BB.
    rewrite (proj1 (C91_lowpass_gain_exact 12000 0 0 ltac:(lra) ltac:(lra))) in BB. pose proof (proj1 drift_12k).
    unfold tone, cmul in BB. cbn [fst snd] in BB. rewrite (Rmult_0_l (INR n)), cos_0 in BB. apply Rabs_le. apply Rabs_le_inv in BB. lra.
Qed.

(** ** the new parameters must be kept for a while: a band pass whose corners are set before every sample, alternately to two settings each of which alone keeps
    every output below 38 times the input, turns a single click into an infinity or a NaN *)
Theorem C121_alternating_corners_refuted : forall m : libm, tan_accurate m -> let a := (of_Z 1000, of_Z 2000) in let b := (of_Z 19800, of_Z 19900) in
  (forall c, c = a \/ c = b -> forall n y, In y (fst (run (bp_process m) (bp_from_corners m c) (of_Z 1 :: repeat f0 n))) -> is_finite y = true /\ Rabs (B2R y) <= 38) /\
  (forall n, (1200 <= n)%nat -> exists y, In y (wobble m a b (of_Z 1 :: repeat f0 n) (bp_from_corners m a)) /\ is_finite y = false).
Proof. exact alternating_corners. Qed.
Example C121_ex_alternating : exists (m : libm) (y : f32), tan_accurate m /\
  In y (wobble m (of_Z 1000, of_Z 2000) (of_Z 19800, of_Z 19900) (of_Z 1 :: repeat f0 1200) (bp_from_corners m (of_Z 1000, of_Z 2000))) /\ is_finite y = false.
Proof. destruct (proj2 (C121_alternating_corners_refuted ideal_libm ideal_tan) 1200%nat (Nat.le_refl _)) as [y H]. exists ideal_libm, y. split; [exact ideal_tan|exact H]. Qed.
