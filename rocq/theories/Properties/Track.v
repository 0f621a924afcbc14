(** * C93, C94: the filters as the program runs them (f32 state, f64 coefficients rounded) follow the exact filters, and so have their frequency responses *)
From Coq Require Import ZArith List Bool Reals Lra Lia Psatz.
From Flocq Require Import Core.Core IEEE754.BinarySingleNaN.
From Verif Require Import Model.Floats Model.Modifiers Model.Filters Spec.Libm Spec.Response Spec.Track Proof.FloatFacts Proof.LibmP Proof.FormatsP Proof.GeneratorsP4
  Proof.FiltersP2 Proof.BandPassP Proof.BandPassF32P Proof.TrackP Proof.TrackP3 Proof.TrackP4 Properties.Response.
Import ListNotations.
Local Open Scope R_scope.

(** ** C93: for ever, however long the input, the distance to the exact filter is a fixed fraction of the input's amplitude
    ([bp_drift], [lp_drift], [hp_drift] of Spec/Track.v; the exact filters work over the reals with the clamped parameters, or with the reported corners) *)
Theorem C93_bandpass_tracks : forall (m : libm) (f q : f64) (X : R) (xs : list f32), tan_accurate m ->
  let s := bp_new m f q in let lo := fst (bp_get_corners m s) in let hi := snd (bp_get_corners m s) in
  fle (of_Z 20) lo = true /\ fle lo (of_Z 20000) = true -> fle (of_Z 20) hi = true /\ fle hi (of_Z 20000) = true ->
  bpow radix2 (-100) <= X <= bpow radix2 90 -> (forall x, In x xs -> is_finite x = true /\ Rabs (B2R x) <= X) ->
  Forall2 (fun y z => is_finite y = true /\ Rabs (B2R y - z) <= bp_drift (B2R lo) (B2R hi) * X)
    (fst (run (bp_process m) s xs)) (fst (run (bp_step AR Rminus (fun x : R => x) (fun x : R => x) (bp_at (B2R lo) (B2R hi))) (mkBPH 0 0 0 0) (map B2R xs))).
Proof. exact bp_tracks. Qed.
Theorem C93_lowpass_tracks : forall (m : libm) (fc r : f64) (X : R) (xs : list f32), cos_accurate m -> pow_int_accurate m ->
  let s := lp_new m fc r in fle (of_Z 600) (lp_fc s) = true ->
  bpow radix2 (-100) <= X <= bpow radix2 90 -> (forall x, In x xs -> is_finite x = true /\ Rabs (B2R x) <= X) ->
  Forall2 (fun y z => is_finite y = true /\ Rabs (B2R y - z) <= lp_drift (B2R (lp_fc s)) * X)
    (fst (run lp_process s xs)) (fst (run (lp_exact (B2R (lp_fc s)) (B2R (lp_r s))) (hist0 0) (map B2R xs))).
Proof. exact lp_tracks. Qed.
Theorem C93_highpass_tracks : forall (m : libm) (fc r : f64) (X : R) (xs : list f32), cos_accurate m -> pow_int_accurate m ->
  let s := hp_new m fc r in fle (of_Z 600) (hp_fc s) = true ->
  bpow radix2 (-100) <= X <= bpow radix2 90 -> (forall x, In x xs -> is_finite x = true /\ Rabs (B2R x) <= X) ->
  Forall2 (fun y z => is_finite y = true /\ Rabs (B2R y - z) <= hp_drift (B2R (hp_fc s)) * X)
    (fst (run hp_process s xs)) (fst (run (hp_exact (B2R (hp_fc s)) (B2R (hp_r s))) (hist0 0, hist0 0) (map B2R xs))).
Proof. exact hp_tracks. Qed.
(** the allowed distance at 12 kHz is below 1/2000 of the amplitude for LowPass, 1/250 for HighPass; the band pass built for corners 1 and 4 kHz
    stays within 1/1000 of an exact one with corners within a hertz, on any samples in [-1, 1] *)
Example C93_ex_12kHz : lp_drift 12000 <= / 2000 /\ hp_drift 12000 <= / 250.
Proof. exact drift_12k. Qed.
Example C93_ex : let s := bp_from_corners ideal_libm (of_Z 1000, of_Z 4000) in forall xs : list f32, (forall x, In x xs -> is_finite x = true /\ Rabs (B2R x) <= 1) ->
  exists lo hi : R, 999 <= lo <= 1001 /\ 3999 <= hi <= 4001 /\
  Forall2 (fun y z => Rabs (B2R y - z) <= / 1000) (fst (run (bp_process ideal_libm) s xs))
    (fst (run (bp_step AR Rminus (fun x : R => x) (fun x : R => x) (bp_at lo hi)) (mkBPH 0 0 0 0) (map B2R xs))).
Proof.
  intros s xs Hxs.
  assert (Q : fle (of_Z 999) (fst (bp_get_corners ideal_libm s)) = true /\ fle (fst (bp_get_corners ideal_libm s)) (of_Z 1001) = true /\
    fle (of_Z 3999) (snd (bp_get_corners ideal_libm s)) = true /\ fle (snd (bp_get_corners ideal_libm s)) (of_Z 4001) = true) by (vm_compute; repeat split).
  destruct Q as (Q1 & Q2 & Q3 & Q4).
  assert (A1 : audible (fst (bp_get_corners ideal_libm s))) by (vm_compute; split; reflexivity).
  assert (A2 : audible (snd (bp_get_corners ideal_libm s))) by (vm_compute; split; reflexivity).
  assert (T := C93_bandpass_tracks ideal_libm _ _ 1 xs ideal_tan A1 A2).
  change (bp_new ideal_libm _ _) with s in T.
  apply (between64 999 1001) in Q2; [|lia|lia|apply audible_R; exact A1|exact Q1]. apply (between64 3999 4001) in Q4; [|lia|lia|apply audible_R; exact A2|exact Q3].
  exists (B2R (fst (bp_get_corners ideal_libm s))), (B2R (snd (bp_get_corners ideal_libm s))). split; [exact Q2|]. split; [exact Q4|].
  eapply Forall2_weaken; [|apply T; [|exact Hxs]].
  - intros y z [_ B]. cbv beta in B. rewrite Rmult_1_r in B. apply Rle_trans with (1 := B). apply drift_1k_4k; assumption.
  - change (bpow radix2 (-100) <= bpow radix2 0 <= bpow radix2 90). split; apply bpow_le; lia.
Qed.

(** ** C94: a tone (to within [eps], samples at most X) through the program's filter becomes the tone multiplied by the filter's transfer function
    (lp_H, hp_H, bp_H: C91, C92), to within the distance of C93 and what the filter may make of the error of the input *)
Theorem C94_lowpass_tone : forall (m : libm) (fc r : f64) (x : nat -> f32) (om : R) (w : C) (eps X : R), cos_accurate m -> pow_int_accurate m ->
  let s := lp_new m fc r in fle (of_Z 600) (lp_fc s) = true -> bpow radix2 (-100) <= X <= bpow radix2 90 -> carries x om w eps X ->
  let f := B2R (lp_fc s) in let q := B2R (lp_r s) in
  hums (played lp_process s x) om (cmul (lp_H f q om) w) (lp_drift f * X + (6 / rad f + 3) * eps).
Proof. exact lp_tone_f32. Qed.
Theorem C94_highpass_tone : forall (m : libm) (fc r : f64) (x : nat -> f32) (om : R) (w : C) (eps X : R), cos_accurate m -> pow_int_accurate m ->
  let s := hp_new m fc r in fle (of_Z 600) (hp_fc s) = true -> bpow radix2 (-100) <= X <= bpow radix2 90 -> carries x om w eps X ->
  let f := B2R (hp_fc s) in let q := B2R (hp_r s) in
  hums (played hp_process s x) om (cmul (hp_H f q om) w) (hp_drift f * X + (12 / rad f + 8) * eps).
Proof. exact hp_tone_f32. Qed.
Theorem C94_bandpass_tone : forall (m : libm) (f q : f64) (x : nat -> f32) (om : R) (w : C) (eps X : R), tan_accurate m ->
  let s := bp_new m f q in let lo := fst (bp_get_corners m s) in let hi := snd (bp_get_corners m s) in
  fle (of_Z 20) lo = true /\ fle lo (of_Z 20000) = true -> fle (of_Z 20) hi = true /\ fle hi (of_Z 20000) = true ->
  bpow radix2 (-100) <= X <= bpow radix2 90 -> carries x om w eps X ->
  hums (played (bp_process m) s x) om (cmul (bp_H (B2R lo) (B2R hi) om) w)
    (bp_drift (B2R lo) (B2R hi) * X + 2 / ((1 - Rabs (pole_at (B2R lo))) * (1 - Rabs (pole_at (B2R hi)))) * eps).
Proof. exact bp_tone_f32. Qed.
(** a constant half through the program's 12 kHz low pass: half again, to within 1/4000, after a transient that dies geometrically *)
Example C94_ex : let s := lp_new ideal_libm (of_Z 12000) f0 in let half := lit 1 (-1) : f32 in
  exists K rho, 0 <= rho < 1 /\ forall n, Rabs (B2R (played lp_process s (fun _ => half) n) - / 2) <= / 4000 + K * rho ^ n.
Proof.
  intros s half. assert (H : is_finite half = true) by (vm_compute; reflexivity).
  assert (VH : B2R half = / 2) by (rewrite <- SF2R_B2SF; replace (B2SF half) with (SpecFloat.S754_finite false 8388608 (-24)) by (vm_compute; reflexivity); cbv [SF2R F2R cond_Zopp Fnum Fexp]; change (bpow radix2 (-24)) with (/ 16777216); lra).
  assert (FS : lp_fc s = of_Z 12000) by (apply B2SF_inj; vm_compute; reflexivity). assert (VS : B2R (lp_fc s) = 12000) by (rewrite FS; apply of_Z64; lia).
  assert (RS : lp_r s = f0) by (apply B2SF_inj; vm_compute; reflexivity).
  assert (HC : carries (fun _ => half) 0 (/ 2, 0) 0 (/ 2)).
  { intro n. split; [exact H|]. rewrite VH. unfold tone. cbn [fst snd]. rewrite Rmult_0_l, cos_0. split; apply Rabs_le; lra. }
  pose proof (C94_lowpass_tone ideal_libm (of_Z 12000) f0 (fun _ => half) 0 (/ 2, 0) 0 (/ 2) ideal_cos_accurate ideal_pow_int) as T. fold s in T. cbv zeta in T.
  destruct T as (K & rho & Hr & T).
  - vm_compute. reflexivity.
  - change (bpow radix2 (-100) <= bpow radix2 (-1) <= bpow radix2 90). split; apply bpow_le; lia.
  - exact HC.
  - exists K, rho. split; [exact Hr|]. intro n. destruct (T n) as [_ B]. rewrite VS, RS in B. change (B2R (f0 : f64)) with 0 in B.
    rewrite (proj1 (C91_lowpass_gain_exact 12000 0 0 ltac:(lra) ltac:(lra))) in B. pose proof (proj1 drift_12k).
    unfold tone, cmul in B. cbn [fst snd] in B. rewrite (Rmult_0_l (INR n)), cos_0 in B. apply Rabs_le. apply Rabs_le_inv in B. lra.
Qed.
