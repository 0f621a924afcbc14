(** * C50-C54, C56, C58: LowPass, HighPass, BandPass, Envelope; clones *)

From Coq Require Import ZArith List Bool Reals Lra Lia.
From Flocq Require Import Core.Core IEEE754.BinarySingleNaN.
From Verif Require Import Model.Floats Model.Utils Model.Generators Model.Modifiers Model.Filters Spec.Libm Proof.FloatFacts Proof.SampleFormatP Proof.FormatsP
  Proof.WavP Proof.GenericP Proof.AdsrP Proof.FiltersP Proof.FiltersP2 Proof.BandPassP Proof.EnvelopeP Proof.HighPassP Properties.Modifiers.
Import ListNotations.
Local Open Scope R_scope.

Definition idR (x : R) : R := x.

(** ** C50: [fop] = set_cutoff f | set_resonance r | process x | clone *)
Theorem C50_lowpass_clamped : forall (m : libm) (fc r : f64) (history : list fop),
  let s := fold_left (lp_op m) history (lp_new m fc r) in
  fle (lp_fc s) (of_Z 24000) = true /\ fle f0 (lp_r s) = true /\ fle (lp_r s) (of_Z 1) = true.
Proof. intros m fc r l s. destruct (lp_hist m _ l (lp_new_inv m fc r)) as [(A & _ & B & C & _) _]. auto. Qed.
Theorem C50_highpass_clamped : forall (m : libm) (fc r : f64) (history : list fop),
  let s := fold_left (hp_op m) history (hp_new m fc r) in
  fle (hp_fc s) (of_Z 24000) = true /\ fle f0 (hp_r s) = true /\ fle (hp_r s) (of_Z 1) = true.
Proof. intros m fc r l s. destruct (hp_hist_inv m _ l (hp_new_inv m fc r)) as [(A & _ & B & C & _) _]. auto. Qed.
(** values already in range are kept, others replaced by the nearer end; setters keep the samples *)
Theorem C50_setters : forall (m : libm) (s : lowpass) (h : highpass) (v : f64), is_finite v = true ->
  let fc' := Rmin (B2R v) 24000 in let r' := Rmax 0 (Rmin (B2R v) 1) in
  B2R (lp_fc (lp_set_fc m s v)) = fc' /\ B2R (lp_r (lp_set_r m s v)) = r' /\
  B2R (hp_fc (hp_set_fc m h v)) = fc' /\ B2R (hp_r (hp_set_r m h v)) = r' /\
  lp_outs (lp_set_fc m s v) = lp_outs s /\ lp_outs (lp_set_r m s v) = lp_outs s /\
  hp_hist (hp_set_fc m h v) = hp_hist h /\ hp_hist (hp_set_r m h v) = hp_hist h /\
  lp_r (lp_set_fc m s v) = lp_r s /\ lp_fc (lp_set_r m s v) = lp_fc s /\
  hp_r (hp_set_fc m h v) = hp_r h /\ hp_fc (hp_set_r m h v) = hp_fc h.
Proof.
  intros m s h v N. destruct (clamp_values v N) as [A B]. cbv zeta. repeat split; try exact A; exact B.
Qed.
Example C50_ex : fle (lp_fc (lp_new ideal_libm B754_nan (B754_infinity true))) (of_Z 24000) = true /\
  B2SF (lp_fc (lp_new ideal_libm (of_Z 30000) (of_Z 2))) = B2SF (of_Z 24000 : f64) /\
  B2SF (lp_r (lp_new ideal_libm (of_Z 100) (of_Z 2))) = B2SF (of_Z 1 : f64).
Proof.
  unfold lp_new, lp_reset. cbn [lp_fc lp_r]. split; [|split]; vm_compute; reflexivity.
Qed.

(** ** C51: in exact arithmetic ([lp_coeffs AR], [lp_step] over R): coefficients and recurrence of lowpass.rs *)
Theorem C51_lowpass_stable_exact : forall (fc r X : R) (xs : list R),
  0 < fc <= 24000 -> 0 <= r <= 1 -> 0 <= X -> (forall x, In x xs -> Rabs x <= X) ->
  forall y, In y (fst (run (lp_step Rplus Rmult (lp_coeffs AR idR fc r)) (hist0 0) xs)) ->
  Rabs y <= (6 / (2 * PI * fc / 48000) + 3) * X.
Proof. intros fc r X xs [H _]. exact (lowpass_stable fc r X xs H). Qed.
Theorem C51_lowpass_unit_dc_gain_exact : forall fc r c : R, 0 < fc <= 24000 -> 0 <= r <= 1 ->
  lp_step Rplus Rmult (lp_coeffs AR idR fc r) (mkH c c c) c = (c, mkH c c c).
Proof. intros fc r c [H _]. exact (lowpass_dc fc r c H). Qed.
Example C51_ex : exists y1 y2, fst (run (lp_step Rplus Rmult (lp_coeffs AR idR 8000 1)) (hist0 0) [1; 1]) = [y1; y2] /\
  Rabs y1 <= (6 / (2 * PI * 8000 / 48000) + 3) * 1 /\ Rabs y2 <= (6 / (2 * PI * 8000 / 48000) + 3) * 1.
Proof.
  do 2 eexists. split; [reflexivity|].
  assert (H : forall x, In x [1; 1] -> Rabs x <= 1) by (intros x [<-|[<-|[]]]; rewrite Rabs_pos_eq; lra).
  split; apply (C51_lowpass_stable_exact 8000 1 1 [1; 1] ltac:(lra) ltac:(lra) ltac:(lra) H); cbn; auto.
Qed.

(** ** C52 *)
Theorem C52_highpass_coefficients_cancel : forall (m : libm) (fc r : f64) (history : list fop),
  let c := hc_a (hp_coeff (fold_left (hp_op m) history (hp_new m fc r))) in c3 c = fneg (c0 c) /\ c1 c = fneg (c2 c).
Proof. exact hp_antisym_hist. Qed.
Theorem C52_highpass_stable_exact : forall (fc r X : R) (xs : list R),
  0 < fc <= 24000 -> 0 <= r <= 1 -> 0 <= X -> (forall x, In x xs -> Rabs x <= X) ->
  forall y, In y (fst (run (hp_step Rplus Rmult (hp_coeffs AR idR fc r)) (hist0 0, hist0 0) xs)) ->
  Rabs y <= 2 * X + (6 / (2 * PI * fc / 48000) + 3) * (2 * X).
Proof. intros fc r X xs [H _]. exact (highpass_stable fc r X xs H). Qed.
(** exact arithmetic: a constant input contributes nothing *)
Theorem C52_highpass_dc_exact : forall (fc r c y1 y2 y3 : R), 0 < fc <= 24000 -> 0 <= r <= 1 ->
  let k := hp_coeffs AR idR fc r in
  fst (hp_step Rplus Rmult k (mkH c c c, mkH y1 y2 y3) c) = hc_b1 k * y1 + hc_b2 k * y2 + hc_b3 k * y3.
Proof. intros fc r c y1 y2 y3 [H _] Hr. exact (highpass_dc fc r c y1 y2 y3 H Hr). Qed.
Example C52_ex : exists y, fst (run (hp_step Rplus Rmult (hp_coeffs AR idR 100 0)) (hist0 0, hist0 0) [1]) = [y] /\
  Rabs y <= 2 * 1 + (6 / (2 * PI * 100 / 48000) + 3) * (2 * 1).
Proof.
  eexists. split; [reflexivity|].
  apply (C52_highpass_stable_exact 100 0 1 [1] ltac:(lra) ltac:(lra) ltac:(lra)); [intros x [<-|[]]; rewrite Rabs_pos_eq; lra|].
  cbn; auto.
Qed.

(** ** C53 *)
Theorem C53_corners : forall f q : R, 0 < f -> 0 < q -> let '(lo, hi) := bp_corners AR f q in
  lo * hi = f * f /\ hi - lo = f / q /\ 0 < lo < f /\ f < hi.
Proof. exact bp_corners_spec. Qed.
Theorem C53_from_corners : forall a b : R, 0 < a -> 0 < b -> a <> b ->
  bp_corners AR (bp_from_f AR (a, b)) (bp_from_q AR (a, b)) = (Rmin a b, Rmax a b) /\
  bp_from_f AR (a, b) = bp_set_f AR (a, b) /\ bp_from_q AR (a, b) = bp_set_q AR (a, b).
Proof. exact bp_from_corners_R. Qed.
Example C53_ex : bp_corners AR (bp_from_f AR (400, 100)) (bp_from_q AR (400, 100)) = (100, 400).
Proof.
  rewrite (proj1 (C53_from_corners 400 100 ltac:(lra) ltac:(lra) ltac:(lra))). f_equal; unfold Rmin, Rmax; destruct (Rle_dec 400 100); lra.
Qed.

(** ** C54 *)
Theorem C54_bandpass_stable_exact : forall (f q X : R) (xs : list R), 0 < f -> 0 < q -> 0 <= X -> (forall x, In x xs -> Rabs x <= X) ->
  let '(lo, hi) := bp_corners AR f q in hi < 24000 ->
  forall y, In y (fst (run (bp_stepR (bp_coeffs AR f q)) (mkBPH 0 0 0 0) xs)) ->
  Rabs y <= 2 * X / ((1 - Rabs (pole lo)) * (1 - Rabs (pole hi))).
Proof. exact bandpass_stable. Qed.
(** the bound is a number: for corners in (0, 24000) both poles are strictly inside the unit circle *)
Theorem C54_poles_inside : forall fr : R, 0 < fr < 24000 -> Rabs (pole fr) < 1.
Proof. intros fr H. pose proof (bp_bl_range _ (bp_theta_pos fr H)) as B. apply Rabs_def1; apply B. Qed.
(** constant inputs ([x = x1 = x2]) and inputs alternating between two values ([x = x2]) *)
Theorem C54_feed_forward_zero_exact : forall (c : bpc R) (h : bph R) (x : R), bh_x2 h = x ->
  fst (bp_stepR c h x) = bc_b1 c * bh_y1 h - bc_b2 c * bh_y2 h.
Proof. exact bandpass_ff. Qed.
Example C54_ex : let '(lo, hi) := bp_corners AR 1000 2 in 0 < lo /\ hi < 24000 /\ Rabs (pole 1000) < 1.
Proof.
  pose proof (bp_corners_spec 1000 2 ltac:(lra) ltac:(lra)) as C. destruct (bp_corners AR 1000 2) as [lo hi].
  destruct C as (A & B & C & D). split; [lra|]. split; [lra|]. apply C54_poles_inside. lra.
Qed.

(** ** C56 *)
Theorem C56_envelope_range : forall (m : libm) (lower upper : f32) (k : Z) (xs : list f32), tan32_accurate m ->
  is_finite lower = true -> 0 <= B2R lower <= 10000 -> is_finite upper = true -> 0 <= B2R upper <= 10000 -> (0 <= k <= 100)%Z ->
  (forall x : f32, In x xs -> is_finite x = true /\ Rabs (B2R x) <= bpow radix2 k) ->
  forall y : f32, In y (fst (run (env_process num32) (env_new m lower upper) xs)) ->
  is_finite y = true /\ 0 <= B2R y <= 2 * bpow radix2 k.
Proof. exact envelope_range. Qed.
(** in exact arithmetic, and for any rise/fall coefficients in [0,1]: never above the largest magnitude so far *)
Theorem C56_envelope_exact : forall (thu thd M : R) (xs : list R), 0 <= thu <= 1 -> 0 <= thd <= 1 -> 0 <= M ->
  (forall x, In x xs -> Rabs x <= M) ->
  forall y, In y (fst (run (env_process numR) (env_of_theta numR 1 thu thd) xs)) -> 0 <= y <= M.
Proof. exact envelope_exact. Qed.
Example C56_libm : tan32_accurate ideal_libm.
Proof. exact ideal_tan32. Qed.
Example C56_ex : map B2SF (fst (run (env_process num32) (env_of_theta num32 (of_Z 1) (of_Z 1) (of_Z 1)) [fZ 1; fZ (-3); fZ 0]))
  = map B2SF [lit 1 (-1) : f32; fZ 2; lit 3 (-1) : f32].
Proof. vm_compute. reflexivity. Qed.

(** ** C58: the clone after any history IS the filter newly built with the reported parameters *)
Theorem C58_lowpass : forall (m : libm) (fc r : f64) (history : list fop),
  let s := fold_left (lp_op m) history (lp_new m fc r) in lp_clone s = lp_new m (lp_fc s) (lp_r s).
Proof. intros m fc r l s. apply lp_clone_new, lp_hist, lp_new_inv. Qed.
Theorem C58_highpass : forall (m : libm) (fc r : f64) (history : list fop),
  let s := fold_left (hp_op m) history (hp_new m fc r) in hp_clone s = hp_new m (hp_fc s) (hp_r s).
Proof. intros m fc r l s. apply hp_clone_new, hp_hist_inv, hp_new_inv. Qed.
Theorem C58_bandpass : forall (m : libm) (f q : f64) (history : list bop),
  let s := fold_left (bp_op m) history (bp_new m f q) in bp_clone s = bp_new m (bp_f s) (bp_q s).
Proof. intros m f q l s. apply bp_clone_new, bp_hist_inv. reflexivity. Qed.
Theorem C58_envelope : forall (m : libm) (lower upper : f32) (xs : list f32),
  env_clone num32 (snd (run (env_process num32) (env_new m lower upper) xs)) = env_new m lower upper.
Proof. exact env_clone_new. Qed.
Theorem C58_generic : forall (z p : list (Z * f32)) (xs ys : list f32) (s : generic),
  (forall c, In c z \/ In c p -> (0 <= fst c)%Z) ->
  run_res generic_process (generic_new z p) xs = Ok (ys, s) -> generic_clone s = generic_new z p.
Proof. exact generic_clone_new. Qed.
Theorem C58_adsr : forall (m : libm) (a d : duration) (sl : f64) (r : duration) (history : list ev),
  adsr_clone (adsr_after (adsr_new m a d sl r) history) = adsr_new m a d sl r.
Proof. exact adsr_clone_new. Qed.
Example C58_ex : exists ys s, run_res generic_process (generic_new [(0, fZ 1)]%Z [(1, fZ 1)]%Z) [fZ 1; fZ 2; fZ 3] = Ok (ys, s) /\
  map B2SF (gn_out s) = map B2SF [fZ 4; fZ 2] /\ map B2SF (gn_out (generic_clone s)) = map B2SF [fZ 0; fZ 0].
Proof. do 2 eexists. split; [reflexivity|]. split; vm_compute; reflexivity. Qed.
