(** * C91, C92: frequency responses of LowPass, HighPass and BandPass, in exact arithmetic *)
From Coq Require Import ZArith List Bool Reals Lra Lia Psatz.
From Verif Require Import Model.Modifiers Model.Filters Spec.Response Proof.FiltersP2 Proof.BandPassP Proof.ResponseP Proof.ResponseP2 Proof.ResponseP3 Proof.GeneratorsP4.
Import ListNotations.
Local Open Scope R_scope.

Definition lp_exact (fc r : R) := lp_step Rplus Rmult (lp_coeffs AR (fun x : R => x) fc r).
Definition hp_exact (fc r : R) := hp_step Rplus Rmult (hp_coeffs AR (fun x : R => x) fc r).
Definition bp_exact (f q : R) := bp_step AR Rminus (fun x : R => x) (fun x : R => x) (bp_coeffs AR f q).

(** ** C91: from any state, a tone of any frequency, amplitude and phase settles to the tone multiplied by the transfer function
    1/(s^3 + k s^2 + k s + 1) (LowPass) or s^3/(s^3 + k s^2 + k s + 1) (HighPass) at s = (1 - e^(-j om)) / (2 pi fc / 48000) *)
Theorem C91_lowpass_tone_exact : forall (fc r om : R) (w : C) (h : hist R), 0 < fc <= 24000 -> 0 <= r <= 1 ->
  settles (response (lp_exact fc r) h (tone om w)) (tone om (cmul (lp_H fc r om) w)).
Proof. intros fc r om w h [H _] Hr. exact (lowpass_tone fc r om h w H Hr). Qed.
Theorem C91_highpass_tone_exact : forall (fc r om : R) (w : C) (st : hist R * hist R), 0 < fc <= 24000 -> 0 <= r <= 1 ->
  settles (response (hp_exact fc r) st (tone om w)) (tone om (cmul (hp_H fc r om) w)).
Proof. intros fc r om w st [H _] Hr. exact (highpass_tone fc r om st w H Hr). Qed.
(** what a filter heard before is forgotten, whatever it hears next *)
Theorem C91_filters_forget_exact : forall (fc r : R) (h h' : hist R) (st st' : hist R * hist R) (x : nat -> R), 0 < fc <= 24000 -> 0 <= r <= 1 ->
  settles (response (lp_exact fc r) h x) (response (lp_exact fc r) h' x) /\ settles (response (hp_exact fc r) st x) (response (hp_exact fc r) st' x).
Proof. intros fc r h h' st st' x [H _] Hr. exact (conj (lowpass_forget fc r h h' x H Hr) (highpass_forget fc r st st' x H Hr)). Qed.
(** the gain (squared modulus), in terms of m = 2 sin(om/2) / (2 pi fc / 48000), the frequency of the prototype:
    18 dB/octave beyond twice the cutoff, never above 1 + 1/t^2, and never above Butterworth's 1/(1+m^6) without resonance *)
Theorem C91_lowpass_gain_exact : forall fc r om : R, 0 < fc <= 24000 -> 0 <= r <= 1 -> let m := proto fc om in let G := cn2 (lp_H fc r om) in
  lp_H fc r 0 = (1, 0) /\ G <= 1 + / (rad fc * rad fc) /\ (2 <= Rabs m -> G <= 2 / m ^ 6) /\ (r = 0 -> G <= / (1 + m ^ 6)).
Proof. intros fc r om [H _] Hr m G. exact (conj (proj1 (lp_dc_gain fc r H Hr)) (lp_gain fc r om H Hr)). Qed.
Theorem C91_highpass_gain_exact : forall fc r om : R, 0 < fc <= 24000 -> 0 <= r <= 1 -> let m := proto fc om in let G := cn2 (hp_H fc r om) in
  hp_H fc r 0 = (0, 0) /\ (Rabs m <= / 2 -> G <= 2 * m ^ 6) /\ (r = 0 -> G <= m ^ 6 / (1 + m ^ 6)) /\ G = m ^ 6 * cn2 (lp_H fc r om).
Proof. intros fc r om [H _] Hr m G. exact (conj (proj2 (lp_dc_gain fc r H Hr)) (hp_gain fc r om H Hr)). Qed.
(** a Butterworth filter is 3 dB down (power gain 1/2) at its cutoff: this one is always further down *)
Theorem C91_lowpass_cutoff_3dB_refuted : forall fc : R, 0 < fc <= 24000 -> cn2 (lp_H fc 0 (rad fc)) < / 2.
Proof. exact lp_cutoff. Qed.
(** resonance 1 multiplies the tone with m = 1 by 1/(t sqrt(2+t)), t = 2 pi fc / 48000: without bound as the cutoff falls *)
Theorem C91_resonance_peak_exact : forall fc om : R, 0 < fc <= 24000 -> proto fc om ^ 2 = 1 ->
  cn2 (lp_H fc 1 om) = / ((2 + rad fc) * (rad fc * rad fc)) /\ cn2 (hp_H fc 1 om) = / ((2 + rad fc) * (rad fc * rad fc)).
Proof. intros fc om [H _]. exact (lp_peak fc om H). Qed.
(** a constant through a 1 kHz low pass from rest tends to itself, through the high pass to 0 *)
Example C91_ex : settles (response (lp_exact 1000 1) (mkH 0 0 0) (tone 0 (3, 0))) (tone 0 (3, 0)) /\
  settles (response (hp_exact 1000 1) (mkH 0 0 0, mkH 0 0 0) (tone 0 (3, 0))) (tone 0 (0, 0)) /\
  cn2 (lp_H 1000 0 PI) <= 1 / 10000.
Proof.
  split; [|split].
  - replace (3, 0) with (cmul (lp_H 1000 1 0) (3, 0)) at 2.
    + apply C91_lowpass_tone_exact; lra.
    + rewrite (proj1 (C91_lowpass_gain_exact 1000 1 0 ltac:(lra) ltac:(lra))). unfold cmul. cbn [fst snd]. f_equal; ring.
  - replace (0, 0) with (cmul (hp_H 1000 1 0) (3, 0)).
    + apply C91_highpass_tone_exact; lra.
    + rewrite (proj1 (C91_highpass_gain_exact 1000 1 0 ltac:(lra) ltac:(lra))). unfold cmul. cbn [fst snd]. f_equal; ring.
  - destruct (C91_lowpass_gain_exact 1000 0 PI ltac:(lra) ltac:(lra)) as (_ & _ & _ & B). specialize (B eq_refl).
    eapply Rle_trans; [exact B|]. replace (1 / 10000) with (/ 10000) by field. apply Rinv_le_contravar; [lra|].
    unfold proto. rewrite sin_PI2. unfold rad. pose proof PI_bounds as P.
    assert (X : 15 <= 2 * 1 / (2 * PI * 1000 / 48000)).
    { apply Rmult_le_reg_r with (2 * PI * 1000 / 48000); [lra|].
      replace (2 * 1 / (2 * PI * 1000 / 48000) * (2 * PI * 1000 / 48000)) with 2 by (field; lra). lra. }
    apply Rle_trans with (15 ^ 6); [lra|]. apply Rle_trans with (0 + (2 * 1 / (2 * PI * 1000 / 48000)) ^ 6); [|lra].
    rewrite Rplus_0_l. apply pow_incr. lra.
Qed.

(** ** C92: BandPass with corners lo, hi; warp v = tan(pi v / 48000) *)
Theorem C92_bandpass_tone_exact : forall (f q om : R) (w : C) (s s' : bph R) (x : nat -> R), 0 < f -> 0 < q ->
  forall lo hi, bp_corners AR f q = (lo, hi) -> hi < 24000 ->
  settles (response (bp_exact f q) s (tone om w)) (tone om (cmul (bp_H lo hi om) w)) /\
  settles (response (bp_exact f q) s x) (response (bp_exact f q) s' x).
Proof. intros f q om w s s' x Hf Hq lo hi E Hh. destruct (bandpass_tone f q om s w lo hi Hf Hq E Hh) as [A B]. exact (conj A (B s' x)). Qed.
Theorem C92_bandpass_gain_exact : forall lo hi v : R, 0 < lo < 24000 -> 0 < hi < 24000 -> 0 <= v < 24000 ->
  let h := warp hi in let l := warp lo in let T := warp v in let G := cn2 (bp_H lo hi (rad v)) in
  G = h * h * (T * T) / ((T * T + h * h) * (T * T + l * l)) /\ G <= (h / (h + l)) * (h / (h + l)).
Proof. intros lo hi v L H V h l T G. exact (conj (bp_mag_T lo hi v L H V) (proj1 (bp_peak lo hi (rad v) L H))). Qed.
(** the peak is where warp v is the geometric mean of the warped corners, and nowhere else *)
Theorem C92_bandpass_peak_exact : forall lo hi v : R, 0 < lo < 24000 -> 0 < hi < 24000 -> 0 <= v < 24000 ->
  let h := warp hi in let l := warp lo in cn2 (bp_H lo hi (rad v)) = (h / (h + l)) * (h / (h + l)) <-> warp v * warp v = h * l.
Proof. exact bp_peak_T. Qed.
(** "the centre frequency passes unchanged" and "the corners are 3 dB down": no frequency reaches unit gain, a narrow band (large quality)
    loses half the amplitude everywhere, and the corners are always less than 3 dB below the peak *)
Theorem C92_bandpass_unit_gain_refuted : forall f q lo hi v : R, 0 < f -> 0 < q -> bp_corners AR f q = (lo, hi) -> lo + hi <= 24000 -> 0 <= v < 24000 ->
  let G := cn2 (bp_H lo hi (rad v)) in G < 1 /\ G <= ((1 + / q) / 2) * ((1 + / q) / 2).
Proof.
  intros f q lo hi v Hf Hq E S V G. pose proof (bp_corners_spec f q Hf Hq) as C. rewrite E in C. destruct C as (_ & _ & L & H).
  destruct (hl_pos lo hi) as [Ph Pl]; [lra|lra|]. pose proof (bp_narrow f q lo hi Hf Hq E S) as N. cbv zeta in N.
  pose proof (proj1 (bp_peak lo hi (rad v) ltac:(lra) ltac:(lra))) as P. fold G in P.
  assert (R1 : 0 < warp hi / (warp hi + warp lo)) by (apply Rdiv_lt_0_compat; lra).
  assert (R2 : warp hi / (warp hi + warp lo) < 1).
  { apply Rmult_lt_reg_r with (warp hi + warp lo); [lra|]. unfold Rdiv. rewrite Rmult_assoc, Rinv_l by lra. lra. }
  split; nra.
Qed.
Theorem C92_bandpass_corners_3dB_refuted : forall lo hi v : R, 0 < lo < 24000 -> 0 < hi < 24000 -> 0 <= v < 24000 ->
  let G := fun f => cn2 (bp_H lo hi (rad f)) in G lo = G hi /\ / 2 * G v < G lo.
Proof.
  intros lo hi v L H V G. destruct (bp_corner_gain lo hi L H) as (A & B & D). pose proof (proj1 (bp_peak lo hi (rad v) L H)) as P.
  unfold G. rewrite A, B. split; [reflexivity|]. lra.
Qed.
(** DC and the Nyquist frequency are blocked *)
Theorem C92_bandpass_ends_exact : forall lo hi : R, 0 < lo < 24000 -> 0 < hi < 24000 -> cn2 (bp_H lo hi 0) = 0 /\ cn2 (bp_H lo hi PI) = 0.
Proof. intros lo hi L H. rewrite !bp_H_mag, cos_0, cos_PI by assumption. unfold Rdiv. split; ring. Qed.
Example C92_ex : exists lo hi, bp_corners AR 1000 10 = (lo, hi) /\ forall v, 0 <= v < 24000 -> cn2 (bp_H lo hi (rad v)) <= 31 / 100.
Proof.
  pose proof (bp_corners_spec 1000 10 ltac:(lra) ltac:(lra)) as C. destruct (bp_corners AR 1000 10) as [lo hi] eqn:E. destruct C as (A & B & L & H).
  exists lo, hi. split; [reflexivity|]. intros v V. destruct (C92_bandpass_unit_gain_refuted 1000 10 lo hi v ltac:(lra) ltac:(lra) E ltac:(lra) V) as [_ G].
  cbv zeta in G. lra.
Qed.
