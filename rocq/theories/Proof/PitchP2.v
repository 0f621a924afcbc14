(** * Proofs: a recorded sine, played at another speed *)
From Coq Require Import ZArith List Bool Reals Lra Lia Psatz.
From Flocq Require Import Core.Core IEEE754.BinarySingleNaN.
From Verif Require Import Model.Floats Model.Mono Model.Wav Model.Resampler Model.Generators Spec.Libm Spec.Playback Spec.Response Spec.Chain Spec.Pitch
  Proof.FloatFacts Proof.FormatsP Proof.WavP Proof.ResamplerP Proof.ResamplerP2 Proof.ResamplerP3 Proof.PlayP Proof.ChainP4 Proof.PitchP Proof.DetuneP.
Import ListNotations.
Local Open Scope R_scope.

Lemma near_tone_recording om w eps X xs : near_tone om w eps 0 0 X xs -> recording eps (rtone om w) (map mkMono xs).
Proof.
  intros H j d E. rewrite nth_error_map in E. destruct (nth_error xs j) as [x|] eqn:Ex; [|discriminate]. cbn [option_map] in E.
  injection E as <-. destruct (H j x Ex) as (_ & _ & B). cbn [mono]. rewrite rtone_tone. lra.
Qed.
Lemma near_tone_within om w eps K rho e xs : near_tone om w eps K rho (bpow radix2 e) xs -> within e (map mkMono xs).
Proof.
  intro H. apply Forall_forall. intros d Hd. apply in_map_iff in Hd. destruct Hd as (x & <- & Hx). cbn [mono].
  apply In_nth_error in Hx. destruct Hx as (j & Hj). destruct (H j x Hj) as (A & B & _). auto.
Qed.
Lemma modulus_sine : modulus (0, -1) = 1.
Proof. unfold modulus, cn2. cbn [fst snd]. replace (0 * 0 + -1 * -1) with 1 by ring. apply sqrt_1. Qed.
Lemma tone_sine om n : tone om (0, -1) n = sin (om * INR n).
Proof. unfold tone. cbn [fst snd]. ring. Qed.

Lemma recorded_sine m (f : f64) N k (speed : f64) n : sin_bounded m -> sin_zero m -> sin_accurate m -> fin f -> 0 <= B2R f <= 48000 ->
  (0 <= k <= 24)%Z -> (Z.of_nat N <= 2 ^ k)%Z -> (forall q, (0 <= q <= 22)%Z -> Z.of_nat N <> (2 ^ q + 1)%Z) ->
  fin speed -> / 1048576 <= B2R speed <= 1048576 ->
  exists ts s, sin_run m (repeat GNext N) (sin_new f) = Ok (ts, s) /\
  exists ys r', rcalls n (player (map mkMono ts) (of_Z 48000) speed) = Ok (ys, r') /\
  let c := B2R speed in let drift := c * bpow radix2 (-22) + bpow radix2 (k - 25) in let om := rad (B2R f) in
  forall i, (i < n)%nat -> INR i * (c + drift) < INR N - 1 ->
    exists p, Rabs (p - INR i * c) <= INR i * drift /\
    let D := bpow radix2 (-8) + om * om / 8 + om * (INR i * drift) in
    (~ below_power p -> Rabs (B2R (nth i ys f0) - sin (2 * PI * (B2R f * B2R speed) * INR i / 48000)) <= D) /\
    Rabs (B2R (nth i ys f0) - sin (2 * PI * (B2R f * B2R speed) * INR i / 48000)) <= D + om.
Proof.
  intros Sb Sz Sa Ff Hf Hk HN NQ Fs Hs. destruct (sine_near m f N Sb Sz Sa Ff Hf) as (ts & s & E & L & T). exists ts, s. split; [exact E|].
  destruct (of_Z64 48000 ltac:(lia)) as [Fr Vr]. assert (Ld : length (map mkMono ts) = N) by (rewrite map_length; exact L).
  assert (K24 : (2 ^ k <= 2 ^ 24)%Z) by (apply Z.pow_le_mono_r; lia).
  destruct (player_playing (map mkMono ts) (of_Z 48000) speed Fr ltac:(rewrite Vr; lra) Fs Hs ltac:(rewrite Ld; lia)) as (Pl & _).
  destruct (rcalls_ok (map mkMono ts) ltac:(rewrite Ld; lia) ltac:(rewrite Ld; exact NQ) n _ Pl eq_refl) as (ys & r' & Ec).
  exists ys, r'. split; [exact Ec|]. intros c drift om i Hi Q.
  change 1 with (bpow radix2 0) in T.
  pose proof (near_tone_within _ _ _ _ _ _ _ T) as W. pose proof (near_tone_recording _ _ _ _ _ T) as Rc.
  set (eps := bpow radix2 (-9) + INR (Nat.pred N) * bpow radix2 (-48)) in *.
  assert (Ep : bpow radix2 (0 - 22) + eps <= bpow radix2 (-8)).
  { assert (INR (Nat.pred N) <= bpow radix2 24).
    { apply Rle_trans with (INR N); [apply le_INR; lia|]. rewrite INR_IZR_INZ, <- IZR_pow2 by lia. apply IZR_le. lia. }
    unfold eps. change (bpow radix2 24) with 16777216 in *. simpl. lra. }
  assert (Eo : om = 2 * PI * B2R f / B2R (of_Z 48000 : f64)) by (rewrite Vr; reflexivity).
  assert (O0 : 0 <= om) by (unfold om, rad; pose proof PI_RGT_0; nra).
  assert (Cc : B2R (of_Z 48000 : f64) * B2R speed / 48000 = c) by (rewrite Vr; unfold c; field).
  pose proof (tone_playback 0 k (map mkMono ts) (of_Z 48000) speed n ys r' (B2R f) (0, -1) eps ltac:(lia) W Hk ltac:(rewrite Ld; exact HN) Fr ltac:(rewrite Vr; lra) Fs Hs ltac:(lra)) as H.
  cbn zeta in H. rewrite <- Eo, Cc, Ld in H. fold drift in H. specialize (H Rc Ec i Hi). rewrite <- INR_IZR_INZ in H. destruct (H Q) as (p & P & _ & A & B).
  exists p. split; [exact P|]. rewrite modulus_sine, tone_sine in A, B.
  replace (rad (B2R f * B2R speed) * INR i) with (2 * PI * (B2R f * B2R speed) * INR i / 48000) in A, B by (unfold rad; field).
  split; [intro NB; specialize (A NB)|]; lra.
Qed.
