(** * C118: notes *)
From Coq Require Import ZArith List Reals Lra Lia Psatz.
From Flocq Require Import Core.Core IEEE754.BinarySingleNaN.
From Verif Require Import Model.Floats Model.Utils Model.Generators Model.Modifiers Model.Sounds Model.Parts Spec.Libm Spec.Decibel Spec.Parts Spec.SoundSpec Spec.Chain Spec.Note
  Proof.FloatFacts Proof.FormatsP Proof.UtilsP Proof.AdsrP Proof.AdsrP2 Proof.AdsrP3 Proof.SoundsP Proof.SoundsP2 Proof.SoundsP3 Proof.NoteP Proof.NoteP2 Properties.AdsrShape.
Import ListNotations.
Local Open Scope R_scope.

(** C118: the gain of an ADSR that is held is the piecewise linear curve from 0 to 1 to the sustain level at every one of any number of samples *)
Theorem C118_held : forall (m : libm) (a d : duration) (s : f64) (r : duration), pow10_unit m -> pow10_accurate m ->
  is_finite s = true -> Rabs (B2R s) <= 2000 -> pos_dur a -> pos_dur d -> pos_dur r -> forall xs : list f32,
  let A := 48000 * dur_R a in let D := 48000 * dur_R d in let L := dB (Rmin (B2R s) 0) in A <= bpow radix2 22 ->
  Rabs (B2R (ad_g (after_n (adsr_new m a d s r) xs)) - adsr_curve A D L (INR (length xs))) <= adsr_err A D L.
Proof. exact held_envelope. Qed.
(** released at any moment, be it in the attack, it falls from there at the rate of L per release time, and stays at 0 *)
Theorem C118_released : forall (m : libm) (a d : duration) (s : f64) (r : duration), pow10_unit m -> pow10_accurate m ->
  is_finite s = true -> Rabs (B2R s) <= 2000 -> pos_dur a -> pos_dur d -> pos_dur r -> forall xs zs : list f32,
  let A := 48000 * dur_R a in let D := 48000 * dur_R d in let T := 48000 * dur_R r in let L := dB (Rmin (B2R s) 0) in A <= bpow radix2 22 ->
  Rabs (B2R (ad_g (after_n (adsr_release (after_n (adsr_new m a d s r) xs)) zs)) - adsr_released A D L T (INR (length xs)) (INR (length zs)))
    <= adsr_err A D L + release_err L T.
Proof. exact released_envelope. Qed.
(** every signal, shaped *)
Theorem C118_shaped : forall (m : libm) (a d : duration) (s : f64) (r : duration), pow10_unit m -> pow10_accurate m ->
  is_finite s = true -> Rabs (B2R s) <= 2000 -> pos_dur a -> pos_dur d -> pos_dur r -> forall (q : Z) (xs : list f32) (i : nat) (x : f32),
  let A := 48000 * dur_R a in let D := 48000 * dur_R d in let L := dB (Rmin (B2R s) 0) in A <= bpow radix2 22 ->
  (-100 <= q <= 100)%Z -> nth_error xs i = Some x -> is_finite x = true -> Rabs (B2R x) <= bpow radix2 q ->
  exists y, nth_error (fst (run adsr_process (adsr_new m a d s r) xs)) i = Some y /\ is_finite y = true /\ Rabs (B2R y) <= bpow radix2 q /\
    Rabs (B2R y - B2R x * adsr_curve A D L (INR (S i))) <= bpow radix2 q * adsr_err A D L + bpow radix2 (q - 25).
Proof. intros m a d s r H1 H2 H3 H4 H5 H6 H7 q xs i x A D L. exact (shaped m a d s r H1 H2 H3 H4 H5 H6 H7 q xs i x). Qed.
(** Sine::new(f) followed by ADSR::new(a, d, s, r) in a SimpleSound: the sine times the curve, whatever is fed in *)
Theorem C118_sine_note : forall (m : libm) (a d : duration) (s : f64) (r : duration), pow10_unit m -> pow10_accurate m ->
  is_finite s = true -> Rabs (B2R s) <= 2000 -> pos_dur a -> pos_dur d -> pos_dur r ->
  forall (f gi go : f64) (g : handle) (calls : list madd) (h : heap kit) (xs : list f32),
  let A := 48000 * dur_R a in let D := 48000 * dur_R d in let L := dB (Rmin (B2R s) 0) in A <= bpow radix2 22 ->
  sin_bounded m -> sin_zero m -> sin_accurate m -> is_finite f = true -> 0 <= B2R f <= 48000 ->
  NoDup (g :: added calls) -> map (get_mut kit h) (g :: added calls) = map Some [tone_block f; User kit (kit_modifier (MAdsr (adsr_new m a d s r)))] ->
  exists ys, outputs (run_res (ss_process kit kit_prime (kit_process m) (fold_left madd_step calls (ss_new gi go g))) h xs)
      = Ok (map (fun y => fmul y (to32 go)) ys) /\ length ys = length xs /\
    forall i y, nth_error ys i = Some y -> is_finite y = true /\ Rabs (B2R y) <= 1 /\
      Rabs (B2R y - adsr_curve A D L (INR (S i)) * sin (2 * PI * B2R f * INR i / 48000)) <= adsr_err A D L + bpow radix2 (-8) + INR i * bpow radix2 (-48).
Proof. exact sine_note. Qed.

(** one second of attack, one of decay, sustain at -20 dB, one of release: 1/2 after half a second, 0.55 after one and a half, 0.1 ever after;
    released then, 0.05 half a second later; rounding does not amount to a sixtieth *)
Example C118_ex : let A := 48000 * dur_R (mkDur 1 0) in let L := dB (Rmin (B2R (of_Z (-20) : f64)) 0) in
  A <= bpow radix2 22 /\ adsr_curve A A L 24000 = / 2 /\ adsr_curve A A L 72000 = 55 / 100 /\ adsr_curve A A L 1000000 = / 10 /\
  adsr_released A A L A 1000000 24000 = 5 / 100 /\ adsr_released A A L A 1000000 48000 = 0 /\
  adsr_err A A L <= / 60 /\ release_err L A <= / 17.
Proof.
  intros A L. destruct minus20 as (_ & _ & E). assert (EL : L = / 10) by exact E. clearbody L. subst L. assert (EA : A = 48000) by (unfold A; rewrite one_sec; lra). clearbody A. subst A.
  assert (C1 : adsr_curve 48000 48000 (/ 10) 1000000 = / 10).
  { replace 1000000 with (48000 + 952000) by lra. rewrite curve_decay by lra. apply Rmax_left. lra. }
  split; [change (bpow radix2 22) with 4194304; lra|].
  split; [rewrite curve_attack by lra; lra|].
  split; [replace 72000 with (48000 + 24000) by lra; rewrite curve_decay by lra; rewrite Rmax_right by lra; lra|].
  split; [exact C1|]. unfold adsr_released. rewrite C1.
  split; [rewrite Rmax_right by lra; lra|]. split; [apply Rmax_left; lra|].
  split; [unfold adsr_err|unfold release_err]; cbv zeta;
    repeat match goal with |- context [bpow radix2 (-24)] => change (bpow radix2 (-24)) with (/ 16777216) | |- context [bpow radix2 (-21)] => change (bpow radix2 (-21)) with (/ 2097152)
      | |- context [bpow radix2 (-23)] => change (bpow radix2 (-23)) with (/ 8388608) | |- context [bpow radix2 (-19)] => change (bpow radix2 (-19)) with (/ 524288) end; lra.
Qed.
