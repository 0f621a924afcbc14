(** * C124: ring modulation *)

From Coq Require Import ZArith List Bool Reals Lra Lia.
From Flocq Require Import Core.Core IEEE754.BinarySingleNaN.
From Verif Require Import Model.Floats Model.Utils Model.Generators Model.Modifiers Model.Filters Model.Sounds Model.Parts
  Spec.Libm Spec.Response Spec.Track Spec.SoundSpec Spec.Parts Spec.Chain Spec.Convolve Spec.Chord Spec.RingMod
  Proof.FloatFacts Proof.FormatsP Proof.LibmP Proof.SoundsP Proof.SoundsP2 Proof.SoundsP3 Proof.ChainP4 Proof.RingModP Properties.Chain Properties.Parts.
Import ListNotations.
Local Open Scope R_scope.

(** ** C124 *)
(** a block of Sine::new(f) and any modifier that does not panic: the sine times what the modifier puts out, sample by sample, never louder *)
Theorem C124_block : forall (m : libm) (f : f64) (p : mpart) (xss : list (list f32)) (vs : list f32), sin_bounded m -> sin_zero m -> sin_accurate m ->
  is_finite f = true -> 0 <= B2R f <= 48000 -> outputs (run_res (mod_alone (m_step m)) p xss) = Ok vs -> length vs = length xss ->
  exists ys, outputs (run_res (cycle kit_prime (kit_process m)) (kit_new (GSin (sin_new f)) p IDefault) xss) = Ok ys /\ length ys = length xss /\
    forall i y, nth_error ys i = Some y -> exists v, nth_error vs i = Some v /\ (is_finite v = true -> is_finite y = true /\ Rabs (B2R y) <= Rabs (B2R v) /\
      Rabs (B2R y - sin (rad (B2R f) * INR i) * B2R v) <= (sine_err i + bpow radix2 (-24)) * Rabs (B2R v) + bpow radix2 (-150)).
Proof. exact ring_outputs. Qed.
(** a chord times a sine: every tone gives way to one of the sum and one of the difference of the frequencies, half as loud each *)
Theorem C124_sidebands : forall (a : R) (ts : list (R * C)) (n : nat), sin (a * INR n) * chord ts n = chord (flat_map (sidebands a) ts) n.
Proof. exact chord_ring. Qed.
Theorem C124_half_as_loud : forall (a om : R) (w : C) (t : R * C), In t (sidebands a (om, w)) -> (fst t = a + om \/ fst t = a - om) /\ cn2 (snd t) = cn2 w / 4.
Proof. exact sideband_level. Qed.
(** sums above 24000 Hz are heard as their difference to 48000 Hz *)
Theorem C124_folds : forall (f : R) (w : C) (n : nat), tone (rad f) w n = tone (rad (48000 - f)) (fst w, - snd w) n.
Proof. exact tone_fold. Qed.
(** so what comes in as a chord leaves a ring modulator as the chord of the sidebands *)
Theorem C124_chord : forall (m : libm) (f : f64) (ts : list (R * C)) (eps X : R) (xs : list f32), sin_bounded m -> sin_zero m -> sin_accurate m ->
  is_finite f = true -> 0 <= B2R f <= 48000 -> near_signal (chord ts) eps X xs ->
  exists ys, pipeline (b_prime kit kit_prime) (b_process kit (kit_process m)) [ring_block f MPass] xs = Ok ys /\ length ys = length xs /\
    forall i y, nth_error ys i = Some y -> is_finite y = true /\ Rabs (B2R y) <= X /\
      Rabs (B2R y - chord (flat_map (sidebands (rad (B2R f))) ts) i) <= eps + (sine_err i + bpow radix2 (-24)) * X + bpow radix2 (-150).
Proof. exact ring_chord. Qed.
(** two sines in a SimpleSound, whatever is fed in *)
Theorem C124_two_sines : forall (m : libm) (f c : f64) (gi go : f64) (g : handle) (calls : list madd) (h : heap kit) (xs : list f32), sin_bounded m -> sin_zero m -> sin_accurate m ->
  is_finite f = true -> 0 <= B2R f <= 48000 -> is_finite c = true -> 0 <= B2R c <= 48000 ->
  NoDup (g :: added calls) -> map (get_mut kit h) (g :: added calls) = map Some [tone_block f; ring_block c MPass] ->
  exists ys, outputs (run_res (ss_process kit kit_prime (kit_process m) (fold_left madd_step calls (ss_new gi go g))) h xs) = Ok (map (fun y => fmul y (to32 go)) ys) /\ length ys = length xs /\
    forall i y, nth_error ys i = Some y -> is_finite y = true /\ Rabs (B2R y) <= 1 /\
      Rabs (B2R y - (cos (rad (B2R c - B2R f) * INR i) / 2 - cos (rad (B2R c + B2R f) * INR i) / 2)) <= 2 * sine_err i + bpow radix2 (-23).
Proof. exact ring_two. Qed.
(** twice the same frequency: its octave on top of a constant one half *)
Theorem C124_same_frequency : forall (m : libm) (f : f64) (gi go : f64) (g : handle) (calls : list madd) (h : heap kit) (xs : list f32), sin_bounded m -> sin_zero m -> sin_accurate m ->
  is_finite f = true -> 0 <= B2R f <= 48000 ->
  NoDup (g :: added calls) -> map (get_mut kit h) (g :: added calls) = map Some [tone_block f; ring_block f MPass] ->
  exists ys, outputs (run_res (ss_process kit kit_prime (kit_process m) (fold_left madd_step calls (ss_new gi go g))) h xs) = Ok (map (fun y => fmul y (to32 go)) ys) /\ length ys = length xs /\
    forall i y, nth_error ys i = Some y -> Rabs (B2R y - (/ 2 - cos (rad (2 * B2R f) * INR i) / 2)) <= 2 * sine_err i + bpow radix2 (-23).
Proof. exact ring_same. Qed.
(** and through a chain of linear modifiers: each sideband with the chain's response at its own frequency *)
Theorem C124_through_a_chain : forall (m : libm) (f c : f64) (ps : list lpart) (gi go : f64) (g : handle) (calls : list madd) (h : heap kit),
  sin_bounded m -> sin_zero m -> sin_accurate m -> cos_accurate m -> pow_int_accurate m -> tan_accurate m ->
  is_finite f = true -> 0 <= B2R f <= 48000 -> is_finite c = true -> 0 <= B2R c <= 48000 -> (forall p, In p ps -> l_ok m p) -> chain_amp m ps 1 <= bpow radix2 90 ->
  NoDup (g :: added calls) -> map (get_mut kit h) (g :: added calls) = map Some (tone_block f :: ring_block c MPass :: map (chain_block m) ps) ->
  exists K rho, 0 <= K /\ 0 <= rho < 1 /\ forall xs : list f32, exists ys,
    outputs (run_res (ss_process kit kit_prime (kit_process m) (fold_left madd_step calls (ss_new gi go g))) h xs) = Ok (map (fun y => fmul y (to32 go)) ys) /\ length ys = length xs /\
    forall i y, nth_error ys i = Some y -> is_finite y = true /\
      Rabs (B2R y - chord (chord_thru m ps (sidebands (rad (B2R c)) (rad (B2R f), (0, -1)))) i) <= chain_err m ps (2 * sine_err i + bpow radix2 (-23)) 1 + K * rho ^ i.
Proof. exact ring_sound. Qed.

(** 440 Hz times 1000 Hz, and then half gain, a delay of two samples, an echo and a low pass (the chain of C105) *)
Definition ring_blocks : list (block kit) := tone_block (of_Z 440) :: ring_block (of_Z 1000) MPass :: map (chain_block ideal_libm) demo_chain.
Definition ring_heap : heap kit := map (fun b => mkCell kit 1 b) ring_blocks.
Example C124_ex : map (get_mut kit ring_heap) (seq 0 6) = map Some ring_blocks /\ (forall p, In p demo_chain -> l_ok ideal_libm p) /\ chain_amp ideal_libm demo_chain 1 <= bpow radix2 90 /\
  (is_finite (of_Z 440 : f64) = true /\ 0 <= B2R (of_Z 440 : f64) <= 48000) /\ (is_finite (of_Z 1000 : f64) = true /\ 0 <= B2R (of_Z 1000 : f64) <= 48000) /\
  map fst (sidebands (rad 1000) (rad 440, (0, -1))) = [rad 1440; rad 560].
Proof.
  destruct (of_Z64 440 ltac:(lia)) as [F4 V4]. destruct (of_Z64 1000 ltac:(lia)) as [F5 V5]. rewrite V4, V5.
  split; [reflexivity|]. split; [exact (proj1 (proj2 C105_ex))|]. split; [exact (proj1 (proj2 (proj2 C105_ex)))|]. split; [split; [exact F4|lra]|]. split; [split; [exact F5|lra]|].
  unfold sidebands, rad. cbn [map fst]. f_equal; [field|f_equal; field].
Qed.
(** the product on a few samples: a generator that plays 3, 5, 7 times an input of 10, 20, 30 *)
Example C124_ex_block : bits (run_res (cycle kit_prime (kit_process ideal_libm)) (kit_new ramp MPass IDefault) [[fZ 10]; [fZ 20]; [fZ 30]]) = whole [30; 100; 210]%Z.
Proof. vm_compute. reflexivity. Qed.
