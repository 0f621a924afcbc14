(** * C122: chords and repeating waveforms through a chain of linear modifiers *)

From Coq Require Import ZArith List Bool Reals Lra Lia.
From Flocq Require Import Core.Core IEEE754.BinarySingleNaN.
From Verif Require Import Model.Floats Model.Utils Model.Generators Model.Modifiers Model.Filters Model.Sounds Model.Parts
  Spec.Libm Spec.Response Spec.Track Spec.SoundSpec Spec.Parts Spec.Chain Spec.Convolve Spec.Waves Spec.Chord
  Proof.FloatFacts Proof.FormatsP Proof.LibmP Proof.SoundsP Proof.SoundsP2 Proof.SoundsP3 Proof.ChainP4 Proof.ConvolveP2 Proof.ChordP Proof.ChordP2 Proof.ChordP3 Properties.Chain.
Import ListNotations.
Local Open Scope R_scope.

(** ** C122 *)
(** several tones at once: each comes out multiplied by the response of the chain at its own frequency *)
Theorem C122_chord : forall (m : libm) (ps : list lpart), cos_accurate m -> pow_int_accurate m -> tan_accurate m -> (forall p, In p ps -> l_ok m p) ->
  forall ts : list (R * C), exists K rho, 0 <= K /\ 0 <= rho < 1 /\
  forall (eps X : R) (xs : list f32), 0 <= eps -> bpow radix2 (-100) <= X -> chain_amp m ps X <= bpow radix2 90 -> near_signal (chord ts) eps X xs ->
  exists ys, pipeline (b_prime kit kit_prime) (b_process kit (kit_process m)) (map (chain_block m) ps) xs = Ok ys /\ length ys = length xs /\
    ends_up (chord (chord_thru m ps ts)) (chain_err m ps eps X) K rho ys.
Proof. exact chord_passes. Qed.
(** a waveform of period [P] is the chord of its harmonics *)
Theorem C122_harmonics : forall (P : nat) (x : nat -> R), (0 < P)%nat -> repeats P 1 x -> forall n, x n = chord (harmonics P x) n.
Proof. exact harmonics_sum. Qed.
(** so what comes out ends up with the same period, each harmonic multiplied by the response at its frequency; it stays within the product
    of the gains, and a wave whose second half is the first one upside down stays such a wave *)
Theorem C122_waveform : forall (m : libm) (ps : list lpart), cos_accurate m -> pow_int_accurate m -> tan_accurate m -> (forall p, In p ps -> l_ok m p) ->
  forall (P : nat) (x : nat -> R) (A : R), (0 < P)%nat -> repeats P 1 x -> (forall n, Rabs (x n) <= A) -> let z := chord (chord_thru m ps (harmonics P x)) in
  repeats P 1 z /\ (forall n, Rabs (z n) <= total_gain m ps * A) /\ (forall Q s, (0 < Q)%nat -> s * s = 1 -> repeats Q s x -> repeats Q s z) /\
  exists K rho, 0 <= K /\ 0 <= rho < 1 /\
  forall (eps X : R) (xs : list f32), 0 <= eps -> bpow radix2 (-100) <= X -> chain_amp m ps X <= bpow radix2 90 -> near_signal x eps X xs ->
  exists ys, pipeline (b_prime kit kit_prime) (b_process kit (kit_process m)) (map (chain_block m) ps) xs = Ok ys /\ length ys = length xs /\
    ends_up z (chain_err m ps eps X) K rho ys.
Proof. exact wave_passes. Qed.
(** such waves have no even harmonics *)
Theorem C122_no_even_harmonics : forall (m : nat) (x : nat -> R) (k : nat), (1 <= m)%nat -> repeats m (-1) x -> snd (harmonic (2 * m) x (2 * k)) = (0, 0).
Proof. exact no_even. Qed.
(** Square::new of a frequency that divides 24000 Hz and the chain in a SimpleSound, from the first sample on, whatever is fed in *)
Theorem C122_square_sound : forall (lm : libm) (q : Z) (m : nat) (ps : list lpart) (gi go : f64) (g : handle) (calls : list madd) (h : heap kit),
  cos_accurate lm -> pow_int_accurate lm -> tan_accurate lm -> (1 <= m)%nat -> (1 <= q)%Z -> (Z.of_nat m * q = 24000)%Z ->
  (forall p, In p ps -> l_ok lm p) -> chain_amp lm ps 1 <= bpow radix2 90 ->
  NoDup (g :: added calls) -> map (get_mut kit h) (g :: added calls) = map Some (square_block (of_Z q) :: map (chain_block lm) ps) ->
  let z := chord (chord_thru lm ps (harmonics (2 * m) (square_wave m))) in
  repeats m (-1) z /\ (forall n, Rabs (z n) <= total_gain lm ps) /\ exists K rho, 0 <= K /\ 0 <= rho < 1 /\ forall xs : list f32, exists ys,
    outputs (run_res (ss_process kit kit_prime (kit_process lm) (fold_left madd_step calls (ss_new gi go g))) h xs) = Ok (map (fun y => fmul y (to32 go)) ys) /\
    length ys = length xs /\ ends_up z (chain_err lm ps 0 1) K rho ys.
Proof. exact square_sound. Qed.
(** Triangle::new of any frequency of which [P] samples are whole periods, and the chain; [INR i * 2^-50] is the drift of its phase *)
Theorem C122_triangle_sound : forall (lm : libm) (f : f64) (P k : nat) (ps : list lpart) (gi go : f64) (g : handle) (calls : list madd) (h : heap kit),
  cos_accurate lm -> pow_int_accurate lm -> tan_accurate lm -> is_finite f = true -> 0 <= B2R f <= 24000 -> (0 < P)%nat -> B2R f * INR P = 48000 * INR k ->
  (forall p, In p ps -> l_ok lm p) -> chain_amp lm ps 1 <= bpow radix2 90 ->
  NoDup (g :: added calls) -> map (get_mut kit h) (g :: added calls) = map Some (triangle_block f :: map (chain_block lm) ps) ->
  let x := fun n => triangle_wave (B2R f * INR n / 48000) in let z := chord (chord_thru lm ps (harmonics P x)) in
  repeats P 1 z /\ (forall n, Rabs (z n) <= total_gain lm ps) /\ (forall Q j, (0 < Q)%nat -> B2R f * INR Q = 24000 * (2 * INR j + 1) -> repeats Q (-1) z) /\
  exists K rho, 0 <= K /\ 0 <= rho < 1 /\ forall xs : list f32, exists ys,
    outputs (run_res (ss_process kit kit_prime (kit_process lm) (fold_left madd_step calls (ss_new gi go g))) h xs) = Ok (map (fun y => fmul y (to32 go)) ys) /\
    length ys = length xs /\
    forall i y, nth_error ys i = Some y -> is_finite y = true /\ Rabs (B2R y - z i) <= chain_err lm ps (bpow radix2 (-25) + INR i * bpow radix2 (-50)) 1 + K * rho ^ i.
Proof. exact triangle_sound. Qed.

(** a square of 12 kHz, 1, 1, -1, -1, ...: its fundamental, no mean and no second harmonic; the chain of C105 after it in a SimpleSound is in range *)
Definition square_heap : heap kit := map (fun b => mkCell kit 1 b) (square_block (of_Z 12000) :: map (chain_block ideal_libm) demo_chain).
Example C122_ex : map (square_wave 2) [0; 1; 2; 3; 4]%nat = [1; 1; -1; -1; 1] /\
  harmonic 4 (square_wave 2) 1 = (PI / 2, (/ 2, - / 2)) /\ snd (harmonic 4 (square_wave 2) 0) = (0, 0) /\ snd (harmonic 4 (square_wave 2) 2) = (0, 0) /\
  (Z.of_nat 2 * 12000 = 24000)%Z /\ (forall p, In p demo_chain -> l_ok ideal_libm p) /\ chain_amp ideal_libm demo_chain 1 <= bpow radix2 90 /\
  map (get_mut kit square_heap) (0%nat :: added [AddAll [1; 2]; AddOne 3; AddOne 4]%nat) = map Some (square_block (of_Z 12000) :: map (chain_block ideal_libm) demo_chain).
Proof.
  assert (FL : repeats 2 (-1) (square_wave 2)) by (apply square_flips; lia).
  split; [reflexivity|]. split.
  { unfold harmonic, square_wave. cbn [Nat.pred sum_f_R0 Nat.mul Nat.add Nat.modulo Nat.divmod fst snd Nat.sub Nat.ltb Nat.leb]. change (INR 0) with 0. change (INR 1) with 1. change (INR 2) with 2. replace (INR 3) with 3 by (cbn; ring). replace (INR 4) with 4 by (cbn; ring).
    replace (2 * PI * 1 / 4 * 0) with 0 by field. replace (2 * PI * 1 / 4 * 1) with (PI / 2) by field. replace (2 * PI * 1 / 4 * 2) with PI by field. replace (2 * PI * 1 / 4 * 3) with (3 * (PI / 2)) by field. replace (2 * PI * 1 / 4) with (PI / 2) by field.
    rewrite cos_0, sin_0, cos_PI2, sin_PI2, cos_PI, sin_PI, cos_3PI2, sin_3PI2. repeat f_equal; lra. }
  split; [exact (C122_no_even_harmonics 2 _ 0 ltac:(lia) FL)|]. split; [exact (C122_no_even_harmonics 2 _ 1 ltac:(lia) FL)|].
  split; [reflexivity|]. split; [exact (proj1 (proj2 C105_ex))|]. split; [exact (proj1 (proj2 (proj2 C105_ex)))|reflexivity].
Qed.
(** 7000 Hz: 48 samples are 7 periods, 24 samples three and a half *)
Example C122_ex_triangle : B2R (of_Z 7000 : f64) * INR 48 = 48000 * INR 7 /\ B2R (of_Z 7000 : f64) * INR 24 = 24000 * (2 * INR 3 + 1) /\
  (forall n, triangle_wave (7000 * INR (n + 24) / 48000) = - triangle_wave (7000 * INR n / 48000)).
Proof.
  destruct (of_Z64 7000 ltac:(lia)) as [_ V]. rewrite V. split; [rewrite !INR_IZR_INZ; cbn; lra|]. split; [rewrite !INR_IZR_INZ; cbn; lra|].
  intro n. assert (E : 7000 * INR 24 = 24000 * (2 * INR 3 + 1)) by (rewrite !INR_IZR_INZ; cbn; lra). rewrite (triangle_flips 7000 24 3 E n). ring.
Qed.
