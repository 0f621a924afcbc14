(** * C108, C109: recordings played at another speed *)
From Coq Require Import ZArith List Reals Lra Lia Psatz.
From Flocq Require Import Core.Core IEEE754.BinarySingleNaN.
From Verif Require Import Model.Floats Model.Mono Model.Wav Model.Resampler Model.Generators Spec.Libm Spec.Playback Spec.Response Spec.Pitch Spec.Detune
  Proof.SampleFormatP Proof.ResamplerP2 Proof.ResamplerP3 Proof.PitchP Proof.PitchP2 Proof.DetuneP Properties.Playback.
Import ListNotations.
Local Open Scope R_scope.

(** C108: a track of at most 2^k samples that records a smooth curve, played at any speed, is the curve at the
    speeded-up time, up to the recording error, the sag of the chords and the drift of the position *)
Theorem C108_smooth : forall (e k : Z) (data : list Mono) (rate speed : f64) (n : nat) (ys : list f32) (r' : resampler) (L M : R) (g : R -> R) (eps : R),
  (-124 <= e <= 125)%Z -> within e data -> (0 <= k <= 24)%Z -> (Z.of_nat (length data) <= 2 ^ k)%Z ->
  is_finite rate = true -> 1 <= B2R rate <= 1048576 -> is_finite speed = true -> / 1048576 <= B2R speed <= 1048576 ->
  smooth L M g -> recording eps g data -> rcalls n (player data rate speed) = Ok (ys, r') ->
  let c := B2R rate * B2R speed / 48000 in let len := IZR (Z.of_nat (length data)) in
  let drift := c * bpow radix2 (-22) + bpow radix2 (k - 25) in
  let D i := bpow radix2 (e - 22) + eps + M / 8 + L * (INR i * drift) in
  forall i, (i < n)%nat -> INR i * (c + drift) < len - 1 ->
    exists p, Rabs (p - INR i * c) <= INR i * drift /\ is_finite (nth i ys f0) = true /\
      (~ below_power p -> Rabs (B2R (nth i ys f0) - g (INR i * c)) <= D i) /\
      Rabs (B2R (nth i ys f0) - g (INR i * c)) <= D i + L.
Proof. exact smooth_playback. Qed.
(** a recorded tone of F Hz is heard as a tone of F times the speed, whatever the rate of the recording *)
Theorem C108_tone : forall (e k : Z) (data : list Mono) (rate speed : f64) (n : nat) (ys : list f32) (r' : resampler) (F : R) (w : C) (eps : R),
  (-124 <= e <= 125)%Z -> within e data -> (0 <= k <= 24)%Z -> (Z.of_nat (length data) <= 2 ^ k)%Z ->
  is_finite rate = true -> 1 <= B2R rate <= 1048576 -> is_finite speed = true -> / 1048576 <= B2R speed <= 1048576 -> 0 <= F ->
  let om := 2 * PI * F / B2R rate in
  recording eps (rtone om w) data -> rcalls n (player data rate speed) = Ok (ys, r') ->
  let c := B2R rate * B2R speed / 48000 in let len := IZR (Z.of_nat (length data)) in
  let drift := c * bpow radix2 (-22) + bpow radix2 (k - 25) in
  let D i := bpow radix2 (e - 22) + eps + modulus w * (om * om / 8 + om * (INR i * drift)) in
  forall i, (i < n)%nat -> INR i * (c + drift) < len - 1 ->
    exists p, Rabs (p - INR i * c) <= INR i * drift /\ is_finite (nth i ys f0) = true /\
      (~ below_power p -> Rabs (B2R (nth i ys f0) - tone (rad (F * B2R speed)) w i) <= D i) /\
      Rabs (B2R (nth i ys f0) - tone (rad (F * B2R speed)) w i) <= D i + modulus w * om.
Proof. exact tone_playback. Qed.
(** the library's own sine, recorded and played *)
Theorem C108_recorded_sine : forall (m : libm) (f : f64) (N : nat) (k : Z) (speed : f64) (n : nat),
  sin_bounded m -> sin_zero m -> sin_accurate m -> is_finite f = true -> 0 <= B2R f <= 48000 ->
  (0 <= k <= 24)%Z -> (Z.of_nat N <= 2 ^ k)%Z -> (forall q, (0 <= q <= 22)%Z -> Z.of_nat N <> (2 ^ q + 1)%Z) ->
  is_finite speed = true -> / 1048576 <= B2R speed <= 1048576 ->
  exists ts s, sin_run m (repeat GNext N) (sin_new f) = Ok (ts, s) /\
  exists ys r', rcalls n (player (map mkMono ts) (of_Z 48000) speed) = Ok (ys, r') /\
  let c := B2R speed in let drift := c * bpow radix2 (-22) + bpow radix2 (k - 25) in let om := rad (B2R f) in
  forall i, (i < n)%nat -> INR i * (c + drift) < INR N - 1 ->
    exists p, Rabs (p - INR i * c) <= INR i * drift /\
    let D := bpow radix2 (-8) + om * om / 8 + om * (INR i * drift) in
    (~ below_power p -> Rabs (B2R (nth i ys f0) - sin (2 * PI * (B2R f * B2R speed) * INR i / 48000)) <= D) /\
    Rabs (B2R (nth i ys f0) - sin (2 * PI * (B2R f * B2R speed) * INR i / 48000)) <= D + om.
Proof. exact recorded_sine. Qed.
(** every tone is a smooth curve *)
Theorem C108_tones_are_smooth : forall (om : R) (w : C), 0 <= om -> smooth (om * modulus w) (om * om * modulus w) (rtone om w).
Proof. exact rtone_smooth. Qed.
(** 12 kHz at 48 kHz is 0, 1, 0, -1; at half speed the quarter points of 6 kHz come out as chords: 1/2 for sin(pi/4) *)
Example C108_ex : recording 0 (rtone (2 * PI * 12000 / 48000) (0, -1)) (samples [0; 1; 0; -1]%Z)
  /\ outputs (rcalls 6 (player (samples [0; 1; 0; -1]%Z) (of_Z 48000) (lit 1 (-1))))
    = Some [part 0 0; part 1 (-1); part 1 0; part 1 (-1); part 0 0; part (-1) (-1)].
Proof.
  split; [|vm_compute; reflexivity].
  assert (V : forall z, (-1 <= z <= 1)%Z -> B2R (mono (mkMono (of_Z z))) = IZR z).
  { intros z Hz. exact (proj2 (of_Z32 z ltac:(lia))). }
  assert (Sn : forall t, rtone (2 * PI * 12000 / 48000) (0, -1) t = sin (t * (PI / 2))).
  { intro t. unfold rtone. cbn [fst snd]. replace (2 * PI * 12000 / 48000 * t) with (t * (PI / 2)) by field. ring. }
  intros j d E. rewrite Sn.
  destruct j as [|[|[|[|j]]]]; cbn [nth_error samples map] in E; try (destruct j; discriminate E); apply (f_equal (fun o => match o with Some x => x | None => d end)) in E; cbn beta iota in E; rewrite <- E, V by lia.
  - simpl. rewrite Rmult_0_l, sin_0, Rminus_0_r, Rabs_R0. lra.
  - simpl. rewrite Rmult_1_l, sin_PI2, Rminus_diag_eq, Rabs_R0 by reflexivity. lra.
  - simpl. replace ((1 + 1) * (PI / 2)) with PI by field. rewrite sin_PI, Rminus_0_r, Rabs_R0. lra.
  - simpl. replace ((1 + 1 + 1) * (PI / 2)) with (3 * (PI / 2)) by ring. rewrite sin_3PI2. rewrite Rminus_diag_eq, Rabs_R0 by reflexivity. lra.
Qed.

(** C109: between the positions 2^j and 2^(j+1) a resampler advances by the multiple of 2^(j-23) nearest to its step
    (of two equally near multiples by the even one, after at most one call) *)
Theorem C109_speed_is_rounded : forall (j : Z) (n : nat), (-100 <= j <= 100)%Z ->
  forall (r : resampler) (ys : list f32) (r' : resampler), playing r -> rcalls n r = Ok (ys, r') ->
  bpow radix2 j <= B2R (r_ind r) -> steady j (B2R (step r)) (B2R (r_ind r)) ->
  let q := B2R (r_ind r) + INR n * octave_step j (B2R (step r)) in
  q <= bpow radix2 (j + 1) -> q < IZR (Z.of_nat (length (r_data r))) -> B2R (r_ind r') = q.
Proof. exact octave_positions. Qed.
Theorem C109_one_call_to_steady : forall (j : Z) (r : resampler) (y : f32) (r' : resampler), (-100 <= j <= 100)%Z -> playing r ->
  resampler_process r = Ok (y, r') -> bpow radix2 j <= B2R (r_ind r) -> B2R (r_ind r) < IZR (Z.of_nat (length (r_data r))) ->
  B2R (r_ind r) + B2R (step r) <= bpow radix2 (j + 1) -> steady j (B2R (step r')) (B2R (r_ind r')).
Proof. exact call_to_steady. Qed.
(** every track long enough comes to that stretch, and there records of smooth curves are heard at the rounded speed *)
Theorem C109_heard_at_rounded_speed : forall (e j : Z) (data : list Mono) (rate speed : f64) (L M : R) (g : R -> R) (eps : R),
  (-124 <= e <= 125)%Z -> within e data ->
  (Z.of_nat (length data) <= 2 ^ 24)%Z -> (forall q, (0 <= q <= 22)%Z -> Z.of_nat (length data) <> (2 ^ q + 1)%Z) ->
  is_finite rate = true -> 1 <= B2R rate <= 1048576 -> is_finite speed = true -> / 1048576 <= B2R speed <= 1048576 ->
  smooth L M g -> recording eps g data -> (0 <= j <= 23)%Z ->
  let s := B2R (step (player data rate speed)) in let a := octave_step j s in let d := bpow radix2 (j - 25) in
  let len := IZR (Z.of_nat (length data)) in
  d < s -> 2 * (s + 2 * d) <= bpow radix2 j -> bpow radix2 j + 2 * (s + 2 * d) < len ->
  exists n0 p0, bpow radix2 j <= p0 <= bpow radix2 j + 2 * (s + 2 * d) /\ (INR n0 - 2) * (s - d) < bpow radix2 j <= INR n0 * (s + d) /\
    forall n, exists ys r', rcalls (n0 + n) (player data rate speed) = Ok (ys, r') /\
      forall i, (i < n)%nat -> let p := p0 + INR i * a in
        p <= bpow radix2 (j + 1) -> p < len - 1 ->
        let y := nth (n0 + i) ys f0 in let D := bpow radix2 (e - 22) + eps + M / 8 in
        is_finite y = true /\ (~ below_power p -> Rabs (B2R y - g p) <= D) /\ Rabs (B2R y - g p) <= D + L.
Proof. exact octave_of_track. Qed.
(** relied on: a WAV file keeps its pitch.  In a file of 44.1 kHz a tone of F Hz is heard at 20/21 F from its 2^20th
    sample to its 2^21st (24 to 48 seconds: most of a semitone flat) and at 160/147 F from there to the 2^22nd
    (one and a half semitones sharp) *)
Theorem C109_cd_pitch_refuted : forall (e : Z) (data : list Mono) (F : R) (w : C) (eps : R) (j : Z) (a : R),
  (-124 <= e <= 125)%Z -> within e data ->
  (Z.of_nat (length data) <= 2 ^ 24)%Z -> (forall q, (0 <= q <= 22)%Z -> Z.of_nat (length data) <> (2 ^ q + 1)%Z) ->
  0 <= F -> recording eps (rtone (2 * PI * F / 44100) w) data ->
  (j, a) = (20%Z, 7 / 8) \/ (j, a) = (21%Z, 1) ->
  (2 ^ (j + 1) + 2 <= Z.of_nat (length data))%Z ->
  exists n0 n1 w', modulus w' = modulus w /\
    bpow radix2 j * (100 / 99) <= INR n0 <= bpow radix2 j * (118 / 100) /\ bpow radix2 j * (99 / 100) <= INR n1 * a /\
    forall n, exists ys r', rcalls (n0 + n) (monowav_from_track (of_Z 44100) data) = Ok (ys, r') /\
      forall i, (i < n)%nat -> (i < n1)%nat ->
        Rabs (B2R (nth (n0 + i) ys f0) - tone (rad (F * (a * 48000 / 44100))) w' i) <=
          bpow radix2 (e - 22) + eps + modulus w * (2 * PI * F / 44100) * (2 * PI * F / 44100) / 8.
Proof. exact cd_tone. Qed.
(** three quarters of the speed is the whole speed from position 2^22 on (a tie): a fourth too high *)
Example C109_ex_fourth : octave_step 22 (3 / 4) = 1 /\ ~ clear_step 22 (3 / 4).
Proof.
  assert (E : octave_step 22 (3 / 4) = 1).
  { unfold octave_step. replace (3 / 4 * bpow radix2 (23 - 22)) with (3 / 2) by (simpl; lra).
    rewrite half_nearest; unfold half; replace (Zfloor (3 / 2)) with 1%Z by (symmetry; apply Zfloor_imp; simpl; lra); simpl; lra. }
  split; [exact E|]. unfold clear_step. rewrite E, Rabs_left by lra. simpl. lra.
Qed.
(** the ratios: 20/21 and 160/147; at positions from 2 to 4 a step of 5/8 of the spacing becomes the whole spacing *)
Example C109_ex : (7 / 8 * 48000 / 44100 = 20 / 21) /\ (1 * 48000 / 44100 = 160 / 147)
  /\ match rcalls 3 (mkRes (samples [0; 1; 2; 3; 4]%Z) (of_Z 2) (of_Z 1) (lit 5 (-25)) 0 0) with
     | Ok (_, r) => Some (B2SF (r_ind r)) | Panic => None end = Some (part (2 ^ 23 + 3) (-22)).
Proof. split; [field|]. split; [field|]. vm_compute. reflexivity. Qed.
