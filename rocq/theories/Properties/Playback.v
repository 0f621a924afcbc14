(** * C98: pitch, duration and interpolation of MonoResampler at any speed *)

From Coq Require Import ZArith List Bool Reals Lra Lia.
From Flocq Require Import Core.Core IEEE754.BinarySingleNaN.
From Verif Require Import Model.Floats Model.Mono Model.Resampler Spec.Playback
  Proof.FloatFacts Proof.SampleFormatP Proof.ResamplerP2 Proof.PlayP.
Import ListNotations.
Local Open Scope R_scope.

(** ** C98 *)
(** call number i returns the track interpolated at i * rate * speed / 48000, up to a drift
    proportional to i; it is silent once that position is past the end by more than the drift *)
Theorem C98_playback : forall (e k : Z) (data : list Mono) (rate speed : f64) (n : nat) (ys : list f32) (r' : resampler),
  (-124 <= e <= 125)%Z -> within e data -> (0 <= k <= 24)%Z -> (Z.of_nat (length data) <= 2 ^ k)%Z ->
  is_finite rate = true -> 1 <= B2R rate <= 1048576 -> is_finite speed = true -> / 1048576 <= B2R speed <= 1048576 ->
  rcalls n (player data rate speed) = Ok (ys, r') ->
  let c := B2R rate * B2R speed / 48000 in let len := IZR (Z.of_nat (length data)) in
  let drift := c * bpow radix2 (-22) + bpow radix2 (k - 25) in
  forall i, (i < n)%nat ->
    (INR i * (c + drift) < len -> exists p, 0 <= p < len /\ Rabs (p - INR i * c) <= INR i * drift /\
       is_finite (nth i ys f0) = true /\
       (~ below_power p -> Rabs (B2R (nth i ys f0) - interpolated data p) <= bpow radix2 (e - 22))) /\
    (len <= INR i * (c - drift) -> nth i ys f0 = f0).
Proof. exact playback. Qed.
(** relied on: a track ends.  One longer than 2^m + 1 samples, played with a step between 2^(m-25)
    and 2^(m-24), repeats sample 2^m for ever *)
Theorem C98_slow_playback_ends_refuted : forall (e m : Z) (data : list Mono) (rate speed : f64),
  (e <= 126)%Z -> within e data -> (0 <= m <= 24)%Z -> (2 ^ m + 1 < Z.of_nat (length data) <= 2 ^ 60)%Z ->
  is_finite rate = true -> 1 <= B2R rate <= 1048576 -> is_finite speed = true -> / 1048576 <= B2R speed <= 1048576 ->
  let c := B2R rate * B2R speed / 48000 in
  bpow radix2 (m - 25) * (1 + bpow radix2 (-21)) <= c <= bpow radix2 (m - 24) * (1 - bpow radix2 (-21)) ->
  exists N, forall n, exists ys r', rcalls n (player data rate speed) = Ok (ys, r') /\
    forall i, (N <= i < n)%nat -> is_finite (nth i ys f0) = true /\ B2R (nth i ys f0) = held data (2 ^ m).
Proof. exact slow_player. Qed.
(** relied on: the output lies between the two neighbouring samples.  At the positions excepted above it is made
    from the left neighbour and the one after the right neighbour *)
Theorem C98_neighbours_refuted : forall (e k : Z) (r : resampler) (y : f32) (r' : resampler),
  (-124 <= e <= 125)%Z -> within e (r_data r) -> playing r -> (0 <= k <= 22)%Z ->
  (2 ^ k + 1 < Z.of_nat (length (r_data r)) <= 2 ^ 24)%Z -> B2R (r_ind r) = bpow radix2 k - bpow radix2 (k - 24) ->
  resampler_process r = Ok (y, r') ->
  let x1 := held (r_data r) (2 ^ k - 1) in let x3 := held (r_data r) (2 ^ k + 1) in
  is_finite y = true /\ Rabs (B2R y - (x1 + (1 - bpow radix2 (k - 24)) * (x3 - x1))) <= bpow radix2 (e - 22).
Proof. exact misread. Qed.

Definition outputs (x : res (list f32 * resampler)) : option (list SpecFloat.spec_float) :=
  match x with Ok (ys, _) => Some (map B2SF ys) | Panic => None end.
Definition samples (xs : list Z) : list Mono := map (fun z => mkMono (of_Z z)) xs.
Definition part (m e : Z) : SpecFloat.spec_float := B2SF (lit m e : f32).
(** half speed; then a speed of 1 - 2^-24, where the second output is (almost) the third sample, not the second *)
Example C98_ex : outputs (rcalls 7 (player (samples [1; 3; -1]%Z) (of_Z 48000) (lit 1 (-1))))
    = Some [part 1 0; part 1 1; part 3 0; part 1 0; part (-1) 0; part (-1) 0; part 0 0]
  /\ outputs (rcalls 2 (player (samples [0; 0; 1; 0]%Z) (of_Z 48000) (lit 16777215 (-24))))
    = Some [part 0 0; part 16777215 (-24)].
Proof. vm_compute. split; reflexivity. Qed.
(** a CD track at half speed: stuck after 2^23 samples, a little over three minutes of music *)
Example C98_ex_slow : let c := 44100 * / 2 / 48000 in
  bpow radix2 (23 - 25) * (1 + bpow radix2 (-21)) <= c <= bpow radix2 (23 - 24) * (1 - bpow radix2 (-21)).
Proof.
  change (bpow radix2 (23 - 25)) with (/ 4). change (bpow radix2 (23 - 24)) with (/ 2).
  change (bpow radix2 (-21)) with (/ 2097152). cbv zeta. lra.
Qed.
