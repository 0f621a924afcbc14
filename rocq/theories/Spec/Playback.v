(** * Playing a track at another speed *)

From Coq Require Import ZArith List Reals.
From Flocq Require Import Core.Core IEEE754.BinarySingleNaN.
From Verif Require Import Model.Floats Model.Mono Model.Resampler.
Import ListNotations.
Local Open Scope R_scope.

(** what the position of a resampler advances by per call, before rounding the sum
    (mono_resampler.rs:78) *)
Definition step (r : resampler) : f32 := fmul (r_inc r) (to32 (r_speed r)).

(** the i-th sample of a track; the last one is held *)
Definition held (data : list Mono) (i : Z) : R :=
  B2R (mono (nth (Z.to_nat (Z.min i (Z.of_nat (length data) - 1))) data mono_new)).
(** linear interpolation of a track at the real position p *)
Definition interpolated (data : list Mono) (p : R) : R :=
  let i := Zfloor p in held data i + (p - IZR i) * (held data (i + 1) - held data i).

(** the positions just below a power of two where adding 1 in f32 rounds up to an integer *)
Definition below_power (p : R) : Prop := exists k, (0 <= k <= 22)%Z /\ p = bpow radix2 k - bpow radix2 (k - 24).

(** a track of the given rate, played without a loop at the given speed *)
Definition player (data : list Mono) (rate speed : f64) : resampler :=
  set_playback_speed (resampler_new data rate 0 0) speed.

(** a resampler without a loop, at a finite position, moving forwards *)
Definition playing (r : resampler) : Prop :=
  r_le r = 0%Z /\ is_finite (r_ind r) = true /\ 0 <= B2R (r_ind r) /\
  is_finite (step r) = true /\ 0 <= B2R (step r) <= bpow radix2 100 /\
  (Z.of_nat (length (r_data r)) <= 2 ^ 60)%Z.
