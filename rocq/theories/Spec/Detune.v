(** * The speed a resampler keeps to between two powers of two *)
From Coq Require Import ZArith Reals.
From Flocq Require Import Core.Core.
Local Open Scope R_scope.

(** f32 positions from 2^j to 2^(j+1) are multiples of 2^(j-23): the step becomes the nearest multiple *)
Definition octave_step (j : Z) (s : R) : R := IZR (ZnearestE (s * bpow radix2 (23 - j))) * bpow radix2 (j - 23).
(** not halfway between two multiples *)
Definition clear_step (j : Z) (s : R) : Prop := Rabs (s - octave_step j s) < bpow radix2 (j - 24).
(** ... or else at a position an even number of multiples from 0 *)
Definition steady (j : Z) (s p : R) : Prop := clear_step j s \/ exists K, p = IZR (2 * K) * bpow radix2 (j - 23).
