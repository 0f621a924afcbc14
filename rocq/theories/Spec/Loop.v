(** * Looped playback *)
From Coq Require Import ZArith List Reals.
From Flocq Require Import Core.Core IEEE754.BinarySingleNaN.
From Verif Require Import Model.Floats Model.Mono Model.Resampler.
Import ListNotations.
Local Open Scope R_scope.

(** a track of the given rate, played at the given speed, with a loop from sample [ls] to sample [le] *)
Definition looper (data : list Mono) (rate : f64) (ls le : Z) (speed : f64) : resampler := set_playback_speed (resampler_new data rate ls le) speed.
(** a curve that repeats after [l] samples *)
Definition repeats (l : Z) (g : R -> R) : Prop := forall t, g (t + IZR l) = g t.
(** [s] is a multiple of 2^[q] *)
Definition on_grid (q : Z) (s : R) : Prop := exists z : Z, s = IZR z * bpow radix2 q.
