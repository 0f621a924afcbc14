(** * A track whose speed is set before every sample *)

From Coq Require Import ZArith List Reals.
From Flocq Require Import Core.Core IEEE754.BinarySingleNaN.
From Verif Require Import Model.Floats Model.Mono Model.Resampler Spec.Playback Spec.Loop.
Import ListNotations.
Local Open Scope R_scope.

(** what one call advances the position by, at the given rate and speed (mono_resampler.rs:34, 78) *)
Definition speed_step (rate speed : f64) : f32 := fmul (to32 (fmul rate INV_SAMPLE_RATE)) (to32 speed).
(** set_playback_speed and process in turns *)
Definition turning (ss : list f64) : list rop := flat_map (fun s => [RSpeed s; RProcess]) ss.
(** how far the track has got after calls with the given speeds *)
Definition travelled (rate : f64) (ss : list f64) : R := fold_right (fun s a => B2R (speed_step rate s) + a) 0 ss.
(** a step forwards in whole multiples of 2^(k-23) samples *)
Definition dyadic (k : Z) (s : R) : Prop := 0 <= s <= bpow radix2 k /\ on_grid (k - 23) s.
