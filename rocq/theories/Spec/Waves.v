(** * Ideal waveforms, as functions of the number of periods elapsed *)

From Coq Require Import Reals.
From Flocq Require Import Core.Raux.
Local Open Scope R_scope.

(** the triangle of amplitude 1 that starts at 0 rising, in step with the sine *)
Definition triangle_wave (p : R) : R := 2 / PI * asin (sin (2 * PI * p)).
(** the sawtooth rising from 0 with jumps from 1 to -1 halfway through the period *)
Definition sawtooth_wave (p : R) : R := 2 * p - 2 * IZR (Zfloor (p + / 2)).
