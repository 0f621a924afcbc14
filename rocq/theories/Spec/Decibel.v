(** * Decibels and the pan law, over the reals *)
From Coq Require Import ZArith Reals.
From Flocq Require Import Core.Core IEEE754.BinarySingleNaN.
From Verif Require Import Model.Floats Spec.Libm.
Local Open Scope R_scope.

(** gain of v decibels *)
Definition dB (v : R) : R := Rpower 10 (v / 20).
(** decibels of a gain *)
Definition decibels (g : R) : R := 20 * log10R g.

(** decimal logarithm of positive numbers accurate to a relative 2^-40 plus an absolute 2^-50 *)
Definition log10_accurate (m : libm) : Prop :=
  forall x : f64, is_finite x = true -> 0 < B2R x ->
    is_finite (log10_64 m x) = true /\ Rabs (B2R (log10_64 m x) - log10R (B2R x)) <= Rabs (log10R (B2R x)) * bpow radix2 (-40) + bpow radix2 (-50).

(** what panning does, in decibels per channel, for a position between -1 and 1: within each half both channels lose level from left to right *)
Definition pan_left (p : R) : R := if Rle_dec p 0 then -3 - 117 * (p + 1) else -3 * p.
Definition pan_right (p : R) : R := if Rle_dec 0 p then -3 - 117 * p else -3 * (p + 1).
