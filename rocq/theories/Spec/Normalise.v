(** * The waveform of a normalised track *)

From Coq Require Import ZArith List Reals.
From Flocq Require Import Core.Core IEEE754.BinarySingleNaN.
From Verif Require Import Model.Floats Spec.Rack.
Import ListNotations.
Local Open Scope R_scope.

(** the mean of a track and of its magnitudes, without rounding *)
Definition mean (t : list f32) : R := rsum (map B2R t) / INR (length t).
Definition mean_abs (t : list f32) : R := rsum (map (fun s => Rabs (B2R s)) t) / INR (length t).
(** the sample s less the constant c, times g *)
Definition levelled (g c : R) (s o : f32) : Prop :=
  is_finite o = true /\ Rabs (B2R o - g * (B2R s - c)) <= bpow radix2 (-22) * (g * Rabs (B2R s - c)) + bpow radix2 (-150).
