(** * Ring modulation: a block that multiplies its input by a sine *)
From Coq Require Import ZArith List Reals.
From Flocq Require Import Core.Core IEEE754.BinarySingleNaN.
From Verif Require Import Model.Floats Model.Generators Model.Modifiers Model.Sounds Model.Parts Spec.Response Spec.Chain Spec.Chord.
Import ListNotations.
Local Open Scope R_scope.

(** Sine::new(f) and a modifier, multiplied by the standard interactor *)
Definition ring_block (f : f64) (p : mpart) : block kit := User kit (kit_new (GSin (sin_new f)) p IDefault).
(** a tone times the sine of [a] radians per sample: a tone of the sum and one of the difference, half as loud each *)
Definition sidebands (a : R) (t : R * C) : list (R * C) :=
  let (om, w) := t in [(a + om, (snd w / 2, - (fst w / 2))); (a - om, (- (snd w / 2), - (fst w / 2)))].
(** error of the sine at sample [i] *)
Definition sine_err (i : nat) : R := bpow radix2 (-9) + INR i * bpow radix2 (-48).
