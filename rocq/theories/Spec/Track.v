(** * How far the program's filters may be from the exact ones *)
From Coq Require Import List Reals.
From Flocq Require Import Core.Core IEEE754.BinarySingleNaN.
From Verif Require Import Model.Floats Model.Modifiers Model.Filters Spec.Response.
Local Open Scope R_scope.

(** the exact band pass with corners lo and hi *)
Definition bp_at (lo hi : R) : bpc R := mkBPC (bp_a0 AR lo hi) (bp_b1 AR lo hi) (bp_b2 AR lo hi).
Definition pole_at (f : R) : R := (1 - warp f) / (1 + warp f).
(** distance allowed per unit of input amplitude *)
Definition bp_drift (lo hi : R) : R := bpow radix2 (-22) * (34000 / lo + 5) / ((1 - Rabs (pole_at lo)) * (1 - Rabs (pole_at hi))).
Definition lp_drift (fc : R) : R := let u := rad fc in
  bpow radix2 (-21) * (6 / u + 3) * (1 + (7 + 6 * u + 2 * (u * u)) * (12 / u + 6) / u ^ 3).
Definition hp_drift (fc : R) : R := let u := rad fc in
  bpow radix2 (-20) * (6 / u + 3) * ((8 + (7 + 6 * u + 2 * (u * u)) * (48 / u + 26)) / u ^ 3).
(** [n]-th output of a machine of samples fed with the signal [x] *)
Definition played {St} (step : St -> f32 -> f32 * St) (s : St) (x : nat -> f32) (n : nat) : f32 :=
  nth n (fst (run step s (map x (seq 0 (S n))))) f0.
(** [x] is the tone, to within [eps], with samples of at most [X] *)
Definition carries (x : nat -> f32) (om : R) (w : C) (eps X : R) : Prop :=
  forall n, is_finite (x n) = true /\ Rabs (B2R (x n)) <= X /\ Rabs (B2R (x n) - tone om w n) <= eps.
(** [y] becomes the tone, to within [D] *)
Definition hums (y : nat -> f32) (om : R) (w : C) (D : R) : Prop :=
  exists K rho, 0 <= rho < 1 /\ forall n, is_finite (y n) = true /\ Rabs (B2R (y n) - tone om w n) <= D + K * rho ^ n.
