(** * The envelope of a note *)
From Coq Require Import Reals.
From Flocq Require Import Core.Core.
Local Open Scope R_scope.

(** the gain of a held note after [t] samples: from 0 to 1 in [A] samples, down to [L] in [D] more, then [L] *)
Definition adsr_curve (A D L t : R) : R := Rmin (t / A) (Rmax L (1 - (t - A) * (1 - L) / D)).
(** ... released [u] samples ago with a release of [T] samples *)
Definition adsr_released (A D L T t u : R) : R := Rmax 0 (adsr_curve A D L t - u * L / T).
(** what rounding does to it: the slopes of the attack and of the decay, and the sample at which the one turns into the other *)
Definition adsr_err (A D L : R) : R :=
  let a := A * bpow radix2 (-24) + bpow radix2 (-21) in
  a + (D * bpow radix2 (-23) + bpow radix2 (-19)) + (/ A + (1 - L) / D) * (1 + A * a).
Definition release_err (L T : R) : R := T / L * bpow radix2 (-23) + bpow radix2 (-21).
