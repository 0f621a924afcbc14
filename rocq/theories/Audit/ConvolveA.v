(** Axioms used by the property theorems of Properties/Convolve.v (generated by tools/gen.py) *)
From Verif Require Import Properties.Convolve.

Definition audited :=
  (@C111_convolution,
   @C111_simple_sound,
   @C111_superposition,
   @C111_order,
   @C111_time_invariant,
   @C111_fourier,
   @C111_absolutely_summable).
Print Assumptions audited.
