(** Axioms used by the property theorems of Properties/Sweep.v (generated by tools/gen.py) *)
From Verif Require Import Properties.Sweep.

Definition audited :=
  (@C112_square_accuracy,
   @C113_sine_sweep,
   @C113_sawtooth_sweep,
   @C113_triangle_sweep_refuted).
Print Assumptions audited.
