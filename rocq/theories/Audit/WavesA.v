(** Axioms used by the property theorems of Properties/Waves.v (generated by tools/gen.py) *)
From Verif Require Import Properties.Waves.

Definition audited :=
  (@C97_triangle_accuracy,
   @C97_sawtooth_accuracy,
   @C97_set_same_frequency_refuted).
Print Assumptions audited.
