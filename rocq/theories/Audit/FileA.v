(** Axioms used by the property theorems of Properties/File.v (generated by tools/gen.py) *)
From Verif Require Import Properties.File.

Definition audited :=
  (@C110_quantum,
   @C110_file,
   @C110_recording,
   @C110_sine_through_file).
Print Assumptions audited.
