(** Axioms used by the property theorems of Properties/Normalise.v (generated by tools/gen.py) *)
From Verif Require Import Properties.Normalise.

Definition audited :=
  (@C127_waveform,
   @C127_waveform_8_bit,
   @C127_order,
   @C127_already,
   @C127_twice_8_bit,
   @C127_constant_refuted,
   @C127_short_constant_refuted).
Print Assumptions audited.
