(** Axioms used by the property theorems of Properties/RingMod.v (generated by tools/gen.py) *)
From Verif Require Import Properties.RingMod.

Definition audited :=
  (@C124_block,
   @C124_sidebands,
   @C124_half_as_loud,
   @C124_folds,
   @C124_chord,
   @C124_two_sines,
   @C124_same_frequency,
   @C124_through_a_chain).
Print Assumptions audited.
