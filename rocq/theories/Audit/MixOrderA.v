(** Axioms used by the property theorems of Properties/MixOrder.v (generated by tools/gen.py) *)
From Verif Require Import Properties.MixOrder.

Definition audited :=
  (@C123_mono_order,
   @C123_stereo_order,
   @C123_mono_two_sounds,
   @C123_stereo_two_sounds,
   @C123_on_a_grid,
   @C123_8_bit_sounds,
   @C123_same_bits_refuted).
Print Assumptions audited.
