(** Axioms used by the property theorems of Properties/Chain.v (generated by tools/gen.py) *)
From Verif Require Import Properties.Chain.

Definition audited :=
  (@C105_sound_is_pipeline,
   @C105_chain_of_modifiers,
   @C105_simple_sound_tone,
   @C105_complex_sound_tone,
   @C105_levels_multiply,
   @C105_order_immaterial).
Print Assumptions audited.
