(** Axioms used by the property theorems of Properties/Parts.v (generated by tools/gen.py) *)
From Verif Require Import Properties.Parts.

Definition audited :=
  (@C102_generator_block,
   @C102_modifier_block,
   @C102_product_block,
   @C102_swap,
   @C102_swap_shared,
   @C102_library_generators,
   @C102_library_modifiers,
   @C102_one_block_sound,
   @C103_simple_never_released,
   @C103_complex_never_released,
   @C103_note_ends_refuted,
   @C103_voice_heard_refuted,
   @C103_voice_primed,
   @C104_simple_no_panic,
   @C104_complex_no_panic).
Print Assumptions audited.
