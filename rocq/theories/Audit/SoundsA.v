(** Axioms used by the property theorems of Properties/Sounds.v (generated by tools/gen.py) *)
From Verif Require Import Properties.Sounds.

Definition audited :=
  (@C59_block_history,
   @C59_block_panics_iff_shared,
   @C60_simple_sound_is_series,
   @C60_simple_sound_step,
   @C60_unshared_series,
   @C60_built_sound,
   @C60_built_sound_is_series,
   @C61_simple_pause,
   @C61_complex_pause,
   @C62_simple_mute,
   @C62_complex_mute,
   @C63_simple_id,
   @C63_complex_id,
   @C63_simple_switches,
   @C63_complex_switches,
   @C63_toggles_involutive,
   @C63_gain_accessors,
   @C64_simple_clone_silent,
   @C64_complex_clone_panics,
   @C64_clone_plays_like_original_refuted,
   @C65_order_well_formed,
   @C65_edits_total,
   @C65_order_kept,
   @C66_complete_when_one_input,
   @C66_every_fed_block_processed_refuted,
   @C67_topological_when_one_input,
   @C67_inputs_first_refuted,
   @C68_no_source,
   @C69_unconnected_accumulates,
   @C70_linear_sound,
   @C70_same_as_simple).
Print Assumptions audited.
