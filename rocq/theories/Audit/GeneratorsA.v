(** Axioms used by the property theorems of Properties/Generators.v (generated by tools/gen.py) *)
From Verif Require Import Properties.Generators.

Definition audited :=
  (@C30_saw_range,
   @C30_saw_negative_refuted,
   @C31_saw_drift,
   @C31_saw_tuning,
   @C32_tri_range,
   @C33_slope_parity,
   @C33_get_frequency_refuted,
   @C33_clone_inverted_refuted,
   @C33_slope_turns,
   @C34_square_values,
   @C34_square_period,
   @C34_square_period_int,
   @C35_catch_up_refuted,
   @C35_dc_refuted,
   @C36_sine_range,
   @C36_high_panics_refuted,
   @C36_96000_panics,
   @C37_sine_negative_silent,
   @C38_noise_range,
   @C39_get_set,
   @C39_phase_kept,
   @C40_clone_restarts,
   @C40_monowav_clone_restarts,
   @C80_sine_accuracy,
   @C80_sine_sample).
Print Assumptions audited.
