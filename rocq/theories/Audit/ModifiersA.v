(** Axioms used by the property theorems of Properties/Modifiers.v (generated by tools/gen.py) *)
From Verif Require Import Properties.Modifiers.

Definition audited :=
  (@C41_delay_exact,
   @C41_delay_new_state,
   @C42_delay_length,
   @C42_get_delay_round_trip,
   @C42_from_secs,
   @C43_delay_clone_length,
   @C43_echo_clone_length,
   @C43_clone_same_delay_refuted,
   @C44_echo_recurrence,
   @C44_echo_new_state,
   @C44_echo_short_panics,
   @C45_echo_bounded,
   @C46_adsr_gain_range,
   @C46_adsr_next_call,
   @C46_adsr_phases,
   @C46_adsr_stopped_silent,
   @C46_adsr_stopped_release,
   @C47_attack_linear,
   @C47_attack_completes,
   @C47_attack_completes_refuted,
   @C48_release_completes,
   @C48_release_linear,
   @C48_release_infinite,
   @C48_release_stalls,
   @C48_release_completes_refuted,
   @C49_zero_decay_nan,
   @C49_nan_forever,
   @C55_generic_difference_equation,
   @C55_generic_panics,
   @C57_gain,
   @C57_passthrough,
   @C57_zero,
   @C81_decay_completes,
   @C81_decay_linear,
   @C81_decay_completes_refuted).
Print Assumptions audited.
