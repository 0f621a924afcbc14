(** Axioms used by the property theorems of Properties/Utils.v (generated by tools/gen.py) *)
From Verif Require Import Properties.Utils.

Definition audited :=
  (@C14_clamp,
   @C14_clerp_outside,
   @C14_clerp_at_x1,
   @C14_clerp_exact,
   @C15_samples_seconds_round_trip,
   @C15_round_trip_refuted,
   @C16_seconds_to_samples_accurate,
   @C16_seconds_to_samples_monotone,
   @C17_db_laws_exact,
   @C18_normalize_peak,
   @C18_normalize_flat,
   @C18_normalize_silence,
   @C18_normalize_single,
   @C18_normalize_length).
Print Assumptions audited.
