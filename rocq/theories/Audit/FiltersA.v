(** Axioms used by the property theorems of Properties/Filters.v (generated by tools/gen.py) *)
From Verif Require Import Properties.Filters.

Definition audited :=
  (@C50_lowpass_clamped,
   @C50_highpass_clamped,
   @C50_setters,
   @C51_lowpass_stable_exact,
   @C51_lowpass_unit_dc_gain_exact,
   @C52_highpass_coefficients_cancel,
   @C52_highpass_stable_exact,
   @C52_highpass_dc_exact,
   @C53_corners,
   @C53_from_corners,
   @C54_bandpass_stable_exact,
   @C54_poles_inside,
   @C54_feed_forward_zero_exact,
   @C56_envelope_range,
   @C56_envelope_exact,
   @C58_lowpass,
   @C58_highpass,
   @C58_bandpass,
   @C58_envelope,
   @C58_generic,
   @C58_adsr).
Print Assumptions audited.
