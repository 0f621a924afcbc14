(** Axioms used by the property theorems of Properties/Response.v (generated by tools/gen.py) *)
From Verif Require Import Properties.Response.

Definition audited :=
  (@C91_lowpass_tone_exact,
   @C91_highpass_tone_exact,
   @C91_filters_forget_exact,
   @C91_lowpass_gain_exact,
   @C91_highpass_gain_exact,
   @C91_lowpass_cutoff_3dB_refuted,
   @C91_resonance_peak_exact,
   @C92_bandpass_tone_exact,
   @C92_bandpass_gain_exact,
   @C92_bandpass_peak_exact,
   @C92_bandpass_unit_gain_refuted,
   @C92_bandpass_corners_3dB_refuted,
   @C92_bandpass_ends_exact).
Print Assumptions audited.
